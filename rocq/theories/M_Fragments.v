(** Model of the fragment selection, vayesta/core/qemb/qemb.py:1094-1164. *)
From Coq Require Import List Bool.
Import ListNotations.

Section Fragments.
(** Fragments, attribute names and attribute values with Python's [==]. *)
Context {frag key value : Type} (veqb : value -> value -> bool).
(** [getattr(frag, key)], [getattr_recursive(frag.opts, key)], [getattr_recursive(frag.flags, key)]; None: AttributeError. *)
Variables attr opt flag : frag -> key -> option value.

(** A filter: a callable, or a value/list of values made one-dimensional by [_values_atleast_1d], qemb.py:1126-1131.
    Simplification: a callable is total. *)
Inductive filt := Callable (p : value -> bool) | Values (l : list value).

(** [_skip], qemb.py:1133-1136. *)
Definition skip_ (a : value) (f : filt) : bool :=
  match f with
  | Callable p => negb (p a)
  | Values l => negb (existsb (veqb a) l)
  end.

(** One of the three for-loops, qemb.py:1142-1146, 1150-1154, 1156-1160: [skip] is the value of the variable before the
    loop, the result its value afterwards (unchanged if the dictionary is empty); None: exception. *)
Fixpoint check (get : key -> option value) (filters : list (key * filt)) (skip : bool) : option bool :=
  match filters with
  | [] => Some skip
  | (k, f) :: filters' =>
      match get k with
      | None => None
      | Some a => if skip_ a f then Some true else check get filters' false
      end
  end.

(** Loop body, qemb.py:1140-1163: whether the fragment is appended.  There is no [if skip: continue] after the options loop. *)
Definition keeps (filters options flags : list (key * filt)) (x : frag) : option bool :=
  match check (attr x) filters false with
  | None => None
  | Some true => Some false
  | Some false =>
      match check (opt x) options false with
      | None => None
      | Some skip =>
          match check (flag x) flags skip with
          | None => None
          | Some skip => Some (negb skip)
          end
      end
  end.

Fixpoint filter_fragments (filters options flags : list (key * filt)) (l : list frag) : option (list frag) :=
  match l with
  | [] => Some []
  | x :: l' =>
      match keeps filters options flags x with
      | None => None
      | Some b => match filter_fragments filters options flags l' with
                  | None => None
                  | Some r => Some (if b then x :: r else r)
                  end
      end
  end.

(** [get_fragments], qemb.py:1094-1164. *)
Definition get_fragments (fragments : list frag) (filters options flags : list (key * filt)) : option (list frag) :=
  match filters, options, flags with
  | [], [], [] => Some fragments
  | _, _, _ => filter_fragments filters options flags fragments
  end.
End Fragments.
Arguments filt : clear implicits.
