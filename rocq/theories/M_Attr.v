(** Model of the context manager [replace_attr], vayesta/core/util.py:569-584. *)
From Coq Require Import List Arith Bool.
Import ListNotations.

Section Attr.

(** Plain values and function values are opaque. *)
Variables (data func exn res : Type).

(** Attribute values. [Method f] is the function [f] bound to the object ([f.__get__(obj)]); [Static c] is a
    callable without [__get__] (e.g. a builtin). *)
Inductive value :=
| Data (d : data)
| Function (f : func)
| Method (f : func)
| Static (f : func).

(** An object: instance dictionary and class dictionary.  Attribute names are numbers. *)
Record object := { inst : nat -> option value; cls : nat -> option value }.

(** [getattr(obj, name)], vayesta/core/util.py:575: instance first, then class (functions found on the class are bound).
    [None] is AttributeError. *)
Definition getattr (o : object) (name : nat) : option value :=
  match inst o name with
  | Some v => Some v
  | None => match cls o name with
            | Some (Function f) => Some (Method f)
            | other => other
            end
  end.

(** [setattr(obj, name, v)]: writes the instance dictionary (no data descriptors or __slots__). *)
Definition setattr (o : object) (name : nat) (v : value) : object :=
  {| inst := fun n => if n =? name then Some v else inst o n; cls := cls o |}.

(** How a block ends. *)
Inductive outcome :=
| Returned (r : res)
| Raised (e : exn)
| AttributeError.

(** [attr.__get__(obj)] if callable, else the value, vayesta/core/util.py:576-579; [None]: no [__get__]. *)
Definition bind (v : value) : option value :=
  match v with
  | Data d => Some (Data d)
  | Function f => Some (Method f)
  | Method f => Some (Method f)
  | Static _ => None
  end.

(** The loop at vayesta/core/util.py:574-579.  Returns the object, the saved originals (in order) and whether the loop ended
    normally. *)
Fixpoint enter (kwargs : list (nat * value)) (o : object) (orig : list (nat * value))
  : object * list (nat * value) * bool :=
  match kwargs with
  | [] => (o, orig, true)
  | (name, attr) :: rest =>
      match getattr o name with
      | None => (o, orig, false)
      | Some old =>
          let orig' := orig ++ [(name, old)] in
          match bind attr with
          | None => (o, orig', false)
          | Some v => enter rest (setattr o name v) orig'
          end
      end
  end.

(** The [finally] part, vayesta/core/util.py:581-584. *)
Definition restore (orig : list (nat * value)) (o : object) : object :=
  fold_left (fun o na => setattr o (fst na) (snd na)) orig o.

(** [with replace_attr(obj, **kwargs): body], vayesta/core/util.py:569-584.  The body is an arbitrary state
    transformer on the object. *)
Definition with_replace_attr (kwargs : list (nat * value)) (body : object -> object * outcome) (o : object)
  : object * outcome :=
  let '(o1, orig, ok) := enter kwargs o [] in
  if ok then let '(o2, out) := body o1 in (restore orig o2, out)
  else (restore orig o1, AttributeError).

End Attr.
Arguments Data {data func} d.
Arguments Function {data func} f.
Arguments Method {data func} f.
Arguments Static {data func} f.
Arguments inst {data func} o n.
Arguments cls {data func} o n.
Arguments Build_object {data func} inst cls.
Arguments getattr {data func} o name.
Arguments setattr {data func} o name v.
Arguments bind {data func} v.
Arguments enter {data func} kwargs o orig.
Arguments restore {data func} orig o.
Arguments Returned {exn res} r.
Arguments Raised {exn res} e.
Arguments AttributeError {exn res}.
Arguments with_replace_attr {data func exn res} kwargs body o.
