(** Model of the option dataclass base, vayesta/core/util.py:629-710. *)
From Coq Require Import String List Bool.
Import ListNotations.
Local Open Scope string_scope.

Section Options.
(** Option values other than dictionaries are opaque. *)
Variable atom : Type.

Inductive value :=
| Atom (a : atom)
| Dict (d : list (string * atom)).

(** [self.__dict__] (vayesta/core/util.py:651) and Python dictionaries: insertion-ordered key/value lists. *)
Definition table := list (string * value).

Fixpoint lookup {V : Type} (k : string) (t : list (string * V)) : option V :=
  match t with
  | [] => None
  | (k', v) :: t' => if String.eqb k k' then Some v else lookup k t'
  end.

Definition has_key {V : Type} (k : string) (t : list (string * V)) : bool :=
  match lookup k t with Some _ => true | None => false end.

(** Dictionary assignment: overwrite in place or append. *)
Fixpoint set_key {V : Type} (k : string) (v : V) (t : list (string * V)) : list (string * V) :=
  match t with
  | [] => [(k, v)]
  | (k', v') :: t' => if String.eqb k k' then (k', v) :: t' else (k', v') :: set_key k v t'
  end.

(** [{**a, **b}], vayesta/core/util.py:686, :698, :710. *)
Definition merge {V : Type} (a b : list (string * V)) : list (string * V) :=
  fold_left (fun d kv => set_key (fst kv) (snd kv) d) b a.

(** [OptionsBase.get], vayesta/core/util.py:640-646 (class attributes are not modelled). *)
Definition opt_get (t : table) (k : string) (default : option value) : option value :=
  match lookup k t with Some v => Some v | None => default end.

Inductive result :=
| Ok (t : table)
| TypeError (t : table).   (* the exception, with the state the object is left in *)

(** One iteration of the loop in [replace], vayesta/core/util.py:678-688. [None] is TypeError. *)
Definition replace_one (t : table) (key : string) (val : value) : option table :=
  match lookup key t with
  | None => None
  | Some selfval =>
      match val, selfval with
      | Dict d, Dict sd =>
          if forallb (fun kv => has_key (fst kv) sd) d
          then Some (set_key key (Dict (merge sd d)) t)
          else None
      | _, _ => Some (set_key key val t)
      end
  end.

(** [OptionsBase.replace], vayesta/core/util.py:676-689. *)
Fixpoint replace (t : table) (kwargs : list (string * value)) : result :=
  match kwargs with
  | [] => Ok t
  | (k, v) :: rest =>
      match replace_one t k v with
      | Some t' => replace t' rest
      | None => TypeError t
      end
  end.

(** One iteration of the loop in [update], vayesta/core/util.py:693-700. *)
Definition update_one (t : table) (key : string) (val : value) : table :=
  match lookup key t with
  | None => t
  | Some selfval =>
      match val, selfval with
      | Dict d, Dict sd => set_key key (Dict (merge sd d)) t
      | _, _ => set_key key val t
      end
  end.

(** [OptionsBase.update], vayesta/core/util.py:691-701. *)
Definition update (t : table) (kwargs : list (string * value)) : table :=
  fold_left (fun t kv => update_one t (fst kv) (snd kv)) kwargs t.

(** [OptionsBase.change_dict_defaults], vayesta/core/util.py:707-710: the new defaults of a dictionary field. *)
Definition change_dict_defaults (defaults kwargs : list (string * atom)) : list (string * atom) :=
  merge defaults kwargs.

End Options.
Arguments Atom {atom} a.
Arguments Dict {atom} d.
Arguments Ok {atom} t.
Arguments TypeError {atom} t.
Arguments opt_get {atom} t k default.
Arguments replace_one {atom} t key val.
Arguments replace {atom} t kwargs.
Arguments update_one {atom} t key val.
Arguments update {atom} t kwargs.
Arguments change_dict_defaults {atom} defaults kwargs.
