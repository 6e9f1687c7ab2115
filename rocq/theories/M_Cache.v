(** Model of the caching decorator, vayesta/core/util.py:72-111. *)
From Coq Require Import List Arith Bool.
Import ListNotations.

Section Cache.
Variables (arg val : Type) (arg_eqb : arg -> arg -> bool).
(** The decorated function: returns a newly created object, or raises ([None]). It is an oracle. *)
Variable f : arg -> option val.

(** Mutable objects live in a heap; an address is an index.  [cache] is the LRU list, most recently used first;
    [returned] are the addresses handed to callers, latest first. *)
Record state := { heap : list val; cache : list (arg * nat); returned : list nat }.

Definition alloc (h : list val) (v : val) : list val * nat := (h ++ [v], length h).

Fixpoint find (a : arg) (c : list (arg * nat)) : option nat :=
  match c with
  | [] => None
  | (b, p) :: c' => if arg_eqb a b then Some p else find a c'
  end.

Definition remove (a : arg) (c : list (arg * nat)) : list (arg * nat) :=
  filter (fun bp => negb (arg_eqb a (fst bp))) c.

(** [functools.lru_cache(maxsize)(func)], used at vayesta/core/util.py:90-98: a hit moves the entry to the front, a miss calls the
    function, stores the new object at the front and drops what exceeds [maxsize]; an exception is not cached.
    Hashing/typed keys are replaced by equality of arguments; [maxsize] is a number (not None). *)
Definition cached_func (maxsize : nat) (a : arg) (st : state) : state * option nat :=
  match find a (cache st) with
  | Some p => ({| heap := heap st; cache := (a, p) :: remove a (cache st); returned := returned st |}, Some p)
  | None =>
      match f a with
      | None => (st, None)
      | Some v =>
          let '(h, p) := alloc (heap st) v in
          ({| heap := h; cache := firstn maxsize ((a, p) :: cache st); returned := returned st |}, Some p)
      end
  end.

(** What the decorated function returns: with [copy] a deep copy of the cached object
    (vayesta/core/util.py:100-102), without it the cached object itself (lines 91-95). *)
Definition call (copy : bool) (maxsize : nat) (a : arg) (st : state) : state * option nat :=
  let '(st1, r) := cached_func maxsize a st in
  match r with
  | None => (st1, None)
  | Some p =>
      if copy then
        match nth_error (heap st1) p with
        | None => (st1, None)
        | Some v => let '(h, q) := alloc (heap st1) v in
                    ({| heap := h; cache := cache st1; returned := q :: returned st1 |}, Some q)
        end
      else ({| heap := heap st1; cache := cache st1; returned := p :: returned st1 |}, Some p)
  end.

(** The outside world: calls of the decorated function, and in-place changes of an object that was returned (the [k]-th latest). *)
Inductive event :=
| Call (a : arg)
| Mutate (k : nat) (v : val)
| CacheClear.

Fixpoint set_nth (p : nat) (v : val) (h : list val) : list val :=
  match h, p with
  | [], _ => []
  | _ :: h', O => v :: h'
  | x :: h', S p' => x :: set_nth p' v h'
  end.

(** What a caller of event [Call a] observes: the address and the value of the object at return time. *)
Definition step (copy : bool) (maxsize : nat) (e : event) (st : state) : state * option (nat * val) :=
  match e with
  | Call a =>
      let '(st', r) := call copy maxsize a st in
      (st', match r with
            | None => None
            | Some p => match nth_error (heap st') p with Some v => Some (p, v) | None => None end
            end)
  | Mutate k v =>
      (match nth_error (returned st) k with
       | Some p => {| heap := set_nth p v (heap st); cache := cache st; returned := returned st |}
       | None => st
       end, None)
  | CacheClear => ({| heap := heap st; cache := []; returned := returned st |}, None)
  end.

Definition init : state := {| heap := []; cache := []; returned := [] |}.

(** A history: the final state and the observations of all events, in order. *)
Fixpoint run (copy : bool) (maxsize : nat) (es : list event) (st : state) : state * list (option (nat * val)) :=
  match es with
  | [] => (st, [])
  | e :: es' =>
      let '(st1, o) := step copy maxsize e st in
      let '(st2, os) := run copy maxsize es' st1 in
      (st2, o :: os)
  end.

End Cache.
Arguments heap {arg val} s.
Arguments cache {arg val} s.
Arguments returned {arg val} s.
Arguments Build_state {arg val} heap cache returned.
Arguments Call {arg val} a.
Arguments Mutate {arg val} k v.
Arguments CacheClear {arg val}.
Arguments init {arg val}.
Arguments find {arg} arg_eqb a c.
Arguments remove {arg} arg_eqb a c.
Arguments cached_func {arg val} arg_eqb f maxsize a st.
Arguments call {arg val} arg_eqb f copy maxsize a st.
Arguments step {arg val} arg_eqb f copy maxsize e st.
Arguments run {arg val} arg_eqb f copy maxsize es st.
Arguments set_nth {val} p v h.
Arguments alloc {val} h v.
