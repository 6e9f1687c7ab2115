(** Model of the distributed dictionary, vayesta/mpi/rma.py:9-228, as an asynchronous system of [P] ranks with MPI enabled (P > 1).
    A rank runs a program of write sections ([with d.writable(): ...]) and single accesses; exceptions of single accesses are
    caught and logged by the program, an exception of a section end stops the rank.
    Windows: the n-th allocation on each rank belongs to the same window (MPI matches collective calls in order); allocations are
    not assumed to synchronise the ranks.  Not modelled: __delitem__, clear, shapes and dtypes (other than the type of None). *)
From Coq Require Import List Arith Bool.
Import ListNotations.

Section Rma.
Context {data : Type}.
Definition key := nat.
(** A value is an array or None (rma.py:137-139; other types raise ValueError and are not modelled). *)
Definition value := option data.

Inductive op := Write (k : key) (v : value) | Read (k : key).
Inductive action := Section_ (body : list op) | Op (o : op).
(** Results of accesses: AttributeError (Write outside or Read inside of a section), KeyError, or the value read. *)
Inductive entry := Refused | KeyErr | Val (v : value).

(** Python dictionaries: items in insertion order. *)
Fixpoint lookup {A} (k : key) (d : list (key * A)) : option A :=
  match d with [] => None | (k', a) :: d' => if k =? k' then Some a else lookup k d' end.
Fixpoint dset {A} (k : key) (a : A) (d : list (key * A)) : list (key * A) :=
  match d with
  | [] => [(k, a)]
  | (k', a') :: d' => if k =? k' then (k, a) :: d' else (k', a') :: dset k a d'
  end.

(** [RMA_DictElement], rma.py:24-37: location and window number (none for the type of None). *)
Record elem := { loc : nat; win : option nat }.

(** Where a rank is in its program; the arguments of Build are the part of the gathered metadata still to be processed
    (rank, key, is None) and the local variable [elements] of synchronize, rma.py:214. *)
Inductive phase :=
| Idle
| Writing (body : list op)
| Wait1
| Build (todo : list (nat * key * bool)) (elements : list (key * elem))
| Wait2
| Failed.

Record rank_state := {
  prog : list action; ph : phase;
  local : list (key * value);       (* self.local_data *)
  elems : list (key * elem);        (* self._elements *)
  nwin : nat;                       (* windows allocated so far *)
  log : list entry
}.

(** Shared: window memory, [mem w r] is the content of window w at rank r. *)
Record config := { mem : nat -> nat -> option value; rs : nat -> rank_state }.

Definition upd {A} (f : nat -> A) (r : nat) (x : A) : nat -> A := fun q => if q =? r then x else f q.
Definition upd2 (f : nat -> nat -> option value) (w r : nat) (x : option value) : nat -> nat -> option value :=
  fun w' r' => if (w' =? w) && (r' =? r) then x else f w' r'.

(** [__getitem__] outside of a section, rma.py:115-132, and [get], rma.py:81-88. *)
Definition getitem (mem : nat -> nat -> option value) (elems : list (key * elem)) (k : key) : entry :=
  match lookup k elems with
  | None => KeyErr
  | Some e => match win e with
              | None => Val None
              | Some w => match mem w (loc e) with Some v => Val v | None => KeyErr (* uninitialised memory *) end
              end
  end.

(** One access inside of a section: [__setitem__] stores locally (rma.py:134-143), [__getitem__] raises (rma.py:116-117). *)
Definition inside (o : op) (s : rank_state) (body : list op) : rank_state :=
  match o with
  | Write k v => {| prog := prog s; ph := Writing body; local := dset k v (local s); elems := elems s; nwin := nwin s; log := log s |}
  | Read k => {| prog := prog s; ph := Writing body; local := local s; elems := elems s; nwin := nwin s; log := log s ++ [Refused] |}
  end.

(** One access outside of a section: [__setitem__] raises (rma.py:135-136). *)
Definition outside (mem : nat -> nat -> option value) (o : op) (s : rank_state) (p : list action) : rank_state :=
  {| prog := p; ph := Idle; local := local s; elems := elems s; nwin := nwin s;
     log := log s ++ [match o with Write _ _ => Refused | Read k => getitem mem (elems s) k end] |}.

Definition set_ph (s : rank_state) (x : phase) : rank_state :=
  {| prog := prog s; ph := x; local := local s; elems := elems s; nwin := nwin s; log := log s |}.

(** [_get_metadata] of all ranks, rma.py:171-179 and 212, flattened in the order of the loops at rma.py:215-216. *)
Definition metadata (r : nat) (d : list (key * value)) : list (nat * key * bool) :=
  map (fun '(k, v) => (r, k, match v with None => true | Some _ => false end)) d.
Definition allgather (P : nat) (rs : nat -> rank_state) : list (nat * key * bool) :=
  flat_map (fun r => metadata r (local (rs r))) (seq 0 P).

(** One element of the loop of synchronize on rank r, rma.py:217-225, including the Put of local data (rma.py:49-55). *)
Definition build_step (r : nat) (s : rank_state) (mem : nat -> nat -> option value)
    (item : nat * key * bool) (todo : list (nat * key * bool)) (elements : list (key * elem)) : rank_state * (nat -> nat -> option value) :=
  let '(q, k, isnone) := item in
  match lookup k elements with
  | Some _ => (set_ph s Failed, mem)
  | None =>
      if isnone then (set_ph s (Build todo ((k, {| loc := q; win := None |}) :: elements)), mem)
      else
        ({| prog := prog s; ph := Build todo ((k, {| loc := q; win := Some (nwin s) |}) :: elements);
            local := local s; elems := elems s; nwin := S (nwin s); log := log s |},
         if q =? r then upd2 mem (nwin s) r (lookup k (local s)) else mem)
  end.

(** Steps: any rank may advance at any time, except at the barriers, where all advance together. *)
Inductive step (P : nat) : config -> config -> Prop :=
| st_enter c r body p : r < P -> ph (rs c r) = Idle -> prog (rs c r) = Section_ body :: p ->      (* __enter__, rma.py:150-152 *)
    step P c {| mem := mem c; rs := upd (rs c) r {| prog := p; ph := Writing body; local := local (rs c r);
                                                    elems := elems (rs c r); nwin := nwin (rs c r); log := log (rs c r) |} |}
| st_outside c r o p : r < P -> ph (rs c r) = Idle -> prog (rs c r) = Op o :: p ->
    step P c {| mem := mem c; rs := upd (rs c) r (outside (mem c) o (rs c r) p) |}
| st_inside c r o body : r < P -> ph (rs c r) = Writing (o :: body) ->
    step P c {| mem := mem c; rs := upd (rs c) r (inside o (rs c r) body) |}
| st_exit c r : r < P -> ph (rs c r) = Writing [] ->                                               (* __exit__, rma.py:154-156, 210 *)
    step P c {| mem := mem c; rs := upd (rs c) r (set_ph (rs c r) Wait1) |}
| st_gather c : (forall r, r < P -> ph (rs c r) = Wait1) ->                                        (* Barrier and allgather, rma.py:210-214 *)
    step P c {| mem := mem c; rs := fun r => set_ph (rs c r) (Build (allgather P (rs c)) []) |}
| st_build c r item todo elements : r < P -> ph (rs c r) = Build (item :: todo) elements ->
    step P c {| mem := snd (build_step r (rs c r) (mem c) item todo elements);
                rs := upd (rs c) r (fst (build_step r (rs c r) (mem c) item todo elements)) |}
| st_update c r elements : r < P -> ph (rs c r) = Build [] elements ->                             (* rma.py:226 *)
    step P c {| mem := mem c; rs := upd (rs c) r {| prog := prog (rs c r); ph := Wait2; local := local (rs c r);
                  elems := elements ++ elems (rs c r); nwin := nwin (rs c r); log := log (rs c r) |} |}
| st_leave c : (forall r, r < P -> ph (rs c r) = Wait2) ->                                         (* second Barrier, rma.py:227-228 *)
    step P c {| mem := mem c; rs := fun r => {| prog := prog (rs c r); ph := Idle; local := [];
                  elems := elems (rs c r); nwin := nwin (rs c r); log := log (rs c r) |} |}.

Definition init (progs : nat -> list action) : config :=
  {| mem := fun _ _ => None;
     rs := fun r => {| prog := progs r; ph := Idle; local := []; elems := []; nwin := 0; log := [] |} |}.

Inductive steps (P : nat) : config -> config -> Prop :=
| steps_refl c : steps P c c
| steps_step c1 c2 c3 : steps P c1 c2 -> step P c2 c3 -> steps P c1 c3.
End Rma.
Arguments value : clear implicits.
Arguments op : clear implicits.
Arguments action : clear implicits.
Arguments entry : clear implicits.
Arguments config : clear implicits.
Arguments rank_state : clear implicits.
