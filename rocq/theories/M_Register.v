(** Model of the fragment register, vayesta/core/qemb/register.py:4-27. *)
From Coq Require Import List ZArith.
Import ListNotations.
Open Scope Z_scope.

(** Attributes of [FragmentRegister], vayesta/core/qemb/register.py:5-10. *)
Record register := { next_id : Z; mpi_size : Z; next_mpi_rank : Z }.
Definition init (size : Z) : register := {| next_id := -1; mpi_size := size; next_mpi_rank := -1 |}.

(** [get_next_id], vayesta/core/qemb/register.py:12-14. *)
Definition get_next_id (r : register) : Z * register :=
  (next_id r + 1, {| next_id := next_id r + 1; mpi_size := mpi_size r; next_mpi_rank := next_mpi_rank r |}).

(** [get_next_mpi_rank], vayesta/core/qemb/register.py:16-23.  None: NotImplementedError or ZeroDivisionError.
    [estimate] tells whether a runtime or memory argument is given. *)
Definition get_next_mpi_rank (r : register) (estimate : bool) : option (Z * register) :=
  if estimate then None
  else if mpi_size r =? 0 then None
  else let k := (next_mpi_rank r + 1) mod mpi_size r in
       Some (k, {| next_id := next_id r; mpi_size := mpi_size r; next_mpi_rank := k |}).

(** [get_next], vayesta/core/qemb/register.py:25-27: the id is drawn first, also if the rank then fails. *)
Definition get_next (r : register) (estimate : bool) : option (Z * Z) * register :=
  let '(i, r1) := get_next_id r in
  match get_next_mpi_rank r1 estimate with
  | None => (None, r1)
  | Some (k, r2) => (Some (i, k), r2)
  end.

(** A history of registrations; the successful (id, rank) pairs in order. *)
Fixpoint run (r : register) (calls : list bool) : list (Z * Z) * register :=
  match calls with
  | [] => ([], r)
  | c :: calls' =>
      let '(o, r1) := get_next r c in
      let '(l, r2) := run r1 calls' in
      (match o with Some x => x :: l | None => l end, r2)
  end.
