(** Model of MPI reductions of per-rank sums, vayesta/mpi/interface.py:72-90, 134-164, and of the fragment loops that use them. *)
From Coq Require Import List Arith Bool.
From Verif Require Import Alg.
Import ListNotations.

Section Mpi.
Context {K : cring}.
Open Scope K_scope.

(** [world.allreduce(x)] and [world.reduce(x, root)] with the default operation SUM: every rank contributes one value, in rank order.
    The result is indexed by rank; None is Python's None. *)
Definition allreduce (P : nat) (x : nat -> K) : nat -> option K := fun _ => Some (Sum P x).
Definition reduce (P : nat) (x : nat -> K) (root : nat) : nat -> option K := fun r => if r =? root then Some (Sum P x) else None.

(** [nreduce] of one value, interface.py:72-90. *)
Definition nreduce (P : nat) (x : nat -> K) (target : option nat) : nat -> option K :=
  match target with None => allreduce P x | Some t => reduce P x t end.

(** [nreduce] of several values: applied to each one, interface.py:84,87. *)
Definition nreduce_list (P : nat) (xs : list (nat -> K)) (target : option nat) : nat -> list (option K) :=
  fun r => map (fun x => nreduce P x target r) xs.

(** [with_allreduce], interface.py:150-164: without MPI (size 1) the function itself. *)
Definition with_allreduce (P : nat) (f : nat -> K) : nat -> option K :=
  if P <=? 1 then fun r => Some (f r) else allreduce P f.

(** [with_reduce], interface.py:134-148, with the default root 0. *)
Definition with_reduce (P : nat) (f : nat -> K) : nat -> option K :=
  if P <=? 1 then fun r => Some (f r) else reduce P f 0.

(** The attributes of a fragment used by the energy loops. *)
Record frag := { contributes : bool; has_parent : bool; mpi_rank : nat; factor : K; value : K }.

(** The loop over the fragments of one's own rank: get_wf_corr_energy (vayesta/ewf/ewf.py:333-349), get_ccsd_t_corr_energy (351-363),
    and the branch "projected-lambda" of get_dm_corr_energy_e2 (416-422); [factor] is symmetry_factor, times sym_factor in the last case,
    [value] the fragment energy, [ncell] the factor 1/ncells. *)
Definition fragment_sum (ncell : K) (frags : list frag) (rank : nat) : K :=
  Lsum (filter (fun x => contributes x && negb (has_parent x) && (mpi_rank x =? rank)) frags) (fun x => factor x * value x) * ncell.

Definition get_wf_corr_energy (P : nat) (ncell : K) (frags : list frag) : nat -> option K :=
  with_allreduce P (fragment_sum ncell frags).

(** get_dm_corr_energy_e2 (vayesta/ewf/ewf.py:397-425): in the branch "global-wf" (402-415) every rank computes the whole energy. *)
Definition get_dm_corr_energy_e2 (P : nat) (ncell : K) (global_wf : bool) (whole : K) (frags : list frag) : nat -> option K :=
  with_allreduce P (fun r => if global_wf then whole * ncell else fragment_sum ncell frags r).

(** get_ccsd_corr_energy (vayesta/ewf/ewf.py:449-472): explicit allreduce of the doubles, singles computed on every rank. *)
Definition get_ccsd_corr_energy (P : nat) (ncell : K) (e_singles : K) (frags : list frag) : nat -> option K :=
  fun r =>
    let e_doubles := fun q => Lsum (filter (fun x => contributes x && negb (has_parent x) && (mpi_rank x =? q)) frags) (fun x => factor x * value x) in
    match (if P <=? 1 then Some (e_doubles r) else allreduce P e_doubles r) with
    | Some e => Some ((e_singles + e) * ncell)
    | None => None
    end.
End Mpi.
Arguments frag : clear implicits.
