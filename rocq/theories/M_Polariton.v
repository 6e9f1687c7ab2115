(** Model of the polaritonic shift of electron-boson cluster Hamiltonians: vayesta/solver/hamiltonian.py, EB_RClusterHamiltonian 792-903 and
    EB_UClusterHamiltonian 909-933.
    Simplifications: exact field arithmetic instead of floating point; the couplings of all bosons are functions n, p, q. *)
From Coq Require Import List Bool Arith.
From Verif Require Import Alg.
Import ListNotations.

Section Polariton.
Context {F : cfield}.
Open Scope K_scope.
Notation mat := (nat -> nat -> F).
Notation vec := (nat -> F).
Notation cpl := (nat -> nat -> nat -> F).
Definition two : F := 1 + 1.
(** set_polaritonic_shift, 859-871: freqs^(-1) times the traces of the couplings over the occupied orbitals of both spins *)
Definition shift (noa nob : nat) (w : vec) (ga gb : cpl) : vec := fun n =>
  (1 / w n) * (Sum noa (fun p => ga n p p) + Sum nob (fun p => gb n p p)).
(** get_polaritonic_fock_shift for one spin, 885-886 *)
Definition fock_shift (nb : nat) (s : vec) (g : cpl) : mat := fun p q => - Sum nb (fun n => (g n p q + g n q p) * s n).
(** get_heff: the shift added to the effective Hamiltonian of one spin, 873-883 (restricted: first component for both), 920-926 *)
Definition heff_shifted (nb : nat) (s : vec) (g : cpl) (h : mat) : mat := fun p q => h p q + fock_shift nb s g p q.
(** get_polaritonic_shifted_couplings: one spin for [nel] electrons, 888-900 with 2*nocc, 928-930 with the sum over spins *)
Definition shifted (nel : F) (w s : vec) (g : cpl) : cpl := fun n p q => g n p q - delta p q * (s n * w n / nel).
Definition couplings_r (nocc : nat) (close : cpl -> cpl -> bool) (w s : vec) (ga gb : cpl) : option cpl :=
  let a := shifted (two * nK nocc) w s ga in let b := shifted (two * nK nocc) w s gb in
  if close a b then Some a else None.
Definition couplings_u (noa nob : nat) (w s : vec) (ga gb : cpl) : cpl * cpl :=
  let nel := nK (noa + nob) in (shifted nel w s ga, shifted nel w s gb).
(** get_eb_dm_polaritonic_shift, 902-903 (restricted, dm1/2 for both spins) and 932-933 *)
Definition eb_dm_shift (s : vec) (dm : mat) (p q n : nat) : F := - (s n * dm p q).
Definition eb_dm_shift_r (s : vec) (dm : mat) : (nat -> nat -> nat -> F) * (nat -> nat -> nat -> F) :=
  let x := eb_dm_shift s (fun p q => dm p q / two) in (x, x).
End Polariton.
