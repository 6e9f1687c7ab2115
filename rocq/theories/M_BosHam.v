(** Model of the bosonic part of a cluster's Hamiltonian: vayesta/core/types/bosonic_orbitals.py 33-39, 71-93, 112-131 and
    vayesta/core/bosonic_bath/projected_interactions.py 42-54, 86-244, with its use in vayesta/solver/hamiltonian.py 844-857.

    Modelled: coefficients of bosons in atomic orbitals (also with deexcitations), rotation of bosons, the matrix whose
    eigenvalues are the frequencies, couplings (Coulomb, Fock and exchange parts), terms that do not conserve the number of
    bosons, projectors, the loop over density-fitting integrals, and the quantities stored after rotation.

    Simplifications: floats are elements of an ordered commutative ring.  [numpy.linalg.eigh] and the integrals of the cluster
    are arbitrary.  The first argument of functions of spin is a boolean, true for alpha.  Left out: negative parts of the
    integrals of two-dimensional systems (the code raises NotImplementedError), complex integrals (an assertion refuses
    them), [exchange=True] of the frequencies (NotImplementedError), logging. *)
From Coq Require Import List Arith Lia Bool.
From Verif Require Import Alg Ord Mat.
Import ListNotations.
Local Open Scope list_scope.

Section M.
Context (K : oring).
Notation vec := (nat -> K).
Notation mt := (nat -> nat -> K).
Notation t3 := (nat -> nat -> nat -> K).
Variable (eigh : nat -> mt -> vec * mt).
Open Scope K_scope.

(** Bosons: number, orbitals of both spins, coefficients of excitations and deexcitations.
    (bosonic_orbitals.py 11-23, 51-69) *)
Record bos := { nb : nat; no : bool -> nat; nv : bool -> nat; co : bool -> mt; cv : bool -> mt; ex : mt; dex : option mt }.

(** bcoeff_ov_to_o_v. (bosonic_orbitals.py 71-81, 112-118) *)
Definition ov_to_o_v (b : bos) (c : mt) (s : bool) : t3 := fun n i a =>
  if s then c n (i * nv b true + a)%nat else c n (no b true * nv b true + (i * nv b false + a))%nat.
(** bcoeff_mo2ao for one spin, without and with transposition. (bosonic_orbitals.py 121-131) *)
Definition mo2ao (b : bos) (c : t3) (s : bool) : t3 := fun n x y =>
  Sum (nv b s) (fun a => Sum (no b s) (fun i => c n i a * co b s x i) * cv b s y a).
(** coeff_3d_ao. (bosonic_orbitals.py 83-93) *)
Definition ao (b : bos) (s : bool) : t3 := fun n x y =>
  let e := mo2ao b (ov_to_o_v b (ex b) s) s n x y in
  match dex b with None => e | Some d => e + mo2ao b (ov_to_o_v b d s) s n y x end.
(** rotate, in place. (bosonic_orbitals.py 33-39) *)
Definition rotate (b : bos) (u : mt) : bos :=
  {| nb := nb b; no := no b; nv := nv b; co := co b; cv := cv b; ex := mm (nb b) (tr u) (ex b);
     dex := match dex b with None => None | Some d => Some (mm (nb b) (tr u) d) end |}.

(** The blocks of integrals of [_loop_df] with their first index: those of [sr_loop] in periodic systems, and afterwards, in
    every case, those of [loop], numbered from zero again. (projected_interactions.py 217-244) *)
Fixpoint number (k : nat) (l : list (nat * t3)) : list (nat * nat * t3) :=
  match l with [] => [] | (n, x) :: l => (k, n, x) :: number (k + n) l end.
Definition loop_df (sr : option (list (nat * t3))) (lp : list (nat * t3)) : list (nat * nat * t3) :=
  match sr with None => number 0 lp | Some l => number 0 l ++ number 0 lp end.

Variables (nao : nat) (blocks : list (nat * nat * t3)).
(** cderi_bos: every block is stored in its place. (projected_interactions.py 42-54) *)
Definition cderi_bos (b : bos) : mt :=
  fold_left (fun acc '(k, n, l) => fun i m => if ((k <=? i) && (i <? k + n))%nat
    then Sum nao (fun x => Sum nao (fun y => l (i - k)%nat x y * (ao b true m x y + ao b false m x y))) else acc i m) blocks (fun _ _ => 0).

Variables (naux : nat) (fock : bool -> mt) (ovlp : mt).
(** The matrix diagonalised in project_freqs. (projected_interactions.py 95-111) *)
Definition quad (f g : mt) (r : t3) : mt := fun n m =>
  Sum nao (fun i => Sum nao (fun a => Sum nao (fun j => Sum nao (fun c => r n i a * r m j c * f a c * g i j)))).
Definition hbb (b : bos) : mt := fun n m =>
  quad (fock true) ovlp (ao b true) n m + quad (fock false) ovlp (ao b false) n m
  - quad ovlp (fock true) (ao b true) n m - quad ovlp (fock false) (ao b false) n m
  + Sum naux (fun l => cderi_bos b l n * cderi_bos b l m).

(** The cluster: numbers of occupied and virtual orbitals, coefficients (occupied ones first), integrals.
    (projected_interactions.py 29-40, 76-80) *)
Record clu := { nc : bool -> nat; ncv : bool -> nat; c : bool -> mt; lc : bool -> t3 }.
(** Number of active orbitals. (projected_interactions.py 76-80, 196-201) *)
Definition nact (cl : clu) (s : bool) : nat := (nc cl s + ncv cl s)%nat.
(** get_cluster_projectors. (projected_interactions.py 193-215) *)
Definition pocc (cl : clu) (s : bool) : mt :=
  let so := mm nao (tr (c cl s)) (mm nao ovlp (c cl s)) in mm (nc cl s) so (tr so).
Definition pvir (cl : clu) (s : bool) : mt :=
  let sv := mm nao (tr (c cl s)) (mm nao ovlp (fun x a => c cl s x (nc cl s + a)%nat)) in mm (ncv cl s) sv (tr sv).
(** Fock part of the couplings. (projected_interactions.py 132-152) *)
Definition cpl_fock (b : bos) (cl : clu) (s : bool) : t3 := fun n p q =>
  let r := ao b s n in let fc := mm nao (fock s) (c cl s) in let sc := mm nao ovlp (c cl s) in
  let rf := Sum nao (fun k => Sum nao (fun z => r k z * fock s k z)) in
  Sum nao (fun j => Sum nao (fun z => r j z * fc z q * sc j p)) - rf * pocc cl s p q + rf * pvir cl s p q
  - Sum nao (fun k => Sum nao (fun a => r k a * fc k q * sc a p)).
(** Exchange part: a sum over all blocks. (projected_interactions.py 157-178) *)
Definition exch1 (b : bos) (cl : clu) (s : bool) (n0 : nat) (l : t3) : t3 := fun n p q =>
  Sum nao (fun k => Sum nao (fun z => Sum n0 (fun x => Sum nao (fun y => l x k y * c cl s y p) * Sum nao (fun y => l x z y * c cl s y q)) * ao b s n k z)).
Definition cpl_exch (b : bos) (cl : clu) (s : bool) : t3 := fun n p q => Lsum blocks (fun '(_, n0, l) => exch1 b cl s n0 l n p q).
(** project_couplings. (projected_interactions.py 115-181) *)
Definition couplings (exchange : bool) (b : bos) (cl : clu) (s : bool) : t3 := fun n p q =>
  Sum naux (fun l => cderi_bos b l n * lc cl s l p q) + (if exchange then cpl_exch b cl s n p q else 0) + cpl_fock b cl s n p q.
(** gen_nonconserving; the beta part uses the diagonal only. (projected_interactions.py 183-191) *)
Definition nonconserving (b : bos) (cl : clu) (g : bool -> t3) : vec := fun n =>
  Sum nao (fun x => Sum nao (fun y => ao b true n x y * fock true x y)) + Sum nao (fun x => Sum nao (fun y => ao b false n x y * fock false x y))
  - (Sum (nact cl true) (fun p => Sum (nact cl true) (fun q => g true n p q * pocc cl true p q)) + Sum (nact cl false) (fun p => g false n p p * pocc cl false p p)).

(** kernel. (projected_interactions.py 86-93, 112-113) *)
Definition kernel (exchange : bool) (b : bos) (cl : clu) : vec * (bool -> t3) * mt * vec :=
  let '(w, u) := eigh (nb b) (hbb b) in
  let g := couplings exchange b cl in
  (w, (fun s m p q => Sum (nb b) (fun n => u n m * g s n p q)), u, fun m => Sum (nb b) (fun n => nonconserving b cl g n * u n m)).
(** What the Hamiltonian holds afterwards: bosons, frequencies, couplings, terms that do not conserve the number of bosons.
    (hamiltonian.py 844-849, 855-857) *)
Definition generate (b : bos) (cl : clu) : bos * vec * (bool -> t3) * vec :=
  let '(w, g, u, x) := kernel true b cl in (rotate b u, w, g, x).
End M.
