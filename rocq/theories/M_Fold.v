(** Model of folding k-point sampled quantities to the Born-von Karman supercell, vayesta/core/foldscf.py. *)
From Coq Require Import Reals ZArith List Bool Arith Field.
From Verif Require Import Alg.
Import ListNotations.
Close Scope Z_scope. Close Scope R_scope. Open Scope nat_scope.

(** ** Complex numbers (numpy complex128, exact arithmetic) as pairs of real numbers *)
Definition Cx : Type := (R * R)%type.
Definition Cadd (x y : Cx) : Cx := (fst x + fst y, snd x + snd y)%R.
Definition Cmul (x y : Cx) : Cx := (fst x * fst y - snd x * snd y, fst x * snd y + snd x * fst y)%R.
Definition Copp (x : Cx) : Cx := (- fst x, - snd x)%R.
Definition Csub (x y : Cx) : Cx := (fst x - fst y, snd x - snd y)%R.
Definition Creal (x : R) : Cx := (x, 0)%R.
Lemma Cth : ring_theory (Creal 0) (Creal 1) Cadd Cmul Csub Copp (@eq Cx).
Proof. constructor; intros; unfold Cadd, Cmul, Csub, Copp, Creal; repeat match goal with x : Cx |- _ => destruct x end; simpl; f_equal; ring. Qed.
Definition CK : cring := {| car := Cx; rth := Cth |}.
(** np.conj *)
Definition Cconj (x : CK) : CK := (fst (x : Cx), - snd (x : Cx))%R.

(** np.exp(1j * 2 pi x) *)
Definition cis (x : R) : CK := (cos (2 * PI * x), sin (2 * PI * x))%R.

(** lib.cartesian_prod([arange(m0), arange(m1), arange(m2)])[r], foldscf.py 303-305 (last index fastest) *)
Definition mesh3 : Type := (nat * nat * nat)%type.
Definition mesh_size (m : mesh3) : nat := let '(m0, m1, m2) := m in m0 * (m1 * m2).
Definition mesh_point (m : mesh3) (r : nat) : mesh3 :=
  let '(m0, m1, m2) := m in (r / (m1 * m2), (r mod (m1 * m2)) / m2, (r mod (m1 * m2)) mod m2).

(** get_phase, foldscf.py 310-323. The k-points are given by scaled coordinates: the product of a k-point and a lattice
    translation is 2 pi times the product of scaled coordinates and integers (reciprocal lattice, PySCF). *)
Definition kvec : Type := (R * R * R)%type.
Definition kdot (k : kvec) (r : mesh3) : R :=
  let '(k0, k1, k2) := k in let '(r0, r1, r2) := r in (k0 * INR r0 + k1 * INR r1 + k2 * INR r2)%R.
Definition get_phase (m : mesh3) (kpts : nat -> kvec) (k r : nat) : CK :=
  rmul (cis (kdot (kpts k) (mesh_point m r))) (Creal (/ sqrt (INR (mesh_size m)))%R : CK).

(** kpts_to_kmesh, foldscf.py 294-298; coordinates rounded to 8 digits, in units of 1e-8 *)
Definition kpts_to_kmesh (kpts : list (Z * Z * Z)) : mesh3 :=
  (length (nodup Z.eq_dec (map (fun k => fst (fst k)) kpts)), length (nodup Z.eq_dec (map (fun k => snd (fst k)) kpts)),
   length (nodup Z.eq_dec (map snd kpts))).

Section Fold.
Context {K : cring}.
Variable conj : K -> K.
Open Scope K_scope.
Notation kmat := (nat -> nat -> nat -> K).
Notation rmat := (nat -> nat -> nat -> nat -> K).

(** einsum "kR,...kij,kS->...RiSj" of k2bvk_2d, foldscf.py 328; leading axes (spin) are treated one at a time *)
Definition k2bvk (nk : nat) (ph : nat -> nat -> K) (ak : kmat) : rmat := fun R i S j =>
  Sum nk (fun k => ph k R * ak k i j * conj (ph k S)).
(** bvk2k_2d, foldscf.py 342-348 *)
Definition bvk2k (nr : nat) (ph : nat -> nat -> K) (ag : rmat) : kmat := fun k i j =>
  Sum nr (fun R => Sum nr (fun S => conj (ph k R) * ag R i S j * ph k S)).
(** ag.reshape(nr*nao, nr*nao), foldscf.py 334-336, and reshape(nr, nao, nr, nao), 344-346 *)
Definition flatten (nao : nat) (ag : rmat) : nat -> nat -> K := fun p q => ag (p / nao)%nat (p mod nao)%nat (q / nao)%nat (q mod nao)%nat.
Definition unflatten (nao : nat) (a : nat -> nat -> K) : rmat := fun R i S j => a (R * nao + i)%nat (S * nao + j)%nat.

(** fold_mos without making real, foldscf.py 155-173: columns (k, i) in the order given by [order] (np.argsort, or the
    order of k-points and orbitals) *)
Definition fold_coeff (ph : nat -> nat -> K) (ck : kmat) (order : list (nat * nat)) : nat -> nat -> nat -> K := fun R a n =>
  match nth_error order n with Some (k, i) => ph k R * ck k a i | None => 0 end.
Definition fold_list {A : Type} (x : nat -> nat -> A) (order : list (nat * nat)) : list A := map (fun '(k, i) => x k i) order.
End Fold.

(** k2bvk_2d with make_real, foldscf.py 326-339: [tol] is imag_tol, elements R < nr, i < nao *)
Definition max_imag (nr nao : nat) (ag : nat -> nat -> nat -> nat -> CK) : R :=
  fold_right Rmax 0%R (flat_map (fun r => flat_map (fun i => flat_map (fun s => map (fun j => Rabs (snd (ag r i s j : Cx))) (seq 0 nao)) (seq 0 nr)) (seq 0 nao)) (seq 0 nr)).
Inductive folded := ImaginaryPartError | Real (a : nat -> nat -> R) | Complex (a : nat -> nat -> CK).
Definition k2bvk_2d (nk nr nao : nat) (ph : nat -> nat -> CK) (ak : nat -> nat -> nat -> CK) (make_real : bool) (tol : R) : folded :=
  let ag := k2bvk (K := CK) Cconj nk ph ak in
  if make_real then
    if Rlt_dec tol (max_imag nr nao ag) then ImaginaryPartError else Real (fun p q => fst (flatten (K := CK) nao ag p q : Cx))
  else Complex (flatten (K := CK) nao ag).
