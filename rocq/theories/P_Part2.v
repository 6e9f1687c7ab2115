(** Entries of the restricted two-particle density matrix assembled from intermediates, used for C60. *)
From Coq Require Import List Arith Bool Lia Ring ZArith.
From Verif Require Import Alg M_Wf M_Eris M_Rdm P_Eris P_Blk.
Close Scope Z_scope. Open Scope nat_scope.

Section P.
Context {K : cring}.
Add Ring Kr : (rth K).
Open Scope K_scope.
Notation mat := (nat -> nat -> K).
Notation ten := (nat -> nat -> nat -> nat -> K).
(** Entries of the assembled matrix by blocks *)
Definition part (d : dm2i K) (f1 f2 f3 f4 : bool) (p q r s : nat) : K :=
  match f1, f2, f3, f4 with
  | false, true, false, true => d_ovov d p q r s + d_ovov d r s p q
  | true, false, true, false => d_ovov d q p s r + d_ovov d s r q p
  | false, false, true, true => d_oovv d p q r s + d_oovv d q p s r
  | true, true, false, false => d_oovv d r s p q + d_oovv d s r q p
  | false, true, true, false => d_ovvo d p q r s + d_ovvo d s r q p
  | true, false, false, true => d_ovvo d q p s r + d_ovvo d r s p q
  | true, true, true, true => two * (d_vvvv d p q r s + d_vvvv d q p s r)
  | false, false, false, false => two * (d_oooo d p q r s + d_oooo d q p s r)
  | false, true, true, true => d_ovvv d p q r s
  | true, true, false, true => d_ovvv d r s p q
  | true, true, true, false => d_ovvv d s r q p
  | true, false, true, true => d_ovvv d q p s r
  | false, false, false, true => d_ooov d p q r s
  | false, true, false, false => d_ooov d r s p q
  | false, false, true, false => d_ooov d q p s r
  | true, false, false, false => d_ooov d s r q p
  end.
Lemma part_herm d f g h k p q r s : part d f g h k p q r s = part d g f k h q p s r.
Proof. destruct f, g, h, k; cbn [part]; try reflexivity; ring. Qed.
Lemma make_rdm2_part n nv (d : dm2i K) out f1 f2 f3 f4 a b c e :
  (a < sz n nv f1)%nat -> (b < sz n nv f2)%nat -> (c < sz n nv f3)%nat -> (e < sz n nv f4)%nat ->
  make_rdm2_rhf n d out (shift n f1 a) (shift n f2 b) (shift n f3 c) (shift n f4 e) = part d f1 f2 f3 f4 a b c e.
Proof.
  intros B1 B2 B3 B4. unfold make_rdm2_rhf. cbv zeta. unfold tconj at 1.
  lazymatch goal with |- ?X _ _ _ _ = _ => eassert (R : repr n nv n nv X _) by brepr end.
  rewrite R by auto. clear R. rewrite part_herm. destruct f1, f2, f3, f4; first [reflexivity|cbn [part]; unfold two; cbv [putb eqb andb tconj tadd tdbl]; ring].
Qed.
(** The same for one spin, and for the two spins, of the unrestricted matrix *)
Definition part_ss (d : dm2i K) (f1 f2 f3 f4 : bool) (p q r s : nat) : K :=
  match f1, f2, f3, f4 with
  | false, true, false, true => d_ovov d p q r s
  | true, false, true, false => d_ovov d q p s r
  | false, false, true, true => - d_ovvo d p s r q
  | true, true, false, false => - d_ovvo d r q p s
  | false, true, true, false => d_ovvo d p q r s
  | true, false, false, true => d_ovvo d q p s r
  | true, true, true, true => d_vvvv d p q r s
  | false, false, false, false => d_oooo d p q r s
  | false, true, true, true => d_ovvv d p q r s
  | true, true, false, true => d_ovvv d r s p q
  | true, true, true, false => d_ovvv d s r q p
  | true, false, true, true => d_ovvv d q p s r
  | false, false, false, true => d_ooov d p q r s
  | false, true, false, false => d_ooov d r s p q
  | false, false, true, false => d_ooov d q p s r
  | true, false, false, false => d_ooov d s r q p
  end.
Lemma make_rdm2_ss_part n nv (d : dm2i K) out f1 f2 f3 f4 a b c e :
  (a < sz n nv f1)%nat -> (b < sz n nv f2)%nat -> (c < sz n nv f3)%nat -> (e < sz n nv f4)%nat ->
  make_rdm2_ss n d out (shift n f1 a) (shift n f2 b) (shift n f3 c) (shift n f4 e) = part_ss d f2 f1 f4 f3 b a e c.
Proof.
  intros B1 B2 B3 B4. unfold make_rdm2_ss. cbv zeta. unfold tconj at 1.
  lazymatch goal with |- ?X _ _ _ _ = _ => eassert (R : repr n nv n nv X _) by brepr end.
  rewrite R by auto. clear R. destruct f1, f2, f3, f4; reflexivity.
Qed.
Definition part_ab (d : udm2i K) (f1 f2 f3 f4 : bool) (p q r s : nat) : K :=
  match f1, f2, f3, f4 with
  | false, true, false, true => w_ovOV d p q r s
  | true, false, true, false => w_ovOV d q p s r
  | false, false, true, true => w_ooVV d p q r s
  | true, true, false, false => w_OOvv d r s p q
  | false, true, true, false => w_ovVO d p q r s
  | true, false, false, true => w_ovVO d q p s r
  | true, true, true, true => w_vvVV d p q r s
  | false, false, false, false => w_ooOO d p q r s
  | false, true, true, true => w_ovVV d p q r s
  | true, true, false, true => w_OVvv d r s p q
  | true, true, true, false => w_OVvv d s r q p
  | true, false, true, true => w_ovVV d q p s r
  | false, false, false, true => w_ooOV d p q r s
  | false, true, false, false => w_OOov d r s p q
  | false, false, true, false => w_ooOV d q p s r
  | true, false, false, false => w_OOov d s r q p
  end.
Lemma make_rdm2_ab_part n nv m mv (d : udm2i K) out f1 f2 f3 f4 a b c e :
  (a < sz n nv f1)%nat -> (b < sz n nv f2)%nat -> (c < sz m mv f3)%nat -> (e < sz m mv f4)%nat ->
  make_rdm2_ab n m d out (shift n f1 a) (shift n f2 b) (shift m f3 c) (shift m f4 e) = part_ab d f2 f1 f4 f3 b a e c.
Proof.
  intros B1 B2 B3 B4. unfold make_rdm2_ab. cbv zeta. unfold tconj at 1.
  lazymatch goal with |- ?X _ _ _ _ = _ => eassert (R : repr n nv m mv X _) by brepr end.
  rewrite R by auto. clear R. destruct f1, f2, f3, f4; reflexivity.
Qed.
End P.
