(** * Matrices over a commutative ring: functions of two indices, equal if they agree within their dimensions *)
From Coq Require Import Arith Lia Ring Setoid Morphisms.
From Verif Require Import Alg.
Open Scope K_scope.

Section Mat.
Context {K : cring}.
Add Ring Kr : (rth K).
Notation mat := (nat -> nat -> K).
Definition meq (r c : nat) (a b : mat) : Prop := forall i j, (i < r)%nat -> (j < c)%nat -> a i j = b i j.
Definition mm (k : nat) (a b : mat) : mat := fun i j => Sum k (fun l => a i l * b l j).
Definition tr (a : mat) : mat := fun i j => a j i.
Definition madd (a b : mat) : mat := fun i j => a i j + b i j.
Definition msub (a b : mat) : mat := fun i j => a i j - b i j.
Definition msc (x : K) (a : mat) : mat := fun i j => x * a i j.
Definition dg (d : nat -> K) : mat := fun i j => delta i j * d j.
Definition idm : mat := fun i j => delta i j.
Definition zm : mat := fun _ _ => 0.
Definition trace (n : nat) (a : mat) : K := Sum n (fun i => a i i).

#[global] Instance meq_equiv r c : Equivalence (meq r c).
Proof.
  split.
  - intros a i j _ _. reflexivity.
  - intros a b H i j Hi Hj. symmetry. apply H; assumption.
  - intros a b d H1 H2 i j Hi Hj. transitivity (b i j); [apply H1|apply H2]; assumption.
Qed.
#[global] Instance mm_proper r k c : Proper (meq r k ==> meq k c ==> meq r c) (mm k).
Proof. intros a a' Ha b b' Hb i j Hi Hj. apply Sum_ext. intros l Hl. rewrite Ha, Hb by assumption. reflexivity. Qed.
#[global] Instance tr_proper r c : Proper (meq r c ==> meq c r) tr.
Proof. intros a a' Ha i j Hi Hj. apply Ha; assumption. Qed.
#[global] Instance madd_proper r c : Proper (meq r c ==> meq r c ==> meq r c) madd.
Proof. intros a a' Ha b b' Hb i j Hi Hj. unfold madd. rewrite Ha, Hb by assumption. reflexivity. Qed.
#[global] Instance msub_proper r c : Proper (meq r c ==> meq r c ==> meq r c) msub.
Proof. intros a a' Ha b b' Hb i j Hi Hj. unfold msub. rewrite Ha, Hb by assumption. reflexivity. Qed.
#[global] Instance msc_proper r c x : Proper (meq r c ==> meq r c) (msc x).
Proof. intros a a' Ha i j Hi Hj. unfold msc. rewrite Ha by assumption. reflexivity. Qed.
#[global] Instance trace_proper n : Proper (meq n n ==> eq) (trace n).
Proof. intros a a' Ha. apply Sum_ext. intros i Hi. apply Ha; assumption. Qed.

Lemma mm_assoc r c k l (a b d : mat) : meq r c (mm l (mm k a b) d) (mm k a (mm l b d)).
Proof.
  intros i j _ _. unfold mm. rewrite (Sum_ext l _ (fun q => Sum k (fun p => a i p * b p q * d q j))) by (intros q _; rewrite <- Sum_mul_r; reflexivity).
  rewrite Sum_swap. apply Sum_ext. intros p _. rewrite <- Sum_mul_l. apply Sum_ext. intros q _. ring.
Qed.
Lemma mm_addl r c k (a b d : mat) : meq r c (mm k (madd a b) d) (madd (mm k a d) (mm k b d)).
Proof. intros i j _ _. unfold mm, madd. rewrite <- Sum_add. apply Sum_ext. intros; ring. Qed.
Lemma mm_addr r c k (a b d : mat) : meq r c (mm k d (madd a b)) (madd (mm k d a) (mm k d b)).
Proof. intros i j _ _. unfold mm, madd. rewrite <- Sum_add. apply Sum_ext. intros; ring. Qed.
Lemma mm_scl r c k x (a b : mat) : meq r c (mm k (msc x a) b) (msc x (mm k a b)).
Proof. intros i j _ _. unfold mm, msc. rewrite <- Sum_mul_l. apply Sum_ext. intros; ring. Qed.
Lemma mm_scr r c k x (a b : mat) : meq r c (mm k a (msc x b)) (msc x (mm k a b)).
Proof. intros i j _ _. unfold mm, msc. rewrite <- Sum_mul_l. apply Sum_ext. intros; ring. Qed.
Lemma msub_add r c (a b : mat) : meq r c (msub a b) (madd a (msc (- (1)) b)).
Proof. intros i j _ _. unfold msub, madd, msc. ring. Qed.
Lemma mm_subl r c k (a b d : mat) : meq r c (mm k (msub a b) d) (msub (mm k a d) (mm k b d)).
Proof. rewrite !msub_add, mm_addl, mm_scl. reflexivity. Qed.
Lemma mm_subr r c k (a b d : mat) : meq r c (mm k d (msub a b)) (msub (mm k d a) (mm k d b)).
Proof. rewrite !msub_add, mm_addr, mm_scr. reflexivity. Qed.
Lemma mm_idl n c (a : mat) : meq n c (mm n idm a) a.
Proof. intros i j Hi _. unfold mm, idm. exact (Sum_delta_l n i (fun k => a k j) Hi). Qed.
Lemma mm_idr r n (a : mat) : meq r n (mm n a idm) a.
Proof. intros i j _ Hj. unfold mm, idm. exact (Sum_delta_r n j (fun k => a i k) Hj). Qed.
Lemma mm_dgl n c d (a : mat) : meq n c (mm n (dg d) a) (fun i j => d i * a i j).
Proof. intros i j Hi _. unfold mm, dg. rewrite (Sum_ext _ _ (fun k => delta i k * (d k * a k j))) by (intros; ring). exact (Sum_delta_l n i (fun k => d k * a k j) Hi). Qed.
Lemma mm_dgr r n d (a : mat) : meq r n (mm n a (dg d)) (fun i j => a i j * d j).
Proof. intros i j _ Hj. unfold mm, dg. rewrite (Sum_ext _ _ (fun k => a i k * d j * delta k j)) by (intros; ring). exact (Sum_delta_r n j (fun k => a i k * d j) Hj). Qed.
Lemma tr_mm r c k (a b : mat) : meq r c (tr (mm k a b)) (mm k (tr b) (tr a)).
Proof. intros i j _ _. unfold tr, mm. apply Sum_ext. intros; ring. Qed.
Lemma tr_tr r c (a : mat) : meq r c (tr (tr a)) a. Proof. intros i j _ _. reflexivity. Qed.
Lemma tr_add r c (a b : mat) : meq r c (tr (madd a b)) (madd (tr a) (tr b)). Proof. intros i j _ _. reflexivity. Qed.
Lemma tr_sub r c (a b : mat) : meq r c (tr (msub a b)) (msub (tr a) (tr b)). Proof. intros i j _ _. reflexivity. Qed.
Lemma tr_sc r c x (a : mat) : meq r c (tr (msc x a)) (msc x (tr a)). Proof. intros i j _ _. reflexivity. Qed.
Lemma tr_idm n : meq n n (tr idm) idm. Proof. intros i j _ _. unfold tr, idm, delta. rewrite Nat.eqb_sym. reflexivity. Qed.
Lemma tr_dg n d : meq n n (tr (dg d)) (dg d).
Proof. intros i j _ _. unfold tr, dg, delta. rewrite Nat.eqb_sym. destruct (Nat.eqb_spec i j); [subst; reflexivity|ring]. Qed.
Lemma mm_dd n d e : meq n n (mm n (dg d) (dg e)) (dg (fun i => d i * e i)).
Proof. rewrite mm_dgl. intros i j _ _. unfold dg, delta. destruct (Nat.eqb_spec i j); [subst; ring|ring]. Qed.
Lemma dg_ext n d e : (forall i, (i < n)%nat -> d i = e i) -> meq n n (dg d) (dg e).
Proof. intros H i j _ Hj. unfold dg. rewrite H by exact Hj. reflexivity. Qed.
Lemma dg_id n d : (forall i, (i < n)%nat -> d i = 1) -> meq n n (dg d) idm.
Proof. intros H i j _ Hj. unfold dg, idm. rewrite H by exact Hj. ring. Qed.
Lemma trace_mm n k (a b : mat) : trace n (mm k a b) = trace k (mm n b a).
Proof. unfold trace, mm. rewrite Sum_swap. apply Sum_ext. intros i _. apply Sum_ext. intros; ring. Qed.
Lemma trace_add n (a b : mat) : trace n (madd a b) = trace n a + trace n b.
Proof. unfold trace, madd. apply Sum_add. Qed.
Lemma trace_sc n x (a : mat) : trace n (msc x a) = x * trace n a.
Proof. unfold trace, msc. apply Sum_mul_l. Qed.
Lemma trace_sub n (a b : mat) : trace n (msub a b) = trace n a - trace n b.
Proof. rewrite msub_add, trace_add, trace_sc. ring. Qed.
Lemma trace_tr n (a : mat) : trace n (tr a) = trace n a. Proof. reflexivity. Qed.
Lemma trace_dg n d : trace n (dg d) = Sum n d.
Proof. unfold trace, dg. apply Sum_ext. intros i _. rewrite delta_eq. ring. Qed.
End Mat.
