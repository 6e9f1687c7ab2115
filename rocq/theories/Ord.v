(** Ordered commutative rings with a decidable order (Leibniz equality), instances Z and Qc.
    (Nothing of /repo is modelled in this file.) *)
From Coq Require Import List Arith Lia Ring ZArith QArith Qcanon Bool.
From Verif Require Import Alg.
Import ListNotations.

Record oring := {
  oc :> cring;
  ltb : oc -> oc -> bool;
  ltb_irrefl : forall x, ltb x x = false;
  ltb_trans : forall x y z, ltb x y = true -> ltb y z = true -> ltb x z = true;
  ltb_total : forall x y, ltb x y = true \/ x = y \/ ltb y x = true;
  ltb_add : forall x y z, ltb x y = true -> ltb (radd x z) (radd y z) = true;
  ltb_mul : forall x y, ltb r0 x = true -> ltb r0 y = true -> ltb r0 (rmul x y) = true
}.
Arguments ltb {_}.

Definition leb {K : oring} (x y : K) : bool := negb (ltb y x).
Definition lt {K : oring} (x y : K) : Prop := ltb x y = true.
Definition le {K : oring} (x y : K) : Prop := leb x y = true.

(** Absolute value. *)
Definition absK {K : oring} (x : K) : K := if ltb x r0 then ropp x else x.

Section O.
Context {K : oring}.
Add Ring Kring : (rth K).
Open Scope K_scope.
Implicit Types x y z : K.

Lemma lt_irrefl x : ~ lt x x.
Proof. unfold lt. rewrite ltb_irrefl. discriminate. Qed.

Lemma lt_asym x y : lt x y -> ~ lt y x.
Proof. intros H G. apply (lt_irrefl x). eapply ltb_trans; eauto. Qed.

Lemma lt_tr x y z : lt x y -> lt y z -> lt x z.
Proof. apply ltb_trans. Qed.

Lemma le_nlt x y : le x y <-> ~ lt y x.
Proof. unfold le, leb, lt. destruct (ltb y x); simpl; intuition congruence. Qed.

Lemma lt_nle x y : lt x y <-> ~ le y x.
Proof. unfold le, leb, lt. destruct (ltb x y); simpl; intuition congruence. Qed.

Lemma le_refl x : le x x.
Proof. apply le_nlt, lt_irrefl. Qed.

Lemma le_lt_eq x y : le x y <-> lt x y \/ x = y.
Proof.
  rewrite le_nlt. split.
  - intros H. destruct (ltb_total K x y) as [?|[?|?]]; auto. exfalso. apply H. auto.
  - intros [H|<-]; [apply lt_asym; auto|apply lt_irrefl].
Qed.

Lemma lt_le x y : lt x y -> le x y.
Proof. intros; apply le_lt_eq; auto. Qed.

Lemma le_tr x y z : le x y -> le y z -> le x z.
Proof.
  intros H G. apply le_lt_eq in H. apply le_lt_eq in G. apply le_lt_eq.
  destruct H as [H|<-], G as [G|<-]; auto. left. eapply lt_tr; eauto.
Qed.

Lemma le_antisym x y : le x y -> le y x -> x = y.
Proof.
  intros H G. apply le_lt_eq in H. destruct H as [H|]; auto. apply le_nlt in G. contradiction.
Qed.

Lemma le_total x y : le x y \/ le y x.
Proof. destruct (ltb_total K x y) as [H|[->|H]]; [left|left; apply le_refl|right]; apply lt_le; auto. Qed.

Lemma lt_add x y z : lt x y -> lt (x + z) (y + z).
Proof. apply ltb_add. Qed.

Lemma lt_add_iff x y z : lt (x + z) (y + z) <-> lt x y.
Proof.
  split; [|apply lt_add]. intros H. apply (lt_add _ _ (- z)) in H.
  replace (x + z + - z) with x in H by ring. replace (y + z + - z) with y in H by ring. auto.
Qed.

Lemma le_add x y z : le x y -> le (x + z) (y + z).
Proof. intros H. rewrite le_nlt, lt_add_iff, <- le_nlt. auto. Qed.

Lemma lt_opp x y : lt x y <-> lt (- y) (- x).
Proof.
  rewrite <- (lt_add_iff x y (- x - y)).
  replace (x + (- x - y)) with (- y) by ring. replace (y + (- x - y)) with (- x) by ring. tauto.
Qed.

Lemma lt0_opp x : lt x 0 <-> lt 0 (- x).
Proof. rewrite lt_opp. replace (- 0) with (0 : K) by ring. tauto. Qed.

Lemma lt0_opp' x : lt 0 x <-> lt (- x) 0.
Proof. rewrite lt_opp. replace (- 0) with (0 : K) by ring. tauto. Qed.

Lemma absK_nonneg x : le 0 (absK x).
Proof.
  unfold absK. destruct (ltb x 0) eqn:E.
  - apply lt_le. apply lt0_opp. exact E.
  - apply le_nlt. unfold lt. congruence.
Qed.

Lemma absK_opp x : absK (- x) = absK x.
Proof.
  unfold absK. destruct (ltb x 0) eqn:E1, (ltb (- x) 0) eqn:E2; try ring.
  - exfalso. apply lt0_opp in E1. apply (lt_asym _ _ E1). exact E2.
  - destruct (ltb_total K x 0) as [H|[->|H]]; [congruence|ring|].
    apply lt0_opp' in H. unfold lt in H. congruence.
Qed.

Lemma absK_pm x : absK x = x \/ absK x = - x.
Proof. unfold absK. destruct (ltb x 0); auto. Qed.

End O.

Lemma Zltb_total x y : Z.ltb x y = true \/ x = y \/ Z.ltb y x = true.
Proof. rewrite !Z.ltb_lt. lia. Qed.

Definition ZO : oring.
  refine {| oc := ZK; ltb := Z.ltb : ZK -> ZK -> bool |}; cbn.
  - apply Z.ltb_irrefl.
  - intros x y z. rewrite !Z.ltb_lt. lia.
  - apply Zltb_total.
  - intros x y z. rewrite !Z.ltb_lt. lia.
  - intros x y. rewrite !Z.ltb_lt. apply Z.mul_pos_pos.
Defined.

Definition Qcltb (x y : Qc) : bool := if Qclt_le_dec x y then true else false.

Lemma Qcltb_lt x y : Qcltb x y = true <-> (x < y)%Qc.
Proof.
  unfold Qcltb. destruct (Qclt_le_dec x y); split; auto; try discriminate.
  intros H. exfalso. eapply Qclt_not_le; eauto.
Qed.

Definition QO : oring.
  refine {| oc := QK; ltb := Qcltb : QK -> QK -> bool |}; cbn.
  - intros x. destruct (Qcltb x x) eqn:E; auto. apply Qcltb_lt in E. exfalso. eapply Qclt_not_eq; eauto.
  - intros x y z. rewrite !Qcltb_lt. apply Qclt_trans.
  - intros x y. rewrite !Qcltb_lt. destruct (Qclt_le_dec x y); auto.
    destruct (Qc_eq_dec x y); auto. right. right. apply Qcle_lt_or_eq in q. destruct q; congruence.
  - intros x y z. rewrite !Qcltb_lt. intros H. change (Qred (x + z) < Qred (y + z))%Q. rewrite !Qred_correct.
    apply Qplus_lt_l. exact H.
  - intros x y. rewrite !Qcltb_lt. intros H G. change (0 < Qred (x * y))%Q. rewrite Qred_correct.
    apply Qmult_lt_0_compat; [exact H|exact G].
Defined.
