(** The ordered field of numbers a + b sqrt(2) with rational a, b: a place for concrete cases that need a root of two. *)
From Coq Require Import ZArith QArith Qcanon Lia Psatz Lqa Bool.
From Verif Require Import Alg Ord.

(** * No rational square is twice a square *)
Lemma z_irr : forall n x y : Z, (0 <= n -> Z.abs x < n -> x * x = 2 * (y * y) -> y = 0)%Z.
Proof.
  assert (H : forall k : nat, forall x y, (Z.abs x < Z.of_nat k -> x * x = 2 * (y * y) -> y = 0)%Z).
  { induction k as [|k IH]; intros x y Hx E; [lia|].
    destruct (Z.eq_dec x 0) as [->|Hx0]; [nia|].
    destruct (Z.Even_or_Odd x) as [[z Hz]|[z Hz]]; [|exfalso; subst x; lia].
    subst x. assert (E2 : (y * y = 2 * (z * z))%Z) by nia.
    assert (Hy : (Z.abs y < Z.of_nat k)%Z).
    { assert (Z.abs y * Z.abs y < Z.abs (2 * z) * Z.abs (2 * z))%Z by (rewrite <- !Z.abs_mul; nia). nia. }
    assert (z = 0)%Z by (apply (IH y z Hy E2)). lia. }
  intros n x y Hn Hx E. apply (H (Z.to_nat n) x y); [lia|exact E].
Qed.

Lemma q_irr (a b : Q) : (a * a == 2 * (b * b) -> b == 0)%Q.
Proof.
  destruct a as [n1 d1], b as [n2 d2]. unfold Qeq, Qmult. cbn [Qnum Qden]. rewrite ?Pos2Z.inj_mul. intros H.
  assert (E : ((n1 * Zpos d2) * (n1 * Zpos d2) = 2 * ((n2 * Zpos d1) * (n2 * Zpos d1)))%Z) by (change (Zpos 1) with 1%Z in H; nia).
  apply (z_irr (Z.abs (n1 * Zpos d2) + 1)%Z) in E; [|lia|lia]. nia.
Qed.

(** * Positive numbers *)
Open Scope Q_scope.
Definition P (a b : Q) : Prop := (2 * (b * b) < a * a /\ 0 < a) \/ (a * a < 2 * (b * b) /\ 0 < b).

Lemma sq_lt (x y : Q) : 0 < y -> x * x < y * y -> - y < x /\ x < y.
Proof. intros. split; nra. Qed.

Lemma P_mul a b c d : P a b -> P c d -> P (a * c + 2 * (b * d)) (a * d + b * c).
Proof.
  intros [[H1 H2]|[H1 H2]] [[G1 G2]|[G1 G2]].
  - left. split; [nra|]. assert (Z : (2 * (b * d)) * (2 * (b * d)) < (a * c) * (a * c)) by nra.
    assert (0 < a * c) by nra. destruct (sq_lt _ _ H Z). lra.
  - right. split; [nra|]. assert (Z : (b * c) * (b * c) < (a * d) * (a * d)) by nra.
    assert (0 < a * d) by nra. destruct (sq_lt _ _ H Z). lra.
  - right. split; [nra|]. assert (Z : (a * d) * (a * d) < (b * c) * (b * c)) by nra.
    assert (0 < b * c) by nra. destruct (sq_lt _ _ H Z). lra.
  - left. split; [nra|]. assert (Z : (a * c) * (a * c) < (2 * (b * d)) * (2 * (b * d))) by nra.
    assert (0 < 2 * (b * d)) by nra. destruct (sq_lt _ _ H Z). lra.
Qed.

Lemma P_plus_pos k a b : 0 < k -> P a b -> P (k + a) b.
Proof.
  intros Hk [[H1 H2]|[H1 H2]]; [left; split; nra|].
  destruct (Q_dec ((k + a) * (k + a)) (2 * (b * b))) as [[G|G]|G].
  - right. split; assumption.
  - left. split; [assumption|]. nra.
  - apply q_irr in G. lra.
Qed.

Lemma P_ext a b c d : a == c -> b == d -> P a b -> P c d.
Proof. intros E F. unfold P. rewrite E, F. auto. Qed.

Lemma P_scale k a b : 0 < k -> P (k * a) (k * b) -> P a b.
Proof.
  intros Hk [[H1 H2]|[H1 H2]]; [left|right]; split.
  - assert (0 < k * k) by nra. apply (Qmult_lt_l _ _ (k * k)); [assumption|]. nra.
  - apply (Qmult_lt_l _ _ k); [assumption|]. lra.
  - assert (0 < k * k) by nra. apply (Qmult_lt_l _ _ (k * k)); [assumption|]. nra.
  - apply (Qmult_lt_l _ _ k); [assumption|]. lra.
Qed.

Lemma P_add a b c d : P a b -> P c d -> P (a + c) (b + d).
Proof.
  intros H G.
  assert (X : exists k a' b', 0 < k /\ P a' b' /\ a * a' + 2 * (b * b') == k /\ a * b' + b * a' == 0).
  { destruct H as [[H1 H2]|[H1 H2]].
    - exists (a * a - 2 * (b * b)), a, (- b). split; [lra|]. split; [left; split; lra|]. split; ring.
    - exists (2 * (b * b) - a * a), (- a), b. split; [lra|]. split; [right; split; lra|]. split; ring. }
  destruct X as (k & a' & b' & Hk & Hi & E1 & E2).
  pose proof (P_mul _ _ _ _ G Hi) as W. pose proof (P_plus_pos k _ _ Hk W) as V. pose proof (P_mul _ _ _ _ V H) as U.
  apply (P_scale k); [exact Hk|]. refine (P_ext _ _ _ _ _ _ U).
  - transitivity (k * a + c * (a * a' + 2 * (b * b')) + 2 * (d * (a * b' + b * a'))); [ring|]. rewrite E1, E2. ring.
  - transitivity (k * b + d * (a * a' + 2 * (b * b')) + c * (a * b' + b * a')); [ring|]. rewrite E1, E2. ring.
Qed.

Lemma P_total a b : P a b \/ (a == 0 /\ b == 0) \/ P (- a) (- b).
Proof.
  destruct (Q_dec (a * a) (2 * (b * b))) as [[G|G]|G].
  - destruct (Q_dec 0 b) as [[B|B]|B]; [left; right; split; assumption|right; right; right; split; lra|nra].
  - destruct (Q_dec 0 a) as [[B|B]|B]; [left; left; split; assumption|right; right; left; split; lra|nra].
  - right. left. pose proof (q_irr _ _ G) as B. split; [|exact B]. rewrite B in G.
    assert (a * a == 0) by lra. destruct (Q_dec 0 a) as [[C|C]|C]; nra.
Qed.

Lemma P_0 : ~ P 0 0.
Proof. intros [[_ H]|[_ H]]; lra. Qed.

(** * The field *)
Close Scope Q_scope.
Definition R2 := (Qc * Qc)%type.
Definition add2 (x y : R2) : R2 := (fst x + fst y, snd x + snd y)%Qc.
Definition sub2 (x y : R2) : R2 := (fst x - fst y, snd x - snd y)%Qc.
Definition opp2 (x : R2) : R2 := (- fst x, - snd x)%Qc.
Definition mul2 (x y : R2) : R2 := (fst x * fst y + (1 + 1) * (snd x * snd y), fst x * snd y + snd x * fst y)%Qc.
Lemma R2_rt : ring_theory ((0%Qc, 0%Qc) : R2) (1%Qc, 0%Qc) add2 mul2 sub2 opp2 eq.
Proof.
  split; intros; repeat match goal with x : R2 |- _ => destruct x end; unfold add2, mul2, sub2, opp2; cbn [fst snd]; f_equal; ring.
Qed.
Definition R2K : cring := {| car := R2; rth := R2_rt |}.

Definition qltb (x y : Q) : bool := negb (Qle_bool y x).
Lemma qltb_lt x y : qltb x y = true <-> (x < y)%Q.
Proof.
  unfold qltb. rewrite negb_true_iff. split; intros H.
  - apply Qnot_le_lt. intros G. apply Qle_bool_iff in G. congruence.
  - destruct (Qle_bool y x) eqn:E; [|reflexivity]. apply Qle_bool_iff in E. lra.
Qed.
Definition posb (x : R2) : bool :=
  let a := this (fst x) in let b := this (snd x) in
  (qltb (2 * (b * b)) (a * a) && qltb 0 a) || (qltb (a * a) (2 * (b * b)) && qltb 0 b).
Lemma posb_P x : posb x = true <-> P (this (fst x)) (this (snd x)).
Proof. unfold posb, P. rewrite orb_true_iff, !andb_true_iff, !qltb_lt. tauto. Qed.
Definition ltb2 (x y : R2) : bool := posb (sub2 y x).

Lemma this_add a b : (this (a + b)%Qc == this a + this b)%Q. Proof. apply Qred_correct. Qed.
Lemma this_mul a b : (this (a * b)%Qc == this a * this b)%Q. Proof. apply Qred_correct. Qed.
Lemma this_opp a : (this (- a)%Qc == - this a)%Q. Proof. apply Qred_correct. Qed.
Lemma this_sub a b : (this (a - b)%Qc == this a - this b)%Q.
Proof. unfold Qcminus. rewrite this_add, this_opp. reflexivity. Qed.

Definition R2O : oring.
  refine {| oc := R2K; ltb := ltb2 : R2K -> R2K -> bool |}; cbn; unfold ltb2.
  - intros x. destruct (posb (sub2 x x)) eqn:E; [|reflexivity]. exfalso. apply posb_P in E. apply P_0.
    refine (P_ext _ _ _ _ _ _ E); unfold sub2; cbn [fst snd]; rewrite this_sub; ring.
  - intros x y z. rewrite !posb_P. intros H G. refine (P_ext _ _ _ _ _ _ (P_add _ _ _ _ H G)); unfold sub2; cbn [fst snd]; rewrite !this_sub; ring.
  - intros x y. rewrite !posb_P. destruct (P_total (this (fst (sub2 y x))) (this (snd (sub2 y x)))) as [H|[[H G]|H]]; [left; exact H| |].
    + right. left. unfold sub2 in H, G. cbn [fst snd] in H, G. rewrite this_sub in H, G. destruct x as [a b], y as [c d]. cbn [fst snd] in *.
      f_equal; apply Qc_is_canon; lra.
    + right. right. refine (P_ext _ _ _ _ _ _ H); unfold sub2; cbn [fst snd]; rewrite !this_sub; ring.
  - intros x y z. rewrite !posb_P. apply P_ext; unfold sub2, add2; cbn [fst snd]; rewrite !this_sub, !this_add; ring.
  - intros x y. rewrite !posb_P. intros H G. refine (P_ext _ _ _ _ _ _ (P_mul _ _ _ _ H G));
      unfold sub2, mul2; cbn [fst snd]; rewrite ?this_sub, ?this_add, ?this_mul, ?this_sub; change (this (1 + 1)%Qc) with 2%Q; change (this 0%Qc) with 0%Q; ring.
Defined.

(** The root, inverse, rationals, decidable equality. *)
Definition rt2 : R2O := (0%Qc, 1%Qc).
Definition inv2 (x : R2O) : R2O := let '(a, b) := x in let n := (/ (a * a - (1 + 1) * (b * b)))%Qc in (a * n, - b * n)%Qc.
Definition rq (n : Z) (d : positive) : R2O := (Q2Qc (n # d), 0%Qc).
Definition eq2 (x y : R2O) : bool := Qeq_bool (this (fst x)) (this (fst y)) && Qeq_bool (this (snd x)) (this (snd y)).
Lemma eq2_ok x y : eq2 x y = true -> x = y.
Proof.
  unfold eq2. rewrite andb_true_iff. intros [H G]. destruct x, y. f_equal; apply Qc_is_canon; apply Qeq_bool_iff; assumption.
Qed.
Lemma neq2 x y : eq2 x y = false -> x <> y.
Proof. intros H E. rewrite E in H. unfold eq2 in H. rewrite !Qeq_bool_refl in H. discriminate. Qed.
Lemma rt2_sq : rmul rt2 rt2 = radd r1 (r1 : R2O). Proof. apply eq2_ok. vm_compute. reflexivity. Qed.
