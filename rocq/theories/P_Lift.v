(** Contractions of intermediates with amplitudes of a cluster that spans the whole space, index by index: [ct_x_t_r] is the contraction of an intermediate with
    indices x and an amplitude with indices t to a result with indices r. (Nothing of /repo is modelled in this file.) *)
From Coq Require Import Arith Ring Setoid Morphisms.
From Verif Require Import Alg Pull.

Section Lift.
Context {K : cring}.
Add Ring Kr : (rth K).
Open Scope K_scope.
Notation mat := (nat -> nat -> K).
Notation ten := (nat -> nat -> nat -> nat -> K).
(** Rows of [c] are orthonormal. *)
Definition rows (N n : nat) (c : mat) : Prop := forall P Q, (P < N)%nat -> (Q < N)%nat -> Sum n (fun i => c P i * c Q i) = delta P Q.
Lemma rows_resolve N n (c : mat) (f : nat -> K) P : rows N n c -> (P < N)%nat -> Sum n (fun i => c P i * Sum N (fun Q => c Q i * f Q)) = f P.
Proof.
  intros H HP. rewrite <- (Sum_delta_l N P f HP). transitivity (Sum N (fun Q => Sum n (fun i => c P i * c Q i) * f Q)).
  - clear. push. reorder.
  - apply Sum_ext; intros Q HQ. rewrite H by auto. reflexivity.
Qed.
(** From the basis of the cluster to the basis of the system *)
Definition up2 (n1 n2 : nat) (c1 c2 : mat) (X : mat) : mat := fun P Q => Sum n1 (fun p => Sum n2 (fun q => c1 P p * c2 Q q * X p q)).
Definition up4 (n1 n2 n3 n4 : nat) (c1 c2 c3 c4 : mat) (X : ten) : ten := fun P Q R S =>
  Sum n1 (fun p => Sum n2 (fun q => Sum n3 (fun r => Sum n4 (fun s => c1 P p * c2 Q q * c3 R r * c4 S s * X p q r s)))).
(** Amplitudes of the system in the basis of the cluster *)
Definition down2 (N1 N2 n1 n2 : nat) (c1 c2 : mat) (T t : mat) : Prop := forall p q, (p < n1)%nat -> (q < n2)%nat -> t p q = Sum N1 (fun P => Sum N2 (fun Q => c1 P p * c2 Q q * T P Q)).
Definition down4 (N1 N2 N3 N4 n1 n2 n3 n4 : nat) (c1 c2 c3 c4 : mat) (T t : ten) : Prop := forall p q r s, (p < n1)%nat -> (q < n2)%nat -> (r < n3)%nat -> (s < n4)%nat ->
  t p q r s = Sum N1 (fun P => Sum N2 (fun Q => Sum N3 (fun R => Sum N4 (fun S => c1 P p * c2 Q q * c3 R r * c4 S s * T P Q R S)))).
Lemma up2_ext n1 n2 c1 c2 (X Y : mat) P Q : (forall p q, (p < n1)%nat -> (q < n2)%nat -> X p q = Y p q) -> up2 n1 n2 c1 c2 X P Q = up2 n1 n2 c1 c2 Y P Q.
Proof. intros H. unfold up2. p0. p0. rewrite H by auto. reflexivity. Qed.
Lemma up2_add n1 n2 c1 c2 (X Y : mat) P Q : up2 n1 n2 c1 c2 (fun p q => X p q + Y p q) P Q = up2 n1 n2 c1 c2 X P Q + up2 n1 n2 c1 c2 Y P Q.
Proof. unfold up2. do 2 (rewrite <- Sum_add; apply Sum_ext; intros). ring. Qed.
Lemma up2_sub n1 n2 c1 c2 (X Y : mat) P Q : up2 n1 n2 c1 c2 (fun p q => X p q - Y p q) P Q = up2 n1 n2 c1 c2 X P Q - up2 n1 n2 c1 c2 Y P Q.
Proof. unfold up2. do 2 (rewrite <- Sum_sub; apply Sum_ext; intros). ring. Qed.
Lemma up2_opp n1 n2 c1 c2 (X : mat) P Q : up2 n1 n2 c1 c2 (fun p q => - X p q) P Q = - up2 n1 n2 c1 c2 X P Q.
Proof. unfold up2. do 2 (rewrite <- Sum_opp; apply Sum_ext; intros). ring. Qed.
Lemma up2_mul n1 n2 c1 c2 k (X : mat) P Q : up2 n1 n2 c1 c2 (fun p q => k * X p q) P Q = k * up2 n1 n2 c1 c2 X P Q.
Proof. unfold up2. do 2 (rewrite <- Sum_mul_l; apply Sum_ext; intros). ring. Qed.
Lemma up2_mul_r n1 n2 c1 c2 k (X : mat) P Q : up2 n1 n2 c1 c2 (fun p q => X p q * k) P Q = up2 n1 n2 c1 c2 X P Q * k.
Proof. unfold up2. do 2 (rewrite <- Sum_mul_r; apply Sum_ext; intros). ring. Qed.
Lemma up4_ext n1 n2 n3 n4 c1 c2 c3 c4 (X Y : ten) P Q R S : (forall p q r s, (p < n1)%nat -> (q < n2)%nat -> (r < n3)%nat -> (s < n4)%nat -> X p q r s = Y p q r s) ->
  up4 n1 n2 n3 n4 c1 c2 c3 c4 X P Q R S = up4 n1 n2 n3 n4 c1 c2 c3 c4 Y P Q R S.
Proof. intros H. unfold up4. p0. p0. p0. p0. rewrite H by auto. reflexivity. Qed.
Lemma up4_add n1 n2 n3 n4 c1 c2 c3 c4 (X Y : ten) P Q R S : up4 n1 n2 n3 n4 c1 c2 c3 c4 (fun p q r s => X p q r s + Y p q r s) P Q R S = up4 n1 n2 n3 n4 c1 c2 c3 c4 X P Q R S + up4 n1 n2 n3 n4 c1 c2 c3 c4 Y P Q R S.
Proof. unfold up4. do 4 (rewrite <- Sum_add; apply Sum_ext; intros). ring. Qed.
Lemma up4_sub n1 n2 n3 n4 c1 c2 c3 c4 (X Y : ten) P Q R S : up4 n1 n2 n3 n4 c1 c2 c3 c4 (fun p q r s => X p q r s - Y p q r s) P Q R S = up4 n1 n2 n3 n4 c1 c2 c3 c4 X P Q R S - up4 n1 n2 n3 n4 c1 c2 c3 c4 Y P Q R S.
Proof. unfold up4. do 4 (rewrite <- Sum_sub; apply Sum_ext; intros). ring. Qed.
Lemma up4_opp n1 n2 n3 n4 c1 c2 c3 c4 (X : ten) P Q R S : up4 n1 n2 n3 n4 c1 c2 c3 c4 (fun p q r s => - X p q r s) P Q R S = - up4 n1 n2 n3 n4 c1 c2 c3 c4 X P Q R S.
Proof. unfold up4. do 4 (rewrite <- Sum_opp; apply Sum_ext; intros). ring. Qed.
Lemma up4_mul n1 n2 n3 n4 c1 c2 c3 c4 k (X : ten) P Q R S : up4 n1 n2 n3 n4 c1 c2 c3 c4 (fun p q r s => k * X p q r s) P Q R S = k * up4 n1 n2 n3 n4 c1 c2 c3 c4 X P Q R S.
Proof. unfold up4. do 4 (rewrite <- Sum_mul_l; apply Sum_ext; intros). ring. Qed.
Lemma up4_mul_r n1 n2 n3 n4 c1 c2 c3 c4 k (X : ten) P Q R S : up4 n1 n2 n3 n4 c1 c2 c3 c4 (fun p q r s => X p q r s * k) P Q R S = up4 n1 n2 n3 n4 c1 c2 c3 c4 X P Q R S * k.
Proof. unfold up4. do 4 (rewrite <- Sum_mul_r; apply Sum_ext; intros). ring. Qed.
Lemma down2_up N1 N2 n1 n2 (c1 c2 T t : mat) P Q : rows N1 n1 c1 -> rows N2 n2 c2 -> down2 N1 N2 n1 n2 c1 c2 T t -> (P < N1)%nat -> (Q < N2)%nat -> up2 n1 n2 c1 c2 t P Q = T P Q.
Proof.
  intros H1 H2 Ht HP HQ. unfold up2. transitivity (Sum n1 (fun p => c1 P p * Sum N1 (fun P => c1 P p * Sum n2 (fun q => c2 Q q * Sum N2 (fun Q => c2 Q q * T P Q))))).
  - transitivity (Sum n1 (fun p => Sum n2 (fun q => c1 P p * c2 Q q * Sum N1 (fun P => Sum N2 (fun Q => c1 P p * c2 Q q * T P Q))))).
    + p0. p0. rewrite Ht by auto. reflexivity.
    + clear. push. reorder.
  - rewrite (rows_resolve N1 n1 c1 (fun P => Sum n2 (fun q => c2 Q q * Sum N2 (fun Q => c2 Q q * T P Q))) P H1 HP). apply (rows_resolve N2 n2 c2 (fun Q => T P Q) Q H2 HQ).
Qed.
Lemma ct_ia_ja_ij_t (Na na Ni ni Nj nj : nat) (ca ci cj : mat) (X : mat) (t T : mat) I J :
  rows Nj nj cj -> down2 Nj Na nj na cj ca T t -> (J < Nj)%nat ->
  up2 ni nj ci cj (fun i j => Sum na (fun a => t j a * X i a)) I J = Sum Na (fun A => T J A * up2 ni na ci ca X I A).
Proof.
  intros Hj Ht Lj. unfold up2, up4.
  transitivity (Sum ni (fun i => Sum na (fun a => ci I i * X i a * (Sum nj (fun j => cj J j * t j a))))).
  { clear. push. reorder. }
  transitivity (Sum ni (fun i => Sum na (fun a => ci I i * X i a * (Sum Na (fun A' => ca A' a * T J A'))))).
  { apply Sum_ext; intros i Bi. apply Sum_ext; intros a Ba. apply f_equal2; [reflexivity|].
    transitivity (Sum nj (fun j => cj J j * (Sum Nj (fun J' => Sum Na (fun A' => cj J' j * ca A' a * T J' A'))))).
    { apply Sum_ext; intros j Bj. rewrite Ht by auto. reflexivity. }
    transitivity (Sum Na (fun A' => ca A' a * (Sum nj (fun j => cj J j * Sum Nj (fun J' => cj J' j * T J' A'))))).
    { clear. push. reorder. }
    apply Sum_ext; intros A' BA'. apply f_equal2; [reflexivity|].
    apply (rows_resolve Nj nj cj (fun J' => T J' A') J Hj Lj).
  }
  clear. push. reorder.
Qed.
Lemma ct_ikab_jkab_ij_t_kab (Na na Nb nb Ni ni Nj nj Nk nk : nat) (ca cb ci cj ck : mat) (X : ten) (t T : ten) I J :
  rows Nj nj cj -> down4 Nj Nk Na Nb nj nk na nb cj ck ca cb T t -> (J < Nj)%nat ->
  up2 ni nj ci cj (fun i j => Sum nk (fun k => Sum na (fun a => Sum nb (fun b => t j k a b * X i k a b)))) I J = Sum Nk (fun K => Sum Na (fun A => Sum Nb (fun B => T J K A B * up4 ni nk na nb ci ck ca cb X I K A B))).
Proof.
  intros Hj Ht Lj. unfold up2, up4.
  transitivity (Sum ni (fun i => Sum nk (fun k => Sum na (fun a => Sum nb (fun b => ci I i * X i k a b * (Sum nj (fun j => cj J j * t j k a b))))))).
  { clear. push. reorder. }
  transitivity (Sum ni (fun i => Sum nk (fun k => Sum na (fun a => Sum nb (fun b => ci I i * X i k a b * (Sum Nk (fun K' => Sum Na (fun A' => Sum Nb (fun B' => ck K' k * ca A' a * cb B' b * T J K' A' B'))))))))).
  { apply Sum_ext; intros i Bi. apply Sum_ext; intros k Bk. apply Sum_ext; intros a Ba. apply Sum_ext; intros b Bb. apply f_equal2; [reflexivity|].
    transitivity (Sum nj (fun j => cj J j * (Sum Nj (fun J' => Sum Nk (fun K' => Sum Na (fun A' => Sum Nb (fun B' => cj J' j * ck K' k * ca A' a * cb B' b * T J' K' A' B'))))))).
    { apply Sum_ext; intros j Bj. rewrite Ht by auto. reflexivity. }
    transitivity (Sum Nk (fun K' => Sum Na (fun A' => Sum Nb (fun B' => ck K' k * ca A' a * cb B' b * (Sum nj (fun j => cj J j * Sum Nj (fun J' => cj J' j * T J' K' A' B'))))))).
    { clear. push. reorder. }
    apply Sum_ext; intros K' BK'. apply Sum_ext; intros A' BA'. apply Sum_ext; intros B' BB'. apply f_equal2; [reflexivity|].
    apply (rows_resolve Nj nj cj (fun J' => T J' K' A' B') J Hj Lj).
  }
  clear. push. reorder.
Qed.
Lemma ct_ib_ia_ab_t_i (Na na Nb nb Ni ni : nat) (ca cb ci : mat) (X : mat) (t T : mat) A B :
  rows Na na ca -> down2 Ni Na ni na ci ca T t -> (A < Na)%nat ->
  up2 na nb ca cb (fun a b => Sum ni (fun i => t i a * X i b)) A B = Sum Ni (fun I => T I A * up2 ni nb ci cb X I B).
Proof.
  intros Ha Ht La. unfold up2, up4.
  transitivity (Sum nb (fun b => Sum ni (fun i => cb B b * X i b * (Sum na (fun a => ca A a * t i a))))).
  { clear. push. reorder. }
  transitivity (Sum nb (fun b => Sum ni (fun i => cb B b * X i b * (Sum Ni (fun I' => ci I' i * T I' A))))).
  { apply Sum_ext; intros b Bb. apply Sum_ext; intros i Bi. apply f_equal2; [reflexivity|].
    transitivity (Sum na (fun a => ca A a * (Sum Ni (fun I' => Sum Na (fun A' => ci I' i * ca A' a * T I' A'))))).
    { apply Sum_ext; intros a Ba. rewrite Ht by auto. reflexivity. }
    transitivity (Sum Ni (fun I' => ci I' i * (Sum na (fun a => ca A a * Sum Na (fun A' => ca A' a * T I' A'))))).
    { clear. push. reorder. }
    apply Sum_ext; intros I' BI'. apply f_equal2; [reflexivity|].
    apply (rows_resolve Na na ca (fun A' => T I' A') A Ha La).
  }
  clear. push. reorder.
Qed.
Lemma ct_jicb_jica_ab_t_jic (Na na Nb nb Nc nc Ni ni Nj nj : nat) (ca cb cc ci cj : mat) (X : ten) (t T : ten) A B :
  rows Na na ca -> down4 Nj Ni Nc Na nj ni nc na cj ci cc ca T t -> (A < Na)%nat ->
  up2 na nb ca cb (fun a b => Sum nj (fun j => Sum ni (fun i => Sum nc (fun c => t j i c a * X j i c b)))) A B = Sum Nj (fun J => Sum Ni (fun I => Sum Nc (fun C => T J I C A * up4 nj ni nc nb cj ci cc cb X J I C B))).
Proof.
  intros Ha Ht La. unfold up2, up4.
  transitivity (Sum nb (fun b => Sum nj (fun j => Sum ni (fun i => Sum nc (fun c => cb B b * X j i c b * (Sum na (fun a => ca A a * t j i c a))))))).
  { clear. push. reorder. }
  transitivity (Sum nb (fun b => Sum nj (fun j => Sum ni (fun i => Sum nc (fun c => cb B b * X j i c b * (Sum Nj (fun J' => Sum Ni (fun I' => Sum Nc (fun C' => cj J' j * ci I' i * cc C' c * T J' I' C' A))))))))).
  { apply Sum_ext; intros b Bb. apply Sum_ext; intros j Bj. apply Sum_ext; intros i Bi. apply Sum_ext; intros c Bc. apply f_equal2; [reflexivity|].
    transitivity (Sum na (fun a => ca A a * (Sum Nj (fun J' => Sum Ni (fun I' => Sum Nc (fun C' => Sum Na (fun A' => cj J' j * ci I' i * cc C' c * ca A' a * T J' I' C' A'))))))).
    { apply Sum_ext; intros a Ba. rewrite Ht by auto. reflexivity. }
    transitivity (Sum Nj (fun J' => Sum Ni (fun I' => Sum Nc (fun C' => cj J' j * ci I' i * cc C' c * (Sum na (fun a => ca A a * Sum Na (fun A' => ca A' a * T J' I' C' A'))))))).
    { clear. push. reorder. }
    apply Sum_ext; intros J' BJ'. apply Sum_ext; intros I' BI'. apply Sum_ext; intros C' BC'. apply f_equal2; [reflexivity|].
    apply (rows_resolve Na na ca (fun A' => T J' I' C' A') A Ha La).
  }
  clear. push. reorder.
Qed.
Lemma ct_me_ie_im_t (Ne ne Ni ni Nm nm : nat) (ce ci cm : mat) (X : mat) (t T : mat) I M :
  rows Ni ni ci -> down2 Ni Ne ni ne ci ce T t -> (I < Ni)%nat ->
  up2 ni nm ci cm (fun i m => Sum ne (fun e => t i e * X m e)) I M = Sum Ne (fun E => T I E * up2 nm ne cm ce X M E).
Proof.
  intros Hi Ht Li. unfold up2, up4.
  transitivity (Sum nm (fun m => Sum ne (fun e => cm M m * X m e * (Sum ni (fun i => ci I i * t i e))))).
  { clear. push. reorder. }
  transitivity (Sum nm (fun m => Sum ne (fun e => cm M m * X m e * (Sum Ne (fun E' => ce E' e * T I E'))))).
  { apply Sum_ext; intros m Bm. apply Sum_ext; intros e Be. apply f_equal2; [reflexivity|].
    transitivity (Sum ni (fun i => ci I i * (Sum Ni (fun I' => Sum Ne (fun E' => ci I' i * ce E' e * T I' E'))))).
    { apply Sum_ext; intros i Bi. rewrite Ht by auto. reflexivity. }
    transitivity (Sum Ne (fun E' => ce E' e * (Sum ni (fun i => ci I i * Sum Ni (fun I' => ci I' i * T I' E'))))).
    { clear. push. reorder. }
    apply Sum_ext; intros E' BE'. apply f_equal2; [reflexivity|].
    apply (rows_resolve Ni ni ci (fun I' => T I' E') I Hi Li).
  }
  clear. push. reorder.
Qed.
Lemma ct_im_ma_ai (Na na Ni ni Nm nm : nat) (ca ci cm : mat) (X : mat) (t T : mat) A I :
  rows Na na ca -> down2 Nm Na nm na cm ca T t -> (A < Na)%nat ->
  up2 na ni ca ci (fun a i => Sum nm (fun m => X i m * t m a)) A I = Sum Nm (fun M => up2 ni nm ci cm X I M * T M A).
Proof.
  intros Ha Ht La. unfold up2, up4.
  transitivity (Sum ni (fun i => Sum nm (fun m => ci I i * X i m * (Sum na (fun a => ca A a * t m a))))).
  { clear. push. reorder. }
  transitivity (Sum ni (fun i => Sum nm (fun m => ci I i * X i m * (Sum Nm (fun M' => cm M' m * T M' A))))).
  { apply Sum_ext; intros i Bi. apply Sum_ext; intros m Bm. apply f_equal2; [reflexivity|].
    transitivity (Sum na (fun a => ca A a * (Sum Nm (fun M' => Sum Na (fun A' => cm M' m * ca A' a * T M' A'))))).
    { apply Sum_ext; intros a Ba. rewrite Ht by auto. reflexivity. }
    transitivity (Sum Nm (fun M' => cm M' m * (Sum na (fun a => ca A a * Sum Na (fun A' => ca A' a * T M' A'))))).
    { clear. push. reorder. }
    apply Sum_ext; intros M' BM'. apply f_equal2; [reflexivity|].
    apply (rows_resolve Na na ca (fun A' => T M' A') A Ha La).
  }
  clear. push. reorder.
Qed.
Lemma ct_me_imae_ai_t_me (Na na Ne ne Ni ni Nm nm : nat) (ca ce ci cm : mat) (X : mat) (t T : ten) A I :
  rows Ni ni ci -> rows Na na ca -> down4 Ni Nm Na Ne ni nm na ne ci cm ca ce T t -> (I < Ni)%nat -> (A < Na)%nat ->
  up2 na ni ca ci (fun a i => Sum nm (fun m => Sum ne (fun e => t i m a e * X m e))) A I = Sum Nm (fun M => Sum Ne (fun E => T I M A E * up2 nm ne cm ce X M E)).
Proof.
  intros Hi Ha Ht Li La. unfold up2, up4.
  transitivity (Sum nm (fun m => Sum ne (fun e => X m e * (Sum ni (fun i => Sum na (fun a => ci I i * ca A a * t i m a e)))))).
  { clear. push. reorder. }
  transitivity (Sum nm (fun m => Sum ne (fun e => X m e * (Sum Nm (fun M' => Sum Ne (fun E' => cm M' m * ce E' e * T I M' A E')))))).
  { apply Sum_ext; intros m Bm. apply Sum_ext; intros e Be. apply f_equal2; [reflexivity|].
    transitivity (Sum ni (fun i => Sum na (fun a => ci I i * ca A a * (Sum Ni (fun I' => Sum Nm (fun M' => Sum Na (fun A' => Sum Ne (fun E' => ci I' i * cm M' m * ca A' a * ce E' e * T I' M' A' E')))))))).
    { apply Sum_ext; intros i Bi. apply Sum_ext; intros a Ba. rewrite Ht by auto. reflexivity. }
    transitivity (Sum Nm (fun M' => Sum Ne (fun E' => cm M' m * ce E' e * (Sum ni (fun i => ci I i * Sum Ni (fun I' => ci I' i * Sum na (fun a => ca A a * Sum Na (fun A' => ca A' a * T I' M' A' E')))))))).
    { clear. push. reorder. }
    apply Sum_ext; intros M' BM'. apply Sum_ext; intros E' BE'. apply f_equal2; [reflexivity|].
    rewrite (rows_resolve Ni ni ci (fun I' => Sum na (fun a => ca A a * Sum Na (fun A' => ca A' a * T I' M' A' E'))) I Hi Li).
    apply (rows_resolve Na na ca (fun A' => T I M' A' E') A Ha La).
  }
  clear. push. reorder.
Qed.
Lemma ct_mkef_ikef_mi_kef (Ne ne Nf nf Ni ni Nk nk Nm nm : nat) (ce cf ci ck cm : mat) (X : ten) (t T : ten) M I :
  rows Ni ni ci -> down4 Ni Nk Ne Nf ni nk ne nf ci ck ce cf T t -> (I < Ni)%nat ->
  up2 nm ni cm ci (fun m i => Sum nk (fun k => Sum ne (fun e => Sum nf (fun f => X m k e f * t i k e f)))) M I = Sum Nk (fun K => Sum Ne (fun E => Sum Nf (fun F => up4 nm nk ne nf cm ck ce cf X M K E F * T I K E F))).
Proof.
  intros Hi Ht Li. unfold up2, up4.
  transitivity (Sum nm (fun m => Sum nk (fun k => Sum ne (fun e => Sum nf (fun f => cm M m * X m k e f * (Sum ni (fun i => ci I i * t i k e f))))))).
  { clear. push. reorder. }
  transitivity (Sum nm (fun m => Sum nk (fun k => Sum ne (fun e => Sum nf (fun f => cm M m * X m k e f * (Sum Nk (fun K' => Sum Ne (fun E' => Sum Nf (fun F' => ck K' k * ce E' e * cf F' f * T I K' E' F'))))))))).
  { apply Sum_ext; intros m Bm. apply Sum_ext; intros k Bk. apply Sum_ext; intros e Be. apply Sum_ext; intros f Bf. apply f_equal2; [reflexivity|].
    transitivity (Sum ni (fun i => ci I i * (Sum Ni (fun I' => Sum Nk (fun K' => Sum Ne (fun E' => Sum Nf (fun F' => ci I' i * ck K' k * ce E' e * cf F' f * T I' K' E' F'))))))).
    { apply Sum_ext; intros i Bi. rewrite Ht by auto. reflexivity. }
    transitivity (Sum Nk (fun K' => Sum Ne (fun E' => Sum Nf (fun F' => ck K' k * ce E' e * cf F' f * (Sum ni (fun i => ci I i * Sum Ni (fun I' => ci I' i * T I' K' E' F'))))))).
    { clear. push. reorder. }
    apply Sum_ext; intros K' BK'. apply Sum_ext; intros E' BE'. apply Sum_ext; intros F' BF'. apply f_equal2; [reflexivity|].
    apply (rows_resolve Ni ni ci (fun I' => T I' K' E' F') I Hi Li).
  }
  clear. push. reorder.
Qed.
Lemma ct_mi_ma_ai (Na na Ni ni Nm nm : nat) (ca ci cm : mat) (X : mat) (t T : mat) A I :
  rows Na na ca -> down2 Nm Na nm na cm ca T t -> (A < Na)%nat ->
  up2 na ni ca ci (fun a i => Sum nm (fun m => X m i * t m a)) A I = Sum Nm (fun M => up2 nm ni cm ci X M I * T M A).
Proof.
  intros Ha Ht La. unfold up2, up4.
  transitivity (Sum ni (fun i => Sum nm (fun m => ci I i * X m i * (Sum na (fun a => ca A a * t m a))))).
  { clear. push. reorder. }
  transitivity (Sum ni (fun i => Sum nm (fun m => ci I i * X m i * (Sum Nm (fun M' => cm M' m * T M' A))))).
  { apply Sum_ext; intros i Bi. apply Sum_ext; intros m Bm. apply f_equal2; [reflexivity|].
    transitivity (Sum na (fun a => ca A a * (Sum Nm (fun M' => Sum Na (fun A' => cm M' m * ca A' a * T M' A'))))).
    { apply Sum_ext; intros a Ba. rewrite Ht by auto. reflexivity. }
    transitivity (Sum Nm (fun M' => cm M' m * (Sum na (fun a => ca A a * Sum Na (fun A' => ca A' a * T M' A'))))).
    { clear. push. reorder. }
    apply Sum_ext; intros M' BM'. apply f_equal2; [reflexivity|].
    apply (rows_resolve Na na ca (fun A' => T M' A') A Ha La).
  }
  clear. push. reorder.
Qed.
Lemma ct_mkaf_mkef_ea_mkf (Na na Ne ne Nf nf Nk nk Nm nm : nat) (ca ce cf ck cm : mat) (X : ten) (t T : ten) E A :
  rows Ne ne ce -> down4 Nm Nk Ne Nf nm nk ne nf cm ck ce cf T t -> (E < Ne)%nat ->
  up2 ne na ce ca (fun e a => Sum nm (fun m => Sum nk (fun k => Sum nf (fun f => X m k a f * t m k e f)))) E A = Sum Nm (fun M => Sum Nk (fun K => Sum Nf (fun F => up4 nm nk na nf cm ck ca cf X M K A F * T M K E F))).
Proof.
  intros He Ht Le. unfold up2, up4.
  transitivity (Sum na (fun a => Sum nm (fun m => Sum nk (fun k => Sum nf (fun f => ca A a * X m k a f * (Sum ne (fun e => ce E e * t m k e f))))))).
  { clear. push. reorder. }
  transitivity (Sum na (fun a => Sum nm (fun m => Sum nk (fun k => Sum nf (fun f => ca A a * X m k a f * (Sum Nm (fun M' => Sum Nk (fun K' => Sum Nf (fun F' => cm M' m * ck K' k * cf F' f * T M' K' E F'))))))))).
  { apply Sum_ext; intros a Ba. apply Sum_ext; intros m Bm. apply Sum_ext; intros k Bk. apply Sum_ext; intros f Bf. apply f_equal2; [reflexivity|].
    transitivity (Sum ne (fun e => ce E e * (Sum Nm (fun M' => Sum Nk (fun K' => Sum Ne (fun E' => Sum Nf (fun F' => cm M' m * ck K' k * ce E' e * cf F' f * T M' K' E' F'))))))).
    { apply Sum_ext; intros e Be. rewrite Ht by auto. reflexivity. }
    transitivity (Sum Nm (fun M' => Sum Nk (fun K' => Sum Nf (fun F' => cm M' m * ck K' k * cf F' f * (Sum ne (fun e => ce E e * Sum Ne (fun E' => ce E' e * T M' K' E' F'))))))).
    { clear. push. reorder. }
    apply Sum_ext; intros M' BM'. apply Sum_ext; intros K' BK'. apply Sum_ext; intros F' BF'. apply f_equal2; [reflexivity|].
    apply (rows_resolve Ne ne ce (fun E' => T M' K' E' F') E He Le).
  }
  clear. push. reorder.
Qed.
Lemma ct_ae_ie_ai_t (Na na Ne ne Ni ni : nat) (ca ce ci : mat) (X : mat) (t T : mat) A I :
  rows Ni ni ci -> down2 Ni Ne ni ne ci ce T t -> (I < Ni)%nat ->
  up2 na ni ca ci (fun a i => Sum ne (fun e => t i e * X a e)) A I = Sum Ne (fun E => T I E * up2 na ne ca ce X A E).
Proof.
  intros Hi Ht Li. unfold up2, up4.
  transitivity (Sum na (fun a => Sum ne (fun e => ca A a * X a e * (Sum ni (fun i => ci I i * t i e))))).
  { clear. push. reorder. }
  transitivity (Sum na (fun a => Sum ne (fun e => ca A a * X a e * (Sum Ne (fun E' => ce E' e * T I E'))))).
  { apply Sum_ext; intros a Ba. apply Sum_ext; intros e Be. apply f_equal2; [reflexivity|].
    transitivity (Sum ni (fun i => ci I i * (Sum Ni (fun I' => Sum Ne (fun E' => ci I' i * ce E' e * T I' E'))))).
    { apply Sum_ext; intros i Bi. rewrite Ht by auto. reflexivity. }
    transitivity (Sum Ne (fun E' => ce E' e * (Sum ni (fun i => ci I i * Sum Ni (fun I' => ci I' i * T I' E'))))).
    { clear. push. reorder. }
    apply Sum_ext; intros E' BE'. apply f_equal2; [reflexivity|].
    apply (rows_resolve Ni ni ci (fun I' => T I' E') I Hi Li).
  }
  clear. push. reorder.
Qed.
End Lift.
