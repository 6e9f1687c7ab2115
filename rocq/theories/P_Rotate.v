(** C18: rotation of amplitudes. *)
From Coq Require Import List Arith Lia Bool ZArith.
From Verif Require Import Alg M_Wf.
Import ListNotations.

Section Rot.
Context (K : cring).
Add Ring Kr : (rth K).
Open Scope K_scope.

Implicit Types (to tv uo uv : mat K).
(** Matrix product over [n] inner indices *)
Definition mmul (n : nat) (x y : mat K) : mat K := fun i j => Sum n (fun k => x i k * y k j).
Definition is_inverse (n m : nat) (x y : mat K) : Prop := forall i j, (i < n)%nat -> (j < n)%nat -> mmul m x y i j = delta i j.

Lemma trans1 o v (c : mat K) to tv i a : transform_c1 o v c to tv i a = Sum o (fun i' => Sum v (fun a' => c i' a' * to i' i * tv a' a)).
Proof.
  unfold transform_c1. transitivity (Sum v (fun a' => Sum o (fun i' => c i' a' * to i' i * tv a' a))).
  - apply Sum_ext. intros a' _. rewrite <- Sum_mul_r. apply Sum_ext. intros; ring.
  - apply Sum_swap.
Qed.

(** Rotation of one index at a time, to reason about several *)
Definition rot (n : nat) (f : nat -> K) (t : mat K) : nat -> K := fun i' => Sum n (fun i => f i * t i i').

Lemma rot_ext n (f g : nat -> K) t i : (forall k, (k < n)%nat -> f k = g k) -> rot n f t i = rot n g t i.
Proof. intros H. apply Sum_ext. intros k Hk. rewrite H; auto. Qed.
Lemma rot_comp n m f t u i : rot m (rot n f t) u i = rot n f (mmul m t u) i.
Proof.
  unfold rot, mmul. transitivity (Sum m (fun k => Sum n (fun j => f j * t j k * u k i))).
  - apply Sum_ext. intros k _. rewrite <- Sum_mul_r. reflexivity.
  - rewrite Sum_swap. apply Sum_ext. intros j _. rewrite <- Sum_mul_l. apply Sum_ext. intros; ring.
Qed.
Lemma rot_id n f t i : (forall j k, (j < n)%nat -> (k < n)%nat -> t j k = delta j k) -> (i < n)%nat -> rot n f t i = f i.
Proof. intros H Hi. unfold rot. transitivity (Sum n (fun j => f j * delta j i)); [apply Sum_ext; intros; rewrite H; auto|apply Sum_delta_r; auto]. Qed.
Lemma rot_swap n m (f : nat -> nat -> K) t u i a : rot n (fun i' => rot m (f i') u a) t i = rot m (fun a' => rot n (fun i' => f i' a') t i) u a.
Proof.
  unfold rot. transitivity (Sum n (fun i' => Sum m (fun a' => f i' a' * u a' a * t i' i))).
  - apply Sum_ext. intros. rewrite <- Sum_mul_r. reflexivity.
  - rewrite Sum_swap. apply Sum_ext. intros. rewrite <- Sum_mul_r. apply Sum_ext. intros. ring.
Qed.

Lemma trans1_rot o v (c : mat K) to tv i a : transform_c1 o v c to tv i a = rot o (fun i' => rot v (fun a' => c i' a') tv a) to i.
Proof. rewrite trans1. unfold rot. apply Sum_ext. intros i' _. rewrite <- Sum_mul_r. apply Sum_ext. intros; ring. Qed.
Lemma trans2_rot o1 o2 v1 v2 (c : ten K) to tv to2 tv2 i j a b :
  transform_c2 o1 o2 v1 v2 c to tv to2 tv2 i j a b = rot o1 (fun i' => rot o2 (fun j' => rot v1 (fun a' => rot v2 (fun b' => c i' j' a' b') tv2 b) tv a) to2 j) to i.
Proof.
  unfold transform_c2, rot. apply Sum_ext. intros i' _. rewrite <- Sum_mul_r. apply Sum_ext. intros j' _. rewrite <- !Sum_mul_r. apply Sum_ext. intros a' _. rewrite <- !Sum_mul_r.
  apply Sum_ext. intros; ring.
Qed.

Lemma trans1_comp o v o' v' (c : mat K) to tv uo uv i a : transform_c1 o' v' (transform_c1 o v c to tv) uo uv i a = transform_c1 o v c (mmul o' to uo) (mmul v' tv uv) i a.
Proof.
  rewrite !trans1_rot. rewrite <- rot_comp. apply rot_ext. intros k _.
  transitivity (rot v' (fun a' => rot o (fun i' => rot v (fun a'0 => c i' a'0) tv a') to k) uv a).
  - apply rot_ext. intros. apply trans1_rot.
  - rewrite <- rot_swap. apply rot_ext. intros. apply rot_comp.
Qed.

Lemma trans2_comp o1 o2 v1 v2 p1 p2 w1 w2 (c : ten K) to tv to2 tv2 uo uv uo2 uv2 i j a b :
  transform_c2 p1 p2 w1 w2 (transform_c2 o1 o2 v1 v2 c to tv to2 tv2) uo uv uo2 uv2 i j a b
  = transform_c2 o1 o2 v1 v2 c (mmul p1 to uo) (mmul w1 tv uv) (mmul p2 to2 uo2) (mmul w2 tv2 uv2) i j a b.
Proof.
  rewrite !trans2_rot. rewrite <- rot_comp. apply rot_ext. intros i1 _.
  transitivity (rot p2 (fun j' => rot w1 (fun a' => rot w2 (fun b' => rot o1 (fun i' => rot o2 (fun j'' => rot v1 (fun a'' => rot v2 (fun b'' => c i' j'' a'' b'') tv2 b') tv a') to2 j') to i1) uv2 b) uv a) uo2 j).
  { apply rot_ext. intros. apply rot_ext. intros. apply rot_ext. intros. apply trans2_rot. }
  transitivity (rot p2 (fun j' => rot w1 (fun a' => rot o1 (fun i' => rot w2 (fun b' => rot o2 (fun j'' => rot v1 (fun a'' => rot v2 (fun b'' => c i' j'' a'' b'') tv2 b') tv a') to2 j') uv2 b) to i1) uv a) uo2 j).
  { apply rot_ext. intros. apply rot_ext. intros. symmetry. apply rot_swap. }
  transitivity (rot p2 (fun j' => rot o1 (fun i' => rot w1 (fun a' => rot w2 (fun b' => rot o2 (fun j'' => rot v1 (fun a'' => rot v2 (fun b'' => c i' j'' a'' b'') tv2 b') tv a') to2 j') uv2 b) uv a) to i1) uo2 j).
  { apply rot_ext. intros. symmetry. apply rot_swap. }
  rewrite <- rot_swap. apply rot_ext. intros i' _. rewrite <- rot_comp. apply rot_ext. intros j1 _.
  transitivity (rot w1 (fun a' => rot o2 (fun j'' => rot w2 (fun b' => rot v1 (fun a'' => rot v2 (fun b'' => c i' j'' a'' b'') tv2 b') tv a') uv2 b) to2 j1) uv a).
  { apply rot_ext. intros. symmetry. apply rot_swap. }
  rewrite <- rot_swap. apply rot_ext. intros j' _. rewrite <- rot_comp. apply rot_ext. intros a1 _.
  rewrite <- rot_swap. apply rot_ext. intros a' _. apply rot_comp.
Qed.

Lemma trans1_ext o v (c c' : mat K) to tv (to' tv' : mat K) i a : (forall x y, (x < o)%nat -> (y < v)%nat -> c x y = c' x y) -> (forall x, (x < o)%nat -> to x i = to' x i) -> (forall x, (x < v)%nat -> tv x a = tv' x a) ->
  transform_c1 o v c to tv i a = transform_c1 o v c' to' tv' i a.
Proof. intros H1 H2 H3. rewrite !trans1. apply Sum_ext. intros x Hx. apply Sum_ext. intros y Hy. rewrite H1, H2, H3; auto. Qed.

Lemma trans1_id o v (c : mat K) i a : (i < o)%nat -> (a < v)%nat -> transform_c1 o v c delta delta i a = c i a.
Proof. intros Hi Ha. rewrite trans1_rot. rewrite rot_id; auto. apply rot_id; auto. Qed.
Lemma trans2_id o1 o2 v1 v2 (c : ten K) i j a b : (i < o1)%nat -> (j < o2)%nat -> (a < v1)%nat -> (b < v2)%nat -> transform_c2 o1 o2 v1 v2 c delta delta delta delta i j a b = c i j a b.
Proof. intros. rewrite trans2_rot. rewrite rot_id; auto. rewrite rot_id; auto. rewrite rot_id; auto. apply rot_id; auto. Qed.

Lemma trans2_ext o1 o2 v1 v2 (c : ten K) to tv to2 tv2 (to' tv' to2' tv2' : mat K) i j a b : (forall x, (x < o1)%nat -> to x i = to' x i) -> (forall x, (x < o2)%nat -> to2 x j = to2' x j) -> (forall x, (x < v1)%nat -> tv x a = tv' x a) -> (forall x, (x < v2)%nat -> tv2 x b = tv2' x b) ->
  transform_c2 o1 o2 v1 v2 c to tv to2 tv2 i j a b = transform_c2 o1 o2 v1 v2 c to' tv' to2' tv2' i j a b.
Proof. intros H1 H2 H3 H4. unfold transform_c2. apply Sum_ext. intros. apply Sum_ext. intros. apply Sum_ext. intros. apply Sum_ext. intros. rewrite H1, H2, H3, H4; auto. Qed.

(** *** Orbitals *)
Lemma Sum_block o v o2 to tv (f : nat -> K) q : Sum (o + v) (fun p => f p * block_diag o o2 to tv p q)
  = if (q <? o2)%nat then Sum o (fun i => f i * to i q) else Sum v (fun a => f (o + a)%nat * tv a (q - o2)%nat).
Proof.
  rewrite Sum_split. unfold block_diag. destruct (q <? o2)%nat eqn:E.
  - rewrite (Sum_ext o _ (fun i => f i * to i q)); [|intros i Hi; apply Nat.ltb_lt in Hi; rewrite Hi; reflexivity].
    rewrite (Sum_0 v); [ring|]. intros a _. replace (o + a <? o)%nat with false by (symmetry; apply Nat.ltb_ge; lia). ring.
  - rewrite (Sum_0 o); [|intros i Hi; apply Nat.ltb_lt in Hi; rewrite Hi; ring].
    rewrite (Sum_ext v _ (fun a => f (o + a)%nat * tv a (q - o2)%nat)); [ring|].
    intros a _. replace (o + a <? o)%nat with false by (symmetry; apply Nat.ltb_ge; lia). replace (o + a - o)%nat with a by lia. reflexivity.
Qed.

(** Amplitudes in the basis of the atomic orbitals: what does not depend on the choice of orbitals. *)
Definition ao1 (w : rwf K) (c : mat K) (mu nu : nat) : K := Sum (no w) (fun i => Sum (nv w) (fun a => coeff w mu i * c i a * coeff w nu (no w + a)%nat)).
Definition ao2 (w : rwf K) (c : ten K) (m1 m2 n1 n2 : nat) : K :=
  Sum (no w) (fun i => Sum (no w) (fun j => Sum (nv w) (fun a => Sum (nv w) (fun b => coeff w m1 i * coeff w m2 j * c i j a b * coeff w n1 (no w + a)%nat * coeff w n2 (no w + b)%nat)))).

Definition eq1 (o v : nat) (x y : mat K) : Prop := forall i a, (i < o)%nat -> (a < v)%nat -> x i a = y i a.
Definition eq2 (o v : nat) (x y : ten K) : Prop := forall i j a b, (i < o)%nat -> (j < o)%nat -> (a < v)%nat -> (b < v)%nat -> x i j a b = y i j a b.
(** Equal orbitals, amplitudes and (if present) Lambda-amplitudes *)
Definition same (w w' : rwf K) : Prop :=
  no w = no w' /\ nv w = nv w' /\ (forall mu p, (p < no w + nv w)%nat -> coeff w mu p = coeff w' mu p) /\ eq1 (no w) (nv w) (a1 w) (a1 w') /\ eq2 (no w) (nv w) (a2 w) (a2 w') /\
  match b1 w, b1 w' with Some x, Some y => eq1 (no w) (nv w) x y | None, None => True | _, _ => False end /\
  match b2 w, b2 w' with Some x, Some y => eq2 (no w) (nv w) x y | None, None => True | _, _ => False end.

Theorem C18_compose : forall (w : rwf K) o2 v2 o3 v3 to tv uo uv,
  same (rotate_ov (rotate_ov w o2 v2 to tv) o3 v3 uo uv) (rotate_ov w o3 v3 (mmul o2 to uo) (mmul v2 tv uv)).
Proof.
  intros w o2 v2 o3 v3 to tv uo uv. unfold same. cbn [rotate_ov no nv a1 a2 b1 b2 coeff]. split; [reflexivity|]. split; [reflexivity|]. split; [|split; [|split; [|split]]].
  - intros mu p _. rewrite !Sum_block. destruct (p <? o3)%nat eqn:E.
    + transitivity (Sum o2 (fun i => Sum (no w) (fun k => coeff w mu k * to k i) * uo i p)).
      * apply Sum_ext. intros i Hi. rewrite Sum_block. apply Nat.ltb_lt in Hi. rewrite Hi. reflexivity.
      * unfold mmul. apply (rot_comp (no w) o2 (fun k => coeff w mu k) to uo p).
    + transitivity (Sum v2 (fun a => Sum (nv w) (fun k => coeff w mu (no w + k)%nat * tv k a) * uv a (p - o3)%nat)).
      * apply Sum_ext. intros a Ha. rewrite Sum_block. replace (o2 + a <? o2)%nat with false by (symmetry; apply Nat.ltb_ge; lia). replace (o2 + a - o2)%nat with a by lia. reflexivity.
      * apply (rot_comp (nv w) v2 (fun k => coeff w mu (no w + k)%nat) tv uv (p - o3)%nat).
  - intros i a Hi Ha. apply trans1_comp.
  - intros i j a b Hi Hj Ha Hb. apply trans2_comp.
  - destruct (b1 w) as [x|]; cbn; auto. intros i a Hi Ha. apply trans1_comp.
  - destruct (b2 w) as [x|]; cbn; auto. intros i j a b Hi Hj Ha Hb. apply trans2_comp.
Qed.

(** The identity changes nothing. *)
Theorem C18_identity : forall (w : rwf K), same (rotate_ov w (no w) (nv w) delta delta) w.
Proof.
  intros w. unfold same. cbn [rotate_ov no nv a1 a2 b1 b2 coeff]. split; [reflexivity|]. split; [reflexivity|]. split; [|split; [|split; [|split]]].
  - intros mu p Hp. rewrite Sum_block. destruct (p <? no w)%nat eqn:E.
    + apply Nat.ltb_lt in E. apply (Sum_delta_r (no w) p (fun i => coeff w mu i)); auto.
    + apply Nat.ltb_ge in E. transitivity (coeff w mu (no w + (p - no w))%nat); [|f_equal; lia]. apply (Sum_delta_r (nv w) (p - no w)%nat (fun a => coeff w mu (no w + a)%nat)). lia.
  - intros i a Hi Ha. apply trans1_id; auto.
  - intros i j a b Hi Hj Ha Hb. apply trans2_id; auto.
  - destruct (b1 w); cbn; auto. intros i a Hi Ha. apply trans1_id; auto.
  - destruct (b2 w); cbn; auto. intros i j a b Hi Hj Ha Hb. apply trans2_id; auto.
Qed.

(** Rotating back with the inverse matrices restores everything. *)
Theorem C18_inverse : forall (w : rwf K) o2 v2 to tv to' tv', is_inverse (no w) o2 to to' -> is_inverse (nv w) v2 tv tv' ->
  same (rotate_ov (rotate_ov w o2 v2 to tv) (no w) (nv w) to' tv') w.
Proof.
  intros w o2 v2 to tv to' tv' Ho Hv.
  assert (S : same (rotate_ov w (no w) (nv w) (mmul o2 to to') (mmul v2 tv tv')) w).
  { destruct (C18_identity w) as (I1 & I2 & I3 & I4 & I5 & I6 & I7). cbn [rotate_ov no nv a1 a2 b1 b2 coeff] in *.
    unfold same. cbn [rotate_ov no nv a1 a2 b1 b2 coeff]. split; [reflexivity|]. split; [reflexivity|].
    assert (E1 : forall c i a, (i < no w)%nat -> (a < nv w)%nat -> transform_c1 (no w) (nv w) c (mmul o2 to to') (mmul v2 tv tv') i a = c i a).
    { intros c i a Hi Ha. rewrite <- (trans1_id (no w) (nv w) c i a) by auto. apply trans1_ext; auto. }
    assert (E2 : forall c i j a b, (i < no w)%nat -> (j < no w)%nat -> (a < nv w)%nat -> (b < nv w)%nat ->
       transform_c2 (no w) (no w) (nv w) (nv w) c (mmul o2 to to') (mmul v2 tv tv') (mmul o2 to to') (mmul v2 tv tv') i j a b = c i j a b).
    { intros c i j a b Hi Hj Ha Hb. rewrite <- (trans2_id (no w) (no w) (nv w) (nv w) c i j a b) by auto. apply trans2_ext; auto. }
    split; [|split; [|split; [|split]]].
    - intros mu p Hp. rewrite <- I3 by auto. rewrite !Sum_block. destruct (p <? no w)%nat eqn:E.
      + apply Nat.ltb_lt in E. apply Sum_ext. intros i Hi. rewrite Ho; auto.
      + apply Nat.ltb_ge in E. apply Sum_ext. intros a Ha. rewrite Hv; auto. lia.
    - intros i a Hi Ha. auto.
    - intros i j a b Hi Hj Ha Hb. auto.
    - destruct (b1 w); cbn; auto. intros i a Hi Ha. auto.
    - destruct (b2 w); cbn; auto. intros i j a b Hi Hj Ha Hb. auto. }
  destruct (C18_compose w o2 v2 (no w) (nv w) to tv to' tv') as (I1 & I2 & I3 & I4 & I5 & I6 & I7). destruct S as (J1 & J2 & J3 & J4 & J5 & J6 & J7).
  cbn [rotate_ov no nv] in *. unfold same. cbn [rotate_ov no nv]. split; [auto|]. split; [auto|].
  split; [intros; rewrite I3 by auto; auto|]. split; [intros i a ? ?; rewrite I4 by auto; auto|]. split; [intros i j a b ? ? ? ?; rewrite I5 by auto; auto|]. split.
  - cbn [rotate_ov b1] in *. destruct (b1 w); cbn in *; auto. intros i a ? ?. rewrite I6 by auto. auto.
  - cbn [rotate_ov b2] in *. destruct (b2 w); cbn in *; auto. intros i j a b ? ? ? ?. rewrite I7 by auto. auto.
Qed.

(** Rotations by orthogonal matrices do not change the wave function: the amplitudes in the atomic orbital basis are the same. *)
Theorem C18_physical : forall (w : rwf K) o2 v2 to tv,
  (forall i j, (i < no w)%nat -> (j < no w)%nat -> Sum o2 (fun k => to i k * to j k) = delta i j) ->
  (forall i j, (i < nv w)%nat -> (j < nv w)%nat -> Sum v2 (fun k => tv i k * tv j k) = delta i j) ->
  (forall mu nu, ao1 (rotate_ov w o2 v2 to tv) (a1 (rotate_ov w o2 v2 to tv)) mu nu = ao1 w (a1 w) mu nu) /\
  (forall m1 m2 n1 n2, ao2 (rotate_ov w o2 v2 to tv) (a2 (rotate_ov w o2 v2 to tv)) m1 m2 n1 n2 = ao2 w (a2 w) m1 m2 n1 n2).
Proof.
  intros w o2 v2 to tv Ho Hv.
  assert (Co : forall mu i, (i < o2)%nat -> coeff (rotate_ov w o2 v2 to tv) mu i = Sum (no w) (fun k => coeff w mu k * to k i)).
  { intros mu i Hi. cbn [rotate_ov coeff]. rewrite Sum_block. apply Nat.ltb_lt in Hi. now rewrite Hi. }
  assert (Cv : forall mu a, coeff (rotate_ov w o2 v2 to tv) mu (o2 + a)%nat = Sum (nv w) (fun k => coeff w mu (no w + k)%nat * tv k a)).
  { intros mu a. cbn [rotate_ov coeff]. rewrite Sum_block. replace (o2 + a <? o2)%nat with false by (symmetry; apply Nat.ltb_ge; lia). replace (o2 + a - o2)%nat with a by lia. reflexivity. }
  (* the amplitude in the atomic basis is a transformation with the transposed coefficients *)
  set (Xo := fun i mu => coeff w mu i). set (Xv := fun a mu => coeff w mu (no w + a)%nat).
  set (tot := fun k i => to i k). set (tvt := fun k a => tv a k).
  assert (Hoo : forall i mu, (i < no w)%nat -> mmul o2 to (mmul (no w) tot Xo) i mu = Xo i mu).
  { intros i mu Hi. transitivity (Sum (no w) (fun j => Sum o2 (fun k => to i k * to j k) * Xo j mu)).
    - unfold mmul, tot. transitivity (Sum o2 (fun k => Sum (no w) (fun j => to i k * to j k * Xo j mu))).
      + apply Sum_ext. intros. rewrite <- Sum_mul_l. apply Sum_ext. intros; ring.
      + rewrite Sum_swap. apply Sum_ext. intros. apply Sum_mul_r.
    - transitivity (Sum (no w) (fun j => delta i j * Xo j mu)); [apply Sum_ext; intros; rewrite Ho; auto|apply (Sum_delta_l (no w) i (fun j => Xo j mu)); auto]. }
  assert (Hvv : forall i mu, (i < nv w)%nat -> mmul v2 tv (mmul (nv w) tvt Xv) i mu = Xv i mu).
  { intros i mu Hi. transitivity (Sum (nv w) (fun j => Sum v2 (fun k => tv i k * tv j k) * Xv j mu)).
    - unfold mmul, tvt. transitivity (Sum v2 (fun k => Sum (nv w) (fun j => tv i k * tv j k * Xv j mu))).
      + apply Sum_ext. intros. rewrite <- Sum_mul_l. apply Sum_ext. intros; ring.
      + rewrite Sum_swap. apply Sum_ext. intros. apply Sum_mul_r.
    - transitivity (Sum (nv w) (fun j => delta i j * Xv j mu)); [apply Sum_ext; intros; rewrite Hv; auto|apply (Sum_delta_l (nv w) i (fun j => Xv j mu)); auto]. }
  assert (Ko : forall mu i, Sum (no w) (fun k => coeff w mu k * to k i) = mmul (no w) tot Xo i mu) by (intros; unfold mmul, tot, Xo; apply Sum_ext; intros; ring).
  assert (Kv : forall mu a, Sum (nv w) (fun k => coeff w mu (no w + k)%nat * tv k a) = mmul (nv w) tvt Xv a mu) by (intros; unfold mmul, tvt, Xv; apply Sum_ext; intros; ring).
  split.
  - intros mu nu. unfold ao1. change (no (rotate_ov w o2 v2 to tv)) with o2. change (nv (rotate_ov w o2 v2 to tv)) with v2.
    transitivity (transform_c1 o2 v2 (transform_c1 (no w) (nv w) (a1 w) to tv) (mmul (no w) tot Xo) (mmul (nv w) tvt Xv) mu nu).
    + rewrite trans1. apply Sum_ext. intros i Hi. apply Sum_ext. intros a Ha. rewrite Co, Cv, Ko, Kv by auto. cbn [rotate_ov a1]. ring.
    + rewrite trans1_comp. transitivity (transform_c1 (no w) (nv w) (a1 w) Xo Xv mu nu); [apply trans1_ext; auto|]. rewrite trans1. apply Sum_ext. intros. apply Sum_ext. intros. unfold Xo, Xv. ring.
  - intros m1 m2 n1 n2. unfold ao2. change (no (rotate_ov w o2 v2 to tv)) with o2. change (nv (rotate_ov w o2 v2 to tv)) with v2.
    transitivity (transform_c2 o2 o2 v2 v2 (transform_c2 (no w) (no w) (nv w) (nv w) (a2 w) to tv to tv) (mmul (no w) tot Xo) (mmul (nv w) tvt Xv) (mmul (no w) tot Xo) (mmul (nv w) tvt Xv) m1 m2 n1 n2).
    + unfold transform_c2 at 1. apply Sum_ext. intros i Hi. apply Sum_ext. intros j Hj. apply Sum_ext. intros a Ha. apply Sum_ext. intros b Hb. rewrite !Co, !Cv, !Ko, !Kv by auto. cbn [rotate_ov a2]. ring.
    + rewrite trans2_comp. transitivity (transform_c2 (no w) (no w) (nv w) (nv w) (a2 w) Xo Xv Xo Xv m1 m2 n1 n2); [apply trans2_ext; auto|].
      unfold transform_c2. apply Sum_ext. intros. apply Sum_ext. intros. apply Sum_ext. intros. apply Sum_ext. intros. unfold Xo, Xv. ring.
Qed.

(** rotate accepts exactly the matrices which do not mix occupied and virtual orbitals. *)
Theorem C18_rotate : forall isz (w : rwf K) (t : mat K), (forall x, isz x = true <-> x = 0) ->
  (rotate isz w t <> None <-> forall i a, (i < no w)%nat -> (a < nv w)%nat -> t i (no w + a)%nat = 0 /\ t (no w + a)%nat i = 0) /\
  forall w', rotate isz w t = Some w' -> (no w' = no w /\ nv w' = nv w /\
    forall mu q, (q < no w + nv w)%nat -> coeff w' mu q = Sum (no w + nv w) (fun p => coeff w mu p * t p q)).
Proof.
  intros isz w t Hz. unfold rotate.
  destruct (forallb _ (seq 0 (no w))) eqn:E.
  - assert (A : forall i a, (i < no w)%nat -> (a < nv w)%nat -> t i (no w + a)%nat = 0 /\ t (no w + a)%nat i = 0).
    { intros i a Hi Ha. rewrite forallb_forall in E. specialize (E i). rewrite forallb_forall in E. assert (In a (seq 0 (nv w))) by (apply in_seq; lia). assert (In i (seq 0 (no w))) by (apply in_seq; lia).
      specialize (E H0 a H). apply andb_true_iff in E. destruct E as [E1 E2]. apply Hz in E1. apply Hz in E2. auto. }
    split.
    + split; [auto|intros _ ?; discriminate].
    + intros w' Ew. injection Ew as <-. cbn [rotate_ov no nv coeff]. split; auto. split; auto. intros mu q Hq. rewrite Sum_block, Sum_split. destruct (q <? no w)%nat eqn:Eq.
      * apply Nat.ltb_lt in Eq. rewrite (Sum_0 (nv w)); [ring|]. intros a Ha. destruct (A q a) as [_ ->]; auto. ring.
      * apply Nat.ltb_ge in Eq. rewrite (Sum_0 (no w)); [|intros i Hi; destruct (A i (q - no w)%nat) as [A1 _]; auto; [lia|]; replace (no w + (q - no w))%nat with q in A1 by lia; rewrite A1; ring].
        replace (no w + (q - no w))%nat with q by lia. ring.
  - split.
    + split; [congruence|]. intros A _. assert (X : forallb (fun i => forallb (fun a => isz (t i (no w + a)%nat) && isz (t (no w + a)%nat i)) (seq 0 (nv w))) (seq 0 (no w)) = true); [|congruence].
      apply forallb_forall. intros i Hi. apply in_seq in Hi. apply forallb_forall. intros a Ha. apply in_seq in Ha. destruct (A i a) as [A1 A2]; [lia|lia|]. rewrite A1, A2.
      assert (isz 0 = true) as -> by (now apply Hz). reflexivity.
    + discriminate.
Qed.

(** Unrestricted amplitudes compose as well. *)
Definition ueq (w w' : uwf K) : Prop :=
  (forall i a, fst (ua1 w) i a = fst (ua1 w') i a) /\ (forall i a, snd (ua1 w) i a = snd (ua1 w') i a) /\
  (forall i j a b, uaa (ua2 w) i j a b = uaa (ua2 w') i j a b) /\ (forall i j a b, uab (ua2 w) i j a b = uab (ua2 w') i j a b) /\
  (forall i j a b, uba (ua2 w) i j a b = uba (ua2 w') i j a b) /\ (forall i j a b, ubb (ua2 w) i j a b = ubb (ua2 w') i j a b).
Theorem C18_unrestricted : forall (w : uwf K) o2 v2 o3 v3 (to tv uo uv : umat K),
  ueq (urotate_ov (urotate_ov w o2 v2 to tv) o3 v3 uo uv)
      (urotate_ov w o3 v3 (mmul (fst o2) (fst to) (fst uo), mmul (snd o2) (snd to) (snd uo)) (mmul (fst v2) (fst tv) (fst uv), mmul (snd v2) (snd tv) (snd uv))).
Proof.
  intros. unfold ueq. cbn [urotate_ov ua1 ua2 uno unv fst snd]. split; [intros; apply trans1_comp|]. split; [intros; apply trans1_comp|].
  destruct (ua2 w); cbn [uaa uab uba ubb]; unfold exch; repeat split; intros; apply trans2_comp.
Qed.
(** Coefficients after an unrestricted rotation: the beta orbitals are the rotated ones. The alpha orbitals are rotated with the
    beta matrices (see the finding below), so they are the rotated ones when both spins have the same matrices and numbers of orbitals. *)
Theorem C18_unrestricted_orbitals : forall (w : uwf K) o2 v2 (to tv : umat K),
  let w' := urotate_ov w o2 v2 to tv in
  uno w' = o2 /\ unv w' = v2 /\
  (forall mu i, (i < snd o2)%nat -> snd (ucoeff w') mu i = Sum (snd (uno w)) (fun k => snd (ucoeff w) mu k * snd to k i)) /\
  (forall mu a, snd (ucoeff w') mu (snd o2 + a)%nat = Sum (snd (unv w)) (fun c => snd (ucoeff w) mu (snd (uno w) + c)%nat * snd tv c a)) /\
  (fst to = snd to -> fst tv = snd tv -> fst (uno w) = snd (uno w) -> fst (unv w) = snd (unv w) -> fst o2 = snd o2 ->
    (forall mu i, (i < fst o2)%nat -> fst (ucoeff w') mu i = Sum (fst (uno w)) (fun k => fst (ucoeff w) mu k * fst to k i)) /\
    (forall mu a, fst (ucoeff w') mu (fst o2 + a)%nat = Sum (fst (unv w)) (fun c => fst (ucoeff w) mu (fst (uno w) + c)%nat * fst tv c a))).
Proof.
  intros w o2 v2 to tv w'.
  assert (A : forall (C t1 t2 : mat K) n1 n2 o mu i, (i < o)%nat -> Sum (n1 + n2) (fun p => C mu p * block_diag n1 o t1 t2 p i) = Sum n1 (fun k => C mu k * t1 k i)).
  { intros C t1 t2 n1 n2 o mu i Hi. rewrite Sum_split, (Sum_0 n2).
    - rewrite (Sum_ext n1 _ (fun k => C mu k * t1 k i)); [ring|].
      intros k Hk. unfold block_diag. apply Nat.ltb_lt in Hk. apply Nat.ltb_lt in Hi. now rewrite Hk, Hi.
    - intros c Hc. unfold block_diag. replace (n1 + c <? n1)%nat with false by (symmetry; apply Nat.ltb_ge; lia). apply Nat.ltb_lt in Hi. rewrite Hi. ring. }
  assert (B : forall (C t1 t2 : mat K) n1 n2 o mu a, Sum (n1 + n2) (fun p => C mu p * block_diag n1 o t1 t2 p (o + a)%nat) = Sum n2 (fun c => C mu (n1 + c)%nat * t2 c a)).
  { intros C t1 t2 n1 n2 o mu a. rewrite Sum_split, (Sum_0 n1).
    - rewrite (Sum_ext n2 _ (fun c => C mu (n1 + c)%nat * t2 c a)); [ring|].
      intros k Hk. unfold block_diag. replace (n1 + k <? n1)%nat with false by (symmetry; apply Nat.ltb_ge; lia). replace (o + a <? o)%nat with false by (symmetry; apply Nat.ltb_ge; lia).
      replace (n1 + k - n1)%nat with k by lia. now replace (o + a - o)%nat with a by lia.
    - intros c Hc. unfold block_diag. apply Nat.ltb_lt in Hc. rewrite Hc. replace (o + a <? o)%nat with false by (symmetry; apply Nat.ltb_ge; lia). ring. }
  unfold w', urotate_ov. cbn [ucoeff uno unv fst snd].
  split; [reflexivity|]. split; [reflexivity|]. split; [intros; now apply A|]. split; [intros; apply B|].
  intros E1 E2 E3 E4 E5. rewrite E1, E2, E3, E4, E5. split; [intros; now apply A|intros; apply B].
Qed.
End Rot.

Definition one_m : mat ZK := fun _ _ => 1%Z.
Definition one_t : ten ZK := fun _ _ _ _ => 1%Z.
(** Finding: rotating an unrestricted wave function with different matrices for the two spins rotates both sets of orbitals
    with the beta matrix (one occupied orbital, alpha scaled by 2, beta by 3). *)
Theorem C18_orbitals_refuted : exists (w : uwf ZK) to tv, let w' := urotate_ov w (1, 1) (0, 0) to tv in
  fst (ucoeff w') 0 0 <> Sum 1 (fun i => rmul (fst (ucoeff w) 0 i) (fst to i 0)) /\ fst (ucoeff w') 0 0 = 3%Z.
Proof.
  exists (@Build_uwf ZK (one_m, one_m) (1, 1) (0, 0) (one_m, one_m) (U3 one_t one_t one_t)), (fun _ _ => 2%Z : ZK, fun _ _ => 3%Z : ZK), (one_m, one_m). split; vm_compute; [discriminate|reflexivity].
Qed.

(** Example: exchange of two occupied orbitals. *)
Definition swapm : mat ZK := fun i j => if Nat.eqb i j then 0%Z else 1%Z.
Example rotate_example : transform_c1 2 1 (fun i _ => match i with O => 5%Z : ZK | _ => 7%Z end) swapm (fun _ _ => 1%Z) 0 0 = 7%Z.
Proof. reflexivity. Qed.
Example orth_example : is_inverse ZK 2 2 swapm swapm.
Proof. intros [|[|i]] [|[|j]] Hi Hj; try lia; reflexivity. Qed.

(** Case for the unrestricted rotation: two occupied orbitals of each spin exchanged, one beta virtual orbital scaled by 5. *)
Example unrestricted_example : let w := @Build_uwf ZK (fun m p => Z.of_nat (m + 2 * p), fun m p => Z.of_nat (m + 7 * p)) (2, 2) (0, 1) (one_m, one_m) (U3 one_t one_t one_t) in
  let w' := urotate_ov w (2, 2) (0, 1) (swapm, swapm) (one_m, fun _ _ => 5%Z) in
  snd (ucoeff w') 1 0 = 8%Z /\ snd (ucoeff w') 1 1 = 1%Z /\ snd (ucoeff w') 1 2 = 75%Z.
Proof. repeat split. Qed.

Print Assumptions C18_compose. Print Assumptions C18_identity. Print Assumptions C18_inverse. Print Assumptions C18_physical. Print Assumptions C18_rotate. Print Assumptions C18_unrestricted. Print Assumptions C18_unrestricted_orbitals. Print Assumptions C18_orbitals_refuted.
