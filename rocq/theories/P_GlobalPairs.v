(** Contributions of pairs of clusters to the global density matrix (lemmas for P_GlobalWf.v). *)
From Coq Require Import List Arith Bool Lia ZArith QArith Qcanon Ring Setoid Morphisms.
From Verif Require Import Alg Pull M_Wf M_Eris M_Rdm M_GlobalWf.
Import ListNotations.

Section P.
Context (K : cring).
Add Ring Kr : (rth K).
Open Scope K_scope.
Variable half : K.
Hypothesis Hhalf : half + half = 1.
Notation mat := (nat -> nat -> K).
Notation ten := (nat -> nat -> nat -> nat -> K).

(** ** Pairs of clusters *)
Section Pairs.
Variables (x y : gfrag K) (c : image K) (ro rv : mat).
Notation nfx := (g_nf x). Notation nox := (g_no x). Notation nvx := (g_nv x).
Notation nfy := (g_nf y). Notation noy := (g_no y). Notation nvy := (g_nv y).

Definition Mxy (l : ten) : ten := fun Q j a b =>
  Sum noy (fun I => Sum noy (fun J => Sum nvy (fun A => Sum nvy (fun B => l I J A B * i_co c Q I * ro j J * rv a A * rv b B)))).
Definition Nxy (l : ten) : ten := fun i j a Q =>
  Sum noy (fun I => Sum noy (fun J => Sum nvy (fun A => Sum nvy (fun B => l I J A B * ro i I * ro j J * rv a A * i_cv c Q B)))).
Definition Boo (th l : ten) : mat := fun i Q => - Sum nox (fun j => Sum nvx (fun a => Sum nvx (fun b => th i j a b * Mxy l Q j a b))).
Definition Bvv (th l : ten) : mat := fun b Q => Sum nox (fun i => Sum nox (fun j => Sum nvx (fun a => th i j a b * Nxy l i j a Q))).

Lemma early_oo_none th l i Q : early_oo None x y c th l ro rv i Q = Boo th l i Q.
Proof.
  unfold early_oo, Boo, early_tmp, Mxy, Sum2. push. reorder.
Qed.
Lemma early_vv_none th l b Q : early_vv None x y c th l ro rv b Q = Bvv th l b Q.
Proof.
  unfold early_vv, Bvv, early_tmp, Nxy, Sum2. push. reorder.
Qed.

(** The factors of an exact singular value decomposition *)
Definition exact_svd (svd : option (nat -> nat -> mat -> nat * mat * mat)) : Prop :=
  forall f, svd = Some f -> forall m n r ns u v, f m n r = (ns, u, v) -> forall i j, (i < m)%nat -> (j < n)%nat -> Sum ns (fun s => u i s * v s j) = r i j.

Lemma early_tmp_svd f th l i I b B : exact_svd (Some f) ->
  early_tmp (Some f) x y th l ro rv i I b B = early_tmp None x y th l ro rv i I b B.
Proof.
  intros E. unfold early_tmp, Sum2. destruct (f nox noy ro) as [[ns uo] vo] eqn:E1. destruct (f nvx nvy rv) as [[np uv] vv] eqn:E2.
  transitivity (Sum noy (fun J => Sum nvy (fun A => Sum nox (fun j => Sum nvx (fun a => th i j a b * Sum ns (fun s => uo j s * vo s J) * Sum np (fun p => uv a p * vv p A))) * l I J A B))).
  - push. reorder.
  - apply Sum_ext; intros J HJ. apply Sum_ext; intros A HA. f_equal. apply Sum_ext; intros j Hj. apply Sum_ext; intros a Ha.
    rewrite (E f eq_refl _ _ _ _ _ _ E1 j J Hj HJ), (E f eq_refl _ _ _ _ _ _ E2 a A Ha HA). reflexivity.
Qed.
Lemma early_oo_eq svd th l i Q : exact_svd svd -> early_oo svd x y c th l ro rv i Q = Boo th l i Q.
Proof.
  intros E. rewrite <- early_oo_none. destruct svd as [f|]; [|reflexivity]. unfold early_oo, Sum2. setoid_rewrite early_tmp_svd; auto.
Qed.
Lemma early_vv_eq svd th l i Q : exact_svd svd -> early_vv svd x y c th l ro rv i Q = Bvv th l i Q.
Proof.
  intros E. rewrite <- early_vv_none. destruct svd as [f|]; [|reflexivity]. unfold early_vv, Sum2. setoid_rewrite early_tmp_svd; auto.
Qed.

(** *** Late symmetrisation *)
Lemma cfxy_eq svd j Y : exact_svd svd -> (j < nox)%nat -> cfxy svd x y ro j Y = Sum noy (fun J => ro j J * g_cf y J Y).
Proof.
  intros E Hj. unfold cfxy. destruct svd as [f|]; [|reflexivity]. destruct (f nox noy ro) as [[ns u] v] eqn:E1.
  apply Sum_ext; intros J HJ. rewrite (E f eq_refl _ _ _ _ _ _ E1 j J Hj HJ). reflexivity.
Qed.
Lemma cfyx_eq svd J k : exact_svd svd -> (J < noy)%nat -> cfyx svd x y ro J k = Sum nox (fun j => ro j J * g_cf x j k).
Proof.
  intros E HJ. unfold cfyx. destruct svd as [f|]; [|reflexivity]. destruct (f nox noy ro) as [[ns u] v] eqn:E1.
  apply Sum_ext; intros j Hj. rewrite <- (E f eq_refl _ _ _ _ _ _ E1 j J Hj HJ). f_equal. apply Sum_ext; intros. ring.
Qed.
Lemma ffxy_eq svd k Y : exact_svd svd -> ffxy svd x y ro k Y = Sum noy (fun J => Sum nox (fun j => g_cf x j k * ro j J) * g_cf y J Y).
Proof.
  intros E. unfold ffxy. destruct svd as [f|]; [|reflexivity]. destruct (f nox noy ro) as [[ns u] v] eqn:E1.
  apply Sum_ext; intros J HJ. f_equal. transitivity (Sum nox (fun j => g_cf x j k * Sum ns (fun s => u j s * v s J))).
  - push. reorder.
  - apply Sum_ext; intros j Hj. rewrite (E f eq_refl _ _ _ _ _ _ E1 j J Hj HJ). reflexivity.
Qed.

(** Restored and symmetrised tensors *)
Definition cfa (z : gfrag K) (u : ten) : ten := fun i j a b => Sum (g_nf z) (fun k => g_cf z i k * u k j a b).
Definition cfb (z : gfrag K) (u : ten) : ten := fun i j a b => Sum (g_nf z) (fun k => g_cf z j k * u k i b a).
Definition rs (z : gfrag K) (u : ten) : ten := fun i j a b => half * (cfa z u i j a b + cfb z u i j a b).

Lemma Mxy_add l l' Q j a b : Mxy (fun i j a b => l i j a b + l' i j a b) Q j a b = Mxy l Q j a b + Mxy l' Q j a b.
Proof. unfold Mxy. rewrite <- Sum_add; apply Sum_ext; intros. rewrite <- Sum_add; apply Sum_ext; intros. rewrite <- Sum_add; apply Sum_ext; intros. rewrite <- Sum_add; apply Sum_ext; intros. ring. Qed.
Lemma Nxy_add l l' Q j a b : Nxy (fun i j a b => l i j a b + l' i j a b) Q j a b = Nxy l Q j a b + Nxy l' Q j a b.
Proof. unfold Nxy. rewrite <- Sum_add; apply Sum_ext; intros. rewrite <- Sum_add; apply Sum_ext; intros. rewrite <- Sum_add; apply Sum_ext; intros. rewrite <- Sum_add; apply Sum_ext; intros. ring. Qed.
Lemma Mxy_half l Q j a b : Mxy (fun i j a b => half * l i j a b) Q j a b = half * Mxy l Q j a b.
Proof. unfold Mxy. push. reorder. Qed.
Lemma Nxy_half l Q j a b : Nxy (fun i j a b => half * l i j a b) Q j a b = half * Nxy l Q j a b.
Proof. unfold Nxy. push. reorder. Qed.

Lemma Boo_rs th l i Q : Boo (rs x th) (rs y l) i Q =
  half * half * (Boo (cfa x th) (cfa y l) i Q + Boo (cfa x th) (cfb y l) i Q + Boo (cfb x th) (cfa y l) i Q + Boo (cfb x th) (cfb y l) i Q).
Proof.
  unfold Boo. transitivity (- Sum nox (fun j => Sum nvx (fun a => Sum nvx (fun b => 
    half * half * ((cfa x th i j a b * Mxy (cfa y l) Q j a b + cfa x th i j a b * Mxy (cfb y l) Q j a b) + (cfb x th i j a b * Mxy (cfa y l) Q j a b + cfb x th i j a b * Mxy (cfb y l) Q j a b)))))).
  - f_equal. p0. p0. p0. unfold rs. rewrite Mxy_half, Mxy_add. ring.
  - setoid_rewrite Sum_mul_l. setoid_rewrite Sum_mul_l. rewrite Sum_mul_l. repeat setoid_rewrite Sum_add. ring.
Qed.
Lemma Bvv_rs th l i Q : Bvv (rs x th) (rs y l) i Q =
  half * half * (Bvv (cfa x th) (cfa y l) i Q + Bvv (cfa x th) (cfb y l) i Q + Bvv (cfb x th) (cfa y l) i Q + Bvv (cfb x th) (cfb y l) i Q).
Proof.
  unfold Bvv. transitivity (Sum nox (fun j => Sum nox (fun a => Sum nvx (fun b => 
    half * half * ((cfa x th j a b i * Nxy (cfa y l) j a b Q + cfa x th j a b i * Nxy (cfb y l) j a b Q) + (cfb x th j a b i * Nxy (cfa y l) j a b Q + cfb x th j a b i * Nxy (cfb y l) j a b Q)))))).
  - p0. p0. p0. unfold rs. rewrite Nxy_half, Nxy_add. ring.
  - setoid_rewrite Sum_mul_l. setoid_rewrite Sum_mul_l. rewrite Sum_mul_l. repeat setoid_rewrite Sum_add. ring.
Qed.

(** Fragment orbitals are inside the cluster *)
Definition inside (z : gfrag K) (n : nat) (c : image K) : Prop :=
  forall I k, (I < n)%nat -> (k < g_nf z)%nat -> i_mf c I k = Sum (g_no z) (fun i => i_co c I i * g_cf z i k).

Section LateOo.
Variables (th l : ten) (i Q : nat).
Hypothesis Hin : forall Y, (Y < nfy)%nat -> i_mf c Q Y = Sum noy (fun I => i_co c Q I * g_cf y I Y).
Hypothesis Hi : (i < nox)%nat.
Variable svd : option (nat -> nat -> mat -> nat * mat * mat).
Hypothesis E : exact_svd svd.
(** The two intermediates contracted over virtual orbitals *)
Variables (nP : nat) (t2tmp l2tmp : ten).
Hypothesis contr : forall k j Y J, (k < nfx)%nat -> (Y < nfy)%nat -> (j < nox)%nat -> (J < noy)%nat ->
  Sum nP (fun A => Sum nP (fun B => t2tmp k j A B * l2tmp Y J A B)) =
  Sum nvx (fun a => Sum nvx (fun b => Sum nvy (fun A => Sum nvy (fun B => th k j a b * rv a A * rv b B * l Y J A B)))).
Hypothesis contr' : forall k j Y J, (k < nfx)%nat -> (Y < nfy)%nat -> (j < nox)%nat -> (J < noy)%nat ->
  Sum nP (fun A => Sum nP (fun B => t2tmp k j A B * l2tmp Y J B A)) =
  Sum nvx (fun a => Sum nvx (fun b => Sum nvy (fun A => Sum nvy (fun B => th k j a b * rv a A * rv b B * l Y J B A)))).

Lemma term1 (tmp1 : mat) : (forall k Y, (k < nfx)%nat -> (Y < nfy)%nat -> tmp1 k Y = Sum nox (fun j => Sum noy (fun J => Sum nP (fun A => Sum nP (fun B => t2tmp k j A B * l2tmp Y J A B)) * ro j J))) ->
  Sum nfx (fun k => Sum nfy (fun Y => g_cf x i k * (half * half * - tmp1 k Y) * i_mf c Q Y)) = half * half * Boo (cfa x th) (cfa y l) i Q.
Proof.
  intros H. transitivity (Sum nfx (fun k => Sum nfy (fun Y => g_cf x i k * (half * half * - Sum nox (fun j => Sum noy (fun J =>
    Sum nvx (fun a => Sum nvx (fun b => Sum nvy (fun A => Sum nvy (fun B => th k j a b * rv a A * rv b B * l Y J A B)))) * ro j J))) * Sum noy (fun I => i_co c Q I * g_cf y I Y)))).
  - apply Sum_ext; intros k Hk. apply Sum_ext; intros Y HY. rewrite H, Hin by auto. f_equal. f_equal. f_equal. f_equal.
    apply Sum_ext; intros j Hj. apply Sum_ext; intros J HJ. rewrite contr by auto. reflexivity.
  - clear. unfold Boo, Mxy, cfa. push. reorder.
Qed.
Lemma term2 : Sum nfx (fun k => Sum noy (fun I => g_cf x i k * (half * half * - Sum nfy (fun Y => Sum nP (fun A => Sum nP (fun B => Sum nox (fun j => t2tmp k j A B * cfxy svd x y ro j Y) * l2tmp Y I B A)))) * i_co c Q I))
  = half * half * Boo (cfa x th) (cfb y l) i Q.
Proof.
  transitivity (Sum nfx (fun k => Sum noy (fun I => g_cf x i k * (half * half * - Sum nfy (fun Y => Sum nox (fun j => 
    Sum nvx (fun a => Sum nvx (fun b => Sum nvy (fun A => Sum nvy (fun B => th k j a b * rv a A * rv b B * l Y I B A)))) * Sum noy (fun J => ro j J * g_cf y J Y)))) * i_co c Q I))).
  - apply Sum_ext; intros k Hk. apply Sum_ext; intros I HI. f_equal. f_equal. f_equal. f_equal. apply Sum_ext; intros Y HY.
    transitivity (Sum nox (fun j => Sum nP (fun A => Sum nP (fun B => t2tmp k j A B * l2tmp Y I B A)) * cfxy svd x y ro j Y)).
    + push. reorder.
    + apply Sum_ext; intros j Hj. rewrite contr', cfxy_eq by auto. reflexivity.
  - clear. unfold Boo, Mxy, cfa, cfb. push. reorder.
Qed.
Lemma term3 : Sum nfy (fun Y => half * half * - Sum nfx (fun k => Sum nP (fun A => Sum nP (fun B => t2tmp k i B A * Sum noy (fun J => cfyx svd x y ro J k * l2tmp Y J A B)))) * i_mf c Q Y)
  = half * half * Boo (cfb x th) (cfa y l) i Q.
Proof.
  transitivity (Sum nfy (fun Y => half * half * - Sum nfx (fun k => Sum noy (fun J => 
    Sum nvx (fun a => Sum nvx (fun b => Sum nvy (fun A => Sum nvy (fun B => th k i a b * rv a A * rv b B * l Y J B A)))) * Sum nox (fun j => ro j J * g_cf x j k))) * Sum noy (fun I => i_co c Q I * g_cf y I Y))).
  - apply Sum_ext; intros Y HY. rewrite Hin by auto. f_equal. f_equal. f_equal. apply Sum_ext; intros k Hk.
    transitivity (Sum noy (fun J => Sum nP (fun A => Sum nP (fun B => t2tmp k i A B * l2tmp Y J B A)) * cfyx svd x y ro J k)).
    + push. p2. p1. p0. ring.
    + apply Sum_ext; intros J HJ. rewrite contr', cfyx_eq by auto. reflexivity.
  - clear. unfold Boo, Mxy, cfa, cfb. push. reorder.
Qed.
Lemma term4 : Sum noy (fun I => half * half * - Sum nfx (fun k => Sum nfy (fun Y => Sum nP (fun A => Sum nP (fun B => t2tmp k i B A * ffxy svd x y ro k Y * l2tmp Y I B A)))) * i_co c Q I)
  = half * half * Boo (cfb x th) (cfb y l) i Q.
Proof.
  transitivity (Sum noy (fun I => half * half * - Sum nfx (fun k => Sum nfy (fun Y => 
    Sum nvx (fun a => Sum nvx (fun b => Sum nvy (fun A => Sum nvy (fun B => th k i a b * rv a A * rv b B * l Y I A B)))) * Sum noy (fun J => Sum nox (fun j => g_cf x j k * ro j J) * g_cf y J Y))) * i_co c Q I)).
  - apply Sum_ext; intros I HI. f_equal. f_equal. f_equal. apply Sum_ext; intros k Hk. apply Sum_ext; intros Y HY. rewrite ffxy_eq by auto. rewrite <- contr by auto. set (r := Sum noy _). clearbody r. push. p1. p0. ring.
  - clear. unfold Boo, Mxy, cfa, cfb. push. reorder.
Qed.
Lemma late_oo_gen (tmp1 : mat) : (forall k Y, (k < nfx)%nat -> (Y < nfy)%nat -> tmp1 k Y = Sum nox (fun j => Sum noy (fun J => Sum nP (fun A => Sum nP (fun B => t2tmp k j A B * l2tmp Y J A B)) * ro j J))) ->
  late_oo_with half svd x y c ro nP nP t2tmp l2tmp tmp1 i Q = Boo (rs x th) (rs y l) i Q.
Proof.
  intros H. rewrite Boo_rs. unfold late_oo_with, Sum2. rewrite (term1 tmp1 H), term2, term3, term4. ring.
Qed.
End LateOo.

Lemma late_oo_eq svd th l i Q : exact_svd svd -> (forall Y, (Y < nfy)%nat -> i_mf c Q Y = Sum noy (fun I => i_co c Q I * g_cf y I Y)) -> (i < nox)%nat ->
  late_oo half svd x y c th l ro rv i Q = Boo (rs x th) (rs y l) i Q.
Proof.
  intros E Hin Hi. unfold late_oo. destruct svd as [f|].
  - destruct (f nvx nvy rv) as [[np uv] vv] eqn:E2. destruct (f nox noy ro) as [[ns uo] vo] eqn:E1.
    apply late_oo_gen; auto; intros; unfold Sum2.
    + transitivity (Sum nvx (fun a => Sum nvx (fun b => Sum nvy (fun A => Sum nvy (fun B => th k j a b * Sum np (fun p => uv a p * vv p A) * Sum np (fun p => uv b p * vv p B) * l Y J A B))))).
      * clear. push. reorder.
      * apply Sum_ext; intros a Ha. apply Sum_ext; intros b Hb. apply Sum_ext; intros A HA. apply Sum_ext; intros B HB.
        rewrite (E f eq_refl _ _ _ _ _ _ E2 a A Ha HA), (E f eq_refl _ _ _ _ _ _ E2 b B Hb HB). reflexivity.
    + transitivity (Sum nvx (fun a => Sum nvx (fun b => Sum nvy (fun A => Sum nvy (fun B => th k j a b * Sum np (fun p => uv a p * vv p A) * Sum np (fun p => uv b p * vv p B) * l Y J B A))))).
      * clear. push. reorder.
      * apply Sum_ext; intros a Ha. apply Sum_ext; intros b Hb. apply Sum_ext; intros A HA. apply Sum_ext; intros B HB.
        rewrite (E f eq_refl _ _ _ _ _ _ E2 a A Ha HA), (E f eq_refl _ _ _ _ _ _ E2 b B Hb HB). reflexivity.
    + transitivity (Sum nox (fun j => Sum noy (fun J => Sum np (fun A => Sum np (fun B => Sum nvx (fun a => Sum nvx (fun b => th k j a b * uv a A * uv b B)) * Sum nvy (fun a => Sum nvy (fun b => l Y J a b * vv A a * vv B b)))) * Sum ns (fun s => uo j s * vo s J)))).
      * clear. push. reorder.
      * apply Sum_ext; intros j Hj. apply Sum_ext; intros J HJ. rewrite (E f eq_refl _ _ _ _ _ _ E1 j J Hj HJ). reflexivity.
  - apply late_oo_gen; auto; intros; unfold Sum2; clear; push; reorder.
Qed.

Section LateVv.
Variables (th l : ten) (b Q : nat).
(** The four terms *)
Definition ff0 : mat := fun k Y => Sum noy (fun J => Sum nox (fun j => g_cf x j k * ro j J) * g_cf y J Y).
Definition cxy0 : mat := fun j Y => Sum noy (fun J => ro j J * g_cf y J Y).
Definition cyx0 : mat := fun J k => Sum nox (fun j => ro j J * g_cf x j k).
Definition v1 (B : nat) : K := Sum nfx (fun k => Sum nfy (fun Y => Sum nox (fun j => Sum noy (fun J => Sum nvx (fun a => Sum nvy (fun A => th k j a b * ff0 k Y * ro j J * rv a A * l Y J A B)))))).
Definition v2 (B : nat) : K := Sum nfx (fun k => Sum nfy (fun Y => Sum nox (fun j => Sum noy (fun J => Sum nvx (fun a => Sum nvy (fun A => th k j b a * ff0 k Y * ro j J * rv a A * l Y J B A)))))).
Definition v3 (B : nat) : K := Sum nfx (fun k => Sum nfy (fun Y => Sum nox (fun j => Sum noy (fun J => Sum nvx (fun a => Sum nvy (fun A => th k j a b * cxy0 j Y * cyx0 J k * rv a A * l Y J B A)))))).
Definition v4 (B : nat) : K := Sum nfx (fun k => Sum nfy (fun Y => Sum nox (fun j => Sum noy (fun J => Sum nvx (fun a => Sum nvy (fun A => th k j b a * cxy0 j Y * cyx0 J k * rv a A * l Y J A B)))))).

Lemma v1_eq : Sum nvy (fun B => v1 B * i_cv c Q B) = Bvv (cfa x th) (cfa y l) b Q.
Proof. unfold v1, Bvv, ff0, cfa, Nxy. push. reorder. Qed.
Lemma v2_eq : Sum nvy (fun B => v2 B * i_cv c Q B) = Bvv (cfb x th) (cfb y l) b Q.
Proof. unfold v2, Bvv, ff0, cfb, Nxy. push. reorder. Qed.
Lemma v3_eq : Sum nvy (fun B => v3 B * i_cv c Q B) = Bvv (cfa x th) (cfb y l) b Q.
Proof. unfold v3, Bvv, cxy0, cyx0, cfa, cfb, Nxy. push. reorder. Qed.
Lemma v4_eq : Sum nvy (fun B => v4 B * i_cv c Q B) = Bvv (cfb x th) (cfa y l) b Q.
Proof. unfold v4, Bvv, cxy0, cyx0, cfa, cfb, Nxy. push. reorder. Qed.
Lemma v_eq : Sum nvy (fun B => (v1 B * (half * half) + v2 B * (half * half) + v3 B * (half * half) + v4 B * (half * half)) * i_cv c Q B) = Bvv (rs x th) (rs y l) b Q.
Proof.
  rewrite Bvv_rs, <- v1_eq, <- v2_eq, <- v3_eq, <- v4_eq. rewrite <- !Sum_add, <- Sum_mul_l. apply Sum_ext; intros. ring.
Qed.

Lemma late_vv_none : late_vv half None x y c th l ro rv b Q = Bvv (rs x th) (rs y l) b Q.
Proof.
  rewrite <- v_eq. unfold late_vv. apply Sum_ext; intros B HB. f_equal. f_equal; [f_equal; [f_equal|]|]; f_equal.
  - change (ffxy None x y ro) with ff0. unfold v1, Sum2. generalize ff0. clear. intros. push. reorder.
  - change (ffxy None x y ro) with ff0. unfold v2, Sum2. generalize ff0. clear. intros. push. reorder.
  - change (cfxy None x y ro) with cxy0. change (cfyx None x y ro) with cyx0. unfold v3, Sum2. generalize cxy0 cyx0. clear. intros. push. reorder.
  - change (cfxy None x y ro) with cxy0. change (cfyx None x y ro) with cyx0. unfold v4, Sum2. generalize cxy0 cyx0. clear. intros. push. reorder.
Qed.

Lemma fac_v np uv vv (H : forall a A, (a < nvx)%nat -> (A < nvy)%nat -> Sum np (fun p => uv a p * vv p A) = rv a A) (g h : nat -> K) :
  Sum np (fun p => Sum nvx (fun a => g a * uv a p) * Sum nvy (fun A => vv p A * h A)) = Sum nvx (fun a => Sum nvy (fun A => g a * rv a A * h A)).
Proof.
  transitivity (Sum nvx (fun a => Sum nvy (fun A => g a * Sum np (fun p => uv a p * vv p A) * h A))).
  - clear. push. reorder.
  - apply Sum_ext; intros a Ha. apply Sum_ext; intros A HA. rewrite H by auto. reflexivity.
Qed.
Lemma fac_o ns uo vo (H : forall a A, (a < nox)%nat -> (A < noy)%nat -> Sum ns (fun p => uo a p * vo p A) = ro a A) (g : nat -> nat -> K) (h : nat -> nat -> nat -> K) (w : nat -> nat -> K) (r : nat -> K) :
  Sum ns (fun s => Sum nvx (fun a => Sum nvy (fun A => Sum nox (fun j => g j a * uo j s) * rv a A * Sum nfy (fun Y => Sum noy (fun J => h Y J A * vo s J * r Y)))))
  = Sum nfy (fun Y => Sum nox (fun j => Sum noy (fun J => Sum nvx (fun a => Sum nvy (fun A => g j a * r Y * ro j J * rv a A * h Y J A))))).
Proof.
  transitivity (Sum nfy (fun Y => Sum nox (fun j => Sum noy (fun J => Sum nvx (fun a => Sum nvy (fun A => g j a * r Y * Sum ns (fun s => uo j s * vo s J) * rv a A * h Y J A)))))).
  - clear. push. reorder.
  - apply Sum_ext; intros Y HY. apply Sum_ext; intros j Hj. apply Sum_ext; intros J HJ. apply Sum_ext; intros a Ha. apply Sum_ext; intros A HA. rewrite H by auto. reflexivity.
Qed.

Lemma late_vv_eq svd : exact_svd svd -> late_vv half svd x y c th l ro rv b Q = Bvv (rs x th) (rs y l) b Q.
Proof.
  intros E. destruct svd as [f|]; [|apply late_vv_none]. rewrite <- v_eq. unfold late_vv. apply Sum_ext; intros B HB. f_equal.
  destruct (f nvx nvy rv) as [[np uv] vv] eqn:E2. destruct (f nox noy ro) as [[ns uo] vo] eqn:E1.
  pose proof (fac_v np uv vv (E f eq_refl _ _ _ _ _ _ E2)) as FV. pose proof (fac_o ns uo vo (E f eq_refl _ _ _ _ _ _ E1)) as FO.
  f_equal; [f_equal; [f_equal|]|]; f_equal.
  - unfold v1, Sum2. apply Sum_ext; intros k Hk. rewrite <- (FO (fun j a => th k j a b) (fun Y J A => l Y J A B) ro (ff0 k)). apply Sum_ext; intros s Hs.
    rewrite (FV (fun a => Sum nox (fun j => th k j a b * uo j s)) (fun A => Sum nfy (fun Y => Sum noy (fun J => l Y J A B * vo s J * ffxy (Some f) x y ro k Y)))).
    apply Sum_ext; intros a Ha. apply Sum_ext; intros A HA. f_equal. apply Sum_ext; intros Y HY. apply Sum_ext; intros J HJ. rewrite ffxy_eq by auto. reflexivity.
  - unfold v2, Sum2. apply Sum_ext; intros k Hk. rewrite <- (FO (fun j a => th k j b a) (fun Y J A => l Y J B A) ro (ff0 k)). apply Sum_ext; intros s Hs.
    rewrite (FV (fun a => Sum nox (fun j => th k j b a * uo j s)) (fun A => Sum nfy (fun Y => Sum noy (fun J => l Y J B A * vo s J * ffxy (Some f) x y ro k Y)))).
    apply Sum_ext; intros a Ha. apply Sum_ext; intros A HA. f_equal. apply Sum_ext; intros Y HY. apply Sum_ext; intros J HJ. rewrite ffxy_eq by auto. reflexivity.
  - unfold v3, Sum2. apply Sum_ext; intros k Hk. apply Sum_ext; intros Y HY.
    rewrite (FV (fun a => Sum nox (fun j => th k j a b * cfxy (Some f) x y ro j Y)) (fun A => Sum noy (fun J => cfyx (Some f) x y ro J k * l Y J B A))).
    transitivity (Sum nvx (fun a => Sum nvy (fun A => Sum nox (fun j => th k j a b * cxy0 j Y) * rv a A * Sum noy (fun J => cyx0 J k * l Y J B A)))).
    + apply Sum_ext; intros a Ha. apply Sum_ext; intros A HA. f_equal; [f_equal|]; apply Sum_ext; intros j Hj; [rewrite cfxy_eq|rewrite cfyx_eq]; auto.
    + generalize cxy0 cyx0. clear. intros. push. reorder.
  - unfold v4, Sum2. apply Sum_ext; intros k Hk. apply Sum_ext; intros Y HY.
    rewrite (FV (fun a => Sum nox (fun j => th k j b a * cfxy (Some f) x y ro j Y)) (fun A => Sum noy (fun J => cfyx (Some f) x y ro J k * l Y J A B))).
    transitivity (Sum nvx (fun a => Sum nvy (fun A => Sum nox (fun j => th k j b a * cxy0 j Y) * rv a A * Sum noy (fun J => cyx0 J k * l Y J A B)))).
    + apply Sum_ext; intros a Ha. apply Sum_ext; intros A HA. f_equal; [f_equal|]; apply Sum_ext; intros j Hj; [rewrite cfxy_eq|rewrite cfyx_eq]; auto.
    + generalize cxy0 cyx0. clear. intros. push. reorder.
Qed.
End LateVv.
End Pairs.

End P.
