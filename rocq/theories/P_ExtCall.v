(** * C66, second part: the correction that externally_correct adds to the CCSD amplitudes *)
From Coq Require Import List Bool Arith Lia Ring Field Permutation QArith Qcanon.
From Verif Require Import Alg Esum Esum8 M_Wf M_TtoC P_TtoC M_ExtCorr P_ExtCorr.
Import ListNotations.
Open Scope K_scope.

Section Call.
Context {F : cfield}.
Add Field Ff : (fth F).
Notation mat := (nat -> nat -> F). Notation ten := (nat -> nat -> nat -> nat -> F).
Variable half : F.

(** ** Orbitals of the two clusters that coincide *)
Definition one_on (n : nat) (r : mat) : Prop := forall i j, (i < n)%nat -> (j < n)%nat -> r i j = delta i j.
Lemma Sum_one n r k (g : nat -> F) : one_on n r -> (k < n)%nat -> Sum n (fun i => g i * r k i) = g k.
Proof. intros H Hk. etransitivity; [apply Sum_ext; intros i Hi; rewrite (H k i Hk Hi); reflexivity|]. apply Sum_delta_r'. exact Hk. Qed.
Lemma Sum_one' n r k (g : nat -> F) : one_on n r -> (k < n)%nat -> Sum n (fun i => g i * r i k) = g k.
Proof. intros H Hk. etransitivity; [apply Sum_ext; intros i Hi; rewrite (H i k Hi Hk); reflexivity|]. apply Sum_delta_r. exact Hk. Qed.
Lemma trans1_id n m t r v : one_on n r -> one_on m v -> forall i a, (i < n)%nat -> (a < m)%nat -> trans1 n m t (tr r) (tr v) i a = t i a.
Proof.
  intros Hr Hv i a Hi Ha. unfold trans1, tr. etransitivity; [apply Sum_ext; intros k Hk; apply (Sum_one m v a (fun b => t k b * r i k) Hv Ha)|]. apply (Sum_one n r i (fun k => t k a) Hr Hi).
Qed.
Lemma trans2_id n n' m m' t r r' v v' : one_on n r -> one_on n' r' -> one_on m v -> one_on m' v' -> forall i j a b, (i < n)%nat -> (j < n')%nat -> (a < m)%nat -> (b < m')%nat ->
  trans2 n n' m m' t (tr r) (tr r') (tr v) (tr v') i j a b = t i j a b.
Proof.
  intros Hr Hr' Hv Hv' i j a b Hi Hj Ha Hb. unfold trans2, tr.
  etransitivity; [apply Sum_ext; intros k Hk; apply Sum_ext; intros l Hl; apply Sum_ext; intros c Hc; apply (Sum_one m' v' b (fun d => t k l c d * r i k * r' j l * v a c) Hv' Hb)|].
  etransitivity; [apply Sum_ext; intros k Hk; apply Sum_ext; intros l Hl; apply (Sum_one m v a (fun c => t k l c b * r i k * r' j l) Hv Ha)|].
  etransitivity; [apply Sum_ext; intros k Hk; apply (Sum_one n' r' j (fun l => t k l a b * r i k) Hr' Hj)|]. apply (Sum_one n r i (fun k => t k j a b) Hr Hi).
Qed.
Lemma Sum3_one n1 n2 n3 r1 r2 r3 k1 k2 k3 (g : nat -> nat -> nat -> F) : one_on n1 r1 -> one_on n2 r2 -> one_on n3 r3 -> (k1 < n1)%nat -> (k2 < n2)%nat -> (k3 < n3)%nat ->
  Sum n1 (fun a => Sum n2 (fun b => Sum n3 (fun c => g a b c * r1 a k1 * r2 b k2 * r3 c k3))) = g k1 k2 k3.
Proof.
  intros H1 H2 H3 L1 L2 L3. etransitivity; [apply Sum_ext; intros a Ha; apply Sum_ext; intros b Hb; apply (Sum_one' n3 r3 k3 (fun c => g a b c * r1 a k1 * r2 b k2) H3 L3)|].
  etransitivity; [apply Sum_ext; intros a Ha; apply (Sum_one' n2 r2 k2 (fun b => g a b k3 * r1 a k1) H2 L2)|]. apply (Sum_one' n1 r1 k1 (fun a => g a k2 k3) H1 L1).
Qed.
Lemma Sum3_one_r n1 n2 n3 r1 r2 r3 k1 k2 k3 (g : nat -> nat -> nat -> F) : one_on n1 r1 -> one_on n2 r2 -> one_on n3 r3 -> (k1 < n1)%nat -> (k2 < n2)%nat -> (k3 < n3)%nat ->
  Sum n1 (fun a => Sum n2 (fun b => Sum n3 (fun c => g a b c * r1 k1 a * r2 k2 b * r3 k3 c))) = g k1 k2 k3.
Proof.
  intros H1 H2 H3 L1 L2 L3. etransitivity; [apply Sum_ext; intros a Ha; apply Sum_ext; intros b Hb; apply (Sum_one n3 r3 k3 (fun c => g a b c * r1 k1 a * r2 k2 b) H3 L3)|].
  etransitivity; [apply Sum_ext; intros a Ha; apply (Sum_one n2 r2 k2 (fun b => g a b k3 * r1 k1 a) H2 L2)|]. apply (Sum_one n1 r1 k1 (fun a => g a k2 k3) H1 L1).
Qed.
(** T3*V with the integrals of the corrected cluster, when the two clusters have the same orbitals *)
Lemma r_low_id n m gv go gx t3 ro rv : one_on n ro -> one_on m rv -> forall i j a b, (i < n)%nat -> (j < n)%nat -> (a < m)%nat -> (b < m)%nat ->
  r_low_t3v half n m n m gv go gx t3 ro rv i j a b = rhf_t3v half n m t3 gv go gx i j a b.
Proof.
  intros Hr Hv i j a b Hi Hj Ha Hb. unfold r_low_t3v, rhf_t3v. cbv beta zeta.
  rewrite !(Sum3_one_r n n m ro ro rv) by assumption. rewrite !(Sum3_one_r n m m ro rv rv) by assumption.
  assert (Gv : forall x y z w, (y < m)%nat -> (z < n)%nat -> (w < m)%nat -> Sum m (fun b => Sum n (fun i => Sum m (fun c => gv x b i c * rv b y * ro i z * rv c w))) = gv x y z w)
    by (intros; apply (Sum3_one m n m rv ro rv y z w (fun b i c => gv x b i c)); assumption).
  assert (Go : forall x y z w, (x < n)%nat -> (z < n)%nat -> (w < m)%nat -> Sum n (fun i => Sum n (fun k => Sum m (fun c => go i y k c * ro i x * ro k z * rv c w))) = go x y z w)
    by (intros; apply (Sum3_one n n m ro ro rv x z w (fun i k c => go i y k c)); assumption).
  assert (Gx : forall x y z w, (x < n)%nat -> (y < m)%nat -> (z < n)%nat -> Sum n (fun i => Sum m (fun c => Sum n (fun k => gx i c k w * ro i x * rv c y * ro k z))) = gx x y z w)
    by (intros; apply (Sum3_one n m n ro rv ro x y z (fun i c k => gx i c k w)); assumption).
  assert (S1 : forall i j a b, Sum m (fun e => Sum n (fun m0 => Sum m (fun f => (Sum m (fun b0 => Sum n (fun i0 => Sum m (fun c => gv b b0 i0 c * rv b0 e * ro i0 m0 * rv c f))) - Sum m (fun b0 => Sum n (fun i0 => Sum m (fun c => gv b b0 i0 c * rv b0 f * ro i0 m0 * rv c e)))) * t3 j i m0 e a f)))
     = Sum m (fun e => Sum n (fun m0 => Sum m (fun f => (gv b e m0 f - gv b f m0 e) * t3 j i m0 e a f))))
    by (intros; apply Sum_ext; intros; apply Sum_ext; intros; apply Sum_ext; intros; rewrite !Gv by assumption; reflexivity).
  assert (S2 : forall i j a b, Sum m (fun e => Sum n (fun m0 => Sum m (fun f => Sum m (fun b0 => Sum n (fun i0 => Sum m (fun c => gv b b0 i0 c * rv b0 e * ro i0 m0 * rv c f))) * t3 i j m0 a e f))) = Sum m (fun e => Sum n (fun m0 => Sum m (fun f => gv b e m0 f * t3 i j m0 a e f))))
    by (intros; apply Sum_ext; intros; apply Sum_ext; intros; apply Sum_ext; intros; rewrite !Gv by assumption; reflexivity).
  assert (S3 : forall i j a b, Sum n (fun m0 => Sum n (fun n0 => Sum m (fun e => (Sum n (fun i0 => Sum n (fun k => Sum m (fun a0 => go i0 j k a0 * ro i0 m0 * ro k n0 * rv a0 e))) - Sum n (fun i0 => Sum m (fun a0 => Sum n (fun j0 => gx i0 a0 j0 j * ro i0 m0 * rv a0 e * ro j0 n0)))) * t3 m0 i n0 b a e)))
     = Sum n (fun m0 => Sum n (fun n0 => Sum m (fun e => (go m0 j n0 e - gx m0 e n0 j) * t3 m0 i n0 b a e))))
    by (intros; apply Sum_ext; intros; apply Sum_ext; intros; apply Sum_ext; intros; rewrite Go, Gx by assumption; reflexivity).
  assert (S4 : forall i j a b, Sum n (fun m0 => Sum n (fun n0 => Sum m (fun e => Sum n (fun i0 => Sum n (fun k => Sum m (fun a0 => go i0 j k a0 * ro i0 m0 * ro k n0 * rv a0 e))) * t3 i m0 n0 a b e))) = Sum n (fun m0 => Sum n (fun n0 => Sum m (fun e => go m0 j n0 e * t3 i m0 n0 a b e))))
    by (intros; apply Sum_ext; intros; apply Sum_ext; intros; apply Sum_ext; intros; rewrite Go by assumption; reflexivity).
  rewrite !S1, !S2, !S3, !S4. ring.
Qed.

(** ** Restricted *)
(** the correcting fragment y has the cluster of x, with the same integrals *)
Definition same_cluster (x : @rclusterx F) (y : @rfrag F) : Prop :=
  y_id y <> x_id x /\ y_no y = x_no x /\ y_nv y = x_nv x /\ one_on (x_no x) (y_ro y) /\ one_on (x_nv x) (y_rv y) /\
  (forall p q r u, y_eris y p q r u = x_eris x p q r u) /\ (forall z i, y_fx y z i = y_fo y z i).
(** equal results: the same exception, or the same amplitudes within the cluster *)
Definition agree (x : @rclusterx F) (a b : result (mat * ten)) : Prop :=
  match a, b with
  | Ret d, Ret d' => forall i j a b, (i < x_no x)%nat -> (j < x_no x)%nat -> (a < x_nv x)%nat -> (b < x_nv x)%nat -> fst d i a = fst d' i a /\ snd d i j a b = snd d' i j a b
  | ValueErr, ValueErr | AssertErr, AssertErr | UnboundErr, UnboundErr => True
  | _, _ => False
  end.
Lemma project_r_add n (t u : ten) p k : match project_r half n t p k, project_r half n u p k, project_r half n (add2 t u) p k with
  | Ret a, Ret b, Ret c => forall i j e f, c i j e f = a i j e f + b i j e f | ValueErr, ValueErr, ValueErr => True | _, _, _ => False end.
Proof.
  unfold project_r, add2. destruct k as [|[|[|k]]]; cbv zeta; auto; intros.
  - transitivity (half * (Sum n (fun k => p i k * t k j e f + p i k * u k j e f) + Sum n (fun k => p j k * t k i f e + p j k * u k i f e))).
    + f_equal. f_equal; apply Sum_ext; intros; ring.
    + rewrite !Sum_add. ring.
  - rewrite <- Sum_add. apply Sum_ext; intros; rewrite <- Sum_add. apply Sum_ext; intros; ring.
Qed.
(** in the range of the indices only the values there matter *)
Lemma project_r_ext n m (t u : ten) p p' k : (forall i j, p i j = p' i j) -> (forall i j a b, (i < n)%nat -> (j < n)%nat -> (a < m)%nat -> (b < m)%nat -> t i j a b = u i j a b) ->
  match project_r half n t p k, project_r half n u p' k with
  | Ret a, Ret b => forall i j e f, (i < n)%nat -> (j < n)%nat -> (e < m)%nat -> (f < m)%nat -> a i j e f = b i j e f | ValueErr, ValueErr => True | _, _ => False end.
Proof.
  intros Hp H. unfold project_r. destruct k as [|[|[|k]]]; cbv zeta; auto; intros.
  - f_equal. f_equal; apply Sum_ext; intros; rewrite Hp, H; auto.
  - apply Sum_ext; intros; apply Sum_ext; intros. rewrite !Hp, H; auto.
Qed.
Lemma rhf_t3v_eris no nv t3 (e e' : ten) : (forall p q r u, e p q r u = e' p q r u) -> forall i j a b,
  rhf_t3v half no nv t3 (sl_vvov no e) (sl_ooov no e) (sl_ovoo no e) i j a b = rhf_t3v half no nv t3 (sl_vvov no e') (sl_ooov no e') (sl_ovoo no e') i j a b.
Proof.
  intros H i j a b. unfold rhf_t3v, sl_vvov, sl_ooov, sl_ovoo. cbv beta zeta.
  repeat first [reflexivity | apply H | apply Sum_ext; intros | f_equal].
Qed.
(** The two ways to contract T3 with integrals agree when the clusters are the same *)
Theorem C66_low_level x y projectors : same_cluster x y -> agree x (r_contribution half x (y, External, projectors, true)) (r_contribution half x (y, External, projectors, false)).
Proof.
  intros (Hid & Hno & Hnv & Hro & Hrv & He & Hf). unfold r_contribution. rewrite (proj2 (Nat.eqb_neq _ _) Hid). cbn [rbind negb]. rewrite Hno, Hnv.
  unfold rhf_residual. cbv zeta. cbn [rbind].
  set (D := rhf_dt2 _ _ _ _ _ _ _ _ _). set (V := rhf_t3v _ _ _ _ _ _ _). set (D1 := match projectors with O => _ | S _ => _ end).
  pose proof (project_r_add (x_no x) D V (gram (y_nf y) (y_fo y)) projectors) as PA. fold (add2 D V).
  pose proof (project_r_ext (x_no x) (x_nv x) (r_low_t3v half (x_no x) (x_nv x) (x_no x) (x_nv x) (sl_vvov (x_no x) (x_eris x)) (sl_ooov (x_no x) (x_eris x)) (sl_ovoo (x_no x) (x_eris x)) (rt3 (y_wf y)) (y_ro y) (y_rv y)) V
     (gram (y_nf y) (y_fx y)) (gram (y_nf y) (y_fo y)) projectors) as PE.
  assert (A1 : forall i j, gram (y_nf y) (y_fx y) i j = gram (y_nf y) (y_fo y) i j) by (intros; unfold gram; apply Sum_ext; intros; rewrite !Hf; reflexivity).
  assert (A2 : forall i j a b, (i < x_no x)%nat -> (j < x_no x)%nat -> (a < x_nv x)%nat -> (b < x_nv x)%nat -> r_low_t3v half (x_no x) (x_nv x) (x_no x) (x_nv x) (sl_vvov (x_no x) (x_eris x)) (sl_ooov (x_no x) (x_eris x)) (sl_ovoo (x_no x) (x_eris x)) (rt3 (y_wf y)) (y_ro y) (y_rv y) i j a b = V i j a b).
  { intros. rewrite r_low_id by assumption. unfold V. apply rhf_t3v_eris. intros. symmetry. apply He. }
  specialize (PE A1 A2).
  destruct (project_r half (x_no x) D (gram (y_nf y) (y_fo y)) projectors) as [a| | |] eqn:E1, (project_r half (x_no x) V (gram (y_nf y) (y_fo y)) projectors) as [b| | |] eqn:E2,
    (project_r half (x_no x) (add2 D V) (gram (y_nf y) (y_fo y)) projectors) as [c| | |] eqn:E3; try contradiction; cbn [rbind]; auto;
  destruct (project_r half (x_no x) (r_low_t3v _ _ _ _ _ _ _ _ _ _ _) (gram (y_nf y) (y_fx y)) projectors) as [d| | |] eqn:E4; try contradiction; cbn [rbind]; auto.
  cbn [agree fst snd]. intros i j e f Hi Hj Hea Hfb. split; [reflexivity|]. unfold add2. rewrite !trans2_id by assumption. rewrite PE, PA by assumption. reflexivity.
Qed.

(** the correction of one fragment without or with one projector *)
Lemma ext_value x y low : same_cluster x y ->
  let w := y_wf y in let R := rhf_residual half (x_no x) (x_nv x) (rt1 w) (rt3 w) (fst (rt4 w)) (snd (rt4 w)) (y_fov y) (y_eris y) true in let P := gram (y_nf y) (y_fo y) in
  (exists d, r_contribution half x (y, External, 0%nat, low) = Ret d /\ forall i j a b, (i < x_no x)%nat -> (j < x_no x)%nat -> (a < x_nv x)%nat -> (b < x_nv x)%nat ->
    fst d i a = fst R i a /\ snd d i j a b = snd R i j a b) /\
  (exists d, r_contribution half x (y, External, 1%nat, low) = Ret d /\ forall i j a b, (i < x_no x)%nat -> (j < x_no x)%nat -> (a < x_nv x)%nat -> (b < x_nv x)%nat ->
    fst d i a = Sum (x_no x) (fun k => P i k * fst R k a) /\
    snd d i j a b = half * (Sum (x_no x) (fun k => P i k * snd R k j a b) + Sum (x_no x) (fun k => P j k * snd R k i b a))).
Proof.
  intros H w R P. pose proof (C66_low_level x y 0 H) as L0. pose proof (C66_low_level x y 1 H) as L1. destruct H as (Hid & Hno & Hnv & Hro & Hrv & He & Hf).
  assert (V : (exists d, r_contribution half x (y, External, 0%nat, false) = Ret d /\ forall i j a b, (i < x_no x)%nat -> (j < x_no x)%nat -> (a < x_nv x)%nat -> (b < x_nv x)%nat ->
    fst d i a = fst R i a /\ snd d i j a b = snd R i j a b) /\
  (exists d, r_contribution half x (y, External, 1%nat, false) = Ret d /\ forall i j a b, (i < x_no x)%nat -> (j < x_no x)%nat -> (a < x_nv x)%nat -> (b < x_nv x)%nat ->
    fst d i a = Sum (x_no x) (fun k => P i k * fst R k a) /\
    snd d i j a b = half * (Sum (x_no x) (fun k => P i k * snd R k j a b) + Sum (x_no x) (fun k => P j k * snd R k i b a)))).
  { unfold r_contribution. rewrite (proj2 (Nat.eqb_neq _ _) Hid), Hno, Hnv. cbn [negb rbind]. fold w. fold R. destruct R as [R1 R2]. cbn [project_r rbind fst snd].
    split; (eexists; split; [reflexivity|]; cbn [fst snd]; intros i j a b Hi Hj Ha Hb; split; [apply trans1_id; assumption | rewrite trans2_id by assumption; reflexivity]). }
  destruct low; [|exact V]. destruct V as [(d0 & E0 & V0) (d1 & E1 & V1)]. rewrite E0 in L0. rewrite E1 in L1.
  split; [destruct (r_contribution half x (y, External, 0%nat, true)) as [d| | |]; try contradiction | destruct (r_contribution half x (y, External, 1%nat, true)) as [d| | |]; try contradiction];
  (exists d; split; [reflexivity|]; intros i j a b Hi Hj Ha Hb).
  - destruct (L0 i j a b Hi Hj Ha Hb) as [-> ->]. apply V0; assumption.
  - destruct (L1 i j a b Hi Hj Ha Hb) as [-> ->]. apply V1; assumption.
Qed.
(** the loop adds up the contributions *)
Definition last_type (l : list (@rcorr F)) (z : option ctype) : option ctype := fold_left (fun _ c => Some (snd (fst (fst c)))) l z.
Lemma r_loop_ok x l ds : Forall2 (fun c d => r_contribution half x c = Ret d) l ds -> forall acc z, exists acc', r_loop half x l acc z = Ret (acc', last_type l z) /\
  forall i j a b, fst acc' i a = fst acc i a + Lsum ds (fun d => fst d i a) /\ snd acc' i j a b = snd acc i j a b + Lsum ds (fun d => snd d i j a b).
Proof.
  induction 1 as [|c d l ds Hc _ IH]; intros acc z.
  - exists acc. split; [reflexivity|]. intros. cbn. split; ring.
  - cbn [r_loop]. rewrite Hc. cbn [rbind]. destruct (IH (add1 (fst acc) (fst d), add2 (snd acc) (snd d)) (Some (snd (fst (fst c))))) as (acc' & E & V). exists acc'. split; [exact E|].
    intros i j a b. destruct (V i j a b) as [-> ->]. cbn [fst snd]. unfold add1, add2. cbn [Lsum]. split; ring.
Qed.

(** The total correction.  Either one fragment that is not projected, or any number of fragments whose projectors onto their occupied fragment orbitals
    add up to one: divided by the orbital energy differences, it is the contribution of T3 and T4 to the equations *)
Definition weighted (x : @rclusterx F) (ys : list (@rfrag F * bool)) (p : nat) : Prop :=
  (p = 0%nat /\ length ys = 1%nat) \/
  (p = 1%nat /\ ys <> [] /\ forall i j, (i < x_no x)%nat -> (j < x_no x)%nat -> Lsum ys (fun v => gram (y_nf (fst v)) (y_fo (fst v)) i j) = delta i j).
Theorem C66_total x (ys : list (@rfrag F * bool)) p (f : mat) low1 low2 (s : list (nat * nat) -> F) :
  half + half = 1 -> real8 (x_eris x) -> low_rank low1 low2 -> pair_symmetric s ->
  (forall v, In v ys -> same_cluster x (fst v) /\ amps_r (adapt s) (y_wf (fst v)) /\ forall m e, y_fov (fst v) m e = f m e) -> weighted x ys p ->
  let n := fun _ : bool => x_no x in let v := fun _ : bool => x_nv x in let eri := fun _ _ : bool => x_eris x in
  let d1 := fun i a => residual1 half n v eri low1 (adapt s) i a - residual1 half n v eri low1 (trunc (adapt s)) i a in
  let d2 := fun i j a b => residual2 half n v eri (fun _ => f) low1 low2 (adapt s) i j a b - residual2 half n v eri (fun _ => f) low1 low2 (trunc (adapt s)) i j a b in
  let e := fun i a => x_mo x i - x_mo x (x_no x + a)%nat in
  exists d, r_externally_correct half x (map (fun v => (fst v, External, p, snd v)) ys) = Ret d /\
  forall i j a b, (i < x_no x)%nat -> (j < x_no x)%nat -> (a < x_nv x)%nat -> (b < x_nv x)%nat ->
    fst d i a = d1 (al, i) (al, a) / e i a /\ snd d i j a b = d2 (al, i) (be, j) (al, a) (be, b) / (e i a + e j b).
Proof.
  intros Hh Hr HL Hs Hys Hw n v eri d1 d2 e.
  (* every fragment has the same residual *)
  assert (R : forall y, In y ys -> let w := y_wf (fst y) in let R := rhf_residual half (x_no x) (x_nv x) (rt1 w) (rt3 w) (fst (rt4 w)) (snd (rt4 w)) (y_fov (fst y)) (y_eris (fst y)) true in
     forall i j a b, fst R i a = d1 (al, i) (al, a) /\ snd R i j a b = d2 (al, i) (be, j) (al, a) (be, b) /\ d2 (al, i) (be, j) (al, a) (be, b) = d2 (al, j) (be, i) (al, b) (be, a)).
  { intros y Hy w R i j a b. destruct (Hys y Hy) as ((_ & _ & _ & _ & _ & He & _) & HW & Hf).
    assert (Hr' : real8 (y_eris (fst y))). { destruct Hr as [[Q1 Q2] Q3]. split; [split|]; intros; rewrite !He; auto. }
    assert (G : forall i j a b, fst R i a = d1 (al, i) (al, a) /\ snd R i j a b = d2 (al, i) (be, j) (al, a) (be, b) /\ snd R i j a b = snd R j i b a).
    { clear i j a b. intros i j a b. destruct (C66_restricted half (x_no x) (x_nv x) (y_eris (fst y)) (y_fov (fst y)) low1 low2 s w Hh Hr' HL Hs HW) as [G1 G2]. destruct (G2 i j a b) as [G3 G4]. fold R in G1, G3, G4.
      assert (Pe : forall p q r u, phys (fun _ _ => y_eris (fst y)) p q r u = phys eri p q r u).
      { intros. unfold phys, chem, eri. rewrite !He. reflexivity. }
      split; [|split; [|exact G4]].
      - rewrite G1. unfold d1. rewrite !(diff1 _ _ _ _ low1 low2 _ HL). apply D1_ext; [intros; apply Pe|reflexivity].
      - rewrite G3. unfold d2. rewrite !(diff2 _ _ _ _ _ low1 low2 _ HL). f_equal; [f_equal; [f_equal|]|].
        + apply D2f_ext; [intros; unfold fock; destruct (Bool.eqb _ _); [apply Hf|reflexivity]|reflexivity].
        + apply D2v_ext; [intros; apply Pe|reflexivity].
        + apply D2o_ext; [intros; apply Pe|reflexivity].
        + apply D2q_ext; try reflexivity. intros; apply Pe. }
    destruct (G i j a b) as (G1 & G2 & G3). split; [exact G1|split; [exact G2|]]. rewrite <- G2, G3. apply G. }
  assert (Val : exists ds, Forall2 (fun c d => r_contribution half x c = Ret d) (map (fun v => (fst v, External, p, snd v)) ys) ds /\
    forall i j a b, (i < x_no x)%nat -> (j < x_no x)%nat -> (a < x_nv x)%nat -> (b < x_nv x)%nat ->
      Lsum ds (fun d => fst d i a) = d1 (al, i) (al, a) /\ Lsum ds (fun d => snd d i j a b) = d2 (al, i) (be, j) (al, a) (be, b)).
  { destruct Hw as [[-> Hlen] | (-> & Hne & HP)].
    - destruct ys as [|y [|]]; try discriminate Hlen. destruct (ext_value x (fst y) (snd y)) as [(d & E & V) _]; [apply (Hys y); left; reflexivity|].
      exists [d]. split; [constructor; [exact E|constructor]|]. intros i j a b Hi Hj Ha Hb. cbn [Lsum]. destruct (V i j a b Hi Hj Ha Hb) as [-> ->].
      destruct (R y (or_introl eq_refl) i j a b) as (-> & -> & _). split; ring.
    - assert (HD : forall ys', incl ys' ys -> exists ds, Forall2 (fun c d => r_contribution half x c = Ret d) (map (fun v => (fst v, External, 1%nat, snd v)) ys') ds /\
        forall i j a b, (i < x_no x)%nat -> (j < x_no x)%nat -> (a < x_nv x)%nat -> (b < x_nv x)%nat ->
        Lsum ds (fun d => fst d i a) = Sum (x_no x) (fun k => Lsum ys' (fun v => gram (y_nf (fst v)) (y_fo (fst v)) i k) * d1 (al, k) (al, a)) /\
        Lsum ds (fun d => snd d i j a b) = half * (Sum (x_no x) (fun k => Lsum ys' (fun v => gram (y_nf (fst v)) (y_fo (fst v)) i k) * d2 (al, k) (be, j) (al, a) (be, b)) +
          Sum (x_no x) (fun k => Lsum ys' (fun v => gram (y_nf (fst v)) (y_fo (fst v)) j k) * d2 (al, k) (be, i) (al, b) (be, a)))).
      { induction ys' as [|y ys' IH]; intros Hin.
        - exists []. split; [constructor|]. intros. cbn [Lsum]. assert (Z : forall g : nat -> F, Sum (x_no x) (fun k => 0 * g k) = 0) by (intros; rewrite (Sum_ext _ _ (fun _ => 0)) by (intros; ring); apply Sum_zero; auto).
          rewrite !Z. split; ring.
        - destruct IH as (ds & E & V); [intros z Hz; apply Hin; right; exact Hz|]. assert (Hy : In y ys) by (apply Hin; left; reflexivity).
          destruct (ext_value x (fst y) (snd y)) as [_ (d & E' & V')]; [apply (Hys y Hy)|]. exists (d :: ds). split; [constructor; assumption|].
          intros i j a b Hi Hj Ha Hb. cbn [Lsum]. destruct (V i j a b Hi Hj Ha Hb) as [-> ->]. destruct (V' i j a b Hi Hj Ha Hb) as [-> ->].
          assert (A : forall (g u w : nat -> F), Sum (x_no x) (fun k => (g k + u k) * w k) = Sum (x_no x) (fun k => g k * w k) + Sum (x_no x) (fun k => u k * w k)).
          { intros. rewrite <- Sum_add. apply Sum_ext; intros; ring. }
          rewrite !A. split.
          + f_equal. apply Sum_ext; intros k Hk. f_equal. apply (R y Hy k k a a).
          + match goal with |- half * (?p + ?q) + _ = half * (?p' + _ + (?q' + _)) => replace p with p'; [replace q with q'; [ring|]|] end; apply Sum_ext; intros k Hk; f_equal; symmetry; apply (R y Hy k). }
      destruct (HD ys (incl_refl _)) as (ds & E & V). exists ds. split; [exact E|]. intros i j a b Hi Hj Ha Hb. destruct (V i j a b Hi Hj Ha Hb) as [-> ->].
      assert (B : forall i g, (i < x_no x)%nat -> Sum (x_no x) (fun k => Lsum ys (fun v => gram (y_nf (fst v)) (y_fo (fst v)) i k) * g k) = g i).
      { intros k g Hk. etransitivity; [apply Sum_ext; intros l Hl; rewrite (HP k l Hk Hl); reflexivity|]. apply Sum_delta_l. exact Hk. }
      rewrite (B i (fun k => d1 (al, k) (al, a)) Hi), (B i (fun k => d2 (al, k) (be, j) (al, a) (be, b)) Hi), (B j (fun k => d2 (al, k) (be, i) (al, b) (be, a)) Hj).
      split; [reflexivity|]. destruct ys as [|y ys']; [|destruct (R y (or_introl eq_refl) i j a b) as (_ & _ & <-)].
      + contradiction.
      + transitivity ((half + half) * d2 (al, i) (be, j) (al, a) (be, b)); [ring|]. rewrite Hh. ring. }
  destruct Val as (ds & E & V). destruct (r_loop_ok x _ ds E ((fun _ _ => 0), (fun _ _ _ _ => 0)) None) as (acc & EL & VL).
  assert (LT : forall l z, l <> [] -> last_type (map (fun v : @rfrag F * bool => (fst v, External, p, snd v)) l) z = Some External).
  { induction l as [|y l IH]; intros z Hn; [contradiction|]. destruct l as [|y' l]; [reflexivity|]. exact (IH (Some External) (fun H => eq_ind (y' :: l) (fun m => match m with [] => False | _ => True end) Logic.I [] H)). }
  unfold r_externally_correct. rewrite EL. cbn [rbind]. destruct acc as [a1 a2]. rewrite LT.
  - eexists. split; [reflexivity|]. cbn [fst snd]. intros i j a b Hi Hj Ha Hb. destruct (V i j a b Hi Hj Ha Hb) as [V1 V2]. destruct (VL i j a b) as [L1 L2]. cbn [fst snd] in L1, L2.
    rewrite L1, L2, V1, V2. unfold eia, eijab. split; f_equal; ring.
  - destruct Hw as [[_ Hlen] | (_ & Hn & _)]; [destruct ys; discriminate|exact Hn].
Qed.

(** Amplitudes that solve the full equations are reproduced by an iteration of CCSD (amplitudes plus residual over energy differences) followed by the callback *)
Theorem C66_fixed_point x (ys : list (@rfrag F * bool)) p (f : mat) low1 low2 (s : list (nat * nat) -> F) :
  half + half = 1 -> real8 (x_eris x) -> low_rank low1 low2 -> pair_symmetric s ->
  (forall v, In v ys -> same_cluster x (fst v) /\ amps_r (adapt s) (y_wf (fst v)) /\ forall m e, y_fov (fst v) m e = f m e) -> weighted x ys p ->
  let n := fun _ : bool => x_no x in let v := fun _ : bool => x_nv x in let eri := fun _ _ : bool => x_eris x in
  let R1 := fun T i a => residual1 half n v eri low1 T (al, i) (al, a) in
  let R2 := fun T i j a b => residual2 half n v eri (fun _ => f) low1 low2 T (al, i) (be, j) (al, a) (be, b) in
  let e := fun i a => x_mo x i - x_mo x (x_no x + a)%nat in
  let t1 := fun i a => adapt s [(al, i)] [(al, a)] in let t2 := fun i j a b => adapt s [(al, i); (be, j)] [(al, a); (be, b)] in
  (forall i j a b, (i < x_no x)%nat -> (j < x_no x)%nat -> (a < x_nv x)%nat -> (b < x_nv x)%nat -> R1 (adapt s) i a = 0 /\ R2 (adapt s) i j a b = 0) ->
  exists d, r_externally_correct half x (map (fun v => (fst v, External, p, snd v)) ys) = Ret d /\
  forall i j a b, (i < x_no x)%nat -> (j < x_no x)%nat -> (a < x_nv x)%nat -> (b < x_nv x)%nat ->
    let t := r_callback d ((fun i a => t1 i a + R1 (trunc (adapt s)) i a / e i a), (fun i j a b => t2 i j a b + R2 (trunc (adapt s)) i j a b / (e i a + e j b))) in
    fst t i a = t1 i a /\ snd t i j a b = t2 i j a b.
Proof.
  intros Hh Hr HL Hs Hys Hw n v eri R1 R2 e t1 t2 H0. destruct (C66_total x ys p f low1 low2 s Hh Hr HL Hs Hys Hw) as (d & E & V). exists d. split; [exact E|].
  intros i j a b Hi Hj Ha Hb t. destruct (V i j a b Hi Hj Ha Hb) as [V1 V2]. destruct (H0 i j a b Hi Hj Ha Hb) as [Z1 Z2]. unfold t, r_callback, add1, add2. cbn [fst snd]. rewrite V1, V2.
  fold n v eri (R1 (adapt s) i a) (R1 (trunc (adapt s)) i a) (R2 (adapt s) i j a b) (R2 (trunc (adapt s)) i j a b). rewrite Z1, Z2. fold (e i a) (e j b).
  assert (D : forall t r c, t + r / c + (0 - r) / c = t :> F). { intros. rewrite !(Fdiv_def (fth F)). ring. }
  split; apply D.
Qed.

(** ** The order of the corrections *)
Definition external (c : @rcorr F) : bool := match snd (fst (fst c)) with External => true | _ => false end.
Lemma last_in (l : list (@rcorr F)) z : l <> [] -> exists c, In c l /\ last_type l z = Some (snd (fst (fst c))).
Proof.
  revert z. induction l as [|c l IH]; intros z H; [contradiction|]. destruct l as [|c' l]; [exists c; split; [left; reflexivity|reflexivity]|].
  destruct (IH (Some (snd (fst (fst c))))) as (c0 & Hin & E); [discriminate|]. exists c0. split; [right; exact Hin|exact E].
Qed.
Lemma r_loop_inv x l : forall acc z acc' z', r_loop half x l acc z = Ret (acc', z') -> exists ds, Forall2 (fun c d => r_contribution half x c = Ret d) l ds.
Proof.
  induction l as [|c l IH]; intros acc z acc' z' H; [exists []; constructor|]. cbn [r_loop] in H. destruct (r_contribution half x c) as [d| | |] eqn:E; try discriminate H. cbn [rbind] in H.
  destruct (IH _ _ _ _ H) as (ds & HF). exists (d :: ds). constructor; assumption.
Qed.
Lemma Forall2_perm {A B} (R : A -> B -> Prop) l l' : Permutation l l' -> forall d, Forall2 R l d -> exists d', Forall2 R l' d' /\ Permutation d d'.
Proof.
  induction 1 as [|x l l' _ IH|x y l|l1 l2 l3 _ IH1 _ IH2]; intros d HF.
  - exists d. split; [exact HF|reflexivity].
  - inversion HF as [|? z ? ? H1 H2]; subst. destruct (IH _ H2) as (d' & H3 & H4). exists (z :: d'). split; constructor; assumption.
  - inversion HF as [|? z ? ? H1 H2]; subst. inversion H2 as [|? u ? ? H3 H4]; subst. eexists (u :: z :: _). split; [repeat constructor; eassumption|constructor].
  - destruct (IH1 _ HF) as (d1 & H1 & H2). destruct (IH2 _ H1) as (d2 & H3 & H4). exists d2. split; [exact H3|]. etransitivity; eassumption.
Qed.
(** Corrections of one kind can be given in any order *)
Theorem C66_order x l l' d : Permutation l l' -> (forall c c', In c l -> In c' l -> external c = external c') -> r_externally_correct half x l = Ret d ->
  exists d', r_externally_correct half x l' = Ret d' /\ forall i j a b, fst d i a = fst d' i a /\ snd d i j a b = snd d' i j a b.
Proof.
  intros HP Hk H. unfold r_externally_correct in *. destruct (r_loop half x l _ None) as [[acc z]| | |] eqn:E; try discriminate H. cbn [rbind] in H.
  destruct (r_loop_inv x l _ _ _ _ E) as (ds & HF). destruct (Forall2_perm _ _ _ HP ds HF) as (ds' & HF' & HPd).
  destruct (r_loop_ok x l ds HF ((fun _ _ => 0), (fun _ _ _ _ => 0)) None) as (a1 & E1 & V1). destruct (r_loop_ok x l' ds' HF' ((fun _ _ => 0), (fun _ _ _ _ => 0)) None) as (a2 & E2 & V2).
  rewrite E in E1. injection E1 as -> ->. rewrite E2. cbn [rbind].
  assert (Q : forall i j a b, fst a1 i a = fst a2 i a /\ snd a1 i j a b = snd a2 i j a b).
  { intros i j a b. destruct (V1 i j a b) as [-> ->]. destruct (V2 i j a b) as [-> ->]. split; f_equal; apply (Lsum_perm ds ds' _ HPd). }
  destruct l as [|c l]; [cbn in H; destruct a1; discriminate H|]. destruct (last_in (c :: l) None ltac:(discriminate)) as (c1 & I1 & L1).
  assert (Hn : l' <> []) by (intros ->; apply Permutation_sym, Permutation_nil in HP; discriminate HP). destruct (last_in l' None Hn) as (c2 & I2 & L2). rewrite L1 in H. rewrite L2.
  assert (X : external c1 = external c2) by (apply Hk; [exact I1|]; eapply Permutation_in; [apply Permutation_sym; exact HP|exact I2]). unfold external in X.
  destruct a1 as [p1 p2], a2 as [q1 q2]. cbn [fst snd] in Q.
  destruct (snd (fst (fst c1))); destruct (snd (fst (fst c2))); try discriminate X; injection H as <-; eexists; (split; [reflexivity|]); intros i j a b; cbn [fst snd]; destruct (Q i j a b) as [Q1 Q2]; split; congruence.
Qed.

(** ** Unrestricted *)
Notation mat2 := (mat * mat)%type. Notation ten3 := (ten * ten * ten)%type.
Lemma pos0 n1 n2 n3 (g : ten) r1 r2 r3 x k1 k2 k3 : one_on n1 r1 -> one_on n2 r2 -> one_on n3 r3 -> (k1 < n1)%nat -> (k2 < n2)%nat -> (k3 < n3)%nat ->
  Sum n1 (fun a => Sum n2 (fun b => Sum n3 (fun c => g x a b c * r1 a k1 * r2 b k2 * r3 c k3))) = g x k1 k2 k3.
Proof. intros. apply (Sum3_one n1 n2 n3 r1 r2 r3 k1 k2 k3 (fun a b c => g x a b c)); assumption. Qed.
Lemma pos2 n1 n2 n3 (g : ten) r1 r2 r3 x k1 k2 k3 : one_on n1 r1 -> one_on n2 r2 -> one_on n3 r3 -> (k1 < n1)%nat -> (k2 < n2)%nat -> (k3 < n3)%nat ->
  Sum n1 (fun a => Sum n2 (fun b => Sum n3 (fun c => g a b x c * r1 a k1 * r2 b k2 * r3 c k3))) = g k1 k2 x k3.
Proof. intros. apply (Sum3_one n1 n2 n3 r1 r2 r3 k1 k2 k3 (fun a b c => g a b x c)); assumption. Qed.
Ltac low_ext := repeat first [reflexivity | match goal with |- Sum _ _ = _ => first [apply pos0; assumption | apply pos2; assumption] end | apply Sum_ext; intros | f_equal].
Section LowU.
Variables noa nob nva nvb : nat.
Variables ga gm gb hm oa om ob um : ten. Variables taaa taba tbab tbbb : ten6 F. Variables roa rob rva rvb : mat.
Hypothesis Hoa : one_on noa roa. Hypothesis Hob : one_on nob rob. Hypothesis Hva : one_on nva rva. Hypothesis Hvb : one_on nvb rvb.
Lemma low_id_aa i j a b : (i < noa)%nat -> (j < noa)%nat -> (a < nva)%nat -> (b < nva)%nat ->
  u_low_t3v_aaaa noa nob nva nvb noa nob nva nvb ga gm gb hm oa om ob um taaa taba tbab tbbb roa rob rva rvb i j a b = low0_aaaa noa nob nva nvb ga gm gb hm oa om ob um taaa taba tbab tbbb i j a b.
Proof.
  intros Hi Hj Ha Hb. unfold u_low_t3v_aaaa, low0_aaaa. cbv beta zeta.
  rewrite !(Sum3_one_r noa nva nva roa rva rva) by assumption. rewrite !(Sum3_one_r noa noa nva roa roa rva) by assumption. low_ext.
Qed.
Lemma low_id_bb i j a b : (i < nob)%nat -> (j < nob)%nat -> (a < nvb)%nat -> (b < nvb)%nat ->
  u_low_t3v_bbbb noa nob nva nvb noa nob nva nvb ga gm gb hm oa om ob um taaa taba tbab tbbb roa rob rva rvb i j a b = low0_bbbb noa nob nva nvb ga gm gb hm oa om ob um taaa taba tbab tbbb i j a b.
Proof.
  intros Hi Hj Ha Hb. unfold u_low_t3v_bbbb, low0_bbbb. cbv beta zeta.
  rewrite !(Sum3_one_r nob nvb nvb rob rvb rvb) by assumption. rewrite !(Sum3_one_r nob nob nvb rob rob rvb) by assumption. low_ext.
Qed.
Lemma low_id_ab i j a b : (i < noa)%nat -> (j < nob)%nat -> (a < nva)%nat -> (b < nvb)%nat ->
  u_low_t3v_abab noa nob nva nvb noa nob nva nvb ga gm gb hm oa om ob um taaa taba tbab tbbb roa rob rva rvb i j a b = low0_abab noa nob nva nvb ga gm gb hm oa om ob um taaa taba tbab tbbb i j a b.
Proof.
  intros Hi Hj Ha Hb. unfold u_low_t3v_abab, low0_abab. cbv beta zeta.
  rewrite !(Sum3_one_r nob nva nvb rob rva rvb) by assumption. rewrite !(Sum3_one_r noa nva nvb roa rva rvb) by assumption.
  rewrite !(Sum3_one_r noa nob nvb roa rob rvb) by assumption. rewrite !(Sum3_one_r noa nob nva roa rob rva) by assumption. low_ext.
Qed.
End LowU.
Definition same_cluster_u (x : @uclusterx F) (y : @ufrag F) : Prop :=
  uy_id y <> ux_id x /\ uy_no y = ux_no x /\ uy_nv y = ux_nv x /\ one_on (fst (ux_no x)) (fst (uy_ro y)) /\ one_on (snd (ux_no x)) (snd (uy_ro y)) /\
  one_on (fst (ux_nv x)) (fst (uy_rv y)) /\ one_on (snd (ux_nv x)) (snd (uy_rv y)) /\ uy_eris y = ux_eris x /\ uy_fx y = uy_fo y.
Definition real_u (e : ten3) : Prop := real8 (fst (fst e)) /\ real4 (snd (fst e)) /\ real8 (snd e).
(** equality of the amplitudes within the cluster *)
Definition eq_u (x : @uclusterx F) (d d' : mat2 * ten3) : Prop :=
  let '(noa, nob) := ux_no x in let '(nva, nvb) := ux_nv x in
  (forall i a, (i < noa)%nat -> (a < nva)%nat -> fst (fst d) i a = fst (fst d') i a) /\ (forall i a, (i < nob)%nat -> (a < nvb)%nat -> snd (fst d) i a = snd (fst d') i a) /\
  (forall i j a b, (i < noa)%nat -> (j < noa)%nat -> (a < nva)%nat -> (b < nva)%nat -> fst (fst (snd d)) i j a b = fst (fst (snd d')) i j a b) /\
  (forall i j a b, (i < noa)%nat -> (j < nob)%nat -> (a < nva)%nat -> (b < nvb)%nat -> snd (fst (snd d)) i j a b = snd (fst (snd d')) i j a b) /\
  (forall i j a b, (i < nob)%nat -> (j < nob)%nat -> (a < nvb)%nat -> (b < nvb)%nat -> snd (snd d) i j a b = snd (snd d') i j a b).
Definition agree_u (x : @uclusterx F) (a b : result (mat2 * ten3)) : Prop :=
  match a, b with Ret d, Ret d' => eq_u x d d' | ValueErr, ValueErr | AssertErr, AssertErr | UnboundErr, UnboundErr => True | _, _ => False end.
Lemma sum1 n (p D L V : nat -> F) : (forall k, (k < n)%nat -> L k = V k) -> Sum n (fun k => p k * (D k + V k)) = Sum n (fun k => p k * D k) + Sum n (fun k => p k * L k).
Proof. intros H. rewrite <- Sum_add. apply Sum_ext. intros k Hk. rewrite (H k Hk). ring. Qed.
Lemma sum2 n m (p q : nat -> F) (D L V : mat) : (forall k l, (k < n)%nat -> (l < m)%nat -> L k l = V k l) ->
  Sum n (fun k => Sum m (fun l => p k * q l * (D k l + V k l))) = Sum n (fun k => Sum m (fun l => p k * q l * D k l)) + Sum n (fun k => Sum m (fun l => p k * q l * L k l)).
Proof. intros H. rewrite <- Sum_add. apply Sum_ext. intros k Hk. rewrite <- Sum_add. apply Sum_ext. intros l Hl. rewrite (H k l Hk Hl). ring. Qed.
(** The two ways to contract T3 with integrals agree when the clusters are the same *)
Theorem C66_low_level_unrestricted x y projectors T : half + half = 1 -> same_cluster_u x y -> real_u (ux_eris x) -> antisymmetric T -> spin_conserving T -> amps_u T (uy_wf y) ->
  agree_u x (u_contribution half x (y, External, projectors, true)) (u_contribution half x (y, External, projectors, false)).
Proof.
  intros Hh (Hid & Hno & Hnv & Hoa & Hob & Hva & Hvb & He & Hf) (R1 & R2 & R3) HA HS HW.
  destruct x as [xid [noa nob] [nva nvb] mo [[eaa eab] ebb]], y as [yid yno ynv [nfa nfb] [roa rob] [rva rvb] [foa fob] fx w fov eris ccsd]. cbn [ux_id ux_no ux_nv ux_mo ux_eris uy_id uy_no uy_nv uy_nf uy_ro uy_rv uy_fo uy_fx uy_wf uy_fov uy_eris uy_ccsd fst snd] in *. subst yno ynv eris fx.
  pose proof (u_low0_all half noa nob nva nvb eaa eab ebb T w Hh R1 R2 R3 HA HS HW) as L0.
  unfold u_contribution, u_low_t3v, uhf_residual. cbn [ux_id ux_no ux_nv ux_mo ux_eris uy_id uy_no uy_nv uy_nf uy_ro uy_rv uy_fo uy_fx uy_wf uy_fov uy_eris uy_ccsd fst snd]. rewrite (proj2 (Nat.eqb_neq _ _) Hid).
  destruct w as [[ta tb] t2 [[[taaa taba] tbab] tbbb] [[[[taaaa taaab] tabab] tabbb] tbbbb]], fov as [fa fb]. cbn [ut1 ut3 ut4 rbind negb fst snd gram2 project_u] in *. cbv zeta in *.
  set (Daa := uhf_dt2_aaaa _ _ _ _ _ _ _ _ _ _ _ _ _ _ _ _ _ _ _ _ _). set (Dab := uhf_dt2_abab _ _ _ _ _ _ _ _ _ _ _ _ _ _ _ _ _ _ _ _ _). set (Dbb := uhf_dt2_bbbb _ _ _ _ _ _ _ _ _ _ _ _ _ _ _ _ _ _ _ _ _).
  set (Laa := u_low_t3v_aaaa _ _ _ _ _ _ _ _ _ _ _ _ _ _ _ _ _ _ _ _ _ _ _ _). set (Lab := u_low_t3v_abab _ _ _ _ _ _ _ _ _ _ _ _ _ _ _ _ _ _ _ _ _ _ _ _). set (Lbb := u_low_t3v_bbbb _ _ _ _ _ _ _ _ _ _ _ _ _ _ _ _ _ _ _ _ _ _ _ _).
  set (Vaa := uhf_t3v_aaaa _ _ _ _ _ _ _ _ _ _ _ _ _ _ _ _). set (Vab := uhf_t3v_abab _ _ _ _ _ _ _ _ _ _ _ _ _ _ _ _). set (Vbb := uhf_t3v_bbbb _ _ _ _ _ _ _ _ _ _ _ _ _ _ _ _).
  assert (Eaa : forall i j a b, (i < noa)%nat -> (j < noa)%nat -> (a < nva)%nat -> (b < nva)%nat -> Laa i j a b = Vaa i j a b) by (intros; unfold Laa; rewrite low_id_aa by assumption; apply L0).
  assert (Eab : forall i j a b, (i < noa)%nat -> (j < nob)%nat -> (a < nva)%nat -> (b < nvb)%nat -> Lab i j a b = Vab i j a b) by (intros; unfold Lab; rewrite low_id_ab by assumption; apply L0).
  assert (Ebb : forall i j a b, (i < nob)%nat -> (j < nob)%nat -> (a < nvb)%nat -> (b < nvb)%nat -> Lbb i j a b = Vbb i j a b) by (intros; unfold Lbb; rewrite low_id_bb by assumption; apply L0).
  clearbody Daa Dab Dbb Laa Lab Lbb Vaa Vab Vbb. clear L0.
  destruct projectors as [|[|[|k]]]; cbn [project_r rbind agree_u]; auto; unfold eq_u; cbn [ux_no ux_nv fst snd];
  (split; [reflexivity|split; [reflexivity|split; [|split]]]); intros i j a b Hi Hj Ha Hb; unfold trans2u, add2u, add2; cbn [fst snd]; rewrite !trans2_id by assumption.
  - rewrite Eaa by assumption. reflexivity.
  - rewrite Eab by assumption. reflexivity.
  - rewrite Ebb by assumption. reflexivity.
  - rewrite (sum1 noa _ (fun k => Daa k j a b) (fun k => Laa k j a b) (fun k => Vaa k j a b)), (sum1 noa _ (fun k => Daa k i b a) (fun k => Laa k i b a) (fun k => Vaa k i b a)) by auto. ring.
  - rewrite (sum1 noa _ (fun k => Dab k j a b) (fun k => Lab k j a b) (fun k => Vab k j a b)), (sum1 nob _ (fun k => Dab i k a b) (fun k => Lab i k a b) (fun k => Vab i k a b)) by auto. ring.
  - rewrite (sum1 nob _ (fun k => Dbb k j a b) (fun k => Lbb k j a b) (fun k => Vbb k j a b)), (sum1 nob _ (fun k => Dbb k i b a) (fun k => Lbb k i b a) (fun k => Vbb k i b a)) by auto. ring.
  - rewrite (sum2 noa noa _ _ (fun k l => Daa k l a b) (fun k l => Laa k l a b) (fun k l => Vaa k l a b)) by auto. ring.
  - rewrite (sum2 noa nob _ _ (fun k l => Dab k l a b) (fun k l => Lab k l a b) (fun k l => Vab k l a b)) by auto. ring.
  - rewrite (sum2 nob nob _ _ (fun k l => Dbb k l a b) (fun k l => Lbb k l a b) (fun k l => Vbb k l a b)) by auto. ring.
Qed.

(** amplitude corrections with given entries *)
Definition amps5 (ra rb : mat) (raa rab rbb : ten) : mat2 * ten3 := ((ra, rb), (raa, rab, rbb)).
Definition proj5 (noa nob : nat) (pa pb : mat) (ra rb : mat) (raa rab rbb : ten) : mat2 * ten3 :=
  amps5 (fun i a => Sum noa (fun k => pa i k * ra k a)) (fun i a => Sum nob (fun k => pb i k * rb k a))
    (fun i j a b => half * (Sum noa (fun k => pa i k * raa k j a b) + Sum noa (fun k => pa j k * raa k i b a)))
    (fun i j a b => half * (Sum noa (fun k => pa i k * rab k j a b) + Sum nob (fun k => pb j k * rab i k a b)))
    (fun i j a b => half * (Sum nob (fun k => pb i k * rbb k j a b) + Sum nob (fun k => pb j k * rbb k i b a))).
Lemma ext_value_u x y low T ra rb raa rab rbb : half + half = 1 -> same_cluster_u x y -> real_u (ux_eris x) -> antisymmetric T -> spin_conserving T -> amps_u T (uy_wf y) ->
  let w := uy_wf y in let '((xa, xb), (xaa, xab, xbb)) := uhf_residual half (fst (ux_no x)) (snd (ux_no x)) (fst (ux_nv x)) (snd (ux_nv x)) (ut1 w) (ut3 w) (ut4 w) (uy_fov y) (ux_eris x) true in
  (forall i a, xa i a = ra i a /\ xb i a = rb i a) -> (forall i j a b, xaa i j a b = raa i j a b /\ xab i j a b = rab i j a b /\ xbb i j a b = rbb i j a b) ->
  let P := gram2 (uy_nf y) (uy_fo y) in
  (exists d, u_contribution half x (y, External, 0%nat, low) = Ret d /\ eq_u x d (amps5 ra rb raa rab rbb)) /\
  (exists d, u_contribution half x (y, External, 1%nat, low) = Ret d /\ eq_u x d (proj5 (fst (ux_no x)) (snd (ux_no x)) (fst P) (snd P) ra rb raa rab rbb)).
Proof.
  intros Hh H HR HA HS HW w. pose proof (C66_low_level_unrestricted x y 0 T Hh H HR HA HS HW) as L0. pose proof (C66_low_level_unrestricted x y 1 T Hh H HR HA HS HW) as L1.
  destruct (uhf_residual _ _ _ _ _ _ _ _ _ _ _) as [[xa xb] [[xaa xab] xbb]] eqn:ER. intros H1 H2 P.
  assert (V : (exists d, u_contribution half x (y, External, 0%nat, false) = Ret d /\ eq_u x d (amps5 ra rb raa rab rbb)) /\
    (exists d, u_contribution half x (y, External, 1%nat, false) = Ret d /\ eq_u x d (proj5 (fst (ux_no x)) (snd (ux_no x)) (fst P) (snd P) ra rb raa rab rbb))).
  { clear L0 L1. destruct H as (Hid & Hno & Hnv & Hoa & Hob & Hva & Hvb & He & Hf). unfold u_contribution. rewrite (proj2 (Nat.eqb_neq _ _) Hid), Hno, Hnv, He. cbn [negb rbind]. fold w. rewrite ER. fold P.
    cbn [project_u project_r rbind fst snd]. destruct P as [pa pb]. cbn [project_u project_r rbind fst snd].
    split; (eexists; split; [reflexivity|]; unfold eq_u, proj5, amps5, trans1u, trans2u; destruct (ux_no x) as [noa nob], (ux_nv x) as [nva nvb]; cbn [fst snd] in *;
      split; [|split; [|split; [|split]]]; intros; first [rewrite trans1_id by assumption | rewrite trans2_id by assumption]).
    - apply H1. - apply H1. - apply H2. - apply H2. - apply H2.
    - unfold pdot. apply Sum_ext; intros. f_equal. apply H1.
    - unfold pdot. apply Sum_ext; intros. f_equal. apply H1.
    - f_equal. f_equal; apply Sum_ext; intros; f_equal; apply H2.
    - f_equal. f_equal; apply Sum_ext; intros; f_equal; apply H2.
    - f_equal. f_equal; apply Sum_ext; intros; f_equal; apply H2. }
  destruct low; [|exact V]. destruct V as [(d0 & E0 & V0) (d1 & E1 & V1)]. rewrite E0 in L0. rewrite E1 in L1.
  assert (TR : forall a b c, eq_u x a b -> eq_u x b c -> eq_u x a c).
  { unfold eq_u. destruct (ux_no x), (ux_nv x). intros a b c (A1 & A2 & A3 & A4 & A5) (B1 & B2 & B3 & B4 & B5).
    split; [|split; [|split; [|split]]]; intros; [rewrite A1, B1 | rewrite A2, B2 | rewrite A3, B3 | rewrite A4, B4 | rewrite A5, B5]; auto. }
  split; [destruct (u_contribution half x (y, External, 0%nat, true)) as [d| | |]; try contradiction | destruct (u_contribution half x (y, External, 1%nat, true)) as [d| | |]; try contradiction];
  (exists d; split; [reflexivity|]; eapply TR; [eassumption|assumption]).
Qed.
Definition last_type_u (l : list (@ucorr F)) (z : option ctype) : option ctype := fold_left (fun _ c => Some (snd (fst (fst c)))) l z.
Lemma u_loop_ok x l ds : Forall2 (fun c d => u_contribution half x c = Ret d) l ds -> forall acc z, exists acc', u_loop half x l acc z = Ret (acc', last_type_u l z) /\
  (forall i a, fst (fst acc') i a = fst (fst acc) i a + Lsum ds (fun d => fst (fst d) i a) /\ snd (fst acc') i a = snd (fst acc) i a + Lsum ds (fun d => snd (fst d) i a)) /\
  (forall i j a b, fst (fst (snd acc')) i j a b = fst (fst (snd acc)) i j a b + Lsum ds (fun d => fst (fst (snd d)) i j a b) /\
     snd (fst (snd acc')) i j a b = snd (fst (snd acc)) i j a b + Lsum ds (fun d => snd (fst (snd d)) i j a b) /\ snd (snd acc') i j a b = snd (snd acc) i j a b + Lsum ds (fun d => snd (snd d) i j a b)).
Proof.
  induction 1 as [|c d l ds Hc _ IH]; intros acc z.
  - exists acc. split; [reflexivity|]. cbn [Lsum]. split; intros; [split|split; [|split]]; ring.
  - cbn [u_loop]. rewrite Hc. cbn [rbind]. destruct (IH (add1u (fst acc) (fst d), add2u (snd acc) (snd d)) (Some (snd (fst (fst c))))) as (acc' & E & V1 & V2). exists acc'. split; [exact E|].
    split; [intros i a; destruct (V1 i a) as [-> ->] | intros i j a b; destruct (V2 i j a b) as (-> & -> & ->)]; unfold add1u, add2u, add1, add2; cbn [fst snd Lsum]; [split|split; [|split]]; ring.
Qed.
Definition weighted_u (x : @uclusterx F) (ys : list (@ufrag F * bool)) (p : nat) : Prop :=
  (p = 0%nat /\ length ys = 1%nat) \/
  (p = 1%nat /\ ys <> [] /\ (forall i j, (i < fst (ux_no x))%nat -> (j < fst (ux_no x))%nat -> Lsum ys (fun v => gram (fst (uy_nf (fst v))) (fst (uy_fo (fst v))) i j) = delta i j) /\
    (forall i j, (i < snd (ux_no x))%nat -> (j < snd (ux_no x))%nat -> Lsum ys (fun v => gram (snd (uy_nf (fst v))) (snd (uy_fo (fst v))) i j) = delta i j)).
Lemma sumP {X} n (ys : list X) (P : X -> nat -> F) (g : nat -> F) i (Hi : (i < n)%nat) : (forall k, (k < n)%nat -> Lsum ys (fun y => P y k) = delta i k) -> Lsum ys (fun y => Sum n (fun k => P y k * g k)) = g i.
Proof.
  intros H. transitivity (Sum n (fun k => Lsum ys (fun y => P y k) * g k)).
  - clear H. induction ys as [|y ys IH]; cbn [Lsum]; [symmetry; apply Sum_0; intros; ring|]. rewrite IH, <- Sum_add. apply Sum_ext. intros. ring.
  - etransitivity; [apply Sum_ext; intros k Hk; rewrite (H k Hk); reflexivity|]. apply Sum_delta_l. exact Hi.
Qed.

(** The total correction, unrestricted *)
Theorem C66_total_unrestricted x (ys : list (@ufrag F * bool)) p (f : mat2) low1 low2 (T : list so -> list so -> F) :
  half + half = 1 -> real_u (ux_eris x) -> low_rank low1 low2 -> antisymmetric T -> spin_conserving T ->
  (forall v, In v ys -> same_cluster_u x (fst v) /\ amps_u T (uy_wf (fst v)) /\ uy_fov (fst v) = f) -> weighted_u x ys p ->
  let no := by_spin (fst (ux_no x)) (snd (ux_no x)) in let nv := by_spin (fst (ux_nv x)) (snd (ux_nv x)) in
  let eri := eri_u (fst (fst (ux_eris x))) (snd (fst (ux_eris x))) (snd (ux_eris x)) in let fov := by_spin (fst f) (snd f) in
  let d1 := fun i a => residual1 half no nv eri low1 T i a - residual1 half no nv eri low1 (trunc T) i a in
  let d2 := fun i j a b => residual2 half no nv eri fov low1 low2 T i j a b - residual2 half no nv eri fov low1 low2 (trunc T) i j a b in
  let e := fun s i a => by_spin (fst (ux_mo x)) (snd (ux_mo x)) s i - by_spin (fst (ux_mo x)) (snd (ux_mo x)) s (no s + a)%nat in
  let E1 := fun s i a => d1 (s, i) (s, a) / e s i a in let E2 := fun s t i j a b => d2 (s, i) (t, j) (s, a) (t, b) / (e s i a + e t j b) in
  exists d, u_externally_correct half x (map (fun v => (fst v, External, p, snd v)) ys) = Ret d /\ eq_u x d (amps5 (E1 al) (E1 be) (E2 al al) (E2 al be) (E2 be be)).
Proof.
  intros Hh HR HL HA HS Hys Hw no nv eri fov d1 d2 e E1 E2.
  set (ra := fun i a => d1 (al, i) (al, a)). set (rb := fun i a => d1 (be, i) (be, a)).
  set (raa := fun i j a b => d2 (al, i) (al, j) (al, a) (al, b)). set (rab := fun i j a b => d2 (al, i) (be, j) (al, a) (be, b)). set (rbb := fun i j a b => d2 (be, i) (be, j) (be, a) (be, b)).
  assert (CV : forall y, In y ys -> let P := gram2 (uy_nf (fst y)) (uy_fo (fst y)) in
    (exists d, u_contribution half x (fst y, External, 0%nat, snd y) = Ret d /\ eq_u x d (amps5 ra rb raa rab rbb)) /\
    (exists d, u_contribution half x (fst y, External, 1%nat, snd y) = Ret d /\ eq_u x d (proj5 (fst (ux_no x)) (snd (ux_no x)) (fst P) (snd P) ra rb raa rab rbb)) /\
    forall i j a b, raa i j a b = raa j i b a /\ rbb i j a b = rbb j i b a).
  { intros y Hy P. destruct (Hys y Hy) as (HC & HW & Hf). pose proof (ext_value_u x (fst y) (snd y) T ra rb raa rab rbb Hh HC HR HA HS HW) as Q. cbv zeta in Q. rewrite Hf in Q.
    destruct HR as (R1 & R2 & R3).
    pose proof (C66_unrestricted half (fst (ux_no x)) (snd (ux_no x)) (fst (ux_nv x)) (snd (ux_nv x)) _ _ _ (fst f) (snd f) low1 low2 T (uy_wf (fst y)) Hh R1 R2 R3 HL HA HS HW) as U.
    cbv zeta in U. fold no nv eri fov in U. rewrite <- !surjective_pairing in U.
    destruct (uhf_residual _ _ _ _ _ _ _ _ _ _ _) as [[xa xb] [[xaa xab] xbb]] eqn:ER.
    destruct U as (U1 & U2 & U3). destruct (Q U1 U2) as [Q1 Q2]. split; [exact Q1|split; [exact Q2|]].
    intros i j a b. destruct (U2 i j a b) as (A1 & _ & A3). destruct (U2 j i b a) as (B1 & _ & B3). destruct (U3 i j a b) as (C1 & _ & C3 & _). destruct (U3 j i a b) as (_ & D2 & _ & D4).
    unfold raa, rbb, d2. rewrite <- A1, <- A3, <- B1, <- B3, C1, C3, D2, D4. split; ring. }
  assert (Val : exists ds, Forall2 (fun c d => u_contribution half x c = Ret d) (map (fun v => (fst v, External, p, snd v)) ys) ds /\
    eq_u x (amps5 (fun i a => Lsum ds (fun d => fst (fst d) i a)) (fun i a => Lsum ds (fun d => snd (fst d) i a)) (fun i j a b => Lsum ds (fun d => fst (fst (snd d)) i j a b))
      (fun i j a b => Lsum ds (fun d => snd (fst (snd d)) i j a b)) (fun i j a b => Lsum ds (fun d => snd (snd d) i j a b))) (amps5 ra rb raa rab rbb)).
  { destruct Hw as [[-> Hlen] | (-> & Hne & HPa & HPb)].
    - destruct ys as [|y [|]]; try discriminate Hlen. destruct (CV y (or_introl eq_refl)) as [(d & E & V) _]. exists [d]. split; [constructor; [exact E|constructor]|].
      unfold eq_u, amps5 in *. destruct (ux_no x), (ux_nv x). cbn [fst snd Lsum] in *. destruct V as (V1 & V2 & V3 & V4 & V5).
      split; [|split; [|split; [|split]]]; intros; [rewrite V1 | rewrite V2 | rewrite V3 | rewrite V4 | rewrite V5]; auto; ring.
    - assert (HD : forall ys', incl ys' ys -> exists ds, Forall2 (fun c d => u_contribution half x c = Ret d) (map (fun v => (fst v, External, 1%nat, snd v)) ys') ds /\
        let Pa := fun v : @ufrag F * bool => gram (fst (uy_nf (fst v))) (fst (uy_fo (fst v))) in let Pb := fun v : @ufrag F * bool => gram (snd (uy_nf (fst v))) (snd (uy_fo (fst v))) in let L := fun v => Lsum ys' v in
        eq_u x (amps5 (fun i a => Lsum ds (fun d => fst (fst d) i a)) (fun i a => Lsum ds (fun d => snd (fst d) i a)) (fun i j a b => Lsum ds (fun d => fst (fst (snd d)) i j a b))
          (fun i j a b => Lsum ds (fun d => snd (fst (snd d)) i j a b)) (fun i j a b => Lsum ds (fun d => snd (snd d) i j a b)))
          (amps5 (fun i a => L (fun y => Sum (fst (ux_no x)) (fun k => Pa y i k * ra k a))) (fun i a => L (fun y => Sum (snd (ux_no x)) (fun k => Pb y i k * rb k a)))
            (fun i j a b => half * (L (fun y => Sum (fst (ux_no x)) (fun k => Pa y i k * raa k j a b)) + L (fun y => Sum (fst (ux_no x)) (fun k => Pa y j k * raa k i b a))))
            (fun i j a b => half * (L (fun y => Sum (fst (ux_no x)) (fun k => Pa y i k * rab k j a b)) + L (fun y => Sum (snd (ux_no x)) (fun k => Pb y j k * rab i k a b))))
            (fun i j a b => half * (L (fun y => Sum (snd (ux_no x)) (fun k => Pb y i k * rbb k j a b)) + L (fun y => Sum (snd (ux_no x)) (fun k => Pb y j k * rbb k i b a)))))).
      { induction ys' as [|y ys' IH]; intros Hin.
        - exists []. split; [constructor|]. unfold eq_u, amps5. destruct (ux_no x), (ux_nv x). cbn [fst snd Lsum]. split; [|split; [|split; [|split]]]; intros; ring.
        - destruct IH as (ds & E & V); [intros z Hz; apply Hin; right; exact Hz|]. destruct (CV y (Hin y (or_introl eq_refl))) as (_ & (d & E' & V') & _). exists (d :: ds). split; [constructor; assumption|].
          unfold eq_u, proj5, amps5, gram2 in *. destruct (ux_no x), (ux_nv x). cbn [fst snd] in *. destruct V as (V1 & V2 & V3 & V4 & V5). destruct V' as (U1 & U2 & U3 & U4 & U5).
          split; [|split; [|split; [|split]]]; intros; cbn [Lsum]; [rewrite U1, V1 | rewrite U2, V2 | rewrite U3, V3 | rewrite U4, V4 | rewrite U5, V5]; auto; ring. }
      destruct (HD ys (incl_refl _)) as (ds & E & V). exists ds. split; [exact E|]. destruct ys as [|y0 ys0] eqn:Eys; [contradiction|]. rewrite <- Eys in *.
      destruct (CV y0) as (_ & _ & SY); [rewrite Eys; left; reflexivity|].
      unfold eq_u, amps5 in *. destruct (ux_no x) as [noa nob] eqn:Eno, (ux_nv x) as [nva nvb] eqn:Env. cbn [fst snd] in *. destruct V as (V1 & V2 & V3 & V4 & V5).
      split; [|split; [|split; [|split]]]; intros; [rewrite V1 | rewrite V2 | rewrite V3 | rewrite V4 | rewrite V5]; auto.
      + apply (sumP noa ys (fun y k => gram (fst (uy_nf (fst y))) (fst (uy_fo (fst y))) i k) (fun k => ra k a) i ltac:(assumption)); auto.
      + apply (sumP nob ys (fun y k => gram (snd (uy_nf (fst y))) (snd (uy_fo (fst y))) i k) (fun k => rb k a) i ltac:(assumption)); auto.
      + rewrite (sumP noa ys (fun y k => gram (fst (uy_nf (fst y))) (fst (uy_fo (fst y))) i k) (fun k => raa k j a b) i ltac:(assumption)), (sumP noa ys (fun y k => gram (fst (uy_nf (fst y))) (fst (uy_fo (fst y))) j k) (fun k => raa k i b a) j ltac:(assumption)) by auto.
        rewrite <- (proj1 (SY i j a b)). transitivity ((half + half) * raa i j a b); [ring|rewrite Hh; ring].
      + rewrite (sumP noa ys (fun y k => gram (fst (uy_nf (fst y))) (fst (uy_fo (fst y))) i k) (fun k => rab k j a b) i ltac:(assumption)), (sumP nob ys (fun y k => gram (snd (uy_nf (fst y))) (snd (uy_fo (fst y))) j k) (fun k => rab i k a b) j ltac:(assumption)) by auto.
        transitivity ((half + half) * rab i j a b); [ring|rewrite Hh; ring].
      + rewrite (sumP nob ys (fun y k => gram (snd (uy_nf (fst y))) (snd (uy_fo (fst y))) i k) (fun k => rbb k j a b) i ltac:(assumption)), (sumP nob ys (fun y k => gram (snd (uy_nf (fst y))) (snd (uy_fo (fst y))) j k) (fun k => rbb k i b a) j ltac:(assumption)) by auto.
        rewrite <- (proj2 (SY i j a b)). transitivity ((half + half) * rbb i j a b); [ring|rewrite Hh; ring]. }
  destruct Val as (ds & E & V). set (z1 := fun _ _ : nat => 0 : F). set (z2 := fun _ _ _ _ : nat => 0 : F).
  destruct (u_loop_ok x _ ds E ((z1, z1), (z2, z2, z2)) None) as (acc & EL & VL1 & VL2).
  assert (LT : forall l z, l <> [] -> last_type_u (map (fun v : @ufrag F * bool => (fst v, External, p, snd v)) l) z = Some External).
  { induction l as [|y l IH]; intros z Hn; [contradiction|]. destruct l as [|y' l]; [reflexivity|]. exact (IH (Some External) (fun H => eq_ind (y' :: l) (fun m => match m with [] => False | _ => True end) Logic.I [] H)). }
  unfold u_externally_correct. cbv zeta. unfold z1, z2 in EL. rewrite EL. cbn [rbind]. destruct acc as [a1 a2]. rewrite LT.
  - eexists. split; [reflexivity|]. unfold eq_u, amps5 in *. unfold E1, E2, e, no, by_spin, eia. destruct (ux_no x) as [noa nob], (ux_nv x) as [nva nvb]. cbn [fst snd] in *. destruct V as (V1 & V2 & V3 & V4 & V5).
    assert (Z : forall t : F, 0 + t = t) by (intros; ring).
    split; [|split; [|split; [|split]]]; intros.
    + rewrite (proj1 (VL1 i a)). unfold z1. rewrite Z, V1 by assumption. reflexivity.
    + rewrite (proj2 (VL1 i a)). unfold z1. rewrite Z, V2 by assumption. reflexivity.
    + rewrite (proj1 (VL2 i j a b)). unfold z2. rewrite Z, V3 by assumption. reflexivity.
    + rewrite (proj1 (proj2 (VL2 i j a b))). unfold z2. rewrite Z, V4 by assumption. reflexivity.
    + rewrite (proj2 (proj2 (VL2 i j a b))). unfold z2. rewrite Z, V5 by assumption. reflexivity.
  - destruct Hw as [[_ Hlen] | (_ & Hn & _)]; [destruct ys; discriminate|exact Hn].
Qed.
(** Amplitudes that solve the full equations are a fixed point, unrestricted *)
Theorem C66_fixed_point_unrestricted x (ys : list (@ufrag F * bool)) p (f : mat2) low1 low2 (T : list so -> list so -> F) :
  half + half = 1 -> real_u (ux_eris x) -> low_rank low1 low2 -> antisymmetric T -> spin_conserving T ->
  (forall v, In v ys -> same_cluster_u x (fst v) /\ amps_u T (uy_wf (fst v)) /\ uy_fov (fst v) = f) -> weighted_u x ys p ->
  let no := by_spin (fst (ux_no x)) (snd (ux_no x)) in let nv := by_spin (fst (ux_nv x)) (snd (ux_nv x)) in
  let eri := eri_u (fst (fst (ux_eris x))) (snd (fst (ux_eris x))) (snd (ux_eris x)) in let fov := by_spin (fst f) (snd f) in
  let R1 := fun T s i a => residual1 half no nv eri low1 T (s, i) (s, a) in
  let R2 := fun T s t i j a b => residual2 half no nv eri fov low1 low2 T (s, i) (t, j) (s, a) (t, b) in
  let e := fun s i a => by_spin (fst (ux_mo x)) (snd (ux_mo x)) s i - by_spin (fst (ux_mo x)) (snd (ux_mo x)) s (no s + a)%nat in
  let n1 := fun s i a => bl1 T s i a + R1 (trunc T) s i a / e s i a in let n2 := fun s t i j a b => bl2 T s t i j a b + R2 (trunc T) s t i j a b / (e s i a + e t j b) in
  (forall s t i j a b, (i < no s)%nat -> (j < no t)%nat -> (a < nv s)%nat -> (b < nv t)%nat -> R1 T s i a = 0 /\ R2 T s t i j a b = 0) ->
  exists d, u_externally_correct half x (map (fun v => (fst v, External, p, snd v)) ys) = Ret d /\
    eq_u x (u_callback d (amps5 (n1 al) (n1 be) (n2 al al) (n2 al be) (n2 be be))) (amps5 (bl1 T al) (bl1 T be) (bl2 T al al) (bl2 T al be) (bl2 T be be)).
Proof.
  intros Hh HR HL HA HS Hys Hw no nv eri fov R1 R2 e n1 n2 H0. destruct (C66_total_unrestricted x ys p f low1 low2 T Hh HR HL HA HS Hys Hw) as (d & E & V). exists d. split; [exact E|].
  assert (D : forall t r c, t + r / c + (0 - r) / c = t :> F). { intros. rewrite !(Fdiv_def (fth F)). ring. }
  unfold eq_u, u_callback, add1u, add2u, add1, add2, amps5 in *. unfold no, nv, by_spin in H0. cbv zeta in V. fold no nv eri fov in V.
  destruct (ux_no x) as [noa nob] eqn:Eno, (ux_nv x) as [nva nvb] eqn:Env. cbn [fst snd] in *. destruct V as (V1 & V2 & V3 & V4 & V5). unfold n1, n2.
  split; [|split; [|split; [|split]]]; intros.
  - rewrite V1 by assumption. fold (R1 T al i a) (R1 (trunc T) al i a) (e al i a). rewrite (proj1 (H0 al al i i a a ltac:(assumption) ltac:(assumption) ltac:(assumption) ltac:(assumption))). apply D.
  - rewrite V2 by assumption. fold (R1 T be i a) (R1 (trunc T) be i a) (e be i a). rewrite (proj1 (H0 be be i i a a ltac:(assumption) ltac:(assumption) ltac:(assumption) ltac:(assumption))). apply D.
  - rewrite V3 by assumption. fold (R2 T al al i j a b) (R2 (trunc T) al al i j a b) (e al i a) (e al j b). rewrite (proj2 (H0 al al i j a b ltac:(assumption) ltac:(assumption) ltac:(assumption) ltac:(assumption))). apply D.
  - rewrite V4 by assumption. fold (R2 T al be i j a b) (R2 (trunc T) al be i j a b) (e al i a) (e be j b). rewrite (proj2 (H0 al be i j a b ltac:(assumption) ltac:(assumption) ltac:(assumption) ltac:(assumption))). apply D.
  - rewrite V5 by assumption. fold (R2 T be be i j a b) (R2 (trunc T) be be i j a b) (e be i a) (e be j b). rewrite (proj2 (H0 be be i j a b ltac:(assumption) ltac:(assumption) ltac:(assumption) ltac:(assumption))). apply D.
Qed.
End Call.
(** ** Concrete cases *)
Section Cases.
Notation hf := (q 1 2).
(** wave functions with the amplitudes T *)
Definition wU (T : list so -> list so -> QF) : @uccsdtq QF := {| ut1 := (bl1 T al, bl1 T be); ut2 := (bl2 T al al, bl2 T al be, bl2 T be be);
  ut3 := (bl3 T al al al, bl3 T al be al, bl3 T be al be, bl3 T be be be); ut4 := (bl4 T al al al al, bl4 T al al al be, bl4 T al be al be, bl4 T al be be be, bl4 T be be be be) |}.
Definition wR (T : list so -> list so -> QF) : @rccsdtq QF := {| rt1 := bl1 T al; rt2 := bl2 T al be; rt3 := bl3 T al be al; rt4 := (bl4 T al be al al, bl4 T al be al be) |}.
Lemma wU_ok T : amps_u T (wU T). Proof. unfold amps_u, wU. cbn [ut1 ut2 ut3 ut4 fst snd]. split; [split; reflexivity|]. split; [split; [|split]; reflexivity|]. split; [split; [|split; [|split]]; reflexivity|]. intros; split; [|split; [|split; [|split]]]; reflexivity. Qed.
Lemma wR_ok T : amps_r T (wR T). Proof. unfold amps_r, wR. cbn [rt1 rt2 rt3 rt4 fst snd]. split; [reflexivity|split; [reflexivity|split; [reflexivity|split; reflexivity]]]. Qed.
Lemma half2 : hf + hf = 1. Proof. apply eqq_ok. vm_compute. reflexivity. Qed.
(** integrals of real orbitals *)
Definition ge (p q r s : nat) : QK := P_TtoC.q (Z.of_nat ((p + q) * (r + s) + p * q + r * s + 1)) 1.
Definition gm (p q r s : nat) : QK := P_TtoC.q (Z.of_nat ((p + q + 1) * (r + s) + 2 * p * q)) 1.
Lemma ge_real : real8 (F := QF) ge.
Proof. unfold real8, real4, ge. split; [split|]; intros; do 3 f_equal; lia. Qed.
Lemma gm_real : real4 (F := QF) gm.
Proof. unfold real4, gm. split; intros; do 3 f_equal; lia. Qed.
Definition fe (i a : nat) : QK := P_TtoC.q (Z.of_nat (i + 2 * a + 1)) 1.
(** the equations of a model in which singles and doubles enter linearly *)
Definition l1 (T : list so -> list so -> QK) (i a : so) : QK := T [i] [a] + 1.
Definition l2 (T : list so -> list so -> QK) (i j a b : so) : QK := T [i; j] [a; b] + T [i] [a] * T [j] [b].
Lemma l_low : low_rank (K := QK) l1 l2. Proof. intros T. split; reflexivity. Qed.
Example C66_unrestricted_case :
  let no := by_spin 2%nat 2%nat in let nv := by_spin 2%nat 2%nat in let eri := eri_u (F := QF) ge gm ge in
  let '((xa, xb), (xaa, xab, xbb)) := uhf_residual (K := QK) hf 2 2 2 2 (ut1 (wU Tv)) (ut3 (wU Tv)) (ut4 (wU Tv)) (fe, fe) (ge, gm, ge) true in
  (forall i j a b, xab i j a b = residual2 hf no nv eri (by_spin fe fe) l1 l2 Tv (al, i) (be, j) (al, a) (be, b) - residual2 hf no nv eri (by_spin fe fe) l1 l2 (trunc Tv) (al, i) (be, j) (al, a) (be, b)) /\
  xa 0%nat 1%nat = q (-768) 1 /\ xab 0%nat 1%nat 0%nat 1%nat = q 12648 1 /\ xaa 0%nat 1%nat 0%nat 1%nat = q (-3536) 1.
Proof.
  pose proof (C66_unrestricted (F := QF) hf 2 2 2 2 ge gm ge fe fe l1 l2 Tv (wU Tv) half2 ge_real gm_real ge_real l_low Tv_anti Tv_spin (wU_ok Tv)) as H. cbv zeta in H |- *.
  assert (V : let R := uhf_residual (K := QK) hf 2 2 2 2 (ut1 (wU Tv)) (ut3 (wU Tv)) (ut4 (wU Tv)) (fe, fe) (ge, gm, ge) true in
    fst (fst R) 0%nat 1%nat = q (-768) 1 /\ snd (fst (snd R)) 0%nat 1%nat 0%nat 1%nat = q 12648 1 /\ fst (fst (snd R)) 0%nat 1%nat 0%nat 1%nat = q (-3536) 1).
  { cbv zeta. split; [|split]; apply eqq_ok; vm_compute; reflexivity. }
  revert H V. cbv zeta. change (fring QF) with QK. destruct (uhf_residual _ _ _ _ _ _ _ _ _ _ _) as [[xa xb] [[xaa xab] xbb]]. intros H V. split; [intros; apply H|exact V].
Qed.
Example C66_restricted_case :
  let no := fun _ : bool => 2%nat in let eri := fun _ _ : bool => ge in let w := wR (adapt sv) in
  let x := rhf_residual (K := QK) hf 2 2 (rt1 w) (rt3 w) (fst (rt4 w)) (snd (rt4 w)) fe ge true in
  (forall i j a b, snd x i j a b = residual2 hf no no eri (fun _ => fe) l1 l2 (adapt sv) (al, i) (be, j) (al, a) (be, b) - residual2 hf no no eri (fun _ => fe) l1 l2 (trunc (adapt sv)) (al, i) (be, j) (al, a) (be, b)) /\
  fst x 0%nat 1%nat = q (-51008) 1 /\ snd x 0%nat 1%nat 0%nat 1%nat = q (-4196816) 1.
Proof.
  pose proof (C66_restricted (F := QF) hf 2 2 ge fe l1 l2 sv (wR (adapt sv)) half2 ge_real l_low sv_pairs (wR_ok (adapt sv))) as H. cbv zeta in H |- *.
  split; [intros; apply H|]. split; apply eqq_ok; vm_compute; reflexivity.
Qed.
End Cases.

(** Equations that given amplitudes solve *)
Section Solved.
Context {K : cring}.
Add Ring Ks : (rth K).
Variables (half : K) (no nv : bool -> nat) (eri : bool -> bool -> nat -> nat -> nat -> nat -> K) (fov : bool -> nat -> nat -> K) (T0 : list so -> list so -> K).
Definition s1 (T : list so -> list so -> K) (i a : so) : K := T [i] [a] - (T0 [i] [a] + row1 half no nv eri 0 (CI T0) i a).
Definition s2 (T : list so -> list so -> K) (i j a b : so) : K := T [i; j] [a; b] - (T0 [i; j] [a; b] + row2 half no nv eri fov 0 (CI T0) i j a b).
Lemma s_low : low_rank s1 s2. Proof. intros T. split; reflexivity. Qed.
Lemma solved1 i a : residual1 half no nv eri s1 T0 i a = 0.
Proof. unfold residual1, s1, row1. ring. Qed.
Lemma solved2 i j a b : residual2 half no nv eri fov s1 s2 T0 i j a b = 0.
Proof. unfold residual2. rewrite !solved1. unfold s2, row2. ring. Qed.
End Solved.

Section Cases2.
Notation hf := (q 1 2).
(** two fragments with one occupied orbital each, in the same cluster; the first correction uses low_level_coul=True, the second does not *)
Definition en (p : nat) : QK := q (Z.of_nat (p * p)) 1.
Definition cx : @rclusterx QF := Build_rclusterx (F := QF) 0 2 2 en ge.
Definition fr (k : nat) : @rfrag QF :=
  Build_rfrag (F := QF) (S k) 2 2 1 delta delta (fun _ i => delta k i) (fun _ i => delta k i) (wR (adapt sv)) fe ge ((fun _ _ => 0), (fun _ _ _ _ => 0)).
Lemma fr_same k : same_cluster (F := QF) cx (fr k).
Proof. split; [discriminate|]. repeat (split; [reflexivity|]). split; [intros i j _ _; reflexivity|]. split; [intros i j _ _; reflexivity|]. split; reflexivity. Qed.
Definition ys2 : list (@rfrag QF * bool) := [(fr 0, true); (fr 1, false)].
Lemma ys2_ok : forall v, In v ys2 -> same_cluster (F := QF) cx (fst v) /\ amps_r (F := QF) (adapt sv) (y_wf (fst v)) /\ forall m e, y_fov (fst v) m e = fe m e.
Proof. intros v [<-|[<-|[]]]; (split; [apply fr_same|split; [apply wR_ok|reflexivity]]). Qed.
Lemma ys2_weighted : weighted (F := QF) cx ys2 1.
Proof.
  right. split; [reflexivity|]. split; [discriminate|]. intros i j Hi Hj. cbn in Hi, Hj. destruct i as [|[|i]]; [| |lia]; (destruct j as [|[|j]]; [| |lia]); apply eqq_ok; vm_compute; reflexivity.
Qed.
Example C66_low_level_case : agree (F := QF) cx (r_contribution (F := QF) hf cx (fr 1, External, 1%nat, true)) (r_contribution (F := QF) hf cx (fr 1, External, 1%nat, false)) /\
  exists d, r_contribution (F := QF) hf cx (fr 1, External, 1%nat, true) = Ret d /\ snd d 0%nat 1%nat 0%nat 1%nat <> 0.
Proof. split; [apply (C66_low_level (F := QF)), fr_same|]. eexists. split; [reflexivity|]. apply neqq. vm_compute. reflexivity. Qed.
Definition corr2 := map (fun v : @rfrag QF * bool => (fst v, External, 1%nat, snd v)) ys2.
Example C66_total_case : exists d, r_externally_correct (F := QF) hf cx corr2 = Ret d /\ (forall i a, (i < 2)%nat -> (a < 2)%nat ->
    let n := fun _ : bool => 2%nat in let eri := fun _ _ : bool => ge in
    fst d i a = fdiv (c := QF) (residual1 hf n n eri l1 (adapt sv) (al, i) (al, a) - residual1 hf n n eri l1 (trunc (adapt sv)) (al, i) (al, a)) (en i - en (2 + a)%nat)) /\
  fst d 0%nat 1%nat = q 51008 9 /\ snd d 0%nat 1%nat 0%nat 1%nat = q 4196816 12.
Proof.
  destruct (C66_total (F := QF) hf cx ys2 1 fe l1 l2 sv half2 ge_real l_low sv_pairs ys2_ok ys2_weighted) as (d & E & V). exists d. split; [exact E|]. split; [intros i a Hi Ha; apply (V i 0%nat a 0%nat); auto; cbn; lia|].
  unfold corr2 in E. assert (X : exists d', r_externally_correct (F := QF) hf cx (map (fun v => (fst v, External, 1%nat, snd v)) ys2) = Ret d' /\ fst d' 0%nat 1%nat = q 51008 9 /\ snd d' 0%nat 1%nat 0%nat 1%nat = q 4196816 12).
  { eexists. split; [reflexivity|]. split; apply eqq_ok; vm_compute; reflexivity. }
  destruct X as (d' & E' & X). rewrite E in E'. injection E' as ->. exact X.
Qed.
(** amplitudes that solve the full equations are kept by a step of the CCSD iteration followed by the correction, and would not be without it *)
Example C66_fixed_point_case :
  let n := fun _ : bool => x_no cx in let v := fun _ : bool => x_nv cx in let eri := fun _ _ : bool => x_eris cx in
  let S1 := s1 hf n v eri (adapt sv) in let S2 := s2 hf n v eri (fun _ => fe) (adapt sv) in
  let R1 := fun T i a => residual1 (K := QF) hf n v eri S1 T (al, i) (al, a) in let R2 := fun T i j a b => residual2 (K := QF) hf n v eri (fun _ => fe) S1 S2 T (al, i) (be, j) (al, a) (be, b) in
  let e := fun i a => x_mo cx i - x_mo cx (x_no cx + a)%nat in
  let t1 := fun i a => adapt sv [(al, i)] [(al, a)] in let t2 := fun i j a b => adapt sv [(al, i); (be, j)] [(al, a); (be, b)] in
  let step := ((fun i a => t1 i a + fdiv (c := QF) (R1 (trunc (adapt sv)) i a) (e i a)), (fun i j a b => t2 i j a b + fdiv (c := QF) (R2 (trunc (adapt sv)) i j a b) (e i a + e j b))) in
  fst step 0%nat 1%nat <> t1 0%nat 1%nat /\
  exists d, r_externally_correct (F := QF) hf cx corr2 = Ret d /\ forall i j a b, (i < x_no cx)%nat -> (j < x_no cx)%nat -> (a < x_nv cx)%nat -> (b < x_nv cx)%nat ->
    let t := r_callback (F := QF) d step in fst t i a = t1 i a /\ snd t i j a b = t2 i j a b.
Proof.
  intros n v eri S1 S2. split; [apply neqq; vm_compute; reflexivity|].
  refine (C66_fixed_point (F := QF) hf cx ys2 1 fe S1 S2 sv half2 ge_real (s_low _ _ _ _ _ _) sv_pairs ys2_ok ys2_weighted _). intros. split; [apply solved1|apply solved2].
Qed.
Example C66_order_case : exists d d', r_externally_correct (F := QF) hf cx corr2 = Ret d /\ r_externally_correct (F := QF) hf cx (rev corr2) = Ret d' /\
  (forall i j a b, fst d i a = fst d' i a /\ snd d i j a b = snd d' i j a b) /\ fst d 0%nat 1%nat <> 0.
Proof.
  destruct C66_total_case as (d & E & _ & V & _). exists d.
  destruct (C66_order (F := QF) hf cx corr2 (rev corr2) d (Permutation_rev _)) as (d' & E' & X); [intros c c' [<-|[<-|[]]] [<-|[<-|[]]]; reflexivity|exact E|].
  exists d'. split; [exact E|]. split; [exact E'|]. split; [exact X|]. rewrite V. apply neqq. vm_compute. reflexivity.
Qed.

(** unrestricted *)
Definition ux2 : @uclusterx QF := Build_uclusterx (F := QF) 0 (2, 2)%nat (2, 2)%nat (en, en) (ge, gm, ge).
Definition d4 : nat -> nat -> QK := delta.
Definition ufr (k : nat) : @ufrag QF :=
  Build_ufrag (F := QF) (S k) (2, 2)%nat (2, 2)%nat (1, 1)%nat (d4, d4) (d4, d4) ((fun _ i => d4 k i), (fun _ i => d4 k i)) ((fun _ i => d4 k i), (fun _ i => d4 k i)) (wU Tv) (fe, fe) (ge, gm, ge)
    (((fun _ _ => 0), (fun _ _ => 0)), ((fun _ _ _ _ => 0), (fun _ _ _ _ => 0), (fun _ _ _ _ => 0))).
Lemma ufr_same k : same_cluster_u (F := QF) ux2 (ufr k).
Proof. split; [discriminate|]. repeat (split; [reflexivity|]). do 4 (split; [intros i j _ _; reflexivity|]). split; reflexivity. Qed.
Definition uys2 : list (@ufrag QF * bool) := [(ufr 0, true); (ufr 1, false)].
Lemma uys2_ok : forall v, In v uys2 -> same_cluster_u (F := QF) ux2 (fst v) /\ amps_u (F := QF) Tv (uy_wf (fst v)) /\ uy_fov (fst v) = (fe, fe).
Proof. intros v [<-|[<-|[]]]; (split; [apply ufr_same|split; [apply wU_ok|reflexivity]]). Qed.
Lemma uys2_weighted : weighted_u (F := QF) ux2 uys2 1.
Proof.
  right. split; [reflexivity|]. split; [discriminate|]. split; intros i j Hi Hj; cbn in Hi, Hj; (destruct i as [|[|i]]; [| |lia]); (destruct j as [|[|j]]; [| |lia]); apply eqq_ok; vm_compute; reflexivity.
Qed.
Lemma g3_real : real_u (F := QF) (ux_eris ux2). Proof. split; [exact ge_real|split; [exact gm_real|exact ge_real]]. Qed.
Example C66_low_level_unrestricted_case : agree_u (F := QF) ux2 (u_contribution (F := QF) hf ux2 (ufr 1, External, 1%nat, true)) (u_contribution (F := QF) hf ux2 (ufr 1, External, 1%nat, false)).
Proof. exact (C66_low_level_unrestricted (F := QF) hf ux2 (ufr 1) 1 Tv half2 (ufr_same 1) g3_real Tv_anti Tv_spin (wU_ok Tv)). Qed.
Definition ucorr2 := map (fun v : @ufrag QF * bool => (fst v, External, 1%nat, snd v)) uys2.
Example C66_total_unrestricted_case : exists d, u_externally_correct (F := QF) hf ux2 ucorr2 = Ret d /\
  fst (fst d) 0%nat 1%nat = q 768 9 /\ snd (fst (snd d)) 0%nat 1%nat 0%nat 1%nat = q (-12648) 12 /\ fst (fst (snd d)) 0%nat 1%nat 0%nat 1%nat = q 3536 12.
Proof.
  destruct (C66_total_unrestricted (F := QF) hf ux2 uys2 1 (fe, fe) l1 l2 Tv half2 g3_real l_low Tv_anti Tv_spin uys2_ok uys2_weighted) as (d & E & V). exists d. split; [exact E|].
  destruct V as (V1 & _ & V3 & V4 & _). split; [|split].
  - etransitivity; [apply V1; cbn; lia|]. apply eqq_ok. vm_compute. reflexivity.
  - etransitivity; [apply V4; cbn; lia|]. apply eqq_ok. vm_compute. reflexivity.
  - etransitivity; [apply V3; cbn; lia|]. apply eqq_ok. vm_compute. reflexivity.
Qed.
Example C66_fixed_point_unrestricted_case :
  let no := by_spin (fst (ux_no ux2)) (snd (ux_no ux2)) in let nv := by_spin (fst (ux_nv ux2)) (snd (ux_nv ux2)) in
  let eri := eri_u (F := QF) (fst (fst (ux_eris ux2))) (snd (fst (ux_eris ux2))) (snd (ux_eris ux2)) in let fov := by_spin (fst (fe, fe)) (snd (fe, fe)) in
  let S1 := s1 hf no nv eri Tv in let S2 := s2 hf no nv eri fov Tv in
  let R1 := fun T s i a => residual1 (K := QF) hf no nv eri S1 T (s, i) (s, a) in let R2 := fun T s t i j a b => residual2 (K := QF) hf no nv eri fov S1 S2 T (s, i) (t, j) (s, a) (t, b) in
  let e := fun s i a => by_spin (fst (ux_mo ux2)) (snd (ux_mo ux2)) s i - by_spin (fst (ux_mo ux2)) (snd (ux_mo ux2)) s (no s + a)%nat in
  let n1 := fun s i a => bl1 Tv s i a + fdiv (c := QF) (R1 (trunc Tv) s i a) (e s i a) in
  let n2 := fun s t i j a b => bl2 Tv s t i j a b + fdiv (c := QF) (R2 (trunc Tv) s t i j a b) (e s i a + e t j b) in
  n1 al 0%nat 1%nat <> bl1 Tv al 0%nat 1%nat /\
  exists d, u_externally_correct (F := QF) hf ux2 ucorr2 = Ret d /\
    eq_u (F := QF) ux2 (u_callback (F := QF) d (amps5 (F := QF) (n1 al) (n1 be) (n2 al al) (n2 al be) (n2 be be))) (amps5 (F := QF) (bl1 Tv al) (bl1 Tv be) (bl2 Tv al al) (bl2 Tv al be) (bl2 Tv be be)).
Proof.
  intros no nv eri fov S1 S2. split; [apply neqq; vm_compute; reflexivity|].
  refine (C66_fixed_point_unrestricted (F := QF) hf ux2 uys2 1 (fe, fe) S1 S2 Tv half2 g3_real (s_low _ _ _ _ _ _) Tv_anti Tv_spin uys2_ok uys2_weighted _). intros. split; [apply solved1|apply solved2].
Qed.

(** Finding: whether the sum of all corrections is divided by the orbital energy differences is decided by the type of the last correction.  A correction of type
    "delta-tailor" (a difference of amplitudes) given before one of type "external" (a residual) is divided too, and an external correction given before a delta-tailor one is not:
    the result depends on the order in which the user added them *)
Definition zt8 : ten8 QK := fun _ _ _ _ _ _ _ _ => 0.
Definition mw : @rccsdtq QF := Build_rccsdtq (F := QF) (fun _ _ => q 5 1) (fun _ _ _ _ => 0) (fun _ _ _ _ _ _ => 0) (zt8, zt8).
Definition mx : @rclusterx QF := Build_rclusterx (F := QF) 0 1 1 (fun p => q (Z.of_nat (2 * p + 1)) 1) (fun _ _ _ _ => 0).
Definition my : @rfrag QF := Build_rfrag (F := QF) 1 1 1 1 delta delta delta delta mw (fun _ _ => 0) (fun _ _ _ _ => 0) ((fun _ _ => q 3 1), (fun _ _ _ _ => 0)).
Theorem C66_mixed_refuted : ~ (forall (x : @rclusterx QF) l l' d, Permutation l l' -> r_externally_correct (F := QF) hf x l = Ret d ->
  exists d', r_externally_correct (F := QF) hf x l' = Ret d' /\ forall i a, (i < x_no x)%nat -> (a < x_nv x)%nat -> fst d i a = fst d' i a).
Proof.
  intros H. destruct (H mx [(my, External, 0%nat, false); (my, DeltaTailor, 0%nat, false)] [(my, DeltaTailor, 0%nat, false); (my, External, 0%nat, false)] _ (perm_swap _ _ _) eq_refl) as (d' & E & V).
  specialize (V 0%nat 0%nat ltac:(cbn; lia) ltac:(cbn; lia)). revert V. injection E as <-. apply neqq. vm_compute. reflexivity.
Qed.
Example C66_mixed_values : exists d d', r_externally_correct (F := QF) hf mx [(my, External, 0%nat, false); (my, DeltaTailor, 0%nat, false)] = Ret d /\
  r_externally_correct (F := QF) hf mx [(my, DeltaTailor, 0%nat, false); (my, External, 0%nat, false)] = Ret d' /\ fst d 0%nat 0%nat = q 2 1 /\ fst d' 0%nat 0%nat = q (-1) 1.
Proof. do 2 eexists. split; [reflexivity|]. split; [reflexivity|]. split; apply eqq_ok; vm_compute; reflexivity. Qed.
End Cases2.

Print Assumptions C66_unrestricted.
Print Assumptions C66_restricted.
Print Assumptions C66_low_level.
Print Assumptions C66_total.
Print Assumptions C66_fixed_point.
Print Assumptions C66_order.
Print Assumptions C66_low_level_unrestricted.
Print Assumptions C66_total_unrestricted.
Print Assumptions C66_fixed_point_unrestricted.
Print Assumptions C66_mixed_refuted.
