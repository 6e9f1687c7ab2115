(** Properties C56 (global amplitudes) and C57 (the fast global density matrix is that of the global wave function) of M_GlobalWf.v. *)
From Coq Require Import List Arith Bool Lia ZArith QArith Qcanon Ring Setoid Morphisms.
From Verif Require Import Alg Pull M_Wf M_Eris M_Rdm M_GlobalWf P_GlobalPairs P_Rdm.
Import ListNotations.

Section P.
Context (K : cring).
Add Ring Kr : (rth K).
Open Scope K_scope.
Variable half : K.
Hypothesis Hhalf : half + half = 1.
Notation mat := (nat -> nat -> K).
Notation ten := (nat -> nat -> nat -> nat -> K).

(** ** Sums over all fragments *)
Definition Mglob (nocc nvir : nat) (c : image K) (L : ten) : ten := fun Q j a b =>
  Sum nocc (fun I => Sum nvir (fun A => Sum nvir (fun B => i_co c I j * i_cv c A a * i_cv c B b * L Q I A B))).
Definition Nglob (nocc nvir : nat) (c : image K) (L : ten) : ten := fun i j a Q =>
  Sum nocc (fun I => Sum nocc (fun J => Sum nvir (fun A => i_co c I i * i_co c J j * i_cv c A a * L I J A Q))).
Lemma Mxy_lift nocc nvir cx y c l Q j a b : Mxy K y c (ovlp nocc (i_co cx) (i_co c)) (ovlp nvir (i_cv cx) (i_cv c)) l Q j a b = Mglob nocc nvir cx (lift2 y c l) Q j a b.
Proof. unfold Mxy, Mglob, ovlp, lift2, Sum4, Sum2. push. reorder. Qed.
Lemma Nxy_lift nocc nvir cx y c l i j a Q : Nxy K y c (ovlp nocc (i_co cx) (i_co c)) (ovlp nvir (i_cv cx) (i_cv c)) l i j a Q = Nglob nocc nvir cx (lift2 y c l) i j a Q.
Proof. unfold Nxy, Nglob, ovlp, lift2, Sum4, Sum2. push. reorder. Qed.
Lemma Mglob_add nocc nvir c L L' Q j a b : Mglob nocc nvir c (fun i j a b => L i j a b + L' i j a b) Q j a b = Mglob nocc nvir c L Q j a b + Mglob nocc nvir c L' Q j a b.
Proof. unfold Mglob. do 3 (rewrite <- Sum_add; apply Sum_ext; intros). ring. Qed.
Lemma Nglob_add nocc nvir c L L' Q j a b : Nglob nocc nvir c (fun i j a b => L i j a b + L' i j a b) Q j a b = Nglob nocc nvir c L Q j a b + Nglob nocc nvir c L' Q j a b.
Proof. unfold Nglob. do 3 (rewrite <- Sum_add; apply Sum_ext; intros). ring. Qed.
(** Contraction of cluster amplitudes with a global tensor: the intermediates of one fragment *)
Definition Doo (nocc nvir : nat) (x : gfrag K) (c : image K) (th L : ten) : mat := fun i Q =>
  - Sum (g_no x) (fun j => Sum (g_nv x) (fun a => Sum (g_nv x) (fun b => th i j a b * Mglob nocc nvir c L Q j a b))).
Definition Dvv (nocc nvir : nat) (x : gfrag K) (c : image K) (th L : ten) : mat := fun b Q =>
  Sum (g_no x) (fun i => Sum (g_no x) (fun j => Sum (g_nv x) (fun a => th i j a b * Nglob nocc nvir c L i j a Q))).
Lemma Doo_add nocc nvir x c th L L' i Q : Doo nocc nvir x c th (fun i j a b => L i j a b + L' i j a b) i Q = Doo nocc nvir x c th L i Q + Doo nocc nvir x c th L' i Q.
Proof.
  unfold Doo. setoid_rewrite Mglob_add.
  transitivity (- Sum (g_no x) (fun j => Sum (g_nv x) (fun a => Sum (g_nv x) (fun b => th i j a b * Mglob nocc nvir c L Q j a b + th i j a b * Mglob nocc nvir c L' Q j a b)))).
  - f_equal. p0. p0. p0. ring.
  - repeat setoid_rewrite Sum_add. ring.
Qed.
Lemma Dvv_add nocc nvir x c th L L' i Q : Dvv nocc nvir x c th (fun i j a b => L i j a b + L' i j a b) i Q = Dvv nocc nvir x c th L i Q + Dvv nocc nvir x c th L' i Q.
Proof.
  unfold Dvv. setoid_rewrite Nglob_add.
  transitivity (Sum (g_no x) (fun j => Sum (g_no x) (fun a => Sum (g_nv x) (fun b => th j a b i * Nglob nocc nvir c L j a b Q + th j a b i * Nglob nocc nvir c L' j a b Q)))).
  - p0. p0. p0. ring.
  - repeat setoid_rewrite Sum_add. ring.
Qed.
Lemma Mglob_ext nocc nvir c L L' Q j a b : (forall I A B, (I < nocc)%nat -> (A < nvir)%nat -> (B < nvir)%nat -> L Q I A B = L' Q I A B) -> Mglob nocc nvir c L Q j a b = Mglob nocc nvir c L' Q j a b.
Proof. intros H. unfold Mglob. p0. p0. p0. rewrite H by auto. reflexivity. Qed.
Lemma Nglob_ext nocc nvir c L L' Q j a b : (forall I J A, (I < nocc)%nat -> (J < nocc)%nat -> (A < nvir)%nat -> L I J A Q = L' I J A Q) -> Nglob nocc nvir c L j a b Q = Nglob nocc nvir c L' j a b Q.
Proof. intros H. unfold Nglob. p0. p0. p0. rewrite H by auto. reflexivity. Qed.
Lemma Doo_ext nocc nvir x c th th' L L' i Q : (forall j a b, (j < g_no x)%nat -> (a < g_nv x)%nat -> (b < g_nv x)%nat -> th i j a b = th' i j a b) ->
  (forall I A B, (I < nocc)%nat -> (A < nvir)%nat -> (B < nvir)%nat -> L Q I A B = L' Q I A B) -> Doo nocc nvir x c th L i Q = Doo nocc nvir x c th' L' i Q.
Proof. intros H1 H2. unfold Doo. f_equal. p0. p0. p0. rewrite H1 by auto. f_equal. apply Mglob_ext; auto. Qed.
Lemma Dvv_ext nocc nvir x c th th' L L' b Q : (forall i j a, (i < g_no x)%nat -> (j < g_no x)%nat -> (a < g_nv x)%nat -> th i j a b = th' i j a b) ->
  (forall I J A, (I < nocc)%nat -> (J < nocc)%nat -> (A < nvir)%nat -> L I J A Q = L' I J A Q) -> Dvv nocc nvir x c th L b Q = Dvv nocc nvir x c th' L' b Q.
Proof. intros H1 H2. unfold Dvv. p0. p0. p0. rewrite H1 by auto. f_equal. apply Nglob_ext; auto. Qed.
Lemma Doo_zero nocc nvir x c th i Q : Doo nocc nvir x c th (fun _ _ _ _ => 0) i Q = 0.
Proof. unfold Doo, Mglob. transitivity (- (0 : K)); [f_equal|ring]. apply Sum_0; intros. apply Sum_0; intros. apply Sum_0; intros. rewrite Sum_0; [ring|]. intros. apply Sum_0; intros. apply Sum_0; intros. ring. Qed.
Lemma Dvv_zero nocc nvir x c th i Q : Dvv nocc nvir x c th (fun _ _ _ _ => 0) i Q = 0.
Proof. unfold Dvv, Nglob. apply Sum_0; intros. apply Sum_0; intros. apply Sum_0; intros. rewrite Sum_0; [ring|]. intros. apply Sum_0; intros. apply Sum_0; intros. ring. Qed.

(** *** Fragments as the embedding makes them *)
(** The projected wave function was projected with the overlap of fragment and cluster orbitals. *)
Definition projected (x : gfrag K) : Prop := exists p, projector (pwf_as_ccsd (g_pwf x)) = Some p /\ prow p = g_nf x /\ pcol p = g_no x /\
  forall k i, (k < g_nf x)%nat -> (i < g_no x)%nat -> pmat p k i = g_cf x i k.
Definition pt1 (x : gfrag K) : mat := M_Wf.t1 (pwf_as_ccsd (g_pwf x)).
Definition pt2 (x : gfrag K) : ten := M_Wf.t2 (pwf_as_ccsd (g_pwf x)).
Definition pl1 (x : gfrag K) : option mat := M_Wf.l1 (pwf_as_ccsd (g_pwf x)).
Definition pl2 (x : gfrag K) : option ten := M_Wf.l2 (pwf_as_ccsd (g_pwf x)).
Definition rs1 (x : gfrag K) (u : mat) : mat := fun i a => Sum (g_nf x) (fun k => g_cf x i k * u k a).

Lemma pc2_rs x p (u : ten) : prow p = g_nf x -> (forall k i, (k < g_nf x)%nat -> (i < g_no x)%nat -> pmat p k i = g_cf x i k) ->
  forall i j a b, (i < g_no x)%nat -> (j < g_no x)%nat -> symmetrize_c2 half (pc2 u (ptrans p)) i j a b = rs K half x u i j a b.
Proof.
  intros H1 H2 i j a b Hi Hj. unfold symmetrize_c2, exch, pc2, rs, cfa, cfb. cbn [ptrans pcol pmat prow]. rewrite H1.
  rewrite (Sum_ext (g_nf x) (fun k => pmat p k i * u k j a b) (fun k => g_cf x i k * u k j a b)) by (intros; rewrite H2; auto).
  rewrite (Sum_ext (g_nf x) (fun k => pmat p k j * u k i b a) (fun k => g_cf x j k * u k i b a)) by (intros; rewrite H2; auto). ring.
Qed.
Lemma pc1_rs x p (u : mat) : prow p = g_nf x -> (forall k i, (k < g_nf x)%nat -> (i < g_no x)%nat -> pmat p k i = g_cf x i k) ->
  forall i a, (i < g_no x)%nat -> pc1 u (ptrans p) i a = rs1 x u i a.
Proof. intros H1 H2 i a Hi. unfold pc1, rs1. cbn [ptrans pcol pmat prow]. rewrite H1. apply Sum_ext; intros. rewrite H2; auto. Qed.

Definition like1 (x : gfrag K) (u : option mat) (v : option mat) : Prop :=
  match u, v with Some u, Some v => forall i a, (i < g_no x)%nat -> u i a = rs1 x v i a | None, None => True | _, _ => False end.
Definition like2 (x : gfrag K) (u : option ten) (v : option ten) : Prop :=
  match u, v with Some u, Some v => forall i j a b, (i < g_no x)%nat -> (j < g_no x)%nat -> u i j a b = rs K half x v i j a b | None, None => True | _, _ => False end.
Lemma rs1_zero x i a : rs1 x (fun _ _ => 0) i a = 0.
Proof. unfold rs1. apply Sum_0. intros. ring. Qed.
(** Restoring a fragment's wave function, in both orders of restore and as_ccsd *)
Lemma restored_ok x : projected x -> exists w, restored half x = Some w /\
  like1 x (Some (M_Wf.t1 w)) (Some (pt1 x)) /\ like2 x (Some (M_Wf.t2 w)) (Some (pt2 x)) /\ like1 x (M_Wf.l1 w) (pl1 x) /\ like2 x (M_Wf.l2 w) (pl2 x).
Proof.
  intros (p & Ep & H1 & H2 & H3). unfold restored, pt1, pt2, pl1, pl2. destruct (g_pwf x) as [w|n1 t p'] eqn:Ew; cbn [pwf_as_ccsd projector] in *.
  - cbn [pwf_restore]. unfold restore. rewrite Ep. cbn [option_map pwf_as_ccsd]. eexists. split; [reflexivity|]. cbn [M_Wf.t1 M_Wf.t2 M_Wf.l1 M_Wf.l2 project].
    repeat split.
    + intros i a Hi. apply pc1_rs; auto.
    + intros i j a b Hi Hj. apply pc2_rs; auto.
    + destruct (M_Wf.l1 w); cbn; auto. intros i a Hi. apply pc1_rs; auto.
    + destruct (M_Wf.l2 w); cbn; auto. intros i j a b Hi Hj. apply pc2_rs; auto.
  - subst p'. cbn. eexists. split; [reflexivity|]. cbn [M_Wf.t1 M_Wf.t2 M_Wf.l1 M_Wf.l2]. repeat split.
    + intros i a Hi. symmetry. apply rs1_zero.
    + intros i j a b Hi Hj. apply pc2_rs; auto.
    + intros i a Hi. symmetry. apply rs1_zero.
    + intros i j a b Hi Hj. apply pc2_rs; auto.
Qed.
Lemma early_ok x : projected x -> exists w, pair_wf half false x = Some w /\ like2 x (Some (M_Wf.t2 w)) (Some (pt2 x)) /\ like2 x (M_Wf.l2 w) (pl2 x).
Proof.
  intros (p & Ep & H1 & H2 & H3). unfold pair_wf, restore. rewrite Ep. eexists. split; [reflexivity|]. cbn [M_Wf.t2 M_Wf.l2 project]. split.
  - intros i j a b Hi Hj. apply pc2_rs; auto.
  - unfold pl2. destruct (M_Wf.l2 (pwf_as_ccsd (g_pwf x))); cbn; auto. intros i j a b Hi Hj. apply pc2_rs; auto.
Qed.
Lemma theta_rs x (u : ten) : forall i j a b, cc_theta (rs K half x u) i j a b = rs K half x (cc_theta u) i j a b.
Proof.
  intros. unfold cc_theta, rs, cfa, cfb, two.
  assert (A : forall k, Sum (g_nf x) (fun z => g_cf x k z * ((1 + 1) * u z j a b - u z j b a)) = (1 + 1) * Sum (g_nf x) (fun z => g_cf x k z * u z j a b) - Sum (g_nf x) (fun z => g_cf x k z * u z j b a)).
  { intros. rewrite <- Sum_mul_l, <- Sum_sub. apply Sum_ext; intros. ring. }
  assert (B : forall k, Sum (g_nf x) (fun z => g_cf x k z * ((1 + 1) * u z i b a - u z i a b)) = (1 + 1) * Sum (g_nf x) (fun z => g_cf x k z * u z i b a) - Sum (g_nf x) (fun z => g_cf x k z * u z i a b)).
  { intros. rewrite <- Sum_mul_l, <- Sum_sub. apply Sum_ext; intros. ring. }
  rewrite A, B. ring.
Qed.

(** Amplitudes that enter the global sums *)
Definition src1 (x : gfrag K) (gl : bool) : option mat := if gl && negb (g_tal x) then pl1 x else Some (pt1 x).
Definition src2 (x : gfrag K) (gl : bool) : option ten := if gl && negb (g_tal x) then pl2 x else Some (pt2 x).
Definition get1 (u : option mat) : mat := match u with Some u => u | None => fun _ _ => 0 end.
Definition get2 (u : option ten) : ten := match u with Some u => u | None => fun _ _ _ _ => 0 end.
Definition G1 (frags : list (gfrag K)) (u : gfrag K -> mat) : mat := fun I A => Lsum frags (fun x => Lsum (images x) (fun c => lift1 x c (u x) I A)).
Definition G2 (frags : list (gfrag K)) (u : gfrag K -> ten) : ten := fun I J A B => Lsum frags (fun x => Lsum (images x) (fun c => lift2 x c (u x) I J A B)).
Lemma lift1_ext x c t t' I A : (forall i a, (i < g_no x)%nat -> (a < g_nv x)%nat -> t i a = t' i a) -> lift1 (K := K) x c t I A = lift1 x c t' I A.
Proof. intros H. unfold lift1. apply Sum_ext; intros a Ha. f_equal. apply Sum_ext; intros i Hi. rewrite H; auto. Qed.
Lemma lift2_ext x c t t' I J A B : (forall i j a b, (i < g_no x)%nat -> (j < g_no x)%nat -> (a < g_nv x)%nat -> (b < g_nv x)%nat -> t i j a b = t' i j a b) -> lift2 (K := K) x c t I J A B = lift2 x c t' I J A B.
Proof. intros H. unfold lift2, Sum4, Sum2. p0. p0. p0. p0. rewrite H; auto. Qed.
Lemma G1_ext frags u u' I A : (forall x, In x frags -> forall i a, (i < g_no x)%nat -> (a < g_nv x)%nat -> u x i a = u' x i a) -> G1 frags u I A = G1 frags u' I A.
Proof. intros H. unfold G1. apply Lsum_ext; intros x Hx. apply Lsum_ext; intros c _. apply lift1_ext; auto. Qed.
Lemma G2_ext frags u u' I J A B : (forall x, In x frags -> forall i j a b, (i < g_no x)%nat -> (j < g_no x)%nat -> (a < g_nv x)%nat -> (b < g_nv x)%nat -> u x i j a b = u' x i j a b) -> G2 frags u I J A B = G2 frags u' I J A B.
Proof. intros H. unfold G2. apply Lsum_ext; intros x Hx. apply Lsum_ext; intros c _. apply lift2_ext; auto. Qed.

Lemma t1_of_ok x gl : projected x -> match t1_of half x gl false with Some (Some t) => like1 x (Some t) (src1 x gl) | Some None => False | None => src1 x gl = None end.
Proof.
  intros Hp. destruct (restored_ok x Hp) as (w & E & T1 & T2 & L1 & L2). unfold t1_of, src1. rewrite E. cbn [andb]. destruct (gl && negb (g_tal x)); [|exact T1].
  destruct (M_Wf.l1 w) as [u|], (pl1 x) as [v|]; cbn in L1; try contradiction; auto.
Qed.
Lemma t2_of_ok x gl : projected x -> match t2_of half x gl false with Some (Some t) => like2 x (Some t) (src2 x gl) | Some None => False | None => src2 x gl = None end.
Proof.
  intros Hp. destruct (restored_ok x Hp) as (w & E & T1 & T2 & L1 & L2). unfold t2_of, src2. rewrite E. cbn [andb]. destruct (gl && negb (g_tal x)); [|exact T2].
  destruct (M_Wf.l2 w) as [u|], (pl2 x) as [v|]; cbn in L2; try contradiction; auto.
Qed.
Lemma fold_none {A B} (f : option B -> A -> option B) (l : list A) : (forall a, f None a = None) -> fold_left f l None = None.
Proof. intros H. induction l as [|a l IH]; cbn; auto. rewrite H. auto. Qed.
Lemma global_t1_eq frags gl : Forall projected frags -> match global_t1 half frags gl false with
  | Some m => Forall (fun x => src1 x gl <> None) frags /\ forall I A, m I A = G1 frags (fun x => rs1 x (get1 (src1 x gl))) I A
  | None => Exists (fun x => src1 x gl = None) frags end.
Proof.
  intros Hp. unfold global_t1.
  assert (Z : forall m0 : mat, match fold_left (fun (acc : option mat) x => match acc, t1_of half x gl false with Some m, Some (Some t) => Some (fun I A => m I A + Lsum (images x) (fun c => lift1 x c t I A)) | Some m, Some None => Some m | _, _ => None end) frags (Some m0) with
    | Some m => Forall (fun x => src1 x gl <> None) frags /\ forall I A, m I A = m0 I A + G1 frags (fun x => rs1 x (get1 (src1 x gl))) I A
    | None => Exists (fun x => src1 x gl = None) frags end).
  { induction Hp as [|x l Hx Hl IH]; intros m0; cbn [fold_left].
    - split; [constructor|]. intros. unfold G1. simpl. ring.
    - pose proof (t1_of_ok x gl Hx) as O. destruct (t1_of half x gl false) as [[t|]|]; [|contradiction|].
      + specialize (IH (fun I A => m0 I A + Lsum (images x) (fun c => lift1 x c t I A))). destruct (fold_left _ l _) as [m|].
        * destruct IH as [I1 I2]. unfold like1 in O. destruct (src1 x gl) as [v|] eqn:Ev; [|contradiction]. split; [constructor; auto; congruence|].
          intros I A. rewrite I2. unfold G1. cbn [Lsum]. rewrite Ev. cbn [get1].
          rewrite (Lsum_ext (images x) (fun c => lift1 x c t I A) (fun c => lift1 x c (rs1 x v) I A)); [ring|]. intros c _. apply lift1_ext. intros; apply O; auto.
        * apply Exists_cons_tl. auto.
      + rewrite fold_none by auto. apply Exists_cons_hd. auto. }
  specialize (Z (fun _ _ => 0)). destruct (fold_left _ frags _) as [m|]; auto. destruct Z as [Z1 Z2]. split; auto. intros. rewrite Z2. ring.
Qed.
Lemma global_t2_eq frags gl : Forall projected frags -> match global_t2 half frags gl false with
  | Some m => Forall (fun x => src2 x gl <> None) frags /\ forall I J A B, m I J A B = G2 frags (fun x => rs K half x (get2 (src2 x gl))) I J A B
  | None => Exists (fun x => src2 x gl = None) frags end.
Proof.
  intros Hp. unfold global_t2.
  assert (Z : forall m0 : ten, match fold_left (fun (acc : option ten) x => match acc, t2_of half x gl false with Some m, Some (Some t) => Some (fun I J A B => m I J A B + Lsum (images x) (fun c => lift2 x c t I J A B)) | Some m, Some None => Some m | _, _ => None end) frags (Some m0) with
    | Some m => Forall (fun x => src2 x gl <> None) frags /\ forall I J A B, m I J A B = m0 I J A B + G2 frags (fun x => rs K half x (get2 (src2 x gl))) I J A B
    | None => Exists (fun x => src2 x gl = None) frags end).
  { induction Hp as [|x l Hx Hl IH]; intros m0; cbn [fold_left].
    - split; [constructor|]. intros. unfold G2. simpl. ring.
    - pose proof (t2_of_ok x gl Hx) as O. destruct (t2_of half x gl false) as [[t|]|]; [|contradiction|].
      + specialize (IH (fun I J A B => m0 I J A B + Lsum (images x) (fun c => lift2 x c t I J A B))). destruct (fold_left _ l _) as [m|].
        * destruct IH as [I1 I2]. unfold like2 in O. destruct (src2 x gl) as [v|] eqn:Ev; [|contradiction]. split; [constructor; auto; congruence|].
          intros I J A B. rewrite I2. unfold G2. cbn [Lsum]. rewrite Ev. cbn [get2].
          rewrite (Lsum_ext (images x) (fun c => lift2 x c t I J A B) (fun c => lift2 x c (rs K half x v) I J A B)); [ring|]. intros c _. apply lift2_ext. intros; apply O; auto.
        * apply Exists_cons_tl. auto.
      + rewrite fold_none by auto. apply Exists_cons_hd. auto. }
  specialize (Z (fun _ _ _ _ => 0)). destruct (fold_left _ frags _) as [m|]; auto. destruct Z as [Z1 Z2]. split; auto. intros. rewrite Z2. ring.
Qed.

(** *** One fragment and all pairs with it *)
Section Fast.
Variables (nocc nvir : nat).
Variable svd : option (nat -> nat -> mat -> nat * mat * mat).
Variable skip : mat -> mat -> bool.
Hypothesis E : exact_svd K svd.
(** Skipped pairs of clusters have no overlap. *)
Definition no_overlap (x y : gfrag K) (cx cy : image K) : Prop :=
  (forall i j, (i < g_no x)%nat -> (j < g_no y)%nat -> ovlp nocc (i_co cx) (i_co cy) i j = 0) \/ (forall a b, (a < g_nv x)%nat -> (b < g_nv y)%nat -> ovlp nvir (i_cv cx) (i_cv cy) a b = 0).
Definition skip_exact (frags : list (gfrag K)) : Prop := forall x y cx cy, In x frags -> In y frags -> In cx (images x) -> In cy (images y) ->
  skip (ovlp nocc (i_co cx) (i_co cy)) (ovlp nvir (i_cv cx) (i_cv cy)) = true -> no_overlap x y cx cy.
Variables late tal : bool.
Definition lam (y : gfrag K) : option ten := if tal || is_mp2 y then Some (pt2 y) else pl2 y.
Definition thr (x : gfrag K) (theta : ten) : ten := if late then rs K half x theta else theta.
Definition insides (y : gfrag K) : Prop := forall c, In c (images y) -> inside K y nocc c.

Lemma pair_ok x y c wy l theta : projected y -> inside K y nocc c -> pair_wf half late y = Some wy -> pair_l2 tal y wy = Some l ->
  let ro := ovlp nocc (i_co (g_self x)) (i_co c) in let rv := ovlp nvir (i_cv (g_self x)) (i_cv c) in
  (forall i Q, (i < g_no x)%nat -> (Q < nocc)%nat -> (if late then late_oo half svd x y c theta l ro rv else early_oo svd x y c theta l ro rv) i Q
    = Doo nocc nvir x (g_self x) (thr x theta) (lift2 y c (rs K half y (get2 (lam y)))) i Q) /\
  (forall b Q, (Q < nvir)%nat -> (if late then late_vv half svd x y c theta l ro rv else early_vv svd x y c theta l ro rv) b Q
    = Dvv nocc nvir x (g_self x) (thr x theta) (lift2 y c (rs K half y (get2 (lam y)))) b Q).
Proof.
  intros Hp Hin Ew El ro rv. unfold thr. destruct late eqn:EL.
  - assert (Hl : lam y = Some l). { unfold pair_wf in Ew. injection Ew as <-. exact El. } rewrite Hl. cbn [get2]. split.
    + intros i Q Hi HQ. rewrite late_oo_eq; auto. unfold Boo, Doo. f_equal. p0. p0. p0. f_equal. apply Mxy_lift.
    + intros b Q HQ. rewrite late_vv_eq; auto. unfold Bvv, Dvv. p0. p0. p0. f_equal. apply Nxy_lift.
  - destruct (early_ok y Hp) as (w & Ew' & T2 & L2). rewrite Ew' in Ew. injection Ew as ->.
    assert (Hl : forall i j a b, (i < g_no y)%nat -> (j < g_no y)%nat -> l i j a b = rs K half y (get2 (lam y)) i j a b).
    { unfold lam. unfold pair_l2 in El. destruct (tal || is_mp2 y).
      - injection El as <-. exact T2.
      - rewrite El in L2. unfold like2 in L2. destruct (pl2 y); [exact L2|contradiction]. }
    split.
    + intros i Q Hi HQ. rewrite early_oo_eq; auto. unfold Boo, Doo. f_equal. p0. p0. p0. f_equal. rewrite <- Mxy_lift. unfold Mxy. p0. p0. p0. p0. rewrite Hl by auto. reflexivity.
    + intros b Q HQ. rewrite early_vv_eq; auto. unfold Bvv, Dvv. p0. p0. p0. f_equal. rewrite <- Nxy_lift. unfold Nxy. p0. p0. p0. p0. rewrite Hl by auto. reflexivity.
Qed.
Lemma pair_skip x y c th l : no_overlap x y (g_self x) c ->
  (forall i Q, Doo nocc nvir x (g_self x) th (lift2 y c l) i Q = 0) /\ (forall b Q, Dvv nocc nvir x (g_self x) th (lift2 y c l) b Q = 0).
Proof.
  intros [Z|Z].
  - split; intros.
    + unfold Doo. rewrite Sum_0; [ring|]. intros j Hj. apply Sum_0; intros a Ha. apply Sum_0; intros b Hb. rewrite <- Mxy_lift. unfold Mxy. rewrite Sum_0; [ring|]. intros. apply Sum_0; intros. apply Sum_0; intros. apply Sum_0; intros. rewrite Z by auto. ring.
    + unfold Dvv. apply Sum_0. intros j Hj. apply Sum_0; intros a Ha. apply Sum_0; intros b' Hb. rewrite <- Nxy_lift. unfold Nxy. rewrite Sum_0; [ring|]. intros. apply Sum_0; intros. apply Sum_0; intros. apply Sum_0; intros. rewrite (Z a) by auto. ring.
  - split; intros.
    + unfold Doo. rewrite Sum_0; [ring|]. intros j Hj. apply Sum_0; intros a Ha. apply Sum_0; intros b Hb. rewrite <- Mxy_lift. unfold Mxy. rewrite Sum_0; [ring|]. intros. apply Sum_0; intros. apply Sum_0; intros. apply Sum_0; intros. rewrite (Z b) by auto. ring.
    + unfold Dvv. apply Sum_0. intros j Hj. apply Sum_0; intros a Ha. apply Sum_0; intros b' Hb. rewrite <- Nxy_lift. unfold Nxy. rewrite Sum_0; [ring|]. intros. apply Sum_0; intros. apply Sum_0; intros. apply Sum_0; intros. rewrite Z by auto. ring.
Qed.

Lemma Doo_Lsum {A} x c th (l : list A) (L : A -> ten) i Q : Doo nocc nvir x c th (fun I J A B => Lsum l (fun z => L z I J A B)) i Q = Lsum l (fun z => Doo nocc nvir x c th (L z) i Q).
Proof. induction l as [|z l IH]; cbn [Lsum]; [apply Doo_zero|]. rewrite Doo_add, IH. reflexivity. Qed.
Lemma Dvv_Lsum {A} x c th (l : list A) (L : A -> ten) i Q : Dvv nocc nvir x c th (fun I J A B => Lsum l (fun z => L z I J A B)) i Q = Lsum l (fun z => Dvv nocc nvir x c th (L z) i Q).
Proof. induction l as [|z l IH]; cbn [Lsum]; [apply Dvv_zero|]. rewrite Dvv_add, IH. reflexivity. Qed.

Lemma pair_wf_some y : projected y -> exists w, pair_wf half late y = Some w /\ (lam y <> None -> pair_l2 tal y w <> None).
Proof.
  intros Hp. destruct late eqn:EL.
  - eexists. split; [reflexivity|]. intros H. exact H.
  - destruct (early_ok y Hp) as (w & Ew & T2 & L2). exists w. split; auto. unfold lam, pair_l2. destruct (tal || is_mp2 y); [congruence|]. intros H H'. rewrite H' in L2. cbn in L2. destruct (pl2 y); auto.
Qed.
Lemma pairs_ok ys x theta : Forall projected ys -> Forall insides ys -> Forall (fun y => lam y <> None) ys ->
  (forall y c, In y ys -> In c (images y) -> skip (ovlp nocc (i_co (g_self x)) (i_co c)) (ovlp nvir (i_cv (g_self x)) (i_cv c)) = true -> no_overlap x y (g_self x) c) ->
  exists doox dvvx, pairs half nocc nvir svd skip late tal ys x theta = Some (doox, dvvx) /\
    (forall i Q, (i < g_no x)%nat -> (Q < nocc)%nat -> doox i Q = Doo nocc nvir x (g_self x) (thr x theta) (G2 ys (fun y => rs K half y (get2 (lam y)))) i Q) /\
    (forall b Q, (Q < nvir)%nat -> dvvx b Q = Dvv nocc nvir x (g_self x) (thr x theta) (G2 ys (fun y => rs K half y (get2 (lam y)))) b Q).
Proof.
  intros Hp Hi Hl Hk. unfold pairs.
  match goal with |- exists a b, fold_left ?f ys _ = _ /\ _ => set (step := f) end.
  assert (Z : forall oo0 vv0, exists oo vv, fold_left step ys (Some (oo0, vv0)) = Some (oo, vv) /\
    (forall i Q, (i < g_no x)%nat -> (Q < nocc)%nat -> oo i Q = oo0 i Q + Doo nocc nvir x (g_self x) (thr x theta) (G2 ys (fun y => rs K half y (get2 (lam y)))) i Q) /\
    (forall b Q, (Q < nvir)%nat -> vv b Q = vv0 b Q + Dvv nocc nvir x (g_self x) (thr x theta) (G2 ys (fun y => rs K half y (get2 (lam y)))) b Q)).
  { induction ys as [|y ys IH]; intros oo0 vv0; cbn [fold_left].
    - do 2 eexists. split; [reflexivity|]. split; intros; unfold G2; cbn [Lsum]; rewrite ?Doo_zero, ?Dvv_zero; ring.
    - inversion Hp as [|? ? Py Pys]; subst. inversion Hi as [|? ? Iy Iys]; subst. inversion Hl as [|? ? Ly Lys]; subst.
      destruct (pair_wf_some y Py) as (wy & Ewy & Elam). specialize (Elam Ly).
      assert (Ky := fun c => Hk y c (or_introl eq_refl)).
      assert (S : exists oo vv, step (Some (oo0, vv0)) y = Some (oo, vv) /\
        (forall i Q, (i < g_no x)%nat -> (Q < nocc)%nat -> oo i Q = oo0 i Q + Lsum (images y) (fun c => Doo nocc nvir x (g_self x) (thr x theta) (lift2 y c (rs K half y (get2 (lam y)))) i Q)) /\
        (forall b Q, (Q < nvir)%nat -> vv b Q = vv0 b Q + Lsum (images y) (fun c => Dvv nocc nvir x (g_self x) (thr x theta) (lift2 y c (rs K half y (get2 (lam y)))) b Q))).
      { unfold step. rewrite Ewy. unfold insides in Iy. clear IH Hk. revert oo0 vv0. induction (images y) as [|c cs IHc]; intros oo0 vv0; cbn [fold_left Lsum].
        - do 2 eexists. split; [reflexivity|]. split; intros; ring.
        - destruct (skip _ _) eqn:Es.
          + destruct (IHc (fun c' H => Iy c' (or_intror H)) (fun c' H => Ky c' (or_intror H)) oo0 vv0) as (oo & vv & F1 & F2 & F3). exists oo, vv. split; [exact F1|].
            destruct (pair_skip x y c (thr x theta) (rs K half y (get2 (lam y))) (Ky c (or_introl eq_refl) Es)) as [Z1 Z2]. split; intros; [rewrite F2, Z1 by auto|rewrite F3, Z2 by auto]; ring.
          + destruct (pair_l2 tal y wy) as [l|] eqn:El; [|contradiction].
            destruct (pair_ok x y c wy l theta Py (Iy c (or_introl eq_refl)) Ewy El) as [O1 O2].
            edestruct (IHc (fun c' H => Iy c' (or_intror H)) (fun c' H => Ky c' (or_intror H))) as (oo & vv & F1 & F2 & F3). exists oo, vv. split; [exact F1|].
            split; intros; [rewrite F2 by auto; rewrite O1 by auto|rewrite F3 by auto; rewrite O2 by auto]; ring. }
      destruct S as (oo1 & vv1 & S1 & S2 & S3). rewrite S1. destruct (IH Pys Iys Lys (fun y' c H => Hk y' c (or_intror H)) oo1 vv1) as (oo & vv & F1 & F2 & F3). exists oo, vv. split; [exact F1|].
      split; intros; unfold G2; cbn [Lsum].
      + rewrite F2, S2, Doo_add by auto. rewrite (Doo_Lsum x (g_self x) (thr x theta) (images y) (fun c => lift2 y c (rs K half y (get2 (lam y))))). unfold G2. ring.
      + rewrite F3, S3, Dvv_add by auto. rewrite (Dvv_Lsum x (g_self x) (thr x theta) (images y) (fun c => lift2 y c (rs K half y (get2 (lam y))))). unfold G2. ring. }
  destruct (Z (fun _ _ => 0) (fun _ _ => 0)) as (oo & vv & F1 & F2 & F3). exists oo, vv. split; [exact F1|]. split; intros; [rewrite F2 by auto|rewrite F3 by auto]; ring.
Qed.

(** *** Contractions of global tensors *)
Definition Coo (th L : ten) : mat := fun I Q => - Sum nocc (fun k => Sum nvir (fun A => Sum nvir (fun B => th I k A B * L Q k A B))).
Definition Cvv (th L : ten) : mat := fun A Q => Sum nocc (fun I => Sum nocc (fun J => Sum nvir (fun B => th I J B A * L I J B Q))).
Definition Cov (th : ten) (l : mat) : mat := fun I A => Sum nocc (fun J => Sum nvir (fun B => th I J A B * l J B)).
Lemma Coo_add th th' L I Q : Coo (fun i j a b => th i j a b + th' i j a b) L I Q = Coo th L I Q + Coo th' L I Q.
Proof.
  unfold Coo. assert (R : forall a b : K, - a + - b = - (a + b)) by (intros; ring). rewrite R. f_equal.
  do 3 (rewrite <- Sum_add; apply Sum_ext; intros). ring.
Qed.
Lemma Cvv_add th th' L I Q : Cvv (fun i j a b => th i j a b + th' i j a b) L I Q = Cvv th L I Q + Cvv th' L I Q.
Proof. unfold Cvv. do 3 (rewrite <- Sum_add; apply Sum_ext; intros). ring. Qed.
Lemma Cov_add th th' l I A : Cov (fun i j a b => th i j a b + th' i j a b) l I A = Cov th l I A + Cov th' l I A.
Proof. unfold Cov. do 2 (rewrite <- Sum_add; apply Sum_ext; intros). ring. Qed.
Lemma Coo_zero L I Q : Coo (fun _ _ _ _ => 0) L I Q = 0.
Proof. unfold Coo. rewrite Sum_0; [ring|]. intros. apply Sum_0; intros. apply Sum_0; intros. ring. Qed.
Lemma Cvv_zero L I Q : Cvv (fun _ _ _ _ => 0) L I Q = 0.
Proof. unfold Cvv. apply Sum_0; intros. apply Sum_0; intros. apply Sum_0; intros. ring. Qed.
Lemma Cov_zero l I Q : Cov (fun _ _ _ _ => 0) l I Q = 0.
Proof. unfold Cov. apply Sum_0; intros. apply Sum_0; intros. ring. Qed.
Lemma Coo_Lsum {A} (l : list A) (th : A -> ten) L I Q : Coo (fun i j a b => Lsum l (fun z => th z i j a b)) L I Q = Lsum l (fun z => Coo (th z) L I Q).
Proof. induction l as [|z l IH]; cbn [Lsum]; [apply Coo_zero|]. rewrite Coo_add, IH. reflexivity. Qed.
Lemma Cvv_Lsum {A} (l : list A) (th : A -> ten) L I Q : Cvv (fun i j a b => Lsum l (fun z => th z i j a b)) L I Q = Lsum l (fun z => Cvv (th z) L I Q).
Proof. induction l as [|z l IH]; cbn [Lsum]; [apply Cvv_zero|]. rewrite Cvv_add, IH. reflexivity. Qed.
Lemma Cov_Lsum {A} (l : list A) (th : A -> ten) L I Q : Cov (fun i j a b => Lsum l (fun z => th z i j a b)) L I Q = Lsum l (fun z => Cov (th z) L I Q).
Proof. induction l as [|z l IH]; cbn [Lsum]; [apply Cov_zero|]. rewrite Cov_add, IH. reflexivity. Qed.
Lemma Coo_G2 (l : list (gfrag K)) th L I Q : Coo (G2 l th) L I Q = Lsum l (fun x => Lsum (images x) (fun c => Coo (lift2 x c (th x)) L I Q)).
Proof. unfold G2. rewrite (Coo_Lsum l (fun x I J A B => Lsum (images x) (fun c => lift2 x c (th x) I J A B))). apply Lsum_ext; intros. apply (Coo_Lsum (images a) (fun c => lift2 a c (th a))). Qed.
Lemma Cvv_G2 (l : list (gfrag K)) th L I Q : Cvv (G2 l th) L I Q = Lsum l (fun x => Lsum (images x) (fun c => Cvv (lift2 x c (th x)) L I Q)).
Proof. unfold G2. rewrite (Cvv_Lsum l (fun x I J A B => Lsum (images x) (fun c => lift2 x c (th x) I J A B))). apply Lsum_ext; intros. apply (Cvv_Lsum (images a) (fun c => lift2 a c (th a))). Qed.
Lemma Cov_G2 (l : list (gfrag K)) th L I Q : Cov (G2 l th) L I Q = Lsum l (fun x => Lsum (images x) (fun c => Cov (lift2 x c (th x)) L I Q)).
Proof. unfold G2. rewrite (Cov_Lsum l (fun x I J A B => Lsum (images x) (fun c => lift2 x c (th x) I J A B))). apply Lsum_ext; intros. apply (Cov_Lsum (images a) (fun c => lift2 a c (th a))). Qed.

Lemma img_oo x c th L I Q : Sum (g_no x) (fun i => i_co c I i * Doo nocc nvir x c th L i Q) = Coo (lift2 x c th) L I Q.
Proof.
  clear. transitivity (- Sum (g_no x) (fun i => i_co c I i * Sum (g_no x) (fun j => Sum (g_nv x) (fun a => Sum (g_nv x) (fun b => th i j a b * Mglob nocc nvir c L Q j a b))))).
  - rewrite <- Sum_opp. apply Sum_ext; intros. unfold Doo. ring.
  - unfold Coo. f_equal. unfold Mglob, lift2, Sum4, Sum2. push. reorder.
Qed.
Lemma img_vv x c th L I Q : Sum (g_nv x) (fun i => i_cv c I i * Dvv nocc nvir x c th L i Q) = Cvv (lift2 x c th) L I Q.
Proof. clear. unfold Dvv, Cvv, Nglob, lift2, Sum4, Sum2. push. reorder. Qed.
Definition l1c (x : gfrag K) (c : image K) (l : mat) : mat := fun i a => Sum nvir (fun A => Sum nocc (fun I => i_co c I i * l I A) * i_cv c A a).
Lemma img_ov x c (th : ten) l I A : Sum2 (g_no x) (g_nv x) (fun i a => Sum2 (g_no x) (g_nv x) (fun j b => th i j a b * l1c x c l j b) * i_co c I i * i_cv c A a) = Cov (lift2 x c th) l I A.
Proof. clear. unfold Cov, l1c, lift2, Sum4, Sum2. push. reorder. Qed.

Lemma add_ov_eq x c theta l I A : inside K x nocc c -> (I < nocc)%nat ->
  add_ov half nocc nvir late x theta l c I A = Sum2 (g_no x) (g_nv x) (fun i a => Sum2 (g_no x) (g_nv x) (fun j b => thr x theta i j a b * l1c x (g_self x) l j b) * i_co c I i * i_cv c A a).
Proof.
  intros Hin HI. unfold add_ov, thr. change (l1x nocc nvir x l) with (l1c x (g_self x) l). destruct late; [|reflexivity].
  set (m := l1c x (g_self x) l). clearbody m. cbv zeta. unfold Sum2. 
  rewrite (Sum_ext (g_nv x) _ (fun a => Sum (g_nf x) (fun k => Sum (g_no x) (fun i => i_co c I i * g_cf x i k) * (Sum (g_no x) (fun j => Sum (g_nv x) (fun b => theta k j a b * m j b)) * half)) * i_cv c A a)).
  2:{ intros a Ha. f_equal. apply Sum_ext; intros k Hk. rewrite (Hin I k HI Hk). reflexivity. }
  transitivity (Sum (g_no x) (fun i => Sum (g_nv x) (fun a => Sum (g_no x) (fun j => Sum (g_nv x) (fun b => half * cfa K x theta i j a b * m j b)) * i_co c I i * i_cv c A a))
    + Sum (g_no x) (fun i => Sum (g_nv x) (fun a => Sum (g_no x) (fun j => Sum (g_nv x) (fun b => half * cfb K x theta i j a b * m j b)) * i_co c I i * i_cv c A a))).
  - f_equal.
    + clear. unfold cfa. push. reorder.
    + clear. unfold cfb. push. reorder.
  - rewrite <- Sum_add. apply Sum_ext; intros i Hi. rewrite <- Sum_add. apply Sum_ext; intros a Ha.
    assert (D : forall u v w z : K, u * w * z + v * w * z = (u + v) * w * z) by (intros; ring). rewrite D. f_equal. f_equal.
    do 2 (rewrite <- Sum_add; apply Sum_ext; intros). unfold rs. ring.
Qed.

(** *** Symmetry copies *)
(** Orbitals of copy [c2] are those of [c1], moved by go, gv *)
Definition moves (go gv : mat) (x : gfrag K) (c1 c2 : image K) : Prop :=
  (forall I i, (I < nocc)%nat -> (i < g_no x)%nat -> i_co c2 I i = Sum nocc (fun q => go I q * i_co c1 q i)) /\
  (forall A a, (A < nvir)%nat -> (a < g_nv x)%nat -> i_cv c2 A a = Sum nvir (fun q => gv A q * i_cv c1 q a)).
Definition unitary (n : nat) (g : mat) : Prop := forall q q', (q < n)%nat -> (q' < n)%nat -> Sum n (fun Q => g Q q * g Q q') = delta q q'.
(** Every child is the parent moved by its symmetry operation, and the operation only permutes the copies of every fragment. *)
Definition symmetric (frags : list (gfrag K)) : Prop := forall x c, In x frags -> In c (g_children x) ->
  unitary nocc (i_go c) /\ unitary nvir (i_gv c) /\ moves (i_go c) (i_gv c) x (g_self x) c /\
  forall y, In y frags -> exists l, Permutation.Permutation (images y) l /\ Forall2 (moves (i_go c) (i_gv c) y) (images y) l.
Definition inv2 (go gv : mat) (L : ten) : Prop := forall I J A B, (I < nocc)%nat -> (J < nocc)%nat -> (A < nvir)%nat -> (B < nvir)%nat ->
  L I J A B = Sum nocc (fun i => Sum nocc (fun j => Sum nvir (fun a => Sum nvir (fun b => go I i * go J j * gv A a * gv B b * L i j a b)))).
Definition inv1 (go gv : mat) (l : mat) : Prop := forall I A, (I < nocc)%nat -> (A < nvir)%nat -> l I A = Sum nocc (fun i => Sum nvir (fun a => go I i * gv A a * l i a)).
Definition act2 (go gv : mat) (L : ten) : ten := fun I J A B => Sum nocc (fun i => Sum nocc (fun j => Sum nvir (fun a => Sum nvir (fun b => go I i * go J j * gv A a * gv B b * L i j a b)))).
Definition act1 (go gv : mat) (l : mat) : mat := fun I A => Sum nocc (fun i => Sum nvir (fun a => go I i * gv A a * l i a)).

Lemma lift2_moves go gv y c1 c2 t I J A B : moves go gv y c1 c2 -> (I < nocc)%nat -> (J < nocc)%nat -> (A < nvir)%nat -> (B < nvir)%nat ->
  lift2 y c2 t I J A B = act2 go gv (lift2 y c1 t) I J A B.
Proof.
  intros [Ho Hv] HI HJ HA HB. unfold lift2 at 1, Sum4, Sum2.
  transitivity (Sum (g_no y) (fun i => Sum (g_no y) (fun j => Sum (g_nv y) (fun a => Sum (g_nv y) (fun b =>
    t i j a b * Sum nocc (fun q => go I q * i_co c1 q i) * Sum nocc (fun q => go J q * i_co c1 q j) * Sum nvir (fun q => gv A q * i_cv c1 q a) * Sum nvir (fun q => gv B q * i_cv c1 q b)))))).
  - p0. p0. p0. p0. rewrite !Ho, !Hv by auto. reflexivity.
  - clear. unfold act2, lift2, Sum4, Sum2. push. reorder.
Qed.
Lemma lift1_moves go gv y c1 c2 t I A : moves go gv y c1 c2 -> (I < nocc)%nat -> (A < nvir)%nat ->
  lift1 y c2 t I A = act1 go gv (lift1 y c1 t) I A.
Proof.
  intros [Ho Hv] HI HA. unfold lift1 at 1.
  transitivity (Sum (g_nv y) (fun a => Sum (g_no y) (fun i => Sum nocc (fun q => go I q * i_co c1 q i) * t i a) * Sum nvir (fun q => gv A q * i_cv c1 q a))).
  - apply Sum_ext; intros a Ha. rewrite Hv by auto. f_equal. apply Sum_ext; intros i Hi. rewrite Ho by auto. reflexivity.
  - clear. unfold act1, lift1. push. reorder.
Qed.
Lemma act2_Lsum {A} go gv (l : list A) (t : A -> ten) I J a b : act2 go gv (fun i j a b => Lsum l (fun z => t z i j a b)) I J a b = Lsum l (fun z => act2 go gv (t z) I J a b).
Proof.
  induction l as [|z l IH]; cbn [Lsum].
  - unfold act2. apply Sum_0; intros. apply Sum_0; intros. apply Sum_0; intros. apply Sum_0; intros. ring.
  - rewrite <- IH. unfold act2. do 4 (rewrite <- Sum_add; apply Sum_ext; intros). ring.
Qed.
Lemma act1_Lsum {A} go gv (l : list A) (t : A -> mat) I a : act1 go gv (fun i a => Lsum l (fun z => t z i a)) I a = Lsum l (fun z => act1 go gv (t z) I a).
Proof.
  induction l as [|z l IH]; cbn [Lsum].
  - unfold act1. apply Sum_0; intros. apply Sum_0; intros. ring.
  - rewrite <- IH. unfold act1. do 2 (rewrite <- Sum_add; apply Sum_ext; intros). ring.
Qed.
Lemma Lsum_Forall2 {A} (R : A -> A -> Prop) (l l' : list A) (f g : A -> K) : Forall2 R l l' -> (forall a b, R a b -> f a = g b) -> Lsum l f = Lsum l' g.
Proof. intros H Hf. induction H as [|a b l l' Hab H IH]; cbn; auto. rewrite (Hf a b Hab), IH. reflexivity. Qed.
Lemma G2_inv frags u x c : symmetric frags -> In x frags -> In c (g_children x) -> inv2 (i_go c) (i_gv c) (G2 frags u).
Proof.
  intros Hs Hx Hc I J A B HI HJ HA HB. destruct (Hs x c Hx Hc) as (_ & _ & _ & Hy). symmetry.
  change (act2 (i_go c) (i_gv c) (G2 frags u) I J A B = G2 frags u I J A B). unfold G2.
  rewrite (act2_Lsum _ _ frags (fun x I J A B => Lsum (images x) (fun c => lift2 x c (u x) I J A B))). apply Lsum_ext; intros y Iy.
  rewrite (act2_Lsum _ _ (images y) (fun c => lift2 y c (u y))). destruct (Hy y Iy) as (l & P & F).
  rewrite (Lsum_Permutation _ _ (fun c => lift2 y c (u y) I J A B) P). apply (Lsum_Forall2 _ _ _ _ _ F). intros c1 c2 M. symmetry. apply lift2_moves; auto.
Qed.
Lemma G1_inv frags u x c : symmetric frags -> In x frags -> In c (g_children x) -> inv1 (i_go c) (i_gv c) (G1 frags u).
Proof.
  intros Hs Hx Hc I A HI HA. destruct (Hs x c Hx Hc) as (_ & _ & _ & Hy). symmetry.
  change (act1 (i_go c) (i_gv c) (G1 frags u) I A = G1 frags u I A). unfold G1.
  rewrite (act1_Lsum _ _ frags (fun x I A => Lsum (images x) (fun c => lift1 x c (u x) I A))). apply Lsum_ext; intros y Iy.
  rewrite (act1_Lsum _ _ (images y) (fun c => lift1 y c (u y))). destruct (Hy y Iy) as (l & P & F).
  rewrite (Lsum_Permutation _ _ (fun c => lift1 y c (u y) I A) P). apply (Lsum_Forall2 _ _ _ _ _ F). intros c1 c2 M. symmetry. apply lift1_moves; auto.
Qed.
(** Moving an invariant tensor along all but one index *)
Lemma unit_l n g (f : nat -> K) k : unitary n g -> (k < n)%nat -> Sum n (fun Q => g Q k * Sum n (fun q => g Q q * f q)) = f k.
Proof.
  intros U Hk. rewrite <- (Sum_delta_l n k f Hk). transitivity (Sum n (fun q => Sum n (fun Q => g Q k * g Q q) * f q)).
  - clear. push. reorder.
  - apply Sum_ext; intros q Hq. rewrite U by auto. reflexivity.
Qed.
Lemma inv_o go gv L Q k a b : unitary nocc go -> unitary nvir gv -> inv2 go gv L -> (Q < nocc)%nat -> (k < nocc)%nat -> (a < nvir)%nat -> (b < nvir)%nat ->
  Sum nocc (fun I => Sum nvir (fun A => Sum nvir (fun B => go I k * gv A a * gv B b * L Q I A B))) = Sum nocc (fun q => go Q q * L q k a b).
Proof.
  intros Uo Uv Hi HQ Hk Ha Hb.
  transitivity (Sum nocc (fun I => go I k * Sum nvir (fun A => gv A a * Sum nvir (fun B => gv B b * Sum nocc (fun i => go Q i * Sum nocc (fun j => go I j * Sum nvir (fun a => gv A a * Sum nvir (fun b => gv B b * L i j a b)))))))).
  { apply Sum_ext; intros I HI. rewrite <- Sum_mul_l. apply Sum_ext; intros A HA. rewrite <- !Sum_mul_l. apply Sum_ext; intros B HB. rewrite (Hi Q I A B) by auto. clear. push. reorder. }
  transitivity (Sum nocc (fun q => go Q q * Sum nocc (fun I => go I k * Sum nocc (fun j => go I j * Sum nvir (fun A => gv A a * Sum nvir (fun a => gv A a * Sum nvir (fun B => gv B b * Sum nvir (fun b => gv B b * L q j a b)))))))).
  { clear. push. reorder. }
  apply Sum_ext; intros q Hq. f_equal. rewrite (unit_l nocc go (fun j => Sum nvir (fun A => gv A a * Sum nvir (fun a => gv A a * Sum nvir (fun B => gv B b * Sum nvir (fun b => gv B b * L q j a b)))))) by auto.
  rewrite (unit_l nvir gv (fun a => Sum nvir (fun B => gv B b * Sum nvir (fun b => gv B b * L q k a b)))) by auto.
  rewrite (unit_l nvir gv (fun b => L q k a b)) by auto. reflexivity.
Qed.
Lemma inv_v go gv L Q i k a : unitary nocc go -> unitary nvir gv -> inv2 go gv L -> (Q < nvir)%nat -> (i < nocc)%nat -> (k < nocc)%nat -> (a < nvir)%nat ->
  Sum nocc (fun I => Sum nocc (fun J => Sum nvir (fun A => go I i * go J k * gv A a * L I J A Q))) = Sum nvir (fun q => gv Q q * L i k a q).
Proof.
  intros Uo Uv Hi HQ Hii Hk Ha.
  transitivity (Sum nocc (fun I => go I i * Sum nocc (fun J => go J k * Sum nvir (fun A => gv A a * Sum nvir (fun q => gv Q q * Sum nocc (fun i => go I i * Sum nocc (fun j => go J j * Sum nvir (fun b => gv A b * L i j b q)))))))).
  { apply Sum_ext; intros I HI. rewrite <- Sum_mul_l. apply Sum_ext; intros J HJ. rewrite <- !Sum_mul_l. apply Sum_ext; intros A HA. rewrite (Hi I J A Q) by auto. clear. push. reorder. }
  transitivity (Sum nvir (fun q => gv Q q * Sum nocc (fun I => go I i * Sum nocc (fun i => go I i * Sum nocc (fun J => go J k * Sum nocc (fun j => go J j * Sum nvir (fun A => gv A a * Sum nvir (fun b => gv A b * L i j b q)))))))).
  { clear. push. reorder. }
  apply Sum_ext; intros q Hq. f_equal. rewrite (unit_l nocc go (fun i => Sum nocc (fun J => go J k * Sum nocc (fun j => go J j * Sum nvir (fun A => gv A a * Sum nvir (fun b => gv A b * L i j b q)))))) by auto.
  rewrite (unit_l nocc go (fun j => Sum nvir (fun A => gv A a * Sum nvir (fun b => gv A b * L i j b q)))) by auto.
  rewrite (unit_l nvir gv (fun b => L i k b q)) by auto. reflexivity.
Qed.
Lemma inv_1 go gv l k a : unitary nocc go -> unitary nvir gv -> inv1 go gv l -> (k < nocc)%nat -> (a < nvir)%nat ->
  Sum nocc (fun I => Sum nvir (fun A => go I k * gv A a * l I A)) = l k a.
Proof.
  intros Uo Uv Hi Hk Ha.
  transitivity (Sum nocc (fun I => go I k * Sum nocc (fun i => go I i * Sum nvir (fun A => gv A a * Sum nvir (fun a => gv A a * l i a))))).
  { transitivity (Sum nocc (fun I => Sum nvir (fun A => go I k * gv A a * act1 go gv l I A))).
    - apply Sum_ext; intros I HI. apply Sum_ext; intros A HA. f_equal. apply Hi; auto.
    - clear. unfold act1. push. reorder. }
  rewrite (unit_l nocc go (fun i => Sum nvir (fun A => gv A a * Sum nvir (fun a => gv A a * l i a)))) by auto.
  rewrite (unit_l nvir gv (fun a => l k a)) by auto. reflexivity.
Qed.
Lemma Doo_child go gv x c1 c2 th L i Q : unitary nocc go -> unitary nvir gv -> inv2 go gv L -> moves go gv x c1 c2 -> (Q < nocc)%nat ->
  Sum nocc (fun q => Doo nocc nvir x c1 th L i q * go Q q) = Doo nocc nvir x c2 th L i Q.
Proof.
  intros Uo Uv Hi [Mo Mv] HQ.
  transitivity (- Sum (g_no x) (fun j => Sum (g_nv x) (fun a => Sum (g_nv x) (fun b => th i j a b * Sum nocc (fun q => go Q q * Mglob nocc nvir c1 L q j a b))))).
  { transitivity (- Sum nocc (fun q => Sum (g_no x) (fun j => Sum (g_nv x) (fun a => Sum (g_nv x) (fun b => th i j a b * Mglob nocc nvir c1 L q j a b))) * go Q q)).
    - rewrite <- Sum_opp. apply Sum_ext; intros. unfold Doo. ring.
    - f_equal. generalize (Mglob nocc nvir c1 L). clear. intros. push. reorder. }
  unfold Doo. f_equal. p0. p0. p0. f_equal.
  transitivity (Sum nocc (fun k => Sum nvir (fun A => Sum nvir (fun B => i_co c1 k i0 * i_cv c1 A i1 * i_cv c1 B i2 * Sum nocc (fun q => go Q q * L q k A B))))).
  { clear. unfold Mglob. push. reorder. }
  transitivity (Sum nocc (fun k => Sum nvir (fun a => Sum nvir (fun b => i_co c1 k i0 * i_cv c1 a i1 * i_cv c1 b i2 * Sum nocc (fun I => Sum nvir (fun A => Sum nvir (fun B => go I k * gv A a * gv B b * L Q I A B))))))).
  { p0. p0. p0. rewrite (inv_o go gv L) by auto. reflexivity. }
  unfold Mglob. transitivity (Sum nocc (fun I => Sum nvir (fun A => Sum nvir (fun B => Sum nocc (fun q => go I q * i_co c1 q i0) * Sum nvir (fun q => gv A q * i_cv c1 q i1) * Sum nvir (fun q => gv B q * i_cv c1 q i2) * L Q I A B)))).
  { clear. push. reorder. }
  p0. p0. p0. rewrite Mo, !Mv by auto. reflexivity.
Qed.
Lemma Dvv_child go gv x c1 c2 th L i Q : unitary nocc go -> unitary nvir gv -> inv2 go gv L -> moves go gv x c1 c2 -> (Q < nvir)%nat ->
  Sum nvir (fun q => Dvv nocc nvir x c1 th L i q * gv Q q) = Dvv nocc nvir x c2 th L i Q.
Proof.
  intros Uo Uv Hi [Mo Mv] HQ.
  transitivity (Sum (g_no x) (fun j => Sum (g_no x) (fun a => Sum (g_nv x) (fun b => th j a b i * Sum nvir (fun q => gv Q q * Nglob nocc nvir c1 L j a b q))))).
  { unfold Dvv. generalize (Nglob nocc nvir c1 L). clear. intros. push. reorder. }
  unfold Dvv. p0. p0. p0. f_equal.
  transitivity (Sum nocc (fun k => Sum nocc (fun A => Sum nvir (fun B => i_co c1 k i0 * i_co c1 A i1 * i_cv c1 B i2 * Sum nvir (fun q => gv Q q * L k A B q))))).
  { clear. unfold Nglob. push. reorder. }
  transitivity (Sum nocc (fun k => Sum nocc (fun a => Sum nvir (fun b => i_co c1 k i0 * i_co c1 a i1 * i_cv c1 b i2 * Sum nocc (fun I => Sum nocc (fun A => Sum nvir (fun B => go I k * go A a * gv B b * L I A B Q))))))).
  { p0. p0. p0. rewrite (inv_v go gv L) by auto. reflexivity. }
  unfold Nglob. transitivity (Sum nocc (fun I => Sum nocc (fun A => Sum nvir (fun B => Sum nocc (fun q => go I q * i_co c1 q i0) * Sum nocc (fun q => go A q * i_co c1 q i1) * Sum nvir (fun q => gv B q * i_cv c1 q i2) * L I A B Q)))).
  { clear. push. reorder. }
  p0. p0. p0. rewrite !Mo, !Mv by auto. reflexivity.
Qed.
Lemma l1c_child go gv x c1 c2 l i a : unitary nocc go -> unitary nvir gv -> inv1 go gv l -> moves go gv x c1 c2 -> (i < g_no x)%nat -> (a < g_nv x)%nat -> l1c x c1 l i a = l1c x c2 l i a.
Proof.
  intros Uo Uv Hi [Mo Mv] Hii Ha. unfold l1c at 2.
  transitivity (Sum nvir (fun A => Sum nocc (fun I => Sum nocc (fun q => go I q * i_co c1 q i) * l I A) * Sum nvir (fun q => gv A q * i_cv c1 q a))).
  - transitivity (Sum nocc (fun k => Sum nvir (fun b => i_co c1 k i * i_cv c1 b a * Sum nocc (fun I => Sum nvir (fun A => go I k * gv A b * l I A))))).
    + transitivity (Sum nocc (fun k => Sum nvir (fun b => i_co c1 k i * i_cv c1 b a * l k b))).
      * clear. unfold l1c. push. reorder.
      * p0. p0. rewrite (inv_1 go gv l) by auto. reflexivity.
    + clear. push. reorder.
  - apply Sum_ext; intros A HA. rewrite Mv by auto. f_equal. apply Sum_ext; intros I HI. rewrite Mo by auto. reflexivity.
Qed.

(** *** The loop over all fragments *)
Definition Lg (xs : list (gfrag K)) : ten := G2 xs (fun y => rs K half y (get2 (lam y))).
Definition Tg (xs : list (gfrag K)) : ten := G2 xs (fun x => rs K half x (cc_theta (pt2 x))).
Lemma thr_like x w : projected x -> pair_wf half late x = Some w -> forall i j a b, (i < g_no x)%nat -> (j < g_no x)%nat -> thr x (cc_theta (M_Wf.t2 w)) i j a b = rs K half x (cc_theta (pt2 x)) i j a b.
Proof.
  intros Hp Ew i j a b Hi Hj. unfold thr. destruct late.
  - injection Ew as <-. reflexivity.
  - destruct (early_ok x Hp) as (w' & Ew' & T2 & _). rewrite Ew' in Ew. injection Ew as ->. rewrite <- theta_rs. unfold like2 in T2. unfold cc_theta. rewrite !T2 by auto. reflexivity.
Qed.
Lemma images_cons (x : gfrag K) : images x = g_self x :: g_children x.
Proof. reflexivity. Qed.
Section Outer.
Variables (xs : list (gfrag K)) (with_t1 : bool) (l1 : mat).
Hypotheses (Hp : Forall projected xs) (Hi : Forall insides xs) (Hl : Forall (fun y => lam y <> None) xs).
Hypothesis Hs : symmetric xs.
Hypothesis Hk : skip_exact xs.
Hypothesis Hl1 : forall x c, In x xs -> In c (g_children x) -> inv1 (i_go c) (i_gv c) l1.
Lemma frag_ok x : In x xs -> exists w doox dvvx, pair_wf half late x = Some w /\ pairs half nocc nvir svd skip late tal xs x (cc_theta (M_Wf.t2 w)) = Some (doox, dvvx) /\
  (forall I Q, (I < nocc)%nat -> (Q < nocc)%nat -> add_oo nocc x (g_self x) true doox I Q + Lsum (g_children x) (fun c => add_oo nocc x c false doox I Q)
     = Lsum (images x) (fun c => Coo (lift2 x c (rs K half x (cc_theta (pt2 x)))) (Lg xs) I Q)) /\
  (forall A Q, (A < nvir)%nat -> (Q < nvir)%nat -> add_vv nvir x (g_self x) true dvvx A Q + Lsum (g_children x) (fun c => add_vv nvir x c false dvvx A Q)
     = Lsum (images x) (fun c => Cvv (lift2 x c (rs K half x (cc_theta (pt2 x)))) (Lg xs) A Q)) /\
  (forall I A, (I < nocc)%nat -> (A < nvir)%nat -> Lsum (images x) (fun c => add_ov half nocc nvir late x (cc_theta (M_Wf.t2 w)) l1 c I A)
     = Lsum (images x) (fun c => Cov (lift2 x c (rs K half x (cc_theta (pt2 x)))) l1 I A)).
Proof.
  intros Hx. rewrite Forall_forall in Hp. assert (Px := Hp x Hx). destruct (pair_wf_some x Px) as (w & Ew & _).
  assert (Th := thr_like x w Px Ew). set (theta := cc_theta (M_Wf.t2 w)) in *.
  destruct (pairs_ok xs x theta) as (doox & dvvx & Ep & Eo & Ev); auto; [apply Forall_forall; auto|intros y c Iy Ic; apply Hk; auto; left; auto|]. fold (Lg xs) in Eo, Ev.
  assert (Ix : insides x) by (rewrite Forall_forall in Hi; auto).
  exists w, doox, dvvx. split; [auto|]. split; [auto|].
  assert (Mv : forall c, In c (images x) -> c = g_self x \/ In c (g_children x)) by (intros c [<-|H]; auto).
  assert (Iv : forall c, In c (g_children x) -> inv2 (i_go c) (i_gv c) (Lg xs)) by (intros c Hc; apply (G2_inv xs _ x c); auto).
  split; [|split].
  - intros I Q HI HQ. rewrite images_cons. cbn [Lsum]. f_equal.
    + rewrite <- img_oo. unfold add_oo. apply Sum_ext; intros i Hii. rewrite Eo by auto. f_equal. apply Doo_ext; auto.
    + apply Lsum_ext; intros c Hc. destruct (Hs x c Hx Hc) as (Uo & Uv & M & _). rewrite <- img_oo. unfold add_oo. apply Sum_ext; intros i Hii. f_equal.
      rewrite (Sum_ext nocc _ (fun q => Doo nocc nvir x (g_self x) (thr x theta) (Lg xs) i q * i_go c Q q)) by (intros; rewrite Eo by auto; reflexivity).
      rewrite (Doo_child (i_go c) (i_gv c) x (g_self x) c) by auto. apply Doo_ext; auto.
  - intros A Q HA HQ. rewrite images_cons. cbn [Lsum]. f_equal.
    + rewrite <- img_vv. unfold add_vv. apply Sum_ext; intros i Hii. rewrite Ev by auto. f_equal. apply Dvv_ext; auto.
    + apply Lsum_ext; intros c Hc. destruct (Hs x c Hx Hc) as (Uo & Uv & M & _). rewrite <- img_vv. unfold add_vv. apply Sum_ext; intros i Hii. f_equal.
      rewrite (Sum_ext nvir _ (fun q => Dvv nocc nvir x (g_self x) (thr x theta) (Lg xs) i q * i_gv c Q q)) by (intros; rewrite Ev by auto; reflexivity).
      rewrite (Dvv_child (i_go c) (i_gv c) x (g_self x) c) by auto. apply Dvv_ext; auto.
  - intros I A HI HA. apply Lsum_ext; intros c Hc. rewrite add_ov_eq by auto. rewrite <- img_ov. unfold Sum2.
    apply Sum_ext; intros i Hii. apply Sum_ext; intros a Ha. f_equal. f_equal. apply Sum_ext; intros j Hj. apply Sum_ext; intros b Hb. rewrite Th by auto. f_equal.
    destruct (Mv c Hc) as [->|Hc']; [reflexivity|]. destruct (Hs x c Hx Hc') as (Uo & Uv & M & _). apply (l1c_child (i_go c) (i_gv c)); auto. eapply Hl1; eauto.
Qed.
Lemma outer_ok l : incl l xs -> forall a b o, exists doo dvv dov,
  fold_left (fun (acc : option (mat * mat * mat)) x =>
              match acc, pair_wf half late x with
              | Some (doo, dvv, dov), Some wx =>
                  let theta := cc_theta (M_Wf.t2 wx) in
                  match pairs half nocc nvir svd skip late tal xs x theta with
                  | None => None
                  | Some (doox, dvvx) =>
                      Some ((fun I Q => doo I Q + (add_oo nocc x (g_self x) true doox I Q + Lsum (g_children x) (fun c => add_oo nocc x c false doox I Q))),
                            (fun A Q => dvv A Q + (add_vv nvir x (g_self x) true dvvx A Q + Lsum (g_children x) (fun c => add_vv nvir x c false dvvx A Q))),
                            (fun I A => if with_t1 then dov I A + Lsum (images x) (fun c => add_ov half nocc nvir late x theta l1 c I A) else dov I A))
                  end
              | _, _ => None
              end) l (Some (a, b, o)) = Some (doo, dvv, dov) /\
  (forall I Q, (I < nocc)%nat -> (Q < nocc)%nat -> doo I Q = a I Q + Coo (Tg l) (Lg xs) I Q) /\
  (forall A Q, (A < nvir)%nat -> (Q < nvir)%nat -> dvv A Q = b A Q + Cvv (Tg l) (Lg xs) A Q) /\
  (with_t1 = true -> forall I A, (I < nocc)%nat -> (A < nvir)%nat -> dov I A = o I A + Cov (Tg l) l1 I A).
Proof.
  induction l as [|x l IH]; intros Hl' a b o; cbn [fold_left].
  - exists a, b, o. split; [reflexivity|]. unfold Tg, G2. cbn [Lsum]. split; [|split]; intros; rewrite ?Coo_zero, ?Cvv_zero, ?Cov_zero; ring.
  - destruct (frag_ok x (Hl' x (or_introl eq_refl))) as (w & doox & dvvx & Ew & Ep & Fo & Fv & Fov). rewrite Ew. cbv zeta. rewrite Ep.
    edestruct (IH (fun z Hz => Hl' z (or_intror Hz))) as (doo & dvv & dov & E1 & E2 & E3 & E4). do 3 eexists. split; [exact E1|].
    unfold Tg. split; [|split].
    + intros I Q HI HQ. rewrite E2, Fo by auto. unfold Tg. rewrite !Coo_G2. cbn [Lsum]. ring.
    + intros I Q HI HQ. rewrite E3, Fv by auto. unfold Tg. rewrite !Cvv_G2. cbn [Lsum]. ring.
    + intros W I A HI HA. rewrite E4, Fov by auto. unfold Tg. rewrite !Cov_G2. cbn [Lsum]. rewrite W. ring.
Qed.
End Outer.
End Fast.

(** *** Symmetric tensors *)
Lemma rs_exch x u i j a b : rs K half x u i j a b = rs K half x u j i b a.
Proof. unfold rs, cfa, cfb. ring. Qed.
Lemma lift2_exch x c (t : ten) I J A B : (forall i j a b, t i j a b = t j i b a) -> lift2 (K := K) x c t I J A B = lift2 x c t J I B A.
Proof.
  intros H. unfold lift2, Sum4, Sum2. transitivity (Sum (g_no x) (fun i => Sum (g_no x) (fun j => Sum (g_nv x) (fun a => Sum (g_nv x) (fun b => t j i b a * i_co c I i * i_co c J j * i_cv c A a * i_cv c B b))))).
  - p0. p0. p0. p0. rewrite (H i i0 i1 i2). reflexivity.
  - clear. push. reorder.
Qed.
Lemma G2_exch frags u I J A B : (forall x i j a b, u x i j a b = u x j i b a) -> G2 frags u I J A B = G2 frags u J I B A.
Proof. intros H. unfold G2. apply Lsum_ext; intros. apply Lsum_ext; intros. apply lift2_exch. auto. Qed.

(** *** Fragments visited without the use of symmetry *)
Definition flat (x : gfrag K) (c : image K) : gfrag K := {| g_nf := g_nf x; g_no := g_no x; g_nv := g_nv x; g_cf := g_cf x; g_pwf := g_pwf x; g_tal := g_tal x; g_self := c; g_children := [] |}.
Lemma loop_frags_in frags z : In z (loop_frags false frags) -> exists x c, In x frags /\ In c (images x) /\ z = flat x c.
Proof.
  unfold loop_frags. rewrite in_flat_map. intros (x & Hx & Hz). rewrite in_map_iff in Hz. destruct Hz as (c & <- & Hc). exists x, c. auto.
Qed.
Lemma loop_frags_G2 us frags (u : gfrag K -> ten) I J A B : (forall x c, u (flat x c) = u x) -> G2 (loop_frags us frags) u I J A B = G2 frags u I J A B.
Proof.
  intros H. destruct us; [reflexivity|]. unfold loop_frags, G2. rewrite Lsum_flat_map. apply Lsum_ext; intros x Hx. rewrite Lsum_map. apply Lsum_ext; intros c Hc.
  fold (flat x c). change (images (flat x c)) with [c]. cbn [Lsum]. rewrite H. assert (R : forall z : K, z + 0 = z) by (intros; ring). etransitivity; [apply R|]. reflexivity.
Qed.

(** ** C57: the fast density matrix is the one of the global amplitudes *)
Definition tal_consistent (tal : bool) (frags : list (gfrag K)) : Prop := tal = true \/ Forall (fun y => is_mp2 y = true \/ g_tal y = false) frags.
Lemma lam_src tal y : tal = true \/ is_mp2 y = true \/ g_tal y = false -> lam tal y = src2 y (negb tal).
Proof.
  intros H. unfold lam, src2. destruct tal; [reflexivity|]. cbn [orb negb andb]. destruct H as [H|[H|H]]; [discriminate|rewrite H|rewrite H].
  - destruct (g_tal y); [reflexivity|]. unfold pl2, pt2, is_mp2 in *. destruct (g_pwf y); [discriminate|reflexivity].
  - cbn [negb]. destruct (is_mp2 y) eqn:Em; [|reflexivity]. unfold pl2, pt2, is_mp2 in *. destruct (g_pwf y); [discriminate|reflexivity].
Qed.
Theorem C57_fast_is_slow : forall nocc nvir svd skip frags tal with_t1 use_sym late d,
  exact_svd K svd -> Forall projected frags -> Forall (insides nocc) frags -> skip_exact nocc nvir skip frags -> (use_sym = true -> symmetric nocc nvir frags) -> tal_consistent tal frags ->
  rdm1_slow half nocc nvir frags tal with_t1 = Some d ->
  exists d', rdm1_fast half nocc nvir svd skip frags tal with_t1 use_sym late = Some d' /\ forall p q, (p < nocc + nvir)%nat -> (q < nocc + nvir)%nat -> d' p q = d p q.
Proof.
  intros nocc nvir svd skip frags tal with_t1 use_sym late d Esvd Hp Hi Hk Hs Ht Ed. unfold rdm1_slow, global_l1, global_l2 in Ed.
  assert (A1 := global_t1_eq frags false Hp). assert (A2 := global_t2_eq frags false Hp). assert (A3 := global_t1_eq frags (negb tal) Hp). assert (A4 := global_t2_eq frags (negb tal) Hp).
  destruct (global_t1 half frags false false) as [t1|] eqn:E1; [|discriminate]. destruct (global_t2 half frags false false) as [t2|] eqn:E2; [|discriminate].
  assert (X1 : (if tal then Some t1 else global_t1 half frags (negb false) false) = global_t1 half frags (negb tal) false) by (destruct tal; auto).
  assert (X2 : (if tal then Some t2 else global_t2 half frags (negb false) false) = global_t2 half frags (negb tal) false) by (destruct tal; auto).
  rewrite X1, X2 in Ed. clear X1 X2.
  destruct (global_t1 half frags (negb tal) false) as [l1|] eqn:E3; [|discriminate]. destruct (global_t2 half frags (negb tal) false) as [l2|] eqn:E4; [|discriminate].
  destruct A1 as [_ A1], A2 as [_ A2], A3 as [_ A3], A4 as [N4 A4].
  set (xs := loop_frags use_sym frags).
  assert (Sub : forall z, In z xs -> exists x c, In x frags /\ (z = x /\ use_sym = true \/ In c (images x) /\ z = flat x c)).
  { intros z Hz. unfold xs in Hz. destruct use_sym; [exists z, (g_self z); auto|]. destruct (loop_frags_in frags z Hz) as (x & c & H). exists x, c. tauto. }
  rewrite Forall_forall in Hp, Hi, N4.
  assert (Hp' : Forall projected xs). { apply Forall_forall; intros z Hz. destruct (Sub z Hz) as (x & c & Hx & [[-> _]|[_ ->]]); [auto|]. exact (Hp x Hx). }
  assert (Hi' : Forall (insides nocc) xs). { apply Forall_forall; intros z Hz. destruct (Sub z Hz) as (x & c & Hx & [[-> _]|[Hc ->]]); [auto|]. intros c' [<-|[]]. exact (Hi x Hx c Hc). }
  assert (Hc1 : forall y, In y frags -> lam tal y = src2 y (negb tal)). { intros y Hy. apply lam_src. destruct Ht as [Ht|Ht]; [auto|]. rewrite Forall_forall in Ht. right. auto. }
  assert (Hl' : Forall (fun y => lam tal y <> None) xs).
  { apply Forall_forall; intros z Hz. destruct (Sub z Hz) as (x & c & Hx & [[-> _]|[Hc ->]]); [|change (lam tal (flat x c)) with (lam tal x)]; rewrite Hc1 by auto; auto. }
  assert (Hs' : symmetric nocc nvir xs).
  { unfold xs. destruct use_sym; [apply Hs; auto|]. intros z c Hz Hc. destruct (loop_frags_in frags z Hz) as (x & c' & _ & _ & ->). destruct Hc. }
  assert (Hk' : skip_exact nocc nvir skip xs).
  { intros z z' cz cz' Hz Hz' Ic Ic' Hsk. destruct (Sub z Hz) as (x & c & Hx & [[-> U]|[Hc ->]]); destruct (Sub z' Hz') as (x' & c' & Hx' & [[-> U']|[Hc' ->]]).
    - apply Hk; auto.
    - destruct Ic' as [<-|[]]. exact (Hk x x' cz c' Hx Hx' Ic Hc' Hsk).
    - destruct Ic as [<-|[]]. exact (Hk x x' c cz' Hx Hx' Hc Ic' Hsk).
    - destruct Ic as [<-|[]]. destruct Ic' as [<-|[]]. exact (Hk x x' c c' Hx Hx' Hc Hc' Hsk). }
  (* the amplitudes used by the fast algorithm *)
  set (t1' := if with_t1 then t1 else (fun _ _ => 0) : mat). set (l1' := if with_t1 then l1 else (fun _ _ => 0) : mat).
  assert (Et : (if with_t1 then global_t1 half frags false false else Some M_GlobalWf.zero1) = Some t1') by (unfold t1'; destruct with_t1; [exact E1|reflexivity]).
  assert (El : (if with_t1 then global_l1 half frags tal false else Some M_GlobalWf.zero1) = Some l1') by (unfold l1', global_l1; destruct with_t1; [exact E3|reflexivity]).
  assert (Hl1 : forall x c, In x xs -> In c (g_children x) -> inv1 nocc nvir (i_go c) (i_gv c) l1').
  { intros x c Hx Hc I A HI HA. unfold l1'. destruct with_t1; [|symmetry; apply Sum_0; intros; apply Sum_0; intros; ring]. rewrite A3.
    assert (V := G1_inv nocc nvir frags (fun x => rs1 x (get1 (src1 x (negb tal)))) x c). unfold xs in Hx. destruct use_sym.
    - rewrite (V (Hs eq_refl) Hx Hc I A HI HA). apply Sum_ext; intros. apply Sum_ext; intros. rewrite A3. reflexivity.
    - destruct (loop_frags_in frags x Hx) as (x' & c' & _ & _ & ->). destruct Hc. }
  destruct (outer_ok nocc nvir svd skip Esvd late tal xs with_t1 l1' Hp' Hi' Hl' Hs' Hk' Hl1 xs (incl_refl _) M_GlobalWf.zero1 M_GlobalWf.zero1 M_GlobalWf.zero1) as (doo & dvv & dov & Ef & Fo & Fv & Fov).
  unfold rdm1_fast. rewrite Et, El. fold xs. cbv zeta. cbv zeta in Ef. unfold fold_left in *. rewrite Ef. clear Ef Et El.
  (* global tensors *)
  assert (ET : forall I J A B, Tg xs I J A B = cc_theta t2 I J A B).
  { intros. unfold Tg, xs. rewrite loop_frags_G2 by reflexivity. unfold cc_theta at 2. rewrite !A2.
    transitivity (G2 frags (fun x => cc_theta (rs K half x (get2 (src2 x false)))) I J A B).
    - apply G2_ext. intros. rewrite theta_rs. reflexivity.
    - unfold G2. rewrite <- Lsum_mul_l, <- Lsum_sub. apply Lsum_ext; intros x Hx. rewrite <- Lsum_mul_l, <- Lsum_sub. apply Lsum_ext; intros c Hc.
      unfold lift2, Sum4, Sum2, cc_theta. generalize (rs K half x (get2 (src2 x false))). clear. intros t.
      transitivity (two * Sum (g_no x) (fun i => Sum (g_no x) (fun j => Sum (g_nv x) (fun a => Sum (g_nv x) (fun b => t i j a b * i_co c I i * i_co c J j * i_cv c A a * i_cv c B b))))
        - Sum (g_no x) (fun i => Sum (g_no x) (fun j => Sum (g_nv x) (fun b => Sum (g_nv x) (fun a => t i j a b * i_co c I i * i_co c J j * i_cv c B a * i_cv c A b))))).
      + rewrite <- Sum_mul_l, <- Sum_sub. apply Sum_ext; intros i _. rewrite <- Sum_mul_l, <- Sum_sub. apply Sum_ext; intros j _.
        rewrite <- Sum_mul_l, <- Sum_sub. apply Sum_ext; intros a _. rewrite <- Sum_mul_l, <- Sum_sub. apply Sum_ext; intros b _. ring.
      + f_equal. reorder. }
  assert (EL : forall I J A B, Lg tal xs I J A B = l2 I J A B).
  { intros. unfold Lg, xs. rewrite loop_frags_G2 by reflexivity. rewrite A4. apply G2_ext. intros x Hx i j a b _ _ _ _. rewrite Hc1 by auto. reflexivity. }
  assert (Sl : forall I J A B, l2 I J A B = l2 J I B A) by (intros; rewrite !A4; apply G2_exch; intros; apply rs_exch).
  assert (St : forall I J A B, cc_theta t2 I J A B = cc_theta t2 J I B A).
  { intros. unfold cc_theta. rewrite !A2. rewrite (G2_exch frags _ I J A B), (G2_exch frags _ I J B A) by (intros; apply rs_exch). reflexivity. }
  assert (Ro : forall I Q, (I < nocc)%nat -> (Q < nocc)%nat -> doo I Q = - Sum nocc (fun k => Sum nvir (fun a => Sum nvir (fun b => cc_theta t2 I k a b * l2 Q k a b)))).
  { intros I Q HI HQ. rewrite Fo by auto. unfold M_GlobalWf.zero1, Coo. transitivity (- Sum nocc (fun k => Sum nvir (fun a => Sum nvir (fun b => Tg xs I k a b * Lg tal xs Q k a b)))); [ring|].
    f_equal. p0. p0. p0. rewrite ET, EL. reflexivity. }
  assert (Rv : forall A Q, (A < nvir)%nat -> (Q < nvir)%nat -> dvv A Q = Sum nocc (fun I => Sum nocc (fun J => Sum nvir (fun B => cc_theta t2 I J B A * l2 I J B Q)))).
  { intros A Q HA HQ. rewrite Fv by auto. unfold M_GlobalWf.zero1, Cvv. transitivity (Sum nocc (fun I => Sum nocc (fun J => Sum nvir (fun B => Tg xs I J B A * Lg tal xs I J B Q)))); [ring|].
    p0. p0. p0. rewrite ET, EL. reflexivity. }
  assert (Rov : with_t1 = true -> forall I A, (I < nocc)%nat -> (A < nvir)%nat -> dov I A = Sum nocc (fun J => Sum nvir (fun B => cc_theta t2 I J A B * l1 J B))).
  { intros W I A HI HA. rewrite (Fov W) by auto. unfold M_GlobalWf.zero1, Cov, l1'. rewrite W. transitivity (Sum nocc (fun J => Sum nvir (fun B => Tg xs I J A B * l1 J B))); [ring|].
    p0. p0. rewrite ET. reflexivity. }
  assert (Z : forall p, (p < nocc + nvir)%nat -> (p <? nocc)%nat = false -> (p - nocc < nvir)%nat) by (intros p Hpp Hlt; apply Nat.ltb_ge in Hlt; lia).
  destruct with_t1.
  - eexists. split; [reflexivity|]. injection Ed as <-. intros p q Hpp Hq. subst t1' l1'. cbv beta iota zeta. unfold cc_rdm1, cc_gamma1, blocks, symm, mtrans. cbn [g_oo g_ov g_vo g_vv].
    assert (OV : forall i a, (i < nocc)%nat -> (a < nvir)%nat -> dov i a + (t1 i a + l1 i a - Sum2 nvir nocc (fun e m => t1 i e * l1 m e * t1 m a)) + Sum nocc (fun m => doo i m * t1 m a) - Sum nvir (fun e => t1 i e * dvv a e)
      = l1 i a + (t1 i a - Sum nocc (fun m => Sum nvir (fun e => t1 i e * l1 m e) * t1 m a) + Sum nocc (fun m => Sum nvir (fun e => cc_theta t2 i m a e * l1 m e))
          - Sum nocc (fun m => Sum nocc (fun k => Sum nvir (fun e => Sum nvir (fun f => l2 m k e f * cc_theta t2 i k e f))) * t1 m a)
          - Sum nvir (fun e => t1 i e * Sum nocc (fun m => Sum nocc (fun k => Sum nvir (fun f => l2 m k e f * cc_theta t2 m k a f)))))).
    { intros i a Hii Ha. rewrite (Rov eq_refl) by auto.
      rewrite (Sum_ext nocc (fun m => doo i m * t1 m a) (fun m => - (Sum nocc (fun k => Sum nvir (fun e => Sum nvir (fun f => l2 m k e f * cc_theta t2 i k e f))) * t1 m a))).
      2:{ intros m Hm. rewrite Ro by auto. assert (D : forall u v w : K, u = v -> - u * w = - (v * w)) by (intros u v w ->; ring). apply D. p0. p0. p0. ring. }
      rewrite Sum_opp.
      rewrite (Sum_ext nvir (fun e => t1 i e * dvv a e) (fun e => t1 i e * Sum nocc (fun m => Sum nocc (fun k => Sum nvir (fun f => l2 m k e f * cc_theta t2 m k a f))))).
      2:{ intros e He. rewrite Rv by auto. f_equal. transitivity (Sum nocc (fun I => Sum nocc (fun J => Sum nvir (fun B => l2 J I e B * cc_theta t2 J I a B)))).
          - p0. p0. p0. rewrite (St i0 i1 i2 a), (Sl i0 i1 i2 e). ring.
          - clear. reorder. }
      assert (X : Sum2 nvir nocc (fun e m => t1 i e * l1 m e * t1 m a) = Sum nocc (fun m => Sum nvir (fun e => t1 i e * l1 m e) * t1 m a)) by (clear; unfold Sum2; push; reorder).
      rewrite X. ring. }
    destruct (p <? nocc)%nat eqn:Ep, (q <? nocc)%nat eqn:Eq.
    + apply Nat.ltb_lt in Ep, Eq. rewrite !Ro by auto. ring.
    + apply Nat.ltb_lt in Ep. apply OV; auto.
    + apply Nat.ltb_lt in Eq. apply OV; auto.
    + rewrite !Rv by auto. ring.
  - eexists. split; [reflexivity|]. injection Ed as <-. intros p q Hpp Hq. subst t1' l1'. cbv beta iota zeta. unfold cc_rdm1, cc_gamma1, blocks, symm, mtrans. cbn [g_oo g_ov g_vo g_vv]. unfold M_GlobalWf.zero1.
    assert (OV : forall i a, 0 = 0 + (0 - Sum nocc (fun m => Sum nvir (fun e => 0 * 0) * 0) + Sum nocc (fun m => Sum nvir (fun e => cc_theta t2 i m a e * 0))
          - Sum nocc (fun m => Sum nocc (fun k => Sum nvir (fun e => Sum nvir (fun f => l2 m k e f * cc_theta t2 i k e f))) * 0)
          - Sum nvir (fun e => 0 * Sum nocc (fun m => Sum nocc (fun k => Sum nvir (fun f => l2 m k e f * cc_theta t2 m k a f)))))).
    { intros i a. rewrite !Sum_0; [ring|intros; ring..| |]; intros; try ring. apply Sum_0; intros; ring. }
    destruct (p <? nocc)%nat eqn:Ep, (q <? nocc)%nat eqn:Eq.
    + apply Nat.ltb_lt in Ep, Eq. rewrite !Ro by auto. rewrite (Sum_0 nvir (fun a => 0 * 0)) by (intros; ring). ring.
    + apply OV.
    + apply OV.
    + rewrite !Rv by auto. rewrite (Sum_0 nocc (fun a => 0 * 0)) by (intros; ring). ring.
Qed.
End P.
