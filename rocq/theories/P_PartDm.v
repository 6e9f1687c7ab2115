(** Properties C58 (electron number and symmetry of the density matrices built from single clusters) and C59 (they are the density matrix of the system in the limit
    of a full bath): statements on M_PartDm.v. *)
From Coq Require Import List Arith Bool Lia ZArith QArith Qcanon Ring Setoid Morphisms Permutation.
From Verif Require Import Alg Pull M_Wf M_Eris M_Rdm M_GlobalWf M_PartDm P_GlobalPairs P_GlobalWf P_GlobalAmp P_Rdm P_Lift.
Import ListNotations.

Section P.
Context (K : cring).
Add Ring Kr : (rth K).
Open Scope K_scope.
Variable half : K.
Hypothesis Hhalf : half + half = 1.
Notation mat := (nat -> nat -> K).
Notation ten := (nat -> nat -> nat -> nat -> K).
Notation gfrag := (M_GlobalWf.gfrag K).
Notation image := (M_GlobalWf.image K).
Variables nocc nvir : nat.

Lemma some_inj {A} (a b : A) : Some a = Some b -> a = b.
Proof. intros E; injection E; auto. Qed.
(** ** The loop over the fragments *)
Definition th (x : gfrag) : ten := cc_theta (pt2 K x).
Definition get (o : option ten) : ten := match o with Some t => t | None => fun _ _ _ _ => 0 end.
Definition all (frags : list gfrag) (f : gfrag -> image -> K) : K := Lsum frags (fun x => Lsum (images x) (f x)).
Lemma all_ext frags f g : (forall x c, In x frags -> In c (images x) -> f x c = g x c) -> all frags f = all frags g.
Proof. intros H. apply Lsum_ext; intros x Hx. apply Lsum_ext; intros c Hc. auto. Qed.
Lemma all_add frags f g : all frags (fun x c => f x c + g x c) = all frags f + all frags g.
Proof. unfold all. rewrite <- Lsum_add. apply Lsum_ext; intros. apply Lsum_add. Qed.
Lemma all_mul_r frags f k : all frags (fun x c => f x c * k) = all frags f * k.
Proof. unfold all. rewrite <- Lsum_mul_r. apply Lsum_ext; intros. apply Lsum_mul_r. Qed.
Lemma all_Sum frags n f : all frags (fun x c => Sum n (fun i => f x c i)) = Sum n (fun i => all frags (fun x c => f x c i)).
Proof. unfold all. rewrite <- Lsum_Sum. apply Lsum_ext; intros. apply Lsum_Sum. Qed.

Section Loop.
Variables (tal symmetrize mp2 : bool) (l1 : mat).
Notation L2 x := (get (part_l2 x tal)).
Definition Aoo frags : mat := fun I J => all frags (fun x c => part_oo x c (th x) (L2 x) I J).
Definition Avv frags : mat := fun A B => all frags (fun x c => if symmetrize then part_vv x c (th x) (L2 x) A B * half + part_vv' x c (th x) (L2 x) A B * half else part_vv x c (th x) (L2 x) A B).
Definition Aov frags : mat := fun I A => all frags (fun x c => if mp2 then 0 else if symmetrize then part_ov nocc nvir x c (th x) l1 I A * half + part_ov' nocc nvir x c (th x) l1 I A * half else part_ov nocc nvir x c (th x) l1 I A).
Lemma images_loop x l cs d :
  let d' := fold_left (fun d c => part_step half nocc nvir symmetrize mp2 x c l l1 d) cs d in
  (forall I J, q_oo d' I J = q_oo d I J - Lsum cs (fun c => part_oo x c (th x) l I J)) /\
  (forall A B, q_vv d' A B = q_vv d A B + Lsum cs (fun c => if symmetrize then part_vv x c (th x) l A B * half + part_vv' x c (th x) l A B * half else part_vv x c (th x) l A B)) /\
  (forall I A, q_ov d' I A = q_ov d I A + Lsum cs (fun c => if mp2 then 0 else if symmetrize then part_ov nocc nvir x c (th x) l1 I A * half + part_ov' nocc nvir x c (th x) l1 I A * half else part_ov nocc nvir x c (th x) l1 I A)).
Proof.
  revert d. induction cs as [|c cs IH]; intros d; cbn [fold_left Lsum].
  - repeat split; intros; ring.
  - destruct (IH (part_step half nocc nvir symmetrize mp2 x c l l1 d)) as (H1 & H2 & H3). clear IH. split; [|split]; intros.
    + rewrite H1. unfold part_step, th, pt2. cbn [q_oo]. ring.
    + rewrite H2. unfold part_step, th, pt2. cbn [q_vv]. destruct symmetrize; ring.
    + rewrite H3. unfold part_step, th, pt2. cbn [q_ov]. destruct mp2, symmetrize; ring.
Qed.
Lemma loop_none frags : fold_left (fun (acc : option (parts K)) x => match acc, part_l2 x tal with Some d, Some l => Some (fold_left (fun d c => part_step half nocc nvir symmetrize mp2 x c l l1 d) (images x) d) | _, _ => None end) frags None = None.
Proof. induction frags; auto. Qed.
Lemma loop_eq frags : match part_loop half nocc nvir frags tal symmetrize mp2 l1 with
  | Some d => Forall (fun x => part_l2 x tal <> None) frags /\ (forall I J, q_oo d I J = - Aoo frags I J) /\ (forall A B, q_vv d A B = Avv frags A B) /\ (forall I A, q_ov d I A = Aov frags I A)
  | None => Exists (fun x => part_l2 x tal = None) frags
  end.
Proof.
  unfold part_loop.
  assert (Z : forall l d0, match fold_left (fun (acc : option (parts K)) x => match acc, part_l2 x tal with Some d, Some l => Some (fold_left (fun d c => part_step half nocc nvir symmetrize mp2 x c l l1 d) (images x) d) | _, _ => None end) l (Some d0) with
    | Some d => Forall (fun x => part_l2 x tal <> None) l /\ (forall I J, q_oo d I J = q_oo d0 I J - Aoo l I J) /\ (forall A B, q_vv d A B = q_vv d0 A B + Avv l A B) /\ (forall I A, q_ov d I A = q_ov d0 I A + Aov l I A)
    | None => Exists (fun x => part_l2 x tal = None) l end).
  { induction l as [|x l IH]; intros d0; cbn [fold_left].
    - split; [constructor|]. unfold Aoo, Avv, Aov, all. cbn [Lsum]. repeat split; intros; ring.
    - destruct (part_l2 x tal) as [u|] eqn:E.
      + specialize (IH (fold_left (fun d c => part_step half nocc nvir symmetrize mp2 x c u l1 d) (images x) d0)).
        destruct (fold_left _ l _) as [d|].
        * destruct IH as (H0 & H1 & H2 & H3). split; [constructor; [congruence|auto]|].
          destruct (images_loop x u (images x) d0) as (I1 & I2 & I3).
          unfold Aoo, Avv, Aov, all in *. cbn [Lsum]. split; [|split]; intros.
          -- rewrite H1, I1, E. cbn [get]. ring.
          -- rewrite H2, I2, E. cbn [get]. ring.
          -- rewrite H3, I3. ring.
        * apply Exists_cons_tl. exact IH.
      + rewrite loop_none. apply Exists_cons_hd. exact E. }
  specialize (Z frags (parts0 (K := K))). destruct (fold_left _ frags _) as [d|]; [|exact Z].
  destruct Z as (H0 & H1 & H2 & H3). split; [auto|]. cbn [parts0 q_oo q_vv q_ov] in *. repeat split; intros; [rewrite H1|rewrite H2|rewrite H3]; ring.
Qed.
End Loop.

(** ** C58: number of electrons, for any bath *)
(** Cluster orbitals are orthonormal. *)
Definition isometric (n m : nat) (c : mat) : Prop := forall i j, (i < m)%nat -> (j < m)%nat -> Sum n (fun P => c P i * c P j) = delta i j.
Definition orthonormal (frags : list gfrag) : Prop := forall x c, In x frags -> In c (images x) -> isometric nocc (g_no x) (i_co c) /\ isometric nvir (g_nv x) (i_cv c).
Lemma trace_iso n m (c : mat) (f : mat) : isometric n m c -> Sum n (fun P => Sum m (fun i => Sum m (fun j => f i j * c P i * c P j))) = Sum m (fun i => f i i).
Proof.
  intros H. transitivity (Sum m (fun i => Sum m (fun j => f i j * Sum n (fun P => c P i * c P j)))).
  - clear. push. reorder.
  - apply Sum_ext; intros i Hi. rewrite (Sum_ext m _ (fun j => delta i j * f i j)) by (intros; rewrite H by auto; ring).
    apply (Sum_delta_l m i (fun j => f i j) Hi).
Qed.
Definition dotp (x : gfrag) (t l : ten) : K := Sum (g_nf x) (fun k => Sum (g_no x) (fun i => Sum (g_nv x) (fun b => Sum (g_nv x) (fun a => t k i b a * l k i b a)))).
Lemma trace_oo x c (t l : ten) : isometric nocc (g_no x) (i_co c) -> Sum nocc (fun I => part_oo x c t l I I) = dotp x t l.
Proof.
  intros H. transitivity (Sum (g_nf x) (fun k => Sum (g_nv x) (fun b => Sum (g_nv x) (fun a => Sum nocc (fun I => Sum (g_no x) (fun i => Sum (g_no x) (fun j => (t k i b a * l k j b a) * i_co c I i * i_co c I j))))))).
  - clear. unfold part_oo. reorder.
  - transitivity (Sum (g_nf x) (fun k => Sum (g_nv x) (fun b => Sum (g_nv x) (fun a => Sum (g_no x) (fun i => t k i b a * l k i b a))))).
    + p0. p0. p0. apply (trace_iso nocc (g_no x) (i_co c) (fun i j => t _ i _ _ * l _ j _ _) H).
    + clear. unfold dotp. reorder.
Qed.
Lemma trace_vv x c (t l : ten) : isometric nvir (g_nv x) (i_cv c) -> Sum nvir (fun A => part_vv x c t l A A) = dotp x t l.
Proof.
  intros H. transitivity (Sum (g_nf x) (fun i => Sum (g_no x) (fun j => Sum (g_nv x) (fun e => Sum nvir (fun A => Sum (g_nv x) (fun a => Sum (g_nv x) (fun b => (t i j e a * l i j e b) * i_cv c A a * i_cv c A b))))))).
  - clear. unfold part_vv. reorder.
  - unfold dotp. p0. p0. p0. apply (trace_iso nvir (g_nv x) (i_cv c) (fun a b => t _ _ _ a * l _ _ _ b) H).
Qed.
Lemma trace_vv' x c (t l : ten) : isometric nvir (g_nv x) (i_cv c) -> Sum nvir (fun A => part_vv' x c t l A A) = dotp x t l.
Proof.
  intros H. transitivity (Sum (g_nf x) (fun i => Sum (g_no x) (fun j => Sum (g_nv x) (fun e => Sum nvir (fun A => Sum (g_nv x) (fun a => Sum (g_nv x) (fun b => (t i j a e * l i j b e) * i_cv c A a * i_cv c A b))))))).
  - clear. unfold part_vv'. reorder.
  - transitivity (Sum (g_nf x) (fun i => Sum (g_no x) (fun j => Sum (g_nv x) (fun e => Sum (g_nv x) (fun a => t i j a e * l i j a e))))).
    + p0. p0. p0. apply (trace_iso nvir (g_nv x) (i_cv c) (fun a b => t _ _ a _ * l _ _ b _) H).
    + clear. unfold dotp. reorder.
Qed.
Lemma trace_parts' frags tal sy mp2 l1 d : orthonormal frags -> part_loop half nocc nvir frags tal sy mp2 l1 = Some d -> Sum nocc (fun I => q_oo d I I) = - Sum nvir (fun A => q_vv d A A).
Proof.
  intros Ho E. assert (Z := loop_eq tal sy mp2 l1 frags). rewrite E in Z. destruct Z as (_ & H1 & H2 & _).
  rewrite (Sum_ext nocc _ (fun I => - Aoo tal frags I I)) by (intros; apply H1). rewrite Sum_opp. rewrite (Sum_ext nvir _ (fun A => Avv tal sy frags A A)) by (intros; apply H2).
  f_equal. unfold Aoo, Avv. rewrite <- !all_Sum. apply all_ext. intros x c Hx Hc. destruct (Ho x c Hx Hc) as [Io Iv]. rewrite (trace_oo x c _ _ Io). destruct sy.
  - rewrite Sum_add, !Sum_mul_r, (trace_vv x c _ _ Iv), (trace_vv' x c _ _ Iv). transitivity ((half + half) * dotp x (th x) (get (part_l2 x tal))); [rewrite Hhalf|]; ring.
  - rewrite (trace_vv x c _ _ Iv). reflexivity.
Qed.
Lemma singles_trace t1 l1 (d : parts K) : Sum nocc (fun I => q_oo d I I) = - Sum nvir (fun A => q_vv d A A) ->
  Sum nocc (fun I => q_oo (part_singles nocc nvir t1 l1 d) I I) = - Sum nvir (fun A => q_vv (part_singles nocc nvir t1 l1 d) A A).
Proof.
  intros H. cbn [part_singles q_oo q_vv]. rewrite Sum_sub, Sum_add, H. rewrite (Sum_swap nvir nocc (fun A I => t1 I A * l1 I A)).
  rewrite (Sum_ext nocc (fun i => Sum nvir (fun A => l1 i A * t1 i A)) (fun i => Sum nvir (fun A => t1 i A * l1 i A))) by (intros; apply Sum_ext; intros; ring). ring.
Qed.
Lemma assemble_rdm1 (d : parts K) mp2 mf : forall p q, part_assemble nocc d mp2 mf p q =
  cc_rdm1 nocc {| g_oo := q_oo d; g_ov := if mp2 then fun _ _ => 0 else q_ov d; g_vo := fun _ _ => 0; g_vv := q_vv d |} mf p q.
Proof.
  intros p q. unfold part_assemble, cc_rdm1. cbn [g_oo g_ov g_vo g_vv].
  assert (E : forall p q, blocks nocc (symm (q_oo d)) (if mp2 then fun _ _ => 0 else q_ov d) (mtrans (if mp2 then fun _ _ => 0 else q_ov d)) (symm (q_vv d)) p q =
    blocks nocc (symm (q_oo d)) (fun i a => (if mp2 then fun _ _ => 0 else q_ov d) i a + 0) (mtrans (fun i a => (if mp2 then fun _ _ => 0 else q_ov d) i a + 0)) (symm (q_vv d)) p q).
  { intros. unfold blocks, mtrans. destruct (_ <? _)%nat, (_ <? _)%nat; try reflexivity; ring. }
  destruct mf; [unfold add_diag; rewrite E; reflexivity|apply E].
Qed.
Lemma assemble_trace (d : parts K) mp2 mf : Sum nocc (fun I => q_oo d I I) = - Sum nvir (fun A => q_vv d A A) ->
  trace (nocc + nvir) (part_assemble nocc d mp2 mf) = if mf then two * nK nocc else 0.
Proof.
  intros H. transitivity (trace (nocc + nvir) (cc_rdm1 nocc {| g_oo := q_oo d; g_ov := if mp2 then fun _ _ => 0 else q_ov d; g_vo := fun _ _ => 0; g_vv := q_vv d |} mf)).
  - unfold trace. apply Sum_ext; intros. apply assemble_rdm1.
  - rewrite trace_parts. destruct (cc_rdm1_parts nocc nvir {| g_oo := q_oo d; g_ov := if mp2 then fun _ _ => 0 else q_ov d; g_vo := fun _ _ => 0; g_vv := q_vv d |} mf) as (-> & ->).
    cbn [g_oo g_vv]. rewrite H. destruct mf; ring.
Qed.
Theorem C58_electrons : forall frags tal sy mf mp2 d, orthonormal frags -> part_rdm1 half nocc nvir frags tal sy mf mp2 = Some d ->
  trace (nocc + nvir) d = if mf then two * nK nocc else 0.
Proof.
  intros frags tal sy mf mp2 d Ho. unfold part_rdm1. destruct mp2.
  - destruct (part_loop half nocc nvir frags true sy true _) as [e|] eqn:E; [|discriminate]. intros X; injection X as <-. apply assemble_trace. eapply trace_parts'; eauto.
  - destruct (global_t1 half frags false false) as [t1|]; [|discriminate]. destruct (if tal then _ else _) as [l1|]; [|discriminate].
    destruct (part_loop half nocc nvir frags tal sy false l1) as [e|] eqn:E; [|discriminate]. intros X; injection X as <-. apply assemble_trace. apply singles_trace. eapply trace_parts'; eauto.
Qed.
Theorem C58_symmetric : forall frags tal sy mf mp2 d, part_rdm1 half nocc nvir frags tal sy mf mp2 = Some d -> forall p q, d p q = d q p.
Proof.
  assert (A : forall d mp2 mf p q, part_assemble nocc d mp2 mf p q = part_assemble nocc d mp2 mf q p) by (intros; rewrite !assemble_rdm1; apply C44_ccsd_symmetric).
  intros frags tal sy mf mp2 d. unfold part_rdm1. destruct mp2.
  - destruct (part_loop half nocc nvir frags true sy true _) as [e|]; [|discriminate]. intros X; injection X as <-. intros. apply A.
  - destruct (global_t1 half frags false false) as [t1|]; [|discriminate]. destruct (if tal then _ else _) as [l1|]; [|discriminate].
    destruct (part_loop half nocc nvir frags tal sy false l1) as [e|]; [|discriminate]. intros X; injection X as <-. intros. apply A.
Qed.

(** *** Projected Lambda amplitudes *)
Definition dm1_of (x : pfrag K) (tal st : bool) : mat := match fragment_dm1 half x tal st with Some d => d | None => fun _ _ => 0 end.
Definition gfrags (frags : list (pfrag K)) : list gfrag := map (p_frag (K := K)) frags.
Definition allp (frags : list (pfrag K)) (f : pfrag K -> image -> K) : K := Lsum frags (fun x => Lsum (images x) (f x)).
Lemma proj_eq frags tal mf st : match proj_rdm1 half nocc frags tal mf st with
  | Some d => Forall (fun x => fragment_dm1 half x tal st <> None) frags /\
      forall P Q, d P Q = (if mf then add_diag nocc two (fun P Q => allp frags (fun x c => lift_dm1 nocc x c (dm1_of x tal st) P Q)) else (fun P Q => allp frags (fun x c => lift_dm1 nocc x c (dm1_of x tal st) P Q))) P Q
  | None => Exists (fun x => fragment_dm1 half x tal st = None) frags
  end.
Proof.
  unfold proj_rdm1.
  set (step := fun (acc : option mat) (x : pfrag K) => match acc, fragment_dm1 half x tal st with Some m, Some d => Some (fun P Q => m P Q + Lsum (images x) (fun c => lift_dm1 nocc x c d P Q)) | _, _ => None end).
  assert (N : forall l, fold_left step l None = None) by (induction l; auto).
  assert (Z : forall l m0, match fold_left step l (Some m0) with
    | Some m => Forall (fun x => fragment_dm1 half x tal st <> None) l /\ forall P Q, m P Q = m0 P Q + allp l (fun x c => lift_dm1 nocc x c (dm1_of x tal st) P Q)
    | None => Exists (fun x => fragment_dm1 half x tal st = None) l end).
  { induction l as [|x l IH]; intros m0; cbn [fold_left].
    - split; [constructor|]. intros. unfold allp. cbn [Lsum]. ring.
    - unfold step at 2. destruct (fragment_dm1 half x tal st) as [d|] eqn:E.
      + specialize (IH (fun P Q => m0 P Q + Lsum (images x) (fun c => lift_dm1 nocc x c d P Q))). destruct (fold_left step l _) as [m|].
        * destruct IH as (H0 & H1). split; [constructor; [congruence|auto]|]. intros. rewrite H1. unfold allp. cbn [Lsum]. unfold dm1_of at 2. rewrite E. ring.
        * apply Exists_cons_tl. exact IH.
      + rewrite N. apply Exists_cons_hd. exact E. }
  specialize (Z frags (fun _ _ => 0)). destruct (fold_left step frags _) as [m|]; [|exact Z]. destruct Z as (H0 & H1). split; [auto|]. intros P Q.
  destruct mf; [unfold add_diag; destruct (_ && _)|]; rewrite H1; ring.
Qed.
Lemma mo_isometric x c : isometric nocc (g_no x) (i_co c) -> isometric nvir (g_nv x) (i_cv c) -> isometric (nocc + nvir) (g_no x + g_nv x) (mo_cluster nocc x c).
Proof.
  intros Ho Hv i j Hi Hj. rewrite Sum_split.
  assert (A : forall P, (nocc + P <? nocc)%nat = false) by (intros; apply Nat.ltb_ge; lia).
  assert (B : forall P, (nocc + P - nocc = P)%nat) by (intros; lia).
  unfold mo_cluster. destruct (i <? g_no x)%nat eqn:Ei, (j <? g_no x)%nat eqn:Ej;
    repeat match goal with H : (_ <? _)%nat = true |- _ => apply Nat.ltb_lt in H | H : (_ <? _)%nat = false |- _ => apply Nat.ltb_ge in H end.
  - rewrite (Sum_ext nocc _ (fun P => i_co c P i * i_co c P j)) by (intros P HP; rewrite (proj2 (Nat.ltb_lt P nocc) HP); reflexivity).
    rewrite Ho by auto. rewrite Sum_0; [ring|]. intros. rewrite A. ring.
  - rewrite (Sum_0 nocc), (Sum_0 nvir); [|intros P HP; rewrite A; ring|intros P HP; destruct (P <? nocc)%nat; ring]. unfold delta. rewrite (proj2 (Nat.eqb_neq i j)) by lia. ring.
  - rewrite (Sum_0 nocc), (Sum_0 nvir); [|intros P HP; rewrite A; ring|intros P HP; destruct (P <? nocc)%nat; ring]. unfold delta. rewrite (proj2 (Nat.eqb_neq i j)) by lia. ring.
  - rewrite (Sum_0 nocc) by (intros P HP; rewrite (proj2 (Nat.ltb_lt P nocc) HP); ring).
    rewrite (Sum_ext nvir _ (fun P => i_cv c P (i - g_no x)%nat * i_cv c P (j - g_no x)%nat)) by (intros P HP; rewrite A, B; reflexivity).
    rewrite Hv by lia. unfold delta. destruct (Nat.eqb_spec i j) as [->|N]; [rewrite Nat.eqb_refl; ring|]. rewrite (proj2 (Nat.eqb_neq (i - g_no x) (j - g_no x))) by lia. ring.
Qed.
Lemma trace_lift x c d : isometric nocc (g_no x) (i_co c) -> isometric nvir (g_nv x) (i_cv c) -> Sum (nocc + nvir) (fun P => lift_dm1 nocc x c d P P) = Sum (g_no x + g_nv x) (fun p => d p p).
Proof.
  intros Ho Hv. rewrite <- (trace_iso _ _ _ d (mo_isometric x c Ho Hv)). unfold lift_dm1. p0. p0. p0. ring.
Qed.
Lemma fragment_trace x tal st d : fragment_dm1 half x tal st = Some d -> Sum (g_no x + g_nv x) (fun p => d p p) = 0.
Proof.
  unfold fragment_dm1, proj_gamma1. destruct (amps_for_dm half x tal st) as [a|]; [|discriminate]. destruct (a_l1x a) as [l1x|]; [|discriminate]. destruct (a_l2x a) as [l2x|]; [|discriminate].
  cbn [option_map]. intros X. apply some_inj in X. subst d. match goal with |- context [cc_rdm1 _ ?h _] => set (g := h) end.
  change (trace (g_no x + g_nv x) (cc_rdm1 (g_no x) g false) = 0). rewrite trace_parts. destruct (cc_rdm1_parts (g_no x) (g_nv x) g false) as (-> & ->). unfold g. cbn [g_oo g_vv].
  rewrite cc_gamma1_trace. ring.
Qed.
Theorem C58_projected_electrons : forall frags tal mf st d, orthonormal (gfrags frags) -> proj_rdm1 half nocc frags tal mf st = Some d -> trace (nocc + nvir) d = if mf then two * nK nocc else 0.
Proof.
  intros frags tal mf st d Ho E. assert (Z := proj_eq frags tal mf st). rewrite E in Z. destruct Z as (HF & H).
  assert (T0 : Sum (nocc + nvir) (fun P => allp frags (fun x c => lift_dm1 nocc x c (dm1_of x tal st) P P)) = 0).
  { unfold allp. rewrite <- Lsum_Sum. apply Lsum_0. intros x Hx. rewrite <- Lsum_Sum. apply Lsum_0. intros c Hc.
    destruct (Ho x c) as [Io Iv]; [apply in_map; auto|auto|]. rewrite (trace_lift x c _ Io Iv). rewrite Forall_forall in HF. specialize (HF x Hx). unfold dm1_of.
    destruct (fragment_dm1 half x tal st) as [e|] eqn:Ee; [|congruence]. eapply fragment_trace; eauto. }
  unfold trace. rewrite (Sum_ext _ _ _ (fun P _ => H P P)). destruct mf; [|exact T0].
  rewrite (Sum_ext _ _ (fun P => allp frags (fun x c => lift_dm1 nocc x c (dm1_of x tal st) P P) + (if (P <? nocc)%nat then two else 0))).
  - rewrite Sum_add, T0, Sum_split. rewrite (Sum_ext nocc (fun i => if (i <? nocc)%nat then two else 0) (fun _ => two)) by (intros i Hi; rewrite (proj2 (Nat.ltb_lt i nocc) Hi); reflexivity).
    rewrite (Sum_0 nvir) by (intros i Hi; rewrite (proj2 (Nat.ltb_ge (nocc + i) nocc)) by lia; reflexivity). rewrite Sum_const. ring.
  - intros P HP. unfold add_diag. rewrite Nat.eqb_refl. cbn [andb]. destruct (P <? nocc)%nat; ring.
Qed.
Theorem C58_projected_symmetric : forall frags tal mf st d, proj_rdm1 half nocc frags tal mf st = Some d -> forall P Q, d P Q = d Q P.
Proof.
  intros frags tal mf st d E. assert (Z := proj_eq frags tal mf st). rewrite E in Z. destruct Z as (HF & H).
  assert (S : forall P Q, allp frags (fun x c => lift_dm1 nocc x c (dm1_of x tal st) P Q) = allp frags (fun x c => lift_dm1 nocc x c (dm1_of x tal st) Q P)).
  { intros P Q. unfold allp. apply Lsum_ext; intros x Hx. apply Lsum_ext; intros c Hc. rewrite Forall_forall in HF. specialize (HF x Hx). unfold dm1_of, fragment_dm1 in *.
    destruct (proj_gamma1 half x tal st) as [g|]; cbn [option_map] in *; [|congruence]. clear - P. unfold lift_dm1. rewrite Sum_swap. p0. p0. rewrite (C44_ccsd_symmetric (g_no x) g false i0 i). ring. }
  intros P Q. rewrite !H. destruct mf; [|apply S]. unfold add_diag. rewrite S, (Nat.eqb_sym Q P). destruct (Nat.eqb_spec P Q) as [->|]; reflexivity.
Qed.

(** ** C59: the limit of a full bath *)
Section Full.
Variable frags : list gfrag.
Hypothesis Hco : forall x c, In x frags -> In c (images x) -> complete K nocc (g_no x) (i_co c) /\ complete K nvir (g_nv x) (i_cv c).
Hypothesis Hcov : covering K nocc frags.
Lemma parseval n m (c : mat) (f g : nat -> K) : complete K n m c -> Sum m (fun i => Sum n (fun P => c P i * f P) * Sum n (fun P => c P i * g P)) = Sum n (fun P => f P * g P).
Proof.
  intros H. transitivity (Sum n (fun P => Sum n (fun Q => Sum m (fun i => c P i * c Q i) * (f P * g Q)))).
  - clear. push. reorder.
  - apply Sum_ext; intros P HP. transitivity (Sum n (fun Q => delta P Q * (f P * g Q))); [apply Sum_ext; intros Q HQ; rewrite H by auto; reflexivity|]. apply (Sum_delta_l n P (fun Q => f P * g Q) HP).
Qed.
(** The fragment orbitals of all fragments together *)
Lemma cover (f g : nat -> K) : all frags (fun x c => Sum (g_nf x) (fun k => Sum nocc (fun P => i_mf c P k * f P) * Sum nocc (fun P => i_mf c P k * g P))) = Sum nocc (fun P => f P * g P).
Proof.
  transitivity (Sum nocc (fun P => Sum nocc (fun Q => all frags (fun x c => Sum (g_nf x) (fun k => i_mf c P k * i_mf c Q k)) * (f P * g Q)))).
  - transitivity (Sum nocc (fun P => Sum nocc (fun Q => all frags (fun x c => Sum (g_nf x) (fun k => i_mf c P k * i_mf c Q k) * (f P * g Q))))).
    + rewrite (Sum_ext nocc (fun P => Sum nocc _) (fun P => all frags (fun x c => Sum nocc (fun Q => Sum (g_nf x) (fun k => i_mf c P k * i_mf c Q k) * (f P * g Q))))) by (intros; symmetry; apply all_Sum).
      rewrite <- all_Sum. apply all_ext. intros x c _ _. clear. push. reorder.
    + p0. p0. apply all_mul_r.
  - apply Sum_ext; intros P HP. transitivity (Sum nocc (fun Q => delta P Q * (f P * g Q))); [apply Sum_ext; intros Q HQ; unfold all; rewrite Hcov by auto; reflexivity|]. apply (Sum_delta_l nocc P (fun Q => f P * g Q) HP).
Qed.
(** One lifted index, the others resolved *)
Lemma lift_o x c (T u : ten) : In x frags -> In c (images x) -> amp2 K nocc nvir T x u -> forall I k b a, (I < nocc)%nat -> (k < g_nf x)%nat -> (b < g_nv x)%nat -> (a < g_nv x)%nat ->
  Sum (g_no x) (fun i => i_co c I i * u k i b a) = Sum nvir (fun B => i_cv c B b * Sum nvir (fun A => i_cv c A a * Sum nocc (fun P => i_mf c P k * T P I B A))).
Proof.
  intros Hx Hc Hu I k b a HI Hk Hb Ha. destruct (Hco x c Hx Hc) as [Co _].
  transitivity (Sum (g_no x) (fun i => i_co c I i * Sum nocc (fun Q => i_co c Q i * Sum nvir (fun B => i_cv c B b * Sum nvir (fun A => i_cv c A a * Sum nocc (fun P => i_mf c P k * T P Q B A)))))).
  - apply Sum_ext; intros i Hi. f_equal. rewrite (Hu c Hc) by auto. clear. push. reorder.
  - apply (resolve K nocc (g_no x) (i_co c) (fun Q => Sum nvir (fun B => i_cv c B b * Sum nvir (fun A => i_cv c A a * Sum nocc (fun P => i_mf c P k * T P Q B A)))) I Co HI).
Qed.
Lemma lift_v x c (T u : ten) : In x frags -> In c (images x) -> amp2 K nocc nvir T x u -> forall A k j e, (A < nvir)%nat -> (k < g_nf x)%nat -> (j < g_no x)%nat -> (e < g_nv x)%nat ->
  Sum (g_nv x) (fun a => i_cv c A a * u k j e a) = Sum nocc (fun J => i_co c J j * Sum nvir (fun E => i_cv c E e * Sum nocc (fun P => i_mf c P k * T P J E A))).
Proof.
  intros Hx Hc Hu A k j e HA Hk Hj He. destruct (Hco x c Hx Hc) as [_ Cv].
  transitivity (Sum (g_nv x) (fun a => i_cv c A a * Sum nvir (fun B => i_cv c B a * Sum nocc (fun J => i_co c J j * Sum nvir (fun E => i_cv c E e * Sum nocc (fun P => i_mf c P k * T P J E B)))))).
  - apply Sum_ext; intros i Hi. f_equal. rewrite (Hu c Hc) by auto. clear. push. reorder.
  - apply (resolve K nvir (g_nv x) (i_cv c) (fun B => Sum nocc (fun J => i_co c J j * Sum nvir (fun E => i_cv c E e * Sum nocc (fun P => i_mf c P k * T P J E B)))) A Cv HA).
Qed.
Lemma lift_v' x c (T u : ten) : In x frags -> In c (images x) -> amp2 K nocc nvir T x u -> forall A k j e, (A < nvir)%nat -> (k < g_nf x)%nat -> (j < g_no x)%nat -> (e < g_nv x)%nat ->
  Sum (g_nv x) (fun a => i_cv c A a * u k j a e) = Sum nocc (fun J => i_co c J j * Sum nvir (fun E => i_cv c E e * Sum nocc (fun P => i_mf c P k * T P J A E))).
Proof.
  intros Hx Hc Hu A k j e HA Hk Hj He. destruct (Hco x c Hx Hc) as [_ Cv].
  transitivity (Sum (g_nv x) (fun a => i_cv c A a * Sum nvir (fun B => i_cv c B a * Sum nocc (fun J => i_co c J j * Sum nvir (fun E => i_cv c E e * Sum nocc (fun P => i_mf c P k * T P J B E)))))).
  - apply Sum_ext; intros i Hi. f_equal. rewrite (Hu c Hc) by auto. clear. push. reorder.
  - apply (resolve K nvir (g_nv x) (i_cv c) (fun B => Sum nocc (fun J => i_co c J j * Sum nvir (fun E => i_cv c E e * Sum nocc (fun P => i_mf c P k * T P J B E)))) A Cv HA).
Qed.
Variables (T L : ten) (t l : gfrag -> ten).
Hypothesis Ht : forall x, In x frags -> amp2 K nocc nvir T x (t x).
Hypothesis Hl : forall x, In x frags -> amp2 K nocc nvir L x (l x).
Lemma full_oo I J : (I < nocc)%nat -> (J < nocc)%nat -> all frags (fun x c => part_oo x c (t x) (l x) I J) = Sum nocc (fun P => Sum nvir (fun B => Sum nvir (fun A => T P I B A * L P J B A))).
Proof.
  intros HI HJ. transitivity (Sum nvir (fun B => Sum nvir (fun A => all frags (fun x c => Sum (g_nf x) (fun k => Sum nocc (fun P => i_mf c P k * T P I B A) * Sum nocc (fun P => i_mf c P k * L P J B A)))))).
  - rewrite (Sum_ext nvir (fun B => Sum nvir _) (fun B => all frags (fun x c => Sum nvir (fun A => Sum (g_nf x) (fun k => Sum nocc (fun P => i_mf c P k * T P I B A) * Sum nocc (fun P => i_mf c P k * L P J B A)))))) by (intros; symmetry; apply all_Sum).
    rewrite <- all_Sum. apply all_ext. intros x c Hx Hc. destruct (Hco x c Hx Hc) as [_ Cv].
    transitivity (Sum (g_nf x) (fun k => Sum (g_nv x) (fun b => Sum (g_nv x) (fun a => Sum (g_no x) (fun i => i_co c I i * t x k i b a) * Sum (g_no x) (fun j => i_co c J j * l x k j b a))))); [clear; unfold part_oo; push; reorder|].
    transitivity (Sum (g_nf x) (fun k => Sum nvir (fun B => Sum nvir (fun A => Sum nocc (fun P => i_mf c P k * T P I B A) * Sum nocc (fun P => i_mf c P k * L P J B A))))); [|clear; push; reorder].
    apply Sum_ext; intros k Hk.
    transitivity (Sum (g_nv x) (fun a => Sum (g_nv x) (fun b => Sum nvir (fun B => i_cv c B b * Sum nvir (fun A => i_cv c A a * Sum nocc (fun P => i_mf c P k * T P I B A))) * Sum nvir (fun B => i_cv c B b * Sum nvir (fun A => i_cv c A a * Sum nocc (fun P => i_mf c P k * L P J B A)))))).
    + rewrite Sum_swap. p0. p0. rewrite (lift_o x c T (t x)), (lift_o x c L (l x)) by auto. reflexivity.
    + rewrite (Sum_ext (g_nv x) _ _ (fun a _ => parseval nvir (g_nv x) (i_cv c) (fun B => Sum nvir (fun A => i_cv c A a * Sum nocc (fun P => i_mf c P k * T P I B A))) (fun B => Sum nvir (fun A => i_cv c A a * Sum nocc (fun P => i_mf c P k * L P J B A))) Cv)).
      rewrite Sum_swap. apply Sum_ext; intros B HB. apply (parseval nvir (g_nv x) (i_cv c) (fun A => Sum nocc (fun P => i_mf c P k * T P I B A)) (fun A => Sum nocc (fun P => i_mf c P k * L P J B A)) Cv).
  - transitivity (Sum nvir (fun B => Sum nvir (fun A => Sum nocc (fun P => T P I B A * L P J B A)))); [p0; p0; apply cover|clear; reorder].
Qed.
Lemma full_vv A B : (A < nvir)%nat -> (B < nvir)%nat -> all frags (fun x c => part_vv x c (t x) (l x) A B) = Sum nocc (fun P => Sum nocc (fun J => Sum nvir (fun E => T P J E A * L P J E B))).
Proof.
  intros HA HB. transitivity (Sum nocc (fun J => Sum nvir (fun E => all frags (fun x c => Sum (g_nf x) (fun k => Sum nocc (fun P => i_mf c P k * T P J E A) * Sum nocc (fun P => i_mf c P k * L P J E B)))))).
  - rewrite (Sum_ext nocc (fun J => Sum nvir _) (fun J => all frags (fun x c => Sum nvir (fun E => Sum (g_nf x) (fun k => Sum nocc (fun P => i_mf c P k * T P J E A) * Sum nocc (fun P => i_mf c P k * L P J E B)))))) by (intros; symmetry; apply all_Sum).
    rewrite <- all_Sum. apply all_ext. intros x c Hx Hc. destruct (Hco x c Hx Hc) as [Co Cv].
    transitivity (Sum (g_nf x) (fun k => Sum (g_nv x) (fun e => Sum (g_no x) (fun j => Sum (g_nv x) (fun a => i_cv c A a * t x k j e a) * Sum (g_nv x) (fun b => i_cv c B b * l x k j e b))))); [clear; unfold part_vv; push; reorder|].
    transitivity (Sum (g_nf x) (fun k => Sum nocc (fun J => Sum nvir (fun E => Sum nocc (fun P => i_mf c P k * T P J E A) * Sum nocc (fun P => i_mf c P k * L P J E B))))); [|clear; push; reorder].
    apply Sum_ext; intros k Hk.
    transitivity (Sum (g_nv x) (fun e => Sum (g_no x) (fun j => Sum nocc (fun J => i_co c J j * Sum nvir (fun E => i_cv c E e * Sum nocc (fun P => i_mf c P k * T P J E A))) * Sum nocc (fun J => i_co c J j * Sum nvir (fun E => i_cv c E e * Sum nocc (fun P => i_mf c P k * L P J E B)))))).
    + p0. p0. rewrite (lift_v x c T (t x)), (lift_v x c L (l x)) by auto. reflexivity.
    + rewrite (Sum_ext (g_nv x) _ _ (fun a _ => parseval nocc (g_no x) (i_co c) (fun J => Sum nvir (fun E => i_cv c E a * Sum nocc (fun P => i_mf c P k * T P J E A))) (fun J => Sum nvir (fun E => i_cv c E a * Sum nocc (fun P => i_mf c P k * L P J E B))) Co)).
      rewrite Sum_swap. apply Sum_ext; intros J HJ. apply (parseval nvir (g_nv x) (i_cv c) (fun E => Sum nocc (fun P => i_mf c P k * T P J E A)) (fun E => Sum nocc (fun P => i_mf c P k * L P J E B)) Cv).
  - transitivity (Sum nocc (fun J => Sum nvir (fun E => Sum nocc (fun P => T P J E A * L P J E B)))); [p0; p0; apply cover|clear; reorder].
Qed.
Lemma full_vv' A B : (A < nvir)%nat -> (B < nvir)%nat -> all frags (fun x c => part_vv' x c (t x) (l x) A B) = Sum nocc (fun P => Sum nocc (fun J => Sum nvir (fun E => T P J A E * L P J B E))).
Proof.
  intros HA HB. transitivity (Sum nocc (fun J => Sum nvir (fun E => all frags (fun x c => Sum (g_nf x) (fun k => Sum nocc (fun P => i_mf c P k * T P J A E) * Sum nocc (fun P => i_mf c P k * L P J B E)))))).
  - rewrite (Sum_ext nocc (fun J => Sum nvir _) (fun J => all frags (fun x c => Sum nvir (fun E => Sum (g_nf x) (fun k => Sum nocc (fun P => i_mf c P k * T P J A E) * Sum nocc (fun P => i_mf c P k * L P J B E)))))) by (intros; symmetry; apply all_Sum).
    rewrite <- all_Sum. apply all_ext. intros x c Hx Hc. destruct (Hco x c Hx Hc) as [Co Cv].
    transitivity (Sum (g_nf x) (fun k => Sum (g_nv x) (fun e => Sum (g_no x) (fun j => Sum (g_nv x) (fun a => i_cv c A a * t x k j a e) * Sum (g_nv x) (fun b => i_cv c B b * l x k j b e))))); [clear; unfold part_vv'; push; reorder|].
    transitivity (Sum (g_nf x) (fun k => Sum nocc (fun J => Sum nvir (fun E => Sum nocc (fun P => i_mf c P k * T P J A E) * Sum nocc (fun P => i_mf c P k * L P J B E))))); [|clear; push; reorder].
    apply Sum_ext; intros k Hk.
    transitivity (Sum (g_nv x) (fun e => Sum (g_no x) (fun j => Sum nocc (fun J => i_co c J j * Sum nvir (fun E => i_cv c E e * Sum nocc (fun P => i_mf c P k * T P J A E))) * Sum nocc (fun J => i_co c J j * Sum nvir (fun E => i_cv c E e * Sum nocc (fun P => i_mf c P k * L P J B E)))))).
    + p0. p0. rewrite (lift_v' x c T (t x)), (lift_v' x c L (l x)) by auto. reflexivity.
    + rewrite (Sum_ext (g_nv x) _ _ (fun a _ => parseval nocc (g_no x) (i_co c) (fun J => Sum nvir (fun E => i_cv c E a * Sum nocc (fun P => i_mf c P k * T P J A E))) (fun J => Sum nvir (fun E => i_cv c E a * Sum nocc (fun P => i_mf c P k * L P J B E))) Co)).
      rewrite Sum_swap. apply Sum_ext; intros J HJ. apply (parseval nvir (g_nv x) (i_cv c) (fun E => Sum nocc (fun P => i_mf c P k * T P J A E)) (fun E => Sum nocc (fun P => i_mf c P k * L P J B E)) Cv).
  - transitivity (Sum nocc (fun J => Sum nvir (fun E => Sum nocc (fun P => T P J A E * L P J B E)))); [p0; p0; apply cover|clear; reorder].
Qed.
Lemma full_W I J A B : (I < nocc)%nat -> (J < nocc)%nat -> (A < nvir)%nat -> (B < nvir)%nat -> all frags (fun x c => Wx K x c (t x) I J A B) = T I J A B.
Proof.
  intros HI HJ HA HB. transitivity (all frags (fun x c => Sum nocc (fun P => Sum (g_nf x) (fun k => i_mf c I k * i_mf c P k) * T P J A B))).
  - apply all_ext. intros x c Hx Hc. apply (Wx_full K nocc nvir frags Hco x c T (t x)); auto.
  - rewrite <- (Sum_delta_l nocc I (fun P => T P J A B) HI). rewrite all_Sum. apply Sum_ext; intros P HP. rewrite all_mul_r. unfold all. rewrite Hcov by auto. reflexivity.
Qed.
Lemma full_ov (l1 : mat) I A : (I < nocc)%nat -> (A < nvir)%nat -> all frags (fun x c => part_ov nocc nvir x c (t x) l1 I A) = Sum nocc (fun J => Sum nvir (fun B => T I J A B * l1 J B)).
Proof.
  intros HI HA. transitivity (Sum nocc (fun J => Sum nvir (fun B => all frags (fun x c => Wx K x c (t x) I J A B) * l1 J B))).
  - transitivity (Sum nocc (fun J => all frags (fun x c => Sum nvir (fun B => Wx K x c (t x) I J A B * l1 J B)))).
    + rewrite <- all_Sum. apply all_ext. intros x c _ _. clear. unfold part_ov, Wx. push. reorder.
    + p0. rewrite all_Sum. p0. apply all_mul_r.
  - p0. p0. rewrite full_W by auto. reflexivity.
Qed.
Lemma full_ov' (l1 : mat) I A : (I < nocc)%nat -> (A < nvir)%nat -> all frags (fun x c => part_ov' nocc nvir x c (t x) l1 I A) = Sum nocc (fun J => Sum nvir (fun B => T J I B A * l1 J B)).
Proof.
  intros HI HA. transitivity (Sum nocc (fun J => Sum nvir (fun B => all frags (fun x c => Wx K x c (t x) J I B A) * l1 J B))).
  - transitivity (Sum nocc (fun J => all frags (fun x c => Sum nvir (fun B => Wx K x c (t x) J I B A * l1 J B)))).
    + rewrite <- all_Sum. apply all_ext. intros x c _ _. clear. unfold part_ov', Wx. push. reorder.
    + p0. rewrite all_Sum. p0. apply all_mul_r.
  - p0. p0. rewrite full_W by auto. reflexivity.
Qed.
End Full.

Lemma amp2_theta (T : ten) x u : amp2 K nocc nvir T x u -> amp2 K nocc nvir (cc_theta T) x (cc_theta u).
Proof.
  intros H c Hc k j a b Hk Hj Ha Hb. unfold cc_theta at 1. rewrite (H c Hc k j a b), (H c Hc k j b a) by auto.
  rewrite <- Sum_mul_l, <- Sum_sub. p0. rewrite <- Sum_mul_l, <- Sum_sub. p0.
  transitivity (two * Sum nvir (fun A => Sum nvir (fun B => i_mf c i k * i_co c i0 j * i_cv c A a * i_cv c B b * T i i0 A B)) - Sum nvir (fun A => Sum nvir (fun B => i_mf c i k * i_co c i0 j * i_cv c B b * i_cv c A a * T i i0 B A))).
  { f_equal. apply Sum_swap. }
  rewrite <- Sum_mul_l, <- Sum_sub. p0. rewrite <- Sum_mul_l, <- Sum_sub. p0. unfold cc_theta. ring.
Qed.
Lemma exch_theta (T : ten) : (forall I J A B, T I J A B = T J I B A) -> forall I J A B, cc_theta T I J A B = cc_theta T J I B A.
Proof. intros H I J A B. unfold cc_theta. rewrite (H I J A B), (H I J B A). reflexivity. Qed.
Lemma halves (X : K) : X * half + X * half = X.
Proof. transitivity (X * (half + half)); [ring|]. rewrite Hhalf. ring. Qed.

(** Sources of the amplitudes: T as they are, Lambda for t_as_lambda=False *)
Definition full_bath (frags : list gfrag) : Prop := (forall x c, In x frags -> In c (images x) -> complete K nocc (g_no x) (i_co c) /\ complete K nvir (g_nv x) (i_cv c)) /\ covering K nocc frags.
(** The arrays of the loop in the limit of a full bath *)
Lemma loop_full frags tal sy mp2 l1 (T2 L2 : ten) : full_bath frags -> (forall I J A B, T2 I J A B = T2 J I B A) -> (forall I J A B, L2 I J A B = L2 J I B A) ->
  (forall x, In x frags -> amp2 K nocc nvir T2 x (pt2 K x)) -> (forall x, In x frags -> exists u, part_l2 x tal = Some u /\ amp2 K nocc nvir L2 x u) ->
  exists d, part_loop half nocc nvir frags tal sy mp2 l1 = Some d /\
    (forall I J, (I < nocc)%nat -> (J < nocc)%nat -> q_oo d I J = - Sum nocc (fun P => Sum nvir (fun A => Sum nvir (fun B => cc_theta T2 I P A B * L2 J P A B)))) /\
    (forall A B, (A < nvir)%nat -> (B < nvir)%nat -> q_vv d A B = Sum nocc (fun P => Sum nocc (fun J => Sum nvir (fun E => cc_theta T2 P J E A * L2 P J E B)))) /\
    (forall I A, (I < nocc)%nat -> (A < nvir)%nat -> q_ov d I A = if mp2 then 0 else Sum nocc (fun J => Sum nvir (fun B => cc_theta T2 I J A B * l1 J B))).
Proof.
  intros [Hco Hcov] HT HL Ht Hl. assert (Z := loop_eq tal sy mp2 l1 frags).
  assert (Hth : forall x, In x frags -> amp2 K nocc nvir (cc_theta T2) x (th x)) by (intros; apply amp2_theta; auto).
  assert (Hlx : forall x, In x frags -> amp2 K nocc nvir L2 x (get (part_l2 x tal))) by (intros x Hx; destruct (Hl x Hx) as (u & E & H); rewrite E; exact H).
  assert (HTH := exch_theta T2 HT).
  destruct (part_loop half nocc nvir frags tal sy mp2 l1) as [d|].
  - exists d. split; [reflexivity|]. destruct Z as (_ & H1 & H2 & H3). split; [|split].
    + intros I J HI HJ. rewrite H1. f_equal. unfold Aoo. rewrite (full_oo frags Hco Hcov (cc_theta T2) L2 th (fun x => get (part_l2 x tal)) Hth Hlx I J HI HJ).
      p0. rewrite Sum_swap. p0. p0. rewrite (HTH i I), (HL i J). reflexivity.
    + intros A B HA HB. rewrite H2. unfold Avv.
      assert (V := full_vv frags Hco Hcov (cc_theta T2) L2 th (fun x => get (part_l2 x tal)) Hth Hlx A B HA HB).
      assert (V' := full_vv' frags Hco Hcov (cc_theta T2) L2 th (fun x => get (part_l2 x tal)) Hth Hlx A B HA HB).
      destruct sy; [|exact V]. rewrite all_add, !all_mul_r, V, V'. rewrite <- halves. f_equal. f_equal.
      rewrite Sum_swap. p0. p0. p0. rewrite (HTH i0 i), (HL i0 i). reflexivity.
    + intros I A HI HA. rewrite H3. unfold Aov. destruct mp2.
      * unfold all. apply Lsum_0. intros. apply Lsum_0. intros. reflexivity.
      * assert (V := full_ov frags Hco Hcov (cc_theta T2) th Hth l1 I A HI HA). assert (V' := full_ov' frags Hco Hcov (cc_theta T2) th Hth l1 I A HI HA).
        destruct sy; [|exact V]. rewrite all_add, !all_mul_r, V, V'. rewrite <- halves. f_equal. f_equal. p0. p0. rewrite (HTH i I). reflexivity.
  - exfalso. rewrite Exists_exists in Z. destruct Z as (x & Hx & E). destruct (Hl x Hx) as (u & E' & _). congruence.
Qed.
Lemma rdm1_ext (d d' : gamma1 K) mf : (forall I J, (I < nocc)%nat -> (J < nocc)%nat -> symm (g_oo d) I J = symm (g_oo d') I J) -> (forall A B, (A < nvir)%nat -> (B < nvir)%nat -> symm (g_vv d) A B = symm (g_vv d') A B) ->
  (forall I A, (I < nocc)%nat -> (A < nvir)%nat -> g_ov d I A + g_vo d A I = g_ov d' I A + g_vo d' A I) ->
  forall p q, (p < nocc + nvir)%nat -> (q < nocc + nvir)%nat -> cc_rdm1 nocc d mf p q = cc_rdm1 nocc d' mf p q.
Proof.
  intros Ho Hv Hov p q Hp Hq. unfold cc_rdm1.
  assert (E : blocks nocc (symm (g_oo d)) (fun i a => g_ov d i a + g_vo d a i) (mtrans (fun i a => g_ov d i a + g_vo d a i)) (symm (g_vv d)) p q =
    blocks nocc (symm (g_oo d')) (fun i a => g_ov d' i a + g_vo d' a i) (mtrans (fun i a => g_ov d' i a + g_vo d' a i)) (symm (g_vv d')) p q).
  { unfold blocks, mtrans. destruct (p <? nocc)%nat eqn:Ep, (q <? nocc)%nat eqn:Eq;
      repeat match goal with H : (_ <? _)%nat = true |- _ => apply Nat.ltb_lt in H | H : (_ <? _)%nat = false |- _ => apply Nat.ltb_ge in H end;
      [apply Ho|apply Hov|apply Hov|apply Hv]; lia. }
  destruct mf; [unfold add_diag; rewrite E; reflexivity|exact E].
Qed.
(** All clusters span the whole space, and their projected amplitudes are the projections of amplitudes T and Lambda of the system: the partitioned density matrix is the
    CCSD density matrix of the system, with and without symmetrize. *)
Theorem C59_partitioned : forall frags tal sy mf (T1 L1 : mat) (T2 L2 : ten), full_bath frags -> Forall (projected K) frags -> Forall (insides K nocc) frags ->
  (forall I J A B, T2 I J A B = T2 J I B A) -> (forall I J A B, L2 I J A B = L2 J I B A) ->
  (forall x, In x frags -> amp1 K nocc nvir T1 x (pt1 K x) /\ amp2 K nocc nvir T2 x (pt2 K x)) ->
  (forall x, In x frags -> exists u1 u2, src1 K x (negb tal) = Some u1 /\ part_l2 x tal = Some u2 /\ amp1 K nocc nvir L1 x u1 /\ amp2 K nocc nvir L2 x u2) ->
  exists d, part_rdm1 half nocc nvir frags tal sy mf false = Some d /\
    forall p q, (p < nocc + nvir)%nat -> (q < nocc + nvir)%nat -> d p q = cc_rdm1 nocc (cc_gamma1 nocc nvir T1 T2 L1 L2) mf p q.
Proof.
  intros frags tal sy mf T1 L1 T2 L2 Hf Hp Hin HT HL Ht Hl. assert (Hf' := Hf). destruct Hf' as [Hco Hcov].
  assert (G : forall gl (U : mat), (forall x, In x frags -> exists u, src1 K x gl = Some u /\ amp1 K nocc nvir U x u) -> exists m, global_t1 half frags gl false = Some m /\ forall I A, (I < nocc)%nat -> (A < nvir)%nat -> m I A = U I A).
  { intros gl U Hu. assert (A1 := global_t1_eq K half frags gl Hp). destruct (global_t1 half frags gl false) as [m|].
    2:{ exfalso. rewrite Exists_exists in A1. destruct A1 as (x & Hx & E). destruct (Hu x Hx) as (u & E1 & _). congruence. }
    exists m. split; [reflexivity|]. destruct A1 as [_ A1]. intros I A HI HA. rewrite A1. apply (G1_full K nocc nvir frags Hin Hco Hcov U (fun x => get1 K (src1 K x gl))); auto.
    intros x Hx. destruct (Hu x Hx) as (u & E1 & H). rewrite E1. exact H. }
  destruct (G false T1) as (t1 & E1 & F1). { intros x Hx. exists (pt1 K x). split; [reflexivity|apply Ht; auto]. }
  destruct (G (negb tal) L1) as (l1 & E2 & F2). { intros x Hx. destruct (Hl x Hx) as (u1 & u2 & X & _ & Y & _). exists u1. auto. }
  destruct (loop_full frags tal sy false l1 T2 L2 Hf HT HL) as (d & E & H1 & H2 & H3).
  { intros x Hx. apply Ht; auto. } { intros x Hx. destruct (Hl x Hx) as (u1 & u2 & _ & X & _ & Y). exists u2. auto. }
  unfold part_rdm1, global_l1. rewrite E1. assert (E3 : (if tal then Some t1 else global_t1 half frags (negb false) false) = Some l1).
  { destruct tal; cbn [negb] in *; [rewrite E1 in E2; exact E2|exact E2]. }
  rewrite E3, E. eexists. split; [reflexivity|]. intros p q Hp' Hq'. rewrite assemble_rdm1. apply rdm1_ext; auto; clear p q Hp' Hq'.
  - intros I J HI HJ. unfold symm. cbn [g_oo cc_gamma1 part_singles q_oo]. rewrite !H1 by auto.
    rewrite (Sum_ext nvir (fun A => l1 I A * t1 J A) (fun A => T1 J A * L1 I A)) by (intros; rewrite F1, F2 by auto; ring).
    rewrite (Sum_ext nvir (fun A => l1 J A * t1 I A) (fun A => T1 I A * L1 J A)) by (intros; rewrite F1, F2 by auto; ring). ring.
  - intros A B HA HB. unfold symm. cbn [g_vv cc_gamma1 part_singles q_vv]. rewrite !H2 by auto.
    rewrite (Sum_ext nocc (fun I => t1 I A * l1 I B) (fun I => T1 I A * L1 I B)) by (intros; rewrite F1, F2 by auto; ring).
    rewrite (Sum_ext nocc (fun I => t1 I B * l1 I A) (fun I => T1 I B * L1 I A)) by (intros; rewrite F1, F2 by auto; ring). ring.
  - intros I A HI HA. cbn [g_ov g_vo cc_gamma1 part_singles q_ov]. rewrite H3 by auto. rewrite (F1 I A), (F2 I A) by auto.
    rewrite (Sum_ext nocc (fun J => Sum nvir (fun B => cc_theta T2 I J A B * l1 J B)) (fun m => Sum nvir (fun e => cc_theta T2 I m A e * L1 m e))) by (intros; apply Sum_ext; intros; rewrite F2 by auto; reflexivity).
    rewrite (Sum_ext nocc (fun J => q_oo d I J * t1 J A) (fun m => - (Sum nocc (fun k => Sum nvir (fun e => Sum nvir (fun f => L2 m k e f * cc_theta T2 I k e f))) * T1 m A))).
    2:{ intros J HJ. rewrite H1, F1 by auto. rewrite (Sum_ext nocc (fun P => Sum nvir (fun A => Sum nvir (fun B => cc_theta T2 I P A B * L2 J P A B))) (fun k => Sum nvir (fun e => Sum nvir (fun f => L2 J k e f * cc_theta T2 I k e f)))); [ring|]. intros. p0. p0. ring. }
    rewrite Sum_opp.
    rewrite (Sum_ext nvir (fun B => t1 I B * q_vv d A B) (fun e => T1 I e * Sum nocc (fun m => Sum nocc (fun k => Sum nvir (fun f => L2 m k e f * cc_theta T2 m k A f))))).
    2:{ intros B HB. rewrite H2, F1 by auto. f_equal. rewrite Sum_swap. p0. p0. p0. rewrite (HL i0 i), (exch_theta T2 HT i0 i). ring. }
    rewrite (Sum_ext nvir (fun C => Sum nocc (fun J => t1 I C * l1 J C * t1 J A)) (fun C => Sum nocc (fun m => T1 I C * L1 m C * T1 m A))).
    2:{ intros C HC. apply Sum_ext; intros J HJ. rewrite !F1, F2 by auto. reflexivity. }
    rewrite (Sum_ext nocc (fun m => Sum nvir (fun e => T1 I e * L1 m e) * T1 m A) (fun m => Sum nvir (fun C => T1 I C * L1 m C * T1 m A))) by (intros; rewrite <- Sum_mul_r; reflexivity).
    rewrite (Sum_swap nvir nocc (fun C m => T1 I C * L1 m C * T1 m A)). ring.
Qed.
(** The same for MP2 *)
Theorem C59_partitioned_mp2 : forall frags tal sy mf (T2 : ten), full_bath frags -> (forall I J A B, T2 I J A B = T2 J I B A) ->
  (forall x, In x frags -> amp2 K nocc nvir T2 x (pt2 K x)) ->
  exists d, part_rdm1 half nocc nvir frags tal sy mf true = Some d /\
    forall p q, (p < nocc + nvir)%nat -> (q < nocc + nvir)%nat -> d p q = mp2_rdm1 nocc nvir T2 mf p q.
Proof.
  intros frags tal sy mf T2 Hf HT Ht. destruct (loop_full frags true sy true (fun _ _ => 0) T2 T2 Hf HT HT) as (d & E & H1 & H2 & H3); [auto| |].
  { intros x Hx. exists (pt2 K x). split; [reflexivity|auto]. }
  unfold part_rdm1. rewrite E. eexists. split; [reflexivity|]. intros p q Hp Hq. rewrite assemble_rdm1. unfold mp2_rdm1.
  transitivity (cc_rdm1 nocc {| g_oo := mp2_doo nocc nvir T2 false; g_ov := fun _ _ => 0; g_vo := fun _ _ => 0; g_vv := mp2_dvv nocc nvir T2 |} mf p q).
  - apply rdm1_ext; auto; clear p q Hp Hq.
    + intros I J HI HJ. unfold symm. cbn [g_oo]. rewrite !H1 by auto. unfold mp2_doo, cc_theta.
      assert (Y : forall I J, - Sum nocc (fun P => Sum nvir (fun A => Sum nvir (fun B => (two * T2 I P A B - T2 I P B A) * T2 J P A B))) =
        - (two * Sum nocc (fun k => Sum nvir (fun a => Sum nvir (fun b => T2 I k a b * T2 J k a b))) - Sum nocc (fun k => Sum nvir (fun a => Sum nvir (fun b => T2 I k a b * T2 k J a b))))).
      { clear I J HI HJ. intros I J. f_equal. rewrite <- Sum_mul_l, <- Sum_sub. p0. rewrite <- Sum_mul_l.
        rewrite (Sum_swap nvir nvir (fun a b => T2 I i a b * T2 i J a b)).
        rewrite <- Sum_sub. p0. rewrite <- Sum_mul_l, <- Sum_sub. p0. rewrite (HT i J). ring. }
      rewrite !Y. reflexivity.
    + intros A B HA HB. unfold symm. cbn [g_vv]. rewrite !H2 by auto. unfold mp2_dvv, cc_theta.
      assert (Y : forall A B, Sum nocc (fun P => Sum nocc (fun J => Sum nvir (fun E => (two * T2 P J E A - T2 P J A E) * T2 P J E B))) =
        two * Sum nocc (fun i => Sum nocc (fun j => Sum nvir (fun c => T2 i j A c * T2 i j B c))) - Sum nocc (fun i => Sum nocc (fun j => Sum nvir (fun c => T2 i j A c * T2 i j c B)))).
      { clear A B HA HB. intros A B. rewrite (Sum_swap nocc nocc (fun i j => Sum nvir (fun c => T2 i j A c * T2 i j B c))).
        rewrite <- Sum_mul_l, <- Sum_sub. p0. rewrite <- Sum_mul_l, <- Sum_sub. p0. rewrite <- Sum_mul_l, <- Sum_sub. p0. rewrite (HT i0 i A i1), (HT i0 i B i1). ring. }
      rewrite !Y. reflexivity.
  - unfold cc_rdm1. cbn [g_oo g_ov g_vo g_vv].
    assert (B : blocks nocc (symm (mp2_doo nocc nvir T2 false)) (fun i a => 0 + 0) (mtrans (fun i a => 0 + 0)) (symm (mp2_dvv nocc nvir T2)) p q =
      blocks nocc (symm (mp2_doo nocc nvir T2 false)) (fun i a => 0) (fun i a => 0) (symm (mp2_dvv nocc nvir T2)) p q).
    { unfold blocks, mtrans. destruct (_ <? _)%nat, (_ <? _)%nat; ring. }
    destruct mf; [|exact B]. unfold add_diag. rewrite B. unfold blocks. destruct (p <? nocc)%nat eqn:Ep, (q <? nocc)%nat eqn:Eq.
    + unfold symm, mp2_doo. cbn [andb]. rewrite andb_true_r. unfold delta. rewrite (Nat.eqb_sym q p). destruct (p =? q)%nat; unfold two; ring.
    + rewrite andb_true_r. destruct (Nat.eqb_spec p q); [congruence|reflexivity].
    + rewrite andb_false_r. reflexivity.
    + rewrite andb_false_r. reflexivity.
Qed.

(** *** Projected Lambda amplitudes *)
(** Amplitudes of the system in the basis of a cluster and of all its copies *)
Definition full1 (T : mat) (x : gfrag) (u : mat) : Prop := forall c, In c (images x) -> down2 nocc nvir (g_no x) (g_nv x) (i_co c) (i_cv c) T u.
Definition full2 (T : ten) (x : gfrag) (u : ten) : Prop := forall c, In c (images x) -> down4 nocc nocc nvir nvir (g_no x) (g_no x) (g_nv x) (g_nv x) (i_co c) (i_co c) (i_cv c) (i_cv c) T u.
Definition up1 (x : gfrag) (c : image) (u : mat) : mat := up2 (g_no x) (g_nv x) (i_co c) (i_cv c) u.
Definition upt (x : gfrag) (c : image) (u : ten) : ten := up4 (g_no x) (g_no x) (g_nv x) (g_nv x) (i_co c) (i_co c) (i_cv c) (i_cv c) u.
Lemma lift1_up x c u I A : lift1 x c u I A = up1 x c u I A.
Proof. unfold lift1, up1, up2. rewrite Sum_swap. clear. push. reorder. Qed.
Lemma lift2_up x c u I J A B : lift2 x c u I J A B = upt x c u I J A B.
Proof. unfold lift2, upt, up4, Sum4, Sum2. clear. p0. p0. p0. p0. ring. Qed.
Lemma full2_theta T x u : full2 T x u -> full2 (cc_theta T) x (cc_theta u).
Proof.
  intros H c Hc i j a b Hi Hj Ha Hb. unfold cc_theta at 1. rewrite (H c Hc i j a b), (H c Hc i j b a) by auto.
  rewrite <- Sum_mul_l, <- Sum_sub. p0. rewrite <- Sum_mul_l, <- Sum_sub. p0.
  match goal with |- two * ?S - _ = _ => transitivity (two * S - Sum nvir (fun A => Sum nvir (fun B => i_co c i0 i * i_co c i1 j * i_cv c B b * i_cv c A a * T i0 i1 B A))) end.
  { f_equal. apply Sum_swap. }
  rewrite <- Sum_mul_l, <- Sum_sub. p0. rewrite <- Sum_mul_l, <- Sum_sub. p0. unfold cc_theta. ring.
Qed.
(** A sum of functions of (l1, l2) that are additive in both *)
Definition additive (F : mat -> ten -> K) : Prop := F (fun _ _ => 0) (fun _ _ _ _ => 0) = 0 /\
  forall l1 l2 m1 m2, F (fun i a => l1 i a + m1 i a) (fun i j a b => l2 i j a b + m2 i j a b) = F l1 l2 + F m1 m2.
Lemma additive_Lsum {X} F (l : list X) (a : X -> mat) (b : X -> ten) : additive F -> Lsum l (fun x => F (a x) (b x)) = F (fun i j => Lsum l (fun x => a x i j)) (fun i j k m => Lsum l (fun x => b x i j k m)).
Proof. intros [H0 H]. induction l as [|x l IH]; cbn [Lsum]; [symmetry; exact H0|]. rewrite IH. symmetry. apply H. Qed.
Lemma additive_allp F (l : list (pfrag K)) (a : pfrag K -> image -> mat) (b : pfrag K -> image -> ten) : additive F ->
  allp l (fun x c => F (a x c) (b x c)) = F (fun i j => allp l (fun x c => a x c i j)) (fun i j k m => allp l (fun x c => b x c i j k m)).
Proof. intros H. unfold allp. rewrite (Lsum_ext l _ _ (fun x _ => additive_Lsum F (images x) (a x) (b x) H)). apply (additive_Lsum F l (fun x i j => Lsum (images x) (fun c => a x c i j)) (fun x i j k m => Lsum (images x) (fun c => b x c i j k m)) H). Qed.
Lemma ad_1 i a : additive (fun l1 l2 => l1 i a). Proof. split; intros; ring. Qed.
Lemma ad_2 i j a b : additive (fun l1 l2 => l2 i j a b). Proof. split; intros; ring. Qed.
Lemma ad_0 : additive (fun l1 l2 => 0). Proof. split; intros; ring. Qed.
Lemma ad_add F G : additive F -> additive G -> additive (fun l1 l2 => F l1 l2 + G l1 l2). Proof. intros [A B] [C D]. split; intros; [rewrite A, C|rewrite B, D]; ring. Qed.
Lemma ad_sub F G : additive F -> additive G -> additive (fun l1 l2 => F l1 l2 - G l1 l2). Proof. intros [A B] [C D]. split; intros; [rewrite A, C|rewrite B, D]; ring. Qed.
Lemma ad_opp F : additive F -> additive (fun l1 l2 => - F l1 l2). Proof. intros [A B]. split; intros; [rewrite A|rewrite B]; ring. Qed.
Lemma ad_mul_l k F : additive F -> additive (fun l1 l2 => k * F l1 l2). Proof. intros [A B]. split; intros; [rewrite A|rewrite B]; ring. Qed.
Lemma ad_mul_r k F : additive F -> additive (fun l1 l2 => F l1 l2 * k). Proof. intros [A B]. split; intros; [rewrite A|rewrite B]; ring. Qed.
Lemma ad_Sum n (F : nat -> mat -> ten -> K) : (forall i, additive (F i)) -> additive (fun l1 l2 => Sum n (fun i => F i l1 l2)).
Proof. intros H. split; intros; [apply Sum_0; intros; apply H|]. rewrite <- Sum_add. apply Sum_ext; intros. apply H. Qed.
Ltac ad := repeat first [apply ad_0|apply ad_1|apply ad_2|apply ad_Sum; intros|apply ad_add|apply ad_sub|apply ad_opp|apply ad_mul_l|apply ad_mul_r].

(** The intermediates without the term that has no Lambda amplitude *)
Definition lam_vo (n nv : nat) (t1 : mat) (t2 : ten) (l1 : mat) (l2 : ten) (a i : nat) : K :=
  - Sum n (fun m => Sum nv (fun e => t1 i e * l1 m e) * t1 m a) + Sum n (fun m => Sum nv (fun e => cc_theta t2 i m a e * l1 m e))
  - Sum n (fun m => Sum n (fun k => Sum nv (fun e => Sum nv (fun f => l2 m k e f * cc_theta t2 i k e f))) * t1 m a)
  - Sum nv (fun e => t1 i e * Sum n (fun m => Sum n (fun k => Sum nv (fun f => l2 m k e f * cc_theta t2 m k a f)))).
Lemma lam_vo_eq n nv t1 t2 l1 l2 a i : g_vo (cc_gamma1 n nv t1 t2 l1 l2) a i = t1 i a + lam_vo n nv t1 t2 l1 l2 a i.
Proof. cbn [cc_gamma1 g_vo]. unfold lam_vo. ring. Qed.
Lemma additive_oo n nv t1 t2 i j : additive (fun l1 l2 => g_oo (cc_gamma1 n nv t1 t2 l1 l2) i j). Proof. cbn [cc_gamma1 g_oo]. ad. Qed.
Lemma additive_vv n nv t1 t2 a b : additive (fun l1 l2 => g_vv (cc_gamma1 n nv t1 t2 l1 l2) a b). Proof. cbn [cc_gamma1 g_vv]. ad. Qed.
Lemma additive_vo n nv t1 t2 a i : additive (fun l1 l2 => lam_vo n nv t1 t2 l1 l2 a i). Proof. unfold lam_vo. ad. Qed.
Section Cov.
Variables (x : gfrag) (c : image) (T1 t1 : mat) (T2 t2 : ten).
Notation no := (g_no x). Notation nv := (g_nv x). Notation co := (i_co c). Notation cv := (i_cv c).
Hypothesis Ro : rows nocc no co.
Hypothesis Rv : rows nvir nv cv.
Hypothesis D1 : down2 nocc nvir no nv co cv T1 t1.
Hypothesis D2 : down4 nocc nocc nvir nvir no no nv nv co co cv cv (cc_theta T2) (cc_theta t2).
Variables (l1 : mat) (l2 : ten).
Lemma cov_oo I J : (I < nocc)%nat -> (J < nocc)%nat -> up2 no no co co (g_oo (cc_gamma1 no nv t1 t2 l1 l2)) I J = g_oo (cc_gamma1 nocc nvir T1 T2 (up1 x c l1) (upt x c l2)) I J.
Proof.
  intros HI HJ. cbn [cc_gamma1 g_oo]. rewrite up2_sub, up2_opp.
  rewrite (ct_ia_ja_ij_t nvir nv nocc no nocc no cv co co l1 t1 T1 I J Ro D1 HJ).
  rewrite (ct_ikab_jkab_ij_t_kab nvir nv nvir nv nocc no nocc no nocc no cv cv co co co l2 _ _ I J Ro D2 HJ). reflexivity.
Qed.
Lemma cov_vv A B : (A < nvir)%nat -> (B < nvir)%nat -> up2 nv nv cv cv (g_vv (cc_gamma1 no nv t1 t2 l1 l2)) A B = g_vv (cc_gamma1 nocc nvir T1 T2 (up1 x c l1) (upt x c l2)) A B.
Proof.
  intros HA HB. cbn [cc_gamma1 g_vv]. rewrite up2_add.
  rewrite (ct_ib_ia_ab_t_i nvir nv nvir nv nocc no cv cv co l1 t1 T1 A B Rv D1 HA).
  rewrite (ct_jicb_jica_ab_t_jic nvir nv nvir nv nvir nv nocc no nocc no cv cv cv co co l2 _ _ A B Rv D2 HA). reflexivity.
Qed.
Lemma cov_vo A I : (A < nvir)%nat -> (I < nocc)%nat -> up2 nv no cv co (fun a i => lam_vo no nv t1 t2 l1 l2 a i) A I = lam_vo nocc nvir T1 T2 (up1 x c l1) (upt x c l2) A I.
Proof.
  intros HA HI. unfold lam_vo. rewrite !up2_sub, up2_add, up2_opp.
  rewrite (ct_im_ma_ai nvir nv nocc no nocc no cv co co (fun i m => Sum nv (fun e => t1 i e * l1 m e)) t1 T1 A I Rv D1 HA).
  rewrite (ct_me_imae_ai_t_me nvir nv nvir nv nocc no nocc no cv cv co co l1 _ _ A I Ro Rv D2 HI HA).
  rewrite (ct_mi_ma_ai nvir nv nocc no nocc no cv co co (fun m i => Sum no (fun k => Sum nv (fun e => Sum nv (fun f => l2 m k e f * cc_theta t2 i k e f)))) t1 T1 A I Rv D1 HA).
  rewrite (ct_ae_ie_ai_t nvir nv nvir nv nocc no cv cv co (fun a e => Sum no (fun m => Sum no (fun k => Sum nv (fun f => l2 m k e f * cc_theta t2 m k a f)))) t1 T1 A I Ro D1 HI).
  f_equal; [f_equal; [f_equal; f_equal|]|].
  - apply Sum_ext; intros M HM. rewrite (ct_me_ie_im_t nvir nv nocc no nocc no cv co co l1 t1 T1 I M Ro D1 HI). reflexivity.
  - apply Sum_ext; intros M HM. rewrite (ct_mkef_ikef_mi_kef nvir nv nvir nv nocc no nocc no nocc no cv cv co co co l2 _ _ M I Ro D2 HI). reflexivity.
  - apply Sum_ext; intros E HE. rewrite (ct_mkaf_mkef_ea_mkf nvir nv nvir nv nvir nv nocc no nocc no cv cv cv co co l2 _ _ A E Rv D2 HA). reflexivity.
Qed.
End Cov.

Lemma lift_blocks x c (oo ov vo vv : mat) P Q : lift_dm1 nocc x c (blocks (g_no x) oo ov vo vv) P Q =
  blocks nocc (up2 (g_no x) (g_no x) (i_co c) (i_co c) oo) (up2 (g_no x) (g_nv x) (i_co c) (i_cv c) ov) (up2 (g_nv x) (g_no x) (i_cv c) (i_co c) vo) (up2 (g_nv x) (g_nv x) (i_cv c) (i_cv c) vv) P Q.
Proof.
  assert (A : forall a, (g_no x + a <? g_no x)%nat = false) by (intros; apply Nat.ltb_ge; lia).
  assert (B : forall a, (g_no x + a - g_no x = a)%nat) by (intros; lia).
  assert (C : forall i, (i < g_no x)%nat -> (i <? g_no x)%nat = true) by (intros; apply Nat.ltb_lt; lia).
  unfold lift_dm1. rewrite Sum_split.
  transitivity (Sum (g_no x) (fun p => Sum (g_no x) (fun q => mo_cluster nocc x c P p * oo p q * mo_cluster nocc x c Q q) + Sum (g_nv x) (fun q => mo_cluster nocc x c P p * ov p q * mo_cluster nocc x c Q (g_no x + q)%nat)) +
    Sum (g_nv x) (fun p => Sum (g_no x) (fun q => mo_cluster nocc x c P (g_no x + p)%nat * vo p q * mo_cluster nocc x c Q q) + Sum (g_nv x) (fun q => mo_cluster nocc x c P (g_no x + p)%nat * vv p q * mo_cluster nocc x c Q (g_no x + q)%nat))).
  { f_equal; apply Sum_ext; intros p Hp; rewrite Sum_split; f_equal; apply Sum_ext; intros q Hq; unfold blocks; rewrite ?A, ?B, ?C by auto; reflexivity. }
  assert (Mo : forall R p, (p < g_no x)%nat -> mo_cluster nocc x c R p = if (R <? nocc)%nat then i_co c R p else 0) by (intros R p Hp; unfold mo_cluster; rewrite C by auto; destruct (R <? nocc)%nat; reflexivity).
  assert (Mv : forall R p, mo_cluster nocc x c R (g_no x + p)%nat = if (R <? nocc)%nat then 0 else i_cv c (R - nocc)%nat p) by (intros R p; unfold mo_cluster; rewrite A, B; destruct (R <? nocc)%nat; reflexivity).
  rewrite !Sum_add.
  transitivity (Sum (g_no x) (fun p => Sum (g_no x) (fun q => (if (P <? nocc)%nat then i_co c P p else 0) * oo p q * (if (Q <? nocc)%nat then i_co c Q q else 0))) +
    Sum (g_no x) (fun p => Sum (g_nv x) (fun q => (if (P <? nocc)%nat then i_co c P p else 0) * ov p q * (if (Q <? nocc)%nat then 0 else i_cv c (Q - nocc)%nat q))) +
    (Sum (g_nv x) (fun p => Sum (g_no x) (fun q => (if (P <? nocc)%nat then 0 else i_cv c (P - nocc)%nat p) * vo p q * (if (Q <? nocc)%nat then i_co c Q q else 0))) +
     Sum (g_nv x) (fun p => Sum (g_nv x) (fun q => (if (P <? nocc)%nat then 0 else i_cv c (P - nocc)%nat p) * vv p q * (if (Q <? nocc)%nat then 0 else i_cv c (Q - nocc)%nat q))))).
  { apply f_equal2; apply f_equal2; p0; p0; rewrite ?Mv, ?Mo by auto; reflexivity. }
  assert (Z1 : forall n m (f : nat -> nat -> K), Sum n (fun p => Sum m (fun q => f p q * 0)) = 0) by (intros; apply Sum_0; intros; apply Sum_0; intros; ring).
  assert (Z2 : forall n m (f g : nat -> nat -> K), Sum n (fun p => Sum m (fun q => 0 * f p q * g p q)) = 0) by (intros; apply Sum_0; intros; apply Sum_0; intros; ring).
  unfold blocks, up2. destruct (P <? nocc)%nat, (Q <? nocc)%nat.
  - rewrite (Z1 _ _ (fun p q => i_co c P p * ov p q)), (Z2 _ _ (fun p q => vo p q) (fun p q => i_co c Q q)), (Z2 _ _ (fun p q => vv p q) (fun p q => 0)).
    transitivity (Sum (g_no x) (fun p => Sum (g_no x) (fun q => i_co c P p * oo p q * i_co c Q q))); [ring|]. p0. p0. ring.
  - rewrite (Z1 _ _ (fun p q => i_co c P p * oo p q)), (Z2 _ _ (fun p q => vo p q) (fun p q => 0)), (Z2 _ _ (fun p q => vv p q) (fun p q => i_cv c (Q - nocc)%nat q)).
    transitivity (Sum (g_no x) (fun p => Sum (g_nv x) (fun q => i_co c P p * ov p q * i_cv c (Q - nocc)%nat q))); [ring|]. p0. p0. ring.
  - rewrite (Z1 _ _ (fun p q => i_cv c (P - nocc)%nat p * vv p q)), (Z2 _ _ (fun p q => oo p q) (fun p q => i_co c Q q)), (Z2 _ _ (fun p q => ov p q) (fun p q => 0)).
    transitivity (Sum (g_nv x) (fun p => Sum (g_no x) (fun q => i_cv c (P - nocc)%nat p * vo p q * i_co c Q q))); [ring|]. p0. p0. ring.
  - rewrite (Z1 _ _ (fun p q => i_cv c (P - nocc)%nat p * vo p q)), (Z2 _ _ (fun p q => oo p q) (fun p q => 0)), (Z2 _ _ (fun p q => ov p q) (fun p q => i_cv c (Q - nocc)%nat q)).
    transitivity (Sum (g_nv x) (fun p => Sum (g_nv x) (fun q => i_cv c (P - nocc)%nat p * vv p q * i_cv c (Q - nocc)%nat q))); [ring|]. p0. p0. ring.
Qed.
Lemma lift_rdm1 x c (g : gamma1 K) P Q : lift_dm1 nocc x c (cc_rdm1 (g_no x) g false) P Q =
  cc_rdm1 nocc {| g_oo := up2 (g_no x) (g_no x) (i_co c) (i_co c) (g_oo g); g_ov := up1 x c (g_ov g); g_vo := up2 (g_nv x) (g_no x) (i_cv c) (i_co c) (g_vo g); g_vv := up2 (g_nv x) (g_nv x) (i_cv c) (i_cv c) (g_vv g) |} false P Q.
Proof.
  unfold cc_rdm1. cbn [g_oo g_ov g_vo g_vv]. rewrite lift_blocks. unfold blocks.
  assert (S : forall n (k : mat) (f : mat) p q, up2 n n k k (symm f) p q = symm (up2 n n k k f) p q).
  { intros n k f p q. unfold symm. rewrite up2_add. f_equal. unfold up2. rewrite Sum_swap. p0. p0. ring. }
  assert (V : forall p q, up2 (g_no x) (g_nv x) (i_co c) (i_cv c) (fun i a => g_ov g i a + g_vo g a i) p q = up1 x c (g_ov g) p q + up2 (g_nv x) (g_no x) (i_cv c) (i_co c) (g_vo g) q p).
  { intros. rewrite up2_add. unfold up1. f_equal. unfold up2. rewrite Sum_swap. p0. p0. ring. }
  assert (W : forall p q, up2 (g_nv x) (g_no x) (i_cv c) (i_co c) (mtrans (fun i a => g_ov g i a + g_vo g a i)) p q = mtrans (fun i a => up1 x c (g_ov g) i a + up2 (g_nv x) (g_no x) (i_cv c) (i_co c) (g_vo g) a i) p q).
  { intros. unfold mtrans. rewrite <- V. unfold up2. rewrite Sum_swap. p0. p0. ring. }
  destruct (P <? nocc)%nat, (Q <? nocc)%nat; [apply S|apply V|apply W|apply S].
Qed.
(** Restored amplitudes of a fragment: not symmetrized (sym_t2=False) or symmetrized *)
Definition rst (st : bool) (x : gfrag) (u : ten) : ten := if st then rs K half x u else cfa K x u.
Definition lk1 (x : gfrag) (u v : option mat) : Prop := match u, v with Some u, Some v => forall i a, (i < g_no x)%nat -> u i a = rs1 K x v i a | None, None => True | _, _ => False end.
Definition lk2 (st : bool) (x : gfrag) (u v : option ten) : Prop := match u, v with Some u, Some v => forall i j a b, (i < g_no x)%nat -> (j < g_no x)%nat -> u i j a b = rst st x v i j a b | None, None => True | _, _ => False end.
Lemma pc2_rst (st : bool) (x : gfrag) p (u : ten) : prow p = g_nf x -> (forall k i, (k < g_nf x)%nat -> (i < g_no x)%nat -> pmat p k i = g_cf x i k) ->
  forall i j a b, (i < g_no x)%nat -> (j < g_no x)%nat -> (if st then symmetrize_c2 half (pc2 u (ptrans p)) else pc2 u (ptrans p)) i j a b = rst st x u i j a b.
Proof.
  intros H1 H2 i j a b Hi Hj. destruct st; [apply pc2_rs; auto|]. unfold rst, cfa, pc2. cbn [ptrans pcol pmat]. rewrite H1. apply Sum_ext; intros. rewrite H2 by auto. reflexivity.
Qed.
Definition lam1 (x : gfrag) (tal : bool) : option mat := if tal then Some (pt1 K x) else pl1 K x.
Definition lam2 (x : gfrag) (tal : bool) : option ten := if tal then Some (pt2 K x) else pl2 K x.
Lemma amps_ok (x : pfrag K) tal st : projected K x -> exists a, amps_for_dm half x tal st = Some a /\ a_t1 a = M_Wf.t1 (pwf_as_ccsd (p_wf x)) /\ a_t2 a = M_Wf.t2 (pwf_as_ccsd (p_wf x)) /\
  lk1 x (Some (a_t1x a)) (Some (pt1 K x)) /\ lk2 st x (Some (a_t2x a)) (Some (pt2 K x)) /\ lk1 x (a_l1x a) (lam1 x tal) /\ lk2 st x (a_l2x a) (lam2 x tal).
Proof.
  intros (p & Ep & H1 & H2 & H3). unfold amps_for_dm, pwf_restore_sym, lam1, lam2, pt1, pt2, pl1, pl2. destruct (g_pwf x) as [w|n1 t p'] eqn:Ew; cbn [pwf_as_ccsd projector] in *.
  - unfold restore. rewrite Ep. cbn [option_map pwf_as_ccsd]. eexists. split; [reflexivity|]. cbn [a_t1 a_t2 a_t1x a_t2x a_l1x a_l2x M_Wf.t1 M_Wf.t2 M_Wf.l1 M_Wf.l2 project].
    assert (A1 : forall u i a, (i < g_no x)%nat -> pc1 u (ptrans p) i a = rs1 K x u i a) by (intros; apply pc1_rs; auto).
    assert (A2 : forall u i j a b, (i < g_no x)%nat -> (j < g_no x)%nat -> (if st then symmetrize_c2 half (pc2 u (ptrans p)) else pc2 u (ptrans p)) i j a b = rst st x u i j a b) by (intros; apply pc2_rst; auto).
    split; [reflexivity|]. split; [reflexivity|]. split; [exact (A1 (M_Wf.t1 w))|]. split; [exact (A2 (M_Wf.t2 w))|]. destruct tal; [split; [exact (A1 (M_Wf.t1 w))|exact (A2 (M_Wf.t2 w))]|].
    split; [destruct (M_Wf.l1 w) as [u|]; [exact (A1 u)|exact I]|destruct (M_Wf.l2 w) as [u|]; [exact (A2 u)|exact I]].
  - subst p'. cbn [option_map pwf_as_ccsd]. eexists. split; [reflexivity|]. cbn [a_t1 a_t2 a_t1x a_t2x a_l1x a_l2x M_Wf.t1 M_Wf.t2 M_Wf.l1 M_Wf.l2].
    assert (A1 : forall i a, (i < g_no x)%nat -> 0 = rs1 K x (fun _ _ => 0) i a) by (intros; symmetry; apply rs1_zero).
    assert (A2 : forall i j a b, (i < g_no x)%nat -> (j < g_no x)%nat -> (if st then symmetrize_c2 half (pc2 t (ptrans p)) else pc2 t (ptrans p)) i j a b = rst st x t i j a b) by (intros; apply pc2_rst; auto).
    split; [reflexivity|]. split; [reflexivity|]. split; [exact A1|]. split; [exact A2|]. destruct tal; split; auto.
Qed.
(** Sum of the restored and lifted amplitudes *)
Lemma sum_t1 frags (T : mat) u I A : full_bath frags -> Forall (insides K nocc) frags -> (forall x, In x frags -> amp1 K nocc nvir T x (u x)) -> (I < nocc)%nat -> (A < nvir)%nat -> all frags (fun x c => up1 x c (rs1 K x (u x)) I A) = T I A.
Proof.
  intros [Hco Hcov] Hin Hu HI HA. rewrite <- (G1_full K nocc nvir frags Hin Hco Hcov T u I A Hu HI HA). unfold G1. apply all_ext. intros. symmetry. apply lift1_up.
Qed.
Lemma sum_t2 (st : bool) frags (T : ten) u I J A B : full_bath frags -> Forall (insides K nocc) frags -> (forall I J A B, T I J A B = T J I B A) -> (forall x, In x frags -> amp2 K nocc nvir T x (u x)) ->
  (I < nocc)%nat -> (J < nocc)%nat -> (A < nvir)%nat -> (B < nvir)%nat -> all frags (fun x c => upt x c (rst st x (u x)) I J A B) = T I J A B.
Proof.
  intros [Hco Hcov] Hin HT Hu HI HJ HA HB. destruct st.
  - rewrite <- (G2_full K half Hhalf nocc nvir frags Hin Hco Hcov T u I J A B HT Hu HI HJ HA HB). unfold G2. apply all_ext. intros. symmetry. apply lift2_up.
  - rewrite <- (full_W frags Hco Hcov T u Hu I J A B HI HJ HA HB). apply all_ext. intros x c Hx Hc. rewrite Forall_forall in Hin. specialize (Hin x Hx c Hc). unfold rst, Wx.
    transitivity (Sum (g_nf x) (fun k => Sum (g_no x) (fun j => Sum (g_nv x) (fun a => Sum (g_nv x) (fun b => Sum (g_no x) (fun i => i_co c I i * g_cf x i k) * i_co c J j * i_cv c A a * i_cv c B b * u x k j a b))))).
    + clear. unfold upt, up4, cfa. push. reorder.
    + apply Sum_ext; intros k Hk. p0. p0. p0. rewrite (Hin I k HI Hk). reflexivity.
Qed.
Lemma allp_all (l : list (pfrag K)) (f : gfrag -> image -> K) : allp l (fun x c => f x c) = all (gfrags l) f.
Proof. unfold allp, all, gfrags. rewrite Lsum_map. reflexivity. Qed.
(** The amplitudes of every cluster are those of the system, its projected amplitudes their projections: the sum of the fragments' density matrices is the CCSD
    density matrix of the system, with symmetrized and not symmetrized projections. *)
Theorem C59_projected : forall frags tal st mf (T1 L1 : mat) (T2 L2 : ten), full_bath (gfrags frags) -> Forall (projected K) (gfrags frags) -> Forall (insides K nocc) (gfrags frags) ->
  (forall I J A B, L2 I J A B = L2 J I B A) ->
  (forall x, In x frags -> full1 T1 x (M_Wf.t1 (pwf_as_ccsd (p_wf x))) /\ full2 T2 x (M_Wf.t2 (pwf_as_ccsd (p_wf x))) /\ amp1 K nocc nvir T1 x (pt1 K x)) ->
  (forall x, In x frags -> exists u1 u2, lam1 x tal = Some u1 /\ lam2 x tal = Some u2 /\ amp1 K nocc nvir L1 x u1 /\ amp2 K nocc nvir L2 x u2) ->
  exists d, proj_rdm1 half nocc frags tal mf st = Some d /\
    forall p q, (p < nocc + nvir)%nat -> (q < nocc + nvir)%nat -> d p q = cc_rdm1 nocc (cc_gamma1 nocc nvir T1 T2 L1 L2) mf p q.
Proof.
  intros frags tal st mf T1 L1 T2 L2 Hf Hp Hin HL Ht Hl. assert (Z := proj_eq frags tal mf st).
  assert (HpI : forall x, In x frags -> projected K x) by (intros x Hx; rewrite Forall_forall in Hp; apply Hp; apply in_map; auto).
  assert (A : forall x, In x frags -> exists a l1x l2x, amps_for_dm half x tal st = Some a /\ a_t1 a = M_Wf.t1 (pwf_as_ccsd (p_wf x)) /\ a_t2 a = M_Wf.t2 (pwf_as_ccsd (p_wf x)) /\ a_l1x a = Some l1x /\ a_l2x a = Some l2x /\
    (forall i v, (i < g_no x)%nat -> a_t1x a i v = rs1 K x (pt1 K x) i v) /\ (forall i v, (i < g_no x)%nat -> l1x i v = rs1 K x (get1 K (lam1 x tal)) i v) /\
    (forall i j v w, (i < g_no x)%nat -> (j < g_no x)%nat -> l2x i j v w = rst st x (get (lam2 x tal)) i j v w)).
  { intros x Hx. destruct (amps_ok x tal st (HpI x Hx)) as (a & E & E1 & E2 & X1 & _ & Y1 & Y2). destruct (Hl x Hx) as (u1 & u2 & F1 & F2 & _). rewrite F1 in *. rewrite F2 in *.
    unfold lk1 in Y1. unfold lk2 in Y2. destruct (a_l1x a) as [l1x|] eqn:G1x; [|contradiction]. destruct (a_l2x a) as [l2x|] eqn:G2x; [|contradiction].
    exists a, l1x, l2x. repeat (split; [assumption || reflexivity|]). cbn [get1 get]. auto. }
  destruct (proj_rdm1 half nocc frags tal mf st) as [d|].
  2:{ exfalso. rewrite Exists_exists in Z. destruct Z as (x & Hx & E). destruct (A x Hx) as (a & l1x & l2x & E0 & _ & _ & E1 & E2 & _). unfold fragment_dm1, proj_gamma1 in E. rewrite E0, E1, E2 in E. discriminate. }
  exists d. split; [reflexivity|]. destruct Z as (_ & Z). intros p q Hpp Hq. rewrite Z. clear Z d.
  set (L1s := fun x : gfrag => rs1 K x (get1 K (lam1 x tal))). set (L2s := fun x : gfrag => rst st x (get (lam2 x tal))).
  assert (B : forall x c P Q, In x frags -> In c (images x) -> (P < nocc + nvir)%nat -> (Q < nocc + nvir)%nat -> lift_dm1 nocc x c (dm1_of x tal st) P Q =
    let g := cc_gamma1 nocc nvir T1 T2 (up1 x c (L1s x)) (upt x c (L2s x)) in
    cc_rdm1 nocc {| g_oo := g_oo g; g_ov := g_ov g; g_vo := fun a i => up1 x c (rs1 K x (pt1 K x)) i a + lam_vo nocc nvir T1 T2 (up1 x c (L1s x)) (upt x c (L2s x)) a i; g_vv := g_vv g |} false P Q).
  { intros x c P Q Hx Hc HP HQ. destruct (A x Hx) as (a & l1x & l2x & E0 & E1 & E2 & E3 & E4 & X1 & X2 & X3). unfold dm1_of, fragment_dm1, proj_gamma1. rewrite E0, E3, E4. cbn [option_map].
    rewrite lift_rdm1. cbn [g_oo g_ov g_vo g_vv]. destruct (Ht x Hx) as (Hf1 & Hf2 & _). destruct Hf as [Hco _]. destruct (Hco x c) as [Ro Rv]; [apply in_map; auto|auto|].
    rewrite E1, E2. set (t1 := M_Wf.t1 _) in *. set (t2 := M_Wf.t2 _) in *. assert (D1 := Hf1 c Hc). assert (D2 := full2_theta T2 x t2 Hf2 c Hc).
    assert (U1 : forall I V, up1 x c l1x I V = up1 x c (L1s x) I V) by (intros; apply up2_ext; intros; apply X2; auto).
    assert (U2 : forall I J V W, upt x c l2x I J V W = upt x c (L2s x) I J V W) by (intros; apply up4_ext; intros; apply X3; auto).
    assert (U3 : forall n m I J, g_oo (cc_gamma1 n m T1 T2 (up1 x c l1x) (upt x c l2x)) I J = g_oo (cc_gamma1 n m T1 T2 (up1 x c (L1s x)) (upt x c (L2s x))) I J).
    { intros. cbn [cc_gamma1 g_oo]. f_equal; [f_equal|]. - p0. rewrite U1. reflexivity. - p0. p0. p0. rewrite U2. reflexivity. }
    assert (U4 : forall n m I J, g_vv (cc_gamma1 n m T1 T2 (up1 x c l1x) (upt x c l2x)) I J = g_vv (cc_gamma1 n m T1 T2 (up1 x c (L1s x)) (upt x c (L2s x))) I J).
    { intros. cbn [cc_gamma1 g_vv]. f_equal. - p0. rewrite U1. reflexivity. - p0. p0. p0. rewrite U2. reflexivity. }
    assert (U5 : forall n m I J, lam_vo n m T1 T2 (up1 x c l1x) (upt x c l2x) I J = lam_vo n m T1 T2 (up1 x c (L1s x)) (upt x c (L2s x)) I J).
    { intros. unfold lam_vo. f_equal; [f_equal; [f_equal; [f_equal|]|]|].
      - p0. f_equal. p0. rewrite U1. reflexivity. - p0. p0. rewrite U1. reflexivity. - p0. f_equal. p0. p0. p0. rewrite U2. reflexivity. - p0. f_equal. p0. p0. p0. rewrite U2. reflexivity. }
    apply rdm1_ext; auto; clear P Q HP HQ.
    - intros I J HI HJ. unfold symm. cbn [g_oo]. rewrite !(cov_oo x c T1 t1 T2 t2 Ro D1 D2) by auto. rewrite !U3. reflexivity.
    - intros V W HV HW. unfold symm. cbn [g_vv]. rewrite !(cov_vv x c T1 t1 T2 t2 Rv D1 D2) by auto. rewrite !U4. reflexivity.
    - intros I V HI HV. cbn [g_ov g_vo]. cbn [cc_gamma1 g_ov]. rewrite U1. f_equal.
      rewrite (up2_ext _ _ _ _ _ (fun v i => rs1 K x (pt1 K x) i v + lam_vo (g_no x) (g_nv x) t1 t2 l1x l2x v i)).
      2:{ intros v i Hv Hi. change (g_vo (cc_gamma1 (g_no x) (g_nv x) t1 t2 l1x l2x) v i + (a_t1x a i v - t1 i v) = rs1 K x (pt1 K x) i v + lam_vo (g_no x) (g_nv x) t1 t2 l1x l2x v i). rewrite lam_vo_eq. rewrite X1 by auto. ring. }
      rewrite up2_add. rewrite <- U5. apply f_equal2; [unfold up1, up2; rewrite Sum_swap; p0; p0; ring|]. exact (cov_vo x c T1 t1 T2 t2 Ro Rv D1 D2 l1x l2x V I HV HI). }
  set (S1 := fun i j => allp frags (fun x c => up1 x c (L1s x) i j)). set (S2 := fun i j k m => allp frags (fun x c => upt x c (L2s x) i j k m)). set (ST := fun i j => allp frags (fun x c => up1 x c (rs1 K x (pt1 K x)) i j)).
  assert (F1 : forall I V, (I < nocc)%nat -> (V < nvir)%nat -> S1 I V = L1 I V).
  { intros I V HI HV. unfold S1. rewrite (allp_all frags (fun x c => up1 x c (L1s x) I V)). apply (sum_t1 (gfrags frags) L1 (fun x => get1 K (lam1 x tal))); auto.
    intros y Hy. apply in_map_iff in Hy. destruct Hy as (x & <- & Hx). destruct (Hl x Hx) as (u1 & u2 & E & _ & H & _). rewrite E. exact H. }
  assert (F2 : forall I J V W, (I < nocc)%nat -> (J < nocc)%nat -> (V < nvir)%nat -> (W < nvir)%nat -> S2 I J V W = L2 I J V W).
  { intros I J V W HI HJ HV HW. unfold S2. rewrite (allp_all frags (fun x c => upt x c (L2s x) I J V W)). apply (sum_t2 st (gfrags frags) L2 (fun x => get (lam2 x tal))); auto.
    intros y Hy. apply in_map_iff in Hy. destruct Hy as (x & <- & Hx). destruct (Hl x Hx) as (u1 & u2 & _ & E & _ & H). rewrite E. exact H. }
  assert (F3 : forall I V, (I < nocc)%nat -> (V < nvir)%nat -> ST I V = T1 I V).
  { intros I V HI HV. unfold ST. rewrite (allp_all frags (fun x c => up1 x c (rs1 K x (pt1 K x)) I V)). apply (sum_t1 (gfrags frags) T1 (pt1 K)); auto.
    intros y Hy. apply in_map_iff in Hy. destruct Hy as (x & <- & Hx). apply Ht; auto. }
  assert (C : forall P Q, (P < nocc + nvir)%nat -> (Q < nocc + nvir)%nat -> allp frags (fun x c => lift_dm1 nocc x c (dm1_of x tal st) P Q) = cc_rdm1 nocc (cc_gamma1 nocc nvir T1 T2 L1 L2) false P Q).
  { intros P Q HP HQ.
    transitivity (cc_rdm1 nocc (let g := cc_gamma1 nocc nvir T1 T2 S1 S2 in {| g_oo := g_oo g; g_ov := S1; g_vo := fun a i => ST i a + lam_vo nocc nvir T1 T2 S1 S2 a i; g_vv := g_vv g |}) false P Q).
    - transitivity (allp frags (fun x c => let g := cc_gamma1 nocc nvir T1 T2 (up1 x c (L1s x)) (upt x c (L2s x)) in
        cc_rdm1 nocc {| g_oo := g_oo g; g_ov := g_ov g; g_vo := fun a i => up1 x c (rs1 K x (pt1 K x)) i a + lam_vo nocc nvir T1 T2 (up1 x c (L1s x)) (upt x c (L2s x)) a i; g_vv := g_vv g |} false P Q)).
      + unfold allp. apply Lsum_ext; intros x Hx. apply Lsum_ext; intros c Hc. apply B; auto.
      + assert (Ado : forall I J, allp frags (fun x c => g_oo (cc_gamma1 nocc nvir T1 T2 (up1 x c (L1s x)) (upt x c (L2s x))) I J) = g_oo (cc_gamma1 nocc nvir T1 T2 S1 S2) I J) by (intros; apply (additive_allp _ frags _ _ (additive_oo nocc nvir T1 T2 I J))).
        assert (Adv : forall I J, allp frags (fun x c => g_vv (cc_gamma1 nocc nvir T1 T2 (up1 x c (L1s x)) (upt x c (L2s x))) I J) = g_vv (cc_gamma1 nocc nvir T1 T2 S1 S2) I J) by (intros; apply (additive_allp _ frags _ _ (additive_vv nocc nvir T1 T2 I J))).
        assert (Adx : forall I J, allp frags (fun x c => lam_vo nocc nvir T1 T2 (up1 x c (L1s x)) (upt x c (L2s x)) I J) = lam_vo nocc nvir T1 T2 S1 S2 I J) by (intros; apply (additive_allp _ frags _ _ (additive_vo nocc nvir T1 T2 I J))).
        assert (Aadd : forall f g, allp frags (fun x c => f x c + g x c) = allp frags f + allp frags g) by (intros f g; unfold allp; rewrite <- Lsum_add; apply Lsum_ext; intros; apply Lsum_add).
        assert (Aov : forall I V, allp frags (fun x c => up1 x c (L1s x) I V + (up1 x c (rs1 K x (pt1 K x)) I V + lam_vo nocc nvir T1 T2 (up1 x c (L1s x)) (upt x c (L2s x)) V I)) = S1 I V + (ST I V + lam_vo nocc nvir T1 T2 S1 S2 V I)).
        { intros I V. rewrite (Aadd (fun x c => up1 x c (L1s x) I V)), (Aadd (fun x c => up1 x c (rs1 K x (pt1 K x)) I V)), Adx. reflexivity. }
        unfold cc_rdm1, blocks. cbv zeta. cbn [g_oo g_ov g_vo g_vv]. unfold symm, mtrans. destruct (P <? nocc)%nat, (Q <? nocc)%nat.
        * rewrite <- !Ado. apply Aadd.
        * exact (Aov P (Q - nocc)%nat).
        * exact (Aov Q (P - nocc)%nat).
        * rewrite <- !Adv. apply Aadd.
    - cbv zeta.
      rewrite <- (gamma1_ext K nocc nvir T1 T1 S1 L1 T2 T2 S2 L2 ltac:(auto) F1 ltac:(auto) F2 P Q HP HQ). apply rdm1_ext; auto. intros I V HI HV. cbn [g_ov g_vo]. rewrite lam_vo_eq, F3 by auto. reflexivity. }
  destruct mf; [|apply C; auto]. unfold add_diag. rewrite C by auto. unfold cc_rdm1. reflexivity.
Qed.

(** Both functions fail exactly if Lambda amplitudes that they need were not calculated. *)
Theorem C58_lambda_needed : forall frags sy mf, Forall (projected K) frags ->
  (exists d, part_rdm1 half nocc nvir frags true sy mf false = Some d) /\ (forall tal, exists d, part_rdm1 half nocc nvir frags tal sy mf true = Some d) /\
  (part_rdm1 half nocc nvir frags false sy mf false = None <-> Exists (fun x => M_Wf.l2 (pwf_as_ccsd (g_pwf x)) = None \/ (g_tal x = false /\ M_Wf.l1 (pwf_as_ccsd (g_pwf x)) = None)) frags).
Proof.
  intros frags sy mf Hp. destruct (C56_errors K half frags false Hp) as (_ & F). destruct (C56_errors K half frags true Hp) as (_ & T).
  assert (F' : exists t, global_t1 half frags false false = Some t).
  { destruct (global_t1 half frags false false) as [t|]; [eauto|]. exfalso. destruct (Logic.proj1 F eq_refl) as [? ? (X & _)|? ? X]; [discriminate|]. apply Exists_exists in X. destruct X as (y & _ & X & _). discriminate. }
  destruct F' as (t & Et).
  assert (L : forall m l1, exists e, part_loop half nocc nvir frags true sy m l1 = Some e).
  { intros m l1. assert (Z := loop_eq true sy m l1 frags). destruct (part_loop half nocc nvir frags true sy m l1) as [e|]; [eauto|]. apply Exists_exists in Z. destruct Z as (y & _ & X). discriminate. }
  split; [|split].
  - unfold part_rdm1. rewrite Et. destruct (L false t) as (e & ->). eauto.
  - intros tal. unfold part_rdm1. destruct (L true (fun _ _ => 0)) as (e & ->). eauto.
  - unfold part_rdm1. rewrite Et. assert (Z := fun l1 => loop_eq false sy false l1 frags). change (global_l1 half frags false false) with (global_t1 half frags true false). destruct (global_t1 half frags true false) as [l1|].
    + specialize (Z l1). destruct (part_loop half nocc nvir frags false sy false l1) as [e|].
      * split; [discriminate|]. intros H. exfalso. destruct Z as (Z & _). apply Exists_exists in H. destruct H as (x & Hx & H). rewrite Forall_forall in Z. specialize (Z x Hx). destruct H as [H|H]; [auto|].
        assert (X : Some l1 = None); [|discriminate]. apply T. apply Exists_exists. exists x. auto.
      * split; [|reflexivity]. intros _. apply Exists_exists in Z. destruct Z as (x & Hx & Z). apply Exists_exists. exists x. auto.
    + split; [|reflexivity]. intros _. destruct (Logic.proj1 T eq_refl) as [x l X|x l X]; [left; tauto|right]. apply Exists_exists in X. destruct X as (y & Hy & X). apply Exists_exists. exists y. tauto.
Qed.
Theorem C58_projected_lambda_needed : forall frags tal mf st, Forall (projected K) (gfrags frags) ->
  (proj_rdm1 half nocc frags tal mf st = None <-> tal = false /\ Exists (fun x : pfrag K => M_Wf.l1 (pwf_as_ccsd (g_pwf x)) = None \/ M_Wf.l2 (pwf_as_ccsd (g_pwf x)) = None) frags).
Proof.
  intros frags tal mf st Hp. assert (Z := proj_eq frags tal mf st).
  assert (D : forall x : pfrag K, In x frags -> (fragment_dm1 half x tal st = None <-> tal = false /\ (M_Wf.l1 (pwf_as_ccsd (g_pwf x)) = None \/ M_Wf.l2 (pwf_as_ccsd (g_pwf x)) = None))).
  { intros x Hx. assert (Px : projected K x) by (rewrite Forall_forall in Hp; apply Hp; apply in_map; auto). destruct (amps_ok x tal st Px) as (a & E & _ & _ & _ & _ & Y1 & Y2).
    unfold fragment_dm1, proj_gamma1. rewrite E. unfold lam1, lam2, pl1, pl2, lk1, lk2 in Y1, Y2. destruct tal, (a_l1x a), (a_l2x a), (M_Wf.l1 (pwf_as_ccsd (g_pwf x))), (M_Wf.l2 (pwf_as_ccsd (g_pwf x))); cbn in *; intuition congruence. }
  destruct (proj_rdm1 half nocc frags tal mf st) as [d|].
  - split; [discriminate|]. intros (Ht & H). exfalso. destruct Z as (Z & _). apply Exists_exists in H. destruct H as (x & Hx & H). rewrite Forall_forall in Z. apply (Z x Hx). apply D; auto.
  - split; [|reflexivity]. intros _. apply Exists_exists in Z. destruct Z as (x & Hx & Z). apply (D x Hx) in Z. destruct Z as (Z1 & Z2). split; [auto|]. apply Exists_exists. exists x. auto.
Qed.
End P.

(** ** Cases *)
Section Cases.
Lemma two_orthonormal : orthonormal QK 2 2 two_frags.
Proof. intros x c [<-|[<-|[]]] [<-|[<-|[]]]; split; intros i j Hi Hj; cbn in Hi, Hj; repeat (destruct i as [|i]; [|try (exfalso; lia)]); repeat (destruct j as [|j]; [|try (exfalso; lia)]); apply eqq_ok; vm_compute; reflexivity. Qed.
Example C58_electrons_case : exists d, part_rdm1 qh 2 2 two_frags false true true false = Some d /\ trace 4 d = q 4 1 /\ d 0%nat 0%nat <> q 2 1 /\ d 0%nat 1%nat = d 1%nat 0%nat /\ d 0%nat 1%nat <> 0%K /\ d 0%nat 2%nat <> 0%K.
Proof.
  destruct (is_some (part_rdm1 qh 2 2 two_frags false true true false)) as (d & E); [vm_compute; reflexivity|]. exists d. split; [auto|].
  split; [exact (C58_electrons QK qh qhh 2 2 two_frags false true true false d two_orthonormal E)|]. split; [apply (some_neq _ d _ _ _ E); vm_compute; reflexivity|].
  split; [exact (C58_symmetric QK qh 2 2 two_frags false true true false d E 0%nat 1%nat)|]. split; apply (some_neq _ d _ _ _ E); vm_compute; reflexivity.
Qed.
(** The wave functions of the clusters *)
Definition xp : pfrag QK := {| p_frag := xfrag false xwf; p_wf := PCC {| nocc1 := 2; M_Wf.t1 := fun i _ => match i with 0%nat => q 1 3 | _ => q 1 9 end;
  M_Wf.t2 := fun i j _ _ => if Nat.eqb i j then q 1 2 else q 1 5; M_Wf.l1 := Some (fun _ _ => q 1 7); M_Wf.l2 := Some (fun i j _ _ => if Nat.eqb i j then q 2 3 else q (-1) 4); projector := None |} |}.
Definition yp : pfrag QK := {| p_frag := yfrag; p_wf := PMP2 1 (fun _ _ a b => if Nat.eqb a b then q 1 6 else q 1 8) None |}.
Example C58_projected_case : exists d, proj_rdm1 qh 2 [xp; yp] false true true = Some d /\ trace 4 d = q 4 1 /\ d 0%nat 0%nat <> q 2 1 /\ d 0%nat 2%nat = d 2%nat 0%nat /\ d 0%nat 2%nat <> 0%K.
Proof.
  destruct (is_some (proj_rdm1 qh 2 [xp; yp] false true true)) as (d & E); [vm_compute; reflexivity|]. exists d. split; [auto|].
  split; [exact (C58_projected_electrons QK qh 2 2 [xp; yp] false true true d two_orthonormal E)|]. split; [apply (some_neq _ d _ _ _ E); vm_compute; reflexivity|].
  split; [exact (C58_projected_symmetric QK qh 2 [xp; yp] false true true d E 0%nat 2%nat)|]. apply (some_neq _ d _ _ _ E); vm_compute; reflexivity.
Qed.
Example C58_lambda_needed_case : part_rdm1 qh 2 2 [xfrag true xwf'; yfrag] false true true false = None /\ (exists d, part_rdm1 qh 2 2 [xfrag true xwf'; yfrag] true true true false = Some d) /\
  (exists d, part_rdm1 qh 2 2 [xfrag true xwf'; yfrag] false true true true = Some d).
Proof.
  destruct (C58_lambda_needed QK qh 2 2 [xfrag true xwf'; yfrag] true true) as (A & B & C); [repeat constructor; [apply xfrag_projected; reflexivity|apply yfrag_projected]|].
  split; [apply C; left; left; reflexivity|]. split; [exact A|apply B].
Qed.
Example C58_projected_lambda_needed_case : proj_rdm1 qh 2 [{| p_frag := xfrag false xwf'; p_wf := p_wf xp |}; yp] false true true = None /\ exists d, proj_rdm1 qh 2 [{| p_frag := xfrag false xwf'; p_wf := p_wf xp |}; yp] true true true = Some d.
Proof.
  split; [|apply is_some; vm_compute; reflexivity]. apply (C58_projected_lambda_needed QK qh 2 _ false true true); [repeat constructor; [apply xfrag_projected; reflexivity|apply yfrag_projected]|]. split; [reflexivity|]. left. left. reflexivity.
Qed.
(** Finding: for truncated clusters the density matrix depends on the option symmetrize. *)
Theorem C59_truncated_refuted : ~ (forall frags d d', Forall (projected QK) frags -> Forall (insides QK 2) frags -> orthonormal QK 2 2 frags ->
  part_rdm1 qh 2 2 frags false true true false = Some d -> part_rdm1 qh 2 2 frags false false true false = Some d' -> forall p p', (p < 4)%nat -> (p' < 4)%nat -> d p p' = d' p p').
Proof.
  intros H. destruct (is_some (part_rdm1 qh 2 2 two_frags false true true false)) as (d & E); [vm_compute; reflexivity|]. destruct (is_some (part_rdm1 qh 2 2 two_frags false false true false)) as (d' & E'); [vm_compute; reflexivity|].
  specialize (H two_frags d d' two_frags_projected). specialize (H ltac:(repeat constructor; [apply xfrag_inside|apply yfrag_inside]) two_orthonormal E E' 0%nat 2%nat ltac:(lia) ltac:(lia)).
  revert H. apply (some_neq2 _ _ d d' _ _ E E'). vm_compute. reflexivity.
Qed.
Lemma ffrag_full : full_bath QK 2 2 [ffrag].
Proof. destruct ffrag_ok as (_ & _ & A & B & _). split; assumption. Qed.
Definition L2f (I J A B : nat) : QK := (q 3 4 * T2f I J A B)%K.
Lemma L2f_exch I J A B : L2f I J A B = L2f J I B A.
Proof. unfold L2f. rewrite T2f_exch. reflexivity. Qed.
Example C59_partitioned_case : forall sy, exists d, part_rdm1 qh 2 2 [ffrag] false sy true false = Some d /\
  (forall p p', (p < 4)%nat -> (p' < 4)%nat -> d p p' = cc_rdm1 2 (cc_gamma1 2 2 T1f T2f T1f L2f) true p p') /\ d 0%nat 3%nat <> 0%K.
Proof.
  intros sy. destruct ffrag_ok as (A & B & _). destruct (C59_partitioned QK qh qhh 2 2 [ffrag] false sy true T1f T1f T2f L2f ffrag_full A B T2f_exch L2f_exch) as (d & E & H).
  - intros x [<-|[]]. split; [apply ffrag_amp1|apply ffrag_amp2'].
  - intros x [<-|[]]. exists T1f, L2f. split; [reflexivity|]. split; [reflexivity|]. split; [apply ffrag_amp1|apply ffrag_amp2].
  - exists d. split; [auto|]. split; [exact H|]. apply (some_neq _ d _ _ _ E). destruct sy; vm_compute; reflexivity.
Qed.
Example C59_partitioned_mp2_case : forall sy, exists d, part_rdm1 qh 2 2 [ffrag] false sy true true = Some d /\ (forall p p', (p < 4)%nat -> (p' < 4)%nat -> d p p' = mp2_rdm1 2 2 T2f true p p') /\ d 0%nat 1%nat <> 0%K.
Proof.
  intros sy. destruct (C59_partitioned_mp2 QK qh qhh 2 2 [ffrag] false sy true T2f ffrag_full T2f_exch) as (d & E & H).
  - intros x [<-|[]]. apply ffrag_amp2'.
  - exists d. split; [auto|]. split; [exact H|]. apply (some_neq _ d _ _ _ E). destruct sy; vm_compute; reflexivity.
Qed.
Definition fp : pfrag QK := {| p_frag := ffrag; p_wf := PCC {| nocc1 := 2; M_Wf.t1 := T1f; M_Wf.t2 := T2f; M_Wf.l1 := Some T1f; M_Wf.l2 := Some L2f; projector := None |} |}.
Example C59_projected_case : forall st, exists d, proj_rdm1 qh 2 [fp] false true st = Some d /\ (forall p p', (p < 4)%nat -> (p' < 4)%nat -> d p p' = cc_rdm1 2 (cc_gamma1 2 2 T1f T2f T1f L2f) true p p') /\ d 0%nat 3%nat <> 0%K.
Proof.
  intros st. destruct ffrag_ok as (A & B & _). destruct (C59_projected QK qh qhh 2 2 [fp] false st true T1f T1f T2f L2f ffrag_full A B L2f_exch) as (d & E & H).
  - intros x [<-|[]]. split; [|split; [|apply ffrag_amp1]].
    + intros c [<-|[<-|[]]] i a Hi Ha. all: cbn in Hi, Ha; destruct i as [|[|i]]; try (exfalso; lia); destruct a as [|[|a]]; try (exfalso; lia); apply eqq_ok; vm_compute; reflexivity.
    + intros c [<-|[<-|[]]] i j a b Hi Hj Ha Hb. all: cbn in Hi, Hj, Ha, Hb; destruct i as [|[|i]]; try (exfalso; lia); destruct j as [|[|j]]; try (exfalso; lia); destruct a as [|[|a]]; try (exfalso; lia); destruct b as [|[|b]]; try (exfalso; lia); apply eqq_ok; vm_compute; reflexivity.
  - intros x [<-|[]]. exists T1f, L2f. split; [reflexivity|]. split; [reflexivity|]. split; [apply ffrag_amp1|apply ffrag_amp2].
  - exists d. split; [auto|]. split; [exact H|]. apply (some_neq _ d _ _ _ E). destruct st; vm_compute; reflexivity.
Qed.
End Cases.

Print Assumptions C58_electrons.
Print Assumptions C58_symmetric.
Print Assumptions C58_projected_electrons.
Print Assumptions C58_projected_symmetric.
Print Assumptions C58_lambda_needed.
Print Assumptions C58_projected_lambda_needed.
Print Assumptions C59_partitioned.
Print Assumptions C59_partitioned_mp2.
Print Assumptions C59_projected.
Print Assumptions C59_truncated_refuted.
