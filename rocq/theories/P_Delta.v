(** * C66, third part: corrections of type delta-tailor (model in M_ExtCorr) *)
From Coq Require Import List Bool Arith Lia Ring Field ZArith QArith Qcanon.
From Verif Require Import Alg M_Wf M_TtoC P_TtoC M_ExtCorr P_ExtCorr P_ExtCall M_Tailor P_Tailor.
Import ListNotations.
Open Scope K_scope.

Section Arrd.
Context {K : cring}.
Add Ring Kr2 : (rth K).
Notation mat := (nat -> nat -> K). Notation ten := (nat -> nat -> nat -> nat -> K).
(** the n orbitals are spanned by the m orbitals they overlap with by r *)
Definition spanned (n m : nat) (r : mat) : Prop := forall i j, (i < n)%nat -> (j < n)%nat -> Sum m (fun k => r i k * r j k) = delta i j.
(** the projector onto fragment orbitals with coefficients f in the m orbitals, in terms of the n orbitals *)
Definition frag_proj (m nf : nat) (f r : mat) : mat := fun I J => Sum nf (fun z => Sum m (fun k => r I k * f z k) * Sum m (fun k => r J k * f z k)).
Lemma frag_proj_eq m nf (f r : mat) I J : Sum m (fun i => r J i * Sum m (fun k => gram nf f k i * r I k)) = frag_proj m nf f r I J.
Proof.
  unfold frag_proj, gram. transitivity (Sum m (fun i => Sum m (fun k => Sum nf (fun z => r J i * f z k * f z i * r I k)))).
  - apply Sum_ext. intros i _. rewrite <- Sum_mul_l. apply Sum_ext. intros k _. rewrite <- Sum_mul_r, <- Sum_mul_l. apply Sum_ext. intros. ring.
  - transitivity (Sum nf (fun z => Sum m (fun i => Sum m (fun k => r J i * f z k * f z i * r I k)))).
    + rewrite (Sum_swap nf m). apply Sum_ext. intros i _. apply Sum_swap.
    + apply Sum_ext. intros z _. rewrite Sum_mul_Sum, Sum_swap. apply Sum_ext. intros k _. apply Sum_ext. intros. ring.
Qed.
Lemma there_back2 xo xo' xv xv' no no' nv nv' (d : ten) ro ro' rv rv' I J A B : spanned xo no ro -> spanned xo' no' ro' -> spanned xv nv rv -> spanned xv' nv' rv' ->
  (I < xo)%nat -> (J < xo')%nat -> (A < xv)%nat -> (B < xv')%nat ->
  trans2 no no' nv nv' (trans2 xo xo' xv xv' d ro ro' rv rv') (tr ro) (tr ro') (tr rv) (tr rv') I J A B = d I J A B.
Proof. intros H1 H2 H3 H4 HI HJ HA HB. rewrite trans2_trans2. apply P_Tailor.trans2_id; try assumption; intros k Hk; unfold tr; [apply H1|apply H2|apply H3|apply H4]; assumption. Qed.
Lemma there_back1 xo xv no nv (d ro rv : mat) I A : spanned xo no ro -> spanned xv nv rv -> (I < xo)%nat -> (A < xv)%nat -> trans1 no nv (trans1 xo xv d ro rv) (tr ro) (tr rv) I A = d I A.
Proof. intros H1 H3 HI HA. rewrite trans1_trans1. apply P_Tailor.trans1_id; try assumption; intros k Hk; unfold tr; [apply H1|apply H3]; assumption. Qed.
Lemma proj_there_back1 xo xv no nv nf (d f ro rv : mat) I A : spanned xv nv rv -> (I < xo)%nat -> (A < xv)%nat ->
  trans1 no nv (pdot no (gram nf f) (trans1 xo xv d ro rv)) (tr ro) (tr rv) I A = Sum xo (fun J => frag_proj no nf f ro I J * d J A).
Proof.
  intros H HI HA. rewrite trans1_pdot, trans1_trans1. unfold tr, trans1. apply Sum_ext. intros J _. rewrite frag_proj_eq.
  etransitivity; [apply Sum_ext; intros a Ha; rewrite (H a A Ha HA); reflexivity|]. etransitivity; [apply (Sum_delta_r xv A (fun a => d J a * frag_proj no nf f ro I J) HA)|]. ring.
Qed.
Lemma proj_there_back2 xo xo' xv xv' no no' nv nv' nf (d : ten) (f ro ro' rv rv' : mat) I J A B : spanned xo' no' ro' -> spanned xv nv rv -> spanned xv' nv' rv' -> (J < xo')%nat -> (A < xv)%nat -> (B < xv')%nat ->
  trans2 no no' nv nv' (fun i j a b => Sum no (fun k => gram nf f i k * trans2 xo xo' xv xv' d ro ro' rv rv' k j a b)) (tr ro) (tr ro') (tr rv) (tr rv') I J A B = Sum xo (fun L => frag_proj no nf f ro I L * d L J A B).
Proof.
  intros H2 H3 H4 HJ HA HB. rewrite trans2_p1, trans2_trans2, trans2_cur. unfold trans1 at 1. apply Sum_ext. intros L _. unfold tr. rewrite frag_proj_eq.
  etransitivity; [apply Sum_ext; intros a Ha; rewrite (H3 a A Ha HA); reflexivity|].
  rewrite (Sum_delta_r xv A (fun a => trans1 xo' xv' (fun j b => d L j a b) _ _ J B * frag_proj no nf f ro I L) HA).
  rewrite (P_Tailor.trans1_id xo' xv' (fun j b => d L j A b)) by (try assumption; intros k Hk; first [apply H2 | apply H4]; assumption). ring.
Qed.
Lemma proj_there_back2' xo xo' xv xv' no no' nv nv' nf (d : ten) (f ro ro' rv rv' : mat) I J A B : spanned xo no ro -> spanned xv nv rv -> spanned xv' nv' rv' -> (I < xo)%nat -> (A < xv)%nat -> (B < xv')%nat ->
  trans2 no no' nv nv' (fun i j a b => Sum no' (fun k => gram nf f j k * trans2 xo xo' xv xv' d ro ro' rv rv' i k a b)) (tr ro) (tr ro') (tr rv) (tr rv') I J A B = Sum xo' (fun L => frag_proj no' nf f ro' J L * d I L A B).
Proof.
  intros H1 H3 H4 HI HA HB. rewrite <- trans2_flip.
  rewrite <- (proj_there_back2 xo' xo xv' xv no' no nv' nv nf (fun j i b a => d i j a b) f ro' ro rv' rv J I B A) by assumption.
  apply trans2_ext; try reflexivity. intros j i b a _ _ _ _. apply Sum_ext. intros k _. f_equal. rewrite <- trans2_flip. reflexivity.
Qed.
End Arrd.

Section Delta.
Context {F : cfield}.
Add Field Ff2 : (fth F).
Notation mat := (nat -> nat -> F). Notation ten := (nat -> nat -> nat -> nat -> F).
Variable half : F.
(** ** Restricted *)
(** amplitudes of x in the orbitals of the cluster of y *)
Definition in_cluster (x : @rclusterx F) (y : @rfrag F) (t : mat * ten) (s : mat * ten) : Prop :=
  forall i j a b, (i < y_no y)%nat -> (j < y_no y)%nat -> (a < y_nv y)%nat -> (b < y_nv y)%nat ->
  fst s i a = Sum (x_no x) (fun k => Sum (x_nv x) (fun c => fst t k c * y_ro y k i * y_rv y c a)) /\
  snd s i j a b = Sum (x_no x) (fun k => Sum (x_no x) (fun l => Sum (x_nv x) (fun c => Sum (x_nv x) (fun d => snd t k l c d * y_ro y k i * y_ro y l j * y_rv y c a * y_rv y d b)))).
(** fragments that see both sets of amplitudes W and T as they are, W in the wave function and T in the CCSD solution, and whose clusters span that of x *)
Definition sees (x : @rclusterx F) (W T : mat * ten) (y : @rfrag F) : Prop :=
  y_id y <> x_id x /\ spanned (x_no x) (y_no y) (y_ro y) /\ spanned (x_nv x) (y_nv y) (y_rv y) /\ in_cluster x y W (rt1 (y_wf y), rt2 (y_wf y)) /\ in_cluster x y T (y_ccsd y).
Definition weighted_d (x : @rclusterx F) (ys : list (@rfrag F * bool)) (p : nat) : Prop :=
  (p = 0%nat /\ length ys = 1%nat) \/
  (p = 1%nat /\ ys <> [] /\ forall i j, (i < x_no x)%nat -> (j < x_no x)%nat -> Lsum ys (fun v => frag_proj (y_no (fst v)) (y_nf (fst v)) (y_fo (fst v)) (y_ro (fst v)) i j) = delta i j).
Lemma delta_value x W T y low p : (forall i j a b, snd W i j a b = snd W j i b a) -> (forall i j a b, snd T i j a b = snd T j i b a) -> sees x W T y -> (p <= 1)%nat ->
  let d1 := fun i a => fst W i a - fst T i a in let d2 := fun i j a b => snd W i j a b - snd T i j a b in let P := frag_proj (y_no y) (y_nf y) (y_fo y) (y_ro y) in
  exists d, r_contribution half x (y, DeltaTailor, p, low) = Ret d /\ forall I J A B, (I < x_no x)%nat -> (J < x_no x)%nat -> (A < x_nv x)%nat -> (B < x_nv x)%nat ->
    fst d I A = match p with O => d1 I A | _ => Sum (x_no x) (fun k => P I k * d1 k A) end /\
    snd d I J A B = match p with O => d2 I J A B | _ => half * (Sum (x_no x) (fun k => P I k * d2 k J A B) + Sum (x_no x) (fun k => P J k * d2 k I B A)) end.
Proof.
  intros SW ST (Hid & So & Sv & VW & VT) Hp d1 d2 P.
  assert (E1 : forall i a, (i < y_no y)%nat -> (a < y_nv y)%nat -> rt1 (y_wf y) i a - fst (y_ccsd y) i a = trans1 (x_no x) (x_nv x) d1 (y_ro y) (y_rv y) i a).
  { intros i a Hi Ha. rewrite (proj1 (VT i i a a Hi Hi Ha Ha)). pose proof (proj1 (VW i i a a Hi Hi Ha Ha)) as X. cbn [fst] in X. rewrite X. symmetry. apply trans1_sub. }
  assert (E2 : forall i j a b, (i < y_no y)%nat -> (j < y_no y)%nat -> (a < y_nv y)%nat -> (b < y_nv y)%nat -> rt2 (y_wf y) i j a b - snd (y_ccsd y) i j a b =
    trans2 (x_no x) (x_no x) (x_nv x) (x_nv x) d2 (y_ro y) (y_ro y) (y_rv y) (y_rv y) i j a b).
  { intros i j a b Hi Hj Ha Hb. rewrite (proj2 (VT i j a b Hi Hj Ha Hb)). pose proof (proj2 (VW i j a b Hi Hj Ha Hb)) as X. cbn [snd] in X. rewrite X. symmetry. apply trans2_sub. }
  unfold r_contribution. rewrite (proj2 (Nat.eqb_neq _ _) Hid). cbn [rbind]. destruct p as [|[|p]]; [| |lia]; cbn [project_r rbind];
    (destruct low; cbn [rbind]; eexists; (split; [reflexivity|])); intros I J A B HI HJ HA HB; cbn [fst snd].
  1,2: split; [etransitivity; [|apply (there_back1 (x_no x) (x_nv x) (y_no y) (y_nv y) d1 _ _ I A So Sv HI HA)]; apply trans1_ext; try reflexivity; intros; apply E1; assumption|
               etransitivity; [|apply (there_back2 _ _ _ _ (y_no y) (y_no y) (y_nv y) (y_nv y) d2 _ _ _ _ I J A B So So Sv Sv HI HJ HA HB)]; apply trans2_ext; try reflexivity; intros; apply E2; assumption].
  1,2: split; [etransitivity; [|apply (proj_there_back1 (x_no x) (x_nv x) (y_no y) (y_nv y) (y_nf y) d1 _ _ _ I A Sv HI HA)]; apply trans1_ext; try reflexivity; intros; apply Sum_ext; intros; rewrite E1 by assumption; reflexivity|
    rewrite trans2_scale; f_equal; rewrite trans2_add; f_equal;
     [etransitivity; [|apply (proj_there_back2 (x_no x) (x_no x) (x_nv x) (x_nv x) (y_no y) (y_no y) (y_nv y) (y_nv y) (y_nf y) d2 (y_fo y) _ _ _ _ I J A B So Sv Sv HJ HA HB)]; apply trans2_ext; try reflexivity; intros; apply Sum_ext; intros; rewrite E2 by assumption; reflexivity|
      etransitivity; [apply (trans2_flip _ _ _ _ (fun i j a b => Sum (y_no y) (fun k => gram (y_nf y) (y_fo y) i k * (rt2 (y_wf y) k j a b - snd (y_ccsd y) k j a b))))|];
      etransitivity; [|apply (proj_there_back2 (x_no x) (x_no x) (x_nv x) (x_nv x) (y_no y) (y_no y) (y_nv y) (y_nv y) (y_nf y) d2 (y_fo y) _ _ _ _ J I B A So Sv Sv HI HB HA)]; apply trans2_ext; try reflexivity; intros; apply Sum_ext; intros; rewrite E2 by assumption; reflexivity]].
Qed.
Lemma sum_proj {X} n (l : list X) (P : X -> mat) (g : nat -> F) i : (i < n)%nat -> (forall i j, (i < n)%nat -> (j < n)%nat -> Lsum l (fun y => P y i j) = delta i j) -> Lsum l (fun y => Sum n (fun k => P y i k * g k)) = g i.
Proof. intros Hi H. rewrite Lsum_Sum. etransitivity; [apply Sum_ext; intros k Hk; rewrite Lsum_mul_r, (H i k Hi Hk); reflexivity|]. apply (Sum_delta_l n i g Hi). Qed.
(** Delta-tailoring takes the amplitudes T of a CCSD calculation to the amplitudes W, if every fragment has W as its wave function and T as its CCSD solution.
    One fragment that is not projected, or any number of fragments whose projectors add up to one. *)
Theorem C66_delta x W T (ys : list (@rfrag F * bool)) p : half + half = 1 -> (forall i j a b, snd W i j a b = snd W j i b a) -> (forall i j a b, snd T i j a b = snd T j i b a) ->
  (forall v, In v ys -> sees x W T (fst v)) -> weighted_d x ys p ->
  exists d, r_externally_correct half x (map (fun v => (fst v, DeltaTailor, p, snd v)) ys) = Ret d /\ forall I J A B, (I < x_no x)%nat -> (J < x_no x)%nat -> (A < x_nv x)%nat -> (B < x_nv x)%nat ->
    fst (r_callback d T) I A = fst W I A /\ snd (r_callback d T) I J A B = snd W I J A B.
Proof.
  intros Hh SW ST Hs Hw.
  assert (Hp : (p <= 1)%nat) by (destruct Hw as [[-> _]|[-> _]]; lia).
  set (d1 := fun i a => fst W i a - fst T i a). set (d2 := fun i j a b => snd W i j a b - snd T i j a b).
  set (P := fun v : @rfrag F * bool => frag_proj (y_no (fst v)) (y_nf (fst v)) (y_fo (fst v)) (y_ro (fst v))).
  assert (X : exists ds, Forall2 (fun c d => r_contribution half x c = Ret d) (map (fun v => (fst v, DeltaTailor, p, snd v)) ys) ds /\
    forall I J A B, (I < x_no x)%nat -> (J < x_no x)%nat -> (A < x_nv x)%nat -> (B < x_nv x)%nat ->
    Lsum ds (fun d => fst d I A) = Lsum ys (fun v => match p with O => d1 I A | _ => Sum (x_no x) (fun k => P v I k * d1 k A) end) /\
    Lsum ds (fun d => snd d I J A B) = Lsum ys (fun v => match p with O => d2 I J A B | _ => half * (Sum (x_no x) (fun k => P v I k * d2 k J A B) + Sum (x_no x) (fun k => P v J k * d2 k I B A)) end)).
  { clear Hw. induction ys as [|v ys IH].
    - exists []. split; [constructor|]. intros. split; reflexivity.
    - destruct IH as (ds & HF & V); [intros u Hu; apply Hs; right; exact Hu|].
      destruct (delta_value x W T (fst v) (snd v) p SW ST (Hs v (or_introl eq_refl)) Hp) as (d & E & D). exists (d :: ds). split; [constructor; assumption|].
      intros I J A B HI HJ HA HB. destruct (V I J A B HI HJ HA HB) as [V1 V2]. destruct (D I J A B HI HJ HA HB) as [D1 D2]. cbn [Lsum]. rewrite V1, V2, D1, D2. split; reflexivity. }
  destruct X as (ds & HF & V). destruct (r_loop_ok half x _ ds HF ((fun _ _ => 0), (fun _ _ _ _ => 0)) None) as (acc & E & VA).
  unfold r_externally_correct. rewrite E. cbn [rbind]. destruct acc as [a1 a2].
  assert (L : last_type (map (fun v => (fst v, DeltaTailor, p, snd v)) ys) None = Some DeltaTailor).
  { assert (Hn : ys <> []) by (destruct Hw as [[_ H]|[_ [H _]]]; [destruct ys; [discriminate|discriminate]|exact H]).
    assert (G : forall (l : list (@rfrag F * bool)) z, l <> [] \/ z = Some DeltaTailor -> last_type (map (fun v => (fst v, DeltaTailor, p, snd v)) l) z = Some DeltaTailor).
    { induction l as [|v l IH]; intros z [H|H]; [congruence|exact H| |]; cbn [map last_type]; apply IH; right; reflexivity. }
    apply G. left. exact Hn. }
  rewrite L. eexists. split; [reflexivity|]. intros I J A B HI HJ HA HB. destruct (VA I J A B) as [VA1 VA2]. destruct (V I J A B HI HJ HA HB) as [V1 V2]. cbn [fst snd] in *.
  unfold r_callback, add1, add2. cbn [fst snd]. rewrite VA1, VA2, V1, V2.
  destruct Hw as [[-> Hl]|[-> [_ HP]]].
  - destruct ys as [|v [|? ?]]; try discriminate. cbn [Lsum]. unfold d1, d2. split; ring.
  - rewrite Lsum_mul_l, Lsum_add.
    rewrite (sum_proj _ ys P (fun k => d1 k A) I HI HP), (sum_proj _ ys P (fun k => d2 k J A B) I HI HP), (sum_proj _ ys P (fun k => d2 k I B A) J HJ HP).
    unfold d1, d2. rewrite (SW J I), (ST J I). split; [ring|]. transitivity (snd T I J A B + (half + half) * (snd W I J A B - snd T I J A B)); [ring|rewrite Hh; ring].
Qed.

(** ** Unrestricted *)
Notation mat2 := (mat * mat)%type. Notation ten3 := (ten * ten * ten)%type.
(** amplitudes of one pair of spin channels s, s' in the orbitals of the cluster of y *)
Definition seen_1 (xo xv no nv : nat) (ro rv t s : mat) : Prop := forall i a, (i < no)%nat -> (a < nv)%nat -> s i a = Sum xo (fun k => Sum xv (fun c => t k c * ro k i * rv c a)).
Definition seen_2 (xo xo' xv xv' no no' nv nv' : nat) (ro ro' rv rv' : mat) (t s : ten) : Prop := forall i j a b, (i < no)%nat -> (j < no')%nat -> (a < nv)%nat -> (b < nv')%nat ->
  s i j a b = Sum xo (fun k => Sum xo' (fun l => Sum xv (fun c => Sum xv' (fun d => t k l c d * ro k i * ro' l j * rv c a * rv' d b)))).
Definition in_cluster_u (x : @uclusterx F) (y : @ufrag F) (t s : mat2 * ten3) : Prop :=
  let xa := fst (ux_no x) in let xb := snd (ux_no x) in let va := fst (ux_nv x) in let vb := snd (ux_nv x) in
  let na := fst (uy_no y) in let nb := snd (uy_no y) in let ma := fst (uy_nv y) in let mb := snd (uy_nv y) in
  let oa := fst (uy_ro y) in let ob := snd (uy_ro y) in let pa := fst (uy_rv y) in let pb := snd (uy_rv y) in
  seen_1 xa va na ma oa pa (fst (fst t)) (fst (fst s)) /\ seen_1 xb vb nb mb ob pb (snd (fst t)) (snd (fst s)) /\
  seen_2 xa xa va va na na ma ma oa oa pa pa (fst (fst (snd t))) (fst (fst (snd s))) /\ seen_2 xa xb va vb na nb ma mb oa ob pa pb (snd (fst (snd t))) (snd (fst (snd s))) /\
  seen_2 xb xb vb vb nb nb mb mb ob ob pb pb (snd (snd t)) (snd (snd s)).
Definition sees_u (x : @uclusterx F) (W T : mat2 * ten3) (y : @ufrag F) : Prop :=
  uy_id y <> ux_id x /\ spanned (fst (ux_no x)) (fst (uy_no y)) (fst (uy_ro y)) /\ spanned (snd (ux_no x)) (snd (uy_no y)) (snd (uy_ro y)) /\
  spanned (fst (ux_nv x)) (fst (uy_nv y)) (fst (uy_rv y)) /\ spanned (snd (ux_nv x)) (snd (uy_nv y)) (snd (uy_rv y)) /\
  in_cluster_u x y W (ut1 (uy_wf y), ut2 (uy_wf y)) /\ in_cluster_u x y T (uy_ccsd y).
Definition proj_a (v : @ufrag F * bool) : mat := frag_proj (fst (uy_no (fst v))) (fst (uy_nf (fst v))) (fst (uy_fo (fst v))) (fst (uy_ro (fst v))).
Definition proj_b (v : @ufrag F * bool) : mat := frag_proj (snd (uy_no (fst v))) (snd (uy_nf (fst v))) (snd (uy_fo (fst v))) (snd (uy_ro (fst v))).
Definition weighted_du (x : @uclusterx F) (ys : list (@ufrag F * bool)) (p : nat) : Prop :=
  (p = 0%nat /\ length ys = 1%nat) \/
  (p = 1%nat /\ ys <> [] /\ (forall i j, (i < fst (ux_no x))%nat -> (j < fst (ux_no x))%nat -> Lsum ys (fun v => proj_a v i j) = delta i j) /\
     (forall i j, (i < snd (ux_no x))%nat -> (j < snd (ux_no x))%nat -> Lsum ys (fun v => proj_b v i j) = delta i j)).
Definition pairsym (t : ten) : Prop := forall i j a b, t i j a b = t j i b a.
Definition w1 (p n : nat) (P d : mat) : mat := fun I A => match p with O => d I A | _ => Sum n (fun k => P I k * d k A) end.
Definition w2 (p n : nat) (P : mat) (d : ten) : ten := fun I J A B => match p with O => d I J A B | _ => half * (Sum n (fun k => P I k * d k J A B) + Sum n (fun k => P J k * d k I B A)) end.
Definition w2ab (p n n' : nat) (P P' : mat) (d : ten) : ten := fun I J A B => match p with O => d I J A B | _ => half * (Sum n (fun k => P I k * d k J A B) + Sum n' (fun k => P' J k * d I k A B)) end.
Lemma chan1 p xo xv no nv nf (f ro rv w t s c : mat) I A : (p <= 1)%nat -> spanned xo no ro -> spanned xv nv rv -> seen_1 xo xv no nv ro rv w s -> seen_1 xo xv no nv ro rv t c -> (I < xo)%nat -> (A < xv)%nat ->
  trans1 no nv (match p with O => (fun i a => s i a - c i a) | _ => pdot no (gram nf f) (fun i a => s i a - c i a) end) (tr ro) (tr rv) I A = w1 p xo (frag_proj no nf f ro) (fun k a => w k a - t k a) I A.
Proof.
  intros Hp So Sv HW HT HI HA. set (d1 := fun k a => w k a - t k a).
  assert (E1 : forall i a, (i < no)%nat -> (a < nv)%nat -> s i a - c i a = trans1 xo xv d1 ro rv i a) by (intros i a Hi Ha; rewrite (HW i a Hi Ha), (HT i a Hi Ha); symmetry; apply trans1_sub).
  destruct p as [|[|p]]; [| |lia]; cbn [w1].
  - etransitivity; [|apply (there_back1 xo xv no nv d1 ro rv I A So Sv HI HA)]. apply trans1_ext; try reflexivity. intros; apply E1; assumption.
  - etransitivity; [|apply (proj_there_back1 xo xv no nv nf d1 f ro rv I A Sv HI HA)]. apply trans1_ext; try reflexivity. intros. unfold pdot. apply Sum_ext; intros; rewrite E1 by assumption; reflexivity.
Qed.
Lemma chan2 p xo xv no nv nf (f ro rv : mat) (w t s c : ten) (e : ten) I J A B : (p <= 1)%nat -> spanned xo no ro -> spanned xv nv rv -> seen_2 xo xo xv xv no no nv nv ro ro rv rv w s -> seen_2 xo xo xv xv no no nv nv ro ro rv rv t c ->
  project_r half no (fun i j a b => s i j a b - c i j a b) (gram nf f) p = Ret e -> (I < xo)%nat -> (J < xo)%nat -> (A < xv)%nat -> (B < xv)%nat ->
  trans2 no no nv nv e (tr ro) (tr ro) (tr rv) (tr rv) I J A B = w2 p xo (frag_proj no nf f ro) (fun i j a b => w i j a b - t i j a b) I J A B.
Proof.
  intros Hp So Sv HW HT HE HI HJ HA HB. set (d2 := fun i j a b => w i j a b - t i j a b).
  assert (E2 : forall i j a b, (i < no)%nat -> (j < no)%nat -> (a < nv)%nat -> (b < nv)%nat -> s i j a b - c i j a b = trans2 xo xo xv xv d2 ro ro rv rv i j a b)
    by (intros i j a b Hi Hj Ha Hb; rewrite (HW i j a b Hi Hj Ha Hb), (HT i j a b Hi Hj Ha Hb); symmetry; apply trans2_sub).
  destruct p as [|[|p]]; [| |lia]; cbn [project_r] in HE; injection HE as <-; unfold w2.
  - etransitivity; [|apply (there_back2 xo xo xv xv no no nv nv d2 ro ro rv rv I J A B So So Sv Sv HI HJ HA HB)]. apply trans2_ext; try reflexivity. intros; apply E2; assumption.
  - rewrite trans2_scale. f_equal. rewrite trans2_add. f_equal.
    + etransitivity; [|apply (proj_there_back2 xo xo xv xv no no nv nv nf d2 f ro ro rv rv I J A B So Sv Sv HJ HA HB)]. apply trans2_ext; try reflexivity. intros; apply Sum_ext; intros; rewrite E2 by assumption; reflexivity.
    + etransitivity; [apply (trans2_flip _ _ _ _ (fun i j a b => Sum no (fun k => gram nf f i k * (s k j a b - c k j a b))))|].
      etransitivity; [|apply (proj_there_back2 xo xo xv xv no no nv nv nf d2 f ro ro rv rv J I B A So Sv Sv HI HB HA)]. apply trans2_ext; try reflexivity. intros; apply Sum_ext; intros; rewrite E2 by assumption; reflexivity.
Qed.
Lemma chan_ab p xo xo' xv xv' no no' nv nv' nf nf' (f f' ro ro' rv rv' : mat) (w t s c : ten) I J A B : (p <= 1)%nat -> spanned xo no ro -> spanned xo' no' ro' -> spanned xv nv rv -> spanned xv' nv' rv' ->
  seen_2 xo xo' xv xv' no no' nv nv' ro ro' rv rv' w s -> seen_2 xo xo' xv xv' no no' nv nv' ro ro' rv rv' t c -> (I < xo)%nat -> (J < xo')%nat -> (A < xv)%nat -> (B < xv')%nat ->
  trans2 no no' nv nv' (fun i j a b => match p with O => s i j a b - c i j a b | _ => half * (Sum no (fun k => gram nf f i k * (s k j a b - c k j a b)) + Sum no' (fun k => gram nf' f' j k * (s i k a b - c i k a b))) end)
    (tr ro) (tr ro') (tr rv) (tr rv') I J A B = w2ab p xo xo' (frag_proj no nf f ro) (frag_proj no' nf' f' ro') (fun i j a b => w i j a b - t i j a b) I J A B.
Proof.
  intros Hp So So' Sv Sv' HW HT HI HJ HA HB. set (d2 := fun i j a b => w i j a b - t i j a b).
  assert (E2 : forall i j a b, (i < no)%nat -> (j < no')%nat -> (a < nv)%nat -> (b < nv')%nat -> s i j a b - c i j a b = trans2 xo xo' xv xv' d2 ro ro' rv rv' i j a b)
    by (intros i j a b Hi Hj Ha Hb; rewrite (HW i j a b Hi Hj Ha Hb), (HT i j a b Hi Hj Ha Hb); symmetry; apply trans2_sub).
  destruct p as [|[|p]]; [| |lia]; unfold w2ab.
  - etransitivity; [|apply (there_back2 xo xo' xv xv' no no' nv nv' d2 ro ro' rv rv' I J A B So So' Sv Sv' HI HJ HA HB)]. apply trans2_ext; try reflexivity. intros; apply E2; assumption.
  - rewrite trans2_scale. f_equal. rewrite trans2_add. f_equal.
    + etransitivity; [|apply (proj_there_back2 xo xo' xv xv' no no' nv nv' nf d2 f ro ro' rv rv' I J A B So' Sv Sv' HJ HA HB)]. apply trans2_ext; try reflexivity. intros; apply Sum_ext; intros; rewrite E2 by assumption; reflexivity.
    + etransitivity; [|apply (proj_there_back2' xo xo' xv xv' no no' nv nv' nf' d2 f' ro ro' rv rv' I J A B So Sv Sv' HI HA HB)]. apply trans2_ext; try reflexivity. intros; apply Sum_ext; intros; rewrite E2 by assumption; reflexivity.
Qed.
(** equal within the orbitals of x *)
Definition same_u (x : @uclusterx F) (a b : mat2 * ten3) : Prop :=
  let na := fst (ux_no x) in let nb := snd (ux_no x) in let va := fst (ux_nv x) in let vb := snd (ux_nv x) in
  (forall I A, (I < na)%nat -> (A < va)%nat -> fst (fst a) I A = fst (fst b) I A) /\ (forall I A, (I < nb)%nat -> (A < vb)%nat -> snd (fst a) I A = snd (fst b) I A) /\
  (forall I J A B, (I < na)%nat -> (J < na)%nat -> (A < va)%nat -> (B < va)%nat -> fst (fst (snd a)) I J A B = fst (fst (snd b)) I J A B) /\
  (forall I J A B, (I < na)%nat -> (J < nb)%nat -> (A < va)%nat -> (B < vb)%nat -> snd (fst (snd a)) I J A B = snd (fst (snd b)) I J A B) /\
  (forall I J A B, (I < nb)%nat -> (J < nb)%nat -> (A < vb)%nat -> (B < vb)%nat -> snd (snd a) I J A B = snd (snd b) I J A B).
Definition wu (p : nat) (x : @uclusterx F) (W T : mat2 * ten3) (v : @ufrag F * bool) : mat2 * ten3 :=
  ((w1 p (fst (ux_no x)) (proj_a v) (fun i a => fst (fst W) i a - fst (fst T) i a), w1 p (snd (ux_no x)) (proj_b v) (fun i a => snd (fst W) i a - snd (fst T) i a)),
   (w2 p (fst (ux_no x)) (proj_a v) (fun i j a b => fst (fst (snd W)) i j a b - fst (fst (snd T)) i j a b),
    w2ab p (fst (ux_no x)) (snd (ux_no x)) (proj_a v) (proj_b v) (fun i j a b => snd (fst (snd W)) i j a b - snd (fst (snd T)) i j a b),
    w2 p (snd (ux_no x)) (proj_b v) (fun i j a b => snd (snd W) i j a b - snd (snd T) i j a b))).
Lemma delta_value_u x W T (v : @ufrag F * bool) p : sees_u x W T (fst v) -> (p <= 1)%nat ->
  exists d, u_contribution half x (fst v, DeltaTailor, p, snd v) = Ret d /\ same_u x d (wu p x W T v).
Proof.
  destruct v as [y low]. cbn [fst snd]. intros (Hid & Soa & Sob & Sva & Svb & (W1 & W2 & W3 & W4 & W5) & (T1 & T2 & T3 & T4 & T5)) Hp. cbn [fst snd] in *.
  unfold u_contribution. rewrite (proj2 (Nat.eqb_neq _ _) Hid). cbn [rbind]. unfold sub1u, sub2u, gram2. cbn [fst snd].
  assert (R : forall l : bool, exists d, (rbind (project_u half (fst (uy_no y)) (snd (uy_no y)) (sub2u (ut2 (uy_wf y)) (snd (uy_ccsd y))) (gram2 (uy_nf y) (uy_fo y)) p) (fun dt2 =>
     Ret (trans1u (uy_no y) (uy_nv y) (match p with O => sub1u (ut1 (uy_wf y)) (fst (uy_ccsd y)) | _ => (pdot (fst (uy_no y)) (fst (gram2 (uy_nf y) (uy_fo y))) (fst (sub1u (ut1 (uy_wf y)) (fst (uy_ccsd y)))),
        pdot (snd (uy_no y)) (snd (gram2 (uy_nf y) (uy_fo y))) (snd (sub1u (ut1 (uy_wf y)) (fst (uy_ccsd y))))) end) (uy_ro y) (uy_rv y), trans2u (uy_no y) (uy_nv y) dt2 (uy_ro y) (uy_rv y)))) = Ret d /\ same_u x d (wu p x W T (y, low))).
  { intros _. unfold sub1u, sub2u, gram2. cbn [fst snd]. destruct p as [|[|p]]; [| |lia]; cbn [project_u project_r rbind]; eexists; (split; [reflexivity|]); unfold same_u, wu, trans1u, trans2u, proj_a, proj_b; cbn [fst snd];
    (split; [|split; [|split; [|split]]]); intros.
    - eapply (chan1 0); eassumption.
    - eapply (chan1 0); eassumption.
    - eapply (chan2 0 _ _ _ _ (fst (uy_nf y)) (fst (uy_fo y)) _ _ _ _ (fst (fst (ut2 (uy_wf y)))) (fst (fst (snd (uy_ccsd y))))); try eassumption; reflexivity.
    - eapply (chan_ab 0 _ _ _ _ _ _ _ _ (fst (uy_nf y)) (snd (uy_nf y)) (fst (uy_fo y)) (snd (uy_fo y)) _ _ _ _ _ _ (snd (fst (ut2 (uy_wf y)))) (snd (fst (snd (uy_ccsd y))))); eassumption.
    - eapply (chan2 0 _ _ _ _ (snd (uy_nf y)) (snd (uy_fo y)) _ _ _ _ (snd (ut2 (uy_wf y))) (snd (snd (uy_ccsd y)))); try eassumption; reflexivity.
    - eapply (chan1 1); eassumption.
    - eapply (chan1 1); eassumption.
    - eapply (chan2 1 _ _ _ _ (fst (uy_nf y)) (fst (uy_fo y)) _ _ _ _ (fst (fst (ut2 (uy_wf y)))) (fst (fst (snd (uy_ccsd y))))); try eassumption; reflexivity.
    - eapply (chan_ab 1 _ _ _ _ _ _ _ _ (fst (uy_nf y)) (snd (uy_nf y)) (fst (uy_fo y)) (snd (uy_fo y)) _ _ _ _ _ _ (snd (fst (ut2 (uy_wf y)))) (snd (fst (snd (uy_ccsd y))))); eassumption.
    - eapply (chan2 1 _ _ _ _ (snd (uy_nf y)) (snd (uy_fo y)) _ _ _ _ (snd (ut2 (uy_wf y))) (snd (snd (uy_ccsd y)))); try eassumption; reflexivity. }
  destruct (R low) as (d & E & V). exists d. split; [|exact V]. rewrite <- E. unfold sub1u, sub2u, gram2. cbn [fst snd]. destruct low; reflexivity.
Qed.
Theorem C66_delta_unrestricted x W T (ys : list (@ufrag F * bool)) p : half + half = 1 ->
  pairsym (fst (fst (snd W))) -> pairsym (fst (fst (snd T))) -> pairsym (snd (snd W)) -> pairsym (snd (snd T)) ->
  (forall v, In v ys -> sees_u x W T (fst v)) -> weighted_du x ys p ->
  exists d, u_externally_correct half x (map (fun v => (fst v, DeltaTailor, p, snd v)) ys) = Ret d /\ same_u x (u_callback d T) W.
Proof.
  intros Hh SWa STa SWb STb Hs Hw.
  assert (Hp : (p <= 1)%nat) by (destruct Hw as [[-> _]|[-> _]]; lia).
  set (sm := fun l : list (mat2 * ten3) => (((fun I A => Lsum l (fun d => fst (fst d) I A)), (fun I A => Lsum l (fun d => snd (fst d) I A))),
    ((fun I J A B => Lsum l (fun d => fst (fst (snd d)) I J A B)), (fun I J A B => Lsum l (fun d => snd (fst (snd d)) I J A B)), (fun I J A B => Lsum l (fun d => snd (snd d) I J A B)))) : mat2 * ten3).
  assert (X : exists ds, Forall2 (fun c d => u_contribution half x c = Ret d) (map (fun v => (fst v, DeltaTailor, p, snd v)) ys) ds /\ same_u x (sm ds) (sm (map (wu p x W T) ys))).
  { clear Hw. induction ys as [|v ys IH].
    - exists []. split; [constructor|]. split; [|split; [|split; [|split]]]; intros; reflexivity.
    - destruct IH as (ds & HF & V1 & V2 & V3 & V4 & V5); [intros u Hu; apply Hs; right; exact Hu|].
      destruct (delta_value_u x W T v p (Hs v (or_introl eq_refl)) Hp) as (d & E & D1 & D2 & D3 & D4 & D5). exists (d :: ds). split; [constructor; assumption|].
      unfold sm in *. cbn [fst snd] in *. split; [|split; [|split; [|split]]]; cbn [fst snd map Lsum]; intros; [rewrite V1, D1|rewrite V2, D2|rewrite V3, D3|rewrite V4, D4|rewrite V5, D5]; auto. }
  destruct X as (ds & HF & V1 & V2 & V3 & V4 & V5).
  destruct (u_loop_ok half x _ ds HF (((fun _ _ => 0), (fun _ _ => 0)), ((fun _ _ _ _ => 0), (fun _ _ _ _ => 0), (fun _ _ _ _ => 0))) None) as (acc & E & VA & VB).
  unfold u_externally_correct. rewrite E. cbn [rbind]. destruct acc as [a1 a2].
  assert (L : last_type_u (map (fun v => (fst v, DeltaTailor, p, snd v)) ys) None = Some DeltaTailor).
  { assert (Hn : ys <> []) by (destruct Hw as [[_ H]|[_ [H _]]]; [destruct ys; [discriminate|discriminate]|exact H]).
    assert (G : forall (l : list (@ufrag F * bool)) z, l <> [] \/ z = Some DeltaTailor -> last_type_u (map (fun v => (fst v, DeltaTailor, p, snd v)) l) z = Some DeltaTailor).
    { induction l as [|v l IH]; intros z [H|H]; [congruence|exact H| |]; cbn [map last_type_u]; apply IH; right; reflexivity. }
    apply G. left. exact Hn. }
  rewrite L. eexists. split; [reflexivity|]. cbn [fst snd] in *. unfold sm in *. cbn [fst snd] in *.
  assert (S2 : forall w t : F, t + (half + half) * (w - t) = w) by (intros; rewrite Hh; ring).
  split; [|split; [|split; [|split]]]; unfold u_callback, add1u, add2u, add1, add2; cbn [fst snd]; intros.
  - rewrite (proj1 (VA I A)), V1, Lsum_map by assumption. unfold wu. cbn [fst snd]. destruct Hw as [[-> Hl]|[-> (_ & HA & HB)]]; unfold w1.
    + destruct ys as [|v [|? ?]]; try discriminate. cbn [Lsum]. ring.
    + rewrite (sum_proj _ ys proj_a (fun k => fst (fst W) k A - fst (fst T) k A)) by assumption. ring.
  - rewrite (proj2 (VA I A)), V2, Lsum_map by assumption. unfold wu. cbn [fst snd]. destruct Hw as [[-> Hl]|[-> (_ & HA & HB)]]; unfold w1.
    + destruct ys as [|v [|? ?]]; try discriminate. cbn [Lsum]. ring.
    + rewrite (sum_proj _ ys proj_b (fun k => snd (fst W) k A - snd (fst T) k A)) by assumption. ring.
  - rewrite (proj1 (VB I J A B)), V3, Lsum_map by assumption. unfold wu. cbn [fst snd]. destruct Hw as [[-> Hl]|[-> (_ & HA & HB)]]; unfold w2.
    + destruct ys as [|v [|? ?]]; try discriminate. cbn [Lsum]. ring.
    + rewrite Lsum_mul_l, Lsum_add. rewrite (sum_proj _ ys proj_a (fun k => fst (fst (snd W)) k J A B - fst (fst (snd T)) k J A B)), (sum_proj _ ys proj_a (fun k => fst (fst (snd W)) k I B A - fst (fst (snd T)) k I B A)) by assumption.
      rewrite (SWa J I), (STa J I). rewrite <- (S2 (fst (fst (snd W)) I J A B) (fst (fst (snd T)) I J A B)) at 3. ring.
  - rewrite (proj1 (proj2 (VB I J A B))), V4, Lsum_map by assumption. unfold wu. cbn [fst snd]. destruct Hw as [[-> Hl]|[-> (_ & HA & HB)]]; unfold w2ab.
    + destruct ys as [|v [|? ?]]; try discriminate. cbn [Lsum]. ring.
    + rewrite Lsum_mul_l, Lsum_add. rewrite (sum_proj _ ys proj_a (fun k => snd (fst (snd W)) k J A B - snd (fst (snd T)) k J A B)), (sum_proj _ ys proj_b (fun k => snd (fst (snd W)) I k A B - snd (fst (snd T)) I k A B)) by assumption.
      rewrite <- (S2 (snd (fst (snd W)) I J A B) (snd (fst (snd T)) I J A B)) at 3. ring.
  - rewrite (proj2 (proj2 (VB I J A B))), V5, Lsum_map by assumption. unfold wu. cbn [fst snd]. destruct Hw as [[-> Hl]|[-> (_ & HA & HB)]]; unfold w2.
    + destruct ys as [|v [|? ?]]; try discriminate. cbn [Lsum]. ring.
    + rewrite Lsum_mul_l, Lsum_add. rewrite (sum_proj _ ys proj_b (fun k => snd (snd W) k J A B - snd (snd T) k J A B)), (sum_proj _ ys proj_b (fun k => snd (snd W) k I B A - snd (snd T) k I B A)) by assumption.
      rewrite (SWb J I), (STb J I). rewrite <- (S2 (snd (snd W) I J A B) (snd (snd T) I J A B)) at 3. ring.
Qed.
End Delta.

(** ** Concrete cases *)
Section DeltaCases.
Definition qf (n : Z) (d : positive) : QF := q n d.
Notation hf := (qf 1 2).
(** orbitals of y, turned against those of x: columns (3/5, 4/5) and (-4/5, 3/5) *)
Definition rot (i j : nat) : QF := match i, j with 0%nat, 0%nat => qf 3 5 | 0%nat, 1%nat => qf (-4) 5 | 1%nat, 0%nat => qf 4 5 | 1%nat, 1%nat => qf 3 5 | _, _ => qf 0 1 end.
Definition one (i j : nat) : QF := if Nat.eqb i j then qf 1 1 else qf 0 1.
(** amplitudes of the wave function and of CCSD *)
Definition aW1 (i a : nat) : QF := qf (Z.of_nat (i + 2 * a + 1)) 1.
Definition aT1 (i a : nat) : QF := qf (Z.of_nat (3 * i + a)) 2.
Definition aW2 (i j a b : nat) : QF := qf (Z.of_nat ((i + 2 * a) * (j + 2 * b) + 1)) 1.
Definition aT2 (i j a b : nat) : QF := qf (Z.of_nat ((2 * i + a) * (2 * j + b) + i + j)) 3.
Lemma aW2_sym i j a b : aW2 i j a b = aW2 j i b a. Proof. unfold aW2. do 3 f_equal. lia. Qed.
Lemma aT2_sym i j a b : aT2 i j a b = aT2 j i b a. Proof. unfold aT2. replace ((2 * i + a) * (2 * j + b) + i + j)%nat with ((2 * j + b) * (2 * i + a) + j + i)%nat by ring. reflexivity. Qed.
Definition z6 : nat -> nat -> nat -> nat -> nat -> nat -> QF := fun _ _ _ _ _ _ => qf 0 1.
Definition z8 : nat -> nat -> nat -> nat -> nat -> nat -> nat -> nat -> QF := fun _ _ _ _ _ _ _ _ => qf 0 1.
(** two occupied and two virtual orbitals; the two fragments have one of the turned occupied orbitals each *)
Definition xd : @rclusterx QF := {| x_id := 0; x_no := 2; x_nv := 2; x_mo := fun _ => qf 0 1; x_eris := fun _ _ _ _ => qf 0 1 |}.
Definition yd (k : nat) : @rfrag QF :=
  {| y_id := S k; y_no := 2; y_nv := 2; y_nf := 1; y_ro := rot; y_rv := rot; y_fo := (fun _ i => if Nat.eqb i k then qf 1 1 else qf 0 1); y_fx := (fun _ _ => qf 0 1);
     y_wf := {| rt1 := trans1 (K := QF) 2 2 aW1 rot rot; rt2 := trans2 (K := QF) 2 2 2 2 aW2 rot rot rot rot; rt3 := z6; rt4 := (z8, z8) |};
     y_fov := (fun _ _ => qf 0 1); y_eris := (fun _ _ _ _ => qf 0 1); y_ccsd := (trans1 (K := QF) 2 2 aT1 rot rot, trans2 (K := QF) 2 2 2 2 aT2 rot rot rot rot) |}.
Lemma rot_spanned : spanned (K := QF) 2 2 rot.
Proof. intros i j Hi Hj. destruct i as [|[|i]]; [| |lia]; (destruct j as [|[|j]]; [| |lia]); apply eqq_ok; vm_compute; reflexivity. Qed.
Lemma yd_sees k : sees xd (aW1, aW2) (aT1, aT2) (yd k).
Proof. split; [discriminate|]. split; [exact rot_spanned|]. split; [exact rot_spanned|]. split; intros i j a b _ _ _ _; split; reflexivity. Qed.
Example C66_delta_case : exists d, r_externally_correct (F := QF) hf xd [(yd 0, DeltaTailor, 1%nat, true); (yd 1, DeltaTailor, 1%nat, false)] = Ret d /\
  (forall I J A B, (I < 2)%nat -> (J < 2)%nat -> (A < 2)%nat -> (B < 2)%nat -> fst (r_callback d (aT1, aT2)) I A = aW1 I A /\ snd (r_callback d (aT1, aT2)) I J A B = aW2 I J A B) /\ aW2 0 1 0 1 <> aT2 0 1 0 1.
Proof.
  assert (H : weighted_d xd [(yd 0, true); (yd 1, false)] 1).
  { right. split; [reflexivity|]. split; [discriminate|]. intros i j Hi Hj. cbn [x_no xd] in Hi, Hj. destruct i as [|[|i]]; [| |lia]; (destruct j as [|[|j]]; [| |lia]); apply eqq_ok; vm_compute; reflexivity. }
  destruct (C66_delta (F := QF) hf xd (aW1, aW2) (aT1, aT2) [(yd 0, true); (yd 1, false)] 1 ltac:(apply eqq_ok; vm_compute; reflexivity) aW2_sym aT2_sym
    ltac:(intros v [<-|[<-|[]]]; apply yd_sees) H) as (d & E & V).
  exists d. split; [exact E|]. split; [exact V|]. unfold aW2, aT2, qf. apply neqq. vm_compute. reflexivity.
Qed.
(** unrestricted: two occupied alpha orbitals, one occupied beta orbital and two virtual orbitals of each spin *)
Definition xdu : @uclusterx QF := {| ux_id := 0; ux_no := (2, 1)%nat; ux_nv := (2, 2)%nat; ux_mo := ((fun _ => qf 0 1), (fun _ => qf 0 1)); ux_eris := ((fun _ _ _ _ => qf 0 1), (fun _ _ _ _ => qf 0 1), (fun _ _ _ _ => qf 0 1)) |}.
Definition ant (t : nat -> nat -> nat -> nat -> QF) (i j a b : nat) : QF := (t i j a b - t j i a b)%K.
Definition aWu : ((nat -> nat -> QF) * (nat -> nat -> QF)) * ((nat -> nat -> nat -> nat -> QF) * (nat -> nat -> nat -> nat -> QF) * (nat -> nat -> nat -> nat -> QF)) := ((aW1, aT1), (ant aW2, aT2, ant aT2)).
Definition aTu : ((nat -> nat -> QF) * (nat -> nat -> QF)) * ((nat -> nat -> nat -> nat -> QF) * (nat -> nat -> nat -> nat -> QF) * (nat -> nat -> nat -> nat -> QF)) := ((aT1, aW1), (ant aT2, (fun i j a b => aW2 i j b a), ant aW2)).
Definition ydu (k : nat) : @ufrag QF :=
  {| uy_id := S k; uy_no := (2, 1)%nat; uy_nv := (2, 2)%nat; uy_nf := (1, match k with O => 1 | _ => 0 end)%nat; uy_ro := (rot, one); uy_rv := (rot, one);
     uy_fo := ((fun _ i => if Nat.eqb i k then qf 1 1 else qf 0 1), (fun _ _ => qf 1 1)); uy_fx := ((fun _ _ => qf 0 1), (fun _ _ => qf 0 1));
     uy_wf := {| ut1 := (trans1 (K := QF) 2 2 aW1 rot rot, trans1 (K := QF) 1 2 aT1 one one);
       ut2 := (trans2 (K := QF) 2 2 2 2 (ant aW2) rot rot rot rot, trans2 (K := QF) 2 1 2 2 aT2 rot one rot one, trans2 (K := QF) 1 1 2 2 (ant aT2) one one one one); ut3 := (z6, z6, z6, z6); ut4 := (z8, z8, z8, z8, z8) |};
     uy_fov := ((fun _ _ => qf 0 1), (fun _ _ => qf 0 1)); uy_eris := ((fun _ _ _ _ => qf 0 1), (fun _ _ _ _ => qf 0 1), (fun _ _ _ _ => qf 0 1));
     uy_ccsd := ((trans1 (K := QF) 2 2 aT1 rot rot, trans1 (K := QF) 1 2 aW1 one one),
       (trans2 (K := QF) 2 2 2 2 (ant aT2) rot rot rot rot, trans2 (K := QF) 2 1 2 2 (fun i j a b => aW2 i j b a) rot one rot one, trans2 (K := QF) 1 1 2 2 (ant aW2) one one one one)) |}.
Lemma one_spanned n : spanned (K := QF) n n one.
Proof.
  intros i j Hi Hj. transitivity (Sum (K := QF) n (fun k => one j k * (if Nat.eqb k i then 1 else 0))).
  - apply Sum_ext. intros k _. unfold one. rewrite (Nat.eqb_sym k i). destruct (Nat.eqb i k), (Nat.eqb j k); apply eqq_ok; reflexivity.
  - etransitivity; [exact (Sum_delta_r (K := QF) n i (fun k => one j k) Hi)|]. unfold one, delta. rewrite (Nat.eqb_sym i j). destruct (Nat.eqb j i); apply eqq_ok; reflexivity.
Qed.
Lemma ydu_sees k : sees_u xdu aWu aTu (ydu k).
Proof.
  split; [discriminate|]. split; [exact rot_spanned|]. split; [exact (one_spanned 1)|]. split; [exact rot_spanned|]. split; [exact (one_spanned 2)|].
  split; (split; [|split; [|split; [|split]]]); red; intros; reflexivity.
Qed.
Lemma ant_sym t : (forall i j a b, t i j a b = t j i b a) -> pairsym (F := QF) (ant (fun i j a b => t i j a b)).
Proof. intros H i j a b. unfold ant. rewrite (H i j a b), (H j i a b). reflexivity. Qed.
Example C66_delta_unrestricted_case : exists d, u_externally_correct (F := QF) hf xdu [(ydu 0, DeltaTailor, 1%nat, true); (ydu 1, DeltaTailor, 1%nat, false)] = Ret d /\
  same_u xdu (u_callback d aTu) aWu /\ snd (fst (snd aWu)) 1%nat 0%nat 1%nat 0%nat <> snd (fst (snd aTu)) 1%nat 0%nat 1%nat 0%nat.
Proof.
  assert (H : weighted_du xdu [(ydu 0, true); (ydu 1, false)] 1).
  { right. split; [reflexivity|]. split; [discriminate|]. split; intros i j Hi Hj; cbn [ux_no xdu fst snd] in Hi, Hj; (destruct i as [|[|i]]; [| |lia]); (destruct j as [|[|j]]; [| |lia]); try lia; apply eqq_ok; vm_compute; reflexivity. }
  destruct (C66_delta_unrestricted (F := QF) hf xdu aWu aTu [(ydu 0, true); (ydu 1, false)] 1 ltac:(apply eqq_ok; vm_compute; reflexivity) (ant_sym _ aW2_sym) (ant_sym _ aT2_sym) (ant_sym _ aT2_sym) (ant_sym _ aW2_sym)
    ltac:(intros v [<-|[<-|[]]]; apply ydu_sees) H) as (d & E & V).
  exists d. split; [exact E|]. split; [exact V|]. cbn [aWu aTu fst snd]; unfold aW2, aT2, qf. apply neqq. vm_compute. reflexivity.
Qed.
End DeltaCases.

Print Assumptions C66_delta.
Print Assumptions C66_delta_unrestricted.
