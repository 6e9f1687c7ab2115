(** Property C62 (correlation energies from the two-particle matrices of single clusters): statements on M_PartDm2.v. *)
From Coq Require Import List Arith Bool Lia ZArith QArith Qcanon Ring.
From Verif Require Import Alg Pull M_Wf M_Eris M_Rdm M_GlobalWf M_PartDm M_Gamma2 M_PartDm2 P_GlobalPairs P_GlobalWf P_GlobalAmp P_Rdm P_Lift P_PartDm P_Eris P_Part2 P_Blk P_Assemble P_Gamma2 Esum Inv P_PartDm2 P_PartDm3.
Import ListNotations.
Close Scope Q_scope. Close Scope Qc_scope. Close Scope Z_scope. Open Scope nat_scope.

Section Sys.
Context (K : cring).
Add Ring Kr : (rth K).
Open Scope K_scope.
Variable half : K.
Hypothesis Hhalf : half + half = 1.
Notation mat := (nat -> nat -> K).
Notation ten := (nat -> nat -> nat -> nat -> K).
Notation gfrag := (M_GlobalWf.gfrag K).
Notation image := (M_GlobalWf.image K).
Notation pfrag := (M_PartDm.pfrag K).
Notation efrag := (M_PartDm2.efrag K).
Variables nocc nvir : nat.
Notation E2 N d g := (half * full_contraction N N d g).

Lemma full_ext N (a a' g : ten) : (forall p q r s, (p < N)%nat -> (q < N)%nat -> (r < N)%nat -> (s < N)%nat -> a p q r s = a' p q r s) -> full_contraction N N a g = full_contraction N N a' g.
Proof. intros H. unfold full_contraction. p0. p0. p0. p0. rewrite H by auto. reflexivity. Qed.
Lemma full_add N (a b g : ten) : full_contraction N N (fun p q r s => a p q r s + b p q r s) g = full_contraction N N a g + full_contraction N N b g.
Proof. unfold full_contraction. do 4 (rewrite <- Sum_add; p0). ring. Qed.
Lemma full_mul N (a g : ten) k : full_contraction N N (fun p q r s => a p q r s * k) g = full_contraction N N a g * k.
Proof. unfold full_contraction. do 4 (rewrite <- Sum_mul_r; p0). ring. Qed.
Lemma full_Lsum {X} N (l : list X) (a : X -> ten) g : full_contraction N N (fun p q r s => Lsum l (fun x => a x p q r s)) g = Lsum l (fun x => full_contraction N N (a x) g).
Proof.
  induction l as [|x l IH]; cbn [Lsum]; [unfold full_contraction; repeat (apply Sum_0; intros); ring|]. rewrite <- IH. apply (full_add N (a x)).
Qed.
Lemma full_swap N (a g : ten) : sym8 N g -> full_contraction N N (fun p q r s => a r s p q) g = full_contraction N N a g.
Proof.
  intros (_ & _ & H). change (contract4 N N N N (tswap a) g = contract4 N N N N a g). rewrite (c4_swap N N N N a g). apply c4_ext. intros p q r s Hp Hq Hr Hs. unfold tswap. rewrite (H p q r s) by auto. reflexivity.
Qed.
Lemma full_tr N (a g : ten) : sym8 N g -> full_contraction N N (fun p q r s => a q p s r) g = full_contraction N N a g.
Proof. intros H. apply (full_conj N N a g). apply sym8_conj. exact H. Qed.
Lemma full_avg4 N (a g : ten) : sym8 N g -> full_contraction N N (avg4 half a) g = full_contraction N N a g.
Proof.
  intros H. unfold avg4. rewrite full_mul, (full_add N (fun p q r s => a p q r s + a q p s r + a r s p q)), (full_add N (fun p q r s => a p q r s + a q p s r)), (full_add N a).
  rewrite (full_tr N a), (full_swap N a), (full_tr N (fun p q r s => a r s p q)), (full_swap N a) by auto.
  set (X := full_contraction N N a g). change (fun p q r s => a p q r s) with a. fold X. transitivity (X * ((half + half) * (half + half))); [ring|rewrite Hhalf; ring].
Qed.

(** ** One fragment *)
Definition integrals_ok (x : efrag) : Prop := let n := (g_no x + g_nv x)%nat in sym8 n (e_full x) /\ stores (g_no x) (g_nv x) (e_eris x) (e_full x) /\
  forall i a j b, (i < g_no x)%nat -> (a < g_nv x)%nat -> (j < g_no x)%nat -> (b < g_nv x)%nat -> e_ovov_bare x i a j b = e_full x i (g_no x + a)%nat j (g_no x + b)%nat.
Lemma mp2_energy (x : efrag) (t : ten) : integrals_ok x ->
  two * contract4 (g_no x) (g_nv x) (g_no x) (g_nv x) (e_ovov_bare x) (mp2_dovov t) = full_contraction (g_no x + g_nv x) (g_no x + g_nv x) (mp2_dm2 (g_no x) (mp2_dovov t)) (e_full x).
Proof.
  intros (Hs & _ & Ho). set (n := g_no x) in *. set (nv := g_nv x) in *. rewrite c4_splitC. cbv zeta beta.
  assert (Z : forall f1 f2 f3 f4, (match f1, f2, f3, f4 with false, true, false, true => false | true, false, true, false => false | _, _, _, _ => true end) = true -> Cb n nv n nv f1 f2 f3 f4 (mp2_dm2 n (mp2_dovov t)) (e_full x) = 0).
  { intros f1 f2 f3 f4 E. unfold Cb, contract4, slice. apply Sum_0; intros p Hp. apply Sum_0; intros q Hq. apply Sum_0; intros r Hr. apply Sum_0; intros s Hs'.
    rewrite (mp2_dm2_part K n nv) by auto. unfold mp2_part. destruct f1, f2, f3, f4; try discriminate; ring. }
  rewrite (Z false false false false eq_refl), (Z false false false true eq_refl), (Z false false true false eq_refl), (Z false false true true eq_refl), (Z false true false false eq_refl), (Z false true true false eq_refl), (Z false true true true eq_refl), (Z true false false false eq_refl), (Z true false false true eq_refl), (Z true false true true eq_refl), (Z true true false false eq_refl), (Z true true false true eq_refl), (Z true true true false eq_refl), (Z true true true true eq_refl).
  assert (A : Cb n nv n nv false true false true (mp2_dm2 n (mp2_dovov t)) (e_full x) = contract4 n nv n nv (e_ovov_bare x) (mp2_dovov t)).
  { unfold Cb. cbn [sz]. apply c4_ext. intros i a j b Hi Ha Hj Hb. unfold slice. rewrite (mp2_dm2_part K n nv) by auto. cbn [shift]. rewrite Ho by auto. unfold mp2_part, mp2_dovov. ring. }
  assert (B : Cb n nv n nv true false true false (mp2_dm2 n (mp2_dovov t)) (e_full x) = contract4 n nv n nv (e_ovov_bare x) (mp2_dovov t)).
  { unfold Cb. cbn [sz]. rewrite c4_conj. apply c4_ext. intros i a j b Hi Ha Hj Hb. unfold slice, tconj. rewrite (mp2_dm2_part K n nv) by auto. cbn [shift]. rewrite Ho by auto. unfold mp2_part, mp2_dovov.
    rewrite (sym8_conj _ _ Hs (n + a)%nat i (n + b)%nat j) by lia. ring. }
  rewrite A, B. unfold two. ring.
Qed.
(** The energy of a fragment is the contraction of its cumulant with the integrals of its cluster, however the contraction is organised and whatever symmetrisation of the matrix. *)
Theorem C62_fragment : forall (x : efrag) tal st sd approx out, approx <> 2%nat -> integrals_ok x ->
  fragment_energy2 half x tal st approx out = bind (fragment_dm2c half x tal st sd approx out) (fun d => Ok (E2 (g_no x + g_nv x) d (e_full x))).
Proof.
  intros x tal st sd approx out Ha Hi. unfold fragment_energy2, fragment_dm2c. set (n := (g_no x + g_nv x)%nat).
  destruct (is_mp2 x).
  - destruct (approx =? 1)%nat; [|reflexivity]. destruct (mp2_t2x half x st) as [t|]; [|reflexivity]. cbn [of_option bind]. f_equal. rewrite (mp2_energy x t Hi). fold n. ring.
  - assert (Sd : forall d : ten, full_contraction n n (if sd && negb st then avg4 half d else d) (e_full x) = full_contraction n n d (e_full x)).
    { intros d. destruct (sd && negb st); [|reflexivity]. apply full_avg4. apply Hi. }
    assert (Sd' : forall d : ten, full_contraction n n (if true && negb st then avg4 half d else d) (e_full x) = full_contraction n n d (e_full x)).
    { intros d. destruct (true && negb st); [|reflexivity]. apply full_avg4. apply Hi. }
    assert (Cc : forall d : ten, contract4 n n n n (e_full x) d = full_contraction n n d (e_full x)).
    { intros d. unfold contract4, full_contraction. p0. p0. p0. p0. ring. }
    destruct (proj_gamma2 half x tal st) as [d2|]; [|destruct approx; reflexivity]. cbn [of_option bind].
    destruct approx as [|[|[|k]]]; cbn [Nat.eqb]; [| |congruence|].
    + destruct (of_option (fragment_dm1 half x tal st)) as [d1| | |]; cbn [bind]; try reflexivity.
      destruct (M_Wf.l1 _); [|reflexivity]. destruct (M_Wf.l2 _); [|reflexivity]. cbn [bind]. f_equal. rewrite Cc, Sd, Sd'. ring.
    + cbn [bind]. f_equal. rewrite Sd. destruct Hi as (Hs & Hst & _). rewrite (C19_intermediates_restricted (g_no x) (g_nv x) d2 (e_eris x) (e_full x) out Hs Hst). unfold n. ring.
    + cbn [bind]. f_equal. rewrite Sd. destruct Hi as (Hs & Hst & _). rewrite (C19_intermediates_restricted (g_no x) (g_nv x) d2 (e_eris x) (e_full x) out Hs Hst). unfold n. ring.
Qed.

(** ** The system *)
Notation N := (nocc + nvir)%nat.
(** The integrals of the cluster are those of the system in the basis of the cluster orbitals, for every copy of the fragment *)
Definition transformed (g : ten) (x : efrag) : Prop := forall c, In c (images x) -> forall p q r s, (p < g_no x + g_nv x)%nat -> (q < g_no x + g_nv x)%nat -> (r < g_no x + g_nv x)%nat -> (s < g_no x + g_nv x)%nat ->
  e_full x p q r s = Sum N (fun P => Sum N (fun Q => Sum N (fun R => Sum N (fun S => mo_cluster nocc x c P p * mo_cluster nocc x c Q q * mo_cluster nocc x c R r * mo_cluster nocc x c S s * g P Q R S)))).
Lemma full_lift (x : efrag) (c : image) (d g : ten) : transformed g x -> In c (images x) -> full_contraction N N (lift_dm2 nocc x c d) g = full_contraction (g_no x + g_nv x) (g_no x + g_nv x) d (e_full x).
Proof.
  intros Ht Hc. unfold full_contraction at 2. set (n := (g_no x + g_nv x)%nat).
  transitivity (Sum n (fun p => Sum n (fun q => Sum n (fun r => Sum n (fun s => d p q r s * Sum N (fun P => Sum N (fun Q => Sum N (fun R => Sum N (fun S => mo_cluster nocc x c P p * mo_cluster nocc x c Q q * mo_cluster nocc x c R r * mo_cluster nocc x c S s * g P Q R S))))))))).
  2:{ p0. p0. p0. p0. rewrite (Ht c Hc) by auto. reflexivity. }
  unfold full_contraction, lift_dm2. cbv zeta. fold n. clear. set (rx := mo_cluster nocc x c). generalize n rx. clear. intros n rx. push. reorder.
Qed.
Definition same {A B} (R : A -> B -> Prop) (a : outcome A) (b : outcome B) : Prop :=
  match a, b with Ok a, Ok b => R a b | NotImplemented, NotImplemented => True | NotCalculated, NotCalculated => True | BadValue, BadValue => True | _, _ => False end.
(** results.e_corr_dm2cumulant as the solver of a fragment stores it (fragment.py 306: without arguments) *)
Definition as_stored (out : ten) (x : efrag) : Prop := forall e, e_cached x = Some e -> fragment_energy2 half x false true 1 out = Ok e.
Theorem C62_projected : forall (frags : list efrag) (g : ten) tal out,
  (forall x, In x frags -> integrals_ok x /\ transformed g x /\ as_stored out x /\ g_tal x = false /\ e_sym x = 1) ->
  same (fun e m => e = E2 N m g) (energy2_proj half frags tal out) (rdm2_proj_lambda half nocc None (map (@e_frag K) frags) WNo tal true true 1 out).
Proof.
  intros frags g tal out H. unfold energy2_proj, rdm2_proj_lambda, proj_dm2.
  set (F := fun (acc : outcome K) (x : efrag) => _). set (G := fun (acc : outcome ten) (x : pfrag) => _).
  assert (Z : forall l a b, (forall x, In x l -> In x frags) -> same (fun e m => e = E2 N m g) a b -> same (fun e m => e = E2 N m g) (fold_left F l a) (fold_left G (map (@e_frag K) l) b)).
  { induction l as [|x l IH]; intros a b Hl Hab; cbn [fold_left map]; [exact Hab|]. apply IH; [intros; apply Hl; right; auto|]. destruct (H x (Hl x ltac:(left; reflexivity))) as (Hi & Ht & Hs & Hg & He).
    unfold F, G. destruct a as [e| | |], b as [m| | |]; cbn [same] in Hab; try contradiction; cbn [bind]; try exact I.
    assert (Fr := C62_fragment x tal true true 1 out ltac:(discriminate) Hi).
    assert (U : (match e_cached x with Some ex => if Bool.eqb tal (g_tal x) then Ok ex else fragment_energy2 half x tal true 1 out | None => fragment_energy2 half x tal true 1 out end) = fragment_energy2 half x tal true 1 out).
    { destruct (e_cached x) as [ex|] eqn:Ec; [|reflexivity]. rewrite Hg. destruct tal; [reflexivity|]. cbn [Bool.eqb]. symmetry. apply Hs. exact Ec. }
    rewrite U, Fr. destruct (fragment_dm2c half x tal true true 1 out) as [d| | |]; cbn [bind same]; try exact I.
    rewrite (full_add N m). rewrite Hab, He. rewrite (full_Lsum N (images x) (fun c => lift_dm2 nocc x c d)).
    rewrite (Lsum_ext (images x) _ (fun _ => full_contraction (g_no x + g_nv x) (g_no x + g_nv x) d (e_full x))) by (intros c Hc; apply (full_lift x c d g Ht Hc)).
    rewrite Lsum_const. ring. }
  assert (Q : same (fun e m => e = E2 N m g) (fold_left F frags (Ok 0)) (fold_left G (map (@e_frag K) frags) (Ok (fun _ _ _ _ => 0)))).
  { apply Z; [auto|]. cbn [same]. unfold full_contraction. rewrite Sum_0; [ring|]. intros. apply Sum_0; intros. apply Sum_0; intros. apply Sum_0; intros. ring. }
  destruct (fold_left G _ _); cbn [bind]; exact Q.
Qed.
(** ** Full bath *)
Lemma gamma2_ext n nv (T1 T1' L1 L1' : mat) (T2 T2' L2 L2' : ten) :
  (forall i a, (i < n)%nat -> (a < nv)%nat -> T1 i a = T1' i a) -> (forall i j a b, (i < n)%nat -> (j < n)%nat -> (a < nv)%nat -> (b < nv)%nat -> T2 i j a b = T2' i j a b) ->
  (forall i a, (i < n)%nat -> (a < nv)%nat -> L1 i a = L1' i a) -> (forall i j a b, (i < n)%nat -> (j < n)%nat -> (a < nv)%nat -> (b < nv)%nat -> L2 i j a b = L2' i j a b) ->
  forall f g h k P Q R S, (P < sz n nv f)%nat -> (Q < sz n nv g)%nat -> (R < sz n nv h)%nat -> (S < sz n nv k)%nat ->
    part (cc_gamma2 half n nv T1 T2 L1 L2) f g h k P Q R S = part (cc_gamma2 half n nv T1' T2' L1' L2') f g h k P Q R S.
Proof.
  intros H1 H2 H3 H4 f g h k P Q R S HP HQ HR HS. rewrite <- !(PP_full K half).
  assert (D2 : forall u v : mat, (forall i a, (i < n)%nat -> (a < nv)%nat -> u i a = v i a) -> Eq [n; nv] [n; nv] [(delta : mat); delta] [0; 1]%nat (w2 u) (w2 v)).
  { intros u v H. apply Eq_w2. cbn [nth]. intros i a Hi Ha. rewrite delta_up2 by auto. symmetry. auto. }
  assert (D4 : forall u v : ten, (forall i j a b, (i < n)%nat -> (j < n)%nat -> (a < nv)%nat -> (b < nv)%nat -> u i j a b = v i j a b) -> Eq [n; nv] [n; nv] [(delta : mat); delta] [0; 0; 1; 1]%nat (w4 u) (w4 v)).
  { intros u v H. apply Eq_w4. cbn [nth]. intros i j a b Hi Hj Ha Hb. rewrite delta_up4 by auto. symmetry. auto. }
  rewrite <- (PP_cov K half n nv n nv delta delta (delta_iso K n nv) (delta_row K n nv) T1 T1' T2 T2' T1 T1' T2 T2' L1 L1' L2 L2' (D2 _ _ H1) (D4 _ _ H2) (D2 _ _ H1) (D4 _ _ H2) (D2 _ _ H3) (D4 _ _ H4) f g h k P Q R S HP HQ HR HS).
  symmetry. destruct f, g, h, k; apply delta_up4; auto.
Qed.
Lemma for_dm2_cc (frags : list gfrag) gl : Forall (fun x => is_mp2 x = false) frags -> global_t1 half frags gl true = global_t1 half frags gl false /\ global_t2 half frags gl true = global_t2 half frags gl false.
Proof.
  intros H. unfold global_t1, global_t2. split.
  - generalize (Some (fun _ _ : nat => 0 : K)). induction H as [|x l Hx Hl IH]; intros a; cbn [fold_left]; [reflexivity|]. rewrite IH. f_equal. unfold t1_of. rewrite Hx. cbn [andb]. reflexivity.
  - generalize (Some (fun _ _ _ _ : nat => 0 : K)). induction H as [|x l Hx Hl IH]; intros a; cbn [fold_left]; [reflexivity|]. rewrite IH. f_equal. unfold t2_of. rewrite Hx. cbn [andb]. reflexivity.
Qed.
Theorem C62_full_bath : forall (frags : list efrag) (g : ten) tal (T1 L1 : mat) (T2 L2 : ten) (out : ten), let gf := map (fun x : efrag => p_frag (e_frag x)) frags in
  sym8 N g -> (forall x, In x frags -> integrals_ok x /\ transformed g x /\ as_stored out x /\ g_tal x = false /\ e_sym x = 1) ->
  full_bath K nocc nvir gf -> orthonormal K nocc nvir gf -> Forall (projected K) gf -> Forall (insides K nocc) gf ->
  (forall I J A B, T2 I J A B = T2 J I B A) -> (forall I J A B, L2 I J A B = L2 J I B A) -> Forall (fun x => is_mp2 x = false) gf ->
  (forall x, In x frags -> full1 K nocc nvir T1 x (M_Wf.t1 (pwf_as_ccsd (p_wf x))) /\ full2 K nocc nvir T2 x (M_Wf.t2 (pwf_as_ccsd (p_wf x))) /\ amp1 K nocc nvir T1 x (pt1 K x) /\ amp2 K nocc nvir T2 x (pt2 K x)) ->
  (forall x, In x frags -> exists u1 u2, lam1 K x tal = Some u1 /\ lam2 K x tal = Some u2 /\ amp1 K nocc nvir L1 x u1 /\ amp2 K nocc nvir L2 x u2) ->
  let e := E2 N (ccsd_make_rdm2 half nocc nvir T1 T2 L1 L2 out false) g in
  energy2_proj half frags tal out = Ok e /\ energy2_global half nocc nvir gf g tal out = Ok e.
Proof.
  intros frags g tal T1 L1 T2 L2 out gf Hg Hx Hf Ho Hp Hin HT HL Hcc Ht Hl e.
  assert (Hgf : gf = gfrags K (map (@e_frag K) frags)) by (unfold gf, gfrags; rewrite map_map; reflexivity).
  split.
  - assert (A := C62_projected frags g tal out Hx).
    destruct (C61_full_bath K half Hhalf nocc nvir (map (@e_frag K) frags) tal true true T1 L1 T2 L2 out None WNo (cc_rdm1 nocc (cc_gamma1 nocc nvir T1 T2 L1 L2) true) 1) as (m & E & Hm); rewrite <- ?Hgf; auto.
    { intros x Hi. apply in_map_iff in Hi. destruct Hi as (y & <- & Hy). apply Ht; auto. }
    { intros x Hi. apply in_map_iff in Hi. destruct Hi as (y & <- & Hy). apply Hl; auto. }
    rewrite E in A. destruct (energy2_proj half frags tal out); cbn [same] in A; try contradiction. rewrite A. f_equal. unfold e. f_equal. apply full_ext. intros. rewrite Hm by auto. reflexivity.
  - unfold energy2_global, rdm2_global. cbn [andb]. unfold global_l1, global_l2. cbn [negb]. destruct (for_dm2_cc gf false Hcc) as (-> & ->). destruct (for_dm2_cc gf true Hcc) as (-> & ->).
    destruct (C56_full_bath K half Hhalf nocc nvir gf false T1 T2 Hp Hin (Logic.proj1 Hf) (Logic.proj2 Hf) HT) as (m1 & m2 & E1 & E2' & X1 & X2).
    { intros x Hi. apply in_map_iff in Hi. destruct Hi as (y & <- & Hy). destruct (Ht y Hy) as (_ & _ & A & B). exists (pt1 K y), (pt2 K y). unfold src1, src2. cbn [andb]. auto. }
    rewrite E1, E2'. cbn [of_option bind].
    assert (Lm : exists n1 n2, (if tal then Some m1 else global_t1 half gf true false) = Some n1 /\ (if tal then Some m2 else global_t2 half gf true false) = Some n2 /\
      (forall I A, (I < nocc)%nat -> (A < nvir)%nat -> n1 I A = L1 I A) /\ (forall I J A B, (I < nocc)%nat -> (J < nocc)%nat -> (A < nvir)%nat -> (B < nvir)%nat -> n2 I J A B = L2 I J A B)).
    { destruct tal.
      - exists m1, m2. split; [reflexivity|]. split; [reflexivity|].
        destruct (C56_full_bath K half Hhalf nocc nvir gf false L1 L2 Hp Hin (Logic.proj1 Hf) (Logic.proj2 Hf) HL) as (n1 & n2 & F1 & F2 & Y1 & Y2).
        { intros x Hi. apply in_map_iff in Hi. destruct Hi as (y & <- & Hy). destruct (Hl y Hy) as (u1 & u2 & Q1 & Q2 & A & B). exists u1, u2. unfold src1, src2. cbn [andb]. auto. }
        rewrite E1 in F1. rewrite E2' in F2. apply some_inj in F1, F2. subst n1 n2. auto.
      - destruct (C56_full_bath K half Hhalf nocc nvir gf true L1 L2 Hp Hin (Logic.proj1 Hf) (Logic.proj2 Hf) HL) as (n1 & n2 & F1 & F2 & Y1 & Y2).
        { intros x Hi. apply in_map_iff in Hi. destruct Hi as (y & <- & Hy). destruct (Hl y Hy) as (u1 & u2 & Q1 & Q2 & A & B). exists u1, u2. unfold src1, src2. destruct (Hx y Hy) as (_ & _ & _ & Gt & _). rewrite Gt. cbn [andb negb]. auto. }
        exists n1, n2. auto. }
    destruct Lm as (n1 & n2 & -> & -> & Y1 & Y2). cbn [of_option bind]. f_equal. unfold e.
    assert (U : forall P Q R S, (P < N)%nat -> (Q < N)%nat -> (R < N)%nat -> (S < N)%nat -> ccsd_make_rdm2 half nocc nvir m1 m2 n1 n2 out false P Q R S = ccsd_make_rdm2 half nocc nvir T1 T2 L1 L2 out false P Q R S).
    { intros P Q R S HP HQ HR HS. destruct (shift_cases nocc nvir P HP) as (f & p & -> & Bp). destruct (shift_cases nocc nvir Q HQ) as (g' & q & -> & Bq). destruct (shift_cases nocc nvir R HR) as (h & r & -> & Br). destruct (shift_cases nocc nvir S HS) as (k & s & -> & Bs).
      unfold ccsd_make_rdm2, cc_rdm2. rewrite !(make_rdm2_part nocc nvir) by auto. apply gamma2_ext; auto. }
    set (d := ccsd_make_rdm2 half nocc nvir m1 m2 n1 n2 out false) in *.
    assert (Cc : forall d : ten, contract4 N N N N g d = full_contraction N N d g) by (intros d0; unfold contract4, full_contraction; p0; p0; p0; p0; ring).
    rewrite Cc. rewrite (full_mul N (fun p q r s => d p q r s + d q p s r)), (full_add N d), (full_tr N d g Hg). rewrite (full_ext N d (ccsd_make_rdm2 half nocc nvir T1 T2 L1 L2 out false) g U).
    set (X := full_contraction N N _ g). transitivity (half * (half + half) * X); [ring|rewrite Hhalf; ring].
Qed.
(** ** MPI: every rank adds the energies of its own fragments and the results are summed *)
Lemma energy2_acc (l : list efrag) tal out a : fold_left (fun (acc : outcome K) x =>
    bind acc (fun e => bind (match e_cached x with
          | Some ex => if Bool.eqb tal (g_tal x) then Ok ex else fragment_energy2 half x tal true 1 out
          | None => fragment_energy2 half x tal true 1 out
          end) (fun ex => Ok (e + nK (length (images x)) * e_sym x * ex)))) l (Ok a) = bind (energy2_proj half l tal out) (fun e => Ok (a + e)).
Proof.
  unfold energy2_proj. set (F := fun (acc : outcome K) (x : efrag) => _).
  assert (B : forall l o, (o = NotImplemented \/ o = NotCalculated \/ o = BadValue) -> fold_left F l o = o).
  { induction l0 as [|x l0 IH]; intros o H; [reflexivity|]. cbn [fold_left]. assert (E : F o x = o) by (destruct H as [->|[->| ->]]; reflexivity). rewrite E. apply IH. auto. }
  assert (G : forall l a b, fold_left F l (Ok (a + b)) = bind (fold_left F l (Ok b)) (fun e => Ok (a + e))).
  { induction l0 as [|x l0 IH]; intros a0 b; [reflexivity|]. cbn [fold_left]. unfold F at 2 4. cbn [bind]. destruct (match e_cached x with Some ex => _ | None => _ end) as [ex| | |]; cbn [bind]; [|rewrite !B by auto; reflexivity..].
    transitivity (fold_left F l0 (Ok (a0 + (b + nK (length (images x)) * e_sym x * ex)))); [do 2 f_equal; ring|apply IH]. }
  rewrite <- (G l a 0). do 2 f_equal. ring.
Qed.
Theorem C62_ranks : forall (parts : list (list efrag)) (es : list K) tal out, Forall2 (fun l e => energy2_proj half l tal out = Ok e) parts es -> energy2_proj half (concat parts) tal out = Ok (allreduce es).
Proof.
  intros parts es tal out H. induction H as [|l e parts es Hl Hp IH]; [reflexivity|]. cbn [concat]. unfold energy2_proj at 1. rewrite fold_left_app. change (fold_left _ l (Ok 0)) with (energy2_proj half l tal out). rewrite Hl.
  rewrite (energy2_acc (concat parts) tal out e), IH. reflexivity.
Qed.
(** The energy of one CCSD fragment for approx_cumulant=2 is that for approx_cumulant=1, although the matrix is not implemented. *)
Theorem C62_approx_two : forall (x : efrag) tal st sd out, is_mp2 x = false -> fragment_energy2 half x tal st 2 out = fragment_energy2 half x tal st 1 out /\ forall d, fragment_dm2c half x tal st sd 2 out <> Ok d.
Proof.
  intros x tal st sd out Hx. unfold fragment_energy2, fragment_dm2c. rewrite Hx. split; [reflexivity|]. intros d. destruct (proj_gamma2 half x tal st); discriminate.
Qed.
Lemma twice_zero (e : K) : e + (e + 0) = e -> e = 0.
Proof. intros H. transitivity (e + (e + 0) - e); [ring|rewrite H; ring]. Qed.
End Sys.

(** ** Cases *)
Section Cases.
Notation ten := (nat -> nat -> nat -> nat -> QK).
Definition h1 (P Q : nat) : QK := match P, Q with
  | 0%nat, 0%nat | 1%nat, 1%nat => q 1 1 | 0%nat, 1%nat | 1%nat, 0%nat => q 1 2 | 2%nat, 2%nat | 3%nat, 3%nat => q 2 1 | 2%nat, 3%nat | 3%nat, 2%nat => q 1 3
  | 0%nat, 2%nat | 2%nat, 0%nat | 1%nat, 3%nat | 3%nat, 1%nat => q 1 5 | 0%nat, 3%nat | 3%nat, 0%nat | 1%nat, 2%nat | 2%nat, 1%nat => q 1 7 | _, _ => q 0 1 end.
Lemma h1_sym P Q : h1 P Q = h1 Q P.
Proof. destruct P as [|[|[|[|P]]]], Q as [|[|[|[|Q]]]]; reflexivity. Qed.
Definition sep (h : nat -> nat -> QK) : ten := fun p q r s => (h p q * h r s)%K.
Lemma sep_sym8 n h : (forall p q, h p q = h q p) -> sym8 n (sep h).
Proof. intros H. unfold sep. split; [|split]; intros p q' r s _ _ _ _; [rewrite (H p q'); reflexivity|rewrite (H r s); reflexivity|cbn; ring]. Qed.
Definition hx (x : gfrag QK) (c : image QK) (p p' : nat) : QK := Sum 4 (fun P => Sum 4 (fun Q => (mo_cluster 2 x c P p * mo_cluster 2 x c Q p' * h1 P Q)%K)).
Lemma hx_sym x c p p' : hx x c p p' = hx x c p' p.
Proof. unfold hx. etransitivity; [apply Sum_swap|]. apply Sum_ext; intros P _. apply Sum_ext; intros Q _. rewrite (h1_sym Q P). cbn. ring. Qed.
Lemma hx_transform x c p q' r s : sep (hx x c) p q' r s =
  Sum 4 (fun P => Sum 4 (fun Q => Sum 4 (fun R => Sum 4 (fun S => (mo_cluster 2 x c P p * mo_cluster 2 x c Q q' * mo_cluster 2 x c R r * mo_cluster 2 x c S s * sep h1 P Q R S)%K)))).
Proof.
  unfold sep, hx. set (m := mo_cluster 2 x c). rewrite <- Sum_mul_r. apply Sum_ext; intros P _. rewrite <- Sum_mul_r. apply Sum_ext; intros Q _. rewrite <- Sum_mul_l. apply Sum_ext; intros R _. rewrite <- Sum_mul_l. apply Sum_ext; intros S _. cbn. ring.
Qed.
Definition mk_eris (n : nat) (g : ten) : eris QK := {| e_oooo := g; e_ovoo := fun i a j k => g i (n + a)%nat j k; e_oovv := fun i j a b => g i j (n + a)%nat (n + b)%nat; e_ovov := fun i a j b => g i (n + a)%nat j (n + b)%nat;
  e_ovvo := fun i a b j => g i (n + a)%nat (n + b)%nat j; e_ovvv := V4 (fun i a b c => g i (n + a)%nat (n + b)%nat (n + c)%nat); e_vvvv := W4 (fun a b c d => g (n + a)%nat (n + b)%nat (n + c)%nat (n + d)%nat) |}.
Definition mk (x : pfrag QK) (cached : option QK) : efrag QK := let g := sep (hx x (g_self x)) in
  {| e_frag := x; e_eris := mk_eris (g_no x) g; e_full := g; e_ovov_bare := fun i a j b => g i (g_no x + a)%nat j (g_no x + b)%nat; e_cached := cached; e_sym := q 1 1 |}.
Lemma mk_ok (x : pfrag QK) cached : integrals_ok QK (mk x cached).
Proof. split; [apply sep_sym8; apply hx_sym|]. split; [|reflexivity]. repeat split. Qed.
Lemma mk_transformed (x : pfrag QK) cached : (forall c, In c (g_children x) -> forall p p', (p < g_no x + g_nv x)%nat -> (p' < g_no x + g_nv x)%nat -> hx x c p p' = hx x (g_self x) p p') -> transformed QK 2 2 (sep h1) (mk x cached).
Proof.
  intros H c [<-|Hc] p q' r s Hp Hq Hr Hs; [apply hx_transform|]. etransitivity; [|apply (hx_transform x c p q' r s)]. cbn [mk e_full]. unfold sep. rewrite !(H c Hc) by auto. reflexivity.
Qed.
Ltac four p Hp := destruct p as [|[|[|[|p]]]]; try (exfalso; cbn in Hp; lia).
Lemma xp_integrals cached : transformed QK 2 2 (sep h1) (mk xp cached).
Proof. apply mk_transformed. intros c [<-|[]] p p' Hp Hp'. four p Hp; four p' Hp'; apply eqq_ok; vm_compute; reflexivity. Qed.
Lemma yp_integrals cached : transformed QK 2 2 (sep h1) (mk yp cached).
Proof. apply mk_transformed. intros c [<-|[]] p p' Hp Hp'. four p Hp; four p' Hp'; apply eqq_ok; vm_compute; reflexivity. Qed.
Lemma fp_integrals cached : transformed QK 2 2 (sep h1) (mk fp cached).
Proof. apply mk_transformed. intros c [<-|[]] p p' Hp Hp'. four p Hp; four p' Hp'; apply eqq_ok; vm_compute; reflexivity. Qed.
Definition oke (o : outcome QK) : QK := match o with Ok e => e | _ => q 0 1 end.
Lemma oke_ok o : match o with Ok _ => true | _ => false end = true -> o = Ok (oke o).
Proof. destruct o; [reflexivity|discriminate..]. Qed.
(** A CCSD fragment with stored energy, an MP2 fragment without, both with copies *)
Definition xe : efrag QK := mk xp (Some (oke (fragment_energy2 qh (mk xp None) false true 1 out0))).
Definition ye : efrag QK := mk yp None.
Lemma xe_stored : as_stored QK qh out0 xe.
Proof.
  intros e E. cbn [xe mk e_cached] in E. apply some_inj in E. rewrite <- E. change (fragment_energy2 qh xe false true 1 out0) with (fragment_energy2 qh (mk xp None) false true 1 out0). apply oke_ok. vm_compute. reflexivity.
Qed.
Example C62_fragment_case : forall st sd, exists d, fragment_dm2c qh xp false st sd 0 out0 = Ok d /\ fragment_energy2 qh (mk xp None) false st 0 out0 = Ok (qh * full_contraction 3 3 d (e_full (mk xp None)))%K /\
  fragment_energy2 qh (mk xp None) false st 0 out0 <> fragment_energy2 qh (mk xp None) false st 1 out0.
Proof.
  intros st sd. destruct (is_ok (fragment_dm2c qh xp false st sd 0 out0)) as (d & E); [destruct st, sd; vm_compute; reflexivity|]. exists d. split; [auto|]. split.
  - rewrite (C62_fragment QK qh qhh (mk xp None) false st sd 0 out0 ltac:(discriminate) (mk_ok xp None)). change (fragment_dm2c qh (mk xp None) false st sd 0 out0) with (fragment_dm2c qh xp false st sd 0 out0). rewrite E. reflexivity.
  - intros H. assert (B : eqq (oke (fragment_energy2 qh (mk xp None) false st 0 out0)) (oke (fragment_energy2 qh (mk xp None) false st 1 out0)) = false) by (destruct st; vm_compute; reflexivity). apply neqq in B. apply B. rewrite H. reflexivity.
Qed.
Lemma xye_ok x : In x [xe; ye] -> integrals_ok QK x /\ transformed QK 2 2 (sep h1) x /\ as_stored QK qh out0 x /\ g_tal x = false /\ e_sym x = 1%K.
Proof.
  intros [<-|[<-|[]]].
  - split; [apply mk_ok|]. split; [apply xp_integrals|]. split; [apply xe_stored|]. split; reflexivity.
  - split; [apply mk_ok|]. split; [apply yp_integrals|]. split; [discriminate|]. split; reflexivity.
Qed.
Example C62_projected_case : forall tal, exists e m, energy2_proj qh [xe; ye] tal out0 = Ok e /\ rdm2_proj_lambda qh 2 None [xp; yp] WNo tal true true 1 out0 = Ok m /\ e = (qh * full_contraction 4 4 m (sep h1))%K /\ e <> 0%K.
Proof.
  intros tal. assert (T := C62_projected QK qh qhh 2 2 [xe; ye] (sep h1) tal out0 xye_ok). change (map (@e_frag QK) [xe; ye]) with [xp; yp] in T.
  assert (B : eqq (oke (energy2_proj qh [xe; ye] tal out0)) 0%K = false) by (destruct tal; vm_compute; reflexivity). apply neqq in B. unfold oke in B.
  destruct (energy2_proj qh [xe; ye] tal out0) as [e| | |]; [|exfalso; apply B; reflexivity..]. destruct (rdm2_proj_lambda qh 2 None [xp; yp] WNo tal true true 1 out0) as [m| | |]; [|destruct T..].
  exists e, m. split; [reflexivity|]. split; [reflexivity|]. split; [exact T|exact B].
Qed.
Example C62_full_bath_case : exists e, energy2_proj qh [mk fp None] false out0 = Ok e /\ energy2_global qh 2 2 [ffrag] (sep h1) false out0 = Ok e /\ e = (qh * full_contraction 4 4 (dm2f Approx) (sep h1))%K /\ e <> 0%K.
Proof.
  destruct ffrag_ok as (A & B & _).
  assert (Ho : orthonormal QK 2 2 [ffrag]).
  { intros x c [<-|[]] [<-|[<-|[]]]; split; intros i j Hi Hj; cbn in Hi, Hj; repeat (destruct i as [|i]; [|try (exfalso; lia)]); repeat (destruct j as [|j]; [|try (exfalso; lia)]); apply eqq_ok; vm_compute; reflexivity. }
  destruct (C62_full_bath QK qh qhh 2 2 [mk fp None] (sep h1) false T1f T1f T2f L2f out0) as (E & E'); auto using T2f_exch, L2f_exch.
  - apply sep_sym8. apply h1_sym.
  - intros x [<-|[]]. split; [apply mk_ok|]. split; [apply fp_integrals|]. split; [discriminate|]. split; reflexivity.
  - exact ffrag_full.
  - repeat constructor.
  - intros x [<-|[]]. apply (fp_full fp). left. reflexivity.
  - intros x [<-|[]]. apply (fp_lam fp). left. reflexivity.
  - eexists. split; [exact E|]. split; [exact E'|]. split; [reflexivity|]. apply neqq. vm_compute. reflexivity.
Qed.
Example C62_ranks_case : exists e e', energy2_proj qh [xe] false out0 = Ok e /\ energy2_proj qh [ye] false out0 = Ok e' /\ energy2_proj qh [xe; ye] false out0 = Ok (allreduce [e; e']) /\ e <> 0%K /\ e' <> 0%K.
Proof.
  exists (oke (energy2_proj qh [xe] false out0)), (oke (energy2_proj qh [ye] false out0)).
  assert (E : energy2_proj qh [xe] false out0 = Ok (oke (energy2_proj qh [xe] false out0))) by (apply oke_ok; vm_compute; reflexivity). assert (E' : energy2_proj qh [ye] false out0 = Ok (oke (energy2_proj qh [ye] false out0))) by (apply oke_ok; vm_compute; reflexivity).
  split; [exact E|]. split; [exact E'|]. split; [|split; apply neqq; vm_compute; reflexivity].
  apply (C62_ranks QK qh [[xe]; [ye]]). constructor; [exact E|]. constructor; [exact E'|constructor].
Qed.
Example C62_approx_two_case : exists e, fragment_energy2 qh xe false true 2 out0 = Ok e /\ e <> 0%K /\ fragment_dm2c qh xp false true true 2 out0 = NotImplemented.
Proof.
  destruct (C62_approx_two QK qh xe false true true out0 eq_refl) as (A & _). rewrite A. exists (oke (fragment_energy2 qh xe false true 1 out0)). split; [apply oke_ok; vm_compute; reflexivity|]. split; [apply neqq; vm_compute; reflexivity|reflexivity].
Qed.
(** Finding: the energy stored by the solver is that of t_as_lambda=False, but it is used when the fragment's option t_as_lambda is True. *)
Definition xp_tal : pfrag QK := {| p_frag := xfrag true xwf; p_wf := p_wf xp |}.
Definition xe_tal : efrag QK := mk xp_tal (Some (oke (fragment_energy2 qh (mk xp_tal None) false true 1 out0))).
Theorem C62_stored_refuted : ~ (forall (frags : list (efrag QK)) (g : ten) e m, (forall x, In x frags -> integrals_ok QK x /\ transformed QK 2 2 g x /\ as_stored QK qh out0 x /\ g_tal x = true /\ e_sym x = 1%K) ->
  energy2_proj qh frags true out0 = Ok e -> rdm2_proj_lambda qh 2 None (map (@e_frag QK) frags) WNo true true true 1 out0 = Ok m -> e = (qh * full_contraction 4 4 m g)%K).
Proof.
  intros H. assert (S : as_stored QK qh out0 xe_tal).
  { intros e E. cbn [xe_tal mk e_cached] in E. apply some_inj in E. rewrite <- E. change (fragment_energy2 qh xe_tal false true 1 out0) with (fragment_energy2 qh (mk xp_tal None) false true 1 out0). apply oke_ok. vm_compute. reflexivity. }
  assert (T : forall cached, transformed QK 2 2 (sep h1) (mk xp_tal cached)).
  { intros cached. apply mk_transformed. intros c [<-|[]] p p' Hp Hp'. four p Hp; four p' Hp'; apply eqq_ok; vm_compute; reflexivity. }
  destruct (is_ok (rdm2_proj_lambda qh 2 None [xp_tal] WNo true true true 1 out0)) as (m & Em); [vm_compute; reflexivity|].
  assert (E : energy2_proj qh [xe_tal] true out0 = Ok (oke (energy2_proj qh [xe_tal] true out0))) by (apply oke_ok; vm_compute; reflexivity).
  specialize (H [xe_tal] (sep h1) _ m ltac:(intros x [<-|[]]; split; [apply mk_ok|]; split; [apply T|]; split; [exact S|]; split; reflexivity) E Em).
  (* the same fragment with the option False: its energy is that of the matrix *)
  assert (Q := C62_projected QK qh qhh 2 2 [mk {| p_frag := xfrag false xwf; p_wf := p_wf xp |} None] (sep h1) true out0). cbn [map] in Q.
  change (rdm2_proj_lambda qh 2 None [e_frag (mk {| p_frag := xfrag false xwf; p_wf := p_wf xp |} None)] WNo true true true 1 out0) with (rdm2_proj_lambda qh 2 None [xp_tal] WNo true true true 1 out0) in Q. rewrite Em in Q.
  assert (Q' : same (fun e m => e = (qh * full_contraction 4 4 m (sep h1))%K) (energy2_proj qh [mk {| p_frag := xfrag false xwf; p_wf := p_wf xp |} None] true out0) (Ok m)).
  { apply Q. intros x [<-|[]]. split; [apply mk_ok|]. split; [apply xp_integrals|]. split; [discriminate|]. split; reflexivity. }
  assert (B : eqq (oke (energy2_proj qh [xe_tal] true out0)) (oke (energy2_proj qh [mk {| p_frag := xfrag false xwf; p_wf := p_wf xp |} None] true out0)) = false) by (vm_compute; reflexivity). apply neqq in B. apply B. rewrite H.
  destruct (energy2_proj qh [mk {| p_frag := xfrag false xwf; p_wf := p_wf xp |} None] true out0); [|destruct Q'..]. cbn [oke]. symmetry. exact Q'.
Qed.
(** Finding: the energy from the global matrix is computed by every rank and then summed over the ranks. *)
Theorem C62_ranks_global_refuted : ~ (forall (ranks : nat) frags g e, (0 < ranks)%nat -> energy2_global qh 2 2 frags g false out0 = Ok e -> allreduce (repeat e ranks) = e).
Proof.
  intros H. destruct C62_full_bath_case as (e & _ & E & _ & N). specialize (H 2%nat _ _ e ltac:(lia) E). apply N. cbn [repeat] in H. unfold allreduce in H. cbn [Lsum] in H.
  exact (twice_zero QK e H).
Qed.
End Cases.

Print Assumptions C62_fragment.
Print Assumptions C62_projected.
Print Assumptions C62_full_bath.
Print Assumptions C62_ranks.
Print Assumptions C62_approx_two.
Print Assumptions C62_stored_refuted.
Print Assumptions C62_ranks_global_refuted.
