(** Properties C61 (two-particle density matrices from single clusters: consistency with the one-particle matrix, the limit of a full bath) and C62 (energies from
    these matrices): statements on M_PartDm2.v. *)
From Coq Require Import List Arith Bool Lia ZArith QArith Qcanon Ring.
From Verif Require Import Alg Pull M_Wf M_Eris M_Rdm M_GlobalWf M_PartDm M_Gamma2 M_PartDm2 P_GlobalPairs P_GlobalWf P_GlobalAmp P_Rdm P_Lift P_PartDm P_Eris P_Part2 P_Blk P_Assemble P_Gamma2 Esum Inv.
Import ListNotations.
Close Scope Q_scope. Close Scope Qc_scope. Close Scope Z_scope. Open Scope nat_scope.

Section Blocks.
Context (K : cring).
Add Ring Kr : (rth K).
Open Scope K_scope.
Variable half : K.
Hypothesis Hhalf : half + half = 1.
Notation mat := (nat -> nat -> K).
Notation ten := (nat -> nat -> nat -> nat -> K).

Ltac unf := cbn [part pgamma2 cc_gamma2 d_ovov d_vvvv d_oooo d_oovv d_ovvo d_ovvv d_ooov]; unfold pgamma2, cc_gamma2; cbn [d_ovov d_vvvv d_oooo d_oovv d_ovvo d_ovvv d_ooov];
  unfold goovv, gvovv, gooov, gvvvv, gOvvO, govVO, mij, moo, mvv, mia, mab, goooo, tau', pvOOv, pvoOV, tau, symm, cc_theta, two; cbv beta.
Section Add.
Context (n nv : nat) (T1 : mat) (T2 : ten).
Hypothesis HT : forall i j a b, T2 i j a b = T2 j i b a.
Definition PP (f g h k : bool) (p q r s : nat) (U1 : mat) (U2 : ten) (M1 : mat) (M2 : ten) : K := part (pgamma2 half n nv T1 T2 U1 U2 M1 M2) f g h k p q r s.
Definition add1 (a b : mat) : mat := fun i j => a i j + b i j.
Definition add2 (a b : ten) : ten := fun i j k l => a i j k l + b i j k l.
Lemma PP_add f g h k p q r s U1 U2 M1 M2 U1' U2' M1' M2' :
  PP f g h k p q r s (add1 U1 U1') (add2 U2 U2') (add1 M1 M1') (add2 M2 M2') = PP f g h k p q r s U1 U2 M1 M2 + PP f g h k p q r s U1' U2' M1' M2'.
Proof.
  unfold PP. pose proof (Forall2_cons _ _ (ok_none (w2 T1)) (Forall2_cons _ _ (ok_pair T2 HT) (Forall2_cons _ _ (ok_none (w2 U1)) (Forall2_cons _ _ (ok_none (w4 U2)) (Forall2_cons _ _ (ok_none (w2 M1)) (Forall2_cons _ _ (ok_none (w4 M2))
    (Forall2_cons _ _ (ok_none (w2 U1')) (Forall2_cons _ _ (ok_none (w4 U2')) (Forall2_cons _ _ (ok_none (w2 M1')) (Forall2_cons _ _ (ok_none (w4 M2')) (Forall2_nil _))))))))))) as S.
  destruct f, g, h, k; unf; unfold add1, add2; esum Hhalf S [n; nv] [p; q; r; s].
Qed.
Lemma PP_zero f g h k p q r s : PP f g h k p q r s (fun _ _ => 0) (fun _ _ _ _ => 0) (fun _ _ => 0) (fun _ _ _ _ => 0) = 0.
Proof.
  unfold PP. pose proof (Forall2_cons _ _ (ok_none (w2 T1)) (Forall2_cons _ _ (ok_pair T2 HT) (Forall2_nil _))) as S.
  destruct f, g, h, k; unf; esum Hhalf S [n; nv] [p; q; r; s].
Qed.
End Add.
(** Change of basis *)
Section Cov.
Context (n nv N Nv : nat) (co cv : mat).
Notation sm := [n; nv]. Notation bg := [N; Nv]. Notation cs := [co; cv].
Hypothesis Hi : iso sm bg cs.
Hypothesis Hr : Erow sm bg cs.
Context (t1 T1 : mat) (t2 T2 : ten) (u1 U1 : mat) (u2 U2 : ten) (m1 M1 : mat) (m2 M2 : ten).
Hypothesis E1 : Eq sm bg cs [0; 1]%nat (w2 t1) (w2 T1).
Hypothesis E2 : Eq sm bg cs [0; 0; 1; 1]%nat (w4 t2) (w4 T2).
Hypothesis E3 : Eq sm bg cs [0; 1]%nat (w2 u1) (w2 U1).
Hypothesis E4 : Eq sm bg cs [0; 0; 1; 1]%nat (w4 u2) (w4 U2).
Hypothesis E5 : Eq sm bg cs [0; 1]%nat (w2 m1) (w2 M1).
Hypothesis E6 : Eq sm bg cs [0; 0; 1; 1]%nat (w4 m2) (w4 M2).
Definition ty (f : bool) : nat := if f then 1%nat else 0%nat.
Definition cf (f : bool) : mat := if f then cv else co.
Lemma PP_cov f g h k P Q R S : (P < sz N Nv f)%nat -> (Q < sz N Nv g)%nat -> (R < sz N Nv h)%nat -> (S < sz N Nv k)%nat ->
  up4 (sz n nv f) (sz n nv g) (sz n nv h) (sz n nv k) (cf f) (cf g) (cf h) (cf k) (fun p q r s => PP n nv t1 t2 f g h k p q r s u1 u2 m1 m2) P Q R S = PP N Nv T1 T2 f g h k P Q R S U1 U2 M1 M2.
Proof.
  revert P Q R S.
  assert (G : forall P Q R S, (P < nth (ty f) bg O)%nat -> (Q < nth (ty g) bg O)%nat -> (R < nth (ty h) bg O)%nat -> (S < nth (ty k) bg O)%nat ->
    up4 (nth (ty f) sm O) (nth (ty g) sm O) (nth (ty h) sm O) (nth (ty k) sm O) (nth (ty f) cs (fun _ _ => 0)) (nth (ty g) cs (fun _ _ => 0)) (nth (ty h) cs (fun _ _ => 0)) (nth (ty k) cs (fun _ _ => 0))
      (fun p q r s => PP n nv t1 t2 f g h k p q r s u1 u2 m1 m2) P Q R S = PP N Nv T1 T2 f g h k P Q R S U1 U2 M1 M2).
  { intros P Q R S. apply (open4 sm bg cs Hr (ty f) (ty g) (ty h) (ty k) (fun p q r s => PP n nv t1 t2 f g h k p q r s u1 u2 m1 m2) (fun P Q R S => PP N Nv T1 T2 f g h k P Q R S U1 U2 M1 M2)). clear P Q R S.
    intros x1 X1 x2 X2 x3 X3 x4 X4 Y1 Y2 Y3 Y4.
    pose proof (Eqs_cons sm bg cs _ _ _ _ _ _ Y1 (Eqs_cons sm bg cs _ _ _ _ _ _ Y2 (Eqs_cons sm bg cs _ _ _ _ _ _ Y3 (Eqs_cons sm bg cs _ _ _ _ _ _ Y4 (Eqs_cons sm bg cs _ _ _ _ _ _ E1 (Eqs_cons sm bg cs _ _ _ _ _ _ E2 (Eqs_cons sm bg cs _ _ _ _ _ _ E3
      (Eqs_cons sm bg cs _ _ _ _ _ _ E4 (Eqs_cons sm bg cs _ _ _ _ _ _ E5 (Eqs_cons sm bg cs _ _ _ _ _ _ E6 (Eqs_nil sm bg cs))))))))))) as Z.
    unfold PP. destruct f, g, h, k; cbn [ty] in Z; cbn [ty nth]; unf; inv half Hi Z. }
  destruct f, g, h, k; exact G.
Qed.
End Cov.
Lemma delta_up4 n1 n2 n3 n4 (x : ten) P Q R S : (P < n1)%nat -> (Q < n2)%nat -> (R < n3)%nat -> (S < n4)%nat -> up4 n1 n2 n3 n4 delta delta delta delta x P Q R S = x P Q R S.
Proof.
  intros HP HQ HR HS. unfold up4.
  transitivity (Sum n1 (fun p => delta P p * Sum n2 (fun q => delta Q q * Sum n3 (fun r => delta R r * Sum n4 (fun s => delta S s * x p q r s))))).
  { apply Sum_ext; intros. rewrite <- Sum_mul_l. apply Sum_ext; intros. rewrite <- !Sum_mul_l. apply Sum_ext; intros. rewrite <- !Sum_mul_l. apply Sum_ext; intros. ring. }
  rewrite (Sum_delta_l _ P (fun p => Sum n2 (fun q => delta Q q * Sum n3 (fun r => delta R r * Sum n4 (fun s => delta S s * x p q r s)))) HP).
  rewrite (Sum_delta_l _ Q (fun q => Sum n3 (fun r => delta R r * Sum n4 (fun s => delta S s * x P q r s))) HQ).
  rewrite (Sum_delta_l _ R (fun r => Sum n4 (fun s => delta S s * x P Q r s)) HR). apply (Sum_delta_l _ S (fun s => x P Q R s) HS).
Qed.
Lemma delta_up2 n1 n2 (x : mat) P Q : (P < n1)%nat -> (Q < n2)%nat -> up2 n1 n2 delta delta x P Q = x P Q.
Proof.
  intros HP HQ. unfold up2. transitivity (Sum n1 (fun p => delta P p * Sum n2 (fun q => delta Q q * x p q))).
  { apply Sum_ext; intros. rewrite <- Sum_mul_l. apply Sum_ext; intros. ring. }
  rewrite (Sum_delta_l _ P (fun p => Sum n2 (fun q => delta Q q * x p q)) HP). apply (Sum_delta_l _ Q (fun q => x P q) HQ).
Qed.
Lemma delta_iso (n nv : nat) : iso [n; nv] [n; nv] [(delta : mat); delta].
Proof.
  intros s p q Hp Hq. destruct s as [|[|s]]; cbn [nth cm] in *; [| |destruct s; cbn in Hp; lia]; unfold cm; cbn [nth].
  - rewrite (Sum_ext _ _ (fun P => delta p P * delta P q)) by (intros; rewrite (delta_sym i p); reflexivity). apply (Sum_delta_l n p (fun P => delta P q) Hp).
  - rewrite (Sum_ext _ _ (fun P => delta p P * delta P q)) by (intros; rewrite (delta_sym i p); reflexivity). apply (Sum_delta_l nv p (fun P => delta P q) Hp).
Qed.
Lemma delta_row (n nv : nat) : Erow [n; nv] [n; nv] [(delta : mat); delta].
Proof.
  intros s p q Hp Hq. destruct s as [|[|s]]; cbn [nth] in *; [| |destruct s; cbn in Hp; lia].
  - rewrite (Sum_ext _ _ (fun P => delta p P * delta P q)) by (intros; rewrite (delta_sym q i); reflexivity). apply (Sum_delta_l n p (fun P => delta P q) Hp).
  - rewrite (Sum_ext _ _ (fun P => delta p P * delta P q)) by (intros; rewrite (delta_sym q i); reflexivity). apply (Sum_delta_l nv p (fun P => delta P q) Hp).
Qed.
(** Only the entries of the arrays matter *)
Lemma PP_ext n nv (T1 : mat) (T2 : ten) (U1 U1' : mat) (U2 U2' : ten) (M1 M1' : mat) (M2 M2' : ten) :
  (forall i a, (i < n)%nat -> (a < nv)%nat -> U1 i a = U1' i a) -> (forall i j a b, (i < n)%nat -> (j < n)%nat -> (a < nv)%nat -> (b < nv)%nat -> U2 i j a b = U2' i j a b) ->
  (forall i a, (i < n)%nat -> (a < nv)%nat -> M1 i a = M1' i a) -> (forall i j a b, (i < n)%nat -> (j < n)%nat -> (a < nv)%nat -> (b < nv)%nat -> M2 i j a b = M2' i j a b) ->
  forall f g h k P Q R S, (P < sz n nv f)%nat -> (Q < sz n nv g)%nat -> (R < sz n nv h)%nat -> (S < sz n nv k)%nat -> PP n nv T1 T2 f g h k P Q R S U1 U2 M1 M2 = PP n nv T1 T2 f g h k P Q R S U1' U2' M1' M2'.
Proof.
  intros H1 H2 H3 H4 f g h k P Q R S HP HQ HR HS.
  assert (D2 : forall u v : mat, (forall i a, (i < n)%nat -> (a < nv)%nat -> u i a = v i a) -> Eq [n; nv] [n; nv] [(delta : mat); delta] [0; 1]%nat (w2 u) (w2 v)).
  { intros u v H. apply Eq_w2. cbn [nth]. intros i a Hi Ha. rewrite delta_up2 by auto. symmetry. auto. }
  assert (D4 : forall u v : ten, (forall i j a b, (i < n)%nat -> (j < n)%nat -> (a < nv)%nat -> (b < nv)%nat -> u i j a b = v i j a b) -> Eq [n; nv] [n; nv] [(delta : mat); delta] [0; 0; 1; 1]%nat (w4 u) (w4 v)).
  { intros u v H. apply Eq_w4. cbn [nth]. intros i j a b Hi Hj Ha Hb. rewrite delta_up4 by auto. symmetry. auto. }
  rewrite <- (PP_cov n nv n nv delta delta (delta_iso n nv) (delta_row n nv) T1 T1 T2 T2 U1 U1' U2 U2' M1 M1' M2 M2' (D2 T1 T1 ltac:(auto)) (D4 T2 T2 ltac:(auto)) (D2 _ _ H1) (D4 _ _ H2) (D2 _ _ H3) (D4 _ _ H4) f g h k P Q R S HP HQ HR HS).
  symmetry. destruct f, g, h, k; apply delta_up4; auto.
Qed.
Lemma PP_full n nv (T1 L1 : mat) (T2 L2 : ten) f g h k p q r s : PP n nv T1 T2 f g h k p q r s T1 T2 L1 L2 = part (cc_gamma2 half n nv T1 T2 L1 L2) f g h k p q r s.
Proof. unfold PP. destruct f, g, h, k; cbn [part pgamma2 cc_gamma2 d_ovov d_vvvv d_oooo d_oovv d_ovvo d_ovvv d_ooov]; ring. Qed.
End Blocks.

Section Sys.
Context (K : cring).
Add Ring Kr2 : (rth K).
Open Scope K_scope.
Variable half : K.
Hypothesis Hhalf : half + half = 1.
Notation mat := (nat -> nat -> K).
Notation ten := (nat -> nat -> nat -> nat -> K).
Notation gfrag := (M_GlobalWf.gfrag K).
Notation image := (M_GlobalWf.image K).
Notation pfrag := (M_PartDm.pfrag K).
Variables nocc nvir : nat.

(** ** Lifting by blocks *)
Notation ci c f := (cf K (i_co c) (i_cv c) f).
Lemma mo_sum (x : gfrag) (c : image) f a (F : nat -> K) : (a < sz nocc nvir f)%nat ->
  Sum (g_no x + g_nv x) (fun p => mo_cluster nocc x c (shift nocc f a) p * F p) = Sum (sz (g_no x) (g_nv x) f) (fun p => ci c f a p * F (shift (g_no x) f p)).
Proof.
  intros Ha. rewrite Sum_split.
  assert (A : forall n p, (n + p <? n)%nat = false) by (intros; apply Nat.ltb_ge; lia).
  assert (B : forall n p, (n + p - n = p)%nat) by (intros; lia).
  unfold mo_cluster. destruct f; cbn [shift sz cf] in *.
  - rewrite (Sum_0 (g_no x)). 2:{ intros i Hi. apply Nat.ltb_lt in Hi. rewrite A, Hi. ring. }
    rewrite (Sum_ext (g_nv x) _ (fun p => i_cv c a p * F (g_no x + p)%nat)) by (intros; rewrite !A, !B; reflexivity). ring.
  - rewrite (Sum_0 (g_nv x)). 2:{ intros i Hi. apply Nat.ltb_lt in Ha. rewrite A, Ha. ring. }
    rewrite (Sum_ext (g_no x) _ (fun p => i_co c a p * F p)). 2:{ intros i Hi. apply Nat.ltb_lt in Hi, Ha. rewrite Hi, Ha. reflexivity. } ring.
Qed.
Lemma lift1_block x c (d : mat) f g P Q : (P < sz nocc nvir f)%nat -> (Q < sz nocc nvir g)%nat ->
  lift_dm1 nocc x c d (shift nocc f P) (shift nocc g Q) = up2 (sz (g_no x) (g_nv x) f) (sz (g_no x) (g_nv x) g) (ci c f) (ci c g) (fun p q => d (shift (g_no x) f p) (shift (g_no x) g q)) P Q.
Proof.
  intros HP HQ. unfold lift_dm1.
  transitivity (Sum (g_no x + g_nv x) (fun p => mo_cluster nocc x c (shift nocc f P) p * Sum (g_no x + g_nv x) (fun q => mo_cluster nocc x c (shift nocc g Q) q * d p q))).
  { p0. rewrite <- Sum_mul_l. p0. ring. }
  rewrite mo_sum by auto. unfold up2. p0. rewrite mo_sum by auto. rewrite <- Sum_mul_l. p0. ring.
Qed.
Lemma lift2_block x c (d : ten) f g h k P Q R S : (P < sz nocc nvir f)%nat -> (Q < sz nocc nvir g)%nat -> (R < sz nocc nvir h)%nat -> (S < sz nocc nvir k)%nat ->
  lift_dm2 nocc x c d (shift nocc f P) (shift nocc g Q) (shift nocc h R) (shift nocc k S) =
  up4 (sz (g_no x) (g_nv x) f) (sz (g_no x) (g_nv x) g) (sz (g_no x) (g_nv x) h) (sz (g_no x) (g_nv x) k) (ci c f) (ci c g) (ci c h) (ci c k)
    (fun p q r s => d (shift (g_no x) f p) (shift (g_no x) g q) (shift (g_no x) h r) (shift (g_no x) k s)) P Q R S.
Proof.
  intros HP HQ HR HS. unfold lift_dm2. set (n := (g_no x + g_nv x)%nat). set (rx := mo_cluster nocc x c).
  transitivity (Sum n (fun p => rx (shift nocc f P) p * Sum n (fun q => rx (shift nocc g Q) q * Sum n (fun r => rx (shift nocc h R) r * Sum n (fun s => rx (shift nocc k S) s * d p q r s))))).
  { p0. rewrite <- Sum_mul_l. p0. rewrite <- !Sum_mul_l. p0. rewrite <- !Sum_mul_l. p0. ring. }
  unfold n, rx. rewrite mo_sum by auto. unfold up4. p0. rewrite mo_sum by auto. rewrite <- Sum_mul_l. p0. rewrite mo_sum by auto. rewrite <- !Sum_mul_l. p0. rewrite mo_sum by auto. rewrite <- !Sum_mul_l. p0. ring.
Qed.
Lemma lift2_add x c (d e : ten) P Q R S : lift_dm2 nocc x c (fun p q r s => d p q r s + e p q r s) P Q R S = lift_dm2 nocc x c d P Q R S + lift_dm2 nocc x c e P Q R S.
Proof. unfold lift_dm2. cbv zeta. do 4 (rewrite <- Sum_add; p0). ring. Qed.
Lemma lift2_sub x c (d e : ten) P Q R S : lift_dm2 nocc x c (fun p q r s => d p q r s - e p q r s) P Q R S = lift_dm2 nocc x c d P Q R S - lift_dm2 nocc x c e P Q R S.
Proof. unfold lift_dm2. cbv zeta. do 4 (rewrite <- Sum_sub; p0). ring. Qed.
Lemma lift2_mul x c k (d : ten) P Q R S : lift_dm2 nocc x c (fun p q r s => d p q r s * k) P Q R S = lift_dm2 nocc x c d P Q R S * k.
Proof. unfold lift_dm2. cbv zeta. do 4 (rewrite <- Sum_mul_r; p0). ring. Qed.
Lemma lift2_direct x c (a b : mat) P Q R S : lift_dm2 nocc x c (fun i j k l => a i j * b k l) P Q R S = lift_dm1 nocc x c a P Q * lift_dm1 nocc x c b R S.
Proof. unfold lift_dm2, lift_dm1. cbv zeta. clear. rewrite <- Sum_mul_r. p0. rewrite <- Sum_mul_r. p0. rewrite <- Sum_mul_l. p0. rewrite <- Sum_mul_l. p0. ring. Qed.
Lemma lift2_perm x c (d : ten) P Q R S :
  lift_dm2 nocc x c (fun p q r s => d q p s r) P Q R S = lift_dm2 nocc x c d Q P S R /\
  lift_dm2 nocc x c (fun p q r s => d r s p q) P Q R S = lift_dm2 nocc x c d R S P Q /\
  lift_dm2 nocc x c (fun p q r s => d s r q p) P Q R S = lift_dm2 nocc x c d S R Q P /\
  lift_dm2 nocc x c (fun p q r s => d p s q r) P Q R S = lift_dm2 nocc x c d P S Q R.
Proof. unfold lift_dm2. cbv zeta. clear. repeat split; reorder. Qed.
Lemma lift2_exch x c (a b : mat) P Q R S : lift_dm2 nocc x c (fun i j k l => a i l * b j k) P Q R S = lift_dm1 nocc x c a P S * lift_dm1 nocc x c b Q R.
Proof. rewrite <- lift2_direct. destruct (lift2_perm x c (fun i j k l => a i j * b k l) P Q R S) as (_ & _ & _ & E). exact E. Qed.
Lemma lift2_avg4 x c (d : ten) P Q R S : lift_dm2 nocc x c (avg4 half d) P Q R S = avg4 half (lift_dm2 nocc x c d) P Q R S.
Proof.
  unfold avg4. rewrite lift2_mul. f_equal. rewrite !lift2_add. destruct (lift2_perm x c d P Q R S) as (-> & -> & -> & _). reflexivity.
Qed.
Lemma lift2_ext x c (d e : ten) P Q R S : (forall p q r s, (p < g_no x + g_nv x)%nat -> (q < g_no x + g_nv x)%nat -> (r < g_no x + g_nv x)%nat -> (s < g_no x + g_nv x)%nat -> d p q r s = e p q r s) ->
  lift_dm2 nocc x c d P Q R S = lift_dm2 nocc x c e P Q R S.
Proof. intros H. unfold lift_dm2. cbv zeta. p0. p0. p0. p0. rewrite H by auto. reflexivity. Qed.
(** ** The loop over the fragments *)
Definition dm2_of (x : pfrag) tal st sd approx out : ten := match fragment_dm2c half x tal st sd approx out with Ok d => d | _ => fun _ _ _ _ => 0 end.
Lemma proj2_eq frags tal st approx out : match proj_dm2 half nocc frags tal st approx out with
  | Ok m => (forall x, In x frags -> exists d, fragment_dm2c half x tal st true approx out = Ok d) /\
            forall P Q R S, m P Q R S = allp K frags (fun x c => lift_dm2 nocc x c (dm2_of x tal st true approx out) P Q R S)
  | e => exists l1 x l2, frags = l1 ++ x :: l2 /\ fragment_dm2c half x tal st true approx out = e /\ forall y, In y l1 -> exists d, fragment_dm2c half y tal st true approx out = Ok d
  end.
Proof.
  unfold proj_dm2. set (F := fun x => fragment_dm2c half x tal st true approx out).
  set (step := fun (acc : outcome ten) (x : pfrag) => bind acc (fun m => bind (F x) (fun d => Ok (fun P Q R S => m P Q R S + Lsum (images x) (fun c => lift_dm2 nocc x c d P Q R S))))).
  change (match fold_left step frags (Ok (fun _ _ _ _ => 0)) with
    | Ok m => (forall x, In x frags -> exists d, F x = Ok d) /\ forall P Q R S, m P Q R S = allp K frags (fun x c => lift_dm2 nocc x c (dm2_of x tal st true approx out) P Q R S)
    | e => exists l1 x l2, frags = l1 ++ x :: l2 /\ F x = e /\ forall y, In y l1 -> exists d, F y = Ok d end).
  assert (Z : forall l m0, match fold_left step l (Ok m0) with
    | Ok m => (forall x, In x l -> exists d, F x = Ok d) /\ forall P Q R S, m P Q R S = m0 P Q R S + allp K l (fun x c => lift_dm2 nocc x c (dm2_of x tal st true approx out) P Q R S)
    | e => exists l1 x l2, l = l1 ++ x :: l2 /\ F x = e /\ forall y, In y l1 -> exists d, F y = Ok d end).
  { induction l as [|x l IH]; intros m0; cbn [fold_left].
    - split; [intros x []|]. intros. unfold allp. cbn [Lsum]. ring.
    - assert (N : forall e, F x = e -> (forall d, e <> Ok d) -> fold_left step l (step (Ok m0) x) = e).
      { intros e E H. assert (N : forall l, fold_left step l e = e) by (induction l0 as [|y l0 I0]; [reflexivity|]; cbn [fold_left]; destruct e; try (exfalso; eapply H; reflexivity); exact I0).
        transitivity (fold_left step l e); [|apply N]. f_equal. unfold step. cbn [bind]. rewrite E. destruct e; try reflexivity. exfalso. eapply H. reflexivity. }
      destruct (F x) as [d| | |] eqn:E.
      + specialize (IH (fun P Q R S => m0 P Q R S + Lsum (images x) (fun c => lift_dm2 nocc x c d P Q R S))).
        assert (E0 : step (Ok m0) x = Ok (fun P Q R S => m0 P Q R S + Lsum (images x) (fun c => lift_dm2 nocc x c d P Q R S))) by (unfold step; cbn [bind]; rewrite E; reflexivity). rewrite E0.
        destruct (fold_left step l _) as [m| | |].
        * destruct IH as (H0 & H1). split; [intros y [<-|Hy]; eauto|]. intros. rewrite H1. unfold allp. cbn [Lsum]. assert (Ed : dm2_of x tal st true approx out = d) by (unfold dm2_of; unfold F in E; rewrite E; reflexivity). rewrite Ed. ring.
        * destruct IH as (l1 & y & l2 & -> & H0 & H1). exists (x :: l1), y, l2. repeat split; auto. intros z [<-|Hz]; eauto.
        * destruct IH as (l1 & y & l2 & -> & H0 & H1). exists (x :: l1), y, l2. repeat split; auto. intros z [<-|Hz]; eauto.
        * destruct IH as (l1 & y & l2 & -> & H0 & H1). exists (x :: l1), y, l2. repeat split; auto. intros z [<-|Hz]; eauto.
      + rewrite (N _ eq_refl) by discriminate. exists [], x, l. repeat split; auto. intros y [].
      + rewrite (N _ eq_refl) by discriminate. exists [], x, l. repeat split; auto. intros y [].
      + rewrite (N _ eq_refl) by discriminate. exists [], x, l. repeat split; auto. intros y []. }
  specialize (Z frags (fun _ _ _ _ => 0)). destruct (fold_left step frags _) as [m| | |]; auto. destruct Z as (H0 & H1). split; [auto|]. intros. rewrite H1. ring.
Qed.
Lemma proj2_ok frags tal st approx out : (forall x, In x frags -> exists d, fragment_dm2c half x tal st true approx out = Ok d) ->
  exists m, proj_dm2 half nocc frags tal st approx out = Ok m /\ forall P Q R S, m P Q R S = allp K frags (fun x c => lift_dm2 nocc x c (dm2_of x tal st true approx out) P Q R S).
Proof.
  intros H. assert (Z := proj2_eq frags tal st approx out). destruct (proj_dm2 half nocc frags tal st approx out) as [m| | |].
  - exists m. split; [reflexivity|]. apply Z.
  - destruct Z as (l1 & x & l2 & -> & E & _). destruct (H x) as (d & Ed); [apply in_or_app; right; left; reflexivity|congruence].
  - destruct Z as (l1 & x & l2 & -> & E & _). destruct (H x) as (d & Ed); [apply in_or_app; right; left; reflexivity|congruence].
  - destruct Z as (l1 & x & l2 & -> & E & _). destruct (H x) as (d & Ed); [apply in_or_app; right; left; reflexivity|congruence].
Qed.

(** ** Full bath *)
Lemma PP_Lsum {X} (T1 : mat) (T2 : ten) f g h k p q r s (l : list X) (a b : X -> mat) (d e : X -> ten) : (forall i j a b, T2 i j a b = T2 j i b a) ->
  Lsum l (fun x => PP K half nocc nvir T1 T2 f g h k p q r s (a x) (d x) (b x) (e x)) =
  PP K half nocc nvir T1 T2 f g h k p q r s (fun i j => Lsum l (fun x => a x i j)) (fun i j v w => Lsum l (fun x => d x i j v w)) (fun i j => Lsum l (fun x => b x i j)) (fun i j v w => Lsum l (fun x => e x i j v w)).
Proof.
  intros HT. induction l as [|x l IH]; [symmetry; apply (PP_zero K half Hhalf); exact HT|]. cbn [Lsum]. rewrite IH. rewrite <- (PP_add K half Hhalf nocc nvir T1 T2 HT). reflexivity.
Qed.
Lemma PP_allp (T1 : mat) (T2 : ten) f g h k p q r s (l : list pfrag) (a b : pfrag -> image -> mat) (d e : pfrag -> image -> ten) : (forall i j a b, T2 i j a b = T2 j i b a) ->
  allp K l (fun x c => PP K half nocc nvir T1 T2 f g h k p q r s (a x c) (d x c) (b x c) (e x c)) =
  PP K half nocc nvir T1 T2 f g h k p q r s (fun i j => allp K l (fun x c => a x c i j)) (fun i j v w => allp K l (fun x c => d x c i j v w)) (fun i j => allp K l (fun x c => b x c i j)) (fun i j v w => allp K l (fun x c => e x c i j v w)).
Proof.
  intros HT. unfold allp. rewrite <- (PP_Lsum T1 T2 f g h k p q r s l (fun x i j => Lsum (images x) (fun c => a x c i j)) (fun x i j => Lsum (images x) (fun c => b x c i j))
    (fun x i j v w => Lsum (images x) (fun c => d x c i j v w)) (fun x i j v w => Lsum (images x) (fun c => e x c i j v w)) HT).
  apply Lsum_ext. intros x _. apply (PP_Lsum T1 T2 f g h k p q r s (images x) (a x) (b x) (d x) (e x) HT).
Qed.
Section Frag.
Variables (x : gfrag) (c : image).
Notation no := (g_no x). Notation nv := (g_nv x). Notation co := (i_co c). Notation cv := (i_cv c).
Notation sm := [no; nv]. Notation bg := [nocc; nvir]. Notation cs := [co; cv].
Hypothesis Ro : rows nocc no co.
Hypothesis Rv : rows nvir nv cv.
Hypothesis Io : isometric K nocc no co.
Hypothesis Iv : isometric K nvir nv cv.
Lemma frag_iso : iso sm bg cs.
Proof. intros s p q Hp Hq. destruct s as [|[|s]]; unfold cm; cbn [nth] in *; [apply Io; auto|apply Iv; auto|destruct s; cbn in Hp; lia]. Qed.
Lemma frag_row : Erow sm bg cs.
Proof. intros s p q Hp Hq. destruct s as [|[|s]]; cbn [nth] in *; [apply Ro; auto|apply Rv; auto|destruct s; cbn in Hp; lia]. Qed.
Lemma Eq_up1 u : Eq sm bg cs [0; 1]%nat (w2 u) (w2 (up1 K x c u)).
Proof. apply Eq_w2. intros. reflexivity. Qed.
Lemma Eq_upt u : Eq sm bg cs [0; 0; 1; 1]%nat (w4 u) (w4 (upt K x c u)).
Proof. apply Eq_w4. intros. reflexivity. Qed.
Lemma Eq_down1 (T t : mat) : down2 nocc nvir no nv co cv T t -> Eq sm bg cs [0; 1]%nat (w2 t) (w2 T).
Proof. intros H. apply Eq_w2. cbn [nth]. intros P Q HP HQ. symmetry. apply (down2_up nocc nvir no nv); auto. Qed.
Lemma Eq_down2 (T t : ten) : down4 nocc nocc nvir nvir no no nv nv co co cv cv T t -> Eq sm bg cs [0; 0; 1; 1]%nat (w4 t) (w4 T).
Proof.
  intros H. apply Eq_w4. cbn [nth]. intros P Q R S HP HQ HR HS. symmetry. revert P Q R S HP HQ HR HS.
  apply (open4 sm bg cs frag_row 0 0 1 1 t T). intros u1 U1 u2 U2 u3 U3 u4 U4 Y1 Y2 Y3 Y4. cbn [nth].
  assert (V : forall s u U, Eq sm bg cs [s] (w1 u) (w1 U) -> forall X, (X < nth s bg O)%nat -> U X = Sum (nth s sm O) (fun p => nth s cs (fun _ _ => 0) X p * u p)).
  { intros s u U E X HX. specialize (E [X]). cbn [inr sumb ker w1] in E. rewrite E by auto. unfold dim, cm. apply Sum_ext; intros. ring. }
  transitivity (Sum no (fun p => Sum no (fun q => Sum nv (fun r => Sum nv (fun s => u1 p * u2 q * u3 r * u4 s * Sum nocc (fun P => Sum nocc (fun Q => Sum nvir (fun R => Sum nvir (fun S => co P p * co Q q * cv R r * cv S s * T P Q R S))))))))).
  { p0. p0. p0. p0. rewrite H by auto. reflexivity. }
  transitivity (Sum nocc (fun P => Sum nocc (fun Q => Sum nvir (fun R => Sum nvir (fun S => Sum no (fun p => co P p * u1 p) * Sum no (fun p => co Q p * u2 p) * Sum nv (fun p => cv R p * u3 p) * Sum nv (fun p => cv S p * u4 p) * T P Q R S))))).
  { clear. push. reorder. }
  p0. p0. p0. p0. rewrite (V _ _ _ Y1), (V _ _ _ Y2), (V _ _ _ Y3), (V _ _ _ Y4) by auto. reflexivity.
Qed.
(** The two-particle matrix of a fragment in the basis of the system *)
Lemma lift_gamma2 (T1 t1 : mat) (T2 t2 : ten) (u1 l1 : mat) (u2 l2 out : ten) f g h k P Q R S :
  down2 nocc nvir no nv co cv T1 t1 -> down4 nocc nocc nvir nvir no no nv nv co co cv cv T2 t2 ->
  (P < sz nocc nvir f)%nat -> (Q < sz nocc nvir g)%nat -> (R < sz nocc nvir h)%nat -> (S < sz nocc nvir k)%nat ->
  lift_dm2 nocc x c (make_rdm2_rhf no (pgamma2 half no nv t1 t2 u1 u2 l1 l2) out) (shift nocc f P) (shift nocc g Q) (shift nocc h R) (shift nocc k S) =
  PP K half nocc nvir T1 T2 f g h k P Q R S (up1 K x c u1) (upt K x c u2) (up1 K x c l1) (upt K x c l2).
Proof.
  intros D1 D2 HP HQ HR HS. rewrite lift2_block by auto.
  rewrite (up4_ext _ _ _ _ _ _ _ _ _ (fun p q r s => PP K half no nv t1 t2 f g h k p q r s u1 u2 l1 l2)) by (intros; apply (make_rdm2_part no nv); auto).
  apply (PP_cov K half no nv nocc nvir co cv frag_iso frag_row t1 T1 t2 T2); auto using Eq_up1, Eq_upt, Eq_down1, Eq_down2.
Qed.
(** The one-particle matrix of the cluster *)
Lemma lift_gamma1 (T1 t1 L1 l1 : mat) (T2 t2 L2 l2 : ten) P Q :
  down2 nocc nvir no nv co cv T1 t1 -> down4 nocc nocc nvir nvir no no nv nv co co cv cv T2 t2 -> down2 nocc nvir no nv co cv L1 l1 -> down4 nocc nocc nvir nvir no no nv nv co co cv cv L2 l2 ->
  (P < nocc + nvir)%nat -> (Q < nocc + nvir)%nat ->
  lift_dm1 nocc x c (cc_rdm1 no (cc_gamma1 no nv t1 t2 l1 l2) false) P Q = cc_rdm1 nocc (cc_gamma1 nocc nvir T1 T2 L1 L2) false P Q.
Proof.
  intros D1 D2 D3 D4 HP HQ. destruct (shift_cases nocc nvir P HP) as (f & p & -> & Hp). destruct (shift_cases nocc nvir Q HQ) as (g & q & -> & Hq).
  rewrite lift1_block by auto. rewrite (dc_part nocc nvir T1 T2 L1 L2) by auto.
  rewrite (up2_ext _ _ _ _ _ (fun a b => match f, g with false, false => symm (g_oo (cc_gamma1 no nv t1 t2 l1 l2)) a b | false, true => g_ov (cc_gamma1 no nv t1 t2 l1 l2) a b + g_vo (cc_gamma1 no nv t1 t2 l1 l2) b a
    | true, false => g_ov (cc_gamma1 no nv t1 t2 l1 l2) b a + g_vo (cc_gamma1 no nv t1 t2 l1 l2) a b | true, true => symm (g_vv (cc_gamma1 no nv t1 t2 l1 l2)) a b end)) by (intros; apply (dc_part no nv t1 t2 l1 l2); auto).
  apply Eq_down1 in D1, D3. apply Eq_down2 in D2, D4.
  assert (G : forall F1 F2, (forall x1 X1 x2 X2, Eq sm bg cs [ty f] (w1 x1) (w1 X1) -> Eq sm bg cs [ty g] (w1 x2) (w1 X2) ->
      Sum (nth (ty f) sm O) (fun p => Sum (nth (ty g) sm O) (fun q => x1 p * x2 q * F1 p q)) = Sum (nth (ty f) bg O) (fun P => Sum (nth (ty g) bg O) (fun Q => X1 P * X2 Q * F2 P Q))) ->
    up2 (sz no nv f) (sz no nv g) (ci c f) (ci c g) F1 p q = F2 p q).
  { intros F1 F2 HF. assert (O := open2 sm bg cs frag_row (ty f) (ty g) F1 F2 HF p q). destruct f, g; apply O; auto. }
  apply (G _ (fun a b => match f, g with false, false => symm (g_oo (cc_gamma1 nocc nvir T1 T2 L1 L2)) a b | false, true => g_ov (cc_gamma1 nocc nvir T1 T2 L1 L2) a b + g_vo (cc_gamma1 nocc nvir T1 T2 L1 L2) b a
    | true, false => g_ov (cc_gamma1 nocc nvir T1 T2 L1 L2) b a + g_vo (cc_gamma1 nocc nvir T1 T2 L1 L2) a b | true, true => symm (g_vv (cc_gamma1 nocc nvir T1 T2 L1 L2)) a b end)).
  intros x1 X1 x2 X2 Y1 Y2. assert (Hi := frag_iso).
  pose proof (Eqs_cons sm bg cs _ _ _ _ _ _ Y1 (Eqs_cons sm bg cs _ _ _ _ _ _ Y2 (Eqs_cons sm bg cs _ _ _ _ _ _ D1 (Eqs_cons sm bg cs _ _ _ _ _ _ D2 (Eqs_cons sm bg cs _ _ _ _ _ _ D3 (Eqs_cons sm bg cs _ _ _ _ _ _ D4 (Eqs_nil sm bg cs))))))) as Z.
  destruct f, g; cbn [ty] in Z; cbn [ty nth cc_gamma1 g_oo g_ov g_vo g_vv]; unfold cc_gamma1, symm, cc_theta, two; cbn [g_oo g_ov g_vo g_vv]; cbv beta; inv half Hi Z.
Qed.
End Frag.

(** What make_rdm2_ccsd_proj_lambda adds, by entries *)
Lemma mean_field_entry (dm1 : mat) (x : ten) P Q R S : add_mean_field nocc dm1 x P Q R S =
  x P Q R S + two * occ nocc P Q * (dm1 R S - occ nocc R S) + two * occ nocc R S * (dm1 P Q - occ nocc P Q) - occ nocc Q R * (dm1 P S - occ nocc P S) - occ nocc P S * (dm1 R Q - occ nocc R Q).
Proof. unfold add_mean_field. rewrite loop4. unfold mtrans. rewrite !add_diag_occ. ring. Qed.
Section Full.
Variables (frags : list pfrag) (tal st : bool) (T1 L1 : mat) (T2 L2 : ten) (out : ten).
Hypothesis Hf : full_bath K nocc nvir (gfrags K frags).
Hypothesis Ho : orthonormal K nocc nvir (gfrags K frags).
Hypothesis Hp : Forall (projected K) (gfrags K frags).
Hypothesis Hin : Forall (insides K nocc) (gfrags K frags).
Hypothesis HT : forall I J A B, T2 I J A B = T2 J I B A.
Hypothesis HL : forall I J A B, L2 I J A B = L2 J I B A.
Hypothesis Ht : forall x, In x frags -> full1 K nocc nvir T1 x (M_Wf.t1 (pwf_as_ccsd (p_wf x))) /\ full2 K nocc nvir T2 x (M_Wf.t2 (pwf_as_ccsd (p_wf x))) /\ amp1 K nocc nvir T1 x (pt1 K x) /\ amp2 K nocc nvir T2 x (pt2 K x).
Hypothesis Hl : forall x, In x frags -> exists u1 u2, lam1 K x tal = Some u1 /\ lam2 K x tal = Some u2 /\ amp1 K nocc nvir L1 x u1 /\ amp2 K nocc nvir L2 x u2.
Lemma amps_full x : In x frags -> exists t1x t2x l1x l2x,
  proj_gamma2 half x tal st = Some (pgamma2 half (g_no x) (g_nv x) (M_Wf.t1 (pwf_as_ccsd (p_wf x))) (M_Wf.t2 (pwf_as_ccsd (p_wf x))) t1x t2x l1x l2x) /\
  (forall i v, (i < g_no x)%nat -> t1x i v = rs1 K x (pt1 K x) i v) /\ (forall i j v w, (i < g_no x)%nat -> (j < g_no x)%nat -> t2x i j v w = rst K half st x (pt2 K x) i j v w) /\
  (forall i v, (i < g_no x)%nat -> l1x i v = rs1 K x (get1 K (lam1 K x tal)) i v) /\ (forall i j v w, (i < g_no x)%nat -> (j < g_no x)%nat -> l2x i j v w = rst K half st x (get K (lam2 K x tal)) i j v w).
Proof.
  intros Hx. assert (Px : projected K x) by (rewrite Forall_forall in Hp; apply Hp; apply in_map; auto).
  destruct (amps_ok K half x tal st Px) as (a & E & E1 & E2 & X1 & X2 & Y1 & Y2). destruct (Hl x Hx) as (u1 & u2 & F1 & F2 & _). rewrite F1 in *. rewrite F2 in *.
  unfold lk1 in Y1, X1. unfold lk2 in Y2, X2. destruct (a_l1x a) as [l1x|] eqn:G1x; [|contradiction]. destruct (a_l2x a) as [l2x|] eqn:G2x; [|contradiction].
  exists (a_t1x a), (a_t2x a), l1x, l2x. split; [|auto]. unfold proj_gamma2. rewrite E, G1x, G2x, E1, E2. reflexivity.
Qed.
Definition g2_of (x : pfrag) : dm2i K := match proj_gamma2 half x tal st with Some d => d | None => cc_gamma2 half O O (fun _ _ => 0) (fun _ _ _ _ => 0) (fun _ _ => 0) (fun _ _ _ _ => 0) end.
Notation D2 := (cc_gamma2 half nocc nvir T1 T2 L1 L2).
Notation D1 := (cc_gamma1 nocc nvir T1 T2 L1 L2).
Lemma sum_gamma2 P Q R S : (P < nocc + nvir)%nat -> (Q < nocc + nvir)%nat -> (R < nocc + nvir)%nat -> (S < nocc + nvir)%nat ->
  allp K frags (fun x c => lift_dm2 nocc x c (make_rdm2_rhf (g_no x) (g2_of x) out) P Q R S) = make_rdm2_rhf nocc D2 out P Q R S.
Proof.
  intros HP HQ HR HS. destruct (shift_cases nocc nvir P HP) as (f & p & -> & Bp). destruct (shift_cases nocc nvir Q HQ) as (g & q & -> & Bq).
  destruct (shift_cases nocc nvir R HR) as (h & r & -> & Br). destruct (shift_cases nocc nvir S HS) as (k & s & -> & Bs). clear HP HQ HR HS.
  rewrite (make_rdm2_part nocc nvir) by auto. rewrite <- (PP_full K half).
  set (A1 := fun (x : pfrag) (c : image) => up1 K x c (rs1 K x (pt1 K x))). set (A2 := fun (x : pfrag) (c : image) => upt K x c (rst K half st x (pt2 K x))).
  set (B1 := fun (x : pfrag) (c : image) => up1 K x c (rs1 K x (get1 K (lam1 K x tal)))). set (B2 := fun (x : pfrag) (c : image) => upt K x c (rst K half st x (get K (lam2 K x tal)))).
  transitivity (allp K frags (fun x c => PP K half nocc nvir T1 T2 f g h k p q r s (A1 x c) (A2 x c) (B1 x c) (B2 x c))).
  { unfold allp. apply Lsum_ext; intros x Hx. apply Lsum_ext; intros c Hc. destruct (amps_full x Hx) as (t1x & t2x & l1x & l2x & E & X1 & X2 & X3 & X4).
    unfold g2_of. rewrite E. destruct Hf as [Hco _]. destruct (Hco x c) as [Ro Rv]; [apply in_map; auto|auto|]. destruct (Ho x c) as [Io Iv]; [apply in_map; auto|auto|]. destruct (Ht x Hx) as (Hf1 & Hf2 & _).
    rewrite (lift_gamma2 x c Ro Rv Io Iv T1 _ T2 _ t1x l1x t2x l2x out f g h k p q r s (Hf1 c Hc) (Hf2 c Hc)) by auto.
    apply PP_ext; auto; intros; unfold A1, A2, B1, B2; [apply up2_ext|apply up4_ext|apply up2_ext|apply up4_ext]; intros; auto. }
  rewrite PP_allp by exact HT. apply PP_ext; auto.
  - intros i a Hi Ha. unfold A1. rewrite (allp_all K frags (fun x c => up1 K x c (rs1 K x (pt1 K x)) i a)). apply (sum_t1 K nocc nvir (gfrags K frags) T1 (pt1 K)); auto.
    intros y Hy. apply in_map_iff in Hy. destruct Hy as (x & <- & Hx). apply Ht; auto.
  - intros i j a b Hi Hj Ha Hb. unfold A2. rewrite (allp_all K frags (fun x c => upt K x c (rst K half st x (pt2 K x)) i j a b)). apply (sum_t2 K half Hhalf nocc nvir st (gfrags K frags) T2 (pt2 K)); auto.
    intros y Hy. apply in_map_iff in Hy. destruct Hy as (x & <- & Hx). apply Ht; auto.
  - intros i a Hi Ha. unfold B1. rewrite (allp_all K frags (fun x c => up1 K x c (rs1 K x (get1 K (lam1 K x tal))) i a)). apply (sum_t1 K nocc nvir (gfrags K frags) L1 (fun x => get1 K (lam1 K x tal))); auto.
    intros y Hy. apply in_map_iff in Hy. destruct Hy as (x & <- & Hx). destruct (Hl x Hx) as (u1 & u2 & E & _ & H & _). rewrite E. exact H.
  - intros i j a b Hi Hj Ha Hb. unfold B2. rewrite (allp_all K frags (fun x c => upt K x c (rst K half st x (get K (lam2 K x tal))) i j a b)). apply (sum_t2 K half Hhalf nocc nvir st (gfrags K frags) L2 (fun x => get K (lam2 K x tal))); auto.
    intros y Hy. apply in_map_iff in Hy. destruct Hy as (x & <- & Hx). destruct (Hl x Hx) as (u1 & u2 & _ & E & _ & H). rewrite E. exact H.
Qed.
Lemma allp_lin (F G : pfrag -> image -> K) k : allp K frags (fun x c => F x c - G x c * k) = allp K frags F - allp K frags G * k.
Proof. unfold allp. rewrite <- Lsum_mul_r, <- Lsum_sub. apply Lsum_ext; intros. rewrite <- Lsum_mul_r, <- Lsum_sub. apply Lsum_ext; intros. ring. Qed.
Lemma sum_dm1 P Q : (P < nocc + nvir)%nat -> (Q < nocc + nvir)%nat -> allp K frags (fun x c => lift_dm1 nocc x c (dm1_of K half x tal st) P Q) = cc_rdm1 nocc D1 false P Q.
Proof.
  intros HP HQ. destruct (C59_projected K half Hhalf nocc nvir frags tal st false T1 L1 T2 L2 Hf Hp Hin HL) as (d & E & H); [intros x Hx; destruct (Ht x Hx) as (A & B & C & _); auto|exact Hl|].
  rewrite <- H by auto. assert (Z := proj_eq K half nocc frags tal false st). rewrite E in Z. destruct Z as (_ & Z). rewrite Z. reflexivity.
Qed.
Lemma dm1_some x : In x frags -> exists d, fragment_dm1 half x tal st = Some d.
Proof.
  intros Hx. destruct (C59_projected K half Hhalf nocc nvir frags tal st false T1 L1 T2 L2 Hf Hp Hin HL) as (d & E & H); [intros y Hy; destruct (Ht y Hy) as (A & B & C & _); auto|exact Hl|].
  assert (Z := proj_eq K half nocc frags tal false st). rewrite E in Z. destruct Z as (Z & _). rewrite Forall_forall in Z. specialize (Z x Hx). destruct (fragment_dm1 half x tal st); [eauto|congruence].
Qed.
Notation Cu := (make_rdm2_rhf nocc D2 out).
Lemma cu_swap P Q R S : (P < nocc + nvir)%nat -> (Q < nocc + nvir)%nat -> (R < nocc + nvir)%nat -> (S < nocc + nvir)%nat -> Cu P Q R S = Cu R S P Q.
Proof.
  intros HP HQ HR HS. destruct (shift_cases nocc nvir P HP) as (f & a & -> & Ha). destruct (shift_cases nocc nvir Q HQ) as (g & b & -> & Hb).
  destruct (shift_cases nocc nvir R HR) as (h & c & -> & Hc). destruct (shift_cases nocc nvir S HS) as (k & d & -> & Hd).
  rewrite !(make_rdm2_part nocc nvir) by auto. destruct f, g, h, k; [apply sw_vvvv; auto| | | | | | | | | | | | | | |apply sw_oooo; auto]; cbn [part]; ring.
Qed.
(** What the fragments' matrices sum up to *)
Definition target (approx : nat) : cumulant := match approx with O => Exact | _ => Approx end.
Lemma target_swap approx P Q R S : (P < nocc + nvir)%nat -> (Q < nocc + nvir)%nat -> (R < nocc + nvir)%nat -> (S < nocc + nvir)%nat ->
  ccsd_rdm2 half nocc D1 D2 out (target approx) P Q R S = ccsd_rdm2 half nocc D1 D2 out (target approx) R S P Q /\
  ccsd_rdm2 half nocc D1 D2 out (target approx) P Q R S = ccsd_rdm2 half nocc D1 D2 out (target approx) Q P S R.
Proof.
  intros HP HQ HR HS. assert (A := cu_swap P Q R S HP HQ HR HS). assert (B := make_rdm2_herm nocc D2 out P Q R S). assert (Sy := C44_ccsd_symmetric nocc D1 false).
  destruct approx; cbn [target ccsd_rdm2]; unfold cc_rdm2; [|auto]. unfold non_cumulant. rewrite <- A, <- B.
  rewrite ?(Sy Q P), ?(Sy S R), ?(Sy R Q), ?(Sy S P), ?(Sy Q S), ?(Sy R P). split; ring.
Qed.
Lemma avg4_id approx P Q R S : (P < nocc + nvir)%nat -> (Q < nocc + nvir)%nat -> (R < nocc + nvir)%nat -> (S < nocc + nvir)%nat ->
  avg4 half (ccsd_rdm2 half nocc D1 D2 out (target approx)) P Q R S = ccsd_rdm2 half nocc D1 D2 out (target approx) P Q R S.
Proof.
  intros HP HQ HR HS. unfold avg4. destruct (target_swap approx P Q R S HP HQ HR HS) as (A & B). destruct (target_swap approx Q P S R HQ HP HS HR) as (A' & B'). rewrite <- A, <- A', <- B.
  transitivity (ccsd_rdm2 half nocc D1 D2 out (target approx) P Q R S * ((half + half) * (half + half))); [ring|rewrite Hhalf; ring].
Qed.
(** approx_cumulant=False needs the Lambda amplitudes of the clusters *)
Definition lambda_full : Prop := forall x, In x frags -> exists u1 u2, M_Wf.l1 (pwf_as_ccsd (p_wf x)) = Some u1 /\ M_Wf.l2 (pwf_as_ccsd (p_wf x)) = Some u2 /\ full1 K nocc nvir L1 x u1 /\ full2 K nocc nvir L2 x u2.
Definition options (approx : nat) : Prop := approx = 1%nat \/ (approx = 0%nat /\ lambda_full).
Hypothesis Hcc : Forall (fun x => is_mp2 x = false) (gfrags K frags).
Lemma sum_dm2c approx : options approx -> exists m, proj_dm2 half nocc frags tal st approx out = Ok m /\
  forall P Q R S, (P < nocc + nvir)%nat -> (Q < nocc + nvir)%nat -> (R < nocc + nvir)%nat -> (S < nocc + nvir)%nat -> m P Q R S = ccsd_rdm2 half nocc D1 D2 out (target approx) P Q R S.
Proof.
  intros Hopt.
  set (D := cc_rdm1 nocc D1 false).
  assert (G : forall x, In x frags -> exists d0, fragment_dm2c half x tal st false approx out = Ok d0 /\ fragment_dm2c half x tal st true approx out = Ok (if negb st then avg4 half d0 else d0) /\
    forall c, In c (images x) -> forall P Q R S, (P < nocc + nvir)%nat -> (Q < nocc + nvir)%nat -> (R < nocc + nvir)%nat -> (S < nocc + nvir)%nat ->
      lift_dm2 nocc x c d0 P Q R S = lift_dm2 nocc x c (make_rdm2_rhf (g_no x) (g2_of x) out) P Q R S - (if (approx =? 0)%nat then 
        D P Q * lift_dm1 nocc x c (dm1_of K half x tal st) R S * half + lift_dm1 nocc x c (dm1_of K half x tal st) P Q * D R S * half
        - D P S * lift_dm1 nocc x c (dm1_of K half x tal st) Q R * (half * half) - lift_dm1 nocc x c (dm1_of K half x tal st) P S * D Q R * (half * half) else 0)).
  { intros x Hx. destruct (amps_full x Hx) as (t1x & t2x & l1x & l2x & E & _). unfold g2_of. rewrite E.
    assert (Mx : is_mp2 x = false) by (rewrite Forall_forall in Hcc; apply Hcc; apply in_map; auto). unfold fragment_dm2c. rewrite Mx, E. cbn [of_option bind].
    destruct Hopt as [->|(-> & Hlam)].
    - cbn [bind]. eexists. split; [cbn [andb]; reflexivity|]. split; [cbn [andb]; reflexivity|]. intros. cbn [Nat.eqb]. ring.
    - destruct (dm1_some x Hx) as (dm1x & Ex). rewrite Ex. cbn [of_option bind]. destruct (Hlam x Hx) as (u1 & u2 & -> & -> & Hl1 & Hl2). cbn [bind]. eexists. split; [cbn [andb]; reflexivity|]. split; [cbn [andb]; reflexivity|].
      intros c Hc P Q R S HP HQ HR HS. cbn [Nat.eqb]. rewrite lift2_sub. f_equal. unfold proj_product.
      destruct Hf as [Hco _]. destruct (Hco x c) as [Ro Rv]; [apply in_map; auto|auto|]. destruct (Ho x c) as [Io Iv]; [apply in_map; auto|auto|]. destruct (Ht x Hx) as (Hf1 & Hf2 & _).
      assert (Ed : dm1_of K half x tal st = dm1x) by (unfold dm1_of; rewrite Ex; reflexivity). rewrite Ed. set (dm1 := cc_rdm1 (g_no x) _ false).
      assert (Dl : forall P Q, (P < nocc + nvir)%nat -> (Q < nocc + nvir)%nat -> lift_dm1 nocc x c dm1 P Q = D P Q) by (intros; apply lift_gamma1; auto).
      rewrite !lift2_sub, lift2_add, !lift2_mul, !lift2_direct, !lift2_exch, !Dl by auto. reflexivity. }
  destruct (proj2_ok frags tal st approx out) as (m & Em & Hm); [intros x Hx; destruct (G x Hx) as (d0 & _ & E & _); eauto|].
  exists m. split; [exact Em|]. intros P Q R S HP HQ HR HS. rewrite Hm. clear Hm Em m.
  (* unsymmetrised sum *)
  assert (U : forall e : pfrag -> ten, (forall x, In x frags -> forall c, In c (images x) -> forall P Q R S, (P < nocc + nvir)%nat -> (Q < nocc + nvir)%nat -> (R < nocc + nvir)%nat -> (S < nocc + nvir)%nat ->
      lift_dm2 nocc x c (e x) P Q R S = lift_dm2 nocc x c (make_rdm2_rhf (g_no x) (g2_of x) out) P Q R S - (if (approx =? 0)%nat then 
        D P Q * lift_dm1 nocc x c (dm1_of K half x tal st) R S * half + lift_dm1 nocc x c (dm1_of K half x tal st) P Q * D R S * half
        - D P S * lift_dm1 nocc x c (dm1_of K half x tal st) Q R * (half * half) - lift_dm1 nocc x c (dm1_of K half x tal st) P S * D Q R * (half * half) else 0)) ->
    forall P Q R S, (P < nocc + nvir)%nat -> (Q < nocc + nvir)%nat -> (R < nocc + nvir)%nat -> (S < nocc + nvir)%nat ->
      allp K frags (fun x c => lift_dm2 nocc x c (e x) P Q R S) = ccsd_rdm2 half nocc D1 D2 out (target approx) P Q R S).
  { clear P Q R S HP HQ HR HS. intros e He P Q R S HP HQ HR HS. set (ld := fun (x : pfrag) (c : image) => lift_dm1 nocc x c (dm1_of K half x tal st)).
    transitivity (allp K frags (fun x c => lift_dm2 nocc x c (make_rdm2_rhf (g_no x) (g2_of x) out) P Q R S - (if (approx =? 0)%nat then 
        D P Q * ld x c R S * half + ld x c P Q * D R S * half - D P S * ld x c Q R * (half * half) - ld x c P S * D Q R * (half * half) else 0) * 1)).
    { unfold allp. apply Lsum_ext; intros x Hx. apply Lsum_ext; intros c Hc. rewrite He by auto. unfold ld. ring. }
    rewrite allp_lin. rewrite sum_gamma2 by auto.
    assert (Z : allp K frags (fun x c => if (approx =? 0)%nat then D P Q * ld x c R S * half + ld x c P Q * D R S * half - D P S * ld x c Q R * (half * half) - ld x c P S * D Q R * (half * half) else 0)
       = if (approx =? 0)%nat then non_cumulant half D P Q R S else 0).
    { destruct (approx =? 0)%nat; [|unfold allp; apply Lsum_0; intros; apply Lsum_0; intros; reflexivity].
      transitivity (allp K frags (fun x c => (((0 - ld x c R S * (- (D P Q * half))) - ld x c P Q * (- (D R S * half))) - ld x c Q R * (D P S * (half * half))) - ld x c P S * (D Q R * (half * half)))).
      { unfold allp. apply Lsum_ext; intros x Hx. apply Lsum_ext; intros c Hc. ring. }
      rewrite !allp_lin. unfold ld. rewrite !sum_dm1 by auto. fold D.
      assert (Z0 : allp K frags (fun _ _ => 0) = 0) by (unfold allp; apply Lsum_0; intros; apply Lsum_0; intros; reflexivity). rewrite Z0. unfold non_cumulant.
      transitivity ((half + half) * (D P Q * D R S) - (half + half) * half * (D P S * D Q R)); [ring|rewrite Hhalf; ring]. }
    rewrite Z. destruct approx; cbn [Nat.eqb target ccsd_rdm2]; unfold cc_rdm2; [fold D|]; ring. }
  assert (W : exists e : pfrag -> ten, forall x, In x frags -> dm2_of x tal st true approx out = (if negb st then avg4 half (e x) else e x) /\
    forall c, In c (images x) -> forall P Q R S, (P < nocc + nvir)%nat -> (Q < nocc + nvir)%nat -> (R < nocc + nvir)%nat -> (S < nocc + nvir)%nat ->
      lift_dm2 nocc x c (e x) P Q R S = lift_dm2 nocc x c (make_rdm2_rhf (g_no x) (g2_of x) out) P Q R S - (if (approx =? 0)%nat then 
        D P Q * lift_dm1 nocc x c (dm1_of K half x tal st) R S * half + lift_dm1 nocc x c (dm1_of K half x tal st) P Q * D R S * half
        - D P S * lift_dm1 nocc x c (dm1_of K half x tal st) Q R * (half * half) - lift_dm1 nocc x c (dm1_of K half x tal st) P S * D Q R * (half * half) else 0)).
  { exists (fun x => match fragment_dm2c half x tal st false approx out with Ok d => d | _ => fun _ _ _ _ => 0 end). intros x Hx. destruct (G x Hx) as (d & Ef & E & H).
    rewrite Ef. split; [unfold dm2_of; rewrite E; reflexivity|exact H]. }
  destruct W as (e & He).
  assert (Ue := U e ltac:(intros x Hx; apply He; auto)).
  transitivity (allp K frags (fun x c => lift_dm2 nocc x c (if negb st then avg4 half (e x) else e x) P Q R S)).
  { unfold allp. apply Lsum_ext; intros x Hx. apply Lsum_ext; intros c Hc. rewrite (Logic.proj1 (He x Hx)). reflexivity. }
  destruct st; cbn [negb]; [apply Ue; auto|]. rewrite <- avg4_id by auto. unfold avg4 at 2. rewrite <- !Ue by auto.
  transitivity (allp K frags (fun x c => (((0 - lift_dm2 nocc x c (e x) P Q R S * (- (half * half))) - lift_dm2 nocc x c (e x) Q P S R * (- (half * half))) - lift_dm2 nocc x c (e x) R S P Q * (- (half * half))) - lift_dm2 nocc x c (e x) S R Q P * (- (half * half)))).
  { unfold allp. apply Lsum_ext; intros x Hx. apply Lsum_ext; intros c Hc. rewrite lift2_avg4. unfold avg4. ring. }
  rewrite !allp_lin. assert (Z0 : allp K frags (fun _ _ => 0) = 0) by (unfold allp; apply Lsum_0; intros; apply Lsum_0; intros; reflexivity). rewrite Z0. ring.
Qed.
Lemma full_options emb w sd approx dm1 : options approx -> (forall P Q, (P < nocc + nvir)%nat -> (Q < nocc + nvir)%nat -> dm1 P Q = cc_rdm1 nocc D1 true P Q) ->
  w = WNo \/ w = WArray dm1 \/ (w = WTrue /\ emb = Some dm1) ->
  exists m, rdm2_proj_lambda half nocc emb frags w tal st sd approx out = Ok m /\
    forall P Q R S, (P < nocc + nvir)%nat -> (Q < nocc + nvir)%nat -> (R < nocc + nvir)%nat -> (S < nocc + nvir)%nat ->
      m P Q R S = ccsd_rdm2 half nocc D1 D2 out (match w with WNo => target approx | _ => Full end) P Q R S.
Proof.
  intros Ha Hd Hw. destruct (sum_dm2c approx Ha) as (m & E & H). unfold rdm2_proj_lambda. rewrite E. cbn [bind].
  assert (W : exists m', match approx with 0%nat => Ok (add_product half dm1 m) | 1%nat => Ok (add_mean_field nocc dm1 m) | 2%nat => NotImplemented | _ => BadValue end = Ok m' /\
    forall P Q R S, (P < nocc + nvir)%nat -> (Q < nocc + nvir)%nat -> (R < nocc + nvir)%nat -> (S < nocc + nvir)%nat -> m' P Q R S = ccsd_rdm2 half nocc D1 D2 out Full P Q R S).
  { assert (Sy := C44_ccsd_symmetric nocc D1 true). destruct Ha as [->|(-> & _)]; eexists; (split; [reflexivity|]); intros P Q R S HP HQ HR HS.
    - rewrite mean_field_entry, H, !Hd by auto. cbn [target ccsd_rdm2]. unfold cc_rdm2 at 1. rewrite full_entry, !cc_rdm1_mf. unfold mf_dm1.
      rewrite (C44_ccsd_symmetric nocc D1 false R Q), (occ_sym nocc R Q). unfold two. ring.
    - unfold add_product. rewrite H, !Hd by auto. cbn [target]. rewrite (Logic.proj1 (C45_restricted half Hhalf nocc D1 D2 out P Q R S)). unfold product.
      rewrite (Sy R Q). ring. }
  destruct Hw as [->|[->|(-> & ->)]]; [exists m; auto|exact W|cbn [of_option bind]; exact W].
Qed.
End Full.

(** With full-bath clusters and a wave function whose amplitudes are those of one CCSD wave function of the system, make_rdm2 with projected Lambda amplitudes is the CCSD
    two-particle matrix of the system, for either definition of the cumulant and whatever symmetrisation; [dm1]: the one-particle matrix passed as with_dm1 or made by
    emb.make_rdm1() *)
Theorem C61_full_bath : forall (frags : list pfrag) (tal st sd : bool) (T1 L1 : mat) (T2 L2 : ten) (out : ten) emb w dm1 approx,
  full_bath K nocc nvir (gfrags K frags) -> orthonormal K nocc nvir (gfrags K frags) -> Forall (projected K) (gfrags K frags) -> Forall (insides K nocc) (gfrags K frags) ->
  (forall I J A B, T2 I J A B = T2 J I B A) -> (forall I J A B, L2 I J A B = L2 J I B A) -> Forall (fun x => is_mp2 x = false) (gfrags K frags) ->
  (forall x, In x frags -> full1 K nocc nvir T1 x (M_Wf.t1 (pwf_as_ccsd (p_wf x))) /\ full2 K nocc nvir T2 x (M_Wf.t2 (pwf_as_ccsd (p_wf x))) /\ amp1 K nocc nvir T1 x (pt1 K x) /\ amp2 K nocc nvir T2 x (pt2 K x)) ->
  (forall x, In x frags -> exists u1 u2, lam1 K x tal = Some u1 /\ lam2 K x tal = Some u2 /\ amp1 K nocc nvir L1 x u1 /\ amp2 K nocc nvir L2 x u2) ->
  approx = 1%nat \/ (approx = 0%nat /\ forall x, In x frags -> exists u1 u2, M_Wf.l1 (pwf_as_ccsd (p_wf x)) = Some u1 /\ M_Wf.l2 (pwf_as_ccsd (p_wf x)) = Some u2 /\ full1 K nocc nvir L1 x u1 /\ full2 K nocc nvir L2 x u2) ->
  (forall P Q, (P < nocc + nvir)%nat -> (Q < nocc + nvir)%nat -> dm1 P Q = cc_rdm1 nocc (cc_gamma1 nocc nvir T1 T2 L1 L2) true P Q) ->
  w = WNo \/ w = WArray dm1 \/ (w = WTrue /\ emb = Some dm1) ->
  exists m, rdm2_proj_lambda half nocc emb frags w tal st sd approx out = Ok m /\
    forall P Q R S, (P < nocc + nvir)%nat -> (Q < nocc + nvir)%nat -> (R < nocc + nvir)%nat -> (S < nocc + nvir)%nat ->
      m P Q R S = ccsd_rdm2 half nocc (cc_gamma1 nocc nvir T1 T2 L1 L2) (cc_gamma2 half nocc nvir T1 T2 L1 L2) out
        (match w with WNo => if (approx =? 0)%nat then Exact else Approx | _ => Full end) P Q R S.
Proof.
  intros frags tal st sd T1 L1 T2 L2 out emb w dm1 approx Hf Ho Hp Hin HT HL Hcc Ht Hl Ha Hd Hw.
  destruct (full_options frags tal st T1 L1 T2 L2 out Hf Ho Hp Hin HT HL Ht Hl Hcc emb w sd approx dm1 Ha Hd Hw) as (m & E & H).
  exists m. split; [exact E|]. intros. rewrite H by auto. destruct w, approx; reflexivity.
Qed.
End Sys.

(** ** Cases *)
Section Cases.
Definition out0 : nat -> nat -> nat -> nat -> QK := fun _ _ _ _ => q 7 1.
Lemma fp_full x : In x [fp] -> full1 QK 2 2 T1f x (M_Wf.t1 (pwf_as_ccsd (p_wf x))) /\ full2 QK 2 2 T2f x (M_Wf.t2 (pwf_as_ccsd (p_wf x))) /\ amp1 QK 2 2 T1f x (pt1 QK x) /\ amp2 QK 2 2 T2f x (pt2 QK x).
Proof.
  intros [<-|[]]. split; [|split; [|split; [apply ffrag_amp1|apply ffrag_amp2']]].
  - intros c [<-|[<-|[]]] i a Hi Ha. all: cbn in Hi, Ha; destruct i as [|[|i]]; try (exfalso; lia); destruct a as [|[|a]]; try (exfalso; lia); apply eqq_ok; vm_compute; reflexivity.
  - intros c [<-|[<-|[]]] i j a b Hi Hj Ha Hb. all: cbn in Hi, Hj, Ha, Hb; destruct i as [|[|i]]; try (exfalso; lia); destruct j as [|[|j]]; try (exfalso; lia); destruct a as [|[|a]]; try (exfalso; lia); destruct b as [|[|b]]; try (exfalso; lia); apply eqq_ok; vm_compute; reflexivity.
Qed.
Lemma fp_lam x : In x [fp] -> exists u1 u2, lam1 QK x false = Some u1 /\ lam2 QK x false = Some u2 /\ amp1 QK 2 2 T1f x u1 /\ amp2 QK 2 2 L2f x u2.
Proof. intros [<-|[]]. exists T1f, L2f. split; [reflexivity|]. split; [reflexivity|]. split; [apply ffrag_amp1|apply ffrag_amp2]. Qed.
Lemma fp_lam' x : In x [fp] -> exists u1 u2, M_Wf.l1 (pwf_as_ccsd (p_wf x)) = Some u1 /\ M_Wf.l2 (pwf_as_ccsd (p_wf x)) = Some u2 /\ full1 QK 2 2 T1f x u1 /\ full2 QK 2 2 L2f x u2.
Proof.
  intros [<-|[]]. exists T1f, L2f. split; [reflexivity|]. split; [reflexivity|]. split; [apply (fp_full fp (or_introl eq_refl))|].
  intros c [<-|[<-|[]]] i j a b Hi Hj Ha Hb. all: cbn in Hi, Hj, Ha, Hb; destruct i as [|[|i]]; try (exfalso; lia); destruct j as [|[|j]]; try (exfalso; lia); destruct a as [|[|a]]; try (exfalso; lia); destruct b as [|[|b]]; try (exfalso; lia); apply eqq_ok; vm_compute; reflexivity.
Qed.
Definition dm1f : nat -> nat -> QK := cc_rdm1 2 (cc_gamma1 2 2 T1f T2f T1f L2f) true.
Definition dm2f (k : cumulant) : nat -> nat -> nat -> nat -> QK := ccsd_rdm2 qh 2 (cc_gamma1 2 2 T1f T2f T1f L2f) (cc_gamma2 qh 2 2 T1f T2f T1f L2f) out0 k.
Example C61_full_bath_case : forall st sd approx, (approx <= 1)%nat -> (exists m, rdm2_proj_lambda qh 2 (Some dm1f) [fp] WTrue false st sd approx out0 = Ok m /\
    (forall P Q R S, (P < 4)%nat -> (Q < 4)%nat -> (R < 4)%nat -> (S < 4)%nat -> m P Q R S = dm2f Full P Q R S)) /\
  (exists m, rdm2_proj_lambda qh 2 None [fp] WNo false st sd approx out0 = Ok m /\
    (forall P Q R S, (P < 4)%nat -> (Q < 4)%nat -> (R < 4)%nat -> (S < 4)%nat -> m P Q R S = dm2f (if (approx =? 0)%nat then Exact else Approx) P Q R S)) /\
  dm2f Full 0%nat 0%nat 2%nat 3%nat <> dm2f Approx 0%nat 0%nat 2%nat 3%nat /\ dm2f Exact 0%nat 2%nat 1%nat 3%nat <> dm2f Approx 0%nat 2%nat 1%nat 3%nat.
Proof.
  intros st sd approx Ha. destruct ffrag_ok as (A & B & _).
  assert (Ho : orthonormal QK 2 2 (gfrags QK [fp])).
  { intros x c [<-|[]] [<-|[<-|[]]]; split; intros i j Hi Hj; cbn in Hi, Hj; repeat (destruct i as [|i]; [|try (exfalso; lia)]); repeat (destruct j as [|j]; [|try (exfalso; lia)]); apply eqq_ok; vm_compute; reflexivity. }
  assert (Hcc : Forall (fun x => is_mp2 x = false) (gfrags QK [fp])) by (repeat constructor).
  assert (Hap : approx = 1%nat \/ (approx = 0%nat /\ forall x, In x [fp] -> exists u1 u2, M_Wf.l1 (pwf_as_ccsd (p_wf x)) = Some u1 /\ M_Wf.l2 (pwf_as_ccsd (p_wf x)) = Some u2 /\ full1 QK 2 2 T1f x u1 /\ full2 QK 2 2 L2f x u2)).
  { destruct approx as [|[|k]]; [right; split; [reflexivity|apply fp_lam']|left; reflexivity|lia]. }
  assert (T := C61_full_bath QK qh qhh 2 2 [fp] false st sd T1f T1f T2f L2f out0). split; [|split; [|split; apply neqq; vm_compute; reflexivity]].
  - apply (T (Some dm1f) WTrue dm1f approx ffrag_full Ho A B T2f_exch L2f_exch Hcc fp_full fp_lam Hap); [intros; reflexivity|auto].
  - apply (T None WNo dm1f approx ffrag_full Ho A B T2f_exch L2f_exch Hcc fp_full fp_lam Hap); [intros; reflexivity|auto].
Qed.
End Cases.

Print Assumptions C61_full_bath.
