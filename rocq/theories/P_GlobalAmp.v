(** Properties C56 (global amplitudes) and further theorems on C57 (the global density matrix): statements on M_GlobalWf.v, with the lemmas of P_GlobalWf.v. *)
From Coq Require Import List Arith Bool Lia ZArith QArith Qcanon Ring Setoid Morphisms Permutation.
From Verif Require Import Alg Pull M_Wf M_Eris M_Rdm M_GlobalWf P_GlobalPairs P_GlobalWf P_Rdm.
Import ListNotations.

Section P.
Context (K : cring).
Add Ring Kr : (rth K).
Open Scope K_scope.
Variable half : K.
Hypothesis Hhalf : half + half = 1.
Notation mat := (nat -> nat -> K).
Notation ten := (nat -> nat -> nat -> nat -> K).

(** ** C56: symmetry of the amplitudes *)
Lemma symmetrized (u : ten) i j a b : symmetrize_c2 half u i j a b = symmetrize_c2 half u j i b a.
Proof. unfold symmetrize_c2, exch. ring. Qed.
Lemma t2_of_exch x gl fd t : t2_of half x gl fd = Some (Some t) -> forall i j a b, t i j a b = t j i b a.
Proof.
  unfold t2_of, restored, pwf_restore. destruct (g_pwf x) as [w|n1 u [p|]]; cbn [option_map].
  - unfold restore. destruct (projector w) as [p|]; cbn [option_map pwf_as_ccsd M_Wf.t2 M_Wf.l2]; [|discriminate].
    destruct (fd && is_mp2 x); [destruct gl; [discriminate|]; intros E; injection E as <-; intros; rewrite symmetrized; reflexivity|].
    destruct (gl && negb (g_tal x)).
    + destruct (M_Wf.l2 (project w (Some (ptrans p)))) as [l|]; [|discriminate]. intros E; injection E as <-. intros. apply symmetrized.
    + intros E; injection E as <-. intros. apply symmetrized.
  - cbn [pwf_as_ccsd M_Wf.t2 M_Wf.l2]. destruct (fd && is_mp2 x); [destruct gl; [discriminate|]; intros E; injection E as <-; intros; rewrite symmetrized; reflexivity|].
    destruct (gl && negb (g_tal x)); intros E; injection E as <-; intros; apply symmetrized.
  - discriminate.
Qed.
Theorem C56_pair_symmetric : forall frags gl fd m, global_t2 half frags gl fd = Some m -> forall I J A B, m I J A B = m J I B A.
Proof.
  intros frags gl fd m E. unfold global_t2 in E.
  assert (Z : forall l (m0 m : ten), (forall I J A B, m0 I J A B = m0 J I B A) ->
    fold_left (fun (acc : option ten) x => match acc, t2_of half x gl fd with Some m, Some (Some t) => Some (fun I J A B => m I J A B + Lsum (images x) (fun c => lift2 x c t I J A B)) | Some m, Some None => Some m | _, _ => None end) l (Some m0) = Some m ->
    forall I J A B, m I J A B = m J I B A).
  { induction l as [|x l IH]; intros m0 m1 H0; cbn [fold_left].
    - intros X; injection X as <-; auto.
    - destruct (t2_of half x gl fd) as [[t|]|] eqn:Et.
      + apply IH. intros I J A B. rewrite (H0 I J A B). f_equal. apply Lsum_ext; intros. apply lift2_exch. apply (t2_of_exch x gl fd t Et).
      + apply IH. auto.
      + rewrite fold_none by auto. discriminate. }
  apply (Z frags (fun _ _ _ _ => 0) m); auto.
Qed.

(** ** C56: the amplitudes of the whole system from its fragments *)
Section Full.
Variables (nocc nvir : nat) (frags : list (gfrag K)).
(** A cluster that spans the whole space *)
Definition complete (n m : nat) (c : mat) : Prop := forall P Q, (P < n)%nat -> (Q < n)%nat -> Sum m (fun i => c P i * c Q i) = delta P Q.
(** The fragment orbitals of all fragments and copies resolve the identity of the occupied space. *)
Definition covering : Prop := forall I J, (I < nocc)%nat -> (J < nocc)%nat -> Lsum frags (fun x => Lsum (images x) (fun c => Sum (g_nf x) (fun k => i_mf c I k * i_mf c J k))) = delta I J.
(** The projected amplitudes of a fragment are the first-index projections of [T], in the basis of any of its copies. *)
Definition amp1 (T : mat) (x : gfrag K) (u : mat) : Prop := forall c, In c (images x) -> forall k a, (k < g_nf x)%nat -> (a < g_nv x)%nat ->
  u k a = Sum nocc (fun I => Sum nvir (fun A => i_mf c I k * i_cv c A a * T I A)).
Definition amp2 (T : ten) (x : gfrag K) (u : ten) : Prop := forall c, In c (images x) -> forall k j a b, (k < g_nf x)%nat -> (j < g_no x)%nat -> (a < g_nv x)%nat -> (b < g_nv x)%nat ->
  u k j a b = Sum nocc (fun I => Sum nocc (fun J => Sum nvir (fun A => Sum nvir (fun B => i_mf c I k * i_co c J j * i_cv c A a * i_cv c B b * T I J A B)))).
Hypothesis Hin : Forall (insides K nocc) frags.
Hypothesis Hco : forall x c, In x frags -> In c (images x) -> complete nocc (g_no x) (i_co c) /\ complete nvir (g_nv x) (i_cv c).
Hypothesis Hcov : covering.

Lemma lift1_rs x c u I A : inside K x nocc c -> (I < nocc)%nat -> lift1 x c (rs1 K x u) I A = Sum (g_nf x) (fun k => Sum (g_nv x) (fun a => i_mf c I k * i_cv c A a * u k a)).
Proof.
  intros H HI. transitivity (Sum (g_nf x) (fun k => Sum (g_nv x) (fun a => Sum (g_no x) (fun i => i_co c I i * g_cf x i k) * i_cv c A a * u k a))).
  - clear. unfold lift1, rs1. push. reorder.
  - apply Sum_ext; intros k Hk. apply Sum_ext; intros a Ha. rewrite (H I k HI Hk). reflexivity.
Qed.
Definition Wx (x : gfrag K) (c : image K) (u : ten) : ten := fun I J A B =>
  Sum (g_nf x) (fun k => Sum (g_no x) (fun j => Sum (g_nv x) (fun a => Sum (g_nv x) (fun b => i_mf c I k * i_co c J j * i_cv c A a * i_cv c B b * u k j a b)))).
Lemma lift2_rs x c u I J A B : inside K x nocc c -> (I < nocc)%nat -> (J < nocc)%nat -> lift2 x c (rs K half x u) I J A B = half * (Wx x c u I J A B + Wx x c u J I B A).
Proof.
  intros H HI HJ.
  assert (W : forall I J A B, (I < nocc)%nat -> Wx x c u I J A B = Sum (g_nf x) (fun k => Sum (g_no x) (fun j => Sum (g_nv x) (fun a => Sum (g_nv x) (fun b => Sum (g_no x) (fun i => i_co c I i * g_cf x i k) * i_co c J j * i_cv c A a * i_cv c B b * u k j a b))))).
  { intros I' J' A' B' HI'. unfold Wx. apply Sum_ext; intros k Hk. p0. p0. p0. rewrite (H I' k HI' Hk). reflexivity. }
  rewrite !W by auto. clear.
  transitivity (half * (lift2 x c (cfa K x u) I J A B + lift2 x c (cfb K x u) I J A B)).
  - unfold lift2, Sum4, Sum2. rewrite <- Sum_add, <- Sum_mul_l; apply Sum_ext; intros. rewrite <- Sum_add, <- Sum_mul_l; apply Sum_ext; intros. rewrite <- Sum_add, <- Sum_mul_l; apply Sum_ext; intros. rewrite <- Sum_add, <- Sum_mul_l; apply Sum_ext; intros. unfold rs. ring.
  - f_equal. f_equal; unfold lift2, Sum4, Sum2, cfa, cfb; push; reorder.
Qed.
(** Resolution of the identity on one index *)
Lemma resolve n m (c : mat) (f : nat -> K) P : complete n m c -> (P < n)%nat -> Sum m (fun i => c P i * Sum n (fun Q => c Q i * f Q)) = f P.
Proof.
  intros H HP. rewrite <- (Sum_delta_l n P f HP). transitivity (Sum n (fun Q => Sum m (fun i => c P i * c Q i) * f Q)).
  - clear. push. reorder.
  - apply Sum_ext; intros Q HQ. rewrite H by auto. reflexivity.
Qed.
Lemma Wx_full x c (T u : ten) I J A B : In x frags -> In c (images x) -> amp2 T x u -> (J < nocc)%nat -> (A < nvir)%nat -> (B < nvir)%nat ->
  Wx x c u I J A B = Sum nocc (fun P => Sum (g_nf x) (fun k => i_mf c I k * i_mf c P k) * T P J A B).
Proof.
  intros Hx Hc Hu HJ HA HB. destruct (Hco x c Hx Hc) as [Co Cv]. unfold Wx.
  transitivity (Sum (g_nf x) (fun k => i_mf c I k * Sum nocc (fun P => i_mf c P k * Sum (g_no x) (fun j => i_co c J j * Sum nocc (fun Q => i_co c Q j * Sum (g_nv x) (fun a => i_cv c A a * Sum nvir (fun C => i_cv c C a *
    Sum (g_nv x) (fun b => i_cv c B b * Sum nvir (fun D => i_cv c D b * T P Q C D))))))))).
  - transitivity (Sum (g_nf x) (fun k => Sum (g_no x) (fun j => Sum (g_nv x) (fun a => Sum (g_nv x) (fun b => i_mf c I k * i_co c J j * i_cv c A a * i_cv c B b *
      Sum nocc (fun P => Sum nocc (fun Q => Sum nvir (fun C => Sum nvir (fun D => i_mf c P k * i_co c Q j * i_cv c C a * i_cv c D b * T P Q C D))))))))).
    + p0. p0. p0. p0. rewrite (Hu c Hc) by auto. reflexivity.
    + clear. push. reorder.
  - transitivity (Sum (g_nf x) (fun k => i_mf c I k * Sum nocc (fun P => i_mf c P k * T P J A B))).
    + apply Sum_ext; intros k Hk. f_equal. apply Sum_ext; intros P HP. f_equal.
      rewrite (resolve nocc (g_no x) (i_co c) (fun Q => Sum (g_nv x) (fun a => i_cv c A a * Sum nvir (fun C => i_cv c C a * Sum (g_nv x) (fun b => i_cv c B b * Sum nvir (fun D => i_cv c D b * T P Q C D))))) J Co HJ).
      rewrite (resolve nvir (g_nv x) (i_cv c) (fun C => Sum (g_nv x) (fun b => i_cv c B b * Sum nvir (fun D => i_cv c D b * T P J C D))) A Cv HA).
      apply (resolve nvir (g_nv x) (i_cv c) (fun D => T P J A D) B Cv HB).
    + clear. push. reorder.
Qed.
Lemma pull_images n (f : gfrag K -> image K -> nat -> K) (g : nat -> K) :
  Lsum frags (fun x => Lsum (images x) (fun c => Sum n (fun P => f x c P * g P))) = Sum n (fun P => Lsum frags (fun x => Lsum (images x) (fun c => f x c P)) * g P).
Proof. setoid_rewrite Lsum_Sum. rewrite Lsum_Sum. apply Sum_ext; intros P HP. setoid_rewrite Lsum_mul_r. rewrite Lsum_mul_r. reflexivity. Qed.
Lemma G1_full (T : mat) u I A : (forall x, In x frags -> amp1 T x (u x)) -> (I < nocc)%nat -> (A < nvir)%nat -> G1 K frags (fun x => rs1 K x (u x)) I A = T I A.
Proof.
  intros Hu HI HA. rewrite Forall_forall in Hin. unfold G1.
  transitivity (Lsum frags (fun x => Lsum (images x) (fun c => Sum nocc (fun P => Sum (g_nf x) (fun k => i_mf c I k * i_mf c P k) * T P A)))).
  - apply Lsum_ext; intros x Hx. apply Lsum_ext; intros c Hc. rewrite lift1_rs by (auto; apply (Hin x Hx c Hc)). destruct (Hco x c Hx Hc) as [_ Cv].
    transitivity (Sum (g_nf x) (fun k => i_mf c I k * Sum nocc (fun P => i_mf c P k * Sum (g_nv x) (fun a => i_cv c A a * Sum nvir (fun C => i_cv c C a * T P C))))).
    + transitivity (Sum (g_nf x) (fun k => Sum (g_nv x) (fun a => i_mf c I k * i_cv c A a * Sum nocc (fun P => Sum nvir (fun C => i_mf c P k * i_cv c C a * T P C))))).
      * p0. p0. rewrite (Hu x Hx c Hc) by auto. reflexivity.
      * clear. push. reorder.
    + transitivity (Sum (g_nf x) (fun k => i_mf c I k * Sum nocc (fun P => i_mf c P k * T P A))).
      * apply Sum_ext; intros k Hk. f_equal. apply Sum_ext; intros P HP. f_equal. apply (resolve nvir (g_nv x) (i_cv c) (fun C => T P C) A Cv HA).
      * clear. push. reorder.
  - rewrite <- (Sum_delta_l nocc I (fun P => T P A) HI).
    transitivity (Sum nocc (fun P => Lsum frags (fun x => Lsum (images x) (fun c => Sum (g_nf x) (fun k => i_mf c I k * i_mf c P k))) * T P A)).
    + apply (pull_images nocc (fun x c P => Sum (g_nf x) (fun k => i_mf c I k * i_mf c P k)) (fun P => T P A)).
    + apply Sum_ext; intros P HP. rewrite Hcov by auto. reflexivity.
Qed.
Lemma G2_full (T : ten) u I J A B : (forall I J A B, T I J A B = T J I B A) -> (forall x, In x frags -> amp2 T x (u x)) -> (I < nocc)%nat -> (J < nocc)%nat -> (A < nvir)%nat -> (B < nvir)%nat ->
  G2 K frags (fun x => rs K half x (u x)) I J A B = T I J A B.
Proof.
  intros HT Hu HI HJ HA HB. rewrite Forall_forall in Hin. unfold G2.
  assert (Z : forall I J A B, (I < nocc)%nat -> (J < nocc)%nat -> (A < nvir)%nat -> (B < nvir)%nat -> Lsum frags (fun x => Lsum (images x) (fun c => Wx x c (u x) I J A B)) = T I J A B).
  { clear I J A B HI HJ HA HB. intros I J A B HI HJ HA HB.
    transitivity (Lsum frags (fun x => Lsum (images x) (fun c => Sum nocc (fun P => Sum (g_nf x) (fun k => i_mf c I k * i_mf c P k) * T P J A B)))).
    - apply Lsum_ext; intros x Hx. apply Lsum_ext; intros c Hc. apply Wx_full; auto.
    - rewrite <- (Sum_delta_l nocc I (fun P => T P J A B) HI).
      transitivity (Sum nocc (fun P => Lsum frags (fun x => Lsum (images x) (fun c => Sum (g_nf x) (fun k => i_mf c I k * i_mf c P k))) * T P J A B)).
      + apply (pull_images nocc (fun x c P => Sum (g_nf x) (fun k => i_mf c I k * i_mf c P k)) (fun P => T P J A B)).
      + apply Sum_ext; intros P HP. rewrite Hcov by auto. reflexivity. }
  transitivity (half * (Lsum frags (fun x => Lsum (images x) (fun c => Wx x c (u x) I J A B)) + Lsum frags (fun x => Lsum (images x) (fun c => Wx x c (u x) J I B A)))).
  - rewrite <- Lsum_add, <- Lsum_mul_l. apply Lsum_ext; intros x Hx. rewrite <- Lsum_add, <- Lsum_mul_l. apply Lsum_ext; intros c Hc. apply lift2_rs; auto. apply (Hin x Hx c Hc).
  - rewrite !Z by auto. rewrite <- (HT I J A B). transitivity ((half + half) * T I J A B); [ring|]. rewrite Hhalf. ring.
Qed.
End Full.

(** If every cluster spans the whole space, the global amplitudes are the amplitudes of the system, and both density matrices are its CCSD density matrix. *)
Theorem C56_full_bath : forall nocc nvir frags gl (T1 : mat) (T2 : ten), Forall (projected K) frags -> Forall (insides K nocc) frags ->
  (forall x c, In x frags -> In c (images x) -> complete nocc (g_no x) (i_co c) /\ complete nvir (g_nv x) (i_cv c)) -> covering nocc frags ->
  (forall I J A B, T2 I J A B = T2 J I B A) ->
  (forall x, In x frags -> exists u1 u2, src1 K x gl = Some u1 /\ src2 K x gl = Some u2 /\ amp1 nocc nvir T1 x u1 /\ amp2 nocc nvir T2 x u2) ->
  exists m1 m2, global_t1 half frags gl false = Some m1 /\ global_t2 half frags gl false = Some m2 /\
    (forall I A, (I < nocc)%nat -> (A < nvir)%nat -> m1 I A = T1 I A) /\
    (forall I J A B, (I < nocc)%nat -> (J < nocc)%nat -> (A < nvir)%nat -> (B < nvir)%nat -> m2 I J A B = T2 I J A B).
Proof.
  intros nocc nvir frags gl T1 T2 Hp Hin Hco Hcov HT Hu. assert (A1 := global_t1_eq K half frags gl Hp). assert (A2 := global_t2_eq K half frags gl Hp).
  destruct (global_t1 half frags gl false) as [m1|].
  2:{ exfalso. rewrite Exists_exists in A1. destruct A1 as (x & Hx & E). destruct (Hu x Hx) as (u1 & u2 & E1 & _). congruence. }
  destruct (global_t2 half frags gl false) as [m2|].
  2:{ exfalso. rewrite Exists_exists in A2. destruct A2 as (x & Hx & E). destruct (Hu x Hx) as (u1 & u2 & _ & E1 & _). congruence. }
  exists m1, m2. split; [auto|]. split; [auto|]. destruct A1 as [_ A1], A2 as [_ A2]. split.
  - intros I A HI HA. rewrite A1. apply (G1_full nocc nvir frags Hin Hco Hcov T1 (fun x => get1 K (src1 K x gl))); auto. intros x Hx. destruct (Hu x Hx) as (u1 & u2 & E1 & _ & H & _). rewrite E1. exact H.
  - intros I J A B HI HJ HA HB. rewrite A2. apply (G2_full nocc nvir frags Hin Hco Hcov T2 (fun x => get2 K (src2 K x gl))); auto. intros x Hx. destruct (Hu x Hx) as (u1 & u2 & _ & E1 & _ & H). rewrite E1. exact H.
Qed.
(** Without Lambda amplitudes of a fragment (and without its option t_as_lambda), the global Lambda amplitudes are an error; otherwise they are always there. *)
Theorem C56_errors : forall frags gl, Forall (projected K) frags ->
  (global_t2 half frags gl false = None <-> Exists (fun x => gl = true /\ g_tal x = false /\ M_Wf.l2 (pwf_as_ccsd (g_pwf x)) = None) frags) /\
  (global_t1 half frags gl false = None <-> Exists (fun x => gl = true /\ g_tal x = false /\ M_Wf.l1 (pwf_as_ccsd (g_pwf x)) = None) frags).
Proof.
  intros frags gl Hp. assert (A1 := global_t1_eq K half frags gl Hp). assert (A2 := global_t2_eq K half frags gl Hp).
  assert (S2 : forall x, src2 K x gl = None <-> gl = true /\ g_tal x = false /\ M_Wf.l2 (pwf_as_ccsd (g_pwf x)) = None).
  { intros x. unfold src2, pl2. destruct gl, (g_tal x); cbn; intuition congruence. }
  assert (S1 : forall x, src1 K x gl = None <-> gl = true /\ g_tal x = false /\ M_Wf.l1 (pwf_as_ccsd (g_pwf x)) = None).
  { intros x. unfold src1, pl1. destruct gl, (g_tal x); cbn; intuition congruence. }
  split.
  - split.
    + intros E. rewrite E in A2. rewrite Exists_exists in *. destruct A2 as (x & Hx & H). exists x. split; auto. apply S2; auto.
    + intros H. destruct (global_t2 half frags gl false); [|reflexivity]. exfalso. destruct A2 as [A2 _]. rewrite Exists_exists in H. destruct H as (x & Hx & H). rewrite Forall_forall in A2. apply (A2 x Hx). apply S2; auto.
  - split.
    + intros E. rewrite E in A1. rewrite Exists_exists in *. destruct A1 as (x & Hx & H). exists x. split; auto. apply S1; auto.
    + intros H. destruct (global_t1 half frags gl false); [|reflexivity]. exfalso. destruct A1 as [A1 _]. rewrite Exists_exists in H. destruct H as (x & Hx & H). rewrite Forall_forall in A1. apply (A1 x Hx). apply S1; auto.
Qed.
(** The order of the fragments does not matter. *)
Theorem C56_order : forall frags frags' gl m m2, Permutation frags frags' -> Forall (projected K) frags -> global_t1 half frags gl false = Some m -> global_t2 half frags gl false = Some m2 ->
  exists m' m2', global_t1 half frags' gl false = Some m' /\ global_t2 half frags' gl false = Some m2' /\ (forall I A, m' I A = m I A) /\ (forall I J A B, m2' I J A B = m2 I J A B).
Proof.
  intros frags frags' gl m m2 P Hp E1 E2. assert (Hp' : Forall (projected K) frags') by (rewrite Forall_forall in *; intros x Hx; apply Hp; apply (Permutation_in x (Permutation_sym P)); auto).
  assert (A1 := global_t1_eq K half frags gl Hp). assert (A2 := global_t2_eq K half frags gl Hp). rewrite E1 in A1. rewrite E2 in A2.
  assert (B1 := global_t1_eq K half frags' gl Hp'). assert (B2 := global_t2_eq K half frags' gl Hp').
  destruct (global_t1 half frags' gl false) as [m'|].
  2:{ exfalso. rewrite Exists_exists in B1. destruct B1 as (x & Hx & E). destruct A1 as [A1 _]. rewrite Forall_forall in A1. apply (A1 x (Permutation_in x (Permutation_sym P) Hx) E). }
  destruct (global_t2 half frags' gl false) as [m2'|].
  2:{ exfalso. rewrite Exists_exists in B2. destruct B2 as (x & Hx & E). destruct A2 as [A2 _]. rewrite Forall_forall in A2. apply (A2 x (Permutation_in x (Permutation_sym P) Hx) E). }
  exists m', m2'. split; [auto|]. split; [auto|]. destruct A1 as [_ A1], A2 as [_ A2], B1 as [_ B1], B2 as [_ B2]. split; intros.
  - rewrite A1, B1. unfold G1. symmetry. apply Lsum_Permutation. auto.
  - rewrite A2, B2. unfold G2. symmetry. apply Lsum_Permutation. auto.
Qed.
(** The global amplitudes are invariant under the symmetry operations of the fragments. *)
Theorem C56_invariant : forall nocc nvir frags gl m1 m2 x c, Forall (projected K) frags -> symmetric K nocc nvir frags -> In x frags -> In c (g_children x) ->
  global_t1 half frags gl false = Some m1 -> global_t2 half frags gl false = Some m2 ->
  (forall I A, (I < nocc)%nat -> (A < nvir)%nat -> Sum nocc (fun i => Sum nvir (fun a => i_go c I i * i_gv c A a * m1 i a)) = m1 I A) /\
  (forall I J A B, (I < nocc)%nat -> (J < nocc)%nat -> (A < nvir)%nat -> (B < nvir)%nat ->
    Sum nocc (fun i => Sum nocc (fun j => Sum nvir (fun a => Sum nvir (fun b => i_go c I i * i_go c J j * i_gv c A a * i_gv c B b * m2 i j a b)))) = m2 I J A B).
Proof.
  intros nocc nvir frags gl m1 m2 x c Hp Hs Hx Hc E1 E2. assert (A1 := global_t1_eq K half frags gl Hp). assert (A2 := global_t2_eq K half frags gl Hp). rewrite E1 in A1. rewrite E2 in A2.
  destruct A1 as [_ A1], A2 as [_ A2]. split.
  - intros I A HI HA. rewrite (A1 I A). rewrite (G1_inv K nocc nvir frags _ x c Hs Hx Hc I A HI HA). apply Sum_ext; intros. apply Sum_ext; intros. rewrite A1. reflexivity.
  - intros I J A B HI HJ HA HB. rewrite (A2 I J A B). rewrite (G2_inv K nocc nvir frags _ x c Hs Hx Hc I J A B HI HJ HA HB). p0. p0. p0. p0. rewrite A2. reflexivity.
Qed.
(** For two-body properties, MP2 fragments count twice in T2 and not at all in T1 and in Lambda. *)
Theorem C56_for_dm2 : forall frags, Forall (projected K) frags ->
  let cc := filter (fun x => negb (is_mp2 x)) frags in let mp2 := filter (@is_mp2 K) frags in
  (forall gl, match global_t1 half frags gl true, global_t1 half cc gl false with Some m, Some m' => forall I A, m I A = m' I A | None, None => True | _, _ => False end) /\
  (match global_t2 half frags true true, global_t2 half cc true false with Some m, Some m' => forall I J A B, m I J A B = m' I J A B | None, None => True | _, _ => False end) /\
  exists m mc mm, global_t2 half frags false true = Some m /\ global_t2 half cc false false = Some mc /\ global_t2 half mp2 false false = Some mm /\
    forall I J A B, m I J A B = mc I J A B + (1 + 1) * mm I J A B.
Proof.
  intros frags Hp cc mp2. subst cc mp2. split; [|split].
  - intros gl. unfold global_t1.
    assert (Z : forall (a b : mat), (forall I A, a I A = b I A) -> match fold_left (fun (acc : option mat) x => match acc, t1_of half x gl true with Some m, Some (Some t) => Some (fun I A => m I A + Lsum (images x) (fun c => lift1 x c t I A)) | Some m, Some None => Some m | _, _ => None end) frags (Some a),
        fold_left (fun (acc : option mat) x => match acc, t1_of half x gl false with Some m, Some (Some t) => Some (fun I A => m I A + Lsum (images x) (fun c => lift1 x c t I A)) | Some m, Some None => Some m | _, _ => None end) (filter (fun x => negb (is_mp2 x)) frags) (Some b) with Some m, Some m' => forall I A, m I A = m' I A | None, None => True | _, _ => False end).
    { induction Hp as [|x l Hx Hl IH]; intros a b Hab; cbn [fold_left filter]; [auto|]. assert (O := t1_of_ok K half x gl Hx). destruct (is_mp2 x) eqn:Em; cbn [negb].
      - unfold t1_of at 2. destruct (restored_ok K half x Hx) as (w & E & _). rewrite E, Em. cbn [andb]. apply IH. auto.
      - cbn [fold_left]. replace (t1_of half x gl true) with (t1_of half x gl false) by (unfold t1_of; rewrite Em; cbn [andb]; reflexivity).
        destruct (t1_of half x gl false) as [[t|]|]; [apply IH; intros; rewrite Hab; reflexivity|contradiction|]. rewrite !fold_none by auto. auto. }
    apply Z. auto.
  - unfold global_t2.
    assert (Z : forall (a b : ten), (forall I J A B, a I J A B = b I J A B) -> match fold_left (fun (acc : option ten) x => match acc, t2_of half x true true with Some m, Some (Some t) => Some (fun I J A B => m I J A B + Lsum (images x) (fun c => lift2 x c t I J A B)) | Some m, Some None => Some m | _, _ => None end) frags (Some a),
        fold_left (fun (acc : option ten) x => match acc, t2_of half x true false with Some m, Some (Some t) => Some (fun I J A B => m I J A B + Lsum (images x) (fun c => lift2 x c t I J A B)) | Some m, Some None => Some m | _, _ => None end) (filter (fun x => negb (is_mp2 x)) frags) (Some b) with Some m, Some m' => forall I J A B, m I J A B = m' I J A B | None, None => True | _, _ => False end).
    { induction Hp as [|x l Hx Hl IH]; intros a b Hab; cbn [fold_left filter]; [auto|]. assert (O := t2_of_ok K half x true Hx). destruct (is_mp2 x) eqn:Em; cbn [negb].
      - unfold t2_of at 2. destruct (restored_ok K half x Hx) as (w & E & _). rewrite E, Em. cbn [andb]. apply IH. auto.
      - cbn [fold_left]. replace (t2_of half x true true) with (t2_of half x true false) by (unfold t2_of; rewrite Em; cbn [andb]; reflexivity).
        destruct (t2_of half x true false) as [[t|]|]; [apply IH; intros; rewrite Hab; reflexivity|contradiction|]. rewrite !fold_none by auto. auto. }
    apply Z. auto.
  - unfold global_t2.
    match goal with |- exists m mc mm, fold_left ?f _ _ = _ /\ fold_left ?g _ _ = _ /\ _ => set (F := f); set (G := g) end.
    assert (Z : forall a b c : ten, (forall I J A B, a I J A B = b I J A B + (1 + 1) * c I J A B) ->
      exists m mc mm, fold_left F frags (Some a) = Some m /\ fold_left G (filter (fun x => negb (is_mp2 x)) frags) (Some b) = Some mc /\ fold_left G (filter (@is_mp2 K) frags) (Some c) = Some mm /\ forall I J A B, m I J A B = mc I J A B + (1 + 1) * mm I J A B).
    { induction Hp as [|x l Hx Hl IH]; intros a b c Habc; cbn [fold_left filter]; [exists a, b, c; auto|].
      destruct (restored_ok K half x Hx) as (w & E & _). destruct (is_mp2 x) eqn:Em; cbn [negb fold_left].
      - assert (E1 : F (Some a) x = Some (fun I J A B => a I J A B + Lsum (images x) (fun c => lift2 x c (fun i j a b => two * M_Wf.t2 w i j a b) I J A B))) by (unfold F, t2_of; rewrite E, Em; reflexivity).
        assert (E2 : G (Some c) x = Some (fun I J A B => c I J A B + Lsum (images x) (fun c => lift2 x c (M_Wf.t2 w) I J A B))) by (unfold G, t2_of; rewrite E; reflexivity).
        rewrite E1, E2. apply IH. intros I J A B. rewrite Habc.
        assert (X : Lsum (images x) (fun c => lift2 x c (fun i j a b => two * M_Wf.t2 w i j a b) I J A B) = (1 + 1) * Lsum (images x) (fun c => lift2 x c (M_Wf.t2 w) I J A B)).
        { rewrite <- Lsum_mul_l. apply Lsum_ext; intros. unfold lift2, Sum4, Sum2, two. rewrite <- Sum_mul_l; apply Sum_ext; intros. rewrite <- Sum_mul_l; apply Sum_ext; intros. rewrite <- Sum_mul_l; apply Sum_ext; intros. rewrite <- Sum_mul_l; apply Sum_ext; intros. ring. }
        rewrite X. ring.
      - assert (E1 : F (Some a) x = Some (fun I J A B => a I J A B + Lsum (images x) (fun c => lift2 x c (M_Wf.t2 w) I J A B))) by (unfold F, t2_of; rewrite E, Em; reflexivity).
        assert (E2 : G (Some b) x = Some (fun I J A B => b I J A B + Lsum (images x) (fun c => lift2 x c (M_Wf.t2 w) I J A B))) by (unfold G, t2_of; rewrite E; reflexivity).
        rewrite E1, E2. apply IH. intros I J A B. rewrite Habc. ring. }
    apply Z. intros. ring.
Qed.

(** ** C57: what every user of the density matrix sees *)
Theorem C57_electrons : forall nocc nvir frags tal with_t1 d, rdm1_slow half nocc nvir frags tal with_t1 = Some d ->
  Sum (nocc + nvir) (fun p => d p p) = 0 /\ (forall p q, d p q = d q p) /\
  exists d', with_mean_field nocc (rdm1_slow half nocc nvir frags tal with_t1) true = Some d' /\ Sum (nocc + nvir) (fun p => d' p p) = (1 + 1) * nK nocc /\
    with_mean_field nocc (rdm1_slow half nocc nvir frags tal with_t1) false = Some d.
Proof.
  intros nocc nvir frags tal with_t1 d E.
  assert (Z : exists t1 t2 l1 l2, d = cc_rdm1 nocc (cc_gamma1 nocc nvir t1 t2 l1 l2) false).
  { unfold rdm1_slow in E. destruct (global_t1 half frags false false) as [t1|]; [|discriminate]. destruct (global_t2 half frags false false) as [t2|]; [|discriminate].
    destruct (if tal then Some t1 else _) as [l1|]; [|discriminate]. destruct (if tal then Some t2 else _) as [l2|]; [|discriminate].
    destruct with_t1; injection E as <-; do 4 eexists; reflexivity. }
  rewrite E. destruct Z as (t1 & t2 & l1 & l2 & ->). destruct (C44_ccsd_electrons nocc nvir t1 t2 l1 l2) as (T & F & _). cbv zeta in T, F. unfold trace in *.
  split; [exact F|]. split; [intros; apply C44_ccsd_symmetric|]. cbn [with_mean_field option_map]. eexists. split; [reflexivity|]. split; [|reflexivity]. exact T.
Qed.
(** Without Lambda amplitudes of a fragment, the slow algorithm is an error. *)
Theorem C57_lambda_needed : forall nocc nvir frags with_t1, Forall (projected K) frags ->
  (exists d, rdm1_slow half nocc nvir frags true with_t1 = Some d) /\
  (Exists (fun x => g_tal x = false /\ (M_Wf.l1 (pwf_as_ccsd (g_pwf x)) = None \/ M_Wf.l2 (pwf_as_ccsd (g_pwf x)) = None)) frags <-> rdm1_slow half nocc nvir frags false with_t1 = None).
Proof.
  intros nocc nvir frags with_t1 Hp.
  assert (E2 : global_t2 half frags false false <> None). { intros E. apply (Logic.proj1 (C56_errors frags false Hp)) in E. apply Exists_exists in E. destruct E as (x & _ & E & _). discriminate. }
  assert (E1 : global_t1 half frags false false <> None). { intros E. apply (Logic.proj2 (C56_errors frags false Hp)) in E. apply Exists_exists in E. destruct E as (x & _ & E & _). discriminate. }
  unfold rdm1_slow, global_l1, global_l2. destruct (global_t1 half frags false false) as [t1|]; [|contradiction]. destruct (global_t2 half frags false false) as [t2|]; [|contradiction].
  split; [destruct with_t1; eexists; reflexivity|]. destruct (C56_errors frags true Hp) as [L2 L1]. cbn [negb].
  assert (X : Exists (fun x => g_tal x = false /\ (M_Wf.l1 (pwf_as_ccsd (g_pwf x)) = None \/ M_Wf.l2 (pwf_as_ccsd (g_pwf x)) = None)) frags <-> global_t1 half frags true false = None \/ global_t2 half frags true false = None).
  { rewrite L1, L2. rewrite !Exists_exists. split.
    - intros (x & Hx & Ht & [H|H]); [left|right]; exists x; auto.
    - intros [(x & Hx & _ & Ht & H)|(x & Hx & _ & Ht & H)]; exists x; auto. }
  rewrite X. destruct (global_t1 half frags true false) as [l1|], (global_t2 half frags true false) as [l2|]; split; auto; try (intros [H|H]; discriminate); destruct with_t1; discriminate.
Qed.

(** If every cluster spans the whole space, both algorithms give the CCSD density matrix of the system. *)
Lemma gamma1_ext n nv (t1 t1' l1 l1' : mat) (t2 t2' l2 l2' : ten) : (forall i a, (i < n)%nat -> (a < nv)%nat -> t1 i a = t1' i a) -> (forall i a, (i < n)%nat -> (a < nv)%nat -> l1 i a = l1' i a) ->
  (forall i j a b, (i < n)%nat -> (j < n)%nat -> (a < nv)%nat -> (b < nv)%nat -> t2 i j a b = t2' i j a b) -> (forall i j a b, (i < n)%nat -> (j < n)%nat -> (a < nv)%nat -> (b < nv)%nat -> l2 i j a b = l2' i j a b) ->
  forall p q, (p < n + nv)%nat -> (q < n + nv)%nat -> cc_rdm1 n (cc_gamma1 n nv t1 t2 l1 l2) false p q = cc_rdm1 n (cc_gamma1 n nv t1' t2' l1' l2') false p q.
Proof.
  intros H1 H2 H3 H4 p q Hp Hq. assert (Ht : forall i j a b, (i < n)%nat -> (j < n)%nat -> (a < nv)%nat -> (b < nv)%nat -> cc_theta t2 i j a b = cc_theta t2' i j a b) by (intros; unfold cc_theta; rewrite !H3 by auto; reflexivity).
  set (d := cc_gamma1 n nv t1 t2 l1 l2). set (d' := cc_gamma1 n nv t1' t2' l1' l2').
  assert (Eo : forall i j, (i < n)%nat -> (j < n)%nat -> g_oo d i j = g_oo d' i j).
  { intros i j Hi Hj. subst d d'. unfold cc_gamma1. cbn [g_oo]. f_equal; [f_equal|].
    - p0. rewrite H1, H2 by auto. reflexivity.
    - p0. p0. p0. rewrite Ht, H4 by auto. reflexivity. }
  assert (Ev : forall a b, (a < nv)%nat -> (b < nv)%nat -> g_vv d a b = g_vv d' a b).
  { intros a b Ha Hb. subst d d'. unfold cc_gamma1. cbn [g_vv]. f_equal.
    - p0. rewrite H1, H2 by auto. reflexivity.
    - p0. p0. p0. rewrite Ht, H4 by auto. reflexivity. }
  assert (Eov : forall i a, (i < n)%nat -> (a < nv)%nat -> g_ov d i a = g_ov d' i a) by (intros; apply H2; auto).
  assert (Evo : forall i a, (i < n)%nat -> (a < nv)%nat -> g_vo d a i = g_vo d' a i).
  { intros i a Hi Ha. subst d d'. unfold cc_gamma1. cbn [g_vo]. rewrite (H1 i a) by auto. f_equal; [f_equal; [f_equal; [f_equal|]|]|].
    - apply Sum_ext; intros m Hm. rewrite (H1 m a) by auto. f_equal. apply Sum_ext; intros e He. rewrite H1, H2 by auto. reflexivity.
    - p0. p0. rewrite Ht, H2 by auto. reflexivity.
    - apply Sum_ext; intros m Hm. rewrite (H1 m a) by auto. f_equal. p0. p0. p0. rewrite Ht, H4 by auto. reflexivity.
    - apply Sum_ext; intros e He. rewrite (H1 i e) by auto. f_equal. p0. p0. p0. rewrite Ht, H4 by auto. reflexivity. }
  clearbody d d'. unfold cc_rdm1, blocks, symm, mtrans. destruct (p <? n)%nat eqn:Ep, (q <? n)%nat eqn:Eq;
    repeat match goal with H : (_ <? _)%nat = true |- _ => apply Nat.ltb_lt in H | H : (_ <? _)%nat = false |- _ => apply Nat.ltb_ge in H end;
    rewrite ?Eo, ?Ev, ?Eov, ?Evo by lia; reflexivity.
Qed.
Theorem C57_full_bath : forall nocc nvir svd skip frags tal use_sym late (T1 L1 : mat) (T2 L2 : ten), Forall (projected K) frags -> Forall (insides K nocc) frags ->
  (forall x c, In x frags -> In c (images x) -> complete nocc (g_no x) (i_co c) /\ complete nvir (g_nv x) (i_cv c)) -> covering nocc frags ->
  (forall I J A B, T2 I J A B = T2 J I B A) -> (forall I J A B, L2 I J A B = L2 J I B A) ->
  (forall x, In x frags -> amp1 nocc nvir T1 x (pt1 K x) /\ amp2 nocc nvir T2 x (pt2 K x)) ->
  (forall x, In x frags -> exists u1 u2, src1 K x (negb tal) = Some u1 /\ src2 K x (negb tal) = Some u2 /\ amp1 nocc nvir L1 x u1 /\ amp2 nocc nvir L2 x u2) ->
  exact_svd K svd -> skip_exact K nocc nvir skip frags -> (use_sym = true -> symmetric K nocc nvir frags) -> tal_consistent K tal frags ->
  exists d d', rdm1_slow half nocc nvir frags tal true = Some d /\ rdm1_fast half nocc nvir svd skip frags tal true use_sym late = Some d' /\
    forall p q, (p < nocc + nvir)%nat -> (q < nocc + nvir)%nat -> d p q = cc_rdm1 nocc (cc_gamma1 nocc nvir T1 T2 L1 L2) false p q /\ d' p q = d p q.
Proof.
  intros nocc nvir svd skip frags tal use_sym late T1 L1 T2 L2 Hp Hin Hco Hcov HT HL Ht Hl Hsvd Hk Hs Htal.
  destruct (C56_full_bath nocc nvir frags false T1 T2 Hp Hin Hco Hcov HT) as (m1 & m2 & E1 & E2 & F1 & F2).
  { intros x Hx. exists (pt1 K x), (pt2 K x). destruct (Ht x Hx). repeat split; auto. }
  destruct (C56_full_bath nocc nvir frags (negb tal) L1 L2 Hp Hin Hco Hcov HL Hl) as (n1 & n2 & E3 & E4 & F3 & F4).
  assert (S : rdm1_slow half nocc nvir frags tal true = Some (cc_rdm1 nocc (cc_gamma1 nocc nvir m1 m2 n1 n2) false)).
  { unfold rdm1_slow, global_l1, global_l2. rewrite E1, E2. destruct tal; cbn [negb] in *.
    - rewrite E1 in E3. rewrite E2 in E4. injection E3 as ->. injection E4 as ->. reflexivity.
    - rewrite E3, E4. reflexivity. }
  destruct (C57_fast_is_slow K half nocc nvir svd skip frags tal true use_sym late _ Hsvd Hp Hin Hk Hs Htal S) as (d' & Ed & Hd).
  eexists _, d'. split; [exact S|]. split; [exact Ed|]. intros p q Hpp Hq. split; [|apply Hd; auto]. apply gamma1_ext; auto.
Qed.
End P.

(** ** Cases *)
Section Cases.
Definition q (n : Z) (d : positive) : QK := Q2Qc (n # d).
Definition eqq (a b : QK) : bool := Qeq_bool (this a) (this b).
Lemma eqq_ok (a b : QK) : eqq a b = true -> a = b.
Proof. intros H. apply Qc_is_canon. now apply Qeq_bool_iff. Qed.
Lemma neqq (a b : QK) : eqq a b = false -> a <> b.
Proof. intros H E. rewrite E in H. unfold eqq in H. rewrite Qeq_bool_refl in H. discriminate. Qed.
Definition qh : QK := q 1 2.
Lemma qhh : (qh + qh)%K = 1%K.
Proof. apply eqq_ok. vm_compute. reflexivity. Qed.
Definition id2 (i j : nat) : QK := if Nat.eqb i j then q 1 1 else q 0 1.
Definition swap2 (i j : nat) : QK := match i, j with 0%nat, 1%nat | 1%nat, 0%nat => q 1 1 | _, _ => q 0 1 end.
(** Two sites exchanged by a symmetry operation; a fragment on the first one with a truncated cluster (one virtual orbital) and its copy *)
Definition xself : image QK := {| i_mf := fun I k => id2 I k; i_co := id2; i_cv := fun A a => match A, a with 0%nat, 0%nat => q 3 5 | 1%nat, 0%nat => q 4 5 | _, _ => q 0 1 end; i_go := id2; i_gv := id2 |}.
Definition xchild : image QK := {| i_mf := fun I k => swap2 I k; i_co := swap2; i_cv := fun A a => match A, a with 0%nat, 0%nat => q 4 5 | 1%nat, 0%nat => q 3 5 | _, _ => q 0 1 end; i_go := swap2; i_gv := swap2 |}.
Definition xproj : proj QK := {| prow := 1; pcol := 2; pmat := id2 |}.
Definition xwf : ccsd QK := {| nocc1 := 1; M_Wf.t1 := fun _ _ => q 1 3; M_Wf.t2 := fun _ j _ _ => match j with 0%nat => q 1 2 | _ => q 1 5 end;
  M_Wf.l1 := Some (fun _ _ => q 1 7); M_Wf.l2 := Some (fun _ j _ _ => match j with 0%nat => q 2 3 | _ => q (-1) 4 end); projector := Some xproj |}.
Definition xfrag (tal : bool) (w : ccsd QK) : gfrag QK := {| g_nf := 1; g_no := 2; g_nv := 1; g_cf := id2; g_pwf := PCC w; g_tal := tal; g_self := xself; g_children := [xchild] |}.
(** and an MP2 fragment with one occupied and both virtual orbitals *)
Definition yself : image QK := {| i_mf := fun I k => swap2 I k; i_co := fun I i => match i with 0%nat => swap2 I 0%nat | _ => q 0 1 end; i_cv := id2; i_go := id2; i_gv := id2 |}.
Definition ychild : image QK := {| i_mf := fun I k => id2 I k; i_co := fun I i => match i with 0%nat => id2 I 0%nat | _ => q 0 1 end; i_cv := swap2; i_go := swap2; i_gv := swap2 |}.
Definition yfrag : gfrag QK := {| g_nf := 1; g_no := 1; g_nv := 2; g_cf := id2; g_pwf := PMP2 1 (fun _ _ a b => if Nat.eqb a b then q 1 6 else q 1 8) (Some {| prow := 1; pcol := 1; pmat := id2 |}); g_tal := false; g_self := yself; g_children := [ychild] |}.
Definition two_frags : list (gfrag QK) := [xfrag false xwf; yfrag].
(** A singular value decomposition (any factorization will do) and a screening of pairs without overlap *)
Definition svd0 (m n : nat) (r : nat -> nat -> QK) : nat * (nat -> nat -> QK) * (nat -> nat -> QK) := (n, (fun i s => (q 2 1 * r i s)%K), fun s j => (q 1 2 * id2 s j)%K).
Definition skip0 (ro rv : nat -> nat -> QK) : bool := eqq (ro 0%nat 0%nat) (q 0 1) && eqq (ro 1%nat 0%nat) (q 0 1) && eqq (ro 0%nat 1%nat) (q 0 1) && eqq (ro 1%nat 1%nat) (q 0 1).
Lemma svd0_exact : exact_svd QK (Some svd0).
Proof.
  intros f E. injection E as <-. intros m n r ns u v E i j Hi Hj. unfold svd0 in E. injection E as <- <- <-.
  transitivity (Sum n (fun s => ((r i s : QK) * delta s j)%K)).
  - apply Sum_ext; intros s Hs. change (id2 s j) with (delta s j : QK). assert (R : forall a b : QK, (q 2 1 * a * (q 1 2 * b))%K = ((q 2 1 * q 1 2) * (a * b))%K) by (intros a b; cbn; ring).
    rewrite R. assert (R1 : (q 2 1 * q 1 2)%K = (1%K : QK)) by (apply eqq_ok; vm_compute; reflexivity). rewrite R1. cbn. ring.
  - rewrite (Sum_delta_r n j) by auto. reflexivity.
Qed.
Ltac idx := repeat match goal with H : (?i < _)%nat |- _ => is_var i; destruct i as [|i]; [clear H|cbn in H; apply Nat.succ_lt_mono in H]; [|try (exfalso; lia)] end.
Ltac two i H := destruct i as [|[|i]]; [| |exfalso; cbn in H; lia].
Lemma xfrag_projected tal w : projector w = Some xproj -> projected QK (xfrag tal w).
Proof. intros E. exists xproj. cbn [xfrag g_pwf pwf_as_ccsd]. split; [exact E|]. split; [reflexivity|]. split; [reflexivity|]. cbn [xproj pmat g_cf]. intros k i _ _. unfold id2. rewrite Nat.eqb_sym. reflexivity. Qed.
Lemma yfrag_projected : projected QK yfrag.
Proof. eexists. split; [reflexivity|]. split; [reflexivity|]. split; [reflexivity|]. intros k i _ _. cbn. unfold id2. rewrite Nat.eqb_sym. reflexivity. Qed.
Lemma xfrag_inside tal w : insides QK 2 (xfrag tal w).
Proof. intros c [<-|[<-|[]]] I k HI Hk; cbn in Hk; destruct k; try lia; two I HI; apply eqq_ok; vm_compute; reflexivity. Qed.
Lemma yfrag_inside : insides QK 2 yfrag.
Proof. intros c [<-|[<-|[]]] I k HI Hk; cbn in Hk; destruct k; try lia; two I HI; apply eqq_ok; vm_compute; reflexivity. Qed.
Lemma swap2_unitary : unitary QK 2 swap2.
Proof. intros i j Hi Hj. two i Hi; two j Hj; apply eqq_ok; vm_compute; reflexivity. Qed.
Lemma x_moves tal w : moves QK 2 2 swap2 swap2 (xfrag tal w) xself xchild /\ moves QK 2 2 swap2 swap2 (xfrag tal w) xchild xself.
Proof. split; split; intros I i HI Hi; cbn in Hi; two I HI; (two i Hi || (destruct i; [|lia])); apply eqq_ok; vm_compute; reflexivity. Qed.
Lemma y_moves : moves QK 2 2 swap2 swap2 yfrag yself ychild /\ moves QK 2 2 swap2 swap2 yfrag ychild yself.
Proof. split; split; intros I i HI Hi; cbn in Hi; two I HI; (two i Hi || (destruct i; [|lia])); apply eqq_ok; vm_compute; reflexivity. Qed.
Lemma frags_symmetric tal w : symmetric QK 2 2 [xfrag tal w; yfrag].
Proof.
  assert (P : forall y, In y [xfrag tal w; yfrag] -> exists l, Permutation (images y) l /\ Forall2 (moves QK 2 2 swap2 swap2 y) (images y) l).
  { intros y [<-|[<-|[]]].
    - exists [xchild; xself]. split; [constructor|]. repeat constructor; apply (x_moves tal w).
    - exists [ychild; yself]. split; [constructor|]. repeat constructor; apply y_moves. }
  intros x c [<-|[<-|[]]] [<-|[]]; (split; [apply swap2_unitary|]); (split; [apply swap2_unitary|]); (split; [|exact P]).
  - apply x_moves.
  - apply y_moves.
Qed.
Lemma frags_skip tal w : skip_exact QK 2 2 skip0 [xfrag tal w; yfrag].
Proof.
  intros x y cx cy Hx Hy Hcx Hcy H. left. unfold skip0 in H. rewrite !andb_true_iff in H. destruct H as (((H1 & H2) & H3) & H4). apply eqq_ok in H1, H2, H3, H4.
  intros i j Hi Hj. assert (Hi2 : (i < 2)%nat) by (destruct Hx as [<-|[<-|[]]]; cbn in Hi; lia). assert (Hj2 : (j < 2)%nat) by (destruct Hy as [<-|[<-|[]]]; cbn in Hj; lia).
  two i Hi2; two j Hj2; [rewrite H1|rewrite H3|rewrite H2|rewrite H4]; apply eqq_ok; vm_compute; reflexivity.
Qed.
(** Values of a result *)
Lemma some_neq (o : option (nat -> nat -> QK)) d p p' v : o = Some d -> match o with Some d => eqq (d p p') v | None => true end = false -> d p p' <> v.
Proof. intros -> H. now apply neqq. Qed.
Lemma some_neq2 (o o' : option (nat -> nat -> QK)) d d' p p' : o = Some d -> o' = Some d' -> match o, o' with Some d, Some d' => eqq (d p p') (d' p p') | _, _ => true end = false -> d p p' <> d' p p'.
Proof. intros -> -> H. now apply neqq. Qed.
Lemma some_t (o : option (nat -> nat -> nat -> nat -> QK)) m (P : (nat -> nat -> nat -> nat -> QK) -> Prop) : o = Some m -> match o with Some m => P m | None => True end -> P m.
Proof. intros ->. auto. Qed.
Lemma is_some {A} (o : option A) : match o with Some _ => true | None => false end = true -> exists d, o = Some d.
Proof. destruct o; [eexists; reflexivity|discriminate]. Qed.
Lemma two_frags_some d0 : exists d, rdm1_slow qh 2 2 two_frags false d0 = Some d.
Proof. destruct d0; apply is_some; vm_compute; reflexivity. Qed.
Example C57_fast_is_slow_case : forall use_sym late svd, svd = None \/ svd = Some svd0 -> exists d d', rdm1_slow qh 2 2 two_frags false true = Some d /\ rdm1_fast qh 2 2 svd skip0 two_frags false true use_sym late = Some d' /\
  (forall p p', (p < 4)%nat -> (p' < 4)%nat -> d' p p' = d p p') /\ d 0%nat 1%nat <> 0%K /\ d 0%nat 2%nat <> 0%K /\ d 2%nat 3%nat <> 0%K.
Proof.
  intros use_sym late svd Hsvd. destruct (two_frags_some true) as (d & E).
  assert (Hsv : exact_svd QK svd) by (destruct Hsvd as [->| ->]; [intros f X; discriminate|apply svd0_exact]).
  destruct (C57_fast_is_slow QK qh 2 2 svd skip0 two_frags false true use_sym late d) as (d' & E' & H); auto.
  - repeat constructor; [apply xfrag_projected; reflexivity|apply yfrag_projected].
  - repeat constructor; [apply xfrag_inside|apply yfrag_inside].
  - apply frags_skip.
  - intros _. apply frags_symmetric.
  - right. constructor; [right; reflexivity|constructor; [left; reflexivity|constructor]].
  - exists d, d'. split; [auto|]. split; [auto|]. split; [exact H|]. split; [|split]; apply (some_neq _ d _ _ _ E); vm_compute; reflexivity.
Qed.
(** The pair of the MP2 fragment with its own copy is skipped. *)
Example C57_skip_case : skip0 (ovlp 2 (i_co yself) (i_co ychild)) (ovlp 2 (i_cv yself) (i_cv ychild)) = true /\ skip0 (ovlp 2 (i_co xself) (i_co ychild)) (ovlp 2 (i_cv xself) (i_cv ychild)) = false.
Proof. split; vm_compute; reflexivity. Qed.
Example C57_electrons_case : exists d, rdm1_slow qh 2 2 two_frags false true = Some d /\ (Sum 4 (fun p => d p p) = 0)%K /\ d 0%nat 0%nat <> 0%K.
Proof.
  destruct (two_frags_some true) as (d & E). exists d. split; [auto|]. split; [apply (C57_electrons QK qh 2 2 two_frags false true d E)|]. apply (some_neq _ d _ _ _ E). vm_compute. reflexivity.
Qed.
(** Finding: an option t_as_lambda of a fragment is honoured by the slow algorithm, but not by the fast one: another density matrix, or an error. *)
Definition xwf' : ccsd QK := {| nocc1 := 1; M_Wf.t1 := M_Wf.t1 xwf; M_Wf.t2 := M_Wf.t2 xwf; M_Wf.l1 := None; M_Wf.l2 := None; projector := Some xproj |}.
Theorem C57_option_refuted : 
  ~ (forall frags svd skip use_sym late d, exact_svd QK svd -> Forall (projected QK) frags -> Forall (insides QK 2) frags -> skip_exact QK 2 2 skip frags -> symmetric QK 2 2 frags ->
      rdm1_slow qh 2 2 frags false true = Some d ->
      exists d', rdm1_fast qh 2 2 svd skip frags false true use_sym late = Some d' /\ forall p p', (p < 4)%nat -> (p' < 4)%nat -> d' p p' = d p p') /\
  (exists d, rdm1_slow qh 2 2 [xfrag true xwf'; yfrag] false true = Some d) /\ rdm1_fast qh 2 2 None skip0 [xfrag true xwf'; yfrag] false true true true = None.
Proof.
  split; [|split; [apply is_some; vm_compute; reflexivity|vm_compute; reflexivity]]. intros H.
  destruct (is_some (rdm1_slow qh 2 2 [xfrag true xwf; yfrag] false true)) as (d & Ed); [vm_compute; reflexivity|].
  destruct (H [xfrag true xwf; yfrag] None skip0 true true d) as (d' & E & D); [| | | | |exact Ed|].
  - intros f X; discriminate.
  - repeat constructor; [apply xfrag_projected; reflexivity|apply yfrag_projected].
  - repeat constructor; [apply xfrag_inside|apply yfrag_inside].
  - apply frags_skip.
  - apply frags_symmetric.
  - specialize (D 0%nat 0%nat ltac:(lia) ltac:(lia)). revert D. apply (some_neq2 _ _ d' d _ _ E Ed). vm_compute. reflexivity.
Qed.
(** Amplitudes of two sites that are exchanged by the symmetry operation; the clusters are complete *)
Definition T1f (I A : nat) : QK := if Nat.eqb I A then q 1 3 else q (-1) 4.
Definition T2f (I J A B : nat) : QK := if Nat.eqb I J then (if Nat.eqb A B then q 1 2 else q 1 3) else if Nat.eqb A B then q 1 5 else if Nat.eqb I A then (if Nat.eqb J B then q 1 7 else q 1 9) else if Nat.eqb J B then q 1 9 else q 1 11.
Definition fself : image QK := {| i_mf := fun I k => id2 I k; i_co := id2; i_cv := id2; i_go := id2; i_gv := id2 |}.
Definition fchild : image QK := {| i_mf := fun I k => swap2 I k; i_co := swap2; i_cv := swap2; i_go := swap2; i_gv := swap2 |}.
Definition ffrag : gfrag QK := {| g_nf := 1; g_no := 2; g_nv := 2; g_cf := id2; g_pwf := PCC {| nocc1 := 1; M_Wf.t1 := T1f; M_Wf.t2 := T2f; M_Wf.l1 := Some T1f; M_Wf.l2 := Some (fun I J A B => (q 3 4 * T2f I J A B)%K); projector := Some xproj |}; g_tal := false; g_self := fself; g_children := [fchild] |}.
Lemma T2f_exch I J A B : T2f I J A B = T2f J I B A.
Proof. unfold T2f. rewrite (Nat.eqb_sym J I), (Nat.eqb_sym B A). destruct (Nat.eqb I J), (Nat.eqb A B), (Nat.eqb I A), (Nat.eqb J B); reflexivity. Qed.
Lemma ffrag_amp1 : amp1 QK 2 2 T1f ffrag T1f.
Proof. intros c [<-|[<-|[]]] k a Hk Ha; cbn in Hk; destruct k; try lia; two a Ha; apply eqq_ok; vm_compute; reflexivity. Qed.
Lemma ffrag_amp2 r : amp2 QK 2 2 (fun I J A B => (r * T2f I J A B)%K) ffrag (fun I J A B => (r * T2f I J A B)%K).
Proof.
  assert (Z : amp2 QK 2 2 T2f ffrag T2f). { intros c [<-|[<-|[]]] k j a b Hk Hj Ha Hb; cbn in Hk; destruct k; try lia; two j Hj; two a Ha; two b Hb; apply eqq_ok; vm_compute; reflexivity. }
  intros c Hc k j a b Hk Hj Ha Hb. rewrite (Z c Hc k j a b Hk Hj Ha Hb). repeat (rewrite <- Sum_mul_l; apply Sum_ext; intros). cbn. ring.
Qed.
Lemma ffrag_amp2' : amp2 QK 2 2 T2f ffrag T2f.
Proof. intros c [<-|[<-|[]]] k j a b Hk Hj Ha Hb; cbn in Hk; destruct k; try lia; two j Hj; two a Ha; two b Hb; apply eqq_ok; vm_compute; reflexivity. Qed.
Lemma ffrag_ok : Forall (projected QK) [ffrag] /\ Forall (insides QK 2) [ffrag] /\ (forall x c, In x [ffrag] -> In c (images x) -> complete QK 2 (g_no x) (i_co c) /\ complete QK 2 (g_nv x) (i_cv c)) /\ covering QK 2 [ffrag] /\ symmetric QK 2 2 [ffrag].
Proof.
  split; [|split; [|split; [|split]]].
  - repeat constructor. exists xproj. repeat split. intros k i _ _. cbn. unfold id2. rewrite Nat.eqb_sym. reflexivity.
  - repeat constructor. intros c [<-|[<-|[]]] I k HI Hk; cbn in Hk; destruct k; try lia; two I HI; apply eqq_ok; vm_compute; reflexivity.
  - intros x c [<-|[]] [<-|[<-|[]]]; split; intros i j Hi Hj; two i Hi; two j Hj; apply eqq_ok; vm_compute; reflexivity.
  - intros i j Hi Hj; two i Hi; two j Hj; apply eqq_ok; vm_compute; reflexivity.
  - assert (M : moves QK 2 2 swap2 swap2 ffrag fself fchild /\ moves QK 2 2 swap2 swap2 ffrag fchild fself).
    { split; split; intros I i HI Hi; cbn in Hi; two I HI; two i Hi; apply eqq_ok; vm_compute; reflexivity. }
    intros x c [<-|[]] [<-|[]]. split; [apply swap2_unitary|]. split; [apply swap2_unitary|]. split; [apply M|]. intros y [<-|[]]. exists [fchild; fself]. split; [constructor|]. repeat constructor; apply M.
Qed.
Example C56_full_bath_case : exists m1 m2, global_t1 qh [ffrag] false false = Some m1 /\ global_t2 qh [ffrag] false false = Some m2 /\ m1 1%nat 0%nat = q (-1) 4 /\ m2 0%nat 1%nat 0%nat 1%nat = q 1 7 /\ m2 1%nat 1%nat 1%nat 1%nat = q 1 2.
Proof.
  destruct ffrag_ok as (A & B & C & D & _). destruct (C56_full_bath QK qh qhh 2 2 [ffrag] false T1f T2f A B C D T2f_exch) as (m1 & m2 & E1 & E2 & F1 & F2).
  - intros x [<-|[]]. exists T1f, T2f. split; [reflexivity|]. split; [reflexivity|]. split; [apply ffrag_amp1|apply ffrag_amp2'].
  - exists m1, m2. split; [auto|]. split; [auto|]. rewrite F1, !F2 by lia. repeat split.
Qed.
Example C57_full_bath_case : exists d d', rdm1_slow qh 2 2 [ffrag] false true = Some d /\ rdm1_fast qh 2 2 (Some svd0) (fun _ _ => false) [ffrag] false true true true = Some d' /\
  (forall p p', (p < 4)%nat -> (p' < 4)%nat -> d p p' = cc_rdm1 2 (cc_gamma1 2 2 T1f T2f T1f (fun I J A B => (q 3 4 * T2f I J A B)%K)) false p p' /\ d' p p' = d p p') /\ d 0%nat 3%nat <> 0%K.
Proof.
  destruct ffrag_ok as (A & B & C & D & S). destruct (C57_full_bath QK qh qhh 2 2 (Some svd0) (fun _ _ => false) [ffrag] false true true T1f T1f T2f (fun I J A B => (q 3 4 * T2f I J A B)%K)) as (d & d' & E & E' & H); auto using T2f_exch, svd0_exact.
  - intros. rewrite T2f_exch. reflexivity.
  - intros x [<-|[]]. split; [apply ffrag_amp1|apply ffrag_amp2'].
  - intros x [<-|[]]. exists T1f, (fun I J A B => (q 3 4 * T2f I J A B)%K). split; [reflexivity|]. split; [reflexivity|]. split; [apply ffrag_amp1|apply ffrag_amp2].
  - intros x y cx cy _ _ _ _ X. discriminate.
  - right. constructor; [right; reflexivity|constructor].
  - exists d, d'. split; [auto|]. split; [auto|]. split; [exact H|]. apply (some_neq _ d _ _ _ E). vm_compute. reflexivity.
Qed.
Lemma two_frags_t2 gl fd : exists m, global_t2 qh two_frags gl fd = Some m.
Proof. destruct gl, fd; apply is_some; vm_compute; reflexivity. Qed.
Lemma two_frags_t1 gl fd : exists m, global_t1 qh two_frags gl fd = Some m.
Proof. destruct gl, fd; apply is_some; vm_compute; reflexivity. Qed.
Example C56_pair_symmetric_case : exists m, global_t2 qh two_frags false false = Some m /\ m 0%nat 1%nat 0%nat 1%nat = m 1%nat 0%nat 1%nat 0%nat /\ m 0%nat 1%nat 0%nat 1%nat <> 0%K /\ m 0%nat 1%nat 0%nat 1%nat <> m 0%nat 1%nat 0%nat 0%nat.
Proof.
  destruct (two_frags_t2 false false) as (m & E). exists m. split; [auto|]. split; [apply (C56_pair_symmetric QK qh two_frags false false m E)|].
  apply (some_t _ m (fun m => m 0%nat 1%nat 0%nat 1%nat <> 0%K /\ m 0%nat 1%nat 0%nat 1%nat <> m 0%nat 1%nat 0%nat 0%nat) E). split; apply neqq; vm_compute; reflexivity.
Qed.
Example C56_errors_case : global_t2 qh [xfrag false xwf'; yfrag] true false = None /\ global_t2 qh [xfrag true xwf'; yfrag] true false <> None.
Proof.
  split.
  - apply (C56_errors QK qh [xfrag false xwf'; yfrag] true); [repeat constructor; [apply xfrag_projected; reflexivity|apply yfrag_projected]|]. left. repeat split.
  - intros H. apply (C56_errors QK qh [xfrag true xwf'; yfrag] true) in H; [|repeat constructor; [apply xfrag_projected; reflexivity|apply yfrag_projected]]. rewrite Exists_exists in H. destruct H as (x & [<-|[<-|[]]] & _ & H & H'); discriminate.
Qed.
Lemma two_frags_projected : Forall (projected QK) two_frags.
Proof. repeat constructor; [apply xfrag_projected; reflexivity|apply yfrag_projected]. Qed.
Example C56_order_case : exists m m', global_t2 qh two_frags false false = Some m /\ global_t2 qh [yfrag; xfrag false xwf] false false = Some m' /\ m' 0%nat 0%nat 0%nat 1%nat = m 0%nat 0%nat 0%nat 1%nat /\ m 0%nat 0%nat 0%nat 1%nat <> 0%K.
Proof.
  destruct (two_frags_t2 false false) as (m & E). destruct (two_frags_t1 false false) as (m1 & E1).
  destruct (C56_order QK qh two_frags [yfrag; xfrag false xwf] false m1 m ltac:(constructor) two_frags_projected E1 E) as (m' & m2' & _ & E' & _ & H).
  exists m, m2'. split; [auto|]. split; [exact E'|]. split; [apply H|]. apply (some_t _ m (fun m => m 0%nat 0%nat 0%nat 1%nat <> 0%K) E). apply neqq. vm_compute. reflexivity.
Qed.
Example C56_invariant_case : exists m, global_t2 qh two_frags false false = Some m /\ m 1%nat 1%nat 1%nat 0%nat = m 0%nat 0%nat 0%nat 1%nat /\ m 1%nat 1%nat 1%nat 0%nat <> 0%K.
Proof.
  destruct (two_frags_t2 false false) as (m & E). destruct (two_frags_t1 false false) as (m1 & E1).
  destruct (C56_invariant QK qh 2 2 two_frags false m1 m (xfrag false xwf) xchild two_frags_projected (frags_symmetric false xwf) ltac:(left; reflexivity) ltac:(left; reflexivity) E1 E) as (_ & H).
  exists m. split; [auto|]. split.
  - rewrite <- (H 1%nat 1%nat 1%nat 0%nat) by lia. apply (some_t _ m (fun m => Sum 2 (fun i => Sum 2 (fun j => Sum 2 (fun a => Sum 2 (fun b => (i_go xchild 1%nat i * i_go xchild 1%nat j * i_gv xchild 1%nat a * i_gv xchild 0%nat b * m i j a b)%K)))) = m 0%nat 0%nat 0%nat 1%nat) E). apply eqq_ok. vm_compute. reflexivity.
  - apply (some_t _ m (fun m => m 1%nat 1%nat 1%nat 0%nat <> 0%K) E). apply neqq. vm_compute. reflexivity.
Qed.
Example C56_for_dm2_case : exists m mc mm, global_t2 qh two_frags false true = Some m /\ global_t2 qh [xfrag false xwf] false false = Some mc /\ global_t2 qh [yfrag] false false = Some mm /\
  (forall I J A B, m I J A B = mc I J A B + (1 + 1) * mm I J A B)%K /\ mm 0%nat 0%nat 0%nat 1%nat = q 1 8 /\ mc 0%nat 0%nat 0%nat 1%nat <> 0%K.
Proof.
  destruct (C56_for_dm2 QK qh two_frags two_frags_projected) as (_ & _ & m & mc & mm & E & Ec & Em & H). exists m, mc, mm. split; [auto|]. split; [exact Ec|]. split; [exact Em|]. split; [exact H|].
  split.
  - apply (some_t _ mm (fun m => m 0%nat 0%nat 0%nat 1%nat = q 1 8) Em). apply eqq_ok. vm_compute. reflexivity.
  - apply (some_t _ mc (fun m => m 0%nat 0%nat 0%nat 1%nat <> 0%K) Ec). apply neqq. vm_compute. reflexivity.
Qed.
Example C57_lambda_needed_case : rdm1_slow qh 2 2 [xfrag false xwf'; yfrag] false true = None /\ exists d, rdm1_slow qh 2 2 [xfrag false xwf'; yfrag] true true = Some d.
Proof.
  destruct (C57_lambda_needed QK qh 2 2 [xfrag false xwf'; yfrag] true) as (A & B); [repeat constructor; [apply xfrag_projected; reflexivity|apply yfrag_projected]|]. split; [|exact A]. apply B. left. repeat split. left. reflexivity.
Qed.
End Cases.

Print Assumptions C56_pair_symmetric.
Print Assumptions C56_full_bath.
Print Assumptions C56_errors.
Print Assumptions C56_order.
Print Assumptions C56_invariant.
Print Assumptions C56_for_dm2.
Print Assumptions C57_fast_is_slow.
Print Assumptions C57_electrons.
Print Assumptions C57_lambda_needed.
Print Assumptions C57_full_bath.
Print Assumptions C57_option_refuted.
