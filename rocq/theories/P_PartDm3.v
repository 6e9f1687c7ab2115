(** Property C61 (two-particle density matrices from single clusters): traces for arbitrary clusters, MP2 fragments, exceptions; statements on M_PartDm2.v. *)
From Coq Require Import List Arith Bool Lia ZArith QArith Qcanon Ring.
From Verif Require Import Alg Pull M_Wf M_Eris M_Rdm M_GlobalWf M_PartDm M_Gamma2 M_PartDm2 P_GlobalPairs P_GlobalWf P_GlobalAmp P_Rdm P_Lift P_PartDm P_Eris P_Part2 P_Blk P_Assemble P_Gamma2 Esum Inv P_PartDm2.
Import ListNotations.
Close Scope Q_scope. Close Scope Qc_scope. Close Scope Z_scope. Open Scope nat_scope.

Section Sys.
Context (K : cring).
Add Ring Kr : (rth K).
Open Scope K_scope.
Variable half : K.
Hypothesis Hhalf : half + half = 1.
Notation mat := (nat -> nat -> K).
Notation ten := (nat -> nat -> nat -> nat -> K).
Notation gfrag := (M_GlobalWf.gfrag K).
Notation image := (M_GlobalWf.image K).
Notation pfrag := (M_PartDm.pfrag K).
Variables nocc nvir : nat.

(** ** Traces of the fragments' matrices *)
Definition exch_sym (t : ten) : Prop := forall i j a b, t i j a b = t j i b a.
Lemma symm_c2 (t : ten) : exch_sym (symmetrize_c2 half t).
Proof. intros i j a b. unfold symmetrize_c2, exch. ring. Qed.
Lemma amps_sym (x : pfrag) tal a l : amps_for_dm half x tal true = Some a -> a_l2x a = Some l -> exch_sym l.
Proof.
  unfold amps_for_dm, pwf_restore_sym. destruct (g_pwf x) as [w|n1 t [p|]]; [|cbn [option_map]|discriminate].
  - unfold restore. destruct (projector w) as [p|]; [|discriminate]. cbn [option_map pwf_as_ccsd]. intros X. apply some_inj in X. subst a. cbn [a_l2x M_Wf.t2 M_Wf.l2].
    destruct tal; [intros X; apply some_inj in X; subst l; apply symm_c2|]. destruct (M_Wf.l2 _); [|discriminate]. intros X; apply some_inj in X; subst l; apply symm_c2.
  - intros X. apply some_inj in X. subst a. cbn [a_l2x]. cbn [pwf_as_ccsd M_Wf.t2 M_Wf.l2]. destruct tal; intros X; apply some_inj in X; subst l; apply symm_c2.
Qed.
Lemma ok_inj {A} (a b : A) : Ok a = Ok b -> a = b.
Proof. intros E. injection E. auto. Qed.
Definition s_ (n p : nat) : K := if (p <? n)%nat then 1 else 0.
(** The one-particle matrix that belongs to the projected amplitudes *)
Definition xgamma1 n nv (t1 : mat) (t2 : ten) (t1x l1x : mat) (l2x : ten) : gamma1 K := let d := cc_gamma1 n nv t1 t2 l1x l2x in
  {| g_oo := g_oo d; g_ov := g_ov d; g_vo := fun v i => g_vo d v i + (t1x i v - t1 i v); g_vv := g_vv d |}.
Section Direct.
Context (n nv : nat) (t1 : mat) (t2 : ten) (t1x : mat) (t2x : ten) (l1x : mat) (l2x : ten).
Hypothesis Ht : exch_sym t2.
Hypothesis Hl : exch_sym l2x.
Notation d2 := (pgamma2 half n nv t1 t2 t1x t2x l1x l2x).
Notation d1 := (xgamma1 n nv t1 t2 t1x l1x l2x).
Notation dc := (cc_rdm1 n d1 false).
Lemma xdc_part f g a b : (a < sz n nv f)%nat -> (b < sz n nv g)%nat -> dc (shift n f a) (shift n g b) =
  match f, g with false, false => symm (g_oo d1) a b | false, true => g_ov d1 a b + g_vo d1 b a | true, false => g_ov d1 b a + g_vo d1 a b | true, true => symm (g_vv d1) a b end.
Proof.
  intros Ha Hb. unfold cc_rdm1. destruct f, g; cbn [shift sz] in *.
  - rewrite blocks_vv. reflexivity.
  - rewrite (blocks_sym n) by (auto using symm_sym). rewrite blocks_ov by auto. reflexivity.
  - rewrite blocks_ov by auto. reflexivity.
  - rewrite blocks_oo by auto. reflexivity.
Qed.
Lemma xdirect out p q : (p < n + nv)%nat -> (q < n + nv)%nat -> Sum (n + nv) (fun r => make_rdm2_rhf n d2 out p q r r) = (s_ n p + s_ n q - 1) * dc p q.
Proof.
  intros Hp Hq. destruct (shift_cases n nv p Hp) as (f & a & -> & Ha). destruct (shift_cases n nv q Hq) as (g & b & -> & Hb).
  rewrite Sum_sz. rewrite (Sum_ext n _ (fun k => part d2 f g false false a b k k)), (Sum_ext nv _ (fun k => part d2 f g true true a b k k))
    by (intros; apply (make_rdm2_part n nv); auto).
  rewrite xdc_part by auto. unfold s_.
  assert (L : forall x, (n + x <? n)%nat = false) by (intros; apply Nat.ltb_ge; lia).
  destruct f, g; cbn [shift sz] in *; rewrite ?L; try (apply Nat.ltb_lt in Ha; rewrite Ha); try (apply Nat.ltb_lt in Hb; rewrite Hb).
  - etransitivity; [exact (tr_vv half Hhalf n nv t1 t2 l1x l2x Ht Hl a b)|]. cbn [xgamma1 g_vv]. ring.
  - etransitivity; [exact (tr_ov half Hhalf n nv t1 t2 l1x l2x Ht Hl b a)|]. ring.
  - etransitivity; [exact (tr_ov half Hhalf n nv t1 t2 l1x l2x Ht Hl a b)|]. ring.
  - etransitivity; [exact (tr_oo half Hhalf n nv t1 t2 l1x l2x Ht Hl a b)|]. cbn [xgamma1 g_oo]. ring.
Qed.
Lemma xexchange out p q : (p < n + nv)%nat -> (q < n + nv)%nat -> Sum (n + nv) (fun r => make_rdm2_rhf n d2 out p r r q) = (two - two * s_ n p - two * s_ n q) * dc p q.
Proof.
  intros Hp Hq. destruct (shift_cases n nv p Hp) as (f & a & -> & Ha). destruct (shift_cases n nv q Hq) as (g & b & -> & Hb).
  rewrite Sum_sz. rewrite (Sum_ext n _ (fun k => part d2 f false false g a k k b)), (Sum_ext nv _ (fun k => part d2 f true true g a k k b))
    by (intros; apply (make_rdm2_part n nv); auto).
  rewrite xdc_part by auto. unfold s_.
  assert (L : forall x, (n + x <? n)%nat = false) by (intros; apply Nat.ltb_ge; lia).
  destruct f, g; cbn [shift sz] in *; rewrite ?L; try (apply Nat.ltb_lt in Ha; rewrite Ha); try (apply Nat.ltb_lt in Hb; rewrite Hb).
  - etransitivity; [exact (tx_vv half Hhalf n nv t1 t2 l1x l2x Ht Hl a b)|]. cbn [xgamma1 g_vv]. ring.
  - etransitivity; [exact (tx_ov half Hhalf n nv t1 t2 l1x l2x Ht Hl b a)|]. ring.
  - etransitivity; [exact (tx_ov half Hhalf n nv t1 t2 l1x l2x Ht Hl a b)|]. ring.
  - etransitivity; [exact (tx_oo half Hhalf n nv t1 t2 l1x l2x Ht Hl a b)|]. cbn [xgamma1 g_oo]. ring.
Qed.
End Direct.
Lemma mo_s (x : gfrag) (c : image) P p (k : K) : mo_cluster nocc x c P p * s_ (g_no x) p = s_ nocc P * mo_cluster nocc x c P p.
Proof. unfold mo_cluster, s_. destruct (P <? nocc)%nat, (p <? g_no x)%nat; ring. Qed.
Lemma lift_s (x : gfrag) (c : image) (d : mat) a b k P Q :
  lift_dm1 nocc x c (fun p q => (a * s_ (g_no x) p + b * s_ (g_no x) q + k) * d p q) P Q = (a * s_ nocc P + b * s_ nocc Q + k) * lift_dm1 nocc x c d P Q.
Proof.
  unfold lift_dm1. rewrite <- Sum_mul_l. apply Sum_ext; intros p Hp. rewrite <- Sum_mul_l. apply Sum_ext; intros q Hq.
  transitivity (a * (mo_cluster nocc x c P p * s_ (g_no x) p) * d p q * mo_cluster nocc x c Q q + b * mo_cluster nocc x c P p * d p q * (mo_cluster nocc x c Q q * s_ (g_no x) q) + k * (mo_cluster nocc x c P p * d p q * mo_cluster nocc x c Q q)); [ring|].
  rewrite !mo_s by exact 0. ring.
Qed.
Lemma lift_ext1 (x : gfrag) (c : image) (d e : mat) P Q : (forall p q, (p < g_no x + g_nv x)%nat -> (q < g_no x + g_nv x)%nat -> d p q = e p q) -> lift_dm1 nocc x c d P Q = lift_dm1 nocc x c e P Q.
Proof. intros H. unfold lift_dm1. apply Sum_ext; intros p Hp. apply Sum_ext; intros q Hq. rewrite H by auto. reflexivity. Qed.
Lemma lift_trace (x : gfrag) (c : image) (d : ten) P Q : isometric K nocc (g_no x) (i_co c) -> isometric K nvir (g_nv x) (i_cv c) ->
  Sum (nocc + nvir) (fun R => lift_dm2 nocc x c d P Q R R) = lift_dm1 nocc x c (fun p q => Sum (g_no x + g_nv x) (fun r => d p q r r)) P Q /\
  Sum (nocc + nvir) (fun R => lift_dm2 nocc x c d P R R Q) = lift_dm1 nocc x c (fun p q => Sum (g_no x + g_nv x) (fun r => d p r r q)) P Q.
Proof.
  intros Io Iv. pose proof (mo_isometric K nocc nvir x c Io Iv) as I. set (n := (g_no x + g_nv x)%nat) in *. set (rx := mo_cluster nocc x c) in *. split.
  - transitivity (Sum n (fun p => Sum n (fun q => rx P p * rx Q q * Sum (nocc + nvir) (fun R => Sum n (fun r => Sum n (fun s => d p q r s * rx R r * rx R s)))))).
    { unfold lift_dm2. fold n rx. etransitivity; [apply Sum_swap|]. apply Sum_ext; intros p Hp. etransitivity; [apply Sum_swap|]. apply Sum_ext; intros q Hq. rewrite <- Sum_mul_l. apply Sum_ext; intros R HR. rewrite <- Sum_mul_l. apply Sum_ext; intros r Hr. rewrite <- Sum_mul_l. apply Sum_ext; intros s Hs. ring. }
    unfold lift_dm1. fold n rx. apply Sum_ext; intros p Hp. apply Sum_ext; intros q Hq. rewrite (trace_iso K (nocc + nvir) n rx (fun r s => d p q r s) I). ring.
  - transitivity (Sum n (fun p => Sum n (fun s => rx P p * rx Q s * Sum (nocc + nvir) (fun R => Sum n (fun q => Sum n (fun r => d p q r s * rx R q * rx R r)))))).
    { unfold lift_dm2. fold n rx. etransitivity; [apply Sum_swap|]. apply Sum_ext; intros p Hp.
      transitivity (Sum (nocc + nvir) (fun R => Sum n (fun s => rx P p * rx Q s * Sum n (fun q => Sum n (fun r => d p q r s * rx R q * rx R r))))).
      { apply Sum_ext; intros R HR. transitivity (Sum n (fun q => Sum n (fun s => Sum n (fun r => d p q r s * rx P p * rx R q * rx R r * rx Q s)))).
        { apply Sum_ext; intros q Hq. apply Sum_swap. }
        etransitivity; [apply Sum_swap|]. apply Sum_ext; intros s Hs. rewrite <- Sum_mul_l. apply Sum_ext; intros q Hq. rewrite <- Sum_mul_l. apply Sum_ext; intros r Hr. ring. }
      etransitivity; [apply Sum_swap|]. apply Sum_ext; intros s Hs. rewrite Sum_mul_l. reflexivity. }
    unfold lift_dm1. fold n rx. apply Sum_ext; intros p Hp. apply Sum_ext; intros s Hs. rewrite (trace_iso K (nocc + nvir) n rx (fun q r => d p q r s) I). ring.
Qed.
(** What one CCSD fragment contributes *)
Lemma frag_trace (x : pfrag) (c : image) tal sd approx out d2 d1 P Q : isometric K nocc (g_no x) (i_co c) -> isometric K nvir (g_nv x) (i_cv c) -> is_mp2 x = false -> approx <> 0%nat ->
  exch_sym (M_Wf.t2 (pwf_as_ccsd (p_wf x))) -> fragment_dm2c half x tal true sd approx out = Ok d2 -> fragment_dm1 half x tal true = Some d1 ->
  Sum (nocc + nvir) (fun R => lift_dm2 nocc x c d2 P Q R R) = (s_ nocc P + s_ nocc Q - 1) * lift_dm1 nocc x c d1 P Q /\
  Sum (nocc + nvir) (fun R => lift_dm2 nocc x c d2 P R R Q) = (two - two * s_ nocc P - two * s_ nocc Q) * lift_dm1 nocc x c d1 P Q.
Proof.
  intros Io Iv Mx Ha Hs. unfold fragment_dm2c, fragment_dm1, proj_gamma2, proj_gamma1. rewrite Mx. destruct (amps_for_dm half x tal true) as [a|] eqn:Ea; [|discriminate].
  pose proof (amps_sym x tal a) as Sy. rewrite Ea in Sy. destruct (a_l1x a) as [l1x|]; [|discriminate]. destruct (a_l2x a) as [l2x|]; [|discriminate]. specialize (Sy l2x eq_refl eq_refl).
  assert (A2 : a_t2 a = M_Wf.t2 (pwf_as_ccsd (p_wf x))).
  { unfold amps_for_dm in Ea. destruct (option_map _ _); [|discriminate]. apply some_inj in Ea. subst a. reflexivity. }
  cbn [of_option bind option_map]. intros E2 E1. apply some_inj in E1.
  assert (E : d2 = make_rdm2_rhf (g_no x) (pgamma2 half (g_no x) (g_nv x) (a_t1 a) (a_t2 a) (a_t1x a) (a_t2x a) l1x l2x) out).
  { rewrite andb_false_r in E2. destruct approx as [|[|[|?]]]; cbn [bind] in E2; congruence. }
  subst d2. rewrite A2 in *. change (cc_rdm1 (g_no x) (xgamma1 (g_no x) (g_nv x) (a_t1 a) (M_Wf.t2 (pwf_as_ccsd (p_wf x))) (a_t1x a) l1x l2x) false = d1) in E1. subst d1.
  destruct (lift_trace x c (make_rdm2_rhf (g_no x) (pgamma2 half (g_no x) (g_nv x) (a_t1 a) (M_Wf.t2 (pwf_as_ccsd (p_wf x))) (a_t1x a) (a_t2x a) l1x l2x) out) P Q Io Iv) as (-> & ->). split.
  - rewrite (lift_ext1 x c _ (fun p q => (1 * s_ (g_no x) p + 1 * s_ (g_no x) q + - (1)) * cc_rdm1 (g_no x) (xgamma1 (g_no x) (g_nv x) (a_t1 a) (M_Wf.t2 (pwf_as_ccsd (p_wf x))) (a_t1x a) l1x l2x) false p q))
      by (intros; rewrite xdirect by auto; ring). rewrite lift_s. ring.
  - rewrite (lift_ext1 x c _ (fun p q => (- two * s_ (g_no x) p + - two * s_ (g_no x) q + two) * cc_rdm1 (g_no x) (xgamma1 (g_no x) (g_nv x) (a_t1 a) (M_Wf.t2 (pwf_as_ccsd (p_wf x))) (a_t1x a) l1x l2x) false p q))
      by (intros; rewrite xexchange by auto; ring). rewrite lift_s. ring.
Qed.

(** Arbitrary (truncated) clusters with orthonormal orbitals: with the one-particle matrix from the same projected amplitudes the partial traces are exact, although neither matrix
    need be that of any wave function. *)
Section Trace.
Variables (frags : list pfrag) (tal sd mf : bool) (emb : option mat) (out : ten) (dm1 : mat) (dm2 : ten).
Hypothesis Ho : orthonormal K nocc nvir (gfrags K frags).
Hypothesis Hcc : Forall (fun x => is_mp2 x = false) (gfrags K frags).
Hypothesis Hs : forall x, In x frags -> exch_sym (M_Wf.t2 (pwf_as_ccsd (p_wf x))).
Hypothesis E1 : proj_rdm1 half nocc frags tal true true = Some dm1.
Hypothesis E2 : rdm2_proj_lambda half nocc emb frags (WArray dm1) tal true sd 1 out = Ok dm2.
Let D : mat := fun P Q => allp K frags (fun x c => lift_dm1 nocc x c (dm1_of K half x tal true) P Q).
Lemma trace_dm1 P Q : dm1 P Q = D P Q + two * occ nocc P Q.
Proof. pose proof (proj_eq K half nocc frags tal true true) as Z. rewrite E1 in Z. destruct Z as (_ & Z). rewrite Z, add_diag_occ. reflexivity. Qed.
Lemma trace_dm2 : exists m, (forall P Q R S, dm2 P Q R S = add_mean_field nocc dm1 m P Q R S) /\
  (forall P Q, Sum (nocc + nvir) (fun R => m P Q R R) = (s_ nocc P + s_ nocc Q - 1) * D P Q) /\ (forall P Q, Sum (nocc + nvir) (fun R => m P R R Q) = (two - two * s_ nocc P - two * s_ nocc Q) * D P Q).
Proof.
  unfold rdm2_proj_lambda in E2. pose proof (proj2_eq K half nocc frags tal true 1 out) as Z. destruct (proj_dm2 half nocc frags tal true 1 out) as [m| | |]; try discriminate.
  cbn [bind] in E2. injection E2 as E. exists m. split; [intros; rewrite E; reflexivity|]. destruct Z as (Z0 & Z).
  pose proof (proj_eq K half nocc frags tal true true) as Y. rewrite E1 in Y. destruct Y as (Y & _). rewrite Forall_forall in Y.
  assert (F : forall x c, In x frags -> In c (images x) -> forall P Q,
     Sum (nocc + nvir) (fun R => lift_dm2 nocc x c (dm2_of K half x tal true true 1 out) P Q R R) = (s_ nocc P + s_ nocc Q - 1) * lift_dm1 nocc x c (dm1_of K half x tal true) P Q /\
     Sum (nocc + nvir) (fun R => lift_dm2 nocc x c (dm2_of K half x tal true true 1 out) P R R Q) = (two - two * s_ nocc P - two * s_ nocc Q) * lift_dm1 nocc x c (dm1_of K half x tal true) P Q).
  { intros x c Hx Hc P Q. destruct (Ho x c) as [Io Iv]; [apply in_map; auto|auto|]. destruct (Z0 x Hx) as (d & Ed). specialize (Y x Hx). destruct (fragment_dm1 half x tal true) as [d1|] eqn:F1; [|congruence].
    unfold dm2_of, dm1_of. rewrite Ed, F1. apply (frag_trace x c tal true 1 out d d1 P Q Io Iv); auto. rewrite Forall_forall in Hcc. apply Hcc. apply in_map. auto. }
  split; intros P Q.
  - rewrite (Sum_ext _ _ _ (fun R _ => Z P Q R R)). unfold allp. rewrite <- Lsum_Sum. unfold D, allp. rewrite <- Lsum_mul_l. apply Lsum_ext; intros x Hx. rewrite <- Lsum_Sum, <- Lsum_mul_l. apply Lsum_ext; intros c Hc. apply F; auto.
  - rewrite (Sum_ext _ _ _ (fun R _ => Z P R R Q)). unfold allp. rewrite <- Lsum_Sum. unfold D, allp. rewrite <- Lsum_mul_l. apply Lsum_ext; intros x Hx. rewrite <- Lsum_Sum, <- Lsum_mul_l. apply Lsum_ext; intros c Hc. apply F; auto.
Qed.
Lemma D_sym P Q : D P Q = D Q P.
Proof. pose proof (C58_projected_symmetric K half nocc frags tal true true dm1 E1 P Q) as H. rewrite !trace_dm1, (occ_sym nocc Q P) in H. transitivity (D P Q + two * occ nocc P Q - two * occ nocc P Q); [ring|rewrite H; ring]. Qed.
Lemma D_trace : Sum (nocc + nvir) (fun R => D R R) = 0.
Proof.
  pose proof (C58_projected_electrons K half nocc nvir frags tal true true dm1 Ho E1) as H. unfold trace in H. rewrite (Sum_ext _ _ _ (fun R _ => trace_dm1 R R)), Sum_add, Sum_mul_l, Sum_occ_diag in H.
  transitivity (Sum (nocc + nvir) (fun R => D R R) + two * nK nocc - two * nK nocc); [ring|rewrite H; ring].
Qed.
Lemma trace_both P Q : (P < nocc + nvir)%nat -> (Q < nocc + nvir)%nat -> Sum (nocc + nvir) (fun R => dm2 P Q R R) = (nK (2 * nocc) - 1) * dm1 P Q /\ Sum (nocc + nvir) (fun R => dm2 P R R Q) = (two - nK nocc) * dm1 P Q.
Proof.
  intros HP HQ. destruct trace_dm2 as (m & Em & M1 & M2).
  assert (O : (P <? nocc)%nat = false -> occ (K := K) nocc P Q = 0) by (intros E; unfold occ; rewrite E, andb_false_r; reflexivity).
  assert (O' : (Q <? nocc)%nat = false -> occ (K := K) nocc P Q = 0) by (intros E; rewrite occ_sym; unfold occ; rewrite E, andb_false_r; reflexivity).
  split.
  - rewrite (Sum_ext _ _ (fun R => m P Q R R + two * occ nocc P Q * D R R + two * occ nocc P Q * occ nocc R R + two * (D P Q + occ nocc P Q) * occ nocc R R - occ nocc Q R * D P R - occ nocc P R * D Q R - two * (occ nocc P R * occ nocc Q R)))
      by (intros R _; rewrite Em, mean_field_entry, !trace_dm1, (D_sym R Q), (occ_sym nocc R Q); unfold two; ring).
    rewrite ?Sum_add, ?Sum_sub, ?Sum_add, ?Sum_sub, ?Sum_add, ?Sum_sub, !Sum_mul_l. rewrite M1, D_trace, Sum_occ_diag by auto.
    rewrite !Sum_occ_l by auto. rewrite trace_dm1, nK_mul. cbn [nK]. rewrite (D_sym Q P), (occ_sym nocc Q P). unfold s_ in *.
    destruct (P <? nocc)%nat, (Q <? nocc)%nat; rewrite ?O, ?O' by reflexivity; unfold two; ring.
  - rewrite (Sum_ext _ _ (fun R => m P R R Q + two * (occ nocc P R * D Q R) + two * (occ nocc P R * occ nocc Q R) + two * (occ nocc Q R * D P R) + two * (occ nocc P R * occ nocc Q R) - (D P Q + occ nocc P Q) * occ nocc R R - occ nocc P Q * D R R - occ nocc P Q * occ nocc R R))
      by (intros R _; rewrite Em, mean_field_entry, !trace_dm1, (D_sym R Q), (occ_sym nocc R Q); unfold two; ring).
    rewrite ?Sum_add, ?Sum_sub, ?Sum_add, ?Sum_sub, ?Sum_add, ?Sum_sub, ?Sum_add, ?Sum_sub, !Sum_mul_l. rewrite M2, D_trace, Sum_occ_diag by auto.
    rewrite !Sum_occ_l by auto. rewrite trace_dm1. rewrite (D_sym Q P), (occ_sym nocc Q P). unfold s_ in *.
    destruct (P <? nocc)%nat, (Q <? nocc)%nat; rewrite ?O, ?O' by reflexivity; unfold two; ring.
Qed.
End Trace.
Theorem C61_trace : forall (frags : list pfrag) tal sd emb out dm1 dm2, orthonormal K nocc nvir (gfrags K frags) -> Forall (fun x => is_mp2 x = false) (gfrags K frags) ->
  (forall x, In x frags -> exch_sym (M_Wf.t2 (pwf_as_ccsd (p_wf x)))) -> proj_rdm1 half nocc frags tal true true = Some dm1 ->
  rdm2_proj_lambda half nocc emb frags (WArray dm1) tal true sd 1 out = Ok dm2 ->
  forall P Q, (P < nocc + nvir)%nat -> (Q < nocc + nvir)%nat -> Sum (nocc + nvir) (fun R => dm2 P Q R R) = (nK (2 * nocc) - 1) * dm1 P Q.
Proof. intros. eapply trace_both; eauto. Qed.
Theorem C61_exchange_trace : forall (frags : list pfrag) tal sd emb out dm1 dm2, orthonormal K nocc nvir (gfrags K frags) -> Forall (fun x => is_mp2 x = false) (gfrags K frags) ->
  (forall x, In x frags -> exch_sym (M_Wf.t2 (pwf_as_ccsd (p_wf x)))) -> proj_rdm1 half nocc frags tal true true = Some dm1 ->
  rdm2_proj_lambda half nocc emb frags (WArray dm1) tal true sd 1 out = Ok dm2 ->
  forall P Q, (P < nocc + nvir)%nat -> (Q < nocc + nvir)%nat -> Sum (nocc + nvir) (fun R => dm2 P R R Q) = (two - nK nocc) * dm1 P Q.
Proof. intros. eapply trace_both; eauto. Qed.
(** The number of pairs needs no symmetry of the projected amplitudes. *)
Section Total.
Context (n nv : nat) (t1 : mat) (t2 : ten) (t1x : mat) (t2x : ten) (l1x : mat) (l2x : ten).
Hypothesis Ht : exch_sym t2.
Notation d2 := (pgamma2 half n nv t1 t2 t1x t2x l1x l2x).
Notation d1 := (xgamma1 n nv t1 t2 t1x l1x l2x).
Ltac unf := unfold goovv, gvovv, gooov, gvvvv, gOvvO, govVO, mij, moo, mvv, mia, mab, goooo, tau', pvOOv, pvoOV, tau, symm, cc_theta, two; cbv beta.
Ltac go ctx := cbn [part cc_gamma2 cc_gamma1 d_ovov d_vvvv d_oooo d_oovv d_ovvo d_ovvv d_ooov g_oo g_ov g_vo g_vv pgamma2 xgamma1]; unf;
  pose proof (Forall2_cons _ _ (ok_none (w2 t1)) (Forall2_cons _ _ (ok_pair t2 Ht) (Forall2_cons _ _ (ok_none (w2 l1x)) (Forall2_cons _ _ (ok_none (w4 l2x)) (Forall2_nil _))))) as S;
  esum Hhalf S [n; nv] ctx.
Lemma tot_oo : Sum n (fun i => Sum n (fun k => part d2 false false false false i i k k) + Sum nv (fun c => part d2 false false true true i i c c)) = Sum n (fun i => symm (g_oo d1) i i).
Proof. go (@nil nat). Qed.
Lemma tot_vv : Sum nv (fun a => Sum n (fun k => part d2 true true false false a a k k) + Sum nv (fun c => part d2 true true true true a a c c)) = - Sum nv (fun a => symm (g_vv d1) a a).
Proof. go (@nil nat). Qed.
Lemma xtotal out : Sum (n + nv) (fun p => Sum (n + nv) (fun r => make_rdm2_rhf n d2 out p p r r)) = Sum (n + nv) (fun p => (two * s_ n p - 1) * cc_rdm1 n d1 false p p).
Proof.
  assert (L : forall x, (n + x <? n)%nat = false) by (intros; apply Nat.ltb_ge; lia).
  rewrite !(Sum_sz n nv (fun p => _)). f_equal.
  - rewrite (Sum_ext n _ (fun p => Sum n (fun k => part d2 false false false false p p k k) + Sum nv (fun k => part d2 false false true true p p k k))).
    2:{ intros p Hp. rewrite Sum_sz. f_equal; apply Sum_ext; intros k Hk; [apply (make_rdm2_part n nv d2 out false false false false)|apply (make_rdm2_part n nv d2 out false false true true)]; auto. }
    rewrite tot_oo. apply Sum_ext; intros p Hp. cbn [shift]. unfold s_. pose proof (Logic.proj2 (Nat.ltb_lt p n) Hp) as ->. unfold cc_rdm1. rewrite blocks_oo by auto. unfold two; ring.
  - rewrite (Sum_ext nv _ (fun p => Sum n (fun k => part d2 true true false false p p k k) + Sum nv (fun k => part d2 true true true true p p k k))).
    2:{ intros p Hp. rewrite Sum_sz. f_equal; apply Sum_ext; intros k Hk; [apply (make_rdm2_part n nv d2 out true true false false)|apply (make_rdm2_part n nv d2 out true true true true)]; auto. }
    rewrite tot_vv, <- Sum_opp. apply Sum_ext; intros p Hp. cbn [shift]. unfold s_. rewrite L. unfold cc_rdm1. rewrite blocks_vv. ring.
Qed.
End Total.
Lemma avg4_total m (d : ten) : Sum m (fun p => Sum m (fun r => avg4 half d p p r r)) = Sum m (fun p => Sum m (fun r => d p p r r)).
Proof.
  unfold avg4. transitivity (half * Sum m (fun p => Sum m (fun r => d p p r r)) + half * Sum m (fun p => Sum m (fun r => d r r p p))).
  - rewrite <- !Sum_mul_l, <- Sum_add. apply Sum_ext; intros p Hp. rewrite <- !Sum_mul_l, <- Sum_add. apply Sum_ext; intros r Hr. transitivity ((half + half) * half * d p p r r + (half + half) * half * d r r p p); [ring|rewrite Hhalf; ring].
  - rewrite (Sum_swap m m (fun p r => d r r p p)). transitivity ((half + half) * Sum m (fun p => Sum m (fun r => d p p r r))); [ring|rewrite Hhalf; ring].
Qed.
Lemma frag_total (x : pfrag) (c : image) tal st sd out d2 d1 : isometric K nocc (g_no x) (i_co c) -> isometric K nvir (g_nv x) (i_cv c) -> is_mp2 x = false ->
  exch_sym (M_Wf.t2 (pwf_as_ccsd (p_wf x))) -> fragment_dm2c half x tal st sd 1 out = Ok d2 -> fragment_dm1 half x tal st = Some d1 ->
  Sum (nocc + nvir) (fun P => Sum (nocc + nvir) (fun R => lift_dm2 nocc x c d2 P P R R)) = Sum (nocc + nvir) (fun P => (two * s_ nocc P - 1) * lift_dm1 nocc x c d1 P P).
Proof.
  intros Io Iv Mx Hs. unfold fragment_dm2c, fragment_dm1, proj_gamma2, proj_gamma1. rewrite Mx. destruct (amps_for_dm half x tal st) as [a|] eqn:Ea; [|discriminate].
  destruct (a_l1x a) as [l1x|]; [|discriminate]. destruct (a_l2x a) as [l2x|]; [|discriminate].
  assert (A2 : a_t2 a = M_Wf.t2 (pwf_as_ccsd (p_wf x))).
  { unfold amps_for_dm in Ea. destruct (option_map _ _); [|discriminate]. apply some_inj in Ea. subst a. reflexivity. }
  cbn [of_option bind option_map]. intros E2 E1. apply some_inj in E1. apply ok_inj in E2.
  set (n := (g_no x + g_nv x)%nat).
  assert (T : Sum n (fun p => Sum n (fun r => d2 p p r r)) = Sum n (fun p => (two * s_ (g_no x) p - 1) * d1 p p)).
  { transitivity (Sum n (fun p => Sum n (fun r => make_rdm2_rhf (g_no x) (pgamma2 half (g_no x) (g_nv x) (a_t1 a) (a_t2 a) (a_t1x a) (a_t2x a) l1x l2x) out p p r r))).
    { rewrite <- E2. destruct (sd && negb st); [apply avg4_total|reflexivity]. }
    unfold n. rewrite xtotal by (rewrite A2; auto). change (cc_rdm1 (g_no x) (xgamma1 (g_no x) (g_nv x) (a_t1 a) (a_t2 a) (a_t1x a) l1x l2x) false = d1) in E1. rewrite E1. reflexivity. }
  rewrite (Sum_ext _ _ _ (fun P _ => Logic.proj1 (lift_trace x c d2 P P Io Iv))).
  rewrite (Sum_ext _ (fun P => (two * s_ nocc P - 1) * _) (fun P => lift_dm1 nocc x c (fun p q => (1 * s_ (g_no x) p + 1 * s_ (g_no x) q + - (1)) * d1 p q) P P)) by (intros P HP; rewrite lift_s; unfold two; ring).
  unfold lift_dm1. pose proof (mo_isometric K nocc nvir x c Io Iv) as I. fold n in I |- *. set (rx := mo_cluster nocc x c) in *.
  assert (Ti : forall m : mat, Sum (nocc + nvir) (fun P => Sum n (fun p => Sum n (fun q => rx P p * m p q * rx P q))) = Sum n (fun p => m p p)).
  { intros m. rewrite <- (trace_iso K (nocc + nvir) n rx m I). p0. p0. p0. ring. }
  rewrite !Ti. rewrite T. apply Sum_ext; intros p Hp. unfold two; ring.
Qed.
Theorem C61_pairs : forall (frags : list pfrag) tal st sd emb out dm1 dm2, orthonormal K nocc nvir (gfrags K frags) -> Forall (fun x => is_mp2 x = false) (gfrags K frags) ->
  (forall x, In x frags -> exch_sym (M_Wf.t2 (pwf_as_ccsd (p_wf x)))) -> proj_rdm1 half nocc frags tal true st = Some dm1 ->
  rdm2_proj_lambda half nocc emb frags (WArray dm1) tal st sd 1 out = Ok dm2 ->
  Sum (nocc + nvir) (fun P => Sum (nocc + nvir) (fun R => dm2 P P R R)) = nK (2 * nocc) * (nK (2 * nocc) - 1).
Proof.
  intros frags tal st sd emb out dm1 dm2 Ho Hcc Hs E1 E2.
  set (D := fun P Q => allp K frags (fun x c => lift_dm1 nocc x c (dm1_of K half x tal st) P Q)). set (N := (nocc + nvir)%nat).
  pose proof (proj_eq K half nocc frags tal true st) as Y. rewrite E1 in Y. destruct Y as (Y & Y'). rewrite Forall_forall in Y.
  assert (Dm : forall P Q, dm1 P Q = D P Q + two * occ nocc P Q) by (intros; rewrite Y', add_diag_occ; reflexivity).
  assert (Ds : forall P Q, D P Q = D Q P).
  { intros P Q. pose proof (C58_projected_symmetric K half nocc frags tal true st dm1 E1 P Q) as H. rewrite !Dm, (occ_sym nocc Q P) in H. transitivity (D P Q + two * occ nocc P Q - two * occ nocc P Q); [ring|rewrite H; ring]. }
  assert (Dt : Sum N (fun R => D R R) = 0).
  { pose proof (C58_projected_electrons K half nocc nvir frags tal true st dm1 Ho E1) as H. unfold trace in H. rewrite (Sum_ext _ _ _ (fun R _ => Dm R R)), Sum_add, Sum_mul_l, Sum_occ_diag in H. fold N in H.
    transitivity (Sum N (fun R => D R R) + two * nK nocc - two * nK nocc); [ring|rewrite H; ring]. }
  unfold rdm2_proj_lambda in E2. pose proof (proj2_eq K half nocc frags tal st 1 out) as Z. destruct (proj_dm2 half nocc frags tal st 1 out) as [m| | |]; try discriminate.
  cbn [bind] in E2. apply ok_inj in E2. destruct Z as (Z0 & Z).
  assert (T : Sum N (fun P => Sum N (fun R => m P P R R)) = Sum N (fun P => (two * s_ nocc P - 1) * D P P)).
  { transitivity (allp K frags (fun x c => Sum N (fun P => Sum N (fun R => lift_dm2 nocc x c (dm2_of K half x tal st true 1 out) P P R R)))).
    { unfold allp. rewrite (Sum_ext _ _ _ (fun P _ => Sum_ext _ _ _ (fun R _ => Z P P R R))). unfold allp. symmetry. etransitivity; [|apply Sum_ext; intros P HP; apply Lsum_Sum]. rewrite <- Lsum_Sum. apply Lsum_ext; intros x Hx.
      etransitivity; [|apply Sum_ext; intros P HP; apply Lsum_Sum]. apply Lsum_Sum. }
    transitivity (allp K frags (fun x c => Sum N (fun P => (two * s_ nocc P - 1) * lift_dm1 nocc x c (dm1_of K half x tal st) P P))).
    { unfold allp. apply Lsum_ext; intros x Hx. apply Lsum_ext; intros c Hc. destruct (Ho x c) as [Io Iv]; [apply in_map; auto|auto|]. destruct (Z0 x Hx) as (d & Ed). specialize (Y x Hx). destruct (fragment_dm1 half x tal st) as [d1|] eqn:F1; [|congruence].
      unfold dm2_of, dm1_of. rewrite Ed, F1. apply (frag_total x c tal st true out d d1 Io Iv); auto. rewrite Forall_forall in Hcc. apply Hcc. apply in_map. auto. }
    unfold D, allp. etransitivity; [|apply Sum_ext; intros P HP; apply Lsum_mul_l]. rewrite <- Lsum_Sum. apply Lsum_ext; intros x Hx. etransitivity; [|apply Sum_ext; intros P HP; apply Lsum_mul_l]. apply Lsum_Sum. }
  rewrite <- E2.
  rewrite (Sum_ext N _ (fun P => Sum N (fun R => m P P R R) + (two * occ nocc P P * 0 + two * nK nocc * (two * occ nocc P P + D P P) - two * s_ nocc P * D P P - two * occ nocc P P))).
  - rewrite Sum_add, T. rewrite <- Sum_add. rewrite (Sum_ext N _ (fun P => (two * nK nocc * two - two) * occ nocc P P + (two * nK nocc - 1) * D P P)) by (intros; unfold two; ring).
    rewrite Sum_add, !Sum_mul_l, Dt. unfold N. rewrite Sum_occ_diag, nK_mul. cbn [nK]. unfold two. ring.
  - intros P HP. rewrite (Sum_ext _ _ (fun R => m P P R R + two * occ nocc P P * D R R + two * occ nocc P P * occ nocc R R + two * (D P P + occ nocc P P) * occ nocc R R - two * (occ nocc P R * D P R) - two * (occ nocc P R * occ nocc P R)))
      by (intros R _; rewrite mean_field_entry, !Dm, (Ds R P), (occ_sym nocc R P); unfold two; ring).
    rewrite ?Sum_add, ?Sum_sub, ?Sum_add, ?Sum_sub, ?Sum_add, ?Sum_sub, !Sum_mul_l. rewrite Dt. unfold N. rewrite Sum_occ_diag. rewrite !Sum_occ_l by auto.
    assert (Q : s_ nocc P * occ (K := K) nocc P P = occ nocc P P) by (unfold s_, occ; destruct (P <? nocc)%nat; rewrite ?andb_false_r; ring). unfold s_ in *. destruct (P <? nocc)%nat; unfold two; try ring.
    rewrite <- Q. ring.
Qed.
(** ** MP2 fragments *)
Ltac unf := cbn [part cc_gamma2 d_ovov d_vvvv d_oooo d_oovv d_ovvo d_ovvv d_ooov]; unfold goovv, gvovv, gooov, gvvvv, gOvvO, govVO, mij, moo, mvv, mia, mab, goooo, tau', pvOOv, pvoOV, tau, symm, cc_theta, two; cbv beta.
Definition mp2_part (t : ten) (f g h k : bool) (p q r s : nat) : K :=
  match f, g, h, k with
  | false, true, false, true => two * (two * t p r q s - t p r s q)
  | true, false, true, false => two * (two * t q s p r - t q s r p)
  | _, _, _, _ => 0
  end.
Lemma zero_gamma2 n nv (T t : ten) f g h k p q r s : exch_sym T -> (forall i j a b, T i j a b = two * t i j a b) -> part (cc_gamma2 half n nv (fun _ _ => 0) T (fun _ _ => 0) (fun _ _ _ _ => 0)) f g h k p q r s = mp2_part t f g h k p q r s.
Proof.
  intros HT E. transitivity (match f, g, h, k with false, true, false, true => two * T p r q s - T p r s q | true, false, true, false => two * T q s p r - T q s r p | _, _, _, _ => 0 end).
  - pose proof (Forall2_cons _ _ (ok_pair T HT) (Forall2_nil _)) as S. destruct f, g, h, k; unf; esum Hhalf S [n; nv] [p; q; r; s].
  - destruct f, g, h, k; unfold mp2_part; rewrite ?E; ring.
Qed.
Lemma mp2_dm2_part n nv (t : ten) f g h k a b c e : (a < sz n nv f)%nat -> (b < sz n nv g)%nat -> (c < sz n nv h)%nat -> (e < sz n nv k)%nat ->
  mp2_dm2 n (mp2_dovov t) (shift n f a) (shift n g b) (shift n h c) (shift n k e) = mp2_part t f g h k a b c e.
Proof.
  intros. unfold mp2_dm2. rewrite !(put_shift n nv n nv) by auto. unfold tconj, mp2_dovov, mp2_part. destruct f, g, h, k; cbn [eqb andb]; reflexivity.
Qed.
Lemma mp2_up (x : gfrag) (c : image) (t : ten) f g h k P Q R S : up4 (sz (g_no x) (g_nv x) f) (sz (g_no x) (g_nv x) g) (sz (g_no x) (g_nv x) h) (sz (g_no x) (g_nv x) k) (cf K (i_co c) (i_cv c) f) (cf K (i_co c) (i_cv c) g) (cf K (i_co c) (i_cv c) h) (cf K (i_co c) (i_cv c) k)
  (mp2_part t f g h k) P Q R S = mp2_part (lift2 x c t) f g h k P Q R S.
Proof.
  assert (Z : forall n1 n2 n3 n4 (c1 c2 c3 c4 : mat), up4 n1 n2 n3 n4 c1 c2 c3 c4 (fun _ _ _ _ => 0) P Q R S = 0) by (intros; unfold up4; repeat (apply Sum_0; intros); ring).
  destruct f, g, h, k; unfold mp2_part at 1; try (etransitivity; [apply Z|reflexivity]); unfold mp2_part; cbn [sz cf]; rewrite !lift2_up; unfold upt.
  - transitivity (two * (two * up4 (g_nv x) (g_no x) (g_nv x) (g_no x) (i_cv c) (i_co c) (i_cv c) (i_co c) (fun p q r s => t q s p r) P Q R S - up4 (g_nv x) (g_no x) (g_nv x) (g_no x) (i_cv c) (i_co c) (i_cv c) (i_co c) (fun p q r s => t q s r p) P Q R S)).
    { unfold up4. rewrite <- !Sum_mul_l, <- Sum_sub, <- Sum_mul_l. p0. rewrite <- !Sum_mul_l, <- Sum_sub, <- Sum_mul_l. p0. rewrite <- !Sum_mul_l, <- Sum_sub, <- Sum_mul_l. p0. rewrite <- !Sum_mul_l, <- Sum_sub, <- Sum_mul_l. p0. ring. }
    f_equal. f_equal; [f_equal|]; unfold up4; reorder.
  - transitivity (two * (two * up4 (g_no x) (g_nv x) (g_no x) (g_nv x) (i_co c) (i_cv c) (i_co c) (i_cv c) (fun p q r s => t p r q s) P Q R S - up4 (g_no x) (g_nv x) (g_no x) (g_nv x) (i_co c) (i_cv c) (i_co c) (i_cv c) (fun p q r s => t p r s q) P Q R S)).
    { unfold up4. rewrite <- !Sum_mul_l, <- Sum_sub, <- Sum_mul_l. p0. rewrite <- !Sum_mul_l, <- Sum_sub, <- Sum_mul_l. p0. rewrite <- !Sum_mul_l, <- Sum_sub, <- Sum_mul_l. p0. rewrite <- !Sum_mul_l, <- Sum_sub, <- Sum_mul_l. p0. ring. }
    f_equal. f_equal; [f_equal|]; unfold up4; reorder.
Qed.
Lemma mp2_part_Lsum {X} (l : list X) (t : X -> ten) f g h k p q r s : Lsum l (fun x => mp2_part (t x) f g h k p q r s) = mp2_part (fun i j a b => Lsum l (fun x => t x i j a b)) f g h k p q r s.
Proof.
  destruct f, g, h, k; unfold mp2_part; try (apply Lsum_0; intros; reflexivity); rewrite <- Lsum_mul_l, <- Lsum_sub, <- Lsum_mul_l; reflexivity.
Qed.
Lemma mp2_part_ext (t t' : ten) f g h k p q r s : (forall i j a b, t i j a b = t' i j a b) -> mp2_part t f g h k p q r s = mp2_part t' f g h k p q r s.
Proof. intros H. destruct f, g, h, k; unfold mp2_part; rewrite ?H; reflexivity. Qed.
Definition mp2_frag (x : gfrag) : Prop := exists n1 t p, g_pwf x = PMP2 n1 t (Some p).
Definition mp2_t (st : bool) (x : pfrag) : ten := match mp2_t2x half x st with Some t => t | None => fun _ _ _ _ => 0 end.
Lemma mp2_global (frags : list pfrag) : (forall x, In x frags -> mp2_frag x) -> global_t1 half (gfrags K frags) false true = Some (fun _ _ => 0) /\ global_t1 half (gfrags K frags) true true = Some (fun _ _ => 0) /\
  global_t2 half (gfrags K frags) true true = Some (fun _ _ _ _ => 0) /\ exists m, global_t2 half (gfrags K frags) false true = Some m /\ forall I J A B, m I J A B = two * allp K frags (fun x c => lift2 x c (mp2_t true x) I J A B).
Proof.
  intros H.
  assert (T : forall x gl, In x frags -> t1_of half x gl true = Some None).
  { intros x gl Hx. destruct (H x Hx) as (n1 & t & p & E). unfold t1_of, restored, is_mp2. rewrite E. reflexivity. }
  assert (L : forall x, In x frags -> t2_of half x true true = Some None).
  { intros x Hx. destruct (H x Hx) as (n1 & t & p & E). unfold t2_of, restored, is_mp2. rewrite E. reflexivity. }
  assert (D : forall x, In x frags -> t2_of half x false true = Some (Some (fun i j a b => two * mp2_t true x i j a b))).
  { intros x Hx. destruct (H x Hx) as (n1 & t & p & E). unfold t2_of, restored, is_mp2, mp2_t, mp2_t2x. rewrite E. reflexivity. }
  clear H. split; [|split; [|split]].
  - unfold global_t1, gfrags. generalize (fun _ _ : nat => 0 : K). induction frags as [|x l IH]; intros m; cbn [map fold_left]; [reflexivity|]. rewrite T by (left; reflexivity). apply IH; intros; auto using in_cons.
  - unfold global_t1, gfrags. generalize (fun _ _ : nat => 0 : K). induction frags as [|x l IH]; intros m; cbn [map fold_left]; [reflexivity|]. rewrite T by (left; reflexivity). apply IH; intros; auto using in_cons.
  - unfold global_t2, gfrags. generalize (fun _ _ _ _ : nat => 0 : K). induction frags as [|x l IH]; intros m; cbn [map fold_left]; [reflexivity|]. rewrite L by (left; reflexivity). apply IH; intros; auto using in_cons.
  - assert (Z : forall m0 : ten, exists m, fold_left (fun (acc : option ten) x => match acc, t2_of half x false true with Some m, Some (Some t) => Some (fun I J A B => m I J A B + Lsum (images x) (fun c => lift2 x c t I J A B)) | Some m, Some None => Some m | _, _ => None end) (gfrags K frags) (Some m0) = Some m /\
       forall I J A B, m I J A B = m0 I J A B + two * allp K frags (fun x c => lift2 x c (mp2_t true x) I J A B)).
    { clear T L. induction frags as [|x l IH]; intros m0; cbn [gfrags map fold_left]; [exists m0; split; [reflexivity|]; intros; unfold allp; cbn [Lsum]; ring|].
      rewrite D by (left; reflexivity). destruct (IH ltac:(intros; apply D; right; auto) (fun I J A B => m0 I J A B + Lsum (images x) (fun c => lift2 x c (fun i j a b => two * mp2_t true x i j a b) I J A B))) as (m & E & Hm).
      exists m. split; [exact E|]. intros. rewrite Hm. unfold allp. cbn [Lsum].
      assert (Y : Lsum (images x) (fun c => lift2 x c (fun i j a b => two * mp2_t true x i j a b) I J A B) = two * Lsum (images x) (fun c => lift2 x c (mp2_t true x) I J A B)).
      { rewrite <- Lsum_mul_l. apply Lsum_ext; intros c Hc. unfold lift2, Sum4, Sum2. do 4 (rewrite <- Sum_mul_l; apply Sum_ext; intros). ring. }
      rewrite Y. ring. }
    destruct (Z (fun _ _ _ _ => 0)) as (m & E & Hm). exists m. split; [exact E|]. intros. rewrite Hm. ring.
Qed.
(** With MP2 fragments only, whatever the clusters, the matrix assembled from the fragments is the one made from the global amplitudes (get_global_t2(for_dm2=True) doubles T2 and
    leaves Lambda out for this purpose). *)
Theorem C61_mp2 : forall (frags : list pfrag) tal sy emb sd out, (forall x, In x frags -> mp2_frag x) ->
  exists m m', rdm2_proj_lambda half nocc emb frags WNo tal true sd 1 out = Ok m /\ rdm2_global half nocc nvir (gfrags K frags) sy false false out = Ok m' /\
    forall P Q R S, (P < nocc + nvir)%nat -> (Q < nocc + nvir)%nat -> (R < nocc + nvir)%nat -> (S < nocc + nvir)%nat -> m P Q R S = m' P Q R S.
Proof.
  intros frags tal sy emb sd out H. destruct (mp2_global frags H) as (G1 & G2 & G3 & T & G4 & HT). unfold rdm2_proj_lambda, rdm2_global, global_l1, global_l2. cbn [andb negb]. rewrite G1, G2, G3, G4. cbn [of_option bind].
  assert (F : forall x, In x frags -> fragment_dm2c half x tal true true 1 out = Ok (mp2_dm2 (g_no x) (mp2_dovov (mp2_t true x)))).
  { intros x Hx. destruct (H x Hx) as (n1 & t & p & E). unfold fragment_dm2c, is_mp2, mp2_t, mp2_t2x. rewrite E. reflexivity. }
  destruct (proj2_ok K half nocc frags tal true 1 out) as (m & Em & Hm); [intros x Hx; rewrite F by auto; eauto|]. rewrite Em. cbn [bind]. eexists. eexists. split; [reflexivity|]. split; [reflexivity|].
  intros P Q R S HP HQ HR HS. rewrite Hm.
  assert (U : forall P Q R S, (P < nocc + nvir)%nat -> (Q < nocc + nvir)%nat -> (R < nocc + nvir)%nat -> (S < nocc + nvir)%nat ->
     ccsd_make_rdm2 half nocc nvir (fun _ _ => 0) T (fun _ _ => 0) (fun _ _ _ _ => 0) out false P Q R S = allp K frags (fun x c => lift_dm2 nocc x c (dm2_of K half x tal true true 1 out) P Q R S)).
  { clear P Q R S HP HQ HR HS. intros P Q R S HP HQ HR HS.
    destruct (shift_cases nocc nvir P HP) as (f & p & -> & Bp). destruct (shift_cases nocc nvir Q HQ) as (g & q & -> & Bq). destruct (shift_cases nocc nvir R HR) as (h & r & -> & Br). destruct (shift_cases nocc nvir S HS) as (k & s & -> & Bs).
    unfold ccsd_make_rdm2, cc_rdm2. rewrite (make_rdm2_part nocc nvir) by auto.
    rewrite (zero_gamma2 nocc nvir T _ f g h k p q r s ltac:(intros i j a b; eapply C56_pair_symmetric; eauto) HT). unfold allp at 1.
    rewrite <- mp2_part_Lsum. apply Lsum_ext; intros x Hx. rewrite <- mp2_part_Lsum. apply Lsum_ext; intros c Hc.
    rewrite (lift2_block K nocc nvir) by auto. unfold dm2_of. rewrite F by auto.
    rewrite <- mp2_up. apply up4_ext. intros. rewrite (mp2_dm2_part (g_no x) (g_nv x)) by auto. reflexivity. }
  destruct sy; [|symmetry; apply U; auto]. rewrite !U by auto.
  assert (W : allp K frags (fun x c => lift_dm2 nocc x c (dm2_of K half x tal true true 1 out) Q P S R) = allp K frags (fun x c => lift_dm2 nocc x c (dm2_of K half x tal true true 1 out) P Q R S)).
  { rewrite <- !U by auto. unfold ccsd_make_rdm2, cc_rdm2. symmetry. apply make_rdm2_herm. }
  rewrite W. set (X := allp K frags _). transitivity (X * (half + half)); [rewrite Hhalf; ring|ring].
Qed.
(** ** Which options and amplitudes give a matrix, and which an exception *)
Definition available (tal : bool) (approx : nat) (x : pfrag) : Prop :=
  if is_mp2 x then approx = 1%nat
  else approx <> 2%nat /\ lam1 K x tal <> None /\ lam2 K x tal <> None /\ (approx = 0%nat -> M_Wf.l1 (pwf_as_ccsd (p_wf x)) <> None /\ M_Wf.l2 (pwf_as_ccsd (p_wf x)) <> None).
Lemma fragment_ok (x : pfrag) tal st sd approx out : projected K x -> ((exists d, fragment_dm2c half x tal st sd approx out = Ok d) <-> available tal approx x).
Proof.
  intros Hp. unfold available, fragment_dm2c. destruct (is_mp2 x) eqn:Mx.
  - destruct (Nat.eqb_spec approx 1) as [->|N].
    + split; [reflexivity|]. intros _. unfold is_mp2 in Mx. unfold mp2_t2x, pwf_restore_sym. destruct Hp as (p & E & _).
      destruct (g_pwf x) as [w|n1 t pj]; [discriminate|]. cbn [pwf_as_ccsd projector] in E. rewrite E. cbn [option_map of_option bind]. eauto.
    + split; [intros (d & E); discriminate|congruence].
  - destruct (amps_ok K half x tal st Hp) as (a & E & E1 & E2 & X1 & X2 & Y1 & Y2). unfold proj_gamma2, fragment_dm1, proj_gamma1. rewrite E.
    unfold lk1 in Y1. unfold lk2 in Y2. destruct (a_l1x a) as [l1x|], (lam1 K x tal) as [u1|]; try contradiction; [|split; [intros (d & H); discriminate|intros (_ & H & _); congruence]].
    destruct (a_l2x a) as [l2x|], (lam2 K x tal) as [u2|]; try contradiction; [|split; [intros (d & H); discriminate|intros (_ & _ & H & _); congruence]]. cbn [of_option bind option_map].
    destruct approx as [|[|[|n]]].
    + destruct (M_Wf.l1 (pwf_as_ccsd (p_wf x))); [|split; [intros (d & H); discriminate|intros (_ & _ & _ & H); destruct (H eq_refl) as [H' _]; congruence]].
      destruct (M_Wf.l2 (pwf_as_ccsd (p_wf x))); [|split; [intros (d & H); discriminate|intros (_ & _ & _ & H); destruct (H eq_refl) as [_ H']; congruence]]. cbn [bind].
      split; [intros _; repeat split; congruence|eauto].
    + cbn [bind]. split; [intros _; repeat split; congruence|eauto].
    + split; [intros (d & H); discriminate|intros (H & _); congruence].
    + cbn [bind]. split; [intros _; repeat split; congruence|eauto].
Qed.
Definition dm1_given (emb : option mat) (w : with_dm1 K) : Prop := match w with WNo => True | WTrue => emb <> None | WArray _ => True end.
Theorem C61_available : forall (frags : list pfrag) tal st sd approx emb w out, Forall (projected K) (gfrags K frags) ->
  (exists m, rdm2_proj_lambda half nocc emb frags w tal st sd approx out = Ok m) <->
  (forall x, In x frags -> available tal approx x) /\ (w = WNo \/ (dm1_given emb w /\ (approx <= 1)%nat)).
Proof.
  intros frags tal st sd approx emb w out Hp. rewrite Forall_forall in Hp.
  assert (Px : forall x, In x frags -> projected K x) by (intros; apply Hp; apply in_map; auto).
  assert (A : (exists m, proj_dm2 half nocc frags tal st approx out = Ok m) <-> forall x, In x frags -> available tal approx x).
  { split.
    - intros (m & E) x Hx. pose proof (proj2_eq K half nocc frags tal st approx out) as Z. rewrite E in Z. destruct Z as (Z & _). apply (fragment_ok x tal st true approx out); auto.
    - intros H. destruct (proj2_ok K half nocc frags tal st approx out) as (m & E & _); [|eauto]. intros x Hx. apply fragment_ok; auto. }
  rewrite <- A. unfold rdm2_proj_lambda. destruct (proj_dm2 half nocc frags tal st approx out) as [m| | |]; cbn [bind];
    [|split; [intros (m & H); discriminate|intros ((m & H) & _); discriminate]..].
  assert (B : forall dm1 : mat, (exists m', match approx with 0%nat => Ok (add_product half dm1 m) | 1%nat => Ok (add_mean_field nocc dm1 m) | 2%nat => NotImplemented | _ => BadValue end = Ok m') <-> (approx <= 1)%nat).
  { intros dm1. destruct approx as [|[|[|n]]]; (split; [intros (m' & H); try discriminate; lia|intros; try lia; eauto]). }
  destruct w as [| |dm1]; cbn [dm1_given].
  - split; [intros _; split; [eauto|auto]|eauto].
  - destruct emb as [dm1|]; cbn [of_option bind].
    + rewrite B. split; [intros H; split; [eauto|right; split; [discriminate|auto]]|intros (_ & [H|(_ & H)]); [discriminate|auto]].
    + split; [intros (m' & H); discriminate|intros (_ & [H|(H & _)]); [discriminate|congruence]].
  - rewrite B. split; [intros H; split; [eauto|right; split; [exact I|auto]]|intros (_ & [H|(_ & H)]); [discriminate|auto]].
Qed.
(** ** Permutational symmetry *)
Definition perm_sym (n : nat) (d : ten) : Prop := forall p q r s, (p < n)%nat -> (q < n)%nat -> (r < n)%nat -> (s < n)%nat -> d p q r s = d r s p q /\ d p q r s = d q p s r.
Lemma avg4_sym n (d : ten) : perm_sym n (avg4 half d).
Proof. intros p q r s _ _ _ _. unfold avg4. split; ring. Qed.
Lemma product_sym (A B : mat) : (forall p q, A p q = A q p) -> (forall p q, B p q = B q p) -> forall p q r s, proj_product half A B p q r s = proj_product half A B r s p q /\ proj_product half A B p q r s = proj_product half A B q p s r.
Proof.
  intros SA SB p q r s. unfold proj_product. rewrite (SA q p), (SA s r), (SB q p), (SB s r), (SA r q), (SB r q), (SA s p), (SB s p). split; [ring|]. rewrite ?(SA r q), ?(SB r q), ?(SA s p), ?(SB s p). ring.
Qed.
Lemma fragment_sym (x : pfrag) tal st approx out d : is_mp2 x = false \/ st = true -> exch_sym (M_Wf.t2 (pwf_as_ccsd (p_wf x))) -> fragment_dm2c half x tal st true approx out = Ok d -> perm_sym (g_no x + g_nv x) d.
Proof.
  intros Hm Hs. unfold fragment_dm2c. destruct (is_mp2 x) eqn:Mx.
  - destruct Hm as [Hm| ->]; [discriminate|]. destruct (approx =? 1)%nat; [|discriminate]. unfold mp2_t2x. destruct (pwf_restore_sym half (g_pwf x) true) as [w|] eqn:Ew; [|discriminate]. cbn [option_map of_option bind]. intros E. injection E as <-.
    assert (Sy : exch_sym (M_Wf.t2 (pwf_as_ccsd w))).
    { unfold is_mp2 in Mx. destruct (g_pwf x) as [w'|n1 t [p|]]; [discriminate| |discriminate]. cbn [pwf_restore_sym] in Ew. injection Ew as <-. apply symm_c2. }
    intros p q r s Hp Hq Hr H4. destruct (shift_cases _ _ p Hp) as (f & a & -> & Ha). destruct (shift_cases _ _ q Hq) as (g & b & -> & Hb). destruct (shift_cases _ _ r Hr) as (h & c & -> & Hc). destruct (shift_cases _ _ s H4) as (k & e & -> & He).
    rewrite !(mp2_dm2_part (g_no x) (g_nv x)) by auto. unfold mp2_part. destruct f, g, h, k; try (split; reflexivity); (split; [|reflexivity]).
    + rewrite (Sy b e a c), (Sy b e c a). reflexivity.
    + rewrite (Sy a c b e), (Sy a c e b). reflexivity.
  - clear Hm. unfold proj_gamma2, fragment_dm1, proj_gamma1. destruct (amps_for_dm half x tal st) as [a|] eqn:Ea; [|discriminate]. destruct (a_l1x a) as [l1x|] eqn:El1; [|discriminate]. destruct (a_l2x a) as [l2x|] eqn:El; [|discriminate]. cbn [of_option bind option_map].
    match goal with |- context [bind ?z _] => destruct z as [d0| | |] eqn:E0 end; cbn [bind]; try discriminate. intros E. injection E as <-. destruct st; cbn [negb andb]; [|apply avg4_sym].
    pose proof (amps_sym x tal a l2x Ea El) as Sl.
    assert (A2 : a_t2 a = M_Wf.t2 (pwf_as_ccsd (p_wf x))) by (unfold amps_for_dm in Ea; destruct (option_map _ _); [|discriminate]; apply some_inj in Ea; subst a; reflexivity).
    rewrite A2 in E0. set (T2 := M_Wf.t2 (pwf_as_ccsd (p_wf x))) in *. set (g2 := pgamma2 half _ _ _ _ _ _ _ _) in E0.
    assert (G : perm_sym (g_no x + g_nv x) (make_rdm2_rhf (g_no x) g2 out)).
    { intros p q r s Hp Hq Hr H4. split; [|symmetry; symmetry; apply make_rdm2_herm].
      destruct (shift_cases _ _ p Hp) as (f & i & -> & Hi). destruct (shift_cases _ _ q Hq) as (g & j & -> & Hj). destruct (shift_cases _ _ r Hr) as (h & k & -> & Hk). destruct (shift_cases _ _ s H4) as (l & m & -> & Hm).
      rewrite !(make_rdm2_part (g_no x) (g_nv x)) by auto. destruct f, g, h, l; [exact (sw_vvvv half Hhalf (g_no x) (g_nv x) (a_t1 a) T2 l1x l2x Hs Sl i j k m)| | | | | | | | | | | | | | |exact (sw_oooo half Hhalf (g_no x) (g_nv x) (a_t1 a) T2 l1x l2x Hs Sl i j k m)]; cbn [part]; ring. }
    destruct approx as [|[|[|n]]]; [|injection E0 as <-; exact G|discriminate|injection E0 as <-; exact G].
    destruct (M_Wf.l1 _); [|discriminate]. destruct (M_Wf.l2 _); [|discriminate]. apply ok_inj in E0. subst d0. intros p q r s Hp Hq Hr H4. destruct (G p q r s Hp Hq Hr H4) as (G1 & G2).
    match goal with |- context [proj_product half ?A ?B p q r s] => destruct (product_sym A B ltac:(intros; apply C44_ccsd_symmetric) ltac:(intros; apply C44_ccsd_symmetric) p q r s) as (W1 & W2) end.
    rewrite <- G1, <- G2, <- W1, <- W2. split; reflexivity.
Qed.
(** Exchanging the electrons, or transposing both pairs of indices, does not change the matrix, for any clusters and options. *)
Theorem C61_symmetry : forall (frags : list pfrag) tal st sd approx emb w out m, Forall (projected K) (gfrags K frags) -> (forall x, In x frags -> is_mp2 x = false \/ st = true) ->
  (forall x, In x frags -> exch_sym (M_Wf.t2 (pwf_as_ccsd (p_wf x)))) -> (forall d, (w = WArray d \/ (w = WTrue /\ emb = Some d)) -> forall P Q, d P Q = d Q P) ->
  rdm2_proj_lambda half nocc emb frags w tal st sd approx out = Ok m -> perm_sym (nocc + nvir) m.
Proof.
  intros frags tal st sd approx emb w out m Hp Hm Hs Hd E. pose proof (proj2_eq K half nocc frags tal st approx out) as Z. unfold rdm2_proj_lambda in E.
  destruct (proj_dm2 half nocc frags tal st approx out) as [y| | |]; try discriminate. cbn [bind] in E. destruct Z as (Z0 & Z).
  assert (Y : perm_sym (nocc + nvir) y).
  { intros P Q R S HP HQ HR HS.
    assert (F : forall x c, In x frags -> In c (images x) -> lift_dm2 nocc x c (dm2_of K half x tal st true approx out) P Q R S = lift_dm2 nocc x c (dm2_of K half x tal st true approx out) R S P Q /\
       lift_dm2 nocc x c (dm2_of K half x tal st true approx out) P Q R S = lift_dm2 nocc x c (dm2_of K half x tal st true approx out) Q P S R).
    { intros x c Hx Hc. destruct (Z0 x Hx) as (d & Ed). assert (X := fragment_sym x tal st approx out d (Hm x Hx) (Hs x Hx) Ed). assert (Q1 : dm2_of K half x tal st true approx out = d) by (unfold dm2_of; rewrite Ed; reflexivity). rewrite Q1.
      destruct (lift2_perm K nocc x c d P Q R S) as (L1 & L2 & _). rewrite <- L1, <- L2. split; apply lift2_ext; intros; apply X; auto. }
    rewrite !Z. split; unfold allp; apply Lsum_ext; intros x Hx; apply Lsum_ext; intros c Hc; apply F; auto. }
  assert (A : forall dm1 : mat, (forall P Q, dm1 P Q = dm1 Q P) -> match approx with 0%nat => Ok (add_product half dm1 y) | 1%nat => Ok (add_mean_field nocc dm1 y) | 2%nat => NotImplemented | _ => BadValue end = Ok m -> perm_sym (nocc + nvir) m).
  { intros dm1 Sd X P Q R S HP HQ HR HS. destruct (Y P Q R S HP HQ HR HS) as (Y1 & Y2). destruct approx as [|[|[|n]]]; try discriminate; injection X as <-.
    - unfold add_product. rewrite <- Y1, <- Y2. rewrite (Sd Q P), (Sd S R), (Sd S P), (Sd R Q). split; [ring|]. rewrite ?(Sd Q S), ?(Sd P R), ?(Sd R Q), ?(Sd S P). ring.
    - rewrite !mean_field_entry. rewrite <- Y1, <- Y2. rewrite ?(Sd Q P), ?(Sd S R), ?(Sd S P), ?(Sd R Q), ?(occ_sym nocc Q P), ?(occ_sym nocc S R), ?(occ_sym nocc S P), ?(occ_sym nocc R Q). split; ring. }
  destruct w as [| |dm1]; [injection E as <-; exact Y| |].
  - destruct emb as [dm1|]; [|discriminate]. cbn [of_option bind] in E. apply (A dm1); auto.
  - apply (A dm1); auto.
Qed.
End Sys.

(** ** Cases *)
Section Cases.
Notation ten := (nat -> nat -> nat -> nat -> QK).
Lemma zero_mul (x : QK) : (0 * x)%K = 0%K.
Proof. cbn. ring. Qed.
Lemma is_ok {A} (o : outcome A) : match o with Ok _ => true | _ => false end = true -> exists d, o = Ok d.
Proof. destruct o; [eexists; reflexivity|discriminate..]. Qed.
Lemma ok_neq (o : outcome ten) m (f g : ten -> QK) : o = Ok m -> match o with Ok m => eqq (f m) (g m) | _ => true end = false -> f m <> g m.
Proof. intros -> H. now apply neqq. Qed.
Lemma xp_orth : orthonormal QK 2 2 (gfrags QK [xp]).
Proof. intros x c [<-|[]] Hc. apply two_orthonormal; [left; reflexivity|auto]. Qed.
Lemma xp_sym x : In x [xp] -> exch_sym QK (M_Wf.t2 (pwf_as_ccsd (p_wf x))).
Proof. intros [<-|[]] i j a b. cbn. rewrite (Nat.eqb_sym i j). reflexivity. Qed.
Lemma xp_cc : Forall (fun x => is_mp2 x = false) (gfrags QK [xp]).
Proof. repeat constructor. Qed.
(** A truncated cluster (both occupied, one of two virtual orbitals) and its copy by symmetry: partial traces and the number of pairs are exact. *)
Example C61_trace_case : exists dm1 dm2, proj_rdm1 qh 2 [xp] false true true = Some dm1 /\ rdm2_proj_lambda qh 2 None [xp] (WArray dm1) false true true 1 out0 = Ok dm2 /\
  (forall P Q, (P < 4)%nat -> (Q < 4)%nat -> Sum 4 (fun R => dm2 P Q R R) = (q 3 1 * dm1 P Q)%K /\ Sum 4 (fun R => dm2 P R R Q) = 0%K) /\
  dm1 0%nat 0%nat <> q 2 1 /\ dm1 0%nat 2%nat <> 0%K.
Proof.
  destruct (is_some (proj_rdm1 qh 2 [xp] false true true)) as (dm1 & E1); [vm_compute; reflexivity|].
  destruct (is_ok (rdm2_proj_lambda qh 2 None [xp] (WArray dm1) false true true 1 out0)) as (dm2 & E2); [vm_compute; reflexivity|].
  exists dm1, dm2. split; [auto|]. split; [auto|]. split; [|split; apply (some_neq _ dm1 _ _ _ E1); vm_compute; reflexivity].
  intros P Q HP HQ. split.
  - etransitivity; [exact (C61_trace QK qh qhh 2 2 [xp] false true None out0 dm1 dm2 xp_orth xp_cc xp_sym E1 E2 P Q HP HQ)|]. f_equal.
  - etransitivity; [exact (C61_exchange_trace QK qh qhh 2 2 [xp] false true None out0 dm1 dm2 xp_orth xp_cc xp_sym E1 E2 P Q HP HQ)|]. assert (Z : (two - nK 2)%K = (0%K : QK)) by (apply eqq_ok; vm_compute; reflexivity). rewrite Z. exact (zero_mul (dm1 P Q)).
Qed.
Example C61_pairs_case : forall st : bool, exists dm1 dm2, proj_rdm1 qh 2 [xp] false true st = Some dm1 /\ rdm2_proj_lambda qh 2 None [xp] (WArray dm1) false st true 1 out0 = Ok dm2 /\
  Sum 4 (fun P => Sum 4 (fun R => dm2 P P R R)) = q 12 1.
Proof.
  intros st. destruct (is_some (proj_rdm1 qh 2 [xp] false true st)) as (dm1 & E1); [destruct st; vm_compute; reflexivity|].
  destruct (is_ok (rdm2_proj_lambda qh 2 None [xp] (WArray dm1) false st true 1 out0)) as (dm2 & E2); [destruct st; vm_compute; reflexivity|].
  exists dm1, dm2. split; [auto|]. split; [auto|]. etransitivity; [exact (C61_pairs QK qh qhh 2 2 [xp] false st true None out0 dm1 dm2 xp_orth xp_cc xp_sym E1 E2)|]. apply eqq_ok; vm_compute; reflexivity.
Qed.
(** Finding: with the default with_dm1=True the one-particle matrix comes from emb.make_rdm1() (the global wave function) and the number of pairs is wrong for truncated clusters. *)
Theorem C61_default_dm1_refuted : ~ (forall (frags : list (pfrag QK)) dm2, orthonormal QK 2 2 (gfrags QK frags) -> Forall (fun x => is_mp2 x = false) (gfrags QK frags) ->
  (forall x, In x frags -> exch_sym QK (M_Wf.t2 (pwf_as_ccsd (p_wf x)))) ->
  rdm2_proj_lambda qh 2 (with_mean_field 2 (rdm1_slow qh 2 2 (gfrags QK frags) false true) true) frags WTrue false true true 1 out0 = Ok dm2 ->
  Sum 4 (fun P => Sum 4 (fun R => dm2 P P R R)) = q 12 1).
Proof.
  intros H. destruct (is_ok (rdm2_proj_lambda qh 2 (with_mean_field 2 (rdm1_slow qh 2 2 (gfrags QK [xp]) false true) true) [xp] WTrue false true true 1 out0)) as (dm2 & E); [vm_compute; reflexivity|].
  specialize (H [xp] dm2 xp_orth xp_cc xp_sym E). revert H. apply (ok_neq _ dm2 (fun dm2 => Sum 4 (fun P => Sum 4 (fun R => dm2 P P R R))) (fun _ => q 12 1) E). vm_compute. reflexivity.
Qed.
(** Finding: without symmetrisation of the amplitudes the partial traces fail, and so does the number of pairs for the non-approximate cumulant. *)
Definition nosym_trace (approx : nat) (st : bool) : Prop := forall (frags : list (pfrag QK)) dm1 dm2, orthonormal QK 2 2 (gfrags QK frags) -> Forall (fun x => is_mp2 x = false) (gfrags QK frags) ->
  (forall x, In x frags -> exch_sym QK (M_Wf.t2 (pwf_as_ccsd (p_wf x)))) -> proj_rdm1 qh 2 frags false true st = Some dm1 -> rdm2_proj_lambda qh 2 None frags (WArray dm1) false st true approx out0 = Ok dm2 ->
  forall P Q, (P < 4)%nat -> (Q < 4)%nat -> Sum 4 (fun R => dm2 P Q R R) = (q 3 1 * dm1 P Q)%K.
Definition chk_trace (P Q approx : nat) (st : bool) : bool := match proj_rdm1 qh 2 [xp] false true st with Some dm1 => match rdm2_proj_lambda qh 2 None [xp] (WArray dm1) false st true approx out0 with
  Ok dm2 => negb (eqq (Sum 4 (fun R => dm2 P Q R R)) (q 3 1 * dm1 P Q)%K) | _ => false end | None => false end.
Lemma chk_trace_ok P Q approx st : (P < 4)%nat -> (Q < 4)%nat -> chk_trace P Q approx st = true -> ~ nosym_trace approx st.
Proof.
  unfold chk_trace. intros HP HQ E H. destruct (proj_rdm1 qh 2 [xp] false true st) as [dm1|] eqn:E1; [|discriminate]. destruct (rdm2_proj_lambda qh 2 None [xp] (WArray dm1) false st true approx out0) as [dm2| | |] eqn:E2; try discriminate.
  specialize (H [xp] dm1 dm2 xp_orth xp_cc xp_sym E1 E2 P Q HP HQ). apply negb_true_iff in E. apply neqq in E. auto.
Qed.
Theorem C61_trace_refuted : ~ nosym_trace 1 false /\ ~ nosym_trace 0 true.
Proof. split; [apply (chk_trace_ok 0 2); [lia|lia|]|apply (chk_trace_ok 0 0); [lia|lia|]]; vm_compute; reflexivity. Qed.
(** MP2 fragments *)
Lemma yp_mp2 x : In x [yp] -> mp2_frag QK x.
Proof. intros [<-|[]]. do 3 eexists. reflexivity. Qed.
Example C61_mp2_case : forall tal sy, exists m m', rdm2_proj_lambda qh 2 None [yp] WNo tal true true 1 out0 = Ok m /\ rdm2_global qh 2 2 [yfrag] sy false false out0 = Ok m' /\
  (forall P Q R S, (P < 4)%nat -> (Q < 4)%nat -> (R < 4)%nat -> (S < 4)%nat -> m P Q R S = m' P Q R S) /\ m 1%nat 2%nat 1%nat 3%nat <> 0%K.
Proof.
  intros tal sy. destruct (C61_mp2 QK qh qhh 2 2 [yp] tal sy None true out0 yp_mp2) as (m & m' & E & E' & H). exists m, m'. split; [auto|]. split; [auto|]. split; [exact H|].
  apply (ok_neq _ m (fun m => m 1%nat 2%nat 1%nat 3%nat) (fun _ => 0%K) E). destruct tal; vm_compute; reflexivity.
Qed.
(** Finding: with t_as_lambda=True the two algorithms disagree for MP2 fragments: the global one uses (doubled) amplitudes as Lambda amplitudes, the projected one ignores the option. *)
Theorem C61_mp2_t_as_lambda_refuted : ~ (forall (frags : list (pfrag QK)) m m', (forall x, In x frags -> mp2_frag QK x) -> rdm2_proj_lambda qh 2 None frags WNo true true true 1 out0 = Ok m ->
  rdm2_global qh 2 2 (gfrags QK frags) true true false out0 = Ok m' -> m 1%nat 2%nat 1%nat 2%nat = m' 1%nat 2%nat 1%nat 2%nat).
Proof.
  intros H. destruct (is_ok (rdm2_proj_lambda qh 2 None [yp] WNo true true true 1 out0)) as (m & E); [vm_compute; reflexivity|]. destruct (is_ok (rdm2_global qh 2 2 (gfrags QK [yp]) true true false out0)) as (m' & E'); [vm_compute; reflexivity|].
  specialize (H [yp] m m' yp_mp2 E E'). revert H. apply neqq. set (b := match rdm2_proj_lambda qh 2 None [yp] WNo true true true 1 out0, rdm2_global qh 2 2 (gfrags QK [yp]) true true false out0 with Ok m, Ok m' => eqq (m 1%nat 2%nat 1%nat 2%nat) (m' 1%nat 2%nat 1%nat 2%nat) | _, _ => true end). assert (B : b = false) by (vm_compute; reflexivity). unfold b in B. rewrite E, E' in B. exact B.
Qed.
Lemma both_projected : Forall (projected QK) (gfrags QK [xp; yp]).
Proof. repeat constructor; [apply xfrag_projected; reflexivity|apply yfrag_projected]. Qed.
Example C61_symmetry_case : exists m, rdm2_proj_lambda qh 2 None [xp; yp] WNo false true true 1 out0 = Ok m /\ perm_sym QK 4 m /\ m 0%nat 2%nat 1%nat 3%nat <> 0%K /\ m 0%nat 2%nat 1%nat 3%nat <> m 2%nat 0%nat 1%nat 3%nat.
Proof.
  destruct (is_ok (rdm2_proj_lambda qh 2 None [xp; yp] WNo false true true 1 out0)) as (m & E); [vm_compute; reflexivity|]. exists m. split; [auto|]. split.
  - apply (C61_symmetry QK qh qhh 2 2 [xp; yp] false true true 1 None WNo out0 m both_projected); auto.
    + intros x [<-|[<-|[]]]; [apply xp_sym; left; reflexivity|]. intros i j a b. cbn. rewrite (Nat.eqb_sym a b). reflexivity.
    + intros d [X|(X & _)]; discriminate.
  - split; [apply (ok_neq _ m (fun m => m 0%nat 2%nat 1%nat 3%nat) (fun _ => 0%K) E)|apply (ok_neq _ m (fun m => m 0%nat 2%nat 1%nat 3%nat) (fun m => m 2%nat 0%nat 1%nat 3%nat) E)]; vm_compute; reflexivity.
Qed.
(** Finding: without symmetrisation the MP2 part is not symmetric under exchange of the two electrons; the argument sym_dm2 has no effect. *)
Definition wp : pfrag QK := {| p_frag := {| g_nf := 1; g_no := 2; g_nv := 1; g_cf := id2; g_pwf := PMP2 1 (M_Wf.t2 xwf) (Some xproj); g_tal := false; g_self := xself; g_children := [xchild] |}; p_wf := PMP2 2 (fun i j _ _ => if Nat.eqb i j then q 1 2 else q 1 5) None |}.
Theorem C61_mp2_symmetry_refuted : ~ (forall (frags : list (pfrag QK)) sd m, Forall (projected QK) (gfrags QK frags) -> (forall x, In x frags -> exch_sym QK (M_Wf.t2 (pwf_as_ccsd (p_wf x)))) ->
  rdm2_proj_lambda qh 2 None frags WNo false false sd 1 out0 = Ok m -> perm_sym QK 4 m).
Proof.
  intros H. destruct (is_ok (rdm2_proj_lambda qh 2 None [wp] WNo false false true 1 out0)) as (m & E); [vm_compute; reflexivity|].
  assert (P : Forall (projected QK) (gfrags QK [wp])).
  { repeat constructor. exists xproj. repeat split. intros k i _ _. cbn. unfold id2. rewrite Nat.eqb_sym. reflexivity. }
  specialize (H [wp] true m P). assert (S : forall x, In x [wp] -> exch_sym QK (M_Wf.t2 (pwf_as_ccsd (p_wf x)))) by (intros x [<-|[]] i j a b; cbn; rewrite (Nat.eqb_sym i j); reflexivity).
  destruct (H S E 0%nat 2%nat 1%nat 2%nat ltac:(lia) ltac:(lia) ltac:(lia) ltac:(lia)) as (X & _). revert X.
  apply (ok_neq _ m (fun m => m 0%nat 2%nat 1%nat 2%nat) (fun m => m 1%nat 2%nat 0%nat 2%nat) E). vm_compute. reflexivity.
Qed.
(** approx_cumulant=0 with MP2 fragments, =2, or Lambda amplitudes missing: an exception; an unknown value of approx_cumulant goes unnoticed without the one-particle part. *)
Example C61_available_case : (forall d, ~ exists m, rdm2_proj_lambda qh 2 None [xp; yp] (WArray d) false true true 0 out0 = Ok m) /\ (~ exists m, rdm2_proj_lambda qh 2 None [xp] WNo false true true 2 out0 = Ok m) /\
  (exists m, rdm2_proj_lambda qh 2 None [xp] WNo false true true 5 out0 = Ok m) /\ (forall d, ~ exists m, rdm2_proj_lambda qh 2 None [xp] (WArray d) false true true 5 out0 = Ok m) /\ (exists m, rdm2_proj_lambda qh 2 None [xp; yp] (WArray (fun _ _ => q 1 1)) false true true 1 out0 = Ok m).
Proof.
  assert (Px : Forall (projected QK) (gfrags QK [xp])) by (repeat constructor; apply xfrag_projected; reflexivity).
  split; [|split; [|split; [|split]]].
  - intros d H. apply (C61_available QK qh 2 [xp; yp] false true true 0 None (WArray d) out0 both_projected) in H. destruct H as (H & _). discriminate (H yp ltac:(right; left; reflexivity)).
  - intros H. apply (C61_available QK qh 2 [xp] false true true 2 None WNo out0 Px) in H. destruct H as (H & _). specialize (H xp ltac:(left; reflexivity)). cbn in H. apply (Logic.proj1 H). reflexivity.
  - apply (C61_available QK qh 2 [xp] false true true 5 None WNo out0 Px). split; [|left; reflexivity]. intros x [<-|[]]. cbn. repeat split; discriminate.
  - intros d H. apply (C61_available QK qh 2 [xp] false true true 5 None (WArray d) out0 Px) in H. destruct H as (_ & [H|(_ & H)]); [discriminate|lia].
  - apply (C61_available QK qh 2 [xp; yp] false true true 1 None (WArray _) out0 both_projected). split; [|right; split; [exact I|lia]]. intros x [<-|[<-|[]]]; cbn; repeat split; discriminate.
Qed.
End Cases.

Print Assumptions C61_trace.
Print Assumptions C61_exchange_trace.
Print Assumptions C61_pairs.
Print Assumptions C61_mp2.
Print Assumptions C61_available.
Print Assumptions C61_symmetry.
Print Assumptions C61_default_dm1_refuted.
Print Assumptions C61_trace_refuted.
Print Assumptions C61_mp2_t_as_lambda_refuted.
Print Assumptions C61_mp2_symmetry_refuted.
