(** C60, unrestricted: partial traces and symmetries of the unrestricted CCSD two-particle density matrices, and agreement with the restricted one for closed shells. *)
From Coq Require Import List Arith Bool Lia Ring ZArith QArith Qcanon.
From Verif Require Import Alg M_Wf M_Eris M_Rdm M_Gamma2 M_UGamma2 P_Eris P_Assemble P_Part2 P_Rdm P_Gamma2 Esum.
Import ListNotations.
Close Scope Q_scope. Close Scope Qc_scope. Close Scope Z_scope. Open Scope nat_scope.

Ltac uunf := cbn [part part_ss part_ab cc_gamma2 cc_gamma1 ucc_gamma1 ucc_gamma2 ugamma2_ss w_aa w_bb w_ovOV w_vvVV w_ooOO w_ooVV w_OOvv w_ovVO w_ovVV w_OVvv w_ooOV w_OOov
   d_ovov d_vvvv d_oooo d_oovv d_ovvo d_ovvv d_ooov g_oo g_ov g_vo g_vv];
  unfold tadd, topp, tconj, trev, texch, tswap, tsub, uscale, tr0213, tr0312, tr1203;
  unfold ugoovv, ugOOVV, ugoOvV, ugovvv, ugOVVV, ugoVvV, ugOvVv, ugooov, ugOOOV, ugoOoV, ugOoOv, ugovvo, ugOVVO, ugoVvO, ugOvVo, ugoVoV, ugOvOv,
    u_ijkl, u_IJKL, u_iJkL, u_ia, u_IA, u_cb, u_CB, u_kj, u_KJ, u_lj, u_LJ, u_db, u_DB, ugvvvv, ugvVvV, ugVVVV, ugoooo, ugoOoO, ugOOOO;
  unfold miajb, miaJB, mIAjb, mIAJB, miAjB, mIaJb, tauaa, tauab, taubb, quarter, eighth;
  unfold goovv, gvovv, gooov, gvvvv, gOvvO, govVO, mij, moo, mvv, mia, mab, goooo, tau', pvOOv, pvoOV, tau, symm, cc_theta, exch, two; cbv beta.

Section P.
Context {K : cring}.
Add Ring Kr : (rth K).
Open Scope K_scope.
Notation mat := (nat -> nat -> K).
Notation ten := (nat -> nat -> nat -> nat -> K).
Variable half : K.
Hypothesis Hhalf : half + half = 1.

Section Traces.
Context (n nv m mv : nat) (t1a t1b : mat) (t2aa t2ab t2bb : ten) (l1a l1b : mat) (l2aa l2ab l2bb : ten).
Hypothesis Ha : forall i j a b, t2aa i j a b = - t2aa j i a b.
Hypothesis Ha' : forall i j a b, t2aa i j a b = - t2aa i j b a.
Hypothesis Hb : forall i j a b, t2bb i j a b = - t2bb j i a b.
Hypothesis Hb' : forall i j a b, t2bb i j a b = - t2bb i j b a.
Hypothesis La : forall i j a b, l2aa i j a b = - l2aa j i a b.
Hypothesis La' : forall i j a b, l2aa i j a b = - l2aa i j b a.
Hypothesis Lb : forall i j a b, l2bb i j a b = - l2bb j i a b.
Hypothesis Lb' : forall i j a b, l2bb i j a b = - l2bb i j b a.
Notation d2 := (ucc_gamma2 half n nv m mv t1a t1b t2aa t2ab t2bb l1a l1b l2aa l2ab l2bb).
Notation d1a := (ucc_gamma1 half n nv m mv t1a t2aa t2ab l1a l1b l2aa l2ab).
Notation d1b := (ucc_gamma1 half m mv n nv t1b t2bb (exch t2ab) l1b l1a l2bb (exch l2ab)).
Ltac go ctx := uunf;
  pose proof (Forall2_cons _ _ (ok_none (w2 t1a)) (Forall2_cons _ _ (ok_none (w2 t1b)) (Forall2_cons _ _ (ok_anti t2aa Ha Ha') (Forall2_cons _ _ (ok_none (w4 t2ab)) (Forall2_cons _ _ (ok_anti t2bb Hb Hb')
   (Forall2_cons _ _ (ok_none (w2 l1a)) (Forall2_cons _ _ (ok_none (w2 l1b)) (Forall2_cons _ _ (ok_anti l2aa La La') (Forall2_cons _ _ (ok_none (w4 l2ab)) (Forall2_cons _ _ (ok_anti l2bb Lb Lb') (Forall2_nil _))))))))))) as S;
  esum Hhalf S [n; nv; m; mv] ctx.
Notation paa f1 f2 f3 f4 := (part_ss (w_aa d2) f1 f2 f3 f4).
Notation pab f1 f2 f3 f4 := (part_ab d2 f1 f2 f3 f4).

Lemma aa_oo i j : Sum n (fun k => paa false false false false i j k k) + Sum nv (fun c => paa false false true true i j c c) = symm (g_oo d1a) i j * half.
Proof. go [i; j]. Qed.
Lemma aa_ov i a : Sum n (fun k => paa false true false false i a k k) + Sum nv (fun c => paa false true true true i a c c) = 0.
Proof. go [i; a]. Qed.
Lemma aa_vv a b : Sum n (fun k => paa true true false false a b k k) + Sum nv (fun c => paa true true true true a b c c) = - symm (g_vv d1a) a b * half.
Proof. go [a; b]. Qed.
Lemma ab_oo i j : Sum m (fun k => pab false false false false i j k k) + Sum mv (fun c => pab false false true true i j c c) = 0.
Proof. go [i; j]. Qed.
Lemma ab_ov i a : Sum m (fun k => pab false true false false i a k k) + Sum mv (fun c => pab false true true true i a c c) = 0.
Proof. go [i; a]. Qed.
Lemma ab_vv a b : Sum m (fun k => pab true true false false a b k k) + Sum mv (fun c => pab true true true true a b c c) = 0.
Proof. go [a; b]. Qed.
Lemma ba_oo i j : Sum n (fun k => pab false false false false k k i j) + Sum nv (fun c => pab true true false false c c i j) = 0.
Proof. go [i; j]. Qed.
Lemma ba_ov i a : Sum n (fun k => pab false false false true k k i a) + Sum nv (fun c => pab true true false true c c i a) = 0.
Proof. go [i; a]. Qed.
Lemma ba_vv a b : Sum n (fun k => pab false false true true k k a b) + Sum nv (fun c => pab true true true true c c a b) = 0.
Proof. go [a; b]. Qed.
Notation pbb f1 f2 f3 f4 := (part_ss (w_bb d2) f1 f2 f3 f4).
Lemma bb_oo i j : Sum m (fun k => pbb false false false false i j k k) + Sum mv (fun c => pbb false false true true i j c c) = symm (g_oo d1b) i j * half.
Proof. go [i; j]. Qed.
Lemma bb_ov i a : Sum m (fun k => pbb false true false false i a k k) + Sum mv (fun c => pbb false true true true i a c c) = 0.
Proof. go [i; a]. Qed.
Lemma bb_vv a b : Sum m (fun k => pbb true true false false a b k k) + Sum mv (fun c => pbb true true true true a b c c) = - symm (g_vv d1b) a b * half.
Proof. go [a; b]. Qed.
Lemma aa_anti f g h k p q r s : paa f g h k p q r s = - paa f k h g p s r q.
Proof. destruct f, g, h, k; go [p; q; r; s]. Qed.
Lemma aa_swap f g h k p q r s : paa f g h k p q r s = paa h k f g r s p q.
Proof. destruct f, g, h, k; go [p; q; r; s]. Qed.
Lemma aa_herm f g h k p q r s : paa f g h k p q r s = paa g f k h q p s r.
Proof. destruct f, g, h, k; go [p; q; r; s]. Qed.
Lemma bb_anti f g h k p q r s : pbb f g h k p q r s = - pbb f k h g p s r q.
Proof. destruct f, g, h, k; go [p; q; r; s]. Qed.
Lemma bb_swap f g h k p q r s : pbb f g h k p q r s = pbb h k f g r s p q.
Proof. destruct f, g, h, k; go [p; q; r; s]. Qed.
Lemma bb_herm f g h k p q r s : pbb f g h k p q r s = pbb g f k h q p s r.
Proof. destruct f, g, h, k; go [p; q; r; s]. Qed.
Lemma ab_herm f g h k p q r s : pab f g h k p q r s = pab g f k h q p s r.
Proof. destruct f, g, h, k; go [p; q; r; s]. Qed.

(** The matrices a user gets: make_rdm1() and make_rdm2() *)
Notation dm1a := (ucc_rdm1 half n d1a true).
Notation dm1b := (ucc_rdm1 half m d1b true).
Notation ca := (ucc_rdm1 half n d1a false).
Notation cb := (ucc_rdm1 half m d1b false).
Notation dm2 oa oab ob := (uccsd_make_rdm2 half n nv m mv t1a t1b t2aa t2ab t2bb l1a l1b l2aa l2ab l2bb oa oab ob true).
Lemma entry_aa oa oab ob p q r s : P_Rdm.paa (dm2 oa oab ob) p q r s =
  make_rdm2_ss n (w_aa d2) oa p q r s + product_ss dm1a p q r s - product_ss ca p q r s.
Proof. unfold uccsd_make_rdm2, ucc_gamma1_ab, ucc_rdm2, P_Rdm.paa. cbn [fst snd]. apply add_ss. Qed.
Lemma entry_bb oa oab ob p q r s : P_Rdm.pbb (dm2 oa oab ob) p q r s =
  make_rdm2_ss m (w_bb d2) ob p q r s + product_ss dm1b p q r s - product_ss cb p q r s.
Proof. unfold uccsd_make_rdm2, ucc_gamma1_ab, ucc_rdm2, P_Rdm.pbb. cbn [fst snd]. apply add_ss. Qed.
Lemma entry_ab oa oab ob p q r s : P_Rdm.pab (dm2 oa oab ob) p q r s =
  make_rdm2_ab n m d2 oab p q r s + product_ab dm1a dm1b p q r s - product_ab ca cb p q r s.
Proof.
  pose proof (C45_unrestricted half n m d1a d1b d2 oa oab ob p q r s) as (_ & X & _ & _ & Y & _). cbv zeta in X, Y.
  unfold uccsd_make_rdm2, ucc_gamma1_ab. cbn [uccsd_rdm2] in X. rewrite X.
  assert (Z : make_rdm2_ab n m d2 oab p q r s = P_Rdm.pab (uccsd_rdm2 half n m d1a d1b d2 oa oab ob Exact) p q r s + product_ab ca cb p q r s) by exact Y.
  cbn [uccsd_rdm2] in Z. rewrite Z. ring.
Qed.
Lemma uc_part nn nnv (d : gamma1 K) f g a b : (a < sz nn nnv f)%nat -> (b < sz nn nnv g)%nat -> ucc_rdm1 half nn d false (shift nn f a) (shift nn g b) =
  match f, g with
  | false, false => symm (g_oo d) a b
  | false, true => g_ov d a b + g_vo d b a
  | true, false => g_ov d b a + g_vo d a b
  | true, true => symm (g_vv d) a b
  end * half.
Proof.
  intros A B. unfold ucc_rdm1. destruct f, g; cbn [shift sz] in *.
  - rewrite blocks_vv. reflexivity.
  - rewrite (blocks_sym nn) by (auto using symm_sym). rewrite blocks_ov by auto. reflexivity.
  - rewrite blocks_ov by auto. reflexivity.
  - rewrite blocks_oo by auto. reflexivity.
Qed.
Lemma ltb_shift f a : (a < sz n nv f)%nat -> (shift n f a <? n)%nat = negb f.
Proof. destruct f; cbn [shift sz negb]; intros; [apply Nat.ltb_ge; lia|apply Nat.ltb_lt; auto]. Qed.
Lemma ltb_shift' f a : (a < sz m mv f)%nat -> (shift m f a <? m)%nat = negb f.
Proof. destruct f; cbn [shift sz negb]; intros; [apply Nat.ltb_ge; lia|apply Nat.ltb_lt; auto]. Qed.
Lemma direct_aa oa p q : (p < n + nv)%nat -> (q < n + nv)%nat ->
  Sum (n + nv) (fun r => make_rdm2_ss n (w_aa d2) oa p q r r) = ((if (p <? n)%nat then 1 else 0) + (if (q <? n)%nat then 1 else 0) - 1) * ca p q.
Proof.
  intros Hp Hq. destruct (shift_cases n nv p Hp) as (f & a & -> & A). destruct (shift_cases n nv q Hq) as (g & b & -> & B).
  rewrite Sum_sz. rewrite (Sum_ext n _ (fun k => paa g f false false b a k k)), (Sum_ext nv _ (fun k => paa g f true true b a k k))
    by (intros; apply (make_rdm2_ss_part n nv); auto).
  rewrite (uc_part n nv) by auto. rewrite !ltb_shift by auto. destruct f, g; cbn [negb].
  - rewrite aa_vv, (symm_sym _ b a). ring.
  - rewrite aa_ov. ring.
  - transitivity (0 : K); [rewrite <- (aa_ov a b); reflexivity|ring].
  - rewrite aa_oo, (symm_sym _ b a). ring.
Qed.
Lemma direct_bb ob p q : (p < m + mv)%nat -> (q < m + mv)%nat ->
  Sum (m + mv) (fun r => make_rdm2_ss m (w_bb d2) ob p q r r) = ((if (p <? m)%nat then 1 else 0) + (if (q <? m)%nat then 1 else 0) - 1) * cb p q.
Proof.
  intros Hp Hq. destruct (shift_cases m mv p Hp) as (f & a & -> & A). destruct (shift_cases m mv q Hq) as (g & b & -> & B).
  rewrite Sum_sz. rewrite (Sum_ext m _ (fun k => pbb g f false false b a k k)), (Sum_ext mv _ (fun k => pbb g f true true b a k k))
    by (intros; apply (make_rdm2_ss_part m mv); auto).
  rewrite (uc_part m mv) by auto. rewrite !ltb_shift' by auto. destruct f, g; cbn [negb].
  - rewrite bb_vv, (symm_sym _ b a). ring.
  - rewrite bb_ov. ring.
  - transitivity (0 : K); [rewrite <- (bb_ov a b); reflexivity|ring].
  - rewrite bb_oo, (symm_sym _ b a). ring.
Qed.
Lemma direct_ab oab p q : (p < n + nv)%nat -> (q < n + nv)%nat -> Sum (m + mv) (fun r => make_rdm2_ab n m d2 oab p q r r) = 0.
Proof.
  intros Hp Hq. destruct (shift_cases n nv p Hp) as (f & a & -> & A). destruct (shift_cases n nv q Hq) as (g & b & -> & B).
  rewrite Sum_sz. rewrite (Sum_ext m _ (fun k => pab g f false false b a k k)), (Sum_ext mv _ (fun k => pab g f true true b a k k))
    by (intros; apply (make_rdm2_ab_part n nv m mv); auto).
  destruct f, g.
  - apply ab_vv.
  - apply ab_ov.
  - rewrite <- (ab_ov a b). reflexivity.
  - apply ab_oo.
Qed.
Lemma direct_ba oab p q : (p < m + mv)%nat -> (q < m + mv)%nat -> Sum (n + nv) (fun r => make_rdm2_ab n m d2 oab r r p q) = 0.
Proof.
  intros Hp Hq. destruct (shift_cases m mv p Hp) as (f & a & -> & A). destruct (shift_cases m mv q Hq) as (g & b & -> & B).
  rewrite Sum_sz. rewrite (Sum_ext n _ (fun k => pab false false g f k k b a)), (Sum_ext nv _ (fun k => pab true true g f k k b a))
    by (intros; apply (make_rdm2_ab_part n nv m mv); auto).
  destruct f, g.
  - apply ba_vv.
  - apply ba_ov.
  - rewrite <- (ba_ov a b). reflexivity.
  - apply ba_oo.
Qed.
Lemma occ_out N p q : (p <? N)%nat = false -> occ (K := K) N p q = 0 /\ occ (K := K) N q p = 0.
Proof. intros E. split; [|rewrite occ_sym]; unfold occ; rewrite E, andb_false_r; reflexivity. Qed.
Lemma ss_trace N Nv (d : gamma1 K) (x : ten) p q : (p < N + Nv)%nat -> (q < N + Nv)%nat -> trace (N + Nv) (ucc_rdm1 half N d false) = 0 ->
  Sum (N + Nv) (fun r => x p q r r) = ((if (p <? N)%nat then 1 else 0) + (if (q <? N)%nat then 1 else 0) - 1) * ucc_rdm1 half N d false p q ->
  Sum (N + Nv) (fun r => x p q r r + product_ss (ucc_rdm1 half N d true) p q r r - product_ss (ucc_rdm1 half N d false) p q r r) = (nK N - 1) * ucc_rdm1 half N d true p q.
Proof.
  intros Hp Hq T E. set (c := ucc_rdm1 half N d false) in *.
  rewrite (Sum_ext _ _ (fun r => x p q r r + occ N p q * c r r + c p q * occ N r r + occ N p q * occ N r r - occ N p r * c r q - occ N q r * c p r - occ N p r * occ N q r))
    by (intros r _; unfold product_ss; rewrite !ucc_rdm1_mf; fold c; rewrite (occ_sym N r q); ring).
  rewrite ?Sum_add, ?Sum_sub, ?Sum_add, ?Sum_sub, ?Sum_add, ?Sum_sub, ?Sum_add, !Sum_mul_l, E.
  unfold trace in T. rewrite T, (Sum_occ_diag N Nv), !(Sum_occ_l N Nv) by auto. rewrite ucc_rdm1_mf. fold c. rewrite (occ_sym N q p).
  destruct (p <? N)%nat eqn:Ep; [|rewrite (Logic.proj1 (occ_out N p q Ep))]; (destruct (q <? N)%nat eqn:Eq; [|rewrite ?(Logic.proj2 (occ_out N q p Eq))]); ring.
Qed.
(** Contracting the indices of one electron counts the remaining electrons of that spin. *)
Theorem C60_unrestricted_trace : forall oa oab ob p q,
  let D := dm2 oa oab ob in
  ((p < n + nv)%nat -> (q < n + nv)%nat -> Sum (n + nv) (fun r => P_Rdm.paa D p q r r) = (nK n - 1) * dm1a p q /\ Sum (m + mv) (fun r => P_Rdm.pab D p q r r) = nK m * dm1a p q) /\
  ((p < m + mv)%nat -> (q < m + mv)%nat -> Sum (m + mv) (fun r => P_Rdm.pbb D p q r r) = (nK m - 1) * dm1b p q /\ Sum (n + nv) (fun r => P_Rdm.pab D r r p q) = nK n * dm1b p q).
Proof.
  intros oa oab ob p q D. subst D.
  destruct (C44_uccsd_electrons half Hhalf n nv m mv t1a t1b t2aa t2ab t2bb l1a l1b l2aa l2ab l2bb d1a d1b eq_refl) as (Ta & Tb & Za & Zb & _).
  split; intros Hp Hq; split.
  - rewrite (Sum_ext _ _ _ (fun r _ => entry_aa oa oab ob p q r r)). apply ss_trace; auto using direct_aa.
  - rewrite (Sum_ext _ _ _ (fun r _ => entry_ab oa oab ob p q r r)). rewrite Sum_sub, Sum_add, direct_ab by auto. unfold product_ab. rewrite !Sum_mul_l.
    unfold trace in Tb, Zb. rewrite Tb, Zb. ring.
  - rewrite (Sum_ext _ _ _ (fun r _ => entry_bb oa oab ob p q r r)). apply ss_trace; auto using direct_bb.
  - rewrite (Sum_ext _ _ _ (fun r _ => entry_ab oa oab ob r r p q)). rewrite Sum_sub, Sum_add, direct_ba by auto. unfold product_ab. rewrite !Sum_mul_r.
    unfold trace in Ta, Za. rewrite Ta, Za. ring.
Qed.
(** Exchange of the two electrons, antisymmetry, and transposition *)
Lemma product_anti (d : mat) p q r s : product_ss d p q r s = - product_ss d p s r q.
Proof. unfold product_ss. ring. Qed.
Lemma ss_sym N Nv (d : dm2i K) out (c t : mat) : (forall p q, c p q = c q p) -> (forall p q, t p q = t q p) ->
  (forall f g h k p q r s, part_ss d f g h k p q r s = - part_ss d f k h g p s r q) -> (forall f g h k p q r s, part_ss d f g h k p q r s = part_ss d h k f g r s p q) ->
  (forall f g h k p q r s, part_ss d f g h k p q r s = part_ss d g f k h q p s r) ->
  forall p q r s, (p < N + Nv)%nat -> (q < N + Nv)%nat -> (r < N + Nv)%nat -> (s < N + Nv)%nat ->
  let D : ten := fun p q r s => make_rdm2_ss N d out p q r s + product_ss t p q r s - product_ss c p q r s in
  D p q r s = - D p s r q /\ D p q r s = D r s p q /\ D p q r s = D q p s r.
Proof.
  intros Sc St H1 H2 H3 p q r s Hp Hq Hr Hs D. subst D. cbv beta. unfold product_ss.
  destruct (shift_cases N Nv p Hp) as (f & a & -> & A). destruct (shift_cases N Nv q Hq) as (g & b & -> & B).
  destruct (shift_cases N Nv r Hr) as (h & e & -> & E). destruct (shift_cases N Nv s Hs) as (k & x & -> & X).
  rewrite !(make_rdm2_ss_part N Nv) by auto. repeat split.
  - rewrite (H2 g f k h b a x e), (H1 k h g f). ring.
  - rewrite (H2 g f k h b a x e). ring.
  - rewrite (H3 g f k h b a x e). rewrite !(Sc (shift N g b) (shift N f a)), !(Sc (shift N k x) (shift N h e)), !(Sc (shift N k x) (shift N f a)), !(Sc (shift N h e) (shift N g b)).
    rewrite !(St (shift N g b) (shift N f a)), !(St (shift N k x) (shift N h e)), !(St (shift N k x) (shift N f a)), !(St (shift N h e) (shift N g b)). ring.
Qed.
Theorem C60_unrestricted_symmetry : forall oa oab ob p q r s,
  let D := dm2 oa oab ob in
  ((p < n + nv)%nat -> (q < n + nv)%nat -> (r < n + nv)%nat -> (s < n + nv)%nat ->
   P_Rdm.paa D p q r s = - P_Rdm.paa D p s r q /\ P_Rdm.paa D p q r s = P_Rdm.paa D r s p q /\ P_Rdm.paa D p q r s = P_Rdm.paa D q p s r) /\
  ((p < m + mv)%nat -> (q < m + mv)%nat -> (r < m + mv)%nat -> (s < m + mv)%nat ->
   P_Rdm.pbb D p q r s = - P_Rdm.pbb D p s r q /\ P_Rdm.pbb D p q r s = P_Rdm.pbb D r s p q /\ P_Rdm.pbb D p q r s = P_Rdm.pbb D q p s r) /\
  ((p < n + nv)%nat -> (q < n + nv)%nat -> (r < m + mv)%nat -> (s < m + mv)%nat -> P_Rdm.pab D p q r s = P_Rdm.pab D q p s r).
Proof.
  intros oa oab ob p q r s D. subst D. split; [|split]; intros Hp Hq Hr Hs.
  - rewrite !entry_aa. apply (ss_sym n nv); auto using aa_anti, aa_swap, aa_herm; intros; apply C44_uccsd_symmetric.
  - rewrite !entry_bb. apply (ss_sym m mv); auto using bb_anti, bb_swap, bb_herm; intros; apply C44_uccsd_symmetric.
  - rewrite !entry_ab. unfold product_ab.
    rewrite (C44_uccsd_symmetric half n d1a true q p), (C44_uccsd_symmetric half n d1a false q p), (C44_uccsd_symmetric half m d1b true s r), (C44_uccsd_symmetric half m d1b false s r).
    destruct (shift_cases n nv p Hp) as (f & a & -> & A). destruct (shift_cases n nv q Hq) as (g & b & -> & B).
    destruct (shift_cases m mv r Hr) as (h & e & -> & E). destruct (shift_cases m mv s Hs) as (k & x & -> & X).
    rewrite !(make_rdm2_ab_part n nv m mv) by auto. rewrite (ab_herm g f k h). reflexivity.
Qed.
End Traces.

Section Closed.
Context (n nv : nat) (t1 : mat) (t2 : ten) (l1 : mat) (l2 : ten).
Hypothesis Ht : forall i j a b, t2 i j a b = t2 j i b a.
Hypothesis Hl : forall i j a b, l2 i j a b = l2 j i b a.
Definition anti (x : ten) : ten := fun i j a b => x i j a b - x i j b a.
Notation d2 := (cc_gamma2 half n nv t1 t2 l1 l2).
Notation e2 := (ucc_gamma2 half n nv n nv t1 t1 (anti t2) t2 (anti t2) l1 l1 (anti l2) l2 (anti l2)).
Ltac go ctx := uunf; unfold anti;
  pose proof (Forall2_cons _ _ (ok_none (w2 t1)) (Forall2_cons _ _ (ok_pair t2 Ht) (Forall2_cons _ _ (ok_none (w2 l1)) (Forall2_cons _ _ (ok_pair l2 Hl) (Forall2_nil _))))) as S;
  esum Hhalf S [n; nv] ctx.
Lemma closed_part f g h k p q r s : part d2 f g h k p q r s =
  part_ss (w_aa e2) f g h k p q r s + part_ss (w_bb e2) f g h k p q r s + part_ab e2 f g h k p q r s + part_ab e2 h k f g r s p q.
Proof. destruct f, g, h, k; go [p; q; r; s]. Qed.

(** For a closed shell the restricted matrix is the sum over the spins of the unrestricted ones. *)
Theorem C60_closed_shell : forall out oa oab ob p q r s, (p < n + nv)%nat -> (q < n + nv)%nat -> (r < n + nv)%nat -> (s < n + nv)%nat ->
  let D := uccsd_make_rdm2 half n nv n nv t1 t1 (anti t2) t2 (anti t2) l1 l1 (anti l2) l2 (anti l2) oa oab ob true in
  ccsd_make_rdm2 half n nv t1 t2 l1 l2 out true p q r s = paa D p q r s + pbb D p q r s + pab D p q r s + pab D r s p q.
Proof.
  intros out oa oab ob p q r s Hp Hq Hr Hs D. subst D. rewrite entry_aa, entry_bb, !entry_ab. unfold ccsd_make_rdm2. rewrite full_entry.
  assert (Y : forall p q, (p < n + nv)%nat -> (q < n + nv)%nat -> cc_rdm1 n (cc_gamma1 n nv t1 t2 l1 l2) false p q =
    ucc_rdm1 half n (ucc_gamma1 half n nv n nv t1 (anti t2) t2 l1 l1 (anti l2) l2) false p q + ucc_rdm1 half n (ucc_gamma1 half n nv n nv t1 (anti t2) (exch t2) l1 l1 (anti l2) (exch l2)) false p q).
  { intros u v Hu Hv. apply (C44_closed_shell half Hhalf n nv t1 t2 l1 l2); auto; try reflexivity; intros i j a b; auto. }
  rewrite !Y by auto. set (A := ucc_gamma1 half n nv n nv t1 (anti t2) t2 l1 l1 (anti l2) l2). set (B := ucc_gamma1 half n nv n nv t1 (anti t2) (exch t2) l1 l1 (anti l2) (exch l2)).
  unfold product_ss, product_ab. rewrite !ucc_rdm1_mf.
  assert (E : make_rdm2_rhf n d2 out p q r s = make_rdm2_ss n (w_aa e2) oa p q r s + make_rdm2_ss n (w_bb e2) ob p q r s + make_rdm2_ab n n e2 oab p q r s + make_rdm2_ab n n e2 oab r s p q).
  { rewrite make_rdm2_herm. destruct (shift_cases n nv p Hp) as (f & a & -> & Ap). destruct (shift_cases n nv q Hq) as (g & b & -> & Bq).
    destruct (shift_cases n nv r Hr) as (h & e & -> & Er). destruct (shift_cases n nv s Hs) as (k & x & -> & Xs).
    rewrite (make_rdm2_part n nv), !(make_rdm2_ss_part n nv), !(make_rdm2_ab_part n nv n nv) by auto. apply closed_part. }
  rewrite E. rewrite (occ_sym n q r), (C44_uccsd_symmetric half n A false q r), (C44_uccsd_symmetric half n B false q r). unfold two. ring.
Qed.
End Closed.
End P.
