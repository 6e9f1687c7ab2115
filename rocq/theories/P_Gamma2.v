(** C60: partial traces and symmetries of the CCSD two-particle density matrix. *)
From Coq Require Import List Arith Bool Lia Ring ZArith QArith Qcanon.
From Verif Require Import Alg M_Wf M_Eris M_Rdm M_Gamma2 P_Eris P_Assemble P_Part2 P_Rdm Esum.
Import ListNotations.
Close Scope Q_scope. Close Scope Qc_scope. Close Scope Z_scope. Open Scope nat_scope.

Section P.
Context {K : cring}.
Add Ring Kr : (rth K).
Open Scope K_scope.
Notation mat := (nat -> nat -> K).
Notation ten := (nat -> nat -> nat -> nat -> K).
Variable half : K.
Hypothesis Hhalf : half + half = 1.
Context (n nv : nat) (t1 : mat) (t2 : ten) (l1 : mat) (l2 : ten).
Hypothesis Ht : forall i j a b, t2 i j a b = t2 j i b a.
Hypothesis Hl : forall i j a b, l2 i j a b = l2 j i b a.
Notation d2 := (cc_gamma2 half n nv t1 t2 l1 l2).
Notation d1 := (cc_gamma1 n nv t1 t2 l1 l2).

Ltac unf := unfold goovv, gvovv, gooov, gvvvv, gOvvO, govVO, mij, moo, mvv, mia, mab, goooo, tau', pvOOv, pvoOV, tau, symm, cc_theta, two; cbv beta.
Ltac go ctx := cbn [part cc_gamma2 cc_gamma1 d_ovov d_vvvv d_oooo d_oovv d_ovvo d_ovvv d_ooov g_oo g_ov g_vo g_vv]; unf;
  pose proof (Forall2_cons _ _ (ok_none (w2 t1)) (Forall2_cons _ _ (ok_pair t2 Ht) (Forall2_cons _ _ (ok_none (w2 l1)) (Forall2_cons _ _ (ok_pair l2 Hl) (Forall2_nil _))))) as S;
  esum Hhalf S [n; nv] ctx.

(** Direct trace by blocks *)
Lemma tr_oo i j : Sum n (fun k => part d2 false false false false i j k k) + Sum nv (fun c => part d2 false false true true i j c c) = symm (g_oo d1) i j.
Proof. go [i; j]. Qed.
Lemma tr_ov i a : Sum n (fun k => part d2 false true false false i a k k) + Sum nv (fun c => part d2 false true true true i a c c) = 0.
Proof. go [i; a]. Qed.
Lemma tr_vv a b : Sum n (fun k => part d2 true true false false a b k k) + Sum nv (fun c => part d2 true true true true a b c c) = - symm (g_vv d1) a b.
Proof. go [a; b]. Qed.
(** Exchange trace by blocks *)
Lemma tx_oo i j : Sum n (fun k => part d2 false false false false i k k j) + Sum nv (fun c => part d2 false true true false i c c j) = - two * symm (g_oo d1) i j.
Proof. go [i; j]. Qed.
Lemma tx_ov i a : Sum n (fun k => part d2 false false false true i k k a) + Sum nv (fun c => part d2 false true true true i c c a) = 0.
Proof. go [i; a]. Qed.
Lemma tx_vv a b : Sum n (fun k => part d2 true false false true a k k b) + Sum nv (fun c => part d2 true true true true a c c b) = two * symm (g_vv d1) a b.
Proof. go [a; b]. Qed.
Lemma sw_vvvv a b c d : part d2 true true true true a b c d = part d2 true true true true c d a b.
Proof. go [a; b; c; d]. Qed.
Lemma sw_oooo i j k l : part d2 false false false false i j k l = part d2 false false false false k l i j.
Proof. go [i; j; k; l]. Qed.

(** The two matrices a user gets: make_rdm1() and make_rdm2() *)
Notation dm1 := (cc_rdm1 n d1 true).
Notation dm2 out := (ccsd_make_rdm2 half n nv t1 t2 l1 l2 out true).
Notation dc := (cc_rdm1 n d1 false).

Lemma full_entry (e1 : gamma1 K) (e2 : dm2i K) out p q r s : cc_rdm2 n e1 e2 out true p q r s =
  make_rdm2_rhf n e2 out p q r s + two * occ n p q * cc_rdm1 n e1 false r s + two * occ n r s * cc_rdm1 n e1 false p q
  - occ n p s * cc_rdm1 n e1 false q r - occ n q r * cc_rdm1 n e1 false p s + (two + two) * occ n p q * occ n r s - two * occ n p s * occ n q r.
Proof.
  unfold cc_rdm2. unfold tconj at 1. unfold cc_add_dm1. cbv zeta. rewrite loop_iijj, loop4. unfold mtrans. rewrite !add_diag_occ, !(cc_rdm1_mf n e1).
  unfold mf_dm1, tconj.
  assert (Sc : forall p q, cc_rdm1 n e1 false p q = cc_rdm1 n e1 false q p) by (intros; apply C44_ccsd_symmetric).
  rewrite ?(Sc q p), ?(Sc s r), ?(Sc s p), ?(Sc r q), ?(occ_sym n q p), ?(occ_sym n s r), ?(occ_sym n r q), ?(occ_sym n s p). ring.
Qed.
Lemma Sum_occ_l p (f : nat -> K) : (p < n + nv)%nat -> Sum (n + nv) (fun r => occ n p r * f r) = if (p <? n)%nat then f p else 0.
Proof.
  intros Hp. destruct (Nat.ltb_spec p n) as [H|H].
  - rewrite (Sum_single _ p) by (auto; intros r _ Hr; unfold occ; replace (p =? r)%nat with false by (symmetry; apply Nat.eqb_neq; auto); cbn [andb]; ring).
    rewrite occ_diag by auto. ring.
  - apply Sum_0. intros r _. unfold occ. replace (p <? n)%nat with false by (symmetry; apply Nat.ltb_ge; auto). rewrite andb_false_r. ring.
Qed.
Lemma Sum_occ_diag : Sum (n + nv) (fun r => occ (K := K) n r r) = nK n.
Proof.
  rewrite Sum_split. rewrite (Sum_ext n _ (fun _ => 1)) by (intros; apply occ_diag; auto). rewrite Sum_const.
  rewrite (Sum_0 nv) by (intros; apply occ_vir). ring.
Qed.
Lemma dc_trace : Sum (n + nv) (fun r => dc r r) = 0.
Proof.
  exact (proj1 (proj2 (C44_ccsd_electrons n nv t1 t2 l1 l2))).
Qed.
Lemma dc_part f g a b : (a < sz n nv f)%nat -> (b < sz n nv g)%nat -> dc (shift n f a) (shift n g b) =
  match f, g with
  | false, false => symm (g_oo d1) a b
  | false, true => g_ov d1 a b + g_vo d1 b a
  | true, false => g_ov d1 b a + g_vo d1 a b
  | true, true => symm (g_vv d1) a b
  end.
Proof.
  intros Ha Hb. unfold cc_rdm1. destruct f, g; cbn [shift sz] in *.
  - rewrite blocks_vv. reflexivity.
  - rewrite (blocks_sym n) by (auto using symm_sym). rewrite blocks_ov by auto. reflexivity.
  - rewrite blocks_ov by auto. reflexivity.
  - rewrite blocks_oo by auto. reflexivity.
Qed.
Notation Cu out := (make_rdm2_rhf n d2 out).
Lemma direct out p q : (p < n + nv)%nat -> (q < n + nv)%nat ->
  Sum (n + nv) (fun r => Cu out p q r r) = ((if (p <? n)%nat then 1 else 0) + (if (q <? n)%nat then 1 else 0) - 1) * dc p q.
Proof.
  intros Hp Hq. destruct (shift_cases n nv p Hp) as (f & a & -> & Ha). destruct (shift_cases n nv q Hq) as (g & b & -> & Hb).
  rewrite Sum_sz. rewrite (Sum_ext n _ (fun k => part d2 f g false false a b k k)), (Sum_ext nv _ (fun k => part d2 f g true true a b k k))
    by (intros; apply (make_rdm2_part n nv); auto).
  rewrite dc_part by auto.
  assert (L : forall x, (n + x <? n)%nat = false) by (intros; apply Nat.ltb_ge; lia).
  destruct f, g; cbn [shift sz] in *; rewrite ?L; try (apply Nat.ltb_lt in Ha; rewrite Ha); try (apply Nat.ltb_lt in Hb; rewrite Hb).
  - rewrite tr_vv. ring.
  - transitivity (0 : K); [|ring]. rewrite <- (tr_ov b a). reflexivity.
  - rewrite tr_ov. ring.
  - rewrite tr_oo. ring.
Qed.
Lemma exchange out p q : (p < n + nv)%nat -> (q < n + nv)%nat ->
  Sum (n + nv) (fun r => Cu out p r r q) = (two - two * (if (p <? n)%nat then 1 else 0) - two * (if (q <? n)%nat then 1 else 0)) * dc p q.
Proof.
  intros Hp Hq. destruct (shift_cases n nv p Hp) as (f & a & -> & Ha). destruct (shift_cases n nv q Hq) as (g & b & -> & Hb).
  rewrite Sum_sz. rewrite (Sum_ext n _ (fun k => part d2 f false false g a k k b)), (Sum_ext nv _ (fun k => part d2 f true true g a k k b))
    by (intros; apply (make_rdm2_part n nv); auto).
  rewrite dc_part by auto.
  assert (L : forall x, (n + x <? n)%nat = false) by (intros; apply Nat.ltb_ge; lia).
  destruct f, g; cbn [shift sz] in *; rewrite ?L; try (apply Nat.ltb_lt in Ha; rewrite Ha); try (apply Nat.ltb_lt in Hb; rewrite Hb).
  - rewrite tx_vv. ring.
  - transitivity (0 : K); [|ring]. rewrite <- (tx_ov b a). reflexivity.
  - rewrite tx_ov. ring.
  - rewrite tx_oo. ring.
Qed.

(** Contracting the two indices of one electron leaves the one-particle matrix times the number of other electrons: sum_r dm2[p,q,r,r] = (N - 1) dm1[p,q]
    with N = 2n, for whatever amplitudes (converged or not). *)
Theorem C60_trace : forall out p q, (p < n + nv)%nat -> (q < n + nv)%nat ->
  Sum (n + nv) (fun r => dm2 out p q r r) = (nK (2 * n) - 1) * dm1 p q.
Proof.
  intros out p q Hp Hq. unfold ccsd_make_rdm2.
  rewrite (Sum_ext _ _ (fun r => Cu out p q r r + two * occ n p q * dc r r + two * dc p q * occ n r r - occ n p r * dc q r - occ n q r * dc p r
    + (two + two) * occ n p q * occ n r r - two * (occ n p r * occ n q r))) by (intros; rewrite full_entry; ring).
  rewrite ?Sum_add, ?Sum_sub, ?Sum_add, ?Sum_sub, ?Sum_add, ?Sum_sub, !Sum_mul_l. rewrite direct, dc_trace, Sum_occ_diag by auto.
  rewrite !Sum_occ_l by auto. rewrite cc_rdm1_mf. unfold mf_dm1. rewrite nK_mul. cbn [nK].
  rewrite (C44_ccsd_symmetric n _ false q p), (occ_sym n q p).
  assert (O : (p <? n)%nat = false -> occ (K := K) n p q = 0) by (intros E; unfold occ; rewrite E, andb_false_r; reflexivity).
  assert (O' : (q <? n)%nat = false -> occ (K := K) n p q = 0) by (intros E; rewrite occ_sym; unfold occ; rewrite E, andb_false_r; reflexivity).
  destruct (p <? n)%nat, (q <? n)%nat; rewrite ?O, ?O' by reflexivity; unfold two; ring.
Qed.
(** Contracting one index of each electron: sum_r dm2[p,r,r,q] = (2 - N/2) dm1[p,q], which holds for spin singlets only. *)
Theorem C60_exchange_trace : forall out p q, (p < n + nv)%nat -> (q < n + nv)%nat ->
  Sum (n + nv) (fun r => dm2 out p r r q) = (two - nK n) * dm1 p q.
Proof.
  intros out p q Hp Hq. unfold ccsd_make_rdm2.
  rewrite (Sum_ext _ _ (fun r => Cu out p r r q + two * (occ n p r * dc q r) + two * (occ n q r * dc p r) - occ n p q * dc r r - dc p q * occ n r r
    + (two + two) * (occ n p r * occ n q r) - two * occ n p q * occ n r r))
    by (intros r _; rewrite full_entry, (occ_sym n r q), (C44_ccsd_symmetric n _ false r q); ring).
  rewrite ?Sum_add, ?Sum_sub, ?Sum_add, ?Sum_sub, ?Sum_add, ?Sum_sub, !Sum_mul_l. rewrite exchange, dc_trace, Sum_occ_diag by auto.
  rewrite !Sum_occ_l by auto. rewrite cc_rdm1_mf. unfold mf_dm1.
  rewrite (C44_ccsd_symmetric n _ false q p), (occ_sym n q p).
  assert (O : (p <? n)%nat = false -> occ (K := K) n p q = 0) by (intros E; unfold occ; rewrite E, andb_false_r; reflexivity).
  assert (O' : (q <? n)%nat = false -> occ (K := K) n p q = 0) by (intros E; rewrite occ_sym; unfold occ; rewrite E, andb_false_r; reflexivity).
  destruct (p <? n)%nat, (q <? n)%nat; rewrite ?O, ?O' by reflexivity; unfold two; ring.
Qed.
(** The number of electron pairs *)
Theorem C60_pairs : forall out, Sum (n + nv) (fun p => Sum (n + nv) (fun r => dm2 out p p r r)) = nK (2 * n) * (nK (2 * n) - 1).
Proof.
  intros out. rewrite (Sum_ext _ _ (fun p => (nK (2 * n) - 1) * dm1 p p)) by (intros; apply C60_trace; auto).
  rewrite Sum_mul_l. pose proof (proj1 (C44_ccsd_electrons n nv t1 t2 l1 l2)) as E. unfold trace in E. rewrite E. rewrite nK_mul. cbn [nK]. unfold two. ring.
Qed.
(** Exchanging the electrons and transposing both pairs of indices *)
Theorem C60_symmetry : forall out p q r s, (p < n + nv)%nat -> (q < n + nv)%nat -> (r < n + nv)%nat -> (s < n + nv)%nat ->
  dm2 out p q r s = dm2 out r s p q /\ dm2 out p q r s = dm2 out q p s r.
Proof.
  intros out p q r s Hp Hq Hr Hs. unfold ccsd_make_rdm2. rewrite !full_entry.
  rewrite ?(C44_ccsd_symmetric n d1 false r p), ?(C44_ccsd_symmetric n d1 false s p), ?(C44_ccsd_symmetric n d1 false r q), ?(C44_ccsd_symmetric n d1 false q p),
    ?(C44_ccsd_symmetric n d1 false s r), ?(C44_ccsd_symmetric n d1 false s q), ?(occ_sym n r p), ?(occ_sym n s p), ?(occ_sym n r q), ?(occ_sym n q p), ?(occ_sym n s r), ?(occ_sym n s q).
  rewrite <- (make_rdm2_herm n d2 out p q r s).
  assert (E : Cu out p q r s = Cu out r s p q); [|rewrite E; split; ring].
  destruct (shift_cases n nv p Hp) as (f & a & -> & Ha). destruct (shift_cases n nv q Hq) as (g & b & -> & Hb).
  destruct (shift_cases n nv r Hr) as (h & c & -> & Hc). destruct (shift_cases n nv s Hs) as (k & d & -> & Hd).
  rewrite !(make_rdm2_part n nv) by auto. destruct f, g, h, k; [apply sw_vvvv| | | | | | | | | | | | | | |apply sw_oooo]; cbn [part]; ring.
Qed.
(** The cumulant (make_rdm2(with_dm1=False, approx_cumulant=False)) traces to the deviation of the one-particle matrix from idempotency. *)
Theorem C60_cumulant_trace : forall out p q, (p < n + nv)%nat -> (q < n + nv)%nat ->
  Sum (n + nv) (fun r => ccsd_rdm2 half n d1 d2 out Exact p q r r) = half * Sum (n + nv) (fun r => dm1 p r * dm1 r q) - dm1 p q.
Proof.
  intros out p q Hp Hq.
  rewrite (Sum_ext _ _ (fun r => dm2 out p q r r - (dm1 p q * dm1 r r - half * (dm1 p r * dm1 r q))))
    by (intros r Hr; pose proof (proj1 (C45_restricted half Hhalf n d1 d2 out p q r r)) as X; unfold product in X;
        change (ccsd_rdm2 half n d1 d2 out Full p q r r) with (dm2 out p q r r) in X; rewrite X; ring).
  rewrite !Sum_sub, !Sum_mul_l, C60_trace by auto.
  pose proof (proj1 (C44_ccsd_electrons n nv t1 t2 l1 l2)) as E. unfold trace in E. rewrite E. rewrite nK_mul. cbn [nK]. unfold two. ring.
Qed.
End P.
