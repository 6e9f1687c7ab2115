(** C44: electron count and symmetry of one-particle density matrices.
    C45: adding and removing the non-cumulant part of two-particle density matrices. *)
From Coq Require Import List Arith Bool Lia Ring ZArith QArith Qcanon.
From Verif Require Import Alg M_Wf M_Eris M_Rdm P_Assemble.
Import ListNotations.
Close Scope Q_scope. Close Scope Qc_scope. Close Scope Z_scope. Open Scope nat_scope.

Section P.
Context {K : cring}.
Add Ring Kr : (rth K).
Open Scope K_scope.
Notation mat := (nat -> nat -> K).
Notation ten := (nat -> nat -> nat -> nat -> K).

Definition trace (N : nat) (d : mat) : K := Sum N (fun p => d p p).
(** Electrons in the first n, and in the following nv orbitals *)
Definition occupied (n : nat) (d : mat) : K := Sum n (fun i => d i i).
Definition virtual (n nv : nat) (d : mat) : K := Sum nv (fun a => d (n + a)%nat (n + a)%nat).

Lemma blocks_oo n oo ov vo vv i j : (i < n)%nat -> (j < n)%nat -> blocks (K := K) n oo ov vo vv i j = oo i j.
Proof. intros Hi Hj. unfold blocks. apply Nat.ltb_lt in Hi, Hj. rewrite Hi, Hj. reflexivity. Qed.
Lemma blocks_ov n oo ov vo vv i a : (i < n)%nat -> blocks (K := K) n oo ov vo vv i (n + a)%nat = ov i a.
Proof.
  intros Hi. unfold blocks. apply Nat.ltb_lt in Hi. rewrite Hi. replace (n + a <? n)%nat with false by (symmetry; apply Nat.ltb_ge; lia).
  f_equal. lia.
Qed.
Lemma blocks_vv n oo ov vo vv a b : blocks (K := K) n oo ov vo vv (n + a)%nat (n + b)%nat = vv a b.
Proof.
  unfold blocks. replace (n + a <? n)%nat with false by (symmetry; apply Nat.ltb_ge; lia).
  replace (n + b <? n)%nat with false by (symmetry; apply Nat.ltb_ge; lia). f_equal; lia.
Qed.
Lemma blocks_sym n (oo ov vo vv : mat) : (forall i j, oo i j = oo j i) -> (forall i a, ov i a = vo a i) -> (forall a b, vv a b = vv b a) ->
  forall p q, blocks n oo ov vo vv p q = blocks n oo ov vo vv q p.
Proof. intros H1 H2 H3 p q. unfold blocks. destruct (p <? n)%nat, (q <? n)%nat; auto. Qed.

Definition occ (n p q : nat) : K := if (p =? q)%nat && (p <? n)%nat then 1 else 0.
Lemma add_diag_occ n c (d : mat) p q : add_diag n c d p q = d p q + c * occ n p q.
Proof. unfold add_diag, occ. destruct ((p =? q)%nat && (p <? n)%nat); ring. Qed.
Lemma occ_sym n p q : occ n p q = occ n q p.
Proof. unfold occ. rewrite (Nat.eqb_sym p q). destruct (Nat.eqb_spec q p); subst; reflexivity. Qed.
Lemma occ_diag n i : (i < n)%nat -> occ n i i = 1.
Proof. intros H. unfold occ. apply Nat.ltb_lt in H. rewrite Nat.eqb_refl, H. reflexivity. Qed.
Lemma occ_vir n a q : occ n (n + a)%nat q = 0.
Proof. unfold occ. replace (n + a <? n)%nat with false by (symmetry; apply Nat.ltb_ge; lia). rewrite andb_false_r. reflexivity. Qed.
Lemma occ_S n p q : occ (S n) p q = occ n p q + (if (p =? n)%nat && (q =? n)%nat then 1 else 0).
Proof.
  unfold occ. destruct (Nat.eqb_spec p q) as [->|H]; simpl.
  - destruct (Nat.eqb_spec q n) as [->|H'].
    + simpl. rewrite Nat.ltb_irrefl. replace (n <? S n)%nat with true by (symmetry; apply Nat.ltb_lt; lia). ring.
    + simpl. destruct (q <? n)%nat eqn:E.
      * apply Nat.ltb_lt in E. replace (q <? S n)%nat with true by (symmetry; apply Nat.ltb_lt; lia). ring.
      * apply Nat.ltb_ge in E. replace (q <? S n)%nat with false by (symmetry; apply Nat.ltb_ge; lia). ring.
  - destruct (Nat.eqb_spec p n) as [->|]; simpl; [|ring]. destruct (Nat.eqb_spec q n) as [->|]; [lia|ring].
Qed.

(** ** C44 *)
Lemma symm_sym (d : mat) i j : symm d i j = symm d j i.
Proof. unfold symm. ring. Qed.

Theorem C44_mp2_symmetric : forall n nv (t2 : ten) mf p q, mp2_rdm1 n nv t2 mf p q = mp2_rdm1 n nv t2 mf q p.
Proof. intros. unfold mp2_rdm1. apply blocks_sym; auto using symm_sym. Qed.

Lemma trace_parts n nv (d : mat) : trace (n + nv) d = occupied n d + virtual n nv d.
Proof. unfold trace. rewrite Sum_split. reflexivity. Qed.

(** Amplitudes of a closed-shell wave function *)
Definition sym_t2 (n nv : nat) (t2 : ten) : Prop :=
  forall i j a b, (i < n)%nat -> (j < n)%nat -> (a < nv)%nat -> (b < nv)%nat -> t2 i j a b = t2 j i b a.

Lemma mp2_vir n nv t2 mf : virtual n nv (mp2_rdm1 n nv t2 mf) =
  two * (two * Sum n (fun i => Sum n (fun j => Sum nv (fun a => Sum nv (fun b => t2 i j a b * t2 i j a b))))
         - Sum n (fun i => Sum n (fun j => Sum nv (fun a => Sum nv (fun b => t2 i j a b * t2 i j b a))))).
Proof.
  unfold virtual, mp2_rdm1. rewrite (Sum_ext nv _ (fun a => two * mp2_dvv n nv t2 a a)).
  2:{ intros a _. rewrite blocks_vv. unfold symm, two. ring. }
  rewrite Sum_mul_l. f_equal. unfold mp2_dvv. rewrite Sum_sub, Sum_mul_l. f_equal; [f_equal|].
  - rewrite Sum_swap. apply Sum_ext; intros i _. rewrite Sum_swap. reflexivity.
  - rewrite Sum_swap. apply Sum_ext; intros i _. rewrite Sum_swap. reflexivity.
Qed.

Lemma mp2_occ n nv t2 mf : sym_t2 n nv t2 -> occupied n (mp2_rdm1 n nv t2 mf) =
  (if mf then two * nK n else 0) -
  two * (two * Sum n (fun i => Sum n (fun j => Sum nv (fun a => Sum nv (fun b => t2 i j a b * t2 i j a b))))
         - Sum n (fun i => Sum n (fun j => Sum nv (fun a => Sum nv (fun b => t2 i j a b * t2 i j b a))))).
Proof.
  intros Ht. unfold occupied, mp2_rdm1. rewrite (Sum_ext n _ (fun i => (if mf then two else 0) -
    two * (two * Sum n (fun j => Sum nv (fun a => Sum nv (fun b => t2 i j a b * t2 i j a b)))
         - Sum n (fun j => Sum nv (fun a => Sum nv (fun b => t2 i j a b * t2 i j b a)))))).
  - rewrite Sum_sub, Sum_mul_l, Sum_sub, Sum_mul_l, Sum_const. destruct mf; ring.
  - intros i Hi. rewrite blocks_oo by auto. unfold symm, mp2_doo.
    rewrite (Sum_ext n (fun k => Sum nv (fun a => Sum nv (fun b => t2 i k a b * t2 k i a b)))
               (fun j => Sum nv (fun a => Sum nv (fun b => t2 i j a b * t2 i j b a)))).
    + rewrite delta_eq. unfold two. destruct mf; ring.
    + intros k Hk. apply Sum_ext; intros a Ha. apply Sum_ext; intros b Hb. rewrite (Ht k i a b) by auto. reflexivity.
Qed.

Theorem C44_mp2_electrons : forall n nv (t2 : ten), sym_t2 n nv t2 ->
  trace (n + nv) (mp2_rdm1 n nv t2 true) = two * nK n /\
  trace (n + nv) (mp2_rdm1 n nv t2 false) = 0 /\
  two * nK n - occupied n (mp2_rdm1 n nv t2 true) = virtual n nv (mp2_rdm1 n nv t2 true).
Proof.
  intros n nv t2 Ht. rewrite !trace_parts, !(mp2_occ n nv t2 _ Ht), !mp2_vir. repeat split; ring.
Qed.

Theorem C44_ccsd_symmetric : forall n d mf p q, cc_rdm1 (K := K) n d mf p q = cc_rdm1 n d mf q p.
Proof.
  intros. unfold cc_rdm1. assert (S : forall p q, blocks n (symm (g_oo d)) (fun i a => g_ov d i a + g_vo d a i)
    (mtrans (fun i a => g_ov d i a + g_vo d a i)) (symm (g_vv d)) p q = blocks n (symm (g_oo d)) (fun i a => g_ov d i a + g_vo d a i)
    (mtrans (fun i a => g_ov d i a + g_vo d a i)) (symm (g_vv d)) q p) by (apply blocks_sym; auto using symm_sym).
  destruct mf; [|apply S]. rewrite !add_diag_occ, S, (occ_sym n p q). reflexivity.
Qed.

Lemma cc_rdm1_parts n nv d mf :
  occupied n (cc_rdm1 (K := K) n d mf) = (if mf then two * nK n else 0) + two * Sum n (fun i => g_oo d i i) /\
  virtual n nv (cc_rdm1 n d mf) = two * Sum nv (fun a => g_vv d a a).
Proof.
  split.
  - unfold occupied. rewrite (Sum_ext n _ (fun i => (if mf then two else 0) + two * g_oo d i i)).
    + rewrite Sum_add, Sum_const, Sum_mul_l. destruct mf; ring.
    + intros i Hi. unfold cc_rdm1. destruct mf; [rewrite add_diag_occ, occ_diag by auto|]; rewrite blocks_oo by auto; unfold symm, two; ring.
  - unfold virtual. rewrite <- Sum_mul_l. apply Sum_ext. intros a _. unfold cc_rdm1.
    destruct mf; [rewrite add_diag_occ, occ_vir|]; rewrite blocks_vv; unfold symm, two; ring.
Qed.

Lemma cc_gamma1_trace n nv (t1 : mat) t2 l1 l2 :
  Sum n (fun i => g_oo (cc_gamma1 n nv t1 t2 l1 l2) i i) = - Sum nv (fun a => g_vv (cc_gamma1 n nv t1 t2 l1 l2) a a).
Proof.
  cbn [cc_gamma1 g_oo g_vv]. rewrite Sum_add, Sum_sub, Sum_opp.
  rewrite (Sum_swap nv n (fun a i => t1 i a * l1 i a)).
  rewrite (Sum_swap nv n (fun a j => Sum n (fun i => Sum nv (fun c => cc_theta t2 j i c a * l2 j i c a)))).
  rewrite (Sum_ext n (fun j => Sum nv (fun a => Sum n (fun i => Sum nv (fun c => cc_theta t2 j i c a * l2 j i c a))))
    (fun i => Sum n (fun k => Sum nv (fun a => Sum nv (fun b => cc_theta t2 i k a b * l2 i k a b))))).
  - ring.
  - intros i _. rewrite Sum_swap. apply Sum_ext; intros k _. apply Sum_swap.
Qed.

Theorem C44_ccsd_electrons : forall n nv (t1 : mat) t2 l1 l2,
  let d := cc_gamma1 n nv t1 t2 l1 l2 in
  trace (n + nv) (cc_rdm1 n d true) = two * nK n /\ trace (n + nv) (cc_rdm1 n d false) = 0 /\
  two * nK n - occupied n (cc_rdm1 n d true) = virtual n nv (cc_rdm1 n d true).
Proof.
  intros n nv t1 t2 l1 l2 d. rewrite !trace_parts. destruct (cc_rdm1_parts n nv d true) as (-> & ->).
  destruct (cc_rdm1_parts n nv d false) as (-> & ->). subst d. rewrite cc_gamma1_trace. repeat split; ring.
Qed.

Section Half.
Variable half : K.
Hypothesis Hhalf : half + half = 1.

Theorem C44_uccsd_symmetric : forall n d mf p q, ucc_rdm1 half n d mf p q = ucc_rdm1 half n d mf q p.
Proof.
  intros. unfold ucc_rdm1. assert (S : forall p q, blocks n (symm (g_oo d)) (fun i a => g_ov d i a + g_vo d a i)
    (mtrans (fun i a => g_ov d i a + g_vo d a i)) (symm (g_vv d)) p q = blocks n (symm (g_oo d)) (fun i a => g_ov d i a + g_vo d a i)
    (mtrans (fun i a => g_ov d i a + g_vo d a i)) (symm (g_vv d)) q p) by (apply blocks_sym; auto using symm_sym).
  destruct mf; [rewrite !add_diag_occ, (occ_sym n p q)|]; rewrite S; reflexivity.
Qed.

Lemma ucc_rdm1_parts n nv d mf :
  occupied n (ucc_rdm1 half n d mf) = (if mf then nK n else 0) + Sum n (fun i => g_oo d i i) /\
  virtual n nv (ucc_rdm1 half n d mf) = Sum nv (fun a => g_vv d a a).
Proof.
  assert (E : forall x : K, (x + x) * half = x) by (intros; transitivity (x * (half + half)); [ring|rewrite Hhalf; ring]).
  split.
  - unfold occupied. rewrite (Sum_ext n _ (fun i => (if mf then 1 else 0) + g_oo d i i)).
    + rewrite Sum_add, Sum_const. destruct mf; ring.
    + intros i Hi. unfold ucc_rdm1. destruct mf; [rewrite add_diag_occ, occ_diag by auto|]; rewrite blocks_oo by auto; unfold symm;
      rewrite E; ring.
  - unfold virtual. apply Sum_ext. intros a _. unfold ucc_rdm1.
    destruct mf; [rewrite add_diag_occ, occ_vir|]; rewrite blocks_vv; unfold symm; rewrite E; ring.
Qed.

Lemma ucc_gamma1_trace n nv m mv (t1 : mat) t2 t2ab l1 l1' l2 l2ab :
  let d := ucc_gamma1 half n nv m mv t1 t2 t2ab l1 l1' l2 l2ab in
  Sum n (fun i => g_oo d i i) = - Sum nv (fun a => g_vv d a a).
Proof.
  intros d. subst d. cbn [ucc_gamma1 g_oo g_vv]. rewrite Sum_sub, Sum_opp, !Sum_add, !Sum_mul_r.
  rewrite (Sum_swap nv n (fun a i => t1 i a * l1 i a)).
  rewrite (Sum_swap nv n (fun a i => Sum n (fun k => Sum nv (fun e => t2 i k a e * l2 i k a e)))).
  rewrite (Sum_swap nv n (fun a i => Sum m (fun k => Sum mv (fun e => t2ab i k a e * l2ab i k a e)))).
  rewrite (Sum_ext n (fun i => Sum nv (fun e => l1 i e * t1 i e)) (fun i => Sum nv (fun a => t1 i a * l1 i a)))
    by (intros; apply Sum_ext; intros; ring).
  rewrite (Sum_ext n (fun j => Sum nv (fun i => Sum n (fun k => Sum nv (fun e => t2 j k i e * l2 j k i e))))
    (fun i => Sum n (fun k => Sum nv (fun e => Sum nv (fun f => l2 i k e f * t2 i k e f))))).
  2:{ intros i _. rewrite Sum_swap. do 3 (apply Sum_ext; intros). ring. }
  rewrite (Sum_ext n (fun j => Sum nv (fun i => Sum m (fun k => Sum mv (fun e => t2ab j k i e * l2ab j k i e))))
    (fun i => Sum m (fun k => Sum nv (fun e => Sum mv (fun f => l2ab i k e f * t2ab i k e f))))).
  2:{ intros i _. rewrite Sum_swap. do 3 (apply Sum_ext; intros). ring. }
  ring.
Qed.

(** Each spin keeps its own number of electrons. *)
Theorem C44_uccsd_electrons : forall n nv m mv (t1a t1b : mat) t2aa t2ab t2bb l1a l1b l2aa l2ab l2bb da db,
  ucc_gamma1_ab half n nv m mv t1a t1b t2aa t2ab t2bb l1a l1b l2aa l2ab l2bb = (da, db) ->
  trace (n + nv) (ucc_rdm1 half n da true) = nK n /\ trace (m + mv) (ucc_rdm1 half m db true) = nK m /\
  trace (n + nv) (ucc_rdm1 half n da false) = 0 /\ trace (m + mv) (ucc_rdm1 half m db false) = 0 /\
  nK n - occupied n (ucc_rdm1 half n da true) = virtual n nv (ucc_rdm1 half n da true) /\
  nK m - occupied m (ucc_rdm1 half m db true) = virtual m mv (ucc_rdm1 half m db true).
Proof.
  intros n nv m mv t1a t1b t2aa t2ab t2bb l1a l1b l2aa l2ab l2bb da db E.
  assert (Ea := f_equal fst E). assert (Eb := f_equal snd E). cbn [fst snd ucc_gamma1_ab] in Ea, Eb. clear E.
  rewrite !trace_parts. destruct (ucc_rdm1_parts n nv da true) as (-> & ->). destruct (ucc_rdm1_parts m mv db true) as (-> & ->).
  destruct (ucc_rdm1_parts n nv da false) as (-> & ->). destruct (ucc_rdm1_parts m mv db false) as (-> & ->).
  rewrite <- Ea, <- Eb. rewrite !ucc_gamma1_trace. repeat split; ring.
Qed.

(** For a closed shell the restricted matrix is the sum of the two spin matrices. *)
Theorem C44_closed_shell : forall n nv (t1 : mat) t2 l1 l2 da db mf p q,
  sym_t2 n nv t2 -> sym_t2 n nv l2 ->
  let aa (x : ten) : ten := fun i j a b => x i j a b - x i j b a in
  ucc_gamma1_ab half n nv n nv t1 t1 (aa t2) t2 (aa t2) l1 l1 (aa l2) l2 (aa l2) = (da, db) ->
  (p < n + nv)%nat -> (q < n + nv)%nat ->
  cc_rdm1 n (cc_gamma1 n nv t1 t2 l1 l2) mf p q = ucc_rdm1 half n da mf p q + ucc_rdm1 half n db mf p q.
Proof.
  intros n nv t1 t2 l1 l2 da db mf p q Ht Hl aa E Hp Hq.
  assert (Ea := f_equal fst E). assert (Eb := f_equal snd E). cbn [fst snd ucc_gamma1_ab] in Ea, Eb. clear E.
  (* both spins see the same amplitudes within the ranges *)
  assert (Xt : forall i j a b, (i < n)%nat -> (j < n)%nat -> (a < nv)%nat -> (b < nv)%nat -> exch t2 i j a b = t2 i j a b)
    by (intros; unfold exch; symmetry; apply Ht; auto).
  assert (Xl : forall i j a b, (i < n)%nat -> (j < n)%nat -> (a < nv)%nat -> (b < nv)%nat -> exch l2 i j a b = l2 i j a b)
    by (intros; unfold exch; symmetry; apply Hl; auto).
  assert (Q : forall ut ul,
    (forall i j a b, (i < n)%nat -> (j < n)%nat -> (a < nv)%nat -> (b < nv)%nat -> ut i j a b = t2 i j a b) ->
    (forall i j a b, (i < n)%nat -> (j < n)%nat -> (a < nv)%nat -> (b < nv)%nat -> ul i j a b = l2 i j a b) ->
    let d := ucc_gamma1 half n nv n nv t1 (aa t2) ut l1 l1 (aa l2) ul in
    let c := cc_gamma1 n nv t1 t2 l1 l2 in
    (forall i j, (i < n)%nat -> (j < n)%nat -> g_oo d i j = g_oo c i j) /\
    (forall i a, g_ov d i a = g_ov c i a) /\
    (forall a i, (a < nv)%nat -> (i < n)%nat -> g_vo d a i = g_vo c a i) /\
    (forall a b, (a < nv)%nat -> (b < nv)%nat -> g_vv d a b = g_vv c a b)).
  { intros ut ul Hu Hul d c. subst d c. cbn [ucc_gamma1 cc_gamma1 g_oo g_ov g_vo g_vv].
    assert (A : forall i j, (i < n)%nat -> (j < n)%nat ->
      Sum n (fun k => Sum nv (fun e => Sum nv (fun f => aa l2 i k e f * aa t2 j k e f))) * half
      + Sum n (fun k => Sum nv (fun e => Sum nv (fun f => ul i k e f * ut j k e f)))
      = Sum n (fun k => Sum nv (fun a => Sum nv (fun b => cc_theta t2 j k a b * l2 i k a b)))).
    { intros i j Hi Hj. rewrite <- Sum_mul_r, <- Sum_add. apply Sum_ext; intros k Hk.
      assert (S1 : Sum nv (fun e => Sum nv (fun f => l2 i k f e * t2 j k f e)) = Sum nv (fun e => Sum nv (fun f => l2 i k e f * t2 j k e f)))
        by apply Sum_swap.
      assert (S2 : Sum nv (fun e => Sum nv (fun f => l2 i k f e * t2 j k e f)) = Sum nv (fun e => Sum nv (fun f => l2 i k e f * t2 j k f e)))
        by (rewrite Sum_swap; reflexivity).
      transitivity (Sum nv (fun e => Sum nv (fun f => l2 i k e f * t2 j k e f)) * (half + half)
        - Sum nv (fun e => Sum nv (fun f => l2 i k e f * t2 j k f e)) * (half + half)
        + Sum nv (fun e => Sum nv (fun f => l2 i k e f * t2 j k e f))).
      - f_equal.
        + transitivity ((Sum nv (fun e => Sum nv (fun f => l2 i k e f * t2 j k e f)) - Sum nv (fun e => Sum nv (fun f => l2 i k e f * t2 j k f e))
             - (Sum nv (fun e => Sum nv (fun f => l2 i k f e * t2 j k e f)) - Sum nv (fun e => Sum nv (fun f => l2 i k f e * t2 j k f e)))) * half).
          * f_equal. rewrite <- !Sum_sub. apply Sum_ext; intros e He. rewrite <- !Sum_sub. apply Sum_ext; intros f Hf. unfold aa. ring.
          * rewrite S1, S2. ring.
        + apply Sum_ext; intros e He. apply Sum_ext; intros f Hf. rewrite Hu, Hul by auto. reflexivity.
      - rewrite Hhalf. unfold cc_theta, two. rewrite <- !Sum_mul_r, <- Sum_sub, <- Sum_add. apply Sum_ext; intros e He.
        rewrite <- !Sum_mul_r, <- Sum_sub, <- Sum_add. apply Sum_ext; intros f Hf. ring. }
    assert (C : forall a b, (a < nv)%nat -> (b < nv)%nat ->
      Sum n (fun i => Sum n (fun k => Sum nv (fun e => aa t2 i k a e * aa l2 i k b e))) * half
      + Sum n (fun i => Sum n (fun k => Sum nv (fun e => ut i k a e * ul i k b e)))
      = Sum n (fun m => Sum n (fun k => Sum nv (fun f => l2 m k b f * cc_theta t2 m k a f)))).
    { intros a b Ha Hb.
      (* antisymmetrised products: use the symmetry of the amplitudes *)
      set (P := Sum n (fun i => Sum n (fun k => Sum nv (fun e => t2 i k a e * l2 i k b e)))).
      set (R := Sum n (fun i => Sum n (fun k => Sum nv (fun e => t2 i k e a * l2 i k b e)))).
      assert (S1 : Sum n (fun i => Sum n (fun k => Sum nv (fun e => t2 i k e a * l2 i k e b))) = P).
      { unfold P. rewrite Sum_swap. apply Sum_ext; intros i Hi. apply Sum_ext; intros k Hk. apply Sum_ext; intros e He.
        rewrite (Ht k i e a), (Hl k i e b) by auto. reflexivity. }
      assert (S2 : Sum n (fun i => Sum n (fun k => Sum nv (fun e => t2 i k a e * l2 i k e b))) = R).
      { unfold R. rewrite Sum_swap. apply Sum_ext; intros i Hi. apply Sum_ext; intros k Hk. apply Sum_ext; intros e He.
        rewrite (Ht k i a e), (Hl k i e b) by auto. reflexivity. }
      transitivity ((P - R) * (half + half) + P).
      - f_equal.
        + transitivity ((P - Sum n (fun i => Sum n (fun k => Sum nv (fun e => t2 i k a e * l2 i k e b)))
             - (R - Sum n (fun i => Sum n (fun k => Sum nv (fun e => t2 i k e a * l2 i k e b))))) * half).
          * f_equal. unfold P, R. rewrite <- !Sum_sub. apply Sum_ext; intros i Hi. rewrite <- !Sum_sub. apply Sum_ext; intros k Hk.
            rewrite <- !Sum_sub. apply Sum_ext; intros e He. unfold aa. ring.
          * rewrite S1, S2. ring.
        + apply Sum_ext; intros i Hi. apply Sum_ext; intros k Hk. apply Sum_ext; intros e He. rewrite Hu, Hul by auto. reflexivity.
      - rewrite Hhalf. unfold P, R, cc_theta, two.
        transitivity (Sum n (fun i => Sum n (fun k => Sum nv (fun e => t2 i k a e * l2 i k b e + t2 i k a e * l2 i k b e - t2 i k e a * l2 i k b e)))).
        + rewrite (Sum_ext n (fun i => Sum n (fun k => Sum nv (fun e => t2 i k a e * l2 i k b e + t2 i k a e * l2 i k b e - t2 i k e a * l2 i k b e)))
             (fun i => Sum n (fun k => Sum nv (fun e => t2 i k a e * l2 i k b e)) + Sum n (fun k => Sum nv (fun e => t2 i k a e * l2 i k b e))
                - Sum n (fun k => Sum nv (fun e => t2 i k e a * l2 i k b e)))).
          * rewrite Sum_sub, Sum_add. ring.
          * intros i _. rewrite <- Sum_add, <- Sum_sub. apply Sum_ext; intros k _. rewrite Sum_sub, Sum_add. reflexivity.
        + do 3 (apply Sum_ext; intros). ring. }
    split; [|split; [reflexivity|split]].
    - intros i j Hi Hj. rewrite A by auto. f_equal. f_equal. apply Sum_ext; intros; ring.
    - intros a i Ha Hi.
      rewrite (Sum_ext n (fun k => (Sum n (fun k0 => Sum nv (fun e => Sum nv (fun f => aa l2 k k0 e f * aa t2 i k0 e f))) * half
         + Sum n (fun k0 => Sum nv (fun e => Sum nv (fun f => ul k k0 e f * ut i k0 e f)))) * t1 k a)
        (fun m => Sum n (fun k => Sum nv (fun e => Sum nv (fun f => l2 m k e f * cc_theta t2 i k e f))) * t1 m a)).
      2:{ intros k Hk. rewrite A by auto. f_equal. do 3 (apply Sum_ext; intros). ring. }
      rewrite (Sum_ext nv (fun e => t1 i e * (Sum n (fun i0 => Sum n (fun k => Sum nv (fun e0 => aa t2 i0 k a e0 * aa l2 i0 k e e0))) * half
         + Sum n (fun i0 => Sum n (fun k => Sum nv (fun e0 => ut i0 k a e0 * ul i0 k e e0))) + Sum n (fun k => t1 k a * l1 k e)))
        (fun e => t1 i e * Sum n (fun m => Sum n (fun k => Sum nv (fun f => l2 m k e f * cc_theta t2 m k a f))) + Sum n (fun k => t1 i e * (t1 k a * l1 k e)))).
      2:{ intros e He. rewrite C by auto. rewrite Sum_mul_l. ring. }
      rewrite Sum_add, (Sum_swap nv n).
      rewrite (Sum_ext n (fun j => Sum nv (fun i0 => t1 i i0 * (t1 j a * l1 j i0))) (fun m => Sum nv (fun e => t1 i e * l1 m e) * t1 m a)).
      2:{ intros m Hm. rewrite <- Sum_mul_r. apply Sum_ext; intros; ring. }
      assert (T : Sum n (fun k => Sum nv (fun e => aa t2 i k a e * l1 k e)) + Sum n (fun k => Sum nv (fun e => ut i k a e * l1 k e))
        = Sum n (fun m => Sum nv (fun e => cc_theta t2 i m a e * l1 m e))).
      { rewrite <- Sum_add. apply Sum_ext; intros k Hk. rewrite <- Sum_add. apply Sum_ext; intros e He. rewrite Hu by auto.
        unfold aa, cc_theta, two. ring. }
      rewrite T. ring.
    - intros a b Ha Hb. rewrite C by auto. f_equal. rewrite Sum_swap. apply Sum_ext; intros m Hm. apply Sum_ext; intros k Hk.
      apply Sum_ext; intros f Hf. unfold cc_theta. rewrite (Ht m k f a), (Ht m k a f), (Hl m k f b) by auto. ring. }
  destruct (Q t2 l2) as (A1 & A2 & A3 & A4); auto. rewrite Ea in A1, A2, A3, A4.
  destruct (Q (exch t2) (exch l2) Xt Xl) as (B1 & B2 & B3 & B4). rewrite Eb in B1, B2, B3, B4. clear Q Ea Eb.
  set (c := cc_gamma1 n nv t1 t2 l1 l2) in *.
  assert (H2 : forall x, x = x * half + x * half) by (intros; transitivity (x * (half + half)); [rewrite Hhalf; ring|ring]).
  assert (M : forall d, (forall i j, (i < n)%nat -> (j < n)%nat -> g_oo d i j = g_oo c i j) -> (forall i a, g_ov d i a = g_ov c i a) ->
    (forall a i, (a < nv)%nat -> (i < n)%nat -> g_vo d a i = g_vo c a i) -> (forall a b, (a < nv)%nat -> (b < nv)%nat -> g_vv d a b = g_vv c a b) ->
    ucc_rdm1 half n d mf p q = cc_rdm1 n c mf p q * half).
  { intros d D1 D2 D3 D4. unfold ucc_rdm1, cc_rdm1.
    assert (Bk : blocks n (symm (g_oo d)) (fun i a => g_ov d i a + g_vo d a i) (mtrans (fun i a => g_ov d i a + g_vo d a i)) (symm (g_vv d)) p q
      = blocks n (symm (g_oo c)) (fun i a => g_ov c i a + g_vo c a i) (mtrans (fun i a => g_ov c i a + g_vo c a i)) (symm (g_vv c)) p q).
    { unfold blocks, symm, mtrans. destruct (p <? n)%nat eqn:Ep, (q <? n)%nat eqn:Eq;
      (apply Nat.ltb_lt in Ep || apply Nat.ltb_ge in Ep); (apply Nat.ltb_lt in Eq || apply Nat.ltb_ge in Eq).
      - rewrite !D1 by auto. reflexivity.
      - rewrite D2, D3 by lia. reflexivity.
      - rewrite D2, D3 by lia. reflexivity.
      - rewrite !D4 by lia. reflexivity. }
    destruct mf; [rewrite !add_diag_occ|]; rewrite Bk; [|ring].
    transitivity (blocks n (symm (g_oo c)) (fun i a => g_ov c i a + g_vo c a i) (mtrans (fun i a => g_ov c i a + g_vo c a i)) (symm (g_vv c)) p q * half
      + (half + half) * occ n p q); [rewrite Hhalf; ring|unfold two; ring]. }
  rewrite (M da A1 A2 A3 A4), (M db B1 B2 B3 B4). apply H2.
Qed.

(** ** C45 *)
Ltac sort p q r s H O := rewrite ?(H q p), ?(H r p), ?(H s p), ?(H r q), ?(H s q), ?(H s r), ?(O q p), ?(O r p), ?(O s p), ?(O r q), ?(O s q), ?(O s r).
(** The two-particle density matrix of independent electrons with one-particle density matrix d, and the matrix of the mean field *)
Definition product (d : mat) : ten := fun p q r s => d p q * d r s - half * (d p s * d r q).
Definition mf_dm1 (n : nat) : mat := fun p q => two * occ n p q.

Definition ii (i p q : nat) : K := if (p =? i)%nat && (q =? i)%nat then 1 else 0.
Lemma add_e1 i c d (x : ten) p q r s : add_ii__ i c d x p q r s = x p q r s + c * ii i p q * d r s.
Proof. unfold add_ii__, ii. destruct ((p =? i)%nat && (q =? i)%nat); ring. Qed.
Lemma add_e2 i c d (x : ten) p q r s : add___ii i c d x p q r s = x p q r s + c * ii i r s * d p q.
Proof. unfold add___ii, ii. destruct ((r =? i)%nat && (s =? i)%nat); ring. Qed.
Lemma add_e3 i c d (x : ten) p q r s : add__ii_ i c d x p q r s = x p q r s + c * ii i q r * d p s.
Proof. unfold add__ii_, ii. destruct ((q =? i)%nat && (r =? i)%nat); ring. Qed.
Lemma add_e4 i c d (x : ten) p q r s : add_i__i i c d x p q r s = x p q r s + c * ii i p s * d q r.
Proof. unfold add_i__i, ii. destruct ((p =? i)%nat && (s =? i)%nat); ring. Qed.
Lemma add_e5 i j c (x : ten) p q r s : add_iijj i j c x p q r s = x p q r s + c * ii i p q * ii j r s.
Proof. unfold add_iijj, ii. destruct (p =? i)%nat, (q =? i)%nat, (r =? j)%nat, (s =? j)%nat; simpl; ring. Qed.
Lemma add_e6 i j c (x : ten) p q r s : add_ijji i j c x p q r s = x p q r s + c * ii i p s * ii j q r.
Proof. unfold add_ijji, ii. destruct (p =? i)%nat, (q =? j)%nat, (r =? j)%nat, (s =? i)%nat; simpl; ring. Qed.
Lemma occ_0 p q : occ 0 p q = 0.
Proof. unfold occ. replace (p <? 0)%nat with false by reflexivity. rewrite andb_false_r. reflexivity. Qed.
Lemma occ_Sii n p q : occ (S n) p q = occ n p q + ii n p q.
Proof. apply occ_S. Qed.

Lemma loop4 n (d1 d2 d3 d4 : mat) c1 c2 c3 c4 (x : ten) p q r s :
  for_range n (fun i x => add_i__i i c4 d4 (add__ii_ i c3 d3 (add___ii i c2 d2 (add_ii__ i c1 d1 x)))) x p q r s =
  x p q r s + c1 * occ n p q * d1 r s + c2 * occ n r s * d2 p q + c3 * occ n q r * d3 p s + c4 * occ n p s * d4 q r.
Proof.
  induction n as [|n IH]; cbn [for_range]; [rewrite !occ_0; ring|]. rewrite add_e4, add_e3, add_e2, add_e1, IH, !occ_Sii. ring.
Qed.

Lemma loop_jj i m c1 c2 (x : ten) p q r s :
  for_range m (fun j x => add_ijji i j c2 (add_iijj i j c1 x)) x p q r s =
  x p q r s + c1 * ii i p q * occ m r s + c2 * ii i p s * occ m q r.
Proof.
  induction m as [|m IH]; cbn [for_range]; [rewrite !occ_0; ring|]. rewrite add_e6, add_e5, IH, !occ_Sii. ring.
Qed.

Lemma loop_iijj n m c1 c2 (x : ten) p q r s :
  for_range n (fun i x => for_range m (fun j x => add_ijji i j c2 (add_iijj i j c1 x)) x) x p q r s =
  x p q r s + c1 * occ n p q * occ m r s + c2 * occ n p s * occ m q r.
Proof.
  induction n as [|n IH]; cbn [for_range]; [rewrite !occ_0; ring|]. rewrite loop_jj, IH, !occ_Sii. ring.
Qed.

Lemma loop_ab1 n c (d : mat) (x : ten) p q r s : for_range n (fun i x => add_ii__ i c d x) x p q r s = x p q r s + c * occ n p q * d r s.
Proof. induction n as [|n IH]; cbn [for_range]; [rewrite occ_0; ring|]. rewrite add_e1, IH, occ_Sii. ring. Qed.
Lemma loop_ab2 n c (d : mat) (x : ten) p q r s : for_range n (fun i x => add___ii i c d x) x p q r s = x p q r s + c * occ n r s * d p q.
Proof. induction n as [|n IH]; cbn [for_range]; [rewrite occ_0; ring|]. rewrite add_e2, IH, occ_Sii. ring. Qed.
Lemma loop_ab3 n m c (x : ten) p q r s :
  for_range n (fun i x => for_range m (fun j x => add_iijj i j c x) x) x p q r s = x p q r s + c * occ n p q * occ m r s.
Proof.
  assert (J : forall i x, for_range m (fun j x => add_iijj i j c x) x p q r s = x p q r s + c * ii i p q * occ m r s).
  { intros i y. induction m as [|m IH]; cbn [for_range]; [rewrite occ_0; ring|]. rewrite add_e5, IH, occ_Sii. ring. }
  induction n as [|n IH]; cbn [for_range]; [rewrite occ_0; ring|]. rewrite J, IH, occ_Sii. ring.
Qed.

(** One-particle density matrix without and with the mean-field part *)
Lemma cc_rdm1_mf n (d : gamma1 K) p q : cc_rdm1 n d true p q = cc_rdm1 n d false p q + mf_dm1 n p q.
Proof. unfold cc_rdm1, mf_dm1. rewrite add_diag_occ. reflexivity. Qed.
Lemma half_two (x y : K) : half * (two * x * y) = x * y.
Proof. transitivity ((half + half) * x * y); [unfold two; ring|rewrite Hhalf; ring]. Qed.

Lemma half_exp (a b x y : K) : half * ((a + two * x) * (b + two * y)) = half * (a * b) + a * y + x * b + two * x * y.
Proof.
  transitivity (half * (a * b) + (half + half) * (a * y + x * b) + (half + half) * (two * x * y)); [unfold two; ring|rewrite Hhalf; ring].
Qed.

(** The full matrix is the exact cumulant plus the antisymmetrised product of the full one-particle matrix; the approximate
    cumulant keeps the products of the correlation part only. *)
Theorem C45_restricted : forall n d1 d2 out p q r s,
  let dm1 := cc_rdm1 n d1 true in let dc := cc_rdm1 n d1 false in
  ccsd_rdm2 half n d1 d2 out Full p q r s = ccsd_rdm2 half n d1 d2 out Exact p q r s + product dm1 p q r s /\
  ccsd_rdm2 half n d1 d2 out Approx p q r s = ccsd_rdm2 half n d1 d2 out Exact p q r s + product dc p q r s.
Proof.
  intros n d1 d2 out p q r s dm1 dc. cbn [ccsd_rdm2]. unfold non_cumulant, product.
  assert (Sc : forall p q, dc p q = dc q p) by (intros; apply C44_ccsd_symmetric).
  fold dc. split; [|rewrite (Sc q r); ring].
  unfold cc_rdm2. unfold tconj at 1. unfold cc_add_dm1.
  cbv zeta. rewrite loop_iijj, loop4. unfold mtrans. subst dm1. rewrite !add_diag_occ, !(cc_rdm1_mf n d1). fold dc.
  unfold mf_dm1, tconj. sort p q r s Sc (occ_sym n).
  rewrite half_exp. unfold two. ring.
Qed.

(** The same for a wave function stored as density matrices. *)
Theorem C45_stored : forall n (dm1 : mat) dm2 p q r s, (forall p q, dm1 p q = dm1 q p) ->
  let dc := rdm_rdm1 n dm1 false in
  rdm_rdm2 half n dm1 dm2 Full p q r s = rdm_rdm2 half n dm1 dm2 Exact p q r s + product dm1 p q r s /\
  rdm_rdm2 half n dm1 dm2 Approx p q r s = rdm_rdm2 half n dm1 dm2 Exact p q r s + product dc p q r s.
Proof.
  intros n dm1 dm2 p q r s Sc dc. cbn [rdm_rdm2]. unfold non_cumulant, product. split; [rewrite (Sc q r); ring|].
  cbv zeta. rewrite loop4, !add_diag_occ. subst dc. unfold rdm_rdm1. rewrite !add_diag_occ. sort p q r s Sc (occ_sym n).
  replace (- two * occ n p s) with (two * (- occ n p s)) by ring. replace (- two * occ n q r) with (two * (- occ n q r)) by ring.
  rewrite half_exp. unfold two. ring.
Qed.

(** Storing the full matrices of a CCSD wave function and removing the non-cumulant part again gives what the CCSD wave
    function itself gives, for either definition of the cumulant. *)
Theorem C45_round_trip : forall n d1 d2 out c p q r s,
  rdm_rdm2 half n (cc_rdm1 n d1 true) (ccsd_rdm2 half n d1 d2 out Full) c p q r s = ccsd_rdm2 half n d1 d2 out c p q r s.
Proof.
  intros n d1 d2 out c p q r s.
  destruct (C45_stored n (cc_rdm1 n d1 true) (ccsd_rdm2 half n d1 d2 out Full) p q r s (C44_ccsd_symmetric n d1 true)) as (A & B).
  destruct (C45_restricted n d1 d2 out p q r s) as (C & D).
  assert (Dc : forall p q, rdm_rdm1 n (cc_rdm1 n d1 true) false p q = cc_rdm1 n d1 false p q).
  { intros. unfold rdm_rdm1. rewrite add_diag_occ, cc_rdm1_mf. unfold mf_dm1. ring. }
  cbv zeta in *.
  assert (X : rdm_rdm2 half n (cc_rdm1 n d1 true) (ccsd_rdm2 half n d1 d2 out Full) Exact p q r s = ccsd_rdm2 half n d1 d2 out Exact p q r s).
  { transitivity (rdm_rdm2 half n (cc_rdm1 n d1 true) (ccsd_rdm2 half n d1 d2 out Full) Full p q r s - product (cc_rdm1 n d1 true) p q r s); [rewrite A; ring|].
    change (rdm_rdm2 half n (cc_rdm1 n d1 true) (ccsd_rdm2 half n d1 d2 out Full) Full p q r s) with (ccsd_rdm2 half n d1 d2 out Full p q r s).
    rewrite C. ring. }
  destruct c; [reflexivity| |exact X].
  rewrite B, X, D. unfold product. rewrite !Dc. reflexivity.
Qed.

(** MP2 *)
Lemma mp2_rdm1_mf n nv t2 p q : mp2_rdm1 n nv t2 true p q = mp2_rdm1 n nv t2 false p q + mf_dm1 n p q.
Proof.
  unfold mp2_rdm1, blocks, mf_dm1, occ, symm, mp2_doo, delta. rewrite (Nat.eqb_sym q p).
  destruct (p <? n)%nat eqn:Ep, (q <? n)%nat eqn:Eq, (Nat.eqb_spec p q); simpl; subst; unfold two; try ring; congruence.
Qed.
Theorem C45_mp2 : forall n nv t2 p q r s,
  mp2_rdm2 n nv t2 true p q r s - product (mp2_rdm1 n nv t2 true) p q r s =
  mp2_rdm2 n nv t2 false p q r s - product (mp2_rdm1 n nv t2 false) p q r s.
Proof.
  intros n nv t2 p q r s. unfold mp2_rdm2. cbv zeta. rewrite loop4, !add_diag_occ. unfold product.
  rewrite !mp2_rdm1_mf. unfold mf_dm1.
  assert (Sc := C44_mp2_symmetric n nv t2 false). sort p q r s Sc (occ_sym n). rewrite half_exp. unfold two. ring.
Qed.

(** The MP2 cumulant: entries only between two occupied-virtual or two virtual-occupied pairs, each the transpose of the other. *)
Theorem C45_mp2_cumulant : forall n nv (t2 : ten) i j a b p q r s,
  let c := mp2_rdm2 n nv t2 false in
  ((i < n)%nat -> (j < n)%nat -> c i (n + a)%nat j (n + b)%nat = two * (two * t2 i j a b - t2 i j b a) /\ c (n + a)%nat i (n + b)%nat j = two * (two * t2 i j a b - t2 i j b a))
  /\ ((p <? n)%nat = (q <? n)%nat \/ (r <? n)%nat = (s <? n)%nat \/ (p <? n)%nat <> (r <? n)%nat -> c p q r s = 0)
  /\ c p q r s = c q p s r.
Proof.
  intros n nv t2 i j a b p q r s c. unfold c, mp2_rdm2. cbv zeta. unfold put, tconj, inpart, off.
  assert (N : forall x, (n <=? x)%nat = negb (x <? n)%nat) by (intros x; destruct (Nat.ltb_spec x n), (Nat.leb_spec n x); cbn; auto; lia).
  rewrite !N.
  assert (L : forall x, (n + x <? n)%nat = false /\ (n + x - n = x)%nat) by (intros x; split; [apply Nat.ltb_ge|]; lia).
  split; [|split].
  - intros Hi Hj. apply Nat.ltb_lt in Hi. apply Nat.ltb_lt in Hj. destruct (L a) as (A1 & A2). destruct (L b) as (B1 & B2). rewrite A1, B1, Hi, Hj. cbn [negb andb]. rewrite ?A2, ?B2. unfold two. split; ring.
  - destruct (p <? n)%nat, (q <? n)%nat, (r <? n)%nat, (s <? n)%nat; cbn [negb andb]; intros; try reflexivity; intuition congruence.
  - destruct (p <? n)%nat, (q <? n)%nat, (r <? n)%nat, (s <? n)%nat; cbn [negb andb]; try reflexivity.
Qed.

(** *** Unrestricted *)
Definition product_ss (d : mat) : ten := fun p q r s => d p q * d r s - d p s * d r q.
Definition product_ab (da db : mat) : ten := fun p q r s => da p q * db r s.

Lemma ucc_rdm1_mf n (d : gamma1 K) p q : ucc_rdm1 half n d true p q = ucc_rdm1 half n d false p q + occ n p q.
Proof. unfold ucc_rdm1. rewrite add_diag_occ. ring. Qed.

Definition paa {A B C : Type} (x : A * B * C) := fst (fst x).
Definition pab {A B C : Type} (x : A * B * C) := snd (fst x).
Definition pbb {A B C : Type} (x : A * B * C) := snd x.

Lemma add_ss n (d : gamma1 K) (x : ten) p q r s :
  let dc := ucc_rdm1 half n d false in
  tconj (ucc_add_dm1_ss n (add_diag n (- (1)) (ucc_rdm1 half n d true)) (tconj x)) p q r s =
  x p q r s + product_ss (ucc_rdm1 half n d true) p q r s - product_ss dc p q r s.
Proof.
  intros dc. assert (Sc := C44_uccsd_symmetric n d false). fold dc in Sc. unfold tconj at 1. unfold ucc_add_dm1_ss. cbv zeta.
  rewrite loop_iijj, loop4. unfold mtrans, product_ss. rewrite !add_diag_occ, !ucc_rdm1_mf. fold dc. unfold tconj.
  sort p q r s Sc (occ_sym n). ring.
Qed.

Theorem C45_unrestricted : forall n m d1a d1b d2 oa oab ob p q r s,
  let F := uccsd_rdm2 half n m d1a d1b d2 oa oab ob Full in
  let A := uccsd_rdm2 half n m d1a d1b d2 oa oab ob Approx in
  let X := uccsd_rdm2 half n m d1a d1b d2 oa oab ob Exact in
  let da := ucc_rdm1 half n d1a in let db := ucc_rdm1 half m d1b in
  paa F p q r s = paa X p q r s + product_ss (da true) p q r s /\
  pab F p q r s = pab X p q r s + product_ab (da true) (db true) p q r s /\
  pbb F p q r s = pbb X p q r s + product_ss (db true) p q r s /\
  paa A p q r s = paa X p q r s + product_ss (da false) p q r s /\
  pab A p q r s = pab X p q r s + product_ab (da false) (db false) p q r s /\
  pbb A p q r s = pbb X p q r s + product_ss (db false) p q r s.
Proof.
  intros n m d1a d1b d2 oa oab ob p q r s F A X da db.
  assert (Sa := C44_uccsd_symmetric n d1a false). assert (Sb := C44_uccsd_symmetric m d1b false).
  subst F A X da db. cbn [uccsd_rdm2]. unfold ucc_rdm2. cbv zeta. unfold paa, pab, pbb. cbn [fst snd]. rewrite !add_ss.
  unfold tsub, unon_cumulant_ss, unon_cumulant_ab, product_ss, product_ab.
  rewrite !(Sa r q), !(Sb r q). split; [ring|split; [|repeat split; ring]].
  unfold tconj at 1. unfold ucc_add_dm1_ab. cbv zeta. rewrite loop_ab3, loop_ab2, loop_ab1, !add_diag_occ, !ucc_rdm1_mf. unfold tconj.
  rewrite ?(Sa q p), ?(Sb s r), ?(occ_sym n q p), ?(occ_sym m s r). ring.
Qed.

Theorem C45_unrestricted_stored : forall n m (da db : mat) aa ab bb p q r s,
  (forall p q, da p q = da q p) -> (forall p q, db p q = db q p) ->
  let F := urdm_rdm2 n m da db aa ab bb Full in
  let A := urdm_rdm2 n m da db aa ab bb Approx in
  let X := urdm_rdm2 n m da db aa ab bb Exact in
  let ca : mat := fun p q => da p q - occ n p q in let cb : mat := fun p q => db p q - occ m p q in
  paa F p q r s = paa X p q r s + product_ss da p q r s /\
  pab F p q r s = pab X p q r s + product_ab da db p q r s /\
  pbb F p q r s = pbb X p q r s + product_ss db p q r s /\
  paa A p q r s = paa X p q r s + product_ss ca p q r s /\
  pab A p q r s = pab X p q r s + product_ab ca cb p q r s /\
  pbb A p q r s = pbb X p q r s + product_ss cb p q r s.
Proof.
  intros n m da db aa ab bb p q r s Sa Sb F A X ca cb. subst F A X ca cb. cbn [urdm_rdm2].
  unfold paa, pab, pbb. cbn [fst snd]. unfold tsub, unon_cumulant_ss, unon_cumulant_ab, product_ss, product_ab.
  unfold urdm_remove_ss, urdm_remove_ab. cbv zeta. rewrite !loop_iijj, !loop4, loop_ab3, loop_ab2, loop_ab1. unfold mtrans. rewrite !add_diag_occ.
  sort p q r s Sa (occ_sym n). sort p q r s Sb (occ_sym m). repeat split; ring.
Qed.

Theorem C45_unrestricted_round_trip : forall n m d1a d1b d2 oa oab ob c p q r s,
  let F := uccsd_rdm2 half n m d1a d1b d2 oa oab ob Full in
  let S := urdm_rdm2 n m (ucc_rdm1 half n d1a true) (ucc_rdm1 half m d1b true) (paa F) (pab F) (pbb F) c in
  let W := uccsd_rdm2 half n m d1a d1b d2 oa oab ob c in
  paa S p q r s = paa W p q r s /\ pab S p q r s = pab W p q r s /\ pbb S p q r s = pbb W p q r s.
Proof.
  intros n m d1a d1b d2 oa oab ob c p q r s F S W.
  destruct (C45_unrestricted n m d1a d1b d2 oa oab ob p q r s) as (U1 & U2 & U3 & U4 & U5 & U6).
  destruct (C45_unrestricted_stored n m (ucc_rdm1 half n d1a true) (ucc_rdm1 half m d1b true) (paa F) (pab F) (pbb F) p q r s
    (C44_uccsd_symmetric n d1a true) (C44_uccsd_symmetric m d1b true)) as (V1 & V2 & V3 & V4 & V5 & V6).
  cbv zeta in *. fold F in U1, U2, U3. subst S W.
  assert (X1 : paa (urdm_rdm2 n m (ucc_rdm1 half n d1a true) (ucc_rdm1 half m d1b true) (paa F) (pab F) (pbb F) Exact) p q r s
    = paa (uccsd_rdm2 half n m d1a d1b d2 oa oab ob Exact) p q r s).
  { transitivity (paa F p q r s - product_ss (ucc_rdm1 half n d1a true) p q r s); [|rewrite U1; ring].
    transitivity (paa (urdm_rdm2 n m (ucc_rdm1 half n d1a true) (ucc_rdm1 half m d1b true) (paa F) (pab F) (pbb F) Full) p q r s
      - product_ss (ucc_rdm1 half n d1a true) p q r s); [rewrite V1; ring|reflexivity]. }
  assert (X2 : pab (urdm_rdm2 n m (ucc_rdm1 half n d1a true) (ucc_rdm1 half m d1b true) (paa F) (pab F) (pbb F) Exact) p q r s
    = pab (uccsd_rdm2 half n m d1a d1b d2 oa oab ob Exact) p q r s).
  { transitivity (pab F p q r s - product_ab (ucc_rdm1 half n d1a true) (ucc_rdm1 half m d1b true) p q r s); [|rewrite U2; ring].
    transitivity (pab (urdm_rdm2 n m (ucc_rdm1 half n d1a true) (ucc_rdm1 half m d1b true) (paa F) (pab F) (pbb F) Full) p q r s
      - product_ab (ucc_rdm1 half n d1a true) (ucc_rdm1 half m d1b true) p q r s); [rewrite V2; ring|reflexivity]. }
  assert (X3 : pbb (urdm_rdm2 n m (ucc_rdm1 half n d1a true) (ucc_rdm1 half m d1b true) (paa F) (pab F) (pbb F) Exact) p q r s
    = pbb (uccsd_rdm2 half n m d1a d1b d2 oa oab ob Exact) p q r s).
  { transitivity (pbb F p q r s - product_ss (ucc_rdm1 half m d1b true) p q r s); [|rewrite U3; ring].
    transitivity (pbb (urdm_rdm2 n m (ucc_rdm1 half n d1a true) (ucc_rdm1 half m d1b true) (paa F) (pab F) (pbb F) Full) p q r s
      - product_ss (ucc_rdm1 half m d1b true) p q r s); [rewrite V3; ring|reflexivity]. }
  destruct c; [repeat split|split; [|split]|auto].
  - rewrite V4, X1, U4. unfold product_ss. rewrite !ucc_rdm1_mf. ring.
  - rewrite V5, X2, U5. unfold product_ab. rewrite !ucc_rdm1_mf. ring.
  - rewrite V6, X3, U6. unfold product_ss. rewrite !ucc_rdm1_mf. ring.
Qed.

(** Restricted and unrestricted forms agree: summing the four spin blocks of the products of d with itself. *)
Theorem C45_spin_sum : forall (d : mat) p q r s,
  product (fun p q => d p q + d p q) p q r s =
  product_ss d p q r s + product_ab d d p q r s + product_ab d d r s p q + product_ss d p q r s.
Proof.
  intros. unfold product, product_ss, product_ab.
  transitivity ((d p q + d p q) * (d r s + d r s) - (half + half) * (d p s * d r q + d p s * d r q)); [ring|rewrite Hhalf; ring].
Qed.

(** *** Mean-field states *)
Theorem C45_hermitian : forall n d1 d2 out c p q r s,
  ccsd_rdm2 half n d1 d2 out c p q r s = ccsd_rdm2 half n d1 d2 out c q p s r.
Proof.
  intros n d1 d2 out c p q r s. assert (Sc := C44_ccsd_symmetric n d1 false). assert (St := C44_ccsd_symmetric n d1 true).
  assert (X : ccsd_rdm2 half n d1 d2 out Exact p q r s = ccsd_rdm2 half n d1 d2 out Exact q p s r).
  { cbn [ccsd_rdm2]. unfold cc_rdm2, non_cumulant. rewrite (make_rdm2_herm n d2 out p q r s).
    sort p q r s Sc (occ_sym n). ring. }
  destruct (C45_restricted n d1 d2 out p q r s) as (A & B). destruct (C45_restricted n d1 d2 out q p s r) as (A' & B'). cbv zeta in *.
  destruct c; [|rewrite B, B'|exact X]; [rewrite A, A'|]; rewrite X; unfold product;
    [sort p q r s St (occ_sym n)|sort p q r s Sc (occ_sym n)]; ring.
Qed.

(** With vanishing amplitudes the full matrix is the product form of the mean-field density matrix and both cumulants vanish. *)
Definition zero1 : gamma1 K := {| g_oo := fun _ _ => 0; g_ov := fun _ _ => 0; g_vo := fun _ _ => 0; g_vv := fun _ _ => 0 |}.
Definition zt : ten := fun _ _ _ _ => 0.
Definition zero2 : dm2i K := {| d_ovov := zt; d_vvvv := zt; d_oooo := zt; d_oovv := zt; d_ovvo := zt; d_ovvv := zt; d_ooov := zt |}.
Theorem C45_mean_field : forall n out p q r s,
  ccsd_rdm2 half n zero1 zero2 out Full p q r s = product (mf_dm1 n) p q r s /\
  ccsd_rdm2 half n zero1 zero2 out Approx p q r s = 0 /\ ccsd_rdm2 half n zero1 zero2 out Exact p q r s = 0.
Proof.
  intros n out p q r s. destruct (C45_restricted n zero1 zero2 out p q r s) as (A & B). cbv zeta in *.
  assert (Z : forall p q, cc_rdm1 n zero1 false p q = 0).
  { intros. unfold cc_rdm1, blocks, symm, mtrans, zero1. cbn [g_oo g_ov g_vo g_vv]. destruct (p0 <? n)%nat, (q0 <? n)%nat; ring. }
  assert (E : ccsd_rdm2 half n zero1 zero2 out Exact p q r s = 0).
  { cbn [ccsd_rdm2]. unfold cc_rdm2, non_cumulant. rewrite !Z, make_rdm2_zero by reflexivity. ring. }
  rewrite A, B, E. unfold product. rewrite !cc_rdm1_mf, !Z. repeat split; ring.
Qed.
Theorem C45_mean_field_mp2 : forall n nv p q r s,
  mp2_rdm2 n nv zt true p q r s = product (mf_dm1 n) p q r s /\ mp2_rdm2 n nv zt false p q r s = 0.
Proof.
  intros n nv p q r s. assert (A := C45_mp2 n nv zt p q r s).
  assert (Z : forall p q, mp2_rdm1 n nv zt false p q = 0).
  { intros. unfold mp2_rdm1, blocks, symm, mp2_doo, mp2_dvv, zt.
    assert (S0 : forall a b c, Sum a (fun _ => Sum b (fun _ => Sum c (fun _ => 0 * 0))) = (0 : K)).
    { intros. apply Sum_0; intros; apply Sum_0; intros; apply Sum_0; intros; ring. }
    destruct (p0 <? n)%nat, (q0 <? n)%nat; rewrite ?S0; unfold two; ring. }
  assert (B : mp2_rdm2 n nv zt false p q r s = 0).
  { unfold mp2_rdm2, zt, put, tconj. cbv zeta. destruct (_ && _)%bool; [unfold two; ring|]. destruct (_ && _)%bool; unfold two; ring. }
  rewrite B in *. split; [|reflexivity]. transitivity (mp2_rdm2 n nv zt true p q r s - product (mp2_rdm1 n nv zt true) p q r s + product (mp2_rdm1 n nv zt true) p q r s); [ring|].
  rewrite A. unfold product. rewrite !mp2_rdm1_mf, !Z. ring.
Qed.
End Half.
End P.

(** ** Cases *)
Definition hq : QF := Q2Qc (1 # 2).
Lemma hq_half : radd hq hq = r1.
Proof. apply Qc_is_canon. reflexivity. Qed.
Notation qn z := (Q2Qc (inject_Z z) : QF).
Definition q1 : nat -> nat -> QF := fun i a => qn (Z.of_nat (1 + i + 2 * a)).
Definition q2 : nat -> nat -> nat -> nat -> QF := fun i j a b => qn (Z.of_nat (1 + (1 + i + 3 * a) * (1 + j + 3 * b))).
Definition q2l : nat -> nat -> nat -> nat -> QF := fun i j a b => qn (Z.of_nat (2 + (1 + 2 * i + a) * (1 + 2 * j + b))).
Lemma q2_sym : sym_t2 2 2 q2 /\ sym_t2 2 2 q2l.
Proof. split; intros i j a b _ _ _ _; unfold q2, q2l; do 3 f_equal; lia. Qed.

Example C44_mp2_instance : sym_t2 2 2 q2 /\ trace 4 (mp2_rdm1 2 2 q2 true) = qn 4 /\ trace 4 (mp2_rdm1 2 2 q2 false) = qn 0 /\
  virtual 2 2 (mp2_rdm1 2 2 q2 true) = qn 4876.
Proof. split; [apply q2_sym|]. repeat split; apply Qc_is_canon; vm_compute; reflexivity. Qed.
Example C44_ccsd_instance : let d := cc_gamma1 2 2 q1 q2 q1 q2l in
  trace 4 (cc_rdm1 2 d true) = qn 4 /\ virtual 2 2 (cc_rdm1 2 d true) = qn 3374 /\ cc_rdm1 2 d true 0%nat 3%nat <> qn 0.
Proof. split; [|split]; [apply Qc_is_canon; vm_compute; reflexivity..|]. intros E. apply (f_equal this) in E. vm_compute in E. discriminate. Qed.
(** one alpha and two beta electrons, two alpha and one beta virtuals *)
Example C44_uccsd_instance : let '(da, db) := ucc_gamma1_ab hq 1 2 2 1 q1 q1 (fun i j a b => q2 i j a b) q2 q2l q1 q1 q2l q2 q2 in
  trace 3 (ucc_rdm1 hq 1 da true) = qn 1 /\ trace 3 (ucc_rdm1 hq 2 db true) = qn 2 /\ virtual 1 2 (ucc_rdm1 hq 1 da true) <> qn 0.
Proof. split; [|split]; [apply Qc_is_canon; vm_compute; reflexivity..|]. intros E. apply (f_equal this) in E. vm_compute in E. discriminate. Qed.

(** Without the symmetry (for example amplitudes projected onto a fragment in their first index) the trace of the MP2
    density matrix is not the number of electrons. *)
Theorem C44_mp2_projected_refuted : ~ forall n nv (t2 : nat -> nat -> nat -> nat -> ZK),
  trace (n + nv) (mp2_rdm1 n nv t2 true) = (two * nK n)%K.
Proof.
  intros H. specialize (H 2%nat 2%nat (fun i j a b => if (i =? 0)%nat && (j =? 1)%nat && (a =? 0)%nat && (b =? 1)%nat then 1%Z
    else if (i =? 0)%nat && (j =? 1)%nat && (a =? 1)%nat && (b =? 0)%nat then 1%Z else 0%Z)). vm_compute in H. discriminate.
Qed.

Definition i2 : dm2i QF := {| d_ovov := q2; d_vvvv := q2l; d_oooo := q2; d_oovv := q2; d_ovvo := q2l; d_ovvv := q2; d_ooov := q2l |}.
Example C45_instance :
  let d := cc_gamma1 2 2 q1 q2 q1 q2l in let out := (fun _ _ _ _ => qn 0) in
  let F := ccsd_rdm2 hq 2 d i2 out Full in
  F 0%nat 0%nat 1%nat 1%nat <> ccsd_rdm2 hq 2 d i2 out Approx 0%nat 0%nat 1%nat 1%nat /\
  ccsd_rdm2 hq 2 d i2 out Approx 0%nat 0%nat 1%nat 1%nat <> ccsd_rdm2 hq 2 d i2 out Exact 0%nat 0%nat 1%nat 1%nat /\
  rdm_rdm2 hq 2 (cc_rdm1 2 d true) F Approx 0%nat 0%nat 1%nat 1%nat = ccsd_rdm2 hq 2 d i2 out Approx 0%nat 0%nat 1%nat 1%nat.
Proof.
  cbv zeta. split; [|split]; [| |apply (C45_round_trip hq hq_half)]; intros E; apply (f_equal this) in E; vm_compute in E; discriminate.
Qed.
Example C45_mp2_instance : mp2_rdm2 2 2 q2 true 0%nat 0%nat 1%nat 1%nat <> mp2_rdm2 2 2 q2 false 0%nat 0%nat 1%nat 1%nat /\
  product hq (mp2_rdm1 2 2 q2 true) 0%nat 0%nat 1%nat 1%nat <> qn 0.
Proof. split; intros E; apply (f_equal this) in E; vm_compute in E; discriminate. Qed.
Example C45_mp2_cumulant_instance : mp2_rdm2 2 2 q2 false 0%nat 3%nat 1%nat 2%nat = qn 24 /\ mp2_rdm2 2 2 q2 false 3%nat 0%nat 2%nat 1%nat = qn 24.
Proof. split; apply Qc_is_canon; vm_compute; reflexivity. Qed.
Definition w2 : udm2i QF := {| w_aa := i2; w_bb := i2; w_ovOV := q2; w_vvVV := q2; w_ooOO := q2l; w_ooVV := q2; w_OOvv := q2; w_ovVO := q2l;
  w_ovVV := q2; w_OVvv := q2l; w_ooOV := q2; w_OOov := q2 |}.
Example C45_unrestricted_instance :
  let '(da, db) := ucc_gamma1_ab hq 1 2 2 1 q1 q1 q2 q2 q2l q1 q1 q2l q2 q2 in let out := (fun _ _ _ _ => qn 0) in
  let W := uccsd_rdm2 hq 1 2 da db w2 out out out in
  pab (W Full) 0%nat 0%nat 1%nat 1%nat <> pab (W Approx) 0%nat 0%nat 1%nat 1%nat /\
  pbb (W Full) 0%nat 0%nat 1%nat 1%nat <> pbb (W Approx) 0%nat 0%nat 1%nat 1%nat /\
  pbb (W Approx) 0%nat 0%nat 1%nat 1%nat <> pbb (W Exact) 0%nat 0%nat 1%nat 1%nat.
Proof. cbv zeta. repeat split; intros E; apply (f_equal this) in E; vm_compute in E; discriminate. Qed.
(** The product form itself: two electrons in one orbital *)
Example C45_mean_field_instance : product hq (mf_dm1 (K := QF) 1) 0%nat 0%nat 0%nat 0%nat = qn 2.
Proof. apply Qc_is_canon. vm_compute. reflexivity. Qed.

Print Assumptions C44_mp2_symmetric.
Print Assumptions C44_mp2_electrons.
Print Assumptions C44_ccsd_symmetric.
Print Assumptions C44_ccsd_electrons.
Print Assumptions C44_uccsd_symmetric.
Print Assumptions C44_uccsd_electrons.
Print Assumptions C44_closed_shell.
Print Assumptions C44_mp2_projected_refuted.
Print Assumptions C45_restricted.
Print Assumptions C45_stored.
Print Assumptions C45_round_trip.
Print Assumptions C45_mp2.
Print Assumptions C45_mp2_cumulant.
Print Assumptions C45_unrestricted.
Print Assumptions C45_unrestricted_stored.
Print Assumptions C45_unrestricted_round_trip.
Print Assumptions C45_spin_sum.
Print Assumptions C45_hermitian.
Print Assumptions C45_mean_field.
Print Assumptions C45_mean_field_mp2.
