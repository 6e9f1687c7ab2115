(** C34: democratically partitioned density matrices. *)
From Coq Require Import List Arith Bool Lia Ring ZArith QArith Qcanon.
From Verif Require Import Alg M_Rdm M_Demo P_Rdm.
Import ListNotations.
Close Scope Q_scope. Close Scope Qc_scope. Close Scope Z_scope. Open Scope nat_scope.

Section Thms.
Context (K : cring).
Add Ring Kr : (rth K).
Open Scope K_scope.
Variable half : K.
Hypothesis Hhalf : half + half = 1.
Notation mat := (nat -> nat -> K).
Notation ten := (nat -> nat -> nat -> nat -> K).

(** ** Sums over fragments *)
Lemma fold_mat {A} (step : mat -> A -> mat) (c : A -> K) p q l : (forall a x, step a x p q = a p q + c x) ->
  forall a, fold_left step l a p q = a p q + Lsum l c.
Proof. intros H. induction l as [|x l IH]; intros a; cbn [fold_left Lsum]; [ring|]. rewrite IH, H. ring. Qed.
Lemma fold_ten {A} (step : ten -> A -> ten) (c : A -> K) p q r s l : (forall a x, In x l -> step a x p q r s = a p q r s + c x) ->
  forall a, fold_left step l a p q r s = a p q r s + Lsum l c.
Proof.
  intros H. induction l as [|x l IH]; intros a; cbn [fold_left Lsum]; [ring|]. rewrite IH by (intros; apply H; now right). rewrite H by now left. ring.
Qed.
(** ** Clusters that contain all orbitals *)
(** The cluster orbitals are an orthonormal basis of all orbitals *)
Definition complete (nmo : nat) (o : orbs K) : Prop := forall p q, (p < nmo)%nat -> (q < nmo)%nat -> Sum (nclu o) (fun x => rx o p x * rx o q x) = delta p q.
(** The fragment orbitals of all fragments together are an orthonormal basis *)
Definition partition {A} (nmo : nat) (o : A -> orbs K) (l : list A) : Prop := forall p q, (p < nmo)%nat -> (q < nmo)%nat ->
  Lsum l (fun x => Sum (nfrg (o x)) (fun f => fx (o x) p f * fx (o x) q f)) = delta p q.
(** A two-particle array of the cluster in the MO basis *)
Definition to_mo2 (o o' : orbs K) (d : ten) : ten := fun p q r s =>
  Sum (nclu o) (fun i => Sum (nclu o) (fun j => Sum (nclu o') (fun k => Sum (nclu o') (fun l => rx o p i * rx o q j * rx o' r k * rx o' s l * d i j k l)))).

(** The fragment orbitals lie in the cluster space *)
Definition contains (nmo : nat) (o : orbs K) : Prop := forall p f, (p < nmo)%nat -> (f < nfrg o)%nat -> Sum (nclu o) (fun x => rx o p x * cl_fr nmo o x f) = fx o p f.
Lemma complete_contains nmo o : complete nmo o -> contains nmo o.
Proof.
  intros Hc p f Hp Hf. unfold cl_fr.
      rewrite (Sum_ext (nclu o) _ (fun x => Sum nmo (fun q => fx o q f * (rx o p x * rx o q x)))).
      * rewrite Sum_swap. rewrite (Sum_ext nmo _ (fun q => delta p q * fx o q f)).
        -- now apply (Sum_delta_l nmo p (fun q => fx o q f)).
        -- intros q Hq. rewrite Sum_mul_l, Hc by auto. ring.
      * intros x Hx. rewrite <- Sum_mul_l. apply Sum_ext. intros. ring.
Qed.
Lemma key nmo o (h : nat -> K) p : contains nmo o -> (p < nmo)%nat ->
  Sum (nclu o) (fun x => rx o p x * Sum (nclu o) (fun i => px nmo o x i * h i)) = Sum nmo (fun q => pmo o p q * Sum (nclu o) (fun i => rx o q i * h i)).
Proof.
  intros Hc Hp. unfold px, pmo.
  transitivity (Sum (nfrg o) (fun f => fx o p f * Sum (nclu o) (fun i => cl_fr nmo o i f * h i))).
  - transitivity (Sum (nfrg o) (fun f => Sum (nclu o) (fun x => rx o p x * cl_fr nmo o x f) * Sum (nclu o) (fun i => cl_fr nmo o i f * h i))).
    + rewrite (Sum_ext (nclu o) _ (fun x => Sum (nfrg o) (fun f => rx o p x * cl_fr nmo o x f * Sum (nclu o) (fun i => cl_fr nmo o i f * h i)))).
      * rewrite Sum_swap. apply Sum_ext. intros f Hf. now rewrite Sum_mul_r.
      * intros x Hx. rewrite (Sum_ext (nclu o) _ (fun i => Sum (nfrg o) (fun f => cl_fr nmo o x f * (cl_fr nmo o i f * h i)))).
        -- rewrite Sum_swap, <- Sum_mul_l. apply Sum_ext. intros f Hf. rewrite Sum_mul_l. ring.
        -- intros i Hi. rewrite <- Sum_mul_r. apply Sum_ext. intros f Hf. ring.
    + apply Sum_ext. intros f Hf. f_equal. now apply Hc.
  - rewrite (Sum_ext (nfrg o) _ (fun f => Sum nmo (fun q => fx o p f * fx o q f * Sum (nclu o) (fun i => rx o q i * h i)))).
    + rewrite Sum_swap. apply Sum_ext. intros q Hq. now rewrite Sum_mul_r.
    + intros f Hf. unfold cl_fr.
      rewrite (Sum_ext (nclu o) _ (fun i => Sum nmo (fun q => fx o q f * (rx o q i * h i)))) by (intros; rewrite <- Sum_mul_r; apply Sum_ext; intros; ring).
      rewrite Sum_swap, <- Sum_mul_l. apply Sum_ext. intros q Hq. rewrite Sum_mul_l. ring.
Qed.
Lemma proj1_contains nmo o (d : mat) p q : contains nmo o -> (p < nmo)%nat -> proj1 nmo o d p q = Sum nmo (fun t => pmo o p t * to_mo o d t q).
Proof.
  intros Hc Hp. unfold proj1.
  rewrite (Sum_ext (nclu o) _ (fun x => rx o p x * Sum (nclu o) (fun i => px nmo o x i * Sum (nclu o) (fun j => d i j * rx o q j)))).
  - rewrite (key nmo o _ p Hc Hp). apply Sum_ext. intros t Ht. f_equal. unfold to_mo. apply Sum_ext. intros i Hi. rewrite <- Sum_mul_l. apply Sum_ext. intros. ring.
  - intros x Hx. rewrite <- Sum_mul_l. apply Sum_ext. intros i Hi. rewrite <- !Sum_mul_l. apply Sum_ext. intros. ring.
Qed.
Lemma proj2_contains nmo o o' (d : ten) p q r s : contains nmo o -> (p < nmo)%nat -> proj2 nmo o o' d p q r s = Sum nmo (fun t => pmo o p t * to_mo2 o o' d t q r s).
Proof.
  intros Hc Hp. unfold proj2.
  rewrite (Sum_ext (nclu o) _ (fun x => rx o p x * Sum (nclu o) (fun i => px nmo o x i *
     Sum (nclu o) (fun j => Sum (nclu o') (fun k => Sum (nclu o') (fun l => rx o q j * rx o' r k * rx o' s l * d i j k l)))))).
  - rewrite (key nmo o _ p Hc Hp). apply Sum_ext. intros t Ht. f_equal. unfold to_mo2. apply Sum_ext. intros i Hi.
    rewrite <- Sum_mul_l. apply Sum_ext. intros j Hj. rewrite <- Sum_mul_l. apply Sum_ext. intros k Hk. rewrite <- Sum_mul_l. apply Sum_ext. intros. ring.
  - intros x Hx. rewrite <- Sum_mul_l. apply Sum_ext. intros i Hi. rewrite <- !Sum_mul_l. apply Sum_ext. intros j Hj.
    rewrite <- !Sum_mul_l. apply Sum_ext. intros k Hk. rewrite <- !Sum_mul_l. apply Sum_ext. intros. ring.
Qed.
Lemma proj2b_contains nmo o o' (d : ten) p q r s : contains nmo o' -> (r < nmo)%nat -> proj2b nmo o o' d p q r s = Sum nmo (fun t => pmo o' r t * to_mo2 o o' d p q t s).
Proof.
  intros Hc Hr. unfold proj2b.
  rewrite (Sum_ext (nclu o') _ (fun x => rx o' r x * Sum (nclu o') (fun k => px nmo o' x k *
     Sum (nclu o) (fun i => Sum (nclu o) (fun j => Sum (nclu o') (fun l => rx o p i * rx o q j * rx o' s l * d i j k l)))))).
  - rewrite (key nmo o' _ r Hc Hr). apply Sum_ext. intros t Ht. f_equal. unfold to_mo2.
    transitivity (Sum (nclu o) (fun i => Sum (nclu o) (fun j => Sum (nclu o') (fun k => rx o' t k * Sum (nclu o') (fun l => rx o p i * rx o q j * rx o' s l * d i j k l))))).
    + rewrite (Sum_ext (nclu o') _ (fun k => Sum (nclu o) (fun i => Sum (nclu o) (fun j => rx o' t k * Sum (nclu o') (fun l => rx o p i * rx o q j * rx o' s l * d i j k l))))).
      * rewrite Sum_swap. apply Sum_ext. intros i Hi. apply Sum_swap.
      * intros k Hk. rewrite <- Sum_mul_l. apply Sum_ext. intros i Hi. now rewrite <- Sum_mul_l.
    + apply Sum_ext. intros i Hi. apply Sum_ext. intros j Hj. apply Sum_ext. intros k Hk. rewrite <- Sum_mul_l. apply Sum_ext. intros. ring.
  - intros x Hx. rewrite <- Sum_mul_l.
    transitivity (Sum (nclu o) (fun i => Sum (nclu o) (fun j => Sum (nclu o') (fun k => rx o' r x * (px nmo o' x k * Sum (nclu o') (fun l => rx o p i * rx o q j * rx o' s l * d i j k l)))))).
    + apply Sum_ext. intros i Hi. apply Sum_ext. intros j Hj. apply Sum_ext. intros k Hk. rewrite <- !Sum_mul_l. apply Sum_ext. intros. ring.
    + rewrite (Sum_ext (nclu o') (fun k => rx o' r x * (px nmo o' x k * _)) (fun k => Sum (nclu o) (fun i => Sum (nclu o) (fun j => rx o' r x * (px nmo o' x k * Sum (nclu o') (fun l => rx o p i * rx o q j * rx o' s l * d i j k l)))))).
      * rewrite (Sum_swap (nclu o') (nclu o)). apply Sum_ext. intros i Hi. now rewrite (Sum_swap (nclu o') (nclu o)).
      * intros k Hk. rewrite <- !Sum_mul_l. apply Sum_ext. intros i Hi. rewrite <- !Sum_mul_l. apply Sum_ext. intros j Hj. ring.
Qed.
Lemma proj1_complete nmo o (d : mat) p q : complete nmo o -> (p < nmo)%nat -> proj1 nmo o d p q = Sum nmo (fun t => pmo o p t * to_mo o d t q).
Proof. intros H. apply proj1_contains. now apply complete_contains. Qed.
Lemma proj2_complete nmo o o' (d : ten) p q r s : complete nmo o -> (p < nmo)%nat -> proj2 nmo o o' d p q r s = Sum nmo (fun t => pmo o p t * to_mo2 o o' d t q r s).
Proof. intros H. apply proj2_contains. now apply complete_contains. Qed.
Lemma proj2b_complete nmo o o' (d : ten) p q r s : complete nmo o' -> (r < nmo)%nat -> proj2b nmo o o' d p q r s = Sum nmo (fun t => pmo o' r t * to_mo2 o o' d p q t s).
Proof. intros H. apply proj2b_contains. now apply complete_contains. Qed.
(** The sum over all fragments of the projection of one quantity is the quantity *)
Lemma whole {A} nmo (o : A -> orbs K) l (h : nat -> K) p : partition nmo o l -> (p < nmo)%nat ->
  Lsum l (fun x => Sum nmo (fun t => pmo (o x) p t * h t)) = h p.
Proof.
  intros Hp Hlt. rewrite Lsum_Sum. rewrite (Sum_ext nmo _ (fun t => delta p t * h t)); [now apply (Sum_delta_l nmo p h)|].
  intros t Ht. rewrite Lsum_mul_r. f_equal. now apply Hp.
Qed.
Lemma sym1_id b (d : mat) p q : d p q = d q p -> sym1 half b d p q = d p q.
Proof. intros H. destruct b; cbn [sym1]; auto. rewrite <- H. transitivity ((half + half) * d p q); [ring|rewrite Hhalf; ring]. Qed.
Lemma sym2_id b (d : ten) p q r s : d p q r s = d q p s r -> sym2 half b d p q r s = d p q r s.
Proof. intros H. destruct b; cbn [sym2]; auto. rewrite <- H. transitivity ((half + half) * d p q r s); [ring|rewrite Hhalf; ring]. Qed.

(** ** C34, restricted *)
(** Every fragment was solved exactly: its cluster has all orbitals and its density matrices are those of one state of the system, with
    correlated one-particle density matrix [d] (beyond mean field), approximate cumulant [ga] and cumulant [ge]. *)
Definition exact_cluster (nmo : nat) (d : mat) (ga ge : ten) (x : rfrag K) : Prop :=
  complete nmo (r_o x) /\ forall p q r s, (p < nmo)%nat -> (q < nmo)%nat -> (r < nmo)%nat -> (s < nmo)%nat ->
  to_mo (r_o x) (r_dm1 x) p q = d p q /\ to_mo2 (r_o x) (r_o x) (r_approx x) p q r s = ga p q r s /\ to_mo2 (r_o x) (r_o x) (r_exact x) p q r s = ge p q r s.
Lemma to_mo_of nmo d ga ge x p q : exact_cluster nmo d ga ge x -> (p < nmo)%nat -> (q < nmo)%nat -> to_mo (r_o x) (r_dm1 x) p q = d p q.
Proof. intros [_ H] Hp Hq. now apply (H p q p p). Qed.
Theorem C34_rdm1_restricted : forall nmo nocc frags d ga ge with_mf symmetrize p q, (forall x, In x frags -> exact_cluster nmo d ga ge x) ->
  partition nmo r_o frags -> (forall p q, d p q = d q p) -> (p < nmo)%nat -> (q < nmo)%nat ->
  rdm1_demo half nmo nocc frags with_mf symmetrize p q = d p q + if with_mf then mf_dm1 nocc p q else 0.
Proof.
  intros nmo nocc frags d ga ge with_mf symmetrize p q Hx Hpart Hd Hp Hq.
  set (A := fold_left (fun dm1 x => plus1 dm1 (proj1 nmo (r_o x) (r_dm1 x))) frags (fun _ _ : nat => (0 : K))).
  assert (E : forall p q, (p < nmo)%nat -> (q < nmo)%nat -> A p q = d p q).
  { clear p q Hp Hq. intros p q Hp Hq. unfold A. rewrite (fold_mat _ (fun x => proj1 nmo (r_o x) (r_dm1 x) p q)) by reflexivity.
    rewrite (Lsum_ext frags _ (fun x => Sum nmo (fun t => pmo (r_o x) p t * d t q))).
    - rewrite (whole nmo r_o frags (fun t => d t q) p Hpart Hp). ring.
    - intros x Hin. rewrite proj1_complete by (auto; now apply Hx). apply Sum_ext. intros t Ht. f_equal. eapply to_mo_of; eauto. }
  unfold rdm1_demo. fold A. rewrite sym1_id.
  - destruct with_mf; [rewrite add_diag_occ|]; rewrite E by auto; unfold mf_dm1; ring.
  - destruct with_mf; rewrite ?add_diag_occ, !E by auto; rewrite (Hd q p), ?(occ_sym nocc q p); reflexivity.
Qed.
Lemma loop2 n (d : mat) c2 c3 (x : ten) p q r s : for_range n (fun i y => add__ii_ i c3 d (add___ii i c2 d y)) x p q r s
  = x p q r s + c2 * occ n r s * d p q + c3 * occ n q r * d p s.
Proof.
  induction n as [|n IH]; cbn [for_range]; [rewrite !occ_0; ring|]. rewrite add_e3, add_e2, IH, !occ_Sii. ring.
Qed.
(** Mixed products of mean field and correlated density matrices *)
Definition mixed_spec (nocc : nat) (d : mat) : ten := fun p q r s => product half (fun p q => d p q + mf_dm1 nocc p q) p q r s - product half d p q r s.
Lemma half_mix (a b x y : K) : half * ((a + two * x) * (b + two * y)) - half * (a * b) = x * b + a * y + two * x * y.
Proof.
  unfold two. transitivity ((half + half) * (x * b + a * y + (1 + 1) * x * y)); [ring|rewrite Hhalf; ring].
Qed.
Lemma mixed_loops nocc (d : mat) p q r s : (forall p q, d p q = d q p) ->
  two * occ nocc p q * add_diag nocc 1 d r s + two * occ nocc r s * add_diag nocc 1 d p q + - (1) * occ nocc q r * add_diag nocc 1 d p s + - (1) * occ nocc p s * add_diag nocc 1 d q r
  = mixed_spec nocc d p q r s.
Proof.
  intros Hd. unfold mixed_spec, product, mf_dm1. rewrite !add_diag_occ. rewrite (Hd r q), (occ_sym nocc r q).
  transitivity ((d p q + two * occ nocc p q) * (d r s + two * occ nocc r s) - d p q * d r s
   - (half * ((d p s + two * occ nocc p s) * (d q r + two * occ nocc q r)) - half * (d p s * d q r))); [|ring].
  rewrite half_mix. unfold two. ring.
Qed.
Lemma pocc_sum nmo nocc frags p q : partition nmo r_o frags -> (p < nmo)%nat -> (q < nmo)%nat -> Lsum frags (fun x => pocc nocc (r_o x) p q) = (occ nocc p q : K).
Proof.
  intros Hpart Hp Hq. unfold pocc, occ. destruct (p <? nocc)%nat eqn:E.
  - rewrite (Hpart p q Hp Hq : Lsum frags (fun x => pmo (r_o x) p q) = delta p q). unfold delta. now destruct (p =? q)%nat.
  - rewrite Lsum_0 by auto. now rewrite andb_false_r.
Qed.
(** All options: with and without the one-particle part, partitioned cumulant or partitioned density matrix, approximate or exact cumulant. *)
Theorem C34_rdm2_restricted : forall nmo nocc frags d gamma ga ge with_dm1 part_cumulant approx_cumulant symmetrize p q r s,
  (forall x, In x frags -> exact_cluster nmo d ga ge x) -> partition nmo r_o frags -> (forall p q, d p q = d q p) ->
  (forall p q r s, gamma p q r s = gamma q p s r) ->
  (forall p q r s, ga p q r s = gamma p q r s - mixed_spec nocc d p q r s) ->
  (forall p q r s, ge p q r s = gamma p q r s - product half (fun p q => d p q + mf_dm1 nocc p q) p q r s) ->
  (p < nmo)%nat -> (q < nmo)%nat -> (r < nmo)%nat -> (s < nmo)%nat ->
  rdm2_demo half nmo nocc frags with_dm1 part_cumulant approx_cumulant symmetrize p q r s
  = if with_dm1 then gamma p q r s else if approx_cumulant then ga p q r s else ge p q r s.
Proof.
  intros nmo nocc frags d gamma ga ge wd pc ac symmetrize p q r s Hx Hpart Hd Hg Ha He Hp Hq Hr Hs.
  assert (Sa : forall p q r s, ga p q r s = ga q p s r).
  { intros. rewrite !Ha, Hg. f_equal. unfold mixed_spec, product, mf_dm1. rewrite (Hd q0 p0), (Hd s0 r0), (Hd q0 r0), (Hd s0 p0), (occ_sym _ q0 p0), (occ_sym _ s0 r0), (occ_sym _ q0 r0), (occ_sym _ s0 p0). ring. }
  assert (Se : forall p q r s, ge p q r s = ge q p s r).
  { intros. rewrite !He, Hg. f_equal. unfold product, mf_dm1. rewrite (Hd q0 p0), (Hd s0 r0), (Hd q0 r0), (Hd s0 p0), (occ_sym _ q0 p0), (occ_sym _ s0 r0), (occ_sym _ q0 r0), (occ_sym _ s0 p0). ring. }
  (* the projected cumulants *)
  assert (PA : forall p q r s, (p < nmo)%nat -> (q < nmo)%nat -> (r < nmo)%nat -> (s < nmo)%nat -> Lsum frags (fun x => proj2 nmo (r_o x) (r_o x) (r_approx x) p q r s) = ga p q r s).
  { clear p q r s Hp Hq Hr Hs. intros p q r s Hp Hq Hr Hs.
    rewrite (Lsum_ext frags _ (fun x => Sum nmo (fun t => pmo (r_o x) p t * ga t q r s))); [now apply (whole nmo r_o frags (fun t => ga t q r s))|].
    intros x Hin. destruct (Hx x Hin) as [C D]. rewrite proj2_complete by auto. apply Sum_ext. intros t Ht. f_equal. now apply D. }
  assert (PE : forall p q r s, (p < nmo)%nat -> (q < nmo)%nat -> (r < nmo)%nat -> (s < nmo)%nat -> Lsum frags (fun x => proj2 nmo (r_o x) (r_o x) (r_exact x) p q r s) = ge p q r s).
  { clear p q r s Hp Hq Hr Hs. intros p q r s Hp Hq Hr Hs.
    rewrite (Lsum_ext frags _ (fun x => Sum nmo (fun t => pmo (r_o x) p t * ge t q r s))); [now apply (whole nmo r_o frags (fun t => ge t q r s))|].
    intros x Hin. destruct (Hx x Hin) as [C D]. rewrite proj2_complete by auto. apply Sum_ext. intros t Ht. f_equal. now apply D. }
  (* the loop over fragments *)
  set (A := fold_left (rdm2_step nmo nocc wd pc ac) frags (fun _ _ _ _ : nat => (0 : K))).
  assert (EA : forall p q r s, (p < nmo)%nat -> (q < nmo)%nat -> (r < nmo)%nat -> (s < nmo)%nat ->
     A p q r s = if pc || negb wd then (if ac then ga p q r s else ge p q r s) else gamma p q r s).
  { clear p q r s Hp Hq Hr Hs. intros p q r s Hp Hq Hr Hs. unfold A. destruct (pc || negb wd) eqn:Ep.
    - rewrite (fold_ten _ (fun x => proj2 nmo (r_o x) (r_o x) (if ac then r_approx x else r_exact x) p q r s)).
      + destruct ac; [rewrite PA by auto|rewrite PE by auto]; ring.
      + intros a x Hin. unfold rdm2_step. rewrite Ep. reflexivity.
    - rewrite (fold_ten _ (fun x => (two * pocc nocc (r_o x) p q * add_diag nocc 1 d r s + - (1) * pocc nocc (r_o x) p s * add_diag nocc 1 d q r
         + two * occ nocc r s * Sum nmo (fun t => pmo (r_o x) p t * add_diag nocc 1 d t q) + - (1) * occ nocc q r * Sum nmo (fun t => pmo (r_o x) p t * add_diag nocc 1 d t s))
         + proj2 nmo (r_o x) (r_o x) (r_approx x) p q r s)).
      + rewrite !Lsum_add, PA by auto.
        rewrite (Lsum_ext frags (fun x => two * pocc nocc (r_o x) p q * add_diag nocc 1 d r s) (fun x => pocc nocc (r_o x) p q * (two * add_diag nocc 1 d r s))) by (intros; ring).
        rewrite (Lsum_ext frags (fun x => - (1) * pocc nocc (r_o x) p s * add_diag nocc 1 d q r) (fun x => pocc nocc (r_o x) p s * (- (1) * add_diag nocc 1 d q r))) by (intros; ring).
        rewrite !Lsum_mul_r, !Lsum_mul_l, !(pocc_sum nmo) by auto.
        rewrite (whole nmo r_o frags (fun t => add_diag nocc 1 d t q) p) by auto. rewrite (whole nmo r_o frags (fun t => add_diag nocc 1 d t s) p) by auto.
        rewrite Ha, <- (mixed_loops nocc d) by auto. ring.
      + intros a x Hin. unfold rdm2_step. rewrite Ep. unfold plus2 at 1. unfold mixed. rewrite loop2. unfold plus2, scale2, outer, outer_x.
        assert (Ex : forall p q, (p < nmo)%nat -> (q < nmo)%nat -> add_diag nocc 1 (to_mo (r_o x) (r_dm1 x)) p q = add_diag nocc 1 d p q).
        { intros. rewrite !add_diag_occ. f_equal. eapply to_mo_of; eauto. }
        rewrite (Ex r s), (Ex q r) by auto.
        rewrite (Sum_ext nmo (fun r0 => pmo (r_o x) p r0 * add_diag nocc 1 (to_mo (r_o x) (r_dm1 x)) r0 q) (fun t => pmo (r_o x) p t * add_diag nocc 1 d t q)) by (intros; now rewrite Ex).
        rewrite (Sum_ext nmo (fun r0 => pmo (r_o x) p r0 * add_diag nocc 1 (to_mo (r_o x) (r_dm1 x)) r0 s) (fun t => pmo (r_o x) p t * add_diag nocc 1 d t s)) by (intros; now rewrite Ex).
        ring. }
  assert (D1 : forall mf p q, (p < nmo)%nat -> (q < nmo)%nat -> rdm1_demo half nmo nocc frags mf true p q = d p q + if mf then mf_dm1 nocc p q else 0).
  { intros. eapply C34_rdm1_restricted; eauto. }
  unfold rdm2_demo. fold A. cbv zeta. match goal with |- sym2 _ _ ?X _ _ _ _ = _ => set (B := X) end.
  assert (EB : forall p q r s, (p < nmo)%nat -> (q < nmo)%nat -> (r < nmo)%nat -> (s < nmo)%nat ->
     B p q r s = if wd then gamma p q r s else if ac then ga p q r s else ge p q r s).
  { clear p q r s Hp Hq Hr Hs. intros p q r s Hp Hq Hr Hs. unfold B. destruct wd, pc; cbn [andb orb negb] in *.
    - destruct ac.
      + rewrite loop4, EA by auto.
        assert (Ex : forall p q, (p < nmo)%nat -> (q < nmo)%nat -> add_diag nocc 1 (rdm1_demo half nmo nocc frags false true) p q = add_diag nocc 1 d p q).
        { intros. rewrite !add_diag_occ, D1 by auto. ring. }
        rewrite !Ex by auto. rewrite Ha, <- (mixed_loops nocc d) by auto. ring.
      + unfold plus2, outer, outer_x, scale2. rewrite EA, !D1, He by auto. unfold product.
        rewrite (Hd r q). replace (mf_dm1 nocc r q) with (mf_dm1 (K := K) nocc q r) by (unfold mf_dm1; now rewrite occ_sym). ring.
    - rewrite EA by auto. reflexivity.
    - rewrite EA by auto. reflexivity.
    - rewrite EA by auto. reflexivity. }
  rewrite sym2_id; [now apply EB|]. rewrite !EB by auto. destruct wd; [apply Hg|]. destruct ac; [apply Sa|apply Se].
Qed.
(** For any fragments and clusters whatsoever the symmetrised density matrices are symmetric. *)
Theorem C34_symmetric_restricted : forall nmo nocc frags with_mf with_dm1 part_cumulant approx_cumulant p q r s,
  rdm1_demo half nmo nocc frags with_mf true p q = rdm1_demo half nmo nocc frags with_mf true q p
  /\ rdm2_demo half nmo nocc frags with_dm1 part_cumulant approx_cumulant true p q r s = rdm2_demo half nmo nocc frags with_dm1 part_cumulant approx_cumulant true q p s r.
Proof.
  intros. unfold rdm1_demo, rdm2_demo. cbv zeta. split.
  - cbn [sym1]. ring.
  - cbn [sym2]. ring.
Qed.
(** ** Energies from the density matrices, for any fragments and clusters *)
(** Real integrals; mean-field potential of a density matrix *)
Definition real_g (g : ten) : Prop := forall p q r s, g p q r s = g r s p q /\ g p q r s = g q p r s.
Definition con1 (n : nat) (h d : mat) : K := Sum n (fun p => Sum n (fun q => h p q * d p q)).
Definition con2 (n : nat) (g d : ten) : K := Sum n (fun p => Sum n (fun q => Sum n (fun r => Sum n (fun s => g p q r s * d p q r s)))).
Definition veff (n : nat) (g : ten) (d : mat) : mat := fun p q => Sum n (fun r => Sum n (fun s => (g p q r s - half * g p s r q) * d r s)).
Lemma con2_ext n (g d e : ten) : (forall p q r s, d p q r s = e p q r s) -> con2 n g d = con2 n g e.
Proof. intros H. unfold con2. repeat (apply Sum_ext; intros). now rewrite H. Qed.
Lemma con2_add n (g d e : ten) : con2 n g (fun p q r s => d p q r s + e p q r s) = con2 n g d + con2 n g e.
Proof.
  unfold con2. rewrite <- Sum_add. apply Sum_ext. intros. rewrite <- Sum_add. apply Sum_ext. intros. rewrite <- Sum_add. apply Sum_ext. intros. rewrite <- Sum_add. apply Sum_ext. intros. ring.
Qed.
Lemma con2_scale n (g d : ten) c : con2 n g (fun p q r s => c * d p q r s) = c * con2 n g d.
Proof.
  unfold con2. rewrite <- Sum_mul_l. apply Sum_ext. intros. rewrite <- Sum_mul_l. apply Sum_ext. intros. rewrite <- Sum_mul_l. apply Sum_ext. intros. rewrite <- Sum_mul_l. apply Sum_ext. intros. ring.
Qed.
Lemma con1_add n (h d e : mat) : con1 n h (fun p q => d p q + e p q) = con1 n h d + con1 n h e.
Proof. unfold con1. rewrite <- Sum_add. apply Sum_ext. intros. rewrite <- Sum_add. apply Sum_ext. intros. ring. Qed.
Lemma con1_add_l n (h k d : mat) : con1 n (fun p q => h p q + k p q) d = con1 n h d + con1 n k d.
Proof. unfold con1. rewrite <- Sum_add. apply Sum_ext. intros. rewrite <- Sum_add. apply Sum_ext. intros. ring. Qed.
Lemma con1_ext n (h d e : mat) : (forall p q, d p q = e p q) -> con1 n h d = con1 n h e.
Proof. intros H. unfold con1. repeat (apply Sum_ext; intros). now rewrite H. Qed.
(** Coulomb and exchange contractions *)
Lemma con1_veff n g (a b : mat) : con1 n (veff n g b) a = con2 n g (outer a b) - half * con2 n g (fun p q r s => a p s * b r q).
Proof.
  unfold con1, veff.
  transitivity (Sum n (fun p => Sum n (fun q => Sum n (fun r => Sum n (fun s => g p q r s * (a p q * b r s))))) - half * Sum n (fun p => Sum n (fun q => Sum n (fun r => Sum n (fun s => g p s r q * (a p q * b r s)))))).
  - rewrite <- Sum_mul_l, <- Sum_sub. apply Sum_ext. intros p Hp. rewrite <- Sum_mul_l, <- Sum_sub. apply Sum_ext. intros q Hq.
    rewrite <- Sum_mul_r, <- Sum_mul_l, <- Sum_sub. apply Sum_ext. intros r Hr. rewrite <- Sum_mul_r, <- Sum_mul_l, <- Sum_sub. apply Sum_ext. intros s Hs. ring.
  - unfold con2, outer. f_equal. f_equal. apply Sum_ext. intros p Hp.
    rewrite (Sum_ext n (fun q => Sum n (fun r => Sum n (fun s => g p s r q * (a p q * b r s)))) (fun q => Sum n (fun s => Sum n (fun r => g p s r q * (a p q * b r s))))) by (intros; apply Sum_swap).
    rewrite Sum_swap. apply Sum_ext. intros s Hs. rewrite Sum_swap. reflexivity.
Qed.
Lemma swap12 n (f : ten) : Sum n (fun p => Sum n (fun q => Sum n (fun r => Sum n (fun s => f p q r s)))) = Sum n (fun p => Sum n (fun q => Sum n (fun r => Sum n (fun s => f q p s r)))).
Proof. rewrite Sum_swap. apply Sum_ext. intros. apply Sum_ext. intros. apply Sum_swap. Qed.
Lemma con2_swap n g (d : ten) : real_g g -> con2 n g (fun p q r s => d q p s r) = con2 n g d.
Proof.
  intros H. unfold con2. rewrite swap12. repeat (apply Sum_ext; intros). f_equal.
  rewrite (Logic.proj2 (H _ _ _ _)), (Logic.proj1 (H _ _ _ _)), (Logic.proj2 (H _ _ _ _)), (Logic.proj1 (H _ _ _ _)). reflexivity.
Qed.
Lemma con2_exch n g (d : ten) : real_g g -> con2 n g (fun p q r s => d r s p q) = con2 n g d.
Proof.
  intros H. unfold con2.
  transitivity (Sum n (fun p => Sum n (fun r => Sum n (fun q => Sum n (fun s => g p q r s * d r s p q))))).
  { apply Sum_ext. intros. apply Sum_swap. }
  rewrite Sum_swap. apply Sum_ext. intros r Hr.
  transitivity (Sum n (fun p => Sum n (fun s => Sum n (fun q => g p q r s * d r s p q)))).
  { apply Sum_ext. intros. apply Sum_swap. }
  rewrite Sum_swap. apply Sum_ext. intros s Hs. apply Sum_ext. intros p Hp. apply Sum_ext. intros q Hq. f_equal. apply (Logic.proj1 (H p q r s)).
Qed.
Lemma con2_sym n g b (d : ten) : real_g g -> con2 n g (sym2 half b d) = con2 n g d.
Proof.
  intros H. destruct b; cbn [sym2]; auto. rewrite con2_scale, con2_add, (con2_swap n g d) by auto. change (con2 n g (fun p q r s => d p q r s)) with (con2 n g d). transitivity ((half + half) * con2 n g d); [ring|rewrite Hhalf; ring].
Qed.
Lemma fold_start frags nmo nocc wd wd' pc ac (a : ten) : pc || negb wd = pc || negb wd' -> fold_left (rdm2_step nmo nocc wd pc ac) frags a = fold_left (rdm2_step (K := K) nmo nocc wd' pc ac) frags a.
Proof. intros H. revert a. induction frags as [|x l IH]; intros a; [reflexivity|]. cbn [fold_left]. rewrite IH. unfold rdm2_step. now rewrite H. Qed.
Lemma product_con nmo g (d : mat) : con1 nmo (veff nmo g d) d = con2 nmo g (product half d).
Proof.
  rewrite con1_veff. unfold product.
  rewrite (con2_ext nmo g (fun p q r s => d p q * d r s - half * (d p s * d r q)) (fun p q r s => outer d d p q r s + - half * (d p s * d r q))) by (intros; unfold outer; ring).
  rewrite con2_add, con2_scale. ring.
Qed.
(** The energy from the one- and two-particle density matrix equals the mean-field energy plus the contractions of Fock matrix and integrals with
    the correlated density matrix and approximate cumulant (documented as "improved DMET energy"). *)
Theorem C34_energy : forall nmo nocc frags (h : mat) (g : ten) symmetrize, real_g g ->
  let dm1 mf := rdm1_demo half nmo nocc frags mf true in
  let dm2 wd := rdm2_demo half nmo nocc frags wd true true symmetrize in
  let d0 := mf_dm1 nocc in
  let fock p q := h p q + veff nmo g d0 p q in
  con1 nmo h (dm1 true) + half * con2 nmo g (dm2 true)
  = (con1 nmo h d0 + half * con1 nmo (veff nmo g d0) d0) + con1 nmo fock (dm1 false) + half * con2 nmo g (dm2 false).
Proof.
  intros nmo nocc frags h g symmetrize Hg dm1 dm2 d0 fock.
  assert (Sd : forall p q, dm1 false p q = dm1 false q p) by (intros; unfold dm1, rdm1_demo; cbn [sym1]; ring).
  assert (M1 : forall p q, dm1 true p q = dm1 false p q + d0 p q).
  { intros. unfold dm1, rdm1_demo, d0, mf_dm1. cbn [sym1]. rewrite !add_diag_occ, (occ_sym nocc q p). unfold two.
    set (x := fold_left _ _ _ p q). set (y := fold_left _ _ _ q p).
    transitivity (half * (x + y) + (half + half) * (1 + 1) * occ nocc p q); [ring|rewrite Hhalf; ring]. }
  assert (Sy : forall p q, d0 p q = d0 q p) by (intros; unfold d0, mf_dm1; now rewrite occ_sym).
  assert (M2 : con2 nmo g (dm2 true) = con2 nmo g (dm2 false) + con2 nmo g (mixed_spec nocc (dm1 false))).
  { unfold dm2, rdm2_demo. cbn [andb]. rewrite !con2_sym by auto. cbv zeta.
    rewrite <- con2_add. apply con2_ext. intros p q r s. rewrite loop4.
    rewrite (fold_start frags nmo nocc true false true true) by reflexivity. rewrite <- (mixed_loops nocc (dm1 false)) by auto. unfold dm1. ring. }
  rewrite M2. rewrite (con1_ext nmo h (dm1 true) (fun p q => dm1 false p q + d0 p q)) by auto. rewrite con1_add.
  unfold fock. rewrite con1_add_l.
  assert (M3 : half * con2 nmo g (mixed_spec nocc (dm1 false)) = half * con1 nmo (veff nmo g d0) d0 + con1 nmo (veff nmo g d0) (dm1 false)).
  { unfold mixed_spec.
    rewrite (con2_ext nmo g _ (fun p q r s => product half (fun p q => dm1 false p q + d0 p q) p q r s + - (1) * product half (dm1 false) p q r s)) by (intros; unfold d0; ring).
    rewrite con2_add, con2_scale, <- !product_con, !con1_veff.
    set (d := dm1 false) in *.
    rewrite (con2_ext nmo g (outer (fun p q => d p q + d0 p q) (fun p q => d p q + d0 p q)) (fun p q r s => (outer d d p q r s + outer d0 d0 p q r s) + (outer d d0 p q r s + (fun p q r s => outer d d0 r s p q) p q r s))) by (intros; unfold outer; ring).
    rewrite (con2_ext nmo g (fun p q r s => (d p s + d0 p s) * (d r q + d0 r q)) (fun p q r s => (d p s * d r q + d0 p s * d0 r q) + (d p s * d0 r q + (fun p q r s => d r q * d0 p s) p q r s))) by (intros; cbv beta; ring).
    rewrite !con2_add. rewrite (con2_exch nmo g (outer d d0)) by auto.
    assert (X : con2 nmo g (fun p q r s => d r q * d0 p s) = con2 nmo g (fun p q r s => d p s * d0 r q)).
    { apply (con2_exch nmo g (fun p q r s => d p s * d0 r q)). auto. }
    rewrite X. set (A := con2 nmo g (outer d d)). set (B := con2 nmo g (outer d0 d0)). set (C := con2 nmo g (outer d d0)).
    set (A' := con2 nmo g (fun p q r s => d p s * d r q)). set (B' := con2 nmo g (fun p q r s => d0 p s * d0 r q)). set (C' := con2 nmo g (fun p q r s => d p s * d0 r q)).
    transitivity (half * (B - half * B') + (half + half) * (C - half * C')); [ring|rewrite Hhalf; ring]. }
  transitivity (con1 nmo h (dm1 false) + con1 nmo h d0 + half * con2 nmo g (dm2 false) + half * con2 nmo g (mixed_spec nocc (dm1 false))); [ring|]. rewrite M3. ring.
Qed.
(** The same with the exact cumulant and the Fock matrix of the correlated density matrix. *)
Theorem C34_energy_cumulant : forall nmo nocc frags (h : mat) (g : ten) symmetrize, real_g g ->
  let dm1 := rdm1_demo half nmo nocc frags true true in
  let dm2 wd := rdm2_demo half nmo nocc frags wd true false symmetrize in
  let fcorr p q := h p q + veff nmo g dm1 p q in
  con1 nmo h dm1 + half * con2 nmo g (dm2 true) = half * con1 nmo (fun p q => h p q + fcorr p q) dm1 + half * con2 nmo g (dm2 false).
Proof.
  intros nmo nocc frags h g symmetrize Hg dm1 dm2 fcorr.
  assert (Sd : forall p q, dm1 p q = dm1 q p) by (intros; unfold dm1, rdm1_demo; cbn [sym1]; ring).
  assert (M2 : con2 nmo g (dm2 true) = con2 nmo g (dm2 false) + con2 nmo g (product half dm1)).
  { unfold dm2, rdm2_demo. cbn [andb]. rewrite !con2_sym by auto. cbv zeta. rewrite <- con2_add. apply con2_ext. intros p q r s.
    rewrite (fold_start frags nmo nocc true false true false) by reflexivity. fold dm1. unfold plus2, outer, outer_x, scale2, product. rewrite (Sd r q). ring. }
  rewrite M2, <- product_con. unfold fcorr. rewrite !con1_add_l.
  transitivity ((half + half) * con1 nmo h dm1 + half * (con2 nmo g (dm2 false) + con1 nmo (veff nmo g dm1) dm1)); [rewrite Hhalf; ring|ring].
Qed.

(** ** Unrestricted *)
Notation tri := ((nat -> nat -> nat -> nat -> K) * (nat -> nat -> nat -> nat -> K) * (nat -> nat -> nat -> nat -> K))%type.
Definition aa (x : tri) : ten := fst (fst x).
Definition ab (x : tri) : ten := snd (fst x).
Definition bb (x : tri) : ten := snd x.
Definition exact_cluster_u (nmo : nat * nat) (da db : mat) (ga ge : tri) (x : ufrag K) : Prop :=
  let '(na, nb) := nmo in
  complete na (u_a x) /\ complete nb (u_b x)
  /\ (forall p q, (p < na)%nat -> (q < na)%nat -> to_mo (u_a x) (u_dm1a x) p q = da p q)
  /\ (forall p q, (p < nb)%nat -> (q < nb)%nat -> to_mo (u_b x) (u_dm1b x) p q = db p q)
  /\ (forall p q r s, (p < na)%nat -> (q < na)%nat -> (r < na)%nat -> (s < na)%nat ->
       to_mo2 (u_a x) (u_a x) (aa (u_approx x)) p q r s = aa ga p q r s /\ to_mo2 (u_a x) (u_a x) (aa (u_exact x)) p q r s = aa ge p q r s)
  /\ (forall p q r s, (p < na)%nat -> (q < na)%nat -> (r < nb)%nat -> (s < nb)%nat ->
       to_mo2 (u_a x) (u_b x) (ab (u_approx x)) p q r s = ab ga p q r s /\ to_mo2 (u_a x) (u_b x) (ab (u_exact x)) p q r s = ab ge p q r s)
  /\ (forall p q r s, (p < nb)%nat -> (q < nb)%nat -> (r < nb)%nat -> (s < nb)%nat ->
       to_mo2 (u_b x) (u_b x) (bb (u_approx x)) p q r s = bb ga p q r s /\ to_mo2 (u_b x) (u_b x) (bb (u_exact x)) p q r s = bb ge p q r s).
Lemma udm1_one_exact nmo nocc (o : ufrag K -> orbs K) (dx : ufrag K -> mat) frags d with_mf symmetrize p q :
  (forall x, In x frags -> complete nmo (o x) /\ forall p q, (p < nmo)%nat -> (q < nmo)%nat -> to_mo (o x) (dx x) p q = d p q) ->
  partition nmo o frags -> (forall p q, d p q = d q p) -> (p < nmo)%nat -> (q < nmo)%nat ->
  udm1_one half nmo nocc o dx frags with_mf symmetrize p q = d p q + if with_mf then occ nocc p q else 0.
Proof.
  intros Hx Hpart Hd Hp Hq.
  set (A := fold_left (fun dm1 x => plus1 dm1 (proj1 nmo (o x) (dx x))) frags (fun _ _ : nat => (0 : K))).
  assert (E : forall p q, (p < nmo)%nat -> (q < nmo)%nat -> A p q = d p q).
  { clear p q Hp Hq. intros p q Hp Hq. unfold A. rewrite (fold_mat _ (fun x => proj1 nmo (o x) (dx x) p q)) by reflexivity.
    rewrite (Lsum_ext frags _ (fun x => Sum nmo (fun t => pmo (o x) p t * d t q))).
    - rewrite (whole nmo o frags (fun t => d t q) p Hpart Hp). ring.
    - intros x Hin. destruct (Hx x Hin). rewrite proj1_complete by auto. apply Sum_ext. intros t Ht. f_equal. auto. }
  unfold udm1_one. fold A. rewrite sym1_id.
  - destruct with_mf; [rewrite add_diag_occ|]; rewrite E by auto; ring.
  - destruct with_mf; rewrite ?add_diag_occ, !E by auto; rewrite (Hd q p), ?(occ_sym nocc q p); reflexivity.
Qed.
Theorem C34_rdm1_unrestricted : forall na nb nocc frags da db ga ge with_mf symmetrize, (forall x, In x frags -> exact_cluster_u (na, nb) da db ga ge x) ->
  partition na u_a frags -> partition nb u_b frags -> (forall p q, da p q = da q p) -> (forall p q, db p q = db q p) ->
  (forall p q, (p < na)%nat -> (q < na)%nat -> fst (udm1_demo half (na, nb) nocc frags with_mf symmetrize) p q = da p q + if with_mf then occ (fst nocc) p q else 0)
  /\ (forall p q, (p < nb)%nat -> (q < nb)%nat -> snd (udm1_demo half (na, nb) nocc frags with_mf symmetrize) p q = db p q + if with_mf then occ (snd nocc) p q else 0).
Proof.
  intros na nb nocc frags da db ga ge with_mf symmetrize Hx Ha Hb Sa Sb. unfold udm1_demo. cbn [fst snd].
  split; intros p q Hp Hq; apply udm1_one_exact; auto; intros x Hin; destruct (Hx x Hin) as (C1 & C2 & D1 & D2 & _); auto.
Qed.
Definition mixed_ss (nocc : nat) (d : mat) : ten := fun p q r s => product_ss (fun p q => d p q + occ nocc p q) p q r s - product_ss d p q r s.
Definition mixed_ab (na nb : nat) (da db : mat) : ten := fun p q r s => product_ab (fun p q => da p q + occ na p q) (fun p q => db p q + occ nb p q) p q r s - product_ab da db p q r s.
Lemma loop_ss_spec nocc (d d' : mat) (x : ten) p q r s : (forall p q, d p q = d q p) ->
  d' r s = add_diag nocc half d r s -> d' p q = add_diag nocc half d p q -> d' p s = add_diag nocc half d p s -> d' q r = add_diag nocc half d q r ->
  loop_ss nocc d' x p q r s = x p q r s + mixed_ss nocc d p q r s.
Proof.
  intros Hd E1 E2 E3 E4. unfold loop_ss. rewrite loop4, E1, E2, E3, E4, !add_diag_occ. unfold mixed_ss, product_ss.
  rewrite (Hd r q), (occ_sym nocc r q).
  transitivity (x p q r s + (occ nocc p q * d r s + d p q * occ nocc r s - occ nocc q r * d p s - occ nocc p s * d q r + (half + half) * (occ nocc p q * occ nocc r s - occ nocc p s * occ nocc q r))); [ring|rewrite Hhalf; ring].
Qed.
Lemma loop_os_spec na nb (da db da' db' : mat) (x : ten) p q r s :
  db' r s = add_diag nb half db r s -> da' p q = add_diag na half da p q ->
  loop_os na nb da' db' x p q r s = x p q r s + mixed_ab na nb da db p q r s.
Proof.
  intros E1 E2. unfold loop_os. rewrite loop_ab2, loop_ab1, E1, E2, !add_diag_occ. unfold mixed_ab, product_ab.
  transitivity (x p q r s + (occ na p q * db r s + da p q * occ nb r s + (half + half) * (occ na p q * occ nb r s))); [ring|rewrite Hhalf; ring].
Qed.
Lemma fold_tri {S A} (f : S -> K) (step : S -> A -> S) (c : A -> K) l : (forall a x, In x l -> f (step a x) = f a + c x) ->
  forall a, f (fold_left step l a) = f a + Lsum l c.
Proof.
  intros H. induction l as [|x l IH]; intros a; cbn [fold_left Lsum]; [ring|]. rewrite IH by (intros; apply H; now right). rewrite H by now left. ring.
Qed.
Lemma half2 (x y z : K) : x = z -> y = z -> half * (x + y) = z.
Proof. intros -> ->. transitivity ((half + half) * z); [ring|rewrite Hhalf; ring]. Qed.
(** All options again; [g] is the full two-particle density matrix. *)
Theorem C34_rdm2_unrestricted : forall na nb noa nob frags da db (g ga ge : tri) with_dm1 part_cumulant approx_cumulant symmetrize,
  (forall x, In x frags -> exact_cluster_u (na, nb) da db ga ge x) -> partition na u_a frags -> partition nb u_b frags ->
  (forall p q, da p q = da q p) -> (forall p q, db p q = db q p) ->
  (forall p q r s, aa g p q r s = aa g q p s r) -> (forall p q r s, bb g p q r s = bb g q p s r) ->
  (forall p q r s, aa ga p q r s = aa g p q r s - mixed_ss noa da p q r s /\ aa ge p q r s = aa g p q r s - product_ss (fun p q => da p q + occ noa p q) p q r s) ->
  (forall p q r s, ab ga p q r s = ab g p q r s - mixed_ab noa nob da db p q r s /\ ab ge p q r s = ab g p q r s - product_ab (fun p q => da p q + occ noa p q) (fun p q => db p q + occ nob p q) p q r s) ->
  (forall p q r s, bb ga p q r s = bb g p q r s - mixed_ss nob db p q r s /\ bb ge p q r s = bb g p q r s - product_ss (fun p q => db p q + occ nob p q) p q r s) ->
  let res := udm2_demo half (na, nb) (noa, nob) frags with_dm1 part_cumulant approx_cumulant symmetrize in
  let want (f : tri -> ten) : ten := if with_dm1 then f g else if approx_cumulant then f ga else f ge in
  (forall p q r s, (p < na)%nat -> (q < na)%nat -> (r < na)%nat -> (s < na)%nat -> aa res p q r s = want aa p q r s)
  /\ (forall p q r s, (p < na)%nat -> (q < na)%nat -> (r < nb)%nat -> (s < nb)%nat -> ab res p q r s = want ab p q r s)
  /\ (forall p q r s, (p < nb)%nat -> (q < nb)%nat -> (r < nb)%nat -> (s < nb)%nat -> bb res p q r s = want bb p q r s).
Proof.
  intros na nb noa nob frags da db g ga ge wd pc ac symmetrize Hx Pa Pb Sa Sb Gaa Gbb Haa Hab Hbb res want.
  (* symmetry of the parts *)
  assert (MS : forall n (d : mat) p q r s, (forall p q, d p q = d q p) -> mixed_ss n d p q r s = mixed_ss n d q p s r).
  { intros n d p q r s Hd. unfold mixed_ss, product_ss. rewrite (Hd q p), (Hd s r), (Hd q r), (Hd s p), (occ_sym n q p), (occ_sym n s r), (occ_sym n q r), (occ_sym n s p). ring. }
  assert (PS : forall n (d : mat) p q r s, (forall p q, d p q = d q p) -> product_ss (fun p q => d p q + occ n p q) p q r s = product_ss (fun p q => d p q + occ n p q) q p s r).
  { intros n d p q r s Hd. unfold product_ss. rewrite (Hd q p), (Hd s r), (Hd q r), (Hd s p), (occ_sym n q p), (occ_sym n s r), (occ_sym n q r), (occ_sym n s p). ring. }
  assert (Waa : forall p q r s, want aa p q r s = want aa q p s r).
  { intros p q r s. unfold want. destruct wd; [apply Gaa|]. destruct ac; [rewrite !(Logic.proj1 (Haa _ _ _ _)), (MS noa da p q r s), Gaa by auto; reflexivity|rewrite !(Logic.proj2 (Haa _ _ _ _)), (PS noa da p q r s), Gaa by auto; reflexivity]. }
  assert (Wbb : forall p q r s, want bb p q r s = want bb q p s r).
  { intros p q r s. unfold want. destruct wd; [apply Gbb|]. destruct ac; [rewrite !(Logic.proj1 (Hbb _ _ _ _)), (MS nob db p q r s), Gbb by auto; reflexivity|rewrite !(Logic.proj2 (Hbb _ _ _ _)), (PS nob db p q r s), Gbb by auto; reflexivity]. }
  (* projected cumulants *)
  assert (Qaa : forall p q r s, (p < na)%nat -> (q < na)%nat -> (r < na)%nat -> (s < na)%nat ->
     Lsum frags (fun x => proj2 na (u_a x) (u_a x) (aa (u_approx x)) p q r s) = aa ga p q r s /\ Lsum frags (fun x => proj2 na (u_a x) (u_a x) (aa (u_exact x)) p q r s) = aa ge p q r s).
  { intros p q r s Hp Hq Hr Hs. split.
    - rewrite (Lsum_ext frags _ (fun x => Sum na (fun t => pmo (u_a x) p t * aa ga t q r s))); [now apply (whole na u_a frags (fun t => aa ga t q r s))|].
      intros x Hin. destruct (Hx x Hin) as (C1 & C2 & D1 & D2 & F1 & F2 & F3). rewrite proj2_complete by auto. apply Sum_ext. intros t Ht. f_equal. now apply F1.
    - rewrite (Lsum_ext frags _ (fun x => Sum na (fun t => pmo (u_a x) p t * aa ge t q r s))); [now apply (whole na u_a frags (fun t => aa ge t q r s))|].
      intros x Hin. destruct (Hx x Hin) as (C1 & C2 & D1 & D2 & F1 & F2 & F3). rewrite proj2_complete by auto. apply Sum_ext. intros t Ht. f_equal. now apply F1. }
  assert (Qbb : forall p q r s, (p < nb)%nat -> (q < nb)%nat -> (r < nb)%nat -> (s < nb)%nat ->
     Lsum frags (fun x => proj2 nb (u_b x) (u_b x) (bb (u_approx x)) p q r s) = bb ga p q r s /\ Lsum frags (fun x => proj2 nb (u_b x) (u_b x) (bb (u_exact x)) p q r s) = bb ge p q r s).
  { intros p q r s Hp Hq Hr Hs. split.
    - rewrite (Lsum_ext frags _ (fun x => Sum nb (fun t => pmo (u_b x) p t * bb ga t q r s))); [now apply (whole nb u_b frags (fun t => bb ga t q r s))|].
      intros x Hin. destruct (Hx x Hin) as (C1 & C2 & D1 & D2 & F1 & F2 & F3). rewrite proj2_complete by auto. apply Sum_ext. intros t Ht. f_equal. now apply F3.
    - rewrite (Lsum_ext frags _ (fun x => Sum nb (fun t => pmo (u_b x) p t * bb ge t q r s))); [now apply (whole nb u_b frags (fun t => bb ge t q r s))|].
      intros x Hin. destruct (Hx x Hin) as (C1 & C2 & D1 & D2 & F1 & F2 & F3). rewrite proj2_complete by auto. apply Sum_ext. intros t Ht. f_equal. now apply F3. }
  assert (Qab : forall (ex : bool) p q r s, (p < na)%nat -> (q < na)%nat -> (r < nb)%nat -> (s < nb)%nat ->
     let w := if ex then ab ga else ab ge in let v x := ab (if ex then u_approx x else u_exact x) in
     Lsum frags (fun x => half * (proj2 na (u_a x) (u_b x) (v x) p q r s + proj2b nb (u_a x) (u_b x) (v x) p q r s)) = w p q r s).
  { intros ex p q r s Hp Hq Hr Hs w v. rewrite Lsum_mul_l, Lsum_add. apply half2.
    - rewrite (Lsum_ext frags _ (fun x => Sum na (fun t => pmo (u_a x) p t * w t q r s))); [now apply (whole na u_a frags (fun t => w t q r s))|].
      intros x Hin. destruct (Hx x Hin) as (C1 & C2 & D1 & D2 & F1 & F2 & F3). rewrite proj2_complete by auto. apply Sum_ext. intros t Ht. f_equal. unfold v, w. destruct ex; now apply F2.
    - rewrite (Lsum_ext frags _ (fun x => Sum nb (fun t => pmo (u_b x) r t * w p q t s))); [now apply (whole nb u_b frags (fun t => w p q t s))|].
      intros x Hin. destruct (Hx x Hin) as (C1 & C2 & D1 & D2 & F1 & F2 & F3). rewrite proj2b_complete by auto. apply Sum_ext. intros t Ht. f_equal. unfold v, w. destruct ex; now apply F2. }
  set (z := (fun _ _ _ _ : nat => (0 : K))).
  set (A := fold_left (udm2_step half (na, nb) (noa, nob) wd pc ac) frags (z, z, z)).
  (* same-spin and opposite-spin results of the loop over fragments *)
  assert (Daa : forall x, In x frags -> forall p q, (p < na)%nat -> (q < na)%nat -> add_diag noa half (to_mo (u_a x) (u_dm1a x)) p q = add_diag noa half da p q).
  { intros x Hin p q Hp Hq. destruct (Hx x Hin) as (_ & _ & D1 & _). rewrite !add_diag_occ. f_equal. now apply D1. }
  assert (Dbb : forall x, In x frags -> forall p q, (p < nb)%nat -> (q < nb)%nat -> add_diag nob half (to_mo (u_b x) (u_dm1b x)) p q = add_diag nob half db p q).
  { intros x Hin p q Hp Hq. destruct (Hx x Hin) as (_ & _ & _ & D1 & _). rewrite !add_diag_occ. f_equal. now apply D1. }
  assert (Eaa : forall p q r s, (p < na)%nat -> (q < na)%nat -> (r < na)%nat -> (s < na)%nat ->
     aa A p q r s = if pc || negb wd then (if ac then aa ga p q r s else aa ge p q r s) else aa g p q r s).
  { intros p q r s Hp Hq Hr Hs. unfold A. destruct (pc || negb wd) eqn:Ep.
    - rewrite (fold_tri (fun S : tri => aa S p q r s) _ (fun x => proj2 na (u_a x) (u_a x) (aa (if ac then u_approx x else u_exact x)) p q r s)).
      + unfold aa at 1. cbn [fst]. unfold z. destruct ac; [rewrite (Logic.proj1 (Qaa p q r s Hp Hq Hr Hs))|rewrite (Logic.proj2 (Qaa p q r s Hp Hq Hr Hs))]; ring.
      + intros [[a1 a2] a3] x Hin. unfold udm2_step. rewrite Ep. destruct (if ac then u_approx x else u_exact x) as [[x1 x2] x3]. reflexivity.
    - rewrite (fold_tri (fun S : tri => aa S p q r s) _ (fun x => Sum na (fun t => pmo (u_a x) p t * mixed_ss noa da t q r s) + proj2 na (u_a x) (u_a x) (aa (u_approx x)) p q r s)).
      + rewrite Lsum_add, (Logic.proj1 (Qaa p q r s Hp Hq Hr Hs)), (whole na u_a frags (fun t => mixed_ss noa da t q r s) p) by auto. unfold aa at 1. cbn [fst]. unfold z. rewrite (Logic.proj1 (Haa p q r s)). ring.
      + intros [[a1 a2] a3] x Hin. unfold udm2_step. rewrite Ep. destruct (u_approx x) as [[x1 x2] x3]. unfold aa. cbn [fst snd]. unfold plus2, on1. fold z.
        rewrite (Sum_ext na (fun i => pmo (u_a x) p i * _) (fun t => pmo (u_a x) p t * mixed_ss noa da t q r s)); [ring|].
        intros t Ht. f_equal. rewrite (loop_ss_spec noa da) by (auto; now apply Daa). unfold z. ring. }
  assert (Ebb : forall p q r s, (p < nb)%nat -> (q < nb)%nat -> (r < nb)%nat -> (s < nb)%nat ->
     bb A p q r s = if pc || negb wd then (if ac then bb ga p q r s else bb ge p q r s) else bb g p q r s).
  { intros p q r s Hp Hq Hr Hs. unfold A. destruct (pc || negb wd) eqn:Ep.
    - rewrite (fold_tri (fun S : tri => bb S p q r s) _ (fun x => proj2 nb (u_b x) (u_b x) (bb (if ac then u_approx x else u_exact x)) p q r s)).
      + unfold bb at 1. cbn [snd]. unfold z. destruct ac; [rewrite (Logic.proj1 (Qbb p q r s Hp Hq Hr Hs))|rewrite (Logic.proj2 (Qbb p q r s Hp Hq Hr Hs))]; ring.
      + intros [[a1 a2] a3] x Hin. unfold udm2_step. rewrite Ep. destruct (if ac then u_approx x else u_exact x) as [[x1 x2] x3]. reflexivity.
    - rewrite (fold_tri (fun S : tri => bb S p q r s) _ (fun x => Sum nb (fun t => pmo (u_b x) p t * mixed_ss nob db t q r s) + proj2 nb (u_b x) (u_b x) (bb (u_approx x)) p q r s)).
      + rewrite Lsum_add, (Logic.proj1 (Qbb p q r s Hp Hq Hr Hs)), (whole nb u_b frags (fun t => mixed_ss nob db t q r s) p) by auto. unfold bb at 1. cbn [snd]. unfold z. rewrite (Logic.proj1 (Hbb p q r s)). ring.
      + intros [[a1 a2] a3] x Hin. unfold udm2_step. rewrite Ep. destruct (u_approx x) as [[x1 x2] x3]. unfold bb. cbn [fst snd]. unfold plus2, on1. fold z.
        rewrite (Sum_ext nb (fun i => pmo (u_b x) p i * _) (fun t => pmo (u_b x) p t * mixed_ss nob db t q r s)); [ring|].
        intros t Ht. f_equal. rewrite (loop_ss_spec nob db) by (auto; now apply Dbb). unfold z. ring. }
  assert (Eab : forall p q r s, (p < na)%nat -> (q < na)%nat -> (r < nb)%nat -> (s < nb)%nat ->
     ab A p q r s = if pc || negb wd then (if ac then ab ga p q r s else ab ge p q r s) else ab g p q r s).
  { intros p q r s Hp Hq Hr Hs. unfold A. destruct (pc || negb wd) eqn:Ep.
    - rewrite (fold_tri (fun S : tri => ab S p q r s) _ (fun x => half * (proj2 na (u_a x) (u_b x) (ab (if ac then u_approx x else u_exact x)) p q r s + proj2b nb (u_a x) (u_b x) (ab (if ac then u_approx x else u_exact x)) p q r s))).
      + rewrite (Qab ac p q r s Hp Hq Hr Hs). unfold ab at 1. cbn [fst snd]. unfold z. destruct ac; ring.
      + intros [[a1 a2] a3] x Hin. unfold udm2_step. rewrite Ep. destruct (if ac then u_approx x else u_exact x) as [[x1 x2] x3]. reflexivity.
    - rewrite (fold_tri (fun S : tri => ab S p q r s) _ (fun x => half * (Sum na (fun t => pmo (u_a x) p t * mixed_ab noa nob da db t q r s) + Sum nb (fun t => pmo (u_b x) r t * mixed_ab noa nob da db p q t s))
          + half * (proj2 na (u_a x) (u_b x) (ab (u_approx x)) p q r s + proj2b nb (u_a x) (u_b x) (ab (u_approx x)) p q r s))).
      + rewrite Lsum_add, (Qab true p q r s Hp Hq Hr Hs), Lsum_mul_l, Lsum_add.
        rewrite (half2 _ _ (mixed_ab noa nob da db p q r s)) by (first [now apply (whole na u_a frags (fun t => mixed_ab noa nob da db t q r s))|now apply (whole nb u_b frags (fun t => mixed_ab noa nob da db p q t s))]).
        unfold ab at 1. cbn [fst snd]. unfold z. rewrite (Logic.proj1 (Hab p q r s)). ring.
      + intros [[a1 a2] a3] x Hin. unfold udm2_step. rewrite Ep. destruct (u_approx x) as [[x1 x2] x3]. unfold ab. cbn [fst snd]. unfold plus2, scale2, on1, on3. fold z.
        rewrite (Sum_ext na (fun i => pmo (u_a x) p i * loop_os _ _ _ _ _ _ _ _ _) (fun t => pmo (u_a x) p t * mixed_ab noa nob da db t q r s)).
        2:{ intros t Ht. f_equal. rewrite (loop_os_spec noa nob da db); [unfold z; ring|now apply Dbb|now apply Daa]. }
        rewrite (Sum_ext nb (fun k => pmo (u_b x) r k * loop_os _ _ _ _ _ _ _ _ _) (fun t => pmo (u_b x) r t * mixed_ab noa nob da db p q t s)).
        2:{ intros t Ht. f_equal. rewrite (loop_os_spec noa nob da db); [unfold z; ring|now apply Dbb|now apply Daa]. }
        ring. }
  (* one-particle density matrices *)
  assert (D1 : forall mf, (forall p q, (p < na)%nat -> (q < na)%nat -> udm1_one half na noa u_a u_dm1a frags mf true p q = da p q + if mf then occ noa p q else 0)
                     /\ (forall p q, (p < nb)%nat -> (q < nb)%nat -> udm1_one half nb nob u_b u_dm1b frags mf true p q = db p q + if mf then occ nob p q else 0)).
  { intros mf. apply (C34_rdm1_unrestricted na nb (noa, nob) frags da db ga ge mf true Hx Pa Pb Sa Sb). }
  assert (Xa : forall p q, (p < na)%nat -> (q < na)%nat -> add_diag noa half (udm1_one half na noa u_a u_dm1a frags false true) p q = add_diag noa half da p q).
  { intros. rewrite !add_diag_occ, (Logic.proj1 (D1 false)) by auto. ring. }
  assert (Xb : forall p q, (p < nb)%nat -> (q < nb)%nat -> add_diag nob half (udm1_one half nb nob u_b u_dm1b frags false true) p q = add_diag nob half db p q).
  { intros. rewrite !add_diag_occ, (Logic.proj2 (D1 false)) by auto. ring. }
  (* the final result *)
  assert (R : exists Baa Bab Bbb, res = (sym2 half symmetrize Baa, Bab, sym2 half symmetrize Bbb)
     /\ (forall p q r s, (p < na)%nat -> (q < na)%nat -> (r < na)%nat -> (s < na)%nat -> Baa p q r s = want aa p q r s)
     /\ (forall p q r s, (p < na)%nat -> (q < na)%nat -> (r < nb)%nat -> (s < nb)%nat -> Bab p q r s = want ab p q r s)
     /\ (forall p q r s, (p < nb)%nat -> (q < nb)%nat -> (r < nb)%nat -> (s < nb)%nat -> Bbb p q r s = want bb p q r s)).
  { unfold res, udm2_demo. fold z. fold A. unfold want. destruct A as [[A1 A2] A3]. unfold aa, ab, bb in Eaa, Ebb, Eab. cbn [fst snd] in Eaa, Ebb, Eab.
    unfold udm1_demo. cbn [fst snd]. destruct wd, pc; cbn [andb orb negb] in *.
    - destruct ac.
      + eexists. eexists. eexists. split; [reflexivity|]. split; [|split]; intros p q r s Hp Hq Hr Hs.
        * rewrite (loop_ss_spec noa da) by (auto; now apply Xa). rewrite Eaa by auto. change (fst (fst ga) p q r s) with (aa ga p q r s). rewrite (Logic.proj1 (Haa p q r s)). ring.
        * rewrite (loop_os_spec noa nob da db); [|now apply Xb|now apply Xa]. rewrite Eab by auto. change (snd (fst ga) p q r s) with (ab ga p q r s). rewrite (Logic.proj1 (Hab p q r s)). ring.
        * rewrite (loop_ss_spec nob db) by (auto; now apply Xb). rewrite Ebb by auto. change (snd ga p q r s) with (bb ga p q r s). rewrite (Logic.proj1 (Hbb p q r s)). ring.
      + eexists. eexists. eexists. split; [reflexivity|]. split; [|split]; intros p q r s Hp Hq Hr Hs.
        * unfold plus2, outer, outer_x, scale2. rewrite Eaa, !(Logic.proj1 (D1 true)) by auto. change (fst (fst ge) p q r s) with (aa ge p q r s). rewrite (Logic.proj2 (Haa p q r s)). unfold product_ss. rewrite (Sa r q), (occ_sym noa r q). ring.
        * unfold plus2, outer. rewrite Eab, (Logic.proj1 (D1 true)), (Logic.proj2 (D1 true)) by auto. change (snd (fst ge) p q r s) with (ab ge p q r s). rewrite (Logic.proj2 (Hab p q r s)). unfold product_ab. ring.
        * unfold plus2, outer, outer_x, scale2. rewrite Ebb, !(Logic.proj2 (D1 true)) by auto. change (snd ge p q r s) with (bb ge p q r s). rewrite (Logic.proj2 (Hbb p q r s)). unfold product_ss. rewrite (Sb r q), (occ_sym nob r q). ring.
    - eexists. eexists. eexists. split; [reflexivity|]. split; [|split]; intros p q r s Hp Hq Hr Hs; [rewrite Eaa by auto|rewrite Eab by auto|rewrite Ebb by auto]; reflexivity.
    - eexists. eexists. eexists. split; [reflexivity|]. split; [|split]; intros p q r s Hp Hq Hr Hs; [rewrite Eaa by auto|rewrite Eab by auto|rewrite Ebb by auto]; destruct ac; reflexivity.
    - eexists. eexists. eexists. split; [reflexivity|]. split; [|split]; intros p q r s Hp Hq Hr Hs; [rewrite Eaa by auto|rewrite Eab by auto|rewrite Ebb by auto]; destruct ac; reflexivity. }
  destruct R as (Baa & Bab & Bbb & -> & R1 & R2 & R3). unfold aa at 1, ab at 1, bb at 1. cbn [fst snd]. split; [|split]; intros p q r s Hp Hq Hr Hs.
  - rewrite sym2_id; [now apply R1|]. rewrite !R1 by auto. apply Waa.
  - now apply R2.
  - rewrite sym2_id; [now apply R3|]. rewrite !R3 by auto. apply Wbb.
Qed.
(** Symmetry for any fragments: one-particle and same-spin two-particle density matrices *)
Theorem C34_symmetric_unrestricted : forall nmo nocc frags with_mf with_dm1 part_cumulant approx_cumulant,
  let d1 := udm1_demo half nmo nocc frags with_mf true in let d2 := udm2_demo half nmo nocc frags with_dm1 part_cumulant approx_cumulant true in
  (forall p q, fst d1 p q = fst d1 q p /\ snd d1 p q = snd d1 q p) /\ (forall p q r s, aa d2 p q r s = aa d2 q p s r /\ bb d2 p q r s = bb d2 q p s r).
Proof.
  intros. split.
  - intros p q. unfold d1, udm1_demo, udm1_one. cbn [fst snd sym1]. split; ring.
  - intros p q r s. unfold d2, udm2_demo. destruct (fold_left _ frags _) as [[x1 x2] x3].
    destruct (if with_dm1 && part_cumulant then _ else _) as [[y1 y2] y3]. unfold aa, bb. cbn [fst snd sym2]. split; ring.
Qed.
End Thms.

(** ** Cases *)
Section Cases.
Definition q (n : Z) (d : positive) : QK := Q2Qc (n # d).
(** Two orbitals, two fragments of one (rotated) orbital each, clusters with all orbitals in a rotated basis (3/5, 4/5) *)
Definition rot (p x : nat) : QK := if p =? x then q 3 5 else if p <? x then q 4 5 else q (-4) 5.
Definition ex_o (f : nat) : orbs QK := {| nclu := 2; nfrg := 1; rx := rot; fx := fun p _ => rot f p |}.
Ltac qc := apply Qc_is_canon; vm_compute; reflexivity.
Example ex_complete f : complete QK 2 (ex_o f).
Proof. intros [|[|p]] [|[|p']] Hp Hq; try lia; qc. Qed.
Example ex_partition : partition QK 2 ex_o [0; 1].
Proof. intros [|[|p]] [|[|p']] Hp Hq; try lia; qc. Qed.
Definition ex_dm1 (i j : nat) : QK := q (Z.of_nat (1 + i + j)) 10.
Definition ex_dm2 (i j k l : nat) : QK := q (Z.of_nat (i * j + k + l)) 7.
Definition ex_frag (f : nat) : rfrag QK := {| r_o := ex_o f; r_dm1 := ex_dm1; r_approx := ex_dm2; r_exact := ex_dm2 |}.
Example ex_exact f : exact_cluster QK 2 (to_mo (ex_o f) ex_dm1) (to_mo2 QK (ex_o f) (ex_o f) ex_dm2) (to_mo2 QK (ex_o f) (ex_o f) ex_dm2) (ex_frag f).
Proof. split; [apply ex_complete|]. intros. repeat split. Qed.
Example ex_rdm1 : rdm1_demo (q 1 2) 2 1 [ex_frag 0; ex_frag 1] true true 0 0 = Qcplus (to_mo (ex_o 0) ex_dm1 0 0) (q 2 1).
Proof. qc. Qed.
Definition ones' : nat -> nat -> nat -> nat -> QK := fun _ _ _ _ => q 1 1.
(** Unrestricted: different fragment orbitals of both spins *)
Definition ex_ufrag (f : nat) : ufrag QK := {| u_a := ex_o f; u_b := ex_o (1 - f); u_dm1a := ex_dm1; u_dm1b := fun i j => q (Z.of_nat (i + j)) 9;
  u_approx := (ex_dm2, ex_dm2, ex_dm2); u_exact := (ex_dm2, ones', ex_dm2) |}.
Example ex_uexact f : exact_cluster_u QK (2, 2) (to_mo (ex_o 0) ex_dm1) (to_mo (ex_o 0) (fun i j => q (Z.of_nat (i + j)) 9))
  (to_mo2 QK (ex_o 0) (ex_o 0) ex_dm2, to_mo2 QK (ex_o 0) (ex_o 0) ex_dm2, to_mo2 QK (ex_o 0) (ex_o 0) ex_dm2)
  (to_mo2 QK (ex_o 0) (ex_o 0) ex_dm2, to_mo2 QK (ex_o 0) (ex_o 0) ones', to_mo2 QK (ex_o 0) (ex_o 0) ex_dm2) (ex_ufrag f) /\ partition QK 2 u_a [ex_ufrag 0; ex_ufrag 1] /\ partition QK 2 u_b [ex_ufrag 0; ex_ufrag 1].
Proof.
  split; [|split].
  - split; [apply ex_complete|]. split; [apply ex_complete|]. split; [reflexivity|]. split; [reflexivity|]. split; [|split]; intros; split; reflexivity.
  - intros [|[|p]] [|[|p']] Hp Hq; try lia; qc.
  - intros [|[|p]] [|[|p']] Hp Hq; try lia; qc.
Qed.
(** The opposite-spin part is not symmetrised: one fragment with the first of two orbitals *)
Definition id_o : orbs QK := {| nclu := 2; nfrg := 1; rx := fun p x => if p =? x then q 1 1 else q 0 1; fx := fun p _ => if p =? 0 then q 1 1 else q 0 1 |}.
Definition ones : nat -> nat -> nat -> nat -> QK := fun _ _ _ _ => q 1 1.
Theorem C34_ab_symmetric_refuted : exists (frags : list (ufrag QK)), (forall x p r s t, In x frags -> ab QK (u_approx x) p r s t = ab QK (u_approx x) r p t s) /\
  let d := udm2_demo (q 1 2) (2, 2) (1, 1) frags false true true true in ab QK d 0 1 1 1 <> ab QK d 1 0 1 1.
Proof.
  exists [{| u_a := id_o; u_b := id_o; u_dm1a := fun _ _ => q 0 1; u_dm1b := fun _ _ => q 0 1; u_approx := (ones, ones, ones); u_exact := (ones, ones, ones) |}].
  split; [intros x p r s t [<- | []]; reflexivity|]. intros d E. apply (f_equal this) in E. vm_compute in E. discriminate.
Qed.
(** The two formulas documented for the literature DMET energy do not agree, not even for a mean-field state of one orbital *)
Definition one_o : orbs QK := {| nclu := 1; nfrg := 1; rx := fun _ _ => q 1 1; fx := fun _ _ => q 1 1 |}.
Definition mf_frag : rfrag QK := {| r_o := one_o; r_dm1 := fun _ _ => q 0 1; r_approx := fun _ _ _ _ => q 0 1; r_exact := fun _ _ _ _ => q 0 1 |}.
Theorem C34_documented_energy_refuted : exists (frags : list (rfrag QK)) (hcore : nat -> nat -> QK) (g : nat -> nat -> nat -> nat -> QK), real_g QK g /\
  let half := q 1 2 in
  let dm1 := rdm1_demo half 1 1 frags true true in
  let vhf := veff QK half 1 g (mf_dm1 1) in
  (con1 QK 1 hcore dm1 + con2 QK 1 g (rdm2_demo half 1 1 frags true false true true))%K
  <> (con1 QK 1 hcore dm1 + con2 QK 1 g (rdm2_demo half 1 1 frags false false true true) + half * con1 QK 1 vhf (fun p r => (two * dm1 p r - mf_dm1 1 p r)))%K.
Proof.
  exists [mf_frag], (fun _ _ => q 1 1), (fun _ _ _ _ => q 1 1). split; [intros p r s t; split; reflexivity|].
  intros half dm1 vhf E. apply (f_equal this) in E. vm_compute in E. discriminate.
Qed.
End Cases.

Print Assumptions C34_rdm1_restricted.
Print Assumptions C34_rdm2_restricted.
Print Assumptions C34_symmetric_restricted.
Print Assumptions C34_energy.
Print Assumptions C34_energy_cumulant.
Print Assumptions C34_rdm1_unrestricted.
Print Assumptions C34_rdm2_unrestricted.
Print Assumptions C34_symmetric_unrestricted.
Print Assumptions C34_ab_symmetric_refuted.
Print Assumptions C34_documented_energy_refuted.
