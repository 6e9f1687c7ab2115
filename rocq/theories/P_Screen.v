(** C71: screening of the interaction in a cluster by moments of the RPA.  Theorems about M_Screen. *)
From Coq Require Import List Arith Lia Bool Ring Setoid Morphisms.
From Verif Require Import Alg Ord Mat M_ExtCorr M_SsRpa P_TtoC P_SsRpa M_Screen.
Import ListNotations.

(** * General facts *)
Section G.
Context (K : oring).
Add Ring Kr : (rth K).
Open Scope K_scope.
Notation vec := (nat -> K).
Notation mt := (nat -> nat -> K).

Lemma Sum_ov no nv (f : vec) : Sum (no * nv) f = Sum no (fun i => Sum nv (fun a => f (i * nv + a)%nat)).
Proof.
  induction no; [reflexivity|]. replace (S no * nv)%nat with (no * nv + nv)%nat by lia.
  rewrite Sum_split, IHno. reflexivity.
Qed.

(** Non-negative quadratic form. *)
Definition psd (n : nat) (a : mt) : Prop := forall y : vec, le 0 (Sum n (fun i => Sum n (fun j => y i * a i j * y j))).

Lemma psd_ext n a b : meq n n a b -> psd n a -> psd n b.
Proof.
  intros H P y. specialize (P y). erewrite Sum_ext; [exact P|]. intros i Hi. apply Sum_ext. intros j Hj. cbn beta.
  rewrite (H i j Hi Hj). reflexivity.
Qed.

Lemma psd_gram n k (a : mt) (d : vec) : (forall x, (x < k)%nat -> le 0 (d x)) ->
  psd n (mm k a (mm k (dg d) (tr a))).
Proof.
  intros Hd y.
  replace (Sum n (fun i => Sum n (fun j => y i * mm k a (mm k (dg d) (tr a)) i j * y j)))
    with (Sum k (fun x => d x * (Sum n (fun i => y i * a i x) * Sum n (fun i => y i * a i x)))).
  { apply le_0_Sum. intros x Hx. apply le_0_mul; [apply Hd; exact Hx|apply le_0_sqr]. }
  transitivity (Sum n (fun i => Sum n (fun j => Sum k (fun x => d x * (y i * a i x) * (y j * a j x))))).
  - rewrite (Sum_ext k _ (fun x => Sum n (fun i => Sum n (fun j => d x * (y i * a i x) * (y j * a j x))))).
    2:{ intros x _. rewrite Sum_mul_Sum, <- Sum_mul_l. apply Sum_ext. intros i _. rewrite <- Sum_mul_l. apply Sum_ext. intros; ring. }
    rewrite Sum_swap. apply Sum_ext. intros i _. rewrite Sum_swap. reflexivity.
  - apply Sum_ext. intros i _. apply Sum_ext. intros j Hj.
    transitivity (y i * Sum k (fun x => a i x * (d x * a j x)) * y j).
    + rewrite <- Sum_mul_l, <- Sum_mul_r. apply Sum_ext. intros; ring.
    + f_equal. f_equal. unfold mm at 1. apply Sum_ext. intros x Hx. f_equal.
      symmetry. exact (mm_dgl k n d (tr a) x j Hx Hj).
Qed.

Lemma psd_congr n k (a b : mt) : psd k a -> psd n (mm k (tr b) (mm k a b)).
Proof.
  intros P y. specialize (P (fun x => Sum n (fun i => b x i * y i))).
  replace (Sum n (fun i => Sum n (fun j => y i * mm k (tr b) (mm k a b) i j * y j)))
    with (Sum k (fun x => Sum k (fun z => Sum n (fun i => b x i * y i) * a x z * Sum n (fun j => b z j * y j)))); [exact P|].
  transitivity (Sum n (fun i => Sum n (fun j => Sum k (fun x => Sum k (fun z => y i * (b x i * a x z * b z j) * y j))))).
  - transitivity (Sum k (fun x => Sum k (fun z => Sum n (fun i => Sum n (fun j => y i * (b x i * a x z * b z j) * y j))))).
    + apply Sum_ext. intros x _. apply Sum_ext. intros z _.
      replace (Sum n (fun i => b x i * y i) * a x z * Sum n (fun j => b z j * y j))
        with (a x z * (Sum n (fun i => b x i * y i) * Sum n (fun j => b z j * y j))) by ring.
      rewrite Sum_mul_Sum, <- Sum_mul_l. apply Sum_ext. intros i _. rewrite <- Sum_mul_l. apply Sum_ext. intros; ring.
    + transitivity (Sum k (fun x => Sum n (fun i => Sum k (fun z => Sum n (fun j => y i * (b x i * a x z * b z j) * y j))))).
      { apply Sum_ext. intros x _. apply Sum_swap. }
      rewrite Sum_swap. apply Sum_ext. intros i _.
      transitivity (Sum k (fun x => Sum n (fun j => Sum k (fun z => y i * (b x i * a x z * b z j) * y j)))).
      { apply Sum_ext. intros x _. apply Sum_swap. }
      apply Sum_swap.
  - apply Sum_ext. intros i _. apply Sum_ext. intros j _. unfold mm, tr.
    rewrite <- Sum_mul_l, <- Sum_mul_r. apply Sum_ext. intros x _. rewrite <- Sum_mul_l, <- Sum_mul_l, <- Sum_mul_r.
    apply Sum_ext. intros; ring.
Qed.

Lemma le_0_add_zero (x y : K) : le 0 x -> le 0 y -> x + y = 0 -> x = 0 /\ y = 0.
Proof.
  intros Hx Hy E. assert (X : x = 0).
  { apply le_antisym; [|exact Hx]. pose proof (le_add 0 y x Hy) as G. replace (y + x) with (r0 : K) in G by (rewrite <- E; ring).
    replace (0 + x) with x in G by ring. exact G. }
  split; [exact X|]. rewrite X in E. rewrite <- E. ring.
Qed.
Lemma Sum_zero_all n (x : vec) : (forall i, (i < n)%nat -> le 0 (x i)) -> Sum n x = 0 -> forall i, (i < n)%nat -> x i = 0.
Proof.
  induction n; intros H E i Hi; [lia|]. cbn [Sum] in E.
  destruct (le_0_add_zero (Sum n x) (x n)) as [A B].
  - apply le_0_Sum. intros; apply H; lia.
  - apply H; lia.
  - exact E.
  - destruct (Nat.eq_dec i n) as [->|N]; [exact B|]. apply IHn; [intros; apply H; lia|exact A|lia].
Qed.

(** The only positive solution of [X f X = f] is the identity. *)
Lemma riccati_one n (f : vec) (X : mt) : (forall i, (i < n)%nat -> lt 0 (f i)) -> psd n X ->
  meq n n (mm n X (mm n (dg f) X)) (dg f) -> meq n n X idm.
Proof.
  intros Hf HX H.
  set (S := msub X idm).
  assert (E : meq n n (madd (mm n X (mm n (dg f) S)) (mm n S (dg f))) zm).
  { unfold S. rewrite mm_subr, mm_idr, mm_subr, mm_subl, mm_idl, H. intros i j _ _. unfold madd, msub, zm. ring. }
  assert (Z : forall i j, (i < n)%nat -> (j < n)%nat -> S i j = 0).
  { intros i j Hi Hj.
    assert (Q : Sum n (fun i => Sum n (fun k => (f i * S i j) * X i k * (f k * S k j))) + f j * Sum n (fun i => f i * (S i j * S i j)) = 0).
    { transitivity (Sum n (fun i => (f i * S i j) * madd (mm n X (mm n (dg f) S)) (mm n S (dg f)) i j)).
      - rewrite <- Sum_mul_l, <- Sum_add. apply Sum_ext. intros i0 Hi0. unfold madd.
        rewrite (mm_dgr n n f S i0 j Hi0 Hj).
        assert (T : mm n X (mm n (dg f) S) i0 j = Sum n (fun k => X i0 k * (f k * S k j))).
        { unfold mm at 1. apply Sum_ext. intros k Hk. f_equal. exact (mm_dgl n n f S k j Hk Hj). }
        rewrite T. replace (f j * (f i0 * (S i0 j * S i0 j))) with (f i0 * S i0 j * (S i0 j * f j)) by ring.
        rewrite (Sum_ext n _ (fun k => f i0 * S i0 j * (X i0 k * (f k * S k j)))) by (intros; ring). rewrite Sum_mul_l. ring.
      - apply Sum_0. intros i0 Hi0. rewrite (E i0 j Hi0 Hj). unfold zm. ring. }
    assert (P2 : forall i0, (i0 < n)%nat -> le 0 (f i0 * (S i0 j * S i0 j))).
    { intros i0 Hi0. apply le_0_mul; [apply lt_le, Hf; exact Hi0|apply le_0_sqr]. }
    destruct (le_0_add_zero _ _ (HX (fun i => f i * S i j)) (le_0_mul _ _ _ (lt_le _ _ (Hf j Hj)) (le_0_Sum _ _ _ P2)) Q) as [_ B].
    destruct (no_zero_div _ _ _ B) as [B1|B1].
    { exfalso. specialize (Hf j Hj). rewrite B1 in Hf. exact (lt_irrefl _ Hf). }
    pose proof (Sum_zero_all n _ P2 B1 i Hi) as C.
    destruct (no_zero_div _ _ _ C) as [C1|C1].
    { exfalso. specialize (Hf i Hi). rewrite C1 in Hf. exact (lt_irrefl _ Hf). }
    destruct (no_zero_div _ _ _ C1); assumption. }
  intros i j Hi Hj. specialize (Z i j Hi Hj). unfold S, msub in Z.
  replace (X i j) with (X i j - idm i j + idm i j) by ring. rewrite Z. ring.
Qed.

(** A solution of the RPA with positive frequencies gives the only positive [X] with [X (A+B) X = A-B]. *)
Lemma riccati_unique n (D R : mt) f xpy xmy X : rpa_sol n D R f xpy xmy ->
  (forall i, (i < n)%nat -> lt 0 (f i)) -> psd n X ->
  meq n n (mm n X (mm n R X)) D -> meq n n X (mm n xpy (tr xpy)).
Proof.
  intros HS Hf HX H.
  pose proof (R_spec K n D R f xpy xmy HS) as HR. pose proof (D_spec K n D R f xpy xmy HS) as HD.
  pose proof (norm' K n D R f xpy xmy HS) as N1. pose proof (norm'' K n D R f xpy xmy HS) as N2.
  pose proof HS as (_ & _ & N3 & N4).
  set (Y := mm n (tr xmy) (mm n X xmy)).
  assert (HY : meq n n (mm n Y (mm n (dg f) Y)) (dg f)).
  { unfold Y. rewrite !mm_assoc.
    transitivity (mm n (tr xmy) (mm n (mm n X (mm n R X)) xmy)).
    - rewrite HR. rewrite !mm_assoc. reflexivity.
    - rewrite H, HD. rewrite !mm_assoc. rewrite N3, mm_idr, <- mm_assoc, N2, mm_idl. reflexivity. }
  pose proof (riccati_one n f Y Hf (psd_congr n n X xmy HX) HY) as H1.
  transitivity (mm n xpy (mm n Y (tr xpy))).
  - unfold Y. rewrite !mm_assoc. rewrite N1, mm_idr. rewrite <- mm_assoc, N4, mm_idl. reflexivity.
  - rewrite H1, mm_idl. reflexivity.
Qed.

(** Inverses are unique. *)
Lemma inv_unique n (a b c : mt) : meq n n (mm n b a) idm -> meq n n (mm n a c) idm -> meq n n b c.
Proof. intros H G. rewrite <- (mm_idr n n b). rewrite <- G, <- mm_assoc, H. apply mm_idl. Qed.
Lemma cancel_l n c (a b x y : mt) : meq n n (mm n b a) idm -> meq n c (mm n a x) (mm n a y) -> meq n c x y.
Proof. intros H G. rewrite <- (mm_idl n c x), <- (mm_idl n c y), <- H, !mm_assoc, G. reflexivity. Qed.
Lemma cancel_r n r (a b x y : mt) : meq n n (mm n a b) idm -> meq r n (mm n x a) (mm n y a) -> meq r n x y.
Proof. intros H G. rewrite <- (mm_idr r n x), <- (mm_idr r n y), <- H, <- !mm_assoc, G. reflexivity. Qed.
End G.

(** * The local problem *)
Section T.
Context (K : oring).
Add Ring Kr : (rth K).
Variables (inv : K -> K) (hlf thr : K).
Variables (eigh : nat -> (nat -> nat -> K) -> (nat -> K) * (nat -> nat -> K)).
Variables (km : nat -> (nat -> nat -> K) -> result (nat -> nat -> K)).
Open Scope K_scope.
Notation vec := (nat -> K).
Notation mt := (nat -> nat -> K).
Notation ten := (nat -> nat -> nat -> nat -> K).
Notation mfd := (mfd K). Notation frag := (frag K). Notation scr := (scr K).
Notation nov := (nov K). Notation ovs := (ovs K). Notation trot := (trot K). Notation stack := (stack K). Notation rows := (rows K).
Notation build := (build K inv hlf eigh km).
Notation smom := (smom K). Notation samb := (samb K). Notation kaa := (kaa K). Notation kab := (kab K). Notation kbb := (kbb K).

(** Sizes, overlaps and energies by spin (false: alpha); places of excitations of system and cluster. *)
Definition no_ (m : mfd) (s : bool) : nat := if s then nob K m else noa K m.
Definition nv_ (m : mfd) (s : bool) : nat := if s then nvb K m else nva K m.
Definition moe_ (m : mfd) (s : bool) : vec := if s then moeb K m else moea K m.
Definition co_ (f : frag) (s : bool) : nat := if s then cob K f else coa K f.
Definition cv_ (f : frag) (s : bool) : nat := if s then cvb K f else cva K f.
Definition ro_ (f : frag) (s : bool) : mt := if s then rob K f else roa K f.
Definition rv_ (f : frag) (s : bool) : mt := if s then rvb K f else rva K f.
Definition ph (m : mfd) (s : bool) (i a : nat) : nat := place (noa K m) (nva K m) (nvb K m) s i a.
Definition cph (f : frag) (s : bool) (i a : nat) : nat := place (coa K f) (cva K f) (cvb K f) s i a.

(** ** The rotation of the particle-hole space is the product of the rotations of the orbitals *)
Theorem C71_rotation m f s t J B i a :
  (J < co_ f s)%nat -> (B < cv_ f s)%nat -> (i < no_ m t)%nat -> (a < nv_ m t)%nat ->
  trot m f (cph f s J B) (ph m t i a) = if Bool.eqb s t then ro_ f s i J * rv_ f s a B else 0.
Proof.
  intros HJ HB Hi Ha. unfold trot, block_diag, cph, ph, place. fold (ova K f) (nova K m).
  destruct s, t; cbn [Bool.eqb co_ cv_ no_ nv_ ro_ rv_] in *.
  - rewrite blk_rr. unfold srot. rewrite !pos_div, !pos_mod by assumption. reflexivity.
  - rewrite blk_rl by (apply pos_lt; assumption). reflexivity.
  - rewrite blk_lr by (apply pos_lt; assumption). reflexivity.
  - rewrite blk_ll by (apply pos_lt; assumption). unfold srot. rewrite !pos_div, !pos_mod by assumption. reflexivity.
Qed.

Lemma trot_sum m f s J B (x : vec) : (J < co_ f s)%nat -> (B < cv_ f s)%nat ->
  Sum (nov m) (fun k => trot m f (cph f s J B) k * x k)
  = Sum (no_ m s) (fun i => Sum (nv_ m s) (fun a => ro_ f s i J * rv_ f s a B * x (ph m s i a))).
Proof.
  intros HJ HB. unfold nov. unfold nova at 1, novb. rewrite Sum_split, !Sum_ov.
  assert (A : forall i a, (i < noa K m)%nat -> (a < nva K m)%nat ->
    trot m f (cph f s J B) (i * nva K m + a) = if s then 0 else ro_ f s i J * rv_ f s a B).
  { intros i a Hi Ha. rewrite (C71_rotation m f s false J B i a HJ HB Hi Ha : trot m f (cph f s J B) (i * nva K m + a) = _).
    destruct s; reflexivity. }
  assert (A' : forall i a, (i < nob K m)%nat -> (a < nvb K m)%nat ->
    trot m f (cph f s J B) (noa K m * nva K m + (i * nvb K m + a)) = if s then ro_ f s i J * rv_ f s a B else 0).
  { intros i a Hi Ha. rewrite (C71_rotation m f s true J B i a HJ HB Hi Ha : trot m f (cph f s J B) (noa K m * nva K m + (i * nvb K m + a)) = _).
    destruct s; reflexivity. }
  destruct s; cbn [no_ nv_ ph place].
  - rewrite (Sum_0 (noa K m)). 2:{ intros i Hi. apply Sum_0. intros a Ha. rewrite A by assumption. ring. }
    transitivity (Sum (nob K m) (fun i => Sum (nvb K m) (fun a => ro_ f true i J * rv_ f true a B * x (noa K m * nva K m + (i * nvb K m + a))%nat))); [|reflexivity].
    match goal with |- 0 + ?y = ?z => transitivity y; [ring|] end.
    apply Sum_ext. intros i Hi. apply Sum_ext. intros a Ha. rewrite A' by assumption. reflexivity.
  - rewrite (Sum_0 (nob K m)). 2:{ intros i Hi. apply Sum_0. intros a Ha. rewrite A' by assumption. ring. }
    match goal with |- ?y + 0 = ?z => transitivity y; [ring|] end.
    apply Sum_ext. intros i Hi. apply Sum_ext. intros a Ha. rewrite A by assumption. reflexivity.
Qed.

(** Every place is one of these. *)
Lemma cph_cover f p : (p < ovs f)%nat -> exists s J B, (J < co_ f s)%nat /\ (B < cv_ f s)%nat /\ p = cph f s J B.
Proof.
  intros H. unfold ovs in H. fold (ova K f) in H.
  assert (D : forall co cv x, (x < co * cv)%nat -> (x / cv < co)%nat /\ (x mod cv < cv)%nat /\ x = (x / cv * cv + x mod cv)%nat).
  { intros co cv x Hx. assert (cv <> 0)%nat by (intros ->; lia). split; [apply Nat.div_lt_upper_bound; lia|].
    split; [apply Nat.mod_upper_bound; assumption|]. rewrite Nat.mul_comm. apply Nat.div_mod. assumption. }
  destruct (Nat.lt_ge_cases p (ova K f)) as [P|P].
  - destruct (D _ _ _ P) as (A & B & C). exists false, (p / cva K f)%nat, (p mod cva K f)%nat. auto.
  - assert (Q : (p - ova K f < cob K f * cvb K f)%nat) by (unfold ovb in H; lia). destruct (D _ _ _ Q) as (A & B & C).
    exists true, ((p - ova K f) / cvb K f)%nat, ((p - ova K f) mod cvb K f)%nat. split; [exact A|]. split; [exact B|].
    unfold cph, place. fold (ova K f). lia.
Qed.
Lemma cph_lt f s J B : (J < co_ f s)%nat -> (B < cv_ f s)%nat -> (cph f s J B < ovs f)%nat.
Proof.
  intros HJ HB. unfold cph, place, ovs, ova, ovb. destruct s; cbn [co_ cv_] in *.
  - pose proof (pos_lt (cob K f) (cvb K f) J B HJ HB). lia.
  - pose proof (pos_lt (coa K f) (cva K f) J B HJ HB). lia.
Qed.

(** ** What is stored *)
Definition exact (m : mfd) (fs : list frag) (M0 : mt) : Prop :=
  forall x, km (rows fs) (stack m fs) = Ret x -> meq (rows fs) (nov m) x (mm (nov m) (stack m fs) M0).

Lemma build_inv m fs l : build m fs = Ret l -> exists x e,
  km (rows fs) (stack m fs) = Ret x /\ eps K m = Ret e /\
  Forall (fun f => ovs f <> 0%nat) fs /\
  l = map (fun fm => screen1 K inv hlf eigh (fst fm) (snd fm) (loc_amb K m e (fst fm))) (List.combine fs (local_moms K hlf m x 0 fs)).
Proof.
  unfold build, calc_moms. destruct (rows fs =? 0)%nat; cbn [rbind]; [discriminate|].
  destruct (km _ _) as [x| | |] eqn:E; cbn [rbind]; try discriminate.
  destruct (eps K m) as [e| | |] eqn:F; cbn [rbind]; try discriminate.
  destruct (existsb _ fs) eqn:G; [discriminate|]. intros [= <-]. exists x, e. split; [reflexivity|]. split; [reflexivity|].
  split; [|reflexivity]. apply Forall_forall. intros f Hf Z. rewrite <- not_true_iff_false in G. apply G.
  apply existsb_exists. exists f. split; [exact Hf|]. apply Nat.eqb_eq. exact Z.
Qed.

Definition loc (m : mfd) (f : frag) (a : mt) : mt := mm (nov m) (mm (nov m) (trot m f) a) (tr (trot m f)).

Lemma local_moms_ok m x M0 fs : forall n,
  hlf + hlf = 1 -> meq (nov m) (nov m) (tr M0) M0 ->
  (forall p k, (p < rows fs)%nat -> (k < nov m)%nat -> x (n + p)%nat k = mm (nov m) (stack m fs) M0 p k) ->
  Forall2 (fun f mom => meq (ovs f) (ovs f) mom (loc m f M0) /\ (forall p q, mom p q = mom q p)) fs (local_moms K hlf m x n fs).
Proof.
  induction fs as [|f r IH]; intros n Hh HM Hx; cbn [local_moms]; [constructor|]. constructor.
  - split; [|intros p q; ring].
    assert (Y : forall p q, (p < ovs f)%nat -> (q < ovs f)%nat -> Sum (nov m) (fun k => x (n + p)%nat k * trot m f q k) = loc m f M0 p q).
    { intros p q Hp Hq. unfold loc, mm at 1, tr. apply Sum_ext. intros k Hk. f_equal. rewrite Hx; [|cbn [rows]; lia|exact Hk].
      unfold mm. apply Sum_ext. intros z _. cbn [stack]. apply Nat.ltb_lt in Hp. rewrite Hp. reflexivity. }
    assert (S : meq (ovs f) (ovs f) (tr (loc m f M0)) (loc m f M0)).
    { unfold loc. rewrite tr_mm, tr_tr, tr_mm, HM, mm_assoc. reflexivity. }
    intros p q Hp Hq. rewrite !Y by assumption. specialize (S q p Hq Hp). unfold tr in S. rewrite <- S.
    transitivity ((hlf + hlf) * loc m f M0 p q); [ring|rewrite Hh; ring].
  - apply IH; [exact Hh|exact HM|]. intros p k Hp Hk. replace (n + ovs f + p)%nat with (n + (ovs f + p))%nat by lia.
    rewrite Hx; [|cbn [rows]; lia|exact Hk]. unfold mm. apply Sum_ext. intros z _. f_equal. cbn [stack].
    rewrite (proj2 (Nat.ltb_ge _ _)) by lia. f_equal. lia.
Qed.

Lemma eps_at m e s i a : eps K m = Ret e -> (i < no_ m s)%nat -> (a < nv_ m s)%nat ->
  e (ph m s i a) = moe_ m s (no_ m s + a)%nat - moe_ m s i.
Proof.
  unfold eps, eps1. intros H Hi Ha.
  destruct ((_ || _ || _)%nat) eqn:E1; cbn [rbind] in H; [|discriminate].
  match type of H with context [if ?c then _ else _] => destruct c eqn:E2 end; cbn [rbind] in H; [|discriminate].
  assert (X := f_equal (fun r => match r with Ret y => y | _ => e end) H). cbn beta iota in X. rewrite <- X. clear X H.
  unfold ph, place. fold (nova K m). destruct s; cbn [no_ nv_ moe_] in *.
  - rewrite vcat_r. apply gen_eps_at. exact Ha.
  - rewrite vcat_l by (apply pos_lt; assumption). apply gen_eps_at. exact Ha.
Qed.

Lemma amb_loc m e f : meq (ovs f) (ovs f) (loc_amb K m e f) (loc m f (dg e)).
Proof.
  intros p q Hp Hq. unfold loc_amb, loc, mm at 1, tr. apply Sum_ext. intros k Hk.
  rewrite (mm_dgr (ovs f) (nov m) e (trot m f) p k Hp Hk). ring.
Qed.

(** Elements of a matrix taken to the cluster. *)
Lemma loc_at m f a s t J B J' B' : (J < co_ f s)%nat -> (B < cv_ f s)%nat -> (J' < co_ f t)%nat -> (B' < cv_ f t)%nat ->
  loc m f a (cph f s J B) (cph f t J' B')
  = Sum (no_ m s) (fun i => Sum (nv_ m s) (fun a1 => Sum (no_ m t) (fun j => Sum (nv_ m t) (fun b =>
      ro_ f s i J * rv_ f s a1 B * (ro_ f t j J' * rv_ f t b B') * a (ph m s i a1) (ph m t j b))))).
Proof.
  intros HJ HB HJ' HB'. unfold loc.
  rewrite (mm_assoc (ovs f) (ovs f) (nov m) (nov m) (trot m f) a (tr (trot m f))) by (apply cph_lt; assumption).
  unfold mm at 1. rewrite (trot_sum m f s J B (fun k => mm (nov m) a (tr (trot m f)) k (cph f t J' B')) HJ HB).
  apply Sum_ext. intros i Hi. apply Sum_ext. intros a1 Ha.
  assert (E : mm (nov m) a (tr (trot m f)) (ph m s i a1) (cph f t J' B')
    = Sum (nov m) (fun k => trot m f (cph f t J' B') k * a (ph m s i a1) k)).
  { unfold mm, tr. apply Sum_ext. intros; ring. }
  rewrite E, (trot_sum m f t J' B' (fun k => a (ph m s i a1) k) HJ' HB').
  rewrite <- Sum_mul_l. apply Sum_ext. intros j Hj. rewrite <- Sum_mul_l. apply Sum_ext. intros b Hb. ring.
Qed.

Lemma Forall2_map_combine {A B C} (P : A -> C -> Prop) (g : A * B -> C) (fs : list A) (ms : list B) (Q : A -> B -> Prop) :
  Forall2 Q fs ms -> (forall f mo, In f fs -> Q f mo -> P f (g (f, mo))) -> Forall2 P fs (map g (List.combine fs ms)).
Proof.
  induction 1 as [|f mo fs ms Hq _ IH]; intros H; cbn; constructor.
  - apply H; [left; reflexivity|exact Hq].
  - apply IH. intros f' mo' Hf'. apply H. right. exact Hf'.
Qed.

Lemma Forall2_imp {A B} (P Q : A -> B -> Prop) l l' : (forall a b, P a b -> Q a b) -> Forall2 P l l' -> Forall2 Q l l'.
Proof. intros H. induction 1; constructor; auto. Qed.

Lemma build_ok m fs l M0 : hlf + hlf = 1 -> meq (nov m) (nov m) (tr M0) M0 -> build m fs = Ret l -> exact m fs M0 ->
  exists e, eps K m = Ret e /\
  Forall2 (fun f s => ovs f <> 0%nat /\ meq (ovs f) (ovs f) (smom s) (loc m f M0) /\ (forall p q, smom s p q = smom s q p) /\
                      s = screen1 K inv hlf eigh f (smom s) (loc_amb K m e f)) fs l.
Proof.
  intros Hh HM Hb Hx. destruct (build_inv _ _ _ Hb) as (x & e & E & F & N & ->). exists e. split; [exact F|].
  eapply Forall2_map_combine.
  - apply (local_moms_ok m x M0 fs 0 Hh HM). intros p k Hp Hk. exact (Hx x E p k Hp Hk).
  - intros f mo Hf [H1 H2]. cbn. split; [exact (proj1 (Forall_forall _ _) N f Hf)|]. split; [exact H1|]. split; [exact H2|reflexivity].
Qed.

(** ** Moment and energies of the cluster are those of the whole system, seen from the orbitals of the cluster; whichever
    other fragments there are *)
Theorem C71_moment m fs l M0 : hlf + hlf = 1 -> meq (nov m) (nov m) (tr M0) M0 -> build m fs = Ret l -> exact m fs M0 ->
  Forall2 (fun f x => forall s t J B J' B', (J < co_ f s)%nat -> (B < cv_ f s)%nat -> (J' < co_ f t)%nat -> (B' < cv_ f t)%nat ->
    smom x (cph f s J B) (cph f t J' B')
    = Sum (no_ m s) (fun i => Sum (nv_ m s) (fun a => Sum (no_ m t) (fun j => Sum (nv_ m t) (fun b =>
        ro_ f s i J * rv_ f s a B * (ro_ f t j J' * rv_ f t b B') * M0 (ph m s i a) (ph m t j b))))) /\
    samb x (cph f s J B) (cph f t J' B')
    = if Bool.eqb s t then Sum (no_ m s) (fun i => Sum (nv_ m s) (fun a =>
        ro_ f s i J * rv_ f s a B * (ro_ f s i J' * rv_ f s a B') * (moe_ m s (no_ m s + a)%nat - moe_ m s i))) else 0) fs l.
Proof.
  intros Hh HM Hb Hx. destruct (build_ok m fs l M0 Hh HM Hb Hx) as (e & He & H).
  eapply Forall2_imp; [|exact H]. intros f x (_ & H1 & _ & H3) s t J B J' B' HJ HB HJ' HB'. split.
  - rewrite H1 by (apply cph_lt; assumption). apply loc_at; assumption.
  - rewrite H3. unfold samb, screen1, M_Screen.samb. unfold loc_amb.
    transitivity (Sum (nov m) (fun n => trot m f (cph f s J B) n * (trot m f (cph f t J' B') n * e n))); [apply Sum_ext; intros; ring|].
    rewrite (trot_sum m f s J B (fun n => trot m f (cph f t J' B') n * e n) HJ HB).
    destruct (Bool.eqb s t) eqn:E.
    + apply Bool.eqb_prop in E. subst t. apply Sum_ext. intros i Hi. apply Sum_ext. intros a Ha.
      rewrite (C71_rotation m f s s J' B' i a) by assumption. rewrite Bool.eqb_reflx. rewrite (eps_at m e s i a He Hi Ha). ring.
    + apply Sum_0. intros i Hi. apply Sum_0. intros a Ha. rewrite (C71_rotation m f t s J' B' i a) by assumption.
      replace (Bool.eqb t s) with false by (destruct s, t; cbn in *; congruence). ring.
Qed.

(** ** The screened kernel *)

(** The kernel as a matrix, put together from the stored spin blocks; A+B of the cluster with the screened interaction. *)
Definition flat (cv cv' : nat) (t : ten) : mt := fun p q => t (p / cv)%nat (p mod cv)%nat (q / cv')%nat (q mod cv')%nat.
Definition kmat (f : frag) (x : scr) : mt :=
  blk K (ova K f) (ova K f) (flat (cva K f) (cva K f) (kaa x)) (flat (cva K f) (cvb K f) (kab x))
    (tr (flat (cva K f) (cvb K f) (kab x))) (flat (cvb K f) (cvb K f) (kbb x)).
Definition apb (f : frag) (x : scr) : mt := madd (samb x) (msc (1 + 1) (kmat f x)).

(** The diagonalisation of the local moment is right and none of its eigenvalues vanishes. *)
Definition regular (f : frag) (x : scr) : Prop :=
  eig_ok (ovs f) (smom x) (eigh (ovs f) (smom x)) /\
  (forall k, (k < ovs f)%nat -> fst (eigh (ovs f) (smom x)) k * inv (fst (eigh (ovs f) (smom x)) k) = 1).

Lemma mominv_ok n mom : eig_ok n mom (eigh n mom) -> (forall k, (k < n)%nat -> fst (eigh n mom) k * inv (fst (eigh n mom) k) = 1) ->
  let mi := mominv K inv eigh n mom in
  meq n n (mm n mom mi) idm /\ meq n n (mm n mi mom) idm /\ meq n n (tr mi) mi.
Proof.
  intros He Hi mi. unfold mi, mominv. destruct (eigh n mom) as [e c] eqn:E. cbn [fst] in Hi.
  pose proof (spectral K n mom c e He) as Hm. destruct He as (_ & H1 & H2). cbn [fst snd] in *.
  pose proof (three K n c (fun k => inv (e k))) as H3.
  assert (P : forall d1 d2, (forall k, (k < n)%nat -> d1 k * d2 k = 1) ->
     meq n n (mm n (mm n c (mm n (dg d1) (tr c))) (mm n c (mm n (dg d2) (tr c)))) idm).
  { intros d1 d2 Hd. rewrite !mm_assoc. rewrite <- (mm_assoc n n n n (tr c) c), H1, mm_idl.
    rewrite <- (mm_assoc n n n n (dg d1) (dg d2)), mm_dd, (dg_id n _ Hd), mm_idl. exact H2. }
  split; [|split].
  - rewrite H3, Hm. apply P. exact Hi.
  - rewrite H3, Hm. apply P. intros k Hk. rewrite <- (Hi k Hk). ring.
  - intros p q _ _. unfold tr. apply Sum_ext. intros; ring.
Qed.

Lemma kernel_apb n mom amb : hlf + hlf = 1 ->
  let mi := mominv K inv eigh n mom in
  meq n n (madd amb (msc (1 + 1) (kernel K inv hlf eigh n mom amb))) (mm n mi (mm n amb mi)).
Proof.
  intros Hh mi. rewrite <- mm_assoc. intros p q _ _. unfold madd, msc, kernel. fold mi. set (z := mm n (mm n mi amb) mi p q).
  transitivity (amb p q + (hlf + hlf) * (z - amb p q)); [ring|rewrite Hh; ring].
Qed.

Lemma kernel_sym n mom amb : meq n n (tr (mominv K inv eigh n mom)) (mominv K inv eigh n mom) -> meq n n (tr amb) amb ->
  meq n n (tr (kernel K inv hlf eigh n mom amb)) (kernel K inv hlf eigh n mom amb).
Proof.
  intros H1 H2. set (mi := mominv K inv eigh n mom) in *.
  assert (H : meq n n (tr (mm n (mm n mi amb) mi)) (mm n (mm n mi amb) mi)).
  { rewrite tr_mm, tr_mm, H1, H2, mm_assoc. reflexivity. }
  intros p q Hp Hq. unfold tr, kernel. fold mi. rewrite <- (H p q Hp Hq). rewrite <- (H2 p q Hp Hq). reflexivity.
Qed.

Lemma kmat_kernel f mom amb : meq (ovs f) (ovs f) (tr (kernel K inv hlf eigh (ovs f) mom amb)) (kernel K inv hlf eigh (ovs f) mom amb) ->
  meq (ovs f) (ovs f) (kmat f (screen1 K inv hlf eigh f mom amb)) (kernel K inv hlf eigh (ovs f) mom amb).
Proof.
  intros Hs. set (kc := kernel K inv hlf eigh (ovs f) mom amb) in *.
  assert (D : forall co cv x, (x < co * cv)%nat -> (x / cv * cv + x mod cv)%nat = x).
  { intros co cv x Hx. assert (cv <> 0)%nat by (intros ->; lia). rewrite Nat.mul_comm. symmetry. apply Nat.div_mod. assumption. }
  unfold kmat. apply blk_ext; unfold flat, screen1; cbn [M_Screen.kaa M_Screen.kab M_Screen.kbb]; fold kc.
  - intros p q Hp Hq. rewrite (D (coa K f)), (D (coa K f)) by assumption. reflexivity.
  - intros p q Hp Hq. rewrite (D (coa K f)), (D (cob K f)) by (unfold ovs, ovb in Hq; first [assumption|lia]). reflexivity.
  - intros p q Hp Hq. unfold tr. rewrite (D (coa K f)), (D (cob K f)) by (unfold ovs, ovb in Hp; first [assumption|lia]).
    apply (Hs (ova K f + p)%nat q); [exact Hp|unfold ovs; lia].
  - intros p q Hp Hq. rewrite (D (cob K f)), (D (cob K f)) by (unfold ovs, ovb in Hp, Hq; lia). reflexivity.
Qed.

Lemma loc_amb_sym m e f n : meq n n (tr (loc_amb K m e f)) (loc_amb K m e f).
Proof. intros p q _ _. unfold tr, loc_amb. apply Sum_ext. intros; ring. Qed.

(** All that the later theorems need of one fragment. *)
Lemma frag_ok m e f x : hlf + hlf = 1 -> x = screen1 K inv hlf eigh f (smom x) (loc_amb K m e f) -> regular f x ->
  let n := ovs f in let mi := mominv K inv eigh n (smom x) in
  meq n n (mm n (smom x) mi) idm /\ meq n n (mm n mi (smom x)) idm /\ meq n n (tr mi) mi /\
  meq n n (apb f x) (mm n mi (mm n (samb x) mi)) /\ meq n n (tr (kmat f x)) (kmat f x) /\ meq n n (tr (samb x)) (samb x) /\
  meq n n (kmat f x) (kernel K inv hlf eigh n (smom x) (samb x)).
Proof.
  intros Hh Hx [He Hi] n mi. destruct (mominv_ok n (smom x) He Hi) as (A & B & C). fold mi in A, B, C.
  assert (Ex : samb x = loc_amb K m e f) by (rewrite Hx; reflexivity).
  assert (Sa : meq n n (tr (samb x)) (samb x)) by (rewrite Ex; apply loc_amb_sym).
  pose proof (kernel_sym n (smom x) (samb x) C Sa) as Sk.
  assert (Hk : meq n n (kmat f x) (kernel K inv hlf eigh n (smom x) (samb x))).
  { rewrite Hx at 1. rewrite <- Ex. apply (kmat_kernel f (smom x) (samb x) Sk). }
  split; [exact A|]. split; [exact B|]. split; [exact C|]. split.
  { unfold apb. rewrite Hk. apply kernel_apb. exact Hh. }
  split; [rewrite Hk; exact Sk|]. split; [exact Sa|exact Hk].
Qed.

(** *** The screened interaction conserves the moment: with it the RPA equation of the cluster holds for the moment of the system *)
Theorem C71_conserved m fs l M0 : hlf + hlf = 1 -> meq (nov m) (nov m) (tr M0) M0 -> build m fs = Ret l -> exact m fs M0 ->
  Forall2 (fun f x => regular f x -> let n := ovs f in meq n n (mm n (smom x) (mm n (apb f x) (smom x))) (samb x)) fs l.
Proof.
  intros Hh HM Hb Hx. destruct (build_ok m fs l M0 Hh HM Hb Hx) as (e & He & H).
  eapply Forall2_imp; [|exact H]. intros f x (_ & _ & _ & H3) Hr n.
  destruct (frag_ok m e f x Hh H3 Hr) as (A & B & _ & D & _). fold n in A, B, D.
  rewrite D, !mm_assoc, B, mm_idr, <- mm_assoc, A, mm_idl. reflexivity.
Qed.

(** *** and the RPA in the cluster, with positive frequencies, has this moment and no other *)
Theorem C71_rpa m fs l M0 : hlf + hlf = 1 -> meq (nov m) (nov m) (tr M0) M0 -> build m fs = Ret l -> exact m fs M0 ->
  Forall2 (fun f x => regular f x -> (forall k, (k < ovs f)%nat -> lt 0 (fst (eigh (ovs f) (smom x)) k)) ->
    forall w xpy xmy, rpa_sol (ovs f) (samb x) (apb f x) w xpy xmy -> (forall k, (k < ovs f)%nat -> lt 0 (w k)) ->
    meq (ovs f) (ovs f) (mm (ovs f) xpy (tr xpy)) (smom x)) fs l.
Proof.
  intros Hh HM Hb Hx. eapply Forall2_imp; [|exact (C71_conserved m fs l M0 Hh HM Hb Hx)].
  intros f x H Hr Hp w xpy xmy Hs Hw. specialize (H Hr). cbn zeta in H. symmetry.
  apply (riccati_unique K (ovs f) (samb x) (apb f x) w xpy xmy (smom x) Hs Hw); [|exact H].
  destruct Hr as [He _]. destruct (eigh (ovs f) (smom x)) as [ev c].
  pose proof (spectral K (ovs f) (smom x) c ev He) as Sp.
  eapply psd_ext; [symmetry; exact Sp|]. apply psd_gram. intros k Hk. apply lt_le. exact (Hp k Hk).
Qed.

(** *** Symmetries of the kernel *)
Theorem C71_symmetric m fs l M0 : hlf + hlf = 1 -> meq (nov m) (nov m) (tr M0) M0 -> build m fs = Ret l -> exact m fs M0 ->
  Forall2 (fun f x => regular f x ->
    (forall i a j b, (i < co_ f false)%nat -> (a < cv_ f false)%nat -> (j < co_ f false)%nat -> (b < cv_ f false)%nat -> kaa x i a j b = kaa x j b i a) /\
    (forall i a j b, (i < co_ f true)%nat -> (a < cv_ f true)%nat -> (j < co_ f true)%nat -> (b < cv_ f true)%nat -> kbb x i a j b = kbb x j b i a)) fs l.
Proof.
  intros Hh HM Hb Hx. destruct (build_ok m fs l M0 Hh HM Hb Hx) as (e & He & H).
  eapply Forall2_imp; [|exact H]. intros f x (_ & _ & _ & H3) Hr.
  destruct (frag_ok m e f x Hh H3 Hr) as (_ & _ & _ & _ & S & _ & Hk). rewrite Hk in S.
  assert (Ex : samb x = loc_amb K m e f) by (rewrite H3; reflexivity). rewrite Ex in S.
  split; intros i a j b Hi Ha Hj Hb0; rewrite H3; unfold screen1; cbn [M_Screen.kaa M_Screen.kbb].
  - exact (S (cph f false j b) (cph f false i a) (cph_lt f false j b Hj Hb0) (cph_lt f false i a Hi Ha)).
  - exact (S (cph f true j b) (cph f true i a) (cph_lt f true j b Hj Hb0) (cph_lt f true i a Hi Ha)).
Qed.

(** *** A cluster that spans everything *)
Definition gaps (m : mfd) : vec := vcat K (nova K m) (gen_eps K (noa K m) (nva K m) (moea K m)) (gen_eps K (nob K m) (nvb K m) (moeb K m)).

Lemma eps_gaps m e : eps K m = Ret e -> e = gaps m.
Proof.
  unfold eps, eps1. intros H.
  destruct ((_ || _ || _)%nat) eqn:E1; cbn [rbind] in H; [|discriminate].
  match type of H with context [if ?c then _ else _] => destruct c eqn:E2 end; cbn [rbind] in H; [|discriminate].
  exact (eq_sym (f_equal (fun r => match r with Ret y => y | _ => e end) H)).
Qed.

(** The orbitals of the cluster span the occupied and the virtual space; they are orthonormal. *)
Definition spans (m : mfd) (f : frag) : Prop := forall s,
  (forall i j, (i < no_ m s)%nat -> (j < no_ m s)%nat -> Sum (co_ f s) (fun J => ro_ f s i J * ro_ f s j J) = delta i j) /\
  (forall a b, (a < nv_ m s)%nat -> (b < nv_ m s)%nat -> Sum (cv_ f s) (fun B => rv_ f s a B * rv_ f s b B) = delta a b).
Definition orthonormal (m : mfd) (f : frag) : Prop := forall s,
  (forall J J', (J < co_ f s)%nat -> (J' < co_ f s)%nat -> Sum (no_ m s) (fun i => ro_ f s i J * ro_ f s i J') = delta J J') /\
  (forall B B', (B < cv_ f s)%nat -> (B' < cv_ f s)%nat -> Sum (nv_ m s) (fun a => rv_ f s a B * rv_ f s a B') = delta B B').

Lemma place_cover na va nb vb p : (p < na * va + nb * vb)%nat ->
  exists (s : bool) i a, (i < if s then nb else na)%nat /\ (a < if s then vb else va)%nat /\ p = place na va vb s i a.
Proof.
  intros H.
  assert (D : forall co cv x, (x < co * cv)%nat -> (x / cv < co)%nat /\ (x mod cv < cv)%nat /\ x = (x / cv * cv + x mod cv)%nat).
  { intros co cv x Hx. assert (cv <> 0)%nat by (intros ->; lia). split; [apply Nat.div_lt_upper_bound; lia|].
    split; [apply Nat.mod_upper_bound; assumption|]. rewrite Nat.mul_comm. apply Nat.div_mod. assumption. }
  destruct (Nat.lt_ge_cases p (na * va)) as [P|P].
  - destruct (D _ _ _ P) as (A & B & C). exists false, (p / va)%nat, (p mod va)%nat. auto.
  - assert (Q : (p - na * va < nb * vb)%nat) by lia. destruct (D _ _ _ Q) as (A & B & C).
    exists true, ((p - na * va) / vb)%nat, ((p - na * va) mod vb)%nat. split; [exact A|]. split; [exact B|].
    unfold place. lia.
Qed.
Lemma delta_pos' nv i a j b : (a < nv)%nat -> (b < nv)%nat ->
  delta (K := K) (i * nv + a)%nat (j * nv + b)%nat = delta i j * delta a b.
Proof.
  intros Ha Hb. rewrite (delta_pos K nv i a j b Ha Hb). unfold delta.
  destruct (Nat.eqb_spec i j), (Nat.eqb_spec a b); cbn [andb]; ring.
Qed.
Lemma delta_place na va nb vb (s t : bool) i a j b :
  (i < if s then nb else na)%nat -> (a < if s then vb else va)%nat -> (j < if t then nb else na)%nat -> (b < if t then vb else va)%nat ->
  delta (K := K) (place na va vb s i a) (place na va vb t j b) = if Bool.eqb s t then delta i j * delta a b else 0.
Proof.
  intros Hi Ha Hj Hb. unfold place. destruct s, t; cbn [Bool.eqb].
  - rewrite <- (delta_pos' vb i a j b Ha Hb). unfold delta.
    destruct (Nat.eqb_spec (na * va + (i * vb + a)) (na * va + (j * vb + b))), (Nat.eqb_spec (i * vb + a) (j * vb + b)); (reflexivity || lia).
  - pose proof (pos_lt na va j b Hj Hb). apply delta_neq. lia.
  - pose proof (pos_lt na va i a Hi Ha). apply delta_neq. lia.
  - apply (delta_pos' va i a j b Ha Hb).
Qed.

Lemma ph_cover m k : (k < nov m)%nat -> exists s i a, (i < no_ m s)%nat /\ (a < nv_ m s)%nat /\ k = ph m s i a.
Proof. intros H. exact (place_cover (noa K m) (nva K m) (nob K m) (nvb K m) k H). Qed.

Lemma Sum_cph f (g : vec) : Sum (ovs f) g = Sum (coa K f) (fun J => Sum (cva K f) (fun B => g (cph f false J B)))
  + Sum (cob K f) (fun J => Sum (cvb K f) (fun B => g (cph f true J B))).
Proof. unfold ovs. unfold ova at 1, ovb. rewrite Sum_split, !Sum_ov. reflexivity. Qed.

Lemma trot_span m f : spans m f -> meq (nov m) (nov m) (mm (ovs f) (tr (trot m f)) (trot m f)) idm.
Proof.
  intros H k k' Hk Hk'. destruct (ph_cover m k Hk) as (s & i & a & Hi & Ha & ->). destruct (ph_cover m k' Hk') as (t & j & b & Hj & Hb & ->).
  unfold idm, mm, tr. rewrite Sum_cph.
  assert (A : forall u, Sum (co_ f u) (fun J => Sum (cv_ f u) (fun B => trot m f (cph f u J B) (ph m s i a) * trot m f (cph f u J B) (ph m t j b)))
     = if Bool.eqb u s then (if Bool.eqb u t then delta i j * delta a b else 0) else 0).
  { intros u. rewrite (Sum_ext (co_ f u) _ (fun J => Sum (cv_ f u) (fun B =>
       (if Bool.eqb u s then ro_ f u i J * rv_ f u a B else 0) * (if Bool.eqb u t then ro_ f u j J * rv_ f u b B else 0)))).
    2:{ intros J HJ. apply Sum_ext. intros B HB. rewrite !C71_rotation by assumption. reflexivity. }
    destruct (Bool.eqb u s) eqn:E1; [|apply Sum_0; intros; apply Sum_0; intros; ring].
    destruct (Bool.eqb u t) eqn:E2; [|apply Sum_0; intros; apply Sum_0; intros; ring].
    apply Bool.eqb_prop in E1, E2. subst s t. destruct (H u) as [H1 H2].
    rewrite <- (H1 i j Hi Hj), <- (H2 a b Ha Hb), Sum_mul_Sum. apply Sum_ext. intros J _. apply Sum_ext. intros B _. ring. }
  pose proof (A false) as A0; pose proof (A true) as A1; cbn [co_ cv_] in A0, A1; rewrite A0, A1; clear A0 A1.
  unfold ph. rewrite (delta_place (noa K m) (nva K m) (nob K m) (nvb K m) s t i a j b Hi Ha Hj Hb).
  destruct s, t; cbn [Bool.eqb]; ring.
Qed.

Lemma trot_orth m f : orthonormal m f -> meq (ovs f) (ovs f) (mm (nov m) (trot m f) (tr (trot m f))) idm.
Proof.
  intros H p q Hp Hq. destruct (cph_cover f p Hp) as (s & J & B & HJ & HB & ->). destruct (cph_cover f q Hq) as (t & J' & B' & HJ' & HB' & ->).
  unfold idm, cph. rewrite (delta_place (coa K f) (cva K f) (cob K f) (cvb K f) s t J B J' B' HJ HB HJ' HB').
  fold (cph f s J B) (cph f t J' B'). unfold mm, tr. rewrite (trot_sum m f s J B (fun k => trot m f (cph f t J' B') k) HJ HB).
  destruct (Bool.eqb s t) eqn:E.
  - apply Bool.eqb_prop in E. subst t. destruct (H s) as [H1 H2]. rewrite <- (H1 J J' HJ HJ'), <- (H2 B B' HB HB'), Sum_mul_Sum.
    apply Sum_ext. intros i Hi. apply Sum_ext. intros a Ha. rewrite C71_rotation by assumption. rewrite Bool.eqb_reflx. ring.
  - apply Sum_0. intros i Hi. apply Sum_0. intros a Ha. rewrite C71_rotation by assumption.
    replace (Bool.eqb t s) with false by (destruct s, t; cbn in *; congruence). ring.
Qed.

Lemma loc_mm m f a b : spans m f -> meq (ovs f) (ovs f) (mm (ovs f) (loc m f a) (loc m f b)) (loc m f (mm (nov m) a b)).
Proof.
  intros H. unfold loc. rewrite !mm_assoc.
  rewrite <- (mm_assoc (nov m) (ovs f) (ovs f) (nov m) (tr (trot m f))), (trot_span m f H), mm_idl. reflexivity.
Qed.
Lemma loc_proper m f a b : meq (nov m) (nov m) a b -> meq (ovs f) (ovs f) (loc m f a) (loc m f b).
Proof. intros H. unfold loc. rewrite H. reflexivity. Qed.
Lemma loc_add m f a b : meq (ovs f) (ovs f) (loc m f (madd a b)) (madd (loc m f a) (loc m f b)).
Proof. unfold loc. rewrite mm_addr, mm_addl. reflexivity. Qed.
Lemma loc_sc m f x a : meq (ovs f) (ovs f) (loc m f (msc x a)) (msc x (loc m f a)).
Proof. unfold loc. rewrite mm_scr, mm_scl. reflexivity. Qed.

(** The kernel by spins. *)
Definition k_ (x : scr) (s t : bool) : ten :=
  match s, t with false, false => kaa x | false, true => kab x | true, false => fun i a j b => kab x j b i a | true, true => kbb x end.
Lemma kmat_at f x s t J B J' B' : (J < co_ f s)%nat -> (B < cv_ f s)%nat -> (J' < co_ f t)%nat -> (B' < cv_ f t)%nat ->
  kmat f x (cph f s J B) (cph f t J' B') = k_ x s t J B J' B'.
Proof.
  intros HJ HB HJ' HB'. unfold kmat, cph, place. fold (ova K f). destruct s, t; cbn [co_ cv_ k_] in *.
  - rewrite blk_rr. unfold flat. rewrite !pos_div, !pos_mod by assumption. reflexivity.
  - rewrite blk_rl by (apply pos_lt; assumption). unfold flat, tr. rewrite !pos_div, !pos_mod by assumption. reflexivity.
  - rewrite blk_lr by (apply pos_lt; assumption). unfold flat. rewrite !pos_div, !pos_mod by assumption. reflexivity.
  - rewrite blk_ll by (apply pos_lt; assumption). unfold flat. rewrite !pos_div, !pos_mod by assumption. reflexivity.
Qed.

Lemma two_cancel (x y : K) : hlf + hlf = 1 -> (1 + 1) * x = (1 + 1) * y -> x = y.
Proof.
  intros Hh E. transitivity ((hlf + hlf) * x); [rewrite Hh; ring|]. transitivity (hlf * ((1 + 1) * x)); [ring|]. rewrite E.
  transitivity ((hlf + hlf) * y); [ring|rewrite Hh; ring].
Qed.

Theorem C71_complete m fs l M0 V : hlf + hlf = 1 -> meq (nov m) (nov m) (tr M0) M0 -> build m fs = Ret l -> exact m fs M0 ->
  meq (nov m) (nov m) (mm (nov m) M0 (mm (nov m) (madd (dg (gaps m)) (msc (1 + 1) V)) M0)) (dg (gaps m)) ->
  Forall2 (fun f x => regular f x -> spans m f ->
    forall s t J B J' B', (J < co_ f s)%nat -> (B < cv_ f s)%nat -> (J' < co_ f t)%nat -> (B' < cv_ f t)%nat ->
    k_ x s t J B J' B'
    = Sum (no_ m s) (fun i => Sum (nv_ m s) (fun a => Sum (no_ m t) (fun j => Sum (nv_ m t) (fun b =>
        ro_ f s i J * rv_ f s a B * (ro_ f t j J' * rv_ f t b B') * V (ph m s i a) (ph m t j b)))))) fs l.
Proof.
  intros Hh HM Hb Hx HV. destruct (build_ok m fs l M0 Hh HM Hb Hx) as (e & He & H). pose proof (eps_gaps m e He) as Eg. subst e.
  eapply Forall2_imp; [|exact H]. intros f x (_ & H1 & _ & H3) Hr Hs s t J B J' B' HJ HB HJ' HB'.
  destruct (frag_ok m (gaps m) f x Hh H3 Hr) as (A & Bi & _ & D & _).
  set (n := ovs f) in *. set (N := nov m) in *. set (mi := mominv K inv eigh n (smom x)) in *.
  assert (Ex : meq n n (samb x) (loc m f (dg (gaps m)))) by (rewrite H3; apply amb_loc).
  set (R := madd (dg (gaps m)) (msc (1 + 1) V)) in *.
  assert (E : meq n n (apb f x) (loc m f R)).
  { apply (cancel_l K n n (smom x) mi); [exact Bi|]. apply (cancel_r K n n (smom x) mi); [exact A|].
    transitivity (samb x).
    - rewrite D, !mm_assoc, Bi, mm_idr, <- mm_assoc, A, mm_idl. reflexivity.
    - rewrite Ex, H1. unfold n. rewrite !(loc_mm m f _ _ Hs). apply loc_proper. rewrite mm_assoc. symmetry. exact HV. }
  unfold apb, R in E. rewrite loc_add, loc_sc, Ex in E.
  rewrite <- (kmat_at f x s t J B J' B' HJ HB HJ' HB'), <- (loc_at m f V s t J B J' B' HJ HB HJ' HB').
  specialize (E (cph f s J B) (cph f t J' B') (cph_lt f s J B HJ HB) (cph_lt f t J' B' HJ' HB')).
  unfold madd, msc in E. apply (two_cancel _ _ Hh).
  set (z := loc m f (dg (gaps m)) (cph f s J B) (cph f t J' B')) in E.
  transitivity (z + (1 + 1) * kmat f x (cph f s J B) (cph f t J' B') - z); [ring|]. rewrite E. ring.
Qed.

(** *** Without correlation in the system there is no screened interaction *)
Theorem C71_uncorrelated m fs l : hlf + hlf = 1 -> build m fs = Ret l -> exact m fs idm ->
  Forall2 (fun f x => regular f x -> orthonormal m f ->
    forall s t J B J' B', (J < co_ f s)%nat -> (B < cv_ f s)%nat -> (J' < co_ f t)%nat -> (B' < cv_ f t)%nat -> k_ x s t J B J' B' = 0) fs l.
Proof.
  intros Hh Hb Hx. destruct (build_ok m fs l idm Hh (tr_idm _) Hb Hx) as (e & He & H).
  eapply Forall2_imp; [|exact H]. intros f x (_ & H1 & _ & H3) Hr Ho s t J B J' B' HJ HB HJ' HB'.
  destruct (frag_ok m e f x Hh H3 Hr) as (A & Bi & _ & D & _).
  set (n := ovs f) in *. set (mi := mominv K inv eigh n (smom x)) in *.
  assert (E1 : meq n n (smom x) idm).
  { rewrite H1. unfold loc. rewrite mm_idr. apply trot_orth. exact Ho. }
  assert (E2 : meq n n mi idm) by (rewrite <- (mm_idr n n mi); rewrite E1 in Bi; exact Bi).
  rewrite E2, mm_idl, mm_idr in D. rewrite <- (kmat_at f x s t J B J' B' HJ HB HJ' HB').
  specialize (D (cph f s J B) (cph f t J' B') (cph_lt f s J B HJ HB) (cph_lt f t J' B' HJ' HB')). unfold apb, madd, msc in D.
  apply (two_cancel _ _ Hh). set (z := samb x _ _) in D.
  transitivity (z + (1 + 1) * kmat f x (cph f s J B) (cph f t J' B') - z); [ring|]. rewrite D. ring.
Qed.

(** *** Another choice of orbitals in the same cluster rotates the kernel like a two-body interaction *)
Definition turned (f f' : frag) (m : mfd) (u w : bool -> mt) : Prop := forall s,
  co_ f' s = co_ f s /\ cv_ f' s = cv_ f s /\
  (forall i J, (i < no_ m s)%nat -> (J < co_ f s)%nat -> ro_ f' s i J = Sum (co_ f s) (fun J1 => ro_ f s i J1 * u s J1 J)) /\
  (forall a B, (a < nv_ m s)%nat -> (B < cv_ f s)%nat -> rv_ f' s a B = Sum (cv_ f s) (fun B1 => rv_ f s a B1 * w s B1 B)) /\
  (forall J J', (J < co_ f s)%nat -> (J' < co_ f s)%nat -> Sum (co_ f s) (fun i => u s i J * u s i J') = delta J J') /\
  (forall J J', (J < co_ f s)%nat -> (J' < co_ f s)%nat -> Sum (co_ f s) (fun i => u s J i * u s J' i) = delta J J') /\
  (forall B B', (B < cv_ f s)%nat -> (B' < cv_ f s)%nat -> Sum (cv_ f s) (fun i => w s i B * w s i B') = delta B B') /\
  (forall B B', (B < cv_ f s)%nat -> (B' < cv_ f s)%nat -> Sum (cv_ f s) (fun i => w s B i * w s B' i) = delta B B').

(** The cluster f as a system, and f' as a cluster in it. *)
Let mf_of (f : frag) : mfd := {| noa := coa K f; nva := cva K f; nob := cob K f; nvb := cvb K f; moea := fun _ => 0; moeb := fun _ => 0; unr := true; nao := 0 |}.
Let turn (f' : frag) (u w : bool -> mt) : frag :=
  {| coa := coa K f'; cva := cva K f'; cob := cob K f'; cvb := cvb K f'; roa := u false; rva := w false; rob := u true; rvb := w true |}.

Lemma turn_rot m f f' u w : turned f f' m u w ->
  meq (ovs f') (nov m) (trot m f') (mm (ovs f) (trot (mf_of f) (turn f' u w)) (trot m f)).
Proof.
  intros H p k Hp Hk. destruct (cph_cover f' p Hp) as (s & J & B & HJ & HB & ->). destruct (ph_cover m k Hk) as (t & i & a & Hi & Ha & ->).
  destruct (H s) as (E1 & E2 & Ho & Hv & _).
  rewrite C71_rotation by assumption. unfold mm.
  pose proof (trot_sum (mf_of f) (turn f' u w) s J B (fun k => trot m f k (ph m t i a))) as T.
  assert (C1 : co_ (turn f' u w) s = co_ f' s) by (destruct s; reflexivity).
  assert (C2 : cv_ (turn f' u w) s = cv_ f' s) by (destruct s; reflexivity). rewrite C1, C2 in T. specialize (T HJ HB).
  transitivity (Sum (no_ (mf_of f) s) (fun J1 => Sum (nv_ (mf_of f) s) (fun B1 => u s J1 J * w s B1 B * trot m f (cph f s J1 B1) (ph m t i a)))).
  2:{ symmetry. etransitivity; [exact T|]. destruct s; reflexivity. }
  assert (C3 : no_ (mf_of f) s = co_ f s) by (destruct s; reflexivity). assert (C4 : nv_ (mf_of f) s = cv_ f s) by (destruct s; reflexivity).
  rewrite C3, C4.
  rewrite (Sum_ext (co_ f s) _ (fun J1 => Sum (cv_ f s) (fun B1 => u s J1 J * w s B1 B * (if Bool.eqb s t then ro_ f s i J1 * rv_ f s a B1 else 0)))).
  2:{ intros J1 HJ1. apply Sum_ext. intros B1 HB1. rewrite C71_rotation by assumption. reflexivity. }
  destruct (Bool.eqb s t) eqn:E.
  - apply Bool.eqb_prop in E. subst t. rewrite Ho, Hv by (rewrite <- ?E1, <- ?E2; assumption). rewrite Sum_mul_Sum.
    apply Sum_ext. intros J1 _. apply Sum_ext. intros B1 _. ring.
  - symmetry. apply Sum_0. intros J1 _. apply Sum_0. intros; ring.
Qed.

Theorem C71_orbitals m fs l fs' l' M0 : hlf + hlf = 1 -> meq (nov m) (nov m) (tr M0) M0 ->
  build m fs = Ret l -> exact m fs M0 -> build m fs' = Ret l' -> exact m fs' M0 ->
  forall f x f' x' u w, In (f, x) (List.combine fs l) -> In (f', x') (List.combine fs' l') -> regular f x -> regular f' x' -> turned f f' m u w ->
  forall s t J B J' B', (J < co_ f s)%nat -> (B < cv_ f s)%nat -> (J' < co_ f t)%nat -> (B' < cv_ f t)%nat ->
    k_ x' s t J B J' B'
    = Sum (co_ f s) (fun J1 => Sum (cv_ f s) (fun B1 => Sum (co_ f t) (fun J2 => Sum (cv_ f t) (fun B2 =>
        u s J1 J * w s B1 B * (u t J2 J' * w t B2 B') * k_ x s t J1 B1 J2 B2)))).
Proof.
  intros Hh HM Hb Hx Hb' Hx' f x f' x' u w Hi Hi' Hr Hr' Ht s t J B J' B' HJ HB HJ' HB'.
  destruct (build_ok m fs l M0 Hh HM Hb Hx) as (e & He & H). destruct (build_ok m fs' l' M0 Hh HM Hb' Hx') as (e' & He' & H').
  rewrite (eps_gaps m e He) in H. rewrite (eps_gaps m e' He') in H'. clear e e' He He'.
  assert (FI : forall (P : frag -> scr -> Prop) a b, Forall2 P a b -> forall f x, In (f, x) (List.combine a b) -> P f x).
  { clear. intros P a b. induction 1; cbn; [tauto|]. intros f0 x0 [[= -> ->]|Hn]; auto. }
  destruct (FI _ _ _ H f x Hi) as (_ & M1 & _ & X1). destruct (FI _ _ _ H' f' x' Hi') as (_ & M2 & _ & X2). clear FI H H'.
  destruct (frag_ok m (gaps m) f x Hh X1 Hr) as (A & Bi & _ & D & _). destruct (frag_ok m (gaps m) f' x' Hh X2 Hr') as (A' & Bi' & _ & D' & _).
  set (n := ovs f) in *. set (mi := mominv K inv eigh n (smom x)) in *. set (mi' := mominv K inv eigh (ovs f') (smom x')) in *.
  set (W := trot (mf_of f) (turn f' u w)).
  assert (En : ovs f' = n).
  { unfold n, ovs, ova, ovb. destruct (Ht false) as (P1 & P2 & _), (Ht true) as (Q1 & Q2 & _). cbn in *. congruence. }
  assert (Hsp : spans (mf_of f) (turn f' u w)).
  { intros s0. destruct (Ht s0) as (P1 & P2 & _ & _ & _ & O1 & _ & O2). split.
    - intros i j Hi0 Hj0. replace (co_ (turn f' u w) s0) with (co_ f s0) by (destruct s0; cbn in *; congruence).
      replace (ro_ (turn f' u w) s0) with (u s0) by (destruct s0; reflexivity). apply O1; destruct s0; assumption.
    - intros i j Hi0 Hj0. replace (cv_ (turn f' u w) s0) with (cv_ f s0) by (destruct s0; cbn in *; congruence).
      replace (rv_ (turn f' u w) s0) with (w s0) by (destruct s0; reflexivity). apply O2; destruct s0; assumption. }
  assert (Hor : orthonormal (mf_of f) (turn f' u w)).
  { intros s0. destruct (Ht s0) as (P1 & P2 & _ & _ & O1 & _ & O2 & _). split.
    - intros i j Hi0 Hj0. replace (no_ (mf_of f) s0) with (co_ f s0) by (destruct s0; reflexivity).
      replace (ro_ (turn f' u w) s0) with (u s0) by (destruct s0; reflexivity). apply O1; destruct s0; cbn in *; lia.
    - intros i j Hi0 Hj0. replace (nv_ (mf_of f) s0) with (cv_ f s0) by (destruct s0; reflexivity).
      replace (rv_ (turn f' u w) s0) with (w s0) by (destruct s0; reflexivity). apply O2; destruct s0; cbn in *; lia. }
  pose proof (trot_span _ _ Hsp) as W1. pose proof (trot_orth _ _ Hor) as W2.
  change (nov (mf_of f)) with n in W1, W2. change (ovs (turn f' u w)) with (ovs f') in W1, W2. fold W in W1, W2.
  pose proof (turn_rot m f f' u w Ht) as Hrot. fold n W in Hrot.
  assert (L : forall a, meq (ovs f') (ovs f') (loc m f' a) (mm n W (mm n (loc m f a) (tr W)))).
  { intros a. unfold loc. rewrite Hrot. rewrite tr_mm, !mm_assoc. reflexivity. }
  assert (S1 : meq n n (samb x) (loc m f (dg (gaps m)))) by (rewrite X1; apply amb_loc).
  assert (S2 : meq (ovs f') (ovs f') (samb x') (loc m f' (dg (gaps m)))) by (rewrite X2; apply amb_loc).
  rewrite En in *.
  assert (Em : meq n n (smom x') (mm n W (mm n (smom x) (tr W)))) by (rewrite M2, M1; apply L).
  assert (Ea : meq n n (samb x') (mm n W (mm n (samb x) (tr W)))).
  { rewrite S2, S1. apply L. }
  assert (Ei : meq n n mi' (mm n W (mm n mi (tr W)))).
  { apply (inv_unique K n (smom x')); [exact Bi'|]. rewrite Em, !mm_assoc, (cancel K n (tr W) W _ W1).
    rewrite <- (mm_assoc n n n n (smom x) mi), A, mm_idl. exact W2. }
  assert (Ek : meq n n (apb f' x') (mm n W (mm n (apb f x) (tr W)))).
  { rewrite D', D, Ei, Ea. rewrite !mm_assoc, !(cancel K n (tr W) W _ W1). reflexivity. }
  unfold apb in Ek. rewrite mm_addl, mm_addr, mm_scl, mm_scr, <- Ea in Ek.
  assert (F : meq n n (kmat f' x') (mm n W (mm n (kmat f x) (tr W)))).
  { intros p q Hp Hq. specialize (Ek p q Hp Hq). unfold madd, msc in Ek. apply (two_cancel _ _ Hh).
    transitivity (samb x' p q + (1 + 1) * kmat f' x' p q - samb x' p q); [ring|]. rewrite Ek. ring. }
  assert (Ec : forall r, co_ f' r = co_ f r /\ cv_ f' r = cv_ f r) by (intros r; destruct (Ht r) as (P1 & P2 & _); auto).
  destruct (Ec s) as [Es1 Es2], (Ec t) as [Et1 Et2].
  rewrite <- (kmat_at f' x' s t J B J' B') by (rewrite ?Es1, ?Es2, ?Et1, ?Et2; assumption).
  assert (Q1 : (cph f' s J B < n)%nat) by (rewrite <- En; apply cph_lt; rewrite ?Es1, ?Es2; assumption).
  assert (Q2 : (cph f' t J' B' < n)%nat) by (rewrite <- En; apply cph_lt; rewrite ?Et1, ?Et2; assumption).
  rewrite (F _ _ Q1 Q2), <- (mm_assoc n n n n W (kmat f x) (tr W) _ _ Q1 Q2).
  pose proof (loc_at (mf_of f) (turn f' u w) (kmat f x) s t J B J' B') as LA.
  assert (C1 : forall r, co_ (turn f' u w) r = co_ f r) by (intros r; destruct (Ec r); destruct r; cbn in *; congruence).
  assert (C2 : forall r, cv_ (turn f' u w) r = cv_ f r) by (intros r; destruct (Ec r); destruct r; cbn in *; congruence).
  rewrite !C1, !C2 in LA. specialize (LA HJ HB HJ' HB').
  etransitivity; [exact LA|]. 
  assert (N1 : forall r, no_ (mf_of f) r = co_ f r) by (intros []; reflexivity). assert (N2 : forall r, nv_ (mf_of f) r = cv_ f r) by (intros []; reflexivity).
  rewrite (N1 s), (N2 s), (N1 t), (N2 t).
  apply Sum_ext. intros J1 HJ1. apply Sum_ext. intros B1 HB1. apply Sum_ext. intros J2 HJ2. apply Sum_ext. intros B2 HB2.
  f_equal; [destruct s, t; reflexivity|]. exact (kmat_at f x s t J1 B1 J2 B2 HJ1 HB1 HJ2 HB2).
Qed.

(** ** A restricted calculation: the screened interaction does not depend on spins *)
Lemma stable n c (D R : mt) w xpy xmy (z : mt) (t : vec) : rpa_sol n D R w xpy xmy ->
  (forall i, (i < n)%nat -> lt 0 (w i)) -> (forall j, (j < c)%nat -> lt 0 (t j)) ->
  meq n c (mm n R z) (mm c z (dg t)) -> meq n c (mm n D z) (mm c z (dg t)) ->
  meq n c (mm n (mm n xpy (tr xpy)) z) z.
Proof.
  intros HS Hw Ht HR HD.
  pose proof (R_spec K n D R w xpy xmy HS) as ER. pose proof (D_spec K n D R w xpy xmy HS) as ED.
  pose proof (norm' K n D R w xpy xmy HS) as N1. pose proof (norm'' K n D R w xpy xmy HS) as N2.
  pose proof HS as (_ & _ & N3 & N4).
  set (u := mm n (tr xmy) z). set (v := mm n (tr xpy) z).
  assert (Zu : meq n c z (mm n xpy u)) by (unfold u; rewrite <- mm_assoc, N4, mm_idl; reflexivity).
  assert (Zv : meq n c z (mm n xmy v)) by (unfold v; rewrite <- mm_assoc, N1, mm_idl; reflexivity).
  assert (E1 : meq n c (mm n (dg w) u) (mm c v (dg t))).
  { transitivity (mm n (tr xpy) (mm n R z)).
    - rewrite ER. unfold u. rewrite !mm_assoc. rewrite <- (mm_assoc n c n n (tr xpy) xmy), N3, mm_idl. reflexivity.
    - rewrite HR. unfold v. rewrite mm_assoc. reflexivity. }
  assert (E2 : meq n c (mm n (dg w) v) (mm c u (dg t))).
  { transitivity (mm n (tr xmy) (mm n D z)).
    - rewrite ED. unfold v. rewrite !mm_assoc. rewrite <- (mm_assoc n c n n (tr xmy) xpy), N2, mm_idl. reflexivity.
    - rewrite HD. unfold u. rewrite mm_assoc. reflexivity. }
  assert (E : meq n c v u).
  { intros k j Hk Hj. specialize (E1 k j Hk Hj). specialize (E2 k j Hk Hj).
    rewrite (mm_dgl n c w u k j Hk Hj), (mm_dgr n c t v k j Hk Hj) in E1. rewrite (mm_dgl n c w v k j Hk Hj), (mm_dgr n c t u k j Hk Hj) in E2.
    assert (Z : (w k + t j) * (u k j - v k j) = 0).
    { transitivity (w k * u k j - v k j * t j + (u k j * t j - w k * v k j)); [ring|]. rewrite E1, E2. ring. }
    destruct (no_zero_div K _ _ Z) as [Q|Q].
    - exfalso. pose proof (lt_add 0 (w k) (t j) (Hw k Hk)) as G. rewrite Q in G. replace (0 + t j) with (t j) in G by ring.
      exact (lt_irrefl _ (lt_tr _ _ _ G (Ht j Hj))).
    - transitivity (u k j - (u k j - v k j)); [ring|]. rewrite Q. ring. }
  rewrite mm_assoc. fold v. rewrite E, <- Zu. reflexivity.
Qed.

(** Differences of excitations of the two spins. *)
Definition zz (n : nat) : mt := fun p q => if (p <? n)%nat then delta p q else - delta (p - n)%nat q.
Lemma zz_l n p q : (p < n)%nat -> zz n p q = delta p q.
Proof. intros H. unfold zz. apply Nat.ltb_lt in H. rewrite H. reflexivity. Qed.
Lemma zz_r n p q : zz n (n + p)%nat q = - delta p q.
Proof. unfold zz. rewrite (proj2 (Nat.ltb_ge _ _)) by lia. do 2 f_equal. lia. Qed.
Lemma mm_zz r n (a : mt) p q : (p < r)%nat -> (q < n)%nat -> mm (n + n) a (zz n) p q = a p q - a p (n + q)%nat.
Proof.
  intros Hp Hq. unfold mm. rewrite Sum_split.
  rewrite (Sum_ext n _ (fun i => a p i * delta i q)) by (intros i Hi; rewrite zz_l by exact Hi; reflexivity).
  rewrite (Sum_ext n (fun i => a p (n + i)%nat * _) (fun i => - (1 * (a p (n + i)%nat * delta i q)))) by (intros i Hi; rewrite zz_r; ring).
  rewrite (Sum_ext n (fun i => - (1 * _)) (fun i => (-(1)) * (a p (n + i)%nat * delta i q))) by (intros; ring).
  rewrite Sum_mul_l, !(Sum_delta_r n q) by exact Hq. ring.
Qed.
Lemma zz_mm n c (a : mt) p q : (q < c)%nat -> (p < n + n)%nat -> mm n (zz n) a p q = if (p <? n)%nat then a p q else - a (p - n)%nat q.
Proof.
  intros Hq Hp. unfold mm, zz. destruct (Nat.ltb_spec p n) as [L|L].
  - apply (Sum_delta_l n p (fun i => a i q)). exact L.
  - rewrite (Sum_ext n _ (fun i => (-(1)) * (delta (p - n) i * a i q))) by (intros; ring). rewrite Sum_mul_l, (Sum_delta_l n (p - n) (fun i => a i q)) by lia. ring.
Qed.

Definition restricted (m : mfd) (f : frag) : Prop :=
  noa K m = nob K m /\ nva K m = nvb K m /\ (forall i, (i < noa K m + nva K m)%nat -> moea K m i = moeb K m i) /\
  coa K f = cob K f /\ cva K f = cvb K f /\
  (forall i J, (i < noa K m)%nat -> (J < coa K f)%nat -> roa K f i J = rob K f i J) /\
  (forall a B, (a < nva K m)%nat -> (B < cva K f)%nat -> rva K f a B = rvb K f a B).
Definition blind (m : mfd) (V : mt) : Prop := forall s i a j b, (i < no_ m s)%nat -> (a < nv_ m s)%nat -> (j < noa K m)%nat -> (b < nva K m)%nat ->
  V (ph m s i a) (ph m false j b) = V (ph m s i a) (ph m true j b).

Section Spin.
Variables (m : mfd) (f : frag).
Hypothesis Hr : restricted m f.
Let n0 := nova K m.
Let nc := ova K f.
Let r : mt := srot K (nva K m) (cva K f) (roa K f) (rva K f).

Lemma spin_dims : novb K m = n0 /\ ovb K f = nc /\ nov m = (n0 + n0)%nat /\ ovs f = (nc + nc)%nat.
Proof. destruct Hr as (A & B & _ & C & D & _). unfold nov, ovs, n0, nc, novb, ovb, nova, ova. rewrite <- A, <- B, <- C, <- D. auto. Qed.

Lemma trot_ll p k : (p < nc)%nat -> (k < n0)%nat -> trot m f p k = r p k.
Proof. intros Hp Hk. unfold trot, block_diag. rewrite blk_ll by assumption. reflexivity. Qed.
Lemma trot_lr p k : (p < nc)%nat -> trot m f p (n0 + k)%nat = 0.
Proof. intros Hp. unfold trot, block_diag. apply blk_lr. exact Hp. Qed.
Lemma trot_rl p k : (k < n0)%nat -> trot m f (nc + p)%nat k = 0.
Proof. intros Hk. unfold trot, block_diag. apply blk_rl. exact Hk. Qed.
Lemma trot_rr p k : (p < nc)%nat -> (k < n0)%nat -> trot m f (nc + p)%nat (n0 + k)%nat = r p k.
Proof.
  intros Hp Hk. unfold trot, block_diag. fold n0 nc. unfold nc, n0. rewrite blk_rr. unfold r, srot.
  destruct Hr as (A & B & _ & C & D & E & F). rewrite <- D, <- B.
  unfold nc, ova in Hp. unfold n0, nova in Hk.
  assert (nva K m <> 0)%nat by (intros Z; rewrite Z in Hk; lia). assert (cva K f <> 0)%nat by (intros Z; rewrite Z in Hp; lia).
  rewrite E, F; [reflexivity|apply Nat.mod_upper_bound; assumption|apply Nat.mod_upper_bound; assumption|apply Nat.div_lt_upper_bound; lia|apply Nat.div_lt_upper_bound; lia].
Qed.

Lemma trot_tzz : meq (nov m) nc (mm (ovs f) (tr (trot m f)) (zz nc)) (mm n0 (zz n0) (tr r)).
Proof.
  destruct spin_dims as (_ & _ & En & Eo). rewrite En, Eo. intros k q Hk Hq.
  rewrite (mm_zz (n0 + n0) nc _ k q Hk Hq), (zz_mm n0 nc (tr r) k q Hq Hk). unfold tr.
  destruct (Nat.ltb_spec k n0) as [L|L].
  - rewrite trot_ll, trot_rl by assumption. ring.
  - replace k with (n0 + (k - n0))%nat by lia. rewrite trot_lr, trot_rr by lia. replace (n0 + (k - n0) - n0)%nat with (k - n0)%nat by lia. ring.
Qed.
Lemma trot_zz : meq (ovs f) n0 (mm (nov m) (trot m f) (zz n0)) (mm nc (zz nc) r).
Proof.
  destruct spin_dims as (_ & _ & En & Eo). rewrite En, Eo. intros p q Hp Hq.
  rewrite (mm_zz (nc + nc) n0 _ p q Hp Hq), (zz_mm nc n0 r p q Hq Hp).
  destruct (Nat.ltb_spec p nc) as [L|L].
  - rewrite trot_ll, trot_lr by assumption. ring.
  - replace p with (nc + (p - nc))%nat by lia. rewrite trot_rl, trot_rr by lia. replace (nc + (p - nc) - nc)%nat with (p - nc)%nat by lia. ring.
Qed.

Lemma gaps_zz : meq (nov m) n0 (mm (nov m) (dg (gaps m)) (zz n0)) (mm n0 (zz n0) (dg (gen_eps K (noa K m) (nva K m) (moea K m)))).
Proof.
  destruct spin_dims as (_ & _ & En & _). intros p q Hp Hq. rewrite (mm_dgl (nov m) n0 (gaps m) (zz n0) p q Hp Hq).
  rewrite En in Hp. rewrite (zz_mm n0 n0 _ p q Hq Hp). unfold gaps, dg. fold n0.
  destruct (Nat.ltb_spec p n0) as [L|L].
  - rewrite vcat_l, zz_l by exact L. unfold delta. destruct (Nat.eqb_spec p q) as [->|]; ring.
  - replace p with (n0 + (p - n0))%nat by lia. rewrite vcat_r, zz_r. replace (n0 + (p - n0) - n0)%nat with (p - n0)%nat by lia.
    assert (G : gen_eps K (nob K m) (nvb K m) (moeb K m) (p - n0)%nat = gen_eps K (noa K m) (nva K m) (moea K m) (p - n0)%nat).
    { destruct Hr as (A & B & C & _). unfold gen_eps. rewrite <- A, <- B. unfold n0, nova in *.
      assert (nva K m <> 0)%nat by (intros Z; rewrite Z in Hp; lia).
      rewrite !C; [reflexivity| |].
      - assert ((p - noa K m * nva K m) / nva K m < noa K m)%nat by (apply Nat.div_lt_upper_bound; lia). lia.
      - pose proof (Nat.mod_upper_bound (p - noa K m * nva K m) (nva K m)). lia. }
    rewrite G. unfold delta. destruct (Nat.eqb_spec (p - n0) q) as [->|]; ring.
Qed.
End Spin.

Theorem C71_spin m fs l w xpy xmy V : hlf + hlf = 1 -> build m fs = Ret l -> exact m fs (mm (nov m) xpy (tr xpy)) ->
  rpa_sol (nov m) (dg (gaps m)) (madd (dg (gaps m)) (msc (1 + 1) V)) w xpy xmy -> blind m V ->
  (forall k, (k < nov m)%nat -> lt 0 (w k)) -> (forall k, (k < nov m)%nat -> lt 0 (gaps m k)) ->
  Forall2 (fun f x => regular f x -> orthonormal m f -> restricted m f ->
    forall i a j b, (i < coa K f)%nat -> (a < cva K f)%nat -> (j < coa K f)%nat -> (b < cva K f)%nat ->
    kab x i a j b = kaa x i a j b /\ kbb x i a j b = kaa x i a j b) fs l.
Proof.
  intros Hh Hb Hx HS HV Hw Hg. set (M0 := mm (nov m) xpy (tr xpy)) in *.
  assert (HM : meq (nov m) (nov m) (tr M0) M0) by (unfold M0; rewrite tr_mm, tr_tr; reflexivity).
  destruct (build_ok m fs l M0 Hh HM Hb Hx) as (e & He & H). rewrite (eps_gaps m e He) in H. clear e He.
  eapply Forall2_imp; [|exact H]. intros f x (_ & M1 & _ & X1) Hr Ho Hq.
  destruct (frag_ok m (gaps m) f x Hh X1 Hr) as (A & Bi & _ & D & Ks & _).
  set (mi := mominv K inv eigh (ovs f) (smom x)) in *.
  destruct (spin_dims m f Hq) as (E1 & E2 & En & Eo).
  set (n0 := nova K m) in *. set (nc := ova K f) in *. set (d := gen_eps K (noa K m) (nva K m) (moea K m)).
  pose proof (gaps_zz m f Hq) as GZ. fold n0 d in GZ.
  assert (VZ : meq (nov m) n0 (mm (nov m) V (zz n0)) zm).
  { intros p q Hp Hq0. rewrite En at 1. rewrite (mm_zz (nov m) n0 V p q Hp Hq0). unfold zm.
    destruct (ph_cover m p Hp) as (s & i & a & Hi & Ha & ->).
    assert (Hn : nva K m <> 0%nat) by (intros Z; unfold n0, nova in Hq0; rewrite Z in Hq0; lia).
    assert (Q1 : (q / nva K m < noa K m)%nat) by (apply Nat.div_lt_upper_bound; [exact Hn|unfold n0, nova in Hq0; lia]).
    pose proof (Nat.mod_upper_bound q (nva K m) Hn) as Q2.
    pose proof (HV s i a (q / nva K m)%nat (q mod nva K m)%nat Hi Ha Q1 Q2) as E.
    unfold ph at 2 4, place in E. destruct Hq as (_ & Hv & _). rewrite <- Hv in E. fold n0 in E. fold (nova K m) in E. fold n0 in E.
    replace (q / nva K m * nva K m + q mod nva K m)%nat with q in E by (rewrite (Nat.div_mod q (nva K m) Hn) at 1; lia).
    rewrite E. ring. }
  assert (MZ : meq (nov m) n0 (mm (nov m) M0 (zz n0)) (zz n0)).
  { apply (stable (nov m) n0 _ _ w xpy xmy (zz n0) d HS Hw).
    - intros j Hj. specialize (Hg j). unfold gaps in Hg. rewrite vcat_l in Hg by exact Hj. apply Hg. rewrite En. lia.
    - rewrite mm_addl, GZ, mm_scl, VZ. intros p q _ _. unfold madd, msc, zm. ring.
    - exact GZ. }
  pose proof (trot_tzz m f Hq) as T1. pose proof (trot_zz m f Hq) as T2. fold n0 nc in T1, T2.
  set (r := srot K (nva K m) (cva K f) (roa K f) (rva K f)) in *.
  assert (SZ : meq (ovs f) nc (mm (ovs f) (smom x) (zz nc)) (zz nc)).
  { rewrite M1. unfold loc. rewrite !mm_assoc, T1. rewrite <- (mm_assoc (nov m) nc (nov m) n0 M0 (zz n0)), MZ, <- T1.
    rewrite <- mm_assoc, (trot_orth m f Ho), mm_idl. reflexivity. }
  assert (IZ : meq (ovs f) nc (mm (ovs f) mi (zz nc)) (zz nc)).
  { rewrite <- SZ at 1. rewrite <- mm_assoc, Bi, mm_idl. reflexivity. }
  assert (AZ : meq (ovs f) nc (mm (ovs f) (samb x) (zz nc)) (mm nc (zz nc) (mm n0 r (mm n0 (dg d) (tr r))))).
  { rewrite X1 at 1. cbn [M_Screen.samb screen1]. rewrite amb_loc. unfold loc. rewrite !mm_assoc, T1.
    rewrite <- (mm_assoc (nov m) nc (nov m) n0 (dg (gaps m)) (zz n0)), GZ. rewrite mm_assoc.
    rewrite <- (mm_assoc (ovs f) nc (nov m) n0 (trot m f) (zz n0)), T2, mm_assoc. reflexivity. }
  assert (KZ : meq (ovs f) nc (mm (ovs f) (kmat f x) (zz nc)) zm).
  { assert (E : meq (ovs f) nc (mm (ovs f) (apb f x) (zz nc)) (mm (ovs f) (samb x) (zz nc))).
    { rewrite D, !mm_assoc, IZ, AZ, <- mm_assoc, IZ. reflexivity. }
    unfold apb in E. rewrite mm_addl, mm_scl in E. intros p q Hp Hq0. specialize (E p q Hp Hq0). unfold madd, msc in E.
    apply (two_cancel _ _ Hh). set (z := mm (ovs f) (samb x) (zz nc) p q) in E.
    transitivity (z + (1 + 1) * mm (ovs f) (kmat f x) (zz nc) p q - z); [ring|]. rewrite E. unfold zm. ring. }
  intros i a j b Hi Ha Hj Hb0. destruct Hq as (_ & _ & _ & Ec & Ev & _).
  assert (Kst : forall s i a j b, (i < co_ f s)%nat -> (a < cv_ f s)%nat -> (j < coa K f)%nat -> (b < cva K f)%nat ->
    k_ x s false i a j b = k_ x s true i a j b).
  { intros s i0 a0 j0 b0 Hi0 Ha0 Hj0 Hb1.
    rewrite <- (kmat_at f x s false i0 a0 j0 b0 Hi0 Ha0 Hj0 Hb1).
    rewrite <- (kmat_at f x s true i0 a0 j0 b0 Hi0 Ha0) by (cbn; lia).
    specialize (KZ (cph f s i0 a0) (j0 * cva K f + b0)%nat (cph_lt f s i0 a0 Hi0 Ha0) (pos_lt _ _ _ _ Hj0 Hb1)).
    rewrite Eo in KZ at 1. rewrite (mm_zz (ovs f) nc (kmat f x) _ _ (cph_lt f s i0 a0 Hi0 Ha0) (pos_lt _ _ _ _ Hj0 Hb1)) in KZ. unfold zm in KZ.
    unfold cph at 2 4, place. rewrite <- Ev. fold (ova K f). fold nc.
    match type of KZ with ?u - ?v = 0 => transitivity (u - v + v); [ring|rewrite KZ; ring] end. }
  pose proof (Kst false i a j b Hi Ha Hj Hb0) as G1. cbn [k_] in G1.
  assert (Hi' : (i < co_ f true)%nat) by (cbn; lia). assert (Ha' : (a < cv_ f true)%nat) by (cbn; lia).
  pose proof (Kst true i a j b Hi' Ha' Hj Hb0) as G2. cbn [k_] in G2.
  split; [symmetry; exact G1|]. rewrite <- G2. pose proof (Kst false j b i a Hj Hb0 Hi Ha) as G3. cbn [k_] in G3. rewrite <- G3.
  pose proof (Ks (cph f false j b) (cph f false i a) (cph_lt f false _ _ Hj Hb0) (cph_lt f false _ _ Hi Ha)) as S. unfold tr in S.
  rewrite (kmat_at f x false false j b i a Hj Hb0 Hi Ha), (kmat_at f x false false i a j b Hi Ha Hj Hb0) in S. cbn [k_] in S. symmetry. exact S.
Qed.

(** ** Replacement of integrals *)
Notation replace_ov := (replace_ov K). Notation screened_full := (screened_full K).
Lemma ltb_t a b : (a < b)%nat -> (a <? b)%nat = true. Proof. apply Nat.ltb_lt. Qed.
Lemma ltb_f a b : (b + a <? b)%nat = false. Proof. apply Nat.ltb_ge. lia. Qed.

Theorem C71_replaced no1 no2 (full ov : ten) :
  (forall i a j b, (i < no1)%nat -> (j < no2)%nat ->
    replace_ov no1 no2 full ov i (no1 + a)%nat j (no2 + b)%nat = ov i a j b /\
    replace_ov no1 no2 full ov (no1 + a)%nat i j (no2 + b)%nat = ov i a j b /\
    replace_ov no1 no2 full ov i (no1 + a)%nat (no2 + b)%nat j = ov i a j b /\
    replace_ov no1 no2 full ov (no1 + a)%nat i (no2 + b)%nat j = ov i a j b) /\
  (forall p q r s, ((p < no1)%nat <-> (q < no1)%nat) \/ ((r < no2)%nat <-> (s < no2)%nat) -> replace_ov no1 no2 full ov p q r s = full p q r s).
Proof.
  split.
  - intros i a j b Hi Hj. unfold M_Screen.replace_ov. rewrite (ltb_t _ _ Hi), (ltb_t _ _ Hj), !ltb_f.
    replace (no1 + a - no1)%nat with a by lia. replace (no2 + b - no2)%nat with b by lia. auto.
  - intros p q r s H. unfold M_Screen.replace_ov.
    destruct (Nat.ltb_spec p no1), (Nat.ltb_spec q no1), (Nat.ltb_spec r no2), (Nat.ltb_spec s no2); try reflexivity; exfalso; lia.
Qed.

(** Interchanging orbitals of an electron, or (for one kind of electrons) the electrons, changes nothing. *)
Theorem C71_permutations no1 no2 n1 n2 (full ov : ten) :
  (forall p q r s, (p < n1)%nat -> (q < n1)%nat -> (r < n2)%nat -> (s < n2)%nat -> full q p r s = full p q r s /\ full p q s r = full p q r s) ->
  (forall p q r s, (p < n1)%nat -> (q < n1)%nat -> (r < n2)%nat -> (s < n2)%nat ->
    replace_ov no1 no2 full ov q p r s = replace_ov no1 no2 full ov p q r s /\ replace_ov no1 no2 full ov p q s r = replace_ov no1 no2 full ov p q r s) /\
  (no1 = no2 -> n1 = n2 -> (forall p q r s, (p < n1)%nat -> (q < n1)%nat -> (r < n1)%nat -> (s < n1)%nat -> full r s p q = full p q r s) ->
    (forall i a j b, (i < no1)%nat -> (a < n1 - no1)%nat -> (j < no1)%nat -> (b < n1 - no1)%nat -> ov i a j b = ov j b i a) ->
    forall p q r s, (p < n1)%nat -> (q < n1)%nat -> (r < n1)%nat -> (s < n1)%nat -> replace_ov no1 no2 full ov r s p q = replace_ov no1 no2 full ov p q r s).
Proof.
  intros Hf. split.
  - intros p q r s Hp Hq Hr Hs. destruct (Hf p q r s Hp Hq Hr Hs) as [F1 F2]. unfold M_Screen.replace_ov.
    destruct (Nat.ltb_spec p no1), (Nat.ltb_spec q no1), (Nat.ltb_spec r no2), (Nat.ltb_spec s no2); split; auto.
  - intros <- <- Hs Ho p q r s Hp Hq Hr Hs'. unfold M_Screen.replace_ov.
    destruct (Nat.ltb_spec p no1), (Nat.ltb_spec q no1), (Nat.ltb_spec r no1), (Nat.ltb_spec s no1); try (apply Hs; assumption); apply Ho; lia.
Qed.

(** Replacing integrals by themselves. *)
Theorem C71_unscreened no1 no2 n1 n2 (full ov : ten) :
  (forall p q r s, (p < n1)%nat -> (q < n1)%nat -> (r < n2)%nat -> (s < n2)%nat -> full q p r s = full p q r s /\ full p q s r = full p q r s) ->
  (forall i a j b, (i < no1)%nat -> (no1 + a < n1)%nat -> (j < no2)%nat -> (no2 + b < n2)%nat -> ov i a j b = full i (no1 + a)%nat j (no2 + b)%nat) ->
  forall p q r s, (p < n1)%nat -> (q < n1)%nat -> (r < n2)%nat -> (s < n2)%nat -> replace_ov no1 no2 full ov p q r s = full p q r s.
Proof.
  intros Hf Ho p q r s Hp Hq Hr Hs. unfold M_Screen.replace_ov.
  destruct (Hf p q r s Hp Hq Hr Hs) as [F1 F2]. destruct (Hf p q s r Hp Hq Hs Hr) as [F3 _].
  destruct (Nat.ltb_spec p no1), (Nat.ltb_spec q no1), (Nat.ltb_spec r no2), (Nat.ltb_spec s no2); try reflexivity; rewrite Ho by lia;
    repeat match goal with |- context [(?a + (?x - ?a))%nat] => replace (a + (x - a))%nat with x by lia end; congruence.
Qed.

(** With one array of bare integrals and a kernel that does not depend on spins, the three screened arrays are equal and
    the average over the spins is any of them. *)
Theorem C71_spin_average no n1 (e saa sab sbb : ten) : hlf + hlf = 1 ->
  (forall p q r s, (p < n1)%nat -> (q < n1)%nat -> (r < n1)%nat -> (s < n1)%nat -> e q p r s = e p q r s /\ e p q s r = e p q r s /\ e r s p q = e p q r s) ->
  (forall i a j b, (i < no)%nat -> (a < n1 - no)%nat -> (j < no)%nat -> (b < n1 - no)%nat ->
    sab i a j b = saa i a j b /\ sbb i a j b = saa i a j b /\ saa i a j b = saa j b i a) ->
  forall p q r s, (p < n1)%nat -> (q < n1)%nat -> (r < n1)%nat -> (s < n1)%nat ->
  let t := screened_full no no (inl e) (saa, sab, sbb) true in
  fst (fst t) p q r s = replace_ov no no e saa p q r s /\ snd (fst t) p q r s = replace_ov no no e saa p q r s /\
  snd t p q r s = replace_ov no no e saa p q r s /\ spin_integrate K hlf t p q r s = replace_ov no no e saa p q r s.
Proof.
  intros Hh He Hk p q r s Hp Hq Hr Hs. cbn [M_Screen.screened_full fst snd spin_integrate].
  assert (A : forall ov, (forall i a j b, (i < no)%nat -> (a < n1 - no)%nat -> (j < no)%nat -> (b < n1 - no)%nat -> ov i a j b = saa i a j b) ->
    forall p q r s, (p < n1)%nat -> (q < n1)%nat -> (r < n1)%nat -> (s < n1)%nat -> replace_ov no no e ov p q r s = replace_ov no no e saa p q r s).
  { intros ov Ho p0 q0 r0 s0 P Q R S. unfold M_Screen.replace_ov.
    destruct (Nat.ltb_spec p0 no), (Nat.ltb_spec q0 no), (Nat.ltb_spec r0 no), (Nat.ltb_spec s0 no); try reflexivity; apply Ho; lia. }
  assert (B : replace_ov no no e saa r s p q = replace_ov no no e saa p q r s).
  { destruct (C71_permutations no no n1 n1 e saa) as [_ G]; [intros; split; apply He; assumption|].
    apply G; auto; intros; [apply He|apply Hk]; assumption. }
  rewrite !(A sab), !(A sbb), B by (try assumption; intros; apply Hk; assumption).
  repeat split; try reflexivity.
  set (z := replace_ov no no e saa p q r s). transitivity ((hlf + hlf) * ((hlf + hlf) * z)); [ring|rewrite Hh; ring].
Qed.

(** The arrays of a CCSD calculation: after restore_bare all are as before. *)
Definition consistent (e : cceris K) : Prop := forall i a j b,
  ovvo K e i a b j = ovov K e i a j b /\ ovVO K e i a b j = ovOV K e i a j b /\ OVVO K e i a b j = OVOV K e i a j b /\ OVvo K e i a b j = ovOV K e j b i a.
Theorem C71_restore e s : consistent e -> exists e', restore_bare K (screen_ccsd K e s) = Some e' /\ kept K e' = None /\
  (forall i a j b, ovov K e' i a j b = ovov K e i a j b /\ ovvo K e' i a j b = ovvo K e i a j b /\ ovOV K e' i a j b = ovOV K e i a j b /\
    ovVO K e' i a j b = ovVO K e i a j b /\ OVOV K e' i a j b = OVOV K e i a j b /\ OVVO K e' i a j b = OVVO K e i a j b /\ OVvo K e' i a j b = OVvo K e i a j b).
Proof.
  intros H. destruct s as [[saa sab] sbb]. eexists. split; [reflexivity|]. split; [reflexivity|]. intros i a j b. cbn.
  destruct (H i a b j) as (A & B & C & D). rewrite A, B, C, D. repeat split.
Qed.
(** The screened arrays are consistent, and hold the screened interaction. *)
Theorem C71_screened_ccsd e saa sab sbb : let e' := screen_ccsd K e (saa, sab, sbb) in
  consistent e' /\ ovov K e' = saa /\ ovOV K e' = sab /\ OVOV K e' = sbb.
Proof. split; [intros i a j b; cbn; auto|cbn; auto]. Qed.
(** After two screenings, restore_bare does not bring back the bare integrals, and can not be called again. *)
Theorem C71_restore_twice e s s' : exists e', restore_bare K (screen_ccsd K (screen_ccsd K e s) s') = Some e' /\
  ovov K e' = fst (fst s) /\ ovOV K e' = snd (fst s) /\ OVOV K e' = snd s /\ restore_bare K e' = None.
Proof. destruct s as [[a b] c], s' as [[a' b'] c']. eexists. split; [reflexivity|]. cbn. auto. Qed.

(** ** Energies *)
Section Energy.
Variables (m : mfd) (f : frag).
Hypothesis Hs : spans m f.
Hypothesis Hr : restricted m f.
Let n0 := nova K m.
Let nc := ova K f.
Let r : mt := srot K (nva K m) (cva K f) (roa K f) (rva K f).
Definition rr (X : mt) : mt := mm n0 r (mm n0 X (tr r)).
Lemma rr_proper X Y : meq n0 n0 X Y -> meq nc nc (rr X) (rr Y).
Proof. intros H. unfold rr. rewrite H. reflexivity. Qed.

Lemma t_ll p k : (p < nc)%nat -> (k < n0)%nat -> trot m f p k = r p k. Proof. exact (trot_ll m f p k). Qed.
Lemma t_lr p k : (p < nc)%nat -> trot m f p (n0 + k)%nat = 0. Proof. exact (trot_lr m f p k). Qed.
Lemma t_rl p k : (k < n0)%nat -> trot m f (nc + p)%nat k = 0. Proof. exact (trot_rl m f p k). Qed.
Lemma t_rr p k : (p < nc)%nat -> (k < n0)%nat -> trot m f (nc + p)%nat (n0 + k)%nat = r p k. Proof. exact (trot_rr m f Hr p k). Qed.
Lemma r_span : meq n0 n0 (mm nc (tr r) r) idm.
Proof.
  intros k k' Hk Hk'. pose proof (trot_span m f Hs) as H. destruct (spin_dims m f Hr) as (_ & _ & En & Eo). fold n0 nc in En, Eo.
  specialize (H k k'). rewrite En in H. specialize (H ltac:(lia) ltac:(lia)). rewrite <- H. rewrite Eo. unfold mm, tr. rewrite Sum_split.
  rewrite (Sum_0 nc (fun i => trot m f (nc + i)%nat k * _)).
  2:{ intros i Hi. rewrite (t_rl i k Hk). ring. }
  rewrite (Sum_ext nc (fun i => trot m f i k * _) (fun i => r i k * r i k')); [ring|].
  intros i Hi. rewrite (t_ll i k Hi Hk), (t_ll i k' Hi Hk'). reflexivity.
Qed.
Lemma r_orth : orthonormal m f -> meq nc nc (mm n0 r (tr r)) idm.
Proof.
  intros Ho p q Hp Hq. pose proof (trot_orth m f Ho) as H. destruct (spin_dims m f Hr) as (_ & _ & En & Eo). fold n0 nc in En, Eo.
  specialize (H p q). rewrite Eo in H. specialize (H ltac:(lia) ltac:(lia)). rewrite <- H. rewrite En. unfold mm, tr. rewrite Sum_split.
  rewrite (Sum_0 n0 (fun i => trot m f p (n0 + i)%nat * _)).
  2:{ intros i Hi. rewrite (t_lr p i Hp). ring. }
  rewrite (Sum_ext n0 (fun i => trot m f p i * _) (fun i => r p i * r q i)); [ring|].
  intros i Hi. rewrite (t_ll p i Hp Hi), (t_ll q i Hq Hi). reflexivity.
Qed.
Lemma rr_mm X Y : meq nc nc (mm nc (rr X) (rr Y)) (rr (mm n0 X Y)).
Proof.
  unfold rr. rewrite !mm_assoc. rewrite <- (mm_assoc n0 nc nc n0 (tr r) r), r_span, mm_idl. reflexivity.
Qed.
Lemma rr_add X Y : meq nc nc (madd (rr X) (rr Y)) (rr (madd X Y)).
Proof. unfold rr. rewrite mm_addl, mm_addr. reflexivity. Qed.

(** Blocks of a rotated matrix. *)
Let ab (X : mt) : mt := fun p q => X p (n0 + q)%nat.
Let ba (X : mt) : mt := fun p q => X (n0 + p)%nat q.
Let bb (X : mt) : mt := fun p q => X (n0 + p)%nat (n0 + q)%nat.
Lemma sum_l p (g : vec) : (p < nc)%nat -> Sum (nov m) (fun k => trot m f p k * g k) = Sum n0 (fun k => r p k * g k).
Proof.
  intros Hp. destruct (spin_dims m f Hr) as (_ & _ & En & _). fold n0 in En. rewrite En, Sum_split.
  rewrite (Sum_0 n0 (fun i => trot m f p (n0 + i)%nat * _)) by (intros i Hi; rewrite (t_lr p i Hp); ring).
  rewrite (Sum_ext n0 (fun i => trot m f p i * _) (fun i => r p i * g i)); [ring|]. intros i Hi. rewrite (t_ll p i Hp Hi). reflexivity.
Qed.
Lemma sum_r p (g : vec) : (p < nc)%nat -> Sum (nov m) (fun k => trot m f (nc + p)%nat k * g k) = Sum n0 (fun k => r p k * g (n0 + k)%nat).
Proof.
  intros Hp. destruct (spin_dims m f Hr) as (_ & _ & En & _). fold n0 in En. rewrite En, Sum_split.
  rewrite (Sum_0 n0 (fun i => trot m f (nc + p)%nat i * _)) by (intros i Hi; rewrite (t_rl p i Hi); ring).
  rewrite (Sum_ext n0 (fun i => trot m f (nc + p)%nat (n0 + i)%nat * _) (fun i => r p i * g (n0 + i)%nat)); [ring|].
  intros i Hi. rewrite (t_rr p i Hp Hi). reflexivity.
Qed.
Lemma loc_sum (X : mt) p q : (p < ovs f)%nat -> (q < ovs f)%nat ->
  loc m f X p q = Sum (nov m) (fun k => trot m f p k * Sum (nov m) (fun k' => trot m f q k' * X k k')).
Proof.
  intros Hp Hq. unfold loc. rewrite (mm_assoc (ovs f) (ovs f) (nov m) (nov m) (trot m f) X (tr (trot m f)) p q Hp Hq). unfold mm at 1.
  apply Sum_ext. intros k _. f_equal. unfold mm, tr. apply Sum_ext. intros; ring.
Qed.
Lemma rr_sum X p q : rr X p q = Sum n0 (fun k => r p k * Sum n0 (fun k' => r q k' * X k k')).
Proof. unfold rr. unfold mm at 1. apply Sum_ext. intros k _. f_equal. unfold mm, tr. apply Sum_ext. intros; ring. Qed.
Lemma loc_ll X p q : (p < nc)%nat -> (q < nc)%nat -> loc m f X p q = rr X p q.
Proof.
  intros Hp Hq. destruct (spin_dims m f Hr) as (_ & _ & _ & Eo). fold nc in Eo. rewrite loc_sum, rr_sum by lia. rewrite sum_l by exact Hp.
  apply Sum_ext. intros k _. f_equal. apply sum_l. exact Hq.
Qed.
Lemma loc_lr X p q : (p < nc)%nat -> (q < nc)%nat -> loc m f X p (nc + q)%nat = rr (ab X) p q.
Proof.
  intros Hp Hq. destruct (spin_dims m f Hr) as (_ & _ & _ & Eo). fold nc in Eo. rewrite loc_sum, rr_sum by lia. rewrite sum_l by exact Hp.
  apply Sum_ext. intros k _. f_equal. rewrite sum_r by exact Hq. reflexivity.
Qed.
Lemma loc_rr X p q : (p < nc)%nat -> (q < nc)%nat -> loc m f X (nc + p)%nat (nc + q)%nat = rr (bb X) p q.
Proof.
  intros Hp Hq. destruct (spin_dims m f Hr) as (_ & _ & _ & Eo). fold nc in Eo. rewrite loc_sum, rr_sum by lia. rewrite sum_r by exact Hp.
  apply Sum_ext. intros k _. f_equal. rewrite sum_r by exact Hq. reflexivity.
Qed.

(** The trace with a projected occupied index. *)
Notation pr := (pr K (coa K f) (cva K f)).
Definition gpart (po : mt) (i j : nat) : K := Sum (coa K f) (fun I => Sum (coa K f) (fun J => po I J * (roa K f i I * roa K f j J))).
Definition vtr (X : mt) (i j : nat) : K := Sum (nva K m) (fun a => X (i * nva K m + a)%nat (j * nva K m + a)%nat).
Lemma pr_ext po A B : meq nc nc A B -> meq nc nc (pr po A) (pr po B).
Proof.
  intros H p q Hp Hq. unfold pr. apply Sum_ext. intros i Hi. f_equal. apply H; [|exact Hq]. unfold nc, ova in *.
  assert (cva K f <> 0)%nat by (intros Z; rewrite Z in Hp; lia). apply pos_lt; [exact Hi|apply Nat.mod_upper_bound; assumption].
Qed.
Lemma dotp_tr po A B : dotp K nc (pr po A) B = trace nc (pr po (mm nc A B)).
Proof.
  unfold dotp, trace. apply Sum_ext. intros p _. unfold pr, mm.
  rewrite (Sum_ext (coa K f) _ (fun i => Sum nc (fun l => po i (p / cva K f)%nat * A (i * cva K f + p mod cva K f)%nat l * B l p)))
    by (intros i _; rewrite <- Sum_mul_l; apply Sum_ext; intros; ring).
  rewrite Sum_swap. apply Sum_ext. intros q _. rewrite <- Sum_mul_r. reflexivity.
Qed.
Lemma trace_pr po X : trace nc (pr po (rr X)) = Sum (noa K m) (fun i => Sum (noa K m) (fun j => gpart po i j * vtr X i j)).
Proof.
  unfold trace. unfold nc, ova. rewrite Sum_ov.
  assert (E : forall J, (J < coa K f)%nat -> Sum (cva K f) (fun B => pr po (rr X) (J * cva K f + B)%nat (J * cva K f + B)%nat)
    = Sum (coa K f) (fun I => po I J * Sum (noa K m) (fun i => Sum (noa K m) (fun j => roa K f i I * roa K f j J * vtr X i j)))).
  { intros J HJ. unfold pr.
    rewrite (Sum_ext (cva K f) _ (fun B => Sum (coa K f) (fun I => po I J * rr X (I * cva K f + B)%nat (J * cva K f + B)%nat))).
    2:{ intros B HB. apply Sum_ext. intros I _. rewrite pos_div, pos_mod by exact HB. reflexivity. }
    rewrite Sum_swap. apply Sum_ext. intros I HI. rewrite Sum_mul_l. f_equal.
    transitivity (Sum (cva K f) (fun B => Sum (noa K m) (fun i => Sum (nva K m) (fun a => Sum (noa K m) (fun j => Sum (nva K m) (fun b =>
       roa K f i I * roa K f j J * X (i * nva K m + a)%nat (j * nva K m + b)%nat * (rva K f a B * rva K f b B))))))).
    { apply Sum_ext. intros B HB. rewrite rr_sum. unfold n0, nova. rewrite Sum_ov. apply Sum_ext. intros i Hi. apply Sum_ext. intros a Ha.
      rewrite Sum_ov, <- Sum_mul_l. apply Sum_ext. intros j Hj. rewrite <- Sum_mul_l. apply Sum_ext. intros b Hb.
      unfold r, srot. rewrite !pos_div, !pos_mod by assumption. ring. }
    rewrite Sum_swap. apply Sum_ext. intros i Hi.
    rewrite (Sum_ext (cva K f) _ (fun B => Sum (noa K m) (fun j => Sum (nva K m) (fun a => Sum (nva K m) (fun b =>
       roa K f i I * roa K f j J * X (i * nva K m + a)%nat (j * nva K m + b)%nat * (rva K f a B * rva K f b B))))))
      by (intros B _; rewrite Sum_swap; reflexivity).
    rewrite Sum_swap. apply Sum_ext. intros j Hj. unfold vtr. rewrite Sum_swap, <- Sum_mul_l. apply Sum_ext. intros a Ha.
    rewrite Sum_swap.
    rewrite (Sum_ext (nva K m) _ (fun b => roa K f i I * roa K f j J * X (i * nva K m + a)%nat (j * nva K m + b)%nat * delta b a)).
    2:{ intros b Hb. rewrite Sum_mul_l. f_equal. destruct (Hs false) as [_ V]. rewrite delta_sym. exact (V a b Ha Hb). }
    rewrite (Sum_delta_r (nva K m) a) by exact Ha. reflexivity. }
  rewrite (Sum_ext (coa K f) _ _ E).
  transitivity (Sum (coa K f) (fun J => Sum (coa K f) (fun I => Sum (noa K m) (fun i => Sum (noa K m) (fun j => po I J * (roa K f i I * roa K f j J) * vtr X i j))))).
  { apply Sum_ext. intros J _. apply Sum_ext. intros I _. rewrite <- Sum_mul_l. apply Sum_ext. intros i _. rewrite <- Sum_mul_l. apply Sum_ext. intros; ring. }
  rewrite (Sum_ext (coa K f) _ (fun J => Sum (noa K m) (fun i => Sum (coa K f) (fun I => Sum (noa K m) (fun j => po I J * (roa K f i I * roa K f j J) * vtr X i j)))))
    by (intros J _; apply Sum_swap).
  rewrite Sum_swap. apply Sum_ext. intros i _.
  rewrite (Sum_ext (coa K f) _ (fun J => Sum (noa K m) (fun j => Sum (coa K f) (fun I => po I J * (roa K f i I * roa K f j J) * vtr X i j))))
    by (intros J _; apply Sum_swap).
  rewrite Sum_swap. apply Sum_ext. intros j _. unfold gpart. rewrite Sum_swap, <- Sum_mul_r. apply Sum_ext. intros I _. apply Sum_mul_r.
Qed.
End Energy.

(** A Coulomb interaction: the same for all spins; its elements in a cluster; the projector onto the occupied part of a
    fragment, in the basis of the mean field. *)
Definition coulomb (m : mfd) (V : mt) (v : ten) : Prop := forall s t i a j b,
  (i < noa K m)%nat -> (a < nva K m)%nat -> (j < noa K m)%nat -> (b < nva K m)%nat -> V (ph m s i a) (ph m t j b) = v i a j b.
Definition bare_of (m : mfd) (f : frag) (v eri : ten) : Prop := forall J B J' B',
  (J < coa K f)%nat -> (B < cva K f)%nat -> (J' < coa K f)%nat -> (B' < cva K f)%nat ->
  eri J (coa K f + B)%nat J' (coa K f + B')%nat
  = Sum (noa K m) (fun i => Sum (nva K m) (fun a => Sum (noa K m) (fun j => Sum (nva K m) (fun b =>
      roa K f i J * rva K f a B * (roa K f j J' * rva K f b B') * v i a j b)))).
Definition fproj (f : frag) (nf : nat) (rf : mt) (i j : nat) : K :=
  Sum nf (fun x => Sum (coa K f) (fun I => rf x I * roa K f i I) * Sum (coa K f) (fun J => rf x J * roa K f j J)).

Lemma gpart_proj f nf rf i j : gpart f (fun i j => Sum nf (fun x => rf x i * rf x j)) i j = fproj f nf rf i j.
Proof.
  unfold gpart, fproj.
  rewrite (Sum_ext (coa K f) _ (fun I => Sum nf (fun x => Sum (coa K f) (fun J => rf x I * roa K f i I * (rf x J * roa K f j J))))).
  2:{ intros I _. rewrite Sum_swap. apply Sum_ext. intros J _. rewrite <- Sum_mul_r. apply Sum_ext. intros; ring. }
  rewrite Sum_swap. apply Sum_ext. intros x _. rewrite Sum_mul_Sum. reflexivity.
Qed.

Section Energy2.
Variables (m : mfd) (V : mt) (v : ten) (M0 : mt).
Hypothesis HV : coulomb m V v.
Hypothesis HM : meq (nov m) (nov m) (tr M0) M0.
Let n0 := nova K m.
Let V0 : mt := flat (nva K m) (nva K m) v.
Let tot : mt := fun p q => M0 p q + M0 p (n0 + q)%nat + M0 (n0 + p)%nat q + M0 (n0 + p)%nat (n0 + q)%nat.
Let Da : mt := fun p q => dg (gaps m) p q.
Let Db : mt := fun p q => dg (gaps m) (n0 + p)%nat (n0 + q)%nat.

Lemma bare_rr f eri : bare_of m f v eri ->
  meq (ova K f) (ova K f) (fun p q => eri (p / cva K f)%nat (coa K f + p mod cva K f)%nat (q / cva K f)%nat (coa K f + q mod cva K f)%nat) (rr m f V0).
Proof.
  intros He p q Hp Hq. unfold ova in Hp, Hq. assert (Z : cva K f <> 0%nat) by (intros Z; rewrite Z in Hp; lia).
  rewrite He; try (apply Nat.mod_upper_bound; exact Z); try (apply Nat.div_lt_upper_bound; lia).
  rewrite rr_sum. unfold nova. rewrite Sum_ov. apply Sum_ext. intros i Hi. apply Sum_ext. intros a Ha. rewrite Sum_ov, <- Sum_mul_l.
  apply Sum_ext. intros j Hj. rewrite <- Sum_mul_l. apply Sum_ext. intros b Hb. unfold srot, V0, flat.
  rewrite !pos_div, !pos_mod by assumption. ring.
Qed.

Lemma tot_rr f x : restricted m f -> meq (ovs f) (ovs f) (smom x) (loc m f M0) -> (forall p q, smom x p q = smom x q p) ->
  meq (ova K f) (ova K f) (fun p q => smom x p q + smom x p (ova K f + q)%nat + smom x q (ova K f + p)%nat + smom x (ova K f + p)%nat (ova K f + q)%nat) (rr m f tot).
Proof.
  intros Hr M1 Hsy p q Hp Hq. destruct (spin_dims m f Hr) as (_ & _ & En & Eo). fold n0 in En.
  rewrite !M1 by lia. rewrite (loc_ll m f Hr M0 p q Hp Hq), (loc_lr m f Hr M0 p q Hp Hq), (loc_lr m f Hr M0 q p Hq Hp), (loc_rr m f Hr M0 p q Hp Hq).
  assert (E : rr m f (fun p q => M0 p (nova K m + q)%nat) q p = rr m f (fun p q => M0 (nova K m + p)%nat q) p q).
  { rewrite !rr_sum. fold n0. set (r := srot _ _ _ _ _).
    transitivity (Sum n0 (fun k => Sum n0 (fun k' => r q k * (r p k' * M0 k (n0 + k')%nat)))).
    - apply Sum_ext. intros k _. rewrite <- Sum_mul_l. reflexivity.
    - rewrite Sum_swap. apply Sum_ext. intros k' Hk'. rewrite <- Sum_mul_l. apply Sum_ext. intros k Hk.
      pose proof (HM k (n0 + k')%nat ltac:(lia) ltac:(lia)) as S. unfold tr in S. rewrite <- S. ring. }
  rewrite E.
  pose proof (rr_add m f M0 (fun p q => M0 p (nova K m + q)%nat) p q Hp Hq) as A1. unfold madd at 1 in A1. rewrite A1.
  pose proof (rr_add m f (madd M0 (fun p q => M0 p (nova K m + q)%nat)) (fun p q => M0 (nova K m + p)%nat q) p q Hp Hq) as A2. unfold madd at 1 in A2. rewrite A2.
  pose proof (rr_add m f (madd (madd M0 (fun p q => M0 p (nova K m + q)%nat)) (fun p q => M0 (nova K m + p)%nat q)) (fun p q => M0 (nova K m + p)%nat (nova K m + q)%nat) p q Hp Hq) as A3.
  unfold madd at 1 in A3. rewrite A3. reflexivity.
Qed.

Definition yfull (i j : nat) : K :=
  hlf * (vtr m (mm n0 M0 Da) i j + vtr m (mm n0 (fun p q => M0 (n0 + p)%nat (n0 + q)%nat) Db) i j) + vtr m (mm n0 tot V0) i j
  - hlf * vtr m (madd (madd (madd Da V0) Db) V0) i j.

Lemma one_energy f x nf rf eri : lt 0 thr -> restricted m f -> spans m f -> bare_of m f v eri -> ova K f <> 0%nat ->
  meq (ovs f) (ovs f) (smom x) (loc m f M0) -> (forall p q, smom x p q = smom x q p) -> meq (ovs f) (ovs f) (samb x) (loc m f (dg (gaps m))) ->
  loc_erpa K hlf thr (coa K f) (cva K f) nf eri rf (smom x) (samb x) false
  = Ret (Sum (noa K m) (fun i => Sum (noa K m) (fun j => fproj f nf rf i j * yfull i j))).
Proof.
  intros Ht Hr Hs He Hn M1 Hsy A1. destruct (spin_dims m f Hr) as (_ & _ & En & Eo). fold n0 in En.
  set (nc := ova K f) in *. set (po := fun i j => Sum nf (fun x => rf x i * rf x j)).
  assert (Dab : forall p q, (p < nc)%nat -> (q < nc)%nat -> samb x p (nc + q)%nat = 0).
  { intros p q Hp Hq. rewrite A1 by lia. rewrite (loc_lr m f Hr _ p q Hp Hq). rewrite rr_sum. apply Sum_0. intros k Hk.
    rewrite (Sum_0 (nova K m)); [ring|]. intros k' Hk'. unfold dg, delta. rewrite (proj2 (Nat.eqb_neq k _)) by lia. ring. }
  pose proof (bare_rr f eri He) as Ev. fold nc in Ev. pose proof (tot_rr f x Hr M1 Hsy) as Et. fold nc in Et.
  assert (Maa : meq nc nc (smom x) (rr m f M0)) by (intros p q Hp Hq; rewrite M1 by lia; apply (loc_ll m f Hr M0 p q Hp Hq)).
  assert (Mbb : meq nc nc (fun p q => smom x (nc + p)%nat (nc + q)%nat) (rr m f (fun p q => M0 (n0 + p)%nat (n0 + q)%nat)))
    by (intros p q Hp Hq; rewrite M1 by lia; apply (loc_rr m f Hr M0 p q Hp Hq)).
  assert (Aaa : meq nc nc (samb x) (rr m f Da)) by (intros p q Hp Hq; rewrite A1 by lia; apply (loc_ll m f Hr _ p q Hp Hq)).
  assert (Abb : meq nc nc (fun p q => samb x (nc + p)%nat (nc + q)%nat) (rr m f Db))
    by (intros p q Hp Hq; rewrite A1 by lia; apply (loc_rr m f Hr _ p q Hp Hq)).
  unfold loc_erpa. fold (ova K f). fold nc. cbv zeta. fold po.
  rewrite (proj2 (Nat.eqb_neq nc 0) Hn).
  assert (As : forallb (fun p => forallb (fun q => ltb (absK (samb x p (nc + q)%nat)) thr) (seq 0 nc)) (seq 0 nc) = true).
  { apply forallb_forall. intros p Hp. apply in_seq in Hp. apply forallb_forall. intros q Hq. apply in_seq in Hq.
    rewrite Dab by lia. unfold absK. replace (ltb 0 (r0 : K)) with false; [|symmetry; apply Bool.not_true_iff_false; intros Z; exact (lt_irrefl _ Z)].
    replace (- (r0 : K)) with (r0 : K) by ring. exact Ht. }
  rewrite As. f_equal.
  assert (Q1 : forall A B A0 B0, meq nc nc A (rr m f A0) -> meq nc nc B (rr m f B0) ->
    dotp K nc (pr K (coa K f) (cva K f) po A) B = Sum (noa K m) (fun i => Sum (noa K m) (fun j => fproj f nf rf i j * vtr m (mm n0 A0 B0) i j))).
  { intros A B A0 B0 EA EB. unfold nc. rewrite dotp_tr. fold nc.
    assert (EE : meq nc nc (mm nc A B) (rr m f (mm n0 A0 B0))) by (rewrite EA, EB; apply (rr_mm m f Hs Hr)).
    rewrite (trace_proper nc _ _ (pr_ext m f po _ _ EE)).
    unfold nc. rewrite (trace_pr m f Hs). apply Sum_ext. intros i _. apply Sum_ext. intros j _. unfold po. rewrite gpart_proj. reflexivity. }
  rewrite (Q1 _ _ _ _ Maa Aaa), (Q1 _ _ _ _ Mbb Abb), (Q1 _ _ _ _ Et Ev).
  assert (Q2 : trace nc (pr K (coa K f) (cva K f) po (fun p q => samb x p q + eri (p / cva K f)%nat (coa K f + p mod cva K f)%nat (q / cva K f)%nat (coa K f + q mod cva K f)%nat
      + samb x (nc + p)%nat (nc + q)%nat + eri (p / cva K f)%nat (coa K f + p mod cva K f)%nat (q / cva K f)%nat (coa K f + q mod cva K f)%nat))
    = Sum (noa K m) (fun i => Sum (noa K m) (fun j => fproj f nf rf i j * vtr m (madd (madd (madd Da V0) Db) V0) i j))).
  { assert (E : meq nc nc (fun p q => samb x p q + eri (p / cva K f)%nat (coa K f + p mod cva K f)%nat (q / cva K f)%nat (coa K f + q mod cva K f)%nat
      + samb x (nc + p)%nat (nc + q)%nat + eri (p / cva K f)%nat (coa K f + p mod cva K f)%nat (q / cva K f)%nat (coa K f + q mod cva K f)%nat)
      (rr m f (madd (madd (madd Da V0) Db) V0))).
    { unfold nc. rewrite <- !rr_add. fold nc. intros p q Hp Hq. unfold madd. rewrite (Aaa p q Hp Hq), (Abb p q Hp Hq).
      pose proof (Ev p q Hp Hq) as Z. cbv beta in Z. rewrite Z. reflexivity. }
    rewrite (trace_proper nc _ _ (pr_ext m f po _ _ E)). unfold nc. rewrite (trace_pr m f Hs). apply Sum_ext. intros i _. apply Sum_ext. intros j _.
    unfold po. rewrite gpart_proj. reflexivity. }
  rewrite Q2. unfold yfull.
  set (a := fun i j => vtr m (mm n0 M0 Da) i j). set (b := fun i j => vtr m (mm n0 (fun p q => M0 (n0 + p)%nat (n0 + q)%nat) Db) i j).
  set (c := fun i j => vtr m (mm n0 tot V0) i j). set (d := fun i j => vtr m (madd (madd (madd Da V0) Db) V0) i j).
  assert (Lin : forall F : nat -> nat -> K, Sum (noa K m) (fun i => Sum (noa K m) (fun j => F i j * (hlf * (a i j + b i j) + c i j - hlf * d i j)))
    = hlf * (Sum (noa K m) (fun i => Sum (noa K m) (fun j => F i j * a i j)) + Sum (noa K m) (fun i => Sum (noa K m) (fun j => F i j * b i j)))
      + Sum (noa K m) (fun i => Sum (noa K m) (fun j => F i j * c i j)) - hlf * Sum (noa K m) (fun i => Sum (noa K m) (fun j => F i j * d i j))).
  { intros F.
    rewrite (Sum_ext (noa K m) _ (fun i => hlf * (Sum (noa K m) (fun j => F i j * a i j) + Sum (noa K m) (fun j => F i j * b i j))
      + Sum (noa K m) (fun j => F i j * c i j) + (- hlf) * Sum (noa K m) (fun j => F i j * d i j))).
    2:{ intros i _. rewrite <- Sum_add, <- !Sum_mul_l, <- !Sum_add. apply Sum_ext. intros; ring. }
    rewrite !Sum_add, !Sum_mul_l, Sum_add. ring. }
  symmetry. apply Lin.
Qed.

Definition ycum (i j : nat) : K := hlf * vtr m (mm n0 (msub tot (msc (1 + 1) idm)) V0) i j.
Lemma one_cumulant f x nf rf eri : restricted m f -> spans m f -> orthonormal m f -> bare_of m f v eri ->
  meq (ovs f) (ovs f) (smom x) (loc m f M0) -> (forall p q, smom x p q = smom x q p) ->
  loc_erpa K hlf thr (coa K f) (cva K f) nf eri rf (smom x) (samb x) true
  = Ret (Sum (noa K m) (fun i => Sum (noa K m) (fun j => fproj f nf rf i j * ycum i j))).
Proof.
  intros Hr Hs Ho He M1 Hsy. set (nc := ova K f) in *. set (po := fun i j => Sum nf (fun x => rf x i * rf x j)).
  pose proof (bare_rr f eri He) as Ev. fold nc in Ev. pose proof (tot_rr f x Hr M1 Hsy) as Et. fold nc in Et.
  unfold loc_erpa. fold (ova K f). fold nc. cbv zeta. fold po. f_equal.
  set (A := fun p q => _ - (1 + 1) * delta p q). set (B := fun p q => eri _ _ _ _) in *.
  assert (EA : meq nc nc A (rr m f (msub tot (msc (1 + 1) idm)))).
  { transitivity (msub (rr m f tot) (msc (1 + 1) (idm (K := K)))).
    - intros p q Hp Hq. unfold A. pose proof (Et p q Hp Hq) as Z. cbv beta in Z. rewrite Z. reflexivity.
    - unfold nc. unfold rr. rewrite mm_subl, mm_subr, mm_scl, mm_scr, mm_idl, (r_orth m f Hr Ho). reflexivity. }
  assert (EE : meq nc nc (mm nc A B) (rr m f (mm n0 (msub tot (msc (1 + 1) idm)) V0))) by (rewrite EA, Ev; apply (rr_mm m f Hs Hr)).
  unfold nc at 1. rewrite dotp_tr. fold nc. rewrite (trace_proper nc _ _ (pr_ext m f po _ _ EE)). unfold nc. rewrite (trace_pr m f Hs).
  rewrite <- Sum_mul_l. apply Sum_ext. intros i _. rewrite <- Sum_mul_l. apply Sum_ext. intros j _. unfold po. rewrite gpart_proj. unfold ycum. ring.
Qed.

Hypothesis Hno : noa K m = nob K m.
Hypothesis Hnv : nva K m = nvb K m.
Lemma dim2 : nov m = (n0 + n0)%nat. Proof. unfold nov, novb, n0, nova. rewrite <- Hno, <- Hnv. reflexivity. Qed.
Lemma vtr_trace X : Sum (noa K m) (fun i => vtr m X i i) = trace n0 X.
Proof. unfold vtr, trace, n0, nova. rewrite Sum_ov. reflexivity. Qed.
Lemma V_at p q : (p < n0)%nat -> (q < n0)%nat ->
  V p q = V0 p q /\ V p (n0 + q)%nat = V0 p q /\ V (n0 + p)%nat q = V0 p q /\ V (n0 + p)%nat (n0 + q)%nat = V0 p q.
Proof.
  intros Hp Hq. unfold n0, nova in Hp, Hq. assert (Z : nva K m <> 0%nat) by (intros Z; rewrite Z in Hp; lia).
  assert (A : forall x, (x < noa K m * nva K m)%nat -> (x / nva K m < noa K m)%nat /\ (x mod nva K m < nva K m)%nat /\ forall s : bool, ph m s (x / nva K m) (x mod nva K m) = if s then (n0 + x)%nat else x).
  { intros x Hx. split; [apply Nat.div_lt_upper_bound; lia|]. split; [apply Nat.mod_upper_bound; exact Z|]. intros s. unfold ph, place. rewrite <- Hnv.
    replace (x / nva K m * nva K m + x mod nva K m)%nat with x by (rewrite (Nat.div_mod x (nva K m) Z) at 1; lia). destruct s; reflexivity. }
  destruct (A p Hp) as (P1 & P2 & P3), (A q Hq) as (Q1 & Q2 & Q3).
  assert (B : forall s t : bool, V (if s then (n0 + p)%nat else p) (if t then (n0 + q)%nat else q) = V0 p q).
  { intros s t. rewrite <- (P3 s), <- (Q3 t). apply HV; assumption. }
  repeat split; [apply (B false false)|apply (B false true)|apply (B true false)|apply (B true true)].
Qed.

Lemma tot_V : trace n0 (mm n0 tot V0) = trace (nov m) (mm (nov m) M0 V).
Proof.
  rewrite dim2. unfold trace. rewrite Sum_split.
  rewrite (Sum_ext n0 _ (fun p => Sum n0 (fun k => M0 p k * V0 k p + M0 p (n0 + k)%nat * V0 k p) + Sum n0 (fun k => M0 (n0 + p)%nat k * V0 k p + M0 (n0 + p)%nat (n0 + k)%nat * V0 k p))).
  2:{ intros p Hp. rewrite <- Sum_add. unfold mm. apply Sum_ext. intros k _. unfold tot. ring. }
  rewrite Sum_add. f_equal; apply Sum_ext; intros p Hp; unfold mm; rewrite Sum_split, Sum_add; f_equal; apply Sum_ext; intros k Hk;
    destruct (V_at k p Hk Hp) as (A & B & C & D); rewrite ?A, ?B, ?C, ?D; reflexivity.
Qed.

Lemma Sum_dbl (x : vec) : Sum (nov m) x = Sum n0 x + Sum n0 (fun p => x (n0 + p)%nat).
Proof. rewrite dim2. apply Sum_split. Qed.

Lemma yfull_trace : hlf + hlf = 1 -> Sum (noa K m) (fun i => yfull i i)
  = hlf * trace (nov m) (mm (nov m) M0 (madd (dg (gaps m)) (msc (1 + 1) V))) - hlf * Sum (nov m) (fun k => gaps m k + V k k).
Proof.
  intros Hh. unfold yfull.
  rewrite (Sum_ext (noa K m) _ (fun i => hlf * (vtr m (mm n0 M0 Da) i i + vtr m (mm n0 (fun p q => M0 (n0 + p)%nat (n0 + q)%nat) Db) i i) + vtr m (mm n0 tot V0) i i
    + (- hlf) * vtr m (madd (madd (madd Da V0) Db) V0) i i)) by (intros; ring).
  rewrite !Sum_add, !Sum_mul_l, Sum_add, !vtr_trace, tot_V.
  assert (D : meq n0 n0 Db (dg (fun p => gaps m (n0 + p)%nat))).
  { intros p q _ _. unfold Db, dg, delta. destruct (Nat.eqb_spec p q) as [->|N]; [rewrite Nat.eqb_refl; reflexivity|].
    rewrite (proj2 (Nat.eqb_neq _ _)) by lia. ring. }
  assert (E1 : trace n0 (mm n0 M0 Da) + trace n0 (mm n0 (fun p q => M0 (n0 + p)%nat (n0 + q)%nat) Db) = trace (nov m) (mm (nov m) M0 (dg (gaps m)))).
  { unfold trace at 3. rewrite Sum_dbl. f_equal.
    - apply Sum_ext. intros p Hp. change (mm n0 M0 Da p p) with (mm n0 M0 (dg (gaps m)) p p).
      rewrite (mm_dgr n0 n0 (gaps m) M0 p p Hp Hp). symmetry. apply (mm_dgr (nov m) (nov m)); rewrite dim2; lia.
    - rewrite D. unfold trace.
      apply Sum_ext. intros p Hp. rewrite (mm_dgr n0 n0 _ _ p p Hp Hp). symmetry. apply (mm_dgr (nov m) (nov m)); rewrite dim2; lia. }
  assert (E2 : trace n0 (madd (madd (madd Da V0) Db) V0) = Sum (nov m) (fun k => gaps m k + V k k)).
  { rewrite Sum_dbl, <- Sum_add. unfold trace. apply Sum_ext. intros p Hp. unfold madd, Da, Db, dg. rewrite !delta_eq.
    destruct (V_at p p Hp Hp) as (A & _ & _ & B). rewrite A, B. ring. }
  rewrite Sum_add in E2. rewrite E1, E2, mm_addr, mm_scr, trace_add, trace_sc.
  set (a := trace _ _). set (b := trace _ _). set (c := Sum _ (gaps m)). set (d := Sum _ _).
  transitivity (hlf * a + (hlf + hlf) * b - hlf * (c + d)); [rewrite Hh|]; ring.
Qed.

Lemma ycum_trace : Sum (noa K m) (fun i => ycum i i) = hlf * trace (nov m) (mm (nov m) (msub M0 idm) V).
Proof.
  unfold ycum. rewrite Sum_mul_l, vtr_trace. f_equal.
  rewrite !mm_subl, mm_scl, !mm_idl, !trace_sub, trace_sc, tot_V. f_equal. f_equal. unfold trace. rewrite Sum_dbl, <- Sum_add, <- Sum_mul_l.
  apply Sum_ext. intros p Hp. destruct (V_at p p Hp Hp) as (A & _ & _ & B). rewrite A, B. ring.
Qed.
End Energy2.

Lemma energies_sum m (A : Type) (all : list A) (proj : A -> nat -> nat -> K) (Y : nat -> nat -> K) (E : A -> result K) :
  (forall x, In x all -> E x = Ret (Sum (noa K m) (fun i => Sum (noa K m) (fun j => proj x i j * Y i j)))) ->
  (forall i j, (i < noa K m)%nat -> (j < noa K m)%nat -> Lsum all (fun x => proj x i j) = delta i j) ->
  exists es, Forall2 (fun x e => E x = Ret e) all es /\ Lsum es (fun e => e) = Sum (noa K m) (fun i => Y i i).
Proof.
  intros HE HP. exists (map (fun x => Sum (noa K m) (fun i => Sum (noa K m) (fun j => proj x i j * Y i j))) all). split.
  - clear HP. induction all; cbn; constructor; [apply HE; left; reflexivity|]. apply IHall. intros; apply HE; right; assumption.
  - rewrite Lsum_map, Lsum_Sum. apply Sum_ext. intros i Hi. rewrite Lsum_Sum.
    rewrite (Sum_ext (noa K m) _ (fun j => delta i j * Y i j)) by (intros j Hj; rewrite Lsum_mul_r, HP by assumption; reflexivity).
    apply (Sum_delta_l (noa K m) i (fun j => Y i j)). exact Hi.
Qed.

Lemma Forall2_in {A B} (P : A -> B -> Prop) a b : Forall2 P a b -> forall x y, In (x, y) (List.combine a b) -> P x y.
Proof. induction 1; cbn; [tauto|]. intros x0 y0 [[= -> ->]|Hn]; auto. Qed.

(** *** The local energies of the RPA in clusters that span the system add up to the plasmon formula *)
Theorem C71_energy m fs l w xpy xmy V v (ds : list (nat * mt * ten)) : hlf + hlf = 1 -> lt 0 thr ->
  noa K m = nob K m -> nva K m = nvb K m -> build m fs = Ret l -> exact m fs (mm (nov m) xpy (tr xpy)) ->
  rpa_sol (nov m) (dg (gaps m)) (madd (dg (gaps m)) (msc (1 + 1) V)) w xpy xmy -> coulomb m V v ->
  let all := List.combine (List.combine fs l) ds in
  (forall f x nf rf eri, In (f, x, (nf, rf, eri)) all -> restricted m f /\ spans m f /\ bare_of m f v eri) ->
  (forall i j, (i < noa K m)%nat -> (j < noa K m)%nat -> Lsum all (fun y => fproj (fst (fst y)) (fst (fst (snd y))) (snd (fst (snd y))) i j) = delta i j) ->
  exists es, Forall2 (fun y e => let '(f, x, (nf, rf, eri)) := y in
                       loc_erpa K hlf thr (coa K f) (cva K f) nf eri rf (smom x) (samb x) false = Ret e) all es /\
    Lsum es (fun e => e) = hlf * Sum (nov m) w - hlf * Sum (nov m) (fun k => gaps m k + V k k).
Proof.
  intros Hh Ht Hno Hnv Hb Hx HS HV all Hf HP. set (M0 := mm (nov m) xpy (tr xpy)) in *.
  assert (HM : meq (nov m) (nov m) (tr M0) M0) by (unfold M0; rewrite tr_mm, tr_tr; reflexivity).
  destruct (build_ok m fs l M0 Hh HM Hb Hx) as (e & He & H). rewrite (eps_gaps m e He) in H. clear e He.
  destruct (energies_sum m _ all (fun y => fproj (fst (fst y)) (fst (fst (snd y))) (snd (fst (snd y)))) (yfull m v M0)
    (fun y => let '(f, x, (nf, rf, eri)) := y in loc_erpa K hlf thr (coa K f) (cva K f) nf eri rf (smom x) (samb x) false)) as (es & H1 & H2).
  - intros [[f x] [[nf rf] eri]] Hi. cbn [fst snd]. destruct (Hf f x nf rf eri Hi) as (R & S & B).
    destruct (Forall2_in _ _ _ H f x (in_combine_l _ _ _ _ Hi)) as (N & M1 & Sy & X1).
    apply (one_energy m v M0 HM f x nf rf eri Ht R S B).
    + destruct (spin_dims m f R) as (_ & _ & _ & Eo). intros Z. rewrite Z in Eo. cbn in Eo. contradiction.
    + exact M1.
    + exact Sy.
    + rewrite X1. apply amb_loc.
  - exact HP.
  - exists es. split; [eapply Forall2_imp; [|exact H1]; intros [[f x] [[nf rf] eri]] e; auto|]. rewrite H2, (yfull_trace m V v M0 HV Hno Hnv Hh). f_equal. f_equal.
    rewrite <- (tr_etaR K (nov m) _ _ w xpy xmy HS). apply trace_proper. apply mm_proper; [|reflexivity]. symmetry. apply eta_0.
Qed.

(** *** The cumulant energies: the local ones add up to the total one, so that nothing non-local remains *)
Definition bothl (n np : nat) (lp ln : mt) : mt := fun x k =>
  let k' := if (k <? n)%nat then k else (k - n)%nat in if (x <? np)%nat then lp x k' else ln (x - np)%nat k'.

Theorem C71_cumulant m fs l M0 V v (ds : list (nat * mt * ten)) : hlf + hlf = 1 -> meq (nov m) (nov m) (tr M0) M0 ->
  noa K m = nob K m -> nva K m = nvb K m -> build m fs = Ret l -> exact m fs M0 -> coulomb m V v ->
  let all := List.combine (List.combine fs l) ds in
  (forall f x nf rf eri, In (f, x, (nf, rf, eri)) all -> restricted m f /\ spans m f /\ orthonormal m f /\ bare_of m f v eri) ->
  (forall i j, (i < noa K m)%nat -> (j < noa K m)%nat -> Lsum all (fun y => fproj (fst (fst y)) (fst (fst (snd y))) (snd (fst (snd y))) i j) = delta i j) ->
  exists es, Forall2 (fun y e => let '(f, x, (nf, rf, eri)) := y in
                       loc_erpa K hlf thr (coa K f) (cva K f) nf eri rf (smom x) (samb x) true = Ret e) all es /\
    Lsum es (fun e => e) = hlf * Sum (nov m) (fun p => Sum (nov m) (fun q => (M0 p q - delta p q) * V q p)) /\
    (forall np nn lp ln e icells,
      (forall i a j b, (i < noa K m)%nat -> (a < nva K m)%nat -> (j < noa K m)%nat -> (b < nva K m)%nat ->
        v i a j b = Sum np (fun x => lp x (i * nva K m + a)%nat * lp x (j * nva K m + b)%nat) - Sum nn (fun x => ln x (i * nva K m + a)%nat * ln x (j * nva K m + b)%nat)) ->
      (forall x, km (np + nn) (bothl (nova K m) np lp ln) = Ret x -> meq (np + nn) (nov m) x (mm (nov m) (bothl (nova K m) np lp ln) M0)) ->
      cumulant_energy K hlf km (nova K m) np nn lp ln = Ret e ->
      e = Lsum es (fun e => e) /\ e_nonlocal K icells e (map (fun x => (r1, x)) es) = 0).
Proof.
  intros Hh HM Hno Hnv Hb Hx HV all Hf HP.
  destruct (build_ok m fs l M0 Hh HM Hb Hx) as (e & He & H). rewrite (eps_gaps m e He) in H. clear e He.
  destruct (energies_sum m _ all (fun y => fproj (fst (fst y)) (fst (fst (snd y))) (snd (fst (snd y)))) (ycum m v M0)
    (fun y => let '(f, x, (nf, rf, eri)) := y in loc_erpa K hlf thr (coa K f) (cva K f) nf eri rf (smom x) (samb x) true)) as (es & H1 & H2).
  - intros [[f x] [[nf rf] eri]] Hi. cbn [fst snd]. destruct (Hf f x nf rf eri Hi) as (R & S & O & B).
    destruct (Forall2_in _ _ _ H f x (in_combine_l _ _ _ _ Hi)) as (N & M1 & Sy & X1).
    apply (one_cumulant m v M0 HM f x nf rf eri R S O B M1 Sy).
  - exact HP.
  - exists es. split; [eapply Forall2_imp; [|exact H1]; intros [[f x] [[nf rf] eri]] e; auto|].
    rewrite (ycum_trace m V v M0 HV Hno Hnv) in H2. split; [exact H2|].
    intros np nn lp ln e icells Hl Hk Hc.
    assert (E : e = Lsum es (fun e => e)).
    { rewrite H2. unfold cumulant_energy in Hc. fold (bothl (nova K m) np lp ln) in Hc.
      destruct (km (np + nn) (bothl (nova K m) np lp ln)) as [x| | |] eqn:Ex; cbn [rbind] in Hc; try discriminate. injection Hc as <-.
      specialize (Hk x eq_refl). f_equal.
      set (n0 := nova K m) in *. pose proof (dim2 m Hno Hnv) as En. fold n0 in En. rewrite En in *.
      set (l1 := bothl n0 np lp ln) in *.
      set (l2 := fun x k => let k' := if (k <? n0)%nat then k else (k - n0)%nat in if (x <? np)%nat then lp x k' else - ln (x - np)%nat k').
      assert (VV : forall j k, (j < n0 + n0)%nat -> (k < n0 + n0)%nat -> Sum (np + nn) (fun x => l1 x j * l2 x k) = V k j).
      { intros j k Hj Hk'. set (mo := fun k => if (k <? n0)%nat then k else (k - n0)%nat).
        assert (Hmo : forall k, (k < n0 + n0)%nat -> (mo k < n0)%nat) by (intros k0 H0; unfold mo; destruct (Nat.ltb_spec k0 n0); lia).
        assert (E : V k j = flat (nva K m) (nva K m) v (mo k) (mo j)).
        { destruct (V_at m V v HV Hno Hnv (mo k) (mo j) (Hmo k Hk') (Hmo j Hj)) as (A & B & C & D). fold n0 in A, B, C, D.
          unfold mo in *. destruct (Nat.ltb_spec k n0), (Nat.ltb_spec j n0); [rewrite <- A|rewrite <- B|rewrite <- C|rewrite <- D]; f_equal; lia. }
        assert (Z : nva K m <> 0%nat) by (intros Z; specialize (Hmo j Hj); unfold n0, nova in Hmo; rewrite Z in Hmo; lia).
        assert (Q : forall x, (x < n0)%nat -> (x / nva K m < noa K m)%nat /\ (x mod nva K m < nva K m)%nat /\ (x / nva K m * nva K m + x mod nva K m)%nat = x).
        { intros y Hy. unfold n0, nova in Hy. split; [apply Nat.div_lt_upper_bound; lia|]. split; [apply Nat.mod_upper_bound; exact Z|].
          rewrite (Nat.div_mod y (nva K m) Z) at 3. lia. }
        destruct (Q _ (Hmo k Hk')) as (K1 & K2 & K3), (Q _ (Hmo j Hj)) as (J1 & J2 & J3).
        rewrite E. unfold flat. rewrite Hl by assumption. rewrite K3, J3. rewrite Sum_split.
        transitivity (Sum np (fun x => lp x (mo k) * lp x (mo j)) + (-(1)) * Sum nn (fun x => ln x (mo k) * ln x (mo j))); [|ring].
        rewrite <- Sum_mul_l. f_equal; apply Sum_ext; intros y Hy; unfold l1, bothl, l2; cbv zeta; fold (mo j) (mo k).
        - rewrite (ltb_t _ _ Hy). ring.
        - rewrite ltb_f. replace (np + y - np)%nat with y by lia. ring. }
      transitivity (Sum (n0 + n0) (fun k => Sum (n0 + n0) (fun j => (M0 j k - delta j k) * V k j))).
      - rewrite Sum_swap. apply Sum_ext. intros k Hk'.
        transitivity (Sum (np + nn) (fun y => Sum (n0 + n0) (fun j => (M0 j k - delta j k) * (l1 y j * l2 y k)))).
        + apply Sum_ext. intros y Hy. change ((x y k - l1 y k) * l2 y k = Sum (n0 + n0) (fun j => (M0 j k - delta j k) * (l1 y j * l2 y k))). rewrite (Hk y k Hy Hk').
          rewrite (Sum_ext (n0 + n0) _ (fun j => (l1 y j * M0 j k - l1 y j * delta j k) * l2 y k)) by (intros; ring).
          rewrite Sum_mul_r. f_equal. rewrite (Sum_ext (n0 + n0) _ (fun j => l1 y j * M0 j k + (-(1)) * (l1 y j * delta j k))) by (intros; ring).
          rewrite Sum_add, Sum_mul_l, (Sum_delta_r (n0 + n0) k) by exact Hk'. unfold mm. ring.
        + rewrite Sum_swap. apply Sum_ext. intros j Hj. rewrite Sum_mul_l, VV by assumption. reflexivity.
      - rewrite Sum_swap. unfold trace, mm, msub, idm. reflexivity. }
    split; [exact E|]. unfold e_nonlocal. rewrite Lsum_map. cbn [fst snd]. rewrite (Lsum_ext es _ (fun e => e)) by (intros; ring). rewrite E. ring.
Qed.

(** ** Errors *)
Theorem C71_returns m fs x : (unr K m = true -> nao K m = (noa K m + nva K m)%nat) -> (nob K m + nvb K m = noa K m + nva K m)%nat ->
  fs <> [] -> (forall f, In f fs -> ovs f <> 0%nat) -> km (rows fs) (stack m fs) = Ret x -> exists l, build m fs = Ret l /\ length l = length fs.
Proof.
  intros Hu Hn Hf Ho Hk. unfold build, calc_moms.
  assert (R : rows fs <> 0%nat) by (destruct fs as [|f r]; [congruence|]; cbn; specialize (Ho f (or_introl eq_refl)); lia).
  rewrite (proj2 (Nat.eqb_neq _ _) R), Hk. cbn [rbind].
  assert (E : exists e, eps K m = Ret e).
  { unfold eps, eps1. assert (N : (if unr K m then nao K m else (noa K m + nva K m)%nat) = (noa K m + nva K m)%nat) by (destruct (unr K m); auto).
    rewrite N. replace (noa K m + nva K m - noa K m)%nat with (nva K m) by lia. rewrite <- Hn. replace (nob K m + nvb K m - nob K m)%nat with (nvb K m) by lia.
    rewrite !Nat.eqb_refl. cbn. eauto. }
  destruct E as [e E]. rewrite E. cbn [rbind].
  replace (existsb _ fs) with false.
  2:{ symmetry. apply Bool.not_true_iff_false. intros X. apply existsb_exists in X. destruct X as (f & Hi & Z). apply Nat.eqb_eq in Z. exact (Ho f Hi Z). }
  eexists. split; [reflexivity|]. rewrite map_length, combine_length.
  assert (L : forall n fs, length (local_moms K hlf m x n fs) = length fs) by (clear; intros n fs; revert n; induction fs; intros n; cbn; [reflexivity|rewrite IHfs; reflexivity]).
  rewrite L. lia.
Qed.
Theorem C71_no_excitations m fs : rows fs = 0%nat -> build m fs = ValueErr.
Proof. intros H. unfold build, calc_moms. rewrite H. reflexivity. Qed.
Theorem C71_empty_cluster m fs f l : In f fs -> ovs f = 0%nat -> build m fs <> Ret l.
Proof.
  intros Hi Ho H. destruct (build_inv m fs l H) as (x & e & _ & _ & F & _). rewrite Forall_forall in F. exact (F f Hi Ho).
Qed.
(** With linearly dependent atomic orbitals an unrestricted calculation fails, whatever the moments. *)
Theorem C71_linear_dependence m fs l : unr K m = true -> (noa K m + nva K m < nao K m)%nat -> (0 < noa K m)%nat -> (0 < nva K m)%nat ->
  build m fs <> Ret l.
Proof.
  intros Hu Hn Ho Hv H. destruct (build_inv m fs l H) as (x & e & _ & E & _). unfold eps, eps1 in E. rewrite Hu in E.
  rewrite (proj2 (Nat.eqb_neq (nao K m - noa K m) (nva K m))), (proj2 (Nat.eqb_neq (nao K m - noa K m) 1)), (proj2 (Nat.eqb_neq (noa K m) 0)), andb_false_r in E by lia.
  discriminate.
Qed.
End T.

(** * Cases *)
From Coq Require Import ZArith QArith Qcanon.
Section Cases.
Local Close Scope Q_scope. Local Open Scope nat_scope.
Ltac qq := first [apply eqq_ok; vm_compute; reflexivity | apply neqq; vm_compute; reflexivity].
Ltac ck := first [apply meqb_ok | apply eigb_ok | apply rootsb_ok]; vm_compute; reflexivity.
Notation K := QO.
Notation vec := (nat -> QO).
Notation mt := (nat -> nat -> QO).
(** One occupied and two virtual orbitals; gaps 4; frequencies 9, 16 (singlets) and 4 (triplets). *)
Definition cm : mfd K := Build_mfd K 1 2 1 2 (fun i => if (i =? 0)%nat then q 0 1 else q 4 1) (fun i => if (i =? 0)%nat then q 0 1 else q 4 1) true 3.
Definition had : mt := fun p k => let s := fun i j => if ((i =? 1) && (j =? 1))%nat then q (-1) 1 else q 1 1 in
  rmul (q 1 2) (rmul (s (p / 2)%nat (k / 2)%nat) (s (p mod 2)%nat (k mod 2)%nat)).
Definition cw : vec := fun k => match k with 0%nat => q 9 1 | 1%nat => q 16 1 | _ => q 4 1 end.
Definition cxpy : mt := fun p k => rmul (had p k) (match k with 0%nat => q 2 3 | 1%nat => q 1 2 | _ => q 1 1 end).
Definition cxmy : mt := fun p k => rmul (had p k) (match k with 0%nat => q 3 2 | 1%nat => q 2 1 | _ => q 1 1 end).
Definition cv0 : nat -> nat -> nat -> nat -> K := fun i a j b => if (a =? b)%nat then q 305 32 else q (-175) 32.
Definition cV : mt := fun p k => cv0 0 (p mod 2)%nat 0 (k mod 2)%nat.
Definition cM : mt := mm 4 cxpy (tr cxpy).
Definition one1 : mt := fun _ _ => q 1 1.
Definition f1 : frag K := Build_frag K 1 2 1 2 one1 rot35 one1 rot35.
Definition f2 : frag K := Build_frag K 1 1 0 0 one1 (fun a _ => if (a =? 0)%nat then q 3 5 else q 4 5) one1 one1.
Definition f3 : frag K := Build_frag K 1 2 1 2 one1 idm one1 idm.
Definition ckm : nat -> mt -> result mt := fun n rot => Ret (mm 4 rot cM).
Definition ceig : nat -> mt -> vec * mt := fun n mom =>
  if (n =? 1)%nat then ((fun _ => mom 0%nat 0%nat), idm)
  else ((fun k => match k with 0%nat => q 4 9 | 1%nat => q 1 4 | _ => q 1 1 end), if meqb 4 4 mom cM then had else mm 4 (trot K cm f1) had).
Definition cbuild := build K ivr half ceig ckm cm.
Definition getl {A} (r : result (list A)) : list A := match r with Ret l => l | _ => [] end.
Definition cl := getl (cbuild [f1; f2]).
Definition cl3 := getl (cbuild [f3]).
Lemma cbuild_ok : cbuild [f1; f2] = Ret cl. Proof. reflexivity. Qed.
Lemma cbuild3_ok : cbuild [f3] = Ret cl3. Proof. reflexivity. Qed.
Definition x1 : scr K := nth 0 cl (Build_scr K (fun _ _ _ _ => r0) (fun _ _ _ _ => r0) (fun _ _ _ _ => r0) zm zm).
Definition x2 : scr K := nth 1 cl x1.
Definition x3 : scr K := nth 0 cl3 x1.
Lemma csym : meq 4 4 (tr cM) cM. Proof. ck. Qed.
Lemma cexact fs : exact K ckm cm fs cM. Proof. intros x [= <-]. reflexivity. Qed.
Lemma crpa : rpa_sol 4 (dg (gaps K cm)) (madd (dg (gaps K cm)) (msc (radd r1 r1) cV)) cw cxpy cxmy.
Proof. split; [|split; [|split]]; ck. Qed.
Lemma creg1 : regular K ivr ceig f1 x1.
Proof. split; [ck|]. intros k Hk. do 4 (destruct k as [|k]; [qq|]). change (ovs K f1) with 4 in Hk. lia. Qed.
Lemma creg2 : regular K ivr ceig f2 x2.
Proof. split; [ck|]. intros k Hk. do 1 (destruct k as [|k]; [qq|]). change (ovs K f2) with 1 in Hk. lia. Qed.
Lemma creg3 : regular K ivr ceig f3 x3.
Proof. split; [ck|]. intros k Hk. do 4 (destruct k as [|k]; [qq|]). change (ovs K f3) with 4 in Hk. lia. Qed.
Ltac small := match goal with H : (?k < ?n)%nat |- _ => is_var k; cbn in H; destruct k as [|k]; [|destruct k as [|k]; [|exfalso; lia]]; try (exfalso; lia) end.
Lemma cspan1 : spans K cm f1.
Proof. intros []; split; intros i j Hi Hj; repeat small; qq. Qed.
Lemma cspan3 : spans K cm f3.
Proof. intros []; split; intros i j Hi Hj; repeat small; qq. Qed.
Lemma corth1 : orthonormal K cm f1.
Proof. intros []; split; intros i j Hi Hj; repeat small; qq. Qed.
Lemma corth2 : orthonormal K cm f2.
Proof. intros []; split; intros i j Hi Hj; repeat small; qq. Qed.
Lemma corth3 : orthonormal K cm f3.
Proof. intros []; split; intros i j Hi Hj; repeat small; qq. Qed.
Lemma crest1 : restricted K cm f1. Proof. repeat split. Qed.
Lemma crest3 : restricted K cm f3. Proof. repeat split. Qed.

Example C71_rotation_case : trot K cm f1 (cph K f1 true 0 1) (ph K cm true 0 0) = q (-4) 5 /\ trot K cm f1 (cph K f1 true 0 1) (ph K cm false 0 0) = q 0 1.
Proof. rewrite !C71_rotation by (cbn; lia). split; qq. Qed.

Example C71_moment_case : smom K x2 0 0 = q 2593 3600.
Proof.
  pose proof (C71_moment K ivr half ceig ckm cm [f1; f2] cl cM hhalf csym cbuild_ok (cexact _)) as H.
  inversion H as [|? ? ? ? _ H']; subst. inversion H' as [|? ? ? ? H2 _]; subst. destruct (H2 false false 0 0 0 0) as (E & _); [cbn; lia..|].
  change (nth 1 cl x1) with x2 in *. etransitivity; [exact E|]. qq.
Qed.

Lemma Forall2_in' {A B} (P : A -> B -> Prop) a b : Forall2 P a b -> forall x y, In (x, y) (List.combine a b) -> P x y.
Proof. induction 1; cbn; [tauto|]. intros x0 y0 [[= -> ->]|Hn]; auto. Qed.
Lemma in1 : In (f1, x1) (List.combine [f1; f2] cl). Proof. left. reflexivity. Qed.
Lemma in2 : In (f2, x2) (List.combine [f1; f2] cl). Proof. right. left. reflexivity. Qed.
Lemma in3 : In (f3, x3) (List.combine [f3] cl3). Proof. left. reflexivity. Qed.

(** The conserved moment in a cluster that does not span the system: there the kernel differs from the bare one. *)
Example C71_conserved_case : rmul (smom K x2 0 0) (rmul (apb K f2 x2 0 0) (smom K x2 0 0)) = q 4 1 /\ k_ K x2 false false 0 0 0 0 <> q 305 32.
Proof.
  split; [|qq]. pose proof (Forall2_in' _ _ _ (C71_conserved K ivr half ceig ckm cm [f1; f2] cl cM hhalf csym cbuild_ok (cexact _)) f2 x2 in2 creg2) as H.
  specialize (H 0 0 ltac:(cbn; lia) ltac:(cbn; lia)). change (ovs K f2) with 1 in H.
  transitivity (mm 1 (smom K x2) (mm 1 (apb K f2 x2) (smom K x2)) 0 0); [qq|]. rewrite H. qq.
Qed.
(** The solution of the RPA in the cluster f1. *)
Example C71_rpa_case : meq 4 4 (mm 4 (mm 4 (trot K cm f1) cxpy) (tr (mm 4 (trot K cm f1) cxpy))) (smom K x1).
Proof.
  pose proof (Forall2_in' _ _ _ (C71_rpa K ivr half ceig ckm cm [f1; f2] cl cM hhalf csym cbuild_ok (cexact _)) f1 x1 in1 creg1) as H.
  apply (H ltac:(intros k Hk; change (ovs K f1) with 4 in Hk; do 4 (destruct k as [|k]; [vm_compute; reflexivity|]); lia) cw (mm 4 (trot K cm f1) cxpy) (mm 4 (trot K cm f1) cxmy)).
  - split; [|split; [|split]]; ck.
  - intros k Hk; change (ovs K f1) with 4 in Hk; do 4 (destruct k as [|k]; [vm_compute; reflexivity|]); lia.
Qed.
Example C71_symmetric_case : kaa K x1 0 0 0 1 = kaa K x1 0 1 0 0.
Proof.
  apply (proj1 (Forall2_in' _ _ _ (C71_symmetric K ivr half ceig ckm cm [f1; f2] cl cM hhalf csym cbuild_ok (cexact _)) f1 x1 in1 creg1)); cbn; lia.
Qed.
(** In the complete cluster f1 the kernel is the bare interaction in its orbitals. *)
Lemma cbare : meq 4 4 (mm 4 cM (mm 4 (madd (dg (gaps K cm)) (msc (radd r1 r1) cV)) cM)) (dg (gaps K cm)). Proof. ck. Qed.
Example C71_complete_case : kab K x1 0 0 0 1 = q 49 32.
Proof.
  pose proof (Forall2_in' _ _ _ (C71_complete K ivr half ceig ckm cm [f1; f2] cl cM cV hhalf csym cbuild_ok (cexact _) cbare) f1 x1 in1 creg1 cspan1) as H.
  change (k_ K x1 false true 0 0 0 1 = q 49 32). rewrite (H false true 0 0 0 1) by (cbn; lia). qq.
Qed.
(** Moments of a system without correlation. *)
Definition km0 : nat -> mt -> result mt := fun n rot => Ret (mm 4 rot idm).
Definition cl0 := getl (build K ivr half (fun n mom => ((fun _ => q 1 1), idm)) km0 cm [f1; f2]).
Example C71_uncorrelated_case : Forall2 (fun f x => kaa K x 0 0 0 0 = q 0 1) [f1; f2] cl0.
Proof.
  assert (X : exact K km0 cm [f1; f2] idm) by (intros x [= <-]; reflexivity).
  pose proof (C71_uncorrelated K ivr half (fun n mom => ((fun _ => q 1 1), idm)) km0 cm [f1; f2] cl0 hhalf eq_refl X) as H.
  assert (G : forall f x, In (f, x) (List.combine [f1; f2] cl0) -> kaa K x 0 0 0 0 = q 0 1).
  { intros f x Hi. pose proof (Forall2_in' _ _ _ H f x Hi) as P. destruct Hi as [E|[E|[]]]; pose proof (f_equal fst E) as E1; pose proof (f_equal snd E) as E2; cbn [fst snd] in E1, E2; subst f x.
    - change (k_ K (screen1 K ivr half (fun n mom => ((fun _ => q 1 1), idm)) f1 (nth 0 (local_moms K half cm (mm 4 (stack K cm [f1; f2]) idm) 0 [f1; f2]) zm) (loc_amb K cm (gaps K cm) f1)) false false 0 0 0 0 = q 0 1).
      apply P; [|exact corth1|cbn; lia..]. split; [ck|]. intros k _. qq.
    - change (k_ K (screen1 K ivr half (fun n mom => ((fun _ => q 1 1), idm)) f2 (nth 1 (local_moms K half cm (mm 4 (stack K cm [f1; f2]) idm) 0 [f1; f2]) zm) (loc_amb K cm (gaps K cm) f2)) false false 0 0 0 0 = q 0 1).
      apply P; [|exact corth2|cbn; lia..]. split; [ck|]. intros k _. qq. }
  constructor; [apply (G f1); left; reflexivity|]. constructor; [apply (G f2); right; left; reflexivity|constructor].
Qed.
(** From the orbitals of f3 to those of f1. *)
Example C71_orbitals_case : turned K f3 f1 cm (fun _ => idm) (fun _ => rot35) /\
  k_ K x1 true false 0 1 0 1 = Sum 2 (fun a => Sum 2 (fun b => rmul (rmul (rot35 a 1) (rot35 b 1)) (k_ K x3 true false 0 a 0 b))).
Proof.
  assert (T : turned K f3 f1 cm (fun _ => idm) (fun _ => rot35)).
  { intros []; split; [reflexivity| |reflexivity|]; (split; [reflexivity|]); (split; [|split; [|split; [|split; [|split]]]]); intros i j Hi Hj; repeat small; qq. }
  split; [exact T|].
  rewrite (C71_orbitals K ivr half ceig ckm cm [f3] cl3 [f1; f2] cl cM hhalf csym cbuild3_ok (cexact _) cbuild_ok (cexact _) f3 x3 f1 x1 _ _ in3 in1 creg3 creg1 T true false 0 1 0 1)
    by (cbn; lia).
  qq.
Qed.
Lemma ccoul : coulomb K cm cV cv0.
Proof. intros s t i a j b Hi Ha Hj Hb. destruct s, t; repeat small; reflexivity. Qed.
Lemma cpos : (forall k, (k < 4)%nat -> lt r0 (cw k)) /\ (forall k, (k < 4)%nat -> lt r0 (gaps K cm k)).
Proof. split; intros k Hk; do 4 (destruct k as [|k]; [vm_compute; reflexivity|]); lia. Qed.
Example C71_spin_case : kab K x1 0 0 0 1 = kaa K x1 0 0 0 1 /\ kbb K x1 0 0 0 1 = kaa K x1 0 0 0 1 /\ kaa K x1 0 0 0 1 = q 49 32.
Proof.
  assert (B : blind K cm cV).
  { intros s i a j b Hi Ha Hj Hb. destruct s; repeat small; reflexivity. }
  destruct (Forall2_in' _ _ _ (C71_spin K ivr half ceig ckm cm [f1; f2] cl cw cxpy cxmy cV hhalf cbuild_ok (cexact _) crpa B (proj1 cpos) (proj2 cpos)) f1 x1 in1 creg1 corth1 crest1 0 0 0 1) as [A C];
    [cbn; lia..|].
  split; [exact A|]. split; [exact C|]. qq.
Qed.

(** Integrals with the symmetries, and replacements. *)
Definition efull : nat -> nat -> nat -> nat -> K := fun p q' r s => rmul (q (Z.of_nat (1 + p * q' + p + q')) 1) (q (Z.of_nat (1 + r * s + r + s)) 1).
Definition eov : nat -> nat -> nat -> nat -> K := fun i a j b => rmul (q (Z.of_nat (2 + i + 3 * a)) 7) (q (Z.of_nat (2 + j + 3 * b)) 7).
Lemma efull_sym p q' r s : efull q' p r s = efull p q' r s /\ efull p q' s r = efull p q' r s /\ efull r s p q' = efull p q' r s.
Proof.
  unfold efull. split; [|split].
  - do 3 f_equal. lia.
  - f_equal. do 2 f_equal. lia.
  - apply Qcmult_comm.
Qed.
Lemma eov_sym i a j b : eov i a j b = eov j b i a. Proof. apply Qcmult_comm. Qed.
Example C71_replaced_case : replace_ov K 2 2 efull eov 0 3 1 2 = eov 0 1 1 0 /\ replace_ov K 2 2 efull eov 3 0 2 1 = eov 0 1 1 0 /\ replace_ov K 2 2 efull eov 0 1 1 2 = efull 0 1 1 2.
Proof.
  destruct (C71_replaced K 2 2 efull eov) as [A B]. destruct (A 0 1 1 0) as (A1 & A2 & A3 & A4); try lia.
  split; [exact A1|]. split; [exact A4|]. apply B. left. lia.
Qed.
Example C71_permutations_case : replace_ov K 2 2 efull eov 2 1 0 3 = replace_ov K 2 2 efull eov 0 3 2 1.
Proof.
  destruct (C71_permutations K 2 2 4 4 efull eov) as [_ B]; [intros; split; apply efull_sym|].
  apply B; try lia; intros; [apply efull_sym|apply eov_sym].
Qed.
Example C71_unscreened_case : replace_ov K 2 2 efull (fun i a j b => efull i (2 + a) j (2 + b)) 3 0 1 2 = efull 3 0 1 2.
Proof. apply (C71_unscreened K 2 2 4 4); try lia; [intros; split; apply efull_sym|]. intros; reflexivity. Qed.
Example C71_spin_average_case : spin_integrate K half (screened_full K 2 2 (inl efull) (eov, eov, eov) true) 0 3 1 2 = eov 0 1 1 0 /\ eov 0 1 1 0 <> efull 0 3 1 2.
Proof.
  split; [|qq]. destruct (C71_spin_average K half 2 4 efull eov eov eov hhalf) with (p := 0) (q := 3) (r := 1) (s := 2) as (_ & _ & _ & A); try lia.
  - intros; split; [|split]; apply efull_sym.
  - intros; split; [|split]; [reflexivity|reflexivity|apply eov_sym].
  - rewrite A. reflexivity.
Qed.
(** In place, a single array is overwritten three times. *)
Example C71_inplace_refuted : exists e saa sab sbb,
  fst (fst (screened_full K 1 1 (inl e) (saa, sab, sbb) false)) 0 1 0 1 <> replace_ov K 1 1 e saa 0 1 0 1.
Proof. exists efull, (fun _ _ _ _ => q 1 1), (fun _ _ _ _ => q 1 1), (fun _ _ _ _ => q 2 1). qq. Qed.

Definition ccs : cceris K := set_eris K (eov, (fun i a j b => q (Z.of_nat (i + 2 * a + 5 * j + 11 * b)) 1), efull) None.
Example C71_restore_case : exists e', restore_bare K (screen_ccsd K ccs (efull, eov, eov)) = Some e' /\ OVvo K e' 0 1 2 3 = q 18 1 /\
  OVvo K (screen_ccsd K ccs (efull, eov, eov)) 0 1 2 3 = q 55 49.
Proof.
  destruct (C71_restore K ccs (efull, eov, eov)) as (e' & A & _ & B); [intros i a j b; cbn; auto|].
  exists e'. split; [exact A|]. destruct (B 0 1 2 3) as (_ & _ & _ & _ & _ & _ & E). split; [rewrite E; qq|]. qq.
Qed.
Example C71_screened_ccsd_case : ovvo K (screen_ccsd K ccs (efull, eov, eov)) 0 1 2 3 = efull 0 1 3 2.
Proof. destruct (C71_screened_ccsd K ccs efull eov eov) as (A & B & _). destruct (A 0 1 3 2) as (E & _). etransitivity; [exact E|]. reflexivity. Qed.
Example C71_restore_twice_refuted : exists e e', consistent K e /\ restore_bare K (screen_ccsd K (screen_ccsd K e (efull, eov, eov)) (eov, eov, eov)) = Some e' /\
  ovov K e' 0 1 1 0 <> ovov K e 0 1 1 0 /\ restore_bare K e' = None.
Proof.
  destruct (C71_restore_twice K ccs (efull, eov, eov) (eov, eov, eov)) as (e' & A & B & _ & _ & C).
  exists ccs, e'. split; [intros i a j b; cbn; auto|]. split; [exact A|]. split; [|exact C]. rewrite B. qq.
Qed.

(** Energies: two fragments, each with a complete cluster, that share the occupied orbital. *)
Definition eri_of (f : frag K) : nat -> nat -> nat -> nat -> K := fun J B J' B' =>
  Sum 1 (fun i => Sum 2 (fun a => Sum 1 (fun j => Sum 2 (fun b =>
    rmul (rmul (rmul (roa K f i J) (rva K f a (B - 1))) (rmul (roa K f j J') (rva K f b (B' - 1)))) (cv0 i a j b))))).
Definition cl13 := getl (cbuild [f1; f3]).
Lemma cbuild13 : cbuild [f1; f3] = Ret cl13. Proof. reflexivity. Qed.
Definition cds : list (nat * mt * (nat -> nat -> nat -> nat -> K)) := [(1, (fun _ _ => q 3 5), eri_of f1); (1, (fun _ _ => q 4 5), eri_of f3)].
Lemma call f x nf rf eri : In (f, x, (nf, rf, eri)) (List.combine (List.combine [f1; f3] cl13) cds) ->
  restricted K cm f /\ spans K cm f /\ orthonormal K cm f /\ bare_of K cm f cv0 eri.
Proof.
  assert (B : forall f, coa K f = 1 -> cva K f = 2 -> bare_of K cm f cv0 (eri_of f)).
  { intros g G1 G2 J B J' B' HJ HB HJ' HB'. rewrite G1. unfold eri_of.
    replace (1 + B - 1) with B by lia. replace (1 + B' - 1) with B' by lia. reflexivity. }
  intros [E|[E|[]]].
  - pose proof (f_equal (fun y => fst (fst y)) E) as E1. pose proof (f_equal (fun y => snd (snd y)) E) as E2. cbn [fst snd] in E1, E2. subst f eri.
    split; [exact crest1|]. split; [exact cspan1|]. split; [exact corth1|]. apply B; reflexivity.
  - pose proof (f_equal (fun y => fst (fst y)) E) as E1. pose proof (f_equal (fun y => snd (snd y)) E) as E2. cbn [fst snd] in E1, E2. subst f eri.
    split; [exact crest3|]. split; [exact cspan3|]. split; [exact corth3|]. apply B; reflexivity.
Qed.
Lemma cpart i j : (i < 1)%nat -> (j < 1)%nat ->
  Lsum (List.combine (List.combine [f1; f3] cl13) cds) (fun y => fproj K (fst (fst y)) (fst (fst (snd y))) (snd (fst (snd y))) i j) = delta i j.
Proof. intros Hi Hj. repeat small. qq. Qed.
Example C71_energy_case : exists e1 e2,
  loc_erpa K half tiny 1 2 1 (eri_of f1) (fun _ _ => q 3 5) (smom K (nth 0 cl13 x1)) (samb K (nth 0 cl13 x1)) false = Ret e1 /\
  loc_erpa K half tiny 1 2 1 (eri_of f3) (fun _ _ => q 4 5) (smom K (nth 1 cl13 x1)) (samb K (nth 1 cl13 x1)) false = Ret e2 /\
  radd e1 e2 = q (-169) 16.
Proof.
  destruct (C71_energy K ivr half tiny ceig ckm cm [f1; f3] cl13 cw cxpy cxmy cV cv0 cds hhalf eq_refl eq_refl eq_refl cbuild13 (cexact _) crpa ccoul) as (es & A & B).
  - intros f x nf rf eri Hi. destruct (call f x nf rf eri Hi) as (R & S & _ & E). auto.
  - exact cpart.
  - inversion A as [|? e1 ? ? A1 A']; subst. inversion A' as [|? e2 ? ? A2 A'']; subst. inversion A''; subst.
    exists e1, e2. split; [exact A1|]. split; [exact A2|]. cbn [Lsum] in B. transitivity (radd e1 (radd e2 r0)); [f_equal; symmetry; apply Qcplus_0_r|]. rewrite B. qq.
Qed.
(** The interaction with two positive and two negative vectors. *)
Definition clp : mt := fun x p => match x, p with O, _ => q 67 16 | _, O => q 17 4 | _, _ => q (-17) 4 end.
Definition cln : mt := fun x p => match x, p with O, _ => q 63 16 | _, O => q 13 4 | _, _ => q (-13) 4 end.
Example C71_cumulant_case : exists e1 e2 e,
  loc_erpa K half tiny 1 2 1 (eri_of f1) (fun _ _ => q 3 5) (smom K (nth 0 cl13 x1)) (samb K (nth 0 cl13 x1)) true = Ret e1 /\
  loc_erpa K half tiny 1 2 1 (eri_of f3) (fun _ _ => q 4 5) (smom K (nth 1 cl13 x1)) (samb K (nth 1 cl13 x1)) true = Ret e2 /\
  cumulant_energy K half ckm 2 2 2 clp cln = Ret e /\ e_nonlocal K (q 1 3) e [(r1, e1); (r1, e2)] = q 0 1 /\ e = q (-1945) 144.
Proof.
  destruct (C71_cumulant K ivr half tiny ceig ckm cm [f1; f3] cl13 cM cV cv0 cds hhalf csym eq_refl eq_refl cbuild13 (cexact _) ccoul) as (es & A & B & C).
  - exact call.
  - exact cpart.
  - inversion A as [|? e1 ? ? A1 A']; subst. inversion A' as [|? e2 ? ? A2 A'']; subst. inversion A''; subst.
    eexists e1, e2, _. split; [exact A1|]. split; [exact A2|]. split; [reflexivity|].
    edestruct (C 2 2 clp cln) with (icells := q 1 3) as [C1 C2]; [| |reflexivity|].
    + intros i a j b Hi Ha Hj Hb. repeat small; qq.
    + intros x [= <-]. reflexivity.
    + split; [exact C2|]. qq.
Qed.
Example C71_errors_case : cbuild [] = ValueErr /\ (forall l, cbuild [f1; Build_frag K 0 2 1 0 one1 one1 one1 one1] <> Ret l) /\
  (forall l, build K ivr half ceig ckm (Build_mfd K 1 2 1 2 (moea K cm) (moeb K cm) true 5) [f1] <> Ret l) /\
  (exists l, cbuild [f1; f2] = Ret l /\ length l = 2).
Proof.
  split; [apply C71_no_excitations; reflexivity|]. split; [intros l; eapply C71_empty_cluster; [right; left; reflexivity|reflexivity]|].
  split; [intros l; apply C71_linear_dependence; [reflexivity|cbn; lia..]|].
  destruct (C71_returns K ivr half ceig ckm cm [f1; f2] (mm 4 (stack K cm [f1; f2]) cM)) as (l & A & B); [reflexivity|reflexivity|discriminate| |reflexivity|exists l; auto].
  intros f [<-|[<-|[]]]; discriminate.
Qed.
End Cases.
Print Assumptions C71_rotation.
Print Assumptions C71_moment.
Print Assumptions C71_conserved.
Print Assumptions C71_rpa.
Print Assumptions C71_symmetric.
Print Assumptions C71_complete.
Print Assumptions C71_uncorrelated.
Print Assumptions C71_orbitals.
Print Assumptions C71_spin.
Print Assumptions C71_replaced.
Print Assumptions C71_permutations.
Print Assumptions C71_unscreened.
Print Assumptions C71_spin_average.
Print Assumptions C71_restore.
Print Assumptions C71_screened_ccsd.
Print Assumptions C71_restore_twice.
Print Assumptions C71_energy.
Print Assumptions C71_cumulant.
Print Assumptions C71_returns.
Print Assumptions C71_no_excitations.
Print Assumptions C71_empty_cluster.
Print Assumptions C71_linear_dependence.
Print Assumptions C71_inplace_refuted.
Print Assumptions C71_restore_twice_refuted.
