(** Property C37: reorderings of atoms and orbitals are permutations with the right inverse; acting with an operation and
    its inverse changes nothing. *)
From Coq Require Import List Arith Lia Bool FinFun Ring ZArith.
From Verif Require Import Alg Ord M_Symop.
Import ListNotations.

(** The arrays [r] and [i] are permutations of 0..n-1, inverse to each other. *)
Definition inverse_perms (n : nat) (r i : nat -> option nat) : Prop :=
  (forall a, a < n -> exists b, b < n /\ i a = Some b /\ r b = Some a) /\
  (forall b, b < n -> exists a, a < n /\ r b = Some a /\ i a = Some b).

Lemma all_below_spec p : forall n, all_below n p = true <-> forall k, k < n -> p k = true.
Proof.
  induction n as [|n IH]; simpl; [split; auto; intros; lia|]. rewrite andb_true_iff, IH. split.
  - intros [H1 H2] k Hk. destruct (Nat.eq_dec k n); [subst; auto|apply H1; lia].
  - intros H. split; [intros; apply H; lia|apply H; lia].
Qed.

(** An injective map of 0..n-1 to itself hits everything. *)
Lemma inj_surj n (f : nat -> nat) : (forall a, a < n -> f a < n) -> (forall a b, a < n -> b < n -> f a = f b -> a = b) ->
  forall b, b < n -> exists a, a < n /\ f a = b.
Proof.
  intros H1 H2. destruct (bInjective_bSurjective (n := n) (f := f)) as [G _].
  - exact H1.
  - intros b Hb. destruct (G H2 b Hb) as (a & Ha & E). eauto.
Qed.

(** The asserts are enough for [inverse_perms]. *)
Lemma checks_inverse n r i : (forall k a, k < n -> i k = Some a -> a < n) ->
  all_below n (fun k => match i k with Some b => match r b with Some a => Nat.eqb a k | None => false end | None => false end) = true ->
  inverse_perms n r i.
Proof.
  intros Hr H. rewrite all_below_spec in H.
  assert (G : forall a, a < n -> exists b, b < n /\ i a = Some b /\ r b = Some a).
  { intros a Ha. specialize (H a Ha). destruct (i a) as [b|] eqn:E; [|discriminate]. destruct (r b) as [c|] eqn:Er; [|discriminate].
    apply Nat.eqb_eq in H. subst c. exists b. repeat split; auto. eapply Hr; eauto. }
  split; auto. intros b Hb.
  destruct (inj_surj n (fun a => match i a with Some b => b | None => 0 end)) with (b := b) as (a & Ha & E); auto.
  - intros a Ha. destruct (G a Ha) as (c & Hc & -> & _). auto.
  - intros a c Ha Hc E. destruct (G a Ha) as (x & Hx & E1 & E2). destruct (G c Hc) as (y & Hy & E3 & E4).
    rewrite E1, E3 in E. subst y. congruence.
  - exists a. destruct (G a Ha) as (c & Hc & E1 & E2). rewrite E1 in E. subst c. auto.
Qed.

(** ** Atoms *)
Section A.
Variable natom : nat.
Variable image : nat -> option nat.
Hypothesis image_lt : forall a b, a < natom -> image a = Some b -> b < natom.

Lemma assign_spec : forall k, k <= natom -> let '(ok, r, i) := assign image k in
  (ok = true <-> forall a, a < k -> image a <> None) /\
  (forall a, a < k -> i a = image a) /\ (forall a, k <= a -> i a = None) /\
  (forall b a, r b = Some a -> a < k /\ image a = Some b) /\
  (forall a b, a < k -> image a = Some b -> exists c, r b = Some c).
Proof.
  induction k as [|k IH]; intros Hk; simpl.
  - repeat split; auto; try lia; try discriminate; intros; lia.
  - specialize (IH ltac:(lia)). destruct (assign image k) as [[ok r] i]. destruct IH as (I1 & I2 & I3 & I4 & I5).
    destruct (image k) as [b|] eqn:E.
    + repeat split.
      * intros -> a Ha. destruct (Nat.eq_dec a k); [subst; congruence|apply I1; auto; lia].
      * intros H. apply I1. intros a Ha. apply H. lia.
      * intros a Ha. unfold upd. destruct (Nat.eqb_spec a k); [subst; auto|apply I2; lia].
      * intros a Ha. unfold upd. destruct (Nat.eqb_spec a k); [lia|apply I3; lia].
      * unfold upd in H. destruct (Nat.eqb_spec b0 b); [injection H as <-; lia|]. apply I4 in H. lia.
      * unfold upd in H. destruct (Nat.eqb_spec b0 b); [injection H as <-; congruence|]. apply I4 in H. tauto.
      * intros a c Ha Hc. unfold upd. destruct (Nat.eqb_spec c b); eauto. apply (I5 a); auto.
        destruct (Nat.eq_dec a k); [subst; congruence|lia].
    + repeat split.
      * discriminate.
      * intros H. exfalso. apply (H k); auto; lia.
      * intros a Ha. destruct (Nat.eq_dec a k); [subst; rewrite E; apply I3; lia|apply I2; lia].
      * intros a Ha. apply I3. lia.
      * apply I4 in H. lia.
      * apply I4 in H. tauto.
      * intros a c Ha Hc. apply (I5 a); auto. destruct (Nat.eq_dec a k); [subst; congruence|lia].
Qed.

(** An accepted operation: both lists are permutations, inverse to each other, and the second list is the map of the atoms. *)
Theorem C37_atoms : forall r i, get_atom_reorder natom image = ROk r i ->
  inverse_perms natom r i /\ forall a, a < natom -> i a = image a.
Proof.
  intros r i. unfold get_atom_reorder. pose proof (assign_spec natom (le_n _)) as S.
  destruct (assign image natom) as [[ok r'] i']. destruct S as (S1 & S2 & S3 & S4 & S5).
  destruct ok; [|discriminate]. simpl negb. cbv iota.
  destruct (all_below natom (fun k => is_some (r' k)) && all_below natom (fun k => is_some (i' k)) && _) eqn:E; [|discriminate].
  intros H. injection H as <- <-. apply andb_true_iff in E. destruct E as [_ E]. split; auto.
  apply checks_inverse; auto. intros k a Hk Ha. rewrite S2 in Ha by auto. eauto.
Qed.

(** An operation is rejected (None, an error for the caller) exactly if some atom has no symmetry related atom, and the
    assertion fails exactly if two atoms are mapped to the same atom. *)
Theorem C37_rejected : get_atom_reorder natom image = RNone <-> exists a, a < natom /\ image a = None.
Proof.
  unfold get_atom_reorder. pose proof (assign_spec natom (le_n _)) as S.
  destruct (assign image natom) as [[ok r'] i']. destruct S as (S1 & _).
  assert (D : (forall a, a < natom -> image a <> None) \/ exists a, a < natom /\ image a = None).
  { clear. induction natom as [|n IH]; [left; intros; lia|]. destruct IH as [IH|(a & Ha & E)]; [|right; exists a; split; auto; lia].
    destruct (image n) eqn:E; [left|right; exists n; split; auto; lia].
    intros a Ha. destruct (Nat.eq_dec a n); [subst; congruence|apply IH; lia]. }
  destruct ok.
  - split; [destruct (_ && _ && _); discriminate|]. intros (a & Ha & E). exfalso. eapply S1; eauto.
  - split; auto. intros _. destruct D as [D|D]; auto. apply S1 in D. discriminate.
Qed.

Theorem C37_collision : get_atom_reorder natom image = RAssertion <->
  (forall a, a < natom -> image a <> None) /\ exists a b, a < b /\ b < natom /\ image a = image b.
Proof.
  destruct (get_atom_reorder natom image) as [| |r i] eqn:G.
  - split; [discriminate|]. intros [H _]. apply C37_rejected in G. destruct G as (a & Ha & E). exfalso. eapply H; eauto.
  - split; auto. intros _.
    assert (NN : forall a, a < natom -> image a <> None).
    { intros a Ha E. assert (X : get_atom_reorder natom image = RNone) by (apply C37_rejected; eauto). congruence. }
    split; auto.
    (* otherwise the map is injective and the checks pass *)
    assert (D : (exists a b, a < b /\ b < natom /\ image a = image b) \/ forall a b, a < b -> b < natom -> image a <> image b).
    { clear. induction natom as [|n IH]; [right; intros; lia|].
      destruct IH as [(a & b & H1 & H2 & H3)|IH]; [left; exists a, b; repeat split; auto; lia|].
      assert (D : (exists a, a < n /\ image a = image n) \/ forall a, a < n -> image a <> image n).
      { clear. generalize (image n) as y. induction n as [|m IH]; intros y; [right; intros; lia|].
        destruct (IH y) as [(a & Ha & E)|H]; [left; exists a; split; auto; lia|].
        assert (Dy : {image m = y} + {image m <> y}) by (decide equality; apply Nat.eq_dec).
        destruct Dy; [left; exists m; split; auto; lia|right]. intros a Ha. destruct (Nat.eq_dec a m); [subst; auto|apply H; lia]. }
      destruct D as [(a & Ha & E)|D]; [left; exists a, n; repeat split; auto|].
      right. intros a b Hab Hb. destruct (Nat.eq_dec b n); [subst; auto|apply IH; lia]. }
    destruct D as [D|D]; auto. exfalso.
    unfold get_atom_reorder in G. pose proof (assign_spec natom (le_n _)) as S.
    destruct (assign image natom) as [[ok r'] i']. destruct S as (S1 & S2 & S3 & S4 & S5).
    rewrite (proj2 S1) in G by auto. simpl negb in G. cbv iota in G.
    set (f := fun a => match image a with Some b => b | None => 0 end).
    assert (F : forall a, a < natom -> image a = Some (f a)).
    { intros a Ha. unfold f. destruct (image a) eqn:E; auto. exfalso. eapply NN; eauto. }
    assert (Inj : forall a b, a < natom -> b < natom -> f a = f b -> a = b).
    { intros a b Ha Hb E. destruct (lt_eq_lt_dec a b) as [[H| ]|H]; auto; exfalso.
      - apply (D a b H Hb). rewrite !F; auto; congruence.
      - apply (D b a H Ha). rewrite !F; auto; congruence. }
    assert (R : forall a, a < natom -> r' (f a) = Some a).
    { intros a Ha. destruct (S5 a (f a) Ha (F a Ha)) as (c & Hc). rewrite Hc. f_equal.
      destruct (S4 _ _ Hc) as [Hc1 Hc2]. apply Inj; auto. rewrite F in Hc2 by auto. congruence. }
    assert (C : all_below natom (fun k => is_some (r' k)) && all_below natom (fun k => is_some (i' k)) &&
       all_below natom (fun k => match i' k with Some b => match r' b with Some a => a =? k | None => false end | None => false end) = true).
    { rewrite !andb_true_iff, !all_below_spec. repeat split.
      - intros b Hb. destruct (inj_surj natom f) with (b := b) as (a & Ha & <-); auto.
        + intros a Ha. eapply image_lt; eauto.
        + rewrite R by auto. reflexivity.
      - intros k Hk. rewrite S2, F by auto. reflexivity.
      - intros k Hk. rewrite S2, F, R by auto. apply Nat.eqb_refl. }
    rewrite C in G. discriminate.
  - split; [discriminate|]. intros [_ (a & b & H1 & H2 & E)]. exfalso.
    destruct (C37_atoms r i G) as [[P1 _] P2].
    destruct (P1 a) as (x & X1 & X2 & X3); [lia|]. destruct (P1 b H2) as (y & Y1 & Y2 & Y3).
    rewrite P2 in X2, Y2 by lia. rewrite E in X2. assert (x = y) by congruence. subst y. assert (a = b) by congruence. lia.
Qed.
End A.

(** ** Closest atoms *)
Section M.
Context (R : oring).
Add Ring Rr : (rth R).
Variable pt : Type.
Variable dist : pt -> pt -> R.
Variable coord : nat -> pt.

Lemma argmin_le (f : nat -> R) : forall n, argmin f n <= n /\ forall k, k <= n -> le (f (argmin f n)) (f k).
Proof.
  induction n as [|n [I1 I2]]; simpl.
  - split; auto. intros k Hk. replace k with 0 by lia. apply le_refl.
  - destruct (ltb (f (S n)) (f (argmin f n))) eqn:E.
    + split; auto. intros k Hk. destruct (Nat.eq_dec k (S n)); [subst; apply le_refl|].
      eapply le_tr; [apply lt_le; exact E|]. apply I2. lia.
    + split; [lia|]. intros k Hk. destruct (Nat.eq_dec k (S n)); [|apply I2; lia]. subst. apply le_nlt. unfold lt. congruence.
Qed.

Lemma op_image_spec n xtol compare op a b : op_image dist coord n xtol compare op a = Some b <->
  b = argmin (fun k => dist (coord k) (op (coord a))) n /\ le (dist (coord b) (op (coord a))) xtol /\ compare a b = true.
Proof.
  unfold op_image, get_closest_atom. cbv beta iota zeta. set (c := argmin _ n). destruct (ltb xtol (dist (coord c) (op (coord a)))) eqn:E1.
  - split; [discriminate|]. intros (-> & H & _). exfalso. apply le_nlt in H. apply H. exact E1.
  - destruct (compare a c) eqn:E2.
    + split; [intros H; injection H as <-; repeat split; auto; apply le_nlt; unfold lt; congruence|]. intros (-> & _). auto.
    + split; [discriminate|]. intros (-> & _ & H). congruence.
Qed.

Hypothesis dist_sym : forall x y, dist x y = dist y x.
Hypothesis dist_tri : forall x y z, le (dist x z) (dist x y + dist y z)%K.
Variables (n : nat) (xtol : R).
(** Atoms are further apart than twice the tolerance. *)
Hypothesis apart : forall a b, a <= n -> b <= n -> a <> b -> lt (xtol + xtol)%K (dist (coord a) (coord b)).
Variable compare : nat -> nat -> bool.
Hypothesis compare_sym : forall a b, compare a b = compare b a.
Variables op inv : pt -> pt.
Hypothesis isometry : forall x y, dist (inv x) (inv y) = dist x y.
Hypothesis inv_op : forall x, inv (op x) = x.

Lemma le_add2 (a b c d : R) : le a b -> le c d -> le (a + c)%K (b + d)%K.
Proof.
  intros H1 H2. eapply le_tr; [apply le_add; exact H1|]. replace (b + c)%K with (c + b)%K by ring.
  replace (b + d)%K with (d + b)%K by ring. now apply le_add.
Qed.

Lemma image_inverse a b : a <= n -> op_image dist coord n xtol compare op a = Some b ->
  b <= n /\ op_image dist coord n xtol compare inv b = Some a.
Proof.
  intros Ha H. rewrite op_image_spec in *.
  set (d1 := fun k => dist (coord k) (op (coord a))) in *. set (d2 := fun k => dist (coord k) (inv (coord b))).
  destruct (argmin_le d1 n) as [A1 A2]. destruct (argmin_le d2 n) as [B1 B2].
  destruct H as (Hb & L1 & Hc). split; [lia|]. fold (d1 b) in L1. fold (d2 a).
  assert (L2 : d2 a = d1 b).
  { unfold d2, d1. rewrite <- (inv_op (coord a)) at 1. rewrite isometry, dist_sym. reflexivity. }
  assert (L3 : le (d2 (argmin d2 n)) xtol) by (eapply le_tr; [apply B2; exact Ha|]; rewrite L2; auto).
  assert (E : argmin d2 n = a).
  { destruct (Nat.eq_dec (argmin d2 n) a); auto. exfalso. assert (P := apart (argmin d2 n) a B1 Ha n0).
    apply lt_nle in P. apply P. eapply le_tr; [apply (dist_tri _ (inv (coord b)))|]. apply le_add2; auto.
    rewrite dist_sym. change (le (d2 a) xtol). rewrite L2. auto. }
  repeat split; auto.
  - rewrite L2. auto.
  - rewrite compare_sym. auto.
Qed.

Lemma image_lt op' a b : op_image dist coord n xtol compare op' a = Some b -> b < S n.
Proof.
  intros H. apply op_image_spec in H. destruct H as (-> & _). destruct (argmin_le (fun k => dist (coord k) (op' (coord a))) n). lia.
Qed.

(** If an operation is accepted, so is its inverse, and the lists of the inverse are those of the operation exchanged. *)
Theorem C37_inverse_operation : forall r i, get_atom_reorder (S n) (op_image dist coord n xtol compare op) = ROk r i ->
  exists r' i', get_atom_reorder (S n) (op_image dist coord n xtol compare inv) = ROk r' i'
  /\ forall a, a < S n -> r' a = i a /\ i' a = r a.
Proof.
  intros r i G. destruct (C37_atoms (S n) _ (fun a b _ => image_lt op a b) r i G) as [[P1 P2] P3].
  assert (I : forall b, b < S n -> op_image dist coord n xtol compare inv b = r b).
  { intros b Hb. destruct (P2 b Hb) as (a & Ha & E1 & E2). rewrite P3 in E2 by auto.
    apply image_inverse in E2; [|lia]. rewrite E1. tauto. }
  destruct (get_atom_reorder (S n) (op_image dist coord n xtol compare inv)) as [| |r' i'] eqn:G'.
  - exfalso. apply C37_rejected in G'. destruct G' as (b & Hb & E). rewrite I in E by auto.
    destruct (P2 b Hb) as (a & _ & E1 & _). congruence.
  - exfalso. apply C37_collision in G'; [|intros a b _; apply image_lt]. destruct G' as [_ (x & y & H1 & H2 & E)].
    rewrite !I in E by lia. destruct (P2 x) as (a & Ha & E1 & E2); [lia|]. destruct (P2 y H2) as (b & Hb & E3 & E4).
    assert (a = b) by congruence. subst b. assert (x = y) by congruence. lia.
  - exists r', i'. split; auto. destruct (C37_atoms (S n) _ (fun a b _ => image_lt inv a b) r' i' G') as [[Q1 Q2] Q3].
    assert (Ei : forall a, a < S n -> i' a = r a) by (intros a Ha; rewrite Q3, I; auto).
    intros a Ha. split; auto. destruct (P1 a Ha) as (b & Hb & E1 & E2).
    destruct (Q1 b Hb) as (c & Hc & E3 & E4). rewrite Ei in E3 by auto. assert (c = a) by congruence. subst c. congruence.
Qed.
End M.

(** ** Orbitals *)
Section B.
Variable natom : nat.
Variable sz : nat -> nat.
Notation off := (off sz).

Lemma off_mono : forall b a, a <= b -> off a <= off b.
Proof. induction b as [|b IH]; intros a H; [replace a with 0 by lia; auto|]. destruct (Nat.eq_dec a (S b)); [subst; auto|]. specialize (IH a ltac:(lia)). simpl. lia. Qed.

Lemma off_S a : off (S a) = off a + sz a.
Proof. reflexivity. Qed.

(** Every orbital belongs to exactly one atom. *)
Lemma ao_split : forall n j, j < off n -> exists a m, a < n /\ m < sz a /\ j = off a + m.
Proof.
  induction n as [|n IH]; intros j H; simpl in H; [lia|]. destruct (lt_dec j (off n)) as [L|L].
  - destruct (IH j L) as (a & m & H1 & H2 & H3). exists a, m. repeat split; auto.
  - exists n, (j - off n). repeat split; lia.
Qed.

Lemma ao_unique a m b k : m < sz a -> k < sz b -> off a + m = off b + k -> a = b /\ m = k.
Proof.
  intros H1 H2 E. destruct (lt_eq_lt_dec a b) as [[L|L]|L].
  - pose proof (off_mono b (S a) L). simpl in H. lia.
  - subst. split; lia.
  - pose proof (off_mono a (S b) L). simpl in H. lia.
Qed.

Lemma ao_lt a m n : a < n -> m < sz a -> off a + m < off n.
Proof. intros H1 H2. pose proof (off_mono n (S a) H1). simpl in H. lia. Qed.

Lemma upd_range_in {A} (f : nat -> A) a n g m : n = sz a -> m < sz a -> upd_range f (off a) n g (off a + m) = g m.
Proof.
  intros -> H. unfold upd_range. destruct (Nat.leb_spec (off a) (off a + m)); [|lia].
  destruct (Nat.ltb_spec (off a + m) (off a + sz a)); [|lia]. cbn [andb]. f_equal. lia.
Qed.

Lemma upd_range_out {A} (f : nat -> A) a b n g m : n = sz b -> m < sz a -> a <> b -> upd_range f (off b) n g (off a + m) = f (off a + m).
Proof.
  intros -> H Hab. unfold upd_range.
  destruct (Nat.leb_spec (off b) (off a + m)); auto. destruct (Nat.ltb_spec (off a + m) (off b + sz b)); auto. cbn [andb].
  exfalso. apply Hab. destruct (ao_unique a m b (off a + m - off b)); auto; lia.
Qed.

Variables r i : nat -> option nat.
Hypothesis perm : inverse_perms natom r i.
(** Related atoms have equally many orbitals, at least one. *)
Hypothesis same : forall a b, a < natom -> r a = Some b -> sz a = sz b /\ sz a <> 0.

Lemma ao_assign_spec : forall k, k <= natom -> exists ro io, ao_assign sz r k = Some (ro, io) /\
  (forall a b m, a < k -> r a = Some b -> m < sz a -> ro (off a + m) = Some (off b + m)) /\
  (forall a b m, a < k -> r a = Some b -> m < sz b -> io (off b + m) = Some (off a + m)).
Proof.
  induction k as [|k IH]; intros Hk.
  - do 2 eexists. split; [reflexivity|]. split; intros; lia.
  - destruct (IH ltac:(lia)) as (ro & io & E & H1 & H2). cbn [ao_assign]. rewrite E.
    destruct (proj2 perm k Hk) as (b & Hb & E1 & E2). rewrite E1. destruct (same k b Hk E1) as [S1 S2].
    destruct (Nat.eqb_spec (sz k) 0); [lia|]. destruct (Nat.eqb_spec (sz k) (sz b)); [|lia]. cbn [orb negb].
    do 2 eexists. split; [reflexivity|]. split.
    + intros a c m Ha Hc Hm. destruct (Nat.eq_dec a k) as [->|Hak].
      * rewrite upd_range_in by auto. assert (c = b) by congruence. subst. reflexivity.
      * rewrite upd_range_out by auto. apply H1; auto. lia.
    + intros a c m Ha Hc Hm. destruct (Nat.eq_dec a k) as [->|Hak].
      * assert (c = b) by congruence. subst c. rewrite upd_range_in by (auto; lia). reflexivity.
      * rewrite upd_range_out; auto; [apply H2; auto; lia|].
        intros ->. destruct (proj2 perm a) as (x & _ & X1 & X2); [lia|]. rewrite Hc in X1. injection X1 as <-.
        apply Hak. congruence.
Qed.

(** The reordering of orbitals exists; it moves the orbitals of each atom in order to those of the related atom, and its
    inverse is the inverse permutation. *)
Theorem C37_aos : exists ro io, get_ao_reorder natom sz r = AOk ro io /\ inverse_perms (off natom) ro io /\
  forall a b m, a < natom -> r a = Some b -> m < sz a -> ro (off a + m) = Some (off b + m).
Proof.
  destruct (ao_assign_spec natom (le_n _)) as (ro & io & E & H1 & H2). unfold get_ao_reorder. rewrite E.
  assert (X : forall j, j < off natom -> exists a b m, a < natom /\ b < natom /\ m < sz a /\ m < sz b /\ r a = Some b /\ j = off a + m /\ ro j = Some (off b + m)).
  { intros j Hj. destruct (ao_split natom j Hj) as (a & m & Ha & Hm & ->). destruct (proj2 perm a Ha) as (b & Hb & E1 & _).
    destruct (same a b Ha E1). exists a, b, m. repeat split; auto; lia. }
  assert (Y : forall j, j < off natom -> exists a b m, a < natom /\ b < natom /\ m < sz a /\ m < sz b /\ r a = Some b /\ j = off b + m /\ io j = Some (off a + m)).
  { intros j Hj. destruct (ao_split natom j Hj) as (b & m & Hb & Hm & ->). destruct (proj1 perm b Hb) as (a & Ha & E1 & E2).
    destruct (same a b Ha E2). exists a, b, m. repeat split; auto; try lia. }
  assert (C : all_below (off natom) (fun k => is_some (ro k)) && all_below (off natom) (fun k => is_some (io k)) &&
    all_below (off natom) (fun k => match io k with Some b => match ro b with Some a => a =? k | None => false end | None => false end) = true).
  { rewrite !andb_true_iff, !all_below_spec. repeat split.
    - intros j Hj. destruct (X j Hj) as (a & b & m & _ & _ & _ & _ & _ & _ & ->). reflexivity.
    - intros j Hj. destruct (Y j Hj) as (a & b & m & _ & _ & _ & _ & _ & _ & ->). reflexivity.
    - intros j Hj. destruct (Y j Hj) as (a & b & m & Ha & Hb & Hm & Hm' & Hr & Ej & Eo). rewrite Eo.
      rewrite (H1 a b m) by auto. subst j. apply Nat.eqb_refl. }
  rewrite C. exists ro, io. repeat split; auto.
  - intros j Hj. destruct (Y j Hj) as (a & b & m & Ha & Hb & Hm & Hm' & Hr & Ej & Eo). exists (off a + m). repeat split; auto.
    + now apply ao_lt.
    + rewrite (H1 a b m) by auto. congruence.
  - intros j Hj. destruct (X j Hj) as (a & b & m & Ha & Hb & Hm & Hm' & Hr & Ej & Eo). exists (off b + m). repeat split; auto.
    + now apply ao_lt.
    + rewrite (H2 a b m) by auto. congruence.
Qed.
End B.

(** ** Action on coefficients *)
Section C.
Context (K : cring).
Add Ring Kr : (rth K).
Open Scope K_scope.
Variable nl : nat -> nat.

Definition sizes_ok (bas : list (nat * nat)) : Prop :=
  forall l s, In (l, s) bas -> l <> 0%nat -> (nl l <> 0 /\ s mod nl l = 0)%nat.
Definition total (bas : list (nat * nat)) : nat := fold_right (fun p s => (snd p + s)%nat) 0%nat bas.

Lemma rotate_shift rot : forall bas start (v w : nat -> K) j k, (j >= start)%nat ->
  (forall x, v (start + x)%nat = w (k + x)%nat) -> sizes_ok bas ->
  rotate nl rot bas start v j = rotate nl rot bas k w (k + (j - start)).
Proof.
  induction bas as [|[l s] bas IH]; intros start v w j k Hj H Hs; cbn [rotate].
  - rewrite <- H. f_equal. lia.
  - destruct (Nat.ltb_spec j (start + s)); destruct (Nat.ltb_spec (k + (j - start)) (k + s)); try lia.
    + destruct (Nat.eqb l 0).
      * rewrite <- H. f_equal. lia.
      * replace (k + (j - start) - k)%nat with (j - start)%nat by lia. apply Sum_ext. intros x Hx.
        f_equal. rewrite <- !Nat.add_assoc, H. reflexivity.
    + rewrite (IH (start + s)%nat v w j (k + s)%nat).
      * f_equal. lia.
      * lia.
      * intros x. rewrite <- !Nat.add_assoc. apply H.
      * intros l' s' Hin. apply Hs. simpl. auto.
Qed.

(** Only the functions of the same list of shells are combined. *)
Lemma rotate_local rot : forall bas start (v w : nat -> K) j, (start <= j < start + total bas)%nat -> sizes_ok bas ->
  (forall x, (start <= x < start + total bas)%nat -> v x = w x) ->
  rotate nl rot bas start v j = rotate nl rot bas start w j.
Proof.
  induction bas as [|[l s] bas IH]; intros start v w j Hj Hs H; cbn [rotate total fold_right snd] in *; [lia|].
  fold (total bas) in *.
  destruct (Nat.ltb_spec j (start + s)).
  - destruct (Nat.eqb_spec l 0); [apply H; lia|]. destruct (Hs l s (or_introl eq_refl) n) as [N1 N2]. apply Sum_ext. intros x Hx.
    f_equal. apply H. split; [lia|].
    assert (Es : (s = nl l * (s / nl l))%nat) by (apply Nat.div_exact; auto).
    assert (Q : ((j - start) / nl l < s / nl l)%nat).
    { apply Nat.div_lt_upper_bound; auto. rewrite <- Es. lia. }
    assert (((j - start) / nl l + 1) * nl l <= s)%nat; [|nia]. rewrite Es. nia.
  - apply IH; [lia| |].
    + intros l' s' Hin. apply Hs. simpl. auto.
    + intros x Hx. apply H. lia.
Qed.

Lemma rotate_app rot : forall b1 b2 start (v : nat -> K) j, (start <= j)%nat -> rotate nl rot (b1 ++ b2) start v j =
  if Nat.ltb j (start + total b1) then rotate nl rot b1 start v j else rotate nl rot b2 (start + total b1) v j.
Proof.
  induction b1 as [|[l s] b1 IH]; intros b2 start v j Hj; cbn [app rotate total fold_right snd].
  - rewrite Nat.add_0_r. destruct (Nat.ltb_spec j start); auto. lia.
  - fold (total b1). destruct (Nat.ltb_spec j (start + s)).
    + destruct (Nat.ltb_spec j (start + (s + total b1))); [reflexivity|lia].
    + rewrite IH by auto. rewrite Nat.add_assoc. reflexivity.
Qed.

(** Rotating with [rot1] and then [rot2] is rotating with the product. *)
Lemma rotate_compose rot1 rot2 : forall bas start (v : nat -> K) j, (start <= j < start + total bas)%nat -> sizes_ok bas ->
  rotate nl rot2 bas start (rotate nl rot1 bas start v) j
  = rotate nl (fun l x z => Sum (nl l) (fun y => rot1 l x y * rot2 l y z)) bas start v j.
Proof.
  induction bas as [|[l s] bas IH]; intros start v j Hj Hs; cbn [total fold_right snd] in Hj; [simpl in Hj; lia|].
  fold (total bas) in Hj. assert (Hs' : sizes_ok bas) by (intros l' s' Hin; apply Hs; simpl; auto).
  cbn [rotate]. destruct (Nat.ltb_spec j (start + s)).
  - destruct (Nat.eqb_spec l 0).
    + destruct (Nat.ltb_spec j (start + s)); [|lia]. subst. reflexivity.
    + destruct (Hs l s (or_introl eq_refl) n) as [N1 N2].
      assert (Es : (s = nl l * (s / nl l))%nat) by (apply Nat.div_exact; auto).
      assert (Q : ((j - start) / nl l < s / nl l)%nat).
      { apply Nat.div_lt_upper_bound; auto. rewrite <- Es. lia. }
      set (k := ((j - start) / nl l)%nat) in *.
      rewrite (Sum_ext _ _ (fun y => Sum (nl l) (fun x => v (start + k * nl l + x)%nat * rot1 l x y) * rot2 l y ((j - start) mod nl l)%nat)).
      2:{ intros y Hy. destruct (Nat.ltb_spec (start + k * nl l + y) (start + s)).
          - replace (start + k * nl l + y - start)%nat with (k * nl l + y)%nat by lia.
            rewrite (Nat.add_comm (k * nl l) y), Nat.div_add, Nat.mod_add by auto.
            rewrite (Nat.div_small y), (Nat.mod_small y) by auto. reflexivity.
          - exfalso. nia. }
      rewrite (Sum_ext _ _ (fun y => Sum (nl l) (fun x => v (start + k * nl l + x)%nat * rot1 l x y * rot2 l y ((j - start) mod nl l)%nat))).
      2:{ intros y Hy. symmetry. apply Sum_mul_r. }
      rewrite Sum_swap. apply Sum_ext. intros x Hx. rewrite <- Sum_mul_l. apply Sum_ext. intros y Hy. ring.
  - rewrite <- IH by (auto; lia). apply rotate_local; auto; [lia|].
    intros x Hx. destruct (Nat.ltb_spec x (start + s)); [lia|]. reflexivity.
Qed.

Lemma rotate_id rot : (forall l x y, l <> 0%nat -> (x < nl l)%nat -> (y < nl l)%nat -> rot l x y = delta x y) ->
  forall bas start (v : nat -> K) j, (start <= j)%nat -> sizes_ok bas -> rotate nl rot bas start v j = v j.
Proof.
  intros H. induction bas as [|[l s] bas IH]; intros start v j Hj Hs; cbn [rotate]; auto.
  destruct (Nat.ltb_spec j (start + s)).
  - destruct (Nat.eqb_spec l 0); auto. destruct (Hs l s (or_introl eq_refl) n) as [N1 N2].
    assert (M : ((j - start) mod nl l < nl l)%nat) by (apply Nat.mod_upper_bound; auto).
    rewrite (Sum_ext _ _ (fun x => v (start + (j - start) / nl l * nl l + x)%nat * delta x ((j - start) mod nl l)%nat)).
    2:{ intros x Hx. rewrite H by auto. reflexivity. }
    rewrite Sum_delta_r by auto. f_equal. pose proof (Nat.div_mod (j - start) (nl l) N1). lia.
  - apply IH; [lia|]. intros l' s' Hin. apply Hs. simpl. auto.
Qed.
(** The shells of atom [a]; the shells of the molecule are those of all atoms in order. *)
Variable shells : nat -> list (nat * nat).
Hypothesis shells_ok : forall a, sizes_ok (shells a).
Definition sz (a : nat) : nat := total (shells a).
Definition bas (n : nat) : list (nat * nat) := flat_map shells (seq 0 n).

Lemma bas_S n : bas (S n) = bas n ++ shells n.
Proof. unfold bas. rewrite seq_S, flat_map_app. simpl. now rewrite app_nil_r. Qed.

Lemma total_app b1 b2 : total (b1 ++ b2) = (total b1 + total b2)%nat.
Proof. induction b1 as [|[l s] b1 IH]; simpl; auto. unfold total in *. rewrite IH. lia. Qed.

Lemma total_bas n : total (bas n) = off sz n.
Proof. induction n as [|n IH]; auto. rewrite bas_S, total_app, IH. reflexivity. Qed.

(** The rotation acts on every atom by itself. *)
Lemma rotate_atom rot (v : nat -> K) : forall n a m, (a < n)%nat -> (m < sz a)%nat ->
  rotate nl rot (bas n) 0 v (off sz a + m) = rotate nl rot (shells a) 0 (fun x => v (off sz a + x)%nat) m.
Proof.
  induction n as [|n IH]; intros a m Ha Hm; [lia|]. rewrite bas_S, rotate_app by lia. rewrite total_bas. cbn [Nat.add].
  destruct (Nat.ltb_spec (off sz a + m) (off sz n)).
  - apply IH; auto. destruct (Nat.eq_dec a n); [subst; lia|lia].
  - assert (a = n).
    { destruct (Nat.eq_dec a n); auto. pose proof (off_mono sz n (S a) ltac:(lia)). rewrite off_S in H0. lia. }
    subst a. rewrite (rotate_shift rot (shells n) (off sz n) v (fun x => v (off sz n + x)%nat) _ 0); [|lia|auto|auto].
    f_equal. lia.
Qed.

Variable natom : nat.
Variables rot roti : nat -> nat -> nat -> K.
(** The matrices of the inverse operation are the inverse matrices. *)
Hypothesis rot_inv : forall l x z, l <> 0%nat -> (x < nl l)%nat -> (z < nl l)%nat ->
  Sum (nl l) (fun y => rot l x y * roti l y z) = delta x z.
(** [ri], [ii]: lists of the operation and [rj], [ij] those of the inverse operation. *)
Variables r i : nat -> option nat.
Hypothesis perm : inverse_perms natom r i.
Hypothesis same_basis : forall a b, (a < natom)%nat -> r a = Some b -> shells a = shells b /\ total (shells a) <> 0%nat.

(** Acting with an accepted operation and then with its inverse (whose list is the inverse permutation) gives back all
    coefficients. *)
Theorem C37_action : exists ro io ro' io', get_ao_reorder natom sz r = AOk ro io /\ get_ao_reorder natom sz i = AOk ro' io' /\
  forall (v : nat -> K) j, (j < off sz natom)%nat ->
    apply_op nl roti (bas natom) ro' (apply_op nl rot (bas natom) ro v) j = v j.
Proof.
  assert (perm' : inverse_perms natom i r) by (destruct perm; split; auto).
  assert (same : forall a b, (a < natom)%nat -> r a = Some b -> sz a = sz b /\ sz a <> 0%nat).
  { intros a b Ha E. destruct (same_basis a b Ha E) as [E1 E2]. unfold sz. rewrite <- E1. auto. }
  assert (same' : forall a b, (a < natom)%nat -> i a = Some b -> sz a = sz b /\ sz a <> 0%nat).
  { intros a b Ha E. destruct (proj1 perm a Ha) as (c & Hc & E1 & E2). assert (c = b) by congruence. subst c.
    destruct (same b a Hc E2). split; congruence. }
  destruct (C37_aos natom sz r i perm same) as (ro & io & G & _ & Hro).
  destruct (C37_aos natom sz i r perm' same') as (ro' & io' & G' & _ & Hro').
  exists ro, io, ro', io'. split; auto. split; auto. intros v j Hj.
  destruct (ao_split sz natom j Hj) as (a & m & Ha & Hm & ->).
  destruct (proj1 perm a Ha) as (b & Hb & E1 & E2). destruct (same_basis b a Hb E2) as [Sb _]. destruct (same' a b Ha E1) as [Sz _].
  unfold apply_op at 1. rewrite rotate_atom by auto.
  rewrite (rotate_local roti (shells a) 0 _ (rotate nl rot (shells a) 0 (fun x => v (off sz a + x)%nat))).
  - rewrite rotate_compose by (auto; simpl; unfold sz in Hm; lia).
    rewrite rotate_id; auto; lia.
  - simpl. unfold sz in Hm. lia.
  - auto.
  - intros x Hx. unfold take at 1. rewrite (Hro' a b x) by (auto; unfold sz; lia).
    unfold apply_op. rewrite rotate_atom by (auto; rewrite <- Sz; unfold sz; lia). rewrite Sb.
    apply rotate_local; auto. intros y Hy. unfold take. rewrite (Hro b a y); auto. rewrite <- Sz. unfold sz. lia.
Qed.
End C.

(** An inversion or reflection applied twice does nothing: its own list is its inverse and the matrices (-1)^l are their own
    inverse. *)
Section I.
Context (K : cring).
Add Ring Ki : (rth K).
Theorem C37_inversion_matrices : forall (n l x z : nat), (x < n)%nat -> (z < n)%nat ->
  Sum n (fun y => inversion_rot l x y * inversion_rot l y z)%K = @delta K x z.
Proof.
  intros n l x z Hx Hz. unfold inversion_rot. destruct (Nat.even l).
  - apply (Sum_delta_l n x (fun y => delta y z)). auto.
  - rewrite (Sum_ext _ _ (fun y => delta x y * delta y z)%K).
    + apply (Sum_delta_l n x (fun y => delta y z)). auto.
    + intros y _. ring.
Qed.
End I.

(** ** Cases *)
(** Three atoms on a line at -2, 0, 2; the inversion exchanges the outer ones. *)
Definition ex_dist (x y : Z) : ZO := Z.abs (x - y).
Definition ex_coord (a : nat) : Z := (match a with O => -2 | S O => 0 | _ => 2 end)%Z.
Definition ex_image := op_image (R := ZO) ex_dist ex_coord 2 (0%Z : ZO) (fun _ _ => true) Z.opp.

Example ex_atoms : exists r i, get_atom_reorder 3 ex_image = ROk r i /\ map r [0; 1; 2] = [Some 2; Some 1; Some 0].
Proof. do 2 eexists. split; [vm_compute; reflexivity|]. vm_compute. reflexivity. Qed.

Example ex_not_symmetric : get_atom_reorder 3 (op_image (R := ZO) ex_dist ex_coord 2 (0%Z : ZO) (fun _ _ => true) (fun x => x + 2)%Z) = RNone.
Proof. vm_compute. reflexivity. Qed.

(** With a tolerance as large as the distance between atoms an operation can map two atoms to one: the assertion fails. *)
Example ex_collision : get_atom_reorder 3 (op_image (R := ZO) ex_dist ex_coord 2 (2%Z : ZO) (fun _ _ => true) (fun x => x + 2)%Z) = RAssertion.
Proof. vm_compute. reflexivity. Qed.

Example ex_aos : exists r i, get_ao_reorder 3 (fun a => match a with 1 => 2 | _ => 1 end) (fun a => Some (2 - a)) = AOk r i
  /\ map r [0; 1; 2; 3] = [Some 3; Some 1; Some 2; Some 0].
Proof. do 2 eexists. split; [vm_compute; reflexivity|]. vm_compute. reflexivity. Qed.

Print Assumptions C37_atoms.
Print Assumptions C37_rejected.
Print Assumptions C37_collision.
Print Assumptions C37_inverse_operation.
Print Assumptions C37_aos.
Print Assumptions C37_action.
Print Assumptions C37_inversion_matrices.
