(** Properties C01 and C02: signed permutations and antisymmetric unpacking. *)
From Coq Require Import List Arith ZArith Bool Lia Permutation Sorted.
From Verif Require Import M_Perms.
Import ListNotations.

(** ** Specification *)

(** Number of inversions of an arrangement: pairs of positions [i < j] with a larger entry first.  This is
    independent of any construction of the permutation. *)
Fixpoint inversions (l : list nat) : nat :=
  match l with
  | [] => 0
  | x :: t => length (filter (fun y => y <? x) t) + inversions t
  end.

(** Parity sign. *)
Definition sgn (k : nat) : Z := if Nat.even k then 1%Z else (-1)%Z.

(** ** Lemmas on insertion *)

Lemma length_insert_at {A} k (x : A) l : k <= length l -> length (insert_at k x l) = S (length l).
Proof.
  intros H. unfold insert_at. rewrite !app_length, firstn_length, skipn_length. simpl. lia.
Qed.

Lemma insert_at_perm {A} k (x : A) l : Permutation (insert_at k x l) (x :: l).
Proof.
  unfold insert_at. change ([x] ++ skipn k l) with (x :: skipn k l).
  rewrite <- Permutation_middle, firstn_skipn. reflexivity.
Qed.

Lemma count_insert z k x l :
  length (filter (fun y => y <? z) (insert_at k x l))
  = length (filter (fun y => y <? z) l) + (if x <? z then 1 else 0).
Proof.
  assert (P : Permutation (filter (fun y => y <? z) (insert_at k x l)) (filter (fun y => y <? z) (x :: l))).
  { pose proof (insert_at_perm k x l) as H.
    induction H; simpl; try constructor.
    - destruct (x0 <? z); auto.
    - destruct (x0 <? z), (y <? z); try constructor; auto using Permutation_refl.
    - etransitivity; eassumption. }
  apply Permutation_length in P. rewrite P. simpl.
  destruct (x <? z); simpl; lia.
Qed.

Lemma filter_all {A} (f : A -> bool) l : (forall y, In y l -> f y = true) -> filter f l = l.
Proof.
  induction l; simpl; intros H; auto. rewrite H by auto. f_equal. apply IHl. auto.
Qed.

Lemma inversions_insert k x l :
  k <= length l -> (forall y, In y l -> y < x) ->
  inversions (insert_at k x l) = inversions l + (length l - k).
Proof.
  revert k. induction l as [|a l IH]; intros k Hk Hx.
  - destruct k; simpl in *; lia.
  - destruct k.
    + unfold insert_at. simpl firstn. simpl skipn. simpl app.
      change (inversions (x :: a :: l)) with
        (length (filter (fun y => y <? x) (a :: l)) + inversions (a :: l)).
      rewrite filter_all; [simpl; lia|].
      intros y Hy. apply Nat.ltb_lt. auto.
    + change (insert_at (S k) x (a :: l)) with (a :: insert_at k x l).
      cbn [inversions]. rewrite count_insert.
      assert (a < x) by (apply Hx; left; auto).
      replace (x <? a) with false by (symmetry; apply Nat.ltb_ge; lia).
      rewrite IH; simpl in *; try lia. intros; apply Hx; auto.
Qed.

(** ** Members of the enumeration *)

Lemma in_mapi_from {A B} (f : nat -> A -> B) l : forall i y,
  In y (mapi_from i f l) <-> exists j x, nth_error l j = Some x /\ y = f (i + j) x.
Proof.
  induction l as [|a l IH]; intros i y; simpl.
  - split; [tauto|]. intros (j & x & H & _). destruct j; discriminate.
  - rewrite IH. split.
    + intros [<-|(j & x & H & ->)].
      * exists 0, a. rewrite Nat.add_0_r. auto.
      * exists (S j), x. rewrite Nat.add_succ_r. auto.
    + intros (j & x & H & ->). destruct j; simpl in H.
      * injection H as ->. left. rewrite Nat.add_0_r. auto.
      * right. exists j, x. rewrite Nat.add_succ_r. auto.
Qed.

Lemma in_inds i n k : In k (inds i n) <-> k <= n.
Proof.
  unfold inds. destruct (Nat.even i).
  - rewrite <- in_rev, in_seq. lia.
  - rewrite in_seq. lia.
Qed.

Lemma in_step {A} (x : A) L item' :
  In item' (concat (mapi_from 0 (fun i item => map (fun k => insert_at k x item) (inds i (length item))) L))
  <-> exists item k, In item L /\ k <= length item /\ item' = insert_at k x item.
Proof.
  rewrite in_concat. split.
  - intros (blk & Hb & Hi). apply in_mapi_from in Hb. destruct Hb as (j & item & Hn & ->).
    apply in_map_iff in Hi. destruct Hi as (k & <- & Hk). apply in_inds in Hk.
    exists item, k. split; [eapply nth_error_In; eauto|auto].
  - intros (item & k & Hi & Hk & ->). apply In_nth_error in Hi. destruct Hi as (j & Hj).
    eexists. split.
    + apply in_mapi_from. exists j, item. split; eauto.
    + apply in_map_iff. exists k. split; auto. apply in_inds. auto.
Qed.

Lemma permutations_rev_in {A} (r : list A) item :
  In item (permutations_rev r) <-> Permutation item r.
Proof.
  revert item. induction r as [|x r IH]; intros item; simpl.
  - split.
    + intros [<-|[]]. constructor.
    + intros H. apply Permutation_sym, Permutation_nil in H. auto.
  - rewrite in_step. split.
    + intros (it & k & Hi & Hk & ->). rewrite insert_at_perm. constructor. apply IH. auto.
    + intros H.
      assert (Hin : In x item) by (eapply Permutation_in; [symmetry; eauto|left; auto]).
      apply in_split in Hin. destruct Hin as (l1 & l2 & ->).
      exists (l1 ++ l2), (length l1). split.
      * apply IH. apply Permutation_cons_inv with (a := x).
        rewrite <- H. apply Permutation_middle.
      * split; [rewrite app_length; lia|].
        unfold insert_at. rewrite firstn_app, skipn_app, firstn_all, skipn_all, Nat.sub_diag. simpl.
        rewrite app_nil_r. reflexivity.
Qed.

Lemma permutations_in {A} (s item : list A) : In item (permutations s) <-> Permutation item s.
Proof.
  unfold permutations. rewrite permutations_rev_in.
  split; intros H; rewrite H; [symmetry|]; apply Permutation_rev.
Qed.

(** ** Length *)

Lemma length_concat_const {A B} (f : nat -> A -> list B) n L : forall i,
  (forall j x, In x L -> length (f j x) = n) ->
  length (concat (mapi_from i f L)) = length L * n.
Proof.
  induction L as [|x L IH]; intros i H; simpl; auto.
  rewrite app_length, H, IH by auto with datatypes. lia.
Qed.

Lemma length_inds i n : length (inds i n) = S n.
Proof. unfold inds. destruct (Nat.even i); rewrite ?rev_length, seq_length; auto. Qed.

Lemma permutations_rev_length {A} (r : list A) : length (permutations_rev r) = fact (length r).
Proof.
  induction r as [|x r IH]; auto. cbn [permutations_rev length].
  rewrite length_concat_const with (n := S (length r)).
  - rewrite IH. simpl fact. lia.
  - intros j it H. apply permutations_rev_in in H. apply Permutation_length in H.
    rewrite map_length, length_inds. lia.
Qed.

Lemma permutations_length {A} (s : list A) : length (permutations s) = fact (length s).
Proof. unfold permutations. rewrite permutations_rev_length, rev_length. auto. Qed.

Lemma length_mapi_from {A B} (f : nat -> A -> B) l : forall i, length (mapi_from i f l) = length l.
Proof. induction l; simpl; auto. Qed.

(** ** No duplicates *)

Lemma insert_at_inj {A} (x : A) k k' l l' :
  k <= length l -> k' <= length l' -> ~ In x l -> ~ In x l' ->
  insert_at k x l = insert_at k' x l' -> k = k' /\ l = l'.
Proof.
  revert k k' l'. induction l as [|a l IH]; intros k k' l' Hk Hk' Hx Hx' E.
  - destruct k; [|simpl in Hk; lia]. unfold insert_at in E. simpl in E.
    destruct k'; simpl in E.
    + injection E as E. subst. auto.
    + destruct l' as [|b l']; simpl in *; [lia|]. injection E as <- E. exfalso. auto.
  - destruct k.
    + destruct k'; [unfold insert_at in E; simpl in E; injection E as E; subst; auto|].
      destruct l' as [|b l']; simpl in *; [lia|]. unfold insert_at in E. simpl in E.
      injection E as <- E. exfalso. auto.
    + destruct k'.
      * unfold insert_at in E. simpl in E. injection E as -> E. exfalso. apply Hx. left; auto.
      * destruct l' as [|b l']; [simpl in Hk'; lia|].
        change (insert_at (S k) x (a :: l)) with (a :: insert_at k x l) in E.
        change (insert_at (S k') x (b :: l')) with (b :: insert_at k' x l') in E.
        injection E as -> E. apply IH in E; simpl in *; try lia; try tauto.
        destruct E; subst; auto.
Qed.

Lemma NoDup_app_intro {A} (l1 l2 : list A) :
  NoDup l1 -> NoDup l2 -> (forall x, In x l1 -> In x l2 -> False) -> NoDup (l1 ++ l2).
Proof.
  induction 1; simpl; intros H2 H3; auto.
  constructor.
  - rewrite in_app_iff. intros [?|?]; [auto|eapply H3; eauto].
  - apply IHNoDup; auto. intros; eapply H3; eauto.
Qed.

Lemma NoDup_inds i n : NoDup (inds i n).
Proof. unfold inds. destruct (Nat.even i); [apply NoDup_rev|]; apply seq_NoDup. Qed.

Lemma NoDup_map_inj {A B} (f : A -> B) l :
  (forall x y, In x l -> In y l -> f x = f y -> x = y) -> NoDup l -> NoDup (map f l).
Proof.
  intros Hf H. induction H; simpl; constructor.
  - rewrite in_map_iff. intros (y & E & Hy). apply Hf in E; subst; auto with datatypes.
  - apply IHNoDup. intros; apply Hf; auto with datatypes.
Qed.

Lemma NoDup_step {A} (x : A) L : forall i,
  NoDup L -> (forall it, In it L -> ~ In x it) ->
  NoDup (concat (mapi_from i (fun i item => map (fun k => insert_at k x item) (inds i (length item))) L)).
Proof.
  induction L as [|it L IH]; intros i Hn Hx; simpl; [constructor|].
  inversion Hn; subst. apply NoDup_app_intro.
  - apply NoDup_map_inj; [|apply NoDup_inds].
    intros k k' Hk Hk' E. apply in_inds in Hk, Hk'.
    apply insert_at_inj in E; try tauto; auto with datatypes.
  - apply IH; auto with datatypes.
  - intros y Hy1 Hy2. apply in_map_iff in Hy1. destruct Hy1 as (k & <- & Hk). apply in_inds in Hk.
    apply in_concat in Hy2. destruct Hy2 as (blk & Hb & Hy).
    apply in_mapi_from in Hb. destruct Hb as (j & it' & Hj & ->).
    apply in_map_iff in Hy. destruct Hy as (k' & E & Hk'). apply in_inds in Hk'.
    apply nth_error_In in Hj.
    symmetry in E. apply insert_at_inj in E; try tauto; auto with datatypes.
    destruct E; subst. auto.
Qed.

Lemma permutations_rev_NoDup {A} (r : list A) : NoDup r -> NoDup (permutations_rev r).
Proof.
  induction 1; simpl.
  - repeat constructor. auto.
  - apply NoDup_step; auto. intros it Hi Hx. apply permutations_rev_in in Hi.
    apply H. eapply Permutation_in; eauto.
Qed.

Lemma permutations_NoDup {A} (s : list A) : NoDup s -> NoDup (permutations s).
Proof. intros. apply permutations_rev_NoDup, NoDup_rev. auto. Qed.

(** ** Signs *)

(** The list alternates in inversion parity, starting with parity [b] ([true] = even). *)
Fixpoint alternating (b : bool) (L : list (list nat)) : Prop :=
  match L with
  | [] => True
  | it :: L' => Nat.even (inversions it) = b /\ alternating (negb b) L'
  end.

Lemma alternating_app b L1 L2 :
  alternating b (L1 ++ L2) <-> alternating b L1 /\ alternating (xorb b (Nat.odd (length L1))) L2.
Proof.
  revert b. induction L1 as [|it L1 IH]; intros b; cbn [app length alternating].
  - cbn. rewrite xorb_false_r. tauto.
  - rewrite IH. rewrite Nat.odd_succ, <- (Nat.negb_odd (length L1)).
    replace (xorb (negb b) (Nat.odd (length L1))) with (xorb b (negb (Nat.odd (length L1))))
      by (destruct b, (Nat.odd (length L1)); auto).
    tauto.
Qed.

Lemma alternating_up it x m : forall a n,
  (forall y, In y it -> y < x) -> length it = m -> a + n = S m ->
  alternating (Nat.even (inversions it + (m - a))) (map (fun k => insert_at k x it) (seq a n)).
Proof.
  intros a n Hx Hm. revert a. induction n; intros a Ha; simpl; auto. split.
  - rewrite inversions_insert by (auto; lia). f_equal. lia.
  - destruct n; [simpl; auto|].
    replace (negb (Nat.even (inversions it + (m - a)))) with (Nat.even (inversions it + (m - S a))).
    { apply IHn. lia. }
    replace (inversions it + (m - a)) with (S (inversions it + (m - S a))) by lia.
    rewrite Nat.even_succ, Nat.negb_odd. auto.
Qed.

Lemma alternating_down it x m : forall n,
  (forall y, In y it -> y < x) -> length it = m -> n <= m ->
  alternating (Nat.even (inversions it + (m - n))) (map (fun k => insert_at k x it) (rev (seq 0 (S n)))).
Proof.
  intros n Hx Hm. induction n; intros Hn.
  - cbn [seq rev app map alternating]. rewrite inversions_insert by (auto; lia). rewrite Hm. auto.
  - rewrite seq_S, rev_app_distr, map_app. cbn [rev app map]. simpl (0 + S n). split.
    + rewrite inversions_insert by (auto; lia). f_equal. lia.
    + replace (negb (Nat.even (inversions it + (m - S n)))) with (Nat.even (inversions it + (m - n))).
      { apply IHn. lia. }
      replace (inversions it + (m - n)) with (S (inversions it + (m - S n))) by lia.
      rewrite Nat.even_succ, <- Nat.negb_even. auto.
Qed.

Lemma alternating_step x m L : forall i,
  (forall it, In it L -> length it = m /\ forall y, In y it -> y < x) ->
  alternating (Nat.even i) L ->
  alternating (Nat.even (i * S m))
    (concat (mapi_from i (fun i item => map (fun k => insert_at k x item) (inds i (length item))) L)).
Proof.
  induction L as [|it L IH]; intros i Hl Ha; simpl; auto.
  destruct Ha as [Hp Ha]. destruct (Hl it (or_introl eq_refl)) as [Hm Hx].
  rewrite alternating_app. split.
  - unfold inds. rewrite Hm. destruct (Nat.even i) eqn:Ei.
    + replace (Nat.even (i * S m)) with (Nat.even (inversions it + (m - m))).
      { apply alternating_down; auto. }
      rewrite Nat.sub_diag, Nat.add_0_r, Hp, Nat.even_mul, Ei. auto.
    + replace (Nat.even (i * S m)) with (Nat.even (inversions it + (m - 0))).
      { apply alternating_up; auto. }
      rewrite Nat.sub_0_r, Nat.even_add, Hp, Nat.even_mul, Ei, Nat.even_succ, <- Nat.negb_even.
      destruct (Nat.even m); auto.
  - rewrite map_length, length_inds, Hm.
    replace (xorb (Nat.even (i * S m)) (Nat.odd (S m))) with (Nat.even (S i * S m)).
    + apply IH; [intros; apply Hl; auto with datatypes|].
      rewrite Nat.even_succ, <- Nat.negb_even. auto.
    + rewrite !Nat.even_mul, !Nat.even_succ, Nat.odd_succ, <- !Nat.negb_even.
      destruct (Nat.even i), (Nat.even m); auto.
Qed.

Lemma alternating_permutations n : alternating true (permutations_rev (rev (seq 0 n))).
Proof.
  induction n; [simpl; auto|].
  rewrite seq_S, rev_app_distr. simpl (0 + n). cbn [rev app permutations_rev].
  change true with (Nat.even (0 * S n)). apply alternating_step; auto.
  intros it Hi. apply permutations_rev_in in Hi. split.
  - apply Permutation_length in Hi. rewrite Hi, rev_length, seq_length. auto.
  - intros y Hy. eapply Permutation_in in Hy; [|exact Hi]. apply in_rev in Hy.
    rewrite in_seq in Hy. lia.
Qed.

Lemma alternating_nth L : forall b j it, alternating b L -> nth_error L j = Some it ->
  Nat.even (inversions it) = xorb b (Nat.odd j).
Proof.
  induction L as [|a L IH]; intros b j it Ha Hj; [destruct j; discriminate|].
  destruct Ha as [Hp Ha]. destruct j; simpl in Hj.
  - injection Hj as ->. simpl. rewrite xorb_false_r. auto.
  - erewrite IH by eauto. rewrite Nat.odd_succ, <- Nat.negb_odd.
    destruct b, (Nat.odd j); auto.
Qed.

Lemma nth_error_mapi_from {A B} (f : nat -> A -> B) l : forall i j,
  nth_error (mapi_from i f l) j = option_map (f (i + j)) (nth_error l j).
Proof.
  induction l; intros i j; destruct j; simpl; auto.
  - rewrite Nat.add_0_r. auto.
  - rewrite IHl. replace (S i + j) with (i + S j) by lia. auto.
Qed.

(** ** Naturality: the enumeration of any sequence is the enumeration of its positions. *)

Lemma map_insert_at {A B} (f : A -> B) k x l : map f (insert_at k x l) = insert_at k (f x) (map f l).
Proof.
  unfold insert_at. rewrite !map_app, firstn_map, skipn_map. reflexivity.
Qed.

Lemma mapi_from_map {A B C} (f : nat -> B -> C) (g : A -> B) l : forall i,
  mapi_from i f (map g l) = mapi_from i (fun j x => f j (g x)) l.
Proof. induction l; intros i; simpl; auto. f_equal; auto. Qed.

Lemma map_concat_mapi {A B C} (g : B -> C) (f : nat -> A -> list B) l : forall i,
  map g (concat (mapi_from i f l)) = concat (mapi_from i (fun j x => map g (f j x)) l).
Proof. induction l; intros i; simpl; auto. rewrite map_app. f_equal; auto. Qed.

Lemma mapi_from_ext {A B} (f g : nat -> A -> B) l : (forall i x, f i x = g i x) ->
  forall i, mapi_from i f l = mapi_from i g l.
Proof. intros H. induction l; intros i; simpl; auto. f_equal; auto. Qed.

Lemma permutations_rev_map {A B} (f : A -> B) r :
  permutations_rev (map f r) = map (map f) (permutations_rev r).
Proof.
  induction r as [|x r IH]; simpl; auto.
  rewrite IH, mapi_from_map, map_concat_mapi. f_equal. apply mapi_from_ext.
  intros i it. rewrite map_length, map_map. apply map_ext. intros k.
  rewrite map_insert_at. reflexivity.
Qed.

Lemma permutations_map {A B} (f : A -> B) s : permutations (map f s) = map (map f) (permutations s).
Proof. unfold permutations. rewrite <- map_rev. apply permutations_rev_map. Qed.

Lemma map_mapi_from {A B C} (g : B -> C) (f : nat -> A -> B) l : forall i,
  map g (mapi_from i f l) = mapi_from i (fun j x => g (f j x)) l.
Proof. induction l; intros i; simpl; auto. f_equal; auto. Qed.

Lemma pws_map {A B} (f : A -> B) s :
  permutations_with_signs (map f s) = map (fun ps => (map f (fst ps), snd ps)) (permutations_with_signs s).
Proof.
  unfold permutations_with_signs. rewrite permutations_map, mapi_from_map, map_mapi_from.
  reflexivity.
Qed.

Lemma map_nth_seq {A} (d : A) s : map (fun i => nth i s d) (seq 0 (length s)) = s.
Proof.
  induction s as [|a s IH]; simpl; auto. f_equal.
  rewrite <- seq_shift, map_map. exact IH.
Qed.

Lemma pws_nth n j p s :
  nth_error (permutations_with_signs (seq 0 n)) j = Some (p, s) -> s = sgn (inversions p).
Proof.
  unfold permutations_with_signs. rewrite nth_error_mapi_from.
  destruct (nth_error (permutations (seq 0 n)) j) as [it|] eqn:E; simpl; [|discriminate].
  intros H. injection H as <- <-.
  unfold permutations in E.
  pose proof (alternating_nth _ _ _ _ (alternating_permutations n) E) as H.
  unfold sgn. rewrite H. destruct (Nat.odd j); auto.
Qed.

Lemma pws_fst {A} (s : list A) : map fst (permutations_with_signs s) = permutations s.
Proof.
  unfold permutations_with_signs. rewrite map_mapi_from. simpl.
  generalize 0. induction (permutations s); intros i; simpl; auto. f_equal; auto.
Qed.

(** ** C01 *)

(** For positions [0..n-1]: every arrangement exactly once, with its inversion parity, n! entries. *)
Theorem C01_positions : forall n,
  length (permutations_with_signs (seq 0 n)) = fact n /\
  NoDup (map fst (permutations_with_signs (seq 0 n))) /\
  (forall p s, In (p, s) (permutations_with_signs (seq 0 n)) <->
               Permutation p (seq 0 n) /\ s = sgn (inversions p)).
Proof.
  intros n. split; [|split].
  - unfold permutations_with_signs. rewrite length_mapi_from, permutations_length, seq_length. auto.
  - rewrite pws_fst. apply permutations_NoDup, seq_NoDup.
  - intros p s. split.
    + intros H. split.
      * apply permutations_in. rewrite <- pws_fst. apply in_map_iff. exists (p, s). auto.
      * apply In_nth_error in H. destruct H as (j & Hj). eapply pws_nth; eauto.
    + intros [Hp ->]. apply permutations_in in Hp. rewrite <- pws_fst in Hp.
      apply in_map_iff in Hp. destruct Hp as ((p' & s') & E & Hin). simpl in E. subst p'.
      assert (s' = sgn (inversions p)) as <-; auto.
      apply In_nth_error in Hin. destruct Hin as (j & Hj). eapply pws_nth; eauto.
Qed.

(** For an arbitrary sequence: entry [j] is the arrangement of the sequence by entry [j] of the positions,
    with the same sign. *)
Theorem C01_sequences : forall (A : Type) (d : A) (s : list A),
  permutations_with_signs s =
  map (fun ps => (map (fun i => nth i s d) (fst ps), snd ps)) (permutations_with_signs (seq 0 (length s))).
Proof.
  intros A d s. rewrite <- pws_map, map_nth_seq. reflexivity.
Qed.

(** The identity comes first, with sign +1. *)
Theorem C01_identity_first : forall (A : Type) (s : list A), hd_error (permutations_with_signs s) = Some (s, 1%Z).
Proof.
  intros A s.
  assert (H : hd_error (permutations s) = Some s).
  { unfold permutations. rewrite <- (rev_involutive s) at 2.
    generalize (rev s). clear s. intros r.
    induction r as [|x r IH]; auto. simpl.
    destruct (permutations_rev r) as [|it L]; [discriminate|]. injection IH as ->.
    cbn [mapi_from concat]. unfold inds. cbn [Nat.even]. rewrite rev_length, seq_S, rev_app_distr. simpl.
    unfold insert_at. rewrite firstn_all2, skipn_all2 by (rewrite rev_length; lia). reflexivity. }
  unfold permutations_with_signs. destruct (permutations s); [discriminate|].
  injection H as ->. reflexivity.
Qed.

Example C01_ex :
  permutations_with_signs [7; 8; 9] =
  [([7;8;9], 1%Z); ([7;9;8], (-1)%Z); ([9;7;8], 1%Z); ([9;8;7], (-1)%Z); ([8;9;7], 1%Z); ([8;7;9], (-1)%Z)].
Proof. reflexivity. Qed.

(** ** C02 *)

(** Specification: sign of the arrangement [u] relative to the decreasing order: parity of the number of pairs of
    positions [i < j] with [u_i < u_j]. *)
Fixpoint ascents (l : list nat) : nat :=
  match l with
  | [] => 0
  | x :: t => length (filter (fun y => x <? y) t) + ascents t
  end.

Lemma list_eqb_spec a b : list_eqb a b = true <-> a = b.
Proof.
  revert b. induction a as [|x a IH]; destruct b as [|y b]; simpl; split; intros H; auto; try discriminate.
  - apply andb_true_iff in H. destruct H as [H1 H2]. apply Nat.eqb_eq in H1. apply IH in H2. subst. auto.
  - injection H as -> ->. rewrite Nat.eqb_refl. simpl. apply IH. auto.
Qed.

Lemma assign_eq A t v : assign A t v t = v.
Proof. unfold assign. rewrite (proj2 (list_eqb_spec t t)) by auto. auto. Qed.

Lemma assign_neq A t v u : u <> t -> assign A t v u = A u.
Proof.
  unfold assign. intros H. destruct (list_eqb u t) eqn:E; auto. apply list_eqb_spec in E. contradiction.
Qed.

(** A sequence of writes. *)
Definition writes (ws : list (list nat * Z)) (A : tensor) : tensor :=
  fold_left (fun A w => assign A (fst w) (snd w)) ws A.

Lemma writes_app w1 w2 A : writes (w1 ++ w2) A = writes w2 (writes w1 A).
Proof. unfold writes. apply fold_left_app. Qed.

Lemma writes_notin ws : forall A u, ~ In u (map fst ws) -> writes ws A u = A u.
Proof.
  induction ws as [|[t v] ws IH]; intros A u H; simpl; auto.
  unfold writes in *. simpl in *. rewrite IH by tauto. apply assign_neq. intuition.
Qed.

Lemma writes_in ws : forall A u v,
  (forall v', In (u, v') ws -> v' = v) -> In u (map fst ws) -> writes ws A u = v.
Proof.
  induction ws as [|[t w] ws IH]; intros A u v Hv Hin; simpl in *; [tauto|].
  unfold writes in *. simpl.
  destruct (in_dec (list_eq_dec Nat.eq_dec) u (map fst ws)) as [Hi|Hi].
  - apply IH; auto.
  - fold (writes ws (assign A t w)). rewrite writes_notin by auto.
    destruct Hin as [->|?]; [|contradiction].
    rewrite assign_eq. apply Hv. auto.
Qed.

Definition perm_writes (tuples : list (list nat)) (flat : list Z) (minus : bool) (j : nat) : list (list nat * Z) :=
  flat_map (fun tv => match nth_error (permutations_with_signs (fst tv)) j with
                      | Some (u, s) => [(u, snd tv * (if minus then s else 1))%Z]
                      | None => []
                      end) (combine tuples flat).

Lemma write_perm_writes tuples flat minus j A :
  write_perm tuples flat minus j A = writes (perm_writes tuples flat minus j) A.
Proof.
  unfold write_perm, perm_writes. generalize (combine tuples flat). intros L. revert A.
  induction L as [|[t v] L IH]; intros A; cbn [fold_left flat_map fst snd]; auto.
  rewrite IH. destruct (nth_error (permutations_with_signs t) j) as [[u s]|]; reflexivity.
Qed.

Definition all_writes n dims flat incl minus : list (list nat * Z) :=
  flat_map (perm_writes (tril_indices_ndim n dims incl) flat minus) (seq 0 (fact dims)).

Lemma decompress_writes n dims flat incl minus :
  decompress_axes n dims flat incl minus = writes (all_writes n dims flat incl minus) zeros.
Proof.
  unfold decompress_axes, all_writes. generalize zeros.
  induction (seq 0 (fact dims)) as [|j L IH]; intros A; cbn [fold_left flat_map]; auto.
  rewrite IH, writes_app, write_perm_writes. reflexivity.
Qed.

Lemma in_perm_writes tuples flat minus j u w :
  In (u, w) (perm_writes tuples flat minus j) <->
  exists t v s, In (t, v) (combine tuples flat) /\ nth_error (permutations_with_signs t) j = Some (u, s)
                /\ w = (v * (if minus then s else 1))%Z.
Proof.
  unfold perm_writes. rewrite in_flat_map. split.
  - intros ((t & v) & Hin & H). simpl in H.
    destruct (nth_error (permutations_with_signs t) j) as [[u' s]|] eqn:E; [|destruct H].
    destruct H as [H|[]]. injection H as -> <-. exists t, v, s. auto.
  - intros (t & v & s & Hin & E & ->). exists (t, v). split; auto. simpl. rewrite E. left. auto.
Qed.

Lemma in_all_writes n dims flat incl minus u w :
  In (u, w) (all_writes n dims flat incl minus) <->
  exists j t v s, j < fact dims /\ In (t, v) (combine (tril_indices_ndim n dims incl) flat) /\
    nth_error (permutations_with_signs t) j = Some (u, s) /\ w = (v * (if minus then s else 1))%Z.
Proof.
  unfold all_writes. rewrite in_flat_map. split.
  - intros (j & Hj & H). apply in_seq in Hj. apply in_perm_writes in H.
    destruct H as (t & v & s & H). exists j, t, v, s. split; [lia|tauto].
  - intros (j & t & v & s & Hj & H). exists j. split; [apply in_seq; lia|].
    apply in_perm_writes. exists t, v, s. auto.
Qed.

Lemma in_cube n dims t : In t (cube n dims) <-> length t = dims /\ Forall (fun i => i < n) t.
Proof.
  revert t. induction dims as [|d IH]; intros t; simpl.
  - split.
    + intros [<-|[]]. auto.
    + intros [H _]. destruct t; [auto|discriminate].
  - rewrite in_flat_map. split.
    + intros (i & Hi & H). apply in_seq in Hi. apply in_map_iff in H. destruct H as (t' & <- & H).
      apply IH in H. destruct H as [Hl Hf]. simpl. split; [auto|]. constructor; auto. lia.
    + intros [Hl Hf]. destruct t as [|i t']; [discriminate|]. inversion Hf; subst.
      exists i. split; [apply in_seq; lia|]. apply in_map_iff. exists t'. split; auto.
      apply IH. split; auto.
Qed.

Lemma chain_strict t : chain (fun a b => b <? a) t = true <-> StronglySorted (fun a b => b < a) t.
Proof.
  split.
  - intros H. apply Sorted_StronglySorted; [intros x y z; lia|].
    induction t as [|a [|b t] IH]; [constructor|repeat constructor|].
    simpl in H. apply andb_true_iff in H. destruct H as [H1 H2]. apply Nat.ltb_lt in H1.
    constructor; [apply IH; exact H2|constructor; auto].
  - intros H. apply StronglySorted_Sorted in H.
    induction H as [|a l Hs IH Hr]; auto. destruct l as [|b l]; auto.
    simpl. inversion Hr; subst. apply andb_true_iff. split; [apply Nat.ltb_lt; auto|apply IH].
Qed.

Lemma in_tril n dims t :
  In t (tril_indices_ndim n dims false) <->
  length t = dims /\ Forall (fun i => i < n) t /\ StronglySorted (fun a b => b < a) t.
Proof.
  unfold tril_indices_ndim. rewrite filter_In, in_cube, chain_strict. tauto.
Qed.

Lemma NoDup_flat_map_cons n L : NoDup L -> NoDup (flat_map (fun i => map (cons i) L) (seq 0 n)).
Proof.
  intros HL. generalize 0. induction n; intros a; simpl; [constructor|].
  apply NoDup_app_intro.
  - apply NoDup_map_inj; auto. intros x y _ _ E. injection E. auto.
  - apply IHn.
  - intros x H1 H2. apply in_map_iff in H1. destruct H1 as (t & <- & _).
    apply in_flat_map in H2. destruct H2 as (i & Hi & H). apply in_map_iff in H.
    destruct H as (t' & E & _). injection E as -> _. apply in_seq in Hi. lia.
Qed.

Lemma NoDup_cube n dims : NoDup (cube n dims).
Proof. induction dims; simpl; [repeat constructor; auto|]. apply NoDup_flat_map_cons; auto. Qed.

Lemma NoDup_tril n dims incl : NoDup (tril_indices_ndim n dims incl).
Proof. apply NoDup_filter, NoDup_cube. Qed.

Lemma sorted_NoDup t : StronglySorted (fun a b => b < a) t -> NoDup t.
Proof.
  induction 1; constructor; auto. intros Hin. rewrite Forall_forall in H0. apply H0 in Hin. lia.
Qed.

Lemma sorted_perm_eq t t' :
  StronglySorted (fun a b => b < a) t -> StronglySorted (fun a b => b < a) t' -> Permutation t t' -> t = t'.
Proof.
  intros Hs. revert t'. induction Hs as [|a l Hs IH Hf]; intros t' Ht' Hp.
  - apply Permutation_nil in Hp. auto.
  - destruct Ht' as [|b l' Hs' Hf']; [symmetry in Hp; apply Permutation_nil in Hp; discriminate|].
    assert (a = b).
    { rewrite Forall_forall in Hf, Hf'.
      assert (Ha : In a (b :: l')) by (eapply Permutation_in; [exact Hp|left; auto]).
      assert (Hb : In b (a :: l)) by (eapply Permutation_in; [symmetry; exact Hp|left; auto]).
      destruct Ha as [|Ha]; auto. destruct Hb as [|Hb]; auto.
      apply Hf' in Ha. apply Hf in Hb. lia. }
    subst b. f_equal. apply IH; auto. eapply Permutation_cons_inv; eauto.
Qed.

(** Inversions of positions are ascents of the arranged decreasing tuple. *)
Lemma nth_sorted_lt t : StronglySorted (fun a b => b < a) t ->
  forall i j, i < length t -> j < length t -> (nth i t 0 < nth j t 0 <-> j < i).
Proof.
  induction 1 as [|a l Hs IH Hf]; intros i j Hi Hj; simpl in *; [lia|].
  rewrite Forall_forall in Hf.
  destruct i, j; simpl; try lia.
  - assert (In (nth j l 0) l) by (apply nth_In; lia). apply Hf in H. lia.
  - assert (In (nth i l 0) l) by (apply nth_In; lia). apply Hf in H. lia.
  - rewrite IH; lia.
Qed.

Lemma length_filter_map {A B} (f : B -> bool) (g : A -> B) l :
  length (filter f (map g l)) = length (filter (fun x => f (g x)) l).
Proof. induction l; simpl; auto. destruct (f (g a)); simpl; auto. Qed.

Lemma length_filter_ext {A} (f g : A -> bool) l : (forall x, In x l -> f x = g x) ->
  length (filter f l) = length (filter g l).
Proof.
  induction l; simpl; intros H; auto. rewrite H by auto. destruct (g a); simpl; rewrite IHl; auto.
Qed.

Lemma ascents_inversions t p : StronglySorted (fun a b => b < a) t ->
  (forall i, In i p -> i < length t) -> ascents (map (fun i => nth i t 0) p) = inversions p.
Proof.
  intros Hs. induction p as [|a p IH]; intros Hp; simpl; auto.
  rewrite IH by auto with datatypes. f_equal. rewrite length_filter_map.
  apply length_filter_ext. intros x Hx.
  pose proof (nth_sorted_lt t Hs a x (Hp a (or_introl eq_refl)) (Hp x (or_intror Hx))) as H.
  destruct (nth a t 0 <? nth x t 0) eqn:E1, (x <? a) eqn:E2; auto;
    rewrite ?Nat.ltb_lt, ?Nat.ltb_ge in *; lia.
Qed.

Lemma pws_sorted t u s : StronglySorted (fun a b => b < a) t ->
  In (u, s) (permutations_with_signs t) <-> Permutation u t /\ s = sgn (ascents u).
Proof.
  intros Hs. rewrite (C01_sequences nat 0 t).
  rewrite in_map_iff. destruct (C01_positions (length t)) as (_ & _ & Hin). split.
  - intros ((p & s') & E & H). simpl in E. injection E as <- <-. apply Hin in H. destruct H as [Hp ->].
    split.
    + apply Permutation_trans with (map (fun i => nth i t 0) (seq 0 (length t))).
      * apply Permutation_map. auto.
      * rewrite map_nth_seq. auto.
    + rewrite ascents_inversions; auto. intros i Hi. eapply Permutation_in in Hi; eauto.
      apply in_seq in Hi. lia.
  - intros [Hp ->].
    rewrite <- (map_nth_seq 0 t) in Hp. apply Permutation_map_inv in Hp.
    destruct Hp as (p & -> & Hp).
    exists (p, sgn (inversions p)). simpl. split.
    + f_equal. rewrite ascents_inversions; auto. intros i Hi.
      eapply Permutation_in in Hi; [|symmetry; eauto]. apply in_seq in Hi. lia.
    + apply Hin. split; auto. symmetry; auto.
Qed.

Lemma in_combine_fun {A B} (l : list A) (l' : list B) a b b' :
  NoDup l -> In (a, b) (combine l l') -> In (a, b') (combine l l') -> b = b'.
Proof.
  intros Hn. revert l'. induction Hn as [|x l Hx Hn IH]; intros [|y l']; simpl; try tauto.
  intros [E|H] [E'|H'].
  - congruence.
  - injection E as -> ->. apply in_combine_l in H'. contradiction.
  - injection E' as -> ->. apply in_combine_l in H. contradiction.
  - eapply IH; eauto.
Qed.

Lemma in_nth_lt {A} (l : list A) j x : nth_error l j = Some x -> j < length l.
Proof. intros H. apply nth_error_Some. rewrite H. discriminate. Qed.

(** Main statement: the stored value of the decreasing tuple, with the sign of the arrangement ("-") or as it is ("+"). *)
Theorem C02_entries : forall n dims flat minus t v u,
  In (t, v) (combine (tril_indices_ndim n dims false) flat) -> Permutation u t ->
  decompress_axes n dims flat false minus u = (v * (if minus then sgn (ascents u) else 1))%Z.
Proof.
  intros n dims flat minus t v u Ht Hu.
  rewrite decompress_writes. apply writes_in.
  - intros v' H. apply in_all_writes in H. destruct H as (j & t' & w & s & Hj & Ht' & E & ->).
    pose proof (in_combine_l _ _ _ _ Ht) as H1. pose proof (in_combine_l _ _ _ _ Ht') as H2.
    apply in_tril in H1, H2. destruct H1 as (_ & _ & Hs1), H2 as (_ & _ & Hs2).
    apply nth_error_In in E. apply pws_sorted in E; auto. destruct E as [E ->].
    assert (t' = t) as ->. { apply sorted_perm_eq; auto. rewrite <- E. auto. }
    rewrite (in_combine_fun _ _ _ _ _ (NoDup_tril n dims false) Ht' Ht). reflexivity.
  - pose proof (in_combine_l _ _ _ _ Ht) as H1. apply in_tril in H1. destruct H1 as (Hl & _ & Hs).
    assert (H : In (u, sgn (ascents u)) (permutations_with_signs t)) by (apply pws_sorted; auto).
    apply In_nth_error in H. destruct H as (j & Hj).
    apply in_map_iff. exists (u, (v * (if minus then sgn (ascents u) else 1))%Z). split; auto.
    apply in_all_writes. exists j, t, v, (sgn (ascents u)). split; [|auto].
    apply in_nth_lt in Hj. unfold permutations_with_signs in Hj.
    rewrite length_mapi_from, permutations_length, Hl in Hj. auto.
Qed.

(** Nothing else is written: a tuple that is no arrangement of a stored one keeps zero. *)
Lemma decompress_zero n dims flat minus u :
  (forall t, In t (tril_indices_ndim n dims false) -> ~ Permutation u t) ->
  decompress_axes n dims flat false minus u = 0%Z.
Proof.
  intros H. rewrite decompress_writes. rewrite writes_notin; auto.
  intros Hin. apply in_map_iff in Hin. destruct Hin as ((u' & w) & E & Hin). simpl in E. subst u'.
  apply in_all_writes in Hin. destruct Hin as (j & t & v & s & _ & Ht & E & _).
  apply in_combine_l in Ht. apply nth_error_In in E.
  pose proof Ht as Ht'. apply in_tril in Ht'.
  apply pws_sorted in E; [|tauto]. apply (H t); tauto.
Qed.

Theorem C02_repeated_zero : forall n dims flat minus u,
  ~ NoDup u -> decompress_axes n dims flat false minus u = 0%Z.
Proof.
  intros n dims flat minus u Hu. apply decompress_zero. intros t Ht Hp. apply Hu.
  apply in_tril in Ht. destruct Ht as (_ & _ & Hs). apply sorted_NoDup in Hs.
  eapply Permutation_NoDup; [symmetry|]; eauto.
Qed.

(** Every in-range tuple without repetition is an arrangement of exactly one stored tuple. *)
Lemma insert_sorted (u : list nat) : NoDup u -> exists t, Permutation u t /\ StronglySorted (fun a b => b < a) t.
Proof.
  induction 1 as [|a l Ha Hn (t & Hp & Hs)]; [exists []; split; constructor|].
  assert (Hat : ~ In a t) by (intros Hi; apply Ha; eapply Permutation_in; [symmetry|]; eauto).
  cut (exists t', Permutation (a :: t) t' /\ StronglySorted (fun a b => b < a) t').
  { intros (t' & H1 & H2). exists t'. split; auto. rewrite Hp. auto. }
  clear Hp Ha Hn. induction Hs as [|b t Hs IH Hf].
  - exists [a]. split; auto. repeat constructor.
  - destruct (lt_eq_lt_dec a b) as [[Hlt|Heq]|Hgt].
    + destruct IH as (t' & Hp & Hs'); [simpl in Hat; tauto|].
      exists (b :: t'). split; [rewrite perm_swap; auto|].
      constructor; auto. rewrite Forall_forall in *. intros x Hx.
      eapply Permutation_in in Hx; [|symmetry; exact Hp]. destruct Hx as [<-|Hx]; auto.
    + exfalso. apply Hat. left; auto.
    + exists (a :: b :: t). split; auto. constructor; [constructor; auto|].
      constructor; auto. rewrite Forall_forall in *. intros x Hx. apply Hf in Hx. lia.
Qed.

Lemma stored_exists n dims (flat : list Z) u :
  length flat = length (tril_indices_ndim n dims false) ->
  length u = dims -> Forall (fun i => i < n) u -> NoDup u ->
  exists t v, In (t, v) (combine (tril_indices_ndim n dims false) flat) /\ Permutation u t.
Proof.
  intros Hf Hl Hr Hn. destruct (insert_sorted u Hn) as (t & Hp & Hs).
  assert (Ht : In t (tril_indices_ndim n dims false)).
  { apply in_tril. split; [rewrite <- Hl; symmetry; apply Permutation_length; auto|].
    split; auto. rewrite Forall_forall in *. intros x Hx. apply Hr.
    eapply Permutation_in; [symmetry|]; eauto. }
  apply In_nth_error in Ht. destruct Ht as (k & Hk).
  destruct (nth_error flat k) as [v|] eqn:E.
  - exists t, v. split; auto. apply nth_error_In with (n := k).
    clear Hf. revert flat k Hk E.
    induction (tril_indices_ndim n dims false) as [|x L IH]; intros [|y f] [|k] Hk E; simpl in *; try discriminate.
    + congruence.
    + eapply IH; eauto.
  - apply nth_error_None in E. apply in_nth_lt in Hk. lia.
Qed.

Lemma ascents_swap l1 a b l2 : a <> b ->
  Nat.even (ascents (l1 ++ a :: b :: l2)) = negb (Nat.even (ascents (l1 ++ b :: a :: l2))).
Proof.
  intros Hab.
  assert (E : forall p q, p = S q -> Nat.even p = negb (Nat.even q))
    by (intros p q ->; rewrite Nat.even_succ, Nat.negb_even; auto).
  induction l1 as [|x l1 IH]; cbn [app ascents].
  - cbn [filter]. destruct (a <? b) eqn:E1, (b <? a) eqn:E2; rewrite ?Nat.ltb_lt, ?Nat.ltb_ge in *; try lia;
      cbn [length].
    + apply E. lia.
    + rewrite <- (negb_involutive (Nat.even _)). f_equal. symmetry. apply E. lia.
  - rewrite !Nat.even_add, IH.
    assert (H : length (filter (fun y => x <? y) (l1 ++ a :: b :: l2))
                = length (filter (fun y => x <? y) (l1 ++ b :: a :: l2))).
    { rewrite !filter_app, !app_length. simpl. destruct (x <? a), (x <? b); simpl; lia. }
    rewrite H.
    destruct (Nat.even (length (filter (fun y => x <? y) (l1 ++ b :: a :: l2))));
      destruct (Nat.even (ascents (l1 ++ b :: a :: l2))); auto.
Qed.

(** The unpacked tensor is antisymmetric ("-") or symmetric ("+") under exchange of two neighbouring
    axes, for every index tuple (in range or not, with or without repetitions). *)
Theorem C02_antisymmetric : forall n dims flat minus l1 a b l2,
  length flat = length (tril_indices_ndim n dims false) ->
  decompress_axes n dims flat false minus (l1 ++ a :: b :: l2)
  = ((if minus then -1 else 1) * decompress_axes n dims flat false minus (l1 ++ b :: a :: l2))%Z.
Proof.
  intros n dims flat minus l1 a b l2 Hf.
  assert (Hsw : Permutation (l1 ++ a :: b :: l2) (l1 ++ b :: a :: l2)).
  { apply Permutation_app_head. constructor. }
  destruct (in_dec (list_eq_dec Nat.eq_dec) (l1 ++ a :: b :: l2) (cube n dims)) as [Hc|Hc].
  - apply in_cube in Hc. destruct Hc as [Hl Hr].
    destruct (ListDec.NoDup_dec Nat.eq_dec (l1 ++ a :: b :: l2)) as [Hn|Hn].
    + destruct (stored_exists n dims flat _ Hf Hl Hr Hn) as (t & v & Ht & Hp).
      rewrite (C02_entries _ _ _ _ _ _ _ Ht Hp).
      rewrite (C02_entries _ _ _ _ _ _ (l1 ++ b :: a :: l2) Ht) by (rewrite <- Hsw; auto).
      destruct minus; [|lia].
      assert (Hab : a <> b).
      { intros ->. apply NoDup_remove_2 in Hn. apply Hn. apply in_app_iff. right. left. auto. }
      unfold sgn. rewrite (ascents_swap l1 a b l2 Hab).
      destruct (Nat.even (ascents (l1 ++ b :: a :: l2))); cbn [negb]; lia.
    + rewrite !C02_repeated_zero; auto; [destruct minus; lia|].
      intros H. apply Hn. eapply Permutation_NoDup; [symmetry|]; eauto.
  - rewrite !decompress_zero; [destruct minus; lia| |];
      intros t Ht Hp; apply Hc; apply in_tril in Ht; destruct Ht as (Hl & Hr & _); apply in_cube.
    + split; [rewrite (Permutation_length Hsw), <- Hl; apply Permutation_length; auto|].
      rewrite Forall_forall in *. intros x Hx. apply Hr. eapply Permutation_in; [|exact Hx].
      rewrite Hsw. auto.
    + split; [rewrite <- Hl; apply Permutation_length; auto|].
      rewrite Forall_forall in *. intros x Hx. apply Hr. eapply Permutation_in; [|exact Hx]. auto.
Qed.

(** Concrete case: 3 axes of size 4 hold 4 stored tuples. *)
Example C02_ex :
  length [5;6;7;8]%Z = length (tril_indices_ndim 4 3 false) /\
  In ([3;2;0], 7%Z) (combine (tril_indices_ndim 4 3 false) [5;6;7;8]%Z) /\
  decompress_axes 4 3 [5;6;7;8]%Z false true [0;3;2] = 7%Z /\
  decompress_axes 4 3 [5;6;7;8]%Z false true [3;0;2] = (-7)%Z /\
  decompress_axes 4 3 [5;6;7;8]%Z false true [3;0;3] = 0%Z.
Proof. vm_compute. repeat split; auto. Qed.

(** With the diagonal included and symmetry "-", a stored diagonal value comes back with either sign of some permutation:
    the unpacked value of a repeated tuple is not the stored one in general (finding; the callers in
    vayesta never combine the two options). *)
Theorem C02_diagonal_minus_refuted :
  ~ (forall n dims flat t v, In (t, v) (combine (tril_indices_ndim n dims true) flat) ->
     decompress_axes n dims flat true true t = v).
Proof.
  intros H. specialize (H 1 2 [5%Z] [0;0] 5%Z (or_introl eq_refl)). vm_compute in H. discriminate.
Qed.

Print Assumptions C01_positions.
Print Assumptions C01_sequences.
Print Assumptions C01_identity_first.
Print Assumptions C02_entries.
Print Assumptions C02_repeated_zero.
Print Assumptions C02_antisymmetric.
Print Assumptions C02_diagonal_minus_refuted.
