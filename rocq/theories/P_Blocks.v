(** Property C03: block splitting. *)
From Coq Require Import List ZArith Bool Lia.
From Verif Require Import M_Blocks.
Import ListNotations.
Local Open Scope Z_scope.

(** ** Specification *)

(** The integers from [a] (inclusive) to [b] (exclusive), in order. *)
Definition interval (a b : Z) : list Z := map (fun k => a + Z.of_nat k) (seq 0 (Z.to_nat (b - a))).

(** ** Lemmas *)

Lemma interval_nil a b : b <= a -> interval a b = [].
Proof. intros. unfold interval. replace (Z.to_nat (b - a)) with 0%nat by lia. auto. Qed.

Lemma interval_app a b c : a <= b -> b <= c -> interval a b ++ interval b c = interval a c.
Proof.
  intros H1 H2. unfold interval.
  replace (Z.to_nat (c - a)) with (Z.to_nat (b - a) + Z.to_nat (c - b))%nat by lia.
  rewrite seq_app, map_app. f_equal.
  rewrite Nat.add_0_l.
  replace (Z.to_nat (b - a)) with (Z.to_nat (b - a) + 0)%nat at 1 by lia.
  generalize 0%nat. induction (Z.to_nat (c - b)); intros k; simpl; auto. f_equal; [lia|].
  rewrite <- Nat.add_succ_r. apply IHn.
Qed.

Lemma interval_in a b x : In x (interval a b) <-> a <= x < b.
Proof.
  unfold interval. rewrite in_map_iff. split.
  - intros (k & <- & H). apply in_seq in H. lia.
  - intros H. exists (Z.to_nat (x - a)). split; [lia|]. apply in_seq. lia.
Qed.

Lemma interval_NoDup a b : NoDup (interval a b).
Proof.
  unfold interval. generalize (seq_NoDup (Z.to_nat (b - a)) 0).
  generalize (seq 0 (Z.to_nat (b - a))). induction 1; simpl; constructor; auto.
  rewrite in_map_iff. intros (k & E & Hk). assert (k = x) by lia. subst. contradiction.
Qed.

(** The starts of the blocks, by counting up: same as [py_range] for a positive step. *)
Fixpoint starts (n : nat) (a step : Z) : list Z :=
  match n with
  | O => []
  | S n' => a :: starts n' (a + step) step
  end.

Lemma starts_map n : forall a step k,
  map (fun k => a + Z.of_nat k * step) (seq k n) = starts n (a + Z.of_nat k * step) step.
Proof.
  induction n; intros a step k; simpl; auto. f_equal. rewrite IHn. f_equal. lia.
Qed.

Lemma py_range_pos a b step : 0 < step ->
  py_range a b step = Ok (starts (Z.to_nat ((b - a + step - 1) / step)) a step).
Proof.
  intros H. unfold py_range.
  replace (step =? 0) with false by (symmetry; apply Z.eqb_neq; lia).
  replace (0 <? step) with true by (symmetry; apply Z.ltb_lt; lia).
  rewrite starts_map. f_equal. f_equal. lia.
Qed.

Definition blocks_from (n : nat) (a step stop : Z) : list (Z * Z) :=
  map (fun i => (i, Z.min (i + step) stop)) (starts n a step).

Lemma count_step a b step : 0 < step -> a < b ->
  Z.to_nat ((b - a + step - 1) / step) = S (Z.to_nat ((b - (a + step) + step - 1) / step)).
Proof.
  intros Hs Hab.
  assert (E : (b - a + step - 1) / step = (b - (a + step) + step - 1) / step + 1).
  { replace (b - a + step - 1) with ((b - (a + step) + step - 1) + 1 * step) by ring.
    rewrite Z.div_add by lia. ring. }
  rewrite E.
  assert (0 <= (b - (a + step) + step - 1) / step) by (apply Z.div_pos; lia).
  lia.
Qed.

Lemma count_zero a b step : 0 < step -> b <= a -> Z.to_nat ((b - a + step - 1) / step) = 0%nat.
Proof.
  intros Hs Hab. assert ((b - a + step - 1) / step < 1) by (apply Z.div_lt_upper_bound; lia). lia.
Qed.

(** Induction along the blocks. *)
Lemma blocks_ind (P : Z -> list (Z * Z) -> Prop) step stop :
  0 < step ->
  (forall a, stop <= a -> P a []) ->
  (forall a rest, a < stop -> P (a + step) rest -> P a ((a, Z.min (a + step) stop) :: rest)) ->
  forall a, P a (blocks_from (Z.to_nat ((stop - a + step - 1) / step)) a step stop).
Proof.
  intros Hs H0 H1 a.
  remember (Z.to_nat (stop - a)) as m eqn:Em. revert a Em.
  induction m as [m IH] using (well_founded_induction lt_wf). intros a Em.
  destruct (Z_lt_le_dec a stop) as [Hlt|Hle].
  - rewrite count_step by auto. unfold blocks_from. cbn [starts map]. apply H1; auto.
    eapply IH; [|reflexivity]. lia.
  - rewrite count_zero by auto. apply H0. auto.
Qed.

Lemma clip_range step lo hi : 1 <= lo -> 1 <= hi -> 1 <= clip step lo hi.
Proof. unfold clip. lia. Qed.

Definition eff_step (start stop step minstep : Z) (maxstep : option Z) : Z :=
  clip step minstep (match maxstep with None => stop - start | Some m => m end).

Lemma brange_blocks start stop step minstep maxstep :
  1 <= minstep -> (forall m, maxstep = Some m -> 1 <= m) ->
  let st := eff_step start stop step minstep maxstep in
  (start < stop -> 1 <= st) /\
  brange start stop step minstep maxstep
  = Ok (if stop <=? start then [] else
          blocks_from (Z.to_nat ((stop - start + st - 1) / st)) start st stop).
Proof.
  intros Hmin Hmax st.
  assert (Hst : start < stop -> 1 <= st).
  { intros H. unfold st, eff_step. destruct maxstep as [m|]; apply clip_range; auto. lia. }
  split; auto. unfold brange.
  destruct (stop <=? start) eqn:E; auto. apply Z.leb_gt in E.
  fold (eff_step start stop step minstep maxstep). fold st.
  rewrite py_range_pos by (specialize (Hst E); lia). reflexivity.
Qed.

(** ** C03 *)

(** Consecutive blocks: each begins where the previous one ended, the last ends at [stop]. *)
Fixpoint tiles (a stop step : Z) (bl : list (Z * Z)) : Prop :=
  match bl with
  | [] => stop <= a
  | (i, j) :: rest => i = a /\ i < j /\ j <= stop /\ j - i <= step /\ (j < stop -> j - i = step) /\ tiles j stop step rest
  end.

(** For all bounds and all steps, with positive step limits: the blocks tile [start, stop), each at most the clipped step
    long, and exactly that long except possibly the last one; expanding the blocks gives the range. *)
Theorem C03_brange : forall start stop step minstep maxstep,
  1 <= minstep -> (forall m, maxstep = Some m -> 1 <= m) ->
  exists bl, brange start stop step minstep maxstep = Ok bl /\
    concat (map (fun b => interval (fst b) (snd b)) bl) = interval start stop /\
    (start < stop -> tiles start stop (Z.min (Z.max step minstep)
                                        (match maxstep with None => stop - start | Some m => m end)) bl).
Proof.
  intros start stop step minstep maxstep Hmin Hmax.
  destruct (brange_blocks start stop step minstep maxstep Hmin Hmax) as [Hst Hb].
  eexists. split; [exact Hb|].
  destruct (stop <=? start) eqn:E.
  - apply Z.leb_le in E. split; [rewrite interval_nil; auto|lia].
  - apply Z.leb_gt in E. specialize (Hst E). fold (clip step minstep (match maxstep with None => stop - start | Some m => m end)).
    fold (eff_step start stop step minstep maxstep).
    set (st := eff_step start stop step minstep maxstep) in *.
    assert (Hs : 0 < st) by lia. clearbody st. clear - Hs E. split.
    + apply (blocks_ind (fun a bl => concat (map (fun b => interval (fst b) (snd b)) bl) = interval a stop)); auto.
      * intros a Ha. rewrite interval_nil; auto.
      * intros a rest Ha IH. cbn [map concat fst snd]. rewrite IH.
        destruct (Z_le_gt_dec (a + st) stop).
        -- rewrite Z.min_l by lia. apply interval_app; lia.
        -- rewrite Z.min_r by lia. rewrite (interval_nil (a + st)) by lia. apply app_nil_r.
    + pose proof (blocks_ind (fun a bl => tiles (Z.min a stop) stop st bl) st stop Hs) as H.
      intros _. specialize (H ltac:(intros a Ha; simpl; lia)).
      assert (H2 : tiles (Z.min start stop) stop st
                     (blocks_from (Z.to_nat ((stop - start + st - 1) / st)) start st stop)).
      { apply H. intros a rest Ha IH. cbn [tiles]. repeat split; try lia. exact IH. }
      rewrite Z.min_l in H2 by lia. exact H2.
Qed.

(** Every element is in exactly one block. *)
Corollary C03_exactly_once : forall start stop step minstep maxstep bl x,
  1 <= minstep -> (forall m, maxstep = Some m -> 1 <= m) ->
  brange start stop step minstep maxstep = Ok bl ->
  NoDup (concat (map (fun b => interval (fst b) (snd b)) bl)) /\
  (In x (concat (map (fun b => interval (fst b) (snd b)) bl)) <-> start <= x < stop).
Proof.
  intros start stop step minstep maxstep bl x Hmin Hmax Hb.
  destruct (C03_brange start stop step minstep maxstep Hmin Hmax) as (bl' & Hb' & Hc & _).
  rewrite Hb in Hb'. injection Hb' as <-. rewrite Hc. split; [apply interval_NoDup|apply interval_in].
Qed.

(** Splitting an array into blocks loses and repeats nothing. *)
Lemma slice_app {A} (arr : list A) a b c : 0 <= a -> a <= b -> b <= c -> slice arr a b ++ slice arr b c = slice arr a c.
Proof.
  intros H1 H2 H3. unfold slice.
  replace (Z.to_nat c - Z.to_nat a)%nat with ((Z.to_nat b - Z.to_nat a) + (Z.to_nat c - Z.to_nat b))%nat by lia.
  replace (skipn (Z.to_nat b) arr) with (skipn (Z.to_nat b - Z.to_nat a) (skipn (Z.to_nat a) arr)).
  - generalize (skipn (Z.to_nat a) arr) as l. generalize (Z.to_nat c - Z.to_nat b)%nat as m.
    generalize (Z.to_nat b - Z.to_nat a)%nat as n. clear.
    induction n; intros m l; simpl; auto. destruct l; simpl; [destruct m; auto|].
    f_equal. apply IHn.
  - generalize (eq_refl (Z.to_nat b)). intros _.
    replace (Z.to_nat b) with (Z.to_nat a + (Z.to_nat b - Z.to_nat a))%nat at 2 by lia.
    generalize (Z.to_nat b - Z.to_nat a)%nat. generalize (Z.to_nat a). clear.
    intros n m. revert arr. induction n; intros arr; simpl; auto.
    destruct arr; simpl; auto. destruct m; auto.
Qed.

Theorem C03_split : forall (A : Type) (array : list A) blocksize nbytes max_memory,
  (forall b, blocksize = Some b -> 1 <= b) ->
  exists bl, split_into_blocks array blocksize nbytes max_memory = Ok bl /\ concat bl = array /\
    (forall b x, blocksize = Some b -> In x bl -> Z.of_nat (length x) <= b).
Proof.
  intros A array blocksize nbytes max_memory Hb.
  unfold split_into_blocks.
  set (size := Z.of_nat (length array)).
  set (bs := match blocksize with Some b => b | None => ceil_div size (Z.max (ceil_div nbytes max_memory) 1) end).
  destruct (size <=? bs) eqn:E.
  - exists [array]. split; auto. split; [simpl; apply app_nil_r|].
    intros b x -> [<-|[]]. apply Z.leb_le in E. exact E.
  - apply Z.leb_gt in E.
    assert (Hs : 0 < bs).
    { unfold bs. destruct blocksize as [b|]; [specialize (Hb b eq_refl); lia|].
      unfold ceil_div at 1.
      set (nb := Z.max (ceil_div nbytes max_memory) 1).
      assert (0 <= size) by (unfold size; lia). assert (1 <= nb) by (unfold nb; lia).
      destruct (Z.eq_dec size 0) as [Hz|Hz].
      - exfalso. assert (H2 : bs = 0); [|lia]. unfold bs, ceil_div at 1. rewrite Hz.
        fold nb. rewrite Z.div_small by lia. reflexivity.
      - assert ((- size) / nb < 0) by (apply Z.div_lt_upper_bound; lia). lia. }
    rewrite py_range_pos by auto. eexists. split; [reflexivity|].
    rewrite <- (map_map (fun i => (i, Z.min (i + bs) size)) (fun p => slice array (fst p) (snd p))).
    fold (blocks_from (Z.to_nat ((size - 0 + bs - 1) / bs)) 0 bs size). split.
    + assert (Hw : array = slice array 0 size).
      { unfold slice, size. rewrite Nat2Z.id, Z2Nat.inj_0, Nat.sub_0_r. simpl. symmetry. apply firstn_all. }
      transitivity (slice array 0 size); [|symmetry; exact Hw].
      pose proof (blocks_ind (fun a bl => 0 <= a -> concat (map (fun p => slice array (fst p) (snd p)) bl) = slice array a size) bs size Hs) as H.
      apply H; [| |lia].
      * intros a Ha Hp. simpl. unfold slice. replace (Z.to_nat size - Z.to_nat a)%nat with 0%nat by lia. auto.
      * intros a rest Ha IH Hp. cbn [map concat fst snd]. rewrite IH by lia.
        destruct (Z_le_gt_dec (a + bs) size).
        -- rewrite Z.min_l by lia. apply slice_app; lia.
        -- rewrite Z.min_r by lia. unfold slice at 2. replace (Z.to_nat size - Z.to_nat (a + bs))%nat with 0%nat by lia.
           apply app_nil_r.
    + intros b x Eb Hx. assert (Hbb : bs = b) by (unfold bs; rewrite Eb; reflexivity).
      apply in_map_iff in Hx. destruct Hx as ((i & j) & <- & Hx). simpl.
      apply in_map_iff in Hx. destruct Hx as (k & E' & _). injection E' as <- <-.
      unfold slice. rewrite firstn_length. lia.
Qed.

(** Concrete cases: hypotheses are satisfiable and the result is not trivial. *)
Example C03_ex1 : brange 3 13 4 1 None = Ok [(3, 7); (7, 11); (11, 13)].
Proof. reflexivity. Qed.
Example C03_ex2 : brange 0 5 100 2 (Some 3) = Ok [(0, 3); (3, 5)].
Proof. reflexivity. Qed.
Example C03_ex3 : split_into_blocks [10; 11; 12; 13; 14] None 40 16 = Ok [[10; 11]; [12; 13]; [14]].
Proof. reflexivity. Qed.

(** Without the condition on the step limits the range is silently lost (negative limit). *)
Theorem C03_negative_limit_refuted :
  ~ (forall start stop step minstep maxstep bl,
       brange start stop step minstep maxstep = Ok bl ->
       concat (map (fun b => interval (fst b) (snd b)) bl) = interval start stop).
Proof.
  intros H. specialize (H 0 2 1 1 (Some (-1)) [] eq_refl). discriminate.
Qed.

Print Assumptions C03_brange.
Print Assumptions C03_exactly_once.
Print Assumptions C03_split.
Print Assumptions C03_negative_limit_refuted.
