(** Property C06: the caching decorator. *)
From Coq Require Import List Arith Bool Lia.
From Verif Require Import M_Cache.
Import ListNotations.

Section Cache.
Context {arg val : Type} (arg_eqb : arg -> arg -> bool).
Hypothesis arg_eqb_spec : forall a b, arg_eqb a b = true <-> a = b.
Variable f : arg -> option val.

(** ** Specification *)

(** Arguments in order of last use, most recent first, without repetition, for a list of calls (latest call last). *)
Definition touch (a : arg) (l : list arg) : list arg := a :: filter (fun b => negb (arg_eqb a b)) l.
Definition recency (calls : list arg) : list arg := fold_left (fun l a => touch a l) calls [].

(** The calls of a history that did not raise. *)
Fixpoint calls_of (es : list (event arg val)) : list arg :=
  match es with
  | [] => []
  | Call a :: es' => match f a with Some _ => a :: calls_of es' | None => calls_of es' end
  | _ :: es' => calls_of es'
  end.

(** What every caller should see, whatever happened before. *)
Definition expected (e : event arg val) (o : option (nat * val)) : Prop :=
  match e with
  | Call a => match f a with
              | Some v => exists p, o = Some (p, v)
              | None => o = None
              end
  | _ => o = None
  end.

(** ** Lemmas *)

Lemma length_set_nth p (v : val) h : length (set_nth p v h) = length h.
Proof. revert p. induction h; intros [|p]; simpl; auto. Qed.

Lemma nth_set_nth_neq p q (v : val) h : p <> q -> nth_error (set_nth p v h) q = nth_error h q.
Proof.
  revert p q. induction h as [|x h IH]; intros [|p] [|q] H; simpl; auto; try lia.
Qed.

Lemma find_some c a p : find arg_eqb a c = Some p -> In (a, p) c.
Proof.
  induction c as [|[b q] c IH]; simpl; [discriminate|].
  destruct (arg_eqb a b) eqn:E.
  - intros H. injection H as ->. apply arg_eqb_spec in E. subst. auto.
  - auto.
Qed.

Lemma find_none c a : find arg_eqb a c = None -> ~ In a (map fst c).
Proof.
  induction c as [|[b q] c IH]; simpl; [auto|].
  destruct (arg_eqb a b) eqn:E; [discriminate|].
  intros H [->|Hin]; [|apply IH; auto].
  rewrite (proj2 (arg_eqb_spec a a)) in E; [discriminate|auto].
Qed.

Lemma firstn_in {A} n (l : list A) x : In x (firstn n l) -> In x l.
Proof. revert l. induction n; intros [|y l]; simpl; intros H; try tauto. destruct H; auto. Qed.

(** Invariant with [copy=True]: cached objects hold the function values, and no caller has a reference to them. *)
Definition Inv (st : state arg val) : Prop :=
  (forall a p, In (a, p) (cache st) -> exists v, f a = Some v /\ nth_error (heap st) p = Some v) /\
  (forall a p, In (a, p) (cache st) -> ~ In p (returned st)) /\
  (forall p, In p (returned st) -> p < length (heap st)).

Lemma Inv_init : Inv init.
Proof. repeat split; simpl; intros; contradiction. Qed.

Lemma nth_error_alloc_old (h : list val) v p x : nth_error h p = Some x -> nth_error (h ++ [v]) p = Some x.
Proof.
  intros H. rewrite nth_error_app1; auto. apply nth_error_Some. rewrite H. discriminate.
Qed.

Lemma Inv_cached maxsize a st st' r : Inv st -> cached_func arg_eqb f maxsize a st = (st', r) ->
  Inv st' /\ returned st' = returned st /\ length (heap st) <= length (heap st') /\
  match r with
  | Some p => exists v, f a = Some v /\ nth_error (heap st') p = Some v
  | None => f a = None
  end.
Proof.
  intros (I1 & I2 & I3) E. unfold cached_func in E.
  destruct (find arg_eqb a (cache st)) as [p|] eqn:F.
  - injection E as <- <-. apply find_some in F. simpl. repeat split; auto.
    + intros b q [Eq|Hin]; [injection Eq as <- <-; auto|].
      apply filter_In in Hin. destruct Hin. auto.
    + intros b q [Eq|Hin]; [injection Eq as <- <-; eauto|].
      apply filter_In in Hin. destruct Hin. eauto.
  - destruct (f a) as [v|] eqn:Fa.
    + injection E as <- <-. simpl.
      assert (Hnew : nth_error (heap st ++ [v]) (length (heap st)) = Some v).
      { rewrite nth_error_app2, Nat.sub_diag by lia. auto. }
      repeat split; simpl; auto.
      * intros b q Hin. apply firstn_in in Hin. destruct Hin as [Eq|Hin].
        -- injection Eq as <- <-. eauto.
        -- destruct (I1 _ _ Hin) as (w & H1 & H2). exists w. split; auto. apply nth_error_alloc_old; auto.
      * intros b q Hin Hq. apply firstn_in in Hin. destruct Hin as [Eq|Hin].
        -- injection Eq as <- <-. apply I3 in Hq. lia.
        -- eapply I2; eauto.
      * intros q Hq. apply I3 in Hq. rewrite app_length. simpl. lia.
      * rewrite app_length. lia.
      * exists v. auto.
    + injection E as <- <-. repeat split; auto.
Qed.

Lemma Inv_step maxsize e st st' o : Inv st -> step arg_eqb f true maxsize e st = (st', o) ->
  Inv st' /\ expected e o /\
  (forall p v, o = Some (p, v) -> ~ In p (returned st)) /\
  returned st' = match o with Some (p, _) => p :: returned st | None => returned st end.
Proof.
  intros HI E. destruct e as [a|k v|]; simpl in E.
  - unfold call in E. destruct (cached_func arg_eqb f maxsize a st) as [st1 r] eqn:C.
    destruct (Inv_cached _ _ _ _ _ HI C) as (HI1 & Hr & Hlen & Hres).
    destruct r as [p|].
    + destruct Hres as (v & Hf & Hp). rewrite Hp in E.
      cbv beta iota delta [alloc] in E. cbn [heap] in E.
      assert (Hnew : nth_error (heap st1 ++ [v]) (length (heap st1)) = Some v).
      { rewrite nth_error_app2, Nat.sub_diag by lia. auto. }
      rewrite Hnew in E.
      injection E as <- <-. destruct HI1 as (I1 & I2 & I3). simpl.
      split; [|split; [|split]].
      * repeat split; simpl.
        -- intros b q Hin. destruct (I1 _ _ Hin) as (w & H1 & H2). exists w. split; auto.
           apply nth_error_alloc_old; auto.
        -- intros b q Hin [Eq|Hq]; [|eapply I2; eauto].
           destruct (I1 _ _ Hin) as (w & _ & H2).
           assert (q < length (heap st1)) by (apply nth_error_Some; rewrite H2; discriminate). lia.
        -- intros q [<-|Hq]; rewrite app_length; simpl; [lia|]. apply I3 in Hq. lia.
      * rewrite Hf. eauto.
      * intros p' v' Eq. injection Eq as <- <-. intros Hin. rewrite <- Hr in Hin. apply I3 in Hin. lia.
      * congruence.
    + injection E as <- <-. split; auto. simpl. rewrite Hres. split; auto. split; [discriminate|auto].
  - injection E as <- <-. simpl. split; [|split; [auto|split; [discriminate|]]].
    + destruct (nth_error (returned st) k) as [p|] eqn:N; auto.
      destruct HI as (I1 & I2 & I3). apply nth_error_In in N. repeat split; simpl.
      * intros b q Hin. destruct (I1 _ _ Hin) as (w & H1 & H2). exists w. split; auto.
        rewrite nth_set_nth_neq; auto. intros ->. eapply I2; eauto.
      * auto.
      * intros q Hq. rewrite length_set_nth. auto.
    + destruct (nth_error (returned st) k); auto.
  - injection E as <- <-. destruct HI as (I1 & I2 & I3). simpl. split; [|split; [auto|split; [discriminate|auto]]].
    repeat split; simpl; auto; intros; contradiction.
Qed.

(** ** C06 *)

(** With [copy=True]: for every history of calls, caller mutations and cache clearing, and every cache size, each call returns an object
    holding the function's value. *)
Theorem C06_copy_correct : forall maxsize es,
  Forall2 expected es (snd (run arg_eqb f true maxsize es init)).
Proof.
  intros maxsize es. generalize Inv_init. generalize (@init arg val).
  induction es as [|e es IH]; intros st HI; simpl; [constructor|].
  destruct (step arg_eqb f true maxsize e st) as [st1 o] eqn:E.
  destruct (Inv_step _ _ _ _ _ HI E) as (HI1 & Hexp & _).
  specialize (IH st1 HI1). destruct (run arg_eqb f true maxsize es st1) as [st2 os] eqn:R.
  simpl in *. constructor; auto.
Qed.

(** ... and the objects returned by different calls are different objects. *)
Fixpoint addresses (os : list (option (nat * val))) : list nat :=
  match os with
  | [] => []
  | Some (p, _) :: os' => p :: addresses os'
  | None :: os' => addresses os'
  end.

Theorem C06_copy_fresh : forall maxsize es,
  NoDup (addresses (snd (run arg_eqb f true maxsize es init))).
Proof.
  intros maxsize es.
  assert (H : forall st, Inv st ->
     NoDup (addresses (snd (run arg_eqb f true maxsize es st))) /\
     forall p, In p (returned st) -> ~ In p (addresses (snd (run arg_eqb f true maxsize es st)))).
  { induction es as [|e es IH]; intros st HI; simpl; [split; [constructor|auto]|].
    destruct (step arg_eqb f true maxsize e st) as [st1 o] eqn:E.
    destruct (Inv_step _ _ _ _ _ HI E) as (HI1 & _ & Hf & Hr).
    destruct (IH st1 HI1) as [H1 H2].
    destruct (run arg_eqb f true maxsize es st1) as [st2 os] eqn:R. simpl in *.
    destruct o as [[p v]|]; simpl.
    - split.
      + constructor; auto. apply H2. rewrite Hr. left. auto.
      + intros q Hq [<-|Hin]; [eapply Hf; eauto|]. apply (H2 q); auto. rewrite Hr. right. auto.
    - split; auto. intros q Hq. apply H2. rewrite Hr. auto. }
  apply (H init Inv_init).
Qed.

(** Least-recently-used retention: after any history without clearing, the retained keys are the [maxsize] most recently used
    arguments (in both modes), in order of last use. *)
Lemma keys_remove a (c : list (arg * nat)) :
  map fst (remove arg_eqb a c) = filter (fun b => negb (arg_eqb a b)) (map fst c).
Proof. unfold remove. induction c as [|[b p] c IH]; simpl; auto. destruct (arg_eqb a b); simpl; rewrite ?IH; auto. Qed.

Lemma filter_id {A} (g : A -> bool) l : (forall x, In x l -> g x = true) -> filter g l = l.
Proof. induction l; simpl; intros H; auto. rewrite H by auto. f_equal. auto. Qed.

Lemma neqb a b : a <> b -> negb (arg_eqb a b) = true.
Proof. intros H. destruct (arg_eqb a b) eqn:E; auto. apply arg_eqb_spec in E. contradiction. Qed.

Lemma touch_firstn_miss n a l : ~ In a (firstn n l) -> firstn n (a :: firstn n l) = firstn n (touch a l).
Proof.
  unfold touch. destruct n as [|n]; auto. intros Ha. cbn [firstn]. f_equal.
  revert l Ha. induction n as [|n IH]; intros [|b l] Ha; auto.
  cbn [firstn filter]. rewrite neqb by (intros ->; apply Ha; left; auto).
  cbn [firstn]. f_equal. rewrite IH; auto. intros H. apply Ha. right. exact H.
Qed.

Lemma touch_firstn_hit n a l : NoDup l -> In a (firstn n l) -> touch a (firstn n l) = firstn n (touch a l).
Proof.
  unfold touch. intros Hn Ha. destruct n as [|n]; [destruct Ha|]. cbn [firstn]. f_equal.
  revert n Ha. induction Hn as [|b l Hb Hn IH]; intros n Ha; [destruct n; auto|].
  cbn [firstn filter]. destruct (arg_eqb a b) eqn:E; cbn [negb].
  - apply arg_eqb_spec in E. subst b.
    rewrite !filter_id; auto.
    + intros x Hx. apply neqb. congruence.
    + intros x Hx. apply firstn_in in Hx. apply neqb. congruence.
  - destruct Ha as [->|Ha]; [rewrite (proj2 (arg_eqb_spec a a)) in E; [discriminate|auto]|].
    destruct n as [|n]; [destruct Ha|]. cbn [firstn]. f_equal. apply IH. auto.
Qed.

Lemma touch_NoDup a l : NoDup l -> NoDup (touch a l).
Proof.
  intros H. constructor; [|apply NoDup_filter; auto].
  rewrite filter_In. intros [_ E]. rewrite (proj2 (arg_eqb_spec a a)) in E; [discriminate|auto].
Qed.

Lemma cached_keys maxsize a st st' r L : NoDup L -> map fst (cache st) = firstn maxsize L ->
  (forall b p, In (b, p) (cache st) -> f b <> None) ->
  cached_func arg_eqb f maxsize a st = (st', r) ->
  map fst (cache st') = firstn maxsize (match f a with Some _ => touch a L | None => L end) /\
  (forall b p, In (b, p) (cache st') -> f b <> None).
Proof.
  intros Hn Hk Hf E. unfold cached_func in E.
  destruct (find arg_eqb a (cache st)) as [p|] eqn:F.
  - apply find_some in F. injection E as <- <-. simpl.
    specialize (Hf _ _ F) as Hfa. destruct (f a) as [v|]; [|congruence]. split.
    + rewrite keys_remove, Hk. change (touch a (firstn maxsize L) = firstn maxsize (touch a L)).
      apply touch_firstn_hit; auto. rewrite <- Hk. apply in_map_iff. exists (a, p). auto.
    + intros b q [Eq|Hin]; [injection Eq as <- <-; eapply Hf; eauto|]. apply filter_In in Hin. eapply Hf, Hin.
  - apply find_none in F. destruct (f a) as [v|] eqn:Fa.
    + injection E as <- <-. simpl. rewrite <- firstn_map. simpl. rewrite Hk. split.
      * apply touch_firstn_miss. rewrite <- Hk. auto.
      * intros b q Hin. apply firstn_in in Hin. destruct Hin as [Eq|Hin]; [injection Eq as <- <-; congruence|eauto].
    + injection E as <- <-. auto.
Qed.

(** The events after the last cache_clear *)
Fixpoint since_clear (acc es : list (event arg val)) : list (event arg val) :=
  match es with [] => rev acc | CacheClear :: es' => since_clear [] es' | e :: es' => since_clear (e :: acc) es' end.
Lemma calls_of_app es es' : calls_of (es ++ es') = calls_of es ++ calls_of es'.
Proof. induction es as [|[a|k v|] es IH]; simpl; auto. destruct (f a); simpl; now rewrite IH. Qed.
Theorem C06_lru : forall copy maxsize es,
  map fst (cache (fst (run arg_eqb f copy maxsize es init))) = firstn maxsize (recency (calls_of (since_clear [] es))).
Proof.
  intros copy maxsize es. unfold recency.
  assert (H : forall acc L st, NoDup L -> L = fold_left (fun l a => touch a l) (calls_of (rev acc)) [] -> map fst (cache st) = firstn maxsize L ->
     (forall b p, In (b, p) (cache st) -> f b <> None) ->
     map fst (cache (fst (run arg_eqb f copy maxsize es st))) = firstn maxsize (fold_left (fun l a => touch a l) (calls_of (since_clear acc es)) [])).
  { induction es as [|e es IH]; intros acc L st Hn HL Hk Hf; simpl; [now subst L|].
    destruct (step arg_eqb f copy maxsize e st) as [st1 o] eqn:E.
    destruct (run arg_eqb f copy maxsize es st1) as [st2 os] eqn:R. simpl.
    replace st2 with (fst (run arg_eqb f copy maxsize es st1)) by (rewrite R; auto).
    destruct e as [a|k v|]; simpl in E.
    - unfold call in E. destruct (cached_func arg_eqb f maxsize a st) as [st' r] eqn:C.
      destruct (cached_keys _ _ _ _ _ _ Hn Hk Hf C) as [Hk' Hf'].
      assert (Hst : cache st1 = cache st').
      { destruct r as [p|]; [|injection E as <- <-; auto].
        destruct copy; [|injection E as <- <-; auto].
        destruct (nth_error (heap st') p); injection E as <- <-; auto. }
      apply (IH (Call a :: acc) (match f a with Some _ => touch a L | None => L end)); rewrite ?Hst; auto.
      + destruct (f a); auto using touch_NoDup.
      + simpl. rewrite calls_of_app, fold_left_app, <- HL. simpl. destruct (f a); reflexivity.
    - injection E as <- <-. apply (IH (Mutate k v :: acc) L); auto; try (destruct (nth_error (returned st) k); auto; fail).
      simpl. rewrite calls_of_app. simpl. now rewrite app_nil_r.
    - injection E as <- <-. apply (IH [] []); simpl; auto using NoDup_nil; try (now rewrite firstn_nil); intros; contradiction. }
  apply (H [] []); simpl; auto using NoDup_nil; try (now rewrite firstn_nil); intros; contradiction.
Qed.

End Cache.

(** Concrete history: function doubling its argument; the caller spoils the first object; the second call (a hit) still returns the
    right value with [copy=True]. *)
Definition ex_f (a : nat) : option nat := if a =? 9 then None else Some (2 * a).
Example C06_ex :
  snd (run Nat.eqb ex_f true 2 [Call 3; Mutate 0 777; Call 3; Call 9] init)
  = [Some (1, 6); None; Some (2, 6); None].
Proof. reflexivity. Qed.

(** Without copy, the second caller sees what the first caller did to the object. *)
Theorem C06_nocopy_refuted :
  ~ (forall maxsize es, Forall2 (expected ex_f) es (snd (run Nat.eqb ex_f false maxsize es init))).
Proof.
  intros H. specialize (H 2 [Call 3; Mutate 0 777; Call 3]). vm_compute in H.
  inversion H; subst. inversion H5; subst. inversion H7; subst. destruct H6 as (p & E). discriminate.
Qed.

Example C06_lru_ex :
  map fst (cache (fst (run Nat.eqb ex_f true 2 [Call 5; CacheClear; Call 1; Call 2; Call 1; Call 3] init))) = [3; 1].
Proof. reflexivity. Qed.

Print Assumptions C06_copy_correct.
Print Assumptions C06_copy_fresh.
Print Assumptions C06_lru.
Print Assumptions C06_nocopy_refuted.
