(** Property C14: the distributed dictionary. *)
From Coq Require Import List Arith Bool Lia.
From Verif Require Import M_Rma.
Import ListNotations.

(** ** Dictionaries *)

Lemma lookup_dset {A} k k' (a : A) d : lookup k (dset k' a d) = if k =? k' then Some a else lookup k d.
Proof.
  induction d as [|[k2 a2] d IH]; simpl.
  - auto.
  - destruct (k' =? k2) eqn:E; simpl.
    + apply Nat.eqb_eq in E. subst k2. destruct (k =? k'); auto.
    + rewrite IH. destruct (k =? k2) eqn:E2; auto. apply Nat.eqb_eq in E2. subst k2.
      rewrite Nat.eqb_sym, E. auto.
Qed.

Lemma dset_keys {A} k (a : A) d x : In x (map fst (dset k a d)) <-> x = k \/ In x (map fst d).
Proof.
  induction d as [|[k2 a2] d IH]; simpl.
  - intuition auto.
  - destruct (k =? k2) eqn:E; simpl.
    + apply Nat.eqb_eq in E. subst. intuition auto.
    + rewrite IH. intuition auto.
Qed.

Lemma dset_NoDup {A} k (a : A) d : NoDup (map fst d) -> NoDup (map fst (dset k a d)).
Proof.
  induction d as [|[k2 a2] d IH]; simpl; intros H.
  - repeat constructor. intros [].
  - inversion H; subst. destruct (k =? k2) eqn:E; simpl.
    + apply Nat.eqb_eq in E. subst. constructor; auto.
    + constructor; auto. rewrite dset_keys. intros [->|Hi]; auto. rewrite Nat.eqb_refl in E. discriminate.
Qed.

Lemma lookup_In {A} k (a : A) d : lookup k d = Some a -> In (k, a) d.
Proof.
  induction d as [|[k2 a2] d IH]; simpl; [discriminate|]. destruct (k =? k2) eqn:E; auto.
  apply Nat.eqb_eq in E. intros H. injection H as ->. subst. auto.
Qed.

Lemma In_lookup {A} k (a : A) d : NoDup (map fst d) -> In (k, a) d -> lookup k d = Some a.
Proof.
  induction d as [|[k2 a2] d IH]; simpl; intros Hn; [tauto|]. inversion Hn; subst. intros [E|Hi].
  - injection E as -> ->. rewrite Nat.eqb_refl. auto.
  - destruct (k =? k2) eqn:E; auto. apply Nat.eqb_eq in E. subst. exfalso. apply H1. apply in_map_iff. exists (k2, a). auto.
Qed.

Lemma lookup_app {A} k (d1 d2 : list (key * A)) : lookup k (d1 ++ d2) = match lookup k d1 with Some a => Some a | None => lookup k d2 end.
Proof. induction d1 as [|[k2 a2] d1 IH]; simpl; auto. destruct (k =? k2); auto. Qed.

Section Rma.
Context {data : Type}.
Notation value := (value data). Notation op := (op data). Notation action := (action data). Notation entry := (entry data).
Notation config := (config data). Notation rank_state := (rank_state data).
Variable P : nat.
Variable progs : nat -> list action.

(** ** Specification *)

Fixpoint sections (p : list action) : list (list op) :=
  match p with [] => [] | Section_ b :: p' => b :: sections p' | Op _ :: p' => sections p' end.

(** The body of the n-th section on rank r, and what it assigns to a key (the last assignment counts). *)
Definition sec (r n : nat) : list op := nth n (sections (progs r)) [].
Fixpoint last_write (k : key) (b : list op) : option value :=
  match b with
  | [] => None
  | Write k' v :: b' => match last_write k b' with Some v' => Some v' | None => if k =? k' then Some v else None end
  | Read _ :: b' => last_write k b'
  end.

(** The one dictionary everybody should see after n sections. *)
Fixpoint dict_after (n : nat) (k : key) : option value :=
  match n with
  | 0 => None
  | S m => match find (fun r => match last_write k (sec r m) with Some _ => true | None => false end) (seq 0 P) with
           | Some r => last_write k (sec r m)
           | None => dict_after m k
           end
  end.

(** Two different ranks write the same key in the n-th section. *)
Definition conflict (n : nat) : Prop :=
  exists k r1 r2, r1 < P /\ r2 < P /\ r1 <> r2 /\ last_write k (sec r1 n) <> None /\ last_write k (sec r2 n) <> None.

(** The results of all accesses a program makes, starting after n sections. *)
Definition inside_log (b : list op) : list entry := flat_map (fun o => match o with Read _ => [Refused] | Write _ _ => [] end) b.
Fixpoint expected (p : list action) (n : nat) : list entry :=
  match p with
  | [] => []
  | Section_ b :: p' => inside_log b ++ expected p' (S n)
  | Op (Write _ _) :: p' => Refused :: expected p' n
  | Op (Read k) :: p' => match dict_after n k with None => KeyErr | Some v => Val v end :: expected p' n
  end.

Definition finished (c : config) : Prop := forall r, r < P -> ph (rs c r) = Idle /\ prog (rs c r) = [].
Definition all_failed (c : config) : Prop := forall r, r < P -> ph (rs c r) = Failed.

Fixpoint run_local (b : list op) (d : list (key * value)) : list (key * value) :=
  match b with [] => d | Write k v :: b' => run_local b' (dset k v d) | Read _ :: b' => run_local b' d end.

Lemma run_local_app b1 b2 d : run_local (b1 ++ b2) d = run_local b2 (run_local b1 d).
Proof. revert d. induction b1 as [|[k v|k] b1 IH]; intros d; simpl; auto. Qed.

Lemma run_local_lookup k b : forall d, lookup k (run_local b d) = match last_write k b with Some v => Some v | None => lookup k d end.
Proof.
  induction b as [|[k' v|k'] b IH]; intros d; simpl; auto. rewrite IH, lookup_dset.
  destruct (last_write k b); auto. destruct (k =? k'); auto.
Qed.

Lemma run_local_NoDup b : forall d, NoDup (map fst d) -> NoDup (map fst (run_local b d)).
Proof. induction b as [|[k' v|k'] b IH]; intros d H; simpl; auto. apply IH, dset_NoDup, H. Qed.

(** ** The loop of synchronize as a function *)

Definition alloc1 (st : list (key * elem) * nat) (item : nat * key * bool) : option (list (key * elem) * nat) :=
  let '(q, k, isnone) := item in
  match lookup k (fst st) with
  | Some _ => None
  | None => Some (if isnone then ((k, {| loc := q; win := None |}) :: fst st, snd st)
                  else ((k, {| loc := q; win := Some (snd st) |}) :: fst st, S (snd st)))
  end.
Fixpoint alloc (l : list (nat * key * bool)) (st : list (key * elem) * nat) : option (list (key * elem) * nat) :=
  match l with
  | [] => Some st
  | x :: l' => match alloc1 st x with Some st' => alloc l' st' | None => None end
  end.

Lemma alloc_app l1 l2 st : alloc (l1 ++ l2) st = match alloc l1 st with Some st' => alloc l2 st' | None => None end.
Proof. revert st. induction l1 as [|x l1 IH]; intros st; simpl; auto. destruct (alloc1 st x); auto. Qed.

Lemma alloc_sound l : forall acc nw acc' nw', alloc l (acc, nw) = Some (acc', nw') ->
  nw <= nw' /\
  (forall k e, lookup k acc' = Some e -> lookup k acc = Some e \/
     exists b, In (loc e, k, b) l /\ match win e with None => b = true | Some w => b = false /\ nw <= w < nw' end) /\
  (forall k e, lookup k acc = Some e -> lookup k acc' = Some e).
Proof.
  induction l as [|[[q k0] b0] l IH]; intros acc nw acc' nw' H; cbn [alloc] in H.
  - injection H as <- <-. auto.
  - unfold alloc1 in H. cbn [fst snd] in H. destruct (lookup k0 acc) eqn:E0; [discriminate|].
    destruct b0; apply IH in H; destruct H as (Hle & H1 & H2); (split; [lia|split]).
    + intros k e Hk. destruct (H1 k e Hk) as [Hl|(b & Hin & Hw)].
      * simpl in Hl. destruct (k =? k0) eqn:Ek; auto. apply Nat.eqb_eq in Ek. injection Hl as <-. subst. right.
        exists true. simpl. auto.
      * right. exists b. split; [right; auto|]. destruct (win e); auto.
    + intros k e Hk. apply H2. simpl. destruct (k =? k0) eqn:Ek; auto. apply Nat.eqb_eq in Ek. subst. congruence.
    + intros k e Hk. destruct (H1 k e Hk) as [Hl|(b & Hin & Hw)].
      * simpl in Hl. destruct (k =? k0) eqn:Ek; auto. apply Nat.eqb_eq in Ek. injection Hl as <-. subst. right.
        exists false. simpl. auto with arith.
      * right. exists b. split; [right; auto|]. destruct (win e); auto. destruct Hw. split; auto. lia.
    + intros k e Hk. apply H2. simpl. destruct (k =? k0) eqn:Ek; auto. apply Nat.eqb_eq in Ek. subst. congruence.
Qed.

(** Success means that the keys are new and pairwise different. *)
Definition keys_of (l : list (nat * key * bool)) : list key := map (fun x => snd (fst x)) l.
Lemma alloc_iff l : forall st, (exists st', alloc l st = Some st') <->
  NoDup (keys_of l) /\ forall k, In k (keys_of l) -> lookup k (fst st) = None.
Proof.
  induction l as [|[[q k0] b0] l IH]; intros [acc nw]; cbn [alloc keys_of map fst snd].
  - split; [|eauto]. intros _. split; [constructor|intros k []].
  - unfold alloc1. cbn [fst snd]. fold (keys_of l). destruct (lookup k0 acc) eqn:E0.
    + split; [intros [st' H]; discriminate|]. intros [_ H]. rewrite H in E0 by (left; auto). discriminate.
    + assert (G : forall e n, (exists st', alloc l ((k0, e) :: acc, n) = Some st') <->
                NoDup (k0 :: keys_of l) /\ forall k, In k (k0 :: keys_of l) -> lookup k acc = None).
      { intros e n. rewrite IH. cbn [fst]. split.
        - intros [Hn Hk]. split.
          + constructor; auto. intros Hi. apply Hk in Hi. simpl in Hi. rewrite Nat.eqb_refl in Hi. discriminate.
          + intros k [<-|Hi]; auto. apply Hk in Hi. simpl in Hi. destruct (k =? k0); [discriminate|auto].
        - intros [Hn Hk]. inversion Hn; subst. split; auto. intros k Hi. simpl. destruct (k =? k0) eqn:E.
          + apply Nat.eqb_eq in E. subst. contradiction.
          + apply Hk. right. auto. }
      destruct b0; apply G.
Qed.

(** ** Ghost state *)

Definition L (n : nat) : list (nat * key * bool) := flat_map (fun r => metadata r (run_local (sec r n) [])) (seq 0 P).
Fixpoint EW (n : nat) : list (key * elem) * nat :=
  match n with
  | 0 => ([], 0)
  | S m => match alloc (L m) ([], snd (EW m)) with Some (acc, nw) => (acc ++ fst (EW m), nw) | None => EW m end
  end.

Lemma In_L n q k b : In (q, k, b) (L n) <->
  q < P /\ exists v, last_write k (sec q n) = Some v /\ b = match v with None => true | Some _ => false end.
Proof.
  unfold L. rewrite in_flat_map. split.
  - intros (r & Hr & Hin). apply in_seq in Hr. unfold metadata in Hin. apply in_map_iff in Hin.
    destruct Hin as ((k' & v) & E & Hin). injection E as <- <- <-. split; [lia|]. exists v. split; auto.
    apply In_lookup in Hin; [|apply run_local_NoDup; constructor]. rewrite run_local_lookup in Hin.
    destruct (last_write k' (sec r n)); simpl in Hin; congruence.
  - intros (Hq & v & Hv & ->). exists q. split; [apply in_seq; lia|]. unfold metadata. apply in_map_iff. exists (k, v).
    split; auto. apply lookup_In. rewrite run_local_lookup, Hv. auto.
Qed.

(** The gathered keys are distinct iff there is no conflict. *)
Lemma keys_metadata r (d : list (key * value)) : keys_of (metadata r d) = map fst d.
Proof. unfold keys_of, metadata. rewrite map_map. apply map_ext. intros [k v]. auto. Qed.

Lemma L_conflict n : ~ NoDup (keys_of (L n)) <-> conflict n.
Proof.
  assert (Hk : forall l, keys_of (flat_map (fun r => metadata r (run_local (sec r n) [])) l) = flat_map (fun r => map fst (run_local (sec r n) [])) l).
  { intros l. unfold keys_of. induction l as [|r l IH]; simpl; auto. rewrite map_app, IH. f_equal. apply keys_metadata. }
  assert (Hin : forall r k, In k (map fst (run_local (sec r n) [])) <-> last_write k (sec r n) <> None).
  { intros r k. rewrite in_map_iff. split.
    - intros ((k' & v) & <- & H). apply In_lookup in H; [|apply run_local_NoDup; constructor]. rewrite run_local_lookup in H. simpl in *.
      destruct (last_write k' (sec r n)); congruence.
    - intros H. destruct (last_write k (sec r n)) as [v|] eqn:E; [|congruence]. exists (k, v). split; auto.
      apply lookup_In. rewrite run_local_lookup, E. auto. }
  unfold L. rewrite Hk. unfold conflict.
  assert (G : forall l, NoDup l -> (NoDup (flat_map (fun r => map fst (run_local (sec r n) [])) l) <->
     forall k r1 r2, In r1 l -> In r2 l -> last_write k (sec r1 n) <> None -> last_write k (sec r2 n) <> None -> r1 = r2)).
  { induction l as [|r l IH]; intros Hl; simpl.
    - split; [intros _ k r1 r2 []|constructor].
    - inversion Hl; subst. specialize (IH H2). split.
      + intros Hn. assert (Hn2 : NoDup (flat_map (fun r0 => map fst (run_local (sec r0 n) [])) l)).
        { clear - Hn. revert Hn. generalize (map fst (run_local (sec r n) [])) as a. induction a; simpl; auto. inversion 1; auto. }
        assert (Hd : forall k, In k (map fst (run_local (sec r n) [])) -> ~ In k (flat_map (fun r0 => map fst (run_local (sec r0 n) [])) l)).
        { clear - Hn. revert Hn. generalize (map fst (run_local (sec r n) [])) as a.
          induction a as [|x a IHa]; simpl; [tauto|]. intros Hn k [->|Hk]; inversion Hn; subst; auto.
          intros Hi. apply H1, in_app_iff. auto. }
        intros k r1 r2 [<-|H3] [<-|H4] W1 W2; auto.
        * exfalso. apply (Hd k); [apply Hin; auto|]. apply in_flat_map. exists r2. split; auto. apply Hin. auto.
        * exfalso. apply (Hd k); [apply Hin; auto|]. apply in_flat_map. exists r1. split; auto. apply Hin. auto.
        * eapply (proj1 IH); eauto.
      + intros H. assert (Happ : forall l1 l2 : list key, NoDup l1 -> NoDup l2 -> (forall x, In x l1 -> In x l2 -> False) -> NoDup (l1 ++ l2)).
        { clear. induction l1 as [|a l1 IH]; simpl; auto. intros l2 H1 H2 H. inversion H1; subst. constructor.
          - rewrite in_app_iff. intros [?|?]; auto. apply (H a); auto.
          - apply IH; auto. intros x Hx Hy. apply (H x); auto. }
        apply Happ.
        * apply run_local_NoDup. constructor.
        * apply IH. intros k r1 r2 H3 H4. apply H; right; auto.
        * intros k Hk1 Hk2. apply in_flat_map in Hk2. destruct Hk2 as (r2 & Hr2 & Hk2). apply Hin in Hk1, Hk2.
          assert (r = r2) by (apply (H k); simpl; auto). subst. auto. }
  specialize (G (seq 0 P) (seq_NoDup P 0)). rewrite G. split.
  - intros H.
    (* find a conflict constructively: decide over all keys and ranks *)
    set (K := flat_map (fun r => map fst (run_local (sec r n) [])) (seq 0 P)).
    set (test := fun k r => match last_write k (sec r n) with Some _ => true | None => false end).
    destruct (existsb (fun k => existsb (fun r1 => existsb (fun r2 => negb (r1 =? r2) && test k r1 && test k r2) (seq 0 P)) (seq 0 P)) K) eqn:E.
    + apply existsb_exists in E. destruct E as (k & _ & E). apply existsb_exists in E. destruct E as (r1 & Hr1 & E).
      apply existsb_exists in E. destruct E as (r2 & Hr2 & E). apply andb_true_iff in E. destruct E as [E E3].
      apply andb_true_iff in E. destruct E as [E1 E2]. apply in_seq in Hr1, Hr2. apply negb_true_iff, Nat.eqb_neq in E1.
      exists k, r1, r2. unfold test in *. repeat split; try lia.
      * destruct (last_write k (sec r1 n)); congruence.
      * destruct (last_write k (sec r2 n)); congruence.
    + exfalso. apply H. intros k r1 r2 Hr1 Hr2 W1 W2. destruct (Nat.eq_dec r1 r2) as [|Hne]; auto. exfalso.
      rewrite <- not_true_iff_false in E. apply E. apply existsb_exists. exists k. split.
      * apply in_flat_map. exists r1. split; auto. apply Hin. auto.
      * apply existsb_exists. exists r1. split; auto. apply existsb_exists. exists r2. split; auto.
        apply Nat.eqb_neq in Hne. rewrite Hne. unfold test.
        destruct (last_write k (sec r1 n)), (last_write k (sec r2 n)); simpl; congruence.
  - intros (k & r1 & r2 & H1 & H2 & Hne & W1 & W2) H. apply Hne. apply (H k); auto; apply in_seq; lia.
Qed.

Lemma alloc_conflict n nw : alloc (L n) ([], nw) = None <-> conflict n.
Proof.
  rewrite <- L_conflict. pose proof (alloc_iff (L n) ([], nw)) as H. destruct (alloc (L n) ([], nw)) as [st|].
  - split; [discriminate|]. intros Hn. exfalso. apply Hn. apply H. eauto.
  - split; auto. intros _ Hn. destruct (proj2 H) as [st E]; [|discriminate]. split; auto.
Qed.

(** ** Invariant *)

Definition M1 (n : nat) (m : nat -> nat -> option value) : Prop :=
  (forall k, getitem m (fst (EW n)) k = match dict_after n k with None => KeyErr | Some v => Val v end) /\
  (forall k e w, lookup k (fst (EW n)) = Some e -> win e = Some w -> w < snd (EW n)).

Definition base (n r : nat) (s : rank_state) (rest : list entry) : Prop :=
  n < length (sections (progs r)) /\ skipn (S n) (sections (progs r)) = sections (prog s) /\
  expected (progs r) 0 = log s ++ rest ++ expected (prog s) (S n).

Definition RA (n r : nat) (s : rank_state) : Prop :=
  elems s = fst (EW n) /\ nwin s = snd (EW n) /\
  match ph s with
  | Idle => local s = [] /\ skipn n (sections (progs r)) = sections (prog s) /\ expected (progs r) 0 = log s ++ expected (prog s) n
  | Writing body => exists done, sec r n = done ++ body /\ local s = run_local done [] /\ base n r s (inside_log body)
  | Wait1 => local s = run_local (sec r n) [] /\ base n r s []
  | _ => False
  end.

Definition own (r : nat) (s : rank_state) (m : nat -> nat -> option value) (acc : list (key * elem)) : Prop :=
  forall k e w, lookup k acc = Some e -> loc e = r -> win e = Some w -> m w r = lookup k (local s).

Definition RB (n r : nat) (s : rank_state) (m : nat -> nat -> option value) : Prop :=
  local s = run_local (sec r n) [] /\ base n r s [] /\
  match ph s with
  | Build todo acc => elems s = fst (EW n) /\ (exists pre, L n = pre ++ todo /\ alloc pre ([], snd (EW n)) = Some (acc, nwin s)) /\ own r s m acc
  | Wait2 => exists acc, alloc (L n) ([], snd (EW n)) = Some (acc, nwin s) /\ elems s = acc ++ fst (EW n) /\ own r s m acc
  | Failed => alloc (L n) ([], snd (EW n)) = None
  | _ => False
  end.

Definition Inv (c : config) : Prop :=
  exists n, (forall m, m < n -> ~ conflict m) /\ M1 n (mem c) /\ ((forall r, r < P -> RA n r (rs c r)) \/ (forall r, r < P -> RB n r (rs c r) (mem c))).

Lemma upd_eq {A} (f : nat -> A) r x : upd f r x r = x.
Proof. unfold upd. rewrite Nat.eqb_refl. auto. Qed.
Lemma upd_neq {A} (f : nat -> A) r x q : q <> r -> upd f r x q = f q.
Proof. intros H. unfold upd. apply Nat.eqb_neq in H. rewrite H. auto. Qed.

Lemma nth_skipn {A} n (l : list A) d x r : skipn n l = x :: r -> nth n l d = x /\ n < length l /\ skipn (S n) l = r.
Proof.
  revert l. induction n as [|n IH]; intros l H; destruct l as [|a l]; simpl in H; try discriminate.
  - injection H as -> ->. simpl. repeat split. lia.
  - apply IH in H. simpl. destruct H as (H1 & H2 & H3). repeat split; auto. lia.
Qed.

(** A Put into a window beyond [snd (EW n)] does not disturb what is visible. *)
Lemma M1_put n m w r x : M1 n m -> snd (EW n) <= w -> M1 n (upd2 m w r x).
Proof.
  intros [H1 H2] Hw. split; auto. intros k. rewrite <- H1. unfold getitem.
  destruct (lookup k (fst (EW n))) as [e|] eqn:E; auto. destruct (win e) as [w'|] eqn:Ew; auto.
  specialize (H2 k e w' E Ew). unfold upd2. replace (w' =? w) with false by (symmetry; apply Nat.eqb_neq; lia). auto.
Qed.

Lemma Inv_init : Inv (init progs).
Proof.
  exists 0. split; [intros m Hm; lia|]. split.
  - split; [reflexivity|]. intros k e w H. discriminate.
  - left. intros r _. split; [reflexivity|]. split; [reflexivity|]. simpl. auto.
Qed.

(** One rank changes within stage A. *)
Lemma Inv_A c n r s' : (forall m, m < n -> ~ conflict m) -> M1 n (mem c) -> (forall q, q < P -> RA n q (rs c q)) -> RA n r s' ->
  Inv {| mem := mem c; rs := upd (rs c) r s' |}.
Proof.
  intros Hpast HM HA Hs. exists n. split; auto. split; auto. left. intros q Hq. simpl. destruct (Nat.eq_dec q r) as [->|Hne].
  - rewrite upd_eq. auto.
  - rewrite upd_neq by auto. auto.
Qed.

Lemma Inv_step c c' : Inv c -> step P c c' -> Inv c'.
Proof.
  intros (n & Hpast & HM & HI) Hst. destruct Hst as [c r body p Hr Hph Hprog|c r o p Hr Hph Hprog|c r o body Hr Hph|c r Hr Hph|c Hall
     |c r item todo acc Hr Hph|c r acc Hr Hph|c Hall].
  - (* enter *)
    destruct HI as [HA|HB]; [|specialize (HB r Hr); destruct HB as (_ & _ & HB); rewrite Hph in HB; contradiction].
    apply (Inv_A c n r); auto. pose proof (HA r Hr) as (He & Hw & Hx). rewrite Hph in Hx. destruct Hx as (Hl & Hs & Hlog).
    split; [auto|]. split; [auto|]. cbn [ph prog local log]. exists []. rewrite Hprog in Hs, Hlog. cbn [sections] in Hs.
    apply (nth_skipn n _ []) in Hs. destruct Hs as (Hs1 & Hs2 & Hs3).
    split; [unfold sec; rewrite Hs1; auto|]. split; auto. split; auto.
  - (* outside *)
    destruct HI as [HA|HB]; [|specialize (HB r Hr); destruct HB as (_ & _ & HB); rewrite Hph in HB; contradiction].
    apply (Inv_A c n r); auto. pose proof (HA r Hr) as (He & Hw & Hx). rewrite Hph in Hx. destruct Hx as (Hl & Hs & Hlog).
    split; [auto|]. split; [auto|]. cbn [outside ph prog local log]. split; auto. rewrite Hprog in Hs, Hlog. cbn [sections] in Hs.
    split; auto. rewrite <- app_assoc. cbn [app]. rewrite Hlog. cbn [expected]. destruct o as [k v|k]; auto.
    rewrite He. rewrite (proj1 HM). auto.
  - (* inside *)
    destruct HI as [HA|HB]; [|specialize (HB r Hr); destruct HB as (_ & _ & HB); rewrite Hph in HB; contradiction].
    apply (Inv_A c n r); auto. pose proof (HA r Hr) as (He & Hw & Hx). rewrite Hph in Hx.
    destruct Hx as (done & Hd & Hl & Hn & Hs & Hlog).
    destruct o as [k v|k]; cbn [inside]; (split; [auto|]); (split; [auto|]); cbn [ph prog local log];
      (exists (done ++ [match ph (rs c r) with Writing (o :: _) => o | _ => Read 0 end]); rewrite Hph).
    + split; [rewrite <- app_assoc; auto|]. split; [rewrite run_local_app, <- Hl; auto|]. split; auto.
    + split; [rewrite <- app_assoc; auto|]. split; [rewrite run_local_app, <- Hl; auto|]. split; auto. split; auto.
      cbn [prog log]. rewrite Hlog. unfold inside_log. cbn [flat_map]. rewrite <- !app_assoc. auto.
  - (* exit *)
    destruct HI as [HA|HB]; [|specialize (HB r Hr); destruct HB as (_ & _ & HB); rewrite Hph in HB; contradiction].
    apply (Inv_A c n r); auto. pose proof (HA r Hr) as (He & Hw & Hx). rewrite Hph in Hx.
    destruct Hx as (done & Hd & Hl & Hb). rewrite app_nil_r in Hd. subst done.
    split; [auto|]. split; [auto|]. cbn [set_ph ph prog local log]. split; auto.
  - (* gather *)
    destruct (Nat.eq_dec P 0) as [EP|EP].
    { exists n. split; auto. split; auto. left. intros r Hr. lia. }
    destruct HI as [HA|HB]; [|specialize (HB 0 ltac:(lia)); destruct HB as (_ & _ & HB); rewrite Hall in HB by lia; contradiction].
    assert (HL : allgather P (rs c) = L n).
    { unfold allgather, L. rewrite !flat_map_concat_map. f_equal. apply map_ext_in. intros r Hr. apply in_seq in Hr.
      destruct (HA r ltac:(lia)) as (_ & _ & Hx). rewrite Hall in Hx by lia. destruct Hx as [-> _]. auto. }
    exists n. split; auto. split; auto. right. intros r Hr. destruct (HA r Hr) as (He & Hw & Hx). rewrite Hall in Hx by auto. destruct Hx as [Hl Hb].
    split; [auto|]. split; [auto|]. cbn [rs set_ph ph elems nwin]. rewrite HL. split; auto. split.
    + exists []. split; auto. simpl. rewrite Hw. auto.
    + intros k e w Hk. discriminate.
  - (* build *)
    destruct HI as [HA|HB]; [specialize (HA r Hr); destruct HA as (_ & _ & HA); rewrite Hph in HA; contradiction|].
    pose proof (HB r Hr) as (Hl & Hb & Hx). rewrite Hph in Hx. destruct Hx as (He & (pre & HL & Hal) & Hown).
    destruct item as [[q k] isnone]. cbn [build_step].
    pose proof (alloc_sound pre [] (snd (EW n)) acc (nwin (rs c r)) Hal) as (Hle & Hs1 & _).
    destruct (lookup k acc) as [e0|] eqn:Ek.
    + (* failure *)
      exists n. split; auto. split; auto. right. intros x Hxr. cbn [rs fst snd mem]. destruct (Nat.eq_dec x r) as [->|Hne].
      * rewrite upd_eq. split; [auto|]. split; [auto|]. cbn [set_ph ph]. rewrite HL, alloc_app, Hal. cbn [alloc alloc1].
        cbn [fst]. rewrite Ek. auto.
      * rewrite upd_neq by auto. apply HB. auto.
    + assert (Halloc : forall st, alloc1 (acc, nwin (rs c r)) (q, k, isnone) = Some st -> alloc (pre ++ [(q, k, isnone)]) ([], snd (EW n)) = Some st).
      { intros st E. rewrite alloc_app, Hal. cbn [alloc]. rewrite E. auto. }
      unfold alloc1 in Halloc. cbn [fst snd] in Halloc. rewrite Ek in Halloc.
      destruct isnone.
      * exists n. split; auto. split; auto. right. intros x Hxr. cbn [rs fst snd mem]. destruct (Nat.eq_dec x r) as [->|Hne].
        -- rewrite upd_eq. split; [auto|]. split; [auto|]. cbn [set_ph ph elems nwin]. split; auto. split.
           ++ exists (pre ++ [(q, k, true)]). split; [rewrite <- app_assoc; auto|]. apply Halloc. auto.
           ++ intros k' e w Hk' Hloc Hwin. simpl in Hk'. destruct (k' =? k) eqn:Ekk.
              ** injection Hk' as <-. discriminate.
              ** apply (Hown k' e w); auto.
        -- rewrite upd_neq by auto. apply HB. auto.
      * (* a window *)
        assert (HM' : M1 n (if q =? r then upd2 (mem c) (nwin (rs c r)) r (lookup k (local (rs c r))) else mem c)).
        { destruct (q =? r); auto. apply M1_put; auto. }
        exists n. split; auto. split; [exact HM'|]. right. intros x Hxr. cbn [rs fst snd mem]. destruct (Nat.eq_dec x r) as [->|Hne].
        -- rewrite upd_eq. split; [auto|]. split; [auto|]. cbn [ph elems nwin]. split; auto. split.
           ++ exists (pre ++ [(q, k, false)]). split; [rewrite <- app_assoc; auto|]. apply Halloc. auto.
           ++ intros k' e w Hk' Hloc Hwin. cbn [local]. simpl in Hk'. destruct (k' =? k) eqn:Ekk.
              ** apply Nat.eqb_eq in Ekk. subst k'. injection Hk' as <-. cbn [loc win] in *. subst q. injection Hwin as <-.
                 rewrite Nat.eqb_refl. unfold upd2. rewrite !Nat.eqb_refl. auto.
              ** rewrite <- (Hown k' e w); auto. destruct (q =? r); auto. unfold upd2.
                 destruct (Hs1 k' e Hk') as [Hno|(b & _ & Hwb)]; [discriminate|]. rewrite Hwin in Hwb.
                 replace (w =? nwin (rs c r)) with false by (symmetry; apply Nat.eqb_neq; lia). auto.
        -- rewrite upd_neq by auto. specialize (HB x Hxr). destruct HB as (B1 & B2 & B3). split; auto. split; auto.
           assert (Hstab : forall a, own x (rs c x) (mem c) a ->
                    own x (rs c x) (if q =? r then upd2 (mem c) (nwin (rs c r)) r (lookup k (local (rs c r))) else mem c) a).
           { intros a Ho k' e w Hk' Hloc Hwin. rewrite <- (Ho k' e w); auto. destruct (q =? r); auto. unfold upd2.
             replace (x =? r) with false by (symmetry; apply Nat.eqb_neq; auto). rewrite andb_false_r. auto. }
           destruct (ph (rs c x)); auto.
           ++ destruct B3 as (B3 & B4 & B5). auto.
           ++ destruct B3 as (a & B3 & B4 & B5). exists a. auto.
  - (* update *)
    destruct HI as [HA|HB]; [specialize (HA r Hr); destruct HA as (_ & _ & HA); rewrite Hph in HA; contradiction|].
    pose proof (HB r Hr) as (Hl & Hb & Hx). rewrite Hph in Hx. destruct Hx as (He & (pre & HL & Hal) & Hown).
    rewrite app_nil_r in HL. subst pre.
    exists n. split; auto. split; auto. right. intros x Hxr. cbn [rs mem]. destruct (Nat.eq_dec x r) as [->|Hne].
    + rewrite upd_eq. split; [auto|]. split; [auto|]. cbn [ph elems nwin]. exists acc. split; auto. rewrite He. auto.
    + rewrite upd_neq by auto. apply HB. auto.
  - (* leave *)
    destruct (Nat.eq_dec P 0) as [EP|EP].
    { exists n. split; auto. split; auto. left. intros r Hr. lia. }
    destruct HI as [HA|HB]; [specialize (HA 0 ltac:(lia)); destruct HA as (_ & _ & HA); rewrite Hall in HA by lia; contradiction|].
    destruct (HB 0 ltac:(lia)) as (_ & _ & Hx). rewrite Hall in Hx by lia. destruct Hx as (acc & Hal & _ & _).
    assert (HEW : EW (S n) = (acc ++ fst (EW n), nwin (rs c 0))) by (cbn [EW]; rewrite Hal; auto).
    pose proof (alloc_sound _ _ _ _ _ Hal) as (Hle & Hs1 & _).
    assert (Hsame : forall r, r < P -> elems (rs c r) = acc ++ fst (EW n) /\ nwin (rs c r) = nwin (rs c 0) /\ own r (rs c r) (mem c) acc).
    { intros r Hr. destruct (HB r Hr) as (_ & _ & Hx). rewrite Hall in Hx by lia. destruct Hx as (acc' & Hal' & He & Ho).
      rewrite Hal in Hal'. injection Hal' as <- <-. auto. }
    assert (Hnc : ~ conflict n) by (rewrite <- (alloc_conflict n (snd (EW n))); congruence).
    exists (S n). split.
    { intros m Hm. destruct (Nat.eq_dec m n) as [->|]; auto. apply Hpast. lia. }
    split.
    + (* M1 *)
      unfold M1. rewrite HEW. cbn [fst snd]. split.
      * intros k. unfold getitem. rewrite lookup_app. destruct (lookup k acc) as [e|] eqn:Ek.
        -- destruct (Hs1 k e Ek) as [Hno|(b & Hin & Hb)]; [discriminate|].
           apply In_L in Hin. destruct Hin as (Hq & v & Hv & Hbv).
           assert (HD : dict_after (S n) k = Some v).
           { cbn [dict_after]. destruct (find _ (seq 0 P)) as [r'|] eqn:Ef.
             - apply find_some in Ef. destruct Ef as [Hr' Ef]. apply in_seq in Hr'.
               destruct (Nat.eq_dec r' (loc e)) as [->|Hne]; auto. exfalso. apply Hnc. exists k, r', (loc e).
               repeat split; auto; try lia; [destruct (last_write k (sec r' n)); congruence|congruence].
             - apply find_none with (x := loc e) in Ef; [|apply in_seq; lia]. rewrite Hv in Ef. discriminate. }
           rewrite HD. cbn [mem]. destruct (win e) as [w|] eqn:Ew.
           ++ destruct (Hsame (loc e) Hq) as (_ & _ & Ho). rewrite (Ho k e w) by auto.
              destruct (HB (loc e) Hq) as (Hloc & _). rewrite Hloc, run_local_lookup, Hv. auto.
           ++ subst b. destruct v; [discriminate|]. auto.
        -- assert (HD : dict_after (S n) k = dict_after n k).
           { cbn [dict_after]. destruct (find _ (seq 0 P)) as [r'|] eqn:Ef; auto. exfalso.
             apply find_some in Ef. destruct Ef as [Hr' Ef]. apply in_seq in Hr'.
             destruct (last_write k (sec r' n)) as [v|] eqn:Ev; [|discriminate].
             assert (Hin : In (r', k, match v with None => true | Some _ => false end) (L n)) by (apply In_L; split; [lia|eauto]).
             clear - Hal Ek Hin. revert Hal Ek Hin.
             assert (G : forall l st acc nw, alloc l st = Some (acc, nw) -> forall q k b, In (q, k, b) l -> lookup k acc <> None).
             { induction l as [|[[q0 k0] b0] l IH]; intros [a0 n0] acc0 nw0 H q1 k1 b1; [intros []|].
               cbn [alloc] in H. destruct (alloc1 (a0, n0) (q0, k0, b0)) as [[a1 n1]|] eqn:E1; [|discriminate]. intros [E|Hi].
               - injection E as -> -> ->. apply alloc_sound in H. destruct H as (_ & _ & H).
                 unfold alloc1 in E1. cbn [fst snd] in E1. destruct (lookup k1 a0) eqn:E0; [discriminate|].
                 assert (Hl : exists e, lookup k1 a1 = Some e).
                 { injection E1 as E1. destruct b1; injection E1 as <- <-; simpl; rewrite Nat.eqb_refl; eauto. }
                 destruct Hl as [e Hl]. rewrite (H _ _ Hl). discriminate.
               - eapply IH; eauto. }
             intros Hal Ek Hin. eapply G; eauto. }
           rewrite HD. apply (proj1 HM).
      * intros k e w Hk Hw. rewrite lookup_app in Hk. destruct (lookup k acc) as [e'|] eqn:Ek.
        -- injection Hk as <-. destruct (Hs1 k e' Ek) as [Hno|(b & _ & Hb)]; [discriminate|]. rewrite Hw in Hb. lia.
        -- destruct HM as [_ HM2]. specialize (HM2 k e w Hk Hw). lia.
    + left. intros r Hr. destruct (Hsame r Hr) as (He & Hn & _). cbn [rs]. unfold RA. rewrite HEW. cbn [elems nwin fst snd ph local prog log].
      split; auto. split; auto. split; auto. destruct (HB r Hr) as (_ & (Hb1 & Hb2 & Hb3) & _). auto.
Qed.

Lemma Inv_steps c : steps P (init progs) c -> Inv c.
Proof.
  intros H. remember (init progs) as c0 eqn:E. induction H; subst.
  - apply Inv_init.
  - eapply Inv_step; eauto.
Qed.

(** ** C14 *)

(** At any point of any execution, the results of a rank's accesses so far are what the one common dictionary prescribes;
    when the rank has finished, all of them are. *)
Theorem C14_reads : forall c r, steps P (init progs) c -> r < P ->
  (exists rest, expected (progs r) 0 = log (rs c r) ++ rest) /\
  (ph (rs c r) = Idle -> prog (rs c r) = [] -> log (rs c r) = expected (progs r) 0).
Proof.
  intros c r Hs Hr. destruct (Inv_steps c Hs) as (n & _ & _ & [HA|HB]).
  - destruct (HA r Hr) as (_ & _ & Hx). destruct (ph (rs c r)) eqn:Hp; try contradiction.
    + destruct Hx as (_ & _ & Hl). split; [eauto|]. intros _ Hprog. rewrite Hl, Hprog. cbn [expected]. rewrite app_nil_r. auto.
    + destruct Hx as (done & _ & _ & _ & _ & Hl). split; [eauto|discriminate].
    + destruct Hx as (_ & _ & _ & Hl). split; [eauto|discriminate].
  - destruct (HB r Hr) as (_ & (_ & _ & Hl) & Hx). split; [eauto|]. intros Hp. rewrite Hp in Hx. contradiction.
Qed.

(** If all ranks run the same number of sections, an execution can only come to rest when all ranks have finished, or all have failed;
    and they fail exactly if a key is written by two ranks in one section. *)
Theorem C14_no_deadlock : forall c,
  (forall r1 r2, r1 < P -> r2 < P -> length (sections (progs r1)) = length (sections (progs r2))) ->
  steps P (init progs) c -> (forall c', ~ step P c c') ->
  (finished c /\ (0 < P -> forall n, n < length (sections (progs 0)) -> ~ conflict n)) \/
  (all_failed c /\ exists n, conflict n).
Proof.
  intros c Hspmd Hs Hstuck. destruct (Inv_steps c Hs) as (n & Hpast & HM & HI).
  assert (Hdec : forall (Q : nat -> Prop) (d : forall r, Q r \/ ~ Q r) m, (forall r, r < m -> Q r) \/ exists r, r < m /\ ~ Q r).
  { intros Q d. induction m as [|m [IH|(r & Hr & Hq)]].
    - left. intros r Hr. lia.
    - destruct (d m) as [Hm|Hm]; [left|right; exists m; auto]. intros r Hr. destruct (Nat.eq_dec r m) as [->|]; auto. apply IH. lia.
    - right. exists r. auto. }
  destruct HI as [HA|HB].
  - (* between sections: nobody can be idle with something to do or writing *)
    assert (Hcase : forall r, r < P -> (ph (rs c r) = Idle /\ prog (rs c r) = [] /\ length (sections (progs r)) <= n) \/
                                      (ph (rs c r) = Wait1 /\ n < length (sections (progs r)))).
    { intros r Hr. pose proof (HA r Hr) as (_ & _ & Hx). destruct (ph (rs c r)) as [|[|o body]| | | |] eqn:Hp; try contradiction.
      - destruct (prog (rs c r)) as [|[body|o] p] eqn:Hprog.
        + left. split; auto. split; auto. destruct Hx as (_ & Hsk & _). cbn [sections] in Hsk.
          apply (f_equal (@length _)) in Hsk. rewrite skipn_length in Hsk. simpl in Hsk. lia.
        + exfalso. eapply Hstuck. eapply st_enter; eauto.
        + exfalso. eapply Hstuck. eapply st_outside; eauto.
      - exfalso. eapply Hstuck. eapply st_exit; eauto.
      - exfalso. eapply Hstuck. eapply st_inside; eauto.
      - right. split; auto. destruct Hx as (_ & Hb & _). auto. }
    destruct (Hdec (fun r => ph (rs c r) = Wait1)) with (m := P) as [Hw|(r0 & Hr0 & Hnw)].
    { intros r. destruct (ph (rs c r)); auto; right; discriminate. }
    + destruct (Nat.eq_dec P 0) as [EP|EP].
      * left. split; [intros r Hr; lia|lia].
      * exfalso. eapply Hstuck. apply st_gather. auto.
    + left. destruct (Hcase r0 Hr0) as [(_ & _ & Hle)|[Hw _]]; [|congruence]. split.
      * intros r Hr. destruct (Hcase r Hr) as [(H1 & H2 & _)|[_ Hlt]]; auto.
        rewrite (Hspmd r r0 Hr Hr0) in Hlt. lia.
      * intros HP m Hm. apply Hpast. rewrite (Hspmd 0 r0 HP Hr0) in Hm. lia.
  - assert (Hcase : forall r, r < P -> ph (rs c r) = Wait2 \/ ph (rs c r) = Failed).
    { intros r Hr. pose proof (HB r Hr) as (_ & _ & Hx). destruct (ph (rs c r)) as [| | |[|item todo] acc| |] eqn:Hp; try contradiction; auto.
      - exfalso. eapply Hstuck. eapply st_update; eauto.
      - exfalso. eapply Hstuck. eapply st_build; eauto. }
    destruct (Nat.eq_dec P 0) as [EP|EP].
    { left. split; [intros r Hr; lia|lia]. }
    destruct (alloc (L n) ([], snd (EW n))) as [st|] eqn:Ea.
    + exfalso. eapply Hstuck. apply st_leave. intros r Hr. destruct (Hcase r Hr) as [|Hf]; auto.
      pose proof (HB r Hr) as (_ & _ & Hx). rewrite Hf in Hx. congruence.
    + right. split.
      * intros r Hr. destruct (Hcase r Hr) as [Hf|]; auto.
        pose proof (HB r Hr) as (_ & _ & Hx). rewrite Hf in Hx. destruct Hx as (acc & Hx & _). congruence.
      * exists n. apply (alloc_conflict n (snd (EW n))). auto.
Qed.

(** A rank never fails without a conflict, and never gets past a conflict. *)
Theorem C14_fails_only_on_conflict : forall c r, steps P (init progs) c -> r < P -> ph (rs c r) = Failed -> exists n, conflict n.
Proof.
  intros c r Hs Hr Hf. destruct (Inv_steps c Hs) as (n & _ & _ & [HA|HB]).
  - destruct (HA r Hr) as (_ & _ & Hx). rewrite Hf in Hx. contradiction.
  - destruct (HB r Hr) as (_ & _ & Hx). rewrite Hf in Hx. exists n. apply (alloc_conflict n (snd (EW n))). auto.
Qed.

Theorem C14_stops_at_conflict : forall c r n, steps P (init progs) c -> r < P -> conflict n ->
  length (sections (prog (rs c r))) + S n >= length (sections (progs r)).
Proof.
  intros c r n Hs Hr Hc. destruct (Inv_steps c Hs) as (m & Hpast & _ & HI).
  assert (Hm : m <= n) by (destruct (Nat.le_gt_cases m n); auto; exfalso; eapply Hpast; eauto).
  assert (G : forall j, skipn j (sections (progs r)) = sections (prog (rs c r)) -> j <= S n -> length (sections (prog (rs c r))) + S n >= length (sections (progs r))).
  { intros j E Hj. rewrite <- E, skipn_length. lia. }
  destruct HI as [HA|HB].
  - destruct (HA r Hr) as (_ & _ & Hx). destruct (ph (rs c r)); try contradiction.
    + destruct Hx as (_ & Hx & _). apply (G m); auto.
    + destruct Hx as (done & _ & _ & _ & Hx & _). apply (G (S m)); auto. lia.
    + destruct Hx as (_ & _ & Hx & _). apply (G (S m)); auto. lia.
  - destruct (HB r Hr) as (_ & (_ & Hx & _) & _). apply (G (S m)); auto. lia.
Qed.
End Rma.

(** Two ranks, two sections, reads in between; rank 1 overwrites key 7 of rank 0 in the second section. *)
Definition ex_progs (r : nat) : list (action nat) :=
  match r with
  | 0 => [Section_ [Write 7 (Some 1); Write 8 None]; Op (Read 9); Section_ [Read 7]; Op (Read 7)]
  | _ => [Section_ [Write 9 (Some 3)]; Op (Read 7); Op (Write 7 (Some 5)); Section_ [Write 7 (Some 2)]; Op (Read 8)]
  end.
Example C14_ex : expected 2 ex_progs (ex_progs 0) 0 = [Val (Some 3); Refused; Val (Some 2)]
  /\ expected 2 ex_progs (ex_progs 1) 0 = [Val (Some 1); Refused; Val None].
Proof. split; reflexivity. Qed.
Example C14_ex_spmd : forall r1 r2, r1 < 2 -> r2 < 2 -> length (sections (ex_progs r1)) = length (sections (ex_progs r2)).
Proof. intros [|[|r1]] [|[|r2]]; simpl; auto; lia. Qed.

(** Finding: after a failed section the local data are kept, so every later section fails again, whatever is written in it. *)
Theorem C14_failure_is_permanent : forall (data : Type) P (d : nat -> list (key * value data)) (later : nat -> list (op data)) st,
  (forall r, NoDup (map fst (d r))) ->
  alloc (flat_map (fun r => metadata r (d r)) (seq 0 P)) ([], st) = None ->
  forall st', alloc (flat_map (fun r => metadata r (run_local (later r) (d r))) (seq 0 P)) ([], st') = None.
Proof.
  intros data P d later st Hn H st'.
  destruct (alloc (flat_map (fun r => metadata r (run_local (later r) (d r))) (seq 0 P)) ([], st')) as [x|] eqn:E; auto.
  exfalso. assert (E1 := proj1 (alloc_iff _ _) (ex_intro _ x E)). destruct E1 as [E1 _].
  enough (exists y, alloc (flat_map (fun r => metadata r (d r)) (seq 0 P)) ([], st) = Some y) as [y Hy] by congruence.
  apply alloc_iff. split; [|auto].
  assert (Hk : forall (g : nat -> list (key * value data)) l, keys_of (flat_map (fun r => metadata r (g r)) l) = flat_map (fun r => map fst (g r)) l).
  { intros g l. unfold keys_of. induction l as [|r l IH]; simpl; auto. rewrite map_app, IH. f_equal. apply keys_metadata. }
  rewrite Hk in *. clear - E1 Hn.
  assert (Hsub : forall r x, In x (map fst (d r)) -> In x (map fst (run_local (later r) (d r)))).
  { intros r. generalize (d r) as a. induction (later r) as [|[k v|k] b IH]; intros a x Hx; simpl; auto. apply IH. apply dset_keys. auto. }
  revert E1. generalize (seq 0 P) as l. induction l as [|r l IH]; simpl; intros E1; [constructor|].
  assert (Hin : forall x, In x (flat_map (fun r => map fst (d r)) l) -> In x (flat_map (fun r => map fst (run_local (later r) (d r))) l)).
  { intros x Hx. apply in_flat_map in Hx. destruct Hx as (q & Hq & Hx). apply in_flat_map. exists q. auto. }
  assert (Hspl : forall (a b : list key), NoDup (a ++ b) -> NoDup b /\ forall x, In x a -> In x b -> False).
  { clear. induction a as [|y a IHa]; simpl; intros b H; [split; auto; intros x []|]. inversion H; subst.
    destruct (IHa b H3) as [G1 G2]. split; auto. intros x [->|Hx] Hb; [|eauto]. apply H2, in_app_iff. auto. }
  destruct (Hspl _ _ E1) as [G1 G2].
  assert (Happ : forall l1 l2 : list key, NoDup l1 -> NoDup l2 -> (forall x, In x l1 -> In x l2 -> False) -> NoDup (l1 ++ l2)).
  { clear. induction l1 as [|a l1 IH]; simpl; auto. intros l2 H1 H2 H. inversion H1; subst. constructor.
    - rewrite in_app_iff. intros [?|?]; auto. apply (H a); auto.
    - apply IH; auto. intros x Hx Hy. apply (H x); auto. }
  apply Happ; auto. intros x Hx Hy. apply (G2 x); auto.
Qed.

Print Assumptions C14_reads.
Print Assumptions C14_no_deadlock.
Print Assumptions C14_fails_only_on_conflict.
Print Assumptions C14_stops_at_conflict.
Print Assumptions C14_failure_is_permanent.
