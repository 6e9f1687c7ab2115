(** Properties C32 (log indentation is restored) and C50 (log formatting keeps the message). *)
From Coq Require Import List ZArith Bool Lia.
From Verif Require Import M_Vlog.
Import ListNotations.

(** All objects that the program enters by number are among the first [n] ones (the decorators, made on import). *)
Fixpoint uses (n : nat) (p : prog) : Prop :=
  match p with
  | Seq p q | TryExcept p q => uses n p /\ uses n q
  | With _ p => uses n p
  | WithObj k p => (k < n)%nat /\ uses n p
  | _ => True
  end.

(** The object [o] is entered by number somewhere in the program. *)
Fixpoint enters (o : nat) (p : prog) : bool :=
  match p with
  | Seq p q | TryExcept p q => enters o p || enters o q
  | With _ p => enters o p
  | WithObj k p => Nat.eqb k o || enters o p
  | _ => false
  end.

Lemma uses_enters n o : forall p, uses n p -> (n <= o)%nat -> enters o p = false.
Proof.
  induction p; simpl; intros H Ho; auto.
  - rewrite IHp1, IHp2; tauto.
  - rewrite IHp1, IHp2; tauto.
  - rewrite IHp by tauto. destruct (Nat.eqb_spec o0 o); auto. lia.
Qed.

Lemma leave_objs o s : objs (leave o s) = objs s.
Proof. unfold leave. destruct (snd (objs s o)); reflexivity. Qed.

Lemma leave_nobjs o s : nobjs (leave o s) = nobjs s.
Proof. unfold leave. destruct (snd (objs s o)); reflexivity. Qed.

Lemma run_keeps o : forall p s, enters o p = false -> (o < nobjs s)%nat ->
  objs (snd (run p s)) o = objs s o /\ (nobjs s <= nobjs (snd (run p s)))%nat.
Proof.
  induction p as [| |z|z|p IHp q IHq|p IHp q IHq|d p IHp|k p IHp]; intros s H Ho; simpl in *; auto.
  - apply orb_false_iff in H. destruct H as [H1 H2]. destruct (IHp s H1 Ho) as [P1 P2].
    destruct (run p s) as [[] s1] eqn:E; simpl in *; auto. destruct (IHq s1 H2) as [Q1 Q2]; [lia|].
    rewrite Q1. split; auto. lia.
  - apply orb_false_iff in H. destruct H as [H1 H2]. destruct (IHp s H1 Ho) as [P1 P2].
    destruct (run p s) as [[] s1] eqn:E; simpl in *; auto. destruct (IHq s1 H2) as [Q1 Q2]; [lia|].
    rewrite Q1. split; auto. lia.
  - destruct (IHp (enter (nobjs s) (new d s)) H) as [P1 P2]; [simpl; lia|].
    destruct (run p (enter (nobjs s) (new d s))) as [ok s1]. simpl in *. rewrite leave_objs, leave_nobjs.
    rewrite P1. split; [|lia]. destruct (Nat.eqb_spec o (nobjs s)); [lia|]. auto.
  - apply orb_false_iff in H. destruct H as [H1 H2]. destruct (IHp (enter k s) H2) as [P1 P2]; [auto|].
    destruct (run p (enter k s)) as [ok s1]. simpl in *. rewrite leave_objs, leave_nobjs, P1.
    split; [|auto]. rewrite Nat.eqb_sym, H1. auto.
Qed.

(** After a with-statement on log.indent(...) the level is what it was before, whatever the body does and however it ends. *)
Theorem C32_with : forall delta p s, uses (nobjs s) p -> level (snd (run (With delta p) s)) = level s.
Proof.
  intros delta p s H. cbn [run].
  destruct (run_keeps (nobjs s) p (enter (nobjs s) (new delta s))) as [K _].
  - eapply uses_enters; eauto.
  - simpl. lia.
  - destruct (run p _) as [ok s1]. cbn [snd] in *. unfold leave. rewrite K. simpl. rewrite Nat.eqb_refl. reflexivity.
Qed.

(** The same for a call of a decorated function, unless it is called again during the call. *)
Theorem C32_decorated : forall o p s, (o < nobjs s)%nat -> enters o p = false -> level (snd (run (WithObj o p) s)) = level s.
Proof.
  intros o p s Ho H. cbn [run]. destruct (run_keeps o p (enter o s) H) as [K _]; [auto|].
  destruct (run p (enter o s)) as [ok s1]. cbn [snd] in *. unfold leave. rewrite K. simpl. rewrite Nat.eqb_refl. reflexivity.
Qed.

(** Inside, messages are indented delta deeper (not less than zero), and exceptions are passed on: the body of a
    with-statement behaves as if run alone at that level. *)
Definition same_but_new (n : nat) (s t : lstate) : Prop := level s = level t /\ forall o, (o < n)%nat -> objs s o = objs t o.

Lemma run_same n : forall p s t, uses n p -> (n <= nobjs s)%nat -> (n <= nobjs t)%nat -> same_but_new n s t ->
  fst (run p s) = fst (run p t) /\ same_but_new n (snd (run p s)) (snd (run p t))
  /\ (n <= nobjs (snd (run p s)))%nat /\ (n <= nobjs (snd (run p t)))%nat.
Proof.
  induction p as [| |z|z|p IHp q IHq|p IHp q IHq|d p IHp|k p IHp]; intros s t U Ns Nt [E1 E2]; cbn [run uses] in *.
  - simpl. repeat split; auto.
  - simpl. repeat split; auto.
  - simpl. repeat split; auto.
  - simpl. rewrite E1. repeat split; auto.
  - destruct U as [U1 U2]. destruct (IHp s t U1 Ns Nt (conj E1 E2)) as (I1 & I2 & I3 & I4).
    destruct (run p s) as [b s1], (run p t) as [b' t1]; simpl in *; subst b'. destruct b; simpl; auto.
  - destruct U as [U1 U2]. destruct (IHp s t U1 Ns Nt (conj E1 E2)) as (I1 & I2 & I3 & I4).
    destruct (run p s) as [b s1], (run p t) as [b' t1]; simpl in *; subst b'. destruct b; simpl; auto.
  - assert (Ks : level (snd (run (With d p) s)) = level s).
    { cbn [run]. destruct (run_keeps (nobjs s) p (enter (nobjs s) (new d s))) as [K _]; [eapply uses_enters; eauto|simpl; lia|].
      destruct (run p _) as [ok s1]. cbn [snd] in *. unfold leave. rewrite K. simpl. rewrite Nat.eqb_refl. reflexivity. }
    assert (Kt : level (snd (run (With d p) t)) = level t).
    { cbn [run]. destruct (run_keeps (nobjs t) p (enter (nobjs t) (new d t))) as [K _]; [eapply uses_enters; eauto|simpl; lia|].
      destruct (run p _) as [ok s1]. cbn [snd] in *. unfold leave. rewrite K. simpl. rewrite Nat.eqb_refl. reflexivity. }
    cbn [run] in Ks, Kt.
    destruct (IHp (enter (nobjs s) (new d s)) (enter (nobjs t) (new d t)) U) as (I1 & I2 & I3 & I4); [simpl; lia|simpl; lia| |].
    { unfold same_but_new, enter, set_level, set_init, new; simpl. rewrite !Nat.eqb_refl. simpl. rewrite E1. split; auto.
      intros o Ho. destruct (Nat.eqb_spec o (nobjs s)), (Nat.eqb_spec o (nobjs t)); try lia. auto. }
    destruct (run p (enter (nobjs s) (new d s))) as [b s1], (run p (enter (nobjs t) (new d t))) as [b' t1]; cbn [fst snd] in *.
    rewrite !leave_nobjs. repeat split; auto; [congruence|]. intros o Ho. rewrite !leave_objs. destruct I2; auto.
  - destruct U as [U1 U2]. destruct (IHp (enter k s) (enter k t) U2) as (I1 & I2 & I3 & I4); auto.
    { unfold same_but_new, enter, set_level, set_init; simpl. rewrite E1, (E2 k U1). split; auto.
      intros o Ho. rewrite (E2 o Ho). auto. }
    destruct (run p (enter k s)) as [b s1], (run p (enter k t)) as [b' t1]; cbn [fst snd] in *.
    rewrite !leave_nobjs. destruct I2 as [J1 J2]. repeat split; auto.
    + unfold leave. rewrite (J2 k U1). destruct (snd (objs t1 k)); auto.
    + intros o Ho. rewrite !leave_objs. auto.
Qed.

Theorem C32_inside : forall delta p s, uses (nobjs s) p ->
  fst (run (With delta p) s) = fst (run p (set_level (Z.max (level s + delta) 0) s)).
Proof.
  intros delta p s U. cbn [run].
  destruct (run_same (nobjs s) p (enter (nobjs s) (new delta s)) (set_level (Z.max (level s + delta) 0) s) U) as (I1 & _).
  - simpl. lia.
  - simpl. lia.
  - unfold same_but_new; simpl. rewrite !Nat.eqb_refl. simpl. split; auto. intros o Ho.
    destruct (Nat.eqb_spec o (nobjs s)); [lia|auto].
  - destruct (run p _) as [b s1]. cbn [fst] in *. auto.
Qed.

(** The level is never negative. *)
Definition nonneg (s : lstate) : Prop := (0 <= level s)%Z /\ forall o z, snd (objs s o) = Some z -> (0 <= z)%Z.

Theorem C32_nonnegative : forall p s, nonneg s -> nonneg (snd (run p s)).
Proof.
  assert (SL : forall z s, nonneg s -> (0 <= z)%Z -> nonneg (set_level z s)).
  { intros z s [H1 H2] Hz. split; simpl; auto. }
  assert (EN : forall k s, nonneg s -> nonneg (enter k s)).
  { intros k s [Ha Hb]. unfold enter. apply SL; [|lia]. split; simpl; auto.
    intros o z. destruct (Nat.eqb o k); simpl; eauto. intros E. injection E as <-. auto. }
  assert (LV : forall k s, nonneg s -> nonneg (leave k s)).
  { intros k s H. unfold leave. destruct (snd (objs s k)) eqn:E; auto. apply SL; auto. destruct H as [_ G]. eauto. }
  induction p as [| |z|z|p IHp q IHq|p IHp q IHq|d p IHp|k p IHp]; intros s H; cbn [run]; auto.
  - apply SL; auto. lia.
  - apply SL; auto. lia.
  - specialize (IHp s H). destruct (run p s) as [[] s1]; simpl in *; auto.
  - specialize (IHp s H). destruct (run p s) as [[] s1]; simpl in *; auto.
  - assert (H1 : nonneg (new d s)).
    { destruct H as [Ha Hb]. split; simpl; auto. intros o z. destruct (Nat.eqb o (nobjs s)); simpl; eauto. discriminate. }
    specialize (IHp _ (EN (nobjs s) _ H1)). destruct (run p _) as [ok s1]; simpl in *. auto.
  - specialize (IHp _ (EN k s H)). destruct (run p (enter k s)) as [ok s1]; simpl in *. auto.
Qed.

(** Finding: a decorated function that calls itself [n] times deep leaves the level [n*delta] too high. *)
Fixpoint recursion (o n : nat) : prog := match n with O => WithObj o Skip | S m => WithObj o (recursion o m) end.

Lemma recursion_spec o : forall n s, (0 <= level s)%Z -> (0 <= fst (objs s o))%Z ->
  level (snd (run (recursion o n) s)) = (level s + Z.of_nat n * fst (objs s o))%Z
  /\ snd (objs (snd (run (recursion o n) s)) o) = Some (level s + Z.of_nat n * fst (objs s o))%Z.
Proof.
  induction n as [|n IH]; intros s H1 H2.
  - unfold recursion, run, leave, enter, set_level, set_init; simpl. rewrite !Nat.eqb_refl. simpl. rewrite Nat.eqb_refl. simpl. split; [lia|f_equal; lia].
  - change (recursion o (S n)) with (WithObj o (recursion o n)). cbn [run].
    destruct (IH (enter o s)) as [I1 I2].
    + unfold enter; simpl; lia.
    + unfold enter; simpl. rewrite Nat.eqb_refl. auto.
    + assert (E1 : level (enter o s) = (level s + fst (objs s o))%Z) by (unfold enter; simpl; lia).
      assert (E2 : fst (objs (enter o s) o) = fst (objs s o)) by (unfold enter; simpl; rewrite Nat.eqb_refl; auto).
      rewrite E1, E2 in I1, I2. destruct (run (recursion o n) (enter o s)) as [ok s1]. cbn [snd] in *.
      unfold leave. rewrite I2. unfold set_level; cbn [level objs]. split; [lia|]. rewrite I2. f_equal. lia.
Qed.

Theorem C32_recursion_refuted : forall o n s, (0 <= level s)%Z -> (0 <= fst (objs s o))%Z ->
  level (snd (run (recursion o n) s)) = (level s + Z.of_nat n * fst (objs s o))%Z.
Proof. intros. apply recursion_spec; auto. Qed.

Definition s0 : lstate := {| level := 2; objs := fun _ => (1%Z, None); nobjs := 2 |}.
Example ex_with : let '(ok, s) := run (With 1 (Seq (ChangeIndent 5) (With (-9) Raise))) s0 in ok = false /\ level s = 2%Z /\ nobjs s = 4%nat.
Proof. repeat split. Qed.
Example ex_dec : level (snd (run (WithObj 0 (Seq (WithObj 1 Raise) Skip)) s0)) = 2%Z /\ enters 0 (Seq (WithObj 1 Raise) Skip) = false.
Proof. split; reflexivity. Qed.
Example ex_rec : level (snd (run (recursion 0 3) s0)) = 5%Z.
Proof. reflexivity. Qed.

(** * C50 *)

Section F.
Variable char : Type.
Variable newline : char.
Variable eqc : char -> char -> bool.
Hypothesis eqc_spec : forall a b, eqc a b = true <-> a = b.
Notation split := (split char newline eqc).
Notation join := (join char newline).
Notation format := (format char newline eqc).

Lemma split_cons s : exists l r, split s = l :: r.
Proof. destruct s as [|c s]; simpl; eauto. destruct (split s); eauto. destruct (eqc c newline); eauto. Qed.

Lemma join_split s : join (split s) = s.
Proof.
  induction s as [|c s IH]; auto. simpl. destruct (split_cons s) as (l & r & E). rewrite E in *.
  destruct (eqc c newline) eqn:Ec.
  - apply eqc_spec in Ec. subst c. simpl in *. now rewrite IH.
  - destruct r; simpl in *; now rewrite IH.
Qed.

Lemma split_no_newline s : Forall (fun l => ~ In newline l) (split s).
Proof.
  induction s as [|c s IH]; simpl; [repeat constructor; auto|].
  destruct (split_cons s) as (l & r & E). rewrite E in *. inversion IH; subst.
  destruct (eqc c newline) eqn:Ec; constructor; auto.
  intros [->|H]; auto. destruct (eqc_spec newline newline) as [_ G]. rewrite G in Ec; auto; discriminate.
Qed.

Lemma split_app_line l : ~ In newline l -> split l = [l].
Proof.
  induction l as [|c l IH]; intros H; auto. simpl. rewrite IH; [|simpl in H; tauto].
  destruct (eqc c newline) eqn:E; auto. apply eqc_spec in E. exfalso. apply H. simpl. auto.
Qed.

Lemma split_join_cons x y : ~ In newline x -> split (x ++ newline :: y) = x :: split y.
Proof.
  induction x as [|c x IH]; intros H; cbn [app M_Vlog.split].
  - destruct (split_cons y) as (l & r & E). rewrite E. destruct (eqc newline newline) eqn:Ec; auto.
    exfalso. destruct (eqc_spec newline newline) as [_ G]. rewrite G in Ec; auto; discriminate.
  - rewrite IH; [|simpl in H; tauto]. destruct (eqc c newline) eqn:E; auto.
    apply eqc_spec in E. exfalso. apply H. simpl. auto.
Qed.

Lemma split_join l : l <> [] -> Forall (fun x => ~ In newline x) l -> split (join l) = l.
Proof.
  induction l as [|x l IH]; [congruence|]. intros _ H. inversion H; subst. destruct l as [|y l].
  - simpl. now apply split_app_line.
  - change (join (x :: y :: l)) with (x ++ newline :: join (y :: l)). rewrite split_join_cons by auto.
    rewrite IH; auto. discriminate.
Qed.

(** The lines of the output are the lines of the message, in order, each with prefix and indentation. *)
Theorem C50_lines : forall indent prefix sep msg,
  ~ In newline indent -> ~ In newline prefix -> ~ In newline sep ->
  split (format indent prefix sep msg) =
  map (fun x => match prefix with [] => indent ++ x
                | _ => match indent ++ x with [] => prefix | _ => prefix ++ sep ++ indent ++ x end end) (split msg).
Proof.
  intros indent prefix sep msg H1 H2 H3. unfold format. destruct (split_cons msg) as (l & r & E).
  pose proof (split_no_newline msg) as N. rewrite E in *.
  destruct prefix as [|c prefix].
  - rewrite split_join; auto; [discriminate|]. apply Forall_map. revert N. apply Forall_impl. intros x Hx. rewrite in_app_iff. tauto.
  - rewrite split_join; rewrite ?map_map; auto; [discriminate|].
    apply Forall_map. revert N. apply Forall_impl.
    intros x Hx. destruct (indent ++ x) eqn:Ei; auto. intros G. rewrite <- Ei in G.
    apply in_app_or in G. destruct G as [G|G]; [tauto|]. apply in_app_or in G. destruct G as [G|G]; [tauto|].
    apply in_app_or in G. tauto.
Qed.

(** Two messages with the same formatted output are the same. *)
Theorem C50_injective : forall indent prefix sep m1 m2,
  ~ In newline indent -> ~ In newline prefix -> ~ In newline sep ->
  format indent prefix sep m1 = format indent prefix sep m2 -> m1 = m2.
Proof.
  intros indent prefix sep m1 m2 H1 H2 H3 H.
  rewrite <- (join_split m1), <- (join_split m2). f_equal.
  apply (f_equal split) in H. rewrite !C50_lines in H by auto.
  assert (Inj : forall x y,
    match prefix with [] => indent ++ x | _ => match indent ++ x with [] => prefix | _ => prefix ++ sep ++ indent ++ x end end =
    match prefix with [] => indent ++ y | _ => match indent ++ y with [] => prefix | _ => prefix ++ sep ++ indent ++ y end end -> x = y).
  { intros x y. destruct prefix as [|c prefix]; [apply app_inv_head|].
    destruct (indent ++ x) eqn:Ex; destruct (indent ++ y) eqn:Ey; intros G.
    - apply app_eq_nil in Ex. apply app_eq_nil in Ey. destruct Ex, Ey. congruence.
    - exfalso. assert (L : length (c :: prefix) = length ((c :: prefix) ++ sep ++ c0 :: l)) by (rewrite <- G; auto).
      rewrite !app_length in L. simpl in L. lia.
    - exfalso. assert (L : length ((c :: prefix) ++ sep ++ c0 :: l) = length (c :: prefix)) by (rewrite G; auto).
      rewrite !app_length in L. simpl in L. lia.
    - apply app_inv_head in G. apply app_inv_head in G. rewrite <- Ex, <- Ey in G. now apply app_inv_head in G. }
  revert H. generalize (split m1) (split m2). clear -Inj.
  induction l as [|x l IH]; intros [|y l2] H; cbn [map] in H; try discriminate; auto.
  injection H as Hx Hl. f_equal; auto.
Qed.
End F.

Example ex_format : format nat 0 Nat.eqb [7; 7] [8] [9] [1; 0; 0; 2] = [8; 9; 7; 7; 1; 0; 8; 9; 7; 7; 0; 8; 9; 7; 7; 2].
Proof. reflexivity. Qed.
Example ex_format_empty : format nat 0 Nat.eqb [] [8] [9] [1; 0; 0; 2] = [8; 9; 1; 0; 8; 0; 8; 9; 2].
Proof. reflexivity. Qed.

Print Assumptions C32_with.
Print Assumptions C32_decorated.
Print Assumptions C32_inside.
Print Assumptions C32_nonnegative.
Print Assumptions C32_recursion_refuted.
Print Assumptions C50_lines.
Print Assumptions C50_injective.
