(** Property C23: the bath natural orbital threshold selects the right number of orbitals. *)
From Coq Require Import List ZArith QArith Bool Lia Sorting.Sorted Lqa.
From Verif Require Import M_Bno.
Import ListNotations.

(** ** Specification *)

(** Electrons in a list of occupations, negative occupations counting as zero. *)
Definition electrons (l : list Q) : Q := fold_right (fun x s => (if Qlt_le_dec x 0 then 0 else x) + s) 0 l.

(** Number of electrons in the orbitals discarded when [n] orbitals are kept. *)
Definition discarded (l : list Q) (n : nat) : Q := electrons (skipn n l).
Definition kept (l : list Q) (n : nat) : Q := electrons (firstn n l).

(** When is keeping [n] orbitals enough?  From the documentation of the class (bno.py 13-17). *)
Definition enough (th : threshold) (occup : list Q) (ne : Q) (n : nat) : Prop :=
  match th with
  | Truncation t => discarded occup n <= t
  | ElectronPercent t => ne - discarded occup n >= (1 - t) * ne
  | ExcitedPercent t => kept occup n >= (1 - t) * electrons occup
  | _ => False
  end.

Definition is_share (th : threshold) : Prop :=
  match th with Truncation _ | ElectronPercent _ | ExcitedPercent _ => True | _ => False end.

(** ** Lemmas *)

Lemma clip0_spec x : clip0 x == if Qlt_le_dec x 0 then 0 else x.
Proof.
  unfold clip0. destruct (Qlt_le_dec x 0).
  - destruct (Qle_bool 0 x) eqn:E; [apply Qle_bool_iff in E; lra|reflexivity].
  - destruct (Qle_bool 0 x) eqn:E; [reflexivity|].
    exfalso. apply Qle_bool_iff in q. congruence.
Qed.

Lemma qsum_electrons l : qsum (map clip0 l) == electrons l.
Proof.
  induction l; simpl; [reflexivity|]. rewrite IHl, clip0_spec. reflexivity.
Qed.

Lemma qsum_firstn l n : qsum (firstn n (map clip0 l)) == kept l n.
Proof. rewrite firstn_map. apply qsum_electrons. Qed.

Lemma electrons_split l n : electrons l == kept l n + discarded l n.
Proof.
  unfold kept, discarded. revert n. induction l; intros [|n]; simpl; try lra.
  rewrite (IHl n). lra.
Qed.

Lemma electrons_nonneg l : 0 <= electrons l.
Proof. induction l; simpl; [lra|]. destruct (Qlt_le_dec a 0); lra. Qed.

Lemma discarded_nonneg l n : 0 <= discarded l n.
Proof. apply electrons_nonneg. Qed.

Lemma discarded_all l : discarded l (length l) == 0.
Proof. unfold discarded. rewrite skipn_all. reflexivity. Qed.

Lemma filter_len {A} (f : A -> bool) l : (length (filter f l) <= length l)%nat.
Proof. induction l; simpl; auto. destruct (f a); simpl; lia. Qed.

Lemma Qle_bool_false x y : Qle_bool x y = false <-> y < x.
Proof.
  split; intros H.
  - destruct (Qlt_le_dec y x); auto. apply Qle_bool_iff in q. congruence.
  - destruct (Qle_bool x y) eqn:E; auto. apply Qle_bool_iff in E. lra.
Qed.

Lemma find_number_spec npos e0 nt : forall fuel k,
  match find_number npos e0 nt k fuel with
  | Returns n => exists m, n = Z.of_nat m /\ (k <= m < k + fuel)%nat /\ nt <= e0 + qsum (firstn m npos)
                 /\ forall j, (k <= j < m)%nat -> e0 + qsum (firstn j npos) < nt
  | RuntimeError => forall j, (k <= j < k + fuel)%nat -> e0 + qsum (firstn j npos) < nt
  | AssertionError => False
  end.
Proof.
  induction fuel; intros k; simpl.
  - intros; lia.
  - destruct (Qle_bool nt (e0 + qsum (firstn k npos))) eqn:E.
    + exists k. repeat split; try (intros; lia). now apply Qle_bool_iff.
    + apply Qle_bool_false in E. specialize (IHfuel (S k)).
      destruct (find_number npos e0 nt (S k) fuel).
      * destruct IHfuel as (m & -> & H1 & H2 & H3). exists m. repeat split; try lia; auto.
        intros j Hj. destruct (Nat.eq_dec j k); [subst; auto|apply H3; lia].
      * intros j Hj. destruct (Nat.eq_dec j k); [subst; auto|apply IHfuel; lia].
      * auto.
Qed.

(** The comparison in the loop is the documented criterion. *)
Lemma enough_iff th occup ne n : is_share th ->
  match th with
  | Truncation t => (qsum (map clip0 occup) - t <= 0 + qsum (firstn n (map clip0 occup))) <-> enough th occup ne n
  | ElectronPercent t =>
     ((1 - t) * ne <= ne - qsum (map clip0 occup) + qsum (firstn n (map clip0 occup))) <-> enough th occup ne n
  | ExcitedPercent t => ((1 - t) * qsum (map clip0 occup) <= 0 + qsum (firstn n (map clip0 occup))) <-> enough th occup ne n
  | _ => True
  end.
Proof.
  intros H. destruct th; simpl in *; auto; rewrite qsum_electrons, qsum_firstn;
    pose proof (electrons_split occup n); split; intros; try lra.
Qed.

(** ** Theorems *)

(** 'truncation', 'electron-percent', 'excited-percent': the returned number is the smallest that is enough,
    it is at most the number of orbitals; an error is raised exactly when no number is enough. *)
Theorem C23_share : forall th occup ne, is_share th -> occup <> [] ->
  match get_number th occup (Some ne) with
  | Returns z => exists n, z = Z.of_nat n /\ (n <= length occup)%nat /\ enough th occup ne n
                 /\ forall m, (m < n)%nat -> ~ enough th occup ne m
  | RuntimeError => forall m, (m <= length occup)%nat -> ~ enough th occup ne m
  | AssertionError => False
  end.
Proof.
  intros th occup ne Hs Hn.
  assert (G : forall e0 nt, get_number th occup (Some ne) = find_number (map clip0 occup) e0 nt 0 (S (length occup)) ->
    (forall n, nt <= e0 + qsum (firstn n (map clip0 occup)) <-> enough th occup ne n) ->
    match get_number th occup (Some ne) with
    | Returns z => exists n, z = Z.of_nat n /\ (n <= length occup)%nat /\ enough th occup ne n
                 /\ forall m, (m < n)%nat -> ~ enough th occup ne m
    | RuntimeError => forall m, (m <= length occup)%nat -> ~ enough th occup ne m
    | AssertionError => False
    end).
  { intros e0 nt -> He. pose proof (find_number_spec (map clip0 occup) e0 nt (S (length occup)) 0) as F.
    destruct (find_number (map clip0 occup) e0 nt 0 (S (length occup))); auto.
    - destruct F as (m & -> & H1 & H2 & H3). exists m. repeat split; try lia.
      + now apply He.
      + intros j Hj Hc. apply He in Hc. specialize (H3 j ltac:(lia)). lra.
    - intros m Hm Hc. apply He in Hc. specialize (F m ltac:(lia)). lra. }
  destruct occup as [|x l] eqn:E; [congruence|]. rewrite <- E in *.
  assert (forall n, match th with
   | Truncation t => (qsum (map clip0 occup) - t <= 0 + qsum (firstn n (map clip0 occup))) <-> enough th occup ne n
   | ElectronPercent t =>
     ((1 - t) * ne <= ne - qsum (map clip0 occup) + qsum (firstn n (map clip0 occup))) <-> enough th occup ne n
   | ExcitedPercent t => ((1 - t) * qsum (map clip0 occup) <= 0 + qsum (firstn n (map clip0 occup))) <-> enough th occup ne n
   | _ => True
   end) as EI by (intros n; apply enough_iff; auto).
  destruct th; simpl in Hs; try contradiction.
  - apply (G 0 (qsum (map clip0 occup) - t)); auto. subst occup. reflexivity.
  - apply (G (ne - qsum (map clip0 occup)) ((1 - t) * ne)); auto. subst occup. reflexivity.
  - apply (G 0 ((1 - t) * qsum (map clip0 occup))); auto. subst occup. reflexivity.
Qed.

(** Exactly the negative thresholds can be unreachable. *)
Theorem C23_unreachable : forall th occup ne, is_share th -> occup <> [] ->
  (get_number th occup (Some ne) = RuntimeError <->
   match th with
   | Truncation t => t < 0
   | ElectronPercent t => t * ne < 0
   | ExcitedPercent t => t * electrons occup < 0
   | _ => False
   end).
Proof.
  intros th occup ne Hs Hn. pose proof (C23_share th occup ne Hs Hn) as C.
  assert (D : forall m, 0 <= discarded occup m) by (intros; apply discarded_nonneg).
  assert (E : get_number th occup (Some ne) = RuntimeError <->
              forall m, (m <= length occup)%nat -> ~ enough th occup ne m).
  { destruct (get_number th occup (Some ne)).
    - split; [discriminate|]. intros H. destruct C as (m & _ & H1 & H2 & _). exfalso. apply (H m); auto.
    - tauto.
    - contradiction. }
  rewrite E. clear E C.
  pose proof (discarded_all occup) as A.
  assert (S : forall m, kept occup m == electrons occup - discarded occup m)
    by (intros m; pose proof (electrons_split occup m); lra).
  destruct th; simpl in Hs; try contradiction; cbn [enough].
  - split.
    + intros H. specialize (H (length occup) (le_n _)). destruct (Qlt_le_dec t 0); auto. exfalso. apply H. lra.
    + intros H m _ Hm. specialize (D m). lra.
  - split.
    + intros H. specialize (H (length occup) (le_n _)). destruct (Qlt_le_dec (t * ne) 0); auto. exfalso. apply H. lra.
    + intros H m _ Hm. specialize (D m). lra.
  - split.
    + intros H. specialize (H (length occup) (le_n _)). rewrite S in H.
      destruct (Qlt_le_dec (t * electrons occup) 0); auto. exfalso. apply H. lra.
    + intros H m _ Hm. specialize (D m). rewrite S in Hm. lra.
Qed.

(** 'occupation' on a non-increasing list: the kept orbitals are exactly those at or above the threshold. *)
Theorem C23_occupation : forall t occup ne, StronglySorted (fun x y => y <= x) occup ->
  exists n, get_number (Occupation t) occup ne = Returns (Z.of_nat n) /\ (n <= length occup)%nat
  /\ Forall (fun x => t <= x) (firstn n occup) /\ Forall (fun x => x < t) (skipn n occup).
Proof.
  intros t occup ne Hs. exists (length (filter (fun x => Qle_bool t x) occup)).
  split. { destruct occup; reflexivity. }
  assert (Z0 : forall l, Forall (fun x => x < t) l -> filter (fun x => Qle_bool t x) l = []).
  { induction 1; simpl; auto. apply Qle_bool_false in H. now rewrite H. }
  induction Hs as [|x l Hs IH Hx]; simpl; [repeat split; auto|].
  destruct (Qle_bool t x) eqn:E; simpl.
  - apply Qle_bool_iff in E. destruct IH as (I1 & I2 & I3). repeat split; auto; lia.
  - apply Qle_bool_false in E.
    assert (F : Forall (fun x => x < t) l) by (eapply Forall_impl; [|exact Hx]; simpl; intros; lra).
    rewrite Z0 by auto. simpl. repeat split; auto; lia.
Qed.

(** 'number': the orbitals kept are the first min(n, number of orbitals), a negative number drops as many at the end; no orbital is lost or
    duplicated, whatever the threshold. *)
Theorem C23_truncate : forall (A : Type) (coeff : list A) occup t ne b r,
  truncate_bno coeff occup t ne = Some (b, r) ->
  b ++ r = coeff
  /\ (length coeff = length occup ->
      match as_threshold t with
      | Number n => length b = if (n <? 0)%Z then (length occup - Z.to_nat (- n))%nat else Nat.min (Z.to_nat n) (length occup)
      | _ => get_number (as_threshold t) occup (Some ne) = Returns (Z.of_nat (length b))
      end).
Proof.
  intros A coeff occup t ne b r H. unfold truncate_bno in H.
  destruct (get_number (as_threshold t) occup (Some ne)) as [n| |] eqn:E; try discriminate.
  injection H as <- <-. split; [apply firstn_skipn|].
  intros L. rewrite firstn_length, L.
  assert (B : match as_threshold t with Number _ => True | _ => (0 <= n <= Z.of_nat (length occup))%Z end).
  { destruct (as_threshold t) eqn:T; auto.
    - unfold get_number in E. destruct occup; injection E as <-; simpl; [lia|].
      destruct (Qle_bool t0 q); simpl; pose proof (filter_len (fun x => Qle_bool t0 x) occup); lia.
    - destruct occup as [|x l]; [injection E as <-; simpl; lia|].
      pose proof (C23_share (Truncation t0) (x :: l) ne I ltac:(discriminate)) as C. rewrite E in C.
      destruct C as (m & -> & ? & _). lia.
    - destruct occup as [|x l]; [injection E as <-; simpl; lia|].
      pose proof (C23_share (ElectronPercent t0) (x :: l) ne I ltac:(discriminate)) as C. rewrite E in C.
      destruct C as (m & -> & ? & _). lia.
    - destruct occup as [|x l]; [injection E as <-; simpl; lia|].
      pose proof (C23_share (ExcitedPercent t0) (x :: l) ne I ltac:(discriminate)) as C. rewrite E in C.
      destruct C as (m & -> & ? & _). lia. }
  destruct (as_threshold t) eqn:T.
  - unfold get_number in E. destruct occup; injection E as <-; cbn [length] in *.
    + destruct (n0 <? 0)%Z; lia.
    + unfold py_stop. rewrite L. destruct (n0 <? 0)%Z eqn:N; [apply Z.ltb_lt in N|reflexivity]. lia.
  - f_equal. unfold py_stop. replace (n <? 0)%Z with false by (symmetry; apply Z.ltb_ge; lia). lia.
  - f_equal. unfold py_stop. replace (n <? 0)%Z with false by (symmetry; apply Z.ltb_ge; lia). lia.
  - f_equal. unfold py_stop. replace (n <? 0)%Z with false by (symmetry; apply Z.ltb_ge; lia). lia.
  - f_equal. unfold py_stop. replace (n <? 0)%Z with false by (symmetry; apply Z.ltb_ge; lia). lia.
Qed.

(** A plain number is an occupation threshold: with sorted occupations, the orbitals kept are exactly those with at least this occupation *)
Theorem C23_plain : forall (A : Type) (coeff : list A) occup t ne, length coeff = length occup -> StronglySorted (fun x y => y <= x) occup ->
  exists b r, truncate_bno coeff occup (Plain t) ne = Some (b, r) /\ b ++ r = coeff
  /\ Forall (fun x => t <= x) (firstn (length b) occup) /\ Forall (fun x => x < t) (skipn (length b) occup).
Proof.
  intros A coeff occup t ne L Hs. destruct (C23_occupation t occup (Some ne) Hs) as (n & E & Hn & H1 & H2).
  exists (firstn n coeff), (skipn n coeff). rewrite firstn_length, L, Nat.min_l by lia. split; [|repeat split; auto using firstn_skipn].
  unfold truncate_bno. cbn [as_threshold]. rewrite E. unfold py_stop. replace (Z.of_nat n <? 0)%Z with false by (symmetry; apply Z.ltb_ge; lia). now rewrite Nat2Z.id.
Qed.

(** get_number itself can exceed the number of orbitals for type 'number'. *)
Theorem C23_number_exceeds_refuted :
  exists occup n, get_number (Number n) occup None = Returns n /\ (Z.of_nat (length occup) < n)%Z.
Proof. exists [1#2], 5%Z. split; reflexivity. Qed.

(** Without the ordering of the occupations, type 'occupation' keeps the wrong orbitals. *)
Theorem C23_unsorted_refuted :
  exists t (occup : list Q) b r, truncate_bno occup occup (Plain t) 1 = Some (b, r) /\ In (1#10) b /\ In (2#10) r /\ t == 2#10.
Proof. exists (2#10), [1#10; 2#10], [1#10], [2#10]. repeat split; simpl; auto. Qed.

(** Unrestricted: both channels are truncated independently. *)
Theorem C23_unrestricted : forall (A : Type) (coeff : list A * list A) occup t ne b r,
  truncate_bno_uhf coeff occup t ne = Some (b, r) ->
  truncate_bno (fst coeff) (fst occup) t ne = Some (fst b, fst r)
  /\ truncate_bno (snd coeff) (snd occup) t ne = Some (snd b, snd r).
Proof.
  intros A coeff occup t ne b r H. unfold truncate_bno_uhf in H.
  destruct (truncate_bno (fst coeff) (fst occup) t ne) as [[ba ra]|] eqn:E1; try discriminate.
  destruct (truncate_bno (snd coeff) (snd occup) t ne) as [[bb rb]|] eqn:E2; try discriminate.
  injection H as <- <-. auto.
Qed.

(** Cases: five orbitals, the last with a small negative occupation. *)
Example ex_bno : let occ := [1#2; 1#4; 1#8; 1#16; -(1#1000)] in
  StronglySorted (fun x y => y <= x) occ
  /\ get_number (Occupation (1#8)) occ None = Returns 3
  /\ get_number (Truncation (1#16)) occ None = Returns 3
  /\ get_number (ExcitedPercent (1#5)) occ None = Returns 2
  /\ get_number (ElectronPercent (1#100)) occ (Some 10) = Returns 3
  /\ get_number (ElectronPercent (1#100)) occ None = AssertionError
  /\ get_number (Truncation (-1#16)) occ None = RuntimeError
  /\ truncate_bno [1;2;3;4;5]%nat occ (Plain (1#4)) 1 = Some ([1;2], [3;4;5])%nat
  /\ truncate_bno [1;2;3;4;5]%nat occ (Object (Number (-2))) 1 = Some ([1;2;3], [4;5])%nat.
Proof.
  cbv zeta. split; [|vm_compute; repeat split; auto].
  repeat constructor; discriminate.
Qed.

Print Assumptions C23_share.
Print Assumptions C23_unreachable.
Print Assumptions C23_occupation.
Print Assumptions C23_truncate.
Print Assumptions C23_plain.
Print Assumptions C23_unrestricted.
Print Assumptions C23_number_exceeds_refuted.
Print Assumptions C23_unsorted_refuted.
