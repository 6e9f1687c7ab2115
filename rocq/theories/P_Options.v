(** Property C05: option tables. *)
From Coq Require Import String List Bool.
From Verif Require Import M_Options.
Import ListNotations.
Local Open Scope string_scope.
Local Open Scope list_scope.

Section Options.
Context {atom : Type}.
Notation value := (value atom).
Notation table := (table atom).

(** ** Specification *)

(** The dictionary [d] overrides [sd]: value of one key after the merge. *)
Definition overridden (sd d : list (string * atom)) (k : string) : option atom :=
  match lookup k d with Some a => Some a | None => lookup k sd end.

(** Does option value [w] say what the user asked for: [v] given, [old] before? *)
Definition as_requested (old v w : value) : Prop :=
  match v, old with
  | Dict d, Dict sd => exists md, w = Dict md /\ forall k, lookup k md = overridden sd d k
  | _, _ => w = v
  end.

(** A keyword argument [replace] has to reject. *)
Definition offending (t : table) (kv : string * value) : Prop :=
  match lookup (fst kv) t with
  | None => True
  | Some (Dict sd) => match snd kv with
                      | Dict d => exists k, lookup k d <> None /\ lookup k sd = None
                      | Atom _ => False
                      end
  | Some (Atom _) => False
  end.

(** ** Lemmas *)

Lemma lookup_set_eq {V} k (v : V) t : lookup k (set_key k v t) = Some v.
Proof.
  induction t as [|[k' v'] t IH]; simpl.
  - rewrite String.eqb_refl. auto.
  - destruct (String.eqb k k') eqn:E; simpl; rewrite E; auto.
Qed.

Lemma lookup_set_neq {V} k k' (v : V) t : k <> k' -> lookup k (set_key k' v t) = lookup k t.
Proof.
  intros H. induction t as [|[k2 v2] t IH]; simpl.
  - apply String.eqb_neq in H. rewrite H. auto.
  - destruct (String.eqb k' k2) eqn:E; simpl.
    + apply String.eqb_eq in E. subst. apply String.eqb_neq in H. rewrite H. auto.
    + rewrite IH. auto.
Qed.

Lemma keys_set {V} k (v : V) t : lookup k t <> None -> map fst (set_key k v t) = map fst t.
Proof.
  induction t as [|[k' v'] t IH]; simpl; intros H; [congruence|].
  destruct (String.eqb k k') eqn:E; simpl; auto. f_equal. auto.
Qed.

Lemma lookup_None {V} k (t : list (string * V)) : lookup k t = None <-> ~ In k (map fst t).
Proof.
  induction t as [|[k' v'] t IH]; simpl; [tauto|].
  destruct (String.eqb k k') eqn:E.
  - apply String.eqb_eq in E. subst. split; [discriminate|tauto].
  - apply String.eqb_neq in E. rewrite IH. split; [intros H [?|?]; [congruence|auto]|tauto].
Qed.

Lemma lookup_In {V} k (v : V) t : NoDup (map fst t) -> (lookup k t = Some v <-> In (k, v) t).
Proof.
  induction t as [|[k' v'] t IH]; simpl; intros Hn; [split; [discriminate|tauto]|].
  inversion Hn; subst. destruct (String.eqb k k') eqn:E.
  - apply String.eqb_eq in E. subst. split.
    + intros H. injection H as ->. auto.
    + intros [H|H]; [congruence|]. exfalso. apply H1, in_map_iff. exists (k', v). auto.
  - apply String.eqb_neq in E. rewrite IH by auto. split; [auto|]. intros [H|H]; [congruence|auto].
Qed.

Lemma lookup_merge (b : list (string * atom)) : forall a k, NoDup (map fst b) ->
  lookup k (merge a b) = overridden a b k.
Proof.
  unfold overridden.
  induction b as [|[k' v'] b IH]; intros a k Hn; simpl; auto.
  inversion Hn; subst. unfold merge in *. simpl. rewrite IH by auto.
  destruct (String.eqb k k') eqn:E.
  - apply String.eqb_eq in E. subst. apply lookup_None in H1. rewrite H1. apply lookup_set_eq.
  - apply String.eqb_neq in E. rewrite lookup_set_neq by auto. auto.
Qed.

Definition wf_value (v : value) : Prop := match v with Dict d => NoDup (map fst d) | Atom _ => True end.

Lemma replace_one_spec (t : table) k v : wf_value v ->
  match replace_one t k v with
  | Some t' => ~ offending t (k, v) /\ map fst t' = map fst t /\
               (forall k', k' <> k -> lookup k' t' = lookup k' t) /\
               exists old w, lookup k t = Some old /\ lookup k t' = Some w /\ as_requested old v w
  | None => offending t (k, v)
  end.
Proof.
  intros Hw. unfold replace_one, offending. simpl.
  destruct (lookup k t) as [old|] eqn:L; [|auto].
  assert (Hk : lookup k t <> None) by congruence.
  destruct v as [a|d].
  - split; [destruct old; tauto|]. split; [apply keys_set; auto|].
    split; [intros; apply lookup_set_neq; auto|].
    exists old, (Atom a). split; auto. split; [apply lookup_set_eq|]. destruct old; reflexivity.
  - destruct old as [a|sd].
    + split; [tauto|]. split; [apply keys_set; auto|]. split; [intros; apply lookup_set_neq; auto|].
      exists (Atom a), (Dict d). split; auto. split; [apply lookup_set_eq|]. reflexivity.
    + destruct (forallb (fun kv => has_key (fst kv) sd) d) eqn:F.
      * rewrite forallb_forall in F. split.
        { intros (k' & H1 & H2). apply H1. apply lookup_None. intros Hin. apply in_map_iff in Hin.
          destruct Hin as ((k2 & a) & E & Hin). simpl in E. subst. apply F in Hin. unfold has_key in Hin. simpl in Hin.
          rewrite H2 in Hin. discriminate. }
        split; [apply keys_set; auto|]. split; [intros; apply lookup_set_neq; auto|].
        exists (Dict sd), (Dict (merge sd d)). split; auto. split; [apply lookup_set_eq|].
        exists (merge sd d). split; auto. intros k'. apply lookup_merge. exact Hw.
      * assert (H : exists x, In x d /\ has_key (fst x) sd = false).
        { clear - F. induction d as [|x d IH]; simpl in F; [discriminate|].
          destruct (has_key (fst x) sd) eqn:E; simpl in F.
          - destruct (IH F) as (y & H1 & H2). exists y. split; [right|]; auto.
          - exists x. split; [left|]; auto. }
        destruct H as ((k' & a) & H1 & H2). simpl in H2.
        exists k'. split.
        -- intros HN. apply lookup_None in HN. apply HN, in_map_iff. exists (k', a). auto.
        -- unfold has_key in H2. destruct (lookup k' sd); auto; discriminate.
Qed.

Lemma offending_ext t t' kv : lookup (fst kv) t = lookup (fst kv) t' -> offending t kv -> offending t' kv.
Proof. unfold offending. intros ->. auto. Qed.

(** ** C05 *)

(** [replace] succeeds exactly when no keyword argument is offending. On success, no option is added, removed or reordered,
    unnamed options keep their value, and named options have the requested value. *)
Theorem C05_replace : forall (t : table) (kwargs : list (string * value)),
  NoDup (map fst kwargs) -> Forall (fun kv => wf_value (snd kv)) kwargs ->
  match replace t kwargs with
  | Ok t' =>
      (forall kv, In kv kwargs -> ~ offending t kv) /\
      map fst t' = map fst t /\
      (forall k, ~ In k (map fst kwargs) -> lookup k t' = lookup k t) /\
      (forall k v, In (k, v) kwargs ->
         exists old w, lookup k t = Some old /\ lookup k t' = Some w /\ as_requested old v w)
  | TypeError t' =>
      exists pre kv post, kwargs = pre ++ kv :: post /\ offending t kv /\
        (forall x, In x pre -> ~ offending t x) /\ replace t pre = Ok t'
  end.
Proof.
  intros t kwargs. revert t. induction kwargs as [|[k v] rest IH]; intros t Hn Hw; simpl.
  - repeat split; auto; intros; contradiction.
  - inversion Hn; subst. inversion Hw; subst. simpl in *.
    pose proof (replace_one_spec t k v H3) as Hone.
    destruct (replace_one t k v) as [t1|] eqn:R.
    + destruct Hone as (Hno & Hkeys & Hother & old & w & Hold & Hnew & Hreq).
      specialize (IH t1 H2 H4).
      assert (Hoff : forall x, In x rest -> offending t x <-> offending t1 x).
      { intros x Hx. assert (fst x <> k) by (intros E; apply H1, in_map_iff; exists x; auto).
        split; apply offending_ext; [symmetry|]; apply Hother; auto. }
      destruct (replace t1 rest) as [t'|t'].
      * destruct IH as (H5 & H6 & H7 & H8). split; [|split; [|split]].
        -- intros kv [<-|Hin]; auto. rewrite Hoff by auto. auto.
        -- congruence.
        -- intros k' Hk'. rewrite H7 by tauto. apply Hother. intros ->. tauto.
        -- intros k' v' [E|Hin].
           ++ injection E as <- <-. exists old, w. split; auto. split; auto. rewrite H7; auto.
           ++ destruct (H8 _ _ Hin) as (old' & w' & L1 & L2 & L3). exists old', w'. split; [|split]; auto.
              rewrite <- Hother; auto. intros ->. apply H1, in_map_iff. exists (k, v'). auto.
      * destruct IH as (pre & kv & post & -> & H5 & H6 & H7).
        exists ((k, v) :: pre), kv, post. split; auto. split.
        { apply Hoff; auto. apply in_app_iff. right. left. auto. }
        split.
        { intros x [<-|Hx]; auto. rewrite Hoff by (apply in_app_iff; auto). auto. }
        simpl. rewrite R. auto.
    + exists [], (k, v), rest. split; auto.
Qed.

(** Corollary: success of [replace] is decided by the absence of offending keywords. *)
Corollary C05_replace_iff : forall (t : table) (kwargs : list (string * value)),
  NoDup (map fst kwargs) -> Forall (fun kv => wf_value (snd kv)) kwargs ->
  ((exists t', replace t kwargs = Ok t') <-> forall kv, In kv kwargs -> ~ offending t kv).
Proof.
  intros t kwargs Hn Hw. pose proof (C05_replace t kwargs Hn Hw) as H.
  destruct (replace t kwargs) as [t'|t'].
  - split; [intros _; tauto|]. intros _. eauto.
  - destruct H as (pre & kv & post & -> & Ho & _). split.
    + intros (t'' & E). discriminate.
    + intros H. exfalso. apply (H kv); auto. apply in_app_iff. right. left. auto.
Qed.

(** After a successful [replace], [get] returns what was asked for, the old value of an option that was not named, and
    the default if there is no such option. *)
Theorem C05_get : forall (t t' : table) (kwargs : list (string * value)) default,
  NoDup (map fst kwargs) -> Forall (fun kv => wf_value (snd kv)) kwargs -> replace t kwargs = Ok t' ->
  (forall k v, In (k, v) kwargs -> exists old w, In (k, old) t /\ opt_get t' k default = Some w /\ as_requested old v w) /\
  (forall k, ~ In k (map fst kwargs) -> opt_get t' k default = opt_get t k default) /\
  (forall k, ~ In k (map fst t) -> opt_get t' k default = default).
Proof.
  intros t t' kwargs default Hn Hw E. pose proof (C05_replace t kwargs Hn Hw) as H. rewrite E in H. destruct H as (_ & H2 & H3 & H4). unfold opt_get. split; [|split].
  - intros k v Hi. destruct (H4 k v Hi) as (old & w & L1 & L2 & L3). exists old, w. rewrite L2. repeat split; auto.
    clear - L1. induction t as [|[k' v'] t IH]; [discriminate|]. cbn [lookup] in L1. destruct (String.eqb k k') eqn:E; [|simpl; auto].
    apply String.eqb_eq in E. injection L1 as ->. subst. simpl. auto.
  - intros k Hk. now rewrite H3.
  - intros k Hk. rewrite <- H2 in Hk. apply lookup_None in Hk. now rewrite Hk.
Qed.

(** [update] never fails and never adds an option; unknown names change nothing; dictionaries are merged, and here new
    dictionary keys are accepted. *)
Theorem C05_update : forall (t : table) (kwargs : list (string * value)),
  NoDup (map fst kwargs) -> Forall (fun kv => wf_value (snd kv)) kwargs ->
  map fst (update t kwargs) = map fst t /\
  (forall k, ~ In k (map fst kwargs) -> lookup k (update t kwargs) = lookup k t) /\
  (forall k v old, In (k, v) kwargs -> lookup k t = Some old ->
      exists w, lookup k (update t kwargs) = Some w /\ as_requested old v w).
Proof.
  intros t kwargs. revert t. induction kwargs as [|[k v] rest IH]; intros t Hn Hw; simpl.
  - repeat split; auto; intros; contradiction.
  - inversion Hn; subst. inversion Hw; subst. simpl in *. unfold update in *. simpl.
    assert (Hone : map fst (update_one t k v) = map fst t /\
                   (forall k', k' <> k -> lookup k' (update_one t k v) = lookup k' t) /\
                   (forall old, lookup k t = Some old -> exists w, lookup k (update_one t k v) = Some w /\ as_requested old v w)).
    { unfold update_one. destruct (lookup k t) as [old|] eqn:L.
      - assert (Hk : lookup k t <> None) by congruence.
        destruct v as [a|d]; [|destruct old as [a|sd]];
          (split; [apply keys_set; auto|split; [intros; apply lookup_set_neq; auto|]]);
          intros old' E; injection E as <-; eexists; (split; [apply lookup_set_eq|]).
        + destruct old; reflexivity.
        + reflexivity.
        + eexists. split; [reflexivity|]. intros k'. apply lookup_merge. exact H3.
      - split; auto. split; auto. intros; discriminate. }
    destruct Hone as (Hk & Ho & Hr). destruct (IH (update_one t k v) H2 H4) as (H5 & H6 & H7).
    split; [congruence|]. split.
    + intros k' Hk'. rewrite H6 by tauto. apply Ho. intros ->. tauto.
    + intros k' v' old [E|Hin] L.
      * injection E as <- <-. rewrite H6 by auto. auto.
      * apply (H7 _ _ old Hin). rewrite Ho; auto. intros ->. apply H1, in_map_iff. exists (k, v'). auto.
Qed.

(** Defaults changed for a subclass: named keys overridden, others kept. *)
Theorem C05_change_dict_defaults : forall (defaults kwargs : list (string * atom)) k,
  NoDup (map fst kwargs) -> lookup k (change_dict_defaults defaults kwargs) = overridden defaults kwargs k.
Proof. intros. apply lookup_merge. auto. Qed.

End Options.

(** Concrete cases. *)
Definition ex_t : table nat := [("solver", Atom 1); ("bath_options", Dict [("bathtype", 5); ("threshold", 6)]); ("x", Atom 0)].
Definition ex_kw : list (string * value nat) := [("bath_options", Dict [("threshold", 9)]); ("x", Atom 3)].
Example C05_ex_ok :
  NoDup (map fst ex_kw) /\ Forall (fun kv => wf_value (snd kv)) ex_kw /\
  replace ex_t ex_kw = Ok [("solver", Atom 1); ("bath_options", Dict [("bathtype", 5); ("threshold", 9)]); ("x", Atom 3)].
Proof.
  split; [|split; [|reflexivity]].
  - simpl. repeat constructor; simpl; intuition discriminate.
  - repeat constructor; simpl; intuition discriminate.
Qed.
(** Finding: [replace] is not atomic, the option named before the bad keyword keeps the new value. *)
Example C05_not_atomic :
  replace ex_t [("x", Atom 3); ("nope", Atom 1)]
  = TypeError [("solver", Atom 1); ("bath_options", Dict [("bathtype", 5); ("threshold", 6)]); ("x", Atom 3)].
Proof. reflexivity. Qed.
Theorem C05_replace_atomic_refuted :
  ~ (forall (t t' : table nat) kwargs, replace t kwargs = TypeError t' -> t' = t).
Proof. intros H. specialize (H ex_t _ _ C05_not_atomic). discriminate. Qed.
(** [update] accepts a new key of a dictionary option. *)
Example C05_ex_update :
  update ex_t [("bath_options", Dict [("new", 7)]); ("nope", Atom 1)]
  = [("solver", Atom 1); ("bath_options", Dict [("bathtype", 5); ("threshold", 6); ("new", 7)]); ("x", Atom 0)].
Proof. reflexivity. Qed.

Print Assumptions C05_get.
Print Assumptions C05_replace.
Print Assumptions C05_replace_iff.
Print Assumptions C05_update.
Print Assumptions C05_change_dict_defaults.
Print Assumptions C05_replace_atomic_refuted.
