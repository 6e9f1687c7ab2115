(** Property C11: get_fragments. *)
From Coq Require Import List Bool Lia.
From Verif Require Import M_Fragments.
Import ListNotations.

Section Fragments.
Context {frag key value : Type} (veqb : value -> value -> bool).
Hypothesis veqb_spec : forall a b, veqb a b = true <-> a = b.
Variables attr opt flag : frag -> key -> option value.

(** ** Specification *)

(** A value passes a filter: the callable accepts it, or it is one of the given values. *)
Definition passes (f : filt value) (v : value) : Prop :=
  match f with Callable p => p v = true | Values l => In v l end.

(** All given filters are passed by an object. *)
Definition passes_all (get : key -> option value) (fs : list (key * filt value)) : Prop :=
  forall k f, In (k, f) fs -> exists v, get k = Some v /\ passes f v.

(** All filtered attributes exist. *)
Definition has_all (get : key -> option value) (fs : list (key * filt value)) : Prop :=
  forall k f, In (k, f) fs -> get k <> None.

(** [sub p l l']: l' consists of the members of l satisfying p, in the order of l (and as often as in l). *)
Inductive sub (p : frag -> Prop) : list frag -> list frag -> Prop :=
| sub_nil : sub p [] []
| sub_keep x l l' : p x -> sub p l l' -> sub p (x :: l) (x :: l')
| sub_drop x l l' : ~ p x -> sub p l l' -> sub p (x :: l) l'.

(** ** Lemmas *)

Lemma skip_spec v f : skip_ veqb v f = false <-> passes f v.
Proof.
  destruct f as [p|l]; simpl; rewrite negb_false_iff; [tauto|].
  rewrite existsb_exists. split.
  - intros (x & Hx & E). apply veqb_spec in E. subst. auto.
  - intros H. exists v. split; auto. apply veqb_spec. auto.
Qed.

Lemma check_spec (get : key -> option value) fs : has_all get fs ->
  exists b, check veqb get fs false = Some b /\ (b = false <-> passes_all get fs).
Proof.
  induction fs as [|[k f] fs IH]; intros Hh; simpl.
  - exists false. split; auto. split; auto. intros _ k f [].
  - destruct (get k) as [v|] eqn:E; [|exfalso; eapply Hh; [left; reflexivity|auto]].
    destruct (skip_ veqb v f) eqn:S.
    + exists true. split; auto. split; [discriminate|]. intros H. destruct (H k f) as (v' & E' & P); [left; auto|].
      rewrite E in E'. injection E' as <-. apply skip_spec in P. congruence.
    + destruct IH as (b & Hb & Hs).
      { intros k' f' H. eapply Hh. right. eauto. }
      exists b. split; auto. rewrite Hs. split.
      * intros H k' f' [Heq|Hin]; auto. injection Heq as <- <-. exists v. split; auto. apply skip_spec. auto.
      * intros H k' f' Hin. apply H. right. auto.
Qed.

Lemma check_start (get : key -> option value) fs b : fs <> [] -> check veqb get fs b = check veqb get fs false.
Proof. destruct fs; [congruence|reflexivity]. Qed.

Lemma keeps_spec filters options flags x :
  has_all (attr x) filters -> has_all (opt x) options -> has_all (flag x) flags ->
  exists b, keeps veqb attr opt flag filters options flags x = Some b /\
    (b = true <-> passes_all (attr x) filters /\ passes_all (flag x) flags /\
                  (flags = [] -> passes_all (opt x) options)).
Proof.
  intros H1 H2 H3. unfold keeps.
  destruct (check_spec _ _ H1) as (b1 & -> & E1). destruct (check_spec _ _ H2) as (b2 & E2' & E2).
  destruct (check_spec _ _ H3) as (b3 & E3' & E3).
  destruct b1.
  - exists false. split; auto. split; [discriminate|]. intros [H _]. apply E1 in H. discriminate.
  - rewrite E2'. destruct flags as [|fl flags].
    + simpl. exists (negb b2). split; auto. rewrite negb_true_iff, E2. split.
      * intros H. split; [apply E1; auto|]. split; [intros k f []|auto].
      * intros (_ & _ & H). auto.
    + rewrite check_start by discriminate. rewrite E3'. exists (negb b3). split; auto. rewrite negb_true_iff, E3. split.
      * intros H. split; [apply E1; auto|]. split; auto. discriminate.
      * tauto.
Qed.

Lemma filter_fragments_spec filters options flags l :
  (forall x, In x l -> has_all (attr x) filters /\ has_all (opt x) options /\ has_all (flag x) flags) ->
  exists r, filter_fragments veqb attr opt flag filters options flags l = Some r /\
    sub (fun x => passes_all (attr x) filters /\ passes_all (flag x) flags /\ (flags = [] -> passes_all (opt x) options)) l r.
Proof.
  induction l as [|x l IH]; intros H; simpl.
  - exists []. split; auto. constructor.
  - destruct (keeps_spec filters options flags x) as (b & -> & Hb); try apply H; try (left; auto).
    destruct IH as (r & -> & Hr).
    { intros y Hy. apply H. right. auto. }
    eexists. split; [reflexivity|]. destruct b.
    + apply sub_keep; auto. apply Hb. auto.
    + apply sub_drop; auto. intros Hp. apply Hb in Hp. discriminate.
Qed.

Lemma sub_all (p : frag -> Prop) l : (forall x, p x) -> sub p l l.
Proof. intros H. induction l; constructor; auto. Qed.

Lemma sub_impl (p q : frag -> Prop) l r : (forall x, p x <-> q x) -> sub p l r -> sub q l r.
Proof.
  intros H. induction 1; constructor; auto.
  - apply H. auto.
  - intros Hq. apply H in Hq. auto.
Qed.

Lemma get_fragments_spec filters options flags l :
  (forall x, In x l -> has_all (attr x) filters /\ has_all (opt x) options /\ has_all (flag x) flags) ->
  exists r, get_fragments veqb attr opt flag l filters options flags = Some r /\
    sub (fun x => passes_all (attr x) filters /\ passes_all (flag x) flags /\ (flags = [] -> passes_all (opt x) options)) l r.
Proof.
  intros H. unfold get_fragments. destruct filters, options, flags; try apply filter_fragments_spec; auto.
  exists l. split; auto. apply sub_all. intros x. repeat split; [intros k f []|intros k f []|intros _ k f []].
Qed.

(** ** C11 *)

(** If option and flag filters are not combined, exactly the fragments passing all filters are returned, in order. *)
Theorem C11_get_fragments : forall l filters options flags,
  (forall x, In x l -> has_all (attr x) filters /\ has_all (opt x) options /\ has_all (flag x) flags) ->
  options = [] \/ flags = [] ->
  exists r, get_fragments veqb attr opt flag l filters options flags = Some r /\
    sub (fun x => passes_all (attr x) filters /\ passes_all (opt x) options /\ passes_all (flag x) flags) l r.
Proof.
  intros l filters options flags H Hof. destruct (get_fragments_spec filters options flags l H) as (r & E & Hs).
  exists r. split; auto. eapply sub_impl; [|apply Hs]. intros x. simpl. destruct Hof as [->| ->].
  - split; intros (H1 & H2 & H3); repeat split; auto. intros k f [].
  - split; intros (H1 & H2 & H3); repeat split; auto.
Qed.

(** The result has no duplicates if the input has none, and a fragment is in it iff it passes. *)
Theorem C11_sound_complete : forall l filters options flags r,
  (forall x, In x l -> has_all (attr x) filters /\ has_all (opt x) options /\ has_all (flag x) flags) ->
  options = [] \/ flags = [] ->
  get_fragments veqb attr opt flag l filters options flags = Some r ->
  (NoDup l -> NoDup r) /\
  forall x, In x r <-> In x l /\ passes_all (attr x) filters /\ passes_all (opt x) options /\ passes_all (flag x) flags.
Proof.
  intros l filters options flags r H Hof E.
  destruct (C11_get_fragments l filters options flags H Hof) as (r' & E' & Hs). rewrite E in E'. injection E' as <-.
  clear - Hs. assert (Hin : forall x, In x r <-> In x l /\ passes_all (attr x) filters /\ passes_all (opt x) options /\ passes_all (flag x) flags).
  { induction Hs as [|y l r Hp Hs IH|y l r Hp Hs IH]; intros x; simpl.
    - tauto.
    - rewrite IH. split; [intros [->|?]; tauto|]. intros [[->|?] ?]; tauto.
    - rewrite IH. split; [tauto|]. intros [[->|?] ?]; tauto. }
  split; auto. clear Hin. induction Hs as [|y l r Hp Hs IH|y l r Hp Hs IH]; intros Hn; inversion Hn; subst; auto.
  - constructor; auto. intros Hi. apply H1. clear - Hs Hi. induction Hs; simpl in *; [auto|destruct Hi; auto|auto].
Qed.

(** With option and flag filters together the option filters have no effect at all. *)
Theorem C11_options_ignored : forall l filters options flags,
  (forall x, In x l -> has_all (attr x) filters /\ has_all (opt x) options /\ has_all (flag x) flags) ->
  flags <> [] ->
  exists r, get_fragments veqb attr opt flag l filters options flags = Some r /\
    sub (fun x => passes_all (attr x) filters /\ passes_all (flag x) flags) l r.
Proof.
  intros l filters options flags H Hf. destruct (get_fragments_spec filters options flags l H) as (r & E & Hs).
  exists r. split; auto. eapply sub_impl; [|apply Hs]. intros x. simpl. tauto.
Qed.
End Fragments.

(** Fragments as numbers: attribute n, option n mod 2, flag n mod 3. *)
Definition ex_get (x : nat) (_ : unit) : option nat := Some x.
Definition ex_opt (x : nat) (_ : unit) : option nat := Some (Nat.modulo x 2).
Definition ex_flag (x : nat) (_ : unit) : option nat := Some (Nat.modulo x 3).
Example C11_ex :
  get_fragments Nat.eqb ex_get ex_opt ex_flag (seq 0 10) [(tt, Callable (fun n => Nat.ltb 2 n))] [] [(tt, Values [0; 1])]
  = Some [3; 4; 6; 7; 9].
Proof. reflexivity. Qed.
Example C11_ex_hyp : forall x, In x (seq 0 10) ->
  has_all (ex_get x) [(tt, @Callable nat (fun n => Nat.ltb 2 n))] /\ has_all (ex_opt x) (@nil (unit * filt nat)) /\ has_all (ex_flag x) [(tt, Values [0; 1])].
Proof. intros x _. repeat split; intros k f H; discriminate. Qed.

(** Finding: with both kinds of filters a fragment with a non-matching option is returned. *)
Theorem C11_options_and_flags_refuted :
  exists (l r : list nat) options flags x,
    get_fragments Nat.eqb ex_get ex_opt ex_flag l [] options flags = Some r /\
    In x r /\ ~ passes_all (ex_opt x) options.
Proof.
  exists [0; 1], [0; 1], [(tt, Values [1])], [(tt, Values [0; 1])], 0.
  split; [reflexivity|]. split; [left; auto|]. intros H. destruct (H tt _ (or_introl eq_refl)) as (v & E & P).
  injection E as <-. destruct P as [P|[]]. discriminate.
Qed.

Print Assumptions C11_get_fragments.
Print Assumptions C11_sound_complete.
Print Assumptions C11_options_ignored.
Print Assumptions C11_options_and_flags_refuted.
