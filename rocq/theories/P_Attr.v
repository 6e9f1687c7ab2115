(** Property C04: temporary attribute replacement. *)
From Coq Require Import List Arith Bool Lia.
From Verif Require Import M_Attr.
Import ListNotations.

Section Attr.
Context {data func exn res : Type}.
Notation object := (object data func).
Notation value := (value data func).

(** ** Specification: what the block must see. *)
Definition bindable (v : value) : Prop := match v with Static _ => False | _ => True end.
Definition bound (v : value) : value := match v with Function f => Method f | _ => v end.

Lemma bind_bound v : bindable v -> bind v = Some (bound v).
Proof. destruct v; simpl; tauto. Qed.

Lemma getattr_set_eq (o : object) n v : getattr (setattr o n v) n = Some v.
Proof. unfold getattr, setattr. simpl. rewrite Nat.eqb_refl. auto. Qed.

Lemma inst_set_neq (o : object) n m v : n <> m -> inst (setattr o n v) m = inst o m.
Proof. intros H. unfold setattr. simpl. rewrite (proj2 (Nat.eqb_neq m n)); auto. Qed.

Lemma getattr_set_neq (o : object) n m v : n <> m -> getattr (setattr o n v) m = getattr o m.
Proof. intros H. unfold getattr. rewrite inst_set_neq by auto. auto. Qed.

Lemma restore_cls orig : forall o : object, cls (restore orig o) = cls o.
Proof. induction orig as [|[n v] orig IH]; intros o; simpl; auto. unfold restore in *. simpl. rewrite IH. auto. Qed.

Lemma restore_other orig : forall (o : object) m, ~ In m (map fst orig) -> inst (restore orig o) m = inst o m.
Proof.
  induction orig as [|[n v] orig IH]; intros o m H; simpl in *; auto.
  unfold restore in *. simpl. rewrite IH by tauto. apply inst_set_neq. tauto.
Qed.

Lemma restore_in orig : forall (o : object) m v, NoDup (map fst orig) -> In (m, v) orig ->
  getattr (restore orig o) m = Some v.
Proof.
  induction orig as [|[n w] orig IH]; intros o m v Hn Hin; simpl in *; [tauto|].
  inversion Hn; subst. unfold restore in *. simpl. destruct Hin as [E|Hin].
  - injection E as -> ->. fold (restore orig (setattr o m v)).
    unfold getattr. rewrite restore_other by auto. rewrite restore_cls.
    change (getattr (setattr o m v) m = Some v). apply getattr_set_eq.
  - apply IH; auto.
Qed.

(** What [enter] does when it succeeds. *)
Lemma enter_spec kwargs : forall (o : object) orig o1 orig1 ok,
  NoDup (map fst kwargs) ->
  enter kwargs o orig = (o1, orig1, ok) ->
  exists saved, orig1 = orig ++ saved /\ NoDup (map fst saved) /\
    incl (map fst saved) (map fst kwargs) /\
    (forall n v, In (n, v) saved -> getattr o n = Some v) /\
    (forall m, ~ In m (map fst kwargs) -> inst o1 m = inst o m) /\
    (forall m, ~ In m (map fst saved) -> inst o1 m = inst o m) /\
    cls o1 = cls o /\
    (ok = true -> map fst saved = map fst kwargs /\ forall n v, In (n, v) kwargs -> getattr o1 n = Some (bound v)) /\
    (ok = true <-> forall n v, In (n, v) kwargs -> getattr o n <> None /\ bindable v).
Proof.
  induction kwargs as [|[n v] rest IH]; intros o orig o1 orig1 ok Hn E; simpl in E.
  - injection E as <- <- <-. exists []. rewrite app_nil_r. simpl.
    repeat split; auto; try constructor; try tauto; intros x [].
  - inversion Hn as [|? ? Hnin Hn']; subst.
    destruct (getattr o n) as [old|] eqn:G.
    + destruct (bind v) as [w|] eqn:B.
      * assert (Hb : bindable v) by (destruct v; simpl in *; auto; discriminate).
        rewrite bind_bound in B by auto. injection B as <-.
        apply IH in E; auto. destruct E as (saved & -> & Hnd & Hincl & Hs & Ho & Ho' & Hc & Hok & Hiff).
        exists ((n, old) :: saved). simpl. rewrite <- app_assoc. split; auto.
        assert (Hns : ~ In n (map fst saved)) by (intros H; apply Hnin, Hincl, H).
        split; [constructor; auto|].
        split; [intros x [<-|Hx]; [left; auto|right; apply Hincl; auto]|].
        split.
        { intros m u [E|Hin].
          - injection E as <- <-. auto.
          - assert (m <> n) by (intros ->; apply Hns, in_map_iff; exists (n, u); auto).
            apply Hs in Hin. rewrite getattr_set_neq in Hin by auto. auto. }
        split; [intros m H; rewrite Ho by tauto; apply inst_set_neq; tauto|].
        split; [intros m H; rewrite Ho' by tauto; apply inst_set_neq; tauto|].
        split; auto.
        split.
        { intros Hk. destruct (Hok Hk) as [H1 H2]. split; [f_equal; auto|].
          intros m u [E|Hin].
          - injection E as <- <-. unfold getattr. rewrite Ho by auto. rewrite Hc.
            change (getattr (setattr o n (bound v)) n = Some (bound v)). apply getattr_set_eq.
          - apply H2; auto. }
        rewrite Hiff. split.
        { intros H m u [E|Hin].
          - injection E as <- <-. rewrite G. split; [discriminate|auto].
          - destruct (H m u Hin) as [H1 H2]. split; auto.
            rewrite getattr_set_neq in H1; auto. intros ->. apply Hnin, in_map_iff. exists (m, u). auto. }
        { intros H m u Hin. destruct (H m u (or_intror Hin)) as [H1 H2]. split; auto.
          rewrite getattr_set_neq; auto. intros ->. apply Hnin, in_map_iff. exists (m, u). auto. }
      * injection E as <- <- <-. exists [(n, old)]. simpl. split; auto.
        split; [repeat constructor; auto|]. split; [intros x [<-|[]]; left; auto|].
        split; [intros m u [E|[]]; injection E as <- <-; auto|].
        split; auto. split; auto. split; auto. split; [discriminate|].
        split; [discriminate|]. intros H. destruct (H n v (or_introl eq_refl)) as [_ H2].
        destruct v; simpl in *; try discriminate; tauto.
    + injection E as <- <- <-. exists []. rewrite app_nil_r. simpl.
      split; auto. split; [constructor|]. split; [intros x []|]. split; [intros ? ? []|].
      split; auto. split; auto. split; auto. split; [discriminate|].
      split; [discriminate|]. intros H. destruct (H n v (or_introl eq_refl)) as [H1 _]. congruence.
Qed.

(** ** C04 *)

(** If all named attributes exist and all callables can be bound, the block runs once, starting from an object in which exactly the
    named attributes are replaced; afterwards (normal return or any exception) the named attributes have the old
    values whatever the block did to them, every other attribute is as the block left it, the class is untouched by
    the manager, and the outcome of the block is passed on. *)
Theorem C04_replace_attr : forall (kwargs : list (nat * value)) (body : object -> object * outcome exn res) (o : object),
  NoDup (map fst kwargs) ->
  (forall n v, In (n, v) kwargs -> getattr o n <> None /\ bindable v) ->
  exists o1,
    (forall n v, In (n, v) kwargs -> getattr o1 n = Some (bound v)) /\
    (forall m, ~ In m (map fst kwargs) -> inst o1 m = inst o m) /\ cls o1 = cls o /\
    let '(o2, out) := body o1 in
    let '(o3, out') := with_replace_attr kwargs body o in
    out' = out /\ cls o3 = cls o2 /\
    (forall n, In n (map fst kwargs) -> getattr o3 n = getattr o n) /\
    (forall m, ~ In m (map fst kwargs) -> inst o3 m = inst o2 m /\ getattr o3 m = getattr o2 m).
Proof.
  intros kwargs body o Hn Hok. unfold with_replace_attr.
  destruct (enter kwargs o []) as [[o1 orig] ok] eqn:E.
  pose proof (enter_spec _ _ _ _ _ _ Hn E) as (saved & -> & Hnd & Hincl & Hs & Ho & Ho' & Hc & Hok' & Hiff).
  apply Hiff in Hok. subst ok. destruct (Hok' eq_refl) as [Hf Hb].
  exists o1. split; auto. split; auto. split; auto.
  destruct (body o1) as [o2 out]. simpl app.
  split; auto. split; [apply restore_cls|]. split.
  - intros n Hin. rewrite <- Hf in Hin. apply in_map_iff in Hin. destruct Hin as ((n' & v) & E' & Hin).
    simpl in E'. subst n'. rewrite (Hs _ _ Hin). apply restore_in; auto.
  - intros m Hm. rewrite <- Hf in Hm. split; [apply restore_other; auto|].
    unfold getattr. rewrite restore_other, restore_cls by auto. auto.
Qed.

(** If a named attribute does not exist (or a callable cannot be bound) the block does not run, an AttributeError leaves the manager, and
    no attribute of the object reads differently from before. *)
Theorem C04_failed_entry : forall (kwargs : list (nat * value)) (body : object -> object * outcome exn res) (o : object),
  NoDup (map fst kwargs) ->
  (exists n v, In (n, v) kwargs /\ (getattr o n = None \/ ~ bindable v)) ->
  let '(o3, out) := with_replace_attr kwargs body o in
  out = AttributeError /\ cls o3 = cls o /\ forall n, getattr o3 n = getattr o n.
Proof.
  intros kwargs body o Hn Hbad. unfold with_replace_attr.
  destruct (enter kwargs o []) as [[o1 orig] ok] eqn:E.
  pose proof (enter_spec _ _ _ _ _ _ Hn E) as (saved & -> & Hnd & Hincl & Hs & Ho & Ho' & Hc & Hok' & Hiff).
  destruct ok.
  - exfalso. destruct Hbad as (n & v & Hin & H). destruct (proj1 Hiff eq_refl n v Hin). tauto.
  - split; auto. simpl app. split; [rewrite restore_cls; auto|]. intros n.
    destruct (in_dec Nat.eq_dec n (map fst saved)) as [Hin|Hin].
    + apply in_map_iff in Hin. destruct Hin as ((n' & v) & E' & Hin). simpl in E'. subst n'.
      rewrite (Hs _ _ Hin). apply restore_in; auto.
    + unfold getattr. rewrite restore_other, restore_cls, Ho', Hc by auto. auto.
Qed.

End Attr.

(** Concrete case: attribute 0 is data 10 on the instance, attribute 1 a method of the class; both replaced by a block which
    overwrites attribute 0 and raises.  The hypotheses of both theorems are met. *)
Definition ex_obj : object nat nat :=
  {| inst := fun n => if n =? 0 then Some (Data 10) else None;
     cls := fun n => if n =? 1 then Some (Function 7) else None |}.
Definition ex_body (o : object nat nat) : object nat nat * outcome nat nat :=
  (setattr (setattr o 0 (Data 99)) 5 (Data 55), Raised 3).
Example C04_ex :
  let '(o3, out) := with_replace_attr [(0, Data 11); (1, Function 8)] ex_body ex_obj in
  getattr o3 0 = Some (Data 10) /\ getattr o3 1 = Some (Method 7) /\ getattr o3 5 = Some (Data 55) /\ out = Raised 3.
Proof. vm_compute. auto. Qed.
Example C04_ex_fail :
  let '(o3, out) := with_replace_attr [(0, Data 11); (2, Data 1)] ex_body ex_obj in
  getattr o3 0 = Some (Data 10) /\ getattr o3 5 = None /\ out = AttributeError.
Proof. vm_compute. auto. Qed.

(** Finding: the restored value of a class-level attribute is written to the instance, so the instance dictionary is not what it was
    (a later change of the class attribute is no longer seen through this object). *)
Theorem C04_instance_dict_refuted :
  ~ (forall (kwargs : list (nat * value nat nat)) (body : object nat nat -> object nat nat * outcome nat nat) o n,
       NoDup (map fst kwargs) -> (forall o, body o = (o, Returned 0)) ->
       inst (fst (with_replace_attr kwargs body o)) n = inst o n).
Proof.
  intros H. specialize (H [(1, Function 8)] (fun o => (o, Returned 0)) ex_obj 1).
  assert (N : NoDup (map fst [(1, @Function nat nat 8)])) by (repeat constructor; auto).
  specialize (H N (fun o => eq_refl)). vm_compute in H. discriminate.
Qed.

Print Assumptions C04_replace_attr.
Print Assumptions C04_failed_entry.
Print Assumptions C04_instance_dict_refuted.
