(** Property C33: parameters are flattened and restored without loss; mixing is element-wise. *)
From Coq Require Import List Arith Lia Ring ZArith.
From Verif Require Import Alg M_Updates.
Import ListNotations.

Section P.
Context (K : cring).
Add Ring Kr : (rth K).
Open Scope K_scope.
Notation nested := (nested K).

(** Induction over nested lists *)
Section Ind.
Variable P : nested -> Prop.
Hypothesis HA : forall s d, P (Arr s d).
Hypothesis HL : forall l, Forall P l -> P (Lst l).
Fixpoint nested_ind' (p : nested) : P p :=
  match p with
  | Arr s d => HA s d
  | Lst l => HL l ((fix go (l : list nested) : Forall P l :=
      match l with [] => Forall_nil P | x :: r => Forall_cons x (nested_ind' x) (go r) end) l)
  end.
End Ind.

(** The number of elements of an array of a given shape. *)
Fixpoint count (shape : list nat) : nat := match shape with [] => 1%nat | d :: r => (d * count r)%nat end.

Lemma prod_count l : prod l = count l.
Proof. induction l as [|d l IH]; [reflexivity|]. cbn [count]. now rewrite <- IH. Qed.

(** Valid parameters: arrays with at least one axis whose data fit the shape, no empty lists. *)
Fixpoint valid (p : nested) : Prop :=
  match p with
  | Arr s d => s <> [] /\ length d = count s
  | Lst l => l <> [] /\ (fix all (l : list nested) : Prop := match l with [] => True | x :: r => valid x /\ all r end) l
  end.

(** [p] and [q] differ in the elements only; [rel] relates the elements at the same place. *)
Inductive pointwise (rel : K -> K -> Prop) : nested -> nested -> Prop :=
| pw_arr s d e : Forall2 rel d e -> pointwise rel (Arr s d) (Arr s e)
| pw_lst l m : Forall2 (pointwise rel) l m -> pointwise rel (Lst l) (Lst m).

(** Element-wise combination of two parameter sets: [pointwise3 rel p q r]. *)
Inductive pointwise3 (rel : K -> K -> K -> Prop) : nested -> nested -> nested -> Prop :=
| pw3_arr s d e f : length d = length e -> length d = length f ->
    (forall i x y z, nth_error d i = Some x -> nth_error e i = Some y -> nth_error f i = Some z -> rel x y z) ->
    pointwise3 rel (Arr s d) (Arr s e) (Arr s f)
| pw3_nil : pointwise3 rel (Lst []) (Lst []) (Lst [])
| pw3_cons x y z l m n : pointwise3 rel x y z -> pointwise3 rel (Lst l) (Lst m) (Lst n) ->
    pointwise3 rel (Lst (x :: l)) (Lst (y :: m)) (Lst (z :: n)).

(** The elements in order. *)
Fixpoint elems (p : nested) : list K :=
  match p with Arr _ d => d | Lst l => flat_map elems l end.

Definition valid_all (l : list nested) : Prop := forall x, In x l -> valid x.

Lemma valid_lst l : valid (Lst l) <-> l <> [] /\ valid_all l.
Proof.
  simpl. enough (E : (fix all (l : list nested) : Prop := match l with [] => True | x :: r => valid x /\ all r end) l <-> valid_all l) by tauto.
  induction l as [|x l IH]; [split; auto; intros _ y []|]. rewrite IH. unfold valid_all. simpl.
  split; [intros [H1 H2] y [<-|Hy]; auto|intros H; split; auto].
Qed.

Definition go_flat := fix go (l : list nested) : option (list K) :=
  match l with
  | [] => Some []
  | x :: r => match get_flat x, go r with Some a, Some b => Some (a ++ b) | _, _ => None end
  end.

Lemma get_flat_lst l : get_flat (Lst l) = match l with [] => None | _ => go_flat l end.
Proof. destruct l; reflexivity. Qed.

Lemma get_flat_elems p : valid p -> get_flat p = Some (elems p).
Proof.
  induction p as [s d|l IH] using nested_ind'; intros H; [reflexivity|].
  rewrite get_flat_lst. apply valid_lst in H. destruct H as [H1 H2]. cbn [elems].
  assert (G : go_flat l = Some (flat_map elems l)).
  { clear H1. induction l as [|x l IHl]; auto. inversion IH; subst. cbn [go_flat flat_map].
    rewrite H1 by (apply H2; simpl; auto). rewrite IHl; auto. intros y Hy. apply H2. simpl. auto. }
  destruct l; [congruence|exact G].
Qed.

Definition go_non (flat : list K) := fix go (l : list shapes) (x : nat) : option (list nested * nat) :=
  match l with
  | [] => Some ([], x)
  | s :: r => match get_nonflat flat s x with
              | None => None
              | Some (v, x1) => match go r x1 with None => None | Some (vs, x2) => Some (v :: vs, x2) end
              end
  end.

Lemma get_nonflat_lst flat l x : get_nonflat flat (Shp l) x = match l with [] => None | _ =>
  match go_non flat l x with None => None | Some (vs, x') => Some (Lst vs, x') end end.
Proof. destruct l; reflexivity. Qed.

Lemma nonflat_spec p : valid p -> forall a b, get_nonflat (a ++ elems p ++ b) (get_shape p) (length a) = Some (p, (length a + length (elems p))%nat).
Proof.
  induction p as [s d|l IH] using nested_ind'; intros H a b.
  - simpl in H. destruct H as [H1 H2]. cbn [get_shape elems]. destruct s as [|n s]; [congruence|].
    cbn [get_nonflat]. rewrite skipn_app, skipn_all, Nat.sub_diag. cbn [app skipn].
    rewrite prod_count, <- H2, firstn_app, Nat.sub_diag, firstn_all. cbn [firstn]. rewrite app_nil_r, Nat.eqb_refl. reflexivity.
  - apply valid_lst in H. destruct H as [H1 H2]. cbn [get_shape]. rewrite get_nonflat_lst. cbn [elems].
    assert (G : forall a, go_non (a ++ flat_map elems l ++ b) (map get_shape l) (length a) = Some (l, (length a + length (flat_map elems l))%nat)).
    { clear H1 a. induction l as [|x l IHl]; intros a; cbn [go_non map flat_map].
      - rewrite Nat.add_0_r. reflexivity.
      - inversion IH; subst. rewrite <- (app_assoc (elems x)). rewrite H1 by (apply H2; simpl; auto).
        rewrite <- app_length, app_assoc. rewrite IHl; auto.
        + rewrite !app_length, Nat.add_assoc. reflexivity.
        + intros y Hy. apply H2. simpl. auto. }
    destruct l as [|y l]; [congruence|]. specialize (G a). cbn [map] in *. rewrite G. reflexivity.
Qed.

(** Flattening and restoring returns the parameters. *)
Theorem C33_round_trip : forall p, valid p -> get_flat p = Some (elems p) /\ unflatten (get_shape p) (elems p) = Some p.
Proof.
  intros p H. split; [now apply get_flat_elems|]. unfold unflatten.
  pose proof (nonflat_spec p H [] []) as E. cbn [app length] in E. rewrite app_nil_r in E. rewrite E. cbn [Nat.add].
  now rewrite Nat.eqb_refl.
Qed.

(** Element-wise combination in terms of the list of elements *)
Lemma combine_spec (g : K -> K -> K) : forall p q, valid p -> valid q -> get_shape p = get_shape q ->
  exists r, valid r /\ get_shape r = get_shape p /\ elems r = zip_with g (elems p) (elems q)
  /\ length (elems p) = length (elems q) /\ pointwise3 (fun x y z => z = g x y) p q r.
Proof.
  assert (ZW : forall a b, length a = length b -> length (zip_with g a b) = length a).
  { induction a as [|x a IH]; intros [|y b] E; simpl in *; auto; lia. }
  assert (ZA : forall a b c d, length a = length b -> zip_with g (a ++ c) (b ++ d) = zip_with g a b ++ zip_with g c d).
  { induction a as [|x a IH]; intros [|y b] c d E; simpl in *; auto; try lia. f_equal. apply IH. lia. }
  assert (ZN : forall d e i x y z, nth_error d i = Some x -> nth_error e i = Some y -> nth_error (zip_with g d e) i = Some z -> z = g x y).
  { induction d as [|u d IH]; intros [|v e] [|i] x y z; simpl; try discriminate.
    - intros A B C. injection A as <-. injection B as <-. injection C as <-. auto.
    - apply IH. }
  induction p as [s d|l IH] using nested_ind'; intros q Vp Vq E.
  - destruct q as [t e|m]; [|discriminate]. injection E as <-. simpl in Vp, Vq. destruct Vp as [V1 V2], Vq as [_ V3].
    exists (Arr s (zip_with g d e)). cbn [elems get_shape]. split; [split; auto; rewrite ZW; congruence|].
    split; auto. split; auto. split; [congruence|]. constructor; [congruence|rewrite ZW; congruence|]. intros. eapply ZN; eauto.
  - destruct q as [t e|m]; [discriminate|]. injection E as E. apply valid_lst in Vp. apply valid_lst in Vq.
    destruct Vp as [N1 V1], Vq as [N2 V2].
    assert (G : exists n, (length n = length l) /\ valid_all n /\ map get_shape n = map get_shape l
      /\ flat_map elems n = zip_with g (flat_map elems l) (flat_map elems m)
      /\ length (flat_map elems l) = length (flat_map elems m)
      /\ pointwise3 (fun x y z => z = g x y) (Lst l) (Lst m) (Lst n)).
    { clear N1 N2. revert m E V2. induction l as [|x l IHl]; intros [|y m] E V2; try discriminate.
      - exists []. split; [auto|]. split; [intros ? []|]. split; [auto|]. split; [auto|]. split; [auto|constructor].
      - inversion IH; subst. cbn [map] in E. injection E as E1 E2.
        destruct (H1 y) as (r & R1 & R2 & R3 & R4 & R5); auto; [apply V1; simpl; auto|apply V2; simpl; auto|].
        destruct (IHl H2) with (m := m) as (n & Q0 & Q1 & Q2 & Q3 & Q4 & Q5); auto.
        + intros z Hz. apply V1. simpl. auto.
        + intros z Hz. apply V2. simpl. auto.
        + exists (r :: n). cbn [map flat_map length]. repeat split.
          * congruence.
          * intros z [<-|Hz]; auto.
          * congruence.
          * rewrite ZA by auto. congruence.
          * rewrite !app_length. lia.
          * constructor; auto. }
    destruct G as (n & Q0 & Q1 & Q2 & Q3 & Q4 & Q5). exists (Lst n). split.
    + apply valid_lst. split; auto. destruct n; [destruct l; [congruence|discriminate]|discriminate].
    + cbn [get_shape elems]. rewrite Q2. auto.
Qed.

Lemma zip_zero (g : K -> K -> K) l : zip_with g (map (fun _ => 0) l) l = map (g 0) l.
Proof. induction l; simpl; congruence. Qed.

(** A call after an earlier call with parameters [q] of the same shape mixes every element with the one at the same place
    of the parameters given in the call before. *)
Theorem C33_mix : forall alpha p q, valid p -> valid q -> get_shape p = get_shape q ->
  exists r d, mix alpha (Some (get_shape q, elems q)) p = Some (r, d, Some (get_shape q, elems p))
  /\ pointwise3 (fun old new z => z = (1 - alpha) * old + alpha * new) q p r.
Proof.
  intros alpha p q Vp Vq E.
  destruct (combine_spec (fun a b => (1 - alpha) * a + alpha * b) q p Vq Vp (eq_sym E)) as (r & R1 & R2 & R3 & R4 & R5).
  exists r. eexists. split; [|exact R5]. unfold mix, flatten. rewrite get_flat_elems by auto.
  rewrite R4, Nat.eqb_refl. rewrite <- R3, <- R2. destruct (C33_round_trip r R1) as [_ ->]. reflexivity.
Qed.

(** The first call records shape and parameters; all parameters are multiplied by alpha. *)
Theorem C33_first : forall alpha p, valid p ->
  exists r d, mix alpha None p = Some (r, d, Some (get_shape p, elems p))
  /\ pointwise3 (fun _ new z => z = alpha * new) p p r.
Proof.
  intros alpha p V.
  destruct (combine_spec (fun _ b => (1 - alpha) * 0 + alpha * b) p p V V eq_refl) as (r & R1 & R2 & R3 & R4 & R5).
  exists r. eexists. split.
  - unfold mix, flatten. rewrite get_flat_elems by auto. rewrite map_length, Nat.eqb_refl.
    assert (Z : zip_with (fun a b => (1 - alpha) * a + alpha * b) (map (fun _ => 0) (elems p)) (elems p) = elems r).
    { rewrite R3. generalize (elems p). induction l; simpl; congruence. }
    rewrite Z, <- R2. destruct (C33_round_trip r R1) as [_ ->]. reflexivity.
  - clear -R5. induction R5 as [s d e f L1 L2 H1| |]; [|constructor|constructor; auto].
    constructor; [auto|congruence|]. intros i x y z A B C. destruct (nth_error d i) as [w|] eqn:W.
    + rewrite (H1 i w y z) by auto. ring.
    + apply nth_error_None in W. assert (nth_error e i <> None) by congruence. apply nth_error_Some in H. lia.
Qed.

(** The reported change is zero when the same parameters are given again, and they are returned unchanged. *)
Theorem C33_fixed_point : forall alpha p, valid p ->
  mix alpha (Some (get_shape p, elems p)) p = Some (p, 0, Some (get_shape p, elems p)).
Proof.
  intros alpha p V. unfold mix, flatten. rewrite get_flat_elems by auto. rewrite Nat.eqb_refl.
  assert (Z : zip_with (fun a b => (1 - alpha) * a + alpha * b) (elems p) (elems p) = elems p).
  { generalize (elems p). induction l; simpl; auto. rewrite IHl. f_equal. ring. }
  assert (D : Lsum (zip_with (fun a b => (a - b) * (a - b)) (elems p) (elems p)) (fun z => z) = 0).
  { generalize (elems p). induction l; simpl; auto. rewrite IHl. ring. }
  rewrite Z, D. destruct (C33_round_trip p V) as [_ ->]. reflexivity.
Qed.

(** A whole sequence of calls with parameters of one shape never fails, and gives alpha * p1, then the mixture of each
    parameter set with the one before. *)
Fixpoint expected (alpha : K) (prev : option nested) (ps rs : list nested) : Prop :=
  match ps, rs with
  | [], [] => True
  | p :: ps', r :: rs' =>
      match prev with
      | None => pointwise3 (fun _ new z => z = alpha * new) p p r
      | Some q => pointwise3 (fun old new z => z = (1 - alpha) * old + alpha * new) q p r
      end /\ expected alpha (Some p) ps' rs'
  | _, _ => False
  end.

Theorem C33_sequence : forall alpha sh ps, (forall p, In p ps -> valid p /\ get_shape p = sh) ->
  exists rs, mixes alpha None ps = Some rs /\ expected alpha None ps rs.
Proof.
  intros alpha sh ps H.
  assert (G : forall ps q, (forall p, In p ps -> valid p /\ get_shape p = sh) -> valid q -> get_shape q = sh ->
     exists rs, mixes alpha (Some (sh, elems q)) ps = Some rs /\ expected alpha (Some q) ps rs).
  { clear ps H. induction ps as [|p ps IH]; intros q H Vq Eq; [exists []; simpl; auto|].
    destruct (H p (or_introl eq_refl)) as [Vp Ep].
    destruct (C33_mix alpha p q Vp Vq) as (r & d & M & PW); [congruence|].
    destruct (IH p) as (rs & Q1 & Q2); auto; [intros x Hx; apply H; simpl; auto|].
    exists (r :: rs). rewrite Eq in M. cbn [mixes]. rewrite M, Q1. cbn [expected]. auto. }
  destruct ps as [|p ps]; [exists []; simpl; auto|].
  destruct (H p (or_introl eq_refl)) as [Vp Ep].
  destruct (C33_first alpha p Vp) as (r & d & M & PW).
  destruct (G ps p) as (rs & Q1 & Q2); auto; [intros x Hx; apply H; simpl; auto|].
  exists (r :: rs). rewrite Ep in M. cbn [mixes]. rewrite M, Q1. cbn [expected]. auto.
Qed.
End P.

Local Open Scope Z_scope.
Definition zarr (s : list nat) (d : list Z) : nested ZK := @Arr ZK s d.
Definition ex_p : nested ZK := Lst [zarr [2; 1]%nat [1; 2]; Lst [zarr [3]%nat [4; 5; 6]]].
Definition ex_q : nested ZK := Lst [zarr [2; 1]%nat [10; 20]; Lst [zarr [3]%nat [40; 50; 60]]].
Example ex_valid : valid ZK ex_p /\ valid ZK ex_q /\ get_shape ex_p = get_shape ex_q.
Proof. simpl. repeat split; try discriminate. Qed.
Example ex_mixes : mixes (3 : ZK) None [ex_p; ex_q] =
  Some [Lst [zarr [2; 1]%nat [3; 6]; Lst [zarr [3]%nat [12; 15; 18]]];
        Lst [zarr [2; 1]%nat [28; 56]; Lst [zarr [3]%nat [112; 140; 168]]]].
Proof. reflexivity. Qed.

(** Finding: mixing scales the very first parameters by alpha (the previous ones count as zero). *)
Theorem C33_first_refuted : exists p : nested ZK, valid ZK p /\ exists r d st, mix (3 : ZK) None p = Some (r, d, st) /\ r <> p.
Proof. exists ex_p. split; [apply ex_valid|]. do 3 eexists. split; [reflexivity|]. discriminate. Qed.

(** Finding: the shapes recorded in the first call are used for ever; parameters of another shape with as many elements
    come back in the old shape. *)
Theorem C33_shape_refuted : exists (p q : nested ZK) r d st d' st', valid ZK p /\ valid ZK q /\
  mix (1 : ZK) None p = Some (p, d, st) /\ mix (1 : ZK) st q = Some (r, d', st') /\ get_shape r <> get_shape q.
Proof.
  exists (Lst [zarr [2; 1]%nat [1; 2]]), (Lst [zarr [2]%nat [3; 4]]). do 5 eexists.
  split; [simpl; repeat split; discriminate|]. split; [simpl; repeat split; discriminate|].
  split; [reflexivity|]. split; [reflexivity|]. discriminate.
Qed.

(** Finding: empty lists and arrays without axes (scalars) are not supported. *)
Theorem C33_scalar_refuted : @unflatten ZK (get_shape (Lst [zarr [] [1]])) [1] = None /\ get_flat (Lst (@nil (nested ZK))) = None.
Proof. split; reflexivity. Qed.

Print Assumptions C33_round_trip.
Print Assumptions C33_mix.
Print Assumptions C33_first.
Print Assumptions C33_fixed_point.
Print Assumptions C33_sequence.
Print Assumptions C33_first_refuted.
Print Assumptions C33_shape_refuted.
Print Assumptions C33_scalar_refuted.
