(** Invariance of contractions under a change of basis, by computation: an expression in which every summation index occurs in exactly two tensors of the right range has
    the same value for tensors and for the tensors transformed with matrices with orthonormal columns. (Nothing of /repo is modelled in this file.) *)
From Coq Require Import List Arith Bool Lia Ring.
From Verif Require Import Alg Pull P_Lift Esum.
Import ListNotations.

(** Sequence of exchanges of neighbours that sorts a list of references *)
Definition sort_pass (st : list nat * list ref) (k : nat) : list nat * list ref :=
  let l := snd st in if code (nth (S k) l (Fr 0)) <? code (nth k l (Fr 0)) then (fst st ++ [k], swl k l) else st.
Definition sorter (l : list ref) : list nat :=
  let n := length l in fst (fold_left (fun st _ => fold_left sort_pass (seq 0 (n - 1)) st) (seq 0 n) ([], l)).
Definition swaps {A} (sw : list nat) (l : list A) : list A := fold_left (fun l k => swl k l) sw l.
Fixpoint dupl {A} (l : list A) : list A := match l with [] => [] | x :: r => x :: x :: dupl r end.
Definition duprefs (n : nat) : list ref := dupl (map Bd (seq 0 n)).
Definition closedm (tys : list (list nat)) (m : mono) : bool :=
  let fl := flat_map snd (ats m) in
  let sw := sorter fl in
  eql eqref (swaps sw fl) (duprefs (length (bd m)))
  && eql Nat.eqb (swaps sw (flat_map (fun a => nth (fst a) tys []) (ats m))) (dupl (bd m))
  && forallb (fun a => length (snd a) =? length (nth (fst a) tys [])) (ats m).
Definition invariant (tys : list (list nat)) (e : ex) : bool := forallb (closedm tys) (nf e).

Lemma swl_swl {A} k : forall l : list A, swl k (swl k l) = l.
Proof. induction k as [|k IH]; intros [|x [|y l]]; cbn [swl]; try reflexivity; try (destruct k; reflexivity). f_equal. apply (IH (y :: l)). Qed.
Lemma swl_map {A B} (f : A -> B) k : forall l, swl k (map f l) = map f (swl k l).
Proof. induction k as [|k IH]; intros [|x [|y l]]; cbn [swl map]; try reflexivity; try (destruct k; reflexivity). f_equal. apply (IH (y :: l)). Qed.
Definition unswaps {A} (sw : list nat) (l : list A) : list A := fold_right (fun k l => swl k l) l sw.
Lemma unswaps_swaps {A} sw : forall l : list A, unswaps sw (swaps sw l) = l.
Proof. induction sw as [|k sw IH]; intros l; [reflexivity|]. unfold unswaps, swaps in *. cbn [fold_left fold_right]. rewrite IH. apply swl_swl. Qed.
Lemma unswaps_map {A B} (f : A -> B) sw l : unswaps sw (map f l) = map f (unswaps sw l).
Proof. unfold unswaps. induction sw as [|k sw IH]; [reflexivity|]. cbn [fold_right]. rewrite IH. apply swl_map. Qed.
Lemma dupl_map {A B} (f : A -> B) l : dupl (map f l) = map f (dupl l).
Proof. induction l as [|x l IH]; [reflexivity|]. cbn. rewrite IH. reflexivity. Qed.
Lemma dupl_app_refs be : dupl be = map (vr [] be) (duprefs (length be)).
Proof.
  unfold duprefs. rewrite <- dupl_map, map_map. f_equal. cbn [vr]. induction be as [|x be IH]; [reflexivity|]. cbn [length seq map nth]. f_equal. rewrite <- seq_shift, map_map. exact IH.
Qed.

Section Inv.
Context {K : cring}.
Add Ring Kr : (rth K).
Open Scope K_scope.
Notation mat := (nat -> nat -> K).
Variables (small big : list nat) (cms : list mat).
Definition cm (s : nat) : mat := nth s cms (fun _ _ => 0).
(** Orthonormal columns *)
Definition iso : Prop := forall s p q, (p < nth s small O)%nat -> (q < nth s small O)%nat -> Sum (nth s big O) (fun P => cm s P p * cm s P q) = delta p q.
Fixpoint ker (b V v : list nat) : K := match b, V, v with s :: b, P :: V, p :: v => cm s P p * ker b V v | _, _, _ => 1 end.
Fixpoint inr (b V : list nat) : Prop := match b, V with [], [] => True | s :: b, P :: V => (P < nth s big O)%nat /\ inr b V | _, _ => False end.
(** [F] is [f] in the big basis. *)
Definition Eq (b : list nat) (f F : list nat -> K) : Prop := forall V, inr b V -> F V = sumb small b (fun v => ker b V v * f v).
Lemma sumb_inr d b (f g : list nat -> K) : (forall v, Forall2 (fun p s => (p < nth s d O)%nat) v b -> f v = g v) -> sumb d b f = sumb d b g.
Proof. revert f g. induction b as [|s b IH]; cbn; intros f g H; [apply H; constructor|]. apply Sum_ext; intros v Hv. apply IH. intros be Hb. apply H. constructor; auto. Qed.
Lemma inr_app b1 b2 V : inr (b1 ++ b2) V -> exists V1 V2, V = V1 ++ V2 /\ inr b1 V1 /\ inr b2 V2 /\ length V1 = length b1.
Proof.
  revert V. induction b1 as [|s b1 IH]; intros V H; [exists [], V; cbn; auto|]. destruct V as [|P V]; [destruct H|]. destruct H as [H1 H2]. destruct (IH V H2) as (V1 & V2 & -> & A & B & L).
  exists (P :: V1), V2. cbn. repeat split; auto.
Qed.
Lemma ker_app b1 b2 : forall V1 V2 v1 v2, length V1 = length b1 -> length v1 = length b1 -> ker (b1 ++ b2) (V1 ++ V2) (v1 ++ v2) = ker b1 V1 v1 * ker b2 V2 v2.
Proof.
  induction b1 as [|s b1 IH]; intros [|P V1] V2 [|p v1] v2 HV Hv; cbn in HV, Hv; try discriminate; cbn [app ker]; [ring|]. rewrite IH by (injection HV as HV; injection Hv as Hv; auto). ring.
Qed.
Lemma Eq_prod b1 b2 f F g G : Eq b1 f F -> Eq b2 g G ->
  Eq (b1 ++ b2) (fun v => f (firstn (length b1) v) * g (skipn (length b1) v)) (fun v => F (firstn (length b1) v) * G (skipn (length b1) v)).
Proof.
  intros Hf Hg V HV. destruct (inr_app b1 b2 V HV) as (V1 & V2 & -> & A & B & L). rewrite sumb_app.
  rewrite firstn_app, skipn_app, <- L, Nat.sub_diag, firstn_all, skipn_all, firstn_O, skipn_O, app_nil_r. cbn [app]. rewrite (Hf V1 A), (Hg V2 B). rewrite <- sumb_mul_r. apply sumb_ext. intros v1 H1. rewrite <- sumb_mul_l. apply sumb_ext. intros v2 H2.
  rewrite ker_app by auto. rewrite L, <- H1. rewrite firstn_app, skipn_app, Nat.sub_diag, firstn_all, skipn_all, firstn_O, skipn_O, app_nil_r. cbn [app]. ring.
Qed.
Lemma inr_swl k : forall b V, inr (swl k b) V -> inr b (swl k V).
Proof.
  induction k as [|k IH]; intros [|s [|s' b]] V H; cbn [swl] in *.
  - destruct V as [|x [|y V]]; cbn in *; tauto.
  - destruct V as [|x [|y V]]; cbn in *; tauto.
  - destruct V as [|x [|y V]]; cbn in *; tauto.
  - destruct V as [|x V]; cbn in *; tauto.
  - assert (E : swl k (@nil nat) = []) by (destruct k; reflexivity). rewrite E in H. destruct V as [|x [|y V]]; cbn in H; try tauto. destruct k; cbn; tauto.
  - destruct V as [|x V]; [destruct H|]. destruct H as [H1 H2]. cbn [swl]. split; [exact H1|]. apply (IH (s' :: b)). exact H2.
Qed.
Lemma ker_swl k : forall b V v, length V = length b -> length v = length b -> ker (swl k b) (swl k V) (swl k v) = ker b V v.
Proof.
  induction k as [|k IH]; intros b V v HV Hv.
  - destruct b as [|s [|s' b]], V as [|x [|x' V]], v as [|y [|y' v]]; cbn in HV, Hv; try discriminate; cbn [swl ker]; try ring.
  - destruct b as [|s b], V as [|x V], v as [|y v]; cbn in HV, Hv; try discriminate; cbn [swl ker]; [reflexivity|]. f_equal. apply IH; lia.
Qed.
Lemma inr_length b : forall V, inr b V -> length V = length b.
Proof. induction b as [|s b IH]; intros [|x V] H; cbn in *; try tauto. f_equal. apply IH. tauto. Qed.
Lemma Eq_swl k b f F : Eq b f F -> Eq (swl k b) (fun v => f (swl k v)) (fun v => F (swl k v)).
Proof.
  intros H V HV. rewrite (H (swl k V)) by (apply inr_swl; exact HV). rewrite (sumb_swl small k b). apply sumb_ext. intros v Hv. rewrite swl_swl. f_equal.
  apply inr_length in HV. rewrite swl_length in HV. rewrite <- (swl_swl k V) at 2. symmetry. apply ker_swl; [rewrite swl_length|]; auto.
Qed.
Lemma Eq_swaps sw : forall b f F, Eq b f F -> Eq (swaps sw b) (fun v => f (unswaps sw v)) (fun v => F (unswaps sw v)).
Proof. induction sw as [|k sw IH]; intros b f F H; [exact H|]. apply (IH (swl k b) (fun v => f (swl k v)) (fun v => F (swl k v))). apply Eq_swl. exact H. Qed.
Lemma sumb_Sum d b n (g : nat -> list nat -> K) : sumb d b (fun v => Sum n (fun x => g x v)) = Sum n (fun x => sumb d b (g x)).
Proof. revert g. induction b as [|s b IH]; intros g; cbn [sumb]; [reflexivity|]. rewrite Sum_swap. apply Sum_ext; intros v _. apply (IH (fun x vs => g x (v :: vs))). Qed.
Hypothesis Hiso : iso.
Lemma Eq_con s b f F : Eq (s :: s :: b) f F -> Eq b (fun v => Sum (nth s small O) (fun x => f (x :: x :: v))) (fun v => Sum (nth s big O) (fun x => F (x :: x :: v))).
Proof.
  intros H V HV. transitivity (Sum (nth s big O) (fun X => sumb small (s :: s :: b) (fun v => ker (s :: s :: b) (X :: X :: V) v * f v))).
  { apply Sum_ext; intros X HX. apply H. cbn. auto. }
  cbn [sumb ker]. unfold dim.
  transitivity (Sum (nth s small O) (fun x => Sum (nth s small O) (fun y => Sum (nth s big O) (fun X => cm s X x * cm s X y) * sumb small b (fun v => ker b V v * f (x :: y :: v))))).
  { rewrite Sum_swap. apply Sum_ext; intros x _. rewrite Sum_swap. apply Sum_ext; intros y _. rewrite <- Sum_mul_r. apply Sum_ext; intros X _. rewrite <- sumb_mul_l. apply sumb_ext. intros v _. ring. }
  transitivity (Sum (nth s small O) (fun x => Sum (nth s small O) (fun y => delta x y * sumb small b (fun v => ker b V v * f (x :: y :: v))))).
  { apply Sum_ext; intros x Hx. apply Sum_ext; intros y Hy. rewrite Hiso by auto. reflexivity. }
  transitivity (Sum (nth s small O) (fun x => sumb small b (fun v => ker b V v * f (x :: x :: v)))).
  { apply Sum_ext; intros x Hx. apply (Sum_delta_l _ x (fun y => sumb small b (fun v => ker b V v * f (x :: y :: v))) Hx). }
  rewrite <- sumb_Sum. apply sumb_ext. intros v _. rewrite Sum_mul_l. reflexivity.
Qed.
Lemma Eq_cons b : forall f F, Eq (dupl b) f F -> sumb big b (fun v => F (dupl v)) = sumb small b (fun v => f (dupl v)).
Proof.
  induction b as [|s b IH]; intros f F H; cbn [dupl sumb] in *.
  - rewrite (H [] I). cbn. ring.
  - specialize (IH _ _ (Eq_con s _ f F H)). cbv beta in IH.
    rewrite (sumb_Sum big b (nth s big O) (fun x v => F (x :: x :: dupl v))), (sumb_Sum small b (nth s small O) (fun x v => f (x :: x :: dupl v))) in IH. exact IH.
Qed.

Variables (half : K) (tys : list (list nat)) (ts Ts : list (list nat -> K)).
Hypothesis HE : forall t, Eq (nth t tys []) (nth t ts (fun _ => 0)) (nth t Ts (fun _ => 0)).
Fixpoint cat (tn : nat -> list nat -> K) (l : list (nat * list ref)) (u : list nat) : K :=
  match l with [] => 1 | a :: r => tn (fst a) (firstn (length (nth (fst a) tys [])) u) * cat tn r (skipn (length (nth (fst a) tys [])) u) end.
Lemma cat_Eq l : Eq (flat_map (fun a => nth (fst a) tys []) l) (cat (tn ts) l) (cat (tn Ts) l).
Proof.
  induction l as [|a l IH]; cbn [flat_map cat]; [intros V HV; cbn; ring|]. apply (Eq_prod (nth (fst a) tys []) _ (tn ts (fst a)) (tn Ts (fst a)) (cat (tn ts) l) (cat (tn Ts) l)); [apply HE|exact IH].
Qed.
Lemma cat_prod (tens : list (list nat -> K)) l be : forallb (fun a => length (snd a) =? length (nth (fst a) tys []))%nat l = true -> cat (tn tens) l (map (vr [] be) (flat_map snd l)) = prod (map (da tens [] be) l).
Proof.
  induction l as [|a l IH]; intros H; [reflexivity|]. cbn [forallb] in H. apply andb_true_iff in H. destruct H as [H1 H2]. apply Nat.eqb_eq in H1. cbn [cat flat_map map prod].
  rewrite map_app, firstn_app, skipn_app, map_length, H1, Nat.sub_diag, firstn_O, skipn_O, app_nil_r. rewrite <- H1. rewrite <- (map_length (vr [] be) (snd a)), firstn_all, skipn_all. cbn [app]. rewrite IH by exact H2. reflexivity.
Qed.
Lemma closedm_sound m : closedm tys m = true -> denm half small ts [] m = denm half big Ts [] m.
Proof.
  unfold closedm. cbv zeta. intros H. apply andb_true_iff in H. destruct H as [H H3]. apply andb_true_iff in H. destruct H as [H1 H2].
  set (sw := sorter (flat_map snd (ats m))) in *. apply eql_eq in H1; [|intros [x|x] [y|y]; cbn; try discriminate; intros Z; apply Nat.eqb_eq in Z; congruence]. apply eql_eq in H2; [|intros x y; apply Nat.eqb_eq].
  pose proof (Eq_swaps sw _ _ _ (cat_Eq (ats m))) as E. rewrite H2 in E. apply Eq_cons in E. cbv beta in E. unfold denm. f_equal.
  assert (G : forall d tens, sumb d (bd m) (fun be => prod (map (da tens [] be) (ats m))) = sumb d (bd m) (fun v => cat (tn tens) (ats m) (unswaps sw (dupl v)))).
  { intros d tens. apply sumb_ext. intros be Hb. rewrite (dupl_app_refs be), unswaps_map, Hb, <- H1, unswaps_swaps. symmetry. apply cat_prod. exact H3. }
  rewrite !G. symmetry. exact E.
Qed.
Theorem invariant_sound e : invariant tys e = true -> den half small ts [] e = den half big Ts [] e.
Proof.
  unfold invariant. rewrite !nf_den. unfold denl. generalize (nf e). intros l H. apply Lsum_ext. intros m Hm. rewrite forallb_forall in H. apply closedm_sound. auto.
Qed.
End Inv.

(** Lists of tensors, one after the other *)
Section Lists.
Context {K : cring}.
Add Ring Kr' : (rth K).
Open Scope K_scope.
Notation mat := (nat -> nat -> K).
Notation ten := (nat -> nat -> nat -> nat -> K).
Variables (small big : list nat) (cms : list mat).
Inductive Eqs : list (list nat) -> list (list nat -> K) -> list (list nat -> K) -> Prop :=
| Eqs_nil : Eqs [] [] []
| Eqs_cons b bs f fs F Fs : Eq small big cms b f F -> Eqs bs fs Fs -> Eqs (b :: bs) (f :: fs) (F :: Fs).
Theorem inv_sound half tys ts Ts : iso small big cms -> Eqs tys ts Ts -> forall e, invariant tys e = true -> den half small ts [] e = den half big Ts [] e.
Proof.
  intros Hi H e. apply invariant_sound with (cms := cms); auto. clear e. induction H as [|b bs f fs F Fs H _ IH].
  - intros t. destruct t; intros V HV; destruct V; cbn in *; try tauto; ring.
  - intros [|t]; cbn [nth]; auto.
Qed.
Notation sm s := (nth s small O). Notation bg s := (nth s big O). Notation cc s := (nth s cms (fun _ _ => 0)).
Lemma Eq_w1 s (f F : nat -> K) : (forall P, (P < bg s)%nat -> F P = Sum (sm s) (fun p => cc s P p * f p)) -> Eq small big cms [s] (w1 f) (w1 F).
Proof. intros H [|P [|? ?]] HV; cbn in HV; try tauto. cbn. unfold dim, cm. rewrite H by tauto. apply Sum_ext; intros. ring. Qed.
Lemma Eq_w2 s1 s2 (f F : mat) : (forall P Q, (P < bg s1)%nat -> (Q < bg s2)%nat -> F P Q = up2 (sm s1) (sm s2) (cc s1) (cc s2) f P Q) -> Eq small big cms [s1; s2] (w2 f) (w2 F).
Proof. intros H [|P [|Q [|? ?]]] HV; cbn in HV; try tauto. cbn. unfold dim, cm. rewrite H by tauto. unfold up2. do 2 (apply Sum_ext; intros). ring. Qed.
Lemma Eq_w4 s1 s2 s3 s4 (f F : ten) : (forall P Q R S, (P < bg s1)%nat -> (Q < bg s2)%nat -> (R < bg s3)%nat -> (S < bg s4)%nat ->
  F P Q R S = up4 (sm s1) (sm s2) (sm s3) (sm s4) (cc s1) (cc s2) (cc s3) (cc s4) f P Q R S) -> Eq small big cms [s1; s2; s3; s4] (w4 f) (w4 F).
Proof. intros H [|P [|Q [|R [|S [|? ?]]]]] HV; cbn in HV; try tauto. cbn. unfold dim, cm. rewrite H by tauto. unfold up4. do 4 (apply Sum_ext; intros). ring. Qed.
Lemma Eq_w0 (x : K) : Eq small big cms [] (w0 x) (w0 x).
Proof. intros [|? ?] HV; cbn in *; [ring|tauto]. Qed.
(** Free indices: contract with arbitrary vectors. *)
Definition Erow : Prop := forall s P Q, (P < bg s)%nat -> (Q < bg s)%nat -> Sum (sm s) (fun p => cc s P p * cc s Q p) = delta P Q.
Hypothesis Hrow : Erow.
Lemma Erow_w1 s P : (P < bg s)%nat -> Eq small big cms [s] (w1 (cc s P)) (w1 (fun Q => delta P Q)).
Proof. intros HP. apply Eq_w1. intros Q HQ. rewrite <- (Hrow s P Q HP HQ). apply Sum_ext; intros. ring. Qed.
Lemma open0 (s1 : nat) (x y : nat -> K) : (forall u U, Eq small big cms [s1] (w1 u) (w1 U) -> Sum (sm s1) (fun p => u p * x p) = Sum (bg s1) (fun P => U P * y P)) ->
  forall P, (P < bg s1)%nat -> Sum (sm s1) (fun p => cc s1 P p * x p) = y P.
Proof. intros H P HP. rewrite (H (cc s1 P) (fun Q => delta P Q)) by (apply Erow_w1; auto). apply Sum_delta_l. auto. Qed.
Lemma open2 (s1 s2 : nat) (x y : mat) : (forall u1 U1 u2 U2, Eq small big cms [s1] (w1 u1) (w1 U1) -> Eq small big cms [s2] (w1 u2) (w1 U2) ->
    Sum (sm s1) (fun p => Sum (sm s2) (fun q => u1 p * u2 q * x p q)) = Sum (bg s1) (fun P => Sum (bg s2) (fun Q => U1 P * U2 Q * y P Q))) ->
  forall P Q, (P < bg s1)%nat -> (Q < bg s2)%nat -> up2 (sm s1) (sm s2) (cc s1) (cc s2) x P Q = y P Q.
Proof.
  intros H P Q HP HQ. unfold up2. rewrite (H (cc s1 P) (fun X => delta P X) (cc s2 Q) (fun X => delta Q X)) by (apply Erow_w1; auto).
  transitivity (Sum (bg s1) (fun P0 => delta P P0 * Sum (bg s2) (fun Q0 => delta Q Q0 * y P0 Q0))).
  { apply Sum_ext; intros. rewrite <- Sum_mul_l. apply Sum_ext; intros. ring. }
  rewrite (Sum_delta_l _ P (fun P0 => Sum (bg s2) (fun Q0 => delta Q Q0 * y P0 Q0)) HP). apply (Sum_delta_l _ Q (fun Q0 => y P Q0) HQ).
Qed.
Lemma open4 (s1 s2 s3 s4 : nat) (x y : ten) : (forall u1 U1 u2 U2 u3 U3 u4 U4, Eq small big cms [s1] (w1 u1) (w1 U1) -> Eq small big cms [s2] (w1 u2) (w1 U2) -> Eq small big cms [s3] (w1 u3) (w1 U3) -> Eq small big cms [s4] (w1 u4) (w1 U4) ->
    Sum (sm s1) (fun p => Sum (sm s2) (fun q => Sum (sm s3) (fun r => Sum (sm s4) (fun s => u1 p * u2 q * u3 r * u4 s * x p q r s)))) =
    Sum (bg s1) (fun P => Sum (bg s2) (fun Q => Sum (bg s3) (fun R => Sum (bg s4) (fun S => U1 P * U2 Q * U3 R * U4 S * y P Q R S))))) ->
  forall P Q R S, (P < bg s1)%nat -> (Q < bg s2)%nat -> (R < bg s3)%nat -> (S < bg s4)%nat -> up4 (sm s1) (sm s2) (sm s3) (sm s4) (cc s1) (cc s2) (cc s3) (cc s4) x P Q R S = y P Q R S.
Proof.
  intros H P Q R S HP HQ HR HS. unfold up4. rewrite (H (cc s1 P) (fun X => delta P X) (cc s2 Q) (fun X => delta Q X) (cc s3 R) (fun X => delta R X) (cc s4 S) (fun X => delta S X)) by (apply Erow_w1; auto).
  transitivity (Sum (bg s1) (fun P0 => delta P P0 * Sum (bg s2) (fun Q0 => delta Q Q0 * Sum (bg s3) (fun R0 => delta R R0 * Sum (bg s4) (fun S0 => delta S S0 * y P0 Q0 R0 S0))))).
  { apply Sum_ext; intros. rewrite <- Sum_mul_l. apply Sum_ext; intros. rewrite <- !Sum_mul_l. apply Sum_ext; intros. rewrite <- !Sum_mul_l. apply Sum_ext; intros. ring. }
  rewrite (Sum_delta_l _ P (fun P0 => Sum (bg s2) (fun Q0 => delta Q Q0 * Sum (bg s3) (fun R0 => delta R R0 * Sum (bg s4) (fun S0 => delta S S0 * y P0 Q0 R0 S0)))) HP).
  rewrite (Sum_delta_l _ Q (fun Q0 => Sum (bg s3) (fun R0 => delta R R0 * Sum (bg s4) (fun S0 => delta S S0 * y P Q0 R0 S0))) HQ).
  rewrite (Sum_delta_l _ R (fun R0 => Sum (bg s4) (fun S0 => delta S S0 * y P Q R0 S0)) HR). apply (Sum_delta_l _ S (fun S0 => y P Q R S0) HS).
Qed.
End Lists.

(** [inv half Hi S]: the goal equates an expression and the same with transformed tensors; [Hi : iso small big cms], [S : Eqs small big cms tys ts Ts] *)
Ltac inv half Hi S :=
  lazymatch type of S with
  | Eqs ?small ?big ?cms ?tys ?ts ?Ts =>
    lazymatch goal with
    | |- ?l = ?r =>
      let a := e_reify half small ts (@nil nat) l in
      change (den half small ts [] a = den half big Ts [] a);
      apply (inv_sound small big cms half tys ts Ts Hi S); vm_compute; reflexivity
    end
  end.

Section Test.
Context {K : cring} (half : K) (no nv No Nv : nat) (co cv : nat -> nat -> K).
Open Scope K_scope.
Context (t1 T1 : nat -> nat -> K) (t2 T2 : nat -> nat -> nat -> nat -> K).
Notation sm := [no; nv]. Notation bg := [No; Nv]. Notation cs := [co; cv].
Hypothesis Hi : iso sm bg cs.
Hypothesis Hr : Erow sm bg cs.
Hypothesis H1 : Eq sm bg cs [0; 1]%nat (w2 t1) (w2 T1).
Hypothesis H2 : Eq sm bg cs [0; 0; 1; 1]%nat (w4 t2) (w4 T2).
Example inv_test P Q : (P < No)%nat -> (Q < Nv)%nat ->
  up2 no nv co cv (fun i a => Sum no (fun k => Sum nv (fun b => t1 k b * t2 i k a b)) * half - t1 i a) P Q = Sum No (fun k => Sum Nv (fun b => T1 k b * T2 P k Q b)) * half - T1 P Q.
Proof.
  apply (open2 sm bg cs Hr 0 1 (fun i a => Sum no (fun k => Sum nv (fun b => t1 k b * t2 i k a b)) * half - t1 i a) (fun P Q => Sum No (fun k => Sum Nv (fun b => T1 k b * T2 P k Q b)) * half - T1 P Q)).
  intros u1 U1 u2 U2 Y1 Y2. pose proof (Eqs_cons sm bg cs _ _ _ _ _ _ Y1 (Eqs_cons sm bg cs _ _ _ _ _ _ Y2 (Eqs_cons sm bg cs _ _ _ _ _ _ H1 (Eqs_cons sm bg cs _ _ _ _ _ _ H2 (Eqs_nil sm bg cs))))) as S.
  cbn [nth]. inv half Hi S.
Qed.
End Test.
