(** C17: conversion of CISD, CCSD and MP2 amplitudes. *)
From Coq Require Import List Arith Lia Bool ZArith QArith Qcanon.
From Verif Require Import Alg M_Wf.
Import ListNotations.
Close Scope Q_scope. Close Scope Qc_scope. Open Scope nat_scope.

Section Conv.
Context (F : cfield).
Add Field Ff : (fth F).
Open Scope K_scope.

(** Equality of amplitudes element by element *)
Definition meq (x y : mat F) : Prop := forall i a, x i a = y i a.
Definition teq (x y : ten F) : Prop := forall i j a b, x i j a b = y i j a b.
Definition same_blocks (x y : uten F) : Prop :=
  match x, y with
  | U3 aa ab bb, U3 aa' ab' bb' => teq aa aa' /\ teq ab ab' /\ teq bb bb'
  | U4 aa ab ba bb, U4 aa' ab' ba' bb' => teq aa aa' /\ teq ab ab' /\ teq ba ba' /\ teq bb bb'
  | _, _ => False
  end.
Definition umeq (x y : umat F) : Prop := meq (fst x) (fst y) /\ meq (snd x) (snd y).

Theorem C17_restricted : forall (w : amps F) (v : cisd F) x, x <> 0 -> c0 v <> 0 ->
  (meq (at1 (as_ccsd (as_cisd w x))) (at1 w) /\ teq (at2 (as_ccsd (as_cisd w x))) (at2 w)) /\
  (c0 (as_cisd (as_ccsd v) (c0 v)) = c0 v /\ meq (c1 (as_cisd (as_ccsd v) (c0 v))) (c1 v) /\ teq (c2 (as_cisd (as_ccsd v) (c0 v))) (c2 v)).
Proof.
  intros w v x Hx Hv. unfold meq, teq, as_ccsd, as_cisd, prod1. cbn. repeat split; intros; field; auto.
Qed.

(** The coefficients are those of the exponential: with intermediate normalisation C1 = T1, C2 = T2 + T1 T1. *)
Theorem C17_exponential : forall (w : amps F) i j a b, c1 (as_cisd w 1) i a = at1 w i a /\ c2 (as_cisd w 1) i j a b = at2 w i j a b + at1 w i a * at1 w j b.
Proof. intros. cbn. unfold prod1. split; ring. Qed.

(** Changing the weight of the reference first makes no difference. *)
Theorem C17_renormalise : forall (v : cisd F) x, x <> 0 -> c0 v <> 0 ->
  meq (at1 (as_ccsd (renorm v x))) (at1 (as_ccsd v)) /\ teq (at2 (as_ccsd (renorm v x))) (at2 (as_ccsd v)) /\
  meq (c1 (as_cisd (as_ccsd v) x)) (c1 (renorm v x)) /\ teq (c2 (as_cisd (as_ccsd v) x)) (c2 (renorm v x)).
Proof. intros v x Hx Hv. unfold meq, teq, as_ccsd, as_cisd, renorm, prod1. cbn. repeat split; intros; field; auto. Qed.

(** Unrestricted amplitudes with three spin blocks *)
Theorem C17_unrestricted : forall (w : uamps F) (v : ucisd F) x aa ab bb caa cab cbb, x <> 0 -> uc0 v <> 0 -> uat2 w = U3 aa ab bb -> uc2 v = U3 caa cab cbb ->
  (umeq (uat1 (uas_ccsd (uas_cisd w x))) (uat1 w) /\ same_blocks (uat2 (uas_ccsd (uas_cisd w x))) (uat2 w)) /\
  (uc0 (uas_cisd (uas_ccsd v) (uc0 v)) = uc0 v /\ umeq (uc1 (uas_cisd (uas_ccsd v) (uc0 v))) (uc1 v) /\ same_blocks (uc2 (uas_cisd (uas_ccsd v) (uc0 v))) (uc2 v)).
Proof.
  intros w v x aa ab bb caa cab cbb Hx Hv Ew Ev. unfold umeq, meq, same_blocks, teq, uas_ccsd, uas_cisd, prod1, prod2. rewrite Ew, Ev. cbn.
  repeat split; intros; field; auto.
Qed.

(** Four spin blocks: all but the ba block are converted back; what the ba block becomes. *)
Theorem C17_four_blocks : forall (w : uamps F) x aa ab ba bb, x <> 0 -> uat2 w = U4 aa ab ba bb ->
  umeq (uat1 (uas_ccsd (uas_cisd w x))) (uat1 w) /\
  exists aa' ab' ba' bb', uat2 (uas_ccsd (uas_cisd w x)) = U4 aa' ab' ba' bb' /\ teq aa' aa /\ teq ab' ab /\ teq bb' bb /\
  (forall i j a b, uba (uc2 (uas_cisd w x)) i j a b = x * ba i j a b + x * x * (snd (uat1 w) i a * fst (uat1 w) j b)) /\
  forall i j a b, ba' i j a b = ab i j a b + fst (uat1 w) i a * snd (uat1 w) j b - snd (uat1 w) i a * fst (uat1 w) j b.
Proof.
  intros w x aa ab ba bb Hx Ew. split.
  - unfold umeq, meq, uas_ccsd, uas_cisd. cbn. split; intros; field; auto.
  - unfold uas_ccsd, uas_cisd. rewrite Ew. cbn. eexists _, _, _, _. split; [reflexivity|]. unfold teq, prod1, prod2. repeat split; intros; try (field; auto).
Qed.

Theorem C17_unrestricted_renormalise : forall (v : ucisd F) x caa cab cbb, x <> 0 -> uc0 v <> 0 -> uc2 v = U3 caa cab cbb ->
  umeq (uc1 (uas_cisd (uas_ccsd v) x)) (uc1 (urenorm v x)) /\ same_blocks (uc2 (uas_cisd (uas_ccsd v) x)) (uc2 (urenorm v x)).
Proof.
  intros v x caa cab cbb Hx Hv Ev. unfold umeq, meq, same_blocks, teq, uas_ccsd, uas_cisd, urenorm, prod1, prod2. rewrite Ev. cbn. repeat split; intros; field; auto.
Qed.

(** Closed shell: converting the spin blocks is the same as taking the spin blocks of the converted amplitudes. *)
Theorem C17_closed_shell : forall (w : amps F) x, same_blocks (uc2 (uas_cisd {| uat1 := (at1 w, at1 w); uat2 := spin_blocks (at2 w) |} x)) (spin_blocks (c2 (as_cisd w x))).
Proof. intros w x. unfold same_blocks, spin_blocks, teq, uas_cisd, as_cisd, prod1, prod2. cbn. repeat split; intros; ring. Qed.

(** MP2: both ways to CISD agree, restricted and unrestricted. *)
Theorem C17_mp2 : forall (t : ten F) (ut : uten F) x,
  meq (c1 (as_cisd (mp2_as_ccsd t) x)) (c1 (mp2_as_cisd t x)) /\ teq (c2 (as_cisd (mp2_as_ccsd t) x)) (c2 (mp2_as_cisd t x)) /\
  umeq (uc1 (uas_cisd (ump2_as_ccsd ut) x)) (uc1 (ump2_as_cisd ut x)) /\ same_blocks (uc2 (uas_cisd (ump2_as_ccsd ut) x)) (uc2 (ump2_as_cisd ut x)).
Proof.
  intros t ut x. unfold umeq, meq, teq, same_blocks, teq, uas_cisd, as_cisd, prod1, prod2. destruct ut; cbn; unfold teq, prod1, prod2; repeat split; intros; ring.
Qed.

(** Projected CISD: the singles are those of the projected CCSD amplitudes, if the rows of the projector are orthonormal. *)
Theorem C17_projected : forall (half : F) (w : cisd F) (p : proj F), c0 w <> 0 ->
  (forall x y, (x < prow p)%nat -> (y < prow p)%nat -> Sum (pcol p) (fun i => pmat p x i * pmat p y i) = delta x y) ->
  forall x a, (x < prow p)%nat -> at1 (projected_as_ccsd half (cproject w p) p) x a = pc1 (at1 (as_ccsd w)) p x a.
Proof.
  intros half w p Hw Ho x a Hx. cbn. unfold pc1 at 1 3, ptrans. cbn [pcol pmat prow].
  assert (D : forall n (f : nat -> F), Sum n f / c0 w = Sum n (fun i => f i / c0 w)).
  { intros n f. induction n as [|n IH]; cbn [Sum]; [field; auto|]. rewrite <- IH. field; auto. }
  transitivity (Sum (pcol p) (fun i => Sum (prow p) (fun y => pmat p x i * pmat p y i * Sum (pcol p) (fun j => pmat p y j * (c1 w j a / c0 w))))).
  - apply Sum_ext. intros i _. unfold pc1. cbn [pcol pmat prow]. rewrite D. rewrite <- Sum_mul_l. apply Sum_ext. intros y _.
    replace (pmat p y i * Sum (pcol p) (fun i0 => pmat p y i0 * c1 w i0 a) / c0 w) with (pmat p y i * (Sum (pcol p) (fun i0 => pmat p y i0 * c1 w i0 a) / c0 w)) by (field; auto).
    rewrite D. rewrite (Sum_ext _ (fun i0 => pmat p y i0 * c1 w i0 a / c0 w) (fun j => pmat p y j * (c1 w j a / c0 w))) by (intros; field; auto). ring.
  - rewrite Sum_swap. transitivity (Sum (prow p) (fun y => delta x y * Sum (pcol p) (fun j => pmat p y j * (c1 w j a / c0 w)))).
    + apply Sum_ext. intros y Hy. rewrite Sum_mul_r. rewrite Ho; auto.
    + rewrite Sum_delta_l; auto.
Qed.
End Conv.

Definition orth_row (p : proj QF) : Prop := prow p = 1 /\ Sum (pcol p) (fun i => rmul (pmat p 0 i) (pmat p 0 i)) = r1.
(** Finding: the doubles are not: converting projected coefficients differs from projecting converted ones. *)
Theorem C17_projected_refuted : exists (w : cisd QF) (p : proj QF), c0 w = r1 /\ orth_row p /\ at2 (projected_as_ccsd (Q2Qc (1 # 2) : QF) (cproject w p) p) 0 1 0 0 <> pc2 (at2 (as_ccsd w)) p 0 1 0 0.
Proof.
  exists {| c0 := r1; c1 := fun _ _ => r0; c2 := fun _ _ _ _ => r1 |}, {| prow := 1; pcol := 2; pmat := fun _ i => match i with O => r1 | _ => r0 end |}.
  split; [reflexivity|]. split; [split; [reflexivity|apply Qc_is_canon; reflexivity]|]. intros E. apply (f_equal this) in E. vm_compute in E. discriminate.
Qed.

(** Finding: the conversion of amplitudes with four spin blocks is not inverted; the ba block comes from the ab block. *)
Definition w4 : uamps QF := {| uat1 := (fun _ _ => r0, fun _ _ => r0); uat2 := U4 (fun _ _ _ _ => r0) (fun _ _ _ _ => r0) (fun _ _ _ _ => r1) (fun _ _ _ _ => r0) |}.
Theorem C17_four_blocks_refuted : ~ (forall (w : uamps QF) x, x <> r0 -> same_blocks QF (uat2 (uas_ccsd (uas_cisd w x))) (uat2 w)).
Proof.
  intros H. specialize (H w4 r1). cbn in H. destruct H as (_ & _ & H & _).
  - intros E. apply (f_equal this) in E. discriminate.
  - specialize (H 0 0 0 0). apply (f_equal this) in H. vm_compute in H. discriminate.
Qed.

(** Finding: with four blocks and x <> 1 the ba block of the CISD coefficients is not that of the exponential. *)
Definition w4' : uamps QF := {| uat1 := (fun _ _ => r1, fun _ _ => r1); uat2 := U4 (fun _ _ _ _ => r0) (fun _ _ _ _ => r0) (fun _ _ _ _ => r0) (fun _ _ _ _ => r0) |}.
Theorem C17_norm_refuted : exists x : QF, x <> r0 /\ uba (uc2 (uas_cisd w4' x)) 0 0 0 0 <> rmul x (radd (uba (uat2 w4') 0 0 0 0) (rmul (snd (uat1 w4') 0 0) (fst (uat1 w4') 0 0))).
Proof. exists (Q2Qc (2 # 1)). split; intros E; apply (f_equal this) in E; vm_compute in E; discriminate. Qed.

(** Finding: the CISD form of CCSDTQ amplitudes ignores the requested weight. *)
Theorem C17_ccsdtq_refuted : exists x : QF, x <> r0 /\ forall w : amps QF, c0 (tq_as_cisd w x) <> x.
Proof. exists (Q2Qc (2 # 1)). split; [|intros w]; intros E; apply (f_equal this) in E; vm_compute in E; discriminate. Qed.

(** Example: T1 = 1, T2 = 2, weight 1/2 gives C2 = 3/2. *)
Example conv_example : c2 (as_cisd {| at1 := fun _ _ => r1; at2 := fun _ _ _ _ => Q2Qc (2 # 1) : QF |} (Q2Qc (1 # 2))) 0 0 0 0 = Q2Qc (3 # 2).
Proof. apply Qc_is_canon. reflexivity. Qed.

Print Assumptions C17_restricted. Print Assumptions C17_exponential. Print Assumptions C17_renormalise. Print Assumptions C17_unrestricted. Print Assumptions C17_four_blocks.
Print Assumptions C17_unrestricted_renormalise. Print Assumptions C17_closed_shell. Print Assumptions C17_mp2. Print Assumptions C17_four_blocks_refuted. Print Assumptions C17_norm_refuted. Print Assumptions C17_ccsdtq_refuted.
Print Assumptions C17_projected. Print Assumptions C17_projected_refuted.
