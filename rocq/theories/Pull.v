(** Reordering of nested sums: [pullk] moves the sum at depth k to the front. (Nothing of /repo is modelled in this file.) *)
From Coq Require Import Arith Ring Setoid Morphisms.
From Verif Require Import Alg.

Section Pull.
Context {K : cring}.
Add Ring Kr : (rth K).
Open Scope K_scope.
Lemma pull1 n0 n1 (f : nat -> nat -> K) :
  Sum n0 (fun i0 => Sum n1 (fun i1 => f i0 i1)) =
  Sum n1 (fun i1 => Sum n0 (fun i0 => f i0 i1)).
Proof. apply Sum_swap. Qed.
Lemma pull2 n0 n1 n2 (f : nat -> nat -> nat -> K) :
  Sum n0 (fun i0 => Sum n1 (fun i1 => Sum n2 (fun i2 => f i0 i1 i2))) =
  Sum n2 (fun i2 => Sum n0 (fun i0 => Sum n1 (fun i1 => f i0 i1 i2))).
Proof. etransitivity; [apply Sum_ext; intros; apply pull1|apply Sum_swap]. Qed.
Lemma pull3 n0 n1 n2 n3 (f : nat -> nat -> nat -> nat -> K) :
  Sum n0 (fun i0 => Sum n1 (fun i1 => Sum n2 (fun i2 => Sum n3 (fun i3 => f i0 i1 i2 i3)))) =
  Sum n3 (fun i3 => Sum n0 (fun i0 => Sum n1 (fun i1 => Sum n2 (fun i2 => f i0 i1 i2 i3)))).
Proof. etransitivity; [apply Sum_ext; intros; apply pull2|apply Sum_swap]. Qed.
Lemma pull4 n0 n1 n2 n3 n4 (f : nat -> nat -> nat -> nat -> nat -> K) :
  Sum n0 (fun i0 => Sum n1 (fun i1 => Sum n2 (fun i2 => Sum n3 (fun i3 => Sum n4 (fun i4 => f i0 i1 i2 i3 i4))))) =
  Sum n4 (fun i4 => Sum n0 (fun i0 => Sum n1 (fun i1 => Sum n2 (fun i2 => Sum n3 (fun i3 => f i0 i1 i2 i3 i4))))).
Proof. etransitivity; [apply Sum_ext; intros; apply pull3|apply Sum_swap]. Qed.
Lemma pull5 n0 n1 n2 n3 n4 n5 (f : nat -> nat -> nat -> nat -> nat -> nat -> K) :
  Sum n0 (fun i0 => Sum n1 (fun i1 => Sum n2 (fun i2 => Sum n3 (fun i3 => Sum n4 (fun i4 => Sum n5 (fun i5 => f i0 i1 i2 i3 i4 i5)))))) =
  Sum n5 (fun i5 => Sum n0 (fun i0 => Sum n1 (fun i1 => Sum n2 (fun i2 => Sum n3 (fun i3 => Sum n4 (fun i4 => f i0 i1 i2 i3 i4 i5)))))).
Proof. etransitivity; [apply Sum_ext; intros; apply pull4|apply Sum_swap]. Qed.
Lemma pull6 n0 n1 n2 n3 n4 n5 n6 (f : nat -> nat -> nat -> nat -> nat -> nat -> nat -> K) :
  Sum n0 (fun i0 => Sum n1 (fun i1 => Sum n2 (fun i2 => Sum n3 (fun i3 => Sum n4 (fun i4 => Sum n5 (fun i5 => Sum n6 (fun i6 => f i0 i1 i2 i3 i4 i5 i6))))))) =
  Sum n6 (fun i6 => Sum n0 (fun i0 => Sum n1 (fun i1 => Sum n2 (fun i2 => Sum n3 (fun i3 => Sum n4 (fun i4 => Sum n5 (fun i5 => f i0 i1 i2 i3 i4 i5 i6))))))).
Proof. etransitivity; [apply Sum_ext; intros; apply pull5|apply Sum_swap]. Qed.
Lemma pull7 n0 n1 n2 n3 n4 n5 n6 n7 (f : nat -> nat -> nat -> nat -> nat -> nat -> nat -> nat -> K) :
  Sum n0 (fun i0 => Sum n1 (fun i1 => Sum n2 (fun i2 => Sum n3 (fun i3 => Sum n4 (fun i4 => Sum n5 (fun i5 => Sum n6 (fun i6 => Sum n7 (fun i7 => f i0 i1 i2 i3 i4 i5 i6 i7)))))))) =
  Sum n7 (fun i7 => Sum n0 (fun i0 => Sum n1 (fun i1 => Sum n2 (fun i2 => Sum n3 (fun i3 => Sum n4 (fun i4 => Sum n5 (fun i5 => Sum n6 (fun i6 => f i0 i1 i2 i3 i4 i5 i6 i7)))))))).
Proof. etransitivity; [apply Sum_ext; intros; apply pull6|apply Sum_swap]. Qed.
Lemma pull8 n0 n1 n2 n3 n4 n5 n6 n7 n8 (f : nat -> nat -> nat -> nat -> nat -> nat -> nat -> nat -> nat -> K) :
  Sum n0 (fun i0 => Sum n1 (fun i1 => Sum n2 (fun i2 => Sum n3 (fun i3 => Sum n4 (fun i4 => Sum n5 (fun i5 => Sum n6 (fun i6 => Sum n7 (fun i7 => Sum n8 (fun i8 => f i0 i1 i2 i3 i4 i5 i6 i7 i8))))))))) =
  Sum n8 (fun i8 => Sum n0 (fun i0 => Sum n1 (fun i1 => Sum n2 (fun i2 => Sum n3 (fun i3 => Sum n4 (fun i4 => Sum n5 (fun i5 => Sum n6 (fun i6 => Sum n7 (fun i7 => f i0 i1 i2 i3 i4 i5 i6 i7 i8))))))))).
Proof. etransitivity; [apply Sum_ext; intros; apply pull7|apply Sum_swap]. Qed.
Lemma pull9 n0 n1 n2 n3 n4 n5 n6 n7 n8 n9 (f : nat -> nat -> nat -> nat -> nat -> nat -> nat -> nat -> nat -> nat -> K) :
  Sum n0 (fun i0 => Sum n1 (fun i1 => Sum n2 (fun i2 => Sum n3 (fun i3 => Sum n4 (fun i4 => Sum n5 (fun i5 => Sum n6 (fun i6 => Sum n7 (fun i7 => Sum n8 (fun i8 => Sum n9 (fun i9 => f i0 i1 i2 i3 i4 i5 i6 i7 i8 i9)))))))))) =
  Sum n9 (fun i9 => Sum n0 (fun i0 => Sum n1 (fun i1 => Sum n2 (fun i2 => Sum n3 (fun i3 => Sum n4 (fun i4 => Sum n5 (fun i5 => Sum n6 (fun i6 => Sum n7 (fun i7 => Sum n8 (fun i8 => f i0 i1 i2 i3 i4 i5 i6 i7 i8 i9)))))))))).
Proof. etransitivity; [apply Sum_ext; intros; apply pull8|apply Sum_swap]. Qed.
Lemma pull10 n0 n1 n2 n3 n4 n5 n6 n7 n8 n9 n10 (f : nat -> nat -> nat -> nat -> nat -> nat -> nat -> nat -> nat -> nat -> nat -> K) :
  Sum n0 (fun i0 => Sum n1 (fun i1 => Sum n2 (fun i2 => Sum n3 (fun i3 => Sum n4 (fun i4 => Sum n5 (fun i5 => Sum n6 (fun i6 => Sum n7 (fun i7 => Sum n8 (fun i8 => Sum n9 (fun i9 => Sum n10 (fun i10 => f i0 i1 i2 i3 i4 i5 i6 i7 i8 i9 i10))))))))))) =
  Sum n10 (fun i10 => Sum n0 (fun i0 => Sum n1 (fun i1 => Sum n2 (fun i2 => Sum n3 (fun i3 => Sum n4 (fun i4 => Sum n5 (fun i5 => Sum n6 (fun i6 => Sum n7 (fun i7 => Sum n8 (fun i8 => Sum n9 (fun i9 => f i0 i1 i2 i3 i4 i5 i6 i7 i8 i9 i10))))))))))).
Proof. etransitivity; [apply Sum_ext; intros; apply pull9|apply Sum_swap]. Qed.
End Pull.

(** The sum at depth k of the right-hand side becomes its outermost one and is matched with the outermost sum of the left-hand side. *)
Ltac p0 := apply Sum_ext; intros ? ?.
Ltac p1 := symmetry; etransitivity; [apply pull1|]; symmetry; p0.
Ltac p2 := symmetry; etransitivity; [apply pull2|]; symmetry; p0.
Ltac p3 := symmetry; etransitivity; [apply pull3|]; symmetry; p0.
Ltac p4 := symmetry; etransitivity; [apply pull4|]; symmetry; p0.
Ltac p5 := symmetry; etransitivity; [apply pull5|]; symmetry; p0.
Ltac p6 := symmetry; etransitivity; [apply pull6|]; symmetry; p0.
Ltac p7 := symmetry; etransitivity; [apply pull7|]; symmetry; p0.
Ltac p8 := symmetry; etransitivity; [apply pull8|]; symmetry; p0.
Ltac p9 := symmetry; etransitivity; [apply pull9|]; symmetry; p0.
Ltac p10 := symmetry; etransitivity; [apply pull10|]; symmetry; p0.
(** Products of sums become sums of products. *)
Ltac push := repeat (setoid_rewrite <- Sum_mul_l || setoid_rewrite <- Sum_mul_r || setoid_rewrite <- Sum_opp).
(** All sums, trying every order that agrees with the upper bounds. *)
Ltac pa := p0 + p1 + p2 + p3 + p4 + p5 + p6 + p7 + p8 + p9 + p10.
Ltac reorder := lazymatch goal with |- Sum _ _ = Sum _ _ => pa; reorder | _ => ring end.
