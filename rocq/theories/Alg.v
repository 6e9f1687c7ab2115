(** Commutative rings, fields, finite sums and sums over lists: the algebra used by the models of array code.
    Arrays are functions of their indices, [Sum n f] is the sum of [f i] for i < n; floating-point rounding is not modelled.
    (Nothing of /repo is modelled in this file.) *)
From Coq Require Import List Arith Lia Ring Field ZArith QArith Qcanon Setoid Morphisms.
Import ListNotations.

Record cring := {
  car :> Type;
  r0 : car; r1 : car;
  radd : car -> car -> car; rmul : car -> car -> car; rsub : car -> car -> car; ropp : car -> car;
  rth : ring_theory r0 r1 radd rmul rsub ropp (@eq car)
}.
Arguments r0 {_}. Arguments r1 {_}. Arguments radd {_}. Arguments rmul {_}. Arguments rsub {_}. Arguments ropp {_}.

Declare Scope K_scope.
Delimit Scope K_scope with K.
Bind Scope K_scope with car.
Notation "0" := r0 : K_scope.
Notation "1" := r1 : K_scope.
Infix "+" := radd : K_scope.
Infix "*" := rmul : K_scope.
Infix "-" := rsub : K_scope.
Notation "- x" := (ropp x) : K_scope.

(** A field: the inverse is only specified for non-zero arguments. *)
Record cfield := {
  fring :> cring;
  finv : fring -> fring; fdiv : fring -> fring -> fring;
  fth : field_theory r0 r1 radd rmul rsub ropp fdiv finv (@eq fring)
}.
Arguments finv {_}. Arguments fdiv {_}.
Infix "/" := fdiv : K_scope.

Definition ZK : cring := {| car := Z; rth := Zth |}.
Definition QK : cring := {| car := Qc; rth := Qcrt |}.
Definition QF : cfield := {| fring := QK; fth := Qcft |}.

Section Sum.
Context {K : cring}.
Add Ring Kring : (rth K).
Open Scope K_scope.

Fixpoint Sum (n : nat) (f : nat -> K) : K :=
  match n with O => 0 | S m => Sum m f + f m end.

Fixpoint Lsum {A} (l : list A) (f : A -> K) : K :=
  match l with [] => 0 | a :: l' => f a + Lsum l' f end.

(** Natural multiples and Kronecker delta. *)
Fixpoint nK (n : nat) : K := match n with O => 0 | S m => nK m + 1 end.
Definition delta (i j : nat) : K := if Nat.eqb i j then 1 else 0.

Lemma Sum_ext n f g : (forall i, (i < n)%nat -> f i = g i) -> Sum n f = Sum n g.
Proof.
  induction n as [|n IH]; intros H; simpl; auto. rewrite (H n) by lia. rewrite IH; auto.
Qed.

Global Instance Sum_proper : Proper (eq ==> pointwise_relation nat eq ==> eq) Sum.
Proof. intros n m <- f g H. apply Sum_ext. intros. apply H. Qed.

Lemma Sum_0 n f : (forall i, (i < n)%nat -> f i = 0) -> Sum n f = 0.
Proof. induction n as [|n IH]; intros H; simpl; auto. rewrite H, IH by auto. ring. Qed.

Lemma Sum_zero n : Sum n (fun _ => 0) = 0.
Proof. apply Sum_0. auto. Qed.

Lemma Sum_add n f g : Sum n (fun i => f i + g i) = Sum n f + Sum n g.
Proof. induction n as [|n IH]; simpl; [|rewrite IH]; ring. Qed.

Lemma Sum_sub n f g : Sum n (fun i => f i - g i) = Sum n f - Sum n g.
Proof. induction n as [|n IH]; simpl; [|rewrite IH]; ring. Qed.

Lemma Sum_opp n f : Sum n (fun i => - f i) = - Sum n f.
Proof. induction n as [|n IH]; simpl; [|rewrite IH]; ring. Qed.

Lemma Sum_mul_l n c f : Sum n (fun i => c * f i) = c * Sum n f.
Proof. induction n as [|n IH]; simpl; [|rewrite IH]; ring. Qed.

Lemma Sum_mul_r n c f : Sum n (fun i => f i * c) = Sum n f * c.
Proof. induction n as [|n IH]; simpl; [|rewrite IH]; ring. Qed.

Lemma Sum_swap n m f : Sum n (fun i => Sum m (fun j => f i j)) = Sum m (fun j => Sum n (fun i => f i j)).
Proof.
  induction n as [|n IH]; simpl.
  - symmetry. apply Sum_0. auto.
  - rewrite IH, <- Sum_add. reflexivity.
Qed.

Lemma Sum_split n m f : Sum (n + m) f = Sum n f + Sum m (fun i => f (n + i)%nat).
Proof.
  induction m as [|m IH]; simpl.
  - rewrite Nat.add_0_r. ring.
  - rewrite Nat.add_succ_r. simpl. rewrite IH. ring.
Qed.

Lemma Sum_shift n f : Sum (S n) f = f O + Sum n (fun i => f (S i)).
Proof. change (S n) with (1 + n)%nat. rewrite (Sum_split 1 n f). simpl. ring. Qed.

Lemma Sum_const n c : Sum n (fun _ => c) = nK n * c.
Proof. induction n as [|n IH]; simpl; [|rewrite IH]; ring. Qed.

Lemma delta_eq i : delta i i = 1.
Proof. unfold delta. rewrite Nat.eqb_refl. auto. Qed.

Lemma delta_neq i j : i <> j -> delta i j = 0.
Proof. unfold delta. intros H. apply Nat.eqb_neq in H. rewrite H. auto. Qed.

Lemma delta_sym i j : delta i j = delta j i.
Proof. unfold delta. rewrite Nat.eqb_sym. auto. Qed.

Lemma Sum_single n k f : (k < n)%nat -> (forall i, (i < n)%nat -> i <> k -> f i = 0) -> Sum n f = f k.
Proof.
  induction n as [|n IH]; intros Hk H; [lia|]. simpl. destruct (Nat.eq_dec k n) as [->|Hne].
  - rewrite Sum_0; [ring|]. intros i Hi. apply H; lia.
  - rewrite IH by (auto; lia). rewrite (H n) by lia. ring.
Qed.

Lemma Sum_delta_l n k f : (k < n)%nat -> Sum n (fun i => delta k i * f i) = f k.
Proof.
  intros Hk. rewrite (Sum_single n k); auto.
  - rewrite delta_eq. ring.
  - intros i _ Hi. rewrite delta_neq by auto. ring.
Qed.

Lemma Sum_delta_r n k f : (k < n)%nat -> Sum n (fun i => f i * delta i k) = f k.
Proof.
  intros Hk. rewrite (Sum_single n k); auto.
  - rewrite delta_eq. ring.
  - intros i _ Hi. rewrite delta_neq by auto. ring.
Qed.

Lemma Sum_delta_l' n k f : (k < n)%nat -> Sum n (fun i => delta i k * f i) = f k.
Proof. intros Hk. rewrite <- (Sum_delta_l n k f Hk). apply Sum_ext. intros. rewrite delta_sym. auto. Qed.

Lemma Sum_delta_r' n k f : (k < n)%nat -> Sum n (fun i => f i * delta k i) = f k.
Proof. intros Hk. rewrite <- (Sum_delta_r n k f Hk). apply Sum_ext. intros. rewrite delta_sym. auto. Qed.

Lemma Sum_mul_Sum n m f g : Sum n f * Sum m g = Sum n (fun i => Sum m (fun j => f i * g j)).
Proof.
  rewrite <- Sum_mul_r. apply Sum_ext. intros. symmetry. apply Sum_mul_l.
Qed.

(** *** Lists *)

Lemma Lsum_ext {A} (l : list A) f g : (forall a, In a l -> f a = g a) -> Lsum l f = Lsum l g.
Proof.
  induction l as [|a l IH]; intros H; simpl; auto. rewrite H by (left; auto). rewrite IH; auto. intros. apply H. right. auto.
Qed.

Global Instance Lsum_proper {A} (l : list A) : Proper (pointwise_relation A eq ==> eq) (Lsum l).
Proof. intros f g H. apply Lsum_ext. intros. apply H. Qed.

Lemma Lsum_app {A} (l1 l2 : list A) f : Lsum (l1 ++ l2) f = Lsum l1 f + Lsum l2 f.
Proof. induction l1 as [|a l1 IH]; simpl; [|rewrite IH]; ring. Qed.

Lemma Lsum_add {A} (l : list A) f g : Lsum l (fun a => f a + g a) = Lsum l f + Lsum l g.
Proof. induction l as [|a l IH]; simpl; [|rewrite IH]; ring. Qed.

Lemma Lsum_sub {A} (l : list A) f g : Lsum l (fun a => f a - g a) = Lsum l f - Lsum l g.
Proof. induction l as [|a l IH]; simpl; [|rewrite IH]; ring. Qed.

Lemma Lsum_0 {A} (l : list A) f : (forall a, In a l -> f a = 0) -> Lsum l f = 0.
Proof.
  induction l as [|a l IH]; intros H; simpl; auto. rewrite H, IH; [ring| |left; auto]. intros. apply H. right. auto.
Qed.

Lemma Lsum_mul_l {A} (l : list A) c f : Lsum l (fun a => c * f a) = c * Lsum l f.
Proof. induction l as [|a l IH]; simpl; [|rewrite IH]; ring. Qed.

Lemma Lsum_mul_r {A} (l : list A) c f : Lsum l (fun a => f a * c) = Lsum l f * c.
Proof. induction l as [|a l IH]; simpl; [|rewrite IH]; ring. Qed.

Lemma Lsum_const {A} (l : list A) c : Lsum l (fun _ => c) = nK (length l) * c.
Proof. induction l as [|a l IH]; simpl; [|rewrite IH]; ring. Qed.

Lemma Lsum_map {A B} (l : list A) (h : A -> B) f : Lsum (map h l) f = Lsum l (fun a => f (h a)).
Proof. induction l as [|a l IH]; simpl; [|rewrite IH]; auto. Qed.

Lemma Lsum_concat {A} (ls : list (list A)) f : Lsum (concat ls) f = Lsum ls (fun l => Lsum l f).
Proof. induction ls as [|l ls IH]; simpl; auto. rewrite Lsum_app, IH. auto. Qed.

Lemma Lsum_flat_map {A B} (l : list A) (h : A -> list B) f : Lsum (flat_map h l) f = Lsum l (fun a => Lsum (h a) f).
Proof. induction l as [|a l IH]; simpl; auto. rewrite Lsum_app, IH. auto. Qed.

Lemma Lsum_Sum {A} (l : list A) n f : Lsum l (fun a => Sum n (fun i => f a i)) = Sum n (fun i => Lsum l (fun a => f a i)).
Proof.
  induction l as [|a l IH]; simpl.
  - symmetry. apply Sum_0. auto.
  - rewrite IH, <- Sum_add. reflexivity.
Qed.

Lemma Lsum_swap {A B} (l : list A) (l' : list B) f :
  Lsum l (fun a => Lsum l' (fun b => f a b)) = Lsum l' (fun b => Lsum l (fun a => f a b)).
Proof.
  induction l as [|a l IH]; simpl.
  - symmetry. apply Lsum_0. auto.
  - rewrite IH, <- Lsum_add. reflexivity.
Qed.

Lemma Lsum_seq n f : Lsum (seq 0 n) f = Sum n f.
Proof.
  induction n as [|n IH]; auto. rewrite seq_S, Lsum_app, IH. simpl. ring.
Qed.

Lemma nK_add n m : nK (n + m) = nK n + nK m.
Proof. induction n as [|n IH]; simpl; [|rewrite IH]; ring. Qed.

Lemma nK_mul n m : nK (n * m) = nK n * nK m.
Proof. induction n as [|n IH]; simpl; [ring|]. rewrite nK_add, IH. ring. Qed.

End Sum.

From Coq Require Import Permutation.
Lemma Lsum_Permutation {K : cring} {A} (l1 l2 : list A) (f : A -> K) : Permutation l1 l2 -> Lsum l1 f = Lsum l2 f.
Proof.
  intros H. induction H; simpl; auto.
  - rewrite IHPermutation. auto.
  - pose proof (rth K) as R. destruct R. rewrite !Radd_assoc. rewrite (Radd_comm (f y)). auto.
  - congruence.
Qed.
