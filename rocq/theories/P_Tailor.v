(** * Properties of tailoring (model in M_Tailor) *)
From Coq Require Import List Bool Arith Lia Ring ZArith QArith Qcanon Permutation.
From Verif Require Import Alg Ord M_TtoC P_TtoC M_ExtCorr M_Tailor.
Import ListNotations.
Open Scope K_scope.

(** ** Transformations of arrays *)
Section Arr.
Context {K : cring}.
Add Ring Kr : (rth K).
Notation mat := (nat -> nat -> K). Notation ten := (nat -> nat -> nat -> nat -> K).
Lemma trans1_ext n1 n2 (t t' : mat) u u' v v' x y : (forall i a, (i < n1)%nat -> (a < n2)%nat -> t i a = t' i a) -> (forall i, (i < n1)%nat -> u i x = u' i x) -> (forall a, (a < n2)%nat -> v a y = v' a y) ->
  trans1 n1 n2 t u v x y = trans1 n1 n2 t' u' v' x y.
Proof. intros H Hu Hv. unfold trans1. apply Sum_ext. intros. apply Sum_ext. intros. rewrite H, Hu, Hv by assumption. reflexivity. Qed.
Lemma trans2_ext n1 n1' n2 n2' (t t' : ten) u w u' w' v z v' z' x y a b :
  (forall i j a b, (i < n1)%nat -> (j < n1')%nat -> (a < n2)%nat -> (b < n2')%nat -> t i j a b = t' i j a b) ->
  (forall i, (i < n1)%nat -> u i x = w i x) -> (forall i, (i < n1')%nat -> u' i y = w' i y) -> (forall i, (i < n2)%nat -> v i a = z i a) -> (forall i, (i < n2')%nat -> v' i b = z' i b) ->
  trans2 n1 n1' n2 n2' t u u' v v' x y a b = trans2 n1 n1' n2 n2' t' w w' z z' x y a b.
Proof. intros H H1 H2 H3 H4. unfold trans2. apply Sum_ext. intros. apply Sum_ext. intros. apply Sum_ext. intros. apply Sum_ext. intros. rewrite H, H1, H2, H3, H4 by assumption. reflexivity. Qed.
Lemma trans1_Sum n1 n2 m (c : nat -> K) (t : nat -> mat) u v x y :
  trans1 n1 n2 (fun i a => Sum m (fun k => c k * t k i a)) u v x y = Sum m (fun k => c k * trans1 n1 n2 (t k) u v x y).
Proof.
  unfold trans1. transitivity (Sum m (fun k => Sum n1 (fun i => Sum n2 (fun a => c k * (t k i a * u i x * v a y))))).
  - symmetry. rewrite Sum_swap. apply Sum_ext. intros i _. rewrite Sum_swap. apply Sum_ext. intros a _. rewrite <- !Sum_mul_r. apply Sum_ext. intros. ring.
  - apply Sum_ext. intros k _. rewrite <- Sum_mul_l. apply Sum_ext. intros i _. rewrite <- Sum_mul_l. reflexivity.
Qed.
Lemma trans1_sub n1 n2 (t t' : mat) u v x y : trans1 n1 n2 (fun i a => t i a - t' i a) u v x y = trans1 n1 n2 t u v x y - trans1 n1 n2 t' u v x y.
Proof. unfold trans1. rewrite <- Sum_sub. apply Sum_ext. intros. rewrite <- Sum_sub. apply Sum_ext. intros. ring. Qed.
Lemma trans1_add n1 n2 (t t' : mat) u v x y : trans1 n1 n2 (fun i a => t i a + t' i a) u v x y = trans1 n1 n2 t u v x y + trans1 n1 n2 t' u v x y.
Proof. unfold trans1. rewrite <- Sum_add. apply Sum_ext. intros. rewrite <- Sum_add. apply Sum_ext. intros. ring. Qed.
Lemma trans1_scale n1 n2 c (t : mat) u v x y : trans1 n1 n2 (fun i a => c * t i a) u v x y = c * trans1 n1 n2 t u v x y.
Proof. unfold trans1. rewrite <- Sum_mul_l. apply Sum_ext. intros. rewrite <- Sum_mul_l. apply Sum_ext. intros. ring. Qed.
Lemma trans1_0 n1 n2 (t : mat) u v x y : (forall i a, (i < n1)%nat -> (a < n2)%nat -> t i a = 0) -> trans1 n1 n2 t u v x y = 0.
Proof. intros H. unfold trans1. apply Sum_0. intros. apply Sum_0. intros. rewrite H by assumption. ring. Qed.
Lemma trans1_trans1 N1 N2 n1 n2 (d U V u v : mat) x y :
  trans1 N1 N2 (trans1 n1 n2 d U V) u v x y = trans1 n1 n2 d (fun k x => Sum N1 (fun i => U k i * u i x)) (fun c y => Sum N2 (fun a => V c a * v a y)) x y.
Proof.
  transitivity (Sum n1 (fun k => Sum n2 (fun c => d k c * trans1 N1 N2 (fun i a => U k i * V c a) u v x y))).
  - transitivity (trans1 N1 N2 (fun i a => Sum n1 (fun k => 1 * Sum n2 (fun c => d k c * (U k i * V c a)))) u v x y).
    + apply trans1_ext; try reflexivity. intros i a _ _. unfold trans1. apply Sum_ext. intros k _. transitivity (Sum n2 (fun c => d k c * (U k i * V c a))); [|ring]. apply Sum_ext. intros. ring.
    + rewrite trans1_Sum. apply Sum_ext. intros k _. rewrite trans1_Sum. ring.
  - unfold trans1. apply Sum_ext. intros k _. apply Sum_ext. intros c _. transitivity (d k c * (Sum N1 (fun i => U k i * u i x) * Sum N2 (fun a => V c a * v a y))); [|ring].
    f_equal. rewrite Sum_mul_Sum. apply Sum_ext. intros. apply Sum_ext. intros. ring.
Qed.
Lemma trans1_swap N M n m (g : nat -> nat -> nat -> nat -> K) (U V U' V' : mat) i a y w :
  trans1 N M (fun j b => trans1 n m (fun k c => g k c j b) U V i a) U' V' y w = trans1 n m (fun k c => trans1 N M (fun j b => g k c j b) U' V' y w) U V i a.
Proof.
  transitivity (trans1 N M (fun j b => Sum n (fun k => U k i * Sum m (fun c => V c a * g k c j b))) U' V' y w).
  - apply trans1_ext; try reflexivity. intros j b _ _. unfold trans1. apply Sum_ext. intros k _. rewrite <- Sum_mul_l. apply Sum_ext. intros. ring.
  - rewrite trans1_Sum. symmetry. unfold trans1 at 1. apply Sum_ext. intros k _. rewrite trans1_Sum. rewrite <- (Sum_mul_l m (U k i)). apply Sum_ext. intros c _. change (trans1 N M (fun j b : nat => g k c j b) U' V' y w) with (trans1 N M (g k c) U' V' y w). ring.
Qed.
Lemma trans2_cur n1 n1' n2 n2' (t : ten) u u' v v' x y z w :
  trans2 n1 n1' n2 n2' t u u' v v' x y z w = trans1 n1 n2 (fun i a => trans1 n1' n2' (fun j b => t i j a b) u' v' y w) u v x z.
Proof.
  unfold trans2, trans1. apply Sum_ext. intros i _. rewrite Sum_swap. apply Sum_ext. intros a _. rewrite <- !Sum_mul_r. apply Sum_ext. intros j _. rewrite <- !Sum_mul_r. apply Sum_ext. intros. ring.
Qed.
Lemma trans2_trans2 N1 N1' N2 N2' n1 n1' n2 n2' (d : ten) (U U' V V' u u' v v' : mat) x y z w :
  trans2 N1 N1' N2 N2' (trans2 n1 n1' n2 n2' d U U' V V') u u' v v' x y z w =
  trans2 n1 n1' n2 n2' d (fun k x => Sum N1 (fun i => U k i * u i x)) (fun k x => Sum N1' (fun i => U' k i * u' i x)) (fun c y => Sum N2 (fun a => V c a * v a y)) (fun c y => Sum N2' (fun a => V' c a * v' a y)) x y z w.
Proof.
  rewrite !trans2_cur. rewrite <- trans1_trans1. apply trans1_ext; try reflexivity. intros i a _ _.
  transitivity (trans1 N1' N2' (fun j b => trans1 n1 n2 (fun k c => trans1 n1' n2' (fun l e => d k l c e) U' V' j b) U V i a) u' v' y w).
  - apply trans1_ext; try reflexivity. intros j b _ _. apply trans2_cur.
  - rewrite (trans1_swap N1' N2' n1 n2 (fun k c j b => trans1 n1' n2' (fun l e => d k l c e) U' V' j b)). apply trans1_ext; try reflexivity. intros k c _ _. apply trans1_trans1.
Qed.
Lemma trans2_sub n1 n1' n2 n2' (t t' : ten) u u' v v' x y z w : trans2 n1 n1' n2 n2' (fun i j a b => t i j a b - t' i j a b) u u' v v' x y z w = trans2 n1 n1' n2 n2' t u u' v v' x y z w - trans2 n1 n1' n2 n2' t' u u' v v' x y z w.
Proof. rewrite !trans2_cur. rewrite <- trans1_sub. apply trans1_ext; try reflexivity. intros. apply trans1_sub. Qed.
Lemma trans2_add n1 n1' n2 n2' (t t' : ten) u u' v v' x y z w : trans2 n1 n1' n2 n2' (fun i j a b => t i j a b + t' i j a b) u u' v v' x y z w = trans2 n1 n1' n2 n2' t u u' v v' x y z w + trans2 n1 n1' n2 n2' t' u u' v v' x y z w.
Proof. rewrite !trans2_cur. rewrite <- trans1_add. apply trans1_ext; try reflexivity. intros. apply trans1_add. Qed.
Lemma trans2_scale n1 n1' n2 n2' c (t : ten) u u' v v' x y z w : trans2 n1 n1' n2 n2' (fun i j a b => c * t i j a b) u u' v v' x y z w = c * trans2 n1 n1' n2 n2' t u u' v v' x y z w.
Proof. rewrite !trans2_cur. rewrite <- trans1_scale. apply trans1_ext; try reflexivity. intros. apply trans1_scale. Qed.
Lemma trans2_0 n1 n1' n2 n2' (t : ten) u u' v v' x y z w : (forall i j a b, (i < n1)%nat -> (j < n1')%nat -> (a < n2)%nat -> (b < n2')%nat -> t i j a b = 0) -> trans2 n1 n1' n2 n2' t u u' v v' x y z w = 0.
Proof. intros H. rewrite trans2_cur. apply trans1_0. intros. apply trans1_0. intros. apply H; assumption. Qed.
Lemma trans2_flip n1 n1' n2 n2' (t : ten) u u' v v' x y z w : trans2 n1 n1' n2 n2' (fun i j a b => t j i b a) u u' v v' x y z w = trans2 n1' n1 n2' n2 t u' u v' v y x w z.
Proof.
  unfold trans2. rewrite Sum_swap. apply Sum_ext. intros j _. apply Sum_ext. intros i _. rewrite Sum_swap. apply Sum_ext. intros b _. apply Sum_ext. intros. ring.
Qed.
(** a matrix applied to an occupied index *)
Lemma trans1_pdot n1 n2 (p t u v : mat) x y : trans1 n1 n2 (pdot n1 p t) u v x y = trans1 n1 n2 t (fun i x => Sum n1 (fun k => p k i * u k x)) v x y.
Proof.
  unfold trans1, pdot. transitivity (Sum n1 (fun k => Sum n1 (fun i => Sum n2 (fun a => p k i * t i a * u k x * v a y)))).
  - apply Sum_ext. intros k _. rewrite Sum_swap. apply Sum_ext. intros a _. rewrite <- !Sum_mul_r. apply Sum_ext. intros. ring.
  - rewrite Sum_swap. apply Sum_ext. intros i _. rewrite Sum_swap. apply Sum_ext. intros a _. rewrite <- Sum_mul_l, <- Sum_mul_r. apply Sum_ext. intros. ring.
Qed.
Lemma trans2_p1 n1 n1' n2 n2' (p : mat) (t : ten) (u u' v v' : mat) x y z w :
  trans2 n1 n1' n2 n2' (fun i j a b => Sum n1 (fun k => p i k * t k j a b)) u u' v v' x y z w = trans2 n1 n1' n2 n2' t (fun i x => Sum n1 (fun k => p k i * u k x)) u' v v' x y z w.
Proof.
  rewrite !trans2_cur, <- trans1_pdot. apply trans1_ext; try reflexivity. intros i a _ _. unfold pdot. apply trans1_Sum.
Qed.
Lemma trans2_p2 n1 n1' n2 n2' (p : mat) (t : ten) (u u' v v' : mat) x y z w :
  trans2 n1 n1' n2 n2' (fun i j a b => Sum n1' (fun k => p j k * t i k a b)) u u' v v' x y z w = trans2 n1 n1' n2 n2' t u (fun i x => Sum n1' (fun k => p k i * u' k x)) v v' x y z w.
Proof.
  rewrite !trans2_cur. apply trans1_ext; try reflexivity. intros i a _ _. exact (trans1_pdot n1' n2' p (fun j b => t i j a b) u' v' y w).
Qed.
Lemma trans2_p12 n1 n1' n2 n2' (p p' : mat) (t : ten) (u u' v v' : mat) x y z w :
  trans2 n1 n1' n2 n2' (fun i j a b => Sum n1 (fun k => Sum n1' (fun l => p i k * p' j l * t k l a b))) u u' v v' x y z w =
  trans2 n1 n1' n2 n2' t (fun i x => Sum n1 (fun k => p k i * u k x)) (fun i x => Sum n1' (fun k => p' k i * u' k x)) v v' x y z w.
Proof.
  rewrite <- trans2_p2, <- trans2_p1. apply trans2_ext; try reflexivity. intros. apply Sum_ext. intros. rewrite <- Sum_mul_l. apply Sum_ext. intros. ring.
Qed.
(** transformation with unit matrices *)
Lemma trans1_id n1 n2 (d u v : mat) x y : (x < n1)%nat -> (y < n2)%nat -> (forall k, (k < n1)%nat -> u k x = delta k x) -> (forall k, (k < n2)%nat -> v k y = delta k y) -> trans1 n1 n2 d u v x y = d x y.
Proof.
  intros Hx Hy Hu Hv. rewrite (trans1_ext _ _ d d u (fun k x => delta k x) v (fun k x => delta k x)) by auto. unfold trans1.
  etransitivity; [apply Sum_ext; intros i _; exact (Sum_delta_r n2 y (fun a => d i a * delta i x) Hy)|]. exact (Sum_delta_r n1 x (fun i => d i y) Hx).
Qed.
Lemma trans2_id n1 n1' n2 n2' (d : ten) (u u' v v' : mat) x y z w : (x < n1)%nat -> (y < n1')%nat -> (z < n2)%nat -> (w < n2')%nat ->
  (forall k, (k < n1)%nat -> u k x = delta k x) -> (forall k, (k < n1')%nat -> u' k y = delta k y) -> (forall k, (k < n2)%nat -> v k z = delta k z) -> (forall k, (k < n2')%nat -> v' k w = delta k w) ->
  trans2 n1 n1' n2 n2' d u u' v v' x y z w = d x y z w.
Proof.
  intros. rewrite trans2_cur. rewrite trans1_id by assumption. apply (trans1_id n1' n2' (fun j b => d x j z b)); assumption.
Qed.
Lemma trans1_u_Lsum {A} (l : list A) n1 n2 (t : mat) (u : A -> mat) v x y : trans1 n1 n2 t (fun i x => Lsum l (fun z => u z i x)) v x y = Lsum l (fun z => trans1 n1 n2 t (u z) v x y).
Proof.
  unfold trans1. rewrite Lsum_Sum. apply Sum_ext. intros i _. rewrite Lsum_Sum. apply Sum_ext. intros a _. rewrite <- Lsum_mul_l, <- Lsum_mul_r. reflexivity.
Qed.
Lemma trans2_u_Lsum {A} (l : list A) n1 n1' n2 n2' (t : ten) (u : A -> mat) u' v v' x y z w :
  trans2 n1 n1' n2 n2' t (fun i x => Lsum l (fun s => u s i x)) u' v v' x y z w = Lsum l (fun s => trans2 n1 n1' n2 n2' t (u s) u' v v' x y z w).
Proof. rewrite trans2_cur, trans1_u_Lsum. apply Lsum_ext. intros. symmetry. apply trans2_cur. Qed.
Lemma trans1_u_0 n1 n2 (t u v : mat) x y : (forall i, (i < n1)%nat -> u i x = 0) -> trans1 n1 n2 t u v x y = 0.
Proof. intros H. unfold trans1. apply Sum_0. intros. apply Sum_0. intros. rewrite H by assumption. ring. Qed.
Lemma trans1_v_0 n1 n2 (t u v : mat) x y : (forall i, (i < n2)%nat -> v i y = 0) -> trans1 n1 n2 t u v x y = 0.
Proof. intros H. unfold trans1. apply Sum_0. intros. apply Sum_0. intros. rewrite H by assumption. ring. Qed.
(** contraction of an index with a vector that is orthogonal to all rows *)
Lemma contr1 N n m (w : nat -> K) (d U V : mat) a : (forall i, (i < n)%nat -> Sum N (fun k => w k * U i k) = 0) -> Sum N (fun k => w k * trans1 n m d U V k a) = 0.
Proof.
  intros H. transitivity (Sum n (fun i => Sum N (fun k => w k * U i k) * Sum m (fun c => d i c * V c a))).
  - transitivity (Sum N (fun k => Sum n (fun i => w k * U i k * Sum m (fun c => d i c * V c a)))).
    + apply Sum_ext. intros k _. unfold trans1. rewrite <- Sum_mul_l. apply Sum_ext. intros i _. rewrite <- !Sum_mul_l. apply Sum_ext. intros. ring.
    + rewrite Sum_swap. apply Sum_ext. intros i _. apply Sum_mul_r.
  - apply Sum_0. intros i Hi. rewrite H by assumption. ring.
Qed.
Lemma contr1v N n m (w : nat -> K) (d U V : mat) x : (forall i, (i < m)%nat -> Sum N (fun k => w k * V i k) = 0) -> Sum N (fun k => w k * trans1 n m d U V x k) = 0.
Proof.
  intros H. rewrite <- (contr1 N m n w (tr d) V U x H). apply Sum_ext. intros k _. f_equal. unfold trans1, tr. rewrite Sum_swap. apply Sum_ext. intros. apply Sum_ext. intros. ring.
Qed.
Lemma contr2 N n1 n1' n2 n2' (w : nat -> K) (d : ten) (U U' V V' : mat) :
  ((forall i, (i < n1)%nat -> Sum N (fun k => w k * U i k) = 0) -> forall j a b, Sum N (fun k => w k * trans2 n1 n1' n2 n2' d U U' V V' k j a b) = 0) /\
  ((forall i, (i < n1')%nat -> Sum N (fun k => w k * U' i k) = 0) -> forall i a b, Sum N (fun k => w k * trans2 n1 n1' n2 n2' d U U' V V' i k a b) = 0) /\
  ((forall i, (i < n2)%nat -> Sum N (fun k => w k * V i k) = 0) -> forall i j b, Sum N (fun k => w k * trans2 n1 n1' n2 n2' d U U' V V' i j k b) = 0) /\
  ((forall i, (i < n2')%nat -> Sum N (fun k => w k * V' i k) = 0) -> forall i j a, Sum N (fun k => w k * trans2 n1 n1' n2 n2' d U U' V V' i j a k) = 0).
Proof.
  split; [|split; [|split]]; intros H x y z.
  - etransitivity; [apply Sum_ext; intros k _; rewrite trans2_cur; reflexivity|]. apply contr1. exact H.
  - etransitivity; [apply Sum_ext; intros k _; rewrite <- (trans2_flip n1' n1 n2' n2), trans2_cur; reflexivity|]. apply contr1. exact H.
  - etransitivity; [apply Sum_ext; intros k _; rewrite trans2_cur; reflexivity|]. apply contr1v. exact H.
  - etransitivity; [apply Sum_ext; intros k _; rewrite <- (trans2_flip n1' n1 n2' n2), trans2_cur; reflexivity|]. apply contr1v. exact H.
Qed.
Lemma contr_add {A} N (w : nat -> K) (f g : nat -> K) (l : list A) (h : A -> nat -> K) : (forall k, f k = g k + Lsum l (fun z => h z k)) -> (forall z, In z l -> Sum N (fun k => w k * h z k) = 0) ->
  Sum N (fun k => w k * f k) = Sum N (fun k => w k * g k).
Proof.
  intros H H0. transitivity (Sum N (fun k => w k * g k) + Lsum l (fun z => Sum N (fun k => w k * h z k))).
  - rewrite Lsum_Sum, <- Sum_add. apply Sum_ext. intros k _. rewrite H, Lsum_mul_l. ring.
  - rewrite Lsum_0 by exact H0. ring.
Qed.
End Arr.

(** ** Restricted *)
Section Res.
Context {K : oring}.
Add Ring Ko : (rth K).
Notation mat := (nat -> nat -> K). Notation ten := (nat -> nat -> nat -> nat -> K).
Variable half : K.
Notation r_tailor := (r_tailor half). Notation tfrag := (@tfrag K).

Lemma max2_l (x y : K) : le x (max2 x y).
Proof. unfold max2. destruct (ltb x y) eqn:E; [apply lt_le; exact E|apply le_refl]. Qed.
Lemma max2_r (x y : K) : le y (max2 x y).
Proof. unfold max2. destruct (ltb x y) eqn:E; [apply le_refl|]. unfold le, leb. rewrite E. reflexivity. Qed.
Lemma maxn_ge n (f : nat -> K) i : (i < n)%nat -> le (f i) (maxn n f).
Proof.
  induction n as [|n IH]; intros H; [lia|]. cbn [maxn]. destruct (Nat.eq_dec i n) as [->|Hn]; [apply max2_r|]. eapply le_tr; [apply IH; lia|apply max2_l].
Qed.
Lemma absmax_ge n m (r : mat) i j : (i < n)%nat -> (j < m)%nat -> le (absK (r i j)) (absmax n m r).
Proof. intros Hi Hj. eapply le_tr; [|apply (maxn_ge n (fun i => maxn m (fun j => absK (r i j))) i Hi)]. apply (maxn_ge m (fun j => absK (r i j)) j Hj). Qed.
Lemma min2_ge (x y z : K) : le z x -> le z y -> ltb (min2 x y) z = false.
Proof. unfold le, leb, min2. intros Hx Hy. apply negb_true_iff in Hx, Hy. destruct (ltb y x); assumption. Qed.
(** some occupied and some virtual orbitals overlap *)
Definition overlaps (tol : K) (xo xv : nat) (y : tfrag) : Prop :=
  (exists i j, (i < xo)%nat /\ (j < t_no y)%nat /\ le tol (absK (t_ro y i j))) /\ (exists a b, (a < xv)%nat /\ (b < t_nv y)%nat /\ le tol (absK (t_rv y a b))).
Definition small (tol : K) (xo xv : nat) (y : tfrag) : bool := ltb (min2 (absmax xo (t_no y) (t_ro y)) (absmax xv (t_nv y) (t_rv y))) tol.
Lemma overlaps_small tol xo xv y : overlaps tol xo xv y -> small tol xo xv y = false.
Proof.
  intros [(i & j & Hi & Hj & H) (a & b & Ha & Hb & G)]. apply min2_ge; [eapply le_tr; [exact H|]|eapply le_tr; [exact G|]]; apply absmax_ge; assumption.
Qed.

(** the projections that do not fail *)
Definition prj (p n : nat) (t : ten) (P : mat) : ten :=
  match p with
  | O => t
  | 1 => fun i j a b => half * (Sum n (fun k => P i k * t k j a b) + Sum n (fun k => P j k * t k i b a))
  | _ => fun i j a b => Sum n (fun k => Sum n (fun l => P i k * P j l * t k l a b))
  end.
Definition prj1 (p n : nat) (t P : mat) : mat := match p with O => t | _ => pdot n P t end.
Definition D1 (xo xv : nat) (y : tfrag) (t : mat) : mat := fun i a => t_t1 y i a - trans1 xo xv t (t_ro y) (t_rv y) i a.
Definition D2 (xo xv : nat) (y : tfrag) (t : ten) : ten := fun i j a b => t_t2 y i j a b - trans2 xo xo xv xv t (t_ro y) (t_ro y) (t_rv y) (t_rv y) i j a b.
Definition B1 (y : tfrag) (d : mat) : mat := trans1 (t_no y) (t_nv y) d (tr (t_ro y)) (tr (t_rv y)).
Definition B2 (y : tfrag) (d : ten) : ten := trans2 (t_no y) (t_no y) (t_nv y) (t_nv y) d (tr (t_ro y)) (tr (t_ro y)) (tr (t_rv y)) (tr (t_rv y)).
Definition pr (y : tfrag) : mat := gram (t_nf y) (t_f y).
Lemma r_tloop_ok tol xid xo xv p l t : (p <= 2)%nat -> (forall y, In y l -> t_id y <> xid) -> forall a1 a2, exists b1 b2,
  r_tloop half tol xid xo xv p true true l t (Some a1, Some a2) = Ret (Some b1, Some b2) /\
  (forall i a, b1 i a = a1 i a + Lsum (filter (fun y => negb (small tol xo xv y)) l) (fun y => B1 y (prj1 p (t_no y) (D1 xo xv y (fst t)) (pr y)) i a)) /\
  (forall i j a b, b2 i j a b = a2 i j a b + Lsum (filter (fun y => negb (small tol xo xv y)) l) (fun y => B2 y (prj p (t_no y) (D2 xo xv y (snd t)) (pr y)) i j a b)).
Proof.
  intros Hp. induction l as [|y l IH]; intros Hl a1 a2; cbn [r_tloop].
  - exists a1, a2. split; [reflexivity|]. split; intros; cbn; ring.
  - rewrite (proj2 (Nat.eqb_neq _ _) (Hl y (or_introl eq_refl))). cbn [filter]. fold (small tol xo xv y). destruct (small tol xo xv y) eqn:E; cbn [negb]; [apply IH; intros z Hz; apply Hl; right; exact Hz|].
    unfold r_delta. destruct p as [|[|[|p]]]; [| | |lia]; cbn [rbind project_r norms fst snd];
      (match goal with |- context [r_tloop _ _ _ _ _ _ _ _ _ _ (Some ?c1, Some ?c2)] => destruct (IH (fun z Hz => Hl z (or_intror Hz)) c1 c2) as (b1 & b2 & -> & H1 & H2) end);
      (exists b1, b2; split; [reflexivity|]; split; [intros i a; rewrite H1|intros i j a b; rewrite H2]; cbn [Lsum]; unfold B1, B2, prj, prj1, pr, D1, D2, pdot; ring).
Qed.
Lemma r_tailor_ok tol xid xo xv p l t : (p <= 2)%nat -> (forall y, In y l -> t_id y <> xid) -> exists t', r_tailor tol xid xo xv l p true true t = Ret t' /\
  (forall i a, fst t' i a = fst t i a + Lsum (filter (fun y => negb (small tol xo xv y)) l) (fun y => B1 y (prj1 p (t_no y) (D1 xo xv y (fst t)) (pr y)) i a)) /\
  (forall i j a b, snd t' i j a b = snd t i j a b + Lsum (filter (fun y => negb (small tol xo xv y)) l) (fun y => B2 y (prj p (t_no y) (D2 xo xv y (snd t)) (pr y)) i j a b)).
Proof.
  intros Hp Hl. unfold M_Tailor.r_tailor. destruct (r_tloop_ok tol xid xo xv p l t Hp Hl (fun _ _ => 0) (fun _ _ _ _ => 0)) as (b1 & b2 & -> & H1 & H2). cbn [rbind fst snd norms].
  eexists. split; [reflexivity|]. cbn [fst snd]. split; intros; [rewrite H1|rewrite H2]; ring.
Qed.
Lemma kept tol xo xv l : (forall y, In y l -> overlaps tol xo xv y) -> filter (fun y => negb (small tol xo xv y)) l = l.
Proof.
  induction l as [|y l IH]; intros H; [reflexivity|]. cbn [filter]. rewrite (overlaps_small _ _ _ _ (H y (or_introl eq_refl))). cbn [negb]. f_equal. apply IH. intros z Hz. apply H. right. exact Hz.
Qed.

(** orthonormal columns: the orbitals of y lie in the space of x *)
Definition within (n m : nat) (r : mat) : Prop := forall i j, (i < m)%nat -> (j < m)%nat -> Sum n (fun k => r k i * r k j) = delta i j.
(** orthonormal rows: the orbitals of x lie in the space of y *)
Definition covers (n m : nat) (r : mat) : Prop := forall i j, (i < n)%nat -> (j < n)%nat -> Sum m (fun k => r i k * r j k) = delta i j.
Definition orthogonal (n m m' : nat) (r r' : mat) : Prop := forall i j, (i < m)%nat -> (j < m')%nat -> Sum n (fun k => r k i * r' k j) = 0.
(** T1 and T2 of x, seen in the orbitals of y *)
Definition seen1 (xo xv : nat) (y : tfrag) (t : mat) : mat := fun i a => Sum xo (fun k => Sum xv (fun c => t k c * t_ro y k i * t_rv y c a)).
Definition seen2 (xo xv : nat) (y : tfrag) (t : ten) : ten :=
  fun i j a b => Sum xo (fun k => Sum xo (fun l => Sum xv (fun c => Sum xv (fun d => t k l c d * t_ro y k i * t_ro y l j * t_rv y c a * t_rv y d b)))).
Lemma FB1 xo xv (y : tfrag) d : within xo (t_no y) (t_ro y) -> within xv (t_nv y) (t_rv y) -> forall i a, (i < t_no y)%nat -> (a < t_nv y)%nat -> seen1 xo xv y (B1 y d) i a = d i a.
Proof.
  intros Ho Hv i a Hi Ha. change (seen1 xo xv y (B1 y d) i a) with (trans1 xo xv (B1 y d) (t_ro y) (t_rv y) i a). unfold B1. rewrite trans1_trans1. apply trans1_id; try assumption; intros k Hk; [apply Ho|apply Hv]; assumption.
Qed.
Lemma FB2 xo xv (y : tfrag) d : within xo (t_no y) (t_ro y) -> within xv (t_nv y) (t_rv y) -> forall i j a b, (i < t_no y)%nat -> (j < t_no y)%nat -> (a < t_nv y)%nat -> (b < t_nv y)%nat -> seen2 xo xv y (B2 y d) i j a b = d i j a b.
Proof.
  intros Ho Hv i j a b Hi Hj Ha Hb. change (seen2 xo xv y (B2 y d) i j a b) with (trans2 xo xo xv xv (B2 y d) (t_ro y) (t_ro y) (t_rv y) (t_rv y) i j a b). unfold B2. rewrite trans2_trans2. apply trans2_id; try assumption; intros k Hk; first [apply Ho; assumption|apply Hv; assumption].
Qed.
Lemma FB1_0 xo xv (y z : tfrag) d : orthogonal xo (t_no z) (t_no y) (t_ro z) (t_ro y) \/ orthogonal xv (t_nv z) (t_nv y) (t_rv z) (t_rv y) ->
  forall i a, (i < t_no y)%nat -> (a < t_nv y)%nat -> seen1 xo xv y (B1 z d) i a = 0.
Proof.
  intros H i a Hi Ha. change (seen1 xo xv y (B1 z d) i a) with (trans1 xo xv (B1 z d) (t_ro y) (t_rv y) i a). unfold B1. rewrite trans1_trans1. destruct H as [H|H]; [apply trans1_u_0|apply trans1_v_0]; intros k Hk; apply H; assumption.
Qed.
Lemma FB2_0 xo xv (y z : tfrag) d : orthogonal xo (t_no z) (t_no y) (t_ro z) (t_ro y) \/ orthogonal xv (t_nv z) (t_nv y) (t_rv z) (t_rv y) ->
  forall i j a b, (i < t_no y)%nat -> (j < t_no y)%nat -> (a < t_nv y)%nat -> (b < t_nv y)%nat -> seen2 xo xv y (B2 z d) i j a b = 0.
Proof.
  intros H i j a b Hi Hj Ha Hb. change (seen2 xo xv y (B2 z d) i j a b) with (trans2 xo xo xv xv (B2 z d) (t_ro y) (t_ro y) (t_rv y) (t_rv y) i j a b). unfold B2. rewrite trans2_trans2, trans2_cur.
  destruct H as [H|H]; [apply trans1_u_0|apply trans1_v_0]; intros k Hk; apply H; assumption.
Qed.
Lemma seen1_sum xo xv (y : tfrag) {A} (l : list A) (t : mat) (f : A -> mat) i a : seen1 xo xv y (fun k c => t k c + Lsum l (fun z => f z k c)) i a = seen1 xo xv y t i a + Lsum l (fun z => seen1 xo xv y (f z) i a).
Proof.
  unfold seen1. rewrite Lsum_Sum, <- Sum_add. apply Sum_ext. intros k _. rewrite Lsum_Sum, <- Sum_add. apply Sum_ext. intros c _.
  transitivity (t k c * t_ro y k i * t_rv y c a + Lsum l (fun z => f z k c) * (t_ro y k i * t_rv y c a)); [ring|]. rewrite <- Lsum_mul_r. f_equal. apply Lsum_ext. intros. ring.
Qed.
Lemma seen2_sum xo xv (y : tfrag) {A} (l : list A) (t : ten) (f : A -> ten) i j a b : seen2 xo xv y (fun k k' c c' => t k k' c c' + Lsum l (fun z => f z k k' c c')) i j a b = seen2 xo xv y t i j a b + Lsum l (fun z => seen2 xo xv y (f z) i j a b).
Proof.
  unfold seen2. rewrite Lsum_Sum, <- Sum_add. apply Sum_ext. intros k _. rewrite Lsum_Sum, <- Sum_add. apply Sum_ext. intros k' _. rewrite Lsum_Sum, <- Sum_add. apply Sum_ext. intros c _. rewrite Lsum_Sum, <- Sum_add. apply Sum_ext. intros c' _.
  transitivity (t k k' c c' * t_ro y k i * t_ro y k' j * t_rv y c a * t_rv y c' b + Lsum l (fun z => f z k k' c c') * (t_ro y k i * t_ro y k' j * t_rv y c a * t_rv y c' b)); [ring|]. rewrite <- Lsum_mul_r. f_equal. apply Lsum_ext. intros. ring.
Qed.
Lemma seen1_ext xo xv (y : tfrag) t t' i a : (forall k c, t k c = t' k c) -> seen1 xo xv y t i a = seen1 xo xv y t' i a.
Proof. intros H. unfold seen1. apply Sum_ext. intros. apply Sum_ext. intros. rewrite H. reflexivity. Qed.
Lemma seen2_ext xo xv (y : tfrag) t t' i j a b : (forall k l c d, t k l c d = t' k l c d) -> seen2 xo xv y t i j a b = seen2 xo xv y t' i j a b.
Proof. intros H. unfold seen2. repeat (apply Sum_ext; intros). rewrite H. reflexivity. Qed.

(** different fragments have orthogonal occupied or orthogonal virtual orbitals *)
Definition apart (xo xv : nat) (l : list tfrag) : Prop := forall l1 y l2, l = l1 ++ y :: l2 -> forall z, In z (l1 ++ l2) ->
  orthogonal xo (t_no z) (t_no y) (t_ro z) (t_ro y) \/ orthogonal xv (t_nv z) (t_nv y) (t_rv z) (t_rv y).
(** what remains to be shown once the sum over the fragments is known *)
Lemma replaced_core xo xv l t1 t2 t1' t2' : (forall y, In y l -> within xo (t_no y) (t_ro y) /\ within xv (t_nv y) (t_rv y)) -> apart xo xv l ->
  (forall i a, t1' i a = t1 i a + Lsum l (fun y => B1 y (D1 xo xv y t1) i a)) -> (forall i j a b, t2' i j a b = t2 i j a b + Lsum l (fun y => B2 y (D2 xo xv y t2) i j a b)) ->
  (forall y, In y l -> forall i j a b, (i < t_no y)%nat -> (j < t_no y)%nat -> (a < t_nv y)%nat -> (b < t_nv y)%nat -> seen1 xo xv y t1' i a = t_t1 y i a /\ seen2 xo xv y t2' i j a b = t_t2 y i j a b) /\
  (forall u, (forall y, In y l -> forall i, (i < t_no y)%nat -> Sum xo (fun k => u k * t_ro y k i) = 0) ->
     (forall a, Sum xo (fun k => u k * t1' k a) = Sum xo (fun k => u k * t1 k a)) /\
     (forall j a b, Sum xo (fun k => u k * t2' k j a b) = Sum xo (fun k => u k * t2 k j a b)) /\ (forall i a b, Sum xo (fun k => u k * t2' i k a b) = Sum xo (fun k => u k * t2 i k a b))) /\
  (forall u, (forall y, In y l -> forall a, (a < t_nv y)%nat -> Sum xv (fun c => u c * t_rv y c a) = 0) ->
     (forall i, Sum xv (fun c => u c * t1' i c) = Sum xv (fun c => u c * t1 i c)) /\
     (forall i j b, Sum xv (fun c => u c * t2' i j c b) = Sum xv (fun c => u c * t2 i j c b)) /\ (forall i j a, Sum xv (fun c => u c * t2' i j a c) = Sum xv (fun c => u c * t2 i j a c))).
Proof.
  intros Hl Hap H1 H2. split; [|split].
  - intros y Hy i j a b Hi Hj Ha Hb. destruct (in_split y l Hy) as (l1 & l2 & El). destruct (Hl y Hy) as (Ho & Hv).
    split.
    + rewrite (seen1_ext _ _ _ _ _ i a H1), seen1_sum. rewrite El, Lsum_app. cbn [Lsum]. rewrite !(Lsum_0 _ (fun z => seen1 xo xv y (B1 z _) i a)).
      * rewrite FB1 by assumption. unfold D1. change (trans1 xo xv t1 (t_ro y) (t_rv y) i a) with (seen1 xo xv y t1 i a). ring.
      * intros z Hz. apply FB1_0; [|assumption|assumption]. apply (Hap l1 y l2 El). apply in_or_app. right. exact Hz.
      * intros z Hz. apply FB1_0; [|assumption|assumption]. apply (Hap l1 y l2 El). apply in_or_app. left. exact Hz.
    + rewrite (seen2_ext _ _ _ _ _ i j a b H2), seen2_sum. rewrite El, Lsum_app. cbn [Lsum]. rewrite !(Lsum_0 _ (fun z => seen2 xo xv y (B2 z _) i j a b)).
      * rewrite FB2 by assumption. unfold D2. change (trans2 xo xo xv xv t2 (t_ro y) (t_ro y) (t_rv y) (t_rv y) i j a b) with (seen2 xo xv y t2 i j a b). ring.
      * intros z Hz. apply FB2_0; [|assumption|assumption|assumption|assumption]. apply (Hap l1 y l2 El). apply in_or_app. right. exact Hz.
      * intros z Hz. apply FB2_0; [|assumption|assumption|assumption|assumption]. apply (Hap l1 y l2 El). apply in_or_app. left. exact Hz.
  - intros u Hu. split; [|split].
    + intros a. apply (contr_add xo u _ _ l _ (fun k => H1 k a)). intros z Hz. apply contr1. intros i Hi. apply (Hu z Hz i Hi).
    + intros j a b. apply (contr_add xo u _ _ l _ (fun k => H2 k j a b)). intros z Hz. apply contr2. intros i Hi. apply (Hu z Hz i Hi).
    + intros i a b. apply (contr_add xo u _ _ l _ (fun k => H2 i k a b)). intros z Hz. apply contr2. intros k Hi. apply (Hu z Hz k Hi).
  - intros u Hu. split; [|split].
    + intros i. apply (contr_add xv u _ _ l _ (fun k => H1 i k)). intros z Hz. apply contr1v. intros a Ha. apply (Hu z Hz a Ha).
    + intros i j b. apply (contr_add xv u _ _ l _ (fun k => H2 i j k b)). intros z Hz. apply contr2. intros a Ha. apply (Hu z Hz a Ha).
    + intros i j a. apply (contr_add xv u _ _ l _ (fun k => H2 i j a k)). intros z Hz. apply contr2. intros c Hc. apply (Hu z Hz c Hc).
Qed.

(** Without projection: in the space of every fragment the amplitudes are replaced by those of the fragment, and nothing else changes *)
Theorem C65_replaced tol xid xo xv l t :
  (forall y, In y l -> t_id y <> xid /\ overlaps tol xo xv y /\ within xo (t_no y) (t_ro y) /\ within xv (t_nv y) (t_rv y)) -> apart xo xv l ->
  exists t', r_tailor tol xid xo xv l 0 true true t = Ret t' /\
  (forall y, In y l -> forall i j a b, (i < t_no y)%nat -> (j < t_no y)%nat -> (a < t_nv y)%nat -> (b < t_nv y)%nat -> seen1 xo xv y (fst t') i a = t_t1 y i a /\ seen2 xo xv y (snd t') i j a b = t_t2 y i j a b) /\
  (forall u, (forall y, In y l -> forall i, (i < t_no y)%nat -> Sum xo (fun k => u k * t_ro y k i) = 0) ->
     (forall a, Sum xo (fun k => u k * fst t' k a) = Sum xo (fun k => u k * fst t k a)) /\
     (forall j a b, Sum xo (fun k => u k * snd t' k j a b) = Sum xo (fun k => u k * snd t k j a b)) /\ (forall i a b, Sum xo (fun k => u k * snd t' i k a b) = Sum xo (fun k => u k * snd t i k a b))) /\
  (forall u, (forall y, In y l -> forall a, (a < t_nv y)%nat -> Sum xv (fun c => u c * t_rv y c a) = 0) ->
     (forall i, Sum xv (fun c => u c * fst t' i c) = Sum xv (fun c => u c * fst t i c)) /\
     (forall i j b, Sum xv (fun c => u c * snd t' i j c b) = Sum xv (fun c => u c * snd t i j c b)) /\ (forall i j a, Sum xv (fun c => u c * snd t' i j a c) = Sum xv (fun c => u c * snd t i j a c))).
Proof.
  intros Hl Hap. destruct (r_tailor_ok tol xid xo xv 0 l t ltac:(lia) (fun y Hy => proj1 (Hl y Hy))) as (t' & E & H1 & H2). exists t'. split; [exact E|].
  rewrite kept in H1, H2 by (intros y Hy; apply (Hl y Hy)). apply (replaced_core xo xv l _ _ _ _ (fun y Hy => proj2 (proj2 (Hl y Hy))) Hap H1 H2).
Qed.

Lemma consistent_core xo xv p l l0 t1 t2 t1' t2' : (p <= 2)%nat -> (forall y, In y l -> In y l0) ->
  (forall y, In y l0 -> forall i j a b, (i < t_no y)%nat -> (j < t_no y)%nat -> (a < t_nv y)%nat -> (b < t_nv y)%nat -> t_t1 y i a = seen1 xo xv y t1 i a /\ t_t2 y i j a b = seen2 xo xv y t2 i j a b) ->
  (forall i a, t1' i a = t1 i a + Lsum l (fun y => B1 y (prj1 p (t_no y) (D1 xo xv y t1) (pr y)) i a)) -> (forall i j a b, t2' i j a b = t2 i j a b + Lsum l (fun y => B2 y (prj p (t_no y) (D2 xo xv y t2) (pr y)) i j a b)) ->
  forall i j a b, t1' i a = t1 i a /\ t2' i j a b = t2 i j a b.
Proof.
  intros Hp Hsub Hl H1 H2 i j a b.
  assert (Z1 : forall y, In y l0 -> forall i a, (i < t_no y)%nat -> (a < t_nv y)%nat -> D1 xo xv y t1 i a = 0).
  { intros y Hy k c Hk Hc. unfold D1. rewrite (proj1 (Hl y Hy k k c c Hk Hk Hc Hc)). unfold seen1, trans1. ring. }
  assert (Z2 : forall y, In y l0 -> forall i j a b, (i < t_no y)%nat -> (j < t_no y)%nat -> (a < t_nv y)%nat -> (b < t_nv y)%nat -> D2 xo xv y t2 i j a b = 0).
  { intros y Hy k k' c c' Hk Hk' Hc Hc'. unfold D2. rewrite (proj2 (Hl y Hy k k' c c' Hk Hk' Hc Hc')). unfold seen2, trans2. ring. }
  split; [rewrite H1|rewrite H2]; rewrite Lsum_0; try ring; intros y Hy; apply Hsub in Hy.
  - apply trans1_0. intros k c Hk Hc. destruct p; cbn [prj1]; [apply Z1; assumption|]. apply Sum_0. intros m Hm. rewrite Z1 by assumption. ring.
  - apply trans2_0. intros k k' c c' Hk Hk' Hc Hc'. destruct p as [|[|p]]; cbn [prj]; [apply Z2; assumption| |].
    + rewrite !Sum_0; [ring| |]; intros m Hm; rewrite Z2 by assumption; ring.
    + apply Sum_0. intros m Hm. apply Sum_0. intros m' Hm'. rewrite Z2 by assumption. ring.
Qed.
(** If the amplitudes already agree with those of all fragments nothing changes, whatever is projected and however the fragments overlap *)
Theorem C65_consistent tol xid xo xv p l t : (p <= 2)%nat ->
  (forall y, In y l -> t_id y <> xid /\ forall i j a b, (i < t_no y)%nat -> (j < t_no y)%nat -> (a < t_nv y)%nat -> (b < t_nv y)%nat -> t_t1 y i a = seen1 xo xv y (fst t) i a /\ t_t2 y i j a b = seen2 xo xv y (snd t) i j a b) ->
  exists t', r_tailor tol xid xo xv l p true true t = Ret t' /\ forall i j a b, fst t' i a = fst t i a /\ snd t' i j a b = snd t i j a b.
Proof.
  intros Hp Hl. destruct (r_tailor_ok tol xid xo xv p l t Hp (fun y Hy => proj1 (Hl y Hy))) as (t' & E & H1 & H2). exists t'. split; [exact E|].
  apply (consistent_core xo xv p _ l _ _ _ _ Hp (fun y Hy => proj1 (proj1 (filter_In _ _ _) Hy)) (fun y Hy => proj2 (Hl y Hy)) H1 H2).
Qed.
(** Applying it again changes nothing *)
Theorem C65_twice tol xid xo xv l t t' :
  (forall y, In y l -> t_id y <> xid /\ overlaps tol xo xv y /\ within xo (t_no y) (t_ro y) /\ within xv (t_nv y) (t_rv y)) -> apart xo xv l ->
  r_tailor tol xid xo xv l 0 true true t = Ret t' -> exists t'', r_tailor tol xid xo xv l 0 true true t' = Ret t'' /\ forall i j a b, fst t'' i a = fst t' i a /\ snd t'' i j a b = snd t' i j a b.
Proof.
  intros Hl Hap E. destruct (C65_replaced tol xid xo xv l t Hl Hap) as (t1 & E1 & H & _). rewrite E in E1. injection E1 as <-.
  apply C65_consistent; [lia|]. intros y Hy. split; [apply (Hl y Hy)|]. intros i j a b Hi Hj Ha Hb. destruct (H y Hy i j a b Hi Hj Ha Hb) as [-> ->]. split; reflexivity.
Qed.

(** overlap of the fragment orbitals of y: projector in the occupied orbitals of y, and in those of x *)
Definition proj_y (y : tfrag) : mat := fun i j => Sum (t_nf y) (fun z => t_f y z i * t_f y z j).
Definition proj_x (y : tfrag) : mat := fun i j => Sum (t_no y) (fun k => Sum (t_no y) (fun l => t_ro y i k * proj_y y k l * t_ro y j l)).
(** T1 and T2 of y with the first occupied index (both occupied indices) projected, in the orbitals of x *)
Definition share1 (y : tfrag) : mat := fun I A => Sum (t_no y) (fun i => Sum (t_no y) (fun k => Sum (t_nv y) (fun a => t_ro y I i * proj_y y i k * t_t1 y k a * t_rv y A a))).
Definition share2 (y : tfrag) : ten := fun I J A B => Sum (t_no y) (fun i => Sum (t_no y) (fun j => Sum (t_nv y) (fun a => Sum (t_nv y) (fun b =>
  Sum (t_no y) (fun k => t_ro y I i * proj_y y i k * t_t2 y k j a b) * t_ro y J j * t_rv y A a * t_rv y B b)))).
Definition share22 (y : tfrag) : ten := fun I J A B => Sum (t_no y) (fun i => Sum (t_no y) (fun j => Sum (t_nv y) (fun a => Sum (t_nv y) (fun b =>
  Sum (t_no y) (fun k => Sum (t_no y) (fun l => t_ro y I i * t_ro y J j * proj_y y i k * proj_y y j l * t_t2 y k l a b)) * t_rv y A a * t_rv y B b)))).
Lemma proj_x_eq (y : tfrag) k I : Sum (t_no y) (fun i => t_ro y k i * Sum (t_no y) (fun m => pr y m i * t_ro y I m)) = proj_x y I k.
Proof.
  unfold proj_x. rewrite Sum_swap. apply Sum_ext. intros i _. rewrite <- Sum_mul_l. apply Sum_ext. intros m _. unfold pr, gram, proj_y. ring.
Qed.
Lemma c1_eq xo xv (y : tfrag) t I A : covers xv (t_nv y) (t_rv y) -> (A < xv)%nat ->
  B1 y (pdot (t_no y) (pr y) (D1 xo xv y t)) I A = share1 y I A - Sum xo (fun J => proj_x y I J * t J A).
Proof.
  intros Hv HA. transitivity (B1 y (pdot (t_no y) (pr y) (t_t1 y)) I A - B1 y (pdot (t_no y) (pr y) (trans1 xo xv t (t_ro y) (t_rv y))) I A).
  - unfold B1. rewrite <- trans1_sub. apply trans1_ext; try reflexivity. intros i a _ _. unfold pdot, D1. rewrite <- Sum_sub. apply Sum_ext. intros. ring.
  - f_equal.
    + unfold B1, share1, trans1, pdot, tr. apply Sum_ext. intros i _. rewrite Sum_swap. apply Sum_ext. intros a _. rewrite <- !Sum_mul_r. apply Sum_ext. intros k _. unfold pr, gram, proj_y. ring.
    + unfold B1. rewrite trans1_pdot, trans1_trans1. unfold trans1, tr. apply Sum_ext. intros J _. rewrite proj_x_eq.
      etransitivity; [apply Sum_ext; intros c Hc; rewrite (Hv c A Hc HA); reflexivity|]. rewrite (Sum_delta_r xv A (fun c => t J c * proj_x y I J) HA). ring.
Qed.
Lemma c2_eq xo xv (y : tfrag) t I J A B : covers xo (t_no y) (t_ro y) -> covers xv (t_nv y) (t_rv y) -> (J < xo)%nat -> (A < xv)%nat -> (B < xv)%nat ->
  B2 y (fun i j a b => Sum (t_no y) (fun k => pr y i k * D2 xo xv y t k j a b)) I J A B = share2 y I J A B - Sum xo (fun K => proj_x y I K * t K J A B).
Proof.
  intros Ho Hv HJ HA HB. transitivity (B2 y (fun i j a b => Sum (t_no y) (fun k => pr y i k * t_t2 y k j a b)) I J A B - B2 y (fun i j a b => Sum (t_no y) (fun k => pr y i k * trans2 xo xo xv xv t (t_ro y) (t_ro y) (t_rv y) (t_rv y) k j a b)) I J A B).
  - unfold B2. rewrite <- trans2_sub. apply trans2_ext; try reflexivity. intros i j a b _ _ _ _. unfold D2. rewrite <- Sum_sub. apply Sum_ext. intros. ring.
  - f_equal.
    + unfold B2, share2, trans2, tr. apply Sum_ext. intros i _. apply Sum_ext. intros j _. apply Sum_ext. intros a _. apply Sum_ext. intros b _. f_equal. f_equal. f_equal. rewrite <- Sum_mul_r. apply Sum_ext. intros k _. unfold pr, gram, proj_y. ring.
    + unfold B2. rewrite trans2_p1, trans2_trans2.
      rewrite (trans2_ext xo xo xv xv t t _ (fun k x => proj_x y x k) _ (fun k x => delta k x) _ (fun k x => delta k x) _ (fun k x => delta k x)); try reflexivity; unfold tr.
      * rewrite trans2_cur. unfold trans1 at 1. apply Sum_ext. intros k Hk. etransitivity; [apply (Sum_delta_r xv A (fun c => trans1 xo xv (fun j b => t k j c b) (fun k x => delta k x) (fun k x => delta k x) J B * proj_x y I k) HA)|].
        cbv beta. rewrite trans1_id by (assumption || reflexivity). ring.
      * intros i _. apply proj_x_eq.
      * intros i Hi. apply Ho; assumption.
      * intros i Hi. apply Hv; assumption.
      * intros i Hi. apply Hv; assumption.
Qed.
Lemma c22_eq xo xv (y : tfrag) t I J A B : covers xv (t_nv y) (t_rv y) -> (A < xv)%nat -> (B < xv)%nat ->
  B2 y (fun i j a b => Sum (t_no y) (fun k => Sum (t_no y) (fun l => pr y i k * pr y j l * D2 xo xv y t k l a b))) I J A B =
  share22 y I J A B - Sum xo (fun K => Sum xo (fun L => proj_x y I K * proj_x y J L * t K L A B)).
Proof.
  intros Hv HA HB. transitivity (B2 y (fun i j a b => Sum (t_no y) (fun k => Sum (t_no y) (fun l => pr y i k * pr y j l * t_t2 y k l a b))) I J A B
    - B2 y (fun i j a b => Sum (t_no y) (fun k => Sum (t_no y) (fun l => pr y i k * pr y j l * trans2 xo xo xv xv t (t_ro y) (t_ro y) (t_rv y) (t_rv y) k l a b))) I J A B).
  - unfold B2. rewrite <- trans2_sub. apply trans2_ext; try reflexivity. intros i j a b _ _ _ _. unfold D2. rewrite <- Sum_sub. apply Sum_ext. intros. rewrite <- Sum_sub. apply Sum_ext. intros. ring.
  - f_equal.
    + unfold B2, share22, trans2, tr. apply Sum_ext. intros i _. apply Sum_ext. intros j _. apply Sum_ext. intros a _. apply Sum_ext. intros b _. f_equal. f_equal. rewrite <- !Sum_mul_r. apply Sum_ext. intros k _. rewrite <- !Sum_mul_r. apply Sum_ext. intros l _. unfold pr, gram, proj_y. ring.
    + unfold B2. rewrite trans2_p12, trans2_trans2. unfold trans2. apply Sum_ext. intros k Hk. apply Sum_ext. intros l Hl. unfold tr. rewrite !proj_x_eq.
      etransitivity; [apply Sum_ext; intros c Hc; apply Sum_ext; intros d Hd; rewrite (Hv c A Hc HA), (Hv d B Hd HB); reflexivity|].
      etransitivity; [apply Sum_ext; intros c Hc; rewrite (Sum_delta_r xv B (fun d => t k l c d * proj_x y I k * proj_x y J l * delta c A) HB); reflexivity|].
      rewrite (Sum_delta_r xv A (fun c => t k l c B * proj_x y I k * proj_x y J l) HA). ring.
Qed.
Lemma assembled_core xo xv l t1 t2 t1' t2' : half + half = 1 -> (forall i j a b, t2 i j a b = t2 j i b a) -> (forall y, In y l -> covers xo (t_no y) (t_ro y) /\ covers xv (t_nv y) (t_rv y)) ->
  (forall i j, (i < xo)%nat -> (j < xo)%nat -> Lsum l (fun y => proj_x y i j) = delta i j) ->
  (forall i a, t1' i a = t1 i a + Lsum l (fun y => B1 y (prj1 1 (t_no y) (D1 xo xv y t1) (pr y)) i a)) -> (forall i j a b, t2' i j a b = t2 i j a b + Lsum l (fun y => B2 y (prj 1 (t_no y) (D2 xo xv y t2) (pr y)) i j a b)) ->
  forall I J A B, (I < xo)%nat -> (J < xo)%nat -> (A < xv)%nat -> (B < xv)%nat ->
    t1' I A = Lsum l (fun y => share1 y I A) /\ t2' I J A B = half * (Lsum l (fun y => share2 y I J A B) + Lsum l (fun y => share2 y J I B A)).
Proof.
  intros Hh Hs Hl HP H1 H2. cbn [prj1 prj] in H1, H2. intros I J A B HI HJ HA HB. split.
  - rewrite H1. rewrite (Lsum_ext l _ (fun y => share1 y I A - Sum xo (fun J => proj_x y I J * t1 J A))) by (intros y Hy; destruct (Hl y Hy) as (_ & Hv); apply c1_eq; assumption).
    rewrite Lsum_sub, Lsum_Sum. assert (X : Sum xo (fun j => Lsum l (fun y => proj_x y I j * t1 j A)) = t1 I A).
    { etransitivity; [apply Sum_ext; intros j Hj; rewrite Lsum_mul_r, (HP I j HI Hj); reflexivity|]. apply (Sum_delta_l xo I (fun j => t1 j A)). exact HI. }
    rewrite X. ring.
  - rewrite H2. set (T := t2) in *.
    rewrite (Lsum_ext l _ (fun y => half * ((share2 y I J A B - Sum xo (fun K => proj_x y I K * T K J A B)) + (share2 y J I B A - Sum xo (fun K => proj_x y J K * T K I B A))))).
    2:{ intros y Hy. destruct (Hl y Hy) as (Ho & Hv). rewrite <- (c2_eq xo xv y T I J A B) by assumption. rewrite <- (c2_eq xo xv y T J I B A) by assumption. unfold B2 at 1.
        rewrite trans2_scale, trans2_add. f_equal. f_equal. rewrite (trans2_flip _ _ _ _ (fun j i b a => Sum (t_no y) (fun k => pr y j k * D2 xo xv y T k i b a))). reflexivity. }
    rewrite Lsum_mul_l, Lsum_add, !Lsum_sub, !Lsum_Sum.
    assert (X : forall I J A B, (I < xo)%nat -> Sum xo (fun j => Lsum l (fun y => proj_x y I j * T j J A B)) = T I J A B).
    { intros i j a b Hi. etransitivity; [apply Sum_ext; intros m Hm; rewrite Lsum_mul_r, (HP i m Hi Hm); reflexivity|]. apply (Sum_delta_l xo i (fun m => T m j a b)). exact Hi. }
    rewrite !X by assumption. rewrite (Hs J I B A). set (S1 := Lsum l (fun y => share2 y I J A B)). set (S2 := Lsum l (fun y => share2 y J I B A)).
    transitivity (T I J A B * (1 - (half + half)) + half * (S1 + S2)); [ring|rewrite Hh; ring].
Qed.
(** With one projector, fragments whose projectors add up to one, and clusters that contain the cluster of x: the amplitudes are those assembled from the fragments, whatever they
    were before *)
Theorem C65_assembled tol xid xo xv l t : half + half = 1 -> (forall i j a b, snd t i j a b = snd t j i b a) ->
  (forall y, In y l -> t_id y <> xid /\ overlaps tol xo xv y /\ covers xo (t_no y) (t_ro y) /\ covers xv (t_nv y) (t_rv y)) ->
  (forall i j, (i < xo)%nat -> (j < xo)%nat -> Lsum l (fun y => proj_x y i j) = delta i j) ->
  exists t', r_tailor tol xid xo xv l 1 true true t = Ret t' /\
  forall I J A B, (I < xo)%nat -> (J < xo)%nat -> (A < xv)%nat -> (B < xv)%nat ->
    fst t' I A = Lsum l (fun y => share1 y I A) /\ snd t' I J A B = half * (Lsum l (fun y => share2 y I J A B) + Lsum l (fun y => share2 y J I B A)).
Proof.
  intros Hh Hs Hl HP. destruct (r_tailor_ok tol xid xo xv 1 l t ltac:(lia) (fun y Hy => proj1 (Hl y Hy))) as (t' & E & H1 & H2). exists t'. split; [exact E|].
  rewrite kept in H1, H2 by (intros y Hy; apply (Hl y Hy)). apply (assembled_core xo xv l _ _ _ _ Hh Hs (fun y Hy => proj2 (proj2 (Hl y Hy))) HP H1 H2).
Qed.
(** With two projectors: only the parts with both occupied indices in the same fragment are replaced *)
Theorem C65_both_projected tol xid xo xv l t :
  (forall y, In y l -> t_id y <> xid /\ overlaps tol xo xv y /\ covers xv (t_nv y) (t_rv y)) ->
  exists t', r_tailor tol xid xo xv l 2 true true t = Ret t' /\ forall I J A B, (A < xv)%nat -> (B < xv)%nat ->
    fst t' I A = fst t I A + Lsum l (fun y => share1 y I A - Sum xo (fun K => proj_x y I K * fst t K A)) /\
    snd t' I J A B = snd t I J A B + Lsum l (fun y => share22 y I J A B - Sum xo (fun K => Sum xo (fun L => proj_x y I K * proj_x y J L * snd t K L A B))).
Proof.
  intros Hl. destruct (r_tailor_ok tol xid xo xv 2 l t ltac:(lia) (fun y Hy => proj1 (Hl y Hy))) as (t' & E & H1 & H2). exists t'. split; [exact E|].
  rewrite kept in H1, H2 by (intros y Hy; apply (Hl y Hy)). cbn [prj1 prj] in H1, H2. intros I J A B HA HB. split.
  - rewrite H1. f_equal. apply Lsum_ext. intros y Hy. apply c1_eq; [apply (Hl y Hy)|exact HA].
  - rewrite H2. f_equal. apply Lsum_ext. intros y Hy. apply c22_eq; [apply (Hl y Hy)|exact HA|exact HB].
Qed.

(** T2 keeps the symmetry between the two electrons *)
Theorem C65_pair_symmetry tol xid xo xv p l t t' : (p <= 2)%nat -> (forall y, In y l -> t_id y <> xid) -> (forall i j a b, snd t i j a b = snd t j i b a) ->
  (forall y, In y l -> forall i j a b, t_t2 y i j a b = t_t2 y j i b a) -> r_tailor tol xid xo xv l p true true t = Ret t' -> forall i j a b, snd t' i j a b = snd t' j i b a.
Proof.
  intros Hp Hl Hs Hy E i j a b. destruct (r_tailor_ok tol xid xo xv p l t Hp Hl) as (t1 & E1 & _ & H2). rewrite E in E1. injection E1 as <-. rewrite !H2, (Hs i j a b). f_equal.
  apply Lsum_ext. intros y Hin. apply filter_In in Hin. destruct Hin as [Hin _]. unfold B2.
  assert (DS : forall i j a b, D2 xo xv y (snd t) i j a b = D2 xo xv y (snd t) j i b a).
  { intros. unfold D2. f_equal; [apply Hy; exact Hin|]. rewrite <- trans2_flip. apply trans2_ext; try reflexivity. intros. apply Hs. }
  rewrite <- trans2_flip. apply trans2_ext; try reflexivity. intros k k' c c' _ _ _ _. destruct p as [|[|[|p]]]; [| | |lia]; cbn [prj].
  - apply DS.
  - f_equal. ring.
  - rewrite Sum_swap. apply Sum_ext. intros m _. apply Sum_ext. intros m' _. first [rewrite (DS m' m c c')|rewrite (DS m' m c' c)]; ring.
Qed.
(** A fragment whose occupied or virtual orbitals do not overlap with those of the cluster at all makes no difference, whatever the threshold *)
Theorem C65_remote tol xid xo xv p l1 y l2 t : (p <= 2)%nat -> (forall z, In z (l1 ++ y :: l2) -> t_id z <> xid) ->
  (forall i j, (i < xo)%nat -> (j < t_no y)%nat -> t_ro y i j = 0) \/ (forall i j, (i < xv)%nat -> (j < t_nv y)%nat -> t_rv y i j = 0) ->
  exists t' t'', r_tailor tol xid xo xv (l1 ++ y :: l2) p true true t = Ret t' /\ r_tailor tol xid xo xv (l1 ++ l2) p true true t = Ret t'' /\
  forall i j a b, (i < xo)%nat -> (j < xo)%nat -> (a < xv)%nat -> (b < xv)%nat -> fst t' i a = fst t'' i a /\ snd t' i j a b = snd t'' i j a b.
Proof.
  intros Hp Hl H0. destruct (r_tailor_ok tol xid xo xv p (l1 ++ y :: l2) t Hp Hl) as (t1 & E1 & H1 & H2).
  destruct (r_tailor_ok tol xid xo xv p (l1 ++ l2) t Hp) as (t2 & E2 & G1 & G2). { intros z Hz. apply Hl. apply in_app_or in Hz. apply in_or_app. destruct Hz; [left|right; right]; assumption. }
  exists t1, t2. split; [exact E1|]. split; [exact E2|]. intros i j a b Hi Hj Ha Hb. rewrite H1, G1, H2, G2, !filter_app, !Lsum_app. cbn [filter]. destruct (negb (small tol xo xv y)); cbn [Lsum]; [|split; reflexivity].
  assert (Z1 : forall d, B1 y d i a = 0). { intros d. unfold B1. destruct H0 as [H|H]; [apply trans1_u_0|apply trans1_v_0]; intros k Hk; unfold tr; apply H; assumption. }
  assert (Z2 : forall d, B2 y d i j a b = 0). { intros d. unfold B2. rewrite trans2_cur. destruct H0 as [H|H]; [apply trans1_u_0|apply trans1_v_0]; intros k Hk; unfold tr; apply H; assumption. }
  rewrite Z1, Z2. split; ring.
Qed.
(** A fragment is left out if all overlaps with its occupied orbitals, or all with its virtual orbitals, are below the threshold: the result is the same as without it *)
Lemma maxn_lt tol n (f : nat -> K) : lt 0 tol -> (forall i, (i < n)%nat -> lt (f i) tol) -> lt (maxn n f) tol.
Proof. intros H0. induction n as [|n IH]; intros H; cbn [maxn]; [exact H0|]. unfold max2. destruct (ltb _ _); [apply H; lia|]. apply IH. intros. apply H. lia. Qed.
Lemma absmax_lt tol n m (r : mat) : lt 0 tol -> (forall i j, (i < n)%nat -> (j < m)%nat -> lt (absK (r i j)) tol) -> lt (absmax n m r) tol.
Proof. intros H0 H. unfold absmax. apply maxn_lt; [exact H0|]. intros i Hi. apply maxn_lt; [exact H0|]. intros j Hj. apply H; assumption. Qed.
Lemma min2_lt tol (x y : K) : lt x tol \/ lt y tol -> lt (min2 x y) tol.
Proof.
  unfold min2. destruct (ltb y x) eqn:E; intros [H|H]; try assumption.
  - apply (lt_tr y x tol E H).
  - destruct (ltb_total K x y) as [L|[L|L]]; [apply (lt_tr x y tol L H)|rewrite L; exact H|rewrite L in E; discriminate E].
Qed.
Theorem C65_threshold tol xid xo xv p f1 f2 l1 y l2 t : lt 0 tol -> t_id y <> xid ->
  (forall i j, (i < xo)%nat -> (j < t_no y)%nat -> lt (absK (t_ro y i j)) tol) \/ (forall i j, (i < xv)%nat -> (j < t_nv y)%nat -> lt (absK (t_rv y i j)) tol) ->
  r_tailor tol xid xo xv (l1 ++ y :: l2) p f1 f2 t = r_tailor tol xid xo xv (l1 ++ l2) p f1 f2 t.
Proof.
  intros H0 Hy H. assert (S : ltb (min2 (absmax xo (t_no y) (t_ro y)) (absmax xv (t_nv y) (t_rv y))) tol = true) by (apply min2_lt; destruct H as [H|H]; [left|right]; apply absmax_lt; assumption).
  unfold M_Tailor.r_tailor. generalize (if f1 then Some (fun _ _ : nat => 0 : K) else None, if f2 then Some (fun _ _ _ _ : nat => 0 : K) else None) as acc. intros acc. f_equal. revert acc.
  induction l1 as [|z l1 IH]; intros acc; cbn [app M_Tailor.r_tloop].
  - rewrite (proj2 (Nat.eqb_neq _ _) Hy), S. reflexivity.
  - destruct (Nat.eqb (t_id z) xid); [reflexivity|]. destruct (ltb (min2 (absmax xo (t_no z) (t_ro z)) (absmax xv (t_nv z) (t_rv z))) tol); [apply IH|]. destruct (M_Tailor.r_delta half xo xv p f1 f2 z t) as [d| | |]; cbn [rbind]; try reflexivity. destruct (norms (fst d) (snd d)); cbn [rbind]; try reflexivity. apply IH.
Qed.
(** the same for unrestricted spin symmetry, where the overlaps of both spins have to be below the threshold *)
Theorem C65_threshold_unrestricted tol xid xo xv p f1 f2 l1 y l2 t : lt 0 tol -> v_id y <> xid ->
  ((forall i j, (i < fst xo)%nat -> (j < fst (v_no y))%nat -> lt (absK (fst (v_ro y) i j)) tol) /\ (forall i j, (i < snd xo)%nat -> (j < snd (v_no y))%nat -> lt (absK (snd (v_ro y) i j)) tol)) \/
  ((forall i j, (i < fst xv)%nat -> (j < fst (v_nv y))%nat -> lt (absK (fst (v_rv y) i j)) tol) /\ (forall i j, (i < snd xv)%nat -> (j < snd (v_nv y))%nat -> lt (absK (snd (v_rv y) i j)) tol)) ->
  M_Tailor.u_tailor half tol xid xo xv (l1 ++ y :: l2) p f1 f2 t = M_Tailor.u_tailor half tol xid xo xv (l1 ++ l2) p f1 f2 t.
Proof.
  intros H0 Hy H. assert (M : forall a b : K, lt a tol -> lt b tol -> lt (max2 a b) tol) by (intros a b Ha Hb; unfold max2; destruct (ltb a b); assumption).
  assert (S : u_small tol xo xv y = true) by (apply min2_lt; destruct H as [[H H']|[H H']]; [left|right]; apply M; apply absmax_lt; assumption).
  unfold M_Tailor.u_tailor. generalize (if f1 then Some ((fun _ _ : nat => 0 : K), (fun _ _ : nat => 0 : K)) else None, if f2 then Some ((fun _ _ _ _ : nat => 0 : K), (fun _ _ _ _ : nat => 0 : K), (fun _ _ _ _ : nat => 0 : K)) else None) as acc. intros acc. f_equal. revert acc.
  induction l1 as [|z l1 IH]; intros acc; cbn [app M_Tailor.u_tloop].
  - rewrite (proj2 (Nat.eqb_neq _ _) Hy), S. reflexivity.
  - destruct (Nat.eqb (v_id z) xid); [reflexivity|]. destruct (u_small tol xo xv z); [apply IH|]. destruct (M_Tailor.u_delta half xo xv p f1 f2 z t) as [d| | |]; cbn [rbind]; try reflexivity. destruct (norms (fst d) (snd d)); cbn [rbind]; try reflexivity. apply IH.
Qed.
(** Tailored CCSD is tailoring with one fragment, without projection *)
Theorem C65_cas tol xid xo xv (y : tfrag) t : t_id y <> xid -> overlaps tol xo xv y -> exists t', r_tailor tol xid xo xv [y] 0 true true t = Ret t' /\
  forall i j a b, let c := tcc_tailor xo xv (t_no y) (t_nv y) (t_ro y) (t_rv y) (t_t1 y) (t_t2 y) t in fst c i a = fst t' i a /\ snd c i j a b = snd t' i j a b.
Proof.
  intros Hid Ho. destruct (r_tailor_ok tol xid xo xv 0 [y] t ltac:(lia)) as (t' & E & H1 & H2); [intros z [<-|[]]; exact Hid|]. exists t'. split; [exact E|].
  rewrite kept in H1, H2 by (intros z [<-|[]]; exact Ho). intros i j a b. cbv zeta. rewrite H1, H2. cbn [Lsum prj prj1]. unfold tcc_tailor, B1, B2, D1, D2, trans1, trans2, tr. cbn [fst snd]. split; ring.
Qed.

(** *** What does not work *)
Lemma r_tloop_bad tol xid xo xv p f1 f2 l t : forall a, (forall y, In y l -> t_id y <> xid) -> (exists y, In y l /\ overlaps tol xo xv y) -> (2 < p)%nat -> f2 = true -> r_tloop half tol xid xo xv p f1 f2 l t a = ValueErr.
Proof.
  induction l as [|y l IH]; intros a Hl (z & Hz & Ho) Hp Hf; [destruct Hz|]. cbn [r_tloop]. rewrite (proj2 (Nat.eqb_neq _ _) (Hl y (or_introl eq_refl))). fold (small tol xo xv y).
  destruct (small tol xo xv y) eqn:E.
  - apply IH; try assumption; [intros w Hw; apply Hl; right; exact Hw|]. destruct Hz as [<-|Hz]; [rewrite overlaps_small in E by exact Ho; discriminate E|]. exists z. split; assumption.
  - subst f2. unfold r_delta. destruct p as [|[|[|p]]]; try lia. reflexivity.
Qed.
(** Finding: project=3 is documented ("Only the first occupied indices is projected to each other fragment") but raises ValueError as soon as one fragment overlaps; that behaviour is
    what project=1 does *)
Theorem C65_level3_refuted tol xid xo xv p l t : (2 < p)%nat -> (forall y, In y l -> t_id y <> xid) -> (exists y, In y l /\ overlaps tol xo xv y) -> r_tailor tol xid xo xv l p true true t = ValueErr.
Proof. intros Hp Hl Ho. unfold M_Tailor.r_tailor. rewrite r_tloop_bad by (assumption || reflexivity). reflexivity. Qed.
(** Finding: with tailor_t1=False or tailor_t2=False no call returns: the norms of both changes are always computed for the log *)
Theorem C65_one_kind_refuted tol xid xo xv l p f1 f2 t t' : f1 && f2 = false -> r_tailor tol xid xo xv l p f1 f2 t <> Ret t'.
Proof.
  intros Hf. unfold M_Tailor.r_tailor.
  assert (L : forall l a d, r_tloop half tol xid xo xv p f1 f2 l t a = Ret d -> d = a).
  { clear l. induction l as [|y l IH]; intros a d H; cbn [r_tloop] in H; [congruence|]. destruct (Nat.eqb (t_id y) xid); [discriminate H|].
    destruct (ltb _ _); [apply IH; exact H|]. unfold r_delta in H. destruct f2.
    - rewrite andb_true_r in Hf. subst f1. destruct p as [|[|[|p]]]; discriminate H.
    - destruct f1; discriminate H. }
  destruct (r_tloop half tol xid xo xv p f1 f2 l t _) as [d| | |] eqn:E; try discriminate. apply L in E. subst d. cbn [rbind fst snd]. destruct f1, f2; discriminate.
Qed.

(** ** Unrestricted *)
Notation mat2 := (mat * mat)%type. Notation ten3 := (ten * ten * ten)%type. Notation utfrag := (@utfrag K). Notation u_tailor := (u_tailor half).
Definition alpha (y : utfrag) : tfrag := Build_tfrag (v_id y) (fst (v_no y)) (fst (v_nv y)) (fst (v_nf y)) (fst (v_ro y)) (fst (v_rv y)) (fst (v_f y)) (fst (v_t1 y)) (fst (fst (v_t2 y))).
Definition beta (y : utfrag) : tfrag := Build_tfrag (v_id y) (snd (v_no y)) (snd (v_nv y)) (snd (v_nf y)) (snd (v_ro y)) (snd (v_rv y)) (snd (v_f y)) (snd (v_t1 y)) (snd (v_t2 y)).
Definition prjab (p na nb : nat) (t : ten) (Pa Pb : mat) : ten :=
  match p with
  | O => t
  | 1 => fun i j a b => half * (Sum na (fun k => Pa i k * t k j a b) + Sum nb (fun k => Pb j k * t i k a b))
  | _ => fun i j a b => Sum na (fun k => Sum nb (fun l => Pa i k * Pb j l * t k l a b))
  end.
Definition Dab (xo xv : nat * nat) (y : utfrag) (t : ten) : ten := fun i j a b =>
  snd (fst (v_t2 y)) i j a b - trans2 (fst xo) (snd xo) (fst xv) (snd xv) t (fst (v_ro y)) (snd (v_ro y)) (fst (v_rv y)) (snd (v_rv y)) i j a b.
Definition Bab (y : utfrag) (d : ten) : ten := trans2 (fst (v_no y)) (snd (v_no y)) (fst (v_nv y)) (snd (v_nv y)) d (tr (fst (v_ro y))) (tr (snd (v_ro y))) (tr (fst (v_rv y))) (tr (snd (v_rv y))).
Definition keep (tol : K) (xo xv : nat * nat) (l : list utfrag) := filter (fun y => negb (u_small tol xo xv y)) l.
(** the five changes *)
Definition ua1 (xo xv : nat * nat) p (t : mat) (l : list utfrag) : mat := fun i a => Lsum (map alpha l) (fun y => B1 y (prj1 p (t_no y) (D1 (fst xo) (fst xv) y t) (pr y)) i a).
Definition ub1 (xo xv : nat * nat) p (t : mat) (l : list utfrag) : mat := fun i a => Lsum (map beta l) (fun y => B1 y (prj1 p (t_no y) (D1 (snd xo) (snd xv) y t) (pr y)) i a).
Definition ua2 (xo xv : nat * nat) p (t : ten) (l : list utfrag) : ten := fun i j a b => Lsum (map alpha l) (fun y => B2 y (prj p (t_no y) (D2 (fst xo) (fst xv) y t) (pr y)) i j a b).
Definition ub2 (xo xv : nat * nat) p (t : ten) (l : list utfrag) : ten := fun i j a b => Lsum (map beta l) (fun y => B2 y (prj p (t_no y) (D2 (snd xo) (snd xv) y t) (pr y)) i j a b).
Definition uab (xo xv : nat * nat) p (t : ten) (l : list utfrag) : ten := fun i j a b => Lsum l (fun y => Bab y (prjab p (fst (v_no y)) (snd (v_no y)) (Dab xo xv y t) (pr (alpha y)) (pr (beta y))) i j a b).
Definition plus5 (t : mat2 * ten3) (xo xv : nat * nat) p (l : list utfrag) (a1 : mat2) (a2 : ten3) (b1 : mat2) (b2 : ten3) : Prop :=
  (forall i a, fst b1 i a = fst a1 i a + ua1 xo xv p (fst (fst t)) l i a) /\ (forall i a, snd b1 i a = snd a1 i a + ub1 xo xv p (snd (fst t)) l i a) /\
  (forall i j a b, fst (fst b2) i j a b = fst (fst a2) i j a b + ua2 xo xv p (fst (fst (snd t))) l i j a b) /\ (forall i j a b, snd (fst b2) i j a b = snd (fst a2) i j a b + uab xo xv p (snd (fst (snd t))) l i j a b) /\
  (forall i j a b, snd b2 i j a b = snd a2 i j a b + ub2 xo xv p (snd (snd t)) l i j a b).
Lemma u_tloop_ok tol xid xo xv p l t : (p <= 2)%nat -> (forall y, In y l -> v_id y <> xid) -> forall a1 a2, exists b1 b2,
  u_tloop half tol xid xo xv p true true l t (Some a1, Some a2) = Ret (Some b1, Some b2) /\ plus5 t xo xv p (keep tol xo xv l) a1 a2 b1 b2.
Proof.
  intros Hp. destruct t as [[ta tb] [[taa tab] tbb]], xo as [xoa xob], xv as [xva xvb]. induction l as [|y l IH]; intros Hl a1 a2; cbn [u_tloop].
  - exists a1, a2. split; [reflexivity|]. unfold plus5, ua1, ub1, ua2, ub2, uab. cbn [keep filter map Lsum]. split; [|split; [|split; [|split]]]; intros; ring.
  - rewrite (proj2 (Nat.eqb_neq _ _) (Hl y (or_introl eq_refl))). unfold keep. cbn [filter]. destruct (u_small tol (xoa, xob) (xva, xvb) y) eqn:E; cbn [negb]; [apply IH; intros z Hz; apply Hl; right; exact Hz|].
    destruct y as [id [noa nob] [nva nvb] [nfa nfb] [roa rob] [rva rvb] [fa fb] [y1a y1b] [[yaa yab] ybb]].
    unfold u_delta. cbn [v_id v_no v_nv v_nf v_ro v_rv v_f v_t1 v_t2 fst snd]. destruct p as [|[|[|p]]]; [| | |lia]; cbn [rbind project_u project_r norms fst snd];
      (match goal with |- context [u_tloop _ _ _ _ _ _ _ _ _ _ (Some ?c1, Some ?c2)] => destruct (IH (fun z Hz => Hl z (or_intror Hz)) c1 c2) as (b1 & b2 & -> & H1 & H2 & H3 & H4 & H5) end);
      (exists b1, b2; split; [reflexivity|]; unfold plus5; fold (keep tol (xoa, xob) (xva, xvb) l); cbn [fst snd];
       split; [|split; [|split; [|split]]]; intros; [rewrite H1|rewrite H2|rewrite H3|rewrite H4|rewrite H5]; unfold u_back1, u_back2, ua1, ub1, ua2, ub2, uab; cbn [v_id v_no v_nv v_nf v_ro v_rv v_f v_t1 v_t2 fst snd map Lsum];
       unfold B1, B2, Bab, prj, prj1, prjab, pr, D1, D2, Dab, pdot; cbn [v_id v_no v_nv v_nf v_ro v_rv v_f v_t1 v_t2 alpha beta t_id t_no t_nv t_nf t_ro t_rv t_f t_t1 t_t2 fst snd]; ring).
Qed.
Lemma u_tailor_ok tol xid xo xv p l t : (p <= 2)%nat -> (forall y, In y l -> v_id y <> xid) -> exists t', u_tailor tol xid xo xv l p true true t = Ret t' /\ plus5 t xo xv p (keep tol xo xv l) (fst t) (snd t) (fst t') (snd t').
Proof.
  intros Hp Hl. unfold M_Tailor.u_tailor. destruct (u_tloop_ok tol xid xo xv p l t Hp Hl ((fun _ _ => 0), (fun _ _ => 0)) ((fun _ _ _ _ => 0), (fun _ _ _ _ => 0), (fun _ _ _ _ => 0))) as (b1 & b2 & -> & H1 & H2 & H3 & H4 & H5).
  cbn [rbind fst snd norms]. eexists. split; [reflexivity|]. unfold plus5. cbn [fst snd]. cbn [fst snd] in H1, H2, H3, H4, H5.
  split; [|split; [|split; [|split]]]; intros; [rewrite H1|rewrite H2|rewrite H3|rewrite H4|rewrite H5]; ring.
Qed.
Definition overlaps_u (tol : K) (xo xv : nat * nat) (y : utfrag) : Prop :=
  ((exists i j, (i < fst xo)%nat /\ (j < fst (v_no y))%nat /\ le tol (absK (fst (v_ro y) i j))) \/ (exists i j, (i < snd xo)%nat /\ (j < snd (v_no y))%nat /\ le tol (absK (snd (v_ro y) i j)))) /\
  ((exists i j, (i < fst xv)%nat /\ (j < fst (v_nv y))%nat /\ le tol (absK (fst (v_rv y) i j))) \/ (exists i j, (i < snd xv)%nat /\ (j < snd (v_nv y))%nat /\ le tol (absK (snd (v_rv y) i j)))).
Lemma keep_all tol xo xv l : (forall y, In y l -> overlaps_u tol xo xv y) -> keep tol xo xv l = l.
Proof.
  induction l as [|y l IH]; intros H; [reflexivity|]. unfold keep. cbn [filter]. fold (keep tol xo xv l).
  assert (E : u_small tol xo xv y = false).
  { destruct (H y (or_introl eq_refl)) as [Ho Hv]. apply min2_ge.
    - destruct Ho as [(i & j & Hi & Hj & G)|(i & j & Hi & Hj & G)]; (eapply le_tr; [exact G|]); (eapply le_tr; [apply absmax_ge; eassumption|]); [apply max2_l|apply max2_r].
    - destruct Hv as [(i & j & Hi & Hj & G)|(i & j & Hi & Hj & G)]; (eapply le_tr; [exact G|]); (eapply le_tr; [apply absmax_ge; eassumption|]); [apply max2_l|apply max2_r]. }
  rewrite E. cbn [negb]. f_equal. apply IH. intros z Hz. apply H. right. exact Hz.
Qed.
Definition seen_ab (xo xv : nat * nat) (y : utfrag) (t : ten) : ten :=
  fun i j a b => Sum (fst xo) (fun k => Sum (snd xo) (fun l => Sum (fst xv) (fun c => Sum (snd xv) (fun d => t k l c d * fst (v_ro y) k i * snd (v_ro y) l j * fst (v_rv y) c a * snd (v_rv y) d b)))).
Definition within_u (xo xv : nat * nat) (y : utfrag) : Prop :=
  (within (fst xo) (fst (v_no y)) (fst (v_ro y)) /\ within (fst xv) (fst (v_nv y)) (fst (v_rv y))) /\ (within (snd xo) (snd (v_no y)) (snd (v_ro y)) /\ within (snd xv) (snd (v_nv y)) (snd (v_rv y))).
Lemma seen_ab_sum xo xv (y : utfrag) {A} (l : list A) (t : ten) (f : A -> ten) i j a b : seen_ab xo xv y (fun k k' c c' => t k k' c c' + Lsum l (fun z => f z k k' c c')) i j a b = seen_ab xo xv y t i j a b + Lsum l (fun z => seen_ab xo xv y (f z) i j a b).
Proof.
  unfold seen_ab. rewrite Lsum_Sum, <- Sum_add. apply Sum_ext. intros k _. rewrite Lsum_Sum, <- Sum_add. apply Sum_ext. intros k' _. rewrite Lsum_Sum, <- Sum_add. apply Sum_ext. intros c _. rewrite Lsum_Sum, <- Sum_add. apply Sum_ext. intros c' _.
  transitivity (t k k' c c' * fst (v_ro y) k i * snd (v_ro y) k' j * fst (v_rv y) c a * snd (v_rv y) c' b + Lsum l (fun z => f z k k' c c') * (fst (v_ro y) k i * snd (v_ro y) k' j * fst (v_rv y) c a * snd (v_rv y) c' b)); [ring|]. rewrite <- Lsum_mul_r. f_equal. apply Lsum_ext. intros. ring.
Qed.
(** Replacement without projection, unrestricted.  For alpha and beta alone as in [C65_replaced]; for opposite spins in the same way *)
Theorem C65_replaced_unrestricted tol xid xo xv l t :
  (forall y, In y l -> v_id y <> xid /\ overlaps_u tol xo xv y /\ within_u xo xv y) -> apart (fst xo) (fst xv) (map alpha l) -> apart (snd xo) (snd xv) (map beta l) ->
  exists t', u_tailor tol xid xo xv l 0 true true t = Ret t' /\
  (forall y, In y l -> forall i j a b, (i < fst (v_no y))%nat -> (j < fst (v_no y))%nat -> (a < fst (v_nv y))%nat -> (b < fst (v_nv y))%nat ->
     seen1 (fst xo) (fst xv) (alpha y) (fst (fst t')) i a = fst (v_t1 y) i a /\ seen2 (fst xo) (fst xv) (alpha y) (fst (fst (snd t'))) i j a b = fst (fst (v_t2 y)) i j a b) /\
  (forall y, In y l -> forall i j a b, (i < snd (v_no y))%nat -> (j < snd (v_no y))%nat -> (a < snd (v_nv y))%nat -> (b < snd (v_nv y))%nat ->
     seen1 (snd xo) (snd xv) (beta y) (snd (fst t')) i a = snd (v_t1 y) i a /\ seen2 (snd xo) (snd xv) (beta y) (snd (snd t')) i j a b = snd (v_t2 y) i j a b) /\
  (forall y, In y l -> forall i j a b, (i < fst (v_no y))%nat -> (j < snd (v_no y))%nat -> (a < fst (v_nv y))%nat -> (b < snd (v_nv y))%nat -> seen_ab xo xv y (snd (fst (snd t'))) i j a b = snd (fst (v_t2 y)) i j a b).
Proof.
  intros Hl HA HB. destruct (u_tailor_ok tol xid xo xv 0 l t ltac:(lia) (fun y Hy => proj1 (Hl y Hy))) as (t' & E & H1 & H2 & H3 & H4 & H5). exists t'. split; [exact E|].
  rewrite keep_all in H1, H2, H3, H4, H5 by (intros y Hy; apply (Hl y Hy)).
  assert (Wa : forall y, In y (map alpha l) -> within (fst xo) (t_no y) (t_ro y) /\ within (fst xv) (t_nv y) (t_rv y)) by (intros y Hy; apply in_map_iff in Hy; destruct Hy as (z & <- & Hz); apply (Hl z Hz)).
  assert (Wb : forall y, In y (map beta l) -> within (snd xo) (t_no y) (t_ro y) /\ within (snd xv) (t_nv y) (t_rv y)) by (intros y Hy; apply in_map_iff in Hy; destruct Hy as (z & <- & Hz); apply (Hl z Hz)).
  destruct (replaced_core (fst xo) (fst xv) (map alpha l) _ _ _ _ Wa HA H1 H3) as (RA & _). destruct (replaced_core (snd xo) (snd xv) (map beta l) _ _ _ _ Wb HB H2 H5) as (RB & _).
  split; [intros y Hy; apply (RA (alpha y)); apply in_map; exact Hy|]. split; [intros y Hy; apply (RB (beta y)); apply in_map; exact Hy|].
  intros y Hy i j a b Hi Hj Ha Hb. destruct (in_split y l Hy) as (l1 & l2 & El). destruct (Hl y Hy) as (_ & _ & (Hoa & Hva) & (Hob & Hvb)).
  transitivity (seen_ab xo xv y (fun k k' c c' => snd (fst (snd t)) k k' c c' + Lsum l (fun z => Bab z (Dab xo xv z (snd (fst (snd t)))) k k' c c')) i j a b).
  { unfold seen_ab. repeat (apply Sum_ext; intros). rewrite H4. reflexivity. }
  rewrite seen_ab_sum, El, Lsum_app. cbn [Lsum].
  assert (Z : forall z d, In z (l1 ++ l2) -> seen_ab xo xv y (Bab z d) i j a b = 0).
  { intros z d Hz. change (seen_ab xo xv y (Bab z d) i j a b) with (trans2 (fst xo) (snd xo) (fst xv) (snd xv) (Bab z d) (fst (v_ro y)) (snd (v_ro y)) (fst (v_rv y)) (snd (v_rv y)) i j a b). unfold Bab. rewrite trans2_trans2, trans2_cur.
    assert (El' : map alpha l = map alpha l1 ++ alpha y :: map alpha l2) by (rewrite El, map_app; reflexivity).
    destruct (HA _ _ _ El' (alpha z)) as [H|H]; [rewrite <- map_app; apply in_map; exact Hz| |]; [apply trans1_u_0|apply trans1_v_0]; intros k Hk; apply H; assumption. }
  rewrite !(Lsum_0 _ (fun z => seen_ab xo xv y (Bab z _) i j a b)) by (intros z Hz; apply Z; apply in_or_app; auto).
  assert (F : forall d, seen_ab xo xv y (Bab y d) i j a b = d i j a b).
  { intros d. change (seen_ab xo xv y (Bab y d) i j a b) with (trans2 (fst xo) (snd xo) (fst xv) (snd xv) (Bab y d) (fst (v_ro y)) (snd (v_ro y)) (fst (v_rv y)) (snd (v_rv y)) i j a b). unfold Bab. rewrite trans2_trans2.
    apply trans2_id; try assumption; intros k Hk; [apply Hoa|apply Hob|apply Hva|apply Hvb]; assumption. }
  rewrite F. unfold Dab. set (T := snd (fst (snd t))). change (trans2 (fst xo) (snd xo) (fst xv) (snd xv) T (fst (v_ro y)) (snd (v_ro y)) (fst (v_rv y)) (snd (v_rv y)) i j a b) with (seen_ab xo xv y T i j a b). ring.
Qed.

(** Nothing changes if the amplitudes agree with those of the fragments *)
Theorem C65_consistent_unrestricted tol xid xo xv p l t : (p <= 2)%nat -> (forall y, In y l -> v_id y <> xid) ->
  (forall y, In y l -> forall i j a b, (i < fst (v_no y))%nat -> (j < fst (v_no y))%nat -> (a < fst (v_nv y))%nat -> (b < fst (v_nv y))%nat ->
     fst (v_t1 y) i a = seen1 (fst xo) (fst xv) (alpha y) (fst (fst t)) i a /\ fst (fst (v_t2 y)) i j a b = seen2 (fst xo) (fst xv) (alpha y) (fst (fst (snd t))) i j a b) ->
  (forall y, In y l -> forall i j a b, (i < snd (v_no y))%nat -> (j < snd (v_no y))%nat -> (a < snd (v_nv y))%nat -> (b < snd (v_nv y))%nat ->
     snd (v_t1 y) i a = seen1 (snd xo) (snd xv) (beta y) (snd (fst t)) i a /\ snd (v_t2 y) i j a b = seen2 (snd xo) (snd xv) (beta y) (snd (snd t)) i j a b) ->
  (forall y, In y l -> forall i j a b, (i < fst (v_no y))%nat -> (j < snd (v_no y))%nat -> (a < fst (v_nv y))%nat -> (b < snd (v_nv y))%nat -> snd (fst (v_t2 y)) i j a b = seen_ab xo xv y (snd (fst (snd t))) i j a b) ->
  exists t', u_tailor tol xid xo xv l p true true t = Ret t' /\ forall i j a b,
    (fst (fst t') i a = fst (fst t) i a /\ snd (fst t') i a = snd (fst t) i a) /\
    (fst (fst (snd t')) i j a b = fst (fst (snd t)) i j a b /\ snd (fst (snd t')) i j a b = snd (fst (snd t)) i j a b /\ snd (snd t') i j a b = snd (snd t) i j a b).
Proof.
  intros Hp Hl HA HB HAB. destruct (u_tailor_ok tol xid xo xv p l t Hp Hl) as (t' & E & H1 & H2 & H3 & H4 & H5). exists t'. split; [exact E|].
  assert (SK : forall y, In y (keep tol xo xv l) -> In y l) by (intros y Hy; apply (proj1 (filter_In _ _ _) Hy)).
  assert (Sa : forall y, In y (map alpha (keep tol xo xv l)) -> In y (map alpha l)) by (intros y Hy; apply in_map_iff in Hy; destruct Hy as (z & <- & Hz); apply in_map, SK; exact Hz).
  assert (Sb : forall y, In y (map beta (keep tol xo xv l)) -> In y (map beta l)) by (intros y Hy; apply in_map_iff in Hy; destruct Hy as (z & <- & Hz); apply in_map, SK; exact Hz).
  pose proof (consistent_core (fst xo) (fst xv) p _ (map alpha l) _ _ _ _ Hp Sa ltac:(intros y Hy; apply in_map_iff in Hy; destruct Hy as (z & <- & Hz); exact (HA z Hz)) H1 H3) as CA.
  pose proof (consistent_core (snd xo) (snd xv) p _ (map beta l) _ _ _ _ Hp Sb ltac:(intros y Hy; apply in_map_iff in Hy; destruct Hy as (z & <- & Hz); exact (HB z Hz)) H2 H5) as CB.
  intros i j a b. destruct (CA i j a b) as [-> ->]. destruct (CB i j a b) as [-> ->]. split; [split; reflexivity|]. split; [reflexivity|]. split; [|reflexivity].
  rewrite H4. unfold uab. rewrite Lsum_0; [ring|]. intros y Hy. apply SK in Hy.
  assert (Z : forall i j a b, (i < fst (v_no y))%nat -> (j < snd (v_no y))%nat -> (a < fst (v_nv y))%nat -> (b < snd (v_nv y))%nat -> Dab xo xv y (snd (fst (snd t))) i j a b = 0).
  { intros k k' c c' Hk Hk' Hc Hc'. unfold Dab. rewrite (HAB y Hy k k' c c' Hk Hk' Hc Hc'). unfold seen_ab, trans2. ring. }
  apply trans2_0. intros k k' c c' Hk Hk' Hc Hc'. destruct p as [|[|p]]; cbn [prjab]; [apply Z; assumption| |].
  - rewrite !Sum_0; [ring| |]; intros m Hm; rewrite Z by assumption; ring.
  - apply Sum_0. intros m Hm. apply Sum_0. intros m' Hm'. rewrite Z by assumption. ring.
Qed.
(** T2 of opposite spins of y with the first (alpha) or second (beta) occupied index projected, in the orbitals of x *)
Definition share_a (y : utfrag) : ten := fun I J A B => Sum (fst (v_no y)) (fun i => Sum (snd (v_no y)) (fun j => Sum (fst (v_nv y)) (fun a => Sum (snd (v_nv y)) (fun b =>
  Sum (fst (v_no y)) (fun k => fst (v_ro y) I i * proj_y (alpha y) i k * snd (fst (v_t2 y)) k j a b) * snd (v_ro y) J j * fst (v_rv y) A a * snd (v_rv y) B b)))).
Definition share_b (y : utfrag) : ten := fun I J A B => Sum (fst (v_no y)) (fun i => Sum (snd (v_no y)) (fun j => Sum (fst (v_nv y)) (fun a => Sum (snd (v_nv y)) (fun b =>
  Sum (snd (v_no y)) (fun k => snd (v_ro y) J j * proj_y (beta y) j k * snd (fst (v_t2 y)) i k a b) * fst (v_ro y) I i * fst (v_rv y) A a * snd (v_rv y) B b)))).
Lemma trans2_deltas no no' nv nv' (t : ten) (f g : mat) I J A B : (I < no)%nat -> (J < no')%nat -> (A < nv)%nat -> (B < nv')%nat ->
  trans2 no no' nv nv' t (fun k x => f x k) (fun k x => g x k) (fun k x => delta k x) (fun k x => delta k x) I J A B = Sum no (fun k => Sum no' (fun l => f I k * g J l * t k l A B)).
Proof.
  intros HI HJ HA HB. unfold trans2. apply Sum_ext. intros k Hk. apply Sum_ext. intros l Hl.
  etransitivity; [apply Sum_ext; intros c Hc; rewrite (Sum_delta_r nv' B (fun d => t k l c d * f I k * g J l * delta c A) HB); reflexivity|].
  rewrite (Sum_delta_r nv A (fun c => t k l c B * f I k * g J l) HA). ring.
Qed.
Lemma ca_eq xo xv (y : utfrag) (t : ten) I J A B : covers (snd xo) (snd (v_no y)) (snd (v_ro y)) -> covers (fst xv) (fst (v_nv y)) (fst (v_rv y)) -> covers (snd xv) (snd (v_nv y)) (snd (v_rv y)) ->
  (I < fst xo)%nat -> (J < snd xo)%nat -> (A < fst xv)%nat -> (B < snd xv)%nat ->
  Bab y (fun i j a b => Sum (fst (v_no y)) (fun k => pr (alpha y) i k * Dab xo xv y t k j a b)) I J A B = share_a y I J A B - Sum (fst xo) (fun K => proj_x (alpha y) I K * t K J A B).
Proof.
  intros Ho Hv Hw HI HJ HA HB. set (R := trans2 (fst xo) (snd xo) (fst xv) (snd xv) t (fst (v_ro y)) (snd (v_ro y)) (fst (v_rv y)) (snd (v_rv y))).
  transitivity (Bab y (fun i j a b => Sum (fst (v_no y)) (fun k => pr (alpha y) i k * snd (fst (v_t2 y)) k j a b)) I J A B - Bab y (fun i j a b => Sum (fst (v_no y)) (fun k => pr (alpha y) i k * R k j a b)) I J A B).
  - unfold Bab. rewrite <- trans2_sub. apply trans2_ext; try reflexivity. intros i j a b _ _ _ _. unfold Dab. fold R. rewrite <- Sum_sub. apply Sum_ext. intros. ring.
  - f_equal.
    + unfold Bab, share_a, trans2, tr. apply Sum_ext. intros i _. apply Sum_ext. intros j _. apply Sum_ext. intros a _. apply Sum_ext. intros b _. f_equal. f_equal. f_equal. rewrite <- Sum_mul_r. apply Sum_ext. intros k _. unfold pr, gram, proj_y. ring.
    + unfold Bab. rewrite trans2_p1. unfold R. rewrite trans2_trans2.
      rewrite (trans2_ext _ _ _ _ t t _ (fun k x => proj_x (alpha y) x k) _ (fun k x => delta x k) _ (fun k x => delta k x) _ (fun k x => delta k x)); try reflexivity; unfold tr.
      * etransitivity; [apply (trans2_deltas _ _ _ _ t (proj_x (alpha y)) (fun x k => delta x k)); assumption|]. apply Sum_ext. intros k Hk.
        rewrite <- (Sum_delta_l (snd xo) J (fun l => proj_x (alpha y) I k * t k l A B) HJ). apply Sum_ext. intros l _. ring.
      * intros i _. apply (proj_x_eq (alpha y)).
      * intros i Hi. rewrite (Ho i J Hi HJ). apply delta_sym.
      * intros i Hi. apply Hv; assumption.
      * intros i Hi. apply Hw; assumption.
Qed.
Lemma cb_eq xo xv (y : utfrag) (t : ten) I J A B : covers (fst xo) (fst (v_no y)) (fst (v_ro y)) -> covers (fst xv) (fst (v_nv y)) (fst (v_rv y)) -> covers (snd xv) (snd (v_nv y)) (snd (v_rv y)) ->
  (I < fst xo)%nat -> (J < snd xo)%nat -> (A < fst xv)%nat -> (B < snd xv)%nat ->
  Bab y (fun i j a b => Sum (snd (v_no y)) (fun k => pr (beta y) j k * Dab xo xv y t i k a b)) I J A B = share_b y I J A B - Sum (snd xo) (fun K => proj_x (beta y) J K * t I K A B).
Proof.
  intros Ho Hv Hw HI HJ HA HB. set (R := trans2 (fst xo) (snd xo) (fst xv) (snd xv) t (fst (v_ro y)) (snd (v_ro y)) (fst (v_rv y)) (snd (v_rv y))).
  transitivity (Bab y (fun i j a b => Sum (snd (v_no y)) (fun k => pr (beta y) j k * snd (fst (v_t2 y)) i k a b)) I J A B - Bab y (fun i j a b => Sum (snd (v_no y)) (fun k => pr (beta y) j k * R i k a b)) I J A B).
  - unfold Bab. rewrite <- trans2_sub. apply trans2_ext; try reflexivity. intros i j a b _ _ _ _. unfold Dab. fold R. rewrite <- Sum_sub. apply Sum_ext. intros. ring.
  - f_equal.
    + unfold Bab, share_b, trans2, tr. apply Sum_ext. intros i _. apply Sum_ext. intros j _. apply Sum_ext. intros a _. apply Sum_ext. intros b _. f_equal. f_equal. rewrite <- !Sum_mul_r. apply Sum_ext. intros k _. unfold pr, gram, proj_y. ring.
    + unfold Bab. rewrite trans2_p2. unfold R. rewrite trans2_trans2.
      rewrite (trans2_ext _ _ _ _ t t _ (fun k x => delta x k) _ (fun k x => proj_x (beta y) x k) _ (fun k x => delta k x) _ (fun k x => delta k x)); try reflexivity; unfold tr.
      * etransitivity; [apply (trans2_deltas _ _ _ _ t (fun x k => delta x k) (proj_x (beta y))); assumption|].
        rewrite <- (Sum_delta_l (fst xo) I (fun k => Sum (snd xo) (fun l => proj_x (beta y) J l * t k l A B)) HI).
        apply Sum_ext. intros k _. rewrite <- Sum_mul_l. apply Sum_ext. intros l _. ring.
      * intros i Hi. rewrite (Ho i I Hi HI). apply delta_sym.
      * intros i _. apply (proj_x_eq (beta y)).
      * intros i Hi. apply Hv; assumption.
      * intros i Hi. apply Hw; assumption.
Qed.
Definition covers_u (xo xv : nat * nat) (y : utfrag) : Prop :=
  (covers (fst xo) (fst (v_no y)) (fst (v_ro y)) /\ covers (fst xv) (fst (v_nv y)) (fst (v_rv y))) /\ (covers (snd xo) (snd (v_no y)) (snd (v_ro y)) /\ covers (snd xv) (snd (v_nv y)) (snd (v_rv y))).
(** With one projector the result is assembled from the fragments; for opposite spins half with the alpha and half with the beta projector *)
Theorem C65_assembled_unrestricted tol xid xo xv l t : half + half = 1 ->
  (forall i j a b, fst (fst (snd t)) i j a b = fst (fst (snd t)) j i b a) -> (forall i j a b, snd (snd t) i j a b = snd (snd t) j i b a) ->
  (forall y, In y l -> v_id y <> xid /\ overlaps_u tol xo xv y /\ covers_u xo xv y) ->
  (forall i j, (i < fst xo)%nat -> (j < fst xo)%nat -> Lsum l (fun y => proj_x (alpha y) i j) = delta i j) -> (forall i j, (i < snd xo)%nat -> (j < snd xo)%nat -> Lsum l (fun y => proj_x (beta y) i j) = delta i j) ->
  exists t', u_tailor tol xid xo xv l 1 true true t = Ret t' /\
  (forall I J A B, (I < fst xo)%nat -> (J < fst xo)%nat -> (A < fst xv)%nat -> (B < fst xv)%nat ->
     fst (fst t') I A = Lsum l (fun y => share1 (alpha y) I A) /\ fst (fst (snd t')) I J A B = half * (Lsum l (fun y => share2 (alpha y) I J A B) + Lsum l (fun y => share2 (alpha y) J I B A))) /\
  (forall I J A B, (I < snd xo)%nat -> (J < snd xo)%nat -> (A < snd xv)%nat -> (B < snd xv)%nat ->
     snd (fst t') I A = Lsum l (fun y => share1 (beta y) I A) /\ snd (snd t') I J A B = half * (Lsum l (fun y => share2 (beta y) I J A B) + Lsum l (fun y => share2 (beta y) J I B A))) /\
  (forall I J A B, (I < fst xo)%nat -> (J < snd xo)%nat -> (A < fst xv)%nat -> (B < snd xv)%nat ->
     snd (fst (snd t')) I J A B = half * (Lsum l (fun y => share_a y I J A B) + Lsum l (fun y => share_b y I J A B))).
Proof.
  intros Hh Sa Sb Hl PA PB. destruct (u_tailor_ok tol xid xo xv 1 l t ltac:(lia) (fun y Hy => proj1 (Hl y Hy))) as (t' & E & H1 & H2 & H3 & H4 & H5). exists t'. split; [exact E|].
  rewrite keep_all in H1, H2, H3, H4, H5 by (intros y Hy; apply (Hl y Hy)).
  assert (Wa : forall y, In y (map alpha l) -> covers (fst xo) (t_no y) (t_ro y) /\ covers (fst xv) (t_nv y) (t_rv y)) by (intros y Hy; apply in_map_iff in Hy; destruct Hy as (z & <- & Hz); apply (Hl z Hz)).
  assert (Wb : forall y, In y (map beta l) -> covers (snd xo) (t_no y) (t_ro y) /\ covers (snd xv) (t_nv y) (t_rv y)) by (intros y Hy; apply in_map_iff in Hy; destruct Hy as (z & <- & Hz); apply (Hl z Hz)).
  pose proof (assembled_core (fst xo) (fst xv) (map alpha l) _ _ _ _ Hh Sa Wa ltac:(intros; rewrite Lsum_map; apply PA; assumption) H1 H3) as RA.
  pose proof (assembled_core (snd xo) (snd xv) (map beta l) _ _ _ _ Hh Sb Wb ltac:(intros; rewrite Lsum_map; apply PB; assumption) H2 H5) as RB.
  split; [intros I J A B HI HJ HA HB; pose proof (RA I J A B HI HJ HA HB) as R; rewrite !Lsum_map in R; exact R|].
  split; [intros I J A B HI HJ HA HB; pose proof (RB I J A B HI HJ HA HB) as R; rewrite !Lsum_map in R; exact R|].
  intros I J A B HI HJ HA HB. rewrite H4. unfold uab. set (T := snd (fst (snd t))).
  rewrite (Lsum_ext l _ (fun y => half * ((share_a y I J A B - Sum (fst xo) (fun K => proj_x (alpha y) I K * T K J A B)) + (share_b y I J A B - Sum (snd xo) (fun K => proj_x (beta y) J K * T I K A B))))).
  2:{ intros y Hy. destruct (Hl y Hy) as (_ & _ & (Hoa & Hva) & (Hob & Hvb)). rewrite <- (ca_eq xo xv y T I J A B), <- (cb_eq xo xv y T I J A B) by assumption. cbn [prjab]. unfold Bab. rewrite trans2_scale, trans2_add. reflexivity. }
  rewrite Lsum_mul_l, Lsum_add, !Lsum_sub, !Lsum_Sum.
  assert (X : Sum (fst xo) (fun K => Lsum l (fun y => proj_x (alpha y) I K * T K J A B)) = T I J A B).
  { etransitivity; [apply Sum_ext; intros m Hm; rewrite Lsum_mul_r, (PA I m HI Hm); reflexivity|]. apply (Sum_delta_l (fst xo) I (fun m => T m J A B)). exact HI. }
  assert (Y : Sum (snd xo) (fun K => Lsum l (fun y => proj_x (beta y) J K * T I K A B)) = T I J A B).
  { etransitivity; [apply Sum_ext; intros m Hm; rewrite Lsum_mul_r, (PB J m HJ Hm); reflexivity|]. apply (Sum_delta_l (snd xo) J (fun m => T I m A B)). exact HJ. }
  rewrite X, Y. set (S1 := Lsum l (fun y => share_a y I J A B)). set (S2 := Lsum l (fun y => share_b y I J A B)).
  transitivity (T I J A B * (1 - (half + half)) + half * (S1 + S2)); [ring|rewrite Hh; ring].
Qed.

(** T2 of equal spins stays antisymmetric in the occupied and in the virtual orbitals *)
Lemma trans2_swap_o n m m' (t : ten) u v v' x y z w : trans2 n n m m' (fun i j a b => t j i a b) u u v v' x y z w = trans2 n n m m' t u u v v' y x z w.
Proof. unfold trans2. rewrite Sum_swap. apply Sum_ext. intros j _. apply Sum_ext. intros i _. apply Sum_ext. intros b _. apply Sum_ext. intros. ring. Qed.
Lemma trans2_swap_v n n' m (t : ten) u u' v x y z w : trans2 n n' m m (fun i j a b => t i j b a) u u' v v x y z w = trans2 n n' m m t u u' v v x y w z.
Proof. unfold trans2. apply Sum_ext. intros j _. apply Sum_ext. intros i _. rewrite Sum_swap. apply Sum_ext. intros b _. apply Sum_ext. intros. ring. Qed.
Lemma trans2_opp n n' m m' (t : ten) u u' v v' x y z w : trans2 n n' m m' (fun i j a b => - t i j a b) u u' v v' x y z w = - trans2 n n' m m' t u u' v v' x y z w.
Proof.
  transitivity (- (1) * trans2 n n' m m' t u u' v v' x y z w); [|ring]. rewrite <- trans2_scale. apply trans2_ext; try reflexivity. intros. ring.
Qed.
Definition psym (t : ten) : Prop := forall i j a b, t i j a b = t j i b a.
Lemma prj_swap_o p n (t : ten) P i j a b : psym t -> prj p n (fun i j a b => t j i a b) P i j a b = prj p n t P j i a b.
Proof.
  intros Hs. destruct p as [|[|p]]; cbn [prj]; [reflexivity| |].
  - rewrite (Sum_ext n (fun k => P i k * t j k a b) (fun k => P i k * t k j b a)) by (intros k _; rewrite (Hs j k a b); reflexivity). rewrite (Sum_ext n (fun k => P j k * t i k b a) (fun k => P j k * t k i a b)) by (intros k _; rewrite (Hs i k b a); reflexivity). ring.
  - rewrite Sum_swap. apply Sum_ext. intros k _. apply Sum_ext. intros l _. ring.
Qed.
Definition anti (t : ten) : Prop := (forall i j a b, t i j a b = - t j i a b) /\ (forall i j a b, t i j a b = - t i j b a).
Lemma anti_psym t : anti t -> psym t.
Proof. intros [Ho Hv] i j a b. rewrite (Ho i j a b), (Hv j i a b). ring. Qed.
Lemma psym_D2 xo xv (y : tfrag) t : psym t -> psym (t_t2 y) -> psym (D2 xo xv y t).
Proof. intros Ht Hy i j a b. unfold D2. f_equal; [apply Hy|]. rewrite <- trans2_flip. apply trans2_ext; try reflexivity. intros. apply Ht. Qed.
Lemma prj_ext p n (d e : ten) P i j a b : (forall i j, d i j a b = e i j a b) -> (forall i j, d i j b a = e i j b a) -> prj p n d P i j a b = prj p n e P i j a b.
Proof. intros H G. destruct p as [|[|p]]; cbn [prj]; [apply H| |]; [f_equal; f_equal; apply Sum_ext; intros; rewrite ?H, ?G; reflexivity|]. apply Sum_ext; intros; apply Sum_ext; intros; rewrite H; reflexivity. Qed.
Lemma prj_opp p n (d : ten) P i j a b : prj p n (fun i j a b => - d i j a b) P i j a b = - prj p n d P i j a b.
Proof.
  destruct p as [|[|q]]; cbn [prj]; [reflexivity| |].
  - rewrite (Sum_ext n (fun k => P i k * - d k j a b) (fun k => - (1) * (P i k * d k j a b))) by (intros; ring). rewrite (Sum_ext n (fun k => P j k * - d k i b a) (fun k => - (1) * (P j k * d k i b a))) by (intros; ring). rewrite !Sum_mul_l. ring.
  - rewrite (Sum_ext n _ (fun k => - (1) * Sum n (fun l => P i k * P j l * d k l a b))) by (intros; rewrite <- Sum_mul_l; apply Sum_ext; intros; ring). rewrite Sum_mul_l. ring.
Qed.
Lemma prj_swap_v p n (t : ten) P i j a b : prj p n (fun i j a b => t i j b a) P i j a b = prj p n t P i j b a.
Proof. destruct p as [|[|p]]; reflexivity. Qed.
Lemma anti_core xo xv p (l : list tfrag) t : anti t -> (forall y, In y l -> anti (t_t2 y)) ->
  anti (fun i j a b => t i j a b + Lsum l (fun y => B2 y (prj p (t_no y) (D2 xo xv y t) (pr y)) i j a b)).
Proof.
  intros HT Hy. pose proof HT as [To Tv].
  assert (Neg : forall f g : tfrag -> K, (forall y, In y l -> f y = - g y) -> Lsum l f = - Lsum l g).
  { intros f g H. transitivity (Lsum l (fun y => - (1) * g y)); [apply Lsum_ext; intros y Hin; rewrite (H y Hin); ring|]. rewrite Lsum_mul_l. ring. }
  assert (DA : forall y, In y l -> anti (D2 xo xv y t)).
  { intros y Hin. split; intros m m' c c'; unfold D2; [rewrite (proj1 (Hy y Hin) m m' c c')|rewrite (proj2 (Hy y Hin) m m' c c')].
    - rewrite (trans2_ext xo xo xv xv t (fun i j a b => - t j i a b) _ (t_ro y) _ (t_ro y) _ (t_rv y) _ (t_rv y)) by (intros; first [reflexivity|apply To]). rewrite (trans2_opp xo xo xv xv (fun i j a b => t j i a b)), trans2_swap_o. ring.
    - rewrite (trans2_ext xo xo xv xv t (fun i j a b => - t i j b a) _ (t_ro y) _ (t_ro y) _ (t_rv y) _ (t_rv y)) by (intros; first [reflexivity|apply Tv]). rewrite (trans2_opp xo xo xv xv (fun i j a b => t i j b a)), trans2_swap_v. ring. }
  split; intros i j a b.
  - transitivity (- t j i a b + - Lsum l (fun y => B2 y (prj p (t_no y) (D2 xo xv y t) (pr y)) j i a b)); [|ring]. f_equal; [apply To|]. apply Neg. intros y Hin. unfold B2. rewrite <- (trans2_swap_o _ _ _ _ _ _ _ i j), <- trans2_opp.
    apply trans2_ext; try reflexivity. intros k k' c c' _ _ _ _. rewrite <- (prj_swap_o p _ _ _ k k') by (apply anti_psym, DA; exact Hin). rewrite <- (prj_opp p _ (fun i j a b => D2 xo xv y t j i a b)). apply prj_ext; intros; apply (DA y Hin).
  - transitivity (- t i j b a + - Lsum l (fun y => B2 y (prj p (t_no y) (D2 xo xv y t) (pr y)) i j b a)); [|ring]. f_equal; [apply Tv|]. apply Neg. intros y Hin. unfold B2. rewrite <- (trans2_swap_v _ _ _ _ _ _ _ i j a b), <- trans2_opp.
    apply trans2_ext; try reflexivity. intros k k' c c' _ _ _ _. rewrite <- (prj_swap_v p _ _ _ k k' c c'). rewrite <- (prj_opp p _ (fun i j a b => D2 xo xv y t i j b a)). apply prj_ext; intros; apply (DA y Hin).
Qed.
Theorem C65_antisymmetry tol xid xo xv p l t t' : (p <= 2)%nat -> (forall y, In y l -> v_id y <> xid /\ anti (fst (fst (v_t2 y))) /\ anti (snd (v_t2 y))) -> anti (fst (fst (snd t))) -> anti (snd (snd t)) ->
  u_tailor tol xid xo xv l p true true t = Ret t' -> anti (fst (fst (snd t'))) /\ anti (snd (snd t')).
Proof.
  intros Hp Hl Ha Hb E. destruct (u_tailor_ok tol xid xo xv p l t Hp (fun y Hy => proj1 (Hl y Hy))) as (t1 & E1 & _ & _ & H3 & _ & H5). rewrite E in E1. injection E1 as <-.
  assert (SK : forall y, In y (keep tol xo xv l) -> In y l) by (intros y Hy; apply (proj1 (filter_In _ _ _) Hy)).
  pose proof (anti_core (fst xo) (fst xv) p (map alpha (keep tol xo xv l)) _ Ha ltac:(intros y Hy; apply in_map_iff in Hy; destruct Hy as (z & <- & Hz); apply (Hl z (SK z Hz)))) as [A1 A2].
  pose proof (anti_core (snd xo) (snd xv) p (map beta (keep tol xo xv l)) _ Hb ltac:(intros y Hy; apply in_map_iff in Hy; destruct Hy as (z & <- & Hz); apply (Hl z (SK z Hz)))) as [B1' B2'].
  unfold anti. split; split; intros; rewrite ?H3, ?H5; [apply A1|apply A2|apply B1'|apply B2'].
Qed.

(** A closed-shell fragment and closed-shell amplitudes in the unrestricted code *)
Definition cl1 (t : mat) : mat2 := (t, t).
Definition cl2 (t : ten) : ten3 := ((fun i j a b => t i j a b - t j i a b), t, (fun i j a b => t i j a b - t j i a b)).
Definition closed (y : tfrag) : utfrag :=
  Build_utfrag (t_id y) (t_no y, t_no y) (t_nv y, t_nv y) (t_nf y, t_nf y) (cl1 (t_ro y)) (cl1 (t_rv y)) (cl1 (t_f y)) (cl1 (t_t1 y)) (cl2 (t_t2 y)).
Lemma keep_closed tol xo xv l : keep tol (xo, xo) (xv, xv) (map closed l) = map closed (filter (fun y => negb (small tol xo xv y)) l).
Proof.
  assert (M : forall x : K, max2 x x = x) by (intros x; unfold max2; destruct (ltb x x); reflexivity).
  induction l as [|y l IH]; [reflexivity|]. unfold keep in *. cbn [map filter]. assert (E : u_small tol (xo, xo) (xv, xv) (closed y) = small tol xo xv y) by (unfold u_small, small; cbn [closed v_no v_nv v_ro v_rv cl1 fst snd]; rewrite !M; reflexivity).
  rewrite E. destruct (small tol xo xv y); cbn [negb map]; [exact IH|f_equal; exact IH].
Qed.
Lemma prj_sub p n (d e : ten) P i j a b : prj p n (fun i j a b => d i j a b - e i j a b) P i j a b = prj p n d P i j a b - prj p n e P i j a b.
Proof.
  destruct p as [|[|p]]; cbn [prj]; [reflexivity| |].
  - rewrite (Sum_ext n (fun k => P i k * (d k j a b - e k j a b)) (fun k => P i k * d k j a b - P i k * e k j a b)) by (intros; ring). rewrite (Sum_ext n (fun k => P j k * (d k i b a - e k i b a)) (fun k => P j k * d k i b a - P j k * e k i b a)) by (intros; ring). rewrite !Sum_sub. ring.
  - rewrite <- Sum_sub. apply Sum_ext. intros k _. rewrite <- Sum_sub. apply Sum_ext. intros l _. ring.
Qed.
Lemma closed_same p xo xv (y : tfrag) (t : ten) i j a b (s : tfrag) : psym t -> psym (t_t2 y) ->
  t_no s = t_no y -> t_nv s = t_nv y -> t_ro s = t_ro y -> t_rv s = t_rv y -> pr s = pr y -> t_t2 s = (fun i j a b => t_t2 y i j a b - t_t2 y j i a b) ->
  B2 s (prj p (t_no s) (D2 xo xv s (fun i j a b => t i j a b - t j i a b)) (pr s)) i j a b = B2 y (prj p (t_no y) (D2 xo xv y t) (pr y)) i j a b - B2 y (prj p (t_no y) (D2 xo xv y t) (pr y)) j i a b.
Proof.
  intros Ht Hy E1 E2 E3 E4 E5 E6. unfold B2. rewrite E1, E2, E3, E4, E5. rewrite <- (trans2_swap_o (t_no y) (t_nv y) (t_nv y) _ _ _ _ i j), <- trans2_sub. apply trans2_ext; try reflexivity. intros k k' c c' _ _ _ _.
  rewrite <- (prj_swap_o p _ (D2 xo xv y t) _ k k') by (apply psym_D2; assumption). rewrite <- prj_sub. apply prj_ext; intros m m'; unfold D2; rewrite E3, E4, E6, trans2_sub, (trans2_swap_o xo xv xv t); ring.
Qed.
(** For closed-shell data the unrestricted code gives what the restricted code gives *)
Theorem C65_closed_shell tol xid xo xv p l t : (p <= 2)%nat -> (forall y, In y l -> t_id y <> xid) -> psym (snd t) -> (forall y, In y l -> psym (t_t2 y)) ->
  exists t' u', r_tailor tol xid xo xv l p true true t = Ret t' /\ u_tailor tol xid (xo, xo) (xv, xv) (map closed l) p true true (cl1 (fst t), cl2 (snd t)) = Ret u' /\
  forall i j a b, (fst (fst u') i a = fst t' i a /\ snd (fst u') i a = fst t' i a) /\
    (fst (fst (snd u')) i j a b = snd t' i j a b - snd t' j i a b /\ snd (fst (snd u')) i j a b = snd t' i j a b /\ snd (snd u') i j a b = snd t' i j a b - snd t' j i a b).
Proof.
  intros Hp Hl Hs Hy. destruct (r_tailor_ok tol xid xo xv p l t Hp Hl) as (t' & E & G1 & G2).
  destruct (u_tailor_ok tol xid (xo, xo) (xv, xv) p (map closed l) (cl1 (fst t), cl2 (snd t)) Hp) as (u' & F & H1 & H2 & H3 & H4 & H5); [intros y Hy0; apply in_map_iff in Hy0; destruct Hy0 as (z & <- & Hz); exact (Hl z Hz)|].
  exists t', u'. split; [exact E|]. split; [exact F|]. rewrite keep_closed in H1, H2, H3, H4, H5. set (l' := filter _ l) in *. cbn [fst snd cl1 cl2] in H1, H2, H3, H4, H5.
  intros i j a b. rewrite H1, H2, H3, H4, H5, !G1, !G2. unfold ua1, ub1, ua2, ub2, uab. rewrite !Lsum_map. cbn [fst snd].
  split; [split; reflexivity|]. split; [|split].
  - rewrite (Lsum_ext l' _ (fun y => B2 y (prj p (t_no y) (D2 xo xv y (snd t)) (pr y)) i j a b - B2 y (prj p (t_no y) (D2 xo xv y (snd t)) (pr y)) j i a b)); [rewrite Lsum_sub; ring|].
    intros y Hin. exact (closed_same p xo xv y (snd t) i j a b (alpha (closed y)) Hs (Hy y (proj1 (proj1 (filter_In _ _ _) Hin))) eq_refl eq_refl eq_refl eq_refl eq_refl eq_refl).
  - f_equal. apply Lsum_ext. intros y Hin. pose proof (psym_D2 xo xv y (snd t) Hs (Hy y (proj1 (proj1 (filter_In _ _ _) Hin)))) as DS. destruct p as [|[|[|p]]]; [| | |lia]; [reflexivity| |reflexivity].
    change (trans2 (t_no y) (t_no y) (t_nv y) (t_nv y) (fun i j a b => half * (Sum (t_no y) (fun k => pr y i k * D2 xo xv y (snd t) k j a b) + Sum (t_no y) (fun k => pr y j k * D2 xo xv y (snd t) i k a b))) (tr (t_ro y)) (tr (t_ro y)) (tr (t_rv y)) (tr (t_rv y)) i j a b
      = B2 y (prj 1 (t_no y) (D2 xo xv y (snd t)) (pr y)) i j a b).
    unfold B2. cbn [prj]. apply trans2_ext; try reflexivity. intros k k' c c' _ _ _ _. f_equal. f_equal. apply Sum_ext. intros m _. rewrite (DS k m c c'). reflexivity.
  - rewrite (Lsum_ext l' _ (fun y => B2 y (prj p (t_no y) (D2 xo xv y (snd t)) (pr y)) i j a b - B2 y (prj p (t_no y) (D2 xo xv y (snd t)) (pr y)) j i a b)); [rewrite Lsum_sub; ring|].
    intros y Hin. exact (closed_same p xo xv y (snd t) i j a b (beta (closed y)) Hs (Hy y (proj1 (proj1 (filter_In _ _ _) Hin))) eq_refl eq_refl eq_refl eq_refl eq_refl eq_refl).
Qed.
End Res.

(** ** Which corrections are applied *)
(** the calls that change the corrections of a fragment *)
Inductive call := Add (frags : list cfrag) (k : kind) (projectors : nat) (test low : bool) | Clear.
Fixpoint calls (h : list call) (s : fstate) : list (call * addres) * fstate :=
  match h with
  | [] => ([], s)
  | Add fr k p test low :: h => let '(r, s) := add_external s fr k p test low in let '(o, s) := calls h s in ((Add fr k p test low, r) :: o, s)
  | Clear :: h => let '(o, s) := calls h (clear_external s) in ((Clear, Done) :: o, s)
  end.
(** what the calls that returned normally have asked for since the last Clear *)
Definition asked (c : call * addres) : list entry := match c with (Add fr k p _ low, Done) => map (fun f => (cf_id f, k, p, low)) fr | _ => [] end.
Fixpoint since_clear (o : list (call * addres)) (acc : list (call * addres)) : list (call * addres) :=
  match o with [] => acc | (Clear, _) :: o => since_clear o [] | c :: o => since_clear o (acc ++ [c]) end.
Lemma calls_list h : forall s acc, fs_list s = flat_map asked acc -> fs_list (snd (calls h s)) = flat_map asked (since_clear (fst (calls h s)) acc).
Proof.
  induction h as [|[fr k p test low|] h IH]; intros s acc E; cbn [calls].
  - exact E.
  - destruct (add_external s fr k p test low) as [r s'] eqn:EA. specialize (IH s' (acc ++ [(Add fr k p test low, r)])). destruct (calls h s') as [o s'']. cbn [fst snd since_clear]. cbn [fst snd] in IH. apply IH.
    rewrite flat_map_app, <- E. cbn [flat_map asked]. unfold add_external in EA.
    destruct (existsb (fun f => negb (cf_solved f) && negb (cf_aux f)) fr); destruct k, (fs_solver s) eqn:ES, low; cbn [fs_solver fs_list fs_test negb andb] in EA; rewrite ?ES in EA; injection EA as <- <-; cbn [fs_list asked]; rewrite ?app_nil_r; reflexivity.
  - specialize (IH (clear_external s) [] eq_refl). destruct (calls h (clear_external s)) as [o s'']. cbn [fst snd since_clear]. exact IH.
Qed.
(** After any calls the corrections are exactly those asked for by the successful calls since the last clear, in order *)
Theorem C65_list h s : fs_list s = [] -> fs_list (snd (calls h s)) = flat_map asked (since_clear (fst (calls h s)) []).
Proof. intros E. apply calls_list. exact E. Qed.
(** the test flag is that of the last successful addition since the last clear, and off if there was none *)
Definition flagged (c : call * addres) (b : bool) : bool := match c with (Add _ _ _ test _, Done) => test | _ => b end.
Lemma calls_flag h : forall s acc, fs_test s = fold_left (fun b c => flagged c b) acc false -> fs_test (snd (calls h s)) = fold_left (fun b c => flagged c b) (since_clear (fst (calls h s)) acc) false.
Proof.
  induction h as [|[fr k p test low|] h IH]; intros s acc E; cbn [calls].
  - exact E.
  - destruct (add_external s fr k p test low) as [r s'] eqn:EA. specialize (IH s' (acc ++ [(Add fr k p test low, r)])). destruct (calls h s') as [o s'']. cbn [fst snd since_clear]. cbn [fst snd] in IH. apply IH.
    rewrite fold_left_app, <- E. cbn [fold_left]. unfold add_external in EA.
    destruct (existsb (fun f => negb (cf_solved f) && negb (cf_aux f)) fr); destruct k, (fs_solver s) eqn:ES, low; cbn [fs_solver fs_list fs_test negb andb] in EA; rewrite ?ES in EA; injection EA as <- <-; cbn [fs_test flagged]; reflexivity.
  - specialize (IH (clear_external s) [] eq_refl). destruct (calls h (clear_external s)) as [o s'']. cbn [fst snd since_clear]. exact IH.
Qed.
Theorem C65_test_flag h s : fs_test s = false -> fs_test (snd (calls h s)) = fold_left (fun b c => flagged c b) (since_clear (fst (calls h s)) []) false.
Proof. intros E. apply calls_flag. exact E. Qed.
(** when a call succeeds, and that a failing call changes neither the corrections nor the test flag *)
Theorem C65_accepted s fr k p test low : let '(r, s') := add_external s fr k p test low in
  (r = Done <-> k <> KOther /\ fs_solver s <> SOther /\ (low = true \/ k = KExternal) /\ forall f, In f fr -> cf_solved f = true \/ cf_aux f = true) /\
  (r = Done -> fs_solver s' = SextCCSD /\ fs_test s' = test) /\ (r <> Done -> fs_list s' = fs_list s /\ fs_test s' = fs_test s) /\ (r = AddRuntimeError <-> k <> KOther /\ fs_solver s = SOther).
Proof.
  destruct (add_external s fr k p test low) as [r s'] eqn:EA. unfold add_external in EA.
  assert (X : existsb (fun f => negb (cf_solved f) && negb (cf_aux f)) fr = false <-> forall f, In f fr -> cf_solved f = true \/ cf_aux f = true).
  { split.
    - intros H f Hf. destruct (cf_solved f) eqn:E1; [left; reflexivity|]. destruct (cf_aux f) eqn:E2; [right; reflexivity|]. assert (T : existsb (fun f => negb (cf_solved f) && negb (cf_aux f)) fr = true) by (apply existsb_exists; exists f; rewrite E1, E2; auto). rewrite T in H. discriminate H.
    - intros H. apply Bool.not_true_iff_false. intros T. apply existsb_exists in T. destruct T as (f & Hf & T). destruct (H f Hf) as [E|E]; rewrite E in T; [discriminate T|]. destruct (cf_solved f); discriminate T. }
  destruct (existsb (fun f => negb (cf_solved f) && negb (cf_aux f)) fr) eqn:EX.
  - assert (Y : ~ forall f, In f fr -> cf_solved f = true \/ cf_aux f = true) by (intros Y; apply X in Y; discriminate Y).
    destruct k, (fs_solver s) eqn:ES, low; cbn [fs_solver fs_list fs_test negb andb] in EA; rewrite ?ES in EA; injection EA as <- <-; cbn [fs_solver fs_list fs_test]; intuition (congruence || discriminate).
  - assert (Y : forall f, In f fr -> cf_solved f = true \/ cf_aux f = true) by (apply X; reflexivity).
    destruct k, (fs_solver s) eqn:ES, low; cbn [fs_solver fs_list fs_test negb andb] in EA; rewrite ?ES in EA; injection EA as <- <-; cbn [fs_solver fs_list fs_test]; intuition (congruence || discriminate).
Qed.
Definition e_id (e : entry) := fst (fst (fst e)). Definition e_kind (e : entry) := snd (fst (fst e)). Definition e_proj (e : entry) := snd (fst e).
(** No correction is dropped or invented: the solver uses all of them or raises NotImplementedError, and the latter exactly for a mixture of tailoring with the other two kinds or of
    tailoring with different numbers of projectors *)
Theorem C65_dispatch all l : (forall e, In e l -> e_kind e <> KOther) ->
  (get_callback all l = CNone <-> l = []) /\
  (forall l', get_callback all l = CExternal l' <-> l' = l /\ l <> [] /\ forall e, In e l -> e_kind e <> KTailor) /\
  (forall ids p, get_callback all l = CTailor ids p -> l <> [] /\ (forall e, In e l -> e_kind e = KTailor /\ e_proj e = p) /\ (forall i, In i ids <-> In i all /\ exists e, In e l /\ e_id e = i) /\ (NoDup all -> NoDup ids)) /\
  (get_callback all l = CNotImplemented <-> (exists e e', In e l /\ In e' l /\ e_kind e = KTailor /\ (e_kind e' <> KTailor \/ e_proj e' <> e_proj e))).
Proof.
  intros Hk. unfold get_callback.
  set (is_t := fun e : entry => match snd (fst (fst e)) with KTailor => true | _ => false end). set (is_e := fun e : entry => match snd (fst (fst e)) with KExternal | KDelta => true | _ => false end).
  assert (T : forall e, is_t e = true <-> e_kind e = KTailor) by (intros [[[i []] p] b]; cbn; intuition (congruence || discriminate)).
  assert (X : forall e, In e l -> (is_e e = true <-> e_kind e <> KTailor)) by (intros e He; pose proof (Hk e He) as HK; destruct e as [[[i []] p] b]; cbn in *; intuition (congruence || discriminate)).
  assert (TT : forall e, In e (filter is_t l) <-> In e l /\ e_kind e = KTailor) by (intros e; rewrite filter_In, T; reflexivity).
  assert (XX : forall e, In e (filter is_e l) <-> In e l /\ e_kind e <> KTailor) by (intros e; rewrite filter_In; split; intros [H G]; (split; [exact H|apply (X e H); exact G])).
  destruct (filter is_t l) as [|e0 tl] eqn:ET.
  - assert (N : forall e, In e l -> e_kind e <> KTailor) by (intros e He G; apply (proj2 (TT e)); split; assumption).
    assert (EL : filter is_e l = l).
    { clear -N X. induction l as [|e l IH]; [reflexivity|]. cbn [filter]. rewrite (proj2 (X e (or_introl eq_refl)) (N e (or_introl eq_refl))). f_equal. apply IH; intros; [apply X|apply N]; right; assumption. }
    rewrite EL. destruct l as [|e1 l1].
    + split; [split; reflexivity|]. split; [intros l'; split; [discriminate|intros (_ & H & _); elim H; reflexivity]|]. split; [discriminate|]. split; [discriminate|]. intros (e & e' & [] & _).
    + split; [split; discriminate|]. split; [intros l'; split; [intros H; injection H as <-; split; [reflexivity|split; [discriminate|exact N]]|intros (-> & _); reflexivity]|]. split; [discriminate|]. split; [discriminate|].
      intros (e & e' & He & _ & G & _). elim (N e He G).
  - assert (H0 : In e0 l /\ e_kind e0 = KTailor) by (apply TT; left; reflexivity). destruct H0 as [I0 K0]. assert (NE : l <> []) by (intros ->; destruct I0).
    destruct (filter is_e l) as [|e1 el] eqn:EE.
    + assert (A : forall e, In e l -> e_kind e = KTailor) by (intros e He; destruct (e_kind e) eqn:G; [reflexivity| | |]; (exfalso; apply (proj2 (XX e)); split; [exact He|rewrite G; discriminate])).
      assert (IN : forall e, In e (e0 :: tl) <-> In e l) by (intros e; rewrite TT; split; [intros H; apply H|intros H; split; [exact H|apply A; exact H]]).
      destruct (existsb (fun t : entry => negb (Nat.eqb (snd (fst t)) (snd (fst e0)))) (e0 :: tl)) eqn:EX.
      * split; [split; [discriminate|intros H; elim (NE H)]|]. split; [intros l'; split; [discriminate|intros (_ & _ & H); elim (H e0 I0 K0)]|]. split; [discriminate|]. split; [intros _|reflexivity].
        apply existsb_exists in EX. destruct EX as (e & He & G). exists e0, e. split; [exact I0|]. split; [apply IN; exact He|]. split; [exact K0|]. right. intros Q. unfold e_proj in Q. rewrite Q, Nat.eqb_refl in G. discriminate G.
      * assert (PP : forall e, In e l -> e_proj e = e_proj e0).
        { intros e He. apply IN in He. destruct (Nat.eqb (snd (fst e)) (snd (fst e0))) eqn:G; [apply Nat.eqb_eq; exact G|]. exfalso. assert (Q : existsb (fun t : entry => negb (Nat.eqb (snd (fst t)) (snd (fst e0)))) (e0 :: tl) = true) by (apply existsb_exists; exists e; split; [exact He|rewrite G; reflexivity]). rewrite Q in EX. discriminate EX. }
        split; [split; [discriminate|intros H; elim (NE H)]|]. split; [intros l'; split; [discriminate|intros (_ & _ & H); elim (H e0 I0 K0)]|]. split.
        -- intros ids p H. injection H as <- <-. split; [exact NE|]. split; [intros e He; split; [apply A; exact He|apply PP; exact He]|]. split; [|intros ND; apply NoDup_filter; exact ND].
           intros i. change (In i (filter (fun i => existsb (fun t : entry => Nat.eqb (fst (fst (fst t))) i) (e0 :: tl)) all) <-> In i all /\ exists e, In e l /\ e_id e = i). rewrite filter_In, existsb_exists. split; intros [H (e & He & G)]; (split; [exact H|]); exists e.
           ++ split; [apply IN; exact He|apply Nat.eqb_eq; exact G].
           ++ split; [apply IN; exact He|apply Nat.eqb_eq; exact G].
        -- split; [discriminate|]. intros (e & e' & He & He' & _ & [G|G]); [elim (G (A e' He'))|]. elim G. rewrite (PP e He), (PP e' He'). reflexivity.
    + assert (H1 : In e1 l /\ e_kind e1 <> KTailor) by (apply XX; left; reflexivity). destruct H1 as [I1 K1].
      split; [split; [discriminate|intros H; elim (NE H)]|]. split; [intros l'; split; [discriminate|intros (_ & _ & H); elim (H e0 I0 K0)]|]. split; [discriminate|]. split; [intros _|reflexivity].
      exists e0, e1. split; [exact I0|]. split; [exact I1|]. split; [exact K0|]. left. exact K1.
Qed.

(** ** Concrete cases: rational numbers *)
Section Cases.
Definition qo (n : Z) (d : positive) : QO := q n d.
Notation hf := (qo 1 2). Notation mat := (nat -> nat -> QO). Notation ten := (nat -> nat -> nat -> nat -> QO).
Ltac qq := first [apply eqq_ok; vm_compute; reflexivity | apply neqq; vm_compute; reflexivity].
(** rotation by an angle with cosine 3/5; its columns are the occupied orbitals of the other fragments *)
Definition rot : mat := fun i j => match i, j with O, O => qo 3 5 | O, _ => qo 4 5 | S _, O => qo 4 5 | _, _ => qo (-3) 5 end.
Definition col (c : nat) : mat := fun i _ => rot i c.
Definition one1 : mat := fun _ _ => qo 1 1.
Definition sel (c : nat) : mat := fun _ i => if Nat.eqb i c then qo 1 1 else qo 0 1.
Definition w1 (s : Z) : mat := fun i a => Q2Qc (Qmake (s + Z.of_nat (2 * i + a)) 7).
Definition w2 (s : Z) : ten := fun i j a b => Q2Qc (Qmake (s + Z.of_nat (3 * (i + j) + 5 * (i * j) + a * b + i * a + j * b)) 11).
(** two fragments with one occupied orbital each *)
Definition f1 : tfrag := Build_tfrag 1 1 1 1 (col 0) one1 one1 (w1 2) (w2 3).
Definition f2 : tfrag := Build_tfrag 2 1 1 1 (col 1) one1 one1 (w1 4) (w2 5).
(** two fragments with the whole cluster space, each projecting on one of the orbitals *)
Definition g1 : tfrag := Build_tfrag 1 2 1 1 rot one1 (sel 0) (w1 2) (w2 3).
Definition g2 : tfrag := Build_tfrag 2 2 1 1 rot one1 (sel 1) (w1 4) (w2 5).
Definition tx : mat * ten := (w1 1, w2 1).
Ltac lts := repeat match goal with H : (_ < 1)%nat |- _ => apply Nat.lt_1_r in H; subst | H : (?i < 2)%nat |- _ => destruct i as [|[|?]]; [clear H|clear H|exfalso; lia] end.
Lemma f_hyp y : In y [f1; f2] -> t_id y <> 9%nat /\ overlaps (qo 1 100) 2 1 y /\ within 2 (t_no y) (t_ro y) /\ within 1 (t_nv y) (t_rv y).
Proof.
  intros [<-|[<-|[]]]; (split; [cbn; discriminate|]; split; [split; exists 0%nat, 0%nat; (split; [cbn; lia|split; [cbn; lia|]]); vm_compute; try reflexivity; try discriminate|]; split; intros i j Hi Hj; cbn in Hi, Hj; lts; qq).
Qed.
Lemma f_apart : apart 2 1 [f1; f2].
Proof.
  intros l1 y l2 E z Hz. left. destruct l1 as [|? [|? [|? ?]]]; cbn in E; injection E; intros; subst; cbn in Hz; try discriminate; destruct Hz as [<-|[]]; intros i j Hi Hj; cbn in Hi, Hj; lts; qq.
Qed.
Example C65_replaced_case : exists t', r_tailor hf (qo 1 100) 9 2 1 [f1; f2] 0 true true tx = Ret t' /\ fst t' 0%nat 0%nat <> fst tx 0%nat 0%nat /\ seen1 2 1 f1 (fst t') 0%nat 0%nat = qo 2 7 /\ seen2 2 1 f2 (snd t') 0%nat 0%nat 0%nat 0%nat = qo 5 11.
Proof.
  destruct (C65_replaced hf (qo 1 100) 9 2 1 [f1; f2] tx f_hyp f_apart) as (t' & E & H & _). exists t'. split; [exact E|]. split; [|split].
  - cbn [M_Tailor.r_tailor] in E. destruct (r_tailor_ok hf (qo 1 100) 9 2 1 0 [f1; f2] tx ltac:(lia) (fun y Hy => proj1 (f_hyp y Hy))) as (t1 & E1 & H1 & _). rewrite E in E1. injection E1 as <-. rewrite H1. qq.
  - rewrite (proj1 (H f1 (or_introl eq_refl) 0 0 0 0 ltac:(cbn; lia) ltac:(cbn; lia) ltac:(cbn; lia) ltac:(cbn; lia))%nat). qq.
  - rewrite (proj2 (H f2 (or_intror (or_introl eq_refl)) 0 0 0 0 ltac:(cbn; lia) ltac:(cbn; lia) ltac:(cbn; lia) ltac:(cbn; lia))%nat). qq.
Qed.
Lemma w2_sym s : psym (w2 s). Proof. intros i j a b. unfold w2. f_equal. f_equal. f_equal. f_equal. ring. Qed.
Lemma g_hyp y : In y [g1; g2] -> t_id y <> 9%nat /\ overlaps (qo 1 100) 2 1 y /\ covers 2 (t_no y) (t_ro y) /\ covers 1 (t_nv y) (t_rv y).
Proof.
  intros [<-|[<-|[]]]; (split; [cbn; discriminate|]; split; [split; exists 0%nat, 0%nat; (split; [cbn; lia|split; [cbn; lia|]]); vm_compute; try reflexivity; try discriminate|]; split; intros i j Hi Hj; lts; qq).
Qed.
Lemma g_sum i j : (i < 2)%nat -> (j < 2)%nat -> Lsum [g1; g2] (fun y => proj_x y i j) = delta i j.
Proof. intros Hi Hj. lts; qq. Qed.
Example C65_assembled_case : exists t', r_tailor hf (qo 1 100) 9 2 1 [g1; g2] 1 true true tx = Ret t' /\ snd t' 0%nat 1%nat 0%nat 0%nat = hf * (Lsum [g1; g2] (fun y => share2 y 0%nat 1%nat 0%nat 0%nat) + Lsum [g1; g2] (fun y => share2 y 1%nat 0%nat 0%nat 0%nat)) /\ snd t' 0%nat 1%nat 0%nat 0%nat <> snd tx 0%nat 1%nat 0%nat 0%nat.
Proof.
  destruct (C65_assembled hf (qo 1 100) 9 2 1 [g1; g2] tx ltac:(qq) (w2_sym 1) g_hyp g_sum) as (t' & E & H). exists t'. split; [exact E|].
  destruct (H 0 1 0 0 ltac:(lia) ltac:(lia) ltac:(lia) ltac:(lia))%nat as [_ G]. split; [exact G|]. rewrite G. qq.
Qed.
Example C65_both_projected_case : exists t', r_tailor hf (qo 1 100) 9 2 1 [g1; g2] 2 true true tx = Ret t' /\ snd t' 0%nat 1%nat 0%nat 0%nat <> snd tx 0%nat 1%nat 0%nat 0%nat.
Proof.
  destruct (C65_both_projected hf (qo 1 100) 9 2 1 [g1; g2] tx) as (t' & E & H); [intros y Hy; destruct (g_hyp y Hy) as (A & B & _ & C); auto|]. exists t'. split; [exact E|].
  destruct (H 0 1 0 0 ltac:(lia) ltac:(lia))%nat as [_ ->]. qq.
Qed.
(** a fragment whose amplitudes are those of the cluster *)
Definition c1 : tfrag := Build_tfrag 1 2 1 1 rot one1 (sel 0) (seen1 2 1 g1 (w1 1)) (seen2 2 1 g1 (w2 1)).
Example C65_consistent_case : exists t', r_tailor hf (qo 1 100) 9 2 1 [c1; c1] 2 true true tx = Ret t' /\ forall i j a b, fst t' i a = fst tx i a /\ snd t' i j a b = snd tx i j a b.
Proof. apply C65_consistent; [lia|]. intros y Hy. assert (E : y = c1) by (destruct Hy as [<-|[<-|[]]]; reflexivity). subst y. split; [cbn; discriminate|]. intros. split; reflexivity. Qed.
Example C65_twice_case : exists t' t'', r_tailor hf (qo 1 100) 9 2 1 [f1; f2] 0 true true tx = Ret t' /\ r_tailor hf (qo 1 100) 9 2 1 [f1; f2] 0 true true t' = Ret t'' /\ forall i j a b, fst t'' i a = fst t' i a /\ snd t'' i j a b = snd t' i j a b.
Proof.
  destruct C65_replaced_case as (t' & E & _). destruct (C65_twice hf (qo 1 100) 9 2 1 [f1; f2] tx t' f_hyp f_apart E) as (t'' & E' & H). exists t', t''. auto.
Qed.
Example C65_pair_symmetry_case : exists t', r_tailor hf (qo 1 100) 9 2 1 [g1; g2] 1 true true tx = Ret t' /\ forall i j a b, snd t' i j a b = snd t' j i b a.
Proof.
  destruct C65_assembled_case as (t' & E & _). exists t'. split; [exact E|]. apply (C65_pair_symmetry hf (qo 1 100) 9 2 1 1 [g1; g2] tx t' ltac:(lia) (fun y Hy => proj1 (g_hyp y Hy)) (w2_sym 1)); [|exact E].
  intros y [<-|[<-|[]]]; apply w2_sym.
Qed.
Definition far : tfrag := Build_tfrag 5 2 1 1 (fun _ _ => qo 0 1) one1 (sel 0) (w1 3) (w2 3).
Example C65_remote_case : exists t' t'', r_tailor hf (qo 0 1) 9 2 1 [g1; far; g2] 1 true true tx = Ret t' /\ r_tailor hf (qo 0 1) 9 2 1 [g1; g2] 1 true true tx = Ret t'' /\ snd t' 1%nat 0%nat 0%nat 0%nat = snd t'' 1%nat 0%nat 0%nat 0%nat.
Proof.
  destruct (C65_remote hf (qo 0 1) 9 2 1 1 [g1] far [g2] tx ltac:(lia)) as (t' & t'' & E & E' & H); [intros z [<-|[<-|[<-|[]]]]; cbn; discriminate|left; intros; reflexivity|].
  exists t', t''. split; [exact E|]. split; [exact E'|]. apply (H 1 0 0 0)%nat; lia.
Qed.
Example C65_cas_case : exists t', r_tailor hf (qo 1 100) 9 2 1 [f1] 0 true true tx = Ret t' /\ fst (tcc_tailor 2 1 1 1 (col 0) one1 (w1 2) (w2 3) tx) 1%nat 0%nat = fst t' 1%nat 0%nat /\ fst t' 1%nat 0%nat <> fst tx 1%nat 0%nat.
Proof.
  destruct (C65_cas hf (qo 1 100) 9 2 1 f1 tx ltac:(cbn; discriminate) (proj1 (proj2 (f_hyp f1 (or_introl eq_refl))))) as (t' & E & H). exists t'. split; [exact E|].
  pose proof (proj1 (H 1 0 0 0)%nat) as G. split; [exact G|]. rewrite <- G. qq.
Qed.
(** Finding: the fragments are not corrected for each other.  Without projection two fragments with the same space and the same amplitudes give twice these amplitudes instead of
    them, so that the documented replacement only holds for fragments without common space (C65_replaced) or with projection (C65_assembled) *)
Theorem C65_overlap_refuted : exists y z t', t_ro y = t_ro z /\ t_rv y = t_rv z /\ t_t1 y = t_t1 z /\ t_t2 y = t_t2 z /\ t_id y <> t_id z /\
  r_tailor hf (qo 1 100) 9 1 1 [y; z] 0 true true ((fun _ _ => qo 0 1), (fun _ _ _ _ => qo 0 1)) = Ret t' /\ t_t1 y 0%nat 0%nat = qo 1 1 /\ fst t' 0%nat 0%nat = qo 2 1 /\ snd t' 0%nat 0%nat 0%nat 0%nat = qo 2 1.
Proof.
  set (y := Build_tfrag (K := QO) 1 1 1 1 one1 one1 one1 (fun _ _ => qo 1 1) (fun _ _ _ _ => qo 1 1)). set (z := Build_tfrag (K := QO) 2 1 1 1 one1 one1 one1 (fun _ _ => qo 1 1) (fun _ _ _ _ => qo 1 1)).
  assert (Ho : forall w, In w [y; z] -> t_id w <> 9%nat /\ overlaps (qo 1 100) 1 1 w).
  { intros w [<-|[<-|[]]]; (split; [cbn; discriminate|]; split; exists 0%nat, 0%nat; (split; [cbn; lia|split; [cbn; lia|]]); vm_compute; try reflexivity; try discriminate). }
  destruct (r_tailor_ok hf (qo 1 100) 9 1 1 0 [y; z] ((fun _ _ => qo 0 1), (fun _ _ _ _ => qo 0 1)) ltac:(lia) (fun w Hw => proj1 (Ho w Hw))) as (t' & E & H1 & H2).
  exists y, z, t'. repeat (split; [reflexivity|]). split; [cbn; discriminate|]. split; [exact E|]. split; [reflexivity|]. rewrite H1, H2, !kept by (intros w Hw; apply (Ho w Hw)). split; qq.
Qed.
(** unrestricted *)
Definition asym (s : Z) : ten := fun i j a b => w2 s i j a b - w2 s j i a b.
Definition uf1 : utfrag := Build_utfrag 1 (1, 1)%nat (1, 1)%nat (1, 1)%nat (col 0, col 1) (one1, one1) (one1, one1) (w1 2, w1 3) ((fun _ _ _ _ => qo 0 1), w2 3, (fun _ _ _ _ => qo 0 1)).
Definition uf2 : utfrag := Build_utfrag 2 (1, 1)%nat (1, 1)%nat (1, 1)%nat (col 1, col 0) (one1, one1) (one1, one1) (w1 5, w1 4) ((fun _ _ _ _ => qo 0 1), w2 5, (fun _ _ _ _ => qo 0 1)).
Definition utx : (mat * mat) * (ten * ten * ten) := ((w1 1, w1 2), (asym 1, w2 1, asym 2)).
Lemma uf_hyp y : In y [uf1; uf2] -> v_id y <> 9%nat /\ overlaps_u (qo 1 100) (2, 2)%nat (1, 1)%nat y /\ within_u (2, 2)%nat (1, 1)%nat y.
Proof.
  intros [<-|[<-|[]]]; (split; [cbn; discriminate|]; split; [split; left; exists 0%nat, 0%nat; (split; [cbn; lia|split; [cbn; lia|]]); vm_compute; try reflexivity; try discriminate|]; split; split; intros i j Hi Hj; cbn in Hi, Hj; lts; qq).
Qed.
Lemma ufa_apart : apart 2 1 (map alpha [uf1; uf2]).
Proof. intros l1 y l2 E z Hz. left. destruct l1 as [|? [|? [|? ?]]]; cbn in E; injection E; intros; subst; cbn in Hz; try discriminate; destruct Hz as [<-|[]]; intros i j Hi Hj; cbn in Hi, Hj; lts; qq. Qed.
Lemma ufb_apart : apart 2 1 (map beta [uf1; uf2]).
Proof. intros l1 y l2 E z Hz. left. destruct l1 as [|? [|? [|? ?]]]; cbn in E; injection E; intros; subst; cbn in Hz; try discriminate; destruct Hz as [<-|[]]; intros i j Hi Hj; cbn in Hi, Hj; lts; qq. Qed.
Example C65_replaced_unrestricted_case : exists t', u_tailor hf (qo 1 100) 9 (2, 2)%nat (1, 1)%nat [uf1; uf2] 0 true true utx = Ret t' /\
  seen1 2 1 (beta uf2) (snd (fst t')) 0%nat 0%nat = qo 4 7 /\ seen_ab (2, 2)%nat (1, 1)%nat uf2 (snd (fst (snd t'))) 0%nat 0%nat 0%nat 0%nat = qo 5 11 /\ seen_ab (2, 2)%nat (1, 1)%nat uf2 (w2 1) 0%nat 0%nat 0%nat 0%nat <> qo 5 11.
Proof.
  destruct (C65_replaced_unrestricted hf (qo 1 100) 9 (2, 2)%nat (1, 1)%nat [uf1; uf2] utx uf_hyp ufa_apart ufb_apart) as (t' & E & _ & HB & HAB). exists t'. split; [exact E|]. split; [|split].
  - etransitivity; [exact (proj1 (HB uf2 (or_intror (or_introl eq_refl)) 0 0 0 0 ltac:(cbn; lia) ltac:(cbn; lia) ltac:(cbn; lia) ltac:(cbn; lia))%nat)|qq].
  - rewrite (HAB uf2 (or_intror (or_introl eq_refl)) 0 0 0 0 ltac:(cbn; lia) ltac:(cbn; lia) ltac:(cbn; lia) ltac:(cbn; lia))%nat. qq.
  - qq.
Qed.
Definition ug (id : nat) (sa sb : nat) (s : Z) : utfrag := Build_utfrag id (2, 2)%nat (1, 1)%nat (1, 1)%nat (rot, rot) (one1, one1) (sel sa, sel sb) (w1 s, w1 (s + 1)) (asym s, w2 s, asym (s + 2)).
Lemma ug_hyp y : In y [ug 1 0 1 2; ug 2 1 0 4] -> v_id y <> 9%nat /\ overlaps_u (qo 1 100) (2, 2)%nat (1, 1)%nat y /\ covers_u (2, 2)%nat (1, 1)%nat y.
Proof.
  intros [<-|[<-|[]]]; (split; [cbn; discriminate|]; split; [split; left; exists 0%nat, 0%nat; (split; [cbn; lia|split; [cbn; lia|]]); vm_compute; try reflexivity; try discriminate|]; split; split; intros i j Hi Hj; cbn in Hi, Hj; lts; qq).
Qed.
Lemma asym_sym s i j a b : asym s i j a b = asym s j i b a.
Proof. unfold asym. rewrite (w2_sym s i j a b), (w2_sym s j i a b). reflexivity. Qed.
Example C65_assembled_unrestricted_case : exists t', u_tailor hf (qo 1 100) 9 (2, 2)%nat (1, 1)%nat [ug 1 0 1 2; ug 2 1 0 4] 1 true true utx = Ret t' /\
  snd (fst (snd t')) 0%nat 1%nat 0%nat 0%nat = hf * (Lsum [ug 1 0 1 2; ug 2 1 0 4] (fun y => share_a y 0%nat 1%nat 0%nat 0%nat) + Lsum [ug 1 0 1 2; ug 2 1 0 4] (fun y => share_b y 0%nat 1%nat 0%nat 0%nat)) /\
  snd (fst (snd t')) 0%nat 1%nat 0%nat 0%nat <> w2 1 0%nat 1%nat 0%nat 0%nat.
Proof.
  destruct (C65_assembled_unrestricted hf (qo 1 100) 9 (2, 2)%nat (1, 1)%nat [ug 1 0 1 2; ug 2 1 0 4] utx ltac:(qq) (asym_sym 1) (asym_sym 2) ug_hyp) as (t' & E & _ & _ & H); [intros i j Hi Hj; cbn in Hi, Hj; lts; qq ..|].
  exists t'. split; [exact E|]. rewrite (H 0 1 0 0 ltac:(cbn; lia) ltac:(cbn; lia) ltac:(cbn; lia) ltac:(cbn; lia))%nat. split; [reflexivity|qq].
Qed.
Definition uc1 : utfrag := let y := ug 1 0 1 2 in Build_utfrag 1 (2, 2)%nat (1, 1)%nat (1, 1)%nat (rot, rot) (one1, one1) (sel 0, sel 1) (seen1 2 1 (alpha y) (w1 1), seen1 2 1 (beta y) (w1 2))
  (seen2 2 1 (alpha y) (asym 1), seen_ab (2, 2)%nat (1, 1)%nat y (w2 1), seen2 2 1 (beta y) (asym 2)).
Example C65_consistent_unrestricted_case : exists t', u_tailor hf (qo 1 100) 9 (2, 2)%nat (1, 1)%nat [uc1; uc1] 1 true true utx = Ret t' /\ forall i j a b,
    (fst (fst t') i a = fst (fst utx) i a /\ snd (fst t') i a = snd (fst utx) i a) /\
    (fst (fst (snd t')) i j a b = fst (fst (snd utx)) i j a b /\ snd (fst (snd t')) i j a b = snd (fst (snd utx)) i j a b /\ snd (snd t') i j a b = snd (snd utx) i j a b).
Proof.
  assert (U : forall y, In y [uc1; uc1] -> y = uc1) by (intros y [<-|[<-|[]]]; reflexivity).
  apply C65_consistent_unrestricted; [lia|intros y Hy; rewrite (U y Hy); cbn; discriminate|..]; intros y Hy; rewrite (U y Hy); intros; try split; reflexivity.
Qed.
Lemma asym_anti s : (forall i j a b, asym s i j a b = - asym s j i a b) /\ (forall i j a b, asym s i j a b = - asym s i j b a).
Proof.
  assert (A : forall i j a b, asym s i j a b = - asym s j i a b) by (intros; unfold asym; generalize (w2 s i j a b) (w2 s j i a b); intros x y; change (Qcminus x y = Qcopp (Qcminus y x)); ring).
  split; [exact A|]. intros i j a b. rewrite (asym_sym s i j a b). apply A.
Qed.
Example C65_antisymmetry_case : exists t', u_tailor hf (qo 1 100) 9 (2, 2)%nat (1, 1)%nat [ug 1 0 1 2; ug 2 1 0 4] 1 true true utx = Ret t' /\ anti (fst (fst (snd t'))) /\ anti (snd (snd t')).
Proof.
  destruct C65_assembled_unrestricted_case as (t' & E & _). exists t'. split; [exact E|]. apply (C65_antisymmetry hf (qo 1 100) 9 (2, 2)%nat (1, 1)%nat 1 [ug 1 0 1 2; ug 2 1 0 4] utx t' ltac:(lia)); [|apply asym_anti|apply asym_anti|exact E].
  intros y Hy. split; [apply (ug_hyp y Hy)|]. destruct Hy as [<-|[<-|[]]]; split; apply asym_anti.
Qed.
Example C65_closed_shell_case : exists t' u', r_tailor hf (qo 1 100) 9 2 1 [g1; g2] 1 true true tx = Ret t' /\ u_tailor hf (qo 1 100) 9 (2, 2)%nat (1, 1)%nat (map closed [g1; g2]) 1 true true (cl1 (w1 1), cl2 (w2 1)) = Ret u' /\
  snd (snd u') 0%nat 1%nat 0%nat 0%nat = snd t' 0%nat 1%nat 0%nat 0%nat - snd t' 1%nat 0%nat 0%nat 0%nat.
Proof.
  destruct (C65_closed_shell hf (qo 1 100) 9 2 1 1 [g1; g2] tx ltac:(lia) (fun y Hy => proj1 (g_hyp y Hy)) (w2_sym 1)) as (t' & u' & E & F & H); [intros y [<-|[<-|[]]]; apply w2_sym|].
  exists t', u'. split; [exact E|]. split; [exact F|]. apply (H 0 1 0 0)%nat.
Qed.
Definition faint : tfrag := Build_tfrag 5 2 1 1 rot (fun _ _ => qo 1 200) (sel 0) (w1 3) (w2 3).
Example C65_threshold_case : r_tailor hf (qo 1 100) 9 2 1 [g1; faint; g2] 1 true true tx = r_tailor hf (qo 1 100) 9 2 1 [g1; g2] 1 true true tx /\ t_rv faint 0%nat 0%nat <> 0.
Proof. split; [|qq]. apply (C65_threshold hf (qo 1 100) 9 2 1 1 true true [g1] faint [g2] tx); [vm_compute; reflexivity|cbn; discriminate|]. right. intros. vm_compute. reflexivity. Qed.
Definition ufaint : utfrag := Build_utfrag 5 (2, 2)%nat (1, 1)%nat (1, 1)%nat (rot, rot) ((fun _ _ => qo 1 200), (fun _ _ => qo (-1) 300)) (sel 0, sel 1) (w1 3, w1 4) (asym 3, w2 3, asym 3).
Example C65_threshold_unrestricted_case : u_tailor hf (qo 1 100) 9 (2, 2)%nat (1, 1)%nat [uf1; ufaint; uf2] 1 true true utx = u_tailor hf (qo 1 100) 9 (2, 2)%nat (1, 1)%nat [uf1; uf2] 1 true true utx.
Proof. apply (C65_threshold_unrestricted hf (qo 1 100) 9 (2, 2)%nat (1, 1)%nat 1 true true [uf1] ufaint [uf2] utx); [vm_compute; reflexivity|cbn; discriminate|]. right. split; intros; vm_compute; reflexivity. Qed.
Example C65_level3_case : r_tailor hf (qo 1 100) 9 2 1 [g1; g2] 3 true true tx = ValueErr.
Proof. apply C65_level3_refuted; [lia|exact (fun y Hy => proj1 (g_hyp y Hy))|]. exists g1. split; [left; reflexivity|]. apply (g_hyp g1). left. reflexivity. Qed.
End Cases.
(** a history: two corrections, a refused one, clear, a correction by two fragments, one of them twice *)
Example C65_list_case : let h := [Add [Build_cfrag 1 true false] KTailor 1 true true; Add [Build_cfrag 2 false false] KTailor 1 false true; Clear; Add [Build_cfrag 3 true false; Build_cfrag 4 false true] KTailor 2 false true; Add [Build_cfrag 3 true false] KTailor 2 true true; Add [Build_cfrag 7 true true] KDelta 2 true false] in
  let r := calls h (Build_fstate SCCSD [] false) in map snd (fst r) = [Done; AddValueError; Done; Done; Done; AddValueError] /\ fs_list (snd r) = [(3, KTailor, 2, true); (4, KTailor, 2, true); (3, KTailor, 2, true)]%nat /\
  fs_list (snd r) = flat_map asked (since_clear (fst r) []) /\ get_callback [0; 1; 2; 3; 4; 5]%nat (fs_list (snd r)) = CTailor [3; 4]%nat 2.
Proof. cbv zeta. split; [reflexivity|]. split; [reflexivity|]. split; [apply C65_list; reflexivity|reflexivity]. Qed.
Example C65_test_flag_case : let h := [Add [Build_cfrag 1 true false] KTailor 1 true true; Clear; Add [Build_cfrag 3 true false] KTailor 2 true true; Add [Build_cfrag 2 false false] KTailor 1 false true] in
  let r := calls h (Build_fstate SCCSD [] false) in fs_test (snd r) = true /\ fs_test (snd r) = fold_left (fun b c => flagged c b) (since_clear (fst r) []) false /\ fs_test (snd (calls (h ++ [Clear]) (Build_fstate SCCSD [] false))) = false.
Proof. cbv zeta. split; [reflexivity|]. split; [apply C65_test_flag; reflexivity|reflexivity]. Qed.
(** Finding: test_extcorr=True of one call is lost when a later call does not repeat it; the corrections of the first call stay *)
Theorem C65_test_flag_refuted : exists s s1 s2 fr fr', add_external s fr KExternal 1 true true = (Done, s1) /\ fs_test s1 = true /\ add_external s1 fr' KExternal 1 false true = (Done, s2) /\ fs_test s2 = false /\ (exists e, In e (fs_list s1)) /\ forall e, In e (fs_list s1) -> In e (fs_list s2).
Proof.
  exists (Build_fstate SCCSD [] false), (Build_fstate SextCCSD [(1, KExternal, 1, true)]%nat true), (Build_fstate SextCCSD [(1, KExternal, 1, true); (2, KExternal, 1, true)]%nat false), [Build_cfrag 1 true false], [Build_cfrag 2 true false].
  split; [reflexivity|]. split; [reflexivity|]. split; [reflexivity|]. split; [reflexivity|]. split; [eexists; left; reflexivity|]. intros e [<-|[]]. left. reflexivity.
Qed.

Print Assumptions C65_replaced.
Print Assumptions C65_consistent.
Print Assumptions C65_twice.
Print Assumptions C65_assembled.
Print Assumptions C65_both_projected.
Print Assumptions C65_pair_symmetry.
Print Assumptions C65_remote.
Print Assumptions C65_threshold.
Print Assumptions C65_threshold_unrestricted.
Print Assumptions C65_cas.
Print Assumptions C65_level3_refuted.
Print Assumptions C65_one_kind_refuted.
Print Assumptions C65_replaced_unrestricted.
Print Assumptions C65_consistent_unrestricted.
Print Assumptions C65_assembled_unrestricted.
Print Assumptions C65_antisymmetry.
Print Assumptions C65_closed_shell.
Print Assumptions C65_list.
Print Assumptions C65_test_flag.
Print Assumptions C65_accepted.
Print Assumptions C65_dispatch.
Print Assumptions C65_overlap_refuted.
Print Assumptions C65_test_flag_refuted.
