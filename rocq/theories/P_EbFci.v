(** * Properties of exact diagonalisation with bosons (model in M_EbFci) *)
From Coq Require Import List Bool Arith Lia Ring ZArith QArith Qcanon.
From Verif Require Import Alg Ord M_TtoC P_TtoC M_EbFci.
Import ListNotations.
Open Scope K_scope.

Section EB.
Context {K : cring}.
Add Ring Kr : (rth K).
Notation mat := (nat -> nat -> K). Notation ten := (nat -> nat -> nat -> nat -> K).
Notation ci := (@ci K). Notation entry := (@entry K).

(** ** What a link table says: the matrix of a^+ i between strings *)
Definition lk (tab : list (list entry)) (a i s1 s0 : nat) : K := Lsum (nth s0 tab []) (fun e : entry => let '(a', i', s', sg) := e in if Nat.eqb a' a && Nat.eqb i' i && Nat.eqb s' s1 then sg else 0).
(** one body operators of n electrons: within bounds, adjoint, number of electrons, and the relation of a product of two to the one with the creators exchanged *)
Record link_ok (norb : nat) (N : K) (tab : list (list entry)) : Prop := {
  lk_bound : forall s0 a i s1 sg, In (a, i, s1, sg) (nth s0 tab []) -> (a < norb)%nat /\ (i < norb)%nat /\ (s1 < length tab)%nat;
  lk_adj : forall a i s1 s0, (a < norb)%nat -> (i < norb)%nat -> (s1 < length tab)%nat -> (s0 < length tab)%nat -> lk tab a i s1 s0 = lk tab i a s0 s1;
  lk_num : forall s1 s0, (s1 < length tab)%nat -> (s0 < length tab)%nat -> Sum norb (fun p => lk tab p p s1 s0) = delta s1 s0 * N;
  lk_exch : forall p q r s x y, (p < norb)%nat -> (q < norb)%nat -> (r < norb)%nat -> (s < norb)%nat -> (x < length tab)%nat -> (y < length tab)%nat ->
    Sum (length tab) (fun m => lk tab p q x m * lk tab r s m y) - delta q r * lk tab p s x y = - (Sum (length tab) (fun m => lk tab r q x m * lk tab p s m y) - delta q p * lk tab r s x y) }.

Lemma if_mul (b : bool) (x y : K) : (if b then x * y else 0) = (if b then x else 0) * y.
Proof. destruct b; ring. Qed.
Lemma sum_pick n k (f : nat -> K) : (k < n)%nat -> Sum n (fun i => if Nat.eqb k i then f i else 0) = f k.
Proof. intros H. rewrite (Sum_single n k); [now rewrite Nat.eqb_refl|exact H|]. intros i _ Hi. destruct (Nat.eqb_spec k i); [congruence|reflexivity]. Qed.
(** a loop over the entries for one string *)
Lemma tab_sum norb n (l : list entry) (F : nat -> nat -> nat -> K) : (forall a i s1 sg, In (a, i, s1, sg) l -> (a < norb)%nat /\ (i < norb)%nat /\ (s1 < n)%nat) ->
  Lsum l (fun e : entry => let '(a, i, s1, sg) := e in sg * F a i s1) =
  Sum norb (fun a => Sum norb (fun i => Sum n (fun s1 => Lsum l (fun e : entry => let '(a', i', s', sg) := e in if Nat.eqb a' a && Nat.eqb i' i && Nat.eqb s' s1 then sg else 0) * F a i s1))).
Proof.
  intros H. transitivity (Lsum l (fun e : entry => Sum norb (fun a => Sum norb (fun i => Sum n (fun s1 => (let '(a', i', s', sg) := e in if Nat.eqb a' a && Nat.eqb i' i && Nat.eqb s' s1 then sg else 0) * F a i s1))))).
  - apply Lsum_ext. intros [[[a i] s1] sg] Hin. destruct (H _ _ _ _ Hin) as (Ha & Hi & Hs).
    rewrite (Sum_single norb a); [|exact Ha|]; [rewrite (Sum_single norb i); [|exact Hi|]; [rewrite (Sum_single n s1); [|exact Hs|]|]|].
    + rewrite !Nat.eqb_refl. reflexivity.
    + intros x _ Hx. rewrite (proj2 (Nat.eqb_neq s1 x)) by congruence. rewrite andb_false_r. ring.
    + intros x _ Hx. apply Sum_0. intros y _. rewrite (proj2 (Nat.eqb_neq i x)) by congruence. rewrite andb_false_r. cbn [andb]. ring.
    + intros x _ Hx. apply Sum_0. intros y _. apply Sum_0. intros z _. rewrite (proj2 (Nat.eqb_neq a x)) by congruence. cbn [andb]. ring.
  - rewrite Lsum_Sum. apply Sum_ext. intros a _. rewrite Lsum_Sum. apply Sum_ext. intros i _. rewrite Lsum_Sum. apply Sum_ext. intros s1 _.
    rewrite Lsum_mul_r. reflexivity.
Qed.

(** ** Sums over occupations *)
Definition inbox (n m : nat) (l : list nat) : Prop := length l = n /\ Forall (fun k => (k <= m)%nat) l.
Lemma BSum_ext n m (f g : list nat -> K) : (forall l, inbox n m l -> f l = g l) -> BSum n m f = BSum n m g.
Proof.
  revert f g. induction n as [|n IH]; intros f g H; cbn [BSum].
  - apply H. split; [reflexivity|constructor].
  - apply Sum_ext. intros k Hk. apply IH. intros l [Hl Hf]. apply H. split; [cbn; now rewrite Hl|constructor; [lia|exact Hf]].
Qed.
Lemma BSum_add n m (f g : list nat -> K) : BSum n m (fun l => f l + g l) = BSum n m f + BSum n m g.
Proof. revert f g. induction n as [|n IH]; intros; cbn [BSum]; [reflexivity|]. rewrite <- Sum_add. apply Sum_ext. intros. apply IH. Qed.
Lemma BSum_mul_l n m c (f : list nat -> K) : BSum n m (fun l => c * f l) = c * BSum n m f.
Proof. revert f. induction n as [|n IH]; intros; cbn [BSum]; [reflexivity|]. rewrite <- Sum_mul_l. apply Sum_ext. intros. apply IH. Qed.
Lemma BSum_0 n m : BSum n m (fun _ => 0 : K) = 0.
Proof. induction n as [|n IH]; cbn [BSum]; [reflexivity|]. apply Sum_0. intros. apply IH. Qed.
Lemma BSum_Sum n m k (f : nat -> list nat -> K) : BSum n m (fun l => Sum k (fun i => f i l)) = Sum k (fun i => BSum n m (f i)).
Proof. revert f. induction n as [|n IH]; intros; cbn [BSum]; [reflexivity|]. rewrite Sum_swap. apply Sum_ext. intros j _. apply (IH (fun i l => f i (j :: l))). Qed.
Lemma if_Sum (b : bool) n (f : nat -> K) : Sum n (fun i => if b then f i else 0) = if b then Sum n f else 0.
Proof. destruct b; [reflexivity|apply Sum_zero]. Qed.
(** raising one occupation in one factor is lowering it in the other *)
Lemma shift_occ n m b (G : list nat -> list nat -> nat -> K) : (b < n)%nat ->
  BSum n m (fun l => Sum m (fun i => if Nat.eqb (nth b l 0%nat) (i + 1) then G l (upd b i l) i else 0)) =
  BSum n m (fun l => Sum m (fun i => if Nat.eqb (nth b l 0%nat) i then G (upd b (i + 1) l) l i else 0)).
Proof.
  revert n G. induction b as [|b IH]; intros [|n] G Hb; try lia; cbn [BSum].
  - cbn [nth upd]. transitivity (Sum m (fun i => BSum n m (fun l => G ((i + 1)%nat :: l) (i :: l) i))).
    + transitivity (Sum (S m) (fun k => Sum m (fun i => BSum n m (fun l => if Nat.eqb k (i + 1) then G (k :: l) (i :: l) i else 0)))); [apply Sum_ext; intros k _; apply BSum_Sum|].
      rewrite Sum_swap. apply Sum_ext. intros i Hi. rewrite (Sum_single (S m) (i + 1)); [|lia|].
      * rewrite Nat.eqb_refl. reflexivity.
      * intros k _ Hk. rewrite (proj2 (Nat.eqb_neq k (i + 1))) by exact Hk. apply BSum_0.
    + transitivity (Sum (S m) (fun k => Sum m (fun i => BSum n m (fun l => if Nat.eqb k i then G ((i + 1)%nat :: l) (k :: l) i else 0)))); [|apply Sum_ext; intros k _; symmetry; apply BSum_Sum].
      rewrite Sum_swap. apply Sum_ext. intros i Hi. rewrite (Sum_single (S m) i); [|lia|].
      * rewrite Nat.eqb_refl. reflexivity.
      * intros k _ Hk. rewrite (proj2 (Nat.eqb_neq k i)) by exact Hk. apply BSum_0.
  - apply Sum_ext. intros k _. cbn [nth upd]. apply (IH n (fun x y i => G (k :: x) (k :: y) i)). lia.
Qed.

Section Sys.
Variable half ninv zfac : K.
Variable sq : nat -> K.
Variable norb nbos mocc : nat.
Variable tabA tabB : list (list entry).
Notation dot := (dot nbos mocc tabA tabB).
Notation ex_a := (ex_a tabA). Notation ex_b := (ex_b tabB).
Notation gat_a := (gat_a tabA). Notation gat_b := (gat_b tabB).
Notation tr_a := (tr_a tabA). Notation tr_b := (tr_b tabB).
Notation cre := (cre sq mocc). Notation ann := (ann sq mocc).
Notation na := (length tabA). Notation nb := (length tabB).
Notation contract_ep := (contract_ep zfac sq norb nbos mocc tabA tabB).
Notation contract_pp := (contract_pp sq nbos mocc).
Notation contract_2e := (contract_2e norb tabA tabB).
Notation contract_2e_u := (contract_2e_u norb tabA tabB).
Notation contract_all := (contract_all zfac sq norb nbos mocc tabA tabB).
Notation hop := (hop half ninv zfac sq norb nbos mocc tabA tabB).
Notation hop_u := (hop_u half ninv zfac sq norb nbos mocc tabA tabB).

(** equal vectors *)
Definition veq (x y : ci) : Prop := forall sa sb l, (sa < na)%nat -> (sb < nb)%nat -> inbox nbos mocc l -> x sa sb l = y sa sb l.
Definition vadd (x y : ci) : ci := fun sa sb l => x sa sb l + y sa sb l.
Definition vscal (k : K) (x : ci) : ci := fun sa sb l => k * x sa sb l.
Definition vSum (n : nat) (f : nat -> ci) : ci := fun sa sb l => Sum n (fun i => f i sa sb l).

Lemma dot_ext x x' y y' : veq x x' -> veq y y' -> dot x y = dot x' y'.
Proof. intros H H'. unfold M_EbFci.dot. apply Sum_ext. intros sa Ha. apply Sum_ext. intros sb Hb. apply BSum_ext. intros l Hl. rewrite H, H' by assumption. reflexivity. Qed.
Lemma dot_sym x y : dot x y = dot y x.
Proof. unfold M_EbFci.dot. apply Sum_ext. intros. apply Sum_ext. intros. apply BSum_ext. intros. ring. Qed.
Lemma dot_add_r x y z : dot x (vadd y z) = dot x y + dot x z.
Proof.
  unfold M_EbFci.dot. rewrite <- Sum_add. apply Sum_ext. intros. rewrite <- Sum_add. apply Sum_ext. intros. rewrite <- BSum_add. apply BSum_ext. intros. unfold vadd. ring.
Qed.
Lemma dot_scal_r x k y : dot x (vscal k y) = k * dot x y.
Proof.
  unfold M_EbFci.dot. rewrite <- Sum_mul_l. apply Sum_ext. intros. rewrite <- Sum_mul_l. apply Sum_ext. intros. rewrite <- BSum_mul_l. apply BSum_ext. intros. unfold vscal. ring.
Qed.
Lemma dot_0_r x : dot x (fun _ _ _ => 0) = 0.
Proof. unfold M_EbFci.dot. apply Sum_0. intros. apply Sum_0. intros. transitivity (BSum nbos mocc (fun _ => 0 : K)); [apply BSum_ext; intros; ring|apply BSum_0]. Qed.
Lemma dot_Sum_r n x (f : nat -> ci) : dot x (vSum n f) = Sum n (fun i => dot x (f i)).
Proof.
  induction n as [|n IH].
  - apply dot_0_r.
  - cbn [Sum]. rewrite <- IH, <- dot_add_r. apply dot_ext; intros sa sb l _ _ _; reflexivity.
Qed.
Lemma dot_add_l x y z : dot (vadd y z) x = dot y x + dot z x.
Proof. rewrite dot_sym, dot_add_r, (dot_sym x y), (dot_sym x z). reflexivity. Qed.
Lemma dot_scal_l x k y : dot (vscal k y) x = k * dot y x.
Proof. rewrite dot_sym, dot_scal_r, (dot_sym x y). reflexivity. Qed.
Lemma dot_Sum_l n x (f : nat -> ci) : dot (vSum n f) x = Sum n (fun i => dot (f i) x).
Proof. rewrite dot_sym, dot_Sum_r. apply Sum_ext. intros. apply dot_sym. Qed.
Lemma veq_refl x : veq x x. Proof. intros ? ? ? _ _ _. reflexivity. Qed.
Lemma veq_sym x y : veq x y -> veq y x. Proof. intros H ? ? ? ? ? ?. symmetry. now apply H. Qed.
Lemma veq_trans x y z : veq x y -> veq y z -> veq x z. Proof. intros H H' ? ? ? ? ? ?. rewrite H, H' by assumption. reflexivity. Qed.

(** ** The operators *)
Lemma ex_a_eq c a i sa sb l : ex_a c a i sa sb l = Sum na (fun s0 => lk tabA a i sa s0 * c s0 sb l).
Proof.
  unfold M_EbFci.ex_a, lk. apply Sum_ext. intros s0 _. rewrite <- Lsum_mul_r. apply Lsum_ext. intros [[[a' i'] s'] sg] _. apply if_mul.
Qed.
Lemma ex_b_eq c a i sa sb l : ex_b c a i sa sb l = Sum nb (fun s0 => lk tabB a i sb s0 * c sa s0 l).
Proof.
  unfold M_EbFci.ex_b, lk. apply Sum_ext. intros s0 _. rewrite <- Lsum_mul_r. apply Lsum_ext. intros [[[a' i'] s'] sg] _. apply if_mul.
Qed.
Variable NA NB : K.
Hypothesis HA : link_ok norb NA tabA.
Hypothesis HB : link_ok norb NB tabB.

Lemma gat_a_eq t sa sb l : (sa < na)%nat -> gat_a t sa sb l = Sum norb (fun a => Sum norb (fun i => ex_a (t a i) a i sa sb l)).
Proof.
  intros Hs. unfold M_EbFci.gat_a. transitivity (Sum na (fun s0 => Sum norb (fun a => Sum norb (fun i => lk tabA a i sa s0 * t a i s0 sb l)))).
  - apply Sum_ext. intros s0 _. transitivity (Lsum (nth s0 tabA []) (fun e : entry => let '(a, i, s1, sg) := e in sg * ((fun a i s1 => if Nat.eqb s1 sa then t a i s0 sb l else 0) a i s1))).
    + apply Lsum_ext. intros [[[a i] s1] sg] _. destruct (Nat.eqb s1 sa); ring.
    + rewrite (tab_sum norb na _ (fun a i s1 => if Nat.eqb s1 sa then t a i s0 sb l else 0)) by (intros; eapply lk_bound; eassumption).
      apply Sum_ext. intros a _. apply Sum_ext. intros i _. rewrite (Sum_single na sa); [|exact Hs|].
      * rewrite Nat.eqb_refl. reflexivity.
      * intros x _ Hx. rewrite (proj2 (Nat.eqb_neq x sa)) by exact Hx. ring.
  - rewrite Sum_swap. apply Sum_ext. intros a _. rewrite Sum_swap. apply Sum_ext. intros i _. symmetry. apply ex_a_eq.
Qed.
Lemma gat_b_eq t sa sb l : (sb < nb)%nat -> gat_b t sa sb l = Sum norb (fun a => Sum norb (fun i => ex_b (t a i) a i sa sb l)).
Proof.
  intros Hs. unfold M_EbFci.gat_b. transitivity (Sum nb (fun s0 => Sum norb (fun a => Sum norb (fun i => lk tabB a i sb s0 * t a i sa s0 l)))).
  - apply Sum_ext. intros s0 _. transitivity (Lsum (nth s0 tabB []) (fun e : entry => let '(a, i, s1, sg) := e in sg * ((fun a i s1 => if Nat.eqb s1 sb then t a i sa s0 l else 0) a i s1))).
    + apply Lsum_ext. intros [[[a i] s1] sg] _. destruct (Nat.eqb s1 sb); ring.
    + rewrite (tab_sum norb nb _ (fun a i s1 => if Nat.eqb s1 sb then t a i sa s0 l else 0)) by (intros; eapply lk_bound; eassumption).
      apply Sum_ext. intros a _. apply Sum_ext. intros i _. rewrite (Sum_single nb sb); [|exact Hs|].
      * rewrite Nat.eqb_refl. reflexivity.
      * intros x _ Hx. rewrite (proj2 (Nat.eqb_neq x sb)) by exact Hx. ring.
  - rewrite Sum_swap. apply Sum_ext. intros a _. rewrite Sum_swap. apply Sum_ext. intros i _. symmetry. apply ex_b_eq.
Qed.
Lemma tr_a_ok c i a : (i < norb)%nat -> (a < norb)%nat -> veq (tr_a c i a) (ex_a c i a).
Proof.
  intros Hi Ha s0 sb l Hs _ _. rewrite ex_a_eq. unfold M_EbFci.tr_a.
  transitivity (Lsum (nth s0 tabA []) (fun e : entry => let '(a', i', s1, sg) := e in sg * ((fun a' i' s1 => if Nat.eqb a' a && Nat.eqb i' i then c s1 sb l else 0) a' i' s1))).
  { apply Lsum_ext. intros [[[a' i'] s1] sg] _. destruct (_ && _); ring. }
  rewrite (tab_sum norb na _ (fun a' i' s1 => if Nat.eqb a' a && Nat.eqb i' i then c s1 sb l else 0)) by (intros; eapply lk_bound; eassumption).
  rewrite (Sum_single norb a); [|exact Ha|]; [rewrite (Sum_single norb i); [|exact Hi|]|].
  - apply Sum_ext. intros s1 H1. rewrite !Nat.eqb_refl. cbn [andb]. fold (lk tabA a i s1 s0). rewrite (lk_adj _ _ _ HA) by assumption. reflexivity.
  - intros x _ Hx. apply Sum_0. intros y _. rewrite (proj2 (Nat.eqb_neq x i)) by exact Hx. rewrite andb_false_r. ring.
  - intros x _ Hx. apply Sum_0. intros y _. apply Sum_0. intros z _. rewrite (proj2 (Nat.eqb_neq x a)) by exact Hx. cbn [andb]. ring.
Qed.
Lemma tr_b_ok c i a : (i < norb)%nat -> (a < norb)%nat -> veq (tr_b c i a) (ex_b c i a).
Proof.
  intros Hi Ha sa s0 l _ Hs _. rewrite ex_b_eq. unfold M_EbFci.tr_b.
  transitivity (Lsum (nth s0 tabB []) (fun e : entry => let '(a', i', s1, sg) := e in sg * ((fun a' i' s1 => if Nat.eqb a' a && Nat.eqb i' i then c sa s1 l else 0) a' i' s1))).
  { apply Lsum_ext. intros [[[a' i'] s1] sg] _. destruct (_ && _); ring. }
  rewrite (tab_sum norb nb _ (fun a' i' s1 => if Nat.eqb a' a && Nat.eqb i' i then c sa s1 l else 0)) by (intros; eapply lk_bound; eassumption).
  rewrite (Sum_single norb a); [|exact Ha|]; [rewrite (Sum_single norb i); [|exact Hi|]|].
  - apply Sum_ext. intros s1 H1. rewrite !Nat.eqb_refl. cbn [andb]. fold (lk tabB a i s1 s0). rewrite (lk_adj _ _ _ HB) by assumption. reflexivity.
  - intros x _ Hx. apply Sum_0. intros y _. rewrite (proj2 (Nat.eqb_neq x i)) by exact Hx. rewrite andb_false_r. ring.
  - intros x _ Hx. apply Sum_0. intros y _. apply Sum_0. intros z _. rewrite (proj2 (Nat.eqb_neq x a)) by exact Hx. cbn [andb]. ring.
Qed.
Lemma dot_ex_a x y a i : (a < norb)%nat -> (i < norb)%nat -> dot x (ex_a y a i) = dot (ex_a x i a) y.
Proof.
  intros Ha Hi. unfold M_EbFci.dot.
  transitivity (Sum na (fun sa => Sum na (fun s0 => Sum nb (fun sb => BSum nbos mocc (fun l => x sa sb l * (lk tabA a i sa s0 * y s0 sb l)))))).
  - apply Sum_ext. intros sa _. rewrite (Sum_swap na nb). apply Sum_ext. intros sb _. rewrite <- BSum_Sum. apply BSum_ext. intros l _. rewrite ex_a_eq, <- Sum_mul_l. reflexivity.
  - rewrite Sum_swap. apply Sum_ext. intros s0 H0. rewrite (Sum_swap na nb). apply Sum_ext. intros sb _. rewrite <- BSum_Sum. apply BSum_ext. intros l _. rewrite ex_a_eq, <- Sum_mul_r. apply Sum_ext. intros sa H1.
    rewrite (lk_adj _ _ _ HA) by assumption. ring.
Qed.
Lemma dot_ex_b x y a i : (a < norb)%nat -> (i < norb)%nat -> dot x (ex_b y a i) = dot (ex_b x i a) y.
Proof.
  intros Ha Hi. unfold M_EbFci.dot. apply Sum_ext. intros sa _.
  transitivity (Sum nb (fun sb => Sum nb (fun s0 => BSum nbos mocc (fun l => x sa sb l * (lk tabB a i sb s0 * y sa s0 l))))).
  - apply Sum_ext. intros sb _. rewrite <- BSum_Sum. apply BSum_ext. intros l _. rewrite ex_b_eq, <- Sum_mul_l. reflexivity.
  - rewrite Sum_swap. apply Sum_ext. intros s0 H0. rewrite <- BSum_Sum. apply BSum_ext. intros l _. rewrite ex_b_eq, <- Sum_mul_r. apply Sum_ext. intros sb H1.
    rewrite (lk_adj _ _ _ HB) by assumption. ring.
Qed.
Lemma dot_gat_a x t : dot x (gat_a t) = Sum norb (fun a => Sum norb (fun i => dot (ex_a x i a) (t a i))).
Proof.
  transitivity (dot x (vSum norb (fun a => vSum norb (fun i => ex_a (t a i) a i)))).
  - apply dot_ext; [apply veq_refl|]. intros sa sb l Ha _ _. apply gat_a_eq. exact Ha.
  - rewrite dot_Sum_r. apply Sum_ext. intros a Ha. rewrite dot_Sum_r. apply Sum_ext. intros i Hi. apply dot_ex_a; assumption.
Qed.
Lemma dot_gat_b x t : dot x (gat_b t) = Sum norb (fun a => Sum norb (fun i => dot (ex_b x i a) (t a i))).
Proof.
  transitivity (dot x (vSum norb (fun a => vSum norb (fun i => ex_b (t a i) a i)))).
  - apply dot_ext; [apply veq_refl|]. intros sa sb l _ Hb _. apply gat_b_eq. exact Hb.
  - rewrite dot_Sum_r. apply Sum_ext. intros a Ha. rewrite dot_Sum_r. apply Sum_ext. intros i Hi. apply dot_ex_b; assumption.
Qed.
(** the spin-summed excitation *)
Definition ex (c : ci) (a i : nat) : ci := vadd (ex_a c a i) (ex_b c a i).
Lemma dot_ex x y a i : (a < norb)%nat -> (i < norb)%nat -> dot x (ex y a i) = dot (ex x i a) y.
Proof. intros Ha Hi. unfold ex. rewrite dot_add_r, dot_add_l, dot_ex_a, dot_ex_b by assumption. reflexivity. Qed.
Definition lin (w : nat -> nat -> K) (t : nat -> nat -> ci) : ci := vSum norb (fun a => vSum norb (fun i => vscal (w a i) (t a i))).
Lemma dot_lin x w t : dot x (lin w t) = Sum norb (fun a => Sum norb (fun i => w a i * dot x (t a i))).
Proof. unfold lin. rewrite dot_Sum_r. apply Sum_ext. intros a _. rewrite dot_Sum_r. apply Sum_ext. intros i _. apply dot_scal_r. Qed.
Definition S4 (f : ten) : K := Sum norb (fun p => Sum norb (fun q => Sum norb (fun r => Sum norb (fun s => f p q r s)))).
Lemma S4_ext f g : (forall p q r s, (p < norb)%nat -> (q < norb)%nat -> (r < norb)%nat -> (s < norb)%nat -> f p q r s = g p q r s) -> S4 f = S4 g.
Proof. intros H. unfold S4. repeat (apply Sum_ext; intros). now apply H. Qed.
Lemma S4_add f g : S4 (fun p q r s => f p q r s + g p q r s) = S4 f + S4 g.
Proof. unfold S4. rewrite <- Sum_add. apply Sum_ext. intros p _. rewrite <- Sum_add. apply Sum_ext. intros q _. rewrite <- Sum_add. apply Sum_ext. intros r _. apply Sum_add. Qed.
Lemma S4_mul k f : S4 (fun p q r s => k * f p q r s) = k * S4 f.
Proof. unfold S4. rewrite <- Sum_mul_l. apply Sum_ext. intros p _. rewrite <- Sum_mul_l. apply Sum_ext. intros q _. rewrite <- Sum_mul_l. apply Sum_ext. intros r _. apply Sum_mul_l. Qed.
Lemma S4_pair f : S4 f = S4 (fun p q r s => f r s p q).
Proof.
  unfold S4. transitivity (Sum norb (fun p => Sum norb (fun r => Sum norb (fun q => Sum norb (fun s => f p q r s))))); [apply Sum_ext; intros; apply Sum_swap|].
  rewrite Sum_swap. apply Sum_ext. intros r _. transitivity (Sum norb (fun p => Sum norb (fun s => Sum norb (fun q => f p q r s)))); [apply Sum_ext; intros; apply Sum_swap|].
  rewrite Sum_swap. reflexivity.
Qed.
Lemma S4_tt f : S4 f = S4 (fun p q r s => f q p s r).
Proof. unfold S4. rewrite Sum_swap. apply Sum_ext. intros p _. apply Sum_ext. intros q _. apply Sum_swap. Qed.
Lemma dot_2e x eri y : dot x (contract_2e eri y) = S4 (fun b j a i => eri b j a i * dot (ex x j b) (ex y a i)).
Proof.
  transitivity (dot x (vadd (gat_a (fun b j => lin (eri b j) (ex y))) (gat_b (fun b j => lin (eri b j) (ex y))))); [apply dot_ext; intros ? ? ? _ _ _; reflexivity|].
  rewrite dot_add_r, dot_gat_a, dot_gat_b, <- Sum_add. unfold S4. apply Sum_ext. intros b _. rewrite <- Sum_add. apply Sum_ext. intros j _.
  rewrite <- dot_add_l. fold (ex x j b). apply dot_lin.
Qed.
Lemma dot_2e_u x eaa eab ebb y : dot x (contract_2e_u (eaa, eab, ebb) y) =
  S4 (fun b j a i => eaa b j a i * dot (ex_a x j b) (ex_a y a i)) + S4 (fun b j a i => eab b j a i * dot (ex_a x j b) (ex_b y a i)) +
  (S4 (fun b j a i => ebb b j a i * dot (ex_b x j b) (ex_b y a i)) + S4 (fun b j a i => eab a i b j * dot (ex_b x j b) (ex_a y a i))).
Proof.
  transitivity (dot x (vadd (gat_a (fun b j => vadd (lin (eaa b j) (ex_a y)) (lin (eab b j) (ex_b y)))) (gat_b (fun b j => vadd (lin (ebb b j) (ex_b y)) (lin (fun a i => eab a i b j) (ex_a y))))));
    [apply dot_ext; intros ? ? ? _ _ _; reflexivity|].
  rewrite dot_add_r, dot_gat_a, dot_gat_b. f_equal.
  - rewrite <- S4_add. unfold S4. apply Sum_ext. intros b _. apply Sum_ext. intros j _. rewrite dot_add_r, !dot_lin, <- Sum_add. apply Sum_ext. intros. rewrite <- Sum_add. reflexivity.
  - rewrite <- S4_add. unfold S4. apply Sum_ext. intros b _. apply Sum_ext. intros j _. rewrite dot_add_r, !dot_lin, <- Sum_add. apply Sum_ext. intros. rewrite <- Sum_add. reflexivity.
Qed.
(** bosons: creation is the adjoint of annihilation *)
Lemma dot_cre x y b : (b < nbos)%nat -> dot x (cre b y) = dot (ann b x) y.
Proof.
  intros Hb. unfold M_EbFci.dot. apply Sum_ext. intros sa _. apply Sum_ext. intros sb _. unfold M_EbFci.cre, M_EbFci.ann.
  transitivity (BSum nbos mocc (fun l => Sum mocc (fun i => if Nat.eqb (nth b l 0%nat) (i + 1) then x sa sb l * (y sa sb (upd b i l) * bos_cre sq i) else 0))).
  - apply BSum_ext. intros l _. rewrite <- Sum_mul_l. apply Sum_ext. intros i _. destruct (Nat.eqb _ _); ring.
  - rewrite (shift_occ nbos mocc b (fun l l' i => x sa sb l * (y sa sb l' * bos_cre sq i))) by exact Hb. apply BSum_ext. intros l _. rewrite <- Sum_mul_r. apply Sum_ext. intros i _. destruct (Nat.eqb _ _); ring.
Qed.
Lemma dot_ann x y b : (b < nbos)%nat -> dot x (ann b y) = dot (cre b x) y.
Proof. intros Hb. rewrite dot_sym, <- dot_cre, dot_sym by exact Hb. reflexivity. Qed.
(** what multiplies the coupling *)
Definition adjv (adj : bool) (c : ci) (a i : nat) : ci := if adj && Nat.eqb a i then vscal (zfac) c else fun _ _ _ => 0.
Definition ea' (adj : bool) (c : ci) (a i : nat) : ci := vadd (ex_a c a i) (vscal (- (1)) (adjv adj c a i)).
Definition eb' (adj : bool) (c : ci) (a i : nat) : ci := vadd (ex_b c a i) (vscal (- (1)) (adjv adj c a i)).
Lemma dot_adjv adj x y a i : dot x (adjv adj y a i) = dot (adjv adj x i a) y.
Proof. unfold adjv. rewrite (Nat.eqb_sym i a). destruct (adj && Nat.eqb a i); [rewrite dot_scal_r, dot_scal_l; reflexivity|]. rewrite dot_0_r, dot_sym, dot_0_r. reflexivity. Qed.
Lemma dot_ea' adj x y a i : (a < norb)%nat -> (i < norb)%nat -> dot x (ea' adj y a i) = dot (ea' adj x i a) y.
Proof. intros Ha Hi. unfold ea'. rewrite dot_add_r, dot_add_l, dot_scal_r, dot_scal_l, dot_ex_a, dot_adjv by assumption. reflexivity. Qed.
Lemma dot_eb' adj x y a i : (a < norb)%nat -> (i < norb)%nat -> dot x (eb' adj y a i) = dot (eb' adj x i a) y.
Proof. intros Ha Hi. unfold eb'. rewrite dot_add_r, dot_add_l, dot_scal_r, dot_scal_l, dot_ex_b, dot_adjv by assumption. reflexivity. Qed.
Definition t_ex (heb : (nat -> mat) * (nat -> mat)) adj c n : ci := vadd (lin (fst heb n) (ea' adj c)) (lin (snd heb n) (eb' adj c)).
Definition t_dex (heb : (nat -> mat) * (nat -> mat)) adj c n : ci := vadd (lin (fst heb n) (fun x y => ea' adj c y x)) (lin (snd heb n) (fun x y => eb' adj c y x)).
Lemma if_ci (b : bool) (f : ci) sa sb l : (if b then f else fun _ _ _ => 0) sa sb l = if b then f sa sb l else 0.
Proof. destruct b; reflexivity. Qed.
Lemma ep_eq heb adj c : veq (contract_ep heb adj c) (vSum nbos (fun n => vadd (cre n (t_ex heb adj c n)) (ann n (t_dex heb adj c n)))).
Proof.
  intros sa sb l _ _ _. unfold M_EbFci.contract_ep, vSum, vadd. apply Sum_ext. intros n _. f_equal.
  - unfold M_EbFci.cre. apply Sum_ext. intros i _. destruct (Nat.eqb _ _); [|reflexivity]. f_equal. unfold t_ex, lin, vadd, vSum, vscal. f_equal.
    + apply Sum_ext. intros a _. apply Sum_ext. intros k _. unfold ea', adjv, vadd, vscal. rewrite if_ci. unfold vscal. ring.
    + apply Sum_ext. intros a _. apply Sum_ext. intros k _. unfold eb', adjv, vadd, vscal. rewrite if_ci. unfold vscal. ring.
  - unfold M_EbFci.ann. apply Sum_ext. intros i _. replace (i + 1 - 1)%nat with i by lia. destruct (Nat.eqb _ _); [|reflexivity]. f_equal. unfold t_dex, lin, vadd, vSum, vscal. f_equal.
    + apply Sum_ext. intros a _. apply Sum_ext. intros k _. unfold ea', adjv, vadd, vscal. rewrite if_ci. unfold vscal. ring.
    + apply Sum_ext. intros a _. apply Sum_ext. intros k _. unfold eb', adjv, vadd, vscal. rewrite if_ci. unfold vscal. ring.
Qed.
(** excitations of electrons commute with bosons, and b^+ / b go through linear combinations *)
Lemma cre_vadd b x y sa sb l : cre b (vadd x y) sa sb l = cre b x sa sb l + cre b y sa sb l.
Proof. unfold M_EbFci.cre, vadd. rewrite <- Sum_add. apply Sum_ext. intros. destruct (Nat.eqb _ _); ring. Qed.
Lemma ann_vadd b x y sa sb l : ann b (vadd x y) sa sb l = ann b x sa sb l + ann b y sa sb l.
Proof. unfold M_EbFci.ann, vadd. rewrite <- Sum_add. apply Sum_ext. intros. destruct (Nat.eqb _ _); ring. Qed.
Lemma cre_vscal b k x sa sb l : cre b (vscal k x) sa sb l = k * cre b x sa sb l.
Proof. unfold M_EbFci.cre, vscal. rewrite <- Sum_mul_l. apply Sum_ext. intros. destruct (Nat.eqb _ _); ring. Qed.
Lemma ann_vscal b k x sa sb l : ann b (vscal k x) sa sb l = k * ann b x sa sb l.
Proof. unfold M_EbFci.ann, vscal. rewrite <- Sum_mul_l. apply Sum_ext. intros. destruct (Nat.eqb _ _); ring. Qed.
Lemma cre_vSum b n f sa sb l : cre b (vSum n f) sa sb l = Sum n (fun k => cre b (f k) sa sb l).
Proof. unfold M_EbFci.cre, vSum. rewrite Sum_swap. apply Sum_ext. intros. rewrite if_Sum, Sum_mul_r. reflexivity. Qed.
Lemma ann_vSum b n f sa sb l : ann b (vSum n f) sa sb l = Sum n (fun k => ann b (f k) sa sb l).
Proof. unfold M_EbFci.ann, vSum. rewrite Sum_swap. apply Sum_ext. intros. rewrite if_Sum, Sum_mul_r. reflexivity. Qed.
Lemma cre_lin b w t sa sb l : cre b (lin w t) sa sb l = lin w (fun a i => cre b (t a i)) sa sb l.
Proof. unfold lin. rewrite cre_vSum. apply Sum_ext. intros. rewrite cre_vSum. apply Sum_ext. intros. apply cre_vscal. Qed.
Lemma ann_lin b w t sa sb l : ann b (lin w t) sa sb l = lin w (fun a i => ann b (t a i)) sa sb l.
Proof. unfold lin. rewrite ann_vSum. apply Sum_ext. intros. rewrite ann_vSum. apply Sum_ext. intros. apply ann_vscal. Qed.
Lemma cre_ex_a b c a i sa sb l : cre b (ex_a c a i) sa sb l = ex_a (cre b c) a i sa sb l.
Proof.
  rewrite ex_a_eq. unfold M_EbFci.cre. transitivity (Sum mocc (fun k => Sum na (fun s0 => lk tabA a i sa s0 * (if Nat.eqb (nth b l 0%nat) (k + 1) then c s0 sb (upd b k l) * bos_cre sq k else 0)))).
  - apply Sum_ext. intros k _. rewrite ex_a_eq. destruct (Nat.eqb _ _).
    + rewrite <- Sum_mul_r. apply Sum_ext. intros. ring.
    + symmetry. apply Sum_0. intros. ring.
  - rewrite Sum_swap. apply Sum_ext. intros s0 _. apply Sum_mul_l.
Qed.
Lemma cre_ex_b b c a i sa sb l : cre b (ex_b c a i) sa sb l = ex_b (cre b c) a i sa sb l.
Proof.
  rewrite ex_b_eq. unfold M_EbFci.cre. transitivity (Sum mocc (fun k => Sum nb (fun s0 => lk tabB a i sb s0 * (if Nat.eqb (nth b l 0%nat) (k + 1) then c sa s0 (upd b k l) * bos_cre sq k else 0)))).
  - apply Sum_ext. intros k _. rewrite ex_b_eq. destruct (Nat.eqb _ _).
    + rewrite <- Sum_mul_r. apply Sum_ext. intros. ring.
    + symmetry. apply Sum_0. intros. ring.
  - rewrite Sum_swap. apply Sum_ext. intros s0 _. apply Sum_mul_l.
Qed.
Lemma dot_ep heb adj x y : dot x (contract_ep heb adj y) = Sum nbos (fun n => dot x (cre n (t_ex heb adj y n)) + dot x (ann n (t_dex heb adj y n))).
Proof. rewrite (dot_ext x x _ _ (veq_refl x) (ep_eq heb adj y)), dot_Sum_r. apply Sum_ext. intros n _. apply dot_add_r. Qed.
(** a pair excitation/deexcitation moves to the other side *)
Lemma dot_lin_l x w t : dot (lin w t) x = Sum norb (fun a => Sum norb (fun i => w a i * dot (t a i) x)).
Proof. rewrite dot_sym, dot_lin. apply Sum_ext. intros. apply Sum_ext. intros. rewrite dot_sym. reflexivity. Qed.
Lemma dot_tex heb adj x y n : dot x (t_ex heb adj y n) = dot (t_dex heb adj x n) y.
Proof.
  unfold t_ex, t_dex. rewrite dot_add_r, dot_add_l, !dot_lin, !dot_lin_l. f_equal; apply Sum_ext; intros a Ha; apply Sum_ext; intros i Hi; f_equal; [apply dot_ea'|apply dot_eb']; assumption.
Qed.
Lemma dot_tdex heb adj x y n : dot x (t_dex heb adj y n) = dot (t_ex heb adj x n) y.
Proof. rewrite dot_sym, <- dot_tex, dot_sym. reflexivity. Qed.
(** the bosonic and electronic factors commute *)
Lemma cre_ea' adj b c a i sa sb l : cre b (ea' adj c a i) sa sb l = ea' adj (cre b c) a i sa sb l.
Proof.
  unfold ea'. rewrite cre_vadd, cre_ex_a, cre_vscal. unfold vadd, vscal. f_equal. f_equal. unfold adjv. destruct (adj && Nat.eqb a i); [apply cre_vscal|].
  unfold M_EbFci.cre. apply Sum_0. intros. destruct (Nat.eqb _ _); ring.
Qed.
Lemma cre_eb' adj b c a i sa sb l : cre b (eb' adj c a i) sa sb l = eb' adj (cre b c) a i sa sb l.
Proof.
  unfold eb'. rewrite cre_vadd, cre_ex_b, cre_vscal. unfold vadd, vscal. f_equal. f_equal. unfold adjv. destruct (adj && Nat.eqb a i); [apply cre_vscal|].
  unfold M_EbFci.cre. apply Sum_0. intros. destruct (Nat.eqb _ _); ring.
Qed.
Lemma lin_ext w t t' sa sb l : (forall a i, t a i sa sb l = t' a i sa sb l) -> lin w t sa sb l = lin w t' sa sb l.
Proof. intros H. unfold lin, vSum, vscal. apply Sum_ext. intros. apply Sum_ext. intros. rewrite H. reflexivity. Qed.
Lemma cre_tex heb adj b n c sa sb l : cre b (t_ex heb adj c n) sa sb l = t_ex heb adj (cre b c) n sa sb l.
Proof.
  unfold t_ex. rewrite cre_vadd, !cre_lin. unfold vadd. f_equal; apply lin_ext; intros; [apply cre_ea'|apply cre_eb'].
Qed.
Lemma ep_hermitian heb adj x y : dot x (contract_ep heb adj y) = dot (contract_ep heb adj x) y.
Proof.
  rewrite (dot_sym (contract_ep heb adj x)), !dot_ep. apply Sum_ext. intros n Hn. rewrite !dot_cre, !dot_ann by exact Hn. rewrite !dot_tdex.
  assert (E : forall u v, dot (t_ex heb adj (cre n u) n) v = dot (ann n v) (t_ex heb adj u n)).
  { intros u v. rewrite <- (dot_cre v) by exact Hn. rewrite (dot_sym _ v). apply dot_ext; [apply veq_refl|]. intros sa sb l _ _ _. symmetry. apply cre_tex. }
  rewrite !E. ring.
Qed.
Lemma dot_pp hpp x y : dot x (contract_pp hpp y) = Sum nbos (fun m => Sum nbos (fun n => hpp m n * dot (ann m x) (ann n y))).
Proof.
  transitivity (dot x (vSum nbos (fun m => cre m (vSum nbos (fun n => vscal (hpp m n) (ann n y)))))); [apply dot_ext; intros ? ? ? _ _ _; reflexivity|].
  rewrite dot_Sum_r. apply Sum_ext. intros m Hm. rewrite dot_cre, dot_Sum_r by exact Hm. apply Sum_ext. intros n _. apply dot_scal_r.
Qed.
Lemma pp_hermitian hpp x y : (forall m n, (m < nbos)%nat -> (n < nbos)%nat -> hpp m n = hpp n m) -> dot x (contract_pp hpp y) = dot (contract_pp hpp x) y.
Proof.
  intros H. rewrite (dot_sym (contract_pp hpp x)), !dot_pp, Sum_swap. apply Sum_ext. intros n Hn. apply Sum_ext. intros m Hm. rewrite H, dot_sym by assumption. reflexivity.
Qed.
Lemma all_hermitian two heb hpp adj : (forall x y, dot x (two y) = dot (two x) y) -> (forall m n, (m < nbos)%nat -> (n < nbos)%nat -> hpp m n = hpp n m) ->
  forall x y, dot x (contract_all two heb hpp adj y) = dot (contract_all two heb hpp adj x) y.
Proof.
  intros H2 Hp x y. unfold M_EbFci.contract_all. destruct (Nat.ltb 0 nbos && Nat.ltb 0 mocc); [|apply H2].
  change (dot x (vadd (vadd (two y) (contract_ep heb adj y)) (contract_pp hpp y)) = dot (vadd (vadd (two x) (contract_ep heb adj x)) (contract_pp hpp x)) y).
  rewrite !dot_add_r, !dot_add_l, H2, ep_hermitian, pp_hermitian by exact Hp. reflexivity.
Qed.

(** ** Hermiticity *)
(** C68: the operator that is diagonalised is symmetric, with any coupling, of any number of bosons and for any truncation, with and without removal of the zero mode *)
Theorem C68_hermitian h1e eri heb hpp adj : (forall p q, (p < norb)%nat -> (q < norb)%nat -> h1e p q = h1e q p) ->
  (forall p q r s, (p < norb)%nat -> (q < norb)%nat -> (r < norb)%nat -> (s < norb)%nat -> eri p q r s = eri s r q p) ->
  (forall m n, (m < nbos)%nat -> (n < nbos)%nat -> hpp m n = hpp n m) ->
  forall x y, dot x (hop h1e eri heb hpp adj y) = dot (hop h1e eri heb hpp adj x) y.
Proof.
  intros Hh He Hp. apply all_hermitian; [|exact Hp]. intros x y. rewrite (dot_sym (contract_2e _ x)), !dot_2e, (S4_pair (fun b j a i => _ * dot (ex y j b) _)), S4_tt.
  apply S4_ext. intros b j a i Hb Hj Ha Hi. rewrite (dot_sym (ex y i a)). f_equal. unfold absorb.
  assert (F : forall j k, (j < norb)%nat -> (k < norb)%nat -> Sum norb (fun i => eri j i i k) = Sum norb (fun i => eri k i i j)) by (intros u v Hu Hv; apply Sum_ext; intros w Hw; now apply He).
  rewrite (He j b i a), (Nat.eqb_sym i a), (Nat.eqb_sym j b), (Hh i a), (Hh j b), (F i a), (F j b) by assumption. ring.
Qed.

(** C68: the same for orbitals that differ between the spins; the integrals (ab) only have the symmetry of real orbitals *)
Theorem C68_hermitian_unrestricted h1e eaa eab ebb heb hpp adj : (forall p q, (p < norb)%nat -> (q < norb)%nat -> fst h1e p q = fst h1e q p /\ snd h1e p q = snd h1e q p) ->
  (forall p q r s, (p < norb)%nat -> (q < norb)%nat -> (r < norb)%nat -> (s < norb)%nat -> eaa p q r s = eaa s r q p /\ ebb p q r s = ebb s r q p /\ eab p q r s = eab q p s r) ->
  (forall m n, (m < nbos)%nat -> (n < nbos)%nat -> hpp m n = hpp n m) ->
  forall x y, dot x (hop_u h1e (eaa, eab, ebb) heb hpp adj y) = dot (hop_u h1e (eaa, eab, ebb) heb hpp adj x) y.
Proof.
  intros Hh He Hp. apply all_hermitian; [|exact Hp]. intros x y. unfold absorb_u. rewrite (dot_sym (contract_2e_u _ x)), !dot_2e_u.
  assert (Fa : forall j k, (j < norb)%nat -> (k < norb)%nat -> Sum norb (fun i => eaa j i i k) = Sum norb (fun i => eaa k i i j)) by (intros u v Hu Hv; apply Sum_ext; intros w Hw; now apply He).
  assert (Fb : forall j k, (j < norb)%nat -> (k < norb)%nat -> Sum norb (fun i => ebb j i i k) = Sum norb (fun i => ebb k i i j)) by (intros u v Hu Hv; apply Sum_ext; intros w Hw; now apply He).
  assert (R : forall a b c d a' b' c' d' : K, a = a' -> c = c' -> b = d' -> d = b' -> (a + b) + (c + d) = (a' + b') + (c' + d')) by (intros; subst; ring).
  apply R.
  - rewrite (S4_pair (fun b j a i => _ * dot (ex_a y j b) _)), S4_tt. apply S4_ext. intros b j a i Hb Hj Ha Hi. rewrite (dot_sym (ex_a y i a)). f_equal.
    destruct (He j b i a Hj Hb Hi Ha) as (E & _ & _). rewrite E, (Nat.eqb_sym i a), (Nat.eqb_sym j b), (proj1 (Hh i a Hi Ha)), (proj1 (Hh j b Hj Hb)), (Fa i a), (Fa j b) by assumption. ring.
  - rewrite (S4_pair (fun b j a i => _ * dot (ex_b y j b) _)), S4_tt. apply S4_ext. intros b j a i Hb Hj Ha Hi. rewrite (dot_sym (ex_b y i a)). f_equal.
    destruct (He j b i a Hj Hb Hi Ha) as (_ & E & _). rewrite E, (Nat.eqb_sym i a), (Nat.eqb_sym j b), (proj2 (Hh i a Hi Ha)), (proj2 (Hh j b Hj Hb)), (Fb i a), (Fb j b) by assumption. ring.
  - rewrite (S4_pair (fun b j a i => _ * dot (ex_b y j b) _)), S4_tt. apply S4_ext. intros b j a i Hb Hj Ha Hi. rewrite (dot_sym (ex_b y i a)). f_equal.
    destruct (He j b i a Hj Hb Hi Ha) as (_ & _ & E). rewrite E, (Nat.eqb_sym i a), (Nat.eqb_sym j b), (proj1 (Hh j b Hj Hb)), (proj2 (Hh i a Hi Ha)), (Fa j b), (Fb i a) by assumption. ring.
  - rewrite (S4_pair (fun b j a i => _ * dot (ex_a y j b) _)), S4_tt. apply S4_ext. intros b j a i Hb Hj Ha Hi. rewrite (dot_sym (ex_a y i a)). f_equal.
    destruct (He i a j b Hi Ha Hj Hb) as (_ & _ & E). rewrite E, (Nat.eqb_sym i a), (Nat.eqb_sym j b), (proj1 (Hh i a Hi Ha)), (proj2 (Hh j b Hj Hb)), (Fa i a), (Fb j b) by assumption. ring.
Qed.

(** ** Numbers of electrons *)
Definition oneb (X : ci -> nat -> nat -> ci) (N : K) : Prop :=
  (forall x y a i, (a < norb)%nat -> (i < norb)%nat -> dot x (X y a i) = dot (X x i a) y) /\ (forall c, veq (vSum norb (fun p => X c p p)) (vscal N c)).
Lemma oneb_a : oneb ex_a NA.
Proof.
  split; [exact dot_ex_a|]. intros c sa sb l Ha _ _. unfold vSum, vscal. transitivity (Sum na (fun s0 => Sum norb (fun p => lk tabA p p sa s0) * c s0 sb l)).
  - transitivity (Sum norb (fun p => Sum na (fun s0 => lk tabA p p sa s0 * c s0 sb l))); [apply Sum_ext; intros; apply ex_a_eq|]. rewrite Sum_swap. apply Sum_ext. intros. apply Sum_mul_r.
  - transitivity (Sum na (fun s0 => delta sa s0 * (NA * c s0 sb l))); [|exact (Sum_delta_l na sa (fun s0 => NA * c s0 sb l) Ha)]. apply Sum_ext. intros s0 H0. rewrite (lk_num _ _ _ HA) by assumption. ring.
Qed.
Lemma oneb_b : oneb ex_b NB.
Proof.
  split; [exact dot_ex_b|]. intros c sa sb l _ Hb _. unfold vSum, vscal. transitivity (Sum nb (fun s0 => Sum norb (fun p => lk tabB p p sb s0) * c sa s0 l)).
  - transitivity (Sum norb (fun p => Sum nb (fun s0 => lk tabB p p sb s0 * c sa s0 l))); [apply Sum_ext; intros; apply ex_b_eq|]. rewrite Sum_swap. apply Sum_ext. intros. apply Sum_mul_r.
  - transitivity (Sum nb (fun s0 => delta sb s0 * (NB * c sa s0 l))); [|exact (Sum_delta_l nb sb (fun s0 => NB * c sa s0 l) Hb)]. apply Sum_ext. intros s0 H0. rewrite (lk_num _ _ _ HB) by assumption. ring.
Qed.
Lemma oneb_ab : oneb ex (NA + NB).
Proof.
  split; [exact dot_ex|]. intros c sa sb l Ha Hb Hl. pose proof (proj2 oneb_a c sa sb l Ha Hb Hl) as A. pose proof (proj2 oneb_b c sa sb l Ha Hb Hl) as B. unfold vSum, vscal, ex, vadd in *.
  rewrite Sum_add, A, B. ring.
Qed.
Lemma trace_l X N (H : oneb X N) c y : Sum norb (fun p => dot (X c p p) y) = N * dot c y.
Proof. rewrite <- dot_Sum_l, <- dot_scal_l. apply dot_ext; [apply (proj2 H)|apply veq_refl]. Qed.
Lemma trace_r X N (H : oneb X N) c y : Sum norb (fun p => dot y (X c p p)) = N * dot y c.
Proof. rewrite (dot_sym y c), <- (trace_l X N H). apply Sum_ext. intros. apply dot_sym. Qed.
(** ** Energies *)
Definition S2 (f : mat) : K := Sum norb (fun p => Sum norb (fun q => f p q)).
Lemma S2_ext f g : (forall p q, (p < norb)%nat -> (q < norb)%nat -> f p q = g p q) -> S2 f = S2 g.
Proof. intros H. unfold S2. apply Sum_ext. intros. apply Sum_ext. intros. now apply H. Qed.
Lemma S2_add f g : S2 (fun p q => f p q + g p q) = S2 f + S2 g.
Proof. unfold S2. rewrite <- Sum_add. apply Sum_ext. intros. apply Sum_add. Qed.
Lemma S2_mul k f : S2 (fun p q => k * f p q) = k * S2 f.
Proof. unfold S2. rewrite <- Sum_mul_l. apply Sum_ext. intros. apply Sum_mul_l. Qed.
Lemma S2_swap f : S2 f = S2 (fun p q => f q p).
Proof. apply Sum_swap. Qed.
Lemma S4_diag_l (f : mat) (g : ten) : S4 (fun p q r s => (if Nat.eqb p q then f r s else 0) * g p q r s) = S2 (fun r s => f r s * Sum norb (fun p => g p p r s)).
Proof.
  rewrite S4_pair. unfold S4, S2. apply Sum_ext. intros r _. apply Sum_ext. intros s _. rewrite <- Sum_mul_l. apply Sum_ext. intros p Hp.
  rewrite (Sum_single norb p); [now rewrite Nat.eqb_refl|exact Hp|]. intros q _ Hq. rewrite (proj2 (Nat.eqb_neq p q)) by congruence. ring.
Qed.
Lemma S4_diag_r (f : mat) (g : ten) : S4 (fun p q r s => (if Nat.eqb r s then f p q else 0) * g p q r s) = S2 (fun p q => f p q * Sum norb (fun r => g p q r r)).
Proof.
  unfold S4, S2. apply Sum_ext. intros p _. apply Sum_ext. intros q _. rewrite <- Sum_mul_l. apply Sum_ext. intros r Hr.
  rewrite (Sum_single norb r); [now rewrite Nat.eqb_refl|exact Hr|]. intros s _ Hs. rewrite (proj2 (Nat.eqb_neq r s)) by congruence. ring.
Qed.
(** a two electron energy with absorbed one electron part *)
Lemma S4_absorb X Y NX NY (HX : oneb X NX) (HY : oneb Y NY) (eri : ten) (f g : mat) c :
  S4 (fun p q r s => (eri p q r s + (if Nat.eqb p q then f r s else 0) + (if Nat.eqb r s then g p q else 0)) * half * dot (X c q p) (Y c r s)) =
  half * (S4 (fun p q r s => eri p q r s * dot (X c q p) (Y c r s)) + NX * S2 (fun r s => f r s * dot c (Y c r s)) + NY * S2 (fun p q => g p q * dot c (X c p q))).
Proof.
  transitivity (half * (S4 (fun p q r s => eri p q r s * dot (X c q p) (Y c r s)) + S4 (fun p q r s => (if Nat.eqb p q then f r s else 0) * dot (X c q p) (Y c r s)) + S4 (fun p q r s => (if Nat.eqb r s then g p q else 0) * dot (X c q p) (Y c r s)))).
  - rewrite <- !S4_add, <- S4_mul. apply S4_ext. intros. ring.
  - rewrite (S4_diag_l f (fun p q r s => dot (X c q p) (Y c r s))), (S4_diag_r g (fun p q r s => dot (X c q p) (Y c r s))). f_equal. f_equal; [f_equal|].
    + rewrite <- S2_mul. apply S2_ext. intros r s _ _. rewrite (trace_l X NX HX). ring.
    + rewrite <- S2_mul. apply S2_ext. intros p q Hp Hq. rewrite (trace_r Y NY HY), (proj1 HX c c p q) by assumption. ring.
Qed.
(** energy of reordered matrices *)
Lemma S4_reorder (Hh : half + half = 1) (eri : ten) (dm1 : mat) (g : ten) : (forall p q r s, (p < norb)%nat -> (q < norb)%nat -> (r < norb)%nat -> (s < norb)%nat -> eri p q r s = eri r s p q) ->
  S4 (fun p q r s => eri p q r s * reorder half dm1 g p q r s) = S4 (fun p q r s => eri p q r s * g p q r s) - S2 (fun p s => Sum norb (fun q => eri p q q s) * dm1 s p).
Proof.
  intros He. unfold reorder. set (d := fun p q r s => g p q r s - (if Nat.eqb q r then dm1 s p else 0)).
  transitivity (S4 (fun p q r s => eri p q r s * d p q r s)).
  - transitivity (half * (S4 (fun p q r s => eri p q r s * d p q r s) + S4 (fun p q r s => eri p q r s * d r s p q))).
    + rewrite <- S4_add, <- S4_mul. apply S4_ext. intros. unfold d. ring.
    + rewrite (S4_pair (fun p q r s => eri p q r s * d r s p q)). rewrite (S4_ext (fun p q r s => eri r s p q * d p q r s) (fun p q r s => eri p q r s * d p q r s)) by (intros; rewrite (He p q r s) by assumption; reflexivity).
      transitivity ((half + half) * S4 (fun p q r s => eri p q r s * d p q r s)); [ring|rewrite Hh; ring].
  - transitivity (S4 (fun p q r s => eri p q r s * g p q r s) + - (1) * S4 (fun p q r s => eri p q r s * (if Nat.eqb q r then dm1 s p else 0))).
    + rewrite <- S4_mul, <- S4_add. apply S4_ext. intros. unfold d. ring.
    + assert (E : S4 (fun p q r s => eri p q r s * (if Nat.eqb q r then dm1 s p else 0)) = S2 (fun p s => Sum norb (fun q => eri p q q s) * dm1 s p)); [|rewrite E; ring].
      unfold S4, S2. apply Sum_ext. intros p _. transitivity (Sum norb (fun q => Sum norb (fun s => eri p q q s * dm1 s p))).
      * apply Sum_ext. intros q Hq. rewrite (Sum_single norb q); [now rewrite Nat.eqb_refl|exact Hq|]. intros r _ Hr. apply Sum_0. intros. rewrite (proj2 (Nat.eqb_neq q r)) by congruence. ring.
      * rewrite Sum_swap. apply Sum_ext. intros s _. apply Sum_mul_r.
Qed.
Notation rdm12 := (rdm12 half nbos mocc tabA tabB). Notation rdm12s := (rdm12s half nbos mocc tabA tabB). Notation rdm12s_u := (rdm12s_u half nbos mocc tabA tabB).
Notation rdm1 := (rdm1 nbos mocc tabA tabB). Notation rdm1_u := (rdm1_u nbos mocc tabA tabB). Notation eb_rdm := (eb_rdm sq nbos mocc tabA tabB).
Lemma tr_ok c i a : (i < norb)%nat -> (a < norb)%nat -> veq (fun s0 sb l => tr_a c i a s0 sb l + tr_b c i a s0 sb l) (ex c i a).
Proof. intros Hi Ha sa sb l H1 H2 H3. unfold ex, vadd. rewrite <- (tr_a_ok c i a Hi Ha sa sb l H1 H2 H3), <- (tr_b_ok c i a Hi Ha sa sb l H1 H2 H3). reflexivity. Qed.
Lemma rdm12_1 c p q : (p < norb)%nat -> (q < norb)%nat -> fst (rdm12 c) p q = dot c (ex c p q).
Proof. intros Hp Hq. unfold M_EbFci.rdm12. cbn [fst]. apply dot_ext; [apply veq_refl|]. now apply tr_ok. Qed.
Lemma reorder_ext dm1 dm1' g g' p q r s : (forall a b, (a < norb)%nat -> (b < norb)%nat -> dm1 a b = dm1' a b) -> (forall a b c d, (a < norb)%nat -> (b < norb)%nat -> (c < norb)%nat -> (d < norb)%nat -> g a b c d = g' a b c d) ->
  (p < norb)%nat -> (q < norb)%nat -> (r < norb)%nat -> (s < norb)%nat -> reorder half dm1 g p q r s = reorder half dm1' g' p q r s.
Proof. intros H1 H2 Hp Hq Hr Hs. unfold reorder. rewrite !H1, !H2 by assumption. reflexivity. Qed.
Lemma rdm12_2 c p q r s : (p < norb)%nat -> (q < norb)%nat -> (r < norb)%nat -> (s < norb)%nat -> snd (rdm12 c) p q r s = reorder half (fun p q => dot c (ex c p q)) (fun p q r s => dot (ex c q p) (ex c r s)) p q r s.
Proof.
  intros Hp Hq Hr Hs. unfold M_EbFci.rdm12. cbn [snd]. apply reorder_ext; try assumption.
  - intros a b Ha Hb. apply dot_ext; [apply veq_refl|]. now apply tr_ok.
  - intros a b d e Ha Hb Hd He. apply dot_ext; now apply tr_ok.
Qed.
Lemma sym1 X N (H : oneb X N) c p q : (p < norb)%nat -> (q < norb)%nat -> dot c (X c p q) = dot c (X c q p).
Proof. intros Hp Hq. rewrite (proj1 H c c p q Hp Hq). apply dot_sym. Qed.
(** the energy of the bosons and of the coupling *)
Definition e_bos (heb : (nat -> mat) * (nat -> mat)) (hpp : mat) c : K :=
  if Nat.ltb 0 nbos && Nat.ltb 0 mocc then
    (1 + 1) * Sum nbos (fun n => S2 (fun p q => fst heb n p q * fst (eb_rdm c) p q n) + S2 (fun p q => snd heb n p q * snd (eb_rdm c) p q n)) +
    Sum nbos (fun m => Sum nbos (fun n => hpp m n * dot c (cre m (ann n c))))
  else 0.
Lemma dot_ea_false c x p q : dot x (ea' false c p q) = dot x (ex_a c p q).
Proof. unfold ea', adjv. cbn [andb]. rewrite dot_add_r, dot_scal_r, dot_0_r. ring. Qed.
Lemma dot_eb_false c x p q : dot x (eb' false c p q) = dot x (ex_b c p q).
Proof. unfold eb', adjv. cbn [andb]. rewrite dot_add_r, dot_scal_r, dot_0_r. ring. Qed.
Lemma all_energy two heb hpp c : dot c (contract_all two heb hpp false c) = dot c (two c) + e_bos heb hpp c.
Proof.
  unfold M_EbFci.contract_all, e_bos. destruct (Nat.ltb 0 nbos && Nat.ltb 0 mocc); [|ring].
  change (dot c (vadd (vadd (two c) (contract_ep heb false c)) (contract_pp hpp c)) = dot c (two c) + ((1 + 1) * Sum nbos (fun n => S2 (fun p q => fst heb n p q * fst (eb_rdm c) p q n) + S2 (fun p q => snd heb n p q * snd (eb_rdm c) p q n)) +
    Sum nbos (fun m => Sum nbos (fun n => hpp m n * dot c (cre m (ann n c)))))).
  rewrite !dot_add_r, dot_ep, dot_pp.
  assert (P : Sum nbos (fun m => Sum nbos (fun n => hpp m n * dot (ann m c) (ann n c))) = Sum nbos (fun m => Sum nbos (fun n => hpp m n * dot c (cre m (ann n c))))).
  { apply Sum_ext. intros m Hm. apply Sum_ext. intros n _. rewrite dot_cre by exact Hm. reflexivity. }
  rewrite P. cut (Sum nbos (fun n => dot c (cre n (t_ex heb false c n)) + dot c (ann n (t_dex heb false c n))) =
    (1 + 1) * Sum nbos (fun n => S2 (fun p q => fst heb n p q * fst (eb_rdm c) p q n) + S2 (fun p q => snd heb n p q * snd (eb_rdm c) p q n))); [intros ->; ring|].
  rewrite <- Sum_mul_l. apply Sum_ext. intros n Hn.
  assert (E1 : dot c (cre n (t_ex heb false c n)) = S2 (fun p q => fst heb n p q * fst (eb_rdm c) p q n) + S2 (fun p q => snd heb n p q * snd (eb_rdm c) p q n)).
  { rewrite dot_cre by exact Hn. unfold t_ex. rewrite dot_add_r, !dot_lin. unfold S2. f_equal; apply Sum_ext; intros p _; apply Sum_ext; intros q _; f_equal; cbn [fst snd M_EbFci.eb_rdm];
      rewrite (dot_sym _ c), dot_cre by exact Hn; [apply dot_ea_false|apply dot_eb_false]. }
  assert (E2 : dot c (ann n (t_dex heb false c n)) = dot c (cre n (t_ex heb false c n))).
  { rewrite dot_ann, dot_tdex by exact Hn. rewrite (dot_sym _ c). apply dot_ext; [apply veq_refl|]. intros sa sb l _ _ _. symmetry. apply cre_tex. }
  rewrite E2, E1. ring.
Qed.
(** C68: the energy that belongs to a vector is what its density matrices give *)
Theorem C68_energy h1e eri heb hpp c : half + half = 1 -> ninv * (NA + NB) = 1 ->
  (forall p q r s, (p < norb)%nat -> (q < norb)%nat -> (r < norb)%nat -> (s < norb)%nat -> eri p q r s = eri r s p q) ->
  dot c (hop h1e eri heb hpp false c) = S2 (fun p q => h1e p q * fst (rdm12 c) p q) + half * S4 (fun p q r s => eri p q r s * snd (rdm12 c) p q r s) + e_bos heb hpp c.
Proof.
  intros Hh Hn He. unfold M_EbFci.hop. rewrite all_energy, dot_2e. f_equal. unfold absorb. rewrite (S4_absorb ex ex _ _ oneb_ab oneb_ab).
  rewrite (S4_ext (fun p q r s => eri p q r s * snd (rdm12 c) p q r s) _ (fun p q r s Hp Hq Hr Hs => f_equal _ (rdm12_2 c p q r s Hp Hq Hr Hs))), S4_reorder by assumption.
  rewrite (S2_ext (fun p q => h1e p q * fst (rdm12 c) p q) _ (fun p q Hp Hq => f_equal _ (rdm12_1 c p q Hp Hq))).
  set (G := S4 _). set (D := fun p q => dot c (ex c p q)).
  assert (E : S2 (fun r s => (h1e r s - Sum norb (fun i => eri r i i s) * half) * ninv * dot c (ex c r s)) = ninv * (S2 (fun p q => h1e p q * D p q) + - half * S2 (fun p s => Sum norb (fun q => eri p q q s) * D s p))).
  { rewrite <- S2_mul, <- S2_add, <- S2_mul. apply S2_ext. intros r s Hr Hs. unfold D. rewrite (sym1 ex _ oneb_ab c s r) by assumption. ring. }
  rewrite E. fold D. set (A := S2 (fun p q => h1e p q * D p q)). set (B := S2 (fun p s => _ * D s p)).
  change (half * (G + (NA + NB) * (ninv * (A + - half * B)) + (NA + NB) * (ninv * (A + - half * B))) = A + half * (G - B)).
  transitivity (half * G + (ninv * (NA + NB)) * ((half + half) * A) - (ninv * (NA + NB)) * ((half + half) * half) * B); [ring|]. rewrite Hn, Hh. ring.
Qed.
(** C68: the same for orbitals that differ between the spins *)
Lemma rdm12s_u_1 c p q : (p < norb)%nat -> (q < norb)%nat -> fst (fst (rdm12s_u c)) p q = dot c (ex_a c p q) /\ snd (fst (rdm12s_u c)) p q = dot c (ex_b c p q).
Proof. intros Hp Hq. unfold M_EbFci.rdm12s_u. cbn [fst snd]. rewrite !(dot_sym _ c). split; (apply dot_ext; [apply veq_refl|]); [now apply tr_a_ok|now apply tr_b_ok]. Qed.
Lemma rdm12s_u_2 c p q r s : (p < norb)%nat -> (q < norb)%nat -> (r < norb)%nat -> (s < norb)%nat ->
  fst (fst (snd (rdm12s_u c))) p q r s = reorder half (fun p q => dot c (ex_a c p q)) (fun p q r s => dot (ex_a c q p) (ex_a c r s)) p q r s /\
  snd (fst (snd (rdm12s_u c))) p q r s = dot (ex_a c q p) (ex_b c r s) /\
  snd (snd (rdm12s_u c)) p q r s = reorder half (fun p q => dot c (ex_b c p q)) (fun p q r s => dot (ex_b c q p) (ex_b c r s)) p q r s.
Proof.
  intros Hp Hq Hr Hs. unfold M_EbFci.rdm12s_u. cbn [snd fst]. split; [|split].
  - apply reorder_ext; try assumption; intros; [rewrite dot_sym; apply dot_ext; [apply veq_refl|]; now apply tr_a_ok|apply dot_ext; now apply tr_a_ok].
  - apply dot_ext; [now apply tr_a_ok|now apply tr_b_ok].
  - apply reorder_ext; try assumption; intros; [rewrite dot_sym; apply dot_ext; [apply veq_refl|]; now apply tr_b_ok|apply dot_ext; now apply tr_b_ok].
Qed.
Theorem C68_energy_unrestricted h1e eaa eab ebb heb hpp c : half + half = 1 -> ninv * (NA + NB) = 1 ->
  (forall p q r s, (p < norb)%nat -> (q < norb)%nat -> (r < norb)%nat -> (s < norb)%nat -> eaa p q r s = eaa r s p q /\ ebb p q r s = ebb r s p q /\ eab p q r s = eab q p s r) ->
  (forall p q, (p < norb)%nat -> (q < norb)%nat -> fst h1e p q = fst h1e q p /\ snd h1e p q = snd h1e q p) ->
  (forall p q r s, (p < norb)%nat -> (q < norb)%nat -> (r < norb)%nat -> (s < norb)%nat -> eaa p q r s = eaa q p s r /\ ebb p q r s = ebb q p s r) ->
  let '((dma, dmb), (dmaa, dmab, dmbb)) := rdm12s_u c in
  dot c (hop_u h1e (eaa, eab, ebb) heb hpp false c) = S2 (fun p q => fst h1e p q * dma p q) + S2 (fun p q => snd h1e p q * dmb p q) +
    half * S4 (fun p q r s => eaa p q r s * dmaa p q r s) + S4 (fun p q r s => eab p q r s * dmab p q r s) + half * S4 (fun p q r s => ebb p q r s * dmbb p q r s) + e_bos heb hpp c.
Proof.
  intros Hh Hn He Hs1 Hs2. pose proof (rdm12s_u_1 c) as D1. pose proof (rdm12s_u_2 c) as D2. destruct (rdm12s_u c) as [[dma dmb] [[dmaa dmab] dmbb]]. cbn [fst snd] in D1, D2.
  rewrite (S2_ext (fun p q => fst h1e p q * dma p q) (fun p q => fst h1e p q * dot c (ex_a c p q))) by (intros p q Hp Hq; now rewrite (proj1 (D1 p q Hp Hq))).
  rewrite (S2_ext (fun p q => snd h1e p q * dmb p q) (fun p q => snd h1e p q * dot c (ex_b c p q))) by (intros p q Hp Hq; now rewrite (proj2 (D1 p q Hp Hq))).
  rewrite (S4_ext (fun p q r s => eaa p q r s * dmaa p q r s) _ (fun p q r s Hp Hq Hr Hs => f_equal _ (proj1 (D2 p q r s Hp Hq Hr Hs)))), S4_reorder by (try assumption; intros; now apply He).
  rewrite (S4_ext (fun p q r s => ebb p q r s * dmbb p q r s) _ (fun p q r s Hp Hq Hr Hs => f_equal _ (proj2 (proj2 (D2 p q r s Hp Hq Hr Hs))))), S4_reorder by (try assumption; intros; now apply He).
  rewrite (S4_ext (fun p q r s => eab p q r s * dmab p q r s) _ (fun p q r s Hp Hq Hr Hs => f_equal _ (proj1 (proj2 (D2 p q r s Hp Hq Hr Hs))))).
  unfold M_EbFci.hop_u. rewrite all_energy. f_equal. unfold absorb_u. rewrite dot_2e_u.
  set (fa := fun j k : nat => (fst h1e j k - Sum norb (fun i => eaa j i i k) * half) * ninv). set (fb := fun j k : nat => (snd h1e j k - Sum norb (fun i => ebb j i i k) * half) * ninv).
  change (fun b j a i : nat => (eaa b j a i + (if Nat.eqb b j then (fst h1e a i - Sum norb (fun k => eaa a k k i) * half) * ninv else 0) + (if Nat.eqb a i then (fst h1e b j - Sum norb (fun k' => eaa b k' k' j) * half) * ninv else 0)) * half * dot (ex_a c j b) (ex_a c a i))
    with (fun b j a i : nat => (eaa b j a i + (if Nat.eqb b j then fa a i else 0) + (if Nat.eqb a i then fa b j else 0)) * half * dot (ex_a c j b) (ex_a c a i)).
  change (fun b j a i : nat => (ebb b j a i + (if Nat.eqb b j then (snd h1e a i - Sum norb (fun k => ebb a k k i) * half) * ninv else 0) + (if Nat.eqb a i then (snd h1e b j - Sum norb (fun k' => ebb b k' k' j) * half) * ninv else 0)) * half * dot (ex_b c j b) (ex_b c a i))
    with (fun b j a i : nat => (ebb b j a i + (if Nat.eqb b j then fb a i else 0) + (if Nat.eqb a i then fb b j else 0)) * half * dot (ex_b c j b) (ex_b c a i)).
  rewrite (S4_absorb ex_a ex_a NA NA oneb_a oneb_a), (S4_absorb ex_b ex_b NB NB oneb_b oneb_b).
  assert (Sfa : forall p q, (p < norb)%nat -> (q < norb)%nat -> fa p q = fa q p).
  { intros p q Hp Hq. unfold fa. rewrite (proj1 (Hs1 p q Hp Hq)), (Sum_ext norb (fun i => eaa p i i q) (fun i => eaa q i i p)); [reflexivity|]. intros i Hi. rewrite (proj1 (Hs2 p i i q Hp Hi Hi Hq)). now apply He. }
  assert (Sfb : forall p q, (p < norb)%nat -> (q < norb)%nat -> fb p q = fb q p).
  { intros p q Hp Hq. unfold fb. rewrite (proj2 (Hs1 p q Hp Hq)), (Sum_ext norb (fun i => ebb p i i q) (fun i => ebb q i i p)); [reflexivity|]. intros i Hi. rewrite (proj2 (Hs2 p i i q Hp Hi Hi Hq)). now apply He. }
  assert (AB : S4 (fun b j a i => (eab b j a i + (if Nat.eqb a i then fa b j else 0) + (if Nat.eqb b j then fb a i else 0)) * half * dot (ex_a c j b) (ex_b c a i)) =
    half * (S4 (fun p q r s => eab p q r s * dot (ex_a c q p) (ex_b c r s)) + NA * S2 (fun r s => fb r s * dot c (ex_b c r s)) + NB * S2 (fun p q => fa p q * dot c (ex_a c p q)))).
  { rewrite <- (S4_absorb ex_a ex_b NA NB oneb_a oneb_b). apply S4_ext. intros. ring. }
  assert (BA : S4 (fun b j a i => (eab a i b j + (if Nat.eqb b j then fa a i else 0) + (if Nat.eqb a i then fb b j else 0)) * half * dot (ex_b c j b) (ex_a c a i)) =
    half * (S4 (fun p q r s => eab p q r s * dot (ex_a c q p) (ex_b c r s)) + NA * S2 (fun r s => fb r s * dot c (ex_b c r s)) + NB * S2 (fun p q => fa p q * dot c (ex_a c p q)))).
  { rewrite <- AB, S4_pair, S4_tt. apply S4_ext. intros p q r s Hp Hq Hr Hs. destruct (He q p s r Hq Hp Hs Hr) as (_ & _ & E). rewrite E, (Nat.eqb_sym q p), (Nat.eqb_sym s r), (Sfa q p), (Sfb s r), (dot_sym (ex_b c r s)) by assumption. ring. }
  unfold fa, fb in AB, BA. rewrite AB, BA. fold fa fb. change (fun r s : nat => (snd h1e r s - Sum norb (fun i => ebb r i i s) * half) * ninv * dot c (ex_b c r s)) with (fun r s : nat => fb r s * dot c (ex_b c r s)).
  change (fun r s : nat => (fst h1e r s - Sum norb (fun i => eaa r i i s) * half) * ninv * dot c (ex_a c r s)) with (fun r s : nat => fa r s * dot c (ex_a c r s)).
  assert (EA : S2 (fun r s => fa r s * dot c (ex_a c r s)) = ninv * (S2 (fun p q => fst h1e p q * dot c (ex_a c p q)) + - half * S2 (fun p s => Sum norb (fun q => eaa p q q s) * dot c (ex_a c s p)))).
  { rewrite <- S2_mul, <- S2_add, <- S2_mul. apply S2_ext. intros r s Hr Hs. unfold fa. rewrite (sym1 ex_a _ oneb_a c s r) by assumption. ring. }
  assert (EB : S2 (fun r s => fb r s * dot c (ex_b c r s)) = ninv * (S2 (fun p q => snd h1e p q * dot c (ex_b c p q)) + - half * S2 (fun p s => Sum norb (fun q => ebb p q q s) * dot c (ex_b c s p)))).
  { rewrite <- S2_mul, <- S2_add, <- S2_mul. apply S2_ext. intros r s Hr Hs. unfold fb. rewrite (sym1 ex_b _ oneb_b c s r) by assumption. ring. }
  rewrite EA, EB. set (GA := S4 (fun p q r s => eaa p q r s * _)). set (GB := S4 (fun p q r s => ebb p q r s * _)). set (GC := S4 (fun p q r s => eab p q r s * _)).
  set (A1 := S2 (fun p q => fst h1e p q * _)). set (A2 := S2 (fun p s => _ * dot c (ex_a c s p))). set (B1 := S2 (fun p q => snd h1e p q * _)). set (B2 := S2 (fun p s => _ * dot c (ex_b c s p))).
  transitivity (half * GA + half * GB + (half + half) * GC + (ninv * (NA + NB)) * (half + half) * (A1 - half * A2 + B1 - half * B2)); [ring|]. rewrite Hn, Hh. ring.
Qed.

(** ** Density matrices *)
Lemma rdm1_a c a i : (a < norb)%nat -> (i < norb)%nat -> fst (rdm1_u c) a i = dot c (ex_a c a i).
Proof.
  intros Ha Hi. unfold M_EbFci.rdm1_u. cbn [fst]. transitivity (Sum na (fun s0 => Sum na (fun s1 => lk tabA a i s1 s0 * Sum nb (fun sb => BSum nbos mocc (fun l => c s1 sb l * c s0 sb l))))).
  - apply Sum_ext. intros s0 _. set (F := fun a' i' s1 : nat => if Nat.eqb a' a && Nat.eqb i' i then Sum nb (fun sb => BSum nbos mocc (fun l => c s1 sb l * c s0 sb l)) else 0).
    transitivity (Lsum (nth s0 tabA []) (fun e : entry => let '(a', i', s1, sg) := e in sg * F a' i' s1)); [apply Lsum_ext; intros [[[a' i'] s1] sg] _; unfold F; destruct (_ && _); ring|].
    rewrite (tab_sum norb na _ F) by (intros; eapply lk_bound; eassumption). rewrite (Sum_single norb a); [|exact Ha|]; [rewrite (Sum_single norb i); [|exact Hi|]|].
    + apply Sum_ext. intros s1 _. unfold F. rewrite !Nat.eqb_refl. reflexivity.
    + intros x _ Hx. apply Sum_0. intros y _. unfold F. rewrite (proj2 (Nat.eqb_neq x i)) by exact Hx. rewrite andb_false_r. ring.
    + intros x _ Hx. apply Sum_0. intros y _. apply Sum_0. intros z _. unfold F. rewrite (proj2 (Nat.eqb_neq x a)) by exact Hx. cbn [andb]. ring.
  - rewrite Sum_swap. unfold M_EbFci.dot. apply Sum_ext. intros s1 _. transitivity (Sum na (fun s0 => Sum nb (fun sb => BSum nbos mocc (fun l => c s1 sb l * (lk tabA a i s1 s0 * c s0 sb l))))).
    + apply Sum_ext. intros s0 _. rewrite <- Sum_mul_l. apply Sum_ext. intros sb _. rewrite <- BSum_mul_l. apply BSum_ext. intros. ring.
    + rewrite Sum_swap. apply Sum_ext. intros sb _. rewrite <- BSum_Sum. apply BSum_ext. intros l _. rewrite ex_a_eq. apply Sum_mul_l.
Qed.
Lemma rdm1_b c a i : (a < norb)%nat -> (i < norb)%nat -> snd (rdm1_u c) a i = dot c (ex_b c a i).
Proof.
  intros Ha Hi. unfold M_EbFci.rdm1_u. cbn [snd]. transitivity (Sum nb (fun s0 => Sum nb (fun s1 => lk tabB a i s1 s0 * Sum na (fun sa => BSum nbos mocc (fun l => c sa s1 l * c sa s0 l))))).
  - apply Sum_ext. intros s0 _. set (F := fun a' i' s1 : nat => if Nat.eqb a' a && Nat.eqb i' i then Sum na (fun sa => BSum nbos mocc (fun l => c sa s1 l * c sa s0 l)) else 0).
    transitivity (Lsum (nth s0 tabB []) (fun e : entry => let '(a', i', s1, sg) := e in sg * F a' i' s1)); [apply Lsum_ext; intros [[[a' i'] s1] sg] _; unfold F; destruct (_ && _); ring|].
    rewrite (tab_sum norb nb _ F) by (intros; eapply lk_bound; eassumption). rewrite (Sum_single norb a); [|exact Ha|]; [rewrite (Sum_single norb i); [|exact Hi|]|].
    + apply Sum_ext. intros s1 _. unfold F. rewrite !Nat.eqb_refl. reflexivity.
    + intros x _ Hx. apply Sum_0. intros y _. unfold F. rewrite (proj2 (Nat.eqb_neq x i)) by exact Hx. rewrite andb_false_r. ring.
    + intros x _ Hx. apply Sum_0. intros y _. apply Sum_0. intros z _. unfold F. rewrite (proj2 (Nat.eqb_neq x a)) by exact Hx. cbn [andb]. ring.
  - transitivity (Sum nb (fun s1 => Sum nb (fun s0 => Sum na (fun sa => BSum nbos mocc (fun l => c sa s1 l * (lk tabB a i s1 s0 * c sa s0 l)))))).
    + rewrite Sum_swap. apply Sum_ext. intros s1 _. apply Sum_ext. intros s0 _. rewrite <- Sum_mul_l. apply Sum_ext. intros sa _. rewrite <- BSum_mul_l. apply BSum_ext. intros. ring.
    + unfold M_EbFci.dot. rewrite (Sum_swap na nb). apply Sum_ext. intros s1 _. rewrite Sum_swap. apply Sum_ext. intros sa _. rewrite <- BSum_Sum. apply BSum_ext. intros l _. rewrite ex_b_eq. apply Sum_mul_l.
Qed.
(** C68: the functions for the one particle density matrix agree, it is symmetric and its trace is the number of electrons (of each spin) of the vector *)
Theorem C68_dm1 c : (forall p q, (p < norb)%nat -> (q < norb)%nat -> rdm1 c p q = fst (rdm12 c) p q /\ fst (rdm1_u c) p q = fst (fst (rdm12s_u c)) p q /\ snd (rdm1_u c) p q = snd (fst (rdm12s_u c)) p q /\
    rdm1 c p q = rdm1 c q p /\ fst (rdm1_u c) p q = fst (rdm1_u c) q p /\ snd (rdm1_u c) p q = snd (rdm1_u c) q p) /\
  Sum norb (fun p => fst (rdm1_u c) p p) = NA * dot c c /\ Sum norb (fun p => snd (rdm1_u c) p p) = NB * dot c c /\ Sum norb (fun p => rdm1 c p p) = (NA + NB) * dot c c.
Proof.
  assert (R : forall p q, (p < norb)%nat -> (q < norb)%nat -> rdm1 c p q = dot c (ex c p q)).
  { intros p q Hp Hq. unfold M_EbFci.rdm1. rewrite rdm1_a, rdm1_b by assumption. unfold ex. now rewrite dot_add_r. }
  split; [|split; [|split]].
  - intros p q Hp Hq. rewrite !R, !rdm1_a, !rdm1_b, rdm12_1, (proj1 (rdm12s_u_1 c p q Hp Hq)), (proj2 (rdm12s_u_1 c p q Hp Hq)) by assumption.
    split; [reflexivity|]. split; [reflexivity|]. split; [reflexivity|]. split; [now apply (sym1 ex _ oneb_ab)|]. split; [now apply (sym1 ex_a _ oneb_a)|now apply (sym1 ex_b _ oneb_b)].
  - rewrite <- (trace_r ex_a NA oneb_a). apply Sum_ext. intros. now apply rdm1_a.
  - rewrite <- (trace_r ex_b NB oneb_b). apply Sum_ext. intros. now apply rdm1_b.
  - rewrite <- (trace_r ex _ oneb_ab). apply Sum_ext. intros. now apply R.
Qed.
(** C68: summing the two particle density matrix over one particle leaves the other N - 1 times *)
Theorem C68_dm2_trace c p q : half + half = 1 -> (p < norb)%nat -> (q < norb)%nat -> Sum norb (fun r => snd (rdm12 c) p q r r) = (NA + NB - 1) * fst (rdm12 c) p q.
Proof.
  intros Hh Hp Hq. rewrite (Sum_ext norb _ _ (fun r Hr => rdm12_2 c p q r r Hp Hq Hr Hr)), rdm12_1 by assumption. unfold reorder.
  rewrite Sum_mul_r, Sum_add, !Sum_sub, (trace_r ex _ oneb_ab), (trace_l ex _ oneb_ab).
  assert (E1 : Sum norb (fun r => if Nat.eqb q r then dot c (ex c r p) else 0) = dot c (ex c q p)) by (exact (sum_pick norb q (fun r => dot c (ex c r p)) Hq)).
  assert (E2 : Sum norb (fun r => if Nat.eqb r p then dot c (ex c q r) else 0) = dot c (ex c q p)).
  { rewrite <- (sum_pick norb p (fun r => dot c (ex c q r)) Hp). apply Sum_ext. intros. rewrite Nat.eqb_sym. reflexivity. }
  rewrite E1, E2, (sym1 ex _ oneb_ab c q p), (dot_sym (ex c q p) c), (sym1 ex _ oneb_ab c q p) by assumption.
  transitivity ((half + half) * ((NA + NB - 1) * dot c (ex c p q))); [ring|rewrite Hh; ring].
Qed.
(** products of two excitations *)
Lemma ex_a_2 c r s p q sa sb l : ex_a (ex_a c r s) p q sa sb l = Sum na (fun y => Sum na (fun m => lk tabA p q sa m * lk tabA r s m y) * c y sb l).
Proof.
  rewrite ex_a_eq. transitivity (Sum na (fun m => Sum na (fun y => lk tabA p q sa m * (lk tabA r s m y * c y sb l)))); [apply Sum_ext; intros; rewrite ex_a_eq, <- Sum_mul_l; reflexivity|].
  rewrite Sum_swap. apply Sum_ext. intros y _. rewrite <- Sum_mul_r. apply Sum_ext. intros. ring.
Qed.
Lemma ex_b_2 c r s p q sa sb l : ex_b (ex_b c r s) p q sa sb l = Sum nb (fun y => Sum nb (fun m => lk tabB p q sb m * lk tabB r s m y) * c sa y l).
Proof.
  rewrite ex_b_eq. transitivity (Sum nb (fun m => Sum nb (fun y => lk tabB p q sb m * (lk tabB r s m y * c sa y l)))); [apply Sum_ext; intros; rewrite ex_b_eq, <- Sum_mul_l; reflexivity|].
  rewrite Sum_swap. apply Sum_ext. intros y _. rewrite <- Sum_mul_r. apply Sum_ext. intros. ring.
Qed.
Definition exchange (X : ci -> nat -> nat -> ci) : Prop := forall c p q r s, (p < norb)%nat -> (q < norb)%nat -> (r < norb)%nat -> (s < norb)%nat ->
  veq (vadd (X (X c r s) p q) (vscal (- delta q r) (X c p s))) (vscal (- (1)) (vadd (X (X c p s) r q) (vscal (- delta q p) (X c r s)))).
Lemma exch_a : exchange ex_a.
Proof.
  intros c p q r s Hp Hq Hr Hs sa sb l Ha _ _. unfold vadd, vscal. rewrite !ex_a_2, !ex_a_eq.
  transitivity (Sum na (fun y => (Sum na (fun m => lk tabA p q sa m * lk tabA r s m y) - delta q r * lk tabA p s sa y) * c y sb l)).
  - rewrite <- Sum_mul_l, <- Sum_add. apply Sum_ext. intros. ring.
  - rewrite <- (Sum_mul_l _ (- delta q p)), <- Sum_add, <- Sum_mul_l. apply Sum_ext. intros y Hy. rewrite (lk_exch _ _ _ HA) by assumption. ring.
Qed.
Lemma exch_b : exchange ex_b.
Proof.
  intros c p q r s Hp Hq Hr Hs sa sb l _ Hb _. unfold vadd, vscal. rewrite !ex_b_2, !ex_b_eq.
  transitivity (Sum nb (fun y => (Sum nb (fun m => lk tabB p q sb m * lk tabB r s m y) - delta q r * lk tabB p s sb y) * c sa y l)).
  - rewrite <- Sum_mul_l, <- Sum_add. apply Sum_ext. intros. ring.
  - rewrite <- (Sum_mul_l _ (- delta q p)), <- Sum_add, <- Sum_mul_l. apply Sum_ext. intros y Hy. rewrite (lk_exch _ _ _ HB) by assumption. ring.
Qed.
Lemma ex_ab c r s p q sa sb l : ex_a (ex_b c r s) p q sa sb l = ex_b (ex_a c p q) r s sa sb l.
Proof.
  rewrite ex_a_eq, ex_b_eq. transitivity (Sum na (fun m => Sum nb (fun y => lk tabA p q sa m * (lk tabB r s sb y * c m y l)))); [apply Sum_ext; intros; rewrite ex_b_eq, <- Sum_mul_l; reflexivity|].
  rewrite Sum_swap. apply Sum_ext. intros y _. rewrite ex_a_eq, <- Sum_mul_l. apply Sum_ext. intros. ring.
Qed.
(** <p^+ r^+ s q> of one spin *)
Definition dd1 (X : ci -> nat -> nat -> ci) (c : ci) (p q r s : nat) : K := dot (X c q p) (X c r s) - delta q r * dot c (X c p s).
Lemma dd1_anti X N c p q r s : oneb X N -> exchange X -> (p < norb)%nat -> (q < norb)%nat -> (r < norb)%nat -> (s < norb)%nat -> dd1 X c p q r s = - dd1 X c r q p s.
Proof.
  intros H Hx Hp Hq Hr Hs. unfold dd1. rewrite <- !(proj1 H) by assumption.
  pose proof (dot_ext c c _ _ (veq_refl c) (Hx c p q r s Hp Hq Hr Hs)) as E. rewrite dot_add_r, !dot_scal_r, dot_add_r, dot_scal_r in E.
  transitivity (dot c (X (X c r s) p q) + - delta q r * dot c (X c p s)); [ring|]. rewrite E. ring.
Qed.
Lemma dd1_adj X N c p q r s : oneb X N -> (p < norb)%nat -> (q < norb)%nat -> (r < norb)%nat -> (s < norb)%nat -> dd1 X c p q r s = dd1 X c s r q p.
Proof. intros H Hp Hq Hr Hs. unfold dd1. rewrite (sym1 X N H c p s), (delta_sym q r), (dot_sym (X c q p)) by assumption. reflexivity. Qed.
Lemma dd1_pair X N c p q r s : oneb X N -> exchange X -> (p < norb)%nat -> (q < norb)%nat -> (r < norb)%nat -> (s < norb)%nat -> dd1 X c p q r s = dd1 X c r s p q.
Proof.
  intros H Hx Hp Hq Hr Hs. rewrite (dd1_anti X N c p q r s), (dd1_adj X N c r q p s), (dd1_anti X N c s p q r), (dd1_adj X N c q p s r) by assumption. ring.
Qed.
Lemma reorder_dd1 X N c p q r s : half + half = 1 -> oneb X N -> exchange X -> (p < norb)%nat -> (q < norb)%nat -> (r < norb)%nat -> (s < norb)%nat ->
  reorder half (fun p q => dot c (X c p q)) (fun p q r s => dot (X c q p) (X c r s)) p q r s = dd1 X c p q r s.
Proof.
  intros Hh H Hx Hp Hq Hr Hs. unfold reorder.
  assert (E : forall p q r s, (p < norb)%nat -> (s < norb)%nat -> dot (X c q p) (X c r s) - (if Nat.eqb q r then dot c (X c s p) else 0) = dd1 X c p q r s).
  { intros a b d e Ha He. unfold dd1, delta. rewrite (sym1 X N H c e a) by assumption. destruct (Nat.eqb b d); ring. }
  rewrite !E by assumption. rewrite <- (dd1_pair X N c p q r s) by assumption. transitivity ((half + half) * dd1 X c p q r s); [ring|rewrite Hh; ring].
Qed.
(** C68: the spin-resolved two particle density matrices of the unrestricted code are those of fermions *)
Theorem C68_antisymmetric_unrestricted c : half + half = 1 ->
  let '(dmaa, dmab, dmbb) := snd (rdm12s_u c) in forall p q r s, (p < norb)%nat -> (q < norb)%nat -> (r < norb)%nat -> (s < norb)%nat ->
  dmaa p q r s = - dmaa r q p s /\ dmaa p q r s = - dmaa p s r q /\ dmaa p q r s = dmaa q p s r /\ dmbb p q r s = - dmbb r q p s /\ dmbb p q r s = - dmbb p s r q /\ dmbb p q r s = dmbb q p s r /\ dmab p q r s = dmab q p s r.
Proof.
  intros Hh. pose proof (rdm12s_u_2 c) as D. destruct (snd (rdm12s_u c)) as [[dmaa dmab] dmbb]. cbn [fst snd] in D. intros p q r s Hp Hq Hr Hs.
  assert (A : forall p q r s, (p < norb)%nat -> (q < norb)%nat -> (r < norb)%nat -> (s < norb)%nat -> dmaa p q r s = dd1 ex_a c p q r s).
  { intros a b d e Ha Hb Hd He. rewrite (proj1 (D a b d e Ha Hb Hd He)). apply (reorder_dd1 ex_a NA); try assumption; [apply oneb_a|apply exch_a]. }
  assert (B : forall p q r s, (p < norb)%nat -> (q < norb)%nat -> (r < norb)%nat -> (s < norb)%nat -> dmbb p q r s = dd1 ex_b c p q r s).
  { intros a b d e Ha Hb Hd He. rewrite (proj2 (proj2 (D a b d e Ha Hb Hd He))). apply (reorder_dd1 ex_b NB); try assumption; [apply oneb_b|apply exch_b]. }
  assert (T : forall X N, oneb X N -> exchange X -> dd1 X c p q r s = - dd1 X c r q p s /\ dd1 X c p q r s = - dd1 X c p s r q /\ dd1 X c p q r s = dd1 X c q p s r).
  { intros X N H Hx. split; [now apply (dd1_anti X N)|]. split.
    - rewrite (dd1_adj X N c p q r s), (dd1_anti X N c s r q p), (dd1_adj X N c q r s p) by assumption. reflexivity.
    - rewrite (dd1_adj X N c p q r s), (dd1_pair X N c s r q p) by assumption. reflexivity. }
  rewrite !A, !B by assumption. destruct (T ex_a NA oneb_a exch_a) as (T1 & T2 & T3). destruct (T ex_b NB oneb_b exch_b) as (T4 & T5 & T6).
  repeat (split; [assumption|]). rewrite (proj1 (proj2 (D p q r s Hp Hq Hr Hs))), (proj1 (proj2 (D q p s r Hq Hp Hs Hr))).
  rewrite <- (dot_ex_a c) by assumption. rewrite (dot_sym (ex_a c p q)), <- dot_ex_b by assumption. apply dot_ext; [apply veq_refl|]. intros sa sb l _ _ _. apply ex_ab.
Qed.

(** spin orbitals *)
Definition so (i : nat) : Prop := (Nat.div2 i < norb)%nat.
Definition sX (c : ci) (i a : nat) : ci := if Nat.even i && Nat.even a then ex_a c (Nat.div2 i) (Nat.div2 a) else if Nat.odd i && Nat.odd a then ex_b c (Nat.div2 i) (Nat.div2 a) else fun _ _ _ => 0.
Definition sT (c : ci) (i a : nat) : ci := if Nat.even i && Nat.even a then tr_a c (Nat.div2 i) (Nat.div2 a) else if Nat.odd i && Nat.odd a then tr_b c (Nat.div2 i) (Nat.div2 a) else fun _ _ _ => 0.
Lemma sT_ok c i a : so i -> so a -> veq (sT c i a) (sX c i a).
Proof. intros Hi Ha. unfold sT, sX. destruct (Nat.even i && Nat.even a); [now apply tr_a_ok|]. destruct (Nat.odd i && Nat.odd a); [now apply tr_b_ok|apply veq_refl]. Qed.
Lemma sX_adj x y i a : so i -> so a -> dot x (sX y i a) = dot (sX x a i) y.
Proof.
  intros Hi Ha. unfold sX. rewrite (andb_comm (Nat.even a)), (andb_comm (Nat.odd a)). destruct (Nat.even i && Nat.even a); [now apply dot_ex_a|]. destruct (Nat.odd i && Nat.odd a); [now apply dot_ex_b|].
  rewrite dot_0_r, dot_sym, dot_0_r. reflexivity.
Qed.
(** <p^+ r^+ s q> for spin orbitals *)
Definition sD (c : ci) (p q r s : nat) : K :=
  if Nat.even p && Nat.odd q && Nat.odd r && Nat.even s then - dot (sX c q r) (sX c p s)
  else if Nat.odd p && Nat.even q && Nat.even r && Nat.odd s then - dot (sX c q r) (sX c p s)
  else dot (sX c q p) (sX c r s) - delta q r * dot c (sX c p s).
Lemma raw_s_sD c p q r s : so p -> so q -> so r -> so s -> snd (raw_s nbos mocc tabA tabB c) p q r s - (if Nat.eqb q r then fst (raw_s nbos mocc tabA tabB c) s p else 0) = sD c p q r s.
Proof.
  intros Hp Hq Hr Hs. 
  change (snd (raw_s nbos mocc tabA tabB c) p q r s) with (if Nat.even p && Nat.odd q && Nat.odd r && Nat.even s then (if Nat.eqb q r then dot (sT c p s) c else 0) - dot (sT c q r) (sT c p s)
    else if Nat.odd p && Nat.even q && Nat.even r && Nat.odd s then (if Nat.eqb q r then dot (sT c p s) c else 0) - dot (sT c q r) (sT c p s) else dot (sT c q p) (sT c r s)).
  change (fst (raw_s nbos mocc tabA tabB c) s p) with (dot (sT c s p) c). unfold sD.
  assert (E1 : forall i a, so i -> so a -> dot (sT c i a) c = dot c (sX c i a)) by (intros; rewrite dot_sym; apply dot_ext; [apply veq_refl|now apply sT_ok]).
  assert (E2 : forall i a j b, so i -> so a -> so j -> so b -> dot (sT c i a) (sT c j b) = dot (sX c i a) (sX c j b)) by (intros; apply dot_ext; now apply sT_ok).
  assert (E3 : dot c (sX c p s) = dot c (sX c s p)) by (rewrite sX_adj by assumption; apply dot_sym).
  rewrite !E1, !E2 by assumption. unfold delta. rewrite E3.
  destruct (Nat.even p && Nat.odd q && Nat.odd r && Nat.even s); [destruct (Nat.eqb q r); ring|]. destruct (Nat.odd p && Nat.even q && Nat.even r && Nat.odd s); destruct (Nat.eqb q r); ring.
Qed.
Lemma dot_0_l x : dot (fun _ _ _ => 0) x = 0.
Proof. rewrite dot_sym. apply dot_0_r. Qed.
Lemma delta_parity i j : Nat.even i = negb (Nat.even j) -> (delta i j : K) = 0.
Proof. intros H. apply delta_neq. intros ->. destruct (Nat.even j); discriminate. Qed.
Lemma delta_div2 i j : Nat.even i = Nat.even j -> (delta i j : K) = delta (Nat.div2 i) (Nat.div2 j).
Proof.
  intros H. unfold delta. destruct (Nat.eqb_spec i j) as [->|Hn]; [now rewrite Nat.eqb_refl|]. destruct (Nat.eqb_spec (Nat.div2 i) (Nat.div2 j)) as [E|]; [|reflexivity]. exfalso. apply Hn.
  rewrite (Nat.div2_odd i), (Nat.div2_odd j), E, <- !Nat.negb_even, H. reflexivity.
Qed.
Lemma sD_anti c p q r s : so p -> so q -> so r -> so s -> sD c p q r s = - sD c r q p s.
Proof.
  intros Hp Hq Hr Hs. pose proof (dd1_anti ex_a NA c _ _ _ _ oneb_a exch_a Hp Hq Hr Hs) as A. pose proof (dd1_anti ex_b NB c _ _ _ _ oneb_b exch_b Hp Hq Hr Hs) as B.
  unfold sD, sX. unfold dd1 in A, B. rewrite <- !Nat.negb_even.
  destruct (Nat.even p) eqn:Ep, (Nat.even q) eqn:Eq, (Nat.even r) eqn:Er, (Nat.even s) eqn:Es; cbn [andb negb]; rewrite ?dot_0_l, ?dot_0_r;
    try rewrite (delta_parity q r) by (rewrite Eq, Er; reflexivity); try rewrite (delta_parity q p) by (rewrite Eq, Ep; reflexivity);
    try rewrite (delta_div2 q r) by (rewrite Eq, Er; reflexivity); try rewrite (delta_div2 q p) by (rewrite Eq, Ep; reflexivity); try exact A; try exact B; try ring.
Qed.
Lemma swap_ab c q r p s : (p < norb)%nat -> (q < norb)%nat -> (r < norb)%nat -> (s < norb)%nat -> dot (ex_b c q r) (ex_a c p s) = dot (ex_b c r q) (ex_a c s p).
Proof.
  intros Hp Hq Hr Hs. rewrite (dot_ex_a (ex_b c r q) c s p), (dot_sym _ c), <- (dot_ex_b c (ex_a c p s) r q) by assumption. apply dot_ext; [apply veq_refl|]. intros sa sb l _ _ _. symmetry. apply ex_ab.
Qed.
Lemma sD_adj c p q r s : so p -> so q -> so r -> so s -> sD c p q r s = sD c s r q p.
Proof.
  intros Hp Hq Hr Hs. unfold sD. rewrite (delta_sym r q), (dot_sym (sX c r s)), (sX_adj c c s p), (dot_sym (sX c p s) c) by assumption.
  destruct (Nat.even p) eqn:Ep, (Nat.even q) eqn:Eq, (Nat.even r) eqn:Er, (Nat.even s) eqn:Es; rewrite <- !Nat.negb_even, ?Ep, ?Eq, ?Er, ?Es; cbn [andb negb]; try reflexivity.
  - f_equal. unfold sX. rewrite <- !Nat.negb_even, Ep, Eq, Er, Es. cbn [andb negb]. now apply swap_ab.
  - f_equal. unfold sX. rewrite <- !Nat.negb_even, Ep, Eq, Er, Es. cbn [andb negb]. rewrite (dot_sym (ex_a c _ _)), (dot_sym (ex_a c (Nat.div2 r) _)). now apply swap_ab.
Qed.
Lemma sD_pair c p q r s : so p -> so q -> so r -> so s -> sD c p q r s = sD c r s p q.
Proof. intros. rewrite (sD_anti c p q r s), (sD_adj c r q p s), (sD_anti c s p q r), (sD_adj c q p s r) by assumption. ring. Qed.
Lemma rdm12s_2 c p q r s : half + half = 1 -> so p -> so q -> so r -> so s -> snd (rdm12s c) p q r s = sD c p q r s.
Proof.
  intros Hh Hp Hq Hr Hs. unfold M_EbFci.rdm12s. cbn [snd]. unfold reorder. rewrite !raw_s_sD by assumption. rewrite <- (sD_pair c p q r s) by assumption.
  transitivity ((half + half) * sD c p q r s); [ring|rewrite Hh; ring].
Qed.
(** C68: the two particle density matrix in spin orbitals is that of fermions: exchange of creators or annihilators changes its sign *)
Theorem C68_antisymmetric c p q r s : half + half = 1 -> (p < 2 * norb)%nat -> (q < 2 * norb)%nat -> (r < 2 * norb)%nat -> (s < 2 * norb)%nat ->
  let dm2 := snd (rdm12s c) in dm2 p q r s = - dm2 r q p s /\ dm2 p q r s = - dm2 p s r q /\ dm2 p q r s = dm2 r s p q /\ dm2 p q r s = dm2 q p s r.
Proof.
  intros Hh Hp Hq Hr Hs. cbv zeta. assert (S : forall i, (i < 2 * norb)%nat -> so i) by (intros i Hi; unfold so; rewrite Nat.div2_div; apply Nat.div_lt_upper_bound; lia).
  apply S in Hp, Hq, Hr, Hs. rewrite !rdm12s_2 by assumption. split; [now apply sD_anti|]. split; [|split; [now apply sD_pair|]].
  - rewrite (sD_adj c p q r s), (sD_anti c s r q p), (sD_adj c q r s p) by assumption. reflexivity.
  - rewrite (sD_adj c p q r s), (sD_pair c s r q p) by assumption. reflexivity.
Qed.
Lemma div2_even p : Nat.div2 (2 * p) = p. Proof. apply Nat.div2_double. Qed.
Lemma div2_odd p : Nat.div2 (2 * p + 1) = p. Proof. rewrite Nat.add_1_r. apply Nat.div2_succ_double. Qed.
Lemma ev p : Nat.even (2 * p) = true. Proof. rewrite Nat.even_mul. reflexivity. Qed.
Lemma od p : Nat.even (2 * p + 1) = false. Proof. rewrite Nat.even_add, ev. reflexivity. Qed.
Lemma sX_a c p q : sX c (2 * p) (2 * q) = ex_a c p q.
Proof. unfold sX. rewrite !ev, !div2_even. reflexivity. Qed.
Lemma sX_b c p q : sX c (2 * p + 1) (2 * q + 1) = ex_b c p q.
Proof. unfold sX. rewrite <- !Nat.negb_even, !od, !div2_odd. reflexivity. Qed.
Lemma delta_2 p q : (delta (2 * p) (2 * q) : K) = delta p q.
Proof. rewrite delta_div2, !div2_even by (rewrite !ev; reflexivity). reflexivity. Qed.
Lemma delta_21 p q : (delta (2 * p + 1) (2 * q + 1) : K) = delta p q.
Proof. rewrite delta_div2, !div2_odd by (rewrite !od; reflexivity). reflexivity. Qed.
Lemma rdm12s_u_dd c p q r s : half + half = 1 -> (p < norb)%nat -> (q < norb)%nat -> (r < norb)%nat -> (s < norb)%nat ->
  fst (fst (snd (rdm12s_u c))) p q r s = dd1 ex_a c p q r s /\ snd (fst (snd (rdm12s_u c))) p q r s = dot (ex_a c q p) (ex_b c r s) /\ snd (snd (rdm12s_u c)) p q r s = dd1 ex_b c p q r s.
Proof.
  intros Hh Hp Hq Hr Hs. destruct (rdm12s_u_2 c p q r s Hp Hq Hr Hs) as (-> & -> & ->). split; [|split; [reflexivity|]].
  - apply (reorder_dd1 ex_a NA); try assumption; [apply oneb_a|apply exch_a].
  - apply (reorder_dd1 ex_b NB); try assumption; [apply oneb_b|apply exch_b].
Qed.
(** C68: the three functions for two particle density matrices agree: spin orbital blocks, spin blocks, and their sum *)
Theorem C68_spin_blocks c p q r s : half + half = 1 -> (p < norb)%nat -> (q < norb)%nat -> (r < norb)%nat -> (s < norb)%nat ->
  let '(dmaa, dmab, dmbb) := snd (rdm12s_u c) in
  snd (rdm12s c) (2 * p)%nat (2 * q)%nat (2 * r)%nat (2 * s)%nat = dmaa p q r s /\ snd (rdm12s c) (2 * p)%nat (2 * q)%nat (2 * r + 1)%nat (2 * s + 1)%nat = dmab p q r s /\
  snd (rdm12s c) (2 * p + 1)%nat (2 * q + 1)%nat (2 * r + 1)%nat (2 * s + 1)%nat = dmbb p q r s /\
  snd (rdm12 c) p q r s = dmaa p q r s + dmbb p q r s + dmab p q r s + dmab r s p q /\
  fst (rdm12s c) (2 * p)%nat (2 * q)%nat = fst (fst (rdm12s_u c)) p q /\ fst (rdm12s c) (2 * p + 1)%nat (2 * q + 1)%nat = snd (fst (rdm12s_u c)) p q.
Proof.
  intros Hh Hp Hq Hr Hs. pose proof (rdm12s_u_dd c) as D. pose proof (rdm12s_u_1 c p q Hp Hq) as D1. destruct (rdm12s_u c) as [[dma dmb] [[dmaa dmab] dmbb]]. cbn [fst snd] in D, D1 |- *.
  destruct (D p q r s Hh Hp Hq Hr Hs) as (Aa & Ab & Bb). destruct (D r s p q Hh Hr Hs Hp Hq) as (_ & Ab' & _).
  assert (S0 : forall i, (i < norb)%nat -> so (2 * i)) by (intros i Hi; unfold so; now rewrite div2_even).
  assert (S1 : forall i, (i < norb)%nat -> so (2 * i + 1)) by (intros i Hi; unfold so; now rewrite div2_odd).
  assert (F : forall i j, so i -> so j -> fst (rdm12s c) i j = dot c (sX c i j)).
  { intros i j Hi Hj. change (fst (rdm12s c) i j) with (dot (sT c i j) c). rewrite dot_sym. apply dot_ext; [apply veq_refl|now apply sT_ok]. }
  rewrite !rdm12s_2 by (auto using S0, S1). rewrite !F by (auto using S0, S1). rewrite (proj1 D1), (proj2 D1), Aa, Ab, Bb, Ab', sX_a, sX_b.
  unfold sD. rewrite <- !Nat.negb_even, !ev, !od. cbn [andb negb]. rewrite !sX_a, !sX_b, delta_2, delta_21, (delta_parity (2 * q) (2 * r + 1)) by (rewrite ev, od; reflexivity).
  split; [reflexivity|]. split; [ring|]. split; [reflexivity|]. split; [|split; reflexivity].
  rewrite rdm12_2 by assumption. unfold reorder.
  assert (E : forall p q r s, (p < norb)%nat -> (q < norb)%nat -> (r < norb)%nat -> (s < norb)%nat -> dot (ex c q p) (ex c r s) - (if Nat.eqb q r then dot c (ex c s p) else 0) =
    dd1 ex_a c p q r s + dd1 ex_b c p q r s + dot (ex_a c q p) (ex_b c r s) + dot (ex_a c s r) (ex_b c p q)).
  { intros a b d e Ha Hb Hd He. rewrite (sym1 ex _ oneb_ab c e a) by assumption. unfold dd1, delta, ex. rewrite !dot_add_l, !dot_add_r, (dot_sym (ex_a c e d)), (swap_ab c a b e d), (dot_sym (ex_b c b a)) by assumption. destruct (Nat.eqb b d); ring. }
  rewrite !E by assumption. rewrite <- (dd1_pair ex_a NA c p q r s), <- (dd1_pair ex_b NB c p q r s) by (try assumption; first [apply oneb_a|apply oneb_b|apply exch_a|apply exch_b]).
  transitivity ((half + half) * (dd1 ex_a c p q r s + dd1 ex_b c p q r s + dot (ex_a c q p) (ex_b c r s) + dot (ex_a c s r) (ex_b c p q))); [ring|rewrite Hh; ring].
Qed.

(** ** Bosons *)
Lemma upd_length b v l : length (upd b v l) = length l.
Proof. revert b. induction l as [|x l IH]; intros [|b]; cbn; try reflexivity. now rewrite IH. Qed.
Lemma nth_upd_eq b v l : (b < length l)%nat -> nth b (upd b v l) 0%nat = v.
Proof. revert b. induction l as [|x l IH]; intros [|b] H; cbn in *; try lia. apply IH. lia. Qed.
Lemma nth_upd_neq b b' v l : b <> b' -> nth b (upd b' v l) 0%nat = nth b l 0%nat.
Proof. revert b b'. induction l as [|x l IH]; intros [|b] [|b'] H; cbn; try reflexivity; try congruence. apply IH. congruence. Qed.
Lemma upd_upd b v w l : upd b v (upd b w l) = upd b v l.
Proof. revert b. induction l as [|x l IH]; intros [|b]; cbn; try reflexivity. now rewrite IH. Qed.
Lemma upd_comm b b' v w l : b <> b' -> upd b v (upd b' w l) = upd b' w (upd b v l).
Proof. revert b b'. induction l as [|x l IH]; intros [|b] [|b'] H; cbn; try reflexivity; try congruence. rewrite IH by congruence. reflexivity. Qed.
Lemma upd_self b l : upd b (nth b l 0%nat) l = l.
Proof. revert b. induction l as [|x l IH]; intros [|b]; cbn; try reflexivity. now rewrite IH. Qed.
Lemma inbox_nth l b : inbox nbos mocc l -> (nth b l 0%nat <= mocc)%nat.
Proof.
  intros [_ H]. revert b. induction H as [|x l Hx H IH]; intros [|b]; cbn; try lia. apply IH.
Qed.
Lemma inbox_upd l b v : inbox nbos mocc l -> (v <= mocc)%nat -> inbox nbos mocc (upd b v l).
Proof.
  intros [H1 H2] Hv. split; [now rewrite upd_length|]. clear H1. revert b. induction H2 as [|x l Hx H IH]; intros [|b]; cbn; try constructor; auto.
Qed.
(** what creation and annihilation do, without loops *)
Lemma cre_at b c sa sb l : inbox nbos mocc l -> cre b c sa sb l = match nth b l 0%nat with O => 0 | S k => c sa sb (upd b k l) * sq (S k) end.
Proof.
  intros Hl. pose proof (inbox_nth l b Hl) as Hn. unfold M_EbFci.cre. destruct (nth b l 0%nat) as [|k].
  - apply Sum_0. intros i _. rewrite (proj2 (Nat.eqb_neq 0 (i + 1))) by lia. reflexivity.
  - rewrite (Sum_single mocc k); [|lia|].
    + rewrite (proj2 (Nat.eqb_eq (S k) (k + 1))) by lia. unfold bos_cre. rewrite Nat.add_1_r. reflexivity.
    + intros i _ Hi. rewrite (proj2 (Nat.eqb_neq (S k) (i + 1))) by lia. reflexivity.
Qed.
Lemma ann_at b c sa sb l : inbox nbos mocc l -> ann b c sa sb l = if Nat.eqb (nth b l 0%nat) mocc then 0 else c sa sb (upd b (S (nth b l 0%nat)) l) * sq (S (nth b l 0%nat)).
Proof.
  intros Hl. pose proof (inbox_nth l b Hl) as Hn. unfold M_EbFci.ann. destruct (Nat.eqb_spec (nth b l 0%nat) mocc) as [E|E].
  - apply Sum_0. intros i Hi. rewrite (proj2 (Nat.eqb_neq _ i)) by lia. reflexivity.
  - rewrite (Sum_single mocc (nth b l 0%nat)); [|lia|].
    + rewrite Nat.eqb_refl. unfold bos_cre. rewrite Nat.add_1_r. reflexivity.
    + intros i _ Hi. rewrite (proj2 (Nat.eqb_neq _ i)) by congruence. reflexivity.
Qed.
(** numpy.sqrt on the numbers that occur *)
Definition sq_ok : Prop := forall k, (k <= mocc)%nat -> sq k * sq k = nK k.
(** C68: b^+ b counts the bosons *)
Theorem C68_number b c sa sb l : sq_ok -> (b < nbos)%nat -> inbox nbos mocc l -> cre b (ann b c) sa sb l = nK (nth b l 0%nat) * c sa sb l.
Proof.
  intros Hsq Hb Hl. pose proof (inbox_nth l b Hl) as Hn. rewrite cre_at by exact Hl. pose proof (upd_self b l) as U. destruct (nth b l 0%nat) as [|k] eqn:E; [cbn [nK]; ring|].
  rewrite ann_at by (apply inbox_upd; [exact Hl|lia]). rewrite nth_upd_eq by (destruct Hl as [-> _]; exact Hb). rewrite (proj2 (Nat.eqb_neq k mocc)) by lia. rewrite upd_upd, U, <- (Hsq (S k)) by lia. ring.
Qed.
(** C68: the commutation relations hold except in the highest occupation that is kept, where b b^+ is missing *)
Theorem C68_commutator b b' c sa sb l : sq_ok -> (b < nbos)%nat -> (b' < nbos)%nat -> inbox nbos mocc l ->
  ann b (cre b' c) sa sb l - cre b' (ann b c) sa sb l = if Nat.eqb b b' then (if Nat.eqb (nth b l 0%nat) mocc then - nK mocc * c sa sb l else c sa sb l) else 0.
Proof.
  intros Hsq Hb Hb' Hl. pose proof (inbox_nth l b Hl) as Hn. destruct (Nat.eqb_spec b b') as [<-|Hne].
  - rewrite C68_number, ann_at by assumption. destruct (Nat.eqb_spec (nth b l 0%nat) mocc) as [->|E]; [ring|].
    rewrite cre_at by (apply inbox_upd; [exact Hl|lia]). rewrite nth_upd_eq by (destruct Hl as [-> _]; exact Hb). rewrite upd_upd, upd_self.
    transitivity (sq (S (nth b l 0%nat)) * sq (S (nth b l 0%nat)) * c sa sb l - nK (nth b l 0%nat) * c sa sb l); [ring|]. rewrite Hsq by lia. cbn [nK]. ring.
  - rewrite (ann_at b (cre b' c)), (cre_at b' (ann b c) sa sb l) by assumption. pose proof (inbox_nth l b' Hl) as Hn'. destruct (Nat.eqb_spec (nth b l 0%nat) mocc) as [E|E].
    + destruct (nth b' l 0%nat) as [|k]; [ring|]. rewrite ann_at by (apply inbox_upd; [exact Hl|lia]). rewrite nth_upd_neq, E, Nat.eqb_refl by exact Hne. ring.
    + rewrite cre_at by (apply inbox_upd; [exact Hl|lia]). rewrite nth_upd_neq by congruence. destruct (nth b' l 0%nat) as [|k]; [ring|].
      rewrite ann_at by (apply inbox_upd; [exact Hl|lia]). rewrite nth_upd_neq by exact Hne. rewrite (proj2 (Nat.eqb_neq _ mocc)) by exact E. rewrite (upd_comm b b') by exact Hne. ring.
Qed.
Lemma ann_ext b x y sa sb l : inbox nbos mocc l -> (forall l, inbox nbos mocc l -> x sa sb l = y sa sb l) -> ann b x sa sb l = ann b y sa sb l.
Proof.
  intros Hl H. pose proof (inbox_nth l b Hl). rewrite !ann_at by exact Hl. destruct (Nat.eqb_spec (nth b l 0%nat) mocc); [reflexivity|]. rewrite H; [reflexivity|]. apply inbox_upd; [exact Hl|lia].
Qed.
Lemma cre_ext b x y sa sb l : inbox nbos mocc l -> (forall l, inbox nbos mocc l -> x sa sb l = y sa sb l) -> cre b x sa sb l = cre b y sa sb l.
Proof.
  intros Hl H. pose proof (inbox_nth l b Hl). rewrite !cre_at by exact Hl. destruct (nth b l 0%nat) as [|k]; [reflexivity|]. rewrite H; [reflexivity|]. apply inbox_upd; [exact Hl|lia].
Qed.
Lemma pp_at hpp c sa sb l : contract_pp hpp c sa sb l = Sum nbos (fun m => Sum nbos (fun n => hpp m n * cre m (ann n c) sa sb l)).
Proof.
  unfold M_EbFci.contract_pp. apply Sum_ext. intros m _. change (cre m (vSum nbos (fun n => vscal (hpp m n) (ann n c))) sa sb l = Sum nbos (fun n => hpp m n * cre m (ann n c) sa sb l)).
  rewrite cre_vSum. apply Sum_ext. intros. apply cre_vscal.
Qed.
Lemma num_pick l b x : (nth b l 0%nat <= mocc)%nat -> Sum (S mocc) (fun i => if Nat.eqb (nth b l 0%nat) i then x * nK i else 0) = x * (nK (nth b l 0%nat) : K).
Proof. intros H. refine (sum_pick (S mocc) _ (fun i => x * nK i) _). now apply Nat.lt_succ_r. Qed.
(** C68: for bosons that do not couple to each other the general code gives frequencies times occupations, as does the function written for this case *)
Theorem C68_diagonal hpp c sa sb l : sq_ok -> inbox nbos mocc l -> (forall m n, m <> n -> hpp m n = 0) ->
  contract_pp hpp c sa sb l = Sum nbos (fun b => hpp b b * nK (nth b l 0%nat)) * c sa sb l /\ contract_pp_diag nbos mocc (fun b => hpp b b) c sa sb l = contract_pp hpp c sa sb l.
Proof.
  intros Hsq Hl Hd. assert (E : contract_pp hpp c sa sb l = Sum nbos (fun b => hpp b b * nK (nth b l 0%nat)) * c sa sb l).
  { rewrite pp_at, <- Sum_mul_r. apply Sum_ext. intros m Hm. rewrite (Sum_single nbos m); [|exact Hm|].
    - rewrite C68_number by assumption. ring.
    - intros n _ Hn. rewrite Hd by congruence. ring. }
  split; [exact E|]. rewrite E. unfold contract_pp_diag. rewrite <- Sum_mul_r. apply Sum_ext. intros b _. pose proof (inbox_nth l b Hl) as Hn.
  transitivity (Sum (S mocc) (fun i => if Nat.eqb (nth b l 0%nat) i then c sa sb l * hpp b b * nK i else 0)); [apply Sum_ext; intros; destruct (Nat.eqb _ _); ring|]. rewrite num_pick by exact Hn. ring.
Qed.
Definition unit_bos (l0 : list nat) : ci := fun _ _ l => if list_eq_dec Nat.eq_dec l l0 then 1 else 0.
(** C68: for bosons with any coupling the preconditioner has the diagonal of the operator *)
Theorem C68_hdiag hpp sa sb l : sq_ok -> inbox nbos mocc l -> hdiag_bos nbos mocc hpp l = contract_pp hpp (unit_bos l) sa sb l.
Proof.
  intros Hsq Hl. rewrite pp_at. unfold hdiag_bos. apply Sum_ext. intros b Hb. pose proof (inbox_nth l b Hl) as Hn. rewrite num_pick by exact Hn. rewrite (Sum_single nbos b); [|exact Hb|].
  - rewrite C68_number by assumption. unfold unit_bos. destruct (list_eq_dec _ l l); [ring|congruence].
  - intros n Hnb Hne. rewrite cre_at by exact Hl. destruct (nth b l 0%nat) as [|k] eqn:E; [ring|]. rewrite ann_at by (apply inbox_upd; [exact Hl|lia]).
    destruct (Nat.eqb _ mocc); [ring|]. unfold unit_bos. destruct (list_eq_dec _ _ l) as [F|]; [|ring]. exfalso. apply (f_equal (fun x => nth b x 0%nat)) in F.
    rewrite nth_upd_neq, nth_upd_eq, E in F by (try congruence; destruct Hl as [-> _]; exact Hb). lia.
Qed.
(** C68: with no boson, or no occupation, the operator is that of the electrons alone; leaving out the other two terms changes nothing *)
Theorem C68_switch two heb hpp adj c sa sb l : contract_all two heb hpp adj c sa sb l = two c sa sb l + contract_ep heb adj c sa sb l + contract_pp hpp c sa sb l.
Proof.
  unfold M_EbFci.contract_all. destruct (Nat.ltb_spec 0 nbos) as [Hb|Hb]; cbn [andb]; [destruct (Nat.ltb_spec 0 mocc) as [Hm|Hm]; [reflexivity|]|].
  - assert (E : mocc = 0%nat) by lia. assert (P : contract_pp hpp c sa sb l = 0). { rewrite pp_at. apply Sum_0. intros. apply Sum_0. intros. unfold M_EbFci.cre. rewrite E. cbn [Sum]. ring. }
    assert (Q : contract_ep heb adj c sa sb l = 0). { unfold M_EbFci.contract_ep. rewrite E. apply Sum_0. intros. cbn [Sum]. ring. } rewrite P, Q. ring.
  - assert (E : nbos = 0%nat) by lia. assert (P : contract_pp hpp c sa sb l = 0) by (unfold M_EbFci.contract_pp; rewrite E; reflexivity).
    assert (Q : contract_ep heb adj c sa sb l = 0) by (unfold M_EbFci.contract_ep; rewrite E; reflexivity). rewrite P, Q. ring.
Qed.
(** a state without bosons *)
Definition vac (f : nat -> nat -> K) : ci := fun sa sb l => if forallb (Nat.eqb 0) l then f sa sb else 0.
Lemma vac_upd l n k : (n < length l)%nat -> forallb (Nat.eqb 0) (upd n (S k) l) = false.
Proof. revert n. induction l as [|x l IH]; intros [|n] H; cbn in *; try lia; try reflexivity. destruct x; [|reflexivity]. apply IH. lia. Qed.
Lemma ex_a_vac f a i sa sb l : ex_a (vac f) a i sa sb l = vac (fun sa sb => ex_a (fun sa sb _ => f sa sb) a i sa sb l) sa sb l.
Proof. unfold vac. rewrite !ex_a_eq. destruct (forallb _ l); [reflexivity|]. apply Sum_0. intros. ring. Qed.
(** C68: without coupling to the electrons the bosons stay in their vacuum, whatever their couplings to each other *)
Theorem C68_vacuum two hpp adj f sa sb l : inbox nbos mocc l -> contract_all two ((fun _ _ _ => 0), (fun _ _ _ => 0)) hpp adj (vac f) sa sb l = two (vac f) sa sb l.
Proof.
  intros Hl. rewrite C68_switch.
  assert (P : contract_pp hpp (vac f) sa sb l = 0).
  { rewrite pp_at. apply Sum_0. intros m _. apply Sum_0. intros n Hn. rewrite (cre_ext m _ (fun _ _ _ => 0)); [|exact Hl|].
    - rewrite cre_at by exact Hl. destruct (nth m l 0%nat); ring.
    - intros l' Hl'. rewrite ann_at by exact Hl'. destruct (Nat.eqb _ _); [reflexivity|]. unfold vac. rewrite vac_upd by (destruct Hl' as [-> _]; exact Hn). ring. }
  assert (Q : contract_ep ((fun _ _ _ => 0), (fun _ _ _ => 0)) adj (vac f) sa sb l = 0).
  { unfold M_EbFci.contract_ep. apply Sum_0. intros n _. cbn [fst snd].
    assert (Z : forall t : mat, Sum norb (fun a => Sum norb (fun i => 0 * t a i)) = (0 : K)) by (intros t; apply Sum_0; intros; apply Sum_0; intros; ring).
    rewrite (Sum_0 mocc), (Sum_0 mocc); [ring| |].
    - intros k _. destruct (Nat.eqb _ _); [|reflexivity]. rewrite (Z (fun x y => ex_a (vac f) y x sa sb (upd n (k + 1) l) - _)), (Z (fun x y => ex_b (vac f) y x sa sb (upd n (k + 1) l) - _)). ring.
    - intros k _. destruct (Nat.eqb _ _); [|reflexivity]. rewrite (Z (fun x y => ex_a (vac f) x y sa sb (upd n k l) - _)), (Z (fun x y => ex_b (vac f) x y sa sb (upd n k l) - _)). ring. }
  rewrite P, Q. ring.
Qed.
(** ** Electron-boson density matrix and the zero mode *)
(** C68: the electron-boson density matrix is <b^+ p^+ q> = <q^+ p b>, and its trace is the number of electrons times the mean amplitude of the boson *)
Theorem C68_eb_rdm c b : (b < nbos)%nat ->
  (forall p q, (p < norb)%nat -> (q < norb)%nat -> fst (eb_rdm c) p q b = dot c (ex_a (ann b c) q p) /\ snd (eb_rdm c) p q b = dot c (ex_b (ann b c) q p)) /\
  Sum norb (fun p => fst (eb_rdm c) p p b) = NA * dot (cre b c) c /\ Sum norb (fun p => snd (eb_rdm c) p p b) = NB * dot (cre b c) c.
Proof.
  intros Hb. unfold M_EbFci.eb_rdm. cbn [fst snd]. split; [|split].
  - intros p q Hp Hq. rewrite (dot_ex_a c), (dot_ex_b c), !dot_ann by assumption. split; reflexivity.
  - rewrite <- (trace_l ex_a NA oneb_a). apply Sum_ext. intros p Hp. apply dot_ext; [|apply veq_refl]. intros sa sb l _ _ _. apply cre_ex_a.
  - rewrite <- (trace_l ex_b NB oneb_b). apply Sum_ext. intros p Hp. apply dot_ext; [|apply veq_refl]. intros sa sb l _ _ _. apply cre_ex_b.
Qed.
(** C68: what removal of the zero mode subtracts: zfac times the traces of the couplings of both spins *)
Theorem C68_zero_mode heb x y : dot x (contract_ep heb true y) = dot x (contract_ep heb false y) -
  zfac * Sum nbos (fun n => Sum norb (fun p => fst heb n p p + snd heb n p p) * (dot x (cre n y) + dot x (ann n y))).
Proof.
  rewrite !dot_ep. transitivity (Sum nbos (fun n => (dot x (cre n (t_ex heb false y n)) + dot x (ann n (t_dex heb false y n))) - zfac * (Sum norb (fun p => fst heb n p p + snd heb n p p) * (dot x (cre n y) + dot x (ann n y)))));
    [|rewrite Sum_sub, Sum_mul_l; reflexivity]. apply Sum_ext. intros n Hn.
  assert (A : forall u c p q, dot u (ea' true c p q) = dot u (ex_a c p q) - delta p q * (zfac * dot u c)).
  { intros u c p q. unfold ea', adjv, delta. cbn [andb]. rewrite dot_add_r, dot_scal_r. destruct (Nat.eqb p q); [rewrite dot_scal_r|rewrite dot_0_r]; ring. }
  assert (B : forall u c p q, dot u (eb' true c p q) = dot u (ex_b c p q) - delta p q * (zfac * dot u c)).
  { intros u c p q. unfold eb', adjv, delta. cbn [andb]. rewrite dot_add_r, dot_scal_r. destruct (Nat.eqb p q); [rewrite dot_scal_r|rewrite dot_0_r]; ring. }
  assert (D : forall (w t : mat) z, Sum norb (fun a => Sum norb (fun i => w a i * (t a i - delta a i * z))) = Sum norb (fun a => Sum norb (fun i => w a i * t a i)) - Sum norb (fun a => w a a) * z).
  { intros w t z. rewrite <- Sum_mul_r, <- Sum_sub. apply Sum_ext. intros a Ha. transitivity (Sum norb (fun i => w a i * t a i - delta a i * (w a i * z))); [apply Sum_ext; intros; ring|].
    rewrite Sum_sub. f_equal. exact (Sum_delta_l norb a (fun i => w a i * z) Ha). }
  assert (T : forall u c, dot u (t_ex heb true c n) = dot u (t_ex heb false c n) - zfac * (Sum norb (fun p => fst heb n p p + snd heb n p p) * dot u c)).
  { intros u c. unfold t_ex. rewrite !dot_add_r, !dot_lin.
    rewrite (Sum_ext norb _ (fun a => Sum norb (fun i => fst heb n a i * (dot u (ex_a c a i) - delta a i * (zfac * dot u c)))) (fun a Ha => Sum_ext norb _ _ (fun i Hi => f_equal _ (A u c a i)))).
    rewrite (Sum_ext norb _ (fun a => Sum norb (fun i => snd heb n a i * (dot u (ex_b c a i) - delta a i * (zfac * dot u c)))) (fun a Ha => Sum_ext norb _ _ (fun i Hi => f_equal _ (B u c a i)))).
    rewrite (D (fst heb n) (fun a i => dot u (ex_a c a i))), (D (snd heb n) (fun a i => dot u (ex_b c a i))), Sum_add.
    rewrite (Sum_ext norb _ (fun a => Sum norb (fun i => fst heb n a i * dot u (ex_a c a i))) (fun a Ha => Sum_ext norb _ _ (fun i Hi => f_equal _ (dot_ea_false c u a i)))).
    rewrite (Sum_ext norb _ (fun a => Sum norb (fun i => snd heb n a i * dot u (ex_b c a i))) (fun a Ha => Sum_ext norb _ _ (fun i Hi => f_equal _ (dot_eb_false c u a i)))). ring. }
  rewrite !dot_cre, !dot_ann, !dot_tdex by exact Hn. rewrite !(dot_sym (t_ex heb _ (cre n x) n) y), !T, !(dot_sym y). ring.
Qed.
(** C68: finding. For a coupling to the total number of electrons nothing should remain when the zero mode is removed; the mean occupation (of both spins) is taken off each spin, so that the coupling changes its sign instead *)
Theorem C68_zero_mode_refuted (g : nat -> K) x y : nK norb * zfac = NA + NB -> let heb := ((fun n a i => g n * delta a i), (fun n a i => g n * delta a i)) in
  dot x (contract_ep heb true y) = - dot x (contract_ep heb false y) /\ dot x (contract_ep heb false y) = (NA + NB) * Sum nbos (fun n => g n * (dot x (cre n y) + dot x (ann n y))).
Proof.
  intros Hz heb. assert (E : dot x (contract_ep heb false y) = (NA + NB) * Sum nbos (fun n => g n * (dot x (cre n y) + dot x (ann n y)))).
  { rewrite dot_ep, <- Sum_mul_l. apply Sum_ext. intros n Hn.
    assert (T : forall u c, dot u (t_ex heb false c n) = (NA + NB) * (g n * dot u c)).
    { intros u c. unfold t_ex, heb. cbn [fst snd]. rewrite dot_add_r, !dot_lin.
      assert (D : forall (t : mat), Sum norb (fun a => Sum norb (fun i => g n * delta a i * t a i)) = g n * Sum norb (fun a => t a a)).
      { intros t. rewrite <- Sum_mul_l. apply Sum_ext. intros a Ha. transitivity (Sum norb (fun i => delta a i * (g n * t a i))); [apply Sum_ext; intros; ring|]. exact (Sum_delta_l norb a (fun i => g n * t a i) Ha). }
      rewrite (D (fun a i => dot u (ea' false c a i))), (D (fun a i => dot u (eb' false c a i))).
      rewrite (Sum_ext norb _ _ (fun a Ha => dot_ea_false c u a a)), (Sum_ext norb _ _ (fun a Ha => dot_eb_false c u a a)), (trace_r ex_a NA oneb_a), (trace_r ex_b NB oneb_b). ring. }
    rewrite !dot_cre, !dot_ann, !dot_tdex by exact Hn. rewrite !(dot_sym (t_ex heb _ (cre n x) n) y), !T, !(dot_sym y). ring. }
  split; [|exact E]. rewrite C68_zero_mode, E. unfold heb. cbn [fst snd].
  assert (F : zfac * Sum nbos (fun n => Sum norb (fun p => g n * delta p p + g n * delta p p) * (dot x (cre n y) + dot x (ann n y))) = (1 + 1) * ((NA + NB) * Sum nbos (fun n => g n * (dot x (cre n y) + dot x (ann n y))))).
  { rewrite <- Hz, <- !Sum_mul_l. apply Sum_ext. intros n _. rewrite (Sum_ext norb _ (fun _ => (1 + 1) * g n)) by (intros; rewrite delta_eq; ring). rewrite Sum_const. ring. }
  rewrite F. ring.
Qed.
(** ** Moments of the density-density response *)
Section DD.
Variable h : ci -> ci.
Variable e0 : K.
Hypothesis Hh : forall x y, dot x (h y) = dot (h x) y.
Notation inter := (inter h e0).
(** h - e0, m times *)
Definition shifted (t : ci) : ci := vadd (h t) (vscal (- e0) t).
Lemma dot_shifted x y : dot x (shifted y) = dot (shifted x) y.
Proof. unfold shifted. rewrite dot_add_r, dot_add_l, dot_scal_r, dot_scal_l, Hh. reflexivity. Qed.
Lemma inter_S k t : veq (inter (S k) t) (shifted (inter k t)).
Proof. intros sa sb l _ _ _. cbn [M_EbFci.inter]. unfold shifted, vadd, vscal. ring. Qed.
Lemma dot_inter_S x k t : dot x (inter (S k) t) = dot (shifted x) (inter k t).
Proof. rewrite <- dot_shifted. apply dot_ext; [apply veq_refl|apply inter_S]. Qed.
Lemma inter_move l r x y : dot (inter l x) (inter r y) = dot x (inter (l + r) y).
Proof.
  revert r. induction l as [|l IH]; intros r; [reflexivity|]. rewrite (dot_ext _ _ _ _ (inter_S l x) (veq_refl _)), <- dot_shifted.
  transitivity (dot (inter l x) (inter (S r) y)); [apply dot_ext; [apply veq_refl|apply veq_sym, inter_S]|]. rewrite IH. replace (l + S r)%nat with (S l + r)%nat by lia. reflexivity.
Qed.
(** (h - e0)^m *)
Fixpoint hpow (m : nat) (t : ci) : ci := match m with O => t | S m => hpow m (shifted t) end.
Lemma hpow_shift m t : hpow m (shifted t) = shifted (hpow m t).
Proof. revert t. induction m as [|m IH]; intros t; [reflexivity|]. cbn [hpow]. apply IH. Qed.
Lemma dot_inter m x y : dot x (inter m y) = dot (hpow m x) y.
Proof. revert x. induction m as [|m IH]; intros x; [reflexivity|]. rewrite dot_inter_S. apply IH. Qed.
Lemma dot_hpow m x y : dot x (hpow m y) = dot (hpow m x) y.
Proof. revert x y. induction m as [|m IH]; intros x y; [reflexivity|]. cbn [hpow]. rewrite IH, dot_shifted, hpow_shift. reflexivity. Qed.
Lemma lookup_ok max_mom k t : (k <= (max_mom + 1) / 2)%nat -> lookup h e0 ((max_mom + 1) / 2) k t = Some (inter k t).
Proof. intros H. unfold lookup. now rewrite (proj2 (Nat.leb_le _ _) H). Qed.
Lemma dd_eq max_mom imom tl tr dl dr p q r s : (imom <= max_mom)%nat ->
  dd_mom nbos mocc tabA tabB h e0 max_mom imom tl tr dl dr p q r s = Some (dot (tl p q) (inter imom (tr r s)) - (if Nat.eqb imom 0 then dl p q * dr r s else 0)).
Proof.
  intros H. unfold dd_mom. pose proof (Nat.div_mod (max_mom + 1) 2 ltac:(lia)). pose proof (Nat.mod_upper_bound (max_mom + 1) 2 ltac:(lia)). set (M := ((max_mom + 1) / 2)%nat) in *.
  unfold M. rewrite !lookup_ok by (fold M; lia). fold M. rewrite inter_move. replace (imom - Nat.min imom M + Nat.min imom M)%nat with imom by lia. destruct (Nat.eqb imom 0); f_equal; ring.
Qed.
Notation dd_moms := (dd_moms norb nbos mocc tabA tabB h e0).
(** C68: moments[m] is < X | (H - e0)^m | Y > for X, Y excited with one pair of orbitals each, less the product of the expectation values for m = 0; for every m up to any maximum, no intermediate is missing *)
Theorem C68_dd_moments max_mom m c dm p q r s : (m <= max_mom)%nat ->
  let '(aa, ab, bb) := dd_moms max_mom m c dm (None, None) in let z := if Nat.eqb m 0 then 1 else 0 in
  aa p q r s = Some (dot (ex_a c p q) (hpow m (ex_a c r s)) - z * (fst dm p q * fst dm r s)) /\
  ab p q r s = Some (dot (ex_a c p q) (hpow m (ex_b c r s)) - z * (fst dm p q * snd dm r s)) /\
  bb p q r s = Some (dot (ex_b c p q) (hpow m (ex_b c r s)) - z * (snd dm p q * snd dm r s)).
Proof.
  intros Hm. unfold M_EbFci.dd_moms. cbn [fst snd to_basis dm_basis]. rewrite !dd_eq by exact Hm. rewrite !dot_inter, !dot_hpow. destruct (Nat.eqb m 0); (split; [|split]); f_equal; ring.
Qed.
(** C68: and of the density matrices of the vector itself: moments of either spin block are symmetric in the two excitations *)
Theorem C68_dd_symmetric max_mom m c dm co p q r s : let '(aa, _, bb) := dd_moms max_mom m c dm co in (m <= max_mom)%nat -> aa p q r s = aa r s p q /\ bb p q r s = bb r s p q.
Proof.
  unfold M_EbFci.dd_moms. intros Hm. rewrite !dd_eq by exact Hm. rewrite !dot_inter, <- !dot_hpow.
  split; f_equal; (f_equal; [rewrite dot_hpow; apply dot_sym|destruct (Nat.eqb m 0); ring]).
Qed.
Lemma dot_basis_l t (co : mat) p q x : dot (to_basis norb t (Some co) p q) x = S2 (fun i a => co i p * co a q * dot (t i a) x).
Proof.
  transitivity (dot (vSum norb (fun i => vSum norb (fun a => vscal (co i p * co a q) (t i a)))) x).
  - apply dot_ext; [|apply veq_refl]. intros sa sb l _ _ _. unfold to_basis, vSum, vscal. apply Sum_ext. intros i _. apply Sum_ext. intros a _. ring.
  - rewrite dot_Sum_l. apply Sum_ext. intros i _. rewrite dot_Sum_l. apply Sum_ext. intros a _. apply dot_scal_l.
Qed.
Lemma dm_basis_S2 (dm co : mat) p q : dm_basis norb dm (Some co) p q = S2 (fun i a => co i p * co a q * dm i a).
Proof. unfold dm_basis, S2. rewrite (Sum_swap norb). apply Sum_ext. intros a _. rewrite <- Sum_mul_r. apply Sum_ext. intros. ring. Qed.
Lemma S2_mul_S2 (f g : mat) : S2 f * S2 g = S4 (fun i a j b => f i a * g j b).
Proof.
  unfold S4. unfold S2 at 1. rewrite <- Sum_mul_r. apply Sum_ext. intros i _. rewrite <- Sum_mul_r. apply Sum_ext. intros a _. unfold S2. rewrite <- Sum_mul_l. apply Sum_ext. intros j _. rewrite <- Sum_mul_l. reflexivity.
Qed.
Lemma S4_sub f g : S4 (fun p q r s => f p q r s - g p q r s) = S4 f - S4 g.
Proof. transitivity (S4 (fun p q r s => f p q r s + - (1) * g p q r s)); [apply S4_ext; intros; ring|]. rewrite S4_add, S4_mul. ring. Qed.
Lemma dd_basis tl tr dl dr (cl cr : mat) m p q r s :
  dot (to_basis norb tl (Some cl) p q) (inter m (to_basis norb tr (Some cr) r s)) - (if Nat.eqb m 0 then dm_basis norb dl (Some cl) p q * dm_basis norb dr (Some cr) r s else 0) =
  S4 (fun i a j b => cl i p * cl a q * (cr j r * cr b s) * (dot (tl i a) (inter m (tr j b)) - (if Nat.eqb m 0 then dl i a * dr j b else 0))).
Proof.
  transitivity (S4 (fun i a j b => cl i p * cl a q * (cr j r * cr b s) * dot (tl i a) (inter m (tr j b))) - S4 (fun i a j b => cl i p * cl a q * (cr j r * cr b s) * (if Nat.eqb m 0 then dl i a * dr j b else 0)));
    [|rewrite <- S4_sub; apply S4_ext; intros; ring]. f_equal.
  - rewrite dot_basis_l. unfold S4, S2. apply Sum_ext. intros i _. apply Sum_ext. intros a _. rewrite dot_inter, dot_sym, dot_basis_l. unfold S2. rewrite <- Sum_mul_l. apply Sum_ext. intros j _. rewrite <- Sum_mul_l. apply Sum_ext. intros b _.
    rewrite dot_inter, (dot_sym (tr j b)). ring.
  - destruct (Nat.eqb m 0).
    + rewrite !dm_basis_S2, S2_mul_S2. apply S4_ext. intros. ring.
    + unfold S4. symmetry. repeat (apply Sum_0; intros). ring.
Qed.
(** C68: with coefficients the moments are those of the orthogonal basis, transformed in all four indices; also for the zeroth *)
Theorem C68_dd_basis max_mom m c dm ca cb p q r s (va vab vb : ten) : (m <= max_mom)%nat ->
  (forall i a j b, let '(aa, ab, bb) := dd_moms max_mom m c dm (None, None) in aa i a j b = Some (va i a j b) /\ ab i a j b = Some (vab i a j b) /\ bb i a j b = Some (vb i a j b)) ->
  let '(aa, ab, bb) := dd_moms max_mom m c dm (Some ca, Some cb) in
  aa p q r s = Some (S4 (fun i a j b => ca i p * ca a q * (ca j r * ca b s) * va i a j b)) /\ ab p q r s = Some (S4 (fun i a j b => ca i p * ca a q * (cb j r * cb b s) * vab i a j b)) /\
  bb p q r s = Some (S4 (fun i a j b => cb i p * cb a q * (cb j r * cb b s) * vb i a j b)).
Proof.
  intros Hm H. unfold M_EbFci.dd_moms in *. rewrite !dd_eq by exact Hm. cbn [fst snd]. rewrite !dd_basis. cbn [fst snd to_basis dm_basis] in H.
  assert (I : forall x y : K, Some x = Some y -> x = y) by congruence.
  split; [|split]; f_equal; apply S4_ext; intros i a j b _ _ _ _; destruct (H i a j b) as (H1 & H2 & H3); rewrite dd_eq in H1, H2, H3 by exact Hm; apply I in H1, H2, H3; f_equal; assumption.
Qed.
(** C68: for an eigenvector the total number of electrons of either spin does not respond, in any moment *)
Theorem C68_dd_sum_rule max_mom m c : veq (h c) (vscal e0 c) -> dot c c = 1 -> (m <= max_mom)%nat ->
  let '(aa, ab, bb) := dd_moms max_mom m c (rdm1_u c) (None, None) in forall r s, (r < norb)%nat -> (s < norb)%nat ->
  exists f g k : nat -> K, (forall p, (p < norb)%nat -> aa p p r s = Some (f p) /\ ab p p r s = Some (g p) /\ bb p p r s = Some (k p)) /\ Sum norb f = 0 /\ Sum norb g = 0 /\ Sum norb k = 0.
Proof.
  intros Hc Hn Hm. pose proof (C68_dd_moments max_mom m c (rdm1_u c)) as M. destruct (dd_moms max_mom m c (rdm1_u c) (None, None)) as [[aa ab] bb]. intros r s Hr Hs.
  set (z := if Nat.eqb m 0 then (1 : K) else 0) in *.
  exists (fun p => dot (ex_a c p p) (hpow m (ex_a c r s)) - z * (fst (rdm1_u c) p p * fst (rdm1_u c) r s)), (fun p => dot (ex_a c p p) (hpow m (ex_b c r s)) - z * (fst (rdm1_u c) p p * snd (rdm1_u c) r s)),
    (fun p => dot (ex_b c p p) (hpow m (ex_b c r s)) - z * (snd (rdm1_u c) p p * snd (rdm1_u c) r s)). split; [intros p Hp; exact (M p p r s Hm)|].
  assert (Z : forall y, m <> 0%nat -> dot c (hpow m y) = 0).
  { intros y H0. destruct m as [|k]; [congruence|]. cbn [hpow]. rewrite hpow_shift, dot_shifted, dot_sym. rewrite (dot_ext _ (hpow k y) (shifted c) (fun _ _ _ => 0) (veq_refl _)); [apply dot_0_r|].
    intros sa sb l H1 H2 H3. unfold shifted, vadd. rewrite (Hc sa sb l H1 H2 H3). unfold vscal. ring. }
  assert (T : forall X N D Y E, oneb X N -> (forall p, (p < norb)%nat -> D p = dot c (X c p p)) -> E = dot c Y -> Sum norb (fun p => dot (X c p p) (hpow m Y) - z * (D p * E)) = 0).
  { intros X N D Y E H HD ->. rewrite Sum_sub, Sum_mul_l, Sum_mul_r, (trace_l X N H), (Sum_ext norb D _ HD), (trace_r X N H), Hn. unfold z. destruct (Nat.eqb_spec m 0) as [E|E].
    - rewrite E. cbn [hpow]. ring.
    - rewrite Z by exact E. ring. }
  split; [|split].
  - apply (T ex_a NA _ (ex_a c r s)); [apply oneb_a|intros; now apply rdm1_a|now apply rdm1_a].
  - apply (T ex_a NA _ (ex_b c r s)); [apply oneb_a|intros; now apply rdm1_a|now apply rdm1_b].
  - apply (T ex_b NB _ (ex_b c r s)); [apply oneb_b|intros; now apply rdm1_b|now apply rdm1_b].
Qed.
End DD.
End Sys.
End EB.
