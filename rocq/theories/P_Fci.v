(** * The coefficients of an FCI wave function are read off with the right sign and in the right place (C64) *)
From Coq Require Import List Bool Arith Lia Ring Field QArith Qcanon Permutation.
From Verif Require Import Alg M_Wf M_TtoC M_Fci P_TtoC.
Import ListNotations.
Open Scope nat_scope.

Lemma odd_S n : Nat.odd (S n) = negb (Nat.odd n).
Proof. rewrite Nat.odd_succ. rewrite <- Nat.negb_odd. reflexivity. Qed.

(** ** exp(T) is antisymmetric *)
Section Anti.
Context {K : cring}.
Add Ring Kr : (rth K).
Open Scope K_scope.
Lemma Lsum_opp' {A} (l : list A) (f g : A -> K) : (forall x, f x = - g x) -> Lsum l f = - Lsum l g.
Proof. intros H. induction l as [|x l IH]; simpl; [ring|]. rewrite H, IH. ring. Qed.
Lemma Lsum_add' {A} (l : list A) (f g : A -> K) : Lsum l (fun x => f x + g x) = Lsum l f + Lsum l g.
Proof. induction l as [|x l IH]; simpl; [ring|]. rewrite IH. ring. Qed.
Lemma Lsum_ext' {A} (l : list A) (f g : A -> K) : (forall x, f x = g x) -> Lsum l f = Lsum l g.
Proof. intros H. apply Lsum_ext. intros; apply H. Qed.

Context {X : Type}.
(** sum over the splits *)
Definition S2 (l : list X) (g : bool -> list X -> list X -> K) : K := Lsum (splits l) (fun v => g (fst v) (fst (snd v)) (snd (snd v))).
Lemma S2_cons x l g : S2 (x :: l) g = S2 l (fun s c d => g s (x :: c) d) + S2 l (fun s c d => g (xorb s (Nat.odd (length c))) c (x :: d)).
Proof. unfold S2. simpl. rewrite Lsum_app, !Lsum_map. reflexivity. Qed.
Lemma S2_ext l g h : (forall s c d, g s c d = h s c d) -> S2 l g = S2 l h.
Proof. intros H. apply Lsum_ext'. intros; apply H. Qed.
Lemma S2_opp l g h : (forall s c d, g s c d = - h s c d) -> S2 l g = - S2 l h.
Proof. intros H. apply Lsum_opp'. intros; apply H. Qed.
Lemma S2_add l g h : S2 l (fun s c d => g s c d + h s c d) = S2 l g + S2 l h.
Proof. apply Lsum_add'. Qed.
Definition flipping (g : bool -> list X -> list X -> K) : Prop := forall s c d, g (negb s) c d = - g s c d.
Definition anti1 (g : bool -> list X -> list X -> K) : Prop := forall s p x y q d, g s (p ++ x :: y :: q) d = - g s (p ++ y :: x :: q) d.
Definition anti2 (g : bool -> list X -> list X -> K) : Prop := forall s c p x y q, g s c (p ++ x :: y :: q) = - g s c (p ++ y :: x :: q).
Lemma len_swap (p : list X) x y q : length (p ++ x :: y :: q) = length (p ++ y :: x :: q).
Proof. rewrite !app_length. reflexivity. Qed.
Lemma S2_swap p x y q : forall g, flipping g -> anti1 g -> anti2 g -> S2 (p ++ x :: y :: q) g = - S2 (p ++ y :: x :: q) g.
Proof.
  induction p as [|u p IH]; intros g Hf H1 H2.
  - simpl. rewrite !S2_cons.
    assert (A : S2 q (fun s c d => g s (x :: y :: c) d) = - S2 q (fun s c d => g s (y :: x :: c) d)).
    { apply S2_opp. intros. apply (H1 s [] x y c d). }
    assert (B : S2 q (fun s c d => g (xorb s (Nat.odd (length c))) (x :: c) (y :: d)) = - S2 q (fun s c d => g (xorb s (Nat.odd (length (x :: c)))) (x :: c) (y :: d))).
    { apply S2_opp. intros. simpl length. rewrite odd_S, <- Hf. f_equal. destruct s, (Nat.odd (length c)); reflexivity. }
    assert (C : S2 q (fun s c d => g (xorb s (Nat.odd (length (y :: c)))) (y :: c) (x :: d)) = - S2 q (fun s c d => g (xorb s (Nat.odd (length c))) (y :: c) (x :: d))).
    { apply S2_opp. intros. simpl length. rewrite odd_S, <- Hf. f_equal. destruct s, (Nat.odd (length c)); reflexivity. }
    assert (D : S2 q (fun s c d => g (xorb (xorb s (Nat.odd (length c))) (Nat.odd (length c))) c (x :: y :: d)) = - S2 q (fun s c d => g (xorb (xorb s (Nat.odd (length c))) (Nat.odd (length c))) c (y :: x :: d))).
    { apply S2_opp. intros. apply (H2 _ c [] x y d). }
    rewrite A, B, C, D. ring.
  - simpl. rewrite !S2_cons. rewrite (IH (fun s c d => g s (u :: c) d)), (IH (fun s c d => g (xorb s (Nat.odd (length c))) c (u :: d))); [ring|..].
    + intros s c d. rewrite <- Hf. f_equal. destruct s, (Nat.odd (length c)); reflexivity.
    + intros s p' x' y' q' d. rewrite len_swap. apply H1.
    + intros s c p' x' y' q'. apply (H2 _ c (u :: p')).
    + intros s c d. apply Hf.
    + intros s p' x' y' q' d. apply (H1 _ (u :: p')).
    + intros s c p' x' y' q'. apply H2.
Qed.
(** sum over the splits into three *)
Definition S3 (l : list X) (g : bool -> list X -> list X -> list X -> K) : K :=
  S2 l (fun s c d => S2 d (fun t e f => g (xorb s t) c e f)).
Lemma S3_cons x l g : S3 (x :: l) g = S3 l (fun s c e f => g s (x :: c) e f) + S3 l (fun s c e f => g (xorb s (Nat.odd (length c))) c (x :: e) f)
  + S3 l (fun s c e f => g (xorb s (xorb (Nat.odd (length c)) (Nat.odd (length e)))) c e (x :: f)).
Proof.
  unfold S3. rewrite S2_cons.
  assert (E : S2 l (fun s c d => S2 (x :: d) (fun t e f => g (xorb (xorb s (Nat.odd (length c))) t) c e f))
    = S2 l (fun s c d => S2 d (fun t e f => g (xorb (xorb s t) (Nat.odd (length c))) c (x :: e) f))
      + S2 l (fun s c d => S2 d (fun t e f => g (xorb (xorb s t) (xorb (Nat.odd (length c)) (Nat.odd (length e)))) c e (x :: f)))).
  { rewrite <- S2_add. apply S2_ext. intros s c d. rewrite S2_cons. f_equal; apply S2_ext; intros t e f; f_equal;
      destruct s, t, (Nat.odd (length c)); try reflexivity; destruct (Nat.odd (length e)); reflexivity. }
  rewrite E. ring.
Qed.
Lemma S3_ext l g h : (forall s c e f, g s c e f = h s c e f) -> S3 l g = S3 l h.
Proof. intros H. apply S2_ext. intros. apply S2_ext. intros. apply H. Qed.
Lemma S3_opp l g h : (forall s c e f, g s c e f = - h s c e f) -> S3 l g = - S3 l h.
Proof. intros H. apply S2_opp. intros. apply S2_opp. intros. apply H. Qed.
Lemma S3_add l g h : S3 l (fun s c e f => g s c e f + h s c e f) = S3 l g + S3 l h.
Proof. unfold S3. rewrite <- S2_add. apply S2_ext. intros. apply (S2_add d (fun t e f => g (xorb s t) c e f)). Qed.
Lemma S3_exchange l : forall g, S3 l g = S3 l (fun s c e f => g (xorb s (Nat.odd (length c * length e))) e c f).
Proof.
  induction l as [|x l IH]; intros g.
  - unfold S3, S2. simpl. reflexivity.
  - rewrite !S3_cons. rewrite (IH (fun s c e f => g s (x :: c) e f)), (IH (fun s c e f => g (xorb s (Nat.odd (length c))) c (x :: e) f)), (IH (fun s c e f => g (xorb s (xorb (Nat.odd (length c)) (Nat.odd (length e)))) c e (x :: f))).
    assert (E1 : S3 l (fun s c e f => g (xorb s (Nat.odd (length c * length e))) (x :: e) c f)
              = S3 l (fun s c e f => g (xorb (xorb s (Nat.odd (length c))) (Nat.odd (length c * length (x :: e)))) (x :: e) c f)).
    { apply S3_ext. intros. f_equal. simpl length. rewrite Nat.mul_succ_r, Nat.odd_add. destruct s, (Nat.odd (length c)), (Nat.odd (length c * length e)); reflexivity. }
    assert (E2 : S3 l (fun s c e f => g (xorb (xorb s (Nat.odd (length c * length e))) (Nat.odd (length e))) e (x :: c) f)
              = S3 l (fun s c e f => g (xorb s (Nat.odd (length (x :: c) * length e))) e (x :: c) f)).
    { apply S3_ext. intros. f_equal. simpl length. simpl Nat.mul. rewrite Nat.odd_add. destruct s, (Nat.odd (length e)), (Nat.odd (length c * length e)); reflexivity. }
    assert (E3 : S3 l (fun s c e f => g (xorb (xorb s (Nat.odd (length c * length e))) (xorb (Nat.odd (length e)) (Nat.odd (length c)))) e c (x :: f))
              = S3 l (fun s c e f => g (xorb (xorb s (xorb (Nat.odd (length c)) (Nat.odd (length e)))) (Nat.odd (length c * length e))) e c (x :: f))).
    { apply S3_ext. intros. f_equal. destruct s, (Nat.odd (length c)), (Nat.odd (length e)), (Nat.odd (length c * length e)); reflexivity. }
    rewrite E1, E2, E3. ring.
Qed.

Variable T : list X -> list X -> K.
Hypothesis HTo : forall p x y q A, T (p ++ x :: y :: q) A = - T (p ++ y :: x :: q) A.
Hypothesis HTv : forall p x y q J, T J (p ++ x :: y :: q) = - T J (p ++ y :: x :: q).
Definition term (n : nat) (i : X) (s t : bool) (S R B Q : list X) : K :=
  if (length B =? Datatypes.S (length S))%nat then sgn (xorb s t) * T (i :: S) B * CIn T n R Q else 0.
Lemma CIn_S n i r A : CIn T (S n) (i :: r) A = S2 r (fun s S R => S2 A (fun t B Q => term n i s t S R B Q)).
Proof. reflexivity. Qed.
Lemma CIn_anti_v n : forall J p x y q, CIn T n J (p ++ x :: y :: q) = - CIn T n J (p ++ y :: x :: q).
Proof.
  assert (Z : forall (p : list X) x y q, match p ++ x :: y :: q with [] => 1 | _ :: _ => 0 end = - match p ++ y :: x :: q with [] => 1 | _ :: _ => 0 end :> K).
  { intros [|u p] x y q; simpl; ring. }
  induction n as [|n IH]; intros [|i r] p x y q; try (simpl; apply Z); [simpl; ring|].
  rewrite !CIn_S. apply S2_opp. intros s S R. apply S2_swap; unfold term.
  - intros t B Q. destruct (_ =? _)%nat; [|ring]. rewrite !sgn_xor, sgn_neg. ring.
  - intros t p' x' y' q' Q. rewrite (len_swap p'). destruct (_ =? _)%nat; [|ring]. rewrite HTv. ring.
  - intros t B p' x' y' q'. destruct (_ =? _)%nat; [|ring]. rewrite IH. ring.
Qed.
Lemma odd_cross a b : xorb (Nat.odd (a * b)) (Nat.odd (S a * S b)) = negb (xorb (Nat.odd a) (Nat.odd b)).
Proof. simpl Nat.mul. rewrite odd_S, Nat.mul_succ_r, !Nat.odd_add. destruct (Nat.odd a), (Nat.odd b), (Nat.odd (a * b)); reflexivity. Qed.
(** two amplitudes holding the first two holes *)
Definition duo (n : nat) (x y : X) (s t : bool) (S S' R B B' Q : list X) : K :=
  if (length B =? Datatypes.S (length S))%nat && (length B' =? Datatypes.S (length S'))%nat
  then sgn (xorb (xorb s t) (Nat.odd (length S))) * T (x :: S) B * T (y :: S') B' * CIn T n R Q else 0.
Lemma CIn_two n x y q A : CIn T (S (S n)) (x :: y :: q) A
  = S2 q (fun s S R => S2 A (fun t B Q => term (Datatypes.S n) x s t (y :: S) R B Q))
    + S3 q (fun s S S' R => S3 A (fun t B B' Q => duo n x y s t S S' R B B' Q)).
Proof.
  rewrite CIn_S, S2_cons. f_equal. unfold S3 at 1. apply S2_ext. intros s S R.
  transitivity (S2 A (fun t B Q => S2 R (fun s' S' R' => S2 Q (fun t' B' Q' => duo n x y (xorb s s') (xorb t t') S S' R' B B' Q')))).
  - apply S2_ext. intros t B Q. unfold term. destruct (length B =? _)%nat eqn:E.
    + rewrite CIn_S. unfold S2. rewrite <- Lsum_mul_l. apply Lsum_ext'. intros [s' [S' R']]. simpl. rewrite <- Lsum_mul_l.
      apply Lsum_ext'. intros [t' [B' Q']]. simpl. unfold term, duo. rewrite E. simpl. destruct (length B' =? _)%nat; [|ring].
      rewrite !sgn_xor. ring.
    + symmetry. apply Lsum_0. intros [s' [S' R']] _. apply Lsum_0. intros [t' [B' Q']] _. simpl. unfold duo. rewrite E. reflexivity.
  - unfold S2 at 1 2. rewrite Lsum_swap. reflexivity.
Qed.
Lemma CIn_anti_o n : forall p x y q A, CIn T n (p ++ x :: y :: q) A = - CIn T n (p ++ y :: x :: q) A.
Proof.
  induction n as [|n IH]; intros p x y q A.
  - destruct p; simpl; ring.
  - destruct p as [|u p]; simpl app.
    + destruct n as [|n].
      * rewrite !CIn_S, !S2_cons.
        assert (Z : forall w z : X, S2 q (fun s c d => S2 A (fun t B Q => term 0 w (xorb s (Nat.odd (length c))) t c (z :: d) B Q)) = 0).
        { intros w z. apply Lsum_0. intros [s [c d]] _. apply Lsum_0. intros [t [B Q]] _. unfold term. simpl. destruct (_ =? _)%nat; [ring|reflexivity]. }
        rewrite !Z. assert (E : S2 q (fun s c d => S2 A (fun t B Q => term 0 x s t (y :: c) d B Q)) = - S2 q (fun s c d => S2 A (fun t B Q => term 0 y s t (x :: c) d B Q))).
        { apply S2_opp. intros s c d. apply S2_opp. intros t B Q. unfold term. simpl length. destruct (_ =? _)%nat; [|ring]. pose proof (HTo [] x y c B) as W. simpl in W. rewrite W. ring. }
        rewrite E. ring.
      * rewrite !CIn_two.
        assert (E : S2 q (fun s c d => S2 A (fun t B Q => term (S n) x s t (y :: c) d B Q)) = - S2 q (fun s c d => S2 A (fun t B Q => term (S n) y s t (x :: c) d B Q))).
        { apply S2_opp. intros s c d. apply S2_opp. intros t B Q. unfold term. simpl length. destruct (_ =? _)%nat; [|ring]. pose proof (HTo [] x y c B) as W. simpl in W. rewrite W. ring. }
        assert (G : S3 q (fun s S S' R => S3 A (fun t B B' Q => duo n x y s t S S' R B B' Q)) = - S3 q (fun s S S' R => S3 A (fun t B B' Q => duo n y x s t S S' R B B' Q))).
        { rewrite S3_exchange. apply S3_opp. intros s S S' R. rewrite S3_exchange. apply S3_opp. intros t B B' Q. unfold duo.
          destruct (length B' =? Datatypes.S (length S'))%nat eqn:E1; [|rewrite andb_false_r; simpl; ring].
          destruct (length B =? Datatypes.S (length S))%nat eqn:E2; [|simpl; ring]. simpl.
          apply Nat.eqb_eq in E1. apply Nat.eqb_eq in E2. rewrite E1, E2.
          assert (O := odd_cross (length S) (length S')).
          replace (xorb (xorb (xorb s (Nat.odd (length S * length S'))) (xorb t (Nat.odd (Datatypes.S (length S) * Datatypes.S (length S'))))) (Nat.odd (length S')))
            with (negb (xorb (xorb s t) (Nat.odd (length S)))).
          { rewrite sgn_neg. ring. }
          destruct s, t, (Nat.odd (length S * length S')), (Nat.odd (Datatypes.S (length S) * Datatypes.S (length S'))), (Nat.odd (length S)), (Nat.odd (length S')); simpl in O; try discriminate; reflexivity. }
        rewrite E, G. ring.
    + rewrite !CIn_S. apply S2_swap.
      * intros s c d. apply S2_opp. intros t B Q. unfold term. destruct (_ =? _)%nat; [|ring]. rewrite !sgn_xor, sgn_neg. ring.
      * intros s p' x' y' q' d. apply S2_opp. intros t B Q. unfold term. rewrite (len_swap p'). destruct (_ =? _)%nat; [|ring]. pose proof (HTo (u :: p') x' y' q' B) as W. simpl in W. rewrite W. ring.
      * intros s c p' x' y' q'. apply S2_opp. intros t B Q. unfold term. destruct (_ =? _)%nat; [|ring]. rewrite IH. ring.
Qed.
End Anti.

(** C64: exp(T) is antisymmetric when T is *)
Theorem C64_exp_antisymmetric {K : cring} (T : list so -> list so -> K) : antisymmetric T -> antisymmetric (CI T).
Proof.
  intros [H1 H2]. split; intros; unfold CI.
  - rewrite (len_swap p). apply CIn_anti_o. exact H1.
  - apply CIn_anti_v. exact H2.
Qed.

(** ** Closed-shell amplitudes are antisymmetric *)
Fixpoint sw {Y} (k : nat) (l : list Y) : list Y :=
  match k, l with O, a :: b :: r => b :: a :: r | S k, a :: r => a :: sw k r | _, _ => l end.
Fixpoint insat {Y} (p : nat) (x : Y) (m : list Y) : list Y := match p, m with O, _ => x :: m | S p, a :: r => a :: insat p x r | S _, [] => [x] end.
Lemma sw_length {Y} k : forall l : list Y, length (sw k l) = length l.
Proof. induction k as [|k IH]; intros [|a l]; simpl; auto. destruct l; reflexivity. Qed.
Lemma sw_app {Y} (p : list Y) x y q : sw (length p) (p ++ x :: y :: q) = p ++ y :: x :: q.
Proof. induction p; simpl; congruence. Qed.
Lemma sw_perm {Y} k : forall l : list Y, Permutation (sw k l) l.
Proof. induction k as [|k IH]; intros [|a l]; simpl; auto. destruct l; constructor; auto. Qed.
Lemma sw_map {Y Z} (f : Y -> Z) k : forall l, sw k (map f l) = map f (sw k l).
Proof. induction k as [|k IH]; intros [|a l]; simpl; auto; [destruct l; reflexivity|]. f_equal. apply IH. Qed.
Lemma sw_combine {Y Z} k : forall (a : list Y) (b : list Z), length a = length b -> combine (sw k a) (sw k b) = sw k (combine a b).
Proof.
  induction k as [|k IH]; intros [|x a] [|y b] H; simpl in *; try discriminate; auto.
  - destruct a, b; simpl in *; try discriminate; auto.
  - f_equal. apply IH. lia.
Qed.
Lemma sw_sw {Y} k : forall l : list Y, sw k (sw k l) = l.
Proof. induction k as [|k IH]; intros [|a l]; simpl; auto; [destruct l; reflexivity|]. f_equal. apply IH. Qed.
Lemma eqspin_sw k : forall a b, eqspin (sw k a) (sw k b) = eqspin a b.
Proof.
  induction k as [|k IH]; intros [|x a] [|y b]; simpl; auto.
  - destruct b; reflexivity.
  - destruct a; reflexivity.
  - destruct a as [|x' a], b as [|y' b]; simpl; auto; repeat (rewrite ?andb_false_r; try reflexivity). rewrite !andb_assoc. f_equal. apply andb_comm.
  - f_equal. apply IH.
Qed.
Lemma eqspin_length a : forall b, eqspin a b = true -> length a = length b.
Proof. induction a as [|x a IH]; intros [|y b]; simpl; try discriminate; auto. intros H. apply andb_true_iff in H. destruct H. f_equal. auto. Qed.
Lemma insat_lo {Y} (x : Y) p : forall k m, p < k -> p <= length m -> sw k (insat p x m) = insat p x (sw (k - 1) m).
Proof.
  induction p as [|p IH]; intros [|k] m H L; try lia.
  - simpl. rewrite Nat.sub_0_r. reflexivity.
  - destruct m as [|a m]; simpl in L; [lia|]. destruct k as [|k]; [lia|]. transitivity (a :: sw (S k) (insat p x m)); [reflexivity|].
    rewrite IH by lia. simpl. rewrite Nat.sub_0_r. reflexivity.
Qed.
Lemma insat_hi {Y} (x : Y) p : forall k m, S k < p -> p <= length m -> sw k (insat p x m) = insat p x (sw k m).
Proof.
  induction p as [|p IH]; intros [|k] m H L; try lia; destruct m as [|a m]; simpl in *; try lia.
  - destruct p as [|p]; [lia|]. destruct m as [|b m]; simpl in *; [lia|]. reflexivity.
  - f_equal. apply IH; lia.
Qed.
Lemma insat_at {Y} (x : Y) k : forall m, k < length m -> sw k (insat k x m) = insat (S k) x m.
Proof. induction k as [|k IH]; intros [|a m] H; simpl in *; try lia; [reflexivity|]. f_equal. apply IH. lia. Qed.

Section Adapt.
Context {K : cring}.
Add Ring Kr2 : (rth K).
Open Scope K_scope.
Section Perms.
Context {X : Type}.
Definition P2 (l : list X) (g : bool -> list X -> K) : K := Lsum (perms l) (fun v => g (fst v) (snd v)).
Definition N2 (x : X) (s : bool) (l : list X) (g : bool -> list X -> K) : K := Lsum (inserts x s l) (fun v => g (fst v) (snd v)).
Lemma P2_cons x l g : P2 (x :: l) g = P2 l (fun s m => N2 x s m g).
Proof. unfold P2, N2. simpl. rewrite Lsum_flat_map. reflexivity. Qed.
Lemma N2_cons x s y r g : N2 x s (y :: r) g = g s (x :: y :: r) + N2 x (negb s) r (fun t m => g t (y :: m)).
Proof. unfold N2. simpl. rewrite Lsum_map. reflexivity. Qed.
Lemma P2_ext l g h : (forall s m, g s m = h s m) -> P2 l g = P2 l h.
Proof. intros H. apply Lsum_ext'. intros; apply H. Qed.
Lemma N2_ext x s l g h : (forall t m, g t m = h t m) -> N2 x s l g = N2 x s l h.
Proof. intros H. apply Lsum_ext'. intros; apply H. Qed.
Lemma N2_add x s l g h : N2 x s l (fun t m => g t m + h t m) = N2 x s l g + N2 x s l h.
Proof. apply Lsum_add'. Qed.
Lemma N2_neg x : forall l s g, N2 x (negb s) l g = N2 x s l (fun t m => g (negb t) m).
Proof.
  induction l as [|y l IH]; intros s g; [reflexivity|]. rewrite !N2_cons. f_equal. rewrite IH. reflexivity.
Qed.
Lemma N2_two x y : forall l s g, N2 y s l (fun t m => N2 x t m g) = N2 x (negb s) l (fun t m => N2 y t m g).
Proof.
  induction l as [|z l IH]; intros s g.
  - unfold N2. simpl. rewrite negb_involutive. ring.
  - rewrite !N2_cons.
    assert (E : forall u v s', N2 u s' l (fun t m => N2 v t (z :: m) g) = N2 u s' l (fun t m => g t (v :: z :: m)) + N2 u s' l (fun t m => N2 v t m (fun t m => g (negb t) (z :: m)))).
    { intros. rewrite <- N2_add. apply N2_ext. intros t m. rewrite N2_cons, N2_neg. reflexivity. }
    rewrite !E. rewrite (IH (negb s)). rewrite !negb_involutive. ring.
Qed.
Lemma P2_swap p x y q : forall g, P2 (p ++ x :: y :: q) g = P2 (p ++ y :: x :: q) (fun s m => g (negb s) m).
Proof.
  induction p as [|u p IH]; intros g; simpl.
  - rewrite !P2_cons. apply P2_ext. intros s m. rewrite N2_two, N2_neg. apply N2_ext. intros t k. apply N2_neg.
  - rewrite !P2_cons. rewrite IH. apply P2_ext. intros s m. rewrite N2_neg. reflexivity.
Qed.
Lemma N2_Sum x : forall m s g, N2 x s m g = Sum (S (length m)) (fun p => g (xorb s (Nat.odd p)) (insat p x m)).
Proof.
  induction m as [|y m IH]; intros s g.
  - unfold N2. destruct s; cbn; ring.
  - rewrite N2_cons, IH. simpl length. rewrite (Sum_shift (S (length m))). f_equal.
    + cbn. destruct s; reflexivity.
    + apply Sum_ext. intros p _. simpl insat. f_equal. rewrite odd_S. destruct s, (Nat.odd p); reflexivity.
Qed.
Lemma inserts_len (x : X) : forall m s v, In v (inserts x s m) -> length (snd v) = S (length m).
Proof.
  induction m as [|y m IH]; intros s v H; simpl in H; destruct H as [<-|H]; simpl; auto; [contradiction|].
  apply in_map_iff in H. destruct H as (w & <- & H). simpl. f_equal. exact (IH _ _ H).
Qed.
Lemma perms_len : forall (l : list X) v, In v (perms l) -> length (snd v) = length l.
Proof.
  induction l as [|x l IH]; intros v H; simpl in H; [destruct H as [<-|[]]; reflexivity|].
  apply in_flat_map in H. destruct H as (w & Hw & H). rewrite (inserts_len _ _ _ _ H), (IH _ Hw). reflexivity.
Qed.
Lemma P2_Sum x l g : P2 (x :: l) g = Sum (S (length l)) (fun p => P2 l (fun s m => g (xorb s (Nat.odd p)) (insat p x m))).
Proof.
  rewrite P2_cons. unfold P2 at 1. transitivity (Lsum (perms l) (fun v => Sum (S (length l)) (fun p => g (xorb (fst v) (Nat.odd p)) (insat p x (snd v))))).
  - apply Lsum_ext. intros v Hv. rewrite N2_Sum, (perms_len _ _ Hv). reflexivity.
  - rewrite Lsum_Sum. reflexivity.
Qed.
Lemma Sum_two k : forall n (f g : nat -> K), (S k < n)%nat -> (forall p, (p < n)%nat -> p <> k -> p <> S k -> f p = g p) -> f k = g (S k) -> f (S k) = g k -> Sum n f = Sum n g.
Proof.
  induction n as [|n IH]; intros f g H E1 E2 E3; [lia|]. simpl. destruct (Nat.eq_dec n (S k)) as [->|Hn].
  - simpl. rewrite (Sum_ext k f g) by (intros; apply E1; lia). rewrite E2, E3. ring.
  - rewrite (IH f g); [|lia|intros; apply E1; lia|auto|auto]. rewrite (E1 n) by lia. reflexivity.
Qed.
Lemma P2_ext_in l g h : (forall s m, length m = length l -> g s m = h s m) -> P2 l g = P2 l h.
Proof. intros H. apply Lsum_ext. intros v Hv. apply H. apply perms_len. exact Hv. Qed.
Lemma P2_positions l : forall k g, (S k < length l)%nat -> P2 l g = P2 l (fun s m => g (negb s) (sw k m)).
Proof.
  induction l as [|x l IH]; intros k g H; simpl in H; [lia|]. rewrite !P2_Sum. apply (Sum_two k); [lia|..].
  - intros p Hp H1 H2. destruct (Nat.lt_ge_cases p k) as [L|L].
    + rewrite (IH (k - 1)%nat) by lia. apply P2_ext_in. intros s m Hm. rewrite insat_lo by lia. f_equal. destruct s, (Nat.odd p); reflexivity.
    + rewrite (IH k) by lia. apply P2_ext_in. intros s m Hm. rewrite insat_hi by lia. f_equal. destruct s, (Nat.odd p); reflexivity.
  - apply P2_ext_in. intros s m Hm. rewrite <- (insat_at x k m) by lia. rewrite sw_sw. f_equal. rewrite odd_S. destruct s, (Nat.odd k); reflexivity.
  - apply P2_ext_in. intros s m Hm. rewrite insat_at by lia. f_equal. rewrite odd_S. destruct s, (Nat.odd k); reflexivity.
Qed.
End Perms.

(** C64: the spin-orbital amplitudes of a closed shell are antisymmetric *)
Theorem C64_closed_shell_antisymmetric (s : list (nat * nat) -> K) : pair_symmetric s -> antisymmetric (adapt s).
Proof.
  intros Hs. split.
  - intros p x y q A. set (J := p ++ x :: y :: q). replace (p ++ y :: x :: q) with (sw (length p) J) by apply sw_app.
    pose (h := fun L sg (m : list so) => if eqspin (map fst L) (map fst m) then sgn sg * s (combine (map snd L) (map snd m)) else 0).
    change (P2 A (h J) = - P2 A (h (sw (length p) J))).
    destruct (Nat.eq_dec (length A) (length J)) as [L|L].
    + rewrite (P2_positions A (length p)); [|rewrite L; unfold J; rewrite app_length; simpl; lia].
      unfold P2. rewrite (Lsum_ext _ _ (fun v => - h (sw (length p) J) (fst v) (snd v))); [apply Lsum_opp'; reflexivity|].
      intros [sg m] Hv. apply perms_len in Hv. cbn [fst snd] in *. unfold h.
      rewrite <- (eqspin_sw (length p) (map fst J)), !sw_map, sw_sw. destruct (eqspin _ _); [|ring].
      rewrite <- !sw_map. rewrite <- (sw_sw (length p) (map snd m)) at 2. rewrite sw_combine by (rewrite sw_length, !map_length; lia).
      rewrite (Hs _ _ (sw_perm _ _)). destruct sg; simpl; ring.
    + assert (Z : forall J', length J' = length J -> P2 A (h J') = 0).
      { intros J' LJ. apply Lsum_0. intros [sg m] Hv. apply perms_len in Hv. cbn [fst snd] in *. unfold h. destruct (eqspin _ _) eqn:E; [|reflexivity].
        apply eqspin_length in E. rewrite !map_length in E. lia. }
      rewrite (Z J), (Z (sw _ J)) by (rewrite ?sw_length; reflexivity). ring.
  - intros p x y q J. pose (h := fun sg (m : list so) => if eqspin (map fst J) (map fst m) then sgn sg * s (combine (map snd J) (map snd m)) else 0).
    change (P2 (p ++ x :: y :: q) h = - P2 (p ++ y :: x :: q) h). rewrite P2_swap. apply Lsum_opp'. intros [sg m]. unfold h. cbn [fst snd].
    destruct (eqspin _ _); [|ring]. destruct sg; simpl; ring.
Qed.
Lemma eqspin_ok a : forall b, eqspin a b = true -> a = b.
Proof. induction a as [|x a IH]; intros [|y b]; simpl; try discriminate; auto. intros H. apply andb_true_iff in H. destruct H as [H1 H2]. apply Bool.eqb_prop in H1. f_equal; auto. Qed.
Lemma ups_fst (l l' : list so) : map fst l = map fst l' -> length (filter fst l) = length (filter fst l').
Proof. revert l'. induction l as [|[x i] l IH]; intros [|[y j] l'] H; simpl in H; try discriminate; auto. injection H as -> H. simpl. destruct y; simpl; auto. Qed.
Lemma inserts_perm {X} (x : X) : forall m s v, In v (inserts x s m) -> Permutation (snd v) (x :: m).
Proof.
  induction m as [|y m IH]; intros s v H; simpl in H; destruct H as [<-|H]; simpl; auto; [contradiction|].
  apply in_map_iff in H. destruct H as (w & <- & H). simpl. rewrite (IH _ _ H). constructor.
Qed.
Lemma perms_perm {X} : forall (l : list X) v, In v (perms l) -> Permutation (snd v) l.
Proof.
  induction l as [|x l IH]; intros v H; simpl in H; [destruct H as [<-|[]]; constructor|].
  apply in_flat_map in H. destruct H as (w & Hw & H). rewrite (inserts_perm _ _ _ _ H), (IH _ Hw). constructor; reflexivity.
Qed.
Lemma ups_perm (l l' : list so) : Permutation l l' -> length (filter fst l) = length (filter fst l').
Proof. induction 1 as [|[[] i] l l' _ IH|[[] i] [[] j] l|]; simpl; congruence. Qed.
Theorem C64_closed_shell_spin (s : list (nat * nat) -> K) : spin_conserving (adapt s).
Proof.
  intros J A H. unfold adapt. apply Lsum_0. intros [sg m] Hv. apply perms_perm in Hv. cbn [fst snd] in *. destruct (eqspin _ _) eqn:E; [|reflexivity].
  exfalso. apply H. apply eqspin_ok in E. rewrite (ups_fst _ _ E). apply ups_perm. exact Hv.
Qed.
End Adapt.

(** ** Sorting a group of axes *)
Inductive decr : list nat -> Prop :=
| decr0 : decr [] | decr1 x : decr [x] | decr2 x y l : y < x -> decr (y :: l) -> decr (x :: y :: l).
Fixpoint cut (gl : list nat) (ix : list nat) : list (list nat) := match gl with [] => [] | g :: gl => firstn g ix :: cut gl (skipn g ix) end.
Definition leafA (J A : list nat) : poly := psgn (xorb (fst (sortS J)) (fst (sortS A))) [(1, 0, [(snd (sortS J), snd (sortS A))])].

Section Sorting.
Context {F : cfield}.
Hypothesis two_nz : (1 + 1 <> 0 :> F)%K.
Add Field Fr3 : (fth F).
Open Scope K_scope.
Lemma self_opp (x : F) : x = - x -> x = 0.
Proof. intros H. transitivity ((x + x) / (1 + 1)); [field; exact two_nz|]. rewrite H at 1. field. exact two_nz. Qed.
Definition anti_list (f : list nat -> F) : Prop := forall p x y q, f (p ++ x :: y :: q) = - f (p ++ y :: x :: q).
Lemma anti_twice f : anti_list f -> forall x l p, In x l -> f (p ++ x :: l) = 0.
Proof.
  intros H x. induction l as [|y l IH]; intros p Hx; [contradiction|]. destruct Hx as [->|Hx].
  - apply self_opp. apply H.
  - rewrite H. pose proof (IH (p ++ [y]) Hx) as E. rewrite <- app_assoc in E. simpl in E. rewrite E. ring.
Qed.
Lemma insD_ok f : anti_list f -> forall l x p, decr l ->
  match insD x l with
  | Some (s, m) => f (p ++ x :: l) = sgn s * f (p ++ m) /\ decr m /\ length m = S (length l) /\ (match m with [] => True | h :: _ => h = x \/ exists r, l = h :: r end)
  | None => f (p ++ x :: l) = 0
  end.
Proof.
  intros H. induction l as [|y l IH]; intros x p D; simpl.
  - split; [unfold sgn; ring|]. split; [constructor|]. split; [reflexivity|]. left; reflexivity.
  - destruct (Nat.eqb x y) eqn:E1; [apply Nat.eqb_eq in E1; subst; apply anti_twice; [exact H|left; reflexivity]|].
    apply Nat.eqb_neq in E1. destruct (Nat.ltb x y) eqn:E2.
    + apply Nat.ltb_lt in E2. assert (D' : decr l) by (inversion D; subst; auto; constructor). specialize (IH x (p ++ [y]) D'). rewrite <- !app_assoc in IH. simpl in IH.
      destruct (insD x l) as [[s m]|].
      * rewrite <- app_assoc in IH. simpl in IH. destruct IH as (I1 & I2 & I3 & I4). rewrite H, I1, sgn_neg. split; [ring|]. split; [|simpl; split; [rewrite I3; reflexivity|right; exists l; reflexivity]].
        destruct m as [|h m]; [constructor|]. constructor; [|exact I2]. destruct I4 as [->|(r & ->)]; [exact E2|]. inversion D; subst. assumption.
      * rewrite H, IH. ring.
    + apply Nat.ltb_ge in E2. split; [unfold sgn; ring|]. split; [constructor; [lia|exact D]|]. split; [reflexivity|]. left; reflexivity.
Qed.
Lemma sortD_ok f : anti_list f -> forall l p,
  match sortD l with Some (s, m) => f (p ++ l) = sgn s * f (p ++ m) /\ decr m /\ length m = length l | None => f (p ++ l) = 0 end.
Proof.
  intros H. induction l as [|x l IH]; intros p; simpl.
  - split; [unfold sgn; ring|]. repeat constructor.
  - specialize (IH (p ++ [x])). rewrite <- app_assoc in IH. simpl in IH. destruct (sortD l) as [[s m]|]; [|exact IH].
    rewrite <- app_assoc in IH. simpl in IH. destruct IH as (I1 & I2 & I3). pose proof (insD_ok f H m x p I2) as W. destruct (insD x m) as [[t k]|].
    + destruct W as (W1 & W2 & W3 & _). rewrite I1, W1, sgn_xor. split; [ring|]. split; [exact W2|]. rewrite W3, I3. reflexivity.
    + rewrite I1, W. ring.
Qed.
(** the decompressed array is the antisymmetric array whose sorted entries are stored *)
Definition anti_all (f : list (list nat) -> F) : Prop := forall t p x y q t', f (t ++ (p ++ x :: y :: q) :: t') = - f (t ++ (p ++ y :: x :: q) :: t').
Lemma decompress_ok gl : forall (f packed : list (list nat) -> F) ix, anti_all f -> length ix = list_sum gl ->
  (forall ts, Forall2 (fun g t => length t = g /\ decr t) gl ts -> packed ts = f ts) -> decompress gl packed ix = f (cut gl ix).
Proof.
  induction gl as [|g gl IH]; intros f packed ix Ha L H; simpl; [apply H; constructor|]. simpl in L.
  assert (Lf : length (firstn g ix) = g) by (rewrite firstn_length; lia).
  assert (Hs : anti_list (fun l => f (l :: cut gl (skipn g ix)))) by (intros p x y q; apply (Ha [])).
  pose proof (sortD_ok _ Hs (firstn g ix) []) as W. simpl in W. destruct (sortD (firstn g ix)) as [[s k]|]; [|symmetry; exact W].
  destruct W as (W1 & W2 & W3). rewrite W1. unfold sgn. f_equal. apply (IH (fun ts => f (k :: ts))).
  - intros t p x y q t'. apply (Ha (k :: t)).
  - rewrite skipn_length. lia.
  - intros ts Hts. apply H. constructor; [|exact Hts]. split; [congruence|exact W2].
Qed.

Variable C : list so -> list so -> F.
Hypothesis HC : antisymmetric C.
Variables eo ev : nat -> so.
Lemma leafA_ok J A : dp (fun a => C (map eo (fst a)) (map ev (snd a))) (leafA J A) = C (map eo J) (map ev A).
Proof.
  unfold leafA. rewrite dp_sgn, sgn_xor. unfold dp, dm; simpl.
  pose proof (sortS_ok so (fun J => C J (map ev A)) eo (fun p x y q => Logic.proj1 HC p x y q _) J []) as E1. simpl in E1.
  pose proof (sortS_ok so (fun A => C (map eo (snd (sortS J))) A) ev (fun p x y q => Logic.proj2 HC p x y q _) A []) as E2. simpl in E2.
  rewrite E1, E2. ring.
Qed.
End Sorting.

(** reorders the entries of an antisymmetric array *)
Ltac clusterA C HC lo lv :=
  lazymatch goal with |- @eq (car ?K) ?a ?b =>
    let ea := t_reify C lo lv a in let eb := t_reify C lo lv b in
    let eo := constr:(fun p => nth p lo (true, O)) in let ev := constr:(fun p => nth p lv (true, O)) in
    change (@den K so C eo ev ea = @den K so C eo ev eb);
    apply (check_sound _ so C _ eo ev (leafA_ok C HC eo ev)); vm_compute; reflexivity
  end.

(** ** The coefficients *)
Section Coefficients.
Context {F : cfield}.
Hypothesis two_nz : (1 + 1 <> 0 :> F)%K.
Add Field Fr4 : (fth F).
Open Scope K_scope.
Notation al := true. Notation be := false.
Notation alp := (map (pair true)). Notation bet := (map (pair false)).
Definition represents (c : F) (C : list so -> list so -> F) (ci : exc -> exc -> F) (sga sgb : exc -> F) : Prop :=
  C [] [] = 1 /\ sga ([], []) = 1 /\ sgb ([], []) = 1 /\
  (forall J A L B, decr J -> decr A -> decr L -> decr B -> length J = length A -> length L = length B ->
     sga (J, A) * sgb (L, B) * ci (J, A) (L, B) = c * C (alp J ++ bet L) (alp A ++ bet B)).

Section Wave.
Variables (c : F) (C : list so -> list so -> F) (ci : exc -> exc -> F) (sga sgb : exc -> F).
Hypothesis HC : antisymmetric C.
Hypothesis HR : represents c C ci sga sgb.
Definition fa (ts : list (list nat)) : F := match ts with [J; A] => c * C (alp J) (alp A) | _ => 0 end.
Definition fb (ts : list (list nat)) : F := match ts with [J; A] => c * C (bet J) (bet A) | _ => 0 end.
Definition fab (ts : list (list nat)) : F := match ts with [J; A; L; B] => c * C (alp J ++ bet L) (alp A ++ bet B) | _ => 0 end.
Lemma swap_o p x y q A : C (p ++ x :: y :: q) A = - C (p ++ y :: x :: q) A. Proof. apply HC. Qed.
Lemma swap_v p x y q J : C J (p ++ x :: y :: q) = - C J (p ++ y :: x :: q). Proof. apply HC. Qed.
Lemma fa_anti : anti_all fa.
Proof.
  intros t p x y q t'. destruct t as [|t1 [|t2 t]]; simpl.
  - destruct t' as [|t1 [|]]; simpl; try ring. rewrite !map_app. simpl. rewrite swap_o. ring.
  - destruct t' as [|]; simpl; try ring. rewrite !map_app. simpl. rewrite swap_v. ring.
  - destruct t; simpl; ring.
Qed.
Lemma fb_anti : anti_all fb.
Proof.
  intros t p x y q t'. destruct t as [|t1 [|t2 t]]; simpl.
  - destruct t' as [|t1 [|]]; simpl; try ring. rewrite !map_app. simpl. rewrite swap_o. ring.
  - destruct t' as [|]; simpl; try ring. rewrite !map_app. simpl. rewrite swap_v. ring.
  - destruct t; simpl; ring.
Qed.
Lemma fab_anti : anti_all fab.
Proof.
  intros t p x y q t'. destruct t as [|t1 [|t2 [|t3 [|t4 t]]]]; simpl.
  - destruct t' as [|t1 [|t2 [|t3 [|]]]]; simpl; try ring. rewrite !map_app, <- !app_assoc. simpl. rewrite swap_o. ring.
  - destruct t' as [|t2 [|t3 [|]]]; simpl; try ring. rewrite !map_app, <- !app_assoc. simpl. rewrite swap_v. ring.
  - destruct t' as [|t3 [|]]; simpl; try ring. rewrite !map_app, !app_assoc. simpl. rewrite swap_o. ring.
  - destruct t' as [|]; simpl; try ring. rewrite !map_app, !app_assoc. simpl. rewrite swap_v. ring.
  - destruct t; simpl; ring.
Qed.
Lemma dec_a g ix : length ix = (g + g)%nat -> decompress [g; g] (packa ci sga) ix = fa (cut [g; g] ix).
Proof.
  intros L. apply (decompress_ok two_nz); [exact fa_anti|simpl; lia|]. intros ts H.
  inversion H as [|? J ? ts1 [L1 D1] H1]; subst. inversion H1 as [|? A ? ts2 [L2 D2] H2]; subst. inversion H2; subst.
  destruct HR as (_ & _ & Hb & W). specialize (W J A [] [] D1 D2 decr0 decr0 (eq_sym L2) eq_refl). simpl. unfold ref. rewrite Hb in W.
  simpl in W. rewrite !app_nil_r in W. rewrite <- W. ring.
Qed.
Lemma dec_b g ix : length ix = (g + g)%nat -> decompress [g; g] (packb ci sgb) ix = fb (cut [g; g] ix).
Proof.
  intros L. apply (decompress_ok two_nz); [exact fb_anti|simpl; lia|]. intros ts H.
  inversion H as [|? J ? ts1 [L1 D1] H1]; subst. inversion H1 as [|? A ? ts2 [L2 D2] H2]; subst. inversion H2; subst.
  destruct HR as (_ & Ha & _ & W). specialize (W [] [] J A decr0 decr0 D1 D2 eq_refl (eq_sym L2)). simpl. unfold ref. rewrite Ha in W.
  simpl in W. rewrite <- W. ring.
Qed.
Lemma dec_ab g h ix : length ix = (g + g + h + h)%nat -> decompress [g; g; h; h] (packab ci sga sgb) ix = fab (cut [g; g; h; h] ix).
Proof.
  intros L. apply (decompress_ok two_nz); [exact fab_anti|simpl; lia|]. intros ts H.
  inversion H as [|? J ? ts1 [L1 D1] H1]; subst. inversion H1 as [|? A ? ts2 [L2 D2] H2]; subst.
  inversion H2 as [|? L' ? ts3 [L3 D3] H3]; subst. inversion H3 as [|? B ? ts4 [L4 D4] H4]; subst. inversion H4; subst.
  destruct HR as (_ & _ & _ & W). exact (W J A L' B D1 D2 D3 D4 (eq_sym L2) (eq_sym L4)).
Qed.
Lemma c0_ok : fci_c0 ci = c.
Proof.
  destruct HR as (H1 & Ha & Hb & W). specialize (W [] [] [] [] decr0 decr0 decr0 decr0 eq_refl eq_refl). simpl in W. rewrite Ha, Hb, H1 in W.
  unfold fci_c0, ref. transitivity (1 * 1 * ci ([], []) ([], [])); [ring|]. rewrite W. ring.
Qed.
Lemma b1a i a : ax2 (decompress [1; 1]%nat (packa ci sga)) i a = c * C [(al, i)] [(al, a)].
Proof. unfold ax2. rewrite dec_a by reflexivity. reflexivity. Qed.
Lemma b1b i a : ax2 (decompress [1; 1]%nat (packb ci sgb)) i a = c * C [(be, i)] [(be, a)].
Proof. unfold ax2. rewrite dec_b by reflexivity. reflexivity. Qed.
Lemma b2aa i j a b : ax4 (decompress [2; 2]%nat (packa ci sga)) i j a b = c * bl2 C al al i j a b.
Proof. unfold ax4. rewrite dec_a by reflexivity. reflexivity. Qed.
Lemma b2bb i j a b : ax4 (decompress [2; 2]%nat (packb ci sgb)) i j a b = c * bl2 C be be i j a b.
Proof. unfold ax4. rewrite dec_b by reflexivity. reflexivity. Qed.
Lemma b2ab i j a b : ax4 (transpose [0; 2; 1; 3]%nat (decompress [1; 1; 1; 1]%nat (packab ci sga sgb))) i j a b = c * bl2 C al be i j a b.
Proof. unfold ax4, transpose. rewrite dec_ab by reflexivity. reflexivity. Qed.
Lemma b3aaa i j k x y z : ax6 (decompress [3; 3]%nat (packa ci sga)) i j k x y z = c * bl3 C al al al i j k x y z.
Proof. unfold ax6. rewrite dec_a by reflexivity. reflexivity. Qed.
Lemma b3bbb i j k x y z : ax6 (decompress [3; 3]%nat (packb ci sgb)) i j k x y z = c * bl3 C be be be i j k x y z.
Proof. unfold ax6. rewrite dec_b by reflexivity. reflexivity. Qed.
Lemma b3aba i j k x y z : ax6 (transpose [0; 4; 1; 2; 5; 3]%nat (decompress [2; 2; 1; 1]%nat (packab ci sga sgb))) i j k x y z = c * bl3 C al be al i j k x y z.
Proof.
  unfold ax6, transpose. rewrite dec_ab by reflexivity. unfold fab, bl3. cbn. f_equal.
  clusterA C HC [(al, i); (be, j); (al, k)] [(al, x); (be, y); (al, z)].
Qed.
Lemma b3bab i j k x y z : ax6 (transpose [2; 0; 3; 4; 1; 5]%nat (decompress [1; 1; 2; 2]%nat (packab ci sga sgb))) i j k x y z = c * bl3 C be al be i j k x y z.
Proof.
  unfold ax6, transpose. rewrite dec_ab by reflexivity. unfold fab, bl3. cbn. f_equal.
  clusterA C HC [(be, i); (al, j); (be, k)] [(be, x); (al, y); (be, z)].
Qed.
Lemma b4aaaa i j k l x y z w : ax8 (decompress [4; 4]%nat (packa ci sga)) i j k l x y z w = c * bl4 C al al al al i j k l x y z w.
Proof. unfold ax8. rewrite dec_a by reflexivity. reflexivity. Qed.
Lemma b4bbbb i j k l x y z w : ax8 (decompress [4; 4]%nat (packb ci sgb)) i j k l x y z w = c * bl4 C be be be be i j k l x y z w.
Proof. unfold ax8. rewrite dec_b by reflexivity. reflexivity. Qed.
Lemma b4aaab i j k l x y z w : ax8 (transpose [0; 1; 2; 6; 3; 4; 5; 7]%nat (decompress [3; 3; 1; 1]%nat (packab ci sga sgb))) i j k l x y z w = c * bl4 C al al al be i j k l x y z w.
Proof. unfold ax8, transpose. rewrite dec_ab by reflexivity. reflexivity. Qed.
Lemma b4abab i j k l x y z w : ax8 (transpose [0; 4; 1; 5; 2; 6; 3; 7]%nat (decompress [2; 2; 2; 2]%nat (packab ci sga sgb))) i j k l x y z w = c * bl4 C al be al be i j k l x y z w.
Proof.
  unfold ax8, transpose. rewrite dec_ab by reflexivity. unfold fab, bl4. cbn. f_equal.
  clusterA C HC [(al, i); (be, j); (al, k); (be, l)] [(al, x); (be, y); (al, z); (be, w)].
Qed.
Lemma b4abbb i j k l x y z w : ax8 (transpose [0; 2; 3; 4; 1; 5; 6; 7]%nat (decompress [1; 1; 3; 3]%nat (packab ci sga sgb))) i j k l x y z w = c * bl4 C al be be be i j k l x y z w.
Proof. unfold ax8, transpose. rewrite dec_ab by reflexivity. reflexivity. Qed.
Lemma b4abaa i j k l x y z w : ax8 (transpose [0; 6; 2; 1; 3; 7; 5; 4]%nat (decompress [3; 3; 1; 1]%nat (packab ci sga sgb))) i j k l x y z w = c * bl4 C al be al al i j k l x y z w.
Proof.
  unfold ax8, transpose. rewrite dec_ab by reflexivity. unfold fab, bl4. cbn. f_equal.
  clusterA C HC [(al, i); (be, j); (al, k); (al, l)] [(al, x); (be, y); (al, z); (al, w)].
Qed.
Lemma sc (x y : F) : c <> 0 -> c * y * (x / c) = x * y. Proof. intros H. field. exact H. Qed.

Definition norm (c0' : option F) : F := match c0' with None => c | Some x => x end.
(** C64: every block of the converted wave function, of every rank, is the coefficient of the stated excitation times the coefficient of the
    reference, which is the stored one or the one asked for *)
Theorem C64_unrestricted c0' : (forall x, c0' = Some x -> c <> 0) -> holds_u (norm c0') C (ufci_as_cisdtq ci sga sgb c0').
Proof.
  intros Hn. destruct c0' as [x|].
  - specialize (Hn x eq_refl). unfold ufci_as_cisdtq, holds_u. cbn [u0 u1 u2 u3 u4 norm fst snd]. rewrite c0_ok.
    split; [reflexivity|]. unfold mul2, mul4, mul6, mul8.
    split; [|split; [|split]]; intros.
    + rewrite b1a, b1b. split; apply sc; auto.
    + rewrite b2aa, b2ab, b2bb. repeat split; apply sc; auto.
    + rewrite b3aaa, b3aba, b3bab, b3bbb. repeat split; apply sc; auto.
    + rewrite b4aaaa, b4aaab, b4abab, b4abbb, b4bbbb. repeat split; apply sc; auto.
  - unfold ufci_as_cisdtq, holds_u. cbn [u0 u1 u2 u3 u4 norm fst snd].
    split; [exact c0_ok|].
    split; [|split; [|split]]; intros.
    + rewrite b1a, b1b. split; reflexivity.
    + rewrite b2aa, b2ab, b2bb. repeat split; reflexivity.
    + rewrite b3aaa, b3aba, b3bab, b3bbb. repeat split; reflexivity.
    + rewrite b4aaaa, b4aaab, b4abab, b4abbb, b4bbbb. repeat split; reflexivity.
Qed.
(** and as_cisd gives the coefficients up to doubles *)
Theorem C64_unrestricted_cisd c0' : (forall x, c0' = Some x -> c <> 0) ->
  let '(x0, (xa, xb), (xaa, xab, xbb)) := ufci_as_cisd ci sga sgb c0' in
  x0 = norm c0' /\ (forall i a, xa i a = norm c0' * C [(al, i)] [(al, a)] /\ xb i a = norm c0' * C [(be, i)] [(be, a)]) /\
  (forall i j a b, xaa i j a b = norm c0' * C [(al, i); (al, j)] [(al, a); (al, b)] /\ xab i j a b = norm c0' * C [(al, i); (be, j)] [(al, a); (be, b)] /\
                   xbb i j a b = norm c0' * C [(be, i); (be, j)] [(be, a); (be, b)]).
Proof.
  intros Hn. destruct c0' as [x|].
  - specialize (Hn x eq_refl). unfold ufci_as_cisd. cbn [norm]. rewrite c0_ok. split; [reflexivity|]. unfold mul2, mul4. split; intros.
    + rewrite b1a, b1b. split; apply sc; auto.
    + rewrite b2aa, b2ab, b2bb. repeat split; apply sc; auto.
  - unfold ufci_as_cisd. cbn [norm]. split; [exact c0_ok|]. split; intros.
    + rewrite b1a, b1b. split; reflexivity.
    + rewrite b2aa, b2ab, b2bb. repeat split; reflexivity.
Qed.
(** the restricted wave function: the singles are read off the beta strings *)
Hypothesis Hsinglet : forall i a, C [(be, i)] [(be, a)] = C [(al, i)] [(al, a)].
Theorem C64_restricted c0' : (forall x, c0' = Some x -> c <> 0) -> holds_r (norm c0') C (rfci_as_cisdtq ci sga sgb c0').
Proof.
  intros Hn. destruct c0' as [x|].
  - specialize (Hn x eq_refl). unfold rfci_as_cisdtq, holds_r. cbn [k0 k1 k2 k3 k4 norm fst snd]. rewrite c0_ok.
    split; [reflexivity|]. unfold mul2, mul4, mul6, mul8.
    split; [|split; [|split]]; intros.
    + rewrite b1b, Hsinglet. apply sc; auto.
    + rewrite b2ab. apply sc; auto.
    + rewrite b3aba. apply sc; auto.
    + rewrite b4abaa, b4abab. split; apply sc; auto.
  - unfold rfci_as_cisdtq, holds_r. cbn [k0 k1 k2 k3 k4 norm fst snd].
    split; [exact c0_ok|].
    split; [|split; [|split]]; intros.
    + rewrite b1b, Hsinglet. reflexivity.
    + rewrite b2ab. reflexivity.
    + rewrite b3aba. reflexivity.
    + rewrite b4abaa, b4abab. split; reflexivity.
Qed.
Theorem C64_restricted_cisd c0' : (forall x, c0' = Some x -> c <> 0) ->
  let w := rfci_as_cisd ci sga sgb c0' in
  c0 w = norm c0' /\ (forall i a, c1 w i a = norm c0' * C [(al, i)] [(al, a)]) /\ (forall i j a b, c2 w i j a b = norm c0' * C [(al, i); (be, j)] [(al, a); (be, b)]).
Proof.
  intros Hn. destruct c0' as [x|].
  - specialize (Hn x eq_refl). unfold rfci_as_cisd. cbn [norm c0 c1 c2]. rewrite c0_ok. split; [reflexivity|]. unfold mul2, mul4. split; intros.
    + rewrite b1b, Hsinglet. apply sc; auto.
    + rewrite b2ab. apply sc; auto.
  - unfold rfci_as_cisd. cbn [norm c0 c1 c2]. split; [exact c0_ok|]. split; intros.
    + rewrite b1b, Hsinglet. reflexivity.
    + rewrite b2ab. reflexivity.
Qed.
End Wave.

(** C64: if the wave function is c exp(T) of the reference, as_ccsdtq returns T *)
Theorem C64_amplitudes_unrestricted T c ci sga sgb : antisymmetric T -> spin_conserving T -> c <> 0 -> represents c (CI T) ci sga sgb ->
  amps_u T (ufci_as_ccsdtq ci sga sgb).
Proof.
  intros HT HS Hc HR. unfold ufci_as_ccsdtq. apply (C63_unrestricted T c); auto.
  apply (C64_unrestricted c (CI T) ci sga sgb (C64_exp_antisymmetric T HT) HR None). discriminate.
Qed.
Lemma adapt_one (s : list (nat * nat) -> F) sp i a : adapt s [(sp, i)] [(sp, a)] = s [(i, a)].
Proof. unfold adapt. simpl. rewrite Bool.eqb_reflx. simpl. unfold sgn. ring. Qed.
Theorem C64_amplitudes_restricted s c ci sga sgb : pair_symmetric s -> c <> 0 -> represents c (CI (adapt s)) ci sga sgb ->
  amps_r (adapt s) (rfci_as_ccsdtq ci sga sgb).
Proof.
  intros Hs Hc HR. unfold rfci_as_ccsdtq. apply (C63_restricted s c); auto.
  apply (C64_restricted c (CI (adapt s)) ci sga sgb (C64_exp_antisymmetric _ (C64_closed_shell_antisymmetric s Hs)) HR); [|discriminate].
  intros i a. rewrite !CI_one, !adapt_one. reflexivity.
Qed.
(** C64: for a closed shell the restricted and the unrestricted wave function give the same amplitudes *)
Theorem C64_agree s c ci sga sgb : pair_symmetric s -> c <> 0 -> represents c (CI (adapt s)) ci sga sgb ->
  let u := ufci_as_ccsdtq ci sga sgb in let r := rfci_as_ccsdtq ci sga sgb in
  (forall i a, fst (ut1 u) i a = rt1 r i a /\ snd (ut1 u) i a = rt1 r i a) /\
  (forall i j a b, snd (fst (ut2 u)) i j a b = rt2 r i j a b) /\
  (forall i j k x y z, snd (fst (fst (ut3 u))) i j k x y z = rt3 r i j k x y z) /\
  (forall i j k l x y z w, snd (fst (fst (ut4 u))) i j k l x y z w = snd (rt4 r) i j k l x y z w).
Proof.
  intros Hs Hc HR. pose proof (C64_amplitudes_restricted s c ci sga sgb Hs Hc HR) as R.
  pose proof (C64_amplitudes_unrestricted (adapt s) c ci sga sgb (C64_closed_shell_antisymmetric s Hs) (C64_closed_shell_spin s) Hc HR) as U.
  cbv zeta. destruct R as (R1 & R2 & R3 & R4). destruct (ufci_as_ccsdtq ci sga sgb) as [[v1a v1b] [[v2a v2m] v2b] [[[v3a v3p] v3q] v3b] [[[[v4a v4p] v4q] v4r] v4b]].
  destruct U as (U1 & U2 & U3 & U4). cbn [ut1 ut2 ut3 ut4 fst snd] in *. repeat split; intros.
  - rewrite R1. destruct (U1 i a) as [G _]. exact G.
  - rewrite R1. destruct (U1 i a) as [_ G]. rewrite G. unfold bl1. rewrite !adapt_one. reflexivity.
  - rewrite R2. destruct (U2 i j a b) as (_ & G & _). exact G.
  - rewrite R3. destruct (U3 i j k x y z) as (_ & G & _). exact G.
  - destruct (R4 i j k l x y z w) as [_ G]. rewrite G. destruct (U4 i j k l x y z w) as (_ & _ & G' & _). exact G'.
Qed.
End Coefficients.

(** ** Cases *)
Section SignGen.
Context (K : cring).
Add Ring Kr9 : (rth K).
Open Scope K_scope.
Lemma sign_cancel (x y c z : K) : x * x = 1 -> y * y = 1 -> x * y * (x * y * (c * z)) = c * z.
Proof. intros G1 G2. transitivity ((x * x) * (y * y) * (c * z)); [ring|]. rewrite G1, G2. ring. Qed.
End SignGen.
Section Cases.
(** a wave function with a sign for every string *)
Definition sgv (e : exc) : QF := if Nat.odd (list_sum (fst e) + list_sum (snd e)) then (- (1))%K else 1%K.
Definition civ (C : list so -> list so -> QF) (x y : exc) : QF :=
  (sgv x * sgv y * (c32 * C (map (pair true) (fst x) ++ map (pair false) (fst y)) (map (pair true) (snd x) ++ map (pair false) (snd y))))%K.
Lemma sgv_sq e : (sgv e * sgv e = 1)%K.
Proof. unfold sgv. destruct (Nat.odd _); apply eqq_ok; vm_compute; reflexivity. Qed.
Lemma civ_ok C : C [] [] = 1%K -> represents (F := QF) c32 C (civ C) sgv sgv.
Proof.
  intros H. split; [exact H|]. split; [reflexivity|]. split; [reflexivity|]. intros J A L B _ _ _ _ _ _. unfold civ. cbn [fst snd].
  apply (sign_cancel QK); apply sgv_sq.
Qed.
Lemma two_q : (1 + 1 <> 0 :> QF)%K.
Proof. apply (neqq (1 + 1)%K 0%K). vm_compute. reflexivity. Qed.
Lemma CI_nil (T : list so -> list so -> QF) : CI T [] [] = 1%K.
Proof. reflexivity. Qed.
(** the hypotheses are met by 3/2 exp(T) with the amplitudes of C63, whose stored elements have both signs *)
Example C64_exp_antisymmetric_case : antisymmetric (K := QK) (CI Tv).
Proof. apply C64_exp_antisymmetric. exact Tv_anti. Qed.
Example C64_closed_shell_case : antisymmetric (adapt sv) /\ spin_conserving (adapt sv).
Proof. split; [apply C64_closed_shell_antisymmetric; exact sv_pairs|apply C64_closed_shell_spin]. Qed.
Example C64_unrestricted_case : holds_u (F := QF) (q 5 1) (CI Tv) (ufci_as_cisdtq (civ (CI Tv)) sgv sgv (Some (q 5 1))) /\
  civ (CI Tv) ([2; 0], [3; 1])%nat ([1], [2])%nat = q (-624) 1 /\
  snd (fst (fst (u3 (ufci_as_cisdtq (civ (CI Tv)) sgv sgv None)))) 2%nat 1%nat 0%nat 3%nat 2%nat 1%nat = q 624 1 /\
  snd (fst (fst (u3 (ufci_as_cisdtq (civ (CI Tv)) sgv sgv None)))) 0%nat 1%nat 2%nat 3%nat 2%nat 1%nat = q (-624) 1.
Proof.
  split; [|split; [|split]; apply eqq_ok; vm_compute; reflexivity].
  apply (C64_unrestricted (F := QF) two_q c32 (CI Tv)); [exact C64_exp_antisymmetric_case|apply civ_ok; apply CI_nil|]. intros _ _. exact c32_nz.
Qed.
Example C64_restricted_case : holds_r (F := QF) (q 5 1) (CI (adapt sv)) (rfci_as_cisdtq (civ (CI (adapt sv))) sgv sgv (Some (q 5 1))) /\
  k1 (rfci_as_cisdtq (civ (CI (adapt sv))) sgv sgv None) 1%nat 1%nat = q 243 2.
Proof.
  split; [|apply eqq_ok; vm_compute; reflexivity].
  apply (C64_restricted (F := QF) two_q c32 (CI (adapt sv))); [apply C64_exp_antisymmetric; apply C64_closed_shell_case|apply civ_ok; apply CI_nil| |].
  - intros i a. rewrite !(CI_one (F := QF)), !(adapt_one (F := QF)). reflexivity.
  - intros _ _. exact c32_nz.
Qed.
Example C64_amplitudes_case : amps_u (F := QF) Tv (ufci_as_ccsdtq (civ (CI Tv)) sgv sgv) /\ amps_r (F := QF) (adapt sv) (rfci_as_ccsdtq (civ (CI (adapt sv))) sgv sgv).
Proof.
  split.
  - apply (C64_amplitudes_unrestricted (F := QF) two_q Tv c32); [exact Tv_anti|exact Tv_spin|exact c32_nz|apply civ_ok; apply CI_nil].
  - apply (C64_amplitudes_restricted (F := QF) two_q sv c32); [exact sv_pairs|exact c32_nz|apply civ_ok; apply CI_nil].
Qed.
(** the state has to be a singlet: with different alpha and beta singles the restricted conversion returns the beta ones *)
Definition Tt (J A : list so) : QK := if ((length J =? 1) && (length A =? 1))%nat then match J, A with (true, _) :: _, (true, _) :: _ => q 1 1 | _, _ => q 0 1 end else q 0 1.
Lemma len2 (p : list so) x y r : (length (p ++ x :: y :: r) =? 1)%nat = false.
Proof. apply Nat.eqb_neq. rewrite app_length. simpl. lia. Qed.
Example C64_singlet_needed : exists (C : list so -> list so -> QF) ci sga sgb i a, antisymmetric C /\ represents (F := QF) c32 C ci sga sgb /\
  k1 (rfci_as_cisdtq ci sga sgb None) i a <> (c32 * C [(true, i)] [(true, a)])%K.
Proof.
  assert (HT : antisymmetric (K := QK) Tt).
  { split; intros; unfold Tt; rewrite !len2, ?andb_false_r; apply eqq_ok; vm_compute; reflexivity. }
  exists (CI Tt), (civ (CI Tt)), sgv, sgv, 0%nat, 0%nat. split; [apply C64_exp_antisymmetric; exact HT|]. split; [apply civ_ok; apply CI_nil|].
  apply neqq. vm_compute. reflexivity.
Qed.
End Cases.
Print Assumptions C64_exp_antisymmetric.
Print Assumptions C64_closed_shell_antisymmetric.
Print Assumptions C64_closed_shell_spin.
Print Assumptions C64_unrestricted.
Print Assumptions C64_unrestricted_cisd.
Print Assumptions C64_restricted.
Print Assumptions C64_restricted_cisd.
Print Assumptions C64_amplitudes_unrestricted.
Print Assumptions C64_amplitudes_restricted.
Print Assumptions C64_agree.
