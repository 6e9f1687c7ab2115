(** Arrays filled block by block: evaluating an assembled array at an index given as (occupied/virtual, position). Used for the two-particle density matrices. *)
From Coq Require Import List Arith Bool Lia Ring ZArith.
From Verif Require Import Alg M_Wf M_Eris P_Eris.
Close Scope Z_scope. Open Scope nat_scope.

Section P.
Context {K : cring}.
Notation ten := (nat -> nat -> nat -> nat -> K).
Notation blk := (bool -> bool -> bool -> bool -> nat -> nat -> nat -> nat -> K).
Variables n nv m mv : nat.
Definition repr (x : ten) (y : blk) : Prop := forall f g h k a b c d, a < sz n nv f -> b < sz n nv g -> c < sz m mv h -> d < sz m mv k ->
  x (shift n f a) (shift n g b) (shift m h c) (shift m k d) = y f g h k a b c d.
Definition blk_of (x : ten) : blk := fun f g h k a b c d => x (shift n f a) (shift n g b) (shift m h c) (shift m k d).
Definition putb (f1 f2 f3 f4 : bool) (x : ten) (y : blk) : blk := fun f g h k a b c d =>
  if eqb f1 f && eqb f2 g && eqb f3 h && eqb f4 k then x a b c d else y f g h k a b c d.
Lemma repr_0 x : repr x (blk_of x).
Proof. intros f g h k a b c d _ _ _ _. reflexivity. Qed.
Lemma repr_put f1 f2 f3 f4 (z z' out : ten) y : repr out y ->
  (forall a b c d, a < sz n nv f1 -> b < sz n nv f2 -> c < sz m mv f3 -> d < sz m mv f4 -> z a b c d = z' a b c d) ->
  repr (put n m f1 f2 f3 f4 z out) (putb f1 f2 f3 f4 z' y).
Proof.
  intros R H f g h k a b c d Ha Hb Hc Hd. rewrite (put_shift n nv m mv) by auto. unfold putb. rewrite R by auto.
  destruct (eqb f1 f) eqn:E1; [apply eqb_prop in E1; subst|reflexivity].
  destruct (eqb f2 g) eqn:E2; [apply eqb_prop in E2; subst|reflexivity].
  destruct (eqb f3 h) eqn:E3; [apply eqb_prop in E3; subst|reflexivity].
  destruct (eqb f4 k) eqn:E4; [apply eqb_prop in E4; subst|reflexivity].
  cbn [andb]. apply H; auto.
Qed.
Lemma repr_new f1 f2 f3 f4 (z out : ten) y : repr out y -> repr (put n m f1 f2 f3 f4 z out) (putb f1 f2 f3 f4 z y).
Proof. intros R. apply repr_put; auto. Qed.
Lemma repr_add f1 f2 f3 f4 (w out : ten) y : repr out y ->
  repr (put n m f1 f2 f3 f4 (tadd (slice n m f1 f2 f3 f4 out) w) out) (putb f1 f2 f3 f4 (tadd (y f1 f2 f3 f4) w) y).
Proof. intros R. apply repr_put; auto. intros. unfold tadd, slice. rewrite R by auto. reflexivity. Qed.
Lemma repr_conj f1 f2 f3 f4 (out : ten) y : repr out y ->
  repr (put n m f1 f2 f3 f4 (tconj (slice n m f2 f1 f4 f3 out)) out) (putb f1 f2 f3 f4 (tconj (y f2 f1 f4 f3)) y).
Proof. intros R. apply repr_put; auto. intros. unfold tconj, slice. rewrite R by auto. reflexivity. Qed.
Lemma repr_dbl f1 f2 f3 f4 (out : ten) y : repr out y ->
  repr (put n m f1 f2 f3 f4 (tdbl (slice n m f1 f2 f3 f4 out)) out) (putb f1 f2 f3 f4 (tdbl (y f1 f2 f3 f4)) y).
Proof. intros R. apply repr_put; auto. intros. unfold tdbl, slice. rewrite R by auto. reflexivity. Qed.
End P.
Section Same.
Context {K : cring} (n nv : nat).
Lemma repr_swap f1 f2 f3 f4 (out : nat -> nat -> nat -> nat -> K) y : repr n nv n nv out y ->
  repr n nv n nv (put n n f1 f2 f3 f4 (tswap (slice n n f3 f4 f1 f2 out)) out) (putb f1 f2 f3 f4 (tswap (y f3 f4 f1 f2)) y).
Proof. intros R. apply repr_put; auto. intros. unfold tswap, slice. rewrite R by auto. reflexivity. Qed.
End Same.
Ltac brepr := repeat first [apply repr_dbl | apply repr_add | apply repr_conj | apply repr_swap | apply repr_new]; apply repr_0.
