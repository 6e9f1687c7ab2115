(** Model of the energy-weighted DMET bath: vayesta/core/linalg.py 8-77, vayesta/core/bath/ewdmet.py 8-59 and its use in
    vayesta/core/qemb/fragment.py 881-885, 936-938.

    Modelled: the recursive decomposition of off-diagonal blocks with threshold and maximum number of recursions, its
    assertions on shapes and on the number of orbitals, orders and singular values, the bath orbitals and their division by
    order.

    Simplifications: floats are elements of an ordered commutative ring.  [numpy.linalg.svd] is an arbitrary function [svd] of
    the shape and the matrix that returns the singular values and the matrix vh (u is not used by the code).  Infinite orders
    are [None].  The last assertion, that the coefficients are orthogonal up to a tolerance, is left out: it holds exactly
    (C73_orthogonal).  Left out: logging. *)
From Coq Require Import List Arith Lia Bool.
From Verif Require Import Alg Ord Mat M_ExtCorr.
Import ListNotations.
Local Open Scope list_scope.

Section M.
Context (K : oring).
Notation vec := (nat -> K).
Notation mt := (nat -> nat -> K).
Variable (svd : nat -> nat -> mt -> vec * mt).
Open Scope K_scope.

(** The variables of the loop: coefficients, number of rows of the block, number of orbitals found, singular values, orders.
    The slices are [low = s_[n+nd-nl : n+nd]], [env = s_[n+nd :]]. (linalg.py 33-39, 61-64) *)
Record st := { cf : mt; nl : nat; nd : nat; sv : vec; od : nat -> option nat }.
(** (linalg.py 33-39) *)
Definition start (n : nat) : st := {| cf := delta; nl := n; nd := 0; sv := fun _ => 0; od := fun _ => None |}.

(** The off-diagonal block. (linalg.py 42) *)
Definition block (m n : nat) (a : mt) (s : st) : mt := fun i j =>
  mm m (tr (cf s)) (mm m a (cf s)) (n + nd s - nl s + i)%nat (n + nd s + j)%nat.

(** [np.count_nonzero(s >= tol)] for k singular values. (linalg.py 49) *)
Fixpoint count (k : nat) (f : nat -> bool) : nat := match k with O => O | S k => (count k f + if f k then 1 else 0)%nat end.

(** The updates at the end of one recursion with c coupled orbitals of order o among e. (linalg.py 57-64) *)
Definition update (n : nat) (s : st) (o e c : nat) (x : vec) (vh : mt) : st :=
  {| cf := fun p j => if (j <? n + nd s)%nat then cf s p j else Sum e (fun k => cf s p (n + nd s + k)%nat * vh (j - (n + nd s))%nat k);
     nl := c; nd := (nd s + c)%nat;
     sv := fun k => if ((nd s <=? k) && (k <? nd s + c))%nat then x (k - nd s)%nat else sv s k;
     od := fun k => if ((nd s <=? k) && (k <? nd s + c))%nat then Some o else od s k |}.

(** The loop over orders; [fuel] recursions are left. (linalg.py 41-71) *)
Fixpoint loop (fuel o m n : nat) (a : mt) (tol : K) (s : st) : result st :=
  match fuel with
  | O => Ret s
  | S fuel =>
    let e := (m - (n + nd s))%nat in
    if ((nl s =? 0) || (e =? 0))%nat then AssertErr
    else let '(x, vh) := svd (nl s) e (block m n a s) in
    let c := count (Nat.min (nl s) e) (fun i => leb tol (x i)) in
    if (c =? 0)%nat then Ret s
    else let s' := update n s o e c x vh in
    if (nd s' =? m - n)%nat then Ret s' else if (nd s' <? m - n)%nat then loop fuel (S o) m n a tol s' else AssertErr
  end.

(** recursive_block_svd of a matrix of dimension m with n rows in the first block. (linalg.py 8-77) *)
Definition block_svd (m n : nat) (a : mt) (tol : K) (maxblock : nat) : result (mt * vec * (nat -> option nat)) :=
  rbind (loop maxblock 1 m n a tol (start n)) (fun s => Ret ((fun i j => cf s (n + i)%nat (n + j)%nat), sv s, od s)).

(** _make_svd for nf fragment and ne environment orbitals in nao atomic orbitals. (ewdmet.py 37-48) *)
Definition make_svd (nao nf ne : nat) (c_frag c_env fock : mt) (tol : K) (maxo : nat) : result (mt * vec * (nat -> option nat)) :=
  if (ne =? 0)%nat then Ret (c_env, fun _ => 0, fun _ => Some O)
  else let mo := fun p j => if (j <? nf)%nat then c_frag p j else c_env p (j - nf)%nat in
  let f := mm nao (tr mo) (mm nao fock mo) in
  rbind (block_svd (nf + ne) nf f tol maxo) (fun '(r, s, o) => Ret (mm ne c_env r, s, o)).

(** [orders <= order]; an infinite order is above all. (ewdmet.py 58) *)
Definition ole (x : option nat) (k : nat) : bool := match x with Some o => (o <=? k)%nat | None => false end.
(** get_bath: the number of bath orbitals, and the bath and frozen orbitals. (ewdmet.py 57-59) *)
Definition nbath (ne : nat) (orders : nat -> option nat) (k : nat) : nat := count ne (fun i => ole (orders i) k).
Definition get_bath (ne : nat) (c_bath : mt) (orders : nat -> option nat) (k : nat) : (nat * mt) * (nat * mt) :=
  let b := nbath ne orders k in ((b, c_bath), ((ne - b)%nat, fun p j => c_bath p (b + j)%nat)).
End M.
