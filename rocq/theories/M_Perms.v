(** Model of the permutation and antisymmetric-unpacking helpers of
    vayesta/core/util.py. *)
From Coq Require Import List Arith ZArith Bool.
Import ListNotations.

(** Python [for i, x in enumerate(l)] producing one value per element.
    Used at vayesta/core/util.py:757 and :765. *)
Fixpoint mapi_from {A B : Type} (i : nat) (f : nat -> A -> B) (l : list A) : list B :=
  match l with
  | [] => []
  | x :: l' => f i x :: mapi_from (S i) f l'
  end.

(** [item[:i] + seq[-1:] + item[i:]], vayesta/core/util.py:761. *)
Definition insert_at {A : Type} (k : nat) (x : A) (item : list A) : list A :=
  firstn k item ++ [x] ++ skipn k item.

(** The insertion positions [inds], vayesta/core/util.py:758-760:
    [range(len(item) + 1)], reversed when the outer index is even. *)
Definition inds (i n : nat) : list nat :=
  if Nat.even i then rev (seq 0 (S n)) else seq 0 (S n).

(** [_permutations], vayesta/core/util.py:752-763.  The Python function recurses on [seq[:-1]] and
    inserts [seq[-1]]; here the recursion is structural on the reversed sequence. *)
Fixpoint permutations_rev {A : Type} (r : list A) : list (list A) :=
  match r with
  | [] => [[]]
  | x :: r' =>
      concat (mapi_from 0 (fun i item => map (fun k => insert_at k x item) (inds i (length item)))
                        (permutations_rev r'))
  end.

Definition permutations {A : Type} (s : list A) : list (list A) := permutations_rev (rev s).

(** [permutations_with_signs], vayesta/core/util.py:744-765. *)
Definition permutations_with_signs {A : Type} (s : list A) : list (list A * Z) :=
  mapi_from 0 (fun i item => (item, if Nat.odd i then (-1)%Z else 1%Z)) (permutations s).

(** [tril_indices_ndim], vayesta/core/util.py:144-169: all index tuples of length [dims] with entries
    below [n], in row-major order, whose consecutive entries are strictly decreasing (or
    non-increasing with [include_diagonal]).  The boolean mask over the full index cube is rendered as a
    filter of the row-major enumeration of the cube. *)
Fixpoint cube (n dims : nat) : list (list nat) :=
  match dims with
  | O => [[]]
  | S d => flat_map (fun i => map (cons i) (cube n d)) (seq 0 n)
  end.

Fixpoint chain (r : nat -> nat -> bool) (t : list nat) : bool :=
  match t with
  | a :: ((b :: _) as t') => r a b && chain r t'
  | _ => true
  end.

Definition tril_indices_ndim (n dims : nat) (include_diagonal : bool) : list (list nat) :=
  filter (chain (if include_diagonal then fun a b => b <=? a else fun a b => b <? a)) (cube n dims).

(** The array being filled: a total map from index tuples, zero where nothing was written. *)
Definition tensor := list nat -> Z.
Fixpoint list_eqb (a b : list nat) : bool :=
  match a, b with
  | [], [] => true
  | x :: a', y :: b' => (x =? y) && list_eqb a' b'
  | _, _ => false
  end.
Definition zeros : tensor := fun _ => 0%Z.
Definition assign (A : tensor) (t : list nat) (v : Z) : tensor :=
  fun u => if list_eqb u t then v else A u.

(** One pass of the loop body, vayesta/core/util.py:226-240, for the permutation number [j]: the fancy-index
    assignment [array[indices_perm] = array_flat * sign] writes the stored elements in order. *)
Definition write_perm (tuples : list (list nat)) (flat : list Z) (minus : bool) (j : nat) (A : tensor) : tensor :=
  fold_left
    (fun A tv => let '(t, v) := tv in
       match nth_error (permutations_with_signs t) j with
       | Some (u, s) => assign A u (v * (if minus then s else 1))%Z
       | None => A
       end)
    (combine tuples flat) A.

(** [decompress_axes], vayesta/core/util.py:172-249, for a subscript with one index character (one group
    of [dims] permutable axes of size [n]); [minus] is the symmetry character "-".
    Simplified: the product over several groups and the axis sorting (lines 188-217) are not modelled here; the
    assertions on shapes are taken to hold; numbers are exact integers. *)
Definition decompress_axes (n dims : nat) (flat : list Z) (include_diagonal minus : bool) : tensor :=
  let tuples := tril_indices_ndim n dims include_diagonal in
  fold_left (fun A j => write_perm tuples flat minus j A) (seq 0 (fact dims)) zeros.
