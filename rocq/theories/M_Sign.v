(** Model of the orbital sign convention.

    Modelled: vayesta/core/util.py fix_orbital_sign (713-727) and the identical
    vayesta/core/helper.py orbital_sign_convention (4-13).
    Simplifications: a coefficient matrix is a function (row = basis function, column = orbital) together
    with its numbers of rows and columns, over any ordered ring; whether the input array is overwritten
    ([inplace]) is not modelled. *)
From Coq Require Import List Arith Bool.
From Verif Require Import Alg Ord.
Import ListNotations.

Section Sign.
Context (K : oring).

(** [np.argmax(abs(mo_coeff), axis=0)] for one column, util.py 721: the first row with the largest absolute
    value; [best] is the best row so far, [i] the next row, [n] rows are left. *)
Fixpoint argmax_from (c : nat -> K) (best i n : nat) : nat :=
  match n with
  | O => best
  | S n' => argmax_from c (if ltb (absK (c best)) (absK (c i)) then i else best) (S i) n'
  end.

(** numpy raises a ValueError for no rows (None) *)
Definition argmax (c : nat -> K) (nao : nat) : option nat :=
  match nao with O => None | S n => Some (argmax_from c 0 1 n) end.

(** util.py 723: is the entry of largest absolute value negative? *)
Definition swap (mo : nat -> nat -> K) (nao : nat) (j : nat) : bool :=
  match argmax (fun i => mo i j) nao with Some k => ltb (mo k j) r0 | None => false end.

(** util.py 719-727: the new coefficients and the signs; None for the ValueError of argmax
    (an empty axis, also when there are no orbitals) *)
Definition fix_orbital_sign (nao nmo : nat) (mo : nat -> nat -> K) : option ((nat -> nat -> K) * (nat -> K)) :=
  match nao with
  | O => None
  | _ => Some ((fun i j => if swap mo nao j then rmul (mo i j) (ropp r1) else mo i j),
               (fun j => if swap mo nao j then ropp r1 else r1))
  end.

(** util.py 714-718: unrestricted orbitals, each spin separately *)
Definition fix_orbital_sign_uhf (nao : nat) (nmo : nat * nat) (mo : (nat -> nat -> K) * (nat -> nat -> K)) :=
  match fix_orbital_sign nao (fst nmo) (fst mo), fix_orbital_sign nao (snd nmo) (snd mo) with
  | Some (ca, sa), Some (cb, sb) => Some ((ca, cb), (sa, sb))
  | _, _ => None
  end.

End Sign.
Arguments fix_orbital_sign {K}. Arguments fix_orbital_sign_uhf {K}. Arguments swap {K}. Arguments argmax {K}.
Arguments argmax_from {K}.
