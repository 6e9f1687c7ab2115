(** Model of the fragment that is an active space: vayesta/core/fragmentation/cas.py 30-112 (add_cas_fragment).

    Simplifications: occupations are natural numbers (the code truncates them with [int]), energies are elements of an ordered
    commutative ring, [ncas] and [nelec] are not negative, and every list of energies is as long as the occupations.  Left out:
    logging, and add_orbital_fragment, which makes the fragment of the orbitals returned here. *)
From Coq Require Import List Arith Lia Bool.
From Verif Require Import Alg Ord.
Import ListNotations.
Local Open Scope list_scope.

(** The exceptions: ValueError with its four texts, IndexError and AssertionError. (cas.py 49-52, 62-63, 78, 92-93, 97-104) *)
Inductive err := too_many_electrons | too_many_orbitals | no_such_space | splits_occupied | splits_virtual | index_error | assertion_error.
Inductive out := Space (orbs : list nat) | Err (e : err).

Section M.
Context (K : oring).
Variables (tol : K).

(** The occupations: those of a restricted mean field, or the sum of both spins. (cas.py 44-47) *)
Definition occ_r (o : nat -> nat) : nat -> nat := o.
Definition occ_u (a b : nat -> nat) : nat -> nat := fun i => a i + b i.
(** Sum of the occupations. (cas.py 49) *)
Fixpoint total (occ : nat -> nat) (n : nat) : nat := match n with O => 0 | S m => total occ m + occ m end.
(** The highest orbital with electrons, [anyocc[-1]]. (cas.py 55) *)
Fixpoint highest (occ : nat -> nat) (n : nat) : option nat :=
  match n with O => None | S m => if 0 <? occ m then Some m else highest occ m end.
(** The loop: [r] is [anyocc[-1] - offset], so that [r = anyocc[-1] + 1] before the first pass.  Below orbital 0 the code would
    go on at the other end of the list; here the result is [None]. (cas.py 56-59) *)
Fixpoint search (occ : nat -> nat) (nelec r curr : nat) : option (nat * nat) :=
  if curr <? nelec then match r with O => None | S p => search occ nelec p (curr + occ p) end else Some (r, curr).
(** Comparison of a gap with the tolerance. (cas.py 92, 103) *)
Definition small (x : K) : bool := ltb (absK x) tol.
(** check_for_degen: occupied gap, then virtual gap.  The index [pv - 1] of -1 is the last orbital. (cas.py 64-104) *)
Definition check (n : nat) (e : nat -> K) (po pv : nat) : option err :=
  if (0 <? po) && (n <=? po) then Some index_error
  else if (0 <? po) && small (radd (e po) (ropp (e (po - 1)))) then Some splits_occupied
  else if pv <? n then
    if small (radd (e pv) (ropp (e (if pv =? 0 then n - 1 else pv - 1)))) then Some splits_virtual else None
  else if pv =? n then None else Some assertion_error.
(** One check per set of energies: one for a restricted mean field, alpha then beta for an unrestricted one. (cas.py 105-109) *)
Fixpoint checks (n : nat) (es : list (nat -> K)) (po pv : nat) : option err :=
  match es with [] => None | e :: r => match check n e po pv with Some x => Some x | None => checks n r po pv end end.
(** add_cas_fragment up to the orbitals of the fragment.  [offset > ncas] is [r + ncas < anyocc[-1]]. (cas.py 30-112) *)
Definition cas (n : nat) (occ : nat -> nat) (es : list (nat -> K)) (ncas nelec : nat) : out :=
  if total occ n <? nelec then Err too_many_electrons
  else if n <? ncas then Err too_many_orbitals
  else match highest occ n with None => Err index_error | Some h =>
    match search occ nelec (S h) 0 with None => Err index_error | Some (r, curr) =>
      if (nelec <? curr) || (r + ncas <? h) then Err no_such_space
      else match checks n es r (r + ncas) with Some x => Err x | None => Space (seq r ncas) end end end.
End M.
