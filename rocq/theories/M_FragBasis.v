(** Model of the orbitals of the fragmentations: vayesta/core/fragmentation/fragmentation.py 347-358 (symmetric_orth),
    vayesta/core/fragmentation/iao.py 69-125, 165-214 (intrinsic atomic orbitals, their electrons and the remaining virtual
    orbitals), vayesta/core/fragmentation/sao.py 10-22 (orthogonalised atomic orbitals) and
    vayesta/core/fragmentation/iaopao.py 13-72 (projected atomic orbitals and the order of all).

    Simplifications: floats are elements of an ordered commutative ring.  [eigh], the inverse square root, [allclose] and the
    orbitals that pyscf returns (intrinsic orbitals before orthogonalisation, the list of Rydberg orbitals) are arbitrary.
    Errors are [None].  Left out: logging (so the check of orthonormality, which only logs), labels other than those used for
    the order, the pairs of the unrestricted classes (each spin is treated alike). *)
From Coq Require Import List Arith Lia Bool.
From Verif Require Import Alg Ord Mat M_Sign.
Import ListNotations.
Local Open Scope list_scope.

Section M.
Context (K : oring).
Notation vec := (nat -> K).
Notation mt := (nat -> nat -> K).
Variables (eigh : nat -> mt -> vec * mt) (isq : K -> K) (close : mt -> mt -> bool) (tol half : K).
Variables (nao : nat) (ovlp : mt).
Open Scope K_scope.

(** The sign that fix_orbital_sign gives to a column. (core/util.py 713-727; see M_Sign) *)
Definition sgn (rows : nat) (c : mt) (j : nat) : K := if swap c rows j then - (1) else 1.
(** Columns at the positions of a list. (fragmentation.py 355, iao.py 210, iaopao.py 71) *)
Definition at_ (l : list nat) (c : mt) : mt := fun x j => c x (nth j l 0%nat).
(** symmetric_orth: the product with the transposed eigenvectors has as many columns as rows. (fragmentation.py 347-358) *)
Definition symmetric_orth (n : nat) (c : mt) : mt :=
  let '(e, v) := eigh n (mm nao (tr c) (mm nao ovlp c)) in
  let x := fun i j => Lsum (filter (fun k => leb tol (e k)) (seq 0 n)) (fun k => v i k * isq (e k) * v j k) in
  fun i j => x i j * sgn n x j.
(** Orbitals made orthonormal. (iao.py 95-104, iaopao.py 51-57) *)
Definition orth (n : nat) (c : mt) : mt := mm n c (symmetric_orth n c).
(** get_coeff of SAO_Fragmentation. (sao.py 10-22) *)
Definition sao : mt := if close ovlp idm then idm else symmetric_orth nao idm.

(** check_nelectron: electrons in the space of the orbitals, and all electrons. (iao.py 114-125) *)
Definition dm (nmo : nat) (mo : mt) (occ : vec) : mt := fun a b => Sum nmo (fun i => mo a i * occ i * mo b i).
Definition ne_iao (n : nat) (c : mt) (d : mt) : K := trace n (mm nao (tr c) (mm nao ovlp (mm nao d (mm nao ovlp c)))).
Definition ne_tot (d : mt) : K := Sum nao (fun a => Sum nao (fun b => d a b * ovlp a b)).

(** get_virtual_coeff. (iao.py 165-214) *)
Definition virtual (n : nat) (c : mt) (nmo : nat) (mo : mt) : option (nat * mt) :=
  let cm := mm nao (tr mo) (mm nao ovlp c) in
  let '(e, u) := eigh nmo (msub idm (mm n cm (tr cm))) in
  let l := filter (fun k => ltb half (e k)) (seq 0 nmo) in
  if (length l + n =? nmo)%nat then
    let r := mm nmo mo (at_ l u) in Some (length l, fun x j => r x j * sgn nao r j)
  else None.
(** Columns side by side. (iao.py 109, iaopao.py 66) *)
Definition hcat (n : nat) (c d : mt) : mt := fun x j => if (j <? n)%nat then c x j else d x (j - n)%nat.
(** get_coeff of IAO_Fragmentation from pyscf's orbitals. (iao.py 84-112) *)
Definition iao (n : nat) (c0 : mt) (nmo : nat) (mo : mt) (add_virtuals : bool) : option (nat * mt) :=
  let c := orth n c0 in
  if add_virtuals then match virtual n c nmo mo with Some (m, r) => Some ((n + m)%nat, hcat n c r) | None => None end else Some (n, c).

(** get_pao_coeff. (iaopao.py 26-58) *)
Definition pao (n : nat) (c : mt) (ryd : list nat) : option (nat * mt) :=
  if negb (n + length ryd =? nao)%nat then None else
  match ryd with [] => Some (0%nat, zm) | _ =>
    Some (length ryd, orth (length ryd) (mm nao (msub idm (mm n c (mm nao (tr c) ovlp))) (at_ ryd idm))) end.
(** get_coeff of IAOPAO_Fragmentation. (iaopao.py 60-72) *)
Definition iaopao (n : nat) (c0 : mt) (nmo : nat) (ryd : list nat) (order : option (list nat)) : option (nat * mt) :=
  let c := orth n c0 in
  match pao n c ryd with None => None | Some (m, p) =>
    if (n + m =? nmo)%nat then match order with None => Some ((n + m)%nat, hcat n c p) | Some o => Some (length o, at_ o (hcat n c p)) end else None end.

(** The order of the orbitals: the position of every label of the atomic orbitals. (iaopao.py 17-24) *)
Fixpoint index (x : nat) (l : list nat) : option nat :=
  match l with [] => None | y :: l => if x =? y then Some 0 else option_map S (index x l) end%nat.
Fixpoint order_of (labels ao_labels : list nat) : option (list nat) :=
  match ao_labels with [] => Some [] | x :: r =>
    match index x labels, order_of labels r with Some i, Some o => Some (i :: o) | _, _ => None end end.
End M.
