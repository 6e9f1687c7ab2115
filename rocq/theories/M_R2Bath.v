(** Model of the bath of orbitals near an atom: vayesta/core/bath/r2bath.py 11-18, 50-102.

    Simplifications: floats are elements of an ordered commutative ring; [eigh], the square root and the test of the error of
    hermiticity (76-77) are arbitrary; one Angstrom is [ibohr] Bohr (line 14 divides by its inverse).  The matrix of the squared
    distance in atomic orbitals (21-47) is an arbitrary matrix.  Errors are [None].  Left out: logging and histograms. *)
From Coq Require Import String Ascii List Arith Lia Bool.
From Verif Require Import Alg Ord Mat.
Import ListNotations.
Local Open Scope string_scope.
Local Open Scope list_scope.

(** [str.lower] for letters of ASCII. (r2bath.py 12) *)
Definition lower1 (c : ascii) : ascii := let n := nat_of_ascii c in if (65 <=? n)%nat && (n <=? 90)%nat then ascii_of_nat (n + 32)%nat else c.
Fixpoint lower (s : string) : string := match s with EmptyString => EmptyString | String c r => String (lower1 c) (lower r) end.

Section M.
Context (K : oring).
Notation vec := (nat -> K).
Notation mt := (nat -> nat -> K).
Variables (eigh : nat -> mt -> vec * mt) (sqrt : K -> K) (asym : mt -> bool) (half thr ibohr : K) (nao : nat).
Open Scope K_scope.

(** _to_bohr. (r2bath.py 11-18) *)
Definition to_bohr (rcut : K) (unit : string) : option K :=
  if prefix "ang" (lower unit) then Some (rcut * ibohr) else if prefix "b" (lower unit) then Some rcut else None.
(** get_r2: the matrix in the orbitals of the environment, made symmetric if it is not. (r2bath.py 71-80) *)
Definition env_r2 (c r2 : mt) : mt :=
  let m := mm nao (tr c) (mm nao r2 c) in if asym m then fun i j => (m i j + m j i) * half else m.
(** kernel: distances and orbitals. (r2bath.py 82-102) *)
Definition kernel (n : nat) (c r2 : mt) : option (vec * mt) :=
  let '(e, v) := eigh n (env_r2 c r2) in
  if existsb (fun k => ltb (e k) (- thr)) (seq 0 n) then None
  else Some (fun k => sqrt (if ltb (e k) 0 then 0 else e k), mm n c v).
(** get_bath: the number of orbitals within the distance, and the two blocks of columns. (r2bath.py 104-108) *)
Definition get_bath (n : nat) (eig : vec) (coeff : mt) (rcut : K) (unit : string) : option ((nat * mt) * (nat * mt)) :=
  match to_bohr rcut unit with None => None | Some r =>
    let nb := length (filter (fun k => leb (eig k) r) (seq 0 n)) in
    Some ((nb, coeff), ((n - nb)%nat, fun x j => coeff x (nb + j)%nat)) end.
(** c_env. (r2bath.py 64-69) *)
Definition c_env (occtype : string) (o v : nat * mt) : option (nat * mt) :=
  if String.eqb occtype "occupied" then Some o else if String.eqb occtype "virtual" then Some v else None.
(** The object and its method together. (r2bath.py 50-62, 104-108) *)
Definition r2_bath (occtype : string) (natoms : nat) (o v : nat * mt) (r2 : mt) (rcut : K) (unit : string) : option ((nat * mt) * (nat * mt)) :=
  match c_env occtype o v with None => None | Some (n, c) =>
    if negb (natoms =? 1)%nat then None else
    match kernel n c r2 with None => None | Some (eig, coeff) => get_bath n eig coeff rcut unit end end.
End M.
