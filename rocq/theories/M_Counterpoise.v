(** Model of make_cp_mol, vayesta/misc/counterpoise.py 31-131.
    Simplifications: coordinates are from any ordered ring, the Euclidean norm is any function; a symbol is a number with
    a mark for ghosts; the atom exists.  The result is the list of atoms given to PySCF; building the molecule (123-131) is not modelled. *)
From Coq Require Import List ZArith Bool Arith Lia.
From Verif Require Import Alg Ord.
Import ListNotations.

(** The argument unit: "A", "B", "a" and a digit (None: not a digit), or anything else *)
Inductive unit_arg := UA | UB | Ua (digit : option nat) | UOther.
Inductive cp_result (A : Type) := Atoms (l : list A) | ValueError | IndexError | NameError.
Arguments Atoms {A}. Arguments ValueError {A}. Arguments IndexError {A}. Arguments NameError {A}.

Section CP.
Context (R : oring).
Open Scope K_scope.
Definition pt : Type := (R * R * R)%type.
Definition padd (a b : pt) : pt := let '(a1, a2, a3) := a in let '(b1, b2, b3) := b in (a1 + b1, a2 + b2, a3 + b3).
Definition psub (a b : pt) : pt := let '(a1, a2, a3) := a in let '(b1, b2, b3) := b in (a1 - b1, a2 - b2, a3 - b3).
(** integer times vector *)
Definition zK (z : Z) : R := match z with Z0 => 0 | Zpos p => nK (Pos.to_nat p) | Zneg p => - nK (Pos.to_nat p) end.
Definition pscale (z : Z) (a : pt) : pt := let '(a1, a2, a3) := a in (zK z * a1, zK z * a2, zK z * a3).

(** "x == 0" of a number, as in "if rmax" *)
Definition eqb (x y : R) : bool := negb (ltb x y) && negb (ltb y x).

Variable norm : pt -> R.
Variable natm : nat.
Variable symbol : nat -> bool * nat.       (* (is a ghost, element) *)
Variable coord : nat -> pt.                (* in Angstrom *)
Variable dimension : nat.                  (* getattr(mol, "dimension", 0) *)
Variable lattice : option (nat -> pt).     (* amat, None without the attribute lattice_vectors *)
Variable bohr : R.

(** images, lines 65-74 *)
Definition images (nimages : nat) (d : nat) : nat :=
  match dimension with
  | 1%nat => if Nat.eqb d 0 then nimages else O
  | 2%nat => if Nat.ltb d 2 then nimages else O
  | 3%nat => nimages
  | _ => O
  end.

(** range(-n, n+1) *)
Definition around (n : nat) : list Z := map (fun k => (Z.of_nat k - Z.of_nat n)%Z) (seq 0 (2 * n + 1)).

(** the loops, lines 97-100 *)
Definition cells_atoms (nimages : nat) : list (Z * Z * Z * nat) :=
  flat_map (fun rx => flat_map (fun ry => flat_map (fun rz => map (fun a => (rx, ry, rz, a)) (seq 0 natm))
    (around (images nimages 2))) (around (images nimages 1))) (around (images nimages 0)).

(** lines 107-109; amat is not used for the zero cell *)
Definition place (amat : nat -> pt) (x : Z * Z * Z * nat) : pt :=
  let '(rx, ry, rz, a) := x in
  if Z.eqb (Z.abs rx + Z.abs ry + Z.abs rz) 0 then coord a
  else padd (coord a) (padd (padd (pscale rx (amat 0%nat)) (pscale ry (amat 1%nat))) (pscale rz (amat 2%nat))).

(** rmax in Angstrom, lines 85-94 *)
Definition convert (rmax : R) (u : unit_arg) : cp_result R :=
  match u with
  | UA => Atoms [rmax]
  | UB => Atoms [rmax * bohr]
  | Ua (Some k) => match lattice with
                   | Some amat => if Nat.ltb k 3 then Atoms [rmax * norm (amat k)] else IndexError
                   | None => NameError
                   end
  | Ua None => ValueError
  | UOther => ValueError
  end.

(** lines 57-122 *)
Definition make_cp (atom : nat) (rmax : R) (nimages : nat) (u : unit_arg) : cp_result ((bool * nat) * pt) :=
  let real := (symbol atom, coord atom) in
  if eqb rmax 0 then Atoms [real]
  else match convert rmax u with
       | Atoms (r :: _) =>
           let amat := match lattice with Some a => a | None => fun _ => coord atom end in
           Atoms (real :: flat_map (fun x =>
             let '(rx, ry, rz, a) := x in
             if (Z.eqb (Z.abs rx + Z.abs ry + Z.abs rz) 0 && Nat.eqb a atom)%bool then []
             else let c := place amat x in
                  if (eqb r 0 || leb (norm (psub c (coord atom))) r)%bool then [((true, snd (symbol a)), c)] else []) (cells_atoms nimages))
       | Atoms [] => ValueError
       | ValueError => ValueError
       | IndexError => IndexError
       | NameError => NameError
       end.
End CP.
