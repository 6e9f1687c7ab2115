(** Model of translations: vayesta/core/symmetry/operation.py SymmetryTranslation.get_atom_reorder (317-364), get_ao_reorder
    (366-396), call (51, 284-287); the list of translations of create_symmetric_fragments (vayesta/core/qemb/qemb.py 877-878)
    and of loop_tvecs (vayesta/core/symmetry/tsymmetry.py 40-48); tsymmetric_atoms (tsymmetry.py 51-106); the mesh of
    get_mesh_tvecs (tsymmetry.py 30-34).
    Simplifications: positions are exact, in units of 1/N of the lattice vectors ([N] any positive integer: a common
    denominator), so that "closer than the tolerance" is "equal"; a boundary is +1 (periodic) or -1.
    The helper functions for reordered orbitals are those of M_Symop. *)
From Coq Require Import List Arith ZArith QArith Qround Lia Bool.
From Verif Require Import Alg M_Symop.
Import ListNotations.

Record vec := V { vx : Z; vy : Z; vz : Z }.
(** numpy vector arithmetic *)
Definition vadd (a b : vec) : vec := V (vx a + vx b) (vy a + vy b) (vz a + vz b).
Definition vscale (k : Z) (a : vec) : vec := V (k * vx a) (k * vy a) (k * vz a).
Definition veqb (a b : vec) : bool := Z.eqb (vx a) (vx b) && Z.eqb (vy a) (vy b) && Z.eqb (vz a) (vz b).

(** operation.py 333-337: itertools.product([0, -1, 1], repeat=3) without the directions that are not periodic *)
Definition shifts (dimension : nat) : list vec :=
  filter (fun d => negb ((Nat.eqb dimension 1 || Nat.eqb dimension 2) && negb (Z.eqb (vz d) 0))
                   && negb (Nat.eqb dimension 1 && negb (Z.eqb (vy d) 0)))
    (flat_map (fun x => flat_map (fun y => map (fun z => V x y z) [0; -1; 1]%Z) [0; -1; 1]%Z) [0; -1; 1]%Z).

Section T.
Variable N : Z.                     (* one lattice vector is N units *)
Variable natom : nat.
Variable pos : nat -> vec.          (* positions of the atoms *)
Variable compare : nat -> nat -> bool.
Variable dimension : nat.

(** np.argmin of the distances and "closer than xtol" (340-343): the first atom at that position *)
Fixpoint find_atom (n : nat) (p : vec) : option nat :=
  match n with
  | O => None
  | S m => match find_atom m p with Some a => Some a | None => if veqb (pos m) p then Some m else None end
  end.

(** get_atom_at, operation.py 331-345: atom and shift with [atom + shift = position] *)
Fixpoint get_atom_at (ds : list vec) (p : vec) : option (nat * vec) :=
  match ds with
  | [] => None
  | d :: r => match find_atom natom (vadd p (vscale (- N) d)) with
              | Some a => Some (a, d)
              | None => get_atom_at r p
              end
  end.

(** operation.py 350-356: the atom that [a] is moved to *)
Definition tr_image (t : vec) (a : nat) : option nat :=
  match get_atom_at (shifts dimension) (vadd (pos a) t) with
  | Some (b, _) => if compare a b then Some b else None
  | None => None
  end.

Section Phase.
Context (K : cring).
Open Scope K_scope.
Variables bx byy bz : bool.         (* true: periodic, false: antiperiodic, operation.py 300-302 *)
Definition sgn (b : bool) : K := if b then 1 else - (1).

(** np.prod(boundary_phases[dr != 0]), operation.py 339 *)
Definition phase (d : vec) : K :=
  (if Z.eqb (vx d) 0 then 1 else sgn bx) * (if Z.eqb (vy d) 0 then 1 else sgn byy) * (if Z.eqb (vz d) 0 then 1 else sgn bz).

(** phases[atom0], operation.py 357 *)
Definition atom_phase (t : vec) (a : nat) : K :=
  match get_atom_at (shifts dimension) (vadd (pos a) t) with Some (_, d) => phase d | None => 0 end.

Variable sz : nat -> nat.
(** phases of the orbitals, operation.py 387-388: orbital [m] of atom [a] gets the phase of the atom it comes from *)
Fixpoint ao_phases (r : nat -> option nat) (aph : nat -> K) (k : nat) : nat -> K :=
  match k with
  | O => fun _ => 0
  | S a => upd_range (ao_phases r aph a) (off sz a) (sz a) (fun _ => match r a with Some b => aph b | None => 0 end)
  end.

(** The whole operation: None if the translation is not a symmetry or an assert fails; else the function on coefficients *)
Definition translation (t : vec) : option ((nat -> K) -> nat -> K) :=
  match get_atom_reorder natom (tr_image t) with
  | ROk r _ =>
      match get_ao_reorder natom sz r with
      | AOk ro _ => Some (fun v j => take ro v j * ao_phases r (atom_phase t) natom j)
      | _ => None
      end
  | _ => None
  end.
End Phase.

(** tsymmetric_atoms, tsymmetry.py 71-106: [same a b] compares elements and basis sets; atoms are equivalent if their
    distance is a lattice vector.  [indices] the list made so far (atoms 0..k-1).  The loop over set(indices) stops at
    the first match; the order of a set is arbitrary, given by [order]. *)
Definition lattice_distance (a b : nat) : bool :=
  Z.eqb ((vx (pos b) - vx (pos a)) mod N) 0 && Z.eqb ((vy (pos b) - vy (pos a)) mod N) 0 && Z.eqb ((vz (pos b) - vz (pos a)) mod N) 0.

Fixpoint tsym_atoms (same : nat -> nat -> bool) (order : list nat -> list nat) (k : nat) : list nat :=
  match k with
  | O => []
  | S a => let ind := tsym_atoms same order a in
           match find (fun b => same a b && lattice_distance a b) (order ind) with
           | Some b => ind ++ [b]
           | None => ind ++ [a]
           end
  end.
End T.

(** itertools.product(range(nx), range(ny), range(nz)), qemb.py 878; the first one is dropped with [1:] *)
Definition mesh_all (nx ny nz : nat) : list (nat * nat * nat) :=
  flat_map (fun x => flat_map (fun y => map (fun z => (x, y, z)) (seq 0 nz)) (seq 0 ny)) (seq 0 nx).
Definition symlist (nx ny nz : nat) : list (nat * nat * nat) := tl (mesh_all nx ny nz).

(** loop_tvecs, tsymmetry.py 44-46 *)
Definition loop_tvecs (include_origin : bool) (nx ny nz : nat) : list (nat * nat * nat) :=
  filter (fun t => let '(x, y, z) := t in negb (negb include_origin && Nat.eqb (x + y + z) 0))
    (flat_map (fun z => flat_map (fun y => map (fun x => (x, y, z)) (seq 0 nx)) (seq 0 ny)) (seq 0 nz)).

(** The translation vector sym / translation, qemb.py 901, in units of 1/N; N = nx*kx = ny*ky = nz*kz *)
Definition tvec (kx ky kz : nat) (t : nat * nat * nat) : vec :=
  let '(x, y, z) := t in V (Z.of_nat (x * kx)) (Z.of_nat (y * ky)) (Z.of_nat (z * kz)).

(** np.round: to the nearest integer, halves to even *)
Definition rnd (x : Q) : Z :=
  let f := Qfloor x in
  match Qcompare (x - inject_Z f) (1 # 2) with
  | Lt => f
  | Gt => (f + 1)%Z
  | Eq => if Z.even f then f else (f + 1)%Z
  end.

(** get_mesh_tvecs, tsymmetry.py 31: number of translations in one direction from the lengths of lattice and translation
    vector; None for a division by zero *)
Definition mesh_number (r t : Q) : option Z :=
  if Z.eqb (rnd t) 0 then None else Some (rnd (r / inject_Z (rnd t))).
