(** Model of the symmetry operations of vayesta/core/symmetry/operation.py: get_atom_reorder (64-106), get_ao_reorder
    (108-123), rotate_angular_orbitals (125-146), the call (36-53) of inversion, reflection and rotation, and
    SymmetryGroup.get_closest_atom (group.py 55-59).
    Simplifications: a -1 in an array of indices is None; coordinates are points of any type with a distance in any ordered ring;
    coefficients are from any commutative ring; aoslice_by_atom (PySCF) gives consecutive intervals in the order of the
    atoms; every exception other than an assertion is one outcome.  Not modelled: log messages, the geometry of the
    operations (apply_to_point is any map) and PySCF's angular rotation matrices (any matrices). *)
From Coq Require Import List Arith Lia Bool.
From Verif Require Import Alg Ord.
Import ListNotations.

(** x[i] = value *)
Definition upd {A} (f : nat -> A) (i : nat) (x : A) : nat -> A := fun k => if Nat.eqb k i then x else f k.

(** ** Reordering of atoms *)
Section Atoms.
Variable natom : nat.
(** The atom found for an atom, None if no symmetry related atom is found (lines 79-91) *)
Variable image : nat -> option nat.

(** operation.py 77-97: success, reorder, inverse after the first [k] atoms *)
Fixpoint assign (k : nat) : bool * (nat -> option nat) * (nat -> option nat) :=
  match k with
  | O => (true, fun _ => None, fun _ => None)
  | S a => let '(ok, r, i) := assign a in
           match image a with
           | None => (false, r, i)
           | Some b => (ok, upd r b (Some a), upd i a (Some b))
           end
  end.

Inductive reordered := RNone | RAssertion | ROk (reorder inverse : nat -> option nat).

(** not (x == -1), lines 102-103 *)
Definition is_some {A} (x : option A) : bool := match x with Some _ => true | None => false end.
(** not np.any(...), lines 102-104 *)
Fixpoint all_below (n : nat) (p : nat -> bool) : bool := match n with O => true | S m => all_below m p && p m end.

(** operation.py 99-106, with the three asserts; np.arange(n)[reorder][inverse] is reorder[inverse[i]] *)
Definition get_atom_reorder : reordered :=
  let '(ok, r, i) := assign natom in
  if negb ok then RNone
  else if all_below natom (fun k => is_some (r k)) && all_below natom (fun k => is_some (i k))
          && all_below natom (fun k => match i k with
                                       | Some b => match r b with Some a => Nat.eqb a k | None => false end
                                       | None => false end)
       then ROk r i else RAssertion.
End Atoms.

(** ** The closest atom *)
Section Closest.
Context (R : oring).
Variable pt : Type.
Variable dist : pt -> pt -> R.
Variable coord : nat -> pt.

(** np.argmin of the first [S n] values: the first index of the least *)
Fixpoint argmin (f : nat -> R) (n : nat) : nat :=
  match n with O => O | S m => let b := argmin f m in if ltb (f (S m)) (f b) then S m else b end.

(** group.py 55-59 (natom = S n) *)
Definition get_closest_atom (n : nat) (x : pt) : nat * R :=
  let d := fun a => dist (coord a) x in let b := argmin d n in (b, d b).

(** operation.py 80-95 *)
Definition op_image (n : nat) (xtol : R) (compare : nat -> nat -> bool) (op : pt -> pt) (a : nat) : option nat :=
  let '(b, d) := get_closest_atom n (op (coord a)) in
  if ltb xtol d then None else if compare a b then Some b else None.
End Closest.
Arguments op_image {R pt}. Arguments get_closest_atom {R pt}. Arguments argmin {R}.

(** ** Reordering of atomic orbitals *)
Section Aos.
Variable natom : nat.
Variable sz : nat -> nat.           (* number of orbitals of every atom *)

(** aoslice_by_atom()[a, 2] *)
Fixpoint off (a : nat) : nat := match a with O => O | S b => off b + sz b end.

(** slice assignment x[s : s+n] = range(t, t+n) *)
Definition upd_range {A} (f : nat -> A) (s n : nat) (g : nat -> A) : nat -> A :=
  fun k => if (Nat.leb s k && Nat.ltb k (s + n))%bool then g (k - s) else f k.

(** operation.py 114-119 for the first [k] atoms; None: aos0[0] or the assignment fails *)
Fixpoint ao_assign (reorder : nat -> option nat) (k : nat) : option ((nat -> option nat) * (nat -> option nat)) :=
  match k with
  | O => Some (fun _ => None, fun _ => None)
  | S a =>
      match ao_assign reorder a, reorder a with
      | Some (r, i), Some b =>
          if (Nat.eqb (sz a) 0 || negb (Nat.eqb (sz a) (sz b)))%bool then None
          else Some (upd_range r (off a) (sz a) (fun m => Some (off b + m)), upd_range i (off b) (sz a) (fun m => Some (off a + m)))
      | _, _ => None
      end
  end.

Inductive ao_reordered := AError | AAssertion | AOk (reorder inverse : nat -> option nat).

(** operation.py 108-123 *)
Definition get_ao_reorder (reorder : nat -> option nat) : ao_reordered :=
  match ao_assign reorder natom with
  | None => AError
  | Some (r, i) =>
      let nao := off natom in
      if (all_below nao (fun k => is_some (r k)) && all_below nao (fun k => is_some (i k))
          && all_below nao (fun k => match i k with
                                     | Some b => match r b with Some a => Nat.eqb a k | None => false end
                                     | None => false end))%bool
      then AOk r i else AAssertion
  end.
End Aos.

(** ** Action on coefficients *)
Section Act.
Context (K : cring).
Open Scope K_scope.

(** a[ao_reorder], operation.py 51 (along the first axis) *)
Definition take (r : nat -> option nat) (v : nat -> K) : nat -> K :=
  fun j => match r j with Some k => v k | None => 0 end.

(** operation.py 125-146: [bas] the shells (angular momentum, number of functions) in order, [nl l] the size of the
    rotation matrix of [l]; the assert (138) is the hypothesis [size mod nl = 0] of the theorems *)
Fixpoint rotate (nl : nat -> nat) (rot : nat -> nat -> nat -> K) (bas : list (nat * nat)) (start : nat) (v : nat -> K) (j : nat) : K :=
  match bas with
  | [] => v j
  | (l, size) :: rest =>
      if Nat.ltb j (start + size) then
        if Nat.eqb l 0 then v j
        else let k := ((j - start) / nl l)%nat in
             let m := ((j - start) mod nl l)%nat in
             Sum (nl l) (fun x => v (start + k * nl l + x)%nat * rot l x m)
      else rotate nl rot rest (start + size) v j
  end.

(** operation.py 41-55 with the call_kernel of inversion, reflection and rotation (176-180, 224-226, 255-257) *)
Definition apply_op (nl : nat -> nat) (rot : nat -> nat -> nat -> K) (bas : list (nat * nat)) (r : nat -> option nat) (v : nat -> K) : nat -> K :=
  rotate nl rot bas 0 (take r v).

(** The matrices of the inversion, operation.py 177 *)
Definition inversion_rot (l x y : nat) : K := if Nat.even l then delta x y else - delta x y.
End Act.
Arguments take {K}. Arguments rotate {K}. Arguments apply_op {K}. Arguments inversion_rot {K}.
