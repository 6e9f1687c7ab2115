(** Model of the choice of fragment orbitals: vayesta/core/fragmentation/fragmentation.py get_atom_indices_symbols (377-394),
    get_atomic_fragment_indices (396-430), get_orbital_indices_labels for integers (432-441), get_frag_coeff (462-465),
    get_env_coeff (467-472), _create_fragment (173-177), add_all_atomic_fragments (151-165), add_full_system (167-169).
    Simplifications: a column of coefficients is an element of any type; symbols are numbers; the orbital filter is the
    list of orbitals it finds.  Not modelled: search by label strings (search_labels), names. *)
From Coq Require Import List Arith ZArith Lia Bool.
Import ListNotations.

(** Outcomes; the errors that can be raised *)
Inductive result (A : Type) := Ok (a : A) | IndexError | ValueError.
Arguments Ok {A}. Arguments IndexError {A}. Arguments ValueError {A}.

(** A Python or numpy index: negative numbers count from the end *)
Definition norm_index (n : nat) (i : Z) : option nat :=
  if (0 <=? i)%Z && (i <? Z.of_nat n)%Z then Some (Z.to_nat i)
  else if (- Z.of_nat n <=? i)%Z && (i <? 0)%Z then Some (Z.to_nat (i + Z.of_nat n))
  else None.

Fixpoint norm_all (n : nat) (l : list Z) : option (list nat) :=
  match l with
  | [] => Some []
  | i :: r => match norm_index n i, norm_all n r with Some k, Some ks => Some (k :: ks) | _, _ => None end
  end.

Definition memb (x : nat) (l : list nat) : bool := existsb (Nat.eqb x) l.
Definition membZ (x : Z) (l : list Z) : bool := existsb (Z.eqb x) l.

Section C.
Variable A : Type.
Variable cols : list A.             (* the columns of self.coeff *)

(** self.coeff[:, indices], line 464 *)
Definition get_frag_coeff (idx : list Z) : result (list A) :=
  match norm_all (length cols) idx with
  | Some ks => Ok (flat_map (fun k => match nth_error cols k with Some c => [c] | None => [] end) ks)
  | None => IndexError
  end.

(** lines 469-472: mask all True, False at the indices, columns where True *)
Definition get_env_coeff (idx : list Z) : result (list A) :=
  match norm_all (length cols) idx with
  | Some ks => Ok (flat_map (fun k => if memb k ks then [] else match nth_error cols k with Some c => [c] | None => [] end) (seq 0 (length cols)))
  | None => IndexError
  end.

(** _create_fragment, lines 173-177: fragment and environment orbitals *)
Definition create_fragment (idx : list Z) : result (list A * list A) :=
  match idx with
  | [] => ValueError
  | _ => match get_frag_coeff idx, get_env_coeff idx with
         | Ok f, Ok e => Ok (f, e)
         | _, _ => IndexError
         end
  end.
End C.
Arguments get_frag_coeff {A}. Arguments get_env_coeff {A}. Arguments create_fragment {A}.

Section Atoms.
Variable natm : nat.
Variable symbol : nat -> nat.       (* mol.atom_symbol *)
Variable base : list nat.           (* get_atoms(): the atom of every orbital *)

(** atoms given as integers or as symbols *)
Inductive atoms := Ints (l : list Z) | Symbols (l : list nat).

(** get_atom_indices_symbols: the indices (381-394); atoms[0] of an empty list is an IndexError *)
Definition get_atom_indices (a : atoms) : result (list Z) :=
  match a with
  | Ints [] | Symbols [] => IndexError
  | Ints l => match norm_all natm l with Some _ => Ok l | None => IndexError end
  | Symbols l =>
      if forallb (fun s => memb s (map symbol (seq 0 natm))) l
      then Ok (map Z.of_nat (filter (fun a => memb (symbol a) l) (seq 0 natm)))
      else ValueError
  end.

(** get_atomic_fragment_indices, lines 413-430 *)
Definition atomic_indices (a : atoms) (keep : option (list nat)) : result (list nat) :=
  match get_atom_indices a with
  | Ok l =>
      let ind := filter (fun i => membZ (Z.of_nat (nth i base 0)) l) (seq 0 (length base)) in
      Ok (match keep with None => ind | Some k => filter (fun i => memb i k) ind end)
  | IndexError => IndexError
  | ValueError => ValueError
  end.

(** add_atomic_fragment, lines 108-128 *)
Definition add_atomic {A} (cols : list A) (a : atoms) (keep : option (list nat)) : result (list A * list A) :=
  match atomic_indices a keep with
  | Ok l => create_fragment cols (map Z.of_nat l)
  | IndexError => IndexError
  | ValueError => ValueError
  end.

(** add_all_atomic_fragments, lines 159-165, for the first [n] atoms *)
Fixpoint add_all {A} (cols : list A) (n : nat) : result (list (list A * list A)) :=
  match n with
  | O => Ok []
  | S m => match add_all cols m with
           | Ok l => match add_atomic cols (Ints [Z.of_nat m]) None with
                     | Ok f => Ok (l ++ [f]) | IndexError => IndexError | ValueError => ValueError end
           | e => e
           end
  end.

(** add_full_system, lines 167-169 *)
Definition add_full {A} (cols : list A) : result (list A * list A) := add_atomic cols (Ints (map Z.of_nat (seq 0 natm))) None.
End Atoms.
