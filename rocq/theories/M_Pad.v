(** Model of the padding of spin channels with dummy orbitals in to_pyscf_mf: vayesta/solver/hamiltonian.py 268-306, 326-329, 356-373.
    Simplifications: an array is its shape and a function from index lists; exact arithmetic in an ordered ring. *)
From Coq Require Import List Bool Arith.
From Verif Require Import Alg Ord.
Import ListNotations.

Section Pad.
Context {K : oring}.
Open Scope K_scope.
Notation arr := (list nat -> K).

(** topad = np.array(a.shape) < nmo, 291 *)
Definition topad (nmo : nat) (shape : list nat) : list bool := map (fun x => (x <? nmo)%nat) shape.
(** indices reached by the slices sl, 293: slice(nsm) where padded, everything else otherwise *)
Fixpoint reached (nsm : nat) (tp : list bool) (idx : list nat) : bool :=
  match tp, idx with
  | t :: tp, i :: idx => (if t then (i <? nsm)%nat else true) && reached nsm tp idx
  | _, _ => true
  end.
(** numpy's assignment new[sl] = a raises ValueError unless the shapes agree *)
Definition fits (nmo nsm : nat) (shape : list nat) : bool :=
  forallb (fun x => if (x <? nmo)%nat then (x =? nsm)%nat else (x =? nmo)%nat) shape.
(** a[(i,) * a.ndim] = diag_val for i in range(nsm, nmo), 297-299: is the index of this form? *)
Definition diag_index (nmo nsm : nat) (idx : list nat) : bool :=
  match idx with [] => false | i :: r => (nsm <=? i)%nat && (i <? nmo)%nat && forallb (fun j => (j =? i)%nat) r end.
(** pad, 290-300; None: ValueError *)
Definition pad (nmo nsm : nat) (d : K) (shape : list nat) (a : arr) : option arr :=
  let tp := topad nmo shape in
  if existsb (fun b => b) tp && negb (fits nmo nsm shape) then None
  else Some (fun idx =>
    if forallb (fun b => b) tp && diag_index nmo nsm idx then d
    else if existsb (fun b => b) tp then (if reached nsm tp idx then a idx else 0) else a idx).
(** pad_to_match, 275-276 and 289-302: the identity for equal channels, otherwise applied to every array *)
Definition pad_to_match (ncas : nat * nat) (d : K) (sh : list nat) (a : arr) : option arr :=
  let nmo := Nat.max (fst ncas) (snd ncas) in let nsm := Nat.min (fst ncas) (snd ncas) in
  if (nsm =? nmo)%nat then Some a else pad nmo nsm d sh a.
(** orbs_to_freeze, 278 and 283-285 *)
Definition orbs_to_freeze (ncas : nat * nat) : option (list nat * list nat) :=
  let nmo := Nat.max (fst ncas) (snd ncas) in let nsm := Nat.min (fst ncas) (snd ncas) in
  if (nsm =? nmo)%nat then None
  else if (fst ncas =? nsm)%nat then Some (seq nsm (nmo - nsm), []) else Some ([], seq nsm (nmo - nsm)).
(** dummy_energy, 279 and 306: 10 + the largest orbital energy; None: max() of an empty array raises *)
Fixpoint lmax (x : K) (l : list K) : K := match l with [] => x | y :: r => lmax (if ltb x y then y else x) r end.
Definition amax (l : list K) : option K := match l with [] => None | x :: r => Some (lmax x r) end.
Definition ten : K := nK 10.
Definition dummy_energy (ncas : nat * nat) (ea eb : list K) : option K :=
  if (fst ncas =? snd ncas)%nat then Some 0
  else match amax ea, amax eb with Some x, Some y => Some (ten + (if ltb x y then y else x)) | _, _ => None end.

(** The padded object, 326-329 and 356-373 (branch without density fitting, bare integrals) *)
Record padded := { p_energy : arr * arr; p_occ : arr * arr; p_ovlp : arr * arr; p_h : arr * arr; p_f : arr * arr; p_eri : arr * arr * arr; freeze : option (list nat * list nat) }.
Definition bind {A B} (x : option A) (f : A -> option B) : option B := match x with Some a => f a | None => None end.
Definition pad2 (ncas : nat * nat) (d : K) (k : nat) (x : arr * arr) : option (arr * arr) :=
  bind (pad_to_match ncas d (repeat (fst ncas) k) (fst x)) (fun a => bind (pad_to_match ncas d (repeat (snd ncas) k) (snd x)) (fun b => Some (a, b))).
Definition pad_eri (ncas : nat * nat) (g : arr * arr * arr) : option (arr * arr * arr) :=
  let '(aa, ab, bb) := g in let na := fst ncas in let nb := snd ncas in
  bind (pad_to_match ncas 0 [na; na; na; na] aa) (fun aa => bind (pad_to_match ncas 0 [na; na; nb; nb] ab) (fun ab =>
  bind (pad_to_match ncas 0 [nb; nb; nb; nb] bb) (fun bb => Some (aa, ab, bb)))).
(** orbital energies, one-electron Hamiltonian, Fock matrix and integrals of the cluster, with [nelec] electrons of each spin *)
Definition eye (idx : list nat) : K := match idx with [p; q] => delta p q | _ => 0 end.
Definition occupation (n : nat) (idx : list nat) : K := match idx with [p] => if (p <? n)%nat then 1 else 0 | _ => 0 end.
Definition energies (e : list K) (idx : list nat) : K := match idx with [p] => nth p e 0 | _ => 0 end.
Definition to_pyscf_mf (ncas nelec : nat * nat) (ea eb : list K) (h f : arr * arr) (g : arr * arr * arr) : option padded :=
  bind (dummy_energy ncas ea eb) (fun d =>
  bind (pad2 ncas 0 1 (occupation (fst nelec), occupation (snd nelec))) (fun mo_occ =>
  bind (pad2 ncas d 1 (energies ea, energies eb)) (fun mo_energy =>
  bind (pad2 ncas 1 2 (eye, eye)) (fun ovlp =>
  bind (pad_eri ncas g) (fun eri =>
  bind (pad2 ncas d 2 h) (fun heff =>
  bind (pad2 ncas d 2 f) (fun fock =>
  Some {| p_energy := mo_energy; p_occ := mo_occ; p_ovlp := ovlp; p_h := heff; p_f := fock; p_eri := eri; freeze := orbs_to_freeze ncas |}))))))).
End Pad.
Arguments padded : clear implicits.
