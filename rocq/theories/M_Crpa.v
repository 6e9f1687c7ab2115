(** Model of the screening of the cluster interaction by the constrained RPA ("crpa"):
    vayesta/core/screening/screening_crpa.py and its use in vayesta/solver/hamiltonian.py 482-506 and
    vayesta/core/qemb/fragment.py 1186-1195.

    Modelled: the rotation into the excitations of the cluster and of its environment, the couplings of the cluster to
    the excitations of the environment with the options [pcoupling] and [only_ov_screened], the static correction of the
    interaction, the poles and couplings of the dynamic one, the choice of the options from the text given by the user, the
    average over spins and the sum with the bare interaction.

    Simplifications: floats are elements of an ordered commutative ring; 1/x is an arbitrary function [inv], 1/2 a constant
    [hlf].  [scipy.linalg.null_space] is an arbitrary function [null] of the shape and the matrix, that returns the number of
    rows and the rows of the transpose.  The calculation [ssRPA(orig_mf, ov_rot=rot_ov).kernel()] is an arbitrary function
    [run] of the rotation (its model is [ssrpa] in M_SsRpa).  Three-index integrals in the orbitals of the mean field and of
    the cluster, which [ao2mo] computes with pyscf, are given.  Overlaps are given as in M_Screen ("mo|cluster", the code
    asks for the transposed).  The numbers of orbitals and the energies may depend on the spin although the class [ssRPA]
    handles only restricted mean fields.  Left out: logging, the option "store", memory checks, and mean fields without
    density fitting (NotImplementedError). *)
From Coq Require Import List Arith Lia Bool String.
From Verif Require Import Alg Ord Mat M_ExtCorr M_SsRpa M_Screen.
Import ListNotations.
Local Open Scope list_scope.

Section M.
Context (K : oring).
Variables (inv : K -> K) (hlf : K).
Variables (null : nat -> nat -> (nat -> nat -> K) -> nat * (nat -> nat -> K)).
Variables (run : rot K -> result (sol K)).
Open Scope K_scope.
Notation vec := (nat -> K).
Notation mt := (nat -> nat -> K).
Notation t3 := (nat -> nat -> nat -> K).
Notation ten := (nat -> nat -> nat -> nat -> K).
Notation mfd := (mfd K).
Notation frag := (frag K).

(** construct_loc_rot for one spin: [einsum("Ij,Ab->IAjb", ro, rv)] is the rotation of M_Screen.
    (screening_crpa.py 173-195) *)
Definition loc_a (m : mfd) (f : frag) : mt := srot K (nva K m) (cva K f) (roa K f) (rva K f).
Definition loc_b (m : mfd) (f : frag) : mt := srot K (nvb K m) (cvb K f) (rob K f) (rvb K f).

(** The excitations of the environment of one spin: number and rotation. (screening_crpa.py 198-206) *)
Definition outside (rows cols : nat) (r : mt) : nat * mt := if (0 <? rows * cols)%nat then null rows cols r else (cols, delta).

(** get_crpa; [None] stands for cRPAError.  [ov_rot] of a calculation started with a rotation is a rotation.
    (screening_crpa.py 172-213) *)
Definition get_crpa (m : mfd) (f : frag) : result (option (sol K * rot K)) :=
  let '(na, ra) := outside (ova K f) (nova K m) (loc_a m f) in
  let '(nb, rb) := outside (ovb K f) (novb K m) (loc_b m f) in
  if ((na =? 0) && (nb =? 0))%nat then Ret None
  else rbind (run {| rna := na; rma := ra; rnb := nb; rmb := rb |}) (fun s =>
       match s_rot K s with Some r => Ret (Some (s, r)) | None => AssertErr end).

(** Three-index integrals: number of auxiliary functions, occupied-virtual integrals of the mean field (the pair of orbitals
    is one index) and integrals in the cluster, for each spin. (screening_crpa.py 109-131) *)
Record df := { naux : nat; lova : mt; lovb : mt; lpqa : t3; lpqb : t3 }.

(** Two arrays of the solution for the spin beta: rows after those of alpha. (rpa/ssrpa.py 98-103) *)
Definition xmy_b (s : sol K) : mt := fun p n => s_xmy K s (s_na K s + p)%nat n.

(** [l_aux]. (screening_crpa.py 109-118) *)
Definition l_aux (m : mfd) (d : df) (s : sol K) (r : rot K) : mt := fun n k =>
  Sum (rna K r) (fun j => Sum (nova K m) (fun x => lova d n x * rma K r j x) * xpy_a K s j k)
  + Sum (rnb K r) (fun j => Sum (novb K m) (fun x => lovb d n x * rmb K r j x) * xpy_b K s j k).

(** [einsum("npq,nm->mpq", lpq_loc, l_aux)]. (screening_crpa.py 128-132) *)
Definition couple (na : nat) (lpq : t3) (laux : mt) : t3 := fun k p q => Sum na (fun n => lpq n p q * laux n k).

(** [eps_fb] of one spin. (screening_crpa.py 141) *)
Definition eps_fb (nov : nat) (e : vec) (l r : mt) : mt := fun q j => Sum nov (fun p => e p * l q p * r j p).

(** [a_fb] (upper sign) and [b_fb] of one spin, for an environment with nr excitations of that spin.
    (screening_crpa.py 143-147) *)
Definition fb (nr : nat) (efb : mt) (sign : bool) (p m : mt) : mt := fun q k =>
  Sum nr (fun j => efb q j * ((if sign then p j k + m j k else p j k - m j k) * hlf)).

(** Addition of the coupling through the orbital energies to the ov and vo blocks. (screening_crpa.py 154-158) *)
Definition add_p (no nv : nat) (a b : mt) (l : t3) : t3 := fun k p q =>
  match (p <? no)%nat, (q <? no)%nat with
  | true, false => l k p q + a (p * nv + (q - no))%nat k
  | false, true => l k p q + b (q * nv + (p - no))%nat k
  | _, _ => l k p q
  end.

(** [only_ov_screened]. (screening_crpa.py 165-168) *)
Definition only_ov (no : nat) (l : t3) : t3 := fun k p q =>
  match (p <? no)%nat, (q <? no)%nat with
  | true, true => 0
  | false, false => 0
  | _, _ => l k p q
  end.

(** set_up_W_crpa after the RPA calculation; [_gen_eps] without a rotation gives the differences of orbital energies.
    (screening_crpa.py 95-169) *)
Definition set_up (m : mfd) (f : frag) (d : df) (pc ov : bool) (s : sol K) (r : rot K) : t3 * t3 :=
  let la := couple (naux d) (lpqa d) (l_aux m d s r) in
  let lb := couple (naux d) (lpqb d) (l_aux m d s r) in
  let '(la, lb) := if pc then
      let ea := eps_fb (nova K m) (gen_eps K (noa K m) (nva K m) (moea K m)) (loc_a m f) (rma K r) in
      let eb := eps_fb (novb K m) (gen_eps K (nob K m) (nvb K m) (moeb K m)) (loc_b m f) (rmb K r) in
      (add_p (coa K f) (cva K f) (fb (rna K r) ea true (xpy_a K s) (s_xmy K s)) (fb (rna K r) ea false (xpy_a K s) (s_xmy K s)) la,
       add_p (cob K f) (cvb K f) (fb (rnb K r) eb true (xpy_b K s) (xmy_b s)) (fb (rnb K r) eb false (xpy_b K s) (xmy_b s)) lb)
    else (la, lb) in
  if ov then (only_ov (coa K f) la, only_ov (cob K f) lb) else (la, lb).

(** One block of the static correction of the interaction. (screening_crpa.py 85-91) *)
Definition dblock (n : nat) (w : vec) (l l' : t3) : ten := fun p q r s =>
  Sum n (fun k => l k p q * - inv (w k) * l' k r s) + Sum n (fun k => l k q p * - inv (w k) * l' k s r).

(** get_frag_deltaW; without excitations in the environment zeros are returned (four arrays, the callers use the first three,
    with the number of all orbitals in place of those of the cluster). (screening_crpa.py 54-92) *)
Definition deltaW (m : mfd) (f : frag) (d : df) (pc ov : bool) : result (ten * ten * ten) :=
  rbind (get_crpa m f) (fun o =>
  match o with
  | None => Ret (fun _ _ _ _ => 0, fun _ _ _ _ => 0, fun _ _ _ _ => 0)
  | Some (s, r) => let '(la, lb) := set_up m f d pc ov s r in let n := s_n K s in
      Ret (dblock n (s_f K s) la la, dblock n (s_f K s) la lb, dblock n (s_f K s) lb lb)
  end).

(** get_frag_W: number of poles, frequencies and couplings of both spins. (screening_crpa.py 18-51) *)
Definition frag_W (m : mfd) (f : frag) (d : df) (pc ov : bool) : result (nat * vec * (t3 * t3)) :=
  rbind (get_crpa m f) (fun o =>
  match o with
  | None => Ret (O, fun _ => 0, (fun _ _ _ => 0, fun _ _ _ => 0))
  | Some (s, r) => Ret (s_n K s, s_f K s, set_up m f d pc ov s r)
  end).

(** Python's [sub in text]. *)
Definition contains (sub text : string) : bool := match String.index 0 sub text with Some _ => true | None => false end.

(** The branch "crpa" of _add_screening for a restricted cluster; another text raises ValueError ("mrpa" is in M_Screen).
    (hamiltonian.py 482-506) *)
Definition add_crpa_r (m : mfd) (f : frag) (d : df) (screening : string) (bare : ten) : result ten :=
  if String.prefix "crpa" screening then
    rbind (deltaW m f d (contains "pcoupled" screening) (contains "ov" screening)) (fun dw =>
    if contains "full" screening then ValueErr
    else Ret (fun p q r s => bare p q r s + spin_integrate K hlf dw p q r s))
  else ValueErr.

(** The same for an unrestricted cluster, which is called with [spin_integrate=False]. (hamiltonian.py 482-506) *)
Definition add_crpa_u (m : mfd) (f : frag) (d : df) (screening : string) (bare : ten * ten * ten) : result (ten * ten * ten) :=
  if String.prefix "crpa" screening then
    rbind (deltaW m f d (contains "pcoupled" screening) (contains "ov" screening)) (fun dw =>
    if contains "full" screening then ValueErr
    else let '(baa, bab, bbb) := bare in let '(daa, dab, dbb) := dw in
      Ret (fun p q r s => baa p q r s + daa p q r s, fun p q r s => bab p q r s + dab p q r s, fun p q r s => bbb p q r s + dbb p q r s))
  else ValueErr.
End M.
