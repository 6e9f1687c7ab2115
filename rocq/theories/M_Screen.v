(** Model of the static screening of the cluster interaction by moments of the RPA ("mrpa"):
    vayesta/core/screening/screening_moment.py, the part of ClusterHamiltonian that uses it
    (vayesta/solver/hamiltonian.py 397-449 and 463-481), and the energies of the external RPA correction
    (vayesta/core/qemb/qemb.py 586-589 and 756-800).

    Modelled: the rotation of the particle-hole space into the clusters, the local moments, the screened kernel, the
    replacement of integrals in a full array and in the arrays of a CCSD calculation (with [restore_bare]), the average
    over spins, the local energies of the RPA and their cumulant version, the total cumulant energy.

    Simplifications: floats are elements of an ordered commutative ring; 1/x is an arbitrary function [inv], 1/2 a constant
    [hlf], 1e-10 a constant [thr]; numpy's eigh is an arbitrary function of the dimension and the matrix.  The call of
    [ssRIRPA.kernel_moms] for moment zero is an arbitrary function [km] of the number of rows and the target rotation
    (its model is in M_RiRpa).  Overlaps between orbitals of the mean field and of the cluster are given.  Left out:
    logging (also: the default [log=None] of [get_screened_eris_full] raises AttributeError), MPI, calc_moms_RPA
    (never called), and the selection of the fragments, of which the list is an argument. *)
From Coq Require Import List Arith Lia Bool.
From Verif Require Import Alg Ord Mat M_ExtCorr M_SsRpa.
Import ListNotations.

Section M.
Context (K : oring).
Variables (inv : K -> K) (hlf thr : K).
Variables (eigh : nat -> (nat -> nat -> K) -> (nat -> K) * (nat -> nat -> K)).
Variables (km : nat -> (nat -> nat -> K) -> result (nat -> nat -> K)).
Open Scope K_scope.
Notation vec := (nat -> K).
Notation mt := (nat -> nat -> K).
Notation ten := (nat -> nat -> nat -> nat -> K).

(** What is used of the mean field: numbers of occupied and virtual orbitals and energies of each spin, whether it is
    unrestricted, and the number of atomic orbitals. (screening_moment.py 60-69) *)
Record mfd := { noa : nat; nva : nat; nob : nat; nvb : nat; moea : vec; moeb : vec; unr : bool; nao : nat }.
Definition nova (m : mfd) : nat := (noa m * nva m)%nat.
Definition novb (m : mfd) : nat := (nob m * nvb m)%nat.
Definition nov (m : mfd) : nat := (nova m + novb m)%nat.

(** A fragment: size of its cluster and overlaps "mo[occ]|cluster[occ]" and "mo[vir]|cluster[vir]" of each spin (equal
    for a restricted calculation, lines 262-264). (screening_moment.py 50-51) *)
Record frag := { coa : nat; cva : nat; cob : nat; cvb : nat; roa : mt; rva : mt; rob : mt; rvb : mt }.
Definition ova (f : frag) : nat := (coa f * cva f)%nat.
Definition ovb (f : frag) : nat := (cob f * cvb f)%nat.
Definition ovs (f : frag) : nat := (ova f + ovb f)%nat.

(** get_target_rot_spat: [einsum("iJ,aB->JBia", ro, rv).reshape((ov_active, -1))]; without excitations an array
    without rows. (screening_moment.py 232-253) *)
Definition srot (nv cv : nat) (ro rv : mt) : mt := fun p k => ro (k / nv)%nat (p / cv)%nat * rv (k mod nv)%nat (p mod cv)%nat.

(** _get_target_rot for one fragment. (screening_moment.py 266-271) *)
Definition trot (m : mfd) (f : frag) : mt :=
  block_diag K (ova f) (nova m) (srot (nva m) (cva f) (roa f) (rva f)) (srot (nvb m) (cvb f) (rob f) (rvb f)).

(** [np.concatenate(target_rots, axis=0)] and its number of rows. (screening_moment.py 117) *)
Fixpoint rows (fs : list frag) : nat := match fs with [] => O | f :: r => (ovs f + rows r)%nat end.
Fixpoint stack (m : mfd) (fs : list frag) : mt :=
  match fs with [] => fun _ _ => 0 | f :: r => fun p k => if (p <? ovs f)%nat then trot m f p k else stack m r (p - ovs f)%nat k end.

(** The loop over the fragments in calc_moms_RIRPA: rows n to n + sum(nov) of the moment, projected and made symmetric.
    (screening_moment.py 125-135) *)
Fixpoint local_moms (m : mfd) (x : mt) (n : nat) (fs : list frag) : list mt :=
  match fs with
  | [] => []
  | f :: r => let y : mt := fun p q => Sum (nov m) (fun k => x (n + p)%nat k * trot m f q k) in
              (fun p q => (y p q + y q p) * hlf) :: local_moms m x (n + ovs f) r
  end.

(** calc_moms_RIRPA: without fragments line 117, without excitations line 123 asks numpy to concatenate an empty
    sequence, which raises ValueError. (screening_moment.py 115-137) *)
Definition calc_moms (m : mfd) (fs : list frag) : result (list mt) :=
  if (rows fs =? 0)%nat then ValueErr else rbind (km (rows fs) (stack m fs)) (fun x => Ret (local_moms m x 0 fs)).

(** get_eps_singlespin, called with the number [nv] of virtual orbitals that build_screened_eris computed, while there
    are [nv'] virtual energies: the shapes (no, nv) and (nv') are broadcast; if nv' = 1 the length of the result does
    not fit the rotation in line 83, unless there are no occupied orbitals. (screening_moment.py 71-76 and 83) *)
Definition eps1 (no nv nv' : nat) (moe : vec) : result vec :=
  if ((nv =? nv') || (nv =? 1) || ((nv' =? 1) && (no =? 0)))%nat then Ret (gen_eps K no nv' moe) else ValueErr.

(** [norb = emb.mo_coeff[0].shape[0]]: the number of molecular orbitals, but the number of atomic orbitals if
    unrestricted. (screening_moment.py 60-78) *)
Definition eps (m : mfd) : result vec :=
  let norb := if unr m then nao m else (noa m + nva m)%nat in
  rbind (eps1 (noa m) (norb - noa m) (nva m) (moea m)) (fun ea =>
  rbind (eps1 (nob m) (norb - nob m) (nvb m) (moeb m)) (fun eb => Ret (vcat K (nova m) ea eb))).

(** [einsum("pn,qn,n->pq", rot, rot, eps)]. (screening_moment.py 83) *)
Definition loc_amb (m : mfd) (e : vec) (f : frag) : mt := fun p q => Sum (nov m) (fun n => trot m f p n * trot m f q n * e n).

(** The inverse of the moment. (screening_moment.py 86-90) *)
Definition mominv (n : nat) (mom : mt) : mt :=
  let '(e, c) := eigh n mom in fun p q => Sum n (fun k => c p k * inv (e k) * c q k).

(** The renormalised kernel [0.5 * (apb - amb)]. (screening_moment.py 91-96) *)
Definition kernel (n : nat) (mom amb : mt) : mt :=
  let mi := mominv n mom in
  let apb := mm n (mm n mi amb) mi in
  fun p q => hlf * (apb p q - amb p q).

(** The attribute [_seris_ov] of a fragment, with [store_m0=True]: three spin blocks, moment and A-B.
    (screening_moment.py 111) *)
Record scr := { kaa : ten; kab : ten; kbb : ten; smom : mt; samb : mt }.

(** Body of the loop. (screening_moment.py 83-111) *)
Definition screen1 (f : frag) (mom amb : mt) : scr :=
  let kc := kernel (ovs f) mom amb in
  {| kaa := fun i a j b => kc (i * cva f + a)%nat (j * cva f + b)%nat;
     kab := fun i a j b => kc (i * cva f + a)%nat (ova f + (j * cvb f + b))%nat;
     kbb := fun i a j b => kc (ova f + (i * cvb f + a))%nat (ova f + (j * cvb f + b))%nat;
     smom := mom; samb := amb |}.

(** build_screened_eris: the values stored in the fragments; nothing is returned, contrary to the documentation.  For a
    cluster without excitations [min(e)] in line 87 raises ValueError. (screening_moment.py 10-112) *)
Definition build (m : mfd) (fs : list frag) : result (list scr) :=
  rbind (calc_moms m fs) (fun moms =>
  rbind (eps m) (fun e =>
  if existsb (fun f => (ovs f =? 0)%nat) fs then ValueErr else
  Ret (map (fun fm => screen1 (fst fm) (snd fm) (loc_amb m e (fst fm))) (List.combine fs moms)))).

(** replace_ov; the four blocks assigned do not overlap. (screening_moment.py 155-164) *)
Definition replace_ov (no1 no2 : nat) (full ov : ten) : ten := fun p q r s =>
  match (p <? no1)%nat, (q <? no1)%nat, (r <? no2)%nat, (s <? no2)%nat with
  | true, false, true, false => ov p (q - no1)%nat r (s - no2)%nat
  | false, true, true, false => ov q (p - no1)%nat r (s - no2)%nat
  | true, false, false, true => ov p (q - no1)%nat s (r - no2)%nat
  | false, true, false, true => ov q (p - no1)%nat s (r - no2)%nat
  | _, _, _, _ => full p q r s
  end.

(** get_screened_eris_full: a single array of integrals, or one for each pair of spins.  With [copy=False] the arrays
    are changed in place, so that the three results for a single array are one array, changed three times.
    (screening_moment.py 150-174) *)
Definition screened_full (no na : nat) (eris : ten + ten * ten * ten) (s : ten * ten * ten) (copy : bool) : ten * ten * ten :=
  let '(saa, sab, sbb) := s in
  match eris, copy with
  | inl e, false => let r := replace_ov na na (replace_ov no na (replace_ov no no e saa) sab) sbb in (r, r, r)
  | inl e, true => (replace_ov no no e saa, replace_ov no na e sab, replace_ov na na e sbb)
  | inr (eaa, eab, ebb), _ => (replace_ov no no eaa saa, replace_ov no na eab sab, replace_ov na na ebb sbb)
  end.

(** The object with the integrals of an unrestricted CCSD calculation: the arrays touched, and the integrals kept by the
    methods get_bare and restore_bare, if it has them. (screening_moment.py 177-210) *)
Record cceris := { ovov : ten; ovvo : ten; ovOV : ten; ovVO : ten; OVOV : ten; OVVO : ten; OVvo : ten; kept : option (ten * ten * ten) }.

(** Assignment of the arrays. (screening_moment.py 183-194) *)
Definition set_eris (s : ten * ten * ten) (k : option (ten * ten * ten)) : cceris :=
  let '(saa, sab, sbb) := s in
  {| ovov := saa; ovvo := fun i a b j => saa i a j b;
     ovOV := sab; ovVO := fun i a b j => sab i a j b;
     OVOV := sbb; OVVO := fun i a b j => sbb i a j b;
     OVvo := fun i a b j => sab j b i a; kept := k |}.

(** get_screened_eris_ccsd with [add_restore_bare=True]; the kept arrays are views of arrays that are replaced but not
    changed. (screening_moment.py 177-210) *)
Definition screen_ccsd (e : cceris) (s : ten * ten * ten) : cceris := set_eris s (Some (ovov e, ovOV e, OVOV e)).

(** restore_bare; [None] if the object has no such method (AttributeError). (screening_moment.py 202-205) *)
Definition restore_bare (e : cceris) : option cceris := match kept e with Some s => Some (set_eris s None) | None => None end.

(** spin_integrate_and_report. (hamiltonian.py 464-465) *)
Definition spin_integrate (s : ten * ten * ten) : ten :=
  let '(aa, ab, bb) := s in fun p q r t => (aa p q r t + ab p q r t + bb p q r t + ab r t p q) * (hlf * hlf).

(** ** Energies *)

(** [pr]: projection of the occupied index of the rows, [np.tensordot(proj, m, axes=[0, 0])]. (hamiltonian.py 413-416 and 432-435) *)
Definition pr (no nv : nat) (proj m : mt) : mt := fun p q => Sum no (fun i => proj i (p / nv)%nat * m (i * nv + p mod nv)%nat q).

(** [einsum("pq,qp->", a, b)]. (hamiltonian.py 418, 437-438) *)
Definition dotp (n : nat) (a b : mt) : K := Sum n (fun p => Sum n (fun q => a p q * b q p)).

(** ClusterHamiltonian.calc_loc_erpa: [v] the bare integrals in the cluster, [rf] the overlap "fragment|cluster-occ"
    with nf rows; the result for the identity in place of the projector is computed and forgotten (line 447), it is
    left out.  The maximum over an array without elements raises ValueError. (hamiltonian.py 397-449) *)
Definition loc_erpa (no nv nf : nat) (eri : ten) (rf m0 amb : mt) (cumulant : bool) : result K :=
  let n := (no * nv)%nat in
  let v : mt := fun p q => eri (p / nv)%nat (no + p mod nv)%nat (q / nv)%nat (no + q mod nv)%nat in
  let po : mt := fun i j => Sum nf (fun x => rf x i * rf x j) in
  let aa (x : mt) : mt := x in
  let ab (x : mt) : mt := fun p q => x p (n + q)%nat in
  let bb (x : mt) : mt := fun p q => x (n + p)%nat (n + q)%nat in
  let tot : mt := fun p q => aa m0 p q + ab m0 p q + ab m0 q p + bb m0 p q in
  if cumulant then Ret (hlf * dotp n (pr no nv po (fun p q => tot p q - (1 + 1) * delta p q)) v)
  else if (n =? 0)%nat then ValueErr
  else if forallb (fun p => forallb (fun q => ltb (absK (ab amb p q)) thr) (seq 0 n)) (seq 0 n)
  then Ret (hlf * (dotp n (pr no nv po (aa m0)) (aa amb) + dotp n (pr no nv po (bb m0)) (bb amb))
            + dotp n (pr no nv po tot) v
            - hlf * trace n (pr no nv po (fun p q => aa amb p q + v p q + bb amb p q + v p q)))
  else AssertErr.

(** The total cumulant energy, from the three-index integrals [lp] (np rows) and [ln] (nn rows, 0 if there are none)
    of a restricted system with n excitations. (qemb.py 773-789) *)
Definition cumulant_energy (n np nn : nat) (lp ln : mt) : result K :=
  let l1 : mt := fun x k => let k' := if (k <? n)%nat then k else (k - n)%nat in if (x <? np)%nat then lp x k' else ln (x - np)%nat k' in
  let l2 : mt := fun x k => let k' := if (k <? n)%nat then k else (k - n)%nat in if (x <? np)%nat then lp x k' else - ln (x - np)%nat k' in
  rbind (km (np + nn) l1) (fun m0 => Ret (hlf * Sum (np + nn) (fun x => Sum (n + n) (fun k => (m0 x k - l1 x k) * l2 x k)))).

(** get_e_nonlocal: e_rpa per cell minus the local energies with their symmetry factors, per cell ([icells] is
    1/ncells). (qemb.py 586-589 and 793) *)
Definition e_nonlocal (icells etot : K) (loc : list (K * K)) : K :=
  etot * icells - Lsum loc (fun ef => fst ef * snd ef) * icells.
End M.
