(** Model of the dense RPA solvers: vayesta/rpa/ssrpa.py (class ssRPA), vayesta/rpa/ssurpa.py (class ssURPA) and
    vayesta/rpa/rpa.py (class RPA).

    Modelled: the excitation energies and their rotation by [ov_rot], the assembly of A-B, A+B and M from the
    integrals (restricted and unrestricted), the contributions of an exchange-correlation kernel (dense and low-rank),
    the solution of the RPA problem ([kernel]: frequencies, X+Y, X-Y, correlation energy, with and without kernel),
    the moments ([gen_moms]), version 3 of the energy correction (the one used by [kernel]), and the whole of RPA.kernel.

    Simplifications: floats are elements of an ordered commutative ring; x**0.5 is an arbitrary function [sq], 1/x an
    arbitrary function [inv] (so x**(-0.5) is [inv (sq x)]), 0.5 a constant [hlf]; the theorems state what they need
    of them at the values met.  numpy's and scipy's eigh, sqrtm and inv are arbitrary functions of the dimension and
    the matrix ([eigh], [sqrtm], [minv]).  The integrals in the basis of the molecular orbitals (ao2mo, ssrpa.py
    328-346, ssurpa.py 132-150) are given.  Left out: the other versions of the energy correction (of which 0, 1 and 4
    integrate numerically over the coupling strength), logging and timing, and shapes of arrays ([ov_rot] with rows but without
    columns). *)
From Coq Require Import List Arith Lia Bool.
From Verif Require Import Alg Ord Mat M_ExtCorr.
Import ListNotations.

Section M.
Context (K : oring).
Variables (sq inv : K -> K) (hlf thr : K).
Variables (eigh : nat -> (nat -> nat -> K) -> (nat -> K) * (nat -> nat -> K)).
Variables (sqrtm minv : nat -> (nat -> nat -> K) -> (nat -> nat -> K)).
Open Scope K_scope.
Notation vec := (nat -> K).
Notation mt := (nat -> nat -> K).
Notation ten := (nat -> nat -> nat -> nat -> K).

(** x**n for a natural n. (numpy power, ssrpa.py 321) *)
Fixpoint pw (x : K) (n : nat) : K := match n with O => 1 | S m => x * pw x m end.

(** [np.concatenate([x, y])] for x of length n. (ssrpa.py 212, rpa.py 110) *)
Definition vcat (n : nat) (x y : vec) : vec := fun p => if (p <? n)%nat then x p else y (p - n)%nat.

(** An array filled by its four blocks, the first of size n x m. (slices in ssrpa.py 242-244, 321-324, ssurpa.py
    126-129, rpa.py 100-101, scipy.linalg.block_diag in ssrpa.py 217) *)
Definition blk (n m : nat) (aa ab ba bb : mt) : mt := fun p q =>
  if (p <? n)%nat then (if (q <? m)%nat then aa p q else ab p (q - m)%nat)
  else (if (q <? m)%nat then ba (p - n)%nat q else bb (p - n)%nat (q - m)%nat).

(** [block_diag(a, b)] for a of shape n x m. (ssrpa.py 217, ssurpa.py 92) *)
Definition block_diag (n m : nat) (a b : mt) : mt := blk n m a (fun _ _ => 0) (fun _ _ => 0) b.

(** [dot(r, a, r.T)] for a square a of dimension n. (ssrpa.py 218, ssurpa.py 96) *)
Definition rotm (n : nat) (r a : mt) : mt := mm n (mm n r a) (tr r).

(** The energy differences, flattened with the virtual index running fastest. (ssrpa.py 189-192, ssurpa.py 50-58,
    rpa.py 91-94) *)
Definition gen_eps (nocc nvir : nat) (moe : vec) : vec :=
  fun p => moe (nocc + p mod nvir)%nat - moe (p / nvir)%nat.

(** The slice [occ, vir, occ, vir] of the integrals as a matrix. (ssrpa.py 240, ssurpa.py 121-123, rpa.py 138) *)
Definition ovov (no nv no' nv' : nat) (eri : ten) : mt :=
  fun p q => eri (p / nv)%nat (no + p mod nv)%nat (q / nv')%nat (no' + q mod nv')%nat.

(** ssRPA.get_k: the same matrix in all four spin blocks. (ssrpa.py 237-245) *)
Definition get_k_r (nocc nvir : nat) (eri : ten) : mt :=
  let v := ovov nocc nvir nocc nvir eri in let n := (nocc * nvir)%nat in blk n n v v v v.

(** ssURPA.get_k. (ssurpa.py 115-130) *)
Definition get_k_u (noa nva nob nvb : nat) (eaa eab ebb : ten) : mt :=
  let n := (noa * nva)%nat in
  let vab := ovov noa nva nob nvb eab in
  blk n n (ovov noa nva noa nva eaa) vab (tr vab) (ovov nob nvb nob nvb ebb).

(** The argument [ov_rot]: number of rows and matrix for each spin. (ssrpa.py 21-24) *)
Record rot := { rna : nat; rma : mt; rnb : nat; rmb : mt }.

(** Diagonalisation of the rotated energies of one spin: the eigenvalues and the new rotation [c.T @ rot].
    (ssrpa.py 196-198 and 200-202, ssurpa.py 67-69, 77-79 and 86) *)
Definition rot_eps (nov nr : nat) (r : mt) (eps : vec) : vec * mt :=
  let '(e, c) := eigh nr (fun p q => Sum nov (fun n => r p n * eps n * r q n)) in
  (e, mm nr (tr c) r).

(** ssRPA._gen_eps with the update of self.ov_rot; without rows for one spin the variable is never set.
    (ssrpa.py 187-205) *)
Definition gen_eps_r (nov : nat) (eps : vec) (r : option rot) : result (vec * vec * option rot) :=
  match r with
  | None => Ret (eps, eps, None)
  | Some r =>
    if ((0 <? rna r) && (0 <? rnb r))%nat then
      let '(ea, ma) := rot_eps nov (rna r) (rma r) eps in
      let '(eb, mb) := rot_eps nov (rnb r) (rmb r) eps in
      Ret (ea, eb, Some {| rna := rna r; rma := ma; rnb := rnb r; rmb := mb |})
    else UnboundErr
  end.

(** The same part of ssURPA._gen_arrays; an empty rotation gives empty energies (here: whatever vector of length 0).
    (ssurpa.py 63-86) *)
Definition gen_eps_u (nova novb : nat) (epsa epsb : vec) (r : option rot) : result (vec * vec * option rot) :=
  match r with
  | None => Ret (epsa, epsb, None)
  | Some r =>
    let '(ea, ma) := rot_eps nova (rna r) (rma r) epsa in
    let '(eb, mb) := rot_eps novb (rnb r) (rmb r) epsb in
    Ret (ea, eb, Some {| rna := rna r; rma := ma; rnb := rnb r; rmb := mb |})
  end.

(** Numbers of rows of the alpha block and of the whole problem. (ssrpa.py 98-100, 313-317) *)
Definition dim_a (nova : nat) (r : option rot) : nat := match r with None => nova | Some r => rna r end.
Definition dim_b (novb : nat) (r : option rot) : nat := match r with None => novb | Some r => rnb r end.

(** Rotation of a matrix over all excitations, if there is one. (ssrpa.py 216-218 and 301-308) *)
Definition rot_full (nova novb : nat) (r : option rot) (a : mt) : mt :=
  match r with
  | None => a
  | Some r => rotm (nova + novb) (block_diag (rna r) nova (rma r) (rmb r)) a
  end.

(** A-B without kernel, as a vector. (ssrpa.py 212, ssurpa.py 88) *)
Definition amb0 (na : nat) (epsa epsb : vec) : vec := vcat na epsa epsb.

(** A+B without kernel. (ssrpa.py 214-221, ssurpa.py 89-99) *)
Definition apb0 (nova novb : nat) (r : option rot) (epsa epsb : vec) (fullv : mt) (alpha : K) : mt :=
  madd (rot_full nova novb r (fun p q => (1 + 1) * fullv p q * alpha))
       (dg (amb0 (dim_a nova r) epsa epsb)).

(** M without kernel. (ssrpa.py 224, ssurpa.py 102) *)
Definition m0 (amb : vec) (apb : mt) : mt := fun p q => sq (amb p) * apb p q * sq (amb q).

(** M with kernel. (ssrpa.py 231-232, ssurpa.py 109-110) *)
Definition mxc (n : nat) (amb apb : mt) : mt := mm n (mm n (sqrtm n amb) apb) (sqrtm n amb).

(** An exchange-correlation kernel: three dense arrays, or for each spin a pair of three-index arrays.
    (ssrpa.py 247-253) *)
Inductive xck :=
| Dense (aa ab bb : ten)
| LowRank (naux : nat) (la ra lb rb : nat -> nat -> nat -> K).

(** The conversion of a low-rank kernel; the alpha-beta block is built from both factors of alpha.
    (ssrpa.py 248-253) *)
Definition dense_kernel (x : xck) : ten * ten * ten :=
  match x with
  | Dense aa ab bb => (aa, ab, bb)
  | LowRank n la ra lb rb =>
    ((fun p q r s => Sum n (fun l => la l p q * ra l r s)),
     (fun p q r s => Sum n (fun l => la l p q * ra l r s)),
     (fun p q r s => Sum n (fun l => lb l p q * rb l r s)))
  end.

(** [einsum("pqrs,pi,qa,rj,sb->iajb", k, co, cv, co', cv')] as a matrix. (ssrpa.py 260, 272, 288) *)
Definition va_blk (nao : nat) (k : ten) (nv nv' : nat) (co cv co' cv' : mt) : mt := fun x y =>
  Sum nao (fun p => Sum nao (fun q => Sum nao (fun r => Sum nao (fun s =>
    k p q r s * co p (x / nv)%nat * cv q (x mod nv)%nat * co' r (y / nv')%nat * cv' s (y mod nv')%nat)))).

(** [einsum("pqsr,pi,qa,rj,sb->iajb", ...)]. (ssrpa.py 266, 280, 294) *)
Definition vb_blk (nao : nat) (k : ten) (nv nv' : nat) (co cv co' cv' : mt) : mt := fun x y =>
  Sum nao (fun p => Sum nao (fun q => Sum nao (fun r => Sum nao (fun s =>
    k p q s r * co p (x / nv)%nat * cv q (x mod nv)%nat * co' r (y / nv')%nat * cv' s (y mod nv')%nat)))).

(** Orbital data: basis size, occupied and virtual numbers, coefficients. (ssrpa.py 26-59, ssurpa.py 10-44) *)
Record orbs := { nao : nat; noa : nat; nva : nat; nob : nat; nvb : nat; coa : mt; cva : mt; cob : mt; cvb : mt }.
Definition ova (o : orbs) : nat := (noa o * nva o)%nat.
Definition ovb (o : orbs) : nat := (nob o * nvb o)%nat.

(** get_xc_contribs: contributions to A+B and A-B. (ssrpa.py 247-310) *)
Definition xc_contribs (o : orbs) (r : option rot) (x : xck) (alpha : K) : mt * mt :=
  let '(kaa, kab, kbb) := dense_kernel x in
  let vaaa := va_blk (nao o) kaa (nva o) (nva o) (coa o) (cva o) (coa o) (cva o) in
  let vbaa := vb_blk (nao o) kaa (nva o) (nva o) (coa o) (cva o) (coa o) (cva o) in
  let vaab := va_blk (nao o) kab (nva o) (nvb o) (coa o) (cva o) (cob o) (cvb o) in
  let vbab := vb_blk (nao o) kab (nva o) (nvb o) (coa o) (cva o) (cob o) (cvb o) in
  let vabb := va_blk (nao o) kbb (nvb o) (nvb o) (cob o) (cvb o) (cob o) (cvb o) in
  let vbbb := vb_blk (nao o) kbb (nvb o) (nvb o) (cob o) (cvb o) (cob o) (cvb o) in
  let n := ova o in
  let apb := blk n n (madd vaaa vbaa) (madd vaab vbab) (madd (tr vaab) (tr vbab)) (madd vabb vbbb) in
  let amb := blk n n (msub vaaa vbaa) (msub vaab vbab) (msub (tr vaab) (tr vbab)) (msub vabb vbbb) in
  ((fun p q => rot_full (ova o) (ovb o) r apb p q * alpha), (fun p q => rot_full (ova o) (ovb o) r amb p q * alpha)).

(** What [kernel] leaves on the object (the rows of X+Y and X-Y are kept whole here and split by [xpy_a], [xpy_b]).
    (ssrpa.py 84, 102-105, 108-111) *)
Record sol := { s_na : nat; s_nb : nat; s_f : vec; s_xpy : mt; s_xmy : mt; s_e : K; s_rot : option rot }.
Definition s_n (s : sol) : nat := (s_na s + s_nb s)%nat.

(** [assert all(e > 1e-12)]. (ssrpa.py 85, 92; rpa.py 63) *)
Definition all_above (n : nat) (e : vec) : bool := forallb (fun i => ltb thr (e i)) (seq 0 n).

(** The rows of the two spins. (ssrpa.py 102-103, rpa.py 70-71) *)
Definition xpy_a (s : sol) : mt := s_xpy s.
Definition xpy_b (s : sol) : mt := fun p n => s_xpy s (s_na s + p)%nat n.

(** gen_moms: the moment of order x. (ssrpa.py 312-326) *)
Definition gen_mom (s : sol) (x : nat) : mt :=
  let f n := pw (s_f s n) x in
  let aa := fun p q => Sum (s_n s) (fun n => xpy_a s p n * f n * xpy_a s q n) in
  let bb := fun p q => Sum (s_n s) (fun n => xpy_b s p n * f n * xpy_b s q n) in
  let ab := fun p q => Sum (s_n s) (fun n => xpy_a s p n * f n * xpy_b s q n) in
  blk (s_na s) (s_na s) aa ab (tr ab) bb.

(** kernel without exchange-correlation kernel, from the energies, the rotation and the interaction.
    (ssrpa.py 72-115 with 207-235; ssurpa.py 88-113) *)
Definition kernel0 (nova novb : nat) (er : vec * vec * option rot) (fullv : mt) (alpha : K) : result sol :=
  let '(epsa, epsb, r) := er in
  let na := dim_a nova r in let nb := dim_b novb r in let n := (na + nb)%nat in
  let amb := amb0 na epsa epsb in
  let apb := apb0 nova novb r epsa epsb fullv alpha in
  let '(e, c) := eigh n (m0 amb apb) in
  let f := fun i => sq (e i) in
  if all_above n e then
    Ret {| s_na := na; s_nb := nb; s_f := f;
           s_xpy := fun p i => inv (sq (f i)) * sq (amb p) * c p i;
           s_xmy := fun p i => sq (f i) * inv (sq (amb p)) * c p i;
           s_e := (Sum n f - Sum na epsa - Sum nb epsb - trace (nova + novb) fullv) * hlf;
           s_rot := r |}
  else AssertErr.

(** ssRPA(mf, ov_rot=r).kernel(alpha=alpha). (ssrpa.py 72-115) *)
Definition ssrpa (nocc nvir : nat) (moe : vec) (eri : ten) (r : option rot) (alpha : K) : result sol :=
  let nov := (nocc * nvir)%nat in
  rbind (gen_eps_r nov (gen_eps nocc nvir moe) r) (fun er => kernel0 nov nov er (get_k_r nocc nvir eri) alpha).

(** ssURPA(mf, ov_rot=r).kernel(alpha=alpha). (ssurpa.py 9-150, ssrpa.py 72-115) *)
Definition ssurpa (noa nva nob nvb : nat) (moea moeb : vec) (eaa eab ebb : ten) (r : option rot) (alpha : K)
  : result sol :=
  rbind (gen_eps_u (noa * nva) (nob * nvb) (gen_eps noa nva moea) (gen_eps nob nvb moeb) r)
    (fun er => kernel0 (noa * nva) (nob * nvb) er (get_k_u noa nva nob nvb eaa eab ebb) alpha).

(** A+B and A-B with kernel. (ssrpa.py 223-229, ssurpa.py 103-108) *)
Definition arrays_xc (o : orbs) (er : vec * vec * option rot) (fullv : mt) (x : xck) (alpha : K) : mt * mt :=
  let '(epsa, epsb, r) := er in
  let '(px, mx) := xc_contribs o r x alpha in
  (madd (apb0 (ova o) (ovb o) r epsa epsb fullv alpha) px, madd (dg (amb0 (dim_a (ova o) r) epsa epsb)) mx).

(** The energy correction of version 3, the one [kernel] uses. (ssrpa.py 121-125, 167-169; the arrays are those at full
    coupling) *)
Definition e_version3 (n : nat) (eta apb amb apx amx : mt) : K :=
  let bx := msc hlf (msub apx amx) in
  hlf * trace n (msub (mm n eta (msub apb (msc hlf bx))) (msub (msc hlf (madd apb amb)) (msc hlf bx))).

(** kernel with exchange-correlation kernel. (ssrpa.py 72-115, 117-125; the second call of _gen_arrays diagonalises
    the rotated energies once more, here it is taken to change nothing) *)
Definition kernel_xc (o : orbs) (er : vec * vec * option rot) (fullv : mt) (x : xck) (alpha : K) : result sol :=
  let '(epsa, epsb, r) := er in
  let na := dim_a (ova o) r in let nb := dim_b (ovb o) r in let n := (na + nb)%nat in
  let '(apb, amb) := arrays_xc o er fullv x alpha in
  let '(e, c) := eigh n (mxc n amb apb) in
  let f := fun i => sq (e i) in
  if all_above n e then
    let '(e2, c2) := eigh n amb in
    if all_above n e2 then
      let rt := fun p q => Sum n (fun k => c2 p k * sq (e2 k) * c2 q k) in
      let rti := fun p q => Sum n (fun k => c2 p k * inv (sq (e2 k)) * c2 q k) in
      let s := {| s_na := na; s_nb := nb; s_f := f;
                  s_xpy := fun p i => Sum n (fun q => inv (sq (f i)) * rt p q * c q i);
                  s_xmy := fun p i => Sum n (fun q => sq (f i) * rti p q * c q i);
                  s_e := 0; s_rot := r |} in
      let '(apb1, amb1) := arrays_xc o er fullv x 1 in
      let '(px, mx) := xc_contribs o r x 1 in
      Ret {| s_na := na; s_nb := nb; s_f := f; s_xpy := s_xpy s; s_xmy := s_xmy s;
             s_e := e_version3 n (gen_mom s 0) apb1 amb1 px mx; s_rot := r |}
    else AssertErr
  else AssertErr.

(** solve_RPA_problem of the class RPA (n: half the dimension). (rpa.py 58-72) *)
Definition solve (n : nat) (apb amb : mt) : result sol :=
  let n2 := (n + n)%nat in
  let rt := sqrtm n2 amb in
  let '(e, c) := eigh n2 (mm n2 (mm n2 rt apb) rt) in
  let f := fun i => sq (e i) in
  if all_above n2 e then
    Ret {| s_na := n; s_nb := n; s_f := f;
           s_xpy := fun p i => inv (sq (f i)) * mm n2 rt c p i;
           s_xmy := fun p i => sq (f i) * mm n2 (minv n2 rt) c p i;
           s_e := hlf * (Sum n2 f - hlf * (trace n2 apb + trace n2 amb)); s_rot := None |}
  else AssertErr.

(** combine_spin_components. (rpa.py 98-102) *)
Definition combine (n : nat) (k : mt * mt) : mt := blk n n (fst k) (snd k) (snd k) (fst k).

(** The kernel argument of RPA.kernel. (rpa.py 134, 147, 166-169) *)
Inductive rpak := Drpa | Rpax | Given (pss mss psf msf : mt * mt).

(** get_interaction_kernel. (rpa.py 120-171) *)
Definition interaction (nocc nvir : nat) (eri : ten) (x : rpak) : (mt * mt) * (mt * mt) * (mt * mt) * (mt * mt) :=
  let v := ovov nocc nvir nocc nvir eri in
  match x with
  | Drpa => (((fun p q => (1 + 1) * v p q), (fun p q => (1 + 1) * v p q)), (zm, zm), (zm, zm), (zm, zm))
  | Rpax =>
    let ka : mt := fun p q => eri (p / nvir)%nat (q / nvir)%nat (nocc + p mod nvir)%nat (nocc + q mod nvir)%nat in
    let kb : mt := fun p q => eri (p / nvir)%nat (nocc + q mod nvir)%nat (q / nvir)%nat (nocc + p mod nvir)%nat in
    (((fun p q => (1 + 1) * v p q - ka p q - kb p q), (fun p q => (1 + 1) * v p q)),
     ((fun p q => kb p q - ka p q), zm),
     ((fun p q => - ka p q), (fun p q => - kb p q)),
     ((fun p q => - ka p q), kb))
  | Given a b c d => (a, b, c, d)
  end.

(** _build_arrays. (rpa.py 88-118) *)
Definition build (nocc nvir : nat) (moe : vec) (eri : ten) (x : rpak) : mt * mt * mt * mt :=
  let n := (nocc * nvir)%nat in
  let eps := gen_eps nocc nvir moe in
  let '(pss, mss, psf, msf) := interaction nocc nvir eri x in
  let d := dg (vcat n eps eps) in
  (madd (combine n pss) d, madd (combine n mss) d, madd (combine n psf) d, madd (combine n msf) d).

(** RPA.kernel: both solutions; the energy of each is halved for "rpax", the total is their sum.
    (rpa.py 39-44, 50-86) *)
Definition rpa (nocc nvir : nat) (moe : vec) (eri : ten) (x : rpak) : result (sol * sol * K) :=
  let n := (nocc * nvir)%nat in
  let '(pss, mss, psf, msf) := build nocc nvir moe eri x in
  rbind (solve n pss mss) (fun ss => rbind (solve n psf msf) (fun sf =>
    let k := match x with Rpax => hlf | _ => 1 end in
    Ret (ss, sf, s_e ss * k + s_e sf * k))).
End M.
