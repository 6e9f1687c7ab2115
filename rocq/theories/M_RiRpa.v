(** Model of the RPA with low-rank integrals and numerical integration: vayesta/rpa/rirpa/RIRPA.py (class ssRIRRPA and
    the functions construct_product_RI, construct_inverse_RI, compress_low_rank), RIURPA.py (class ssRIURPA),
    RIdRRPA.py (class ssRIdRRPA), momzero_NI.py and energy_NI.py (the integrands), NI_eval.py (the sum over the points).

    Modelled: the matrices A+B and A-B as diagonal plus product of two rectangular matrices, built from density-fitted
    integrals (with or without negative part) and a low-rank kernel; the products, inverses and compressions of such
    forms; the integrands for all three values of [integral_deduct] and of the analytical offset; the sum over a grid;
    [kernel_moms], [kernel_trMPrt] and [kernel_energy] of the spin-orbital classes and of the spin-adapted class,
    including the compression of the target rotation and [return_spatial].

    Simplifications: floats are elements of an ordered commutative ring; 1/x is an arbitrary function [inv], x**0.5 an
    arbitrary function [sq], exp an arbitrary function [ex], sqrt(2), 1/2 and 1/pi constants [s2], [hlf], [ipi];
    numpy's inv, svd, eig and eigh are arbitrary functions of the dimension and the matrix.  The grid (points with
    weights, after optimisation of its spacing; NI_eval.py 146-207, 405-425) is an argument: a list of pairs.  A class with a
    restricted reference is the unrestricted one with equal data for the two spins ([restricted]).  The three-index
    integrals with occupied and virtual index are given (RIRPA.py 682-692, RIURPA.py 157-169), flattened as in the code.
    Left out: error estimates (they do not change the values returned), get_gap, direct_AC_integration (which divides a
    tuple by a float in its first line, RIRPA.py 427, and so always raises TypeError), test functions, memory records. *)
From Coq Require Import List Arith Lia Bool.
From Verif Require Import Alg Ord Mat M_ExtCorr M_SsRpa.
Import ListNotations.

Section M.
Context (K : oring).
Variables (inv sq ex : K -> K) (s2 hlf ipi : K).
Variables (minv : nat -> (nat -> nat -> K) -> (nat -> nat -> K)).
Variables (svd : nat -> (nat -> nat -> K) -> (nat -> nat -> K) * (nat -> K) * (nat -> nat -> K)).
Variables (eig eigh : nat -> (nat -> nat -> K) -> (nat -> K) * (nat -> nat -> K)).
Open Scope K_scope.
Notation vec := (nat -> K).
Notation mt := (nat -> nat -> K).
Notation t3 := (nat -> nat -> nat -> K).

(** A pair of arrays (L, R) of shape naux x n, standing for L^T R. (RIRPA.py 187-189) *)
Record lr := { ln : nat; lL : mt; lR : mt }.

(** [np.concatenate([a, b], axis=0)] for a with n rows. (RIRPA.py 626-630, 753-754) *)
Definition rcat (n : nat) (a b : mt) : mt := fun i j => if (i <? n)%nat then a i j else b (i - n)%nat j.
(** [np.concatenate([a, b], axis=1)] for a with n columns. (RIRPA.py 649, 678-679) *)
Definition ccat (n : nat) (a b : mt) : mt := fun i => vcat K n (a i) (b i).
(** [a * d[None]]. (momzero_NI.py 38, RIRPA.py 753) *)
Definition colsc (a : mt) (d : vec) : mt := fun i j => a i j * d j.
(** [-a]. (RIRPA.py 618) *)
Definition mneg (a : mt) : mt := fun i j => - a i j.
(** concatenation of two low-rank forms. (RIRPA.py 632-635) *)
Definition lcat (x y : lr) : lr :=
  {| ln := (ln x + ln y)%nat; lL := rcat (ln x) (lL x) (lL y); lR := rcat (ln x) (lR x) (lR y) |}.

(** Three-index integrals (auxiliary index; occupied-virtual pair) for both spins, with their negative part if there is one.
    (RIRPA.py 642-646, RIURPA.py 101-113; a negative part for one spin only raises, here there is one for both or none) *)
Record cderi := { cn : nat; ca : mt; cb : mt; cneg : option (nat * mt * mt) }.

(** A low-rank kernel in the basis of atomic orbitals: number of terms, left and right factors for alpha, then beta.
    (RIRPA.py 22-24) *)
Record rixc := { xn : nat; xla : t3; xra : t3; xlb : t3; xrb : t3 }.

(** What a calculation depends on: orbitals, orbital energies of both spins, integrals, kernel, compression level and its
    threshold. (RIRPA.py 49-67) *)
Record sys := { so : orbs K; sea : vec; seb : vec; sc : cderi; sx : option rixc; scomp : nat; stol : K }.

(** Numbers of alpha and beta excitations. (RIURPA.py 75-81) *)
Definition nA (s : sys) : nat := ova K (so s).
Definition nB (s : sys) : nat := ovb K (so s).
Definition nT (s : sys) : nat := (nA s + nB s)%nat.

(** Energies of the excitations, the diagonal D. (RIRPA.py 142-154, RIURPA.py 84-96) *)
Definition sD (s : sys) : vec :=
  vcat K (nA s) (gen_eps K (noa K (so s)) (nva K (so s)) (sea s)) (gen_eps K (nob K (so s)) (nvb K (so s)) (seb s)).

(** get_apb_eri_ri. (RIRPA.py 640-655, RIURPA.py 98-120) *)
Definition apb_eri (s : sys) : mt * option (nat * mt) :=
  (msc s2 (ccat (nA s) (ca (sc s)) (cb (sc s))),
   match cneg (sc s) with
   | None => None
   | Some (m, na, nb) => Some (m, msc s2 (ccat (nA s) na nb))
   end).

(** [einsum("npq,pi,qa->nia", x, co, cv)] and [einsum("npq,qi,pa->nia", x, co, cv)], flattened. (RIRPA.py 661, 671) *)
Definition mo3 (nao nv : nat) (x : t3) (co cv : mt) : mt := fun n y =>
  Sum nao (fun p => Sum nao (fun q => x n p q * co p (y / nv)%nat * cv q (y mod nv)%nat)).
Definition mo3t (nao nv : nat) (x : t3) (co cv : mt) : mt := fun n y =>
  Sum nao (fun p => Sum nao (fun q => x n p q * co q (y / nv)%nat * cv p (y mod nv)%nat)).

(** get_ab_xc_ri: contributions of the kernel to A and to B. (RIRPA.py 657-680, RIURPA.py 122-155) *)
Definition ab_xc (s : sys) (x : rixc) : lr * lr :=
  let o := so s in
  let f := fun t u => ccat (nA s) (mo3 (nao K o) (nva K o) t (coa K o) (cva K o)) (mo3 (nao K o) (nvb K o) u (cob K o) (cvb K o)) in
  let g := ccat (nA s) (mo3t (nao K o) (nva K o) (xra x) (coa K o) (cva K o))
                       (mo3t (nao K o) (nvb K o) (xrb x) (cob K o) (cvb K o)) in
  ({| ln := xn x; lL := f (xla x) (xlb x); lR := f (xra x) (xrb x) |},
   {| ln := xn x; lL := f (xla x) (xlb x); lR := g |}).

(** construct_RI_AB: the deviations of A+B and A-B from D. (RIRPA.py 606-635) *)
Definition ri_ab (s : sys) : lr * lr :=
  let '(e, eneg) := apb_eri s in
  let p0 := {| ln := cn (sc s); lL := e; lR := e |} in
  let p1 := match eneg with None => p0 | Some (m, en) => lcat p0 {| ln := m; lL := en; lR := mneg en |} end in
  let m0 := {| ln := 0; lL := fun _ _ => 0; lR := fun _ _ => 0 |} in
  match sx s with
  | None => (p1, m0)
  | Some x =>
    let '(a, b) := ab_xc s x in
    (lcat p1 {| ln := (ln a + ln b)%nat; lL := rcat (ln a) (lL a) (lL b); lR := rcat (ln a) (lR a) (lR b) |},
     lcat m0 {| ln := (ln a + ln b)%nat; lL := rcat (ln a) (lL a) (lL b); lR := rcat (ln a) (lR a) (mneg (lR b)) |})
  end.

(** construct_product_RI for arrays with n columns. (RIRPA.py 735-755) *)
Definition product_RI (n : nat) (D : vec) (r1 r2 : lr) : lr :=
  let U := mm n (lR r1) (tr (lL r2)) in
  {| ln := (ln r1 + ln r2)%nat;
     lL := rcat (ln r1) (lL r1) (madd (colsc (lL r2) D) (msc hlf (mm (ln r1) (tr U) (lL r1))));
     lR := rcat (ln r1) (madd (colsc (lR r1) D) (msc hlf (mm (ln r2) U (lR r2)))) (lR r2) |}.

(** construct_inverse_RI. (RIRPA.py 758-774) *)
Definition inverse_RI (n : nat) (D : vec) (r : lr) : lr :=
  let U := mm n (colsc (lR r) (fun p => inv (D p))) (tr (lL r)) in
  let '(u, s, v) := svd (ln r) (minv (ln r) (madd idm U)) in
  let urt_l := fun i m => u i m * sq (s m) in
  let urt_r := fun m i => sq (s m) * v m i in
  {| ln := ln r;
     lL := fun m p => Sum (ln r) (fun i => inv (D p) * lL r i p * urt_l i m);
     lR := fun m p => Sum (ln r) (fun i => inv (D p) * lR r i p * urt_r m i) |}.

(** Numbers of the eigenvalues above the threshold. (RIRPA.py 784-786, RIdRRPA.py 247-248) *)
Definition want (n : nat) (tol : K) (e : vec) : list nat := filter (fun i => ltb tol (e i)) (seq 0 n).

(** compress_low_rank: rotation of both factors to eigenvectors of their product. (RIRPA.py 777-804) *)
Definition compress_lr (n : nat) (tol : K) (r : lr) : lr :=
  let '(e, c) := eig (ln r) (mm n (lL r) (tr (lR r))) in
  let w := want (ln r) tol e in
  let rot := fun i j => c i (nth j w 0%nat) in
  {| ln := length w; lL := mm (ln r) (tr rot) (lL r); lR := mm (ln r) (tr rot) (lR r) |}.

(** compression if the level is above k. (RIRPA.py 332, 588, 595) *)
Definition comp_if (k : nat) (s : sys) (n : nat) (r : lr) : lr := if (k <? scomp s)%nat then compress_lr n (stol s) r else r.

(** Scaling of both factors by alpha**0.5. (RIRPA.py 591-592) *)
Definition lr_sc (x : K) (r : lr) : lr := {| ln := ln r; lL := fun i j => lL r i j * x; lR := fun i j => lR r i j * x |}.

(** get_compressed_MP: forms of (A-B)(A+B), A+B and A-B. (RIRPA.py 585-597) *)
Definition comp_MP (s : sys) (alpha : K) : lr * lr * lr :=
  let '(apb, amb) := ri_ab s in
  let apb := lr_sc (sq alpha) (comp_if 3 s (nT s) apb) in
  let amb := lr_sc (sq alpha) (comp_if 3 s (nT s) amb) in
  (comp_if 0 s (nT s) (product_RI (nT s) (sD s) amb apb), apb, amb).

(** get_F. (momzero_NI.py 31-32, energy_NI.py 32-33) *)
Definition get_F (D : vec) (z : K) : vec := fun p => inv (D p * D p + z * z).
(** get_Q. (momzero_NI.py 34-39, energy_NI.py 35-40) *)
Definition get_Q (n : nat) (D : vec) (S : lr) (z : K) : mt := mm n (lR S) (tr (colsc (lL S) (get_F D z))).

(** MomzeroDeductNone.eval_contrib. (momzero_NI.py 91-105; diagmat2 is not set in this class) *)
Definition contrib_none (n : nat) (D : vec) (S : lr) (rot : mt) (z : K) : mt :=
  let F := get_F D z in
  let lrot := colsc rot F in
  let res := mm (ln S) (mm (ln S) (mm n lrot (tr (lL S))) (minv (ln S) (madd idm (get_Q n D S z)))) (colsc (lR S) F) in
  fun i j => (rot i j + z * z * (res i j - lrot i j)) * ipi.

(** MomzeroDeductD.eval_contrib. (momzero_NI.py 113-122) *)
Definition contrib_D (n : nat) (D : vec) (S : lr) (rot : mt) (z : K) : mt :=
  let F := get_F D z in
  let lrot := colsc rot F in
  let res := mm (ln S) (mm (ln S) (mm n lrot (tr (lL S))) (minv (ln S) (madd idm (get_Q n D S z)))) (colsc (lR S) F) in
  fun i j => z * z * res i j * ipi.

(** MomzeroDeductHigherOrder.eval_contrib, for a given Q. (momzero_NI.py 158-167) *)
Definition contrib_HO (n : nat) (Q : mt) (D : vec) (S : lr) (rot : mt) (z : K) : mt :=
  let F := get_F D z in
  let lrot := colsc rot F in
  let va := msub (minv (ln S) (madd idm Q)) idm in
  let res := mm (ln S) (mm (ln S) (mm n lrot (tr (lL S))) va) (colsc (lR S) F) in
  fun i j => z * z * res i j * ipi.

(** BaseMomzeroOffset.eval_contrib. (momzero_NI.py 186-192) *)
Definition contrib_off (n : nat) (D : vec) (S : lr) (rot : mt) (z : K) : mt :=
  let e := fun p => ex (- (z * D p)) in
  mm (ln S) (mm n (colsc rot e) (tr (lL S))) (colsc (lR S) e).

(** _NI_eval: sum of weight times value over the grid. (NI_eval.py 65-74, 283-307) *)
Definition ni (g : list (K * K)) (f : K -> mt) : mt := fun i j => Lsum g (fun pw => snd pw * f (fst pw) i j).

(** The argument [integral_deduct]. (RIRPA.py 172-176) *)
Inductive deduct := HO | DD | DNone | DOther.

(** mult_apbinv. (RIRPA.py 331-336) *)
Definition mult_apbinv (s : sys) (n : nat) (D : vec) (int : mt) (r : lr) : mt :=
  let r := comp_if 5 s n r in
  msub (colsc int (fun p => inv (D p))) (mm (ln r) (mm n int (tr (lL r))) (lR r)).

(** The arguments of [kernel_moms] beside order and rotation: grids of the two integrations (which depend on npoints, ainit
    and opt_quad), integral_deduct, adaptive_quad, alpha. (RIRPA.py 232-244) *)
Record kw := { gi : list (K * K); gl : list (K * K); kd : deduct; adaptive : bool; kalpha : K }.

(** _kernel_mom0 for given forms.  With adaptive_quad the pair (integral, error) is doubled as a tuple, so that four
    values are unpacked into two names. (RIRPA.py 265-329) *)
Definition mom0 (s : sys) (mp apb : lr) (rot : mt) (a : kw) : result mt :=
  let n := nT s in let D := sD s in
  let z0 := fun (_ _ : nat) => (0 : K) in
  let pair := match kd a with
    | DD => Ret (contrib_D n D mp rot, colsc rot D)
    | DNone => Ret (contrib_none n D mp rot, z0)
    | HO => Ret ((fun z => contrib_HO n (get_Q n D mp z) D mp rot z), madd (colsc rot D) (ni (gl a) (contrib_off n D mp rot)))
    | DOther => ValueErr
    end in
  rbind pair (fun '(f, off) =>
    if adaptive a then ValueErr
    else Ret (mult_apbinv s n D (madd (ni (gi a) f) off) (inverse_RI n D apb))).

(** The sequence of moments from the first two by a recursion of step two. (RIRPA.py 211-222, RIdRRPA.py 32-66) *)
Fixpoint mom_seq (m0 m1 : mt) (step : mt -> mt) (i : nat) : mt :=
  match i with O => m0 | S O => m1 | S (S j) => step (mom_seq m0 m1 step j) end.

(** kernel_moms; the forms are those of get_compressed_MP without argument, whatever alpha is. (RIRPA.py 156-230) *)
Definition kernel_moms (s : sys) (maxm : nat) (target : option mt) (a : kw) : result (list mt) :=
  let rot := match target with None => idm | Some r => r end in
  let '(mp, apb, amb) := comp_MP s 1 in
  rbind (mom0 s mp apb rot a) (fun m0 =>
    let m1 := madd (colsc rot (sD s)) (mm (ln amb) (mm (nT s) rot (tr (lL amb))) (lR amb)) in
    let step := fun m => madd (colsc m (fun p => sD s p * sD s p)) (mm (ln mp) (mm (nT s) m (tr (lR mp))) (lL mp)) in
    Ret (map (mom_seq m0 m1 step) (seq 0 (S maxm)))).

(** Sum of the products of all entries of two arrays of shape k x n. ([np.tensordot(a, b, ((0, 1), (0, 1)))],
    energy_NI.py 101, RIRPA.py 381, RIdRRPA.py 199) *)
Definition tdot (k n : nat) (a b : mt) : K := Sum k (fun i => Sum n (fun p => a i p * b i p)).

(** NITrRootMP.eval_contrib, for a given Q. (energy_NI.py 96-103) *)
Definition contrib_tr (n : nat) (Q : mt) (D : vec) (S : lr) (z : K) : K :=
  let F := get_F D z in
  let va := msub (minv (ln S) (madd idm Q)) idm in
  let lhs := mm (ln S) va (colsc (lL S) F) in
  z * z * tdot (ln S) n lhs (colsc (lR S) F) * ipi.

(** the same sum over the grid for a number. (NI_eval.py 65-74) *)
Definition ni1 (g : list (K * K)) (f : K -> K) : K := Lsum g (fun pw => snd pw * f (fst pw)).

(** kernel_trMPrt. (RIRPA.py 373-382) *)
Definition trMPrt (s : sys) (g : list (K * K)) : K :=
  let '(mp, _, _) := comp_MP s 1 in
  let n := nT s in let D := sD s in
  ni1 g (fun z => contrib_tr n (get_Q n D mp z) D mp z)
  + (Sum n D + hlf * tdot (ln mp) n (colsc (lL mp) (fun p => inv (D p))) (lR mp)).

(** kernel_energy; [linear]: whether the argument [correction] is "linear".  Grids: of the trace, and of the two integrations
    of the zeroth moment (with the default arguments). (RIRPA.py 384-411) *)
Definition kernel_energy (s : sys) (linear : bool) (g g1 g2 : list (K * K)) : result K :=
  let n := nT s in
  let e1 := trMPrt s g in
  let '(e, eneg) := apb_eri s in
  let e3 := Sum n (sD s) + tdot (cn (sc s)) n e e * hlf in
  let e3 := match eneg with None => e3 | Some (m, en) => e3 - tdot m n en en * hlf end in
  match sx s, linear with
  | Some x, true =>
    let '(a_xc, b_xc) := ab_xc s x in
    rbind (kernel_moms s 0 (Some (lL b_xc)) {| gi := g1; gl := g2; kd := HO; adaptive := false; kalpha := 1 |}) (fun moms =>
      let eta0 := nth 0 moms (fun _ _ => 0) in
      let val := trace (ln b_xc) (mm n eta0 (tr (lR b_xc))) * hlf in
      let e3 := e3 + (tdot (ln a_xc) n (lL a_xc) (lR a_xc) - tdot (ln b_xc) n (lL b_xc) (lR b_xc) * hlf) in
      Ret (hlf * (e1 + - val - e3)))
  | _, _ => Ret (hlf * (e1 + 0 - e3))
  end.

(** ** The spin-adapted class for direct RPA *)
(** What it depends on: numbers of orbitals, orbital energies, integrals of one spin. (RIdRRPA.py 11-12, RIRPA.py 49-67) *)
Record dsys := { dno : nat; dnv : nat; dmoe : vec; dn : nat; dl : mt; dneg : option (nat * mt); dcomp : nat; dtol : K }.
Definition dov (s : dsys) : nat := (dno s * dnv s)%nat.
Definition deps (s : dsys) : vec := gen_eps K (dno s) (dnv s) (dmoe s).

(** The same calculation for the spin-orbital classes, for any coefficients. (RIRPA.py 142-154, 649-653) *)
Definition restricted (s : dsys) (o : nat) (co cv : mt) : sys :=
  {| so := {| nao := o; noa := dno s; nva := dnv s; nob := dno s; nvb := dnv s; coa := co; cva := cv; cob := co; cvb := cv |};
     sea := dmoe s; seb := dmoe s;
     sc := {| cn := dn s; ca := dl s; cb := dl s; cneg := match dneg s with None => None | Some (m, l) => Some (m, l, l) end |};
     sx := None; scomp := dcomp s; stol := dtol s |}.

(** compression if the level is above k. (RIdRRPA.py 221, 228) *)
Definition dcomp_if (k : nat) (s : dsys) (r : lr) : lr := if (k <? dcomp s)%nat then compress_lr (dov s) (dtol s) r else r.

(** get_compressed_MP of the spin-adapted class (without the empty A-B). (RIdRRPA.py 210-230) *)
Definition dcomp_MP (s : dsys) (alpha : K) : lr * lr :=
  let apb := match dneg s with
    | None => {| ln := dn s; lL := dl s; lR := dl s |}
    | Some (m, l) => {| ln := (dn s + m)%nat; lL := rcat (dn s) (dl s) l; lR := rcat (dn s) (dl s) (mneg l) |}
    end in
  let apb := dcomp_if 3 s apb in
  let apb := {| ln := ln apb; lL := fun i j => lL apb i j * s2 * sq alpha; lR := fun i j => lR apb i j * s2 * sq alpha |} in
  (dcomp_if 0 s {| ln := ln apb; lL := colsc (lL apb) (deps s); lR := lR apb |}, apb).

(** MomzeroDeductHigherOrder_dRHF: Q is doubled. (momzero_NI.py 236-242, energy_NI.py 110-112) *)
Definition dQ (n : nat) (D : vec) (S : lr) (z : K) : mt := msc (1 + 1) (get_Q n D S z).

(** A target rotation: its number of rows, and whether its columns are spin orbitals or spatial orbitals.
    (RIdRRPA.py 232-242; the test is on the number of columns) *)
Record trot := { tn : nat; tspin : bool; tm : mt }.

(** compress_target_rot for an array with n rows and nov columns: the rotation, and the matrix that undoes it.
    (RIdRRPA.py 244-251) *)
Definition comp_trot (nov n : nat) (tol : K) (t : mt) : nat * mt * option (nat * mt) :=
  let '(e, c) := eigh n (mm nov t (tr t)) in
  let w := want n tol e in
  let rot := fun i j => c i (nth j w 0%nat) in
  if (length w =? nov)%nat then (n, t, None) else (length w, mm n (tr rot) t, Some (length w, rot)).

(** The spin-independent part of the zeroth moment for a spatial rotation. (RIdRRPA.py 111-148) *)
Definition dmom0_si (s : dsys) (mp apb : lr) (rot : mt) (a : kw) : mt :=
  let n := dov s in let eps := deps s in
  let int := madd (ni (gi a) (fun z => contrib_HO n (dQ n eps mp z) eps mp rot z)) (ni (gl a) (contrib_off n eps mp rot)) in
  let ei := fun p => inv (eps p) in
  let u := minv (ln apb) (madd idm (msc (1 + 1) (mm n (colsc (lL apb) ei) (tr (lR apb))))) in
  msub (colsc int ei)
       (mm (ln apb) (mm (ln apb) (mm n (madd (colsc rot eps) (msc (1 + 1) int)) (tr (colsc (lR apb) ei))) u)
           (colsc (lL apb) ei)).

(** _kernel_mom0 of the spin-adapted class; NotImplementedError is reported like a ValueError. (RIdRRPA.py 91-177; tolerance of
    the compression of the rotation: [ttol]) *)
Definition dmom0 (s : dsys) (ttol : K) (mp apb : lr) (t : trot) (spatial : bool) (a : kw) : result mt :=
  let n := dov s in
  match adaptive a, kd a with
  | false, HO =>
    if tspin t then
      if spatial then ValueErr
      else
        let st := rcat (tn t) (tm t) (fun i j => tm t i (n + j)%nat) in
        let '(m, r, back) := comp_trot n (tn t + tn t) ttol st in
        let si := dmom0_si s mp apb r a in
        let '(r, si) := match back with None => (r, si) | Some (m, c) => (mm m c r, mm m c si) end in
        let k := ((tn t + tn t) / 2)%nat in
        Ret (ccat n (fun i j => r i j + si i j + si (k + i)%nat j)
                    (fun i j => r (k + i)%nat j + si (k + i)%nat j + si i j))
    else
      let si := dmom0_si s mp apb (tm t) a in
      if spatial then Ret (madd (tm t) (msc (1 + 1) si))
      else Ret (ccat n (madd (tm t) si) si)
  | _, _ => ValueErr
  end.

(** kernel_moms of the spin-adapted class. (RIdRRPA.py 15-74) *)
Definition dkernel_moms (s : dsys) (ttol : K) (maxm : nat) (target : option trot) (spatial : bool) (a : kw)
  : result (list mt) :=
  let n := dov s in let eps := deps s in
  let t := match target with
    | None => if spatial then {| tn := n; tspin := false; tm := idm |} else {| tn := (n + n)%nat; tspin := true; tm := idm |}
    | Some t => t end in
  let '(mp, apb) := dcomp_MP s 1 in
  rbind (dmom0 s ttol mp apb t spatial a) (fun m0 =>
    let e2 := fun p => eps p * eps p in
    let '(m1, step) :=
      if spatial then
        (colsc (tm t) eps, fun m => madd (colsc m e2) (msc (1 + 1) (mm (ln mp) (mm n m (tr (lR mp))) (lL mp))))
      else
        ((if tspin t then colsc (tm t) (vcat K n eps eps) else ccat n (colsc (tm t) eps) (fun _ _ => 0)),
         fun m => let bb := fun i j => m i (n + j)%nat in
           let vv := mm (ln mp) (mm n (madd m bb) (tr (lR mp))) (lL mp) in
           ccat n (madd vv (colsc m e2)) (madd vv (colsc bb e2))) in
    Ret (map (mom_seq m0 m1 step) (seq 0 (S maxm)))).

(** kernel_trMPrt of the spin-adapted class. (RIdRRPA.py 179-188, energy_NI.py 106-115) *)
Definition dtrMPrt (s : dsys) (g : list (K * K)) : K :=
  let '(mp, _) := dcomp_MP s 1 in
  let n := dov s in let D := deps s in
  ni1 g (fun z => (1 + 1) * contrib_tr n (dQ n D mp z) D mp z)
  + ((1 + 1) * Sum n D + tdot (ln mp) n (colsc (lL mp) (fun p => inv (D p))) (lR mp)).

(** kernel_energy of the spin-adapted class. (RIdRRPA.py 190-208) *)
Definition dkernel_energy (s : dsys) (g : list (K * K)) : K :=
  let n := dov s in
  let e1 := dtrMPrt s g in
  let e3 := (1 + 1) * (Sum n (deps s) + tdot (dn s) n (dl s) (dl s)) in
  let e3 := match dneg s with None => e3 | Some (m, l) => e3 - (1 + 1) * tdot m n l l end in
  hlf * (e1 + 0 - e3).
End M.
