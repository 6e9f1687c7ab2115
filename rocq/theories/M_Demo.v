(** Model of democratically partitioned density matrices: vayesta/core/qemb/rdm.py 7-50 (restricted 1-DM), 53-99 (unrestricted 1-DM),
    104-252 (restricted 2-DM), 256-350 (unrestricted 2-DM).
    Simplifications: real arrays as functions of their indices over a commutative ring with 1/2 ([half]); everything in the MO basis
    (ao_basis=False), the MOs being orthonormal and complete, so that overlaps with other orbitals are products of their MO coefficients;
    one MPI rank; the loop over contributing fragments runs over a list. *)
From Coq Require Import List Arith Bool.
From Verif Require Import Alg M_Rdm.
Import ListNotations.

Section Demo.
Context {K : cring}.
Open Scope K_scope.
Variable half : K.
Notation mat := (nat -> nat -> K).
Notation ten := (nat -> nat -> nat -> nat -> K).

(** One spin of a fragment: number of cluster orbitals, of fragment orbitals, MO coefficients of both (get_overlap("mo|cluster"), get_overlap("mo|frag")) *)
Record orbs := { nclu : nat; nfrg : nat; rx : mat; fx : mat }.
(** get_overlap("cluster|frag|cluster"), qemb/fragment.py 321-325 *)
Definition cl_fr (nmo : nat) (o : orbs) : mat := fun x f => Sum nmo (fun p => rx o p x * fx o p f).
Definition px (nmo : nat) (o : orbs) : mat := fun x i => Sum (nfrg o) (fun f => cl_fr nmo o x f * cl_fr nmo o i f).
(** get_overlap("mo|frag|mo") and get_overlap("mo|mo[occ]|frag|mo") *)
Definition pmo (o : orbs) : mat := fun p q => Sum (nfrg o) (fun f => fx o p f * fx o q f).
Definition pocc (nocc : nat) (o : orbs) : mat := fun p q => if (p <? nocc)%nat then pmo o p q else 0.
(** einsum("xi,ij,px,qj->pq", px, dm1x, rx, rx), 41 *)
Definition proj1 (nmo : nat) (o : orbs) (d : mat) : mat := fun p q =>
  Sum (nclu o) (fun x => Sum (nclu o) (fun i => Sum (nclu o) (fun j => px nmo o x i * d i j * rx o p x * rx o q j))).
(** dot(rx, dm1x, rx.T), 202 *)
Definition to_mo (o : orbs) (d : mat) : mat := fun p q => Sum (nclu o) (fun i => Sum (nclu o) (fun j => rx o p i * d i j * rx o q j)).
(** einsum("xi,ijkl,px,qj,rk,sl->pqrs", px, dm2x, rx, rx, rx, rx), 231, and with different orbitals of the second pair, 313 *)
Definition proj2 (nmo : nat) (o o' : orbs) (d : ten) : ten := fun p q r s =>
  Sum (nclu o) (fun x => Sum (nclu o) (fun i => Sum (nclu o) (fun j => Sum (nclu o') (fun k => Sum (nclu o') (fun l =>
    px nmo o x i * d i j k l * rx o p x * rx o q j * rx o' r k * rx o' s l))))).
(** einsum("xk,ijkl,pi,qj,rx,sl->pqrs", pxb, dm2xab, rxa, rxa, rxb, rxb), 314 *)
Definition proj2b (nmo' : nat) (o o' : orbs) (d : ten) : ten := fun p q r s =>
  Sum (nclu o') (fun x => Sum (nclu o) (fun i => Sum (nclu o) (fun j => Sum (nclu o') (fun k => Sum (nclu o') (fun l =>
    px nmo' o' x k * d i j k l * rx o p i * rx o q j * rx o' r x * rx o' s l))))).
Definition plus1 (x y : mat) : mat := fun p q => x p q + y p q.
Definition plus2 (x y : ten) : ten := fun p q r s => x p q r s + y p q r s.
Definition scale2 (c : K) (x : ten) : ten := fun p q r s => c * x p q r s.
(** (dm1 + dm1.T) / 2 and (dm2 + dm2.transpose(1, 0, 3, 2)) / 2 *)
Definition sym1 (b : bool) (d : mat) : mat := if b then fun p q => half * (d p q + d q p) else d.
Definition sym2 (b : bool) (d : ten) : ten := if b then fun p q r s => half * (d p q r s + d q p s r) else d.
(** einsum("ij,kl->ijkl", a, b) and einsum("ij,kl->iklj", a, b) *)
Definition outer (a b : mat) : ten := fun i j k l => a i j * b k l.
Definition outer_x (a b : mat) : ten := fun p q r s => a p s * b q r.

(** ** Restricted. A fragment with results: orbitals, 1-DM without mean field, approximate and exact cumulant of the cluster wave function
    (C44 and C45 are about these; the fallback if it is not implemented, 194-197, is the exact cumulant as well) *)
Record rfrag := { r_o : orbs; r_dm1 : mat; r_approx : ten; r_exact : ten }.
(** make_rdm1_demo_rhf, 7-50 *)
Definition rdm1_demo (nmo nocc : nat) (frags : list rfrag) (with_mf symmetrize : bool) : mat :=
  let dm1 := fold_left (fun dm1 x => plus1 dm1 (proj1 nmo (r_o x) (r_dm1 x))) frags (fun _ _ => 0) in
  let dm1 := if with_mf then add_diag nocc two dm1 else dm1 in
  sym1 symmetrize dm1.
(** 199-229: mixed products of the literature DMET energy *)
Definition mixed (nmo nocc : nat) (x : rfrag) (dm2 : ten) : ten :=
  let dm1x := add_diag nocc 1 (to_mo (r_o x) (r_dm1 x)) in
  let pdm1x : mat := fun p q => Sum nmo (fun r => pmo (r_o x) p r * dm1x r q) in
  let p := pocc nocc (r_o x) in
  let dm2 := plus2 dm2 (scale2 two (outer p dm1x)) in
  let dm2 := plus2 dm2 (scale2 (- (1)) (outer_x p dm1x)) in
  for_range nocc (fun i y => add__ii_ i (- (1)) pdm1x (add___ii i two pdm1x y)) dm2.
(** Body of the loop over fragments, 182-231 *)
Definition rdm2_step (nmo nocc : nat) (with_dm1 part_cumulant approx_cumulant : bool) (dm2 : ten) (x : rfrag) : ten :=
  if part_cumulant || negb with_dm1 then
    plus2 dm2 (proj2 nmo (r_o x) (r_o x) (if approx_cumulant then r_approx x else r_exact x))
  else plus2 (mixed nmo nocc x dm2) (proj2 nmo (r_o x) (r_o x) (r_approx x)).
(** make_rdm2_demo_rhf, 104-252 (its argument with_mf is not used) *)
Definition rdm2_demo (nmo nocc : nat) (frags : list rfrag) (with_dm1 part_cumulant approx_cumulant symmetrize : bool) : ten :=
  let dm2 := fold_left (rdm2_step nmo nocc with_dm1 part_cumulant approx_cumulant) frags (fun _ _ _ _ => 0) in
  let dm2 :=
    if with_dm1 && part_cumulant then
      if approx_cumulant then
        let ddm1 := add_diag nocc 1 (rdm1_demo nmo nocc frags false true) in
        for_range nocc (fun i x => add_i__i i (- (1)) ddm1 (add__ii_ i (- (1)) ddm1 (add___ii i two ddm1 (add_ii__ i two ddm1 x)))) dm2
      else
        let dm1 := rdm1_demo nmo nocc frags true true in
        plus2 dm2 (plus2 (outer dm1 dm1) (scale2 (- half) (outer_x dm1 dm1)))
    else dm2 in
  sym2 symmetrize dm2.

(** ** Unrestricted *)
Record ufrag := { u_a : orbs; u_b : orbs; u_dm1a : mat; u_dm1b : mat; u_approx : ten * ten * ten; u_exact : ten * ten * ten }.
(** make_rdm1_demo_uhf, 53-99 *)
Definition udm1_one (nmo nocc : nat) (o : ufrag -> orbs) (d : ufrag -> mat) (frags : list ufrag) (with_mf symmetrize : bool) : mat :=
  let dm1 := fold_left (fun dm1 x => plus1 dm1 (proj1 nmo (o x) (d x))) frags (fun _ _ => 0) in
  let dm1 := if with_mf then add_diag nocc 1 dm1 else dm1 in
  sym1 symmetrize dm1.
Definition udm1_demo (nmo nocc : nat * nat) (frags : list ufrag) (with_mf symmetrize : bool) : mat * mat :=
  (udm1_one (fst nmo) (fst nocc) u_a u_dm1a frags with_mf symmetrize, udm1_one (snd nmo) (snd nocc) u_b u_dm1b frags with_mf symmetrize).
(** Same-spin and opposite-spin loops over occupied orbitals, 294-305 and 325-336 *)
Definition loop_ss (nocc : nat) (d : mat) (x : ten) : ten :=
  for_range nocc (fun i x => add_i__i i (- (1)) d (add__ii_ i (- (1)) d (add___ii i 1 d (add_ii__ i 1 d x)))) x.
Definition loop_os (na nb : nat) (da db : mat) (x : ten) : ten :=
  for_range nb (fun i x => add___ii i 1 da x) (for_range na (fun i x => add_ii__ i 1 db x) x).
(** einsum("xi,ijkl->xjkl", p, ddm2) and einsum("xk,ijkl->ijxl", p, ddm2), 306-308 *)
Definition on1 (nmo : nat) (p : mat) (x : ten) : ten := fun a b c d => Sum nmo (fun i => p a i * x i b c d).
Definition on3 (nmo : nat) (p : mat) (x : ten) : ten := fun a b c d => Sum nmo (fun k => p c k * x a b k d).
(** Body of the loop over fragments, 266-315 *)
Definition udm2_step (nmo nocc : nat * nat) (with_dm1 part_cumulant approx_cumulant : bool) (dm2 : ten * ten * ten) (x : ufrag) : ten * ten * ten :=
  let '(aa, ab, bb) := dm2 in
  let na := fst nmo in let nb := snd nmo in
  let add (r : ten * ten * ten) (xx : ten * ten * ten) : ten * ten * ten :=
    let '(aa, ab, bb) := r in let '(xaa, xab, xbb) := xx in
    (plus2 aa (proj2 na (u_a x) (u_a x) xaa),
     plus2 ab (scale2 half (plus2 (proj2 na (u_a x) (u_b x) xab) (proj2b nb (u_a x) (u_b x) xab))),
     plus2 bb (proj2 nb (u_b x) (u_b x) xbb)) in
  if part_cumulant || negb with_dm1 then add (aa, ab, bb) (if approx_cumulant then u_approx x else u_exact x)
  else
    let da := add_diag (fst nocc) half (to_mo (u_a x) (u_dm1a x)) in
    let db := add_diag (snd nocc) half (to_mo (u_b x) (u_dm1b x)) in
    let daa := loop_ss (fst nocc) da (fun _ _ _ _ => 0) in
    let dbb := loop_ss (snd nocc) db (fun _ _ _ _ => 0) in
    let dab := loop_os (fst nocc) (snd nocc) da db (fun _ _ _ _ => 0) in
    let pa := pmo (u_a x) in let pb := pmo (u_b x) in
    add (plus2 aa (on1 na pa daa), plus2 ab (scale2 half (plus2 (on1 na pa dab) (on3 nb pb dab))), plus2 bb (on1 nb pb dbb)) (u_approx x).
(** make_rdm2_demo_uhf, 256-350: only the same-spin parts are symmetrised *)
Definition udm2_demo (nmo nocc : nat * nat) (frags : list ufrag) (with_dm1 part_cumulant approx_cumulant symmetrize : bool) : ten * ten * ten :=
  let '(aa, ab, bb) := fold_left (udm2_step nmo nocc with_dm1 part_cumulant approx_cumulant) frags ((fun _ _ _ _ => 0), (fun _ _ _ _ => 0), (fun _ _ _ _ => 0)) in
  let '(aa, ab, bb) :=
    if with_dm1 && part_cumulant then
      if approx_cumulant then
        let '(da, db) := udm1_demo nmo nocc frags false true in
        let da := add_diag (fst nocc) half da in let db := add_diag (snd nocc) half db in
        (loop_ss (fst nocc) da aa, loop_os (fst nocc) (snd nocc) da db ab, loop_ss (snd nocc) db bb)
      else
        let '(da, db) := udm1_demo nmo nocc frags true true in
        (plus2 aa (plus2 (outer da da) (scale2 (- (1)) (outer_x da da))), plus2 ab (outer da db),
         plus2 bb (plus2 (outer db db) (scale2 (- (1)) (outer_x db db))))
    else (aa, ab, bb) in
  (sym2 symmetrize aa, ab, sym2 symmetrize bb).
End Demo.
Arguments orbs : clear implicits.
Arguments rfrag : clear implicits.
Arguments ufrag : clear implicits.
