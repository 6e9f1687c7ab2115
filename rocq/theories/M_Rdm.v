(** Model of one- and two-particle density matrices of wave functions: vayesta/core/types/wf/mp2.py 23-56, ccsd.py 43-99 and
    290-297, rdm.py 27-71 and 137-216, and of the PySCF routines shipped with the code, vayesta/core/vpyscf/ccsd_rdm.py 32-47,
    260-276, 367-386 and uccsd_rdm.py 30-82, 398-423, 590-622.
    Simplifications: real arrays as functions of their indices with values in a commutative ring with 1/2 ([half]); no frozen
    orbitals, no AO representation; ndarray copies are not modelled (all functions are pure). *)
From Coq Require Import List Arith Bool.
From Verif Require Import Alg M_Wf M_Eris.
Import ListNotations.

Section Rdm.
Context {K : cring}.
Open Scope K_scope.
Variable half : K.
Notation mat := (nat -> nat -> K).
Notation ten := (nat -> nat -> nat -> nat -> K).

Definition two : K := 1 + 1.
(** doo + doo.T *)
Definition symm (d : mat) : mat := fun i j => d i j + d j i.
(** A matrix from its occupied-occupied, occupied-virtual, virtual-occupied and virtual-virtual blocks *)
Definition blocks (n : nat) (oo ov vo vv : mat) : mat := fun p q =>
  match (p <? n)%nat, (q <? n)%nat with
  | true, true => oo p q
  | true, false => ov p (q - n)%nat
  | false, true => vo (p - n)%nat q
  | false, false => vv (p - n)%nat (q - n)%nat
  end.
(** dm1[np.diag_indices(nocc)] += c *)
Definition add_diag (n : nat) (c : K) (d : mat) : mat := fun p q => if (p =? q)%nat && (p <? n)%nat then d p q + c else d p q.

(** ** MP2: RMP2_WaveFunction.make_rdm1, mp2.py 23-35 *)
Definition mp2_doo (n nv : nat) (t2 : ten) (with_mf : bool) : mat := fun i j =>
  let d := - (two * Sum n (fun k => Sum nv (fun a => Sum nv (fun b => t2 i k a b * t2 j k a b)))
              - Sum n (fun k => Sum nv (fun a => Sum nv (fun b => t2 i k a b * t2 k j a b)))) in
  if with_mf then d + delta i j else d.
Definition mp2_dvv (n nv : nat) (t2 : ten) : mat := fun a b =>
  two * Sum n (fun i => Sum n (fun j => Sum nv (fun c => t2 i j a c * t2 i j b c)))
  - Sum n (fun i => Sum n (fun j => Sum nv (fun c => t2 i j a c * t2 i j c b))).
Definition mp2_rdm1 (n nv : nat) (t2 : ten) (with_mf : bool) : mat :=
  blocks n (symm (mp2_doo n nv t2 with_mf)) (fun _ _ => 0) (fun _ _ => 0) (symm (mp2_dvv n nv t2)).

(** ** Loops over occupied orbitals that add one-particle terms to a two-particle array *)
Fixpoint for_range (n : nat) (f : nat -> ten -> ten) (x : ten) : ten :=
  match n with O => x | S m => f m (for_range m f x) end.
(** x[i, i, :, :] += c * d;  x[:, :, i, i] += c * d;  x[:, i, i, :] += c * d;  x[i, :, :, i] += c * d;  x[i, i, j, j] += c; x[i, j, j, i] += c *)
Definition add_ii__ (i : nat) (c : K) (d : mat) (x : ten) : ten := fun p q r s =>
  if (p =? i)%nat && (q =? i)%nat then x p q r s + c * d r s else x p q r s.
Definition add___ii (i : nat) (c : K) (d : mat) (x : ten) : ten := fun p q r s =>
  if (r =? i)%nat && (s =? i)%nat then x p q r s + c * d p q else x p q r s.
Definition add__ii_ (i : nat) (c : K) (d : mat) (x : ten) : ten := fun p q r s =>
  if (q =? i)%nat && (r =? i)%nat then x p q r s + c * d p s else x p q r s.
Definition add_i__i (i : nat) (c : K) (d : mat) (x : ten) : ten := fun p q r s =>
  if (p =? i)%nat && (s =? i)%nat then x p q r s + c * d q r else x p q r s.
Definition add_iijj (i j : nat) (c : K) (x : ten) : ten := fun p q r s =>
  if (p =? i)%nat && (q =? i)%nat && (r =? j)%nat && (s =? j)%nat then x p q r s + c else x p q r s.
Definition add_ijji (i j : nat) (c : K) (x : ten) : ten := fun p q r s =>
  if (p =? i)%nat && (q =? j)%nat && (r =? j)%nat && (s =? i)%nat then x p q r s + c else x p q r s.
Definition mtrans (d : mat) : mat := fun p q => d q p.

(** RMP2_WaveFunction.make_rdm2, mp2.py 37-56; [with_dm1] = false needs approx_cumulant = 1 *)
Definition mp2_rdm2 (n nv : nat) (t2 : ten) (with_dm1 : bool) : ten :=
  let dovov : ten := fun i a j b => (two + two) * t2 i j a b - two * t2 i j b a in
  let dm2 := put n n false true false true dovov (fun _ _ _ _ => 0) in
  let dm2 := put n n true false true false (tconj dovov) dm2 in
  if with_dm1 then
    let dm1 := add_diag n 1 (mp2_rdm1 n nv t2 false) in
    for_range n (fun i x => add_i__i i (- (1)) dm1 (add__ii_ i (- (1)) dm1 (add___ii i two dm1 (add_ii__ i two dm1 x)))) dm2
  else dm2.

(** ** CCSD, restricted: _gamma1_intermediates, ccsd_rdm.py 32-47 *)
Record gamma1 := { g_oo : mat; g_ov : mat; g_vo : mat; g_vv : mat }.
Definition cc_theta (t2 : ten) : ten := fun i j a b => two * t2 i j a b - t2 i j b a.
Definition cc_gamma1 (n nv : nat) (t1 : mat) (t2 : ten) (l1 : mat) (l2 : ten) : gamma1 :=
  let theta := cc_theta t2 in
  let xtv : mat := fun i m => Sum nv (fun e => t1 i e * l1 m e) in
  let xt1 : mat := fun m i => Sum n (fun k => Sum nv (fun e => Sum nv (fun f => l2 m k e f * theta i k e f))) in
  let xt2 : mat := fun e a => Sum n (fun m => Sum n (fun k => Sum nv (fun f => l2 m k a f * theta m k e f))) in
  {| g_oo := fun i j => - Sum nv (fun a => t1 j a * l1 i a)
                        - Sum n (fun k => Sum nv (fun a => Sum nv (fun b => theta j k a b * l2 i k a b)));
     g_ov := l1;
     g_vo := fun a i => t1 i a - Sum n (fun m => xtv i m * t1 m a)
                        + Sum n (fun m => Sum nv (fun e => theta i m a e * l1 m e))
                        - Sum n (fun m => xt1 m i * t1 m a)
                        - Sum nv (fun e => t1 i e * xt2 a e);
     g_vv := fun a b => Sum n (fun i => t1 i a * l1 i b)
                        + Sum n (fun j => Sum n (fun i => Sum nv (fun c => theta j i c a * l2 j i c b))) |}.
(** _make_rdm1, ccsd_rdm.py 267-276 *)
Definition cc_rdm1 (n : nat) (d : gamma1) (with_mf : bool) : mat :=
  let ov : mat := fun i a => g_ov d i a + g_vo d a i in
  let dm1 := blocks n (symm (g_oo d)) ov (mtrans ov) (symm (g_vv d)) in
  if with_mf then add_diag n two dm1 else dm1.
(** _make_rdm2, ccsd_rdm.py 296-386; the cumulant part [make_rdm2_rhf] is in M_Eris.v, without the final transposition here *)
Definition cc_add_dm1 (n : nat) (d1 : gamma1) (x : ten) : ten :=
  let dm1 := add_diag n (- two) (cc_rdm1 n d1 true) in
  let x := for_range n (fun i x => add_i__i i (- (1)) (mtrans dm1) (add__ii_ i (- (1)) dm1 (add___ii i two dm1 (add_ii__ i two dm1 x)))) x in
  for_range n (fun i x => for_range n (fun j x => add_ijji i j (- two) (add_iijj i j (two + two) x)) x) x.
Definition cc_rdm2 (n : nat) (d1 : gamma1) (d2 : dm2i K) (out : ten) (with_dm1 : bool) : ten :=
  if with_dm1 then tconj (cc_add_dm1 n d1 (tconj (make_rdm2_rhf n d2 out))) else make_rdm2_rhf n d2 out.

(** make_rdm2_non_cumulant, ccsd.py 96-99 and rdm.py 65-68 *)
Definition non_cumulant (dm1 : mat) : ten := fun i j k l => dm1 i j * dm1 k l - half * (dm1 i l * dm1 j k).
Inductive cumulant := Full | Approx | Exact.        (* with_dm1; not with_dm1 and approx_cumulant = 1; not with_dm1 and approx_cumulant = 0 *)
(** RCCSD_WaveFunction.make_rdm2, ccsd.py 61-94 *)
Definition ccsd_rdm2 (n : nat) (d1 : gamma1) (d2 : dm2i K) (out : ten) (c : cumulant) : ten :=
  match c with
  | Full => cc_rdm2 n d1 d2 out true
  | Approx => cc_rdm2 n d1 d2 out false
  | Exact => fun p q r s => cc_rdm2 n d1 d2 out false p q r s - non_cumulant (cc_rdm1 n d1 false) p q r s
  end.
(** RRDM_WaveFunction.make_rdm1, make_rdm2, rdm.py 37-63 *)
Definition rdm_rdm1 (n : nat) (dm1 : mat) (with_mf : bool) : mat := if with_mf then dm1 else add_diag n (- two) dm1.
Definition rdm_rdm2 (n : nat) (dm1 : mat) (dm2 : ten) (c : cumulant) : ten :=
  match c with
  | Full => dm2
  | Exact => fun p q r s => dm2 p q r s - non_cumulant dm1 p q r s
  | Approx =>
      let dm1 := add_diag n (- (1)) dm1 in
      for_range n (fun i x => add_i__i i 1 dm1 (add__ii_ i 1 dm1 (add___ii i (- two) dm1 (add_ii__ i (- two) dm1 x)))) dm2
  end.

(** ** CCSD, unrestricted: _gamma1_intermediates, uccsd_rdm.py 30-82 (one spin; [ab] amplitudes with this spin first) *)
Definition ucc_gamma1 (n nv m mv : nat) (t1 : mat) (t2 t2ab : ten) (l1 l1' : mat) (l2 l2ab : ten) : gamma1 :=
  let tA : mat := fun i j => Sum n (fun k => Sum nv (fun e => Sum nv (fun f => l2 i k e f * t2 j k e f))) * half
                             + Sum m (fun k => Sum nv (fun e => Sum mv (fun f => l2ab i k e f * t2ab j k e f))) in
  let tC : mat := fun a b => Sum n (fun i => Sum n (fun k => Sum nv (fun e => t2 i k a e * l2 i k b e))) * half
                             + Sum n (fun i => Sum m (fun k => Sum mv (fun e => t2ab i k a e * l2ab i k b e))) in
  let xt2 : mat := fun a e => tC a e + Sum n (fun k => t1 k a * l1 k e) in
  {| g_oo := fun i j => - Sum nv (fun e => l1 i e * t1 j e) - tA i j;
     g_ov := l1;
     g_vo := fun a i => Sum n (fun k => Sum nv (fun e => t2 i k a e * l1 k e))
                        + Sum m (fun k => Sum mv (fun e => t2ab i k a e * l1' k e))
                        - Sum n (fun k => tA k i * t1 k a)
                        - Sum nv (fun e => t1 i e * xt2 a e) + t1 i a;
     g_vv := fun a b => Sum n (fun k => t1 k a * l1 k b) + tC a b |}.
(** Both spins: the beta half reads the alpha-beta amplitudes with both index pairs exchanged ("mief,mjef", "mnea,mneb", "miea") *)
Definition ucc_gamma1_ab (n nv m mv : nat) (t1a t1b : mat) (t2aa t2ab t2bb : ten) (l1a l1b : mat) (l2aa l2ab l2bb : ten) : gamma1 * gamma1 :=
  (ucc_gamma1 n nv m mv t1a t2aa t2ab l1a l1b l2aa l2ab, ucc_gamma1 m mv n nv t1b t2bb (exch t2ab) l1b l1a l2bb (exch l2ab)).
(** _make_rdm1, uccsd_rdm.py 399-423 (one spin) *)
Definition ucc_rdm1 (n : nat) (d : gamma1) (with_mf : bool) : mat :=
  let ov : mat := fun i a => g_ov d i a + g_vo d a i in
  let dm1 := blocks n (symm (g_oo d)) ov (mtrans ov) (symm (g_vv d)) in
  let dm1 : mat := fun p q => dm1 p q * half in
  if with_mf then add_diag n 1 dm1 else dm1.
(** _make_rdm2, uccsd_rdm.py 590-618: the one-particle terms *)
Definition ucc_add_dm1_ss (n : nat) (dm1 : mat) (x : ten) : ten :=
  let x := for_range n (fun i x => add_i__i i (- (1)) (mtrans dm1) (add__ii_ i (- (1)) dm1 (add___ii i 1 dm1 (add_ii__ i 1 dm1 x)))) x in
  for_range n (fun i x => for_range n (fun j x => add_ijji i j (- (1)) (add_iijj i j 1 x)) x) x.
Definition ucc_add_dm1_ab (n m : nat) (dm1a dm1b : mat) (x : ten) : ten :=
  let x := for_range n (fun i x => add_ii__ i 1 dm1b x) x in
  let x := for_range m (fun i x => add___ii i 1 dm1a x) x in
  for_range n (fun i x => for_range m (fun j x => add_iijj i j 1 x) x) x.
Definition ucc_rdm2 (n m : nat) (d1a d1b : gamma1) (d2 : udm2i K) (outa outab outb : ten) (with_dm1 : bool) : ten * ten * ten :=
  let aa := make_rdm2_ss n (w_aa d2) outa in
  let ab := make_rdm2_ab n m d2 outab in
  let bb := make_rdm2_ss m (w_bb d2) outb in
  if with_dm1 then
    let dm1a := add_diag n (- (1)) (ucc_rdm1 n d1a true) in
    let dm1b := add_diag m (- (1)) (ucc_rdm1 m d1b true) in
    (tconj (ucc_add_dm1_ss n dm1a (tconj aa)), tconj (ucc_add_dm1_ab n m dm1a dm1b (tconj ab)), tconj (ucc_add_dm1_ss m dm1b (tconj bb)))
  else (aa, ab, bb).
(** UCCSD make_rdm2_non_cumulant, ccsd.py 290-297, and URDM's, rdm.py 203-207 *)
Definition unon_cumulant_ss (d : mat) : ten := fun i j k l => d i j * d k l - d i l * d j k.
Definition unon_cumulant_ab (da db : mat) : ten := fun i j k l => da i j * db k l.
Definition tsub (x y : ten) : ten := fun p q r s => x p q r s - y p q r s.
(** make_rdm2 for unrestricted CCSD, ccsd.py 61-94 *)
Definition uccsd_rdm2 (n m : nat) (d1a d1b : gamma1) (d2 : udm2i K) (outa outab outb : ten) (c : cumulant) : ten * ten * ten :=
  match c with
  | Full => ucc_rdm2 n m d1a d1b d2 outa outab outb true
  | Approx => ucc_rdm2 n m d1a d1b d2 outa outab outb false
  | Exact => let '(aa, ab, bb) := ucc_rdm2 n m d1a d1b d2 outa outab outb false in
      let da := ucc_rdm1 n d1a false in let db := ucc_rdm1 m d1b false in
      (tsub aa (unon_cumulant_ss da), tsub ab (unon_cumulant_ab da db), tsub bb (unon_cumulant_ss db))
  end.
(** URDM_WaveFunction.make_rdm2, rdm.py 147-201 *)
Definition urdm_remove_ss (n : nat) (dm1 : mat) (x : ten) : ten :=
  let x := for_range n (fun i x => add_i__i i 1 (mtrans dm1) (add__ii_ i 1 dm1 (add___ii i (- (1)) dm1 (add_ii__ i (- (1)) dm1 x)))) x in
  for_range n (fun i x => for_range n (fun j x => add_ijji i j 1 (add_iijj i j (- (1)) x)) x) x.
Definition urdm_remove_ab (n m : nat) (dm1a dm1b : mat) (x : ten) : ten :=
  let x := for_range n (fun i x => add_ii__ i (- (1)) dm1b x) x in
  let x := for_range m (fun i x => add___ii i (- (1)) dm1a x) x in
  for_range n (fun i x => for_range m (fun j x => add_iijj i j (- (1)) x) x) x.
Definition urdm_rdm2 (n m : nat) (da db : mat) (aa ab bb : ten) (c : cumulant) : ten * ten * ten :=
  match c with
  | Full => (aa, ab, bb)
  | Exact => (tsub aa (unon_cumulant_ss da), tsub ab (unon_cumulant_ab da db), tsub bb (unon_cumulant_ss db))
  | Approx =>
      let da := add_diag n (- (1)) da in let db := add_diag m (- (1)) db in
      (urdm_remove_ss n da aa, urdm_remove_ab n m da db ab, urdm_remove_ss m db bb)
  end.
End Rdm.
Arguments gamma1 : clear implicits.
