(** Model of the occupied/virtual blocks of two-electron integrals: vayesta/core/ao2mo/helper.py 52-593, and of the assembly of
    two-particle density matrices from their intermediates, vayesta/core/vpyscf/ccsd_rdm.py 296-386 and uccsd_rdm.py 450-630.
    Simplifications: real arrays, given as functions of their indices with values in a commutative ring (.conj() is the
    identity); numpy's shape checks, logging and the in-place destruction of intermediates are left out; the object's numbers of
    occupied and virtual orbitals are arguments; frozen orbitals and the AO representation are not modelled. *)
From Coq Require Import List Arith Bool.
From Verif Require Import Alg M_Wf.
Import ListNotations.

Section Eris.
Context {K : cring}.
Open Scope K_scope.
Notation mat := (nat -> nat -> K).
Notation ten := (nat -> nat -> nat -> nat -> K).

(** swap = x.transpose(2, 3, 0, 1) and conj = x.transpose(1, 0, 3, 2), helper.py 69-70 *)
Definition tswap (x : ten) : ten := fun p q r s => x r s p q.
Definition tconj (x : ten) : ten := fun p q r s => x q p s r.
(** x.transpose(3, 2, 1, 0) and x.transpose(0, 3, 2, 1), ccsd_rdm.py 323, uccsd_rdm.py 475 *)
Definition trev (x : ten) : ten := fun p q r s => x s r q p.
Definition texch (x : ten) : ten := fun p q r s => x p s r q.
Definition tadd (x y : ten) : ten := fun p q r s => x p q r s + y p q r s.
Definition topp (x : ten) : ten := fun p q r s => - x p q r s.
Definition tdbl (x : ten) : ten := fun p q r s => x p q r s + x p q r s.

(** Row of the lower triangle that holds (a, b): pyscf.lib.pack_tril / unpack_tril *)
Definition tri (a b : nat) : nat := if (b <=? a)%nat then (a * (a + 1) / 2 + b)%nat else (b * (b + 1) / 2 + a)%nat.

(** An (ov|vv) block, with four indices or with the last pair packed: eris.ovvv, eris.ovVV, eris.OVvv, eris.OVVV *)
Inductive ovvv_block := V4 (x : ten) | V3 (x : nat -> nat -> nat -> K).
(** get_ovvv, get_ovVV, helper.py 151-184: unpack_tril of the last axis *)
Definition get_ovvv (b : ovvv_block) : ten :=
  match b with V4 x => x | V3 x => fun i a c d => x i a (tri c d) end.

(** A (vv|vv) block: four indices, both pairs packed, or absent with three-index integrals vvL (packed or not, naux of them) *)
Inductive vvvv_block := W4 (x : ten) | W2 (x : mat) | WL3 (naux : nat) (l : nat -> nat -> nat -> K) | WL2 (naux : nat) (l : mat).
(** get_vvvv, helper.py 187-209 *)
Definition get_vvvv (b : vvvv_block) : ten :=
  match b with
  | W4 x => x
  | W2 x => fun a c d e => x (tri a c) (tri d e)
  | WL3 n l => fun a c d e => Sum n (fun q => l a c q * l d e q)
  | WL2 n l => fun a c d e => Sum n (fun q => l (tri a c) q * l (tri d e) q)
  end.
(** get_vvVV, helper.py 212-229: four indices or both pairs packed; getattr raises AttributeError without the block *)
Definition get_vvVV (b : vvvv_block) : option ten :=
  match b with
  | W4 x => Some x
  | W2 x => Some (fun a c d e => x (tri a c) (tri d e))
  | _ => None
  end.

(** The integrals object of a restricted calculation (PySCF's _ChemistsERIs): its blocks *)
Record eris := {
  e_oooo : ten; e_ovoo : ten; e_oovv : ten; e_ovov : ten; e_ovvo : ten; e_ovvv : ovvv_block; e_vvvv : vvvv_block }.

(** Array slices: a flag is true for the virtual part of an axis, false for the occupied part;
    out[f1, f2, f3, f4] = x and the slice itself *)
Definition inpart (nocc : nat) (v : bool) (p : nat) : bool := if v then (nocc <=? p)%nat else (p <? nocc)%nat.
Definition off (nocc : nat) (v : bool) (p : nat) : nat := if v then (p - nocc)%nat else p.
Definition put (n m : nat) (f1 f2 f3 f4 : bool) (x : ten) (out : ten) : ten :=
  fun p q r s =>
    if inpart n f1 p && inpart n f2 q && inpart m f3 r && inpart m f4 s
    then x (off n f1 p) (off n f2 q) (off m f3 r) (off m f4 s) else out p q r s.
Definition shift (nocc : nat) (v : bool) (p : nat) : nat := if v then (nocc + p)%nat else p.
Definition slice (n m : nat) (f1 f2 f3 f4 : bool) (x : ten) : ten :=
  fun p q r s => x (shift n f1 p) (shift n f2 q) (shift m f3 r) (shift m f4 s).
Notation o := false.
Notation v := true.

(** get_full_array_rhf, helper.py 59-92; [out] is the array handed in or zeros *)
Definition get_full_array_rhf (n : nat) (e : eris) (out : ten) : ten :=
  let out := put n n o o o o (e_oooo e) out in
  let out := put n n o v o o (e_ovoo e) out in
  let out := put n n v o o o (tconj (slice n n o v o o out)) out in
  let out := put n n o o o v (tswap (slice n n o v o o out)) out in
  let out := put n n o o v o (tconj (slice n n o o o v out)) out in
  let out := put n n o o v v (e_oovv e) out in
  let out := put n n v v o o (tswap (slice n n o o v v out)) out in
  let out := put n n o v o v (e_ovov e) out in
  let out := put n n v o v o (tconj (slice n n o v o v out)) out in
  let out := put n n o v v o (e_ovvo e) out in
  let out := put n n v o o v (tswap (e_ovvo e)) out in
  let out := put n n o v v v (get_ovvv (e_ovvv e)) out in
  let out := put n n v o v v (tconj (slice n n o v v v out)) out in
  let out := put n n v v o v (tswap (slice n n o v v v out)) out in
  let out := put n n v v v o (tconj (slice n n v v o v out)) out in
  put n n v v v v (get_vvvv (e_vvvv e)) out.

(** The integrals object of an unrestricted calculation: alpha-alpha and beta-beta blocks and the mixed ones (capitals: beta) *)
Record ueris := {
  u_aa : eris; u_bb : eris;
  u_ooOO : ten; u_ovOO : ten; u_OVoo : ten; u_ooVV : ten; u_OOvv : ten; u_ovVO : ten; u_ovOV : ten;
  u_ovVV : ovvv_block; u_OVvv : ovvv_block; u_vvVV : vvvv_block }.

(** The alpha-beta array of get_full_array_uhf, helper.py 121-147 *)
Definition get_full_array_ab (n m : nat) (e : ueris) (vvVV : ten) (out : ten) : ten :=
  let out := put n m o o o o (u_ooOO e) out in
  let out := put n m o v o o (u_ovOO e) out in
  let out := put n m v o o o (tconj (slice n m o v o o out)) out in
  let out := put n m o o o v (tswap (u_OVoo e)) out in
  let out := put n m o o v o (tconj (slice n m o o o v out)) out in
  let out := put n m o o v v (u_ooVV e) out in
  let out := put n m v v o o (tswap (u_OOvv e)) out in
  let out := put n m o v v o (u_ovVO e) out in
  let out := put n m v o o v (tconj (slice n m o v v o out)) out in
  let out := put n m o v o v (u_ovOV e) out in
  let out := put n m v o v o (tconj (slice n m o v o v out)) out in
  let out := put n m o v v v (get_ovvv (u_ovVV e)) out in
  let out := put n m v o v v (tconj (slice n m o v v v out)) out in
  let out := put n m v v o v (tswap (get_ovvv (u_OVvv e))) out in
  let out := put n m v v v o (tconj (slice n m v v o v out)) out in
  put n m v v v v vvVV out.

Inductive full_result := Full (x : ten) | UFull (aa ab bb : ten) | FNotImplemented | FAttributeError.

(** get_full_array, get_full_array_rhf, helper.py 52-65: [same] is the outcome of np.allclose(mo_coeff, eris.mo_coeff) if
    coefficients are given *)
Definition get_full_array_r (n : nat) (e : eris) (same : option bool) (out : ten) : full_result :=
  match same with
  | Some false => FNotImplemented
  | _ => Full (get_full_array_rhf n e out)
  end.
(** get_full_array_uhf, helper.py 95-148: with coefficients given, the helper objects for each spin have no mo_coeff (103-107) *)
Definition get_full_array_u (n m : nat) (e : ueris) (same : option bool) (outa outab outb : ten) : full_result :=
  match same with
  | Some false => FNotImplemented
  | Some true => FAttributeError
  | None =>
      match get_vvVV (u_vvVV e) with
      | None => FAttributeError
      | Some w => UFull (get_full_array_rhf n (u_aa e) outa) (get_full_array_ab n m e w outab) (get_full_array_rhf m (u_bb e) outb)
      end
  end.

(** _contract_4d, helper.py 278-282: np.dot of the flattened blocks of the given shape; Python multiples by natural numbers *)
Definition contract4 (n1 n2 n3 n4 : nat) (a b : ten) : K :=
  Sum n1 (fun p => Sum n2 (fun q => Sum n3 (fun r => Sum n4 (fun s => a p q r s * b p q r s)))).
Definition times (n : nat) (x : K) : K := nK n * x.

(** contract_dm2_eris_rhf, helper.py 285-317 *)
Definition contract_dm2_eris_rhf (n nv : nat) (dm2 : ten) (e : eris) : K :=
  let sl f1 f2 f3 f4 := slice n n f1 f2 f3 f4 dm2 in
  contract4 n n n n (sl o o o o) (e_oooo e)
  + times 4 (contract4 n nv n n (sl o v o o) (e_ovoo e))
  + times 2 (contract4 n n nv nv (sl o o v v) (e_oovv e))
  + times 2 (contract4 n nv n nv (sl o v o v) (e_ovov e))
  + times 2 (contract4 n nv nv n (sl o v v o) (e_ovvo e))
  + times 4 (contract4 n nv nv nv (sl o v v v) (get_ovvv (e_ovvv e)))
  + contract4 nv nv nv nv (sl v v v v) (get_vvvv (e_vvvv e)).

(** contract_dm2_eris_uhf, helper.py 320-371 *)
Definition contract_dm2_eris_uhf (n nv m mv : nat) (aa ab bb : ten) (e : ueris) (vvVV : ten) : K :=
  let sl f1 f2 f3 f4 := slice n m f1 f2 f3 f4 ab in
  contract_dm2_eris_rhf n nv aa (u_aa e)
  + contract_dm2_eris_rhf m mv bb (u_bb e)
  + times 2 (contract4 n n m m (sl o o o o) (u_ooOO e))
  + times 4 (contract4 n nv m m (sl o v o o) (u_ovOO e))
  + times 4 (contract4 n n m mv (sl o o o v) (tswap (u_OVoo e)))
  + times 2 (contract4 n n mv mv (sl o o v v) (u_ooVV e))
  + times 2 (contract4 nv nv m m (sl v v o o) (tswap (u_OOvv e)))
  + times 4 (contract4 n nv mv m (sl o v v o) (u_ovVO e))
  + times 4 (contract4 n nv m mv (sl o v o v) (u_ovOV e))
  + times 4 (contract4 n nv mv mv (sl o v v v) (get_ovvv (u_ovVV e)))
  + times 4 (contract4 nv nv m mv (sl v v o v) (tswap (get_ovvv (u_OVvv e))))
  + times 2 (contract4 nv nv mv mv (sl v v v v) vvVV).

(** Intermediates of a restricted two-particle density matrix, in PySCF's notation (dm2intermeds, helper.py 374-384);
    the vvov entry is always None *)
Record dm2i := { d_ovov : ten; d_vvvv : ten; d_oooo : ten; d_oovv : ten; d_ovvo : ten; d_ovvv : ten; d_ooov : ten }.

(** _make_rdm2 without the one-particle part, ccsd_rdm.py 296-356 and 386 (four-index vvvv) *)
Definition make_rdm2_rhf (n : nat) (d : dm2i) (out : ten) : ten :=
  let out := put n n o v o v (d_ovov d) out in
  let out := put n n o v o v (tadd (slice n n o v o v out) (tswap (d_ovov d))) out in
  let out := put n n v o v o (tconj (slice n n o v o v out)) out in
  let out := put n n o o v v (d_oovv d) out in
  let out := put n n o o v v (tadd (slice n n o o v v out) (tconj (d_oovv d))) out in
  let out := put n n v v o o (tswap (slice n n o o v v out)) out in
  let out := put n n o v v o (d_ovvo d) out in
  let out := put n n o v v o (tadd (slice n n o v v o out) (trev (d_ovvo d))) out in
  let out := put n n v o o v (tconj (slice n n o v v o out)) out in
  let out := put n n v v v v (d_vvvv d) out in
  let out := put n n v v v v (tadd (slice n n v v v v out) (tconj (d_vvvv d))) out in
  let out := put n n v v v v (tdbl (slice n n v v v v out)) out in
  let out := put n n o o o o (d_oooo d) out in
  let out := put n n o o o o (tadd (slice n n o o o o out) (tconj (d_oooo d))) out in
  let out := put n n o o o o (tdbl (slice n n o o o o out)) out in
  let out := put n n o v v v (d_ovvv d) out in
  let out := put n n v v o v (tswap (d_ovvv d)) out in
  let out := put n n v v v o (trev (d_ovvv d)) out in
  let out := put n n v o v v (tconj (d_ovvv d)) out in
  let out := put n n o o o v (d_ooov d) out in
  let out := put n n o v o o (tswap (d_ooov d)) out in
  let out := put n n o o v o (tconj (d_ooov d)) out in
  let out := put n n v o o o (trev (d_ooov d)) out in
  tconj out.

(** contract_dm2intermeds_eris_rhf, helper.py 408-445 *)
Definition contract_dm2i_rhf (n nv : nat) (d : dm2i) (e : eris) : K :=
  times 4 (contract4 n n n n (d_oooo d) (e_oooo e))
  + times 4 (contract4 n n n nv (d_ooov d) (tswap (e_ovoo e)))
  + times 4 (contract4 n n nv nv (d_oovv d) (e_oovv e))
  + times 4 (contract4 n nv n nv (d_ovov d) (e_ovov e))
  + times 4 (contract4 n nv nv n (d_ovvo d) (e_ovvo e))
  + times 4 (contract4 n nv nv nv (d_ovvv d) (get_ovvv (e_ovvv e)))
  + times 4 (contract4 nv nv nv nv (d_vvvv d) (get_vvvv (e_vvvv e))).

(** Intermediates of an unrestricted two-particle density matrix: the entries that are not None *)
Record udm2i := {
  w_aa : dm2i; w_bb : dm2i;
  w_ovOV : ten; w_vvVV : ten; w_ooOO : ten; w_ooVV : ten; w_OOvv : ten; w_ovVO : ten;
  w_ovVV : ten; w_OVvv : ten; w_ooOV : ten; w_OOov : ten }.

(** The same-spin part of _make_rdm2, uccsd_rdm.py 467-498 / 500-530 and 620-622; doovv is not read *)
Definition make_rdm2_ss (n : nat) (d : dm2i) (out : ten) : ten :=
  let out := put n n o v o v (d_ovov d) out in
  let out := put n n v o v o (tconj (slice n n o v o v out)) out in
  let out := put n n o o v v (topp (texch (d_ovvo d))) out in
  let out := put n n v v o o (tswap (slice n n o o v v out)) out in
  let out := put n n o v v o (d_ovvo d) out in
  let out := put n n v o o v (tconj (slice n n o v v o out)) out in
  let out := put n n v v v v (d_vvvv d) out in
  let out := put n n o o o o (d_oooo d) out in
  let out := put n n o v v v (d_ovvv d) out in
  let out := put n n v v o v (tswap (d_ovvv d)) out in
  let out := put n n v v v o (trev (d_ovvv d)) out in
  let out := put n n v o v v (tconj (d_ovvv d)) out in
  let out := put n n o o o v (d_ooov d) out in
  let out := put n n o v o o (tswap (d_ooov d)) out in
  let out := put n n o o v o (tconj (d_ooov d)) out in
  let out := put n n v o o o (trev (d_ooov d)) out in
  tconj out.

(** The mixed-spin part of _make_rdm2, uccsd_rdm.py 532-567 and 621 *)
Definition make_rdm2_ab (n m : nat) (d : udm2i) (out : ten) : ten :=
  let out := put n m o v o v (w_ovOV d) out in
  let out := put n m v o v o (tconj (slice n m o v o v out)) out in
  let out := put n m o o v v (w_ooVV d) out in
  let out := put n m v v o o (tswap (w_OOvv d)) out in
  let out := put n m o v v o (w_ovVO d) out in
  let out := put n m v o o v (tconj (w_ovVO d)) out in
  let out := put n m v v v v (w_vvVV d) out in
  let out := put n m o o o o (w_ooOO d) out in
  let out := put n m o v v v (w_ovVV d) out in
  let out := put n m v v o v (tswap (w_OVvv d)) out in
  let out := put n m v v v o (trev (w_OVvv d)) out in
  let out := put n m v o v v (tconj (w_ovVV d)) out in
  let out := put n m o o o v (w_ooOV d) out in
  let out := put n m o v o o (tswap (w_OOov d)) out in
  let out := put n m o o v o (tconj (w_ooOV d)) out in
  let out := put n m v o o o (trev (w_OOov d)) out in
  tconj out.

(** contract_dm2intermeds_eris_uhf, helper.py 448-500 *)
Definition contract_dm2i_ss (n nv : nat) (d : dm2i) (e : eris) : K :=
  contract4 n n n n (d_oooo d) (e_oooo e)
  + times 4 (contract4 n n n nv (d_ooov d) (tswap (e_ovoo e)))
  + times 2 (contract4 n n nv nv (d_oovv d) (e_oovv e))
  + times 2 (contract4 n nv n nv (d_ovov d) (e_ovov e))
  + times 2 (contract4 n nv nv n (d_ovvo d) (e_ovvo e))
  + times 4 (contract4 n nv nv nv (d_ovvv d) (get_ovvv (e_ovvv e)))
  + contract4 nv nv nv nv (d_vvvv d) (get_vvvv (e_vvvv e)).
Definition contract_dm2i_uhf (n nv m mv : nat) (d : udm2i) (e : ueris) (vvVV : ten) : K :=
  contract_dm2i_ss n nv (w_aa d) (u_aa e)
  + contract_dm2i_ss m mv (w_bb d) (u_bb e)
  + times 2 (contract4 n n m m (w_ooOO d) (u_ooOO e))
  + times 4 (contract4 m m n nv (w_OOov d) (tswap (u_ovOO e)))
  + times 4 (contract4 n n m mv (w_ooOV d) (tswap (u_OVoo e)))
  + times 2 (contract4 n n mv mv (w_ooVV d) (u_ooVV e))
  + times 2 (contract4 m m nv nv (w_OOvv d) (u_OOvv e))
  + times 4 (contract4 n nv mv m (w_ovVO d) (u_ovVO e))
  + times 4 (contract4 n nv m mv (w_ovOV d) (u_ovOV e))
  + times 4 (contract4 n nv mv mv (w_ovVV d) (get_ovvv (u_ovVV e)))
  + times 4 (contract4 m mv nv nv (w_OVvv d) (get_ovvv (u_OVvv e)))
  + times 2 (contract4 nv nv mv mv (w_vvVV d) vvVV).
End Eris.
Arguments ovvv_block : clear implicits. Arguments vvvv_block : clear implicits.
Arguments eris : clear implicits. Arguments ueris : clear implicits. Arguments dm2i : clear implicits.
Arguments udm2i : clear implicits. Arguments full_result : clear implicits.
