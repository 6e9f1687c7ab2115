(** * CI coefficients of an FCI wave function
    Model of as_cisd and as_cisdtq of the restricted and the unrestricted FCI wave function, vayesta/core/types/wf/fci.py 124-146,
    148-222, 326-369 and 371-487 (with as_ccsdtq, 227-228).  The wave function is the vector ci[alpha string, beta string].
    Simplifications.  A string is named by its excitation from the reference, (holes, particles), both written in decreasing order (the
    order of tril_indices_ndim, util.py 144-169); address 0 is the reference, ([], []).  pyscf.ci.cisd.tn_addrs_signs (external) lists the
    strings of a given excitation rank in that order, with a sign; it is modelled as: entry ((i > j > ..), (a > b > ..)) of the packed array is
    the element of ci with this name, times an arbitrary function [sg] of the name.  pyscf.cc.ccsd._unpack_4fold (external) is modelled as
    decompress_axes("iiaa", ..).  decompress_axes (util.py 172-249) is modelled by its result (proved in P_Perms for one group of axes): a
    stored element times the sign of the permutation, 0 where two indices of a group are equal.  Arrays are functions of the list of
    indices; reshapes between (pairs, pairs) and separate axes are implicit in the names; numbers are elements of a field; warnings
    for a small c0 are left out; a projector (NotImplementedError) is not modelled. *)
From Coq Require Import List Bool Arith.
From Verif Require Import Alg M_Wf M_TtoC.
Import ListNotations.

Section Fci.
Context {F : cfield}.
Open Scope K_scope.
(** decreasing order, with the sign of the permutation; None when two indices are equal: permutations_with_signs (util.py 744-765)
    of the stored tuples of tril_indices_ndim (144-169), used in decompress_axes 226-240 *)
Fixpoint insD (x : nat) (l : list nat) : option (bool * list nat) :=
  match l with
  | [] => Some (false, [x])
  | y :: r => if Nat.eqb x y then None
              else if Nat.ltb x y then match insD x r with Some (s, m) => Some (negb s, y :: m) | None => None end
              else Some (false, x :: l)
  end.
Fixpoint sortD (l : list nat) : option (bool * list nat) :=
  match l with
  | [] => Some (false, [])
  | x :: r => match sortD r with
              | Some (s, m) => match insD x m with Some (t, k) => Some (xorb s t, k) | None => None end
              | None => None
              end
  end.
(** decompress_axes, util.py 172-249: [gl] are the numbers of axes with the same character ("iiaajb" is [2; 2; 1; 1]), [packed] the
    stored elements for one tuple per group, [ix] the index of the decompressed array *)
Fixpoint decompress (gl : list nat) (packed : list (list nat) -> F) (ix : list nat) : F :=
  match gl with
  | [] => packed []
  | g :: gl => match sortD (firstn g ix) with
               | None => 0
               | Some (s, k) => (if s then - (1) else 1) * decompress gl (fun ts => packed (k :: ts)) (skipn g ix)
               end
  end.
(** numpy: [x.transpose(p)] has axis p[n] of x as axis n *)
Fixpoint index_of (n : nat) (p : list nat) : nat := match p with [] => O | m :: r => if Nat.eqb n m then O else S (index_of n r) end.
Definition transpose (p : list nat) (x : list nat -> F) : list nat -> F :=
  fun ix => x (map (fun ax => nth (index_of ax p) ix O) (seq 0 (length p))).

(** an excitation: (holes, particles) *)
Definition exc := (list nat * list nat)%type.
(** the reference string, address 0 *)
Definition ref : exc := ([], []).

Section Wave.
Variable ci : exc -> exc -> F.
(** the signs of tn_addrs_signs for the alpha and for the beta strings *)
Variables sga sgb : exc -> F.
(** RFCI_WaveFunction.c0, fci.py 109-111 *)
Definition fci_c0 : F := ci ref ref.

(** The sign-corrected packed elements: ci[addr, 0] * sign, ci[0, addr] * sign and einsum("i,j,ij->ij", sign, sign, ci[addr, addr]);
    fci.py 178, 185, 192, 201, 204 and 425-467; the groups are (holes, particles) of alpha, then of beta *)
Definition packa (ts : list (list nat)) : F :=
  match ts with [J; A] => ci (J, A) ref * sga (J, A) | _ => 0 end.
Definition packb (ts : list (list nat)) : F :=
  match ts with [J; A] => ci ref (J, A) * sgb (J, A) | _ => 0 end.
Definition packab (ts : list (list nat)) : F :=
  match ts with [J; A; L; B] => sga (J, A) * sgb (L, B) * ci (J, A) (L, B) | _ => 0 end.

(** as c1, c2, ... arrays with separate axes *)
Definition ax2 (x : list nat -> F) : mat F := fun i a => x [i; a].
Definition ax4 (x : list nat -> F) : ten F := fun i j a b => x [i; j; a; b].
Definition ax6 (x : list nat -> F) : ten6 F := fun i j k a b c => x [i; j; k; a; b; c].
Definition ax8 (x : list nat -> F) : ten8 F := fun i j k l a b c d => x [i; j; k; l; a; b; c; d].
(** c * fac for every array *)
Definition mul2 (f : F) (c : mat F) : mat F := fun i a => c i a * f.
Definition mul4 (f : F) (c : ten F) : ten F := fun i j a b => c i j a b * f.
Definition mul6 (f : F) (x : ten6 F) : ten6 F := fun i j k a b c => x i j k a b c * f.
Definition mul8 (f : F) (x : ten8 F) : ten8 F := fun i j k l a b c d => x i j k l a b c d * f.

(** RFCI_WaveFunction.as_cisd, fci.py 124-146: t1strs are the beta strings here, the signs of both spins are the same function *)
Definition rfci_as_cisd (c0' : option F) : @cisd F :=
  let c1 := ax2 (decompress [1; 1]%nat packb) in
  let c2 := ax4 (transpose [0; 2; 1; 3]%nat (decompress [1; 1; 1; 1]%nat packab)) in
  match c0' with
  | None => {| c0 := fci_c0; c1 := c1; c2 := c2 |}
  | Some x => {| c0 := x; c1 := mul2 (x / fci_c0) c1; c2 := mul4 (x / fci_c0) c2 |}
  end.
(** RFCI_WaveFunction.as_cisdtq, fci.py 148-222: c1 (178-179), c2 (185-187), c3 (192-194), c4_abaa (201-203), c4_abab (204-206), the
    normalisation 208-215 *)
Definition rfci_as_cisdtq (c0' : option F) : @rcisdtq F :=
  let c1 := ax2 (decompress [1; 1]%nat packb) in
  let c2 := ax4 (transpose [0; 2; 1; 3]%nat (decompress [1; 1; 1; 1]%nat packab)) in
  let c3 := ax6 (transpose [0; 4; 1; 2; 5; 3]%nat (decompress [2; 2; 1; 1]%nat packab)) in
  let c4_abaa := ax8 (transpose [0; 6; 2; 1; 3; 7; 5; 4]%nat (decompress [3; 3; 1; 1]%nat packab)) in
  let c4_abab := ax8 (transpose [0; 4; 1; 5; 2; 6; 3; 7]%nat (decompress [2; 2; 2; 2]%nat packab)) in
  match c0' with
  | None => {| k0 := fci_c0; k1 := c1; k2 := c2; k3 := c3; k4 := (c4_abaa, c4_abab) |}
  | Some x => let f := x / fci_c0 in
              {| k0 := x; k1 := mul2 f c1; k2 := mul4 f c2; k3 := mul6 f c3; k4 := (mul8 f c4_abaa, mul8 f c4_abab) |}
  end.
(** RFCI_WaveFunction.as_ccsdtq, fci.py 227-228 *)
Definition rfci_as_ccsdtq : @rccsdtq F := r_as_ccsdtq (rfci_as_cisdtq None).

(** UFCI_WaveFunction.as_cisd, fci.py 326-369 (only the normal form of c2: aa, ab, bb) *)
Definition ufci_as_cisd (c0' : option F) : F * (mat F * mat F) * (ten F * ten F * ten F) :=
  let c1a := ax2 (decompress [1; 1]%nat packa) in let c1b := ax2 (decompress [1; 1]%nat packb) in
  let c2aa := ax4 (decompress [2; 2]%nat packa) in let c2bb := ax4 (decompress [2; 2]%nat packb) in
  let c2ab := ax4 (transpose [0; 2; 1; 3]%nat (decompress [1; 1; 1; 1]%nat packab)) in
  match c0' with
  | None => (fci_c0, (c1a, c1b), (c2aa, c2ab, c2bb))
  | Some x => let f := x / fci_c0 in (x, (mul2 f c1a, mul2 f c1b), (mul4 f c2aa, mul4 f c2ab, mul4 f c2bb))
  end.
(** UFCI_WaveFunction.as_cisdtq, fci.py 371-487: C1 (425-426), C2 (429-437), C3 (440-452), C4 (455-471), the normalisation 478-485 *)
Definition ufci_as_cisdtq (c0' : option F) : @ucisdtq F :=
  let c1_a := ax2 (decompress [1; 1]%nat packa) in let c1_b := ax2 (decompress [1; 1]%nat packb) in
  let c2_aa := ax4 (decompress [2; 2]%nat packa) in let c2_bb := ax4 (decompress [2; 2]%nat packb) in
  let c2_ab := ax4 (transpose [0; 2; 1; 3]%nat (decompress [1; 1; 1; 1]%nat packab)) in
  let c3_aaa := ax6 (decompress [3; 3]%nat packa) in let c3_bbb := ax6 (decompress [3; 3]%nat packb) in
  let c3_aba := ax6 (transpose [0; 4; 1; 2; 5; 3]%nat (decompress [2; 2; 1; 1]%nat packab)) in
  let c3_bab := ax6 (transpose [2; 0; 3; 4; 1; 5]%nat (decompress [1; 1; 2; 2]%nat packab)) in
  let c4_aaaa := ax8 (decompress [4; 4]%nat packa) in let c4_bbbb := ax8 (decompress [4; 4]%nat packb) in
  let c4_aaab := ax8 (transpose [0; 1; 2; 6; 3; 4; 5; 7]%nat (decompress [3; 3; 1; 1]%nat packab)) in
  let c4_abab := ax8 (transpose [0; 4; 1; 5; 2; 6; 3; 7]%nat (decompress [2; 2; 2; 2]%nat packab)) in
  let c4_abbb := ax8 (transpose [0; 2; 3; 4; 1; 5; 6; 7]%nat (decompress [1; 1; 3; 3]%nat packab)) in
  match c0' with
  | None => {| u0 := fci_c0; u1 := (c1_a, c1_b); u2 := (c2_aa, c2_ab, c2_bb); u3 := (c3_aaa, c3_aba, c3_bab, c3_bbb);
               u4 := (c4_aaaa, c4_aaab, c4_abab, c4_abbb, c4_bbbb) |}
  | Some x => let f := x / fci_c0 in
              {| u0 := x; u1 := (mul2 f c1_a, mul2 f c1_b); u2 := (mul4 f c2_aa, mul4 f c2_ab, mul4 f c2_bb);
                 u3 := (mul6 f c3_aaa, mul6 f c3_aba, mul6 f c3_bab, mul6 f c3_bbb);
                 u4 := (mul8 f c4_aaaa, mul8 f c4_aaab, mul8 f c4_abab, mul8 f c4_abbb, mul8 f c4_bbbb) |}
  end.
(** as_ccsdtq of the unrestricted wave function (inherited), fci.py 227-228 *)
Definition ufci_as_ccsdtq : @uccsdtq F := u_as_ccsdtq (ufci_as_cisdtq None).
End Wave.
End Fci.
