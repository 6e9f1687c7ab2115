(** Model of correlation functions: vayesta/misc/corrfunc.py 7-155 (chargecharge, spin_z, spinspin_z and their mean-field and unrestricted versions),
    vayesta/core/qemb/corrfunc.py 10-42 (get_corrfunc_mf), 45-174 (get_corrfunc), 177-331 (get_corrfunc_unrestricted).
    Simplifications: real arrays as functions of their indices over a field; the embedding functions fill every entry of an array over pairs of atoms
    independently of the other entries, the model is the entry of one pair, from the projectors of the two atoms (_get_atom_projectors, in the MO basis);
    cluster coefficients are given in the MO basis; an exception is the result None. *)
From Coq Require Import List Arith Bool.
From Verif Require Import Alg M_Rdm.
Import ListNotations.

Section Corrfunc.
Context {F : cfield}.
Open Scope K_scope.
Notation mat := (nat -> nat -> F).
Notation ten := (nat -> nat -> nat -> nat -> F).
Definition n2 : F := 1 + 1.
Definition n3 : F := n2 + 1.
Definition n4 : F := n2 * n2.
Definition n6 : F := n2 * n3.

(** np.trace, np.sum(a * b), einsum("iijj->"), einsum("ijkl,ij,kl->"), einsum("ij,ik,jk->") *)
Definition tr (n : nat) (a : mat) : F := Sum n (fun i => a i i).
Definition dots (n : nat) (a b : mat) : F := Sum n (fun i => Sum n (fun j => a i j * b i j)).
Definition tr2 (n : nat) (d : ten) : F := Sum n (fun i => Sum n (fun j => d i i j j)).
(** (the second pair of indices may have another dimension) *)
Definition pdp (n m : nat) (d : ten) (p1 p2 : mat) : F := Sum n (fun i => Sum n (fun j => Sum m (fun k => Sum m (fun l => d i j k l * p1 i j * p2 k l)))).
Definition dpp (n : nat) (d p1 p2 : mat) : F := Sum n (fun i => Sum n (fun j => Sum n (fun k => d i j * p1 i k * p2 j k))).
(** dm2.transpose(0, 3, 2, 1) *)
Definition t0321 (d : ten) : ten := fun i j k l => d i l k j.

(** ** misc/corrfunc.py. chargecharge_mf, 96-110 *)
Definition chargecharge_mf (n : nat) (dm1 : mat) (proj1 proj2 : option mat) (subtract_indep : bool) : F :=
  let proj2 := match proj2 with None => proj1 | Some p => Some p end in
  match proj1, proj2 with
  | Some p1, Some p2 =>
      let corr := if subtract_indep then 0 else dots n dm1 p1 * dots n dm1 p2 in
      let corr := corr - Sum n (fun i => Sum n (fun k => Sum n (fun j => Sum n (fun l => p1 i k * dm1 i j * (dm1 k l * p2 l j))))) / n2 in
      corr + dpp n dm1 p1 p2
  | _, _ => if subtract_indep then 0 else tr n dm1 * tr n dm1
  end.
(** chargecharge, 15-30 *)
Definition chargecharge (n : nat) (dm1 : mat) (dm2 : option ten) (proj1 proj2 : option mat) (subtract_indep : bool) : F :=
  match dm2 with
  | None => chargecharge_mf n dm1 proj1 proj2 subtract_indep
  | Some dm2 =>
      let proj2 := match proj2 with None => proj1 | Some p => Some p end in
      match proj1, proj2 with
      | Some p1, Some p2 =>
          let corr := pdp n n dm2 p1 p2 + dpp n dm1 p1 p2 in
          if subtract_indep then corr - dots n dm1 p1 * dots n dm1 p2 else corr
      | _, _ =>
          let corr := tr2 n dm2 + tr n dm1 in
          if subtract_indep then corr - tr n dm1 * tr n dm1 else corr
      end
  end.
(** A projector of an unrestricted system: one array for both spins, or a pair; _get_proj_per_spin, 7-12 *)
Inductive uproj := Same (p : mat) | Pair (pa pb : mat).
Definition proj_a (p : uproj) : mat := match p with Same p => p | Pair a _ => a end.
Definition proj_b (p : uproj) : mat := match p with Same p => p | Pair _ b => b end.
(** spin_z, 36-37, and spin_z_unrestricted, 40-48 *)
Definition spin_z : F := 0.
Definition uspin_z (na nb : nat) (dm1 : mat * mat) (proj : option uproj) : F :=
  match proj with
  | None => (tr na (fst dm1) - tr nb (snd dm1)) / n2
  | Some p => (dots na (fst dm1) (proj_a p) - dots nb (snd dm1) (proj_b p)) / n2
  end.
(** spinspin_z_mf_unrestricted, 136-163 *)
Definition uspinspin_mf (na nb : nat) (dm1 : mat * mat) (proj1 proj2 : option uproj) : F :=
  let (da, db) := dm1 in
  let proj2 := match proj2 with None => proj1 | Some p => Some p end in
  match proj1, proj2 with
  | Some p1, Some p2 =>
      let p1a := proj_a p1 in let p1b := proj_b p1 in let p2a := proj_a p2 in let p2b := proj_b p2 in
      let x (n : nat) (p d p' : mat) := Sum n (fun i => Sum n (fun j => Sum n (fun k => Sum n (fun l => p i j * d i l * (d j k * p' k l))))) in
      let ssz := (dots na p1a da * dots na da p2a - x na p1a da p2a + dots nb p1b db * dots nb db p2b - x nb p1b db p2b
                  - dots na p1a da * dots nb db p2b - dots nb p1b db * dots na da p2a) / n4 in
      ssz + (dpp na da p1a p2a + dpp nb db p1b p2b) / n4
  | _, _ =>
      let ssz := tr na da * tr na da / n4 - dots na da da / n4 + tr nb db * tr nb db / n4 - dots nb db db / n4 - tr na da * tr nb db / n2 in
      ssz + (tr na da + tr nb db) / n4
  end.
(** spinspin_z_mf, 113-133: the code after the first return is commented out *)
Definition spinspin_mf (n : nat) (dm1 : mat) (proj1 proj2 : option mat) : F :=
  let half_dm1 : mat := fun i j => dm1 i j / n2 in
  uspinspin_mf n n (half_dm1, half_dm1) (option_map Same proj1) (option_map Same proj2).
(** spinspin_z, 51-66 *)
Definition spinspin (n : nat) (dm1 : mat) (dm2 : option ten) (proj1 proj2 : option mat) : F :=
  match dm2 with
  | None => spinspin_mf n dm1 proj1 proj2
  | Some dm2 =>
      let dm1a : mat := fun i j => dm1 i j / n2 in
      let dm2aa : ten := fun i j k l => (dm2 i j k l - t0321 dm2 i j k l) / n6 in
      let dm2ab : ten := fun i j k l => dm2 i j k l / n2 - dm2aa i j k l in
      let proj2 := match proj2 with None => proj1 | Some p => Some p end in
      match proj1, proj2 with
      | Some p1, Some p2 => (pdp n n dm2aa p1 p2 - pdp n n dm2ab p1 p2) / n2 + dpp n dm1a p1 p2 / n2
      | _, _ => (tr2 n dm2aa - tr2 n dm2ab) / n2 + tr n dm1a / n2
      end
  end.
(** spinspin_z_unrestricted, 69-90: without projectors the return expression uses the undefined names dma and dmb *)
Definition uspinspin (na nb : nat) (dm1 : mat * mat) (dm2 : option (ten * ten * ten)) (proj1 proj2 : option uproj) : option F :=
  match dm2 with
  | None => Some (uspinspin_mf na nb dm1 proj1 proj2)
  | Some (dm2aa, dm2ab, dm2bb) =>
      let (dm1a, dm1b) := dm1 in
      let proj2 := match proj2 with None => proj1 | Some p => Some p end in
      match proj1, proj2 with
      | Some p1, Some p2 =>
          let p1a := proj_a p1 in let p1b := proj_b p1 in let p2a := proj_a p2 in let p2b := proj_b p2 in
          let ssz := pdp na na dm2aa p1a p2a / n4 + pdp nb nb dm2bb p1b p2b / n4 - pdp na nb dm2ab p1a p2b / n4 - pdp na nb dm2ab p2a p1b / n4 in
          Some (ssz + (dpp na dm1a p1a p2a + dpp nb dm1b p1b p2b) / n4)
      | _, _ => None
      end
  end.

(** ** core/qemb/corrfunc.py *)
Inductive kind := NN | DNDN | SzSz.
(** get_corrfunc_mf, 10-42, restricted; dm1 is np.zeros with 2 on the occupied diagonal if it is not given *)
Definition corr_mf (n nocc : nat) (k : kind) (dm1 : option mat) (pa pb : mat) : F :=
  let dm1 := match dm1 with Some d => d | None => fun p q => if (p =? q)%nat && (p <? nocc)%nat then n2 else 0 end in
  match k with
  | NN => chargecharge n dm1 None (Some pa) (Some pb) false
  | DNDN => chargecharge n dm1 None (Some pa) (Some pb) true
  | SzSz => spinspin n dm1 None (Some pa) (Some pb)
  end.
(** The same, unrestricted: charge correlation functions raise NotImplementedError, 12-13 *)
Definition ucorr_mf (na nb noa nob : nat) (k : kind) (dm1 : option (mat * mat)) (pa pb : uproj) : option F :=
  let dm1 := match dm1 with Some d => d | None => ((fun p q => if (p =? q)%nat && (p <? noa)%nat then 1 else 0), (fun p q => if (p =? q)%nat && (p <? nob)%nat then 1 else 0)) end in
  match k with
  | SzSz => uspinspin na nb dm1 None (Some pa) (Some pb)
  | _ => None
  end.
(** A fragment: number of cluster orbitals, make_fragment_dm2cumulant(), MO coefficients (rx[x, p]) of its cluster and of those of its symmetry children
    (loop_symmetry_children(include_self=True)); with use_symmetry=False all fragments are listed and have no children (maxgen=0) *)
Record cfrag := { cf_n : nat; cf_dm2 : ten; cf_rx : list mat }.
(** np.sum(np.dot(p1, d)[:m] * p2[:m]) *)
Definition sum_tmp (n m : nat) (p1 d p2 : mat) : F := Sum m (fun i => Sum n (fun j => Sum n (fun k => p1 i k * d k j) * p2 i j)).
(** np.sum(np.tensordot(p1, dm2) * p2) *)
Definition sum_tensordot (n m : nat) (p1 : mat) (dm2 : ten) (p2 : mat) : F :=
  Sum m (fun k => Sum m (fun l => Sum n (fun i => Sum n (fun j => p1 i j * dm2 i j k l)) * p2 k l)).
(** dot(rx, p_atom, rx.T), 162 *)
Definition projx (n : nat) (rx p : mat) : mat := fun x y => Sum n (fun a => Sum n (fun b => rx x a * p a b * rx y b)).
(** 129-136, 150-158 *)
Definition kind_dm2 (k : kind) (dm2 : ten) : ten :=
  match k with SzSz => fun i j k l => - (dm2 i j k l / n6 + t0321 dm2 i j k l / n3) | _ => dm2 end.
(** get_corrfunc, 45-174; [gtb] is the comparison of numbers, [nelectron] is emb.mol.nelectron, [dm1] is emb.make_rdm1() if not given by the user *)
Definition dm2_flag (gtb : F -> F -> bool) (norm nelectron : F) (given : option bool) : bool :=
  match given with Some b => b | None => gtb norm (nelectron * (nelectron - 1) / n2) end.
Definition corr (gtb : F -> F -> bool) (n nocc : nat) (nelectron : F) (k : kind) (dm1 : mat) (dm2 : option ten) (dm2_with_dm1 : option bool) (frags : list cfrag) (pa pb : mat) : F :=
  let '(f1, f2, f22) := match k with SzSz => (1 / n4, 1 / n2, 1 / n2) | _ => (1, n2, 1) end in
  let dm2_with_dm1 := match dm2_with_dm1, dm2 with
    | Some b, _ => b
    | None, None => false
    | None, Some d => dm2_flag gtb (tr2 n d) nelectron None end in
  let c := f1 * sum_tmp n n pa dm1 pb in
  let c := if dm2_with_dm1 then c else
    let ddm1 := add_diag nocc (- (1)) dm1 in
    let c := c - f2 * sum_tmp n nocc pa ddm1 pb in
    match k with
    | SzSz => c
    | _ => c + f2 * (tr nocc pa * dots n pb ddm1 + tr nocc pb * dots n pa ddm1)
    end in
  let c := match dm2 with
    | Some d => c + f22 * sum_tensordot n n pa (kind_dm2 k d) pb
    | None => fold_left (fun c fx => fold_left (fun c rx => c + f22 * sum_tensordot (cf_n fx) (cf_n fx) (projx n rx pa) (kind_dm2 k (cf_dm2 fx)) (projx n rx pb)) (cf_rx fx) c) frags c
    end in
  match k with DNDN => c - dots n dm1 pa * dots n dm1 pb | _ => c end.

(** get_corrfunc_unrestricted, 177-331; kinds other than "sz,sz" raise ValueError *)
Record ucfrag := { uc_n : nat * nat; uc_dm2 : ten * ten * ten; uc_rx : list (mat * mat) }.
(** np.sum(tmpa * p2[0]) + np.sum(tmpb * p2[1]) with tmpa, tmpb of 288-289, 318-319 *)
Definition usum_tensordot (na nb : nat) (p1a p1b : mat) (dm2 : ten * ten * ten) (p2a p2b : mat) : F :=
  let '(aa, ab, bb) := dm2 in
  Sum na (fun k => Sum na (fun l => (Sum na (fun i => Sum na (fun j => p1a i j * aa i j k l)) - Sum nb (fun i => Sum nb (fun j => ab k l i j * p1b i j))) * p2a k l))
  + Sum nb (fun k => Sum nb (fun l => (Sum nb (fun i => Sum nb (fun j => p1b i j * bb i j k l)) - Sum na (fun i => Sum na (fun j => p1a i j * ab i j k l))) * p2b k l)).
Definition ucorr (gtb : F -> F -> bool) (nmo nocc : nat * nat) (nelectron : F) (k : kind) (dm1 : mat * mat) (dm2 : option (ten * ten * ten)) (dm2_with_dm1 : option bool)
  (frags : list ucfrag) (pa pb : mat * mat) : option F :=
  match k with
  | SzSz =>
    let '(f1, f2, f22) := (1 / n4, 1 / n2, 1 / n4) in
    let (na, nb) := nmo in let (noa, nob) := nocc in
    let dm2_with_dm1 := match dm2_with_dm1, dm2 with
      | Some b, _ => b
      | None, None => false
      | None, Some (aa, ab, bb) => dm2_flag gtb (tr2 na aa + n2 * Sum na (fun i => Sum nb (fun j => ab i i j j)) + tr2 nb bb) nelectron None end in
    let c := 0 + f1 * sum_tmp na na (fst pa) (fst dm1) (fst pb) in
    let c := c + f1 * sum_tmp nb nb (snd pa) (snd dm1) (snd pb) in
    let c := if dm2_with_dm1 then c else
      let da := add_diag noa (- (1 / n2)) (fst dm1) in let db := add_diag nob (- (1 / n2)) (snd dm1) in
      let c := c - f2 * sum_tmp na noa (fst pa) da (fst pb) in
      let c := c - f2 * sum_tmp nb nob (snd pa) db (snd pb) in
      let tr1 (s : bool) (p : mat * mat) := if s then tr nob (snd p) else tr noa (fst p) in
      let tr2 (s : bool) (p : mat * mat) := if s then dots nb (snd p) db else dots na (fst p) da in
      fold_left (fun c s => let '(s1, s2) := s in c + (if Bool.eqb s1 s2 then 1 else - (1)) * (tr1 s1 pa * tr2 s2 pb + tr1 s1 pb * tr2 s2 pa) / n4)
        [(false, false); (false, true); (true, false); (true, true)] c in
    let c := match dm2 with
      | Some d => c + f22 * usum_tensordot na nb (fst pa) (snd pa) d (fst pb) (snd pb)
      | None => fold_left (fun c fx => fold_left (fun c rx =>
          c + f22 * usum_tensordot (fst (uc_n fx)) (snd (uc_n fx)) (projx na (fst rx) (fst pa)) (projx nb (snd rx) (snd pa)) (uc_dm2 fx) (projx na (fst rx) (fst pb)) (projx nb (snd rx) (snd pb))) (uc_rx fx) c) frags c
      end in
    Some c
  | _ => None
  end.
End Corrfunc.
