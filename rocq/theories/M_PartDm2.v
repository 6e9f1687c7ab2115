(** Model of two-particle density matrices and density-matrix energies built from single clusters: vayesta/ewf/fragment.py 434-444
    (_get_projected_gamma2_intermediates), 454-494 (make_fragment_dm2cumulant) and 503-533 (make_fragment_dm2cumulant_energy), vayesta/ewf/rdm.py 469-505
    (make_rdm2_ccsd_global_wf), 508-576 (make_rdm2_ccsd_proj_lambda) and vayesta/ewf/ewf.py 397-425 (get_dm_corr_energy_e2).
    Simplifications: as in M_PartDm.v (real arrays over a commutative ring with 1/2, one MPI rank except in [allreduce], MO basis, block diagonal overlaps "mo|cluster");
    the PySCF functions _gamma2_intermediates and _make_rdm2 are those of the copy in core/vpyscf/ccsd_rdm.py (M_Gamma2.v, M_Eris.v); approx_cumulant is a
    natural number (False = 0, True = 1); a fragment uses the solver of its wave function (MP2 or CCSD). *)
From Coq Require Import List Arith Bool.
From Verif Require Import Alg M_Wf M_Eris M_Rdm M_GlobalWf M_PartDm M_Gamma2.
Import ListNotations.

Section PartDm2.
Context {K : cring}.
Open Scope K_scope.
Variable half : K.
Notation mat := (nat -> nat -> K).
Notation ten := (nat -> nat -> nat -> nat -> K).
Notation gfrag := (M_GlobalWf.gfrag K).
Notation image := (M_GlobalWf.image K).
Notation pfrag := (M_PartDm.pfrag K).

(** Result or exception: NotImplementedError; a missing Lambda amplitude (TypeError); ValueError *)
Inductive outcome (A : Type) := Ok (a : A) | NotImplemented | NotCalculated | BadValue.
Arguments Ok {A}. Arguments NotImplemented {A}. Arguments NotCalculated {A}. Arguments BadValue {A}.
Definition bind {A B} (x : outcome A) (f : A -> outcome B) : outcome B :=
  match x with Ok a => f a | NotImplemented => NotImplemented | NotCalculated => NotCalculated | BadValue => BadValue end.
Definition of_option {A} (x : option A) : outcome A := match x with Some a => Ok a | None => NotCalculated end.

(** Lines 438-443 of _get_projected_gamma2_intermediates *)
Definition pgamma2 (n nv : nat) (t1 : mat) (t2 : ten) (t1x : mat) (t2x : ten) (l1x : mat) (l2x : ten) : dm2i K :=
  let d := cc_gamma2 half n nv t1 t2 l1x l2x in
  let dtau : ten := fun i j v w => (t2x i j v w - t2 i j v w) + (t1x i v - t1 i v) * t1 j w in
  {| d_ovov := fun i v j w => (d_ovov d i v j w + dtau i j v w) - dtau i j w v * half;
     d_vvvv := d_vvvv d; d_oooo := d_oooo d; d_oovv := d_oovv d; d_ovvo := d_ovvo d; d_ovvv := d_ovvv d; d_ooov := d_ooov d |}.
(** _get_projected_gamma2_intermediates, fragment.py 434-444 *)
Definition proj_gamma2 (x : pfrag) (t_as_lambda sym_t2 : bool) : option (dm2i K) :=
  match amps_for_dm half x t_as_lambda sym_t2 with
  | None => None
  | Some a =>
      match a_l1x a, a_l2x a with
      | Some l1x, Some l2x => Some (pgamma2 (g_no x) (g_nv x) (a_t1 a) (a_t2 a) (a_t1x a) (a_t2x a) l1x l2x)
      | _, _ => None
      end
  end.
(** dovov of the MP2 branch, fragment.py 463 *)
Definition mp2_dovov (t2x : ten) : ten := fun i v j w => two * (two * t2x i j v w - t2x i j w v).
Definition mp2_t2x (x : pfrag) (sym_t2 : bool) : option ten := option_map (fun w => M_Wf.t2 (pwf_as_ccsd w)) (pwf_restore_sym half (g_pwf x) sym_t2).
(** np.zeros with the blocks ovov and vovo, fragment.py 466-472 *)
Definition mp2_dm2 (n : nat) (dovov : ten) : ten :=
  put n n true false true false (tconj dovov) (put n n false true false true dovov (fun _ _ _ _ => 0)).
(** einsum("ij,kl->ijkl", a, b) / 2 + ... , fragment.py 485-490 *)
Definition proj_product (dm1 dm1x : mat) : ten := fun i j k l =>
  dm1 i j * dm1x k l * half + dm1x i j * dm1 k l * half - dm1 i l * dm1x j k * (half * half) - dm1x i l * dm1 j k * (half * half).
(** 492-493 *)
Definition avg4 (x : ten) : ten := fun p q r s => (x p q r s + x q p s r + x r s p q + x s r q p) * (half * half).
(** make_fragment_dm2cumulant with full_shape=True, fragment.py 454-494; [out]: the uninitialised array of _make_rdm2 *)
Definition fragment_dm2c (x : pfrag) (t_as_lambda sym_t2 sym_dm2 : bool) (approx : nat) (out : ten) : outcome ten :=
  if is_mp2 x then
    if (approx =? 1)%nat then bind (of_option (mp2_t2x x sym_t2)) (fun t => Ok (mp2_dm2 (g_no x) (mp2_dovov t)))
    else NotImplemented
  else
    bind (of_option (proj_gamma2 x t_as_lambda sym_t2)) (fun d2 =>
    let dm2 := make_rdm2_rhf (g_no x) d2 out in
    bind (match approx with
          | 2%nat => NotImplemented
          | O =>
              bind (of_option (fragment_dm1 half x t_as_lambda sym_t2)) (fun dm1x =>
              let w := pwf_as_ccsd (p_wf x) in
              match M_Wf.l1 w, M_Wf.l2 w with              (* wf.make_rdm1(with_mf=False), ccsd.py 43-59: t_as_lambda=False *)
              | Some l1, Some l2 =>
                  let dm1 := cc_rdm1 (g_no x) (cc_gamma1 (g_no x) (g_nv x) (M_Wf.t1 w) (M_Wf.t2 w) l1 l2) false in
                  Ok (fun i j k l => dm2 i j k l - proj_product dm1 dm1x i j k l)
              | _, _ => NotCalculated
              end)
          | _ => Ok dm2
          end) (fun dm2 => Ok (if sym_dm2 && negb sym_t2 then avg4 dm2 else dm2))).

(** ** The density matrix of the system *)
Variables nocc nvir : nat.
(** einsum("ijkl,Ii,Jj,Kk,Ll->IJKL", dm2x, rx, rx, rx, rx), rdm.py 547 *)
Definition lift_dm2 (x : gfrag) (c : image) (d : ten) : ten := fun P Q R S =>
  let n := (g_no x + g_nv x)%nat in let rx := mo_cluster nocc x c in
  Sum n (fun p => Sum n (fun q => Sum n (fun r => Sum n (fun s => d p q r s * rx P p * rx Q q * rx R r * rx S s)))).
(** The loop, 544-547: the fragments' default sym_dm2=True is used whatever the argument of make_rdm2_ccsd_proj_lambda *)
Definition proj_dm2 (frags : list pfrag) (t_as_lambda sym_t2 : bool) (approx : nat) (out : ten) : outcome ten :=
  fold_left (fun (acc : outcome ten) x =>
    bind acc (fun m => bind (fragment_dm2c x t_as_lambda sym_t2 true approx out) (fun d =>
    Ok (fun P Q R S => m P Q R S + Lsum (images x) (fun c => lift_dm2 x c d P Q R S))))) frags (Ok (fun _ _ _ _ => 0)).
(** with_dm1: False, True or an array *)
Inductive with_dm1 := WNo | WTrue | WArray (d : mat).
(** einsum("ij,kl->ijkl", dm1, dm1) - einsum("ij,kl->iklj", dm1, dm1) / 2, 558 *)
Definition add_product (dm1 : mat) (x : ten) : ten := fun i j k l => x i j k l + (dm1 i j * dm1 k l - dm1 i l * dm1 j k * half).
(** 562-568 *)
Definition add_mean_field (dm1 : mat) (x : ten) : ten :=
  let dm1 := add_diag nocc (- (1)) dm1 in
  for_range nocc (fun i x => add_i__i i (- (1)) (mtrans dm1) (add__ii_ i (- (1)) dm1 (add___ii i two dm1 (add_ii__ i two dm1 x)))) x.
(** make_rdm2_ccsd_proj_lambda, rdm.py 508-576; [emb_rdm1]: emb.make_rdm1(); [sym_dm2] is not used *)
Definition rdm2_proj_lambda (emb_rdm1 : option mat) (frags : list pfrag) (w : with_dm1) (t_as_lambda sym_t2 sym_dm2 : bool) (approx : nat) (out : ten) : outcome ten :=
  bind (proj_dm2 frags t_as_lambda sym_t2 approx out) (fun dm2 =>
  let add dm1 :=
    match approx with
    | O => Ok (add_product dm1 dm2)
    | 1%nat => Ok (add_mean_field dm1 dm2)
    | 2%nat => NotImplemented
    | _ => BadValue
    end in
  match w with
  | WNo => Ok dm2
  | WTrue => bind (of_option emb_rdm1) add
  | WArray dm1 => add dm1
  end).
(** make_rdm2_ccsd_global_wf, rdm.py 469-505 (slow=True) *)
Definition rdm2_global (frags : list gfrag) (symmetrize t_as_lambda with_dm1 : bool) (out : ten) : outcome ten :=
  if with_dm1 && existsb is_mp2 frags then NotImplemented
  else
    bind (of_option (global_t1 half frags false true)) (fun t1 =>
    bind (of_option (global_t2 half frags false true)) (fun t2 =>
    bind (of_option (if t_as_lambda then Some t1 else global_l1 half frags false true)) (fun l1 =>
    bind (of_option (if t_as_lambda then Some t2 else global_l2 half frags false true)) (fun l2 =>
    let dm2 := ccsd_make_rdm2 half nocc nvir t1 t2 l1 l2 out with_dm1 in
    Ok (if symmetrize then fun p q r s => (dm2 p q r s + dm2 q p s r) * half else dm2))))).

(** ** Energies *)
(** A fragment with the integrals of its cluster: blocks of get_dummy_eri_object, get_eris_bare() and get_eris_bare("ovov"); results.e_corr_dm2cumulant; sym_factor *)
Record efrag := { e_frag :> pfrag; e_eris : eris K; e_full : ten; e_ovov_bare : ten; e_cached : option K; e_sym : K }.
(** make_fragment_dm2cumulant_energy, fragment.py 503-533 *)
Definition fragment_energy2 (x : efrag) (t_as_lambda sym_t2 : bool) (approx : nat) (out : ten) : outcome K :=
  let no := g_no x in let nv := g_nv x in
  if is_mp2 x then
    if (approx =? 1)%nat then
      bind (of_option (mp2_t2x x sym_t2)) (fun t => Ok (two * contract4 no nv no nv (e_ovov_bare x) (mp2_dovov t) * half))
    else NotImplemented
  else if (approx =? 0)%nat then
    bind (fragment_dm2c x t_as_lambda sym_t2 true approx out) (fun dm2 => Ok (contract4 (no + nv) (no + nv) (no + nv) (no + nv) (e_full x) dm2 * half))
  else bind (of_option (proj_gamma2 x t_as_lambda sym_t2)) (fun d2 => Ok (contract_dm2i_rhf no nv d2 (e_eris x) * half)).
(** get_dm_corr_energy_e2(dm2="projected-lambda"), ewf.py 416-423, times ncells; t_as_lambda already replaced by the option if None; the symmetry factor of a fragment
    without parent is the number of its copies (C12) *)
Definition energy2_proj (frags : list efrag) (t_as_lambda : bool) (out : ten) : outcome K :=
  fold_left (fun (acc : outcome K) x =>
    bind acc (fun e =>
    bind (match e_cached x with
          | Some ex => if Bool.eqb t_as_lambda (g_tal x) then Ok ex else fragment_energy2 x t_as_lambda true 1 out
          | None => fragment_energy2 x t_as_lambda true 1 out
          end) (fun ex => Ok (e + nK (length (images x)) * e_sym x * ex)))) frags (Ok 0).
(** get_dm_corr_energy_e2(dm2="global-wf"), ewf.py 402-407, times ncells; [g]: get_eris_array(mo_coeff) *)
Definition energy2_global (frags : list gfrag) (g : ten) (t_as_lambda : bool) (out : ten) : outcome K :=
  bind (rdm2_global frags true t_as_lambda false out) (fun dm2 =>
  Ok (contract4 (nocc + nvir) (nocc + nvir) (nocc + nvir) (nocc + nvir) g dm2 * half)).
(** mpi.with_allreduce(): the sum of the results of all ranks, mpi/interface.py 150-164 *)
Definition allreduce (ranks : list K) : K := Lsum ranks (fun e => e).
End PartDm2.
Arguments Ok {A}. Arguments NotImplemented {A}. Arguments NotCalculated {A}. Arguments BadValue {A}.
Arguments with_dm1 : clear implicits.
Arguments efrag : clear implicits.
