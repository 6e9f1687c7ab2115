(** Model of the one-particle density matrices built from single clusters: vayesta/ewf/rdm.py 22-118 (make_rdm1_ccsd, partitioned fragment wave functions, also with
    mp2=True) and 121-158 (make_rdm1_ccsd_proj_lambda), vayesta/ewf/fragment.py 411-432 (_ccsd_amplitudes_for_dm, _get_projected_gamma1_intermediates) and 446-452
    (make_fragment_dm1).
    Simplifications: as in M_GlobalWf.v (real arrays over a commutative ring with 1/2, one MPI rank, overlaps in the basis of the orthonormal MOs); no AO
    representation; the PySCF functions _gamma1_intermediates and _make_rdm1 are those of the copy in core/vpyscf/ccsd_rdm.py; the overlap "mo|cluster" is block diagonal
    (occupied cluster orbitals are combinations of occupied MOs, virtual of virtual ones); the loops are over all fragments with contributes=True, copies by
    symmetry included, and a copy reads the results of its parent (core/qemb/fragment.py 360-361) and its own cluster (369-373). *)
From Coq Require Import List Arith Bool.
From Verif Require Import Alg M_Wf M_Eris M_Rdm M_GlobalWf.
Import ListNotations.

Section PartDm.
Context {K : cring}.
Open Scope K_scope.
Variable half : K.
Notation mat := (nat -> nat -> K).
Notation ten := (nat -> nat -> nat -> nat -> K).
Notation gfrag := (M_GlobalWf.gfrag K).
Notation image := (M_GlobalWf.image K).
Notation pwf := (M_GlobalWf.pwf K).
Notation gamma1 := (M_Rdm.gamma1 K).
Variables nocc nvir : nat.

(** ** make_rdm1_ccsd *)
(** Arrays doo, dvv, dov of the loop, rdm.py 62-65 *)
Record parts := { q_oo : mat; q_vv : mat; q_ov : mat }.
Definition parts0 : parts := {| q_oo := fun _ _ => 0; q_vv := fun _ _ => 0; q_ov := fun _ _ => 0 |}.
(** einsum("kiba,kjba,Ii,Jj->IJ", th2x, l2x, co, co), 78 *)
Definition part_oo (x : gfrag) (c : image) (th l : ten) : mat := fun I J =>
  Sum (g_nf x) (fun k => Sum (g_no x) (fun i => Sum (g_no x) (fun j => Sum (g_nv x) (fun b => Sum (g_nv x) (fun a => th k i b a * l k j b a * i_co c I i * i_co c J j))))).
(** einsum("ijca,ijcb,Aa,Bb->AB", th2x, l2x, cv, cv), 80 and (with other letters) 84 *)
Definition part_vv (x : gfrag) (c : image) (th l : ten) : mat := fun A B =>
  Sum (g_nf x) (fun i => Sum (g_no x) (fun j => Sum (g_nv x) (fun e => Sum (g_nv x) (fun a => Sum (g_nv x) (fun b => th i j e a * l i j e b * i_cv c A a * i_cv c B b))))).
(** einsum("ijac,ijbc,Aa,Bb->AB", th2x, l2x, cv, cv), 85 *)
Definition part_vv' (x : gfrag) (c : image) (th l : ten) : mat := fun A B =>
  Sum (g_nf x) (fun i => Sum (g_no x) (fun j => Sum (g_nv x) (fun a => Sum (g_nv x) (fun e => Sum (g_nv x) (fun b => th i j a e * l i j b e * i_cv c A a * i_cv c B b))))).
(** einsum("ijab,Ii,Jj,Aa,Bb,JB->IA", th2x, fo, co, cv, cv, l1), 82 and 87 *)
Definition part_ov (x : gfrag) (c : image) (th : ten) (l1 : mat) : mat := fun I A =>
  Sum (g_nf x) (fun i => Sum (g_no x) (fun j => Sum (g_nv x) (fun a => Sum (g_nv x) (fun b => Sum nocc (fun J => Sum nvir (fun B =>
    th i j a b * i_mf c I i * i_co c J j * i_cv c A a * i_cv c B b * l1 J B)))))).
(** einsum("jiba,Jj,Ii,Aa,Bb,JB->IA", th2x, fo, co, cv, cv, l1), 88 *)
Definition part_ov' (x : gfrag) (c : image) (th : ten) (l1 : mat) : mat := fun I A =>
  Sum (g_nf x) (fun j => Sum (g_no x) (fun i => Sum (g_nv x) (fun b => Sum (g_nv x) (fun a => Sum nocc (fun J => Sum nvir (fun B =>
    th j i b a * i_mf c J j * i_co c I i * i_cv c A a * i_cv c B b * l1 J B)))))).
(** wfx = frag.results.pwf.as_ccsd(); l2x = wfx.t2 if t_as_lambda else wfx.l2, 68-72; None: NotCalculatedError *)
Definition part_l2 (x : gfrag) (t_as_lambda : bool) : option ten :=
  let w := pwf_as_ccsd (g_pwf x) in if t_as_lambda then Some (M_Wf.t2 w) else M_Wf.l2 w.
(** Body of the loop for one fragment (a copy [c] of [x]), 68-88; [mp2]: no term ov *)
Definition part_step (symmetrize mp2 : bool) (x : gfrag) (c : image) (l2x : ten) (l1 : mat) (d : parts) : parts :=
  let th := cc_theta (M_Wf.t2 (pwf_as_ccsd (g_pwf x))) in
  {| q_oo := fun I J => q_oo d I J - part_oo x c th l2x I J;
     q_vv := fun A B => if symmetrize then (q_vv d A B + part_vv x c th l2x A B * half) + part_vv' x c th l2x A B * half
                        else q_vv d A B + part_vv x c th l2x A B;
     q_ov := fun I A => if mp2 then q_ov d I A
                        else if symmetrize then (q_ov d I A + part_ov x c th l1 I A * half) + part_ov' x c th l1 I A * half
                        else q_ov d I A + part_ov x c th l1 I A |}.
(** The loop, 67-88 *)
Definition part_loop (frags : list gfrag) (t_as_lambda symmetrize mp2 : bool) (l1 : mat) : option parts :=
  fold_left (fun (acc : option parts) x =>
    match acc, part_l2 x t_as_lambda with
    | Some d, Some l => Some (fold_left (fun d c => part_step symmetrize mp2 x c l l1 d) (images x) d)
    | _, _ => None
    end) frags (Some parts0).
(** After the loop, 98-103 *)
Definition part_singles (t1 l1 : mat) (d : parts) : parts :=
  let ov : mat := fun I A => q_ov d I A + Sum nocc (fun J => q_oo d I J * t1 J A) in
  let ov : mat := fun I A => ov I A - Sum nvir (fun B => t1 I B * q_vv d A B) in
  let ov : mat := fun I A => ov I A + (t1 I A + l1 I A - Sum nvir (fun C => Sum nocc (fun J => t1 I C * l1 J C * t1 J A))) in
  {| q_oo := fun I J => q_oo d I J - Sum nvir (fun A => l1 I A * t1 J A);
     q_vv := fun A B => q_vv d A B + Sum nocc (fun I => t1 I A * l1 I B);
     q_ov := ov |}.
(** 105-114 *)
Definition part_assemble (d : parts) (mp2 with_mf : bool) : mat :=
  let ov : mat := if mp2 then fun _ _ => 0 else q_ov d in
  let dm1 := blocks nocc (symm (q_oo d)) ov (mtrans ov) (symm (q_vv d)) in
  if with_mf then add_diag nocc two dm1 else dm1.
(** make_rdm1_ccsd, 22-118 *)
Definition part_rdm1 (frags : list gfrag) (t_as_lambda symmetrize with_mf mp2 : bool) : option mat :=
  if mp2 then
    match part_loop frags true symmetrize true (fun _ _ => 0) with
    | Some d => Some (part_assemble d true with_mf)
    | None => None
    end
  else
    match global_t1 half frags false false with
    | None => None
    | Some t1 =>
        match (if t_as_lambda then Some t1 else global_l1 half frags false false) with
        | None => None
        | Some l1 =>
            match part_loop frags t_as_lambda symmetrize false l1 with
            | None => None
            | Some d => Some (part_assemble (part_singles t1 l1 d) false with_mf)
            end
        end
    end.

(** ** make_rdm1_ccsd_proj_lambda *)
(** A fragment with results.wf (the wave function of its cluster) besides results.pwf *)
Record pfrag := { p_frag :> gfrag; p_wf : pwf }.
(** pwf.restore(sym=sym_t2), ccsd.py 136-147 and mp2.py 77-85 *)
Definition pwf_restore_sym (w : pwf) (sym : bool) : option (pwf) :=
  match w with
  | PCC w => option_map PCC (restore half w None sym)
  | PMP2 n1 t None => None
  | PMP2 n1 t (Some p) => let t := pc2 t (ptrans p) in Some (PMP2 (pcol p) (if sym then symmetrize_c2 half t else t) None)
  end.
(** _ccsd_amplitudes_for_dm, fragment.py 411-423: t1, t2, l1, l2, t1x, t2x, l1x, l2x; None for l: not calculated *)
Record dm_amps := { a_t1 : mat; a_t2 : ten; a_l1 : option mat; a_l2 : option ten; a_t1x : mat; a_t2x : ten; a_l1x : option mat; a_l2x : option ten }.
Definition amps_for_dm (x : pfrag) (t_as_lambda sym_t2 : bool) : option dm_amps :=
  let w := pwf_as_ccsd (p_wf x) in
  match option_map pwf_as_ccsd (pwf_restore_sym (g_pwf x) sym_t2) with
  | None => None
  | Some px => Some {| a_t1 := M_Wf.t1 w; a_t2 := M_Wf.t2 w;
      a_l1 := if t_as_lambda then Some (M_Wf.t1 w) else M_Wf.l1 w; a_l2 := if t_as_lambda then Some (M_Wf.t2 w) else M_Wf.l2 w;
      a_t1x := M_Wf.t1 px; a_t2x := M_Wf.t2 px;
      a_l1x := if t_as_lambda then Some (M_Wf.t1 px) else M_Wf.l1 px; a_l2x := if t_as_lambda then Some (M_Wf.t2 px) else M_Wf.l2 px |}
  end.
(** _get_projected_gamma1_intermediates, fragment.py 425-432 (None amplitudes: a TypeError) *)
Definition proj_gamma1 (x : pfrag) (t_as_lambda sym_t2 : bool) : option (gamma1) :=
  match amps_for_dm x t_as_lambda sym_t2 with
  | None => None
  | Some a =>
      match a_l1x a, a_l2x a with
      | Some l1x, Some l2x =>
          let d := cc_gamma1 (g_no x) (g_nv x) (a_t1 a) (a_t2 a) l1x l2x in
          Some {| g_oo := g_oo d; g_ov := g_ov d; g_vo := fun v i => g_vo d v i + (a_t1x a i v - a_t1 a i v); g_vv := g_vv d |}
      | _, _ => None
      end
  end.
(** make_fragment_dm1, fragment.py 446-452 *)
Definition fragment_dm1 (x : pfrag) (t_as_lambda sym_t2 : bool) : option mat :=
  option_map (fun d => cc_rdm1 (g_no x) d false) (proj_gamma1 x t_as_lambda sym_t2).
(** get_overlap("mo|cluster") *)
Definition mo_cluster (x : gfrag) (c : image) : mat := fun P p =>
  match (P <? nocc)%nat, (p <? g_no x)%nat with
  | true, true => i_co c P p
  | false, false => i_cv c (P - nocc)%nat (p - g_no x)%nat
  | _, _ => 0
  end.
(** np.linalg.multi_dot((rx, dm1x, rx.T)), rdm.py 148 *)
Definition lift_dm1 (x : gfrag) (c : image) (d : mat) : mat := fun P Q =>
  Sum (g_no x + g_nv x) (fun p => Sum (g_no x + g_nv x) (fun q => mo_cluster x c P p * d p q * mo_cluster x c Q q)).
(** make_rdm1_ccsd_proj_lambda, rdm.py 121-158 *)
Definition proj_rdm1 (frags : list pfrag) (t_as_lambda with_mf sym_t2 : bool) : option mat :=
  match fold_left (fun (acc : option mat) x =>
          match acc, fragment_dm1 x t_as_lambda sym_t2 with
          | Some m, Some d => Some (fun P Q => m P Q + Lsum (images x) (fun c => lift_dm1 x c d P Q))
          | _, _ => None
          end) frags (Some (fun _ _ => 0)) with
  | None => None
  | Some m => Some (if with_mf then add_diag nocc two m else m)
  end.
End PartDm.
Arguments parts : clear implicits.
Arguments pfrag : clear implicits.
Arguments dm_amps : clear implicits.
