(** * Tailoring of CCSD with the amplitudes of other fragments or of a CAS
    Model of vayesta/solver/coupling.py 43-52 (get_amplitude_norm, as far as it needs both amplitudes), 148-257 (tailor_with_fragments and the callback it
    returns), of vayesta/solver/tccsd.py 44-60 (the callback of tailored CCSD), of vayesta/solver/ext_ccsd.py 17-38 (which callback is used) and of
    vayesta/ewf/fragment.py 136-186 (add_external_corrections and clear_external_corrections), for restricted and unrestricted spin symmetry.
    transform_amplitude and project_t2 are in M_ExtCorr.
    Simplifications: entries in an arbitrary ordered commutative ring with an element half; arrays as functions of the indices with the sizes as parameters;
    the overlaps of orbitals of the two clusters and of fragment and cluster orbitals are given as matrices instead of being computed from AO coefficients;
    the wave functions of the other fragments are given by their T1 and T2 (as_ccsd is in M_TtoC); array.max() of an empty array (an exception) is taken to
    be 0; a failing call returns no amplitudes, although it may have changed them in place; the values of the norms are left out, not the evaluation of their
    arguments.  Not modelled: couple_ccsd_iterations, coupling.py 91-145, which reads solver.base, solver.cluster and solver.fragment; no solver has
    these attributes, so that every call raises AttributeError. *)
From Coq Require Import List Bool Arith.
From Verif Require Import Alg Ord M_TtoC M_ExtCorr.
Import ListNotations.
Open Scope K_scope.

Section Tailor.
Context {K : oring}.
Notation mat := (nat -> nat -> K).
Notation ten := (nat -> nat -> nat -> nat -> K).
Notation mat2 := (mat * mat)%type. Notation ten3 := (ten * ten * ten)%type.
(** the number 0.5 *)
Variable half : K.

(** Python's max and min of two numbers, coupling.py 206-210 *)
Definition max2 (x y : K) : K := if ltb x y then y else x.
Definition min2 (x y : K) : K := if ltb y x then y else x.
(** abs(r).max() for r with n x m entries, coupling.py 206 *)
Fixpoint maxn (n : nat) (f : nat -> K) : K := match n with O => 0 | S n => max2 (maxn n f) (f n) end.
Definition absmax (n m : nat) (r : mat) : K := maxn n (fun i => maxn m (fun j => absK (r i j))).

(** A fragment y, as read at coupling.py 198-226: sizes, overlaps of the orbitals of x and y (rxy_occ, rxy_vir), the overlap "frag|cluster-occ" with nf rows, amplitudes *)
Record tfrag := { t_id : nat; t_no : nat; t_nv : nat; t_nf : nat; t_ro : mat; t_rv : mat; t_f : mat; t_t1 : mat; t_t2 : ten }.
(** get_amplitude_norm(dt1, dt2), coupling.py 240 and 255: fails if one of the names is not bound *)
Definition norms {A B} (a : option A) (b : option B) : result unit := match a, b with Some _, Some _ => Ret tt | _, _ => UnboundErr end.
(** the change of T1 and T2 in the space of y, coupling.py 217-231; None for a name that is not bound *)
Definition r_delta (xo xv project : nat) (f1 f2 : bool) (y : tfrag) (t : mat * ten) : result (option mat * option ten) :=
  let d1 : mat := fun i a => t_t1 y i a - trans1 xo xv (fst t) (t_ro y) (t_rv y) i a in
  let d2 : ten := fun i j a b => t_t2 y i j a b - trans2 xo xo xv xv (snd t) (t_ro y) (t_ro y) (t_rv y) (t_rv y) i j a b in
  let proj := gram (t_nf y) (t_f y) in
  let d1 := match project with O => d1 | _ => pdot (t_no y) proj d1 end in
  rbind (if f2 then rbind (match project with O => Ret d2 | _ => project_r half (t_no y) d2 proj project end) (fun d => Ret (Some d)) else Ret None) (fun d2 =>
  Ret (if f1 then Some d1 else None, d2)).
(** the loop over the fragments with the accumulators dt1 and dt2, coupling.py 196-241 *)
Fixpoint r_tloop (tol : K) (xid xo xv project : nat) (f1 f2 : bool) (l : list tfrag) (t : mat * ten) (acc : option mat * option ten) : result (option mat * option ten) :=
  match l with
  | [] => Ret acc
  | y :: l =>
      if Nat.eqb (t_id y) xid then AssertErr else
      if ltb (min2 (absmax xo (t_no y) (t_ro y)) (absmax xv (t_nv y) (t_rv y))) tol then r_tloop tol xid xo xv project f1 f2 l t acc else
      rbind (r_delta xo xv project f1 f2 y t) (fun d =>
      let b1 := match fst d, fst acc with Some d, Some a => Some (fun i j => a i j + trans1 (t_no y) (t_nv y) d (tr (t_ro y)) (tr (t_rv y)) i j) | _, a => a end in
      let b2 := match snd d, snd acc with
        | Some d, Some a => Some (fun i j b c => a i j b c + trans2 (t_no y) (t_no y) (t_nv y) (t_nv y) d (tr (t_ro y)) (tr (t_ro y)) (tr (t_rv y)) (tr (t_rv y)) i j b c)
        | _, a => a end in
      rbind (norms (fst d) (snd d)) (fun _ => r_tloop tol xid xo xv project f1 f2 l t (b1, b2)))
  end.
(** tailor_func for restricted spin symmetry, coupling.py 186-255 *)
Definition r_tailor (tol : K) (xid xo xv : nat) (l : list tfrag) (project : nat) (f1 f2 : bool) (t : mat * ten) : result (mat * ten) :=
  rbind (r_tloop tol xid xo xv project f1 f2 l t (if f1 then Some (fun _ _ => 0) else None, if f2 then Some (fun _ _ _ _ => 0) else None)) (fun d =>
  let t1 : mat := match fst d with Some d => fun i a => fst t i a + d i a | None => fst t end in
  let t2 : ten := match snd d with Some d => fun i j a b => snd t i j a b + d i j a b | None => snd t end in
  rbind (norms (fst d) (snd d)) (fun _ => Ret (t1, t2))).

(** the same for unrestricted spin symmetry: pairs (alpha, beta) and triples (aa, ab, bb) *)
Record utfrag := { v_id : nat; v_no : nat * nat; v_nv : nat * nat; v_nf : nat * nat; v_ro : mat2; v_rv : mat2; v_f : mat2; v_t1 : mat2; v_t2 : ten3 }.
(** coupling.py 217-231, transform_amplitude for tuples at 30-39 *)
Definition u_delta (xo xv : nat * nat) (project : nat) (f1 f2 : bool) (y : utfrag) (t : mat2 * ten3) : result (option mat2 * option ten3) :=
  let '((ta, tb), (taa, tab, tbb)) := t in let '((ya, yb), (yaa, yab, ybb)) := (v_t1 y, v_t2 y) in
  let '(xoa, xob) := xo in let '(xva, xvb) := xv in let '(oa, ob) := v_ro y in let '(va, vb) := v_rv y in
  let d1 : mat2 := ((fun i a => ya i a - trans1 xoa xva ta oa va i a), (fun i a => yb i a - trans1 xob xvb tb ob vb i a)) in
  let d2 : ten3 := ((fun i j a b => yaa i j a b - trans2 xoa xoa xva xva taa oa oa va va i j a b), (fun i j a b => yab i j a b - trans2 xoa xob xva xvb tab oa ob va vb i j a b),
                    (fun i j a b => ybb i j a b - trans2 xob xob xvb xvb tbb ob ob vb vb i j a b)) in
  let pa := gram (fst (v_nf y)) (fst (v_f y)) in let pb := gram (snd (v_nf y)) (snd (v_f y)) in
  let d1 := match project with O => d1 | _ => (pdot (fst (v_no y)) pa (fst d1), pdot (snd (v_no y)) pb (snd d1)) end in
  rbind (if f2 then rbind (match project with O => Ret d2 | _ => project_u half (fst (v_no y)) (snd (v_no y)) d2 (pa, pb) project end) (fun d => Ret (Some d)) else Ret None) (fun d2 =>
  Ret (if f1 then Some d1 else None, d2)).
(** spinalg.add(dt, transform_amplitude(d, ..., inverse=True)), coupling.py 229-231 with 16-20 and 30-39 *)
Definition u_back1 (y : utfrag) (d a : mat2) : mat2 :=
  ((fun i j => fst a i j + trans1 (fst (v_no y)) (fst (v_nv y)) (fst d) (tr (fst (v_ro y))) (tr (fst (v_rv y))) i j),
   (fun i j => snd a i j + trans1 (snd (v_no y)) (snd (v_nv y)) (snd d) (tr (snd (v_ro y))) (tr (snd (v_rv y))) i j)).
Definition u_back2 (y : utfrag) (d a : ten3) : ten3 :=
  let oa := tr (fst (v_ro y)) in let ob := tr (snd (v_ro y)) in let va := tr (fst (v_rv y)) in let vb := tr (snd (v_rv y)) in
  let noa := fst (v_no y) in let nob := snd (v_no y) in let nva := fst (v_nv y) in let nvb := snd (v_nv y) in
  ((fun i j b c => fst (fst a) i j b c + trans2 noa noa nva nva (fst (fst d)) oa oa va va i j b c),
   (fun i j b c => snd (fst a) i j b c + trans2 noa nob nva nvb (snd (fst d)) oa ob va vb i j b c),
   (fun i j b c => snd a i j b c + trans2 nob nob nvb nvb (snd d) ob ob vb vb i j b c)).
(** the overlap test, coupling.py 207-210 *)
Definition u_small (tol : K) (xo xv : nat * nat) (y : utfrag) : bool :=
  ltb (min2 (max2 (absmax (fst xo) (fst (v_no y)) (fst (v_ro y))) (absmax (snd xo) (snd (v_no y)) (snd (v_ro y))))
            (max2 (absmax (fst xv) (fst (v_nv y)) (fst (v_rv y))) (absmax (snd xv) (snd (v_nv y)) (snd (v_rv y))))) tol.
(** the loop, coupling.py 196-241 *)
Fixpoint u_tloop (tol : K) (xid : nat) (xo xv : nat * nat) (project : nat) (f1 f2 : bool) (l : list utfrag) (t : mat2 * ten3) (acc : option mat2 * option ten3) : result (option mat2 * option ten3) :=
  match l with
  | [] => Ret acc
  | y :: l =>
      if Nat.eqb (v_id y) xid then AssertErr else
      if u_small tol xo xv y then u_tloop tol xid xo xv project f1 f2 l t acc else
      rbind (u_delta xo xv project f1 f2 y t) (fun d =>
      let b1 := match fst d, fst acc with Some d, Some a => Some (u_back1 y d a) | _, a => a end in
      let b2 := match snd d, snd acc with Some d, Some a => Some (u_back2 y d a) | _, a => a end in
      rbind (norms (fst d) (snd d)) (fun _ => u_tloop tol xid xo xv project f1 f2 l t (b1, b2)))
  end.
(** tailor_func for unrestricted spin symmetry, coupling.py 186-255 *)
Definition u_tailor (tol : K) (xid : nat) (xo xv : nat * nat) (l : list utfrag) (project : nat) (f1 f2 : bool) (t : mat2 * ten3) : result (mat2 * ten3) :=
  rbind (u_tloop tol xid xo xv project f1 f2 l t
    (if f1 then Some ((fun _ _ => 0), (fun _ _ => 0)) else None, if f2 then Some ((fun _ _ _ _ => 0), (fun _ _ _ _ => 0), (fun _ _ _ _ => 0)) else None)) (fun d =>
  let t1 : mat2 := match fst d with Some d => ((fun i a => fst (fst t) i a + fst d i a), (fun i a => snd (fst t) i a + snd d i a)) | None => fst t end in
  let t2 : ten3 := match snd d with
    | Some d => ((fun i j a b => fst (fst (snd t)) i j a b + fst (fst d) i j a b), (fun i j a b => snd (fst (snd t)) i j a b + snd (fst d) i j a b), (fun i j a b => snd (snd t) i j a b + snd d i j a b))
    | None => snd t end in
  rbind (norms (fst d) (snd d)) (fun _ => Ret (t1, t2))).

(** tailor_func of TRCCSD_Solver, tccsd.py 44-58: the CAS has no x nv orbitals, ro and rv hold the overlaps (cluster|CAS) *)
Definition tcc_tailor (xo xv no nv : nat) (ro rv w1 : mat) (w2 : ten) (t : mat * ten) : mat * ten :=
  let t1_cc : mat := fun i a => Sum xo (fun I => Sum xv (fun A => fst t I A * ro I i * rv A a)) in
  let t2_cc : ten := fun i j a b => Sum xo (fun I => Sum xo (fun J => Sum xv (fun A => Sum xv (fun B => snd t I J A B * ro I i * ro J j * rv A a * rv B b)))) in
  let dt1 : mat := fun i a => w1 i a - t1_cc i a in
  let dt2 : ten := fun i j a b => w2 i j a b - t2_cc i j a b in
  let dt1' : mat := fun I A => Sum no (fun i => Sum nv (fun a => dt1 i a * ro I i * rv A a)) in
  let dt2' : ten := fun I J A B => Sum no (fun i => Sum no (fun j => Sum nv (fun a => Sum nv (fun b => dt2 i j a b * ro I i * ro J j * rv A a * rv B b)))) in
  ((fun I A => fst t I A + dt1' I A), (fun I J A B => snd t I J A B + dt2' I J A B)).
End Tailor.

(** ** Which correction is applied *)
(** correction_type, ewf/fragment.py 137: the three strings or any other *)
Inductive kind := KTailor | KDelta | KExternal | KOther.
(** solver of the fragment, ewf/fragment.py 164-170: "CCSD", "extCCSD" or any other *)
Inductive solver := SCCSD | SextCCSD | SOther.
(** an entry of flags.external_corrections, ewf/fragment.py 180 *)
Definition entry := (nat * kind * nat * bool)%type.
(** the state of a fragment that these functions change: solver, flags.external_corrections, flags.test_extcorr *)
Record fstate := { fs_solver : solver; fs_list : list entry; fs_test : bool }.
(** a fragment given to add_external_corrections: id, whether it has a wave function, opts.auxiliary; 176 *)
Record cfrag := { cf_id : nat; cf_solved : bool; cf_aux : bool }.
Inductive addres := Done | AddValueError | AddRuntimeError.
(** add_external_corrections, ewf/fragment.py 136-181 *)
Definition add_external (s : fstate) (frags : list cfrag) (k : kind) (projectors : nat) (test low : bool) : addres * fstate :=
  match k with KOther => (AddValueError, s) | _ =>
    let s := match fs_solver s with SCCSD => {| fs_solver := SextCCSD; fs_list := fs_list s; fs_test := fs_test s |} | _ => s end in
    match fs_solver s with
    | SextCCSD =>
        if negb low && negb (match k with KExternal => true | _ => false end) then (AddValueError, s) else
        if existsb (fun f => negb (cf_solved f) && negb (cf_aux f)) frags then (AddValueError, s) else
        (Done, {| fs_solver := fs_solver s; fs_list := fs_list s ++ map (fun f => (cf_id f, k, projectors, low)) frags; fs_test := test |})
    | _ => (AddRuntimeError, s)
    end
  end.
(** clear_external_corrections, ewf/fragment.py 183-186 *)
Definition clear_external (s : fstate) : fstate := {| fs_solver := fs_solver s; fs_list := []; fs_test := false |}.

(** what get_callback of the solver returns or raises *)
Inductive callback := CNone | CTailor (ids : list nat) (project : nat) | CExternal (l : list entry) | CNotImplemented.
(** extRCCSD_Solver.get_callback, ext_ccsd.py 17-38; all_ids: the ids of the fragments of the embedding in order (get_fragments(id=...), qemb.py 1094-1164) *)
Definition get_callback (all_ids : list nat) (l : list entry) : callback :=
  let is_t := fun e : entry => match snd (fst (fst e)) with KTailor => true | _ => false end in
  let is_e := fun e : entry => match snd (fst (fst e)) with KExternal | KDelta => true | _ => false end in
  let tailors := filter is_t l in let externals := filter is_e l in
  match tailors, externals with
  | _ :: _, _ :: _ => CNotImplemented
  | t :: _, [] =>
      let proj := snd (fst t) in
      if existsb (fun t : entry => negb (Nat.eqb (snd (fst t)) proj)) tailors then CNotImplemented
      else CTailor (filter (fun i => existsb (fun t : entry => Nat.eqb (fst (fst (fst t))) i) tailors) all_ids) proj
  | [], _ :: _ => CExternal externals
  | [], [] => CNone
  end.
