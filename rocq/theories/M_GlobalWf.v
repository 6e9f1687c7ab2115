(** Model of global amplitudes and of the global one-particle density matrix of an embedding: vayesta/ewf/amplitudes.py 7-92 (get_global_t1_rhf,
    get_global_t2_rhf), vayesta/ewf/ewf.py 213-219 (get_global_l1, get_global_l2) and 278-292 (with_mf), vayesta/ewf/rdm.py 152-455
    (make_rdm1_ccsd_global_wf: the slow algorithm from the global wave function and the fast one by pairs of clusters).
    Simplifications: real arrays as functions of their indices over a commutative ring with 1/2 ([half]); one MPI rank; all overlaps with AO orbitals are given in the
    basis of the (orthonormal) molecular orbitals: C^T S c is the overlap matrix "mo|c", and a symmetry operation is the matrix C^T S op(C) of the occupied and
    of the virtual orbitals (occupied and virtual space are invariant); np.linalg.svd and the norms used for skipping pairs are arbitrary functions;
    the log messages and the counts of kept singular values are not modelled. *)
From Coq Require Import List Arith Bool.
From Verif Require Import Alg M_Wf M_Eris M_Rdm.
Import ListNotations.

Section GlobalWf.
Context {K : cring}.
Open Scope K_scope.
Variable half : K.
Notation mat := (nat -> nat -> K).
Notation ten := (nat -> nat -> nat -> nat -> K).

(** One fragment of a set of symmetry copies: overlaps of its fragment orbitals, occupied and virtual cluster orbitals with the MOs
    (get_overlap("mo[occ]|frag"), "mo[occ]|cluster[occ]", "mo[vir]|cluster[vir]"; np.dot(cs_occ, ...) in amplitudes.py 39-40 and rdm.py 282-287), and the
    symmetry operation that makes it from the first fragment of the set (occupied, virtual) *)
Record image := { i_mf : mat; i_co : mat; i_cv : mat; i_go : mat; i_gv : mat }.
(** results.pwf of a solver CCSD or MP2, ewf/fragment.py 258-288 *)
Inductive pwf := PCC (w : ccsd K) | PMP2 (n1 : nat) (t : ten) (p : option (proj K)).
(** A fragment without symmetry parent: fragment orbitals, occupied and virtual cluster orbitals, get_overlap("cluster[occ]|frag"), results.pwf,
    opts.t_as_lambda, its own overlaps and those of its symmetry children in the order of loop_symmetry_children (fragment.py 772-810, see C12) *)
Record gfrag := { g_nf : nat; g_no : nat; g_nv : nat; g_cf : mat; g_pwf : pwf; g_tal : bool; g_self : image; g_children : list image }.
(** solver == "MP2" *)
Definition is_mp2 (x : gfrag) : bool := match g_pwf x with PMP2 _ _ _ => true | PCC _ => false end.
(** pwf.as_ccsd(), ccsd.py 184-185 and mp2.py 96-99 *)
Definition pwf_as_ccsd (w : pwf) : ccsd K :=
  match w with
  | PCC w => w
  | PMP2 n1 t p => {| nocc1 := n1; M_Wf.t1 := fun _ _ => 0; M_Wf.t2 := t; M_Wf.l1 := Some (fun _ _ => 0); M_Wf.l2 := Some t; projector := p |}
  end.
(** pwf.restore(), ccsd.py 136-147 and mp2.py 77-85 *)
Definition pwf_restore (w : pwf) : option pwf :=
  match w with
  | PCC w => option_map PCC (restore half w None true)
  | PMP2 n1 t None => None
  | PMP2 n1 t (Some p) => Some (PMP2 (pcol p) (symmetrize_c2 half (pc2 t (ptrans p))) None)
  end.
(** pwf.restore().as_ccsd() *)
Definition restored (x : gfrag) : option (ccsd K) := option_map pwf_as_ccsd (pwf_restore (g_pwf x)).
(** loop_symmetry_children(..., include_self=True); maxgen = 0 without use_sym *)
Definition images (x : gfrag) : list image := g_self x :: g_children x.

Definition Sum2 (n m : nat) (f : nat -> nat -> K) : K := Sum n (fun i => Sum m (fun j => f i j)).
Definition Sum4 (n m k l : nat) (f : nat -> nat -> nat -> nat -> K) : K := Sum2 n m (fun i j => Sum2 k l (fun a b => f i j a b)).
(** dot(ro, t1, rv.T), 41 *)
Definition lift1 (x : gfrag) (c : image) (t : mat) : mat := fun I A => Sum (g_nv x) (fun a => Sum (g_no x) (fun i => i_co c I i * t i a) * i_cv c A a).
(** einsum("ijab,Ii,Jj,Aa,Bb->IJAB", t2, ro, ro, rv, rv), 84 *)
Definition lift2 (x : gfrag) (c : image) (t : ten) : ten := fun I J A B =>
  Sum4 (g_no x) (g_no x) (g_nv x) (g_nv x) (fun i j a b => t i j a b * i_co c I i * i_co c J j * i_cv c A a * i_cv c B b).

(** Body of the loop of get_global_t1_rhf, 31-36: None: an error, Some None: skipped *)
Definition t1_of (x : gfrag) (get_lambda for_dm2 : bool) : option (option mat) :=
  match restored x with
  | None => None
  | Some w =>
      if for_dm2 && is_mp2 x then Some None
      else match (if get_lambda && negb (g_tal x) then M_Wf.l1 w else Some (M_Wf.t1 w)) with None => None | Some t => Some (Some t) end
  end.
(** get_global_t1_rhf, 7-47 (MO basis) *)
Definition global_t1 (frags : list gfrag) (get_lambda for_dm2 : bool) : option mat :=
  fold_left (fun (acc : option mat) x =>
    match acc, t1_of x get_lambda for_dm2 with
    | Some m, Some (Some t) => Some (fun I A => m I A + Lsum (images x) (fun c => lift1 x c t I A))
    | Some m, Some None => Some m
    | _, _ => None
    end) frags (Some (fun _ _ => 0)).
(** Body of the loop of get_global_t2_rhf, 69-83 *)
Definition t2_of (x : gfrag) (get_lambda for_dm2 : bool) : option (option ten) :=
  match restored x with
  | None => None
  | Some w =>
      if for_dm2 && is_mp2 x then (if get_lambda then Some None else Some (Some (fun i j a b => two * M_Wf.t2 w i j a b)))
      else match (if get_lambda && negb (g_tal x) then M_Wf.l2 w else Some (M_Wf.t2 w)) with None => None | Some t => Some (Some t) end
  end.
(** get_global_t2_rhf, 50-92: the loop is over all fragments (in the order of their registration), the copies use the results of their parent *)
Definition global_t2 (frags : list gfrag) (get_lambda for_dm2 : bool) : option ten :=
  fold_left (fun (acc : option ten) x =>
    match acc, t2_of x get_lambda for_dm2 with
    | Some m, Some (Some t) => Some (fun I J A B => m I J A B + Lsum (images x) (fun c => lift2 x c t I J A B))
    | Some m, Some None => Some m
    | _, _ => None
    end) frags (Some (fun _ _ _ _ => 0)).
(** get_global_l1, get_global_l2, ewf.py 213-219 *)
Definition global_l1 (frags : list gfrag) (t_as_lambda for_dm2 : bool) : option mat := global_t1 frags (negb t_as_lambda) for_dm2.
Definition global_l2 (frags : list gfrag) (t_as_lambda for_dm2 : bool) : option ten := global_t2 frags (negb t_as_lambda) for_dm2.

(** ** Density matrix *)
Variables nocc nvir : nat.
Definition zero1 : mat := fun _ _ => 0.
(** make_rdm1_ccsd_global_wf, slow=True, rdm.py 198-209 *)
Definition rdm1_slow (frags : list gfrag) (t_as_lambda with_t1 : bool) : option mat :=
  match global_t1 frags false false, global_t2 frags false false with
  | Some t1, Some t2 =>
      match (if t_as_lambda then Some t1 else global_l1 frags false false), (if t_as_lambda then Some t2 else global_l2 frags false false) with
      | Some l1, Some l2 =>
          let '(t1, l1) := if with_t1 then (t1, l1) else (zero1, zero1) in
          Some (cc_rdm1 nocc (cc_gamma1 nocc nvir t1 t2 l1 l2) false)
      | _, _ => None
      end
  | _, _ => None
  end.

(** The SVD of an overlap matrix of shape (m, n), 291-308: number of kept singular values, u sqrt(s), sqrt(s) v; None for svd_tol=None *)
Variable svd : option (nat -> nat -> mat -> nat * mat * mat).
(** Screening of pairs, 316-326: overlaps of the occupied and of the virtual cluster orbitals *)
Variable skip : mat -> mat -> bool.
(** np.dot(cx_occ.T, cy_occ), 285 *)
Definition ovlp (n : nat) (cx cy : mat) : mat := fun i j => Sum n (fun p => cx p i * cy p j).

Section Pair.
(** Fragment x with theta, fragment y with a copy [c] and l2; overlaps ro, rv *)
Variables (x y : gfrag) (c : image) (theta l2 : ten) (ro rv : mat).
Let nfx := g_nf x. Let nox := g_no x. Let nvx := g_nv x. Let nfy := g_nf y. Let noy := g_no y. Let nvy := g_nv y.
(** Contributions to doox and dvvx, 342-353: late_t2_sym=False *)
Definition early_tmp : ten := fun i I b B =>
  match svd with
  | None => Sum2 noy nvy (fun J A => Sum2 nox nvx (fun j a => theta i j a b * ro j J * rv a A) * l2 I J A B)
  | Some f =>
      let '(ns, uo, vo) := f nox noy ro in let '(np, uv, vv) := f nvx nvy rv in
      Sum2 ns np (fun s p => Sum2 nox nvx (fun j a => theta i j a b * uo j s * uv a p) * Sum2 noy nvy (fun J A => vo s J * vv p A * l2 I J A B))
  end.
Definition early_oo : mat := fun i Q => Sum noy (fun I => - Sum2 nvx nvy (fun b B => early_tmp i I b B * rv b B) * i_co c Q I).
Definition early_vv : mat := fun b Q => Sum nvy (fun B => Sum2 nox noy (fun i I => early_tmp i I b B * ro i I) * i_cv c Q B).
(** late_t2_sym=True: overlaps with fragment orbitals, 355-363 *)
Definition cfxy : mat := fun j Y =>
  match svd with
  | None => Sum noy (fun J => ro j J * g_cf y J Y)
  | Some f => let '(ns, u, v) := f nox noy ro in Sum noy (fun J => Sum ns (fun s => u j s * v s J) * g_cf y J Y)
  end.
Definition cfyx : mat := fun J k =>
  match svd with
  | None => Sum nox (fun j => ro j J * g_cf x j k)
  | Some f => let '(ns, u, v) := f nox noy ro in Sum nox (fun j => Sum ns (fun s => v s J * u j s) * g_cf x j k)
  end.
Definition ffxy : mat := fun k Y =>
  match svd with
  | None => Sum noy (fun J => Sum nox (fun j => g_cf x j k * ro j J) * g_cf y J Y)
  | Some f => let '(ns, u, v) := f nox noy ro in Sum noy (fun J => Sum ns (fun s => Sum nox (fun j => g_cf x j k * u j s) * v s J) * g_cf y J Y)
  end.
(** Occupied part, 365-389 *)
Definition late_oo_with (nP nQ : nat) (t2tmp l2tmp : ten) (tmp1 : mat) : mat := fun i Q =>
  let t1 := Sum2 nfx nfy (fun k Y => g_cf x i k * (half * half * - tmp1 k Y) * i_mf c Q Y) in
  let t2 := Sum2 nfx noy (fun k I => g_cf x i k * (half * half * - Sum nfy (fun Y => Sum2 nP nQ (fun A B => Sum nox (fun j => t2tmp k j A B * cfxy j Y) * l2tmp Y I B A))) * i_co c Q I) in
  let t3 := Sum nfy (fun Y => half * half * - Sum nfx (fun k => Sum2 nP nQ (fun A B => t2tmp k i B A * Sum noy (fun J => cfyx J k * l2tmp Y J A B))) * i_mf c Q Y) in
  let t4 := Sum noy (fun I => half * half * - Sum2 nfx nfy (fun k Y => Sum2 nP nQ (fun A B => t2tmp k i B A * ffxy k Y * l2tmp Y I B A)) * i_co c Q I) in
  t1 + t2 + t3 + t4.
Definition late_oo : mat :=
  match svd with
  | None =>
      let t2tmp : ten := fun k j A B => Sum2 nvx nvx (fun a b => theta k j a b * rv a A * rv b B) in
      let tmp1 : mat := fun k Y => Sum noy (fun J => Sum2 nvy nvy (fun A B => Sum nox (fun j => t2tmp k j A B * ro j J) * l2 Y J A B)) in
      late_oo_with nvy nvy t2tmp l2 tmp1
  | Some f =>
      let '(np, uv, vv) := f nvx nvy rv in let '(ns, uo, vo) := f nox noy ro in
      let t2tmp : ten := fun k j A B => Sum2 nvx nvx (fun a b => theta k j a b * uv a A * uv b B) in
      let l2tmp : ten := fun Y j A B => Sum2 nvy nvy (fun a b => l2 Y j a b * vv A a * vv B b) in
      let tmp1 : mat := fun k Y => Sum ns (fun s => Sum2 np np (fun A B => Sum nox (fun j => t2tmp k j A B * uo j s) * Sum noy (fun J => vo s J * l2tmp Y J A B))) in
      late_oo_with np np t2tmp l2tmp tmp1
  end.
(** Virtual part, 391-411 *)
Definition late_vv : mat := fun b Q =>
  let q := half * half in
  let u2 : ten := fun k Y a b => Sum nox (fun j => theta k j a b * cfxy j Y) in      (* t2tmp, 404 *)
  let m2 : ten := fun Y k A B => Sum noy (fun J => cfyx J k * l2 Y J A B) in         (* l2tmp, 405 *)
  let tmp : mat := fun b B =>
    match svd with
    | None =>
        let t2tmp : ten := fun Y J a b => Sum2 nfx nox (fun k j => theta k j a b * ffxy k Y * ro j J) in
        Sum2 nfy noy (fun Y J => Sum nvy (fun A => Sum nvx (fun a => t2tmp Y J a b * rv a A) * l2 Y J A B)) * q
        + Sum2 nfy noy (fun Y J => Sum nvy (fun A => Sum nvx (fun a => t2tmp Y J b a * rv a A) * l2 Y J B A)) * q
        + Sum2 nfx nfy (fun k Y => Sum nvy (fun A => Sum nvx (fun a => u2 k Y a b * rv a A) * m2 Y k B A)) * q
        + Sum2 nfx nfy (fun k Y => Sum nvy (fun A => Sum nvx (fun a => u2 k Y b a * rv a A) * m2 Y k A B)) * q
    | Some f =>
        let '(np, uv, vv) := f nvx nvy rv in let '(ns, uo, vo) := f nox noy ro in
        let t2tmp : ten := fun k s a b => Sum nox (fun j => theta k j a b * uo j s) in
        let l2tmp : ten := fun k s A B => Sum2 nfy noy (fun Y J => l2 Y J A B * vo s J * ffxy k Y) in
        Sum2 nfx ns (fun k s => Sum np (fun p => Sum nvx (fun a => t2tmp k s a b * uv a p) * Sum nvy (fun A => vv p A * l2tmp k s A B))) * q
        + Sum2 nfx ns (fun k s => Sum np (fun p => Sum nvx (fun a => t2tmp k s b a * uv a p) * Sum nvy (fun A => vv p A * l2tmp k s B A))) * q
        + Sum2 nfx nfy (fun k Y => Sum np (fun p => Sum nvx (fun a => u2 k Y a b * uv a p) * Sum nvy (fun A => vv p A * m2 Y k B A))) * q
        + Sum2 nfx nfy (fun k Y => Sum np (fun p => Sum nvx (fun a => u2 k Y b a * uv a p) * Sum nvy (fun A => vv p A * m2 Y k A B))) * q
    end in
  Sum nvy (fun B => tmp b B * i_cv c Q B).
End Pair.

(** wfx.restore() without late_t2_sym, 252-254 and 276-277 *)
Definition pair_wf (late : bool) (x : gfrag) : option (ccsd K) := if late then Some (pwf_as_ccsd (g_pwf x)) else restore half (pwf_as_ccsd (g_pwf x)) None true.
(** l2, 329-331; None: RuntimeError *)
Definition pair_l2 (t_as_lambda : bool) (y : gfrag) (w : ccsd K) : option ten := if t_as_lambda || is_mp2 y then Some (M_Wf.t2 w) else M_Wf.l2 w.
(** A fragment with the copies that the loops visit: all copies of the parents (use_sym=True, sym_parent=None), or every fragment on its own (maxgen=0) *)
Definition loop_frags (use_sym : bool) (frags : list gfrag) : list gfrag :=
  if use_sym then frags
  else flat_map (fun x => map (fun c => {| g_nf := g_nf x; g_no := g_no x; g_nv := g_nv x; g_cf := g_cf x; g_pwf := g_pwf x; g_tal := g_tal x; g_self := c; g_children := [] |}) (images x)) frags.
(** doox and dvvx of fragment x: the loop over fragments y and their copies, 269-411 *)
Definition pairs (late t_as_lambda : bool) (ys : list gfrag) (x : gfrag) (theta : ten) : option (mat * mat) :=
  fold_left (fun (acc : option (mat * mat)) y =>
    match acc, pair_wf late y with
    | Some _, Some wy =>
        fold_left (fun (acc : option (mat * mat)) c =>
          match acc with
          | None => None
          | Some (oo, vv) =>
              let ro := ovlp nocc (i_co (g_self x)) (i_co c) in let rv := ovlp nvir (i_cv (g_self x)) (i_cv c) in
              if skip ro rv then Some (oo, vv)
              else match pair_l2 t_as_lambda y wy with
                   | None => None
                   | Some l2 =>
                       let doo := if late then late_oo x y c theta l2 ro rv else early_oo x y c theta l2 ro rv in
                       let dvv := if late then late_vv x y c theta l2 ro rv else early_vv x y c theta l2 ro rv in
                       Some ((fun i Q => oo i Q + doo i Q), (fun b Q => vv b Q + dvv b Q))
                   end
          end) (images y) acc
    | _, _ => None
    end) ys (Some (zero1, zero1)).
(** np.dot(cx_occ, doox) and, for a copy of x, dot(cs_occ, cx2_occ, doox2, cs_occ.T), 413-425 *)
Definition add_oo (x : gfrag) (c : image) (self : bool) (doox : mat) : mat := fun I Q =>
  Sum (g_no x) (fun i => i_co c I i * (if self then doox i Q else Sum nocc (fun q => doox i q * i_go c Q q))).
Definition add_vv (x : gfrag) (c : image) (self : bool) (dvvx : mat) : mat := fun A Q =>
  Sum (g_nv x) (fun a => i_cv c A a * (if self then dvvx a Q else Sum nvir (fun q => dvvx a q * i_gv c Q q))).
(** "T2 * L1", 427-443 *)
Definition l1x (x : gfrag) (l1 : mat) : mat := fun i a => Sum nvir (fun A => Sum nocc (fun I => i_co (g_self x) I i * l1 I A) * i_cv (g_self x) A a).
Definition add_ov (late : bool) (x : gfrag) (theta : ten) (l1 : mat) (c : image) : mat := fun I A =>
  if late then
    let dovx1 : mat := fun k a => Sum2 (g_no x) (g_nv x) (fun j b => theta k j a b * l1x x l1 j b) * half in
    let dovx2 : mat := fun i a => Sum2 (g_nf x) (g_nv x) (fun k b => theta k i b a * Sum (g_no x) (fun j => g_cf x j k * l1x x l1 j b)) * half in
    Sum (g_nv x) (fun a => Sum (g_nf x) (fun k => i_mf c I k * dovx1 k a) * i_cv c A a) + Sum (g_nv x) (fun a => Sum (g_no x) (fun i => i_co c I i * dovx2 i a) * i_cv c A a)
  else
    let dovx : mat := fun i a => Sum2 (g_no x) (g_nv x) (fun j b => theta i j a b * l1x x l1 j b) in
    Sum2 (g_no x) (g_nv x) (fun i a => dovx i a * i_co c I i * i_cv c A a).
(** make_rdm1_ccsd_global_wf, slow=False, 211-455 *)
Definition rdm1_fast (frags : list gfrag) (t_as_lambda with_t1 use_sym late : bool) : option mat :=
  match (if with_t1 then global_t1 frags false false else Some zero1), (if with_t1 then global_l1 frags t_as_lambda false else Some zero1) with
  | Some t1, Some l1 =>
      let xs := loop_frags use_sym frags in
      match fold_left (fun (acc : option (mat * mat * mat)) x =>
              match acc, pair_wf late x with
              | Some (doo, dvv, dov), Some wx =>
                  let theta := cc_theta (M_Wf.t2 wx) in
                  match pairs late t_as_lambda xs x theta with
                  | None => None
                  | Some (doox, dvvx) =>
                      Some ((fun I Q => doo I Q + (add_oo x (g_self x) true doox I Q + Lsum (g_children x) (fun c => add_oo x c false doox I Q))),
                            (fun A Q => dvv A Q + (add_vv x (g_self x) true dvvx A Q + Lsum (g_children x) (fun c => add_vv x c false dvvx A Q))),
                            (fun I A => if with_t1 then dov I A + Lsum (images x) (fun c => add_ov late x theta l1 c I A) else dov I A))
                  end
              | _, _ => None
              end) xs (Some (zero1, zero1, zero1)) with
      | None => None
      | Some (doo, dvv, dov) =>
          let dov' : mat := fun i a => dov i a + (t1 i a + l1 i a - Sum2 nvir nocc (fun e m => t1 i e * l1 m e * t1 m a))
                                       + Sum nocc (fun m => doo i m * t1 m a) - Sum nvir (fun e => t1 i e * dvv a e) in
          let doo' : mat := fun i j => doo i j - Sum nvir (fun a => t1 j a * l1 i a) in
          let dvv' : mat := fun a b => dvv a b + Sum nocc (fun i => t1 i a * l1 i b) in
          Some (if with_t1 then blocks nocc (symm doo') dov' (mtrans dov') (symm dvv') else blocks nocc (symm doo) zero1 zero1 (symm dvv))
      end
  | _, _ => None
  end.
(** _make_rdm1_ccsd_global_wf, ewf.py 278-285 *)
Definition with_mean_field (dm1 : option mat) (with_mf : bool) : option mat := option_map (fun d => if with_mf then add_diag nocc two d else d) dm1.
End GlobalWf.
Arguments image : clear implicits. Arguments gfrag : clear implicits. Arguments pwf : clear implicits.
