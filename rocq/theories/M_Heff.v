(** Model of the one-electron parts of a cluster Hamiltonian: vayesta/solver/hamiltonian.py, get_fock, get_heff, get_eris_screened,
    get_integrals, get_dummy_eri_object and the parts of to_pyscf_mf that combine them.
    Simplifications: arrays are functions of their indices over a commutative ring (real arithmetic); the integrals and the Fock
    matrix of the full system are given; caching of the integrals (cache_eris) does not change their value and is left out. *)
From Coq Require Import List Bool Arith.
From Verif Require Import Alg.
Import ListNotations.

Section Heff.
Context {K : cring}.
Open Scope K_scope.
Notation mat := (nat -> nat -> K).
Notation ten := (nat -> nat -> nat -> nat -> K).
Definition two : K := 1 + 1.
Definition madd (a b : mat) : mat := fun p q => a p q + b p q.
Definition msub (a b : mat) : mat := fun p q => a p q - b p q.
(** dot(c.T, f, c), hamiltonian.py 136, 618 *)
Definition rot (nao : nat) (c f : mat) : mat := fun p q => Sum nao (fun x => Sum nao (fun y => c x p * f x y * c y q)).
Definition opt_add (a : mat) (b : option mat) : mat := match b with Some v => madd a v | None => a end.

(** ** Restricted *)
(** The state used by the functions below: number of active occupied orbitals, c_active, Fock matrix of the full system without and with
    exxdiv, v_ext, bare and (if set) screened cluster integrals, whether opts.screening is set, opts.match_fock; 59-82 *)
Record rham := { nocc : nat; nao : nat; c_act : mat; full_fock : bool -> mat; v_ext : option mat;
                 bare : ten; seris : option ten; screening : bool; match_fock : bool }.
(** v_act, 144-148, 160 *)
Definition v_act (n : nat) (g : ten) : mat := fun p q => two * Sum n (fun i => g i i p q) - Sum n (fun i => g i q p i).
(** get_eris_screened(), 166-176; None: RuntimeError *)
Definition get_eris_screened (h : rham) : option ten := if screening h then seris h else Some (bare h).
(** get_fock, 130-152 *)
Definition get_fock (h : rham) (with_vext : bool) (use_seris : option bool) (with_exxdiv : bool) : mat :=
  let us := match use_seris with None => negb (match_fock h) | Some u => u end in
  let f := rot (nao h) (c_act h) (full_fock h with_exxdiv) in
  let f := if with_vext then opt_add f (v_ext h) else f in
  match seris h with
  | Some s => if us then madd f (msub (v_act (nocc h) s) (v_act (nocc h) (bare h))) else f
  | None => f
  end.
(** get_heff, 154-164; None: the RuntimeError of get_eris_screened *)
Definition get_heff (h : rham) (eris : option ten) (fock : option mat) (with_vext with_exxdiv : bool) : option mat :=
  match (match eris with Some g => Some g | None => get_eris_screened h end) with
  | None => None
  | Some g =>
    let f := match fock with Some f => f | None => get_fock h false None with_exxdiv end in
    let h1 := msub f (v_act (nocc h) g) in
    Some (if with_vext then opt_add h1 (v_ext h) else h1)
  end.
(** get_integrals, 124-128 *)
Definition get_integrals (h : rham) (eris : option ten) (with_vext : bool) : option (mat * ten) :=
  match get_heff h eris None with_vext false, get_eris_screened h with
  | Some h1, Some g => Some (h1, g)
  | _, _ => None
  end.
(** The one- and two-electron integrals and the Fock matrix of the pyscf object without density fitting, 355-374: get_hcore, _eri, and get_fock,
    which is overwritten if overwrite_fock; otherwise pyscf computes it as h + v for the mean-field density matrix (equal channels: no padding) *)
Definition to_pyscf (h : rham) (force_bare overwrite_fock : bool) : option (mat * ten * mat) :=
  match get_heff h None None true false, (if force_bare then Some (bare h) else get_eris_screened h) with
  | Some h1, Some g => Some (h1, g, if overwrite_fock then get_fock h true (Some (negb force_bare)) false else madd h1 (v_act (nocc h) g))
  | _, _ => None
  end.
(** get_dummy_eri_object, 557-565: the getter of the integrals and fock *)
Definition dummy_eris (h : rham) (force_bare with_vext with_exxdiv : bool) : option ten * mat :=
  ((if force_bare then Some (bare h) else get_eris_screened h), get_fock h with_vext (Some (negb force_bare)) with_exxdiv).

(** ** Unrestricted *)
Record uham := { unocc : nat * nat; unao : nat; uc : mat * mat; ufull_fock : bool -> mat * mat; uv_ext : option (mat * mat);
                 ubare : ten * ten * ten; useris : option (ten * ten * ten); uscreening : bool; umatch_fock : bool }.
(** Coulomb and exchange of the active electrons, 626-645, 662-671 *)
Definition va (no : nat * nat) (g : ten * ten * ten) : mat := fun p q =>
  let '(gaa, gab, gbb) := g in
  Sum (fst no) (fun i => gaa i i p q) + Sum (snd no) (fun i => gab p q i i) - Sum (fst no) (fun i => gaa i p q i).
Definition vb (no : nat * nat) (g : ten * ten * ten) : mat := fun p q =>
  let '(gaa, gab, gbb) := g in
  Sum (snd no) (fun i => gbb i i p q) + Sum (fst no) (fun i => gab i i p q) - Sum (snd no) (fun i => gbb i p q i).
(** get_fock, 615-650: use_seris is True by default, opts.match_fock is not used *)
Definition uget_fock (h : uham) (with_vext : bool) (use_seris : bool) (with_exxdiv : bool) : mat * mat :=
  let f := (rot (unao h) (fst (uc h)) (fst (ufull_fock h with_exxdiv)), rot (unao h) (snd (uc h)) (snd (ufull_fock h with_exxdiv))) in
  let f := match (if with_vext then uv_ext h else None) with Some v => (madd (fst f) (fst v), madd (snd f) (snd v)) | None => f end in
  match useris h with
  | Some s => if use_seris then (madd (fst f) (msub (va (unocc h) s) (va (unocc h) (ubare h))), madd (snd f) (msub (vb (unocc h) s) (vb (unocc h) (ubare h)))) else f
  | None => f
  end.
(** get_heff, 652-674: bare integrals and the Fock matrix without screening by default *)
Definition uget_heff (h : uham) (eris : option (ten * ten * ten)) (fock : option (mat * mat)) (with_vext with_exxdiv : bool) : mat * mat :=
  let g := match eris with Some g => g | None => ubare h end in
  let f := match fock with Some f => f | None => uget_fock h false false with_exxdiv end in
  let h1 := (msub (fst f) (va (unocc h) g), msub (snd f) (vb (unocc h) g)) in
  match (if with_vext then uv_ext h else None) with Some v => (madd (fst h1) (fst v), madd (snd h1) (snd v)) | None => h1 end.
Definition uget_eris_screened (h : uham) : option (ten * ten * ten) := if uscreening h then useris h else Some (ubare h).
(** to_pyscf_mf of equal spin channels; get_fock is always overwritten, 750-754 *)
Definition uto_pyscf (h : uham) (force_bare : bool) : option ((mat * mat) * (ten * ten * ten) * (mat * mat)) :=
  match (if force_bare then Some (ubare h) else uget_eris_screened h) with
  | Some g => Some (uget_heff h None None true false, g, uget_fock h true (negb force_bare) false)
  | None => None
  end.
End Heff.
Arguments rham : clear implicits.
Arguments uham : clear implicits.
