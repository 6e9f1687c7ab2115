(** Model of the DMET energy: vayesta/core/qemb/qemb.py 1268-1308 (get_dmet_elec_energy), 1310-1335 (get_dmet_energy),
    vayesta/core/qemb/fragment.py 1027-1098 and vayesta/core/qemb/ufragment.py 153-215 (get_fragment_dmet_energy).
    Simplifications: real arrays as functions of their indices over a commutative ring with 1/2; everything in the MO basis (orthonormal and complete,
    so that sums over AO arrays are sums over MO arrays); one MPI rank; ncells = 1; the bare integrals of a cluster are the rotated integrals of the system
    (get_eris_bare without screening; C54 is about their blocks); the projector has not been detached from the fragment orbitals (see C35). *)
From Coq Require Import List Arith Bool.
From Verif Require Import Alg M_Rdm M_Demo.
Import ListNotations.

Section DmetEnergy.
Context {K : cring}.
Open Scope K_scope.
Variable half : K.
Notation mat := (nat -> nat -> K).
Notation ten := (nat -> nat -> nat -> nat -> K).

(** dot(c_act.T, h, c_act), fragment.py 1074, 1078 *)
Definition cl_h (nmo : nat) (o : orbs K) (h : mat) : mat := fun x y => Sum nmo (fun p => Sum nmo (fun q => rx o p x * h p q * rx o q y)).
(** hamil.get_eris_bare(), fragment.py 1066; the second pair of orbitals may have the other spin, ufragment.py 164 *)
Definition cl_g (nmo nmo' : nat) (o o' : orbs K) (g : ten) : ten := fun x y z w =>
  Sum nmo (fun p => Sum nmo (fun q => Sum nmo' (fun r => Sum nmo' (fun s => rx o p x * rx o q y * rx o' r z * rx o' s w * g p q r s)))).
(** mf.get_veff of a density matrix, restricted: J - K/2 *)
Definition vhf (nmo : nat) (g : ten) (d : mat) : mat := fun p q =>
  Sum nmo (fun r => Sum nmo (fun s => g p q r s * d r s)) - half * Sum nmo (fun r => Sum nmo (fun s => g p s r q * d r s)).

(** ** Restricted. A fragment with the density matrices of its cluster wave function: number of occupied cluster orbitals, 1-DM and cumulants as in
    M_Demo, the full 2-DM (make_rdm2(with_dm1=True)), opts.sym_factor, symmetry_factor *)
Record dfrag := { d_f : rfrag K; d_nocc : nat; d_full : ten; d_sf : K; d_w : K }.
(** results.dm1: the 1-DM including the mean field *)
Definition d_dm1 (x : dfrag) : mat := add_diag (d_nocc x) two (r_dm1 (d_f x)).
(** einsum("iipq->pq", eris[occ, occ, :, :]) - einsum("iqpi->pq", eris[occ, :, :, occ]) / 2, 1080 *)
Definition v_act (nocc : nat) (eris : ten) : mat := fun p q => Sum nocc (fun i => eris i i p q) - half * Sum nocc (fun i => eris i q p i).
(** get_fragment_dmet_energy, 1027-1098; [v] is get_veff_for_energy(with_exxdiv=False) *)
Definition frag_dmet (nmo : nat) (h v : mat) (g : ten) (part_cumulant approx_cumulant : bool) (x : dfrag) : K :=
  let o := r_o (d_f x) in
  let n := nclu o in
  let eris := cl_g nmo nmo o o g in
  let dm2 := if part_cumulant then (if approx_cumulant then r_approx (d_f x) else r_exact (d_f x)) else d_full x in
  let h1e : mat := if part_cumulant then cl_h nmo o h
             else fun p q => cl_h nmo o (fun p q => h p q + half * v p q) p q - v_act (d_nocc x) eris p q in
  let p := px nmo o in
  let e1b := Sum n (fun x' => Sum n (fun j => Sum n (fun i => h1e x' j * p x' i * d_dm1 x i j))) in
  let e2b := half * Sum n (fun x' => Sum n (fun j => Sum n (fun k => Sum n (fun l => Sum n (fun i => eris x' j k l * p x' i * dm2 i j k l))))) in
  d_sf x * (e1b + e2b).
(** get_dmet_elec_energy, 1268-1308. [frags] are the fragments without symmetry parent, [all] all contributing fragments (those of make_rdm1_demo) *)
Definition dmet_elec (nmo nocc : nat) (h : mat) (g : ten) (frags all : list dfrag) (part_cumulant approx_cumulant : bool) : K :=
  let d0 := add_diag nocc two (fun _ _ => 0) in
  let e := fold_left (fun e x => e + d_w x * frag_dmet nmo h (vhf nmo g d0) g part_cumulant approx_cumulant x) frags 0 in
  if part_cumulant then
    let dm1 := rdm1_demo half nmo nocc (map d_f all) true true in
    if approx_cumulant then e + half * Sum nmo (fun p => Sum nmo (fun q => vhf nmo g d0 p q * (two * dm1 p q - d0 p q)))
    else e + half * Sum nmo (fun p => Sum nmo (fun q => vhf nmo g dm1 p q * dm1 p q))
  else e.
(** get_dmet_energy, 1310-1335; [exx] is None without exchange divergence correction *)
Definition dmet_energy (e_elec e_nuc : K) (exx : option K) (with_nuc with_exxdiv : bool) : K :=
  let e := if with_nuc then e_elec + e_nuc else e_elec in
  match exx with Some x => if with_exxdiv then e + x else e | None => e end.

(** ** Unrestricted *)
Record udfrag := { ud_f : ufrag K; ud_nocc : nat * nat; ud_full : ten * ten * ten; ud_sf : K; ud_w : K }.
(** mf.get_veff, unrestricted: J(da + db) - K of the same spin; [gaa] the integrals of this spin, [gab] with the other spin in the second pair *)
Definition uvhf (n n' : nat) (gaa gab : ten) (da db : mat) : mat := fun p q =>
  Sum n (fun r => Sum n (fun s => gaa p q r s * da r s)) + Sum n' (fun r => Sum n' (fun s => gab p q r s * db r s)) - Sum n (fun r => Sum n (fun s => gaa p s r q * da r s)).
Definition flip (g : ten) : ten := fun p q r s => g r s p q.
(** get_fragment_dmet_energy, ufragment.py 153-215 *)
Definition ufrag_dmet (nmo : nat * nat) (ha hb va vb : mat) (gaa gab gbb : ten) (part_cumulant approx_cumulant : bool) (x : udfrag) : K :=
  let (na, nb) := nmo in
  let oa := u_a (ud_f x) in let ob := u_b (ud_f x) in
  let ca := nclu oa in let cb := nclu ob in
  let eaa := cl_g na na oa oa gaa in let eab := cl_g na nb oa ob gab in let ebb := cl_g nb nb ob ob gbb in
  let '(dm2aa, dm2ab, dm2bb) := if part_cumulant then (if approx_cumulant then u_approx (ud_f x) else u_exact (ud_f x)) else ud_full x in
  let dm1a := add_diag (fst (ud_nocc x)) 1 (u_dm1a (ud_f x)) in
  let dm1b := add_diag (snd (ud_nocc x)) 1 (u_dm1b (ud_f x)) in
  let vaa : mat := fun p q => half * (Sum (fst (ud_nocc x)) (fun i => eaa i i p q) + Sum (snd (ud_nocc x)) (fun i => eab p q i i) - Sum (fst (ud_nocc x)) (fun i => eaa i p q i)) in
  let vbb : mat := fun p q => half * (Sum (snd (ud_nocc x)) (fun i => ebb i i p q) + Sum (fst (ud_nocc x)) (fun i => eab i i p q) - Sum (snd (ud_nocc x)) (fun i => ebb i p q i)) in
  let h1a : mat := if part_cumulant then cl_h na oa ha else fun p q => cl_h na oa (fun p q => ha p q + half * va p q) p q - vaa p q in
  let h1b : mat := if part_cumulant then cl_h nb ob hb else fun p q => cl_h nb ob (fun p q => hb p q + half * vb p q) p q - vbb p q in
  let pa := px na oa in let pb := px nb ob in
  let e1b := Sum ca (fun x' => Sum ca (fun j => Sum ca (fun i => h1a x' j * pa x' i * dm1a i j)))
           + Sum cb (fun x' => Sum cb (fun j => Sum cb (fun i => h1b x' j * pb x' i * dm1b i j))) in
  let e2b := half * (
      Sum ca (fun x' => Sum ca (fun j => Sum ca (fun k => Sum ca (fun l => Sum ca (fun i => eaa x' j k l * pa x' i * dm2aa i j k l)))))
    + Sum cb (fun x' => Sum cb (fun j => Sum cb (fun k => Sum cb (fun l => Sum cb (fun i => ebb x' j k l * pb x' i * dm2bb i j k l)))))
    + Sum ca (fun x' => Sum ca (fun j => Sum cb (fun k => Sum cb (fun l => Sum ca (fun i => eab x' j k l * pa x' i * dm2ab i j k l)))))
    + Sum ca (fun i => Sum ca (fun j => Sum cb (fun x' => Sum cb (fun l => Sum cb (fun k => eab i j x' l * pb x' k * dm2ab i j k l)))))) in
  ud_sf x * (e1b + e2b).
(** get_dmet_elec_energy of an unrestricted embedding *)
Definition udmet_elec (nmo nocc : nat * nat) (ha hb : mat) (gaa gab gbb : ten) (frags all : list udfrag) (part_cumulant approx_cumulant : bool) : K :=
  let (na, nb) := nmo in
  let va (d : mat * mat) := uvhf na nb gaa gab (fst d) (snd d) in
  let vb (d : mat * mat) := uvhf nb na gbb (flip gab) (snd d) (fst d) in
  let d0 : mat * mat := (add_diag (fst nocc) 1 (fun _ _ => 0), add_diag (snd nocc) 1 (fun _ _ => 0)) in
  let e := fold_left (fun e x => e + ud_w x * ufrag_dmet nmo ha hb (va d0) (vb d0) gaa gab gbb part_cumulant approx_cumulant x) frags 0 in
  if part_cumulant then
    let dm1 := udm1_demo half nmo nocc (map ud_f all) true true in
    if approx_cumulant then
      e + half * (Sum na (fun p => Sum na (fun q => va d0 p q * (two * fst dm1 p q - fst d0 p q))) + Sum nb (fun p => Sum nb (fun q => vb d0 p q * (two * snd dm1 p q - snd d0 p q))))
    else e + half * (Sum na (fun p => Sum na (fun q => va dm1 p q * fst dm1 p q)) + Sum nb (fun p => Sum nb (fun q => vb dm1 p q * snd dm1 p q)))
  else e.
End DmetEnergy.
