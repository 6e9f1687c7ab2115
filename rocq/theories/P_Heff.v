(** C36: effective one-electron Hamiltonian and Fock matrix of a cluster. *)
From Coq Require Import List Bool Arith ZArith Lia.
From Verif Require Import Alg M_Heff.
Import ListNotations.
Open Scope nat_scope.

Section Thms.
Context (K : cring).
Add Ring Kr : (rth K).
Open Scope K_scope.
Notation mat := (nat -> nat -> K).
Notation ten := (nat -> nat -> nat -> nat -> K).

(** Coulomb minus exchange potential of a closed shell of n orbitals with chemists' integrals *)
Definition hf_potential (n : nat) (g : ten) (p q : nat) : K := (1 + 1) * Sum n (fun i => g i i p q) - Sum n (fun i => g i q p i).
(** One-electron matrix of the whole system in the active orbitals, plus the external potential *)
Definition target (h : rham K) (vext exx : bool) (p q : nat) : K :=
  Sum (nao h) (fun x => Sum (nao h) (fun y => c_act h x p * full_fock h exx x y * c_act h y q))
  + (if vext then match v_ext h with Some v => v p q | None => 0 end else 0).

(** A Hamiltonian that can be used: screened integrals are present if screening is requested; without a screening option only
    the bare integrals may have been stored as screened ones (fermion-boson Hamiltonians). *)
Definition ready (h : rham K) : Prop :=
  if screening h then seris h <> None else match seris h with None => True | Some s => s = bare h end.

(** The effective one-electron Hamiltonian plus the potential of the active electrons, from the interaction the solver uses, is the cluster's
    Fock matrix, with and without match_fock, v_ext and exxdiv. *)
Theorem C36_restricted : forall (h : rham K) vext exx, ready h ->
  exists h1 g, get_heff h None None vext exx = Some h1 /\ get_eris_screened h = Some g
    /\ forall p q, h1 p q + hf_potential (nocc h) g p q = get_fock h vext None exx p q.
Proof.
  intros h vext exx Hr. unfold ready in Hr.
  unfold get_heff. destruct (get_eris_screened h) as [g|] eqn:Eg.
  2:{ unfold get_eris_screened in Eg. destruct (screening h); [contradiction|discriminate]. }
  eexists _, g. split; [reflexivity|]. split; [reflexivity|]. intros p q.
  unfold get_eris_screened in Eg. unfold get_fock, hf_potential.
  destruct vext, (v_ext h), (match_fock h), (seris h) as [s|], (screening h);
    try discriminate; unfold opt_add, madd, msub, v_act, two; cbn [negb]; ring.
Qed.
(** What the Fock matrix is: with match_fock that of the full system, screened or not; otherwise its two-electron part from the active
    electrons uses the screened interaction. *)
Theorem C36_fock_matched : forall (h : rham K) vext exx p q, match_fock h = true ->
  get_fock h vext None exx p q = target h vext exx p q.
Proof.
  intros h vext exx p q E. unfold get_fock, target. rewrite E. cbn [negb]. destruct (seris h), vext, (v_ext h); unfold opt_add, madd, rot; try ring.
Qed.
Theorem C36_fock_screened : forall (h : rham K) vext exx p q s, match_fock h = false -> seris h = Some s ->
  get_fock h vext None exx p q = target h vext exx p q + (hf_potential (nocc h) s p q - hf_potential (nocc h) (bare h) p q).
Proof.
  intros h vext exx p q s E Es. unfold get_fock, target. rewrite E, Es. cbn [negb]. destruct vext, (v_ext h); unfold opt_add, madd, msub, rot, v_act, two, hf_potential; ring.
Qed.
(** Without match_fock the effective Hamiltonian does not depend on the screening; with it, the screening is compensated. *)
Theorem C36_heff_unmatched : forall (h : rham K) vext exx h1, ready h -> match_fock h = false ->
  get_heff h None None vext exx = Some h1 -> forall p q, h1 p q + hf_potential (nocc h) (bare h) p q = target h vext exx p q.
Proof.
  intros h vext exx h1 Hr E Eh p q. destruct (C36_restricted h vext exx Hr) as (h2 & g & E2 & Eg & H). rewrite E2 in Eh. injection Eh as <-.
  unfold ready, get_eris_screened in *. destruct (seris h) as [s|] eqn:Es.
  - pose proof (C36_fock_screened h vext exx p q s E Es) as Hf. specialize (H p q).
    assert (Hg : hf_potential (nocc h) g p q = hf_potential (nocc h) s p q) by (destruct (screening h); congruence).
    rewrite Hg in H. assert (X : h2 p q = get_fock h vext None exx p q - hf_potential (nocc h) s p q) by (rewrite <- H; ring). rewrite X, Hf. ring.
  - destruct (screening h); [contradiction|]. injection Eg as <-. rewrite H. unfold get_fock, target. rewrite Es. destruct vext, (v_ext h); unfold opt_add, madd, rot; ring.
Qed.
(** Mean-field energy of the cluster in two forms: from the effective Hamiltonian and the interaction, and as average of the effective and
    Fock matrices. *)
Theorem C36_energy : forall (h : rham K) vext, ready h -> exists h1 g, get_integrals h None vext = Some (h1, g) /\
  (1 + 1) * Sum (nocc h) (fun i => h1 i i) + Sum (nocc h) (fun j => hf_potential (nocc h) g j j)
  = Sum (nocc h) (fun i => h1 i i + get_fock h vext None false i i).
Proof.
  intros h vext Hr. destruct (C36_restricted h vext false Hr) as (h1 & g & E1 & E2 & H). exists h1, g.
  unfold get_integrals. rewrite E1, E2. split; [reflexivity|].
  rewrite (Sum_ext (nocc h) (fun i => h1 i i + get_fock h vext None false i i) (fun i => (1 + 1) * h1 i i + hf_potential (nocc h) g i i)).
  - now rewrite Sum_add, Sum_mul_l.
  - intros i _. rewrite <- (H i i). ring.
Qed.
(** The pyscf object (integrals not forced to be bare): one-electron part plus potential of its interaction is the Fock matrix the cluster reports. *)
Theorem C36_pyscf : forall (h : rham K), ready h -> exists h1 g f, to_pyscf h false false = Some (h1, g, f)
  /\ forall p q, f p q = get_fock h true None false p q.
Proof.
  intros h Hr. destruct (C36_restricted h true false Hr) as (h1 & g & E1 & E2 & H). eexists h1, g, _.
  unfold to_pyscf. rewrite E1, E2. split; [reflexivity|]. intros p q. unfold madd. exact (H p q).
Qed.
(** Forcing bare integrals is consistent if there is no screening, or without match_fock. *)
Lemma heff_bare (h : rham K) vext exx h1 : ready h -> (seris h = None \/ match_fock h = false) ->
  get_heff h None None vext exx = Some h1 -> forall p q, h1 p q + hf_potential (nocc h) (bare h) p q = target h vext exx p q.
Proof.
  intros Hr [Hm|Hm] E p q; [|now apply (C36_heff_unmatched h vext exx h1)].
  destruct (C36_restricted h vext exx Hr) as (h2 & g & E2 & Eg & H). rewrite E2 in E. injection E as ->.
  unfold ready, get_eris_screened in *. rewrite Hm in Hr. destruct (screening h); [contradiction|]. injection Eg as <-.
  rewrite H. unfold get_fock, target. rewrite Hm. destruct vext, (v_ext h); unfold opt_add, madd, rot; ring.
Qed.
Theorem C36_pyscf_bare : forall (h : rham K) ov, ready h -> (seris h = None \/ match_fock h = false) ->
  exists h1 f, to_pyscf h true ov = Some (h1, bare h, f) /\
  forall p q, h1 p q + hf_potential (nocc h) (bare h) p q = target h true false p q /\ f p q = target h true false p q.
Proof.
  intros h ov Hr Hm. destruct (C36_restricted h true false Hr) as (h1 & g & E1 & _ & _). eexists h1, _.
  unfold to_pyscf. rewrite E1. split; [reflexivity|]. intros p q. pose proof (heff_bare h true false h1 Hr Hm E1 p q) as Hh. split; [exact Hh|].
  destruct ov; [|exact Hh].
  unfold get_fock, target. cbn [negb]. destruct (seris h), (v_ext h); unfold opt_add, madd, rot; ring.
Qed.

(** ** Unrestricted *)
Definition ua (no : nat * nat) (g : ten * ten * ten) (p q : nat) : K :=
  let '(gaa, gab, gbb) := g in Sum (fst no) (fun i => gaa i i p q) + Sum (snd no) (fun i => gab p q i i) - Sum (fst no) (fun i => gaa i p q i).
Definition ub (no : nat * nat) (g : ten * ten * ten) (p q : nat) : K :=
  let '(gaa, gab, gbb) := g in Sum (snd no) (fun i => gbb i i p q) + Sum (fst no) (fun i => gab i i p q) - Sum (snd no) (fun i => gbb i p q i).
Definition uready (h : uham K) : Prop :=
  if uscreening h then useris h <> None else match useris h with None => True | Some s => s = ubare h end.
Theorem C36_unrestricted : forall (h : uham K) vext exx, uready h -> exists g, uget_eris_screened h = Some g /\
  forall p q, fst (uget_heff h None None vext exx) p q + ua (unocc h) g p q = fst (uget_fock h vext true exx) p q
    /\ snd (uget_heff h None None vext exx) p q + ub (unocc h) g p q = snd (uget_fock h vext true exx) p q.
Proof.
  intros h vext exx Hr. unfold uready, uget_eris_screened in *. destruct (uscreening h), (useris h) as [[[saa sab] sbb]|] eqn:Es; try contradiction.
  all: eexists; split; [reflexivity|]; intros p q; destruct (ubare h) as [[gaa gab] gbb] eqn:Eb; unfold uget_heff, uget_fock; rewrite Es, Eb.
  all: try (injection Hr as -> -> ->).
  all: destruct vext, (uv_ext h) as [[? ?]|]; cbn [fst snd]; unfold madd, msub, va, vb, ua, ub; cbn [fst snd]; split; ring.
Qed.
(** pyscf object of an unrestricted cluster: the overwritten Fock matrix is the one-electron part plus the potential of its interaction, with
    screened and with bare integrals. *)
Theorem C36_upyscf : forall (h : uham K) force, uready h -> exists h1 g f, uto_pyscf h force = Some (h1, g, f)
  /\ forall p q, fst f p q = fst h1 p q + ua (unocc h) g p q /\ snd f p q = snd h1 p q + ub (unocc h) g p q.
Proof.
  intros h force Hr. unfold uto_pyscf. destruct force; cbn [negb].
  - eexists _, _, _. split; [reflexivity|]. intros p q. destruct (ubare h) as [[gaa gab] gbb] eqn:Eb; unfold uget_heff, uget_fock; rewrite Eb.
    destruct (useris h), (uv_ext h) as [[? ?]|]; cbn [fst snd]; unfold madd, msub, va, vb, ua, ub; cbn [fst snd]; split; ring.
  - destruct (C36_unrestricted h true false Hr) as (g & Eg & H). rewrite Eg. eexists _, _, _. split; [reflexivity|].
    intros p q. destruct (H p q) as [Ha Hb]. now rewrite Ha, Hb.
Qed.

(** Closed shell: the unrestricted Hamiltonian made from a restricted one *)
Definition as_unrestricted (h : rham K) : uham K :=
  {| unocc := (nocc h, nocc h); unao := nao h; uc := (c_act h, c_act h); ufull_fock := fun e => (full_fock h e, full_fock h e);
     uv_ext := match v_ext h with Some v => Some (v, v) | None => None end; ubare := (bare h, bare h, bare h);
     useris := match seris h with Some s => Some (s, s, s) | None => None end; uscreening := screening h; umatch_fock := match_fock h |}.
Definition perm_sym (g : ten) : Prop := forall p q r s, g p q r s = g r s p q /\ g p q r s = g q p r s.
(** Without match_fock, or without screening, restricted and unrestricted Hamiltonians agree for both spins. *)
Theorem C36_closed_shell : forall (h : rham K) vext exx, ready h -> perm_sym (bare h) -> (forall s, seris h = Some s -> perm_sym s) ->
  (match_fock h = false \/ seris h = None) ->
  exists h1, get_heff h None None vext exx = Some h1 /\ forall p q,
    fst (uget_heff (as_unrestricted h) None None vext exx) p q = h1 p q
    /\ snd (uget_heff (as_unrestricted h) None None vext exx) p q = h1 p q
    /\ fst (uget_fock (as_unrestricted h) vext true exx) p q = get_fock h vext None exx p q
    /\ snd (uget_fock (as_unrestricted h) vext true exx) p q = get_fock h vext None exx p q.
Proof.
  intros h vext exx Hr Hb Hs Hm. destruct (C36_restricted h vext exx Hr) as (h1 & g & E1 & E2 & H). exists h1. split; [exact E1|]. intros p q.
  assert (Ex : forall g n, perm_sym g -> Sum n (fun i => g i p q i) = Sum n (fun i => g i q p i)).
  { intros g' n Hg. apply Sum_ext. intros i _. rewrite (proj1 (Hg i p q i)). rewrite (proj2 (Hg q i i p)).
    rewrite (proj1 (Hg i q i p)), (proj2 (Hg i p i q)). apply (Hg p i i q). }
  assert (Ec : forall g n, perm_sym g -> Sum n (fun i => g p q i i) = Sum n (fun i => g i i p q)).
  { intros g' n Hg. apply Sum_ext. intros i _. apply (Hg p q i i). }
  assert (Va : forall g, perm_sym g -> va (nocc h, nocc h) (g, g, g) p q = hf_potential (nocc h) g p q).
  { intros g' Hg. unfold va, hf_potential. cbn [fst snd]. rewrite Ex, Ec by auto. ring. }
  assert (Vb : forall g, perm_sym g -> vb (nocc h, nocc h) (g, g, g) p q = hf_potential (nocc h) g p q).
  { intros g' Hg. unfold vb, hf_potential. cbn [fst snd]. rewrite Ex by auto. ring. }
  assert (Hh : h1 p q = target h vext exx p q - hf_potential (nocc h) (bare h) p q).
  { rewrite <- (heff_bare h vext exx h1 Hr ltac:(tauto) E1). ring. }
  assert (Hfock : get_fock h vext None exx p q = target h vext exx p q + match seris h with Some s => hf_potential (nocc h) s p q - hf_potential (nocc h) (bare h) p q | None => 0 end).
  { destruct (seris h) as [s|] eqn:Es.
    - destruct Hm as [Hm|Hm]; [|discriminate]. now rewrite (C36_fock_screened h vext exx p q s Hm Es).
    - unfold get_fock, target. rewrite Es. destruct vext, (v_ext h); unfold opt_add, madd, rot; ring. }
  rewrite Hh, Hfock. unfold uget_heff, uget_fock, as_unrestricted, target. cbn [unocc unao uc ufull_fock uv_ext ubare useris fst snd].
  destruct (seris h) as [s|] eqn:Es; destruct vext, (v_ext h); cbn [fst snd]; unfold madd, msub; rewrite ?Va, ?Vb by auto; unfold rot; repeat split; ring.
Qed.
End Thms.

(** ** Cases and findings *)
Section Cases.
Open Scope Z_scope.
(** Two orbitals, one occupied; screened interaction smaller by one in (00|pq) *)
Definition ex_g (p q r s : nat) : ZK := if (p =? q)%nat && (r =? s)%nat then 3 else 1.
Definition ex_w (p q r s : nat) : ZK := if (p =? q)%nat && (r =? s)%nat then 2 else 1.
Definition ex_h (mf : bool) (scr : bool) : rham ZK :=
  {| nocc := 1%nat; nao := 2%nat; c_act := fun x p => delta (K := ZK) x p; full_fock := fun e p q => if (p =? q)%nat then (if e then -7 else -5) else 1;
     v_ext := Some (fun p q => if (p =? q)%nat then 10 else 0); bare := ex_g; seris := if scr then Some ex_w else None; screening := scr; match_fock := mf |}.
Example ex_ready mf scr : ready ZK (ex_h mf scr).
Proof. destruct scr; cbn; [discriminate|exact I]. Qed.
Example ex_sym : perm_sym ZK ex_g /\ perm_sym ZK ex_w.
Proof.
  split; intros p q r s; unfold ex_g, ex_w; rewrite (Nat.eqb_sym q p);
    destruct (p =? q)%nat, (r =? s)%nat; auto.
Qed.
Example ex_heff : option_map (fun h1 => (h1 0%nat 0%nat, h1 1%nat 1%nat)) (get_heff (ex_h true true) None None true false) = Some (3, 2)
  /\ get_fock (ex_h true true) true None false 0%nat 0%nat = 5 /\ get_fock (ex_h false true) true None false 0%nat 0%nat = 4.
Proof. repeat split. Qed.
Example ex_uheff : fst (uget_heff (as_unrestricted ZK (ex_h false true)) None None true false) 1%nat 1%nat = 0
  /\ option_map (fun h1 => h1 1%nat 1%nat) (get_heff (ex_h false true) None None true false) = Some 0.
Proof. split; reflexivity. Qed.

(** With match_fock (the default), the Fock matrix of the integrals object handed to solvers is not the cluster's Fock matrix: it contains the
    change of the potential by the screening, which the effective Hamiltonian already compensates. *)
Theorem C36_dummy_eris_refuted : exists (h : rham ZK) g h1, ready ZK h /\ match_fock h = true /\ get_integrals h None true = Some (h1, g) /\
  fst (dummy_eris h false true false) = Some g
  /\ snd (dummy_eris h false true false) 0%nat 0%nat <> h1 0%nat 0%nat + hf_potential ZK (nocc h) g 0%nat 0%nat.
Proof.
  exists (ex_h true true), ex_w. eexists. split; [discriminate|]. split; [reflexivity|]. split; [reflexivity|]. split; [reflexivity|].
  intros E. vm_compute in E. discriminate.
Qed.
(** The same for the pyscf object if get_fock is overwritten. *)
Theorem C36_overwrite_fock_refuted : exists (h : rham ZK) h1 g f, ready ZK h /\ match_fock h = true /\ to_pyscf h false true = Some (h1, g, f)
  /\ f 0%nat 0%nat <> h1 0%nat 0%nat + hf_potential ZK (nocc h) g 0%nat 0%nat.
Proof.
  exists (ex_h true true). eexists _, _, _. split; [discriminate|]. split; [reflexivity|]. split; [reflexivity|].
  intros E. vm_compute in E. discriminate.
Qed.
(** Forcing bare integrals with match_fock and screening: the effective Hamiltonian is still the one for the screened interaction, so that it does
    not give the cluster's Fock matrix. *)
Theorem C36_force_bare_refuted : exists (h : rham ZK) h1 g f, ready ZK h /\ match_fock h = true /\ to_pyscf h true false = Some (h1, g, f)
  /\ (forall p q r s, g p q r s = bare h p q r s) /\ f 0%nat 0%nat <> get_fock h true None false 0%nat 0%nat.
Proof.
  exists (ex_h true true). eexists _, _, _. split; [discriminate|]. split; [reflexivity|]. split; [reflexivity|]. split; [reflexivity|].
  intros E. vm_compute in E. discriminate.
Qed.
(** match_fock has no effect on unrestricted clusters: a closed-shell unrestricted cluster with screening has another Fock matrix and another
    effective Hamiltonian than the restricted one. *)
Theorem C36_match_fock_unrestricted_refuted : exists (h : rham ZK) h1, ready ZK h /\ match_fock h = true /\ perm_sym ZK (bare h) /\
  get_heff h None None true false = Some h1 /\ fst (uget_heff (as_unrestricted ZK h) None None true false) 0%nat 0%nat <> h1 0%nat 0%nat
  /\ fst (uget_fock (as_unrestricted ZK h) true true false) 0%nat 0%nat <> get_fock h true None false 0%nat 0%nat.
Proof.
  exists (ex_h true true). eexists. split; [discriminate|]. split; [reflexivity|]. split; [apply ex_sym|]. split; [reflexivity|].
  split; intros E; vm_compute in E; discriminate.
Qed.
End Cases.

Print Assumptions C36_restricted.
Print Assumptions C36_fock_matched.
Print Assumptions C36_fock_screened.
Print Assumptions C36_heff_unmatched.
Print Assumptions C36_energy.
Print Assumptions C36_pyscf.
Print Assumptions C36_pyscf_bare.
Print Assumptions C36_unrestricted.
Print Assumptions C36_upyscf.
Print Assumptions C36_closed_shell.
Print Assumptions C36_dummy_eris_refuted.
Print Assumptions C36_overwrite_fock_refuted.
Print Assumptions C36_force_bare_refuted.
Print Assumptions C36_match_fock_unrestricted_refuted.
