(** C60, two electrons: the CCSD matrices are those of explicit left and right two-electron wave functions. Cases for C60. *)
From Coq Require Import List Arith Bool Lia Ring ZArith QArith Qcanon.
From Verif Require Import Alg M_Wf M_Eris M_Rdm M_Gamma2 M_UGamma2 P_Eris P_Assemble P_Part2 P_Rdm P_Gamma2 P_UGamma2 Esum.
Import ListNotations.
Close Scope Q_scope. Close Scope Qc_scope. Close Scope Z_scope. Open Scope nat_scope.

Section TwoElectrons.
Context {K : cring}.
Add Ring Kr : (rth K).
Open Scope K_scope.
Notation mat := (nat -> nat -> K).
Notation ten := (nat -> nat -> nat -> nat -> K).
Variable half : K.
Hypothesis Hhalf : half + half = 1.
Context (nv : nat) (t1 : mat) (t2 : ten) (l1 : mat) (l2 : ten).
Hypothesis Ht : forall i j a b, t2 i j a b = t2 j i b a.
Hypothesis Hl : forall i j a b, l2 i j a b = l2 j i b a.
(** Spatial wave functions of two electrons with opposite spins, orbital 0 occupied: exp(T)|0> and <0|(1 + Lambda) exp(-T) *)
Definition psiR (p q : nat) : K :=
  match p, q with
  | O, O => 1
  | O, S b => t1 0%nat b
  | S a, O => t1 0%nat a
  | S a, S b => t1 0%nat a * t1 0%nat b + t2 0%nat 0%nat a b
  end.
Definition left1 (a : nat) : K := l1 0%nat a - Sum nv (fun b => l2 0%nat 0%nat a b * t1 0%nat b).
Definition psiL (p q : nat) : K :=
  match p, q with
  | O, O => 1 - two * Sum nv (fun a => left1 a * t1 0%nat a) - Sum nv (fun a => Sum nv (fun b => l2 0%nat 0%nat a b * (t1 0%nat a * t1 0%nat b + t2 0%nat 0%nat a b)))
  | O, S b => left1 b
  | S a, O => left1 a
  | S a, S b => l2 0%nat 0%nat a b
  end.
Notation d1 := (cc_gamma1 1 nv t1 t2 l1 l2).
Notation d2 := (cc_gamma2 half 1 nv t1 t2 l1 l2).
Ltac go ctx := uunf; unfold psiL, psiR, left1, two; cbn [Sum];
  pose proof (Forall2_cons _ _ (ok_none (w2 t1)) (Forall2_cons _ _ (ok_pair t2 Ht) (Forall2_cons _ _ (ok_none (w2 l1)) (Forall2_cons _ _ (ok_pair l2 Hl) (Forall2_nil _))))) as S;
  esum Hhalf S [nv] (0%nat :: ctx).
Lemma occ1 p q : occ (K := K) 1 p q = match p, q with O, O => 1 | _, _ => 0 end.
Proof. unfold occ. destruct p, q; try reflexivity; change (S p <? 1)%nat with false; rewrite andb_false_r; reflexivity. Qed.
Lemma normalised : psiL 0 0 * psiR 0 0 + two * Sum nv (fun a => psiL 0 (S a) * psiR 0 (S a)) + Sum nv (fun a => Sum nv (fun b => psiL (S a) (S b) * psiR (S a) (S b))) = 1.
Proof. go (@nil nat). Qed.

Theorem C60_two_electrons : forall out p q r s, (p < 1 + nv)%nat -> (q < 1 + nv)%nat -> (r < 1 + nv)%nat -> (s < 1 + nv)%nat ->
  ccsd_make_rdm2 half 1 nv t1 t2 l1 l2 out true p q r s = psiL p r * psiR q s + psiL q s * psiR p r.
Proof.
  intros out p q r s Hp Hq Hr Hs. unfold ccsd_make_rdm2. rewrite full_entry, !occ1.
  destruct (shift_cases 1 nv p Hp) as (f & a & -> & A). destruct (shift_cases 1 nv q Hq) as (g & b & -> & B).
  destruct (shift_cases 1 nv r Hr) as (h & c & -> & C). destruct (shift_cases 1 nv s Hs) as (k & d & -> & D).
  rewrite (make_rdm2_part 1 nv), !(dc_part 1 nv) by auto.
  destruct f, g, h, k; cbn [shift sz Nat.add] in *; try (replace a with 0%nat by lia); try (replace b with 0%nat by lia); try (replace c with 0%nat by lia); try (replace d with 0%nat by lia);
  go [a; b; c; d].
Qed.
(** The one-particle matrix of the same two wave functions *)
Theorem C60_two_electrons_dm1 : forall p q, (p < 1 + nv)%nat -> (q < 1 + nv)%nat ->
  cc_rdm1 1 d1 true p q = Sum (1 + nv) (fun r => psiL p r * psiR q r + psiL q r * psiR p r).
Proof.
  intros p q Hp Hq. pose (out := (fun _ _ _ _ => 0) : ten).
  pose proof (C60_trace half Hhalf 1 nv t1 t2 l1 l2 Ht Hl out p q Hp Hq) as E.
  rewrite (Sum_ext _ _ _ (fun r Hr => C60_two_electrons out p q r r Hp Hq Hr Hr)) in E. rewrite E. rewrite nK_mul. cbn [nK]. ring.
Qed.
End TwoElectrons.

(** Cases: symmetric amplitudes on two occupied and two virtual orbitals; correlated matrices far from the mean field *)
Notation qn z := (Q2Qc (inject_Z z) : QF).
Definition zero4 : nat -> nat -> nat -> nat -> QF := fun _ _ _ _ => qn 0.
Lemma q2_pair : (forall i j a b, q2 i j a b = q2 j i b a) /\ (forall i j a b, q2l i j a b = q2l j i b a).
Proof. split; intros; unfold q2, q2l; do 3 f_equal; lia. Qed.
Example C60_instance : let D := ccsd_make_rdm2 hq 2 2 q1 q2 q1 q2l zero4 true in let d := cc_rdm1 2 (cc_gamma1 2 2 q1 q2 q1 q2l) true in
  Sum (2 + 2) (fun r => D 0 3 r r) = rmul (qn 3) (d 0 3) /\ d 0 3 <> qn 0 /\ D 0 3 1 2 <> qn 0 /\ D 0 3 1 2 = D 1 2 0 3.
Proof.
  cbv zeta. split; [|split; [|split]].
  - rewrite (C60_trace hq hq_half 2 2 q1 q2 q1 q2l (proj1 q2_pair) (proj2 q2_pair) zero4 0 3) by lia. f_equal.
  - intros E; apply (f_equal this) in E; vm_compute in E; discriminate.
  - intros E; apply (f_equal this) in E; vm_compute in E; discriminate.
  - apply (C60_symmetry hq hq_half 2 2 q1 q2 q1 q2l (proj1 q2_pair) (proj2 q2_pair) zero4 0 3 1 2); lia.
Qed.
Definition qa : nat -> nat -> nat -> nat -> QF := anti q2.
Definition qla : nat -> nat -> nat -> nat -> QF := anti q2l.
Lemma qa_anti : (forall i j a b, qa i j a b = (- qa j i a b)%K) /\ (forall i j a b, qa i j a b = (- qa i j b a)%K).
Proof.
  assert (R := rth QF). assert (A : forall x y : QF, (x - y = - (y - x))%K). { intros. Add Ring Qr : (rth QF). ring. }
  split; intros i j a b; unfold qa, anti; [rewrite (proj1 q2_pair j i a b), (proj1 q2_pair j i b a)|]; apply A.
Qed.
Lemma qla_anti : (forall i j a b, qla i j a b = (- qla j i a b)%K) /\ (forall i j a b, qla i j a b = (- qla i j b a)%K).
Proof.
  assert (A : forall x y : QF, (x - y = - (y - x))%K) by (intros; ring).
  split; intros i j a b; unfold qla, anti; [rewrite (proj2 q2_pair j i a b), (proj2 q2_pair j i b a)|]; apply A.
Qed.
(** Two alpha and one beta electron *)
Example C60_unrestricted_instance : let D := uccsd_make_rdm2 hq 2 2 1 2 q1 q1 qa q2l qa q1 q1 qla q2 qla zero4 zero4 zero4 true in
  P_Rdm.paa D 0 3 1 2 = ropp (P_Rdm.paa D 0 2 1 3) /\ P_Rdm.paa D 0 3 1 2 <> qn 0 /\ P_Rdm.pab D 0 3 0 1 <> qn 0.
Proof.
  cbv zeta. split; [|split].
  - destruct (C60_unrestricted_symmetry hq hq_half 2 2 1 2 q1 q1 qa q2l qa q1 q1 qla q2 qla (proj1 qa_anti) (proj2 qa_anti) (proj1 qa_anti) (proj2 qa_anti)
     (proj1 qla_anti) (proj2 qla_anti) (proj1 qla_anti) (proj2 qla_anti) zero4 zero4 zero4 0 3 1 2) as (A & _). apply A; lia.
  - intros E; apply (f_equal this) in E; vm_compute in E; discriminate.
  - intros E; apply (f_equal this) in E; vm_compute in E; discriminate.
Qed.
Example C60_two_electrons_instance : ccsd_make_rdm2 hq 1 2 q1 q2 q1 q2l zero4 true 1 0 2 2 <> qn 0 /\ psiL 2 q1 q2 q1 q2l 0 0 <> qn 1.
Proof. split; intros E; apply (f_equal this) in E; vm_compute in E; discriminate. Qed.

(** Amplitudes without the symmetry under exchange of the electrons, such as those projected onto a fragment in their first index, do not give a matrix that contracts to the
    one-particle matrix. *)
Definition tproj (x : nat -> nat -> nat -> nat -> QF) : nat -> nat -> nat -> nat -> QF := fun i j a b => if i =? 0 then x i j a b else qn 0.
Theorem C60_projected_refuted : ~ forall n nv (t1 : nat -> nat -> QF) t2 l1 l2 out p q, p < n + nv -> q < n + nv ->
  Sum (n + nv) (fun r => ccsd_make_rdm2 hq n nv t1 t2 l1 l2 out true p q r r) = ((nK (2 * n)%nat - 1) * cc_rdm1 n (cc_gamma1 n nv t1 t2 l1 l2) true p q)%K.
Proof.
  intros H. specialize (H 2 1 (fun _ _ => qn 0) (tproj (fun _ _ _ _ => qn 1)) (fun _ _ => qn 0) (tproj (fun _ _ _ _ => qn 1)) zero4 0 0 ltac:(lia) ltac:(lia)).
  apply (f_equal this) in H; vm_compute in H; discriminate.
Qed.

Print Assumptions C60_trace.
Print Assumptions C60_exchange_trace.
Print Assumptions C60_pairs.
Print Assumptions C60_symmetry.
Print Assumptions C60_cumulant_trace.
Print Assumptions C60_unrestricted_trace.
Print Assumptions C60_unrestricted_symmetry.
Print Assumptions C60_closed_shell.
Print Assumptions C60_two_electrons.
Print Assumptions C60_two_electrons_dm1.
Print Assumptions C60_projected_refuted.
