(** C47: chemical potential bracket of DMET. *)
From Coq Require Import List QArith Qabs Bool Lqa Lia ZArith.
From Verif Require Import M_Bracket.
Import ListNotations.
Open Scope Q_scope.

Lemma Qltb_spec x y : Qltb x y = true <-> x < y.
Proof. unfold Qltb. rewrite negb_true_iff. rewrite <- not_true_iff_false, Qle_bool_iff. split; intros H; [apply Qnot_le_lt; auto|apply Qlt_not_le; auto]. Qed.
Lemma Qltb_false x y : Qltb x y = false <-> y <= x.
Proof. unfold Qltb. rewrite negb_false_iff. apply Qle_bool_iff. Qed.

(** One of the ends is the old potential, and the defects of both ends have been evaluated and are of opposite sign (or one vanishes). *)
Definition bracket_ok (f : Q -> option Q) (cpt lo hi : Q) : Prop :=
  lo <= hi /\ (lo = cpt \/ hi = cpt) /\ exists a b, f lo = Some a /\ f hi = Some b /\ a * b <= 0.

Lemma sorted2_ok f cpt err x e lo hi : f cpt = Some err -> f x = Some e -> err * e <= 0 -> sorted2 cpt x = Bracket lo hi -> bracket_ok f cpt lo hi.
Proof.
  unfold sorted2, bracket_ok. intros H1 H2 H3 H. destruct (Qltb x cpt) eqn:E.
  - injection H as <- <-. apply Qltb_spec in E. split; [lra|]. split; auto. exists e, err. split; auto. split; auto. lra.
  - injection H as <- <-. apply Qltb_false in E. split; [lra|]. split; auto. exists err, e. auto.
Qed.

Lemma tries_ok f ccsd cpt err : f cpt = Some err -> forall n x e lo hi, 0 <= err * e -> tries f ccsd n cpt err x e = Bracket lo hi -> bracket_ok f cpt lo hi.
Proof.
  intros Hc. induction n as [|n IH]; intros x e lo hi Hp H; [discriminate|]. cbn [tries] in H. cbv zeta in H.
  destruct (f (cpt + (x - cpt) * 2)) as [e1|] eqn:E1.
  - destruct (Qltb (err * e1) 0) eqn:E2.
    + apply Qltb_spec in E2. eapply sorted2_ok; eauto. lra.
    + apply Qltb_false in E2. eapply IH; eauto.
  - destruct ccsd; [|discriminate]. destruct (Qltb (err * e) 0) eqn:E2; [apply Qltb_spec in E2; lra|]. eapply IH; eauto.
Qed.

Lemma err_pos tol err : 0 <= tol -> tol < Qabs err -> 0 < err * err /\ (sign err = 1 /\ 0 < err \/ sign err = - (1) /\ err < 0).
Proof.
  intros Ht H. unfold sign. destruct (Qltb err 0) eqn:A.
  - apply Qltb_spec in A. split; [nra|]. right. split; auto.
  - apply Qltb_false in A. destruct (Qltb 0 err) eqn:B.
    + apply Qltb_spec in B. split; [nra|]. left. split; auto.
    + apply Qltb_false in B. assert (err == 0) as E by lra. exfalso. assert (X : Qabs err == 0) by (rewrite E; reflexivity). lra.
Qed.

(** Whatever exceptions the fragment solvers raised, an interval handed to the root finder fulfils its precondition. *)
Theorem C47_bracket : forall f ccsd tol cpt lo hi, 0 <= tol -> search f ccsd tol cpt = Bracket lo hi -> bracket_ok f cpt lo hi.
Proof.
  intros f ccsd tol cpt lo hi Ht H. unfold search in H. destruct (f cpt) as [err|] eqn:E; [|discriminate].
  destruct (Qltb tol (Qabs err)) eqn:E0; [|discriminate]. apply Qltb_spec in E0. destruct (err_pos _ _ Ht E0) as [Hp _]. cbv zeta in H.
  destruct (f (cpt - sign err * (1 # 10))) as [e|] eqn:E1.
  - destruct (Qltb 0 (err * e)) eqn:E2.
    + apply Qltb_spec in E2. eapply tries_ok; eauto. lra.
    + apply Qltb_false in E2. eapply sorted2_ok; eauto.
  - destruct ccsd; [|discriminate]. destruct (Qltb 0 (err * err)) eqn:E2; [|apply Qltb_false in E2; lra].
    eapply tries_ok; eauto. lra.
Qed.

(** The potential is kept exactly when its defect is within the tolerance. *)
Theorem C47_suitable : forall f ccsd tol cpt c, search f ccsd tol cpt = Suitable c <-> c = cpt /\ exists e, f cpt = Some e /\ Qabs e <= tol.
Proof.
  intros f ccsd tol cpt c.
  assert (T : forall n err x e, tries f ccsd n cpt err x e <> Suitable c).
  { induction n as [|n IH]; intros err x e; cbn [tries]; [discriminate|]. cbv zeta. unfold sorted2.
    destruct (f _); [|destruct ccsd; [|discriminate]]; (destruct (Qltb (_ * _) 0); [destruct (Qltb _ _); discriminate|apply IH]). }
  unfold search. destruct (f cpt) as [err|] eqn:E.
  - destruct (Qltb tol (Qabs err)) eqn:E0.
    + apply Qltb_spec in E0. split.
      * cbv zeta. intros H. exfalso. revert H. unfold sorted2. destruct (f (cpt - _)); [|destruct ccsd; [|discriminate]]; (destruct (Qltb 0 _); [apply T|destruct (Qltb _ _); discriminate]).
      * intros (-> & e & Ee & He). injection Ee as <-. lra.
    + apply Qltb_false in E0. split; [intros H; injection H as <-; eauto|]. intros (-> & _). reflexivity.
  - split; [discriminate|]. intros (_ & e & Ee & _). discriminate.
Qed.

(** *** Completeness, if the solver never fails and the number of electrons never falls with the potential *)
Definition monotone (g : Q -> Q) : Prop := forall x y, x <= y -> g x <= g y.

(** distance of the k-th trial: a tenth, doubled k times *)
Definition dist (k : nat) : Q := (1 # 10) * inject_Z (2 ^ Z.of_nat k).

Lemma dist_0 : dist 0 == 1 # 10. Proof. reflexivity. Qed.
Lemma dist_S k : dist (S k) == dist k * 2.
Proof. unfold dist. rewrite Nat2Z.inj_succ, Z.pow_succ_r by lia. rewrite inject_Z_mult. change (inject_Z 2) with 2. ring. Qed.
Lemma dist_pos k : 0 < dist k.
Proof. induction k; [reflexivity|]. rewrite dist_S. lra. Qed.
Lemma dist_le j k : (j <= k)%nat -> dist j <= dist k.
Proof. induction 1; [lra|]. rewrite dist_S. pose proof (dist_pos m). lra. Qed.

Lemma mono_eq g x y : monotone g -> x == y -> g x == g y.
Proof. intros H E. apply Qle_antisym; apply H; lra. Qed.

Section Complete.
Variable g : Q -> Q.
Hypothesis Hg : monotone g.
Variables (ccsd : bool) (cpt s : Q).
Hypothesis Hs : (s = 1 \/ s = - (1)).
Let f (x : Q) := Some (g x).
Let at_ (k : nat) : Q := g (cpt - s * dist k).

(** err has the sign s; the defect falls (s = 1) or rises with the distance *)
Lemma at_mono j k : (j <= k)%nat -> s * at_ k <= s * at_ j.
Proof.
  intros H. apply dist_le in H. unfold at_. destruct Hs as [-> | ->].
  - assert (g (cpt - 1 * dist k) <= g (cpt - 1 * dist j)) by (apply Hg; lra). lra.
  - assert (g (cpt - - (1) * dist j) <= g (cpt - - (1) * dist k)) by (apply Hg; lra). lra.
Qed.

Lemma tries_complete err : 0 < s * err -> forall n k x e, x == cpt - s * dist k ->
  (exists j, (k < j <= k + n)%nat /\ s * at_ j < 0) -> exists lo hi, tries f ccsd n cpt err x e = Bracket lo hi.
Proof.
  intros He. induction n as [|n IH]; intros k x e Hx (j & Hj & Hn); [lia|]. cbn [tries]. cbv zeta. unfold f at 1.
  assert (X : cpt + (x - cpt) * 2 == cpt - s * dist (S k)) by (rewrite Hx, dist_S; ring).
  destruct (Qltb (err * g (cpt + (x - cpt) * 2)) 0) eqn:E.
  - unfold sorted2. destruct (Qltb _ cpt); eauto.
  - apply Qltb_false in E. apply (IH (S k)); auto. exists j. split; auto.
    assert (j <> S k); [|lia]. intros ->. pose proof (mono_eq g _ _ Hg X) as Y. fold (at_ (S k)) in Y. rewrite Y in E.
    destruct Hs as [-> | ->]; nra.
Qed.

Lemma tries_fail err : 0 < s * err -> forall n k x e, x == cpt - s * dist k ->
  (forall j, (k < j <= k + n)%nat -> 0 <= s * at_ j) -> tries f ccsd n cpt err x e = NoBracket.
Proof.
  intros He. induction n as [|n IH]; intros k x e Hx Hn; [reflexivity|]. cbn [tries]. cbv zeta. unfold f at 1.
  assert (X : cpt + (x - cpt) * 2 == cpt - s * dist (S k)) by (rewrite Hx, dist_S; ring).
  pose proof (mono_eq g _ _ Hg X) as Y. fold (at_ (S k)) in Y.
  destruct (Qltb (err * g (cpt + (x - cpt) * 2)) 0) eqn:E.
  - apply Qltb_spec in E. rewrite Y in E. specialize (Hn (S k) ltac:(lia)). destruct Hs as [-> | ->]; nra.
  - apply (IH (S k)); auto. intros j Hj. apply Hn. lia.
Qed.
End Complete.

Definition defect (g : Q -> Q) (x : Q) : option Q := Some (g x).

(** If the sign of the defect changes within 102.4 = 0.1 * 2^10 in the direction of fewer (more) electrons, a bracket is found. *)
Theorem C47_complete : forall g ccsd tol cpt x, monotone g -> 0 <= tol -> Qabs (x - cpt) <= 512 # 5 ->
  (tol < g cpt /\ g x < 0 \/ g cpt < - tol /\ 0 < g x) ->
  exists lo hi, search (defect g) ccsd tol cpt = Bracket lo hi /\ g lo <= 0 <= g hi.
Proof.
  intros g ccsd tol cpt x Hm Ht Hx H.
  assert (B : exists lo hi, search (defect g) ccsd tol cpt = Bracket lo hi).
  2:{ destruct B as (lo & hi & B). exists lo, hi. split; auto. apply C47_bracket in B; auto. destruct B as (Hl & Hc & a & b & Ea & Eb & Hab).
      injection Ea as <-. injection Eb as <-. apply Hm in Hl. destruct Hc as [-> | ->]; destruct H as [[H1 H2]|[H1 H2]]; nra. }
  assert (Habs : tol < Qabs (g cpt)). { pose proof (Qle_Qabs (g cpt)). pose proof (Qle_Qabs (- g cpt)). rewrite Qabs_opp in *. lra. }
  apply Qabs_Qle_condition in Hx. unfold search, defect. rewrite (proj2 (Qltb_spec _ _) Habs). cbv zeta.
  destruct (err_pos _ _ Ht Habs) as (Hp & Hs).
  destruct (Qltb 0 (g cpt * g (cpt - sign (g cpt) * (1 # 10)))) eqn:E; [|unfold sorted2; destruct (Qltb _ cpt); eauto].
  apply Qltb_spec in E. 
  apply (tries_complete g Hm ccsd cpt (sign (g cpt))) with (k := 0%nat).
  - destruct Hs as [[-> _]|[-> _]]; auto.
  - destruct Hs as [[-> ?]|[-> ?]]; lra.
  - rewrite dist_0. reflexivity.
  - exists 10%nat. split; [lia|]. assert (D : dist 10 == 512 # 5) by reflexivity.
    destruct Hs as [[-> Hs]|[-> Hs]].
    + assert (g (cpt - 1 * dist 10) <= g x) by (apply Hm; rewrite D; lra). lra.
    + assert (g x <= g (cpt - - (1) * dist 10)) by (apply Hm; rewrite D; lra). lra.
Qed.

(** If it does not change within this distance, the search gives up. *)
Theorem C47_gives_up : forall g ccsd tol cpt, monotone g -> 0 <= tol ->
  (tol < g cpt /\ 0 < g (cpt - (512 # 5)) \/ g cpt < - tol /\ g (cpt + (512 # 5)) < 0) -> search (defect g) ccsd tol cpt = NoBracket.
Proof.
  intros g ccsd tol cpt Hm Ht H.
  assert (Habs : tol < Qabs (g cpt)). { pose proof (Qle_Qabs (g cpt)). pose proof (Qle_Qabs (- g cpt)). rewrite Qabs_opp in *. lra. }
  unfold search, defect. rewrite (proj2 (Qltb_spec _ _) Habs). cbv zeta. destruct (err_pos _ _ Ht Habs) as (Hp & Hs).
  assert (F : forall j, (0 <= j <= 10)%nat -> 0 < sign (g cpt) * g (cpt - sign (g cpt) * dist j)).
  { intros j Hj. assert (D : dist j <= 512 # 5) by (setoid_replace (512 # 5) with (dist 10) by reflexivity; apply dist_le; lia).
    destruct Hs as [[-> Hs]|[-> Hs]].
    - assert (g (cpt - (512 # 5)) <= g (cpt - 1 * dist j)) by (apply Hm; lra). lra.
    - assert (g (cpt - - (1) * dist j) <= g (cpt + (512 # 5))) by (apply Hm; lra). lra. }
  pose proof (F 0%nat ltac:(lia)) as F0. assert (E : Qltb 0 (g cpt * g (cpt - sign (g cpt) * (1 # 10))) = true).
  { apply Qltb_spec. change (1 # 10) with (dist 0). destruct Hs as [[E Hs]|[E Hs]]; rewrite E in *; nra. }
  rewrite E. apply (tries_fail g Hm ccsd cpt (sign (g cpt))) with (k := 0%nat).
  - destruct Hs as [[-> _]|[-> _]]; auto.
  - destruct Hs as [[-> ?]|[-> ?]]; lra.
  - reflexivity.
  - intros j Hj. specialize (F j ltac:(lia)). lra.
Qed.

(** The exception is passed on by all solvers but CCSD; with CCSD only the first evaluation can fail. *)
Theorem C47_exceptions : forall f tol cpt, search f true tol cpt = LinAlgError <-> f cpt = None.
Proof.
  intros f tol cpt.
  assert (T : forall n err x e, tries f true n cpt err x e <> LinAlgError).
  { induction n as [|n IH]; intros err x e; cbn [tries]; [discriminate|]. cbv zeta. unfold sorted2. destruct (f _); (destruct (Qltb (_ * _) 0); [destruct (Qltb _ _); discriminate|apply IH]). }
  unfold search. destruct (f cpt) as [err|] eqn:E; [|tauto]. split; [|discriminate].
  destruct (Qltb tol (Qabs err)); [|discriminate]. cbv zeta. unfold sorted2. intros H. exfalso. revert H.
  destruct (f (cpt - _)); (destruct (Qltb 0 _); [apply T|destruct (Qltb _ _); discriminate]).
Qed.

(** Finding: "trying smaller chemical potential deviation" after a failed CCSD calculation changes the direction: the
    search goes to the wrong side and gives up, although the root (at -1/20) lies between the potential and the first trial. *)
Theorem C47_direction_refuted : exists f, (forall x, x <= - (1 # 10) -> f x = None) /\ (forall x, - (1 # 10) < x -> f x = Some (x + (1 # 20))) /\
  search f true 0 0 = NoBracket.
Proof.
  exists (fun x => if Qltb (- (1 # 10)) x then Some (x + (1 # 20)) else None). split; [|split].
  - intros x H. apply Qltb_false in H. now rewrite H.
  - intros x H. apply Qltb_spec in H. now rewrite H.
  - vm_compute. reflexivity.
Qed.

(** Finding: a root hit exactly is accepted at the first trial only; at a later trial it is missed. *)
Theorem C47_exact_root_refuted : exists g, monotone g /\ g (- (1 # 5)) == 0 /\ g 0 == 1 # 5 /\ (forall x, x <= - (1 # 5) -> g x == 0) /\ search (defect g) true 0 0 = NoBracket.
Proof.
  exists (fun x => if Qltb x (- (1 # 5)) then 0 else x + (1 # 5)). split; [|split; [reflexivity|split; [reflexivity|split; [|vm_compute; reflexivity]]]].
  - intros x y H. destruct (Qltb x _) eqn:A, (Qltb y _) eqn:B; rewrite ?Qltb_spec, ?Qltb_false in *; lra.
  - intros x H. destruct (Qltb x _) eqn:A; rewrite ?Qltb_spec, ?Qltb_false in *; lra.
Qed.

(** *** The self-consistency loop *)
Theorem C47_converged : forall iter n, converged (scloop iter n 0) = true <-> exists k, (1 <= k <= n)%nat /\ iter k = ItConverged /\ forall j, (1 <= j < k)%nat -> iter j = ItContinue.
Proof.
  intros iter n. enough (forall k0, converged (scloop iter n k0) = true <-> exists k, (k0 + 1 <= k <= k0 + n)%nat /\ iter k = ItConverged /\ forall j, (k0 + 1 <= j < k)%nat -> iter j = ItContinue) by (apply (H 0%nat)).
  induction n as [|n IH]; intros k0; cbn [scloop].
  - split; [discriminate|]. intros (k & Hk & _). lia.
  - destruct (iter (S k0)) eqn:E; cbn [converged].
    + split; [discriminate|]. intros (k & Hk & E1 & E2). destruct (Nat.eq_dec k (S k0)) as [->|]; [congruence|]. rewrite (E2 (S k0)) in E by lia. discriminate.
    + split; [discriminate|]. intros (k & Hk & E1 & E2). destruct (Nat.eq_dec k (S k0)) as [->|]; [congruence|]. rewrite (E2 (S k0)) in E by lia. discriminate.
    + split; auto. intros _. exists (S k0). split; [lia|]. split; auto. intros j Hj. lia.
    + rewrite IH. split; intros (k & Hk & E1 & E2).
      * exists k. split; [lia|]. split; auto. intros j Hj. destruct (Nat.eq_dec j (S k0)) as [->|]; auto. apply E2. lia.
      * exists k. destruct (Nat.eq_dec k (S k0)) as [->|]; [congruence|]. split; [lia|]. split; auto. intros j Hj. apply E2. lia.
Qed.

(** Finding: without bracket the loop ends early, without the message that self-consistency was not reached (and without exception). *)
Theorem C47_silent_refuted : exists iter n, converged (scloop iter n 0) = false /\ not_reached_logged (scloop iter n 0) = false /\ (forall k, iter k <> ItOneshot) /\ (iterations (scloop iter n 0) < n)%nat.
Proof. exists (fun _ => ItNoBracket), 10%nat. repeat split; try discriminate. simpl. lia. Qed.

(** Example: root at -1, found between -1.6 and 0. *)
Example bracket_example : exists lo hi, search (defect (fun x => x + 1)) false 0 0 = Bracket lo hi /\ lo == - (8 # 5) /\ hi == 0.
Proof. eexists _, _. split; [vm_compute; reflexivity|]. split; reflexivity. Qed.

Print Assumptions C47_bracket. Print Assumptions C47_suitable. Print Assumptions C47_complete. Print Assumptions C47_gives_up. Print Assumptions C47_exceptions.
Print Assumptions C47_direction_refuted. Print Assumptions C47_exact_root_refuted. Print Assumptions C47_converged. Print Assumptions C47_silent_refuted.
