(** C42: choice of the solver; C48: callback solver. *)
From Coq Require Import List String Ascii Bool Arith.
From Verif Require Import M_Solvers.
Import ListNotations.
Open Scope string_scope.

(** The classes with what they can do: (unrestricted, with bosons); dump and callback solvers take both spin types. *)
Definition suits (c : string) (u e : bool) : Prop :=
  match u, e with
  | false, false => In c ["RMP2_Solver"; "RCISD_Solver"; "RCCSD_Solver"; "TRCCSD_Solver"; "extRCCSD_Solver"; "coupledRCCSD_Solver"; "FCI_Solver"; "DumpSolver"; "CallbackSolver"]
  | true, false => In c ["UMP2_Solver"; "UCISD_Solver"; "UCCSD_Solver"; "extUCCSD_Solver"; "UFCI_Solver"; "DumpSolver"; "CallbackSolver"]
  | false, true => In c ["EB_EBFCI_Solver"]
  | true, true => In c ["EB_UEBFCI_Solver"]
  end.

(** Solvers of this package for electrons only. *)
Definition own : list string := ["MP2"; "CISD"; "CCSD"; "TCCSD"; "extCCSD"; "coupledCCSD"; "FCI"; "DUMP"; "CALLBACK"].
Definition restricted_only : list string := ["TCCSD"; "coupledCCSD"].

Lemma lookup_own s u : (exists x, lookup s u false = Some x) <-> In s own.
Proof.
  split.
  - intros [x H]. unfold lookup in H. destruct (find _ solver_dict) as [[[[s' u'] e'] y]|] eqn:F; [|discriminate]. apply find_some in F. destruct F as [F1 F2].
    rewrite !andb_true_iff in F2. destruct F2 as [[F2 _] F4]. apply String.eqb_eq in F2. apply Bool.eqb_prop in F4. subst s' e'. simpl in F1.
    unfold own. repeat (destruct F1 as [F1|F1]; [first [discriminate | inversion F1; subst; simpl; tauto]|]). destruct F1.
  - intros H. unfold own in H. simpl in H. repeat (destruct H as [<-|H]; [destruct u; eexists; reflexivity|]). destruct H.
Qed.

Lemma lookup_eb s u : (exists x, lookup s u true = Some x) <-> s = "FCI".
Proof.
  split.
  - intros [x H]. unfold lookup in H. destruct (find _ solver_dict) as [[[[s' u'] e'] y]|] eqn:F; [|discriminate]. apply find_some in F. destruct F as [F1 F2].
    rewrite !andb_true_iff in F2. destruct F2 as [[F2 _] F4]. apply String.eqb_eq in F2. apply Bool.eqb_prop in F4. subst s' e'. simpl in F1.
    repeat (destruct F1 as [F1|F1]; [first [discriminate | inversion F1; subst; simpl; tauto]|]). destruct F1.
  - intros ->. destruct u; eexists; reflexivity.
Qed.

Lemma lookup_notimpl s u e : lookup s u e = Some ENotImplemented <-> In s restricted_only /\ u = true /\ e = false.
Proof.
  split.
  - intros H. unfold lookup in H. destruct (find _ solver_dict) as [[[[s' u'] e'] y]|] eqn:F; [|discriminate]. injection H as ->. apply find_some in F. destruct F as [F1 F2].
    rewrite !andb_true_iff in F2. destruct F2 as [[F2 F3] F4]. apply String.eqb_eq in F2. apply Bool.eqb_prop in F3. apply Bool.eqb_prop in F4. subst s' u' e'. simpl in F1.
    repeat (destruct F1 as [F1|F1]; [first [discriminate | inversion F1; subst; simpl; tauto]|]). destruct F1.
  - intros (H & -> & ->). simpl in H. destruct H as [<-|[<-|[]]]; reflexivity.
Qed.

(** A class of this package is made for the spin symmetry and the coupling to bosons of the system; an ebcc class too. *)
Theorem C42_suits : forall has s u e c, get_solver_class has s u e = Found c ->
  match c with Class n => suits n u e | Ebcc u' e' _ => u' = u /\ e' = e end.
Proof.
  intros has s u e c H. unfold get_solver_class in H. destruct (lookup s u e) as [[n|]|] eqn:L; try discriminate.
  - injection H as <-. unfold lookup in L. destruct (find _ solver_dict) as [[[[s' u'] e'] y]|] eqn:F; [|discriminate]. injection L as ->. apply find_some in F. destruct F as [F1 F2].
    rewrite !andb_true_iff in F2. destruct F2 as [[F2 F3] F4]. apply Bool.eqb_prop in F3. apply Bool.eqb_prop in F4. subst u' e'. clear F2. simpl in F1.
    repeat (destruct F1 as [F1|F1]; [first [discriminate | inversion F1; subst; simpl; tauto]|]). destruct F1.
  - destruct (contains_cc s); [|discriminate]. unfold get_ebcc in H. destruct has; [|discriminate]. simpl negb in H. cbv iota in H.
    destruct (String.eqb s "EBCC"); injection H as <-; auto.
Qed.

(** The name contains "CC". *)
Definition names_cc (s : string) : Prop := exists a b, s = a ++ "CC" ++ b.

Lemma contains_cc_spec s : contains_cc s = true <-> names_cc s.
Proof.
  split.
  - induction s as [|c s IH]; [discriminate|]. intros H.
    destruct (ascii_dec c "C") as [->|N].
    + destruct s as [|c2 s]; [discriminate|]. destruct (ascii_dec c2 "C") as [->|N2]; [exists "", s; reflexivity|].
      destruct IH as (a & b & E). { destruct c2 as [[] [] [] [] [] [] [] []]; try exact H; exfalso; apply N2; reflexivity. }
      exists (String "C" a), b. rewrite E. reflexivity.
    + destruct IH as (a & b & ->). { destruct c as [[] [] [] [] [] [] [] []]; try exact H; exfalso; apply N; reflexivity. }
      exists (String c a), b. reflexivity.
  - intros (a & b & ->). induction a as [|c a IH]; [reflexivity|]. cbn [append]. 
    destruct (ascii_dec c "C") as [->|N].
    + destruct a as [|c2 a]; [reflexivity|]. cbn [append] in *. destruct (ascii_dec c2 "C") as [->|N2]; [reflexivity|].
      destruct c2 as [[] [] [] [] [] [] [] []]; try exact IH; exfalso; apply N2; reflexivity.
    + destruct c as [[] [] [] [] [] [] [] []]; try exact IH; exfalso; apply N; reflexivity.
Qed.

(** The name without a prefix "EB". *)
Definition without_eb (s a : string) : Prop := s = "EB" ++ a \/ ((forall r, s <> "EB" ++ r) /\ a = s).

Lemma strip_eb_spec s : without_eb s (strip_eb s).
Proof.
  unfold without_eb. destruct s as [|c1 s]; [right; split; [discriminate|auto]|]. destruct (ascii_dec c1 "E") as [->|N1].
  - destruct s as [|c2 s]; [right; split; [discriminate|auto]|]. destruct (ascii_dec c2 "B") as [->|N2]; [left; reflexivity|].
    right. split; [intros r E; injection E; congruence|]. destruct c2 as [[] [] [] [] [] [] [] []]; try reflexivity; exfalso; apply N2; reflexivity.
  - right. split; [intros r E; injection E; congruence|]. destruct c1 as [[] [] [] [] [] [] [] []]; try reflexivity; exfalso; apply N1; reflexivity.
Qed.

(** Which error is raised: unknown name, not implemented for unrestricted, or ebcc missing; nothing else fails. *)
Theorem C42_errors : forall has s u e,
  (get_solver_class has s u e = ValueError <-> ~ names_cc s /\ ~ In s (if e then ["FCI"] else own)) /\
  (get_solver_class has s u e = NotImplementedError <-> In s restricted_only /\ u = true /\ e = false) /\
  (get_solver_class has s u e = ImportError <-> has = false /\ names_cc s /\ ~ In s (if e then ["FCI"] else own)).
Proof.
  intros has s u e. rewrite <- contains_cc_spec, not_true_iff_false.
  assert (LK : (exists x, lookup s u e = Some x) <-> In s (if e then ["FCI"] else own)).
  { destruct e; [rewrite lookup_eb; simpl; split; [intros ->; auto|intros [<-|[]]; auto]|apply lookup_own]. }
  assert (E : get_ebcc has s u e = ImportError <-> has = false).
  { unfold get_ebcc. destruct has; simpl; [|tauto]. destruct (String.eqb s "EBCC"); split; discriminate. }
  assert (E2 : get_ebcc has s u e <> ValueError /\ get_ebcc has s u e <> NotImplementedError).
  { unfold get_ebcc. destruct has; simpl; [|split; discriminate]. destruct (String.eqb s "EBCC"); split; discriminate. }
  pose proof (lookup_notimpl s u e) as NI. unfold get_solver_class. destruct (lookup s u e) as [[n|]|] eqn:L.
  - assert (In s (if e then ["FCI"] else own)) by (apply LK; eauto). split; [|split]; split; try discriminate; try tauto. intros H'. apply NI in H'. discriminate.
  - assert (In s (if e then ["FCI"] else own)) by (apply LK; eauto). split; [|split]; split; try discriminate; try tauto.
  - assert (~ In s (if e then ["FCI"] else own)) by (intros H; apply LK in H; destruct H; discriminate).
    destruct (contains_cc s).
    + split; [|split].
      * split; [tauto|intros [H' _]; discriminate].
      * split; [tauto|]. intros H'. apply NI in H'. discriminate.
      * rewrite E. tauto.
    + split; [|split]; split; try discriminate; try tauto. intros H'. apply NI in H'. discriminate. intros (_ & H' & _). discriminate.
Qed.

(** With ebcc every other name containing "CC" is taken as the ansatz, without a prefix "EB", and with the standard
    coupling to bosons for "CCSD"; the name "EBCC" leaves the ansatz to the options. *)
Theorem C42_ansatz : forall (s : string) (u e : bool), names_cc s -> ~ In s (if e then ["FCI"] else own) -> s <> "EBCC" ->
  exists a, get_solver_class true s u e = Found (Ebcc u e (Some a)) /\
  (if (e && (String.eqb s "CCSD" || String.eqb s "EBCCSD"))%bool then a = "CCSD-SD-1-1" else without_eb s a) /\
  (forall k : option string, construct_ansatz (Ebcc u e (Some a)) k = Some (Some a) <-> k = None \/ k = Some a).
Proof.
  intros s u e Hc%contains_cc_spec Ho Hs. unfold get_solver_class.
  destruct (lookup s u e) as [x|] eqn:L.
  { exfalso. apply Ho. destruct e; [left; symmetry; apply (lookup_eb s u); eauto|apply (lookup_own s u); eauto]. }
  rewrite Hc. unfold get_ebcc. simpl negb. cbv iota. destruct (String.eqb_spec s "EBCC") as [|_]; [congruence|]. eexists. split; [reflexivity|]. split.
  - destruct e; [|rewrite andb_false_r; cbn [andb]; apply strip_eb_spec]. rewrite andb_true_r. cbn [andb].
    destruct (String.eqb_spec (strip_eb s) "CCSD") as [E|E].
    + assert (s = "CCSD" \/ s = "EBCCSD") as [->| ->]; [|reflexivity|reflexivity].
      unfold strip_eb in E. destruct s as [|c1 s]; [discriminate|].
      destruct (ascii_dec c1 "E") as [->|N1].
      * destruct s as [|c2 s]; [discriminate|]. destruct (ascii_dec c2 "B") as [->|N2]; [right; now rewrite <- E|].
        left. destruct c2 as [[] [] [] [] [] [] [] []]; try (exact E); exfalso; apply N2; reflexivity.
      * left. destruct c1 as [[] [] [] [] [] [] [] []]; try (exact E); exfalso; apply N1; reflexivity.
    + destruct (String.eqb_spec s "CCSD") as [->|]; [exfalso; apply E; reflexivity|]. destruct (String.eqb_spec s "EBCCSD") as [->|]; [exfalso; apply E; reflexivity|]. cbn [orb]. apply strip_eb_spec.
  - intros k. generalize (if (String.eqb (strip_eb s) "CCSD" && e)%bool then "CCSD-SD-1-1" else strip_eb s). intros a. simpl. destruct k as [k|]; [|tauto]. destruct (String.eqb_spec k a) as [->|N].
    + tauto.
    + split; [discriminate|]. intros [|H]; [discriminate|]. injection H. congruence.
Qed.

(** Finding: any name with "CC" in it passes the check of the solver, and with bosons also solvers that exist only for
    electrons; the error appears only when the solver runs. *)
Theorem C42_check_refuted : (exists a, get_solver_class true "SUCCESS" false false = Found (Ebcc false false a)) /\
  (exists a, get_solver_class true "TCCSD" true true = Found (Ebcc true true a)) /\ get_solver_class true "TCCSD" true false = NotImplementedError.
Proof. split; [|split]; [eexists; reflexivity|eexists; reflexivity|reflexivity]. Qed.

Example solver_examples : get_solver_class false "CCSD" true false = Found (Class "UCCSD_Solver") /\ get_solver_class false "FCI" true true = Found (Class "EB_UEBFCI_Solver")
  /\ get_solver_class true "CCSD" false true = Found (Ebcc false true (Some "CCSD-SD-1-1")) /\ get_solver_class true "EBCC3" false false = Found (Ebcc false false (Some "CC3"))
  /\ get_solver_class true "mp2" false false = ValueError /\ get_solver_class false "CC3" false false = ImportError /\ get_solver_class true "MP2" false true = ValueError.
Proof. repeat split; reflexivity. Qed.

(** ** Callback *)
Section Callback.
Variable value : Type.
Variable false_ : value.
Notation kernel := (kernel value false_).
Notation has r k := (exists v, get value r k = Some v).

(** The wave function is the first that can be made from the given keys; without any the call fails. *)
Theorem C48_kind : forall r, match kernel r with
  | Some s =>
      match wf value s with
      | FCI _ c => get value r "civec" = Some c
      | CCSD _ t1 t2 l => ~ has r "civec" /\ get value r "t1" = Some t1 /\ get value r "t2" = Some t2 /\
          match l with Some (l1, l2) => get value r "l1" = Some l1 /\ get value r "l2" = Some l2 | None => ~ (has r "l1" /\ has r "l2") end
      | CISD _ c0 c1 c2 => ~ has r "civec" /\ ~ (has r "t1" /\ has r "t2") /\ get value r "c0" = Some c0 /\ get value r "c1" = Some c1 /\ get value r "c2" = Some c2
      | RDM _ d1 d2 => ~ has r "civec" /\ ~ (has r "t1" /\ has r "t2") /\ ~ (has r "c0" /\ has r "c1" /\ has r "c2") /\ get value r "dm1" = Some d1 /\ get value r "dm2" = Some d2
      end
  | None => ~ has r "civec" /\ ~ (has r "t1" /\ has r "t2") /\ ~ (has r "c0" /\ has r "c1" /\ has r "c2") /\ ~ (has r "dm1" /\ has r "dm2")
  end.
Proof.
  intros r. unfold M_Solvers.kernel, choose_wf.
  destruct (get value r "civec") as [c|]; [reflexivity|].
  assert (N : ~ exists v : value, None = Some v) by (intros [v H]; discriminate).
  destruct (get value r "t1") as [t1|].
  - destruct (get value r "t2") as [t2|].
    + simpl. repeat split; auto. destruct (get value r "l1") as [l1|], (get value r "l2") as [l2|]; auto; tauto.
    + destruct (get value r "c0"), (get value r "c1"), (get value r "c2"); try (simpl; repeat split; auto; tauto); destruct (get value r "dm1"), (get value r "dm2"); simpl; repeat split; auto; tauto.
  - destruct (get value r "t2"); destruct (get value r "c0"), (get value r "c1"), (get value r "c2"); try (simpl; repeat split; auto; tauto); destruct (get value r "dm1"), (get value r "dm2"); simpl; repeat split; auto; tauto.
Qed.

(** Convergence is what the callback says, and False if it says nothing; moments are passed on. *)
Theorem C48_rest : forall r s, kernel r = Some s -> converged value s = match get value r "converged" with Some c => c | None => false_ end
  /\ hole value s = get value r "hole_moments" /\ particle value s = get value r "particle_moments".
Proof. intros r s H. unfold M_Solvers.kernel in H. destruct (choose_wf value r); [|discriminate]. injection H as <-. auto. Qed.

(** Finding: a callback that returns only moments fails, although they are looked for after the warning. *)
Theorem C48_moments_refuted : forall h p, kernel [("hole_moments", h); ("particle_moments", p); ("converged", h)] = None.
Proof. reflexivity. Qed.
End Callback.

Example callback_example : kernel nat 0 [("converged", 1); ("t2", 20); ("dm1", 5); ("dm2", 6); ("t1", 10); ("l1", 7)] = Some (Solved nat (CCSD nat 10 20 None) 1 None None).
Proof. reflexivity. Qed.

Print Assumptions C42_suits. Print Assumptions C42_errors. Print Assumptions C42_ansatz. Print Assumptions C42_check_refuted.
Print Assumptions C48_kind. Print Assumptions C48_rest. Print Assumptions C48_moments_refuted.
