(** Property C31: the self-consistent mean-field loop. *)
From Coq Require Import List ZArith QArith Qabs Qminmax Bool Lia Lqa.
From Verif Require Import M_Scmf.
Import ListNotations.

Lemma negb_le x y : negb (Qle_bool y x) = true <-> x < y.
Proof.
  rewrite negb_true_iff. split; intros H.
  - destruct (Qlt_le_dec x y); auto. apply Qle_bool_iff in q. congruence.
  - destruct (Qle_bool y x) eqn:E; auto. apply Qle_bool_iff in E. lra.
Qed.

(** ** The convergence test, element by element *)

(** [x] is below tolerance [tol], tightened by the damping; no tolerance given: always, unless the damping is 1 or more. *)
Definition small (damping : Q) (tol : option Q) (x : Q) : Prop :=
  match tol with Some t => x < (1 - damping) * t | None => damping < 1 end.

(** Every element of the density matrices differs by a small amount (half of it in the restricted case). *)
Definition all_small (damping : Q) (tol : option Q) (half : bool) (a b : list Q) : Prop :=
  forall i x y, nth_error a i = Some x -> nth_error b i = Some y ->
    small damping tol (if half then Qabs (x - y) / 2 else Qabs (x - y)).

Definition dm_close (damping : Q) (tol : option Q) (d l : dm) : Prop :=
  match d, l with
  | Rdm x, Rdm y => all_small damping tol true x y
  | Udm xa xb, Udm ya yb => all_small damping tol false xa ya /\ all_small damping tol false xb yb
  | _, _ => False
  end.

(** Density matrices of the same kind and size, not empty. *)
Definition same_shape (d l : dm) : Prop :=
  match d, l with
  | Rdm x, Rdm y => length x = length y /\ x <> []
  | Udm xa xb, Udm ya yb => length xa = length ya /\ length xb = length yb /\ xa <> [] /\ xb <> []
  | _, _ => False
  end.

Lemma max_diff_lt a : forall b t, length a = length b -> a <> [] ->
  (max_diff a b < t <-> forall i x y, nth_error a i = Some x -> nth_error b i = Some y -> Qabs (x - y) < t).
Proof.
  induction a as [|x a IH]; intros [|y b] t Hl Hn; simpl in Hl; try lia; try congruence.
  cbn [max_diff]. rewrite Q.max_lub_lt_iff. destruct a as [|x2 a].
  - destruct b; [|discriminate]. cbn [max_diff]. split.
    + intros [H _] [|[|i]] u v E1 E2; simpl in *; try discriminate. injection E1 as <-. injection E2 as <-. auto.
    + intros H. pose proof (H 0%nat x y eq_refl eq_refl) as H0. split; auto. pose proof (Qabs_nonneg (x - y)). lra.
  - rewrite (IH b t) by (simpl in *; auto; congruence). split.
    + intros [H1 H2] [|i] u v E1 E2; simpl in E1, E2; [|eapply H2; eauto].
      injection E1 as <-. injection E2 as <-. auto.
    + intros H. split; [apply (H 0%nat x y); auto|]. intros i u v E1 E2. apply (H (S i) u v); auto.
Qed.

Lemma below_spec damping tol x : below (1 - damping) tol x = true <-> small damping tol x.
Proof. destruct tol; simpl; rewrite negb_le; [tauto|]. split; intros; lra. Qed.

Lemma some_pair (a b : list Q) : length a = length b -> a <> [] -> exists x y, nth_error a 0 = Some x /\ nth_error b 0 = Some y.
Proof. destruct a, b; simpl; try congruence; try lia. eauto. Qed.

Lemma small_max damping tol a b : length a = length b -> a <> [] ->
  (small damping tol (max_diff a b) <-> all_small damping tol false a b).
Proof.
  intros Hl Hn. unfold all_small. destruct tol as [t|]; cbn [small].
  - now apply max_diff_lt.
  - split; auto. intros H. destruct (some_pair a b Hl Hn) as (x & y & E1 & E2). eapply H; eauto.
Qed.

Lemma small_half damping tol a b : length a = length b -> a <> [] ->
  (small damping tol (max_diff a b / 2) <-> all_small damping tol true a b).
Proof.
  intros Hl Hn. unfold all_small. destruct tol as [t|]; cbn [small].
  - pose proof (max_diff_lt a b (2 * ((1 - damping) * t)) Hl Hn) as E.
    assert (G : forall z, z / 2 < (1 - damping) * t <-> z < 2 * ((1 - damping) * t)).
    { intros z. unfold Qdiv. change (/ 2) with (1#2). split; intros; lra. }
    rewrite G, E. split; intros H i x y E1 E2; [apply (proj2 (G _)) | apply (proj1 (G _))]; eapply H; eauto.
  - split; auto. intros H. destruct (some_pair a b Hl Hn) as (x & y & E1 & E2). eapply H; eauto.
Qed.

Lemma ddm_spec damping tol d l : same_shape d l -> (small damping tol (ddm d l) <-> dm_close damping tol d l).
Proof.
  destruct d, l; simpl; try tauto.
  - intros [H1 H2]. now apply small_half.
  - intros (H1 & H2 & H3 & H4). rewrite <- !small_max by auto. destruct tol; simpl; [|tauto].
    rewrite Q.max_lub_lt_iff. tauto.
Qed.

(** ** The loop *)

Section S.
Variables M R : Type.
Variable solve : list (M * R) -> M -> option (R * Q).
Variable update : list (M * R) -> M -> option M.
Variable make_dm : M -> dm.
Variable symmetric : dm -> bool.
Variables (damping : Q) (etol dtol : option Q).
Notation kernel := (scmf_kernel solve update make_dm symmetric damping etol dtol).

(** A history of iterations: the mean-field [m] used, its result and energy, and the mean-field [m'] it produced. *)
Record iteration := { used : M; result : R; energy : Q; produced : M }.

(** The iterations [its] (in order) follow the definition of self-consistency, starting from mean-field [m] and history [h]:
    each one uses the mean-field the one before produced. *)
Fixpoint consistent (h : list (M * R)) (m : M) (its : list iteration) : Prop :=
  match its with
  | [] => True
  | it :: rest => used it = m /\ solve h m = Some (result it, energy it)
      /\ update ((m, result it) :: h) m = Some (produced it)
      /\ consistent ((m, result it) :: h) (produced it) rest
  end.

(** The change between two successive iterations is below both tolerances. *)
Definition converged_between (a b : iteration) : Prop :=
  small damping etol (Qabs (energy b - energy a)) /\ small damping dtol (ddm (make_dm (produced b)) (make_dm (produced a))).

Definition last_mf (m : M) (its : list iteration) : M := match rev its with [] => m | it :: _ => produced it end.

Definition check_spec it it0 : check_convergence damping etol dtol (energy it) (make_dm (produced it)) (Some (energy it0, make_dm (produced it0))) = true
  <-> converged_between it0 it.
Proof. unfold check_convergence, converged_between. rewrite andb_true_iff, !below_spec. tauto. Qed.

(** What a finished run (no exception) looks like, in terms of its iterations [its]. *)
Definition finished (st : sstate M R) (prev : option iteration) (n : nat) (its : list iteration) (o : soutcome R) (st' : sstate M R) : Prop :=
  consistent (hist st) (mf st) its
  /\ (length its <= n)%nat
  /\ energies st' = energies st ++ map energy its
  /\ hist st' = rev (map (fun it => (used it, result it)) its) ++ hist st
  /\ mf st' = last_mf (mf st) its
  (* no earlier pair of iterations passed the test, no earlier mean-field failed the symmetry check *)
  /\ (forall l a b r, (match prev with Some p => [p] | None => [] end) ++ its = l ++ a :: b :: r -> r <> [] -> ~ converged_between a b)
  /\ (forall l a r, its = l ++ a :: r -> r <> [] -> symmetric (make_dm (produced a)) = true)
  (* how it ended *)
  /\ ((exists l a b, (match prev with Some p => [p] | None => [] end) ++ its = l ++ [a; b] /\ its <> [] /\ converged_between a b
         /\ symmetric (make_dm (produced b)) = true /\ converged st' = true)
      \/ (exists l a, its = l ++ [a] /\ symmetric (make_dm (produced a)) = false /\ converged st' = false)
      \/ (length its = n /\ converged st' = converged st
          /\ (forall l a b, (match prev with Some p => [p] | None => [] end) ++ its = l ++ [a; b] -> its <> [] -> ~ converged_between a b)
          /\ Forall (fun a => symmetric (make_dm (produced a)) = true) its)).

Lemma rev_cons_last {A} (x : A) l : match rev (x :: l) with [] => None | y :: _ => Some y end
  = Some (match rev l with [] => x | y :: _ => y end).
Proof. simpl. destruct (rev l); reflexivity. Qed.

Lemma last_mf_cons m it its : last_mf m (it :: its) = last_mf (produced it) its.
Proof. unfold last_mf. simpl. destruct (rev its); reflexivity. Qed.

Lemma loop_spec : forall n prev res st o st',
  loop solve update make_dm symmetric damping etol dtol n
    (match prev with Some p => Some (energy p, make_dm (produced p)) | None => None end) res st = (o, st') ->
  (o = SException -> converged st' = converged st) /\
  (o <> SException ->
   exists its, finished st prev n its o st'
   /\ match rev its with
      | it :: _ => o = SReturn (result it)
      | [] => o = match res with Some r => SReturn r | None => SUnbound end
      end).
Proof.
  induction n as [|n IH]; intros prev res st o st' H; simpl in H.
  { injection H as <- <-. split; [destruct res; discriminate|]. intros _. exists []. split; [|reflexivity].
    unfold finished. simpl. rewrite !app_nil_r. repeat split; auto.
    - intros l a b r E Hr. exfalso. destruct prev; [|destruct l; discriminate].
      apply (f_equal (@length _)) in E. rewrite app_length in E. simpl in E. lia.
    - intros l a r E. destruct l; discriminate.
    - right; right. repeat split; auto; congruence. }
  destruct (solve (hist st) (mf st)) as [[r e]|] eqn:S1; [|injection H as <- <-; split; [auto|congruence]].
  destruct (update ((mf st, r) :: hist st) (mf st)) as [m|] eqn:U; [|injection H as <- <-; split; [auto|congruence]].
  set (it := {| used := mf st; result := r; energy := e; produced := m |}).
  assert (C1 : consistent (hist st) (mf st) [it]) by (simpl; auto).
  assert (Short : forall l a b (t : list iteration), (match prev with Some p => [p] | None => [] end) ++ [it] = l ++ a :: b :: t -> t = []).
  { intros l a b t E. apply (f_equal (@length _)) in E. rewrite !app_length in E. simpl in E.
    destruct t; auto. simpl in E. destruct prev; simpl in E; lia. }
  assert (Short1 : forall l a (t : list iteration), [it] = l ++ a :: t -> t = []).
  { intros [|z l] a t E; simpl in E; [injection E; auto|]. injection E as _ E. destruct l; discriminate. }
  destruct (symmetric (make_dm m)) eqn:Sy.
  2:{ injection H as <- <-. split; [discriminate|]. intros _. exists [it]. split; [|reflexivity].
      unfold finished. repeat split; auto; simpl; try lia.
      - intros l a b t E Ht. apply Short in E. congruence.
      - intros l a t E Ht. apply Short1 in E. congruence.
      - right; left. exists [], it. repeat split; auto. }
  assert (CK : check_convergence damping etol dtol e (make_dm m) (match prev with Some p => Some (energy p, make_dm (produced p)) | None => None end) = true
     <-> exists p, prev = Some p /\ converged_between p it).
  { destruct prev as [p|].
    - etransitivity; [apply (check_spec it p)|]. split; [eauto|]. intros (q & E & ?). injection E as <-. auto.
    - simpl. split; [discriminate|]. intros (q & E & _). discriminate. }
  destruct (check_convergence damping etol dtol e (make_dm m) _) eqn:CC.
  - destruct (proj1 CK eq_refl) as (p & -> & Hp). injection H as <- <-. split; [discriminate|]. intros _. exists [it].
    split; [|reflexivity]. unfold finished. repeat split; auto; simpl; try lia.
    + intros l a b t E Ht. apply Short in E. congruence.
    + intros l a t E Ht. apply Short1 in E. congruence.
    + left. exists [], p, it. split; [reflexivity|]. split; [discriminate|]. auto.
  - change (Some (e, make_dm m)) with (match Some it with Some p => Some (energy p, make_dm (produced p)) | None => None end) in H.
    apply IH in H. destruct H as [HE HF]. split; [auto|]. intros Ho. destruct (HF Ho) as (its & F & G). exists (it :: its). split.
    + destruct F as (F1 & F2 & F3 & F4 & F5 & F6 & F7 & F8). cbn [hist mf energies converged] in *.
      assert (NC : forall p, prev = Some p -> ~ converged_between p it).
      { intros p Hp Hc. apply diff_false_true. apply CK. eauto. }
      assert (P : forall l a b t, (match prev with Some p => [p] | None => [] end) ++ it :: its = l ++ a :: b :: t ->
          (exists p, prev = Some p /\ l = [] /\ a = p /\ b = it /\ t = its) \/ exists l', [it] ++ its = l' ++ a :: b :: t).
      { intros l a b t E. destruct prev as [p|].
        - destruct l as [|z l]; simpl in E; [injection E as -> -> ->; left; eauto 10|]. injection E as _ E. right. eauto.
        - right. eauto. }
      unfold finished. split; [|split; [|split; [|split; [|split; [|split; [|split]]]]]].
      * simpl. auto.
      * simpl. lia.
      * rewrite F3. simpl. now rewrite <- app_assoc.
      * rewrite F4. simpl. now rewrite <- app_assoc.
      * rewrite F5. now rewrite last_mf_cons.
      * intros l a b t E Ht. destruct (P _ _ _ _ E) as [(p & Hp & -> & -> & -> & ->)|(l' & E')]; eauto.
      * intros [|z l] a t E Ht; simpl in E; [injection E as <- _; auto|]. injection E as _ E. eauto.
      * destruct F8 as [(l & a & b & E & N & Hc & Hs & Hv)|[(l & a & E & Hs & Hv)|(L & Hv & N & Hs)]].
        -- left. exists ((match prev with Some p => [p] | None => [] end) ++ l), a, b. rewrite <- app_assoc, <- E.
           split; [reflexivity|]. split; [discriminate|]. auto.
        -- right; left. exists (it :: l), a. rewrite E. auto.
        -- right; right. repeat split; auto; [simpl; lia|].
           intros l a b E _ Hc. destruct (P _ _ _ _ E) as [(p & Hp & -> & -> & -> & T)|(l' & E')].
           ++ subst its. apply (NC p); auto.
           ++ destruct its as [|i2 its]; [apply (f_equal (@length _)) in E'; rewrite !app_length in E'; simpl in E'; lia|].
              apply (N l' a b); auto. discriminate.
    + simpl. destruct (rev its) eqn:Er; simpl; auto.
Qed.
End S.

(** One entry of the energy list per iteration, at most maxiter iterations; the mean-field of every iteration is the
    one produced in the iteration before; the result returned is that of the last iteration and the mean-field left
    behind is the one produced in it. *)
Theorem C31_iterations : forall M R solve update make_dm symmetric damping etol dtol maxiter (st : sstate M R) o st',
  scmf_kernel solve update make_dm symmetric damping etol dtol maxiter st = (o, st') -> o <> SException ->
  exists its, consistent M R solve update (hist st) (mf st) its
  /\ (length its <= maxiter)%nat
  /\ energies st' = energies st ++ map (energy M R) its
  /\ mf st' = last_mf M R (mf st) its
  /\ match rev its with it :: _ => o = SReturn (result M R it) | [] => maxiter = 0%nat /\ o = SUnbound end.
Proof.
  intros M R solve update make_dm symmetric damping etol dtol maxiter st o st' H Ho.
  destruct (proj2 (loop_spec M R solve update make_dm symmetric damping etol dtol maxiter None None st o st' H) Ho) as (its & F & G).
  exists its. destruct F as (F1 & F2 & F3 & F4 & F5 & F6 & F7 & F8). repeat split; auto.
  destruct (rev its) as [|it l] eqn:E; auto.
  apply (f_equal (@rev _)) in E. rewrite rev_involutive in E. simpl in E. subst its. split; auto.
  destruct F8 as [(l & a & b & E & N & _)|[(l & a & E & _)|(L & _)]]; auto; try congruence.
  destruct l; discriminate.
Qed.

(** Convergence is reported exactly if the last two iterations of this run are closer than the tolerances (in energy and in
    every element of the density matrix) and the symmetry check passed; it is the first such pair. *)
Theorem C31_converged : forall M R solve update make_dm symmetric damping etol dtol maxiter (st : sstate M R) o st',
  (forall m1 m2, same_shape (make_dm m1) (make_dm m2)) ->
  scmf_kernel solve update make_dm symmetric damping etol dtol maxiter st = (o, st') -> o <> SException ->
  converged st = false -> converged st' = true ->
  exists l a b, consistent M R solve update (hist st) (mf st) (l ++ [a; b])
  /\ energies st' = energies st ++ map (energy M R) (l ++ [a; b]) /\ mf st' = produced M R b
  /\ small damping etol (Qabs (energy M R b - energy M R a))
  /\ dm_close damping dtol (make_dm (produced M R b)) (make_dm (produced M R a))
  /\ symmetric (make_dm (produced M R b)) = true
  /\ (forall l0 a0 b0 r, l ++ [a; b] = l0 ++ a0 :: b0 :: r -> r <> [] ->
        ~ (small damping etol (Qabs (energy M R b0 - energy M R a0))
           /\ dm_close damping dtol (make_dm (produced M R b0)) (make_dm (produced M R a0)))).
Proof.
  intros M R solve update make_dm symmetric damping etol dtol maxiter st o st' Hsh H Ho Hc Hc'.
  destruct (proj2 (loop_spec M R solve update make_dm symmetric damping etol dtol maxiter None None st o st' H) Ho) as (its & F & G).
  destruct F as (F1 & F2 & F3 & F4 & F5 & F6 & F7 & F8). simpl in F6.
  destruct F8 as [(l & a & b & E & N & Hb & Hs & _)|[(l & a & E & _ & Hv)|(_ & Hv & _)]]; try congruence.
  simpl in E. exists l, a, b. rewrite <- E. destruct Hb as [Hb1 Hb2]. repeat split; auto.
  - rewrite F5. unfold last_mf. rewrite E, rev_app_distr. reflexivity.
  - apply ddm_spec; auto.
  - intros l0 a0 b0 r E0 Hr [A B]. eapply F6; eauto. split; auto. apply ddm_spec; auto.
Qed.

(** A run that ends without reporting convergence stopped at a failed symmetry check, or did all maxiter iterations and no
    two successive ones were within the tolerances. *)
Theorem C31_not_converged : forall M R solve update make_dm symmetric damping etol dtol maxiter (st : sstate M R) o st',
  (forall m1 m2, same_shape (make_dm m1) (make_dm m2)) ->
  scmf_kernel solve update make_dm symmetric damping etol dtol maxiter st = (o, st') -> o <> SException ->
  converged st' = false ->
  exists its, consistent M R solve update (hist st) (mf st) its /\ energies st' = energies st ++ map (energy M R) its /\
  ((exists l a, its = l ++ [a] /\ symmetric (make_dm (produced M R a)) = false)
   \/ (length its = maxiter /\ forall l a b r, its = l ++ a :: b :: r ->
        ~ (small damping etol (Qabs (energy M R b - energy M R a))
           /\ dm_close damping dtol (make_dm (produced M R b)) (make_dm (produced M R a))))).
Proof.
  intros M R solve update make_dm symmetric damping etol dtol maxiter st o st' Hsh H Ho Hc.
  destruct (proj2 (loop_spec M R solve update make_dm symmetric damping etol dtol maxiter None None st o st' H) Ho) as (its & F & G).
  destruct F as (F1 & F2 & F3 & F4 & F5 & F6 & F7 & F8). simpl in F6. exists its. repeat split; auto.
  destruct F8 as [(l & a & b & E & N & Hb & Hs & Hv)|[(l & a & E & Hs & Hv)|(L & Hv & N & Hs)]]; try congruence; eauto.
  right. split; auto. intros l a b r E [A B]. apply ddm_spec in B; auto.
  destruct r as [|x r].
  - apply (N l a b); auto; [|split; auto]. subst its. destruct l; discriminate.
  - eapply (F6 l a b (x :: r)); eauto; [discriminate|split; auto].
Qed.

(** ** Cases *)

(** Mean-fields are numbers, the update halves, the energy is the square; the density matrix has one element. *)
Definition h_solve (h : list (Q * unit)) (m : Q) : option (unit * Q) := Some (tt, m * m).
Definition h_update (h : list (Q * unit)) (m : Q) : option Q := Some (Qred (m / 2)).
Definition h_dm (m : Q) : dm := Rdm [m].
Definition h_kernel := scmf_kernel h_solve h_update h_dm (fun _ => true) 0 (Some (1#10)) (Some (1#10)).

Example ex_converges : exists st, h_kernel 10 {| mf := 1; converged := false; energies := []; hist := [] |} = (SReturn tt, st)
  /\ converged st = true /\ length (energies st) = 4%nat /\ mf st = 1#16.
Proof. eexists. split; [vm_compute; reflexivity|]. repeat split. Qed.

Example ex_not : exists st, h_kernel 3 {| mf := 1; converged := false; energies := []; hist := [] |} = (SReturn tt, st)
  /\ converged st = false /\ length (energies st) = 3%nat.
Proof. eexists. split; [vm_compute; reflexivity|]. repeat split. Qed.

Example ex_shape : forall m1 m2, same_shape (h_dm m1) (h_dm m2).
Proof. intros. simpl. split; auto. discriminate. Qed.

(** Finding: [converged] is not reset by a new call; a second run that stops after one iteration still reports it. *)
Theorem C31_second_run_refuted : exists st1 st2,
  h_kernel 10 {| mf := 1; converged := false; energies := []; hist := [] |} = (SReturn tt, st1)
  /\ h_kernel 1 st1 = (SReturn tt, st2) /\ converged st2 = true /\ length (energies st2) = S (length (energies st1)).
Proof. do 2 eexists. split; [vm_compute; reflexivity|]. split; [vm_compute; reflexivity|]. split; reflexivity. Qed.

(** Finding: the energy reported at the end is the one of the mean-field before the last update, not of the mean-field
    the embedding object is left with. *)
Theorem C31_final_energy_refuted : exists st e e',
  h_kernel 10 {| mf := 1; converged := false; energies := []; hist := [] |} = (SReturn tt, st)
  /\ e_tot st = Some e /\ h_solve (hist st) (mf st) = Some (tt, e') /\ ~ e == e'.
Proof. do 3 eexists. split; [vm_compute; reflexivity|]. split; [vm_compute; reflexivity|]. split; [vm_compute; reflexivity|]. vm_compute. discriminate. Qed.

(** Finding: maxiter=0 ends in an error (the result is never assigned). *)
Theorem C31_no_iterations_refuted : forall M R solve update make_dm symmetric damping etol dtol (st : sstate M R),
  scmf_kernel solve update make_dm symmetric damping etol dtol 0 st = (SUnbound, st).
Proof. reflexivity. Qed.

(** The first iteration never reports convergence, however large the tolerances. *)
Theorem C31_one_iteration : forall M R solve update make_dm symmetric damping etol dtol (st : sstate M R) o st',
  scmf_kernel solve update make_dm symmetric damping etol dtol 1 st = (o, st') -> converged st = false -> converged st' = false.
Proof.
  intros M R solve update make_dm symmetric damping etol dtol st o st' H Hc. cbn in H.
  destruct (solve (hist st) (mf st)) as [[r e]|]; [|injection H as <- <-; auto].
  destruct (update _ _) as [m|]; [|injection H as <- <-; auto].
  destruct (symmetric (make_dm m)); injection H as <- <-; auto.
Qed.

Print Assumptions C31_iterations.
Print Assumptions C31_converged.
Print Assumptions C31_not_converged.
Print Assumptions C31_one_iteration.
Print Assumptions C31_second_run_refuted.
Print Assumptions C31_final_energy_refuted.
Print Assumptions C31_no_iterations_refuted.
