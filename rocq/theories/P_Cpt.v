(** Properties C29 (ChempotBisection) and C30 (optimize_cpt). *)
From Coq Require Import List ZArith QArith Qabs Bool Lia Lqa.
From Verif Require Import M_Cpt.
Import ListNotations.

Lemma Qle_bool_false x y : Qle_bool x y = false <-> y < x.
Proof.
  split; intros H.
  - destruct (Qlt_le_dec y x); auto. apply Qle_bool_iff in q. congruence.
  - destruct (Qle_bool x y) eqn:E; auto. apply Qle_bool_iff in E. lra.
Qed.

(** * C29 *)

Section B.
Variable func : list Q -> Q -> option Q.
Variable tol : Q.

(** The trace [tr] extends [tr0] by evaluations made after it. *)
Definition extends (tr0 tr : trace) : Prop := exists l, tr = l ++ tr0.

(** An evaluation at (a number equal to) [c] within tolerance was made after [tr0]. *)
Definition evaluated_within (tr0 tr : trace) (c : Q) : Prop :=
  exists l x e, tr = l ++ tr0 /\ In (x, e) l /\ c == x /\ Qabs e <= tol.

Lemma call_ext tr x e tr' : call func tr x = Some (e, tr') -> tr' = (x, e) :: tr.
Proof. unfold call. destruct (func (map fst tr) x); [|discriminate]. intros H. injection H as <- <-. auto. Qed.

Lemma run_brentq_spec c1 e1 c3 e3 : forall s st tr o st' tr',
  run_brentq func tol c1 e1 c3 e3 s st tr = (o, st', tr') ->
  In (c1, e1) tr -> In (c3, e3) tr ->
  extends tr tr' /\
  match o with
  | BReturn c => (converged st' = true /\ cpt st' = c /\ exists x e, In (x, e) tr' /\ c == x /\ Qabs e <= tol)
                 \/ (converged st' = converged st /\ cpt st' = c)
  | _ => converged st' = converged st
  end.
Proof.
  induction s as [x k IH|b|]; intros st tr o st' tr' H H1 H3; simpl in H.
  - assert (G : forall e tr2 y, In (y, e) tr2 -> x == y -> extends tr tr2 -> In (c1, e1) tr2 -> In (c3, e3) tr2 ->
       (if Qle_bool (Qabs e) tol then (BReturn x, {| cpt := x; converged := true |}, tr2)
        else run_brentq func tol c1 e1 c3 e3 (k e) {| cpt := x; converged := converged st |} tr2) = (o, st', tr') ->
       extends tr tr' /\
       match o with
       | BReturn c => (converged st' = true /\ cpt st' = c /\ exists x e, In (x, e) tr' /\ c == x /\ Qabs e <= tol)
                 \/ (converged st' = converged st /\ cpt st' = c)
       | _ => converged st' = converged st
       end).
    { intros e tr2 y Hy Exy Ex G1 G3 E. destruct (Qle_bool (Qabs e) tol) eqn:T.
      - injection E as <- <- <-. split; auto. left. repeat split; auto. exists y, e. repeat split; auto. now apply Qle_bool_iff.
      - destruct (IH e _ _ _ _ _ E G1 G3) as [X Y]. split.
        + destruct X as [l ->], Ex as [l' ->]. exists (l ++ l'). now rewrite app_assoc.
        + exact Y. }
    destruct (Qeq_bool x c1) eqn:Q1.
    { apply Qeq_bool_iff in Q1. apply (G e1 tr c1); auto. exists []; auto. }
    destruct (Qeq_bool x c3) eqn:Q3.
    { apply Qeq_bool_iff in Q3. apply (G e3 tr c3); auto. exists []; auto. }
    destruct (call func tr x) as [[e tr2]|] eqn:C.
    + apply call_ext in C. subst tr2. apply (G e ((x, e) :: tr) x); simpl; auto; try reflexivity. exists [(x, e)]; auto.
    + injection H as <- <- <-. split; auto. exists []; auto.
  - destruct b; injection H as <- <- <-; (split; [exists []; auto|]); auto.
  - injection H as <- <- <-. split; auto. exists []; auto.
Qed.

Lemma bracket_spec c1 e1 m base : forall exps tr,
  match bracket func c1 e1 m base exps tr with
  | Found c e tr' => exists l, tr' = (c, e) :: l ++ tr /\ e1 * e <= 0 /\ (length l < length exps)%nat
                     /\ Forall (fun p => 0 < e1 * snd p) l
  | NotFound tr' => exists l, tr' = l ++ tr /\ Forall (fun p => 0 < e1 * snd p) l /\ length l = length exps
  | FuncError tr' => exists l, tr' = l ++ tr
  end.
Proof.
  induction exps as [|x rest IH]; intros tr; simpl.
  - exists []. auto.
  - destruct (call func tr _) as [[e3 tr2]|] eqn:C; [|exists []; auto].
    apply call_ext in C. subst tr2. set (c3 := c1 - _) in *. destruct (Qle_bool (e1 * e3) 0) eqn:E.
    + exists []. repeat split; auto; [now apply Qle_bool_iff|simpl; lia].
    + apply Qle_bool_false in E. specialize (IH ((c3, e3) :: tr)).
      destruct (bracket func c1 e1 m base rest ((c3, e3) :: tr)).
      * destruct IH as (l & -> & H1 & H2 & H3). exists (l ++ [(c3, e3)]).
        rewrite <- app_assoc. repeat split; auto; [rewrite app_length; simpl; lia|].
        apply Forall_app. split; auto.
      * destruct IH as (l & -> & H1 & H2). exists (l ++ [(c3, e3)]). rewrite <- app_assoc, app_length. simpl.
        repeat split; auto; [|lia]. apply Forall_app. auto.
      * destruct IH as (l & ->). exists (l ++ [(c3, e3)]). now rewrite <- app_assoc.
Qed.

Definition ntries (robust : bool) : nat := if robust then 4 else 3.

(** Everything about one call of kernel, for every function, root finder, tolerance and earlier history. *)
Lemma bisect_spec robust brentq st tr o st' tr' :
  bisect_kernel func tol robust brentq st tr = (o, st', tr') ->
  match o with
  | BReturn c => cpt st' = c /\
     ((converged st' = true /\ evaluated_within tr tr' c)
      \/ (converged st' = converged st /\
          exists e1 c3 e3, In (cpt st, e1) tr' /\ In (c3, e3) tr' /\ e1 * e3 <= 0))
  | BValueError => converged st' = converged st /\
     ((exists e1 c2 e2 l, tr' = l ++ (c2, e2) :: (cpt st, e1) :: tr /\ length l = ntries robust
        /\ Forall (fun p => 0 < e1 * snd p) l /\ cpt st' = cpt st)
      \/ exists e1 c3 e3, In (cpt st, e1) tr' /\ In (c3, e3) tr' /\ e1 * e3 <= 0)
  | _ => converged st' = converged st
  end.
Proof.
  unfold bisect_kernel. destruct (call func tr (cpt st)) as [[e1 tr1]|] eqn:C1.
  2:{ intros H. injection H as <- <- <-. auto. }
  apply call_ext in C1. subst tr1. destruct (Qle_bool (Qabs e1) tol) eqn:T.
  { intros H. injection H as <- <- <-. split; auto. left. split; auto.
    exists [(cpt st, e1)], (cpt st), e1. simpl. repeat split; auto; try reflexivity. now apply Qle_bool_iff. }
  set (c2 := cpt st + _). destruct (call func ((cpt st, e1) :: tr) c2) as [[e2 tr2]|] eqn:C2.
  2:{ intros H. injection H as <- <- <-. auto. }
  apply call_ext in C2. subst tr2. set (m := (e2 - e1) / (c2 - cpt st)).
  destruct (Qeq_bool m 0). { intros H. injection H as <- <- <-. auto. }
  assert (G : forall base exps, length exps = ntries robust ->
    match bracket func (cpt st) e1 m base exps ((c2, e2) :: (cpt st, e1) :: tr) with
    | FuncError tr => (BFuncError, st, tr)
    | NotFound tr => (BValueError, st, tr)
    | Found c3 e3 tr =>
        let '(lower, upper) := if Qle_bool (cpt st) c3 then (cpt st, c3) else (c3, cpt st) in
        run_brentq func tol (cpt st) e1 c3 e3 (brentq lower upper) st tr
    end = (o, st', tr') ->
    match o with
    | BReturn c => cpt st' = c /\
       ((converged st' = true /\ evaluated_within tr tr' c)
        \/ (converged st' = converged st /\
            exists e1 c3 e3, In (cpt st, e1) tr' /\ In (c3, e3) tr' /\ e1 * e3 <= 0))
    | BValueError => converged st' = converged st /\
     ((exists e1 c2 e2 l, tr' = l ++ (c2, e2) :: (cpt st, e1) :: tr /\ length l = ntries robust
        /\ Forall (fun p => 0 < e1 * snd p) l /\ cpt st' = cpt st)
      \/ exists e1 c3 e3, In (cpt st, e1) tr' /\ In (c3, e3) tr' /\ e1 * e3 <= 0)
    | _ => converged st' = converged st
    end).
  2:{ destruct robust; apply G; reflexivity. }
  intros base exps Hl H.
  pose proof (bracket_spec (cpt st) e1 m base exps ((c2, e2) :: (cpt st, e1) :: tr)) as B.
  destruct (bracket func (cpt st) e1 m base exps ((c2, e2) :: (cpt st, e1) :: tr)) as [c3 e3 tr3|tr3|tr3].
  - destruct B as (l & -> & B1 & B2 & B3).
    set (s := match (if Qle_bool (cpt st) c3 then (cpt st, c3) else (c3, cpt st)) with (lo, up) => brentq lo up end).
    assert (Hs : run_brentq func tol (cpt st) e1 c3 e3 s st ((c3, e3) :: l ++ (c2, e2) :: (cpt st, e1) :: tr) = (o, st', tr')).
    { unfold s. destruct (Qle_bool (cpt st) c3); exact H. }
    assert (I1 : In (cpt st, e1) ((c3, e3) :: l ++ (c2, e2) :: (cpt st, e1) :: tr)).
    { simpl. right. apply in_or_app. simpl. auto. }
    assert (I3 : In (c3, e3) ((c3, e3) :: l ++ (c2, e2) :: (cpt st, e1) :: tr)) by (simpl; auto).
    assert (Z : extends ((c3, e3) :: l ++ (c2, e2) :: (cpt st, e1) :: tr) tr' /\ match o with
      | BReturn c => (converged st' = true /\ cpt st' = c /\ evaluated_within tr tr' c)
                     \/ (converged st' = converged st /\ cpt st' = c)
      | _ => converged st' = converged st
      end).
    { clear H. revert Hs. clearbody s. clear B1 B2 B3.
      (* as run_brentq_spec, but the evaluation must be a recent one *)
      assert (R : forall s st0 tr0 o0 st0' tr0', run_brentq func tol (cpt st) e1 c3 e3 s st0 tr0 = (o0, st0', tr0') ->
         (exists l', tr0 = l' ++ tr /\ In (cpt st, e1) l' /\ In (c3, e3) l') ->
         extends tr0 tr0' /\ match o0 with
         | BReturn c => (converged st0' = true /\ cpt st0' = c /\ evaluated_within tr tr0' c)
                     \/ (converged st0' = converged st0 /\ cpt st0' = c)
         | _ => converged st0' = converged st0
         end).
      { clear s o st' tr' I1 I3. induction s as [x k IH|b|]; intros st0 tr0 o0 st0' tr0' H (l' & E' & L1 & L3); simpl in H.
        - assert (W : forall e tr2 y l2, tr2 = l2 ++ tr -> In (y, e) l2 -> x == y -> extends tr0 tr2 ->
             In (cpt st, e1) l2 -> In (c3, e3) l2 ->
             (if Qle_bool (Qabs e) tol then (BReturn x, {| cpt := x; converged := true |}, tr2)
              else run_brentq func tol (cpt st) e1 c3 e3 (k e) {| cpt := x; converged := converged st0 |} tr2) = (o0, st0', tr0') ->
             extends tr0 tr0' /\ match o0 with
             | BReturn c => (converged st0' = true /\ cpt st0' = c /\ evaluated_within tr tr0' c)
                     \/ (converged st0' = converged st0 /\ cpt st0' = c)
             | _ => converged st0' = converged st0
             end).
          { intros e tr2 y l2 E2 Hy Exy Ex G1 G3 E. destruct (Qle_bool (Qabs e) tol) eqn:Te.
            - injection E as <- <- <-. split; auto. left. repeat split; auto. exists l2, y, e.
              repeat split; auto. now apply Qle_bool_iff.
            - destruct (IH e _ _ _ _ _ E) as [X Y]; [exists l2; auto|]. split; [|exact Y].
              destruct X as [a ->], Ex as [a' ->]. exists (a ++ a'). now rewrite app_assoc. }
          destruct (Qeq_bool x (cpt st)) eqn:Q1.
          { apply Qeq_bool_iff in Q1. apply (W e1 tr0 (cpt st) l'); auto. exists []; auto. }
          destruct (Qeq_bool x c3) eqn:Q3.
          { apply Qeq_bool_iff in Q3. apply (W e3 tr0 c3 l'); auto. exists []; auto. }
          destruct (call func tr0 x) as [[e tr2]|] eqn:C.
          + apply call_ext in C. subst tr2. apply (W e ((x, e) :: tr0) x ((x, e) :: l')); simpl; auto; try reflexivity.
            * now rewrite E'.
            * exists [(x, e)]; auto.
          + injection H as <- <- <-. split; auto. exists []; auto.
        - destruct b; injection H as <- <- <-; (split; [exists []; auto|]); auto.
        - injection H as <- <- <-. split; auto. exists []; auto. }
      intros Hs. eapply R; eauto. exists ((c3, e3) :: l ++ [(c2, e2); (cpt st, e1)]).
      split; [simpl; rewrite <- app_assoc; reflexivity|]. split; simpl; auto.
      right. apply in_or_app. simpl. auto. }
    destruct Z as [[a Ea] Z].
    assert (J : exists e1 c3 e3, In (cpt st, e1) tr' /\ In (c3, e3) tr' /\ e1 * e3 <= 0).
    { exists e1, c3, e3. subst tr'. repeat split; auto; apply in_or_app; auto. }
    destruct o; auto.
    destruct Z as [(Z1 & Z2 & Z3)|(Z1 & Z2)]; auto.
  - destruct B as (l & -> & B1 & B2). injection H as <- <- <-. split; auto. left.
    exists e1, c2, e2, l. repeat split; auto; congruence.
  - injection H as <- <- <-. auto.
Qed.

End B.

(** If a call on an object that was not converged returns with [converged] set, the function was evaluated in this
    call at the returned value and the result was within the tolerance. *)
Theorem C29_converged : forall func tol robust brentq st tr c st' tr',
  converged st = false -> bisect_kernel func tol robust brentq st tr = (BReturn c, st', tr') ->
  converged st' = true -> cpt st' = c /\ evaluated_within tol tr tr' c.
Proof.
  intros func tol robust brentq st tr c st' tr' Hc H Hc'. apply bisect_spec in H.
  destruct H as (H & [[_ G]|[G _]]); [auto|congruence].
Qed.

(** If a call returns without setting [converged], the root finder ended regularly on a bracket at whose ends
    the errors have different signs (or one is zero). *)
Theorem C29_not_converged : forall func tol robust brentq st tr c st' tr',
  bisect_kernel func tol robust brentq st tr = (BReturn c, st', tr') -> converged st' = false ->
  exists e1 c3 e3, In (cpt st, e1) tr' /\ In (c3, e3) tr' /\ e1 * e3 <= 0.
Proof.
  intros func tol robust brentq st tr c st' tr' H Hc. apply bisect_spec in H.
  destruct H as (H & [[G _]|[_ G]]); [congruence|auto].
Qed.

(** Exceptions never set [converged].  ValueError: all brackets tried (three, or four for robust=True) failed, or
    the root finder itself rejected a bracket with a sign change. *)
Theorem C29_exceptions : forall func tol robust brentq st tr o st' tr',
  bisect_kernel func tol robust brentq st tr = (o, st', tr') -> (forall c, o <> BReturn c) ->
  converged st' = converged st /\
  (o = BValueError ->
     (exists e1 c2 e2 l, tr' = l ++ (c2, e2) :: (cpt st, e1) :: tr /\ length l = ntries robust
        /\ Forall (fun p => 0 < e1 * snd p) l /\ cpt st' = cpt st)
      \/ exists e1 c3 e3, In (cpt st, e1) tr' /\ In (c3, e3) tr' /\ e1 * e3 <= 0).
Proof.
  intros func tol robust brentq st tr o st' tr' H Hr. apply bisect_spec in H.
  destruct o; try (split; [exact H|discriminate]).
  - exfalso. eapply Hr; eauto.
  - destruct H; split; auto.
Qed.

(** The root finder, given the answers [l] to its questions, goes on as [s']. *)
Inductive plays : strategy -> list (Q * Q) -> strategy -> Prop :=
| plays_nil s : plays s [] s
| plays_ask x k e l s' : plays (k e) l s' -> plays (Ask x k) ((x, e) :: l) s'.

(** The interval given to the root finder: between the start value and a value with an error of the other sign. *)
Definition interval (st : bstate) (tr : trace) (lo up : Q) : Prop :=
  lo <= up /\ exists e1 c3 e3, In (cpt st, e1) tr /\ In (c3, e3) tr /\ e1 * e3 <= 0 /\ ((lo = cpt st /\ up = c3) \/ (lo = c3 /\ up = cpt st)).

Lemma run_brentq_plays func tol c1 e1 c3 e3 : forall s st tr o st' tr', run_brentq func tol c1 e1 c3 e3 s st tr = (o, st', tr') ->
  extends tr tr' /\ (o = BRuntimeError -> exists l, plays s l (Done false)) /\ (forall c, o = BReturn c -> converged st' = false -> exists l, plays s l (Done true)).
Proof.
  induction s as [x k IH|b|]; intros st tr o st' tr' H; simpl in H.
  - assert (G : forall e tr2, extends tr tr2 -> (if Qle_bool (Qabs e) tol then (BReturn x, {| cpt := x; converged := true |}, tr2)
        else run_brentq func tol c1 e1 c3 e3 (k e) {| cpt := x; converged := converged st |} tr2) = (o, st', tr') ->
       extends tr tr' /\ (o = BRuntimeError -> exists l, plays (Ask x k) l (Done false)) /\ (forall c, o = BReturn c -> converged st' = false -> exists l, plays (Ask x k) l (Done true))).
    { intros e tr2 Ex E. destruct (Qle_bool (Qabs e) tol).
      - injection E as <- <- <-. repeat split; auto; discriminate.
      - destruct (IH e _ _ _ _ _ E) as (I1 & I2 & I3). split; [|split].
        + destruct I1 as [l ->], Ex as [l' ->]. exists (l ++ l'). now rewrite app_assoc.
        + intros Ho. destruct (I2 Ho) as [l Hl]. exists ((x, e) :: l). now constructor.
        + intros c Ho Hc. destruct (I3 c Ho Hc) as [l Hl]. exists ((x, e) :: l). now constructor. }
    destruct (Qeq_bool x c1); [apply (G e1 tr); auto; exists []; auto|]. destruct (Qeq_bool x c3); [apply (G e3 tr); auto; exists []; auto|].
    destruct (call func tr x) as [[e tr2]|] eqn:C.
    + apply call_ext in C. subst tr2. apply (G e ((x, e) :: tr)); auto. exists [(x, e)]; auto.
    + injection H as <- <- <-. split; [exists []; auto|]. split; discriminate.
  - destruct b; injection H as <- <- <-; (split; [exists []; auto|]); (split; [discriminate || (intros _; exists []; constructor)|]).
    + intros c E _. exists []. constructor.
    + discriminate.
  - injection H as <- <- <-. split; [exists []; auto|]. split; discriminate.
Qed.

(** A search that the root finder gives up raises RuntimeError, and nothing else does; a return without [converged]
    means that the root finder reported success. *)
Theorem C29_root_finder : forall func tol robust brentq st tr o st' tr',
  bisect_kernel func tol robust brentq st tr = (o, st', tr') ->
  (o = BRuntimeError -> exists lo up l, interval st tr' lo up /\ plays (brentq lo up) l (Done false)) /\
  (forall c, o = BReturn c -> converged st' = false -> exists lo up l, interval st tr' lo up /\ plays (brentq lo up) l (Done true)).
Proof.
  intros func tol robust brentq st tr o st' tr'. unfold bisect_kernel. destruct (call func tr (cpt st)) as [[e1 tr1]|] eqn:C1.
  2:{ intros H. injection H as <- <- <-. split; discriminate. }
  apply call_ext in C1. subst tr1. destruct (Qle_bool (Qabs e1) tol) eqn:T.
  { intros H. injection H as <- <- <-. split; discriminate. }
  set (c2 := cpt st + _). destruct (call func ((cpt st, e1) :: tr) c2) as [[e2 tr2]|] eqn:C2.
  2:{ intros H. injection H as <- <- <-. split; discriminate. }
  apply call_ext in C2. subst tr2. set (m := (e2 - e1) / (c2 - cpt st)).
  destruct (Qeq_bool m 0). { intros H. injection H as <- <- <-. split; discriminate. }
  destruct (if robust then _ else _) as [base exps]. pose proof (bracket_spec func (cpt st) e1 m base exps ((c2, e2) :: (cpt st, e1) :: tr)) as B.
  destruct (bracket func (cpt st) e1 m base exps ((c2, e2) :: (cpt st, e1) :: tr)) as [c3 e3 tr3|tr3|tr3].
  2,3: intros H; injection H as <- <- <-; split; discriminate.
  destruct B as (l & -> & B1 & _).
  assert (X : forall lo up, lo <= up -> (lo = cpt st /\ up = c3) \/ (lo = c3 /\ up = cpt st) ->
    run_brentq func tol (cpt st) e1 c3 e3 (brentq lo up) st ((c3, e3) :: l ++ (c2, e2) :: (cpt st, e1) :: tr) = (o, st', tr') ->
    (o = BRuntimeError -> exists lo up l, interval st tr' lo up /\ plays (brentq lo up) l (Done false)) /\
    (forall c, o = BReturn c -> converged st' = false -> exists lo up l, interval st tr' lo up /\ plays (brentq lo up) l (Done true))).
  { intros lo up L E H. destruct (run_brentq_plays _ _ _ _ _ _ _ _ _ _ _ _ H) as ((a & ->) & R1 & R2).
    assert (I : interval st (a ++ (c3, e3) :: l ++ (c2, e2) :: (cpt st, e1) :: tr) lo up).
    { split; auto. exists e1, c3, e3. repeat split; auto; apply in_or_app; right; simpl; auto. right. apply in_or_app. simpl. auto. }
    split.
    - intros Ho. destruct (R1 Ho) as [b Hb]. exists lo, up, b. auto.
    - intros c Ho Hc. destruct (R2 c Ho Hc) as [b Hb]. exists lo, up, b. auto. }
  destruct (Qle_bool (cpt st) c3) eqn:Q; intros H.
  - apply (X _ _ (proj1 (Qle_bool_iff _ _) Q)) in H; auto.
  - apply Qle_bool_false in Q. apply (X c3 (cpt st)) in H; auto. lra.
Qed.

(** A case: the root finder asks for 1 and gives up. *)
Example ex_giveup : exists tr st,
  bisect_kernel (fun _ x => Some ((1#2) * x - 1)) (1#100) false (fun a b => Ask 1 (fun _ => Done false)) {| cpt := 0; converged := false |} []
  = (BRuntimeError, st, tr).
Proof. do 2 eexists. vm_compute. reflexivity. Qed.

(** Finding: [converged] is never reset; a second call can return with [converged] set although no evaluation was
    within the tolerance. *)
Definition ex_func (h : list Q) (x : Q) : option Q := Some (match h with [] => 0 | _ => x + 5 end).
Definition ex_brentq (a b : Q) : strategy := Ask a (fun _ => Ask b (fun _ => Done true)).

Theorem C29_second_call_refuted :
  exists st1 tr1 c2 st2 tr2,
    bisect_kernel ex_func (1#10) false ex_brentq {| cpt := 0; converged := false |} [] = (BReturn 0, st1, tr1)
    /\ bisect_kernel ex_func (1#10) false ex_brentq st1 tr1 = (BReturn c2, st2, tr2)
    /\ converged st2 = true /\ ~ evaluated_within (1#10) tr1 tr2 c2.
Proof.
  do 5 eexists. split; [vm_compute; reflexivity|]. split; [vm_compute; reflexivity|]. split; [reflexivity|].
  intros (l & x & e & E & Hi & _ & He).
  match type of E with ?a = _ => replace l with (firstn (length a - 1) a) in Hi end.
  - cbn in Hi. repeat (destruct Hi as [Hi|Hi]; [injection Hi as <- <-; vm_compute in He; congruence|]). contradiction.
  - rewrite E. rewrite app_length. simpl. rewrite Nat.add_sub. rewrite firstn_app, Nat.sub_diag, firstn_all. apply app_nil_r.
Qed.

(** A case: f(x) = x/2 - 1, root 2 found by a root finder that asks for the ends and then for 2. *)
Example ex_bisect : exists tr st,
  bisect_kernel (fun _ x => Some ((1#2) * x - 1)) (1#100) false
    (fun a b => Ask a (fun _ => Ask b (fun _ => Ask 2 (fun _ => Done true)))) {| cpt := 0; converged := false |} []
  = (BReturn 2, st, tr) /\ converged st = true.
Proof. do 2 eexists. split; vm_compute; reflexivity. Qed.

(** A case without a bracket: ValueError. *)
Example ex_bisect_fail : exists tr st,
  bisect_kernel (fun _ x => Some (x * x + 1)) (1#100) false (fun a b => Done true) {| cpt := 0; converged := false |} []
  = (BValueError, st, tr) /\ length tr = 5%nat.
Proof. do 2 eexists. split; vm_compute; reflexivity. Qed.

(** * C30 *)

Section O.
Variable V : Type.
Variable calc : option V -> Q -> V.
Variable solve : list (option V) -> option V -> run.
Variables nelectron atol rtol : Q.

(** The external potential a user expects in the run with chemical potential [c]. *)
Definition expected_v (v0 : option V) (c : Q) : option V := if Qeq_bool c 0 then v0 else Some (calc v0 c).

(** The solver's state is the result of a converged run at chemical potential [c] with the right electron number. *)
Definition good (v0 : option V) (c : Q) (st : ostate V) : Prop :=
  exists ne rest, runs st = (c, expected_v v0 c) :: rest /\ solve (map snd rest) (expected_v v0 c) = Conv ne
  /\ wf st = Some ne /\ Qabs (ne - nelectron) < atol + rtol * nelectron.

Lemma electron_err_spec err0 c st s st' : electron_err calc solve nelectron atol rtol err0 c st = (s, st') ->
  v_ext st' = v_ext st /\ (exists l, runs st' = l ++ runs st) /\
  Forall (fun r => snd r = expected_v (v_ext st) (fst r)) (firstn (length (runs st') - length (runs st)) (runs st'))
  /\ (s = CptFound -> good (v_ext st) c st').
Proof.
  unfold electron_err. intros H.
  destruct (if Qeq_bool c 0 then err0 else None) as [e|].
  { injection H as <- <-. repeat split; auto; try discriminate. exists []; auto. rewrite Nat.sub_diag. constructor. }
  fold (expected_v (v_ext st) c) in H. set (v := expected_v (v_ext st) c) in *.
  assert (F : forall ne, let st'' := {| v_ext := v_ext st; wf := ne; runs := (c, v) :: runs st |} in
     v_ext st'' = v_ext st /\ (exists l, runs st'' = l ++ runs st) /\
     Forall (fun r => snd r = expected_v (v_ext st) (fst r)) (firstn (length (runs st'') - length (runs st)) (runs st''))).
  { intros ne st''. subst st''. cbn [v_ext runs length]. repeat split; auto. exists [(c, v)]; auto.
    replace (S (length (runs st)) - length (runs st))%nat with 1%nat by lia. simpl. constructor; auto. }
  destruct (solve (map snd (runs st)) v) as [ne| | | |] eqn:S.
  - destruct (Qle_bool (atol + rtol * nelectron) (Qabs (ne - nelectron))) eqn:E; injection H as <- <-;
      destruct (F (Some ne)) as (F1 & F2 & F3); repeat split; auto; try discriminate.
    intros _. apply Qle_bool_false in E. exists ne, (runs st). repeat split; auto.
  - injection H as <- <-. destruct (F None) as (F1 & F2 & F3). repeat split; auto; discriminate.
  - injection H as <- <-. destruct (F None) as (F1 & F2 & F3). repeat split; auto; discriminate.
  - injection H as <- <-. destruct (F None) as (F1 & F2 & F3). repeat split; auto; discriminate.
  - injection H as <- <-. destruct (F None) as (F1 & F2 & F3). repeat split; auto; discriminate.
Qed.

Lemma search_spec err0 : forall s st t st', run_search calc solve nelectron atol rtol err0 s st = (t, st') ->
  v_ext st' = v_ext st /\ (forall c, t = TFound c -> good (v_ext st) c st').
Proof.
  induction s as [x k IH|b|]; intros st t st' H; simpl in H.
  - destruct (electron_err calc solve nelectron atol rtol (Some err0) x st) as [s1 st1] eqn:E.
    apply electron_err_spec in E. destruct E as (E1 & _ & _ & E4).
    destruct s1; try (injection H as <- <-; split; [auto|]; intros c Hc; try discriminate).
    + destruct (IH e st1 t st' H) as [I1 I2]. split; [congruence|]. intros c Hc. rewrite <- E1. auto.
    + injection Hc as <-. auto.
  - injection H as <- <-. split; auto. discriminate.
  - injection H as <- <-. split; auto. discriminate.
Qed.

Lemma tries_spec brentq err0 : forall n lo up st o st', tries calc solve n brentq nelectron atol rtol err0 lo up st = (o, st') ->
  v_ext st' = v_ext st /\ (forall r c, o = OReturn r c -> good (v_ext st) c st' /\ r = None).
Proof.
  induction n as [|n IH]; intros lo up st o st' H; simpl in H.
  - injection H as <- <-. split; auto. discriminate.
  - destruct (run_search calc solve nelectron atol rtol err0 (brentq lo up) st) as [t st1] eqn:E.
    apply search_spec in E. destruct E as [E1 E2].
    destruct t; try (injection H as <- <-; split; [auto|]; intros r c' Hc; try discriminate).
    + injection Hc as <- <-. auto.
    + destruct (IH _ _ _ _ _ H) as [I1 I2]. split; [congruence|]. rewrite <- E1. auto.
    + destruct (IH _ _ _ _ _ H) as [I1 I2]. split; [congruence|]. rewrite <- E1. auto.
Qed.

Lemma kernel_spec brentq guess radius st o st' :
  cpt_kernel calc solve brentq nelectron guess atol rtol radius st = (o, st') ->
  v_ext st' = v_ext st /\ (forall r c, o = OReturn r c -> good (v_ext st) c st' /\ r = None).
Proof.
  unfold cpt_kernel. intros H.
  destruct (electron_err calc solve nelectron atol rtol None guess st) as [s st1] eqn:E.
  apply electron_err_spec in E. destruct E as (E1 & _ & _ & E4).
  destruct s; try (injection H as <- <-; split; [auto|]; intros r c' Hc; try discriminate).
  - destruct (Qle_bool 0 e).
    + apply tries_spec in H. rewrite E1 in H. auto.
    + apply tries_spec in H. rewrite E1 in H. auto.
  - injection Hc as <- <-. split; auto.
Qed.

End O.

(** The optimisation returns only with an electron number within the tolerance: the solver then holds the wave
    function of a converged run at the chemical potential found, in the external potential v_ext - cpt * projector. *)
Theorem C30_within_tolerance : forall V (calc : option V -> Q -> V) solve brentq nelectron guess atol rtol radius st r c st',
  cpt_kernel calc solve brentq nelectron guess atol rtol radius st = (OReturn r c, st') ->
  good V calc solve nelectron atol rtol (v_ext st) c st'.
Proof. intros. apply kernel_spec in H. destruct H as [_ H]. destruct (H r c eq_refl). auto. Qed.

(** The external potential is unchanged, whatever happens. *)
Theorem C30_restores : forall V (calc : option V -> Q -> V) solve brentq nelectron guess atol rtol radius st o st',
  cpt_kernel calc solve brentq nelectron guess atol rtol radius st = (o, st') -> v_ext st' = v_ext st.
Proof. intros. apply kernel_spec in H. destruct H; auto. Qed.

(** Whatever happens, at least one run is made and the wave function is that of the last run: none if this run did
    not converge or raised. *)
Definition last_run {V} (solve : list (option V) -> option V -> run) (st : ostate V) : Prop :=
  exists c v rest, runs st = (c, v) :: rest /\ wf st = match solve (map snd rest) v with Conv ne => Some ne | _ => None end.

Lemma electron_err_last {V} (calc : option V -> Q -> V) solve nelectron atol rtol err0 c st s st' :
  electron_err calc solve nelectron atol rtol err0 c st = (s, st') -> (last_run solve st \/ err0 = None) -> last_run solve st'.
Proof.
  unfold electron_err. intros H L. destruct (Qeq_bool c 0).
  - destruct err0 as [e|]. { injection H as <- <-. destruct L; [auto|discriminate]. }
    destruct (solve (map snd (runs st)) (v_ext st)) as [ne| | | |] eqn:S.
    { destruct (Qle_bool _ _); injection H as <- <-; exists c, (v_ext st), (runs st); cbn [runs wf]; rewrite S; auto. }
    all: injection H as <- <-; exists c, (v_ext st), (runs st); cbn [runs wf]; rewrite S; auto.
  - destruct (solve (map snd (runs st)) (Some (calc (v_ext st) c))) as [ne| | | |] eqn:S.
    { destruct (Qle_bool _ _); injection H as <- <-; exists c, (Some (calc (v_ext st) c)), (runs st); cbn [runs wf]; rewrite S; auto. }
    all: injection H as <- <-; exists c, (Some (calc (v_ext st) c)), (runs st); cbn [runs wf]; rewrite S; auto.
Qed.

Lemma search_last {V} (calc : option V -> Q -> V) solve nelectron atol rtol err0 : forall s st t st',
  run_search calc solve nelectron atol rtol err0 s st = (t, st') -> last_run solve st -> last_run solve st'.
Proof.
  induction s as [x k IH|b|]; intros st t st' H L; simpl in H; try (injection H as <- <-; auto).
  destruct (electron_err calc solve nelectron atol rtol (Some err0) x st) as [s1 st1] eqn:E. apply electron_err_last in E; auto.
  destruct s1; try (injection H as <- <-; auto). eauto.
Qed.

Theorem C30_wave_function : forall V (calc : option V -> Q -> V) solve brentq nelectron guess atol rtol radius st o st',
  cpt_kernel calc solve brentq nelectron guess atol rtol radius st = (o, st') -> last_run solve st'.
Proof.
  intros V calc solve brentq nelectron guess atol rtol radius st o st' H. unfold cpt_kernel in H.
  destruct (electron_err calc solve nelectron atol rtol None guess st) as [s st1] eqn:E. apply electron_err_last in E; auto.
  destruct s as [e| | | |]; try (injection H as <- <-; auto).
  destruct (if Qle_bool 0 e then _ else _) as [lo up]. revert lo up st1 E H. generalize 5%nat. intros n; induction n as [|n IH]; intros lo up st1 L H; simpl in H.
  - injection H as <- <-; auto.
  - destruct (run_search calc solve nelectron atol rtol e (brentq lo up) st1) as [t st2] eqn:E2. apply search_last in E2; auto.
    destruct t; try (injection H as <- <-; auto); eauto.
Qed.

(** ** The search finds what it looks for *)
(** How a root finder ends on a function that may fail: it comes upon a value within the tolerance, or upon one where
    the function fails, or rejects the interval. *)
Inductive ending := Hit (x : Q) | Failed | Rejected.
Inductive ends (f : Q -> option Q) (tol : Q) : strategy -> ending -> Prop :=
| ends_hit x k e : f x = Some e -> Qabs e < tol -> ends f tol (Ask x k) (Hit x)
| ends_ask x k e r : f x = Some e -> tol <= Qabs e -> ends f tol (k e) r -> ends f tol (Ask x k) r
| ends_fail x k : f x = None -> ends f tol (Ask x k) Failed
| ends_reject : ends f tol NoBracket Rejected.

(** The intervals: doubled after a rejection, halved after a failure of the solver, at most [n] of them. *)
Inductive finds (f : Q -> option Q) (tol : Q) (brentq : Q -> Q -> strategy) : nat -> Q -> Q -> Q -> Prop :=
| finds_hit n lo up x : ends f tol (brentq lo up) (Hit x) -> finds f tol brentq (S n) lo up x
| finds_double n lo up x : ends f tol (brentq lo up) Rejected -> finds f tol brentq n (lo * 2) (up * 2) x -> finds f tol brentq (S n) lo up x
| finds_halve n lo up x : ends f tol (brentq lo up) Failed -> finds f tol brentq n (lo / 2) (up / 2) x -> finds f tol brentq (S n) lo up x.

(** The error of the electron number of a solver without memory; None if it does not converge. *)
Definition err_of {V} (calc : option V -> Q -> V) (solve1 : option V -> option Q) (nelectron : Q) (v0 : option V) (c : Q) : option Q :=
  option_map (fun ne => ne - nelectron) (solve1 (expected_v V calc v0 c)).
Definition no_memory {V} (solve1 : option V -> option Q) (h : list (option V)) (v : option V) : run := match solve1 v with Some ne => Conv ne | None => NotConv end.

Lemma ends_search {V} (calc : option V -> Q -> V) solve1 nelectron atol rtol v0 err0 : err_of calc solve1 nelectron v0 0 = Some err0 ->
  atol + rtol * nelectron <= Qabs err0 ->
  forall s r, ends (err_of calc solve1 nelectron v0) (atol + rtol * nelectron) s r -> forall st, v_ext st = v0 ->
  exists st', v_ext st' = v0 /\ run_search calc (no_memory solve1) nelectron atol rtol err0 s st = (match r with Hit x => TFound x | Failed => TConvergenceError | Rejected => TValueError end, st').
Proof.
  intros E0 T0 s r H. induction H as [x k e Hf He|x k e r Hf He H IH|x k Hf|]; intros st Hv; simpl.
  - unfold electron_err. destruct (Qeq_bool x 0) eqn:Z.
    { exfalso. assert (e = err0); [|subst; lra]. unfold err_of, expected_v in Hf, E0. rewrite Z in Hf. simpl in E0. congruence. }
    unfold err_of, expected_v in Hf. rewrite Z in Hf. unfold no_memory. rewrite Hv. destruct (solve1 (Some (calc v0 x))) as [ne|]; [|discriminate]. injection Hf as <-.
    destruct (Qle_bool _ _) eqn:Q; [apply Qle_bool_iff in Q; lra|]. eexists. split; [|reflexivity]. reflexivity.
  - unfold electron_err. destruct (Qeq_bool x 0) eqn:Z.
    { assert (e = err0) as <-; [|apply IH; auto]. unfold err_of, expected_v in Hf, E0. rewrite Z in Hf. simpl in E0. congruence. }
    unfold err_of, expected_v in Hf. rewrite Z in Hf. unfold no_memory at 1. rewrite Hv. destruct (solve1 (Some (calc v0 x))) as [ne|]; [|discriminate]. injection Hf as <-.
    destruct (Qle_bool _ _) eqn:Q; [|apply Qle_bool_false in Q; lra]. apply IH; reflexivity.
  - unfold electron_err. destruct (Qeq_bool x 0) eqn:Z.
    { exfalso. unfold err_of, expected_v in Hf, E0. rewrite Z in Hf. simpl in E0. congruence. }
    unfold err_of, expected_v in Hf. rewrite Z in Hf. unfold no_memory. rewrite Hv. destruct (solve1 (Some (calc v0 x))) as [ne|]; [discriminate|]. eexists. split; [|reflexivity]. reflexivity.
  - eauto.
Qed.

(** From the start value 0: if the electron number there is wrong, the search goes to negative chemical potentials if
    it is too large and to positive ones otherwise, on five intervals at most, the first of width [radius]. *)
Theorem C30_finds : forall V (calc : option V -> Q -> V) solve1 brentq nelectron atol rtol radius st err0 x,
  let f := err_of calc solve1 nelectron (v_ext st) in let tol := atol + rtol * nelectron in
  f 0 = Some err0 -> tol <= Qabs err0 ->
  (0 <= err0 -> finds f tol brentq 5 (0 - radius) 0 x) -> (err0 < 0 -> finds f tol brentq 5 0 (0 + radius) x) ->
  exists st', cpt_kernel calc (no_memory solve1) brentq nelectron 0 atol rtol radius st = (OReturn None x, st').
Proof.
  intros V calc solve1 brentq nelectron atol rtol radius st err0 x f tol E0 T0 H1 H2. unfold cpt_kernel.
  unfold electron_err. change (Qeq_bool 0 0) with true. cbv iota. unfold no_memory at 1. pose proof E0 as E0'. unfold f, err_of, expected_v in E0'. change (Qeq_bool 0 0) with true in E0'. cbv iota in E0'.
  destruct (solve1 (v_ext st)) as [ne|]; [|discriminate]. cbn [option_map] in E0'. assert (ne - nelectron = err0) as -> by congruence. clear E0'.
  destruct (Qle_bool (atol + rtol * nelectron) (Qabs err0)) eqn:Q; [|apply Qle_bool_false in Q; unfold tol in T0; lra].
  set (st1 := {| v_ext := v_ext st; wf := Some ne; runs := _ |}). assert (V1 : v_ext st1 = v_ext st) by reflexivity. clearbody st1.
  assert (G : forall n lo up, finds f tol brentq n lo up x -> forall st1, v_ext st1 = v_ext st -> exists st', tries calc (no_memory solve1) n brentq nelectron atol rtol err0 lo up st1 = (OReturn None x, st')).
  { induction 1 as [n lo up x H|n lo up x H _ IH|n lo up x H _ IH]; intros st2 V2; cbn [tries];
      destruct (ends_search calc solve1 nelectron atol rtol (v_ext st) err0 E0 T0 _ _ H st2 V2) as (st3 & V3 & ->); eauto. }
  destruct (Qle_bool 0 err0) eqn:S.
  - apply Qle_bool_iff in S. apply G; auto.
  - apply Qle_bool_false in S. apply G; auto.
Qed.

(** If the solver does not converge for the start value, ConvergenceError is raised; no further run is made. *)
Theorem C30_first_run_fails : forall V (calc : option V -> Q -> V) solve brentq nelectron guess atol rtol radius st,
  solve (map snd (runs st)) (expected_v V calc (v_ext st) guess) = NotConv ->
  exists st', cpt_kernel calc solve brentq nelectron guess atol rtol radius st = (OConvergenceError, st')
  /\ runs st' = (guess, expected_v V calc (v_ext st) guess) :: runs st /\ wf st' = None.
Proof.
  intros V calc solve brentq nelectron guess atol rtol radius st H. unfold cpt_kernel, electron_err.
  replace (if Qeq_bool guess 0 then @None Q else None) with (@None Q) by (destruct (Qeq_bool guess 0); auto).
  unfold expected_v in H. rewrite H. eexists. split; [reflexivity|]. split; reflexivity.
Qed.

(** The search ends: at most five calls of the root finder; the only outcomes other than a return are the listed
    exceptions, and after the first successful run never a ValueError or ConvergenceError. *)
Theorem C30_outcomes : forall V (calc : option V -> Q -> V) solve brentq nelectron guess atol rtol radius st o st' ne,
  solve (map snd (runs st)) (expected_v V calc (v_ext st) guess) = Conv ne ->
  cpt_kernel calc solve brentq nelectron guess atol rtol radius st = (o, st') ->
  (exists r c, o = OReturn r c) \/ o = ORuntimeError \/ o = OOther.
Proof.
  intros V calc solve brentq nelectron guess atol rtol radius st o st' ne Hs H. unfold cpt_kernel, electron_err in H.
  replace (if Qeq_bool guess 0 then @None Q else None) with (@None Q) in H by (destruct (Qeq_bool guess 0); auto).
  unfold expected_v in Hs. rewrite Hs in H.
  destruct (Qle_bool (atol + rtol * nelectron) (Qabs (ne - nelectron))).
  2:{ injection H as <- <-. eauto. }
  destruct (if Qle_bool 0 (ne - nelectron) then (guess - radius, guess) else (guess, guess + radius)) as [lo up].
  revert H. generalize 5%nat lo up. generalize ({| v_ext := v_ext st; wf := Some ne;
    runs := (guess, if Qeq_bool guess 0 then v_ext st else Some (calc (v_ext st) guess)) :: runs st |}).
  intros st1 n. revert st1. induction n as [|n IH]; intros st1 lo' up' H; simpl in H.
  - injection H as <- <-. auto.
  - destruct (run_search calc solve nelectron atol rtol (ne - nelectron) (brentq lo' up') st1) as [t st2].
    destruct t; try (injection H as <- <-; eauto); eapply IH; eauto.
Qed.

(** Finding: the replaced kernel never returns the results of the solver (its documentation promises them). *)
Theorem C30_no_results_refuted : forall V (calc : option V -> Q -> V) solve brentq nelectron guess atol rtol radius st r c st',
  cpt_kernel calc solve brentq nelectron guess atol rtol radius st = (OReturn r c, st') -> r = None.
Proof. intros. apply kernel_spec in H. destruct H as [_ H]. destruct (H r c eq_refl). auto. Qed.

(** Solver whose electron number is 1 + cpt in the potential -cpt (numbers as potentials). *)
Definition ex_calc (v : option Q) (c : Q) : Q := (match v with Some x => x | None => 0 end) - c.
Definition ex_solve (h : list (option Q)) (v : option Q) : run := Conv (1 + - match v with Some x => x | None => 0 end).
(** A root finder that checks the signs at the ends. *)
Definition check_ends (more : Q -> Q -> strategy) (a b : Q) : strategy :=
  Ask a (fun ea => Ask b (fun eb => if Qle_bool (ea * eb) 0 then more a b else NoBracket)).

(** Finding: after a start value other than zero the value cached for zero is the error of the start value. *)
Theorem C30_cached_error_refuted :
  exists err0 st e st', electron_err ex_calc ex_solve (3#2) (1#100) 0 None 1 {| v_ext := None; wf := None; runs := [] |} = (Err err0, st)
  /\ electron_err ex_calc ex_solve (3#2) (1#100) 0 (Some err0) 0 st = (Err e, st')
  /\ e == 1#2 /\ exists ne, ex_solve [] None = Conv ne /\ ne - (3#2) == -(1#2).
Proof. do 4 eexists. split; [vm_compute; reflexivity|]. split; [vm_compute; reflexivity|]. split; [reflexivity|]. eexists. split; reflexivity. Qed.

(** Finding: with a start value other than zero the doubled intervals move away: the right chemical potential 17/10
    is next to the first interval [1, 3/2], but the search fails. *)
Theorem C30_interval_refuted : exists st', 
  cpt_kernel ex_calc ex_solve (check_ends (fun _ _ => Ask (17#10) (fun _ => Done true))) (27#10) 1 (1#100) 0 (1#2)
    {| v_ext := None; wf := None; runs := [] |} = (ORuntimeError, st')
  /\ (exists ne, ex_solve [] (Some (ex_calc None (17#10))) = Conv ne /\ ne == 27#10).
Proof. eexists. split; [vm_compute; reflexivity|]. eexists. split; reflexivity. Qed.

(** A successful case: target 5/4 from the start value 0; the root finder tries the ends 0 and 1/2, then 1/4. *)
Example ex_opt : exists st',
  cpt_kernel ex_calc ex_solve (check_ends (fun _ _ => Ask (1#4) (fun _ => Done true))) (5#4) 0 (1#100) 0 (1#2)
    {| v_ext := Some 0; wf := None; runs := [] |} = (OReturn None (1#4), st') /\ length (runs st') = 3%nat /\ v_ext st' = Some 0.
Proof. eexists. split; [vm_compute; reflexivity|]. split; reflexivity. Qed.

(** A case: target 9/4; the intervals [0, 1/2] and [0, 1] are rejected, on [0, 2] the value 5/4 is found. *)
Example ex_finds : finds (err_of ex_calc (fun v => Some (1 + - match v with Some x => x | None => 0 end)) (9#4) None) (1#100)
    (check_ends (fun _ _ => Ask (5#4) (fun _ => Done true))) 5 0 (0 + (1#2)) (5#4).
Proof.
  unfold check_ends. do 2 (apply finds_double; [eapply ends_ask; [reflexivity|vm_compute; discriminate|]; eapply ends_ask; [reflexivity|vm_compute; discriminate|]; apply ends_reject|]).
  apply finds_hit. eapply ends_ask; [reflexivity|vm_compute; discriminate|]; eapply ends_ask; [reflexivity|vm_compute; discriminate|]. eapply ends_hit; [reflexivity|]. vm_compute. reflexivity.
Qed.

Print Assumptions C29_root_finder.
Print Assumptions C30_wave_function.
Print Assumptions C30_finds.
Print Assumptions C29_converged.
Print Assumptions C29_not_converged.
Print Assumptions C29_exceptions.
Print Assumptions C29_second_call_refuted.
Print Assumptions C30_within_tolerance.
Print Assumptions C30_restores.
Print Assumptions C30_first_run_fails.
Print Assumptions C30_outcomes.
Print Assumptions C30_no_results_refuted.
Print Assumptions C30_cached_error_refuted.
Print Assumptions C30_interval_refuted.
