(** C77: the fragment that is an active space.  Theorems about M_CasFrag. *)
From Coq Require Import List Arith Lia Bool.
From Verif Require Import Alg Ord M_CasFrag.
Import ListNotations.
Local Open Scope list_scope.

Section T.
Context (K : oring).
Variable tol : K.
Notation cas := (cas K tol).
(** Electrons in a list of orbitals. *)
Definition electrons (occ : nat -> nat) (l : list nat) : nat := list_sum (map occ l).

Lemma el_app occ a b : electrons occ (a ++ b) = electrons occ a + electrons occ b.
Proof. unfold electrons. now rewrite map_app, list_sum_app. Qed.
Lemma total_el occ n : total occ n = electrons occ (seq 0 n).
Proof. induction n as [|n IH]; [reflexivity|]. rewrite seq_S, el_app, <- IH. cbn. lia. Qed.
Lemma el_split occ a k l : electrons occ (seq a (k + l)) = electrons occ (seq a k) + electrons occ (seq (a + k) l).
Proof. rewrite seq_app. apply el_app. Qed.
Lemma highest_ok occ n h : highest occ n = Some h -> h < n /\ 0 < occ h /\ forall i, h < i -> i < n -> occ i = 0.
Proof.
  induction n as [|n IH]; cbn [highest]; [discriminate|]. destruct (0 <? occ n) eqn:E.
  - intros H. assert (n = h) by congruence. subst h. apply Nat.ltb_lt in E. repeat split; [lia|lia|intros; lia].
  - intros H. destruct (IH H) as (A & B & C). apply Nat.ltb_ge in E. repeat split; [lia|lia|]. intros i Hi Hn. destruct (Nat.eq_dec i n) as [->|]; [lia|apply C; lia].
Qed.
Lemma el_0 occ a k : (forall i, a <= i -> i < a + k -> occ i = 0) -> electrons occ (seq a k) = 0.
Proof. revert a. induction k as [|k IH]; intros a H; [reflexivity|]. cbn. change (occ a + electrons occ (seq (S a) k) = 0). rewrite (H a), IH by (intros; try apply H; lia). reflexivity. Qed.
Lemma highest_total occ n h : highest occ n = Some h -> total occ n = electrons occ (seq 0 (S h)).
Proof.
  intros H. destruct (highest_ok occ n h H) as (A & _ & C). rewrite total_el. replace n with (S h + (n - S h)) at 1 by lia. rewrite el_split, (el_0 occ (0 + S h)); [lia|]. intros; apply C; lia.
Qed.
Lemma highest_none occ n : highest occ n = None -> total occ n = 0.
Proof. induction n as [|n IH]; cbn [highest total]; [reflexivity|]. destruct (0 <? occ n) eqn:E; [discriminate|]. intros H. apply Nat.ltb_ge in E. rewrite (IH H). lia. Qed.
Lemma search_ok occ ne s c r d : search occ ne s c = Some (r, d) ->
  r <= s /\ d = c + electrons occ (seq r (s - r)) /\ ne <= d /\ (r < s -> c + electrons occ (seq (S r) (s - S r)) < ne).
Proof.
  revert c. induction s as [|s IH]; intros c H; cbn [search] in H; destruct (c <? ne) eqn:E.
  - discriminate.
  - assert (r = 0 /\ d = c) as [-> ->] by (split; congruence). apply Nat.ltb_ge in E. cbn. repeat split; lia.
  - destruct (IH _ H) as (A & B & C & D). apply Nat.ltb_lt in E. split; [lia|]. split.
    + replace (S s - r) with ((s - r) + 1) by lia. rewrite el_split. replace (r + (s - r)) with s by lia. cbn. lia.
    + split; [exact C|]. intros _. destruct (Nat.eq_dec r s) as [->|].
      * replace (S s - S s) with 0 by lia. cbn. lia.
      * replace (S s - S r) with ((s - S r) + 1) by lia. rewrite el_split. replace (S r + (s - S r)) with s by lia. cbn. specialize (D ltac:(lia)). lia.
  - assert (r = S s /\ d = c) as [-> ->] by (split; congruence). apply Nat.ltb_ge in E. replace (S s - S s) with 0 by lia. cbn. repeat split; try lia.
Qed.
Lemma search_some occ ne s c : ne <= c + electrons occ (seq 0 s) -> search occ ne s c <> None.
Proof.
  revert c. induction s as [|s IH]; intros c H; cbn [search]; destruct (c <? ne) eqn:E; try discriminate.
  - apply Nat.ltb_lt in E. cbn in H. lia.
  - apply IH. rewrite seq_S, el_app in H. cbn in H. lia.
Qed.
Lemma check_ok n e po pv : check K tol n e po pv = None -> pv <= n /\ (0 < po -> po < n /\ small K tol (radd (e po) (ropp (e (po - 1)))) = false)
  /\ (0 < pv < n -> small K tol (radd (e pv) (ropp (e (pv - 1)))) = false).
Proof.
  unfold check. intros H.
  assert (G : (0 < po -> po < n /\ small K tol (radd (e po) (ropp (e (po - 1)))) = false) /\
    (if pv <? n then if small K tol (radd (e pv) (ropp (e (if pv =? 0 then n - 1 else pv - 1)))) then Some splits_virtual else None else if pv =? n then None else Some assertion_error) = None).
  { destruct (Nat.ltb_spec 0 po); cbn [andb] in H; [|split; [lia|exact H]]. destruct (Nat.leb_spec n po); [discriminate|].
    destruct (small K tol (radd (e po) (ropp (e (po - 1))))); [discriminate|]. split; [auto|exact H]. }
  destruct G as [G1 G2]. destruct (Nat.ltb_spec pv n) as [L|L].
  - split; [lia|]. split; [exact G1|]. intros [P _]. destruct (Nat.eqb_spec pv 0); [lia|]. destruct (small K tol (radd (e pv) (ropp (e (pv - 1))))); [discriminate|reflexivity].
  - destruct (Nat.eqb_spec pv n); [|discriminate]. split; [lia|]. split; [exact G1|]. lia.
Qed.
Lemma checks_ok n es po pv : checks K tol n es po pv = None -> forall e, In e es -> check K tol n e po pv = None.
Proof. induction es as [|e es IH]; cbn; [tauto|]. destruct (check K tol n e po pv) eqn:E; [discriminate|]. intros H x [<-|Hx]; auto. Qed.
Lemma cas_ok n occ es ncas ne o : cas n occ es ncas ne = Space o -> exists h r, highest occ n = Some h /\ search occ ne (S h) 0 = Some (r, ne) /\ h <= r + ncas
  /\ checks K tol n es r (r + ncas) = None /\ o = seq r ncas /\ ne <= total occ n /\ ncas <= n.
Proof.
  unfold M_CasFrag.cas. destruct (total occ n <? ne) eqn:A; [discriminate|]. destruct (n <? ncas) eqn:B; [discriminate|]. destruct (highest occ n) as [h|]; [|discriminate].
  destruct (search occ ne (S h) 0) as [[r d]|] eqn:S1; [|discriminate]. destruct (ne <? d) eqn:C; [discriminate|]. destruct (r + ncas <? h) eqn:D; [discriminate|]. cbn [orb].
  destruct (checks K tol n es r (r + ncas)) eqn:E; [discriminate|]. intros H. rewrite ?Nat.ltb_ge in *. destruct (search_ok _ _ _ _ _ _ S1) as (_ & _ & G & _). assert (d = ne) by lia. subst d.
  exists h, r. repeat split; auto; congruence.
Qed.

(** The space: consecutive orbitals of the mean field, as many as asked for, and all but [nelec] electrons are below them. *)
Theorem C77_space n occ es ncas ne o : es <> [] -> cas n occ es ncas ne = Space o ->
  length o = ncas /\ exists po, o = seq po ncas /\ po + ncas <= n /\ electrons occ (seq 0 po) + ne = electrons occ (seq 0 n).
Proof.
  intros HE H. destruct (cas_ok _ _ _ _ _ _ H) as (h & r & H1 & H2 & H3 & H4 & -> & _). split; [apply seq_length|]. exists r. split; [reflexivity|].
  destruct es as [|e es]; [now elim HE|]. pose proof (checks_ok _ _ _ _ H4 e (or_introl eq_refl)) as G. destruct (check_ok _ _ _ _ G) as (G1 & _ & _). split; [exact G1|].
  destruct (search_ok _ _ _ _ _ _ H2) as (S1 & S2 & _). rewrite <- (total_el occ n), (highest_total _ _ _ H1). replace (S h) with (r + (S h - r)) by lia. rewrite el_split. cbn [Nat.add]. lia.
Qed.
(** Its electrons: as many as asked for, or all of these but those of the highest occupied orbital, which is just above the space. *)
Theorem C77_electrons n occ es ncas ne o : es <> [] -> cas n occ es ncas ne = Space o ->
  electrons occ o = ne \/ exists h, h < n /\ 0 < occ h /\ (forall i, h < i -> i < n -> occ i = 0) /\ o = seq (h - ncas) ncas /\ ncas <= h /\ electrons occ o + occ h = ne.
Proof.
  intros HE H. destruct (cas_ok _ _ _ _ _ _ H) as (h & r & H1 & H2 & H3 & H4 & -> & _). destruct es as [|e es]; [now elim HE|]. pose proof (checks_ok _ _ _ _ H4 e (or_introl eq_refl)) as G. destruct (check_ok _ _ _ _ G) as (G1 & _ & _).
  destruct (highest_ok _ _ _ H1) as (A & B & C). destruct (search_ok _ _ _ _ _ _ H2) as (S1 & S2 & _). destruct (Nat.eq_dec (r + ncas) h) as [E|E].
  - right. exists h. repeat split; auto; try lia; [f_equal; lia|]. replace (S h - r) with (ncas + 1) in S2 by lia. rewrite el_split in S2. replace (r + ncas) with h in S2 by lia. cbn in S2. lia.
  - left. replace ncas with ((S h - r) + (ncas - (S h - r))) by lia. rewrite el_split, (el_0 occ (r + (S h - r))); [lia|]. intros; apply C; lia.
Qed.
(** No orbital at the edge of the space is degenerate with its neighbour outside, for either spin. *)
Theorem C77_gaps n occ es ncas ne po e : cas n occ es ncas ne = Space (seq po ncas) -> 0 < ncas -> In e es ->
  (0 < po -> ~ lt (absK (radd (e po) (ropp (e (po - 1))))) tol) /\ (po + ncas < n -> ~ lt (absK (radd (e (po + ncas)) (ropp (e (po + ncas - 1))))) tol).
Proof.
  intros H Hn He. destruct (cas_ok _ _ _ _ _ _ H) as (h & r & H1 & H2 & H3 & H4 & H5 & _).
  assert (po = r) by (destruct ncas; [lia|cbn in H5; congruence]). subst r. destruct (check_ok _ _ _ _ (checks_ok _ _ _ _ H4 e He)) as (_ & G2 & G3). unfold small, lt in *.
  split; intros G L; [destruct (G2 G) as [_ G4]|pose proof (G3 ltac:(lia)) as G4]; congruence.
Qed.
(** The search never leaves the list of orbitals. *)
Theorem C77_in_range n occ ne h : ne <= electrons occ (seq 0 n) -> highest occ n = Some h -> exists r, r <= S h /\ exists d, search occ ne (S h) 0 = Some (r, d).
Proof.
  intros H G. rewrite <- total_el, (highest_total _ _ _ G) in H. destruct (search occ ne (S h) 0) as [[r d]|] eqn:E; [|now elim (search_some occ ne (S h) 0 H)].
  exists r. split; [apply (search_ok _ _ _ _ _ _ E)|]. now exists d.
Qed.

(** Closed shells: [nocc] doubly occupied orbitals.  A space of [k] pairs is found around the Fermi level, odd numbers are refused. *)
Definition closed (nocc : nat) : nat -> nat := fun i => if i <? nocc then 2 else 0.
Lemma el_closed nocc a k : a + k <= nocc -> electrons (closed nocc) (seq a k) = 2 * k.
Proof.
  revert a. induction k as [|k IH]; intros a H; [reflexivity|]. cbn [seq]. change (closed nocc a + electrons (closed nocc) (seq (S a) k) = 2 * S k).
  rewrite IH by lia. unfold closed. destruct (Nat.ltb_spec a nocc); lia.
Qed.
Lemma highest_closed nocc n : 0 < nocc -> nocc <= n -> highest (closed nocc) n = Some (nocc - 1).
Proof.
  intros H G. induction n as [|n IH]; [lia|]. cbn [highest]. unfold closed at 1. destruct (Nat.ltb_spec n nocc) as [L|L]; cbn; [f_equal; lia|apply IH; lia].
Qed.
Lemma total_closed nocc n : nocc <= n -> total (closed nocc) n = 2 * nocc.
Proof.
  intros H. rewrite total_el. replace n with (nocc + (n - nocc)) by lia. rewrite el_split, el_closed by lia. rewrite el_0; [lia|]. intros i Hi _. unfold closed. destruct (Nat.ltb_spec i nocc); [lia|reflexivity].
Qed.
Lemma checks_intro n es po pv : (forall e, In e es -> check K tol n e po pv = None) -> checks K tol n es po pv = None.
Proof. induction es as [|e es IH]; cbn; [reflexivity|]. intros H. rewrite (H e (or_introl eq_refl)). apply IH. auto. Qed.
Theorem C77_closed_shell n nocc es ncas k : 0 < k -> k <= nocc -> k <= ncas -> nocc - k + ncas <= n -> nocc <= n ->
  (forall e, In e es -> (k < nocc -> ~ lt (absK (radd (e (nocc - k)) (ropp (e (nocc - k - 1))))) tol)
    /\ (nocc - k + ncas < n -> ~ lt (absK (radd (e (nocc - k + ncas)) (ropp (e (nocc - k + ncas - 1))))) tol)) ->
  cas n (closed nocc) es ncas (2 * k) = Space (seq (nocc - k) ncas).
Proof.
  intros H1 H2 H3 H4 H5 HG. unfold M_CasFrag.cas. rewrite total_closed by lia. destruct (Nat.ltb_spec (2 * nocc) (2 * k)); [lia|]. destruct (Nat.ltb_spec n ncas); [lia|]. rewrite highest_closed by lia.
  replace (S (nocc - 1)) with nocc by lia. destruct (search (closed nocc) (2 * k) nocc 0) as [[r d]|] eqn:E.
  2:{ elim (search_some (closed nocc) (2 * k) nocc 0); [rewrite el_closed by lia; lia|exact E]. }
  destruct (search_ok _ _ _ _ _ _ E) as (A & B & C & D). rewrite el_closed in B by lia. assert (r = nocc - k /\ d = 2 * k) as [-> ->].
  { destruct (Nat.eq_dec r nocc) as [->|]; [lia|]. specialize (D ltac:(lia)). rewrite el_closed in D by lia. lia. }
  destruct (Nat.ltb_spec (2 * k) (2 * k)); [lia|]. destruct (Nat.ltb_spec (nocc - k + ncas) (nocc - 1)); [lia|]. cbn [orb].
  rewrite checks_intro; [reflexivity|]. intros e He. destruct (HG e He) as [G1 G2]. unfold check, small, lt in *.
  destruct (Nat.ltb_spec 0 (nocc - k)); cbn [andb].
  - destruct (Nat.leb_spec n (nocc - k)); [lia|]. destruct (ltb (absK (radd (e (nocc - k)) (ropp (e (nocc - k - 1))))) tol) eqn:F; [now elim (G1 ltac:(lia))|].
    destruct (Nat.ltb_spec (nocc - k + ncas) n); [|destruct (Nat.eqb_spec (nocc - k + ncas) n); [reflexivity|lia]]. destruct (Nat.eqb_spec (nocc - k + ncas) 0); [lia|].
    destruct (ltb (absK (radd (e (nocc - k + ncas)) (ropp (e (nocc - k + ncas - 1))))) tol) eqn:F2; [now elim (G2 ltac:(lia))|reflexivity].
  - destruct (Nat.ltb_spec (nocc - k + ncas) n); [|destruct (Nat.eqb_spec (nocc - k + ncas) n); [reflexivity|lia]]. destruct (Nat.eqb_spec (nocc - k + ncas) 0); [lia|].
    destruct (ltb (absK (radd (e (nocc - k + ncas)) (ropp (e (nocc - k + ncas - 1))))) tol) eqn:F2; [now elim (G2 ltac:(lia))|reflexivity].
Qed.
Theorem C77_odd n nocc es ncas k o : nocc <= n -> cas n (closed nocc) es ncas (2 * k + 1) <> Space o.
Proof.
  intros Hn H. destruct (cas_ok _ _ _ _ _ _ H) as (h & r & H1 & H2 & _). destruct (highest_ok _ _ _ H1) as (A & B & _). assert (h < nocc) by (unfold closed in B; destruct (Nat.ltb_spec h nocc); lia).
  destruct (search_ok _ _ _ _ _ _ H2) as (S1 & S2 & _). rewrite el_closed in S2 by lia. lia.
Qed.
End T.

From Coq Require Import ZArith QArith Qcanon.
From Verif Require Import P_TtoC.
Section Cases.
Local Close Scope Q_scope. Local Open Scope nat_scope.
Definition ye : nat -> QO := fun i => q (Z.of_nat i) 1.
Definition ytol : QO := q 1 100.
Notation ycas := (cas QO ytol).
(** Five orbitals, three occupied; four electrons in three orbitals. *)
Example C77_closed_shell_case : ycas 5 (closed 3) [ye] 3 4 = Space [1; 2; 3].
Proof.
  apply (C77_closed_shell QO ytol 5 3 [ye] 3 2); try lia. intros e [<-|[]]. split; intros _; vm_compute; discriminate.
Qed.
(** Three alpha and two beta electrons: the open shell is in the space. *)
Definition yo : nat -> nat := occ_u (fun i => if i <? 3 then 1 else 0) (fun i => if i <? 2 then 1 else 0).
Lemma yC : ycas 5 yo [ye; ye] 2 3 = Space [1; 2]. Proof. vm_compute. reflexivity. Qed.
Example C77_space_case : length [1; 2] = 2 /\ electrons yo (seq 0 1) = 2 /\ electrons yo (seq 0 5) = 5 /\ exists po, [1; 2] = seq po 2 /\ electrons yo (seq 0 po) + 3 = 5.
Proof. destruct (C77_space QO ytol 5 yo [ye; ye] 2 3 [1; 2] ltac:(discriminate) yC) as (A & po & B & _ & D). repeat split. exists po. split; [exact B|exact D]. Qed.
Example C77_electrons_case : electrons yo [1; 2] = 3.
Proof. destruct (C77_electrons QO ytol 5 yo [ye; ye] 2 3 [1; 2] ltac:(discriminate) yC) as [H|(h & _ & _ & _ & _ & _ & E)]; [exact H|]. vm_compute. reflexivity. Qed.
Example C77_gaps_case : ~ lt (absK (radd (ye 1) (ropp (ye 0)))) ytol /\ ~ lt (absK (radd (ye 3) (ropp (ye 2)))) ytol.
Proof. destruct (C77_gaps QO ytol 5 yo [ye; ye] 2 3 1 ye yC ltac:(lia) ltac:(left; reflexivity)) as [A B]. split; [apply A; lia|apply B; lia]. Qed.
Example C77_in_range_case : exists r d, search yo 3 3 0 = Some (r, d) /\ r <= 3.
Proof. destruct (C77_in_range 5 yo 3 2 ltac:(vm_compute; lia) eq_refl) as (r & A & d & B). exists r, d. split; [exact B|exact A]. Qed.
Example C77_odd_case : ycas 5 (closed 3) [ye] 3 3 = Err no_such_space /\ forall o, ycas 5 (closed 3) [ye] 3 3 <> Space o.
Proof. split; [vm_compute; reflexivity|]. intros o. apply (C77_odd QO ytol 5 3 [ye] 3 1 o). lia. Qed.
(** Degenerate orbitals at the edge are refused. *)
Example C77_degenerate_case : ycas 5 (closed 3) [fun i => ye (i / 2)] 2 2 = Err splits_virtual \/ ycas 5 (closed 3) [fun i => ye (i / 2)] 1 2 = Err splits_virtual.
Proof. right. vm_compute. reflexivity. Qed.
(** Finding: one orbital for four electrons is accepted; the fragment is the lowest orbital, with two electrons, and the highest
    occupied orbital is left out.  The code refuses only if the number of occupied orbitals needed exceeds [ncas] by two or more. *)
Theorem C77_electrons_refuted : ~ (forall n occ es ncas ne o, es <> [] -> ycas n occ es ncas ne = Space o -> electrons occ o = ne).
Proof. intros H. assert (E : ycas 3 (closed 2) [ye] 1 4 = Space [0]) by (vm_compute; reflexivity). specialize (H 3 (closed 2) [ye] 1 4 [0] ltac:(discriminate) E). vm_compute in H. discriminate. Qed.
End Cases.

Print Assumptions C77_space.
Print Assumptions C77_electrons.
Print Assumptions C77_gaps.
Print Assumptions C77_in_range.
Print Assumptions C77_closed_shell.
Print Assumptions C77_odd.
Print Assumptions C77_electrons_refuted.
