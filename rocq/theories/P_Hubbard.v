(** Properties C27 (Hubbard hopping matrices) and C28 (tile order). *)
From Coq Require Import List ZArith Arith Bool Lia Ring Permutation FinFun.
From Verif Require Import Alg M_Hubbard.
Import ListNotations.

(** ** Specification *)

Section Spec.
Context (K : cring).
Open Scope K_scope.

(** Boundary phase picked up by the step from site x to site x+1 of a ring of n sites. *)
Definition phase (n : nat) (b : K) (x : nat) : K := if (S x =? n)%nat then b else 1.

(** Sum of the phases of all nearest-neighbour bonds between x and y in a ring of n sites (two for n = 2). *)
Definition hop (n : nat) (b : K) (x y : nat) : K :=
  (if (S x mod n =? y)%nat then phase n b x else 0) + (if (S y mod n =? x)%nat then phase n b y else 0).

(** The phase of the translation by k sites: one factor b for every crossing of the boundary. *)
Fixpoint powK (b : K) (m : nat) : K := match m with O => 1 | S m' => b * powK b m' end.
Definition phasek (n : nat) (b : K) (k x : nat) : K := powK b ((x + k) / n).

Definition isphase (b : K) : Prop := b * b = 1.
End Spec.
Arguments phase {K}. Arguments hop {K}. Arguments powK {K}. Arguments phasek {K}. Arguments isphase {K}.

(** ** Lemmas *)

Section L.
Context (K : cring).
Add Ring Kr : (rth K).
Open Scope K_scope.
Implicit Types b t : K.

Lemma nxt_cases n x : (x < n)%nat -> S x mod n = if (S x =? n)%nat then 0%nat else S x.
Proof.
  intros H. destruct (Nat.eqb_spec (S x) n) as [E|E].
  - rewrite E. apply Nat.mod_same. lia.
  - apply Nat.mod_small. lia.
Qed.

Lemma nxt_lt n x : (0 < n)%nat -> (S x mod n < n)%nat.
Proof. intros. apply Nat.mod_upper_bound. lia. Qed.

Lemma nxt_inj n x y : (x < n)%nat -> (y < n)%nat -> S x mod n = S y mod n -> x = y.
Proof.
  intros Hx Hy. rewrite !nxt_cases by auto.
  destruct (Nat.eqb_spec (S x) n), (Nat.eqb_spec (S y) n); lia.
Qed.

Lemma nxt_eqb n x y : (x < n)%nat -> (y < n)%nat -> (S x mod n =? S y mod n)%nat = (x =? y)%nat.
Proof.
  intros Hx Hy. destruct (Nat.eqb_spec x y) as [->|N]; [apply Nat.eqb_refl|].
  apply Nat.eqb_neq. intros E. apply N. eapply nxt_inj; eauto.
Qed.

Lemma phase_sq n b x : isphase b -> phase n b x * phase n b x = 1.
Proof. intros H. unfold phase. destruct (S x =? n)%nat; [exact H|ring]. Qed.

Lemma hop_sym n b x y : hop n b x y = hop n b y x.
Proof. unfold hop. ring. Qed.

Lemma hop_step n b x y : isphase b -> (x < n)%nat -> (y < n)%nat ->
  hop n b (S x mod n) (S y mod n) * (phase n b x * phase n b y) = hop n b x y.
Proof.
  intros Hb Hx Hy. unfold hop.
  rewrite (nxt_eqb n (S x mod n) y) by (auto using nxt_lt || (apply nxt_lt; lia)).
  rewrite (nxt_eqb n (S y mod n) x) by (auto using nxt_lt || (apply nxt_lt; lia)).
  destruct (Nat.eqb_spec (S x mod n) y) as [E|E], (Nat.eqb_spec (S y mod n) x) as [F|F].
  - rewrite E, F.
    transitivity (phase n b y * phase n b y * phase n b x + phase n b x * phase n b x * phase n b y); [ring|].
    rewrite !phase_sq by auto. ring.
  - rewrite E. transitivity (phase n b y * phase n b y * phase n b x); [ring|]. rewrite phase_sq by auto. ring.
  - rewrite F. transitivity (phase n b x * phase n b x * phase n b y); [ring|]. rewrite phase_sq by auto. ring.
  - ring.
Qed.

Lemma shift_S n k x : (0 < n)%nat -> ((x + S k) mod n = S ((x + k) mod n) mod n)%nat.
Proof.
  intros Hn. rewrite Nat.add_succ_r.
  rewrite <- (Nat.add_1_r (x + k)), <- (Nat.add_1_r ((x + k) mod n)).
  rewrite Nat.add_mod_idemp_l by lia. reflexivity.
Qed.

Lemma phasek_S n b k x : (0 < n)%nat -> phasek n b (S k) x = phase n b ((x + k) mod n) * phasek n b k x.
Proof.
  intros Hn. unfold phasek, phase.
  pose proof (Nat.div_mod (x + k) n ltac:(lia)) as D. pose proof (Nat.mod_upper_bound (x + k) n ltac:(lia)) as B.
  set (q := ((x + k) / n)%nat) in *. set (r := ((x + k) mod n)%nat) in *.
  destruct (Nat.eqb_spec (S r) n) as [E|E].
  - replace ((x + S k) / n)%nat with (S q); [reflexivity|].
    apply Nat.div_unique with 0%nat; nia.
  - replace ((x + S k) / n)%nat with q; [ring|]. apply Nat.div_unique with (S r); nia.
Qed.

Lemma powK_sq b m : isphase b -> powK b m * powK b m = 1.
Proof.
  intros H. induction m; simpl; [ring|].
  transitivity (b * b * (powK b m * powK b m)); [ring|]. rewrite H, IHm. ring.
Qed.

Lemma hop_translate n b x y k : isphase b -> (x < n)%nat -> (y < n)%nat ->
  hop n b ((x + k) mod n) ((y + k) mod n) * (phasek n b k x * phasek n b k y) = hop n b x y.
Proof.
  intros Hb Hx Hy. induction k as [|k IH].
  - rewrite !Nat.add_0_r. unfold phasek. rewrite !Nat.add_0_r, !Nat.div_small, !Nat.mod_small by auto. simpl. ring.
  - rewrite !shift_S by lia. rewrite !phasek_S by lia. rewrite <- IH.
    rewrite <- (hop_step n b ((x + k) mod n) ((y + k) mod n)) by (auto; apply Nat.mod_upper_bound; lia).
    ring.
Qed.

(** *** One dimension *)

Lemma fold_1d t : forall k i j,
  fold_left (fun h i => set2 (set2 h i (S i) (- t)) (S i) i (- t)) (seq 0 k) (fun _ _ => 0 : K) i j
  = if ((j =? S i) && (i <? k) || (i =? S j) && (j <? k))%nat then - t else 0.
Proof.
  induction k as [|k IH]; intros i j.
  - simpl. rewrite !andb_false_r. reflexivity.
  - rewrite seq_S, fold_left_app. simpl. unfold set2 at 1 2. rewrite IH.
    destruct (Nat.eqb_spec i (S k)), (Nat.eqb_spec j k), (Nat.eqb_spec i k), (Nat.eqb_spec j (S k)),
      (Nat.eqb_spec j (S i)), (Nat.eqb_spec i (S j)), (Nat.ltb_spec i k), (Nat.ltb_spec i (S k)), (Nat.ltb_spec j k), (Nat.ltb_spec j (S k));
    simpl; try reflexivity; lia.
Qed.

Lemma raw_1d n b t i j : (i < n)%nat -> (j < n)%nat ->
  h1e_1d_raw n b t i j
  = if ((i =? 0) && (j =? n - 1) || (i =? n - 1) && (j =? 0))%nat then b * - t
    else if ((j =? S i) || (i =? S j))%nat then - t else 0.
Proof.
  intros Hi Hj. unfold h1e_1d_raw. cbv zeta. unfold set2 at 1 2. rewrite fold_1d.
  destruct (Nat.eqb_spec i 0), (Nat.eqb_spec j (n - 1)), (Nat.eqb_spec i (n - 1)), (Nat.eqb_spec j 0),
      (Nat.eqb_spec j (S i)), (Nat.eqb_spec i (S j)), (Nat.ltb_spec i (n - 1)), (Nat.ltb_spec j (n - 1));
    simpl; try reflexivity; lia.
Qed.

Lemma raw_1d_hop n b t i j : (3 <= n)%nat -> (i < n)%nat -> (j < n)%nat ->
  h1e_1d_raw n b t i j = - t * hop n b i j.
Proof.
  intros Hn Hi Hj. rewrite raw_1d by auto. unfold hop, phase. rewrite !nxt_cases by auto.
  destruct (Nat.eqb_spec (S i) n), (Nat.eqb_spec (S j) n);
  destruct (Nat.eqb_spec i 0), (Nat.eqb_spec j (n - 1)), (Nat.eqb_spec i (n - 1)), (Nat.eqb_spec j 0);
  try (exfalso; lia);
  repeat match goal with |- context[(?x =? ?y)%nat] => destruct (Nat.eqb_spec x y) end; simpl; try ring; exfalso; lia.
Qed.

(** *** Two dimensions *)

Definition contrib (n0 n1 : nat) (b0 b1 t : K) (i j a c : nat) : K :=
  let zi := Z.of_nat i in let zj := Z.of_nat j in
  let e p q := if ((a =? fst (get_index n0 n1 b0 b1 zi zj)) && (c =? fst (get_index n0 n1 b0 b1 p q)))%nat
               then snd (get_index n0 n1 b0 b1 p q) * - t else 0 in
  e zi (zj - 1)%Z + e zi (zj + 1)%Z + e (zi - 1)%Z zj + e (zi + 1)%Z zj.

Lemma inc2_add (h : nat -> nat -> K) i j v a c :
  inc2 h i j v a c = h a c + (if ((a =? i) && (c =? j))%nat then v else 0).
Proof. unfold inc2. destruct ((a =? i) && (c =? j))%nat; ring. Qed.

Lemma site_bonds_add n0 n1 b0 b1 t h i j a c :
  site_bonds n0 n1 b0 b1 t h i j a c = h a c + contrib n0 n1 b0 b1 t i j a c.
Proof. unfold site_bonds, contrib. cbv zeta. rewrite !inc2_add. ring. Qed.

Lemma raw_2d_sum n0 n1 b0 b1 t a c :
  h1e_2d_raw n0 n1 b0 b1 t a c = Sum n0 (fun i => Sum n1 (fun j => contrib n0 n1 b0 b1 t i j a c)).
Proof.
  unfold h1e_2d_raw.
  assert (I : forall k i (h : nat -> nat -> K),
     fold_left (fun h j => site_bonds n0 n1 b0 b1 t h i j) (seq 0 k) h a c
     = h a c + Sum k (fun j => contrib n0 n1 b0 b1 t i j a c)).
  { induction k; intros i h; [simpl; ring|]. rewrite seq_S, fold_left_app. simpl. rewrite site_bonds_add, IHk. ring. }
  assert (O : forall k (h : nat -> nat -> K),
     fold_left (fun h i => fold_left (fun h j => site_bonds n0 n1 b0 b1 t h i j) (seq 0 n1) h) (seq 0 k) h a c
     = h a c + Sum k (fun i => Sum n1 (fun j => contrib n0 n1 b0 b1 t i j a c))).
  { induction k; intros h; [simpl; ring|]. rewrite seq_S, fold_left_app.
    cbn [fold_left]. rewrite Nat.add_0_l.
    rewrite I, IHk. simpl. ring. }
  rewrite O. ring.
Qed.

Lemma flat_inj n1 i j i' j' : (j < n1)%nat -> (j' < n1)%nat -> (i * n1 + j = i' * n1 + j')%nat -> i = i' /\ j = j'.
Proof.
  intros Hj Hj' E. assert (i = i') by nia. subst. lia.
Qed.

Lemma get_index_in n0 n1 b0 b1 i j : (i < n0)%nat -> (j < n1)%nat ->
  get_index n0 n1 b0 b1 (Z.of_nat i) (Z.of_nat j) = ((i * n1 + j)%nat, 1).
Proof.
  intros Hi Hj. unfold get_index. rewrite !Z.mod_small by lia. rewrite !Z.eqb_refl. f_equal. lia.
Qed.

(** Coordinates one step forward/backward and their boundary factor. *)
Definition zfac (n : nat) (b : K) (z : Z) : K := if (z mod Z.of_nat n =? z)%Z then 1 else b.

Lemma get_index_fac n0 n1 b0 b1 z w : (0 < n0)%nat -> (0 < n1)%nat ->
  get_index n0 n1 b0 b1 z w =
  ((Z.to_nat (z mod Z.of_nat n0) * n1 + Z.to_nat (w mod Z.of_nat n1))%nat, zfac n0 b0 z * zfac n1 b1 w).
Proof.
  intros H0 H1. unfold get_index, zfac.
  pose proof (Z.mod_pos_bound z (Z.of_nat n0) ltac:(lia)). pose proof (Z.mod_pos_bound w (Z.of_nat n1) ltac:(lia)).
  f_equal; [nia|]. destruct (z mod Z.of_nat n0 =? z)%Z, (w mod Z.of_nat n1 =? w)%Z; ring.
Qed.

Lemma zfac_in n b i : (i < n)%nat -> zfac n b (Z.of_nat i) = 1 /\ Z.to_nat (Z.of_nat i mod Z.of_nat n) = i.
Proof. intros H. unfold zfac. rewrite Z.mod_small by lia. rewrite Z.eqb_refl. split; [auto|lia]. Qed.

Lemma zfac_next n b i : (i < n)%nat ->
  zfac n b (Z.of_nat i + 1) = phase n b i /\ Z.to_nat ((Z.of_nat i + 1) mod Z.of_nat n) = (S i mod n)%nat.
Proof.
  intros H. unfold zfac, phase. destruct (Nat.eqb_spec (S i) n) as [E|E].
  - replace (Z.of_nat i + 1)%Z with (Z.of_nat n) by lia. rewrite Z.mod_same, E, Nat.mod_same by lia.
    destruct (Z.eqb_spec 0 (Z.of_nat n)); [lia|auto].
  - rewrite Z.mod_small, Z.eqb_refl, Nat.mod_small by lia. split; [auto|lia].
Qed.

Lemma zfac_prev n b i k : (i < n)%nat -> (k < n)%nat ->
  (k =? Z.to_nat ((Z.of_nat i - 1) mod Z.of_nat n))%nat = (S k mod n =? i)%nat
  /\ ((S k mod n = i)%nat -> zfac n b (Z.of_nat i - 1) = phase n b k).
Proof.
  intros H Hk. destruct (Nat.eq_dec i 0) as [->|Hi].
  - replace ((Z.of_nat 0 - 1) mod Z.of_nat n)%Z with (Z.of_nat n - 1)%Z.
    2:{ replace (Z.of_nat 0 - 1)%Z with ((Z.of_nat n - 1) + (-1) * Z.of_nat n)%Z by lia.
        rewrite Z.mod_add, Z.mod_small by lia. reflexivity. }
    rewrite nxt_cases by auto. split.
    + destruct (Nat.eqb_spec k (Z.to_nat (Z.of_nat n - 1))), (Nat.eqb_spec (S k) n); try lia; auto.
    + destruct (Nat.eqb_spec (S k) n) as [E|E]; [|lia]. intros _. unfold zfac, phase. rewrite (proj2 (Nat.eqb_eq _ _) E).
      pose proof (Z.mod_pos_bound (Z.of_nat 0 - 1) (Z.of_nat n) ltac:(lia)).
      destruct (Z.eqb_spec ((Z.of_nat 0 - 1) mod Z.of_nat n) (Z.of_nat 0 - 1)); [lia|auto].
  - rewrite Z.mod_small by lia. rewrite nxt_cases by auto. split.
    + destruct (Nat.eqb_spec k (Z.to_nat (Z.of_nat i - 1))), (Nat.eqb_spec (S k) n);
        try (destruct (Nat.eqb_spec 0 i)); try (destruct (Nat.eqb_spec (S k) i)); lia || auto.
    + unfold zfac, phase. rewrite Z.mod_small, Z.eqb_refl by lia.
      destruct (Nat.eqb_spec (S k) n); auto. lia.
Qed.

Lemma eqb_flat n1 i j i' j' : (j < n1)%nat -> (j' < n1)%nat ->
  (i' * n1 + j' =? i * n1 + j)%nat = ((i' =? i) && (j' =? j))%nat.
Proof.
  intros Hj Hj'. destruct (Nat.eqb_spec (i' * n1 + j') (i * n1 + j)) as [E|E].
  - apply flat_inj in E; auto. destruct E as [-> ->]. now rewrite !Nat.eqb_refl.
  - symmetry. apply andb_false_iff. destruct (Nat.eqb_spec i' i), (Nat.eqb_spec j' j); subst; auto; contradiction.
Qed.

Lemma raw_2d n0 n1 b0 b1 t i j i' j' : (i < n0)%nat -> (j < n1)%nat -> (i' < n0)%nat -> (j' < n1)%nat ->
  h1e_2d_raw n0 n1 b0 b1 t (i * n1 + j)%nat (i' * n1 + j')%nat
  = - t * (delta i i' * hop n1 b1 j j' + delta j j' * hop n0 b0 i i').
Proof.
  intros Hi Hj Hi' Hj'. rewrite raw_2d_sum.
  rewrite (Sum_single n0 i); auto.
  2:{ intros a Ha Na. apply Sum_0. intros c Hc. unfold contrib. rewrite get_index_in by auto. cbn [fst].
      rewrite eqb_flat by auto. destruct (Nat.eqb_spec i a); [lia|]. cbn [andb]. ring. }
  rewrite (Sum_single n1 j); auto.
  2:{ intros c Hc Nc. unfold contrib. rewrite get_index_in by auto. cbn [fst].
      rewrite eqb_flat by auto. rewrite Nat.eqb_refl. destruct (Nat.eqb_spec j c); [lia|]. cbn [andb]. ring. }
  unfold contrib. rewrite get_index_in by auto. cbn [fst]. rewrite Nat.eqb_refl. cbn [andb].
  rewrite !get_index_fac by lia. cbn [fst snd].
  destruct (zfac_in n0 b0 i Hi) as [Fi Ei]. destruct (zfac_in n1 b1 j Hj) as [Fj Ej].
  destruct (zfac_next n0 b0 i Hi) as [Gi Ni]. destruct (zfac_next n1 b1 j Hj) as [Gj Nj].
  destruct (zfac_prev n0 b0 i i' Hi Hi') as [Pi Qi]. destruct (zfac_prev n1 b1 j j' Hj Hj') as [Pj Qj].
  rewrite Fi, Fj, Gi, Gj, Ei, Ej, Ni, Nj.
  assert (L1 : (Z.to_nat ((Z.of_nat j - 1) mod Z.of_nat n1) < n1)%nat)
    by (pose proof (Z.mod_pos_bound (Z.of_nat j - 1) (Z.of_nat n1) ltac:(lia)); lia).
  assert (L2 : (S j mod n1 < n1)%nat) by (apply nxt_lt; lia).
  rewrite !eqb_flat by auto.
  rewrite Pi, Pj. unfold hop, delta.
  rewrite (Nat.eqb_sym i' i), (Nat.eqb_sym j' j), (Nat.eqb_sym i' (S i mod n0)), (Nat.eqb_sym j' (S j mod n1)).
  destruct (Nat.eqb_spec i i') as [Di|Di], (Nat.eqb_spec j j') as [Dj|Dj]; cbn [andb].
  - destruct (Nat.eqb_spec (S j' mod n1) j) as [Aj|Aj]; [rewrite (Qj Aj)|];
    destruct (Nat.eqb_spec (S i' mod n0) i) as [Ai|Ai]; [rewrite (Qi Ai)| |rewrite (Qi Ai)|];
    destruct (Nat.eqb_spec (S j mod n1) j'), (Nat.eqb_spec (S i mod n0) i'); cbn [andb]; ring.
  - destruct (Nat.eqb_spec (S j' mod n1) j) as [Aj|Aj]; [rewrite (Qj Aj)|];
    destruct (Nat.eqb_spec (S j mod n1) j'); rewrite ?andb_false_r; cbn [andb]; ring.
  - rewrite ?andb_true_r.
    destruct (Nat.eqb_spec (S i' mod n0) i) as [Ai|Ai]; [rewrite (Qi Ai)|];
    destruct (Nat.eqb_spec (S i mod n0) i'); rewrite ?andb_false_r; cbn [andb]; ring.
  - rewrite ?andb_false_r. ring.
Qed.

Lemma delta_nxt n x y : (x < n)%nat -> (y < n)%nat -> delta (K:=K) (S x mod n) (S y mod n) = delta x y.
Proof. intros. unfold delta. rewrite nxt_eqb by auto. reflexivity. Qed.

Lemma delta_shift n k x y : (x < n)%nat -> (y < n)%nat -> delta (K:=K) ((x + k) mod n) ((y + k) mod n) = delta x y.
Proof.
  intros Hx Hy. induction k.
  - rewrite !Nat.add_0_r, !Nat.mod_small by auto. reflexivity.
  - rewrite !shift_S by lia. rewrite delta_nxt by (apply Nat.mod_upper_bound; lia). auto.
Qed.

Lemma delta_phasek n b k x y : isphase b -> delta (K:=K) x y * (phasek n b k x * phasek n b k y) = delta x y.
Proof.
  intros Hb. unfold delta. destruct (Nat.eqb_spec x y) as [->|]; [|ring].
  unfold phasek. rewrite powK_sq by auto. ring.
Qed.

Lemma bfac1_phase n bd (b : K) : bfac1 n bd = Ok b -> isphase b.
Proof.
  unfold bfac1, isphase.
  destruct bd; try discriminate;
  [destruct (n mod 4 =? 2)%nat; [|destruct (n mod 4 =? 0)%nat]| |]; intros H; try discriminate; injection H as <-; ring.
Qed.

End L.

(** ** Theorems *)

Section T.
Context (K : cring).
Add Ring Kr2 : (rth K).
Open Scope K_scope.

(** Boundary choice of the one-dimensional model: 'auto' is periodic for 4n+2 sites, antiperiodic for 4n sites and
    an error otherwise; other names are not rejected with a clear error but fail. *)
Theorem C27_1d_boundary : forall n (t : K) bd h, hubbard1d n t bd None = Ok h ->
  (0 < n)%nat /\ exists b, bfac1 n bd = Ok b /\ isphase b /\ h = h1e_1d_raw n b t
  /\ (bd = Pbc -> b = 1) /\ (bd = Apbc -> b = - (1))
  /\ (bd = Auto -> (n mod 4 = 2%nat /\ b = 1) \/ (n mod 4 = 0%nat /\ b = - (1)))
  /\ (bd = Pbc \/ bd = Apbc \/ bd = Auto).
Proof.
  intros n t bd h H. unfold hubbard1d in H. destruct (bfac1 n bd) as [b|] eqn:B; [|discriminate].
  destruct (Nat.eqb_spec n 0); [discriminate|]. injection H as <-.
  split; [lia|]. exists b. split; auto. split; [eapply bfac1_phase; eauto|]. split; auto.
  unfold bfac1 in B. destruct bd; try discriminate.
  - destruct (Nat.eqb_spec (n mod 4) 2).
    + injection B as <-. repeat split; intros; try discriminate; auto.
    + destruct (Nat.eqb_spec (n mod 4) 0); [|discriminate]. injection B as <-.
      repeat split; intros; try discriminate; auto.
  - injection B as <-. repeat split; intros; try discriminate; auto.
  - injection B as <-. repeat split; intros; try discriminate; auto.
Qed.

(** Nearest-neighbour structure with boundary phase, for three or more sites. *)
Theorem C27_1d_hopping : forall n (t : K) bd h b, hubbard1d n t bd None = Ok h -> bfac1 n bd = Ok b -> (3 <= n)%nat ->
  forall i j, (i < n)%nat -> (j < n)%nat -> h i j = - t * hop n b i j.
Proof.
  intros n t bd h b H B Hn i j Hi Hj. unfold hubbard1d in H. rewrite B in H.
  destruct (n =? 0)%nat; [discriminate|]. injection H as <-. apply raw_1d_hop; auto.
Qed.

(** Symmetric for every number of sites and any order of the sites. *)
Theorem C27_1d_symmetric : forall n (t : K) bd order h, hubbard1d n t bd order = Ok h ->
  (forall o, order = Some o -> length o = n /\ Forall (fun x => (x < n)%nat) o) ->
  forall i j, (i < n)%nat -> (j < n)%nat -> h i j = h j i.
Proof.
  intros n t bd order h H Ho i j Hi Hj. unfold hubbard1d in H.
  destruct (bfac1 n bd) as [b|] eqn:B; [|discriminate]. destruct (n =? 0)%nat; [discriminate|]. injection H as <-.
  assert (S : forall i j, (i < n)%nat -> (j < n)%nat -> h1e_1d_raw n b t i j = h1e_1d_raw n b t j i).
  { clear. intros i j Hi Hj. rewrite !raw_1d by auto.
    replace ((i =? 0) && (j =? n - 1) || (i =? n - 1) && (j =? 0))%nat
      with ((j =? 0) && (i =? n - 1) || (j =? n - 1) && (i =? 0))%nat
      by (destruct (i =? 0)%nat, (j =? n - 1)%nat, (i =? n - 1)%nat, (j =? 0)%nat; reflexivity).
    rewrite (orb_comm (j =? S i)%nat). reflexivity. }
  destruct order as [o|]; simpl; [|apply S; auto].
  destruct (Ho o eq_refl) as [L F]. rewrite Forall_forall in F.
  apply S; apply F, nth_In; lia.
Qed.

(** Translational invariance: the matrix is unchanged by the translation by k sites with the boundary phase, for every
    number of sites except two with an antiperiodic boundary. *)
Theorem C27_1d_translation : forall n (t : K) bd h b, hubbard1d n t bd None = Ok h -> bfac1 n bd = Ok b ->
  (n <> 2%nat \/ b = 1) ->
  forall k i j, (i < n)%nat -> (j < n)%nat ->
  h ((i + k) mod n)%nat ((j + k) mod n)%nat * (phasek n b k i * phasek n b k j) = h i j.
Proof.
  intros n t bd h b H B Hn k i j Hi Hj. pose proof (bfac1_phase _ _ _ _ B) as Pb.
  unfold hubbard1d in H. rewrite B in H. destruct (n =? 0)%nat; [discriminate|]. injection H as <-. cbn [reorder].
  destruct (le_lt_dec 3 n) as [G|G].
  - rewrite !raw_1d_hop by (auto; apply Nat.mod_upper_bound; lia).
    rewrite <- (hop_translate K n b i j k) by auto. ring.
  - induction k as [|k IH].
    + rewrite !Nat.add_0_r. unfold phasek. rewrite !Nat.add_0_r, !Nat.div_small, !Nat.mod_small by auto. simpl. ring.
    + rewrite !shift_S, !phasek_S by lia. rewrite <- IH. clear IH.
      assert (Mi : ((i + k) mod n < n)%nat) by (apply Nat.mod_upper_bound; lia).
      assert (Mj : ((j + k) mod n < n)%nat) by (apply Nat.mod_upper_bound; lia).
      set (x := ((i + k) mod n)%nat) in *. set (y := ((j + k) mod n)%nat) in *.
      transitivity (h1e_1d_raw n b t (S x mod n) (S y mod n) * (phase n b x * phase n b y) * (phasek n b k i * phasek n b k j)); [ring|].
      f_equal. rewrite !raw_1d by (auto; apply Nat.mod_upper_bound; lia).
      destruct n as [|[|[|n]]]; try lia.
      * replace x with 0%nat by lia. replace y with 0%nat by lia. cbn.
        transitivity (b * b * (b * - t)); [ring|]. rewrite Pb. ring.
      * destruct Hn as [Hn|Hn]; [lia|]. subst b.
        destruct x as [|[|x]], y as [|[|y]]; try lia; cbn; ring.
Qed.

(** Two dimensions: nearest-neighbour structure; site (i, j) has the number i * n1 + j, the first boundary belongs to
    the direction of i. *)
Theorem C27_2d_hopping : forall n0 n1 half (t : K) bd0 bd1 h b0 b1,
  hubbard2d n0 n1 half t (Two bd0 bd1) (1, 1)%nat None = Ok h -> bfac2 bd0 = Ok b0 -> bfac2 bd1 = Ok b1 ->
  forall i j i' j', (i < n0)%nat -> (j < n1)%nat -> (i' < n0)%nat -> (j' < n1)%nat ->
  h (i * n1 + j)%nat (i' * n1 + j')%nat = - t * (delta i i' * hop n1 b1 j j' + delta j j' * hop n0 b0 i i').
Proof.
  intros n0 n1 half t bd0 bd1 h b0 b1 H B0 B1 i j i' j' Hi Hj Hi' Hj'.
  unfold hubbard2d in H. cbn in H. rewrite B0, B1 in H. injection H as <-. apply raw_2d; auto.
Qed.

(** The boundary conditions of the two directions asked for: a pair, one for both, or automatic - at half filling on
    lattices with even sides only, antiperiodic along the second direction, and along the first one if the sides
    differ modulo four. *)
Definition chosen (n0 n1 : nat) (half : bool) (bd : barg) (x y : boundary) : Prop :=
  match bd with
  | Two a b => x = a /\ y = b
  | One Auto => half = true /\ Nat.even n0 = true /\ Nat.even n1 = true /\ y = Apbc
      /\ (n0 mod 4 = n1 mod 4 -> x = Pbc)%nat /\ (n0 mod 4 <> n1 mod 4 -> x = Apbc)%nat
  | One a => x = a /\ y = a
  end.
(** The factor of the bonds across the boundary. *)
Definition across (x : boundary) (b : K) : Prop := (x = Open /\ b = 0) \/ (x = Pbc /\ b = 1) \/ (x = Apbc /\ b = - (1)).

Theorem C27_2d_boundary : forall n0 n1 half (t : K) bd h,
  hubbard2d n0 n1 half t bd (1, 1)%nat None = Ok h ->
  exists x y b0 b1, chosen n0 n1 half bd x y /\ across x b0 /\ across y b1 /\
  forall i j i' j', (i < n0)%nat -> (j < n1)%nat -> (i' < n0)%nat -> (j' < n1)%nat ->
  h (i * n1 + j)%nat (i' * n1 + j')%nat = - t * (delta i i' * hop n1 b1 j j' + delta j j' * hop n0 b0 i i').
Proof.
  intros n0 n1 half t bd h H.
  assert (A : forall x y, auto2 n0 n1 half = Ok (x, y) -> chosen n0 n1 half (One Auto) x y).
  { intros x y E. unfold auto2 in E. destruct half; [|discriminate]. unfold chosen. split; auto.
    assert (V : forall n, (n mod 4 = 0 \/ n mod 4 = 2)%nat -> Nat.even n = true).
    { intros n Hn. apply Nat.even_spec. pose proof (Nat.div_mod n 4). destruct Hn; [exists (2 * (n / 4))%nat|exists (2 * (n / 4) + 1)%nat]; lia. }
    destruct (n0 mod 4)%nat as [|[|[|]]] eqn:E0; try discriminate; destruct (n1 mod 4)%nat as [|[|[|]]] eqn:E1; try discriminate; injection E as <- <-;
      (split; [apply V; auto|]); (split; [apply V; auto|]); repeat split; intros; auto; try congruence; lia. }
  assert (B : forall x (b : K), bfac2 x = Ok b -> across x b).
  { intros x b E. unfold across. destruct x; try discriminate; injection E as <-; auto. }
  assert (G : forall x y, chosen n0 n1 half bd x y -> hubbard2d n0 n1 half t (Two x y) (1, 1)%nat None = Ok h ->
    exists x y b0 b1, chosen n0 n1 half bd x y /\ across x b0 /\ across y b1 /\
    forall i j i' j', (i < n0)%nat -> (j < n1)%nat -> (i' < n0)%nat -> (j' < n1)%nat ->
    h (i * n1 + j)%nat (i' * n1 + j')%nat = - t * (delta i i' * hop n1 b1 j j' + delta j j' * hop n0 b0 i i')).
  { intros x y C E. pose proof E as E'. unfold hubbard2d in E'. cbn in E'. destruct (bfac2 x) as [b0|] eqn:B0; [|discriminate]. destruct (bfac2 y) as [b1|] eqn:B1; [|discriminate].
    exists x, y, b0, b1. repeat (split; auto). intros. eapply C27_2d_hopping; eauto. }
  destruct bd as [a|a b]; [|apply (G a b); simpl; auto].
  destruct a; try (apply (G _ _ (conj eq_refl eq_refl)); exact H).
  unfold hubbard2d in H. cbn [fst snd Nat.eqb andb] in H. destruct (auto2 n0 n1 half) as [[x y]|] eqn:E; [|discriminate].
  apply (G x y); auto.
Qed.

Lemma sym_2d : forall n0 n1 half (t : K) bd tiles order h,
  hubbard2d n0 n1 half t bd tiles order = Ok h ->
  (forall o, order = Some o -> length o = (n0 * n1)%nat /\ Forall (fun x => (x < n0 * n1)%nat) o) ->
  forall p q, (p < n0 * n1)%nat -> (q < n0 * n1)%nat ->
  (forall o, get_tiles_order n0 n1 (fst tiles) (snd tiles) = Ok o -> length o = (n0 * n1)%nat /\ Forall (fun x => (x < n0 * n1)%nat) o) ->
  h p q = h q p.
Proof.
  intros n0 n1 half t bd tiles order h H Ho p q Hp Hq Ht. unfold hubbard2d in H.
  assert (S : forall b0 b1 p q, (p < n0 * n1)%nat -> (q < n0 * n1)%nat ->
     h1e_2d_raw n0 n1 b0 b1 t p q = h1e_2d_raw n0 n1 b0 b1 t q p).
  { clear. intros b0 b1 p q Hp Hq. assert (n1 <> 0%nat) by (intros ->; lia).
    assert (Pd : forall p, (p < n0 * n1)%nat -> (p / n1 < n0)%nat) by (intros; apply Nat.div_lt_upper_bound; lia).
    pose proof (Nat.mod_upper_bound p n1 H). pose proof (Nat.mod_upper_bound q n1 H).
    rewrite (Nat.div_mod p n1 H), (Nat.div_mod q n1 H), !(Nat.mul_comm n1).
    rewrite !raw_2d by auto. rewrite !(hop_sym K _ _ (p mod n1)), (hop_sym K _ _ (p / n1)), (delta_sym (p / n1)), (delta_sym (p mod n1)).
    reflexivity. }
  set (o := match order with Some o => Ok (Some o) | None => _ end) in H.
  assert (Oo : forall o', o = Ok (Some o') -> length o' = (n0 * n1)%nat /\ Forall (fun x => (x < n0 * n1)%nat) o').
  { unfold o. destruct order as [oo|]; [intros o' E; injection E as <-; auto|].
    destruct ((fst tiles =? 1)%nat && (snd tiles =? 1)%nat); [discriminate|].
    destruct (get_tiles_order n0 n1 (fst tiles) (snd tiles)) as [o2|]; [|discriminate].
    intros o' E. injection E as <-. auto. }
  clearbody o. destruct o as [o|]; [|discriminate].
  destruct (match bd with One Auto => auto2 n0 n1 half | One x => Ok (x, x) | Two x y => Ok (x, y) end) as [[x y]|]; [|discriminate].
  destruct (bfac2 x) as [b0|]; [|discriminate]. destruct (bfac2 y) as [b1|]; [|discriminate].
  injection H as <-. destruct o as [o|]; simpl; [|apply S; auto].
  destruct (Oo o eq_refl) as [L F]. rewrite Forall_forall in F. apply S; apply F, nth_In; lia.
Qed.

(** Translational invariance in both directions, by any number of sites, where the boundary is (anti)periodic. *)
Theorem C27_2d_translation : forall n0 n1 half (t : K) bd0 bd1 h b0 b1,
  hubbard2d n0 n1 half t (Two bd0 bd1) (1, 1)%nat None = Ok h -> bfac2 bd0 = Ok b0 -> bfac2 bd1 = Ok b1 ->
  forall k i j i' j', (i < n0)%nat -> (j < n1)%nat -> (i' < n0)%nat -> (j' < n1)%nat ->
  (bd0 <> Open ->
   h ((i + k) mod n0 * n1 + j)%nat ((i' + k) mod n0 * n1 + j')%nat * (phasek n0 b0 k i * phasek n0 b0 k i')
   = h (i * n1 + j)%nat (i' * n1 + j')%nat)
  /\ (bd1 <> Open ->
   h (i * n1 + (j + k) mod n1)%nat (i' * n1 + (j' + k) mod n1)%nat * (phasek n1 b1 k j * phasek n1 b1 k j')
   = h (i * n1 + j)%nat (i' * n1 + j')%nat).
Proof.
  intros n0 n1 half t bd0 bd1 h b0 b1 H B0 B1 k i j i' j' Hi Hj Hi' Hj'.
  assert (P : forall bd (b : K), bfac2 bd = Ok b -> bd <> Open -> isphase b).
  { intros bd b E N. destruct bd; try discriminate; try congruence; injection E as <-; unfold isphase; ring. }
  split; intros N.
  - pose proof (P _ _ B0 N) as Pb.
    rewrite !(C27_2d_hopping _ _ _ _ _ _ _ _ _ H B0 B1) by (auto; apply Nat.mod_upper_bound; lia).
    rewrite delta_shift by auto. rewrite <- (hop_translate K n0 b0 i i' k) by auto.
    transitivity (- t * (delta i i' * (phasek n0 b0 k i * phasek n0 b0 k i') * hop n1 b1 j j'
      + delta j j' * (hop n0 b0 ((i + k) mod n0) ((i' + k) mod n0) * (phasek n0 b0 k i * phasek n0 b0 k i')))); [ring|].
    rewrite delta_phasek by auto. ring.
  - pose proof (P _ _ B1 N) as Pb.
    rewrite !(C27_2d_hopping _ _ _ _ _ _ _ _ _ H B0 B1) by (auto; apply Nat.mod_upper_bound; lia).
    rewrite delta_shift by auto. rewrite <- (hop_translate K n1 b1 j j' k) by auto.
    transitivity (- t * (delta j j' * (phasek n1 b1 k j * phasek n1 b1 k j') * hop n0 b0 i i'
      + delta i i' * (hop n1 b1 ((j + k) mod n1) ((j' + k) mod n1) * (phasek n1 b1 k j * phasek n1 b1 k j')))); [ring|].
    rewrite delta_phasek by auto. ring.
Qed.

End T.

(** Finding: two sites with an antiperiodic boundary: the code sets the bond to +t (the last assignment wins), which
    is not invariant under translation. *)
Theorem C27_1d_two_sites_refuted :
  exists (h : nat -> nat -> ZK) (b : ZK), hubbard1d (K := ZK) 2 1%Z Apbc None = Ok h /\ bfac1 2 Apbc = Ok b
  /\ rmul (h ((0 + 1) mod 2)%nat ((1 + 1) mod 2)%nat) (rmul (phasek 2 b 1 0) (phasek 2 b 1 1)) <> h 0%nat 1%nat.
Proof. eexists. eexists. split; [reflexivity|]. split; [reflexivity|]. vm_compute. discriminate. Qed.

(** Finding: the site positions (atom_coords: x = site mod n0, y = site / n0) do not fit the site numbers of the
    hopping matrix (site = i * n1 + j) unless n0 = n1: on the 2 x 4 lattice the sites 1 and 2 are connected but lie at
    (1, 0) and (0, 1). *)
Theorem C27_2d_positions_refuted :
  exists h : nat -> nat -> ZK, hubbard2d (K := ZK) 2 4 true 1%Z (Two Pbc Pbc) (1, 1)%nat None = Ok h
  /\ h 1%nat 2%nat = (-1)%Z /\ atom_coords 2 1 = (1, 0)%nat /\ atom_coords 2 2 = (0, 1)%nat.
Proof. eexists. split; [reflexivity|]. vm_compute. auto. Qed.

(** For square lattices the positions fit, with the first boundary acting along y. *)
Theorem C27_2d_square_positions : forall (K : cring) n half (t : K) bd0 bd1 h b0 b1,
  hubbard2d n n half t (Two bd0 bd1) (1, 1)%nat None = Ok h -> bfac2 bd0 = Ok b0 -> bfac2 bd1 = Ok b1 ->
  forall p q, (p < n * n)%nat -> (q < n * n)%nat ->
  let '(x, y) := atom_coords n p in let '(x', y') := atom_coords n q in
  h p q = rmul (ropp t) (radd (rmul (delta y y') (hop n b1 x x')) (rmul (delta x x') (hop n b0 y y'))).
Proof.
  intros K n half t bd0 bd1 h b0 b1 H B0 B1 p q Hp Hq. unfold atom_coords.
  assert (n <> 0%nat) by (intros ->; lia).
  rewrite <- (C27_2d_hopping K _ _ _ _ _ _ _ _ _ H B0 B1)
    by (first [apply Nat.mod_upper_bound; auto | apply Nat.div_lt_upper_bound; lia]).
  rewrite !(Nat.mul_comm (_ / n) n), <- !Nat.div_mod by auto. reflexivity.
Qed.

(** ** C28: tiles *)

Lemma get_xy_spec n0 n1 t0 t1 site : (0 < t0)%nat -> (0 < t1)%nat -> (n0 mod t0 = 0)%nat -> (n1 mod t1 = 0)%nat ->
  (site < n0 * n1)%nat ->
  let '(x, y) := get_xy n0 t0 t1 site in
  (x < n0)%nat /\ (y < n1)%nat
  /\ (x / t0 = site / (t0 * t1) mod (n0 / t0))%nat /\ (y / t1 = site / (t0 * t1) / (n0 / t0))%nat
  /\ (x mod t0 = site mod (t0 * t1) mod t0)%nat /\ (y mod t1 = site mod (t0 * t1) / t0)%nat.
Proof.
  intros P0 P1 D0 D1 Hs. unfold get_xy. cbv zeta.
  set (nt0 := (n0 / t0)%nat). set (nt1 := (n1 / t1)%nat).
  assert (E0 : n0 = (t0 * nt0)%nat) by (unfold nt0; pose proof (Nat.div_mod n0 t0); lia).
  assert (E1 : n1 = (t1 * nt1)%nat) by (unfold nt1; pose proof (Nat.div_mod n1 t1); lia).
  assert (nt0 <> 0)%nat by (intros Z; rewrite Z, Nat.mul_0_r in E0; subst n0; simpl in Hs; lia).
  assert (T : (0 < t0 * t1)%nat) by nia.
  set (tile := (site / (t0 * t1))%nat). set (pos := (site mod (t0 * t1))%nat).
  assert (Ht : (tile < nt0 * nt1)%nat) by (unfold tile; apply Nat.div_lt_upper_bound; nia).
  assert (Hp : (pos < t0 * t1)%nat) by (unfold pos; apply Nat.mod_upper_bound; lia).
  assert (Hx : (tile mod nt0 < nt0)%nat) by (apply Nat.mod_upper_bound; auto).
  assert (Hy : (tile / nt0 < nt1)%nat) by (apply Nat.div_lt_upper_bound; lia).
  assert (Hpx : (pos mod t0 < t0)%nat) by (apply Nat.mod_upper_bound; lia).
  assert (Hpy : (pos / t0 < t1)%nat) by (apply Nat.div_lt_upper_bound; lia).
  repeat split; try nia.
  - rewrite Nat.div_add_l, (Nat.div_small (pos mod t0) t0) by lia. lia.
  - rewrite Nat.div_add_l, (Nat.div_small (pos / t0) t1) by lia. lia.
  - rewrite Nat.add_comm, Nat.mod_add by lia. apply Nat.mod_small. auto.
  - rewrite Nat.add_comm, Nat.mod_add by lia. apply Nat.mod_small. auto.
Qed.

Lemma get_xy_inj n0 n1 t0 t1 s s' : (0 < t0)%nat -> (0 < t1)%nat -> (n0 mod t0 = 0)%nat -> (n1 mod t1 = 0)%nat ->
  (s < n0 * n1)%nat -> (s' < n0 * n1)%nat -> get_xy n0 t0 t1 s = get_xy n0 t0 t1 s' -> s = s'.
Proof.
  intros P0 P1 D0 D1 Hs Hs' E.
  pose proof (get_xy_spec n0 n1 t0 t1 s P0 P1 D0 D1 Hs) as A. pose proof (get_xy_spec n0 n1 t0 t1 s' P0 P1 D0 D1 Hs') as B.
  rewrite <- E in B. destruct (get_xy n0 t0 t1 s) as [x y].
  destruct A as (_ & _ & A1 & A2 & A3 & A4). destruct B as (_ & _ & B1 & B2 & B3 & B4).
  assert (nt : (n0 / t0 <> 0)%nat).
  { intros Z. apply Nat.div_small_iff in Z; [|lia]. rewrite Nat.mod_small in D0 by auto. subst. simpl in Hs. lia. }
  assert (T : (t0 * t1 <> 0)%nat) by nia.
  rewrite (Nat.div_mod s (t0 * t1) T), (Nat.div_mod s' (t0 * t1) T).
  rewrite (Nat.div_mod (s / (t0 * t1)) (n0 / t0) nt), (Nat.div_mod (s' / (t0 * t1)) (n0 / t0) nt).
  rewrite <- A1, <- B1, <- A2, <- B2.
  rewrite (Nat.div_mod (s mod (t0 * t1)) t0), (Nat.div_mod (s' mod (t0 * t1)) t0) by lia.
  rewrite <- A3, <- B3, <- A4, <- B4. reflexivity.
Qed.

(** Every site exactly once, for all sizes that the tiles divide. *)
Theorem C28_permutation : forall n0 n1 t0 t1 o, get_tiles_order n0 n1 t0 t1 = Ok o ->
  Permutation o (seq 0 (n0 * n1)).
Proof.
  intros n0 n1 t0 t1 o H. unfold get_tiles_order in H.
  destruct (Nat.eqb_spec t0 0) as [|T0]; [discriminate|].
  destruct (Nat.eqb_spec (n0 mod t0) 0) as [D0|]; [|discriminate]. simpl in H.
  destruct (Nat.eqb_spec t1 0) as [|T1]; [discriminate|].
  destruct (Nat.eqb_spec (n1 mod t1) 0) as [D1|]; [|discriminate]. simpl in H. injection H as <-.
  assert (R : forall s, (s < n0 * n1)%nat -> (snd (get_xy n0 t0 t1 s) * n0 + fst (get_xy n0 t0 t1 s) < n0 * n1)%nat).
  { intros s Hs. pose proof (get_xy_spec n0 n1 t0 t1 s ltac:(lia) ltac:(lia) D0 D1 Hs) as A.
    destruct (get_xy n0 t0 t1 s) as [x y]. simpl. destruct A as (A1 & A2 & _). nia. }
  apply NoDup_Permutation_bis.
  - assert (G : forall l, (forall s, In s l -> (s < n0 * n1)%nat) -> NoDup l ->
       NoDup (map (fun site => snd (get_xy n0 t0 t1 site) * n0 + fst (get_xy n0 t0 t1 site))%nat l)).
    { induction l as [|a l IH]; intros Hl Hn; cbn [map]; constructor.
      - inversion Hn as [|? ? N1 N2]; subst. rewrite in_map_iff. intros (s & E & Hs).
        pose proof (get_xy_spec n0 n1 t0 t1 s ltac:(lia) ltac:(lia) D0 D1 (Hl s (or_intror Hs))) as A.
        pose proof (get_xy_spec n0 n1 t0 t1 a ltac:(lia) ltac:(lia) D0 D1 (Hl a (or_introl eq_refl))) as B.
        assert (X : get_xy n0 t0 t1 s = get_xy n0 t0 t1 a).
        { destruct (get_xy n0 t0 t1 s) as [x y], (get_xy n0 t0 t1 a) as [x' y'].
          destruct A as (A1 & A2 & _), B as (B1 & B2 & _). simpl in E. apply flat_inj in E; auto. destruct E as [-> ->]; reflexivity. }
        apply (get_xy_inj n0 n1) in X; auto; try lia; try (apply Hl; simpl; auto).
        subst. contradiction.
      - apply IH; [intros s Hs; apply Hl; simpl; auto|]. inversion Hn; auto. }
    apply G; [intros s Hs; apply in_seq in Hs; lia|apply seq_NoDup].
  - rewrite map_length, !seq_length. auto.
  - intros x Hx. apply in_map_iff in Hx. destruct Hx as (s & <- & Hs). apply in_seq in Hs. apply in_seq.
    pose proof (R s ltac:(lia)) as Rs. cbv zeta. split; [lia|]. rewrite Nat.add_0_l. exact Rs.
Qed.

(** C27: symmetric for all sizes, boundaries (also open), tiles and orders. *)
Theorem C27_2d_symmetric : forall (K : cring) n0 n1 half (t : K) bd tiles order h,
  hubbard2d n0 n1 half t bd tiles order = Ok h ->
  (forall o, order = Some o -> length o = (n0 * n1)%nat /\ Forall (fun x => (x < n0 * n1)%nat) o) ->
  forall p q, (p < n0 * n1)%nat -> (q < n0 * n1)%nat -> h p q = h q p.
Proof.
  intros K n0 n1 half t bd tiles order h H Ho p q Hp Hq. eapply sym_2d; eauto.
  intros o E. apply C28_permutation in E. split.
  - rewrite (Permutation_length E). apply seq_length.
  - apply Forall_forall. intros x Hx. apply (Permutation_in _ E) in Hx. apply in_seq in Hx. lia.
Qed.

(** Tile after tile: position p of the order belongs to tile number p / tilesize, tiles and the sites inside a tile
    being counted along x first. *)
Theorem C28_tile_by_tile : forall n0 n1 t0 t1 o, get_tiles_order n0 n1 t0 t1 = Ok o ->
  length o = (n0 * n1)%nat /\
  forall p, (p < n0 * n1)%nat ->
  let x := (nth p o 0 mod n0)%nat in let y := (nth p o 0 / n0)%nat in
  (y / t1 * (n0 / t0) + x / t0 = p / (t0 * t1))%nat
  /\ (y mod t1 * t0 + x mod t0 = p mod (t0 * t1))%nat.
Proof.
  intros n0 n1 t0 t1 o H. unfold get_tiles_order in H.
  destruct (Nat.eqb_spec t0 0) as [|T0]; [discriminate|].
  destruct (Nat.eqb_spec (n0 mod t0) 0) as [D0|]; [|discriminate]. simpl in H.
  destruct (Nat.eqb_spec t1 0) as [|T1]; [discriminate|].
  destruct (Nat.eqb_spec (n1 mod t1) 0) as [D1|]; [|discriminate]. simpl in H. injection H as <-.
  split; [rewrite map_length, seq_length; auto|]. intros p Hp. cbv zeta.
  rewrite (nth_indep _ 0%nat ((fun site => snd (get_xy n0 t0 t1 site) * n0 + fst (get_xy n0 t0 t1 site))%nat 0%nat))
    by (rewrite map_length, seq_length; auto).
  rewrite (map_nth (fun site => snd (get_xy n0 t0 t1 site) * n0 + fst (get_xy n0 t0 t1 site))%nat), seq_nth by auto.
  rewrite Nat.add_0_l.
  pose proof (get_xy_spec n0 n1 t0 t1 p ltac:(lia) ltac:(lia) D0 D1 Hp) as A.
  destruct (get_xy n0 t0 t1 p) as [x y]. simpl fst; simpl snd. destruct A as (A1 & A2 & A3 & A4 & A5 & A6).
  assert (N0 : (n0 <> 0)%nat) by lia.
  assert (Ex : ((y * n0 + x) mod n0 = x)%nat) by (rewrite Nat.add_comm, Nat.mod_add by lia; apply Nat.mod_small; auto).
  assert (Ey : ((y * n0 + x) / n0 = y)%nat) by (rewrite Nat.div_add_l, Nat.div_small by lia; lia).
  rewrite Ex, Ey, A3, A4, A5, A6.
  assert (nt : (n0 / t0 <> 0)%nat).
  { intros Z. apply Nat.div_small_iff in Z; [|lia]. rewrite Nat.mod_small in D0 by auto. lia. }
  split.
  - rewrite (Nat.mul_comm (p / (t0 * t1) / (n0 / t0))), <- Nat.div_mod by auto. reflexivity.
  - rewrite (Nat.mul_comm (p mod (t0 * t1) / t0)), <- Nat.div_mod by auto. reflexivity.
Qed.

(** Rejected exactly when a tile is empty or does not divide the lattice. *)
Theorem C28_rejects : forall n0 n1 t0 t1,
  (exists o, get_tiles_order n0 n1 t0 t1 = Ok o) <-> (t0 <> 0 /\ t1 <> 0 /\ n0 mod t0 = 0 /\ n1 mod t1 = 0)%nat.
Proof.
  intros. unfold get_tiles_order.
  destruct (Nat.eqb_spec t0 0), (Nat.eqb_spec (n0 mod t0) 0), (Nat.eqb_spec t1 0), (Nat.eqb_spec (n1 mod t1) 0);
    simpl; split; intros H; try (destruct H as [o H]; discriminate); try (intuition congruence); eauto.
Qed.

(** The 2D model with tiles has the hopping matrix of the untiled one at permuted sites. *)
Theorem C28_hopping : forall (K : cring) n0 n1 half (t : K) bd tiles h h0 o,
  hubbard2d n0 n1 half t bd tiles None = Ok h -> hubbard2d n0 n1 half t bd (1, 1)%nat None = Ok h0 ->
  get_tiles_order n0 n1 (fst tiles) (snd tiles) = Ok o -> tiles <> (1, 1)%nat ->
  forall p q, h p q = h0 (nth p o 0%nat) (nth q o 0%nat).
Proof.
  intros K n0 n1 half t bd tiles h h0 o H H0 Ho Ht p q. unfold hubbard2d in *. rewrite Ho in H.
  assert (E : ((fst tiles =? 1) && (snd tiles =? 1))%nat = false).
  { destruct (Nat.eqb_spec (fst tiles) 1), (Nat.eqb_spec (snd tiles) 1); auto. destruct tiles; simpl in *; congruence. }
  rewrite E in H. cbn in H0.
  destruct (match bd with One Auto => auto2 n0 n1 half | One x => Ok (x, x) | Two x y => Ok (x, y) end) as [[x y]|]; [|discriminate].
  destruct (bfac2 x) as [b0|]; [|discriminate]. destruct (bfac2 y) as [b1|]; [|discriminate].
  injection H as <-. injection H0 as <-. reflexivity.
Qed.

(** Finding: because of the different numbering, on a non-square lattice a tile need not be connected: on the 2 x 4
    lattice with tiles of 1 x 2 sites the first tile holds the sites 0 and 2, without a bond between them. *)
Theorem C28_tile_connected_refuted :
  exists h : nat -> nat -> ZK, hubbard2d (K := ZK) 2 4 true 1%Z (Two Pbc Pbc) (1, 2)%nat None = Ok h
  /\ get_tiles_order 2 4 1 2 = Ok [0; 2; 1; 3; 4; 6; 5; 7]%nat /\ h 0%nat 1%nat = 0%Z.
Proof. eexists. split; [reflexivity|]. vm_compute. auto. Qed.

Example ex_1d : exists h : nat -> nat -> ZK, hubbard1d (K := ZK) 4 2%Z Auto None = Ok h
  /\ map (fun i => map (h i) (seq 0 4)) (seq 0 4) = [[0; -2; 0; 2]; [-2; 0; -2; 0]; [0; -2; 0; -2]; [2; 0; -2; 0]]%Z.
Proof. eexists. split; [reflexivity|]. vm_compute. auto. Qed.

Example ex_2d : exists h : nat -> nat -> ZK, hubbard2d (K := ZK) 3 3 true 1%Z (Two Pbc Apbc) (1, 1)%nat None = Ok h
  /\ map (h 0%nat) (seq 0 9) = [0; -1; 1; -1; 0; 0; -1; 0; 0]%Z.
Proof. eexists. split; [reflexivity|]. vm_compute. auto. Qed.

Example ex_2d_auto : exists h : nat -> nat -> ZK, hubbard2d (K := ZK) 4 6 true 1%Z (One Auto) (1, 1)%nat None = Ok h
  /\ h 0%nat 18%nat = 1%Z /\ h 0%nat 5%nat = 1%Z /\ h 0%nat 6%nat = (-1)%Z.
Proof. eexists. split; [reflexivity|]. vm_compute. auto. Qed.

Example ex_tiles : get_tiles_order 4 4 2 2 = Ok [0;1;4;5;2;3;6;7;8;9;12;13;10;11;14;15]%nat.
Proof. vm_compute. reflexivity. Qed.

Print Assumptions C27_1d_boundary.
Print Assumptions C27_1d_hopping.
Print Assumptions C27_1d_symmetric.
Print Assumptions C27_1d_translation.
Print Assumptions C27_2d_boundary.
Print Assumptions C27_2d_hopping.
Print Assumptions C27_2d_symmetric.
Print Assumptions C27_2d_translation.
Print Assumptions C27_1d_two_sites_refuted.
Print Assumptions C27_2d_positions_refuted.
Print Assumptions C27_2d_square_positions.
Print Assumptions C28_permutation.
Print Assumptions C28_tile_by_tile.
Print Assumptions C28_rejects.
Print Assumptions C28_hopping.
Print Assumptions C28_tile_connected_refuted.
