(** C41: fragment and environment orbitals partition the orbitals. *)
From Coq Require Import List Arith ZArith Lia Bool Permutation.
From Verif Require Import M_FragCoeff.
Import ListNotations.

Ltac okinj G := match type of G with Ok ?x = Ok ?y => let H := fresh in assert (H : y = x) by congruence; subst y; clear G end.

Lemma memb_spec x l : memb x l = true <-> In x l.
Proof. unfold memb. rewrite existsb_exists. split; [intros (y & H & E); apply Nat.eqb_eq in E; now subst|intros H; exists x; split; auto; apply Nat.eqb_refl]. Qed.
Lemma membZ_spec x l : membZ x l = true <-> In x l.
Proof. unfold membZ. rewrite existsb_exists. split; [intros (y & H & E); apply Z.eqb_eq in E; now subst|intros H; exists x; split; auto; apply Z.eqb_refl]. Qed.

Lemma norm_index_lt n i k : norm_index n i = Some k -> k < n.
Proof.
  unfold norm_index. destruct (Z.leb_spec 0 i), (Z.ltb_spec i (Z.of_nat n)), (Z.leb_spec (- Z.of_nat n) i), (Z.ltb_spec i 0); simpl; intros E; try discriminate; injection E as <-; lia.
Qed.

Lemma norm_all_lt n : forall l ks, norm_all n l = Some ks -> forall k, In k ks -> k < n.
Proof.
  induction l as [|i l IH]; intros ks H k Hk; simpl in H.
  - injection H as <-. destruct Hk.
  - destruct (norm_index n i) as [j|] eqn:E; [|discriminate]. destruct (norm_all n l) as [js|] eqn:E2; [|discriminate]. injection H as <-.
    destruct Hk as [<-|Hk]; [eapply norm_index_lt; eauto|eauto].
Qed.

Lemma norm_all_len n : forall l ks, norm_all n l = Some ks -> length ks = length l.
Proof.
  induction l as [|i l IH]; intros ks H; simpl in H; [injection H as <-; auto|].
  destruct (norm_index n i) as [j|]; [|discriminate]. destruct (norm_all n l) as [js|] eqn:E2; [|discriminate]. injection H as <-. simpl. f_equal. auto.
Qed.

Lemma norm_all_nat n : forall l, (forall k, In k l -> k < n) -> norm_all n (map Z.of_nat l) = Some l.
Proof.
  induction l as [|k l IH]; intros H; auto. simpl. rewrite IH by (intros; apply H; simpl; auto).
  assert (k < n) by (apply H; simpl; auto). unfold norm_index. destruct (Z.leb_spec 0 (Z.of_nat k)); [|lia]. destruct (Z.ltb_spec (Z.of_nat k) (Z.of_nat n)); [|lia].
  simpl. now rewrite Nat2Z.id.
Qed.

Section C.
Context {A : Type}.
Variable cols : list A.
Variable d : A.

Definition columns (ks : list nat) : list A := map (fun k => nth k cols d) ks.

Lemma columns_flat ks : (forall k, In k ks -> k < length cols) -> flat_map (fun k => match nth_error cols k with Some c => [c] | None => [] end) ks = columns ks.
Proof.
  induction ks as [|k ks IH]; intros H; auto. simpl. rewrite (nth_error_nth' cols d) by (apply H; simpl; auto). simpl. f_equal. apply IH. intros; apply H; simpl; auto.
Qed.

Lemma columns_filter ks l : (forall k, In k l -> k < length cols) ->
  flat_map (fun k => if memb k ks then [] else match nth_error cols k with Some c => [c] | None => [] end) l = columns (filter (fun k => negb (memb k ks)) l).
Proof.
  induction l as [|k l IH]; intros H; auto. simpl. rewrite IH by (intros; apply H; simpl; auto). destruct (memb k ks); simpl; auto.
  rewrite (nth_error_nth' cols d) by (apply H; simpl; auto). reflexivity.
Qed.

Lemma columns_all : columns (seq 0 (length cols)) = cols.
Proof.
  unfold columns. induction cols as [|a l IH]; simpl; auto. f_equal. rewrite <- seq_shift, map_map. exact IH.
Qed.

(** The fragment has the orbitals at the given places in the given order, the environment all others in their order;
    places may be counted from the end. *)
Theorem C41_orbitals : forall idx f e, create_fragment cols idx = Ok (f, e) -> exists ks, norm_all (length cols) idx = Some ks /\ idx <> [] /\
  (forall k, In k ks -> k < length cols) /\ f = columns ks /\ e = columns (filter (fun k => negb (memb k ks)) (seq 0 (length cols))).
Proof.
  intros idx f e H. unfold create_fragment, get_frag_coeff, get_env_coeff in H. destruct idx as [|i idx]; [discriminate|].
  destruct (norm_all (length cols) (i :: idx)) as [ks|] eqn:E; [|discriminate]. injection H as <- <-. exists ks.
  assert (L : forall k, In k ks -> k < length cols) by (eapply norm_all_lt; eauto).
  split; auto. split; [discriminate|]. split; auto. split; [now apply columns_flat|]. apply columns_filter. intros k Hk. apply in_seq in Hk. lia.
Qed.

(** It fails only for no orbitals at all or a place that does not exist. *)
Theorem C41_errors : forall idx, (create_fragment cols idx = ValueError <-> idx = []) /\
  (create_fragment cols idx = IndexError <-> exists i, In i idx /\ ~ (- Z.of_nat (length cols) <= i < Z.of_nat (length cols))%Z).
Proof.
  intros idx.
  assert (N : norm_all (length cols) idx = None <-> exists i, In i idx /\ ~ (- Z.of_nat (length cols) <= i < Z.of_nat (length cols))%Z).
  { induction idx as [|i idx IH]; simpl; [split; [discriminate|intros (i & [] & _)]|].
    assert (I : norm_index (length cols) i = None <-> ~ (- Z.of_nat (length cols) <= i < Z.of_nat (length cols))%Z).
    { unfold norm_index. destruct (Z.leb_spec 0 i), (Z.ltb_spec i (Z.of_nat (length cols))), (Z.leb_spec (- Z.of_nat (length cols)) i), (Z.ltb_spec i 0); simpl; split; intros; try discriminate; try lia; auto. }
    destruct (norm_index (length cols) i) as [k|].
    - destruct (norm_all (length cols) idx) as [ks|].
      + split; [discriminate|]. intros (j & [<-|Hj] & Hn); [apply I in Hn; discriminate|]. assert (Some ks = None) by (apply IH; eauto). discriminate.
      + split; auto. intros _. destruct (proj1 IH eq_refl) as (j & Hj & Hn). eauto.
    - split; auto. intros _. exists i. split; auto. now apply I. }
  unfold create_fragment, get_frag_coeff, get_env_coeff. destruct idx as [|i idx].
  - split; [split; auto|]. split; [discriminate|intros (j & [] & _)].
  - destruct (norm_all (length cols) (i :: idx)) as [ks|].
    + split; split; try discriminate. intros H. apply N in H. discriminate.
    + split; [split; discriminate|]. split; auto. intros _. now apply N.
Qed.

(** For different places, every orbital is either in the fragment or in the environment, exactly once. *)
Theorem C41_partition : forall idx f e ks, create_fragment cols idx = Ok (f, e) -> norm_all (length cols) idx = Some ks -> NoDup ks ->
  Permutation (f ++ e) cols /\ length f = length idx /\ length f + length e = length cols.
Proof.
  intros idx f e ks H E ND. destruct (C41_orbitals idx f e H) as (ks' & E' & _ & L & -> & ->). rewrite E in E'. injection E' as <-.
  assert (P : Permutation (ks ++ filter (fun k => negb (memb k ks)) (seq 0 (length cols))) (seq 0 (length cols))).
  { apply NoDup_Permutation.
    - assert (X : forall l1 l2 : list nat, NoDup l1 -> NoDup l2 -> (forall x, In x l1 -> In x l2 -> False) -> NoDup (l1 ++ l2)).
      { clear. induction l1 as [|a l1 IH]; simpl; auto. intros l2 H1 H2 H3. inversion H1; subst. constructor.
        - rewrite in_app_iff. intros [|]; [auto|]. eapply H3; eauto.
        - apply IH; auto. intros. eapply H3; eauto. }
      apply X; auto; [apply NoDup_filter, seq_NoDup|]. intros x H1 H2. apply filter_In in H2. destruct H2 as [_ H2]. apply memb_spec in H1. rewrite H1 in H2. discriminate.
    - apply seq_NoDup.
    - intros x. rewrite in_app_iff, filter_In, in_seq. split.
      + intros [Hx|[Hx _]]; [apply L in Hx; lia|lia].
      + intros Hx. destruct (memb x ks) eqn:M; [left; now apply memb_spec|right; split; auto]. }
  split; [|split].
  - unfold columns. rewrite <- map_app. rewrite (Permutation_map _ P). fold (columns (seq 0 (length cols))). now rewrite columns_all.
  - unfold columns. rewrite map_length. eapply norm_all_len; eauto.
  - unfold columns. rewrite !map_length, <- app_length. rewrite (Permutation_length P), seq_length. reflexivity.
Qed.
End C.

(** Finding: an orbital given twice is twice in the fragment. *)
Theorem C41_duplicates_refuted : create_fragment [10; 20; 30] [0; 0]%Z = Ok ([10; 10], [20; 30]) /\ create_fragment [10; 20; 30] [2; -1]%Z = Ok ([30; 30], [10; 20]).
Proof. split; reflexivity. Qed.

Section Atoms.
Variable natm : nat.
Variable symbol : nat -> nat.
Variable base : list nat.
Hypothesis base_lt : forall i, i < length base -> nth i base 0 < natm.

(** The atoms meant. *)
Definition meant (a : atoms) (k : nat) : Prop := match a with Ints l => In (Z.of_nat k) l | Symbols l => k < natm /\ In (symbol k) l end.

(** The orbitals of atomic fragments are exactly those of the atoms meant that pass the filter, in order and once each,
    also if atoms are given more than once. *)
Theorem C41_atomic : forall a keep l, atomic_indices natm symbol base a keep = Ok l ->
  NoDup l /\ (forall i, In i l <-> i < length base /\ meant a (nth i base 0) /\ match keep with Some k => In i k | None => True end) /\
  forall i j, i < j -> j < length l -> nth i l 0 < nth j l 0.
Proof.
  intros a keep l H.
  assert (INC : forall n s (p : nat -> bool), (forall x, In x (filter p (seq s n)) -> s <= x) /\ forall i j, i < j -> j < length (filter p (seq s n)) -> nth i (filter p (seq s n)) 0 < nth j (filter p (seq s n)) 0).
  { induction n as [|n IH]; intros s p; cbn [seq filter]; [split; [intros x []|simpl; intros; lia]|]. destruct (IH (S s) p) as [I1 I2].
    split; [intros x Hx; destruct (p s); [destruct Hx as [<-|Hx]; [lia|]|]; apply I1 in Hx; lia|]. destruct (p s); auto.
    intros i j Hij Hj. simpl in Hj. destruct j as [|j]; [lia|]. destruct i as [|i]; simpl; [|apply I2; lia].
    assert (In (nth j (filter p (seq (S s) n)) 0) (filter p (seq (S s) n))) as X by (apply nth_In; lia). apply I1 in X. lia. }
  assert (FF : forall (p q : nat -> bool) l, filter p (filter q l) = filter (fun x => q x && p x)%bool l).
  { clear. intros p q. induction l as [|x l IH]; simpl; auto. destruct (q x); simpl; [destruct (p x); simpl; now rewrite IH|auto]. }
  unfold atomic_indices in H. destruct (get_atom_indices natm symbol a) as [al| |] eqn:G; try discriminate. injection H as <-.
  assert (M : forall i, i < length base -> membZ (Z.of_nat (nth i base 0)) al = true <-> meant a (nth i base 0)).
  { intros i Hi. rewrite membZ_spec. unfold get_atom_indices in G. destruct a as [il|sl]; cbn [meant].
    - destruct il as [|z il]; [discriminate|]. destruct (norm_all natm (z :: il)); [|discriminate]. okinj G. reflexivity.
    - destruct sl as [|z sl]; [discriminate|]. destruct (forallb _ _); [|discriminate].
      match type of G with Ok ?x = Ok _ => assert (E0 : al = x) by congruence; rewrite E0; clear E0 G end. rewrite in_map_iff. split.
      + intros (x & E & Hx). apply Nat2Z.inj in E. subst x. apply filter_In in Hx. rewrite memb_spec, in_seq in Hx. split; [lia|tauto].
      + intros [H1 H2]. exists (nth i base 0). split; auto. apply filter_In. rewrite in_seq. split; [lia|now apply memb_spec]. }
  destruct keep as [k|].
  - rewrite FF. split; [apply NoDup_filter, seq_NoDup|]. split; [|apply INC]. intros i. rewrite filter_In, in_seq, andb_true_iff, memb_spec. split.
    + intros (H1 & H2 & H3). assert (Hi : i < length base) by lia. apply M in H2; auto.
    + intros (H1 & H2 & H3). split; [lia|]. split; auto. now apply M.
  - split; [apply NoDup_filter, seq_NoDup|]. split; [|apply INC]. intros i. rewrite filter_In, in_seq. split.
    + intros (H1 & H2). assert (Hi : i < length base) by lia. apply M in H2; auto.
    + intros (H1 & H2 & H3). split; [lia|]. now apply M.
Qed.

Variable A : Type.
Variable cols : list A.
Variable d : A.
Hypothesis cols_len : length cols = length base.

(** Atomic fragments always have a partition. *)
Theorem C41_atomic_partition : forall a keep f e, add_atomic natm symbol base cols a keep = Ok (f, e) -> Permutation (f ++ e) cols.
Proof.
  intros a keep f e H. unfold add_atomic in H. destruct (atomic_indices natm symbol base a keep) as [l| |] eqn:G; try discriminate.
  destruct (C41_atomic a keep l G) as (N1 & N2 & _). eapply (C41_partition cols d); eauto. apply norm_all_nat. intros k Hk. apply N2 in Hk. lia.
Qed.

Lemma single_fragment m f e : m < natm -> add_atomic natm symbol base cols (Ints [Z.of_nat m]) None = Ok (f, e) ->
  f = columns cols d (filter (fun i => Nat.eqb (nth i base 0) m) (seq 0 (length base))).
Proof.
  intros Hm H. unfold add_atomic in H. destruct (atomic_indices natm symbol base (Ints [Z.of_nat m]) None) as [l| |] eqn:G; try discriminate.
  destruct (C41_orbitals cols d _ _ _ H) as (ks & E & _ & _ & -> & _).
  unfold atomic_indices, get_atom_indices in G. destruct (norm_all natm [Z.of_nat m]); [|discriminate]. okinj G.
  assert (FE : filter (fun i => membZ (Z.of_nat (nth i base 0)) [Z.of_nat m]) (seq 0 (length base)) = filter (fun i => Nat.eqb (nth i base 0) m) (seq 0 (length base))).
  { apply filter_ext. intros i. simpl. rewrite orb_false_r. destruct (Nat.eqb_spec (nth i base 0) m), (Z.eqb_spec (Z.of_nat (nth i base 0)) (Z.of_nat m)); auto; lia. }
  rewrite FE in E. rewrite norm_all_nat in E; [injection E as <-; auto|].
  intros k Hk. apply filter_In in Hk. rewrite in_seq in Hk. lia.
Qed.

(** One fragment for every atom: the fragments together have every orbital exactly once; and they can be made if and
    only if every atom has an orbital. *)
Theorem C41_all_atoms : forall n, n <= natm ->
  (forall fl, add_all natm symbol base cols n = Ok fl -> length fl = n /\ Permutation (flat_map fst fl) (columns cols d (filter (fun i => Nat.ltb (nth i base 0) n) (seq 0 (length base))))) /\
  ((exists fl, add_all natm symbol base cols n = Ok fl) <-> forall m, m < n -> In m base).
Proof.
  assert (PF : forall n l, Permutation (filter (fun i => Nat.ltb (nth i base 0) n) l ++ filter (fun i => Nat.eqb (nth i base 0) n) l) (filter (fun i => Nat.ltb (nth i base 0) (S n)) l)).
  { clear. intros n. induction l as [|i l IH]; simpl; auto.
    destruct (Nat.ltb_spec (nth i base 0) n), (Nat.eqb_spec (nth i base 0) n), (Nat.ltb_spec (nth i base 0) (S n)); try lia; auto.
    - simpl. constructor. auto.
    - rewrite <- Permutation_middle. constructor. auto. }
  induction n as [|n IH]; intros Hn.
  - split; [|split; [intros _ m Hm; lia|intros _; exists []; reflexivity]]. intros fl H. injection H as <-. split; auto.
    replace (filter (fun i => nth i base 0 <? 0) (seq 0 (length base))) with (@nil nat); [constructor|]. clear. induction (seq 0 (length base)); auto.
  - destruct (IH ltac:(lia)) as [IH1 IH2]. cbn [add_all]. split.
    + intros fl H. destruct (add_all natm symbol base cols n) as [l| |] eqn:E; try discriminate.
      destruct (add_atomic natm symbol base cols (Ints [Z.of_nat n]) None) as [[f e]| |] eqn:E2; try discriminate. injection H as <-.
      destruct (IH1 l eq_refl) as [L P]. split; [rewrite app_length; simpl; lia|]. rewrite flat_map_app. simpl. rewrite app_nil_r.
      rewrite (single_fragment n f e) by (auto; lia). rewrite P. unfold columns. rewrite <- map_app. apply Permutation_map. apply PF.
    + assert (AT : (exists x, add_atomic natm symbol base cols (Ints [Z.of_nat n]) None = Ok x) <-> In n base).
      { unfold add_atomic. destruct (atomic_indices natm symbol base (Ints [Z.of_nat n]) None) as [l| |] eqn:G.
        - destruct (C41_atomic _ _ _ G) as (N1 & N2 & _). split.
          + intros [x H]. destruct l as [|i l]; [discriminate|]. destruct (proj1 (N2 i)) as (H1 & H2 & _); [simpl; auto|].
            simpl in H2. destruct H2 as [H2|[]]. apply Nat2Z.inj in H2. rewrite H2. now apply nth_In.
          + intros Hin. apply (In_nth _ _ 0) in Hin. destruct Hin as (i & Hi & E). assert (In i l) as Hl by (apply N2; split; auto; split; auto; simpl; left; now f_equal).
            unfold create_fragment, get_frag_coeff, get_env_coeff. rewrite norm_all_nat by (intros k Hk; apply N2 in Hk; lia). destruct l; [destruct Hl|]. simpl. eauto.
        - exfalso. unfold atomic_indices, get_atom_indices in G. change [Z.of_nat n] with (map Z.of_nat [n]) in G. rewrite norm_all_nat in G by (intros k [<-|[]]; lia). discriminate.
        - exfalso. unfold atomic_indices, get_atom_indices in G. change [Z.of_nat n] with (map Z.of_nat [n]) in G. rewrite norm_all_nat in G by (intros k [<-|[]]; lia). discriminate. }
      split.
      * intros [fl H] m Hm. destruct (add_all natm symbol base cols n) as [l| |] eqn:E; try discriminate.
        destruct (add_atomic natm symbol base cols (Ints [Z.of_nat n]) None) as [x| |] eqn:E2; try discriminate.
        destruct (Nat.eq_dec m n) as [->|]; [apply AT; eauto|]. apply IH2; [eauto|lia].
      * intros H. destruct (proj2 IH2) as [l ->]; [intros; apply H; lia|]. destruct (proj2 AT) as [x ->]; [apply H; lia|]. eauto.
Qed.

(** For all atoms nothing is left over. *)
Theorem C41_complete : forall fl, add_all natm symbol base cols natm = Ok fl -> Permutation (flat_map fst fl) cols.
Proof.
  intros fl H. destruct (C41_all_atoms natm (le_n _)) as [H1 _]. destruct (H1 fl H) as [_ P]. rewrite P.
  replace (filter _ _) with (seq 0 (length base)); [rewrite <- cols_len, columns_all; auto|].
  assert (B : forall i, In i (seq 0 (length base)) -> nth i base 0 < natm) by (intros i Hi; apply base_lt; apply in_seq in Hi; lia).
  clear - B. induction (seq 0 (length base)) as [|i l IH]; simpl; auto. destruct (Nat.ltb_spec (nth i base 0) natm).
  - f_equal. apply IH. intros; apply B; simpl; auto.
  - specialize (B i (or_introl eq_refl)). lia.
Qed.

(** The full system has no environment. *)
Theorem C41_full_system : forall f e, add_full natm symbol base cols = Ok (f, e) -> f = cols /\ e = [].
Proof.
  intros f e H. unfold add_full, add_atomic in H. set (a := Ints (map Z.of_nat (seq 0 natm))) in *. destruct (atomic_indices natm symbol base a None) as [l| |] eqn:G; try discriminate.
  assert (l = seq 0 (length base)) as ->.
  { unfold atomic_indices in G. destruct (get_atom_indices natm symbol a) as [al| |] eqn:GA; try discriminate. okinj G.
    assert (AL : al = map Z.of_nat (seq 0 natm)). { unfold a, get_atom_indices in GA. destruct (map Z.of_nat (seq 0 natm)) as [|z zl]; [discriminate|]. destruct (norm_all natm (z :: zl)); [|discriminate]. now injection GA. }
    subst al. assert (B : forall i, In i (seq 0 (length base)) -> nth i base 0 < natm) by (intros i Hi; apply base_lt; apply in_seq in Hi; lia). clear - B.
    induction (seq 0 (length base)) as [|i l IH]; cbn [filter]; auto. replace (membZ _ _) with true.
    - f_equal. apply IH. intros; apply B; simpl; auto.
    - symmetry. apply membZ_spec. apply in_map. apply in_seq. specialize (B i (or_introl eq_refl)). lia. }
  destruct (C41_orbitals cols d _ _ _ H) as (ks & E & _ & _ & -> & ->). rewrite norm_all_nat in E by (intros k Hk; apply in_seq in Hk; lia). injection E as <-.
  rewrite <- cols_len. split; [apply columns_all|].
  assert (B : forall i, In i (seq 0 (length cols)) -> memb i (seq 0 (length cols)) = true) by (intros; now apply memb_spec).
  assert (X : forall l (q : nat -> bool), (forall i, In i l -> q i = true) -> filter (fun k => negb (q k)) l = []).
  { clear. induction l as [|i l IH]; intros q B; simpl; auto. rewrite B by (simpl; auto). simpl. apply IH. intros; apply B; simpl; auto. }
  rewrite X; auto.
Qed.
End Atoms.

(** Symbols choose all atoms of that symbol; an unknown one is an error. *)
Theorem C41_symbols : forall natm symbol l, l <> [] ->
  (get_atom_indices natm symbol (Symbols l) = ValueError <-> exists s, In s l /\ forall a, a < natm -> symbol a <> s) /\
  (forall al, get_atom_indices natm symbol (Symbols l) = Ok al -> forall z, In z al <-> exists a, z = Z.of_nat a /\ a < natm /\ In (symbol a) l).
Proof.
  intros natm symbol l Hl. unfold get_atom_indices. destruct l as [|s0 l0]; [congruence|]. set (l := s0 :: l0) in *. clearbody l.
  destruct (forallb (fun s => memb s (map symbol (seq 0 natm))) l) eqn:E.
  - rewrite forallb_forall in E. split.
    + split; [discriminate|]. intros (s & Hs & Hn). apply E in Hs. apply memb_spec in Hs. apply in_map_iff in Hs. destruct Hs as (a & <- & Ha). apply in_seq in Ha. exfalso. apply (Hn a); auto; lia.
    + intros al H z. injection H as <-. rewrite in_map_iff. split.
      * intros (a & <- & Ha). apply filter_In in Ha. rewrite memb_spec, in_seq in Ha. exists a. split; auto. split; [lia|tauto].
      * intros (a & -> & Ha & Hs). exists a. split; auto. apply filter_In. rewrite in_seq. split; [lia|now apply memb_spec].
  - split; [|discriminate]. split; auto. intros _.
    assert (X : ~ (forall s, In s l -> memb s (map symbol (seq 0 natm)) = true)) by (intros H; apply forallb_forall in H; congruence).
    clear E. induction l as [|s l IH]; [exfalso; apply X; intros s []|].
    destruct (memb s (map symbol (seq 0 natm))) eqn:M.
    + destruct IH as (t & Ht & Hn).
      * destruct l; [|discriminate]. exfalso. apply X. intros t [<-|[]]. auto.
      * intros H. apply X. intros t [<-|Ht]; auto.
      * exists t. simpl. auto.
    + exists s. split; [simpl; auto|]. intros a Ha E. assert (memb s (map symbol (seq 0 natm)) = true); [|congruence]. apply memb_spec. apply in_map_iff. exists a. split; auto. apply in_seq. lia.
Qed.

(** Example: three atoms with 2, 1 and 1 orbitals, listed in mixed order. *)
Example atomic_example : let base := [0; 1; 0; 2] in let sym := fun a => match a with 0 => 8 | _ => 1 end in let cols := [10; 20; 30; 40] in
  add_atomic 3 sym base cols (Symbols [1]) None = Ok ([20; 40], [10; 30]) /\ add_atomic 3 sym base cols (Ints [2; 0; 2]%Z) None = Ok ([10; 30; 40], [20])
  /\ add_all 3 sym base cols 3 = Ok [([10; 30], [20; 40]); ([20], [10; 30; 40]); ([40], [10; 20; 30])] /\ add_full 3 sym base cols = Ok (cols, [])
  /\ add_atomic 3 sym base cols (Ints [-1]%Z) None = ValueError /\ add_atomic 3 sym base cols (Symbols [7]) None = ValueError
  /\ add_atomic 3 sym base cols (Ints [0]%Z) (Some [2; 3]) = Ok ([30], [10; 20; 40]).
Proof. repeat split; reflexivity. Qed.

Print Assumptions C41_orbitals. Print Assumptions C41_errors. Print Assumptions C41_partition. Print Assumptions C41_duplicates_refuted.
Print Assumptions C41_atomic. Print Assumptions C41_atomic_partition. Print Assumptions C41_all_atoms. Print Assumptions C41_complete.
Print Assumptions C41_full_system. Print Assumptions C41_symbols.
