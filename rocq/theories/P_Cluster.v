(** Property C25: active and frozen index lists of a cluster are complementary. *)
From Coq Require Import List ZArith QArith Bool Permutation Lia.
From Verif Require Import M_Cluster.
Import ListNotations.

(** ** Specification *)

(** The columns of [c] selected by a list of (non-negative, in range) indices, in order. *)
Definition pick {A} (c : list A) (idx : list Z) (r : list A) : Prop :=
  Forall2 (fun i x => (0 <= i)%Z /\ nth_error c (Z.to_nat i) = Some x) idx r.

(** What a user expects of the two index lists and the slice of a cluster whose orbitals are, in the
    concatenated order, frozen occupied [fo], active occupied [ao], active virtual [av], frozen virtual [fv]. *)
Definition indices_ok {A} (total : list A) (act fro : list Z) (ao av fo fv : list A) : Prop :=
  total = fo ++ ao ++ av ++ fv
  /\ pick total act (ao ++ av)
  /\ pick total fro (fo ++ fv)
  /\ Permutation (act ++ fro) (map Z.of_nat (seq 0 (length total)))
  /\ NoDup (act ++ fro)
  /\ (forall i, In i act -> ~ In i fro).

(** ** Lemmas *)

Lemma pyrange_nat a b : pyrange (Z.of_nat a) (Z.of_nat b) = map Z.of_nat (seq a (b - a)).
Proof.
  unfold pyrange. replace (Z.to_nat (Z.of_nat b - Z.of_nat a)) with (b - a)%nat by lia.
  transitivity (map Z.of_nat (map (fun k => (a + k)%nat) (seq 0 (b - a)))).
  { rewrite map_map. apply map_ext. intros. lia. }
  f_equal. remember (b - a)%nat as n. clear. generalize (eq_refl (a + 0)%nat).
  assert (G : forall n k, map (fun j => (a + j)%nat) (seq k n) = seq (a + k) n).
  { induction n0; intros; simpl; auto. f_equal. rewrite IHn0. f_equal. lia. }
  intros _. rewrite G. f_equal. lia.
Qed.

Lemma filter_repeat {A} (f : A -> bool) x n : filter f (repeat x n) = if f x then repeat x n else [].
Proof. induction n; simpl; [destruct (f x); auto|]. rewrite IHn. destruct (f x); auto. Qed.

Lemma filter_app' {A} (f : A -> bool) l l' : filter f (l ++ l') = filter f l ++ filter f l'.
Proof. induction l; simpl; auto. destruct (f a); simpl; rewrite IHl; auto. Qed.

Lemma Qpos_bool m : (0 < m)%Q -> Qle_bool m 0 = false /\ Qeq_bool m 0 = false.
Proof.
  intros H. split.
  - destruct (Qle_bool m 0) eqn:E; auto. apply Qle_bool_iff in E. exfalso. apply (Qlt_not_le _ _ H E).
  - destruct (Qeq_bool m 0) eqn:E; auto. apply Qeq_bool_iff in E. rewrite E in H. discriminate H.
Qed.

Lemma nocc_int {A} (c : list A) n m : (0 < m)%Q -> (n <= length c)%nat -> nocc (orbitals_int c n m) = n.
Proof.
  intros Hm Hn. unfold nocc, orbitals_int. simpl. rewrite filter_app', !filter_repeat.
  destruct (Qpos_bool m Hm) as [-> _]. cbn. rewrite app_nil_r. apply repeat_length.
Qed.

Lemma nvir_int {A} (c : list A) n m : (0 < m)%Q -> (n <= length c)%nat ->
  nvir (orbitals_int c n m) = (length c - n)%nat.
Proof.
  intros Hm Hn. unfold nvir, orbitals_int. simpl. rewrite filter_app', !filter_repeat.
  destruct (Qpos_bool m Hm) as [_ ->]. cbn. apply repeat_length.
Qed.

Lemma pick_seq {A} (pre mid post : list A) :
  pick (pre ++ mid ++ post) (map Z.of_nat (seq (length pre) (length mid))) mid.
Proof.
  unfold pick. revert pre. induction mid as [|x mid IH]; intros pre; simpl; constructor.
  - split; [lia|]. rewrite Nat2Z.id. rewrite nth_error_app2 by lia. rewrite Nat.sub_diag. reflexivity.
  - specialize (IH (pre ++ [x])). rewrite app_length in IH. simpl in IH.
    rewrite Nat.add_1_r in IH. rewrite <- app_assoc in IH. exact IH.
Qed.

Lemma firstn_app_exact {A} (l l' : list A) : firstn (length l) (l ++ l') = l.
Proof. induction l; simpl; auto. f_equal; auto. Qed.

Lemma skipn_app_exact {A} (l l' : list A) : skipn (length l) (l ++ l') = l'.
Proof. induction l; simpl; auto. Qed.

Lemma seq_perm a b c :
  Permutation (seq a b ++ seq 0 a ++ seq (a + b) c) (seq 0 (a + b + c)).
Proof.
  rewrite (seq_app (a + b) c 0), (seq_app a b 0). simpl.
  rewrite app_assoc. apply Permutation_app_tail. apply Permutation_app_comm.
Qed.

Lemma indices_core {A} (ao av fo fv : list A) (m : Q) : (0 < m)%Q ->
  let c := from_coeffs ao av fo fv m in
  nocc_frozen c = length fo /\ nvir_frozen c = length fv /\ norb_active c = (length ao + length av)%nat
  /\ norb_total c = (length ao + length av + (length fo + length fv))%nat
  /\ c_total c = fo ++ ao ++ av ++ fv.
Proof.
  intros Hm c. subst c.
  assert (Ha : nocc (orbitals_int (ao ++ av) (length ao) m) = length ao) by (apply nocc_int; auto; rewrite app_length; lia).
  assert (Hf : nocc (orbitals_int (fo ++ fv) (length fo) m) = length fo) by (apply nocc_int; auto; rewrite app_length; lia).
  repeat split.
  - exact Hf.
  - unfold nvir_frozen, from_coeffs. cbn [frozen]. rewrite nvir_int; auto; rewrite app_length; lia.
  - unfold norb_active, norb; simpl; apply app_length.
  - unfold norb_total, norb. simpl. now rewrite !app_length.
  - unfold c_total, c_total_occ, c_total_vir, coeff_occ, coeff_vir. cbn [active frozen from_coeffs].
    rewrite Ha, Hf. cbn [coeff orbitals_int]. rewrite !firstn_app_exact, !skipn_app_exact.
    rewrite <- app_assoc. reflexivity.
Qed.

(** ** Theorems *)

(** Restricted clusters: complementary index lists, selecting the right orbitals, for all numbers of orbitals
    and every positive maximal occupation. *)
Theorem C25_restricted : forall (A : Type) (ao av fo fv : list A) (m : Q), (0 < m)%Q ->
  let c := from_coeffs ao av fo fv m in
  indices_ok (c_total c) (get_active_indices c) (get_frozen_indices c) ao av fo fv.
Proof.
  intros A ao av fo fv m Hm c. destruct (indices_core ao av fo fv m Hm) as (H1 & H2 & H3 & H4 & H5). fold c in H1, H2, H3, H4, H5.
  assert (Ea : get_active_indices c = map Z.of_nat (seq (length fo) (length ao + length av))).
  { unfold get_active_indices. rewrite H1, H3, pyrange_nat. f_equal. f_equal. lia. }
  assert (Ef : get_frozen_indices c
    = map Z.of_nat (seq 0 (length fo)) ++ map Z.of_nat (seq (length fo + (length ao + length av)) (length fv))).
  { unfold get_frozen_indices. rewrite H1, H2, H4. f_equal.
    - change 0%Z with (Z.of_nat 0). rewrite pyrange_nat. f_equal. f_equal. lia.
    - rewrite <- Nat2Z.inj_sub by lia. rewrite pyrange_nat. f_equal. f_equal; lia. }
  assert (P : Permutation (get_active_indices c ++ get_frozen_indices c)
                (map Z.of_nat (seq 0 (length (c_total c))))).
  { rewrite Ea, Ef, H5, !app_length, <- !map_app. apply Permutation_map.
    replace (length fo + (length ao + (length av + length fv)))%nat
      with (length fo + (length ao + length av) + length fv)%nat by lia.
    apply seq_perm. }
  assert (N : NoDup (get_active_indices c ++ get_frozen_indices c)).
  { eapply Permutation_NoDup; [apply Permutation_sym; exact P|].
    apply FinFun.Injective_map_NoDup; [intros x y; lia|apply seq_NoDup]. }
  repeat split; auto.
  - rewrite H5, Ea. rewrite app_assoc with (l := ao), <- app_length. apply pick_seq.
  - rewrite H5, Ef. unfold pick. apply Forall2_app.
    + exact (pick_seq [] fo (ao ++ av ++ fv)).
    + pose proof (pick_seq (fo ++ ao ++ av) fv []) as Hp. rewrite !app_length, app_nil_r in Hp.
      rewrite <- !app_assoc in Hp. exact Hp.
  - intros i Hi Hf.
    apply in_split in Hi. destruct Hi as (l1 & l2 & E). rewrite E in N.
    rewrite <- app_assoc in N. simpl in N. apply NoDup_remove_2 in N. apply N.
    rewrite !in_app_iff. auto.
Qed.

(** The slice contains exactly the active orbitals, in the order of the index list. *)
Theorem C25_slice : forall (A : Type) (ao av fo fv : list A) (m : Q), (0 < m)%Q ->
  let c := from_coeffs ao av fo fv m in
  firstn (snd (get_active_slice c) - fst (get_active_slice c)) (skipn (fst (get_active_slice c)) (c_total c))
  = ao ++ av.
Proof.
  intros A ao av fo fv m Hm c. destruct (indices_core ao av fo fv m Hm) as (H1 & H2 & H3 & H4 & H5). fold c in H1, H2, H3, H4, H5.
  unfold get_active_slice. cbn [fst snd]. rewrite H1, H3, H5, skipn_app_exact.
  replace (length fo + (length ao + length av) - length fo)%nat with (length (ao ++ av)) by (rewrite app_length; lia).
  rewrite app_assoc. apply firstn_app_exact.
Qed.

(** The total numbers of orbitals *)
Theorem C25_totals : forall (A : Type) (ao av fo fv : list A) (m : Q), (0 < m)%Q ->
  let c := from_coeffs ao av fo fv m in
  nocc_total c = (length ao + length fo)%nat /\ nvir_total c = (length av + length fv)%nat /\ norb_total c = (nocc_total c + nvir_total c)%nat
  /\ norb_total c = length (c_total c) /\ c_total_occ c = fo ++ ao /\ c_total_vir c = av ++ fv.
Proof.
  intros A ao av fo fv m Hm c. destruct (indices_core ao av fo fv m Hm) as (H1 & H2 & H3 & H4 & H5). fold c in H1, H2, H3, H4, H5.
  assert (O : nocc_total c = (length ao + length fo)%nat) by (unfold nocc_total; subst c; unfold from_coeffs; cbn [active frozen]; now rewrite !nocc_int by (auto; rewrite app_length; lia)).
  assert (V : nvir_total c = (length av + length fv)%nat) by (unfold nvir_total; subst c; unfold from_coeffs; cbn [active frozen]; rewrite !nvir_int by (auto; rewrite app_length; lia); rewrite !app_length; lia).
  assert (T : norb_total c = length (c_total c)) by (rewrite H5, !app_length; unfold norb_total, norb; subst c; unfold from_coeffs, orbitals_int; cbn [active frozen coeff]; rewrite !app_length; lia).
  split; [exact O|]. split; [exact V|]. split; [|split; [exact T|split]].
  - rewrite T, H5, O, V, !app_length. lia.
  - unfold c_total_occ, coeff_occ. subst c. unfold from_coeffs. cbn [active frozen]. rewrite !nocc_int by (auto; rewrite app_length; lia). unfold orbitals_int. cbn [coeff]. now rewrite !firstn_app_exact.
  - unfold c_total_vir, coeff_vir. subst c. unfold from_coeffs. cbn [active frozen]. rewrite !nocc_int by (auto; rewrite app_length; lia). unfold orbitals_int. cbn [coeff]. now rewrite !skipn_app_exact.
Qed.

(** Unrestricted clusters: both spin channels separately. *)
Theorem C25_unrestricted : forall (A : Type) (ao av fo fv : list A * list A),
  let c := from_coeffs_uhf ao av fo fv in
  indices_ok (c_total (fst c)) (fst (get_active_indices_uhf c)) (fst (get_frozen_indices_uhf c))
    (fst ao) (fst av) (fst fo) (fst fv)
  /\ indices_ok (c_total (snd c)) (snd (get_active_indices_uhf c)) (snd (get_frozen_indices_uhf c))
    (snd ao) (snd av) (snd fo) (snd fv).
Proof.
  intros. split; apply C25_restricted; reflexivity.
Qed.

(** A column-wise basis transformation leaves the index lists alone and transforms the selected orbitals. *)
Theorem C25_basis_transform : forall (A : Type) (ao av fo fv : list A) (m : Q) (f : A -> A), (0 < m)%Q ->
  let c := cluster_transform (map f) (from_coeffs ao av fo fv m) in
  indices_ok (c_total c) (get_active_indices c) (get_frozen_indices c) (map f ao) (map f av) (map f fo) (map f fv).
Proof.
  intros A ao av fo fv m f Hm c.
  replace c with (from_coeffs (map f ao) (map f av) (map f fo) (map f fv) m).
  - apply C25_restricted; auto.
  - subst c. unfold from_coeffs, cluster_transform, basis_transform, orbitals_int. simpl.
    rewrite !map_app, !app_length, !map_length. reflexivity.
Qed.

(** Orbitals objects may be given any occupations; the statement then fails: an occupation slightly below
    zero counts neither as occupied nor as virtual, and the last orbital is in neither index list. *)
Theorem C25_any_occupations_refuted :
  exists c : cluster nat, exists i : Z,
    (0 <= i < Z.of_nat (norb_total c))%Z /\ ~ In i (get_active_indices c ++ get_frozen_indices c).
Proof.
  exists {| active := orbitals_int [10; 11]%nat 1 2; frozen := {| coeff := [20; 21]%nat; occ := [2; -1 # 100] |} |}, 3%Z.
  split; [cbn; lia|]. vm_compute. intuition discriminate.
Qed.

(** A case with all four groups non-empty. *)
Example ex_cluster :
  let c := from_coeffs [30; 31]%nat [40; 41; 42]%nat [10; 11]%nat [50]%nat 2%Q in
  get_active_indices c = [2; 3; 4; 5; 6]%Z /\ get_frozen_indices c = [0; 1; 7]%Z
  /\ c_total c = [10; 11; 30; 31; 40; 41; 42; 50]%nat /\ nocc_total c = 4%nat /\ nvir_total c = 4%nat.
Proof. vm_compute. repeat split; reflexivity. Qed.

Print Assumptions C25_restricted.
Print Assumptions C25_slice.
Print Assumptions C25_totals.
Print Assumptions C25_unrestricted.
Print Assumptions C25_basis_transform.
Print Assumptions C25_any_occupations_refuted.
