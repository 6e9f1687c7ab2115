(** Property C24: the DMET bath construction splits the environment completely. *)
From Coq Require Import List ZArith QArith Bool Lia Lqa Permutation Sorting.Sorted.
From Verif Require Import M_DmetBath.
Import ListNotations.

(** ** Specification *)

(** The class an eigenvalue belongs to: entangled with the fragment, (nearly) filled or (nearly) empty. *)
Inductive kind := Entangled | Filled | Empty.
Definition in_kind (tol e : Q) (k : kind) : Prop :=
  match k with Entangled => tol <= e <= 1 - tol | Filled => 1 - tol < e | Empty => e < tol end.

(** Eigenvectors (with their signs fixed) of one class, in the order of decreasing eigenvalue if [pairs]
    is increasing: [l] contains exactly those of [rev pairs] in class [k]. *)
Inductive picked {A} (tol : Q) (f : A -> A) (k : kind) : list (Q * A) -> list A -> Prop :=
| picked_nil : picked tol f k [] []
| picked_in e v l r : in_kind tol e k -> picked tol f k l r -> picked tol f k ((e, v) :: l) (f v :: r)
| picked_out e v l r : ~ in_kind tol e k -> picked tol f k l r -> picked tol f k ((e, v) :: l) r.

(** ** Lemmas *)

Lemma Qle_bool_false x y : Qle_bool x y = false <-> y < x.
Proof.
  split; intros H.
  - destruct (Qlt_le_dec y x); auto. apply Qle_bool_iff in q. congruence.
  - destruct (Qle_bool x y) eqn:E; auto. apply Qle_bool_iff in E. lra.
Qed.

Lemma mask_bath_iff tol e : mask_bath tol e = true <-> in_kind tol e Entangled.
Proof. unfold mask_bath. rewrite andb_true_iff, !Qle_bool_iff. reflexivity. Qed.

Lemma mask_occ_iff tol e : mask_occenv tol e = true <-> in_kind tol e Filled.
Proof. unfold mask_occenv. rewrite negb_true_iff, Qle_bool_false. reflexivity. Qed.

Lemma mask_vir_iff tol e : mask_virenv tol e = true <-> in_kind tol e Empty.
Proof. unfold mask_virenv. rewrite negb_true_iff, Qle_bool_false. reflexivity. Qed.

Lemma picked_filter {A} tol (f : A -> A) k m (l : list (Q * A)) :
  (forall e, m e = true <-> in_kind tol e k) ->
  picked tol f k l (select m (map (fun p => (fst p, f (snd p))) l)).
Proof.
  intros Hm. induction l as [|[e v] l IH]; simpl; [constructor|].
  unfold select in *. simpl. destruct (m e) eqn:E; simpl.
  - constructor; auto. now apply Hm.
  - constructor; auto. rewrite <- Hm. congruence.
Qed.

(** Number of eigenvalues counted twice. *)
Definition twice tol e : bool := mask_occenv tol e && mask_virenv tol e.

Lemma one_kind tol e : mask_bath tol e = false -> mask_occenv tol e = false -> mask_virenv tol e = false -> False.
Proof.
  unfold mask_bath, mask_occenv, mask_virenv. destruct (Qle_bool tol e), (Qle_bool e (1 - tol)); simpl; discriminate.
Qed.

Lemma counts {A} tol (l : list (Q * A)) :
  (count (mask_bath tol) l + count (mask_occenv tol) l + count (mask_virenv tol) l
   = length l + count (twice tol) l)%nat.
Proof.
  unfold count. induction l as [|[e v] l IH]; cbn [filter length fst snd]; auto.
  pose proof (one_kind tol e).
  assert (mask_bath tol e = true -> mask_occenv tol e = false /\ mask_virenv tol e = false).
  { unfold mask_bath, mask_occenv, mask_virenv. destruct (Qle_bool tol e), (Qle_bool e (1 - tol)); simpl; auto; discriminate. }
  unfold twice in *.
  destruct (mask_bath tol e); [destruct H0 as [-> ->]; auto; simpl; lia|].
  destruct (mask_occenv tol e), (mask_virenv tol e); simpl; try lia; exfalso; auto.
Qed.

Lemma count_0 {A} f (l : list (Q * A)) : count f l = 0%nat <-> forall e v, In (e, v) l -> f e = false.
Proof.
  unfold count. induction l as [|[e v] l IH]; simpl; [tauto|]. destruct (f e) eqn:E; simpl.
  - split; [discriminate|]. intros H. rewrite (H e v) in E by auto. discriminate.
  - rewrite IH. split; intros H e' v'.
    + intros [G|G]; [injection G as <- <-; auto|eauto].
    + intros G. eapply H. eauto.
Qed.

Lemma disjoint_perm {A} (f g h : Q -> bool) (l : list (Q * A)) :
  (forall e v, In (e, v) l -> (f e = true /\ g e = false /\ h e = false) \/ (f e = false /\ g e = true /\ h e = false)
     \/ (f e = false /\ g e = false /\ h e = true)) ->
  Permutation (select f l ++ select g l ++ select h l) (map snd l).
Proof.
  unfold select. induction l as [|[e v] l IH]; intros H; simpl; [constructor|].
  assert (IH' : Permutation (map snd (filter (fun p => f (fst p)) l) ++ map snd (filter (fun p => g (fst p)) l)
                             ++ map snd (filter (fun p => h (fst p)) l)) (map snd l)).
  { apply IH. intros e' v' Hi. eapply H. right; eauto. }
  destruct (H e v (or_introl eq_refl)) as [(-> & -> & ->)|[(-> & -> & ->)|(-> & -> & ->)]]; simpl.
  - constructor. auto.
  - apply Permutation_sym. apply Permutation_cons_app. apply Permutation_sym; auto.
  - rewrite app_assoc. apply Permutation_sym. apply Permutation_cons_app. rewrite <- app_assoc. apply Permutation_sym; auto.
Qed.

(** ** Theorems *)

(** When the routine returns, every eigenvector is used exactly once: the three groups together are a
    permutation of all eigenvectors (signs fixed), and each group is the list of the eigenvectors of its class,
    in the order of [rev pairs]; n_dmet are the eigenvalues of the bath orbitals. *)
Theorem C24_split : forall (A : Type) tol (f : A -> A) pairs b,
  make_dmet_bath tol f pairs = Some b ->
  Permutation (c_bath b ++ c_occenv b ++ c_virenv b) (map (fun p => f (snd p)) pairs)
  /\ picked tol f Entangled (rev pairs) (c_bath b)
  /\ picked tol f Filled (rev pairs) (c_occenv b)
  /\ picked tol f Empty (rev pairs) (c_virenv b)
  /\ length (n_dmet b) = length (c_bath b)
  /\ Forall (fun e => tol <= e <= 1 - tol) (n_dmet b).
Proof.
  intros A tol f pairs b H. destruct pairs as [|p0 ps] eqn:E.
  { injection H as <-. simpl. repeat split; try constructor. }
  rewrite <- E in *. unfold make_dmet_bath in H. rewrite E in H. rewrite <- E in H.
  set (env := map (fun p => (fst p, f (snd p))) (rev pairs)) in *.
  destruct (Nat.eqb _ _) eqn:C in H; [|discriminate]. injection H as <-. simpl.
  apply Nat.eqb_eq in C. rewrite counts in C. assert (C0 : count (twice tol) env = 0%nat) by lia.
  rewrite count_0 in C0.
  split; [|split; [|split; [|split; [|split]]]].
  - transitivity (map snd env).
    + apply disjoint_perm. intros e v Hi. specialize (C0 e v Hi). pose proof (one_kind tol e).
      unfold twice, mask_bath, mask_occenv, mask_virenv in *.
      destruct (Qle_bool tol e), (Qle_bool e (1 - tol)); simpl in *; try discriminate; auto 10.
    + unfold env. rewrite map_map. simpl. apply Permutation_map. apply Permutation_sym, Permutation_rev.
  - apply picked_filter, mask_bath_iff.
  - apply picked_filter, mask_occ_iff.
  - apply picked_filter, mask_vir_iff.
  - unfold select. rewrite !map_length. reflexivity.
  - apply Forall_forall. intros e He. apply in_map_iff in He. destruct He as ([e' v] & <- & Hf).
    apply filter_In in Hf. destruct Hf as [_ Hf]. now apply mask_bath_iff in Hf.
Qed.

(** The consistency check of the routine fails exactly when an eigenvalue lies strictly between 1 - tol and
    tol; in particular never for a tolerance of at most 1/2. *)
Theorem C24_check : forall (A : Type) tol (f : A -> A) pairs,
  make_dmet_bath tol f pairs = None <-> exists e v, In (e, v) pairs /\ 1 - tol < e < tol.
Proof.
  intros A tol f pairs. destruct pairs as [|p0 ps] eqn:E.
  { simpl. split; [discriminate|]. intros (e & v & [] & _). }
  rewrite <- E. unfold make_dmet_bath. rewrite E. rewrite <- E.
  set (env := map (fun p => (fst p, f (snd p))) (rev pairs)).
  assert (G : count (twice tol) env = 0%nat <-> ~ exists e v, In (e, v) pairs /\ 1 - tol < e < tol).
  { rewrite count_0. split.
    - intros H (e & v & Hi & Ht). specialize (H e (f v)).
      assert (In (e, f v) env).
      { unfold env. apply in_map_iff. exists (e, v). split; auto. apply in_rev. now rewrite rev_involutive. }
      specialize (H H0). unfold twice in H. apply andb_false_iff in H.
      destruct H as [H|H].
      + destruct (mask_occ_iff tol e) as [_ X]. simpl in X. rewrite X in H by lra. discriminate.
      + destruct (mask_vir_iff tol e) as [_ X]. simpl in X. rewrite X in H by lra. discriminate.
    - intros H e v Hi. destruct (twice tol e) eqn:T; auto. exfalso. apply H.
      unfold env in Hi. apply in_map_iff in Hi. destruct Hi as ([e' v'] & Q & Hi). simpl in Q. injection Q as -> <-.
      apply in_rev in Hi. apply andb_true_iff in T. destruct T as [T1 T2].
      apply mask_occ_iff in T1. apply mask_vir_iff in T2. simpl in *. eauto. }
  rewrite counts.
  destruct (Nat.eqb _ _) eqn:C.
  - apply Nat.eqb_eq in C. split; [discriminate|]. intros H. exfalso. apply G; auto. lia.
  - apply Nat.eqb_neq in C. split; auto. intros _.
    assert (D : {exists e v, In (e, v) pairs /\ 1 - tol < e < tol} + {~ exists e v, In (e, v) pairs /\ 1 - tol < e < tol}).
    { clear. induction pairs as [|[e v] l IH].
      - right. intros (e & v & [] & _).
      - destruct IH as [IH|IH]; [left; destruct IH as (e' & v' & H1 & H2); exists e', v'; simpl; auto|].
        destruct (Qlt_le_dec (1 - tol) e); [destruct (Qlt_le_dec e tol)|].
        + left. exists e, v. simpl. auto.
        + right. intros (e' & v' & [H|H] & H2); [injection H as <- <-; lra|apply IH; eauto].
        + right. intros (e' & v' & [H|H] & H2); [injection H as <- <-; lra|apply IH; eauto]. }
    destruct D; auto. exfalso. apply C. apply G in n. lia.
Qed.

Theorem C24_half : forall (A : Type) tol (f : A -> A) pairs, tol <= 1 # 2 ->
  exists b, make_dmet_bath tol f pairs = Some b.
Proof.
  intros A tol f pairs Ht. destruct (make_dmet_bath tol f pairs) eqn:E; eauto.
  apply C24_check in E. destruct E as (e & v & _ & H). lra.
Qed.

(** Unrestricted: both spin channels. *)
Theorem C24_unrestricted : forall (A : Type) tol (f : A -> A) pa pb ba bb,
  make_dmet_bath_uhf tol f pa pb = Some (ba, bb) ->
  make_dmet_bath tol f pa = Some ba /\ make_dmet_bath tol f pb = Some bb.
Proof.
  intros A tol f pa pb ba bb H. unfold make_dmet_bath_uhf in H.
  destruct (make_dmet_bath tol f pa); [|discriminate]. destruct (make_dmet_bath tol f pb); [|discriminate].
  injection H as <- <-. auto.
Qed.

(** Diagonalisation of the cluster density matrix: no orbital is lost; for eigenvalues in increasing order (as
    eigh returns them) the occupied orbitals are exactly those with eigenvalue of at least norm/2. *)
Theorem C24_cluster : forall (A : Type) norm (f : A -> A) pairs o v,
  diagonalize_cluster_dm norm f pairs = (o, v) ->
  StronglySorted (fun p q => fst p <= fst q) pairs ->
  Permutation (o ++ v) (map (fun p => f (snd p)) pairs)
  /\ Forall2 (fun p c => norm / 2 <= fst p /\ c = f (snd p)) (firstn (length o) (rev pairs)) o
  /\ Forall2 (fun p c => fst p < norm / 2 /\ c = f (snd p)) (skipn (length o) (rev pairs)) v.
Proof.
  intros A norm f pairs o v H Hs. unfold diagonalize_cluster_dm in H. injection H as <- <-.
  rewrite firstn_skipn. split.
  { rewrite map_rev. apply Permutation_sym, Permutation_rev. }
  assert (Hr : StronglySorted (fun p q : Q * A => fst q <= fst p) (rev pairs)).
  { clear - Hs. induction Hs as [|p l Hl IH Hp]; simpl; [constructor|].
    revert IH Hp. rewrite <- (rev_involutive l) at 2. set (r := rev l). clearbody r. clear.
    induction r as [|q r IH]; intros Hs Hp; simpl; [repeat constructor|].
    inversion Hs as [|? ? H1 H2]; subst. simpl in Hp. apply Forall_app in Hp. destruct Hp as [Hp1 Hp2].
    constructor; [apply IH; auto|]. apply Forall_app. split; auto.
    inversion Hp2; subst. constructor; auto. }
  set (l := rev pairs) in *. clearbody l. clear Hs pairs.
  assert (N : (length (filter (fun p : Q * A => Qle_bool (norm / 2) (fst p)) l) <= length l)%nat).
  { clear. induction l as [|p l IH]; simpl; auto. destruct (Qle_bool _ _); simpl; lia. }
  rewrite firstn_length, map_length, Nat.min_l by auto.
  clear N. induction Hr as [|p l Hl IH Hp]; simpl; [split; constructor|].
  destruct (Qle_bool (norm / 2) (fst p)) eqn:E; simpl.
  - apply Qle_bool_iff in E. destruct IH. split; auto.
  - apply Qle_bool_false in E.
    assert (F : Forall (fun q : Q * A => fst q < norm / 2) l).
    { eapply Forall_impl; [|exact Hp]. cbv beta. intros a Ha. lra. }
    assert (Z0 : filter (fun p : Q * A => Qle_bool (norm / 2) (fst p)) l = []).
    { clear - F. induction F; simpl; auto. apply Qle_bool_false in H. now rewrite H. }
    rewrite Z0. simpl. split; constructor; auto.
    clear - F. induction F; simpl; constructor; auto.
Qed.

(** Five environment eigenvectors, tolerance 1/100. *)
Example ex_bath :
  make_dmet_bath (1#100) (fun n => (n + 100)%nat) [(0, 1%nat); (1#1000, 2%nat); (1#3, 3%nat); (99#100, 4%nat); (1, 5%nat)]
  = Some {| c_bath := [104; 103]%nat; n_dmet := [99#100; 1#3]; c_occenv := [105]%nat; c_virenv := [102; 101]%nat |}.
Proof. reflexivity. Qed.

(** A tolerance above 1/2 with an eigenvalue in the forbidden window. *)
Example ex_bath_fail : make_dmet_bath (6#10) (fun n : nat => n) [(0, 1%nat); (1#2, 2%nat); (1, 3%nat)] = None.
Proof. reflexivity. Qed.

Example ex_cluster_dm : diagonalize_cluster_dm 2 (fun n : nat => n) [(0, 1%nat); (1#10, 2%nat); (2, 3%nat)]
  = ([3], [2; 1])%nat
  /\ StronglySorted (fun p q : Q * nat => fst p <= fst q) [(0, 1%nat); (1#10, 2%nat); (2, 3%nat)].
Proof. split; [reflexivity|]. repeat constructor; discriminate. Qed.

Print Assumptions C24_split.
Print Assumptions C24_check.
Print Assumptions C24_half.
Print Assumptions C24_unrestricted.
Print Assumptions C24_cluster.
