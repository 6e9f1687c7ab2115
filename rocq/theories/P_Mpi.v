(** Property C15: MPI reductions. *)
From Coq Require Import List Arith Bool Lia.
From Verif Require Import Alg M_Mpi.
Import ListNotations.

Section Mpi.
Context {K : cring}.
Add Ring Kr : (rth K).
Open Scope K_scope.

(** ** Specification *)

(** The serial result: all contributing fragments without parent, wherever they are stored. *)
Definition serial (frags : list (frag K)) : K :=
  Lsum frags (fun x => if contributes x && negb (has_parent x) then factor x * value x else 0).

(** ** Lemmas *)

Lemma Lsum_filter {A} (p : A -> bool) (l : list A) (f : A -> K) : Lsum (filter p l) f = Lsum l (fun x => if p x then f x else 0).
Proof. induction l as [|a l IH]; simpl; auto. destruct (p a); simpl; rewrite IH; ring. Qed.

Lemma sum_over_ranks P (frags : list (frag K)) : (forall x, In x frags -> (mpi_rank x < P)%nat) ->
  Sum P (fun r => Lsum (filter (fun x => contributes x && negb (has_parent x) && (mpi_rank x =? r)) frags) (fun x => factor x * value x)) = serial frags.
Proof.
  intros H. unfold serial.
  transitivity (Sum P (fun r => Lsum frags (fun x => if contributes x && negb (has_parent x) && (mpi_rank x =? r) then factor x * value x else 0))).
  { apply Sum_ext. intros. apply Lsum_filter. }
  rewrite <- Lsum_Sum.
  apply Lsum_ext. intros x Hx. destruct (contributes x && negb (has_parent x)); cbn [andb].
  - rewrite (Sum_single P (mpi_rank x)).
    + rewrite Nat.eqb_refl. auto.
    + auto.
    + intros i _ Hi. apply Nat.eqb_neq in Hi. rewrite Nat.eqb_sym, Hi. auto.
  - apply Sum_zero.
Qed.

(** ** C15 *)

(** Every rank obtains the serial result, for every assignment of the fragments to the existing ranks. *)
Theorem C15_allreduce : forall P ncell (frags : list (frag K)) r,
  (forall x, In x frags -> (mpi_rank x < P)%nat) -> (r < P)%nat ->
  get_wf_corr_energy P ncell frags r = Some (serial frags * ncell).
Proof.
  intros P ncell frags r H Hr. unfold get_wf_corr_energy, with_allreduce, allreduce, fragment_sum.
  destruct (P <=? 1) eqn:E.
  - apply Nat.leb_le in E. assert (P = 1)%nat by lia. subst P. assert (r = 0)%nat by lia. subst r.
    f_equal. f_equal. rewrite <- (sum_over_ranks 1 frags H). cbn [Sum]. ring.
  - rewrite Sum_mul_r. rewrite sum_over_ranks by auto. auto.
Qed.

Theorem C15_ccsd_energy : forall P ncell e1 (frags : list (frag K)) r,
  (forall x, In x frags -> (mpi_rank x < P)%nat) -> (r < P)%nat ->
  get_ccsd_corr_energy P ncell e1 frags r = Some ((e1 + serial frags) * ncell).
Proof.
  intros P ncell e1 frags r H Hr. unfold get_ccsd_corr_energy, allreduce.
  destruct (P <=? 1) eqn:E.
  - apply Nat.leb_le in E. assert (P = 1)%nat by lia. subst P. assert (r = 0)%nat by lia. subst r.
    do 3 f_equal. rewrite <- (sum_over_ranks 1 frags H). cbn [Sum]. ring.
  - rewrite sum_over_ranks by auto. auto.
Qed.

(** With a target only that rank obtains the sum, the others None; without, every rank does; several values are reduced one by one. *)
Theorem C15_nreduce : forall P (xs : list (nat -> K)) target r,
  nreduce_list P xs target r =
  match target with
  | None => map (fun x => Some (Lsum (seq 0 P) x)) xs
  | Some t => if r =? t then map (fun x => Some (Lsum (seq 0 P) x)) xs else map (fun _ => None) xs
  end.
Proof.
  intros P xs target r. unfold nreduce_list, nreduce, allreduce, reduce.
  destruct target as [t|]; [destruct (r =? t)|]; apply map_ext; intros; auto; rewrite Lsum_seq; auto.
Qed.

(** A quantity computed in full on every rank is multiplied by the number of ranks. *)
Theorem C15_replicated : forall P ncell whole (frags : list (frag K)) r,
  (0 < P)%nat -> get_dm_corr_energy_e2 P ncell true whole frags r = Some (nK P * (whole * ncell)).
Proof.
  intros P ncell whole frags r HP. unfold get_dm_corr_energy_e2, with_allreduce, allreduce. destruct (P <=? 1) eqn:E.
  - apply Nat.leb_le in E. assert (P = 1)%nat by lia. subst P. cbn [nK]. f_equal. ring.
  - rewrite Sum_const. auto.
Qed.
Theorem C15_projected : forall P ncell whole (frags : list (frag K)) r,
  (forall x, In x frags -> (mpi_rank x < P)%nat) -> (r < P)%nat ->
  get_dm_corr_energy_e2 P ncell false whole frags r = Some (serial frags * ncell).
Proof. intros P ncell whole frags r H Hr. apply C15_allreduce; auto. Qed.
End Mpi.

From Coq Require Import ZArith.
Definition ex_frags : list (frag ZK) :=
  [ {| contributes := true; has_parent := false; mpi_rank := 0; factor := (2%Z : ZK); value := (5%Z : ZK) |};
    {| contributes := true; has_parent := true; mpi_rank := 1; factor := (1%Z : ZK); value := (5%Z : ZK) |};
    {| contributes := true; has_parent := false; mpi_rank := 2; factor := (1%Z : ZK); value := (7%Z : ZK) |};
    {| contributes := false; has_parent := false; mpi_rank := 1; factor := (1%Z : ZK); value := (9%Z : ZK) |} ].
Example C15_ex : forall r, r < 3 -> get_wf_corr_energy 3 (1%Z : ZK) ex_frags r = Some 17%Z.
Proof. intros r Hr. reflexivity. Qed.
Example C15_ex_hyp : forall x, In x ex_frags -> mpi_rank x < 3.
Proof. intros x [<-|[<-|[<-|[<-|[]]]]]; simpl; lia. Qed.

(** Finding: the "global-wf" energy is wrong with more than one rank. *)
Theorem C15_global_wf_refuted : exists P (whole : ZK), get_dm_corr_energy_e2 P (1%Z : ZK) true whole [] 0 <> Some whole.
Proof. exists 2, 3%Z. vm_compute. discriminate. Qed.

Print Assumptions C15_allreduce.
Print Assumptions C15_ccsd_energy.
Print Assumptions C15_nreduce.
Print Assumptions C15_replicated.
Print Assumptions C15_projected.
Print Assumptions C15_global_wf_refuted.
