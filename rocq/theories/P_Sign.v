(** Property C08: orbital sign convention. *)
From Coq Require Import List Arith Bool Lia Ring ZArith.
From Verif Require Import Alg Ord M_Sign.
Import ListNotations.

Section P.
Context (K : oring).
Add Ring Kr : (rth K).
Open Scope K_scope.

(** ** Specification *)

(** Row [k] has the largest absolute value in column [c] (of [n] rows), and is the first such row. *)
Definition first_largest (c : nat -> K) (n k : nat) : Prop :=
  (k < n)%nat /\ (forall i, (i < n)%nat -> le (absK (c i)) (absK (c k)))
  /\ (forall i, (i < k)%nat -> lt (absK (c i)) (absK (c k))).

(** ** Lemmas *)

Lemma argmax_from_spec c n : forall i best,
  (best < i)%nat -> first_largest c i best -> first_largest c (i + n) (argmax_from c best i n).
Proof.
  induction n; intros i best Hb H; simpl.
  - rewrite Nat.add_0_r. auto.
  - replace (i + S n)%nat with (S i + n)%nat by lia. apply IHn.
    + destruct (ltb (absK (c best)) (absK (c i))); lia.
    + destruct H as (H1 & H2 & H3). destruct (ltb (absK (c best)) (absK (c i))) eqn:E.
      * split; [lia|]. split.
        -- intros j Hj. destruct (Nat.eq_dec j i); [subst; apply le_refl|].
           eapply le_tr; [apply H2; lia|]. apply lt_le, E.
        -- intros j Hj. destruct (le_lt_eq (absK (c j)) (absK (c best))) as [L _].
           specialize (L (H2 j ltac:(lia))). destruct L as [L|L]; [eapply lt_tr; eauto|rewrite L; auto].
      * split; [lia|]. split; auto. intros j Hj. destruct (Nat.eq_dec j i); [|apply H2; lia].
        subst. apply le_nlt. unfold lt. congruence.
Qed.

Lemma argmax_spec c n : (0 < n)%nat -> exists k, argmax c n = Some k /\ first_largest c n k.
Proof.
  destruct n; [lia|]. intros _. exists (argmax_from c 0 1 n). split; auto.
  apply (argmax_from_spec c n 1 0); [lia|]. split; [lia|]. split; intros; [|lia].
  replace i with 0%nat by lia. apply le_refl.
Qed.

Lemma first_largest_unique c n k l : first_largest c n k -> first_largest c n l -> k = l.
Proof.
  intros (H1 & H2 & H3) (G1 & G2 & G3). destruct (lt_eq_lt_dec k l) as [[H|H]|H]; auto.
  - specialize (G3 k H). specialize (H2 l G1). apply le_nlt in H2. contradiction.
  - specialize (H3 l H). specialize (G2 k H1). apply le_nlt in G2. contradiction.
Qed.

Lemma first_largest_abs c d n k : (forall i, (i < n)%nat -> absK (c i) = absK (d i)) ->
  first_largest c n k -> first_largest d n k.
Proof.
  intros E (H1 & H2 & H3). split; auto. split; intros i Hi; rewrite <- !E by lia; auto.
Qed.

Lemma swap_spec (mo : nat -> nat -> K) nao j k : first_largest (fun i => mo i j) nao k -> swap mo nao j = ltb (mo k j) 0.
Proof.
  intros H. unfold swap. destruct (argmax_spec (fun i => mo i j) nao) as (l & -> & G).
  - destruct H; lia.
  - rewrite (first_largest_unique _ _ _ _ H G). reflexivity.
Qed.

Lemma sign_col (mo : nat -> nat -> K) nao nmo mo' s j : fix_orbital_sign nao nmo mo = Some (mo', s) ->
  (0 < nao)%nat /\ s j = (if swap mo nao j then - (1) else 1) /\ forall i, mo' i j = mo i j * s j.
Proof.
  unfold fix_orbital_sign. destruct nao; [discriminate|]. intros H. injection H as <- <-.
  split; [lia|]. split; auto. intros i. destruct (swap mo (S nao) j); ring.
Qed.

(** ** Theorems *)

(** Defined for every matrix with at least one row. *)
Theorem C08_total : forall nao nmo (mo : nat -> nat -> K), (0 < nao)%nat ->
  exists mo' s, fix_orbital_sign nao nmo mo = Some (mo', s).
Proof. intros [|n] nmo mo H; [lia|]. simpl. eauto. Qed.

(** Each column is multiplied by the returned sign, the sign is +1 or -1, and the first entry of largest
    magnitude becomes non-negative (hence the largest entry of the new column is itself a maximum of the
    absolute values). *)
Theorem C08_signs : forall nao nmo (mo mo' : nat -> nat -> K) s,
  fix_orbital_sign nao nmo mo = Some (mo', s) -> forall j, (j < nmo)%nat ->
  (s j = 1 \/ s j = - (1))
  /\ (forall i, (i < nao)%nat -> mo' i j = mo i j * s j)
  /\ (forall k, first_largest (fun i => mo' i j) nao k -> le 0 (mo' k j))
  /\ (forall k, first_largest (fun i => mo i j) nao k -> le 0 (mo' k j))
  /\ (exists k, first_largest (fun i => mo' i j) nao k).
Proof.
  intros nao nmo mo mo' s H j Hj. destruct (sign_col _ _ _ _ _ j H) as (Hn & Hs & Hm).
  assert (A : forall i, absK (mo' i j) = absK (mo i j)).
  { intros i. rewrite Hm, Hs. destruct (swap mo nao j).
    - replace (mo i j * - (1)) with (- mo i j) by ring. apply absK_opp.
    - f_equal. ring. }
  assert (P : forall k, first_largest (fun i => mo i j) nao k -> le 0 (mo' k j)).
  { intros k Hk. rewrite Hm, Hs, (swap_spec mo nao j k Hk). destruct (ltb (mo k j) 0) eqn:E.
    - replace (mo k j * - (1)) with (- mo k j) by ring. apply lt_le, lt0_opp, E.
    - apply le_nlt. replace (mo k j * 1) with (mo k j) by ring. unfold lt. congruence. }
  split; [rewrite Hs; destruct (swap mo nao j); auto|]. split; [auto|]. split.
  - intros k Hk. apply P. eapply first_largest_abs; [|exact Hk]. intros; apply A.
  - split; auto. destruct (argmax_spec (fun i => mo' i j) nao Hn) as (k & _ & Hk). eauto.
Qed.

(** Idempotent: a second application changes nothing and returns the sign +1 for every orbital. *)
Theorem C08_idempotent : forall nao nmo (mo mo' mo'' : nat -> nat -> K) s s',
  fix_orbital_sign nao nmo mo = Some (mo', s) -> fix_orbital_sign nao nmo mo' = Some (mo'', s') ->
  forall j, (j < nmo)%nat -> s' j = 1 /\ forall i, (i < nao)%nat -> mo'' i j = mo' i j.
Proof.
  intros nao nmo mo mo' mo'' s s' H H' j Hj.
  destruct (C08_signs _ _ _ _ _ H j Hj) as (_ & _ & P & _ & k & Hk).
  destruct (sign_col _ _ _ _ _ j H') as (Hn & Hs & Hm).
  rewrite (swap_spec mo' nao j k Hk) in Hs. specialize (P k Hk). apply le_nlt in P.
  destruct (ltb (mo' k j) 0) eqn:E; [exfalso; auto|]. split; auto. intros i _. rewrite Hm, Hs. ring.
Qed.

(** The result does not depend on the signs of the input orbitals. *)
Theorem C08_gauge : forall nao nmo (mo mo1 mo' mo1' : nat -> nat -> K) s s1 (g : nat -> K),
  (forall j, g j = 1 \/ g j = - (1)) -> (forall i j, mo1 i j = mo i j * g j) ->
  fix_orbital_sign nao nmo mo = Some (mo', s) -> fix_orbital_sign nao nmo mo1 = Some (mo1', s1) ->
  forall i j, (i < nao)%nat -> (j < nmo)%nat -> mo1' i j = mo' i j.
Proof.
  intros nao nmo mo mo1 mo' mo1' s s1 g Hg H1 H H' i j Hi Hj.
  destruct (sign_col _ _ _ _ _ j H) as (Hn & Hs & Hm). destruct (sign_col _ _ _ _ _ j H') as (_ & Hs1 & Hm1).
  rewrite Hm, Hm1, Hs, Hs1, H1.
  destruct (argmax_spec (fun i => mo i j) nao Hn) as (k & _ & Hk).
  assert (Hk1 : first_largest (fun i => mo1 i j) nao k).
  { eapply first_largest_abs; [|exact Hk]. intros l _. cbn. rewrite H1. destruct (Hg j) as [->| ->].
    - f_equal. ring.
    - replace (mo l j * - (1)) with (- mo l j) by ring. symmetry. apply absK_opp. }
  rewrite (swap_spec _ _ _ _ Hk), (swap_spec _ _ _ _ Hk1), H1.
  destruct (Hg j) as [->| ->].
  - replace (mo k j * 1) with (mo k j) by ring. ring.
  - replace (mo k j * - (1)) with (- mo k j) by ring.
    destruct (ltb (mo k j) 0) eqn:E1, (ltb (- mo k j) 0) eqn:E2; try ring.
    + exfalso. apply lt0_opp in E1. apply (lt_asym _ _ E1). exact E2.
    + (* the largest entry is zero: the whole column is zero *)
      assert (Z0 : mo k j = 0).
      { destruct (ltb_total K (mo k j) 0) as [L|[L|L]]; auto; [congruence|].
        apply lt0_opp' in L. unfold lt in L. congruence. }
      assert (Z1 : mo i j = 0).
      { destruct Hk as (_ & Hk & _). specialize (Hk i Hi). cbn in Hk.
        rewrite Z0 in Hk. unfold absK at 2 in Hk. rewrite ltb_irrefl in Hk.
        pose proof (le_antisym _ _ Hk (absK_nonneg (mo i j))) as A.
        destruct (absK_pm (mo i j)) as [B|B]; rewrite B in A; auto.
        replace (mo i j) with (- - mo i j) by ring. rewrite A. ring. }
      rewrite Z1. ring.
Qed.

(** Every density matrix of the orbitals (any occupations) is unchanged. *)
Theorem C08_density : forall nao nmo (mo mo' : nat -> nat -> K) s (occ : nat -> K),
  fix_orbital_sign nao nmo mo = Some (mo', s) -> forall p q, (p < nao)%nat -> (q < nao)%nat ->
  Sum nmo (fun j => mo' p j * occ j * mo' q j) = Sum nmo (fun j => mo p j * occ j * mo q j).
Proof.
  intros nao nmo mo mo' s occ H p q Hp Hq. apply Sum_ext. intros j Hj.
  destruct (C08_signs _ _ _ _ _ H j Hj) as (Hs & Hm & _).
  rewrite !Hm by auto. destruct Hs as [->| ->]; ring.
Qed.

(** Overlaps between orbitals only change by the product of the two signs: orthonormality is kept. *)
Theorem C08_orthonormal : forall nao nmo (mo mo' : nat -> nat -> K) s (ovlp : nat -> nat -> K),
  fix_orbital_sign nao nmo mo = Some (mo', s) ->
  (forall a b, (a < nmo)%nat -> (b < nmo)%nat ->
     Sum nao (fun i => Sum nao (fun j => mo i a * ovlp i j * mo j b)) = delta a b) ->
  (forall a b, (a < nmo)%nat -> (b < nmo)%nat ->
     Sum nao (fun i => Sum nao (fun j => mo' i a * ovlp i j * mo' j b)) = delta a b).
Proof.
  intros nao nmo mo mo' s ovlp H O a b Ha Hb.
  destruct (C08_signs _ _ _ _ _ H a Ha) as (Sa & Ma & _). destruct (C08_signs _ _ _ _ _ H b Hb) as (Sb & Mb & _).
  transitivity (s a * s b * delta a b).
  - rewrite <- O by auto. rewrite <- Sum_mul_l. apply Sum_ext. intros i Hi. rewrite <- Sum_mul_l.
    apply Sum_ext. intros j Hj. rewrite Ma, Mb by auto. ring.
  - destruct (Nat.eq_dec a b) as [->|N].
    + rewrite delta_eq. destruct Sb as [->| ->]; ring.
    + rewrite delta_neq by auto. ring.
Qed.

(** Unrestricted: both channels get the treatment above, independently. *)
Theorem C08_unrestricted : forall nao nmo (mo mo' : (nat -> nat -> K) * (nat -> nat -> K)) s,
  fix_orbital_sign_uhf nao nmo mo = Some (mo', s) ->
  fix_orbital_sign nao (fst nmo) (fst mo) = Some (fst mo', fst s)
  /\ fix_orbital_sign nao (snd nmo) (snd mo) = Some (snd mo', snd s).
Proof.
  intros nao nmo mo mo' s H. unfold fix_orbital_sign_uhf in H.
  destruct (fix_orbital_sign nao (fst nmo) (fst mo)) as [[ca sa]|]; [|discriminate].
  destruct (fix_orbital_sign nao (snd nmo) (snd mo)) as [[cb sb]|]; [|discriminate].
  injection H as <- <-. auto.
Qed.

End P.

(** Three orbitals over four basis functions: a negative largest entry, a tie, a zero column. *)
Definition ex_mo (i j : nat) : ZO :=
  nth j (nth i [[1; -2; 0]; [-3; 2; 0]; [2; 1; 0]; [0; 0; 0]]%Z []) 0%Z.

Example ex_sign : exists mo' s, fix_orbital_sign 4 3 ex_mo = Some (mo', s)
  /\ map s [0;1;2]%nat = [-1; -1; 1]%Z /\ map (fun i => map (mo' i) [0;1;2]%nat) [0;1;2;3]%nat
     = [[-1; 2; 0]; [3; -2; 0]; [-2; -1; 0]; [0; 0; 0]]%Z.
Proof. eexists. eexists. split; [reflexivity|]. vm_compute. auto. Qed.

Print Assumptions C08_total.
Print Assumptions C08_signs.
Print Assumptions C08_idempotent.
Print Assumptions C08_gauge.
Print Assumptions C08_density.
Print Assumptions C08_orthonormal.
Print Assumptions C08_unrestricted.
