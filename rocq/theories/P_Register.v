(** Property C10: the fragment register. *)
From Coq Require Import List ZArith Lia Bool.
From Verif Require Import M_Register.
Import ListNotations.
Open Scope Z_scope.

(** Number of registrations on a rank. *)
Definition count (k : Z) (l : list (Z * Z)) : Z := Z.of_nat (length (filter (fun x => snd x =? k) l)).

(** ** Lemmas *)

Lemma mod_step m p : 0 < p -> (m mod p + 1) mod p = (m + 1) mod p.
Proof. intros H. rewrite Z.add_mod_idemp_l; lia. Qed.

(** All calls without estimates: the pairs are (i, i mod size). *)
Lemma run_plain p : 0 < p -> forall n i k, i + 1 >= 0 -> (k + 1) mod p = (i + 1) mod p ->
  fst (run {| next_id := i; mpi_size := p; next_mpi_rank := k |} (repeat false n))
  = map (fun j => (i + 1 + Z.of_nat j, (i + 1 + Z.of_nat j) mod p)) (seq 0 n).
Proof.
  intros Hp. induction n as [|n IH]; intros i k Hi Hk; [reflexivity|].
  cbn [repeat run]. unfold get_next, get_next_id, get_next_mpi_rank. cbn [next_id mpi_size next_mpi_rank].
  destruct (p =? 0) eqn:E; [apply Z.eqb_eq in E; lia|].
  specialize (IH (i + 1) ((k + 1) mod p)).
  destruct (run _ (repeat false n)) as [l r2] eqn:R. cbn [fst] in IH |- *.
  rewrite IH; [|lia|].
  - cbn [seq map]. rewrite Z.add_0_r, Hk. f_equal. rewrite <- seq_shift, map_map. apply map_ext. intros j.
    replace (i + 1 + 1 + Z.of_nat j) with (i + 1 + Z.of_nat (S j)) by lia. reflexivity.
  - rewrite Hk. rewrite mod_step by lia. reflexivity.
Qed.

Definition pairs (p : Z) (n : nat) := map (fun j => (Z.of_nat j, Z.of_nat j mod p)) (seq 0 n).

Lemma pairs_snoc p n : pairs p (S n) = pairs p n ++ [(Z.of_nat n, Z.of_nat n mod p)].
Proof. unfold pairs. rewrite seq_S, map_app. reflexivity. Qed.

Lemma count_app k l1 l2 : count k (l1 ++ l2) = count k l1 + count k l2.
Proof. unfold count. rewrite filter_app, app_length. lia. Qed.

(** Number of j < n with j mod p = k. *)
Lemma count_pairs p n k : 0 < p -> 0 <= k < p -> count k (pairs p n) = (Z.of_nat n + p - 1 - k) / p.
Proof.
  intros Hp Hk. induction n as [|n IH].
  - symmetry. apply Z.div_small. lia.
  - rewrite pairs_snoc, count_app, IH. unfold count. cbn [filter snd].
    set (m := Z.of_nat n). assert (Hm : 0 <= m) by (unfold m; lia).
    replace (Z.of_nat (S n)) with (m + 1) by (unfold m; lia).
    assert (Hdm := Z.div_mod m p ltac:(lia)). assert (Hb := Z.mod_pos_bound m p Hp).
    set (q := m / p) in *. set (r := m mod p) in *.
    destruct (r =? k) eqn:E.
    + apply Z.eqb_eq in E. cbn [length].
      replace (m + p - 1 - k) with ((p - 1) + q * p) by nia. replace (m + 1 + p - 1 - k) with (0 + (q + 1) * p) by nia.
      rewrite !Z.div_add by lia. rewrite (Z.div_small (p - 1)), (Z.div_small 0) by lia. lia.
    + apply Z.eqb_neq in E. cbn [length].
      destruct (Z.lt_ge_cases r k) as [Hlt|Hge].
      * replace (m + p - 1 - k) with ((r + p - 1 - k) + q * p) by nia. replace (m + 1 + p - 1 - k) with ((r + p - k) + q * p) by nia.
        rewrite !Z.div_add by lia. rewrite !Z.div_small by lia. lia.
      * replace (m + p - 1 - k) with ((r - 1 - k) + (q + 1) * p) by nia. replace (m + 1 + p - 1 - k) with ((r - k) + (q + 1) * p) by nia.
        rewrite !Z.div_add by lia. rewrite !Z.div_small by lia. lia.
Qed.

(** ** C10 *)

(** After n registrations: the ids are 0..n-1 in order, each rank exists, and the loads of any two ranks differ by at most one. *)
Theorem C10_register : forall (p : Z) (n : nat), 0 < p ->
  let l := fst (run (init p) (repeat false n)) in
  map fst l = map Z.of_nat (seq 0 n) /\
  Forall (fun x => 0 <= snd x < p) l /\
  (forall k1 k2, 0 <= k1 < p -> 0 <= k2 < p -> count k1 l - count k2 l <= 1) /\
  (forall k1 k2, 0 <= k1 <= k2 -> k2 < p -> count k2 l <= count k1 l).
Proof.
  intros p n Hp l.
  assert (E : l = pairs p n).
  { unfold l, init. rewrite (run_plain p Hp n (-1) (-1)); auto; lia. }
  rewrite E. split; [|split; [|split]].
  - unfold pairs. rewrite map_map. apply map_ext. reflexivity.
  - apply Forall_forall. intros x Hx. apply in_map_iff in Hx. destruct Hx as (j & <- & _). cbn [snd].
    apply Z.mod_pos_bound. lia.
  - intros k1 k2 H1 H2. rewrite !count_pairs by lia.
    assert ((Z.of_nat n + p - 1 - k1) / p <= (Z.of_nat n + p - 1 - k2 + 1 * p) / p) by (apply Z.div_le_mono; lia).
    rewrite Z.div_add in H by lia. lia.
  - intros k1 k2 H1 H2. rewrite !count_pairs by lia. apply Z.div_le_mono; lia.
Qed.

(** Also with failing calls in between (runtime or memory estimates are not implemented) the ids are never repeated and grow,
    and a failing call consumes an id but no rank, so the balance is kept. *)
Lemma run_general p : 0 < p -> forall calls i k,
  Forall (fun x => i < fst x <= i + Z.of_nat (length calls)) (fst (run {| next_id := i; mpi_size := p; next_mpi_rank := k |} calls)) /\
  NoDup (map fst (fst (run {| next_id := i; mpi_size := p; next_mpi_rank := k |} calls))).
Proof.
  intros Hp. induction calls as [|c calls IH]; intros i k; [split; constructor|].
  cbn [run]. unfold get_next, get_next_id, get_next_mpi_rank. cbn [next_id mpi_size next_mpi_rank].
  assert (Hz : p =? 0 = false) by (apply Z.eqb_neq; lia). rewrite Hz.
  assert (Hweak : forall l, Forall (fun x : Z * Z => i + 1 < fst x <= i + 1 + Z.of_nat (length calls)) l ->
            Forall (fun x => i < fst x <= i + Z.of_nat (length (c :: calls))) l).
  { intros l. apply Forall_impl. intros x. cbn [length]. lia. }
  destruct c.
  - destruct (IH (i + 1) k) as [H1 H2]. destruct (run _ calls) as [l r]. cbn [fst] in *. auto.
  - destruct (IH (i + 1) ((k + 1) mod p)) as [H1 H2]. destruct (run _ calls) as [l r]. cbn [fst map] in *. split.
    + constructor; auto. cbn [fst length]. lia.
    + constructor; auto. rewrite in_map_iff. intros (x & Hx & Hin). rewrite Forall_forall in H1. specialize (H1 x Hin). lia.
Qed.

Theorem C10_ids_unique : forall p calls, 0 < p -> NoDup (map fst (fst (run (init p) calls))).
Proof. intros p calls Hp. apply run_general. auto. Qed.

Lemma run_ranks p : 0 < p -> forall calls i j k,
  map snd (fst (run {| next_id := i; mpi_size := p; next_mpi_rank := k |} calls))
  = map snd (fst (run {| next_id := j; mpi_size := p; next_mpi_rank := k |} (filter negb calls))).
Proof.
  intros Hp. assert (Hz : p =? 0 = false) by (apply Z.eqb_neq; lia).
  induction calls as [|c calls IH]; intros i j k; [reflexivity|].
  cbn [filter run]. unfold get_next, get_next_id, get_next_mpi_rank. cbn [next_id mpi_size next_mpi_rank]. rewrite Hz.
  destruct c; cbn [negb].
  - specialize (IH (i + 1) j k). destruct (run _ calls) as [l r]. cbn [fst] in *. auto.
  - cbn [run]. unfold get_next, get_next_id, get_next_mpi_rank. cbn [next_id mpi_size next_mpi_rank]. rewrite Hz.
    specialize (IH (i + 1) (j + 1) ((k + 1) mod p)).
    destruct (run _ calls) as [l r], (run _ (filter negb calls)) as [l' r']. cbn [fst map snd] in *. rewrite IH. auto.
Qed.

Theorem C10_balance : forall p calls k1 k2, 0 < p -> 0 <= k1 < p -> 0 <= k2 < p ->
  count k1 (fst (run (init p) calls)) - count k2 (fst (run (init p) calls)) <= 1.
Proof.
  intros p calls k1 k2 Hp H1 H2.
  assert (Hc : forall k l, count k l = Z.of_nat (length (filter (fun x => x =? k) (map snd l)))).
  { intros k l. unfold count. induction l as [|x l IH]; auto. cbn [filter map]. destruct (snd x =? k); cbn [length]; lia. }
  assert (Hf : filter negb calls = repeat false (length (filter negb calls))).
  { clear. induction calls as [|[] calls IH]; cbn; auto. f_equal. auto. }
  pose proof (run_ranks p Hp calls (-1) (-1) (-1)) as E. rewrite Hf in E.
  rewrite !Hc. unfold init. rewrite E. rewrite <- !Hc.
  apply (C10_register p (length (filter negb calls)) Hp); auto.
Qed.

Example C10_ex : fst (run (init 3) [false; false; true; false; false; false]) = [(0,0); (1,1); (3,2); (4,0); (5,1)].
Proof. reflexivity. Qed.

Print Assumptions C10_register.
Print Assumptions C10_ids_unique.
Print Assumptions C10_balance.
