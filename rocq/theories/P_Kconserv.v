(** Property C22: momentum conservation table. *)
From Coq Require Import List ZArith QArith Qround Qabs Bool Lia Lqa.
From Verif Require Import M_Kconserv.
Import ListNotations.

(** ** Specification *)

Definition component (v : vec) (w : nat) : Q :=
  match v with (x, y, z) => match w with 0%nat => x | 1%nat => y | _ => z end end.

(** k is a reciprocal lattice vector: all its scaled coordinates are integers. *)
Definition reciprocal (a : mat) (k : vec) : Prop :=
  forall w, (w < 3)%nat -> exists z : Z, component (scaled a k) w == inject_Z z.

(** A regular mesh with N1 x N2 x N3 points, shifted by [s], each point up to a reciprocal lattice vector, in the
    lexicographic order of the point labels. *)
Definition regular (a : mat) (N1 N2 N3 : nat) (s : vec) (kpts : list vec) : Prop :=
  length kpts = (N1 * N2 * N3)%nat /\
  forall i j l, (i < N1)%nat -> (j < N2)%nat -> (l < N3)%nat ->
    exists z1 z2 z3 : Z,
      let c := scaled a (kpt kpts ((i * N2 + j) * N3 + l)) in
      component c 0 == component s 0 + inject_Z (Z.of_nat i) / inject_Z (Z.of_nat N1) + inject_Z z1
      /\ component c 1 == component s 1 + inject_Z (Z.of_nat j) / inject_Z (Z.of_nat N2) + inject_Z z2
      /\ component c 2 == component s 2 + inject_Z (Z.of_nat l) / inject_Z (Z.of_nat N3) + inject_Z z3.

(** ** Lemmas *)

Lemma Qle_bool_false x y : Qle_bool x y = false <-> y < x.
Proof.
  split; intros H.
  - destruct (Qlt_le_dec y x); auto. apply Qle_bool_iff in q. congruence.
  - destruct (Qle_bool x y) eqn:E; auto. apply Qle_bool_iff in E. lra.
Qed.

Lemma injZ_le z1 z2 : inject_Z z1 <= inject_Z z2 <-> (z1 <= z2)%Z.
Proof. rewrite <- Zle_Qle. tauto. Qed.
Lemma injZ_lt z1 z2 : inject_Z z1 < inject_Z z2 <-> (z1 < z2)%Z.
Proof. rewrite <- Zlt_Qlt. tauto. Qed.

Lemma rint_half x : Qabs (x - inject_Z (rint x)) <= 1 # 2.
Proof.
  unfold rint. pose proof (Qfloor_le x) as H1. pose proof (Qlt_floor x) as H2.
  rewrite inject_Z_plus in H2. set (f := Qfloor x) in *.
  change (inject_Z 1) with 1 in H2.
  destruct (Qcompare (x - inject_Z f) (1 # 2)) eqn:E.
  - apply Qeq_alt in E. destruct (Z.even f).
    + rewrite Qabs_pos; lra.
    + rewrite inject_Z_plus. change (inject_Z 1) with 1. rewrite Qabs_neg; lra.
  - apply Qlt_alt in E. rewrite Qabs_pos; lra.
  - apply Qgt_alt in E. rewrite inject_Z_plus. change (inject_Z 1) with 1. rewrite Qabs_neg; lra.
Qed.

(** [rint] is the nearest integer. *)
Lemma rint_nearest x z : Qabs (x - inject_Z (rint x)) <= Qabs (x - inject_Z z).
Proof.
  pose proof (rint_half x) as H. destruct (Z.eq_dec (rint x) z) as [->|N]; [apply Qle_refl|].
  destruct (Qlt_le_dec (Qabs (x - inject_Z z)) (1#2)) as [G|G]; [|lra].
  exfalso. assert (D : Qabs (inject_Z (rint x) - inject_Z z) < 1).
  { eapply Qle_lt_trans; [|instantiate (1 := Qabs (x - inject_Z (rint x)) + Qabs (x - inject_Z z)); lra].
    setoid_replace (inject_Z (rint x) - inject_Z z) with (- (x - inject_Z (rint x)) + (x - inject_Z z)) by ring.
    eapply Qle_trans; [apply Qabs_triangle|]. rewrite Qabs_opp. lra. }
  assert (E : inject_Z (rint x) - inject_Z z == inject_Z (rint x - z)).
  { unfold Qminus. rewrite <- inject_Z_opp, <- inject_Z_plus. reflexivity. }
  rewrite E in D.
  assert (D2 : (Z.abs (rint x - z) < 1)%Z).
  { rewrite Zlt_Qlt. change (inject_Z 1) with 1.
    assert (Ea : inject_Z (Z.abs (rint x - z)) == Qabs (inject_Z (rint x - z))) by reflexivity.
    rewrite Ea. exact D. }
  lia.
Qed.

Lemma rint_int x z : x == inject_Z z -> Qabs (x - inject_Z (rint x)) == 0.
Proof.
  intros H. pose proof (rint_nearest x z) as N. pose proof (Qabs_nonneg (x - inject_Z (rint x))) as P.
  assert (Z0 : Qabs (x - inject_Z z) == 0) by (rewrite H; setoid_replace (inject_Z z - inject_Z z) with 0 by ring; reflexivity).
  lra.
Qed.

Lemma rint_fraction x z N : (0 < N)%Z -> x == inject_Z z / inject_Z N -> ~ (N | z)%Z ->
  1 / inject_Z N <= Qabs (x - inject_Z (rint x)).
Proof.
  intros HN H ND. set (r := rint x).
  assert (P : 0 < inject_Z N) by (change 0 with (inject_Z 0); now apply injZ_lt).
  assert (E : x - inject_Z r == inject_Z (z - r * N) / inject_Z N).
  { rewrite H. unfold Z.sub. rewrite inject_Z_plus, inject_Z_opp, inject_Z_mult. field. lra. }
  rewrite E. unfold Qdiv. rewrite Qabs_Qmult.
  rewrite (Qabs_pos (/ inject_Z N)) by (apply Qlt_le_weak, Qinv_lt_0_compat; auto).
  apply Qmult_le_compat_r; [|apply Qlt_le_weak, Qinv_lt_0_compat; auto].
  change (inject_Z 1 <= inject_Z (Z.abs (z - r * N))). apply injZ_le.
  destruct (Z.eq_dec (z - r * N) 0) as [Hz|Hz]; [|lia].
  exfalso. apply ND. exists r. lia.
Qed.

Lemma mask_iff a k : mask a k = true <->
  Qabs (component (scaled a k) 0 - inject_Z (rint (component (scaled a k) 0)))
  + Qabs (component (scaled a k) 1 - inject_Z (rint (component (scaled a k) 1)))
  + Qabs (component (scaled a k) 2 - inject_Z (rint (component (scaled a k) 2))) < 1 # 1000000000.
Proof.
  unfold mask. destruct (scaled a k) as [[s1 s2] s3]. simpl. rewrite negb_true_iff, Qle_bool_false. reflexivity.
Qed.

Lemma reciprocal_mask a k : reciprocal a k -> mask a k = true.
Proof.
  intros H. apply mask_iff.
  destruct (H 0%nat ltac:(lia)) as (z0 & H0). destruct (H 1%nat ltac:(lia)) as (z1 & H1). destruct (H 2%nat ltac:(lia)) as (z2 & H2).
  apply rint_int in H0. apply rint_int in H1. apply rint_int in H2. lra.
Qed.

Lemma last_match_spec a k : forall kpts n acc,
  let r := last_match a k kpts n acc in
  (r = acc /\ forall i, (i < length kpts)%nat -> mask a (vsub k (kpt kpts i)) = false)
  \/ (exists i, r = (n + i)%nat /\ (i < length kpts)%nat /\ mask a (vsub k (kpt kpts i)) = true
      /\ forall j, (i < j < length kpts)%nat -> mask a (vsub k (kpt kpts j)) = false).
Proof.
  induction kpts as [|kn rest IH]; intros n acc; simpl.
  - left. split; auto. intros; lia.
  - destruct (IH (S n) (if mask a (vsub k kn) then n else acc)) as [[E F]|(i & E & Hi & M & F)].
    + destruct (mask a (vsub k kn)) eqn:Mk.
      * right. exists 0%nat. split; [rewrite E; lia|]. split; [lia|]. split; auto.
        intros [|j] Hj; [lia|]. apply F. lia.
      * left. split; auto. intros [|i] Hi; auto. apply F. lia.
    + right. exists (S i). split; [lia|]. split; [lia|]. split; auto.
      intros [|j] Hj; [lia|]. apply F. lia.
Qed.

Lemma scaled_sub a x y w : (w < 3)%nat -> component (scaled a (vsub x y)) w == component (scaled a x) w - component (scaled a y) w.
Proof.
  intros H. destruct a as [[[[a1 a2] a3] [[b1 b2] b3]] [[c1 c2] c3]], x as [[x1 x2] x3], y as [[y1 y2] y3].
  destruct w as [|[|[|w]]]; simpl; try ring; lia.
Qed.
Lemma scaled_add a x y w : (w < 3)%nat -> component (scaled a (vadd x y)) w == component (scaled a x) w + component (scaled a y) w.
Proof.
  intros H. destruct a as [[[[a1 a2] a3] [[b1 b2] b3]] [[c1 c2] c3]], x as [[x1 x2] x3], y as [[y1 y2] y3].
  destruct w as [|[|[|w]]]; simpl; try ring; lia.
Qed.

(** Labels of a flat index. *)
Lemma flat_label N1 N2 N3 n : (n < N1 * N2 * N3)%nat ->
  exists i j l, (i < N1)%nat /\ (j < N2)%nat /\ (l < N3)%nat /\ n = ((i * N2 + j) * N3 + l)%nat.
Proof.
  intros H. assert (N3 <> 0)%nat by (intros ->; lia). assert (N2 <> 0)%nat by (intros ->; lia).
  exists (n / N3 / N2)%nat, ((n / N3) mod N2)%nat, (n mod N3)%nat.
  assert (D : (n / N3 < N1 * N2)%nat) by (apply Nat.div_lt_upper_bound; lia).
  repeat split.
  - apply Nat.div_lt_upper_bound; lia.
  - apply Nat.mod_upper_bound; auto.
  - apply Nat.mod_upper_bound; auto.
  - rewrite (Nat.mul_comm (n / N3 / N2) N2), <- (Nat.div_mod (n / N3) N2) by auto.
    rewrite (Nat.mul_comm (n / N3) N3). apply Nat.div_mod; auto.
Qed.

Lemma flat_lt N1 N2 N3 i j l : (i < N1)%nat -> (j < N2)%nat -> (l < N3)%nat -> ((i * N2 + j) * N3 + l < N1 * N2 * N3)%nat.
Proof. intros. assert (i * N2 + j < N1 * N2)%nat by nia. nia. Qed.

(** One coordinate: the difference is integer iff the labels match modulo N. *)
Lemma coord_frac (N : nat) (x : Q) (d z : Z) : (0 < N)%nat ->
  x == inject_Z d / inject_Z (Z.of_nat N) + inject_Z z ->
  x == inject_Z (d + z * Z.of_nat N) / inject_Z (Z.of_nat N).
Proof.
  intros HN H. rewrite H, inject_Z_plus, inject_Z_mult. field.
  intros E. assert (0 < inject_Z (Z.of_nat N)) by (change 0 with (inject_Z 0); apply injZ_lt; lia). lra.
Qed.

Lemma coord_int (N : nat) (x : Q) (d z : Z) : (0 < N)%nat -> (Z.of_nat N | d)%Z ->
  x == inject_Z d / inject_Z (Z.of_nat N) + inject_Z z -> exists t, x == inject_Z t.
Proof.
  intros HN [q Hq] H. exists (q + z)%Z. rewrite H, Hq, inject_Z_plus, inject_Z_mult. field.
  intros E. assert (0 < inject_Z (Z.of_nat N)) by (change 0 with (inject_Z 0); apply injZ_lt; lia). lra.
Qed.

Lemma coord_far (N : nat) (x : Q) (d z : Z) : (0 < N)%nat -> (Z.of_nat N <= 1000000000)%Z -> ~ (Z.of_nat N | d)%Z ->
  x == inject_Z d / inject_Z (Z.of_nat N) + inject_Z z -> 1 # 1000000000 <= Qabs (x - inject_Z (rint x)).
Proof.
  intros HN HB HD H. apply coord_frac in H; auto.
  eapply Qle_trans; [|apply (rint_fraction x (d + z * Z.of_nat N) (Z.of_nat N)); auto; [lia|]].
  - assert (P : 0 < inject_Z (Z.of_nat N)) by (change 0 with (inject_Z 0); apply injZ_lt; lia).
    apply Qle_shift_div_l; auto. rewrite Zle_Qle in HB. change (inject_Z 1000000000) with (1000000000#1) in HB.
    setoid_replace 1 with ((1 # 1000000000) * (1000000000#1)) by reflexivity.
    apply Qmult_le_l; auto. reflexivity.
  - intros [q Hq]. apply HD. exists (q - z)%Z. lia.
Qed.

Lemma label_mod (N : nat) (d : Z) : (0 < N)%nat -> exists i : nat, (i < N)%nat /\ (Z.of_nat N | d - Z.of_nat i)%Z.
Proof.
  intros H. exists (Z.to_nat (d mod Z.of_nat N)).
  pose proof (Z.mod_pos_bound d (Z.of_nat N) ltac:(lia)) as B.
  split; [lia|]. rewrite Z2Nat.id by lia. exists (d / Z.of_nat N)%Z.
  pose proof (Z.div_mod d (Z.of_nat N) ltac:(lia)). lia.
Qed.

Lemma label_unique (N : nat) (d : Z) i j : (i < N)%nat -> (j < N)%nat ->
  (Z.of_nat N | d - Z.of_nat i)%Z -> (Z.of_nat N | d - Z.of_nat j)%Z -> i = j.
Proof.
  intros Hi Hj [p Hp] [q Hq].
  assert (E : ((p - q) * Z.of_nat N = Z.of_nat j - Z.of_nat i)%Z) by (rewrite Z.mul_sub_distr_r; lia).
  assert (p - q = 0)%Z by nia. nia.
Qed.

(** Core: a vector K whose scaled coordinates are shift + label fraction + integer. *)
Lemma mesh_core a N1 N2 N3 s kpts K (d1 d2 d3 z1 z2 z3 : Z) :
  regular a N1 N2 N3 s kpts -> (0 < N1)%nat -> (0 < N2)%nat -> (0 < N3)%nat ->
  (Z.of_nat N1 <= 1000000000)%Z -> (Z.of_nat N2 <= 1000000000)%Z -> (Z.of_nat N3 <= 1000000000)%Z ->
  component (scaled a K) 0 == component s 0 + inject_Z d1 / inject_Z (Z.of_nat N1) + inject_Z z1 ->
  component (scaled a K) 1 == component s 1 + inject_Z d2 / inject_Z (Z.of_nat N2) + inject_Z z2 ->
  component (scaled a K) 2 == component s 2 + inject_Z d3 / inject_Z (Z.of_nat N3) + inject_Z z3 ->
  let r := last_match a K kpts 0 0 in
  (r < length kpts)%nat /\ reciprocal a (vsub K (kpt kpts r))
  /\ forall n, (n < length kpts)%nat -> reciprocal a (vsub K (kpt kpts n)) -> n = r.
Proof.
  intros [HL HR] P1 P2 P3 B1 B2 B3 E1 E2 E3 r.
  (* mask at a labelled point *)
  assert (F : forall i j l, (i < N1)%nat -> (j < N2)%nat -> (l < N3)%nat ->
    let k := vsub K (kpt kpts ((i * N2 + j) * N3 + l)) in
    exists w1 w2 w3,
     component (scaled a k) 0 == inject_Z (d1 - Z.of_nat i) / inject_Z (Z.of_nat N1) + inject_Z w1
     /\ component (scaled a k) 1 == inject_Z (d2 - Z.of_nat j) / inject_Z (Z.of_nat N2) + inject_Z w2
     /\ component (scaled a k) 2 == inject_Z (d3 - Z.of_nat l) / inject_Z (Z.of_nat N3) + inject_Z w3).
  { intros i j l Hi Hj Hl k. destruct (HR i j l Hi Hj Hl) as (y1 & y2 & y3 & G1 & G2 & G3).
    exists (z1 - y1)%Z, (z2 - y2)%Z, (z3 - y3)%Z. unfold k.
    rewrite !scaled_sub by lia. rewrite E1, E2, E3, G1, G2, G3.
    unfold Z.sub. rewrite !inject_Z_plus, !inject_Z_opp. repeat split; unfold Qdiv; ring. }
  assert (M : forall i j l, (i < N1)%nat -> (j < N2)%nat -> (l < N3)%nat ->
    mask a (vsub K (kpt kpts ((i * N2 + j) * N3 + l))) = true ->
    (Z.of_nat N1 | d1 - Z.of_nat i)%Z /\ (Z.of_nat N2 | d2 - Z.of_nat j)%Z /\ (Z.of_nat N3 | d3 - Z.of_nat l)%Z).
  { intros i j l Hi Hj Hl Mk. apply mask_iff in Mk. destruct (F i j l Hi Hj Hl) as (w1 & w2 & w3 & G1 & G2 & G3).
    set (k := vsub K (kpt kpts ((i * N2 + j) * N3 + l))) in *.
    pose proof (Qabs_nonneg (component (scaled a k) 0 - inject_Z (rint (component (scaled a k) 0)))).
    pose proof (Qabs_nonneg (component (scaled a k) 1 - inject_Z (rint (component (scaled a k) 1)))).
    pose proof (Qabs_nonneg (component (scaled a k) 2 - inject_Z (rint (component (scaled a k) 2)))).
    destruct (Znumtheory.Zdivide_dec (Z.of_nat N1) (d1 - Z.of_nat i)) as [D1|D1];
      [|exfalso; apply (coord_far _ _ _ _ P1 B1 D1) in G1; lra].
    destruct (Znumtheory.Zdivide_dec (Z.of_nat N2) (d2 - Z.of_nat j)) as [D2|D2];
      [|exfalso; apply (coord_far _ _ _ _ P2 B2 D2) in G2; lra].
    destruct (Znumtheory.Zdivide_dec (Z.of_nat N3) (d3 - Z.of_nat l)) as [D3|D3];
      [|exfalso; apply (coord_far _ _ _ _ P3 B3 D3) in G3; lra].
    auto. }
  destruct (label_mod N1 d1 P1) as (i0 & Hi0 & Di). destruct (label_mod N2 d2 P2) as (j0 & Hj0 & Dj).
  destruct (label_mod N3 d3 P3) as (l0 & Hl0 & Dl).
  set (n0 := ((i0 * N2 + j0) * N3 + l0)%nat).
  assert (Hn0 : (n0 < length kpts)%nat) by (rewrite HL; apply flat_lt; auto).
  assert (R0 : reciprocal a (vsub K (kpt kpts n0))).
  { destruct (F i0 j0 l0 Hi0 Hj0 Hl0) as (w1 & w2 & w3 & G1 & G2 & G3). intros w Hw.
    destruct w as [|[|[|w]]]; [| | |lia].
    - eapply (coord_int N1); eauto.
    - eapply (coord_int N2); eauto.
    - eapply (coord_int N3); eauto. }
  assert (U : forall n, (n < length kpts)%nat -> mask a (vsub K (kpt kpts n)) = true -> n = n0).
  { intros n Hn Mk. rewrite HL in Hn. destruct (flat_label _ _ _ _ Hn) as (i & j & l & Hi & Hj & Hl & ->).
    destruct (M i j l Hi Hj Hl Mk) as (D1 & D2 & D3). unfold n0.
    rewrite (label_unique N1 d1 i i0), (label_unique N2 d2 j j0), (label_unique N3 d3 l l0); auto. }
  assert (Er : r = n0).
  { unfold r. destruct (last_match_spec a K kpts 0 0) as [[E Fa]|(i & E & Hi & Mk & _)].
    - exfalso. specialize (Fa n0 Hn0). rewrite (reciprocal_mask _ _ R0) in Fa. discriminate.
    - rewrite E. simpl. apply U; auto. }
  rewrite Er. repeat split; auto. intros n Hn Hr. apply U; auto. apply reciprocal_mask; auto.
Qed.

(** ** Theorems *)

(** Any k-points: the entry is the last n that conserves momentum up to the tolerance, or 0 if there is none. *)
Theorem C22_any_points : forall a kpts t, get_kconserv a kpts 3 = Table3 t -> forall k l m,
  let K n := vsub (vadd (vsub (kpt kpts k) (kpt kpts l)) (kpt kpts m)) (kpt kpts n) in
  let near n := exists z1 z2 z3 : Z,
     Qabs (component (scaled a (K n)) 0 - inject_Z z1) + Qabs (component (scaled a (K n)) 1 - inject_Z z2)
     + Qabs (component (scaled a (K n)) 2 - inject_Z z3) < 1 # 1000000000 in
  ((t k l m < length kpts)%nat /\ near (t k l m) /\ forall n, (n < length kpts)%nat -> near n -> (n <= t k l m)%nat)
  \/ (t k l m = 0%nat /\ forall n, (n < length kpts)%nat -> ~ near n).
Proof.
  intros a kpts t Ht k l m K near. injection Ht as <-.
  assert (N : forall n, near n <-> mask a (K n) = true).
  { intros n. rewrite mask_iff. unfold near. split.
    - intros (z1 & z2 & z3 & H).
      pose proof (rint_nearest (component (scaled a (K n)) 0) z1).
      pose proof (rint_nearest (component (scaled a (K n)) 1) z2).
      pose proof (rint_nearest (component (scaled a (K n)) 2) z3). lra.
    - intros H. eauto. }
  destruct (last_match_spec a (vadd (vsub (kpt kpts k) (kpt kpts l)) (kpt kpts m)) kpts 0 0)
    as [[E F]|(i & E & Hi & Mk & F)]; rewrite E; simpl.
  - right. split; auto. intros n Hn Hc. apply N in Hc. unfold K in Hc. rewrite F in Hc by auto. discriminate.
  - left. split; auto. split; [now apply N|]. intros n Hn Hc. apply N in Hc.
    destruct (le_lt_dec n i); auto. exfalso. unfold K in Hc. rewrite F in Hc by lia. discriminate.
Qed.

(** Regular meshes of any size (each direction up to 10^9 points), shifted or not: for every triple the entry
    conserves crystal momentum exactly, and it is the only k-point that does. *)
Theorem C22_mesh : forall a N1 N2 N3 s kpts t, regular a N1 N2 N3 s kpts ->
  (Z.of_nat N1 <= 1000000000)%Z -> (Z.of_nat N2 <= 1000000000)%Z -> (Z.of_nat N3 <= 1000000000)%Z ->
  get_kconserv a kpts 3 = Table3 t ->
  forall k l m, (k < length kpts)%nat -> (l < length kpts)%nat -> (m < length kpts)%nat ->
  let conserves n := reciprocal a (vsub (vadd (vsub (kpt kpts k) (kpt kpts l)) (kpt kpts m)) (kpt kpts n)) in
  (t k l m < length kpts)%nat /\ conserves (t k l m) /\ forall n, (n < length kpts)%nat -> conserves n -> n = t k l m.
Proof.
  intros a N1 N2 N3 s kpts t HR B1 B2 B3 Ht k l m Hk Hl Hm conserves. injection Ht as <-.
  pose proof HR as [HL HP]. rewrite HL in Hk, Hl, Hm.
  destruct (flat_label _ _ _ _ Hk) as (ik & jk & lk & Hik & Hjk & Hlk & Ek).
  destruct (flat_label _ _ _ _ Hl) as (il & jl & ll & Hil & Hjl & Hll & El).
  destruct (flat_label _ _ _ _ Hm) as (im & jm & lm & Him & Hjm & Hlm & Em).
  destruct (HP _ _ _ Hik Hjk Hlk) as (x1 & x2 & x3 & X1 & X2 & X3). rewrite <- Ek in X1, X2, X3.
  destruct (HP _ _ _ Hil Hjl Hll) as (y1 & y2 & y3 & Y1 & Y2 & Y3). rewrite <- El in Y1, Y2, Y3.
  destruct (HP _ _ _ Him Hjm Hlm) as (w1 & w2 & w3 & W1 & W2 & W3). rewrite <- Em in W1, W2, W3.
  apply (mesh_core a N1 N2 N3 s kpts _
    (Z.of_nat ik - Z.of_nat il + Z.of_nat im) (Z.of_nat jk - Z.of_nat jl + Z.of_nat jm) (Z.of_nat lk - Z.of_nat ll + Z.of_nat lm)
    (x1 - y1 + w1) (x2 - y2 + w2) (x3 - y3 + w3)); auto; try lia;
  rewrite scaled_add, scaled_sub by lia; [rewrite X1, Y1, W1|rewrite X2, Y2, W2|rewrite X3, Y3, W3];
  unfold Z.sub; rewrite !inject_Z_plus, !inject_Z_opp; unfold Qdiv; ring.
Qed.

(** The two-index table (k, l -> n with k - l - n a reciprocal vector) on meshes that contain the Gamma point. *)
Theorem C22_mesh2 : forall a N1 N2 N3 kpts t, regular a N1 N2 N3 (0, 0, 0) kpts ->
  (Z.of_nat N1 <= 1000000000)%Z -> (Z.of_nat N2 <= 1000000000)%Z -> (Z.of_nat N3 <= 1000000000)%Z ->
  get_kconserv a kpts 2 = Table2 t ->
  forall k l, (k < length kpts)%nat -> (l < length kpts)%nat ->
  let conserves n := reciprocal a (vsub (vsub (kpt kpts k) (kpt kpts l)) (kpt kpts n)) in
  (t k l < length kpts)%nat /\ conserves (t k l) /\ forall n, (n < length kpts)%nat -> conserves n -> n = t k l.
Proof.
  intros a N1 N2 N3 kpts t HR B1 B2 B3 Ht k l Hk Hl conserves. injection Ht as <-.
  pose proof HR as [HL HP]. rewrite HL in Hk, Hl.
  destruct (flat_label _ _ _ _ Hk) as (ik & jk & lk & Hik & Hjk & Hlk & Ek).
  destruct (flat_label _ _ _ _ Hl) as (il & jl & ll & Hil & Hjl & Hll & El).
  destruct (HP _ _ _ Hik Hjk Hlk) as (x1 & x2 & x3 & X1 & X2 & X3). rewrite <- Ek in X1, X2, X3.
  destruct (HP _ _ _ Hil Hjl Hll) as (y1 & y2 & y3 & Y1 & Y2 & Y3). rewrite <- El in Y1, Y2, Y3.
  apply (mesh_core a N1 N2 N3 (0,0,0) kpts _
    (Z.of_nat ik - Z.of_nat il) (Z.of_nat jk - Z.of_nat jl) (Z.of_nat lk - Z.of_nat ll)
    (x1 - y1) (x2 - y2) (x3 - y3)); auto; try lia;
  rewrite scaled_sub by lia; [rewrite X1, Y1|rewrite X2, Y2|rewrite X3, Y3];
  unfold Z.sub; rewrite !inject_Z_plus, !inject_Z_opp; unfold Qdiv; cbn [component]; ring.
Qed.

(** The one-index list and other index numbers. *)
Theorem C22_other : forall a kpts nk,
  get_kconserv a kpts 1 = Table1 (seq 0 (length kpts))
  /\ ((nk = 0 \/ 3 < nk)%nat -> get_kconserv a kpts nk = ValueError).
Proof.
  intros. split; auto. intros [->|H]; auto. destruct nk as [|[|[|[|nk]]]]; auto; lia.
Qed.

(** Finding: when no k-point conserves momentum the table silently contains 0.  Two-index table on a shifted
    mesh of two points: 0 - 0 - n is a reciprocal vector for no n. *)
Definition ex_a : mat := ((1, 0, 0), (0, 1, 0), (0, 0, 1)).
Definition ex_shifted : list vec := [(1#4, 0, 0); (3#4, 0, 0)].

Theorem C22_no_point_refuted :
  exists t, get_kconserv ex_a ex_shifted 2 = Table2 t /\ regular ex_a 2 1 1 (1#4, 0, 0) ex_shifted
  /\ t 0%nat 0%nat = 0%nat
  /\ ~ reciprocal ex_a (vsub (vsub (kpt ex_shifted 0) (kpt ex_shifted 0)) (kpt ex_shifted 0)).
Proof.
  eexists. split; [reflexivity|]. split; [|split; [reflexivity|]].
  - split; auto. intros i j l Hi Hj Hl. exists 0%Z, 0%Z, 0%Z.
    destruct i as [|[|i]], j, l; try lia; cbn; repeat split; reflexivity.
  - intros H. destruct (H 0%nat ltac:(lia)) as (z & Hz). cbn in Hz. unfold Qeq in Hz. cbn in Hz. lia.
Qed.

(** A 3 x 2 x 1 mesh in a skewed cell: 1 - 2 + 5 gives 2 (labels (0,1) - (1,0) + (2,1) = (1, 2) = (1, 0) mod (3, 2)) *)
Definition ex_cell : mat := ((1, 1, 0), (0, 1, 0), (0, 0, 1)).
Definition ex_mesh : list vec := flat_map (fun i : Z => map (fun j : Z => ((inject_Z i / 3 - inject_Z j / 2), inject_Z j / 2, 0)) [0;1]%Z) [0;1;2]%Z.

Example ex_kconserv : exists t, get_kconserv ex_cell ex_mesh 3 = Table3 t /\ t 1%nat 2%nat 5%nat = 2%nat
  /\ t 3%nat 0%nat 5%nat = 0%nat /\ regular ex_cell 3 2 1 (0, 0, 0) ex_mesh.
Proof.
  eexists. split; [reflexivity|]. split; [vm_compute; reflexivity|]. split; [vm_compute; reflexivity|].
  split; auto. intros i j l Hi Hj Hl. exists 0%Z, 0%Z, 0%Z.
  destruct i as [|[|[|i]]], j as [|[|j]], l; try lia; cbn; repeat split; reflexivity.
Qed.

Print Assumptions C22_any_points.
Print Assumptions C22_mesh.
Print Assumptions C22_mesh2.
Print Assumptions C22_other.
Print Assumptions C22_no_point_refuted.
