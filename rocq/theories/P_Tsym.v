(** C38: translations form the group they should. *)
From Coq Require Import List Arith ZArith QArith Qround Lia Bool.
From Verif Require Import Alg M_Symop P_Symop M_Tsym.
Import ListNotations.
Close Scope Q_scope. Open Scope nat_scope.

(** Directions in which the system is periodic. *)
Definition periodic_shift (dimension : nat) (d : vec) : Prop :=
  (dimension = 1 \/ dimension = 2 -> vz d = 0%Z) /\ (dimension = 1 -> vy d = 0%Z).
Definition unit_shift (d : vec) : Prop := (-1 <= vx d <= 1 /\ -1 <= vy d <= 1 /\ -1 <= vz d <= 1)%Z.

Lemma veqb_spec a b : veqb a b = true <-> a = b.
Proof.
  unfold veqb. rewrite !andb_true_iff, !Z.eqb_eq. destruct a as [a1 a2 a3], b as [b1 b2 b3]. simpl. split.
  - intros [[-> ->] ->]. auto.
  - intros H. injection H as -> -> ->. auto.
Qed.

Lemma shifts_spec dim d : In d (shifts dim) <-> unit_shift d /\ periodic_shift dim d.
Proof.
  unfold shifts. rewrite filter_In.
  set (L := flat_map _ _).
  assert (I : In d L <-> unit_shift d).
  { unfold L. split.
    - intros H. apply in_flat_map in H. destruct H as (x & Hx & H). apply in_flat_map in H. destruct H as (y & Hy & H).
      apply in_map_iff in H. destruct H as (z & <- & Hz). unfold unit_shift. simpl in *. lia.
    - intros (H1 & H2 & H3). destruct d as [x y z]. cbn [vx vy vz] in *. apply in_flat_map. exists x. split; [simpl; lia|].
      apply in_flat_map. exists y. split; [simpl; lia|]. apply in_map_iff. exists z. split; auto. simpl; lia. }
  rewrite I. unfold periodic_shift.
  destruct (Nat.eqb_spec dim 1) as [E1|E1]; destruct (Nat.eqb_spec dim 2) as [E2|E2]; destruct (Z.eqb_spec (vz d) 0) as [Ez|Ez];
    destruct (Z.eqb_spec (vy d) 0) as [Ey|Ey]; cbn [orb andb negb];
    split; intros [A B]; split; auto; try discriminate; try (split; intros; auto; lia); try (exfalso; destruct B as [B1 B2]; lia).
Qed.

Section T.
Variable N : Z.
Hypothesis Npos : (0 < N)%Z.
Variable natom : nat.
Variable pos : nat -> vec.
Variable compare : nat -> nat -> bool.
Variable dim : nat.

Lemma find_atom_spec p : forall n, match find_atom pos n p with Some a => a < n /\ pos a = p | None => forall a, a < n -> pos a <> p end.
Proof.
  induction n as [|n IH]; simpl; [intros; lia|]. destruct (find_atom pos n p) as [a|].
  - destruct IH. split; auto.
  - destruct (veqb (pos n) p) eqn:E.
    + apply veqb_spec in E. split; auto.
    + intros a Ha E'. destruct (Nat.eq_dec a n) as [->|]; [|eapply IH; [|exact E']; lia].
      apply veqb_spec in E'. congruence.
Qed.

(** [b] shifted by the lattice vector [d] is where [a] is moved to. *)
Definition goes_to (t : vec) (a b : nat) (d : vec) : Prop :=
  vadd (pos b) (vscale N d) = vadd (pos a) t /\ periodic_shift dim d.

Lemma vmove p q d : vadd p (vscale (- N) d) = q <-> vadd q (vscale N d) = p.
Proof.
  destruct p as [p1 p2 p3], q as [q1 q2 q3], d as [d1 d2 d3]. unfold vadd, vscale. cbn [vx vy vz]. split; intros H; injection H as <- <- <-;
  f_equal; lia.
Qed.

Lemma get_atom_at_spec p : forall ds, match get_atom_at N natom pos ds p with
  | Some (a, d) => In d ds /\ a < natom /\ vadd (pos a) (vscale N d) = p
  | None => forall a d, In d ds -> a < natom -> vadd (pos a) (vscale N d) <> p end.
Proof.
  induction ds as [|d ds IH]; simpl; [tauto|].
  pose proof (find_atom_spec (vadd p (vscale (- N) d)) natom) as F. destruct (find_atom pos natom _) as [a|].
  - destruct F as [Ha E]. split; auto. split; auto. apply vmove. auto.
  - destruct (get_atom_at N natom pos ds p) as [[a d']|].
    + intuition.
    + intros a d' [<-|Hd] Ha E.
      * apply vmove in E. apply (F a Ha). auto.
      * eapply IH; eauto.
Qed.

(** No two atoms are at the same place, up to lattice vectors of the periodic directions. *)
Definition distinct : Prop := forall a b d, a < natom -> b < natom -> periodic_shift dim d ->
  vadd (pos b) (vscale N d) = pos a -> a = b.

Lemma periodic_sub d e : periodic_shift dim d -> periodic_shift dim e -> periodic_shift dim (vadd d (vscale (-1) e)).
Proof. unfold periodic_shift, vadd, vscale. cbn [vx vy vz]. intros [H1 H2] [H3 H4]. split; intros; [rewrite H1, H3|rewrite H2, H4]; auto. Qed.

Lemma periodic_add d e : periodic_shift dim d -> periodic_shift dim e -> periodic_shift dim (vadd d e).
Proof. unfold periodic_shift, vadd. cbn [vx vy vz]. intros [H1 H2] [H3 H4]. split; intros; [rewrite H1, H3|rewrite H2, H4]; auto. Qed.

Lemma goes_unique : distinct -> forall t a b c d e, b < natom -> c < natom -> goes_to t a b d -> goes_to t a c e -> b = c /\ d = e.
Proof.
  intros D t a b c d e Hb Hc [H1 H2] [H3 H4].
  assert (b = c) as ->.
  { apply (D b c (vadd e (vscale (-1) d)) Hb Hc (periodic_sub _ _ H4 H2)). rewrite <- H1 in H3. clear - H3.
    destruct (pos b) as [b1 b2 b3], (pos c) as [c1 c2 c3], d as [d1 d2 d3], e as [e1 e2 e3].
    unfold vadd, vscale in *. cbn [vx vy vz] in *. injection H3 as E1 E2 E3. f_equal; lia. }
  split; auto. rewrite <- H1 in H3. clear - H3 Npos. destruct (pos c) as [c1 c2 c3], d as [d1 d2 d3], e as [e1 e2 e3].
  unfold vadd, vscale in *. cbn [vx vy vz] in *. injection H3 as E1 E2 E3. f_equal; nia.
Qed.

(** Two steps make one step. *)
Lemma goes_trans v w a b c d e : goes_to v a b d -> goes_to w b c e -> goes_to (vadd v w) a c (vadd d e).
Proof.
  intros [H1 H2] [H3 H4]. split; [|now apply periodic_add]. clear - H1 H3.
  destruct (pos a) as [a1 a2 a3], (pos b) as [b1 b2 b3], (pos c) as [c1 c2 c3], d as [d1 d2 d3], e as [e1 e2 e3], v as [v1 v2 v3], w as [w1 w2 w3].
  unfold vadd, vscale in *. cbn [vx vy vz] in *. injection H1 as E1 E2 E3. injection H3 as F1 F2 F3. f_equal; lia.
Qed.

Lemma image_spec t a b : tr_image N natom pos compare dim t a = Some b ->
  b < natom /\ compare a b = true /\ exists d, goes_to t a b d /\ unit_shift d
  /\ get_atom_at N natom pos (shifts dim) (vadd (pos a) t) = Some (b, d).
Proof.
  unfold tr_image. pose proof (get_atom_at_spec (vadd (pos a) t) (shifts dim)) as G.
  destruct (get_atom_at N natom pos (shifts dim) (vadd (pos a) t)) as [[b' d]|] eqn:E; [|discriminate].
  destruct (compare a b') eqn:C; [|discriminate]. intros H. injection H as <-. destruct G as (G1 & G2 & G3).
  apply shifts_spec in G1. destruct G1 as [U P]. split; auto. split; auto. exists d. repeat split; auto.
  all: try apply U; try apply P.
Qed.

Section Phase.
Context (K : cring).
Add Ring KrT : (rth K).
Open Scope K_scope.
Variables bx byy bz : bool.
Variable sz : nat -> nat.

Lemma sgn_sq b : sgn K b * sgn K b = 1.
Proof. destruct b; simpl; ring. Qed.

Lemma phase1 (b : bool) (d e : Z) : (-1 <= d <= 1)%Z -> (-1 <= e <= 1)%Z -> (-1 <= d + e <= 1)%Z ->
  (if Z.eqb (d + e) 0 then 1 else sgn K b) = (if Z.eqb d 0 then 1 else sgn K b) * (if Z.eqb e 0 then 1 else sgn K b).
Proof.
  intros H1 H2 H3. pose proof (sgn_sq b) as S.
  destruct (Z.eqb_spec (d + e) 0); destruct (Z.eqb_spec d 0); destruct (Z.eqb_spec e 0); try lia; rewrite ?S; ring.
Qed.

Lemma phase_add d e : unit_shift d -> unit_shift e -> unit_shift (vadd d e) ->
  phase K bx byy bz (vadd d e) = phase K bx byy bz d * phase K bx byy bz e.
Proof.
  intros (A1 & A2 & A3) (B1 & B2 & B3) (C1 & C2 & C3). unfold phase, vadd in *. cbn [vx vy vz] in *.
  rewrite (phase1 bx (vx d) (vx e)), (phase1 byy (vy d) (vy e)), (phase1 bz (vz d) (vz e)) by lia. ring.
Qed.

Lemma ao_phases_at r (aph : nat -> K) : forall k a m b, (a < k)%nat -> (m < sz a)%nat -> r a = Some b ->
  ao_phases K sz r aph k (off sz a + m)%nat = aph b.
Proof.
  induction k as [|k IH]; intros a m b Ha Hm E; [lia|]. cbn [ao_phases]. destruct (Nat.eq_dec a k) as [->|Hne].
  - rewrite upd_range_in by auto. now rewrite E.
  - rewrite (upd_range_out sz) by auto. apply IH; auto. lia.
Qed.

(** What an accepted translation does: coefficients of the atom that was moved here, with the phase of the boundary
    it crossed. *)
Lemma ao_assign_sizes r : forall k ro io, ao_assign sz r k = Some (ro, io) -> forall a b, (a < k)%nat -> r a = Some b -> sz a = sz b /\ sz a <> 0%nat.
Proof.
  induction k as [|k IH]; intros ro io H a b Ha E; [lia|]. cbn [ao_assign] in H.
  destruct (ao_assign sz r k) as [[r' i']|] eqn:Ek; [|discriminate]. destruct (r k) as [b'|] eqn:Er; [|discriminate].
  destruct (Nat.eqb_spec (sz k) 0); [discriminate|]. destruct (Nat.eqb_spec (sz k) (sz b')); [|discriminate].
  destruct (Nat.eq_dec a k) as [->|]; [|eapply IH; eauto; lia]. rewrite Er in E. injection E as <-. auto.
Qed.

Lemma translation_spec t f : translation N natom pos compare dim K bx byy bz sz t = Some f ->
  forall a m, (a < natom)%nat -> (m < sz a)%nat -> exists b d, (b < natom)%nat /\ goes_to t b a d /\ unit_shift d /\ compare b a = true
    /\ sz b = sz a /\ forall v, f v (off sz a + m)%nat = v (off sz b + m)%nat * phase K bx byy bz d.
Proof.
  unfold translation. destruct (get_atom_reorder natom (tr_image N natom pos compare dim t)) as [| |r i] eqn:G; try discriminate.
  destruct (get_ao_reorder natom sz r) as [| |ro io] eqn:A; try discriminate.
  intros H a m Ha Hm. injection H as <-.
  assert (ILT : forall a b, (a < natom)%nat -> tr_image N natom pos compare dim t a = Some b -> (b < natom)%nat)
    by (intros a' b' _ HI; apply image_spec in HI; tauto).
  destruct (C37_atoms natom _ ILT r i G) as [P IM].
  destruct (proj2 P a Ha) as (b & Hb & Eb & Ei). rewrite IM in Ei by auto.
  destruct (image_spec t b a Ei) as (_ & Cb & d & Gd & Ud & Ed).
  unfold get_ao_reorder in A. destruct (ao_assign sz r natom) as [[r' i']|] eqn:AA; [|discriminate].
  pose proof (ao_assign_sizes r natom _ _ AA) as SZ.
  destruct (C37_aos natom sz r i P) as (ro' & io' & E1 & E2 & E3).
  { intros a' b' Ha' Er. destruct (SZ a' b' Ha' Er). split; auto. }
  unfold get_ao_reorder in E1. rewrite AA in E1.
  rewrite A in E1. injection E1 as <- <-.
  exists b, d. split; auto. split; auto. split; auto. split; auto. split; [symmetry; apply (SZ a b Ha Eb)|].
  intros v. unfold take. rewrite (E3 a b m Ha Eb Hm), (ao_phases_at r _ natom a m b Ha Hm Eb).
  unfold atom_phase. now rewrite Ed.
Qed.

Notation act := (translation N natom pos compare dim K bx byy bz sz).
Notation nao := (off sz natom).

(** Two accepted translations after each other do what the translation by the sum of the vectors does, with its phases. *)
Theorem C38_compose : distinct -> forall v w fv fw fvw, act v = Some fv -> act w = Some fw -> act (vadd v w) = Some fvw ->
  forall c j, (j < nao)%nat -> fw (fv c) j = fvw c j.
Proof.
  intros D v w fv fw fvw Hv Hw Hvw c j Hj. destruct (ao_split sz natom j Hj) as (a & m & Ha & Hm & ->).
  destruct (translation_spec w fw Hw a m Ha Hm) as (b & d & Hb & G1 & U1 & C1 & S1 & F1).
  destruct (translation_spec v fv Hv b m Hb ltac:(lia)) as (s & e & Hs & G2 & U2 & C2 & S2 & F2).
  destruct (translation_spec (vadd v w) fvw Hvw a m Ha Hm) as (s' & g & Hs' & G3 & U3 & C3 & S3 & F3).
  pose proof (goes_trans v w s b a e d G2 G1) as G4.
  assert (s = s' /\ vadd e d = g) as [<- <-].
  { assert (X : goes_to (V 0 0 0) s' s (vadd g (vscale (-1) (vadd e d)))).
    { destruct G3 as [A1 A2], G4 as [A3 A4]. split; [|now apply periodic_sub]. clear - A1 A3.
      destruct (pos a) as [a1 a2 a3], (pos s) as [b1 b2 b3], (pos s') as [c1 c2 c3], d as [d1 d2 d3], e as [e1 e2 e3], v as [v1 v2 v3], w as [w1 w2 w3], g as [g1 g2 g3].
      unfold vadd, vscale in *. cbn [vx vy vz] in *. injection A1 as E1 E2 E3. injection A3 as F1 F2 F3. f_equal; lia. }
    assert (s' = s) as ->.
    { destruct X as [X1 X2]. apply (D s' s _ Hs' Hs X2). rewrite X1. destruct (pos s'); unfold vadd; simpl; f_equal; lia. }
    split; auto. eapply (proj2 (goes_unique D (vadd v w) s a a _ _ Ha Ha G4 G3)). }
  rewrite F1, F2, F3, (phase_add e d) by auto. ring.
Qed.

(** The zero vector is always accepted as far as the positions go and does nothing. *)
Theorem C38_zero : distinct -> forall f, act (V 0 0 0) = Some f -> forall c j, (j < nao)%nat -> f c j = c j.
Proof.
  intros D f H c j Hj. destruct (ao_split sz natom j Hj) as (a & m & Ha & Hm & ->).
  destruct (translation_spec _ f H a m Ha Hm) as (b & d & Hb & G1 & U1 & C1 & S1 & F1).
  assert (G0 : goes_to (V 0 0 0) a a (V 0 0 0)) by (split; [destruct (pos a); unfold vadd, vscale; simpl; f_equal; lia|split; auto]).
  assert (b = a) as ->.
  { apply (D b a d Hb Ha (proj2 G1)). rewrite (proj1 G1). destruct (pos b); unfold vadd; simpl; f_equal; lia. }
  destruct (goes_unique D _ a a a _ _ Ha Ha G1 G0) as [_ ->]. rewrite F1. unfold phase. simpl. ring.
Qed.

(** The translation back is the inverse. *)
Theorem C38_inverse : distinct -> forall v fv fm, act v = Some fv -> act (vscale (-1) v) = Some fm ->
  forall c j, (j < nao)%nat -> fm (fv c) j = c j /\ fv (fm c) j = c j.
Proof.
  intros D v fv fm Hv Hm.
  assert (Back : forall x y fx fy, act x = Some fx -> act y = Some fy -> vadd x y = V 0 0 0 -> forall c j, (j < nao)%nat -> fy (fx c) j = c j).
  { intros x y fx fy Hx Hy E c j Hj. destruct (ao_split sz natom j Hj) as (a & m & Ha & Hm' & ->).
    destruct (translation_spec y fy Hy a m Ha Hm') as (b & d & Hb & G1 & U1 & C1 & S1 & F1).
    destruct (translation_spec x fx Hx b m Hb ltac:(lia)) as (s & e & Hs & G2 & U2 & C2 & S2 & F2).
    pose proof (goes_trans x y s b a e d G2 G1) as G4. rewrite E in G4.
    assert (s = a) as ->.
    { apply (D s a _ Hs Ha (proj2 G4)). rewrite (proj1 G4). destruct (pos s); unfold vadd; simpl; f_equal; lia. }
    assert (G0 : goes_to (V 0 0 0) a a (V 0 0 0)) by (split; [destruct (pos a); unfold vadd, vscale; simpl; f_equal; lia|split; auto]).
    destruct (goes_unique D _ a a a _ _ Ha Ha G4 G0) as [_ Z].
    rewrite F1, F2, <- (rmul_assoc (rth K)) || rewrite F1, F2.
    transitivity (c (off sz a + m)%nat * (phase K bx byy bz e * phase K bx byy bz d)); [ring|].
    rewrite <- phase_add; auto; rewrite Z; [unfold phase; simpl; ring|unfold unit_shift; simpl; lia]. }
  intros c j Hj. split; [apply (Back v (vscale (-1) v))|apply (Back (vscale (-1) v) v)]; auto;
    destruct v as [v1 v2 v3]; unfold vadd, vscale; cbn [vx vy vz]; f_equal; lia.
Qed.

(** ** Which translations are accepted *)
(** The translated set of atoms is the same set up to lattice vectors, and atoms are moved to equal atoms. *)
Definition symmetry_of_atoms (t : vec) : Prop :=
  forall a, (a < natom)%nat -> exists b d, (b < natom)%nat /\ goes_to t a b d /\ compare a b = true.
Definition wrapped : Prop := forall a, (a < natom)%nat -> (0 <= vx (pos a) < N /\ 0 <= vy (pos a) < N /\ 0 <= vz (pos a) < N)%Z.
Definition short (t : vec) : Prop := (Z.abs (vx t) < N /\ Z.abs (vy t) < N /\ Z.abs (vz t) < N)%Z.
(** equal atoms have the same (non-empty) basis *)
Definition basis_compared : Prop := forall a b, (a < natom)%nat -> (b < natom)%nat -> compare a b = true -> sz a = sz b /\ sz a <> 0%nat.

Lemma symmetry_compose : (forall a b c, compare a b = true -> compare b c = true -> compare a c = true) ->
  forall v w, symmetry_of_atoms v -> symmetry_of_atoms w -> symmetry_of_atoms (vadd v w).
Proof.
  intros T v w H1 H2 a Ha. destruct (H1 a Ha) as (b & d & Hb & G1 & C1). destruct (H2 b Hb) as (c & e & Hc & G2 & C2).
  exists c, (vadd d e). split; auto. split; [eapply goes_trans; eauto|eauto].
Qed.

Lemma image_complete : distinct -> wrapped -> forall t, short t -> forall a b d, (a < natom)%nat -> (b < natom)%nat -> goes_to t a b d -> compare a b = true ->
  tr_image N natom pos compare dim t a = Some b.
Proof.
  intros D W t Sh a b d Ha Hb G C. unfold tr_image.
  pose proof (get_atom_at_spec (vadd (pos a) t) (shifts dim)) as S.
  assert (U : unit_shift d).
  { destruct G as [G _]. pose proof (W a Ha) as WA. pose proof (W b Hb) as WB. unfold short in Sh. clear - G WA WB Sh Npos.
    destruct (pos a) as [a1 a2 a3], (pos b) as [b1 b2 b3], t as [t1 t2 t3], d as [d1 d2 d3]. unfold vadd, vscale, unit_shift in *. cbn [vx vy vz] in *.
    injection G as G1 G2 G3. split; [|split]; nia. }
  assert (I : In d (shifts dim)) by (apply shifts_spec; split; auto; apply G).
  destruct (get_atom_at N natom pos (shifts dim) (vadd (pos a) t)) as [[b' d']|].
  - destruct S as (S1 & S2 & S3). apply shifts_spec in S1.
    destruct (goes_unique D t a b' b d' d S2 Hb) as [-> _]; [split; tauto|auto|]. now rewrite C.
  - exfalso. eapply S; [exact I|exact Hb|apply G].
Qed.

(** With positions inside the cell, a translation by less than a lattice vector is accepted if and only if it is a
    symmetry of the atoms. *)
Theorem C38_accepted : distinct -> wrapped -> basis_compared -> forall t, short t ->
  ((exists f, act t = Some f) <-> symmetry_of_atoms t).
Proof.
  intros D W B t Sh. split.
  - intros [f H]. unfold translation in H. destruct (get_atom_reorder natom (tr_image N natom pos compare dim t)) as [| |r i] eqn:G; try discriminate.
    assert (ILT : forall a b, (a < natom)%nat -> tr_image N natom pos compare dim t a = Some b -> (b < natom)%nat)
      by (intros a' b' _ HI; apply image_spec in HI; tauto).
    destruct (C37_atoms natom _ ILT r i G) as [P IM]. intros a Ha.
    destruct (proj1 P a Ha) as (b & Hb & E1 & E2). rewrite IM in E1 by auto. destruct (image_spec t a b E1) as (_ & C & d & Gd & _).
    exists b, d. auto.
  - intros S.
    assert (IM : forall a, (a < natom)%nat -> exists b d, (b < natom)%nat /\ goes_to t a b d /\ compare a b = true /\ tr_image N natom pos compare dim t a = Some b).
    { intros a Ha. destruct (S a Ha) as (b & d & Hb & G & C). exists b, d. repeat split; auto; try apply G. eapply image_complete; eauto. }
    assert (ILT : forall a b, (a < natom)%nat -> tr_image N natom pos compare dim t a = Some b -> (b < natom)%nat)
      by (intros a' b' _ HI; apply image_spec in HI; tauto).
    unfold translation. destruct (get_atom_reorder natom (tr_image N natom pos compare dim t)) as [| |r i] eqn:G.
    + exfalso. apply C37_rejected in G. destruct G as (a & Ha & E). destruct (IM a Ha) as (b & d & _ & _ & _ & E'). congruence.
    + exfalso. apply C37_collision in G; [|exact ILT]. destruct G as (_ & a & b & Hab & Hb & E).
      destruct (IM a ltac:(lia)) as (x & d & Hx & G1 & _ & E1). destruct (IM b Hb) as (y & e & Hy & G2 & _ & E2).
      rewrite E1, E2 in E. injection E as ->.
      assert (a = b); [|lia]. apply (D a b (vadd d (vscale (-1) e)) ltac:(lia) Hb (periodic_sub _ _ (proj2 G1) (proj2 G2))).
      destruct G1 as [G1 _], G2 as [G2 _]. clear - G1 G2.
      destruct (pos a) as [a1 a2 a3], (pos b) as [b1 b2 b3], (pos y) as [y1 y2 y3], t as [t1 t2 t3], d as [d1 d2 d3], e as [e1 e2 e3]. unfold vadd, vscale in *. cbn [vx vy vz] in *.
      injection G1 as G1 G3 G5. injection G2 as G2 G4 G6. f_equal; lia.
    + destruct (C37_atoms natom _ ILT r i G) as [P IM'].
      destruct (C37_aos natom sz r i P) as (ro & io & E & _).
      { intros a b Ha Er. destruct (proj2 P a Ha) as (b' & Hb & E1 & E2). rewrite Er in E1. injection E1 as <-.
        rewrite IM' in E2 by auto. destruct (image_spec t b a E2) as (_ & C & _). destruct (B b a Hb Ha C). split; congruence. }
      rewrite E. eauto.
Qed.

(** ** All translations of a mesh *)
Definition mesh_vec (ux uy uz : vec) (x y z : nat) : vec :=
  vadd (vadd (vscale (Z.of_nat x) ux) (vscale (Z.of_nat y) uy)) (vscale (Z.of_nat z) uz).

Lemma symmetry_zero : (forall a, compare a a = true) -> symmetry_of_atoms (V 0 0 0).
Proof.
  intros R a Ha. exists a, (V 0 0 0). split; auto. split; auto. split; [|split; auto].
  destruct (pos a); unfold vadd, vscale; simpl; f_equal; lia.
Qed.

Lemma symmetry_scale : (forall a, compare a a = true) -> (forall a b c, compare a b = true -> compare b c = true -> compare a c = true) ->
  forall u, symmetry_of_atoms u -> forall k, symmetry_of_atoms (vscale (Z.of_nat k) u).
Proof.
  intros R T u H. induction k as [|k IH].
  - replace (vscale (Z.of_nat 0) u) with (V 0 0 0) by reflexivity. now apply symmetry_zero.
  - replace (vscale (Z.of_nat (S k)) u) with (vadd (vscale (Z.of_nat k) u) u).
    + now apply symmetry_compose.
    + destruct u as [u1 u2 u3]; unfold vadd, vscale. cbn [vx vy vz]. f_equal; lia.
Qed.

(** If the three shortest translations of a mesh are accepted, all its translations are. *)
Theorem C38_mesh : distinct -> wrapped -> basis_compared -> (forall a, compare a a = true) ->
  (forall a b c, compare a b = true -> compare b c = true -> compare a c = true) ->
  forall nx ny nz kx ky kz, (Z.of_nat (nx * kx) = N)%Z -> (Z.of_nat (ny * ky) = N)%Z -> (Z.of_nat (nz * kz) = N)%Z ->
  (nx <> 1%nat -> exists f, act (tvec kx ky kz (1, 0, 0)%nat) = Some f) ->
  (ny <> 1%nat -> exists f, act (tvec kx ky kz (0, 1, 0)%nat) = Some f) ->
  (nz <> 1%nat -> exists f, act (tvec kx ky kz (0, 0, 1)%nat) = Some f) ->
  forall t, In t (symlist nx ny nz) -> exists f, act (tvec kx ky kz t) = Some f.
Proof.
  intros D W B R T nx ny nz kx ky kz Ex Ey Ez Hx Hy Hz [[x y] z] Ht.
  assert (L : (x < nx /\ y < ny /\ z < nz)%nat).
  { unfold symlist, mesh_all in Ht. assert (In (x, y, z) (flat_map (fun x => flat_map (fun y => map (fun z => (x, y, z)) (seq 0 nz)) (seq 0 ny)) (seq 0 nx))) as H
      by (destruct (flat_map _ _); simpl in *; auto).
    apply in_flat_map in H. destruct H as (x' & H1 & H). apply in_flat_map in H. destruct H as (y' & H2 & H). apply in_map_iff in H.
    destruct H as (z' & E & H3). injection E as -> -> ->. rewrite in_seq in *. lia. }
  destruct L as (Lx & Ly & Lz).
  assert (KX : (0 < kx)%nat) by (destruct kx; try lia; rewrite Nat.mul_0_r in Ex; simpl in Ex; lia).
  assert (KY : (0 < ky)%nat) by (destruct ky; try lia; rewrite Nat.mul_0_r in Ey; simpl in Ey; lia).
  assert (KZ : (0 < kz)%nat) by (destruct kz; try lia; rewrite Nat.mul_0_r in Ez; simpl in Ez; lia).
  assert (BX : forall n k q, (Z.of_nat (n * k) = N)%Z -> (q < n)%nat -> (0 < k)%nat -> (Z.of_nat (q * k) < N)%Z).
  { intros n k q E Hq Hk. assert (q * k < n * k)%nat by (apply Nat.mul_lt_mono_pos_r; auto). lia. }
  apply C38_accepted; auto.
  - unfold short, tvec. cbn [vx vy vz]. repeat split; rewrite Z.abs_eq by lia; eauto.
  - replace (tvec kx ky kz (x, y, z)) with (mesh_vec (tvec kx ky kz (1, 0, 0)%nat) (tvec kx ky kz (0, 1, 0)%nat) (tvec kx ky kz (0, 0, 1)%nat) x y z).
    2:{ unfold mesh_vec, tvec, vadd, vscale. cbn [vx vy vz]. f_equal; lia. }
    assert (ZS : forall u, symmetry_of_atoms (vscale (Z.of_nat 0) u)) by (intros u; replace (vscale (Z.of_nat 0) u) with (V 0 0 0) by reflexivity; now apply symmetry_zero).
    unfold mesh_vec. apply symmetry_compose; auto; [apply symmetry_compose; auto|].
    + destruct (Nat.eq_dec nx 1); [replace x with 0%nat by lia; auto|]. apply symmetry_scale; auto.
      apply C38_accepted; auto. unfold short, tvec. cbn [vx vy vz]. repeat split; rewrite Z.abs_eq by lia; try lia. eapply BX; eauto; lia.
    + destruct (Nat.eq_dec ny 1); [replace y with 0%nat by lia; auto|]. apply symmetry_scale; auto.
      apply C38_accepted; auto. unfold short, tvec. cbn [vx vy vz]. repeat split; rewrite Z.abs_eq by lia; try lia. eapply BX; eauto; lia.
    + destruct (Nat.eq_dec nz 1); [replace z with 0%nat by lia; auto|]. apply symmetry_scale; auto.
      apply C38_accepted; auto. unfold short, tvec. cbn [vx vy vz]. repeat split; rewrite Z.abs_eq by lia; try lia. eapply BX; eauto; lia.
Qed.
End Phase.

(** ** Orbits: different translations of a mesh move an atom to different atoms *)
Theorem C38_orbit : forall nx ny nz kx ky kz, (Z.of_nat (nx * kx) = N)%Z -> (Z.of_nat (ny * ky) = N)%Z -> (Z.of_nat (nz * kz) = N)%Z ->
  forall t t' a b, In t (mesh_all nx ny nz) -> In t' (mesh_all nx ny nz) ->
  tr_image N natom pos compare dim (tvec kx ky kz t) a = Some b -> tr_image N natom pos compare dim (tvec kx ky kz t') a = Some b -> t = t'.
Proof.
  intros nx ny nz kx ky kz Ex Ey Ez [[x y] z] [[x' y'] z'] a b Ht Ht' I1 I2.
  assert (L : forall x y z, In (x, y, z) (mesh_all nx ny nz) -> x < nx /\ y < ny /\ z < nz).
  { clear. intros x y z H. unfold mesh_all in H.
    apply in_flat_map in H. destruct H as (x' & H1 & H). apply in_flat_map in H. destruct H as (y' & H2 & H). apply in_map_iff in H.
    destruct H as (z' & E & H3). injection E as -> -> ->. rewrite in_seq in *. lia. }
  apply L in Ht. apply L in Ht'. destruct (image_spec _ _ _ I1) as (_ & _ & d & [G1 _] & _). destruct (image_spec _ _ _ I2) as (_ & _ & e & [G2 _] & _).
  assert (Q : forall n k u u' p q (w w' : Z), Z.of_nat (n * k) = N -> u < n -> u' < n -> (q + N * w = p + Z.of_nat (u * k))%Z -> (q + N * w' = p + Z.of_nat (u' * k))%Z -> u = u').
  { clear - Npos. intros n k u u' p q w w' E H1 H2 H3 H4.
    assert (KP : (0 < Z.of_nat k)%Z) by (destruct k; [rewrite Nat.mul_0_r in E; simpl in E; lia|lia]).
    rewrite Nat2Z.inj_mul in *.
    assert ((Z.of_nat u - Z.of_nat u') = Z.of_nat n * (w - w'))%Z by nia.
    assert (w = w') by nia. subst w'. nia. }
  destruct (pos a) as [a1 a2 a3], (pos b) as [b1 b2 b3], d as [d1 d2 d3], e as [e1 e2 e3]. unfold vadd, vscale, tvec in *. cbn [vx vy vz] in *.
  injection G1 as A1 A2 A3. injection G2 as B1 B2 B3.
  rewrite (Q nx kx x x' a1 b1 d1 e1), (Q ny ky y y' a2 b2 d2 e2), (Q nz kz z z' a3 b3 d3 e3); auto; tauto.
Qed.

(** ** Equivalent atoms *)
Section Equivalent.
Variable same : nat -> nat -> bool.
Variable order : list nat -> list nat.
Hypothesis order_set : forall l x, In x (order l) <-> In x l.
Hypothesis same_refl : forall a, same a a = true.
Hypothesis same_sym : forall a b, same a b = true -> same b a = true.
Hypothesis same_trans : forall a b c, same a b = true -> same b c = true -> same a c = true.

(** Same atoms at positions that differ by a lattice vector. *)
Definition equivalent (a b : nat) : Prop :=
  same a b = true /\ exists d, pos b = vadd (pos a) (vscale N d).

Lemma equivalent_dec a b : (same a b && lattice_distance N pos a b)%bool = true <-> equivalent a b.
Proof.
  unfold equivalent, lattice_distance. rewrite !andb_true_iff, !Z.eqb_eq. split.
  - intros (H & (H1 & H2) & H3). split; auto.
    exists (V ((vx (pos b) - vx (pos a)) / N) ((vy (pos b) - vy (pos a)) / N) ((vz (pos b) - vz (pos a)) / N)).
    destruct (pos a) as [a1 a2 a3], (pos b) as [b1 b2 b3]. unfold vadd, vscale. cbn [vx vy vz] in *.
    f_equal; rewrite <- Z_div_exact_full_2; lia.
  - intros (H & d & E). rewrite E. destruct (pos a) as [a1 a2 a3], d as [d1 d2 d3]. unfold vadd, vscale. cbn [vx vy vz].
    split; auto. assert (M : forall p q, ((p + N * q - p) mod N = 0)%Z) by (intros p q; replace (p + N * q - p)%Z with (q * N)%Z by lia; apply Z_mod_mult).
    rewrite !M. auto.
Qed.

Lemma equivalent_refl a : equivalent a a.
Proof. split; auto. exists (V 0 0 0). destruct (pos a) as [a1 a2 a3]; unfold vadd, vscale; cbn [vx vy vz]; f_equal; lia. Qed.

Lemma equivalent_sym a b : equivalent a b -> equivalent b a.
Proof.
  intros (H & d & E). split; auto. exists (vscale (-1) d). rewrite E. destruct (pos a) as [a1 a2 a3], d as [d1 d2 d3]. unfold vadd, vscale; cbn [vx vy vz]; f_equal; lia.
Qed.

Lemma equivalent_trans a b c : equivalent a b -> equivalent b c -> equivalent a c.
Proof.
  intros (H & d & E) (H' & e & E'). split; [eauto|]. exists (vadd d e). rewrite E', E. destruct (pos a) as [a1 a2 a3], d as [d1 d2 d3], e as [e1 e2 e3]. unfold vadd, vscale; cbn [vx vy vz]; f_equal; lia.
Qed.

(** Every atom is assigned the first atom equivalent to it. *)
Theorem C38_first_equivalent : forall k, length (tsym_atoms N pos same order k) = k /\
  forall a, a < k -> let b := nth a (tsym_atoms N pos same order k) 0 in
    b <= a /\ equivalent a b /\ forall c, equivalent a c -> b <= c.
Proof.
  induction k as [|k [IL IH]]; [split; auto; intros; lia|]. cbn [tsym_atoms].
  set (ind := tsym_atoms N pos same order k) in *.
  assert (IN : forall b, In b ind -> b < k /\ nth b ind 0 = b).
  { intros b Hb. apply (In_nth _ _ 0) in Hb. destruct Hb as (a & Ha & E). rewrite IL in Ha. destruct (IH a Ha) as (H1 & H2 & H3). rewrite E in *.
    split; [lia|]. destruct (IH b ltac:(lia)) as (G1 & G2 & G3). apply Nat.le_antisymm; auto. apply H3. eapply equivalent_trans; eauto. }
  assert (X : forall b, (b = k \/ In b ind) -> equivalent k b -> (forall c, equivalent k c -> b <= c) ->
    length (ind ++ [b]) = S k /\ forall a, a < S k -> let b' := nth a (ind ++ [b]) 0 in b' <= a /\ equivalent a b' /\ forall c, equivalent a c -> b' <= c).
  { intros b Hb E L. split; [rewrite app_length, IL; simpl; lia|]. intros a Ha. destruct (Nat.eq_dec a k) as [->|].
    - rewrite app_nth2 by lia. rewrite IL, Nat.sub_diag. simpl. split; [|auto]. apply L. apply equivalent_refl.
    - rewrite app_nth1 by lia. apply IH. lia. }
  assert (LE : forall b, In b ind -> equivalent k b -> forall c, equivalent k c -> b <= c).
  { intros b Hb E c Ec. destruct (IN b Hb) as [Hk Hn]. destruct (IH b Hk) as (G1 & G2 & G3). rewrite Hn in G3. apply G3.
    eapply equivalent_trans; [apply equivalent_sym; exact E|auto]. }
  destruct (find _ (order ind)) as [b|] eqn:F.
  - apply find_some in F. destruct F as [F1 F2]. apply (proj1 (order_set _ _)) in F1. apply equivalent_dec in F2. apply X; auto.
  - apply X; auto; [apply equivalent_refl|]. intros c Ec. destruct (le_lt_dec k c); auto. exfalso.
    destruct (IH c ltac:(lia)) as (G1 & G2 & G3). set (b := nth c ind 0) in *.
    assert (In b ind) by (apply nth_In; rewrite IL; lia).
    pose proof (find_none _ _ F b (proj2 (order_set _ _) H)) as FN. cbv beta in FN.
    assert (E : equivalent k b) by (eapply equivalent_trans; eauto). apply equivalent_dec in E. congruence.
Qed.
End Equivalent.
End T.

(** ** The lists of translations *)
(** Each translation of the mesh except the zero one, exactly once; both loops give the same translations. *)
Theorem C38_list : forall nx ny nz, NoDup (symlist nx ny nz) /\ NoDup (loop_tvecs false nx ny nz) /\
  forall t, (In t (symlist nx ny nz) <-> In t (loop_tvecs false nx ny nz)) /\
  (In t (symlist nx ny nz) <-> let '(x, y, z) := t in x < nx /\ y < ny /\ z < nz /\ t <> (0, 0, 0)).
Proof.
  intros nx ny nz.
  assert (ND : forall (A : Type) (l : list nat) (f : nat -> list A), NoDup l -> (forall x, In x l -> NoDup (f x)) ->
    (forall x y u, In x l -> In y l -> In u (f x) -> In u (f y) -> x = y) -> NoDup (flat_map f l)).
  { clear. intros A l f. induction l as [|x l IH]; intros H1 H2 H3; simpl; [constructor|]. inversion H1; subst.
    assert (I : NoDup (flat_map f l)) by (apply IH; auto; [intros; apply H2; simpl; auto|intros; eapply H3; simpl; eauto]).
    assert (J : NoDup (f x)) by (apply H2; simpl; auto).
    assert (D : forall u, In u (f x) -> ~ In u (flat_map f l)).
    { intros u Hu Hin. apply in_flat_map in Hin. destruct Hin as (y & Hy & Hu'). assert (x = y) by (eapply H3; simpl; eauto). subst. auto. }
    revert J D. generalize (f x). induction l0 as [|a l0 IHl]; simpl; auto. intros J D. inversion J; subst. constructor.
    - rewrite in_app_iff. intros [|]; [auto|]. eapply D; eauto.
    - apply IHl; auto. }
  assert (ALL : forall x y z, In (x, y, z) (mesh_all nx ny nz) <-> x < nx /\ y < ny /\ z < nz).
  { intros x y z. unfold mesh_all. rewrite in_flat_map. split.
    - intros (x' & H1 & H). apply in_flat_map in H. destruct H as (y' & H2 & H). apply in_map_iff in H. destruct H as (z' & E & H3).
      injection E as -> -> ->. rewrite in_seq in *. lia.
    - intros (H1 & H2 & H3). exists x. rewrite in_seq. split; [lia|]. apply in_flat_map. exists y. rewrite in_seq. split; [lia|].
      apply in_map_iff. exists z. rewrite in_seq. split; auto; lia. }
  assert (NDA : NoDup (mesh_all nx ny nz)).
  { unfold mesh_all. apply ND; [apply seq_NoDup| |].
    - intros x _. apply ND; [apply seq_NoDup| |].
      + intros y _. apply FinFun.Injective_map_NoDup; [intros a b E; now injection E|apply seq_NoDup].
      + intros a b u _ _ H1 H2. apply in_map_iff in H1. apply in_map_iff in H2. destruct H1 as (? & <- & _), H2 as (? & E & _). now injection E.
    - intros a b u _ _ H1 H2. apply in_flat_map in H1. apply in_flat_map in H2. destruct H1 as (? & _ & H1), H2 as (? & _ & H2).
      apply in_map_iff in H1. apply in_map_iff in H2. destruct H1 as (? & <- & _), H2 as (? & E & _). now injection E. }
  assert (HD : mesh_all nx ny nz = [] \/ exists l, mesh_all nx ny nz = (0, 0, 0) :: l).
  { unfold mesh_all. destruct nx as [|nx]; [auto|]. destruct ny as [|ny].
    - left. clear. induction (seq 0 (S nx)); simpl; auto.
    - destruct nz as [|nz]; [left|right; simpl; eauto]. clear. assert (Z : forall x l, flat_map (fun y : nat => map (fun z : nat => (x, y, z)) (seq 0 0)) l = @nil (nat * nat * nat)) by (induction l; simpl; auto).
      induction (seq 0 (S nx)) as [|a l IH]; cbn [flat_map]; [reflexivity|]. rewrite (Z a). exact IH. }
  assert (SYM : forall t, In t (symlist nx ny nz) <-> In t (mesh_all nx ny nz) /\ t <> (0, 0, 0)).
  { intros t. unfold symlist. destruct HD as [E|[l E]]; rewrite E in *; simpl; [tauto|]. inversion NDA; subst. split.
    - intros H. split; auto. intros ->. auto.
    - intros [[H|H] H']; auto. congruence. }
  assert (LOOP : forall t, In t (loop_tvecs false nx ny nz) <-> In t (mesh_all nx ny nz) /\ t <> (0, 0, 0)).
  { intros [[x y] z]. unfold loop_tvecs. rewrite filter_In, ALL. split.
    - intros [H Hz]. cbn in Hz. apply in_flat_map in H. destruct H as (z' & H1 & H). apply in_flat_map in H. destruct H as (y' & H2 & H). apply in_map_iff in H.
      destruct H as (x' & E & H3). injection E as -> -> ->. rewrite in_seq in *. split; [lia|]. intros E. injection E as -> -> ->. discriminate.
    - intros [(H1 & H2 & H3) Hne]. split.
      + apply in_flat_map. exists z. rewrite in_seq. split; [lia|]. apply in_flat_map. exists y. rewrite in_seq. split; [lia|].
        apply in_map_iff. exists x. rewrite in_seq. split; auto; lia.
      + cbn. destruct (Nat.eqb_spec (x + y + z) 0); auto. exfalso. apply Hne. f_equal; [f_equal|]; lia. }
  split.
  { unfold symlist. destruct HD as [E|[l E]]; rewrite E in *; [constructor|]. now inversion NDA. }
  split.
  { unfold loop_tvecs. apply NoDup_filter. apply ND; [apply seq_NoDup| |].
    - intros x _. apply ND; [apply seq_NoDup| |].
      + intros y _. apply FinFun.Injective_map_NoDup; [intros a b E; now injection E|apply seq_NoDup].
      + intros a b u _ _ H1 H2. apply in_map_iff in H1. apply in_map_iff in H2. destruct H1 as (? & <- & _), H2 as (? & E & _). now injection E.
    - intros a b u _ _ H1 H2. apply in_flat_map in H1. apply in_flat_map in H2. destruct H1 as (? & _ & H1), H2 as (? & _ & H2).
      apply in_map_iff in H1. apply in_map_iff in H2. destruct H1 as (? & <- & _), H2 as (? & E & _). now injection E. }
  intros t. split; [rewrite SYM, LOOP; reflexivity|]. rewrite SYM. destruct t as [[x y] z]. rewrite ALL. tauto.
Qed.

(** ** Mesh from translation vectors *)
(** Correct for translation vectors whose length is a whole number of Bohr. *)
Theorem C38_mesh_number : forall (n t : positive), mesh_number (inject_Z (Z.pos (n * t))) (inject_Z (Z.pos t)) = Some (Z.pos n).
Proof.
  intros n t.
  assert (R : forall x (z : Z), (x == inject_Z z)%Q -> rnd x = z).
  { intros x z E. unfold rnd. cbv zeta. replace (Qfloor x) with z by (rewrite (Qfloor_comp _ _ E), Qfloor_Z; auto).
    replace (x - inject_Z z ?= 1 # 2)%Q with Lt; auto. symmetry. apply (proj1 (Qlt_alt _ _)). rewrite E.
    unfold Qlt, Qminus, Qplus, Qopp, inject_Z. cbn [Qnum Qden]. lia. }
  unfold mesh_number. rewrite (R (inject_Z (Z.pos t)) (Z.pos t)) by reflexivity. simpl Z.eqb. cbv iota. f_equal. apply R.
  rewrite Pos2Z.inj_mul, inject_Z_mult. field. intros H. unfold Qeq in H. simpl in H. lia.
Qed.

(** Finding: three translations of 1.6 Bohr along a lattice vector of 4.8 Bohr are taken for two, without an error;
    a translation of 0.4 Bohr is a division by zero. *)
Theorem C38_mesh_number_refuted : ~ (forall (n : positive) (t : Q), 0 < t -> mesh_number (inject_Z (Z.pos n) * t) t = Some (Z.pos n))%Q
  /\ mesh_number (24 # 5) (8 # 5) = Some 2%Z /\ mesh_number (4 # 5) (2 # 5) = None.
Proof.
  split; [|split; vm_compute; reflexivity]. intros H. specialize (H 3%positive (8 # 5)%Q). vm_compute in H. specialize (H eq_refl). discriminate.
Qed.

(** Finding: a translation by half a lattice vector is refused for a periodic chain of two equal atoms if one of them is
    given in another cell, because only neighbouring cells are searched. *)
Theorem C38_unwrapped_refuted : exists (pos : nat -> vec),
  symmetry_of_atoms 2 2 pos (fun _ _ => true) 3 (V 1 0 0) /\ distinct 2 2 pos 3
  /\ translation 2 2 pos (fun _ _ => true) 3 ZK true true true (fun _ => 1) (V 1 0 0) = None.
Proof.
  exists (fun a => match a with O => V 0 0 0 | _ => V 5 0 0 end). split; [|split].
  - intros a Ha. destruct a as [|[|a]]; [exists 1, (V (-2) 0 0)|exists 0, (V 3 0 0)|lia]; (split; [lia|split; [split; [reflexivity|split; reflexivity]|reflexivity]]).
  - intros a b d Ha Hb _ E. destruct a as [|[|a]], b as [|[|b]]; try lia; unfold vadd, vscale in E; apply (f_equal vx) in E; cbn [vx] in E; lia.
  - reflexivity.
Qed.

(** Example: a ring of four atoms with antiperiodic boundary (N = 4, one orbital each): translating by one four times is
    the translation by four cells, minus the identity; by 2 and 1 is by 3. *)
Definition ring4 (a : nat) : vec := V (Z.of_nat a) 0 0.
Definition ring_act (t : Z) := translation 4 4 ring4 (fun _ _ => true) 1 ZK false true true (fun _ => 1) (V t 0 0).
Definition ring_on (t : Z) (c : list Z) : list Z :=
  match ring_act t with Some f => map (f (fun j => nth j c 0%Z)) (seq 0 4) | None => [] end.
Example ring_examples :
  ring_on 1 [10; 20; 30; 40]%Z = [-40; 10; 20; 30]%Z /\ ring_on 2 (ring_on 1 [10; 20; 30; 40]%Z) = ring_on 3 [10; 20; 30; 40]%Z
  /\ ring_on 3 [10; 20; 30; 40]%Z = [-20; -30; -40; 10]%Z /\ ring_on (-1) [10; 20; 30; 40]%Z = [20; 30; 40; -10]%Z
  /\ ring_on 4 [1; 2; 3; 4]%Z = [-1; -2; -3; -4]%Z.
Proof. repeat split; reflexivity. Qed.
Example ring_hyps : distinct 4 4 ring4 1 /\ wrapped 4 4 ring4 /\ basis_compared 4 (fun _ _ => true) (fun _ => 1)
  /\ symmetry_of_atoms 4 4 ring4 (fun _ _ => true) 1 (V 1 0 0).
Proof.
  split; [|split; [|split]].
  - intros a b d Ha Hb _ E. unfold ring4, vadd, vscale in E. apply (f_equal vx) in E. cbn [vx] in E. lia.
  - intros a Ha. unfold ring4. cbn [vx vy vz]. lia.
  - intros a b _ _ _. auto.
  - intros a Ha. destruct a as [|[|[|[|a]]]]; [exists 1, (V 0 0 0)|exists 2, (V 0 0 0)|exists 3, (V 0 0 0)|exists 0, (V 1 0 0)|lia];
      (split; [lia|split; [split; [reflexivity|split; reflexivity]|reflexivity]]).
Qed.
Example symlist_example : symlist 2 1 2 = [(0, 0, 1); (1, 0, 0); (1, 0, 1)] /\ loop_tvecs false 2 1 2 = [(1, 0, 0); (0, 0, 1); (1, 0, 1)].
Proof. split; reflexivity. Qed.
Example tsym_example : tsym_atoms 2 (fun a => V (Z.of_nat a) 0 0) (fun a b => Bool.eqb (Nat.even (a / 3)) (Nat.even (b / 3))) (@rev nat) 7 = [0; 1; 0; 3; 4; 3; 0].
Proof. reflexivity. Qed.

Print Assumptions C38_compose. Print Assumptions C38_zero. Print Assumptions C38_inverse. Print Assumptions C38_accepted.
Print Assumptions C38_mesh. Print Assumptions C38_orbit. Print Assumptions C38_first_equivalent. Print Assumptions C38_list.
Print Assumptions C38_mesh_number. Print Assumptions C38_mesh_number_refuted. Print Assumptions C38_unwrapped_refuted.
