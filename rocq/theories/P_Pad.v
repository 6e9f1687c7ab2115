(** C52: dummy orbitals do not change the Hamiltonian of a cluster. *)
From Coq Require Import List Bool Arith ZArith Lia.
From Verif Require Import Alg Ord M_Pad.
Import ListNotations.
Open Scope nat_scope.

Section Thms.
Context (K : oring).
Add Ring Kr : (rth K).
Open Scope K_scope.
Notation arr := (list nat -> K).

(** The padded array: elements of real orbitals kept, the dummy diagonal of a one-particle matrix set, everything else zero. [n] orbitals, nmo after padding. *)
Lemma pad1 na nb d n (a : arr) : (n = na \/ n = nb)%nat -> exists b, pad_to_match (na, nb) d [n] a = Some b
  /\ forall p, (p < Nat.max na nb)%nat -> b [p] = if (p <? n)%nat then a [p] else d.
Proof.
  intros Hn. unfold pad_to_match. cbn [fst snd]. destruct (Nat.eqb_spec (Nat.min na nb) (Nat.max na nb)) as [E|E].
  - exists a. split; auto. intros p Hp. destruct (Nat.ltb_spec p n); [reflexivity|lia].
  - unfold pad, fits, topad. cbn [map existsb forallb].
    destruct (Nat.ltb_spec n (Nat.max na nb)) as [L|L]; cbn [orb andb negb].
    + destruct (Nat.eqb_spec n (Nat.min na nb)); [|lia]. cbn [andb negb]. eexists. split; [reflexivity|]. intros p Hp. cbn [reached diag_index forallb].
      destruct (Nat.leb_spec (Nat.min na nb) p), (Nat.ltb_spec p (Nat.max na nb)), (Nat.ltb_spec p n), (Nat.ltb_spec p (Nat.min na nb)); cbn [andb]; try lia; auto.
    + eexists. split; [reflexivity|]. intros p Hp. destruct (Nat.ltb_spec p n); [reflexivity|lia].
Qed.
Lemma pad_2 na nb d n (a : arr) : (n = na \/ n = nb)%nat -> exists b, pad_to_match (na, nb) d [n; n] a = Some b
  /\ forall p q, (p < Nat.max na nb)%nat -> (q < Nat.max na nb)%nat ->
     b [p; q] = if (p <? n)%nat && (q <? n)%nat then a [p; q] else if (p =? q)%nat then d else 0.
Proof.
  intros Hn. unfold pad_to_match. cbn [fst snd]. destruct (Nat.eqb_spec (Nat.min na nb) (Nat.max na nb)) as [E|E].
  - exists a. split; auto. intros p q Hp Hq. destruct (Nat.ltb_spec p n), (Nat.ltb_spec q n); try lia. reflexivity.
  - unfold pad, fits, topad. cbn [map existsb forallb].
    destruct (Nat.ltb_spec n (Nat.max na nb)) as [L|L]; cbn [orb andb negb].
    + destruct (Nat.eqb_spec n (Nat.min na nb)); [|lia]. cbn [andb negb]. eexists. split; [reflexivity|]. intros p q Hp Hq. subst n. cbn [reached diag_index forallb].
      destruct (Nat.leb_spec (Nat.min na nb) p), (Nat.ltb_spec p (Nat.max na nb)), (Nat.ltb_spec p (Nat.min na nb)),
        (Nat.ltb_spec q (Nat.min na nb)), (Nat.eqb_spec p q), (Nat.eqb_spec q p); cbn [andb]; try lia; auto.
    + eexists. split; [reflexivity|]. intros p q Hp Hq. destruct (Nat.ltb_spec p n), (Nat.ltb_spec q n); try lia. reflexivity.
Qed.
Lemma pad4 na nb n m (a : arr) : ((n = na \/ n = nb) /\ (m = na \/ m = nb))%nat -> exists b, pad_to_match (na, nb) 0 [n; n; m; m] a = Some b
  /\ forall p q r s, (p < Nat.max na nb)%nat -> (q < Nat.max na nb)%nat -> (r < Nat.max na nb)%nat -> (s < Nat.max na nb)%nat ->
     b [p; q; r; s] = if (p <? n)%nat && (q <? n)%nat && (r <? m)%nat && (s <? m)%nat then a [p; q; r; s] else 0.
Proof.
  intros [Hn Hm]. unfold pad_to_match. cbn [fst snd]. destruct (Nat.eqb_spec (Nat.min na nb) (Nat.max na nb)) as [E|E].
  - exists a. split; auto. intros p q r s Hp Hq Hr Hs. destruct (Nat.ltb_spec p n), (Nat.ltb_spec q n), (Nat.ltb_spec r m), (Nat.ltb_spec s m); try lia. reflexivity.
  - unfold pad, fits, topad. cbn [map existsb forallb].
    destruct (Nat.ltb_spec n (Nat.max na nb)) as [L|L], (Nat.ltb_spec m (Nat.max na nb)) as [L'|L'];
      try (destruct (Nat.eqb_spec n (Nat.min na nb)); [|lia]); try (destruct (Nat.eqb_spec m (Nat.min na nb)); [|lia]);
      try (destruct (Nat.eqb_spec n (Nat.max na nb)); [|lia]); try (destruct (Nat.eqb_spec m (Nat.max na nb)); [|lia]);
      cbn [orb andb negb forallb]; (eexists; split; [reflexivity|]); intros p q r s Hp Hq Hr Hs; cbn [reached diag_index forallb].
    + subst n m. set (u := Nat.min na nb) in *.
      destruct (Nat.leb_spec u p), (Nat.ltb_spec p (Nat.max na nb)), (Nat.ltb_spec p u), (Nat.ltb_spec q u), (Nat.ltb_spec r u), (Nat.ltb_spec s u); cbn [andb]; try lia; auto;
        destruct (Nat.eqb_spec q p), (Nat.eqb_spec r p), (Nat.eqb_spec s p); cbn [andb]; try lia; auto.
    + destruct (Nat.ltb_spec p n), (Nat.ltb_spec q n), (Nat.ltb_spec r m), (Nat.ltb_spec s m), (Nat.ltb_spec p (Nat.min na nb)), (Nat.ltb_spec q (Nat.min na nb)); cbn [andb]; try lia; auto.
    + destruct (Nat.ltb_spec p n), (Nat.ltb_spec q n), (Nat.ltb_spec r m), (Nat.ltb_spec s m), (Nat.ltb_spec r (Nat.min na nb)), (Nat.ltb_spec s (Nat.min na nb)); cbn [andb]; try lia; auto.
    + destruct (Nat.ltb_spec p n), (Nat.ltb_spec q n), (Nat.ltb_spec r m), (Nat.ltb_spec s m); cbn [andb]; try lia; auto.
Qed.

(** Largest element *)
Lemma lmax_ge (l : list K) : forall x, le x (lmax x l) /\ forall y, In y l -> le y (lmax x l).
Proof.
  induction l as [|y r IH]; intros x; cbn [lmax].
  - split; [apply le_refl|intros y []].
  - destruct (IH (if ltb x y then y else x)) as [H1 H2]. split.
    + eapply le_tr; [|exact H1]. destruct (ltb x y) eqn:E; [apply lt_le; exact E|apply le_refl].
    + intros z [<-|Hz]; auto. eapply le_tr; [|exact H1]. destruct (ltb x y) eqn:E; [apply le_refl|].
      unfold le, leb. now rewrite E.
Qed.
Lemma amax_ge (l : list K) m : amax l = Some m -> forall y, In y l -> le y m.
Proof.
  destruct l as [|x r]; [discriminate|]. intros E. injection E as <-. intros y [<-|Hy]; destruct (lmax_ge r x) as [A B]; [exact A|now apply B].
Qed.
(** The order is not trivial: the number ten is positive *)
Lemma one_pos : (1 : K) <> 0 -> lt 0 (1 : K).
Proof.
  intros H. destruct (ltb_total K 0 1) as [E|[E|E]]; auto; [congruence|].
  apply lt0_opp in E. assert (X := ltb_mul K _ _ E E). replace (rmul (ropp r1) (ropp r1)) with (1 : K) in X by ring. exact X.
Qed.
Lemma nK_pos n : (1 : K) <> 0 -> lt 0 (nK (K := K) (S n)).
Proof.
  intros H. pose proof (one_pos H) as H1. induction n as [|n IH].
  - unfold nK. cbn. replace (0 + 1 : K) with (1 : K) by ring. exact H1.
  - replace (nK (S (S n))) with (nK (K := K) (S n) + 1) by (cbn; ring). eapply lt_tr; [exact H1|].
    replace (1 : K) with (0 + 1 : K) at 1 by ring. now apply lt_add.
Qed.

(** ** C52 *)
(** Everything the pyscf object contains, for any numbers of orbitals of the two spins: the elements between real orbitals are those of the
    cluster, dummy orbitals have no matrix element with any other orbital, no interaction, no electrons, and the dummy energy on the diagonal. *)
Theorem C52_elements : forall na nb nelec (ea eb : list K) h f g, (ea <> [] /\ eb <> []) ->
  exists d r, dummy_energy (na, nb) ea eb = Some d /\ to_pyscf_mf (na, nb) nelec ea eb h f g = Some r /\
  forall p q k l, (p < Nat.max na nb)%nat -> (q < Nat.max na nb)%nat -> (k < Nat.max na nb)%nat -> (l < Nat.max na nb)%nat ->
  let one n (x y : arr) := y [p; q] = if (p <? n)%nat && (q <? n)%nat then x [p; q] else if (p =? q)%nat then d else 0 in
  let two n m (x y : arr) := y [p; q; k; l] = if (p <? n)%nat && (q <? n)%nat && (k <? m)%nat && (l <? m)%nat then x [p; q; k; l] else 0 in
  one na (fst h) (fst (p_h r)) /\ one nb (snd h) (snd (p_h r)) /\ one na (fst f) (fst (p_f r)) /\ one nb (snd f) (snd (p_f r))
  /\ two na na (fst (fst g)) (fst (fst (p_eri r))) /\ two na nb (snd (fst g)) (snd (fst (p_eri r))) /\ two nb nb (snd g) (snd (p_eri r))
  /\ fst (p_occ r) [p] = (if (p <? na)%nat && (p <? fst nelec)%nat then 1 else 0) /\ snd (p_occ r) [p] = (if (p <? nb)%nat && (p <? snd nelec)%nat then 1 else 0)
  /\ fst (p_ovlp r) [p; q] = delta p q /\ snd (p_ovlp r) [p; q] = delta p q
  /\ fst (p_energy r) [p] = (if (p <? na)%nat then nth p ea 0 else d) /\ snd (p_energy r) [p] = (if (p <? nb)%nat then nth p eb 0 else d)
  /\ freeze r = orbs_to_freeze (na, nb).
Proof.
  intros na nb nelec ea eb h f [[gaa gab] gbb] [Ha Hb].
  assert (Hd : exists d, dummy_energy (na, nb) ea eb = Some d).
  { unfold dummy_energy. cbn [fst snd]. destruct (na =? nb)%nat; [eexists; reflexivity|]. destruct ea, eb; try congruence. cbn. eexists. reflexivity. }
  destruct Hd as [d Hd]. exists d.
  destruct (pad1 na nb 0 na (occupation (fst nelec)) ltac:(auto)) as (oa & Eoa & Hoa).
  destruct (pad1 na nb 0 nb (occupation (snd nelec)) ltac:(auto)) as (ob & Eob & Hob).
  destruct (pad1 na nb d na (energies ea) ltac:(auto)) as (a1 & E1 & H1).
  destruct (pad1 na nb d nb (energies eb) ltac:(auto)) as (a2 & E2 & H2).
  destruct (pad_2 na nb 1 na eye ltac:(auto)) as (a3 & E3 & H3).
  destruct (pad_2 na nb 1 nb eye ltac:(auto)) as (a4 & E4 & H4).
  destruct (pad4 na nb na na gaa ltac:(auto)) as (a5 & E5 & H5).
  destruct (pad4 na nb na nb gab ltac:(auto)) as (a6 & E6 & H6).
  destruct (pad4 na nb nb nb gbb ltac:(auto)) as (a7 & E7 & H7).
  destruct (pad_2 na nb d na (fst h) ltac:(auto)) as (a8 & E8 & H8).
  destruct (pad_2 na nb d nb (snd h) ltac:(auto)) as (a9 & E9 & H9).
  destruct (pad_2 na nb d na (fst f) ltac:(auto)) as (b1 & F1 & G1).
  destruct (pad_2 na nb d nb (snd f) ltac:(auto)) as (b2 & F2 & G2).
  eexists. split; [exact Hd|]. split.
  - unfold to_pyscf_mf, pad2, pad_eri. cbn [fst snd repeat].
    rewrite Hd. cbn [bind]. rewrite Eoa. cbn [bind]. rewrite Eob. cbn [bind]. rewrite E1. cbn [bind]. rewrite E2. cbn [bind].
    rewrite E3. cbn [bind]. rewrite E4. cbn [bind]. rewrite E5. cbn [bind]. rewrite E6. cbn [bind]. rewrite E7. cbn [bind].
    rewrite E8. cbn [bind]. rewrite E9. cbn [bind]. rewrite F1. cbn [bind]. rewrite F2. cbn [bind]. reflexivity.
  - intros p q k l Hp Hq Hk Hl. cbn [p_h p_f p_eri p_occ p_ovlp p_energy freeze fst snd].
    split; [auto|]. split; [auto|]. split; [auto|]. split; [auto|]. split; [auto|]. split; [auto|]. split; [auto|].
    split. { rewrite Hoa by auto. cbn [occupation]. destruct (p <? na)%nat, (p <? fst nelec)%nat; reflexivity. }
    split. { rewrite Hob by auto. cbn [occupation]. destruct (p <? nb)%nat, (p <? snd nelec)%nat; reflexivity. }
    split. { rewrite H3 by auto. cbn [eye]. unfold delta. destruct (p <? na)%nat, (q <? na)%nat, (p =? q)%nat; reflexivity. }
    split. { rewrite H4 by auto. cbn [eye]. unfold delta. destruct (p <? nb)%nat, (q <? nb)%nat, (p =? q)%nat; reflexivity. }
    split. { rewrite H1 by auto. cbn [energies]. reflexivity. }
    split. { rewrite H2 by auto. cbn [energies]. reflexivity. }
    reflexivity.
Qed.

(** Dummy orbitals lie above every orbital of both spins, and exactly the dummy orbitals are frozen. *)
Theorem C52_dummies_above : forall na nb (ea eb : list K) d, (1 : K) <> 0 -> na <> nb -> dummy_energy (na, nb) ea eb = Some d ->
  forall e, In e ea \/ In e eb -> lt e d.
Proof.
  intros na nb ea eb d H1 Hn E e He. unfold dummy_energy in E. cbn [fst snd] in E.
  destruct (Nat.eqb_spec na nb); [contradiction|]. destruct (amax ea) as [x|] eqn:Ex, (amax eb) as [y|] eqn:Ey; try discriminate. injection E as <-.
  set (m := if ltb x y then y else x).
  assert (Hx : le x m /\ le y m).
  { unfold m. destruct (ltb x y) eqn:E; split; try apply le_refl; [now apply lt_le|unfold le, leb; now rewrite E]. }
  assert (Hm : le e m). { destruct He as [He|He]; [apply (le_tr _ x)|apply (le_tr _ y)]; try tauto; eapply amax_ge; eauto. }
  assert (Hl : lt m (ten + m)). { pose proof (lt_add _ _ m (nK_pos 9 H1)) as X. replace (0 + m) with m in X by ring. exact X. }
  destruct (proj1 (le_lt_eq _ _) Hm) as [H|<-]; auto. eapply lt_tr; eauto.
Qed.
Theorem C52_frozen : forall na nb, match orbs_to_freeze (na, nb) with
  | None => na = nb
  | Some (fa, fb) => na <> nb /\ forall p, (In p fa <-> (na <= p < Nat.max na nb)%nat) /\ (In p fb <-> (nb <= p < Nat.max na nb)%nat)
  end.
Proof.
  intros. unfold orbs_to_freeze. cbn [fst snd]. destruct (Nat.eqb_spec (Nat.min na nb) (Nat.max na nb)); [lia|].
  destruct (Nat.eqb_spec na (Nat.min na nb)); (split; [lia|]); intros p; rewrite in_seq; cbn [In]; split; lia.
Qed.

(** The energy of any state (any one- and two-particle density matrices of the padded orbitals) is that of its part in the real orbitals plus the
    dummy energy for every electron in a dummy orbital. *)
Definition one_body (n : nat) (h : nat -> nat -> K) (d : nat -> nat -> K) : K := Sum n (fun p => Sum n (fun q => h p q * d p q)).
Definition two_body (n m : nat) (g d : nat -> nat -> nat -> nat -> K) : K :=
  Sum n (fun p => Sum n (fun q => Sum m (fun k => Sum m (fun l => g p q k l * d p q k l)))).
Lemma Sum_cut n m f : (n <= m)%nat -> (forall i, (n <= i < m)%nat -> f i = 0) -> Sum (K := K) m f = Sum n f.
Proof.
  intros Hn H. replace m with (n + (m - n))%nat by lia. rewrite Sum_split, (Sum_0 (m - n)); [ring|]. intros i Hi. apply H. lia.
Qed.
Lemma two_body_pad n m N g g' d : (n <= N)%nat -> (m <= N)%nat ->
  (forall p q k l, (p < N)%nat -> (q < N)%nat -> (k < N)%nat -> (l < N)%nat -> g' p q k l = if (p <? n)%nat && (q <? n)%nat && (k <? m)%nat && (l <? m)%nat then g p q k l else 0) ->
  two_body N N g' d = two_body n m g d.
Proof.
  intros Hn Hm H. unfold two_body.
  rewrite (Sum_cut n N); auto.
  2:{ intros p Hp. apply Sum_0. intros q Hq. apply Sum_0. intros k Hk. apply Sum_0. intros l Hl. rewrite H by lia. destruct (Nat.ltb_spec p n); [lia|]. cbn. ring. }
  apply Sum_ext. intros p Hp. rewrite (Sum_cut n N); auto.
  2:{ intros q Hq. apply Sum_0. intros k Hk. apply Sum_0. intros l Hl. rewrite H by lia. destruct (Nat.ltb_spec q n); [lia|]. rewrite andb_false_r. cbn. ring. }
  apply Sum_ext. intros q Hq. rewrite (Sum_cut m N); auto.
  2:{ intros k Hk. apply Sum_0. intros l Hl. rewrite H by lia. destruct (Nat.ltb_spec k m); [lia|]. rewrite andb_false_r. cbn. ring. }
  apply Sum_ext. intros k Hk. rewrite (Sum_cut m N); auto.
  2:{ intros l Hl. rewrite H by lia. destruct (Nat.ltb_spec l m); [lia|]. rewrite andb_false_r. ring. }
  apply Sum_ext. intros l Hl. rewrite H by lia.
  destruct (Nat.ltb_spec p n), (Nat.ltb_spec q n), (Nat.ltb_spec k m), (Nat.ltb_spec l m); try lia. reflexivity.
Qed.
Lemma one_body_pad n N e h h' d : (n <= N)%nat ->
  (forall p q, (p < N)%nat -> (q < N)%nat -> h' p q = if (p <? n)%nat && (q <? n)%nat then h p q else if (p =? q)%nat then e else 0) ->
  one_body N h' d = one_body n h d + e * Sum (N - n) (fun i => d (n + i)%nat (n + i)%nat).
Proof.
  intros Hn H. unfold one_body. set (M := (N - n)%nat). assert (EN : N = (n + M)%nat) by lia. clearbody M. subst N.
  rewrite Sum_split. f_equal.
  - apply Sum_ext. intros p Hp. rewrite (Sum_cut n (n + M)); [|lia|].
    + apply Sum_ext. intros q Hq. rewrite H by lia. destruct (Nat.ltb_spec p n), (Nat.ltb_spec q n); try lia. reflexivity.
    + intros q Hq. rewrite H by lia. destruct (Nat.ltb_spec p n), (Nat.ltb_spec q n), (Nat.eqb_spec p q); try lia. cbn. ring.
  - rewrite <- Sum_mul_l. apply Sum_ext. intros i Hi. rewrite (Sum_single (n + M) (n + i)); [|lia|].
    + rewrite H by lia. destruct (Nat.ltb_spec (n + i) n); [lia|]. cbn. rewrite Nat.eqb_refl. reflexivity.
    + intros q Hq Hne. rewrite H by lia. destruct (Nat.ltb_spec (n + i) n), (Nat.eqb_spec (n + i) q); try lia. cbn. ring.
Qed.
Definition m2 (a : arr) (p q : nat) : K := a [p; q].
Definition m4 (a : arr) (p q k l : nat) : K := a [p; q; k; l].
Theorem C52_energy : forall na nb nelec (ea eb : list K) h f g d r (Da Db : nat -> nat -> K) (Daa Dab Dbb : nat -> nat -> nat -> nat -> K), (ea <> [] /\ eb <> []) ->
  dummy_energy (na, nb) ea eb = Some d -> to_pyscf_mf (na, nb) nelec ea eb h f g = Some r ->
  let N := Nat.max na nb in
  one_body N (m2 (fst (p_h r))) Da + one_body N (m2 (snd (p_h r))) Db
  + two_body N N (m4 (fst (fst (p_eri r)))) Daa + two_body N N (m4 (snd (fst (p_eri r)))) Dab + two_body N N (m4 (snd (p_eri r))) Dbb
  = one_body na (m2 (fst h)) Da + one_body nb (m2 (snd h)) Db
  + two_body na na (m4 (fst (fst g))) Daa + two_body na nb (m4 (snd (fst g))) Dab + two_body nb nb (m4 (snd g)) Dbb
  + d * (Sum (N - na) (fun i => Da (na + i)%nat (na + i)%nat) + Sum (N - nb) (fun i => Db (nb + i)%nat (nb + i)%nat)).
Proof.
  intros na nb nelec ea eb h f g d r Da Db Daa Dab Dbb He Hd Hr N.
  destruct (C52_elements na nb nelec ea eb h f g He) as (d' & r' & Hd' & Hr' & H).
  rewrite Hd in Hd'. injection Hd' as <-. rewrite Hr in Hr'. injection Hr' as <-. cbv zeta in H.
  assert (Hz : forall p, (p < Nat.max na nb)%nat -> (0 < Nat.max na nb)%nat) by (intros; lia).
  rewrite (one_body_pad na N d (m2 (fst h)) (m2 (fst (p_h r))) Da); [|lia|].
  2:{ intros p q Hp Hq. apply (H p q p p Hp Hq Hp Hp). }
  rewrite (one_body_pad nb N d (m2 (snd h)) (m2 (snd (p_h r))) Db); [|lia|].
  2:{ intros p q Hp Hq. apply (H p q p p Hp Hq Hp Hp). }
  rewrite (two_body_pad na na N (m4 (fst (fst g))) (m4 (fst (fst (p_eri r)))) Daa); [|lia|lia|].
  2:{ intros p q k l Hp Hq Hk Hl. apply (H p q k l Hp Hq Hk Hl). }
  rewrite (two_body_pad na nb N (m4 (snd (fst g))) (m4 (snd (fst (p_eri r)))) Dab); [|lia|lia|].
  2:{ intros p q k l Hp Hq Hk Hl. apply (H p q k l Hp Hq Hk Hl). }
  rewrite (two_body_pad nb nb N (m4 (snd g)) (m4 (snd (p_eri r))) Dbb); [|lia|lia|].
  2:{ intros p q k l Hp Hq Hk Hl. apply (H p q k l Hp Hq Hk Hl). }
  ring.
Qed.
(** The mean-field potential get_fock - get_hcore of the object has no element on dummy orbitals. *)
Theorem C52_veff : forall na nb nelec (ea eb : list K) h f g r p q, (ea <> [] /\ eb <> []) ->
  to_pyscf_mf (na, nb) nelec ea eb h f g = Some r -> (p < Nat.max na nb)%nat -> (q < Nat.max na nb)%nat ->
  fst (p_f r) [p; q] - fst (p_h r) [p; q] = (if (p <? na)%nat && (q <? na)%nat then fst f [p; q] - fst h [p; q] else 0)
  /\ snd (p_f r) [p; q] - snd (p_h r) [p; q] = (if (p <? nb)%nat && (q <? nb)%nat then snd f [p; q] - snd h [p; q] else 0).
Proof.
  intros na nb nelec ea eb h f g r p q He Hr Hp Hq.
  destruct (C52_elements na nb nelec ea eb h f g He) as (d' & r' & Hd' & Hr' & H). rewrite Hr in Hr'. injection Hr' as <-.
  destruct (H p q p p Hp Hq Hp Hp) as (H1 & H2 & H3 & H4 & _). rewrite H1, H2, H3, H4.
  split.
  - destruct ((p <? na)%nat && (q <? na)%nat); [reflexivity|]. ring.
  - destruct ((p <? nb)%nat && (q <? nb)%nat); [reflexivity|]. ring.
Qed.
End Thms.

(** ** Cases *)
Section Cases.
Open Scope Z_scope.
(** Three alpha orbitals, two beta orbitals *)
Definition ex_h : (list nat -> ZO) * (list nat -> ZO) := (fun i => Z.of_nat (1 + list_sum i), fun i => Z.of_nat (5 + list_sum i)).
Definition ex_g : (list nat -> ZO) * (list nat -> ZO) * (list nat -> ZO) := (fun i => Z.of_nat (list_sum i), fun i => Z.of_nat (10 + list_sum i), fun i => 7).
Example ex_padded : option_map (fun r => (snd (p_h r) [1%nat; 1%nat], snd (p_h r) [1%nat; 2%nat], snd (p_h r) [2%nat; 2%nat], snd (p_occ r) [2%nat]))
    (to_pyscf_mf (3, 2)%nat (2, 1)%nat ([-2; -1; 4] : list ZO) [-3; 5] ex_h ex_h ex_g) = Some (7, 0, 15, 0)
  /\ option_map (fun r => (snd (fst (p_eri r)) [2%nat; 2%nat; 1%nat; 1%nat], snd (fst (p_eri r)) [2%nat; 2%nat; 2%nat; 1%nat], freeze r))
    (to_pyscf_mf (3, 2)%nat (2, 1)%nat ([-2; -1; 4] : list ZO) [-3; 5] ex_h ex_h ex_g) = Some (16, 0, Some ([], [2%nat])).
Proof. split; reflexivity. Qed.
Example ex_energies : ([-2; -1; 4] : list ZO) <> [] /\ ([-3; 5] : list ZO) <> [].
Proof. split; discriminate. Qed.
(** A cluster without any orbital of one spin is not accepted: the largest orbital energy of an empty list does not exist. *)
Theorem C52_empty_channel_refuted : exists (ea : list ZO), to_pyscf_mf (1, 0)%nat (1, 0)%nat ea [] ex_h ex_h ex_g = None.
Proof. exists [3]. reflexivity. Qed.
End Cases.

Print Assumptions C52_elements.
Print Assumptions C52_dummies_above.
Print Assumptions C52_frozen.
Print Assumptions C52_energy.
Print Assumptions C52_veff.
Print Assumptions C52_empty_channel_refuted.
