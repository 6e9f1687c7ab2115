(** C74: the bosonic bath from RPA.  Theorems about M_BosBath. *)
From Coq Require Import List Arith Lia Bool Ring Setoid Morphisms String.
From Verif Require Import Alg Ord Mat M_ExtCorr M_SsRpa P_TtoC P_SsRpa M_Screen P_Screen M_Ewdmet P_Ewdmet M_BosBath.
Import ListNotations.
Local Open Scope list_scope.

Section T.
Context (K : oring).
Add Ring Kr : (rth K).
Notation vec := (nat -> K).
Notation mt := (nat -> nat -> K).
Open Scope K_scope.

(** ** Sums *)
Lemma Sum_rev n (f : vec) : Sum n (fun i => f (n - 1 - i)%nat) = Sum n f.
Proof.
  induction n; [reflexivity|]. rewrite Sum_shift. cbn [Sum]. rewrite <- IHn.
  replace (S n - 1 - 0)%nat with n by lia. rewrite (Sum_ext n (fun i => f (S n - 1 - S i)%nat) (fun i => f (n - 1 - i)%nat)) by (intros; f_equal; lia). ring.
Qed.
Lemma Sum_rect n m (f : nat -> nat -> K) : (0 < m)%nat -> Sum (n * m) (fun x => f (x / m)%nat (x mod m)%nat) = Sum n (fun i => Sum m (fun j => f i j)).
Proof.
  intros Hm. induction n; [reflexivity|]. replace (S n * m)%nat with (n * m + m)%nat by lia. rewrite Sum_split, IHn. cbn [Sum]. f_equal.
  apply Sum_ext. intros j Hj. rewrite pos_div, pos_mod by exact Hj. reflexivity.
Qed.
Lemma Sum_le n (f g : vec) : (forall i, (i < n)%nat -> le (f i) (g i)) -> le (Sum n f) (Sum n g).
Proof.
  induction n; intros H; cbn [Sum]; [apply le_refl|]. apply (le_tr _ (Sum n g + f n)).
  - apply le_add. apply IHn. intros; apply H; lia.
  - pose proof (le_add (f n) (g n) (Sum n g) (H n ltac:(lia))) as G. replace (Sum n g + f n) with (f n + Sum n g) by ring.
    replace (Sum n g + g n) with (g n + Sum n g) by ring. exact G.
Qed.
Lemma sq_zero (x : K) : x * x = 0 -> x = 0.
Proof.
  intros E. destruct (ltb_total K x 0) as [H|[H|H]]; [|exact H|].
  - exfalso. apply lt0_opp in H. pose proof (ltb_mul K _ _ H H) as G. replace (- x * - x) with (x * x) in G by ring. rewrite E in G.
    exact (lt_irrefl _ G).
  - exfalso. pose proof (ltb_mul K _ _ H H) as G. rewrite E in G. exact (lt_irrefl _ G).
Qed.
Lemma twice_norm n (x y : mt) i j : Sum (n + n) (fun c => twice K n x i c * twice K n y j c) = Sum n (fun c => x i c * y j c) + Sum n (fun c => x i c * y j c).
Proof.
  rewrite Sum_split. f_equal; apply Sum_ext; intros c Hc; unfold twice.
  - rewrite (proj2 (Nat.ltb_lt c n) Hc). reflexivity.
  - rewrite (proj2 (Nat.ltb_ge (n + c) n)) by lia. replace (n + c - n)%nat with c by lia. reflexivity.
Qed.

(** ** Excitations of the cluster *)

(** Excitations of the cluster are orthonormal if its orbitals are. *)
Theorem C74_cluster hr no nv noc nvc co cv : hr * hr + hr * hr = 1 -> (0 < nv)%nat -> (0 < nvc)%nat ->
  meq noc noc (mm no co (tr co)) idm -> meq nvc nvc (mm nv cv (tr cv)) idm ->
  let x := cluster_excitations K hr no nv nvc co cv in meq (noc * nvc) (noc * nvc) (mm (no * nv + no * nv) x (tr x)) idm.
Proof.
  intros Hh Hv Hc Ho HV x r s Hr Hs. unfold mm, tr, x, cluster_excitations. rewrite twice_norm.
  set (I := (r / nvc)%nat). set (A := (r mod nvc)%nat). set (J := (s / nvc)%nat). set (B := (s mod nvc)%nat).
  assert (HI : (I < noc)%nat) by (apply Nat.div_lt_upper_bound; lia). assert (HJ : (J < noc)%nat) by (apply Nat.div_lt_upper_bound; lia).
  assert (HA : (A < nvc)%nat) by (apply Nat.mod_upper_bound; lia). assert (HB : (B < nvc)%nat) by (apply Nat.mod_upper_bound; lia).
  assert (E : Sum (no * nv) (fun c => co I (c / nv)%nat * cv A (c mod nv)%nat * hr * (co J (c / nv)%nat * cv B (c mod nv)%nat * hr)) = hr * hr * (delta I J * delta A B)).
  { pose proof (Ho I J HI HJ) as E1. pose proof (HV A B HA HB) as E2. unfold mm, tr, idm in E1, E2. rewrite <- E1, <- E2, Sum_mul_Sum.
    rewrite (Sum_rect no nv (fun i a => co I i * cv A a * hr * (co J i * cv B a * hr)) Hv). rewrite <- Sum_mul_l. apply Sum_ext. intros i _.
    rewrite <- Sum_mul_l. apply Sum_ext. intros a _. ring. }
  rewrite E. replace (hr * hr * (delta I J * delta A B) + hr * hr * (delta I J * delta A B)) with ((hr * hr + hr * hr) * (delta I J * delta A B)) by ring.
  rewrite Hh. unfold idm. rewrite (Nat.div_mod r nvc), (Nat.div_mod s nvc) by lia. fold I A J B. rewrite (Nat.mul_comm nvc I), (Nat.mul_comm nvc J), (delta_pos K nvc I A J B HA HB).
  unfold delta. destruct (I =? J)%nat, (A =? B)%nat; cbn [andb]; ring.
Qed.

(** ** Bosons *)
Section Bos.
Variables (rs : K -> K) (eigh : nat -> mt -> vec * mt) (nt nex ncl : nat) (m0 clus : mt).
Let e := m0_env K nex ncl m0 clus.
Let A := mm nex e (tr e).
Let occ : vec := fun i => fst (eigh nt A) (nt - 1 - i)%nat.
Let cs : mt := fun p i => snd (eigh nt A) p (nt - 1 - i)%nat.
Let g := mm nt (tr cs) e.
(** Contracts: eigenvectors and ascending eigenvalues, inverse square roots of positive eigenvalues, orthonormal excitations. *)
Hypotheses (HE : eig_ok nt A (eigh nt A)) (HD : forall i j, (i <= j)%nat -> (j < nt)%nat -> le (fst (eigh nt A) i) (fst (eigh nt A) j))
  (HR : forall i, (i < nt)%nat -> lt 0 (fst (eigh nt A) i) -> rs (fst (eigh nt A) i) * rs (fst (eigh nt A) i) * fst (eigh nt A) i = 1)
  (HC : meq ncl ncl (mm nex clus (tr clus)) idm).

Definition occupation (i : nat) : K := occ i.
Definition coefficient : mt := fst (boson_coeff K rs eigh nt nex ncl m0 clus).

Lemma coeff_at i x : coefficient i x = rs (occ i) * g i x.
Proof using.
  unfold coefficient, boson_coeff. fold e. fold A. rewrite (surjective_pairing (eigh nt A)). cbn [fst].
  unfold g, mm, tr, cs, occ. rewrite <- Sum_mul_l. apply Sum_ext. intros; ring.
Qed.
Lemma boson_coeff_eq : boson_coeff K rs eigh nt nex ncl m0 clus = (coefficient, occ).
Proof using. clear HE HD HR HC. unfold coefficient, boson_coeff. fold e. fold A. unfold occ. destruct (eigh nt A); reflexivity. Qed.
Lemma cs_eig : meq nt nt (mm nt A cs) (fun p i => cs p i * occ i).
Proof.
  destruct HE as (H1 & _ & _). intros p i Hp Hi. pose proof (H1 p (nt - 1 - i)%nat Hp ltac:(lia)) as E. rewrite (mm_dgr nt nt) in E by lia. exact E.
Qed.
Lemma cs_orth : meq nt nt (mm nt (tr cs) cs) idm.
Proof.
  destruct HE as (_ & H2 & _). intros i j Hi Hj. pose proof (H2 (nt - 1 - i)%nat (nt - 1 - j)%nat ltac:(lia) ltac:(lia)) as E. unfold mm, tr in *.
  unfold cs. rewrite E. unfold idm, delta. destruct (Nat.eqb_spec (nt - 1 - i) (nt - 1 - j)), (Nat.eqb_spec i j); (lia || reflexivity).
Qed.
Lemma cs_orth' : meq nt nt (mm nt cs (tr cs)) idm.
Proof.
  destruct HE as (_ & _ & H3). intros p q Hp Hq. rewrite <- (H3 p q Hp Hq). unfold mm, tr, cs. apply (Sum_rev nt (fun i => snd (eigh nt A) p i * snd (eigh nt A) q i)).
Qed.
Lemma egt : meq nt nt (mm nex e (tr g)) (fun p i => cs p i * occ i).
Proof.
  rewrite <- cs_eig. unfold g, A. rewrite (tr_mm nex nt nt), <- mm_assoc. reflexivity.
Qed.
Lemma gg i j : (i < nt)%nat -> (j < nt)%nat -> Sum nex (fun x => g i x * g j x) = delta i j * occ j.
Proof.
  intros Hi Hj. change (mm nex g (tr g) i j = delta i j * occ j). rewrite (Mat.mm_proper nt nex nt g (mm nt (tr cs) e) ltac:(reflexivity) (tr g) (tr g) ltac:(reflexivity) i j Hi Hj).
  rewrite (mm_assoc nt nt nt nex (tr cs) e (tr g) i j Hi Hj). rewrite (Mat.mm_proper nt nt nt (tr cs) (tr cs) ltac:(reflexivity) _ _ egt i j Hi Hj).
  pose proof (cs_orth i j Hi Hj) as E. unfold idm in E. rewrite <- E. unfold mm. rewrite <- Sum_mul_r. apply Sum_ext. intros; ring.
Qed.
Lemma e_out p k : (p < nt)%nat -> (k < ncl)%nat -> Sum nex (fun x => e p x * clus k x) = 0.
Proof using HC.
  intros Hp Hk. change (mm nex e (tr clus) p k = 0). unfold e, m0_env.
  assert (E : meq nt ncl (mm nex (msub m0 (mm ncl (mm nex m0 (tr clus)) clus)) (tr clus)) (msub (mm nex m0 (tr clus)) (mm nex m0 (tr clus)))).
  { rewrite mm_subl, mm_assoc, HC, mm_idr. reflexivity. }
  rewrite (E p k Hp Hk). unfold msub. ring.
Qed.
Lemma g_out i k : (i < nt)%nat -> (k < ncl)%nat -> Sum nex (fun x => g i x * clus k x) = 0.
Proof using HC.
  intros Hi Hk. unfold g, mm, tr. rewrite (Sum_ext nex _ (fun x => Sum nt (fun p => cs p i * (e p x * clus k x)))).
  - rewrite Sum_swap. apply Sum_0. intros p Hp. rewrite Sum_mul_l, e_out by assumption. ring.
  - intros x _. rewrite <- Sum_mul_r. apply Sum_ext. intros; ring.
Qed.

(** Bosons with positive occupation are orthonormal. *)
Lemma boson_gram i j : (i < nt)%nat -> (j < nt)%nat -> lt 0 (occ i) -> Sum nex (fun x => coefficient i x * coefficient j x) = delta i j.
Proof.
  intros Hi Hj Hp. rewrite (Sum_ext nex _ (fun x => rs (occ i) * rs (occ j) * (g i x * g j x))) by (intros; rewrite !coeff_at; ring).
  rewrite Sum_mul_l, gg by assumption. unfold delta. destruct (Nat.eqb_spec i j) as [<-|]; [|ring].
  transitivity (rs (occ i) * rs (occ i) * occ i); [ring|]. unfold occ in *. apply HR; [lia|exact Hp].
Qed.
Lemma boson_out i k : (i < nt)%nat -> (k < ncl)%nat -> Sum nex (fun x => coefficient i x * clus k x) = 0.
Proof using HC.
  intros Hi Hk. rewrite (Sum_ext nex _ (fun x => rs (occ i) * (g i x * clus k x))) by (intros; rewrite coeff_at; ring). rewrite Sum_mul_l, g_out by assumption. ring.
Qed.

(** What the cluster and the first nb bosons leave of the moment. *)
Definition left (nb : nat) : mt := fun p x =>
  m0 p x - Sum ncl (fun k => Sum nex (fun y => m0 p y * clus k y) * clus k x) - Sum nb (fun k => Sum nex (fun y => m0 p y * coefficient k y) * coefficient k x).
Lemma left_eq nb r : (nb + r = nt)%nat -> (forall i, (i < nb)%nat -> lt 0 (occ i)) -> forall p x, (p < nt)%nat -> (x < nex)%nat ->
  left nb p x = Sum r (fun k => cs p (nb + k)%nat * g (nb + k)%nat x).
Proof.
  intros Hr Hp p x Lp Lx.
  assert (E : forall k, (k < nt)%nat -> Sum nex (fun y => m0 p y * coefficient k y) = Sum nex (fun y => e p y * coefficient k y)).
  { intros k Hk. rewrite (Sum_ext nex (fun y => e p y * coefficient k y) (fun y => m0 p y * coefficient k y - mm ncl (mm nex m0 (tr clus)) clus p y * coefficient k y)) by (intros; unfold e, m0_env, msub; ring).
    rewrite Sum_sub. rewrite (Sum_ext nex (fun y => mm ncl (mm nex m0 (tr clus)) clus p y * coefficient k y) (fun y => Sum ncl (fun l => mm nex m0 (tr clus) p l * (coefficient k y * clus l y)))).
    2:{ intros y _. unfold mm at 1. rewrite <- Sum_mul_r. apply Sum_ext. intros; ring. }
    rewrite Sum_swap, (Sum_0 ncl); [ring|]. intros l Hl. rewrite Sum_mul_l, boson_out by assumption. ring. }
  assert (E2 : forall k, (k < nb)%nat -> Sum nex (fun y => m0 p y * coefficient k y) * coefficient k x = cs p k * g k x).
  { intros k Hk. rewrite E by lia. rewrite (Sum_ext nex _ (fun y => rs (occ k) * (e p y * g k y))) by (intros; rewrite coeff_at; ring).
    rewrite Sum_mul_l. pose proof (egt p k Lp ltac:(lia)) as G. unfold mm, tr in G. rewrite G, coeff_at.
    assert (Q : rs (occ k) * rs (occ k) * occ k = 1) by (unfold occ in *; apply HR; [lia|apply Hp; exact Hk]).
    transitivity (rs (occ k) * rs (occ k) * occ k * (cs p k * g k x)); [ring|]. rewrite Q. ring. }
  assert (E3 : m0 p x - Sum ncl (fun k => Sum nex (fun y => m0 p y * clus k y) * clus k x) = Sum nt (fun k => cs p k * g k x)).
  { change (e p x = mm nt cs g p x). symmetry. assert (Q : meq nt nex (mm nt cs g) e) by (unfold g; rewrite <- mm_assoc, cs_orth', mm_idl; reflexivity). exact (Q p x Lp Lx). }
  unfold left. rewrite E3, (Sum_ext nb _ _ E2). rewrite <- Hr, Sum_split. ring.
Qed.
Lemma left_norm nb r : (nb + r = nt)%nat -> (forall i, (i < nb)%nat -> lt 0 (occ i)) ->
  Sum nt (fun p => Sum nex (fun x => left nb p x * left nb p x)) = Sum r (fun k => occ (nb + k)%nat).
Proof.
  intros Hr Hp. set (C := fun p k => cs p (nb + k)%nat). set (G := fun k x => g (nb + k)%nat x).
  assert (E : meq nt nex (left nb) (mm r C G)) by (intros p x Lp Lx; rewrite (left_eq nb r Hr Hp p x Lp Lx); reflexivity).
  change (trace nt (mm nex (left nb) (tr (left nb))) = Sum r (fun k => occ (nb + k)%nat)).
  assert (EC : meq r r (mm nt (tr C) C) idm).
  { intros i j Hi Hj. pose proof (cs_orth (nb + i)%nat (nb + j)%nat ltac:(lia) ltac:(lia)) as Q. unfold mm, tr in *. unfold C. rewrite Q.
    unfold idm, delta. destruct (Nat.eqb_spec (nb + i) (nb + j)), (Nat.eqb_spec i j); (lia || reflexivity). }
  assert (EG : meq r r (mm nex G (tr G)) (dg (fun k => occ (nb + k)%nat))).
  { intros i j Hi Hj. pose proof (gg (nb + i)%nat (nb + j)%nat ltac:(lia) ltac:(lia)) as Q. unfold mm, tr, G. rewrite Q.
    unfold dg, delta. destruct (Nat.eqb_spec (nb + i) (nb + j)), (Nat.eqb_spec i j); (lia || reflexivity). }
  assert (Q : meq nt nt (mm nex (left nb) (tr (left nb))) (mm r C (mm r (dg (fun k => occ (nb + k)%nat)) (tr C)))).
  { rewrite E, (tr_mm nex nt r), mm_assoc, <- (mm_assoc r nt nex r G (tr G) (tr C)), EG. reflexivity. }
  rewrite Q. rewrite trace_mm. assert (Q2 : meq r r (mm nt (mm r (dg (fun k => occ (nb + k)%nat)) (tr C)) C) (dg (fun k => occ (nb + k)%nat))) by (rewrite mm_assoc, EC, mm_idr; reflexivity).
  rewrite Q2. apply trace_dg.
Qed.

(** ** Truncation *)
Lemma occ_desc i j : (i <= j)%nat -> (j < nt)%nat -> le (occ j) (occ i).
Proof using HD. intros H H'. apply HD; lia. Qed.
Lemma find_spec pos t fuel : forall k m, find K pos t k fuel = Some m -> (k <= m < k + fuel)%nat /\ leb t (Sum m pos) = true /\ forall j, (k <= j < m)%nat -> leb t (Sum j pos) = false.
Proof.
  induction fuel; intros k m; cbn [find]; [discriminate|]. destruct (leb t (Sum k pos)) eqn:E.
  - intros [= <-]. split; [lia|]. split; [exact E|]. intros; lia.
  - intros H. destruct (IHfuel _ _ H) as (A1 & A2 & A3). split; [lia|]. split; [exact A2|]. intros j Hj. destruct (Nat.eq_dec j k) as [->|]; [exact E|apply A3; lia].
Qed.
(** The threshold is by occupation with a positive number, or by the sum of the occupations left out. *)
Definition proper (th : thr K) : Prop := match th with Occupation _ t => lt 0 t | Truncation _ _ => True | _ => False end.
Lemma kept_pos th k : proper th -> get_number K th nt occ = Ret k -> (k <= nt)%nat /\ forall i, (i < k)%nat -> lt 0 (occ i).
Proof.
  intros P. unfold get_number. destruct th as [n|t|t|]; try contradiction; cbn [proper] in P; destruct (Nat.eqb_spec nt 0) as [Z|Z];
    try (intros E; assert (E' : 0%nat = k) by exact (f_equal (fun z => match z with Ret y => y | _ => 0%nat end) E); subst k; split; lia).
  - intros E. assert (E' : count nt (fun i => leb t (occ i)) = k) by exact (f_equal (fun z => match z with Ret y => y | _ => 0%nat end) E). clear E. subst k.
    pose proof (count_le nt (fun i => leb t (occ i))) as L. split; [exact L|]. intros i Hi.
    assert (Q : leb t (occ i) = true).
    { apply (count_prefix nt (fun i => leb t (occ i))); [|lia|exact Hi]. intros a b Hab Hb E. exact (le_tr _ _ _ E (occ_desc a b Hab Hb)). }
    destruct (proj1 (le_lt_eq _ _) Q) as [Q'|<-]; [exact (lt_tr _ _ _ P Q')|exact P].
  - cbv zeta. set (pos := fun i => if ltb (occ i) 0 then 0 else occ i). destruct (find K pos (Sum nt pos - t) 0 (S nt)) as [m|] eqn:F; [|discriminate].
    intros E. assert (E' : m = k) by exact (f_equal (fun z => match z with Ret y => y | _ => 0%nat end) E). clear E. subst m.
    destruct (find_spec _ _ _ _ _ F) as (A1 & A2 & A3). split; [lia|]. intros i Hi.
    destruct k as [|k]; [lia|]. apply (lt_nle 0 (occ i)). intros N. specialize (A3 k ltac:(lia)). cbn [Sum] in A2.
    assert (Z' : pos k = 0).
    { unfold pos. destruct (ltb (occ k) 0) eqn:L; [reflexivity|]. apply le_antisym; [exact (le_tr _ _ _ (occ_desc i k ltac:(lia) ltac:(lia)) N)|].
      unfold le, leb. rewrite L. reflexivity. }
    rewrite Z' in A2. replace (Sum k pos + 0) with (Sum k pos) in A2 by ring. rewrite A2 in A3. discriminate.
Qed.

Variables (th : thr K) (nb nr : nat) (cb cr : mt).
Hypothesis (HB : boson_bath K rs eigh th nt nex ncl m0 clus = Ret ((nb, cb), (nr, cr))).
Lemma bath_eq : exists k, get_number K th nt occ = Ret k /\ nb = Nat.min k nt /\ cb = coefficient /\ nr = (nt - nb)%nat /\ forall i x, cr i x = coefficient (nb + i)%nat x.
Proof using HB.
  revert HB. unfold boson_bath. rewrite boson_coeff_eq. destruct (get_number K th nt occ) as [k| | |]; cbn [rbind]; try discriminate. intros E.
  set (d := ((nb, cb), (nr, cr))) in *.
  pose proof (f_equal (fun z => match z with Ret y => y | _ => d end) E) as E'. cbn beta iota zeta in E'. unfold d in E'.
  pose proof (f_equal (fun z => fst (fst z)) E') as E1. pose proof (f_equal (fun z => snd (fst z)) E') as E2.
  pose proof (f_equal (fun z => fst (snd z)) E') as E3. pose proof (f_equal (fun z => snd (snd z)) E') as E4. cbn [fst snd] in E1, E2, E3, E4.
  exists k. split; [reflexivity|]. split; [symmetry; exact E1|]. split; [symmetry; exact E2|]. split; [rewrite <- E3, E1; reflexivity|].
  intros i x. rewrite <- E4, E1. reflexivity.
Qed.
Hypothesis (HT : proper th).
Lemma bath_pos : get_number K th nt occ = Ret nb /\ (nb <= nt)%nat /\ forall i, (i < nb)%nat -> lt 0 (occ i).
Proof.
  destruct bath_eq as (k & E & En & _). destruct (kept_pos th k HT E) as [L P]. assert (Q : nb = k) by lia. rewrite Q. split; [exact E|]. split; [exact L|exact P].
Qed.

(** The bosons of the bath are orthonormal and orthogonal to the excitations of the cluster. *)
Theorem C74_orthonormal : meq nb nb (mm nex cb (tr cb)) idm /\ meq nb ncl (mm nex cb (tr clus)) zm.
Proof.
  destruct bath_pos as (_ & L & P). destruct bath_eq as (_ & _ & _ & -> & _). split.
  - intros i j Hi Hj. apply boson_gram; [lia|lia|apply P; exact Hi].
  - intros i k Hi Hk. apply boson_out; [lia|exact Hk].
Qed.

(** The square of what cluster and bosons leave of the moment. *)
Definition loss : K := Sum nt (fun p => Sum nex (fun x => let y := m0 p x - Sum ncl (fun k => Sum nex (fun y => m0 p y * clus k y) * clus k x)
  - Sum nb (fun k => Sum nex (fun y => m0 p y * cb k y) * cb k x) in y * y)).
(** It is the sum of the occupations left out, which are below the threshold, and in sum not above it if the threshold is for that. *)
Theorem C74_loss : loss = Sum nr (fun k => occupation (nb + k)) /\
  match th with Occupation _ t => forall k, (k < nr)%nat -> lt (occupation (nb + k)) t | Truncation _ t => (0 < nt)%nat -> le loss t | _ => False end.
Proof.
  destruct bath_pos as (E & L & P). destruct bath_eq as (k & E' & En & Ec & Er & _).
  assert (Q : loss = Sum nr (fun k => occ (nb + k)%nat)) by (unfold loss; rewrite Ec; apply left_norm; [lia|exact P]).
  split; [exact Q|]. destruct th as [n|t|t|]; cbn [proper] in HT; try contradiction.
  - intros i Hi. unfold occupation. apply lt_nle. intros N. unfold get_number in E. destruct (Nat.eqb_spec nt 0) as [Z|Z]; [lia|].
    assert (E2 : count nt (fun i => leb t (occ i)) = nb) by exact (f_equal (fun z => match z with Ret y => y | _ => 0%nat end) E).
    assert (Q' : (nb + i < count nt (fun i => leb t (occ i)))%nat).
    { apply (count_prefix nt (fun i => leb t (occ i))); [|lia|exact N]. intros a b Hab Hb X. exact (le_tr _ _ _ X (occ_desc a b Hab Hb)). }
    lia.
  - intros Hn. rewrite Q. unfold get_number in E. destruct (Nat.eqb_spec nt 0) as [Z|Z]; [lia|]. cbv zeta in E.
    set (pos := fun i => if ltb (occ i) 0 then 0 else occ i) in E. destruct (find K pos (Sum nt pos - t) 0 (S nt)) as [m|] eqn:F; [|discriminate].
    assert (E2 : m = nb) by exact (f_equal (fun z => match z with Ret y => y | _ => 0%nat end) E). subst m. destruct (find_spec _ _ _ _ _ F) as (_ & A2 & _).
    apply (le_tr _ (Sum nr (fun k => pos (nb + k)%nat))).
    + apply Sum_le. intros i Hi. unfold pos. destruct (ltb (occ (nb + i)%nat) 0) eqn:X; [apply lt_le; exact X|apply le_refl].
    + assert (S' : Sum nt pos = Sum nb pos + Sum nr (fun k => pos (nb + k)%nat)) by (rewrite <- Sum_split; f_equal; lia).
      pose proof (le_add _ _ (t - Sum nb pos) A2) as G. rewrite S' in G.
      replace (Sum nb pos + Sum nr (fun k => pos (nb + k)%nat) - t + (t - Sum nb pos)) with (Sum nr (fun k => pos (nb + k)%nat)) in G by ring.
      replace (Sum nb pos + (t - Sum nb pos)) with t in G by ring. exact G.
Qed.

(** If no occupation is left out, cluster and bosons hold the whole moment. *)
Theorem C74_complete : (forall k, (k < nr)%nat -> occupation (nb + k) = 0) -> forall p x, (p < nt)%nat -> (x < nex)%nat ->
  m0 p x = Sum ncl (fun k => Sum nex (fun y => m0 p y * clus k y) * clus k x) + Sum nb (fun k => Sum nex (fun y => m0 p y * cb k y) * cb k x).
Proof.
  intros H p x Hp Hx. destruct C74_loss as [E _]. rewrite (Sum_0 nr _ H) in E. unfold loss in E. cbv zeta in E.
  set (Y := fun p x => m0 p x - Sum ncl (fun k => Sum nex (fun y => m0 p y * clus k y) * clus k x) - Sum nb (fun k => Sum nex (fun y => m0 p y * cb k y) * cb k x)).
  assert (Z : Y p x = 0).
  { apply sq_zero. refine (Sum_zero_all K nex (fun x => Y p x * Y p x) _ _ x Hx); [intros; apply le_0_sqr|].
    refine (Sum_zero_all K nt (fun p => Sum nex (fun x => Y p x * Y p x)) _ E p Hp). intros; apply le_0_Sum; intros; apply le_0_sqr. }
  unfold Y in Z. set (a := Sum ncl _) in *. set (b := Sum nb _) in *. transitivity (m0 p x - a - b + (a + b)); [ring|]. rewrite Z. ring.
Qed.

(** With equal alpha and beta parts of the moment and of the excitations, the bosons are singlets. *)
Theorem C74_spin n : nex = (n + n)%nat -> (forall p x, (p < nt)%nat -> (x < n)%nat -> m0 p (n + x)%nat = m0 p x) -> (forall k x, (k < ncl)%nat -> (x < n)%nat -> clus k (n + x)%nat = clus k x) ->
  forall i x, (i < nb)%nat -> (x < n)%nat -> cb i (n + x)%nat = cb i x.
Proof using HB.
  intros Hn H1 H2 i x Hi Hx. destruct bath_eq as (_ & _ & _ & -> & _). rewrite !coeff_at. f_equal. unfold g, mm. apply Sum_ext. intros p Hp. f_equal.
  unfold e, m0_env, msub. rewrite H1 by assumption. f_equal. unfold mm. apply Sum_ext. intros k Hk. rewrite H2 by assumption. reflexivity.
Qed.

(** Bath and rest together are all bosons, in descending order of their occupations. *)
Theorem C74_rest : (nb + nr = nt)%nat /\ (forall i j, (i <= j)%nat -> (j < nt)%nat -> le (occupation j) (occupation i)) /\
  forall i k, (i < nr)%nat -> (k < ncl)%nat -> Sum nex (fun x => cr i x * clus k x) = 0.
Proof using HD HC HB.
  destruct bath_eq as (k & _ & En & _ & Er & Ec). split; [lia|]. split; [exact occ_desc|]. intros i l Hi Hl.
  rewrite (Sum_ext nex _ (fun x => coefficient (nb + i)%nat x * clus l x)) by (intros; rewrite Ec; reflexivity). apply boson_out; [lia|exact Hl].
Qed.
End Bos.

(** ** Targets *)

(** The projection depends on the space of the fragment only, and is none if the fragment holds the orbitals. *)
Theorem C74_projection n t f c l : (forall u, meq f f (mm f u (tr u)) idm -> meq n t (project K n t f c (mm f l u)) (project K n t f c l)) /\
  (meq t t (mm n (tr c) c) idm -> meq n t (mm f l (mm n (tr l) c)) c -> meq n t (project K n t f c l) c).
Proof.
  unfold project. split.
  - intros u Hu.
    assert (E : meq t t (mm f (tr (mm n (tr (mm f l u)) c)) (mm n (tr (mm f l u)) c)) (mm f (tr (mm n (tr l) c)) (mm n (tr l) c))).
    { rewrite (tr_mm f n f), (mm_assoc f t f n (tr u) (tr l) c), (tr_mm t f f), mm_assoc, <- (mm_assoc f t f f (tr (tr u)) (tr u)).
      assert (E0 : meq f f (mm f (tr (tr u)) (tr u)) idm) by exact Hu. rewrite E0, mm_idl. reflexivity. }
    rewrite E. reflexivity.
  - intros H1 H2. assert (E : meq t t (mm f (tr (mm n (tr l) c)) (mm n (tr l) c)) idm).
    { rewrite (tr_mm t f n), mm_assoc. assert (E0 : meq n t (mm f (tr (tr l)) (mm n (tr l) c)) c) by exact H2. rewrite E0. exact H1. }
    rewrite E. apply mm_idr.
Qed.

Lemma substring_end s e : substring (String.length s) (String.length e) (append s e) = e.
Proof. induction s; cbn [String.length append substring]; [|exact IHs]. induction e as [|a e IH]; [reflexivity|]. cbn. rewrite IH. reflexivity. Qed.
Lemma length_append s e : String.length (append s e) = (String.length s + String.length e)%nat.
Proof. induction s; cbn; congruence. Qed.
Lemma ends_append k e s : String.length e = k -> ends k e (append s e) = true.
Proof.
  intros <-. unfold ends. rewrite length_append. replace (String.length s + String.length e - String.length e)%nat with (String.length s) by lia.
  rewrite substring_end. apply String.eqb_refl.
Qed.
Lemma prefix_append p s : prefix p (append p s) = true.
Proof. induction p as [|a p IH]; [destruct s; reflexivity|]. cbn. destruct (Ascii.ascii_dec a a); [exact IH|congruence]. Qed.
Lemma index_fragment s : String.index 0 "fragment" (append "fragment" s) = Some 0%nat.
Proof. pose proof (prefix_append "fragment" s) as H. cbn [append] in *. cbn [String.index]. rewrite H. reflexivity. Qed.

(** The texts "fragment", "fragment...occ" and "fragment...ov" and None choose the projection; other orbitals than "full" and
    "dmet" are refused. *)
Theorem C74_options : c_loc None = Ret (false, false) /\ c_loc (Some "fragment"%string) = Ret (true, false) /\
  (forall s, c_loc (Some (append "fragment" (append s "occ"))) = Ret (true, false)) /\
  (forall s, c_loc (Some (append "fragment" (append s "-ov"))) = Ret (true, true)) /\
  (forall A (x y : A) s, c_target s x y = ValueErr <-> s <> "full"%string /\ s <> "dmet"%string).
Proof.
  split; [reflexivity|]. split; [reflexivity|]. split; [|split].
  - intros s. unfold c_loc. rewrite index_fragment. replace (append "fragment" (append s "occ")) with (append (append "fragment" s) "occ") by (induction s; [reflexivity|cbn in *; congruence]).
    rewrite (ends_append 3 "occ") by reflexivity. rewrite orb_true_r. reflexivity.
  - intros s. unfold c_loc. rewrite index_fragment.
    assert (A3 : forall a b c, append a (append b c) = append (append a b) c) by (induction a; intros; cbn; congruence).
    assert (L : (String.length (append "fragment" (append s "-ov")) =? 8)%nat = false) by (apply Nat.eqb_neq; rewrite !length_append; cbn; lia). rewrite L.
    assert (O : ends 3 "occ" (append "fragment" (append s "-ov")) = false).
    { unfold ends. rewrite A3, length_append. change (String.length "-ov") with 3%nat. rewrite Nat.add_sub. change 3%nat with (String.length "-ov"). rewrite substring_end. reflexivity. }
    rewrite O. cbn [orb]. change "-ov"%string with (append "-" "ov"). rewrite (A3 s), (A3 "fragment"%string), (ends_append 2 "ov") by reflexivity. reflexivity.
  - intros A x y s. unfold c_target. destruct (String.eqb_spec s "full") as [->|N]; [split; [discriminate|intros [H _]; congruence]|].
    destruct (String.eqb_spec s "dmet") as [->|N']; [split; [discriminate|intros [_ H]; congruence]|]. split; [intros _; split; assumption|reflexivity].
Qed.

(** The targets are products of occupied and virtual target orbitals, equal for both spins; without projection they are the
    excitations of the target orbitals up to the factor 1/sqrt(2), with projection onto the fragment the orbitals are weighted
    by their overlaps within the fragment. *)
Theorem C74_targets no nv nf orbs loc full dmet lo lv n t : (orbs = "full" \/ orbs = "dmet")%string -> targets K no nv nf orbs loc full dmet lo lv = Ret (n, t) ->
  let '((n_o, c_o), (n_v, c_v)) := if String.eqb orbs "full" then full else dmet in
  let w := fun m (l c : mt) J I => Sum nf (fun f => Sum m (fun i => l i f * c i J) * Sum m (fun i => l i f * c i I)) in
  n = (n_o * n_v)%nat /\ (forall r c, (c < no * nv)%nat -> t r (no * nv + c)%nat = t r c) /\
  (loc = None -> forall hr r c, (r < n)%nat -> (c < no * nv + no * nv)%nat -> t r c * hr = cluster_excitations K hr no nv n_v (tr c_o) (tr c_v) r c) /\
  forall I A i a, (A < n_v)%nat -> (i < no)%nat -> (a < nv)%nat ->
    (loc = Some "fragment"%string -> t (I * n_v + A)%nat (i * nv + a)%nat = Sum n_o (fun J => c_o i J * w no lo c_o J I) * c_v a A) /\
    (loc = Some "fragment-ov"%string -> t (I * n_v + A)%nat (i * nv + a)%nat = Sum n_o (fun J => c_o i J * w no lo c_o J I) * Sum n_v (fun B => c_v a B * w nv lv c_v B A)).
Proof.
  intros Ho. unfold targets. set (ch := if String.eqb orbs "full" then full else dmet).
  assert (Ec : c_target orbs full dmet = Ret ch) by (unfold c_target, ch; destruct Ho as [->| ->]; reflexivity). rewrite Ec. cbn [rbind].
  destruct ch as [[n_o c_o] [n_v c_v]]. destruct (c_loc loc) as [[b_o b_v]| | |] eqn:El; cbn [rbind]; try discriminate. cbv zeta. intros E.
  pose proof (f_equal (fun z => match z with Ret y => fst y | _ => n end) E) as E1. pose proof (f_equal (fun z => match z with Ret y => snd y | _ => t end) E) as E2.
  cbn [fst snd] in E1, E2. clear E. subst n t. split; [reflexivity|].
  assert (Low : forall (y : mt) r c, (c < no * nv)%nat -> twice K (no * nv) y r c = y r c) by (intros; unfold twice; rewrite (proj2 (Nat.ltb_lt c (no * nv))) by assumption; reflexivity).
  split; [|split].
  - intros r c Hc. rewrite (Low _ r c Hc). unfold twice. rewrite (proj2 (Nat.ltb_ge (no * nv + c) (no * nv))) by lia. replace (no * nv + c - no * nv)%nat with c by lia. reflexivity.
  - intros -> hr r c Hr Hc. cbn in El. assert (b_o = false /\ b_v = false) as [-> ->] by (injection El as <- <-; split; reflexivity).
    unfold cluster_excitations, twice, tr. destruct (c <? no * nv)%nat; reflexivity.
  - intros I A i a HA Hi Ha. rewrite Low by (apply pos_lt; assumption). rewrite !pos_div, !pos_mod by assumption. split.
    + intros ->. assert (b_o = true /\ b_v = false) as [-> ->] by (vm_compute in El; injection El as <- <-; split; reflexivity). f_equal.
    + intros ->. assert (b_o = true /\ b_v = true) as [-> ->] by (vm_compute in El; injection El as <- <-; split; reflexivity). f_equal.
Qed.

(** ** Division among fragments *)
Lemma vstack_app l : forall i j, (fst (vstack K l) <= i)%nat -> snd (vstack K l) i j = 0.
Proof.
  induction l as [|[n t] l IH]; intros i j; [reflexivity|]. cbn [vstack]. destruct (vstack K l) as [m u]. cbn [fst snd] in *. intros H.
  rewrite (proj2 (Nat.ltb_ge i n)) by lia. apply IH. lia.
Qed.
Definition somes (ts : list (option (nat * mt))) := flat_map (fun x => match x with Some y => [y] | None => [] end) ts.
Definition sizes (ts : list (option (nat * mt))) := map (fun x => match x with Some y => fst y | None => O end) ts.
Lemma split_rows (nex : nat) (W : mt) ts : forall (a : mt), (forall i x, (i < fst (vstack K (somes ts)))%nat -> (x < nex)%nat -> a i x = Sum nex (fun y => snd (vstack K (somes ts)) i y * W y x)) ->
  forall k n t b, nth_error ts k = Some (Some (n, t)) -> nth_error (vsplit K (sizes ts) a) k = Some b ->
  forall i x, (i < n)%nat -> (x < nex)%nat -> b i x = Sum nex (fun y => t i y * W y x).
Proof.
  induction ts as [|[[n0 t0]|] ts IH]; intros a Ha k n t b Hk Hb i x Hi Hx; [destruct k; discriminate| |].
  - cbn [somes flat_map app] in Ha. change (flat_map _ ts) with (somes ts) in Ha. cbn [vstack] in Ha. cbn [sizes map vsplit fst] in Hb. fold (sizes ts) in Hb.
    destruct (vstack K (somes ts)) as [m u] eqn:V. cbn [fst snd] in *. destruct k as [|k]; cbn [nth_error] in Hk, Hb.
    + injection Hk as -> ->. injection Hb as <-. rewrite Ha by lia. apply Sum_ext. intros y _. rewrite (proj2 (Nat.ltb_lt i n) Hi). reflexivity.
    + refine (IH _ _ k n t b Hk Hb i x Hi Hx). intros i' x' Hi' Hx'. cbn beta. rewrite Ha by lia. apply Sum_ext. intros y _.
      rewrite (proj2 (Nat.ltb_ge (n0 + i') n0)) by lia. replace (n0 + i' - n0)%nat with i' by lia. reflexivity.
  - cbn [somes flat_map app] in Ha. change (flat_map _ ts) with (somes ts) in Ha. cbn [sizes map vsplit] in Hb. fold (sizes ts) in Hb.
    destruct k as [|k]; cbn [nth_error] in Hk, Hb; [discriminate|]. exact (IH _ Ha k n t b Hk Hb i x Hi Hx).
Qed.
Lemma vsplit_length ns : forall a, List.length (vsplit K ns a) = List.length ns.
Proof. induction ns; intros; cbn; [reflexivity|]. rewrite IHns. reflexivity. Qed.

(** A moment that is linear in the targets reaches each fragment as that of its own targets, also if others have no bath. *)
Theorem C74_shares mom nex W ts : (let '(n, t) := vstack K (somes ts) in meq n nex (mom n t) (mm nex t W)) ->
  List.length (moments K mom ts) = List.length ts /\
  forall k n t b, nth_error ts k = Some (Some (n, t)) -> nth_error (moments K mom ts) k = Some b -> meq n nex b (mm nex t W).
Proof.
  intros H. unfold moments. fold (somes ts). fold (sizes ts). destruct (vstack K (somes ts)) as [N T] eqn:V. split; [rewrite vsplit_length; apply map_length|].
  intros k n t b Hk Hb i x Hi Hx. refine (split_rows nex W ts (mom N T) _ k n t b Hk Hb i x Hi Hx). rewrite V. cbn [fst snd]. intros; apply H; assumption.
Qed.
End T.

From Coq Require Import ZArith QArith Qcanon.
From Verif Require Import Root2.
Section Cases.
Local Close Scope Q_scope. Local Open Scope nat_scope.
Ltac qq := first [apply eqq_ok; vm_compute; reflexivity | apply neqq; vm_compute; reflexivity].
Ltac ck := first [apply meqb_ok | apply eigb_ok | apply rootsb_ok]; vm_compute; reflexivity.
Notation K := QO.
Notation vec := (nat -> QO).
Notation mt := (nat -> nat -> QO).
(** Four excitations of each spin, one of the cluster, two targets. *)
Definition bcl : mt := fun _ x => match x with 0 | 1 | 4 | 5 => q 1 2 | _ => q 0 1 end.
Definition brows : mt := fun i x => match i with
  | 0 => match x with 0 | 4 => q 5 2 | 1 | 5 => q 1 2 | _ => q 0 1 end
  | _ => match x with 0 | 1 | 4 | 5 => q 1 2 | _ => q 3 2 end end.
Definition bm0 : mt := mm 2 rot35 brows.
(** A target that does not couple to the environment. *)
Definition bm1 : mt := fun i x => match i with 0 => brows 0 x | _ => bcl 0 x end.
Definition brs : K -> K := fun x => if eqq x (q 4 1) then q 1 2 else if eqq x (q 9 1) then q 1 3 else q 0 1.
Definition beig : nat -> mt -> vec * mt := fun _ a => if eqq (a 1 1) (q 0 1) then (vec2 (q 0 1) (q 4 1), mat2 (q 0 1) (q 1 1) (q 1 1) (q 0 1)) else (vec2 (q 4 1) (q 9 1), rot35).
Notation bA m := (mm 8 (m0_env K 8 1 m bcl) (tr (m0_env K 8 1 m bcl))).
Lemma bw : fst (beig 2 (bA bm0)) = vec2 (q 4 1) (q 9 1). Proof. unfold beig. replace (eqq (bA bm0 1 1) (q 0 1)) with false by (vm_compute; reflexivity). reflexivity. Qed.
Lemma bc : snd (beig 2 (bA bm0)) = rot35. Proof. unfold beig. replace (eqq (bA bm0 1 1) (q 0 1)) with false by (vm_compute; reflexivity). reflexivity. Qed.
Lemma bHE : eig_ok 2 (bA bm0) (beig 2 (bA bm0)). Proof. unfold eig_ok. rewrite bw, bc. split; [|split]; ck. Qed.
Lemma bHD : forall i j, i <= j -> j < 2 -> Ord.le (fst (beig 2 (bA bm0)) i) (fst (beig 2 (bA bm0)) j).
Proof. rewrite bw. intros i j Hi Hj. destruct i as [|[|i]], j as [|[|j]]; try lia; vm_compute; reflexivity. Qed.
Lemma bHR : forall i, i < 2 -> Ord.lt r0 (fst (beig 2 (bA bm0)) i) -> (brs (fst (beig 2 (bA bm0)) i) * brs (fst (beig 2 (bA bm0)) i) * fst (beig 2 (bA bm0)) i = 1)%K.
Proof. rewrite bw. intros i Hi _. destruct i as [|[|i]]; try lia; qq. Qed.
Lemma bHC : meq (K := K) 1 1 (mm 8 bcl (tr bcl)) idm. Proof. ck. Qed.
Notation bbath th m := (boson_bath K brs beig th 2 8 1 m bcl).
Notation bco m := (fst (boson_coeff K brs beig 2 8 1 m bcl)).
Definition bget (z : result ((nat * mt) * (nat * mt))) := match z with Ret y => y | _ => ((0, zm), (0, zm)) end.
Lemma bret z : (match z with Ret _ => true | _ => false end) = true -> z = Ret ((fst (fst (bget z)), snd (fst (bget z))), (fst (snd (bget z)), snd (snd (bget z)))).
Proof. destruct z as [[[? ?] [? ?]]| | |]; try discriminate. reflexivity. Qed.
Definition bth : thr K := Truncation K (q 4 1).
Definition bb := bget (bbath bth bm0).
Lemma bb_ok : bbath bth bm0 = Ret ((fst (fst bb), snd (fst bb)), (fst (snd bb), snd (snd bb))). Proof. apply bret. vm_compute. reflexivity. Qed.
Lemma bb_n : fst (fst bb) = 1 /\ fst (snd bb) = 1. Proof. split; vm_compute; reflexivity. Qed.

Example C74_orthonormal_case : meq (K := K) 1 1 (mm 8 (snd (fst bb)) (tr (snd (fst bb)))) idm /\ snd (fst bb) 0 2 <> r0.
Proof. split; [|qq]. rewrite <- (proj1 bb_n) at 1 2. exact (proj1 (C74_orthonormal K brs beig 2 8 1 bm0 bcl bHE bHD bHR bHC bth _ _ _ _ bb_ok I)). Qed.
(** The square left over is four, the smaller occupation, and the threshold. *)
Example C74_loss_case : loss K 2 8 1 bm0 bcl (fst (fst bb)) (snd (fst bb)) = q 4 1 /\ Ord.le (loss K 2 8 1 bm0 bcl (fst (fst bb)) (snd (fst bb))) (q 4 1).
Proof. split; [qq|]. exact (proj2 (C74_loss K brs beig 2 8 1 bm0 bcl bHE bHD bHR bHC bth _ _ _ _ bb_ok I) ltac:(lia)). Qed.
Definition bth2 : thr K := Occupation K (q 1 1).
Definition bb2 := bget (bbath bth2 bm0).
Lemma bb2_ok : bbath bth2 bm0 = Ret ((fst (fst bb2), snd (fst bb2)), (fst (snd bb2), snd (snd bb2))). Proof. apply bret. vm_compute. reflexivity. Qed.
Lemma bb2_n : fst (fst bb2) = 2 /\ fst (snd bb2) = 0. Proof. split; vm_compute; reflexivity. Qed.
Example C74_complete_case : bm0 0 1 = radd (Sum 1 (fun k => rmul (Sum 8 (fun y => rmul (bm0 0 y) (bcl k y))) (bcl k 1))) (Sum 2 (fun k => rmul (Sum 8 (fun y => rmul (bm0 0 y) (snd (fst bb2) k y))) (snd (fst bb2) k 1))).
Proof.
  rewrite <- (proj1 bb2_n) at 1; apply (C74_complete K brs beig 2 8 1 bm0 bcl bHE bHD bHR bHC bth2 _ _ _ _ bb2_ok); try lia; [vm_compute; reflexivity|].
  rewrite (proj2 bb2_n). intros; lia.
Qed.
Example C74_spin_case : snd (fst bb) 0 (4 + 2) = snd (fst bb) 0 2.
Proof.
  apply (C74_spin K brs beig 2 8 1 bm0 bcl bth _ _ _ _ bb_ok 4); [reflexivity| | |rewrite (proj1 bb_n); lia|lia].
  - intros p x Hp Hx. destruct p as [|[|p]], x as [|[|[|[|x]]]]; try lia; qq.
  - intros k x Hk Hx. destruct x as [|[|[|[|x]]]]; try lia; reflexivity.
Qed.
Example C74_rest_case : Sum 8 (fun x => rmul (snd (snd bb) 0 x) (bcl 0 x)) = r0 /\ snd (snd bb) 0 0 <> r0.
Proof. split; [|qq]. apply (C74_rest K brs beig 2 8 1 bm0 bcl bHD bHC bth _ _ _ _ bb_ok); [rewrite (proj2 bb_n); lia|lia]. Qed.

Add Ring Kq : (rth K).
Lemma zero2 (z a b c : K) : z = r0 -> rmul (radd (radd r0 (rmul (rmul z a) b)) (rmul (rmul c a) r0)) (radd (radd r0 (rmul (rmul z a) b)) (rmul (rmul c a) r0)) = r0.
Proof. intros ->. ring. Qed.
(** A number of bosons above the number of coupled ones, or the threshold zero, keeps bosons of occupation zero: whatever its
    inverse square root is taken to be, they are not normalised. *)
Theorem C74_number_refuted : exists m0 clus, meq (K := K) 1 1 (mm 8 clus (tr clus)) idm /\
  eig_ok 2 (mm 8 (m0_env K 8 1 m0 clus) (tr (m0_env K 8 1 m0 clus))) (beig 2 (mm 8 (m0_env K 8 1 m0 clus) (tr (m0_env K 8 1 m0 clus)))) /\
  forall th, th = Number K 2 \/ th = Occupation K r0 -> forall rs, exists nb cb r, boson_bath K rs beig th 2 8 1 m0 clus = Ret ((nb, cb), r) /\ nb = 2 /\
  Sum 8 (fun x => rmul (cb 1 x) (cb 1 x)) <> r1.
Proof.
  exists bm1, bcl. split; [exact bHC|].
  assert (W : beig 2 (bA bm1) = (vec2 (q 0 1) (q 4 1), mat2 (q 0 1) (q 1 1) (q 1 1) (q 0 1))).
  { unfold beig. replace (eqq (bA bm1 1 1) (q 0 1)) with true by (vm_compute; reflexivity). reflexivity. }
  split; [rewrite W; split; [|split]; ck|]. intros th Hth rs. unfold boson_bath, boson_coeff. cbv zeta. rewrite W.
  assert (G : get_number K th 2 (fun i => vec2 (q 0 1) (q 4 1) (2 - 1 - i)) = Ret 2) by (destruct Hth as [->| ->]; vm_compute; reflexivity).
  rewrite G. cbn [rbind]. exists (Nat.min 2 2). eexists. eexists. split; [reflexivity|]. split; [reflexivity|].
  rewrite Sum_0; [discriminate|]. intros x Hx.
  assert (Z : m0_env K 8 1 bm1 bcl 1 x = r0) by (do 8 (destruct x as [|x]; [qq|]); lia).
  unfold mm, tr. cbn [Sum Nat.sub]. unfold mat2. rewrite Z. apply zero2. qq.
Qed.

Example C74_projection_case : meq (K := K) 2 2 (project K 2 2 2 rot35 idm) rot35.
Proof. apply (proj2 (C74_projection K 2 2 2 rot35 idm)); ck. Qed.
Example C74_options_case : c_loc (Some "fragment-ov"%string) = Ret (true, true) /\ c_loc (Some "fragment occ"%string) = Ret (true, false) /\ c_loc (Some "fragment-vir"%string) = ValueErr /\
  c_target "cluster" 0 1 = ValueErr.
Proof. repeat split. Qed.
Example C74_targets_case : exists t, targets K 2 2 1 "full" (Some "fragment"%string) ((1, fun i _ => idm i 0), (2, idm)) ((0, zm), (0, zm)) (fun i _ => rot35 i 0) zm = Ret (2, t) /\
  t 0 0 = q 9 25 /\ t 0 (4 + 0) = t 0 0.
Proof.
  eexists. split; [reflexivity|]. split; [qq|].
  exact (proj1 (proj2 (C74_targets K 2 2 1 "full" (Some "fragment"%string) ((1, fun i _ => idm i 0), (2, idm)) ((0, zm), (0, zm)) (fun i _ => rot35 i 0) zm 2 _ (or_introl eq_refl) eq_refl)) 0 0 ltac:(lia)).
Qed.
(** Three fragments, the second without a bath; the moment is a multiple of the targets. *)
Example C74_shares_case : exists b, nth_error (moments K (fun _ t => mm 2 t (mat2 (q 1 1) (q 2 1) (q 3 1) (q 4 1))) [Some (1, fun _ _ => q 7 1); None; Some (2, rot35)]) 2 = Some b /\ b 1 0 = q 13 5.
Proof.
  set (ts := [Some (1, fun _ _ => q 7 1); None; Some (2, rot35)]). set (W := mat2 (q 1 1) (q 2 1) (q 3 1) (q 4 1)).
  destruct (C74_shares K (fun _ t => mm 2 t W) 2 W ts ltac:(cbn; reflexivity)) as [L H].
  destruct (nth_error (moments K (fun _ t => mm 2 t W) ts) 2) as [b|] eqn:E; [|apply nth_error_None in E; rewrite L in E; cbn in E; lia].
  exists b. split; [reflexivity|]. rewrite (H 2 2 rot35 b eq_refl E 1 0 ltac:(lia) ltac:(lia)). qq.
Qed.
(** Two occupied and two virtual orbitals, a cluster of one turned occupied and both virtual ones; 1/sqrt(2) is irrational. *)
Definition r2 (x : QK) : R2O := (x, 0%Qc).
Definition bh : R2O := inv2 rt2.
Definition bco2 : nat -> nat -> R2O := fun _ i => match i with 0 => r2 (q 3 5) | _ => r2 (q 4 5) end.
Lemma r2eq (x y : R2O) : eqq (fst x) (fst y) = true -> eqq (snd x) (snd y) = true -> x = y.
Proof. intros A B. rewrite (surjective_pairing x), (surjective_pairing y). apply eqq_ok in A, B. rewrite A, B. reflexivity. Qed.
Ltac rr := apply r2eq; vm_compute; reflexivity.
Example C74_cluster_case : let x := cluster_excitations R2O bh 2 2 2 bco2 idm in meq (1 * 2) (1 * 2) (mm (2 * 2 + 2 * 2) x (tr x)) idm.
Proof.
  apply C74_cluster; [rr|lia|lia| |].
  - intros i j Hi Hj. destruct i, j; try lia. rr.
  - intros i j Hi Hj. destruct i as [|[|i]], j as [|[|j]]; try lia; rr.
Qed.
End Cases.

Print Assumptions C74_cluster.
Print Assumptions C74_orthonormal.
Print Assumptions C74_loss.
Print Assumptions C74_complete.
Print Assumptions C74_spin.
Print Assumptions C74_rest.
Print Assumptions C74_number_refuted.
Print Assumptions C74_projection.
Print Assumptions C74_options.
Print Assumptions C74_shares.
Print Assumptions C74_targets.
