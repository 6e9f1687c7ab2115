(** C73: the energy-weighted DMET bath.  Theorems about M_Ewdmet. *)
From Coq Require Import List Arith Lia Bool Ring Setoid Morphisms.
From Verif Require Import Alg Ord Mat M_ExtCorr M_SsRpa P_TtoC P_SsRpa M_Screen P_Screen M_Crpa P_Crpa M_Ewdmet.
Import ListNotations.
Local Open Scope list_scope.

Section T.
Context (K : oring).
Add Ring Kr : (rth K).
Notation vec := (nat -> K).
Notation mt := (nat -> nat -> K).
Variable (svd : nat -> nat -> mt -> vec * mt).
Open Scope K_scope.
Notation st := (st K). Notation loop := (loop K svd). Notation block_svd := (block_svd K svd).
Notation cf := (cf K). Notation nl := (nl K). Notation nd := (nd K). Notation od := (od K). Notation sv := (sv K).

(** ** Contracts *)

(** A singular value decomposition b = u diag(x) vh with orthogonal u and vh, and non-negative values in descending order. *)
Definition svd_ok (r c : nat) (b : mt) (y : vec * mt) : Prop :=
  meq c c (mm c (snd y) (tr (snd y))) idm /\ meq c c (mm c (tr (snd y)) (snd y)) idm /\
  (forall i j, (i <= j)%nat -> (j < Nat.min r c)%nat -> le (fst y j) (fst y i)) /\ (forall i, (i < Nat.min r c)%nat -> le 0 (fst y i)) /\
  exists u : mt, meq r r (mm r (tr u) u) idm /\
  forall i j, (i < r)%nat -> (j < c)%nat -> b i j = Sum (Nat.min r c) (fun k => u i k * (fst y k * snd y k j)).
(** No singular value lies strictly between zero and the threshold. *)
Definition sharp (tol : K) (r c : nat) (y : vec * mt) : Prop := forall i, (i < Nat.min r c)%nat -> lt (fst y i) tol -> fst y i = 0.

(** The decompositions that the loop computes. *)
Fixpoint met (fuel o m n : nat) (a : mt) (tol : K) (s : st) : list (nat * nat * mt) :=
  match fuel with
  | O => []
  | S fuel =>
    let e := (m - (n + nd s))%nat in
    if ((nl s =? 0) || (e =? 0))%nat then []
    else let b := block K m n a s in let '(x, vh) := svd (nl s) e b in
    let c := count (Nat.min (nl s) e) (fun i => leb tol (x i)) in
    (nl s, e, b) ::
    (if (c =? 0)%nat then [] else let s' := update K n s o e c x vh in if (nd s' <? m - n)%nat then met fuel (S o) m n a tol s' else [])
  end.
Definition svds_ok (fuel o m n : nat) (a : mt) (tol : K) (s : st) : Prop :=
  forall r c b, In (r, c, b) (met fuel o m n a tol s) -> svd_ok r c b (svd r c b).
Definition svds_sharp (fuel o m n : nat) (a : mt) (tol : K) (s : st) : Prop :=
  forall r c b, In (r, c, b) (met fuel o m n a tol s) -> sharp tol r c (svd r c b).

(** ** Counting *)
Lemma count_le k f : (count k f <= k)%nat.
Proof. induction k; cbn; [lia|]. destruct (f k); lia. Qed.
Lemma count_prefix k f : (forall i j, (i <= j)%nat -> (j < k)%nat -> f j = true -> f i = true) ->
  forall i, (i < k)%nat -> (f i = true <-> (i < count k f)%nat).
Proof.
  induction k; intros H i Hi; [lia|]. cbn [count].
  assert (IH : forall i, (i < k)%nat -> (f i = true <-> (i < count k f)%nat)) by (apply IHk; intros; apply (H i0 j); try assumption; lia).
  destruct (f k) eqn:E.
  - assert (C : count k f = k).
    { clear Hi i. destruct k; [reflexivity|]. pose proof (count_le (S k) f). pose proof (proj1 (IH k ltac:(lia)) (H k (S k) ltac:(lia) ltac:(lia) E)). lia. }
    rewrite C. split; [lia|]. intros _. apply (H i k); [lia|lia|exact E].
  - rewrite Nat.add_0_r. destruct (Nat.eq_dec i k) as [->|N].
    + rewrite E. split; [discriminate|]. pose proof (count_le k f). lia.
    + apply IH. lia.
Qed.
Lemma kept_iff r c y b tol : svd_ok r c b y -> forall i, (i < Nat.min r c)%nat -> (leb tol (fst y i) = true <-> (i < count (Nat.min r c) (fun i => leb tol (fst y i)))%nat).
Proof.
  intros (_ & _ & Hd & _). apply count_prefix. intros i j Hij Hj. specialize (Hd i j Hij Hj). intros E.
  exact (le_tr tol (fst y j) (fst y i) E Hd).
Qed.

(** ** What stays true during the loop *)
Definition F (m : nat) (a : mt) (s : st) : mt := mm m (tr (cf s)) (mm m a (cf s)).
(** Level of an orbital before recursion [o]: fragment, order of a bath orbital, or not yet found. *)
Definition lv (n o : nat) (s : st) (p : nat) : nat := if (p <? n)%nat then 0%nat else match od s (p - n)%nat with Some k => k | None => o end.

Record ok (m n o : nat) (s : st) : Prop := {
  ok_len : (nl s <= n + nd s)%nat /\ (n + nd s <= m)%nat /\ (1 <= o)%nat;
  ok_orth : meq m m (mm m (tr (cf s)) (cf s)) idm;
  ok_orth' : meq m m (mm m (cf s) (tr (cf s))) idm;
  ok_frag : forall p q, (p < m)%nat -> (q < m)%nat -> (p < n \/ q < n)%nat -> cf s p q = delta p q;
  ok_found : forall k, (k < nd s)%nat -> exists j, od s k = Some j /\ (1 <= j < o)%nat;
  ok_rest : forall k, (nd s <= k)%nat -> od s k = None;
  ok_mono : forall k k' j j', (k <= k')%nat -> od s k = Some j -> od s k' = Some j' -> (j <= j')%nat;
  ok_low : forall p, (p < n + nd s)%nat -> (lv n o s p = o - 1 <-> n + nd s - nl s <= p)%nat;
  ok_every : forall j, (1 <= j < o)%nat -> exists k, (k < nd s)%nat /\ od s k = Some j;
  ok_size : (nl s <= n)%nat /\ (nd s <= (o - 1) * n)%nat /\ forall k j, od s k = Some j -> (k < j * n)%nat }.

Lemma start_ok m n : (n <= m)%nat -> ok m n 1 (start K n).
Proof.
  intros H. constructor; cbn.
  - lia.
  - change (meq m m (mm m (tr idm) idm) (K := K) idm). rewrite tr_idm, mm_idl. reflexivity.
  - change (meq m m (mm m idm (tr idm)) (K := K) idm). rewrite tr_idm, mm_idl. reflexivity.
  - reflexivity.
  - lia.
  - reflexivity.
  - discriminate.
  - intros p Hp. unfold lv. rewrite (proj2 (Nat.ltb_lt p n)) by lia. lia.
  - intros j Hj. lia.
  - split; [lia|]. split; [lia|]. discriminate.
Qed.

Definition turn (n : nat) (s : st) (vh : mt) : mt := block_diag K (n + nd s) (n + nd s) idm (tr vh).
Lemma update_cf m n s o e c x vh : (n + nd s + e = m)%nat -> meq m m (cf (update K n s o e c x vh)) (mm m (cf s) (turn n s vh)).
Proof.
  intros Hm p j Hp Hj. cbn [M_Ewdmet.cf update]. unfold turn, block_diag, mm. rewrite <- Hm, Sum_split. unfold blk, tr, idm.
  destruct (Nat.ltb_spec j (n + nd s)) as [L|L].
  - rewrite (Sum_0 e).
    + rewrite (Sum_ext _ _ (fun k => cf s p k * delta j k)).
      * rewrite (Sum_delta_r' (n + nd s) j (cf s p) L). ring.
      * intros k Hk. rewrite (proj2 (Nat.ltb_lt k (n + nd s)) Hk). unfold delta. rewrite Nat.eqb_sym. reflexivity.
    + intros k _. rewrite (proj2 (Nat.ltb_ge (n + nd s + k) (n + nd s))) by lia. ring.
  - rewrite (Sum_0 (n + nd s)).
    + match goal with |- _ = 0 + ?x => transitivity x; [|ring] end. apply Sum_ext. intros k Hk. rewrite (proj2 (Nat.ltb_ge (n + nd s + k) (n + nd s))) by lia.
      rewrite (Nat.add_comm (n + nd s) k), Nat.add_sub. reflexivity.
    + intros k Hk. rewrite (proj2 (Nat.ltb_lt k (n + nd s)) Hk). ring.
Qed.
Lemma turn_orth n s e vh : meq e e (mm e vh (tr vh)) idm -> meq (n + nd s + e) (n + nd s + e) (mm (n + nd s + e) (tr (turn n s vh)) (turn n s vh)) idm.
Proof.
  intros H. unfold turn. rewrite (bd_tmm K (n + nd s) e (n + nd s) e). transitivity (block_diag K (n + nd s) (n + nd s) idm idm); [apply bd_eq|apply bd_id].
  - rewrite tr_idm, mm_idl. reflexivity.
  - rewrite <- H. intros i j _ _. reflexivity.
Qed.
Lemma turn_orth' n s e vh : meq e e (mm e (tr vh) vh) idm -> meq (n + nd s + e) (n + nd s + e) (mm (n + nd s + e) (turn n s vh) (tr (turn n s vh))) idm.
Proof.
  intros H. unfold turn. rewrite (bd_mmt K (n + nd s) e (n + nd s) e (n + nd s) e). transitivity (block_diag K (n + nd s) (n + nd s) idm idm); [apply bd_eq|apply bd_id].
  - rewrite tr_idm, mm_idl. reflexivity.
  - rewrite <- H. intros i j _ _. reflexivity.
Qed.

Lemma lv_old n o s o' e c x vh p : (p < n + nd s)%nat -> lv n o' (update K n s o e c x vh) p = match (p <? n)%nat, od s (p - n)%nat with true, _ => 0%nat | _, Some k => k | _, None => o' end.
Proof.
  intros Hp. unfold lv. cbn [M_Ewdmet.od update]. destruct (Nat.ltb_spec p n) as [L|L]; [reflexivity|].
  rewrite (proj2 (Nat.leb_gt (nd s) (p - n))) by lia. reflexivity.
Qed.
Lemma lv_new n o s o' e c x vh p : (n + nd s <= p)%nat -> lv n o' (update K n s o e c x vh) p = if (p <? n + nd s + c)%nat then o else match od s (p - n)%nat with Some k => k | None => o' end.
Proof.
  intros Hp. unfold lv. cbn [M_Ewdmet.od update]. rewrite (proj2 (Nat.ltb_ge p n)) by lia.
  rewrite (proj2 (Nat.leb_le (nd s) (p - n))) by lia. cbn [andb].
  destruct (Nat.ltb_spec (p - n) (nd s + c)), (Nat.ltb_spec p (n + nd s + c)); try lia; reflexivity.
Qed.

Lemma update_ok m n o s c y b : ok m n o s -> let e := (m - (n + nd s))%nat in svd_ok (nl s) e b y -> (1 <= c <= e)%nat -> (c <= nl s)%nat ->
  ok m n (S o) (update K n s o e c (fst y) (snd y)).
Proof.
  intros H e (V1 & V2 & _) Hc Hn'. destruct H as [[L1 [L2 L3]] O1 O2 Fr Fd Rs Mo Lw Ev [Z1 [Z2 Z3]]].
  assert (Hm : (n + nd s + e = m)%nat) by (unfold e; lia). clearbody e.
  pose proof (update_cf m n s o e c (fst y) (snd y) Hm) as EC. pose proof (turn_orth n s e _ V1) as T1. pose proof (turn_orth' n s e _ V2) as T2. rewrite Hm in T1, T2.
  set (s' := update K n s o e c (fst y) (snd y)) in *.
  constructor.
  - cbn. lia.
  - rewrite EC. rewrite (tr_mm m m m), mm_assoc, <- (mm_assoc m m m m (tr (cf s))), O1, mm_idl. exact T1.
  - rewrite EC. rewrite (tr_mm m m m), mm_assoc, <- (mm_assoc m m m m (turn n s (snd y))), T2, mm_idl. exact O2.
  - intros p q Hp Hq Hn. cbn [s' M_Ewdmet.cf update]. destruct (Nat.ltb_spec q (n + nd s)) as [L|L]; [apply Fr; assumption|].
    destruct Hn as [Hn|Hn]; [|lia]. rewrite Sum_0.
    + unfold delta. rewrite (proj2 (Nat.eqb_neq p q)) by lia. reflexivity.
    + intros k Hk. rewrite Fr by lia. unfold delta. rewrite (proj2 (Nat.eqb_neq p (n + nd s + k))) by lia. ring.
  - cbn [s' M_Ewdmet.od M_Ewdmet.nd update]. intros k Hk. destruct (Nat.leb_spec (nd s) k) as [L|L].
    + rewrite (proj2 (Nat.ltb_lt k (nd s + c)) Hk). exists o. split; [reflexivity|lia].
    + destruct (Fd k L) as (j & E & B). exists j. cbn [andb]. split; [exact E|lia].
  - cbn [s' M_Ewdmet.od M_Ewdmet.nd update]. intros k Hk. rewrite (proj2 (Nat.ltb_ge k (nd s + c)) Hk), andb_false_r. apply Rs. lia.
  - cbn [s' M_Ewdmet.od update]. intros k k' j j' Hk. 
    destruct (Nat.leb_spec (nd s) k) as [A|A], (Nat.leb_spec (nd s) k') as [B|B]; try lia; cbn [andb].
    + destruct (Nat.ltb_spec k (nd s + c)), (Nat.ltb_spec k' (nd s + c)); rewrite ?Rs by lia; congruence || (intros [= <-] [= <-]; lia).
    + destruct (Nat.ltb_spec k' (nd s + c)).
      * intros E [= <-]. destruct (Fd k A) as (i & E' & Hi). rewrite E in E'. injection E' as ->. lia.
      * rewrite (Rs k') by lia. discriminate.
    + apply Mo. exact Hk.
  - intros p Hp. cbn [s' M_Ewdmet.nd M_Ewdmet.nl update] in *. cbn [M_Ewdmet.nd update s'] in Hp. destruct (Nat.lt_ge_cases p (n + nd s)) as [A|A].
    + unfold s'. rewrite lv_old by exact A. split; [|lia]. intros E. exfalso. destruct (Nat.ltb_spec p n) as [B|B]; [lia|].
      destruct (Fd (p - n)%nat ltac:(lia)) as (j & E' & Hj). rewrite E' in E. lia.
    + unfold s'. rewrite lv_new by exact A. rewrite (proj2 (Nat.ltb_lt p (n + nd s + c))) by lia. lia.
  - intros j Hj. cbn [s' M_Ewdmet.od M_Ewdmet.nd update]. destruct (Nat.eq_dec j o) as [->|N].
    + exists (nd s). split; [lia|]. rewrite Nat.leb_refl, (proj2 (Nat.ltb_lt (nd s) (nd s + c))) by lia. reflexivity.
    + destruct (Ev j ltac:(lia)) as (k & Hk & E). exists k. split; [lia|]. rewrite (proj2 (Nat.leb_gt (nd s) k)) by lia. exact E.
  - cbn [s' M_Ewdmet.od M_Ewdmet.nd M_Ewdmet.nl update]. split; [lia|].
    assert (Zo : (nd s + c <= o * n)%nat) by (destruct o as [|o']; [lia|]; cbn [Nat.mul] in *; replace (S o' - 1)%nat with o' in Z2 by lia; lia).
    split; [replace (S o - 1)%nat with o by lia; exact Zo|].
    intros k j. destruct ((nd s <=? k) && (k <? nd s + c))%nat eqn:E; [|apply Z3]. intros [= <-].
    apply andb_prop in E. destruct E as [_ E]. apply Nat.ltb_lt in E. lia.
Qed.

Lemma loop_ok fuel : forall o m n a tol s s', ok m n o s -> svds_ok fuel o m n a tol s -> loop fuel o m n a tol s = Ret s' ->
  exists o', (o <= o' <= o + fuel)%nat /\ ok m n o' s'.
Proof.
  induction fuel; intros o m n a tol s s' H HS; cbn [M_Ewdmet.loop].
  - intros [= <-]. exists o. split; [lia|exact H].
  - unfold svds_ok in HS. cbn [met] in HS. set (e := (m - (n + nd s))%nat) in *. destruct (Nat.eqb_spec (nl s) 0) as [N|N]; [discriminate|].
    destruct (Nat.eqb_spec e 0) as [N'|N']; [discriminate|]. cbn [orb] in *. set (b := block K m n a s) in *.
    destruct (svd (nl s) e b) as [x vh] eqn:ES. set (c := count (Nat.min (nl s) e) (fun i => leb tol (x i))) in *.
    pose proof (HS (nl s) e b (or_introl eq_refl)) as V. rewrite ES in V.
    assert (Hc' : (c <= nl s)%nat) by (pose proof (count_le (Nat.min (nl s) e) (fun i => leb tol (x i))); unfold c; lia).
    assert (Hc : (c <= e)%nat) by (pose proof (count_le (Nat.min (nl s) e) (fun i => leb tol (x i))); unfold c; lia).
    destruct (Nat.eqb_spec c 0) as [Z|Z]; [intros [= <-]; exists o; split; [lia|exact H]|].
    pose proof (update_ok m n o s c (x, vh) b H V ltac:(fold e; lia) Hc') as H'. fold e in H'. cbn [fst snd] in H'.
    destruct (_ =? _)%nat; [intros [= <-]; exists (S o); split; [lia|exact H']|].
    destruct (_ <? _)%nat; [|discriminate]. intros E.
    destruct (IHfuel (S o) m n a tol _ s' H') with (2 := E) as (o' & A & B).
    + intros r c' b' HI. apply HS. right. exact HI.
    + exists o'. split; [lia|exact B].
Qed.

(** ** Levels couple to their neighbours only *)
Definition tri (m n o : nat) (a : mt) (s : st) : Prop := forall p q, (p < m)%nat -> (q < m)%nat -> (lv n o s p + 1 < lv n o s q)%nat -> F m a s p q = 0.
Definition cut (m n o : nat) (a : mt) (s : st) : Prop := forall p q, (p < n + nd s)%nat -> (n + nd s <= q < m)%nat -> F m a s p q = 0.

Lemma F_update m n s o e c x vh a : (n + nd s + e = m)%nat -> meq m m (F m a (update K n s o e c x vh)) (mm m (tr (turn n s vh)) (mm m (F m a s) (turn n s vh))).
Proof.
  intros Hm. unfold F. rewrite (update_cf m n s o e c x vh Hm), (tr_mm m m m), !mm_assoc. reflexivity.
Qed.
Lemma turn_l n s e vh (a : mt) p q : (p < n + nd s)%nat -> mm (n + nd s + e) (tr (turn n s vh)) a p q = a p q.
Proof.
  intros Hp. unfold mm. rewrite Sum_split. unfold turn, block_diag, blk, tr, idm.
  rewrite (Sum_0 e) by (intros k _; rewrite (proj2 (Nat.ltb_ge (n + nd s + k) (n + nd s))), (proj2 (Nat.ltb_lt p (n + nd s)) Hp) by lia; ring).
  rewrite (Sum_ext _ _ (fun k => a k q * delta p k)).
  - rewrite (Sum_delta_r' (n + nd s) p (fun k => a k q) Hp). ring.
  - intros k Hk. rewrite (proj2 (Nat.ltb_lt k (n + nd s)) Hk), (proj2 (Nat.ltb_lt p (n + nd s)) Hp). unfold delta. rewrite Nat.eqb_sym. ring.
Qed.
Lemma turn_rl n s e vh (a : mt) p q : (q < n + nd s)%nat -> mm (n + nd s + e) a (turn n s vh) p q = a p q.
Proof.
  intros Hp. unfold mm. rewrite Sum_split. unfold turn, block_diag, blk, tr, idm.
  rewrite (Sum_0 e) by (intros k _; rewrite (proj2 (Nat.ltb_ge (n + nd s + k) (n + nd s))), (proj2 (Nat.ltb_lt q (n + nd s)) Hp) by lia; ring).
  rewrite (Sum_ext _ _ (fun k => a p k * delta q k)).
  - rewrite (Sum_delta_r' (n + nd s) q (fun k => a p k) Hp). ring.
  - intros k Hk. rewrite (proj2 (Nat.ltb_lt k (n + nd s)) Hk), (proj2 (Nat.ltb_lt q (n + nd s)) Hp). unfold delta. rewrite Nat.eqb_sym. ring.
Qed.
Lemma turn_rr n s e vh (a : mt) p q : (n + nd s <= q)%nat -> mm (n + nd s + e) a (turn n s vh) p q = Sum e (fun k => a p (n + nd s + k)%nat * vh (q - (n + nd s))%nat k).
Proof.
  intros Hp. unfold mm. rewrite Sum_split. unfold turn, block_diag, blk, tr, idm.
  rewrite (Sum_0 (n + nd s)) by (intros k Hk; rewrite (proj2 (Nat.ltb_lt k (n + nd s)) Hk), (proj2 (Nat.ltb_ge q (n + nd s)) Hp) by lia; ring).
  match goal with |- 0 + ?x = _ => transitivity x; [ring|] end. apply Sum_ext. intros k _.
  rewrite (proj2 (Nat.ltb_ge (n + nd s + k) (n + nd s))), (proj2 (Nat.ltb_ge q (n + nd s)) Hp), (Nat.add_comm (n + nd s) k), Nat.add_sub by lia. reflexivity.
Qed.

(** The turned block: row i, column j of [b vh^t] is u_ij x_j. *)
Lemma svd_turned r c (b : mt) (y : vec * mt) (u : mt) : (forall i j, (i < r)%nat -> (j < c)%nat -> b i j = Sum (Nat.min r c) (fun k => u i k * (fst y k * snd y k j))) ->
  meq c c (mm c (snd y) (tr (snd y))) idm -> forall i j, (i < r)%nat -> (j < c)%nat ->
  Sum c (fun k => b i k * snd y j k) = if (j <? Nat.min r c)%nat then u i j * fst y j else 0.
Proof.
  intros Hb V i j Hi Hj. rewrite (Sum_ext c _ (fun k => Sum (Nat.min r c) (fun l => u i l * fst y l * (snd y l k * snd y j k)))).
  2:{ intros k Hk. rewrite (Hb i k Hi Hk), <- Sum_mul_r. apply Sum_ext. intros; ring. }
  rewrite Sum_swap. rewrite (Sum_ext (Nat.min r c) _ (fun l => u i l * fst y l * delta j l)).
  2:{ intros l Hl. rewrite Sum_mul_l. f_equal. pose proof (V l j ltac:(lia) Hj) as E. unfold mm, tr, idm in E. rewrite E. unfold delta. rewrite Nat.eqb_sym. reflexivity. }
  destruct (Nat.ltb_spec j (Nat.min r c)) as [L|L].
  - exact (Sum_delta_r' (Nat.min r c) j (fun l => u i l * fst y l) L).
  - apply Sum_0. intros l Hl. unfold delta. rewrite (proj2 (Nat.eqb_neq j l)) by lia. ring.
Qed.

Lemma dropped r c b y tol j : svd_ok r c b y -> sharp tol r c y -> (count (Nat.min r c) (fun i => leb tol (fst y i)) <= j)%nat -> (j < Nat.min r c)%nat -> fst y j = 0.
Proof.
  intros V S H Hj. apply S; [exact Hj|]. destruct (leb tol (fst y j)) eqn:E.
  - apply (kept_iff _ _ _ _ tol V j Hj) in E. lia.
  - unfold leb in E. apply negb_false_iff in E. exact E.
Qed.

Lemma tri_update m n o s y a tol : ok m n o s -> tri m n o a s -> let e := (m - (n + nd s))%nat in svd_ok (nl s) e (block K m n a s) y -> sharp tol (nl s) e y ->
  let c := count (Nat.min (nl s) e) (fun i => leb tol (fst y i)) in
  tri m n (S o) a (update K n s o e c (fst y) (snd y)).
Proof.
  intros H HT e V Sh c p q Hp Hq Hl. pose proof (fun j => dropped _ _ _ _ tol j V Sh) as DR. fold c in DR. destruct V as (V1 & V2 & V3 & V4 & u & U1 & U2).
  destruct H as [[L1 [L2 L3]] O1 O2 Fr Fd Rs Mo Lw _ _].
  assert (Hm : (n + nd s + e = m)%nat) by (unfold e; lia). clearbody e.
  subst m. rewrite (F_update _ n s o e c (fst y) (snd y) a eq_refl p q Hp Hq).
  assert (Ll : forall p, (p < n + nd s)%nat -> lv n (S o) (update K n s o e c (fst y) (snd y)) p = lv n o s p).
  { intros x Hx. rewrite lv_old by exact Hx. unfold lv. destruct (Nat.ltb_spec x n); [reflexivity|].
    destruct (Fd (x - n)%nat ltac:(lia)) as (j & -> & _). reflexivity. }
  assert (Lo : forall p, (p < n + nd s)%nat -> (lv n o s p <= o - 1)%nat).
  { intros x Hx. unfold lv. destruct (Nat.ltb_spec x n); [lia|]. destruct (Fd (x - n)%nat ltac:(lia)) as (j & -> & Hj). lia. }
  assert (Ln : forall p, (n + nd s <= p)%nat -> lv n (S o) (update K n s o e c (fst y) (snd y)) p = if (p <? n + nd s + c)%nat then o else S o).
  { intros x Hx. rewrite lv_new by exact Hx. rewrite Rs by lia. reflexivity. }
  assert (Pl : (p < n + nd s)%nat).
  { destruct (Nat.lt_ge_cases p (n + nd s)) as [A|A]; [exact A|exfalso]. rewrite (Ln p A) in Hl.
    destruct (Nat.lt_ge_cases q (n + nd s)) as [B|B].
    - rewrite (Ll q B) in Hl. specialize (Lo q B). destruct (_ <? _)%nat; lia.
    - rewrite (Ln q B) in Hl. destruct (p <? _)%nat, (q <? _)%nat; lia. }
  rewrite (turn_l n s e (snd y) _ p q Pl). rewrite (Ll p Pl) in Hl.
  destruct (Nat.lt_ge_cases q (n + nd s)) as [B|B].
  - rewrite (Ll q B) in Hl. rewrite (turn_rl n s e (snd y) _ p q B). apply HT; assumption.
  - rewrite (Ln q B) in Hl. rewrite (turn_rr n s e (snd y) _ p q B).
    destruct (Nat.eq_dec (lv n o s p) (o - 1)) as [E|E].
    + pose proof (proj1 (Lw p Pl) E) as Pb.
      destruct (Nat.ltb_spec q (n + nd s + c)) as [C|C]; [lia|].
      pose proof (svd_turned (nl s) e _ y u U2 V1 (p - (n + nd s - nl s))%nat (q - (n + nd s))%nat ltac:(lia) ltac:(lia)) as T.
      transitivity (Sum e (fun k => block K (n + nd s + e) n a s (p - (n + nd s - nl s))%nat k * snd y (q - (n + nd s))%nat k)).
      { apply Sum_ext. intros k _. unfold block, F. replace (n + nd s - nl s + (p - (n + nd s - nl s)))%nat with p by lia. reflexivity. }
      rewrite T. destruct (Nat.ltb_spec (q - (n + nd s)) (Nat.min (nl s) e)) as [D|D]; [|reflexivity].
      rewrite (DR (q - (n + nd s))%nat ltac:(lia) D). ring.
    + specialize (Lo p Pl). apply Sum_0. intros k Hk. rewrite (HT p (n + nd s + k)%nat Hp ltac:(lia)); [ring|].
      unfold lv at 2. rewrite (proj2 (Nat.ltb_ge (n + nd s + k) n)) by lia. rewrite Rs by lia. lia.
Qed.
(** If nothing is left above the threshold, the rest is decoupled. *)
Lemma cut_zero m n o s y a tol : ok m n o s -> tri m n o a s -> let e := (m - (n + nd s))%nat in svd_ok (nl s) e (block K m n a s) y -> sharp tol (nl s) e y ->
  count (Nat.min (nl s) e) (fun i => leb tol (fst y i)) = 0%nat -> cut m n o a s.
Proof.
  intros H HT e V Sh c p q Hp Hq. pose proof (fun j => dropped _ _ _ _ tol j V Sh) as DR. rewrite c in DR. destruct V as (V1 & V2 & V3 & V4 & u & U1 & U2).
  destruct H as [[L1 [L2 L3]] O1 O2 Fr Fd Rs Mo Lw _ _].
  assert (Lo : (lv n o s p <= o - 1)%nat).
  { unfold lv. destruct (Nat.ltb_spec p n); [lia|]. destruct (Fd (p - n)%nat ltac:(lia)) as (j & -> & Hj). lia. }
  assert (Lq : lv n o s q = o) by (unfold lv; rewrite (proj2 (Nat.ltb_ge q n)) by lia; rewrite Rs by lia; reflexivity).
  destruct (Nat.eq_dec (lv n o s p) (o - 1)) as [E|E].
  - pose proof (proj1 (Lw p Hp) E) as Pb. assert (He : (q - (n + nd s) < e)%nat) by (unfold e; lia).
    pose proof (U2 (p - (n + nd s - nl s))%nat (q - (n + nd s))%nat ltac:(lia) He) as T. unfold block in T.
    replace (n + nd s - nl s + (p - (n + nd s - nl s)))%nat with p in T by lia. replace (n + nd s + (q - (n + nd s)))%nat with q in T by lia.
    unfold F. rewrite T. apply Sum_0. intros k Hk. rewrite (DR k ltac:(lia) Hk). ring.
  - apply HT; lia.
Qed.

Lemma loop_tri fuel : forall o m n a tol s s', ok m n o s -> tri m n o a s -> svds_ok fuel o m n a tol s -> svds_sharp fuel o m n a tol s ->
  loop fuel o m n a tol s = Ret s' ->
  exists o', (o <= o' <= o + fuel)%nat /\ ok m n o' s' /\ tri m n o' a s' /\ (o' = o + fuel \/ cut m n o' a s')%nat.
Proof.
  induction fuel; intros o m n a tol s s' H HT HS HP; cbn [M_Ewdmet.loop].
  - intros [= <-]. exists o. split; [lia|]. split; [exact H|]. split; [exact HT|left; lia].
  - unfold svds_ok in HS. unfold svds_sharp in HP. cbn [met] in HS, HP. set (e := (m - (n + nd s))%nat) in *. destruct (Nat.eqb_spec (nl s) 0) as [N|N]; [discriminate|].
    destruct (Nat.eqb_spec e 0) as [N'|N']; [discriminate|]. cbn [orb] in *. set (b := block K m n a s) in *.
    destruct (svd (nl s) e b) as [x vh] eqn:ES. set (c := count (Nat.min (nl s) e) (fun i => leb tol (x i))) in *.
    pose proof (HS (nl s) e b (or_introl eq_refl)) as V. rewrite ES in V. pose proof (HP (nl s) e b (or_introl eq_refl)) as P. rewrite ES in P.
    assert (Hc' : (c <= nl s)%nat) by (pose proof (count_le (Nat.min (nl s) e) (fun i => leb tol (x i))); unfold c; lia).
    assert (Hc : (c <= e)%nat) by (pose proof (count_le (Nat.min (nl s) e) (fun i => leb tol (x i))); unfold c; lia).
    destruct (Nat.eqb_spec c 0) as [Z|Z].
    { intros [= <-]. exists o. split; [lia|]. split; [exact H|]. split; [exact HT|right]. exact (cut_zero m n o s (x, vh) a tol H HT V P Z). }
    pose proof (update_ok m n o s c (x, vh) b H V ltac:(fold e; lia) Hc') as H'. fold e in H'. cbn [fst snd] in H'.
    pose proof (tri_update m n o s (x, vh) a tol H HT V P) as HT'. cbv zeta in HT'. cbn [fst snd] in HT'. fold e c in HT'.
    destruct (Nat.eqb_spec (nd (update K n s o e c x vh)) (m - n)) as [D|D].
    { intros [= <-]. exists (S o). split; [lia|]. split; [exact H'|]. split; [exact HT'|right]. intros p q Hp Hq. lia. }
    destruct (_ <? _)%nat; [|discriminate]. intros E.
    destruct (IHfuel (S o) m n a tol _ s' H' HT') with (3 := E) as (o' & A & B & C & D').
    + intros r c' b' HI. apply HS. right. exact HI.
    + intros r c' b' HI. apply HP. right. exact HI.
    + exists o'. split; [lia|]. split; [exact B|]. split; [exact C|]. destruct D' as [D'|D']; [left; lia|right; exact D'].
Qed.

(** ** Powers *)
Fixpoint mpow (n : nat) (a : mt) (j : nat) : mt := match j with O => idm | S j => mm n a (mpow n a j) end.

Lemma mpow_ext n a b j : meq n n a b -> meq n n (mpow n a j) (mpow n b j).
Proof. intros H. induction j; cbn [mpow]; [reflexivity|]. apply mm_proper; assumption. Qed.
Lemma mpow_add n a i j : meq n n (mpow n a (i + j)) (mm n (mpow n a i) (mpow n a j)).
Proof.
  induction i; cbn [Nat.add mpow]; [rewrite mm_idl; reflexivity|]. rewrite IHi, mm_assoc. reflexivity.
Qed.
Lemma mpow_r n a j : meq n n (mpow n a (S j)) (mm n (mpow n a j) a).
Proof.
  rewrite <- (Nat.add_1_r j), mpow_add. cbn [mpow]. rewrite mm_idr. reflexivity.
Qed.
Lemma mpow_rot m (c a : mt) j : meq m m (mm m c (tr c)) idm -> meq m m (mm m (tr c) c) idm ->
  meq m m (mpow m (mm m (tr c) (mm m a c)) j) (mm m (tr c) (mm m (mpow m a j) c)).
Proof.
  intros H H'. induction j; cbn [mpow].
  - rewrite mm_idl. symmetry. exact H'.
  - rewrite IHj, !mm_assoc. rewrite <- (mm_assoc m m m m c (tr c)), H, mm_idl. reflexivity.
Qed.

Section Pow.
Variables (m N k : nat) (l : nat -> nat) (f : mt).
Hypotheses (HN : (N <= m)%nat) (Hf : forall p q, (p < m)%nat -> (q < m)%nat -> (l p + 1 < l q)%nat -> f p q = 0 /\ f q p = 0).

Lemma far j : forall p q, (p < m)%nat -> (q < m)%nat -> (l q + j < l p \/ l p + j < l q)%nat -> mpow m f j p q = 0.
Proof.
  induction j; intros p q Hp Hq H; cbn [mpow].
  - unfold idm, delta. destruct (Nat.eqb_spec p q) as [->|]; [lia|reflexivity].
  - unfold mm. apply Sum_0. intros r Hr. destruct H as [H|H].
    + destruct (Nat.lt_ge_cases (l q + j) (l r)); [rewrite (IHj r q Hr Hq) by lia; ring|].
      rewrite (proj2 (Hf r p Hr Hp ltac:(lia))). ring.
    + destruct (Nat.lt_ge_cases (l r + j) (l q)); [rewrite (IHj r q Hr Hq) by lia; ring|].
      rewrite (proj1 (Hf p r Hp Hr ltac:(lia))). ring.
Qed.
Lemma Sum_cut (g : vec) : (forall r, (N <= r < m)%nat -> g r = 0) -> Sum m g = Sum N g.
Proof.
  intros H. replace m with (N + (m - N))%nat by lia. rewrite Sum_split, (Sum_0 (m - N)); [ring|]. intros i Hi. apply H. lia.
Qed.
Hypothesis (Hk : forall p, (p < m)%nat -> (p < N <-> l p <= k)%nat).

Lemma cols j : (j <= k + 1)%nat -> forall p q, (p < N)%nat -> (q < N)%nat -> l q = 0%nat -> mpow N f j p q = mpow m f j p q.
Proof.
  induction j; intros Hj p q Hp Hq Hl; cbn [mpow]; [reflexivity|]. unfold mm. rewrite (Sum_cut (fun r => f p r * mpow m f j r q)).
  - apply Sum_ext. intros r Hr. rewrite IHj by (assumption || lia). reflexivity.
  - intros r Hr. rewrite (far j r q) by (try lia; left; rewrite Hl; pose proof (Hk r ltac:(lia)); lia). ring.
Qed.
Lemma rows j : (j <= k + 1)%nat -> forall p q, (p < N)%nat -> (q < N)%nat -> l p = 0%nat -> mpow N f j p q = mpow m f j p q.
Proof.
  induction j; intros Hj p q Hp Hq Hl; [reflexivity|]. rewrite (mpow_r N f j p q Hp Hq), (mpow_r m f j p q) by lia. unfold mm.
  rewrite (Sum_cut (fun r => mpow m f j p r * f r q)).
  - apply Sum_ext. intros r Hr. rewrite IHj by (assumption || lia). reflexivity.
  - intros r Hr. rewrite (far j p r) by (try lia; right; rewrite Hl; pose proof (Hk r ltac:(lia)); lia). ring.
Qed.
Lemma both j : (j <= 2 * k + 1)%nat -> forall p q, (p < m)%nat -> (q < m)%nat -> l p = 0%nat -> l q = 0%nat -> mpow N f j p q = mpow m f j p q.
Proof.
  intros Hj p q Hp' Hq' Lp Lq. assert (Hp : (p < N)%nat) by (apply Hk; [exact Hp'|lia]). assert (Hq : (q < N)%nat) by (apply Hk; [exact Hq'|lia]).
  set (i := Nat.min k j). assert (Hi : (i <= k)%nat) by (unfold i; lia).
  replace j with (i + (j - i))%nat by (unfold i; lia). assert (Hji : (j - i <= k + 1)%nat) by (unfold i; lia).
  rewrite (mpow_add N f i (j - i) p q Hp Hq), (mpow_add m f i (j - i) p q Hp' Hq'). unfold mm.
  rewrite (Sum_cut (fun r => mpow m f i p r * mpow m f (j - i) r q)).
  - apply Sum_ext. intros r Hr. rewrite rows, cols by (assumption || lia). reflexivity.
  - intros r Hr. rewrite (far i p r) by (try lia; right; rewrite Lp; pose proof (Hk r ltac:(lia)); lia). ring.
Qed.
End Pow.

Lemma closed m N (f : mt) : (N <= m)%nat -> (forall p q, (p < N)%nat -> (N <= q < m)%nat -> f p q = 0 /\ f q p = 0) ->
  forall j p q, (p < m)%nat -> (q < N)%nat -> mpow m f j p q = if (p <? N)%nat then mpow N f j p q else 0.
Proof.
  intros HN Hf. induction j; intros p q Hp Hq; cbn [mpow].
  - destruct (Nat.ltb_spec p N); [reflexivity|]. unfold idm, delta. rewrite (proj2 (Nat.eqb_neq p q)) by lia. reflexivity.
  - unfold mm. replace (Sum m (fun y => f p y * mpow m f j y q)) with (Sum N (fun y => f p y * mpow m f j y q)).
    2:{ symmetry. apply (Sum_cut m N HN). intros i Hi. rewrite (IHj i q) by lia. rewrite (proj2 (Nat.ltb_ge i N)) by lia. ring. }
    destruct (Nat.ltb_spec p N) as [L|L].
    + apply Sum_ext. intros r Hr. rewrite (IHj r q) by lia. rewrite (proj2 (Nat.ltb_lt r N) Hr). reflexivity.
    + apply Sum_0. intros r Hr. rewrite (proj2 (Hf r p Hr ltac:(lia))). ring.
Qed.

(** ** Theorems about the decomposition *)

(** The coefficients of the fragment and of the environment orbitals together. *)
Definition full (n : nat) (R : mt) : mt := block_diag K n n idm R.
Lemma full_cf m n o s : ok m n o s -> meq m m (full n (fun i j => cf s (n + i)%nat (n + j)%nat)) (cf s).
Proof.
  intros H p q Hp Hq. pose proof (ok_frag _ _ _ _ H p q Hp Hq) as E. unfold full, block_diag, blk.
  destruct (Nat.ltb_spec p n), (Nat.ltb_spec q n); try (rewrite E by lia).
  - reflexivity.
  - unfold delta. rewrite (proj2 (Nat.eqb_neq p q)) by lia. reflexivity.
  - unfold delta. rewrite (proj2 (Nat.eqb_neq p q)) by lia. reflexivity.
  - f_equal; lia.
Qed.

Lemma svd_inv m n a tol b R x ord : block_svd m n a tol b = Ret (R, x, ord) ->
  exists s, loop b 1 m n a tol (start K n) = Ret s /\ R = (fun i j => cf s (n + i)%nat (n + j)%nat) /\ x = sv s /\ ord = od s.
Proof.
  unfold M_Ewdmet.block_svd. destruct (loop b 1 m n a tol (start K n)) as [s| | |]; cbn [rbind]; try discriminate.
  intros E. exists s. split; [reflexivity|].
  assert (E' : ((fun i j => cf s (n + i)%nat (n + j)%nat), sv s, od s) = (R, x, ord)) by exact (f_equal (fun z => match z with Ret y => y | _ => (R, x, ord) end) E).
  pose proof (f_equal (fun z => fst (fst z)) E') as E1. pose proof (f_equal (fun z => snd (fst z)) E') as E2. pose proof (f_equal snd E') as E3.
  cbn [fst snd] in *. subst. repeat split.
Qed.

Section Res.
Variables (m n : nat) (a : mt) (tol : K) (b : nat) (R : mt) (x : vec) (ord : nat -> option nat).
Hypotheses (Hn : (n <= m)%nat) (HS : svds_ok b 1 m n a tol (start K n)) (HB : block_svd m n a tol b = Ret (R, x, ord)).

Lemma res_ok : exists o s, (1 <= o <= 1 + b)%nat /\ ok m n o s /\ meq m m (full n R) (cf s) /\ ord = od s.
Proof.
  destruct (svd_inv _ _ _ _ _ _ _ _ HB) as (s & E & -> & -> & ->). destruct (loop_ok b 1 m n a tol _ s (start_ok m n Hn) HS E) as (o & A & B).
  exists o, s. split; [exact A|]. split; [exact B|]. split; [exact (full_cf m n o s B)|reflexivity].
Qed.

(** The new environment orbitals are an orthonormal basis of the old ones. *)
Theorem C73_orthogonal : meq (m - n) (m - n) (mm (m - n) (tr R) R) idm /\ meq (m - n) (m - n) (mm (m - n) R (tr R)) idm.
Proof.
  destruct res_ok as (o & s & _ & H & E & _). pose proof (ok_orth _ _ _ _ H) as O1. pose proof (ok_orth' _ _ _ _ H) as O2. rewrite <- E in O1, O2. unfold full in O1, O2.
  assert (Hm : (m = n + (m - n))%nat) by lia. rewrite Hm in O1, O2. set (e := (m - n)%nat) in *. clearbody e.
  rewrite (bd_tmm K n e n e) in O1. rewrite (bd_mmt K n e n e n e) in O2.
  split; intros i j Hi Hj.
  - specialize (O1 (n + i)%nat (n + j)%nat ltac:(lia) ltac:(lia)). unfold block_diag in O1. rewrite blk_rr in O1. rewrite O1.
    unfold idm, delta. destruct (Nat.eqb_spec (n + i) (n + j)), (Nat.eqb_spec i j); (lia || reflexivity).
  - specialize (O2 (n + i)%nat (n + j)%nat ltac:(lia) ltac:(lia)). unfold block_diag in O2. rewrite blk_rr in O2. rewrite O2.
    unfold idm, delta. destruct (Nat.eqb_spec (n + i) (n + j)), (Nat.eqb_spec i j); (lia || reflexivity).
Qed.

Lemma ole_prefix o s k : ok m n o s -> forall i, (i < m - n)%nat -> (ole (od s i) k = true <-> (i < nbath (m - n) (od s) k)%nat).
Proof.
  intros H. apply count_prefix. intros i j Hij Hj E. destruct (od s j) as [y|] eqn:Ej; [|discriminate]. cbn [ole] in E. apply Nat.leb_le in E.
  assert (Hjn : (j < nd s)%nat) by (destruct (Nat.lt_ge_cases j (nd s)) as [L|L]; [exact L|]; rewrite (ok_rest _ _ _ _ H j L) in Ej; discriminate).
  destruct (ok_found _ _ _ _ H i ltac:(lia)) as (z & Ez & _). pose proof (ok_mono _ _ _ _ H i j z y Hij Ez Ej) as Q. rewrite Ez. cbn [ole]. apply Nat.leb_le. lia.
Qed.

(** The orders of the bath orbitals ascend from one without a gap, those without an order come last, and there are at most
    as many orbitals of one order as there are fragment orbitals. *)
Theorem C73_orders : (forall i j k k', (i <= j)%nat -> (j < m - n)%nat -> ord i = Some k -> ord j = Some k' -> (1 <= k <= k' /\ k' <= b)%nat) /\
  (forall i j, (i <= j)%nat -> (j < m - n)%nat -> ord i = None -> ord j = None) /\
  (forall j k k', (j < m - n)%nat -> ord j = Some k -> (1 <= k' <= k)%nat -> exists i, (i <= j)%nat /\ ord i = Some k') /\
  (forall k, (nbath (m - n) ord k <= k * n)%nat).
Proof.
  destruct res_ok as (o & s & Ho & H & _ & ->). split; [|split; [|split]].
  - intros i j k k' Hij Hj E E'. pose proof (ok_mono _ _ _ _ H i j k k' Hij E E').
    assert (L : forall i k, od s i = Some k -> (1 <= k < o)%nat).
    { intros i0 k0 E0. destruct (Nat.lt_ge_cases i0 (nd s)) as [L|L].
      - destruct (ok_found _ _ _ _ H i0 L) as (z & Ez & Hz). rewrite E0 in Ez. injection Ez as ->. exact Hz.
      - rewrite (ok_rest _ _ _ _ H i0 L) in E0. discriminate. }
    pose proof (L _ _ E). pose proof (L _ _ E'). lia.
  - intros i j Hij Hj E. apply (ok_rest _ _ _ _ H). destruct (Nat.lt_ge_cases i (nd s)) as [L|L]; [|lia].
    destruct (ok_found _ _ _ _ H i L) as (z & Ez & _). congruence.
  - intros j k k' Hj E Hk.
    assert (L : (j < nd s)%nat) by (destruct (Nat.lt_ge_cases j (nd s)) as [L|L]; [exact L|]; rewrite (ok_rest _ _ _ _ H j L) in E; discriminate).
    destruct (ok_found _ _ _ _ H j L) as (z & Ez & Hz). rewrite E in Ez. injection Ez as <-.
    destruct (ok_every _ _ _ _ H k' ltac:(lia)) as (i & Hi & Ei). destruct (Nat.le_ge_cases i j) as [Q|Q]; [exists i; split; assumption|].
    pose proof (ok_mono _ _ _ _ H j i k k' Q E Ei). exists j. split; [lia|]. rewrite E. f_equal. lia.
  - intros k. destruct (nbath (m - n) (od s) k) as [|c] eqn:E; [lia|].
    assert (Hc : (c < m - n)%nat) by (pose proof (count_le (m - n) (fun i => ole (od s i) k)); unfold nbath in E; lia).
    pose proof (proj2 (ole_prefix o s k H c Hc)) as Q. rewrite E in Q. specialize (Q ltac:(lia)). destruct (od s c) as [y|] eqn:Ec; [|discriminate].
    cbn [ole] in Q. apply Nat.leb_le in Q. pose proof (proj2 (proj2 (ok_size _ _ _ _ H)) c y Ec) as Z. nia.
Qed.

Hypotheses (Ha : meq m m (tr a) a) (HP : svds_sharp b 1 m n a tol (start K n)).
(** The matrix in the new basis. *)
Definition newF : mt := mm m (tr (full n R)) (mm m a (full n R)).

Lemma res_tri : exists o s, (1 <= o <= 1 + b)%nat /\ ok m n o s /\ meq m m (full n R) (cf s) /\ ord = od s /\
  (forall p q, (p < m)%nat -> (q < m)%nat -> (lv n o s p + 1 < lv n o s q)%nat -> newF p q = 0 /\ newF q p = 0) /\
  (o = (1 + b)%nat \/ forall p q, (p < n + nd s)%nat -> (n + nd s <= q < m)%nat -> newF p q = 0 /\ newF q p = 0).
Proof.
  destruct (svd_inv _ _ _ _ _ _ _ _ HB) as (s & E & ER & Ex & Eo).
  assert (T0 : tri m n 1 a (start K n)).
  { intros p q Hp Hq. unfold lv. cbn [start M_Ewdmet.od]. destruct (p <? n)%nat, (q <? n)%nat; lia. }
  destruct (loop_tri b 1 m n a tol _ s (start_ok m n Hn) T0 HS HP E) as (o & A & B & T & C).
  assert (EF : meq m m (full n R) (cf s)) by (rewrite ER; exact (full_cf m n o s B)).
  assert (EN : meq m m newF (F m a s)) by (unfold newF, F; rewrite EF; reflexivity).
  assert (ES : meq m m (tr newF) newF).
  { unfold newF. rewrite (tr_mm m m m), (tr_mm m m m), Ha, mm_assoc. intros i j _ _. reflexivity. }
  assert (Q : forall p q, (p < m)%nat -> (q < m)%nat -> F m a s p q = 0 -> newF p q = 0 /\ newF q p = 0).
  { intros p q Hp Hq Z. rewrite <- (EN p q Hp Hq) in Z. split; [exact Z|]. rewrite <- (ES q p Hq Hp). exact Z. }
  exists o, s. split; [exact A|]. split; [exact B|]. split; [exact EF|]. split; [exact Eo|]. split.
  - intros p q Hp Hq Hl. apply Q; try assumption. apply T; assumption.
  - destruct C as [C|C]; [left; exact C|right]. intros p q Hp Hq. apply Q; [lia|lia|]. apply C; assumption.
Qed.

Lemma newF_pow j p q : (p < n)%nat -> (q < n)%nat -> mpow m newF j p q = mpow m a j p q.
Proof.
  intros Hp Hq. destruct res_ok as (o & s & _ & H & E & _). unfold newF.
  pose proof (ok_orth _ _ _ _ H) as O1. pose proof (ok_orth' _ _ _ _ H) as O2. rewrite <- E in O1, O2.
  rewrite (mpow_rot m (full n R) a j O2 O1 p q) by lia.
  assert (Z : forall (g : mt) r, (r < m)%nat -> mm m g (full n R) r q = g r q).
  { intros g r Hr. unfold mm. rewrite (Sum_ext m _ (fun y => g r y * delta y q)); [exact (Sum_delta_r m q (g r) ltac:(lia))|].
    intros y Hy. rewrite (E y q Hy ltac:(lia)), (ok_frag _ _ _ _ H y q) by lia. reflexivity. }
  unfold mm at 1, tr. rewrite (Sum_ext m _ (fun y => delta p y * mpow m a j y q)); [exact (Sum_delta_l m p (fun y => mpow m a j y q) ltac:(lia))|].
  intros y Hy. rewrite (Z _ y Hy), (E y p Hy ltac:(lia)), (ok_frag _ _ _ _ H y p) by lia. unfold delta. rewrite Nat.eqb_sym. reflexivity.
Qed.

(** The fragment with the bath orbitals up to order k has the powers of the matrix between fragment orbitals up to 2k+1. *)
Theorem C73_moments k j p q : (k <= b)%nat -> (j <= 2 * k + 1)%nat -> (p < n)%nat -> (q < n)%nat ->
  mpow (n + nbath (m - n) ord k) newF j p q = mpow m a j p q.
Proof.
  intros Hk Hj Hp Hq. rewrite <- newF_pow by assumption. destruct res_tri as (o & s & A & B & _ & -> & T & C).
  pose proof (ole_prefix o s k B) as P. pose proof (count_le (m - n) (fun i => ole (od s i) k)) as Hc. change (count _ _) with (nbath (m - n) (od s) k) in Hc.
  destruct (Nat.lt_ge_cases k o) as [L|L].
  - apply (both m (n + nbath (m - n) (od s) k) k (lv n o s) newF); try lia.
    + exact T.
    + intros r Hr. unfold lv. destruct (Nat.ltb_spec r n) as [D|D]; [lia|]. specialize (P (r - n)%nat ltac:(lia)).
      destruct (od s (r - n)%nat) as [z|] eqn:Ez; cbn [ole] in P; [rewrite Nat.leb_le in P; lia|].
      split; [|lia]. intros D'. exfalso. pose proof (proj2 P ltac:(lia)). discriminate.
    + unfold lv. rewrite (proj2 (Nat.ltb_lt p n) Hp). reflexivity.
    + unfold lv. rewrite (proj2 (Nat.ltb_lt q n) Hq). reflexivity.
  - destruct C as [C|C]; [lia|]. pose proof (ok_len _ _ _ _ B) as (_ & L2 & _).
    assert (E : nbath (m - n) (od s) k = nd s).
    { assert (G1 : forall i, (i < m - n)%nat -> (i < nbath (m - n) (od s) k <-> i < nd s)%nat).
      { intros i Hi. rewrite <- (P i Hi). split.
        - intros Z. destruct (Nat.lt_ge_cases i (nd s)) as [D|D]; [exact D|]. rewrite (ok_rest _ _ _ _ B i D) in Z. discriminate.
        - intros D. destruct (ok_found _ _ _ _ B i D) as (z & -> & Hz). cbn [ole]. apply Nat.leb_le. lia. }
      destruct (Nat.lt_trichotomy (nbath (m - n) (od s) k) (nd s)) as [D|[D|D]]; [|exact D|].
      - pose proof (G1 (nbath (m - n) (od s) k) ltac:(lia)). lia.
      - pose proof (G1 (nd s) ltac:(lia)). lia. }
    rewrite E. rewrite (closed m (n + nd s) newF L2 C j p q) by lia. rewrite (proj2 (Nat.ltb_lt p (n + nd s))) by lia. reflexivity.
Qed.

(** If an order adds no orbital, the bath of the order before is complete: all powers are those of the matrix. *)
Theorem C73_closed k j p q : (k < b)%nat -> nbath (m - n) ord (S k) = nbath (m - n) ord k -> (p < n)%nat -> (q < n)%nat ->
  mpow (n + nbath (m - n) ord k) newF j p q = mpow m a j p q.
Proof.
  intros Hk He Hp Hq. rewrite <- newF_pow by assumption. destruct res_tri as (o & s & A & B & _ & E0 & T & C). rewrite E0 in *.
  pose proof (ole_prefix o s k B) as P. pose proof (ole_prefix o s (S k) B) as P'. pose proof (ok_len _ _ _ _ B) as (_ & L2 & _).
  destruct (Nat.lt_ge_cases (S k) o) as [L|L].
  - exfalso. destruct (ok_every _ _ _ _ B (S k) ltac:(lia)) as (i & Hi & Ei). specialize (P i ltac:(lia)). specialize (P' i ltac:(lia)).
    rewrite Ei in P, P'. cbn [ole] in P, P'. rewrite Nat.leb_le in P, P'. lia.
  - destruct C as [C|C]; [lia|].
    assert (E : nbath (m - n) (od s) k = nd s).
    { pose proof (count_le (m - n) (fun i => ole (od s i) k)) as Hc. change (count _ _) with (nbath (m - n) (od s) k) in Hc.
      assert (G1 : forall i, (i < m - n)%nat -> (i < nbath (m - n) (od s) k <-> i < nd s)%nat).
      { intros i Hi. rewrite <- (P i Hi). split.
        - intros Z. destruct (Nat.lt_ge_cases i (nd s)) as [D|D]; [exact D|]. rewrite (ok_rest _ _ _ _ B i D) in Z. discriminate.
        - intros D. destruct (ok_found _ _ _ _ B i D) as (z & -> & Hz). cbn [ole]. apply Nat.leb_le. lia. }
      destruct (Nat.lt_trichotomy (nbath (m - n) (od s) k) (nd s)) as [D|[D|D]]; [|exact D|].
      - pose proof (G1 (nbath (m - n) (od s) k) ltac:(lia)). lia.
      - pose proof (G1 (nd s) ltac:(lia)). lia. }
    rewrite E. rewrite (closed m (n + nd s) newF L2 C j p q) by lia. rewrite (proj2 (Nat.ltb_lt p (n + nd s))) by lia. reflexivity.
Qed.

(** Orbitals whose orders differ by more than one do not couple, nor the fragment and orbitals above order one. *)
Theorem C73_chain : (forall i j k, (i < m - n)%nat -> (j < m - n)%nat -> ord i = Some k -> (ord j = None \/ exists k', ord j = Some k' /\ (k + 1 < k')%nat) ->
   (k < b)%nat -> newF (n + i) (n + j) = 0 /\ newF (n + j) (n + i) = 0) /\
  (forall p j, (p < n)%nat -> (j < m - n)%nat -> (ord j = None \/ exists k', ord j = Some k' /\ (1 < k')%nat) -> (0 < b)%nat -> newF p (n + j) = 0 /\ newF (n + j) p = 0).
Proof.
  destruct res_tri as (o & s & A & B & _ & -> & T & C).
  assert (L : forall i k, od s i = Some k -> (i < nd s)%nat /\ (1 <= k < o)%nat).
  { intros i0 k0 E0. destruct (Nat.lt_ge_cases i0 (nd s)) as [L|L].
    - destruct (ok_found _ _ _ _ B i0 L) as (z & Ez & Hz). rewrite E0 in Ez. injection Ez as ->. split; [exact L|exact Hz].
    - rewrite (ok_rest _ _ _ _ B i0 L) in E0. discriminate. }
  assert (LN : forall j, od s j = None -> (nd s <= j)%nat).
  { intros j E. destruct (Nat.lt_ge_cases j (nd s)) as [L'|L']; [|exact L']. destruct (ok_found _ _ _ _ B j L') as (z & Ez & _). congruence. }
  assert (Q : forall p i, (n <= p)%nat -> (p - n = i)%nat -> lv n o s p = match od s i with Some k => k | None => o end).
  { intros p i Hp <-. unfold lv. rewrite (proj2 (Nat.ltb_ge p n) Hp). reflexivity. }
  assert (Q0 : forall p, (p < n)%nat -> lv n o s p = 0%nat) by (intros p Hp; unfold lv; rewrite (proj2 (Nat.ltb_lt p n) Hp); reflexivity).
  split.
  - intros i j k Hi Hj Ei Ej Hk. destruct (L i k Ei) as [Li Bk]. destruct Ej as [Ej|(k' & Ej & Hk')].
    + destruct C as [C|C].
      * apply T; [lia|lia|]. rewrite (Q (n + i)%nat i), (Q (n + j)%nat j), Ei, Ej by lia. lia.
      * specialize (LN j Ej). apply C; lia.
    + apply T; [lia|lia|]. rewrite (Q (n + i)%nat i), (Q (n + j)%nat j), Ei, Ej by lia. lia.
  - intros p j Hp Hj Ej Hb. destruct Ej as [Ej|(k' & Ej & Hk')].
    + destruct C as [C|C].
      * apply T; [lia|lia|]. rewrite (Q0 p Hp), (Q (n + j)%nat j), Ej by lia. lia.
      * specialize (LN j Ej). apply C; lia.
    + apply T; [lia|lia|]. rewrite (Q0 p Hp), (Q (n + j)%nat j), Ej by lia. lia.
Qed.
End Res.

(** ** Errors *)
Lemma loop_returns fuel : forall o m n a tol s, (0 < nl s)%nat -> (n + nd s < m)%nat -> exists s', loop fuel o m n a tol s = Ret s'.
Proof.
  induction fuel; intros o m n a tol s Hl Hd; cbn [M_Ewdmet.loop]; [exists s; reflexivity|].
  rewrite (proj2 (Nat.eqb_neq (nl s) 0)) by lia. rewrite (proj2 (Nat.eqb_neq (m - (n + nd s)) 0)) by lia. cbn [orb].
  destruct (svd _ _ _) as [x vh]. pose proof (count_le (Nat.min (nl s) (m - (n + nd s))) (fun i => leb tol (x i))) as Hc.
  set (c := count _ _) in *. destruct (Nat.eqb_spec c 0) as [E|E]; [exists s; reflexivity|].
  cbv zeta. cbn [update M_Ewdmet.nd]. destruct (Nat.eqb_spec (nd s + c) (m - n)) as [D|D]; [eexists; reflexivity|].
  rewrite (proj2 (Nat.ltb_lt (nd s + c) (m - n))) by lia. apply IHfuel; cbn [update M_Ewdmet.nd M_Ewdmet.nl]; lia.
Qed.

(** With fragment and environment orbitals no assertion fails, whatever the decompositions are; without fragment orbitals one does. *)
Theorem C73_returns m n a tol b : (0 < n < m)%nat -> exists R x ord, block_svd m n a tol b = Ret (R, x, ord).
Proof.
  intros H. unfold M_Ewdmet.block_svd. destruct (loop_returns b 1 m n a tol (start K n)) as (s & ->); cbn [start M_Ewdmet.nl M_Ewdmet.nd]; [lia|lia|].
  cbn [rbind]. repeat eexists.
Qed.
Theorem C73_no_fragment m a tol b : block_svd m 0 a tol (S b) = AssertErr.
Proof. reflexivity. Qed.

(** ** Singular values *)
Record svok (tol : K) (s : st) : Prop := {
  sv_none : forall k, od s k = None -> sv s k = 0;
  sv_some : forall k j, od s k = Some j -> le tol (sv s k);
  sv_desc : forall k k' j, (k <= k')%nat -> od s k = Some j -> od s k' = Some j -> le (sv s k') (sv s k) }.

Lemma update_sv m n o s tol b e y : ok m n o s -> svok tol s -> svd_ok (nl s) e b y ->
  svok tol (update K n s o e (count (Nat.min (nl s) e) (fun i => leb tol (fst y i))) (fst y) (snd y)).
Proof.
  intros H [A B C] Hy. pose proof (kept_iff _ _ _ _ tol Hy) as Kp. pose proof (count_le (Nat.min (nl s) e) (fun i => leb tol (fst y i))) as Hc.
  set (c := count _ _) in *.
  assert (Old : forall k j, od s k = Some j -> (k < nd s)%nat /\ (j < o)%nat).
  { intros k j E. destruct (Nat.lt_ge_cases k (nd s)) as [L|L]; [|rewrite (ok_rest _ _ _ _ H k L) in E; discriminate].
    destruct (ok_found _ _ _ _ H k L) as (z & Ez & Hz). split; [exact L|]. replace j with z by congruence. lia. }
  assert (New : forall k, ((nd s <=? k) && (k <? nd s + c))%nat = true <-> (nd s <= k < nd s + c)%nat)
    by (intros k; rewrite andb_true_iff, Nat.leb_le, Nat.ltb_lt; reflexivity).
  constructor; cbn [update M_Ewdmet.od M_Ewdmet.sv].
  - intros k. destruct (_ && _) eqn:E; [discriminate|]. apply A.
  - intros k j. destruct (_ && _) eqn:E; [|apply B]. intros _. apply New in E. apply Kp; lia.
  - intros k k' j Hk. destruct ((nd s <=? k) && _)%nat eqn:E; destruct ((nd s <=? k') && _)%nat eqn:E'.
    + intros _ _. apply New in E, E'. destruct Hy as (_ & _ & D & _). apply D; lia.
    + intros [= <-] E2. apply Old in E2. lia.
    + intros E1 [= <-]. apply Old in E1. lia.
    + apply C. exact Hk.
Qed.
Lemma loop_sv fuel : forall o m n a tol s s', ok m n o s -> svok tol s -> svds_ok fuel o m n a tol s -> loop fuel o m n a tol s = Ret s' -> svok tol s'.
Proof.
  induction fuel; intros o m n a tol s s' H V HS; cbn [M_Ewdmet.loop].
  - intros E. assert (E' : s = s') by exact (f_equal (fun z => match z with Ret y => y | _ => s end) E). subst s'. exact V.
  - unfold svds_ok in HS. cbn [met] in HS. destruct (_ || _) eqn:Z; [discriminate|]. apply orb_false_iff in Z. destruct Z as [Z1 Z2]. apply Nat.eqb_neq in Z1, Z2.
    set (e := (m - (n + nd s))%nat) in *. pose proof (HS (nl s) e (block K m n a s)) as Hy. destruct (svd (nl s) e (block K m n a s)) as [x vh].
    specialize (Hy (or_introl eq_refl)). pose proof (update_sv m n o s tol _ e _ H V Hy) as V'. cbn [fst snd] in V'.
    set (c := count _ _) in *. assert (Hc : (c <= Nat.min (nl s) e)%nat) by apply count_le.
    destruct (Nat.eqb_spec c 0) as [E0|E0].
    + intros E. assert (E' : s = s') by exact (f_equal (fun z => match z with Ret y => y | _ => s end) E). subst s'. exact V.
    + cbv zeta in HS |- *. destruct (_ =? _)%nat.
      * intros E. pose proof (f_equal (fun z => match z with Ret y => y | _ => s end) E) as E'. cbn beta iota in E'. subst s'. exact V'.
      * destruct (_ <? _)%nat; [|discriminate]. intros E. refine (IHfuel (S o) m n a tol _ s' _ V' _ E).
        -- exact (update_ok m n o s c (x, vh) (block K m n a s) H Hy ltac:(fold e; lia) ltac:(lia)).
        -- intros r c' b' HI. apply HS. right. exact HI.
Qed.

(** The singular value of a bath orbital is at least the threshold, values of one order descend, the other orbitals have zero. *)
Theorem C73_values m n a tol b R x ord : (n <= m)%nat -> svds_ok b 1 m n a tol (start K n) -> block_svd m n a tol b = Ret (R, x, ord) ->
  (forall i, (i < m - n)%nat -> ord i = None -> x i = 0) /\ (forall i k, (i < m - n)%nat -> ord i = Some k -> le tol (x i)) /\
  (forall i j k, (i <= j)%nat -> (j < m - n)%nat -> ord i = Some k -> ord j = Some k -> le (x j) (x i)).
Proof.
  intros Hn HS HB. destruct (svd_inv _ _ _ _ _ _ _ _ HB) as (s & E & -> & -> & ->).
  destruct (loop_sv b 1 m n a tol _ s (start_ok m n Hn)) as [A B C]; [|exact HS|exact E|].
  - constructor; cbn [start M_Ewdmet.od M_Ewdmet.sv]; intros; (reflexivity || discriminate).
  - split; [|split]; intros; eauto.
Qed.

(** ** The bath of a fragment *)
Section Bath.
Variables (nao nf ne : nat) (c_frag c_env fock : mt) (tol : K) (maxo : nat) (c_bath : mt) (x : vec) (ord : nat -> option nat).
(** Orbitals side by side. *)
Definition hcat (c d : mt) : mt := fun p j => if (j <? nf)%nat then c p j else d p (j - nf)%nat.
(** A matrix of atomic orbitals between orbitals. *)
Definition within (c : mt) : mt := mm nao (tr c) (mm nao fock c).
Let m := (nf + ne)%nat.
Let f := within (hcat c_frag c_env).
Hypotheses (HS : svds_ok maxo 1 m nf f tol (start K nf)) (Hne : (0 < ne)%nat) (HM : make_svd K svd nao nf ne c_frag c_env fock tol maxo = Ret (c_bath, x, ord)).

Lemma bath_inv : exists R, block_svd m nf f tol maxo = Ret (R, x, ord) /\ c_bath = mm ne c_env R.
Proof.
  revert HM. unfold make_svd. rewrite (proj2 (Nat.eqb_neq ne 0)) by lia. cbv zeta. fold m.
  change (mm nao (tr (fun p j => if (j <? nf)%nat then c_frag p j else c_env p (j - nf)%nat)) _) with f.
  destruct (block_svd m nf f tol maxo) as [[[R x'] o']| | |]; cbn [rbind]; try discriminate. intros E.
  pose proof (f_equal (fun z => match z with Ret y => y | _ => (c_bath, x, ord) end) E) as E'. cbn beta iota in E'.
  pose proof (f_equal (fun z => fst (fst z)) E') as E1. pose proof (f_equal (fun z => snd (fst z)) E') as E2. pose proof (f_equal snd E') as E3.
  cbn [fst snd] in *. exists R. split; [|symmetry; exact E1]. rewrite E2, E3. reflexivity.
Qed.

(** The bath orbitals are orthonormal if the environment orbitals are, and span the same space. *)
Theorem C73_orbitals (ovlp : mt) : meq ne ne (mm nao (tr c_env) (mm nao ovlp c_env)) idm ->
  meq ne ne (mm nao (tr c_bath) (mm nao ovlp c_bath)) idm /\ meq nao nao (mm ne c_bath (tr c_bath)) (mm ne c_env (tr c_env)).
Proof.
  intros HO. destruct bath_inv as (R & HB & ->). destruct (C73_orthogonal m nf f tol maxo R x ord ltac:(unfold m; lia) HS HB) as [O1 O2].
  replace (m - nf)%nat with ne in O1, O2 by (unfold m; lia). split.
  - rewrite (tr_mm ne nao ne), <- (mm_assoc nao ne nao ne ovlp c_env R), mm_assoc, <- (mm_assoc ne ne nao ne (tr c_env) (mm nao ovlp c_env) R), HO, mm_idl. exact O1.
  - rewrite (tr_mm ne nao ne), mm_assoc, <- (mm_assoc ne nao ne ne R (tr R)), O2, mm_idl. reflexivity.
Qed.

Lemma hcat_full R : meq nao m (hcat c_frag (mm ne c_env R)) (mm m (hcat c_frag c_env) (full nf R)).
Proof.
  intros p j Hp Hj. unfold mm at 2, m. rewrite Sum_split. unfold hcat, full, block_diag.
  destruct (Nat.ltb_spec j nf) as [L|L].
  - rewrite (Sum_0 ne). 2:{ intros i Hi. unfold blk. rewrite (proj2 (Nat.ltb_ge (nf + i) nf)), (proj2 (Nat.ltb_lt j nf)) by lia. ring. }
    rewrite (Sum_ext nf _ (fun i => c_frag p i * delta i j)).
    + rewrite (Sum_delta_r nf j (c_frag p) L). ring.
    + intros i Hi. unfold blk. rewrite (proj2 (Nat.ltb_lt i nf) Hi), (proj2 (Nat.ltb_lt j nf) L). reflexivity.
  - rewrite (Sum_0 nf). 2:{ intros i Hi. unfold blk. rewrite (proj2 (Nat.ltb_lt i nf) Hi), (proj2 (Nat.ltb_ge j nf) L). ring. }
    unfold mm. transitivity (Sum ne (fun k => c_env p k * R k (j - nf)%nat)); [reflexivity|].
    rewrite (Sum_ext ne (fun i => _ * blk _ _ _ _ _ _ _ _ _) (fun k => c_env p k * R k (j - nf)%nat)); [ring|].
    intros i Hi. unfold blk. rewrite (proj2 (Nat.ltb_ge (nf + i) nf)), (proj2 (Nat.ltb_ge j nf) L) by lia. replace (nf + i - nf)%nat with i by lia. reflexivity.
Qed.

Lemma cluster_newF R : meq m m (within (hcat c_frag (mm ne c_env R))) (newF m nf f R).
Proof.
  unfold within, newF. rewrite (hcat_full R). unfold f, within. rewrite (tr_mm m nao m), !mm_assoc. reflexivity.
Qed.

Hypotheses (Hsym : meq nao nao (tr fock) fock) (HP : svds_sharp maxo 1 m nf f tol (start K nf)).
Lemma f_sym : meq m m (tr f) f.
Proof. unfold f, within. rewrite (tr_mm m m nao), (tr_mm m nao nao), Hsym, mm_assoc. intros i j _ _. reflexivity. Qed.

(** Powers of the Fock matrix between fragment orbitals, in the fragment with the bath of order k, are those in all orbitals
    up to the power 2k+1. *)
Theorem C73_fock k j p q : (k <= maxo)%nat -> (j <= 2 * k + 1)%nat -> (p < nf)%nat -> (q < nf)%nat ->
  mpow (nf + nbath ne ord k) (within (hcat c_frag c_bath)) j p q = mpow (nf + ne) (within (hcat c_frag c_env)) j p q.
Proof.
  intros Hk Hj Hp Hq. destruct bath_inv as (R & HB & ->). pose proof (count_le ne (fun i => ole (ord i) k)) as Hc. change (count _ _) with (nbath ne ord k) in Hc.
  pose proof (C73_moments m nf f tol maxo R x ord ltac:(unfold m; lia) HS HB f_sym HP k j p q Hk Hj Hp Hq) as E.
  replace (m - nf)%nat with ne in E by (unfold m; lia). unfold m in E at 2. fold f. rewrite <- E.
  apply mpow_ext; try lia. intros i i' Hi Hi'. apply cluster_newF; unfold m; lia.
Qed.
(** If order k+1 adds nothing, all powers are. *)
Theorem C73_fock_closed k j p q : (k < maxo)%nat -> nbath ne ord (S k) = nbath ne ord k -> (p < nf)%nat -> (q < nf)%nat ->
  mpow (nf + nbath ne ord k) (within (hcat c_frag c_bath)) j p q = mpow (nf + ne) (within (hcat c_frag c_env)) j p q.
Proof.
  intros Hk He Hp Hq. destruct bath_inv as (R & HB & ->). pose proof (count_le ne (fun i => ole (ord i) k)) as Hc. change (count _ _) with (nbath ne ord k) in Hc.
  pose proof (C73_closed m nf f tol maxo R x ord ltac:(unfold m; lia) HS HB f_sym HP k j p q Hk) as E.
  replace (m - nf)%nat with ne in E by (unfold m; lia). specialize (E He Hp Hq). unfold m in E at 2. fold f. rewrite <- E.
  apply mpow_ext; try lia. intros i i' Hi Hi'. apply cluster_newF; unfold m; lia.
Qed.
End Bath.

(** An empty environment is returned as it is. *)
Theorem C73_no_environment nao nf c_frag c_env fock tol maxo : exists x ord, make_svd K svd nao nf 0 c_frag c_env fock tol maxo = Ret (c_env, x, ord) /\ forall k, nbath 0 ord k = 0%nat.
Proof. unfold make_svd. cbn [Nat.eqb]. repeat eexists. Qed.

(** Bath and frozen orbitals of an order are the environment's, and a higher order only adds to the bath. *)
Theorem C73_split ne c_bath ord k k' : (k <= k')%nat ->
  let '((b, cb), (r, cr)) := get_bath K ne c_bath ord k in (b + r = ne)%nat /\
  (forall p j, (j < ne)%nat -> c_bath p j = if (j <? b)%nat then cb p j else cr p (j - b)%nat) /\
  (b <= fst (fst (get_bath K ne c_bath ord k')))%nat.
Proof.
  intros Hk. unfold get_bath. cbn [fst]. unfold nbath. pose proof (count_le ne (fun i => ole (ord i) k)).
  split; [lia|]. split.
  - intros p j Hj. destruct (Nat.ltb_spec j (count ne (fun i => ole (ord i) k))) as [L|L]; [reflexivity|]. f_equal. lia.
  - clear H. induction ne; cbn [count]; [lia|]. destruct (ord ne) as [z|]; cbn [ole]; [|lia]. destruct (Nat.leb_spec z k), (Nat.leb_spec z k'); lia.
Qed.
End T.

From Coq Require Import ZArith QArith Qcanon.
Section Cases.
Local Close Scope Q_scope. Local Open Scope nat_scope.
Ltac qq := first [apply eqq_ok; vm_compute; reflexivity | apply neqq; vm_compute; reflexivity].
Ltac ck := first [apply meqb_ok | apply eigb_ok | apply rootsb_ok]; vm_compute; reflexivity.
Notation K := QO.
Notation vec := (nat -> QO).
Notation mt := (nat -> nat -> QO).
(** One fragment and three environment orbitals: the bath has one orbital of order one, one of order two, one is decoupled. *)
Definition ev3 : mt := fun i j => match i, j with 0, 0 => q 3 5 | 0, 1 => q 4 5 | 1, 0 => q (-4) 5 | 1, 1 => q 3 5 | 2, 2 => q 1 1 | _, _ => q 0 1 end.
Definition ea' : mt := fun i j => match i, j with 0, 0 => q 2 1 | 0, 1 => q 3 1 | 1, 0 => q 3 1 | 0, 2 => q 4 1 | 2, 0 => q 4 1 | 1, 1 => q 1 1 | 2, 2 => q 1 1 | _, _ => q 0 1 end.
Definition eenv : mt := mm 3 (tr ev3) (mm 3 ea' ev3).
Definition ea : mt := fun i j => match i, j with 0, 0 => q 1 1 | 0, 1 => q 3 1 | 1, 0 => q 3 1 | 0, 2 => q 4 1 | 2, 0 => q 4 1 | S i, S j => eenv i j | _, _ => q 0 1 end.
Definition ev2 : mt := fun i j => match i, j with 0, 0 => q 3 5 | 0, 1 => q 4 5 | 1, 0 => q (-4) 5 | 1, 1 => q 3 5 | _, _ => q 0 1 end.
Definition esvd : nat -> nat -> mt -> vec * mt := fun r c b => match c with
  | 3 => ((fun _ => q 5 1), ev3) | 2 => ((fun _ => q 5 1), ev2) | _ => ((fun _ => b 0 0), idm) end.
Definition etol : K := q 1 1000.
Definition edf : mt * vec * (nat -> option nat) := (zm, fun _ => r0, fun _ => None).
Definition eget (z : result (mt * vec * (nat -> option nat))) := match z with Ret y => y | _ => edf end.
Lemma eret (z : result (mt * vec * (nat -> option nat))) : (match z with Ret _ => true | _ => false end) = true -> z = Ret (fst (fst (eget z)), snd (fst (eget z)), snd (eget z)).
Proof. destruct z as [[[a b] c]| | |]; try discriminate. reflexivity. Qed.
Definition eres := eget (block_svd K esvd 4 1 ea etol 3).
Lemma eres_ok : block_svd K esvd 4 1 ea etol 3 = Ret (fst (fst eres), snd (fst eres), snd eres).
Proof. apply eret. vm_compute. reflexivity. Qed.

(** Check of a decomposition of one row. *)
Definition svdb (y : nat * nat * mt) : bool := let '(r, c, b) := y in let z := esvd r c b in
  (r =? 1) && meqb c c (mm c (snd z) (tr (snd z))) idm && meqb c c (mm c (tr (snd z)) (snd z)) idm && Ord.leb r0 (fst z 0) &&
  meqb 1 c b (fun i j => Sum (Nat.min 1 c) (fun k => rmul (delta i k) (rmul (fst z k) (snd z k j)))) && (Ord.leb etol (fst z 0) || eqq (fst z 0) r0).
Lemma svdb_ok r c b : svdb (r, c, b) = true -> svd_ok K r c b (esvd r c b) /\ sharp K etol r c (esvd r c b).
Proof.
  unfold svdb. rewrite !andb_true_iff. intros [[[[[H1 H2] H3] H4] H5] H6]. apply Nat.eqb_eq in H1. subst r.
  assert (Z : forall i, (i < Nat.min 1 c)%nat -> i = 0) by (intros; lia). split.
  - split; [apply meqb_ok; exact H2|]. split; [apply meqb_ok; exact H3|]. split; [|split].
    + intros i j Hi Hj. rewrite (Z i), (Z j) by lia. apply Ord.le_refl.
    + intros i Hi. rewrite (Z i Hi). exact H4.
    + exists idm. split; [ck|]. intros i j Hi Hj. exact (meqb_ok _ _ _ _ H5 i j Hi Hj).
  - intros i Hi Hl. rewrite (Z i Hi) in *. apply orb_prop in H6. destruct H6 as [H6|H6]; [|apply eqq_ok; exact H6].
    unfold Ord.leb in H6. unfold Ord.lt in Hl. rewrite Hl in H6. discriminate.
Qed.
Lemma emet : forallb svdb (met K esvd 3 1 4 1 ea etol (start K 1)) = true. Proof. vm_compute. reflexivity. Qed.
Lemma eok : svds_ok K esvd 3 1 4 1 ea etol (start K 1).
Proof. intros r c b HI. exact (proj1 (svdb_ok r c b (proj1 (forallb_forall _ _) emet _ HI))). Qed.
Lemma esharp : svds_sharp K esvd 3 1 4 1 ea etol (start K 1).
Proof. intros r c b HI. exact (proj2 (svdb_ok r c b (proj1 (forallb_forall _ _) emet _ HI))). Qed.
Lemma esym : meq 4 4 (tr ea) ea. Proof. ck. Qed.

Example C73_orthogonal_case : snd eres 0 = Some 1 /\ snd eres 1 = Some 2 /\ snd eres 2 = None /\ meq 3 3 (mm 3 (tr (fst (fst eres))) (fst (fst eres))) idm.
Proof. split; [vm_compute; reflexivity|]. split; [vm_compute; reflexivity|]. split; [vm_compute; reflexivity|].
  exact (proj1 (C73_orthogonal K esvd 4 1 ea etol 3 _ _ _ ltac:(lia) eok eres_ok)). Qed.
Example C73_orders_case : nbath 3 (snd eres) 2 = 2 /\ nbath 3 (snd eres) 2 <= 2 * 1.
Proof. split; [vm_compute; reflexivity|]. exact (proj2 (proj2 (proj2 (C73_orders K esvd 4 1 ea etol 3 _ _ _ ltac:(lia) eok eres_ok))) 2). Qed.
Example C73_values_case : Ord.le etol (snd (fst eres) 1) /\ snd (fst eres) 2 = r0.
Proof.
  destruct (C73_values K esvd 4 1 ea etol 3 _ _ _ ltac:(lia) eok eres_ok) as (A & B & _). split.
  - apply (B 1 2); [lia|vm_compute; reflexivity].
  - apply (A 2); [lia|vm_compute; reflexivity].
Qed.
Notation eF := (newF K 4 1 ea (fst (fst eres))).
(** With order one the power three is exact, but not the power four: the bound 2k+1 cannot be raised. *)
Example C73_moments_case : mpow K (1 + nbath 3 (snd eres) 1) eF 3 0 0 = mpow K 4 ea 3 0 0 /\ mpow K 4 ea 3 0 0 <> r0 /\
  mpow K (1 + nbath 3 (snd eres) 1) eF 4 0 0 <> mpow K 4 ea 4 0 0.
Proof.
  split; [|split; qq]. apply (C73_moments K esvd 4 1 ea etol 3 _ _ _ ltac:(lia) eok eres_ok esym esharp 1 3); lia.
Qed.
Example C73_closed_case : nbath 3 (snd eres) 2 = 2 /\ mpow K (1 + 2) eF 7 0 0 = mpow K 4 ea 7 0 0.
Proof.
  assert (E : nbath 3 (snd eres) 2 = 2) by (vm_compute; reflexivity). split; [exact E|].
  pose proof (C73_closed K esvd 4 1 ea etol 3 _ _ _ ltac:(lia) eok eres_ok esym esharp 2 7 0 0 ltac:(lia)) as H.
  change (4 - 1) with 3 in H. rewrite E in H. apply H; [vm_compute; reflexivity|lia|lia].
Qed.
Example C73_chain_case : eF 1 3 = r0 /\ eF 1 2 <> r0 /\ eF 0 2 = r0.
Proof.
  destruct (C73_chain K esvd 4 1 ea etol 3 _ _ _ ltac:(lia) eok eres_ok esym esharp) as [A B]. split; [|split; [qq|]].
  - apply (A 0 2 1); try lia; [vm_compute; reflexivity|left; vm_compute; reflexivity].
  - apply (B 0 1); try lia. right. exists 2. split; [vm_compute; reflexivity|lia].
Qed.
Example C73_returns_case : exists R x ord, block_svd K esvd 4 1 ea etol 3 = Ret (R, x, ord).
Proof. apply C73_returns. lia. Qed.
Example C73_no_fragment_case : block_svd K esvd 3 0 eenv etol 20 = AssertErr. Proof. apply C73_no_fragment. Qed.

(** The same with orbitals: fragment and environment are the columns of a rotation, and the Fock matrix is [ea] turned back. *)
Definition erot : mt := fun i j => match i, j with 0, 0 => q 5 13 | 0, 1 => q 12 13 | 1, 0 => q (-12) 13 | 1, 1 => q 5 13 | 2, 2 => q 1 1 | 3, 3 => q 1 1 | _, _ => q 0 1 end.
Definition efock : mt := mm 4 erot (mm 4 ea (tr erot)).
Definition ecf : mt := erot.
Definition ece : mt := fun p j => erot p (S j).
Notation ew := (within K 4 efock).
Definition ebath := eget (make_svd K esvd 4 1 3 ecf ece efock etol 3).
Lemma ebath_ok : make_svd K esvd 4 1 3 ecf ece efock etol 3 = Ret (fst (fst ebath), snd (fst ebath), snd ebath).
Proof. apply eret. vm_compute. reflexivity. Qed.
Lemma emet' : forallb svdb (met K esvd 3 1 4 1 (ew (hcat K 1 ecf ece)) etol (start K 1)) = true. Proof. vm_compute. reflexivity. Qed.
Lemma eok' : svds_ok K esvd 3 1 4 1 (ew (hcat K 1 ecf ece)) etol (start K 1).
Proof. intros r c b HI. exact (proj1 (svdb_ok r c b (proj1 (forallb_forall _ _) emet' _ HI))). Qed.
Lemma esharp' : svds_sharp K esvd 3 1 4 1 (ew (hcat K 1 ecf ece)) etol (start K 1).
Proof. intros r c b HI. exact (proj2 (svdb_ok r c b (proj1 (forallb_forall _ _) emet' _ HI))). Qed.
Lemma esym' : meq 4 4 (tr efock) efock. Proof. ck. Qed.
Example C73_orbitals_case : meq 3 3 (mm 4 (tr (fst (fst ebath))) (mm 4 idm (fst (fst ebath)))) idm /\ fst (fst ebath) 1 0 <> ece 1 0.
Proof.
  split; [|qq]. exact (proj1 (C73_orbitals K esvd 4 1 3 ecf ece efock etol 3 _ _ _ eok' ltac:(lia) ebath_ok idm ltac:(ck))).
Qed.
Example C73_fock_case : mpow K (1 + nbath 3 (snd ebath) 1) (ew (hcat K 1 ecf (fst (fst ebath)))) 3 0 0 = mpow K (1 + 3) (ew (hcat K 1 ecf ece)) 3 0 0.
Proof. exact (C73_fock K esvd 4 1 3 ecf ece efock etol 3 _ _ _ eok' ltac:(lia) ebath_ok esym' esharp' 1 3 0 0 ltac:(lia) ltac:(lia) ltac:(lia) ltac:(lia)). Qed.
Example C73_fock_closed_case : mpow K (1 + nbath 3 (snd ebath) 2) (ew (hcat K 1 ecf (fst (fst ebath)))) 9 0 0 = mpow K (1 + 3) (ew (hcat K 1 ecf ece)) 9 0 0.
Proof. apply (C73_fock_closed K esvd 4 1 3 ecf ece efock etol 3 _ _ _ eok' ltac:(lia) ebath_ok esym' esharp'); [lia|vm_compute; reflexivity|lia|lia]. Qed.
Example C73_no_environment_case : exists x ord, make_svd K esvd 4 1 0 ecf ece efock etol 3 = Ret (ece, x, ord) /\ forall k, nbath 0 ord k = 0.
Proof. apply C73_no_environment. Qed.
Example C73_split_case : let '((b, _), (r, _)) := get_bath K 3 (fst (fst ebath)) (snd ebath) 1 in b = 1 /\ r = 2.
Proof. vm_compute. split; reflexivity. Qed.
End Cases.

Print Assumptions C73_orthogonal.
Print Assumptions C73_orders.
Print Assumptions C73_values.
Print Assumptions C73_chain.
Print Assumptions C73_moments.
Print Assumptions C73_closed.
Print Assumptions C73_orbitals.
Print Assumptions C73_fock.
Print Assumptions C73_fock_closed.
Print Assumptions C73_returns.
Print Assumptions C73_no_fragment.
Print Assumptions C73_no_environment.
Print Assumptions C73_split.
