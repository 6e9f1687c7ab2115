(** C70: RPA with low-rank integrals and numerical integration.  Theorems about M_RiRpa. *)
From Coq Require Import List Arith Lia Bool Ring Setoid Morphisms.
From Verif Require Import Alg Ord Mat M_ExtCorr M_SsRpa P_SsRpa M_RiRpa P_TtoC.
Import ListNotations.

Arguments lL {K}. Arguments lR {K}. Arguments ln {K}.

Section G.
Context (K : oring).
Add Ring Kr : (rth K).
Open Scope K_scope.
Notation vec := (nat -> K).
Notation mt := (nat -> nat -> K).

(** [b] is the inverse of [a]. *)
Definition is_inv (n : nat) (a b : mt) : Prop := meq n n (mm n a b) idm /\ meq n n (mm n b a) idm.

(** The matrix of dimension n a low-rank form stands for. *)
Definition full (d : vec) (r : lr K) : mt := madd (dg d) (mm (ln r) (tr (lL r)) (lR r)).

Lemma inv_unique n (a b c : mt) : meq n n (mm n a b) idm -> meq n n (mm n c a) idm -> meq n n b c.
Proof. intros H G. rewrite <- (mm_idl n n b), <- G, mm_assoc, H, mm_idr. reflexivity. Qed.

Lemma colsc_dg r n (a : mt) d : meq r n (colsc K a d) (mm n a (dg d)).
Proof. symmetry. apply mm_dgr. Qed.

Lemma mm_rcat r c n1 n2 (a b e f : mt) :
  meq r c (mm (n1 + n2) (tr (rcat K n1 a b)) (rcat K n1 e f)) (madd (mm n1 (tr a) e) (mm n2 (tr b) f)).
Proof.
  intros i j _ _. unfold mm, madd, tr. rewrite Sum_split. f_equal; apply Sum_ext; intros l Hl; unfold rcat.
  - rewrite (proj2 (Nat.ltb_lt _ _) Hl). reflexivity.
  - rewrite (proj2 (Nat.ltb_ge (n1 + l) n1)) by lia. replace (n1 + l - n1)%nat with l by lia. reflexivity.
Qed.

Lemma mm_0k r c (a b : mt) : meq r c (mm 0 a b) zm.
Proof. intros i j _ _. reflexivity. Qed.

(** Woodbury's formula. *)
Lemma woodbury n k (D Di A B W : mt) :
  is_inv n D Di -> is_inv k (madd idm (mm n (mm n B Di) A)) W ->
  is_inv n (madd D (mm k A B)) (msub Di (mm n Di (mm k A (mm k W (mm n B Di))))).
Proof.
  intros [H1 H2] [G1 G2].
  assert (E1 : meq k k (mm n B (mm n Di (mm k A W))) (msub idm W)).
  { rewrite mm_addl, mm_idl in G1. intros i j Hi Hj. specialize (G1 i j Hi Hj). unfold madd in G1. unfold msub. rewrite <- G1.
    assert (Q : meq k k (mm k (mm n (mm n B Di) A) W) (mm n B (mm n Di (mm k A W)))) by (rewrite !mm_assoc; reflexivity).
    rewrite (Q i j Hi Hj). ring. }
  assert (E2 : meq k k (mm k W (mm n B (mm n Di A))) (msub idm W)).
  { rewrite mm_addr, mm_idr in G2. intros i j Hi Hj. specialize (G2 i j Hi Hj). unfold madd in G2. unfold msub. rewrite <- G2.
    assert (Q : meq k k (mm k W (mm n (mm n B Di) A)) (mm k W (mm n B (mm n Di A)))) by (rewrite !mm_assoc; reflexivity).
    rewrite (Q i j Hi Hj). ring. }
  split.
  - rewrite mm_addl, !mm_subr, H1, (P_SsRpa.cancel K _ _ _ _ H1).
    assert (Q : meq n n (mm n (mm k A B) (mm n Di (mm k A (mm k W (mm n B Di)))))
                        (msub (mm k A (mm n B Di)) (mm k A (mm k W (mm n B Di))))).
    { transitivity (mm k A (mm k (mm n B (mm n Di (mm k A W))) (mm n B Di))).
      { rewrite !mm_assoc. reflexivity. }
      rewrite E1, mm_subl, mm_idl, mm_subr. reflexivity. }
    rewrite Q, mm_assoc. intros i j _ _. unfold madd, msub. ring.
  - rewrite mm_addr, !mm_subl, H2.
    assert (Q1 : meq n n (mm n (mm n Di (mm k A (mm k W (mm n B Di)))) D) (mm n Di (mm k A (mm k W B)))).
    { rewrite !mm_assoc, H2, mm_idr. reflexivity. }
    assert (Q2 : meq n n (mm n (mm n Di (mm k A (mm k W (mm n B Di)))) (mm k A B))
                        (msub (mm n Di (mm k A B)) (mm n Di (mm k A (mm k W B))))).
    { transitivity (mm n Di (mm k A (mm k (mm k W (mm n B (mm n Di A))) B))).
      { rewrite !mm_assoc. reflexivity. }
      rewrite E2, mm_subl, mm_idl, mm_subr, mm_subr. reflexivity. }
    rewrite Q1, Q2. intros i j _ _. unfold madd, msub. ring.
Qed.

Lemma dg_inv n (d di : vec) : (forall p, (p < n)%nat -> d p * di p = 1) -> is_inv n (dg d) (dg di).
Proof.
  intros H. split; rewrite mm_dd; apply dg_id; intros i Hi; rewrite <- (H i Hi); ring.
Qed.

(** Right multiplication by an invertible matrix can be undone. *)
Lemma right_cancel r n (a b p pi : mt) : meq n n (mm n p pi) idm -> meq r n (mm n a p) (mm n b p) -> meq r n a b.
Proof.
  intros H E. rewrite <- (mm_idr r n a), <- (mm_idr r n b), <- H, <- !mm_assoc, E. reflexivity.
Qed.
End G.

Section T.
Context (K : oring).
Add Ring Kr2 : (rth K).
Variables (inv sq ex : K -> K) (s2 hlf ipi : K).
Variables (minv : nat -> (nat -> nat -> K) -> (nat -> nat -> K)).
Variables (svd : nat -> (nat -> nat -> K) -> (nat -> nat -> K) * (nat -> K) * (nat -> nat -> K)).
Variables (eig eigh : nat -> (nat -> nat -> K) -> (nat -> K) * (nat -> nat -> K)).
Open Scope K_scope.
Notation vec := (nat -> K).
Notation mt := (nat -> nat -> K).
Notation t3 := (nat -> nat -> nat -> K).
Notation full := (full K).
Notation is_inv := (is_inv K).

(** ** Products and inverses of low-rank forms *)
Lemma prod_lemma n k1 k2 (d : vec) (A1 A2 R1 R2 : mt) : hlf + hlf = 1 ->
  meq n n (madd (dg (fun p => d p * d p)) (madd (mm k1 A1 (madd (mm n R1 (dg d)) (msc hlf (mm k2 (mm n R1 A2) R2))))
     (mm k2 (madd (mm n (dg d) A2) (msc hlf (mm k1 A1 (mm n R1 A2)))) R2)))
    (mm n (madd (dg d) (mm k1 A1 R1)) (madd (dg d) (mm k2 A2 R2))).
Proof.
  intros Hh.
  assert (E1 : meq n n (mm k1 A1 (madd (mm n R1 (dg d)) (msc hlf (mm k2 (mm n R1 A2) R2))))
    (madd (mm k1 A1 (mm n R1 (dg d))) (msc hlf (mm k1 A1 (mm n R1 (mm k2 A2 R2)))))).
  { rewrite mm_addr, mm_scr, mm_assoc. reflexivity. }
  assert (E2 : meq n n (mm k2 (madd (mm n (dg d) A2) (msc hlf (mm k1 A1 (mm n R1 A2)))) R2)
    (madd (mm n (dg d) (mm k2 A2 R2)) (msc hlf (mm k1 A1 (mm n R1 (mm k2 A2 R2)))))).
  { rewrite mm_addl, mm_scl, !mm_assoc. reflexivity. }
  assert (E3 : meq n n (mm n (madd (dg d) (mm k1 A1 R1)) (madd (dg d) (mm k2 A2 R2)))
    (madd (madd (dg (fun p => d p * d p)) (mm n (dg d) (mm k2 A2 R2)))
          (madd (mm k1 A1 (mm n R1 (dg d))) (mm k1 A1 (mm n R1 (mm k2 A2 R2)))))).
  { rewrite mm_addl, !mm_addr, mm_dd, !mm_assoc. reflexivity. }
  rewrite E1, E2, E3. intros i j _ _. unfold madd, msc.
  set (x := mm k1 A1 (mm n R1 (mm k2 A2 R2)) i j).
  transitivity (dg (fun p : nat => d p * d p) i j + mm k1 A1 (mm n R1 (dg d)) i j
    + mm n (dg d) (mm k2 A2 R2) i j + (hlf + hlf) * x).
  - ring.
  - rewrite Hh. ring.
Qed.

Theorem C70_product n (d : vec) (r1 r2 : lr K) : hlf + hlf = 1 ->
  meq n n (full (fun p => d p * d p) (product_RI K hlf n d r1 r2)) (mm n (full d r1) (full d r2)).
Proof.
  intros Hh. unfold P_RiRpa.full, product_RI. cbn [ln lL lR]. cbv zeta.
  rewrite mm_rcat.
  destruct r1 as [k1 L1 R1], r2 as [k2 L2 R2]. cbn [ln lL lR].
  assert (E1 : meq n k2 (tr (madd (colsc K L2 d) (msc hlf (mm k1 (tr (mm n R1 (tr L2))) L1))))
     (madd (mm n (dg d) (tr L2)) (msc hlf (mm k1 (tr L1) (mm n R1 (tr L2)))))).
  { rewrite mm_dgl. intros i j _ _. unfold tr, madd, msc, colsc, mm. f_equal; [ring|]. f_equal. apply Sum_ext. intros; ring. }
  rewrite E1, colsc_dg. clear E1.
  generalize (tr L1); intros A1. generalize (tr L2); intros A2.
  apply prod_lemma. exact Hh.
Qed.

(** What a singular value decomposition has to return. *)
Definition svd_ok (k : nat) (m : mt) : Prop :=
  let '(u, s, v) := svd k m in
  meq k k (mm k u (mm k (dg s) v)) m /\ (forall i, (i < k)%nat -> sq (s i) * sq (s i) = s i).

Lemma inverse_form n (d : vec) (r : lr K) :
  let U := mm n (colsc K (lR r) (fun p => inv (d p))) (tr (lL r)) in
  let Wi := minv (ln r) (madd idm U) in
  let di := fun p => inv (d p) in
  let ri := inverse_RI K inv sq minv svd n d r in
  svd_ok (ln r) Wi ->
  meq n n (mm (ln ri) (tr (lL ri)) (lR ri)) (mm n (dg di) (mm (ln r) (tr (lL r)) (mm (ln r) Wi (mm n (lR r) (dg di))))).
Proof.
  cbv zeta. intros Hs. unfold inverse_RI, svd_ok in *.
  set (Wi := minv (ln r) (madd idm (mm n (colsc K (lR r) (fun p => inv (d p))) (tr (lL r))))) in *.
  destruct (svd (ln r) Wi) as [[u s] v]. destruct Hs as [H1 H2]. cbn [ln lL lR].
  set (di := fun p => inv (d p)).
  assert (A : meq n (ln r) (tr (fun m p => Sum (ln r) (fun i => inv (d p) * lL r i p * (u i m * sq (s m)))))
    (mm n (dg di) (mm (ln r) (tr (lL r)) (mm (ln r) u (dg (fun i => sq (s i))))))).
  { rewrite mm_dgl. intros p m Hp Hm. unfold tr at 1. unfold mm at 1. rewrite <- Sum_mul_l. apply Sum_ext. intros i Hi.
    rewrite (mm_dgr (ln r) (ln r) _ u i m Hi Hm). unfold tr, di. ring. }
  assert (B : meq (ln r) n (fun m p => Sum (ln r) (fun i => inv (d p) * lR r i p * (sq (s m) * v m i)))
    (mm (ln r) (mm (ln r) (dg (fun i => sq (s i))) v) (mm n (lR r) (dg di)))).
  { intros m p Hm Hp. unfold mm at 1. apply Sum_ext. intros i Hi.
    rewrite (mm_dgl (ln r) (ln r) _ v m i Hm Hi), (mm_dgr (ln r) n _ (lR r) i p Hi Hp). unfold di. ring. }
  assert (E : meq (ln r) (ln r) (mm (ln r) (dg (fun i => sq (s i))) (dg (fun i => sq (s i)))) (dg s)).
  { rewrite mm_dd. apply dg_ext. exact H2. }
  rewrite A, B.
  transitivity (mm n (dg di) (mm (ln r) (tr (lL r))
     (mm (ln r) (mm (ln r) u (mm (ln r) (mm (ln r) (dg (fun i => sq (s i))) (dg (fun i => sq (s i)))) v)) (mm n (lR r) (dg di))))).
  { rewrite !mm_assoc. reflexivity. }
  rewrite E, H1. reflexivity.
Qed.

Theorem C70_inverse n (d : vec) (r : lr K) :
  let U := mm n (colsc K (lR r) (fun p => inv (d p))) (tr (lL r)) in
  let Wi := minv (ln r) (madd idm U) in
  let ri := inverse_RI K inv sq minv svd n d r in
  (forall p, (p < n)%nat -> d p * inv (d p) = 1) -> is_inv (ln r) (madd idm U) Wi -> svd_ok (ln r) Wi ->
  is_inv n (full d r) (msub (dg (fun p => inv (d p))) (mm (ln ri) (tr (lL ri)) (lR ri))).
Proof.
  cbv zeta. intros Hd HW Hs.
  pose proof (inverse_form n d r Hs) as E. cbv zeta in E.
  set (Wi := minv _ _) in *. set (di := fun p => inv (d p)) in *.
  assert (HW' : P_RiRpa.is_inv K (ln r) (madd idm (mm n (mm n (lR r) (dg di)) (tr (lL r)))) Wi).
  { destruct HW as [G1 G2]. split.
    - rewrite <- colsc_dg. exact G1.
    - rewrite <- colsc_dg. exact G2. }
  destruct (woodbury K n (ln r) (dg d) (dg di) (tr (lL r)) (lR r) Wi (dg_inv K n d di Hd) HW') as [W1 W2].
  split; unfold P_RiRpa.full; rewrite E; assumption.
Qed.

(** Scalar integrand of a square root, and its sum over a grid (an approximation of the root of [x]). *)
Definition root_at (x z : K) : K := (1 - z * z * inv (x + z * z)) * ipi.
Definition root_quad (g : list (K * K)) (x : K) : K := Lsum g (fun pw => snd pw * root_at x (fst pw)).
(** Sums over the grids of the integrands of 1/(x+y): rational and exponential. *)
Definition rat_quad (g : list (K * K)) (x y : K) : K :=
  Lsum g (fun pw => snd pw * (fst pw * fst pw * inv (x * x + fst pw * fst pw) * inv (y * y + fst pw * fst pw) * ipi)).
Definition exp_quad (g : list (K * K)) (x y : K) : K :=
  Lsum g (fun pw => snd pw * (ex (- (fst pw * x)) * ex (- (fst pw * y)))).

(** The inverses taken at a point of the grid exist. *)
Definition pt_ok (n : nat) (D : vec) (S : lr K) (z : K) : Prop :=
  (forall p, (p < n)%nat -> (D p * D p + z * z) * inv (D p * D p + z * z) = 1) /\
  is_inv (ln S) (madd idm (get_Q K inv n D S z)) (minv (ln S) (madd idm (get_Q K inv n D S z))).

(** ** Integrands: with G the inverse of z^2 + (A-B)(A+B) *)
Section Pt.
Variables (n : nat) (D : vec) (S : lr K) (z : K) (G : mt).
Let F := get_F K inv D z.
Let Wi := minv (ln S) (madd idm (get_Q K inv n D S z)).
Hypothesis H : pt_ok n D S z.
Hypothesis HG : meq n n (mm n (madd (dg (fun _ => z * z)) (full (fun p => D p * D p) S)) G) idm.

Lemma pt_inv : meq n n G (msub (dg F) (mm n (dg F) (mm (ln S) (tr (lL S)) (mm (ln S) Wi (mm n (lR S) (dg F)))))).
Proof.
  destruct H as [H1 H2].
  assert (E : meq (ln S) (ln S) (get_Q K inv n D S z) (mm n (mm n (lR S) (dg F)) (tr (lL S)))).
  { unfold get_Q. rewrite colsc_dg, tr_mm, tr_dg, mm_assoc. reflexivity. }
  assert (HW' : P_RiRpa.is_inv K (ln S) (madd idm (mm n (mm n (lR S) (dg F)) (tr (lL S)))) Wi).
  { destruct H2 as [G1 G2]. split; rewrite <- E; assumption. }
  destruct (woodbury K n (ln S) (dg (fun p => D p * D p + z * z)) (dg F) (tr (lL S)) (lR S) Wi
     (dg_inv K n _ F H1) HW') as [W1 W2].
  apply (inv_unique K n (madd (dg (fun _ => z * z)) (full (fun p => D p * D p) S))); [exact HG|].
  assert (E2 : meq n n (madd (dg (fun _ => z * z)) (full (fun p => D p * D p) S))
     (madd (dg (fun p => D p * D p + z * z)) (mm (ln S) (tr (lL S)) (lR S)))).
  { intros i j _ _. unfold P_RiRpa.full, madd, dg. ring. }
  rewrite E2. exact W2.
Qed.

Lemma pt_res r (rot va : mt) : meq r n (mm (ln S) (mm (ln S) (mm n (colsc K rot F) (tr (lL S))) va) (colsc K (lR S) F))
   (mm n rot (mm n (dg F) (mm (ln S) (tr (lL S)) (mm (ln S) va (mm n (lR S) (dg F)))))).
Proof. rewrite !colsc_dg, !mm_assoc. reflexivity. Qed.

Lemma pt_none r rot : meq r n (contrib_none K inv ipi minv n D S rot z) (msc ipi (msub rot (msc (z * z) (mm n rot G)))).
Proof.
  unfold contrib_none. cbv zeta. fold F. fold Wi.
  pose proof (pt_res r rot Wi) as E. rewrite pt_inv, mm_subr, mm_dgr.
  intros i j Hi Hj. rewrite (E i j Hi Hj). unfold msc, msub, colsc. ring.
Qed.

Lemma pt_D r rot : meq r n (contrib_D K inv ipi minv n D S rot z)
  (msc ipi (msc (z * z) (mm n rot (msub (dg F) G)))).
Proof.
  unfold contrib_D. cbv zeta. fold F. fold Wi.
  pose proof (pt_res r rot Wi) as E.
  assert (Q : meq r n (mm n rot (msub (dg F) G)) (mm n rot (mm n (dg F) (mm (ln S) (tr (lL S)) (mm (ln S) Wi (mm n (lR S) (dg F))))))).
  { apply mm_proper; [reflexivity|]. rewrite pt_inv. intros i j _ _. unfold msub. ring. }
  intros i j Hi Hj. rewrite (E i j Hi Hj). unfold msc. rewrite (Q i j Hi Hj). ring.
Qed.

Lemma pt_HO r rot : meq r n (contrib_HO K inv ipi minv n (get_Q K inv n D S z) D S rot z)
  (msub (contrib_D K inv ipi minv n D S rot z)
     (msc ipi (msc (z * z) (mm n rot (mm n (dg F) (mm (ln S) (tr (lL S)) (mm n (lR S) (dg F)))))))).
Proof.
  unfold contrib_HO, contrib_D. cbv zeta. fold F. fold Wi.
  pose proof (pt_res r rot Wi) as E. pose proof (pt_res r rot (msub Wi idm)) as E2.
  assert (Q : meq r n (mm n rot (mm n (dg F) (mm (ln S) (tr (lL S)) (mm (ln S) (msub Wi idm) (mm n (lR S) (dg F))))))
    (msub (mm n rot (mm n (dg F) (mm (ln S) (tr (lL S)) (mm (ln S) Wi (mm n (lR S) (dg F))))))
          (mm n rot (mm n (dg F) (mm (ln S) (tr (lL S)) (mm n (lR S) (dg F))))))).
  { rewrite mm_subl, mm_idl, !mm_subr. reflexivity. }
  intros i j Hi Hj. rewrite (E2 i j Hi Hj), (Q i j Hi Hj). unfold msub, msc. rewrite (E i j Hi Hj). ring.
Qed.
End Pt.

(** ** Functions of (A-B)(A+B), in terms of the solutions of the RPA problem with A-B = M and A+B = P *)
Definition Rt (n : nat) (xpy xmy : mt) (h : vec) : mt := mm n xpy (mm n (dg h) (tr xmy)).

Lemma Rt_at n xpy xmy h r (rot : mt) i j : (i < r)%nat -> (j < n)%nat ->
  mm n rot (Rt n xpy xmy h) i j = Sum n (fun k => mm n rot xpy i k * xmy j k * h k).
Proof.
  intros Hi Hj. unfold Rt.
  assert (E : meq r n (mm n rot (mm n xpy (mm n (dg h) (tr xmy)))) (mm n (mm n rot xpy) (mm n (dg h) (tr xmy))))
    by (rewrite mm_assoc; reflexivity).
  rewrite (E i j Hi Hj). unfold mm at 1. apply Sum_ext. intros k Hk.
  rewrite (mm_dgl n n h (tr xmy) k j Hk Hj). unfold tr. ring.
Qed.

Section Spec.
Variables (n : nat) (M P : mt) (f : vec) (xpy xmy : mt).
Hypothesis Hsol : rpa_sol n M P f xpy xmy.

Lemma Rt_one : meq n n (Rt n xpy xmy (fun _ => 1)) idm.
Proof. unfold Rt. destruct Hsol as (_ & _ & _ & H4). rewrite (dg_id n (fun _ => 1)) by reflexivity. rewrite mm_idl. exact H4. Qed.

Lemma Rt_mul h k : meq n n (mm n (Rt n xpy xmy h) (Rt n xpy xmy k)) (Rt n xpy xmy (fun i => h i * k i)).
Proof.
  unfold Rt. pose proof (norm'' K n M P f xpy xmy Hsol) as N. rewrite !mm_assoc.
  rewrite <- (mm_assoc n n n n (tr xmy) xpy), N, mm_idl.
  rewrite <- (mm_assoc n n n n (dg h) (dg k)), mm_dd. reflexivity.
Qed.

Lemma Rt_MP : meq n n (mm n M P) (Rt n xpy xmy (fun i => f i * f i)).
Proof.
  pose proof (D_spec K n M P f xpy xmy Hsol) as E1. pose proof (R_spec K n M P f xpy xmy Hsol) as E2.
  destruct Hsol as (_ & _ & H3 & _).
  rewrite E1, E2. unfold Rt. rewrite !mm_assoc.
  rewrite <- (mm_assoc n n n n (tr xpy) xmy), H3, mm_idl.
  rewrite <- (mm_assoc n n n n (dg f) (dg f)), mm_dd. reflexivity.
Qed.

(** The root of MP: the zeroth moment times A+B. *)
Lemma Rt_root : meq n n (Rt n xpy xmy f) (mm n (eta K n f xpy 0) P).
Proof.
  pose proof (R_spec K n M P f xpy xmy Hsol) as E2.
  destruct Hsol as (_ & _ & H3 & _).
  rewrite eta_0, E2. unfold Rt. rewrite !mm_assoc.
  rewrite <- (mm_assoc n n n n (tr xpy) xmy), H3, mm_idl. reflexivity.
Qed.

Lemma Rt_ext h k : (forall i, (i < n)%nat -> h i = k i) -> meq n n (Rt n xpy xmy h) (Rt n xpy xmy k).
Proof. intros E. unfold Rt. rewrite (dg_ext n h k E). reflexivity. Qed.

Lemma Rt_lin h k x y : meq n n (madd (msc x (Rt n xpy xmy h)) (msc y (Rt n xpy xmy k))) (Rt n xpy xmy (fun i => x * h i + y * k i)).
Proof.
  intros i j Hi Hj. unfold madd, msc.
  assert (Q : forall h, Rt n xpy xmy h i j = Sum n (fun l => xpy i l * xmy j l * h l)).
  { intros h'. unfold Rt. unfold mm at 1. apply Sum_ext. intros l Hl. rewrite (mm_dgl n n h' (tr xmy) l j Hl Hj). unfold tr. ring. }
  rewrite !Q, <- !Sum_mul_l, <- Sum_add. apply Sum_ext. intros; ring.
Qed.

Section Pt2.
Variables (D : vec) (S : lr K) (z : K).
Hypothesis HS : meq n n (full (fun p => D p * D p) S) (mm n M P).
Hypothesis H : pt_ok n D S z.
Hypothesis Hf : forall i, (i < n)%nat -> (f i * f i + z * z) * inv (f i * f i + z * z) = 1.

Let h : vec := fun i => inv (f i * f i + z * z).

Lemma res_inv : meq n n (mm n (madd (dg (fun _ => z * z)) (full (fun p => D p * D p) S)) (Rt n xpy xmy h)) idm.
Proof.
  rewrite HS, Rt_MP.
  assert (E : meq n n (madd (dg (fun _ => z * z)) (Rt n xpy xmy (fun i => f i * f i))) (Rt n xpy xmy (fun i => f i * f i + z * z))).
  { assert (Q : meq n n (dg (fun _ => z * z)) (msc (z * z) (Rt n xpy xmy (fun _ => 1)))).
    { rewrite Rt_one. intros i j _ _. unfold dg, msc, idm. ring. }
    rewrite Q. transitivity (madd (msc (z * z) (Rt n xpy xmy (fun _ => 1))) (msc 1 (Rt n xpy xmy (fun i => f i * f i)))).
    { intros i j _ _. unfold madd, msc. ring. }
    rewrite Rt_lin. apply Rt_ext. intros; ring. }
  rewrite E, Rt_mul. rewrite (Rt_ext _ (fun _ => 1)). { apply Rt_one. } exact Hf.
Qed.

Lemma int_none r rot : meq r n (contrib_none K inv ipi minv n D S rot z)
  (mm n rot (Rt n xpy xmy (fun i => root_at (f i * f i) z))).
Proof.
  rewrite (pt_none n D S z _ H res_inv).
  assert (E : meq r n rot (mm n rot (Rt n xpy xmy (fun _ => 1)))) by (rewrite Rt_one, mm_idr; reflexivity).
  intros i j Hi Hj. unfold msc, msub. rewrite (E i j Hi Hj).
  rewrite (Rt_at n xpy xmy _ r rot i j Hi Hj), (Rt_at n xpy xmy _ r rot i j Hi Hj), (Rt_at n xpy xmy _ r rot i j Hi Hj).
  rewrite <- Sum_mul_l, <- Sum_sub, <- Sum_mul_l. apply Sum_ext. intros k Hk. unfold h, root_at. ring.
Qed.

Lemma int_D r rot : meq r n (contrib_D K inv ipi minv n D S rot z)
  (msub (mm n rot (Rt n xpy xmy (fun i => root_at (f i * f i) z))) (colsc K rot (fun p => root_at (D p * D p) z))).
Proof.
  rewrite (pt_D n D S z _ H res_inv).
  assert (E : meq r n rot (mm n rot (Rt n xpy xmy (fun _ => 1)))) by (rewrite Rt_one, mm_idr; reflexivity).
  assert (E2 : meq r n (mm n rot (msub (dg (get_F K inv D z)) (Rt n xpy xmy h)))
    (msub (colsc K rot (get_F K inv D z)) (mm n rot (Rt n xpy xmy h)))) by (rewrite mm_subr, colsc_dg; reflexivity).
  intros i j Hi Hj. unfold msc. rewrite (E2 i j Hi Hj). unfold msub, colsc, root_at at 2. unfold get_F.
  transitivity (ipi * (z * z * (rot i j * inv (D j * D j + z * z))) - ipi * (z * z * mm n rot (Rt n xpy xmy h) i j)); [ring|].
  transitivity (rot i j * ipi - z * z * ipi * mm n rot (Rt n xpy xmy h) i j
     - rot i j * ((1 - z * z * inv (D j * D j + z * z)) * ipi)); [ring|].
  f_equal. rewrite (E i j Hi Hj).
  rewrite (Rt_at n xpy xmy _ r rot i j Hi Hj), (Rt_at n xpy xmy _ r rot i j Hi Hj), (Rt_at n xpy xmy _ r rot i j Hi Hj).
  rewrite <- Sum_mul_l, <- Sum_mul_r, <- Sum_sub. apply Sum_ext. intros k Hk. unfold h, root_at. ring.
Qed.

(** the correction of first order in the low-rank part *)
Definition first_order (rot : mt) (h : K -> K -> K) : mt :=
  fun i j => Sum n (fun p => rot i p * mm (ln S) (tr (lL S)) (lR S) p j * h (D p) (D j)).

Lemma int_HO r rot : meq r n (contrib_HO K inv ipi minv n (get_Q K inv n D S z) D S rot z)
  (msub (msub (mm n rot (Rt n xpy xmy (fun i => root_at (f i * f i) z))) (colsc K rot (fun p => root_at (D p * D p) z)))
        (first_order rot (fun x y => z * z * inv (x * x + z * z) * inv (y * y + z * z) * ipi))).
Proof.
  rewrite (pt_HO n D S z r rot). rewrite int_D.
  intros i j Hi Hj. unfold msub. f_equal. unfold msc.
  assert (E : meq r n (mm n rot (mm n (dg (get_F K inv D z)) (mm (ln S) (tr (lL S)) (mm n (lR S) (dg (get_F K inv D z))))))
    (mm n rot (mm n (dg (get_F K inv D z)) (colsc K (mm (ln S) (tr (lL S)) (lR S)) (get_F K inv D z))))).
  { rewrite colsc_dg, mm_assoc. reflexivity. }
  rewrite (E i j Hi Hj). unfold first_order. unfold mm at 1. rewrite <- !Sum_mul_l. apply Sum_ext. intros p Hp.
  rewrite (mm_dgl n n _ _ p j Hp Hj). unfold colsc, get_F. ring.
Qed.
End Pt2.

(** ** Sums over a grid *)
Lemma ni_ext g r (F G : K -> mt) : (forall pw, In pw g -> meq r n (F (fst pw)) (G (fst pw))) -> meq r n (ni K g F) (ni K g G).
Proof. intros E i j Hi Hj. apply Lsum_ext. intros pw Hpw. rewrite (E pw Hpw i j Hi Hj). reflexivity. Qed.

Lemma ni_Rt g r rot : meq r n (ni K g (fun z => mm n rot (Rt n xpy xmy (fun i => root_at (f i * f i) z))))
  (mm n rot (Rt n xpy xmy (fun i => root_quad g (f i * f i)))).
Proof.
  intros i j Hi Hj. rewrite (Rt_at n xpy xmy _ r rot i j Hi Hj). unfold ni.
  transitivity (Lsum g (fun pw => Sum n (fun k => snd pw * (mm n rot xpy i k * xmy j k * root_at (f k * f k) (fst pw))))).
  { apply Lsum_ext. intros pw _. rewrite (Rt_at n xpy xmy _ r rot i j Hi Hj), Sum_mul_l. reflexivity. }
  rewrite Lsum_Sum. apply Sum_ext. intros k Hk. unfold root_quad. rewrite <- Lsum_mul_l. apply Lsum_ext. intros; ring.
Qed.

Lemma ni_colsc g r rot D : meq r n (ni K g (fun z => colsc K rot (fun p => root_at (D p * D p) z)))
  (colsc K rot (fun p => root_quad g (D p * D p))).
Proof.
  intros i j Hi Hj. unfold ni, colsc, root_quad. rewrite <- Lsum_mul_l. apply Lsum_ext. intros; ring.
Qed.

Lemma ni_first g r rot D S (h : K -> K -> K -> K) : meq r n (ni K g (fun z => first_order D S rot (h z)))
  (first_order D S rot (fun x y => Lsum g (fun pw => snd pw * h (fst pw) x y))).
Proof.
  intros i j Hi Hj. unfold ni, first_order.
  transitivity (Lsum g (fun pw => Sum n (fun p => rot i p * mm (ln S) (tr (lL S)) (lR S) p j * (snd pw * h (fst pw) (D p) (D j))))).
  { apply Lsum_ext. intros pw _. rewrite <- Sum_mul_l. apply Sum_ext. intros; ring. }
  rewrite Lsum_Sum. apply Sum_ext. intros p Hp. rewrite Lsum_mul_l. reflexivity.
Qed.

Lemma ni_off g r rot D S : meq r n (ni K g (contrib_off K ex n D S rot)) (first_order D S rot (exp_quad g)).
Proof.
  transitivity (ni K g (fun z => first_order D S rot (fun x y => ex (- (z * x)) * ex (- (z * y))))).
  2:{ rewrite ni_first. reflexivity. }
  apply ni_ext. intros pw _. unfold contrib_off. cbv zeta. set (e := fun p => ex (- (fst pw * D p))).
  assert (E : meq r n (mm (ln S) (mm n (colsc K rot e) (tr (lL S))) (colsc K (lR S) e))
     (mm n (colsc K rot e) (colsc K (mm (ln S) (tr (lL S)) (lR S)) e))) by (rewrite !colsc_dg, !mm_assoc; reflexivity).
  rewrite E. intros i j Hi Hj. unfold mm at 1. unfold first_order. apply Sum_ext. intros p Hp. unfold colsc, e. ring.
Qed.

Lemma ni_sub g r (F G : K -> mt) : meq r n (ni K g (fun z => msub (F z) (G z))) (msub (ni K g F) (ni K g G)).
Proof. intros i j _ _. unfold ni, msub. rewrite <- Lsum_sub. apply Lsum_ext. intros; ring. Qed.

(** What the integration leaves out or adds, for each way of deducting terms. *)
Definition defect (a : kw K) (D : vec) (S : lr K) (rot : mt) : mt :=
  let d0 := colsc K rot (fun p => D p - root_quad (gi K a) (D p * D p)) in
  match kd K a with
  | HO => madd d0 (first_order D S rot (fun x y => exp_quad (gl K a) x y - rat_quad (gi K a) x y))
  | DD => d0
  | _ => zm
  end.

Notation nT := (nT K). Notation sD := (sD K).
Notation mom0 := (mom0 K inv sq ex ipi minv svd eig).

(** The inverses needed exist. *)
Definition nums (s : sys K) (S A : lr K) (a : kw K) : Prop :=
  let D := sD s in let n := nT s in
  (forall p, (p < n)%nat -> D p * inv (D p) = 1) /\
  (let U := mm n (colsc K (lR A) (fun p => inv (D p))) (tr (lL A)) in
   is_inv (ln A) (madd idm U) (minv (ln A) (madd idm U)) /\ svd_ok (ln A) (minv (ln A) (madd idm U))) /\
  (forall pw, In pw (gi K a) -> pt_ok n D S (fst pw) /\
     forall i, (i < n)%nat -> (f i * f i + fst pw * fst pw) * inv (f i * f i + fst pw * fst pw) = 1).

(** The grids are exact for the functions met: the roots of the squared frequencies and, if they are deducted, of the squared
    diagonal; both grids agree on the term of first order, if it is deducted. *)
Definition exact (s : sys K) (a : kw K) : Prop :=
  let D := sD s in
  (forall i, (i < n)%nat -> root_quad (gi K a) (f i * f i) = f i) /\
  (kd K a = DNone \/ forall p, (p < n)%nat -> root_quad (gi K a) (D p * D p) = D p) /\
  (kd K a <> HO \/ forall p q, (p < n)%nat -> (q < n)%nat -> exp_quad (gl K a) (D p) (D q) = rat_quad (gi K a) (D p) (D q)).

Lemma mult_inv (s : sys K) (A : lr K) r int : (scomp K s <= 5)%nat -> n = nT s ->
  (forall p, (p < n)%nat -> sD s p * inv (sD s p) = 1) ->
  (let U := mm n (colsc K (lR A) (fun p => inv (sD s p))) (tr (lL A)) in
   is_inv (ln A) (madd idm U) (minv (ln A) (madd idm U)) /\ svd_ok (ln A) (minv (ln A) (madd idm U))) ->
  meq r n (mm n (mult_apbinv K inv eig s n (sD s) int (inverse_RI K inv sq minv svd n (sD s) A)) (full (sD s) A)) int.
Proof.
  intros Hc Hn Hd [HU Hs]. unfold mult_apbinv, comp_if. rewrite (proj2 (Nat.ltb_ge _ _) Hc). cbv zeta.
  destruct (C70_inverse n (sD s) A Hd HU Hs) as [_ E].
  set (ri := inverse_RI K inv sq minv svd n (sD s) A) in *.
  assert (Q : meq r n (msub (colsc K int (fun p => inv (sD s p))) (mm (ln ri) (mm n int (tr (lL ri))) (lR ri)))
     (mm n int (msub (dg (fun p => inv (sD s p))) (mm (ln ri) (tr (lL ri)) (lR ri))))).
  { rewrite mm_subr, colsc_dg, mm_assoc. reflexivity. }
  rewrite Q, mm_assoc, E, mm_idr. reflexivity.
Qed.

(** ** The zeroth moment, for whatever grid: times A+B it is the function of (A-B)(A+B) that the grid integrates instead of
    the root, plus the defect. *)
Lemma mom0_spec (s : sys K) S A rot a : (scomp K s <= 5)%nat -> n = nT s ->
  meq n n (full (sD s) A) P -> meq n n (full (fun p => sD s p * sD s p) S) (mm n M P) ->
  kd K a <> DOther -> adaptive K a = false -> nums s S A a ->
  exists m, mom0 s S A rot a = Ret m /\
    forall r, meq r n (mm n m P) (madd (mm n rot (Rt n xpy xmy (fun i => root_quad (gi K a) (f i * f i)))) (defect a (sD s) S rot)).
Proof.
  intros Hc Hn HA HS Hk Had (Hd & HU & Hp). rewrite <- Hn in *.
  unfold M_RiRpa.mom0. rewrite Had. rewrite <- Hn. unfold defect.
  assert (HP : forall r int, meq r n (mm n (mult_apbinv K inv eig s n (sD s) int (inverse_RI K inv sq minv svd n (sD s) A)) P) int).
  { intros r int. rewrite <- HA. apply mult_inv; assumption. }
  assert (X : forall pw, In pw (gi K a) -> (forall r, meq r n (contrib_D K inv ipi minv n (sD s) S rot (fst pw))
      (msub (mm n rot (Rt n xpy xmy (fun i => root_at (f i * f i) (fst pw)))) (colsc K rot (fun p => root_at (sD s p * sD s p) (fst pw)))))).
  { intros pw Hpw r. destruct (Hp pw Hpw) as [H1 H2]. apply int_D; assumption. }
  destruct (kd K a) eqn:Ek; cbn [rbind]; try congruence; (eexists; split; [reflexivity|intros r; rewrite HP]).
  - transitivity (madd (ni K (gi K a) (fun z => msub (msub (mm n rot (Rt n xpy xmy (fun i => root_at (f i * f i) z)))
        (colsc K rot (fun p => root_at (sD s p * sD s p) z)))
        (first_order (sD s) S rot (fun x y => z * z * inv (x * x + z * z) * inv (y * y + z * z) * ipi))))
       (madd (colsc K rot (sD s)) (first_order (sD s) S rot (exp_quad (gl K a))))).
    { rewrite ni_off. apply madd_proper; [|reflexivity]. apply ni_ext. intros pw Hpw. destruct (Hp pw Hpw) as [H1 H2].
      apply int_HO; assumption. }
    rewrite !ni_sub, ni_Rt, ni_colsc, ni_first.
    intros i j Hi Hj. unfold madd, msub, first_order, colsc.
    assert (Q : Sum n (fun p => rot i p * mm (ln S) (tr (lL S)) (lR S) p j
                 * (exp_quad (gl K a) (sD s p) (sD s j) - rat_quad (gi K a) (sD s p) (sD s j)))
      = Sum n (fun p => rot i p * mm (ln S) (tr (lL S)) (lR S) p j * exp_quad (gl K a) (sD s p) (sD s j))
      - Sum n (fun p => rot i p * mm (ln S) (tr (lL S)) (lR S) p j * rat_quad (gi K a) (sD s p) (sD s j))).
    { rewrite <- Sum_sub. apply Sum_ext. intros; ring. }
    rewrite Q. fold (rat_quad (gi K a)). unfold rat_quad. ring.
  - transitivity (madd (ni K (gi K a) (fun z => msub (mm n rot (Rt n xpy xmy (fun i => root_at (f i * f i) z)))
        (colsc K rot (fun p => root_at (sD s p * sD s p) z)))) (colsc K rot (sD s))).
    { apply madd_proper; [|reflexivity]. apply ni_ext. intros pw Hpw. apply X; assumption. }
    rewrite !ni_sub, ni_Rt, ni_colsc. intros i j _ _. unfold madd, msub, colsc. ring.
  - transitivity (madd (ni K (gi K a) (fun z => mm n rot (Rt n xpy xmy (fun i => root_at (f i * f i) z)))) zm).
    { apply madd_proper; [|reflexivity]. apply ni_ext. intros pw Hpw. destruct (Hp pw Hpw) as [H1 H2]. apply int_none; assumption. }
    rewrite ni_Rt. reflexivity.
Qed.

Lemma defect_0 (s : sys K) S a r rot : n = nT s -> kd K a <> DOther -> exact s a -> meq r n (defect a (sD s) S rot) zm.
Proof.
  intros Hn Hk (_ & E2 & E3). unfold defect. destruct (kd K a); try congruence; try reflexivity.
  - destruct E2 as [E2|E2]; [discriminate|]. destruct E3 as [E3|E3]; [congruence|].
    intros i j Hi Hj. unfold madd, colsc, first_order, zm. rewrite (E2 j Hj).
    rewrite Sum_0. { ring. } intros p Hp. rewrite (E3 p j Hp Hj). ring.
  - destruct E2 as [E2|E2]; [discriminate|]. intros i j Hi Hj. unfold colsc, zm. rewrite (E2 j Hj). ring.
Qed.

Lemma mom0_exact (s : sys K) S A rot a : (scomp K s <= 5)%nat -> n = nT s ->
  meq n n (full (sD s) A) P -> meq n n (full (fun p => sD s p * sD s p) S) (mm n M P) ->
  kd K a <> DOther -> adaptive K a = false -> nums s S A a -> exact s a ->
  exists m, mom0 s S A rot a = Ret m /\ forall r, meq r n m (mm n rot (eta K n f xpy 0)).
Proof.
  intros Hc Hn HA HS Hk Had Hnum Hex.
  destruct (mom0_spec s S A rot a Hc Hn HA HS Hk Had Hnum) as (m & Em & Hm). exists m. split; [exact Em|].
  intros r. destruct Hnum as (Hd & [HU Hs] & _). rewrite <- Hn in *.
  destruct (C70_inverse n (sD s) A Hd HU Hs) as [W _].
  assert (W' : meq n n (mm n P (msub (dg (fun p => inv (sD s p))) (mm (ln (inverse_RI K inv sq minv svd n (sD s) A))
     (tr (lL (inverse_RI K inv sq minv svd n (sD s) A))) (lR (inverse_RI K inv sq minv svd n (sD s) A))))) idm).
  { rewrite <- HA. exact W. }
  apply (right_cancel K r n _ _ P _ W'). rewrite Hm.
  rewrite (defect_0 s S a r rot Hn Hk Hex). destruct Hex as (E1 & _).
  rewrite (Rt_ext _ f E1), Rt_root, mm_assoc. intros i j _ _. unfold madd, zm. ring.
Qed.
End Spec.

(** ** The matrices A and B of the whole problem, for coupling strength alpha *)
Notation nT := (nT K). Notation nA := (nA K). Notation sD := (sD K).
Notation ten := (nat -> nat -> nat -> nat -> K).

Definition kten (k : nat) (l r : t3) : ten := fun p q p' q' => Sum k (fun n => l n p q * r n p' q').
Definition coul (s : sys K) : mt := fun p q =>
  let b := fun (a b : mt) i => vcat K (nA s) (a i) (b i) in
  Sum (cn K (sc K s)) (fun i => b (ca K (sc K s)) (cb K (sc K s)) i p * b (ca K (sc K s)) (cb K (sc K s)) i q)
  - match cneg K (sc K s) with None => 0 | Some (m, na, nb) => Sum m (fun i => b na nb i p * b na nb i q) end.
Definition xcmat (blkf : nat -> ten -> nat -> nat -> mt -> mt -> mt -> mt -> mt) (s : sys K) : mt :=
  match sx K s with
  | None => zm
  | Some x =>
    let o := M_RiRpa.so K s in
    blk K (nA s) (nA s)
      (blkf (nao K o) (kten (xn K x) (xla K x) (xra K x)) (nva K o) (nva K o) (coa K o) (cva K o) (coa K o) (cva K o))
      (blkf (nao K o) (kten (xn K x) (xla K x) (xrb K x)) (nva K o) (nvb K o) (coa K o) (cva K o) (cob K o) (cvb K o))
      (blkf (nao K o) (kten (xn K x) (xlb K x) (xra K x)) (nvb K o) (nva K o) (cob K o) (cvb K o) (coa K o) (cva K o))
      (blkf (nao K o) (kten (xn K x) (xlb K x) (xrb K x)) (nvb K o) (nvb K o) (cob K o) (cvb K o) (cob K o) (cvb K o))
  end.
Definition Amat (s : sys K) (alpha : K) : mt := madd (dg (sD s)) (msc alpha (madd (coul s) (xcmat (va_blk K) s))).
Definition Bmat (s : sys K) (alpha : K) : mt := msc alpha (madd (coul s) (xcmat (vb_blk K) s)).

Lemma swap3 n k (f : nat -> nat -> nat -> K) :
  Sum k (fun l => Sum n (fun p => Sum n (fun q => f l p q))) = Sum n (fun p => Sum n (fun q => Sum k (fun l => f l p q))).
Proof. rewrite Sum_swap. apply Sum_ext. intros p _. apply Sum_swap. Qed.

Lemma mo3_va m k (l r : t3) nv nv' (co cv co' cv' : mt) x y :
  Sum k (fun n => mo3 K m nv l co cv n x * mo3 K m nv' r co' cv' n y) = va_blk K m (kten k l r) nv nv' co cv co' cv' x y.
Proof.
  unfold mo3, va_blk, kten.
  transitivity (Sum k (fun n => Sum m (fun p => Sum m (fun q => Sum m (fun p' => Sum m (fun q' =>
    l n p q * co p (x / nv)%nat * cv q (x mod nv)%nat * (r n p' q' * co' p' (y / nv')%nat * cv' q' (y mod nv')%nat))))))).
  { apply Sum_ext. intros n _. rewrite <- Sum_mul_r. apply Sum_ext. intros p _. rewrite <- Sum_mul_r. apply Sum_ext. intros q _.
    rewrite <- Sum_mul_l. apply Sum_ext. intros p' _. rewrite <- Sum_mul_l. reflexivity. }
  rewrite swap3. apply Sum_ext. intros p _. apply Sum_ext. intros q _.
  rewrite swap3. apply Sum_ext. intros p' _. apply Sum_ext. intros q' _.
  rewrite <- !Sum_mul_r. apply Sum_ext. intros n _. ring.
Qed.

Lemma mo3_vb m k (l r : t3) nv nv' (co cv co' cv' : mt) x y :
  Sum k (fun n => mo3 K m nv l co cv n x * mo3t K m nv' r co' cv' n y) = vb_blk K m (kten k l r) nv nv' co cv co' cv' x y.
Proof.
  unfold mo3, mo3t, vb_blk, kten.
  transitivity (Sum k (fun n => Sum m (fun p => Sum m (fun q => Sum m (fun p' => Sum m (fun q' =>
    l n p q * co p (x / nv)%nat * cv q (x mod nv)%nat * (r n q' p' * co' p' (y / nv')%nat * cv' q' (y mod nv')%nat))))))).
  { apply Sum_ext. intros n _. rewrite <- Sum_mul_r. apply Sum_ext. intros p _. rewrite <- Sum_mul_r. apply Sum_ext. intros q _.
    rewrite Sum_swap. rewrite <- Sum_mul_l. apply Sum_ext. intros p' _. rewrite <- Sum_mul_l. reflexivity. }
  rewrite swap3. apply Sum_ext. intros p _. apply Sum_ext. intros q _.
  rewrite swap3. apply Sum_ext. intros p' _. apply Sum_ext. intros q' _.
  rewrite <- !Sum_mul_r. apply Sum_ext. intros n _. ring.
Qed.

Lemma mm_ccat n N k (a b c d : mt) : meq N N (mm k (tr (ccat K n a b)) (ccat K n c d))
  (blk K n n (mm k (tr a) c) (mm k (tr a) d) (mm k (tr b) c) (mm k (tr b) d)).
Proof.
  symmetry. apply blk_ext; intros p q Hp Hq; unfold mm, tr, ccat; apply Sum_ext; intros l _;
    rewrite ?vcat_r; rewrite ?vcat_l by assumption; reflexivity.
Qed.

Lemma xc_a (s : sys K) x N : sx K s = Some x ->
  meq N N (mm (ln (fst (ab_xc K s x))) (tr (lL (fst (ab_xc K s x)))) (lR (fst (ab_xc K s x)))) (xcmat (va_blk K) s).
Proof.
  intros Hx. unfold xcmat. rewrite Hx. unfold ab_xc. cbn [fst ln lL lR]. rewrite mm_ccat.
  intros p q _ _. unfold blk. destruct (p <? nA s)%nat, (q <? nA s)%nat; unfold mm, tr; apply mo3_va.
Qed.
Lemma xc_b (s : sys K) x N : sx K s = Some x ->
  meq N N (mm (ln (snd (ab_xc K s x))) (tr (lL (snd (ab_xc K s x)))) (lR (snd (ab_xc K s x)))) (xcmat (vb_blk K) s).
Proof.
  intros Hx. unfold xcmat. rewrite Hx. unfold ab_xc. cbn [snd ln lL lR]. rewrite mm_ccat.
  intros p q _ _. unfold blk. destruct (p <? nA s)%nat, (q <? nA s)%nat; unfold mm, tr; apply mo3_vb.
Qed.

Lemma coul_part (s : sys K) N : s2 * s2 = 1 + 1 ->
  let '(e, eneg) := apb_eri K s2 s in
  let p0 := Build_lr K (cn K (sc K s)) e e in
  let p1 := match eneg with None => p0 | Some (m, en) => lcat K p0 (Build_lr K m en (mneg K en)) end in
  meq N N (mm (ln p1) (tr (lL p1)) (lR p1)) (msc (1 + 1) (coul s)).
Proof.
  intros H2. unfold apb_eri, coul.
  destruct (cneg K (sc K s)) as [[[m na] nb]|].
  - cbn [lcat ln lL lR]. rewrite mm_rcat.
    intros p q _ _. unfold madd, msc, mm, tr, mneg, ccat.
    rewrite <- H2.
    transitivity (s2 * s2 * Sum (cn K (sc K s)) (fun i => vcat K (nA s) (ca K (sc K s) i) (cb K (sc K s) i) p * vcat K (nA s) (ca K (sc K s) i) (cb K (sc K s) i) q)
      + - (s2 * s2) * Sum m (fun i => vcat K (nA s) (na i) (nb i) p * vcat K (nA s) (na i) (nb i) q)); [|ring].
    rewrite <- !Sum_mul_l. f_equal; apply Sum_ext; intros; ring.
  - cbn [ln lL lR]. intros p q _ _. unfold msc, mm, tr, ccat. rewrite <- H2.
    transitivity (s2 * s2 * Sum (cn K (sc K s)) (fun i => vcat K (nA s) (ca K (sc K s) i) (cb K (sc K s) i) p * vcat K (nA s) (ca K (sc K s) i) (cb K (sc K s) i) q)); [|ring].
    rewrite <- !Sum_mul_l. apply Sum_ext; intros; ring.
Qed.

Lemma mm_mneg r c k (a b : mt) : meq r c (mm k a (mneg K b)) (msc (- (1)) (mm k a b)).
Proof. rewrite <- mm_scr. apply mm_proper; [reflexivity|]. intros i j _ _. unfold mneg, msc. ring. Qed.

Lemma ri_ab_spec (s : sys K) N : s2 * s2 = 1 + 1 ->
  let '(p, m) := ri_ab K s2 s in
  meq N N (mm (ln p) (tr (lL p)) (lR p)) (madd (msc (1 + 1) (coul s)) (madd (xcmat (va_blk K) s) (xcmat (vb_blk K) s))) /\
  meq N N (mm (ln m) (tr (lL m)) (lR m)) (msub (xcmat (va_blk K) s) (xcmat (vb_blk K) s)).
Proof.
  intros H2. pose proof (coul_part s N H2) as C. unfold ri_ab. destruct (apb_eri K s2 s) as [e eneg].
  cbv zeta in C. set (p1 := match eneg with None => _ | Some _ => _ end) in *. clearbody p1.
  destruct (sx K s) as [x|] eqn:Ex.
  - pose proof (xc_a s x N Ex) as Xa. pose proof (xc_b s x N Ex) as Xb.
    destruct (ab_xc K s x) as [a b]. cbn [fst snd] in *. split.
    + unfold lcat. cbn [ln lL lR]. rewrite !mm_rcat, C, Xa, Xb. reflexivity.
    + unfold lcat. cbn [ln lL lR]. change (0 + (ln a + ln b))%nat with (ln a + ln b)%nat.
      assert (Z : forall u v : mt, meq (ln a + ln b) N (rcat K 0 u v) v).
      { intros u v i j _ _. unfold rcat. cbn. f_equal. lia. }
      rewrite !Z, mm_rcat, Xa, mm_mneg, Xb. intros i j _ _. unfold madd, msub, msc. ring.
  - unfold xcmat. rewrite Ex. split.
    + rewrite C. intros i j _ _. unfold madd, zm. ring.
    + cbn [ln lL lR]. intros i j _ _. unfold mm, msub, zm. cbn. ring.
Qed.

Lemma lr_sc_full N x (r : lr K) : meq N N (mm (ln (lr_sc K x r)) (tr (lL (lr_sc K x r))) (lR (lr_sc K x r)))
  (msc (x * x) (mm (ln r) (tr (lL r)) (lR r))).
Proof. intros i j _ _. unfold lr_sc, mm, tr, msc. cbn [ln lL lR]. rewrite <- Sum_mul_l. apply Sum_ext. intros; ring. Qed.

(** *** The low-rank forms stand for A+B, A-B and their product. *)
Theorem C70_matrices (s : sys K) alpha :
  s2 * s2 = 1 + 1 -> sq alpha * sq alpha = alpha -> hlf + hlf = 1 -> scomp K s = 0%nat ->
  let '(mp, apb, amb) := comp_MP K sq s2 hlf eig s alpha in
  let n := nT s in
  meq n n (full (sD s) apb) (madd (Amat s alpha) (Bmat s alpha)) /\
  meq n n (full (sD s) amb) (msub (Amat s alpha) (Bmat s alpha)) /\
  meq n n (full (fun p => sD s p * sD s p) mp)
    (mm n (msub (Amat s alpha) (Bmat s alpha)) (madd (Amat s alpha) (Bmat s alpha))).
Proof.
  intros H2 Ha Hh Hc. pose proof (ri_ab_spec s (nT s) H2) as R. unfold comp_MP. destruct (ri_ab K s2 s) as [p m].
  destruct R as [R1 R2]. unfold comp_if. rewrite Hc. cbn [Nat.ltb Nat.leb]. cbv zeta.
  assert (E1 : meq (nT s) (nT s) (full (sD s) (lr_sc K (sq alpha) p)) (madd (Amat s alpha) (Bmat s alpha))).
  { unfold P_RiRpa.full. rewrite lr_sc_full, R1, Ha. intros i j _ _. unfold Amat, Bmat, madd, msc. ring. }
  assert (E2 : meq (nT s) (nT s) (full (sD s) (lr_sc K (sq alpha) m)) (msub (Amat s alpha) (Bmat s alpha))).
  { unfold P_RiRpa.full. rewrite lr_sc_full, R2, Ha. intros i j _ _. unfold Amat, Bmat, madd, msub, msc. ring. }
  split; [exact E1|]. split; [exact E2|]. rewrite (C70_product (nT s) (sD s) _ _ Hh), E1, E2. reflexivity.
Qed.

Notation comp_MP := (comp_MP K sq s2 hlf eig).
Notation kernel_moms := (kernel_moms K inv sq ex s2 hlf ipi minv svd eig).
Definition rot_of (target : option mt) : mt := match target with None => idm | Some r => r end.

Lemma mom_seq_spec (m0 m1 : mt) step n r (F : nat -> mt) :
  meq r n m0 (F 0%nat) -> meq r n m1 (F 1%nat) ->
  (forall m i, meq r n m (F i) -> meq r n (step m) (F (2 + i)%nat)) ->
  forall i, meq r n (mom_seq K m0 m1 step i) (F i).
Proof.
  intros H0 H1 Hs. assert (Q : forall i, meq r n (mom_seq K m0 m1 step i) (F i) /\ meq r n (mom_seq K m0 m1 step (S i)) (F (S i))).
  { induction i as [|i [IH1 IH2]]; [split; assumption|]. split; [exact IH2|]. apply (Hs _ i IH1). }
  intros i. apply Q.
Qed.

Section Moms.
Variables (s : sys K) (f : vec) (xpy xmy : mt).
Hypothesis H2 : s2 * s2 = 1 + 1.
Hypothesis Hq : sq 1 * sq 1 = 1.
Hypothesis Hh : hlf + hlf = 1.
Hypothesis Hc : scomp K s = 0%nat.
Let n := nT s.
Let M := msub (Amat s 1) (Bmat s 1).
Let P := madd (Amat s 1) (Bmat s 1).
Hypothesis Hsol : rpa_sol n M P f xpy xmy.

(** *** Every grid: the zeroth moment in terms of the function the grid integrates *)
Theorem C70_mom0 target a : kd K a <> DOther -> adaptive K a = false ->
  (let '(mp, apb, _) := comp_MP s 1 in nums f s mp apb a) ->
  exists m0, kernel_moms s 0 target a = Ret [m0] /\
    forall r, meq r n (mm n m0 P)
      (madd (mm n (rot_of target) (Rt n xpy xmy (fun i => root_quad (gi K a) (f i * f i))))
            (defect n a (sD s) (fst (fst (comp_MP s 1))) (rot_of target))).
Proof.
  intros Hk Had Hn. pose proof (C70_matrices s 1 H2 Hq Hh Hc) as E. unfold M_RiRpa.kernel_moms.
  fold (rot_of target). destruct (comp_MP s 1) as [[mp apb] amb]. cbn [fst]. cbv zeta in E. destruct E as (E1 & E2 & E3).
  assert (Hc5 : (scomp K s <= 5)%nat) by (rewrite Hc; lia).
  destruct (mom0_spec n M P f xpy xmy Hsol s mp apb (rot_of target) a Hc5 eq_refl E1 E3 Hk Had Hn) as (m & Em & Hm).
  exists m. rewrite Em. cbn [rbind seq map mom_seq]. split; [reflexivity|exact Hm].
Qed.

(** *** Exact grids: all moments *)
Theorem C70_moments maxm target a : kd K a <> DOther -> adaptive K a = false ->
  (let '(mp, apb, _) := comp_MP s 1 in nums f s mp apb a) -> exact n f s a ->
  exists moms, kernel_moms s maxm target a = Ret moms /\ length moms = S maxm /\
    forall i, (i <= maxm)%nat -> forall r, meq r n (nth i moms zm) (mm n (rot_of target) (eta K n f xpy i)).
Proof.
  intros Hk Had Hn Hex. pose proof (C70_matrices s 1 H2 Hq Hh Hc) as E. unfold M_RiRpa.kernel_moms.
  fold (rot_of target). destruct (comp_MP s 1) as [[mp apb] amb]. cbv zeta in E. destruct E as (E1 & E2 & E3).
  assert (Hc5 : (scomp K s <= 5)%nat) by (rewrite Hc; lia).
  destruct (mom0_exact n M P f xpy xmy Hsol s mp apb (rot_of target) a Hc5 eq_refl E1 E3 Hk Had Hn Hex) as (m & Em & Hm).
  rewrite Em. cbn [rbind]. eexists. split; [reflexivity|]. rewrite map_length, seq_length. split; [reflexivity|].
  intros i Hi r. rewrite (nth_indep _ zm (mom_seq K m (madd (colsc K (rot_of target) (sD s)) (mm (ln amb) (mm (nT s) (rot_of target) (tr (lL amb))) (lR amb)))
     (fun m => madd (colsc K m (fun p => sD s p * sD s p)) (mm (ln mp) (mm (nT s) m (tr (lR mp))) (lL mp))) 0))
    by (rewrite map_length, seq_length; lia).
  rewrite map_nth, seq_nth by lia. cbn [Nat.add].
  apply (mom_seq_spec _ _ _ n r (fun i => mm n (rot_of target) (eta K n f xpy i))).
  - apply Hm.
  - rewrite (eta_1 K n M P f xpy xmy Hsol). unfold M. fold n in E2. rewrite <- E2. unfold P_RiRpa.full.
    rewrite mm_addr, colsc_dg, mm_assoc. reflexivity.
  - intros m' j Hj. cbv beta. fold n. rewrite colsc_dg, Hj. clear m' Hj.
    assert (Q : meq n n (madd (dg (fun p => sD s p * sD s p)) (mm (ln mp) (tr (lR mp)) (lL mp))) (tr (mm n M P))).
    { unfold M, P. fold n in E3. rewrite <- E3. unfold P_RiRpa.full. rewrite tr_add, tr_dg, tr_mm, tr_tr. reflexivity. }
    transitivity (mm n (rot_of target) (mm n (eta K n f xpy j) (tr (mm n M P)))).
    { rewrite <- Q, mm_addr, mm_addr, !mm_assoc. reflexivity. }
    apply mm_proper; [reflexivity|].
    rewrite <- (eta_sym K n f xpy (2 + j)), (eta_step K n M P f xpy xmy Hsol j), <- (mm_assoc n n n n M P), (tr_mm n n n (mm n M P)), eta_sym.
    reflexivity.
Qed.

(** *** The trace of the root, for grids at whose points Q is symmetric *)
Definition Q_sym (k : nat) (D : vec) (S : lr K) (z : K) : Prop := meq (ln S) (ln S) (tr (get_Q K inv k D S z)) (get_Q K inv k D S z).
Definition tr_ok (S : lr K) (g : list (K * K)) : Prop :=
  forall pw, In pw g -> pt_ok n (sD s) S (fst pw) /\ Q_sym n (sD s) S (fst pw) /\
     forall i, (i < n)%nat -> (f i * f i + fst pw * fst pw) * inv (f i * f i + fst pw * fst pw) = 1.

Lemma inv_sym k (a b : mt) : P_RiRpa.is_inv K k a b -> meq k k (tr a) a -> meq k k (tr b) b.
Proof.
  intros [I1 I2] Hs. apply (inv_unique K k a).
  - rewrite <- Hs, <- tr_mm, I2. apply tr_idm.
  - exact I2.
Qed.

Lemma contrib_tr_HO D S z : pt_ok n D S z -> Q_sym n D S z ->
  contrib_tr K inv ipi minv n (get_Q K inv n D S z) D S z
  = trace n (contrib_HO K inv ipi minv n (get_Q K inv n D S z) D S idm z).
Proof.
  intros [_ HW] HQ. unfold contrib_tr, contrib_HO. cbv zeta.
  set (Wi := minv (ln S) (madd idm (get_Q K inv n D S z))) in *. set (F := get_F K inv D z).
  assert (Hw : meq (ln S) (ln S) (tr (msub Wi idm)) (msub Wi idm)).
  { rewrite tr_sub, tr_idm. rewrite (inv_sym _ _ _ HW). { reflexivity. }
    unfold Q_sym in HQ. rewrite tr_add, tr_idm, HQ. reflexivity. }
  set (va := msub Wi idm) in *. clearbody va. clear HW Wi.
  unfold trace. rewrite Sum_mul_r. f_equal. rewrite Sum_mul_l. f_equal.
  unfold tdot. rewrite Sum_swap. apply Sum_ext. intros p Hp.
  assert (E : meq n n (mm (ln S) (mm (ln S) (mm n (colsc K idm F) (tr (lL S))) va) (colsc K (lR S) F))
    (mm (ln S) (mm (ln S) (mm n (dg F) (tr (lL S))) va) (colsc K (lR S) F))).
  { rewrite (colsc_dg K n n idm F), mm_idl. reflexivity. }
  rewrite (E p p Hp Hp). unfold mm at 2. apply Sum_ext. intros i Hi. f_equal.
  unfold mm at 1 2. apply Sum_ext. intros m Hm. rewrite (mm_dgl n (ln S) F (tr (lL S)) p m Hp Hm).
  rewrite <- (Hw m i Hm Hi). unfold colsc, tr. ring.
Qed.

Lemma trace_Rt h : trace n (Rt n xpy xmy h) = Sum n h.
Proof.
  unfold Rt. rewrite trace_mm.
  assert (E : meq n n (mm n (mm n (dg h) (tr xmy)) xpy) (dg h)).
  { rewrite mm_assoc, (norm'' K n M P f xpy xmy Hsol), mm_idr. reflexivity. }
  rewrite E. apply trace_dg.
Qed.

Lemma tdot_diag k (a b : mt) (h : vec) : tdot K k n (colsc K a h) b = Sum n (fun p => mm k (tr a) b p p * h p).
Proof.
  unfold tdot. rewrite Sum_swap. apply Sum_ext. intros p Hp. unfold mm, tr, colsc. rewrite <- Sum_mul_r. apply Sum_ext. intros; ring.
Qed.

Theorem C70_trace g : (let '(mp, _, _) := comp_MP s 1 in tr_ok mp g) ->
  let '(mp, _, _) := comp_MP s 1 in
  trMPrt K inv sq s2 hlf ipi minv eig s g
  = Sum n (fun i => root_quad g (f i * f i)) + Sum n (fun p => sD s p - root_quad g (sD s p * sD s p))
    + Sum n (fun p => mm (ln mp) (tr (lL mp)) (lR mp) p p * (hlf * inv (sD s p) - rat_quad g (sD s p) (sD s p))).
Proof.
  intros Hg. pose proof (C70_matrices s 1 H2 Hq Hh Hc) as E. unfold trMPrt.
  destruct (comp_MP s 1) as [[mp apb] amb]. cbv zeta in E. destruct E as (E1 & E2 & E3). fold n.
  rewrite tdot_diag.
  assert (I : ni1 K g (fun z => contrib_tr K inv ipi minv n (get_Q K inv n (sD s) mp z) (sD s) mp z)
    = Lsum g (fun pw => snd pw * (Sum n (fun i => root_at (f i * f i) (fst pw)) - Sum n (fun p => root_at (sD s p * sD s p) (fst pw))
        - Sum n (fun p => mm (ln mp) (tr (lL mp)) (lR mp) p p *
            (fst pw * fst pw * inv (sD s p * sD s p + fst pw * fst pw) * inv (sD s p * sD s p + fst pw * fst pw) * ipi))))).
  { apply Lsum_ext. intros [z w] Hpw. destruct (Hg _ Hpw) as (G1 & G2 & G3). cbn [fst snd] in *. f_equal.
    rewrite (contrib_tr_HO _ _ _ G1 G2).
    rewrite (trace_proper n _ _ (int_HO n M P f xpy xmy Hsol (sD s) mp z E3 G1 G3 n idm)).
    rewrite !trace_sub. f_equal; [f_equal|].
    - rewrite (mm_idl n n). apply trace_Rt.
    - rewrite (colsc_dg K n n), mm_idl. apply trace_dg.
    - unfold trace, first_order. apply Sum_ext. intros p Hp.
      rewrite (Sum_ext n _ (fun k => delta p k * (mm (ln mp) (tr (lL mp)) (lR mp) k p *
         (z * z * inv (sD s k * sD s k + z * z) * inv (sD s p * sD s p + z * z) * ipi)))).
      + exact (Sum_delta_l n p (fun k => mm (ln mp) (tr (lL mp)) (lR mp) k p *
         (z * z * inv (sD s k * sD s k + z * z) * inv (sD s p * sD s p + z * z) * ipi)) Hp).
      + intros k _. unfold idm. ring. }
  rewrite I. unfold root_quad, rat_quad.
  assert (L : forall h : nat -> K -> K, Sum n (fun i => Lsum g (fun pw => snd pw * h i (fst pw))) = Lsum g (fun pw => snd pw * Sum n (fun i => h i (fst pw)))).
  { intros h. rewrite <- Lsum_Sum. apply Lsum_ext. intros pw _. rewrite Sum_mul_l. reflexivity. }
  rewrite (L (fun i z => root_at (f i * f i) z)).
  rewrite Sum_sub, (L (fun i z => root_at (sD s i * sD s i) z)).
  set (V := mm (ln mp) (tr (lL mp)) (lR mp)).
  assert (E4 : Sum n (fun p => V p p * (hlf * inv (sD s p) - Lsum g (fun pw => snd pw * (fst pw * fst pw * inv (sD s p * sD s p + fst pw * fst pw)
       * inv (sD s p * sD s p + fst pw * fst pw) * ipi))))
    = hlf * Sum n (fun p => V p p * inv (sD s p)) - Lsum g (fun pw => snd pw * Sum n (fun p => V p p * (fst pw * fst pw * inv (sD s p * sD s p + fst pw * fst pw)
       * inv (sD s p * sD s p + fst pw * fst pw) * ipi)))).
  { rewrite <- (L (fun p z => V p p * (z * z * inv (sD s p * sD s p + z * z) * inv (sD s p * sD s p + z * z) * ipi))).
    rewrite <- Sum_mul_l, <- Sum_sub. apply Sum_ext. intros p Hp.
    rewrite (Lsum_ext g (fun pw => snd pw * (V p p * _)) (fun pw => V p p * (snd pw * (fst pw * fst pw * inv (sD s p * sD s p + fst pw * fst pw)
       * inv (sD s p * sD s p + fst pw * fst pw) * ipi)))) by (intros; ring). rewrite Lsum_mul_l. ring. }
  rewrite E4.
  rewrite (Lsum_ext g _ (fun pw => snd pw * Sum n (fun i => root_at (f i * f i) (fst pw)) - snd pw * Sum n (fun p => root_at (sD s p * sD s p) (fst pw))
        - snd pw * Sum n (fun p => V p p *
            (fst pw * fst pw * inv (sD s p * sD s p + fst pw * fst pw) * inv (sD s p * sD s p + fst pw * fst pw) * ipi)))) by (intros; unfold V; ring).
  rewrite !Lsum_sub. ring.
Qed.

Definition exact_tr (g : list (K * K)) : Prop :=
  (forall i, (i < n)%nat -> root_quad g (f i * f i) = f i) /\
  (forall p, (p < n)%nat -> root_quad g (sD s p * sD s p) = sD s p) /\
  (forall p, (p < n)%nat -> rat_quad g (sD s p) (sD s p) = hlf * inv (sD s p)).

Lemma trace_exact g : (let '(mp, _, _) := comp_MP s 1 in tr_ok mp g) -> exact_tr g ->
  trMPrt K inv sq s2 hlf ipi minv eig s g = Sum n f.
Proof.
  intros Hg (X1 & X2 & X3). pose proof (C70_trace g Hg) as T. destruct (comp_MP s 1) as [[mp apb] amb]. rewrite T.
  rewrite (Sum_ext n (fun i => root_quad g (f i * f i)) f X1).
  rewrite (Sum_0 n (fun p => sD s p - _)). 2:{ intros p Hp. rewrite (X2 p Hp). ring. }
  rewrite (Sum_0 n (fun p => _ * _)). 2:{ intros p Hp. rewrite (X3 p Hp). ring. }
  ring.
Qed.

(** *** The correlation energy *)
Notation kernel_energy := (kernel_energy K inv sq ex s2 hlf ipi minv svd eig).

Lemma hlf2 x : hlf * ((1 + 1) * x) = x.
Proof. transitivity ((hlf + hlf) * x); [ring|rewrite Hh; ring]. Qed.

Lemma tdot_tr k (a b : mt) : tdot K k n a b = trace n (mm k (tr a) b).
Proof. unfold tdot, trace, mm, tr. apply Sum_swap. Qed.

Lemma e3_coul : let '(e, eneg) := apb_eri K s2 s in
  match eneg with
  | None => Sum n (sD s) + tdot K (cn K (sc K s)) n e e * hlf
  | Some (m, en) => Sum n (sD s) + tdot K (cn K (sc K s)) n e e * hlf - tdot K m n en en * hlf
  end = Sum n (sD s) + trace n (coul s).
Proof.
  pose proof (coul_part s n H2) as C. unfold apb_eri in *. destruct (cneg K (sc K s)) as [[[m na] nb]|].
  - cbv zeta in C. cbn [lcat ln lL lR] in C.
    pose proof (trace_proper n _ _ C) as T. rewrite trace_sc in T. rewrite mm_rcat, trace_add, mm_mneg, trace_sc in T.
    rewrite !tdot_tr.
    transitivity (Sum n (sD s) + hlf * (trace n (mm (cn K (sc K s)) (tr (msc s2 (ccat K (nA s) (ca K (sc K s)) (cb K (sc K s)))))
        (msc s2 (ccat K (nA s) (ca K (sc K s)) (cb K (sc K s)))))
        + - (1) * trace n (mm m (tr (msc s2 (ccat K (nA s) na nb))) (msc s2 (ccat K (nA s) na nb))))); [ring|].
    rewrite T, hlf2. reflexivity.
  - cbv zeta in C. cbn [ln lL lR] in C.
    pose proof (trace_proper n _ _ C) as T. rewrite trace_sc in T. rewrite tdot_tr, T. rewrite <- (hlf2 (trace n (coul s))) at 2. ring.
Qed.

Lemma tr_A : trace n (Amat s 1) = Sum n (sD s) + trace n (coul s) + trace n (xcmat (va_blk K) s).
Proof. unfold Amat. rewrite trace_add, trace_sc, trace_add, trace_dg. ring. Qed.

Lemma tr_half : hlf * (trace n P + trace n M) = trace n (Amat s 1).
Proof. unfold M, P. rewrite trace_add, trace_sub. transitivity (hlf * ((1 + 1) * trace n (Amat s 1))); [ring|apply hlf2]. Qed.

(** Without kernel: minus the sum over the excitations of frequency times squared norm of Y. *)
Theorem C70_energy linear g g1 g2 : sx K s = None ->
  (let '(mp, _, _) := comp_MP s 1 in tr_ok mp g) -> exact_tr g ->
  kernel_energy s linear g g1 g2
  = Ret (- Sum n (fun i => f i * Sum n (fun p => (hlf * (xpy p i - xmy p i)) * (hlf * (xpy p i - xmy p i))))).
Proof.
  intros Hx Hg He. rewrite <- (plasmon K n M P f xpy xmy Hsol hlf Hh), tr_half, tr_A.
  pose proof e3_coul as C. unfold M_RiRpa.kernel_energy. fold n. rewrite (trace_exact g Hg He).
  destruct (apb_eri K s2 s) as [e eneg]. rewrite Hx. unfold xcmat. rewrite Hx.
  assert (Z : trace n (zm : mt) = 0) by (unfold trace; apply Sum_zero).
  rewrite Z. destruct eneg as [[m en]|]; rewrite C; f_equal; f_equal; ring.
Qed.

(** With kernel: the energy the dense solver computes from the same moments, up to the error of the trace. *)
Theorem C70_energy_kernel g g1 g2 x : sx K s = Some x ->
  (let '(mp, apb, _) := comp_MP s 1 in nums f s mp apb (Build_kw K g1 g2 HO false 1)) -> exact n f s (Build_kw K g1 g2 HO false 1) ->
  let XA := xcmat (va_blk K) s in let XB := xcmat (vb_blk K) s in
  kernel_energy s true g g1 g2 = Ret (e_version3 K hlf n (eta K n f xpy 0) P M (madd XA XB) (msub XA XB)
    + hlf * (trMPrt K inv sq s2 hlf ipi minv eig s g - Sum n f)).
Proof.
  intros Hx Hn Hex XA XB.
  pose proof e3_coul as C. unfold M_RiRpa.kernel_energy. fold n. set (tr1 := trMPrt K inv sq s2 hlf ipi minv eig s g).
  pose proof (xc_a s x n Hx) as Xa. pose proof (xc_b s x n Hx) as Xb. fold XA in Xa. fold XB in Xb.
  destruct (apb_eri K s2 s) as [e eneg]. rewrite Hx.
  destruct (ab_xc K s x) as [a b]. cbn [fst snd] in *.
  destruct (C70_moments 0 (Some (lL b)) (Build_kw K g1 g2 HO false 1)) as (moms & Em & _ & Hm); try assumption; try reflexivity; try discriminate.
  rewrite Em. cbn [rbind]. f_equal.
  assert (T : trace (ln b) (mm n (nth 0 moms (fun _ _ => 0)) (tr (lR b))) = trace n (mm n (eta K n f xpy 0) XB)).
  { assert (Q : meq (ln b) n (nth 0 moms (fun _ _ => 0)) (mm n (lL b) (eta K n f xpy 0))) by (apply (Hm 0%nat (le_n 0) (ln b))).
    rewrite (trace_proper (ln b) _ _ (mm_proper (ln b) n (ln b) _ _ Q _ _ (reflexivity (tr (lR b))))).
    rewrite (trace_proper (ln b) _ _ (mm_assoc (ln b) (ln b) n n (lL b) (eta K n f xpy 0) (tr (lR b)))), trace_mm.
    rewrite (trace_proper n _ _ (mm_assoc n n n (ln b) (eta K n f xpy 0) (tr (lR b)) (lL b))).
    rewrite <- (trace_tr n (mm n (eta K n f xpy 0) XB)).
    rewrite (trace_proper n _ _ (tr_mm n n n (eta K n f xpy 0) XB)), <- Xb, tr_mm, tr_tr, eta_sym. apply trace_mm. }
  rewrite T. rewrite (tdot_tr (ln a) (lL a)), (tdot_tr (ln b) (lL b)), Xa, Xb.
  assert (B : meq n n (msc hlf (msub (madd XA XB) (msub XA XB))) XB).
  { intros i j _ _. unfold msc, msub, madd. transitivity (hlf * ((1 + 1) * XB i j)); [ring|apply hlf2]. }
  assert (V : e_version3 K hlf n (eta K n f xpy 0) P M (madd XA XB) (msub XA XB)
     = hlf * (Sum n f - hlf * trace n (mm n (eta K n f xpy 0) XB) - (trace n (Amat s 1) - hlf * trace n XB))).
  { unfold e_version3. cbv zeta. rewrite B. rewrite trace_sub, trace_sub, !trace_sc, trace_add, tr_half. f_equal. f_equal.
    assert (Q : meq n n (mm n (eta K n f xpy 0) (msub P (msc hlf XB)))
        (msub (mm n (eta K n f xpy 0) P) (msc hlf (mm n (eta K n f xpy 0) XB)))) by (rewrite mm_subr, mm_scr; reflexivity).
    rewrite Q, trace_sub, trace_sc, (tr_etaR K n M P f xpy xmy Hsol). reflexivity. }
  rewrite V, tr_A. fold XA.
  destruct eneg as [[m en]|]; rewrite C; ring.
Qed.
End Moms.

(** Q is symmetric for direct RPA without negative part of the integrals. *)
Theorem C70_Q_symmetric (s : sys K) z : sx K s = None -> cneg K (sc K s) = None -> scomp K s = 0%nat ->
  let '(mp, _, _) := comp_MP s 1 in Q_sym (nT s) (sD s) mp z.
Proof.
  intros Hx Hn Hc. unfold M_RiRpa.comp_MP, ri_ab, apb_eri. rewrite Hx, Hn. unfold comp_if. rewrite Hc. cbn [Nat.ltb Nat.leb].
  unfold Q_sym, get_Q, product_RI, lr_sc. cbn [ln lL lR Nat.add]. cbv zeta.
  intros i j Hi Hj. unfold tr, mm, colsc, rcat, madd, msc. cbn [Nat.ltb Nat.leb Sum]. rewrite !Nat.sub_0_r.
  apply Sum_ext. intros p Hp. ring.
Qed.

(** ** The spin-adapted class *)
(** a low-rank form over spin orbitals with the same entries for both spins *)
Definition dup (n : nat) (so sp : lr K) : Prop :=
  ln so = ln sp /\ meq (ln sp) (n + n) (lL so) (ccat K n (lL sp) (lL sp)) /\ meq (ln sp) (n + n) (lR so) (ccat K n (lR sp) (lR sp)).

Lemma ccat_ext n N r (F a b : mt) : (forall i j, (i < r)%nat -> (j < n)%nat -> F i j = a i j) ->
  (forall i j, (i < r)%nat -> (n + j < N)%nat -> F i (n + j)%nat = b i j) -> meq r N F (ccat K n a b).
Proof.
  intros Ha Hb i j Hi Hj. unfold ccat. destruct (Nat.lt_ge_cases j n) as [P|P].
  - rewrite vcat_l by exact P. auto.
  - replace j with (n + (j - n))%nat in * by lia. rewrite vcat_r. auto.
Qed.
Lemma ccat_l n (a b : mt) i j : (j < n)%nat -> ccat K n a b i j = a i j. Proof. intros; unfold ccat; apply vcat_l; assumption. Qed.
Lemma ccat_r n (a b : mt) i j : ccat K n a b i (n + j)%nat = b i j. Proof. unfold ccat; apply vcat_r. Qed.

(** *** Leaving out null eigenvectors *)
Lemma Sum_nth (l : list nat) (f : nat -> K) : Sum (length l) (fun i => f (nth i l 0%nat)) = Lsum l f.
Proof. induction l as [|a l IH]; [reflexivity|]. cbn [length]. rewrite Sum_shift. cbn [nth Lsum]. now rewrite IH. Qed.
Lemma Lsum_filter {A} (b : A -> bool) (l : list A) (f : A -> K) : (forall a, In a l -> b a = false -> f a = 0) -> Lsum (filter b l) f = Lsum l f.
Proof.
  induction l as [|a l IH]; intros H; [reflexivity|]. cbn [filter Lsum]. assert (IH' := IH (fun x Hx => H x (or_intror Hx))).
  destruct (b a) eqn:E; cbn [Lsum]; rewrite IH'; [reflexivity|]. rewrite (H a (or_introl eq_refl) E). ring.
Qed.

Lemma sq_pos (x : K) : x <> 0 -> lt 0 (x * x).
Proof.
  intros H. destruct (ltb_total K 0 x) as [G|[G|G]]; [apply ltb_mul; exact G|congruence|].
  apply lt0_opp in G. replace (x * x) with ((- x) * (- x)) by ring. apply ltb_mul; exact G.
Qed.

(** a sum of squares with positive weights that vanishes has vanishing terms *)
Lemma wsq_nonneg n (x w : vec) : (forall i, (i < n)%nat -> lt 0 (w i)) -> le 0 (Sum n (fun i => x i * x i * w i)).
Proof.
  induction n as [|n IH]; intros Hw; [apply le_refl|]. change (le 0 (Sum n (fun i => x i * x i * w i) + x n * x n * w n)).
  assert (A : le 0 (Sum n (fun i => x i * x i * w i))) by (apply IH; intros; apply Hw; lia).
  assert (B : le 0 (x n * x n * w n)).
  { destruct (ltb_total K (x n) 0) as [G|[G|G]].
    - apply lt_le. apply ltb_mul; [apply sq_pos; intros E; rewrite E in G; rewrite ltb_irrefl in G; discriminate|apply Hw; lia].
    - rewrite G. replace (0 * 0 * w n) with (0 : K) by ring. apply le_refl.
    - apply lt_le. apply ltb_mul; [apply sq_pos; intros E; rewrite E in G; rewrite ltb_irrefl in G; discriminate|apply Hw; lia]. }
  apply (le_tr _ (0 + x n * x n * w n)); [replace (0 + x n * x n * w n) with (x n * x n * w n) by ring; exact B|].
  apply le_add. exact A.
Qed.
Lemma wsq_zero n (x w : vec) : (forall i, (i < n)%nat -> lt 0 (w i)) -> Sum n (fun i => x i * x i * w i) = 0 ->
  forall i, (i < n)%nat -> x i = 0.
Proof.
  induction n as [|n IH]; intros Hw H; [lia|]. change (Sum n (fun i => x i * x i * w i) + x n * x n * w n = 0) in H.
  assert (Hw' : forall i, (i < n)%nat -> lt 0 (w i)) by (intros; apply Hw; lia).
  pose proof (wsq_nonneg n x w Hw') as A.
  assert (E : x n = 0).
  { destruct (ltb_total K (x n) 0) as [G|[G|G]]; [|exact G|]; exfalso;
    (assert (Hx : x n <> 0) by (intros E; rewrite E in G; rewrite ltb_irrefl in G; discriminate));
    pose proof (ltb_mul K _ _ (sq_pos _ Hx) (Hw n (Nat.lt_succ_diag_r n))) as P;
    apply (lt_add _ _ (Sum n (fun i => x i * x i * w i))) in P; apply le_nlt in A; apply A;
    replace (x n * x n * w n + Sum n (fun i => x i * x i * w i)) with (0 : K) in P by (rewrite <- H; ring);
    replace (0 + Sum n (fun i => x i * x i * w i)) with (Sum n (fun i => x i * x i * w i)) in P by ring; exact P. }
  rewrite E in H. assert (H' : Sum n (fun i => x i * x i * w i) = 0) by (rewrite <- H; ring).
  intros i Hi. destruct (Nat.eq_dec i n) as [->|]; [exact E|]. apply IH; [exact Hw'|exact H'|lia].
Qed.

Lemma keep n tol (e : vec) (c : mt) r (X : mt) : meq n n (mm n c (tr c)) idm ->
  (forall i, (i < n)%nat -> ltb tol (e i) = false -> forall j, (j < r)%nat -> mm n (tr c) X i j = 0) ->
  let w := want K n tol e in let rot := fun i j => c i (nth j w 0%nat) in
  meq n r (mm (length w) rot (mm n (tr rot) X)) X.
Proof.
  intros Hc Hz w rot. assert (E : meq n r (mm n c (mm n (tr c) X)) X) by (rewrite <- mm_assoc, Hc; apply mm_idl).
  intros i j Hi Hj. rewrite <- (E i j Hi Hj). transitivity (Sum (length w) (fun k => (fun l => c i l * mm n (tr c) X l j) (nth k w 0%nat))); [reflexivity|].
  rewrite (Sum_nth w (fun l => c i l * mm n (tr c) X l j)). unfold w, want. rewrite Lsum_filter.
  - rewrite Lsum_seq. reflexivity.
  - intros l Hl Hb. apply in_seq in Hl. rewrite (Hz l) by (lia || assumption). ring.
Qed.

(** An eigenvector of X W X^T (W a positive diagonal) with eigenvalue zero is orthogonal to the rows of X. *)
Lemma null_row n m (X c : mt) (w e : vec) : (forall p, (p < m)%nat -> lt 0 (w p)) ->
  eig_ok n (mm m (colsc K X w) (tr X)) (e, c) ->
  forall i, (i < n)%nat -> e i = 0 -> forall j, (j < m)%nat -> mm n (tr c) X i j = 0.
Proof.
  intros Hw (H1 & H2 & _) i Hi He. cbn [fst snd] in *.
  assert (E : meq n n (mm m (mm m (mm n (tr c) X) (dg w)) (tr (mm n (tr c) X))) (dg e)).
  { rewrite tr_mm. change (tr (tr c)) with c. rewrite !mm_assoc.
    assert (Q : meq n n (mm m X (mm m (dg w) (mm n (tr X) c))) (mm n c (dg e))).
    { rewrite <- H1, colsc_dg, !mm_assoc. reflexivity. }
    rewrite Q, <- mm_assoc, H2. apply mm_idl. }
  rewrite <- (colsc_dg K n m (mm n (tr c) X) w) in E. specialize (E i i Hi Hi).
  apply (wsq_zero m (fun j => mm n (tr c) X i j) w Hw).
  transitivity (dg e i i); [|unfold dg, delta; rewrite Nat.eqb_refl, He; ring].
  rewrite <- E. change (Sum m (fun j => mm n (tr c) X i j * mm n (tr c) X i j * w j) = Sum m (fun j => colsc K (mm n (tr c) X) w i j * mm n (tr c) X i j)).
  apply Sum_ext. intros j Hj. unfold colsc. ring.
Qed.

(** Compression does not change the product of the two factors when it drops only null eigenvectors and the factors differ by a
    positive scaling of the columns. *)
Theorem C70_compress n tol (r : lr K) (w : vec) : (forall p, (p < n)%nat -> lt 0 (w p)) ->
  meq (ln r) n (lL r) (colsc K (lR r) w) ->
  eig_ok (ln r) (mm n (lL r) (tr (lR r))) (eig (ln r) (mm n (lL r) (tr (lR r)))) ->
  (forall i, (i < ln r)%nat -> ltb tol (fst (eig (ln r) (mm n (lL r) (tr (lR r)))) i) = false ->
     fst (eig (ln r) (mm n (lL r) (tr (lR r)))) i = 0) ->
  let r' := compress_lr K eig n tol r in
  (ln r' <= ln r)%nat /\ meq n n (mm (ln r') (tr (lL r')) (lR r')) (mm (ln r) (tr (lL r)) (lR r)).
Proof.
  intros Hw HL He Hz. unfold compress_lr. destruct (eig (ln r) (mm n (lL r) (tr (lR r)))) as [e c] eqn:Ee. cbn [fst] in Hz.
  cbv zeta. cbn [ln lL lR]. split.
  { unfold want. rewrite <- (seq_length (ln r) 0) at 2. generalize (seq 0 (ln r)). intros l. clear. induction l as [|a l IH]; [reflexivity|].
    cbn [filter]. destruct (ltb tol (e a)); cbn [length]; lia. }
  assert (He' : eig_ok (ln r) (mm n (colsc K (lR r) w) (tr (lR r))) (e, c)).
  { destruct He as (A & B & C). cbn [fst snd] in *. repeat split; cbn [fst snd]; [rewrite <- HL; exact A|exact B|exact C]. }
  pose proof (keep (ln r) tol e c n (lR r) (proj2 (proj2 He'))) as Q. cbv zeta in Q. cbn [snd] in Q.
  set (ww := want K (ln r) tol e) in *. set (rot := fun i j => c i (nth j ww 0%nat)) in *.
  rewrite tr_mm. change (tr (tr rot)) with rot. rewrite mm_assoc, Q; [reflexivity|].
  intros i Hi Hb j Hj. apply (null_row (ln r) n (lR r) c w e Hw He' i Hi (Hz i Hi Hb) j Hj).
Qed.

Section Spin.
Variables (s : dsys K) (o : nat) (co cv : mt).
Hypothesis Hc : dcomp K s = 0%nat.
Let S := restricted K s o co cv.
Let n := dov K s.
Let D := deps K s.
Notation dcomp_MP := (dcomp_MP K sq s2 eig).
Notation mom0 := (M_RiRpa.mom0 K inv sq ex ipi minv svd eig).
Notation kernel_moms := (M_RiRpa.kernel_moms K inv sq ex s2 hlf ipi minv svd eig).

Lemma nT_S : nT S = (n + n)%nat. Proof. reflexivity. Qed.
Lemma sD_l p : (p < n)%nat -> sD S p = D p.
Proof. intros H. unfold M_RiRpa.sD, S, restricted, M_RiRpa.nA, ova. cbn. apply vcat_l. exact H. Qed.
Lemma sD_r p : sD S (n + p)%nat = D p.
Proof. unfold M_RiRpa.sD, S, restricted, M_RiRpa.nA, ova. cbn. apply (vcat_r K n). Qed.

Lemma forms : dup n (snd (fst (comp_MP S 1))) (snd (dcomp_MP s 1)) /\ dup n (fst (fst (comp_MP S 1))) (fst (dcomp_MP s 1)).
Proof.
  unfold M_RiRpa.comp_MP, M_RiRpa.dcomp_MP, ri_ab, apb_eri, comp_if, dcomp_if.
  change (sx K S) with (@None (rixc K)). change (scomp K S) with (dcomp K s).
  change (cneg K (sc K S)) with (match dneg K s with None => None | Some (m, l) => Some (m, l, l) end).
  change (cn K (sc K S)) with (dn K s). change (ca K (sc K S)) with (dl K s). change (cb K (sc K S)) with (dl K s).
  change (nA S) with n. rewrite Hc. cbn [Nat.ltb Nat.leb].
  destruct (dneg K s) as [[m l]|]; cbn [fst snd]; unfold dup, product_RI, lr_sc, lcat; cbn [ln lL lR Nat.add].
  - split; (split; [reflexivity|]); split; apply ccat_ext; intros i j Hi Hj;
      unfold rcat, colsc, mneg, madd, msc, mm; change (i <? 0)%nat with false; cbv iota; cbn [Sum]; rewrite ?Nat.sub_0_r;
      rewrite ?ccat_r; rewrite ?(ccat_l n) by exact Hj; rewrite ?sD_r; rewrite ?sD_l by exact Hj;
      fold D; destruct (i <? dn K s)%nat; ring.
  - split; (split; [reflexivity|]); split; apply ccat_ext; intros i j Hi Hj;
      unfold rcat, colsc, mneg, madd, msc, mm; change (i <? 0)%nat with false; cbv iota; cbn [Sum]; rewrite ?Nat.sub_0_r;
      rewrite ?ccat_r; rewrite ?(ccat_l n) by exact Hj; rewrite ?sD_r; rewrite ?sD_l by exact Hj;
      fold D; ring.
Qed.

Definition shift (rot : mt) : mt := fun i j => rot i (n + j)%nat.

Lemma lhs_dup r rot (X x : lr K) (Fs Fd : vec) : dup n X x ->
  (forall p, (p < n)%nat -> Fs p = Fd p) -> (forall p, (p < n)%nat -> Fs (n + p)%nat = Fd p) ->
  meq r (ln x) (mm (n + n) (colsc K rot Fs) (tr (lL X))) (mm n (colsc K (madd rot (shift rot)) Fd) (tr (lL x))).
Proof.
  intros (E1 & E2 & _) H1 H2' i j Hi Hj. unfold mm. rewrite Sum_split, <- Sum_add. apply Sum_ext. intros p Hp.
  unfold colsc, tr, madd, shift. rewrite (E2 j p), (E2 j (n + p)%nat), ccat_r, (ccat_l n), H1, H2' by lia. ring.
Qed.

Lemma rhs_dup (X x : lr K) (Fs Fd : vec) r (A : mt) : dup n X x ->
  (forall p, (p < n)%nat -> Fs p = Fd p) -> (forall p, (p < n)%nat -> Fs (n + p)%nat = Fd p) ->
  meq r (n + n) (mm (ln x) A (colsc K (lR X) Fs)) (ccat K n (mm (ln x) A (colsc K (lR x) Fd)) (mm (ln x) A (colsc K (lR x) Fd))).
Proof.
  intros (E1 & _ & E2) H1 H2'. apply ccat_ext; intros i j Hi Hj; unfold mm; apply Sum_ext; intros l Hl; unfold colsc.
  - rewrite (E2 l j), (ccat_l n), H1 by lia. reflexivity.
  - rewrite (E2 l (n + j)%nat), ccat_r, H2' by lia. reflexivity.
Qed.

Lemma Q_dup (X x : lr K) z : dup n X x -> meq (ln x) (ln x) (get_Q K inv (n + n) (sD S) X z) (dQ K inv n D x z).
Proof.
  intros (E1 & E2 & E3) i j Hi Hj. unfold get_Q, dQ, mm, msc. rewrite Sum_split.
  transitivity (Sum n (fun l => lR x i l * tr (colsc K (lL x) (get_F K inv D z)) l j)
    + Sum n (fun l => lR x i l * tr (colsc K (lL x) (get_F K inv D z)) l j)); [|unfold get_Q, mm; ring].
  f_equal; apply Sum_ext; intros p Hp; unfold tr, colsc, get_F.
  - rewrite (E3 i p), (E2 j p), !(ccat_l n), sD_l by lia. reflexivity.
  - rewrite (E3 i (n + p)%nat), (E2 j (n + p)%nat), !ccat_r, sD_r by lia. reflexivity.
Qed.

(** The inverses taken by the two classes exist. *)
Definition both_ok (X x : lr K) (z : K) : Prop :=
  is_inv (ln X) (madd idm (get_Q K inv (n + n) (sD S) X z)) (minv (ln X) (madd idm (get_Q K inv (n + n) (sD S) X z))) /\
  is_inv (ln x) (madd idm (dQ K inv n D x z)) (minv (ln x) (madd idm (dQ K inv n D x z))).

Lemma va_dup (X x : lr K) z : dup n X x -> both_ok X x z ->
  meq (ln x) (ln x) (minv (ln X) (madd idm (get_Q K inv (n + n) (sD S) X z))) (minv (ln x) (madd idm (dQ K inv n D x z))).
Proof.
  intros Hd [[A1 A2] [B1 B2]]. pose proof (Q_dup X x z Hd) as HQ. destruct Hd as (E1 & _). rewrite E1 in *.
  apply (inv_unique K (ln x) (madd idm (dQ K inv n D x z))); [|exact B2]. rewrite <- HQ. exact A1.
Qed.

Lemma F_l z p : (p < n)%nat -> get_F K inv (sD S) z p = get_F K inv D z p.
Proof. intros H. unfold get_F. rewrite sD_l by exact H. reflexivity. Qed.
Lemma F_r z p : (p < n)%nat -> get_F K inv (sD S) z (n + p)%nat = get_F K inv D z p.
Proof. intros H. unfold get_F. rewrite sD_r. reflexivity. Qed.

Lemma HO_dup (X x : lr K) z r rot : dup n X x -> both_ok X x z ->
  let Y := contrib_HO K inv ipi minv n (dQ K inv n D x z) D x (madd rot (shift rot)) z in
  meq r (n + n) (contrib_HO K inv ipi minv (n + n) (get_Q K inv (n + n) (sD S) X z) (sD S) X rot z) (ccat K n Y Y).
Proof.
  intros Hd Hb Y. unfold contrib_HO. cbv zeta.
  pose proof (va_dup X x z Hd Hb) as Hv. pose proof (lhs_dup r rot X x _ _ Hd (F_l z) (F_r z)) as Hl.
  assert (E1 : ln X = ln x) by apply Hd. rewrite E1 in *.
  set (W1 := minv (ln x) (madd idm (get_Q K inv (n + n) (sD S) X z))) in *.
  set (W2 := minv (ln x) (madd idm (dQ K inv n D x z))) in *.
  assert (E : meq r (n + n) (mm (ln x) (mm (ln x) (mm (n + n) (colsc K rot (get_F K inv (sD S) z)) (tr (lL X))) (msub W1 idm)) (colsc K (lR X) (get_F K inv (sD S) z)))
    (ccat K n (mm (ln x) (mm (ln x) (mm n (colsc K (madd rot (shift rot)) (get_F K inv D z)) (tr (lL x))) (msub W2 idm)) (colsc K (lR x) (get_F K inv D z)))
              (mm (ln x) (mm (ln x) (mm n (colsc K (madd rot (shift rot)) (get_F K inv D z)) (tr (lL x))) (msub W2 idm)) (colsc K (lR x) (get_F K inv D z))))).
  { rewrite Hl, Hv. apply rhs_dup; [exact Hd|apply F_l|apply F_r]. }
  apply ccat_ext; intros i j Hi Hj.
  - rewrite (E i j Hi) by lia. rewrite (ccat_l n) by exact Hj. reflexivity.
  - rewrite (E i (n + j)%nat Hi) by lia. rewrite ccat_r. reflexivity.
Qed.

Lemma off_dup (X x : lr K) z r rot : dup n X x ->
  let Y := contrib_off K ex n D x (madd rot (shift rot)) z in
  meq r (n + n) (contrib_off K ex (n + n) (sD S) X rot z) (ccat K n Y Y).
Proof.
  intros Hd Y. unfold contrib_off. cbv zeta.
  assert (Fl : forall p, (p < n)%nat -> ex (- (z * sD S p)) = ex (- (z * D p))) by (intros p Hp; rewrite sD_l by exact Hp; reflexivity).
  assert (Fr : forall p, (p < n)%nat -> ex (- (z * sD S (n + p)%nat)) = ex (- (z * D p))) by (intros p Hp; rewrite sD_r; reflexivity).
  pose proof (lhs_dup r rot X x (fun p => ex (- (z * sD S p))) (fun p => ex (- (z * D p))) Hd Fl Fr) as Hl.
  assert (E1 : ln X = ln x) by apply Hd. rewrite E1 in *.
  rewrite Hl. apply (rhs_dup X x (fun p => ex (- (z * sD S p))) (fun p => ex (- (z * D p)))); assumption.
Qed.

Lemma ni_ccat g r (F : K -> mt) (Y : K -> mt) : (forall pw, In pw g -> meq r (n + n) (F (fst pw)) (ccat K n (Y (fst pw)) (Y (fst pw)))) ->
  meq r (n + n) (ni K g F) (ccat K n (ni K g Y) (ni K g Y)).
Proof.
  intros H. apply ccat_ext; intros i j Hi Hj; unfold ni; apply Lsum_ext; intros pw Hpw.
  - rewrite (H pw Hpw i j Hi) by lia. rewrite (ccat_l n) by exact Hj. reflexivity.
  - rewrite (H pw Hpw i (n + j)%nat Hi) by lia. rewrite ccat_r. reflexivity.
Qed.

(** *** The spin-independent part *)
Definition Iint (x : lr K) (rot : mt) (a : kw K) : mt :=
  madd (ni K (gi K a) (fun z => contrib_HO K inv ipi minv n (dQ K inv n D x z) D x rot z)) (ni K (gl K a) (contrib_off K ex n D x rot)).

Definition u_ok (y : lr K) : Prop :=
  let U := msc (1 + 1) (mm n (colsc K (lL y) (fun p => inv (D p))) (tr (lR y))) in
  is_inv (ln y) (madd idm U) (minv (ln y) (madd idm U)).

Lemma si_eq (x y : lr K) rt a r : hlf + hlf = 1 -> (forall p, (p < n)%nat -> D p * inv (D p) = 1) -> u_ok y ->
  meq n n (mm (ln y) (tr (lR y)) (lL y)) (mm (ln y) (tr (lL y)) (lR y)) ->
  let si := dmom0_si K inv ex ipi minv s x y rt a in
  meq r n (madd (colsc K si D) (mm n (madd rt (msc (1 + 1) si)) (mm (ln y) (tr (lL y)) (lR y)))) (Iint x rt a).
Proof.
  intros Hh Hd Hu Hs si. set (I := Iint x rt a) in *. set (Di := fun p => inv (D p)) in *.
  set (u := minv (ln y) (madd idm (msc (1 + 1) (mm n (colsc K (lL y) Di) (tr (lR y)))))) in *.
  set (Z := madd (colsc K rt D) (msc (1 + 1) I)).
  set (T := mm n (dg Di) (mm (ln y) (tr (lR y)) (mm (ln y) u (mm n (lL y) (dg Di))))).
  assert (Es : meq r n si (msub (mm n I (dg Di)) (mm n Z T))).
  { unfold si, dmom0_si. fold n D. cbv zeta. fold (Iint x rt a). fold I. fold Di. fold u. fold Z.
    assert (Q : meq n (ln y) (tr (colsc K (lR y) Di)) (mm n (dg Di) (tr (lR y)))) by (rewrite colsc_dg, tr_mm, tr_dg; reflexivity).
    rewrite Q, !colsc_dg. unfold T. rewrite !mm_assoc. reflexivity. }
  assert (Hu' : P_RiRpa.is_inv K (ln y) (madd idm (mm n (mm n (lL y) (dg Di)) (msc (1 + 1) (tr (lR y))))) u).
  { destruct Hu as [U1 U2]. split; rewrite mm_scr, <- colsc_dg; assumption. }
  destruct (woodbury K n (ln y) (dg D) (dg Di) (msc (1 + 1) (tr (lR y))) (lL y) u (dg_inv K n D Di Hd) Hu') as [_ W2].
  assert (Ew : meq n n (msub (dg Di) (mm n (dg Di) (mm (ln y) (msc (1 + 1) (tr (lR y))) (mm (ln y) u (mm n (lL y) (dg Di))))))
     (msub (dg Di) (msc (1 + 1) T))).
  { rewrite mm_scl, mm_scr. reflexivity. }
  rewrite Ew, mm_scl, Hs in W2. set (V := mm (ln y) (tr (lL y)) (lR y)) in *.
  assert (Er : meq r n (madd rt (msc (1 + 1) si)) (mm n Z (msub (dg Di) (msc (1 + 1) T)))).
  { assert (Q : meq r n (mm n Z (dg Di)) (madd rt (msc (1 + 1) (mm n I (dg Di))))).
    { unfold Z. rewrite mm_addl, mm_scl, colsc_dg, mm_assoc.
      destruct (dg_inv K n D Di Hd) as [N _]. rewrite N, mm_idr. reflexivity. }
    rewrite mm_subr, mm_scr, Q, Es. intros i j _ _. unfold madd, msub, msc. ring. }
  assert (Ez : meq r n (mm n (madd rt (msc (1 + 1) si)) (madd (dg D) (msc (1 + 1) V))) Z).
  { rewrite Er, mm_assoc, W2, mm_idr. reflexivity. }
  intros i j Hi Hj. specialize (Ez i j Hi Hj).
  assert (Q : meq r n (mm n (madd rt (msc (1 + 1) si)) (madd (dg D) (msc (1 + 1) V)))
     (madd (colsc K (madd rt (msc (1 + 1) si)) D) (msc (1 + 1) (mm n (madd rt (msc (1 + 1) si)) V)))) by (rewrite mm_addr, mm_scr, colsc_dg; reflexivity).
  rewrite (Q i j Hi Hj) in Ez. unfold Z in Ez. unfold madd at 1. unfold madd at 1 in Ez. unfold madd at 3 in Ez.
  unfold colsc, msc at 2, msc at 3 in Ez. set (v := mm n (madd rt (msc (1 + 1) si)) V i j) in *.
  transitivity (hlf * ((1 + 1) * (colsc K si D i j + v))).
  { transitivity ((hlf + hlf) * (colsc K si D i j + v)); [rewrite Hh; ring|ring]. }
  transitivity (hlf * (madd rt (msc (1 + 1) si) i j * D j + (1 + 1) * v - rt i j * D j)).
  { unfold madd, msc, colsc. ring. }
  transitivity (hlf * ((1 + 1) * I i j)). 2:{ transitivity ((hlf + hlf) * I i j); [ring|rewrite Hh; ring]. }
  f_equal. rewrite Ez. unfold msc. ring.
Qed.

(** *** Everything is linear in the rows of the rotation *)
Lemma HO_lin (x : lr K) Q z r rot : meq r n (contrib_HO K inv ipi minv n Q D x rot z) (mm n rot (contrib_HO K inv ipi minv n Q D x idm z)).
Proof.
  unfold contrib_HO. cbv zeta. set (va := msub _ _). set (Fz := get_F K inv D z).
  assert (E : forall r' rot', meq r' n (mm (ln x) (mm (ln x) (mm n (colsc K rot' Fz) (tr (lL x))) va) (colsc K (lR x) Fz))
     (mm n rot' (mm n (dg Fz) (mm (ln x) (tr (lL x)) (mm (ln x) va (colsc K (lR x) Fz)))))).
  { intros r' rot'. rewrite (colsc_dg K r' n rot' Fz), !mm_assoc. reflexivity. }
  intros i j Hi Hj. rewrite (E r rot i j Hi Hj). set (Y := mm n (dg Fz) _) in *.
  unfold mm at 2. unfold mm at 1. rewrite <- Sum_mul_l, <- Sum_mul_r. apply Sum_ext. intros p Hp.
  rewrite (E n idm p j Hp Hj). rewrite (mm_idl n n Y p j Hp Hj). ring.
Qed.

Lemma off_lin (x : lr K) z r rot : meq r n (contrib_off K ex n D x rot z) (mm n rot (contrib_off K ex n D x idm z)).
Proof.
  unfold contrib_off. cbv zeta. set (Fz := fun p => ex (- (z * D p))).
  rewrite (colsc_dg K r n rot Fz), (colsc_dg K n n idm Fz), mm_idl, !mm_assoc. reflexivity.
Qed.

Lemma ni_lin g r rot (F F1 : K -> mt) : (forall pw, In pw g -> meq r n (F (fst pw)) (mm n rot (F1 (fst pw)))) ->
  meq r n (ni K g F) (mm n rot (ni K g F1)).
Proof.
  intros H i j Hi Hj. unfold ni at 1.
  transitivity (Lsum g (fun pw => Sum n (fun p => rot i p * (snd pw * F1 (fst pw) p j)))).
  { apply Lsum_ext. intros pw Hpw. rewrite (H pw Hpw i j Hi Hj). unfold mm. rewrite <- Sum_mul_l. apply Sum_ext. intros; ring. }
  rewrite Lsum_Sum. unfold mm. apply Sum_ext. intros p Hp. rewrite Lsum_mul_l. reflexivity.
Qed.

Lemma Iint_lin (x : lr K) a r rot : meq r n (Iint x rot a) (mm n rot (Iint x idm a)).
Proof.
  unfold Iint. rewrite mm_addr.
  rewrite (ni_lin (gi K a) r rot (fun z => contrib_HO K inv ipi minv n (dQ K inv n D x z) D x rot z)
    (fun z => contrib_HO K inv ipi minv n (dQ K inv n D x z) D x idm z)) by (intros pw Hpw; apply HO_lin).
  rewrite (ni_lin (gl K a) r rot (contrib_off K ex n D x rot) (contrib_off K ex n D x idm)) by (intros pw Hpw; apply off_lin).
  reflexivity.
Qed.

Lemma si_lin (x y : lr K) a r rot : meq r n (dmom0_si K inv ex ipi minv s x y rot a) (mm n rot (dmom0_si K inv ex ipi minv s x y idm a)).
Proof.
  unfold dmom0_si. fold n D. cbv zeta. fold (Iint x rot a). fold (Iint x idm a).
  set (u := minv _ _). set (ei := fun p => inv (D p)).
  rewrite (colsc_dg K r n (Iint x rot a) ei), (colsc_dg K n n (Iint x idm a) ei), (colsc_dg K r n rot D), (colsc_dg K n n idm D), mm_idl.
  rewrite (Iint_lin x a r rot), mm_subr.
  assert (E : meq r n (madd (mm n rot (dg D)) (msc (1 + 1) (mm n rot (Iint x idm a)))) (mm n rot (madd (dg D) (msc (1 + 1) (Iint x idm a)))))
    by (rewrite mm_addr, mm_scr; reflexivity).
  rewrite E, !mm_assoc. reflexivity.
Qed.

Lemma si_ext (x y : lr K) a r rot rot' : meq r n rot rot' ->
  meq r n (dmom0_si K inv ex ipi minv s x y rot a) (dmom0_si K inv ex ipi minv s x y rot' a).
Proof. intros H. rewrite (si_lin x y a r rot), (si_lin x y a r rot'), H. reflexivity. Qed.

(** *** The zeroth moment of the spin-orbital class *)
Lemma lhs_dup0 r (m : mt) (X x : lr K) : dup n X x ->
  meq r (ln x) (mm (n + n) m (tr (lL X))) (mm n (madd m (shift m)) (tr (lL x))).
Proof.
  intros (E1 & E2 & _) i j Hi Hj. unfold mm. rewrite Sum_split, <- Sum_add. apply Sum_ext. intros p Hp.
  unfold tr, madd, shift. rewrite (E2 j p), (E2 j (n + p)%nat), ccat_r, (ccat_l n) by lia. ring.
Qed.
Lemma rhs_dup0 (X x : lr K) r (A : mt) : dup n X x ->
  meq r (n + n) (mm (ln x) A (lR X)) (ccat K n (mm (ln x) A (lR x)) (mm (ln x) A (lR x))).
Proof.
  intros (E1 & _ & E2). apply ccat_ext; intros i j Hi Hj; unfold mm; apply Sum_ext; intros l Hl.
  - rewrite (E2 l j), (ccat_l n) by lia. reflexivity.
  - rewrite (E2 l (n + j)%nat), ccat_r by lia. reflexivity.
Qed.

Definition cand (x y : lr K) (rot : mt) (a : kw K) : mt :=
  let si := dmom0_si K inv ex ipi minv s x y (madd rot (shift rot)) a in
  ccat K n (madd rot si) (madd (shift rot) si).

(** The inverses and roots both classes need. *)
Definition spin_nums (X Y x y : lr K) (a : kw K) : Prop :=
  (forall p, (p < n)%nat -> D p * inv (D p) = 1) /\
  (let U := mm (nT S) (colsc K (lR Y) (fun p => inv (sD S p))) (tr (lL Y)) in
   is_inv (ln Y) (madd idm U) (minv (ln Y) (madd idm U)) /\ svd_ok (ln Y) (minv (ln Y) (madd idm U))) /\
  u_ok y /\
  (forall pw, In pw (gi K a) -> both_ok X x (fst pw)).

Lemma mom0_dup (X Y x y : lr K) rot a r : hlf + hlf = 1 -> dup n X x -> dup n Y y ->
  meq n n (mm (ln y) (tr (lR y)) (lL y)) (mm (ln y) (tr (lL y)) (lR y)) ->
  kd K a = HO -> adaptive K a = false -> spin_nums X Y x y a ->
  exists m, mom0 S X Y rot a = Ret m /\ meq r (n + n) m (cand x y rot a).
Proof.
  intros Hh HX HY Hs Hk Had (Hd & HU & Hu & Hb). unfold M_RiRpa.mom0. rewrite Hk, Had. cbn [rbind]. eexists. split; [reflexivity|].
  change (nT S) with (n + n)%nat in *.
  assert (Hd' : forall p, (p < n + n)%nat -> sD S p * inv (sD S p) = 1).
  { intros p Hp. destruct (Nat.lt_ge_cases p n) as [G|G]; [rewrite sD_l by exact G; apply Hd; exact G|].
    replace p with (n + (p - n))%nat by lia. rewrite sD_r. apply Hd. lia. }
  destruct (C70_inverse (n + n) (sD S) Y Hd' (proj1 HU) (proj2 HU)) as [W _].
  apply (right_cancel K r (n + n) _ _ (full (sD S) Y) _ W).
  assert (Hc5 : (scomp K S <= 5)%nat) by (change (scomp K S) with (dcomp K s); rewrite Hc; lia).
  rewrite (mult_inv (n + n) S Y r _ Hc5 eq_refl Hd' HU).
  set (rt := madd rot (shift rot)). set (si := dmom0_si K inv ex ipi minv s x y rt a).
  assert (L : meq r (n + n) (mm (n + n) (cand x y rot a) (full (sD S) Y))
     (ccat K n (madd (colsc K rot D) (Iint x rt a)) (madd (colsc K (shift rot) D) (Iint x rt a)))).
  { unfold P_RiRpa.full. rewrite mm_addr, <- (colsc_dg K r (n + n)), <- mm_assoc.
    assert (E1 : ln Y = ln y) by apply HY. rewrite E1.
    rewrite (lhs_dup0 r (cand x y rot a) Y y HY).
    assert (E2 : meq r n (madd (cand x y rot a) (shift (cand x y rot a))) (madd rt (msc (1 + 1) si))).
    { intros i j Hi Hj. unfold cand, shift, madd at 1. cbv zeta. rewrite ccat_r, (ccat_l n) by exact Hj. 
      change (rot i j + si i j + (rot i (n + j)%nat + si i j) = rot i j + rot i (n + j)%nat + (1 + 1) * si i j). ring. }
    rewrite E2. rewrite (rhs_dup0 Y y r _ HY).
    pose proof (si_eq x y rt a r Hh Hd Hu Hs) as Q. cbv zeta in Q. fold si in Q.
    rewrite <- mm_assoc in Q.
    apply ccat_ext; intros i j Hi Hj; assert (Hj' : (j < n)%nat) by lia; specialize (Q i j Hi Hj'); unfold madd at 1; unfold madd at 1 in Q.
    - rewrite (ccat_l n) by exact Hj. change (madd (colsc K rot D) (Iint x rt a) i j) with (rot i j * D j + Iint x rt a i j). rewrite <- Q.
      unfold colsc. rewrite sD_l by exact Hj. unfold cand. cbv zeta. rewrite (ccat_l n) by exact Hj. fold rt. fold si.
      change (madd rot si i j) with (rot i j + si i j). ring.
    - rewrite ccat_r. change (madd (colsc K (shift rot) D) (Iint x rt a) i j) with (shift rot i j * D j + Iint x rt a i j). rewrite <- Q.
      unfold colsc. rewrite sD_r. unfold cand. cbv zeta. rewrite ccat_r. fold rt. fold si.
      change (madd (shift rot) si i j) with (shift rot i j + si i j). ring. }
  rewrite L.
  assert (G1 : meq r (n + n) (ni K (gi K a) (fun z => contrib_HO K inv ipi minv (n + n) (get_Q K inv (n + n) (sD S) X z) (sD S) X rot z))
    (ccat K n (ni K (gi K a) (fun z => contrib_HO K inv ipi minv n (dQ K inv n D x z) D x rt z)) (ni K (gi K a) (fun z => contrib_HO K inv ipi minv n (dQ K inv n D x z) D x rt z)))).
  { apply ni_ccat. intros pw Hpw. apply HO_dup; [exact HX|apply Hb; exact Hpw]. }
  assert (G2 : meq r (n + n) (ni K (gl K a) (contrib_off K ex (n + n) (sD S) X rot))
    (ccat K n (ni K (gl K a) (contrib_off K ex n D x rt)) (ni K (gl K a) (contrib_off K ex n D x rt)))).
  { apply ni_ccat. intros pw Hpw. apply off_dup. exact HX. }
  rewrite G1, G2. apply ccat_ext; intros i j Hi Hj; unfold madd at 1 2.
  - rewrite !(ccat_l n) by exact Hj. unfold Iint, madd, colsc. rewrite sD_l by exact Hj. ring.
  - rewrite !ccat_r. unfold Iint, madd, colsc. rewrite sD_r. unfold shift. ring.
Qed.

(** *** Targets *)
(** The rotation over spin orbitals a target stands for: one over spatial orbitals is one of the first spin. *)
Definition so_rot (t : trot K) : mt := if tspin K t then tm K t else ccat K n (tm K t) zm.
Definition stack (t : trot K) : mt := rcat K (tn K t) (tm K t) (shift (tm K t)).
(** The compression of a spin-orbital target leaves out null eigenvectors only. *)
Definition trot_ok (ttol : K) (t : trot K) : Prop :=
  tspin K t = true ->
  let N := (tn K t + tn K t)%nat in let G := mm n (stack t) (tr (stack t)) in
  eig_ok N G (eigh N G) /\ (forall i, (i < N)%nat -> ltb ttol (fst (eigh N G) i) = false -> fst (eigh N G) i = 0).

Lemma one_pos : lt 0 (1 : K) \/ (1 : K) = 0.
Proof.
  destruct (ltb_total K 0 1) as [H|[H|H]]; [left; exact H|right; symmetry; exact H|left].
  apply lt0_opp in H. replace (1 : K) with ((- (1)) * (- (1)) : K) by ring. apply ltb_mul; exact H.
Qed.

Lemma comp_trot_ok N tol (X : mt) (Y : mt -> mt) : (forall r' Z, meq r' n (Y Z) (mm n Z (Y idm))) ->
  eig_ok N (mm n X (tr X)) (eigh N (mm n X (tr X))) ->
  (forall i, (i < N)%nat -> ltb tol (fst (eigh N (mm n X (tr X))) i) = false -> fst (eigh N (mm n X (tr X))) i = 0) ->
  let '(m, r, back) := comp_trot K eigh n N tol X in
  meq N n (match back with None => r | Some (m, c) => mm m c r end) X /\
  meq N n (match back with None => Y r | Some (m, c) => mm m c (Y r) end) (Y X).
Proof.
  intros HY He Hz. unfold comp_trot. destruct (eigh N (mm n X (tr X))) as [e c] eqn:Ee. cbn [fst] in Hz.
  destruct (length (want K N tol e) =? n)%nat; [split; reflexivity|].
  assert (Hn : forall i, (i < N)%nat -> ltb tol (e i) = false -> forall j, (j < n)%nat -> mm N (tr c) X i j = 0).
  { intros i Hi Hb j Hj. destruct one_pos as [H1|H1].
    - apply (null_row N n X c (fun _ => 1) e); auto.
      destruct He as (A & B & C). cbn [fst snd] in *. repeat split; cbn [fst snd]; [|exact B|exact C].
      rewrite <- A. intros p q _ _. unfold mm. apply Sum_ext. intros k _. f_equal. apply Sum_ext. intros k' _. unfold colsc. ring.
    - transitivity (mm N (tr c) X i j * 1); [ring|rewrite H1; ring]. }
  pose proof (keep N tol e c n X (proj2 (proj2 He)) Hn) as Q. cbv zeta in Q.
  split; [exact Q|]. rewrite (HY _ (mm N _ X)), <- mm_assoc, Q, <- HY. reflexivity.
Qed.

Lemma dmom0_spec (x y : lr K) ttol t a : kd K a = HO -> adaptive K a = false -> trot_ok ttol t ->
  exists m, dmom0 K inv ex ipi minv eigh s ttol x y t false a = Ret m /\ meq (tn K t) (n + n) m (cand x y (so_rot t) a).
Proof.
  intros Hk Had Ht. unfold dmom0. rewrite Hk, Had. unfold trot_ok in Ht. unfold so_rot. fold n. fold (shift (tm K t)). fold (stack t).
  destruct (tspin K t).
  2:{ eexists. split; [reflexivity|]. unfold cand. cbv zeta.
    assert (E : meq (tn K t) n (madd (ccat K n (tm K t) zm) (shift (ccat K n (tm K t) zm))) (tm K t)).
    { intros i j Hi Hj. unfold madd, shift. rewrite ccat_r, (ccat_l n) by exact Hj. unfold zm. ring. }
    apply (si_ext x y a) in E. apply ccat_ext; intros i j Hi Hj; assert (Hj' : (j < n)%nat) by lia; specialize (E i j Hi Hj').
    - rewrite (ccat_l n) by exact Hj. unfold madd at 1 2. rewrite E, (ccat_l n) by exact Hj. reflexivity.
    - rewrite ccat_r. unfold madd at 1. rewrite E. unfold shift. rewrite ccat_r. unfold zm. ring. }
  destruct (Ht eq_refl) as [He Hz]. clear Ht.
  pose proof (comp_trot_ok (tn K t + tn K t) ttol (stack t) (fun r => dmom0_si K inv ex ipi minv s x y r a)
    (fun r' Z => si_lin x y a r' Z) He Hz) as Q.
  destruct (comp_trot K eigh n (tn K t + tn K t) ttol (stack t)) as [[m r] back].
  set (pr := match back with None => (r, dmom0_si K inv ex ipi minv s x y r a) | Some (m, c) => (mm m c r, mm m c (dmom0_si K inv ex ipi minv s x y r a)) end).
  assert (Q1 : meq (tn K t + tn K t) n (fst pr) (stack t)) by (unfold pr; destruct back as [[m' c]|]; apply Q).
  assert (Q2 : meq (tn K t + tn K t) n (snd pr) (dmom0_si K inv ex ipi minv s x y (stack t) a)) by (unfold pr; destruct back as [[m' c]|]; apply Q).
  destruct pr as [r1 si1]. cbn [fst snd] in Q1, Q2. cbv zeta.
  assert (Ek : ((tn K t + tn K t) / 2 = tn K t)%nat) by (replace (tn K t + tn K t)%nat with (tn K t * 2)%nat by lia; apply Nat.div_mul; lia).
  rewrite Ek. eexists. split; [reflexivity|].
  rewrite (si_lin x y a _ (stack t)) in Q2.
  set (W := dmom0_si K inv ex ipi minv s x y idm a) in *.
  assert (Es : meq (tn K t) n (fun i j => si1 i j + si1 (tn K t + i)%nat j) (dmom0_si K inv ex ipi minv s x y (madd (tm K t) (shift (tm K t))) a)).
  { rewrite (si_lin x y a _ (madd _ _)). fold W. intros i j Hi Hj. rewrite (Q2 i j), (Q2 (tn K t + i)%nat j) by lia.
    unfold mm. rewrite <- Sum_add. apply Sum_ext. intros p Hp. unfold stack, rcat, madd.
    rewrite (proj2 (Nat.ltb_lt i (tn K t))) by exact Hi. rewrite (proj2 (Nat.ltb_ge (tn K t + i) (tn K t))) by lia.
    replace (tn K t + i - tn K t)%nat with i by lia. ring. }
  unfold cand. cbv zeta. apply ccat_ext; intros i j Hi Hj; assert (Hj' : (j < n)%nat) by lia; specialize (Es i j Hi Hj').
  - rewrite (ccat_l n) by exact Hj. unfold madd at 1. rewrite <- Es. rewrite (Q1 i j) by lia. unfold stack, rcat.
    rewrite (proj2 (Nat.ltb_lt i (tn K t))) by exact Hi. ring.
  - rewrite ccat_r. unfold madd at 1. rewrite <- Es. rewrite (Q1 (tn K t + i)%nat j) by lia. unfold stack, rcat.
    rewrite (proj2 (Nat.ltb_ge (tn K t + i) (tn K t))) by lia. replace (tn K t + i - tn K t)%nat with i by lia. ring.
Qed.

(** *** The recursion *)
Definition so_step (X : lr K) (m : mt) : mt :=
  madd (colsc K m (fun p => sD S p * sD S p)) (mm (ln X) (mm (n + n) m (tr (lR X))) (lL X)).

Lemma step_dup (X x : lr K) r m : dup n X x ->
  let vv := mm (ln x) (mm n (madd m (shift m)) (tr (lR x))) (lL x) in
  meq r (n + n) (so_step X m) (ccat K n (madd vv (colsc K m (fun p => D p * D p))) (madd vv (colsc K (shift m) (fun p => D p * D p)))).
Proof.
  intros H vv. unfold so_step. assert (E1 : ln X = ln x) by apply H. rewrite E1.
  set (X' := {| ln := ln X; lL := lR X; lR := lL X |}). set (x' := {| ln := ln x; lL := lR x; lR := lL x |}).
  assert (H' : dup n X' x') by (destruct H as (A & B & C); repeat split; assumption).
  pose proof (lhs_dup0 r m X' x' H') as L. cbn [X' x' ln lL lR] in L. rewrite L.
  pose proof (rhs_dup0 X' x' r (mm n (madd m (shift m)) (tr (lR x))) H') as R. cbn [X' x' ln lL lR] in R. rewrite R. fold vv.
  apply ccat_ext; intros i j Hi Hj; unfold madd, colsc.
  - rewrite (ccat_l n), sD_l by exact Hj. ring.
  - rewrite ccat_r, sD_r. unfold shift. ring.
Qed.

Lemma step_ext (X : lr K) r m m' : meq r (n + n) m m' -> meq r (n + n) (so_step X m) (so_step X m').
Proof. intros H. unfold so_step. rewrite !(colsc_dg K r (n + n)), H. reflexivity. Qed.

Lemma nth_map_seq (F : nat -> mt) k i : (i <= k)%nat -> nth i (map F (seq 0 (Datatypes.S k))) zm = F i.
Proof.
  intros H. rewrite (nth_indep _ zm (F 0%nat)) by (rewrite map_length, seq_length; lia).
  rewrite map_nth, seq_nth by lia. reflexivity.
Qed.

Lemma V_sym : let y := snd (dcomp_MP s 1) in meq n n (mm (ln y) (tr (lR y)) (lL y)) (mm (ln y) (tr (lL y)) (lR y)).
Proof.
  unfold M_RiRpa.dcomp_MP, dcomp_if. rewrite Hc. cbn [Nat.ltb Nat.leb]. destruct (dneg K s) as [[m l]|]; cbn [snd ln lL lR];
    intros i j _ _; unfold mm, tr; apply Sum_ext; intros k _; unfold rcat, mneg; [destruct (k <? dn K s)%nat|]; ring.
Qed.

Lemma amb_0 : ln (snd (comp_MP S 1)) = 0%nat.
Proof.
  unfold M_RiRpa.comp_MP, ri_ab, comp_if. change (sx K S) with (@None (rixc K)). change (scomp K S) with (dcomp K s). rewrite Hc.
  cbn [Nat.ltb Nat.leb]. destruct (apb_eri K s2 S) as [e [[m en]|]]; reflexivity.
Qed.

Definition the_target (target : option (trot K)) (spatial : bool) : trot K :=
  match target with
  | None => if spatial then Build_trot K n false idm else Build_trot K (n + n) true idm
  | Some t => t end.
Definition forms_ok (a : kw K) : Prop :=
  spin_nums (fst (fst (comp_MP S 1))) (snd (fst (comp_MP S 1))) (fst (dcomp_MP s 1)) (snd (dcomp_MP s 1)) a.

(** The spin-adapted class gives the moments of the spin-orbital class, for the rotation the target stands for. *)
Theorem C70_spin_moments maxm ttol target a : hlf + hlf = 1 -> kd K a = HO -> adaptive K a = false ->
  forms_ok a -> trot_ok ttol (the_target target false) ->
  exists ms ms', dkernel_moms K inv sq ex s2 ipi minv eig eigh s ttol maxm target false a = Ret ms /\
    kernel_moms S maxm (Some (so_rot (the_target target false))) a = Ret ms' /\
    length ms = Datatypes.S maxm /\ length ms' = Datatypes.S maxm /\
    forall i, (i <= maxm)%nat -> meq (tn K (the_target target false)) (n + n) (nth i ms zm) (nth i ms' zm).
Proof.
  intros Hh Hk Had Hf Ht. unfold dkernel_moms. fold n D. fold (the_target target false). set (t := the_target target false) in *.
  destruct forms as [F2 F1]. pose proof V_sym as Hs. cbv zeta in Hs. pose proof amb_0 as Ha. unfold forms_ok in Hf.
  unfold M_RiRpa.kernel_moms. 
  destruct (dcomp_MP s 1) as [x y]. destruct (comp_MP S 1) as [[X Y] Z]. cbn [fst snd] in *.
  destruct (dmom0_spec x y ttol t a Hk Had Ht) as (m & Em & Hm). rewrite Em.
  destruct (mom0_dup X Y x y (so_rot t) a (tn K t) Hh F1 F2 Hs Hk Had Hf) as (m' & Em' & Hm'). rewrite Em'.
  cbn [rbind]. change (nT S) with (n + n)%nat. fold (so_step X).
  eexists. eexists. split; [reflexivity|]. split; [reflexivity|]. rewrite !map_length, !seq_length. split; [reflexivity|]. split; [reflexivity|].
  intros i Hi. rewrite !nth_map_seq by exact Hi.
  apply (mom_seq_spec _ _ _ (n + n) (tn K t) (mom_seq K m' _ (so_step X))).
  - cbn [mom_seq]. rewrite Hm, Hm'. reflexivity.
  - cbn [mom_seq]. rewrite Ha, mm_0k. unfold so_rot. destruct (tspin K t).
    + intros p q Hp Hq. unfold madd, zm, colsc. 
      assert (E : sD S q = vcat K n D D q). { unfold vcat. destruct (q <? n)%nat eqn:B; [apply Nat.ltb_lt in B; apply sD_l; exact B|].
        apply Nat.ltb_ge in B. replace q with (n + (q - n))%nat at 1 by lia. apply sD_r. }
      rewrite E. ring.
    + symmetry. apply ccat_ext; intros p q Hp Hq; unfold madd, colsc, zm.
      * rewrite (ccat_l n), sD_l by exact Hq. ring.
      * rewrite ccat_r. ring.
  - intros m1 j Hm1. cbn [Nat.add mom_seq]. rewrite <- (step_ext X _ _ _ Hm1). symmetry. apply (step_dup X x). exact F1.
Qed.

(** With return_spatial, a spatial target: the sum of the columns of both spins. *)
Theorem C70_spatial maxm ttol target a : hlf + hlf = 1 -> kd K a = HO -> adaptive K a = false ->
  forms_ok a -> tspin K (the_target target true) = false ->
  exists ms ms', dkernel_moms K inv sq ex s2 ipi minv eig eigh s ttol maxm target true a = Ret ms /\
    kernel_moms S maxm (Some (so_rot (the_target target true))) a = Ret ms' /\
    length ms = Datatypes.S maxm /\ length ms' = Datatypes.S maxm /\
    forall i, (i <= maxm)%nat -> meq (tn K (the_target target true)) n (nth i ms zm) (fun p q => nth i ms' zm p q + nth i ms' zm p (n + q)%nat).
Proof.
  intros Hh Hk Had Hf Ht. unfold dkernel_moms. fold n D. fold (the_target target true). set (t := the_target target true) in *.
  destruct forms as [F2 F1]. pose proof V_sym as Hs. cbv zeta in Hs. pose proof amb_0 as Ha. unfold forms_ok in Hf.
  unfold M_RiRpa.kernel_moms. 
  destruct (dcomp_MP s 1) as [x y]. destruct (comp_MP S 1) as [[X Y] Z]. cbn [fst snd] in *.
  unfold dmom0. rewrite Hk, Had, Ht.
  destruct (mom0_dup X Y x y (so_rot t) a (tn K t) Hh F1 F2 Hs Hk Had Hf) as (m' & Em' & Hm'). rewrite Em'.
  cbn [rbind]. change (nT S) with (n + n)%nat. fold (so_step X).
  eexists. eexists. split; [reflexivity|]. split; [reflexivity|]. rewrite !map_length, !seq_length. split; [reflexivity|]. split; [reflexivity|].
  intros i Hi. rewrite !nth_map_seq by exact Hi.
  set (G := mom_seq K m' _ (so_step X)).
  apply (mom_seq_spec _ _ _ n (tn K t) (fun i => fun p q => G i p q + G i p (n + q)%nat)).
  - unfold G. cbn [mom_seq].
    assert (E : meq (tn K t) n (madd (so_rot t) (shift (so_rot t))) (tm K t)).
    { unfold so_rot. rewrite Ht. intros p q Hp Hq. unfold madd, shift. rewrite ccat_r, (ccat_l n) by exact Hq. unfold zm. ring. }
    pose proof (si_ext x y a _ _ _ E) as E'.
    intros p q Hp Hq. rewrite (Hm' p q), (Hm' p (n + q)%nat) by lia. unfold cand. cbv zeta. rewrite ccat_r, (ccat_l n) by exact Hq.
    change (tm K t p q + (1 + 1) * dmom0_si K inv ex ipi minv s x y (tm K t) a p q
      = so_rot t p q + dmom0_si K inv ex ipi minv s x y (madd (so_rot t) (shift (so_rot t))) a p q
        + (shift (so_rot t) p q + dmom0_si K inv ex ipi minv s x y (madd (so_rot t) (shift (so_rot t))) a p q)).
    rewrite (E' p q Hp Hq), <- (E p q Hp Hq). unfold madd at 1. ring.
  - unfold G. cbn [mom_seq]. intros p q Hp Hq.
    pose proof (mm_0k K (tn K t) (n + n) (mm (n + n) (so_rot t) (tr (lL Z))) (lR Z)) as Z0. rewrite Ha. unfold madd.
    rewrite (Z0 p q), (Z0 p (n + q)%nat) by lia. unfold so_rot. rewrite Ht. unfold colsc, zm. rewrite !ccat_r, (ccat_l n), sD_l by exact Hq. ring.
  - intros m1 j Hm1. change (G (2 + j)%nat) with (so_step X (G j)). pose proof (step_dup X x (tn K t) (G j) F1) as Q. cbv zeta in Q.
    assert (E : meq (tn K t) n m1 (madd (G j) (shift (G j)))) by exact Hm1.
    rewrite (colsc_dg K (tn K t) n), E, <- (colsc_dg K (tn K t) n).
    intros p q Hp Hq. rewrite (Q p q), (Q p (n + q)%nat) by lia. rewrite ccat_r, (ccat_l n) by exact Hq.
    unfold madd at 1 3 4. unfold msc, colsc, shift, madd. ring.
Qed.

(** Arguments the spin-adapted class does not take. *)
Theorem C70_spin_errors maxm ttol target spatial a :
  (spatial = true /\ tspin K (the_target target spatial) = true) \/ kd K a <> HO \/ adaptive K a = true ->
  dkernel_moms K inv sq ex s2 ipi minv eig eigh s ttol maxm target spatial a = ValueErr.
Proof.
  intros H. unfold dkernel_moms. fold n. fold (the_target target spatial). set (t := the_target target spatial) in *.
  destruct (dcomp_MP s 1) as [x y]. unfold dmom0. destruct (adaptive K a) eqn:Ea; [reflexivity|].
  destruct (kd K a) eqn:Ek; try reflexivity. destruct H as [[-> H]|[H|H]]; [rewrite H; reflexivity|congruence|discriminate].
Qed.

(** *** Trace and energy *)
Lemma tdot_dup k (A B : mt) (A1 B1 : mt) : meq k (n + n) A (ccat K n A1 A1) -> meq k (n + n) B (ccat K n B1 B1) ->
  tdot K k (n + n) A B = (1 + 1) * tdot K k n A1 B1.
Proof.
  intros HA HB. unfold tdot. rewrite <- Sum_mul_l. apply Sum_ext. intros i Hi. rewrite Sum_split.
  transitivity (Sum n (fun p => A1 i p * B1 i p) + Sum n (fun p => A1 i p * B1 i p)); [|ring]. f_equal; apply Sum_ext; intros p Hp.
  - rewrite (HA i p), (HB i p), !(ccat_l n) by lia. reflexivity.
  - rewrite (HA i (n + p)%nat), (HB i (n + p)%nat), !ccat_r by lia. reflexivity.
Qed.

Lemma Sum_dup : Sum (n + n) (sD S) = (1 + 1) * Sum n D.
Proof.
  rewrite Sum_split. transitivity (Sum n D + Sum n D); [|ring]. f_equal; apply Sum_ext; intros p Hp; [apply sD_l; exact Hp|apply sD_r].
Qed.

Lemma colsc_dup r (A A1 : mt) (Fs Fd : vec) : meq r (n + n) A (ccat K n A1 A1) ->
  (forall p, (p < n)%nat -> Fs p = Fd p) -> (forall p, (p < n)%nat -> Fs (n + p)%nat = Fd p) ->
  meq r (n + n) (colsc K A Fs) (ccat K n (colsc K A1 Fd) (colsc K A1 Fd)).
Proof.
  intros HA H1 H2'. apply ccat_ext; intros i j Hi Hj; unfold colsc.
  - rewrite (HA i j), (ccat_l n), H1 by lia. reflexivity.
  - rewrite (HA i (n + j)%nat), ccat_r, H2' by lia. reflexivity.
Qed.

Theorem C70_spin_trace g : hlf + hlf = 1 ->
  (forall pw, In pw g -> both_ok (fst (fst (comp_MP S 1))) (fst (dcomp_MP s 1)) (fst pw)) ->
  dtrMPrt K inv sq s2 ipi minv eig s g = trMPrt K inv sq s2 hlf ipi minv eig S g.
Proof.
  intros Hh Hb. unfold dtrMPrt, trMPrt. fold n D. destruct forms as [_ F1].
  destruct (dcomp_MP s 1) as [x y]. destruct (comp_MP S 1) as [[X Y] Z]. cbn [fst snd] in *.
  change (nT S) with (n + n)%nat. rewrite Sum_dup. assert (E1 : ln X = ln x) by apply F1.
  f_equal.
  - unfold ni1. apply Lsum_ext. intros pw Hpw. f_equal. pose proof (va_dup X x (fst pw) F1 (Hb pw Hpw)) as Hv.
    unfold contrib_tr. cbv zeta. rewrite E1 in *.
    set (W1 := minv (ln x) (madd idm (get_Q K inv (n + n) (sD S) X (fst pw)))) in *.
    set (W2 := minv (ln x) (madd idm (dQ K inv n D x (fst pw)))) in *.
    rewrite (tdot_dup (ln x) _ _ (mm (ln x) (msub W2 idm) (colsc K (lL x) (get_F K inv D (fst pw)))) (colsc K (lR x) (get_F K inv D (fst pw)))); [ring| |].
    + assert (E : meq (ln x) (n + n) (colsc K (lL X) (get_F K inv (sD S) (fst pw))) (ccat K n (colsc K (lL x) (get_F K inv D (fst pw))) (colsc K (lL x) (get_F K inv D (fst pw)))))
        by (apply colsc_dup; [destruct F1 as (_ & A & _); exact A|apply F_l|apply F_r]).
      rewrite E, Hv. apply ccat_ext; intros i j Hi Hj; unfold mm; apply Sum_ext; intros l Hl; [rewrite (ccat_l n) by exact Hj|rewrite ccat_r]; reflexivity.
    + apply colsc_dup; [destruct F1 as (_ & _ & A); exact A|apply F_l|apply F_r].
  - f_equal. rewrite E1. rewrite (tdot_dup (ln x) _ _ (colsc K (lL x) (fun p => inv (D p))) (lR x)).
    + transitivity ((hlf + hlf) * tdot K (ln x) n (colsc K (lL x) (fun p => inv (D p))) (lR x)); [rewrite Hh; ring|ring].
    + apply colsc_dup; [destruct F1 as (_ & A & _); exact A|intros p Hp; rewrite sD_l by exact Hp; reflexivity|intros p Hp; rewrite sD_r; reflexivity].
    + destruct F1 as (_ & _ & A). exact A.
Qed.

Theorem C70_spin_energy linear g g1 g2 : s2 * s2 = 1 + 1 -> hlf + hlf = 1 ->
  (forall pw, In pw g -> both_ok (fst (fst (comp_MP S 1))) (fst (dcomp_MP s 1)) (fst pw)) ->
  M_RiRpa.kernel_energy K inv sq ex s2 hlf ipi minv svd eig S linear g g1 g2 = Ret (dkernel_energy K inv sq s2 hlf ipi minv eig s g).
Proof.
  intros H2' Hh Hb. unfold M_RiRpa.kernel_energy, dkernel_energy. fold n D. rewrite <- (C70_spin_trace g Hh Hb).
  change (nT S) with (n + n)%nat. rewrite Sum_dup. unfold apb_eri.
  change (sx K S) with (@None (rixc K)). change (cneg K (sc K S)) with (match dneg K s with None => None | Some (m, l) => Some (m, l, l) end).
  change (cn K (sc K S)) with (dn K s). change (ca K (sc K S)) with (dl K s). change (cb K (sc K S)) with (dl K s). change (M_RiRpa.nA K S) with n.
  assert (T : forall k l, tdot K k (n + n) (msc s2 (ccat K n l l)) (msc s2 (ccat K n l l)) * hlf = (1 + 1) * tdot K k n l l).
  { intros k l. rewrite (tdot_dup k _ _ (msc s2 l) (msc s2 l)).
    - transitivity ((s2 * s2) * (hlf + hlf) * tdot K k n l l); [|rewrite H2', Hh; ring].
      transitivity ((hlf + hlf) * tdot K k n (msc s2 l) (msc s2 l)); [ring|].
      transitivity ((hlf + hlf) * ((s2 * s2) * tdot K k n l l)); [|ring]. f_equal. unfold tdot. rewrite <- Sum_mul_l. apply Sum_ext. intros i _.
      rewrite <- Sum_mul_l. apply Sum_ext. intros; unfold msc; ring.
    - apply ccat_ext; intros i j Hi Hj; unfold msc; [rewrite (ccat_l n) by exact Hj|rewrite ccat_r]; reflexivity.
    - apply ccat_ext; intros i j Hi Hj; unfold msc; [rewrite (ccat_l n) by exact Hj|rewrite ccat_r]; reflexivity. }
  destruct (dneg K s) as [[m l]|]; cbv iota beta zeta; rewrite ?T; f_equal; f_equal; ring.
Qed.
End Spin.

(** *** Arguments that have no effect or always raise *)
Theorem C70_errors (s : sys K) maxm target a : kd K a = DOther \/ adaptive K a = true -> kernel_moms s maxm target a = ValueErr.
Proof.
  intros H. unfold M_RiRpa.kernel_moms. destruct (comp_MP s 1) as [[mp apb] amb]. unfold M_RiRpa.mom0.
  destruct H as [H|H]; rewrite H; [reflexivity|]. destruct (kd K a); reflexivity.
Qed.
End T.

(** *** The documented levels of compression: 0 none at all, from 1 the product, from 4 also A+B and A-B.  Whether a
    quantity is compressed shows in its dependence on the eigensolver, and in its rank when all eigenvalues are negligible. *)
Theorem C70_levels (K : oring) sq s2 hlf eig eig' (s : sys K) alpha :
  let '(mp, apb, amb) := comp_MP K sq s2 hlf eig s alpha in
  let '(mp', apb', amb') := comp_MP K sq s2 hlf eig' s alpha in
  (scomp K s = 0 -> mp = mp')%nat /\ (scomp K s <= 3 -> apb = apb' /\ amb = amb')%nat /\
  ((forall n a k, ltb (stol K s) (fst (eig n a) k) = false) -> (1 <= scomp K s -> ln mp = 0)%nat /\ (4 <= scomp K s -> ln apb = 0 /\ ln amb = 0)%nat).
Proof.
  unfold comp_MP. destruct (ri_ab K s2 s) as [p m]. unfold comp_if.
  assert (Z : (forall n a k, ltb (stol K s) (fst (eig n a) k) = false) -> forall n r, ln (compress_lr K eig n (stol K s) r) = 0%nat).
  { intros H n r. unfold compress_lr. pose proof (H (ln r) (mm n (lL r) (tr (lR r)))) as H'. destruct (eig (ln r) (mm n (lL r) (tr (lR r)))) as [e c].
    cbn [fst ln] in *. unfold want. generalize (seq 0 (ln r)) as l. induction l as [|x l IH]; cbn; [reflexivity|]. rewrite H'. exact IH. }
  split; [|split].
  - intros ->. reflexivity.
  - intros H. rewrite (proj2 (Nat.ltb_ge 3 (scomp K s)) H). split; reflexivity.
  - intros H. specialize (Z H). split.
    + intros H1. rewrite (proj2 (Nat.ltb_lt 0 (scomp K s)) H1). apply Z.
    + intros H1. rewrite (proj2 (Nat.ltb_lt 3 (scomp K s)) H1). cbn [lr_sc ln]. split; apply Z.
Qed.

(** * Concrete cases, over the numbers a + b sqrt(2) *)
From Coq Require Import ZArith QArith Qcanon.
From Verif Require Import Root2.
Section Cases.
Local Close Scope Q_scope. Local Open Scope nat_scope.
Notation K := R2O.
Notation vec := (nat -> R2O).
Notation mt := (nat -> nat -> R2O).
Ltac qq := first [apply eq2_ok; vm_compute; reflexivity | apply neq2; vm_compute; reflexivity].

Definition mb (r c : nat) (a b : mt) : bool := forallb (fun i => forallb (fun j => eq2 (a i j) (b i j)) (seq 0 c)) (seq 0 r).
Lemma mb_ok r c a b : mb r c a b = true -> meq r c a b.
Proof.
  intros H i j Hi Hj. unfold mb in H. rewrite forallb_forall in H.
  specialize (H i (proj2 (in_seq _ _ _) (conj (Nat.le_0_l _) Hi))). rewrite forallb_forall in H.
  specialize (H j (proj2 (in_seq _ _ _) (conj (Nat.le_0_l _) Hj))). apply eq2_ok. exact H.
Qed.
Definition allb (n : nat) (p : nat -> bool) : bool := forallb p (seq 0 n).
Lemma allb_ok n p : allb n p = true -> forall i, (i < n)%nat -> p i = true.
Proof. intros H i Hi. unfold allb in H. rewrite forallb_forall in H. apply H. apply in_seq. lia. Qed.
Definition invb (n : nat) (a b : mt) : bool := mb n n (mm n a b) idm && mb n n (mm n b a) idm.
Lemma invb_ok n a b : invb n a b = true -> is_inv K n a b.
Proof. unfold invb. rewrite andb_true_iff. intros [A B]. split; apply mb_ok; assumption. Qed.

(** Inverse of one plus a matrix of rank one; a decomposition; a function with the values one half. *)
Definition minv1 (k : nat) (m : mt) : mt :=
  let t := inv2 (rsub (Sum k (fun i => m i i)) (rsub (nK k) r1)) in
  fun i j => rsub (delta i j) (rmul t (rsub (m i j) (delta i j))).
Definition svd1 (k : nat) (m : mt) : mt * vec * mt := (m, fun _ => r1, idm).
Definition sq1 (x : K) : K := x.
Definition exh (x : K) : K := rq 1 2.
Definition ip : K := rq 7 22.
Definition hf : K := rq 1 2.
Definition noeig (n : nat) (m : mt) : vec * mt := (fun _ => r0, idm).
Lemma hf2 : radd hf hf = (r1 : K). Proof. qq. Qed.
Lemma sq11 : rmul (sq1 r1) (sq1 r1) = (r1 : K). Proof. qq. Qed.
Definition unk {A} (d : A) (r : result A) : A := match r with Ret a => a | _ => d end.
Notation cMP := (comp_MP K sq1 rt2 hf noeig).
Notation dMP := (dcomp_MP K sq1 rt2 noeig).
Notation kmoms := (kernel_moms K inv2 sq1 exh rt2 hf ip minv1 svd1 noeig).
Notation ken := (kernel_energy K inv2 sq1 exh rt2 hf ip minv1 svd1 noeig).
Notation dkmoms := (dkernel_moms K inv2 sq1 exh rt2 ip minv1 noeig).
Notation trM := (trMPrt K inv2 sq1 rt2 hf ip minv1 noeig).

(** Checks of the hypotheses. *)
Definition invvb (n : nat) (d : vec) : bool := allb n (fun p => eq2 (rmul (d p) (inv2 (d p))) r1).
Definition ptb (n : nat) (D : vec) (S : lr K) (z : K) : bool :=
  invvb n (fun p => radd (rmul (D p) (D p)) (rmul z z)) &&
  invb (ln S) (madd idm (get_Q K inv2 n D S z)) (minv1 (ln S) (madd idm (get_Q K inv2 n D S z))).
Lemma invvb_ok n d : invvb n d = true -> forall p, (p < n)%nat -> rmul (d p) (inv2 (d p)) = r1.
Proof. intros H p Hp. apply eq2_ok. exact (allb_ok _ _ H p Hp). Qed.
Lemma ptb_ok n D S z : ptb n D S z = true -> pt_ok K inv2 minv1 n D S z.
Proof.
  unfold ptb. rewrite andb_true_iff. intros [A B]. split; [|apply invb_ok; exact B].
  intros p Hp. exact (invvb_ok _ _ A p Hp).
Qed.
Definition ub (n : nat) (D : vec) (A : lr K) : bool :=
  let U := mm n (colsc K (lR A) (fun p => inv2 (D p))) (tr (lL A)) in
  invb (ln A) (madd idm U) (minv1 (ln A) (madd idm U)).
Lemma svd1_ok k m : svd_ok K sq1 svd1 k m.
Proof.
  unfold svd_ok, svd1. split; [|intros i Hi; exact sq11]. intros i j Hi Hj.
  assert (E : meq k k (mm k (dg (fun _ => r1)) (idm : mt)) idm).
  { intros a b Ha Hb. rewrite (mm_dgl k k _ _ a b Ha Hb). unfold idm. destruct (rth K). apply Rmul_1_l. }
  rewrite (mm_proper k k k _ _ (reflexivity m) _ _ E i j Hi Hj). exact (mm_idr k k m i j Hi Hj).
Qed.
Definition numsb (f : vec) (s : sys K) (S A : lr K) (a : kw K) : bool :=
  invvb (nT K s) (sD K s) && ub (nT K s) (sD K s) A &&
  forallb (fun pw => ptb (nT K s) (sD K s) S (fst pw) && invvb (nT K s) (fun i => radd (rmul (f i) (f i)) (rmul (fst pw) (fst pw)))) (gi K a).
Lemma numsb_ok f s S A a : numsb f s S A a = true -> nums K inv2 sq1 minv1 svd1 f s S A a.
Proof.
  unfold numsb. rewrite !andb_true_iff. intros [[H1 H2] H3]. split; [exact (invvb_ok _ _ H1)|]. split.
  - split; [apply invb_ok; exact H2|apply svd1_ok].
  - intros pw Hp. rewrite forallb_forall in H3. specialize (H3 pw Hp). apply andb_true_iff in H3. destruct H3 as [P1 P2].
    split; [apply ptb_ok; exact P1|]. intros i Hi. exact (invvb_ok _ _ P2 i Hi).
Qed.
Definition exactb (n : nat) (f : vec) (s : sys K) (a : kw K) : bool :=
  allb n (fun i => eq2 (root_quad K inv2 ip (gi K a) (rmul (f i) (f i))) (f i)) &&
  allb n (fun p => eq2 (root_quad K inv2 ip (gi K a) (rmul (sD K s p) (sD K s p))) (sD K s p)) &&
  allb n (fun p => allb n (fun q => eq2 (exp_quad K exh (gl K a) (sD K s p) (sD K s q)) (rat_quad K inv2 ip (gi K a) (sD K s p) (sD K s q)))).
Lemma exactb_ok n f s a : exactb n f s a = true -> exact K inv2 exh ip n f s a.
Proof.
  unfold exactb. rewrite !andb_true_iff. intros [[H1 H2] H3]. split; [|split].
  - intros i Hi. apply eq2_ok. exact (allb_ok _ _ H1 i Hi).
  - right. intros i Hi. apply eq2_ok. exact (allb_ok _ _ H2 i Hi).
  - right. intros p q' Hp Hq. apply eq2_ok. pose proof (allb_ok _ _ H3 p Hp) as X. exact (allb_ok _ _ X q' Hq).
Qed.
Definition trb (n : nat) (f : vec) (s : sys K) (S : lr K) (g : list (K * K)) : bool :=
  forallb (fun pw => ptb n (sD K s) S (fst pw) && mb (ln S) (ln S) (tr (get_Q K inv2 n (sD K s) S (fst pw))) (get_Q K inv2 n (sD K s) S (fst pw))
    && invvb n (fun i => radd (rmul (f i) (f i)) (rmul (fst pw) (fst pw)))) g.
Lemma trb_ok f s S g : trb (nT K s) f s S g = true -> tr_ok K inv2 minv1 s f S g.
Proof.
  intros H pw Hp. unfold trb in H. rewrite forallb_forall in H. specialize (H pw Hp). rewrite !andb_true_iff in H. destruct H as [[P1 P2] P3].
  split; [apply ptb_ok; exact P1|]. split; [apply mb_ok; exact P2|]. intros i Hi. exact (invvb_ok _ _ P3 i Hi).
Qed.
Definition extrb (n : nat) (f : vec) (s : sys K) (g : list (K * K)) : bool :=
  allb n (fun i => eq2 (root_quad K inv2 ip g (rmul (f i) (f i))) (f i)) &&
  allb n (fun p => eq2 (root_quad K inv2 ip g (rmul (sD K s p) (sD K s p))) (sD K s p)) &&
  allb n (fun p => eq2 (rat_quad K inv2 ip g (sD K s p) (sD K s p)) (rmul hf (inv2 (sD K s p)))).
Lemma extrb_ok f s g : extrb (nT K s) f s g = true -> exact_tr K inv2 hf ip s f g.
Proof.
  unfold extrb. rewrite !andb_true_iff. intros [[H1 H2] H3]. split; [|split]; intros i Hi; apply eq2_ok;
    [exact (allb_ok _ _ H1 i Hi)|exact (allb_ok _ _ H2 i Hi)|exact (allb_ok _ _ H3 i Hi)].
Qed.
Definition solb (n : nat) (D R : mt) (f : vec) (xpy xmy : mt) : bool :=
  mb n n (mm n D xmy) (mm n xpy (dg f)) && mb n n (mm n R xpy) (mm n xmy (dg f)) &&
  mb n n (mm n (tr xpy) xmy) idm && mb n n (mm n xpy (tr xmy)) idm.
Lemma solb_ok n D R f xpy xmy : solb n D R f xpy xmy = true -> rpa_sol n D R f xpy xmy.
Proof.
  unfold solb. rewrite !andb_true_iff. intros [[[A B] C] E]. split; [|split; [|split]]; apply mb_ok; assumption.
Qed.
Ltac ck := match goal with
  | |- rpa_sol _ _ _ _ _ _ => apply solb_ok
  | |- nums _ _ _ _ _ _ _ _ _ _ => apply numsb_ok
  | |- exact _ _ _ _ _ _ _ _ => apply exactb_ok
  | |- tr_ok _ _ _ _ _ _ _ => apply trb_ok
  | |- exact_tr _ _ _ _ _ _ _ => apply extrb_ok
  | |- is_inv _ _ _ _ => apply invb_ok
  | |- meq _ _ _ _ => apply mb_ok
  | |- _ => apply invb_ok
  end; vm_compute; reflexivity.

(** One pair of orbitals of each spin, energies 6 apart; frequencies 6 and 12. *)
Definition v2 (a b : K) : vec := fun i => match i with O => a | _ => b end.
Definition m22 (a b c d : K) : mt := fun i j => match i with O => v2 a b j | _ => v2 c d j end.
Definition mkorbs (no : nat) : orbs K := Build_orbs K 2 1 1 no 1 (fun p _ => v2 r1 r0 p) (fun p _ => v2 r0 r1 p) (fun p _ => v2 r1 r0 p) (fun p _ => v2 r0 r1 p).
Definition sA : sys K := Build_sys K (mkorbs 1) (v2 r0 (rq 6 1)) (v2 r0 (rq 6 1))
  (Build_cderi K 1 (fun _ _ => rq 9 5) (fun _ _ => rq 12 5) None) None 0 r0.
Definition fA : vec := v2 (rq 6 1) (rq 12 1).
Definition xpA : mt := m22 (rq (-4) 5) (rmul (rq 3 10) rt2) (rq 3 5) (rmul (rq 4 10) rt2).
Definition xmA : mt := m22 (rq (-4) 5) (rmul (rq 3 5) rt2) (rq 3 5) (rmul (rq 4 5) rt2).
Definition gA : list (K * K) := [(rq 3 1, rq (3 * 1098625) 254016); (rq 9 1, rq (3 * 10985) 4032); (rq 24 1, rq (3 * 134096) 3969)].
Definition kA : kw K := Build_kw K gA [(r1, rq 1 3)] HO false r1.
Definition mpA := fst (fst (cMP sA r1)).
Definition apbA := snd (fst (cMP sA r1)).

Lemma solA : rpa_sol 2 (msub (Amat K sA r1) (Bmat K sA r1)) (madd (Amat K sA r1) (Bmat K sA r1)) fA xpA xmA. Proof. ck. Qed.
Lemma numsA : let '(mp, apb, _) := cMP sA r1 in nums K inv2 sq1 minv1 svd1 fA sA mp apb kA.
Proof. change (nums K inv2 sq1 minv1 svd1 fA sA mpA apbA kA). ck. Qed.
Lemma exA : exact K inv2 exh ip 2 fA sA kA. Proof. ck. Qed.
Lemma trA : let '(mp, _, _) := cMP sA r1 in tr_ok K inv2 minv1 sA fA mp gA.
Proof. change (tr_ok K inv2 minv1 sA fA mpA gA). ck. Qed.
Lemma extrA : exact_tr K inv2 hf ip sA fA gA. Proof. ck. Qed.

Example C70_matrices_case :
  meq 2 2 (full K (sD K sA) apbA) (madd (Amat K sA r1) (Bmat K sA r1)) /\
  meq 2 2 (full K (fun p => rmul (sD K sA p) (sD K sA p)) mpA) (mm 2 (msub (Amat K sA r1) (Bmat K sA r1)) (madd (Amat K sA r1) (Bmat K sA r1))) /\
  madd (Amat K sA r1) (Bmat K sA r1) 0%nat 1%nat = rq 216 25.
Proof.
  destruct (C70_matrices K sq1 rt2 hf noeig sA r1 rt2_sq sq11 hf2 eq_refl) as (A & _ & C).
  split; [exact A|]. split; [exact C|]. qq.
Qed.

Example C70_product_case :
  let r1' := Build_lr K 1 (fun _ => v2 (rq 1 1) (rq 2 1)) (fun _ => v2 (rq 3 1) (rq 5 1)) in
  meq 2 2 (full K (fun p => rmul (sD K sA p) (sD K sA p)) (product_RI K hf 2 (sD K sA) r1' apbA)) (mm 2 (full K (sD K sA) r1') (full K (sD K sA) apbA)) /\
  full K (sD K sA) r1' 0%nat 1%nat <> full K (sD K sA) r1' 1%nat 0%nat.
Proof. cbv zeta. split; [apply C70_product; exact hf2|qq]. Qed.

Example C70_inverse_case :
  is_inv K 2 (full K (sD K sA) apbA) (msub (dg (fun p => inv2 (sD K sA p)))
    (mm 1 (tr (lL (inverse_RI K inv2 sq1 minv1 svd1 2 (sD K sA) apbA))) (lR (inverse_RI K inv2 sq1 minv1 svd1 2 (sD K sA) apbA)))).
Proof.
  refine (C70_inverse K inv2 sq1 minv1 svd1 2 (sD K sA) apbA _ _ _).
  - apply invvb_ok. vm_compute. reflexivity.
  - ck.
  - apply svd1_ok.
Qed.

Definition tgt : mt := fun _ => v2 (rq 1 1) (rq 2 1).
Example C70_moments_case : exists moms, kmoms sA 4 (Some tgt) kA = Ret moms /\ length moms = 5%nat /\
  (forall i, (i <= 4)%nat -> forall r, meq r 2 (nth i moms zm) (mm 2 tgt (eta K 2 fA xpA i))) /\
  mm 2 tgt (eta K 2 fA xpA 0) 0%nat 0%nat <> mm 2 tgt (eta K 2 fA xpA 2) 0%nat 0%nat.
Proof.
  destruct (C70_moments K inv2 sq1 exh rt2 hf ip minv1 svd1 noeig sA fA xpA xmA rt2_sq sq11 hf2 eq_refl solA 4 (Some tgt) kA) as (m & A & B & C);
    [discriminate|reflexivity|exact numsA|exact exA|].
  exists m. split; [exact A|]. split; [exact B|]. split; [exact C|]. qq.
Qed.

(** A grid that is not exact: the error of the zeroth moment. *)
Definition kA2 : kw K := Build_kw K [(rq 3 1, r1)] [(r1, rq 1 3)] HO false r1.
Example C70_mom0_case : exists m0, kmoms sA 0 (Some tgt) kA2 = Ret [m0] /\
  (forall r, meq r 2 (mm 2 m0 (madd (Amat K sA r1) (Bmat K sA r1)))
    (madd (mm 2 tgt (Rt K 2 xpA xmA (fun i => root_quad K inv2 ip (gi K kA2) (rmul (fA i) (fA i)))))
          (defect K inv2 exh ip 2 kA2 (sD K sA) mpA tgt))) /\
  defect K inv2 exh ip 2 kA2 (sD K sA) mpA tgt 0%nat 0%nat <> r0.
Proof.
  destruct (C70_mom0 K inv2 sq1 exh rt2 hf ip minv1 svd1 noeig sA fA xpA xmA rt2_sq sq11 hf2 eq_refl solA (Some tgt) kA2) as (m & A & B);
    [discriminate|reflexivity| |].
  - change (nums K inv2 sq1 minv1 svd1 fA sA mpA apbA kA2). ck.
  - exists m. split; [exact A|]. split; [exact B|]. qq.
Qed.

Example C70_trace_case : trM sA gA = rq 18 1 /\ trM sA gA = Sum 2 fA.
Proof.
  assert (E : trM sA gA = Sum 2 fA)
    by exact (trace_exact K inv2 sq1 rt2 hf ip minv1 noeig sA fA xpA xmA rt2_sq sq11 hf2 eq_refl solA gA trA extrA).
  split; [|exact E]. rewrite E. qq.
Qed.
Example C70_trace_grid_case :
  let g := [(rq 3 1, r1 : K)] in
  trM sA g = radd (radd (Sum 2 (fun i => root_quad K inv2 ip g (rmul (fA i) (fA i))))
     (Sum 2 (fun p => rsub (sD K sA p) (root_quad K inv2 ip g (rmul (sD K sA p) (sD K sA p))))))
     (Sum 2 (fun p => rmul (mm (ln mpA) (tr (lL mpA)) (lR mpA) p p) (rsub (rmul hf (inv2 (sD K sA p))) (rat_quad K inv2 ip g (sD K sA p) (sD K sA p)))))
  /\ trM sA g <> Sum 2 fA.
Proof.
  cbv zeta. split; [|qq].
  refine (C70_trace K inv2 sq1 rt2 hf ip minv1 noeig sA fA xpA xmA rt2_sq sq11 hf2 eq_refl solA [(rq 3 1, r1 : K)] _).
  change (tr_ok K inv2 minv1 sA fA mpA [(rq 3 1, r1 : K)]). ck.
Qed.
Example C70_energy_case : ken sA true gA gA gA = Ret (ropp (Sum 2 (fun i => rmul (fA i) (Sum 2 (fun p =>
    rmul (rmul hf (rsub (xpA p i) (xmA p i))) (rmul hf (rsub (xpA p i) (xmA p i)))))))) /\
  ken sA true gA gA gA = Ret (rq (-3) 2).
Proof.
  pose proof (C70_energy K inv2 sq1 exh rt2 hf ip minv1 svd1 noeig sA fA xpA xmA rt2_sq sq11 hf2 eq_refl solA true gA gA gA eq_refl trA extrA) as E.
  split; [exact E|]. rewrite E. f_equal; qq.
Qed.
Example C70_Q_symmetric_case : Q_sym K inv2 2 (sD K sA) mpA (rq 3 1) /\ get_Q K inv2 2 (sD K sA) mpA (rq 3 1) 0%nat 0%nat <> r0.
Proof. split; [exact (C70_Q_symmetric K inv2 sq1 rt2 hf noeig sA (rq 3 1) eq_refl eq_refl eq_refl)|qq]. Qed.

(** alpha has no effect: at no coupling the zeroth moment of a rotation is the rotation. *)
Definition kA0 : kw K := Build_kw K gA [(r1, rq 1 3)] HO false r0.
Example C70_alpha_refuted : kmoms sA 4 (Some tgt) kA0 = kmoms sA 4 (Some tgt) kA /\
  rpa_sol 2 (msub (Amat K sA r0) (Bmat K sA r0)) (madd (Amat K sA r0) (Bmat K sA r0)) (sD K sA) idm idm /\
  mm 2 tgt (eta K 2 (sD K sA) idm 0) 0%nat 0%nat = r1 /\
  mm 2 tgt (eta K 2 fA xpA 0) 0%nat 0%nat <> r1.
Proof. split; [reflexivity|]. split; [ck|]. split; qq. Qed.

(** A kernel: one alpha pair, M = 1, P = 16, frequency 4. *)
Definition xc1 : rixc K := Build_rixc K 1 (fun _ _ _ => r1) (fun _ p _ => match p with O => rq 5 2 | _ => rq 7 2 end) (fun _ _ _ => r0) (fun _ _ _ => r0).
Definition sX : sys K := Build_sys K (mkorbs 0) (v2 r0 (rq 2 1)) (v2 r0 r0) (Build_cderi K 1 (fun _ _ => rq 2 1) (fun _ _ => r0) None) (Some xc1) 0 r0.
Definition fX : vec := fun _ => rq 4 1.
Definition xpX : mt := fun _ _ => rq 1 2.
Definition xmX : mt := fun _ _ => rq 2 1.
Definition gX : list (K * K) := [(rq 1 1, rq 1098625 254016); (rq 3 1, rq 10985 4032); (rq 8 1, rq 134096 3969)].
Definition kX : kw K := Build_kw K gX [(r1, r1)] HO false r1.
Lemma solX : rpa_sol 1 (msub (Amat K sX r1) (Bmat K sX r1)) (madd (Amat K sX r1) (Bmat K sX r1)) fX xpX xmX. Proof. ck. Qed.
Lemma numsX : let '(mp, apb, _) := cMP sX r1 in nums K inv2 sq1 minv1 svd1 fX sX mp apb kX.
Proof. change (nums K inv2 sq1 minv1 svd1 fX sX (fst (fst (cMP sX r1))) (snd (fst (cMP sX r1))) kX). ck. Qed.
Lemma exX : exact K inv2 exh ip 1 fX sX kX. Proof. ck. Qed.
Notation e3X := (e_version3 K hf 1 (eta K 1 fX xpX 0) (madd (Amat K sX r1) (Bmat K sX r1)) (msub (Amat K sX r1) (Bmat K sX r1))
  (madd (xcmat K (va_blk K) sX) (xcmat K (vb_blk K) sX)) (msub (xcmat K (va_blk K) sX) (xcmat K (vb_blk K) sX))).
Example C70_energy_kernel_case :
  ken sX true gX gX [(r1, r1)] = Ret (radd e3X (rmul hf (rsub (trM sX gX) (Sum 1 fX)))) /\ e3X <> r0.
Proof.
  split; [|qq].
  exact (C70_energy_kernel K inv2 sq1 exh rt2 hf ip minv1 svd1 noeig sX fX xpX xmX rt2_sq sq11 hf2 eq_refl solX gX gX [(r1, r1)] xc1 eq_refl numsX exX).
Qed.
(** The trace takes the transpose of the matrix of the auxiliary space: with a kernel it is wrong, though the grid is exact. *)
Example C70_trace_kernel_refuted :
  exact_tr K inv2 hf ip sX fX gX /\ (forall pw, In pw gX -> pt_ok K inv2 minv1 1 (sD K sX) (fst (fst (cMP sX r1))) (fst pw)) /\
  trM sX gX <> Sum 1 fX /\ ken sX true gX gX [(r1, r1)] <> Ret e3X.
Proof.
  split; [ck|]. split; [|split; [qq|]].
  - intros pw H. assert (X : forallb (fun pw => ptb 1 (sD K sX) (fst (fst (cMP sX r1))) (fst pw)) gX = true) by (vm_compute; reflexivity).
    rewrite forallb_forall in X. apply ptb_ok. exact (X pw H).
  - rewrite (proj1 C70_energy_kernel_case). intros E. assert (N : radd e3X (rmul hf (rsub (trM sX gX) (Sum 1 fX))) <> e3X) by qq. apply N.
    exact (f_equal (unk r0) E).
Qed.
(** The same with a negative part of the integrals, in direct RPA. *)
Definition sN : sys K := Build_sys K (mkorbs 0) (v2 r0 (rq 2 1)) (v2 r0 r0)
  (Build_cderi K 1 (fun _ _ => rq 2 1) (fun _ _ => r0) (Some (1%nat, (fun _ _ => r1), (fun _ _ => r0)))) None 0 r0.
Definition fN : vec := fun _ => rq 4 1.
Definition xpN : mt := fun _ _ => rmul (rq 1 2) rt2.
Definition xmN : mt := fun _ _ => rt2.
Example C70_trace_negative_refuted :
  rpa_sol 1 (msub (Amat K sN r1) (Bmat K sN r1)) (madd (Amat K sN r1) (Bmat K sN r1)) fN xpN xmN /\
  exact_tr K inv2 hf ip sN fN gX /\ (forall pw, In pw gX -> pt_ok K inv2 minv1 1 (sD K sN) (fst (fst (cMP sN r1))) (fst pw)) /\
  trM sN gX <> Sum 1 fN /\
  ken sN true gX gX gX <> Ret (ropp (Sum 1 (fun i => rmul (fN i) (Sum 1 (fun p =>
    rmul (rmul hf (rsub (xpN p i) (xmN p i))) (rmul hf (rsub (xpN p i) (xmN p i)))))))).
Proof.
  split; [ck|]. split; [ck|]. split; [|split; [qq|]].
  - intros pw H. assert (X : forallb (fun pw => ptb 1 (sD K sN) (fst (fst (cMP sN r1))) (fst pw)) gX = true) by (vm_compute; reflexivity).
    rewrite forallb_forall in X. apply ptb_ok. exact (X pw H).
  - intros E. apply (f_equal (unk r0)) in E. revert E. apply neq2. vm_compute. reflexivity.
Qed.

(** Compression: factors of two rows, one in the span of the other. *)
Definition lrC : lr K := Build_lr K 2 (m22 (rq 6 5) (rq 24 5) (rq 8 5) (rq 32 5)) (m22 (rq 3 5) (rq 6 5) (rq 4 5) (rq 8 5)).
Definition eigC (n : nat) (m : mt) : vec * mt := (v2 (rq 18 1) r0, m22 (rq 3 5) (rq (-4) 5) (rq 4 5) (rq 3 5)).
Example C70_compress_case :
  let r' := compress_lr K eigC 2 (rq 1 1000) lrC in
  ln r' = 1%nat /\ meq 2 2 (mm (ln r') (tr (lL r')) (lR r')) (mm 2 (tr (lL lrC)) (lR lrC)) /\ mm 2 (tr (lL lrC)) (lR lrC) 0%nat 1%nat = rq 4 1.
Proof.
  cbv zeta. split; [reflexivity|]. split; [|qq].
  refine (proj2 (C70_compress K eigC 2 (rq 1 1000) lrC (v2 (rq 2 1) (rq 4 1)) _ _ _ _)).
  - intros p Hp. destruct p as [|p]; vm_compute; reflexivity.
  - ck.
  - unfold eigC. split; [|split]; ck.
  - intros i Hi. destruct i as [|[|i]]; [intros H; vm_compute in H; discriminate|intros _; reflexivity|cbn in Hi; lia].
Qed.
(** A negative part is dropped. *)
Definition lrD : lr K := Build_lr K 2 (m22 r1 r0 r0 r1) (m22 r1 r0 r0 (ropp r1)).
Definition eigD (n : nat) (m : mt) : vec * mt := (v2 r1 (ropp r1), idm).
Example C70_compress_refuted :
  eig_ok 2 (mm 2 (lL lrD) (tr (lR lrD))) (eigD 2 (mm 2 (lL lrD) (tr (lR lrD)))) /\
  let r' := compress_lr K eigD 2 (rq 1 1000) lrD in
  ln r' = 1%nat /\ mm (ln r') (tr (lL r')) (lR r') 1%nat 1%nat = r0 /\ mm 2 (tr (lL lrD)) (lR lrD) 1%nat 1%nat = ropp r1.
Proof. split; [unfold eigD; split; [|split]; ck|]. cbv zeta. split; [reflexivity|]. split; qq. Qed.

(** ** The spin-adapted class: one occupied and two virtual orbitals *)
Definition dS : dsys K := Build_dsys K 1 2 (fun i => match i with O => r0 | 1%nat => rq 2 1 | _ => rq 3 1 end) 1 (fun _ => v2 (rq 1 1) (rq 2 1)) None 0 r0.
Definition SS := restricted K dS 1 (fun _ _ => r1) (fun _ _ => r1).
Definition eighT (n : nat) (m : mt) : vec * mt := (v2 (rq 25 1) r0, m22 (rq 3 5) (rq (-4) 5) (rq 4 5) (rq 3 5)).
(** a row over spin orbitals; the row stacked by spin has rank one *)
Definition tS : trot K := Build_trot K 1 true (fun _ j => match j with O => rq 9 5 | 1%nat => rq 12 5 | 2%nat => rq 12 5 | _ => rq 16 5 end).
Definition kS : kw K := Build_kw K gA [(r1, rq 1 3); (rq 2 1, rq 2 1)] HO false r1.
Definition bothb (X x : lr K) (z : K) : bool :=
  let n := dov K dS in
  invb (ln X) (madd idm (get_Q K inv2 (n + n) (sD K SS) X z)) (minv1 (ln X) (madd idm (get_Q K inv2 (n + n) (sD K SS) X z))) &&
  invb (ln x) (madd idm (dQ K inv2 n (deps K dS) x z)) (minv1 (ln x) (madd idm (dQ K inv2 n (deps K dS) x z))).
Lemma bothb_ok X x z : bothb X x z = true -> both_ok K inv2 minv1 dS 1 (fun _ _ => r1) (fun _ _ => r1) X x z.
Proof. unfold bothb. rewrite andb_true_iff. intros [A B]. split; apply invb_ok; assumption. Qed.
Lemma bothS : forall pw, In pw gA -> both_ok K inv2 minv1 dS 1 (fun _ _ => r1) (fun _ _ => r1) (fst (fst (cMP SS r1))) (fst (dMP dS r1)) (fst pw).
Proof.
  intros pw H. assert (X : forallb (fun pw => bothb (fst (fst (cMP SS r1))) (fst (dMP dS r1)) (fst pw)) gA = true) by (vm_compute; reflexivity).
  rewrite forallb_forall in X. apply bothb_ok. exact (X pw H).
Qed.
Lemma formsS : forms_ok K inv2 sq1 rt2 hf minv1 svd1 noeig dS 1 (fun _ _ => r1) (fun _ _ => r1) kS.
Proof.
  split; [apply (invvb_ok 2 (deps K dS)); vm_compute; reflexivity|]. split; [split; [ck|apply svd1_ok]|]. split; [unfold u_ok; ck|]. exact bothS.
Qed.
Lemma trotS : trot_ok K eighT dS (rq 1 1000) tS.
Proof.
  intros _. split.
  - unfold eighT. split; [|split]; ck.
  - intros i Hi. destruct i as [|[|i]]; [intros H; vm_compute in H; discriminate|intros _; reflexivity|cbn in Hi; lia].
Qed.
Example C70_spin_moments_case : exists ms ms', dkmoms eighT dS (rq 1 1000) 3 (Some tS) false kS = Ret ms /\
  kmoms SS 3 (Some (tm K tS)) kS = Ret ms' /\ length ms = 4%nat /\ length ms' = 4%nat /\
  (forall i, (i <= 3)%nat -> meq 1 4 (nth i ms zm) (nth i ms' zm)) /\
  (exists m c, snd (comp_trot K eighT 2 2 (rq 1 1000) (stack K dS tS)) = Some (m, c) /\ m = 1%nat).
Proof.
  destruct (C70_spin_moments K inv2 sq1 exh rt2 hf ip minv1 svd1 noeig eighT dS 1 (fun _ _ => r1) (fun _ _ => r1) eq_refl 3 (rq 1 1000) (Some tS) kS
    hf2 eq_refl eq_refl formsS trotS) as (ms & ms' & A & B & C & D & E).
  exists ms, ms'. split; [exact A|]. split; [exact B|]. split; [exact C|]. split; [exact D|]. split; [exact E|].
  eexists. eexists. split; reflexivity.
Qed.
Definition tP : trot K := Build_trot K 1 false (fun _ => v2 (rq 1 1) (rq 2 1)).
Example C70_spatial_case : exists ms ms', dkmoms eighT dS (rq 1 1000) 3 (Some tP) true kS = Ret ms /\
  kmoms SS 3 (Some (so_rot K dS tP)) kS = Ret ms' /\ length ms = 4%nat /\ length ms' = 4%nat /\
  (forall i, (i <= 3)%nat -> meq 1 2 (nth i ms zm) (fun p q => radd (nth i ms' zm p q) (nth i ms' zm p (2 + q)%nat))).
Proof.
  exact (C70_spatial K inv2 sq1 exh rt2 hf ip minv1 svd1 noeig eighT dS 1 (fun _ _ => r1) (fun _ _ => r1) eq_refl 3 (rq 1 1000) (Some tP) kS
    hf2 eq_refl eq_refl formsS eq_refl).
Qed.
Example C70_spin_errors_case : dkmoms eighT dS (rq 1 1000) 3 (Some tS) true kS = ValueErr /\ dkmoms eighT dS (rq 1 1000) 3 None false (Build_kw K gA gA DD false r1) = ValueErr.
Proof. split; apply C70_spin_errors; [left; split; reflexivity|right; left; discriminate]. Qed.
(** Level 1 with negligible eigenvalues: the product is gone, A+B is untouched. *)
Example C70_levels_case : let s := Build_sys K (M_RiRpa.so K sA) (sea K sA) (seb K sA) (sc K sA) (sx K sA) 1 (rq 1 1000) in
  let zero := fun _ _ => ((fun _ => r0), zm) in
  ln (fst (fst (comp_MP K sq1 rt2 hf zero s r1))) = 0 /\ snd (fst (comp_MP K sq1 rt2 hf zero s r1)) = snd (fst (comp_MP K sq1 rt2 hf eigC s r1)) /\
  ln (snd (fst (comp_MP K sq1 rt2 hf zero s r1))) <> 0.
Proof.
  intros s zero. pose proof (C70_levels K sq1 rt2 hf zero eigC s r1) as H.
  split; [|split; [|vm_compute; discriminate]].
  - destruct (comp_MP K sq1 rt2 hf zero s r1) as [[mp apb] amb]. destruct (comp_MP K sq1 rt2 hf eigC s r1) as [[mp' apb'] amb'].
    destruct H as (_ & _ & H). apply H; [|cbn; lia]. intros n a k. vm_compute. reflexivity.
  - destruct (comp_MP K sq1 rt2 hf zero s r1) as [[mp apb] amb]. destruct (comp_MP K sq1 rt2 hf eigC s r1) as [[mp' apb'] amb'].
    destruct H as (_ & H & _). apply H. cbn. lia.
Qed.
Example C70_errors_case : kmoms sA 2 None (Build_kw K gA gA HO true r1) = ValueErr /\ kmoms sA 2 None (Build_kw K gA gA DOther false r1) = ValueErr.
Proof. split; apply C70_errors; [right|left]; reflexivity. Qed.
Example C70_spin_trace_case : dtrMPrt K inv2 sq1 rt2 ip minv1 noeig dS gA = trM SS gA /\ trM SS gA <> r0.
Proof.
  split; [|qq]. exact (C70_spin_trace K inv2 sq1 rt2 hf ip minv1 noeig dS 1 (fun _ _ => r1) (fun _ _ => r1) eq_refl gA hf2 bothS).
Qed.
Example C70_spin_energy_case : ken SS true gA gA gA = Ret (dkernel_energy K inv2 sq1 rt2 hf ip minv1 noeig dS gA) /\
  dkernel_energy K inv2 sq1 rt2 hf ip minv1 noeig dS gA <> r0.
Proof.
  split; [|qq]. exact (C70_spin_energy K inv2 sq1 exh rt2 hf ip minv1 svd1 noeig dS 1 (fun _ _ => r1) (fun _ _ => r1) eq_refl true gA gA gA rt2_sq hf2 bothS).
Qed.
End Cases.
Print Assumptions C70_product.
Print Assumptions C70_inverse.
Print Assumptions C70_matrices.
Print Assumptions C70_mom0.
Print Assumptions C70_moments.
Print Assumptions C70_trace.
Print Assumptions C70_energy.
Print Assumptions C70_energy_kernel.
Print Assumptions C70_Q_symmetric.
Print Assumptions C70_levels.
Print Assumptions C70_compress.
Print Assumptions C70_spin_moments.
Print Assumptions C70_spatial.
Print Assumptions C70_spin_errors.
Print Assumptions C70_spin_trace.
Print Assumptions C70_spin_energy.
Print Assumptions C70_errors.
Print Assumptions C70_compress_refuted.
Print Assumptions C70_alpha_refuted.
Print Assumptions C70_trace_kernel_refuted.
Print Assumptions C70_trace_negative_refuted.
