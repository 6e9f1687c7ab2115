(** C69: the dense RPA solvers.  Theorems about M_SsRpa. *)
From Coq Require Import List Arith Lia Bool Ring Setoid Morphisms.
From Verif Require Import Alg Ord Mat M_ExtCorr M_SsRpa P_TtoC.
Import ListNotations.

(** * Specification: solutions of the RPA problem of dimension n *)
Section Spec.
Context (K : oring).
Open Scope K_scope.
Notation vec := (nat -> K).
Notation mt := (nat -> nat -> K).

(** [D = A-B], [R = A+B]; frequencies [f], columns of [X+Y] and [X-Y]. *)
Definition rpa_sol (n : nat) (D R : mt) (f : vec) (xpy xmy : mt) : Prop :=
  meq n n (mm n D xmy) (mm n xpy (dg f)) /\
  meq n n (mm n R xpy) (mm n xmy (dg f)) /\
  meq n n (mm n (tr xpy) xmy) idm /\
  meq n n (mm n xpy (tr xmy)) idm.

(** What a diagonalisation has to return. *)
Definition eig_ok (n : nat) (m : mt) (ec : vec * mt) : Prop :=
  meq n n (mm n m (snd ec)) (mm n (snd ec) (dg (fst ec))) /\
  meq n n (mm n (tr (snd ec)) (snd ec)) idm /\
  meq n n (mm n (snd ec) (tr (snd ec))) idm.

(** [sq] and [inv] do what they should at the first n values of d. *)
Definition roots (sq inv : K -> K) (n : nat) (d : vec) : Prop :=
  forall i, (i < n)%nat -> sq (d i) * sq (d i) = d i /\ sq (d i) * inv (sq (d i)) = 1.

(** n-th power *)
Fixpoint npow (x : K) (n : nat) : K := match n with O => 1 | S m => x * npow x m end.
End Spec.
Arguments rpa_sol {K}. Arguments eig_ok {K}. Arguments roots {K}. Arguments npow {K}.

Section G.
Context (K : oring).
Add Ring Kr : (rth K).
Open Scope K_scope.
Notation vec := (nat -> K).
Notation mt := (nat -> nat -> K).

Lemma no_zero_div (x y : K) : x * y = 0 -> x = 0 \/ y = 0.
Proof.
  intros H.
  assert (P : forall u v : K, lt 0 u -> lt 0 v -> u * v <> 0).
  { intros u v Hu Hv E. pose proof (ltb_mul K u v Hu Hv) as G. rewrite E in G. rewrite ltb_irrefl in G. discriminate. }
  destruct (ltb_total K 0 x) as [Hx|[Hx|Hx]]; auto; destruct (ltb_total K 0 y) as [Hy|[Hy|Hy]]; auto; exfalso.
  - exact (P x y Hx Hy H).
  - apply lt0_opp in Hy. apply (P x (- y) Hx Hy). transitivity (- (x * y)); [ring|rewrite H; ring].
  - apply lt0_opp in Hx. apply (P (- x) y Hx Hy). transitivity (- (x * y)); [ring|rewrite H; ring].
  - apply lt0_opp in Hy. apply lt0_opp in Hx. apply (P (- x) (- y) Hx Hy). transitivity (x * y); [ring|rewrite H; ring].
Qed.

Lemma cancel n (a b x : mt) : meq n n (mm n a b) idm -> meq n n (mm n a (mm n b x)) x.
Proof. intros H. rewrite <- mm_assoc, H. apply mm_idl. Qed.

Lemma repl n (a b c x : mt) : meq n n (mm n a b) c -> meq n n (mm n a (mm n b x)) (mm n c x).
Proof. intros H. rewrite <- mm_assoc, H. reflexivity. Qed.

Lemma solution n (S Si D R c : mt) (e f g gi : vec) xpy xmy :
  meq n n (tr S) S -> meq n n (tr Si) Si ->
  meq n n (mm n S Si) idm -> meq n n (mm n Si S) idm -> meq n n (mm n S S) D ->
  eig_ok n (mm n S (mm n R S)) (e, c) ->
  (forall i, (i < n)%nat -> f i * f i = e i) -> (forall i, (i < n)%nat -> g i * g i = f i) ->
  (forall i, (i < n)%nat -> g i * gi i = 1) ->
  meq n n xpy (mm n S (mm n c (dg gi))) -> meq n n xmy (mm n Si (mm n c (dg g))) ->
  rpa_sol n D R f xpy xmy.
Proof.
  intros Hs Hsi H1 H2 HD [He [Hc1 Hc2]] Hf Hg Hgi Hp Hm. cbn [fst snd] in *.
  assert (Egg : meq n n (mm n (dg gi) (dg f)) (dg g)).
  { rewrite mm_dd. apply dg_ext. intros i Hi. rewrite <- (Hg i Hi).
    transitivity (g i * (g i * gi i)); [ring|rewrite (Hgi i Hi); ring]. }
  assert (Eid : meq n n (mm n (dg gi) (dg g)) idm).
  { rewrite mm_dd. apply dg_id. intros i Hi. rewrite <- (Hgi i Hi). ring. }
  assert (Eid' : meq n n (mm n (dg g) (dg gi)) idm).
  { rewrite mm_dd. apply dg_id. intros i Hi. apply (Hgi i Hi). }
  assert (Eeg : meq n n (mm n (dg e) (dg gi)) (mm n (dg g) (dg f))).
  { rewrite !mm_dd. apply dg_ext. intros i Hi. rewrite <- (Hf i Hi).
    transitivity (f i * gi i * f i); [ring|]. rewrite <- (Hg i Hi) at 1.
    transitivity (g i * (g i * gi i) * f i); [ring|rewrite (Hgi i Hi); ring]. }
  split; [|split; [|split]].
  - rewrite Hm, Hp, <- HD, !mm_assoc, (cancel _ _ _ _ H1), Egg. reflexivity.
  - rewrite Hp, Hm, !mm_assoc.
    transitivity (mm n Si (mm n (mm n S (mm n R S)) (mm n c (dg gi)))).
    { rewrite !mm_assoc, (cancel _ _ _ _ H2). reflexivity. }
    rewrite (repl _ _ _ _ _ He), !mm_assoc, Eeg. reflexivity.
  - rewrite Hp, Hm, tr_mm, (tr_mm n n n c), Hs, tr_dg, !mm_assoc, (cancel _ _ _ _ H1), (cancel _ _ _ _ Hc1).
    exact Eid.
  - rewrite Hp, Hm, tr_mm, (tr_mm n n n c), Hsi, tr_dg, !mm_assoc, (cancel _ _ _ _ Eid), (cancel _ _ _ _ Hc2).
    exact H1.
Qed.

Section Cons.
Variables (n : nat) (D R : mt) (f : vec) (xpy xmy : mt).
Hypothesis H : rpa_sol n D R f xpy xmy.

Lemma norm' : meq n n (mm n xmy (tr xpy)) idm.
Proof.
  destruct H as (_ & _ & _ & H4). rewrite <- (tr_tr n n xmy), <- tr_mm, H4. apply tr_idm.
Qed.

Lemma norm'' : meq n n (mm n (tr xmy) xpy) idm.
Proof.
  destruct H as (_ & _ & H3 & _). rewrite <- (tr_tr n n xpy), <- tr_mm, H3. apply tr_idm.
Qed.

Lemma R_spec : meq n n R (mm n xmy (mm n (dg f) (tr xmy))).
Proof.
  destruct H as (H1 & H2 & H3 & H4).
  rewrite <- (mm_idr n n R), <- H4, (repl _ _ _ _ _ H2), mm_assoc. reflexivity.
Qed.

Lemma D_spec : meq n n D (mm n xpy (mm n (dg f) (tr xpy))).
Proof.
  destruct H as (H1 & H2 & H3 & H4).
  rewrite <- (mm_idr n n D), <- norm', (repl _ _ _ _ _ H1), mm_assoc. reflexivity.
Qed.

(** the moment of order x *)
Definition eta (x : nat) : mt := mm n xpy (mm n (dg (fun i => npow (f i) x)) (tr xpy)).

Lemma eta_1 : meq n n (eta 1) D.
Proof.
  unfold eta. rewrite D_spec. rewrite (dg_ext n (fun i => npow (f i) 1) f); [reflexivity|].
  intros; cbn [npow Nat.add]; ring.
Qed.

Lemma eta_0 : meq n n (eta 0) (mm n xpy (tr xpy)).
Proof. unfold eta. rewrite (dg_id n (fun i => npow (f i) 0)), mm_idl; [reflexivity|]. reflexivity. Qed.

Lemma eta_step x : meq n n (eta (2 + x)) (mm n D (mm n R (eta x))).
Proof.
  destruct H as (H1 & H2 & H3 & H4). unfold eta.
  rewrite (repl _ _ _ _ _ H2), !mm_assoc, (repl _ _ _ _ _ H1), !mm_assoc.
  rewrite <- (mm_assoc n n n n (dg f) (dg f)), mm_dd.
  rewrite <- (mm_assoc n n n n (dg (fun i => f i * f i))), mm_dd.
  rewrite (dg_ext n (fun i => npow (f i) (2 + x)) (fun i => f i * f i * npow (f i) x)); [reflexivity|].
  intros; cbn [npow Nat.add]; ring.
Qed.

Lemma eta_sym x : meq n n (tr (eta x)) (eta x).
Proof. unfold eta. rewrite tr_mm, tr_mm, tr_tr, tr_dg, mm_assoc. reflexivity. Qed.

Lemma eta_riccati : meq n n (mm n (eta 0) (mm n R (eta 0))) D.
Proof.
  destruct H as (H1 & H2 & H3 & H4).
  rewrite eta_0, (repl _ _ _ _ _ H2), !mm_assoc, (cancel _ _ _ _ H3).
  symmetry. apply D_spec.
Qed.

Lemma eta_inv : meq n n (mm n (eta 0) (mm n xmy (tr xmy))) idm.
Proof. destruct H as (H1 & H2 & H3 & H4). rewrite eta_0, mm_assoc, (cancel _ _ _ _ H3). exact H4. Qed.

Lemma tr_etaR : trace n (mm n (eta 0) R) = Sum n f.
Proof.
  destruct H as (H1 & H2 & H3 & H4).
  assert (E : meq n n (mm n (eta 0) R) (mm n xpy (mm n (dg f) (tr xmy)))).
  { rewrite eta_0, mm_assoc, R_spec, (cancel _ _ _ _ H3). reflexivity. }
  rewrite E, trace_mm.
  assert (E2 : meq n n (mm n (mm n (dg f) (tr xmy)) xpy) (dg f)).
  { rewrite mm_assoc, norm'', mm_idr. reflexivity. }
  rewrite E2. apply trace_dg.
Qed.

Lemma tr_D : trace n D = Sum n (fun i => f i * Sum n (fun p => xpy p i * xpy p i)).
Proof.
  rewrite D_spec, trace_mm.
  transitivity (trace n (mm n (dg f) (mm n (tr xpy) xpy))).
  { apply trace_proper. rewrite mm_assoc. reflexivity. }
  unfold trace. apply Sum_ext. intros i Hi. rewrite (mm_dgl n n f _ i i Hi Hi). reflexivity.
Qed.

Lemma tr_R : trace n R = Sum n (fun i => f i * Sum n (fun p => xmy p i * xmy p i)).
Proof.
  rewrite R_spec, trace_mm.
  transitivity (trace n (mm n (dg f) (mm n (tr xmy) xmy))).
  { apply trace_proper. rewrite mm_assoc. reflexivity. }
  unfold trace. apply Sum_ext. intros i Hi. rewrite (mm_dgl n n f _ i i Hi Hi). reflexivity.
Qed.

(** The plasmon formula: minus the sum over the excitations of frequency times squared norm of Y. *)
Lemma plasmon hlf : hlf + hlf = 1 ->
  hlf * (Sum n f - hlf * (trace n R + trace n D)) =
  - Sum n (fun i => f i * Sum n (fun p => (hlf * (xpy p i - xmy p i)) * (hlf * (xpy p i - xmy p i)))).
Proof.
  intros Hh. destruct H as (H1 & H2 & H3 & H4).
  rewrite tr_R, tr_D.
  assert (E : forall i, (i < n)%nat -> Sum n (fun p => xpy p i * xmy p i) = 1).
  { intros i Hi. transitivity (mm n (tr xpy) xmy i i); [reflexivity|]. rewrite (H3 i i Hi Hi).
    unfold idm, delta. rewrite Nat.eqb_refl. reflexivity. }
  assert (E2 : forall i, (i < n)%nat ->
     Sum n (fun p => (hlf * (xpy p i - xmy p i)) * (hlf * (xpy p i - xmy p i)))
     = hlf * hlf * (Sum n (fun p => xpy p i * xpy p i) + Sum n (fun p => xmy p i * xmy p i) - (1 + 1))).
  { intros i Hi.
    transitivity (hlf * hlf * (Sum n (fun p => xpy p i * xpy p i) + Sum n (fun p => xmy p i * xmy p i)
                  - (Sum n (fun p => xpy p i * xmy p i) + Sum n (fun p => xpy p i * xmy p i)))).
    - rewrite <- !Sum_add, <- Sum_sub, <- Sum_mul_l. apply Sum_ext. intros; ring.
    - rewrite (E i Hi). reflexivity. }
  transitivity (- Sum n (fun i => f i * (hlf * hlf * (Sum n (fun p => xpy p i * xpy p i)
       + Sum n (fun p => xmy p i * xmy p i) - (1 + 1))))).
  2:{ f_equal. apply Sum_ext. intros i Hi. rewrite (E2 i Hi). reflexivity. }
  rewrite <- Sum_opp.
  transitivity (hlf * Sum n (fun i => f i - hlf * (f i * Sum n (fun p => xmy p i * xmy p i)
       + f i * Sum n (fun p => xpy p i * xpy p i)))).
  { rewrite Sum_sub, Sum_mul_l, Sum_add. reflexivity. }
  rewrite <- Sum_mul_l. apply Sum_ext. intros i Hi.
  set (a := Sum n _). set (b := Sum n _).
  assert (E3 : f i = (hlf + hlf) * f i) by (rewrite Hh; ring).
  rewrite E3 at 1. ring.
Qed.
End Cons.

(** Functions of a matrix do not depend on the eigenvectors chosen. *)
Lemma fun_unique n (m : mt) e c e' c' (h : K -> K) :
  eig_ok n m (e, c) -> eig_ok n m (e', c') ->  meq n n (tr m) m ->
  meq n n (mm n c (mm n (dg (fun i => h (e i))) (tr c))) (mm n c' (mm n (dg (fun i => h (e' i))) (tr c'))).
Proof.
  intros [H1 [H2 H3]] [G1 [G2 G3]] Hs. cbn [fst snd] in *.
  set (w := mm n (tr c) c').
  assert (E : meq n n (mm n (dg e) w) (mm n w (dg e'))).
  { unfold w. rewrite mm_assoc, <- G1.
    transitivity (mm n (tr (mm n c (dg e))) c').
    { rewrite tr_mm, tr_dg, mm_assoc. reflexivity. }
    rewrite <- H1, tr_mm, Hs, mm_assoc. reflexivity. }
  assert (E2 : meq n n (mm n (dg (fun i => h (e i))) w) (mm n w (dg (fun i => h (e' i))))).
  { intros i j Hi Hj. specialize (E i j Hi Hj).
    rewrite (mm_dgl n n e w i j Hi Hj), (mm_dgr n n e' w i j Hi Hj) in E.
    rewrite (mm_dgl n n _ w i j Hi Hj), (mm_dgr n n _ w i j Hi Hj).
    assert (Z : (e i - e' j) * w i j = 0) by (transitivity (e i * w i j - w i j * e' j); [ring|rewrite E; ring]).
    destruct (no_zero_div _ _ Z) as [Z1|Z1].
    - assert (Q : e i = e' j) by (transitivity (e i - e' j + e' j); [ring|rewrite Z1; ring]). rewrite Q. ring.
    - rewrite Z1. ring. }
  transitivity (mm n c (mm n (mm n (dg (fun i => h (e i))) w) (tr c'))).
  { unfold w. rewrite !mm_assoc, G3, mm_idr. reflexivity. }
  rewrite E2. unfold w. rewrite !mm_assoc, (cancel _ _ _ _ H3). reflexivity.
Qed.

Lemma trace_unique n (m : mt) e c e' c' (h : K -> K) :
  eig_ok n m (e, c) -> eig_ok n m (e', c') ->  meq n n (tr m) m ->
  Sum n (fun i => h (e i)) = Sum n (fun i => h (e' i)).
Proof.
  intros H G Hs.
  pose proof (trace_proper n _ _ (fun_unique n m e c e' c' h H G Hs)) as E.
  destruct H as [_ [H2 _]], G as [_ [G2 _]]; cbn [fst snd] in *.
  rewrite trace_mm, (trace_mm n n c') in E.
  assert (A : forall (d : vec) (b : mt), meq n n (mm n (tr b) b) idm -> trace n (mm n (mm n (dg d) (tr b)) b) = Sum n d).
  { intros d b Hb. transitivity (trace n (dg d)); [|apply trace_dg]. apply trace_proper.
    rewrite mm_assoc, Hb, mm_idr. reflexivity. }
  rewrite (A _ _ H2), (A _ _ G2) in E. exact E.
Qed.
End G.

(** * The code *)
Section T.
Context (K : oring).
Add Ring Kr2 : (rth K).
Variables (sq inv : K -> K) (hlf thr : K).
Variables (eigh : nat -> (nat -> nat -> K) -> (nat -> K) * (nat -> nat -> K)).
Variables (sqrtm minv : nat -> (nat -> nat -> K) -> (nat -> nat -> K)).
Open Scope K_scope.
Notation vec := (nat -> K).
Notation mt := (nat -> nat -> K).
Notation ten := (nat -> nat -> nat -> nat -> K).

Lemma vcat_l n (x y : vec) p : (p < n)%nat -> vcat K n x y p = x p.
Proof. intros H. unfold vcat. apply Nat.ltb_lt in H. rewrite H. reflexivity. Qed.
Lemma vcat_r n (x y : vec) p : vcat K n x y (n + p)%nat = y p.
Proof. unfold vcat. rewrite (proj2 (Nat.ltb_ge _ _)) by lia. f_equal. lia. Qed.

Lemma blk_ll n m (a b c d : mt) p q : (p < n)%nat -> (q < m)%nat -> blk K n m a b c d p q = a p q.
Proof. intros H G. unfold blk. rewrite (proj2 (Nat.ltb_lt _ _) H), (proj2 (Nat.ltb_lt _ _) G). reflexivity. Qed.
Lemma blk_lr n m (a b c d : mt) p q : (p < n)%nat -> blk K n m a b c d p (m + q)%nat = b p q.
Proof.
  intros H. unfold blk. rewrite (proj2 (Nat.ltb_lt _ _) H), (proj2 (Nat.ltb_ge (m + q) m)) by lia. f_equal. lia.
Qed.
Lemma blk_rl n m (a b c d : mt) p q : (q < m)%nat -> blk K n m a b c d (n + p)%nat q = c p q.
Proof.
  intros H. unfold blk. rewrite (proj2 (Nat.ltb_lt q m) H), (proj2 (Nat.ltb_ge (n + p) n)) by lia. f_equal. lia.
Qed.
Lemma blk_rr n m (a b c d : mt) p q : blk K n m a b c d (n + p)%nat (m + q)%nat = d p q.
Proof.
  unfold blk. rewrite (proj2 (Nat.ltb_ge (n + p) n)), (proj2 (Nat.ltb_ge (m + q) m)) by lia. f_equal; lia.
Qed.

Lemma blk_ext n m (F : mt) N M (a b c d : mt) :
  (forall p q, (p < n)%nat -> (q < m)%nat -> a p q = F p q) ->
  (forall p q, (p < n)%nat -> (m + q < M)%nat -> b p q = F p (m + q)%nat) ->
  (forall p q, (n + p < N)%nat -> (q < m)%nat -> c p q = F (n + p)%nat q) ->
  (forall p q, (n + p < N)%nat -> (m + q < M)%nat -> d p q = F (n + p)%nat (m + q)%nat) ->
  meq N M (blk K n m a b c d) F.
Proof.
  intros Ha Hb Hc Hd p q Hp Hq.
  destruct (Nat.lt_ge_cases p n) as [P|P]; destruct (Nat.lt_ge_cases q m) as [Q|Q].
  - rewrite blk_ll by assumption. auto.
  - replace q with (m + (q - m))%nat in * by lia. rewrite blk_lr by assumption. auto.
  - replace p with (n + (p - n))%nat in * by lia. rewrite blk_rl by assumption. auto.
  - replace p with (n + (p - n))%nat in * by lia. replace q with (m + (q - m))%nat in * by lia.
    rewrite blk_rr. auto.
Qed.

Lemma pw_npow x n : pw K x n = npow x n.
Proof. induction n; cbn; congruence. Qed.

(** ** The moments are those of the whole matrix X+Y. *)
Lemma gen_mom_eta (s : sol K) x : meq (s_n K s) (s_n K s) (gen_mom K s x) (eta K (s_n K s) (s_f K s) (s_xpy K s) x).
Proof.
  assert (E : meq (s_n K s) (s_n K s) (eta K (s_n K s) (s_f K s) (s_xpy K s) x)
    (fun p q => Sum (s_n K s) (fun n => s_xpy K s p n * npow (s_f K s n) x * s_xpy K s q n))).
  { intros p q Hp Hq. unfold eta. unfold mm at 1. apply Sum_ext. intros i Hi.
    rewrite (mm_dgl (s_n K s) (s_n K s) _ _ i q Hi Hq). unfold tr. ring. }
  rewrite E. unfold gen_mom. apply blk_ext; intros p q Hp Hq; unfold tr, xpy_a, xpy_b; apply Sum_ext; intros i _;
    pose proof (pw_npow (s_f K s i) x) as Q; cbv beta in Q; try (rewrite Q; reflexivity).
  transitivity (s_xpy K s q i * npow (s_f K s i) x * s_xpy K s (s_na K s + p)%nat i); [reflexivity|ring].
Qed.

(** ** Every solution has the moments of RPA theory (for all orders). *)
Theorem C69_moments (s : sol K) (D R : mt) :
  rpa_sol (s_n K s) D R (s_f K s) (s_xpy K s) (s_xmy K s) ->
  let n := s_n K s in
  (forall x, meq n n (tr (gen_mom K s x)) (gen_mom K s x)) /\
  meq n n (gen_mom K s 1) D /\
  (forall x, meq n n (gen_mom K s (2 + x)) (mm n D (mm n R (gen_mom K s x)))) /\
  meq n n (mm n (gen_mom K s 0) (mm n R (gen_mom K s 0))) D /\
  meq n n (mm n (gen_mom K s 0) (mm n (s_xmy K s) (tr (s_xmy K s)))) idm /\
  trace n (mm n (gen_mom K s 0) R) = Sum n (s_f K s).
Proof.
  intros H n. split; [|split; [|split; [|split; [|split]]]].
  - intros x. unfold n. rewrite gen_mom_eta. apply eta_sym.
  - unfold n. rewrite gen_mom_eta. apply (eta_1 K _ _ _ _ _ _ H).
  - intros x. unfold n. rewrite (gen_mom_eta s (2 + x)), (gen_mom_eta s x). apply (eta_step K _ _ _ _ _ _ H).
  - unfold n. rewrite (gen_mom_eta s 0). apply (eta_riccati K _ _ _ _ _ _ H).
  - unfold n. rewrite (gen_mom_eta s 0). apply (eta_inv K _ _ _ _ _ _ H).
  - unfold n. rewrite (gen_mom_eta s 0). apply (tr_etaR K _ _ _ _ _ _ H).
Qed.

(** ** kernel without exchange-correlation kernel: solution of the RPA problem *)
Definition spec_dim (nova novb : nat) (er : vec * vec * option (rot K)) : nat :=
  let '(_, _, r) := er in (dim_a K nova r + dim_b K novb r)%nat.
Definition spec_amb (nova : nat) (er : vec * vec * option (rot K)) : vec :=
  let '(ea, eb, r) := er in amb0 K (dim_a K nova r) ea eb.
Definition spec_apb (nova novb : nat) (er : vec * vec * option (rot K)) (v : mt) (alpha : K) : mt :=
  let '(ea, eb, r) := er in apb0 K nova novb r ea eb v alpha.
Definition spec_m (nova novb : nat) (er : vec * vec * option (rot K)) (v : mt) (alpha : K) : mt :=
  m0 K sq (spec_amb nova er) (spec_apb nova novb er v alpha).

Theorem C69_solution nova novb er fullv alpha s :
  kernel0 K sq inv hlf thr eigh nova novb er fullv alpha = Ret s ->
  let n := spec_dim nova novb er in
  let m := spec_m nova novb er fullv alpha in
  eig_ok n m (eigh n m) -> roots sq inv n (spec_amb nova er) ->
  roots sq inv n (fst (eigh n m)) -> roots sq inv n (s_f K s) ->
  s_n K s = n /\
  rpa_sol n (dg (spec_amb nova er)) (spec_apb nova novb er fullv alpha) (s_f K s) (s_xpy K s) (s_xmy K s).
Proof.
  destruct er as [[ea eb] r]. intros Hk n m He Ha Hr Hf.
  unfold kernel0 in Hk.
  change (dim_a K nova r + dim_b K novb r)%nat with n in Hk.
  change (m0 K sq (amb0 K (dim_a K nova r) ea eb) (apb0 K nova novb r ea eb fullv alpha)) with m in Hk.
  destruct (eigh n m) as [e c] eqn:Em. cbn [fst snd] in *.
  destruct (all_above K thr n e); [|discriminate]. injection Hk as <-.
  cbn [s_n s_na s_nb s_f s_xpy s_xmy] in *.
  split; [reflexivity|].
  set (d := spec_amb nova (ea, eb, r)) in *. set (R := spec_apb nova novb (ea, eb, r) fullv alpha) in *.
  apply (solution K n (dg (fun p => sq (d p))) (dg (fun p => inv (sq (d p)))) (dg d) R c e _
     (fun i => sq (sq (e i))) (fun i => inv (sq (sq (e i))))).
  - apply tr_dg.
  - apply tr_dg.
  - rewrite mm_dd. apply dg_id. intros i Hi. apply (Ha i Hi).
  - rewrite mm_dd. apply dg_id. intros i Hi. rewrite <- (proj2 (Ha i Hi)). ring.
  - rewrite mm_dd. apply dg_ext. intros i Hi. apply (Ha i Hi).
  - assert (E : meq n n m (mm n (dg (fun p => sq (d p))) (mm n R (dg (fun p => sq (d p)))))).
    { intros p q Hp Hq. rewrite (mm_dgl n n _ _ p q Hp Hq), (mm_dgr n n _ _ p q Hp Hq).
      unfold m, spec_m, m0. fold d R. ring. }
    destruct He as [G1 [G2 G3]]. cbn [fst snd] in *. split; [|split; assumption]. cbn [fst snd].
    rewrite <- E. exact G1.
  - intros i Hi. apply (Hr i Hi).
  - intros i Hi. apply (Hf i Hi).
  - intros i Hi. apply (Hf i Hi).
  - intros p i Hp Hi. rewrite (mm_dgl n n _ _ p i Hp Hi), (mm_dgr n n _ _ p i Hp Hi).
    change (amb0 K (dim_a K nova r) ea eb p) with (d p). ring.
  - intros p i Hp Hi. rewrite (mm_dgl n n _ _ p i Hp Hi), (mm_dgr n n _ _ p i Hp Hi).
    change (amb0 K (dim_a K nova r) ea eb p) with (d p). ring.
Qed.

Lemma Sum_vcat n m (x y : vec) : Sum (n + m) (vcat K n x y) = Sum n x + Sum m y.
Proof.
  rewrite Sum_split. f_equal; apply Sum_ext; intros i Hi; [apply vcat_l; assumption|apply vcat_r].
Qed.

(** The energy of an RPA solution: minus the sum over excitations of frequency times squared norm of Y. *)
Definition plasmon_energy (n : nat) (f : vec) (xpy xmy : mt) : K :=
  - Sum n (fun i => f i * Sum n (fun p => (hlf * (xpy p i - xmy p i)) * (hlf * (xpy p i - xmy p i)))).

Definition spec_tr (nova novb : nat) (er : vec * vec * option (rot K)) (v : mt) : K :=
  let '(_, _, r) := er in trace (dim_a K nova r + dim_b K novb r) (rot_full K nova novb r v).

Lemma rot_full_sc nova novb r v x n : meq n n (rot_full K nova novb r (fun p q => (1 + 1) * v p q * x))
  (msc ((1 + 1) * x) (rot_full K nova novb r v)).
Proof.
  destruct r as [r|]; cbn [rot_full]; [|intros p q _ _; unfold msc; ring].
  unfold rotm. rewrite <- mm_scl. rewrite <- mm_scr.
  transitivity (mm (nova + novb) (mm (nova + novb) (block_diag K (rna K r) nova (rma K r) (rmb K r))
     (msc ((1 + 1) * x) v)) (tr (block_diag K (rna K r) nova (rma K r) (rmb K r)))).
  2: reflexivity.
  intros p q _ _. unfold mm at 1 3. apply Sum_ext. intros k _. f_equal. unfold mm. apply Sum_ext. intros l _.
  f_equal. unfold msc. ring.
Qed.

(** ** The energy kernel() returns: the plasmon formula, plus an error that is there unless alpha = 1 and the trace
    of the interaction is unchanged by the rotation. *)
Theorem C69_energy nova novb er fullv alpha s :
  hlf + hlf = 1 ->
  kernel0 K sq inv hlf thr eigh nova novb er fullv alpha = Ret s ->
  let n := spec_dim nova novb er in
  let m := spec_m nova novb er fullv alpha in
  eig_ok n m (eigh n m) -> roots sq inv n (spec_amb nova er) ->
  roots sq inv n (fst (eigh n m)) -> roots sq inv n (s_f K s) ->
  s_e K s = plasmon_energy n (s_f K s) (s_xpy K s) (s_xmy K s)
          + hlf * (alpha * spec_tr nova novb er fullv - trace (nova + novb) fullv).
Proof.
  intros Hh Hk n m He Ha Hr Hf.
  destruct (C69_solution nova novb er fullv alpha s Hk He Ha Hr Hf) as [_ HS].
  unfold plasmon_energy. fold n in HS. rewrite <- (plasmon K n _ _ _ _ _ HS hlf Hh).
  destruct er as [[ea eb] r].
  assert (E : s_e K s = (Sum n (s_f K s) - Sum (dim_a K nova r) ea - Sum (dim_b K novb r) eb
                - trace (nova + novb) fullv) * hlf).
  { unfold kernel0 in Hk. 
    change (dim_a K nova r + dim_b K novb r)%nat with n in Hk.
    change (m0 K sq (amb0 K (dim_a K nova r) ea eb) (apb0 K nova novb r ea eb fullv alpha)) with m in Hk.
    destruct (eigh n m) as [e c] eqn:Em. destruct (all_above K thr n e); [|discriminate]. injection Hk as <-.
    reflexivity. }
  rewrite E.
  assert (ED : trace n (dg (spec_amb nova (ea, eb, r))) = Sum (dim_a K nova r) ea + Sum (dim_b K novb r) eb).
  { rewrite trace_dg. apply Sum_vcat. }
  assert (ER : trace n (spec_apb nova novb (ea, eb, r) fullv alpha)
     = (1 + 1) * alpha * spec_tr nova novb (ea, eb, r) fullv + trace n (dg (spec_amb nova (ea, eb, r)))).
  { cbn [spec_apb spec_amb spec_tr]. unfold apb0. rewrite trace_add.
    rewrite (rot_full_sc nova novb r fullv alpha n), trace_sc. reflexivity. }
  rewrite ER, ED.
  set (F := Sum n (s_f K s)). set (T := trace (nova + novb) fullv). set (V := spec_tr _ _ _ _).
  set (A := Sum _ ea). set (B := Sum _ eb).
  transitivity (hlf * (F - (hlf + hlf) * (A + B) - (hlf + hlf) * (alpha * V)) + hlf * (alpha * V - T)).
  - rewrite Hh. ring.
  - ring.
Qed.

(** ** Without rotation and at full coupling: the plasmon formula, and never positive. *)
Lemma le_0_add (x y : K) : le 0 x -> le 0 y -> le 0 (x + y).
Proof.
  intros Hx Hy. apply (le_tr 0 x (x + y) Hx).
  pose proof (le_add 0 y x Hy) as G. replace (0 + x) with x in G by ring. replace (y + x) with (x + y) in G by ring.
  exact G.
Qed.
Lemma le_0_mul (x y : K) : le 0 x -> le 0 y -> le 0 (x * y).
Proof.
  intros Hx Hy. apply le_lt_eq in Hx, Hy. apply le_lt_eq.
  destruct Hx as [Hx|<-]; [|right; ring]. destruct Hy as [Hy|<-]; [|right; ring].
  left. exact (ltb_mul K x y Hx Hy).
Qed.
Lemma le_0_sqr (x : K) : le 0 (x * x).
Proof.
  destruct (le_total 0 x) as [H|H].
  - apply le_0_mul; assumption.
  - replace (x * x) with ((- x) * (- x)) by ring.
    assert (le 0 (- x)).
    { pose proof (le_add x 0 (- x) H) as G. replace (x + - x) with (r0 : K) in G by ring. replace (0 + - x) with (- x) in G by ring. exact G. }
    apply le_0_mul; assumption.
Qed.
Lemma le_0_Sum n (x : vec) : (forall i, (i < n)%nat -> le 0 (x i)) -> le 0 (Sum n x).
Proof.
  induction n; intros H; cbn [Sum]; [apply le_refl|].
  apply le_0_add; [apply IHn; intros; apply H; lia|apply H; lia].
Qed.

Theorem C69_energy_plasmon nova novb ea eb fullv s :
  hlf + hlf = 1 ->
  kernel0 K sq inv hlf thr eigh nova novb (ea, eb, None) fullv 1 = Ret s ->
  let n := (nova + novb)%nat in
  let m := spec_m nova novb (ea, eb, None) fullv 1 in
  eig_ok n m (eigh n m) -> roots sq inv n (spec_amb nova (ea, eb, None)) ->
  roots sq inv n (fst (eigh n m)) -> roots sq inv n (s_f K s) ->
  s_e K s = plasmon_energy n (s_f K s) (s_xpy K s) (s_xmy K s) /\
  ((forall i, (i < n)%nat -> le 0 (s_f K s i)) -> le (s_e K s) 0).
Proof.
  intros Hh Hk n m He Ha Hr Hf.
  pose proof (C69_energy nova novb (ea, eb, None) fullv 1 s Hh Hk He Ha Hr Hf) as E.
  assert (E1 : s_e K s = plasmon_energy n (s_f K s) (s_xpy K s) (s_xmy K s)).
  { rewrite E. cbn [spec_tr dim_a dim_b rot_full spec_dim]. unfold n. ring. }
  split; [exact E1|]. intros Hp. rewrite E1. unfold plasmon_energy.
  set (X := Sum n _).
  assert (HX : le 0 X).
  { apply le_0_Sum. intros i Hi. apply le_0_mul; [apply Hp; exact Hi|]. apply le_0_Sum. intros p _. apply le_0_sqr. }
  pose proof (le_add 0 X (- X) HX) as G. replace (0 + - X) with (- X) in G by ring. replace (X + - X) with (r0 : K) in G by ring.
  exact G.
Qed.

(** ** The arrays hold the matrix elements of RPA theory. *)
Lemma pos_div nv i a : (a < nv)%nat -> ((i * nv + a) / nv)%nat = i.
Proof. intros H. rewrite Nat.div_add_l by lia. rewrite Nat.div_small; lia. Qed.
Lemma pos_mod nv i a : (a < nv)%nat -> ((i * nv + a) mod nv)%nat = a.
Proof. intros H. rewrite Nat.add_comm, Nat.mod_add by lia. apply Nat.mod_small. exact H. Qed.
Lemma pos_lt no nv i a : (i < no)%nat -> (a < nv)%nat -> (i * nv + a < no * nv)%nat.
Proof. nia. Qed.

Lemma delta_pos nv i a j b : (a < nv)%nat -> (b < nv)%nat ->
  @delta K (i * nv + a) (j * nv + b) = if ((i =? j) && (a =? b))%nat then 1 else 0.
Proof.
  intros Ha Hb. unfold delta.
  destruct (Nat.eqb_spec i j) as [->|Hi]; destruct (Nat.eqb_spec a b) as [->|Hb']; cbn [andb].
  - rewrite Nat.eqb_refl. reflexivity.
  - rewrite (proj2 (Nat.eqb_neq _ _)) by lia. reflexivity.
  - rewrite (proj2 (Nat.eqb_neq _ _)); [reflexivity|]. nia.
  - rewrite (proj2 (Nat.eqb_neq _ _)); [reflexivity|]. nia.
Qed.

Lemma gen_eps_at no nv moe i a : (a < nv)%nat -> gen_eps K no nv moe (i * nv + a)%nat = moe (no + a)%nat - moe i.
Proof. intros H. unfold gen_eps. rewrite pos_mod, pos_div by assumption. reflexivity. Qed.
Lemma ovov_at no nv no' nv' eri i a j b : (a < nv)%nat -> (b < nv')%nat ->
  ovov K no nv no' nv' eri (i * nv + a)%nat (j * nv' + b)%nat = eri i (no + a)%nat j (no' + b)%nat.
Proof. intros H G. unfold ovov. rewrite !pos_mod, !pos_div by assumption. reflexivity. Qed.

(** Place of the excitation from occupied orbital i to virtual orbital a of a spin (false: alpha). *)
Definition place (noa nva nvb : nat) (s : bool) (i a : nat) : nat :=
  if s then (noa * nva + (i * nvb + a))%nat else (i * nva + a)%nat.

Theorem C69_arrays_unrestricted noa nva nob nvb moea moeb eaa eab ebb alpha :
  let er := (gen_eps K noa nva moea, gen_eps K nob nvb moeb, None) in
  let no (s : bool) := if s then nob else noa in let nv (s : bool) := if s then nvb else nva in
  let moe (s : bool) := if s then moeb else moea in
  let eri (s t : bool) i a j b := if s then (if t then ebb i (nob + a) j (nob + b) else eab j (noa + b) i (nob + a))%nat
                        else (if t then eab i (noa + a) j (nob + b) else eaa i (noa + a) j (noa + b))%nat in
  forall s t i a j b, (i < no s)%nat -> (a < nv s)%nat -> (j < no t)%nat -> (b < nv t)%nat ->
  spec_amb (noa * nva) er (place noa nva nvb s i a) = moe s (no s + a)%nat - moe s i /\
  spec_apb (noa * nva) (nob * nvb) er (get_k_u K noa nva nob nvb eaa eab ebb) alpha
      (place noa nva nvb s i a) (place noa nva nvb t j b)
  = (if (Bool.eqb s t && (i =? j)%nat && (a =? b)%nat)%bool then moe s (no s + a)%nat - moe s i else 0)
    + (1 + 1) * eri s t i a j b * alpha.
Proof.
  intros er no nv moe eri s t i a j b Hi Ha Hj Hb.
  assert (E1 : forall s i a, (i < no s)%nat -> (a < nv s)%nat ->
     spec_amb (noa * nva) er (place noa nva nvb s i a) = moe s (no s + a)%nat - moe s i).
  { clear. intros s i a Hi Ha. unfold er. cbn [spec_amb dim_a]. unfold amb0, place. destruct s; cbn [no nv moe] in *.
    - rewrite vcat_r. apply gen_eps_at; exact Ha.
    - rewrite vcat_l by (apply pos_lt; assumption). apply gen_eps_at; exact Ha. }
  split; [apply E1; assumption|].
  cbn [spec_apb er]. unfold apb0, madd. cbn [rot_full dim_a].
  rewrite (Radd_comm (rth K)). f_equal.
  - unfold dg. change (amb0 K (noa * nva) (gen_eps K noa nva moea) (gen_eps K nob nvb moeb)) with (spec_amb (noa * nva) er).
    rewrite (E1 t j b Hj Hb). unfold place.
    destruct s, t; cbn [Bool.eqb andb no nv moe] in *.
    + unfold delta. destruct (Nat.eqb_spec i j) as [->|N]; destruct (Nat.eqb_spec a b) as [->|N2]; cbn [andb].
      * rewrite Nat.eqb_refl. ring.
      * rewrite (proj2 (Nat.eqb_neq _ _)) by lia. ring.
      * rewrite (proj2 (Nat.eqb_neq _ _)); [ring|nia].
      * rewrite (proj2 (Nat.eqb_neq _ _)); [ring|nia].
    + unfold delta. rewrite (proj2 (Nat.eqb_neq _ _)); [ring|nia].
    + unfold delta. rewrite (proj2 (Nat.eqb_neq _ _)); [ring|nia].
    + rewrite delta_pos by assumption.
      destruct (Nat.eqb_spec i j) as [->|N]; destruct (Nat.eqb_spec a b) as [->|N2]; cbn [andb]; ring.
  - f_equal. f_equal. unfold get_k_u, place, eri.
    destruct s, t; cbn [no nv] in *.
    + rewrite blk_rr. apply ovov_at; assumption.
    + rewrite blk_rl by (apply pos_lt; assumption). unfold tr. apply ovov_at; assumption.
    + rewrite blk_lr by (apply pos_lt; assumption). apply ovov_at; assumption.
    + rewrite blk_ll by (apply pos_lt; assumption). apply ovov_at; assumption.
Qed.

Theorem C69_arrays_restricted nocc nvir moe eri alpha :
  let er := (gen_eps K nocc nvir moe, gen_eps K nocc nvir moe, None) in
  forall s t i a j b, (i < nocc)%nat -> (a < nvir)%nat -> (j < nocc)%nat -> (b < nvir)%nat ->
  spec_amb (nocc * nvir) er (place nocc nvir nvir s i a) = moe (nocc + a)%nat - moe i /\
  spec_apb (nocc * nvir) (nocc * nvir) er (get_k_r K nocc nvir eri) alpha
      (place nocc nvir nvir s i a) (place nocc nvir nvir t j b)
  = (if (Bool.eqb s t && (i =? j)%nat && (a =? b)%nat)%bool then moe (nocc + a)%nat - moe i else 0)
    + (1 + 1) * eri i (nocc + a)%nat j (nocc + b)%nat * alpha.
Proof.
  intros er s t i a j b Hi Ha Hj Hb.
  pose proof (C69_arrays_unrestricted nocc nvir nocc nvir moe moe eri eri eri alpha s t i a j b) as U. cbv zeta in U.
  assert (I : (i < (if s then nocc else nocc))%nat) by (destruct s; exact Hi).
  assert (J : (j < (if t then nocc else nocc))%nat) by (destruct t; exact Hj).
  assert (A : (a < (if s then nvir else nvir))%nat) by (destruct s; exact Ha).
  assert (B : (b < (if t then nvir else nvir))%nat) by (destruct t; exact Hb).
  specialize (U I A J B). destruct U as [U1 U2]. split.
  - unfold er. rewrite U1. destruct s; reflexivity.
  - unfold er. cbn [spec_apb]. unfold apb0, madd. cbn [rot_full dim_a].
    cbn [spec_apb] in U2. unfold apb0, madd in U2. cbn [rot_full dim_a] in U2.
    set (d := dg _ _ _) in *.
    assert (E : d = (if (Bool.eqb s t && (i =? j)%nat && (a =? b)%nat)%bool then moe (nocc + a)%nat - moe i else 0)).
    { set (x := (1 + 1) * get_k_u K nocc nvir nocc nvir eri eri eri (place nocc nvir nvir s i a) (place nocc nvir nvir t j b) * alpha) in *.
      assert (V : x = (1 + 1) * (if s then if t then eri i (nocc + a)%nat j (nocc + b)%nat else eri j (nocc + b)%nat i (nocc + a)%nat
           else if t then eri i (nocc + a)%nat j (nocc + b)%nat else eri i (nocc + a)%nat j (nocc + b)%nat) * alpha).
      { unfold x. f_equal. f_equal. unfold get_k_u, place. destruct s, t.
        - rewrite blk_rr. apply ovov_at; assumption.
        - rewrite blk_rl by (apply pos_lt; assumption). unfold tr. apply ovov_at; assumption.
        - rewrite blk_lr by (apply pos_lt; assumption). apply ovov_at; assumption.
        - rewrite blk_ll by (apply pos_lt; assumption). apply ovov_at; assumption. }
      rewrite V in U2. transitivity (d + 0); [ring|].
      match type of U2 with ?l + d = ?c + ?l' => transitivity (l + d - l); [ring|rewrite U2] end.
      destruct s, t, (Nat.eqb i j), (Nat.eqb a b); cbn [Bool.eqb andb]; ring. }
    rewrite E, (Radd_comm (rth K)). f_equal. f_equal. f_equal.
    unfold get_k_r, place. destruct s, t.
    + rewrite blk_rr. apply ovov_at; assumption.
    + rewrite blk_rl by (apply pos_lt; assumption). apply ovov_at; assumption.
    + rewrite blk_lr by (apply pos_lt; assumption). apply ovov_at; assumption.
    + rewrite blk_ll by (apply pos_lt; assumption). apply ovov_at; assumption.
Qed.

(** ** With a rotation the arrays are those of the whole problem, projected on the rotated excitations. *)
Lemma rot_eps_ok nov nr r eps e r' :
  rot_eps K eigh nov nr r eps = (e, r') ->
  eig_ok nr (fun p q => Sum nov (fun n => r p n * eps n * r q n)) (eigh nr (fun p q => Sum nov (fun n => r p n * eps n * r q n))) ->
  meq nr nr (fun p q => Sum nov (fun n => r' p n * eps n * r' q n)) (dg e).
Proof.
  unfold rot_eps. set (m := fun p q => Sum nov _).
  destruct (eigh nr m) as [e0 c]. intros E. injection E as <- <-. intros [H1 [H2 H3]]. cbn [fst snd] in *.
  assert (G : forall b : mt, meq nr nr (fun p q => Sum nov (fun n => b p n * eps n * b q n)) (mm nov b (mm nov (dg eps) (tr b)))).
  { intros b p q Hp Hq. unfold mm at 1. apply Sum_ext. intros k Hk.
    transitivity (b p k * (eps k * b q k)); [ring|]. f_equal. symmetry. unfold mm.
    rewrite (Sum_ext nov (fun l => dg eps k l * tr b l q) (fun l => delta k l * (eps l * b q l))).
    - exact (Sum_delta_l nov k (fun l => eps l * b q l) Hk).
    - intros l _. unfold dg, tr. ring. }
  rewrite G.
  assert (Gm : meq nr nr m (mm nov r (mm nov (dg eps) (tr r)))) by apply G.
  rewrite Gm in H1.
  transitivity (mm nr (tr c) (mm nr (mm nov r (mm nov (dg eps) (tr r))) c)).
  - rewrite !mm_assoc.
    assert (T : meq nov nr (tr (mm nr (tr c) r)) (mm nr (tr r) c)).
    { rewrite tr_mm, tr_tr. reflexivity. }
    assert (T2 : meq nr nr (mm nov r (mm nov (dg eps) (tr (mm nr (tr c) r)))) (mm nov r (mm nov (dg eps) (mm nr (tr r) c)))).
    { apply mm_proper; [reflexivity|]. apply mm_proper; [reflexivity|exact T]. }
    rewrite T2. reflexivity.
  - rewrite H1. rewrite (cancel K _ _ _ _ H2). reflexivity.
Qed.

Lemma sum_L n m (f g h : vec) : (forall k, (k < n)%nat -> f k = h k) -> (forall k, (k < m)%nat -> g k = 0) ->
  Sum n f + Sum m g = Sum n h.
Proof. intros H G. rewrite (Sum_0 m g G), (Sum_ext n f h H). ring. Qed.
Lemma sum_R n m (f g h : vec) : (forall k, (k < n)%nat -> f k = 0) -> (forall k, (k < m)%nat -> g k = h k) ->
  Sum n f + Sum m g = Sum m h.
Proof. intros H G. rewrite (Sum_0 n f H), (Sum_ext m g h G). ring. Qed.
Lemma sum_N n m (f g : vec) : (forall k, (k < n)%nat -> f k = 0) -> (forall k, (k < m)%nat -> g k = 0) ->
  Sum n f + Sum m g = 0.
Proof. intros H G. rewrite (Sum_0 n f H), (Sum_0 m g G). ring. Qed.

Lemma rotm_dg nova novb ra rb (a b : mt) (ea eb : vec) :
  meq (ra + rb) (ra + rb) (rotm K (nova + novb) (block_diag K ra nova a b) (dg (vcat K nova ea eb)))
      (blk K ra ra (fun p q => Sum nova (fun n => a p n * ea n * a q n)) zm zm
                   (fun p q => Sum novb (fun n => b p n * eb n * b q n))).
Proof.
  set (F := block_diag K ra nova a b).
  assert (E : meq (ra + rb) (ra + rb) (rotm K (nova + novb) F (dg (vcat K nova ea eb)))
     (fun p q => Sum nova (fun k => F p k * ea k * F q k) + Sum novb (fun k => F p (nova + k)%nat * eb k * F q (nova + k)%nat))).
  { intros p q Hp Hq. unfold rotm. unfold mm at 1.
    rewrite (Sum_ext _ _ (fun k => F p k * vcat K nova ea eb k * F q k)).
    - rewrite Sum_split. f_equal; apply Sum_ext; intros k Hk; [rewrite vcat_l by exact Hk|rewrite vcat_r]; reflexivity.
    - intros k Hk. f_equal. 
      rewrite (mm_dgr (ra + rb) (nova + novb) _ F p k Hp Hk). reflexivity. }
  rewrite E. symmetry.
  assert (B : forall p k, (p < ra)%nat -> (k < nova)%nat -> F p k = a p k)
    by (intros; unfold F, block_diag; rewrite blk_ll by assumption; reflexivity).
  assert (B1 : forall p k, (p < ra)%nat -> F p (nova + k)%nat = 0)
    by (intros; unfold F, block_diag; rewrite blk_lr by assumption; reflexivity).
  assert (B2 : forall p k, (k < nova)%nat -> F (ra + p)%nat k = 0)
    by (intros; unfold F, block_diag; rewrite blk_rl by assumption; reflexivity).
  assert (B3 : forall p k, F (ra + p)%nat (nova + k)%nat = b p k)
    by (intros; unfold F, block_diag; rewrite blk_rr; reflexivity).
  clearbody F. apply blk_ext; intros p q Hp Hq; symmetry.
  - apply sum_L; intros k Hk; [rewrite !B by assumption; reflexivity|rewrite B1 by assumption; ring].
  - apply sum_N; intros k Hk; [rewrite B2 by assumption; ring|rewrite B1 by assumption; ring].
  - apply sum_N; intros k Hk; [rewrite B2 by assumption; ring|rewrite (B1 q) by assumption; ring].
  - apply sum_R; intros k Hk; [rewrite B2 by assumption; ring|rewrite !B3; reflexivity].
Qed.

Theorem C69_arrays_rotated nova novb epsa epsb (r : rot K) er fullv alpha :
  gen_eps_u K eigh nova novb epsa epsb (Some r) = Ret er ->
  (let m := fun p q => Sum nova (fun n => rma K r p n * epsa n * rma K r q n) in eig_ok (rna K r) m (eigh (rna K r) m)) ->
  (let m := fun p q => Sum novb (fun n => rmb K r p n * epsb n * rmb K r q n) in eig_ok (rnb K r) m (eigh (rnb K r) m)) ->
  exists r', snd er = Some r' /\ rna K r' = rna K r /\ rnb K r' = rnb K r /\
  (exists ca cb, meq (rna K r) (rna K r) (mm (rna K r) (tr ca) ca) idm /\ meq (rnb K r) (rnb K r) (mm (rnb K r) (tr cb) cb) idm /\
     meq (rna K r) nova (rma K r') (mm (rna K r) (tr ca) (rma K r)) /\ meq (rnb K r) novb (rmb K r') (mm (rnb K r) (tr cb) (rmb K r))) /\
  let n := (rna K r + rnb K r)%nat in let N := (nova + novb)%nat in
  let F := block_diag K (rna K r') nova (rma K r') (rmb K r') in
  meq n n (dg (spec_amb nova er)) (rotm K N F (dg (vcat K nova epsa epsb))) /\
  meq n n (spec_apb nova novb er fullv alpha)
      (rotm K N F (madd (fun p q => (1 + 1) * fullv p q * alpha) (dg (vcat K nova epsa epsb)))).
Proof.
  intros H. cbv zeta. intros Ha Hb. unfold gen_eps_u in H.
  destruct (rot_eps K eigh nova (rna K r) (rma K r) epsa) as [ea ma] eqn:Ea.
  destruct (rot_eps K eigh novb (rnb K r) (rmb K r) epsb) as [eb mb] eqn:Eb.
  injection H as <-. eexists. split; [reflexivity|]. cbn [rna rnb rma rmb].
  split; [reflexivity|]. split; [reflexivity|].
  pose proof (rot_eps_ok _ _ _ _ _ _ Ea Ha) as Ga. pose proof (rot_eps_ok _ _ _ _ _ _ Eb Hb) as Gb.
  split.
  { unfold rot_eps in Ea, Eb.
    destruct (eigh (rna K r) _) as [e1 c1]. destruct (eigh (rnb K r) _) as [e2 c2]. 
    exists c1, c2. injection Ea as _ <-. injection Eb as _ <-.
    split; [apply Ha|]. split; [apply Hb|]. split; reflexivity. }
  set (n := (rna K r + rnb K r)%nat). set (F := block_diag _ _ _ _ _).
  assert (E1 : meq n n (dg (spec_amb nova (ea, eb, Some {| rna := rna K r; rma := ma; rnb := rnb K r; rmb := mb |})))
                 (rotm K (nova + novb) F (dg (vcat K nova epsa epsb)))).
  { unfold n, F. rewrite rotm_dg. cbn [spec_amb dim_a rna]. unfold amb0. symmetry.
    apply blk_ext; intros p q Hp Hq; unfold dg.
    - rewrite (Ga p q Hp Hq). unfold dg. rewrite vcat_l by exact Hq. reflexivity.
    - unfold zm, delta. rewrite (proj2 (Nat.eqb_neq _ _)) by lia. ring.
    - unfold zm, delta. rewrite (proj2 (Nat.eqb_neq _ _)) by lia. ring.
    - rewrite (Gb p q) by lia. unfold dg. rewrite vcat_r. f_equal. unfold delta.
      destruct (Nat.eqb_spec p q) as [->|N]; [rewrite Nat.eqb_refl; reflexivity|].
      rewrite (proj2 (Nat.eqb_neq _ _)) by lia. reflexivity. }
  split; [exact E1|].
  transitivity (madd (rotm K (nova + novb) F (fun p q => (1 + 1) * fullv p q * alpha))
                     (rotm K (nova + novb) F (dg (vcat K nova epsa epsb)))).
  - rewrite <- E1. cbn [spec_apb spec_amb]. unfold apb0. reflexivity.
  - unfold rotm. rewrite (mm_addr n (nova + novb)), mm_addl. reflexivity.
Qed.

(** kernel() of the unrestricted class with a projection solves the projected problem: energies and interaction between the
    combinations of excitations that the rows of the projection stand for, up to a rotation among the rows of each spin. *)
Lemma rpa_sol_ext n (D D' R R' : mt) f xpy xmy : meq n n D D' -> meq n n R R' -> rpa_sol n D R f xpy xmy -> rpa_sol n D' R' f xpy xmy.
Proof.
  intros E1 E2 (A & B & C & X). split; [rewrite <- E1; exact A|]. split; [rewrite <- E2; exact B|]. split; assumption.
Qed.
Theorem C69_projected noa nva nob nvb moea moeb eaa eab ebb (r : rot K) alpha s :
  let nova := (noa * nva)%nat in let novb := (nob * nvb)%nat in
  let epsa := gen_eps K noa nva moea in let epsb := gen_eps K nob nvb moeb in
  ssurpa K sq inv hlf thr eigh noa nva nob nvb moea moeb eaa eab ebb (Some r) alpha = Ret s ->
  (let m := fun p q => Sum nova (fun n => rma K r p n * epsa n * rma K r q n) in eig_ok (rna K r) m (eigh (rna K r) m)) ->
  (let m := fun p q => Sum novb (fun n => rmb K r p n * epsb n * rmb K r q n) in eig_ok (rnb K r) m (eigh (rnb K r) m)) ->
  (forall er, gen_eps_u K eigh nova novb epsa epsb (Some r) = Ret er ->
     let n := (rna K r + rnb K r)%nat in let m := spec_m nova novb er (get_k_u K noa nva nob nvb eaa eab ebb) alpha in
     eig_ok n m (eigh n m) /\ roots sq inv n (spec_amb nova er) /\ roots sq inv n (fst (eigh n m)) /\ roots sq inv n (s_f K s)) ->
  exists ca cb,
    meq (rna K r) (rna K r) (mm (rna K r) (tr ca) ca) idm /\ meq (rnb K r) (rnb K r) (mm (rnb K r) (tr cb) cb) idm /\
    let n := (rna K r + rnb K r)%nat in let N := (nova + novb)%nat in
    let F := block_diag K (rna K r) nova (mm (rna K r) (tr ca) (rma K r)) (mm (rnb K r) (tr cb) (rmb K r)) in
    rpa_sol n (rotm K N F (dg (vcat K nova epsa epsb)))
      (rotm K N F (madd (fun p q => (1 + 1) * get_k_u K noa nva nob nvb eaa eab ebb p q * alpha) (dg (vcat K nova epsa epsb))))
      (s_f K s) (s_xpy K s) (s_xmy K s).
Proof.
  intros nova novb epsa epsb Hk Ha Hb Hn. unfold ssurpa in Hk. fold nova novb epsa epsb in Hk.
  destruct (gen_eps_u K eigh nova novb epsa epsb (Some r)) as [er| | |] eqn:Eg; try discriminate. cbn [rbind] in Hk.
  destruct (C69_arrays_rotated nova novb epsa epsb r er (get_k_u K noa nva nob nvb eaa eab ebb) alpha Eg Ha Hb)
    as (r' & E1 & E2 & E3 & (ca & cb & Ca & Cb & Ma & Mb) & X1 & X2).
  destruct er as [[ea eb] ro]. cbn [snd] in E1. subst ro. destruct (Hn _ eq_refl) as (N1 & N2 & N3 & N4). clear Hn.
  assert (Ed : spec_dim nova novb (ea, eb, Some r') = (rna K r + rnb K r)%nat) by (cbn; rewrite E2, E3; reflexivity).
  pose proof (C69_solution nova novb _ _ alpha s Hk) as S. cbv zeta in S. rewrite Ed in S. destruct (S N1 N2 N3 N4) as [_ Sol].
  exists ca, cb. split; [exact Ca|]. split; [exact Cb|]. cbv zeta in *.
  rewrite E2 in X1, X2.
  assert (EF : meq (rna K r + rnb K r) (nova + novb) (block_diag K (rna K r) nova (rma K r') (rmb K r'))
     (block_diag K (rna K r) nova (mm (rna K r) (tr ca) (rma K r)) (mm (rnb K r) (tr cb) (rmb K r)))).
  { unfold block_diag. apply blk_ext; intros p q Hp Hq.
    - rewrite blk_ll by assumption. apply Ma; assumption.
    - rewrite blk_lr by assumption. reflexivity.
    - rewrite blk_rl by assumption. reflexivity.
    - rewrite blk_rr. apply Mb; lia. }
  unfold rotm in *. rewrite EF in X1, X2. exact (rpa_sol_ext _ _ _ _ _ _ _ _ X1 X2 Sol).
Qed.

(** kernel() returns unless an eigenvalue of the matrix diagonalised is not above the threshold. *)
Theorem C69_assert nova novb er fullv alpha :
  let n := spec_dim nova novb er in let m := spec_m nova novb er fullv alpha in
  let r := kernel0 K sq inv hlf thr eigh nova novb er fullv alpha in
  (r = AssertErr <-> exists i, (i < n)%nat /\ ~ lt thr (fst (eigh n m) i)) /\ (r = AssertErr \/ exists s, r = Ret s).
Proof.
  destruct er as [[ea eb] ro]. intros n m r. unfold r, kernel0.
  change (dim_a K nova ro + dim_b K novb ro)%nat with n.
  change (m0 K sq (amb0 K (dim_a K nova ro) ea eb) (apb0 K nova novb ro ea eb fullv alpha)) with m.
  destruct (eigh n m) as [e c]. cbn [fst].
  assert (Q : all_above K thr n e = true <-> forall i, (i < n)%nat -> lt thr (e i)).
  { unfold all_above. rewrite forallb_forall. split; intros H i Hi; [apply H; apply in_seq; lia|apply H; apply in_seq in Hi; lia]. }
  destruct (all_above K thr n e) eqn:E.
  - split; [|right; eexists; reflexivity]. split; [discriminate|]. intros (i & Hi & Hl). exfalso. apply Hl. apply Q; auto.
  - split; [|left; reflexivity]. split; [intros _|reflexivity].
    unfold all_above in E. clear Q. 
    assert (X : forall l, forallb (fun i => ltb thr (e i)) l = false -> exists i, In i l /\ ltb thr (e i) = false).
    { induction l as [|a l IH]; [discriminate|]. cbn [forallb]. destruct (ltb thr (e a)) eqn:Ea; cbn [andb]; intros H.
      - destruct (IH H) as (i & Hi & G). exists i. split; [right; exact Hi|exact G].
      - exists a. split; [left; reflexivity|exact Ea]. }
    destruct (X _ E) as (i & Hi & G). exists i. apply in_seq in Hi. split; [lia|]. unfold lt. rewrite G. discriminate.
Qed.

(** The restricted class does the same for both spins, but raises an error if a spin has no rows. *)
Theorem C69_rotated_restricted nov eps (r : rot K) :
  gen_eps_r K eigh nov eps (Some r) =
  if ((0 <? rna K r) && (0 <? rnb K r))%nat then gen_eps_u K eigh nov nov eps eps (Some r) else UnboundErr.
Proof. reflexivity. Qed.

(** ** The matrix handed to the diagonalisation is symmetric. *)
Lemma rot_full_sym nova novb r (v : mt) n : meq (nova + novb) (nova + novb) (tr v) v ->
  (r = None -> n = (nova + novb)%nat) ->
  meq n n (tr (rot_full K nova novb r v)) (rot_full K nova novb r v).
Proof.
  intros Hv Hn. destruct r as [r|]; cbn [rot_full]; [|rewrite (Hn eq_refl); exact Hv].
  unfold rotm. rewrite tr_mm, tr_tr, tr_mm.
  rewrite mm_assoc. apply mm_proper; [reflexivity|]. apply mm_proper; [exact Hv|reflexivity].
Qed.

Theorem C69_symmetric nova novb er fullv alpha :
  meq (nova + novb) (nova + novb) (tr fullv) fullv ->
  let n := spec_dim nova novb er in
  meq n n (tr (spec_apb nova novb er fullv alpha)) (spec_apb nova novb er fullv alpha) /\
  meq n n (tr (spec_m nova novb er fullv alpha)) (spec_m nova novb er fullv alpha).
Proof.
  intros Hv n. destruct er as [[ea eb] r].
  assert (E : meq n n (tr (spec_apb nova novb (ea, eb, r) fullv alpha)) (spec_apb nova novb (ea, eb, r) fullv alpha)).
  { cbn [spec_apb]. unfold apb0. rewrite tr_add, tr_dg, rot_full_sym.
    - reflexivity.
    - intros p q Hp Hq. unfold tr. pose proof (Hv p q Hp Hq) as G. unfold tr in G. rewrite G. reflexivity.
    - intros ->. reflexivity. }
  split; [exact E|].
  intros p q Hp Hq. unfold tr, spec_m, m0. specialize (E p q Hp Hq). unfold tr in E. rewrite E. ring.
Qed.

(** Symmetry of the interaction from that of the integrals. *)
Theorem C69_interaction_symmetric noa nva nob nvb eaa eab ebb :
  (forall i a j b, eaa i a j b = eaa j b i a) -> (forall i a j b, ebb i a j b = ebb j b i a) ->
  let n := (noa * nva + nob * nvb)%nat in
  meq n n (tr (get_k_u K noa nva nob nvb eaa eab ebb)) (get_k_u K noa nva nob nvb eaa eab ebb) /\
  (let m := (noa * nva + noa * nva)%nat in meq m m (tr (get_k_r K noa nva eaa)) (get_k_r K noa nva eaa)).
Proof.
  intros Ha Hb n. split; [|intros m]; symmetry; unfold get_k_u, get_k_r; apply blk_ext; intros p q Hp Hq; unfold tr;
    first [rewrite blk_ll by assumption | rewrite blk_rl by assumption | rewrite blk_lr by assumption | rewrite blk_rr];
    unfold ovov; first [reflexivity|apply Ha|apply Hb].
Qed.

(** ** Results do not depend on the eigenvectors the diagonalisation returns. *)
Section Unique.
Variable eigh' : nat -> (nat -> nat -> K) -> (nat -> K) * (nat -> nat -> K).

Definition hfun (x : nat) (y : K) : K := inv (sq (sq y)) * npow (sq y) x * inv (sq (sq y)).

Lemma eta_h n (S c : mt) (e : vec) xpy x : meq n n (tr S) S ->
  meq n n xpy (mm n S (mm n c (dg (fun i => inv (sq (sq (e i))))))) ->
  meq n n (eta K n (fun i => sq (e i)) xpy x)
    (mm n S (mm n (mm n c (mm n (dg (fun i => hfun x (e i))) (tr c))) S)).
Proof.
  intros HS Hp. unfold eta. rewrite Hp, tr_mm, (tr_mm n n n c), HS, tr_dg, !mm_assoc.
  rewrite <- (mm_assoc n n n n (dg (fun i => npow (sq (e i)) x))), mm_dd.
  rewrite <- (mm_assoc n n n n (dg (fun i => inv (sq (sq (e i)))))), mm_dd.
  rewrite (dg_ext n _ (fun i => hfun x (e i))); [reflexivity|].
  intros i _. unfold hfun. ring.
Qed.

Lemma kernel0_inv eg nova novb er fullv alpha s :
  kernel0 K sq inv hlf thr eg nova novb er fullv alpha = Ret s ->
  let n := spec_dim nova novb er in let m := spec_m nova novb er fullv alpha in
  s_n K s = n /\ s_na K s = (let '(_, _, r) := er in dim_a K nova r) /\
  s_f K s = (fun i => sq (fst (eg n m) i)) /\
  meq n n (s_xpy K s) (mm n (dg (fun p => sq (spec_amb nova er p)))
     (mm n (snd (eg n m)) (dg (fun i => inv (sq (sq (fst (eg n m) i))))))) /\
  s_e K s = (Sum n (fun i => sq (fst (eg n m) i))
     - (let '(ea, eb, r) := er in Sum (dim_a K nova r) ea) - (let '(ea, eb, r) := er in Sum (dim_b K novb r) eb)
     - trace (nova + novb) fullv) * hlf.
Proof.
  destruct er as [[ea eb] r]. intros Hk n m. unfold kernel0 in Hk.
  change (dim_a K nova r + dim_b K novb r)%nat with n in Hk.
  change (m0 K sq (amb0 K (dim_a K nova r) ea eb) (apb0 K nova novb r ea eb fullv alpha)) with m in Hk.
  destruct (eg n m) as [e c] eqn:Em. cbn [fst snd].
  destruct (all_above K thr n e); [|discriminate]. injection Hk as <-. cbn [s_n s_na s_nb s_f s_xpy s_e].
  split; [reflexivity|]. split; [reflexivity|]. split; [reflexivity|]. split; [|reflexivity].
  intros p i Hp Hi. rewrite (mm_dgl n n _ _ p i Hp Hi), (mm_dgr n n _ _ p i Hp Hi).
  cbn [spec_amb]. ring.
Qed.

Theorem C69_unique nova novb er fullv alpha s s' :
  kernel0 K sq inv hlf thr eigh nova novb er fullv alpha = Ret s ->
  kernel0 K sq inv hlf thr eigh' nova novb er fullv alpha = Ret s' ->
  meq (nova + novb) (nova + novb) (tr fullv) fullv ->
  let n := spec_dim nova novb er in
  let m := spec_m nova novb er fullv alpha in
  eig_ok n m (eigh n m) -> eig_ok n m (eigh' n m) ->
  s_e K s = s_e K s' /\ forall x, meq n n (gen_mom K s x) (gen_mom K s' x).
Proof.
  intros Hk Hk' Hv n m He He'.
  destruct (C69_symmetric nova novb er fullv alpha Hv) as [_ Hs].
  change (spec_dim nova novb er) with n in Hs. change (spec_m nova novb er fullv alpha) with m in Hs.
  destruct (kernel0_inv _ _ _ _ _ _ _ Hk) as (N & _ & F & X & E).
  destruct (kernel0_inv _ _ _ _ _ _ _ Hk') as (N' & _ & F' & X' & E').
  cbv zeta in N, F, X, E, N', F', X', E'. fold n in N, F, X, E, N', F', X', E'. fold m in F, X, E, F', X', E'.
  destruct (eigh n m) as [e c]. destruct (eigh' n m) as [e' c']. cbn [fst snd] in *.
  split.
  - rewrite E, E'. rewrite (trace_unique K n m e c e' c' sq He He' Hs). reflexivity.
  - intros x.
    pose proof (gen_mom_eta s x) as G. rewrite N, F in G. rewrite G. clear G.
    pose proof (gen_mom_eta s' x) as G. rewrite N', F' in G. rewrite G. clear G.
    rewrite (eta_h n _ c e (s_xpy K s) x (tr_dg n _) X).
    rewrite (eta_h n _ c' e' (s_xpy K s') x (tr_dg n _) X').
    rewrite (fun_unique K n m e c e' c' (hfun x) He He' Hs). reflexivity.
Qed.
End Unique.

(** ** Restricted: alpha and beta are equivalent in the moments of every order. *)
Definition flip (n p : nat) : nat := if (p <? n)%nat then (n + p)%nat else (p - n)%nat.
Lemma flip_l n p : (p < n)%nat -> flip n p = (n + p)%nat.
Proof. intros H. unfold flip. apply Nat.ltb_lt in H. rewrite H. reflexivity. Qed.
Lemma flip_r n p : flip n (n + p) = p.
Proof. unfold flip. rewrite (proj2 (Nat.ltb_ge _ _)) by lia. lia. Qed.
Lemma flip_lt n p : (p < n + n)%nat -> (flip n p < n + n)%nat.
Proof. intros H. unfold flip. destruct (Nat.ltb_spec p n); lia. Qed.
Lemma Sum_flip n (f : vec) : Sum (n + n) (fun p => f (flip n p)) = Sum (n + n) f.
Proof.
  rewrite (Sum_split n n (fun p => f (flip n p))), (Sum_split n n f), (Radd_comm (rth K)).
  f_equal; apply Sum_ext; intros i Hi; [rewrite flip_r|rewrite flip_l by exact Hi]; reflexivity.
Qed.

Lemma flip_eig n (m : mt) e c : 
  (forall p q, (p < n + n)%nat -> (q < n + n)%nat -> m (flip n p) (flip n q) = m p q) ->
  eig_ok (n + n) m (e, c) -> eig_ok (n + n) m (e, fun p i => c (flip n p) i).
Proof.
  intros Hm [H1 [H2 H3]]. cbn [fst snd] in *. split; [|split]; cbn [fst snd].
  - intros p i Hp Hi. pose proof (flip_lt n p Hp) as Hf.
    transitivity (mm (n + n) m c (flip n p) i).
    + unfold mm. rewrite <- (Sum_flip n (fun l => m (flip n p) l * c l i)). apply Sum_ext. intros q Hq.
      rewrite (Hm p q Hp Hq). reflexivity.
    + rewrite (H1 _ _ Hf Hi). reflexivity.
  - intros i j Hi Hj. rewrite <- (H2 i j Hi Hj). unfold mm, tr. apply (Sum_flip n (fun l => c l i * c l j)).
  - intros p q Hp Hq. pose proof (flip_lt n p Hp) as Hf. pose proof (flip_lt n q Hq) as Hg.
    transitivity (mm (n + n) c (tr c) (flip n p) (flip n q)); [reflexivity|]. rewrite (H3 _ _ Hf Hg).
    unfold idm, delta. destruct (Nat.eqb_spec p q) as [->|N]; [rewrite Nat.eqb_refl; reflexivity|].
    rewrite (proj2 (Nat.eqb_neq _ _)); [reflexivity|]. unfold flip.
    destruct (Nat.ltb_spec p n), (Nat.ltb_spec q n); lia.
Qed.

Theorem C69_spin nocc nvir moe eri alpha s :
  ssrpa K sq inv hlf thr eigh nocc nvir moe eri None alpha = Ret s ->
  (forall i a j b, eri i a j b = eri j b i a) ->
  let nov := (nocc * nvir)%nat in
  let er := (gen_eps K nocc nvir moe, gen_eps K nocc nvir moe, None) in
  let m := spec_m nov nov er (get_k_r K nocc nvir eri) alpha in
  eig_ok (nov + nov) m (eigh (nov + nov) m) ->
  forall x p q, (p < nov)%nat -> (q < nov)%nat ->
    gen_mom K s x (nov + p) (nov + q) = gen_mom K s x p q /\
    gen_mom K s x p (nov + q)%nat = gen_mom K s x (nov + p)%nat q /\
    gen_mom K s x p (nov + q)%nat = gen_mom K s x q (nov + p)%nat.
Proof.
  intros Hk Heri nov er m He x p q Hp Hq.
  change (kernel0 K sq inv hlf thr eigh nov nov er (get_k_r K nocc nvir eri) alpha = Ret s) in Hk.
  set (n := (nov + nov)%nat) in *.
  assert (Hv : meq n n (tr (get_k_r K nocc nvir eri)) (get_k_r K nocc nvir eri)).
  { apply (C69_interaction_symmetric nocc nvir nocc nvir eri eri eri Heri Heri). }
  destruct (C69_symmetric nov nov er _ alpha Hv) as [_ Hs].
  change (spec_dim nov nov er) with n in Hs. change (spec_m nov nov er (get_k_r K nocc nvir eri) alpha) with m in Hs.
  assert (Hd : forall p, (p < n)%nat -> spec_amb nov er (flip nov p) = spec_amb nov er p).
  { intros a Ha. unfold er. cbn [spec_amb dim_a]. unfold amb0.
    destruct (Nat.lt_ge_cases a nov) as [A|A].
    - rewrite flip_l, vcat_r, vcat_l by assumption. reflexivity.
    - replace a with (nov + (a - nov))%nat by lia. rewrite flip_r, vcat_r, vcat_l by (unfold n in Ha; lia). reflexivity. }
  assert (Hm : forall p q, (p < n)%nat -> (q < n)%nat -> m (flip nov p) (flip nov q) = m p q).
  { intros a b Ha Hb. unfold m, spec_m, m0. rewrite !Hd by assumption. f_equal. f_equal.
    unfold er. cbn [spec_apb]. unfold apb0, madd, dg.
    change (amb0 K (dim_a K nov None) (gen_eps K nocc nvir moe) (gen_eps K nocc nvir moe)) with (spec_amb nov er).
    rewrite Hd by assumption. cbn [rot_full]. f_equal; f_equal.
    - f_equal. unfold get_k_r. fold nov.
      destruct (Nat.lt_ge_cases a nov) as [A|A]; destruct (Nat.lt_ge_cases b nov) as [B|B].
      + rewrite !flip_l, blk_rr, blk_ll by assumption. reflexivity.
      + replace b with (nov + (b - nov))%nat by lia.
        rewrite (flip_l nov a), flip_r, blk_rl, blk_lr by (unfold n in *; lia). reflexivity.
      + replace a with (nov + (a - nov))%nat by lia.
        rewrite (flip_l nov b), flip_r, blk_rl, blk_lr by (unfold n in *; lia). reflexivity.
      + replace b with (nov + (b - nov))%nat by lia. replace a with (nov + (a - nov))%nat by lia.
        rewrite !flip_r, blk_rr, blk_ll by (unfold n in *; lia). reflexivity.
    - unfold delta. destruct (Nat.eqb_spec a b) as [->|N]; [rewrite Nat.eqb_refl; reflexivity|].
      rewrite (proj2 (Nat.eqb_neq _ _)); [reflexivity|]. unfold flip.
      destruct (Nat.ltb_spec a nov), (Nat.ltb_spec b nov); lia. }
  destruct (kernel0_inv _ _ _ _ _ _ _ Hk) as (N & _ & F & X & _).
  cbv zeta in N, F, X. change (spec_dim nov nov er) with n in N, F, X.
  change (spec_m nov nov er (get_k_r K nocc nvir eri) alpha) with m in F, X.
  destruct (eigh n m) as [e c]. cbn [fst snd] in *.
  pose proof (flip_eig nov m e c Hm He) as He'.
  pose proof (fun_unique K n m e c e _ (hfun x) He He' Hs) as U.
  pose proof (gen_mom_eta s x) as G. rewrite N, F in G.
  rewrite (eta_h n _ c e (s_xpy K s) x (tr_dg n _) X) in G.
  set (W := mm n c (mm n (dg (fun i => hfun x (e i))) (tr c))) in *.
  assert (U' : forall a b, (a < n)%nat -> (b < n)%nat -> W (flip nov a) (flip nov b) = W a b).
  { intros a b Ha Hb. rewrite (U a b Ha Hb). unfold W, mm, tr. reflexivity. }
  assert (G' : forall a b, (a < n)%nat -> (b < n)%nat -> gen_mom K s x a b = sq (spec_amb nov er a) * W a b * sq (spec_amb nov er b)).
  { intros a b Ha Hb. rewrite (G a b Ha Hb), (mm_dgl n n _ _ a b Ha Hb), (mm_dgr n n _ _ a b Ha Hb). ring. }
  assert (Q : forall a b, (a < n)%nat -> (b < n)%nat -> gen_mom K s x (flip nov a) (flip nov b) = gen_mom K s x a b).
  { intros a b Ha Hb. rewrite !G' by (try apply flip_lt; assumption). rewrite U', !Hd by assumption. reflexivity. }
  assert (Sy : forall a b, (a < n)%nat -> (b < n)%nat -> gen_mom K s x b a = gen_mom K s x a b).
  { intros a b Ha Hb. rewrite !G' by assumption.
    assert (Ws : W b a = W a b).
    { assert (T : meq n n (tr W) W) by (unfold W; rewrite tr_mm, tr_mm, tr_tr, tr_dg, mm_assoc; reflexivity).
      exact (T a b Ha Hb). }
    rewrite Ws. ring. }
  assert (Pn : (p < n)%nat) by (unfold n; lia). assert (Qn : (q < n)%nat) by (unfold n; lia).
  assert (P2 : (nov + p < n)%nat) by (unfold n; lia). assert (Q2 : (nov + q < n)%nat) by (unfold n; lia).
  pose proof (Q p q Pn Qn) as Q1. pose proof (Q p (nov + q)%nat Pn Q2) as Q3.
  rewrite flip_l, flip_l in Q1 by assumption. rewrite flip_l, flip_r in Q3 by assumption.
  split; [exact Q1|]. split; [symmetry; exact Q3|]. rewrite <- Q3. apply Sy; assumption.
Qed.

(** ** kernel with exchange-correlation kernel *)
Lemma spectral n (a c : mt) e : eig_ok n a (e, c) -> meq n n a (mm n c (mm n (dg e) (tr c))).
Proof.
  intros [H1 [H2 H3]]. cbn [fst snd] in *. rewrite <- (mm_idr n n a), <- H3, <- mm_assoc, H1, mm_assoc. reflexivity.
Qed.

Lemma three n (c : mt) (d : vec) : meq n n (fun p q => Sum n (fun k => c p k * d k * c q k)) (mm n c (mm n (dg d) (tr c))).
Proof.
  intros p q Hp Hq. unfold mm at 1. apply Sum_ext. intros k Hk. rewrite (mm_dgl n n _ _ k q Hk Hq). unfold tr. ring.
Qed.

Lemma root_prod n (c : mt) (d1 d2 d3 : vec) : meq n n (mm n (tr c) c) idm ->
  (forall i, (i < n)%nat -> d1 i * d2 i = d3 i) ->
  meq n n (mm n (mm n c (mm n (dg d1) (tr c))) (mm n c (mm n (dg d2) (tr c)))) (mm n c (mm n (dg d3) (tr c))).
Proof.
  intros Hc Hd. rewrite !mm_assoc, (cancel K _ _ _ _ Hc), <- (mm_assoc n n n n (dg d1)), mm_dd, (dg_ext n _ d3 Hd). reflexivity.
Qed.

Theorem C69_solution_xc o ea eb r fullv x alpha s :
  kernel_xc K sq inv hlf thr eigh sqrtm o (ea, eb, r) fullv x alpha = Ret s ->
  let n := spec_dim (ova K o) (ovb K o) (ea, eb, r) in
  let apb := fst (arrays_xc K o (ea, eb, r) fullv x alpha) in
  let amb := snd (arrays_xc K o (ea, eb, r) fullv x alpha) in
  let m := mxc K sqrtm n amb apb in
  eig_ok n m (eigh n m) -> eig_ok n amb (eigh n amb) ->
  meq n n (sqrtm n amb) (mm n (snd (eigh n amb)) (mm n (dg (fun i => sq (fst (eigh n amb) i))) (tr (snd (eigh n amb))))) ->
  roots sq inv n (fst (eigh n amb)) -> roots sq inv n (fst (eigh n m)) -> roots sq inv n (s_f K s) ->
  s_n K s = n /\ rpa_sol n amb apb (s_f K s) (s_xpy K s) (s_xmy K s).
Proof.
  intros Hk n apb amb m He He2 Hrt Ha Hr Hf. unfold kernel_xc in Hk.
  change (dim_a K (ova K o) r + dim_b K (ovb K o) r)%nat with n in Hk.
  destruct (arrays_xc K o (ea, eb, r) fullv x alpha) as [apb' amb'].
  cbn [fst snd] in apb, amb. change amb' with amb in Hk. change apb' with apb in Hk.
  change (mxc K sqrtm n amb apb) with m in Hk.
  destruct (eigh n m) as [e c] eqn:Em. destruct (all_above K thr n e); [|discriminate].
  destruct (eigh n amb) as [e2 c2] eqn:Em2. destruct (all_above K thr n e2); [|discriminate].
  destruct (arrays_xc K o (ea, eb, r) fullv x 1) as [apb1 amb1].
  destruct (xc_contribs K o r x 1) as [px mx]. injection Hk as <-.
  cbn [s_n s_na s_nb s_f s_xpy s_xmy fst snd] in *.
  split; [reflexivity|].
  destruct He2 as [G1 [G2 G3]]. cbn [fst snd] in *.
  set (S := mm n c2 (mm n (dg (fun i => sq (e2 i))) (tr c2))).
  set (Si := mm n c2 (mm n (dg (fun i => inv (sq (e2 i)))) (tr c2))).
  assert (I : forall d : vec, meq n n (dg d) idm -> meq n n (mm n c2 (mm n (dg d) (tr c2))) idm).
  { intros d Hd. rewrite Hd, mm_idl. exact G3. }
  apply (solution K n S Si amb apb c e _ (fun i => sq (sq (e i))) (fun i => inv (sq (sq (e i))))).
  - unfold S. rewrite tr_mm, tr_mm, tr_tr, tr_dg, mm_assoc. reflexivity.
  - unfold Si. rewrite tr_mm, tr_mm, tr_tr, tr_dg, mm_assoc. reflexivity.
  - unfold S, Si. rewrite (root_prod n c2 _ _ (fun _ => 1) G2).
    + apply I. apply dg_id. reflexivity.
    + intros i Hi. apply (Ha i Hi).
  - unfold S, Si. rewrite (root_prod n c2 _ _ (fun _ => 1) G2).
    + apply I. apply dg_id. reflexivity.
    + intros i Hi. rewrite <- (proj2 (Ha i Hi)). ring.
  - unfold S. rewrite (root_prod n c2 _ _ e2 G2).
    + symmetry. apply spectral. split; [|split]; assumption.
    + intros i Hi. apply (Ha i Hi).
  - destruct He as [B1 [B2 B3]]. cbn [fst snd] in *. split; [|split; assumption]. cbn [fst snd].
    rewrite <- B1. unfold m, mxc. rewrite Hrt. fold S. clearbody S. rewrite !mm_assoc. reflexivity.
  - intros i Hi. apply (Hr i Hi).
  - intros i Hi. apply (Hf i Hi).
  - intros i Hi. apply (Hf i Hi).
  - intros p i Hp Hi. unfold mm at 1. apply Sum_ext. intros q Hq.
    rewrite (mm_dgr n n _ _ q i Hq Hi). unfold S. rewrite <- (three n c2 _ p q Hp Hq). ring.
  - intros p i Hp Hi. unfold mm at 1. apply Sum_ext. intros q Hq.
    rewrite (mm_dgr n n _ _ q i Hq Hi). unfold Si. rewrite <- (three n c2 _ p q Hp Hq). ring.
Qed.

(** Energy with kernel at full coupling: the plasmon formula, less a quarter of the contraction of B_xc with
    the moment minus one. *)
Theorem C69_energy_xc o ea eb r fullv x s :
  hlf + hlf = 1 ->
  kernel_xc K sq inv hlf thr eigh sqrtm o (ea, eb, r) fullv x 1 = Ret s ->
  let n := spec_dim (ova K o) (ovb K o) (ea, eb, r) in
  let apb := fst (arrays_xc K o (ea, eb, r) fullv x 1) in
  let amb := snd (arrays_xc K o (ea, eb, r) fullv x 1) in
  let m := mxc K sqrtm n amb apb in
  eig_ok n m (eigh n m) -> eig_ok n amb (eigh n amb) ->
  meq n n (sqrtm n amb) (mm n (snd (eigh n amb)) (mm n (dg (fun i => sq (fst (eigh n amb) i))) (tr (snd (eigh n amb))))) ->
  roots sq inv n (fst (eigh n amb)) -> roots sq inv n (fst (eigh n m)) -> roots sq inv n (s_f K s) ->
  let b := msc hlf (msub (fst (xc_contribs K o r x 1)) (snd (xc_contribs K o r x 1))) in
  s_e K s = plasmon_energy n (s_f K s) (s_xpy K s) (s_xmy K s)
            - hlf * hlf * (trace n (mm n (gen_mom K s 0) b) - trace n b).
Proof.
  intros Hh Hk n apb amb m He He2 Hrt Ha Hr Hf b.
  destruct (C69_solution_xc o ea eb r fullv x 1 s Hk He He2 Hrt Ha Hr Hf) as [Hn HS].
  fold n in Hn, HS. fold apb amb in HS.
  unfold plasmon_energy. rewrite <- (plasmon K n _ _ _ _ _ HS hlf Hh).
  assert (HM : trace n (mm n (gen_mom K s 0) apb) = Sum n (s_f K s)).
  { pose proof HS as HS'. rewrite <- Hn in HS'.
    destruct (C69_moments s amb apb HS') as (_ & _ & _ & _ & _ & T). rewrite Hn in T. exact T. }
  assert (E : s_e K s = e_version3 K hlf n (gen_mom K s 0) apb amb (fst (xc_contribs K o r x 1)) (snd (xc_contribs K o r x 1))).
  { unfold kernel_xc in Hk.
    change (dim_a K (ova K o) r + dim_b K (ovb K o) r)%nat with n in Hk.
    unfold apb, amb. destruct (arrays_xc K o (ea, eb, r) fullv x 1) as [apb' amb']. cbn [fst snd].
    destruct (eigh n (mxc K sqrtm n amb' apb')) as [e c]. destruct (all_above K thr n e); [|discriminate].
    destruct (eigh n amb') as [e2 c2]. destruct (all_above K thr n e2); [|discriminate].
    destruct (xc_contribs K o r x 1) as [px mx]. injection Hk as <-. reflexivity. }
  rewrite E. unfold e_version3. fold b.
  rewrite !trace_sub, !trace_sc, trace_add.
  assert (T : trace n (mm n (gen_mom K s 0) (msub apb (msc hlf b)))
     = Sum n (s_f K s) - hlf * trace n (mm n (gen_mom K s 0) b)).
  { rewrite mm_subr, trace_sub, HM, mm_scr, trace_sc. reflexivity. }
  rewrite T. ring.
Qed.

(** ** RPA.kernel *)
Theorem C69_rpa_solution n apb amb s :
  hlf + hlf = 1 ->
  solve K sq inv hlf thr eigh sqrtm minv n apb amb = Ret s ->
  let N := (n + n)%nat in
  let rt := sqrtm N amb in let m := mm N (mm N rt apb) rt in
  meq N N (tr rt) rt -> meq N N (mm N rt rt) amb ->
  meq N N (mm N rt (minv N rt)) idm -> meq N N (mm N (minv N rt) rt) idm -> 
  eig_ok N m (eigh N m) -> roots sq inv N (fst (eigh N m)) -> roots sq inv N (s_f K s) ->
  s_n K s = N /\ rpa_sol N amb apb (s_f K s) (s_xpy K s) (s_xmy K s) /\
  s_e K s = plasmon_energy N (s_f K s) (s_xpy K s) (s_xmy K s).
Proof.
  intros Hh Hk N rt m Hs Hd Hi1 Hi2 He Hr Hf. unfold solve in Hk. fold N in Hk. fold rt in Hk. fold m in Hk.
  destruct (eigh N m) as [e c]. destruct (all_above K thr N e); [|discriminate]. injection Hk as <-.
  cbn [s_n s_na s_nb s_f s_xpy s_xmy s_e fst snd] in *.
  match goal with |- _ /\ ?P /\ _ => assert (HP : P) end.
  { apply (solution K N rt (minv N rt) amb apb c e _ (fun i => sq (sq (e i))) (fun i => inv (sq (sq (e i))))); try assumption.
    - transitivity (mm N (mm N (minv N rt) rt) (tr (minv N rt))).
      { rewrite Hi2, mm_idl. reflexivity. }
      rewrite mm_assoc. rewrite <- Hs at 2. rewrite <- tr_mm, Hi2, tr_idm, mm_idr. reflexivity.
    - destruct He as [B1 [B2 B3]]. cbn [fst snd] in *. split; [|split; assumption]. cbn [fst snd].
      rewrite <- B1. unfold m. rewrite !mm_assoc. reflexivity.
    - intros i Hi. apply (Hr i Hi).
    - intros i Hi. apply (Hf i Hi).
    - intros i Hi. apply (Hf i Hi).
    - intros p i Hp Hi. rewrite <- (mm_assoc N N N N rt c _ p i Hp Hi), (mm_dgr N N _ _ p i Hp Hi). ring.
    - intros p i Hp Hi. rewrite <- (mm_assoc N N N N (minv N rt) c _ p i Hp Hi), (mm_dgr N N _ _ p i Hp Hi). ring. }
  split; [reflexivity|]. split; [exact HP|].
  unfold plasmon_energy. rewrite <- (plasmon K N _ _ _ _ _ HP hlf Hh). reflexivity.
Qed.

(** The direct kernel: the spin-flip energy is zero and the total is that of ssRPA. *)
Lemma eig_ext n (a b : mt) ec : meq n n a b -> eig_ok n a ec -> eig_ok n b ec.
Proof. intros H [G1 G2]. split; [rewrite <- H; exact G1|exact G2]. Qed.

Lemma solve_inv n apb amb s : solve K sq inv hlf thr eigh sqrtm minv n apb amb = Ret s ->
  let N := (n + n)%nat in let m := mm N (mm N (sqrtm N amb) apb) (sqrtm N amb) in
  s_e K s = hlf * (Sum N (fun i => sq (fst (eigh N m) i)) - hlf * (trace N apb + trace N amb)).
Proof.
  intros Hk N m. unfold solve in Hk. fold N in Hk. fold m in Hk.
  destruct (eigh N m) as [e c]. destruct (all_above K thr N e); [|discriminate]. injection Hk as <-. reflexivity.
Qed.

Theorem C69_drpa nocc nvir moe eri ss sf etot s :
  hlf + hlf = 1 ->
  rpa K sq inv hlf thr eigh sqrtm minv nocc nvir moe eri (Drpa K) = Ret (ss, sf, etot) ->
  ssrpa K sq inv hlf thr eigh nocc nvir moe eri None 1 = Ret s ->
  (forall i a j b, eri i a j b = eri j b i a) ->
  let nov := (nocc * nvir)%nat in let N := (nov + nov)%nat in
  let arr := build K nocc nvir moe eri (Drpa K) in
  let pss := fst (fst (fst arr)) in let mss := snd (fst (fst arr)) in
  let psf := snd (fst arr) in let msf := snd arr in
  let eps := gen_eps K nocc nvir moe in
  let d := vcat K nov eps eps in
  meq N N (sqrtm N mss) (dg (fun p => sq (d p))) -> meq N N (sqrtm N msf) (dg (fun p => sq (d p))) ->
  (forall p, (p < N)%nat -> sq (d p) * sq (d p) = d p /\ sq (d p * d p) = d p) ->
  (let m := mm N (mm N (sqrtm N mss) pss) (sqrtm N mss) in eig_ok N m (eigh N m)) ->
  (let m := mm N (mm N (sqrtm N msf) psf) (sqrtm N msf) in eig_ok N m (eigh N m)) ->
  (let m := spec_m nov nov (eps, eps, None) (get_k_r K nocc nvir eri) 1 in eig_ok N m (eigh N m)) ->
  s_e K sf = 0 /\ etot = s_e K s.
Proof.
  intros Hh Hk Hs Heri nov N arr pss mss psf msf eps d R1 R2 Hd E1 E2 E3.
  cbv zeta in E1, E2, E3.
  unfold rpa in Hk. change (build K nocc nvir moe eri (Drpa K)) with (pss, mss, psf, msf) in Hk. cbv iota beta zeta in Hk.
  fold nov in Hk.
  destruct (solve K sq inv hlf thr eigh sqrtm minv nov pss mss) as [s1| | |] eqn:K1; try discriminate Hk.
  cbn [rbind] in Hk.
  destruct (solve K sq inv hlf thr eigh sqrtm minv nov psf msf) as [s2| | |] eqn:K2; try discriminate Hk.
  cbn [rbind] in Hk. injection Hk as -> -> <-.
  apply solve_inv in K1, K2. cbv zeta in K1, K2. fold N in K1, K2.
  assert (Hc : forall n, meq (n + n) (n + n) (combine K n (zm, zm)) zm).
  { intros n. unfold combine. cbn [fst snd]. apply blk_ext; reflexivity. }
  assert (Pm : meq N N msf (dg d)).
  { unfold msf, arr, build, interaction. cbn [snd]. fold nov. unfold N. rewrite Hc. intros p q _ _. unfold madd, zm, d, eps. ring. }
  assert (Pp : meq N N psf (dg d)).
  { unfold psf, arr, build, interaction. cbn [fst snd]. fold nov. unfold N. rewrite Hc. intros p q _ _. unfold madd, zm, d, eps. ring. }
  assert (Pn : meq N N mss (dg d)).
  { unfold mss, arr, build, interaction. cbn [fst snd]. fold nov. unfold N. rewrite Hc. intros p q _ _. unfold madd, zm, d, eps. ring. }
  set (v := get_k_r K nocc nvir eri) in *.
  assert (Pq : meq N N pss (madd (msc (1 + 1) v) (dg d))).
  { unfold pss, arr, build, interaction. cbn [fst snd]. fold nov. apply madd_proper; [|reflexivity].
    unfold combine, v, get_k_r. cbn [fst snd]. fold nov. apply blk_ext; intros p q Hp Hq; unfold msc;
    first [rewrite blk_ll by assumption | rewrite blk_rl by assumption | rewrite blk_lr by assumption | rewrite blk_rr];
    reflexivity. }
  assert (Sf : s_e K sf = 0).
  { rewrite K2. set (m := mm N (mm N (sqrtm N msf) psf) (sqrtm N msf)) in *.
    assert (M : meq N N m (dg (fun p => d p * d p))).
    { unfold m. rewrite R2, Pp, mm_dd, mm_dd. apply dg_ext. intros p Hp.
      transitivity ((sq (d p) * sq (d p)) * d p); [ring|]. rewrite (proj1 (Hd p Hp)). reflexivity. }
    assert (E4 : eig_ok N m ((fun p => d p * d p), idm)).
    { split; [|split]; cbn [fst snd].
      - rewrite mm_idr, mm_idl. exact M.
      - rewrite mm_idr. apply tr_idm.
      - rewrite mm_idl. apply tr_idm. }
    assert (Sy : meq N N (tr m) m) by (rewrite M; apply tr_dg).
    destruct (eigh N m) as [e c]. cbn [fst].
    rewrite (trace_unique K N m e c _ _ sq E2 E4 Sy), (Sum_ext N _ d) by (intros p Hp; apply (Hd p Hp)).
    rewrite Pp, Pm, trace_dg. 
    transitivity (hlf * (Sum N d - (hlf + hlf) * Sum N d)); [ring|]. rewrite Hh. ring. }
  split; [exact Sf|]. rewrite Sf.
  change (kernel0 K sq inv hlf thr eigh nov nov (eps, eps, None) v 1 = Ret s) in Hs.
  destruct (kernel0_inv _ _ _ _ _ _ _ Hs) as (_ & _ & _ & _ & E). cbv zeta in E.
  change (spec_dim nov nov (eps, eps, None)) with N in E.
  rewrite E, K1. cbn [dim_a dim_b].
  set (m := spec_m nov nov (eps, eps, None) v 1) in *.
  set (m1 := mm N (mm N (sqrtm N mss) pss) (sqrtm N mss)) in *.
  assert (Hv : meq N N (tr v) v).
  { apply (C69_interaction_symmetric nocc nvir nocc nvir eri eri eri Heri Heri). }
  destruct (C69_symmetric nov nov (eps, eps, None) _ 1 Hv) as [_ Sy]. cbv zeta in Sy.
  change (spec_dim nov nov (eps, eps, None)) with N in Sy. fold m in Sy.
  assert (M1 : meq N N m1 m).
  { unfold m1. rewrite R1, Pq. intros p q Hp Hq.
    rewrite (mm_dgr N N _ _ p q Hp Hq), (mm_dgl N N _ _ p q Hp Hq).
    unfold m, spec_m, m0, madd, msc. cbn [spec_amb spec_apb dim_a]. unfold apb0, madd. cbn [rot_full dim_a].
    change (amb0 K nov eps eps) with d. ring. }
  pose proof (eig_ext N m1 m _ M1 E1) as E5.
  destruct (eigh N m1) as [e1 c1]. destruct (eigh N m) as [e2 c2]. cbn [fst].
  rewrite (trace_unique K N m e1 c1 e2 c2 sq E5 E3 Sy).
  rewrite Pq, Pn, trace_add, trace_sc, trace_dg.
  assert (SD : Sum N d = Sum nov eps + Sum nov eps) by (unfold N, d; apply Sum_vcat).
  rewrite SD. change (trace (nov + nov) v) with (trace N v).
  set (F := Sum N _). set (T := trace N v). set (A := Sum nov eps).
  transitivity (hlf * (F - (hlf + hlf) * T - (hlf + hlf) * (A + A))); [ring|]. rewrite Hh. ring.
Qed.

(** The RPAX arrays: time-dependent Hartree-Fock in spin orbitals.  Spin-conserving excitations: A and B between
    i,a of spin s and j,b of spin t; spin-flip: excitations from spin s to the other spin. *)
Theorem C69_rpax nocc nvir moe eri :
  let nov := (nocc * nvir)%nat in
  let arr := build K nocc nvir moe eri (Rpax K) in
  let pss := fst (fst (fst arr)) in let mss := snd (fst (fst arr)) in
  let psf := snd (fst arr) in let msf := snd arr in
  forall s t i a j b, (i < nocc)%nat -> (a < nvir)%nat -> (j < nocc)%nat -> (b < nvir)%nat ->
  let P s i a := place nocc nvir nvir s i a in
  let V x := (nocc + x)%nat in
  let dl (c : bool) (x : K) := if c then x else 0 in
  let st := Bool.eqb s t in
  let eps := dl (st && (i =? j)%nat && (a =? b)%nat)%bool (moe (V a) - moe i) in
  let A := eps + eri i (V a) j (V b) - dl st (eri i j (V a) (V b)) in
  let B := eri i (V a) j (V b) - dl st (eri i (V b) j (V a)) in
  let Af := eps - dl st (eri i j (V a) (V b)) in
  let Bf := - dl (negb st) (eri i (V b) j (V a)) in
  pss (P s i a) (P t j b) = A + B /\ mss (P s i a) (P t j b) = A - B /\
  psf (P s i a) (P t j b) = Af + Bf /\ msf (P s i a) (P t j b) = Af - Bf.
Proof.
  intros nov arr pss mss psf msf s t i a j b Hi Ha Hj Hb P V dl st eps A B Af Bf.
  assert (ED : dg (vcat K nov (gen_eps K nocc nvir moe) (gen_eps K nocc nvir moe)) (P s i a) (P t j b) = eps).
  { pose proof (C69_arrays_restricted nocc nvir moe (fun _ _ _ _ => 0) 0 s t i a j b Hi Ha Hj Hb) as [_ H].
    cbn [spec_apb] in H. unfold apb0, madd in H. cbn [rot_full dim_a] in H. unfold amb0 in H. fold nov in H.
    unfold eps, dl, st, V. 
    match type of H with ?l + ?x = ?e + ?z => transitivity (l + x - l); [unfold P; ring|rewrite H] end. ring. }
  assert (C : forall k1 k2 : mt, madd (combine K nov (k1, k2)) (dg (vcat K nov (gen_eps K nocc nvir moe) (gen_eps K nocc nvir moe))) (P s i a) (P t j b)
    = eps + (if st then k1 (i * nvir + a)%nat (j * nvir + b)%nat else k2 (i * nvir + a)%nat (j * nvir + b)%nat)).
  { intros k1 k2. unfold madd. rewrite ED. rewrite (Radd_comm (rth K)). f_equal. unfold combine, P, place, st. cbn [fst snd]. fold nov.
    assert ((i * nvir + a < nov)%nat) by (apply pos_lt; assumption). assert ((j * nvir + b < nov)%nat) by (apply pos_lt; assumption).
    destruct s, t; cbn [Bool.eqb].
    - apply blk_rr.
    - apply blk_rl; assumption.
    - apply blk_lr; assumption.
    - apply blk_ll; assumption. }
  assert (V1 : ovov K nocc nvir nocc nvir eri (i * nvir + a)%nat (j * nvir + b)%nat = eri i (V a) j (V b)) by (apply ovov_at; assumption).
  unfold pss, mss, psf, msf, arr, build, interaction. cbn [fst snd]. fold nov. rewrite !C.
  unfold A, B, Af, Bf, dl. rewrite !V1, !pos_div, !pos_mod by assumption. fold (V a). fold (V b). unfold zm.
  destruct st; cbn [negb]; repeat split; ring.
Qed.

(** ** Low-rank kernels *)
Definition low_ok (n : nat) (la ra lb rb : nat -> nat -> nat -> K) : ten * ten * ten :=
  ((fun p q r s => Sum n (fun l => la l p q * ra l r s)),
   (fun p q r s => Sum n (fun l => la l p q * rb l r s)),
   (fun p q r s => Sum n (fun l => lb l p q * rb l r s))).

(** If both spins have the same right factor the conversion gives the sum over n of left times right factor in every
    spin block; the blocks of equal spin always are. *)
Theorem C69_low_rank n la ra lb rb :
  (forall l r s, (l < n)%nat -> ra l r s = rb l r s) ->
  let d := dense_kernel K (LowRank K n la ra lb rb) in let w := low_ok n la ra lb rb in
  forall p q r s, fst (fst d) p q r s = fst (fst w) p q r s /\ snd (fst d) p q r s = snd (fst w) p q r s
                  /\ snd d p q r s = snd w p q r s.
Proof.
  intros H d w p q r s. split; [reflexivity|]. split; [|reflexivity].
  unfold d, w, dense_kernel, low_ok. cbn [fst snd]. apply Sum_ext. intros l Hl. rewrite (H l r s Hl). reflexivity.
Qed.

(** ** A kernel with the symmetries of real orbitals gives symmetric arrays. *)
Lemma va_sym na (k : ten) nv (co cv : mt) : (forall p q r s, k p q r s = k r s p q) ->
  forall x y, va_blk K na k nv nv co cv co cv x y = va_blk K na k nv nv co cv co cv y x.
Proof.
  intros Hk x y. unfold va_blk.
  rewrite (Sum_ext na _ (fun p => Sum na (fun r => Sum na (fun q => Sum na (fun s =>
     k p q r s * co p (x / nv)%nat * cv q (x mod nv)%nat * co r (y / nv)%nat * cv s (y mod nv)%nat))))).
  2:{ intros p _. rewrite Sum_swap. reflexivity. }
  rewrite Sum_swap. apply Sum_ext. intros r _.
  rewrite (Sum_ext na _ (fun p => Sum na (fun s => Sum na (fun q =>
     k p q r s * co p (x / nv)%nat * cv q (x mod nv)%nat * co r (y / nv)%nat * cv s (y mod nv)%nat)))).
  2:{ intros p _. rewrite Sum_swap. reflexivity. }
  rewrite Sum_swap. apply Sum_ext. intros s _. apply Sum_ext. intros p _. apply Sum_ext. intros q _.
  rewrite (Hk p q r s). ring.
Qed.
Lemma vb_sym na (k : ten) nv (co cv : mt) : (forall p q r s, k p q r s = k r s p q) -> (forall p q r s, k p q r s = k q p s r) ->
  forall x y, vb_blk K na k nv nv co cv co cv x y = vb_blk K na k nv nv co cv co cv y x.
Proof.
  intros Hk Hk2 x y. unfold vb_blk.
  rewrite (Sum_ext na _ (fun p => Sum na (fun r => Sum na (fun q => Sum na (fun s =>
     k p q s r * co p (x / nv)%nat * cv q (x mod nv)%nat * co r (y / nv)%nat * cv s (y mod nv)%nat))))).
  2:{ intros p _. rewrite Sum_swap. reflexivity. }
  rewrite Sum_swap. apply Sum_ext. intros r _.
  rewrite (Sum_ext na _ (fun p => Sum na (fun s => Sum na (fun q =>
     k p q s r * co p (x / nv)%nat * cv q (x mod nv)%nat * co r (y / nv)%nat * cv s (y mod nv)%nat)))).
  2:{ intros p _. rewrite Sum_swap. reflexivity. }
  rewrite Sum_swap. apply Sum_ext. intros s _. apply Sum_ext. intros p _. apply Sum_ext. intros q _.
  rewrite (Hk p q s r), (Hk2 s r p q). ring.
Qed.

Theorem C69_xc_symmetric (o : orbs K) r x alpha :
  let d := dense_kernel K x in
  (forall p q r s, fst (fst d) p q r s = fst (fst d) r s p q /\ fst (fst d) p q r s = fst (fst d) q p s r) ->
  (forall p q r s, snd d p q r s = snd d r s p q /\ snd d p q r s = snd d q p s r) ->
  let n := (dim_a K (ova K o) r + dim_b K (ovb K o) r)%nat in
  let c := xc_contribs K o r x alpha in
  meq n n (tr (fst c)) (fst c) /\ meq n n (tr (snd c)) (snd c).
Proof.
  intros d Ha Hb n c. unfold c, xc_contribs. fold d. destruct d as [[kaa kab] kbb]. cbn [fst snd] in *.
  assert (G : forall v : mt, meq (ova K o + ovb K o) (ova K o + ovb K o) (tr v) v ->
     meq n n (tr (fun p q => rot_full K (ova K o) (ovb K o) r v p q * alpha))
             (fun p q => rot_full K (ova K o) (ovb K o) r v p q * alpha)).
  { intros v Hv p q Hp Hq. unfold tr. f_equal.
    refine (rot_full_sym (ova K o) (ovb K o) r v n Hv _ p q Hp Hq). intros ->. reflexivity. }
  split; apply G; symmetry; apply blk_ext; intros p q Hp Hq; unfold tr;
    first [rewrite blk_ll by assumption | rewrite blk_rl by assumption | rewrite blk_lr by assumption | rewrite blk_rr];
    unfold madd, msub, tr; try reflexivity.
  - rewrite (va_sym _ kaa), (vb_sym _ kaa); [reflexivity|intros; apply Ha|intros; apply Ha|intros; apply Ha].
  - rewrite (va_sym _ kbb), (vb_sym _ kbb); [reflexivity|intros; apply Hb|intros; apply Hb|intros; apply Hb].
  - rewrite (va_sym _ kaa), (vb_sym _ kaa); [reflexivity|intros; apply Ha|intros; apply Ha|intros; apply Ha].
  - rewrite (va_sym _ kbb), (vb_sym _ kbb); [reflexivity|intros; apply Hb|intros; apply Hb|intros; apply Hb].
Qed.
End T.

(** * Concrete cases *)
From Coq Require Import ZArith QArith Qcanon.
Section Cases.
Local Close Scope Q_scope. Local Open Scope nat_scope.
Notation K := QO.
Notation vec := (nat -> QO).
Notation mt := (nat -> nat -> QO).
Ltac qq := first [apply eqq_ok; vm_compute; reflexivity | apply neqq; vm_compute; reflexivity].

Definition meqb (n m : nat) (a b : mt) : bool :=
  forallb (fun i => forallb (fun j => eqq (a i j) (b i j)) (seq 0 m)) (seq 0 n).
Lemma meqb_ok n m a b : meqb n m a b = true -> meq n m a b.
Proof.
  intros H i j Hi Hj. unfold meqb in H. rewrite forallb_forall in H.
  specialize (H i (proj2 (in_seq _ _ _) (conj (Nat.le_0_l _) Hi))). rewrite forallb_forall in H.
  specialize (H j (proj2 (in_seq _ _ _) (conj (Nat.le_0_l _) Hj))). apply eqq_ok. exact H.
Qed.
Definition eigb (n : nat) (m : mt) (ec : vec * mt) : bool :=
  meqb n n (mm n m (snd ec)) (mm n (snd ec) (dg (fst ec))) && meqb n n (mm n (tr (snd ec)) (snd ec)) idm
  && meqb n n (mm n (snd ec) (tr (snd ec))) idm.
Lemma eigb_ok n m ec : eigb n m ec = true -> eig_ok n m ec.
Proof.
  unfold eigb. rewrite !andb_true_iff. intros [[A B] C].
  split; [|split]; apply meqb_ok; assumption.
Qed.
Definition rootsb (sq inv : K -> K) (n : nat) (d : vec) : bool :=
  forallb (fun i => eqq (rmul (sq (d i)) (sq (d i))) (d i) && eqq (rmul (sq (d i)) (inv (sq (d i)))) r1) (seq 0 n).
Lemma rootsb_ok sq inv n d : rootsb sq inv n d = true -> roots sq inv n d.
Proof.
  intros H i Hi. unfold rootsb in H. rewrite forallb_forall in H.
  specialize (H i (proj2 (in_seq _ _ _) (conj (Nat.le_0_l _) Hi))). apply andb_true_iff in H. destruct H as [A B].
  split; apply eqq_ok; assumption.
Qed.
Ltac ck := first [apply meqb_ok | apply eigb_ok | apply rootsb_ok]; vm_compute; reflexivity.

(** Square root of a square of a rational, inverse. *)
Definition sqr (x : K) : K := Q2Qc (Z.sqrt (Qnum (this x)) # Pos.sqrt (Qden (this x))).
Definition ivr (x : K) : K := Qcinv x.
Definition half : K := q 1 2.
Definition tiny : K := q 1 1000000.
Definition vec2 (a b : K) : vec := fun i => match i with O => a | _ => b end.
Definition mat2 (a b c d : K) : mt := fun i j => match i, j with O, O => a | O, _ => b | _, O => c | _, _ => d end.
Definition rot35 : mt := mat2 (q 3 5) (q (-4) 5) (q 4 5) (q 3 5).

(** Unrestricted, one occupied and one virtual orbital of each spin: energies 1 and 4, frequencies 4 and 9. *)
Definition moeA : vec := vec2 (q 0 1) (q 1 1).
Definition moeB : vec := vec2 (q (-1) 1) (q 3 1).
Definition uaa : nat -> nat -> nat -> nat -> K := fun _ _ _ _ => q 283 10.
Definition uab : nat -> nat -> nat -> nat -> K := fun _ _ _ _ => q (-78) 10.
Definition ubb : nat -> nat -> nat -> nat -> K := fun _ _ _ _ => q 2925 1000.
Definition eigU : nat -> mt -> vec * mt := fun _ _ => (vec2 (q 16 1) (q 81 1), rot35).
Definition erU := (gen_eps K 1 1 moeA, gen_eps K 1 1 moeB, @None (rot K)).
Definition kU : mt := get_k_u K 1 1 1 1 uaa uab ubb.
Definition getsol (r : result (sol K)) : sol K :=
  match r with Ret s => s | _ => Build_sol K 0 0 (fun _ => r0) zm zm r0 None end.
Definition isret {A} (r : result A) : bool := match r with Ret _ => true | _ => false end.
Lemma getsol_ok r : isret r = true -> r = Ret (getsol r).
Proof. destruct r; cbn; congruence. Qed.
Definition solU := getsol (ssurpa K sqr ivr half tiny eigU 1 1 1 1 moeA moeB uaa uab ubb None r1).

Lemma runU : kernel0 K sqr ivr half tiny eigU 1 1 erU kU r1 = Ret solU.
Proof.
  change (ssurpa K sqr ivr half tiny eigU 1 1 1 1 moeA moeB uaa uab ubb None r1 = Ret solU).
  apply getsol_ok. vm_compute. reflexivity.
Qed.
Lemma hhalf : radd half half = r1. Proof. qq. Qed.

Lemma eigU_ok : eig_ok 2 (spec_m K sqr 1 1 erU kU r1) (eigU 2 (spec_m K sqr 1 1 erU kU r1)). Proof. ck. Qed.
Lemma rootsU1 : roots sqr ivr 2 (spec_amb K 1 erU). Proof. ck. Qed.
Lemma rootsU2 : roots sqr ivr 2 (fst (eigU 2 (spec_m K sqr 1 1 erU kU r1))). Proof. ck. Qed.
Lemma rootsU3 : roots sqr ivr 2 (s_f K solU). Proof. ck. Qed.

Example C69_solution_case :
  rpa_sol 2 (dg (spec_amb K 1 erU)) (spec_apb K 1 1 erU kU r1) (s_f K solU) (s_xpy K solU) (s_xmy K solU)
  /\ s_f K solU 0 = q 4 1 /\ s_f K solU 1 = q 9 1 /\ s_xpy K solU 1 0 <> q 0 1 /\ spec_apb K 1 1 erU kU r1 0 1 <> q 0 1.
Proof.
  split; [refine (proj2 (C69_solution K sqr ivr half tiny eigU 1 1 erU kU r1 solU runU eigU_ok rootsU1 rootsU2 rootsU3))|].
  split; [qq|]. split; [qq|]. split; qq.
Qed.

Example C69_energy_case :
  s_e K solU = plasmon_energy K half 2 (s_f K solU) (s_xpy K solU) (s_xmy K solU) /\ le (s_e K solU) (r0 : K)
  /\ s_e K solU = q (-929) 80.
Proof.
  destruct (C69_energy_plasmon K sqr ivr half tiny eigU 1 1 _ _ kU solU hhalf runU eigU_ok rootsU1 rootsU2 rootsU3) as [A B].
  split; [exact A|]. split; [|qq]. apply B. intros i Hi. destruct i as [|[|i]]; [| |lia]; vm_compute; reflexivity.
Qed.

Example C69_moments_case :
  meq 2 2 (gen_mom K solU 1) (dg (spec_amb K 1 erU)) /\
  meq 2 2 (gen_mom K solU 5) (mm 2 (dg (spec_amb K 1 erU)) (mm 2 (spec_apb K 1 1 erU kU r1) (gen_mom K solU 3))) /\
  gen_mom K solU 0 0 1 <> q 0 1 /\ gen_mom K solU 2 0 1 <> gen_mom K solU 0 0 1.
Proof.
  destruct C69_solution_case as [S _].
  destruct (C69_moments K solU _ _ S) as (_ & M1 & M2 & _).
  split; [exact M1|]. split; [exact (M2 3%nat)|]. split; qq.
Qed.

Example C69_arrays_case :
  spec_apb K 1 1 erU kU r1 (place 1 1 1 true 0 0) (place 1 1 1 false 0 0) = q (-156) 10 /\
  spec_apb K 1 1 erU kU r1 (place 1 1 1 true 0 0) (place 1 1 1 true 0 0) = q 985 100.
Proof.
  split.
  - destruct (C69_arrays_unrestricted K 1 1 1 1 moeA moeB uaa uab ubb r1 true false 0 0 0 0) as [_ H]; try (cbn; lia).
    change (spec_apb K 1 1 erU kU r1 (place 1 1 1 true 0 0) (place 1 1 1 false 0 0)) with
      (spec_apb K (1 * 1) (1 * 1) (gen_eps K 1 1 moeA, gen_eps K 1 1 moeB, None) (get_k_u K 1 1 1 1 uaa uab ubb) r1 (place 1 1 1 true 0 0) (place 1 1 1 false 0 0)).
    rewrite H. qq.
  - qq.
Qed.

Example C69_symmetric_case : meq 2 2 (tr kU) kU /\ meq 2 2 (tr (spec_m K sqr 1 1 erU kU r1)) (spec_m K sqr 1 1 erU kU r1).
Proof.
  assert (H : meq 2 2 (tr kU) kU).
  { refine (proj1 (C69_interaction_symmetric K 1 1 1 1 uaa uab ubb _ _)); reflexivity. }
  split; [exact H|]. exact (proj2 (C69_symmetric K sqr 1 1 erU kU r1 H)).
Qed.

(** Degenerate excitations: two choices of eigenvectors, same energy and moments. *)
Definition moe4 : vec := vec2 (q 0 1) (q 4 1).
Definition er4 := (gen_eps K 1 1 moe4, gen_eps K 1 1 moe4, @None (rot K)).
Definition eigI : nat -> mt -> vec * mt := fun _ _ => ((fun _ => q 16 1), idm).
Definition eigJ : nat -> mt -> vec * mt := fun _ _ => ((fun _ => q 16 1), rot35).
Definition solI := getsol (kernel0 K sqr ivr half tiny eigI 1 1 er4 zm r1).
Definition solJ := getsol (kernel0 K sqr ivr half tiny eigJ 1 1 er4 zm r1).
Example C69_unique_case :
  s_e K solI = s_e K solJ /\ (forall x, meq 2 2 (gen_mom K solI x) (gen_mom K solJ x)) /\ s_xpy K solI 0 1 <> s_xpy K solJ 0 1.
Proof.
  assert (R1 : kernel0 K sqr ivr half tiny eigI 1 1 er4 zm r1 = Ret solI) by (apply getsol_ok; vm_compute; reflexivity).
  assert (R2 : kernel0 K sqr ivr half tiny eigJ 1 1 er4 zm r1 = Ret solJ) by (apply getsol_ok; vm_compute; reflexivity).
  assert (E1 : eig_ok 2 (spec_m K sqr 1 1 er4 zm r1) (eigI 2 (spec_m K sqr 1 1 er4 zm r1))) by ck.
  assert (E2 : eig_ok 2 (spec_m K sqr 1 1 er4 zm r1) (eigJ 2 (spec_m K sqr 1 1 er4 zm r1))) by ck.
  assert (Z : meq 2 2 (tr (zm (K := K))) zm) by (intros i j _ _; reflexivity).
  destruct (C69_unique K sqr ivr half tiny eigI eigJ 1 1 er4 zm r1 solI solJ R1 R2 Z E1 E2) as [A B].
  split; [exact A|]. split; [exact B|]. qq.
Qed.

(** The coupling strength: without coupling there is no correlation, but the energy is minus half the trace. *)
Definition v4 : mt := fun _ _ => q 1 1.
Example C69_energy_alpha_refuted :
  exists s, kernel0 K sqr ivr half tiny eigI 1 1 er4 v4 r0 = Ret s /\
  eig_ok 2 (spec_m K sqr 1 1 er4 v4 r0) (eigI 2 (spec_m K sqr 1 1 er4 v4 r0)) /\ roots sqr ivr 2 (spec_amb K 1 er4) /\
  plasmon_energy K half 2 (s_f K s) (s_xpy K s) (s_xmy K s) = q 0 1 /\ s_e K s = q (-1) 1.
Proof.
  exists (getsol (kernel0 K sqr ivr half tiny eigI 1 1 er4 v4 r0)).
  split; [apply getsol_ok; vm_compute; reflexivity|]. split; [ck|]. split; [ck|]. split; qq.
Qed.

(** A rotation onto one of two excitations of each spin. *)
Definition eps2 : vec := vec2 (q 4 1) (q 4 1).
Definition rotC : rot K := Build_rot K 1 (fun _ j => match j with O => q 3 5 | _ => q 4 5 end) 1 (fun _ j => match j with O => q 1 1 | _ => q 0 1 end).
Definition eig1 : nat -> mt -> vec * mt := fun n m => ((fun i => m i i), idm).
Definition vC : mt := fun p q' => q (Z.of_nat (p + q')) 7.
Definition getok {A} (d : A) (r : result A) : A := match r with Ret s => s | _ => d end.
Definition erC := getok ((fun _ => r0), (fun _ => r0), None) (gen_eps_u K eig1 2 2 eps2 eps2 (Some rotC)).
Example C69_arrays_rotated_case :
  exists r', snd erC = Some r' /\
  (let F := block_diag K 1 2 (rma K r') (rmb K r') in
   meq 2 2 (spec_apb K 2 2 erC vC (q 1 2))
      (rotm K 4 F (madd (fun p q' => rmul (rmul (radd r1 r1) (vC p q')) (q 1 2)) (dg (vcat K 2 eps2 eps2))))) /\
  spec_apb K 2 2 erC vC (q 1 2) 0 1 <> q 0 1.
Proof.
  destruct (C69_arrays_rotated K eig1 2 2 eps2 eps2 rotC erC vC (q 1 2)) as (r' & A & B & C & _ & _ & D).
  - reflexivity.
  - cbv zeta. ck.
  - cbv zeta. ck.
  - exists r'. split; [exact A|]. cbv zeta in D. rewrite B in D. split; [exact D|]. qq.
Qed.

Definition moeP : vec := fun i => match i with O => q 0 1 | _ => q 4 1 end.
Definition bbP : nat -> nat -> nat -> nat -> K := fun _ _ _ _ => q 1625 392.
Definition zzP : nat -> nat -> nat -> nat -> K := fun _ _ _ _ => q 0 1.
Definition rotP : rot K := Build_rot K 1 (fun _ _ => q 1 1) 1 (fun _ j => match j with O => q 3 5 | _ => q 4 5 end).
Definition solP := getsol (ssurpa K sqr ivr half tiny eig1 1 1 1 2 moeP moeP zzP zzP bbP (Some rotP) r1).
Example C69_projected_case : exists ca cb,
  meq 1 1 (mm 1 (tr ca) ca) idm /\ meq 1 1 (mm 1 (tr cb) cb) idm /\
  (let F := block_diag K 1 1 (mm 1 (tr ca) (rma K rotP)) (mm 1 (tr cb) (rmb K rotP)) in
   let eps := vcat K 1 (gen_eps K 1 1 moeP) (gen_eps K 1 2 moeP) in
   rpa_sol 2 (rotm K 3 F (dg eps))
     (rotm K 3 F (madd (fun p q' => rmul (rmul (radd r1 r1) (get_k_u K 1 1 1 2 zzP zzP bbP p q')) r1) (dg eps)))
     (s_f K solP) (s_xpy K solP) (s_xmy K solP)) /\
  s_f K solP 0 = q 4 1 /\ s_f K solP 1 = q 9 1.
Proof.
  assert (R : ssurpa K sqr ivr half tiny eig1 1 1 1 2 moeP moeP zzP zzP bbP (Some rotP) r1 = Ret solP) by (apply getsol_ok; vm_compute; reflexivity).
  destruct (C69_projected K sqr ivr half tiny eig1 1 1 1 2 moeP moeP zzP zzP bbP rotP r1 solP R) as (ca & cb & A & B & C).
  - cbv zeta. ck.
  - cbv zeta. ck.
  - intros er E. assert (Q : getok ((fun _ => r0), (fun _ => r0), None) (gen_eps_u K eig1 1 2 (gen_eps K 1 1 moeP) (gen_eps K 1 2 moeP) (Some rotP)) = er)
      by (change (gen_eps_u K eig1 1 2 (gen_eps K 1 1 moeP) (gen_eps K 1 2 moeP) (Some rotP) = Ret er) in E; rewrite E; reflexivity).
    subst er. clear E. split; [ck|]. split; [ck|]. split; ck.
  - exists ca, cb. split; [exact A|]. split; [exact B|]. split; [exact C|]. split; qq.
Qed.

Example C69_assert_case : kernel0 K sqr ivr half (q 20 1) eigU 1 1 erU kU r1 = AssertErr /\ (exists s, kernel0 K sqr ivr half tiny eigU 1 1 erU kU r1 = Ret s).
Proof.
  split.
  - apply (proj1 (C69_assert K sqr ivr half (q 20 1) eigU 1 1 erU kU r1)). exists 0%nat. split; [cbn; lia|]. vm_compute. discriminate.
  - destruct (proj2 (C69_assert K sqr ivr half tiny eigU 1 1 erU kU r1)) as [H|H]; [|exact H].
    exfalso. rewrite runU in H. discriminate.
Qed.

Definition vR : mt := fun p q' => if ((p =? 1) && (q' =? 1))%nat then q 2 1 else q 0 1.
Definition rotR : rot K := Build_rot K 1 (fun _ j => match j with O => q 1 1 | _ => q 0 1 end) 1 (fun _ j => match j with O => q 1 1 | _ => q 0 1 end).
Definition eigR : nat -> mt -> vec * mt := fun n m => ((fun i => m i i), idm).
Example C69_energy_rotated_refuted :
  exists er s, gen_eps_r K eigR 2 eps2 (Some rotR) = Ret er /\ kernel0 K sqr ivr half tiny eigR 2 2 er vR r1 = Ret s /\
  eig_ok 2 (spec_m K sqr 2 2 er vR r1) (eigR 2 (spec_m K sqr 2 2 er vR r1)) /\
  plasmon_energy K half 2 (s_f K s) (s_xpy K s) (s_xmy K s) = q 0 1 /\ s_e K s = q (-1) 1.
Proof.
  exists (getok ((fun _ => r0), (fun _ => r0), None) (gen_eps_r K eigR 2 eps2 (Some rotR))).
  eexists (getsol (kernel0 K sqr ivr half tiny eigR 2 2 _ vR r1)).
  split; [reflexivity|]. split; [apply getsol_ok; vm_compute; reflexivity|]. split; [ck|]. split; qq.
Qed.

(** The restricted class raises an error for a rotation without rows of one spin. *)
Example C69_rotated_restricted_case :
  gen_eps_r K eigR 2 eps2 (Some (Build_rot K 1 (rma K rotR) 0 (rmb K rotR))) = UnboundErr /\
  isret (gen_eps_u K eigR 2 2 eps2 eps2 (Some (Build_rot K 1 (rma K rotR) 0 (rmb K rotR)))) = true.
Proof.
  split; [|reflexivity].
  rewrite (C69_rotated_restricted K eigR 2 eps2 (Build_rot K 1 (rma K rotR) 0 (rmb K rotR))). reflexivity.
Qed.

(** Restricted: one occupied, two virtual orbitals; frequencies 9, 16, 4, 4. *)
Definition moeR : vec := fun i => match i with O => q 0 1 | _ => q 4 1 end.
Definition eriR : nat -> nat -> nat -> nat -> K := fun _ a _ b => if (a =? b)%nat then q 305 32 else q (-175) 32.
Definition had : mt := fun p i =>
  let s := (if Nat.even p then 1 else (if Nat.even i then 1 else -1))%Z in
  let t := (if (p <? 2)%nat then 1 else (if (i <? 2)%nat then 1 else -1))%Z in q (s * t) 2.
Definition eigH : nat -> mt -> vec * mt := fun n m =>
  if eqq (m 0%nat 1%nat) (q 0 1) then ((fun _ => q 16 1), had)
  else ((fun i => match i with 0 => q 81 1 | 1 => q 256 1 | _ => q 16 1 end%nat), had).
Definition sqrtD : nat -> mt -> mt := fun n m => dg (fun i => sqr (m i i)).
Definition invD : nat -> mt -> mt := fun n m => dg (fun i => ivr (m i i)).
Definition solR := getsol (ssrpa K sqr ivr half tiny eigH 1 2 moeR eriR None r1).
Definition erR := (gen_eps K 1 2 moeR, gen_eps K 1 2 moeR, @None (rot K)).
Lemma runR : ssrpa K sqr ivr half tiny eigH 1 2 moeR eriR None r1 = Ret solR.
Proof. apply getsol_ok. vm_compute. reflexivity. Qed.
Lemma eriR_sym i a j b : eriR i a j b = eriR j b i a.
Proof. unfold eriR. rewrite Nat.eqb_sym. reflexivity. Qed.

Example C69_spin_case :
  (forall x p q, (p < 2)%nat -> (q < 2)%nat -> gen_mom K solR x (2 + p) (2 + q) = gen_mom K solR x p q) /\
  gen_mom K solR 0 0 2 <> q 0 1 /\ gen_mom K solR 0 0 2 <> gen_mom K solR 0 0 0.
Proof.
  split; [|split; qq].
  intros x p q' Hp Hq.
  assert (E : eig_ok (1 * 2 + 1 * 2) (spec_m K sqr (1 * 2) (1 * 2) erR (get_k_r K 1 2 eriR) r1)
      (eigH (1 * 2 + 1 * 2) (spec_m K sqr (1 * 2) (1 * 2) erR (get_k_r K 1 2 eriR) r1))) by ck.
  exact (proj1 (C69_spin K sqr ivr half tiny eigH 1 2 moeR eriR r1 solR runR eriR_sym E x p q' Hp Hq)).
Qed.

Definition rpaD := rpa K sqr ivr half tiny eigH sqrtD invD 1 2 moeR eriR (Drpa K).
Definition rpaS := getok (solR, solR, r0) rpaD.
Lemma runD : rpaD = Ret rpaS.
Proof. 
  assert (H : isret rpaD = true) by (vm_compute; reflexivity).
  unfold rpaS. destruct rpaD; [reflexivity|discriminate H|discriminate H|discriminate H].
Qed.
Example C69_drpa_case : snd rpaS = s_e K solR /\ s_e K (snd (fst rpaS)) = q 0 1 /\ s_e K solR = q (-169) 16.
Proof.
  assert (R : rpa K sqr ivr half tiny eigH sqrtD invD 1 2 moeR eriR (Drpa K) = Ret (fst (fst rpaS), snd (fst rpaS), snd rpaS)).
  { change (rpaD = Ret (fst (fst rpaS), snd (fst rpaS), snd rpaS)). rewrite runD. destruct rpaS as [[a b] c]. reflexivity. }
  destruct (C69_drpa K sqr ivr half tiny eigH sqrtD invD 1 2 moeR eriR _ _ _ solR hhalf R runR eriR_sym) as [A B].
  - ck.
  - ck.
  - intros p Hp. destruct p as [|[|[|[|p]]]]; [| | | |cbn in Hp; lia]; split; qq.
  - cbv zeta. ck.
  - cbv zeta. ck.
  - cbv zeta. ck.
  - split; [exact B|]. split; [exact A|]. qq.
Qed.

Definition pssR := fst (fst (fst (build K 1 2 moeR eriR (Drpa K)))).
Definition mssR := snd (fst (fst (build K 1 2 moeR eriR (Drpa K)))).
Definition sol2 := getsol (solve K sqr ivr half tiny eigH sqrtD invD 2 pssR mssR).
Example C69_rpa_solution_case :
  rpa_sol 4 mssR pssR (s_f K sol2) (s_xpy K sol2) (s_xmy K sol2) /\ s_e K sol2 = q (-169) 16.
Proof.
  assert (R : solve K sqr ivr half tiny eigH sqrtD invD 2 pssR mssR = Ret sol2) by (apply getsol_ok; vm_compute; reflexivity).
  destruct (C69_rpa_solution K sqr ivr half tiny eigH sqrtD invD 2 pssR mssR sol2 hhalf R) as (A & B & C).
  - ck.
  - ck.
  - ck.
  - ck.
  - ck.
  - ck.
  - ck.
  - split; [exact B|]. qq.
Qed.

(** RPAX: integrals without symmetry, so that every place of an index counts. *)
Definition eriX : nat -> nat -> nat -> nat -> K := fun i j k l => q (Z.of_nat (i + 3 * j + 11 * k + 29 * l)) 1.
Definition moeX : vec := fun i => q (Z.of_nat (i * i)) 1.
Example C69_rpax_case :
  fst (fst (fst (build K 2 2 moeX eriX (Rpax K)))) (place 2 2 2 true 0 1) (place 2 2 2 true 1 0) 
    = radd (rsub (eriX 0 3 1 2) (eriX 0 1 3 2)) (rsub (eriX 0 3 1 2) (eriX 0 2 1 3)) /\
  snd (build K 2 2 moeX eriX (Rpax K)) (place 2 2 2 true 0 1) (place 2 2 2 false 1 0) = eriX 0 2 1 3.
Proof.
  split.
  - destruct (C69_rpax K 2 2 moeX eriX true true 0 1 1 0) as (A & _); try lia. cbv zeta in A. rewrite A. qq.
  - destruct (C69_rpax K 2 2 moeX eriX true false 0 1 1 0) as (_ & _ & _ & A); try lia. cbv zeta in A. rewrite A. qq.
Qed.

(** A kernel: one excitation of each spin, two basis functions. *)
Definition orbX : orbs K := Build_orbs K 2 1 1 1 1 (fun p _ => if (p =? 0)%nat then q 1 1 else q 0 1) (fun p _ => if (p =? 1)%nat then q 1 1 else q 0 1)
   (fun p _ => if (p =? 0)%nat then q 1 1 else q 0 1) (fun p _ => if (p =? 1)%nat then q 1 1 else q 0 1).
Definition kerX (a b : K) : nat -> nat -> nat -> nat -> K := fun p q' r s =>
  if ((p =? r) && (q' =? s))%nat then a else if ((p =? s) && (q' =? r))%nat then b else q 0 1.
Definition xcX : xck K := Dense K (kerX (q 4 1) (q 1 1)) (kerX (q 1 1) (q 1 1)) (kerX (q 1 1) (q 1 1)).
Definition one : vec := fun _ => q 1 1.
Definition vX : mt := mat2 (q 42 10) (q (-88) 10) (q (-88) 10) (q 182 10).
Definition eigX : nat -> mt -> vec * mt := fun n m =>
  if eqq (m 0%nat 1%nat) (q 0 1) then ((fun i => m i i), idm) else (vec2 (q 16 1) (q 81 1), rot35).
Definition solX := getsol (kernel_xc K sqr ivr half tiny eigX sqrtD orbX (one, one, None) vX xcX r1).
Example C69_solution_xc_case :
  rpa_sol 2 (snd (arrays_xc K orbX (one, one, None) vX xcX r1)) (fst (arrays_xc K orbX (one, one, None) vX xcX r1))
     (s_f K solX) (s_xpy K solX) (s_xmy K solX) /\
  (let b := msc half (msub (fst (xc_contribs K orbX None xcX r1)) (snd (xc_contribs K orbX None xcX r1))) in
   s_e K solX = rsub (plasmon_energy K half 2 (s_f K solX) (s_xpy K solX) (s_xmy K solX))
       (rmul (rmul half half) (rsub (trace 2 (mm 2 (gen_mom K solX 0) b)) (trace 2 b)))) /\
  s_e K solX <> plasmon_energy K half 2 (s_f K solX) (s_xpy K solX) (s_xmy K solX) /\
  snd (arrays_xc K orbX (one, one, None) vX xcX r1) 0%nat 0%nat = q 4 1.
Proof.
  assert (R : kernel_xc K sqr ivr half tiny eigX sqrtD orbX (one, one, None) vX xcX r1 = Ret solX) by (apply getsol_ok; vm_compute; reflexivity).
  set (apb := fst (arrays_xc K orbX (one, one, None) vX xcX r1)).
  set (amb := snd (arrays_xc K orbX (one, one, None) vX xcX r1)).
  assert (E1 : eig_ok 2 (mxc K sqrtD 2 amb apb) (eigX 2 (mxc K sqrtD 2 amb apb))) by ck.
  assert (E2 : eig_ok 2 amb (eigX 2 amb)) by ck.
  assert (E3 : meq 2 2 (sqrtD 2 amb) (mm 2 (snd (eigX 2 amb)) (mm 2 (dg (fun i => sqr (fst (eigX 2 amb) i))) (tr (snd (eigX 2 amb)))))) by ck.
  assert (H1 : roots sqr ivr 2 (fst (eigX 2 amb))) by ck.
  assert (H2 : roots sqr ivr 2 (fst (eigX 2 (mxc K sqrtD 2 amb apb)))) by ck.
  assert (H3 : roots sqr ivr 2 (s_f K solX)) by ck.
  split; [exact (proj2 (C69_solution_xc K sqr ivr half tiny eigX sqrtD orbX one one None vX xcX r1 solX R E1 E2 E3 H1 H2 H3))|].
  split; [exact (C69_energy_xc K sqr ivr half tiny eigX sqrtD orbX one one None vX xcX solX hhalf R E1 E2 E3 H1 H2 H3)|].
  split; qq.
Qed.

Example C69_xc_symmetric_case :
  meq 2 2 (tr (fst (xc_contribs K orbX None xcX (q 1 3)))) (fst (xc_contribs K orbX None xcX (q 1 3))) /\
  fst (xc_contribs K orbX None xcX (q 1 3)) 0%nat 1%nat = q 2 3.
Proof.
  split; [|qq].
  assert (S : forall a b p q' r s, kerX a b p q' r s = kerX a b r s p q' /\ kerX a b p q' r s = kerX a b q' p s r).
  { intros a b p q' r s. unfold kerX.
    rewrite (Nat.eqb_sym r p), (Nat.eqb_sym s q'), (Nat.eqb_sym r q'), (Nat.eqb_sym s p).
    rewrite (andb_comm (q' =? s) (p =? r)), (andb_comm (q' =? r) (p =? s)). split; reflexivity. }
  refine (proj1 (C69_xc_symmetric K orbX None xcX (q 1 3) _ _)); intros p q' r s; apply S.
Qed.

(** Low-rank kernels: with different factors for beta the alpha-beta block is wrong. *)
Definition cst (x : K) : nat -> nat -> nat -> K := fun l p q' => rmul x (q (Z.of_nat (1 + l + p + 2 * q')) 1).
Example C69_low_rank_case :
  forall p q' r s, snd (fst (dense_kernel K (LowRank K 2 (cst (q 1 1)) (cst (q 2 1)) (cst (q 3 1)) (cst (q 2 1))))) p q' r s
    = snd (fst (low_ok K 2 (cst (q 1 1)) (cst (q 2 1)) (cst (q 3 1)) (cst (q 2 1)))) p q' r s.
Proof.
  intros p q' r s. refine (proj1 (proj2 (C69_low_rank K 2 _ _ _ _ _ p q' r s))). reflexivity.
Qed.
Example C69_low_rank_refuted :
  exists la ra lb rb, snd (fst (dense_kernel K (LowRank K 1 la ra lb rb))) 0%nat 1%nat 0%nat 1%nat
    <> snd (fst (low_ok K 1 la ra lb rb)) 0%nat 1%nat 0%nat 1%nat.
Proof. exists (cst (q 1 1)), (cst (q 1 1)), (cst (q 2 1)), (cst (q 2 1)). qq. Qed.
End Cases.

Print Assumptions C69_moments.
Print Assumptions C69_solution.
Print Assumptions C69_energy.
Print Assumptions C69_energy_plasmon.
Print Assumptions C69_arrays_unrestricted.
Print Assumptions C69_arrays_restricted.
Print Assumptions C69_arrays_rotated.
Print Assumptions C69_unique.
Print Assumptions C69_spin.
Print Assumptions C69_solution_xc.
Print Assumptions C69_energy_xc.
Print Assumptions C69_rpa_solution.
Print Assumptions C69_drpa.
Print Assumptions C69_rpax.
Print Assumptions C69_xc_symmetric.
Print Assumptions C69_energy_alpha_refuted.
Print Assumptions C69_energy_rotated_refuted.
Print Assumptions C69_low_rank_refuted.
Print Assumptions C69_projected.
Print Assumptions C69_assert.
