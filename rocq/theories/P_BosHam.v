(** C75: the bosonic part of a cluster's Hamiltonian.  Theorems about M_BosHam. *)
From Coq Require Import List Arith Lia Bool Ring Setoid Morphisms.
From Verif Require Import Alg Ord Mat M_ExtCorr M_SsRpa P_TtoC P_SsRpa P_BosBath M_BosHam.
Import ListNotations.
Local Open Scope list_scope.

Section T.
Context (K : oring).
Add Ring Kr : (rth K).
Notation vec := (nat -> K).
Notation mt := (nat -> nat -> K).
Notation t3 := (nat -> nat -> nat -> K).
Notation bos := (bos K).
Notation clu := (clu K).
Open Scope K_scope.

(** ** Sums *)
Lemma Sum_grid n m (f : vec) : Sum (n * m) f = Sum n (fun i => Sum m (fun a => f (i * m + a)%nat)).
Proof. induction n; [reflexivity|]. replace (S n * m)%nat with (n * m + m)%nat by lia. rewrite Sum_split, IHn. reflexivity. Qed.
Lemma Sum_prod n m (f g : vec) : Sum n (fun x => Sum m (fun y => f x * g y)) = Sum n f * Sum m g.
Proof. symmetry. apply Sum_mul_Sum. Qed.
Lemma Sum_ext2 n m (f g : mt) : (forall x y, (x < n)%nat -> (y < m)%nat -> f x y = g x y) -> Sum n (fun x => Sum m (f x)) = Sum n (fun x => Sum m (g x)).
Proof. intros H. apply Sum_ext. intros x Hx. apply Sum_ext. intros y Hy. apply H; assumption. Qed.
Lemma Sum_swap22 n m k l (f : nat -> nat -> nat -> nat -> K) :
  Sum n (fun x => Sum m (fun y => Sum k (fun i => Sum l (fun a => f x y i a)))) = Sum k (fun i => Sum l (fun a => Sum n (fun x => Sum m (fun y => f x y i a)))).
Proof.
  rewrite (Sum_ext n _ (fun x => Sum k (fun i => Sum l (fun a => Sum m (fun y => f x y i a))))).
  2:{ intros x _. rewrite Sum_swap. apply Sum_ext. intros i _. apply Sum_swap. }
  rewrite Sum_swap. apply Sum_ext. intros i _. apply Sum_swap.
Qed.

(** ** Linear functions of the coefficients *)
Definition pr (n : nat) (r w : mt) : K := Sum n (fun x => Sum n (fun y => r x y * w x y)).
Lemma pr_ext n r r' w w' : (forall x y, (x < n)%nat -> (y < n)%nat -> r x y = r' x y) -> (forall x y, (x < n)%nat -> (y < n)%nat -> w x y = w' x y) -> pr n r w = pr n r' w'.
Proof. intros H G. apply Sum_ext2. intros x y Hx Hy. rewrite H, G by assumption. reflexivity. Qed.
Lemma pr_lin n N (u : vec) (r : t3) w : pr n (fun x y => Sum N (fun k => u k * r k x y)) w = Sum N (fun k => u k * pr n (r k) w).
Proof.
  unfold pr. transitivity (Sum n (fun x => Sum n (fun y => Sum N (fun k => u k * (r k x y * w x y))))).
  - apply Sum_ext2. intros x y _ _. rewrite <- Sum_mul_r. apply Sum_ext. intros; ring.
  - rewrite (Sum_ext n _ (fun x => Sum N (fun k => Sum n (fun y => u k * (r k x y * w x y))))) by (intros; apply Sum_swap).
    rewrite Sum_swap. apply Sum_ext. intros k _. rewrite <- Sum_mul_l. apply Sum_ext. intros. rewrite Sum_mul_l. reflexivity.
Qed.
Lemma pr_linr n N (u : vec) (w : t3) r : pr n r (fun x y => Sum N (fun k => u k * w k x y)) = Sum N (fun k => u k * pr n r (w k)).
Proof.
  rewrite (Sum_ext N _ (fun k => u k * pr n (w k) r)), <- pr_lin.
  - apply Sum_ext2; intros; ring.
  - intros. f_equal. apply Sum_ext2; intros; ring.
Qed.
Lemma pr_add n r r' w : pr n (fun x y => r x y + r' x y) w = pr n r w + pr n r' w.
Proof. unfold pr. rewrite <- Sum_add. apply Sum_ext. intros x _. rewrite <- Sum_add. apply Sum_ext. intros; ring. Qed.

Variables (eigh : nat -> mt -> vec * mt) (nao : nat).
Notation ao := (ao K).

(** ** Rotation of bosons *)
Lemma o_v_rot b (u d : mt) s n i a : ov_to_o_v K b (mm (nb K b) (tr u) d) s n i a = Sum (nb K b) (fun k => u k n * ov_to_o_v K b d s k i a).
Proof. unfold ov_to_o_v, mm, tr. destruct s; reflexivity. Qed.
Lemma mo2ao_lin b N (u : vec) (d : t3) (e : t3) s n x y : (forall i a, e n i a = Sum N (fun k => u k * d k i a)) ->
  mo2ao K b e s n x y = Sum N (fun k => u k * mo2ao K b d s k x y).
Proof.
  intros H. unfold mo2ao.
  transitivity (Sum (nv K b s) (fun a => Sum N (fun k => u k * (Sum (no K b s) (fun i => d k i a * co K b s x i) * cv K b s y a)))).
  - apply Sum_ext. intros a _.
    rewrite (Sum_ext (no K b s) _ (fun i => Sum N (fun k => u k * (d k i a * co K b s x i)))) by (intros; rewrite H, <- Sum_mul_r; apply Sum_ext; intros; ring).
    rewrite Sum_swap, <- Sum_mul_r. apply Sum_ext. intros k _. rewrite Sum_mul_l. ring.
  - rewrite Sum_swap. apply Sum_ext. intros k _. rewrite Sum_mul_l. reflexivity.
Qed.
Lemma ao_rot b u s m x y : ao (rotate K b u) s m x y = Sum (nb K b) (fun n => u n m * ao b s n x y).
Proof.
  unfold M_BosHam.ao. cbn [rotate dex ex].
  assert (L : forall d x y, mo2ao K (rotate K b u) (ov_to_o_v K (rotate K b u) (mm (nb K b) (tr u) d) s) s m x y = Sum (nb K b) (fun n => u n m * mo2ao K b (ov_to_o_v K b d s) s n x y)).
  { intros d x' y'. change (mo2ao K (rotate K b u)) with (mo2ao K b). apply (mo2ao_lin b _ (fun n => u n m) (ov_to_o_v K b d s)). intros i a.
    change (ov_to_o_v K (rotate K b u)) with (ov_to_o_v K b). apply o_v_rot. }
  rewrite L. destruct (dex K b) as [d|]; [|reflexivity]. rewrite L, <- Sum_add. apply Sum_ext. intros; ring.
Qed.

Lemma cderi_rot blocks b u : forall l m, cderi_bos K nao blocks (rotate K b u) l m = Sum (nb K b) (fun n => u n m * cderi_bos K nao blocks b l n).
Proof.
  unfold cderi_bos.
  assert (G : forall acc acc' : mt, (forall l m, acc' l m = Sum (nb K b) (fun n => u n m * acc l n)) -> forall l m,
    fold_left (fun acc '(k, n, l) => fun i m => if ((k <=? i) && (i <? k + n))%nat
      then Sum nao (fun x => Sum nao (fun y => l (i - k)%nat x y * (ao (rotate K b u) true m x y + ao (rotate K b u) false m x y))) else acc i m) blocks acc' l m
    = Sum (nb K b) (fun n => u n m * fold_left (fun acc '(k, n, l) => fun i m => if ((k <=? i) && (i <? k + n))%nat
      then Sum nao (fun x => Sum nao (fun y => l (i - k)%nat x y * (ao b true m x y + ao b false m x y))) else acc i m) blocks acc l n)).
  { induction blocks as [|[[k n] l0] bl IH]; intros acc acc' H; cbn [fold_left]; [exact H|]. apply IH. intros l m.
    destruct ((k <=? l) && (l <? k + n))%nat; [|apply H].
    transitivity (pr nao (fun x y => Sum (nb K b) (fun j => u j m * (ao b true j x y + ao b false j x y))) (l0 (l - k)%nat)).
    - apply Sum_ext2. intros x y _ _. rewrite !ao_rot. rewrite <- Sum_add. rewrite (Sum_ext (nb K b) _ (fun j => u j m * (ao b true j x y + ao b false j x y))) by (intros; ring). ring.
    - rewrite (pr_lin nao (nb K b) (fun j => u j m) (fun j x y => ao b true j x y + ao b false j x y)). apply Sum_ext. intros j _. f_equal. apply Sum_ext2; intros; ring. }
  apply G. intros. rewrite (Sum_ext _ _ (fun _ => 0)) by (intros; ring). symmetry. apply Sum_0. reflexivity.
Qed.

Lemma quad_pr (f g : mt) (r : t3) n m : quad K nao f g r n m = pr nao (r n) (fun i a => pr nao (r m) (fun j c => f a c * g i j)).
Proof. apply Sum_ext2. intros i a _ _. unfold pr. rewrite <- Sum_mul_l. apply Sum_ext. intros j _. rewrite <- Sum_mul_l. apply Sum_ext. intros; ring. Qed.
Lemma pr_ao_rot b u s m w : pr nao (ao (rotate K b u) s m) w = Sum (nb K b) (fun n => u n m * pr nao (ao b s n) w).
Proof. rewrite <- (pr_lin nao (nb K b) (fun n => u n m) (ao b s)). apply pr_ext; [|reflexivity]. intros; apply ao_rot. Qed.
Lemma quad_rot f g b u s m k : quad K nao f g (ao (rotate K b u) s) m k = mm (nb K b) (tr u) (mm (nb K b) (quad K nao f g (ao b s)) u) m k.
Proof.
  rewrite quad_pr, pr_ao_rot. unfold mm, tr. apply Sum_ext. intros n _. f_equal.
  rewrite (Sum_ext (nb K b) _ (fun j => u j k * pr nao (ao b s n) (fun i a => pr nao (ao b s j) (fun j c => f a c * g i j)))) by (intros; rewrite quad_pr; ring).
  rewrite <- (pr_linr nao (nb K b) (fun j => u j k)). apply pr_ext; [reflexivity|]. intros; apply pr_ao_rot.
Qed.

Variables (blocks : list (nat * nat * t3)) (naux : nat) (fock : bool -> mt) (ovlp : mt).
Notation hbb := (hbb K nao blocks naux fock ovlp).
Notation cderi_bos := (cderi_bos K nao blocks).

Lemma hbb_rot b u m k : hbb (rotate K b u) m k = mm (nb K b) (tr u) (mm (nb K b) (hbb b) u) m k.
Proof.
  unfold M_BosHam.hbb. rewrite !quad_rot.
  assert (C : Sum naux (fun l => cderi_bos (rotate K b u) l m * cderi_bos (rotate K b u) l k) = mm (nb K b) (tr u) (mm (nb K b) (fun n j => Sum naux (fun l => cderi_bos b l n * cderi_bos b l j)) u) m k).
  { unfold mm, tr. transitivity (Sum naux (fun l => Sum (nb K b) (fun n => Sum (nb K b) (fun j => u n m * (cderi_bos b l n * cderi_bos b l j * u j k))))).
    - apply Sum_ext. intros l _. rewrite !cderi_rot, Sum_mul_Sum. apply Sum_ext2. intros; ring.
    - rewrite Sum_swap. apply Sum_ext. intros n _. rewrite Sum_swap, <- Sum_mul_l. apply Sum_ext. intros j _. rewrite <- Sum_mul_r, <- Sum_mul_l. apply Sum_ext. intros; ring. }
  rewrite C. unfold mm, tr. rewrite <- Sum_add, <- !Sum_sub, <- Sum_add. apply Sum_ext. intros n _.
  rewrite <- !Sum_mul_l. rewrite <- Sum_add, <- !Sum_sub, <- Sum_add. apply Sum_ext. intros; ring.
Qed.

Lemma fock_rot b u cl s m p q : cpl_fock K nao fock ovlp (rotate K b u) cl s m p q = Sum (nb K b) (fun n => u n m * cpl_fock K nao fock ovlp b cl s n p q).
Proof.
  assert (E : forall b n, cpl_fock K nao fock ovlp b cl s n p q =
    pr nao (ao b s n) (fun j z => mm nao (fock s) (c K cl s) z q * mm nao ovlp (c K cl s) j p) - pr nao (ao b s n) (fock s) * pocc K nao ovlp cl s p q
    + pr nao (ao b s n) (fock s) * pvir K nao ovlp cl s p q - pr nao (ao b s n) (fun k a => mm nao (fock s) (c K cl s) k q * mm nao ovlp (c K cl s) a p)).
  { intros b0 n. unfold cpl_fock. f_equal; [|apply Sum_ext2; intros; ring]. f_equal. f_equal. apply Sum_ext2; intros; ring. }
  rewrite E, !pr_ao_rot. rewrite <- !Sum_mul_r, <- Sum_sub, <- Sum_add, <- Sum_sub. apply Sum_ext. intros n _. rewrite E. ring.
Qed.
Lemma exch_rot b u cl s m p q : cpl_exch K nao blocks (rotate K b u) cl s m p q = Sum (nb K b) (fun n => u n m * cpl_exch K nao blocks b cl s n p q).
Proof.
  unfold cpl_exch. rewrite (Sum_ext (nb K b) _ (fun n => Lsum blocks (fun '(_, n0, l) => u n m * exch1 K nao b cl s n0 l n p q))).
  2:{ intros n _. rewrite <- Lsum_mul_l. apply Lsum_ext. intros [[? ?] ?] _. reflexivity. }
  induction blocks as [|[[k n0] l] bl IH]; cbn [Lsum]; [symmetry; apply Sum_0; reflexivity|]. rewrite Sum_add, IH. f_equal.
  set (W := fun k z => Sum n0 (fun x => Sum nao (fun y => l x k y * c K cl s y p) * Sum nao (fun y => l x z y * c K cl s y q))).
  transitivity (pr nao (ao (rotate K b u) s m) W); [apply Sum_ext2; intros; unfold W; ring|]. rewrite pr_ao_rot. apply Sum_ext. intros n _. f_equal. apply Sum_ext2; intros; unfold W; ring.
Qed.
Lemma cpl_rot e b u cl s m p q : couplings K nao blocks naux fock ovlp e (rotate K b u) cl s m p q = Sum (nb K b) (fun n => u n m * couplings K nao blocks naux fock ovlp e b cl s n p q).
Proof.
  unfold couplings. rewrite fock_rot.
  assert (C : Sum naux (fun l => cderi_bos (rotate K b u) l m * lc K cl s l p q) = Sum (nb K b) (fun n => u n m * Sum naux (fun l => cderi_bos b l n * lc K cl s l p q))).
  { rewrite (Sum_ext naux _ (fun l => Sum (nb K b) (fun n => u n m * (cderi_bos b l n * lc K cl s l p q)))) by (intros; rewrite cderi_rot, <- Sum_mul_r; apply Sum_ext; intros; ring).
    rewrite Sum_swap. apply Sum_ext. intros. apply Sum_mul_l. }
  rewrite C. destruct e; [rewrite exch_rot|].
  - rewrite <- !Sum_add. apply Sum_ext. intros; ring.
  - match goal with |- ?x + 0 + ?y = _ => replace (x + 0 + y) with (x + y) by ring end. rewrite <- Sum_add. apply Sum_ext. intros; ring.
Qed.
Notation nonconserving := (nonconserving K nao fock ovlp).
Lemma non_rot b u cl g g' m : (forall s p q, g' s m p q = Sum (nb K b) (fun n => u n m * g s n p q)) ->
  nonconserving (rotate K b u) cl g' m = Sum (nb K b) (fun n => u n m * nonconserving b cl g n).
Proof.
  intros H. unfold M_BosHam.nonconserving.
  assert (A : Sum (nact K cl true) (fun p => Sum (nact K cl true) (fun q => g' true m p q * pocc K nao ovlp cl true p q)) = Sum (nb K b) (fun n => u n m * Sum (nact K cl true) (fun p => Sum (nact K cl true) (fun q => g true n p q * pocc K nao ovlp cl true p q)))).
  { transitivity (pr (nact K cl true) (fun p q => Sum (nb K b) (fun n => u n m * g true n p q)) (pocc K nao ovlp cl true)); [apply pr_ext; [intros; apply H|reflexivity]|].
    apply (pr_lin _ _ (fun n => u n m) (g true)). }
  assert (B : Sum (nact K cl false) (fun p => g' false m p p * pocc K nao ovlp cl false p p) = Sum (nb K b) (fun n => u n m * Sum (nact K cl false) (fun p => g false n p p * pocc K nao ovlp cl false p p))).
  { rewrite (Sum_ext (nact K cl false) _ (fun p => Sum (nb K b) (fun n => u n m * (g false n p p * pocc K nao ovlp cl false p p)))) by (intros; rewrite H, <- Sum_mul_r; apply Sum_ext; intros; ring).
    rewrite Sum_swap. apply Sum_ext. intros. apply Sum_mul_l. }
  rewrite A, B. change (Sum nao (fun x => Sum nao (fun y => ao (rotate K b u) true m x y * fock true x y))) with (pr nao (ao (rotate K b u) true m) (fock true)).
  change (Sum nao (fun x => Sum nao (fun y => ao (rotate K b u) false m x y * fock false x y))) with (pr nao (ao (rotate K b u) false m) (fock false)).
  rewrite !pr_ao_rot. rewrite <- !Sum_add, <- Sum_sub. apply Sum_ext. intros n _. unfold pr. ring.
Qed.

Notation generate := (generate K eigh nao blocks naux fock ovlp).
Notation couplings := (couplings K nao blocks naux fock ovlp).

(** Everything stored belongs to the bosons stored: with the rotated bosons the matrix of the bosons is diagonal, with the
    frequencies on its diagonal, and recomputing the couplings and the terms that do not conserve the number of bosons from
    the rotated bosons gives the stored ones; rotated bosons stay orthonormal. *)
Theorem C75_consistent b cl b' w g x : eig_ok (nb K b) (hbb b) (eigh (nb K b) (hbb b)) -> generate b cl = (b', w, g, x) ->
  meq (nb K b) (nb K b) (hbb b') (dg w) /\ (forall s m p q, g s m p q = couplings true b' cl s m p q) /\ (forall m, x m = nonconserving b' cl (couplings true b' cl) m)
  /\ (forall nov, meq (nb K b) (nb K b) (mm nov (ex K b) (tr (ex K b))) idm -> meq (nb K b) (nb K b) (mm nov (ex K b') (tr (ex K b'))) idm).
Proof.
  intros [H1 [H2 _]] G. unfold M_BosHam.generate, kernel in G. destruct (eigh (nb K b) (hbb b)) as [w0 u] eqn:Eu. cbn [fst snd] in *.
  apply pair_equal_spec in G. destruct G as [G Gx]. apply pair_equal_spec in G. destruct G as [G Gg]. apply pair_equal_spec in G. destruct G as [Gb Gw]. subst.
  repeat split.
  - intros i j Hi Hj. rewrite hbb_rot. transitivity (mm (nb K b) (tr u) (mm (nb K b) u (dg w)) i j).
    + apply (mm_proper (nb K b) (nb K b) (nb K b) _ _ (fun _ _ _ _ => eq_refl) _ _ H1); assumption.
    + rewrite <- (mm_assoc (nb K b) (nb K b) (nb K b) (nb K b) (tr u) u (dg w) i j Hi Hj).
      rewrite (mm_proper (nb K b) (nb K b) (nb K b) _ _ H2 (dg w) (dg w) (fun _ _ _ _ => eq_refl) i j Hi Hj). exact (mm_idl (nb K b) (nb K b) (dg w) i j Hi Hj).
  - intros. symmetry. apply cpl_rot.
  - intros m. symmetry. rewrite (non_rot b u cl (couplings true b cl)) by (intros; apply cpl_rot). apply Sum_ext. intros; ring.
  - intros nov HO i j Hi Hj. cbn [rotate ex]. rewrite <- (H2 i j Hi Hj).
    transitivity (mm (nb K b) (mm (nb K b) (tr u) (mm nov (ex K b) (tr (ex K b)))) u i j).
    + rewrite (mm_assoc (nb K b) (nb K b) (nb K b) (nb K b) (tr u) _ u i j Hi Hj). unfold mm, tr.
      transitivity (Sum nov (fun l => Sum (nb K b) (fun a => Sum (nb K b) (fun d => u a i * (ex K b a l * ex K b d l * u d j))))).
      * apply Sum_ext. intros l _. rewrite Sum_mul_Sum. apply Sum_ext2. intros. unfold Mat.tr. ring.
      * rewrite Sum_swap. apply Sum_ext. intros a _. rewrite Sum_swap, <- Sum_mul_l. apply Sum_ext. intros d _. rewrite <- Sum_mul_r, <- Sum_mul_l. apply Sum_ext. intros; ring.
    + apply (mm_proper (nb K b) (nb K b) (nb K b)); [|intros ? ? _ _; reflexivity|assumption|assumption].
      intros a d Ha Hd. rewrite (mm_proper (nb K b) (nb K b) (nb K b) (tr u) (tr u) (fun _ _ _ _ => eq_refl) _ _ HO a d Ha Hd). exact (mm_idr (nb K b) (nb K b) (tr u) a d Ha Hd).
Qed.

(** ** Canonical orbitals *)
Lemma pr_ao_mo b s n w : dex K b = None -> pr nao (ao b s n) w =
  Sum (no K b s) (fun i => Sum (nv K b s) (fun a => ov_to_o_v K b (ex K b) s n i a * pr nao (fun x y => co K b s x i * cv K b s y a) w)).
Proof.
  intros HD. unfold M_BosHam.ao. rewrite HD. unfold mo2ao. rewrite (Sum_swap (no K b s) (nv K b s)).
  transitivity (pr nao (fun x y => Sum (nv K b s) (fun a => 1 * Sum (no K b s) (fun i => ov_to_o_v K b (ex K b) s n i a * (co K b s x i * cv K b s y a)))) w).
  - apply pr_ext; [|reflexivity]. intros x y _ _. apply Sum_ext. intros a _. rewrite <- Sum_mul_r, <- Sum_mul_l. apply Sum_ext. intros; ring.
  - rewrite (pr_lin nao (nv K b s) (fun _ => 1) (fun a x y => Sum (no K b s) (fun i => ov_to_o_v K b (ex K b) s n i a * (co K b s x i * cv K b s y a)))).
    apply Sum_ext. intros a _. rewrite (pr_lin nao (no K b s) (fun i => ov_to_o_v K b (ex K b) s n i a) (fun i x y => co K b s x i * cv K b s y a)). ring.
Qed.
Definition gram (g c d : mt) : mt := mm nao (tr c) (mm nao g d).
Lemma quad_mo f g b s n m : dex K b = None -> quad K nao f g (ao b s) n m =
  Sum (no K b s) (fun i => Sum (nv K b s) (fun a => ov_to_o_v K b (ex K b) s n i a *
    Sum (no K b s) (fun j => Sum (nv K b s) (fun d => ov_to_o_v K b (ex K b) s m j d * (gram g (co K b s) (co K b s) i j * gram f (cv K b s) (cv K b s) a d))))).
Proof.
  intros HD. rewrite quad_pr, (pr_ao_mo b s n _ HD). apply Sum_ext2. intros i a _ _. f_equal.
  transitivity (pr nao (fun x y => co K b s x i * cv K b s y a) (fun x y => Sum (no K b s) (fun j => 1 * Sum (nv K b s) (fun d => ov_to_o_v K b (ex K b) s m j d * (mm nao g (co K b s) x j * mm nao f (cv K b s) y d))))).
  - apply pr_ext; [reflexivity|]. intros x y _ _. rewrite (pr_ao_mo b s m _ HD). apply Sum_ext. intros j _. rewrite <- Sum_mul_l. apply Sum_ext. intros d _.
    replace (mm nao g (co K b s) x j * mm nao f (cv K b s) y d) with (pr nao (fun j0 d0 => co K b s j0 j * cv K b s d0 d) (fun j0 d0 => f y d0 * g x j0)); [ring|].
    unfold pr, mm. rewrite <- Sum_prod. apply Sum_ext2. intros; ring.
  - rewrite (pr_linr nao (no K b s) (fun _ => 1) (fun j x y => Sum (nv K b s) (fun d => ov_to_o_v K b (ex K b) s m j d * (mm nao g (co K b s) x j * mm nao f (cv K b s) y d)))).
    apply Sum_ext. intros j _. rewrite (pr_linr nao (nv K b s) (fun d => ov_to_o_v K b (ex K b) s m j d) (fun d x y => mm nao g (co K b s) x j * mm nao f (cv K b s) y d)).
    rewrite <- Sum_mul_l. apply Sum_ext. intros d _. unfold gram at 1 2. unfold mm at 3 5, tr. rewrite <- Sum_prod. unfold pr.
    rewrite (Sum_ext2 nao nao _ (fun x y => co K b s x i * mm nao g (co K b s) x j * (cv K b s y a * mm nao f (cv K b s) y d))) by (intros; ring). ring.
Qed.

(** Orthonormal orbitals that diagonalise the Fock matrix of their spin. *)
Definition canonical (b : bos) (eo ev : bool -> vec) : Prop := forall s,
  meq (no K b s) (no K b s) (gram ovlp (co K b s) (co K b s)) idm /\ meq (nv K b s) (nv K b s) (gram ovlp (cv K b s) (cv K b s)) idm
  /\ meq (no K b s) (no K b s) (gram (fock s) (co K b s) (co K b s)) (dg (eo s)) /\ meq (nv K b s) (nv K b s) (gram (fock s) (cv K b s) (cv K b s)) (dg (ev s))
  /\ meq (no K b s) (nv K b s) (gram (fock s) (co K b s) (cv K b s)) zm.

Lemma hbb_s b eo ev s n m : dex K b = None -> canonical b eo ev ->
  quad K nao (fock s) ovlp (ao b s) n m - quad K nao ovlp (fock s) (ao b s) n m =
  Sum (no K b s) (fun i => Sum (nv K b s) (fun a => ov_to_o_v K b (ex K b) s n i a * (ev s a - eo s i) * ov_to_o_v K b (ex K b) s m i a)).
Proof.
  intros HD HC. destruct (HC s) as (S1 & S2 & F1 & F2 & _). rewrite !quad_mo by exact HD. rewrite <- Sum_sub. apply Sum_ext. intros i Hi. rewrite <- Sum_sub. apply Sum_ext. intros a Ha.
  rewrite (Sum_ext2 (no K b s) (nv K b s) _ (fun j d => delta i j * (delta a d * (ov_to_o_v K b (ex K b) s m j d * ev s d)))) by (intros j d Hj Hd; rewrite S1, F2 by assumption; unfold idm, dg; ring).
  rewrite (Sum_ext2 (no K b s) (nv K b s) (fun j d => _ * (gram (fock s) _ _ i j * _)) (fun j d => delta i j * (delta a d * (ov_to_o_v K b (ex K b) s m j d * eo s j)))) by (intros j d Hj Hd; rewrite F1, S2 by assumption; unfold idm, dg; ring).
  rewrite (Sum_ext (no K b s) (fun j => Sum (nv K b s) (fun d => delta i j * (delta a d * (ov_to_o_v K b (ex K b) s m j d * ev s d)))) (fun j => delta i j * (ov_to_o_v K b (ex K b) s m j a * ev s a))).
  2:{ intros j Hj. rewrite Sum_mul_l, Sum_delta_l by exact Ha. reflexivity. }
  rewrite (Sum_ext (no K b s) (fun j => Sum (nv K b s) (fun d => delta i j * (delta a d * (ov_to_o_v K b (ex K b) s m j d * eo s j)))) (fun j => delta i j * (ov_to_o_v K b (ex K b) s m j a * eo s j))).
  2:{ intros j Hj. rewrite Sum_mul_l, Sum_delta_l by exact Ha. reflexivity. }
  rewrite !Sum_delta_l by exact Hi. ring.
Qed.

(** ** Integrals *)
(** A list of blocks holds the integrals [L], from index [k] on, completely. *)
Fixpoint holds (L : t3) (k : nat) (l : list (nat * t3)) : Prop :=
  match l with [] => k = naux | (n, x) :: l => (forall i a d, (i < n)%nat -> (a < nao)%nat -> (d < nao)%nat -> x i a d = L (k + i)%nat a d) /\ holds L (k + n) l end.
Definition step (b : bos) : mt -> nat * nat * t3 -> mt := fun acc '(k, n, l) => fun i m => if ((k <=? i) && (i <? k + n))%nat
  then Sum nao (fun x => Sum nao (fun y => l (i - k)%nat x y * (ao b true m x y + ao b false m x y))) else acc i m.
Lemma holds_cderi L b lp : forall k acc, holds L k lp -> forall i m, (i < naux)%nat ->
  ((k <= i)%nat -> fold_left (step b) (number K k lp) acc i m = Sum nao (fun x => Sum nao (fun y => L i x y * (ao b true m x y + ao b false m x y))))
  /\ ((i < k)%nat -> fold_left (step b) (number K k lp) acc i m = acc i m).
Proof.
  induction lp as [|[n l] lp IH]; intros k acc H i m Hi; cbn [number fold_left].
  - cbn in H. split; [lia|reflexivity].
  - cbn [holds] in H. destruct H as [H1 H2]. destruct (IH (k + n)%nat (step b acc (k, n, l)) H2 i m Hi) as [A B]. split; intros Hk.
    + destruct (Nat.lt_ge_cases i (k + n)) as [C|C]; [|apply A; exact C]. rewrite (B C). unfold step.
      rewrite (proj2 (Nat.leb_le k i) Hk), (proj2 (Nat.ltb_lt i (k + n)) C). cbn [andb]. apply Sum_ext2. intros x y Hx Hy. rewrite H1 by (lia || assumption).
      replace (k + (i - k))%nat with i by lia. reflexivity.
    + rewrite B by lia. unfold step. replace (k <=? i)%nat with false by (symmetry; apply Nat.leb_gt; exact Hk). reflexivity.
Qed.
Lemma holds_loop L b sr lp : holds L 0 lp -> blocks = loop_df K sr lp -> forall i m, (i < naux)%nat ->
  cderi_bos b i m = Sum nao (fun x => Sum nao (fun y => L i x y * (ao b true m x y + ao b false m x y))).
Proof.
  intros H E i m Hi. unfold M_BosHam.cderi_bos. rewrite E. unfold loop_df. destruct sr as [l|]; [rewrite fold_left_app|]; apply (proj1 (holds_cderi L b lp 0 _ H i m Hi)); lia.
Qed.

(** With canonical orbitals and bosons made of excitations the matrix of the bosons is the projection of the direct RPA's
    matrix: differences of orbital energies plus Coulomb integrals between excitations of all spins. *)
Theorem C75_matrix b eo ev L sr lp : dex K b = None -> canonical b eo ev -> holds L 0 lp -> blocks = loop_df K sr lp ->
  let e s n i a := if s : bool then ex K b n (i * nv K b true + a)%nat else ex K b n (no K b true * nv K b true + (i * nv K b false + a))%nat in
  let diff s n m := Sum (no K b s) (fun i => Sum (nv K b s) (fun a => e s n i a * (ev s a - eo s i) * e s m i a)) in
  let lov s l i a := Sum nao (fun x => Sum nao (fun y => co K b s x i * cv K b s y a * L l x y)) in
  let lb l n := Sum (no K b true) (fun i => Sum (nv K b true) (fun a => e true n i a * lov true l i a)) + Sum (no K b false) (fun i => Sum (nv K b false) (fun a => e false n i a * lov false l i a)) in
  forall n m, hbb b n m = diff true n m + diff false n m + Sum naux (fun l => lb l n * lb l m).
Proof.
  intros HD HC HL HB e diff lov lb n m. unfold M_BosHam.hbb.
  transitivity ((quad K nao (fock true) ovlp (ao b true) n m - quad K nao ovlp (fock true) (ao b true) n m) + (quad K nao (fock false) ovlp (ao b false) n m - quad K nao ovlp (fock false) (ao b false) n m)
    + Sum naux (fun l => cderi_bos b l n * cderi_bos b l m)); [ring|].
  rewrite !(hbb_s b eo ev) by assumption. unfold diff, e, ov_to_o_v. f_equal. apply Sum_ext. intros l Hl.
  assert (B : forall n, cderi_bos b l n = lb l n).
  { intros k. rewrite (holds_loop L b sr lp HL HB l k Hl). unfold lb, lov, e.
    transitivity (pr nao (ao b true k) (L l) + pr nao (ao b false k) (L l)); [rewrite <- pr_add; apply Sum_ext2; intros; ring|].
    rewrite !(pr_ao_mo b _ k _ HD). unfold ov_to_o_v, pr. reflexivity. }
  rewrite !B. reflexivity.
Qed.

(** Every frequency is at least the gap: if the bosons are orthonormal and every excitation costs at least [gap], so does
    every boson, whatever the integrals. *)
Theorem C75_gap b cl b' w g x eo ev gap : eig_ok (nb K b) (hbb b) (eigh (nb K b) (hbb b)) -> generate b cl = (b', w, g, x) ->
  dex K b = None -> canonical b eo ev ->
  meq (nb K b) (nb K b) (mm (no K b true * nv K b true + no K b false * nv K b false) (ex K b) (tr (ex K b))) idm ->
  (forall s i a, (i < no K b s)%nat -> (a < nv K b s)%nat -> le gap (ev s a - eo s i)) ->
  forall k, (k < nb K b)%nat -> le gap (w k).
Proof.
  intros HE HG HD HC HO Hgap k Hk.
  destruct (C75_consistent b cl b' w g x HE HG) as (H1 & _ & _ & H4). specialize (H4 _ HO).
  assert (Eb : exists u, b' = rotate K b u). { unfold M_BosHam.generate, kernel in HG. destruct (eigh (nb K b) (hbb b)) as [w0 u]. exists u. congruence. }
  destruct Eb as [u ->]. set (b' := rotate K b u) in *.
  assert (HC' : canonical b' eo ev) by exact HC. assert (HD' : dex K b' = None) by (cbn; rewrite HD; reflexivity).
  pose proof (H1 k k Hk Hk) as E. unfold dg in E. replace (delta k k : K) with (1 : K) in E by (unfold delta; rewrite Nat.eqb_refl; reflexivity).
  replace (w k) with (hbb b' k k) by (rewrite E; ring).
  replace gap with (gap * (Sum (no K b true) (fun i => Sum (nv K b true) (fun a => ov_to_o_v K b' (ex K b') true k i a * ov_to_o_v K b' (ex K b') true k i a)) +
    Sum (no K b false) (fun i => Sum (nv K b false) (fun a => ov_to_o_v K b' (ex K b') false k i a * ov_to_o_v K b' (ex K b') false k i a)))).
  2:{ pose proof (H4 k k Hk Hk) as N. unfold mm, tr, idm in N. rewrite Sum_split, !Sum_grid in N. unfold delta in N. rewrite Nat.eqb_refl in N.
      transitivity (gap * 1); [|ring]. f_equal. exact N. }
  unfold M_BosHam.hbb.
  replace (quad K nao (fock true) ovlp (ao b' true) k k + quad K nao (fock false) ovlp (ao b' false) k k - quad K nao ovlp (fock true) (ao b' true) k k - quad K nao ovlp (fock false) (ao b' false) k k
    + Sum naux (fun l => cderi_bos b' l k * cderi_bos b' l k)) with
    ((quad K nao (fock true) ovlp (ao b' true) k k - quad K nao ovlp (fock true) (ao b' true) k k) + (quad K nao (fock false) ovlp (ao b' false) k k - quad K nao ovlp (fock false) (ao b' false) k k)
    + Sum naux (fun l => cderi_bos b' l k * cderi_bos b' l k)) by ring.
  rewrite !(hbb_s b' eo ev) by assumption.
  assert (P : forall s, le (gap * Sum (no K b s) (fun i => Sum (nv K b s) (fun a => ov_to_o_v K b' (ex K b') s k i a * ov_to_o_v K b' (ex K b') s k i a)))
    (Sum (no K b' s) (fun i => Sum (nv K b' s) (fun a => ov_to_o_v K b' (ex K b') s k i a * (ev s a - eo s i) * ov_to_o_v K b' (ex K b') s k i a)))).
  { intros s. rewrite <- Sum_mul_l. apply Sum_le. intros i Hi. rewrite <- Sum_mul_l. apply Sum_le. intros a Ha.
    set (v := ov_to_o_v K b' (ex K b') s k i a). specialize (Hgap s i a Hi Ha).
    assert (Z : le 0 ((ev s a - eo s i - gap) * (v * v))).
    { apply le_0_mul; [|apply le_0_sqr]. apply (le_add _ _ (- gap)) in Hgap. replace (gap + - gap) with (0 : K) in Hgap by ring. replace (ev s a - eo s i + - gap) with (ev s a - eo s i - gap) in Hgap by ring. exact Hgap. }
    apply (le_add _ _ (gap * (v * v))) in Z. replace (0 + gap * (v * v)) with (gap * (v * v)) in Z by ring. replace ((ev s a - eo s i - gap) * (v * v) + gap * (v * v)) with (v * (ev s a - eo s i) * v) in Z by ring. exact Z. }
  match goal with |- le (gap * (?x + ?y)) (?A + ?B + ?C) => set (X := x) in *; set (Y := y) in *; set (A' := A); set (B' := B); set (C' := C) end.
  pose proof (P true) as PA. pose proof (P false) as PB. fold X A' in PA. fold Y B' in PB.
  assert (PC : le 0 C') by (apply le_0_Sum; intros; apply le_0_sqr).
  apply (le_tr _ (A' + gap * Y)); [replace (gap * (X + Y)) with (gap * X + gap * Y) by ring; apply le_add; exact PA|].
  apply (le_tr _ (A' + B')); [replace (A' + gap * Y) with (gap * Y + A') by ring; replace (A' + B') with (B' + A') by ring; apply le_add; exact PB|].
  apply (le_add _ _ (A' + B')) in PC. replace (0 + (A' + B')) with (A' + B') in PC by ring. replace (C' + (A' + B')) with (A' + B' + C') in PC by ring. exact PC.
Qed.

(** ** Couplings *)
(** Singlet bosons of a restricted mean field couple equally to both spins. *)
Theorem C75_spin b cl b' w g x : generate b cl = (b', w, g, x) ->
  no K b true = no K b false -> nv K b true = nv K b false -> co K b true = co K b false -> cv K b true = cv K b false -> fock true = fock false ->
  nc K cl true = nc K cl false -> ncv K cl true = ncv K cl false -> c K cl true = c K cl false -> lc K cl true = lc K cl false ->
  (forall n j, (j < no K b true * nv K b true)%nat -> ex K b n (no K b true * nv K b true + j)%nat = ex K b n j) ->
  (forall d, dex K b = Some d -> forall n j, (j < no K b true * nv K b true)%nat -> d n (no K b true * nv K b true + j)%nat = d n j) ->
  forall m p q, g true m p q = g false m p q.
Proof.
  intros G H1 H2 H3 H4 H5 H6 H7 H8 H9 HX HD m p q.
  assert (O : forall d, (forall n j, (j < no K b true * nv K b true)%nat -> d n (no K b true * nv K b true + j)%nat = d n j) -> forall n x y, mo2ao K b (ov_to_o_v K b d true) true n x y = mo2ao K b (ov_to_o_v K b d false) false n x y).
  { intros d Hd n x0 y. unfold mo2ao, ov_to_o_v. rewrite <- H1, <- H2, <- H3, <- H4. apply Sum_ext. intros a Ha. f_equal. apply Sum_ext. intros i Hi. rewrite Hd by nia. reflexivity. }
  assert (A : forall n x y, ao b true n x y = ao b false n x y).
  { intros n x0 y. unfold M_BosHam.ao. rewrite (O _ HX). destruct (dex K b) as [d|]; [|reflexivity]. rewrite (O d (HD d eq_refl)). reflexivity. }
  unfold M_BosHam.generate, kernel in G. destruct (eigh (nb K b) (hbb b)) as [w0 u]. apply pair_equal_spec in G. destruct G as [G _]. apply pair_equal_spec in G. destruct G as [_ <-].
  apply Sum_ext. intros n _. f_equal. unfold M_BosHam.couplings. rewrite H9. f_equal; [f_equal|].
  - unfold cpl_exch. apply Lsum_ext. intros [[k n0] l] _. unfold exch1. apply Sum_ext2. intros. rewrite A, H8. reflexivity.
  - unfold cpl_fock, pocc, pvir. rewrite <- H5, <- H6, <- H7, <- H8.
    rewrite (Sum_ext2 nao nao (fun k z => ao b true n k z * fock true k z) (fun k z => ao b false n k z * fock true k z)) by (intros; rewrite A; reflexivity).
    f_equal; [f_equal; f_equal|]; apply Sum_ext2; intros; rewrite A; reflexivity.
Qed.

(** With an orthonormal cluster and canonical orbitals, the term that does not conserve the number of bosons takes out the
    coupling to the occupied orbitals of the cluster, of both spins. *)
Lemma pocc_diag cl s : meq (nact K cl s) (nact K cl s) (gram ovlp (c K cl s) (c K cl s)) idm -> forall p q, (p < nact K cl s)%nat -> (q < nact K cl s)%nat ->
  pocc K nao ovlp cl s p q = if (p <? nc K cl s)%nat then delta p q else 0.
Proof.
  intros H p q Hp Hq. unfold pocc. cbv zeta. change (mm nao (Mat.tr (c K cl s)) (mm nao ovlp (c K cl s))) with (gram ovlp (c K cl s) (c K cl s)). unfold mm, Mat.tr.
  rewrite (Sum_ext _ _ (fun l => delta p l * delta q l)) by (intros l Hl; unfold nact in *; rewrite !H by lia; reflexivity).
  destruct (p <? nc K cl s)%nat eqn:E.
  - apply Nat.ltb_lt in E. rewrite Sum_delta_l by exact E. unfold delta. rewrite Nat.eqb_sym. reflexivity.
  - apply Nat.ltb_ge in E. apply Sum_0. intros l Hl. unfold delta at 1. rewrite (proj2 (Nat.eqb_neq p l)) by lia. ring.
Qed.
Lemma trace_occ cl s (g : mt) : meq (nact K cl s) (nact K cl s) (gram ovlp (c K cl s) (c K cl s)) idm ->
  Sum (nact K cl s) (fun p => Sum (nact K cl s) (fun q => g p q * pocc K nao ovlp cl s p q)) = Sum (nc K cl s) (fun p => g p p)
  /\ Sum (nact K cl s) (fun p => g p p * pocc K nao ovlp cl s p p) = Sum (nc K cl s) (fun p => g p p).
Proof.
  intros H. assert (Z : Sum (nact K cl s) (fun p => if (p <? nc K cl s)%nat then g p p else 0) = Sum (nc K cl s) (fun p => g p p)).
  { unfold nact. rewrite Sum_split. rewrite (Sum_ext (nc K cl s) _ (fun p => g p p)) by (intros i Hi; rewrite (proj2 (Nat.ltb_lt i _) Hi); reflexivity).
    rewrite (Sum_0 (ncv K cl s)); [ring|]. intros i _. rewrite (proj2 (Nat.ltb_ge (nc K cl s + i) (nc K cl s))) by lia. reflexivity. }
  split; rewrite <- Z; apply Sum_ext; intros p Hp.
  - rewrite (Sum_ext _ _ (fun q => (if (p <? nc K cl s)%nat then g p q else 0) * delta p q)) by (intros q Hq; rewrite (pocc_diag cl s H) by assumption; destruct (p <? nc K cl s)%nat; ring).
    apply (Sum_delta_r' (nact K cl s) p (fun q => if (p <? nc K cl s)%nat then g p q else 0) Hp).
  - rewrite (pocc_diag cl s H) by assumption. destruct (p <? nc K cl s)%nat; [unfold delta; rewrite Nat.eqb_refl|]; ring.
Qed.
Theorem C75_nonconserving b cl b' w g x eo ev : generate b cl = (b', w, g, x) -> dex K b = None -> canonical b eo ev ->
  (forall s, meq (nact K cl s) (nact K cl s) (gram ovlp (c K cl s) (c K cl s)) idm) ->
  forall m, x m = - (Sum (nc K cl true) (fun i => g true m i i) + Sum (nc K cl false) (fun i => g false m i i)).
Proof.
  intros G HD HC HO m. unfold M_BosHam.generate, kernel in G. destruct (eigh (nb K b) (hbb b)) as [w0 u].
  apply pair_equal_spec in G. destruct G as [G <-]. apply pair_equal_spec in G. destruct G as [_ <-].
  assert (F0 : forall s n, pr nao (ao b s n) (fock s) = 0).
  { intros s n. destruct (HC s) as (_ & _ & _ & _ & Z). rewrite (pr_ao_mo b s n _ HD). apply Sum_0. intros i Hi. apply Sum_0. intros a Ha.
    replace (pr nao (fun x y => co K b s x i * cv K b s y a) (fock s)) with (gram (fock s) (co K b s) (cv K b s) i a).
    - rewrite (Z i a Hi Ha). unfold zm. ring.
    - unfold gram, mm, tr, pr. apply Sum_ext. intros y _. rewrite <- Sum_mul_l. apply Sum_ext. intros; ring. }
  assert (T : forall s, Sum (nc K cl s) (fun i => Sum (nb K b) (fun n => u n m * couplings true b cl s n i i)) = Sum (nb K b) (fun n => u n m * Sum (nc K cl s) (fun i => couplings true b cl s n i i))).
  { intros s. rewrite Sum_swap. apply Sum_ext. intros. apply Sum_mul_l. }
  rewrite !T, <- Sum_add, <- Sum_opp. apply Sum_ext. intros n _. unfold M_BosHam.nonconserving.
  rewrite (proj1 (trace_occ cl true _ (HO true))), (proj2 (trace_occ cl false (couplings true b cl false n) (HO false))).
  pose proof (F0 true n) as A. pose proof (F0 false n) as B. unfold pr in A, B. rewrite A, B. ring.
Qed.

(** The projectors of an orthonormal cluster select its occupied and its virtual orbitals. *)
Theorem C75_projectors cl s : meq (nact K cl s) (nact K cl s) (gram ovlp (c K cl s) (c K cl s)) idm -> forall p q, (p < nact K cl s)%nat -> (q < nact K cl s)%nat ->
  pocc K nao ovlp cl s p q = (if (p <? nc K cl s)%nat then delta p q else 0) /\ pvir K nao ovlp cl s p q = (if (p <? nc K cl s)%nat then 0 else delta p q).
Proof.
  intros H p q Hp Hq. split; [apply pocc_diag; assumption|]. unfold pvir. cbv zeta. unfold mm at 1, Mat.tr at 1.
  rewrite (Sum_ext _ _ (fun l => delta p (nc K cl s + l)%nat * delta q (nc K cl s + l)%nat)).
  2:{ intros l Hl. change (delta p (nc K cl s + l)%nat : K) with (idm (K := K) p (nc K cl s + l)%nat). change (delta q (nc K cl s + l)%nat : K) with (idm (K := K) q (nc K cl s + l)%nat). rewrite <- !H by (unfold nact in *; lia). reflexivity. }
  destruct (Nat.ltb_spec p (nc K cl s)) as [E|E].
  - apply Sum_0. intros l Hl. unfold delta at 1. rewrite (proj2 (Nat.eqb_neq p _)) by lia. ring.
  - rewrite (Sum_ext _ _ (fun l => delta (p - nc K cl s) l * delta q (nc K cl s + l)%nat)).
    + rewrite (Sum_delta_l (ncv K cl s) (p - nc K cl s) (fun l => delta q (nc K cl s + l)%nat)) by (unfold nact in *; lia). replace (nc K cl s + (p - nc K cl s))%nat with p by lia.
      unfold delta. rewrite Nat.eqb_sym. reflexivity.
    + intros l Hl. f_equal. unfold delta. destruct (Nat.eqb_spec p (nc K cl s + l)), (Nat.eqb_spec (p - nc K cl s) l); try lia; reflexivity.
Qed.
Lemma fock_zero b eo ev s n : dex K b = None -> canonical b eo ev -> pr nao (ao b s n) (fock s) = 0.
Proof.
  intros HD HC. destruct (HC s) as (_ & _ & _ & _ & Z). rewrite (pr_ao_mo b s n _ HD). apply Sum_0. intros i Hi. apply Sum_0. intros a Ha.
  replace (pr nao (fun x y => co K b s x i * cv K b s y a) (fock s)) with (gram (fock s) (co K b s) (cv K b s) i a).
  - rewrite (Z i a Hi Ha). unfold zm. ring.
  - unfold gram, mm, tr, pr. apply Sum_ext. intros y _. rewrite <- Sum_mul_l. apply Sum_ext. intros; ring.
Qed.
(** The couplings without exchange.  The Coulomb part contracts the integrals of all excitations in the boson, of both
    spins; the Fock part couples components of the cluster's orbitals along the occupied and the virtual orbital of an
    excitation, with the virtual orbital's energy, and with minus the occupied orbital's energy for the reverse.  The
    orbitals satisfy the Roothaan equations. *)
Theorem C75_couplings b cl eo ev L sr lp : dex K b = None -> canonical b eo ev -> holds L 0 lp -> blocks = loop_df K sr lp ->
  (forall s i y, (i < no K b s)%nat -> (y < nao)%nat -> Sum nao (fun z => co K b s z i * fock s z y) = eo s i * Sum nao (fun z => co K b s z i * ovlp z y)) ->
  (forall s a y, (a < nv K b s)%nat -> (y < nao)%nat -> Sum nao (fun z => cv K b s z a * fock s z y) = ev s a * Sum nao (fun z => cv K b s z a * ovlp z y)) ->
  let e s n i a := if s : bool then ex K b n (i * nv K b true + a)%nat else ex K b n (no K b true * nv K b true + (i * nv K b false + a))%nat in
  let lov s l i a := Sum nao (fun x => Sum nao (fun y => co K b s x i * cv K b s y a * L l x y)) in
  let lb l n := Sum (no K b true) (fun i => Sum (nv K b true) (fun a => e true n i a * lov true l i a)) + Sum (no K b false) (fun i => Sum (nv K b false) (fun a => e false n i a * lov false l i a)) in
  let along v s p := Sum nao (fun x => Sum nao (fun y => v x * ovlp x y * c K cl s y p)) in
  forall s n p q, couplings false b cl s n p q = Sum naux (fun l => lb l n * lc K cl s l p q)
    + Sum (no K b s) (fun i => Sum (nv K b s) (fun a => let o := fun x => co K b s x i in let v := fun x => cv K b s x a in
        e s n i a * (ev s a * along o s p * along v s q - eo s i * along v s p * along o s q))).
Proof.
  intros HD HC HL HB HO HV e lov lb along s n p q. unfold M_BosHam.couplings. match goal with |- ?x + 0 + ?y = _ => replace (x + 0 + y) with (x + y) by ring end. f_equal.
  - apply Sum_ext. intros l Hl. f_equal. rewrite (holds_loop L b sr lp HL HB l n Hl). unfold lb, lov, e.
    transitivity (pr nao (ao b true n) (L l) + pr nao (ao b false n) (L l)); [rewrite <- pr_add; apply Sum_ext2; intros; ring|].
    rewrite !(pr_ao_mo b _ n _ HD). unfold ov_to_o_v, pr. reflexivity.
  - pose proof (fock_zero b eo ev s n HD HC) as Z. unfold pr in Z. unfold cpl_fock. cbv zeta. rewrite Z.
    transitivity (pr nao (ao b s n) (fun j z => mm nao ovlp (c K cl s) j p * mm nao (fock s) (c K cl s) z q) - pr nao (ao b s n) (fun k a => mm nao (fock s) (c K cl s) k q * mm nao ovlp (c K cl s) a p)).
    { unfold pr. rewrite (Sum_ext2 nao nao (fun j z => ao b s n j z * mm nao (fock s) (c K cl s) z q * mm nao ovlp (c K cl s) j p) (fun x y => ao b s n x y * (mm nao ovlp (c K cl s) x p * mm nao (fock s) (c K cl s) y q))) by (intros; ring).
      rewrite (Sum_ext2 nao nao (fun j z => ao b s n j z * mm nao (fock s) (c K cl s) j q * mm nao ovlp (c K cl s) z p) (fun x y => ao b s n x y * (mm nao (fock s) (c K cl s) x q * mm nao ovlp (c K cl s) y p))) by (intros; ring). ring. }
    rewrite !(pr_ao_mo b s n _ HD), <- Sum_sub. apply Sum_ext. intros i Hi. rewrite <- Sum_sub. apply Sum_ext. intros a Ha.
    assert (PR : forall f g h k : vec, pr nao (fun x y => f x * g y) (fun x y => h x * k y) = Sum nao (fun x => f x * h x) * Sum nao (fun y => g y * k y)).
    { intros. unfold pr. rewrite <- Sum_prod. apply Sum_ext2. intros; ring. }
    assert (SA : forall (v : vec) (g : mt) r, Sum nao (fun x => v x * mm nao g (c K cl s) x r) = Sum nao (fun y => Sum nao (fun z => v z * g z y) * c K cl s y r)).
    { intros. unfold mm. rewrite (Sum_ext nao _ (fun x => Sum nao (fun y => v x * g x y * c K cl s y r))) by (intros; rewrite <- Sum_mul_l; apply Sum_ext; intros; ring).
      rewrite Sum_swap. apply Sum_ext. intros. apply Sum_mul_r. }
    assert (AL : forall v r, along v s r = Sum nao (fun x => v x * mm nao ovlp (c K cl s) x r)).
    { intros. unfold along, mm. apply Sum_ext. intros. rewrite <- Sum_mul_l. apply Sum_ext. intros; ring. }
    rewrite (PR (fun x => co K b s x i) (fun y => cv K b s y a) (fun x => mm nao ovlp (c K cl s) x p) (fun y => mm nao (fock s) (c K cl s) y q)).
    rewrite (PR (fun x => co K b s x i) (fun y => cv K b s y a) (fun x => mm nao (fock s) (c K cl s) x q) (fun y => mm nao ovlp (c K cl s) y p)).
    rewrite (SA (fun x => co K b s x i) (fock s)), (SA (fun x => cv K b s x a) (fock s)).
    rewrite (Sum_ext nao (fun y => Sum nao (fun z => co K b s z i * fock s z y) * c K cl s y q) (fun y => eo s i * (Sum nao (fun z => co K b s z i * ovlp z y) * c K cl s y q))) by (intros y Hy; rewrite (HO s i y Hi Hy); ring).
    rewrite (Sum_ext nao (fun y => Sum nao (fun z => cv K b s z a * fock s z y) * c K cl s y q) (fun y => ev s a * (Sum nao (fun z => cv K b s z a * ovlp z y) * c K cl s y q))) by (intros y Hy; rewrite (HV s a y Ha Hy); ring).
    rewrite !Sum_mul_l, <- (SA (fun x => co K b s x i) ovlp), <- (SA (fun x => cv K b s x a) ovlp), <- !AL. unfold e, ov_to_o_v. cbv zeta. ring.
Qed.

(** The exchange part that the comment of the code asks for, - r(k,c) (pc|kq), with the integrals [L]. *)
Definition wanted (L : t3) (b : bos) (cl : clu) (s : bool) : t3 := fun n p q =>
  - Sum nao (fun k => Sum nao (fun z => ao b s n k z * Sum naux (fun l => Sum nao (fun y => c K cl s y p * L l y z) * Sum nao (fun y => L l k y * c K cl s y q)))).
Lemma holds_exch L b cl s n p q lp : forall k, holds L k lp -> (k <= naux)%nat ->
  Lsum (number K k lp) (fun '(_, n0, l) => exch1 K nao b cl s n0 l n p q) = exch1 K nao b cl s (naux - k) (fun i => L (k + i)%nat) n p q.
Proof.
  induction lp as [|[n0 l] lp IH]; intros k H Hk; cbn [number Lsum].
  - cbn in H. subst k. rewrite Nat.sub_diag. unfold exch1. symmetry. apply Sum_0. intros. apply Sum_0. intros. cbn [Sum]. ring.
  - cbn [holds] in H. destruct H as [H1 H2].
    assert (Hn : (k + n0 <= naux)%nat). { clear - H2. revert H2. generalize (k + n0)%nat. induction lp as [|[n l] lp IH]; intros j H; cbn in H; [lia|]. destruct H as [_ H]. apply IH in H. lia. }
    rewrite (IH _ H2 Hn). unfold exch1. replace (naux - k)%nat with (n0 + (naux - (k + n0)))%nat by lia. rewrite <- Sum_add. apply Sum_ext. intros a Ha. rewrite <- Sum_add. apply Sum_ext. intros z Hz.
    rewrite Sum_split. rewrite (Sum_ext n0 (fun x => Sum nao (fun y => l x a y * c K cl s y p) * Sum nao (fun y => l x z y * c K cl s y q)) (fun x => Sum nao (fun y => L (k + x)%nat a y * c K cl s y p) * Sum nao (fun y => L (k + x)%nat z y * c K cl s y q))).
    2:{ intros x Hx. f_equal; apply Sum_ext; intros y Hy; rewrite H1 by assumption; reflexivity. }
    rewrite (Sum_ext (naux - (k + n0)) (fun x => Sum nao (fun y => L (k + n0 + x)%nat a y * c K cl s y p) * Sum nao (fun y => L (k + n0 + x)%nat z y * c K cl s y q))
      (fun i => Sum nao (fun y => L (k + (n0 + i))%nat a y * c K cl s y p) * Sum nao (fun y => L (k + (n0 + i))%nat z y * c K cl s y q))) by (intros; rewrite !Nat.add_assoc; reflexivity).
    ring.
Qed.
(** The code's exchange part is minus the transpose of the wanted one; in periodic systems, if both loops go over the
    integrals, it is counted twice while the Coulomb part is counted once. *)
Theorem C75_exchange L b cl s lp : (forall l x y, (x < nao)%nat -> (y < nao)%nat -> L l x y = L l y x) -> holds L 0 lp ->
  (forall n p q, cpl_exch K nao (loop_df K None lp) b cl s n p q = - wanted L b cl s n q p)
  /\ (forall sr, holds L 0 sr -> forall n p q, cpl_exch K nao (loop_df K (Some sr) lp) b cl s n p q = - (wanted L b cl s n q p + wanted L b cl s n q p)
      /\ forall l, (l < naux)%nat -> M_BosHam.cderi_bos K nao (loop_df K (Some sr) lp) b l n = M_BosHam.cderi_bos K nao (loop_df K None lp) b l n).
Proof.
  intros HS HL.
  assert (E : forall n p q, exch1 K nao b cl s (naux - 0) (fun i => L (0 + i)%nat) n p q = - wanted L b cl s n q p).
  { intros n p q. unfold exch1, wanted. rewrite Nat.sub_0_r. match goal with |- _ = - - ?x => replace (- - x) with x by ring end. apply Sum_ext2. intros k z Hk Hz. rewrite (Sum_ext naux _ (fun l => Sum nao (fun y => c K cl s y q * L l y z) * Sum nao (fun y => L l k y * c K cl s y p))); [ring|].
    intros l _. cbn [Nat.add]. rewrite (Sum_ext nao (fun y => L l z y * c K cl s y q) (fun y => c K cl s y q * L l y z)) by (intros y Hy; rewrite (HS l z y Hz Hy); ring). ring. }
  split.
  - intros n p q. unfold cpl_exch, loop_df. rewrite (holds_exch L b cl s n p q lp 0 HL) by lia. apply E.
  - intros sr HR n p q. split.
    + unfold cpl_exch, loop_df. rewrite Lsum_app, (holds_exch L b cl s n p q lp 0 HL), (holds_exch L b cl s n p q sr 0 HR) by lia. rewrite E. ring.
    + intros l Hl. unfold M_BosHam.cderi_bos, loop_df. rewrite fold_left_app.
      transitivity (Sum nao (fun x => Sum nao (fun y => L l x y * (ao b true n x y + ao b false n x y)))); [|symmetry]; apply (proj1 (holds_cderi L b lp 0 _ HL l n Hl)); lia.
Qed.
End T.

From Coq Require Import ZArith QArith Qcanon.
Section Cases.
Local Close Scope Q_scope. Local Open Scope nat_scope.
Ltac qq := first [apply eqq_ok; vm_compute; reflexivity | apply neqq; vm_compute; reflexivity].
Ltac ck := first [apply meqb_ok | apply eigb_ok]; vm_compute; reflexivity.
Notation K := QO.
Notation vec := (nat -> QO).
Notation mt := (nat -> nat -> QO).
Notation t3 := (nat -> nat -> nat -> QO).
(** Three atomic orbitals; one occupied orbital and one virtual orbital of each spin, the virtual ones different; two bosons. *)
Definition xco : bool -> mt := fun _ x _ => match x with 0 => q 1 1 | _ => q 0 1 end.
Definition xcv : bool -> mt := fun s x _ => match s, x with true, 1 | false, 2 => q 1 1 | _, _ => q 0 1 end.
Definition xex : mt := fun n x => if n =? x then q 1 1 else q 0 1.
Definition xb : bos K := {| nb := 2; no := fun _ => 1; nv := fun _ => 1; co := xco; cv := xcv; ex := xex; dex := None |}.
Definition xfock : bool -> mt := fun _ x y => if x =? y then match x with 0 => q (-1) 1 | _ => q 1 1 end else q 0 1.
Definition xovlp : mt := fun x y => if x =? y then q 1 1 else q 0 1.
Definition xL : t3 := fun _ x y => match x, y with 0, 0 => q 1 1 | 0, 1 | 1, 0 => q 3 1 | 0, 2 | 2, 0 => q 4 1 | 1, 1 => q 2 1 | 2, 2 => q 3 1 | _, _ => q 0 1 end.
Definition xlp : list (nat * t3) := [(1, xL)].
Definition xbl := loop_df K None xlp.
Definition xcc : bool -> mt := fun s x p => match p with 0 => xco s x 0 | _ => xcv s x 0 end.
Definition xcl : clu K := {| nc := fun _ => 1; ncv := fun _ => 1; c := xcc; lc := fun s l => mm 3 (tr (xcc s)) (mm 3 (xL l) (xcc s)) |}.
Definition xeig : nat -> mt -> vec * mt := fun _ _ => (vec2 (q 2 1) (q 27 1), mat2 (q 4 5) (q 3 5) (q (-3) 5) (q 4 5)).
Definition xe : bool -> vec := fun _ _ => q (-1) 1.
Definition xv : bool -> vec := fun _ _ => q 1 1.
Notation xgen := (generate K xeig 3 xbl 1 xfock xovlp xb xcl).
Lemma xgen_ok : xgen = (fst (fst (fst xgen)), snd (fst (fst xgen)), snd (fst xgen), snd xgen). Proof. destruct xgen as [[[? ?] ?] ?]. reflexivity. Qed.
Lemma xHE : eig_ok 2 (hbb K 3 xbl 1 xfock xovlp xb) (xeig 2 (hbb K 3 xbl 1 xfock xovlp xb)). Proof. unfold eig_ok. split; [|split]; ck. Qed.
Lemma xHC : canonical K 3 xfock xovlp xb xe xv. Proof. intros [|]; repeat split; ck. Qed.
Lemma xHL : holds K 3 1 xL 0 xlp. Proof. split; reflexivity. Qed.
Lemma xHS : forall l x y, x < 3 -> y < 3 -> xL l x y = xL l y x. Proof. intros l x y Hx Hy. destruct x as [|[|[|x]]], y as [|[|[|y]]]; try lia; reflexivity. Qed.
Lemma xHO : forall s, meq (nact K xcl s) (nact K xcl s) (gram K 3 xovlp (c K xcl s) (c K xcl s)) idm. Proof. intros [|]; ck. Qed.

(** A stored coupling that does not vanish, recomputed from the rotated bosons. *)
Example C75_consistent_case : snd (fst xgen) true 1 0 0 = couplings K 3 xbl 1 xfock xovlp true (fst (fst (fst xgen))) xcl true 1 0 0 /\ snd (fst xgen) true 1 0 0 <> q 0 1
  /\ hbb K 3 xbl 1 xfock xovlp xb 0 1 = q 12 1 /\ hbb K 3 xbl 1 xfock xovlp (fst (fst (fst xgen))) 1 1 = q 27 1.
Proof.
  destruct (C75_consistent K xeig 3 xbl 1 xfock xovlp xb xcl _ _ _ _ xHE xgen_ok) as (A & B & _).
  split; [apply B|]. split; [qq|]. split; [qq|]. rewrite (A 1 1) by (cbn; lia). qq.
Qed.
Example C75_matrix_case : hbb K 3 xbl 1 xfock xovlp xb 1 1 = radd (q 2 1) (q 16 1) /\ hbb K 3 xbl 1 xfock xovlp xb 0 1 = rmul (q 3 1) (q 4 1).
Proof. split; (rewrite (C75_matrix K 3 xbl 1 xfock xovlp xb xe xv xL None xlp eq_refl xHC xHL eq_refl); qq). Qed.
(** A Coulomb part and the Fock part 1, between the occupied and the virtual orbital of alpha spin; the Fock part
    has the opposite orbital energies for the reverse. *)
Example C75_couplings_case : couplings K 3 xbl 1 xfock xovlp false xb xcl true 0 0 1 = radd (rmul (q 3 1) (q 3 1)) (q 1 1)
  /\ couplings K 3 xbl 1 xfock xovlp false xb xcl true 1 0 1 = rmul (q 4 1) (q 3 1) /\ couplings K 3 xbl 1 xfock xovlp false xb xcl true 0 0 0 = q 3 1.
Proof.
  repeat split; (rewrite (C75_couplings K 3 xbl 1 xfock xovlp xb xcl xe xv xL None xlp eq_refl xHC xHL eq_refl); [qq| |]);
    intros s i y Hi Hy; destruct s, i as [|i], y as [|[|[|y]]]; try (cbn in Hi; lia); qq.
Qed.
(** The gap is two and the frequencies are 2 and 27. *)
Example C75_gap_case : Ord.le (K := QO) (q 2 1) (snd (fst (fst xgen)) 0) /\ Ord.le (K := QO) (q 2 1) (snd (fst (fst xgen)) 1) /\ snd (fst (fst xgen)) 0 = q 2 1.
Proof.
  assert (G : forall k, k < 2 -> Ord.le (K := QO) (q 2 1) (snd (fst (fst xgen)) k)).
  { apply (C75_gap K xeig 3 xbl 1 xfock xovlp xb xcl _ _ _ _ xe xv (q 2 1) xHE xgen_ok eq_refl xHC); [ck|]. intros; vm_compute; reflexivity. }
  split; [apply G; lia|split; [apply G; lia|qq]].
Qed.
Example C75_nonconserving_case : snd xgen 1 = ropp (radd (snd (fst xgen) true 1 0 0) (snd (fst xgen) false 1 0 0)) /\ snd xgen 1 <> q 0 1.
Proof.
  split; [|qq]. rewrite (C75_nonconserving K xeig 3 xbl 1 xfock xovlp xb xcl _ _ _ _ xe xv xgen_ok eq_refl xHC xHO 1). qq.
Qed.
Example C75_projectors_case : pvir K 3 xovlp xcl false 1 1 = q 1 1 /\ pvir K 3 xovlp xcl false 0 0 = q 0 1 /\ pocc K 3 xovlp xcl false 0 0 = q 1 1.
Proof.
  destruct (C75_projectors K 3 xovlp xcl false (xHO false) 0 0 ltac:(cbn; lia) ltac:(cbn; lia)) as [A B]. destruct (C75_projectors K 3 xovlp xcl false (xHO false) 1 1 ltac:(cbn; lia) ltac:(cbn; lia)) as [C D].
  split; [rewrite D|split; [rewrite B|rewrite A]]; qq.
Qed.
(** One singlet boson of a restricted mean field. *)
Definition yb : bos K := {| nb := 1; no := fun _ => 1; nv := fun _ => 1; co := xco; cv := fun _ => xcv true; ex := fun _ _ => q 1 1; dex := Some (fun _ _ => q 1 2) |}.
Definition ycl : clu K := {| nc := fun _ => 1; ncv := fun _ => 1; c := fun _ => xcc true; lc := fun _ => lc K xcl true |}.
Definition yeig : nat -> mt -> vec * mt := fun _ a => (fun _ => a 0 0, idm).
Notation ygen := (generate K yeig 3 xbl 1 xfock xovlp yb ycl).
Example C75_spin_case : snd (fst ygen) true 0 0 1 = snd (fst ygen) false 0 0 1 /\ snd (fst ygen) true 0 0 1 <> q 0 1.
Proof.
  split; [|qq]. assert (E : ygen = (fst (fst (fst ygen)), snd (fst (fst ygen)), snd (fst ygen), snd ygen)) by (destruct ygen as [[[? ?] ?] ?]; reflexivity).
  apply (C75_spin K yeig 3 xbl 1 xfock xovlp yb ycl _ _ _ _ E); try reflexivity. intros d H n j _. injection H as <-. reflexivity.
Qed.
Example C75_exchange_case : cpl_exch K 3 xbl xb xcl true 0 0 1 = ropp (wanted K 3 1 xL xb xcl true 0 1 0) /\ cpl_exch K 3 xbl xb xcl true 0 0 1 = q 2 1
  /\ cpl_exch K 3 (loop_df K (Some xlp) xlp) xb xcl true 0 0 1 = q 4 1.
Proof.
  destruct (C75_exchange K 3 1 xL xb xcl true xlp xHS xHL) as [A B]. split; [apply A|]. split; [qq|]. rewrite (proj1 (B xlp xHL 0 0 1)). qq.
Qed.

(** Finding: the exchange part of the couplings is not the one the code's comment asks for, not even up to transposition:
    the sign is the opposite one. *)
Theorem C75_exchange_refuted : ~ (forall b cl s n p q, cpl_exch K 3 xbl b cl s n p q = wanted K 3 1 xL b cl s n p q)
  /\ ~ (forall b cl s n p q, cpl_exch K 3 xbl b cl s n p q = wanted K 3 1 xL b cl s n q p).
Proof. split; intros H; specialize (H xb xcl true 0 0 0); revert H; qq. Qed.
(** Finding: in a periodic system whose two loops give the same integrals the exchange part depends on being periodic. *)
Theorem C75_periodic_refuted : ~ (forall b cl s n p q, cpl_exch K 3 (loop_df K (Some xlp) xlp) b cl s n p q = cpl_exch K 3 (loop_df K None xlp) b cl s n p q).
Proof. intros H; specialize (H xb xcl true 0 0 0); revert H; qq. Qed.
End Cases.

Print Assumptions C75_consistent.
Print Assumptions C75_matrix.
Print Assumptions C75_gap.
Print Assumptions C75_spin.
Print Assumptions C75_couplings.
Print Assumptions C75_projectors.
Print Assumptions C75_nonconserving.
Print Assumptions C75_exchange.
Print Assumptions C75_exchange_refuted.
Print Assumptions C75_periodic_refuted.
