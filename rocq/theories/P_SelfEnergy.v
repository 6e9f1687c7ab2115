(** * Properties of the self-energy of the whole system (model in M_SelfEnergy) *)
From Coq Require Import List Bool Arith Lia Ring ZArith QArith Qcanon Permutation.
From Verif Require Import Alg Ord M_TtoC P_TtoC M_ExtCorr M_SelfEnergy.
Import ListNotations.
Open Scope K_scope.

Section SE.
Context {K : oring}.
Add Ring Kr : (rth K).
Notation vec := (nat -> K). Notation mat := (nat -> nat -> K).
Notation sfrag := (@sfrag K). Notation lehmann := (@lehmann K).
Variable half : K.
Variable static_pot : lehmann -> vec -> mat.
Variable children : sfrag -> list sfrag.
Variable nao : nat.
Variable fock : mat.
Notation make_moments := (make_moments half static_pot children nao fock).
Notation v_cls := (v_cls static_pot nao fock).
Notation static_se_cls := (static_se_cls nao fock).
Notation sym1 := (sym1 half). Notation symm1 := (symm1 half).

(** ** Matrices *)
(** C v C^T *)
Definition cvc (n : nat) (c v : mat) : mat := fun p q => Sum n (fun k => Sum n (fun l => c p k * v k l * c q l)).
Lemma back_eq n (c v : mat) p q : back n c v p q = cvc n c v p q.
Proof. unfold back, mm, tp, cvc. rewrite (Sum_swap n n). apply Sum_ext. intros k _. rewrite <- Sum_mul_r. reflexivity. Qed.
Lemma cvc_ext n (c c' v v' : mat) p q : (forall k, (k < n)%nat -> c p k = c' p k /\ c q k = c' q k) -> (forall k l, (k < n)%nat -> (l < n)%nat -> v k l = v' k l) -> cvc n c v p q = cvc n c' v' p q.
Proof. intros H H'. unfold cvc. apply Sum_ext. intros k Hk. apply Sum_ext. intros l Hl. rewrite (proj1 (H k Hk)), (proj2 (H l Hl)), H' by assumption. reflexivity. Qed.
Lemma cvc_half n (c v : mat) p q : cvc n c (mhalf half v) p q = half * cvc n c v p q.
Proof. unfold cvc, mhalf. rewrite <- Sum_mul_l. apply Sum_ext. intros. rewrite <- Sum_mul_l. apply Sum_ext. intros. ring. Qed.
Lemma cvc_plus n (c v w : mat) p q : cvc n c (mplus v w) p q = cvc n c v p q + cvc n c w p q.
Proof. unfold cvc, mplus. rewrite <- Sum_add. apply Sum_ext. intros. rewrite <- Sum_add. apply Sum_ext. intros. ring. Qed.
Lemma cvc_tp n (c v : mat) p q : cvc n c (tp v) p q = cvc n c v q p.
Proof. unfold cvc, tp. rewrite Sum_swap. apply Sum_ext. intros. apply Sum_ext. intros. ring. Qed.
Lemma mm_ext n (a a' b b' : mat) i j : (forall k, (k < n)%nat -> a i k = a' i k /\ b k j = b' k j) -> mm n a b i j = mm n a' b' i j.
Proof. intros H. unfold mm. apply Sum_ext. intros k Hk. destruct (H k Hk) as [-> ->]. reflexivity. Qed.
Lemma mm_assoc n m (a b c : mat) i j : mm m (mm n a b) c i j = mm n a (mm m b c) i j.
Proof.
  unfold mm. transitivity (Sum m (fun k => Sum n (fun l => a i l * b l k * c k j))); [apply Sum_ext; intros; rewrite <- Sum_mul_r; reflexivity|].
  rewrite Sum_swap. apply Sum_ext. intros l _. rewrite <- Sum_mul_l. apply Sum_ext. intros. ring.
Qed.
Lemma cfc_sym (f : sfrag) i j : cfc f i j = cfc f j i.
Proof. unfold cfc, mm, tp. apply Sum_ext. intros. ring. Qed.
(** the projector of a fragment in terms of the orbitals c of its cluster: C (fc^T fc) C^T *)
Definition fproj (f : sfrag) (c : mat) : mat := fun p q => Sum (s_nf f) (fun x => Sum (s_nc f) (fun k => c p k * s_fc f x k) * Sum (s_nc f) (fun k => c q k * s_fc f x k)).
Lemma fproj_eq (f : sfrag) c p q : cvc (s_nc f) c (cfc f) p q = fproj f c p q.
Proof.
  unfold cvc, cfc, mm, tp, fproj. transitivity (Sum (s_nc f) (fun k => Sum (s_nc f) (fun l => Sum (s_nf f) (fun x => c p k * s_fc f x k * (c q l * s_fc f x l))))).
  - apply Sum_ext. intros k _. apply Sum_ext. intros l _. rewrite <- Sum_mul_l, <- Sum_mul_r. apply Sum_ext. intros. ring.
  - transitivity (Sum (s_nf f) (fun x => Sum (s_nc f) (fun k => Sum (s_nc f) (fun l => c p k * s_fc f x k * (c q l * s_fc f x l))))).
    + rewrite (Sum_swap (s_nf f)). apply Sum_ext. intros k _. apply Sum_swap.
    + apply Sum_ext. intros x _. symmetry. apply Sum_mul_Sum.
Qed.

(** ** The sum over fragments and their symmetry children *)
Definition kids (use_sym : bool) (f : sfrag) : list sfrag := if use_sym then children f else [].
(** contributions of fragment f transformed with the orbitals of g *)
Definition t_mom (proj n : nat) (f g : sfrag) : mat := match proj with
  | 1 => cvc (s_nc f) (s_mc g) (symm1 f (moment (s_se f) n)) | 2 => cvc (s_nf f) (s_mf g) (mhalf half (two_proj f (moment (s_se f) n))) | _ => mzero end.
Definition t_sta (proj : nat) (f g : sfrag) : mat := match proj with
  | 1 => cvc (s_nc f) (s_mc g) (sym1 f (static_se_cls f)) | 2 => cvc (s_nf f) (s_mf g) (two_proj f (static_se_cls f)) | _ => mzero end.
Definition t_pot (proj : nat) (f g : sfrag) : mat := match proj with
  | 1 => cvc (s_nc f) (s_ca g) (sym1 f (v_cls f)) | 2 => cvc (s_nf f) (s_cf g) (two_proj f (v_cls f)) | _ => mzero end.
Lemma inner_sum {X} (l : list X) (m : X -> nat -> mat) (s v : X -> mat) : forall a : acc3, let r := fold_left (fun a c => add3 a (m c) (s c) (v c)) l a in
  (forall n p q, fst (fst r) n p q = fst (fst a) n p q + Lsum l (fun c => m c n p q)) /\ (forall p q, snd (fst r) p q = snd (fst a) p q + Lsum l (fun c => s c p q)) /\
  (forall p q, snd r p q = snd a p q + Lsum l (fun c => v c p q)).
Proof.
  induction l as [|c l IH]; intros a; cbn [fold_left Lsum].
  - split; [|split]; intros; ring.
  - destruct (IH (add3 a (m c) (s c) (v c))) as (A & B & C). destruct a as [[am as_] av]. cbn [add3 fst snd] in *. split; [|split]; intros; [rewrite A|rewrite B|rewrite C]; unfold mplus; ring.
Qed.
Lemma step_sum us proj (a : acc3) f : let r := moments_step half static_pot children nao fock us proj a f in
  (forall n p q, fst (fst r) n p q = fst (fst a) n p q + Lsum (f :: kids us f) (fun g => t_mom proj n f g p q)) /\ (forall p q, snd (fst r) p q = snd (fst a) p q + Lsum (f :: kids us f) (fun g => t_sta proj f g p q)) /\
  (forall p q, snd r p q = snd a p q + Lsum (f :: kids us f) (fun g => t_pot proj f g p q)).
Proof.
  intros r. destruct proj as [|[|[|proj]]].
  - subst r. cbn [moments_step]. unfold t_mom, t_sta, t_pot, mzero. split; [|split]; intros; rewrite Lsum_0 by reflexivity; ring.
  - subst r. cbn [moments_step]. destruct (inner_sum (kids us f) (fun c n => back (s_nc f) (s_mc c) (symm1 f (moment (s_se f) n))) (fun c => back (s_nc f) (s_mc c) (sym1 f (static_se_cls f))) (fun c => back (s_nc f) (s_ca c) (sym1 f (v_cls f)))
      (add3 a (fun n => back (s_nc f) (s_mc f) (symm1 f (moment (s_se f) n))) (back (s_nc f) (s_mc f) (sym1 f (static_se_cls f))) (back (s_nc f) (s_ca f) (sym1 f (v_cls f))))) as (A & B & C).
    unfold kids in A, B, C |- *. destruct a as [[am as_] av]. cbn [add3 fst snd] in *. cbn [Lsum]. cbn [t_mom t_sta t_pot].
    split; [|split]; intros; [rewrite A|rewrite B|rewrite C]; unfold mplus; rewrite back_eq; rewrite (Lsum_ext _ _ _ (fun g _ => back_eq _ _ _ p q)); ring.
  - subst r. cbn [moments_step]. destruct (inner_sum (kids us f) (fun c n => back (s_nf f) (s_mf c) (mhalf half (two_proj f (moment (s_se f) n)))) (fun c => back (s_nf f) (s_mf c) (two_proj f (static_se_cls f))) (fun c => back (s_nf f) (s_cf c) (two_proj f (v_cls f)))
      (add3 a (fun n => back (s_nf f) (s_mf f) (mhalf half (two_proj f (moment (s_se f) n)))) (back (s_nf f) (s_mf f) (two_proj f (static_se_cls f))) (back (s_nf f) (s_cf f) (two_proj f (v_cls f))))) as (A & B & C).
    unfold kids in A, B, C |- *. destruct a as [[am as_] av]. cbn [add3 fst snd] in *. cbn [Lsum]. cbn [t_mom t_sta t_pot].
    split; [|split]; intros; [rewrite A|rewrite B|rewrite C]; unfold mplus; rewrite back_eq; rewrite (Lsum_ext _ _ _ (fun g _ => back_eq _ _ _ p q)); ring.
  - subst r. cbn [moments_step]. unfold t_mom, t_sta, t_pot, mzero. split; [|split]; intros; rewrite Lsum_0 by reflexivity; ring.
Qed.
Lemma moments_sum us proj frags : let r := make_moments us proj frags in
  (forall n p q, fst (fst r) n p q = Lsum frags (fun f => Lsum (f :: kids us f) (fun g => t_mom proj n f g p q))) /\ (forall p q, snd (fst r) p q = Lsum frags (fun f => Lsum (f :: kids us f) (fun g => t_sta proj f g p q))) /\
  (forall p q, snd r p q = Lsum frags (fun f => Lsum (f :: kids us f) (fun g => t_pot proj f g p q))).
Proof.
  assert (G : forall a : acc3, let r := fold_left (moments_step half static_pot children nao fock us proj) frags a in
    (forall n p q, fst (fst r) n p q = fst (fst a) n p q + Lsum frags (fun f => Lsum (f :: kids us f) (fun g => t_mom proj n f g p q))) /\
    (forall p q, snd (fst r) p q = snd (fst a) p q + Lsum frags (fun f => Lsum (f :: kids us f) (fun g => t_sta proj f g p q))) /\
    (forall p q, snd r p q = snd a p q + Lsum frags (fun f => Lsum (f :: kids us f) (fun g => t_pot proj f g p q)))).
  { induction frags as [|f l IH]; intros a; cbn [fold_left].
    - cbn [Lsum]. split; [|split]; intros; ring.
    - destruct (IH (moments_step half static_pot children nao fock us proj a f)) as (A & B & C). destruct (step_sum us proj a f) as (A' & B' & C').
      split; [|split]; intros; [rewrite A, A'|rewrite B, B'|rewrite C, C']; cbn [Lsum]; ring. }
  destruct (G ((fun _ => mzero), mzero, mzero)) as (A & B & C). cbn [fst snd] in A, B, C. unfold M_SelfEnergy.make_moments. split; [|split]; intros; [rewrite A|rewrite B|rewrite C]; unfold mzero; ring.
Qed.
(** without symmetry: every fragment contributes its own term *)
Lemma moments_each proj frags : let r := make_moments false proj frags in
  (forall n p q, fst (fst r) n p q = Lsum frags (fun f => t_mom proj n f f p q)) /\ (forall p q, snd (fst r) p q = Lsum frags (fun f => t_sta proj f f p q)) /\ (forall p q, snd r p q = Lsum frags (fun f => t_pot proj f f p q)).
Proof.
  destruct (moments_sum false proj frags) as (A & B & C). split; [|split]; intros; [rewrite A|rewrite B|rewrite C]; apply Lsum_ext; intros; cbn [kids Lsum]; ring.
Qed.

(** ** Symmetry-related fragments *)
(** g is the image of f under a symmetry: a matrix S that leaves the Fock matrix as it is takes the cluster orbitals of f to those of g;
    the two share everything that refers to the cluster orbitals only *)
Definition image (f g : sfrag) : Prop :=
  s_nc g = s_nc f /\ s_nf g = s_nf f /\ (forall i j, s_fc g i j = s_fc f i j) /\ (forall i j, s_t1 g i j = s_t1 f i j) /\ s_se g = s_se f /\
  exists S : mat, (forall a b, (a < nao)%nat -> (b < nao)%nat -> Sum nao (fun c => Sum nao (fun d => S c a * fock c d * S d b)) = fock a b) /\ (forall a k, (a < nao)%nat -> s_ca g a k = Sum nao (fun b => S a b * s_ca f b k)).
Lemma fock_eq (f : sfrag) i j : fock_cls nao fock f i j = Sum nao (fun a => Sum nao (fun b => s_ca f a i * fock a b * s_ca f b j)).
Proof. unfold fock_cls, mm, tp. rewrite (Sum_swap nao nao). apply Sum_ext. intros. rewrite <- Sum_mul_r. reflexivity. Qed.
Lemma image_fock f g : image f g -> forall i j, fock_cls nao fock g i j = fock_cls nao fock f i j.
Proof.
  intros (_ & _ & _ & _ & _ & S & HS & HC) i j. rewrite !fock_eq.
  transitivity (Sum nao (fun c => Sum nao (fun d => Sum nao (fun a => S c a * s_ca f a i) * fock c d * Sum nao (fun b => S d b * s_ca f b j)))).
  - apply Sum_ext. intros c Hc. apply Sum_ext. intros d Hd. rewrite !HC by assumption. reflexivity.
  - transitivity (Sum nao (fun a => Sum nao (fun b => s_ca f a i * Sum nao (fun c => Sum nao (fun d => S c a * fock c d * S d b)) * s_ca f b j))).
    2:{ apply Sum_ext. intros a Ha. apply Sum_ext. intros b Hb. rewrite HS by assumption. reflexivity. }
    transitivity (Sum nao (fun c => Sum nao (fun d => Sum nao (fun a => Sum nao (fun b => s_ca f a i * (S c a * fock c d * S d b) * s_ca f b j))))).
    + apply Sum_ext. intros c _. apply Sum_ext. intros d _. rewrite <- !Sum_mul_r. apply Sum_ext. intros a _. rewrite <- Sum_mul_l. apply Sum_ext. intros. ring.
    + transitivity (Sum nao (fun c => Sum nao (fun a => Sum nao (fun d => Sum nao (fun b => s_ca f a i * (S c a * fock c d * S d b) * s_ca f b j))))); [apply Sum_ext; intros; apply Sum_swap|].
      rewrite Sum_swap. apply Sum_ext. intros a _. transitivity (Sum nao (fun c => Sum nao (fun b => Sum nao (fun d => s_ca f a i * (S c a * fock c d * S d b) * s_ca f b j)))); [apply Sum_ext; intros; apply Sum_swap|].
      rewrite Sum_swap. apply Sum_ext. intros b _. rewrite <- Sum_mul_l, <- Sum_mul_r. apply Sum_ext. intros c _. rewrite <- Sum_mul_l, <- Sum_mul_r. reflexivity.
Qed.
Hypothesis pot_ext : forall se e e' i j, (forall k, e k = e' k) -> static_pot se e i j = static_pot se e' i j.
Lemma image_terms proj f g : image f g -> forall n p q, t_mom proj n f g p q = t_mom proj n g g p q /\ t_sta proj f g p q = t_sta proj g g p q /\ t_pot proj f g p q = t_pot proj g g p q.
Proof.
  intros H n p q. pose proof (image_fock f g H) as HF. destruct H as (Hc & Hf & Hfc & Ht & Hs & _).
  assert (C : forall i j, cfc f i j = cfc g i j) by (intros; unfold cfc, mm, tp; rewrite Hf; apply Sum_ext; intros; rewrite !Hfc; reflexivity).
  assert (V : forall i j, v_cls f i j = v_cls g i j) by (intros; unfold M_SelfEnergy.v_cls; rewrite Hs; apply pot_ext; intros; unfold e_cls; symmetry; apply HF).
  assert (T : forall i j, static_se_cls f i j = static_se_cls g i j) by (intros; unfold M_SelfEnergy.static_se_cls; rewrite HF, Ht; reflexivity).
  assert (S1 : forall v w, (forall i j, v i j = w i j) -> forall i j, sym1 f v i j = sym1 g w i j).
  { intros v w E i j. unfold M_SelfEnergy.sym1, mhalf, mplus, tp. rewrite Hc. f_equal. f_equal; apply mm_ext; intros; rewrite C, E; split; reflexivity. }
  assert (P2 : forall v w, (forall i j, v i j = w i j) -> forall i j, two_proj f v i j = two_proj g w i j).
  { intros v w E i j. unfold two_proj, tp. rewrite Hc. apply mm_ext. intros. rewrite Hfc. split; [|reflexivity]. apply mm_ext. intros. rewrite Hfc, E. split; reflexivity. }
  destruct proj as [|[|[|proj]]]; cbn [t_mom t_sta t_pot]; try (split; [|split]; reflexivity); rewrite ?Hc, ?Hf, ?Hs; (split; [|split]); apply cvc_ext; try (split; reflexivity); intros.
  - unfold M_SelfEnergy.symm1, mhalf, mplus. rewrite Hc. f_equal. f_equal; apply mm_ext; intros; rewrite C; split; reflexivity.
  - apply S1. exact T.
  - apply S1. exact V.
  - unfold mhalf. f_equal. apply P2. reflexivity.
  - apply P2. exact T.
  - apply P2. exact V.
Qed.
(** Using symmetry gives what the loop over all fragments gives *)
Theorem C67_symmetry proj parents all : (forall f g, In f parents -> In g (children f) -> image f g) -> Permutation all (flat_map (fun f => f :: children f) parents) ->
  let a := make_moments true proj parents in let b := make_moments false proj all in
  (forall n p q, fst (fst a) n p q = fst (fst b) n p q) /\ (forall p q, snd (fst a) p q = snd (fst b) p q) /\ (forall p q, snd a p q = snd b p q).
Proof.
  intros HI HP. destruct (moments_sum true proj parents) as (A & B & C). destruct (moments_each proj all) as (A' & B' & C'). cbv zeta.
  split; [|split]; intros; [rewrite A, A'|rewrite B, B'|rewrite C, C']; rewrite (Lsum_Permutation _ _ _ HP), Lsum_flat_map; apply Lsum_ext; intros f Hf; cbn [kids Lsum]; f_equal; apply Lsum_ext; intros g Hg; eapply (image_terms proj f g (HI f g Hf Hg)).
  - exact 0%nat.
  - exact 0%nat.
Qed.

(** ** Clusters that span the whole system *)
Lemma there_back n m (c x : mat) p q : (forall p q, (p < m)%nat -> (q < m)%nat -> Sum n (fun k => c p k * c q k) = delta p q) -> (p < m)%nat -> (q < m)%nat -> cvc n c (fun k l => Sum m (fun r => Sum m (fun s => c r k * x r s * c s l))) p q = x p q.
Proof.
  intros H Hp Hq. unfold cvc.
  transitivity (Sum m (fun r => Sum m (fun s => delta p r * x r s * delta s q))).
  - transitivity (Sum m (fun r => Sum m (fun s => Sum n (fun k => c p k * c r k) * x r s * Sum n (fun l => c s l * c q l)))).
    + transitivity (Sum n (fun k => Sum n (fun l => Sum m (fun r => Sum m (fun s => c p k * c r k * x r s * (c s l * c q l)))))).
      * apply Sum_ext. intros k _. apply Sum_ext. intros l _. rewrite <- Sum_mul_l, <- Sum_mul_r. apply Sum_ext. intros. rewrite <- Sum_mul_l, <- Sum_mul_r. apply Sum_ext. intros. ring.
      * transitivity (Sum n (fun k => Sum m (fun r => Sum n (fun l => Sum m (fun s => c p k * c r k * x r s * (c s l * c q l)))))); [apply Sum_ext; intros; apply Sum_swap|].
        rewrite Sum_swap. apply Sum_ext. intros r _. transitivity (Sum n (fun k => Sum m (fun s => Sum n (fun l => c p k * c r k * x r s * (c s l * c q l))))); [apply Sum_ext; intros; apply Sum_swap|].
        rewrite Sum_swap. apply Sum_ext. intros s _. rewrite <- !Sum_mul_r. apply Sum_ext. intros k _. rewrite <- Sum_mul_l. reflexivity.
    + apply Sum_ext. intros r Hr. apply Sum_ext. intros s Hs. rewrite !H by assumption. reflexivity.
  - etransitivity; [apply Sum_ext; intros r _; exact (Sum_delta_r m q (fun s => delta p r * x r s) Hq)|]. apply (Sum_delta_l m p (fun r => x r q) Hp).
Qed.
(** C (P v) C^T = (C P C^T) (C v C^T), if C^T C = 1 between; here through the m orbitals: v = C^T x C *)
Lemma proj_back n m (c x P : mat) p q : (forall p q, (p < m)%nat -> (q < m)%nat -> Sum n (fun k => c p k * c q k) = delta p q) -> (q < m)%nat ->
  cvc n c (mm n P (fun k l => Sum m (fun r => Sum m (fun s => c r k * x r s * c s l)))) p q = Sum m (fun r => cvc n c P p r * x r q).
Proof.
  intros H Hq. unfold cvc, mm.
  transitivity (Sum n (fun k => Sum n (fun l => Sum n (fun j => Sum m (fun r => Sum m (fun s => c p k * P k j * c r j * x r s * (c s l * c q l))))))).
  - apply Sum_ext. intros k _. apply Sum_ext. intros l _. rewrite <- Sum_mul_l, <- Sum_mul_r. apply Sum_ext. intros j _. rewrite <- !Sum_mul_l, <- Sum_mul_r. apply Sum_ext. intros r _. rewrite <- !Sum_mul_l, <- Sum_mul_r. apply Sum_ext. intros. ring.
  - transitivity (Sum n (fun k => Sum n (fun j => Sum m (fun r => Sum m (fun s => c p k * P k j * c r j * x r s * Sum n (fun l => c s l * c q l)))))).
    + apply Sum_ext. intros k _. rewrite Sum_swap. apply Sum_ext. intros j _. rewrite Sum_swap. apply Sum_ext. intros r _. rewrite Sum_swap. apply Sum_ext. intros s _. apply Sum_mul_l.
    + transitivity (Sum n (fun k => Sum n (fun j => Sum m (fun r => c p k * P k j * c r j * x r q)))).
      * apply Sum_ext. intros k _. apply Sum_ext. intros j _. apply Sum_ext. intros r Hr. etransitivity; [apply Sum_ext; intros s Hs; rewrite (H s q Hs Hq); reflexivity|]. apply (Sum_delta_r m q (fun s => c p k * P k j * c r j * x r s) Hq).
      * transitivity (Sum n (fun k => Sum m (fun r => Sum n (fun j => c p k * P k j * c r j * x r q)))); [apply Sum_ext; intros; apply Sum_swap|]. rewrite Sum_swap. apply Sum_ext. intros r _. rewrite <- Sum_mul_r. apply Sum_ext. intros k _. apply Sum_mul_r.
Qed.
(** what a cluster sees of a matrix x of the whole system *)
Definition seen (m n : nat) (c x v : mat) : Prop := forall k l, (k < n)%nat -> (l < n)%nat -> v k l = Sum m (fun r => Sum m (fun s => c r k * x r s * c s l)).
Definition spans (m : nat) (f : sfrag) : Prop := forall p q, (p < m)%nat -> (q < m)%nat -> Sum (s_nc f) (fun k => s_mc f p k * s_mc f q k) = delta p q.
Lemma cvc_mm_ext n (c P v w : mat) p q : (forall k l, (k < n)%nat -> (l < n)%nat -> v k l = w k l) -> cvc n c (mm n P v) p q = cvc n c (mm n P w) p q.
Proof. intros H. apply cvc_ext; [split; reflexivity|]. intros. apply mm_ext. intros. split; [reflexivity|]. apply H; assumption. Qed.
Lemma cvc_mm_r n (c P v : mat) p q : cvc n c (mm n v P) p q = cvc n c (mm n (tp P) (tp v)) q p.
Proof. rewrite <- cvc_tp. apply cvc_ext; [split; reflexivity|]. intros. unfold tp, mm. apply Sum_ext. intros. ring. Qed.
Lemma one_proj m (f : sfrag) (x v : mat) p q : spans m f -> seen m (s_nc f) (s_mc f) x v -> (p < m)%nat -> (q < m)%nat ->
  cvc (s_nc f) (s_mc f) (mm (s_nc f) (cfc f) v) p q = Sum m (fun r => fproj f (s_mc f) p r * x r q).
Proof.
  intros HS HV Hp Hq. rewrite (cvc_mm_ext _ _ _ _ _ p q HV), (proj_back _ m) by assumption. apply Sum_ext. intros. rewrite fproj_eq. reflexivity.
Qed.
Lemma one_proj_r m (f : sfrag) (x v : mat) p q : spans m f -> seen m (s_nc f) (s_mc f) x v -> (p < m)%nat -> (q < m)%nat ->
  cvc (s_nc f) (s_mc f) (mm (s_nc f) v (cfc f)) p q = Sum m (fun r => fproj f (s_mc f) q r * x p r).
Proof.
  intros HS HV Hp Hq. rewrite cvc_mm_r.
  assert (HV' : seen m (s_nc f) (s_mc f) (tp x) (tp v)) by (intros k l Hk Hl; unfold tp; rewrite (HV l k Hl Hk), Sum_swap; apply Sum_ext; intros; apply Sum_ext; intros; ring).
  etransitivity; [|exact (one_proj m f (tp x) (tp v) q p HS HV' Hq Hp)]. apply cvc_ext; [split; reflexivity|]. intros. apply mm_ext. intros. split; [|reflexivity]. unfold tp. apply cfc_sym.
Qed.
Lemma sum_projs {X} (l : list X) m (P : X -> mat) (g : nat -> K) p : (p < m)%nat -> (forall p q, (p < m)%nat -> (q < m)%nat -> Lsum l (fun f => P f p q) = delta p q) -> Lsum l (fun f => Sum m (fun r => P f p r * g r)) = g p.
Proof. intros Hp H. rewrite Lsum_Sum. etransitivity; [apply Sum_ext; intros r Hr; rewrite Lsum_mul_r, (H p r Hp Hr); reflexivity|]. apply (Sum_delta_l m p g Hp). Qed.
(** The clusters span all m orbitals, the fragments add up to the whole space, and the self-energy, the static self-energy and the potential that every cluster has are those of one system:
    then these are what one gets back. *)
Theorem C67_complete nmo frags (S : nat -> mat) (Sinf V C : mat) : half + half = 1 ->
  (forall f, In f frags -> spans nmo f /\ (forall n, seen nmo (s_nc f) (s_mc f) (S n) (moment (s_se f) n)) /\
     seen nmo (s_nc f) (s_mc f) Sinf (fun k l => s_t1 f k l - Sum nao (fun a => Sum nao (fun b => s_ca f a k * fock a b * s_ca f b l))) /\
     seen nmo (s_nc f) (s_mc f) V (static_pot (s_se f) (e_cls nao fock f)) /\ (forall a k, s_ca f a k = Sum nmo (fun p => C a p * s_mc f p k))) ->
  (forall p q, Sinf p q = Sinf q p) -> (forall p q, V p q = V q p) ->
  (forall p q, (p < nmo)%nat -> (q < nmo)%nat -> Lsum frags (fun f => fproj f (s_mc f) p q) = delta p q) ->
  let r := make_moments false 1 frags in
  (forall n p q, (p < nmo)%nat -> (q < nmo)%nat -> fst (fst r) n p q = S n p q) /\ (forall p q, (p < nmo)%nat -> (q < nmo)%nat -> snd (fst r) p q = Sinf p q) /\
  (forall a b, snd r a b = Sum nmo (fun p => Sum nmo (fun q => C a p * V p q * C b q))).
Proof.
  intros Hh HF SI SV HP r. destruct (moments_each 1 frags) as (A & B & D).
  assert (Two : forall x : K, half * (x + x) = x) by (intros; transitivity ((half + half) * x); [ring|rewrite Hh; ring]).
  assert (Sy : forall f x v p q, (forall p q, x p q = x q p) -> spans nmo f -> seen nmo (s_nc f) (s_mc f) x v -> (p < nmo)%nat -> (q < nmo)%nat ->
    cvc (s_nc f) (s_mc f) (sym1 f v) p q = half * (Sum nmo (fun r => fproj f (s_mc f) p r * x r q) + Sum nmo (fun r => fproj f (s_mc f) q r * x r p))).
  { intros f x v p q Sx Hs Hv Hp Hq. unfold M_SelfEnergy.sym1. cbv zeta. rewrite cvc_half, cvc_plus, cvc_tp. rewrite !(one_proj nmo f x v) by assumption. reflexivity. }
  split; [|split].
  - intros n p q Hp Hq. subst r. rewrite A. rewrite (Lsum_ext _ _ (fun f => half * (Sum nmo (fun r => fproj f (s_mc f) p r * S n r q) + Sum nmo (fun r => fproj f (s_mc f) q r * S n p r)))).
    + rewrite Lsum_mul_l, Lsum_add, (sum_projs frags nmo (fun f => fproj f (s_mc f)) (fun r => S n r q)), (sum_projs frags nmo (fun f => fproj f (s_mc f)) (fun r => S n p r)) by assumption. apply Two.
    + intros f Hf. destruct (HF f Hf) as (H1 & H2 & _). cbn [t_mom]. unfold M_SelfEnergy.symm1. rewrite cvc_half, cvc_plus, (one_proj nmo f (S n)), (one_proj_r nmo f (S n)) by auto. reflexivity.
  - intros p q Hp Hq. subst r. rewrite B. rewrite (Lsum_ext _ _ (fun f => half * (Sum nmo (fun r => fproj f (s_mc f) p r * Sinf r q) + Sum nmo (fun r => fproj f (s_mc f) q r * Sinf r p)))).
    + rewrite Lsum_mul_l, Lsum_add, (sum_projs frags nmo (fun f => fproj f (s_mc f)) (fun r => Sinf r q)), (sum_projs frags nmo (fun f => fproj f (s_mc f)) (fun r => Sinf r p)) by assumption. rewrite (SI q p). apply Two.
    + intros f Hf. destruct (HF f Hf) as (H1 & _ & H3 & _). cbn [t_sta]. apply Sy; try assumption. intros k l Hk Hl. unfold M_SelfEnergy.static_se_cls. rewrite fock_eq. apply H3; assumption.
  - intros a b. subst r. rewrite D. transitivity (Lsum frags (fun f => Sum nmo (fun p => Sum nmo (fun q => C a p * C b q * (half * (Sum nmo (fun r => fproj f (s_mc f) p r * V r q) + Sum nmo (fun r => fproj f (s_mc f) q r * V r p))))))).
    + apply Lsum_ext. intros f Hf. destruct (HF f Hf) as (H1 & _ & _ & H4 & H5). cbn [t_pot].
      transitivity (Sum nmo (fun p => Sum nmo (fun q => C a p * C b q * cvc (s_nc f) (s_mc f) (sym1 f (v_cls f)) p q))).
      2:{ apply Sum_ext. intros p Hp. apply Sum_ext. intros q Hq. f_equal. apply Sy; assumption. }
      unfold cvc. set (v := sym1 f (v_cls f)). set (n := s_nc f).
      transitivity (Sum n (fun k => Sum n (fun l => Sum nmo (fun p => Sum nmo (fun q => C a p * C b q * (s_mc f p k * v k l * s_mc f q l)))))).
      * apply Sum_ext. intros k _. apply Sum_ext. intros l _. rewrite !H5. rewrite <- !Sum_mul_r. apply Sum_ext. intros p _. rewrite <- Sum_mul_l. apply Sum_ext. intros. ring.
      * transitivity (Sum n (fun k => Sum nmo (fun p => Sum n (fun l => Sum nmo (fun q => C a p * C b q * (s_mc f p k * v k l * s_mc f q l)))))); [apply Sum_ext; intros; apply Sum_swap|]. rewrite Sum_swap. apply Sum_ext. intros p _.
        transitivity (Sum n (fun k => Sum nmo (fun q => Sum n (fun l => C a p * C b q * (s_mc f p k * v k l * s_mc f q l))))); [apply Sum_ext; intros; apply Sum_swap|]. rewrite Sum_swap. apply Sum_ext. intros q _. rewrite <- Sum_mul_l. apply Sum_ext. intros k _. apply Sum_mul_l.
    + rewrite Lsum_Sum. apply Sum_ext. intros p Hp. rewrite Lsum_Sum. apply Sum_ext. intros q Hq. rewrite Lsum_mul_l.
      rewrite Lsum_mul_l, Lsum_add, (sum_projs frags nmo (fun f => fproj f (s_mc f)) (fun r => V r q)), (sum_projs frags nmo (fun f => fproj f (s_mc f)) (fun r => V r p)) by assumption. rewrite (SV q p), Two. ring.
Qed.

(** ** Symmetry of the results, traces *)
Theorem C67_symmetric us frags : let r := make_moments us 1 frags in
  (forall p q, snd (fst r) p q = snd (fst r) q p) /\ (forall p q, snd r p q = snd r q p) /\
  ((forall f n, In f frags -> forall k l, (k < s_nc f)%nat -> (l < s_nc f)%nat -> moment (s_se f) n k l = moment (s_se f) n l k) -> forall n p q, fst (fst r) n p q = fst (fst r) n q p).
Proof.
  intros r. destruct (moments_sum us 1 frags) as (A & B & C).
  assert (S : forall f v k l, sym1 f v k l = sym1 f v l k) by (intros; unfold M_SelfEnergy.sym1, mhalf, mplus, tp; ring).
  assert (T : forall n c v p q, (forall k l, (k < n)%nat -> (l < n)%nat -> v k l = v l k) -> cvc n c v p q = cvc n c v q p).
  { intros n c v p q H. rewrite <- cvc_tp. apply cvc_ext; [split; reflexivity|]. intros. apply H; assumption. }
  split; [|split]; subst r.
  - intros. rewrite !B. apply Lsum_ext. intros f _. apply Lsum_ext. intros g _. apply T. intros. apply S.
  - intros. rewrite !C. apply Lsum_ext. intros f _. apply Lsum_ext. intros g _. apply T. intros. apply S.
  - intros H n p q. rewrite !A. apply Lsum_ext. intros f Hf. apply Lsum_ext. intros g _. cbn [t_mom]. apply T. intros k l Hk Hl. unfold M_SelfEnergy.symm1, mhalf, mplus. f_equal.
    rewrite (Radd_comm (rth K) (mm (s_nc f) (cfc f) (moment (s_se f) n) l k)). f_equal; unfold mm; apply Sum_ext; intros j Hj; rewrite (cfc_sym f), (H f n Hf _ _) by assumption; ring.
Qed.
(** trace of the part of a cluster matrix that belongs to the fragment *)
Definition ftrace (f : sfrag) (v : mat) : K := Sum (s_nf f) (fun x => Sum (s_nc f) (fun k => Sum (s_nc f) (fun l => s_fc f x k * v k l * s_fc f x l))).
Definition trace (m : nat) (a : mat) : K := Sum m (fun p => a p p).
Definition isometry (m n : nat) (c : mat) : Prop := forall k l, (k < n)%nat -> (l < n)%nat -> Sum m (fun p => c p k * c p l) = delta k l.
Lemma trace_cvc m n (c v : mat) : isometry m n c -> trace m (cvc n c v) = trace n v.
Proof.
  intros H. unfold trace, cvc. rewrite Sum_swap. apply Sum_ext. intros k Hk. rewrite Sum_swap. etransitivity; [|apply (Sum_delta_r n k (fun l => v k l) Hk)].
  apply Sum_ext. intros l Hl. rewrite <- (H l k Hl Hk), <- Sum_mul_l. apply Sum_ext. intros. ring.
Qed.
Lemma trace_cfc (f : sfrag) v : trace (s_nc f) (mm (s_nc f) (cfc f) v) = ftrace f v.
Proof.
  unfold trace, mm, cfc, tp, ftrace. transitivity (Sum (s_nc f) (fun k => Sum (s_nc f) (fun l => Sum (s_nf f) (fun x => s_fc f x l * v l k * s_fc f x k)))).
  - apply Sum_ext. intros k _. apply Sum_ext. intros l _. unfold mm. rewrite <- Sum_mul_r. apply Sum_ext. intros. ring.
  - rewrite Sum_swap. transitivity (Sum (s_nc f) (fun l => Sum (s_nf f) (fun x => Sum (s_nc f) (fun k => s_fc f x l * v l k * s_fc f x k)))); [apply Sum_ext; intros; apply Sum_swap|]. apply Sum_swap.
Qed.
Lemma trace_half n (v : mat) : trace n (mhalf half v) = half * trace n v. Proof. unfold trace, mhalf. apply Sum_mul_l. Qed.
Lemma trace_plus n (v w : mat) : trace n (mplus v w) = trace n v + trace n w. Proof. unfold trace, mplus. apply Sum_add. Qed.
Lemma trace_tp n (v : mat) : trace n (tp v) = trace n v. Proof. reflexivity. Qed.
Lemma trace_mm n (a b : mat) : trace n (mm n a b) = trace n (mm n b a).
Proof. unfold trace, mm. rewrite Sum_swap. apply Sum_ext. intros. apply Sum_ext. intros. ring. Qed.
(** The trace is the sum over all fragments of the trace of what the cluster has in the fragment: each part of the system is counted once *)
Theorem C67_trace nmo frags : half + half = 1 -> (forall f, In f frags -> isometry nmo (s_nc f) (s_mc f)) ->
  let r := make_moments false 1 frags in
  (forall n, trace nmo (fst (fst r) n) = Lsum frags (fun f => ftrace f (moment (s_se f) n))) /\ trace nmo (snd (fst r)) = Lsum frags (fun f => ftrace f (static_se_cls f)).
Proof.
  intros Hh HI r. destruct (moments_each 1 frags) as (A & B & _).
  assert (Two : forall x : K, half * (x + x) = x) by (intros; transitivity ((half + half) * x); [ring|rewrite Hh; ring]).
  assert (L : forall (t : sfrag -> mat) (v : sfrag -> K), (forall f, In f frags -> trace nmo (t f) = v f) -> trace nmo (fun p q => Lsum frags (fun f => t f p q)) = Lsum frags v).
  { intros t v H. unfold trace. rewrite <- Lsum_Sum. apply Lsum_ext. exact H. }
  split; [intros n|]; subst r.
  - rewrite <- (L (fun f => t_mom 1 n f f)); [unfold trace; apply Sum_ext; intros; apply A|]. intros f Hf. cbn [t_mom]. rewrite trace_cvc by (apply HI; assumption). unfold M_SelfEnergy.symm1. rewrite trace_half, trace_plus, (trace_mm _ (moment (s_se f) n)), trace_cfc. apply Two.
  - rewrite <- (L (fun f => t_sta 1 f f)); [unfold trace; apply Sum_ext; intros; apply B|]. intros f Hf. cbn [t_sta]. rewrite trace_cvc by (apply HI; assumption). unfold M_SelfEnergy.sym1. cbv zeta. rewrite trace_half, trace_plus, trace_tp, trace_cfc. apply Two.
Qed.
(** with two projectors the static self-energy has the same trace, but the moments have half of it *)
Lemma trace_proj2 (f : sfrag) v : trace (s_nf f) (two_proj f v) = ftrace f v.
Proof. unfold trace, ftrace. apply Sum_ext. intros x _. unfold two_proj, mm, tp. rewrite Sum_swap. apply Sum_ext. intros. rewrite <- Sum_mul_r. reflexivity. Qed.
Theorem C67_two_projectors_trace_refuted nmo frags : half + half = 1 -> (forall f, In f frags -> isometry nmo (s_nc f) (s_mc f) /\ isometry nmo (s_nf f) (s_mf f)) ->
  let r1 := make_moments false 1 frags in let r2 := make_moments false 2 frags in
  trace nmo (snd (fst r2)) = trace nmo (snd (fst r1)) /\ (forall n, trace nmo (fst (fst r2) n) = half * trace nmo (fst (fst r1) n)).
Proof.
  intros Hh HI r1 r2. destruct (C67_trace nmo frags Hh (fun f Hf => proj1 (HI f Hf))) as [T1 T2]. destruct (moments_each 2 frags) as (A & B & _).
  assert (L : forall (t : sfrag -> mat) (v : sfrag -> K), (forall f, In f frags -> trace nmo (t f) = v f) -> trace nmo (fun p q => Lsum frags (fun f => t f p q)) = Lsum frags v).
  { intros t v H. unfold trace. rewrite <- Lsum_Sum. apply Lsum_ext. exact H. }
  split; [|intros n]; subst r1 r2.
  - rewrite T2. rewrite <- (L (fun f => t_sta 2 f f)); [unfold trace; apply Sum_ext; intros; apply B|]. intros f Hf. cbn [t_sta]. rewrite trace_cvc by (apply HI; assumption). apply trace_proj2.
  - rewrite T1, <- Lsum_mul_l. rewrite <- (L (fun f => t_mom 2 n f f)); [unfold trace; apply Sum_ext; intros; apply A|]. intros f Hf. cbn [t_mom]. rewrite trace_cvc by (apply HI; assumption). rewrite trace_half. f_equal. apply trace_proj2.
Qed.
(** The moments of make_self_energy_moments with proj=2 are half those of the poles of make_self_energy_2proj *)
Lemma moment_app (a b : lehmann) n p q : moment (a ++ b) n p q = moment a n p q + moment b n p q.
Proof. unfold moment. apply Lsum_app. Qed.
Lemma rot2_moment f (mf fc : mat) (l : lehmann) n p q : (forall x k, fc x k = s_fc f x k) -> moment (map (rot2 f mf fc) l) n p q = cvc (s_nf f) mf (two_proj f (moment l n)) p q.
Proof.
  intros H. unfold moment at 1. rewrite Lsum_map. induction l as [|[[e u] v] l IH]; cbn [Lsum].
  - symmetry. unfold cvc. apply Sum_0. intros. apply Sum_0. intros. unfold two_proj, mm, moment. cbn [Lsum]. rewrite Sum_0; [ring|]. intros. rewrite Sum_0; [ring|]. intros. ring.
  - rewrite IH. transitivity (cvc (s_nf f) mf (mplus (two_proj f (moment [(e, u, v)] n)) (two_proj f (moment l n))) p q).
    + rewrite cvc_plus. f_equal. unfold rot2, mv, cvc, two_proj, mm, tp, moment. cbn [Lsum].
      transitivity (Sum (s_nf f) (fun x => Sum (s_nf f) (fun y => mf p x * (Sum (s_nc f) (fun k => s_fc f x k * u k) * npow e n * Sum (s_nc f) (fun k => s_fc f y k * v k)) * mf q y))).
      * transitivity (Sum (s_nf f) (fun x => mf p x * Sum (s_nc f) (fun k => s_fc f x k * u k)) * npow e n * Sum (s_nf f) (fun y => mf q y * Sum (s_nc f) (fun k => s_fc f y k * v k))).
        { f_equal; [f_equal|]; apply Sum_ext; intros; f_equal; apply Sum_ext; intros; rewrite H; reflexivity. }
        rewrite <- Sum_mul_r, Sum_mul_Sum. apply Sum_ext. intros. apply Sum_ext. intros. ring.
      * apply Sum_ext. intros x _. apply Sum_ext. intros y _. f_equal. f_equal. rewrite <- Sum_mul_r, Sum_mul_Sum, Sum_swap. apply Sum_ext. intros k _. rewrite <- Sum_mul_r. apply Sum_ext. intros. ring.
    + apply cvc_ext; [split; reflexivity|]. intros x y _ _. unfold mplus, two_proj, mm, tp. rewrite <- Sum_add. apply Sum_ext. intros k _. transitivity ((Sum (s_nc f) (fun k0 => s_fc f x k0 * moment [(e, u, v)] n k0 k) + Sum (s_nc f) (fun k0 => s_fc f x k0 * moment l n k0 k)) * s_fc f y k); [ring|].
      f_equal. rewrite <- Sum_add. apply Sum_ext. intros. unfold moment. cbn [Lsum]. ring.
Qed.
Theorem C67_two_projectors_refuted us frags : half + half = 1 -> (us = true -> forall f g, In f frags -> In g (children f) -> forall x k, s_fc g x k = s_fc f x k) ->
  let m := make_moments us 2 frags in let r := make_2proj half static_pot children nao fock us frags in
  (forall n p q, moment (fst r) n p q = fst (fst m) n p q + fst (fst m) n p q) /\ fst (snd r) = snd (fst m) /\ snd (snd r) = snd m.
Proof.
  intros Hh HC m r. split; [|split; reflexivity]. intros n p q. subst m r. unfold make_2proj. cbn [fst]. rewrite (proj1 (moments_sum us 2 frags)). unfold moment at 1. rewrite Lsum_flat_map, <- Lsum_add. apply Lsum_ext. intros f Hf.
  unfold poles2. change (moment (map (rot2 f (s_mf f) (s_fc f)) (s_se f) ++ flat_map (fun c => map (rot2 f (s_mf c) (s_fc c)) (s_se f)) (kids us f)) n p q = Lsum (f :: kids us f) (fun g => t_mom 2 n f g p q) + Lsum (f :: kids us f) (fun g => t_mom 2 n f g p q)).
  assert (E : forall g, (forall x k, s_fc g x k = s_fc f x k) -> moment (map (rot2 f (s_mf g) (s_fc g)) (s_se f)) n p q = t_mom 2 n f g p q + t_mom 2 n f g p q).
  { intros g Hg. rewrite rot2_moment by exact Hg. cbn [t_mom]. rewrite cvc_half. transitivity ((half + half) * cvc (s_nf f) (s_mf g) (two_proj f (moment (s_se f) n)) p q); [rewrite Hh; ring|ring]. }
  rewrite moment_app, E by reflexivity. cbn [Lsum].
  transitivity (t_mom 2 n f f p q + t_mom 2 n f f p q + Lsum (kids us f) (fun g => t_mom 2 n f g p q + t_mom 2 n f g p q)).
  - f_equal. unfold moment at 1. rewrite Lsum_flat_map. apply Lsum_ext. intros g Hg. apply E. destruct us; [|destruct Hg]. apply (HC eq_refl f g Hf Hg).
  - rewrite Lsum_add. ring.
Qed.

(** ** The poles of the self-energy with one projector *)
Variable inv : nat -> K.
Variable sq : K -> K.
Variable svd : nat -> mat -> list (@pole K).
Variable eigh : nat -> mat -> list (K * vec).
(** real and imaginary part of the moments of poles with complex couplings *)
Definition re_moment (l : list cpole) (n : nat) : mat := fun p q => Lsum l (fun z : @cpole K => let '(e, (lr, li), (rr, ri)) := z in (lr p * rr q - li p * ri q) * npow e n).
Definition im_moment (l : list cpole) (n : nat) : mat := fun p q => Lsum l (fun z : @cpole K => let '(e, (lr, li), (rr, ri)) := z in (lr p * ri q + li p * rr q) * npow e n).
(** a singular value decomposition of m, in which values that are not larger than tol vanish and the others have the square root sq *)
Definition svd_ok (tol : K) (n : nat) (m : mat) : Prop := (forall y, In y (svd n m) -> if ltb tol (absK (fst (fst y))) then sq (fst (fst y)) * sq (fst (fst y)) = fst (fst y) else fst (fst y) = 0) /\
  forall p q, (p < n)%nat -> (q < n)%nat -> Lsum (svd n m) (fun y => let '(s, u, v) := y in u p * s * v q) = m p q.
(** the same for eigenvalues and eigenvectors *)
Definition eigh_ok (tol : K) (n : nat) (m : mat) : Prop := (forall y, In y (eigh n m) -> if ltb tol (absK (fst y)) then sq (absK (fst y)) * sq (absK (fst y)) = absK (fst y) else fst y = 0) /\
  forall p q, (p < n)%nat -> (q < n)%nat -> Lsum (eigh n m) (fun y => snd y p * fst y * snd y q) = m p q.
Lemma Lsum_filter {A} (l : list A) (b : A -> bool) (g : A -> K) : (forall a, In a l -> b a = false -> g a = 0) -> Lsum (filter b l) g = Lsum l g.
Proof.
  induction l as [|a l IH]; intros H; [reflexivity|]. cbn [filter Lsum]. destruct (b a) eqn:E; cbn [Lsum]; rewrite IH by (intros; apply H; [right|]; assumption); [reflexivity|]. rewrite (H a (or_introl eq_refl) E). ring.
Qed.
Lemma csqrt_re v (u : vec) p q : sq (absK v) * sq (absK v) = absK v -> let w := csqrt sq v u in fst w p * fst w q - snd w p * snd w q = u p * v * u q.
Proof.
  unfold csqrt, absK. destruct (ltb v 0) eqn:E; cbn [fst snd]; unfold vzero; intros H.
  - transitivity (- (u p * (sq (- v) * sq (- v)) * u q)); [ring|rewrite H; ring].
  - transitivity (u p * (sq v * sq v) * u q); [ring|rewrite H; ring].
Qed.
Lemma csqrt_im v (u : vec) p q : let w := csqrt sq v u in fst w p * snd w q + snd w p * fst w q = 0.
Proof. unfold csqrt. destruct (ltb v 0); cbn [fst snd]; unfold vzero; ring. Qed.
Notation split_svd := (split_svd half sq svd). Notation split_eigh := (split_eigh half sq eigh).
(** the poles that one pole of the cluster is split into *)
Lemma split_moment (use_svd : bool) tol f z l n p q : let '(e, u, v) := z in (if use_svd then svd_ok tol (s_nc f) (sym_coup half f u v) else eigh_ok tol (s_nc f) (sym_coup half f u v)) ->
  (if use_svd then split_svd tol f z else split_eigh tol f z) = Ret l -> (p < s_nc f)%nat -> (q < s_nc f)%nat ->
  re_moment l n p q = sym_coup half f u v p q * npow e n /\ im_moment l n p q = 0.
Proof.
  destruct z as [[e u] v]. destruct use_svd; intros [H1 H2] E Hp Hq.
  - unfold M_SelfEnergy.split_svd in E. cbv zeta in E. destruct (Nat.leb _ _); [|discriminate]. injection E as <-. unfold re_moment, im_moment. rewrite !Lsum_map. split.
    + rewrite <- (H2 p q Hp Hq), <- Lsum_mul_r. rewrite <- (Lsum_filter _ (fun y : pole => ltb tol (absK (fst (fst y)))) (fun a : pole => (let '(s, u0, v0) := a in u0 p * s * v0 q) * npow e n)).
      * apply Lsum_ext. intros [[s u0] v0] Hy. apply filter_In in Hy. destruct Hy as [Hy Hk]. pose proof (H1 _ Hy) as L. cbn [fst] in L, Hk. rewrite Hk in L. unfold vzero. transitivity (u0 p * (sq s * sq s) * v0 q * npow e n); [ring|rewrite L; reflexivity].
      * intros [[s u0] v0] Hy Hs. pose proof (H1 _ Hy) as Z. cbn [fst] in Z, Hs. rewrite Hs in Z. rewrite Z. ring.
    + apply Lsum_0. intros [[s u0] v0] _. cbn beta iota. unfold vzero. ring.
  - unfold M_SelfEnergy.split_eigh in E. cbv zeta in E. destruct (Nat.leb _ _); [|discriminate]. injection E as <-. unfold re_moment, im_moment. rewrite !Lsum_map. split.
    + rewrite <- (H2 p q Hp Hq), <- Lsum_mul_r. rewrite <- (Lsum_filter _ (fun y : K * vec => ltb tol (absK (fst y))) (fun a : K * vec => snd a p * fst a * snd a q * npow e n)).
      * apply Lsum_ext. intros [s u0] Hy. apply filter_In in Hy. destruct Hy as [Hy Hk]. pose proof (H1 _ Hy) as L. cbn [fst snd] in *. rewrite Hk in L. rewrite <- (csqrt_re s u0 p q L). destruct (csqrt sq s u0) as [a b]. reflexivity.
      * intros [s u0] Hy Hs. cbn [fst snd] in *. pose proof (H1 _ Hy) as Z. cbn [fst] in Z. rewrite Hs in Z. rewrite Z. ring.
    + apply Lsum_0. intros [s u0] _. cbn [fst snd]. pose proof (csqrt_im s u0 p q) as Z. destruct (csqrt sq s u0) as [a b]. cbn [fst snd] in Z. rewrite Z. ring.
Qed.
Lemma symm1_add f (x y : mat) p q : symm1 f (fun p q => x p q + y p q) p q = symm1 f x p q + symm1 f y p q.
Proof.
  unfold M_SelfEnergy.symm1, mhalf, mplus, mm.
  assert (A : Sum (s_nc f) (fun k => cfc f p k * (x k q + y k q)) = Sum (s_nc f) (fun k => cfc f p k * x k q) + Sum (s_nc f) (fun k => cfc f p k * y k q)) by (rewrite <- Sum_add; apply Sum_ext; intros; ring).
  assert (B : Sum (s_nc f) (fun k => (x p k + y p k) * cfc f k q) = Sum (s_nc f) (fun k => x p k * cfc f k q) + Sum (s_nc f) (fun k => y p k * cfc f k q)) by (rewrite <- Sum_add; apply Sum_ext; intros; ring).
  rewrite A, B. ring.
Qed.
Lemma all_moment (use_svd : bool) tol f l z n p q : (forall e u v, In (e, u, v) l -> if use_svd then svd_ok tol (s_nc f) (sym_coup half f u v) else eigh_ok tol (s_nc f) (sym_coup half f u v)) ->
  all_poles (if use_svd then split_svd tol f else split_eigh tol f) l = Ret z -> (p < s_nc f)%nat -> (q < s_nc f)%nat ->
  re_moment z n p q = symm1 f (moment l n) p q /\ im_moment z n p q = 0.
Proof.
  intros H E Hp Hq. revert z E. induction l as [|[[e u] v] l IH]; intros z E; cbn [all_poles] in E.
  - injection E as <-. unfold re_moment, im_moment. cbn [Lsum]. split; [|reflexivity]. unfold M_SelfEnergy.symm1, mhalf, mplus, mm, moment. cbn [Lsum]. rewrite !Sum_0 by (intros; ring). ring.
  - destruct ((if use_svd then split_svd tol f else split_eigh tol f) (e, u, v)) as [a| | |] eqn:Ea; try discriminate. cbn [rbind] in E. destruct (all_poles _ l) as [b| | |] eqn:Eb; try discriminate. cbn [rbind] in E. injection E as <-.
    destruct (IH (fun e u v Hi => H e u v (or_intror Hi)) b eq_refl) as [IR II].
    pose proof (split_moment use_svd tol f (e, u, v) a n p q) as S. cbn beta iota in S. destruct S as [SR SI]; [apply (H e u v); left; reflexivity|rewrite <- Ea; destruct use_svd; reflexivity|exact Hp|exact Hq|].
    unfold re_moment, im_moment in *. rewrite !Lsum_app, SR, SI, IR, II. split; [|ring].
    change (symm1 f (moment ((e, u, v) :: l) n) p q) with (symm1 f (fun p q => u p * npow e n * v q + moment l n p q) p q). rewrite symm1_add. f_equal.
    unfold M_SelfEnergy.symm1, mhalf, mplus, sym_coup, mv, mm.
    assert (A1 : Sum (s_nc f) (fun k => cfc f p k * (u k * npow e n * v q)) = Sum (s_nc f) (fun k => cfc f p k * u k) * v q * npow e n) by (rewrite <- !Sum_mul_r; apply Sum_ext; intros; ring).
    assert (A2 : Sum (s_nc f) (fun k => (u p * npow e n * v k) * cfc f k q) = u p * Sum (s_nc f) (fun k => cfc f q k * v k) * npow e n) by (rewrite <- Sum_mul_l, <- Sum_mul_r; apply Sum_ext; intros; rewrite (cfc_sym f q); ring).
    rewrite A1, A2. ring.
Qed.
Lemma rot_re m (c : mat) (z : list cpole) n p q : re_moment (map (rot_pole m c) z) n p q = cvc m c (re_moment z n) p q.
Proof.
  unfold re_moment, cvc. rewrite Lsum_map. transitivity (Lsum z (fun z : cpole => Sum m (fun k => Sum m (fun l => c p k * (let '(e, (lr, li), (rr, ri)) := z in (lr k * rr l - li k * ri l) * npow e n) * c q l)))).
  - apply Lsum_ext. intros [[e [lr li]] [rr ri]] _. cbn [rot_pole]. unfold mv. transitivity (Sum m (fun k => c p k * lr k) * Sum m (fun k => c q k * rr k) * npow e n - Sum m (fun k => c p k * li k) * Sum m (fun k => c q k * ri k) * npow e n); [ring|].
    rewrite !Sum_mul_Sum, <- !Sum_mul_r, <- Sum_sub. apply Sum_ext. intros k _. rewrite <- !Sum_mul_r, <- Sum_sub. apply Sum_ext. intros. ring.
  - rewrite Lsum_Sum. apply Sum_ext. intros k _. rewrite Lsum_Sum. apply Sum_ext. intros l _. rewrite Lsum_mul_r, Lsum_mul_l. reflexivity.
Qed.
Lemma rot_im m (c : mat) (z : list cpole) n p q : im_moment (map (rot_pole m c) z) n p q = cvc m c (im_moment z n) p q.
Proof.
  unfold im_moment, cvc. rewrite Lsum_map. transitivity (Lsum z (fun z : cpole => Sum m (fun k => Sum m (fun l => c p k * (let '(e, (lr, li), (rr, ri)) := z in (lr k * ri l + li k * rr l) * npow e n) * c q l)))).
  - apply Lsum_ext. intros [[e [lr li]] [rr ri]] _. cbn [rot_pole]. unfold mv. transitivity (Sum m (fun k => c p k * lr k) * Sum m (fun k => c q k * ri k) * npow e n + Sum m (fun k => c p k * li k) * Sum m (fun k => c q k * rr k) * npow e n); [ring|].
    rewrite !Sum_mul_Sum, <- !Sum_mul_r, <- Sum_add. apply Sum_ext. intros k _. rewrite <- !Sum_mul_r, <- Sum_add. apply Sum_ext. intros. ring.
  - rewrite Lsum_Sum. apply Sum_ext. intros k _. rewrite Lsum_Sum. apply Sum_ext. intros l _. rewrite Lsum_mul_r, Lsum_mul_l. reflexivity.
Qed.
Notation lehmann1 := (lehmann1 half sq children svd eigh).
Definition decomposed (use_svd : bool) (tol : K) (f : sfrag) : Prop := forall e u v, In (e, u, v) (s_se f) -> if use_svd then svd_ok tol (s_nc f) (sym_coup half f u v) else eigh_ok tol (s_nc f) (sym_coup half f u v).
(** The poles have the moments of make_self_energy_moments, and these are real *)
Theorem C67_poles us (use_svd : bool) tol frags z : (forall f, In f frags -> decomposed use_svd tol f) -> lehmann1 us use_svd tol frags = Ret z ->
  forall n p q, re_moment z n p q = fst (fst (make_moments us 1 frags)) n p q /\ im_moment z n p q = 0.
Proof.
  intros HD E n p q. rewrite (proj1 (moments_sum us 1 frags)). revert z E HD. induction frags as [|f l IH]; intros z E HD; cbn [M_SelfEnergy.lehmann1] in E.
  - injection E as <-. split; reflexivity.
  - destruct (all_poles _ _) as [y| | |] eqn:Ey; try discriminate. cbn [rbind] in E. assert (E' : rbind (lehmann1 us use_svd tol l) (fun rest => Ret (map (rot_pole (s_nc f) (s_mc f)) y ++ flat_map (fun c => map (rot_pole (s_nc f) (s_mc c)) y) (kids us f) ++ rest)) = Ret z)
      by (destruct (s_se f); [discriminate|exact E]). clear E.
    destruct (lehmann1 us use_svd tol l) as [w| | |] eqn:Ew; try discriminate. cbn [rbind] in E'. injection E' as <-.
    destruct (IH w eq_refl (fun g Hg => HD g (or_intror Hg))) as [IR II]. cbn [Lsum] in IR |- *. rewrite <- IR.
    assert (T : forall g, re_moment (map (rot_pole (s_nc f) (s_mc g)) y) n p q = t_mom 1 n f g p q /\ im_moment (map (rot_pole (s_nc f) (s_mc g)) y) n p q = 0).
    { intros g. rewrite rot_re, rot_im. cbn [t_mom]. split.
      - apply cvc_ext; [split; reflexivity|]. intros k j Hk Hj. apply (all_moment use_svd tol f (s_se f) y n k j (HD f (or_introl eq_refl)) Ey Hk Hj).
      - unfold cvc. apply Sum_0. intros k Hk. apply Sum_0. intros j Hj. rewrite (proj2 (all_moment use_svd tol f (s_se f) y n k j (HD f (or_introl eq_refl)) Ey Hk Hj)). ring. }
    unfold re_moment at 1, im_moment at 1. rewrite !Lsum_app, !Lsum_flat_map. split.
    + change (re_moment (map (rot_pole (s_nc f) (s_mc f)) y) n p q + (Lsum (kids us f) (fun g => re_moment (map (rot_pole (s_nc f) (s_mc g)) y) n p q) + re_moment w n p q) = t_mom 1 n f f p q + Lsum (kids us f) (fun g => t_mom 1 n f g p q) + re_moment w n p q).
      rewrite (proj1 (T f)). rewrite (Lsum_ext (kids us f) _ (fun g => t_mom 1 n f g p q)) by (intros; apply T). ring.
    + change (im_moment (map (rot_pole (s_nc f) (s_mc f)) y) n p q + (Lsum (kids us f) (fun g => im_moment (map (rot_pole (s_nc f) (s_mc g)) y) n p q) + im_moment w n p q) = 0).
      rewrite (proj2 (T f)), II, (Lsum_0 (kids us f)) by (intros; apply T). ring.
Qed.

(** ** No more than two poles from one *)
Lemma mul_neq0 (x y : K) : x <> 0 -> y <> 0 -> x * y <> 0.
Proof.
  assert (P : forall a b : K, lt 0 a -> lt 0 b -> a * b <> 0) by (intros a b Ha Hb E; pose proof (ltb_mul K a b Ha Hb) as H; rewrite E in H; apply (lt_irrefl (K := K) 0 H)).
  intros Hx Hy E. destruct (ltb_total K x 0) as [A|[A|A]]; [|contradiction|]; (destruct (ltb_total K y 0) as [B|[B|B]]; [|contradiction|]).
  - apply (P (- x) (- y)); [apply lt0_opp; exact A|apply lt0_opp; exact B|]. rewrite <- E. ring.
  - apply (P (- x) y); [apply lt0_opp; exact A|exact B|]. transitivity (- (x * y)); [ring|rewrite E; ring].
  - apply (P x (- y)); [exact A|apply lt0_opp; exact B|]. transitivity (- (x * y)); [ring|rewrite E; ring].
  - apply (P x y A B E).
Qed.
Definition dotv (n : nat) (u v : vec) : K := Sum n (fun p => u p * v p).
(** singular vectors: m v = s u, with orthonormal u; eigenvectors are the case u = v *)
Definition vectors (n : nat) (m : mat) (l : list (@pole K)) : Prop := (forall s u v, In (s, u, v) l -> dotv n u u = 1 /\ forall p, (p < n)%nat -> Sum n (fun q => m p q * v q) = s * u p) /\
  ForallOrdPairs (fun y z : pole => dotv n (snd (fst y)) (snd (fst z)) = 0) l.
Lemma FOP_filter {A} (R : A -> A -> Prop) b (l : list A) : ForallOrdPairs R l -> ForallOrdPairs R (filter b l).
Proof.
  induction 1 as [|a l Ha _ IH]; cbn [filter]; [constructor|]. destruct (b a); [|exact IH]. constructor; [|exact IH]. rewrite Forall_forall in *. intros x Hx. apply Ha. apply filter_In in Hx. apply Hx.
Qed.
Lemma rank2 n (a b c d : vec) (l : list (@pole K)) (bb : @pole K -> bool) : (forall y, bb y = true -> fst (fst y) <> 0) -> vectors n (fun p q => a p * b q + c p * d q) l -> (length (filter bb l) <= 2)%nat.
Proof.
  intros Hbb [H1 H2]. pose proof (FOP_filter _ bb l H2) as HF.
  assert (HI : forall y, In y (filter bb l) -> In y l /\ fst (fst y) <> 0) by (intros y Hy; apply filter_In in Hy; split; [apply Hy|apply Hbb; apply Hy]).
  destruct (filter bb l) as [|[[s1 u1] v1] [|[[s2 u2] v2] [|[[s3 u3] v3] r]]]; cbn [length]; try lia. exfalso.
  inversion HF as [|? ? F1 HF' EE]; subst. inversion HF' as [|? ? F2 _ EE]; subst. rewrite Forall_forall in F1, F2.
  pose proof (F1 (s2, u2, v2) (or_introl eq_refl)) as O12. pose proof (F1 (s3, u3, v3) (or_intror (or_introl eq_refl))) as O13. pose proof (F2 (s3, u3, v3) (or_introl eq_refl)) as O23. cbn [fst snd] in O12, O13, O23.
  destruct (HI (s1, u1, v1)) as [I1 N1]; [left; reflexivity|]. destruct (HI (s2, u2, v2)) as [I2 N2]; [right; left; reflexivity|]. destruct (HI (s3, u3, v3)) as [I3 N3]; [right; right; left; reflexivity|]. cbn [fst] in N1, N2, N3.
  destruct (H1 _ _ _ I1) as [U1 M1]. destruct (H1 _ _ _ I2) as [U2 M2]. destruct (H1 _ _ _ I3) as [U3 M3].
  assert (X : forall u s u' v', (forall p, (p < n)%nat -> Sum n (fun q => (a p * b q + c p * d q) * v' q) = s * u' p) -> dotv n u a * dotv n b v' + dotv n u c * dotv n d v' = s * dotv n u u').
  { intros u s u' v' HM. unfold dotv. rewrite !Sum_mul_Sum, <- Sum_mul_l, <- Sum_add. apply Sum_ext. intros p Hp. transitivity (u p * (s * u' p)); [|ring]. rewrite <- (HM p Hp), <- Sum_mul_l, <- Sum_add. apply Sum_ext. intros. ring. }
  assert (S : forall u v, dotv n u v = dotv n v u) by (intros; unfold dotv; apply Sum_ext; intros; ring).
  pose proof (X u1 s1 u1 v1 M1) as X11. pose proof (X u1 s2 u2 v2 M2) as X12. pose proof (X u1 s3 u3 v3 M3) as X13.
  pose proof (X u2 s1 u1 v1 M1) as X21. pose proof (X u2 s2 u2 v2 M2) as X22. pose proof (X u2 s3 u3 v3 M3) as X23.
  pose proof (X u3 s1 u1 v1 M1) as X31. pose proof (X u3 s2 u2 v2 M2) as X32. pose proof (X u3 s3 u3 v3 M3) as X33.
  rewrite U1 in X11. rewrite U2 in X22. rewrite U3 in X33. rewrite O12 in X12. rewrite O13 in X13. rewrite O23 in X23. rewrite (S u2 u1), O12 in X21. rewrite (S u3 u1), O13 in X31. rewrite (S u3 u2), O23 in X32.
  apply (mul_neq0 (s1 * s2) s3 (mul_neq0 s1 s2 N1 N2) N3).
  generalize dependent (dotv n u1 a). generalize dependent (dotv n u1 c). generalize dependent (dotv n u2 a). generalize dependent (dotv n u2 c). generalize dependent (dotv n u3 a). generalize dependent (dotv n u3 c).
  generalize (dotv n b v1), (dotv n b v2), (dotv n b v3), (dotv n d v1), (dotv n d v2), (dotv n d v3). intros b1 b2 b3 d1 d2 d3 c3 a3 X31 X32 X33 c2 a2 X21 X22 X23 c1 a1 X11 X12 X13.
  transitivity ((a1 * b1 + c1 * d1) * ((a2 * b2 + c2 * d2) * (a3 * b3 + c3 * d3) - (a2 * b3 + c2 * d3) * (a3 * b2 + c3 * d2))
    - (a1 * b2 + c1 * d2) * ((a2 * b1 + c2 * d1) * (a3 * b3 + c3 * d3) - (a2 * b3 + c2 * d3) * (a3 * b1 + c3 * d1))
    + (a1 * b3 + c1 * d3) * ((a2 * b1 + c2 * d1) * (a3 * b2 + c3 * d2) - (a2 * b2 + c2 * d2) * (a3 * b1 + c3 * d1))); [|ring].
  rewrite X11, X12, X13, X21, X22, X23, X31, X32, X33. ring.
Qed.
Lemma above_tol (tol s : K) : le 0 tol -> ltb tol (absK s) = true -> s <> 0.
Proof.
  intros H E ->. apply (proj1 (le_nlt (K := K) 0 tol) H). unfold absK in E. rewrite ltb_irrefl in E. exact E.
Qed.
(** The assertions that at most two singular values or eigenvalues are kept never fail *)
Theorem C67_assertion_svd tol f e u v : le 0 tol -> vectors (s_nc f) (sym_coup half f u v) (svd (s_nc f) (sym_coup half f u v)) -> split_svd tol f (e, u, v) <> AssertErr.
Proof.
  intros Ht HV. unfold M_SelfEnergy.split_svd. cbv zeta.
  assert (L : (length (filter (fun y : pole => ltb tol (absK (fst (fst y)))) (svd (s_nc f) (sym_coup half f u v))) <= 2)%nat).
  { apply (rank2 (s_nc f) (fun p => half * mv (s_nc f) (cfc f) u p) v (fun p => half * u p) (fun q => mv (s_nc f) (cfc f) v q)).
    - intros y Hy. apply (above_tol tol); assumption.
    - destruct HV as [H1 H2]. split; [|exact H2]. intros s a b Hi. destruct (H1 s a b Hi) as [N M]. split; [exact N|]. intros p Hp. rewrite <- (M p Hp). apply Sum_ext. intros. unfold sym_coup. ring. }
  apply Nat.leb_le in L. rewrite L. discriminate.
Qed.
Theorem C67_assertion_eigh tol f e u v : le 0 tol -> vectors (s_nc f) (sym_coup half f u v) (map (fun y : K * vec => (fst y, snd y, snd y)) (eigh (s_nc f) (sym_coup half f u v))) -> split_eigh tol f (e, u, v) <> AssertErr.
Proof.
  intros Ht HV. unfold M_SelfEnergy.split_eigh. cbv zeta.
  assert (L : (length (filter (fun y : K * vec => ltb tol (absK (fst y))) (eigh (s_nc f) (sym_coup half f u v))) <= 2)%nat).
  { assert (L : (length (filter (fun y : pole => ltb tol (absK (fst (fst y)))) (map (fun y : K * vec => (fst y, snd y, snd y)) (eigh (s_nc f) (sym_coup half f u v)))) <= 2)%nat).
    { apply (rank2 (s_nc f) (fun p => half * mv (s_nc f) (cfc f) u p) v (fun p => half * u p) (fun q => mv (s_nc f) (cfc f) v q)).
      - intros y Hy. apply (above_tol tol); assumption.
      - destruct HV as [H1 H2]. split; [|exact H2]. intros s a b Hi. destruct (H1 s a b Hi) as [N M]. split; [exact N|]. intros p Hp. rewrite <- (M p Hp). apply Sum_ext. intros. unfold sym_coup. ring. }
    clear HV. induction (eigh _ _) as [|[s w] l IH]; cbn [map filter fst snd length] in *; [lia|]. destruct (ltb tol (absK s)); cbn [length] in *; [|apply IH; exact L]. assert (X : (length (filter (fun y : pole => ltb tol (absK (fst (fst y)))) (map (fun y : K * vec => (fst y, snd y, snd y)) l)) = length (filter (fun y : K * vec => ltb tol (absK (fst y))) l))%nat).
    { clear. induction l as [|[s w] l IH]; cbn [map filter fst snd length]; [reflexivity|]. destruct (ltb tol (absK s)); cbn [length]; rewrite IH; reflexivity. } lia. }
  apply Nat.leb_le in L. rewrite L. discriminate.
Qed.

(** ** Grouping of degenerate energies *)
Notation get_unique := (get_unique inv). Notation remove_degeneracy := (remove_degeneracy inv sq eigh).
Lemma run_len_le atol (x : K) l : (run_len atol x l <= length l)%nat.
Proof. induction l as [|y l IH]; cbn [run_len length]; [lia|]. destruct (ltb _ _); lia. Qed.
Lemma run_len_close atol (x : K) l y : In y (firstn (run_len atol x l) l) -> ltb (absK (x - y)) atol = true.
Proof. induction l as [|z l IH]; cbn [run_len]; [intros []|]. destruct (ltb (absK (x - z)) atol) eqn:E; [|intros []]. cbn [firstn]. intros [<-|H]; [exact E|apply IH; exact H]. Qed.
Lemma run_len_next atol (x : K) l y r : skipn (run_len atol x l) l = y :: r -> ltb (absK (x - y)) atol = false.
Proof. induction l as [|z l IH]; cbn [run_len]; [discriminate|]. destruct (ltb (absK (x - z)) atol) eqn:E; [exact IH|]. cbn [skipn]. intros H. injection H as <- <-. exact E. Qed.
(** the slices, one after the other, are the array; in each, all entries are closer than atol to the first; the first entry of the next slice is not *)
Fixpoint chain (atol : K) (gs : list (list K)) : Prop := match gs with
  | [] => True
  | g :: gs => (exists x r, g = x :: r /\ (forall y, In y r -> lt (absK (x - y)) atol) /\ (forall y r' gs', gs = (y :: r') :: gs' -> ~ lt (absK (x - y)) atol)) /\ chain atol gs
  end.
Lemma skipn_add {A} n m (l : list A) : skipn (n + m) l = skipn m (skipn n l).
Proof. revert l. induction n as [|n IH]; intros l; [reflexivity|]. destruct l; cbn [skipn plus]; [destruct m; reflexivity|apply IH]. Qed.
Lemma slices_ok {A} (L : list A) (en : A -> K) atol : forall fuel i l, (length l <= fuel)%nat -> skipn i L = l ->
  concat (map (fun s => cut s L) (slices fuel atol i (map en l))) = l /\ chain atol (map (fun s => map en (cut s L)) (slices fuel atol i (map en l))).
Proof.
  induction fuel as [|fuel IH]; intros i l Hl Hs.
  - destruct l; [|cbn in Hl; lia]. split; [reflexivity|exact I].
  - destruct l as [|x l]; [split; [reflexivity|exact I]|]. cbn [map slices]. set (j := run_len atol (en x) (map en l)).
    assert (Hj : (j <= length l)%nat) by (unfold j; rewrite <- (map_length en l); apply run_len_le).
    cbn [length] in Hl. replace (S j - 1)%nat with j by lia. cbn [map concat].
    assert (E1 : cut (i, (i + S j)%nat) L = x :: firstn j l) by (unfold cut; cbn [fst snd]; rewrite Hs; replace (i + S j - i)%nat with (S j) by lia; reflexivity).
    assert (E2 : skipn (i + S j) L = skipn j l) by (rewrite skipn_add, Hs; reflexivity).
    destruct (IH (i + S j)%nat (skipn j l) ltac:(rewrite skipn_length; lia) E2) as [C1 C2]. rewrite skipn_map. rewrite E1, C1. split; [cbn [app]; f_equal; apply firstn_skipn|]. cbn [map chain]. split; [|exact C2].
    exists (en x), (map en (firstn j l)). split; [reflexivity|]. split.
    + intros y Hy. rewrite <- firstn_map in Hy. exact (run_len_close atol (en x) (map en l) y Hy).
    + intros y r' gs' Hg. destruct (skipn j l) as [|y0 r0] eqn:Ey; [destruct fuel; discriminate|].
      assert (y = en y0).
      { destruct fuel as [|fuel]; [discriminate|]. cbn [map slices] in Hg. injection Hg as Hg _. revert Hg. unfold cut at 1. cbn [fst snd]. rewrite E2. match goal with |- context [firstn ?n _] => replace n with (S (n - 1)) by lia end. cbn [firstn map]. intros H. injection H. auto. }
      subst y. unfold lt. rewrite (run_len_next atol (en x) (map en l) (en y0) (map en r0)); [discriminate|]. rewrite skipn_map. fold j. rewrite Ey. reflexivity.
Qed.
Theorem C67_unique atol l : let r := get_unique atol l in concat (map (fun g => cut (snd g) l) r) = l /\ chain atol (map (fun g => cut (snd g) l) r) /\
  (forall e s, In (e, s) r -> e = inv (length (cut s l)) * Lsum (cut s l) (fun x => x)).
Proof.
  cbv zeta. unfold M_SelfEnergy.get_unique. rewrite !map_map. cbn [snd]. destruct (slices_ok l (fun x => x) atol (length l) 0 l (le_n _) eq_refl) as [A B]. rewrite map_id in A, B. split; [exact A|]. split.
  - erewrite map_ext; [exact B|]. intros. symmetry. apply map_id.
  - intros e s H. apply in_map_iff in H. destruct H as (s' & E & _). injection E as <- <-. reflexivity.
Qed.
(** couplings of a group of poles as one matrix *)
Definition group_mat (l : list (@cpole K)) : mat := fun p q => Lsum l (fun z => let '(_, (lr, li), (rr, ri)) := z in lr p * rr q - li p * ri q).
Lemma new_poles_moment (drop : bool) etol g (l : list (K * vec)) n p q : (forall y, In y l -> le 0 (fst y) /\ if (if drop then ltb etol (fst y) else ltb etol (absK (fst y))) then sq (fst y) * sq (fst y) = fst y else fst y = 0) ->
  moment (map (fun y : K * vec => let w := fst (csqrt sq (fst y) (snd y)) in (g, w, w)) (filter (fun y : K * vec => if drop then ltb etol (fst y) else ltb etol (absK (fst y))) l)) n p q = Lsum l (fun y => snd y p * fst y * snd y q) * npow g n.
Proof.
  intros HZ. unfold moment. rewrite Lsum_map, <- Lsum_mul_r. cbv zeta. cbn beta iota.
  rewrite <- (Lsum_filter l (fun y : K * vec => if drop then ltb etol (fst y) else ltb etol (absK (fst y))) (fun a => snd a p * fst a * snd a q * npow g n)).
  - apply Lsum_ext. intros y Hy. apply filter_In in Hy. destruct Hy as [Hy Hk]. destruct (HZ y Hy) as [L R]. rewrite Hk in R. unfold csqrt. rewrite le_nlt in L. unfold lt in L. destruct (ltb (fst y) 0); [congruence|]. cbn [fst]. transitivity (snd y p * (sq (fst y) * sq (fst y)) * snd y q * npow g n); [ring|rewrite R; reflexivity].
  - intros y Hy Hf. pose proof (proj2 (HZ y Hy)) as R. rewrite Hf in R. rewrite R. ring.
Qed.
(** eigenvalue decomposition of a matrix without negative eigenvalues; those that are dropped vanish *)
Definition psd_ok (drop : bool) (etol : K) (n : nat) (m : mat) : Prop := (forall y, In y (eigh n m) -> le 0 (fst y) /\ if (if drop then ltb etol (fst y) else ltb etol (absK (fst y))) then sq (fst y) * sq (fst y) = fst y else fst y = 0) /\
  forall p q, (p < n)%nat -> (q < n)%nat -> Lsum (eigh n m) (fun y => snd y p * fst y * snd y q) = m p q.
Theorem C67_degeneracy m dtol etol drop se r : (forall k, (0 < k)%nat -> inv k * nK k = 1) ->
  (forall s, In s (slices (length se) dtol 0 (map (fun z : cpole => fst (fst z)) se)) -> psd_ok drop etol m (group_mat (cut s se))) ->
  remove_degeneracy m dtol etol drop se = Ret r ->
  (forall p q, (p < m)%nat -> (q < m)%nat -> moment r 0 p q = re_moment se 0 p q) /\
  ((forall x y : cpole, In x se -> In y se -> lt (absK (fst (fst x) - fst (fst y))) dtol -> fst (fst x) = fst (fst y)) ->
   forall n p q, (p < m)%nat -> (q < m)%nat -> moment r n p q = re_moment se n p q).
Proof.
  intros HI HO E. unfold M_SelfEnergy.remove_degeneracy in E. set (gs := get_unique dtol (map (fun z : cpole => fst (fst z)) se)) in E. cbv zeta in E.
  assert (E' : r = flat_map (fun g : K * (nat * nat) => map (fun y : K * vec => let w := fst (csqrt sq (fst y) (snd y)) in (fst g, w, w))
     (filter (fun y : K * vec => if drop then ltb etol (fst y) else ltb etol (absK (fst y))) (eigh m (group_mat (cut (snd g) se))))) gs) by (destruct gs; [discriminate|]; injection E as <-; reflexivity). clear E.
  pose proof (slices_ok se (fun z : cpole => fst (fst z)) dtol (length se) 0 se (le_n _) eq_refl) as [SC SH]. set (sl := slices (length se) dtol 0 (map (fun z : cpole => fst (fst z)) se)) in *.
  assert (EG : gs = map (fun s => (mean inv (cut s (map (fun z : cpole => fst (fst z)) se)), s)) sl) by (unfold gs, M_SelfEnergy.get_unique; rewrite map_length; reflexivity).
  assert (M : forall n p q, (p < m)%nat -> (q < m)%nat -> moment r n p q = Lsum sl (fun s => group_mat (cut s se) p q * npow (mean inv (cut s (map (fun z : cpole => fst (fst z)) se))) n)).
  { intros n p q Hp Hq. rewrite E', EG. unfold moment. rewrite Lsum_flat_map, Lsum_map. apply Lsum_ext. intros s Hs. cbn [fst snd]. destruct (HO s Hs) as [O1 O2]. rewrite <- (O2 p q Hp Hq).
    apply (new_poles_moment drop etol _ _ n p q). exact O1. }
  assert (R : forall n p q, re_moment se n p q = Lsum sl (fun s => re_moment (cut s se) n p q)) by (intros n p q; rewrite <- SC at 1; unfold re_moment; rewrite Lsum_concat, Lsum_map; reflexivity).
  split.
  - intros p q Hp Hq. rewrite M, R by assumption. apply Lsum_ext. intros s _. unfold re_moment, group_mat. cbn [npow]. rewrite <- Lsum_mul_r. apply Lsum_ext. intros [[e [? ?]] [? ?]] _. reflexivity.
  - intros HE n p q Hp Hq. rewrite M, R by assumption. apply Lsum_ext. intros s Hs.
    assert (In1 : forall z, In z (cut s se) -> In z se) by (intros z Hz; rewrite <- SC; apply in_concat; exists (cut s se); split; [apply in_map_iff; exists s; auto|exact Hz]).
    assert (G : exists x, forall z : cpole, In z (cut s se) -> fst (fst z) = x).
    { clear - SH Hs HE In1. induction sl as [|s' sl IH]; [destruct Hs|]. cbn [map chain] in SH. destruct SH as [(x & r & Eg & Hc & _) SH]. destruct Hs as [->|Hs]; [|apply IH; assumption]. exists x.
      destruct (cut s se) as [|z0 zs] eqn:Ez; [discriminate|]. cbn [map] in Eg. injection Eg as Ex Er. intros z [<-|Hz]; [exact Ex|]. rewrite <- Ex. symmetry. apply HE; [apply In1; left; reflexivity|apply In1; right; exact Hz|]. rewrite Ex. apply Hc. rewrite <- Er. apply in_map_iff. exists z. auto. }
    destruct G as [x G]. assert (NE : (0 < length (cut s se))%nat).
    { clear - SH Hs. induction sl as [|s' sl IH]; [destruct Hs|]. cbn [map chain] in SH. destruct SH as [(y & r & Eg & _) SH]. destruct Hs as [->|Hs]; [|apply IH; assumption]. destruct (cut s se); [discriminate|cbn; lia]. }
    assert (EM : mean inv (cut s (map (fun z : cpole => fst (fst z)) se)) = x).
    { assert (EC : cut s (map (fun z : cpole => fst (fst z)) se) = map (fun z : cpole => fst (fst z)) (cut s se)) by (unfold cut; rewrite skipn_map, firstn_map; reflexivity). unfold mean. rewrite EC, map_length, Lsum_map. rewrite (Lsum_ext _ _ (fun _ => x)) by exact G. rewrite Lsum_const.
      transitivity (inv (length (cut s se)) * nK (length (cut s se)) * x); [ring|]. rewrite HI by exact NE. ring. }
    rewrite EM. unfold group_mat, re_moment. rewrite <- Lsum_mul_r. apply Lsum_ext. intros [[e [? ?]] [? ?]] Hz. pose proof (G _ Hz) as Ge. cbn [fst] in Ge. rewrite Ge. reflexivity.
Qed.
(** Whether non-causal poles (negative eigenvalues) are dropped or kept makes no difference to any moment: those that are kept get vanishing couplings *)
Theorem C67_non_causal_refuted m dtol etol se r r' : le 0 etol -> remove_degeneracy m dtol etol false se = Ret r -> remove_degeneracy m dtol etol true se = Ret r' ->
  forall n p q, moment r n p q = moment r' n p q.
Proof.
  intros Ht E E' n p q. unfold M_SelfEnergy.remove_degeneracy in E, E'. cbv zeta in E, E'. set (gs := get_unique dtol (map (fun z : cpole => fst (fst z)) se)) in *.
  assert (X : forall drop, moment (flat_map (fun g : K * (nat * nat) => map (fun y : K * vec => let w := fst (csqrt sq (fst y) (snd y)) in (fst g, w, w))
     (filter (fun y : K * vec => if drop : bool then ltb etol (fst y) else ltb etol (absK (fst y))) (eigh m (group_mat (cut (snd g) se))))) gs) n p q
    = Lsum gs (fun g => Lsum (eigh m (group_mat (cut (snd g) se))) (fun y => if ltb etol (fst y) then let w := fst (csqrt sq (fst y) (snd y)) in w p * npow (fst g) n * w q else 0))).
  { intros drop. unfold moment. rewrite Lsum_flat_map. apply Lsum_ext. intros g _. rewrite Lsum_map. cbv zeta. cbn beta iota. induction (eigh m _) as [|y l IH]; [reflexivity|]. cbn [filter].
    assert (N : ltb etol (fst y) = false -> ltb etol (absK (fst y)) = true -> fst (csqrt sq (fst y) (snd y)) p = 0).
    { unfold csqrt, absK. intros A B. destruct (ltb (fst y) 0); [reflexivity|congruence]. }
    destruct drop; cbn [Lsum].
    - destruct (ltb etol (fst y)) eqn:T; cbn [Lsum]; rewrite IH; [reflexivity|ring].
    - destruct (ltb etol (absK (fst y))) eqn:T; cbn [Lsum]; rewrite IH; destruct (ltb etol (fst y)) eqn:T'.
      + reflexivity.
      + rewrite (N eq_refl eq_refl). ring.
      + exfalso. unfold absK in T. destruct (ltb (fst y) 0) eqn:Z; [|congruence]. destruct (le_lt_eq (K := K) 0 etol) as [W _]. destruct (W Ht) as [W'|W']; [apply (lt_asym _ _ (lt_tr _ _ _ W' T') Z)|rewrite <- W' in T'; exact (lt_asym _ _ T' Z)].
      + ring. }
  transitivity (Lsum gs (fun g => Lsum (eigh m (group_mat (cut (snd g) se))) (fun y => if ltb etol (fst y) then let w := fst (csqrt sq (fst y) (snd y)) in w p * npow (fst g) n * w q else 0))).
  - rewrite <- (X false). destruct gs; [discriminate|]. injection E as <-. reflexivity.
  - rewrite <- (X true). destruct gs; [discriminate|]. injection E' as <-. reflexivity.
Qed.
(** All of make_self_energy_1proj: its poles have the moments of make_self_energy_moments *)
Theorem C67_lehmann us (use_svd : bool) nmo dtol etol drop frags se st : (forall k, (0 < k)%nat -> inv k * nK k = 1) -> (forall f, In f frags -> decomposed use_svd etol f) ->
  (forall z, lehmann1 us use_svd etol frags = Ret z ->
     (forall s, In s (slices (length z) dtol 0 (map (fun y : cpole => fst (fst y)) z)) -> psd_ok drop etol nmo (group_mat (cut s z))) /\
     (forall x y : cpole, In x z -> In y z -> lt (absK (fst (fst x) - fst (fst y))) dtol -> fst (fst x) = fst (fst y))) ->
  make_1proj half inv sq static_pot children nao fock svd eigh us use_svd nmo dtol etol drop frags = Ret (se, st) ->
  let m := make_moments us 1 frags in
  (forall n p q, (p < nmo)%nat -> (q < nmo)%nat -> moment se n p q = fst (fst m) n p q) /\ fst st = snd (fst m) /\ snd st = snd m.
Proof.
  intros HI HD HZ E m. unfold make_1proj in E. destruct (lehmann1 us use_svd etol frags) as [z| | |] eqn:El; try discriminate. cbn [rbind] in E.
  assert (E' : rbind (remove_degeneracy nmo dtol etol drop z) (fun se => Ret (se, statics (make_moments us 1 frags))) = Ret (se, st)) by (destruct frags; [discriminate|exact E]). clear E.
  destruct (remove_degeneracy nmo dtol etol drop z) as [w| | |] eqn:Ew; try discriminate. cbn [rbind] in E'. injection E' as <- <-.
  destruct (HZ z eq_refl) as [Z1 Z2]. destruct (C67_degeneracy nmo dtol etol drop z w HI Z1 Ew) as [_ D]. split; [|split; reflexivity].
  intros n p q Hp Hq. rewrite (D Z2 n p q Hp Hq). apply (C67_poles us use_svd etol frags z HD El).
Qed.
End SE.

(** ** Concrete cases: rational numbers *)
Section Cases.
Definition qo (n : Z) (d : positive) : QO := q n d.
Add Ring Qor : (rth QO).
Notation mat := (nat -> nat -> QO). Notation vec := (nat -> QO). Notation lehm := (list (@pole QO)).
Ltac qq := first [apply eqq_ok; vm_compute; reflexivity | apply neqq; vm_compute; reflexivity].
Ltac lts := repeat match goal with H : (_ < 1)%nat |- _ => apply Nat.lt_1_r in H; subst | H : (?i < 2)%nat |- _ => destruct i as [|[|?]]; [clear H|clear H|exfalso; lia] end.
Definition hf : QO := qo 1 2.
Definition qinv (k : nat) : QO := q 1 (Pos.of_nat k).
Lemma qinv_ok k : (0 < k)%nat -> qinv k * nK k = 1.
Proof.
  intros H. assert (E : forall n, nK (K := QO) n = Q2Qc (Z.of_nat n # 1)).
  { induction n as [|n IH]; [apply eqq_ok; vm_compute; reflexivity|]. cbn [nK]. rewrite IH. apply Qc_is_canon. change (Qred (this (Q2Qc (Z.of_nat n # 1)) + 1) == Qred (Z.of_nat (S n) # 1))%Q || change (Qred (1 + this (Q2Qc (Z.of_nat n # 1))) == Qred (Z.of_nat (S n) # 1))%Q.
    rewrite !Qred_correct. cbn [this Q2Qc]. rewrite Qred_correct. unfold Qeq, Qplus. cbn [Qnum Qden]. lia. }
  rewrite E. unfold qinv, q. apply Qc_is_canon. change (Qred (this (Q2Qc (1 # Pos.of_nat k)) * this (Q2Qc (Z.of_nat k # 1))) == 1)%Q. cbn [this Q2Qc]. rewrite !Qred_correct. unfold Qeq, Qmult. cbn [Qnum Qden]. lia.
Qed.
(** rotation by an angle with cosine 3/5, the identity, the first or second orbital *)
Definition rot : mat := fun i j => match i, j with O, O => qo 3 5 | O, _ => qo 4 5 | S _, O => qo 4 5 | _, _ => qo (-3) 5 end.
Definition one : mat := fun i j => if Nat.eqb i j then qo 1 1 else qo 0 1.
Definition unit (i : nat) : vec := one i.
Definition row (c : mat) (i : nat) : mat := fun _ k => c i k.
Definition col (i : nat) : mat := fun p _ => one p i.
(** a system of two orbitals: Fock matrix, static self-energy, poles of the self-energy *)
Definition fk : mat := fun i j => match i, j with O, O => qo (-2) 1 | S _, S _ => qo 3 1 | _, _ => qo 1 2 end.
Definition sinf : mat := fun i j => match i, j with O, O => qo 1 1 | S _, S _ => qo (-1) 3 | _, _ => qo 2 1 end.

Definition v34 : vec := fun i => match i with O => qo 3 1 | _ => qo 4 1 end.
Definition v15 : vec := fun i => match i with O => qo 1 1 | _ => qo (-5) 2 end.
Definition poles1 : lehm := [(qo 2 1, v34, v34)].
Definition poles2 : lehm := [(qo 2 1, v34, v34); (qo (-5) 1, v15, v15)].
(** the potential is taken as the first moment *)
Definition pot (s : lehm) (e : vec) : mat := moment s 1.
(** the system seen by a cluster with orbitals c (relative to the molecular orbitals, which are the columns of rot) *)
Definition down (c : mat) (l : lehm) : lehm := map (fun z : pole => let '(e, u, v) := z in (e, mv 2 (tp c) u, mv 2 (tp c) v)) l.
Definition aos (c : mat) : mat := mm 2 rot c.
Definition fr (c : mat) (i : nat) (l : lehm) : sfrag := Build_sfrag (K := QO) 2 1 c (col i) (row c i) (aos c) (fun a _ => rot a i)
  (fun k l => mm 2 (mm 2 (tp (aos c)) fk) (aos c) k l + cvc 2 (tp c) sinf k l) (down c l).
Definition nokids (f : @sfrag QO) : list (@sfrag QO) := [].
Lemma down_moment c l n p q : moment (down c l) n p q = Sum 2 (fun r => Sum 2 (fun s => c r p * moment l n r s * c s q)).
Proof.
  change (Sum 2 (fun r => Sum 2 (fun s => c r p * moment l n r s * c s q))) with (cvc 2 (tp c) (moment l n) p q).
  pose proof (rot2_moment (Build_sfrag (K := QO) 2 2 c one one c c c l) (tp c) one l n p q ltac:(reflexivity)) as H. cbn [s_nf] in H.
  assert (E : forall (a : mat) (w : vec) i, mv 2 a (mv 2 one w) i = mv 2 a w i).
  { intros a w i. unfold mv. apply Sum_ext. intros k Hk. f_equal. lts; unfold one; cbn [Sum Nat.eqb]; change (qo 1 1) with (@r1 QO); change (qo 0 1) with (@r0 QO); ring. }
  etransitivity; [|etransitivity; [exact H|]].
  - unfold down, moment. rewrite !Lsum_map. apply Lsum_ext. intros [[e u] v] _. unfold rot2. cbn [s_nf s_nc]. rewrite !E. reflexivity.
  - apply cvc_ext; [split; reflexivity|]. intros k l' Hk Hl. unfold two_proj, mm, tp. cbn [s_nc s_fc]. lts; unfold one; cbn [Sum Nat.eqb]; change (qo 1 1) with (@r1 QO); change (qo 0 1) with (@r0 QO); ring.
Qed.
Definition f1 : sfrag := fr rot 0 poles2.
Definition f2 : sfrag := fr one 1 poles2.
Lemma f_spans f : In f [f1; f2] -> spans 2 f.
Proof. intros [<-|[<-|[]]] p q Hp Hq; lts; qq. Qed.
(** clusters in different orbitals, both of the whole system, with one fragment orbital each *)
Example C67_complete_case : let r := make_moments hf pot nokids 2 fk false 1 [f1; f2] in
  (forall n p q, (p < 2)%nat -> (q < 2)%nat -> fst (fst r) n p q = moment poles2 n p q) /\ (forall p q, (p < 2)%nat -> (q < 2)%nat -> snd (fst r) p q = sinf p q) /\ fst (fst r) 1%nat 0%nat 1%nat = qo 73 2.
Proof.
  destruct (C67_complete hf pot nokids 2 fk 2 [f1; f2] (moment poles2) sinf (moment poles2 1) rot) as (A & B & _).
  - qq.
  - intros f Hf. split; [exact (f_spans f Hf)|]. assert (E : exists c i, f = fr c i poles2) by (destruct Hf as [<-|[<-|[]]]; [exists rot, 0%nat; reflexivity|exists one, 1%nat; reflexivity]). destruct E as (c & i & ->).
    split; [|split; [|split]].
    + intros n k l _ _. apply down_moment.
    + intros k l Hk Hl. cbn [s_t1 fr s_ca s_nc s_mc]. set (x := cvc 2 (tp c) sinf k l). replace (mm 2 (mm 2 (tp (aos c)) fk) (aos c) k l) with (Sum 2 (fun a => Sum 2 (fun b => aos c a k * fk a b * aos c b l))).
      * transitivity x; [ring|reflexivity].
      * symmetry. exact (fock_eq 2 fk (fr c i poles2) k l).
    + intros k l Hk Hl. apply down_moment.
    + intros a k. reflexivity.
  - intros [|p] [|q]; reflexivity.
  - intros p q. unfold moment. apply Lsum_ext. intros [[e u] v] H. assert (E : u = v) by (destruct H as [H|[H|[]]]; injection H as _ <- <-; reflexivity). subst v. ring.
  - intros p q Hp Hq. lts; qq.
  - split; [exact A|]. split; [exact B|]. rewrite (A 1 0 1)%nat by lia. qq.
Qed.
Lemma f_iso f : In f [f1; f2] -> isometry 2 (s_nc f) (s_mc f) /\ isometry 2 (s_nf f) (s_mf f).
Proof. intros [<-|[<-|[]]]; split; intros p q Hp Hq; cbn in Hp, Hq; lts; qq. Qed.
Example C67_trace_case : let r := make_moments hf pot nokids 2 fk false 1 [f1; f2] in
  (forall n, trace 2 (fst (fst r) n) = Lsum [f1; f2] (fun f => ftrace f (moment (s_se f) n))) /\ ftrace f1 (moment (s_se f1) 0) = qo 10 1 /\ trace 2 (fst (fst r) 0%nat) = qo 129 4.
Proof.
  destruct (C67_trace hf pot nokids 2 fk 2 [f1; f2] ltac:(qq) (fun f Hf => proj1 (f_iso f Hf))) as [A _]. split; [exact A|]. split; [qq|]. rewrite A. qq.
Qed.
Example C67_two_projectors_trace_refuted_case : let r1 := make_moments hf pot nokids 2 fk false 1 [f1; f2] in let r2 := make_moments hf pot nokids 2 fk false 2 [f1; f2] in
  trace 2 (snd (fst r2)) = trace 2 (snd (fst r1)) /\ trace 2 (fst (fst r2) 0%nat) = qo 129 8 /\ trace 2 (fst (fst r1) 0%nat) = qo 129 4.
Proof.
  destruct (C67_two_projectors_trace_refuted hf pot nokids 2 fk 2 [f1; f2] ltac:(qq) f_iso) as [A B]. destruct C67_trace_case as (_ & _ & T). cbv zeta in *. split; [exact A|]. rewrite B, T. split; [qq|reflexivity].
Qed.
Example C67_two_projectors_refuted_case : let m := make_moments hf pot nokids 2 fk true 2 [f1; f2] in let r := make_2proj hf pot nokids 2 fk true [f1; f2] in
  moment (fst r) 0 1%nat 1%nat = fst (fst m) 0%nat 1%nat 1%nat + fst (fst m) 0%nat 1%nat 1%nat /\ moment (fst r) 0 1%nat 1%nat = qo 89 4.
Proof.
  destruct (C67_two_projectors_refuted hf pot nokids 2 fk true [f1; f2] ltac:(qq)) as [A _]; [intros _ f g _ []|]. split; [apply A|]. qq.
Qed.
Example C67_symmetric_case : let r := make_moments hf pot nokids 2 fk true 1 [f1] in snd (fst r) 0%nat 1%nat = snd (fst r) 1%nat 0%nat /\ fst (fst r) 1%nat 0%nat 1%nat = fst (fst r) 1%nat 1%nat 0%nat /\ fst (fst r) 1%nat 0%nat 1%nat <> 0.
Proof.
  destruct (C67_symmetric hf pot nokids 2 fk true [f1]) as (A & _ & B). cbv zeta in *. split; [apply A|]. split; [apply B|qq].
  intros f n [<-|[]] k l _ _. cbn [s_se f1 fr]. rewrite !down_moment, Sum_swap. apply Sum_ext. intros r Hr. apply Sum_ext. intros t Ht. replace (moment poles2 n t r) with (moment poles2 n r t); [ring|].
  unfold moment. apply Lsum_ext. intros [[e u] v] H. assert (E : u = v) by (destruct H as [H|[H|[]]]; injection H as _ <- <-; reflexivity). subst v. ring.
Qed.
(** a symmetry that exchanges the two atomic orbitals *)
Definition swp (i : nat) : nat := match i with O => 1%nat | _ => 0%nat end.
Definition fks : mat := fun i j => if Nat.eqb i j then qo (-2) 1 else qo 1 2.
Definition p1 : sfrag := Build_sfrag (K := QO) 2 1 rot (col 0) (row rot 0) rot (fun a _ => rot a 0) sinf (down rot poles2).
Definition p2 : sfrag := Build_sfrag (K := QO) 2 1 (fun p k => rot (swp p) k) (col 1) (row rot 0) (fun a k => rot (swp a) k) (fun a _ => rot (swp a) 0) sinf (down rot poles2).
Example C67_symmetry_case proj : (proj = 1 \/ proj = 2)%nat -> let a := make_moments hf pot (fun _ => [p2]) 2 fks true proj [p1] in let b := make_moments hf pot (fun _ => [p2]) 2 fks false proj [p2; p1] in
  (forall n p q, fst (fst a) n p q = fst (fst b) n p q) /\ (forall p q, snd (fst a) p q = snd (fst b) p q) /\ (forall p q, snd a p q = snd b p q) /\ fst (fst a) 0%nat 1%nat 1%nat <> 0.
Proof.
  intros Hp. destruct (C67_symmetry hf pot (fun _ => [p2]) 2 fks ltac:(reflexivity) proj [p1] [p2; p1]) as (A & B & C).
  - intros f g [<-|[]] [<-|[]]. repeat (split; [reflexivity|]). exists (fun a b => one (swp a) b). split; [intros a b Ha Hb; lts; qq|]. intros a k Ha. cbn [s_ca p1 p2]. lts; cbn [Sum swp]; unfold one; cbn [Nat.eqb]; change (qo 1 1) with (@r1 QO); change (qo 0 1) with (@r0 QO); ring.
  - apply perm_swap.
  - cbv zeta in *. split; [exact A|]. split; [exact B|]. split; [exact C|]. destruct Hp as [-> | ->]; qq.
Qed.
(** ** decompositions: of a 2x2 matrix into rows; eigenvalues and vectors of the matrices that occur *)
Definition sqr (x : QO) : QO := if eqq x (qo 25 1) then qo 5 1 else if eqq x (qo 4 1) then qo 2 1 else if eqq x (qo 9 4) then qo 3 2 else x.
Definition svd2 (n : nat) (m : mat) : lehm := [(qo 1 1, unit 0, m 0%nat); (qo 1 1, unit 1, m 1%nat)].
Definition v2 (a b : QO) : vec := fun i => match i with O => a | _ => b end.
Definition eigh2 (n : nat) (m : mat) : list (QO * vec) :=
  if eqq (m 0%nat 1%nat) (qo 12 1) then [(qo 0 1, v2 (qo 4 5) (qo (-3) 5)); (qo 25 1, v2 (qo 3 5) (qo 4 5))]
  else if eqq (m 0%nat 0%nat) (qo 9 1) then [(qo (-4) 1, v2 (qo 0 1) (qo 1 1)); (qo 1 1, v2 (qo 3 1) (qo 2 1))]
  else if eqq (m 0%nat 0%nat) (qo (-1) 1) then [(qo (-1) 1, unit 0); (qo 0 1, unit 1)]
  else [(qo (-9) 4, v2 (qo 1 1) (qo 0 1)); (qo 1 1, v2 (qo 3 2) (qo 4 1))].
Definition g1 : sfrag := fr rot 0 poles1.
Definition g2 : sfrag := fr one 1 poles1.
Definition tol : QO := qo 1 10.
Ltac pick b := match goal with |- context [eqq ?x ?y] => let E := fresh in assert (E : eqq x y = b) by (vm_compute; reflexivity); rewrite E; cbv iota end.
Ltac sok := intros y Hy; repeat (destruct Hy as [<-|Hy]; [cbn [fst]; match goal with |- if ?b then _ else _ => let b' := eval vm_compute in b in change b with b' end; cbv iota; qq|]); destruct Hy.
Lemma g_dec (b : bool) f : In f [g1; g2] -> decomposed hf sqr svd2 eigh2 b tol f.
Proof.
  intros [<-|[<-|[]]] e u v [H|[]]; injection H as <- <- <-; destruct b; unfold svd_ok, eigh_ok, svd2, eigh2.
  - split; [sok|intros p q Hp Hq; cbn in Hp, Hq; lts; qq].
  - pick false. pick true. split; [sok|intros p q Hp Hq; cbn in Hp, Hq; lts; qq].
  - split; [sok|intros p q Hp Hq; cbn in Hp, Hq; lts; qq].
  - pick false. pick false. pick false. split; [sok|intros p q Hp Hq; cbn in Hp, Hq; lts; qq].
Qed.
(** each pole of each cluster becomes two, the second with imaginary couplings if eigenvalues are used *)
Definition zs (b : bool) : list (@cpole QO) := match lehmann1 hf sqr nokids svd2 eigh2 true b tol [g1; g2] with Ret z => z | _ => [] end.
Lemma zs_ok b : lehmann1 hf sqr nokids svd2 eigh2 true b tol [g1; g2] = Ret (zs b).
Proof.
  assert (L : length (zs b) = 4%nat) by (destruct b; vm_compute; reflexivity). unfold zs in *. destruct (lehmann1 hf sqr nokids svd2 eigh2 true b tol [g1; g2]); [reflexivity|discriminate L ..].
Qed.
Example C67_poles_case (b : bool) : lehmann1 hf sqr nokids svd2 eigh2 true b tol [g1; g2] = Ret (zs b) /\ length (zs b) = 4%nat /\
  (forall n p q, re_moment (zs b) n p q = fst (fst (make_moments hf pot nokids 2 fk true 1 [g1; g2])) n p q /\ im_moment (zs b) n p q = 0) /\ re_moment (zs b) 1 0%nat 1%nat = qo 24 1.
Proof.
  split; [apply zs_ok|]. split; [destruct b; vm_compute; reflexivity|]. split; [apply (C67_poles hf pot nokids 2 fk sqr svd2 eigh2 true b tol [g1; g2] (zs b) (g_dec b) (zs_ok b))|]. destruct b; qq.
Qed.
Definition t25 : QO := qo 1 20.
Lemma z_psd b drop s : In s (slices (length (zs b)) t25 0 (map (fun y : cpole => fst (fst y)) (zs b))) -> psd_ok sqr eigh2 drop tol 2 (group_mat (cut s (zs b))).
Proof.
  assert (E : slices (length (zs b)) t25 0 (map (fun y : cpole => fst (fst y)) (zs b)) = [(0, 4)]%nat) by (destruct b; vm_compute; reflexivity).
  rewrite E. intros [<-|[]]. unfold psd_ok, eigh2. destruct b, drop;
    (pick true; split; [intros y [<-|[<-|[]]]; (split; [vm_compute; reflexivity|]); cbn [fst]; cbv iota; match goal with |- if ?b then _ else _ => let b' := eval vm_compute in b in change b with b' end; cbv iota; qq|intros p q Hp Hq; lts; qq]).
Qed.
Lemma z_energies b (x : @cpole QO) : In x (zs b) -> fst (fst x) = qo 2 1.
Proof.
  intros H. assert (L : forallb (fun y : @cpole QO => eqq (fst (fst y)) (qo 2 1)) (zs b) = true) by (destruct b; vm_compute; reflexivity).
  apply eqq_ok. exact (proj1 (forallb_forall _ _) L x H).
Qed.
Example C67_degeneracy_case b drop : exists r, remove_degeneracy qinv sqr eigh2 2 t25 tol drop (zs b) = Ret r /\ length r = 1%nat /\ (forall n p q, (p < 2)%nat -> (q < 2)%nat -> moment r n p q = re_moment (zs b) n p q) /\ moment r 1 0%nat 1%nat = qo 24 1.
Proof.
  assert (E : exists r, remove_degeneracy qinv sqr eigh2 2 t25 tol drop (zs b) = Ret r /\ length r = 1%nat).
  { assert (L : match remove_degeneracy qinv sqr eigh2 2 t25 tol drop (zs b) with Ret z => length z | _ => 0%nat end = 1%nat) by (destruct b, drop; vm_compute; reflexivity).
    destruct (remove_degeneracy qinv sqr eigh2 2 t25 tol drop (zs b)) as [r| | |]; try discriminate L. exists r. auto. }
  destruct E as (r & E & L). exists r. split; [exact E|]. split; [exact L|].
  destruct (C67_degeneracy qinv sqr eigh2 2 t25 tol drop (zs b) r qinv_ok (z_psd b drop) E) as [_ H].
  assert (G : forall n p q, (p < 2)%nat -> (q < 2)%nat -> moment r n p q = re_moment (zs b) n p q). { apply H. intros x y Hx Hy _. rewrite (z_energies b x Hx), (z_energies b y Hy). reflexivity. }
  split; [exact G|]. rewrite G by lia. destruct b; qq.
Qed.
Example C67_lehmann_case b drop : exists se st, make_1proj hf qinv sqr pot nokids 2 fk svd2 eigh2 true b 2 t25 tol drop [g1; g2] = Ret (se, st) /\
  (forall n p q, (p < 2)%nat -> (q < 2)%nat -> moment se n p q = fst (fst (make_moments hf pot nokids 2 fk true 1 [g1; g2])) n p q) /\ fst st = snd (fst (make_moments hf pot nokids 2 fk true 1 [g1; g2])) /\ moment se 1 0%nat 1%nat = qo 24 1.
Proof.
  destruct (C67_degeneracy_case b drop) as (r & E & _ & _ & V). exists r, (statics (make_moments hf pot nokids 2 fk true 1 [g1; g2])).
  assert (M : make_1proj hf qinv sqr pot nokids 2 fk svd2 eigh2 true b 2 t25 tol drop [g1; g2] = Ret (r, statics (make_moments hf pot nokids 2 fk true 1 [g1; g2]))).
  { unfold make_1proj. rewrite zs_ok. cbn [rbind]. rewrite E. reflexivity. }
  split; [exact M|]. destruct (C67_lehmann hf pot nokids 2 fk qinv sqr svd2 eigh2 true b 2 t25 tol drop [g1; g2] r (statics (make_moments hf pot nokids 2 fk true 1 [g1; g2])) qinv_ok (g_dec b)) as (A & B & _); [|exact M|].
  - intros z Hz. rewrite zs_ok in Hz. injection Hz as <-. split; [apply z_psd|]. intros x y Hx Hy _. rewrite (z_energies b x Hx), (z_energies b y Hy). reflexivity.
  - split; [exact A|]. split; [exact B|exact V].
Qed.
(** fragments with true singular vectors and eigenvectors *)
Definition h1 : sfrag := Build_sfrag (K := QO) 2 1 one (col 0) (row one 0) rot (fun a _ => rot a 0) sinf [].
Definition h2 : sfrag := Build_sfrag (K := QO) 2 1 one (col 0) (row rot 0) rot (fun a _ => rot a 0) sinf [].
Example C67_assertion_svd_case : exists l, split_svd hf sqr (fun _ _ => [(qo 1 1, unit 0, unit 1); (qo 0 1, unit 1, unit 0)]) tol h1 (qo 7 1, v2 (qo 2 1) (qo 0 1), unit 1) = Ret l /\ length l = 1%nat.
Proof.
  pose proof (C67_assertion_svd hf sqr (fun _ _ => [(qo 1 1, unit 0, unit 1); (qo 0 1, unit 1, unit 0)]) tol h1 (qo 7 1) (v2 (qo 2 1) (qo 0 1)) (unit 1) ltac:(vm_compute; reflexivity)) as H.
  assert (L : match split_svd hf sqr (fun _ _ => [(qo 1 1, unit 0, unit 1); (qo 0 1, unit 1, unit 0)]) tol h1 (qo 7 1, v2 (qo 2 1) (qo 0 1), unit 1) with Ret l => length l | AssertErr => 1%nat | _ => 0%nat end = 1%nat) by (vm_compute; reflexivity).
  destruct (split_svd _ _ _ _ _ _) as [l| | |]; [exists l; auto|discriminate L| |discriminate L]. elim H; [|reflexivity]. split.
  - intros s u v [E|[E|[]]]; injection E as <- <- <-; (split; [qq|]; intros p Hp; cbn in Hp; lts; qq).
  - constructor; [constructor; [qq|constructor]|]. constructor; [constructor|]. constructor.
Qed.
Example C67_assertion_eigh_case : exists l, split_eigh hf sqr (fun _ _ => [(qo 0 1, v2 (qo 4 5) (qo (-3) 5)); (qo 25 1, v2 (qo 3 5) (qo 4 5))]) tol h2 (qo 7 1, v34, v34) = Ret l /\ length l = 1%nat.
Proof.
  pose proof (C67_assertion_eigh hf sqr (fun _ _ => [(qo 0 1, v2 (qo 4 5) (qo (-3) 5)); (qo 25 1, v2 (qo 3 5) (qo 4 5))]) tol h2 (qo 7 1) v34 v34 ltac:(vm_compute; reflexivity)) as H.
  assert (L : match split_eigh hf sqr (fun _ _ => [(qo 0 1, v2 (qo 4 5) (qo (-3) 5)); (qo 25 1, v2 (qo 3 5) (qo 4 5))]) tol h2 (qo 7 1, v34, v34) with Ret l => length l | AssertErr => 1%nat | _ => 0%nat end = 1%nat) by (vm_compute; reflexivity).
  destruct (split_eigh _ _ _ _ _ _) as [l| | |]; [exists l; auto|discriminate L| |discriminate L]. elim H; [|reflexivity]. split.
  - intros s u v [E|[E|[]]]; injection E as <- <- <-; (split; [qq|]; intros p Hp; cbn in Hp; lts; qq).
  - constructor; [constructor; [qq|constructor]|]. constructor; [constructor|]. constructor.
Qed.
(** energies that are not in order: the last one is not put together with the first two, although it is equal to the first *)
Definition es : list QO := [qo 1 1; qo 21 20; qo 3 1; qo 1 1].
Example C67_unique_case : let r := get_unique qinv tol es in map snd r = [(0, 2); (2, 3); (3, 4)]%nat /\ concat (map (fun g => cut (snd g) es) r) = es /\ chain tol (map (fun g => cut (snd g) es) r) /\ fst (hd (qo 0 1, (0, 0)%nat) r) = qo 41 40.
Proof.
  destruct (C67_unique qinv tol es) as (A & B & _). cbv zeta in *. split; [vm_compute; reflexivity|]. split; [exact A|]. split; [exact B|]. qq.
Qed.
(** one pole with imaginary coupling, that is a negative weight *)
Definition neg : list (@cpole QO) := [(qo 3 1, (vzero, unit 0), (vzero, unit 0))].
Lemma neg_ok drop : exists r, remove_degeneracy qinv sqr eigh2 2 t25 tol drop neg = Ret r /\ length r = (if drop then 0 else 1)%nat /\ moment r 0 0%nat 0%nat = qo 0 1.
Proof.
  assert (L : match remove_degeneracy qinv sqr eigh2 2 t25 tol drop neg with Ret z => length z | _ => 9%nat end = (if drop then 0 else 1)%nat /\ eqq (match remove_degeneracy qinv sqr eigh2 2 t25 tol drop neg with Ret z => moment z 0 0%nat 0%nat | _ => qo 1 1 end) (qo 0 1) = true) by (destruct drop; vm_compute; auto).
  destruct (remove_degeneracy qinv sqr eigh2 2 t25 tol drop neg) as [r| | |]; try (destruct L as [L _]; destruct drop; discriminate L). exists r. destruct L as [L L']. split; [reflexivity|]. split; [exact L|]. apply eqq_ok. exact L'.
Qed.
Example C67_non_causal_refuted_case : exists r r', remove_degeneracy qinv sqr eigh2 2 t25 tol false neg = Ret r /\ remove_degeneracy qinv sqr eigh2 2 t25 tol true neg = Ret r' /\ length r = 1%nat /\ length r' = 0%nat /\ forall n p q, moment r n p q = moment r' n p q.
Proof.
  destruct (neg_ok false) as (r & E & L & _). destruct (neg_ok true) as (r' & E' & L' & _). exists r, r'. repeat (split; [assumption|]). exact (C67_non_causal_refuted qinv sqr eigh2 2 t25 tol neg r r' ltac:(vm_compute; reflexivity) E E').
Qed.
(** Finding: a negative weight is lost, also when it is not to be dropped (drop_non_causal=False), so that C67_degeneracy needs its hypothesis that there are none *)
Theorem C67_negative_weight_refuted : exists (sq : QO -> QO) eigh se r, eigh_ok sq eigh tol 2 (group_mat se) /\ remove_degeneracy qinv sq eigh 2 t25 tol false se = Ret r /\ re_moment se 0 0%nat 0%nat = qo (-1) 1 /\ moment r 0 0%nat 0%nat = qo 0 1.
Proof.
  destruct (neg_ok false) as (r & E & _ & M). exists sqr, eigh2, neg, r. split; [|split; [exact E|split; [qq|exact M]]].
  unfold eigh_ok, eigh2. pick false. pick false. pick true. split; [sok|intros p q Hp Hq; lts; qq].
Qed.
(** Finding: any other number of projectors than one or two silently gives zero *)
Theorem C67_other_projectors_refuted (K : oring) (half : K) static_pot children nao fock us proj frags : proj <> 1%nat -> proj <> 2%nat ->
  let r := make_moments half static_pot children nao fock us proj frags in (forall n p q, fst (fst r) n p q = 0) /\ (forall p q, snd (fst r) p q = 0) /\ (forall p q, snd r p q = 0).
Proof.
  intros H1 H2. assert (E : forall a, fold_left (moments_step half static_pot children nao fock us proj) frags a = a).
  { induction frags as [|f l IH]; intros a; [reflexivity|]. cbn [fold_left]. destruct proj as [|[|[|?]]]; try congruence; apply IH. }
  unfold make_moments. rewrite E. repeat split; reflexivity.
Qed.
Example C67_other_projectors_refuted_case : (3 <> 1)%nat /\ (3 <> 2)%nat /\ fst (fst (make_moments hf pot nokids 2 fk true 3 [f1; f2])) 0%nat 1%nat 1%nat = 0 /\ moment (s_se f1) 0 1%nat 1%nat <> 0.
Proof. split; [discriminate|]. split; [discriminate|]. split; [|qq]. apply (proj1 (C67_other_projectors_refuted QO hf pot nokids 2 fk true 3 [f1; f2] ltac:(discriminate) ltac:(discriminate))). Qed.
End Cases.

Print Assumptions C67_symmetry.
Print Assumptions C67_complete.
Print Assumptions C67_symmetric.
Print Assumptions C67_trace.
Print Assumptions C67_two_projectors_trace_refuted.
Print Assumptions C67_two_projectors_refuted.
Print Assumptions C67_poles.
Print Assumptions C67_assertion_svd.
Print Assumptions C67_assertion_eigh.
Print Assumptions C67_unique.
Print Assumptions C67_degeneracy.
Print Assumptions C67_non_causal_refuted.
Print Assumptions C67_lehmann.
Print Assumptions C67_negative_weight_refuted.
Print Assumptions C67_other_projectors_refuted.
