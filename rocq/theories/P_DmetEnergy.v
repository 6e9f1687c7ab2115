(** C55: the DMET energy is the energy of the democratically partitioned density matrices. *)
From Coq Require Import List Arith Bool Lia Ring ZArith QArith Qcanon.
From Verif Require Import Alg M_Rdm M_Demo M_DmetEnergy P_Rdm P_Demo.
Import ListNotations.
Close Scope Q_scope. Close Scope Qc_scope. Close Scope Z_scope. Open Scope nat_scope.

Section Thms.
Context (K : cring).
Add Ring Kr : (rth K).
Open Scope K_scope.
Variable half : K.
Hypothesis Hhalf : half + half = 1.
Notation mat := (nat -> nat -> K).
Notation ten := (nat -> nat -> nat -> nat -> K).
Notation "'con1'" := (con1 K).
Notation "'con2'" := (con2 K).
Notation "'real_g'" := (real_g K).
Notation "'partition'" := (partition K).
Notation "'contains'" := (contains K).
Notation "'to_mo2'" := (to_mo2 K).

(** ** Sums over four indices *)
Definition S4 (a b c d : nat) (f : ten) : K := Sum a (fun p => Sum b (fun q => Sum c (fun r => Sum d (fun s => f p q r s)))).
Lemma S4_ext a b c d (f g : ten) : (forall p q r s, (p < a)%nat -> (q < b)%nat -> (r < c)%nat -> (s < d)%nat -> f p q r s = g p q r s) -> S4 a b c d f = S4 a b c d g.
Proof. intros H. unfold S4. repeat (apply Sum_ext; intros). now apply H. Qed.
Lemma S4_mul_l a b c d (f : ten) x : S4 a b c d (fun p q r s => x * f p q r s) = x * S4 a b c d f.
Proof. unfold S4. rewrite <- Sum_mul_l. apply Sum_ext. intros. rewrite <- Sum_mul_l. apply Sum_ext. intros. rewrite <- Sum_mul_l. apply Sum_ext. intros. now rewrite <- Sum_mul_l. Qed.
Lemma S4_add a b c d (f g : ten) : S4 a b c d (fun p q r s => f p q r s + g p q r s) = S4 a b c d f + S4 a b c d g.
Proof. unfold S4. rewrite <- Sum_add. apply Sum_ext. intros. rewrite <- Sum_add. apply Sum_ext. intros. rewrite <- Sum_add. apply Sum_ext. intros. now rewrite <- Sum_add. Qed.
Lemma S4_prod a b c d (f g h k : nat -> K) : Sum a f * Sum b g * Sum c h * Sum d k = S4 a b c d (fun p q r s => f p * g q * h r * k s).
Proof.
  unfold S4. transitivity (Sum a f * (Sum b g * (Sum c h * Sum d k))); [ring|]. rewrite <- Sum_mul_r. apply Sum_ext. intros p Hp.
  transitivity (Sum b g * (f p * (Sum c h * Sum d k))); [ring|]. rewrite <- Sum_mul_r. apply Sum_ext. intros q Hq.
  transitivity (Sum c h * (f p * g q * Sum d k)); [ring|]. rewrite <- Sum_mul_r. apply Sum_ext. intros r Hr. rewrite Sum_mul_l. ring.
Qed.
Lemma Sum_S4 n a b c d (f : nat -> ten) : Sum n (fun x => S4 a b c d (f x)) = S4 a b c d (fun p q r s => Sum n (fun x => f x p q r s)).
Proof.
  unfold S4. rewrite Sum_swap. apply Sum_ext. intros. rewrite Sum_swap. apply Sum_ext. intros. rewrite Sum_swap. apply Sum_ext. intros. apply Sum_swap.
Qed.
Lemma S4_swap a b c d a' b' c' d' (f : nat -> nat -> nat -> nat -> ten) :
  S4 a b c d (fun p q r s => S4 a' b' c' d' (f p q r s)) = S4 a' b' c' d' (fun x y z w => S4 a b c d (fun p q r s => f p q r s x y z w)).
Proof.
  unfold S4 at 1. rewrite (Sum_ext a _ (fun p => S4 a' b' c' d' (fun x y z w => Sum b (fun q => Sum c (fun r => Sum d (fun s => f p q r s x y z w)))))).
  - rewrite Sum_S4. reflexivity.
  - intros p Hp. rewrite (Sum_ext b _ (fun q => S4 a' b' c' d' (fun x y z w => Sum c (fun r => Sum d (fun s => f p q r s x y z w))))); [now rewrite Sum_S4|].
    intros q Hq. rewrite (Sum_ext c _ (fun r => S4 a' b' c' d' (fun x y z w => Sum d (fun s => f p q r s x y z w)))); [now rewrite Sum_S4|].
    intros r Hr. now rewrite Sum_S4.
Qed.
(** Contraction of two-particle arrays whose second pair may have the other spin *)
Definition con2h (na nb : nat) (g d : ten) : K := S4 na na nb nb (fun p q r s => g p q r s * d p q r s).
Lemma con2h_same n g d : con2h n n g d = con2 n g d. Proof. reflexivity. Qed.
Lemma con2h_ext na nb g (d e : ten) : (forall p q r s, (p < na)%nat -> (q < na)%nat -> (r < nb)%nat -> (s < nb)%nat -> d p q r s = e p q r s) -> con2h na nb g d = con2h na nb g e.
Proof. intros H. apply S4_ext. intros. now rewrite H. Qed.
Lemma con2h_add na nb g d e : con2h na nb g (fun p q r s => d p q r s + e p q r s) = con2h na nb g d + con2h na nb g e.
Proof. unfold con2h. rewrite <- S4_add. apply S4_ext. intros. ring. Qed.
Lemma con2h_scale na nb g d c : con2h na nb g (fun p q r s => c * d p q r s) = c * con2h na nb g d.
Proof. unfold con2h. rewrite <- S4_mul_l. apply S4_ext. intros. ring. Qed.
Lemma con1_ext' n (h d e : mat) : (forall p q, (p < n)%nat -> (q < n)%nat -> d p q = e p q) -> con1 n h d = con1 n h e.
Proof. intros H. unfold P_Demo.con1. repeat (apply Sum_ext; intros). now rewrite H. Qed.
Lemma con1_ext_l n (h k d : mat) : (forall p q, (p < n)%nat -> (q < n)%nat -> h p q = k p q) -> con1 n h d = con1 n k d.
Proof. intros H. unfold P_Demo.con1. repeat (apply Sum_ext; intros). now rewrite H. Qed.
Lemma con1_scale n (h d : mat) c : con1 n h (fun p q => c * d p q) = c * con1 n h d.
Proof. unfold P_Demo.con1. rewrite <- Sum_mul_l. apply Sum_ext. intros. rewrite <- Sum_mul_l. apply Sum_ext. intros. ring. Qed.
Lemma con1_scale_l n (h d : mat) c : con1 n (fun p q => c * h p q) d = c * con1 n h d.
Proof. unfold P_Demo.con1. rewrite <- Sum_mul_l. apply Sum_ext. intros. rewrite <- Sum_mul_l. apply Sum_ext. intros. ring. Qed.

(** ** Energies of fragments as contractions with projected density matrices *)
Lemma e1_con nmo o (h d : mat) :
  Sum (nclu o) (fun x => Sum (nclu o) (fun j => Sum (nclu o) (fun i => cl_h nmo o h x j * px nmo o x i * d i j))) = con1 nmo h (proj1 nmo o d).
Proof.
  unfold P_Demo.con1. set (n := nclu o). set (D := fun x j => Sum n (fun i => px nmo o x i * d i j)).
  transitivity (Sum n (fun x => Sum n (fun j => Sum nmo (fun p => Sum nmo (fun q => h p q * (rx o p x * rx o q j * D x j)))))).
  - apply Sum_ext. intros x Hx. apply Sum_ext. intros j Hj. transitivity (cl_h nmo o h x j * D x j).
    + unfold D. rewrite <- Sum_mul_l. apply Sum_ext. intros. ring.
    + unfold cl_h. rewrite <- Sum_mul_r. apply Sum_ext. intros. rewrite <- Sum_mul_r. apply Sum_ext. intros. ring.
  - transitivity (Sum nmo (fun p => Sum nmo (fun q => Sum n (fun x => Sum n (fun j => h p q * (rx o p x * rx o q j * D x j)))))).
    + transitivity (Sum n (fun x => Sum nmo (fun p => Sum nmo (fun q => Sum n (fun j => h p q * (rx o p x * rx o q j * D x j)))))).
      * apply Sum_ext. intros x Hx. rewrite Sum_swap. apply Sum_ext. intros p Hp. apply Sum_swap.
      * rewrite Sum_swap. apply Sum_ext. intros p Hp. apply Sum_swap.
    + apply Sum_ext. intros p Hp. apply Sum_ext. intros q Hq. unfold proj1. fold n. rewrite <- Sum_mul_l. apply Sum_ext. intros x Hx.
      rewrite Sum_swap, <- Sum_mul_l. apply Sum_ext. intros j Hj. unfold D. rewrite <- Sum_mul_l, <- Sum_mul_l, <- Sum_mul_l. apply Sum_ext. intros. ring.
Qed.
Lemma rot_con na nb o o' g (D : ten) :
  S4 (nclu o) (nclu o) (nclu o') (nclu o') (fun x j k l => cl_g na nb o o' g x j k l * D x j k l)
  = con2h na nb g (fun p q r s => S4 (nclu o) (nclu o) (nclu o') (nclu o') (fun x j k l => rx o p x * rx o q j * rx o' r k * rx o' s l * D x j k l)).
Proof.
  unfold con2h. transitivity (S4 na na nb nb (fun p q r s => S4 (nclu o) (nclu o) (nclu o') (nclu o') (fun x j k l => g p q r s * (rx o p x * rx o q j * rx o' r k * rx o' s l * D x j k l)))).
  - rewrite S4_swap. apply S4_ext. intros x j k l _ _ _ _.
    transitivity (D x j k l * S4 na na nb nb (fun p q r s => rx o p x * rx o q j * rx o' r k * rx o' s l * g p q r s)); [change (cl_g na nb o o' g x j k l) with (S4 na na nb nb (fun p q r s => rx o p x * rx o q j * rx o' r k * rx o' s l * g p q r s)); ring|].
    rewrite <- S4_mul_l. apply S4_ext. intros. ring.
  - apply S4_ext. intros. now rewrite S4_mul_l.
Qed.
Lemma e2_con na nb o o' g (d : ten) :
  S4 (nclu o) (nclu o) (nclu o') (nclu o') (fun x j k l => Sum (nclu o) (fun i => cl_g na nb o o' g x j k l * px na o x i * d i j k l)) = con2h na nb g (proj2 na o o' d).
Proof.
  transitivity (S4 (nclu o) (nclu o) (nclu o') (nclu o') (fun x j k l => cl_g na nb o o' g x j k l * Sum (nclu o) (fun i => px na o x i * d i j k l))).
  - apply S4_ext. intros. rewrite <- Sum_mul_l. apply Sum_ext. intros. ring.
  - rewrite (rot_con na nb o o' g (fun x j k l => Sum (nclu o) (fun i => px na o x i * d i j k l))). apply con2h_ext. intros p q r s _ _ _ _. unfold S4, proj2.
    apply Sum_ext. intros x Hx.
    rewrite (Sum_swap (nclu o) (nclu o) (fun i j => Sum (nclu o') (fun k => Sum (nclu o') (fun l => px na o x i * d i j k l * rx o p x * rx o q j * rx o' r k * rx o' s l)))).
    apply Sum_ext. intros j Hj. rewrite (Sum_swap (nclu o) (nclu o') (fun i k => Sum (nclu o') (fun l => px na o x i * d i j k l * rx o p x * rx o q j * rx o' r k * rx o' s l))). apply Sum_ext. intros k Hk. rewrite (Sum_swap (nclu o) (nclu o')). apply Sum_ext. intros l Hl. rewrite <- Sum_mul_l. apply Sum_ext. intros. ring.
Qed.
Lemma e2b_con na nb o o' g (d : ten) :
  S4 (nclu o) (nclu o) (nclu o') (nclu o') (fun i j x l => Sum (nclu o') (fun k => cl_g na nb o o' g i j x l * px nb o' x k * d i j k l)) = con2h na nb g (proj2b nb o o' d).
Proof.
  transitivity (S4 (nclu o) (nclu o) (nclu o') (nclu o') (fun i j x l => cl_g na nb o o' g i j x l * Sum (nclu o') (fun k => px nb o' x k * d i j k l))).
  - apply S4_ext. intros. rewrite <- Sum_mul_l. apply Sum_ext. intros. ring.
  - rewrite (rot_con na nb o o' g (fun i j x l => Sum (nclu o') (fun k => px nb o' x k * d i j k l))). apply con2h_ext. intros p q r s _ _ _ _. unfold S4, proj2b.
    rewrite (Sum_swap (nclu o') (nclu o)). apply Sum_ext. intros i Hi. rewrite (Sum_swap (nclu o') (nclu o)). apply Sum_ext. intros j Hj.
    apply Sum_ext. intros x Hx. rewrite (Sum_swap (nclu o') (nclu o') (fun k l => px nb o' x k * d i j k l * rx o p i * rx o q j * rx o' r x * rx o' s l)). apply Sum_ext. intros l Hl. rewrite <- Sum_mul_l. apply Sum_ext. intros. ring.
Qed.

(** ** The embedding: the cluster contains the fragment orbitals, and the [nc] occupied cluster orbitals carry their occupied part *)
Definition embeds (nmo nocc : nat) (o : orbs K) (nc : nat) : Prop :=
  contains nmo o /\ (nc <= nclu o)%nat /\
  forall p f, (p < nmo)%nat -> (f < nfrg o)%nat -> Sum nc (fun x => rx o p x * cl_fr nmo o x f) = if (p <? nocc)%nat then fx o p f else 0.
(** Mean-field density matrix of the cluster in the MO basis, and the fragment projector acting on the first index *)
Definition ocm (o : orbs K) (nc : nat) : mat := fun p q => Sum nc (fun i => rx o p i * rx o q i).
Definition PA (nmo : nat) (o : orbs K) (a : mat) : mat := fun p q => Sum nmo (fun t => pmo o p t * a t q).
Lemma occ_eq n p q : @occ K n p q = if (p <? n)%nat then delta p q else 0.
Proof. unfold occ, delta. destruct (p =? q)%nat, (p <? n)%nat; reflexivity. Qed.
Lemma PA_occ nmo nocc o p q : (q < nmo)%nat -> PA nmo o (occ nocc) p q = if (q <? nocc)%nat then pmo o p q else 0.
Proof.
  intros Hq. unfold PA. rewrite (Sum_ext nmo _ (fun t => delta q t * (if (t <? nocc)%nat then pmo o p t else 0))).
  - rewrite (Sum_delta_l nmo q (fun t => if (t <? nocc)%nat then pmo o p t else 0)); auto.
  - intros t Ht. rewrite (occ_sym nocc t q), occ_eq. unfold delta. destruct (Nat.eqb_spec q t) as [-> | ].
    + destruct (t <? nocc)%nat; ring.
    + destruct (q <? nocc)%nat; ring.
Qed.
Lemma PA_ocm nmo nocc o nc p q : embeds nmo nocc o nc -> (q < nmo)%nat -> PA nmo o (ocm o nc) p q = PA nmo o (occ nocc) p q.
Proof.
  intros (Hc & Hn & Ho) Hq. rewrite PA_occ by auto. unfold PA, ocm, pmo.
  transitivity (Sum (nfrg o) (fun f => fx o p f * Sum nc (fun i => rx o q i * cl_fr nmo o i f))).
  - transitivity (Sum (nfrg o) (fun f => Sum nmo (fun t => fx o p f * (fx o t f * Sum nc (fun i => rx o t i * rx o q i))))).
    + rewrite Sum_swap. apply Sum_ext. intros t Ht. rewrite <- Sum_mul_r. apply Sum_ext. intros. ring.
    + apply Sum_ext. intros f Hf. rewrite Sum_mul_l. f_equal.
      transitivity (Sum nmo (fun t => Sum nc (fun i => rx o q i * (rx o t i * fx o t f)))).
      * apply Sum_ext. intros. rewrite <- Sum_mul_l. apply Sum_ext. intros. ring.
      * rewrite Sum_swap. apply Sum_ext. intros. unfold cl_fr. now rewrite Sum_mul_l.
  - destruct (q <? nocc)%nat eqn:E.
    + apply Sum_ext. intros f Hf. rewrite Ho by auto. now rewrite E.
    + apply Sum_0. intros f Hf. rewrite Ho by auto. rewrite E. ring.
Qed.
Lemma pmo_sym o p q : pmo (K := K) o p q = pmo o q p.
Proof. unfold pmo. apply Sum_ext. intros. ring. Qed.
Lemma PA_add nmo o (a b : mat) p q : PA nmo o (fun p q => a p q + b p q) p q = PA nmo o a p q + PA nmo o b p q.
Proof. unfold PA. rewrite <- Sum_add. apply Sum_ext. intros. ring. Qed.
Lemma PA_scale nmo o (a : mat) c p q : PA nmo o (fun p q => c * a p q) p q = c * PA nmo o a p q.
Proof. unfold PA. rewrite <- Sum_mul_l. apply Sum_ext. intros. ring. Qed.
Lemma PA_ext nmo o (a b : mat) p q : (forall t, (t < nmo)%nat -> a t q = b t q) -> PA nmo o a p q = PA nmo o b p q.
Proof. intros H. apply Sum_ext. intros. now rewrite H. Qed.
Lemma PA_sum {A} nmo (o : A -> orbs K) l (a : mat) p q : partition nmo o l -> (p < nmo)%nat -> Lsum l (fun x => PA nmo (o x) a p q) = a p q.
Proof. intros. unfold PA. now apply (whole K nmo o l (fun t => a t q)). Qed.
(** Density matrices of the cluster in the MO basis *)
Lemma to_mo_add o (a b : mat) p q : to_mo o (fun i j => a i j + b i j) p q = to_mo o a p q + to_mo o b p q.
Proof. unfold to_mo. rewrite <- Sum_add. apply Sum_ext. intros. rewrite <- Sum_add. apply Sum_ext. intros. ring. Qed.
Lemma to_mo_scale o (a : mat) c p q : to_mo o (fun i j => c * a i j) p q = c * to_mo o a p q.
Proof. unfold to_mo. rewrite <- Sum_mul_l. apply Sum_ext. intros. rewrite <- Sum_mul_l. apply Sum_ext. intros. ring. Qed.
Lemma to_mo_occ o nc p q : (nc <= nclu o)%nat -> to_mo o (occ nc) p q = ocm o nc p q.
Proof.
  intros H. unfold to_mo, ocm. replace (nclu o) with (nc + (nclu o - nc))%nat at 1 by lia. rewrite Sum_split.
  rewrite (Sum_ext (nclu o - nc) _ (fun _ => 0)).
  - rewrite Sum_zero. rewrite (Sum_ext nc _ (fun i => rx o p i * rx o q i)); [ring|]. intros i Hi.
    rewrite (Sum_ext (nclu o) _ (fun j => delta i j * (rx o p i * rx o q j))).
    + apply (Sum_delta_l (nclu o) i (fun j => rx o p i * rx o q j)). lia.
    + intros j Hj. rewrite occ_eq. apply Nat.ltb_lt in Hi. rewrite Hi. ring.
  - intros i Hi. apply Sum_0. intros j Hj. rewrite occ_eq. replace (nc + i <? nc)%nat with false by (symmetry; apply Nat.ltb_ge; lia). ring.
Qed.
Lemma to_mo_sym o (d : mat) p q : (forall i j, d i j = d j i) -> to_mo o d p q = to_mo o d q p.
Proof. intros H. unfold to_mo. rewrite Sum_swap. apply Sum_ext. intros. apply Sum_ext. intros. rewrite H. ring. Qed.
Lemma ocm_sym o nc p q : ocm o nc p q = ocm o nc q p.
Proof. unfold ocm. apply Sum_ext. intros. ring. Qed.
Lemma to_mo2_add o o' (a b : ten) p q r s : to_mo2 o o' (fun i j k l => a i j k l + b i j k l) p q r s = to_mo2 o o' a p q r s + to_mo2 o o' b p q r s.
Proof. unfold P_Demo.to_mo2. rewrite <- Sum_add. apply Sum_ext. intros. rewrite <- Sum_add. apply Sum_ext. intros. rewrite <- Sum_add. apply Sum_ext. intros. rewrite <- Sum_add. apply Sum_ext. intros. ring. Qed.
Lemma to_mo2_scale o o' (a : ten) c p q r s : to_mo2 o o' (fun i j k l => c * a i j k l) p q r s = c * to_mo2 o o' a p q r s.
Proof. unfold P_Demo.to_mo2. rewrite <- Sum_mul_l. apply Sum_ext. intros. rewrite <- Sum_mul_l. apply Sum_ext. intros. rewrite <- Sum_mul_l. apply Sum_ext. intros. rewrite <- Sum_mul_l. apply Sum_ext. intros. ring. Qed.
Lemma to_mo2_outer o o' (a b : mat) p q r s : to_mo2 o o' (fun i j k l => a i j * b k l) p q r s = to_mo o a p q * to_mo o' b r s.
Proof.
  unfold P_Demo.to_mo2, to_mo. rewrite <- Sum_mul_r. apply Sum_ext. intros i Hi. rewrite <- Sum_mul_r. apply Sum_ext. intros j Hj.
  rewrite <- Sum_mul_l. apply Sum_ext. intros k Hk. rewrite <- Sum_mul_l. apply Sum_ext. intros l Hl. ring.
Qed.
Lemma to_mo2_exch o (a b : mat) p q r s : to_mo2 o o (fun i j k l => a i l * b k j) p q r s = to_mo o a p s * to_mo o b r q.
Proof.
  rewrite <- to_mo2_outer. unfold P_Demo.to_mo2. apply Sum_ext. intros i Hi.
  rewrite (Sum_ext (nclu o) _ (fun j => Sum (nclu o) (fun l => Sum (nclu o) (fun k => rx o p i * rx o q j * rx o r k * rx o s l * (a i l * b k j))))) by (intros; apply Sum_swap).
  rewrite Sum_swap. apply Sum_ext. intros l Hl. rewrite Sum_swap. apply Sum_ext. intros k Hk. apply Sum_ext. intros j Hj. ring.
Qed.
Lemma to_mo2_product o (a : mat) p q r s : to_mo2 o o (product half a) p q r s = product half (to_mo o a) p q r s.
Proof.
  unfold product. transitivity (to_mo2 o o (fun i j k l => a i j * a k l + - half * (a i l * a k j)) p q r s).
  - unfold P_Demo.to_mo2. repeat (apply Sum_ext; intros). ring.
  - rewrite to_mo2_add, to_mo2_scale, to_mo2_outer, to_mo2_exch. ring.
Qed.
(** The fragment projector acting on the first index of a product of density matrices *)
Lemma veff_add n g (a b : mat) p q : veff K half n g (fun p q => a p q + b p q) p q = veff K half n g a p q + veff K half n g b p q.
Proof. unfold veff. rewrite <- Sum_add. apply Sum_ext. intros. rewrite <- Sum_add. apply Sum_ext. intros. ring. Qed.
Lemma veff_scale n g (a : mat) c p q : veff K half n g (fun p q => c * a p q) p q = c * veff K half n g a p q.
Proof. unfold veff. rewrite <- Sum_mul_l. apply Sum_ext. intros. rewrite <- Sum_mul_l. apply Sum_ext. intros. ring. Qed.
Lemma veff_ext n g (a b : mat) p q : (forall r s, (r < n)%nat -> (s < n)%nat -> a r s = b r s) -> veff K half n g a p q = veff K half n g b p q.
Proof. intros H. unfold veff. apply Sum_ext. intros. apply Sum_ext. intros. now rewrite H. Qed.
Lemma vhf_veff n g (a : mat) p q : vhf half n g a p q = veff K half n g a p q.
Proof.
  unfold vhf, veff. rewrite <- Sum_mul_l, <- Sum_sub. apply Sum_ext. intros. rewrite <- Sum_mul_l, <- Sum_sub. apply Sum_ext. intros. ring.
Qed.
Definition B (n : nat) (g : ten) (a b : mat) : K := con1 n (veff K half n g a) b.
Lemma B_add_l n g (a a' b : mat) : B n g (fun p q => a p q + a' p q) b = B n g a b + B n g a' b.
Proof. unfold B. rewrite <- con1_add_l. apply con1_ext_l. intros. apply veff_add. Qed.
Lemma B_add_r n g (a b b' : mat) : B n g a (fun p q => b p q + b' p q) = B n g a b + B n g a b'.
Proof. apply con1_add. Qed.
Lemma B_scale_l n g (a b : mat) c : B n g (fun p q => c * a p q) b = c * B n g a b.
Proof. unfold B. rewrite <- con1_scale_l. apply con1_ext_l. intros. apply veff_scale. Qed.
Lemma B_scale_r n g (a b : mat) c : B n g a (fun p q => c * b p q) = c * B n g a b.
Proof. apply con1_scale. Qed.
Lemma B_ext n g (a a' b b' : mat) : (forall p q, (p < n)%nat -> (q < n)%nat -> a p q = a' p q) -> (forall p q, (p < n)%nat -> (q < n)%nat -> b p q = b' p q) -> B n g a b = B n g a' b'.
Proof. intros Ha Hb. unfold B. rewrite (con1_ext' n _ b b') by auto. apply con1_ext_l. intros. now apply veff_ext. Qed.
Lemma B_con2 n g (a b : mat) : con2h n n g (fun p q r s => b p q * a r s - half * (b p s * a r q)) = B n g a b.
Proof.
  unfold B. rewrite con1_veff. rewrite con2h_same. rewrite (con2_ext K n g _ (fun p q r s => outer b a p q r s + - half * (b p s * a r q))) by (intros; unfold outer; ring).
  rewrite con2_add, con2_scale. ring.
Qed.

Lemma S4_exch a b c d (f : ten) : S4 a b c d f = S4 c d a b (fun p q r s => f r s p q).
Proof.
  unfold S4. transitivity (Sum a (fun p => Sum c (fun r => Sum b (fun q => Sum d (fun s => f p q r s))))); [apply Sum_ext; intros; apply Sum_swap|].
  rewrite Sum_swap. apply Sum_ext. intros r Hr. transitivity (Sum a (fun p => Sum d (fun s => Sum b (fun q => f p q r s)))); [apply Sum_ext; intros; apply Sum_swap|]. apply Sum_swap.
Qed.
Lemma S4_24 a b c d (f : ten) : S4 a b c d f = S4 a d c b (fun p q r s => f p s r q).
Proof.
  unfold S4. apply Sum_ext. intros p Hp. transitivity (Sum b (fun q => Sum d (fun s => Sum c (fun r => f p q r s)))); [apply Sum_ext; intros; apply Sum_swap|].
  rewrite Sum_swap. apply Sum_ext. intros s Hs. apply Sum_swap.
Qed.
Lemma cl_g_S4 na nb o o' g x y z w : cl_g (K := K) na nb o o' g x y z w = S4 na na nb nb (fun p q r s => rx o p x * rx o q y * rx o' r z * rx o' s w * g p q r s).
Proof. reflexivity. Qed.
Lemma cl_g_flip na nb o o' g x y z w : cl_g (K := K) na nb o o' g x y z w = cl_g nb na o' o (flip g) z w x y.
Proof. rewrite !cl_g_S4, S4_exch. apply S4_ext. intros. unfold flip. ring. Qed.
Lemma cl_g_exch n o g x y z w : real_g g -> cl_g (K := K) n n o o g x y z w = cl_g n n o o g z w x y.
Proof. intros H. rewrite !cl_g_S4, S4_exch. apply S4_ext. intros. rewrite (Logic.proj1 (H r s p q)). ring. Qed.
Lemma cl_g_real n o g : real_g g -> real_g (cl_g (K := K) n n o o g).
Proof.
  intros H p q r s. split; [now apply cl_g_exch|]. rewrite !cl_g_S4. unfold S4. rewrite Sum_swap. apply Sum_ext. intros. apply Sum_ext. intros. apply Sum_ext. intros. apply Sum_ext. intros.
  rewrite (Logic.proj2 (H _ i _ _)). ring.
Qed.
(** Coulomb and exchange matrices of the occupied cluster orbitals *)
Lemma cl_coul na nb o o' g nc x y :
  cl_h na o (fun p q => Sum nb (fun r => Sum nb (fun s => g p q r s * ocm o' nc r s))) x y = Sum nc (fun i => cl_g na nb o o' g x y i i).
Proof.
  rewrite (Sum_ext nc _ (fun i => S4 na na nb nb (fun p q r s => rx o p x * rx o q y * rx o' r i * rx o' s i * g p q r s))) by reflexivity.
  rewrite Sum_S4. unfold cl_h, S4. apply Sum_ext. intros p Hp. apply Sum_ext. intros q Hq.
  transitivity (rx o p x * rx o q y * Sum nb (fun r => Sum nb (fun s => g p q r s * ocm o' nc r s))); [ring|].
  rewrite <- Sum_mul_l. apply Sum_ext. intros r Hr. rewrite <- Sum_mul_l. apply Sum_ext. intros s Hs. unfold ocm. rewrite <- !Sum_mul_l. apply Sum_ext. intros. ring.
Qed.
Lemma cl_exch n o g nc x y :
  cl_h n o (fun p q => Sum n (fun r => Sum n (fun s => g p s r q * ocm o nc r s))) x y = Sum nc (fun i => cl_g n n o o g x i i y).
Proof.
  rewrite (Sum_ext nc _ (fun i => S4 n n n n (fun p q r s => rx o p x * rx o s i * rx o r i * rx o q y * g p s r q))).
  2:{ intros i Hi. rewrite cl_g_S4, S4_24. reflexivity. }
  rewrite Sum_S4. unfold cl_h, S4. apply Sum_ext. intros p Hp. apply Sum_ext. intros q Hq.
  transitivity (rx o p x * rx o q y * Sum n (fun r => Sum n (fun s => g p s r q * ocm o nc r s))); [ring|].
  rewrite <- Sum_mul_l. apply Sum_ext. intros r Hr. rewrite <- Sum_mul_l. apply Sum_ext. intros s Hs. unfold ocm. rewrite <- !Sum_mul_l. apply Sum_ext. intros. ring.
Qed.
Lemma cl_h_add n o (a b : mat) x y : cl_h n o (fun p q => a p q + b p q) x y = cl_h n o a x y + cl_h n o b x y.
Proof. unfold cl_h. rewrite <- Sum_add. apply Sum_ext. intros. rewrite <- Sum_add. apply Sum_ext. intros. ring. Qed.
Lemma cl_h_scale n o (a : mat) c x y : cl_h n o (fun p q => c * a p q) x y = c * cl_h n o a x y.
Proof. unfold cl_h. rewrite <- Sum_mul_l. apply Sum_ext. intros. rewrite <- Sum_mul_l. apply Sum_ext. intros. ring. Qed.
Lemma cl_h_ext n o (a b : mat) x y : (forall p q, a p q = b p q) -> cl_h n o a x y = cl_h n o b x y.
Proof. intros H. unfold cl_h. apply Sum_ext. intros. apply Sum_ext. intros. now rewrite H. Qed.
Lemma v_act_rot n o g nc x y : real_g g -> v_act half nc (cl_g n n o o g) x y = cl_h n o (veff K half n g (ocm o nc)) x y.
Proof.
  intros H. rewrite (cl_h_ext n o _ (fun p q => Sum n (fun r => Sum n (fun s => g p q r s * ocm o nc r s)) + - half * Sum n (fun r => Sum n (fun s => g p s r q * ocm o nc r s)))).
  2:{ intros. rewrite <- vhf_veff. unfold vhf. ring. }
  rewrite cl_h_add, cl_h_scale, cl_coul, cl_exch. unfold v_act.
  rewrite (Sum_ext nc (fun i => cl_g n n o o g i i x y) (fun i => cl_g n n o o g x y i i)) by (intros; now apply cl_g_exch).
  rewrite (Sum_ext nc (fun i => cl_g n n o o g i y x i) (fun i => cl_g n n o o g x i i y)) by (intros; now apply cl_g_exch). ring.
Qed.

(** ** Restricted *)
Lemma frag_pc nmo h v g ac x : frag_dmet half nmo h v g true ac x
  = d_sf x * (con1 nmo h (proj1 nmo (r_o (d_f x)) (d_dm1 x)) + half * con2 nmo g (proj2 nmo (r_o (d_f x)) (r_o (d_f x)) (if ac then r_approx (d_f x) else r_exact (d_f x)))).
Proof. unfold frag_dmet. rewrite e1_con. rewrite <- con2h_same, <- e2_con. reflexivity. Qed.
Lemma dm1_mo nmo nocc x p q : embeds nmo nocc (r_o (d_f x)) (d_nocc x) -> (p < nmo)%nat -> (q < nmo)%nat ->
  proj1 nmo (r_o (d_f x)) (d_dm1 x) p q = PA nmo (r_o (d_f x)) (to_mo (r_o (d_f x)) (r_dm1 (d_f x))) p q + two * PA nmo (r_o (d_f x)) (occ nocc) p q.
Proof.
  intros He Hp Hq. rewrite proj1_contains by (auto; apply He).
  fold (PA nmo (r_o (d_f x)) (to_mo (r_o (d_f x)) (d_dm1 x)) p q). rewrite <- (PA_ocm nmo nocc _ (d_nocc x)), <- PA_scale, <- PA_add by auto.
  apply PA_ext. intros t Ht. rewrite <- to_mo_occ by apply He. rewrite <- to_mo_scale, <- to_mo_add. unfold to_mo, d_dm1. apply Sum_ext. intros. apply Sum_ext. intros. now rewrite add_diag_occ.
Qed.
Lemma P_product nmo o (a : mat) p q r s : Sum nmo (fun t => pmo o p t * product half a t q r s) = PA nmo o a p q * a r s - half * (PA nmo o a p s * a r q).
Proof.
  unfold PA, product. rewrite <- !Sum_mul_r, <- Sum_mul_l, <- Sum_sub. apply Sum_ext. intros. ring.
Qed.
Definition zero4 : ten := fun _ _ _ _ => 0.
Lemma mixed_con nmo nocc (x : rfrag K) g : real_g g -> (forall i j, r_dm1 x i j = r_dm1 x j i) ->
  let D := to_mo (r_o x) (r_dm1 x) in let E p q := D p q + occ nocc p q in
  con2 nmo g (mixed nmo nocc x zero4) = two * B nmo g E (PA nmo (r_o x) (occ nocc)) + two * B nmo g (occ nocc) (PA nmo (r_o x) E).
Proof.
  intros Hg Hd D E. set (o := r_o x).
  assert (SE : forall p q, E p q = E q p) by (intros; unfold E; rewrite (occ_sym nocc p q); f_equal; now apply to_mo_sym).
  set (X := fun p q r s => pocc nocc o p q * E r s). set (Y := fun p q r s => pocc nocc o p s * E q r).
  transitivity (con2 nmo g (fun p q r s => two * X p q r s + (- (1) * Y p q r s + (two * (fun p q r s => PA nmo o E p q * occ nocc r s - half * (PA nmo o E p s * occ nocc r q)) p q r s)))).
  - rewrite <- !con2h_same. apply con2h_ext. intros p q r s Hp Hq Hr Hs. unfold mixed. rewrite loop2. unfold plus2, scale2, outer, outer_x, zero4. fold o.
    rewrite !add_diag_occ. unfold X, Y. change (to_mo o (r_dm1 x)) with D.
    assert (Z : forall q, Sum nmo (fun r => pmo o p r * add_diag nocc 1 D r q) = PA nmo o E p q).
    { intros. unfold PA. apply Sum_ext. intros. rewrite add_diag_occ. unfold E. ring. }
    rewrite !Z. unfold E. rewrite (occ_sym nocc r q).
    transitivity (two * (pocc nocc o p q * (D r s + occ nocc r s)) + - (1) * (pocc nocc o p s * (D q r + occ nocc q r)) + two * occ nocc r s * PA nmo o (fun p q => D p q + occ nocc p q) p q
       + - (half + half) * occ nocc q r * PA nmo o (fun p q => D p q + occ nocc p q) p s); [rewrite Hhalf; ring|unfold two; ring].
  - rewrite !con2_add, !con2_scale. rewrite <- (con2h_same nmo g (fun p q r s => PA nmo o E p q * _ - _)). rewrite B_con2.
    rewrite <- (con2_swap K nmo g X), <- (con2_swap K nmo g Y) by auto. rewrite <- (con2_exch K nmo g (fun p q r s => Y q p s r)) by auto.
    assert (PO : forall p q, (p < nmo)%nat -> (q < nmo)%nat -> pocc nocc o q p = PA nmo o (occ nocc) p q).
    { intros. rewrite PA_occ by auto. unfold pocc. now rewrite (pmo_sym o q p). }
    rewrite <- (B_con2 nmo g E). rewrite <- !con2h_same.
    rewrite (con2h_ext nmo nmo g (fun p q r s => PA nmo o (occ nocc) p q * E r s - half * (PA nmo o (occ nocc) p s * E r q)) (fun p q r s => X q p s r + - half * Y s r q p)).
    + rewrite con2h_add, con2h_scale. set (a := con2h _ _ _ _). set (b := con2h _ _ _ _). unfold two.
      transitivity ((1 + 1) * a + (- (half + half) * b + (1 + 1) * B nmo g (occ nocc) (PA nmo o E))); [rewrite Hhalf; ring|ring].
    + intros p q r s Hp Hq Hr Hs. unfold X, Y. rewrite !PO by auto. rewrite (SE s r). ring.
Qed.

(** Density matrices of a wave function of the cluster: symmetric, and the full 2-DM is the approximate cumulant plus the mixed products (C44, C45) *)
Definition consistent (x : dfrag (K := K)) : Prop := (forall i j, r_dm1 (d_f x) i j = r_dm1 (d_f x) j i)
  /\ forall i j k l, d_full x i j k l = r_approx (d_f x) i j k l + mixed_spec K half (d_nocc x) (r_dm1 (d_f x)) i j k l.
Lemma veff_mf n nocc g p q : half * veff K half n g (add_diag nocc two (fun _ _ => 0)) p q = veff K half n g (occ nocc) p q.
Proof.
  rewrite (veff_ext n g _ (fun p q => two * occ nocc p q)) by (intros; rewrite add_diag_occ; ring). rewrite veff_scale. unfold two.
  transitivity ((half + half) * veff K half n g (occ nocc) p q); [ring|rewrite Hhalf; ring].
Qed.
Lemma frag_full nmo nocc h g ac x : real_g g -> embeds nmo nocc (r_o (d_f x)) (d_nocc x) -> consistent x ->
  frag_dmet half nmo h (vhf half nmo g (add_diag nocc two (fun _ _ => 0))) g false ac x
  = d_sf x * (con1 nmo h (proj1 nmo (r_o (d_f x)) (d_dm1 x)) + half * con2 nmo g (plus2 (mixed nmo nocc (d_f x) zero4) (proj2 nmo (r_o (d_f x)) (r_o (d_f x)) (r_approx (d_f x))))).
Proof.
  intros Hg He [Sd Hf]. unfold frag_dmet. set (o := r_o (d_f x)) in *. set (nc := d_nocc x) in *. set (d := r_dm1 (d_f x)) in *. f_equal.
  set (D := to_mo o d). set (T := fun p q => D p q + two * ocm o nc p q).
  set (M := fun p q => h p q + (veff K half nmo g (occ nocc) p q + - (1) * veff K half nmo g (ocm o nc) p q)).
  (* one-particle part *)
  rewrite (Sum_ext (nclu o) _ (fun x' => Sum (nclu o) (fun j => Sum (nclu o) (fun i => cl_h nmo o M x' j * px nmo o x' i * d_dm1 x i j)))).
  2:{ intros x' Hx'. apply Sum_ext. intros j Hj. apply Sum_ext. intros i Hi. f_equal. f_equal. rewrite v_act_rot by auto.
      rewrite (cl_h_ext nmo o (fun p q => h p q + half * vhf half nmo g _ p q) (fun p q => h p q + veff K half nmo g (occ nocc) p q)) by (intros; now rewrite vhf_veff, veff_mf).
      unfold M. rewrite !cl_h_add, !cl_h_scale. ring. }
  rewrite e1_con. set (PD := PA nmo o D). set (PO := PA nmo o (occ nocc)).
  assert (E1 : forall p q, (p < nmo)%nat -> (q < nmo)%nat -> proj1 nmo o (d_dm1 x) p q = PD p q + two * PO p q) by (intros; now apply dm1_mo).
  assert (BX : forall a, B nmo g a (proj1 nmo o (d_dm1 x)) = B nmo g a PD + two * B nmo g a PO).
  { intros. rewrite (B_ext nmo g a a _ (fun p q => PD p q + two * PO p q)) by auto. now rewrite B_add_r, B_scale_r. }
  unfold M. rewrite !con1_add_l, con1_scale_l. fold (B nmo g (occ nocc) (proj1 nmo o (d_dm1 x))). fold (B nmo g (ocm o nc) (proj1 nmo o (d_dm1 x))). rewrite !BX.
  (* two-particle part *)
  match goal with |- _ + half * ?X = _ => replace X with (con2h nmo nmo g (proj2 nmo o o (d_full x))) by (symmetry; apply e2_con) end.
  assert (E2 : con2h nmo nmo g (proj2 nmo o o (d_full x)) = con2 nmo g (proj2 nmo o o (r_approx (d_f x))) + (B nmo g T (PA nmo o T) + - (1) * B nmo g D PD)).
  { unfold PD. rewrite <- !B_con2, <- con2h_scale, <- con2h_add, <- con2h_same, <- con2h_add. apply con2h_ext. intros p q r s Hp Hq Hr Hs.
    rewrite !proj2_contains by (auto; apply He). rewrite <- !P_product, <- Sum_mul_l, <- !Sum_add. apply Sum_ext. intros t Ht.
    assert (Z : to_mo2 o o (d_full x) t q r s = to_mo2 o o (r_approx (d_f x)) t q r s + (product half T t q r s + - (1) * product half D t q r s)).
    { unfold D. rewrite <- to_mo2_product.
      assert (Z : product half T t q r s = to_mo2 o o (product half (fun i j => d i j + two * occ nc i j)) t q r s).
      { rewrite to_mo2_product. unfold product. assert (ZZ : forall p q, to_mo o (fun i j => d i j + two * occ nc i j) p q = T p q).
        { intros. unfold T. rewrite to_mo_add, to_mo_scale, to_mo_occ by apply He. reflexivity. } now rewrite !ZZ. }
      rewrite Z, <- to_mo2_scale, <- !to_mo2_add. unfold P_Demo.to_mo2. repeat (apply Sum_ext; intros). rewrite Hf. unfold mixed_spec, mf_dm1. fold d. fold nc. ring. }
    rewrite Z. ring. }
  rewrite E2.
  assert (PT : forall p q, (p < nmo)%nat -> (q < nmo)%nat -> PA nmo o T p q = PD p q + two * PO p q).
  { intros. unfold T, PD, PO. rewrite PA_add, PA_scale, (PA_ocm nmo nocc) by auto. reflexivity. }
  assert (BT : B nmo g T (PA nmo o T) = (B nmo g D PD + two * B nmo g D PO) + two * (B nmo g (ocm o nc) PD + two * B nmo g (ocm o nc) PO)).
  { rewrite (B_ext nmo g T T _ (fun p q => PD p q + two * PO p q)) by auto. unfold T. rewrite B_add_l, B_scale_l, !B_add_r, !B_scale_r. ring. }
  rewrite BT. unfold plus2. rewrite con2_add. change (fun p q r s => mixed nmo nocc (d_f x) zero4 p q r s) with (mixed nmo nocc (d_f x) zero4).
  rewrite mixed_con by auto. fold o. fold d. fold D.
  rewrite B_add_l. rewrite (B_ext nmo g (occ nocc) (occ nocc) (PA nmo o (fun p q => D p q + occ nocc p q)) (fun p q => PD p q + PO p q)) by (auto; intros; apply PA_add). rewrite B_add_r.
  fold PO. change (con2 nmo g (fun p q r s => proj2 nmo o o (r_approx (d_f x)) p q r s)) with (con2 nmo g (proj2 nmo o o (r_approx (d_f x)))).
  set (a := con1 nmo h _). set (b1 := B nmo g (occ nocc) PD). set (b2 := B nmo g (occ nocc) PO). set (c1 := B nmo g (ocm o nc) PD). set (c2 := B nmo g (ocm o nc) PO).
  set (d1 := B nmo g D PD). set (d2 := B nmo g D PO). set (y := con2 nmo g _). unfold two.
  transitivity (a + (b1 + (1 + 1) * b2 - c1 - (1 + 1) * c2) + half * y + (half + half) * (d2 + c1 + (1 + 1) * c2)); [ring|].
  transitivity (a + half * y + (half + half) * (d2 + b2 + b1 + b2)); [rewrite Hhalf; ring|ring].
Qed.
Lemma con1_Lsum {A} n (h : mat) (l : list A) (d : A -> mat) : con1 n h (fun p q => Lsum l (fun x => d x p q)) = Lsum l (fun x => con1 n h (d x)).
Proof.
  induction l as [|x l IH]; cbn [Lsum].
  - unfold P_Demo.con1. apply Sum_0. intros. apply Sum_0. intros. ring.
  - now rewrite con1_add, IH.
Qed.
Lemma con2h_Lsum {A} na nb (g : ten) (l : list A) (d : A -> ten) : con2h na nb g (fun p q r s => Lsum l (fun x => d x p q r s)) = Lsum l (fun x => con2h na nb g (d x)).
Proof.
  induction l as [|x l IH]; cbn [Lsum].
  - unfold con2h, S4. apply Sum_0. intros. apply Sum_0. intros. apply Sum_0. intros. apply Sum_0. intros. ring.
  - now rewrite con2h_add, IH.
Qed.
Lemma con1_sym n (h d : mat) b : (forall p q, h p q = h q p) -> con1 n h (sym1 half b d) = con1 n h d.
Proof.
  intros H. destruct b; cbn [sym1]; auto. rewrite con1_scale, con1_add.
  assert (E : con1 n h (fun p q => d q p) = con1 n h d). { unfold P_Demo.con1. rewrite Sum_swap. apply Sum_ext. intros. apply Sum_ext. intros. now rewrite H. }
  rewrite E. change (con1 n h (fun p q => d p q)) with (con1 n h d). transitivity ((half + half) * con1 n h d); [ring|rewrite Hhalf; ring].
Qed.

(** Symmetry: a child is the image of its parent under an orthogonal transformation [U] of the MOs which leaves the Hamiltonian and the mean field invariant;
    the cluster wave function is that of the parent. *)
Definition invariant1 (nmo : nat) (U m : mat) : Prop := forall s t, (s < nmo)%nat -> (t < nmo)%nat -> Sum nmo (fun p => Sum nmo (fun q => U p s * m p q * U q t)) = m s t.
Definition invariant2 (na nb : nat) (U V : mat) (g : ten) : Prop := forall t u v w, (t < na)%nat -> (u < na)%nat -> (v < nb)%nat -> (w < nb)%nat ->
  S4 na na nb nb (fun p q r s => U p t * U q u * V r v * V s w * g p q r s) = g t u v w.
Definition image (nmo : nat) (U : mat) (o o' : orbs K) : Prop := nclu o' = nclu o /\ nfrg o' = nfrg o
  /\ (forall p i, (p < nmo)%nat -> rx o' p i = Sum nmo (fun s => U p s * rx o s i)) /\ (forall p f, (p < nmo)%nat -> fx o' p f = Sum nmo (fun s => U p s * fx o s f)).
Definition orthogonal (nmo : nat) (U : mat) : Prop := invariant1 nmo U (fun p q => delta p q).
Lemma inv1 nmo U (a b : nat -> nat -> K) m i j : invariant1 nmo U m ->
  Sum nmo (fun p => Sum nmo (fun q => Sum nmo (fun s => U p s * a s i) * m p q * Sum nmo (fun s => U q s * b s j))) = Sum nmo (fun s => Sum nmo (fun t => a s i * m s t * b t j)).
Proof.
  intros H. transitivity (S4 nmo nmo nmo nmo (fun p q s t => a s i * b t j * (U p s * m p q * U q t))).
  - unfold S4. apply Sum_ext. intros p Hp. apply Sum_ext. intros q Hq. rewrite <- Sum_mul_r, <- Sum_mul_r. apply Sum_ext. intros s Hs. rewrite <- Sum_mul_l. apply Sum_ext. intros. ring.
  - rewrite S4_exch. unfold S4. apply Sum_ext. intros s Hs. apply Sum_ext. intros t Ht. rewrite <- (H s t Hs Ht).
    transitivity (a s i * b t j * Sum nmo (fun p => Sum nmo (fun q => U p s * m p q * U q t))); [|ring].
    rewrite <- Sum_mul_l. apply Sum_ext. intros p Hp. now rewrite <- Sum_mul_l.
Qed.
Lemma cl_h_image nmo U o o' m i j : image nmo U o o' -> invariant1 nmo U m -> cl_h nmo o' m i j = cl_h nmo o m i j.
Proof.
  intros (_ & _ & Hr & _) H. unfold cl_h. rewrite <- (inv1 nmo U (rx o) (rx o) m i j H). apply Sum_ext. intros p Hp. apply Sum_ext. intros q Hq. now rewrite !Hr.
Qed.
Lemma px_image nmo U o o' i j : image nmo U o o' -> orthogonal nmo U -> px nmo o' i j = px nmo o i j.
Proof.
  intros (_ & Hn & Hr & Hf) H. unfold px. rewrite Hn. apply Sum_ext. intros f Hlt.
  assert (E : forall i, cl_fr nmo o' i f = cl_fr nmo o i f).
  { intros k. unfold cl_fr. transitivity (Sum nmo (fun p => Sum nmo (fun q => rx o' p k * delta p q * fx o' q f))).
    - apply Sum_ext. intros p Hp. rewrite (Sum_ext nmo _ (fun q => delta p q * (rx o' p k * fx o' q f))) by (intros; ring). now rewrite (Sum_delta_l nmo p (fun q => rx o' p k * fx o' q f)).
    - transitivity (Sum nmo (fun p => Sum nmo (fun q => rx o p k * delta p q * fx o q f))).
      + rewrite <- (inv1 nmo U (rx o) (fx o) (fun p q => delta p q) k f H). apply Sum_ext. intros p Hp. apply Sum_ext. intros q Hq. rewrite Hr, Hf by auto. reflexivity.
      + apply Sum_ext. intros p Hp. rewrite (Sum_ext nmo _ (fun q => delta p q * (rx o p k * fx o q f))) by (intros; ring). now rewrite (Sum_delta_l nmo p (fun q => rx o p k * fx o q f)). }
  now rewrite !E.
Qed.
Lemma cl_g_image na nb U V oa oa' ob ob' g x y z w : image na U oa oa' -> image nb V ob ob' -> invariant2 na nb U V g -> cl_g na nb oa' ob' g x y z w = cl_g na nb oa ob g x y z w.
Proof.
  intros (_ & _ & Ha & _) (_ & _ & Hb & _) H. rewrite !cl_g_S4.
  transitivity (S4 na na nb nb (fun p q r s => S4 na na nb nb (fun t u v w' => (rx oa t x * rx oa u y * rx ob v z * rx ob w' w) * (U p t * U q u * V r v * V s w' * g p q r s)))).
  - apply S4_ext. intros p q r s Hp Hq Hr Hs. rewrite !Ha, !Hb by auto.
    rewrite S4_prod. transitivity (g p q r s * S4 na na nb nb (fun t u v w' => U p t * rx oa t x * (U q u * rx oa u y) * (V r v * rx ob v z) * (V s w' * rx ob w' w))); [ring|].
    rewrite <- S4_mul_l. apply S4_ext. intros. ring.
  - rewrite S4_swap. apply S4_ext. intros t u v w' Ht Hu Hv Hw. rewrite S4_mul_l. now rewrite H.
Qed.
Definition child (nmo : nat) (h v : mat) (g : ten) (x y : dfrag (K := K)) : Prop := exists U,
  orthogonal nmo U /\ invariant1 nmo U h /\ invariant1 nmo U v /\ invariant2 nmo nmo U U g /\ image nmo U (r_o (d_f x)) (r_o (d_f y))
  /\ d_nocc y = d_nocc x /\ d_sf y = d_sf x
  /\ r_dm1 (d_f y) = r_dm1 (d_f x) /\ r_approx (d_f y) = r_approx (d_f x) /\ r_exact (d_f y) = r_exact (d_f x) /\ d_full y = d_full x.
Lemma inv1_lin nmo U (a b : mat) c : invariant1 nmo U a -> invariant1 nmo U b -> invariant1 nmo U (fun p q => a p q + c * b p q).
Proof.
  intros Ha Hb s t Hs Ht. rewrite <- (Ha s t), <- (Hb s t) by auto. rewrite <- Sum_mul_l, <- Sum_add. apply Sum_ext. intros. rewrite <- Sum_mul_l, <- Sum_add. apply Sum_ext. intros. ring.
Qed.
Lemma child_energy nmo h v g pc ac x y : child nmo h v g x y -> frag_dmet half nmo h v g pc ac y = frag_dmet half nmo h v g pc ac x.
Proof.
  intros (U & HU & Hh & Hv & Hg & Hi & N & Sf & E1 & E2 & E3 & E4). unfold frag_dmet, d_dm1. rewrite N, Sf, E1, E2, E3, E4, (Logic.proj1 Hi).
  set (o := r_o (d_f x)) in *. set (o' := r_o (d_f y)) in *.
  assert (G : forall a b c d, cl_g nmo nmo o' o' g a b c d = cl_g nmo nmo o o g a b c d) by (intros; now apply (cl_g_image nmo nmo U U)).
  assert (P : forall a b, px nmo o' a b = px nmo o a b) by (intros; now apply (px_image nmo U)).
  f_equal. f_equal.
  - apply Sum_ext. intros a Ha. apply Sum_ext. intros b Hb. apply Sum_ext. intros c Hc. rewrite P. f_equal. f_equal. destruct pc.
    + now apply (cl_h_image nmo U).
    + f_equal; [apply (cl_h_image nmo U); auto; now apply inv1_lin|]. unfold v_act. f_equal; [|f_equal]; apply Sum_ext; intros; apply G.
  - f_equal. apply Sum_ext. intros a Ha. apply Sum_ext. intros b Hb. apply Sum_ext. intros c Hc. apply Sum_ext. intros d Hd. apply Sum_ext. intros e He'. now rewrite P, G.
Qed.
Lemma fold_sum {A} (l : list A) (f : A -> K) : forall a, fold_left (fun e x => e + f x) l a = a + Lsum l f.
Proof. induction l as [|x l IH]; intros a; cbn [fold_left Lsum]; [ring|]. rewrite IH. ring. Qed.
Lemma fold_left_map' {A B S} (f : S -> B -> S) (g : A -> B) l : forall a, fold_left f (map g l) a = fold_left (fun s x => f s (g x)) l a.
Proof. induction l as [|x l IH]; intros a; [reflexivity|]. apply IH. Qed.
(** The fragments with symmetry parent [x], and the list of all fragments *)
Definition family {A} (children : A -> list A) (frags all : list A) : Prop := Permutation.Permutation all (flat_map (fun x => x :: children x) frags).
Lemma Lsum_family {A} children (frags all : list A) (w : A -> K) (f : A -> K) : family children frags all ->
  (forall x, In x frags -> w x = nK (S (length (children x)))) -> (forall x y, In x frags -> In y (children x) -> f y = f x) -> Lsum frags (fun x => w x * f x) = Lsum all f.
Proof.
  intros Hp Hw Hf. rewrite (Lsum_Permutation all _ f Hp). rewrite Lsum_flat_map. apply Lsum_ext. intros x Hx. cbn [Lsum].
  rewrite (Lsum_ext (children x) f (fun _ => f x)) by (intros; now apply Hf). rewrite Lsum_const, Hw by auto. cbn [nK]. ring.
Qed.

(** The DMET energy, with partitioned cumulant (approximate or exact) or with partitioned density matrix, is the energy of the Hamiltonian [h], [g] in the
    democratically partitioned density matrices. *)
Theorem C55_restricted : forall nmo nocc h g frags all children part_cumulant approx_cumulant symmetrize,
  real_g g -> (forall p q, h p q = h q p) ->
  (forall x, In x all -> embeds nmo nocc (r_o (d_f x)) (d_nocc x) /\ consistent x /\ d_sf x = 1) ->
  partition nmo (fun x => r_o (d_f x)) all ->
  family children frags all -> (forall x, In x frags -> d_w x = nK (S (length (children x)))) ->
  (forall x y, In x frags -> In y (children x) -> child nmo h (vhf half nmo g (add_diag nocc two (fun _ _ => 0))) g x y) ->
  dmet_elec half nmo nocc h g frags all part_cumulant approx_cumulant
  = con1 nmo h (rdm1_demo half nmo nocc (map d_f all) true symmetrize)
    + half * con2 nmo g (rdm2_demo half nmo nocc (map d_f all) true part_cumulant approx_cumulant symmetrize).
Proof.
  intros nmo nocc h g frags all children pc ac sy Hg Hh Hx Hpart Hfam Hw Hch. unfold dmet_elec. set (d0 := add_diag nocc two (fun _ _ => 0)) in *.
  rewrite fold_sum. rewrite (Lsum_family children frags all d_w _ Hfam Hw) by (intros; apply child_energy; now apply Hch).
  set (A1 := fold_left (fun dm1 x => plus1 dm1 (proj1 nmo (r_o x) (r_dm1 x))) (map d_f all) (fun _ _ : nat => (0 : K))).
  assert (D1 : con1 nmo h (rdm1_demo half nmo nocc (map d_f all) true sy) = con1 nmo h A1 + con1 nmo h d0).
  { unfold rdm1_demo. fold A1. rewrite con1_sym by auto. rewrite <- con1_add. apply con1_ext. intros. unfold d0. rewrite !add_diag_occ. ring. }
  assert (E1 : Lsum all (fun x => con1 nmo h (proj1 nmo (r_o (d_f x)) (d_dm1 x))) = con1 nmo h A1 + con1 nmo h d0).
  { rewrite <- con1_Lsum, <- con1_add. apply con1_ext'. intros p q Hp Hq. unfold A1.
    rewrite (fold_mat K (fun dm1 x => plus1 dm1 (proj1 nmo (r_o x) (r_dm1 x))) (fun x => proj1 nmo (r_o x) (r_dm1 x) p q)) by reflexivity. rewrite Lsum_map.
    rewrite (Lsum_ext all (fun x => proj1 nmo (r_o (d_f x)) (d_dm1 x) p q) (fun x => proj1 nmo (r_o (d_f x)) (r_dm1 (d_f x)) p q + two * PA nmo (r_o (d_f x)) (occ nocc) p q)).
    - rewrite Lsum_add, Lsum_mul_l, (PA_sum nmo (fun x => r_o (d_f x))) by auto. unfold d0. rewrite add_diag_occ. ring.
    - intros x Hin. destruct (Hx x Hin) as (He & _ & _). rewrite (dm1_mo nmo nocc) by auto. rewrite proj1_contains by (auto; apply He). reflexivity. }
  rewrite D1. destruct pc.
  - (* partitioned cumulant *)
    rewrite (Lsum_ext all _ (fun x => con1 nmo h (proj1 nmo (r_o (d_f x)) (d_dm1 x)) + half * con2 nmo g (proj2 nmo (r_o (d_f x)) (r_o (d_f x)) (if ac then r_approx (d_f x) else r_exact (d_f x))))).
    2:{ intros x Hin. rewrite frag_pc. destruct (Hx x Hin) as (_ & _ & ->). ring. }
    rewrite Lsum_add, Lsum_mul_l, E1.
    assert (E2 : con2 nmo g (rdm2_demo half nmo nocc (map d_f all) false true ac sy) = Lsum all (fun x => con2 nmo g (proj2 nmo (r_o (d_f x)) (r_o (d_f x)) (if ac then r_approx (d_f x) else r_exact (d_f x))))).
    { unfold rdm2_demo. cbn [andb]. cbv zeta. rewrite con2_sym by auto.
      rewrite <- (con2h_same nmo g). rewrite <- (Lsum_ext all (fun x => con2h nmo nmo g (proj2 nmo (r_o (d_f x)) (r_o (d_f x)) (if ac then r_approx (d_f x) else r_exact (d_f x))))) by (intros; apply con2h_same).
      rewrite <- con2h_Lsum. apply con2h_ext. intros p q r s _ _ _ _.
      rewrite (fold_ten K _ (fun x => proj2 nmo (r_o x) (r_o x) (if ac then r_approx x else r_exact x) p q r s)) by reflexivity. rewrite Lsum_map. ring. }
    rewrite <- E2.
    assert (DD : forall b, con1 nmo h (rdm1_demo half nmo nocc (map d_f all) true b) = con1 nmo h A1 + con1 nmo h d0).
    { intros b. unfold rdm1_demo. fold A1. rewrite con1_sym by auto. rewrite <- con1_add. apply con1_ext. intros. unfold d0. rewrite !add_diag_occ. ring. }
    assert (D0 : forall p q, d0 p q = mf_dm1 nocc p q) by (intros; unfold d0, mf_dm1; rewrite add_diag_occ; ring).
    destruct ac.
    + pose proof (C34_energy K half Hhalf nmo nocc (map d_f all) h g sy Hg) as E. cbv zeta beta in E. rewrite DD in E. rewrite E. rewrite con1_add_l.
      assert (M1 : forall p q, rdm1_demo half nmo nocc (map d_f all) true true p q = rdm1_demo half nmo nocc (map d_f all) false true p q + mf_dm1 nocc p q).
      { intros. unfold rdm1_demo, mf_dm1. cbn [sym1]. rewrite !add_diag_occ, (occ_sym nocc q p). fold A1. unfold two.
        transitivity (half * (A1 p q + A1 q p) + (half + half) * (1 + 1) * occ nocc p q); [ring|rewrite Hhalf; ring]. }
      assert (M0 : con1 nmo h A1 + con1 nmo h d0 = con1 nmo h (rdm1_demo half nmo nocc (map d_f all) false true) + con1 nmo h (mf_dm1 nocc)).
      { rewrite <- (DD true). rewrite <- con1_add. apply con1_ext. auto. }
      rewrite M0.
      fold (con1 nmo (vhf half nmo g d0) (fun p q => two * rdm1_demo half nmo nocc (map d_f all) true true p q - d0 p q)).
      assert (V : con1 nmo (vhf half nmo g d0) (fun p q => two * rdm1_demo half nmo nocc (map d_f all) true true p q - d0 p q)
        = two * con1 nmo (veff K half nmo g (mf_dm1 nocc)) (rdm1_demo half nmo nocc (map d_f all) false true) + con1 nmo (veff K half nmo g (mf_dm1 nocc)) (mf_dm1 nocc)).
      { rewrite <- con1_scale, <- con1_add. rewrite (con1_ext_l nmo (vhf half nmo g d0) (veff K half nmo g (mf_dm1 nocc))) by (intros; rewrite vhf_veff; apply veff_ext; intros; apply D0).
        apply con1_ext. intros. rewrite D0, M1. unfold two. ring. }
      rewrite V. set (a := con1 nmo (veff _ _ _ _ _) _). unfold two.
      match goal with |- ?L = _ => match L with 0 + (?P + half * ?Q) + half * ((1 + 1) * a + ?R) => transitivity (P + half * Q + half * R + (half + half) * a); [ring|rewrite Hhalf; ring] end end.
    + pose proof (C34_energy_cumulant K half Hhalf nmo nocc (map d_f all) h g sy Hg) as E. cbv zeta beta in E. rewrite DD in E. rewrite E.
      fold (con1 nmo (vhf half nmo g (rdm1_demo half nmo nocc (map d_f all) true true)) (rdm1_demo half nmo nocc (map d_f all) true true)).
      rewrite (con1_ext_l nmo (vhf half nmo g _) (veff K half nmo g (rdm1_demo half nmo nocc (map d_f all) true true))) by (intros; apply vhf_veff).
      rewrite !con1_add_l, (DD true). set (a := con1 nmo h A1 + con1 nmo h d0).
      match goal with |- 0 + (a + half * ?Q) + half * ?R = _ => transitivity ((half + half) * a + half * Q + half * R); [rewrite Hhalf; ring|ring] end.
  - (* partitioned density matrix *)
    rewrite (Lsum_ext all _ (fun x => con1 nmo h (proj1 nmo (r_o (d_f x)) (d_dm1 x)) + half * con2 nmo g (plus2 (mixed nmo nocc (d_f x) zero4) (proj2 nmo (r_o (d_f x)) (r_o (d_f x)) (r_approx (d_f x)))))).
    2:{ intros x Hin. destruct (Hx x Hin) as (He & Hc & Hs). unfold d0. rewrite frag_full, Hs by auto. ring. }
    rewrite Lsum_add, Lsum_mul_l, E1.
    unfold rdm2_demo. cbn [andb]. cbv zeta. rewrite con2_sym by auto.
    rewrite <- (con2h_same nmo g). rewrite <- (Lsum_ext all (fun x => con2h nmo nmo g (plus2 (mixed nmo nocc (d_f x) zero4) (proj2 nmo (r_o (d_f x)) (r_o (d_f x)) (r_approx (d_f x)))))) by (intros; apply con2h_same).
    rewrite <- con2h_Lsum.
    rewrite (con2h_ext nmo nmo g (fold_left _ _ _) (fun p q r s => Lsum all (fun x => plus2 (mixed nmo nocc (d_f x) zero4) (proj2 nmo (r_o (d_f x)) (r_o (d_f x)) (r_approx (d_f x))) p q r s))); [ring|].
    intros p q r s _ _ _ _.
    rewrite (fold_ten K _ (fun x => plus2 (mixed nmo nocc x zero4) (proj2 nmo (r_o x) (r_o x) (r_approx x)) p q r s)).
    + rewrite Lsum_map. ring.
    + intros a x _. unfold rdm2_step. cbn [orb negb]. unfold plus2 at 1. unfold plus2 at 1. unfold mixed. rewrite !loop2. unfold plus2, zero4. ring.
Qed.

(** ** Unrestricted *)
Notation "'aa'" := (aa K).
Notation "'ab'" := (ab K).
Notation "'bb'" := (bb K).
Definition Bs (n : nat) (g : ten) (a b : mat) : K := con2h n n g (fun p q r s => b p q * a r s - b p s * a r q).
Definition Bo (na nb : nat) (g : ten) (a b : mat) : K := con2h na nb g (fun p q r s => a p q * b r s).
Lemma Bs_add_l n g (a a' b : mat) : Bs n g (fun p q => a p q + a' p q) b = Bs n g a b + Bs n g a' b.
Proof. unfold Bs. rewrite <- con2h_add. apply con2h_ext. intros. ring. Qed.
Lemma Bs_add_r n g (a b b' : mat) : Bs n g a (fun p q => b p q + b' p q) = Bs n g a b + Bs n g a b'.
Proof. unfold Bs. rewrite <- con2h_add. apply con2h_ext. intros. ring. Qed.
Lemma Bs_scale_r n g (a b : mat) c : Bs n g a (fun p q => c * b p q) = c * Bs n g a b.
Proof. unfold Bs. rewrite <- con2h_scale. apply con2h_ext. intros. ring. Qed.
Lemma Bs_ext n g (a a' b b' : mat) : (forall p q, (p < n)%nat -> (q < n)%nat -> a p q = a' p q) -> (forall p q, (p < n)%nat -> (q < n)%nat -> b p q = b' p q) -> Bs n g a b = Bs n g a' b'.
Proof. intros Ha Hb. unfold Bs. apply con2h_ext. intros. now rewrite !Ha, !Hb. Qed.
Lemma Bs_sym n g (a b : mat) : real_g g -> Bs n g a b = Bs n g b a.
Proof.
  intros H. unfold Bs. rewrite !con2h_same. rewrite <- (con2_exch K n g (fun p q r s => b p q * a r s - b p s * a r q)) by auto. apply con2_ext. intros. ring.
Qed.
Lemma Bo_add_l na nb g (a a' b : mat) : Bo na nb g (fun p q => a p q + a' p q) b = Bo na nb g a b + Bo na nb g a' b.
Proof. unfold Bo. rewrite <- con2h_add. apply con2h_ext. intros. ring. Qed.
Lemma Bo_add_r na nb g (a b b' : mat) : Bo na nb g a (fun p q => b p q + b' p q) = Bo na nb g a b + Bo na nb g a b'.
Proof. unfold Bo. rewrite <- con2h_add. apply con2h_ext. intros. ring. Qed.
Lemma Bo_scale_l na nb g (a b : mat) c : Bo na nb g (fun p q => c * a p q) b = c * Bo na nb g a b.
Proof. unfold Bo. rewrite <- con2h_scale. apply con2h_ext. intros. ring. Qed.
Lemma Bo_scale_r na nb g (a b : mat) c : Bo na nb g a (fun p q => c * b p q) = c * Bo na nb g a b.
Proof. unfold Bo. rewrite <- con2h_scale. apply con2h_ext. intros. ring. Qed.
Lemma Bo_ext na nb g (a a' b b' : mat) : (forall p q, (p < na)%nat -> (q < na)%nat -> a p q = a' p q) -> (forall p q, (p < nb)%nat -> (q < nb)%nat -> b p q = b' p q) -> Bo na nb g a b = Bo na nb g a' b'.
Proof. intros Ha Hb. unfold Bo. apply con2h_ext. intros. now rewrite Ha, Hb. Qed.
Lemma Bo_flip na nb g (a b : mat) : Bo nb na (flip g) b a = Bo na nb g a b.
Proof. unfold Bo, con2h. rewrite S4_exch. apply S4_ext. intros. unfold flip. ring. Qed.
(** Contractions of the mean-field potential *)
Lemma con1_uvhf n n' g g' (da db b : mat) : con1 n (uvhf n n' g g' da db) b = Bs n g da b + Bo n n' g' b db.
Proof.
  unfold P_Demo.con1, uvhf.
  transitivity (S4 n n n n (fun p q r s => g p q r s * (b p q * da r s)) + S4 n n n' n' (fun p q r s => g' p q r s * (b p q * db r s)) + - (1) * S4 n n n n (fun p q r s => g p s r q * (b p q * da r s))).
  - rewrite <- S4_mul_l. unfold S4. rewrite <- !Sum_add. apply Sum_ext. intros p Hp. rewrite <- !Sum_add. apply Sum_ext. intros q Hq.
    assert (H : forall m (f : mat) c, Sum m (fun r => Sum m (fun s => f r s)) * c = Sum m (fun r => Sum m (fun s => f r s * c))).
    { intros. rewrite <- Sum_mul_r. apply Sum_ext. intros. now rewrite <- Sum_mul_r. }
    transitivity (Sum n (fun r => Sum n (fun s => g p q r s * da r s)) * b p q + Sum n' (fun r => Sum n' (fun s => g' p q r s * db r s)) * b p q + Sum n (fun r => Sum n (fun s => g p s r q * da r s)) * (- (1) * b p q)); [ring|].
    rewrite !H. f_equal; [f_equal|]; apply Sum_ext; intros; apply Sum_ext; intros; ring.
  - rewrite (S4_24 n n n n (fun p q r s => g p s r q * (b p q * da r s))). unfold Bs, Bo.
    rewrite (con2h_ext n n g (fun p q r s => b p q * da r s - b p s * da r q) (fun p q r s => b p q * da r s + - (1) * (b p s * da r q))) by (intros; ring).
    rewrite con2h_add, con2h_scale. unfold con2h. ring.
Qed.
(** Projected products *)
Lemma P_product_ss nmo o (a : mat) p q r s : Sum nmo (fun t => pmo o p t * product_ss a t q r s) = PA nmo o a p q * a r s - PA nmo o a p s * a r q.
Proof. unfold PA, product_ss. rewrite <- !Sum_mul_r, <- Sum_sub. apply Sum_ext. intros. ring. Qed.
Lemma to_mo2_product_ss o (a : mat) p q r s : to_mo2 o o (product_ss a) p q r s = product_ss (to_mo o a) p q r s.
Proof.
  unfold product_ss. transitivity (to_mo2 o o (fun i j k l => a i j * a k l + - (1) * (a i l * a k j)) p q r s).
  - unfold P_Demo.to_mo2. repeat (apply Sum_ext; intros). ring.
  - rewrite to_mo2_add, to_mo2_scale, to_mo2_outer, to_mo2_exch. ring.
Qed.
Lemma to_mo_T nmo nocc o nc (d : mat) p q : embeds nmo nocc o nc -> to_mo o (fun i j => d i j + occ nc i j) p q = to_mo o d p q + ocm o nc p q.
Proof. intros He. rewrite to_mo_add, to_mo_occ by apply He. reflexivity. Qed.
Lemma PT_eq nmo nocc o nc (D : mat) p q : embeds nmo nocc o nc -> (q < nmo)%nat -> PA nmo o (fun p q => D p q + ocm o nc p q) p q = PA nmo o (fun p q => D p q + occ nocc p q) p q.
Proof. intros He Hq. rewrite !PA_add, (PA_ocm nmo nocc) by auto. reflexivity. Qed.
Lemma udm1_mo nmo nocc o nc (d : mat) p q : embeds nmo nocc o nc -> (p < nmo)%nat -> (q < nmo)%nat ->
  proj1 nmo o (add_diag nc 1 d) p q = PA nmo o (fun p q => to_mo o d p q + occ nocc p q) p q.
Proof.
  intros He Hp Hq. rewrite proj1_contains by (auto; apply He). rewrite <- (PT_eq nmo nocc o nc) by auto. unfold PA. apply Sum_ext. intros t Ht. f_equal.
  rewrite <- (to_mo_T nmo nocc) by auto. unfold to_mo. apply Sum_ext. intros. apply Sum_ext. intros. rewrite add_diag_occ. ring.
Qed.
(** The mixed products of the cluster, projected *)
Lemma mixed_ss_con nmo nocc o nc g (d : mat) : embeds nmo nocc o nc ->
  let D := to_mo o d in
  con2h nmo nmo g (proj2 nmo o o (mixed_ss K nc d)) = Bs nmo g (fun p q => D p q + ocm o nc p q) (PA nmo o (fun p q => D p q + occ nocc p q)) + - (1) * Bs nmo g D (PA nmo o D).
Proof.
  intros He D. unfold Bs. rewrite <- con2h_scale, <- con2h_add. apply con2h_ext. intros p q r s Hp Hq Hr Hs. rewrite proj2_contains by (auto; apply He).
  rewrite <- !(PT_eq nmo nocc o nc) by auto.
  transitivity (Sum nmo (fun t => pmo o p t * product_ss (fun p q => D p q + ocm o nc p q) t q r s) + - (1) * Sum nmo (fun t => pmo o p t * product_ss D t q r s)); [|rewrite !P_product_ss; reflexivity].
  rewrite <- Sum_mul_l, <- Sum_add. apply Sum_ext. intros t Ht.
  transitivity (pmo o p t * (product_ss (fun p q => D p q + ocm o nc p q) t q r s + - (1) * product_ss D t q r s)); [|ring]. f_equal.
  assert (Z : product_ss (fun p q => D p q + ocm o nc p q) t q r s = to_mo2 o o (product_ss (fun i j => d i j + occ nc i j)) t q r s).
  { rewrite to_mo2_product_ss. unfold product_ss. now rewrite !(to_mo_T nmo nocc) by auto. }
  rewrite Z. unfold D. rewrite <- to_mo2_product_ss, <- to_mo2_scale, <- to_mo2_add. unfold P_Demo.to_mo2. repeat (apply Sum_ext; intros). unfold mixed_ss. ring.
Qed.
Lemma mixed_ab_con na nb noa nob oa ob ca cb g (da db : mat) : embeds na noa oa ca -> embeds nb nob ob cb ->
  let Da := to_mo oa da in let Db := to_mo ob db in
  con2h na nb g (proj2 na oa ob (mixed_ab K ca cb da db)) = Bo na nb g (PA na oa (fun p q => Da p q + occ noa p q)) (fun p q => Db p q + ocm ob cb p q) + - (1) * Bo na nb g (PA na oa Da) Db
  /\ con2h na nb g (proj2b nb oa ob (mixed_ab K ca cb da db)) = Bo na nb g (fun p q => Da p q + ocm oa ca p q) (PA nb ob (fun p q => Db p q + occ nob p q)) + - (1) * Bo na nb g Da (PA nb ob Db).
Proof.
  intros Ha Hb Da Db.
  assert (Z : forall p q r s, to_mo2 oa ob (mixed_ab K ca cb da db) p q r s = (Da p q + ocm oa ca p q) * (Db r s + ocm ob cb r s) + - (1) * (Da p q * Db r s)).
  { intros. unfold Da, Db. rewrite <- (to_mo_T na noa), <- (to_mo_T nb nob) by auto. rewrite <- !to_mo2_outer, <- to_mo2_scale, <- to_mo2_add. unfold P_Demo.to_mo2. repeat (apply Sum_ext; intros). unfold mixed_ab, product_ab. ring. }
  split; unfold Bo; rewrite <- con2h_scale, <- con2h_add; apply con2h_ext; intros p q r s Hp Hq Hr Hs.
  - rewrite proj2_contains by (auto; apply Ha). rewrite <- (PT_eq na noa oa ca) by auto. unfold PA. rewrite <- !Sum_mul_r, <- Sum_mul_l, <- Sum_add. apply Sum_ext. intros t Ht. rewrite Z. ring.
  - rewrite proj2b_contains by (auto; apply Hb). rewrite <- (PT_eq nb nob ob cb) by auto. unfold PA. rewrite <- !Sum_mul_l, <- Sum_add. apply Sum_ext. intros t Ht. rewrite Z. ring.
Qed.
Definition uconsistent (x : udfrag (K := K)) : Prop :=
  (forall i j, u_dm1a (ud_f x) i j = u_dm1a (ud_f x) j i) /\ (forall i j, u_dm1b (ud_f x) i j = u_dm1b (ud_f x) j i)
  /\ forall i j k l, aa (ud_full x) i j k l = aa (u_approx (ud_f x)) i j k l + mixed_ss K (fst (ud_nocc x)) (u_dm1a (ud_f x)) i j k l
    /\ ab (ud_full x) i j k l = ab (u_approx (ud_f x)) i j k l + mixed_ab K (fst (ud_nocc x)) (snd (ud_nocc x)) (u_dm1a (ud_f x)) (u_dm1b (ud_f x)) i j k l
    /\ bb (ud_full x) i j k l = bb (u_approx (ud_f x)) i j k l + mixed_ss K (snd (ud_nocc x)) (u_dm1b (ud_f x)) i j k l.
(** Coulomb and exchange of the cluster, unrestricted *)
Lemma uv_act_rot n n' o o' g g' nc nc' x y : real_g g ->
  Sum nc (fun i => cl_g n n o o g i i x y) + Sum nc' (fun i => cl_g n n' o o' g' x y i i) - Sum nc (fun i => cl_g n n o o g i x y i) = cl_h n o (uvhf n n' g g' (ocm o nc) (ocm o' nc')) x y.
Proof.
  intros H. rewrite (cl_h_ext n o (uvhf n n' g g' (ocm o nc) (ocm o' nc')) (fun p q => Sum n (fun r => Sum n (fun s => g p q r s * ocm o nc r s)) + (Sum n' (fun r => Sum n' (fun s => g' p q r s * ocm o' nc' r s)) + - (1) * Sum n (fun r => Sum n (fun s => g p s r q * ocm o nc r s))))) by (intros; unfold uvhf; ring).
  rewrite !cl_h_add, cl_h_scale, (cl_exch n o g nc), (cl_coul n n o o g nc), (cl_coul n n' o o' g' nc').
  rewrite (Sum_ext nc (fun i => cl_g n n o o g i i x y) (fun i => cl_g n n o o g x y i i)) by (intros; now apply cl_g_exch).
  rewrite (Sum_ext nc (fun i => cl_g n n o o g i x y i) (fun i => cl_g n n o o g x i i y)). 1: ring.
  intros i Hi. pose proof (cl_g_real n o g H) as R. rewrite (Logic.proj2 (R i x y i)), (Logic.proj1 (R x i y i)), (Logic.proj2 (R y i x i)), (Logic.proj1 (R i y x i)). reflexivity.
Qed.
Lemma half_two (x : K) : half * (two * x) = x.
Proof. unfold two. transitivity ((half + half) * x); [ring|rewrite Hhalf; ring]. Qed.
Definition occ0 (nocc : nat) : mat := add_diag nocc 1 (fun _ _ => 0).
Lemma occ0_occ nocc p q : occ0 nocc p q = occ nocc p q.
Proof. unfold occ0. rewrite add_diag_occ. ring. Qed.
Section Ufrag.
Variables (na nb noa nob : nat) (ha hb : mat) (gaa gab gbb : ten).
Notation VA := (uvhf na nb gaa gab (occ0 noa) (occ0 nob)).
Notation VB := (uvhf nb na gbb (flip gab) (occ0 nob) (occ0 noa)).
Lemma ufrag_pc va vb (ac : bool) x : let o := u_a (ud_f x) in let o' := u_b (ud_f x) in let d2 := if ac then u_approx (ud_f x) else u_exact (ud_f x) in
  ufrag_dmet half (na, nb) ha hb va vb gaa gab gbb true ac x
  = ud_sf x * ((con1 na ha (proj1 na o (add_diag (fst (ud_nocc x)) 1 (u_dm1a (ud_f x)))) + con1 nb hb (proj1 nb o' (add_diag (snd (ud_nocc x)) 1 (u_dm1b (ud_f x)))))
   + half * (con2h na na gaa (proj2 na o o (aa d2)) + con2h nb nb gbb (proj2 nb o' o' (bb d2)) + con2h na nb gab (proj2 na o o' (ab d2)) + con2h na nb gab (proj2b nb o o' (ab d2)))).
Proof.
  intros o o' d2. unfold ufrag_dmet. fold d2. fold o. fold o'. rewrite <- !e1_con, <- !e2_con, <- e2b_con. destruct d2 as [[x1 x2] x3]. reflexivity.
Qed.
Lemma ufrag_full ac x : real_g gaa -> real_g gbb ->
  let o := u_a (ud_f x) in let o' := u_b (ud_f x) in
  embeds na noa o (fst (ud_nocc x)) -> embeds nb nob o' (snd (ud_nocc x)) -> uconsistent x ->
  let Da := to_mo o (u_dm1a (ud_f x)) in let Db := to_mo o' (u_dm1b (ud_f x)) in
  let Ea p q := Da p q + occ noa p q in let Eb p q := Db p q + occ nob p q in let d2 := u_approx (ud_f x) in
  ufrag_dmet half (na, nb) ha hb VA VB gaa gab gbb false ac x
  = ud_sf x * ((con1 na ha (proj1 na o (add_diag (fst (ud_nocc x)) 1 (u_dm1a (ud_f x)))) + con1 nb hb (proj1 nb o' (add_diag (snd (ud_nocc x)) 1 (u_dm1b (ud_f x)))))
   + half * ((Bs na gaa Ea (PA na o Ea) - Bs na gaa Da (PA na o Da) + con2h na na gaa (proj2 na o o (aa d2)))
           + (Bs nb gbb Eb (PA nb o' Eb) - Bs nb gbb Db (PA nb o' Db) + con2h nb nb gbb (proj2 nb o' o' (bb d2)))
           + (Bo na nb gab (PA na o Ea) Eb - Bo na nb gab (PA na o Da) Db + con2h na nb gab (proj2 na o o' (ab d2)))
           + (Bo na nb gab Ea (PA nb o' Eb) - Bo na nb gab Da (PA nb o' Db) + con2h na nb gab (proj2b nb o o' (ab d2))))).
Proof.
  intros Ga Gb o o' Ha Hb (Sa & Sb & Hf) Da Db Ea Eb d2. unfold ufrag_dmet. fold o. fold o'. destruct (ud_nocc x) as [ca cb] eqn:En. cbn [fst snd] in *.
  set (da := u_dm1a (ud_f x)) in *. set (db := u_dm1b (ud_f x)) in *. destruct (ud_full x) as [[f1 f2] f3] eqn:Ef. f_equal.
  set (MA := fun p q => ha p q + half * (uvhf na nb gaa gab (occ0 noa) (occ0 nob) p q + - (1) * uvhf na nb gaa gab (ocm o ca) (ocm o' cb) p q)).
  set (MB := fun p q => hb p q + half * (uvhf nb na gbb (flip gab) (occ0 nob) (occ0 noa) p q + - (1) * uvhf nb na gbb (flip gab) (ocm o' cb) (ocm o ca) p q)).
  rewrite (Sum_ext (nclu o) (fun x' => Sum (nclu o) (fun j => Sum (nclu o) (fun i => (cl_h na o _ x' j - _) * px na o x' i * add_diag ca 1 da i j)))
    (fun x' => Sum (nclu o) (fun j => Sum (nclu o) (fun i => cl_h na o MA x' j * px na o x' i * add_diag ca 1 da i j)))).
  2:{ intros x' Hx'. apply Sum_ext. intros j Hj. apply Sum_ext. intros i Hi. f_equal. f_equal. rewrite uv_act_rot by auto. unfold MA. rewrite !cl_h_add, !cl_h_scale, cl_h_add, cl_h_scale. ring. }
  rewrite (Sum_ext (nclu o') (fun x' => Sum (nclu o') (fun j => Sum (nclu o') (fun i => (cl_h nb o' _ x' j - _) * px nb o' x' i * add_diag cb 1 db i j)))
    (fun x' => Sum (nclu o') (fun j => Sum (nclu o') (fun i => cl_h nb o' MB x' j * px nb o' x' i * add_diag cb 1 db i j)))).
  2:{ intros x' Hx'. apply Sum_ext. intros j Hj. apply Sum_ext. intros i Hi. f_equal. f_equal.
      rewrite (Sum_ext ca (fun i => cl_g na nb o o' gab i i x' j) (fun i => cl_g nb na o' o (flip gab) x' j i i)) by (intros; apply cl_g_flip).
      rewrite uv_act_rot by auto. unfold MB. rewrite !cl_h_add, !cl_h_scale, cl_h_add, cl_h_scale. ring. }
  rewrite !e1_con.
  assert (EA : forall V, con1 na V (proj1 na o (add_diag ca 1 da)) = con1 na V (PA na o Ea)) by (intros; apply con1_ext'; intros; now apply udm1_mo).
  assert (EB : forall V, con1 nb V (proj1 nb o' (add_diag cb 1 db)) = con1 nb V (PA nb o' Eb)) by (intros; apply con1_ext'; intros; now apply udm1_mo).
  rewrite (EA MA), (EB MB), (EA ha), (EB hb). unfold MA, MB.
  rewrite !con1_add_l, !con1_scale_l, !con1_add_l, !con1_scale_l, !con1_uvhf, !Bo_flip.
  (* two-particle part *)
  assert (Qa : Sum (nclu o) (fun x' => Sum (nclu o) (fun j => Sum (nclu o) (fun k => Sum (nclu o) (fun l => Sum (nclu o) (fun i => cl_g na na o o gaa x' j k l * px na o x' i * f1 i j k l)))))
     = con2h na na gaa (proj2 na o o (aa d2)) + con2h na na gaa (proj2 na o o (mixed_ss K ca da))).
  { rewrite <- !e2_con, <- S4_add. apply S4_ext. intros. rewrite <- Sum_add. apply Sum_ext. intros. pose proof (Logic.proj1 (Hf i q r s)) as E. unfold P_Demo.aa in E at 1. cbn [fst] in E. rewrite E. fold d2. ring. }
  assert (Qb : Sum (nclu o') (fun x' => Sum (nclu o') (fun j => Sum (nclu o') (fun k => Sum (nclu o') (fun l => Sum (nclu o') (fun i => cl_g nb nb o' o' gbb x' j k l * px nb o' x' i * f3 i j k l)))))
     = con2h nb nb gbb (proj2 nb o' o' (bb d2)) + con2h nb nb gbb (proj2 nb o' o' (mixed_ss K cb db))).
  { rewrite <- !e2_con, <- S4_add. apply S4_ext. intros. rewrite <- Sum_add. apply Sum_ext. intros. pose proof (Logic.proj2 (Logic.proj2 (Hf i q r s))) as E. unfold P_Demo.bb in E at 1. cbn [snd] in E. rewrite E. fold d2. ring. }
  assert (Qc : Sum (nclu o) (fun x' => Sum (nclu o) (fun j => Sum (nclu o') (fun k => Sum (nclu o') (fun l => Sum (nclu o) (fun i => cl_g na nb o o' gab x' j k l * px na o x' i * f2 i j k l)))))
     = con2h na nb gab (proj2 na o o' (ab d2)) + con2h na nb gab (proj2 na o o' (mixed_ab K ca cb da db))).
  { rewrite <- !e2_con, <- S4_add. apply S4_ext. intros. rewrite <- Sum_add. apply Sum_ext. intros. pose proof (Logic.proj1 (Logic.proj2 (Hf i q r s))) as E. unfold P_Demo.ab in E at 1. cbn [fst snd] in E. rewrite E. fold d2. ring. }
  assert (Qd : Sum (nclu o) (fun i => Sum (nclu o) (fun j => Sum (nclu o') (fun x' => Sum (nclu o') (fun l => Sum (nclu o') (fun k => cl_g na nb o o' gab i j x' l * px nb o' x' k * f2 i j k l)))))
     = con2h na nb gab (proj2b nb o o' (ab d2)) + con2h na nb gab (proj2b nb o o' (mixed_ab K ca cb da db))).
  { rewrite <- !e2b_con, <- S4_add. apply S4_ext. intros. rewrite <- Sum_add. apply Sum_ext. intros. pose proof (Logic.proj1 (Logic.proj2 (Hf p q i s))) as E. unfold P_Demo.ab in E at 1. cbn [fst snd] in E. rewrite E. fold d2. ring. }
  rewrite Qa, Qb, Qc, Qd. rewrite (mixed_ss_con na noa) by auto. rewrite (mixed_ss_con nb nob) by auto.
  destruct (mixed_ab_con na nb noa nob o o' ca cb gab da db Ha Hb) as [Q1 Q2]. rewrite Q1, Q2. clear Q1 Q2 Qa Qb Qc Qd. fold Da. fold Db. fold Ea. fold Eb.
  rewrite !Bs_add_l. change (fun p q => Da p q + occ noa p q) with Ea. change (fun p q => Db p q + occ nob p q) with Eb.
  assert (Ba : Bs na gaa Ea (PA na o Ea) = Bs na gaa Da (PA na o Ea) + Bs na gaa (occ noa) (PA na o Ea)) by apply Bs_add_l.
  assert (Bb : Bs nb gbb Eb (PA nb o' Eb) = Bs nb gbb Db (PA nb o' Eb) + Bs nb gbb (occ nob) (PA nb o' Eb)) by apply Bs_add_l.
  assert (Bc : Bo na nb gab (PA na o Ea) Eb = Bo na nb gab (PA na o Ea) Db + Bo na nb gab (PA na o Ea) (occ nob)) by apply Bo_add_r.
  assert (Bd : Bo na nb gab Ea (PA nb o' Eb) = Bo na nb gab Da (PA nb o' Eb) + Bo na nb gab (occ noa) (PA nb o' Eb)) by apply Bo_add_l.
  rewrite Ba, Bb, Bc, Bd. rewrite Bo_add_r. rewrite (Bo_add_l na nb gab Da).
  rewrite (Bs_ext na gaa (occ0 noa) (occ noa) (PA na o Ea) (PA na o Ea)), (Bs_ext nb gbb (occ0 nob) (occ nob) (PA nb o' Eb) (PA nb o' Eb)) by (auto; intros; apply occ0_occ).
  rewrite (Bo_ext na nb gab (PA na o Ea) (PA na o Ea) (occ0 nob) (occ nob)), (Bo_ext na nb gab (occ0 noa) (occ noa) (PA nb o' Eb) (PA nb o' Eb)) by (auto; intros; apply occ0_occ).
  ring.
Qed.
End Ufrag.

Definition uchild (na nb : nat) (ha hb va vb : mat) (gaa gab gbb : ten) (x y : udfrag (K := K)) : Prop := exists U V,
  orthogonal na U /\ orthogonal nb V /\ invariant1 na U ha /\ invariant1 na U va /\ invariant1 nb V hb /\ invariant1 nb V vb
  /\ invariant2 na na U U gaa /\ invariant2 na nb U V gab /\ invariant2 nb nb V V gbb
  /\ image na U (u_a (ud_f x)) (u_a (ud_f y)) /\ image nb V (u_b (ud_f x)) (u_b (ud_f y))
  /\ ud_nocc y = ud_nocc x /\ ud_sf y = ud_sf x
  /\ u_dm1a (ud_f y) = u_dm1a (ud_f x) /\ u_dm1b (ud_f y) = u_dm1b (ud_f x)
  /\ u_approx (ud_f y) = u_approx (ud_f x) /\ u_exact (ud_f y) = u_exact (ud_f x) /\ ud_full y = ud_full x.
Lemma uchild_energy na nb ha hb va vb gaa gab gbb pc ac x y : uchild na nb ha hb va vb gaa gab gbb x y ->
  ufrag_dmet half (na, nb) ha hb va vb gaa gab gbb pc ac y = ufrag_dmet half (na, nb) ha hb va vb gaa gab gbb pc ac x.
Proof.
  intros (U & V & HU & HV & Hha & Hva & Hhb & Hvb & Gaa & Gab & Gbb & Ia & Ib & N & Sf & E1 & E2 & E3 & E4 & E5).
  unfold ufrag_dmet. rewrite N, Sf, E1, E2, E3, E4, E5, (Logic.proj1 Ia), (Logic.proj1 Ib).
  set (o := u_a (ud_f x)) in *. set (o' := u_a (ud_f y)) in *. set (p := u_b (ud_f x)) in *. set (p' := u_b (ud_f y)) in *.
  assert (G1 : forall a b c d, cl_g na na o' o' gaa a b c d = cl_g na na o o gaa a b c d) by (intros; now apply (cl_g_image na na U U)).
  assert (G2 : forall a b c d, cl_g na nb o' p' gab a b c d = cl_g na nb o p gab a b c d) by (intros; now apply (cl_g_image na nb U V)).
  assert (G3 : forall a b c d, cl_g nb nb p' p' gbb a b c d = cl_g nb nb p p gbb a b c d) by (intros; now apply (cl_g_image nb nb V V)).
  assert (P1 : forall a b, px na o' a b = px na o a b) by (intros; now apply (px_image na U)).
  assert (P2 : forall a b, px nb p' a b = px nb p a b) by (intros; now apply (px_image nb V)).
  destruct (if pc then _ else _) as [[x1 x2] x3]. f_equal. f_equal; [f_equal|f_equal; f_equal; [f_equal; [f_equal|]|]].
  - apply Sum_ext. intros a Ha. apply Sum_ext. intros b Hb. apply Sum_ext. intros c Hc. rewrite P1. f_equal. f_equal. destruct pc.
    + now apply (cl_h_image na U).
    + f_equal; [apply (cl_h_image na U); auto; now apply inv1_lin|]. f_equal. f_equal; [f_equal|]; apply Sum_ext; intros; auto.
  - apply Sum_ext. intros a Ha. apply Sum_ext. intros b Hb. apply Sum_ext. intros c Hc. rewrite P2. f_equal. f_equal. destruct pc.
    + now apply (cl_h_image nb V).
    + f_equal; [apply (cl_h_image nb V); auto; now apply inv1_lin|]. f_equal. f_equal; [f_equal|]; apply Sum_ext; intros; auto.
  - apply Sum_ext; intros; apply Sum_ext; intros; apply Sum_ext; intros; apply Sum_ext; intros; apply Sum_ext; intros. now rewrite P1, G1.
  - apply Sum_ext; intros; apply Sum_ext; intros; apply Sum_ext; intros; apply Sum_ext; intros; apply Sum_ext; intros. now rewrite P2, G3.
  - apply Sum_ext; intros; apply Sum_ext; intros; apply Sum_ext; intros; apply Sum_ext; intros; apply Sum_ext; intros. now rewrite P1, G2.
  - apply Sum_ext; intros; apply Sum_ext; intros; apply Sum_ext; intros; apply Sum_ext; intros; apply Sum_ext; intros. now rewrite P2, G2.
Qed.
(** One spin of the partitioned one-particle density matrix *)
Lemma udm1_energy nmo nocc (o : udfrag (K := K) -> orbs K) (d : udfrag (K := K) -> mat) (nc : udfrag (K := K) -> nat) (uo : ufrag K -> orbs K) (ud : ufrag K -> mat) h all sy :
  (forall x, uo (ud_f x) = o x) -> (forall x, ud (ud_f x) = d x) -> (forall p q, h p q = h q p) -> (forall x, In x all -> embeds nmo nocc (o x) (nc x)) -> partition nmo o all ->
  Lsum all (fun x => con1 nmo h (proj1 nmo (o x) (add_diag (nc x) 1 (d x)))) = con1 nmo h (udm1_one half nmo nocc uo ud (map ud_f all) true sy).
Proof.
  intros Eo Ed Hh He Hp. unfold udm1_one. rewrite con1_sym by auto. rewrite <- con1_Lsum. apply con1_ext'. intros p q Hp' Hq. rewrite add_diag_occ.
  rewrite (fold_mat K (fun dm1 x => plus1 dm1 (proj1 nmo (uo x) (ud x))) (fun x => proj1 nmo (uo x) (ud x) p q)) by reflexivity. rewrite Lsum_map.
  rewrite (Lsum_ext all _ (fun x => proj1 nmo (uo (ud_f x)) (ud (ud_f x)) p q + PA nmo (o x) (occ nocc) p q)).
  - rewrite Lsum_add, (PA_sum nmo o) by auto. ring.
  - intros x Hin. rewrite (udm1_mo nmo nocc) by auto. rewrite PA_add, Eo, Ed, proj1_contains by (auto; now apply (He x)). reflexivity.
Qed.
Definition spec_energy_u (na nb : nat) (ha hb : mat) (gaa gab gbb : ten) (d1 : mat * mat) (d2 : ten * ten * ten) : K :=
  con1 na ha (fst d1) + con1 nb hb (snd d1) + half * con2h na na gaa (aa d2) + half * con2h nb nb gbb (bb d2) + con2h na nb gab (ab d2).
Theorem C55_unrestricted : forall na nb noa nob ha hb gaa gab gbb frags all children part_cumulant approx_cumulant symmetrize,
  real_g gaa -> real_g gbb -> (forall p q, ha p q = ha q p) -> (forall p q, hb p q = hb q p) ->
  (forall x, In x all -> embeds na noa (u_a (ud_f x)) (fst (ud_nocc x)) /\ embeds nb nob (u_b (ud_f x)) (snd (ud_nocc x)) /\ uconsistent x /\ ud_sf x = 1) ->
  partition na (fun x => u_a (ud_f x)) all -> partition nb (fun x => u_b (ud_f x)) all ->
  family children frags all -> (forall x, In x frags -> ud_w x = nK (S (length (children x)))) ->
  (forall x y, In x frags -> In y (children x) ->
     uchild na nb ha hb (uvhf na nb gaa gab (occ0 noa) (occ0 nob)) (uvhf nb na gbb (flip gab) (occ0 nob) (occ0 noa)) gaa gab gbb x y) ->
  udmet_elec half (na, nb) (noa, nob) ha hb gaa gab gbb frags all part_cumulant approx_cumulant
  = spec_energy_u na nb ha hb gaa gab gbb (udm1_demo half (na, nb) (noa, nob) (map ud_f all) true symmetrize)
      (udm2_demo half (na, nb) (noa, nob) (map ud_f all) true part_cumulant approx_cumulant symmetrize).
Proof.
  intros na nb noa nob ha hb gaa gab gbb frags all children pc ac sy Ga Gb Hha Hhb Hx Pa Pb Hfam Hw Hch.
  unfold udmet_elec, spec_energy_u. cbn [fst snd]. fold (occ0 noa). fold (occ0 nob).
  set (VA := uvhf na nb gaa gab (occ0 noa) (occ0 nob)) in *. set (VB := uvhf nb na gbb (flip gab) (occ0 nob) (occ0 noa)) in *.
  rewrite fold_sum. rewrite (Lsum_family children frags all ud_w _ Hfam Hw) by (intros; apply uchild_energy; now apply Hch).
  assert (E1 : forall b, Lsum all (fun x => con1 na ha (proj1 na (u_a (ud_f x)) (add_diag (fst (ud_nocc x)) 1 (u_dm1a (ud_f x))))) = con1 na ha (udm1_one half na noa u_a u_dm1a (map ud_f all) true b)).
  { intros b. apply (udm1_energy na noa (fun x => u_a (ud_f x)) (fun x => u_dm1a (ud_f x)) (fun x => fst (ud_nocc x))); auto. intros x Hin. now apply Hx. }
  assert (E2 : forall b, Lsum all (fun x => con1 nb hb (proj1 nb (u_b (ud_f x)) (add_diag (snd (ud_nocc x)) 1 (u_dm1b (ud_f x))))) = con1 nb hb (udm1_one half nb nob u_b u_dm1b (map ud_f all) true b)).
  { intros b. apply (udm1_energy nb nob (fun x => u_b (ud_f x)) (fun x => u_dm1b (ud_f x)) (fun x => snd (ud_nocc x))); auto. intros x Hin. now apply Hx. }
  set (z := (fun _ _ _ _ : nat => (0 : K))).
  destruct pc.
  - (* partitioned cumulant *)
    set (d2 := fun x : udfrag (K := K) => if ac then u_approx (ud_f x) else u_exact (ud_f x)).
    rewrite (Lsum_ext all _ (fun x => (con1 na ha (proj1 na (u_a (ud_f x)) (add_diag (fst (ud_nocc x)) 1 (u_dm1a (ud_f x)))) + con1 nb hb (proj1 nb (u_b (ud_f x)) (add_diag (snd (ud_nocc x)) 1 (u_dm1b (ud_f x)))))
      + half * (con2h na na gaa (proj2 na (u_a (ud_f x)) (u_a (ud_f x)) (aa (d2 x))) + con2h nb nb gbb (proj2 nb (u_b (ud_f x)) (u_b (ud_f x)) (bb (d2 x)))
        + con2h na nb gab (proj2 na (u_a (ud_f x)) (u_b (ud_f x)) (ab (d2 x))) + con2h na nb gab (proj2b nb (u_a (ud_f x)) (u_b (ud_f x)) (ab (d2 x)))))).
    2:{ intros x Hin. rewrite ufrag_pc. destruct (Hx x Hin) as (_ & _ & _ & ->). fold (d2 x). ring. }
    rewrite Lsum_add, Lsum_mul_l, !Lsum_add, (E1 sy), (E2 sy). unfold udm1_demo at 1 2. cbn [fst snd].
    (* sums of the projected cumulants *)
    set (S1 := Lsum all (fun x => con2h na na gaa _)). set (S2 := Lsum all (fun x => con2h nb nb gbb _)).
    set (S3 := Lsum all (fun x => con2h na nb gab (proj2 na _ _ _))). set (S4' := Lsum all (fun x => con2h na nb gab (proj2b nb _ _ _))).
    set (A := fold_left (udm2_step half (na, nb) (noa, nob) true true ac) (map ud_f all) (z, z, z)).
    assert (A1 : con2h na na gaa (aa A) = S1).
    { unfold S1. rewrite <- con2h_Lsum. apply con2h_ext. intros p q r s _ _ _ _. unfold A.
      rewrite (fold_tri K (fun S => aa S p q r s) _ (fun x => proj2 na (u_a x) (u_a x) (aa (if ac then u_approx x else u_exact x)) p q r s)).
      - rewrite Lsum_map. unfold P_Demo.aa at 1. cbn [fst]. unfold z. unfold d2. ring.
      - intros [[a1 a2] a3] x _. unfold udm2_step. cbn [orb]. destruct (if ac then u_approx x else u_exact x) as [[x1 x2] x3]. reflexivity. }
    assert (A2 : con2h nb nb gbb (bb A) = S2).
    { unfold S2. rewrite <- con2h_Lsum. apply con2h_ext. intros p q r s _ _ _ _. unfold A.
      rewrite (fold_tri K (fun S => bb S p q r s) _ (fun x => proj2 nb (u_b x) (u_b x) (bb (if ac then u_approx x else u_exact x)) p q r s)).
      - rewrite Lsum_map. unfold P_Demo.bb at 1. cbn [snd]. unfold z. unfold d2. ring.
      - intros [[a1 a2] a3] x _. unfold udm2_step. cbn [orb]. destruct (if ac then u_approx x else u_exact x) as [[x1 x2] x3]. reflexivity. }
    assert (A3 : con2h na nb gab (ab A) = half * (S3 + S4')).
    { unfold S3, S4'. rewrite <- !con2h_Lsum, <- con2h_add, <- con2h_scale. apply con2h_ext. intros p q r s _ _ _ _. unfold A.
      rewrite (fold_tri K (fun S => ab S p q r s) _ (fun x => half * (proj2 na (u_a x) (u_b x) (ab (if ac then u_approx x else u_exact x)) p q r s + proj2b nb (u_a x) (u_b x) (ab (if ac then u_approx x else u_exact x)) p q r s))).
      - rewrite Lsum_map, Lsum_mul_l, Lsum_add. unfold P_Demo.ab at 1. cbn [fst snd]. unfold z. unfold d2. ring.
      - intros [[a1 a2] a3] x _. unfold udm2_step. cbn [orb]. destruct (if ac then u_approx x else u_exact x) as [[x1 x2] x3]. reflexivity. }
    unfold udm2_demo. fold z. fold A. destruct A as [[Y1 Y2] Y3]. unfold P_Demo.aa in A1. unfold P_Demo.bb in A2. unfold P_Demo.ab in A3. cbn [fst snd] in A1, A2, A3.
    cbn [andb]. unfold udm1_demo. cbn [fst snd].
    set (la := udm1_one half na noa u_a u_dm1a (map ud_f all)). set (lb := udm1_one half nb nob u_b u_dm1b (map ud_f all)).
    assert (Ya : forall mf p q, la mf true p q = la mf true q p) by (intros; unfold la, udm1_one; cbn [sym1]; ring).
    assert (Yb : forall mf p q, lb mf true p q = lb mf true q p) by (intros; unfold lb, udm1_one; cbn [sym1]; ring).
    assert (Ta : forall p q, la true true p q = la false true p q + occ noa p q).
    { intros. unfold la, udm1_one. cbn [sym1]. rewrite !add_diag_occ, (occ_sym noa q p). set (a := fold_left _ _ _ p q). set (b := fold_left _ _ _ q p).
      transitivity (half * (a + b) + (half + half) * occ noa p q); [ring|rewrite Hhalf; ring]. }
    assert (Tb : forall p q, lb true true p q = lb false true p q + occ nob p q).
    { intros. unfold lb, udm1_one. cbn [sym1]. rewrite !add_diag_occ, (occ_sym nob q p). set (a := fold_left _ _ _ p q). set (b := fold_left _ _ _ q p).
      transitivity (half * (a + b) + (half + half) * occ nob p q); [ring|rewrite Hhalf; ring]. }
    destruct ac.
    + unfold P_Demo.aa, P_Demo.ab, P_Demo.bb. cbn [fst snd].
      rewrite !con2h_same, !con2_sym by auto. rewrite <- !con2h_same.
      set (Da := la false true). set (Db := lb false true).
      assert (Z1 : con2h na na gaa (loop_ss noa (add_diag noa half Da) Y1) = S1 + (two * Bs na gaa (occ noa) Da + Bs na gaa (occ noa) (occ noa))).
      { rewrite (con2h_ext na na gaa _ (fun p q r s => Y1 p q r s + ((fun p q r s => (Da p q + occ noa p q) * (Da r s + occ noa r s) - (Da p s + occ noa p s) * (Da r q + occ noa r q)) p q r s + - (1) * (fun p q r s => Da p q * Da r s - Da p s * Da r q) p q r s))).
        - rewrite con2h_add, A1, con2h_add, con2h_scale. f_equal. fold (Bs na gaa Da Da).
          change (Bs na gaa (fun p q => Da p q + occ noa p q) (fun p q => Da p q + occ noa p q) + - (1) * Bs na gaa Da Da = two * Bs na gaa (occ noa) Da + Bs na gaa (occ noa) (occ noa)).
          rewrite Bs_add_l, !Bs_add_r, (Bs_sym na gaa Da (occ noa)) by auto. unfold two. ring.
        - intros. rewrite (loop_ss_spec K half Hhalf noa Da) by (auto; apply Ya). unfold mixed_ss, product_ss. ring. }
      assert (Z2 : con2h nb nb gbb (loop_ss nob (add_diag nob half Db) Y3) = S2 + (two * Bs nb gbb (occ nob) Db + Bs nb gbb (occ nob) (occ nob))).
      { rewrite (con2h_ext nb nb gbb _ (fun p q r s => Y3 p q r s + ((fun p q r s => (Db p q + occ nob p q) * (Db r s + occ nob r s) - (Db p s + occ nob p s) * (Db r q + occ nob r q)) p q r s + - (1) * (fun p q r s => Db p q * Db r s - Db p s * Db r q) p q r s))).
        - rewrite con2h_add, A2, con2h_add, con2h_scale. f_equal. fold (Bs nb gbb Db Db).
          change (Bs nb gbb (fun p q => Db p q + occ nob p q) (fun p q => Db p q + occ nob p q) + - (1) * Bs nb gbb Db Db = two * Bs nb gbb (occ nob) Db + Bs nb gbb (occ nob) (occ nob)).
          rewrite Bs_add_l, !Bs_add_r, (Bs_sym nb gbb Db (occ nob)) by auto. unfold two. ring.
        - intros. rewrite (loop_ss_spec K half Hhalf nob Db) by (auto; apply Yb). unfold mixed_ss, product_ss. ring. }
      assert (Z3 : con2h na nb gab (loop_os noa nob (add_diag noa half Da) (add_diag nob half Db) Y2) = half * (S3 + S4') + (Bo na nb gab Da (occ nob) + Bo na nb gab (occ noa) Db + Bo na nb gab (occ noa) (occ nob))).
      { rewrite <- A3. unfold Bo. rewrite <- !con2h_add. apply con2h_ext. intros. rewrite (loop_os_spec K half Hhalf noa nob Da Db) by auto. unfold mixed_ab, product_ab. ring. }
      rewrite Z1, Z2, Z3.
      match goal with |- ?L + half * (?X + ?Y) = _ =>
        assert (W1 : X = two * (Bs na gaa (occ noa) Da + Bo na nb gab Da (occ nob)) + (Bs na gaa (occ noa) (occ noa) + Bo na nb gab (occ noa) (occ nob)));
        [|assert (W2 : Y = two * (Bs nb gbb (occ nob) Db + Bo na nb gab (occ noa) Db) + (Bs nb gbb (occ nob) (occ nob) + Bo na nb gab (occ noa) (occ nob)))] end.
      { fold (con1 na VA (fun p q => two * la true true p q - occ0 noa p q)). rewrite (con1_ext K na VA _ (fun p q => two * Da p q + occ noa p q)) by (intros; rewrite Ta, occ0_occ; unfold Da, two; ring).
        unfold VA. rewrite con1_uvhf. rewrite (Bs_ext na gaa (occ0 noa) (occ noa) (fun p q => two * Da p q + occ noa p q) (fun p q => two * Da p q + occ noa p q)) by (auto; intros; apply occ0_occ).
        rewrite (Bo_ext na nb gab (fun p q => two * Da p q + occ noa p q) (fun p q => two * Da p q + occ noa p q) (occ0 nob) (occ nob)) by (auto; intros; apply occ0_occ).
        rewrite Bs_add_r, Bs_scale_r, Bo_add_l, Bo_scale_l. ring. }
      { fold (con1 nb VB (fun p q => two * lb true true p q - occ0 nob p q)). rewrite (con1_ext K nb VB _ (fun p q => two * Db p q + occ nob p q)) by (intros; rewrite Tb, occ0_occ; unfold Db, two; ring).
        unfold VB. rewrite con1_uvhf, Bo_flip. rewrite (Bs_ext nb gbb (occ0 nob) (occ nob) (fun p q => two * Db p q + occ nob p q) (fun p q => two * Db p q + occ nob p q)) by (auto; intros; apply occ0_occ).
        rewrite (Bo_ext na nb gab (occ0 noa) (occ noa) (fun p q => two * Db p q + occ nob p q) (fun p q => two * Db p q + occ nob p q)) by (auto; intros; apply occ0_occ).
        rewrite Bs_add_r, Bs_scale_r, Bo_add_r, Bo_scale_r. ring. }
      rewrite W1, W2. set (b1 := Bs _ _ _ Da). set (b2 := Bs _ _ _ (occ noa)). set (b3 := Bs _ _ _ Db). set (b4 := Bs _ _ _ (occ nob)).
      set (c1 := Bo _ _ _ Da _). set (c2 := Bo _ _ _ _ Db). set (c3 := Bo _ _ _ (occ noa) (occ nob)). unfold two.
      match goal with |- 0 + (?a1 + ?a2 + half * (S1 + S2 + S3 + S4')) + _ = _ =>
        transitivity (a1 + a2 + half * (S1 + S2 + S3 + S4') + half * ((1 + 1) * b1 + b2) + half * ((1 + 1) * b3 + b4) + (half + half) * (c1 + c2 + c3)); [ring|rewrite Hhalf; ring] end.
    + unfold P_Demo.aa, P_Demo.ab, P_Demo.bb. cbn [fst snd].
      rewrite !con2h_same, !con2_sym by auto. rewrite <- !con2h_same.
      set (Da := la true true). set (Db := lb true true).
      assert (Z1 : con2h na na gaa (plus2 Y1 (plus2 (outer Da Da) (scale2 (- (1)) (outer_x Da Da)))) = S1 + Bs na gaa Da Da).
      { rewrite <- A1. unfold Bs. rewrite <- con2h_add. apply con2h_ext. intros. unfold plus2, outer, scale2, outer_x. unfold Da. rewrite (Ya true r q). ring. }
      assert (Z2 : con2h nb nb gbb (plus2 Y3 (plus2 (outer Db Db) (scale2 (- (1)) (outer_x Db Db)))) = S2 + Bs nb gbb Db Db).
      { rewrite <- A2. unfold Bs. rewrite <- con2h_add. apply con2h_ext. intros. unfold plus2, outer, scale2, outer_x. unfold Db. rewrite (Yb true r q). ring. }
      assert (Z3 : con2h na nb gab (plus2 Y2 (outer Da Db)) = half * (S3 + S4') + Bo na nb gab Da Db).
      { rewrite <- A3. unfold Bo. rewrite <- con2h_add. apply con2h_ext. intros. reflexivity. }
      rewrite Z1, Z2, Z3.
      fold (con1 na (uvhf na nb gaa gab Da Db) Da). fold (con1 nb (uvhf nb na gbb (flip gab) Db Da) Db). rewrite !con1_uvhf, Bo_flip.
      set (b1 := Bs _ _ _ Da). set (b3 := Bs _ _ _ Db). set (c1 := Bo _ _ _ Da _).
      match goal with |- 0 + (?a1 + ?a2 + half * (S1 + S2 + S3 + S4')) + _ = _ =>
        transitivity (a1 + a2 + half * (S1 + S2 + S3 + S4') + half * b1 + half * b3 + (half + half) * c1); [ring|rewrite Hhalf; ring] end.
  - (* partitioned density matrix *)
    set (Dx := fun x : ufrag K => to_mo (u_a x) (u_dm1a x)). set (Dy := fun x : ufrag K => to_mo (u_b x) (u_dm1b x)).
    set (Ex := fun x p q => Dx x p q + occ noa p q). set (Ey := fun x p q => Dy x p q + occ nob p q).
    rewrite (Lsum_ext all _ (fun y => let x := ud_f y in (con1 na ha (proj1 na (u_a x) (add_diag (fst (ud_nocc y)) 1 (u_dm1a x))) + con1 nb hb (proj1 nb (u_b x) (add_diag (snd (ud_nocc y)) 1 (u_dm1b x))))
      + half * ((Bs na gaa (Ex x) (PA na (u_a x) (Ex x)) - Bs na gaa (Dx x) (PA na (u_a x) (Dx x)) + con2h na na gaa (proj2 na (u_a x) (u_a x) (aa (u_approx x))))
           + (Bs nb gbb (Ey x) (PA nb (u_b x) (Ey x)) - Bs nb gbb (Dy x) (PA nb (u_b x) (Dy x)) + con2h nb nb gbb (proj2 nb (u_b x) (u_b x) (bb (u_approx x))))
           + (Bo na nb gab (PA na (u_a x) (Ex x)) (Ey x) - Bo na nb gab (PA na (u_a x) (Dx x)) (Dy x) + con2h na nb gab (proj2 na (u_a x) (u_b x) (ab (u_approx x))))
           + (Bo na nb gab (Ex x) (PA nb (u_b x) (Ey x)) - Bo na nb gab (Dx x) (PA nb (u_b x) (Dy x)) + con2h na nb gab (proj2b nb (u_a x) (u_b x) (ab (u_approx x))))))).
    2:{ intros x Hin. destruct (Hx x Hin) as (Ha & Hb & Hc & Hs). unfold VA, VB. rewrite (ufrag_full na nb noa nob ha hb gaa gab gbb) by auto. rewrite Hs. cbv zeta. unfold Ex, Ey, Dx, Dy. ring. }
    cbv zeta. rewrite Lsum_add, Lsum_mul_l, !Lsum_add, (E1 sy), (E2 sy). unfold udm1_demo. cbn [fst snd].
    set (A := fold_left (udm2_step half (na, nb) (noa, nob) true false ac) (map ud_f all) (z, z, z)).
    assert (Sx : forall x, In x all -> (forall p q, Dx (ud_f x) p q = Dx (ud_f x) q p) /\ (forall p q, Dy (ud_f x) p q = Dy (ud_f x) q p)).
    { intros x Hin. destruct (Hx x Hin) as (_ & _ & (Q1 & Q2 & _) & _). split; intros; unfold Dx, Dy; now apply to_mo_sym. }
    assert (A1 : con2h na na gaa (aa A) = Lsum all (fun y => let x := ud_f y in Bs na gaa (Ex x) (PA na (u_a x) (Ex x)) - Bs na gaa (Dx x) (PA na (u_a x) (Dx x)) + con2h na na gaa (proj2 na (u_a x) (u_a x) (aa (u_approx x))))).
    { transitivity (con2h na na gaa (fun p q r s => Lsum all (fun y => Sum na (fun t => pmo (u_a (ud_f y)) p t * mixed_ss K noa (Dx (ud_f y)) t q r s) + proj2 na (u_a (ud_f y)) (u_a (ud_f y)) (aa (u_approx (ud_f y))) p q r s))).
      - apply con2h_ext. intros p q r s _ _ _ _. unfold A. rewrite (fold_left_map' (udm2_step half (na, nb) (noa, nob) true false ac)).
        rewrite (fold_tri K (fun S => aa S p q r s) _ (fun y => Sum na (fun t => pmo (u_a (ud_f y)) p t * mixed_ss K noa (Dx (ud_f y)) t q r s) + proj2 na (u_a (ud_f y)) (u_a (ud_f y)) (aa (u_approx (ud_f y))) p q r s)).
        + unfold P_Demo.aa at 1. cbn [fst]. unfold z. ring.
        + intros [[a1 a2] a3] y Hin. unfold udm2_step. cbn [orb negb]. destruct (u_approx (ud_f y)) as [[x1 x2] x3]. unfold P_Demo.aa. cbn [fst snd]. unfold plus2, on1. fold z.
          rewrite (Sum_ext na (fun i => pmo (u_a (ud_f y)) p i * _) (fun t => pmo (u_a (ud_f y)) p t * mixed_ss K noa (Dx (ud_f y)) t q r s)); [ring|].
          intros t Ht. f_equal. rewrite (loop_ss_spec K half Hhalf noa (Dx (ud_f y))) by (auto; now apply Sx). unfold z. ring.
      - rewrite con2h_Lsum. apply Lsum_ext. intros y Hin. rewrite con2h_add. cbv zeta. f_equal. unfold Bs.
        transitivity (con2h na na gaa (fun p q r s => (PA na (u_a (ud_f y)) (Ex (ud_f y)) p q * Ex (ud_f y) r s - PA na (u_a (ud_f y)) (Ex (ud_f y)) p s * Ex (ud_f y) r q) + - (1) * (PA na (u_a (ud_f y)) (Dx (ud_f y)) p q * Dx (ud_f y) r s - PA na (u_a (ud_f y)) (Dx (ud_f y)) p s * Dx (ud_f y) r q))).
        + apply con2h_ext. intros. rewrite <- !P_product_ss, <- Sum_mul_l, <- Sum_add. apply Sum_ext. intros. unfold mixed_ss, Ex. ring.
        + rewrite con2h_add, con2h_scale. ring. }
    assert (A2 : con2h nb nb gbb (bb A) = Lsum all (fun y => let x := ud_f y in Bs nb gbb (Ey x) (PA nb (u_b x) (Ey x)) - Bs nb gbb (Dy x) (PA nb (u_b x) (Dy x)) + con2h nb nb gbb (proj2 nb (u_b x) (u_b x) (bb (u_approx x))))).
    { transitivity (con2h nb nb gbb (fun p q r s => Lsum all (fun y => Sum nb (fun t => pmo (u_b (ud_f y)) p t * mixed_ss K nob (Dy (ud_f y)) t q r s) + proj2 nb (u_b (ud_f y)) (u_b (ud_f y)) (bb (u_approx (ud_f y))) p q r s))).
      - apply con2h_ext. intros p q r s _ _ _ _. unfold A. rewrite (fold_left_map' (udm2_step half (na, nb) (noa, nob) true false ac)).
        rewrite (fold_tri K (fun S => bb S p q r s) _ (fun y => Sum nb (fun t => pmo (u_b (ud_f y)) p t * mixed_ss K nob (Dy (ud_f y)) t q r s) + proj2 nb (u_b (ud_f y)) (u_b (ud_f y)) (bb (u_approx (ud_f y))) p q r s)).
        + unfold P_Demo.bb at 1. cbn [snd]. unfold z. ring.
        + intros [[a1 a2] a3] y Hin. unfold udm2_step. cbn [orb negb]. destruct (u_approx (ud_f y)) as [[x1 x2] x3]. unfold P_Demo.bb. cbn [fst snd]. unfold plus2, on1. fold z.
          rewrite (Sum_ext nb (fun i => pmo (u_b (ud_f y)) p i * _) (fun t => pmo (u_b (ud_f y)) p t * mixed_ss K nob (Dy (ud_f y)) t q r s)); [ring|].
          intros t Ht. f_equal. rewrite (loop_ss_spec K half Hhalf nob (Dy (ud_f y))) by (auto; now apply Sx). unfold z. ring.
      - rewrite con2h_Lsum. apply Lsum_ext. intros y Hin. rewrite con2h_add. cbv zeta. f_equal. unfold Bs.
        transitivity (con2h nb nb gbb (fun p q r s => (PA nb (u_b (ud_f y)) (Ey (ud_f y)) p q * Ey (ud_f y) r s - PA nb (u_b (ud_f y)) (Ey (ud_f y)) p s * Ey (ud_f y) r q) + - (1) * (PA nb (u_b (ud_f y)) (Dy (ud_f y)) p q * Dy (ud_f y) r s - PA nb (u_b (ud_f y)) (Dy (ud_f y)) p s * Dy (ud_f y) r q))).
        + apply con2h_ext. intros. rewrite <- !P_product_ss, <- Sum_mul_l, <- Sum_add. apply Sum_ext. intros. unfold mixed_ss, Ey. ring.
        + rewrite con2h_add, con2h_scale. ring. }
    assert (A3 : con2h na nb gab (ab A) = half * (Lsum all (fun y => let x := ud_f y in Bo na nb gab (PA na (u_a x) (Ex x)) (Ey x) - Bo na nb gab (PA na (u_a x) (Dx x)) (Dy x) + con2h na nb gab (proj2 na (u_a x) (u_b x) (ab (u_approx x))))
         + Lsum all (fun y => let x := ud_f y in Bo na nb gab (Ex x) (PA nb (u_b x) (Ey x)) - Bo na nb gab (Dx x) (PA nb (u_b x) (Dy x)) + con2h na nb gab (proj2b nb (u_a x) (u_b x) (ab (u_approx x)))))).
    { rewrite <- Lsum_add, <- Lsum_mul_l.
      transitivity (con2h na nb gab (fun p q r s => Lsum all (fun y => half * (Sum na (fun t => pmo (u_a (ud_f y)) p t * mixed_ab K noa nob (Dx (ud_f y)) (Dy (ud_f y)) t q r s) + Sum nb (fun t => pmo (u_b (ud_f y)) r t * mixed_ab K noa nob (Dx (ud_f y)) (Dy (ud_f y)) p q t s)
          + (proj2 na (u_a (ud_f y)) (u_b (ud_f y)) (ab (u_approx (ud_f y))) p q r s + proj2b nb (u_a (ud_f y)) (u_b (ud_f y)) (ab (u_approx (ud_f y))) p q r s))))).
      - apply con2h_ext. intros p q r s _ _ _ _. unfold A. rewrite (fold_left_map' (udm2_step half (na, nb) (noa, nob) true false ac)).
        rewrite (fold_tri K (fun S => ab S p q r s) _ (fun y => half * (Sum na (fun t => pmo (u_a (ud_f y)) p t * mixed_ab K noa nob (Dx (ud_f y)) (Dy (ud_f y)) t q r s) + Sum nb (fun t => pmo (u_b (ud_f y)) r t * mixed_ab K noa nob (Dx (ud_f y)) (Dy (ud_f y)) p q t s)
          + (proj2 na (u_a (ud_f y)) (u_b (ud_f y)) (ab (u_approx (ud_f y))) p q r s + proj2b nb (u_a (ud_f y)) (u_b (ud_f y)) (ab (u_approx (ud_f y))) p q r s)))).
        + unfold P_Demo.ab at 1. cbn [fst snd]. unfold z. ring.
        + intros [[a1 a2] a3] y Hin. unfold udm2_step. cbn [orb negb]. destruct (u_approx (ud_f y)) as [[x1 x2] x3]. unfold P_Demo.ab. cbn [fst snd]. unfold plus2, scale2, on1, on3. fold z.
          rewrite (Sum_ext na (fun i => pmo (u_a (ud_f y)) p i * loop_os _ _ _ _ _ _ _ _ _) (fun t => pmo (u_a (ud_f y)) p t * mixed_ab K noa nob (Dx (ud_f y)) (Dy (ud_f y)) t q r s)).
          2:{ intros t Ht. f_equal. rewrite (loop_os_spec K half Hhalf noa nob (Dx (ud_f y)) (Dy (ud_f y))) by reflexivity. unfold z; ring. }
          rewrite (Sum_ext nb (fun k => pmo (u_b (ud_f y)) r k * loop_os _ _ _ _ _ _ _ _ _) (fun t => pmo (u_b (ud_f y)) r t * mixed_ab K noa nob (Dx (ud_f y)) (Dy (ud_f y)) p q t s)).
          2:{ intros t Ht. f_equal. rewrite (loop_os_spec K half Hhalf noa nob (Dx (ud_f y)) (Dy (ud_f y))) by reflexivity. unfold z; ring. }
          ring.
      - rewrite con2h_Lsum. apply Lsum_ext. intros y Hin. rewrite con2h_scale. cbv zeta. f_equal. rewrite !con2h_add. unfold Bo.
        rewrite (con2h_ext na nb gab (fun p q r s => Sum na (fun t => pmo (u_a (ud_f y)) p t * mixed_ab K noa nob (Dx (ud_f y)) (Dy (ud_f y)) t q r s))
          (fun p q r s => PA na (u_a (ud_f y)) (Ex (ud_f y)) p q * Ey (ud_f y) r s + - (1) * (PA na (u_a (ud_f y)) (Dx (ud_f y)) p q * Dy (ud_f y) r s))).
        2:{ intros. unfold PA. rewrite <- !Sum_mul_r, <- Sum_mul_l, <- Sum_add. apply Sum_ext. intros. unfold mixed_ab, product_ab, Ex, Ey. ring. }
        rewrite (con2h_ext na nb gab (fun p q r s => Sum nb (fun t => pmo (u_b (ud_f y)) r t * mixed_ab K noa nob (Dx (ud_f y)) (Dy (ud_f y)) p q t s))
          (fun p q r s => Ex (ud_f y) p q * PA nb (u_b (ud_f y)) (Ey (ud_f y)) r s + - (1) * (Dx (ud_f y) p q * PA nb (u_b (ud_f y)) (Dy (ud_f y)) r s))).
        2:{ intros. unfold PA. rewrite <- !Sum_mul_l, <- Sum_add. apply Sum_ext. intros. unfold mixed_ab, product_ab, Ex, Ey. ring. }
        rewrite !con2h_add, !con2h_scale. ring. }
    unfold udm2_demo. fold z. fold A. destruct A as [[Y1 Y2] Y3]. unfold P_Demo.aa in A1 at 1. unfold P_Demo.bb in A2 at 1. unfold P_Demo.ab in A3 at 1. cbn [fst snd] in A1, A2, A3.
    cbn [andb]. change (aa (sym2 half sy Y1, Y2, sym2 half sy Y3)) with (sym2 half sy Y1). change (ab (sym2 half sy Y1, Y2, sym2 half sy Y3)) with Y2. change (bb (sym2 half sy Y1, Y2, sym2 half sy Y3)) with (sym2 half sy Y3).
    rewrite (con2h_same na gaa (sym2 half sy Y1)), (con2h_same nb gbb (sym2 half sy Y3)), !con2_sym by auto. rewrite <- (con2h_same na gaa Y1), <- (con2h_same nb gbb Y3). rewrite A1, A2, A3. cbv zeta.
    rewrite !Lsum_add. ring.
Qed.
(** Total energy: nuclear repulsion and exchange divergence are added when asked for. *)
Theorem C55_total : forall (e nuc x : K),
  dmet_energy e nuc (Some x) true true = e + nuc + x /\ dmet_energy e nuc (Some x) true false = e + nuc /\ dmet_energy e nuc (Some x) false true = e + x
  /\ dmet_energy e nuc (Some x) false false = e /\ dmet_energy e nuc None true true = e + nuc /\ dmet_energy e nuc None false true = e.
Proof. intros. repeat split. Qed.
End Thms.

(** ** Cases *)
Section Cases.
Definition q (n : Z) (d : positive) : QK := Q2Qc (n # d).
Definition qh : QK := q 1 2.
Definition eqq (a b : QK) : bool := Qeq_bool (this a) (this b).
Definition all1 (n : nat) (t : nat -> bool) : bool := forallb t (seq 0 n).
Lemma all1_ok n t : all1 n t = true -> forall i, i < n -> t i = true.
Proof. intros H i Hi. unfold all1 in H. rewrite forallb_forall in H. apply H, in_seq. lia. Qed.
Lemma eqq_ok (a b : QK) : eqq a b = true -> a = b.
Proof. intros H. apply Qc_is_canon. now apply Qeq_bool_iff. Qed.
Lemma all2_ok m n (f g : nat -> nat -> QK) : all1 m (fun p => all1 n (fun r => eqq (f p r) (g p r))) = true -> forall p r, p < m -> r < n -> f p r = g p r.
Proof. intros H p r Hp Hr. apply eqq_ok. apply (all1_ok n (fun r => eqq (f p r) (g p r))); auto. now apply (all1_ok m (fun p => all1 n (fun r => eqq (f p r) (g p r)))). Qed.
Lemma all4_ok m n (f g : nat -> nat -> nat -> nat -> QK) : all1 m (fun p => all1 m (fun r => all1 n (fun s => all1 n (fun t => eqq (f p r s t) (g p r s t))))) = true ->
  forall p r s t, p < m -> r < m -> s < n -> t < n -> f p r s t = g p r s t.
Proof.
  intros H p r s t Hp Hr Hs Ht.
  pose proof (all1_ok _ _ H p Hp) as H1. cbv beta in H1. pose proof (all1_ok _ _ H1 r Hr) as H2. cbv beta in H2.
  revert s t Hs Ht. now apply all2_ok.
Qed.
(** Two equivalent sites, an occupied and a virtual orbital each: orbitals 0 and 1 occupied, 2 and 3 virtual, the symmetry swaps 0, 1 and 2, 3.
    The cluster of site [s] are its two orbitals, the fragment orbitals are rotated cluster orbitals. *)
Definition site (s : nat) : orbs QK := {| nclu := 2; nfrg := 2;
  rx := fun p i => if p =? s + 2 * i then q 1 1 else q 0 1;
  fx := fun p f => if p =? s then (if f =? 0 then q 3 5 else q (-4) 5) else if p =? s + 2 then (if f =? 0 then q 4 5 else q 3 5) else q 0 1 |}.
Definition ddm (i j : nat) : QK := match i, j with 0, 0 => q (-1) 5 | 1, 1 => q 1 5 | _, _ => q 1 7 end.
Definition cum (i j k l : nat) : QK := q (Z.of_nat (i + j + k + l)) 9.
Definition sfrag (sf w : QK) (s : nat) : dfrag (K := QK) := {| d_f := {| r_o := site s; r_dm1 := ddm; r_approx := cum; r_exact := cum |}; d_nocc := 1;
  d_full := fun i j k l => (cum i j k l + mixed_spec QK qh 1 ddm i j k l)%K; d_sf := sf; d_w := w |}.
Definition hop (p r : nat) : QK := if p =? r then (if p <? 2 then q (-1) 1 else q 1 3) else if (p + r =? 1) || (p + r =? 5) then q 1 4 else q 0 1.
Definition rep (p r s t : nat) : QK := if (p =? r) && (s =? t) then (if p =? s then q 2 1 else q 1 1) else if (p + r =? 1) && (s + t =? 1) then q 1 6 else q 0 1.
Definition swp (p r : nat) : QK := if (p + r =? 1) || ((2 <=? p) && (2 <=? r) && (p + r =? 5)) then q 1 1 else q 0 1.
Example ex_real : real_g QK rep.
Proof. intros p r s t. unfold rep. rewrite (Nat.eqb_sym s p), (Nat.eqb_sym p r), (andb_comm (r =? p)), (Nat.add_comm p r), (andb_comm (r + p =? 1)). split; [reflexivity|]. rewrite (andb_comm (s =? t)).
  destruct (r =? p) eqn:E; [|reflexivity]. apply Nat.eqb_eq in E. subst. reflexivity. Qed.
Example ex_hop p r : hop p r = hop r p.
Proof. unfold hop. rewrite (Nat.eqb_sym p r), (Nat.add_comm p r). destruct (r =? p) eqn:E; [|reflexivity]. apply Nat.eqb_eq in E. now subst. Qed.
Ltac two := intros p r Hp Hr; revert p r Hp Hr; apply all2_ok; vm_compute; reflexivity.
Example ex_embeds s : s < 2 -> embeds QK 4 2 (site s) 1.
Proof.
  intros Hs. destruct s as [|[|]]; try lia.
  - split; [|split]; [ two | cbn; lia | two ].
  - split; [|split]; [ two | cbn; lia | two ].
Qed.
Example ex_partition sf w : partition QK 4 (fun x => r_o (d_f x)) [sfrag sf w 0; sfrag sf w 1].
Proof. unfold partition. two. Qed.
Example ex_consistent sf w s : consistent QK qh (sfrag sf w s).
Proof. split; [intros [|[|i]] [|[|j]]; reflexivity|]. reflexivity. Qed.
Lemma ex_image s : s < 2 -> image QK 4 swp (site s) (site (1 - s)).
Proof.
  intros Hs. split; [reflexivity|]. split; [reflexivity|]. split.
  - intros p i Hp. assert (C : i < 2 \/ 2 <= i) by lia. destruct C as [C|C].
    + destruct s as [|[|]]; try lia; revert p i Hp C; apply all2_ok; vm_compute; reflexivity.
    + cbn [site rx].
      assert (E : forall s b, s < 2 -> b < 4 -> (b =? s + 2 * i) = false) by (intros; apply Nat.eqb_neq; lia).
      rewrite E by lia. symmetry. transitivity (0%K : QK); [|apply Qc_is_canon; reflexivity]. apply Sum_0. intros b Hb. rewrite E by lia. exact (Qcmult_0_r (swp p b)).
  - intros p f Hp. destruct s as [|[|]]; try lia; destruct f as [|f]; destruct p as [|[|[|[|]]]]; try lia; apply Qc_is_canon; vm_compute; reflexivity.
Qed.
Example ex_child sf w : child QK 4 hop (vhf qh 4 rep (add_diag 2 two (fun _ _ => q 0 1))) rep (sfrag sf w 0) (sfrag sf w 1).
Proof.
  exists swp. split; [|split; [|split; [|split; [|split; [|repeat split]]]]].
  - unfold orthogonal, invariant1. two.
  - unfold invariant1. two.
  - unfold invariant1. two.
  - unfold invariant2. apply (all4_ok 4 4). vm_compute. reflexivity.
  - apply (ex_image 0); lia.
Qed.
(** One site with its symmetry child *)
Example ex_energy pc ac sy : dmet_elec qh 4 2 hop rep [sfrag (q 1 1) (q 2 1) 0] [sfrag (q 1 1) (q 2 1) 0; sfrag (q 1 1) (q 2 1) 1] pc ac
  = (con1 QK 4 hop (rdm1_demo qh 4 2 (map d_f [sfrag (q 1 1) (q 2 1) 0; sfrag (q 1 1) (q 2 1) 1]) true sy)
    + qh * con2 QK 4 rep (rdm2_demo qh 4 2 (map d_f [sfrag (q 1 1) (q 2 1) 0; sfrag (q 1 1) (q 2 1) 1]) true pc ac sy))%K.
Proof.
  apply (C55_restricted QK qh) with (children := fun x => [sfrag (q 1 1) (q 2 1) 1]).
  - apply Qc_is_canon. reflexivity.
  - apply ex_real.
  - apply ex_hop.
  - intros x [<- | [<- | []]]; (split; [apply ex_embeds; lia|split; [apply ex_consistent|reflexivity]]).
  - apply ex_partition.
  - apply Permutation.Permutation_refl.
  - intros x [<- | []]. apply Qc_is_canon. reflexivity.
  - intros x y [<- | []] [<- | []]. apply ex_child.
Qed.
Example ex_energy_value : dmet_elec qh 4 2 hop rep [sfrag (q 1 1) (q 2 1) 0] [sfrag (q 1 1) (q 2 1) 0; sfrag (q 1 1) (q 2 1) 1] true false
  <> dmet_elec qh 4 2 hop rep [sfrag (q 1 1) (q 2 1) 0] [sfrag (q 1 1) (q 2 1) 0; sfrag (q 1 1) (q 2 1) 1] false true.
Proof. intros E. apply (f_equal this) in E. vm_compute in E. discriminate. Qed.
(** The option sym_factor multiplies the energy of the fragment, but not its density matrix in the mean-field part of the energy: one site with
    sym_factor 2 does not give the energy of the two sites, whether the fragment is counted as its symmetry child or not *)
Theorem C55_sym_factor_refuted : exists nmo nocc h g (x x' y : dfrag (K := QK)) approx_cumulant,
  real_g QK g /\ (forall p r, h p r = h r p) /\ child QK nmo h (vhf qh nmo g (add_diag nocc two (fun _ _ => q 0 1))) g x y
  /\ x' = {| d_f := d_f x; d_nocc := d_nocc x; d_full := d_full x; d_sf := q 2 1; d_w := q 1 1 |} /\ d_w x = q 2 1 /\ d_sf x = q 1 1
  /\ dmet_elec qh nmo nocc h g [x'] [x'] false true = dmet_elec qh nmo nocc h g [x] [x; y] false true
  /\ dmet_elec qh nmo nocc h g [x'] [x'] true approx_cumulant <> dmet_elec qh nmo nocc h g [x] [x; y] true approx_cumulant.
Proof.
  exists 4, 2, hop, rep, (sfrag (q 1 1) (q 2 1) 0), (sfrag (q 2 1) (q 1 1) 0), (sfrag (q 1 1) (q 2 1) 1), true.
  split; [apply ex_real|]. split; [apply ex_hop|]. split; [apply ex_child|]. split; [reflexivity|]. split; [reflexivity|]. split; [reflexivity|]. split.
  - apply Qc_is_canon. vm_compute. reflexivity.
  - intros E. apply (f_equal this) in E. vm_compute in E. discriminate.
Qed.
(** Unrestricted: the two sites exchanged in the beta channel *)
Definition cum3 : (nat -> nat -> nat -> nat -> QK) * (nat -> nat -> nat -> nat -> QK) * (nat -> nat -> nat -> nat -> QK) := (cum, (fun i j k l => q (Z.of_nat (i + 2 * j + k + 3 * l)) 5), cum).
Definition ddb (i j : nat) : QK := q (Z.of_nat (i * j)) 3.
Definition usf (w : QK) (s : nat) : udfrag (K := QK) := {| ud_f := {| u_a := site s; u_b := site (1 - s); u_dm1a := ddm; u_dm1b := ddb; u_approx := cum3; u_exact := cum3 |}; ud_nocc := (1, 1);
  ud_full := ((fun i j k l => cum i j k l + mixed_ss QK 1 ddm i j k l)%K, (fun i j k l => ab QK cum3 i j k l + mixed_ab QK 1 1 ddm ddb i j k l)%K, (fun i j k l => cum i j k l + mixed_ss QK 1 ddb i j k l)%K);
  ud_sf := q 1 1; ud_w := w |}.
Example ex_uenergy pc ac sy : let all := [usf (q 2 1) 0; usf (q 2 1) 1] in
  udmet_elec qh (4, 4) (2, 2) hop hop rep rep rep [usf (q 2 1) 0] all pc ac
  = spec_energy_u QK qh 4 4 hop hop rep rep rep (udm1_demo qh (4, 4) (2, 2) (map ud_f all) true sy) (udm2_demo qh (4, 4) (2, 2) (map ud_f all) true pc ac sy).
Proof.
  intros all. apply (C55_unrestricted QK qh) with (children := fun x => [usf (q 2 1) 1]).
  - apply Qc_is_canon. reflexivity.
  - apply ex_real.
  - apply ex_real.
  - apply ex_hop.
  - apply ex_hop.
  - assert (C : forall s, uconsistent QK (usf (q 2 1) s)).
    { intros s. split; [intros [|[|i]] [|[|j]]; reflexivity|]. split; [intros i j; cbn [usf ud_f u_dm1b]; unfold ddb; now rewrite Nat.mul_comm|]. intros. repeat split. }
    intros x [<- | [<- | []]]; (split; [apply ex_embeds; lia|split; [apply ex_embeds; cbn; lia|split; [apply C|reflexivity]]]).
  - unfold partition. two.
  - unfold partition. two.
  - apply Permutation.Permutation_refl.
  - intros x [<- | []]. apply Qc_is_canon. reflexivity.
  - intros x y [<- | []] [<- | []]. exists swp, swp.
    assert (G : invariant2 QK 4 4 swp swp rep) by (unfold invariant2; apply (all4_ok 4 4); vm_compute; reflexivity).
    assert (H : invariant1 QK 4 swp hop) by (unfold invariant1; two).
    assert (O : orthogonal QK 4 swp) by (unfold orthogonal, invariant1; two).
    assert (V : invariant1 QK 4 swp (uvhf 4 4 rep rep (occ0 QK 2) (occ0 QK 2))) by (unfold invariant1; two).
    assert (W : invariant1 QK 4 swp (uvhf 4 4 rep (flip rep) (occ0 QK 2) (occ0 QK 2))) by (unfold invariant1; two).
    split; [exact O|]. split; [exact O|]. split; [exact H|]. split; [exact V|]. split; [exact H|]. split; [exact W|]. split; [exact G|]. split; [exact G|]. split; [exact G|].
    split; [apply (ex_image 0); lia|]. split; [apply (ex_image 1); lia|]. repeat split.
Qed.
End Cases.

Print Assumptions C55_restricted.
Print Assumptions C55_unrestricted.
Print Assumptions C55_total.
Print Assumptions C55_sym_factor_refuted.
