(** C35: fragment energies add up to the energy of the full amplitudes. *)
From Coq Require Import List Arith Bool Lia ZArith QArith Qcanon.
From Verif Require Import Alg M_Wf M_Energy.
Import ListNotations.

Section Spec.
Context (K : cring).
Add Ring Kr : (rth K).
Open Scope K_scope.
Notation mat := (nat -> nat -> K).
Notation ten := (nat -> nat -> nat -> nat -> K).
(** Correlation energy of intermediately normalised amplitudes; [f] ov block of the Fock matrix, [g i a j b] = (ia|jb) *)
Definition E_rhf (no nv : nat) (f : mat) (g : ten) (c1 : mat) (c2 : ten) : K :=
  (1 + 1) * Sum no (fun i => Sum nv (fun a => f i a * c1 i a))
  + Sum no (fun i => Sum no (fun j => Sum nv (fun a => Sum nv (fun b => ((1 + 1) * g i a j b - g i b j a) * c2 i j a b)))).
Definition E_uhf (half : K) (noa nob nva nvb : nat) (fa fb : mat) (gaa gab gbb : ten) (ca cb : mat) (caa cab cbb : ten) : K :=
  Sum noa (fun i => Sum nva (fun a => fa i a * ca i a)) + Sum nob (fun i => Sum nvb (fun a => fb i a * cb i a))
  + half * half * Sum noa (fun i => Sum noa (fun j => Sum nva (fun a => Sum nva (fun b => (gaa i a j b - gaa i b j a) * caa i j a b))))
  + half * half * Sum nob (fun i => Sum nob (fun j => Sum nvb (fun a => Sum nvb (fun b => (gbb i a j b - gbb i b j a) * cbb i j a b))))
  + Sum noa (fun i => Sum nob (fun j => Sum nva (fun a => Sum nvb (fun b => gab i a j b * cab i j a b)))).
(** Change of basis with coefficients [C I i] of the new orbitals; orders of indices as in amplitudes (ijab) and integrals (iajb) *)
Definition rot1 (N : nat) (C : mat) (x : nat -> K) : nat -> K := fun i => Sum N (fun I => C I i * x I).
Definition rot2 (NO NV : nat) (Co Cv : mat) (x : mat) : mat := fun i a => rot1 NO Co (fun I => rot1 NV Cv (x I) a) i.
Definition rot4 (N1 N2 N3 N4 : nat) (C1 C2 C3 C4 : mat) (x : ten) : ten := fun i j a b =>
  rot1 N1 C1 (fun I => rot1 N2 C2 (fun J => rot1 N3 C3 (fun A => rot1 N4 C4 (x I J A) b) a) j) i.
(** The new orbitals are orthonormal and span the same space *)
Definition span (N n : nat) (C : mat) : Prop := forall I J, (I < N)%nat -> (J < N)%nat -> Sum n (fun i => C I i * C J i) = delta I J.
(** Projector onto fragment orbitals [F I x], x < nx *)
Definition pfrag (nx : nat) (F : mat) : mat := fun I J => Sum nx (fun x => F I x * F J x).
End Spec.
Arguments E_rhf {K}. Arguments E_uhf {K}. Arguments rot1 {K}. Arguments rot2 {K}. Arguments rot4 {K}. Arguments span {K}. Arguments pfrag {K}.

Section Proofs.
Context (K : cring).
Add Ring Kr2 : (rth K).
Open Scope K_scope.
Notation mat := (nat -> nat -> K).
Notation ten := (nat -> nat -> nat -> nat -> K).

Lemma rot1_ext N C x y i : (forall I, (I < N)%nat -> x I = y I) -> rot1 (K := K) N C x i = rot1 N C y i.
Proof. intros H. unfold rot1. apply Sum_ext. intros. now rewrite H. Qed.
Lemma iso N n (C : mat) (x y : nat -> K) : span N n C -> Sum n (fun i => rot1 N C x i * rot1 N C y i) = Sum N (fun I => x I * y I).
Proof.
  intros H. unfold rot1.
  transitivity (Sum n (fun i => Sum N (fun I => Sum N (fun J => x I * y J * (C I i * C J i))))).
  { apply Sum_ext. intros i Hi. rewrite <- Sum_mul_r. apply Sum_ext. intros I HI. rewrite <- Sum_mul_l. apply Sum_ext. intros. ring. }
  rewrite Sum_swap. apply Sum_ext. intros I HI. rewrite Sum_swap.
  rewrite (Sum_ext N _ (fun J => delta I J * (x I * y J))).
  - apply (Sum_delta_l N I (fun J => x I * y J)). auto.
  - intros J HJ. rewrite Sum_mul_l, H by auto. ring.
Qed.
Lemma rot1_Sum N C n (f : nat -> nat -> K) i : Sum n (fun a => rot1 N C (fun I => f I a) i) = rot1 N C (fun I => Sum n (f I)) i.
Proof. unfold rot1. rewrite Sum_swap. apply Sum_ext. intros. now rewrite Sum_mul_l. Qed.
(** Contraction of all but the first index of both tensors *)
Lemma iso_tail2 N1 N2 n2 C1 C2 (x y : mat) i j : span N2 n2 C2 ->
  Sum n2 (fun a => rot2 N1 N2 C1 C2 x i a * rot2 N1 N2 C1 C2 y j a) = rot2 N1 N1 C1 C1 (fun I J => Sum N2 (fun A => x I A * y J A)) i j.
Proof.
  intros H. unfold rot2.
  transitivity (Sum n2 (fun a => Sum N1 (fun I => Sum N1 (fun J => C1 I i * C1 J j * (rot1 N2 C2 (x I) a * rot1 N2 C2 (y J) a))))).
  { apply Sum_ext. intros a Ha. unfold rot1 at 1 3. rewrite <- Sum_mul_r. apply Sum_ext. intros I HI. rewrite <- Sum_mul_l. apply Sum_ext. intros. ring. }
  rewrite Sum_swap. unfold rot1 at 3. apply Sum_ext. intros I HI. rewrite Sum_swap. unfold rot1 at 3. rewrite <- Sum_mul_l. apply Sum_ext. intros J HJ.
  rewrite Sum_mul_l, iso by auto. ring.
Qed.
Lemma bilin N1 C1 (x y : nat -> nat -> nat -> nat -> K) n2 n3 n4 i j :
  Sum n2 (fun k => Sum n3 (fun a => Sum n4 (fun b => rot1 N1 C1 (fun I => x I k a b) i * rot1 N1 C1 (fun J => y J k a b) j)))
  = rot2 N1 N1 C1 C1 (fun I J => Sum n2 (fun k => Sum n3 (fun a => Sum n4 (fun b => x I k a b * y J k a b)))) i j.
Proof.
  assert (E : forall k a b, rot1 N1 C1 (fun I => x I k a b) i * rot1 N1 C1 (fun J => y J k a b) j = Sum N1 (fun I => Sum N1 (fun J => C1 I i * C1 J j * (x I k a b * y J k a b)))).
  { intros. unfold rot1. rewrite <- Sum_mul_r. apply Sum_ext. intros I HI. rewrite <- Sum_mul_l. apply Sum_ext. intros. ring. }
  transitivity (Sum n2 (fun k => Sum n3 (fun a => Sum n4 (fun b => Sum N1 (fun I => Sum N1 (fun J => C1 I i * C1 J j * (x I k a b * y J k a b))))))).
  { repeat (apply Sum_ext; intros). apply E. }
  assert (S1 : forall n m p (f : nat -> nat -> nat -> nat -> K), Sum n (fun k => Sum m (fun a => Sum p (fun b => Sum N1 (fun I => f k a b I)))) = Sum N1 (fun I => Sum n (fun k => Sum m (fun a => Sum p (fun b => f k a b I))))).
  { intros n m p f. rewrite (Sum_swap N1 n). apply Sum_ext. intros k Hk. rewrite (Sum_swap N1 m). apply Sum_ext. intros a Ha. now rewrite (Sum_swap N1 p). }
  rewrite S1. unfold rot2, rot1. apply Sum_ext. intros I HI. rewrite S1, <- Sum_mul_l. apply Sum_ext. intros J HJ.
  rewrite <- !Sum_mul_l. apply Sum_ext. intros k Hk. rewrite <- !Sum_mul_l. apply Sum_ext. intros a Ha. rewrite <- !Sum_mul_l. apply Sum_ext. intros b Hb. ring.
Qed.
(** the last three indices: isometry of each *)
Lemma iso3 N2 N3 N4 n2 n3 n4 C2 C3 C4 (x y : nat -> nat -> nat -> K) : span N2 n2 C2 -> span N3 n3 C3 -> span N4 n4 C4 ->
  Sum n2 (fun k => Sum n3 (fun a => Sum n4 (fun b =>
    rot1 N2 C2 (fun J => rot1 N3 C3 (fun A => rot1 N4 C4 (x J A) b) a) k * rot1 N2 C2 (fun J => rot1 N3 C3 (fun A => rot1 N4 C4 (y J A) b) a) k)))
  = Sum N2 (fun J => Sum N3 (fun A => Sum N4 (fun B => x J A B * y J A B))).
Proof.
  intros H2 H3 H4.
  transitivity (Sum n3 (fun a => Sum n4 (fun b => Sum n2 (fun k => rot1 N2 C2 (fun J => rot1 N3 C3 (fun A => rot1 N4 C4 (x J A) b) a) k * rot1 N2 C2 (fun J => rot1 N3 C3 (fun A => rot1 N4 C4 (y J A) b) a) k)))).
  { rewrite (Sum_swap n2 n3). apply Sum_ext. intros a Ha. now rewrite (Sum_swap n2 n4). }
  transitivity (Sum n3 (fun a => Sum n4 (fun b => Sum N2 (fun J => rot1 N3 C3 (fun A => rot1 N4 C4 (x J A) b) a * rot1 N3 C3 (fun A => rot1 N4 C4 (y J A) b) a)))).
  { apply Sum_ext. intros a Ha. apply Sum_ext. intros b Hb. now apply iso. }
  transitivity (Sum N2 (fun J => Sum n4 (fun b => Sum n3 (fun a => rot1 N3 C3 (fun A => rot1 N4 C4 (x J A) b) a * rot1 N3 C3 (fun A => rot1 N4 C4 (y J A) b) a)))).
  { transitivity (Sum n3 (fun a => Sum N2 (fun J => Sum n4 (fun b => rot1 N3 C3 (fun A => rot1 N4 C4 (x J A) b) a * rot1 N3 C3 (fun A => rot1 N4 C4 (y J A) b) a)))).
    - apply Sum_ext. intros a Ha. apply Sum_swap.
    - rewrite Sum_swap. apply Sum_ext. intros J HJ. apply Sum_swap. }
  apply Sum_ext. intros J HJ.
  transitivity (Sum n4 (fun b => Sum N3 (fun A => rot1 N4 C4 (x J A) b * rot1 N4 C4 (y J A) b))).
  { apply Sum_ext. intros b Hb. now apply iso. }
  rewrite Sum_swap. apply Sum_ext. intros A HA. now apply iso.
Qed.
Lemma iso_tail4 N1 N2 N3 N4 n2 n3 n4 C1 C2 C3 C4 (x y : ten) i j : span N2 n2 C2 -> span N3 n3 C3 -> span N4 n4 C4 ->
  Sum n2 (fun k => Sum n3 (fun a => Sum n4 (fun b => rot4 N1 N2 N3 N4 C1 C2 C3 C4 x i k a b * rot4 N1 N2 N3 N4 C1 C2 C3 C4 y j k a b)))
  = rot2 N1 N1 C1 C1 (fun I J => Sum N2 (fun k => Sum N3 (fun a => Sum N4 (fun b => x I k a b * y J k a b)))) i j.
Proof.
  intros H2 H3 H4. unfold rot4.
  rewrite (bilin N1 C1 (fun I k a b => rot1 N2 C2 (fun J => rot1 N3 C3 (fun A => rot1 N4 C4 (x I J A) b) a) k) (fun I k a b => rot1 N2 C2 (fun J => rot1 N3 C3 (fun A => rot1 N4 C4 (y I J A) b) a) k)).
  unfold rot2. apply rot1_ext. intros I HI. apply rot1_ext. intros J HJ. now apply iso3.
Qed.
Lemma rot1_add N C x y c d i : rot1 (K := K) N C (fun I => c * x I + d * y I) i = c * rot1 N C x i + d * rot1 N C y i.
Proof. unfold rot1. rewrite <- !Sum_mul_l, <- Sum_add. apply Sum_ext. intros. ring. Qed.
Lemma rot4_lin N1 N2 N3 N4 C1 C2 C3 C4 (x y : ten) c d i j a b :
  rot4 N1 N2 N3 N4 C1 C2 C3 C4 (fun i j a b => c * x i j a b + d * y i j a b) i j a b = c * rot4 N1 N2 N3 N4 C1 C2 C3 C4 x i j a b + d * rot4 N1 N2 N3 N4 C1 C2 C3 C4 y i j a b.
Proof.
  unfold rot4. rewrite <- rot1_add. apply rot1_ext. intros. rewrite <- rot1_add. apply rot1_ext. intros. rewrite <- rot1_add. apply rot1_ext. intros. now rewrite <- rot1_add.
Qed.
Lemma rot2_lin N1 N2 C1 C2 (x y : mat) c d i a : rot2 N1 N2 C1 C2 (fun i a => c * x i a + d * y i a) i a = c * rot2 N1 N2 C1 C2 x i a + d * rot2 N1 N2 C1 C2 y i a.
Proof. unfold rot2. rewrite <- rot1_add. apply rot1_ext. intros. now rewrite <- rot1_add. Qed.
Lemma rot1_swap N M C D (f : nat -> nat -> K) i j : rot1 N C (fun I => rot1 M D (f I) j) i = rot1 M D (fun J => rot1 N C (fun I => f I J) i) j.
Proof.
  unfold rot1. transitivity (Sum N (fun I => Sum M (fun J => C I i * (D J j * f I J)))).
  - apply Sum_ext. intros. now rewrite Sum_mul_l.
  - rewrite Sum_swap. apply Sum_ext. intros J HJ. rewrite <- Sum_mul_l. apply Sum_ext. intros. ring.
Qed.
(** permuting indices of a rotated tensor: (i,j,a,b) <-> (i,a,j,b) and exchange of a and b *)
Lemma rot4_mid N1 N2 N3 N4 C1 C2 C3 C4 (x : ten) i j a b : rot4 N1 N2 N3 N4 C1 C2 C3 C4 (fun i j a b => x i a j b) i j a b = rot4 N1 N3 N2 N4 C1 C3 C2 C4 x i a j b.
Proof. unfold rot4. apply rot1_ext. intros I HI. apply (rot1_swap N2 N3 C2 C3 (fun J A => rot1 N4 C4 (x I A J) b)). Qed.
Lemma rot4_last N1 N2 N3 N4 C1 C2 C3 C4 (x : ten) i j a b : rot4 N1 N2 N3 N4 C1 C2 C3 C4 (fun i j a b => x i j b a) i j a b = rot4 N1 N2 N4 N3 C1 C2 C4 C3 x i j b a.
Proof. unfold rot4. apply rot1_ext. intros I HI. apply rot1_ext. intros J HJ. apply (rot1_swap N3 N4 C3 C4 (fun A B => x I J B A)). Qed.

(** ** Fragment-projected energies as contractions with the projector *)
(** Restricted: W I J is the energy without the sum over the first occupied index *)
Definition W (no nv : nat) (f : mat) (g : ten) (c1 : mat) (c2 : ten) : mat := fun i j =>
  (1 + 1) * Sum nv (fun a => f i a * c1 j a) + Sum no (fun k => Sum nv (fun a => Sum nv (fun b => ((1 + 1) * g i a k b + - (1) * g i b k a) * c2 j k a b))).
Lemma W_trace no nv f g c1 c2 : Sum no (fun i => W no nv f g c1 c2 i i) = E_rhf no nv f g c1 c2.
Proof.
  unfold W, E_rhf. rewrite Sum_add, Sum_mul_l. f_equal. repeat (apply Sum_ext; intros). ring.
Qed.
Lemma W_rot NO NV no nv Co Cv f g c1 c2 i j : span NO no Co -> span NV nv Cv ->
  W no nv (rot2 NO NV Co Cv f) (rot4 NO NV NO NV Co Cv Co Cv g) (rot2 NO NV Co Cv c1) (rot4 NO NO NV NV Co Co Cv Cv c2) i j
  = rot2 NO NO Co Co (W NO NV f g c1 c2) i j.
Proof.
  intros Ho Hv. unfold W. rewrite iso_tail2 by auto.
  rewrite (Sum_ext no _ (fun k => Sum nv (fun a => Sum nv (fun b => rot4 NO NO NV NV Co Co Cv Cv (fun i k a b => (1 + 1) * g i a k b + - (1) * g i b k a) i k a b * rot4 NO NO NV NV Co Co Cv Cv c2 j k a b)))).
  2:{ intros k Hk. apply Sum_ext. intros a Ha. apply Sum_ext. intros b Hb. f_equal.
      rewrite (rot4_lin NO NO NV NV Co Co Cv Cv (fun i k a b => g i a k b) (fun i k a b => g i b k a)).
      rewrite (rot4_last NO NO NV NV Co Co Cv Cv (fun i k a b => g i a k b)). rewrite !(rot4_mid NO NO NV NV Co Co Cv Cv g). reflexivity. }
  rewrite (iso_tail4 NO NO NV NV no nv nv Co Co Cv Cv (fun i k a b => (1 + 1) * g i a k b + - (1) * g i b k a) c2 i j) by auto.
  set (A := fun I J => Sum NV (fun A => f I A * c1 J A)).
  set (B := fun I J => Sum NO (fun k => Sum NV (fun a => Sum NV (fun b => ((1 + 1) * g I a k b + - (1) * g I b k a) * c2 J k a b)))).
  transitivity ((1 + 1) * rot2 NO NO Co Co A i j + 1 * rot2 NO NO Co Co B i j); [ring|].
  rewrite <- rot2_lin. unfold rot2. apply rot1_ext. intros. apply rot1_ext. intros. unfold A, B. ring.
Qed.
(** tr(P W) *)
Definition trP (n : nat) (P V : mat) : K := Sum n (fun I => Sum n (fun J => P I J * V I J)).
Lemma trP_proj no nx (p V : mat) : trP no (fun i j => Sum nx (fun x => p x i * p x j)) V = Sum no (fun i => Sum no (fun j => Sum nx (fun x => p x i * p x j * V i j))).
Proof. unfold trP. apply Sum_ext. intros. apply Sum_ext. intros. now rewrite Sum_mul_r. Qed.
(** fragment orbitals in the cluster: p x i = sum_I F I x * Co I i *)
Lemma trP_cluster NO no nx Co (F V : mat) : span NO no Co ->
  trP no (fun i j => Sum nx (fun x => rot1 NO Co (fun I => F I x) i * rot1 NO Co (fun I => F I x) j)) (rot2 NO NO Co Co V) = trP NO (pfrag nx F) V.
Proof.
  intros H. unfold trP.
  transitivity (Sum nx (fun x => Sum no (fun i => rot1 NO Co (fun I => F I x) i * Sum no (fun j => rot1 NO Co (fun I => F I x) j * rot2 NO NO Co Co V i j)))).
  { transitivity (Sum no (fun i => Sum nx (fun x => rot1 NO Co (fun I => F I x) i * Sum no (fun j => rot1 NO Co (fun I => F I x) j * rot2 NO NO Co Co V i j)))); [|apply Sum_swap].
    apply Sum_ext. intros i Hi.
    transitivity (Sum no (fun j => Sum nx (fun x => rot1 NO Co (fun I => F I x) i * rot1 NO Co (fun I => F I x) j * rot2 NO NO Co Co V i j))).
    - apply Sum_ext. intros j Hj. now rewrite Sum_mul_r.
    - rewrite Sum_swap. apply Sum_ext. intros x Hx. rewrite <- Sum_mul_l. apply Sum_ext. intros. ring. }
  transitivity (Sum nx (fun x => Sum NO (fun I => F I x * Sum NO (fun J => F J x * V I J)))).
  { apply Sum_ext. intros x Hx.
    transitivity (Sum no (fun i => rot1 NO Co (fun I => F I x) i * rot1 NO Co (fun I => Sum NO (fun J => F J x * V I J)) i)).
    - apply Sum_ext. intros i Hi. f_equal. unfold rot2.
      transitivity (Sum no (fun j => rot1 NO Co (fun I => F I x) j * rot1 NO Co (fun J => rot1 NO Co (fun I => V I J) i) j)).
      + apply Sum_ext. intros j Hj. f_equal. apply rot1_swap.
      + rewrite iso by auto. rewrite <- rot1_Sum. apply Sum_ext. intros J HJ. unfold rot1. rewrite <- Sum_mul_l. apply Sum_ext. intros. ring.
    - now apply iso. }
  rewrite Sum_swap. apply Sum_ext. intros I HI. unfold pfrag.
  transitivity (Sum nx (fun x => Sum NO (fun J => F I x * F J x * V I J))).
  { apply Sum_ext. intros x Hx. rewrite <- Sum_mul_l. apply Sum_ext. intros. ring. }
  rewrite Sum_swap. apply Sum_ext. intros J HJ. now rewrite Sum_mul_r.
Qed.
Lemma trP_sum {A} n (l : list A) (P : A -> mat) V : (forall I J, (I < n)%nat -> (J < n)%nat -> Lsum l (fun x => P x I J) = delta I J) -> Lsum l (fun x => trP n (P x) V) = Sum n (fun I => V I I).
Proof.
  intros H. unfold trP. rewrite Lsum_Sum. apply Sum_ext. intros I HI. rewrite Lsum_Sum.
  rewrite (Sum_ext n _ (fun J => delta I J * V I J)); [apply (Sum_delta_l n I (fun J => V I J)); auto|].
  intros J HJ. rewrite Lsum_mul_r. f_equal. auto.
Qed.
(** the code's expression for projected amplitudes *)
Lemma frag_energy_trP (p : proj K) no nv fov (g : ten) c1 c2 : pcol p = no ->
  e_singles (Some p) no nv fov (Some (pc1 c1 p)) + e_doubles (Some p) no nv g (pc2 c2 p)
  = trP no (fun i j => Sum (prow p) (fun x => pmat p x i * pmat p x j)) (W no nv fov (fun i a k b => g i a b k) c1 c2).
Proof.
  intros Hc. rewrite trP_proj. unfold e_singles, e_doubles, W, Sum4, pc1, pc2. rewrite Hc. set (n := prow p). set (m := pmat p).
  set (A := Sum no (fun i => Sum nv (fun a => Sum n (fun x => fov i a * m x i * Sum no (fun j => m x j * c1 j a))))).
  assert (EA : A = Sum no (fun i => Sum no (fun j => Sum n (fun x => m x i * m x j * Sum nv (fun a => fov i a * c1 j a))))).
  { unfold A. apply Sum_ext. intros i Hi.
    transitivity (Sum nv (fun a => Sum n (fun x => Sum no (fun j => m x i * m x j * (fov i a * c1 j a))))).
    { apply Sum_ext. intros a Ha. apply Sum_ext. intros x Hx. rewrite <- Sum_mul_l. apply Sum_ext. intros. ring. }
    transitivity (Sum no (fun j => Sum n (fun x => Sum nv (fun a => m x i * m x j * (fov i a * c1 j a))))).
    2:{ apply Sum_ext. intros j Hj. apply Sum_ext. intros x Hx. now rewrite Sum_mul_l. }
    rewrite Sum_swap. transitivity (Sum n (fun x => Sum no (fun j => Sum nv (fun a => m x i * m x j * (fov i a * c1 j a))))); [|apply Sum_swap].
    apply Sum_ext. intros x Hx. apply Sum_swap. }
  assert (EB : forall h : ten, Sum n (fun x => Sum no (fun i => Sum no (fun k => Sum nv (fun a => Sum nv (fun b => m x i * Sum no (fun j => m x j * c2 j k a b) * h i a b k)))))
             = Sum no (fun i => Sum no (fun j => Sum n (fun x => m x i * m x j * Sum no (fun k => Sum nv (fun a => Sum nv (fun b => h i a b k * c2 j k a b))))))).
  { intros h. rewrite Sum_swap. apply Sum_ext. intros i Hi. rewrite (Sum_swap no n). apply Sum_ext. intros x Hx.
    transitivity (Sum no (fun k => Sum nv (fun a => Sum nv (fun b => Sum no (fun j => m x i * m x j * (h i a b k * c2 j k a b)))))).
    { apply Sum_ext. intros k Hk. apply Sum_ext. intros a Ha. apply Sum_ext. intros b Hb.
      transitivity (m x i * h i a b k * Sum no (fun j => m x j * c2 j k a b)); [ring|]. rewrite <- Sum_mul_l. apply Sum_ext. intros. ring. }
    transitivity (Sum no (fun j => Sum no (fun k => Sum nv (fun a => Sum nv (fun b => m x i * m x j * (h i a b k * c2 j k a b)))))).
    { rewrite (Sum_swap no no (fun j k => Sum nv (fun a => Sum nv (fun b => m x i * m x j * (h i a b k * c2 j k a b))))). apply Sum_ext. intros k Hk.
      rewrite (Sum_swap no nv). apply Sum_ext. intros a Ha. apply Sum_swap. }
    apply Sum_ext. intros j Hj. rewrite <- Sum_mul_l. apply Sum_ext. intros k Hk. rewrite <- Sum_mul_l. apply Sum_ext. intros a Ha. now rewrite Sum_mul_l. }
  rewrite EA, (EB g), (EB (fun i a b k => g i b a k)).
  assert (L : forall n (f g h : nat -> K), (1 + 1) * Sum n f + ((1 + 1) * Sum n g - Sum n h) = Sum n (fun i => (1 + 1) * f i + ((1 + 1) * g i - h i))).
  { intros. now rewrite Sum_add, Sum_sub, !Sum_mul_l. }
  rewrite L. apply Sum_ext. intros i Hi. rewrite L. apply Sum_ext. intros j Hj. rewrite L. apply Sum_ext. intros x Hx.
  rewrite (Sum_ext no (fun k => Sum nv (fun a => Sum nv (fun b => ((1 + 1) * g i a b k + - (1) * g i b a k) * c2 j k a b)))
     (fun k => (1 + 1) * Sum nv (fun a => Sum nv (fun b => g i a b k * c2 j k a b)) - Sum nv (fun a => Sum nv (fun b => g i b a k * c2 j k a b)))).
  - rewrite Sum_sub, Sum_mul_l. ring.
  - intros k Hk. rewrite <- Sum_mul_l, <- Sum_sub. apply Sum_ext. intros a Ha. rewrite <- Sum_mul_l, <- Sum_sub. apply Sum_ext. intros b Hb. ring.
Qed.

Lemma contr (m : mat) nx no n2 n3 n4 (h c : ten) :
  Sum nx (fun x => Sum no (fun i => Sum n2 (fun k => Sum n3 (fun a => Sum n4 (fun b => m x i * Sum no (fun j => m x j * c j k a b) * h i k a b)))))
  = trP no (fun i j => Sum nx (fun x => m x i * m x j)) (fun i j => Sum n2 (fun k => Sum n3 (fun a => Sum n4 (fun b => h i k a b * c j k a b)))).
Proof.
  rewrite trP_proj. rewrite Sum_swap. apply Sum_ext. intros i Hi. rewrite (Sum_swap no nx). apply Sum_ext. intros x Hx.
  transitivity (Sum n2 (fun k => Sum n3 (fun a => Sum n4 (fun b => Sum no (fun j => m x i * m x j * (h i k a b * c j k a b)))))).
  { apply Sum_ext. intros k Hk. apply Sum_ext. intros a Ha. apply Sum_ext. intros b Hb.
    transitivity (m x i * h i k a b * Sum no (fun j => m x j * c j k a b)); [ring|]. rewrite <- Sum_mul_l. apply Sum_ext. intros. ring. }
  transitivity (Sum no (fun j => Sum n2 (fun k => Sum n3 (fun a => Sum n4 (fun b => m x i * m x j * (h i k a b * c j k a b)))))).
  { rewrite (Sum_swap no n2 (fun j k => Sum n3 (fun a => Sum n4 (fun b => m x i * m x j * (h i k a b * c j k a b))))). apply Sum_ext. intros k Hk.
    rewrite (Sum_swap no n3). apply Sum_ext. intros a Ha. apply Sum_swap. }
  apply Sum_ext. intros j Hj. rewrite <- Sum_mul_l. apply Sum_ext. intros k Hk. rewrite <- Sum_mul_l. apply Sum_ext. intros a Ha. now rewrite Sum_mul_l.
Qed.
Lemma contr1 (m : mat) nx no nv (f c : mat) :
  Sum no (fun i => Sum nv (fun a => Sum nx (fun x => f i a * m x i * Sum no (fun j => m x j * c j a))))
  = trP no (fun i j => Sum nx (fun x => m x i * m x j)) (fun i j => Sum nv (fun a => f i a * c j a)).
Proof.
  rewrite trP_proj. apply Sum_ext. intros i Hi.
  transitivity (Sum nv (fun a => Sum nx (fun x => Sum no (fun j => m x i * m x j * (f i a * c j a))))).
  { apply Sum_ext. intros a Ha. apply Sum_ext. intros x Hx. rewrite <- Sum_mul_l. apply Sum_ext. intros. ring. }
  transitivity (Sum no (fun j => Sum nx (fun x => Sum nv (fun a => m x i * m x j * (f i a * c j a))))).
  2:{ apply Sum_ext. intros j Hj. apply Sum_ext. intros x Hx. now rewrite Sum_mul_l. }
  rewrite Sum_swap. transitivity (Sum nx (fun x => Sum no (fun j => Sum nv (fun a => m x i * m x j * (f i a * c j a))))); [|apply Sum_swap].
  apply Sum_ext. intros x Hx. apply Sum_swap.
Qed.
Lemma trP_ext n P V V' : (forall i j, (i < n)%nat -> (j < n)%nat -> V i j = V' i j) -> trP n P V = trP n P V'.
Proof. intros H. unfold trP. apply Sum_ext. intros. apply Sum_ext. intros. now rewrite H. Qed.
Lemma trP_extP n P P' V : (forall i j, (i < n)%nat -> (j < n)%nat -> P i j = P' i j) -> trP n P V = trP n P' V.
Proof. intros H. unfold trP. apply Sum_ext. intros. apply Sum_ext. intros. now rewrite H. Qed.
Lemma trP_lin n P (V V' : mat) c d : trP n P (fun i j => c * V i j + d * V' i j) = c * trP n P V + d * trP n P V'.
Proof. unfold trP. rewrite <- !Sum_mul_l, <- Sum_add. apply Sum_ext. intros. rewrite <- !Sum_mul_l, <- Sum_add. apply Sum_ext. intros. ring. Qed.

(** ** C35, restricted *)
(** The system: Fock matrix and integrals (ia|jb), amplitudes of one wave function *)
Record sys := { NO : nat; NV : nat; F_ : mat; G : ten; C1 : mat; C2 : ten }.
Definition same2 (n m : nat) (x y : mat) : Prop := forall i a, (i < n)%nat -> (a < m)%nat -> x i a = y i a.
Definition same4 (n1 n2 n3 n4 : nat) (x y : ten) : Prop := forall i j a b, (i < n1)%nat -> (j < n2)%nat -> (a < n3)%nat -> (b < n4)%nat -> x i j a b = y i j a b.
(** A symmetry operation of the system: orthogonal transformations of occupied and virtual orbitals that leave everything unchanged *)
Definition symmetry (s : sys) (U : mat * mat) : Prop :=
  span (NO s) (NO s) (fst U) /\ span (NV s) (NV s) (snd U)
  /\ same2 (NO s) (NV s) (rot2 (NO s) (NV s) (fst U) (snd U) (F_ s)) (F_ s) /\ same2 (NO s) (NV s) (rot2 (NO s) (NV s) (fst U) (snd U) (C1 s)) (C1 s)
  /\ same4 (NO s) (NV s) (NO s) (NV s) (rot4 (NO s) (NV s) (NO s) (NV s) (fst U) (snd U) (fst U) (snd U) (G s)) (G s)
  /\ same4 (NO s) (NO s) (NV s) (NV s) (rot4 (NO s) (NO s) (NV s) (NV s) (fst U) (fst U) (snd U) (snd U) (C2 s)) (C2 s).
(** A fragment with its occupied orbitals [fo], cluster orbitals [co], [cv], and symmetry operations [ops] that generate it and its symmetry
    children; the cluster spans the system and was solved exactly. *)
Record member := { frag : efrag (K := K); fo : mat; co : mat; cv : mat; ops : list (mat * mat) }.
Definition forget (x : efrag (K := K)) : efrag := {| fr := fr x; pr := pr x; eno := eno x; env := env x; efov := efov x; eg := eg x; ca1 := ca1 x; ca2 := ca2 x; symf := symf x; nchildren := nchildren x; stored := None |}.
Definition exact_member (s : sys) (m : member) : Prop :=
  let x := frag m in
  span (NO s) (eno x) (co m) /\ span (NV s) (env x) (cv m)
  /\ pcol (fr x) = eno x /\ prow (fr x) = prow (pr x)
  /\ (forall k i, pmat (fr x) k i = rot1 (NO s) (co m) (fun I => fo m I k) i /\ pmat (pr x) k i = pmat (fr x) k i)
  /\ (forall i a, efov x i a = rot2 (NO s) (NV s) (co m) (cv m) (F_ s) i a /\ ca1 x i a = rot2 (NO s) (NV s) (co m) (cv m) (C1 s) i a)
  /\ (forall i a j b, eg x i a b j = rot4 (NO s) (NV s) (NO s) (NV s) (co m) (cv m) (co m) (cv m) (G s) i a j b)
  /\ (forall i j a b, ca2 x i j a b = rot4 (NO s) (NO s) (NV s) (NV s) (co m) (co m) (cv m) (cv m) (C2 s) i j a b)
  /\ (stored x = None \/ stored x = energy_of (forget x))
  /\ length (ops m) = (nchildren x + 1)%nat /\ (forall U, In U (ops m) -> symmetry s U).
(** Occupied orbitals of the child generated by an operation *)
Definition child (s : sys) (m : member) (U : mat * mat) : mat := fun I k => rot1 (NO s) (fst U) (fun J => fo m J k) I.
Definition projectors_add_up (s : sys) (l : list member) : Prop := forall I J, (I < NO s)%nat -> (J < NO s)%nat ->
  Lsum l (fun m => symf (frag m) * Lsum (ops m) (fun U => pfrag (prow (fr (frag m))) (child s m U) I J)) = delta I J.

Definition Ws (s : sys) : mat := W (NO s) (NV s) (F_ s) (G s) (C1 s) (C2 s).
Lemma W_ext n m f g c1 c2 f' g' c1' c2' i j : same2 n m f f' -> same4 n m n m g g' -> same2 n m c1 c1' -> same4 n n m m c2 c2' -> (i < n)%nat -> (j < n)%nat ->
  W n m f g c1 c2 i j = W n m f' g' c1' c2' i j.
Proof.
  intros Hf Hg H1 H2 Hi Hj. unfold W. f_equal.
  - f_equal. apply Sum_ext. intros a Ha. now rewrite Hf, H1.
  - apply Sum_ext. intros k Hk. apply Sum_ext. intros a Ha. apply Sum_ext. intros b Hb. now rewrite !Hg, H2.
Qed.
Lemma W_sym s U i j : symmetry s U -> (i < NO s)%nat -> (j < NO s)%nat -> rot2 (NO s) (NO s) (fst U) (fst U) (Ws s) i j = Ws s i j.
Proof.
  intros (S1 & S2 & Sf & Sc & Sg & Sd) Hi Hj. unfold Ws. rewrite <- (W_rot (NO s) (NV s) (NO s) (NV s) (fst U) (snd U)) by auto.
  apply W_ext; auto.
Qed.
Lemma energy_member s m : exact_member s m ->
  exists e, energy_of (frag m) = Some e /\ nK (nchildren (frag m) + 1) * e = symf (frag m) * Lsum (ops m) (fun U => trP (NO s) (pfrag (prow (fr (frag m))) (child s m U)) (Ws s)).
Proof.
  intros (So & Sv & Hc & Hr & Hp & H1 & Hg & H2 & Hst & Hl & Hops). set (x := frag m) in *.
  set (e := symf x * trP (NO s) (pfrag (prow (fr x)) (fo m)) (Ws s)).
  assert (E : energy_of (forget x) = Some e).
  { unfold energy_of, forget. cbn [stored fr pr eno env efov eg symf ca1 ca2]. unfold frag_energy. rewrite Hr, Nat.eqb_refl. cbn [option_map snd]. f_equal.
    transitivity (symf x * (e_singles (Some (fr x)) (eno x) (env x) (efov x) (Some (pc1 (ca1 x) (fr x))) + e_doubles (Some (fr x)) (eno x) (env x) (eg x) (pc2 (ca2 x) (fr x)))).
    { transitivity (symf x * (e_singles (Some (pr x)) (eno x) (env x) (efov x) (Some (pc1 (ca1 x) (fr x))) + e_doubles (Some (pr x)) (eno x) (env x) (eg x) (pc2 (ca2 x) (fr x)))); [ring|].
      f_equal. unfold e_singles, e_doubles, Sum4. rewrite Hr. f_equal; [f_equal|f_equal; [f_equal|]]; repeat (apply Sum_ext; intros); now rewrite (proj2 (Hp _ _)). }
    unfold e. f_equal. rewrite frag_energy_trP by auto.
    rewrite (trP_ext (eno x) _ _ (rot2 (NO s) (NO s) (co m) (co m) (Ws s))).
    - rewrite <- (trP_cluster (NO s) (eno x) (prow (fr x)) (co m) (fo m) (Ws s) So). apply trP_extP. intros i j Hi Hj. apply Sum_ext. intros k Hk.
      rewrite (proj1 (Hp k i)), (proj1 (Hp k j)). reflexivity.
    - intros i j Hi Hj. unfold Ws. rewrite <- (W_rot (NO s) (NV s) (eno x) (env x) (co m) (cv m)) by auto.
      apply W_ext; auto.
      + intros i' a' _ _. apply H1.
      + intros i' a' j' b' _ _ _ _. apply Hg.
      + intros i' a' _ _. apply H1.
      + intros i' j' a' b' _ _ _ _. apply H2. }
  exists e. split.
  - destruct Hst as [Hst | Hst].
    + rewrite <- E. unfold energy_of, forget. rewrite Hst. reflexivity.
    + rewrite E in Hst. unfold energy_of. rewrite Hst. reflexivity.
  - rewrite <- Hl, <- (Lsum_const (ops m) e). rewrite <- Lsum_mul_l. apply Lsum_ext. intros U HU. unfold e. f_equal.
    destruct (Hops U HU) as (S1 & S2 & _).
    rewrite <- (trP_cluster (NO s) (NO s) (prow (fr x)) (fst U) (fo m) (Ws s) S1). apply trP_ext. intros i j Hi Hj. now apply W_sym; auto.
Qed.
Lemma fold_energy (l : list (efrag (K := K))) : forall acc, (forall x, In x l -> exists e, energy_of x = Some e) ->
  fold_left (fun acc x => match acc, energy_of x with Some e, Some ex => Some (e + symmetry_factor x * ex) | _, _ => None end) l (Some acc)
  = Some (acc + Lsum l (fun x => symmetry_factor x * match energy_of x with Some e => e | None => 0 end)).
Proof.
  induction l as [|x l IH]; intros acc H; cbn [fold_left Lsum]; [f_equal; ring|].
  destruct (H x (or_introl eq_refl)) as [e E]. rewrite E. rewrite IH by (intros; apply H; now right). f_equal. ring.
Qed.
Theorem C35_restricted : forall s l ncinv, (forall m, In m l -> exact_member s m) -> projectors_add_up s l ->
  wf_corr_energy ncinv (map frag l) = Some (E_rhf (NO s) (NV s) (F_ s) (G s) (C1 s) (C2 s) * ncinv).
Proof.
  intros s l ncinv Hm Hp. unfold wf_corr_energy. rewrite fold_energy.
  - cbn [option_map]. f_equal. f_equal. rewrite Lsum_map.
    rewrite (Lsum_ext l _ (fun m => symf (frag m) * Lsum (ops m) (fun U => trP (NO s) (pfrag (prow (fr (frag m))) (child s m U)) (Ws s)))).
    + rewrite <- W_trace. fold (Ws s).
      rewrite <- (trP_sum (NO s) l (fun m I J => symf (frag m) * Lsum (ops m) (fun U => pfrag (prow (fr (frag m))) (child s m U) I J)) (Ws s) Hp).
      rewrite (Lsum_ext l _ (fun m => trP (NO s) (fun I J => symf (frag m) * Lsum (ops m) (fun U => pfrag (prow (fr (frag m))) (child s m U) I J)) (Ws s))); [ring|].
      intros m Hin. unfold trP. rewrite Lsum_Sum, <- Sum_mul_l. apply Sum_ext. intros I HI. rewrite Lsum_Sum, <- Sum_mul_l. apply Sum_ext. intros J HJ. rewrite Lsum_mul_r. ring.
    + intros m Hin. destruct (energy_member s m (Hm m Hin)) as (e & E & E'). rewrite E. exact E'.
  - intros x Hin. apply in_map_iff in Hin. destruct Hin as (m & <- & Hin). destruct (energy_member s m (Hm m Hin)) as (e & E & _). eauto.
Qed.
(** Energies from amplitudes in the fragment space and from the same amplitudes transformed back to the cluster agree, for any cluster. *)
Theorem C35_axis_restricted : forall (p : proj K) no nv fov (g : ten) symf c1 c2, pcol p = no ->
  frag_energy (Some p) (prow p) no nv fov g symf (Some (pc1 c1 p)) (pc2 c2 p)
  = frag_energy None no no nv fov g symf (Some (pc1 (pc1 c1 p) (ptrans p))) (pc2 (pc2 c2 p) (ptrans p)).
Proof.
  intros p no nv fov g sf c1 c2 Hc. unfold frag_energy. rewrite !Nat.eqb_refl.
  assert (E1 : e_singles (Some p) no nv fov (Some (pc1 c1 p)) = e_singles None no nv fov (Some (pc1 (pc1 c1 p) (ptrans p)))).
  { unfold e_singles, pc1, ptrans. cbn [pcol prow pmat]. f_equal. apply Sum_ext. intros i Hi. apply Sum_ext. intros a Ha. rewrite <- Sum_mul_l. apply Sum_ext. intros x Hx. ring. }
  assert (E2 : forall h : ten, Sum (prow p) (fun x => Sum4 no no nv nv (fun i j a b => pmat p x i * pc2 c2 p x j a b * h i a b j)) = Sum4 no no nv nv (fun i j a b => pc2 (pc2 c2 p) (ptrans p) i j a b * h i a b j)).
  { intros h. unfold Sum4. rewrite Sum_swap. apply Sum_ext. intros i Hi. rewrite Sum_swap. apply Sum_ext. intros j Hj. rewrite Sum_swap. apply Sum_ext. intros a Ha. rewrite Sum_swap. apply Sum_ext. intros b Hb.
    unfold pc2 at 2, ptrans. cbn [pcol prow pmat]. now rewrite <- Sum_mul_r. }
  assert (E3 : e_doubles (Some p) no nv g (pc2 c2 p) = e_doubles None no nv g (pc2 (pc2 c2 p) (ptrans p))).
  { unfold e_doubles. rewrite (E2 g), (E2 (fun i a b j => g i b a j)). reflexivity. }
  rewrite E1, E3. reflexivity.
Qed.

(** ** C35, unrestricted *)
Variable half : K.
Hypothesis Hhalf : half + half = 1.
Record usys := { NOa : nat; NOb : nat; NVa : nat; NVb : nat; Fa : mat; Fb : mat; Gaa : ten; Gab : ten; Gbb : ten; Ca : mat; Cb : mat; Caa : ten; Cab : ten; Cbb : ten }.
(** Unrestricted: energies from amplitudes in the fragment spaces and from the same amplitudes transformed back to the cluster agree
    (mixed-spin amplitudes: half of those projected in alpha and half of those projected in beta); without singles, see the finding below. *)
Definition back (p : proj K) (c : ten) : ten := fun i j a b => Sum (prow p) (fun x => pmat p x i * c x j a b).
Theorem C35_axis_unrestricted : forall (pa pb : proj K) noa nob nva nvb fova fovb (gaa gab gbb : ten) symf (aa ab ba bb : ten),
  ufrag_energy half noa nob nva nvb fova fovb gaa gab gbb symf None
    (Fragment pa pb false {| sh := (prow pa, noa, nva, nva); el := aa |} {| sh := (prow pa, nob, nva, nvb); el := ab |} {| sh := (prow pb, noa, nvb, nva); el := ba |} {| sh := (prow pb, nob, nvb, nvb); el := bb |})
  = ufrag_energy half noa nob nva nvb fova fovb gaa gab gbb symf None
    (Cluster (back pa aa) (fun i j a b => half * (back pa ab i j a b + back pb ba j i b a)) (back pb bb)).
Proof.
  intros. unfold ufrag_energy, u_doubles, cut. cbn [sh el]. rewrite !Nat.min_id. unfold eqs. rewrite !Nat.eqb_refl. cbn [andb].
  assert (D : forall p no no' nv nv' (c : ten) (h : ten), Sum (prow p) (fun x => Sum4 no no' nv nv' (fun i j a b => pmat p x i * c x j a b * h i j a b)) = Sum4 no no' nv nv' (fun i j a b => back p c i j a b * h i j a b)).
  { intros. unfold Sum4, back. rewrite Sum_swap. apply Sum_ext. intros i Hi. rewrite Sum_swap. apply Sum_ext. intros j Hj. rewrite Sum_swap. apply Sum_ext. intros a Ha. rewrite Sum_swap. apply Sum_ext. intros b Hb. now rewrite <- Sum_mul_r. }
  assert (E : u_doubles_cl half noa nob nva nvb gaa gab gbb (back pa aa) (fun i j a b => half * (back pa ab i j a b + back pb ba j i b a)) (back pb bb)
    = half * half * direct pa noa noa nva nva aa gaa - half * half * exchange pa noa nva aa gaa + half * half * direct pb nob nob nvb nvb bb gbb - half * half * exchange pb nob nvb bb gbb
          + half * direct pa noa nob nva nvb ab gab + half * direct_ba pb noa nob nva nvb ba gab).
  { unfold u_doubles_cl, direct, exchange, direct_ba.
    rewrite (D pa noa noa nva nva aa (fun i j a b => gaa i a j b)), (D pa noa noa nva nva aa (fun i j a b => gaa i b j a)), (D pb nob nob nvb nvb bb (fun i j a b => gbb i a j b)), (D pb nob nob nvb nvb bb (fun i j a b => gbb i b j a)),
      (D pa noa nob nva nvb ab (fun i j a b => gab i a j b)), (D pb nob noa nvb nva ba (fun i j a b => gab j b i a)).
    assert (M : Sum4 noa nob nva nvb (fun i j a b => half * (back pa ab i j a b + back pb ba j i b a) * gab i a j b)
      = half * Sum4 noa nob nva nvb (fun i j a b => back pa ab i j a b * gab i a j b) + half * Sum4 nob noa nvb nva (fun i j a b => back pb ba i j a b * gab j b i a)).
    { unfold Sum4. rewrite (Sum_swap nob noa). rewrite <- !Sum_mul_l, <- Sum_add. apply Sum_ext. intros i Hi. rewrite <- !Sum_mul_l, <- Sum_add. apply Sum_ext. intros j Hj. rewrite (Sum_swap nvb nva).
      rewrite <- !Sum_mul_l, <- Sum_add. apply Sum_ext. intros a Ha. rewrite <- !Sum_mul_l, <- Sum_add. apply Sum_ext. intros b Hb. ring. }
    rewrite M. ring. }
  rewrite E. reflexivity.
Qed.
(** Energies without the sum over the first occupied index of one spin *)
Definition Wss (no nv : nat) (f : mat) (g : ten) (c1 : mat) (c2 : ten) : mat := fun i j =>
  Sum nv (fun a => f i a * c1 j a) + half * half * Sum no (fun k => Sum nv (fun a => Sum nv (fun b => (g i a k b + - (1) * g i b k a) * c2 j k a b))).
Definition Wab (no' nv nv' : nat) (g c2 : ten) : mat := fun i j => Sum no' (fun k => Sum nv (fun a => Sum nv' (fun b => g i a k b * c2 j k a b))).
Definition flip (g : ten) : ten := fun k b i a => g i a k b.
Definition Wa (s : usys) : mat := fun i j => 1 * Wss (NOa s) (NVa s) (Fa s) (Gaa s) (Ca s) (Caa s) i j + half * Wab (NOb s) (NVa s) (NVb s) (Gab s) (Cab s) i j.
Definition Wb (s : usys) : mat := fun i j => 1 * Wss (NOb s) (NVb s) (Fb s) (Gbb s) (Cb s) (Cbb s) i j + half * Wab (NOa s) (NVb s) (NVa s) (flip (Gab s)) (exch (Cab s)) i j.
Definition E_u (s : usys) : K := E_uhf half (NOa s) (NOb s) (NVa s) (NVb s) (Fa s) (Fb s) (Gaa s) (Gab s) (Gbb s) (Ca s) (Cb s) (Caa s) (Cab s) (Cbb s).
Lemma Wu_trace s : Sum (NOa s) (fun i => Wa s i i) + Sum (NOb s) (fun i => Wb s i i) = E_u s.
Proof.
  unfold Wa, Wb, E_u, E_uhf, Wss. rewrite !Sum_add, !Sum_mul_l.
  assert (X : Sum (NOb s) (fun i => Wab (NOa s) (NVb s) (NVa s) (flip (Gab s)) (exch (Cab s)) i i) = Sum (NOa s) (fun i => Wab (NOb s) (NVa s) (NVb s) (Gab s) (Cab s) i i)).
  { unfold Wab, flip, exch. rewrite Sum_swap. apply Sum_ext. intros i Hi. apply Sum_ext. intros k Hk. apply Sum_swap. }
  rewrite X. rewrite !Sum_add, !Sum_mul_l. unfold Wab.
  assert (Y : forall no nv (g c : ten), Sum no (fun i => Sum no (fun k => Sum nv (fun a => Sum nv (fun b => (g i a k b + - (1) * g i b k a) * c i k a b))))
            = Sum no (fun i => Sum no (fun k => Sum nv (fun a => Sum nv (fun b => (g i a k b - g i b k a) * c i k a b))))).
  { intros. repeat (apply Sum_ext; intros). ring. }
  rewrite !Y. set (Z := Sum (NOa s) (fun i => Sum (NOb s) (fun k => Sum (NVa s) (fun a => Sum (NVb s) (fun b => Gab s i a k b * Cab s i k a b))))).
  match goal with |- ?a + ?b + ?c = _ => idtac | |- _ => idtac end.
  transitivity (Sum (NOa s) (fun i => Sum (NVa s) (fun a => Fa s i a * Ca s i a)) + Sum (NOb s) (fun i => Sum (NVb s) (fun a => Fb s i a * Cb s i a))
    + half * half * Sum (NOa s) (fun i => Sum (NOa s) (fun j => Sum (NVa s) (fun a => Sum (NVa s) (fun b => (Gaa s i a j b - Gaa s i b j a) * Caa s i j a b))))
    + half * half * Sum (NOb s) (fun i => Sum (NOb s) (fun j => Sum (NVb s) (fun a => Sum (NVb s) (fun b => (Gbb s i a j b - Gbb s i b j a) * Cbb s i j a b)))) + (half + half) * Z); [ring|].
  rewrite Hhalf. ring.
Qed.
Lemma Wss_rot NO NV no nv Co Cv f g c1 c2 i j : span NO no Co -> span NV nv Cv ->
  Wss no nv (rot2 NO NV Co Cv f) (rot4 NO NV NO NV Co Cv Co Cv g) (rot2 NO NV Co Cv c1) (rot4 NO NO NV NV Co Co Cv Cv c2) i j
  = rot2 NO NO Co Co (Wss NO NV f g c1 c2) i j.
Proof.
  intros Ho Hv. unfold Wss. rewrite iso_tail2 by auto.
  rewrite (Sum_ext no _ (fun k => Sum nv (fun a => Sum nv (fun b => rot4 NO NO NV NV Co Co Cv Cv (fun i k a b => 1 * g i a k b + - (1) * g i b k a) i k a b * rot4 NO NO NV NV Co Co Cv Cv c2 j k a b)))).
  2:{ intros k Hk. apply Sum_ext. intros a Ha. apply Sum_ext. intros b Hb. f_equal.
      rewrite (rot4_lin NO NO NV NV Co Co Cv Cv (fun i k a b => g i a k b) (fun i k a b => g i b k a)).
      rewrite (rot4_last NO NO NV NV Co Co Cv Cv (fun i k a b => g i a k b)). rewrite !(rot4_mid NO NO NV NV Co Co Cv Cv g). ring. }
  rewrite (iso_tail4 NO NO NV NV no nv nv Co Co Cv Cv (fun i k a b => 1 * g i a k b + - (1) * g i b k a) c2 i j) by auto.
  set (A := fun I J => Sum NV (fun A => f I A * c1 J A)).
  set (B := fun I J => Sum NO (fun k => Sum NV (fun a => Sum NV (fun b => (1 * g I a k b + - (1) * g I b k a) * c2 J k a b)))).
  transitivity (1 * rot2 NO NO Co Co A i j + (half * half) * rot2 NO NO Co Co B i j); [ring|].
  rewrite <- rot2_lin. unfold rot2. apply rot1_ext. intros. apply rot1_ext. intros. unfold A, B. f_equal; [ring|]. f_equal. repeat (apply Sum_ext; intros). ring.
Qed.
Lemma Wab_rot NO NO' NV NV' no' nv nv' Co Co' Cv Cv' g c2 i j : span NO' no' Co' -> span NV nv Cv -> span NV' nv' Cv' ->
  Wab no' nv nv' (rot4 NO NV NO' NV' Co Cv Co' Cv' g) (rot4 NO NO' NV NV' Co Co' Cv Cv' c2) i j = rot2 NO NO Co Co (Wab NO' NV NV' g c2) i j.
Proof.
  intros Ho Hv Hv'. unfold Wab.
  rewrite (Sum_ext no' _ (fun k => Sum nv (fun a => Sum nv' (fun b => rot4 NO NO' NV NV' Co Co' Cv Cv' (fun i k a b => g i a k b) i k a b * rot4 NO NO' NV NV' Co Co' Cv Cv' c2 j k a b)))).
  - rewrite (iso_tail4 NO NO' NV NV' no' nv nv' Co Co' Cv Cv' (fun i k a b => g i a k b) c2 i j) by auto. reflexivity.
  - intros k Hk. apply Sum_ext. intros a Ha. apply Sum_ext. intros b Hb. f_equal. now rewrite (rot4_mid NO NO' NV NV' Co Co' Cv Cv' g).
Qed.
Lemma flip_rot N1 N2 N3 N4 C1 C2 C3 C4 (g : ten) i j a b : flip (rot4 N1 N2 N3 N4 C1 C2 C3 C4 g) i j a b = rot4 N3 N4 N1 N2 C3 C4 C1 C2 (flip g) i j a b.
Proof.
  unfold flip, rot4.
  (* move the last two indices to the front, one at a time *)
  transitivity (rot1 N1 C1 (fun I => rot1 N3 C3 (fun A => rot1 N2 C2 (fun J => rot1 N4 C4 (g I J A) j) b) i) a).
  { apply rot1_ext. intros I HI. apply (rot1_swap N2 N3 C2 C3 (fun J A => rot1 N4 C4 (g I J A) j)). }
  rewrite (rot1_swap N1 N3 C1 C3 (fun I A => rot1 N2 C2 (fun J => rot1 N4 C4 (g I J A) j) b)). apply rot1_ext. intros A HA.
  transitivity (rot1 N1 C1 (fun I => rot1 N4 C4 (fun B => rot1 N2 C2 (fun J => g I J A B) b) j) a).
  { apply rot1_ext. intros I HI. apply (rot1_swap N2 N4 C2 C4 (fun J B => g I J A B)). }
  apply (rot1_swap N1 N4 C1 C4 (fun I B => rot1 N2 C2 (fun J => g I J A B) b)).
Qed.
Lemma exch_rot N1 N2 N3 N4 C1 C2 C3 C4 (g : ten) i j a b : exch (rot4 N1 N2 N3 N4 C1 C2 C3 C4 g) i j a b = rot4 N2 N1 N4 N3 C2 C1 C4 C3 (exch g) i j a b.
Proof.
  unfold exch, rot4. rewrite (rot1_swap N1 N2 C1 C2 (fun I J => rot1 N3 C3 (fun A => rot1 N4 C4 (g I J A) a) b)). apply rot1_ext. intros J HJ. apply rot1_ext. intros I HI.
  apply (rot1_swap N3 N4 C3 C4 (fun A B => g I J A B)).
Qed.

(** Symmetry operation: transformations of both spins *)
Record uop := { oa : mat; ob : mat; va : mat; vb : mat }.
(** Everything in another basis *)
Definition in_basis (s : usys) (noa nob nva nvb : nat) (u : uop) : usys :=
  {| NOa := noa; NOb := nob; NVa := nva; NVb := nvb; Fa := rot2 (NOa s) (NVa s) (oa u) (va u) (Fa s); Fb := rot2 (NOb s) (NVb s) (ob u) (vb u) (Fb s);
     Gaa := rot4 (NOa s) (NVa s) (NOa s) (NVa s) (oa u) (va u) (oa u) (va u) (Gaa s); Gab := rot4 (NOa s) (NVa s) (NOb s) (NVb s) (oa u) (va u) (ob u) (vb u) (Gab s);
     Gbb := rot4 (NOb s) (NVb s) (NOb s) (NVb s) (ob u) (vb u) (ob u) (vb u) (Gbb s); Ca := rot2 (NOa s) (NVa s) (oa u) (va u) (Ca s); Cb := rot2 (NOb s) (NVb s) (ob u) (vb u) (Cb s);
     Caa := rot4 (NOa s) (NOa s) (NVa s) (NVa s) (oa u) (oa u) (va u) (va u) (Caa s); Cab := rot4 (NOa s) (NOb s) (NVa s) (NVb s) (oa u) (ob u) (va u) (vb u) (Cab s);
     Cbb := rot4 (NOb s) (NOb s) (NVb s) (NVb s) (ob u) (ob u) (vb u) (vb u) (Cbb s) |}.
Definition same_sys (s t : usys) : Prop :=
  NOa s = NOa t /\ NOb s = NOb t /\ NVa s = NVa t /\ NVb s = NVb t
  /\ same2 (NOa s) (NVa s) (Fa s) (Fa t) /\ same2 (NOb s) (NVb s) (Fb s) (Fb t) /\ same2 (NOa s) (NVa s) (Ca s) (Ca t) /\ same2 (NOb s) (NVb s) (Cb s) (Cb t)
  /\ same4 (NOa s) (NVa s) (NOa s) (NVa s) (Gaa s) (Gaa t) /\ same4 (NOa s) (NVa s) (NOb s) (NVb s) (Gab s) (Gab t) /\ same4 (NOb s) (NVb s) (NOb s) (NVb s) (Gbb s) (Gbb t)
  /\ same4 (NOa s) (NOa s) (NVa s) (NVa s) (Caa s) (Caa t) /\ same4 (NOa s) (NOb s) (NVa s) (NVb s) (Cab s) (Cab t) /\ same4 (NOb s) (NOb s) (NVb s) (NVb s) (Cbb s) (Cbb t).
Definition uspan (s : usys) (noa nob nva nvb : nat) (u : uop) : Prop := span (NOa s) noa (oa u) /\ span (NOb s) nob (ob u) /\ span (NVa s) nva (va u) /\ span (NVb s) nvb (vb u).
Definition usymmetry (s : usys) (u : uop) : Prop := uspan s (NOa s) (NOb s) (NVa s) (NVb s) u /\ same_sys s (in_basis s (NOa s) (NOb s) (NVa s) (NVb s) u).
Lemma Wu_ext s t : same_sys s t -> (forall i j, (i < NOa s)%nat -> (j < NOa s)%nat -> Wa s i j = Wa t i j) /\ (forall i j, (i < NOb s)%nat -> (j < NOb s)%nat -> Wb s i j = Wb t i j).
Proof.
  intros (E1 & E2 & E3 & E4 & Hfa & Hfb & Hca & Hcb & Hgaa & Hgab & Hgbb & Hcaa & Hcab & Hcbb). split; intros i j Hi Hj.
  - unfold Wa, Wss, Wab. rewrite <- E1, <- E2, <- E3, <- E4. f_equal; f_equal; [f_equal; [|f_equal]|].
    + apply Sum_ext. intros. now rewrite Hfa, Hca.
    + repeat (apply Sum_ext; intros). now rewrite !Hgaa, Hcaa.
    + repeat (apply Sum_ext; intros). now rewrite Hgab, Hcab.
  - unfold Wb, Wss, Wab, flip, exch. rewrite <- E1, <- E2, <- E3, <- E4. f_equal; f_equal; [f_equal; [|f_equal]|].
    + apply Sum_ext. intros. now rewrite Hfb, Hcb.
    + repeat (apply Sum_ext; intros). now rewrite !Hgbb, Hcbb.
    + repeat (apply Sum_ext; intros). now rewrite Hgab, Hcab.
Qed.
Lemma Wu_rot s noa nob nva nvb u : uspan s noa nob nva nvb u ->
  (forall i j, Wa (in_basis s noa nob nva nvb u) i j = rot2 (NOa s) (NOa s) (oa u) (oa u) (Wa s) i j)
  /\ (forall i j, Wb (in_basis s noa nob nva nvb u) i j = rot2 (NOb s) (NOb s) (ob u) (ob u) (Wb s) i j).
Proof.
  intros (S1 & S2 & S3 & S4). split; intros i j.
  - unfold Wa, in_basis. cbn [NOa NOb NVa NVb Fa Fb Gaa Gab Gbb Ca Cb Caa Cab Cbb]. rewrite Wss_rot, Wab_rot, <- rot2_lin by auto. reflexivity.
  - unfold Wb, in_basis. cbn [NOa NOb NVa NVb Fa Fb Gaa Gab Gbb Ca Cb Caa Cab Cbb]. rewrite Wss_rot by auto.
    rewrite rot2_lin. f_equal. f_equal. rewrite <- (Wab_rot (NOb s) (NOa s) (NVb s) (NVa s) noa nvb nva (ob u) (oa u) (vb u) (va u)) by auto.
    unfold Wab. repeat (apply Sum_ext; intros). now rewrite flip_rot, exch_rot.
Qed.
Record umember := { ufrag : uefrag (K := K); foa : mat; fob : mat; cl : uop; uops : list uop }.
Definition uforget (x : uefrag (K := K)) : uefrag := {| ufra := ufra x; ufrb := ufrb x; upra := upra x; uprb := uprb x; unoa := unoa x; unob := unob x; unva := unva x; unvb := unvb x;
  ufova := ufova x; ufovb := ufovb x; ugaa := ugaa x; ugab := ugab x; ugbb := ugbb x; uca := uca x; ucb := ucb x; ucaa := ucaa x; ucab := ucab x; ucbb := ucbb x; usymf := usymf x; unchildren := unchildren x; ustored := None |}.
(** What the fragment holds, as a system of its cluster orbitals *)
Definition cluster_sys (x : uefrag (K := K)) : usys :=
  {| NOa := unoa x; NOb := unob x; NVa := unva x; NVb := unvb x; Fa := ufova x; Fb := ufovb x; Gaa := ugaa x; Gab := ugab x; Gbb := ugbb x; Ca := uca x; Cb := ucb x; Caa := ucaa x; Cab := ucab x; Cbb := ucbb x |}.
Definition uexact_member (s : usys) (m : umember) : Prop :=
  let x := ufrag m in
  uspan s (unoa x) (unob x) (unva x) (unvb x) (cl m)
  /\ pcol (ufra x) = unoa x /\ pcol (ufrb x) = unob x /\ prow (ufra x) = prow (upra x) /\ prow (ufrb x) = prow (uprb x)
  /\ (forall k i, pmat (ufra x) k i = rot1 (NOa s) (oa (cl m)) (fun I => foa m I k) i /\ pmat (upra x) k i = pmat (ufra x) k i)
  /\ (forall k i, pmat (ufrb x) k i = rot1 (NOb s) (ob (cl m)) (fun I => fob m I k) i /\ pmat (uprb x) k i = pmat (ufrb x) k i)
  /\ same_sys (cluster_sys x) (in_basis s (unoa x) (unob x) (unva x) (unvb x) (cl m))
  /\ (ustored x = None \/ ustored x = uenergy_of half (uforget x))
  /\ length (uops m) = (unchildren x + 1)%nat /\ (forall u, In u (uops m) -> usymmetry s u).
Definition uchild_a (s : usys) (m : umember) (u : uop) : mat := fun I k => rot1 (NOa s) (oa u) (fun J => foa m J k) I.
Definition uchild_b (s : usys) (m : umember) (u : uop) : mat := fun I k => rot1 (NOb s) (ob u) (fun J => fob m J k) I.
Definition uprojectors_add_up (s : usys) (l : list umember) : Prop :=
  (forall I J, (I < NOa s)%nat -> (J < NOa s)%nat -> Lsum l (fun m => usymf (ufrag m) * Lsum (uops m) (fun u => pfrag (prow (ufra (ufrag m))) (uchild_a s m u) I J)) = delta I J)
  /\ (forall I J, (I < NOb s)%nat -> (J < NOb s)%nat -> Lsum l (fun m => usymf (ufrag m) * Lsum (uops m) (fun u => pfrag (prow (ufrb (ufrag m))) (uchild_b s m u) I J)) = delta I J).
Lemma u_doubles_shape pa pb noa nob nva nvb (gaa gab gbb : ten) (aa ab ba bb : ten) :
  u_doubles half pa pb noa nob nva nvb gaa gab gbb false {| sh := (prow pa, noa, nva, nva); el := aa |} {| sh := (prow pa, nob, nva, nvb); el := ab |}
    {| sh := (prow pb, noa, nvb, nva); el := ba |} {| sh := (prow pb, nob, nvb, nvb); el := bb |}
  = Some (half * half * direct pa noa noa nva nva aa gaa - half * half * exchange pa noa nva aa gaa + half * half * direct pb nob nob nvb nvb bb gbb - half * half * exchange pb nob nvb bb gbb
          + half * direct pa noa nob nva nvb ab gab + half * direct_ba pb noa nob nva nvb ba gab).
Proof. unfold u_doubles, cut. cbn [sh el]. rewrite !Nat.min_id. unfold eqs. rewrite !Nat.eqb_refl. reflexivity. Qed.
Definition tr_p (p : proj K) (no : nat) (V : mat) : K := trP no (fun i j => Sum (prow p) (fun x => pmat p x i * pmat p x j)) V.
Lemma uenergy_trP (x : uefrag (K := K)) : ustored x = None -> pcol (ufra x) = unoa x -> pcol (ufrb x) = unob x ->
  prow (ufra x) = prow (upra x) -> prow (ufrb x) = prow (uprb x) -> (forall k i, pmat (upra x) k i = pmat (ufra x) k i) -> (forall k i, pmat (uprb x) k i = pmat (ufrb x) k i) ->
  uenergy_of half x = Some (usymf x * (tr_p (ufra x) (unoa x) (Wa (cluster_sys x)) + tr_p (ufrb x) (unob x) (Wb (cluster_sys x)))).
Proof.
  intros Hs Hca Hcb Hra Hrb Hpa Hpb. unfold uenergy_of. rewrite Hs. cbn [project_uc2 project_uc1 uaa uab uba ubb fst snd]. unfold ufrag_energy. rewrite Hra, Hrb, u_doubles_shape. cbn [option_map snd]. f_equal.
  unfold tr_p, Wa, Wb. rewrite !trP_lin. unfold cluster_sys. cbn [NOa NOb NVa NVb Fa Fb Gaa Gab Gbb Ca Cb Caa Cab Cbb].
  assert (SS : forall (p q : proj K) no nv f c1, (forall k i, pmat p k i = pmat q k i) -> prow q = prow p -> pcol q = no ->
    u_singles p no nv f (pc1 c1 q) = trP no (fun i j => Sum (prow q) (fun x => pmat q x i * pmat q x j)) (fun i j => Sum nv (fun a => f i a * c1 j a))).
  { intros p q no nv f c1 Hp Hr Hc. rewrite <- contr1. unfold u_singles, pc1. rewrite Hr, Hc. repeat (apply Sum_ext; intros). now rewrite Hp. }
  assert (DD : forall (p q : proj K) no no' nv nv' (c g : ten), (forall k i, pmat p k i = pmat q k i) -> prow q = prow p -> pcol q = no ->
    direct p no no' nv nv' (pc2 c q) g = trP no (fun i j => Sum (prow q) (fun x => pmat q x i * pmat q x j)) (fun i j => Sum no' (fun k => Sum nv (fun a => Sum nv' (fun b => g i a k b * c j k a b))))).
  { intros p q no no' nv nv' c g Hp Hr Hc. rewrite <- (contr (pmat q) (prow q) no no' nv nv' (fun i k a b => g i a k b)). unfold direct, Sum4, pc2. rewrite Hr, Hc. repeat (apply Sum_ext; intros). now rewrite Hp. }
  assert (XX : forall (p q : proj K) no nv (c g : ten), (forall k i, pmat p k i = pmat q k i) -> prow q = prow p -> pcol q = no ->
    exchange p no nv (pc2 c q) g = trP no (fun i j => Sum (prow q) (fun x => pmat q x i * pmat q x j)) (fun i j => Sum no (fun k => Sum nv (fun a => Sum nv (fun b => g i b k a * c j k a b))))).
  { intros p q no nv c g Hp Hr Hc. rewrite <- (contr (pmat q) (prow q) no no nv nv (fun i k a b => g i b k a)). unfold exchange, Sum4, pc2. rewrite Hr, Hc. repeat (apply Sum_ext; intros). now rewrite Hp. }
  assert (BA : direct_ba (uprb x) (unoa x) (unob x) (unva x) (unvb x) (pc2 (exch (ucab x)) (ufrb x)) (ugab x)
     = trP (unob x) (fun i j => Sum (prow (ufrb x)) (fun k => pmat (ufrb x) k i * pmat (ufrb x) k j)) (Wab (unoa x) (unvb x) (unva x) (flip (ugab x)) (exch (ucab x)))).
  { unfold Wab. rewrite <- (contr (pmat (ufrb x)) (prow (ufrb x)) (unob x) (unoa x) (unvb x) (unva x) (fun i k a b => flip (ugab x) i a k b)). unfold direct_ba, Sum4, pc2. rewrite Hrb, Hcb. repeat (apply Sum_ext; intros). unfold flip. now rewrite Hpb. }
  rewrite (SS (upra x) (ufra x)), (SS (uprb x) (ufrb x)), (DD (upra x) (ufra x)), (DD (upra x) (ufra x)), (DD (uprb x) (ufrb x)), (XX (upra x) (ufra x)), (XX (uprb x) (ufrb x)), BA by auto.
  fold (Wab (unob x) (unva x) (unvb x) (ugab x) (ucab x)).
  assert (SP : forall (q : proj K) no nv f (g c2 : ten) c1, trP no (fun i j => Sum (prow q) (fun x => pmat q x i * pmat q x j)) (Wss no nv f g c1 c2)
     = trP no (fun i j => Sum (prow q) (fun x => pmat q x i * pmat q x j)) (fun i j => Sum nv (fun a => f i a * c1 j a))
       + half * half * trP no (fun i j => Sum (prow q) (fun x => pmat q x i * pmat q x j)) (fun i j => Sum no (fun k => Sum nv (fun a => Sum nv (fun b => g i a k b * c2 j k a b))))
       - half * half * trP no (fun i j => Sum (prow q) (fun x => pmat q x i * pmat q x j)) (fun i j => Sum no (fun k => Sum nv (fun a => Sum nv (fun b => g i b k a * c2 j k a b))))).
  { intros q no nv f g c2 c1. set (P := fun i j => Sum (prow q) (fun x => pmat q x i * pmat q x j)).
    set (A := fun i j : nat => Sum nv (fun a => f i a * c1 j a)). set (B := fun i j : nat => Sum no (fun k => Sum nv (fun a => Sum nv (fun b => g i a k b * c2 j k a b)))).
    set (C := fun i j : nat => Sum no (fun k => Sum nv (fun a => Sum nv (fun b => g i b k a * c2 j k a b)))).
    transitivity (1 * trP no P A + (half * half) * trP no P (fun i j => 1 * B i j + - (1) * C i j)).
    - rewrite <- trP_lin. apply trP_ext. intros i j _ _. unfold Wss, A. f_equal; [ring|]. f_equal. unfold B, C. rewrite <- !Sum_mul_l, <- Sum_add. apply Sum_ext. intros k Hk.
      rewrite <- !Sum_mul_l, <- Sum_add. apply Sum_ext. intros a Ha. rewrite <- !Sum_mul_l, <- Sum_add. apply Sum_ext. intros b Hb. ring.
    - rewrite trP_lin. ring. }
  rewrite (SP (ufra x)), (SP (ufrb x)). ring.
Qed.
Lemma uenergy_member s m : uexact_member s m ->
  exists e, uenergy_of half (ufrag m) = Some e /\ nK (unchildren (ufrag m) + 1) * e
    = usymf (ufrag m) * Lsum (uops m) (fun u => trP (NOa s) (pfrag (prow (ufra (ufrag m))) (uchild_a s m u)) (Wa s) + trP (NOb s) (pfrag (prow (ufrb (ufrag m))) (uchild_b s m u)) (Wb s)).
Proof.
  intros (Sp & Hca & Hcb & Hra & Hrb & Hpa & Hpb & Hsys & Hst & Hl & Hops). set (x := ufrag m) in *.
  set (e := usymf x * (trP (NOa s) (pfrag (prow (ufra x)) (foa m)) (Wa s) + trP (NOb s) (pfrag (prow (ufrb x)) (fob m)) (Wb s))).
  assert (E : uenergy_of half (uforget x) = Some e).
  { rewrite (uenergy_trP (uforget x) eq_refl Hca Hcb Hra Hrb (fun k i => proj2 (Hpa k i)) (fun k i => proj2 (Hpb k i))). unfold e. f_equal.
    change (usymf (uforget x)) with (usymf x). change (cluster_sys (uforget x)) with (cluster_sys x). change (ufra (uforget x)) with (ufra x). change (ufrb (uforget x)) with (ufrb x).
    change (unoa (uforget x)) with (unoa x). change (unob (uforget x)) with (unob x). f_equal.
    destruct (Wu_ext _ _ Hsys) as [Xa Xb]. destruct (Wu_rot _ _ _ _ _ _ Sp) as [Ra Rb]. destruct Sp as (S1 & S2 & S3 & S4). f_equal.
    - unfold tr_p. rewrite (trP_ext (unoa x) _ _ (rot2 (NOa s) (NOa s) (oa (cl m)) (oa (cl m)) (Wa s))) by (intros i j Hi Hj; rewrite Xa by auto; apply Ra).
      rewrite <- (trP_cluster (NOa s) (unoa x) (prow (ufra x)) (oa (cl m)) (foa m) (Wa s) S1). apply trP_extP. intros i j Hi Hj. apply Sum_ext. intros k Hk. now rewrite (proj1 (Hpa k i)), (proj1 (Hpa k j)).
    - unfold tr_p. rewrite (trP_ext (unob x) _ _ (rot2 (NOb s) (NOb s) (ob (cl m)) (ob (cl m)) (Wb s))) by (intros i j Hi Hj; rewrite Xb by auto; apply Rb).
      rewrite <- (trP_cluster (NOb s) (unob x) (prow (ufrb x)) (ob (cl m)) (fob m) (Wb s) S2). apply trP_extP. intros i j Hi Hj. apply Sum_ext. intros k Hk. now rewrite (proj1 (Hpb k i)), (proj1 (Hpb k j)). }
  exists e. split.
  - destruct Hst as [Hst | Hst].
    + rewrite <- E. unfold uenergy_of, uforget. rewrite Hst. reflexivity.
    + rewrite E in Hst. unfold uenergy_of. rewrite Hst. reflexivity.
  - rewrite <- Hl, <- (Lsum_const (uops m) e). rewrite <- Lsum_mul_l. apply Lsum_ext. intros u Hu. unfold e. f_equal.
    destruct (Hops u Hu) as [Us Us']. destruct (Wu_ext _ _ Us') as [Xa Xb]. destruct (Wu_rot _ _ _ _ _ _ Us) as [Ra Rb]. destruct Us as (S1 & S2 & _). f_equal.
    + rewrite <- (trP_cluster (NOa s) (NOa s) (prow (ufra x)) (oa u) (foa m) (Wa s) S1). apply trP_ext. intros i j Hi Hj. now rewrite <- Ra, <- Xa.
    + rewrite <- (trP_cluster (NOb s) (NOb s) (prow (ufrb x)) (ob u) (fob m) (Wb s) S2). apply trP_ext. intros i j Hi Hj. now rewrite <- Rb, <- Xb.
Qed.
Lemma ufold_energy (l : list (uefrag (K := K))) : forall acc, (forall x, In x l -> exists e, uenergy_of half x = Some e) ->
  fold_left (fun acc x => match acc, uenergy_of half x with Some e, Some ex => Some (e + nK (unchildren x + 1) * ex) | _, _ => None end) l (Some acc)
  = Some (acc + Lsum l (fun x => nK (unchildren x + 1) * match uenergy_of half x with Some e => e | None => 0 end)).
Proof.
  induction l as [|x l IH]; intros acc H; cbn [fold_left Lsum]; [f_equal; ring|].
  destruct (H x (or_introl eq_refl)) as [e E]. rewrite E. rewrite IH by (intros; apply H; now right). f_equal. ring.
Qed.
Theorem C35_unrestricted : forall s l ncinv, (forall m, In m l -> uexact_member s m) -> uprojectors_add_up s l -> u_wf_corr_energy half ncinv (map ufrag l) = Some (E_u s * ncinv).
Proof.
  intros s l ncinv Hm [Ha Hb]. unfold u_wf_corr_energy. rewrite ufold_energy.
  - cbn [option_map]. f_equal. f_equal. rewrite Lsum_map. rewrite <- Wu_trace, <- (trP_sum (NOa s) l _ (Wa s) Ha), <- (trP_sum (NOb s) l _ (Wb s) Hb), <- Lsum_add.
    rewrite (Lsum_ext l _ (fun m => trP (NOa s) (fun I J => usymf (ufrag m) * Lsum (uops m) (fun u => pfrag (prow (ufra (ufrag m))) (uchild_a s m u) I J)) (Wa s)
                                  + trP (NOb s) (fun I J => usymf (ufrag m) * Lsum (uops m) (fun u => pfrag (prow (ufrb (ufrag m))) (uchild_b s m u) I J)) (Wb s))); [ring|].
    intros m Hin. destruct (uenergy_member s m (Hm m Hin)) as (e & E & E'). rewrite E, E'.
    assert (T : forall n (c : K) (P : uop -> mat) V, c * Lsum (uops m) (fun u => trP n (P u) V) = trP n (fun I J => c * Lsum (uops m) (fun u => P u I J)) V).
    { intros n c P V. unfold trP. rewrite Lsum_Sum, <- Sum_mul_l. apply Sum_ext. intros I HI. rewrite Lsum_Sum, <- Sum_mul_l. apply Sum_ext. intros J HJ. rewrite Lsum_mul_r. ring. }
    rewrite <- (T (NOa s) _ (fun u => pfrag (prow (ufra (ufrag m))) (uchild_a s m u))), <- (T (NOb s) _ (fun u => pfrag (prow (ufrb (ufrag m))) (uchild_b s m u))), Lsum_add. ring.
  - intros x Hin. apply in_map_iff in Hin. destruct Hin as (m & <- & Hin). destruct (uenergy_member s m (Hm m Hin)) as (e & E & _). eauto.
Qed.
(** Padding of the amplitudes does not matter *)
Theorem C35_padding : forall (pa pb : proj K) noa nob nva nvb (gaa gab gbb : ten) (aa ab ba bb : arr (K := K)),
  let fits (n1 n2 n3 n4 : nat) (c : arr (K := K)) := let '(a, b, c', d) := sh c in (n1 <= a /\ n2 <= b /\ n3 <= c' /\ n4 <= d)%nat in
  fits (prow pa) noa nva nva aa -> fits (prow pa) nob nva nvb ab -> fits (prow pb) noa nvb nva ba -> fits (prow pb) nob nvb nvb bb ->
  u_doubles half pa pb noa nob nva nvb gaa gab gbb false aa ab ba bb
  = u_doubles half pa pb noa nob nva nvb gaa gab gbb false {| sh := (prow pa, noa, nva, nva); el := el aa |} {| sh := (prow pa, nob, nva, nvb); el := el ab |}
      {| sh := (prow pb, noa, nvb, nva); el := el ba |} {| sh := (prow pb, nob, nvb, nvb); el := el bb |}.
Proof.
  intros pa pb noa nob nva nvb gaa gab gbb aa ab ba bb fits F1 F2 F3 F4. unfold u_doubles, cut. unfold fits in *.
  destruct aa as [[[[a1 a2] a3] a4] ea], ab as [[[[b1 b2] b3] b4] eb], ba as [[[[c1 c2] c3] c4] ec], bb as [[[[d1 d2] d3] d4] ed]. cbn [sh el] in *.
  rewrite ?Nat.min_id. repeat match goal with |- context [Nat.min ?n ?m] => rewrite (Nat.min_l n m) by lia end. reflexivity.
Qed.
End Proofs.

(** ** Cases *)
Section Cases.
Definition q (n : Z) (d : positive) : QK := Q2Qc (n # d).
Ltac qc := apply Qc_is_canon; vm_compute; reflexivity.
(** Two equivalent occupied orbitals and two equivalent virtual ones; the symmetry operation exchanges both pairs. *)
Definition ex_f (i a : nat) : QK := if i =? a then q 1 3 else q 2 5.
Definition ex_g (i a j b : nat) : QK := if (i =? a) then if j =? b then q 1 2 else q 1 7 else if j =? b then q 2 7 else q 1 9.
Definition ex_c1 (i a : nat) : QK := if i =? a then q 1 11 else q (-1) 13.
Definition ex_c2 (i j a b : nat) : QK := if (i =? a) then if j =? b then q 1 5 else q 1 6 else if j =? b then q 1 8 else q 1 10.
Definition ex_sys : sys QK := {| NO := 2; NV := 2; F_ := ex_f; G := ex_g; C1 := ex_c1; C2 := ex_c2 |}.
Definition Id (I i : nat) : QK := if I =? i then q 1 1 else q 0 1.
Definition Flip (I i : nat) : QK := if I + i =? 1 then q 1 1 else q 0 1.
(** cluster orbitals: rotated by (3/5, 4/5) *)
Definition rot (p x : nat) : QK := if p =? x then q 3 5 else if p <? x then q 4 5 else q (-4) 5.
Lemma span_rot : span 2 2 rot.
Proof. intros [|[|p]] [|[|p']] Hp Hq; try lia; qc. Qed.
Lemma sym_id : symmetry QK ex_sys (Id, Id).
Proof.
  split; [|split; [|split; [|split; [|split]]]]; try (intros [|[|p]] [|[|p']] Hp Hq; cbn in Hp, Hq; try lia; qc);
  intros [|[|i]] [|[|j]] [|[|a]] [|[|b]] Hi Hj Ha Hb; cbn in Hi, Hj, Ha, Hb; try lia; qc.
Qed.
Lemma sym_flip : symmetry QK ex_sys (Flip, Flip).
Proof.
  split; [|split; [|split; [|split; [|split]]]]; try (intros [|[|p]] [|[|p']] Hp Hq; cbn in Hp, Hq; try lia; qc);
  intros [|[|i]] [|[|j]] [|[|a]] [|[|b]] Hi Hj Ha Hb; cbn in Hi, Hj, Ha, Hb; try lia; qc.
Qed.
(** One fragment with the first occupied orbital, and its symmetry child with the second *)
Definition ex_fo (I k : nat) : QK := Id I k.
Definition ex_pr : proj QK := {| prow := 1; pcol := 2; pmat := fun k i => rot1 2 rot (fun I => ex_fo I k) i |}.
Definition ex_frag : efrag (K := QK) := {| fr := ex_pr; pr := ex_pr; eno := 2; env := 2; efov := rot2 2 2 rot rot ex_f; eg := fun i a b j => rot4 2 2 2 2 rot rot rot rot ex_g i a j b;
  ca1 := rot2 2 2 rot rot ex_c1; ca2 := rot4 2 2 2 2 rot rot rot rot ex_c2; symf := q 1 1; nchildren := 1; stored := None |}.
Definition ex_member : member QK := {| frag := ex_frag; fo := ex_fo; co := rot; cv := rot; ops := [(Id, Id); (Flip, Flip)] |}.
Example ex_exact : exact_member QK ex_sys ex_member.
Proof.
  split; [apply span_rot|]. split; [apply span_rot|]. split; [reflexivity|]. split; [reflexivity|]. split; [intros; split; reflexivity|]. split; [intros; split; reflexivity|].
  split; [reflexivity|]. split; [reflexivity|]. split; [now left|]. split; [reflexivity|]. intros U [<- | [<- | []]]; [apply sym_id | apply sym_flip].
Qed.
Example ex_add_up : projectors_add_up QK ex_sys [ex_member].
Proof. intros [|[|p]] [|[|p']] Hp Hq; cbn in Hp, Hq; try lia; qc. Qed.
Example ex_energy : wf_corr_energy (q 1 2) [ex_frag] = Some (E_rhf 2 2 ex_f ex_g ex_c1 ex_c2 * q 1 2)%K.
Proof. exact (C35_restricted QK ex_sys [ex_member] (q 1 2) (fun m H => match H with or_introl e => eq_ind ex_member (exact_member QK ex_sys) ex_exact m e | or_intror f => match f with end end) ex_add_up). Qed.
Example ex_energy_nonzero : E_rhf 2 2 ex_f ex_g ex_c1 ex_c2 <> q 0 1.
Proof. intros E. apply (f_equal this) in E. vm_compute in E. discriminate. Qed.
(** Unrestricted: two alpha electrons, one beta electron; fragments with different orbitals of both spins *)
Definition ex_usys : usys QK := {| NOa := 2; NOb := 1; NVa := 1; NVb := 2; Fa := fun i a => q (Z.of_nat (1 + i + a)) 3; Fb := fun i a => q (Z.of_nat (2 + i + a)) 5;
  Gaa := fun i a j b => q (Z.of_nat (1 + i * a + j)) 7; Gab := fun i a j b => q (Z.of_nat (1 + i + 2 * a + j * b)) 4; Gbb := fun i a j b => q (Z.of_nat (1 + i + a * b)) 3;
  Ca := fun i a => q (Z.of_nat (1 + i)) 9; Cb := fun i a => q (Z.of_nat (1 + 2 * a)) 8; Caa := fun i j a b => q (Z.of_nat (1 + i + 2 * j)) 6; Cab := fun i j a b => q (Z.of_nat (2 + i + b)) 5; Cbb := fun i j a b => q (Z.of_nat (a + 3 * b)) 4 |}.
Definition id_op : uop QK := {| oa := Id; ob := Id; va := Id; vb := Id |}.
Definition ex_pa (f : nat) : proj QK := {| prow := 1; pcol := 2; pmat := fun k i => rot1 2 Id (fun I => Id I (f + k)) i |}.
Definition ex_pb (f : nat) : proj QK := {| prow := f; pcol := 1; pmat := fun k i => rot1 1 Id (fun I => Id I k) i |}.
Definition ex_ufrag (f : nat) : uefrag (K := QK) := let s := in_basis QK ex_usys 2 1 1 2 id_op in
  {| ufra := ex_pa f; ufrb := ex_pb f; upra := ex_pa f; uprb := ex_pb f; unoa := 2; unob := 1; unva := 1; unvb := 2;
     ufova := Fa QK s; ufovb := Fb QK s; ugaa := Gaa QK s; ugab := Gab QK s; ugbb := Gbb QK s; uca := Ca QK s; ucb := Cb QK s; ucaa := Caa QK s; ucab := Cab QK s; ucbb := Cbb QK s;
     usymf := q 1 1; unchildren := 0; ustored := None |}.
Definition ex_umember (f : nat) : umember QK := {| ufrag := ex_ufrag f; foa := fun I k => Id I (f + k); fob := Id; cl := id_op; uops := [id_op] |}.
Lemma ex_uspan : uspan QK ex_usys 2 1 1 2 id_op.
Proof. split; [|split; [|split]]; intros [|[|p]] [|[|p']] Hp Hq; cbn in Hp, Hq; try lia; qc. Qed.
Example ex_uexact f : uexact_member QK (q 1 2) ex_usys (ex_umember f).
Proof.
  split; [apply ex_uspan|]. split; [reflexivity|]. split; [reflexivity|]. split; [reflexivity|]. split; [reflexivity|]. split; [intros; split; reflexivity|]. split; [intros; split; reflexivity|].
  split; [repeat split; reflexivity|]. split; [now left|]. split; [reflexivity|]. intros u [<- | []]. split; [apply ex_uspan|].
  split; [reflexivity|]. split; [reflexivity|]. split; [reflexivity|]. split; [reflexivity|].
  do 4 (split; [intros [|[|p]] [|[|p']] Hp Hq; cbn in Hp, Hq; try lia; qc|]).
  do 5 (split; [intros [|[|i]] [|[|j]] [|[|a]] [|[|b]] Hi Hj Ha Hb; cbn in Hi, Hj, Ha, Hb; try lia; qc|]).
  intros [|[|i]] [|[|j]] [|[|a]] [|[|b]] Hi Hj Ha Hb; cbn in Hi, Hj, Ha, Hb; try lia; qc.
Qed.
Example ex_uadd_up : uprojectors_add_up QK ex_usys [ex_umember 0; ex_umember 1].
Proof. split; intros [|[|p]] [|[|p']] Hp Hq; cbn in Hp, Hq; try lia; qc. Qed.

(** Findings. Amplitudes in the cluster space together with singles cannot be used in the unrestricted function. *)
Theorem C35_unrestricted_cluster_axis_refuted : forall noa nob nva nvb fova fovb gaa gab gbb symf c1 caa cab cbb,
  ufrag_energy (q 1 2) noa nob nva nvb fova fovb gaa gab gbb symf (Some c1) (Cluster caa cab cbb) = None.
Proof. reflexivity. Qed.
(** The option c2ba_order="ab" cuts the array before transposing it: with one fragment orbital and two occupied alpha orbitals it fails although
    the array has the size it should. *)
Theorem C35_order_ab_refuted : exists (pa pb : proj QK) noa nob nva nvb gaa gab gbb aa ab (ba : arr (K := QK)) bb,
  u_doubles (q 1 2) pa pb noa nob nva nvb gaa gab gbb false aa ab ba bb <> None /\ u_doubles (q 1 2) pa pb noa nob nva nvb gaa gab gbb true aa ab (swap ba) bb = None.
Proof.
  exists (ex_pa 0), (ex_pb 1), 2%nat, 1%nat, 1%nat, 1%nat, (fun _ _ _ _ => q 1 1), (fun _ _ _ _ => q 1 1), (fun _ _ _ _ => q 1 1).
  exists {| sh := (1, 2, 1, 1)%nat; el := fun _ _ _ _ => q 1 1 |}, {| sh := (1, 1, 1, 1)%nat; el := fun _ _ _ _ => q 1 1 |}, {| sh := (1, 2, 1, 1)%nat; el := fun _ _ _ _ => q 1 1 |}, {| sh := (1, 1, 1, 1)%nat; el := fun _ _ _ _ => q 1 1 |}.
  split; [discriminate|reflexivity].
Qed.
(** Projector and fragment orbitals are kept separately: once the fragment orbitals have been extended (absorbing another fragment does not
    update the projector), the energy cannot be evaluated. *)
Theorem C35_absorbed_refuted : forall x : efrag (K := QK), stored x = None -> prow (fr x) <> prow (pr x) -> forall ncinv l, wf_corr_energy ncinv (x :: l) = None.
Proof.
  intros x Hs Hr ncinv l. unfold wf_corr_energy, energy_of. cbn [fold_left]. rewrite Hs. unfold frag_energy.
  replace (prow (pr x) =? prow (fr x))%nat with false by (symmetry; apply Nat.eqb_neq; auto). cbn [option_map].
  assert (N : forall l, fold_left (fun acc (x : efrag (K := QK)) => match acc, match stored x with Some e => Some e | None => option_map snd (if (prow (pr x) =? prow (fr x))%nat
     then Some ((symf x * e_singles (Some (pr x)) (eno x) (env x) (efov x) (Some (pc1 (ca1 x) (fr x))))%K, (symf x * e_doubles (Some (pr x)) (eno x) (env x) (eg x) (pc2 (ca2 x) (fr x)))%K,
       (symf x * e_singles (Some (pr x)) (eno x) (env x) (efov x) (Some (pc1 (ca1 x) (fr x))) + symf x * e_doubles (Some (pr x)) (eno x) (env x) (eg x) (pc2 (ca2 x) (fr x)))%K) else None) end
     with Some e, Some ex => Some (e + symmetry_factor x * ex)%K | _, _ => None end) l None = None) by (induction l0; auto).
  now rewrite N.
Qed.
End Cases.

Print Assumptions C35_restricted.
Print Assumptions C35_axis_restricted.
Print Assumptions C35_axis_unrestricted.
Print Assumptions C35_unrestricted.
Print Assumptions C35_padding.
Print Assumptions C35_unrestricted_cluster_axis_refuted.
Print Assumptions C35_order_ab_refuted.
Print Assumptions C35_absorbed_refuted.
