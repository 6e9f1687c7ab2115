(** C21: folding k-point quantities to the supercell and back. *)
From Coq Require Import Reals ZArith List Bool Arith Lia Lra Ring Permutation.
From Verif Require Import Alg M_Fold.
Import ListNotations.
Close Scope Z_scope. Close Scope R_scope. Open Scope nat_scope.

(** ** Sums over products of ranges *)
Section Gen.
Context {K : cring}.
Add Ring Kr : (rth K).
Open Scope K_scope.

Lemma Sum_prod n m (f : nat -> K) : Sum (n * m) f = Sum n (fun i => Sum m (fun j => f (i * m + j)%nat)).
Proof.
  induction n as [|n IH]; [reflexivity|]. replace (S n * m)%nat with (n * m + m)%nat by lia. rewrite Sum_split, IH. reflexivity.
Qed.

Variable conj : K -> K.
Hypothesis conj_add : forall x y, conj (x + y) = conj x + conj y.
Hypothesis conj_mul : forall x y, conj (x * y) = conj x * conj y.
Hypothesis conj_inv : forall x, conj (conj x) = x.
Hypothesis conj_0 : conj 0 = 0.
Lemma conj_Sum n f : conj (Sum n f) = Sum n (fun i => conj (f i)).
Proof. induction n as [|n IH]; simpl; auto. rewrite conj_add, IH. reflexivity. Qed.

(** Rows of the phase matrix are orthonormal; columns are orthonormal *)
Definition rows (nk nr : nat) (ph : nat -> nat -> K) : Prop :=
  forall k l, (k < nk)%nat -> (l < nk)%nat -> Sum nr (fun R => conj (ph k R) * ph l R) = delta k l.
Definition cols (nk nr : nat) (ph : nat -> nat -> K) : Prop :=
  forall R S, (R < nr)%nat -> (S < nr)%nat -> Sum nk (fun k => ph k R * conj (ph k S)) = delta R S.

Variables (nk nr : nat) (ph : nat -> nat -> K).
Hypothesis Hrows : rows nk nr ph.

Lemma fold_unfold (ak : nat -> nat -> nat -> K) k i j : (k < nk)%nat ->
  bvk2k conj nr ph (k2bvk conj nk ph ak) k i j = ak k i j.
Proof.
  intros Hk. unfold bvk2k, k2bvk.
  rewrite (Sum_ext nr _ (fun R => Sum nk (fun l => conj (ph k R) * ph l R * ak l i j * Sum nr (fun S => conj (ph l S) * ph k S)))).
  2:{ intros R HR. rewrite (Sum_ext nr _ (fun S => Sum nk (fun l => conj (ph k R) * ph l R * ak l i j * (conj (ph l S) * ph k S)))).
      - rewrite Sum_swap. apply Sum_ext; intros l Hl. rewrite Sum_mul_l. reflexivity.
      - intros S HS. rewrite <- Sum_mul_l, <- Sum_mul_r. apply Sum_ext; intros l Hl. ring. }
  rewrite Sum_swap. rewrite (Sum_ext nk _ (fun l => delta k l * (ak l i j * delta l k))).
  2:{ intros l Hl. rewrite (Hrows l k Hl Hk), <- (Hrows k l Hk Hl), <- Sum_mul_r. apply Sum_ext; intros R HR. ring. }
  rewrite Sum_delta_l by auto. rewrite delta_eq. ring.
Qed.

(** Folding is multiplicative, respects the Hermitian conjugate, and preserves traces. *)
Definition kprod (nao : nat) (a b : nat -> nat -> nat -> K) : nat -> nat -> nat -> K := fun k i j => Sum nao (fun l => a k i l * b k l j).
Definition rprod (nao : nat) (a b : nat -> nat -> nat -> nat -> K) : nat -> nat -> nat -> nat -> K := fun R i S j =>
  Sum nr (fun T => Sum nao (fun l => a R i T l * b T l S j)).
Lemma fold_prod nao a b R i S j : rprod nao (k2bvk conj nk ph a) (k2bvk conj nk ph b) R i S j = k2bvk conj nk ph (kprod nao a b) R i S j.
Proof.
  unfold rprod, k2bvk, kprod.
  rewrite (Sum_ext nr _ (fun T => Sum nk (fun k => Sum nk (fun m => (conj (ph k T) * ph m T) * Sum nao (fun l => ph k R * a k i l * b m l j * conj (ph m S)))))).
  2:{ intros T HT. rewrite (Sum_ext nao _ (fun l => Sum nk (fun k => Sum nk (fun m => ph k R * a k i l * conj (ph k T) * (ph m T * b m l j * conj (ph m S)))))).
      2:{ intros l Hl. apply Sum_mul_Sum. }
      rewrite Sum_swap. apply Sum_ext; intros k Hk. rewrite Sum_swap. apply Sum_ext; intros m Hm. rewrite <- Sum_mul_l. apply Sum_ext; intros l Hl. ring. }
  rewrite Sum_swap. apply Sum_ext; intros k Hk. rewrite Sum_swap.
  rewrite (Sum_ext nk _ (fun m => delta k m * Sum nao (fun l => ph k R * a k i l * b m l j * conj (ph m S)))).
  2:{ intros m Hm. rewrite <- (Hrows k m Hk Hm), Sum_mul_r. reflexivity. }
  rewrite Sum_delta_l by auto. rewrite <- Sum_mul_l, <- Sum_mul_r. apply Sum_ext; intros l Hl. ring.
Qed.
Lemma fold_trace nao a : Sum nr (fun R => Sum nao (fun i => k2bvk conj nk ph a R i R i)) = Sum nk (fun k => Sum nao (fun i => a k i i)).
Proof.
  unfold k2bvk. rewrite (Sum_ext nr _ (fun R => Sum nk (fun k => conj (ph k R) * ph k R * Sum nao (fun i => a k i i)))).
  2:{ intros R HR. rewrite Sum_swap. apply Sum_ext; intros k Hk. rewrite <- Sum_mul_l. apply Sum_ext; intros i Hi. ring. }
  rewrite Sum_swap. apply Sum_ext; intros k Hk. rewrite Sum_mul_r, (Hrows k k Hk Hk), delta_eq. ring.
Qed.
Lemma fold_herm a R i S j : (forall k i j, (k < nk)%nat -> a k j i = conj (a k i j)) ->
  k2bvk conj nk ph a S j R i = conj (k2bvk conj nk ph a R i S j).
Proof.
  intros H. unfold k2bvk. rewrite conj_Sum. apply Sum_ext; intros k Hk. rewrite !conj_mul, conj_inv, (H k i j Hk). ring.
Qed.

(** Folded orbitals: orthonormality and the eigenvalue equation *)
Lemma fold_ortho nao (sk ck : nat -> nat -> nat -> K) order n m k l i j :
  nth_error order n = Some (k, i) -> nth_error order m = Some (l, j) -> (k < nk)%nat -> (l < nk)%nat ->
  Sum nr (fun R => Sum nao (fun a => Sum nr (fun S => Sum nao (fun b =>
    conj (fold_coeff ph ck order R a n) * k2bvk conj nk ph sk R a S b * fold_coeff ph ck order S b m)))) =
  delta k l * Sum nao (fun a => Sum nao (fun b => conj (ck k a i) * sk k a b * ck l b j)).
Proof.
  intros E1 E2 Hk Hl. unfold fold_coeff. rewrite E1, E2. unfold k2bvk.
  transitivity (Sum nk (fun p => Sum nr (fun R => conj (ph k R) * ph p R) * Sum nr (fun S => conj (ph p S) * ph l S)
    * Sum nao (fun a => Sum nao (fun b => conj (ck k a i) * sk p a b * ck l b j)))).
  2:{ rewrite (Sum_ext nk _ (fun p => delta k p * (delta p l * Sum nao (fun a => Sum nao (fun b => conj (ck k a i) * sk p a b * ck l b j))))).
      - rewrite Sum_delta_l by auto. reflexivity.
      - intros p Hp. rewrite (Hrows k p Hk Hp), (Hrows p l Hp Hl). ring. }
  rewrite (Sum_ext nr _ (fun R => Sum nk (fun p => conj (ph k R) * ph p R * Sum nr (fun S => conj (ph p S) * ph l S)
    * Sum nao (fun a => Sum nao (fun b => conj (ck k a i) * sk p a b * ck l b j))))).
  { rewrite Sum_swap. apply Sum_ext; intros p Hp. rewrite !Sum_mul_r. reflexivity. }
  intros R HR.
  rewrite (Sum_ext nao _ (fun a => Sum nk (fun p => conj (ph k R) * ph p R * Sum nr (fun S => conj (ph p S) * ph l S)
    * Sum nao (fun b => conj (ck k a i) * sk p a b * ck l b j)))).
  { rewrite Sum_swap. apply Sum_ext; intros p Hp. rewrite Sum_mul_l. reflexivity. }
  intros a Ha.
  rewrite (Sum_ext nr _ (fun S => Sum nk (fun p => conj (ph k R) * ph p R * (conj (ph p S) * ph l S)
    * Sum nao (fun b => conj (ck k a i) * sk p a b * ck l b j)))).
  { rewrite Sum_swap. apply Sum_ext; intros p Hp. rewrite Sum_mul_r, Sum_mul_l. reflexivity. }
  intros S HS.
  rewrite (Sum_ext nao _ (fun b => Sum nk (fun p => conj (ph k R) * ph p R * (conj (ph p S) * ph l S) * (conj (ck k a i) * sk p a b * ck l b j)))).
  { rewrite Sum_swap. apply Sum_ext; intros p Hp. rewrite Sum_mul_l. reflexivity. }
  intros b Hb. rewrite <- Sum_mul_l, <- Sum_mul_r. apply Sum_ext; intros p Hp. rewrite conj_mul. ring.
Qed.

Lemma fold_apply nao (fk ck : nat -> nat -> nat -> K) order n k i R a :
  nth_error order n = Some (k, i) -> (k < nk)%nat ->
  Sum nr (fun S => Sum nao (fun b => k2bvk conj nk ph fk R a S b * fold_coeff ph ck order S b n)) =
  ph k R * Sum nao (fun b => fk k a b * ck k b i).
Proof.
  intros E Hk. unfold fold_coeff. rewrite E. unfold k2bvk.
  transitivity (Sum nk (fun p => Sum nr (fun S => conj (ph p S) * ph k S) * (ph p R * Sum nao (fun b => fk p a b * ck k b i)))).
  2:{ rewrite (Sum_ext nk _ (fun p => delta p k * (ph p R * Sum nao (fun b => fk p a b * ck k b i)))).
      - rewrite Sum_delta_l' by auto. reflexivity.
      - intros p Hp. rewrite (Hrows p k Hp Hk). reflexivity. }
  rewrite (Sum_ext nr _ (fun S => Sum nk (fun p => conj (ph p S) * ph k S * (ph p R * Sum nao (fun b => fk p a b * ck k b i))))).
  { rewrite Sum_swap. apply Sum_ext; intros p Hp. rewrite Sum_mul_r. reflexivity. }
  intros S HS. rewrite (Sum_ext nao _ (fun b => Sum nk (fun p => conj (ph p S) * ph k S * ph p R * (fk p a b * ck k b i)))).
  { rewrite Sum_swap. apply Sum_ext; intros p Hp. rewrite Sum_mul_l. ring. }
  intros b Hb. rewrite <- Sum_mul_r. apply Sum_ext; intros p Hp. ring.
Qed.
End Gen.

(** ** Roots of unity *)
Section Roots.
Add Ring CKr : (rth CK).
Local Open Scope R_scope.

Lemma Cext (x y : CK) : fst x = fst y -> snd x = snd y -> x = y.
Proof. destruct x, y; simpl; intros -> ->; reflexivity. Qed.
Lemma Cconj_add (x y : CK) : Cconj (radd x y) = radd (Cconj x) (Cconj y).
Proof. apply Cext; simpl; ring. Qed.
Lemma Cconj_mul (x y : CK) : Cconj (rmul x y) = rmul (Cconj x) (Cconj y : CK).
Proof. apply Cext; simpl; ring. Qed.
Lemma Cconj_inv (x : CK) : Cconj (Cconj x) = x.
Proof. apply Cext; simpl; ring. Qed.
Lemma Cconj_0 : Cconj (r0 : CK) = r0.
Proof. apply Cext; simpl; ring. Qed.
Lemma Cdomain (x y : CK) : rmul x y = r0 -> x <> r0 -> y = r0.
Proof.
  intros E Hx. assert (E1 := f_equal fst E). assert (E2 := f_equal snd E). destruct x as [a b], y as [c d]. simpl in E1, E2.
  assert (Hn : a * a + b * b <> 0).
  { intros H. apply Hx. assert (a = 0) by nra. assert (b = 0) by nra. subst. reflexivity. }
  apply Cext; simpl.
  - apply (Rmult_eq_reg_l (a * a + b * b)); [|exact Hn]. replace ((a * a + b * b) * c) with (a * (a * c - b * d) + b * (a * d + b * c)) by ring. rewrite E1, E2. ring.
  - apply (Rmult_eq_reg_l (a * a + b * b)); [|exact Hn]. replace ((a * a + b * b) * d) with (a * (a * d + b * c) - b * (a * c - b * d)) by ring. rewrite E1, E2. ring.
Qed.

Lemma cis_add x y : cis (x + y) = rmul (cis x) (cis y).
Proof.
  unfold cis. apply Cext; simpl; rewrite Rmult_plus_distr_l; [apply cos_plus|].
  rewrite sin_plus. ring.
Qed.
Lemma cis_0 : cis 0 = r1.
Proof. unfold cis. rewrite Rmult_0_r, cos_0, sin_0. reflexivity. Qed.
Lemma cis_opp x : cis (- x) = Cconj (cis x).
Proof. unfold cis, Cconj. simpl. replace (2 * PI * - x) with (- (2 * PI * x)) by ring. rewrite cos_neg, sin_neg. reflexivity. Qed.
Lemma cis_nat n : cis (INR n) = r1.
Proof.
  unfold cis. replace (2 * PI * INR n) with (0 + 2 * INR n * PI) by ring. rewrite cos_period, sin_period, cos_0, sin_0. reflexivity.
Qed.
Lemma cis_Z z : cis (IZR z) = r1.
Proof.
  destruct (Z_le_gt_dec 0 z) as [H|H].
  - rewrite <- (Z2Nat.id z H), <- INR_IZR_INZ. apply cis_nat.
  - replace (IZR z) with (- IZR (- z)) by (rewrite opp_IZR; ring). rewrite cis_opp, <- (Z2Nat.id (- z)) by lia. rewrite <- INR_IZR_INZ, cis_nat.
    apply Cext; simpl; ring.
Qed.
Lemma cis_neq x : 0 < x < 1 -> cis x <> r1.
Proof.
  intros [H0 H1] E. apply (f_equal fst) in E. simpl in E. replace (2 * PI * x) with (2 * (PI * x)) in E by ring.
  rewrite cos_2a_sin in E. assert (Hs : 0 < sin (PI * x)).
  { apply sin_gt_0; [|]; assert (HP := PI_RGT_0); nra. }
  nra.
Qed.

Lemma geometric (x : R) n : rmul (rsub (cis x) r1) (Sum n (fun r => cis (x * INR r))) = rsub (cis (x * INR n)) r1.
Proof.
  induction n as [|n IH].
  - cbn [Sum]. rewrite Rmult_0_r, cis_0. ring.
  - cbn [Sum]. transitivity (radd (rmul (rsub (cis x) r1) (Sum n (fun r => cis (x * INR r)))) (rmul (rsub (cis x) r1) (cis (x * INR n)))); [ring|].
    rewrite IH, S_INR, Rmult_plus_distr_l, Rmult_1_r, cis_add. ring.
Qed.

Lemma nK_INR n : nK n = (Creal (INR n) : CK).
Proof. induction n as [|n IH]; [reflexivity|]. cbn [nK]. rewrite IH, S_INR. apply Cext; simpl; ring. Qed.

Lemma roots_lt m a b : (a < m)%nat -> (b < a)%nat -> Sum m (fun r => cis ((INR a - INR b) / INR m * INR r)) = r0.
Proof.
  intros Ha Hb. assert (Hm : 0 < INR m) by (apply lt_0_INR; lia).
  apply (Cdomain (rsub (cis ((INR a - INR b) / INR m)) r1)).
  - rewrite geometric. replace ((INR a - INR b) / INR m * INR m) with (INR (a - b)) by (rewrite minus_INR by lia; field; lra). rewrite cis_nat. ring.
  - intros E. apply (cis_neq ((INR a - INR b) / INR m)).
    + assert (INR b < INR a) by (apply lt_INR; auto). assert (INR a < INR m) by (apply lt_INR; auto). assert (0 <= INR b) by apply pos_INR.
      split; [apply Rdiv_lt_0_compat; lra|]. apply (Rmult_lt_reg_r (INR m)); [lra|]. unfold Rdiv. rewrite Rmult_assoc, Rinv_l by lra. lra.
    + transitivity (radd (rsub (cis ((INR a - INR b) / INR m)) r1) r1); [ring|]. rewrite E. ring.
Qed.
Lemma roots m a b : (a < m)%nat -> (b < m)%nat ->
  Sum m (fun r => cis ((INR a - INR b) / INR m * INR r)) = rmul (nK m) (delta a b).
Proof.
  intros Ha Hb. destruct (lt_eq_lt_dec a b) as [[H| ->]|H].
  - rewrite delta_neq by lia. rewrite <- (Cconj_inv (Sum m _)), (conj_Sum Cconj Cconj_add Cconj_0).
    rewrite (Sum_ext m _ (fun r => cis ((INR b - INR a) / INR m * INR r))).
    + rewrite roots_lt by auto. rewrite Cconj_0. ring.
    + intros r Hr. rewrite <- cis_opp. f_equal. unfold Rdiv. ring.
  - rewrite delta_eq. rewrite (Sum_ext m _ (fun _ => r1)); [rewrite Sum_const; reflexivity|].
    intros r Hr. replace ((INR b - INR b) / INR m * INR r) with 0 by (unfold Rdiv; ring). apply cis_0.
  - rewrite delta_neq by lia. rewrite roots_lt by auto. ring.
Qed.
End Roots.

(** ** Phases of a k-point mesh *)
Definition flat (m : mesh3) (r : mesh3) : nat := let '(_, m1, m2) := m in let '(r0, r1, r2) := r in (r0 * (m1 * m2) + (r1 * m2 + r2))%nat.
Definition inside (m r : mesh3) : Prop := let '(m0, m1, m2) := m in let '(r0, r1, r2) := r in (r0 < m0 /\ r1 < m1 /\ r2 < m2)%nat.

Lemma divmod_unique a b c : (c < b)%nat -> ((a * b + c) / b = a /\ (a * b + c) mod b = c)%nat.
Proof.
  intros H. split.
  - rewrite Nat.div_add_l by lia. rewrite Nat.div_small by auto. lia.
  - rewrite Nat.add_comm, Nat.mod_add by lia. apply Nat.mod_small; auto.
Qed.
Lemma point_flat m r : inside m r -> mesh_point m (flat m r) = r /\ (flat m r < mesh_size m)%nat.
Proof.
  destruct m as [[m0 m1] m2], r as [[r0 r1] r2]. intros (H0 & H1 & H2). unfold mesh_point, flat, mesh_size.
  assert (L : (r1 * m2 + r2 < m1 * m2)%nat) by nia.
  destruct (divmod_unique r0 (m1 * m2) (r1 * m2 + r2) L) as (-> & ->). destruct (divmod_unique r1 m2 r2 H2) as (-> & ->).
  split; [reflexivity|nia].
Qed.
Lemma flat_point m k : (k < mesh_size m)%nat -> inside m (mesh_point m k) /\ flat m (mesh_point m k) = k.
Proof.
  destruct m as [[m0 m1] m2]. unfold mesh_point, flat, mesh_size. intros H.
  assert (H12 : (m1 * m2 <> 0)%nat) by nia. assert (H2 : (m2 <> 0)%nat) by nia.
  assert (L := Nat.mod_upper_bound k (m1 * m2) H12). assert (L2 := Nat.mod_upper_bound (k mod (m1 * m2)) m2 H2).
  assert (E := Nat.div_mod k (m1 * m2) H12). assert (E2 := Nat.div_mod (k mod (m1 * m2)) m2 H2).
  unfold inside. split; [split; [|split]|].
  - apply Nat.div_lt_upper_bound; auto; nia.
  - apply Nat.div_lt_upper_bound; auto; nia.
  - exact L2.
  - nia.
Qed.

(** A mesh of k-points with any offset, each point given up to a reciprocal lattice vector *)
Definition is_mesh (m : mesh3) (off : kvec) (kpts : nat -> kvec) : Prop := forall k, (k < mesh_size m)%nat ->
  let '(m0, m1, m2) := m in let '(k0, k1, k2) := mesh_point m k in let '(s0, s1, s2) := off in
  exists z0 z1 z2 : Z, kpts k = (INR k0 / INR m0 + s0 + IZR z0, INR k1 / INR m1 + s1 + IZR z1, INR k2 / INR m2 + s2 + IZR z2)%R.

Section Mesh.
Add Ring CKr2 : (rth CK).
Variables (m : mesh3) (off : kvec) (kpts : nat -> kvec).
Hypothesis Hm : is_mesh m off kpts.
Hypothesis Hpos : (0 < mesh_size m)%nat.
Local Open Scope R_scope.

Lemma Sum_mesh (f : mesh3 -> CK) : Sum (mesh_size m) (fun r => f (mesh_point m r)) =
  let '(m0, m1, m2) := m in Sum m0 (fun a => Sum m1 (fun b => Sum m2 (fun c => f (a, b, c)))).
Proof.
  clear Hm. destruct m as [[m0 m1] m2]. unfold mesh_size. rewrite Sum_prod. apply Sum_ext; intros a Ha. rewrite Sum_prod.
  apply Sum_ext; intros b Hb. apply Sum_ext; intros c Hc.
  destruct (point_flat (m0, m1, m2) (a, b, c)) as (E & _); [simpl; lia|]. unfold flat in E. rewrite E. reflexivity.
Qed.

Lemma sqrt_size : / sqrt (INR (mesh_size m)) * / sqrt (INR (mesh_size m)) * INR (mesh_size m) = 1.
Proof.
  assert (H : 0 < INR (mesh_size m)) by (apply lt_0_INR; auto).
  assert (E := sqrt_sqrt (INR (mesh_size m)) (Rlt_le _ _ H)). assert (0 < sqrt (INR (mesh_size m))) by (apply sqrt_lt_R0; auto).
  rewrite <- E at 3. field. lra.
Qed.

(** The phase with the mesh coordinates only *)
Lemma phase_mesh k r : (k < mesh_size m)%nat ->
  cis (kdot (kpts k) (mesh_point m r)) =
  let '(m0, m1, m2) := m in let '(k0, k1, k2) := mesh_point m k in let '(r0, r1, r2) := mesh_point m r in let '(s0, s1, s2) := off in
  rmul (rmul (rmul (cis (INR k0 / INR m0 * INR r0)) (cis (s0 * INR r0))) (rmul (cis (INR k1 / INR m1 * INR r1)) (cis (s1 * INR r1))))
       (rmul (cis (INR k2 / INR m2 * INR r2)) (cis (s2 * INR r2))).
Proof.
  intros Hk. specialize (Hm k Hk). destruct m as [[m0 m1] m2]. destruct (mesh_point (m0, m1, m2) k) as [[k0 k1] k2].
  destruct (mesh_point (m0, m1, m2) r) as [[a b] c]. destruct off as [[s0 s1] s2]. destruct Hm as (z0 & z1 & z2 & ->). cbn [kdot].
  assert (P : forall (x s : R) z n, cis ((x + s + IZR z) * INR n) = rmul (cis (x * INR n)) (cis (s * INR n))).
  { intros x s z n. rewrite !Rmult_plus_distr_r, !cis_add. rewrite (INR_IZR_INZ n) at 3. rewrite <- mult_IZR, cis_Z. ring. }
  rewrite !cis_add, !P. reflexivity.
Qed.

Definition SK : CK := Creal (/ sqrt (INR (mesh_size m))).
Lemma SK_conj : Cconj SK = SK.
Proof. apply Cext; simpl; ring. Qed.
Lemma SK_sq : rmul (rmul SK SK) (nK (mesh_size m)) = r1.
Proof. rewrite nK_INR. apply Cext; simpl; [|ring]. rewrite <- sqrt_size. ring. Qed.

Lemma cis_conj_mul x y n : rmul (Cconj (cis (x * n))) (cis (y * n)) = cis ((y - x) * n).
Proof. rewrite <- cis_opp, <- cis_add. f_equal. ring. Qed.
Lemma cis_unit x : rmul (Cconj (cis x)) (cis x) = r1.
Proof. rewrite <- cis_opp, <- cis_add, Rplus_opp_l. apply cis_0. Qed.

Definition wave (k l x : mesh3) : CK := let '(m0, m1, m2) := m in let '(k0, k1, k2) := k in let '(l0, l1, l2) := l in let '(x0, x1, x2) := x in
  rmul (rmul (cis ((INR l0 - INR k0) / INR m0 * INR x0)) (cis ((INR l1 - INR k1) / INR m1 * INR x1))) (cis ((INR l2 - INR k2) / INR m2 * INR x2)).

Lemma flat_inj r s : inside m r -> inside m s -> flat m r = flat m s -> r = s.
Proof. intros Hr Hs E. destruct (point_flat m r Hr) as (<- & _). destruct (point_flat m s Hs) as (<- & _). rewrite E. reflexivity. Qed.

Lemma wave_sum k l : (k < mesh_size m)%nat -> (l < mesh_size m)%nat ->
  Sum (mesh_size m) (fun x => wave (mesh_point m k) (mesh_point m l) (mesh_point m x)) = rmul (nK (mesh_size m)) (delta k l).
Proof.
  intros Hk Hl. rewrite (Sum_mesh (wave (mesh_point m k) (mesh_point m l))). destruct (flat_point m k Hk) as (Ik & Fk). destruct (flat_point m l Hl) as (Il & Fl).
  unfold wave. assert (FI := flat_inj). clear Hm. destruct m as [[m0 m1] m2].
  destruct (mesh_point (m0, m1, m2) k) as [[k0 k1] k2]. destruct (mesh_point (m0, m1, m2) l) as [[l0 l1] l2].
  assert (FI' := FI (k0, k1, k2) (l0, l1, l2) Ik Il). unfold inside in Ik, Il. destruct Ik as (K0 & K1 & K2), Il as (L0 & L1 & L2).
  rewrite (Sum_ext m0 _ (fun a => rmul (cis ((INR l0 - INR k0) / INR m0 * INR a)) (rmul (rmul (nK m1) (delta l1 k1)) (rmul (nK m2) (delta l2 k2))))).
  - rewrite Sum_mul_r, (roots m0 l0 k0 L0 K0). unfold mesh_size. rewrite !nK_mul.
    assert (Dl : delta k l = rmul (delta l0 k0) (rmul (delta l1 k1) (delta l2 k2) : CK)).
    { subst k l. destruct (Nat.eq_dec (flat (m0, m1, m2) (k0, k1, k2)) (flat (m0, m1, m2) (l0, l1, l2))) as [E|E].
      - specialize (FI' E). assert (l0 = k0) by congruence. assert (l1 = k1) by congruence. assert (l2 = k2) by congruence. subst. rewrite !delta_eq. ring.
      - rewrite delta_neq by auto. unfold delta. destruct (Nat.eqb_spec l0 k0); [|ring]. destruct (Nat.eqb_spec l1 k1); [|ring].
        destruct (Nat.eqb_spec l2 k2); [|ring]. subst. congruence. }
    rewrite Dl. ring.
  - intros a Ha. rewrite (Sum_ext m1 _ (fun b => rmul (cis ((INR l0 - INR k0) / INR m0 * INR a)) (rmul (cis ((INR l1 - INR k1) / INR m1 * INR b)) (rmul (nK m2) (delta l2 k2))))).
    + rewrite Sum_mul_l, Sum_mul_r, (roots m1 l1 k1 L1 K1). reflexivity.
    + intros b Hb. rewrite Sum_mul_l, (roots m2 l2 k2 L2 K2). ring.
Qed.

Lemma phase_rows : rows Cconj (mesh_size m) (mesh_size m) (get_phase m kpts).
Proof.
  intros k l Hk Hl. unfold get_phase. fold SK.
  rewrite (Sum_ext _ _ (fun r => rmul (rmul SK SK) (wave (mesh_point m k) (mesh_point m l) (mesh_point m r)))).
  2:{ intros r Hr. rewrite Cconj_mul, SK_conj, (phase_mesh k r Hk), (phase_mesh l r Hl). unfold wave. generalize SK. intros sk.
      destruct m as [[m0 m1] m2]. destruct (mesh_point (m0, m1, m2) k) as [[k0 k1] k2]. destruct (mesh_point (m0, m1, m2) l) as [[l0 l1] l2].
      destruct (mesh_point (m0, m1, m2) r) as [[a b] c]. destruct off as [[s0 s1] s2]. rewrite !Cconj_mul.
      assert (D : forall x y n j, (y - x) / INR n * j = (y / INR n - x / INR n) * j) by (intros; unfold Rdiv; ring).
      rewrite !D, <- !cis_conj_mul.
      transitivity (rmul (rmul (rmul (rmul sk sk) (rmul (Cconj (cis (s0 * INR a))) (cis (s0 * INR a)))) (rmul (rmul (Cconj (cis (s1 * INR b))) (cis (s1 * INR b)))
         (rmul (Cconj (cis (s2 * INR c))) (cis (s2 * INR c))))) (rmul (rmul (rmul (Cconj (cis (INR k0 / INR m0 * INR a))) (cis (INR l0 / INR m0 * INR a)))
         (rmul (Cconj (cis (INR k1 / INR m1 * INR b))) (cis (INR l1 / INR m1 * INR b)))) (rmul (Cconj (cis (INR k2 / INR m2 * INR c))) (cis (INR l2 / INR m2 * INR c))))).
      - ring.
      - rewrite !cis_unit. ring. }
  rewrite Sum_mul_l, wave_sum by auto. transitivity (rmul (rmul (rmul SK SK) (nK (mesh_size m))) (delta k l)); [ring|]. rewrite SK_sq. ring.
Qed.

Definition twist (r s : mesh3) : CK := let '(s0, s1, s2) := off in let '(a0, a1, a2) := r in let '(b0, b1, b2) := s in
  rmul (rmul (rmul (cis (s0 * INR a0)) (Cconj (cis (s0 * INR b0)))) (rmul (cis (s1 * INR a1)) (Cconj (cis (s1 * INR b1))))) (rmul (cis (s2 * INR a2)) (Cconj (cis (s2 * INR b2)))).
Lemma twist_id r : twist r r = r1.
Proof.
  unfold twist. destruct off as [[s0 s1] s2], r as [[a b] c].
  transitivity (rmul (rmul (rmul (Cconj (cis (s0 * INR a))) (cis (s0 * INR a))) (rmul (Cconj (cis (s1 * INR b))) (cis (s1 * INR b)))) (rmul (Cconj (cis (s2 * INR c))) (cis (s2 * INR c)))); [ring|].
  rewrite !cis_unit. ring.
Qed.
Lemma phase_pair k r s : (k < mesh_size m)%nat ->
  rmul (get_phase m kpts k r) (Cconj (get_phase m kpts k s)) =
  rmul (rmul (rmul SK SK) (twist (mesh_point m r) (mesh_point m s))) (wave (mesh_point m s) (mesh_point m r) (mesh_point m k)).
Proof.
  intros Hk. unfold get_phase. fold SK. rewrite Cconj_mul, SK_conj, (phase_mesh k r Hk), (phase_mesh k s Hk). unfold wave, twist. generalize SK. intros sk.
  destruct m as [[m0 m1] m2]. destruct (mesh_point (m0, m1, m2) k) as [[k0 k1] k2]. destruct (mesh_point (m0, m1, m2) r) as [[a b] c].
  destruct (mesh_point (m0, m1, m2) s) as [[a' b'] c']. destruct off as [[s0 s1] s2]. rewrite !Cconj_mul.
  assert (D : forall x y n j : nat, cis ((INR y - INR x) / INR n * INR j) = rmul (Cconj (cis (INR j / INR n * INR x))) (cis (INR j / INR n * INR y))).
  { intros x y n j. rewrite <- cis_opp, <- cis_add. f_equal. unfold Rdiv. ring. }
  rewrite !D. ring.
Qed.
Lemma phase_cols : cols Cconj (mesh_size m) (mesh_size m) (get_phase m kpts).
Proof.
  intros r s Hr Hs. rewrite (Sum_ext _ _ (fun k => rmul (rmul (rmul SK SK) (twist (mesh_point m r) (mesh_point m s))) (wave (mesh_point m s) (mesh_point m r) (mesh_point m k))));
    [|intros; apply phase_pair; auto].
  rewrite Sum_mul_l, wave_sum by auto.
  transitivity (rmul (rmul (rmul (rmul SK SK) (nK (mesh_size m))) (twist (mesh_point m r) (mesh_point m s))) (delta s r)); [ring|]. rewrite SK_sq.
  rewrite delta_sym. unfold delta. destruct (Nat.eqb_spec r s); [subst; rewrite twist_id|]; ring.
Qed.
End Mesh.

(** ** C21 *)
Theorem C21_unitary : forall m off kpts, is_mesh m off kpts -> (0 < mesh_size m)%nat ->
  rows Cconj (mesh_size m) (mesh_size m) (get_phase m kpts) /\ cols Cconj (mesh_size m) (mesh_size m) (get_phase m kpts).
Proof. intros m off kpts Hm Hp. split; [eapply phase_rows|eapply phase_cols]; eauto. Qed.

Lemma unflatten_flatten {K : cring} nao (ag : nat -> nat -> nat -> nat -> K) R i S j : (i < nao)%nat -> (j < nao)%nat ->
  unflatten nao (flatten nao ag) R i S j = ag R i S j.
Proof.
  intros Hi Hj. unfold unflatten, flatten. destruct (divmod_unique R nao i Hi) as (-> & ->). destruct (divmod_unique S nao j Hj) as (-> & ->). reflexivity.
Qed.
Lemma bvk2k_ext {K : cring} conj nr ph (a b : nat -> nat -> nat -> nat -> K) k i j :
  (forall R S, (R < nr)%nat -> (S < nr)%nat -> a R i S j = b R i S j) -> bvk2k conj nr ph a k i j = bvk2k conj nr ph b k i j.
Proof. intros H. unfold bvk2k. apply Sum_ext; intros R HR. apply Sum_ext; intros S HS. rewrite H by auto. reflexivity. Qed.

(** Folding k-space matrices and unfolding the supercell matrix gives them back *)
Theorem C21_round_trip : forall m off kpts nao ak tol a, is_mesh m off kpts ->
  let N := mesh_size m in let ph := get_phase m kpts in
  k2bvk_2d N N nao ph ak false tol = Complex a ->
  forall k i j, (k < N)%nat -> (i < nao)%nat -> (j < nao)%nat -> bvk2k (K := CK) Cconj N ph (unflatten (K := CK) nao a) k i j = ak k i j.
Proof.
  intros m off kpts nao ak tol a Hm N ph E k i j Hk Hi Hj. cbn [k2bvk_2d] in E.
  assert (Ea : flatten nao (k2bvk (K := CK) Cconj N ph ak) = a) by (apply (f_equal (fun x => match x with Complex y => y | _ => a end)) in E; exact E). subst a.
  rewrite (bvk2k_ext _ _ _ _ (k2bvk (K := CK) Cconj N ph ak)) by (intros; apply unflatten_flatten; auto).
  apply (fold_unfold (K := CK)); auto. eapply phase_rows; eauto. unfold N in Hk. lia.
Qed.

(** Matrix products, traces and Hermitian conjugates of folded matrices are those of the k-space matrices. *)
Theorem C21_products : forall m off kpts nao (a b : nat -> nat -> nat -> CK), is_mesh m off kpts -> (0 < mesh_size m)%nat ->
  let N := mesh_size m in let f := k2bvk (K := CK) Cconj N (get_phase m kpts) in
  (forall R i S j, Sum N (fun T => Sum nao (fun l => rmul (f a R i T l) (f b T l S j))) = f (fun k i j => Sum nao (fun l => rmul (a k i l) (b k l j))) R i S j) /\
  Sum N (fun R => Sum nao (fun i => f a R i R i)) = Sum N (fun k => Sum nao (fun i => a k i i)) /\
  ((forall k i j, (k < N)%nat -> a k j i = Cconj (a k i j)) -> forall R i S j, f a S j R i = Cconj (f a R i S j)).
Proof.
  intros m off kpts nao a b Hm Hp N f. assert (HR := phase_rows m off kpts Hm Hp). split; [|split].
  - intros. apply (fold_prod (K := CK) Cconj N N (get_phase m kpts) HR nao a b).
  - apply (fold_trace (K := CK) Cconj N N (get_phase m kpts) HR).
  - intros H R i S j. apply (fold_herm (K := CK) Cconj Cconj_add Cconj_mul Cconj_inv Cconj_0); auto.
Qed.

(** Folded orbitals are orthonormal if the orbitals of every k-point are, and eigenvectors of the folded Fock matrix, with
    energies and occupations in the same order, whatever order sorting gives. *)
Theorem C21_orbitals : forall m off kpts nao (sk fk ck : nat -> nat -> nat -> CK) (ek : nat -> nat -> R) order, is_mesh m off kpts ->
  let N := mesh_size m in let ph := get_phase m kpts in let C := fold_coeff (K := CK) ph ck order in
  (forall k i, In (k, i) order -> (k < N)%nat) -> NoDup order ->
  (forall k i j, In (k, i) order -> In (k, j) order -> Sum nao (fun a => Sum nao (fun b => rmul (rmul (Cconj (ck k a i)) (sk k a b)) (ck k b j))) = delta i j) ->
  (forall k i a, In (k, i) order -> Sum nao (fun b => rmul (fk k a b) (ck k b i)) = rmul (Sum nao (fun b => rmul (sk k a b) (ck k b i))) (Creal (ek k i) : CK)) ->
  forall p q, (p < length order)%nat -> (q < length order)%nat ->
  Sum N (fun R => Sum nao (fun a => Sum N (fun S => Sum nao (fun b =>
    rmul (rmul (Cconj (C R a p)) (k2bvk (K := CK) Cconj N ph sk R a S b)) (C S b q))))) = delta p q /\
  forall R a, Sum N (fun S => Sum nao (fun b => rmul (k2bvk (K := CK) Cconj N ph fk R a S b) (C S b p))) =
    rmul (Sum N (fun S => Sum nao (fun b => rmul (k2bvk (K := CK) Cconj N ph sk R a S b) (C S b p)))) (Creal (nth p (fold_list ek order) 0%R) : CK).
Proof.
  intros m off kpts nao sk fk ck ek order Hm N ph C Hin Hnd Ho He p q Hp Hq.
  destruct (nth_error order p) as [[k i]|] eqn:Ep; [|apply nth_error_None in Ep; lia].
  destruct (nth_error order q) as [[l j]|] eqn:Eq; [|apply nth_error_None in Eq; lia].
  assert (Ik := nth_error_In _ _ Ep). assert (Il := nth_error_In _ _ Eq). assert (Hk := Hin _ _ Ik). assert (Hl := Hin _ _ Il).
  assert (HR := phase_rows m off kpts Hm ltac:(unfold N in Hk; lia)). fold N ph in HR. split.
  - unfold C. rewrite (fold_ortho (K := CK) Cconj Cconj_mul N N ph HR nao sk ck order p q k l i j Ep Eq Hk Hl).
    destruct (Nat.eq_dec k l) as [<-|Hne].
    + rewrite delta_eq, (Ho k i j Ik Il). transitivity (delta i j : CK); [apply (Rmul_1_l (rth CK))|].
      destruct (Nat.eq_dec p q) as [<-|Hpq].
      * rewrite Ep in Eq. assert (i = j) by congruence. subst. rewrite !delta_eq. reflexivity.
      * rewrite (delta_neq p q) by auto. apply delta_neq. intros <-. apply Hpq. apply (proj1 (NoDup_nth_error order) Hnd); [lia|congruence].
    + rewrite (delta_neq k l) by auto. destruct (Nat.eq_dec p q) as [<-|Hpq]; [congruence|]. rewrite (delta_neq p q) by auto.
      transitivity (r0 : CK); [|reflexivity]. generalize (Sum nao (fun a => Sum nao (fun b => rmul (rmul (Cconj (ck k a i)) (sk k a b)) (ck l b j)))). intros x.
      apply Cext; simpl; ring.
  - intros R a. unfold C. rewrite !(fold_apply (K := CK) Cconj N N ph HR nao _ ck order p k i R a Ep Hk), (He k i a Ik).
    replace (nth p (fold_list ek order) 0%R) with (ek k i).
    + generalize (Sum nao (fun b => rmul (sk k a b) (ck k b i))). intros x. apply Cext; simpl; ring.
    + unfold fold_list. symmetry. apply nth_error_nth. rewrite nth_error_map, Ep. reflexivity.
Qed.

(** *** Real supercell matrices *)
Lemma max_imag_spec nr nao ag : (forall R i S j, (R < nr)%nat -> (i < nao)%nat -> (S < nr)%nat -> (j < nao)%nat -> (Rabs (snd (ag R i S j : Cx)) <= max_imag nr nao ag)%R).
Proof.
  intros R i S j HR Hi HS Hj. unfold max_imag. set (l := flat_map _ _).
  assert (I : In (Rabs (snd (ag R i S j : Cx))) l).
  { unfold l. apply in_flat_map. exists R. split; [apply in_seq; lia|]. apply in_flat_map. exists i. split; [apply in_seq; lia|].
    apply in_flat_map. exists S. split; [apply in_seq; lia|]. apply in_map_iff. exists j. split; [reflexivity|apply in_seq; lia]. }
  clearbody l. induction l as [|x l IH]; [destruct I|]. simpl. destruct I as [->|I].
  - apply Rmax_l.
  - eapply Rle_trans; [apply IH; auto|apply Rmax_r].
Qed.
Lemma max_imag_0 nr nao ag : (forall R i S j, (R < nr)%nat -> (i < nao)%nat -> (S < nr)%nat -> (j < nao)%nat -> snd (ag R i S j : Cx) = 0%R) -> max_imag nr nao ag = 0%R.
Proof.
  intros H. unfold max_imag. set (l := flat_map _ _). assert (A : forall x, In x l -> x = 0%R).
  { intros x I. unfold l in I. apply in_flat_map in I. destruct I as (R & HR & I). apply in_flat_map in I. destruct I as (i & Hi & I).
    apply in_flat_map in I. destruct I as (S & HS & I). apply in_map_iff in I. destruct I as (j & <- & Hj).
    apply in_seq in HR, Hi, HS, Hj. rewrite H by lia. apply Rabs_R0. }
  clearbody l. induction l as [|x l IH]; [reflexivity|]. simpl. rewrite IH by (intros; apply A; right; auto). rewrite (A x) by (left; auto).
  apply Rmax_left. lra.
Qed.

Lemma NoDup_map_in {A B} (f : A -> B) l : NoDup l -> (forall x y, In x l -> In y l -> f x = f y -> x = y) -> NoDup (map f l).
Proof.
  induction 1 as [|x l Hx Hl IH]; intros Hf; simpl; constructor.
  - intros I. apply in_map_iff in I. destruct I as (y & E & Iy). apply Hf in E; simpl; auto. subst. contradiction.
  - apply IH. intros; apply Hf; simpl; auto.
Qed.
Lemma Sum_involution {K : cring} n (t : nat -> nat) (f : nat -> K) : (forall k, (k < n)%nat -> (t k < n)%nat /\ t (t k) = k) ->
  Sum n (fun k => f (t k)) = Sum n f.
Proof.
  intros H. rewrite <- !Lsum_seq, <- (Lsum_map (seq 0 n) t f). apply Lsum_Permutation. apply NoDup_Permutation.
  - apply NoDup_map_in; [apply seq_NoDup|]. intros x y Hx Hy E. apply in_seq in Hx, Hy.
    destruct (H x) as (_ & <-); [lia|]. destruct (H y) as (_ & <-); [lia|]. rewrite E. reflexivity.
  - apply seq_NoDup.
  - intros x. rewrite in_map_iff. split.
    + intros (y & <- & Hy). apply in_seq in Hy. apply in_seq. destruct (H y); lia.
    + intros Hx. apply in_seq in Hx. destruct (H x) as (A & B); [lia|]. exists (t x). split; auto. apply in_seq. lia.
Qed.

(** k-points come in pairs k, -k (up to reciprocal lattice vectors) *)
Definition time_reversal (n : nat) (kpts : nat -> kvec) (t : nat -> nat) : Prop := forall k, (k < n)%nat -> (t k < n)%nat /\ t (t k) = k /\
  let '(a, b, c) := kpts k in exists z0 z1 z2 : Z, kpts (t k) = (- a + IZR z0, - b + IZR z1, - c + IZR z2)%R.

Lemma phase_reversed n m kpts t k r : time_reversal n kpts t -> (k < n)%nat -> get_phase m kpts (t k) r = Cconj (get_phase m kpts k r).
Proof.
  intros Ht Hk. destruct (Ht k Hk) as (_ & _ & E). destruct (kpts k) as [[a b] c] eqn:Ek. destruct E as (z0 & z1 & z2 & E).
  unfold get_phase. rewrite E, Ek, Cconj_mul. f_equal; [|apply Cext; simpl; ring]. rewrite <- cis_opp.
  destruct (mesh_point m r) as [[r0 r1] r2]. cbn [kdot].
  assert (P : forall (x : R) z n, cis ((- x + IZR z) * INR n) = cis (- (x * INR n))).
  { intros x z l. rewrite Rmult_plus_distr_r, cis_add. rewrite (INR_IZR_INZ l) at 2. rewrite <- mult_IZR, cis_Z.
    transitivity (cis (- x * INR l)); [apply Cext; simpl; ring|f_equal; ring]. }
  rewrite !cis_add, !P, <- !cis_add. f_equal. ring.
Qed.

(** Time-reversal symmetric matrices on a time-reversal symmetric mesh are folded to exactly real matrices, so that no
    imaginary part is ever dropped or reported. *)
Theorem C21_real : forall m off kpts t nao ak tol, is_mesh m off kpts ->
  let N := mesh_size m in let ph := get_phase m kpts in
  time_reversal N kpts t -> (forall k i j, (k < N)%nat -> ak (t k) i j = Cconj (ak k i j)) -> (0 <= tol)%R ->
  exists a, k2bvk_2d N N nao ph ak true tol = Real a /\
  forall k i j, (k < N)%nat -> (i < nao)%nat -> (j < nao)%nat -> bvk2k (K := CK) Cconj N ph (unflatten (K := CK) nao (fun p q => Creal (a p q))) k i j = ak k i j.
Proof.
  intros m off kpts t nao ak tol Hm N ph Ht Ha Htol.
  assert (Rl : forall R i S j, Cconj (k2bvk (K := CK) Cconj N ph ak R i S j) = k2bvk (K := CK) Cconj N ph ak R i S j).
  { intros R i S j. unfold k2bvk. rewrite (conj_Sum Cconj Cconj_add Cconj_0).
    rewrite <- (Sum_involution N t (fun k => rmul (rmul (ph k R) (ak k i j)) (Cconj (ph k S)))).
    - apply Sum_ext; intros k Hk. unfold ph. rewrite !(phase_reversed N m kpts t k _ Ht Hk), (Ha k i j Hk), !Cconj_mul, !Cconj_inv. reflexivity.
    - intros k Hk. destruct (Ht k Hk) as (A & B & _). auto. }
  assert (Im : forall R i S j, snd (k2bvk (K := CK) Cconj N ph ak R i S j : Cx) = 0%R).
  { intros R i S j. specialize (Rl R i S j). apply (f_equal (fun z : CK => snd (z : Cx))) in Rl. simpl in Rl. lra. }
  unfold k2bvk_2d. destruct (Rlt_dec tol _) as [Hl|Hl].
  - rewrite max_imag_0 in Hl by (intros; apply Im). lra.
  - eexists; split; [reflexivity|]. intros k i j Hk Hi Hj.
    rewrite (bvk2k_ext _ _ _ _ (k2bvk (K := CK) Cconj N ph ak)).
    + apply (fold_unfold (K := CK)); auto. eapply phase_rows; eauto. unfold N in Hk. lia.
    + intros R S HR HS. unfold unflatten, flatten. destruct (divmod_unique R nao i Hi) as (-> & ->). destruct (divmod_unique S nao j Hj) as (-> & ->).
      apply Cext; simpl; [reflexivity|symmetry; apply Im].
Qed.

(** The error is raised exactly if some element has an imaginary part above the tolerance. *)
Theorem C21_imaginary : forall nk nr nao ph ak tol, (0 <= tol)%R ->
  k2bvk_2d nk nr nao ph ak true tol = ImaginaryPartError <->
  exists R i S j, (R < nr)%nat /\ (i < nao)%nat /\ (S < nr)%nat /\ (j < nao)%nat /\ (tol < Rabs (snd (k2bvk (K := CK) Cconj nk ph ak R i S j : Cx)))%R.
Proof.
  intros nk nr nao ph ak tol Htol. unfold k2bvk_2d. set (ag := k2bvk (K := CK) Cconj nk ph ak). destruct (Rlt_dec tol (max_imag nr nao ag)) as [H|H].
  - split; [intros _|reflexivity]. unfold max_imag in H. set (l := flat_map _ _) in H.
    assert (A : exists x, In x l /\ (tol < x)%R).
    { clearbody l. induction l as [|x l IH]; simpl in H; [lra|].
      destruct (Rlt_dec tol x) as [Hx|Hx]; [exists x; split; [left|]; auto|]. destruct IH as (y & Iy & Hy).
      - destruct (Rlt_dec tol (fold_right Rmax 0 l)%R); auto. exfalso. assert (Rmax x (fold_right Rmax 0%R l) <= tol)%R by (apply Rmax_lub; lra). lra.
      - exists y. split; [right|]; auto. }
    destruct A as (x & I & Hx). unfold l in I. apply in_flat_map in I. destruct I as (R & HR & I). apply in_flat_map in I. destruct I as (i & Hi & I).
    apply in_flat_map in I. destruct I as (S & HS & I). apply in_map_iff in I. destruct I as (j & <- & Hj). apply in_seq in HR, Hi, HS, Hj.
    exists R, i, S, j. repeat split; auto; lia.
  - split; [discriminate|]. intros (R & i & S & j & HR & Hi & HS & Hj & HH). exfalso. apply H. eapply Rlt_le_trans; [exact HH|]. apply max_imag_spec; auto.
Qed.

(** *** Unfolding first *)
Definition cell_diff (m : mesh3) (R S : nat) : nat :=
  let '(m0, m1, m2) := m in let '(a0, a1, a2) := mesh_point m R in let '(b0, b1, b2) := mesh_point m S in
  flat m ((a0 + (m0 - b0)) mod m0, (a1 + (m1 - b1)) mod m1, (a2 + (m2 - b2)) mod m2).
(** The matrix depends only on the difference of the cells, modulo the supercell *)
Definition invariant (m : mesh3) (ag : nat -> nat -> nat -> nat -> CK) : Prop :=
  exists g : nat -> nat -> nat -> CK, forall R i S j, (R < mesh_size m)%nat -> (S < mesh_size m)%nat -> ag R i S j = g (cell_diff m R S) i j.

Lemma k2bvk_ext {K : cring} conj nk ph (a b : nat -> nat -> nat -> K) R i S j : (forall k, (k < nk)%nat -> a k i j = b k i j) ->
  k2bvk conj nk ph a R i S j = k2bvk conj nk ph b R i S j.
Proof. intros H. unfold k2bvk. apply Sum_ext; intros k Hk. rewrite H by auto. reflexivity. Qed.

Lemma cell_diff_spec m R S : (R < mesh_size m)%nat -> (S < mesh_size m)%nat -> (cell_diff m R S < mesh_size m)%nat.
Proof.
  intros HR HS. unfold cell_diff. destruct (flat_point m R HR) as (I & _). destruct m as [[m0 m1] m2]. destruct (mesh_point _ R) as [[a0 a1] a2], (mesh_point _ S) as [[b0 b1] b2].
  apply point_flat. destruct I as (A & B & C). unfold inside. repeat split; apply Nat.mod_upper_bound; lia.
Qed.

Lemma cis_mod k n a b : (a < n)%nat -> (b < n)%nat ->
  cis (INR k / INR n * INR ((a + (n - b)) mod n)) = rmul (cis (INR k / INR n * INR a)) (Cconj (cis (INR k / INR n * INR b))).
Proof.
  intros Ha Hb. assert (Hn : (0 < INR n)%R) by (apply lt_0_INR; lia). rewrite <- cis_opp, <- cis_add.
  destruct (le_lt_dec b a) as [H|H].
  - replace ((a + (n - b)) mod n) with (a - b)%nat.
    + rewrite minus_INR by lia. f_equal. ring.
    + replace (a + (n - b))%nat with ((a - b) + 1 * n)%nat by lia. rewrite Nat.mod_add by lia. rewrite Nat.mod_small by lia. reflexivity.
  - rewrite Nat.mod_small by lia. rewrite plus_INR, minus_INR by lia.
    replace (INR k / INR n * (INR a + (INR n - INR b)))%R with ((INR k / INR n * INR a + - (INR k / INR n * INR b)) + INR k)%R by (field; lra).
    rewrite cis_add, cis_nat. apply Cext; simpl; ring.
Qed.

Section Unfold.
Add Ring CKr3 : (rth CK).
Variables (m : mesh3) (kpts : nat -> kvec).
Hypothesis Hm : is_mesh m (0%R, 0%R, 0%R) kpts.
Hypothesis Hp : (0 < mesh_size m)%nat.
Notation ph := (get_phase m kpts).
Notation N := (mesh_size m).

Lemma phase_diff k R S : (k < N)%nat -> (R < N)%nat -> (S < N)%nat ->
  rmul (ph k R) (Cconj (ph k S)) = rmul (SK m) (ph k (cell_diff m R S)).
Proof.
  intros Hk HR HS. assert (HD := cell_diff_spec m R S HR HS). unfold get_phase. fold (SK m). rewrite Cconj_mul, SK_conj.
  rewrite !(phase_mesh m _ kpts Hm Hp k) by auto. unfold cell_diff in *.
  destruct (flat_point m R HR) as (IR & _). destruct (flat_point m S HS) as (IS & _). generalize (SK m). intros sk.
  destruct m as [[m0 m1] m2]. destruct (mesh_point (m0, m1, m2) k) as [[k0 k1] k2].
  destruct (mesh_point (m0, m1, m2) R) as [[a0 a1] a2]. destruct (mesh_point (m0, m1, m2) S) as [[b0 b1] b2]. unfold inside in IR, IS.
  destruct (point_flat (m0, m1, m2) ((a0 + (m0 - b0)) mod m0, (a1 + (m1 - b1)) mod m1, (a2 + (m2 - b2)) mod m2)) as (-> & _).
  { simpl. repeat split; apply Nat.mod_upper_bound; lia. }
  assert (Z : forall n : nat, cis (0 * INR n) = r1) by (intros; rewrite Rmult_0_l; apply cis_0). rewrite !Z.
  rewrite !cis_mod by lia. rewrite !Cconj_mul. replace (Cconj r1) with (r1 : CK) by (apply Cext; simpl; ring). ring.
Qed.
Lemma unfold_fold ag : invariant m ag -> forall R i S j, (R < N)%nat -> (S < N)%nat ->
  k2bvk (K := CK) Cconj N ph (bvk2k (K := CK) Cconj N ph ag) R i S j = ag R i S j.
Proof.
  intros (g & Hg).
  (* the matrix is the folding of the Fourier transform of g *)
  pose (ak := fun k i j => Sum N (fun D => rmul (rmul (nK N) (SK m)) (rmul (Cconj (ph k D)) (g D i j)))).
  assert (F : forall R i S j, (R < N)%nat -> (S < N)%nat -> ag R i S j = k2bvk (K := CK) Cconj N ph ak R i S j).
  { intros R i S j HR HS. rewrite Hg by auto. unfold k2bvk, ak. assert (HD := cell_diff_spec m R S HR HS).
    rewrite (Sum_ext N _ (fun k => Sum N (fun D => rmul (rmul (ph k (cell_diff m R S)) (Cconj (ph k D))) (g D i j)))).
    - rewrite Sum_swap. rewrite (Sum_ext N _ (fun D => rmul (delta (cell_diff m R S) D) (g D i j))).
      + rewrite Sum_delta_l by auto. reflexivity.
      + intros D HDD. rewrite Sum_mul_r. rewrite (phase_cols m _ kpts Hm Hp _ D HD HDD). reflexivity.
    - intros k Hk. transitivity (rmul (rmul (ph k R) (Cconj (ph k S))) (Sum N (fun D => rmul (rmul (nK N) (SK m)) (rmul (Cconj (ph k D)) (g D i j))))); [ring|].
      rewrite (phase_diff k R S Hk HR HS), <- Sum_mul_l. apply Sum_ext; intros D HDD.
      transitivity (rmul (rmul (rmul (rmul (SK m) (SK m)) (nK N)) (ph k (cell_diff m R S))) (rmul (Cconj (ph k D)) (g D i j))); [ring|].
      rewrite (SK_sq m Hp). ring. }
  intros R i S j HR HS. rewrite F by auto. apply k2bvk_ext. intros k Hk.
  rewrite (bvk2k_ext _ _ _ _ (k2bvk (K := CK) Cconj N ph ak)) by (intros; apply F; auto).
  apply (fold_unfold (K := CK)); auto. eapply phase_rows; eauto.
Qed.
End Unfold.

(** Unfolding a supercell matrix and folding again gives the matrix back if it has the translational symmetry of the mesh. *)
Theorem C21_unfold_fold : forall m kpts ag, is_mesh m (0%R, 0%R, 0%R) kpts -> invariant m ag ->
  let N := mesh_size m in let ph := get_phase m kpts in
  forall R i S j, (R < N)%nat -> (S < N)%nat -> k2bvk (K := CK) Cconj N ph (bvk2k (K := CK) Cconj N ph ag) R i S j = ag R i S j.
Proof. intros m kpts ag Hm Hi N ph R i S j HR HS. apply unfold_fold; auto. unfold N in HR. lia. Qed.

(** *** The mesh guessed from k-points *)
Lemma nodup_length {A} (dec : forall x y : A, {x = y} + {x <> y}) l l' : NoDup l' -> (forall x, In x l <-> In x l') -> length (nodup dec l) = length l'.
Proof.
  intros H E. apply Nat.le_antisymm; apply NoDup_incl_length; auto using NoDup_nodup; intros x; rewrite nodup_In; apply E.
Qed.
Theorem C21_kmesh : forall xs ys zs : list Z, NoDup xs -> NoDup ys -> NoDup zs -> xs <> [] -> ys <> [] -> zs <> [] ->
  let kpts := flat_map (fun x => flat_map (fun y => map (fun z => (x, y, z)) zs) ys) xs in
  kpts_to_kmesh kpts = (length xs, length ys, length zs) /\ length kpts = mesh_size (kpts_to_kmesh kpts).
Proof.
  intros xs ys zs Hx Hy Hz Nx Ny Nz kpts.
  assert (I : forall k, In k kpts <-> In (fst (fst k)) xs /\ In (snd (fst k)) ys /\ In (snd k) zs).
  { intros [[x y] z]. unfold kpts. simpl. split.
    - intros H. apply in_flat_map in H. destruct H as (x' & Hx' & H). apply in_flat_map in H. destruct H as (y' & Hy' & H). apply in_map_iff in H.
      destruct H as (z' & E & Hz'). assert (x' = x) by congruence. assert (y' = y) by congruence. assert (z' = z) by congruence. subst. auto.
    - intros (A & B & C). apply in_flat_map. exists x. split; auto. apply in_flat_map. exists y. split; auto. apply in_map. auto. }
  destruct xs as [|x0 xs']; [congruence|]. destruct ys as [|y0 ys']; [congruence|]. destruct zs as [|z0 zs']; [congruence|].
  assert (E : kpts_to_kmesh kpts = (length (x0 :: xs'), length (y0 :: ys'), length (z0 :: zs'))).
  { unfold kpts_to_kmesh. f_equal; [f_equal|]; apply nodup_length; auto; intros v; rewrite in_map_iff.
    - split; [intros (k & <- & Hk); apply I in Hk; tauto|]. intros Hv. exists (v, y0, z0). split; auto. apply I. simpl. auto.
    - split; [intros (k & <- & Hk); apply I in Hk; tauto|]. intros Hv. exists (x0, v, z0). split; auto. apply I. simpl. auto.
    - split; [intros (k & <- & Hk); apply I in Hk; tauto|]. intros Hv. exists (x0, y0, v). split; auto. apply I. simpl. auto. }
  split; auto. rewrite E. unfold mesh_size, kpts. clear.
  generalize (x0 :: xs') (y0 :: ys') (z0 :: zs'). clear. intros xs ys zs. induction xs as [|x xs IH]; [reflexivity|]. simpl. rewrite app_length, IH. f_equal.
  clear. induction ys as [|y ys IH]; [reflexivity|]. simpl. rewrite app_length, IH, map_length. reflexivity.
Qed.
(** Moving one of the k-points by a reciprocal lattice vector, which describes the same mean field, gives a wrong mesh: here
    the 2 x 2 x 1 mesh with 1/2 replaced by -1/2 in one of the four points. *)
Theorem C21_kmesh_refuted : exists kpts kpts' : list (Z * Z * Z), length kpts = length kpts' /\
  (forall n, let '(a, b, c) := nth n kpts (0, 0, 0)%Z in let '(a', b', c') := nth n kpts' (0, 0, 0)%Z in
     ((a - a') mod 100000000 = 0 /\ (b - b') mod 100000000 = 0 /\ (c - c') mod 100000000 = 0)%Z) /\
  kpts_to_kmesh kpts = (2, 2, 1) /\ kpts_to_kmesh kpts' = (3, 2, 1).
Proof.
  exists [(0, 0, 0); (0, 50000000, 0); (50000000, 0, 0); (50000000, 50000000, 0)]%Z,
         [(0, 0, 0); (0, 50000000, 0); (50000000, 0, 0); (-50000000, 50000000, 0)]%Z.
  split; [reflexivity|]. split; [|split; reflexivity]. intros [|[|[|[|[|n]]]]]; repeat split; reflexivity.
Qed.

(** ** Cases *)
Definition std_kpts (m : mesh3) (off : kvec) (k : nat) : kvec :=
  let '(m0, m1, m2) := m in let '(k0, k1, k2) := mesh_point m k in let '(s0, s1, s2) := off in (INR k0 / INR m0 + s0, INR k1 / INR m1 + s1, INR k2 / INR m2 + s2)%R.
(** Every Gamma-centred or shifted mesh meets the hypothesis *)
Example C21_mesh_instance : forall m off, is_mesh m off (std_kpts m off).
Proof.
  intros [[m0 m1] m2] [[s0 s1] s2] k Hk. unfold std_kpts. destruct (mesh_point (m0, m1, m2) k) as [[k0 k1] k2]. exists 0%Z, 0%Z, 0%Z. f_equal; [f_equal|]; ring.
Qed.
Definition m3 : mesh3 := (3, 1, 1).
Definition t3 (k : nat) : nat := match k with 1 => 2 | 2 => 1 | _ => k end.
Definition a3 (k i j : nat) : CK := (INR (i + j + (k * (3 - k))), match k with 1 => INR i - INR j | 2 => INR j - INR i | _ => 0 end)%R.
Example C21_real_instance : time_reversal 3 (std_kpts m3 (0, 0, 0)%R) t3 /\ (forall k i j, k < 3 -> a3 (t3 k) i j = Cconj (a3 k i j)) /\
  (forall k i j, k < 3 -> a3 k j i = Cconj (a3 k i j)) /\ a3 1 0 1 <> a3 2 0 1.
Proof.
  split; [|split; [|split]].
  - intros [|[|[|k]]] Hk; try lia; (split; [simpl; lia|split; [reflexivity|]]); cbn [std_kpts m3 mesh_point t3]; cbn -[INR IZR].
    + exists 0%Z, 0%Z, 0%Z. f_equal; [f_equal|]; simpl; lra.
    + exists 1%Z, 0%Z, 0%Z. f_equal; [f_equal|]; simpl; lra.
    + exists 1%Z, 0%Z, 0%Z. f_equal; [f_equal|]; simpl; lra.
  - intros [|[|[|k]]] i j Hk; try lia; unfold a3; apply Cext; simpl; try ring; rewrite ?Nat.add_0_r; try reflexivity.
  - intros [|[|[|k]]] i j Hk; try lia; unfold a3; apply Cext; simpl; try ring; rewrite ?(Nat.add_comm j i); try reflexivity.
  - intros E. apply (f_equal snd) in E. simpl in E. lra.
Qed.
Definition one3 (k i j : nat) : CK := r1.
Example C21_orbitals_instance : let order := [(1, 0); (0, 0); (2, 0)] in
  (forall k i, In (k, i) order -> k < mesh_size m3) /\ NoDup order /\
  (forall k i j, In (k, i) order -> In (k, j) order -> Sum 1 (fun a => Sum 1 (fun b => rmul (rmul (Cconj (one3 k a i)) (one3 k a b)) (one3 k b j))) = delta i j) /\
  (forall k i a, In (k, i) order -> Sum 1 (fun b => rmul (Creal (INR (k * (3 - k))) : CK) (one3 k b i)) =
     rmul (Sum 1 (fun b => rmul (one3 k a b) (one3 k b i))) (Creal (INR (k * (3 - k))) : CK)).
Proof.
  cbv zeta. split; [|split; [|split]].
  - intros k i H. simpl in H. simpl. repeat (destruct H as [H|H]; [assert (k <= 2) by (assert (E := f_equal fst H); simpl in E; lia); lia|]). destruct H.
  - repeat constructor; simpl; intuition congruence.
  - intros k i j Hi Hj. assert (i = 0 /\ j = 0) by (simpl in Hi, Hj; intuition congruence). destruct H as (-> & ->). apply Cext; simpl; ring.
  - intros k i a _. apply Cext; cbn -[INR]; ring.
Qed.
Example C21_kmesh_instance : kpts_to_kmesh (flat_map (fun x => flat_map (fun y => map (fun z => (x, y, z)) [0]%Z) [0; 50000000]%Z) [0; 33333333; 66666667]%Z) = (3, 2, 1).
Proof. reflexivity. Qed.
(** A non-trivial invariant matrix: hopping between neighbouring cells of a ring of three *)
Example C21_invariant_instance : exists ag, invariant m3 ag /\ ag 0 0 1 0 <> ag 1 0 1 0.
Proof.
  exists (fun R i S j => Creal (INR (cell_diff m3 R S))). split.
  - exists (fun D _ _ => Creal (INR D)). reflexivity.
  - intros E. apply (f_equal fst) in E. vm_compute in E. lra.
Qed.

Print Assumptions C21_unitary.
Print Assumptions C21_round_trip.
Print Assumptions C21_products.
Print Assumptions C21_orbitals.
Print Assumptions C21_real.
Print Assumptions C21_imaginary.
Print Assumptions C21_unfold_fold.
Print Assumptions C21_kmesh.
Print Assumptions C21_kmesh_refuted.
