(** C26: MP2 amplitudes, energies and bath density matrices. *)
From Coq Require Import List ZArith QArith Qcanon Bool Arith Lia Field.
From Verif Require Import Alg Ord M_Blocks P_Blocks M_Mp2.
Import ListNotations.
Close Scope Q_scope. Close Scope Qc_scope. Close Scope Z_scope. Open Scope nat_scope.

(** ** Blocks as consecutive intervals *)
Fixpoint ntiles (a stop : nat) (bl : list (nat * nat)) : Prop :=
  match bl with
  | [] => stop = a
  | (i, j) :: rest => i = a /\ (i < j)%nat /\ (j <= stop)%nat /\ ntiles j stop rest
  end.
Lemma tiles_nat bl : forall a stop step, (0 <= a <= stop)%Z -> tiles a stop step bl ->
  ntiles (Z.to_nat a) (Z.to_nat stop) (map (fun s => (Z.to_nat (fst s), Z.to_nat (snd s))) bl).
Proof.
  induction bl as [|[i j] r IH]; intros a stop step Ha H; cbn in *.
  - lia.
  - destruct H as (-> & H1 & H2 & _ & _ & H3). split; [lia|]. split; [lia|]. split; [lia|].
    apply (IH j stop step); auto; lia.
Qed.
Lemma slices_tile n b : ntiles 0 n (slices n b).
Proof.
  unfold slices. destruct (C03_brange 0 (Z.of_nat n) b 1 None) as (bl & E & _ & Ht); [lia|congruence|].
  rewrite E. destruct n as [|n].
  - unfold brange in E. cbn in E. injection E as <-. reflexivity.
  - specialize (Ht ltac:(lia)). apply tiles_nat in Ht; [|lia]. rewrite Nat2Z.id in Ht. exact Ht.
Qed.
Lemma slices_one n b : (0 < n)%nat -> (Z.of_nat n <= b)%Z -> slices n b = [(0, n)].
Proof.
  intros Hn Hb. pose proof (slices_tile n b) as H. unfold slices in *.
  destruct (C03_brange 0 (Z.of_nat n) b 1 None) as (bl & E & _ & Ht); [lia|congruence|].
  specialize (Ht ltac:(lia)). rewrite E in *.
  destruct bl as [|[i j] r]; cbn in Ht; [lia|].
  destruct Ht as (-> & H1 & H2 & H3 & H4 & H5).
  assert (j = Z.of_nat n) by lia. subst j. destruct r as [|[i' j'] r]; [cbn; now rewrite Nat2Z.id|].
  cbn in H5. lia.
Qed.

Section Thms.
Context (F : cfield).
Add Field Ff : (fth F).
Open Scope K_scope.
Notation mat := (nat -> nat -> F).
Notation ten := (nat -> nat -> nat -> nat -> F).
Notation vec := (nat -> F).

Lemma mul_nz (x y : F) : x <> 0 -> y <> 0 -> x * y <> 0.
Proof. intros Hx Hy E. apply Hy. assert (E' : y = (x * y) / x) by (field; exact Hx). rewrite E', E. field. exact Hx. Qed.
Ltac nz H := repeat split; solve [exact H | exact (mul_nz _ _ H H)].

Lemma assign_tiles (x : ten) bl : forall s stop out i j a b, ntiles s stop bl ->
  fold_left (fun t2 blk => assign blk x t2) bl out i j a b
  = if (s <=? i)%nat && (i <? stop)%nat then x i j a b else out i j a b.
Proof.
  induction bl as [|[u v] r IH]; intros s stop out i j a b H; cbn [fold_left ntiles] in *.
  - subst. destruct (Nat.leb_spec s i), (Nat.ltb_spec i s); try lia; auto.
  - destruct H as (-> & H1 & H2 & H3). rewrite (IH v stop); auto. unfold assign. cbn [fst snd].
    destruct (Nat.leb_spec v i), (Nat.ltb_spec i stop), (Nat.leb_spec s i), (Nat.ltb_spec i v); cbn; auto; lia.
Qed.
Lemma fold_add {A} (f : A -> F) l : forall x, fold_left (fun acc b => acc + f b) l x = x + Lsum l f.
Proof. induction l as [|y l IH]; intros x; cbn; [ring|]. rewrite IH. cbn. ring. Qed.
Lemma block_sum_tiles (f : nat -> F) bl : forall s stop, ntiles s stop bl ->
  Lsum bl (fun blk => block_sum blk f) = Sum (stop - s) (fun i => f (s + i)%nat).
Proof.
  induction bl as [|[u v] r IH]; intros s stop H; cbn [ntiles] in *.
  - subst. rewrite Nat.sub_diag. reflexivity.
  - destruct H as (-> & H1 & H2 & H3). cbn [Lsum fold_right]. rewrite (IH v stop H3). unfold block_sum. cbn [fst snd].
    replace (stop - s)%nat with ((v - s) + (stop - v))%nat by lia. rewrite Sum_split. f_equal.
    apply Sum_ext. intros i Hi. f_equal. lia.
Qed.
Lemma ntiles_le bl : forall s stop, ntiles s stop bl -> (s <= stop)%nat.
Proof. induction bl as [|[u v] r IH]; cbn; intros s stop H; [lia|]. destruct H as (-> & ? & ? & H). lia. Qed.
Lemma ntiles_in bl : forall s stop, ntiles s stop bl -> forall blk, In blk bl -> (s <= fst blk)%nat /\ (fst blk < snd blk)%nat /\ (snd blk <= stop)%nat.
Proof.
  induction bl as [|[u v] r IH]; cbn [ntiles]; intros s stop H blk [].
  - subst. destruct H as (-> & ? & ? & H). cbn. lia.
  - destruct H as (-> & ? & ? & H). specialize (IH _ _ H _ H0). lia.
Qed.

(** ** C26: amplitudes *)
(** The amplitudes are those of second-order perturbation theory, for every block size (also zero or negative), all energies and
    integrals, and whatever the uninitialised array contained. *)
Theorem C26_amplitudes : forall nocc (e : vec) (g : integrals F) blksize (out : ten) i j a b, (i < nocc)%nat ->
  make_t2 nocc e g (slices nocc blksize) out i j a b
  = gijab g i j a b / (e i - e (nocc + a)%nat + (e j - e (nocc + b)%nat)).
Proof.
  intros. unfold make_t2. rewrite (assign_tiles _ _ _ nocc _ i j a b (slices_tile nocc blksize)).
  destruct (Nat.leb_spec 0 i), (Nat.ltb_spec i nocc); try lia. reflexivity.
Qed.
Theorem C26_block_size_irrelevant : forall nocc nvir (e : vec) (g : integrals F) mem mem' bs bs' (out out' : ten) i j a b, (i < nocc)%nat ->
  make_t2 nocc e g (slices nocc (block_size nocc nvir mem bs)) out i j a b
  = make_t2 nocc e g (slices nocc (block_size nocc nvir mem' bs')) out' i j a b.
Proof. intros. rewrite !C26_amplitudes; auto. Qed.

Definition amp_ss (nocc : nat) (e : vec) (g : integrals F) : ten := fun i j a b =>
  gijab g i j a b / (e i - e (nocc + a)%nat + (e j - e (nocc + b)%nat))
  - gijab g i j b a / (e i - e (nocc + b)%nat + (e j - e (nocc + a)%nat)).
Definition amp_ab (na nb : nat) (ea eb : vec) (g : mixed F) : ten := fun i j a b =>
  gab g i j a b / (ea i - ea (na + a)%nat + (eb j - eb (nb + b)%nat)).
Lemma fold_pair (x y : ten) bl : forall u v : ten,
  fold_left (fun (t : ten * ten) blk => (assign blk x (fst t), assign blk y (snd t))) bl (u, v)
  = (fold_left (fun t blk => assign blk x t) bl u, fold_left (fun t blk => assign blk y t) bl v).
Proof. induction bl as [|b r IH]; intros; cbn; auto. Qed.
Theorem C26_uamplitudes : forall na nb (ea eb : vec) (gaa : integrals F) g gbb blka blkb (out : ten * ten * ten),
  let '(aa, ab, bb) := umake_t2 na nb ea eb gaa g gbb (slices na blka) (slices nb blkb) out in
  (forall i j a b, (i < na)%nat -> aa i j a b = amp_ss na ea gaa i j a b)
  /\ (forall i j a b, (i < na)%nat -> ab i j a b = amp_ab na nb ea eb g i j a b)
  /\ (forall i j a b, (i < nb)%nat -> bb i j a b = amp_ss nb eb gbb i j a b).
Proof.
  intros. unfold umake_t2. rewrite fold_pair. split; [|split]; intros.
  - rewrite (assign_tiles _ _ _ na _ i j a b (slices_tile na blka)).
    destruct (Nat.leb_spec 0 i), (Nat.ltb_spec i na); try lia. reflexivity.
  - rewrite (assign_tiles _ _ _ na _ i j a b (slices_tile na blka)).
    destruct (Nat.leb_spec 0 i), (Nat.ltb_spec i na); try lia. reflexivity.
  - rewrite (assign_tiles _ _ _ nb _ i j a b (slices_tile nb blkb)).
    destruct (Nat.leb_spec 0 i), (Nat.ltb_spec i nb); try lia. reflexivity.
Qed.
(** Same-spin amplitudes are antisymmetric in the virtual indices. *)
Theorem C26_antisymmetric : forall na nb (ea eb : vec) (gaa : integrals F) g gbb blka blkb (out : ten * ten * ten) i j a b, (i < na)%nat ->
  let aa := fst (fst (umake_t2 na nb ea eb gaa g gbb (slices na blka) (slices nb blkb) out)) in aa i j b a = - aa i j a b.
Proof.
  intros. pose proof (C26_uamplitudes na nb ea eb gaa g gbb blka blkb out) as Hu. subst aa.
  destruct (umake_t2 _ _ _ _ _ _ _ _ _ _) as [[aa ab] bb]. destruct Hu as (Hu & _). cbn [fst].
  rewrite !Hu by auto. unfold amp_ss. ring.
Qed.

(** Density-fitted integrals, also with a negative part, give the amplitudes and energies of the two-electron integrals they stand for. *)
Definition integral_of (n n' : nat) (c c' d d' : nat -> mat) : ten := fun i a j b => Sum n (fun L => c L i a * c' L j b) - Sum n' (fun L => d L i a * d' L j b).
Definition same_int (x y : integrals F) : Prop := forall i j a b, gijab x i j a b = gijab y i j a b.
Lemma df_int n (cd : nat -> mat) neg : same_int (Cderi n cd neg) (Eris (integral_of n (match neg with Some (n', _) => n' | None => O end) cd cd
  (match neg with Some (_, cn) => cn | None => cd end) (match neg with Some (_, cn) => cn | None => cd end))).
Proof. intros i j a b. unfold gijab, integral_of. destruct neg as [[n' cn]|]; cbn [Sum]; ring. Qed.
Lemma df_mix n (ca cb : nat -> mat) neg i j a b : gab (Cderi_ab n ca cb neg) i j a b = gab (Eris_ab (integral_of n (match neg with Some (n', _, _) => n' | None => O end) ca cb
  (match neg with Some (_, na, _) => na | None => ca end) (match neg with Some (_, _, nb) => nb | None => cb end))) i j a b.
Proof. unfold gab, integral_of. destruct neg as [[[n' na] nb]|]; cbn [Sum]; ring. Qed.
Lemma fold_ext {A B} (f g : A -> B -> A) l : (forall a b, f a b = g a b) -> forall x, fold_left f l x = fold_left g l x.
Proof. intros H. induction l as [|y l IH]; intros x; cbn; auto. now rewrite H. Qed.
Lemma bsum_ext (blk : nat * nat) (f g : nat -> F) : (forall i, f i = g i) -> block_sum blk f = block_sum blk g.
Proof. intros H. unfold block_sum. apply Sum_ext. auto. Qed.
Lemma con_ext n1 n2 v1 v2 (x x' y y' : ten) : (forall i j a b, x i j a b = x' i j a b) -> (forall i j a b, y i j a b = y' i j a b) -> contract2 n1 n2 v1 v2 x y = contract2 n1 n2 v1 v2 x' y'.
Proof. intros H H'. unfold contract2. repeat (apply Sum_ext; intros). now rewrite H, H'. Qed.
Lemma tss_ext nocc e g g' : same_int g g' -> forall i j a b, t_ss nocc e g i j a b = t_ss nocc e g' i j a b.
Proof. intros H i j a b. unfold t_ss. now rewrite !H. Qed.
Lemma ecorr_ext nocc nvir nf e r g g' bl : same_int g g' -> ecorr nocc nvir nf e r g bl = ecorr nocc nvir nf e r g' bl.
Proof.
  intros H. unfold ecorr. apply fold_ext. intros acc blk. cbv zeta. f_equal. f_equal; [f_equal|]; apply con_ext; intros; unfold tr_ab, bproj; apply bsum_ext; intros; now rewrite H.
Qed.
Lemma ecorr_ss_ext nocc nvir nf (e : vec) (r : mat) g g' blk : same_int g g' -> ecorr_ss nocc nvir nf e r g blk = ecorr_ss nocc nvir nf e r g' blk.
Proof.
  intros H. unfold ecorr_ss. cbv zeta. f_equal. f_equal; apply con_ext; intros; unfold tr_ab, bproj; apply bsum_ext; intros; rewrite ?(tss_ext _ _ g g' H), ?H; reflexivity.
Qed.
Lemma ecorr_ab_ext na va nb vb nfa nfb (ea eb : vec) (ra rb : mat) g g' blk : (forall i j a b, gab g i j a b = gab g' i j a b) ->
  ecorr_ab na va nb vb nfa nfb ea eb ra rb g blk = ecorr_ab na va nb vb nfa nfb ea eb ra rb g' blk.
Proof.
  intros H. unfold ecorr_ab. cbv zeta. f_equal; f_equal.
  - apply con_ext; intros; unfold bproj; apply bsum_ext; intros; unfold t_ab; now rewrite H.
  - apply bsum_ext. intros i. repeat (apply Sum_ext; intros). unfold bprojb, t_ab. f_equal; apply Sum_ext; intros; now rewrite H.
Qed.
Theorem C26_density_fitting : forall nocc nvir nf (e : vec) (r : mat) n cd neg blksize (out : ten),
  let g := Eris (integral_of n (match neg with Some (n', _) => n' | None => O end) cd cd (match neg with Some (_, cn) => cn | None => cd end) (match neg with Some (_, cn) => cn | None => cd end)) in
  (forall i j a b, (i < nocc)%nat -> make_t2 nocc e (Cderi n cd neg) (slices nocc blksize) out i j a b = make_t2 nocc e g (slices nocc blksize) out i j a b)
  /\ ecorr nocc nvir nf e r (Cderi n cd neg) (slices nocc blksize) = ecorr nocc nvir nf e r g (slices nocc blksize).
Proof.
  intros. split.
  - intros. rewrite !C26_amplitudes by auto. now rewrite (df_int n cd neg).
  - apply ecorr_ext. apply df_int.
Qed.
(** Both spins, with the same number of auxiliary functions for both *)
Theorem C26_density_fitting_unrestricted : forall na va nb vb nfa nfb (ea eb : vec) (ra rb : mat) n n' (ca cb da db : nat -> mat) blka blkb (out : ten * ten * ten),
  let pair := (umake_t2 na nb ea eb (Cderi n ca (Some (n', da))) (Cderi_ab n ca cb (Some (n', da, db))) (Cderi n cb (Some (n', db))) (slices na blka) (slices nb blkb) out,
               umake_t2 na nb ea eb (Eris (integral_of n n' ca ca da da)) (Eris_ab (integral_of n n' ca cb da db)) (Eris (integral_of n n' cb cb db db)) (slices na blka) (slices nb blkb) out) in
  (forall i j a b, (i < na)%nat -> fst (fst (fst pair)) i j a b = fst (fst (snd pair)) i j a b)
  /\ (forall i j a b, (i < na)%nat -> snd (fst (fst pair)) i j a b = snd (fst (snd pair)) i j a b)
  /\ (forall i j a b, (i < nb)%nat -> snd (fst pair) i j a b = snd (snd pair) i j a b)
  /\ uecorr na va nb vb nfa nfb ea eb ra rb (Cderi n ca (Some (n', da))) (Cderi_ab n ca cb (Some (n', da, db))) (Cderi n cb (Some (n', db))) (slices na blka) (slices nb blkb)
     = uecorr na va nb vb nfa nfb ea eb ra rb (Eris (integral_of n n' ca ca da da)) (Eris_ab (integral_of n n' ca cb da db)) (Eris (integral_of n n' cb cb db db)) (slices na blka) (slices nb blkb).
Proof.
  intros na va nb vb nfa nfb ea eb ra rb n n' ca cb da db blka blkb out pair.
  pose proof (df_int n ca (Some (n', da))) as Ha. pose proof (df_int n cb (Some (n', db))) as Hb. pose proof (df_mix n ca cb (Some (n', da, db))) as Hm. cbn iota in Ha, Hb, Hm.
  pose proof (C26_uamplitudes na nb ea eb (Cderi n ca (Some (n', da))) (Cderi_ab n ca cb (Some (n', da, db))) (Cderi n cb (Some (n', db))) blka blkb out) as A.
  pose proof (C26_uamplitudes na nb ea eb (Eris (integral_of n n' ca ca da da)) (Eris_ab (integral_of n n' ca cb da db)) (Eris (integral_of n n' cb cb db db)) blka blkb out) as B.
  subst pair. cbn [fst snd]. destruct (umake_t2 _ _ _ _ (Cderi n ca _) _ _ _ _ _) as [[aa ab] bb]. destruct (umake_t2 _ _ _ _ (Eris _) _ _ _ _ _) as [[aa' ab'] bb'].
  destruct A as (A1 & A2 & A3). destruct B as (B1 & B2 & B3). cbn [fst snd]. split; [|split; [|split]].
  - intros. rewrite A1, B1 by auto. unfold amp_ss. now rewrite !Ha.
  - intros. rewrite A2, B2 by auto. unfold amp_ab. now rewrite Hm.
  - intros. rewrite A3, B3 by auto. unfold amp_ss. now rewrite !Hb.
  - unfold uecorr. cbv zeta.
    match goal with |- fold_left _ _ (fold_left ?f ?l 0) = fold_left _ _ (fold_left ?g ?l 0) => assert (E : fold_left f l 0 = fold_left g l 0) end.
    { apply fold_ext. intros acc blk. now rewrite (ecorr_ss_ext na va nfa ea ra _ _ blk Ha), (ecorr_ab_ext na va nb vb nfa nfb ea eb ra rb _ _ blk Hm). }
    rewrite E. apply fold_ext. intros acc blk. now rewrite (ecorr_ss_ext nb vb nfb eb rb _ _ blk Hb).
Qed.

(** ** Energies *)
Definition S3 (n v1 v2 : nat) (f : nat -> nat -> nat -> F) : F := Sum n (fun j => Sum v1 (fun a => Sum v2 (fun b => f j a b))).
Lemma S3_ext n v1 v2 f g : (forall j a b, (j < n)%nat -> (a < v1)%nat -> (b < v2)%nat -> f j a b = g j a b) -> S3 n v1 v2 f = S3 n v1 v2 g.
Proof. intros H. unfold S3. repeat (apply Sum_ext; intros ? ?). auto. Qed.
Lemma S3_Sum n v1 v2 m f : S3 n v1 v2 (fun j a b => Sum m (fun i => f i j a b)) = Sum m (fun i => S3 n v1 v2 (f i)).
Proof.
  unfold S3. rewrite (Sum_ext n _ (fun j => Sum m (fun i => Sum v1 (fun a => Sum v2 (fun b => f i j a b))))); [apply Sum_swap|].
  intros j _. rewrite (Sum_ext v1 _ (fun a => Sum m (fun i => Sum v2 (fun b => f i j a b)))); [apply Sum_swap|].
  intros a _. apply Sum_swap.
Qed.
Lemma S3_mul n v1 v2 c f : S3 n v1 v2 (fun j a b => c * f j a b) = c * S3 n v1 v2 f.
Proof. unfold S3. rewrite <- Sum_mul_l. apply Sum_ext. intros j _. rewrite <- Sum_mul_l. apply Sum_ext. intros a _. apply Sum_mul_l. Qed.
Lemma S3_add n v1 v2 f g : S3 n v1 v2 (fun j a b => f j a b + g j a b) = S3 n v1 v2 f + S3 n v1 v2 g.
Proof. unfold S3. rewrite <- Sum_add. apply Sum_ext. intros j _. rewrite <- Sum_add. apply Sum_ext. intros a _. apply Sum_add. Qed.
Lemma S3_sub n v1 v2 f g : S3 n v1 v2 (fun j a b => f j a b - g j a b) = S3 n v1 v2 f - S3 n v1 v2 g.
Proof. unfold S3. rewrite <- Sum_sub. apply Sum_ext. intros j _. rewrite <- Sum_sub. apply Sum_ext. intros a _. apply Sum_sub. Qed.

(** The projector onto the fragment in the occupied space *)
Definition P (nf : nat) (r : mat) : mat := fun i k => Sum nf (fun x => r i x * r k x).
Lemma proj_gen nf n1 n v1 v2 (r : mat) s (t g : ten) :
  Sum nf (fun x => S3 n v1 v2 (fun j a b => Sum n1 (fun i => r (s + i)%nat x * t (s + i)%nat j a b) * Sum n1 (fun k => r (s + k)%nat x * g (s + k)%nat j a b)))
  = Sum n1 (fun i => Sum n1 (fun k => P nf r (s + i) (s + k) * S3 n v1 v2 (fun j a b => t (s + i)%nat j a b * g (s + k)%nat j a b))).
Proof.
  rewrite (Sum_ext nf _ (fun x => Sum n1 (fun i => Sum n1 (fun k => r (s + i)%nat x * r (s + k)%nat x * S3 n v1 v2 (fun j a b => t (s + i)%nat j a b * g (s + k)%nat j a b))))).
  - rewrite Sum_swap. apply Sum_ext. intros i _. rewrite Sum_swap. apply Sum_ext. intros k _. unfold P. now rewrite Sum_mul_r.
  - intros x _. rewrite (S3_ext _ _ _ _ (fun j a b => Sum n1 (fun i => Sum n1 (fun k => r (s + i)%nat x * r (s + k)%nat x * (t (s + i)%nat j a b * g (s + k)%nat j a b))))).
    + rewrite S3_Sum. apply Sum_ext. intros i _. rewrite S3_Sum. apply Sum_ext. intros k _. now rewrite S3_mul.
    + intros. rewrite Sum_mul_Sum. apply Sum_ext. intros i _. apply Sum_ext. intros k _. ring.
Qed.
Lemma proj_blk nf n v1 v2 (r : mat) (t g : ten) blk :
  contract2 nf n v1 v2 (bproj blk r t) (bproj blk r g)
  = block_sum blk (fun i => block_sum blk (fun k => P nf r i k * S3 n v1 v2 (fun j a b => t i j a b * g k j a b))).
Proof. unfold contract2, bproj, block_sum. apply (proj_gen nf (snd blk - fst blk) n v1 v2 r (fst blk) t g). Qed.

(** The projected pair energy of two occupied orbitals *)
Definition pair_energy (nocc nvir : nat) (t g : ten) (i k : nat) : F :=
  two * S3 nocc nvir nvir (fun j a b => t i j a b * g k j a b) - S3 nocc nvir nvir (fun j a b => t i j a b * g k j b a).
Definition amp (nocc : nat) (e : vec) (g : integrals F) : ten := fun i j a b =>
  gijab g i j a b / (e i - e (nocc + a)%nat + (e j - e (nocc + b)%nat)).
Lemma block_sum_ext blk f g : (forall i, (fst blk <= i < snd blk)%nat -> f i = g i) -> block_sum blk f = block_sum (F := F) blk g.
Proof. intros H. unfold block_sum. apply Sum_ext. intros. apply H. lia. Qed.
Lemma block_sum_mul blk c f : c * block_sum blk f = block_sum (F := F) blk (fun i => c * f i).
Proof. unfold block_sum. now rewrite Sum_mul_l. Qed.
Lemma block_sum_sub blk f g : block_sum (F := F) blk f - block_sum blk g = block_sum blk (fun i => f i - g i).
Proof. unfold block_sum. now rewrite Sum_sub. Qed.
Lemma block_sum_add blk f g : block_sum (F := F) blk f + block_sum blk g = block_sum blk (fun i => f i + g i).
Proof. unfold block_sum. now rewrite Sum_add. Qed.
Lemma block_sum_full n f : block_sum (F := F) (0%nat, n) f = Sum n f.
Proof. unfold block_sum. cbn [fst snd]. now rewrite Nat.sub_0_r. Qed.

(** For any blocks: the pairs of occupied orbitals in the same block, weighted with the fragment projector. *)
Lemma ecorr_blocks nocc nvir nf (e : vec) (r : mat) (g : integrals F) bl :
  ecorr nocc nvir nf e r g bl
  = Lsum bl (fun blk => block_sum blk (fun i => block_sum blk (fun k => P nf r i k * pair_energy nocc nvir (amp nocc e g) (gijab g) i k))).
Proof.
  unfold ecorr. rewrite (fold_add (fun blk => two * contract2 nf nocc nvir nvir (bproj blk r (amp nocc e g)) (bproj blk r (gijab g))
                                      - contract2 nf nocc nvir nvir (bproj blk r (amp nocc e g)) (tr_ab (bproj blk r (gijab g))))).
  match goal with |- 0 + ?a = _ => transitivity a; [ring|] end. apply Lsum_ext.
  intros blk _. change (tr_ab (bproj blk r (gijab g))) with (bproj blk r (tr_ab (gijab g))).
  rewrite !proj_blk. rewrite block_sum_mul, block_sum_sub. apply block_sum_ext. intros i _.
    rewrite block_sum_mul, block_sum_sub. apply block_sum_ext. intros k _. unfold pair_energy, tr_ab. ring.
Qed.

(** If the occupied space fits into one block, the energy is the projected correlation energy: the amplitudes' occupied index is
    projected onto the fragment, sum_ik P_ik sum_jab t_ijab (2 g_kjab - g_kjba). *)
Theorem C26_energy_one_block : forall nocc nvir nf (e : vec) (r : mat) (g : integrals F) blksize, (Z.of_nat nocc <= blksize)%Z ->
  ecorr nocc nvir nf e r g (slices nocc blksize)
  = Sum nocc (fun i => Sum nocc (fun k => Sum nf (fun x => r i x * r k x) *
      Sum nocc (fun j => Sum nvir (fun a => Sum nvir (fun b => amp nocc e g i j a b * (two * gijab g k j a b - gijab g k j b a)))))).
Proof.
  intros nocc nvir nf e r g blksize H. rewrite ecorr_blocks. destruct nocc as [|n].
  - pose proof (slices_tile 0 blksize) as Ht. destruct (slices 0 blksize) as [|[u v] rr]; [reflexivity|]. cbn in Ht. lia.
  - rewrite slices_one by lia. cbn [Lsum fold_right]. rewrite block_sum_full.
    match goal with |- ?a + 0 = _ => transitivity a; [ring|] end.
    apply Sum_ext. intros i _. rewrite block_sum_full.
    apply Sum_ext. intros k _. unfold P. f_equal. unfold pair_energy.
    fold (S3 (S n) nvir nvir (fun j a b => amp (S n) e g i j a b * (two * gijab g k j a b - gijab g k j b a))).
    rewrite <- S3_mul, <- S3_sub. apply S3_ext. intros. ring.
Qed.

(** The MP2 correlation energy *)
Definition mp2_energy (nocc nvir : nat) (t g : ten) : F :=
  Sum nocc (fun i => Sum nocc (fun j => Sum nvir (fun a => Sum nvir (fun b => t i j a b * (two * g i j a b - g i j b a))))).
Lemma proj_delta_sum {A} (frags : list A) (nf : A -> nat) (r : A -> mat) (bl : list (nat * nat)) n (E : nat -> nat -> F) :
  ntiles 0 n bl ->
  (forall i k, (i < n)%nat -> (k < n)%nat -> Lsum frags (fun fr => P (nf fr) (r fr) i k) = delta i k) ->
  Lsum frags (fun fr => Lsum bl (fun blk => block_sum blk (fun i => block_sum blk (fun k => P (nf fr) (r fr) i k * E i k))))
  = Sum n (fun i => E i i).
Proof.
  intros Ht HP. rewrite Lsum_swap.
  rewrite (Lsum_ext bl _ (fun blk => block_sum blk (fun i => E i i))).
  - rewrite (block_sum_tiles _ _ 0 n Ht). rewrite Nat.sub_0_r. reflexivity.
  - intros blk Hin. destruct (ntiles_in _ _ _ Ht _ Hin) as (H1 & H2 & H3).
    unfold block_sum at 1. rewrite Lsum_Sum. unfold block_sum at 2. apply Sum_ext. intros i Hi.
    unfold block_sum. rewrite Lsum_Sum.
    rewrite (Sum_ext _ _ (fun k => delta i k * E (fst blk + i)%nat (fst blk + k)%nat)).
    + now rewrite Sum_delta_l.
    + intros k Hk. rewrite Lsum_mul_r. rewrite HP by lia. f_equal. unfold delta.
      destruct (Nat.eqb_spec i k), (Nat.eqb_spec (fst blk + i) (fst blk + k)); auto; lia.
Qed.
(** Fragments whose projectors add up to the identity: their energies add up to the MP2 energy, for every block size. *)
Theorem C26_energy_sum : forall {A} (frags : list A) (nf : A -> nat) (r : A -> mat) nocc nvir (e : vec) (g : integrals F) blksize,
  (forall i k, (i < nocc)%nat -> (k < nocc)%nat -> Lsum frags (fun fr => Sum (nf fr) (fun x => r fr i x * r fr k x)) = delta i k) ->
  Lsum frags (fun fr => ecorr nocc nvir (nf fr) e (r fr) g (slices nocc blksize)) = mp2_energy nocc nvir (amp nocc e g) (gijab g).
Proof.
  intros A frags nf r nocc nvir e g blksize HP.
  rewrite (Lsum_ext _ _ _ (fun fr _ => ecorr_blocks nocc nvir (nf fr) e (r fr) g (slices nocc blksize))).
  rewrite (proj_delta_sum frags nf r _ nocc _ (slices_tile nocc blksize) HP).
  unfold mp2_energy. apply Sum_ext. intros i _. unfold pair_energy.
  fold (S3 nocc nvir nvir (fun j a b => amp nocc e g i j a b * (two * gijab g i j a b - gijab g i j b a))).
  rewrite <- S3_mul, <- S3_sub. apply S3_ext. intros. ring.
Qed.

(** *** Unrestricted energies *)
Definition halfsum2 (na va vb nf : nat) (r : mat) (blk : nat * nat) (t g : ten) : F :=
  contract2 nf na va vb (bproj blk r t) (bproj blk r g).
(** The projected energy of one block, same spin *)
Definition ss_pair (nocc nvir : nat) (t g : ten) (i k : nat) : F :=
  S3 nocc nvir nvir (fun j a b => t i j a b * (g k j a b - g k j b a)).
Lemma ecorr_ss_blk nocc nvir nf (e : vec) (r : mat) (g : integrals F) blk :
  ecorr_ss nocc nvir nf e r g blk
  = block_sum blk (fun i => block_sum blk (fun k => P nf r i k * ss_pair nocc nvir (amp_ss nocc e g) (gijab g) i k)) / (two * two).
Proof.
  unfold ecorr_ss. f_equal. change (t_ss nocc e g) with (amp_ss nocc e g).
  change (tr_ab (bproj blk r (gijab g))) with (bproj blk r (tr_ab (gijab g))).
  rewrite !proj_blk, block_sum_sub. apply block_sum_ext. intros i _. rewrite block_sum_sub. apply block_sum_ext. intros k _.
  unfold ss_pair, tr_ab.
  match goal with |- ?p * ?x - ?p * ?y = _ => transitivity (p * (x - y)); [ring|] end.
  f_equal. rewrite <- S3_sub. apply S3_ext. intros. ring.
Qed.
Definition alpha_pair (nb va vb : nat) (t g : ten) (i k : nat) : F := S3 nb va vb (fun j a b => t i j a b * g k j a b).
Definition beta_pair (va vb : nat) (t g : ten) (i j l : nat) : F := Sum va (fun a => Sum vb (fun b => t i j a b * g i l a b)).
Lemma bprojb_gen nf n va vb (r : mat) (t g : ten) i :
  Sum nf (fun p => Sum va (fun a => Sum vb (fun b => bprojb n r t i p a b * bprojb n r g i p a b)))
  = Sum n (fun j => Sum n (fun l => P nf r j l * beta_pair va vb t g i j l)).
Proof.
  pose proof (proj_gen nf n 1 va vb r 0 (fun j _ a b => t i j a b) (fun j _ a b => g i j a b)) as H.
  unfold S3, beta_pair, bprojb in *. cbn in H.
  etransitivity; [|etransitivity; [exact H|]].
  - apply Sum_ext. intros x _. ring.
  - apply Sum_ext. intros j _. apply Sum_ext. intros l _. ring.
Qed.
Lemma ecorr_ab_blk na va nb vb nfa nfb (ea eb : vec) (ra rb : mat) (g : mixed F) blk :
  ecorr_ab na va nb vb nfa nfb ea eb ra rb g blk
  = block_sum blk (fun i => block_sum blk (fun k => P nfa ra i k * alpha_pair nb va vb (amp_ab na nb ea eb g) (gab g) i k)) / two
  + block_sum blk (fun i => Sum nb (fun j => Sum nb (fun l => P nfb rb j l * beta_pair va vb (amp_ab na nb ea eb g) (gab g) i j l))) / two.
Proof.
  unfold ecorr_ab. change (t_ab na nb ea eb g) with (amp_ab na nb ea eb g). f_equal.
  - f_equal. apply proj_blk.
  - f_equal. apply block_sum_ext. intros i _. apply bprojb_gen.
Qed.
Lemma Lsum_div {A} (l : list A) (f : A -> F) c : Lsum l (fun a => f a / c) = Lsum l f / c.
Proof.
  rewrite (Lsum_ext _ _ (fun a => f a * (1 / c))).
  - rewrite Lsum_mul_r. rewrite !(Fdiv_def (fth F)). ring.
  - intros. rewrite !(Fdiv_def (fth F)). ring.
Qed.
Lemma uecorr_blocks na va nb vb nfa nfb (ea eb : vec) (ra rb : mat) (gaa : integrals F) g gbb bla blb :
  ntiles 0 na bla ->
  uecorr na va nb vb nfa nfb ea eb ra rb gaa g gbb bla blb
  = Lsum bla (fun blk => block_sum blk (fun i => block_sum blk (fun k => P nfa ra i k * ss_pair na va (amp_ss na ea gaa) (gijab gaa) i k))) / (two * two)
  + Lsum blb (fun blk => block_sum blk (fun i => block_sum blk (fun k => P nfb rb i k * ss_pair nb vb (amp_ss nb eb gbb) (gijab gbb) i k))) / (two * two)
  + Lsum bla (fun blk => block_sum blk (fun i => block_sum blk (fun k => P nfa ra i k * alpha_pair nb va vb (amp_ab na nb ea eb g) (gab g) i k))) / two
  + Sum na (fun i => Sum nb (fun j => Sum nb (fun l => P nfb rb j l * beta_pair va vb (amp_ab na nb ea eb g) (gab g) i j l))) / two.
Proof.
  intros Ht. unfold uecorr.
  rewrite (fold_add (fun blk => ecorr_ss nb vb nfb eb rb gbb blk)).
  rewrite (Lsum_ext blb (fun blk => ecorr_ss nb vb nfb eb rb gbb blk) _ (fun blk _ => ecorr_ss_blk nb vb nfb eb rb gbb blk)). rewrite Lsum_div.
  assert (E : forall x, fold_left (fun acc blk => acc + ecorr_ss na va nfa ea ra gaa blk + ecorr_ab na va nb vb nfa nfb ea eb ra rb g blk) bla x
     = x + Lsum bla (fun blk => ecorr_ss na va nfa ea ra gaa blk + ecorr_ab na va nb vb nfa nfb ea eb ra rb g blk)).
  { intros x. rewrite <- fold_add. revert x. clear Ht. induction bla as [|b r IH]; intros x; cbn [fold_left]; auto. rewrite IH. f_equal. ring. }
  rewrite E. rewrite (Lsum_add bla (ecorr_ss na va nfa ea ra gaa)). rewrite (Lsum_ext bla (ecorr_ss na va nfa ea ra gaa) _ (fun blk _ => ecorr_ss_blk na va nfa ea ra gaa blk)). rewrite Lsum_div.
  rewrite (Lsum_ext bla (ecorr_ab na va nb vb nfa nfb ea eb ra rb g) _ (fun blk _ => ecorr_ab_blk na va nb vb nfa nfb ea eb ra rb g blk)).
  rewrite Lsum_add, !Lsum_div. rewrite (block_sum_tiles _ _ 0 na Ht). rewrite Nat.sub_0_r. cbn [Nat.add]. ring.
Qed.
(** The unrestricted MP2 energy *)
Definition ump2_energy (na va nb vb : nat) (taa tab tbb gaa gab gbb : ten) : F :=
  Sum na (fun i => Sum na (fun j => Sum va (fun a => Sum va (fun b => taa i j a b * (gaa i j a b - gaa i j b a))))) / (two * two)
  + Sum na (fun i => Sum nb (fun j => Sum va (fun a => Sum vb (fun b => tab i j a b * gab i j a b))))
  + Sum nb (fun i => Sum nb (fun j => Sum vb (fun a => Sum vb (fun b => tbb i j a b * (gbb i j a b - gbb i j b a))))) / (two * two).
Theorem C26_uenergy_sum : forall {A} (frags : list A) (nfa nfb : A -> nat) (ra rb : A -> mat) na va nb vb (ea eb : vec) (gaa : integrals F) g gbb blka blkb,
  (two : F) <> 0 ->
  (forall i k, (i < na)%nat -> (k < na)%nat -> Lsum frags (fun fr => Sum (nfa fr) (fun x => ra fr i x * ra fr k x)) = delta i k) ->
  (forall i k, (i < nb)%nat -> (k < nb)%nat -> Lsum frags (fun fr => Sum (nfb fr) (fun x => rb fr i x * rb fr k x)) = delta i k) ->
  Lsum frags (fun fr => uecorr na va nb vb (nfa fr) (nfb fr) ea eb (ra fr) (rb fr) gaa g gbb (slices na blka) (slices nb blkb))
  = ump2_energy na va nb vb (amp_ss na ea gaa) (amp_ab na nb ea eb g) (amp_ss nb eb gbb) (gijab gaa) (gab g) (gijab gbb).
Proof.
  intros A frags nfa nfb ra rb na va nb vb ea eb gaa g gbb blka blkb H2 HPa HPb.
  rewrite (Lsum_ext frags _ _ (fun fr _ => uecorr_blocks na va nb vb (nfa fr) (nfb fr) ea eb (ra fr) (rb fr) gaa g gbb _ (slices nb blkb) (slices_tile na blka))).
  rewrite !Lsum_add, !Lsum_div.
  rewrite (proj_delta_sum frags nfa ra _ na _ (slices_tile na blka) HPa).
  rewrite (proj_delta_sum frags nfb rb _ nb _ (slices_tile nb blkb) HPb).
  rewrite (proj_delta_sum frags nfa ra _ na _ (slices_tile na blka) HPa).
  assert (EB : Lsum frags (fun fr => Sum na (fun i => Sum nb (fun j => Sum nb (fun l => P (nfb fr) (rb fr) j l * beta_pair va vb (amp_ab na nb ea eb g) (gab g) i j l))))
     = Sum na (fun i => Sum nb (fun j => beta_pair va vb (amp_ab na nb ea eb g) (gab g) i j j))).
  { rewrite Lsum_Sum. apply Sum_ext. intros i _. rewrite Lsum_Sum. apply Sum_ext. intros j Hj. rewrite Lsum_Sum.
    rewrite (Sum_ext nb _ (fun l => delta j l * beta_pair va vb (amp_ab na nb ea eb g) (gab g) i j l)).
    - now rewrite Sum_delta_l.
    - intros l Hl. rewrite Lsum_mul_r. unfold P. now rewrite HPb by auto. }
  rewrite EB. unfold ump2_energy, ss_pair, alpha_pair, beta_pair, S3. cbv beta. unfold two in *. field; nz H2.
Qed.

(** Closed shell (both spins with the same orbitals, energies, integrals and fragment): with one block the unrestricted energy is the
    restricted one. *)
Theorem C26_closed_shell_energy : forall nocc nvir nf (e : vec) (r : mat) (g : integrals F) (gm : mixed F) blksize, (two : F) <> 0 ->
  (Z.of_nat nocc <= blksize)%Z ->
  (forall i j a b, gab gm i j a b = gijab g i j a b) ->
  (forall i j a b, gijab g i j a b = gijab g j i b a) ->
  uecorr nocc nvir nocc nvir nf nf e e r r g gm g (slices nocc blksize) (slices nocc blksize)
  = ecorr nocc nvir nf e r g (slices nocc blksize).
Proof.
  intros nocc nvir nf e r g gm blksize H2 Hb Hm Hs.
  rewrite uecorr_blocks by apply slices_tile. rewrite ecorr_blocks.
  destruct (Nat.eq_dec nocc 0) as [->|Hn].
  { pose proof (slices_tile 0 blksize) as Ht. destruct (slices 0 blksize) as [|[u v] rr]; [|cbn in Ht; lia].
    cbn. unfold two in *. field; nz H2. }
  rewrite slices_one by lia. cbn [Lsum fold_right].
  assert (E4 : forall f : nat -> nat -> F, block_sum (0%nat, nocc) (fun i => block_sum (0%nat, nocc) (f i)) = Sum nocc (fun i => Sum nocc (f i))).
  { intros. rewrite block_sum_full. apply Sum_ext. intros. apply block_sum_full. }
  rewrite !E4.
  assert (Et : forall i j a b, amp nocc e g i j a b = amp nocc e g j i b a).
  { intros. unfold amp. rewrite (Hs i j a b). f_equal. ring. }
  assert (Eab : forall i j a b, amp_ab nocc nocc e e gm i j a b = amp nocc e g i j a b).
  { intros. unfold amp_ab, amp. now rewrite Hm. }
  set (D := fun i k => S3 nocc nvir nvir (fun j a b => amp nocc e g i j a b * gijab g k j a b)).
  set (X := fun i k => S3 nocc nvir nvir (fun j a b => amp nocc e g i j a b * gijab g k j b a)).
  assert (EX : forall i k, ss_pair nocc nvir (amp_ss nocc e g) (gijab g) i k = two * (D i k - X i k)).
  { intros i k. unfold ss_pair.
    transitivity (S3 nocc nvir nvir (fun j a b => amp nocc e g i j a b * gijab g k j a b - amp nocc e g i j a b * gijab g k j b a)
       + S3 nocc nvir nvir (fun j a b => amp nocc e g i j b a * gijab g k j b a - amp nocc e g i j b a * gijab g k j a b)).
    - rewrite <- S3_add. apply S3_ext. intros. unfold amp_ss. fold (amp nocc e g i j a b). fold (amp nocc e g i j b a). ring.
    - rewrite !S3_sub. fold (D i k) (X i k).
      assert (S : forall f, S3 nocc nvir nvir (fun j a b => f j b a) = S3 nocc nvir nvir f).
      { intros f. unfold S3. apply Sum_ext. intros. apply Sum_swap. }
      rewrite (S (fun j a b => amp nocc e g i j a b * gijab g k j a b)), (S (fun j a b => amp nocc e g i j a b * gijab g k j b a)).
      fold (D i k) (X i k). unfold two. ring. }
  rewrite (Sum_ext nocc _ (fun i => Sum nocc (fun k => two * (P nf r i k * D i k) - two * (P nf r i k * X i k)))) by (intros; apply Sum_ext; intros; rewrite EX; ring).
  rewrite (Sum_ext nocc (fun i => Sum nocc (fun k => P nf r i k * alpha_pair nocc nvir nvir (amp_ab nocc nocc e e gm) (gab gm) i k)) (fun i => Sum nocc (fun k => P nf r i k * D i k))).
  2:{ intros. apply Sum_ext. intros. f_equal. unfold alpha_pair, D. apply S3_ext. intros. now rewrite Eab, Hm. }
  rewrite (Sum_ext nocc (fun i => Sum nocc (fun k => P nf r i k * pair_energy nocc nvir (amp nocc e g) (gijab g) i k)) (fun i => Sum nocc (fun k => two * (P nf r i k * D i k) - P nf r i k * X i k))).
  2:{ intros. apply Sum_ext. intros. unfold pair_energy. fold (D i i0). fold (X i i0). ring. }
  assert (EB : Sum nocc (fun i => Sum nocc (fun j => Sum nocc (fun l => P nf r j l * beta_pair nvir nvir (amp_ab nocc nocc e e gm) (gab gm) i j l)))
     = Sum nocc (fun i => Sum nocc (fun k => P nf r i k * D i k))).
  { rewrite Sum_swap. apply Sum_ext. intros j _. rewrite Sum_swap. apply Sum_ext. intros l _. rewrite Sum_mul_l. f_equal.
    unfold D, S3, beta_pair. apply Sum_ext. intros i _. rewrite Sum_swap. apply Sum_ext. intros a _. apply Sum_ext. intros b _.
    rewrite Eab, Hm. rewrite (Et i j b a), (Hs i l b a). reflexivity. }
  rewrite EB.
  assert (L1 : forall u v : F, Sum nocc (fun i => Sum nocc (fun k => u * (P nf r i k * D i k) - v * (P nf r i k * X i k)))
     = u * Sum nocc (fun i => Sum nocc (fun k => P nf r i k * D i k)) - v * Sum nocc (fun i => Sum nocc (fun k => P nf r i k * X i k))).
  { intros. rewrite <- !Sum_mul_l, <- Sum_sub. apply Sum_ext. intros. rewrite <- !Sum_mul_l, <- Sum_sub. reflexivity. }
  rewrite L1.
  rewrite (Sum_ext nocc (fun i => Sum nocc (fun k => two * (P nf r i k * D i k) - P nf r i k * X i k)) (fun i => Sum nocc (fun k => two * (P nf r i k * D i k) - 1 * (P nf r i k * X i k)))) by (intros; apply Sum_ext; intros; ring).
  rewrite L1. set (d := Sum nocc _). set (x := Sum nocc (fun i => Sum nocc (fun k => P nf r i k * X i k))).
  unfold two in *. field; nz H2.
Qed.
(** ** Bath density matrices *)
Definition in_range (nocc nvir : nat) (Q : nat -> nat -> nat -> nat -> Prop) : Prop :=
  forall i j a b, (i < nocc)%nat -> (j < nocc)%nat -> (a < nvir)%nat -> (b < nvir)%nat -> Q i j a b.
Definition dim (o : occtype) (nocc nvir : nat) : nat := match o with Occupied => nocc | Virtual => nvir end.

Lemma S3_swap23 n v f : S3 n v v (fun j a b => f j b a) = S3 n v v f.
Proof. unfold S3. apply Sum_ext. intros. apply Sum_swap. Qed.
Lemma S3_swap12 n v f : S3 n n v (fun i j a => f j i a) = S3 n n v f.
Proof. unfold S3. apply Sum_swap. Qed.

Lemma dm_closed0 nocc nvir o (t aa ab bb : ten) : (two : F) <> 0 ->
  in_range nocc nvir (fun i j a b => t i j a b = t j i b a) ->
  in_range nocc nvir (fun i j a b => aa i j a b = t i j a b - t i j b a) ->
  in_range nocc nvir (fun i j a b => bb i j a b = t i j a b - t i j b a) ->
  in_range nocc nvir (fun i j a b => ab i j a b = t i j a b) ->
  forall p q, (p < dim o nocc nvir)%nat -> (q < dim o nocc nvir)%nat ->
  delta_dm1_a nocc nvir nocc nvir o aa ab p q = delta_dm1 nocc nvir o t p q
  /\ delta_dm1_b nocc nvir nocc nvir o bb ab p q = delta_dm1 nocc nvir o t p q.
Proof.
  intros H2 Hs Haa Hbb Hab p q Hp Hq. unfold two in H2.
  destruct o; cbn [dim] in *.
  - change (halve (S3 nocc nvir nvir (fun m e f => aa p m e f * aa q m e f)) + S3 nocc nvir nvir (fun m e f => ab p m e f * ab q m e f)
              = two * S3 nocc nvir nvir (fun k a b => t p k a b * t q k a b) - S3 nocc nvir nvir (fun k a b => t p k a b * t q k b a)
            /\ halve (S3 nocc nvir nvir (fun m e f => bb p m e f * bb q m e f)) + S3 nocc nvir nvir (fun m e f => ab m p e f * ab m q e f)
              = two * S3 nocc nvir nvir (fun k a b => t p k a b * t q k a b) - S3 nocc nvir nvir (fun k a b => t p k a b * t q k b a)).
    set (D := S3 nocc nvir nvir (fun k a b => t p k a b * t q k a b)).
    set (X := S3 nocc nvir nvir (fun k a b => t p k a b * t q k b a)).
    assert (Eaa : forall x : ten, in_range nocc nvir (fun i j a b => x i j a b = t i j a b - t i j b a) ->
      S3 nocc nvir nvir (fun m e f => x p m e f * x q m e f) = (1 + 1) * (D - X)).
    { intros x Hx. transitivity ((D - X) + (S3 nocc nvir nvir (fun k a b => t p k b a * t q k b a) - S3 nocc nvir nvir (fun k a b => t p k b a * t q k a b))).
      - unfold D, X. rewrite <- !S3_sub, <- S3_add. apply S3_ext. intros. rewrite !Hx by auto. ring.
      - rewrite (S3_swap23 nocc nvir (fun k a b => t p k a b * t q k a b)), (S3_swap23 nocc nvir (fun k a b => t p k a b * t q k b a)). fold D X. ring. }
    rewrite (Eaa aa Haa), (Eaa bb Hbb). unfold halve, two.
    assert (E1 : S3 nocc nvir nvir (fun m e f => ab p m e f * ab q m e f) = D) by (apply S3_ext; intros; rewrite !Hab by auto; ring).
    assert (E2 : S3 nocc nvir nvir (fun m e f => ab m p e f * ab m q e f) = D).
    { unfold D. rewrite <- S3_swap23. apply S3_ext. intros j a b Hj Ha Hb. rewrite !Hab by auto. rewrite (Hs j p), (Hs j q) by auto. ring. }
    rewrite E1, E2. split; field; nz H2.
  - change (halve (S3 nocc nocc nvir (fun m n e => aa m n q e * aa m n p e)) + S3 nocc nocc nvir (fun m n e => ab m n q e * ab m n p e)
              = two * S3 nocc nocc nvir (fun i j c => t i j p c * t i j q c) - S3 nocc nocc nvir (fun i j c => t i j p c * t i j c q)
            /\ halve (S3 nocc nocc nvir (fun m n e => bb m n q e * bb m n p e)) + S3 nocc nocc nvir (fun m n e => ab m n e q * ab m n e p)
              = two * S3 nocc nocc nvir (fun i j c => t i j p c * t i j q c) - S3 nocc nocc nvir (fun i j c => t i j p c * t i j c q)).
    set (D := S3 nocc nocc nvir (fun i j c => t i j p c * t i j q c)).
    set (X := S3 nocc nocc nvir (fun i j c => t i j p c * t i j c q)).
    assert (E3 : S3 nocc nocc nvir (fun i j c => t i j c p * t i j c q) = D).
    { unfold D. rewrite <- S3_swap12. apply S3_ext. intros i j c Hi Hj Hc. rewrite (Hs j i c p), (Hs j i c q) by auto. ring. }
    assert (E4 : S3 nocc nocc nvir (fun i j c => t i j c p * t i j q c) = X).
    { unfold X. rewrite <- S3_swap12. apply S3_ext. intros i j c Hi Hj Hc. rewrite (Hs j i c p), (Hs j i q c) by auto. ring. }
    assert (Eaa : forall x : ten, in_range nocc nvir (fun i j a b => x i j a b = t i j a b - t i j b a) ->
      S3 nocc nocc nvir (fun m n e => x m n q e * x m n p e) = (1 + 1) * (D - X)).
    { intros x Hx. transitivity ((D - X) + (S3 nocc nocc nvir (fun i j c => t i j c p * t i j c q) - S3 nocc nocc nvir (fun i j c => t i j c p * t i j q c))).
      - unfold D, X. rewrite <- !S3_sub, <- S3_add. apply S3_ext. intros. rewrite !Hx by auto. ring.
      - rewrite E3, E4. ring. }
    rewrite (Eaa aa Haa), (Eaa bb Hbb). unfold halve, two.
    assert (E1 : S3 nocc nocc nvir (fun m n e => ab m n q e * ab m n p e) = D) by (apply S3_ext; intros; rewrite !Hab by auto; ring).
    assert (E2 : S3 nocc nocc nvir (fun m n e => ab m n e q * ab m n e p) = D).
    { rewrite <- E3. apply S3_ext. intros. rewrite !Hab by auto. ring. }
    rewrite E1, E2. split; field; nz H2.
Qed.

(** For a closed-shell system the unrestricted bath density matrices of both spins are the restricted one, for occupied and virtual bath
    orbitals and for every order of the fragment-DMET projection (both refuse the same orders). *)
Theorem C26_bath_dm_closed_shell : forall nocc nvir o order (p : mat) (t aa ab bb : ten), (two : F) <> 0 ->
  in_range nocc nvir (fun i j a b => t i j a b = t j i b a) ->
  in_range nocc nvir (fun i j a b => aa i j a b = t i j a b - t i j b a) ->
  in_range nocc nvir (fun i j a b => bb i j a b = t i j a b - t i j b a) ->
  in_range nocc nvir (fun i j a b => ab i j a b = t i j a b) ->
  match make_delta_dm1 nocc nvir o order p t, umake_delta_dm1 nocc nvir nocc nvir o order p p (aa, ab, bb) with
  | Some d, Some (da, db) => forall i k, (i < dim o nocc nvir)%nat -> (k < dim o nocc nvir)%nat -> da i k = d i k /\ db i k = d i k
  | None, None => (2 < order)%nat
  | _, _ => False
  end.
Proof.
  intros nocc nvir o order p t aa ab bb H2 Hs Haa Hbb Hab.
  assert (Hh : forall x : F, halve x = x / (1 + 1)) by reflexivity. assert (H2' := H2). unfold two in H2'.
  assert (Hss : forall y : ten, in_range nocc nvir (fun i j a b => sym_t2 y i j a b = sym_t2 y j i b a)).
  { intros y i j a b _ _ _ _. unfold sym_t2, exch. rewrite !Hh. f_equal. ring. }
  destruct o, order as [|[|[|order]]]; cbn -[delta_dm1 delta_dm1_a delta_dm1_b]; try lia;
    try (intros i k Hi Hk; apply dm_closed0; auto; fail).
  - intros i0 k0 Hi0 Hk0. apply dm_closed0; auto;
      intros i j a b Hi Hj Ha Hb; unfold sym_t2, exch, proj_v1, proj_v2; rewrite ?Hh.
    + rewrite (Sum_ext nvir (fun c => p a c * aa i j c b) (fun c => p a c * t i j c b - p a c * t i j b c)) by (intros; rewrite Haa by auto; ring).
      rewrite (Sum_ext nvir (fun c => p b c * aa j i c a) (fun c => p b c * t j i c a - p b c * t j i a c)) by (intros; rewrite Haa by auto; ring).
      rewrite (Sum_ext nvir (fun c => p a c * t j i c b) (fun c => p a c * t i j b c)) by (intros; rewrite (Hs j i) by auto; ring).
      rewrite !Sum_sub.
      rewrite (Sum_ext nvir (fun c => p b c * t j i a c) (fun c => p b c * t i j c a)) by (intros; rewrite (Hs j i) by auto; ring).
      field; nz H2'.
    + rewrite (Sum_ext nvir (fun c => p a c * bb i j c b) (fun c => p a c * t i j c b - p a c * t i j b c)) by (intros; rewrite Hbb by auto; ring).
      rewrite (Sum_ext nvir (fun c => p b c * bb j i c a) (fun c => p b c * t j i c a - p b c * t j i a c)) by (intros; rewrite Hbb by auto; ring).
      rewrite (Sum_ext nvir (fun c => p a c * t j i c b) (fun c => p a c * t i j b c)) by (intros; rewrite (Hs j i) by auto; ring).
      rewrite !Sum_sub.
      rewrite (Sum_ext nvir (fun c => p b c * t j i a c) (fun c => p b c * t i j c a)) by (intros; rewrite (Hs j i) by auto; ring).
      field; nz H2'.
    + f_equal. f_equal; apply Sum_ext; intros; rewrite Hab by auto; auto. rewrite (Hs j i) by auto. auto.
  - intros i0 k0 Hi0 Hk0. apply dm_closed0; auto;
      intros i j a b Hi Hj Ha Hb; unfold sym_t2, exch, proj_v1, proj_v2; rewrite ?Hh.
    all: assert (B : forall (x : ten) i j a b, (i < nocc)%nat -> (j < nocc)%nat -> in_range nocc nvir (fun i j a b => x i j a b = t i j a b - t i j b a) ->
        Sum nvir (fun c => p a c * Sum nvir (fun c0 => p b c0 * x i j c c0))
        = Sum nvir (fun c => p a c * Sum nvir (fun c0 => p b c0 * t i j c c0)) - Sum nvir (fun c => p b c * Sum nvir (fun c0 => p a c0 * t i j c c0)))
      by (intros x i1 j1 a1 b1 Hi1 Hj1 Hx;
          rewrite (Sum_ext nvir (fun c => p b1 c * Sum nvir (fun c0 => p a1 c0 * t i1 j1 c c0)) (fun c => Sum nvir (fun c0 => p b1 c * p a1 c0 * t i1 j1 c c0))) by (intros; rewrite <- Sum_mul_l; apply Sum_ext; intros; ring);
          rewrite (Sum_swap nvir nvir (fun c c0 => p b1 c * p a1 c0 * t i1 j1 c c0)), <- Sum_sub; apply Sum_ext; intros c Hc;
          rewrite <- !Sum_mul_l, <- Sum_sub; apply Sum_ext; intros d Hd; rewrite Hx by auto; ring).
    + rewrite !(B aa) by auto. field; nz H2'.
    + rewrite !(B bb) by auto. field; nz H2'.
    + f_equal. f_equal.
      * apply Sum_ext; intros; f_equal; apply Sum_ext; intros; now rewrite Hab by auto.
      * apply Sum_ext; intros; f_equal; apply Sum_ext; intros. rewrite Hab by auto. now rewrite (Hs j i) by auto.
  - intros i0 k0 Hi0 Hk0. apply dm_closed0; auto;
      intros i j a b Hi Hj Ha Hb; unfold sym_t2, exch, proj_o1, proj_o2; rewrite ?Hh.
    all: assert (B : forall (x : ten), in_range nocc nvir (fun i j a b => x i j a b = t i j a b - t i j b a) -> forall i j a b, (i < nocc)%nat -> (j < nocc)%nat -> (a < nvir)%nat -> (b < nvir)%nat ->
        Sum nocc (fun k => p i k * x k j a b) = Sum nocc (fun k => p i k * t k j a b) - Sum nocc (fun k => p i k * t k j b a))
      by (intros x Hx i1 j1 a1 b1 Hi1 Hj1 Ha1 Hb1; rewrite <- Sum_sub; apply Sum_ext; intros; rewrite Hx by auto; ring).
    + rewrite !(B aa) by auto. field; nz H2'.
    + rewrite !(B bb) by auto. field; nz H2'.
    + f_equal. f_equal; apply Sum_ext; intros; rewrite Hab by auto; auto. rewrite (Hs i) by auto. auto.
  - intros i0 k0 Hi0 Hk0. apply dm_closed0; auto;
      intros i j a b Hi Hj Ha Hb; unfold sym_t2, exch, proj_o1, proj_o2; rewrite ?Hh.
    all: assert (B : forall (x : ten), in_range nocc nvir (fun i j a b => x i j a b = t i j a b - t i j b a) -> forall i j a b, (i < nocc)%nat -> (j < nocc)%nat -> (a < nvir)%nat -> (b < nvir)%nat ->
        Sum nocc (fun k => p i k * Sum nocc (fun l => p j l * x k l a b)) = Sum nocc (fun k => p i k * Sum nocc (fun l => p j l * t k l a b)) - Sum nocc (fun k => p i k * Sum nocc (fun l => p j l * t k l b a)))
      by (intros x Hx i1 j1 a1 b1 Hi1 Hj1 Ha1 Hb1; rewrite <- Sum_sub; apply Sum_ext; intros k Hk; rewrite <- !Sum_mul_l, <- Sum_sub; apply Sum_ext; intros; rewrite Hx by auto; ring).
    + rewrite !(B aa) by auto. field; nz H2'.
    + rewrite !(B bb) by auto. field; nz H2'.
    + f_equal. f_equal.
      * apply Sum_ext; intros; f_equal; apply Sum_ext; intros; now rewrite Hab by auto.
      * apply Sum_ext; intros; f_equal; apply Sum_ext; intros. rewrite Hab by auto. now rewrite (Hs i1) by auto.
Qed.

(** The density matrix is symmetric (so the diagonalisation sees all of it), and the occupied and virtual ones have the same trace. *)
Theorem C26_bath_dm_symmetric : forall nocc nvir o (t : ten) p q,
  in_range nocc nvir (fun i j a b => t i j a b = t j i b a) -> (p < dim o nocc nvir)%nat -> (q < dim o nocc nvir)%nat ->
  delta_dm1 nocc nvir o t p q = delta_dm1 nocc nvir o t q p.
Proof.
  intros nocc nvir o t p q Hs Hp Hq. destruct o; cbn [dim] in *; unfold delta_dm1; f_equal.
  - f_equal. repeat (apply Sum_ext; intros ? ?). ring.
  - apply Sum_ext. intros k _. rewrite Sum_swap. repeat (apply Sum_ext; intros ? ?). ring.
  - f_equal. repeat (apply Sum_ext; intros ? ?). ring.
  - rewrite Sum_swap. repeat (apply Sum_ext; intros ? ?). rewrite (Hs i0 i p), (Hs i0 i i1) by auto. ring.
Qed.
Theorem C26_bath_dm_trace : forall nocc nvir (t : ten),
  Sum nocc (fun i => delta_dm1 nocc nvir Occupied t i i) = Sum nvir (fun a => delta_dm1 nocc nvir Virtual t a a).
Proof.
  intros. unfold delta_dm1. rewrite !Sum_sub, !Sum_mul_l. f_equal; [f_equal|].
  all: rewrite (Sum_swap nvir nocc); apply Sum_ext; intros i _; rewrite (Sum_swap nvir nocc); apply Sum_ext; intros j _; auto.
Qed.
(** The density matrix is positive: for every vector, v^T D v lies in every cone that contains the squares and is closed under addition and
    halving; over an ordered field it is not negative. *)
Theorem C26_bath_dm_positive : forall nocc nvir o (t : ten) (v : vec) (pos : F -> Prop),
  (two : F) <> 0 -> in_range nocc nvir (fun i j a b => t i j a b = t j i b a) ->
  pos 0 -> (forall x y, pos x -> pos y -> pos (x + y)) -> (forall x, pos (x * x)) -> (forall x, pos x -> pos (x / two)) ->
  pos (Sum (dim o nocc nvir) (fun p => Sum (dim o nocc nvir) (fun q => v p * delta_dm1 nocc nvir o t p q * v q))).
Proof.
  intros nocc nvir o t v pos H2 Hs P0 Padd Psq Phalf.
  assert (PS : forall n f, (forall i, (i < n)%nat -> pos (f i)) -> pos (Sum n f)).
  { induction n as [|n IH]; intros f Hf; [exact P0|]. change (pos (Sum n f + f n)). apply Padd; [apply IH; intros; apply Hf; lia|apply Hf; lia]. }
  assert (P3 : forall n v1 v2 f, (forall i j k, pos (f i j k)) -> pos (S3 n v1 v2 f)).
  { intros. unfold S3. apply PS. intros. apply PS. intros. apply PS. auto. }
  assert (Gen : forall d n1 n2 n3 (x y : nat -> nat -> nat -> nat -> F),
     (Sum d (fun p => Sum d (fun q => v p * (two * S3 n1 n2 n3 (fun i j k => x p i j k * x q i j k) - S3 n1 n2 n3 (fun i j k => x p i j k * y q i j k)) * v q)))
     = two * S3 n1 n2 n3 (fun i j k => Sum d (fun p => v p * x p i j k) * Sum d (fun p => v p * x p i j k))
       - S3 n1 n2 n3 (fun i j k => Sum d (fun p => v p * x p i j k) * Sum d (fun q => v q * y q i j k))).
  { intros d n1 n2 n3 x y.
    assert (G1 : forall z : nat -> nat -> nat -> nat -> F, S3 n1 n2 n3 (fun i j k => Sum d (fun p => v p * x p i j k) * Sum d (fun q => v q * z q i j k))
        = Sum d (fun p => Sum d (fun q => v p * v q * S3 n1 n2 n3 (fun i j k => x p i j k * z q i j k)))).
    { intros z. rewrite (S3_ext _ _ _ _ (fun i j k => Sum d (fun p => Sum d (fun q => v p * v q * (x p i j k * z q i j k))))).
      - rewrite S3_Sum. apply Sum_ext. intros. rewrite S3_Sum. apply Sum_ext. intros. now rewrite S3_mul.
      - intros. rewrite Sum_mul_Sum. apply Sum_ext. intros. apply Sum_ext. intros. ring. }
    rewrite !G1. rewrite <- Sum_mul_l, <- Sum_sub. apply Sum_ext. intros. rewrite <- Sum_mul_l, <- Sum_sub. apply Sum_ext. intros. ring. }
  assert (Fin : forall n1 n2 n3 (s u : nat -> nat -> nat -> F), S3 n1 n2 n3 (fun i j k => u i j k * u i j k) = S3 n1 n2 n3 (fun i j k => s i j k * s i j k) ->
     pos (two * S3 n1 n2 n3 (fun i j k => s i j k * s i j k) - S3 n1 n2 n3 (fun i j k => s i j k * u i j k))).
  { intros n1 n2 n3 s u E.
    replace (two * S3 n1 n2 n3 (fun i j k => s i j k * s i j k) - S3 n1 n2 n3 (fun i j k => s i j k * u i j k))
      with (S3 n1 n2 n3 (fun i j k => s i j k * s i j k) + S3 n1 n2 n3 (fun i j k => (s i j k - u i j k) * (s i j k - u i j k)) / two).
    - apply Padd; [|apply Phalf]; apply P3; auto.
    - replace (S3 n1 n2 n3 (fun i j k => (s i j k - u i j k) * (s i j k - u i j k)))
        with (S3 n1 n2 n3 (fun i j k => s i j k * s i j k) - two * S3 n1 n2 n3 (fun i j k => s i j k * u i j k) + S3 n1 n2 n3 (fun i j k => u i j k * u i j k)).
      + rewrite E. unfold two in *. field; nz H2.
      + rewrite <- S3_mul, <- S3_sub, <- S3_add. apply S3_ext. intros. unfold two. ring. }
  destruct o; cbn [dim].
  - unfold delta_dm1.
    pose proof (Gen nocc nocc nvir nvir t (fun q k a b => t q k b a)) as G. unfold S3 in G at 1 2. cbv beta in G. rewrite G. apply Fin.
    rewrite (S3_swap23 nocc nvir (fun i j k => Sum nocc (fun q => v q * t q i j k) * Sum nocc (fun q => v q * t q i j k))). reflexivity.
  - unfold delta_dm1.
    pose proof (Gen nvir nocc nocc nvir (fun p i j c => t i j p c) (fun q i j c => t i j c q)) as G. unfold S3 in G at 1 2. cbv beta in G. rewrite G. apply Fin.
    rewrite <- (S3_swap12 nocc nvir (fun i j k => Sum nvir (fun q => v q * t i j q k) * Sum nvir (fun q => v q * t i j q k))).
    apply S3_ext. intros i j c Hi Hj Hc. f_equal; apply Sum_ext; intros; rewrite (Hs i j) by auto; reflexivity.
Qed.
End Thms.

(** Over the rationals: no vector has negative occupation. *)
Corollary C26_bath_dm_nonneg : forall nocc nvir o (t : nat -> nat -> nat -> nat -> QF) (v : nat -> QF),
  in_range nocc nvir (fun i j a b => t i j a b = t j i b a) ->
  Qcle 0 (Sum (K := QF) (dim o nocc nvir) (fun p => Sum (K := QF) (dim o nocc nvir) (fun q => (v p * delta_dm1 nocc nvir o t p q * v q)%Qc)) : Qc).
Proof.
  intros. apply (C26_bath_dm_positive QF nocc nvir o t v (fun x => Qcle 0 x)); auto.
  - intros E. apply (f_equal this) in E. vm_compute in E. discriminate.
  - apply Qcle_refl.
  - intros x y Hx Hy. replace (0 : Qc)%Qc with (0 + 0 : Qc)%Qc by ring. now apply Qcplus_le_compat.
  - intros x. destruct (Qclt_le_dec x 0) as [Hx|Hx].
    + replace (@rmul QF x x) with (Qcmult (- x) (- x))%Qc by (cbn; ring).
      replace (0 : Qc)%Qc with (0 * (- x) : Qc)%Qc by ring. apply Qcmult_le_compat_r; [|];
      replace (0 : Qc)%Qc with (- 0 : Qc)%Qc by ring; apply Qcopp_le_compat; now apply Qclt_le_weak.
    + replace (0 : Qc)%Qc with (0 * x : Qc)%Qc by ring. now apply Qcmult_le_compat_r.
  - intros x Hx. replace (@fdiv QF x two) with (Qcmult x (Q2Qc (1 # 2))).
    + replace (0 : Qc)%Qc with (0 * Q2Qc (1 # 2) : Qc)%Qc by ring. apply Qcmult_le_compat_r; auto.
      intros E. vm_compute in E. discriminate.
    + change (@fdiv QF x two) with (Qcmult x (Qcinv (1 + 1)%Qc)). f_equal.
Qed.

(** ** Cases *)
Section Cases.
Definition q (n : Z) (d : positive) : QF := Q2Qc (n # d).
(** Two occupied and one virtual orbital at energies -2, -1 and 1; one auxiliary function *)
Definition ex_e (p : nat) : QF := match p with O => q (-2) 1 | 1%nat => q (-1) 1 | _ => q 1 1 end.
Definition ex_g : integrals QF := Cderi 1 (fun _ i _ => match i with O => q 1 1 | _ => q 2 1 end) None.
(** Occupied-fragment overlaps of one fragment orbital, and of its complement *)
Definition ex_r (i x : nat) : QF := match i with O => q 3 5 | _ => q 4 5 end.
Definition ex_s (i x : nat) : QF := match i with O => q (-4) 5 | _ => q 3 5 end.

Ltac qneq := let E := fresh in intros E; apply (f_equal this) in E; vm_compute in E; discriminate.
(** The energy of one fragment depends on the block size: with one occupied orbital per block the terms between blocks are lost. *)
Theorem C26_energy_block_size_refuted :
  ecorr 2 1 1 ex_e ex_r ex_g (slices 2 1) <> ecorr 2 1 1 ex_e ex_r ex_g (slices 2 2).
Proof. qneq. Qed.
(** Also when the block size follows from the memory limit. *)
Theorem C26_energy_memory_refuted : exists mem mem', (0 < mem)%Z /\ (0 < mem')%Z /\
  ecorr 2 1 1 ex_e ex_r ex_g (slices 2 (block_size 2 1 mem None)) <> ecorr 2 1 1 ex_e ex_r ex_g (slices 2 (block_size 2 1 mem' None)).
Proof. exists 16%Z, 32%Z. split; [reflexivity|]. split; [reflexivity|]. qneq. Qed.
(** With several blocks, the unrestricted energy of a closed-shell system is not the restricted one: the part projected in the beta space is
    not cut into blocks. *)
Theorem C26_closed_shell_blocks_refuted :
  uecorr 2 1 2 1 1 1 ex_e ex_e ex_r ex_r ex_g (Cderi_ab 1 (fun _ i _ => match i with O => q 1 1 | _ => q 2 1 end) (fun _ i _ => match i with O => q 1 1 | _ => q 2 1 end) None) ex_g (slices 2 1) (slices 2 1)
  <> ecorr 2 1 1 ex_e ex_r ex_g (slices 2 1).
Proof. qneq. Qed.

(** The two fragments of the example satisfy the hypothesis of [C26_energy_sum]. *)
Example ex_complete : forall i k, (i < 2)%nat -> (k < 2)%nat ->
  Lsum [ex_r; ex_s] (fun r => Sum 1 (fun x => @rmul QF (r i x) (r k x))) = delta i k.
Proof.
  intros [|[|i]] [|[|k]] Hi Hk; try lia; apply Qc_is_canon; vm_compute; reflexivity.
Qed.
Example ex_sum_one : Lsum [ex_r; ex_s] (fun r => ecorr 2 1 1 ex_e r ex_g (slices 2 1)) = q (-173) 30.
Proof. apply Qc_is_canon. vm_compute. reflexivity. Qed.
Example ex_sum_two : Lsum [ex_r; ex_s] (fun r => ecorr 2 1 1 ex_e r ex_g (slices 2 2)) = q (-173) 30.
Proof. apply Qc_is_canon. vm_compute. reflexivity. Qed.
Example ex_amp : make_t2 2 ex_e ex_g (slices 2 0) (fun _ _ _ _ => q 77 1) 1 0 0 0 = q (-2) 5.
Proof. apply Qc_is_canon. vm_compute. reflexivity. Qed.
(** One auxiliary function of each sign: (ia|jb) = 4 - 1 = 3 *)
Example ex_negative : make_t2 1 ex_e (Cderi 1 (fun _ _ _ => q 2 1) (Some (1%nat, fun _ _ _ => q 1 1))) (slices 1 1) (fun _ _ _ _ => q 77 1) 0 0 0 0 = q (-3) 2
  /\ ecorr 1 1 1 ex_e (fun _ _ => q 1 1) (Cderi 1 (fun _ _ _ => q 2 1) (Some (1%nat, fun _ _ _ => q 1 1))) (slices 1 1) = q (-9) 2.
Proof. split; apply Qc_is_canon; vm_compute; reflexivity. Qed.
Example ex_slices : slices 5 2 = [(0, 2); (2, 4); (4, 5)]%nat /\ slices 3 (-4) = [(0, 1); (1, 2); (2, 3)]%nat.
Proof. split; reflexivity. Qed.
(** Amplitudes with the exchange symmetry, not symmetric in the virtual indices alone *)
Definition ex_t (i j a b : nat) : QF := q (Z.of_nat ((1 + i + 2 * a) * (1 + j + 2 * b) + i * a + j * b)) 1.
Example ex_t_exch : in_range 2 2 (fun i j a b => ex_t i j a b = ex_t j i b a).
Proof. intros [|[|i]] [|[|j]] [|[|a]] [|[|b]] ? ? ? ?; try lia; apply Qc_is_canon; vm_compute; reflexivity. Qed.
Definition ex_p (i j : nat) : QF := q (Z.of_nat (1 + i + j)) 1.
Example ex_dm_closed : option_map (fun d => (d 0%nat 1%nat, d 1%nat 1%nat)) (make_delta_dm1 2 2 Virtual 1 ex_p ex_t) = Some (q 7060 1, q 15947 1).
Proof. vm_compute. reflexivity. Qed.
End Cases.

Print Assumptions C26_amplitudes.
Print Assumptions C26_block_size_irrelevant.
Print Assumptions C26_uamplitudes.
Print Assumptions C26_density_fitting.
Print Assumptions C26_density_fitting_unrestricted.
Print Assumptions C26_antisymmetric.
Print Assumptions C26_energy_one_block.
Print Assumptions C26_energy_sum.
Print Assumptions C26_uenergy_sum.
Print Assumptions C26_closed_shell_energy.
Print Assumptions C26_bath_dm_closed_shell.
Print Assumptions C26_bath_dm_symmetric.
Print Assumptions C26_bath_dm_trace.
Print Assumptions C26_bath_dm_positive.
Print Assumptions C26_bath_dm_nonneg.
Print Assumptions C26_energy_block_size_refuted.
Print Assumptions C26_energy_memory_refuted.
Print Assumptions C26_closed_shell_blocks_refuted.
