(** C76: the orbitals of the fragmentations.  Theorems about M_FragBasis. *)
From Coq Require Import List Arith Lia Bool Ring Setoid Morphisms.
From Verif Require Import Alg Ord M_ExtCorr Mat M_SsRpa P_TtoC P_SsRpa P_BosBath M_Sign P_Sign M_FragBasis.
Import ListNotations.
Local Open Scope list_scope.

Section T.
Context (K : oring).
Add Ring Kr : (rth K).
Notation vec := (nat -> K).
Notation mt := (nat -> nat -> K).
Open Scope K_scope.

Lemma Lsum_nth (l : list nat) (f : vec) : Lsum l f = Sum (length l) (fun j => f (nth j l 0%nat)).
Proof.
  induction l as [|x l IH]; [reflexivity|]. cbn [length Lsum]. rewrite IH, Sum_shift. cbn [nth]. ring.
Qed.
Lemma Lsum_filter (p : nat -> bool) n (f : vec) : Lsum (filter p (seq 0 n)) f = Sum n (fun k => if p k then f k else 0).
Proof.
  rewrite <- (Lsum_seq n). induction (seq 0 n) as [|x l IH]; [reflexivity|]. cbn [filter Lsum]. destruct (p x); cbn [Lsum]; rewrite IH; ring.
Qed.
Lemma Sum_ones l : Sum l (fun _ => 1) = (nK l : K). Proof. induction l; cbn; [reflexivity|]. rewrite IHl. reflexivity. Qed.
Lemma count_sum (p : nat -> bool) n : (nK (length (filter p (seq 0 n))) : K) = Sum n (fun k => if p k then 1 else 0).
Proof. rewrite <- (Lsum_filter p n (fun _ => 1)), Lsum_nth, Sum_ones. reflexivity. Qed.
Lemma lt01 : (1 : K) <> 0 -> lt (0 : K) 1.
Proof.
  intros H. destruct (le_lt_eq 0 (1 * 1 : K)) as [G _]. destruct (G (le_0_sqr K 1)) as [E|E]; replace (1 * 1 : K) with (1 : K) in E by ring; [exact E|congruence].
Qed.
Lemma nK_nonneg n : le (0 : K) (nK n). Proof. rewrite <- Sum_ones. apply le_0_Sum. intros. replace (1 : K) with (1 * 1 : K) by ring. apply le_0_sqr. Qed.
Lemma nK_inj : (1 : K) <> 0 -> forall a b, (nK a : K) = nK b -> a = b.
Proof.
  intros N. assert (P : forall a d, (nK a : K) = nK (a + S d) -> False).
  { intros a d E. rewrite nK_add in E. assert (Z : (nK (S d) : K) = 0) by (transitivity (nK a + nK (S d) - (nK a : K)); [ring|rewrite <- E; ring]). cbn [nK] in Z.
    assert (L : lt (nK d : K) (nK d + 1)). { pose proof (lt_add 0 1 (nK d) (lt01 N)) as G. replace (0 + nK d) with (nK d : K) in G by ring. replace (1 + nK d) with (nK d + 1 : K) in G by ring. exact G. }
    rewrite Z in L. apply lt_nle in L. apply L, nK_nonneg. }
  intros a b E. destruct (Nat.lt_trichotomy a b) as [H|[H|H]]; [|exact H|]; exfalso.
  - apply (P a (b - a - 1)%nat). replace (a + S (b - a - 1))%nat with b by lia. exact E.
  - apply (P b (a - b - 1)%nat). replace (b + S (a - b - 1))%nat with a by lia. symmetry. exact E.
Qed.
Lemma nodup_filter (p : nat -> bool) n : NoDup (filter p (seq 0 n)). Proof. apply NoDup_filter, seq_NoDup. Qed.
Lemma nth_filter (p : nat -> bool) n j : (j < length (filter p (seq 0 n)))%nat -> (nth j (filter p (seq 0 n)) 0 < n)%nat /\ p (nth j (filter p (seq 0 n)) 0%nat) = true.
Proof. intros H. pose proof (nth_In _ 0%nat H) as I. apply filter_In in I. destruct I as [I P]. apply in_seq in I. split; [lia|exact P]. Qed.
Lemma delta_nth (l : list nat) i j : NoDup l -> (i < length l)%nat -> (j < length l)%nat -> delta (nth i l 0%nat) (nth j l 0%nat) = (delta i j : K).
Proof.
  intros H Hi Hj. unfold delta. destruct (Nat.eqb_spec i j) as [->|N]; [rewrite Nat.eqb_refl; reflexivity|].
  destruct (Nat.eqb_spec (nth i l 0%nat) (nth j l 0%nat)) as [E|_]; [|reflexivity]. exfalso. apply N. apply (proj1 (NoDup_nth l 0%nat) H); assumption.
Qed.
Lemma sgn_sq rows (c : mt) j : sgn K rows c j * sgn K rows c j = 1. Proof. unfold sgn. destruct (swap c rows j); ring. Qed.

Variables (eigh : nat -> mt -> vec * mt) (isq : K -> K) (close : mt -> mt -> bool) (tol half : K) (nao : nat) (S : mt).
Notation sorth := (symmetric_orth K eigh isq tol nao S).
Notation orth := (orth K eigh isq tol nao S).

(** Overlaps of two sets of orbitals. *)
Definition gr (c d : mt) : mt := fun i j => Sum nao (fun x => Sum nao (fun y => c x i * S x y * d y j)).
Lemma gr_mm c d i j : mm nao (tr c) (mm nao S d) i j = gr c d i j.
Proof. unfold mm, tr, gr. apply Sum_ext. intros. rewrite <- Sum_mul_l. apply Sum_ext. intros; ring. Qed.
Lemma gr_r k c d y i j : gr c (mm k d y) i j = mm k (gr c d) y i j.
Proof.
  unfold gr, mm. transitivity (Sum nao (fun x => Sum k (fun l => Sum nao (fun z => c x i * S x z * d z l) * y l j))).
  - apply Sum_ext. intros x _. rewrite (Sum_ext nao _ (fun z => Sum k (fun l => c x i * S x z * d z l * y l j))) by (intros; rewrite <- Sum_mul_l; apply Sum_ext; intros; ring).
    rewrite Sum_swap. apply Sum_ext. intros. apply Sum_mul_r.
  - rewrite Sum_swap. apply Sum_ext. intros. apply Sum_mul_r.
Qed.
Lemma gr_l k c d y i j : gr (mm k c y) d i j = mm k (tr y) (gr c d) i j.
Proof.
  unfold gr, mm, tr. transitivity (Sum nao (fun x => Sum k (fun l => y l i * Sum nao (fun z => c x l * S x z * d z j)))).
  - apply Sum_ext. intros x _. rewrite (Sum_ext nao _ (fun z => Sum k (fun l => y l i * (c x l * S x z * d z j)))) by (intros; rewrite <- !Sum_mul_r; apply Sum_ext; intros; ring).
    rewrite Sum_swap. apply Sum_ext. intros. apply Sum_mul_l.
  - rewrite Sum_swap. apply Sum_ext. intros. apply Sum_mul_l.
Qed.
Lemma gr_ext c c' d d' i j : (forall x, (x < nao)%nat -> c x i = c' x i) -> (forall x, (x < nao)%nat -> d x j = d' x j) -> gr c d i j = gr c' d' i j.
Proof. intros H G. unfold gr. apply Sum_ext. intros x Hx. apply Sum_ext. intros y Hy. rewrite H, G by assumption. reflexivity. Qed.
Lemma gr_sc c d (s t : vec) i j : gr (fun x k => c x k * s k) (fun x k => d x k * t k) i j = s i * gr c d i j * t j.
Proof. unfold gr. rewrite <- Sum_mul_l, <- Sum_mul_r. apply Sum_ext. intros. rewrite <- Sum_mul_l, <- Sum_mul_r. apply Sum_ext. intros; ring. Qed.
Lemma gr_sym : meq nao nao S (tr S) -> forall c d i j, gr c d i j = gr d c j i.
Proof. intros H c d i j. unfold gr. rewrite Sum_swap. apply Sum_ext. intros y Hy. apply Sum_ext. intros x Hx. rewrite (H x y Hx Hy). unfold tr. ring. Qed.

(** ** Orthogonalisation *)
Notation met c := (mm nao (tr c) (mm nao S c)).
(** The contract of the diagonaliser and of the inverse root, at the overlaps of [n] orbitals. *)
Definition contract (n : nat) (c : mt) : Prop := eig_ok n (met c) (eigh n (met c)) /\
  forall k, (k < n)%nat -> le tol (fst (eigh n (met c)) k) -> isq (fst (eigh n (met c)) k) * isq (fst (eigh n (met c)) k) * fst (eigh n (met c)) k = 1.
Definition all_kept (n : nat) (c : mt) : Prop := forall k, (k < n)%nat -> le tol (fst (eigh n (met c)) k).
Definition kept (n : nat) (c : mt) : nat := length (filter (fun k => leb tol (fst (eigh n (met c)) k)) (seq 0 n)).

Definition keep (n : nat) (c : mt) (k : nat) : K := if leb tol (fst (eigh n (met c)) k) then 1 else 0.
Definition gk (n : nat) (c : mt) (k : nat) : K := keep n c k * isq (fst (eigh n (met c)) k).
Definition X (n : nat) (c : mt) : mt := fun i j => Sum n (fun k => snd (eigh n (met c)) i k * gk n c k * snd (eigh n (met c)) j k).
Definition sg (n : nat) (c : mt) : vec := sgn K n (let '(e, v) := eigh n (met c) in fun i j => Lsum (filter (fun k => leb tol (e k)) (seq 0 n)) (fun k => v i k * isq (e k) * v j k)).
Lemma sorth_at n c i j : sorth n c i j = X n c i j * sg n c j.
Proof.
  unfold symmetric_orth, X, sg, gk, keep. destruct (eigh n (met c)) as [e v]. cbn [fst snd]. f_equal. rewrite Lsum_filter. apply Sum_ext. intros k _. destruct (leb tol (e k)); ring.
Qed.
Lemma gram_orth n c i j : contract n c -> (i < n)%nat -> (j < n)%nat -> gr (orth n c) (orth n c) i j =
  sg n c i * Sum n (fun k => snd (eigh n (met c)) i k * keep n c k * snd (eigh n (met c)) j k) * sg n c j.
Proof.
  intros [[H1 [H2 _]] HR] Hi Hj. unfold M_FragBasis.orth.
  rewrite (gr_ext _ (fun x k => mm n c (X n c) x k * sg n c k) _ (fun x k => mm n c (X n c) x k * sg n c k)).
  2,3: intros x _; unfold mm; rewrite <- Sum_mul_r; apply Sum_ext; intros; rewrite sorth_at; ring.
  rewrite gr_sc. f_equal. f_equal. set (v := snd (eigh n (met c))) in *. set (e := fst (eigh n (met c))) in *.
  rewrite gr_l. unfold mm at 1, tr.
  assert (A : forall a, (a < n)%nat -> gr c (mm n c (X n c)) a j = Sum n (fun k => v a k * e k * gk n c k * v j k)).
  { intros a Ha. rewrite gr_r. unfold mm, X. fold v.
    transitivity (Sum n (fun k => Sum n (fun l => gr c c a l * v l k) * (gk n c k * v j k))).
    - rewrite (Sum_ext n _ (fun l => Sum n (fun k => gr c c a l * v l k * (gk n c k * v j k)))) by (intros; rewrite <- Sum_mul_l; apply Sum_ext; intros; ring).
      rewrite Sum_swap. apply Sum_ext. intros. apply Sum_mul_r.
    - apply Sum_ext. intros k Hk. pose proof (H1 a k Ha Hk) as E. fold v e in E. rewrite (mm_dgr n n e v a k Ha Hk) in E. unfold mm at 1 in E.
      rewrite (Sum_ext n (fun l => gr c c a l * v l k) (fun l => met c a l * v l k)) by (intros; rewrite gr_mm; reflexivity). rewrite E. ring. }
  rewrite (Sum_ext n _ (fun a => Sum n (fun l => Sum n (fun k => (v a l * v a k) * (gk n c l * v i l * (e k * gk n c k * v j k)))))).
  2:{ intros a Ha. rewrite (A a Ha). unfold X. fold v. rewrite Sum_mul_Sum. apply Sum_ext. intros. apply Sum_ext. intros; ring. }
  rewrite Sum_swap. transitivity (Sum n (fun l => Sum n (fun k => delta l k * (gk n c l * v i l * (e k * gk n c k * v j k))))).
  - apply Sum_ext. intros l Hl. rewrite Sum_swap. apply Sum_ext. intros k Hk. rewrite Sum_mul_r. f_equal. pose proof (H2 l k Hl Hk) as E. unfold mm, tr, M_ExtCorr.tr, idm in E. exact E.
  - apply Sum_ext. intros l Hl. rewrite Sum_delta_l by exact Hl. unfold gk. specialize (HR l Hl). fold e in HR. unfold keep. fold e.
    destruct (leb tol (e l)) eqn:El; [|ring]. specialize (HR El). transitivity (v i l * (isq (e l) * isq (e l) * e l) * v j l); [ring|rewrite HR; ring].
Qed.

(** If no eigenvalue of the overlaps is below the threshold the orbitals are orthonormal afterwards. *)
Theorem C76_orthonormal n c : contract n c -> all_kept n c -> meq n n (met (orth n c)) idm.
Proof.
  intros H HA i j Hi Hj. rewrite gr_mm, gram_orth by assumption. destruct H as [[_ [_ H3]] _].
  rewrite (Sum_ext n _ (fun k => snd (eigh n (met c)) i k * snd (eigh n (met c)) j k)).
  2:{ intros k Hk. unfold keep. rewrite (HA k Hk). ring. }
  change (Sum n (fun k => snd (eigh n (met c)) i k * snd (eigh n (met c)) j k)) with (mm n (snd (eigh n (met c))) (M_ExtCorr.tr (snd (eigh n (met c)))) i j). rewrite (H3 i j Hi Hj). unfold idm, delta. destruct (Nat.eqb_spec i j) as [->|_]; [|ring]. transitivity (sg n c j * sg n c j); [ring|apply sgn_sq].
Qed.

(** Nothing is lost: the orbitals before are combinations of those afterwards. *)
Theorem C76_span n c : contract n c -> all_kept n c -> exists y : mt, forall x j, (j < n)%nat -> c x j = Sum n (fun k => orth n c x k * y k j).
Proof.
  intros [[_ [H2 H3]] HR] HA. set (v := snd (eigh n (met c))) in *. set (e := fst (eigh n (met c))) in *.
  exists (fun l j => sg n c l * Sum n (fun k => v l k * (isq (e k) * e k) * v j k)). intros x j Hj. unfold M_FragBasis.orth, mm.
  transitivity (Sum n (fun a => c x a * delta a j)); [symmetry; apply Sum_delta_r; exact Hj|].
  transitivity (Sum n (fun a => c x a * Sum n (fun k => sorth n c a k * (sg n c k * Sum n (fun l => v k l * (isq (e l) * e l) * v j l))))).
  2:{ rewrite (Sum_ext n _ (fun a => Sum n (fun k => c x a * sorth n c a k * (sg n c k * Sum n (fun l => v k l * (isq (e l) * e l) * v j l))))) by (intros; rewrite <- Sum_mul_l; apply Sum_ext; intros; ring).
      rewrite Sum_swap. apply Sum_ext. intros. rewrite Sum_mul_r. reflexivity. }
  apply Sum_ext. intros a Ha. f_equal.
  rewrite (Sum_ext n _ (fun k => Sum n (fun m => Sum n (fun l => v k m * v k l * (v a m * gk n c m * ((isq (e l) * e l) * v j l)))))).
  2:{ intros k Hk. rewrite sorth_at. unfold X. fold v. transitivity (sg n c k * sg n c k * (Sum n (fun m => v a m * gk n c m * v k m) * Sum n (fun l => v k l * (isq (e l) * e l) * v j l))); [ring|].
      unfold sg. rewrite sgn_sq, Sum_mul_Sum. transitivity (Sum n (fun m => Sum n (fun l => v a m * gk n c m * v k m * (v k l * (isq (e l) * e l) * v j l)))); [ring|]. apply Sum_ext. intros. apply Sum_ext. intros; ring. }
  rewrite Sum_swap. transitivity (Sum n (fun m => Sum n (fun l => delta m l * (v a m * gk n c m * ((isq (e l) * e l) * v j l))))).
  - rewrite (Sum_ext n _ (fun m => v a m * v j m)).
    + symmetry. exact (H3 a j Ha Hj).
    + intros m Hm. rewrite Sum_delta_l by exact Hm. unfold gk, keep. fold e. replace (leb tol (e m)) with true by (symmetry; exact (HA m Hm)). specialize (HR m Hm (HA m Hm)). fold e in HR.
      transitivity (v a m * (isq (e m) * isq (e m) * e m) * v j m); [ring|rewrite HR; ring].
  - apply Sum_ext. intros m Hm. rewrite Sum_swap. apply Sum_ext. intros l Hl. rewrite Sum_mul_r. f_equal. symmetry. exact (H2 m l Hm Hl).
Qed.

(** What happens otherwise: the number of orbitals stays [n] but their squared norms add up to the number of eigenvalues kept,
    so the orbitals are not orthonormal if an eigenvalue is below the threshold. *)
Theorem C76_norms n c : contract n c -> trace n (met (orth n c)) = nK (kept n c).
Proof.
  intros H. unfold trace, kept. rewrite count_sum. rewrite (Sum_ext n _ (fun i => Sum n (fun k => snd (eigh n (met c)) i k * snd (eigh n (met c)) i k * keep n c k))).
  - rewrite Sum_swap. apply Sum_ext. intros k Hk. rewrite Sum_mul_r. destruct H as [[_ [H2 _]] _]. pose proof (H2 k k Hk Hk) as E. unfold idm, delta in E. rewrite Nat.eqb_refl in E.
    unfold keep. transitivity (1 * (if leb tol (fst (eigh n (met c)) k) then 1 else 0 : K)); [|ring]. f_equal. exact E.
  - intros i Hi. rewrite gr_mm, (gram_orth n c i i H Hi Hi). transitivity (sg n c i * sg n c i * Sum n (fun k => snd (eigh n (met c)) i k * keep n c k * snd (eigh n (met c)) i k)); [ring|].
    unfold sg. rewrite sgn_sq. transitivity (Sum n (fun k => snd (eigh n (met c)) i k * keep n c k * snd (eigh n (met c)) i k)); [ring|]. apply Sum_ext. intros; ring.
Qed.
Lemma filter_len (p : nat -> bool) l : (length (filter p l) <= length l)%nat /\ (length (filter p l) = length l -> forall x, In x l -> p x = true).
Proof.
  induction l as [|a l [I1 I2]]; [split; [reflexivity|intros _ x []]|]. cbn [filter length]. destruct (p a) eqn:E; cbn [length]; split; try lia.
  intros H x [<-|Hx]; [exact E|apply I2; [lia|exact Hx]].
Qed.
Theorem C76_dependent n c k : (1 : K) <> 0 -> contract n c -> (k < n)%nat -> lt (fst (eigh n (met c)) k) tol -> ~ meq n n (met (orth n c)) idm.
Proof.
  intros N H Hk Hlt G. pose proof (C76_norms n c H) as E. unfold trace in E.
  rewrite (Sum_ext n _ (fun _ => 1)) in E by (intros i Hi; rewrite (G i i Hi Hi); unfold idm, delta; rewrite Nat.eqb_refl; reflexivity).
  rewrite Sum_ones in E. apply (nK_inj N) in E. unfold kept in E.
  pose proof (proj2 (filter_len (fun k => leb tol (fst (eigh n (met c)) k)) (seq 0 n))) as F. rewrite seq_length in F. specialize (F (eq_sym E) k). rewrite in_seq in F. specialize (F ltac:(lia)).
  apply lt_nle in Hlt. apply Hlt. exact F.
Qed.

(** The sign of each column: its first entry of largest absolute value is not negative. *)
Theorem C76_sign n c j k : (j < n)%nat -> let x := symmetric_orth K eigh isq tol nao S n c in first_largest K (fun i => x i j) n k -> le 0 (x k j).
Proof.
  intros Hj. unfold symmetric_orth. destruct (eigh n (mm nao (tr c) (mm nao S c))) as [e v]. cbv zeta.
  set (y := fun i l => Lsum (filter (fun k0 => leb tol (e k0)) (seq 0 n)) (fun k0 => v i k0 * isq (e k0) * v l k0)). intros H.
  destruct (C08_total K n n y ltac:(lia)) as (y' & s & E). destruct (C08_signs K n n y y' s E j Hj) as (_ & A & B & _).
  assert (G : forall i, y' i j = y i j * sgn K n y j).
  { destruct n as [|n]; [lia|]. cbn [fix_orbital_sign] in E. injection E as <- _. intros i. unfold sgn. destruct (swap y (Datatypes.S n) j); ring. }
  change (le 0 (y k j * sgn K n y j)). rewrite <- G. apply B. destruct H as (H1 & H2 & H3). split; [exact H1|].
  split; intros i Hi; rewrite !G; [exact (H2 i Hi)|exact (H3 i Hi)].
Qed.
(** ** Orthogonalised atomic orbitals *)
Theorem C76_sao : (close S idm = true -> meq nao nao S idm) -> contract nao idm -> all_kept nao idm ->
  let x := sao K eigh isq close tol nao S in meq nao nao (met x) idm.
Proof.
  intros HC H HA. unfold sao. destruct (close S idm); cbv zeta.
  - intros i j Hi Hj. rewrite (mm_proper nao nao nao (tr idm) (tr idm) (fun _ _ _ _ => eq_refl) (mm nao S idm) S (mm_idr nao nao S) i j Hi Hj).
    transitivity (S i j); [|apply HC; auto]. unfold mm, tr, idm. apply (Sum_delta_l' nao i (fun l => S l j) Hi).
  - intros i j Hi Hj. rewrite gr_mm. rewrite <- (C76_orthonormal nao idm H HA i j Hi Hj), gr_mm.
    apply gr_ext; intros x Hx; unfold M_FragBasis.orth; symmetry; first [exact (mm_idl nao (Datatypes.S i) _ x i Hx (Nat.lt_succ_diag_r i))|exact (mm_idl nao (Datatypes.S j) _ x j Hx (Nat.lt_succ_diag_r j))].
Qed.

(** ** Electrons *)
Lemma gr_subl c d f i j : gr (msub c d) f i j = gr c f i j - gr d f i j.
Proof. unfold gr, msub. rewrite <- Sum_sub. apply Sum_ext. intros. rewrite <- Sum_sub. apply Sum_ext. intros; ring. Qed.
Lemma gr_subr c d f i j : gr f (msub c d) i j = gr f c i j - gr f d i j.
Proof. unfold gr, msub. rewrite <- Sum_sub. apply Sum_ext. intros. rewrite <- Sum_sub. apply Sum_ext. intros; ring. Qed.
Notation dm := (dm K). Notation ne_iao := (ne_iao K nao S). Notation ne_tot := (ne_tot K nao S).
Lemma tot_at nmo mo occ : ne_tot (dm nmo mo occ) = Sum nmo (fun i => occ i * gr mo mo i i).
Proof.
  unfold M_FragBasis.ne_tot, M_FragBasis.dm, gr.
  rewrite (Sum_ext nao _ (fun a => Sum nmo (fun i => Sum nao (fun b => occ i * (mo a i * S a b * mo b i))))).
  - rewrite Sum_swap. apply Sum_ext. intros i _. rewrite <- Sum_mul_l. apply Sum_ext. intros. apply Sum_mul_l.
  - intros a _. rewrite Sum_swap. apply Sum_ext. intros b _. rewrite <- Sum_mul_r. apply Sum_ext. intros; ring.
Qed.
Lemma iao_at n c nmo mo occ : ne_iao n c (dm nmo mo occ) = Sum nmo (fun i => occ i * Sum n (fun k => gr c mo k i * gr mo c i k)).
Proof.
  unfold M_FragBasis.ne_iao, trace. rewrite (Sum_ext n _ (fun k => Sum nmo (fun i => occ i * (gr c mo k i * gr mo c i k)))).
  - rewrite Sum_swap. apply Sum_ext. intros. apply Sum_mul_l.
  - intros k _. rewrite (gr_mm c). rewrite (gr_ext c c _ (mm nmo mo (fun i k => occ i * gr mo c i k))).
    + rewrite gr_r. unfold mm. apply Sum_ext. intros; ring.
    + reflexivity.
    + intros x _. unfold mm at 1, M_FragBasis.dm. rewrite (Sum_ext nao _ (fun b => Sum nmo (fun i => mo x i * occ i * (mo b i * mm nao S c b k)))) by (intros; rewrite <- Sum_mul_r; apply Sum_ext; intros; ring).
      rewrite Sum_swap. unfold mm at 2. apply Sum_ext. intros i _. rewrite Sum_mul_l. rewrite <- gr_mm. unfold mm at 2, tr. ring.
Qed.
(** What the check of the electrons measures: the electrons missing in the space of orthonormal orbitals are the squared
    norms of the parts of the occupied orbitals outside the space, so for occupations that are not negative none is missing
    only if all of them vanish. *)
Theorem C76_electrons n c nmo mo occ : meq nao nao S (tr S) -> meq n n (met c) idm ->
  let r := msub mo (mm n c (gr c mo)) in ne_tot (dm nmo mo occ) - ne_iao n c (dm nmo mo occ) = Sum nmo (fun i => occ i * gr r r i i).
Proof.
  intros HS HO r. rewrite tot_at, iao_at, <- Sum_sub. apply Sum_ext. intros i Hi.
  assert (E : gr r r i i = gr mo mo i i - Sum n (fun k => gr c mo k i * gr mo c i k)); [|rewrite E; ring].
  unfold r. rewrite gr_subl, !gr_subr, !gr_l, !gr_r. unfold mm, tr.
  rewrite (Sum_ext n (fun l => gr c mo l i * gr c (fun i0 j0 => Sum n (fun l0 => c i0 l0 * gr c mo l0 j0)) l i) (fun l => gr c mo l i * gr c mo l i)).
  2:{ intros l Hl. f_equal. change (fun i0 j0 => Sum n (fun l0 => c i0 l0 * gr c mo l0 j0)) with (mm n c (gr c mo)). rewrite gr_r. unfold mm.
      rewrite (Sum_ext n _ (fun k => delta l k * gr c mo k i)) by (intros k Hk; rewrite <- gr_mm, (HO l k Hl Hk); reflexivity). apply (Sum_delta_l n l (fun k => gr c mo k i) Hl). }
  rewrite (Sum_ext n (fun l => gr mo c i l * gr c mo l i) (fun k => gr c mo k i * gr mo c i k)) by (intros; ring). ring.
Qed.
Lemma dec_zero (x : K) : x = 0 \/ x <> 0.
Proof. destruct (ltb_total K x 0) as [H|[H|H]]; [right|left; exact H|right]; intros ->; rewrite ltb_irrefl in H; discriminate. Qed.
(** No electron is missing if the occupied orbitals are combinations of pyscf's orbitals. *)
Theorem C76_all_electrons n c nmo mo occ : meq nao nao S (tr S) -> contract n c -> all_kept n c ->
  (forall i, (i < nmo)%nat -> occ i <> 0 -> exists a : vec, forall x, (x < nao)%nat -> mo x i = Sum n (fun k => c x k * a k)) ->
  ne_iao n (orth n c) (dm nmo mo occ) = ne_tot (dm nmo mo occ).
Proof.
  intros HS H HA HM. pose proof (C76_orthonormal n c H HA) as HO. destruct (C76_span n c H HA) as [y Hy].
  pose proof (C76_electrons n (orth n c) nmo mo occ HS HO) as E. cbv zeta in E. rewrite (Sum_0 nmo) in E.
  - transitivity (ne_tot (dm nmo mo occ) - (ne_tot (dm nmo mo occ) - ne_iao n (orth n c) (dm nmo mo occ))); [ring|rewrite E; ring].
  - intros i Hi. destruct (dec_zero (occ i)) as [->|Z]; [ring|]. destruct (HM i Hi Z) as [a Ha].
    assert (B : forall x, (x < nao)%nat -> mo x i = mm n (orth n c) (fun l _ => Sum n (fun k => y l k * a k)) x i).
    { intros x Hx. rewrite (Ha x Hx). unfold mm. rewrite (Sum_ext n _ (fun k => Sum n (fun l => orth n c x l * (y l k * a k)))) by (intros k Hk; rewrite (Hy x k Hk), <- Sum_mul_r; apply Sum_ext; intros; ring).
      rewrite Sum_swap. apply Sum_ext. intros. apply Sum_mul_l. }
    assert (R : forall x, (x < nao)%nat -> msub mo (mm n (orth n c) (gr (orth n c) mo)) x i = (zm (K := K)) x i).
    { intros x Hx. unfold msub. rewrite (B x Hx). unfold mm, zm. rewrite <- Sum_sub. apply Sum_0. intros l Hl.
      assert (G : gr (orth n c) mo l i = Sum n (fun k => y l k * a k)); [|rewrite G; ring].
      rewrite (gr_ext (orth n c) (orth n c) mo (mm n (orth n c) (fun l _ => Sum n (fun k => y l k * a k))) l i (fun _ _ => eq_refl) B), gr_r. unfold mm at 1.
      rewrite (Sum_ext n _ (fun k => delta l k * Sum n (fun k' => y k k' * a k'))) by (intros k Hk; rewrite <- gr_mm, (HO l k Hl Hk); reflexivity).
      apply (Sum_delta_l n l (fun k => Sum n (fun k' => y k k' * a k')) Hl). }
    rewrite (gr_ext _ zm _ zm i i R R). unfold gr, zm. rewrite (Sum_0 nao); [ring|]. intros. apply Sum_0. intros; ring.
Qed.

(** ** Remaining virtual orbitals *)
Section V.
Variables (n : nat) (c : mt) (nmo : nat) (mo : mt).
Hypothesis (HS : meq nao nao S (tr S)) (HO : meq n n (met c) idm) (HM : meq nmo nmo (met mo) idm).
(** The orbitals lie in the space of the molecular orbitals. *)
Hypothesis (HC : forall x j, (x < nao)%nat -> (j < n)%nat -> c x j = Sum nmo (fun p => mo x p * gr mo c p j)).
Notation cm := (mm nao (tr mo) (mm nao S c)).
Notation pm := (msub idm (mm n cm (tr cm))).
Hypothesis (HE : eig_ok nmo pm (eigh nmo pm)) (Hh : lt 0 half) (H1 : lt half 1).
Notation e := (fst (eigh nmo pm)).
Notation u := (snd (eigh nmo pm)).
Lemma cm_orth i j : (i < n)%nat -> (j < n)%nat -> Sum nmo (fun p => gr mo c p i * gr mo c p j) = delta i j.
Proof using HS HO HC.
  intros Hi Hj. transitivity (gr c (mm nmo mo (gr mo c)) i j).
  - rewrite gr_r. unfold mm. apply Sum_ext. intros p _. rewrite (gr_sym HS mo c p i). reflexivity.
  - rewrite <- (HO i j Hi Hj : _ = delta i j), gr_mm. apply gr_ext; [reflexivity|]. intros x Hx. symmetry. exact (HC x j Hx Hj).
Qed.
Lemma eig_at p k : (p < nmo)%nat -> (k < nmo)%nat -> u p k - Sum n (fun j => gr mo c p j * Sum nmo (fun q => gr mo c q j * u q k)) = e k * u p k.
Proof using HE.
  intros Hp Hk. destruct HE as [A _]. pose proof (A p k Hp Hk) as E. rewrite (mm_dgr nmo nmo e u p k Hp Hk) in E.
  transitivity (Sum nmo (fun q => pm p q * u q k)); [|change (Sum nmo (fun q => pm p q * u q k)) with (mm nmo pm u p k); rewrite E; ring].
  rewrite (Sum_ext nmo _ (fun q => delta p q * u q k - Sum n (fun j => gr mo c p j * (gr mo c q j * u q k)))).
  - rewrite Sum_sub, (Sum_delta_l nmo p (fun q => u q k) Hp). f_equal. rewrite Sum_swap. apply Sum_ext. intros. symmetry. apply Sum_mul_l.
  - intros q Hq. change (pm p q) with (delta p q - Sum n (fun j => cm p j * cm q j)). rewrite (Sum_ext n _ (fun j => gr mo c p j * gr mo c q j)) by (intros; rewrite !gr_mm; reflexivity).
    transitivity (delta p q * u q k - Sum n (fun j => gr mo c p j * gr mo c q j) * u q k); [ring|]. rewrite <- Sum_mul_r. f_equal. apply Sum_ext. intros; ring.
Qed.
Lemma proj_at j k : (j < n)%nat -> (k < nmo)%nat -> e k * Sum nmo (fun q => gr mo c q j * u q k) = 0.
Proof using HS HO HC HE.
  intros Hj Hk. rewrite <- Sum_mul_l.
  rewrite (Sum_ext nmo _ (fun p => gr mo c p j * u p k - Sum n (fun i => gr mo c p j * gr mo c p i * Sum nmo (fun q => gr mo c q i * u q k)))).
  - rewrite Sum_sub, (Sum_swap nmo n). rewrite (Sum_ext n _ (fun i => delta j i * Sum nmo (fun q => gr mo c q i * u q k))).
    + rewrite (Sum_delta_l n j (fun i => Sum nmo (fun q => gr mo c q i * u q k)) Hj). ring.
    + intros i Hi. rewrite Sum_mul_r, (cm_orth j i Hj Hi). reflexivity.
  - intros p Hp. transitivity (gr mo c p j * (e k * u p k)); [ring|]. rewrite <- (eig_at p k Hp Hk).
    transitivity (gr mo c p j * u p k - gr mo c p j * Sum n (fun j0 => gr mo c p j0 * Sum nmo (fun q => gr mo c q j0 * u q k))); [ring|]. f_equal. rewrite <- Sum_mul_l. apply Sum_ext. intros; ring.
Qed.
Lemma unorm k : (k < nmo)%nat -> Sum nmo (fun p => u p k * u p k) = 1.
Proof using HE.
  intros Hk. destruct HE as [_ [B _]]. transitivity (delta k k : K); [exact (B k k Hk Hk)|]. unfold delta. rewrite Nat.eqb_refl. reflexivity.
Qed.
(** Eigenvalues are zero or one. *)
Lemma eig_01 k : (k < nmo)%nat -> e k = 0 \/ e k = 1.
Proof using HS HO HC HE.
  intros Hk. destruct (dec_zero (e k)) as [Z|Z]; [left; exact Z|right].
  assert (P : forall j, (j < n)%nat -> Sum nmo (fun q => gr mo c q j * u q k) = 0).
  { intros j Hj. pose proof (proj_at j k Hj Hk) as E. destruct (dec_zero (Sum nmo (fun q => gr mo c q j * u q k))) as [Y|Y]; [exact Y|]. exfalso.
    assert (Q : e k * Sum nmo (fun q => gr mo c q j * u q k) * (e k * Sum nmo (fun q => gr mo c q j * u q k)) = 0) by (rewrite E; ring).
    set (z := Sum nmo (fun q => gr mo c q j * u q k)) in *. replace (e k * z * (e k * z)) with ((e k * e k) * (z * z)) in Q by ring.
    assert (A : lt 0 (e k * e k)) by (destruct (proj1 (le_lt_eq _ _) (le_0_sqr K (e k))) as [A|A]; [exact A|exfalso; apply Z; apply sq_zero; symmetry; exact A]).
    assert (B : lt 0 (z * z)) by (destruct (proj1 (le_lt_eq _ _) (le_0_sqr K z)) as [B|B]; [exact B|exfalso; apply Y; apply sq_zero; symmetry; exact B]).
    pose proof (ltb_mul K _ _ A B) as M. rewrite Q in M. rewrite ltb_irrefl in M. discriminate. }
  transitivity (e k * Sum nmo (fun p => u p k * u p k)); [rewrite (unorm k Hk); ring|]. rewrite <- (unorm k Hk), <- Sum_mul_l. apply Sum_ext. intros p Hp. transitivity (u p k * (e k * u p k)); [ring|]. rewrite <- (eig_at p k Hp Hk).
  rewrite (Sum_0 n); [ring|]. intros j Hj. rewrite (P j Hj). ring.
Qed.
Lemma half_1 k : (k < nmo)%nat -> (if ltb half (e k) then 1 else 0) = e k.
Proof using HS HO HC HE Hh H1.
  intros Hk. destruct (eig_01 k Hk) as [E|E]; rewrite E.
  - destruct (ltb half 0) eqn:L; [|reflexivity]. exfalso. exact (lt_asym _ _ Hh L).
  - rewrite H1. reflexivity.
Qed.
Notation l := (filter (fun k => ltb half (e k)) (seq 0 nmo)).
Lemma l_one k : (k < nmo)%nat -> ltb half (e k) = true -> e k = 1.
Proof using HS HO HC HE Hh H1. intros Hk Hb. pose proof (half_1 k Hk) as E. rewrite Hb in E. symmetry. exact E. Qed.

(** The right number of orbitals is found, the error is never raised; the orbitals added are orthonormal and orthogonal to
    the given ones, and all of them together span the molecular orbitals. *)
Theorem C76_virtual : (1 : K) <> 0 -> exists m r, virtual K eigh half nao S n c nmo mo = Some (m, r) /\ (m + n)%nat = nmo
  /\ meq m m (met r) idm /\ meq n m (mm nao (tr c) (mm nao S r)) zm
  /\ forall x y, (x < nao)%nat -> (y < nao)%nat -> Sum nmo (fun p => mo x p * mo y p) = Sum n (fun j => c x j * c y j) + Sum m (fun j => r x j * r y j).
Proof using HS HO HM HC HE Hh H1.
  intros N.
  assert (CT : (length l + n)%nat = nmo).
  { apply (nK_inj N). rewrite nK_add, count_sum. rewrite (Sum_ext nmo _ e) by (intros; apply half_1; assumption).
    assert (T : Sum nmo e = nK nmo - nK n); [|rewrite T; ring].
    destruct HE as [_ [B B']].
    transitivity (Sum nmo (fun k => Sum nmo (fun p => u p k * (e k * u p k)))).
    { apply Sum_ext. intros k Hk. transitivity (e k * Sum nmo (fun p => u p k * u p k)); [rewrite (unorm k Hk); ring|]. rewrite <- Sum_mul_l. apply Sum_ext. intros; ring. }
    rewrite (Sum_ext nmo _ (fun k => Sum nmo (fun p => u p k * u p k) - Sum n (fun j => Sum nmo (fun p => gr mo c p j * u p k) * Sum nmo (fun q => gr mo c q j * u q k)))).
    2:{ intros k Hk. rewrite (Sum_ext n _ (fun j => Sum nmo (fun p => gr mo c p j * u p k * Sum nmo (fun q => gr mo c q j * u q k)))) by (intros; symmetry; apply Sum_mul_r).
        rewrite (Sum_swap n nmo), <- Sum_sub. apply Sum_ext. intros p Hp. rewrite <- (eig_at p k Hp Hk). rewrite (Sum_ext n (fun i => gr mo c p i * u p k * _) (fun j => u p k * (gr mo c p j * Sum nmo (fun q => gr mo c q j * u q k)))) by (intros; ring). rewrite Sum_mul_l. ring. }
    rewrite Sum_sub. f_equal.
    - rewrite (Sum_ext nmo _ (fun _ => 1)); [apply Sum_ones|]. intros k Hk. exact (unorm k Hk).
    - f_equal. rewrite Sum_swap, <- (Sum_ones n). apply Sum_ext. intros j Hj.
      transitivity (Sum nmo (fun p => Sum nmo (fun q => gr mo c p j * gr mo c q j * Sum nmo (fun k => u p k * u q k)))).
      + rewrite (Sum_ext nmo _ (fun k => Sum nmo (fun p => Sum nmo (fun q => gr mo c p j * gr mo c q j * (u p k * u q k))))) by (intros; rewrite Sum_mul_Sum; apply Sum_ext; intros; apply Sum_ext; intros; ring).
        rewrite Sum_swap. apply Sum_ext. intros p _. rewrite Sum_swap. apply Sum_ext. intros q _. apply Sum_mul_l.
      + rewrite (Sum_ext nmo _ (fun p => gr mo c p j * gr mo c p j)).
        * rewrite (cm_orth j j Hj Hj). unfold delta. rewrite Nat.eqb_refl. reflexivity.
        * intros p Hp. rewrite (Sum_ext nmo _ (fun q => delta p q * (gr mo c p j * gr mo c q j))).
          -- apply (Sum_delta_l nmo p (fun q => gr mo c p j * gr mo c q j) Hp).
          -- intros q Hq. pose proof (B' p q Hp Hq : Sum nmo (fun k => u p k * u q k) = delta p q) as Z. rewrite Z. ring. }
  set (R := mm nmo mo (at_ K l u)). exists (length l), (fun x j => R x j * sgn K nao R j).
  split; [|split; [exact CT|]].
  { unfold virtual. unfold R. destruct (eigh nmo pm) as [e0 u0] eqn:Ee. cbn [fst snd] in *. rewrite (proj2 (Nat.eqb_eq _ _) CT). reflexivity. }
  assert (NTH : forall j, (j < length l)%nat -> (nth j l 0 < nmo)%nat /\ e (nth j l 0%nat) = 1).
  { intros j Hj. destruct (nth_filter (fun k => ltb half (e k)) nmo j Hj) as [A B]. split; [exact A|apply l_one; assumption]. }
  assert (MR : forall d i j, gr d R i j = Sum nmo (fun p => gr d mo i p * u p (nth j l 0%nat))) by (intros; unfold R; rewrite gr_r; reflexivity).
  split; [|split].
  - intros i j Hi Hj. rewrite gr_mm, gr_sc.
    assert (G : gr R R i j = delta i j).
    { rewrite MR. destruct (NTH i Hi) as [A _], (NTH j Hj) as [B _]. rewrite <- (delta_nth l i j (nodup_filter _ _) Hi Hj). destruct HE as [_ [U _]]. rewrite <- (U _ _ A B : _ = delta _ _).
      unfold mm at 1, M_ExtCorr.tr at 1. apply Sum_ext. intros p Hp. f_equal. rewrite (gr_sym HS R mo i p), MR.
      rewrite (Sum_ext nmo _ (fun q => delta p q * u q (nth i l 0%nat))) by (intros q Hq; rewrite <- gr_mm, (HM p q Hp Hq); reflexivity). apply (Sum_delta_l nmo p (fun q => u q (nth i l 0%nat)) Hp). }
    rewrite G. unfold idm, delta. destruct (Nat.eqb_spec i j) as [->|_]; [|ring]. transitivity (sgn K nao R j * sgn K nao R j); [ring|apply sgn_sq].
  - intros i j Hi Hj. rewrite gr_mm. destruct (NTH j Hj) as [A B].
    transitivity (gr c R i j * sgn K nao R j).
    { unfold gr. rewrite <- Sum_mul_r. apply Sum_ext. intros. rewrite <- Sum_mul_r. apply Sum_ext. intros; ring. }
    rewrite MR. rewrite (Sum_ext nmo _ (fun q => gr mo c q i * u q (nth j l 0%nat))) by (intros; rewrite (gr_sym HS c mo); reflexivity).
    pose proof (proj_at i _ Hi A) as Z. rewrite B in Z. unfold zm. transitivity (1 * Sum nmo (fun q => gr mo c q i * u q (nth j l 0%nat)) * sgn K nao R j); [ring|rewrite Z; ring].
  - intros x y Hx Hy.
    rewrite (Sum_ext (length l) _ (fun j => mm nmo mo u x (nth j l 0%nat) * mm nmo mo u y (nth j l 0%nat))).
    2:{ intros j Hj. transitivity (R x j * R y j * (sgn K nao R j * sgn K nao R j)); [ring|rewrite sgn_sq]. unfold R, mm, at_. ring. }
    rewrite <- (Lsum_nth l (fun k => mm nmo mo u x k * mm nmo mo u y k)), Lsum_filter.
    rewrite (Sum_ext nmo (fun k => if ltb half (e k) then _ else 0) (fun k => mm nmo mo u x k * Sum nmo (fun q => mo y q * (e k * u q k)))).
    2:{ intros k Hk. rewrite (Sum_ext nmo _ (fun q => e k * (mo y q * u q k))) by (intros; ring). rewrite Sum_mul_l. pose proof (half_1 k Hk) as Z. destruct (ltb half (e k)); rewrite <- Z; unfold mm; ring. }
    rewrite (Sum_ext nmo (fun k => mm nmo mo u x k * _) (fun k => mm nmo mo u x k * (mm nmo mo u y k - Sum n (fun j => c y j * Sum nmo (fun q => gr mo c q j * u q k))))).
    2:{ intros k Hk. f_equal. rewrite (Sum_ext nmo _ (fun q => mo y q * u q k - Sum n (fun j => mo y q * gr mo c q j * Sum nmo (fun q' => gr mo c q' j * u q' k)))).
        - rewrite Sum_sub. f_equal. rewrite Sum_swap. apply Sum_ext. intros j Hj. rewrite Sum_mul_r, <- (HC y j Hy Hj). reflexivity.
        - intros q Hq. rewrite <- (eig_at q k Hq Hk). transitivity (mo y q * u q k - mo y q * Sum n (fun j => gr mo c q j * Sum nmo (fun q0 => gr mo c q0 j * u q0 k))); [ring|]. f_equal. rewrite <- Sum_mul_l. apply Sum_ext. intros; ring. }
    destruct HE as [_ [_ U]].
    assert (UU : forall (f g : vec), Sum nmo (fun k => Sum nmo (fun p => f p * u p k) * Sum nmo (fun q => g q * u q k)) = Sum nmo (fun p => f p * g p)).
    { intros f g. rewrite (Sum_ext nmo _ (fun k => Sum nmo (fun p => Sum nmo (fun q => f p * g q * (u p k * u q k))))) by (intros; rewrite Sum_mul_Sum; apply Sum_ext; intros; apply Sum_ext; intros; ring).
      rewrite Sum_swap. apply Sum_ext. intros p Hp. rewrite Sum_swap. rewrite (Sum_ext nmo _ (fun q => delta p q * (f p * g q))).
      - apply (Sum_delta_l nmo p (fun q => f p * g q) Hp).
      - intros q Hq. rewrite Sum_mul_l. pose proof (U p q Hp Hq : Sum nmo (fun k => u p k * u q k) = delta p q) as Z. rewrite Z. ring. }
    rewrite (Sum_ext nmo (fun k => mm nmo mo u x k * _) (fun k => mm nmo mo u x k * mm nmo mo u y k - Sum n (fun j => c y j * (mm nmo mo u x k * Sum nmo (fun q => gr mo c q j * u q k))))).
    2:{ intros k _. transitivity (mm nmo mo u x k * mm nmo mo u y k - mm nmo mo u x k * Sum n (fun j => c y j * Sum nmo (fun q => gr mo c q j * u q k))); [ring|]. f_equal. rewrite <- Sum_mul_l. apply Sum_ext. intros; ring. }
    rewrite Sum_sub, (Sum_swap nmo n). change (Sum nmo (fun k => mm nmo mo u x k * mm nmo mo u y k)) with (Sum nmo (fun k => Sum nmo (fun p => mo x p * u p k) * Sum nmo (fun q => mo y q * u q k))). rewrite (UU (fun p => mo x p) (fun p => mo y p)).
    rewrite (Sum_ext n (fun j => Sum nmo _) (fun j => c y j * c x j)).
    2:{ intros j Hj. transitivity (c y j * Sum nmo (fun k => Sum nmo (fun p => mo x p * u p k) * Sum nmo (fun q => gr mo c q j * u q k))); [rewrite <- Sum_mul_l; reflexivity|]. rewrite (UU (fun p => mo x p) (fun q => gr mo c q j)), <- (HC x j Hx Hj). reflexivity. }
    rewrite (Sum_ext n (fun j => c y j * c x j) (fun j => c x j * c y j)) by (intros; ring). ring.
Qed.
End V.

(** ** Bases put together *)
Lemma hcat_orth n m c d : meq nao nao S (tr S) -> meq n n (met c) idm -> meq m m (met d) idm -> meq n m (mm nao (tr c) (mm nao S d)) zm ->
  meq (n + m) (n + m) (met (hcat K n c d)) idm.
Proof.
  intros HS A B Z i j Hi Hj. rewrite gr_mm. unfold hcat. unfold idm.
  destruct (Nat.ltb_spec i n) as [Ii|Ii], (Nat.ltb_spec j n) as [Ij|Ij].
  - rewrite <- (A i j Ii Ij : _ = delta i j), gr_mm. apply gr_ext; intros x _; [rewrite (proj2 (Nat.ltb_lt i n) Ii)|rewrite (proj2 (Nat.ltb_lt j n) Ij)]; reflexivity.
  - transitivity (gr c d i (j - n)%nat).
    + unfold gr. rewrite (proj2 (Nat.ltb_lt i n) Ii), (proj2 (Nat.ltb_ge j n) Ij). reflexivity.
    + rewrite <- gr_mm, (Z i (j - n)%nat Ii ltac:(lia)). unfold zm, delta. rewrite (proj2 (Nat.eqb_neq i j)) by lia. reflexivity.
  - transitivity (gr d c (i - n)%nat j).
    + unfold gr. rewrite (proj2 (Nat.ltb_ge i n) Ii), (proj2 (Nat.ltb_lt j n) Ij). reflexivity.
    + rewrite (gr_sym HS), <- gr_mm, (Z j (i - n)%nat Ij ltac:(lia)). unfold zm, delta. rewrite (proj2 (Nat.eqb_neq i j)) by lia. reflexivity.
  - transitivity (gr d d (i - n)%nat (j - n)%nat).
    + unfold gr. rewrite (proj2 (Nat.ltb_ge i n) Ii), (proj2 (Nat.ltb_ge j n) Ij). reflexivity.
    + rewrite <- gr_mm, (B (i - n)%nat (j - n)%nat ltac:(lia) ltac:(lia)). unfold idm, delta. destruct (Nat.eqb_spec (i - n) (j - n)), (Nat.eqb_spec i j); try lia; reflexivity.
Qed.

(** Intrinsic atomic orbitals with the remaining virtual orbitals: an orthonormal basis with one orbital per molecular orbital,
    that begins with the intrinsic orbitals and spans the molecular orbitals. *)
Theorem C76_iao n c0 nmo mo b : (1 : K) <> 0 -> meq nao nao S (tr S) -> contract n c0 -> all_kept n c0 -> meq nmo nmo (met mo) idm ->
  (forall x j, (x < nao)%nat -> (j < n)%nat -> c0 x j = Sum nmo (fun p => mo x p * b p j)) ->
  let c := orth n c0 in let cm := mm nao (tr mo) (mm nao S c) in let pm := msub idm (mm n cm (tr cm)) in
  eig_ok nmo pm (eigh nmo pm) -> lt 0 half -> lt half 1 ->
  exists d, iao K eigh isq tol half nao S n c0 nmo mo true = Some (nmo, d) /\ meq nmo nmo (met d) idm
    /\ (forall x j, (j < n)%nat -> d x j = c x j) /\ (forall x y, (x < nao)%nat -> (y < nao)%nat -> Sum nmo (fun p => mo x p * mo y p) = Sum nmo (fun j => d x j * d y j)).
Proof.
  intros N HS H HA HM HB c cm pm HE Hh H1. pose proof (C76_orthonormal n c0 H HA) as HO.
  assert (HC : forall x j, (x < nao)%nat -> (j < n)%nat -> c x j = Sum nmo (fun p => mo x p * gr mo c p j)).
  { assert (E : forall x j, (x < nao)%nat -> (j < n)%nat -> c x j = mm nmo mo (mm n b (sorth n c0)) x j).
    { intros x j Hx Hj. unfold c, M_FragBasis.orth. unfold mm at 1. rewrite (Sum_ext n _ (fun l => Sum nmo (fun p => mo x p * b p l) * sorth n c0 l j)) by (intros l Hl; rewrite (HB x l Hx Hl); reflexivity).
      rewrite (Sum_ext n _ (fun l => Sum nmo (fun p => mo x p * (b p l * sorth n c0 l j)))) by (intros; rewrite <- Sum_mul_r; apply Sum_ext; intros; ring). rewrite Sum_swap. unfold mm. apply Sum_ext. intros. apply Sum_mul_l. }
    intros x j Hx Hj. rewrite (E x j Hx Hj). unfold mm at 1. apply Sum_ext. intros p Hp. f_equal.
    rewrite (gr_ext mo mo c (mm nmo mo (mm n b (sorth n c0))) p j (fun _ _ => eq_refl) (fun y Hy => E y j Hy Hj)), gr_r. unfold mm at 2.
    rewrite (Sum_ext nmo _ (fun k => delta p k * mm n b (sorth n c0) k j)) by (intros k Hk; rewrite <- gr_mm, (HM p k Hp Hk); reflexivity). symmetry. apply (Sum_delta_l nmo p (fun k => mm n b (sorth n c0) k j) Hp). }
  destruct (C76_virtual n c nmo mo HS HO HM HC HE Hh H1 N) as (m & r & Hv & Hm & R1 & R2 & R3).
  exists (hcat K n c r). unfold iao. fold c. rewrite Hv. replace (n + m)%nat with nmo by lia. split; [reflexivity|]. split.
  - replace nmo with (n + m)%nat at 1 2 by lia. apply hcat_orth; assumption.
  - split.
    + intros x j Hj. unfold hcat. rewrite (proj2 (Nat.ltb_lt j n) Hj). reflexivity.
    + intros x y Hx Hy. rewrite (R3 x y Hx Hy). replace nmo with (n + m)%nat by lia. rewrite Sum_split. f_equal; apply Sum_ext; intros j Hj; unfold hcat.
      * rewrite (proj2 (Nat.ltb_lt j n) Hj). reflexivity.
      * rewrite (proj2 (Nat.ltb_ge (n + j) n)) by lia. replace (n + j - n)%nat with j by lia. reflexivity.
Qed.

(** The order: the k-th orbital has the k-th label; different labels give different orbitals. *)
Lemma index_ok x l i : index x l = Some i -> (i < length l)%nat /\ nth i l 0%nat = x.
Proof.
  revert i. induction l as [|y l IH]; intros i H; cbn in H; [discriminate|]. destruct (Nat.eqb_spec x y) as [->|_].
  - injection H as <-. cbn. split; [lia|reflexivity].
  - destruct (index x l) as [k|]; [|discriminate]. injection H as <-. destruct (IH k eq_refl) as [A B]. cbn. split; [lia|exact B].
Qed.
Theorem C76_order labels aol o : order_of labels aol = Some o -> length o = length aol /\ (forall k, (k < length aol)%nat -> (nth k o 0 < length labels)%nat /\ nth (nth k o 0%nat) labels 0%nat = nth k aol 0%nat)
  /\ (NoDup aol -> NoDup o).
Proof.
  intros H.
  assert (G : length o = length aol /\ (forall k, (k < length aol)%nat -> (nth k o 0 < length labels)%nat /\ nth (nth k o 0%nat) labels 0%nat = nth k aol 0%nat)).
  { revert o H. induction aol as [|x r IH]; intros o H; cbn in H; [injection H as <-; split; [reflexivity|cbn; intros; lia]|].
    destruct (index x labels) as [i|] eqn:E; [|discriminate]. destruct (order_of labels r) as [o'|]; [|discriminate]. injection H as <-. destruct (IH o' eq_refl) as [A B]. cbn [length]. split; [lia|].
    intros [|k] Hk; cbn [nth]; [exact (index_ok x labels i E)|apply B; lia]. }
  destruct G as [A B]. split; [exact A|split; [exact B|]]. intros ND. apply (proj2 (NoDup_nth o 0%nat)). intros i j Hi Hj Eij. rewrite A in *.
  apply (proj1 (NoDup_nth aol 0%nat) ND i j Hi Hj). rewrite <- (proj2 (B i Hi)), <- (proj2 (B j Hj)), Eij. reflexivity.
Qed.

(** Projected atomic orbitals: all together are an orthonormal basis, in any order without repetition. *)
Theorem C76_iaopao n c0 nmo ryd order k d : meq nao nao S (tr S) -> contract n c0 -> all_kept n c0 ->
  let c := orth n c0 in let p := mm nao (msub idm (mm n c (mm nao (tr c) S))) (at_ K ryd idm) in
  contract (length ryd) p -> all_kept (length ryd) p ->
  (forall o, order = Some o -> NoDup o /\ forall j, In j o -> (j < nmo)%nat) ->
  iaopao K eigh isq tol nao S n c0 nmo ryd order = Some (k, d) -> meq k k (met d) idm /\ (order = None -> k = nmo) /\ (n + length ryd)%nat = nao.
Proof.
  intros HS H HA c p Hp HpA Hord G. pose proof (C76_orthonormal n c0 H HA) as HO. fold c in HO.
  assert (C2 : meq n (length ryd) (mm nao (tr c) (mm nao S (orth (length ryd) p))) zm).
  { intros i j Hi Hj. rewrite gr_mm. unfold M_FragBasis.orth. rewrite gr_r. unfold zm, mm. apply Sum_0. intros l _.
      assert (Z : gr c p i l = 0); [|rewrite Z; ring]. unfold p.
      rewrite (gr_ext c c _ (msub (fun x l => idm x (nth l ryd 0%nat)) (mm n c (gr c (at_ K ryd idm))))).
      + rewrite gr_subr, gr_r. unfold mm. rewrite (Sum_ext n _ (fun a => delta i a * gr c (at_ K ryd idm) a l)) by (intros a Ha; rewrite <- gr_mm, (HO i a Hi Ha); reflexivity).
        rewrite (Sum_delta_l n i (fun a => gr c (at_ K ryd idm) a l) Hi). unfold at_. ring.
      + reflexivity.
      + intros x Hx. unfold mm at 1, msub. rewrite (Sum_ext nao _ (fun y => delta x y * at_ K ryd idm y l - Sum n (fun a => c x a * (mm nao (tr c) S a y * at_ K ryd idm y l)))).
        * rewrite Sum_sub, (Sum_delta_l nao x (fun y => at_ K ryd idm y l) Hx), (Sum_swap nao n). unfold at_ at 1. f_equal. unfold mm at 2. apply Sum_ext. intros a _. rewrite Sum_mul_l. f_equal.
          unfold gr. rewrite Sum_swap. apply Sum_ext. intros y _. unfold mm, tr. rewrite Sum_mul_r. reflexivity.
        * intros y _. unfold idm at 1. unfold mm at 1. transitivity (delta x y * at_ K ryd idm y l - Sum n (fun a => c x a * mm nao (tr c) S a y) * at_ K ryd idm y l); [ring|]. rewrite <- Sum_mul_r. f_equal. apply Sum_ext. intros; ring. }
  pose proof (C76_orthonormal (length ryd) p Hp HpA) as C1.
  unfold iaopao in G. fold c in G. unfold pao in G. destruct (Nat.eqb_spec (n + length ryd) nao) as [En|]; cbn [negb] in G; [|discriminate].
  set (P := match ryd with [] => Some (0%nat, zm) | _ => _ end) in G.
  assert (EP : exists q, P = Some (length ryd, q) /\ meq (length ryd) (length ryd) (met q) idm /\ meq n (length ryd) (mm nao (tr c) (mm nao S q)) zm).
  { clearbody c. unfold P. destruct ryd as [|z0 zl]; [exists zm; split; [reflexivity|]; split; intros i j Hi Hj; cbn in *; lia|]. exists (orth (length (z0 :: zl)) p). split; [reflexivity|split; assumption]. }
  destruct EP as (q & Eq & Q1 & Q2). rewrite Eq in G. destruct (Nat.eqb_spec (n + length ryd) nmo) as [Em|]; [|discriminate].
  pose proof (hcat_orth n (length ryd) c q HS HO Q1 Q2) as HH. rewrite Em in HH.
  destruct order as [o|].
  - injection G as <- <-. split; [|split; [discriminate|exact En]]. destruct (Hord o eq_refl) as [ND IN]. intros i j Hi Hj. rewrite gr_mm. unfold idm. rewrite <- (delta_nth o i j ND Hi Hj).
    rewrite <- (HH (nth i o 0%nat) (nth j o 0%nat) (IN _ (nth_In o 0%nat Hi)) (IN _ (nth_In o 0%nat Hj)) : _ = delta _ _), gr_mm. reflexivity.
  - assert (Ek : k = (n + length ryd)%nat) by congruence. assert (Ed : d = hcat K n c q) by congruence. rewrite Ek, Ed, Em. split; [exact HH|split; [reflexivity|lia]].
Qed.
End T.

From Coq Require Import ZArith QArith Qcanon.
Section Cases.
Local Close Scope Q_scope. Local Open Scope nat_scope.
Ltac qq := first [apply eqq_ok; vm_compute; reflexivity | apply neqq; vm_compute; reflexivity].
Ltac ck := first [apply meqb_ok | apply eigb_ok]; vm_compute; reflexivity.
Notation K := QO.
Notation vec := (nat -> QO).
Notation mt := (nat -> nat -> QO).
(** Two atomic orbitals that overlap, two molecular orbitals, one intrinsic orbital (before orthogonalisation of norm two). *)
Definition zS : mt := mat2 (q 73 25) (q (-36) 25) (q (-36) 25) (q 52 25).
Definition zmo : mt := mat2 (q 3 5) (q (-2) 5) (q 4 5) (q 3 10).
Definition zc0 : mt := fun x _ => vec2 (q 2 25) (q 36 25) x.
Definition zeig : nat -> mt -> vec * mt := fun n a => match n with
  | 1 => (fun _ => a 0 0, idm)
  | _ => if eqq (a 0 0) (q 16 25) then (vec2 (q 0 1) (q 1 1), rot35)
         else if eqq (a 0 0) (q 9 1) then (vec2 (q 0 1) (q 25 1), mat2 (q (-4) 5) (q 3 5) (q 3 5) (q 4 5)) else (vec2 (q 1 1) (q 4 1), rot35) end.
Definition ziq : K -> K := fun x => if eqq x (q 4 1) then q 1 2 else if eqq x (q 4 625) then q 25 2 else if eqq x (q 25 1) then q 1 5 else q 1 1.
Definition ztol : K := q 1 1000.
Definition zhf : K := q 1 2.
Definition zclose : mt -> mt -> bool := fun a b => eqq (a 0 1) (b 0 1).
Notation met c := (mm 2 (tr c) (mm 2 zS c)).
Notation zcon := (contract K zeig ziq ztol 2 zS).
Notation zkept := (all_kept K zeig ztol 2 zS).
Notation zorth := (orth K zeig ziq ztol 2 zS).
Lemma z10 : (r1 : K) <> r0. Proof. qq. Qed.
Lemma zHS : meq 2 2 zS (tr zS). Proof. ck. Qed.
Lemma zHM : meq 2 2 (met zmo) idm. Proof. ck. Qed.
Lemma zH : zcon 1 zc0. Proof. split; [ck|]. intros k Hk _. destruct k as [|k]; [qq|lia]. Qed.
Lemma zHA : zkept 1 zc0. Proof. intros k Hk. destruct k as [|k]; [vm_compute; reflexivity|lia]. Qed.
Lemma zI : zcon 2 idm. Proof. split; [ck|]. intros k Hk _. destruct k as [|[|k]]; [qq|qq|lia]. Qed.
Lemma zIA : zkept 2 idm. Proof. intros k Hk. destruct k as [|[|k]]; [vm_compute; reflexivity|vm_compute; reflexivity|lia]. Qed.
Example C76_orthonormal_case : met (zorth 2 idm) 0 1 = r0 /\ zS 0 1 <> r0 /\ met (zorth 1 zc0) 0 0 = r1.
Proof.
  split; [rewrite (C76_orthonormal K zeig ziq ztol 2 zS 2 idm zI zIA 0 1) by lia; qq|]. split; [qq|]. rewrite (C76_orthonormal K zeig ziq ztol 2 zS 1 zc0 zH zHA 0 0) by lia. qq.
Qed.
Example C76_sao_case : met (sao K zeig ziq zclose ztol 2 zS) 0 0 = r1 /\ sao K zeig ziq zclose ztol 2 zS 0 1 <> r0.
Proof.
  assert (HC : zclose zS idm = true -> meq 2 2 zS idm) by (intros H; exfalso; revert H; vm_compute; discriminate).
  split; [|qq]. transitivity (idm 0 0 : K); [exact (C76_sao K zeig ziq zclose ztol 2 zS HC zI zIA 0 0 ltac:(lia) ltac:(lia))|qq].
Qed.
Example C76_sign_case : first_largest QO (fun i => symmetric_orth K zeig ziq ztol 2 zS 2 idm i 0) 2 0 /\ Ord.le (K := QO) (q 0 1) (symmetric_orth K zeig ziq ztol 2 zS 2 idm 0 0).
Proof.
  assert (H : first_largest QO (fun i => symmetric_orth K zeig ziq ztol 2 zS 2 idm i 0) 2 0).
  { split; [lia|]. split; [intros [|[|i]] Hi; [vm_compute; reflexivity|vm_compute; reflexivity|lia]|intros; lia]. }
  split; [exact H|]. exact (C76_sign K zeig ziq ztol 2 zS 2 idm 0 0 ltac:(lia) H).
Qed.
Example C76_span_case : exists y : mt, zc0 1 0 = Sum 1 (fun k => rmul (zorth 1 zc0 1 k) (y k 0)).
Proof. destruct (C76_span K zeig ziq ztol 2 zS 1 zc0 zH zHA) as [y Hy]. exists y. apply Hy. lia. Qed.
(** Two orbitals that are multiples of each other: one of the two eigenvalues is dropped, two columns with total norm one stay. *)
Definition zdep : mt := fun x j => rmul (vec2 (q 3 1) (q 4 1) j) (zmo x 0).
Lemma zD : zcon 2 zdep.
Proof. split; [ck|]. intros k Hk H. destruct k as [|[|k]]; [exfalso; revert H; vm_compute; discriminate|qq|lia]. Qed.
Example C76_norms_case : trace 2 (met (zorth 2 zdep)) = q 1 1 /\ kept K zeig ztol 2 zS 2 zdep = 1.
Proof. split; [rewrite (C76_norms K zeig ziq ztol 2 zS 2 zdep zD); qq|vm_compute; reflexivity]. Qed.
Example C76_dependent_case : ~ meq 2 2 (met (zorth 2 zdep)) idm.
Proof. apply (C76_dependent K zeig ziq ztol 2 zS 2 zdep 0 z10 zD); [lia|vm_compute; reflexivity]. Qed.
(** Finding: orthogonalised orbitals need not be orthonormal, whatever their number says. *)
Theorem C76_orthonormal_refuted : ~ (forall c, zcon 2 c -> meq 2 2 (met (zorth 2 c)) idm).
Proof. intros H. exact (C76_dependent_case (H zdep zD)). Qed.

(** Two electrons in the first molecular orbital: the intrinsic orbital has 9/25 of them. *)
Definition zocc : vec := vec2 (q 2 1) (q 0 1).
Example C76_electrons_case : ne_iao K 2 zS 1 (zorth 1 zc0) (dm K 2 zmo zocc) = q 18 25 /\ ne_tot K 2 zS (dm K 2 zmo zocc) = q 2 1
  /\ radd (ne_tot K 2 zS (dm K 2 zmo zocc)) (ropp (ne_iao K 2 zS 1 (zorth 1 zc0) (dm K 2 zmo zocc))) = q 32 25.
Proof.
  split; [qq|]. split; [qq|]. pose proof (C76_electrons K 2 zS 1 (zorth 1 zc0) 2 zmo zocc zHS (C76_orthonormal K zeig ziq ztol 2 zS 1 zc0 zH zHA)) as E. cbv zeta in E.
  etransitivity; [|etransitivity; [exact E|qq]]. qq.
Qed.
(** The occupied orbital is 3/5 of the intrinsic one of a pair that spans all. *)
Example C76_all_electrons_case : ne_iao K 2 zS 2 (zorth 2 idm) (dm K 2 zmo zocc) = ne_tot K 2 zS (dm K 2 zmo zocc).
Proof.
  apply (C76_all_electrons K zeig ziq ztol 2 zS 2 idm 2 zmo zocc zHS zI zIA). intros i Hi _. exists (fun k => zmo k i). intros x Hx. symmetry. exact (Sum_delta_l (K := K) 2 x (fun k => zmo k i) Hx).
Qed.
Definition zb : mt := fun p _ => vec2 (q 6 5) (q 8 5) p.
Lemma zB : forall x j, x < 2 -> j < 1 -> zc0 x j = Sum 2 (fun p => rmul (zmo x p) (zb p j)).
Proof. intros x j Hx Hj. destruct x as [|[|x]]; [qq|qq|lia]. Qed.
Notation zpm := (msub idm (mm 1 (mm 2 (tr zmo) (mm 2 zS (zorth 1 zc0))) (tr (mm 2 (tr zmo) (mm 2 zS (zorth 1 zc0)))))).
Lemma zHE : eig_ok 2 zpm (zeig 2 zpm). Proof. ck. Qed.
Example C76_virtual_case : exists r, virtual K zeig zhf 2 zS 1 (zorth 1 zc0) 2 zmo = Some (1, r) /\ r 0 0 <> r0 /\ met r 0 0 = r1.
Proof.
  assert (HC : forall x j, x < 2 -> j < 1 -> zorth 1 zc0 x j = Sum 2 (fun p => rmul (zmo x p) (gr K 2 zS zmo (zorth 1 zc0) p j))) by (intros x j Hx Hj; destruct x as [|[|x]], j as [|j]; try lia; qq).
  destruct (C76_virtual K zeig zhf 2 zS 1 (zorth 1 zc0) 2 zmo zHS (C76_orthonormal K zeig ziq ztol 2 zS 1 zc0 zH zHA) zHM HC zHE ltac:(vm_compute; reflexivity) ltac:(vm_compute; reflexivity) z10) as (m & r & Hr & Hm & R1 & _).
  assert (m = 1) by lia. subst m. exists r. split; [exact Hr|]. split; [|transitivity (idm 0 0 : K); [exact (R1 0 0 ltac:(lia) ltac:(lia))|qq]].
  assert (E : r = snd (match virtual K zeig zhf 2 zS 1 (zorth 1 zc0) 2 zmo with Some z => z | None => (0, zm) end)) by (rewrite Hr; reflexivity). rewrite E. qq.
Qed.
Example C76_iao_case : exists d, iao K zeig ziq ztol zhf 2 zS 1 zc0 2 zmo true = Some (2, d) /\ met d 0 1 = r0 /\ d 0 0 = zorth 1 zc0 0 0.
Proof.
  destruct (C76_iao K zeig ziq ztol zhf 2 zS 1 zc0 2 zmo zb z10 zHS zH zHA zHM zB zHE ltac:(vm_compute; reflexivity) ltac:(vm_compute; reflexivity)) as (d & Hd & H1 & H2 & _).
  exists d. split; [exact Hd|]. split; [transitivity (idm 0 1 : K); [exact (H1 0 1 ltac:(lia) ltac:(lia))|qq]|apply H2; lia].
Qed.
(** Labels 7 and 8 of the atomic orbitals, found second and first. *)
Example C76_order_case : order_of [8; 7] [7; 8] = Some [1; 0] /\ nth (nth 0 [1; 0] 0) [8; 7] 0 = 7 /\ order_of [8; 7] [9] = None.
Proof. split; [reflexivity|]. split; [|reflexivity]. exact (proj2 (proj1 (proj2 (C76_order [8; 7] [7; 8] [1; 0] eq_refl)) 0 ltac:(cbn; lia))). Qed.
Notation zp := (mm 2 (msub idm (mm 1 (zorth 1 zc0) (mm 2 (tr (zorth 1 zc0)) zS))) (at_ K [1] idm)).
Notation zip := (iaopao K zeig ziq ztol 2 zS 1 zc0 2 [1] (Some [1; 0])).
Notation zd := (at_ K [1; 0] (hcat K 1 (zorth 1 zc0) (zorth (length [1]) zp))).
Example C76_iaopao_case : zip = Some (2, zd) /\ met zd 0 1 = r0 /\ met zd 1 1 = r1 /\ zd 0 0 <> r0 /\ zd 0 1 = zorth 1 zc0 0 0.
Proof.
  assert (E : zip = Some (2, zd)) by (unfold iaopao, pao; cbn [length Nat.add Nat.eqb negb]; reflexivity).
  assert (P : zcon (length [1]) zp) by (split; [ck|]; intros k Hk _; destruct k as [|k]; [qq|cbn in Hk; lia]).
  assert (PA : zkept (length [1]) zp) by (intros k Hk; destruct k as [|k]; [vm_compute; reflexivity|cbn in Hk; lia]).
  assert (O : forall o, Some [1; 0] = Some o -> NoDup o /\ forall j, In j o -> j < 2).
  { intros o H. assert (Ho : [1; 0] = o) by congruence. subst o. split; [repeat constructor; cbn; intuition lia|]. cbn; intuition lia. }
  destruct (C76_iaopao K zeig ziq ztol 2 zS 1 zc0 2 [1] (Some [1; 0]) 2 zd zHS zH zHA P PA O E) as [A _].
  split; [exact E|]. split; [transitivity (idm 0 1 : K); [exact (A 0 1 ltac:(lia) ltac:(lia))|qq]|]. split; [transitivity (idm 1 1 : K); [exact (A 1 1 ltac:(lia) ltac:(lia))|qq]|]. split; [qq|reflexivity].
Qed.
End Cases.

Print Assumptions C76_orthonormal.
Print Assumptions C76_span.
Print Assumptions C76_norms.
Print Assumptions C76_dependent.
Print Assumptions C76_sign.
Print Assumptions C76_sao.
Print Assumptions C76_electrons.
Print Assumptions C76_all_electrons.
Print Assumptions C76_virtual.
Print Assumptions C76_iao.
Print Assumptions C76_order.
Print Assumptions C76_iaopao.
Print Assumptions C76_orthonormal_refuted.
