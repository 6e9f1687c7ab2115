(** C53: compressed three-centre integrals; C54: blocks of two-electron integrals. *)
From Coq Require Import List Bool Arith ZArith QArith Qcanon Ascii String Lia.
From Verif Require Import Alg Ord M_Ints.
Import ListNotations.
Close Scope Q_scope. Close Scope Qc_scope. Close Scope string_scope.
Open Scope nat_scope.

Section Order.
Context (K : oring).
Add Ring Kr : (rth K).
Open Scope K_scope.
Lemma le_sub (x y : K) : le x y <-> le 0 (y - x).
Proof.
  split; intros H.
  - apply (le_add _ _ (- x)) in H. replace (x + - x) with (0 : K) in H by ring. replace (y + - x) with (y - x) in H by ring. exact H.
  - apply (le_add _ _ x) in H. replace (0 + x) with x in H by ring. replace (y - x + x) with y in H by ring. exact H.
Qed.
Lemma le_mul0 (x y : K) : le 0 x -> le 0 y -> le 0 (x * y).
Proof.
  intros Hx Hy. apply le_lt_eq in Hx. apply le_lt_eq in Hy. apply le_lt_eq.
  destruct Hx as [Hx| <-], Hy as [Hy| <-]; try (right; ring). left. apply ltb_mul; auto.
Qed.
Lemma sq_nonneg (x : K) : le 0 (x * x).
Proof.
  destruct (le_total 0 x) as [H|H]; [now apply le_mul0|].
  replace (x * x) with ((0 - x) * (0 - x)) by ring. apply le_mul0; now apply (le_sub x 0).
Qed.
Lemma le_plus (a b c d : K) : le a b -> le c d -> le (a + c) (b + d).
Proof.
  intros H G. apply le_tr with (b + c); [now apply le_add|]. replace (b + c) with (c + b) by ring. replace (b + d) with (d + b) by ring. now apply le_add.
Qed.
Lemma le_mul_l (a x y : K) : le 0 a -> le x y -> le (a * x) (a * y).
Proof. intros Ha H. apply le_sub. replace (a * y - a * x) with (a * (y - x)) by ring. apply le_mul0; auto. now apply le_sub in H. Qed.
Lemma Sum_le n (f g : nat -> K) : (forall i, (i < n)%nat -> le (f i) (g i)) -> le (Sum n f) (Sum n g).
Proof. induction n; intros H; cbn; [apply le_refl|]. apply le_plus; auto. Qed.
Lemma Sum_nonneg n (f : nat -> K) : (forall i, (i < n)%nat -> le 0 (f i)) -> le 0 (Sum n f).
Proof. intros H. pose proof (Sum_le n (fun _ => 0) f H) as G. rewrite Sum_zero in G. exact G. Qed.
Lemma double_le (x y : K) : le (x + x) (y + y) -> le x y.
Proof.
  intros H. apply le_nlt. intros G. apply (proj1 (le_nlt _ _) H). eapply lt_tr; [apply lt_add; exact G|].
  replace (x + y) with (y + x) by ring. now apply lt_add.
Qed.
Lemma abs_le (x t : K) : le x t -> le (0 - x) t -> le (absK x) t.
Proof. intros H G. destruct (absK_pm x) as [->| ->]; auto. replace (- x) with (0 - x) by ring. auto. Qed.
End Order.

Section C53.
Context (K : oring).
Add Ring Kr2 : (rth K).
Open Scope K_scope.
Notation mat := (nat -> nat -> K).
(** Integrals of the three-centre vectors: (x|y) for orbital pairs x, y *)
Definition eri (cx cy : nat * mat) (x y : nat) : K := Sum (fst cx) (fun l => snd cx l x * snd cy l y).
(** What numpy promises of a singular value decomposition cd = u s v *)
Record svd_ok (naux nx : nat) (cd : mat) (r : nat * mat * (nat -> K) * mat) : Prop := {
  sv_cd : forall l x, (l < naux)%nat -> (x < nx)%nat -> cd l x = Sum (fst (fst (fst r))) (fun n => snd (fst (fst r)) l n * snd (fst r) n * snd r n x);
  sv_u : forall m n, (m < fst (fst (fst r)))%nat -> (n < fst (fst (fst r)))%nat -> Sum naux (fun l => snd (fst (fst r)) l m * snd (fst (fst r)) l n) = delta m n;
  sv_v : forall m n, (m < fst (fst (fst r)))%nat -> (n < fst (fst (fst r)))%nat -> Sum nx (fun x => snd r m x * snd r n x) = delta m n;
  sv_s : forall n, (n < fst (fst (fst r)))%nat -> le 0 (snd (fst r) n)
}.
Lemma Sum_nth (l : list nat) (f : nat -> K) : Sum (List.length l) (fun i => f (nth i l 0%nat)) = Lsum l f.
Proof. induction l as [|a l IH]; [reflexivity|]. cbn [List.length]. rewrite Sum_shift. cbn [nth Lsum]. now rewrite IH. Qed.
Lemma Lsum_filter {A} (b : A -> bool) (l : list A) (f : A -> K) : Lsum (filter b l) f = Lsum l (fun a => if b a then f a else 0).
Proof. induction l as [|a l IH]; [reflexivity|]. cbn [filter Lsum]. destruct (b a); cbn [Lsum]; rewrite IH; ring. Qed.

Lemma eri_compressed svd thr naux nx cd x y :
  let '(k, u, s, v) := svd naux nx cd in
  eri (compress_cderi svd thr naux nx cd) (compress_cderi svd thr naux nx cd) x y = Sum k (fun n => if ltb thr (s n) then s n * s n * (v n x * v n y) else 0).
Proof.
  unfold compress_cderi. destruct (svd naux nx cd) as [[[k u] s] v]. unfold eri. cbn [fst snd].
  rewrite (Sum_nth _ (fun n => s n * v n x * (s n * v n y))), Lsum_filter, Lsum_seq. apply Sum_ext. intros n Hn. destruct (ltb thr (s n)); ring.
Qed.
Lemma eri_full naux nx cd r x y : svd_ok naux nx cd r -> (x < nx)%nat -> (y < nx)%nat ->
  eri (naux, cd) (naux, cd) x y = Sum (fst (fst (fst r))) (fun n => snd (fst r) n * snd (fst r) n * (snd r n x * snd r n y)).
Proof.
  intros H Hx Hy. destruct H as [H1 H2 H3 H4]. destruct r as [[[k u] s] v]. cbn [fst snd] in *. unfold eri. cbn [fst snd].
  transitivity (Sum k (fun m => Sum k (fun n => s m * v m x * (s n * v n y) * Sum naux (fun l => u l m * u l n)))).
  - rewrite (Sum_ext naux _ (fun l => Sum k (fun m => Sum k (fun n => (u l m * s m * v m x) * (u l n * s n * v n y))))).
    2:{ intros l Hl. rewrite (H1 l x), (H1 l y) by auto. apply Sum_mul_Sum. }
    rewrite Sum_swap. apply Sum_ext. intros m Hm. rewrite Sum_swap. apply Sum_ext. intros n Hn. rewrite <- Sum_mul_l. apply Sum_ext. intros l Hl. ring.
  - apply Sum_ext. intros m Hm. rewrite (Sum_single k m); auto.
    + rewrite H2 by auto. rewrite delta_eq. ring.
    + intros n Hn Hne. rewrite H2 by auto. rewrite delta_neq by auto. ring.
Qed.
(** Bessel's inequality for the columns of v *)
Lemma bessel nx k (v : mat) y : (forall m n, (m < k)%nat -> (n < k)%nat -> Sum nx (fun x => v m x * v n x) = delta m n) -> (y < nx)%nat ->
  le (Sum k (fun n => v n y * v n y)) 1.
Proof.
  intros H Hy. set (B := Sum k (fun n => v n y * v n y)). apply le_sub.
  set (w := fun x => Sum k (fun n => v n y * v n x)).
  assert (E1 : Sum nx (fun x => w x * w x) = B).
  { unfold w. rewrite (Sum_ext nx _ (fun x => Sum k (fun m => Sum k (fun n => (v m y * v m x) * (v n y * v n x))))) by (intros; apply Sum_mul_Sum).
    rewrite Sum_swap. unfold B. apply Sum_ext. intros m Hm. rewrite Sum_swap.
    rewrite (Sum_single k m); auto.
    - rewrite (Sum_ext nx _ (fun x => v m y * v m y * (v m x * v m x))) by (intros; ring). rewrite Sum_mul_l, H by auto. rewrite delta_eq. ring.
    - intros n Hn Hne. rewrite (Sum_ext nx _ (fun x => v m y * v n y * (v m x * v n x))) by (intros; ring). rewrite Sum_mul_l, H by auto. rewrite delta_neq by auto. ring. }
  assert (E2 : 1 - B = Sum nx (fun x => (delta y x - w x) * (delta y x - w x))).
  { rewrite (Sum_ext nx _ (fun x => delta y x * (delta y x - w x - w x) + w x * w x)) by (intros; ring).
    rewrite Sum_add, E1, Sum_delta_l by auto. rewrite delta_eq. unfold w at 1 2. fold B. ring. }
  rewrite E2. apply Sum_nonneg. intros. apply sq_nonneg.
Qed.
(** ** C53 *)
(** If only vanishing singular values are dropped, every integral is kept. *)
Theorem C53_exact : forall svd thr naux nx cd, svd_ok naux nx cd (svd naux nx cd) ->
  (forall n, (n < fst (fst (fst (svd naux nx cd))))%nat -> ltb thr (snd (fst (svd naux nx cd)) n) = false -> snd (fst (svd naux nx cd)) n = 0) ->
  forall x y, (x < nx)%nat -> (y < nx)%nat ->
  eri (compress_cderi svd thr naux nx cd) (compress_cderi svd thr naux nx cd) x y = eri (naux, cd) (naux, cd) x y.
Proof.
  intros svd thr naux nx cd H Hz x y Hx Hy. rewrite (eri_full naux nx cd _ x y H Hx Hy).
  pose proof (eri_compressed svd thr naux nx cd x y) as E. destruct (svd naux nx cd) as [[[k u] s] v]. cbn [fst snd] in *. rewrite E.
  apply Sum_ext. intros n Hn. destruct (ltb thr (s n)) eqn:Et; auto. rewrite (Hz n Hn Et). ring.
Qed.
(** In general no integral changes by more than the square of the threshold, and never more vectors are kept than there were singular values. *)
Theorem C53_error : forall svd thr naux nx cd, svd_ok naux nx cd (svd naux nx cd) -> le 0 thr ->
  forall x y, (x < nx)%nat -> (y < nx)%nat ->
  le (absK (eri (naux, cd) (naux, cd) x y - eri (compress_cderi svd thr naux nx cd) (compress_cderi svd thr naux nx cd) x y)) (thr * thr).
Proof.
  intros svd thr naux nx cd H Ht x y Hx Hy. rewrite (eri_full naux nx cd _ x y H Hx Hy).
  pose proof (eri_compressed svd thr naux nx cd x y) as E. destruct H as [_ _ Hv Hs]. destruct (svd naux nx cd) as [[[k u] s] v]. cbn [fst snd] in *. rewrite E.
  rewrite <- Sum_sub.
  rewrite (Sum_ext k _ (fun n => if ltb thr (s n) then 0 else s n * s n * (v n x * v n y))) by (intros n Hn; destruct (ltb thr (s n)); ring).
  assert (Hsq : forall n, (n < k)%nat -> ltb thr (s n) = false -> le (s n * s n) (thr * thr)).
  { intros n Hn En. assert (L : le (s n) thr) by (unfold le, leb; now rewrite En). apply le_tr with (s n * thr).
    - apply le_mul_l; auto.
    - replace (s n * thr) with (thr * s n) by ring. apply le_mul_l; auto. }
  pose proof (bessel nx k v x Hv Hx) as Bx. pose proof (bessel nx k v y Hv Hy) as By.
  assert (Hmain : forall w : nat -> K, (forall n, le (w n + w n) (v n x * v n x + v n y * v n y)) ->
            le (Sum k (fun n => if ltb thr (s n) then 0 else s n * s n * w n)) (thr * thr)).
  { intros w Hw. apply double_le. rewrite <- Sum_add.
    apply le_tr with (Sum k (fun n => thr * thr * (v n x * v n x + v n y * v n y))).
    - apply Sum_le. intros n Hn. assert (P : le 0 (v n x * v n x + v n y * v n y)).
      { replace (0 : K) with (0 + 0 : K) by ring. apply le_plus; apply sq_nonneg. }
      destruct (ltb thr (s n)) eqn:En.
      + replace (0 + 0 : K) with (0 : K) by ring. apply le_mul0; auto. apply le_mul0; auto.
      + apply le_tr with (s n * s n * (v n x * v n x + v n y * v n y)).
        * replace (s n * s n * w n + s n * s n * w n) with (s n * s n * (w n + w n)) by ring. apply le_mul_l; auto. apply sq_nonneg.
        * set (q := v n x * v n x + v n y * v n y) in *. replace (s n * s n * q) with (q * (s n * s n)) by ring. replace (thr * thr * q) with (q * (thr * thr)) by ring. apply le_mul_l; auto.
    - rewrite Sum_mul_l, Sum_add. replace (thr * thr + thr * thr) with (thr * thr * (1 + 1)) by ring. apply le_mul_l; [now apply le_mul0|]. now apply le_plus. }
  apply abs_le.
  - apply (Hmain (fun n => v n x * v n y)). intros n. apply le_sub.
    replace (v n x * v n x + v n y * v n y - (v n x * v n y + v n x * v n y)) with ((v n x - v n y) * (v n x - v n y)) by ring. apply sq_nonneg.
  - replace (0 - Sum k (fun n => if ltb thr (s n) then 0 else s n * s n * (v n x * v n y))) with (Sum k (fun n => if ltb thr (s n) then 0 else s n * s n * (0 - v n x * v n y))).
    + apply (Hmain (fun n => 0 - v n x * v n y)). intros n. apply le_sub.
      replace (v n x * v n x + v n y * v n y - (0 - v n x * v n y + (0 - v n x * v n y))) with ((v n x + v n y) * (v n x + v n y)) by ring. apply sq_nonneg.
    + replace (0 - Sum k (fun n => if ltb thr (s n) then 0 else s n * s n * (v n x * v n y))) with (- Sum k (fun n => if ltb thr (s n) then 0 else s n * s n * (v n x * v n y))) by ring.
      rewrite <- Sum_opp. apply Sum_ext. intros n Hn. destruct (ltb thr (s n)); ring.
Qed.
Theorem C53_fewer : forall svd thr naux nx cd, (fst (compress_cderi (K := K) svd thr naux nx cd) <= fst (fst (fst (svd naux nx cd))))%nat.
Proof.
  intros. unfold compress_cderi. destruct (svd naux nx cd) as [[[k u] s] v]. cbn [fst].
  rewrite <- (seq_length k 0) at 2. induction (seq 0 k) as [|a l IH]; cbn [filter List.length]; [lia|]. destruct (ltb thr (s a)); cbn [List.length]; lia.
Qed.
(** get_cderi_bare of a restricted cluster: the interaction positive minus negative part changes by at most twice the squared threshold. *)
Definition interaction (c : (nat * mat) * option (nat * mat)) (x y : nat) : K :=
  eri (fst c) (fst c) x y - match snd c with Some n => eri n n x y | None => 0 end.
Lemma abs_bound (x t : K) : le (absK x) t -> le x t /\ le (0 - x) t.
Proof.
  intros H. assert (A : forall z : K, le z (absK z)).
  { intros z. unfold absK. destruct (ltb z 0) eqn:E; [|apply le_refl]. apply le_tr with 0; [apply lt_le; exact E|]. apply lt_le. now apply lt0_opp. }
  split; [eapply le_tr; [apply A|exact H]|]. rewrite <- (absK_opp x) in H. replace (0 - x) with (- x) by ring. eapply le_tr; [apply A|exact H].
Qed.
Theorem C53_restricted : forall svd compress thr nx pos neg, (forall n m, svd_ok n nx m (svd n nx m)) -> le 0 thr ->
  forall x y, (x < nx)%nat -> (y < nx)%nat ->
  le (absK (interaction (pos, neg) x y - interaction (get_cderi_bare svd compress thr nx pos neg) x y)) (thr * thr + thr * thr).
Proof.
  intros svd compress thr nx [np cp] neg H Ht x y Hx Hy.
  assert (P : le 0 (thr * thr)) by now apply le_mul0.
  destruct compress; cbn [get_cderi_bare].
  2:{ replace (interaction _ x y - interaction _ x y) with (0 : K) by ring. unfold absK. rewrite ltb_irrefl. replace (0 : K) with (0 + 0 : K) by ring. now apply le_plus. }
  destruct (abs_bound _ _ (C53_error svd thr np nx cp (H np cp) Ht x y Hx Hy)) as [A1 A2]. unfold interaction. cbn [fst snd option_map].
  destruct neg as [[nn cn]|]; cbn [fst snd option_map].
  - destruct (abs_bound _ _ (C53_error svd thr nn nx cn (H nn cn) Ht x y Hx Hy)) as [B1 B2].
    set (a := eri (np, cp) (np, cp) x y) in *. set (a' := eri (compress_cderi svd thr np nx cp) _ x y) in *.
    set (b := eri (nn, cn) (nn, cn) x y) in *. set (b' := eri (compress_cderi svd thr nn nx cn) _ x y) in *.
    apply abs_le.
    + replace (a - b - (a' - b')) with (a - a' + (0 - (b - b'))) by ring. now apply le_plus.
    + replace (0 - (a - b - (a' - b'))) with ((0 - (a - a')) + (b - b')) by ring. now apply le_plus.
  - set (a := eri (np, cp) (np, cp) x y) in *. set (a' := eri (compress_cderi svd thr np nx cp) _ x y) in *.
    apply abs_le.
    + replace (a - 0 - (a' - 0)) with (a - a' + 0) by ring. now apply le_plus.
    + replace (0 - (a - 0 - (a' - 0))) with ((0 - (a - a')) + 0) by ring. now apply le_plus.
Qed.
(** Unrestricted clusters: the alpha-alpha integrals are kept in the same way (beta-beta and alpha-beta integrals are not, see below: the compressed alpha vectors are used for beta). *)
Theorem C53_unrestricted_aa : forall svd thr nxa nxb pos neg, svd_ok (fst (fst pos)) nxa (snd (fst pos)) (svd (fst (fst pos)) nxa (snd (fst pos))) -> le 0 thr ->
  forall x y, (x < nxa)%nat -> (y < nxa)%nat ->
  let c := fst (fst (get_cderi_bare_u svd true thr nxa nxb pos neg)) in
  le (absK (eri (fst pos) (fst pos) x y - eri c c x y)) (thr * thr).
Proof. intros svd thr nxa nxb [[pa ca] pb] neg H Ht x y Hx Hy. cbn [get_cderi_bare_u fst snd]. now apply C53_error. Qed.
End C53.

(** ** Cases: one auxiliary function and one orbital pair per spin; two auxiliary functions *)
Section Cases53.
Definition q (n : Z) (d : positive) : QO := Q2Qc (n # d).
(** vectors (2, 0), (0, 0): singular values 2 and 0 *)
Definition ex_cd (l x : nat) : QO := if (l =? 0) && (x =? 0) then q 2 1 else q 0 1.
Definition ex_one (i j : nat) : QO := if i =? j then q 1 1 else q 0 1.
Definition ex_svd : svd_t (K := QO) := fun _ _ _ => (2, ex_one, (fun n => if n =? 0 then q 2 1 else q 0 1), ex_one).
Example ex_svd_ok : svd_ok QO 2 2 ex_cd (ex_svd 2 2 ex_cd).
Proof.
  split; cbn [fst snd ex_svd].
  - intros [|[|l]] [|[|x]] Hl Hx; try lia; apply Qc_is_canon; reflexivity.
  - intros [|[|l]] [|[|x]] Hl Hx; try lia; apply Qc_is_canon; reflexivity.
  - intros [|[|l]] [|[|x]] Hl Hx; try lia; apply Qc_is_canon; reflexivity.
  - intros [|[|n]] Hn; try lia; reflexivity.
Qed.
Example ex_compressed : fst (compress_cderi ex_svd (q 1 100) 2 2 ex_cd) = 1 /\ eri QO (compress_cderi ex_svd (q 1 100) 2 2 ex_cd) (compress_cderi ex_svd (q 1 100) 2 2 ex_cd) 0 0 = q 4 1.
Proof. split; [reflexivity|]. apply Qc_is_canon. reflexivity. Qed.
(** Beta-beta and alpha-beta integrals of an unrestricted cluster are lost: alpha vector 1, beta vector 3 (one auxiliary function, exact decomposition 1*s*1). *)
Definition sc_svd : svd_t (K := QO) := fun _ _ cd => (1, (fun _ _ => q 1 1), (fun _ => cd 0 0), (fun _ _ => q 1 1)).
Definition cst (z : Z) : nat * (nat -> nat -> QO) := (1, fun _ _ => q z 1).
Example sc_svd_ok z : (z = 1 \/ z = 3)%Z -> svd_ok QO 1 1 (snd (cst z)) (sc_svd 1 1 (snd (cst z))).
Proof.
  intros [-> | ->]; (split; cbn [fst snd sc_svd cst];
   [intros [|l] [|x] Hl Hx; try lia; apply Qc_is_canon; reflexivity
   |intros [|m] [|n] Hm Hn; try lia; apply Qc_is_canon; reflexivity
   |intros [|m] [|n] Hm Hn; try lia; apply Qc_is_canon; reflexivity
   |intros [|n] Hn; try lia; reflexivity]).
Qed.
Theorem C53_unrestricted_refuted : exists (svd : svd_t (K := QO)) thr (pos : (nat * (nat -> nat -> QO)) * (nat * (nat -> nat -> QO))),
  svd_ok QO 1 1 (snd (fst pos)) (svd 1 1 (snd (fst pos))) /\ svd_ok QO 1 1 (snd (snd pos)) (svd 1 1 (snd (snd pos)))
  /\ (forall n, ltb thr (snd (fst (svd 1 1 (snd (fst pos)))) n) = true) /\ (forall n, ltb thr (snd (fst (svd 1 1 (snd (snd pos)))) n) = true)
  /\ let c := fst (get_cderi_bare_u svd true thr 1 1 pos (None, None)) in
     eri QO (snd c) (snd c) 0 0 <> eri QO (snd pos) (snd pos) 0 0 /\ eri QO (fst c) (snd c) 0 0 <> eri QO (fst pos) (snd pos) 0 0.
Proof.
  exists sc_svd, (q 1 100), (cst 1, cst 3).
  split; [apply sc_svd_ok; auto|]. split; [apply sc_svd_ok; auto|].
  split; [reflexivity|]. split; [reflexivity|].
  split; intros E; apply (f_equal this) in E; vm_compute in E; discriminate.
Qed.
(** Also the negative part is not kept: alpha and beta vectors are compressed separately, the common auxiliary index is lost
    (alpha vector (1,0), beta vector (0,1): the alpha-beta integral was 0). *)
Definition col_svd : svd_t (K := QO) := fun _ _ cd => (1, (fun l _ => cd l 0), (fun _ => q 1 1), (fun _ _ => q 1 1)).
Definition unitv (k : nat) : nat * (nat -> nat -> QO) := (2, fun l _ => ex_one l k).
Example col_svd_ok k : k < 2 -> svd_ok QO 2 1 (snd (unitv k)) (col_svd 2 1 (snd (unitv k))).
Proof.
  intros Hk. assert (C : k = 0 \/ k = 1) by lia. destruct C as [-> | ->]; (split; cbn [fst snd col_svd unitv];
   [intros [|[|l]] [|x] Hl Hx; try lia; apply Qc_is_canon; reflexivity
   |intros [|m] [|n] Hm Hn; try lia; apply Qc_is_canon; reflexivity
   |intros [|m] [|n] Hm Hn; try lia; apply Qc_is_canon; reflexivity
   |intros [|n] Hn; try lia; reflexivity]).
Qed.
Theorem C53_unrestricted_negative_refuted : exists (svd : svd_t (K := QO)) thr (na nb : nat * (nat -> nat -> QO)),
  svd_ok QO 2 1 (snd na) (svd 2 1 (snd na)) /\ svd_ok QO 2 1 (snd nb) (svd 2 1 (snd nb)) /\
  exists a b, snd (get_cderi_bare_u svd true thr 1 1 (cst 1, cst 1) (Some na, Some nb)) = (Some a, Some b) /\ eri QO a b 0 0 <> eri QO na nb 0 0.
Proof.
  exists col_svd, (q 1 100), (unitv 0), (unitv 1). split; [apply col_svd_ok; lia|]. split; [apply col_svd_ok; lia|].
  eexists. eexists. split; [reflexivity|]. intros E; apply (f_equal this) in E; vm_compute in E; discriminate.
Qed.
End Cases53.

(** ** C54 *)
Section C54.
Context (K : cring).
Notation orb := (bool * nat)%type.
(** Real integrals (pq|rs) have the symmetries (pq|rs) = (qp|rs) = (rs|pq). *)
Definition real_integrals (I : orb -> orb -> orb -> orb -> K) : Prop := forall p q r s, I p q r s = I q p r s /\ I p q r s = I r s p q.
(** A block with pairs of equal spin, such as ooOO or VVov *)
Definition spin_paired (b : list ascii) : Prop := beta (ch b 0) = beta (ch b 1) /\ beta (ch b 2) = beta (ch b 3).
Lemma valid4 b : valid b = true -> exists x y z w, b = [x; y; z; w].
Proof.
  unfold valid. intros H. apply andb_true_iff in H. destruct H as [H _]. apply Nat.eqb_eq in H.
  destruct b as [|x [|y [|z [|w [|]]]]]; try discriminate. now exists x, y, z, w.
Qed.
(** A block cut from the cached integrals is the block calculated directly, for each of the 64 spin-paired blocks. *)
Theorem C54_cached : forall c (I : orb -> orb -> orb -> orb -> K) block, real_integrals I -> valid block = true -> spin_paired block ->
  exists x y, get_eris_bare_u c I true block = Some x /\ get_eris_bare_u c I false block = Some y /\ forall i j k l, x i j k l = y i j k l.
Proof.
  intros c I block HI Hv [H1 H2]. unfold get_eris_bare_u, get_eris_block. rewrite Hv.
  destruct (valid4 _ Hv) as (x & y & z & w & ->). unfold ch in *. cbn [nth] in *.
  destruct (eris_uhf I) as [[aa ab] bb] eqn:EU. unfold eris_uhf in EU. injection EU as <- <- <-.
  assert (T : sp_sum [x; y; z; w] = (if beta x then 2 else 0) + (if beta z then 2 else 0)).
  { unfold sp_sum. cbn [filter]. rewrite <- H1, <- H2. destruct (beta x), (beta z); reflexivity. }
  rewrite T. eexists. eexists. split; [reflexivity|]. split; [reflexivity|]. intros i j k l. unfold direct, ch. cbn [nth].
  rewrite <- H1, <- H2. destruct (beta x) eqn:Ex, (beta z) eqn:Ez; cbn [Nat.add Nat.eqb andb]; change (4 / 2) with 2; change (2 / 2) with 1; change (0 / 2) with 0; cbn iota; cbn [rev app nth].
  - reflexivity.
  - rewrite (proj2 (HI _ _ _ _)). rewrite (proj1 (HI _ _ _ _)). rewrite (proj2 (HI _ _ _ _)). rewrite (proj1 (HI _ _ _ _)). rewrite (proj2 (HI _ _ _ _)). reflexivity.
  - reflexivity.
  - reflexivity.
Qed.
Theorem C54_restricted : forall no (I : nat -> nat -> nat -> nat -> K) block,
  match get_eris_bare_r no I true block, get_eris_bare_r no I false block with
  | Some x, Some y => valid block = true /\ forall i j k l, x i j k l = y i j k l | None, None => valid block = false | _, _ => False end.
Proof. intros. unfold get_eris_bare_r. destruct (valid block); auto. Qed.
(** What the letters mean: o, v, O, V are occupied and virtual orbitals of the two spins *)
Definition letter (c : cl) (x : ascii) (i : nat) : option orb :=
  match x with "o" => Some (false, i) | "v" => Some (false, na c + i) | "O" => Some (true, i) | "V" => Some (true, nb c + i) | _ => None end%char.
(** A block is accepted exactly for four of these letters, and every entry is the integral over the four orbitals meant. *)
Theorem C54_values : forall c (I : orb -> orb -> orb -> orb -> K) cached x y z w i j k l p q r s,
  letter c x i = Some p -> letter c y j = Some q -> letter c z k = Some r -> letter c w l = Some s ->
  real_integrals I -> spin_paired [x; y; z; w] ->
  exists e, get_eris_bare_u c I cached [x; y; z; w] = Some e /\ e i j k l = I p q r s.
Proof.
  intros c I cached x y z w i j k l p q r s Hx Hy Hz Hw HI Hp.
  assert (L : forall x i p, letter c x i = Some p -> p = (beta x, start c x + i) /\ is_occ x || is_vir x = true).
  { clear. intros x i p H. unfold letter in H. destruct x as [[] [] [] [] [] [] [] []]; try discriminate; injection H as <-; split; reflexivity. }
  assert (V : valid [x; y; z; w] = true).
  { unfold valid. cbn [List.length forallb Nat.eqb andb]. destruct (L _ _ _ Hx) as [_ ->], (L _ _ _ Hy) as [_ ->], (L _ _ _ Hz) as [_ ->], (L _ _ _ Hw) as [_ ->]. reflexivity. }
  destruct (C54_cached c I _ HI V Hp) as (e & e' & E & E' & H).
  assert (D : e' i j k l = I p q r s).
  { unfold get_eris_bare_u in E'. injection E' as <-. unfold direct, ch. cbn [nth]. now rewrite (proj1 (L _ _ _ Hx)), (proj1 (L _ _ _ Hy)), (proj1 (L _ _ _ Hz)), (proj1 (L _ _ _ Hw)). }
  destruct cached; [exists e|exists e']; split; auto. now rewrite H.
Qed.
Theorem C54_restricted_values : forall no (I : nat -> nat -> nat -> nat -> K) cached x y z w i j k l p q r s,
  letter {| na := no; nb := no |} x i = Some p -> letter {| na := no; nb := no |} y j = Some q -> letter {| na := no; nb := no |} z k = Some r -> letter {| na := no; nb := no |} w l = Some s ->
  exists e, get_eris_bare_r no I cached [x; y; z; w] = Some e /\ e i j k l = I (snd p) (snd q) (snd r) (snd s).
Proof.
  intros no I cached x y z w i j k l p q r s Hx Hy Hz Hw.
  assert (L : forall x i p, letter {| na := no; nb := no |} x i = Some p -> snd p = rstart no x + i /\ is_occ x || is_vir x = true).
  { clear. intros x i p H. unfold letter in H. destruct x as [[] [] [] [] [] [] [] []]; try discriminate; injection H as <-; split; reflexivity. }
  unfold get_eris_bare_r, valid. cbn [List.length forallb Nat.eqb andb]. destruct (L _ _ _ Hx) as [X ->], (L _ _ _ Hy) as [Y ->], (L _ _ _ Hz) as [Z ->], (L _ _ _ Hw) as [W ->].
  cbn [andb]. eexists. split; [reflexivity|]. rewrite X, Y, Z, W. now destruct cached.
Qed.
(** Anything else is refused, with the cache always and for restricted clusters in both cases. *)
Theorem C54_refused : forall c (I : orb -> orb -> orb -> orb -> K) no (I' : nat -> nat -> nat -> nat -> K) block,
  (List.length block <> 4 \/ exists x, In x block /\ letter c x 0 = None) ->
  get_eris_bare_u c I true block = None /\ forall cached, get_eris_bare_r no I' cached block = None.
Proof.
  intros c I no I' block H. assert (V : valid block = false).
  { unfold valid. destruct (Nat.eqb_spec (List.length block) 4); [|reflexivity]. destruct H as [H|(x & H & E)]; [contradiction|]. cbn [andb].
    apply not_true_is_false. intros F. rewrite forallb_forall in F. specialize (F x H). unfold letter in E. destruct x as [[] [] [] [] [] [] [] []]; discriminate. }
  unfold get_eris_bare_u, get_eris_block, get_eris_bare_r. rewrite V. auto.
Qed.
End C54.
(** Blocks that are not spin-paired are accepted but come out differently with and without the cache. *)
Definition ex_I (p q r s : bool * nat) : ZK := (let g (x : bool * nat) := Z.of_nat (snd x) + (if fst x then 10 else 0) in g p * g q + g r * g s)%Z.
Example ex_I_real : real_integrals ZK ex_I.
Proof. intros [sp p] [sq q'] [sr r] [ss s]. unfold ex_I. cbn [fst snd]. split; match goal with |- @eq _ ?a ?b => change (@eq Z a b) end; ring. Qed.
Theorem C54_mixed_refuted : exists c block x y, valid block = true /\ get_eris_bare_u c ex_I true block = Some x /\ get_eris_bare_u c ex_I false block = Some y
  /\ x 0 0 0 0 <> y 0 0 0 0.
Proof.
  exists {| na := 1; nb := 1 |}, (list_ascii_of_string "oVoV"%string). eexists. eexists. split; [reflexivity|]. split; [reflexivity|]. split; [reflexivity|]. vm_compute. discriminate.
Qed.
Example ex_flipped : option_map (fun x => x 0 1 0 1) (get_eris_bare_u {| na := 1; nb := 2 |} ex_I true (list_ascii_of_string "OVov"%string)) = Some (10 * 13 + 0 * 2)%Z
  /\ valid (list_ascii_of_string "OVov"%string) = true /\ spin_paired (list_ascii_of_string "OVov"%string).
Proof. repeat split. Qed.

Example ex_values : letter {| na := 1; nb := 2 |} "V"%char 1 = Some (true, 3) /\ letter {| na := 1; nb := 2 |} "x"%char 1 = None
  /\ option_map (fun e => e 0 0 1 1) (get_eris_bare_r 3 (fun i j k l => Z.of_nat (i + 10 * j + 100 * k + 1000 * l) : ZK) true (list_ascii_of_string "ovov"%string)) = Some 4130%Z.
Proof. repeat split. Qed.

Print Assumptions C53_exact.
Print Assumptions C53_error.
Print Assumptions C53_fewer.
Print Assumptions C53_restricted.
Print Assumptions C53_unrestricted_aa.
Print Assumptions C53_unrestricted_refuted.
Print Assumptions C53_unrestricted_negative_refuted.
Print Assumptions C54_cached.
Print Assumptions C54_restricted.
Print Assumptions C54_values.
Print Assumptions C54_restricted_values.
Print Assumptions C54_refused.
Print Assumptions C54_mixed_refuted.
