(** C43: correlation functions. *)
From Coq Require Import List Arith Bool Lia Ring Field ZArith QArith Qcanon.
From Verif Require Import Alg Ord M_Rdm M_Corrfunc P_Rdm P_Demo.
From Verif Require P_Ints.
Import ListNotations.
Close Scope Q_scope. Close Scope Qc_scope. Close Scope Z_scope. Open Scope nat_scope.

Section Thms.
Context (F : cfield).
Add Field Ff : (fth F).
Open Scope K_scope.
Notation mat := (nat -> nat -> F).
Notation ten := (nat -> nat -> nat -> nat -> F).
Hypothesis H2 : (n2 : F) <> 0.
Hypothesis H3 : (n3 : F) <> 0.
Notation half := ((1 : F) / n2).
Lemma Hhalf : half + half = 1.
Proof. unfold n2 in *. field. auto. Qed.
Lemma mul_nz (a b : F) : a <> 0 -> b <> 0 -> a * b <> 0.
Proof. intros Ha Hb E. apply Hb. transitivity (1 / a * (a * b)); [field; exact Ha|rewrite E; ring]. Qed.
Lemma div4 (a : F) : a / n4 = a / n2 / n2.
Proof. unfold n4. assert (H := mul_nz _ _ H2 H2). field. exact H2. Qed.
Lemma div6 (a : F) : a / n6 = a / n2 / n3.
Proof. unfold n6. assert (H := mul_nz _ _ H2 H3). field. split; assumption. Qed.
Lemma H3' : (1 : F) + (1 + 1) <> 0.
Proof. intros E. apply H3. unfold n3, n2. rewrite <- E. ring. Qed.
Ltac fld := rewrite ?div4, ?div6; unfold n4, n6, n3, n2 in *; field; repeat split; first [exact H2 | exact H3 | exact H3' | exact (mul_nz _ _ H2 H2) | exact (mul_nz _ _ H2 H3) | exact (mul_nz _ _ H3 H2) | idtac].

(** Linearity only *)
Lemma divm (a b : F) : a / b = a * finv b.
Proof. apply (Fdiv_def (fth F)). Qed.
Ltac lin := rewrite ?divm; ring.

(** ** Sums over four indices *)
Lemma pdp_ext n m (d e : ten) p1 p2 : (forall i j k l, (i < n)%nat -> (j < n)%nat -> (k < m)%nat -> (l < m)%nat -> d i j k l = e i j k l) -> pdp n m d p1 p2 = pdp n m e p1 p2.
Proof. intros H. unfold pdp. apply Sum_ext; intros; apply Sum_ext; intros; apply Sum_ext; intros; apply Sum_ext; intros. now rewrite H. Qed.
Lemma pdp_ext' n m (d e : ten) p1 p2 q1 q2 : (forall i j k l, (i < n)%nat -> (j < n)%nat -> (k < m)%nat -> (l < m)%nat -> d i j k l * p1 i j * p2 k l = e i j k l * q1 i j * q2 k l) -> pdp n m d p1 p2 = pdp n m e q1 q2.
Proof. intros H. unfold pdp. apply Sum_ext; intros; apply Sum_ext; intros; apply Sum_ext; intros; apply Sum_ext; intros. now apply H. Qed.
Lemma pdp_add n m (d e : ten) p1 p2 : pdp n m (fun i j k l => d i j k l + e i j k l) p1 p2 = pdp n m d p1 p2 + pdp n m e p1 p2.
Proof. unfold pdp. rewrite <- Sum_add; apply Sum_ext; intros. rewrite <- Sum_add; apply Sum_ext; intros. rewrite <- Sum_add; apply Sum_ext; intros. rewrite <- Sum_add; apply Sum_ext; intros. ring. Qed.
Lemma pdp_scale n m c (d : ten) p1 p2 : pdp n m (fun i j k l => c * d i j k l) p1 p2 = c * pdp n m d p1 p2.
Proof. unfold pdp. rewrite <- Sum_mul_l; apply Sum_ext; intros. rewrite <- Sum_mul_l; apply Sum_ext; intros. rewrite <- Sum_mul_l; apply Sum_ext; intros. rewrite <- Sum_mul_l; apply Sum_ext; intros. ring. Qed.
Lemma pdp_0 n m p1 p2 : @pdp F n m (fun _ _ _ _ => 0) p1 p2 = 0.
Proof. unfold pdp. apply Sum_0; intros; apply Sum_0; intros; apply Sum_0; intros; apply Sum_0; intros. ring. Qed.
Lemma pdp_Lsum {A} n m (l : list A) (d : A -> ten) p1 p2 : pdp n m (fun i j k l' => Lsum l (fun x => d x i j k l')) p1 p2 = Lsum l (fun x => pdp n m (d x) p1 p2).
Proof. induction l as [|x l IH]; cbn [Lsum]; [apply pdp_0|]. rewrite <- IH. apply (pdp_add n m (d x)). Qed.
Lemma pdp_add_1 n m (d : ten) p q p2 : pdp n m d (fun i j => p i j + q i j) p2 = pdp n m d p p2 + pdp n m d q p2.
Proof. rewrite <- (pdp_ext' n m (fun i j k l => d i j k l * q i j) d (fun _ _ => 1) p2 q p2) by (intros; ring). rewrite <- (pdp_ext' n m (fun i j k l => d i j k l * p i j) d (fun _ _ => 1) p2 p p2) by (intros; ring).
  rewrite <- pdp_add. apply pdp_ext'. intros; ring. Qed.
Lemma pdp_add_2 n m (d : ten) p q p1 : pdp n m d p1 (fun i j => p i j + q i j) = pdp n m d p1 p + pdp n m d p1 q.
Proof. rewrite <- (pdp_ext' n m (fun i j k l => d i j k l * q k l) d p1 (fun _ _ => 1) p1 q) by (intros; ring). rewrite <- (pdp_ext' n m (fun i j k l => d i j k l * p k l) d p1 (fun _ _ => 1) p1 p) by (intros; ring).
  rewrite <- pdp_add. apply pdp_ext'. intros; ring. Qed.
Lemma pdp_Lsum_2 {A} n m (l : list A) (d : ten) p1 (p : A -> mat) : pdp n m d p1 (fun i j => Lsum l (fun x => p x i j)) = Lsum l (fun x => pdp n m d p1 (p x)).
Proof. induction l as [|x l IH]; cbn [Lsum]; [unfold pdp; apply Sum_0; intros; apply Sum_0; intros; apply Sum_0; intros; apply Sum_0; intros; ring|]. rewrite <- IH. apply pdp_add_2. Qed.
Lemma pdp_id n (d : ten) : pdp n n d (fun i j => delta i j) (fun i j => delta i j) = tr2 n d.
Proof.
  unfold pdp, tr2. apply Sum_ext. intros i Hi. rewrite (Sum_ext n _ (fun j => delta i j * Sum n (fun k => d i j k k))).
  - now rewrite (Sum_delta_l n i (fun j => Sum n (fun k => d i j k k))).
  - intros j Hj. rewrite <- Sum_mul_l. apply Sum_ext. intros k Hk. rewrite (Sum_ext n _ (fun l => delta k l * (d i j k l * delta i j))) by (intros; ring).
    rewrite (Sum_delta_l n k (fun l => d i j k l * delta i j)) by auto. ring.
Qed.
Lemma pdp_id2 n (d : ten) p : pdp n n d p (fun i j => delta i j) = Sum n (fun i => Sum n (fun j => p i j * Sum n (fun k => d i j k k))).
Proof.
  unfold pdp. apply Sum_ext. intros i Hi. apply Sum_ext. intros j Hj. rewrite <- Sum_mul_l. apply Sum_ext. intros k Hk.
  rewrite (Sum_ext n _ (fun l => delta k l * (d i j k l * p i j))) by (intros; ring). rewrite (Sum_delta_l n k (fun l => d i j k l * p i j)) by auto. ring.
Qed.
(** Coulomb- and exchange-like products *)
Definition X (n : nat) (p1 p2 a b : mat) : F := pdp n n (fun p q r s => a p s * b r q) p1 p2.
Lemma pdp_outer n m (a b : mat) p1 p2 : pdp n m (fun i j k l => a i j * b k l) p1 p2 = dots n a p1 * dots m b p2.
Proof.
  unfold pdp, dots. rewrite <- Sum_mul_r. apply Sum_ext. intros i Hi. rewrite <- Sum_mul_r. apply Sum_ext. intros j Hj. rewrite <- Sum_mul_l. apply Sum_ext. intros k Hk. rewrite <- Sum_mul_l. apply Sum_ext. intros. ring.
Qed.
Lemma X_add_l n p1 p2 (a a' b : mat) : X n p1 p2 (fun i j => a i j + a' i j) b = X n p1 p2 a b + X n p1 p2 a' b.
Proof. unfold X. rewrite <- pdp_add. apply pdp_ext. intros. ring. Qed.
Lemma X_add_r n p1 p2 (a b b' : mat) : X n p1 p2 a (fun i j => b i j + b' i j) = X n p1 p2 a b + X n p1 p2 a b'.
Proof. unfold X. rewrite <- pdp_add. apply pdp_ext. intros. ring. Qed.
Lemma X_scale_l n p1 p2 c (a b : mat) : X n p1 p2 (fun i j => c * a i j) b = c * X n p1 p2 a b.
Proof. unfold X. rewrite <- pdp_scale. apply pdp_ext. intros. ring. Qed.
Lemma X_scale_r n p1 p2 c (a b : mat) : X n p1 p2 a (fun i j => c * b i j) = c * X n p1 p2 a b.
Proof. unfold X. rewrite <- pdp_scale. apply pdp_ext. intros. ring. Qed.
Lemma X_ext n p1 p2 (a a' b b' : mat) : (forall i j, a i j = a' i j) -> (forall i j, b i j = b' i j) -> X n p1 p2 a b = X n p1 p2 a' b'.
Proof. intros Ha Hb. unfold X. apply pdp_ext. intros. now rewrite Ha, Hb. Qed.
Definition sym (a : mat) : Prop := forall i j, a i j = a j i.
Lemma X_sym n p1 p2 (a b : mat) : sym p1 -> sym p2 -> sym a -> sym b -> X n p1 p2 a b = X n p1 p2 b a.
Proof.
  intros Hp Hq Ha Hb. unfold X, pdp. rewrite Sum_swap. apply Sum_ext. intros q Hq'. apply Sum_ext. intros p Hp'. rewrite Sum_swap. apply Sum_ext. intros s Hs. apply Sum_ext. intros r Hr.
  rewrite (Hp p q), (Hq r s), (Ha p s), (Hb r q). ring.
Qed.
Lemma occ_eq n p q : @occ F n p q = if (p <? n)%nat then delta p q else 0.
Proof. unfold occ, delta. destruct (p =? q)%nat, (p <? n)%nat; reflexivity. Qed.
Lemma Sum_lt n m (f : nat -> F) : (m <= n)%nat -> Sum n (fun i => if (i <? m)%nat then f i else 0) = Sum m f.
Proof.
  intros H. replace n with (m + (n - m))%nat by lia. rewrite Sum_split. rewrite (Sum_0 (n - m)). 2:{ intros i Hi. destruct (Nat.ltb_spec (m + i) m); [lia|reflexivity]. }
  rewrite (Sum_ext m _ f); [ring|]. intros i Hi. destruct (Nat.ltb_spec i m); [reflexivity|lia].
Qed.
Lemma dots_occ n m (p : mat) : (m <= n)%nat -> dots n (occ m) p = tr m p.
Proof.
  intros H. unfold dots, tr. rewrite <- (Sum_lt n m) by auto. apply Sum_ext. intros i Hi. destruct (i <? m)%nat eqn:E.
  - rewrite (Sum_ext n _ (fun j => delta i j * p i j)) by (intros; now rewrite occ_eq, E). now apply (Sum_delta_l n i (fun j => p i j)).
  - apply Sum_0. intros. rewrite occ_eq, E. ring.
Qed.
Lemma dots_comm n (a b : mat) : dots n a b = dots n b a.
Proof. unfold dots. apply Sum_ext; intros; apply Sum_ext; intros. ring. Qed.
Lemma dots_add n (a b p : mat) : dots n (fun i j => a i j + b i j) p = dots n a p + dots n b p.
Proof. unfold dots. rewrite <- Sum_add. apply Sum_ext. intros. rewrite <- Sum_add. apply Sum_ext. intros. ring. Qed.
Lemma dots_scale n c (a p : mat) : dots n (fun i j => c * a i j) p = c * dots n a p.
Proof. unfold dots. rewrite <- Sum_mul_l. apply Sum_ext. intros. rewrite <- Sum_mul_l. apply Sum_ext. intros. ring. Qed.
Lemma dots_ext n (a a' p p' : mat) : (forall i j, a i j = a' i j) -> (forall i j, p i j = p' i j) -> dots n a p = dots n a' p'.
Proof. intros Ha Hp. unfold dots. apply Sum_ext; intros; apply Sum_ext; intros. now rewrite Ha, Hp. Qed.
Lemma dots_id n (a : mat) : dots n a (fun i j => delta i j) = tr n a.
Proof. unfold dots, tr. apply Sum_ext. intros i Hi. rewrite (Sum_ext n _ (fun j => delta i j * a i j)) by (intros; ring). now apply (Sum_delta_l n i (fun j => a i j)). Qed.
Lemma dots_id_l n (a : mat) : dots n (fun i j => delta i j) a = tr n a.
Proof. rewrite dots_comm. apply dots_id. Qed.
Lemma dots_Lsum {A} n (l : list A) (a : mat) (p : A -> mat) : dots n a (fun i j => Lsum l (fun x => p x i j)) = Lsum l (fun x => dots n a (p x)).
Proof. induction l as [|x l IH]; cbn [Lsum]; [unfold dots; apply Sum_0; intros; apply Sum_0; intros; ring|]. rewrite <- IH, dots_comm, dots_add, !(dots_comm n a). reflexivity. Qed.
Lemma dpp_add n (a b p q : mat) : dpp n (fun i j => a i j + b i j) p q = dpp n a p q + dpp n b p q.
Proof. unfold dpp. rewrite <- Sum_add. apply Sum_ext. intros. rewrite <- Sum_add. apply Sum_ext. intros. rewrite <- Sum_add. apply Sum_ext. intros. ring. Qed.
Lemma dpp_scale n c (a p q : mat) : dpp n (fun i j => c * a i j) p q = c * dpp n a p q.
Proof. unfold dpp. rewrite <- Sum_mul_l. apply Sum_ext. intros. rewrite <- Sum_mul_l. apply Sum_ext. intros. rewrite <- Sum_mul_l. apply Sum_ext. intros. ring. Qed.
Lemma dpp_add_1 n (a p p' q : mat) : dpp n a (fun i j => p i j + p' i j) q = dpp n a p q + dpp n a p' q.
Proof. unfold dpp. rewrite <- Sum_add. apply Sum_ext. intros. rewrite <- Sum_add. apply Sum_ext. intros. rewrite <- Sum_add. apply Sum_ext. intros. ring. Qed.
Lemma dpp_add_2 n (a p q q' : mat) : dpp n a p (fun i j => q i j + q' i j) = dpp n a p q + dpp n a p q'.
Proof. unfold dpp. rewrite <- Sum_add. apply Sum_ext. intros. rewrite <- Sum_add. apply Sum_ext. intros. rewrite <- Sum_add. apply Sum_ext. intros. ring. Qed.
Lemma dpp_ext n (a b p q : mat) : (forall i j, a i j = b i j) -> dpp n a p q = dpp n b p q.
Proof. intros H. unfold dpp. apply Sum_ext; intros; apply Sum_ext; intros; apply Sum_ext; intros. now rewrite H. Qed.
Lemma dpp_id2 n (a p : mat) : dpp n a p (fun i j => delta i j) = dots n a p.
Proof.
  unfold dpp, dots. apply Sum_ext. intros i Hi. apply Sum_ext. intros j Hj. rewrite (Sum_ext n _ (fun k => delta j k * (a i j * p i k))) by (intros; ring). now apply (Sum_delta_l n j (fun k => a i j * p i k)).
Qed.
Lemma sum_tensordot_pdp n m (p1 : mat) d (p2 : mat) : sum_tensordot n m p1 d p2 = pdp n m d p1 p2.
Proof.
  unfold sum_tensordot, pdp. transitivity (Sum m (fun k => Sum m (fun l => Sum n (fun i => Sum n (fun j => d i j k l * p1 i j * p2 k l))))).
  - apply Sum_ext. intros k Hk. apply Sum_ext. intros l Hl. rewrite <- Sum_mul_r. apply Sum_ext. intros i Hi. rewrite <- Sum_mul_r. apply Sum_ext. intros. ring.
  - rewrite (Sum_ext m _ (fun k => Sum n (fun i => Sum m (fun l => Sum n (fun j => d i j k l * p1 i j * p2 k l))))) by (intros; apply Sum_swap).
    rewrite Sum_swap. apply Sum_ext. intros i Hi.
    rewrite (Sum_ext m _ (fun k => Sum n (fun j => Sum m (fun l => d i j k l * p1 i j * p2 k l)))) by (intros; apply Sum_swap). apply Sum_swap.
Qed.
Lemma sum_tmp_X n m (p1 d p2 : mat) : (m <= n)%nat -> sym d -> sym p2 -> sum_tmp n m p1 d p2 = X n p1 p2 (occ m) d.
Proof.
  intros Hm Hd Hp. unfold sum_tmp, X, pdp. rewrite <- (Sum_lt n m) by auto. apply Sum_ext. intros p Hp'. destruct (p <? m)%nat eqn:E.
  - transitivity (Sum n (fun q => Sum n (fun r => Sum n (fun s => delta p s * (d r q * p1 p q * p2 r s))))).
    + rewrite Sum_swap. apply Sum_ext. intros j Hj. rewrite <- Sum_mul_r. apply Sum_ext. intros k Hk.
      rewrite (Sum_delta_l n p (fun s => d j k * p1 p k * p2 j s)) by auto. rewrite (Hd k j), (Hp p j). ring.
    + apply Sum_ext. intros q Hq. apply Sum_ext. intros r Hr. apply Sum_ext. intros s Hs. rewrite occ_eq, E. ring.
  - symmetry. apply Sum_0; intros; apply Sum_0; intros; apply Sum_0; intros. rewrite occ_eq, E. ring.
Qed.
Lemma sum_tmp_dpp n (p1 d p2 : mat) : sym p1 -> sym p2 -> sum_tmp n n p1 d p2 = dpp n d p1 p2.
Proof.
  intros H1 H2'. unfold sum_tmp, dpp.
  transitivity (Sum n (fun i => Sum n (fun j => Sum n (fun k => d k j * p1 k i * p2 j i)))).
  - apply Sum_ext. intros i Hi. apply Sum_ext. intros j Hj. rewrite <- Sum_mul_r. apply Sum_ext. intros k Hk. rewrite (H1 i k), (H2' i j). ring.
  - rewrite (Sum_ext n _ (fun i => Sum n (fun k => Sum n (fun j => d k j * p1 k i * p2 j i)))) by (intros; apply Sum_swap). rewrite Sum_swap. apply Sum_ext. intros k Hk. apply Sum_swap.
Qed.

(** ** Identity projectors *)
Definition unit : mat := fun i j => delta i j.
Theorem C43_identity : forall n m (dm1 : mat) (dm2 : ten) b (udm1 : mat * mat),
  chargecharge n dm1 (Some dm2) (Some unit) (Some unit) b = chargecharge n dm1 (Some dm2) None None b
  /\ spinspin n dm1 (Some dm2) (Some unit) (Some unit) = spinspin n dm1 (Some dm2) None None
  /\ spinspin n dm1 None (Some unit) (Some unit) = spinspin n dm1 None None None
  /\ uspin_z n m udm1 (Some (Same unit)) = uspin_z n m udm1 None
  /\ uspinspin n m udm1 None (Some (Same unit)) (Some (Same unit)) = uspinspin n m udm1 None None None.
Proof.
  intros n m dm1 dm2 b udm1. assert (XX : forall n (d : mat), Sum n (fun i => Sum n (fun j => Sum n (fun k => Sum n (fun l => unit i j * d i l * (d j k * unit k l))))) = dots n d d).
  { intros k d. unfold dots, unit. apply Sum_ext. intros i Hi. rewrite (Sum_ext k _ (fun j => delta i j * Sum k (fun k' => d i k' * d j k'))).
    - now rewrite (Sum_delta_l k i (fun j => Sum k (fun k' => d i k' * d j k'))).
    - intros j Hj. rewrite <- Sum_mul_l. apply Sum_ext. intros t Ht. rewrite (Sum_ext k _ (fun l => delta t l * (delta i j * d i l * d j t))) by (intros; ring). rewrite (Sum_delta_l k t (fun l => delta i j * d i l * d j t)) by auto. ring. }
  assert (U : forall na nb da db, uspinspin_mf na nb (da, db) (Some (Same unit)) (Some (Same unit)) = uspinspin_mf na nb (da, db) None None).
  { intros. cbn [uspinspin_mf proj_a proj_b]. rewrite !XX. unfold unit. rewrite !dpp_id2, !dots_id_l, !dots_id. fld. }
  split; [|split; [|split; [|split]]].
  - cbn [chargecharge]. unfold unit. now rewrite pdp_id, dpp_id2, dots_id.
  - cbn [spinspin]. unfold unit. now rewrite !pdp_id, dpp_id2, dots_id.
  - cbn [spinspin]. unfold spinspin_mf. cbn [option_map]. apply U.
  - cbn [uspin_z proj_a proj_b]. unfold unit. now rewrite !dots_id.
  - cbn [uspinspin]. destruct udm1 as [da db]. now rewrite U.
Qed.
(** The mean-field charge correlation function without projectors is the one with identity projectors exactly for density matrices of determinants:
    tr(dm1 dm1) = 2 tr(dm1) *)
Theorem C43_identity_mean_field : forall n (dm1 : mat) b, sym dm1 ->
  (chargecharge n dm1 None (Some unit) (Some unit) b = chargecharge n dm1 None None None b <-> dots n dm1 dm1 = n2 * tr n dm1).
Proof.
  intros n dm1 b Hs. cbn [chargecharge]. unfold chargecharge_mf. unfold unit at 5 6. rewrite dpp_id2. rewrite !dots_id.
  assert (E : Sum n (fun i => Sum n (fun k => Sum n (fun j => Sum n (fun l => unit i k * dm1 i j * (dm1 k l * unit l j))))) = dots n dm1 dm1).
  { unfold dots, unit. apply Sum_ext. intros i Hi. rewrite (Sum_ext n _ (fun k => delta i k * Sum n (fun j => dm1 i j * dm1 k j))).
    - now rewrite (Sum_delta_l n i (fun k => Sum n (fun j => dm1 i j * dm1 k j))).
    - intros k Hk. rewrite <- Sum_mul_l. apply Sum_ext. intros j Hj. rewrite (Sum_ext n _ (fun l => delta l j * (delta i k * dm1 i j * dm1 k l))) by (intros; ring).
      rewrite (Sum_delta_l' n j (fun l => delta i k * dm1 i j * dm1 k l)) by auto. ring. }
  rewrite E. split.
  - intros H. assert (G : tr n dm1 - dots n dm1 dm1 / n2 = 0).
    { destruct b; [|apply (f_equal (fun x => x - tr n dm1 * tr n dm1)) in H]; (etransitivity; [|etransitivity; [exact H|]]); unfold unit; rewrite ?dots_id; ring. }
    transitivity (n2 * tr n dm1 - n2 * (tr n dm1 - dots n dm1 dm1 / n2)); [fld|rewrite G; ring].
  - intros ->. destruct b; unfold unit; rewrite ?dots_id; fld.
Qed.

(** ** Additivity in each projector *)
Definition addp (p q : mat) : mat := fun i j => p i j + q i j.
Definition addu (p q : uproj (F := F)) : uproj := Pair (addp (proj_a p) (proj_a q)) (addp (proj_b p) (proj_b q)).
Lemma dots_add_2 n (a p q : mat) : dots n a (addp p q) = dots n a p + dots n a q.
Proof. rewrite dots_comm. unfold addp. rewrite dots_add, !(dots_comm n a). reflexivity. Qed.
Lemma dots_add_1 n (p q a : mat) : dots n (addp p q) a = dots n p a + dots n q a.
Proof. apply dots_add. Qed.
Definition x4 (n : nat) (p d p' : mat) : F := Sum n (fun i => Sum n (fun j => Sum n (fun k => Sum n (fun l => p i j * d i l * (d j k * p' k l))))).
Lemma x4_pdp n p d p' : x4 n p d p' = pdp n n (fun i j k l => d i l * d j k) p p'.
Proof. unfold x4, pdp. apply Sum_ext; intros; apply Sum_ext; intros; apply Sum_ext; intros; apply Sum_ext; intros. ring. Qed.
Definition x4' (n : nat) (p d p' : mat) : F := Sum n (fun i => Sum n (fun k => Sum n (fun j => Sum n (fun l => p i k * d i j * (d k l * p' l j))))).
Lemma x4'_eq n p d p' : x4' n p d p' = x4 n p d p'.
Proof. unfold x4', x4. apply Sum_ext. intros. apply Sum_ext. intros. apply Sum_swap. Qed.
Theorem C43_additive : forall n m (dm1 : mat) (udm1 : mat * mat) dm2 udm2 p p' r b (up up' ur : uproj),
  let S x := Some x in
  chargecharge n dm1 dm2 (S (addp p p')) (S r) b = chargecharge n dm1 dm2 (S p) (S r) b + chargecharge n dm1 dm2 (S p') (S r) b
  /\ chargecharge n dm1 dm2 (S r) (S (addp p p')) b = chargecharge n dm1 dm2 (S r) (S p) b + chargecharge n dm1 dm2 (S r) (S p') b
  /\ spinspin n dm1 dm2 (S (addp p p')) (S r) = spinspin n dm1 dm2 (S p) (S r) + spinspin n dm1 dm2 (S p') (S r)
  /\ spinspin n dm1 dm2 (S r) (S (addp p p')) = spinspin n dm1 dm2 (S r) (S p) + spinspin n dm1 dm2 (S r) (S p')
  /\ uspin_z n m udm1 (Some (addu up up')) = uspin_z n m udm1 (Some up) + uspin_z n m udm1 (Some up')
  /\ (exists x y, uspinspin n m udm1 udm2 (Some up) (Some ur) = Some x /\ uspinspin n m udm1 udm2 (Some up') (Some ur) = Some y
       /\ uspinspin n m udm1 udm2 (Some (addu up up')) (Some ur) = Some (x + y))
  /\ exists x y, uspinspin n m udm1 udm2 (Some ur) (Some up) = Some x /\ uspinspin n m udm1 udm2 (Some ur) (Some up') = Some y
       /\ uspinspin n m udm1 udm2 (Some ur) (Some (addu up up')) = Some (x + y).
Proof.
  intros n m dm1 udm1 dm2 udm2 p p' r b up up' ur S.
  assert (UM : forall n m (u : mat * mat) up up' ur, uspinspin_mf n m u (Some (addu up up')) (Some ur) = uspinspin_mf n m u (Some up) (Some ur) + uspinspin_mf n m u (Some up') (Some ur)
    /\ uspinspin_mf n m u (Some ur) (Some (addu up up')) = uspinspin_mf n m u (Some ur) (Some up) + uspinspin_mf n m u (Some ur) (Some up')).
  { intros a c [da db] vp vp' vr. cbn [uspinspin_mf addu proj_a proj_b].
    repeat match goal with |- context [Sum ?N (fun i => Sum ?N (fun j => Sum ?N (fun k => Sum ?N (fun l => ?P i j * ?D i l * (?D j k * ?Q k l)))))] =>
      change (Sum N (fun i => Sum N (fun j => Sum N (fun k => Sum N (fun l => P i j * D i l * (D j k * Q k l)))))) with (x4 N P D Q) end.
    rewrite !x4_pdp, !dots_add_1, !dots_add_2. unfold addp. rewrite !pdp_add_1, !pdp_add_2, !dpp_add_1, !dpp_add_2. split; lin. }
  assert (SA : forall (p p' : mat) (v : uproj) (u : mat * mat), uspinspin_mf n n u (Some (Same (addp p p'))) (Some v) = uspinspin_mf n n u (Some (addu (Same p) (Same p'))) (Some v)
     /\ uspinspin_mf n n u (Some v) (Some (Same (addp p p'))) = uspinspin_mf n n u (Some v) (Some (addu (Same p) (Same p')))) by (intros ? ? ? [? ?]; split; reflexivity).
  subst S. cbv beta. split; [|split; [|split; [|split; [|split; [|split]]]]].
  - destruct dm2 as [dm2|]; cbn [chargecharge].
    + rewrite dots_add_2. unfold addp. rewrite pdp_add_1, dpp_add_1. destruct b; ring.
    + unfold chargecharge_mf. fold (x4' n p dm1 r) (x4' n p' dm1 r) (x4' n (addp p p') dm1 r). rewrite !x4'_eq, !x4_pdp, dots_add_2. unfold addp. rewrite pdp_add_1, dpp_add_1. destruct b; lin.
  - destruct dm2 as [dm2|]; cbn [chargecharge].
    + rewrite dots_add_2. unfold addp. rewrite pdp_add_2, dpp_add_2. destruct b; ring.
    + unfold chargecharge_mf. fold (x4' n r dm1 p) (x4' n r dm1 p') (x4' n r dm1 (addp p p')). rewrite !x4'_eq, !x4_pdp, dots_add_2. unfold addp. rewrite pdp_add_2, dpp_add_2. destruct b; lin.
  - destruct dm2 as [dm2|]; cbn [spinspin].
    + unfold addp. rewrite !pdp_add_1, dpp_add_1. lin.
    + unfold spinspin_mf. cbn [option_map]. destruct (SA p p' (Same r) ((fun i j => dm1 i j / n2), (fun i j => dm1 i j / n2))) as [-> _]. exact (Logic.proj1 (UM n n ((fun i j => dm1 i j / n2), (fun i j => dm1 i j / n2)) (Same p) (Same p') (Same r))).
  - destruct dm2 as [dm2|]; cbn [spinspin].
    + unfold addp. rewrite !pdp_add_2, dpp_add_2. lin.
    + unfold spinspin_mf. cbn [option_map]. destruct (SA p p' (Same r) ((fun i j => dm1 i j / n2), (fun i j => dm1 i j / n2))) as [_ ->]. exact (Logic.proj2 (UM n n ((fun i j => dm1 i j / n2), (fun i j => dm1 i j / n2)) (Same p) (Same p') (Same r))).
  - cbn [uspin_z addu proj_a proj_b]. rewrite !dots_add_2. lin.
  - destruct udm2 as [[[aa ab] bb]|]; cbn [uspinspin].
    + destruct udm1 as [da db]. do 2 eexists. split; [reflexivity|]. split; [reflexivity|]. f_equal. cbn [addu proj_a proj_b]. unfold addp. rewrite !pdp_add_1, !pdp_add_2, !dpp_add_1. lin.
    + do 2 eexists. split; [reflexivity|]. split; [reflexivity|]. f_equal. exact (Logic.proj1 (UM n m udm1 up up' ur)).
  - destruct udm2 as [[[aa ab] bb]|]; cbn [uspinspin].
    + destruct udm1 as [da db]. do 2 eexists. split; [reflexivity|]. split; [reflexivity|]. f_equal. cbn [addu proj_a proj_b]. unfold addp. rewrite !pdp_add_1, !pdp_add_2, !dpp_add_2. lin.
    + do 2 eexists. split; [reflexivity|]. split; [reflexivity|]. f_equal. exact (Logic.proj2 (UM n m udm1 up up' ur)).
Qed.

(** ** Mean-field versions: the general functions with the two-particle density matrix of a determinant *)
Theorem C43_mean_field : forall n m (dm1 da db p1 p2 : mat) o1 o2 up1 up2 b, sym dm1 -> sym da -> sym db ->
  chargecharge n dm1 None (Some p1) (Some p2) b = chargecharge n dm1 (Some (product half dm1)) (Some p1) (Some p2) b
  /\ spinspin n dm1 None o1 o2 = spinspin n dm1 (Some (product half dm1)) o1 o2
  /\ uspinspin n m (da, db) None (Some up1) (Some up2) = uspinspin n m (da, db) (Some (product_ss da, product_ab da db, product_ss db)) (Some up1) (Some up2).
Proof.
  intros n m dm1 da db p1 p2 o1 o2 up1 up2 b Hs Ha Hb.
  assert (EX : forall n (d p p' : mat), sym d -> x4 n p d p' = X n p p' d d). { intros k d p p' Hd. rewrite x4_pdp. unfold X. apply pdp_ext. intros. now rewrite (Hd j k0). }
  assert (PS : forall n (d p p' : mat), pdp n n (product_ss d) p p' = dots n d p * dots n d p' - X n p p' d d).
  { intros k d p p'. rewrite <- pdp_outer. unfold X. transitivity (pdp k k (fun i j k l => d i j * d k l + - (1) * (d i l * d k j)) p p'); [apply pdp_ext; intros; unfold product_ss; ring|].
    rewrite pdp_add, (pdp_scale k k (- (1)) (fun i j k l => d i l * d k j)). ring. }
  assert (PP : forall n (d p p' : mat), pdp n n (product half d) p p' = dots n d p * dots n d p' - half * X n p p' d d).
  { intros k d p p'. rewrite <- pdp_outer. unfold X. transitivity (pdp k k (fun i j k l => d i j * d k l + - half * (d i l * d k j)) p p'); [apply pdp_ext; intros; unfold product; ring|].
    rewrite pdp_add, (pdp_scale k k (- half) (fun i j k l => d i l * d k j)). ring. }
  assert (PT : forall n (d p p' : mat), pdp n n (t0321 (product half d)) p p' = X n p p' d d - half * (dots n d p * dots n d p')).
  { intros k d p p'. rewrite <- pdp_outer. unfold X. transitivity (pdp k k (fun i j k l => d i l * d k j + - half * (d i j * d k l)) p p'); [apply pdp_ext; intros; unfold product, t0321; ring|].
    rewrite pdp_add, (pdp_scale k k (- half) (fun i j k l => d i j * d k l)). ring. }
  split; [|split].
  - cbn [chargecharge]. unfold chargecharge_mf. fold (x4' n p1 dm1 p2). rewrite x4'_eq, EX, PP by auto. destruct b; fld.
  - change (spinspin n dm1 None o1 o2) with (spinspin_mf n dm1 o1 o2). unfold spinspin_mf.
    assert (M : forall q1 q2, uspinspin_mf n n ((fun i j => dm1 i j / n2), (fun i j => dm1 i j / n2)) (Some (Same q1)) (Some (Same q2))
       = spinspin n dm1 (Some (product half dm1)) (Some q1) (Some q2)).
    { intros q1 q2. cbn [uspinspin_mf spinspin proj_a proj_b]. fold (x4 n q1 (fun i j => dm1 i j / n2) q2). rewrite EX by (intros i j; now rewrite (Hs i j)).
      rewrite (X_ext n q1 q2 (fun i j => dm1 i j / n2) (fun i j => half * dm1 i j) (fun i j => dm1 i j / n2) (fun i j => half * dm1 i j)) by (intros; lin).
      rewrite X_scale_l, X_scale_r. rewrite (dots_comm n q1 (fun i j => dm1 i j / n2)).
      rewrite !(dots_ext n (fun i j => dm1 i j / n2) (fun i j => half * dm1 i j) q1 q1) by (intros; lin). rewrite !(dots_ext n (fun i j => dm1 i j / n2) (fun i j => half * dm1 i j) q2 q2) by (intros; lin).
      rewrite !(dpp_ext n (fun i j => dm1 i j / n2) (fun i j => half * dm1 i j)) by (intros; lin). rewrite !dots_scale, !dpp_scale.
      rewrite (pdp_ext n n (fun i j k l => product half dm1 i j k l / n2 - _) (fun i j k l => (half - 1 / n6) * product half dm1 i j k l + (1 / n6) * t0321 (product half dm1) i j k l)) by (intros; lin).
      rewrite (pdp_ext n n (fun i j k l => (product half dm1 i j k l - _) / n6) (fun i j k l => (1 / n6) * product half dm1 i j k l + - (1 / n6) * t0321 (product half dm1) i j k l)) by (intros; lin).
      rewrite !pdp_add, !pdp_scale, PP, PT.
      set (x := X n q1 q2 dm1 dm1). set (y := dots n dm1 q1). set (z := dots n dm1 q2). set (t := dpp n dm1 q1 q2). fld. }
    assert (G : forall q1 q2, spinspin n dm1 (Some (product half dm1)) q1 q2 = match q1, q2 with Some a, Some c => spinspin n dm1 (Some (product half dm1)) (Some a) (Some c) | Some a, None => spinspin n dm1 (Some (product half dm1)) (Some a) (Some a) | None, _ => spinspin n dm1 (Some (product half dm1)) (Some unit) (Some unit) end).
    { intros [q1|] [q2|]; try reflexivity; [|symmetry; apply (C43_identity n n dm1 (product half dm1) true (dm1, dm1))]. symmetry. etransitivity; [apply (C43_identity n n dm1 (product half dm1) true (dm1, dm1))|reflexivity]. }
    rewrite G. destruct o1 as [q1|], o2 as [q2|]; cbn [option_map].
    + apply M.
    + rewrite <- M. reflexivity.
    + rewrite <- M. etransitivity; [|symmetry; apply (C43_identity n n dm1 (product half dm1) true (dm1, dm1))]. reflexivity.
    + rewrite <- M. symmetry. apply (C43_identity n n dm1 (product half dm1) true (dm1, dm1)).
  - cbn [uspinspin uspinspin_mf]. f_equal.
    repeat match goal with |- context [Sum ?N (fun i => Sum ?N (fun j => Sum ?N (fun k => Sum ?N (fun l => ?P i j * ?D i l * (?D j k * ?Q k l)))))] =>
      change (Sum N (fun i => Sum N (fun j => Sum N (fun k => Sum N (fun l => P i j * D i l * (D j k * Q k l)))))) with (x4 N P D Q) end.
    rewrite !EX, !PS by auto. unfold product_ab. rewrite !pdp_outer, (dots_comm n (proj_a up1) da), (dots_comm m (proj_b up1) db). lin.
Qed.

(** ** Expectation values of operators: with <E_ij E_kl> = dm2_ijkl + delta_jk dm1_il and symmetric second projector, the charge correlation function is
    the covariance (or the expectation value) of the number operators sum_ij p_ij E_ij *)
Theorem C43_operators : forall n (dm1 : mat) (dm2 : ten) p1 p2 b, sym p2 ->
  chargecharge n dm1 (Some dm2) (Some p1) (Some p2) b
  = Sum n (fun i => Sum n (fun j => Sum n (fun k => Sum n (fun l => p1 i j * p2 k l * (dm2 i j k l + delta j k * dm1 i l)))))
    - (if b then Sum n (fun i => Sum n (fun j => p1 i j * dm1 i j)) * Sum n (fun i => Sum n (fun j => p2 i j * dm1 i j)) else 0).
Proof.
  intros n dm1 dm2 p1 p2 b Hs. cbn [chargecharge].
  assert (E : Sum n (fun i => Sum n (fun j => Sum n (fun k => Sum n (fun l => p1 i j * p2 k l * (dm2 i j k l + delta j k * dm1 i l))))) = pdp n n dm2 p1 p2 + dpp n dm1 p1 p2).
  { transitivity (pdp n n (fun i j k l => dm2 i j k l + delta j k * dm1 i l) p1 p2); [unfold pdp; apply Sum_ext; intros; apply Sum_ext; intros; apply Sum_ext; intros; apply Sum_ext; intros; ring|].
    rewrite pdp_add. f_equal. unfold pdp, dpp. apply Sum_ext. intros i Hi. symmetry. rewrite Sum_swap. apply Sum_ext. intros j Hj. symmetry.
    rewrite (Sum_ext n _ (fun k => delta j k * Sum n (fun l => dm1 i l * p1 i j * p2 k l))) by (intros; rewrite <- Sum_mul_l; apply Sum_ext; intros; ring).
    rewrite (Sum_delta_l n j (fun k => Sum n (fun l => dm1 i l * p1 i j * p2 k l))) by auto. apply Sum_ext. intros l Hl. now rewrite (Hs j l). }
  rewrite E. fold (dots n p1 dm1). fold (dots n p2 dm1). rewrite !(dots_comm n dm1). destruct b; ring.
Qed.
(** ** Singlets: the restricted function is the unrestricted one with the spin blocks of the density matrices *)
Theorem C43_singlet : forall n (dm1a : mat) (dm2aa dm2ab : ten) p1 p2,
  (forall i j k l, dm2aa i j k l = dm2ab i j k l - dm2ab i l k j) -> (forall i j k l, dm2ab i j k l = dm2ab k l i j) ->
  uspinspin n n (dm1a, dm1a) (Some (dm2aa, dm2ab, dm2aa)) (Some (Same p1)) (Some (Same p2))
  = Some (spinspin n (fun i j => n2 * dm1a i j) (Some (fun i j k l => n2 * (dm2aa i j k l + dm2ab i j k l))) (Some p1) (Some p2)).
Proof.
  intros n d aa ab p1 p2 Ha Hb. cbn [uspinspin spinspin proj_a proj_b]. f_equal.
  rewrite (dpp_ext n (fun i j => n2 * d i j / n2) d) by (intros; fld).
  rewrite (pdp_ext n n (fun i j k l => (n2 * (aa i j k l + ab i j k l) - _) / n6) aa).
  2:{ intros. unfold t0321. rewrite !Ha. fld. }
  rewrite (pdp_ext n n (fun i j k l => n2 * (aa i j k l + ab i j k l) / n2 - _) ab).
  2:{ intros. unfold t0321. rewrite !Ha. fld. }
  assert (E : pdp n n ab p2 p1 = pdp n n ab p1 p2).
  { unfold pdp. rewrite (Sum_ext n _ (fun i => Sum n (fun k => Sum n (fun j => Sum n (fun l => ab i j k l * p2 i j * p1 k l))))) by (intros; apply Sum_swap). rewrite Sum_swap. apply Sum_ext. intros k Hk.
    rewrite (Sum_ext n _ (fun i => Sum n (fun l => Sum n (fun j => ab i j k l * p2 i j * p1 k l)))) by (intros; apply Sum_swap). rewrite Sum_swap. apply Sum_ext. intros l Hl.
    apply Sum_ext. intros i Hi. apply Sum_ext. intros j Hj. rewrite Hb. ring. }
  rewrite E. fld.
Qed.
(** ** Sum rules. N-particle states: the partial trace of dm2 is (N - 1) dm1; the fluctuation of the total charge with any charge vanishes.
    Singlets: the exchange partial trace is (2 - N/2) dm1; the total spin is uncorrelated with any spin. *)
Definition n_particles (n : nat) (N : F) (dm1 : mat) (dm2 : ten) : Prop := tr n dm1 = N /\ forall i j, (i < n)%nat -> (j < n)%nat -> Sum n (fun k => dm2 i j k k) = (N - 1) * dm1 i j.
Definition singlet (n : nat) (N : F) (dm1 : mat) (dm2 : ten) : Prop := forall i j, (i < n)%nat -> (j < n)%nat -> Sum n (fun k => dm2 i k k j) = (n2 - N / n2) * dm1 i j.
Theorem C43_sum_rule : forall n N (dm1 : mat) (dm2 : ten) p, n_particles n N dm1 dm2 ->
  chargecharge n dm1 (Some dm2) (Some p) (Some unit) true = 0 /\ chargecharge n dm1 (Some dm2) None None true = 0
  /\ chargecharge n dm1 (Some dm2) None None false = N * N
  /\ (singlet n N dm1 dm2 -> spinspin n dm1 (Some dm2) (Some p) (Some unit) = 0 /\ spinspin n dm1 (Some dm2) None None = 0).
Proof.
  intros n N dm1 dm2 p (HN & Hp).
  assert (A : forall p, chargecharge n dm1 (Some dm2) (Some p) (Some unit) true = 0).
  { intros q. cbn [chargecharge]. unfold unit. rewrite pdp_id2, dpp_id2, dots_id, HN.
    rewrite (Sum_ext n _ (fun i => (N - 1) * Sum n (fun j => dm1 i j * q i j))).
    2:{ intros i Hi. rewrite <- Sum_mul_l. apply Sum_ext. intros j Hj. rewrite Hp by auto. ring. }
    rewrite Sum_mul_l. fold (dots n dm1 q). ring. }
  destruct (C43_identity n n dm1 dm2 true (dm1, dm1)) as (I1 & _). destruct (C43_identity n n dm1 dm2 true (dm1, dm1)) as (_ & I2 & _).
  split; [apply A|]. split; [rewrite <- I1; apply A|]. split.
  - assert (B := A unit). rewrite I1 in B. cbn [chargecharge] in B |- *. rewrite HN in *. transitivity (tr2 n dm2 + N - N * N + N * N); [ring|rewrite B; ring].
  - intros Hs. assert (C : forall p, spinspin n dm1 (Some dm2) (Some p) (Some unit) = 0).
    { intros q. cbn [spinspin].
      rewrite (pdp_ext n n (fun i j k l => dm2 i j k l / n2 - _) (fun i j k l => (1 / n2 - 1 / n6) * dm2 i j k l + (1 / n6) * t0321 dm2 i j k l)) by (intros; lin).
      rewrite (pdp_ext n n (fun i j k l => (dm2 i j k l - _) / n6) (fun i j k l => (1 / n6) * dm2 i j k l + - (1 / n6) * t0321 dm2 i j k l)) by (intros; lin).
      rewrite (dpp_ext n (fun i j => dm1 i j / n2) (fun i j => half * dm1 i j)) by (intros; lin).
      rewrite !pdp_add, !pdp_scale, dpp_scale. unfold unit. rewrite !pdp_id2, dpp_id2.
      rewrite (Sum_ext n _ (fun i => (N - 1) * Sum n (fun j => dm1 i j * q i j))).
      2:{ intros i Hi. rewrite <- Sum_mul_l. apply Sum_ext. intros j Hj. rewrite Hp by auto. ring. }
      rewrite (Sum_ext n (fun i => Sum n (fun j => q i j * Sum n (fun k => t0321 dm2 i j k k))) (fun i => (n2 - N / n2) * Sum n (fun j => dm1 i j * q i j))).
      2:{ intros i Hi. rewrite <- Sum_mul_l. apply Sum_ext. intros j Hj. unfold t0321. rewrite Hs by auto. ring. }
      rewrite !Sum_mul_l. fold (dots n dm1 q). fld. }
    split; [apply C|rewrite <- I2; apply C].
Qed.

(** ** The embedding functions *)
(** A two-particle array of a cluster in the MO basis *)
Definition mo4 (m m' : nat) (rx rx' : mat) (d : ten) : ten := fun p q r s =>
  Sum m (fun x => Sum m (fun y => Sum m' (fun z => Sum m' (fun w => rx x p * rx y q * rx' z r * rx' w s * d x y z w)))).
Lemma projx_pdp n n' m m' (rx rx' p1 p2 : mat) (d : ten) : pdp m m' d (projx n rx p1) (projx n' rx' p2) = pdp n n' (mo4 m m' rx rx' d) p1 p2.
Proof.
  transitivity (Sum m (fun x => Sum m (fun y => Sum m' (fun z => Sum m' (fun w => Sum n (fun a => Sum n (fun b => Sum n' (fun c => Sum n' (fun e => (rx x a * rx y b * rx' z c * rx' w e * d x y z w) * p1 a b * p2 c e)))))))) ).
  - unfold pdp, projx. apply Sum_ext; intros x _; apply Sum_ext; intros y _; apply Sum_ext; intros z _; apply Sum_ext; intros w _.
    transitivity (d x y z w * (Sum n (fun a => Sum n (fun b => rx x a * p1 a b * rx y b)) * Sum n' (fun a => Sum n' (fun b => rx' z a * p2 a b * rx' w b)))); [ring|].
    rewrite <- Sum_mul_r, <- Sum_mul_l. apply Sum_ext; intros a _. rewrite <- Sum_mul_r, <- Sum_mul_l. apply Sum_ext; intros b _. rewrite <- Sum_mul_l, <- Sum_mul_l. apply Sum_ext; intros c _. rewrite <- Sum_mul_l, <- Sum_mul_l. apply Sum_ext; intros e _. ring.
  - unfold pdp, mo4.
    transitivity (Sum n (fun a => Sum n (fun b => Sum n' (fun c => Sum n' (fun e => Sum m (fun x => Sum m (fun y => Sum m' (fun z => Sum m' (fun w => (rx x a * rx y b * rx' z c * rx' w e * d x y z w) * p1 a b * p2 c e)))))))) ).
    + set (G := fun x y z w a b c e => rx x a * rx y b * rx' z c * rx' w e * d x y z w * p1 a b * p2 c e).
      assert (SW : forall m (f : nat -> nat -> nat -> nat -> nat -> F), Sum m (fun x => Sum n (fun a => Sum n (fun b => Sum n' (fun c => Sum n' (fun e => f x a b c e))))) = Sum n (fun a => Sum n (fun b => Sum n' (fun c => Sum n' (fun e => Sum m (fun x => f x a b c e)))))).
      { intros k f. rewrite Sum_swap. apply Sum_ext; intros. rewrite Sum_swap. apply Sum_ext; intros. rewrite Sum_swap. apply Sum_ext; intros. apply Sum_swap. }
      change (Sum m (fun x => Sum m (fun y => Sum m' (fun z => Sum m' (fun w => Sum n (fun a => Sum n (fun b => Sum n' (fun c => Sum n' (fun e => G x y z w a b c e)))))))) =
              Sum n (fun a => Sum n (fun b => Sum n' (fun c => Sum n' (fun e => Sum m (fun x => Sum m (fun y => Sum m' (fun z => Sum m' (fun w => G x y z w a b c e)))))))) ).
      rewrite <- (SW m (fun x a b c e => Sum m (fun y => Sum m' (fun z => Sum m' (fun w => G x y z w a b c e))))). apply Sum_ext; intros x _.
      rewrite <- (SW m (fun y a b c e => Sum m' (fun z => Sum m' (fun w => G x y z w a b c e)))). apply Sum_ext; intros y _.
      rewrite <- (SW m' (fun z a b c e => Sum m' (fun w => G x y z w a b c e))). apply Sum_ext; intros z _. apply (SW m' (fun w a b c e => G x y z w a b c e)).
    + apply Sum_ext; intros a _; apply Sum_ext; intros b _; apply Sum_ext; intros c _; apply Sum_ext; intros e _. rewrite <- !Sum_mul_r; apply Sum_ext; intros x _. rewrite <- !Sum_mul_r; apply Sum_ext; intros y _. rewrite <- !Sum_mul_r; apply Sum_ext; intros z _. rewrite <- !Sum_mul_r; apply Sum_ext; intros w _. reflexivity.
Qed.
Definition cumulant (given : option ten) (frags : list (cfrag (F := F))) : ten := match given with
  | Some d => d
  | None => fun p q r s => Lsum frags (fun fx => Lsum (cf_rx fx) (fun rx => mo4 (cf_n fx) (cf_n fx) rx rx (cf_dm2 fx) p q r s)) end.
Lemma fold_add {A} (f : A -> F) l : forall c, fold_left (fun c x => c + f x) l c = c + Lsum l f.
Proof. induction l as [|x l IH]; intros c; cbn [fold_left Lsum]; [ring|]. rewrite IH. ring. Qed.
Lemma fold_frags {A B} (l : list A) (sub : A -> list B) (f : A -> B -> F) : forall c, fold_left (fun c x => fold_left (fun c y => c + f x y) (sub x) c) l c = c + Lsum l (fun x => Lsum (sub x) (f x)).
Proof. induction l as [|x l IH]; intros c; cbn [fold_left Lsum]; [ring|]. rewrite IH, fold_add. ring. Qed.
Lemma kind_pdp k n (d : ten) p1 p2 : pdp n n (kind_dm2 k d) p1 p2 = match k with SzSz => - (pdp n n d p1 p2 / n6 + pdp n n (t0321 d) p1 p2 / n3) | _ => pdp n n d p1 p2 end.
Proof.
  destruct k; [reflexivity|reflexivity|]. cbn [kind_dm2]. rewrite (pdp_ext n n _ (fun i j k l => (- (1 / n6)) * d i j k l + (- (1 / n3)) * t0321 d i j k l)) by (intros; lin).
  rewrite pdp_add, !pdp_scale. lin.
Qed.
Lemma kind_mo4 k m rx d i j r l : kind_dm2 k (mo4 m m rx rx d) i j r l = mo4 m m rx rx (kind_dm2 k d) i j r l.
Proof.
  destruct k; [reflexivity|reflexivity|]. cbn [kind_dm2]. unfold mo4, t0321.
  rewrite (Sum_ext m (fun x => Sum m (fun y => Sum m (fun z => Sum m (fun w => rx x i * rx y l * rx z r * rx w j * d x y z w)))) (fun x => Sum m (fun y => Sum m (fun z => Sum m (fun w => rx x i * rx y j * rx z r * rx w l * d x w z y))))).
  2:{ intros x _. rewrite (Sum_ext m _ (fun y => Sum m (fun w => Sum m (fun z => rx x i * rx y l * rx z r * rx w j * d x y z w)))) by (intros; apply Sum_swap). rewrite Sum_swap. apply Sum_ext. intros w _. rewrite Sum_swap. apply Sum_ext; intros; apply Sum_ext; intros. ring. }
  set (A := Sum m _). set (B := Sum m _). transitivity ((- (1 / n6)) * A + (- (1 / n3)) * B); [lin|]. unfold A, B.
  rewrite <- !Sum_mul_l, <- Sum_add. apply Sum_ext; intros. rewrite <- !Sum_mul_l, <- Sum_add. apply Sum_ext; intros. rewrite <- !Sum_mul_l, <- Sum_add. apply Sum_ext; intros. rewrite <- !Sum_mul_l, <- Sum_add. apply Sum_ext; intros. lin.
Qed.
Definition reference (k : kind) (n : nat) (dm1 : mat) (dm2 : ten) (pa pb : mat) : F :=
  match k with
  | NN => chargecharge n dm1 (Some dm2) (Some pa) (Some pb) false
  | DNDN => chargecharge n dm1 (Some dm2) (Some pa) (Some pb) true
  | SzSz => spinspin n dm1 (Some dm2) (Some pa) (Some pb)
  end.
Definition flag (gtb : F -> F -> bool) (N : F) (norm : option F) (given : option bool) : bool :=
  match given, norm with Some b, _ => b | None, None => false | None, Some x => gtb x (N * (N - 1) / n2) end.
(** get_corrfunc is the plain function of the 1-DM and of the 2-DM that consists of the cumulant (given, or from all fragments and their symmetry
    children) and the products of 1-DMs (unless the given 2-DM contains them), as in make_rdm2 *)
Theorem C43_embedding : forall gtb n nocc N k dm1 dm2 given frags pa pb, (nocc <= n)%nat -> sym pa -> sym pb -> sym dm1 ->
  corr gtb n nocc N k dm1 dm2 given frags pa pb
  = reference k n dm1 (fun p q r s => (if flag gtb N (option_map (tr2 n) dm2) given then 0 else mixed_spec F half nocc (fun p q => dm1 p q - mf_dm1 nocc p q) p q r s) + cumulant dm2 frags p q r s) pa pb.
Proof.
  intros gtb n nocc N k dm1 dm2 given frags pa pb Hn Ha Hb Hs. unfold corr.
  replace (match given with Some b => b | None => match dm2 with Some d => dm2_flag gtb (tr2 n d) N None | None => false end end) with (flag gtb N (option_map (tr2 n) dm2) given) by (destruct given, dm2; reflexivity).
  set (fl := flag gtb N (option_map (tr2 n) dm2) given). set (D := fun p q => dm1 p q - mf_dm1 nocc p q).
  set (f22 := match k with SzSz => (1 / n2 : F) | _ => 1 end).
  assert (HD : sym D) by (intros i j; unfold D, mf_dm1; now rewrite (Hs i j), (occ_sym nocc i j)).
  assert (Hc : forall c, match dm2 with Some d => c + f22 * sum_tensordot n n pa (kind_dm2 k d) pb
      | None => fold_left (fun c fx => fold_left (fun c rx => c + f22 * sum_tensordot (cf_n fx) (cf_n fx) (projx n rx pa) (kind_dm2 k (cf_dm2 fx)) (projx n rx pb)) (cf_rx fx) c) frags c end
      = c + f22 * pdp n n (kind_dm2 k (cumulant dm2 frags)) pa pb).
  { intros c. destruct dm2 as [d|]; [now rewrite sum_tensordot_pdp|]. rewrite fold_frags. f_equal. cbn [cumulant].
    rewrite (pdp_ext n n _ (fun p q r s => Lsum frags (fun fx => Lsum (cf_rx fx) (fun rx => kind_dm2 k (mo4 (cf_n fx) (cf_n fx) rx rx (cf_dm2 fx)) p q r s)))).
    - rewrite pdp_Lsum, <- Lsum_mul_l. apply Lsum_ext. intros fx _. rewrite pdp_Lsum, <- Lsum_mul_l. apply Lsum_ext. intros rx _. rewrite sum_tensordot_pdp, projx_pdp. f_equal. apply pdp_ext. intros. now rewrite kind_mo4.
    - intros i j r s _ _ _ _. destruct k; [reflexivity|reflexivity|]. cbn [kind_dm2]. unfold t0321.
      match goal with |- - (?A / n6 + ?B / n3) = _ => transitivity ((- (1 / n6)) * A + (- (1 / n3)) * B); [lin|] end. rewrite <- !Lsum_mul_l, <- Lsum_add. apply Lsum_ext. intros fx _. rewrite <- !Lsum_mul_l, <- Lsum_add. apply Lsum_ext. intros. lin. }
  (* products of 1-DMs *)
  set (x := X n pa pb (occ nocc) D). set (y := X n pa pb (occ nocc) (occ nocc)).
  assert (SX : sum_tmp n nocc pa (add_diag nocc (- (1)) dm1) pb = x + y).
  { rewrite sum_tmp_X; auto; [|intros i j; rewrite !add_diag_occ, (Hs i j), (occ_sym nocc i j); reflexivity].
    rewrite (X_ext n pa pb (occ nocc) (occ nocc) (add_diag nocc (- (1)) dm1) (fun i j => D i j + occ nocc i j)); [apply X_add_r|reflexivity|]. intros. rewrite add_diag_occ. unfold D, mf_dm1, two. ring. }
  assert (SD : forall p, dots n p (add_diag nocc (- (1)) dm1) = dots n D p + tr nocc p).
  { intros p. rewrite dots_comm, <- (dots_occ n) by auto. rewrite <- dots_add. apply dots_ext; [|reflexivity]. intros. rewrite add_diag_occ. unfold D, mf_dm1, two. ring. }
  assert (xo : X n pa pb D (occ nocc) = x) by (apply X_sym; auto; intros i j; apply occ_sym).
  set (C4 := fun p q r s => D p q * (n2 * occ nocc r s) + (n2 * occ nocc p q * D r s + n2 * occ nocc p q * (n2 * occ nocc r s))).
  assert (PC : pdp n n C4 pa pb = n2 * (dots n D pa * tr nocc pb + tr nocc pa * dots n D pb + n2 * (tr nocc pa * tr nocc pb))).
  { unfold C4. rewrite !pdp_add, !pdp_outer, !dots_scale, !dots_occ by auto. ring. }
  assert (PE : pdp n n (t0321 C4) pa pb = n4 * (x + y)).
  { rewrite (pdp_ext n n _ (fun p q r s => n2 * (D p s * occ nocc r q) + (n2 * (occ nocc p s * D r q) + n4 * (occ nocc p s * occ nocc r q)))) by (intros; unfold t0321, C4, n4; ring).
    rewrite !pdp_add, (pdp_scale n n n2 (fun p q r s => D p s * occ nocc r q)), (pdp_scale n n n2 (fun p q r s => occ nocc p s * D r q)), (pdp_scale n n n4 (fun p q r s => occ nocc p s * occ nocc r q)).
    fold (X n pa pb D (occ nocc)) (X n pa pb (occ nocc) D) (X n pa pb (occ nocc) (occ nocc)). rewrite xo. fold x y. unfold n4, n2. ring. }
  assert (MS : forall p q r s, mixed_spec F half nocc D p q r s = C4 p q r s + (- half) * t0321 C4 p q r s).
  { intros. unfold mixed_spec, product, t0321, C4, mf_dm1, two. fold (n2 (F := F)). ring. }
  assert (PM : pdp n n (mixed_spec F half nocc D) pa pb = pdp n n C4 pa pb - half * pdp n n (t0321 C4) pa pb).
  { rewrite (pdp_ext n n _ _ pa pb (fun i j k l _ _ _ _ => MS i j k l)). rewrite pdp_add, (pdp_scale n n (- half) (t0321 C4)). ring. }
  assert (PMT : pdp n n (t0321 (mixed_spec F half nocc D)) pa pb = pdp n n (t0321 C4) pa pb - half * pdp n n C4 pa pb).
  { rewrite (pdp_ext n n _ (fun i j k l => t0321 C4 i j k l + (- half) * C4 i j k l)) by (intros; unfold t0321 at 1; rewrite MS; reflexivity). rewrite pdp_add, pdp_scale. ring. }
  set (M := fun p q r s => if fl then (0 : F) else mixed_spec F half nocc D p q r s).
  set (cu := cumulant dm2 frags) in *.
  change (fun p q r s => (if fl then 0 else mixed_spec F half nocc D p q r s) + cu p q r s) with (fun p q r s => M p q r s + cu p q r s).
  assert (PK : pdp n n (kind_dm2 k (fun p q r s => M p q r s + cu p q r s)) pa pb = pdp n n (kind_dm2 k M) pa pb + pdp n n (kind_dm2 k cu) pa pb).
  { rewrite <- pdp_add. apply pdp_ext. intros. destruct k; try reflexivity. cbn [kind_dm2]. unfold t0321. lin. }
  assert (RF : reference k n dm1 (fun p q r s => M p q r s + cu p q r s) pa pb
     = match k with NN => 0 | DNDN => - (dots n dm1 pa * dots n dm1 pb) | SzSz => 0 end + f22 * pdp n n (kind_dm2 k (fun p q r s => M p q r s + cu p q r s)) pa pb
       + (match k with SzSz => 1 / n4 | _ => 1 end) * dpp n dm1 pa pb).
  { set (T := fun p q r s => M p q r s + cu p q r s). unfold reference, f22. destruct k; cbn [chargecharge spinspin kind_dm2]; [ring|ring|].
    rewrite (pdp_ext n n (fun i j k l => T i j k l / n2 - _) (fun i j k l => (1 / n2 - 1 / n6) * T i j k l + (1 / n6) * t0321 T i j k l)) by (intros; lin).
    rewrite (pdp_ext n n (fun i j k l => (T i j k l - _) / n6) (fun i j k l => (1 / n6) * T i j k l + - (1 / n6) * t0321 T i j k l)) by (intros; lin).
    rewrite (pdp_ext n n (fun i j k l => - (_ + _)) (fun i j k l => (- (1 / n6)) * T i j k l + (- (1 / n3)) * t0321 T i j k l)) by (intros; lin).
    rewrite (dpp_ext n (fun i j => dm1 i j / n2) (fun i j => half * dm1 i j)) by (intros; lin).
    rewrite !pdp_add, !pdp_scale, dpp_scale. set (t1 := pdp n n T pa pb). set (t2 := pdp n n (t0321 T) pa pb). set (t3 := dpp n dm1 pa pb). fld. }
  rewrite RF, PK, kind_pdp.
  assert (P0 : forall (b : bool), pdp n n M pa pb = if fl then 0 else pdp n n (mixed_spec F half nocc D) pa pb) by (intros; unfold M; destruct fl; [apply pdp_0|reflexivity]).
  assert (P0T : pdp n n (t0321 M) pa pb = if fl then 0 else pdp n n (t0321 (mixed_spec F half nocc D)) pa pb).
  { unfold M. destruct fl; [apply pdp_0|reflexivity]. }
  rewrite P0T, (P0 true). clearbody fl. unfold f22 in *.
  destruct k; rewrite Hc, sum_tmp_dpp by auto; destruct fl; cbv iota beta; rewrite ?SX, ?SD, ?PM, ?PMT, ?PC, ?PE;
  set (t1 := dots n D pa) in *; set (t2 := dots n D pb) in *; set (u1 := tr nocc pa) in *; set (u2 := tr nocc pb) in *; set (w := dpp n dm1 pa pb); set (v := pdp n n (kind_dm2 _ cu) pa pb); clearbody t1 t2 u1 u2 w v x y; fld.
Qed.

Definition aa3 (d : ten * ten * ten) : ten := fst (fst d).
Definition ab3 (d : ten * ten * ten) : ten := snd (fst d).
Definition bb3 (d : ten * ten * ten) : ten := snd d.
Definition ucumulant (given : option (ten * ten * ten)) (frags : list (ucfrag (F := F))) : ten * ten * ten := match given with
  | Some d => d
  | None => let all (m m' : ucfrag (F := F) -> nat) (r r' : mat * mat -> mat) (c : ten * ten * ten -> ten) : ten :=
              fun p q r0 s => Lsum frags (fun fx => Lsum (uc_rx fx) (fun rx => mo4 (m fx) (m' fx) (r rx) (r' rx) (c (uc_dm2 fx)) p q r0 s)) in
            let na fx := fst (uc_n fx) in let nb fx := snd (uc_n fx) in (all na na fst fst aa3, all na nb fst snd ab3, all nb nb snd snd bb3) end.
Lemma usum_pdp na nb p1a p1b d p2a p2b : usum_tensordot na nb p1a p1b d p2a p2b
  = pdp na na (aa3 d) p1a p2a - pdp na nb (ab3 d) p2a p1b + pdp nb nb (bb3 d) p1b p2b - pdp na nb (ab3 d) p1a p2b.
Proof.
  destruct d as [[aa ab] bb]. unfold aa3, ab3, bb3. cbn [usum_tensordot fst snd].
  assert (E : pdp na nb ab p2a p1b = Sum na (fun k => Sum na (fun l => Sum nb (fun i => Sum nb (fun j => ab k l i j * p1b i j)) * p2a k l))).
  { unfold pdp. apply Sum_ext; intros k _; apply Sum_ext; intros l _. rewrite <- Sum_mul_r. apply Sum_ext; intros i _. rewrite <- Sum_mul_r. apply Sum_ext; intros. ring. }
  assert (S1 : forall n (f g p : nat -> nat -> F), Sum n (fun k => Sum n (fun l => (f k l - g k l) * p k l)) = Sum n (fun k => Sum n (fun l => f k l * p k l)) - Sum n (fun k => Sum n (fun l => g k l * p k l))).
  { intros. rewrite <- Sum_sub. apply Sum_ext; intros. rewrite <- Sum_sub. apply Sum_ext; intros. ring. }
  rewrite E, <- !sum_tensordot_pdp. rewrite (S1 na (fun k l => Sum na (fun i => Sum na (fun j => p1a i j * aa i j k l))) (fun k l => Sum nb (fun i => Sum nb (fun j => ab k l i j * p1b i j)))).
  rewrite (S1 nb (fun k l => Sum nb (fun i => Sum nb (fun j => p1b i j * bb i j k l))) (fun k l => Sum na (fun i => Sum na (fun j => p1a i j * ab i j k l)))). unfold sum_tensordot. ring.
Qed.
Theorem C43_embedding_unrestricted : forall gtb na nb noa nob N (dm1 : mat * mat) dm2 given frags (pa pb : mat * mat), (noa <= na)%nat -> (nob <= nb)%nat ->
  sym (fst pa) -> sym (snd pa) -> sym (fst pb) -> sym (snd pb) -> sym (fst dm1) -> sym (snd dm1) ->
  let norm d := tr2 na (aa3 d) + n2 * Sum na (fun i => Sum nb (fun j => ab3 d i i j j)) + tr2 nb (bb3 d) in
  let fl := flag gtb N (option_map norm dm2) given in
  let D p q := fst dm1 p q - occ noa p q in let D' p q := snd dm1 p q - occ nob p q in
  let c := ucumulant dm2 frags in
  ucorr gtb (na, nb) (noa, nob) N SzSz dm1 dm2 given frags pa pb
  = uspinspin na nb dm1 (Some ((fun p q r s => (if fl then 0 else mixed_ss F noa D p q r s) + aa3 c p q r s),
                               (fun p q r s => (if fl then 0 else mixed_ab F noa nob D D' p q r s) + ab3 c p q r s),
                               (fun p q r s => (if fl then 0 else mixed_ss F nob D' p q r s) + bb3 c p q r s))) (Some (Pair (fst pa) (snd pa))) (Some (Pair (fst pb) (snd pb))).
Proof.
  intros gtb na nb noa nob N [da db] dm2 given frags [pa pa'] [pb pb'] Hna Hnb. intros Ha Ha' Hb Hb' Sa Sb norm fl D D' c. cbn [fst snd] in Ha, Ha', Hb, Hb', Sa, Sb, D, D'. unfold ucorr. cbn [fst snd].
  replace (match given with Some b => b | None => match dm2 with Some (aa, ab, bb) => dm2_flag gtb (tr2 na aa + n2 * Sum na (fun i => Sum nb (fun j => ab i i j j)) + tr2 nb bb) N None | None => false end end) with fl by (destruct given, dm2 as [[[? ?] ?]|]; reflexivity).
  assert (Hc : forall z, match dm2 with Some d => z + 1 / n4 * usum_tensordot na nb pa pa' d pb pb'
      | None => fold_left (fun c fx => fold_left (fun c rx => c + 1 / n4 * usum_tensordot (fst (uc_n fx)) (snd (uc_n fx)) (projx na (fst rx) pa) (projx nb (snd rx) pa') (uc_dm2 fx) (projx na (fst rx) pb) (projx nb (snd rx) pb')) (uc_rx fx) c) frags z end
      = z + 1 / n4 * (pdp na na (aa3 c) pa pb - pdp na nb (ab3 c) pb pa' + pdp nb nb (bb3 c) pa' pb' - pdp na nb (ab3 c) pa pb')).
  { intros z. destruct dm2 as [d|]; [now rewrite usum_pdp|]. rewrite fold_frags. f_equal. unfold c. cbn [ucumulant]. unfold aa3, ab3, bb3. cbn [fst snd].
    rewrite !pdp_Lsum. rewrite <- Lsum_sub, <- Lsum_add, <- Lsum_sub, <- Lsum_mul_l. apply Lsum_ext. intros fx _. rewrite !pdp_Lsum. rewrite <- Lsum_sub, <- Lsum_add, <- Lsum_sub, <- Lsum_mul_l. apply Lsum_ext. intros rx _.
    rewrite usum_pdp, !projx_pdp. reflexivity. }
  assert (SX : forall n m (p p' d : mat), (m <= n)%nat -> sym p -> sym p' -> sym d -> sum_tmp n m p (add_diag m (- half) d) p' = X n p p' (occ m) (fun i j => d i j - occ m i j) + half * X n p p' (occ m) (occ m)).
  { intros n m p p' d Hm Hp Hp' Hd. rewrite sum_tmp_X; auto; [|intros i j; rewrite !add_diag_occ, (Hd i j), (occ_sym m i j); reflexivity].
    rewrite <- X_scale_r, <- X_add_r. apply X_ext; [reflexivity|]. intros. rewrite add_diag_occ. fld. }
  assert (SD : forall n m (p d : mat), (m <= n)%nat -> dots n p (add_diag m (- half) d) = dots n (fun i j => d i j - occ m i j) p + half * tr m p).
  { intros n m p d Hm. rewrite dots_comm, <- (dots_occ n) by auto. rewrite <- dots_scale, <- dots_add. apply dots_ext; [|reflexivity]. intros. rewrite add_diag_occ. fld. }
  assert (SS : forall n m (p p' d : mat), (m <= n)%nat -> sym p -> sym p' -> sym d ->
     pdp n n (mixed_ss F m d) p p' = dots n d p * tr m p' + tr m p * dots n d p' + tr m p * tr m p' - (n2 * X n p p' (occ m) d + X n p p' (occ m) (occ m))).
  { intros n m p p' d Hm Hp Hp' Hd. rewrite <- !(dots_occ n m) by auto.
    rewrite (pdp_ext n n _ (fun i j k l => d i j * occ m k l + (occ m i j * d k l + occ m i j * occ m k l) + (- (1)) * (d i l * occ m k j + (occ m i l * d k j + occ m i l * occ m k j)))) by (intros; unfold mixed_ss, product_ss; ring).
    rewrite pdp_add, pdp_scale, !pdp_add, !pdp_outer. fold (X n p p' d (occ m)) (X n p p' (occ m) d) (X n p p' (occ m) (occ m)). rewrite (X_sym n p p' d (occ m)) by (auto; intros i j; apply occ_sym). unfold n2. ring. }
  assert (AB : forall (p p' : mat), pdp na nb (mixed_ab F noa nob D D') p p' = dots na D p * tr nob p' + tr noa p * dots nb D' p' + tr noa p * tr nob p').
  { intros p p'. rewrite <- !(dots_occ na noa), <- !(dots_occ nb nob) by auto. rewrite (pdp_ext na nb _ (fun i j k l => D i j * occ nob k l + (occ noa i j * D' k l + occ noa i j * occ nob k l))) by (intros; unfold mixed_ab, product_ab; ring).
    rewrite !pdp_add, !pdp_outer. ring. }
  assert (SymD : sym D) by (intros i j; unfold D; now rewrite (Sa i j), (occ_sym noa i j)). assert (SymD' : sym D') by (intros i j; unfold D'; now rewrite (Sb i j), (occ_sym nob i j)).
  cbv zeta. rewrite Hc. cbn [uspinspin proj_a proj_b]. f_equal. rewrite !pdp_add, !sum_tmp_dpp by auto. clearbody fl. destruct fl.
  - rewrite !pdp_0. set (a1 := pdp na na (aa3 c) pa pb). set (a2 := pdp na nb (ab3 c) pb pa'). set (a3 := pdp nb nb (bb3 c) pa' pb'). set (a4 := pdp na nb (ab3 c) pa pb'). lin.
  - cbn [fold_left Bool.eqb]. rewrite !SX, !SD by auto. fold D. fold D'.
    change (fun i j => da i j - occ noa i j) with D. change (fun i j => db i j - occ nob i j) with D'.
    change (pdp na na (fun p q r s => mixed_ss F noa D p q r s) pa pb) with (pdp na na (mixed_ss F noa D) pa pb). change (pdp nb nb (fun p q r s => mixed_ss F nob D' p q r s) pa' pb') with (pdp nb nb (mixed_ss F nob D') pa' pb').
    change (fun p q r s => mixed_ab F noa nob D D' p q r s) with (mixed_ab F noa nob D D').
    rewrite (SS na noa pa pb D) by auto. rewrite (SS nb nob pa' pb' D') by auto. rewrite !AB.
    set (a1 := pdp na na (aa3 c) pa pb). set (a2 := pdp na nb (ab3 c) pb pa'). set (a3 := pdp nb nb (bb3 c) pa' pb'). set (a4 := pdp na nb (ab3 c) pa pb').
    set (d1 := dots na D pa). set (d2 := dots na D pb). set (d3 := dots nb D' pa'). set (d4 := dots nb D' pb').
    set (t1 := tr noa pa). set (t2 := tr noa pb). set (t3 := tr nob pa'). set (t4 := tr nob pb').
    set (x1 := X na pa pb (occ noa) D). set (x2 := X na pa pb (occ noa) (occ noa)). set (x3 := X nb pa' pb' (occ nob) D'). set (x4 := X nb pa' pb' (occ nob) (occ nob)).
    set (w1 := dpp na da pa pb). set (w2 := dpp nb db pa' pb').
    clearbody a1 a2 a3 a4 d1 d2 d3 d4 t1 t2 t3 t4 x1 x2 x3 x4 w1 w2. fld.
Qed.
(** Without correlation both are the mean-field functions *)
Theorem C43_embedding_mean_field : forall gtb n nocc N k pa pb, (nocc <= n)%nat -> sym pa -> sym pb ->
  corr gtb n nocc N k (mf_dm1 nocc) None None [] pa pb = corr_mf n nocc k None pa pb.
Proof.
  intros gtb n nocc N k pa pb Hn Ha Hb. assert (Hm : sym (mf_dm1 (K := F) nocc)) by (intros i j; unfold mf_dm1; now rewrite occ_sym).
  rewrite C43_embedding by auto. cbn [option_map flag cumulant Lsum].
  set (d0 := fun p q : nat => if (p =? q)%nat && (p <? nocc)%nat then n2 else (0 : F)).
  assert (E : forall p q, d0 p q = mf_dm1 nocc p q) by (intros; unfold d0, mf_dm1, two, n2, occ; destruct ((p =? q)%nat && (p <? nocc)%nat); ring).
  assert (P : forall p q r s, mixed_spec F half nocc (fun p q => mf_dm1 nocc p q - mf_dm1 nocc p q) p q r s + 0 = product half (mf_dm1 nocc) p q r s) by (intros; unfold mixed_spec, product; ring).
  assert (S0 : sym d0) by (intros i j; now rewrite !E, (Hm i j)).
  destruct (C43_mean_field n n d0 d0 d0 pa pb (Some pa) (Some pb) (Same pa) (Same pb) true S0 S0 S0) as (M1 & M2 & _).
  destruct (C43_mean_field n n d0 d0 d0 pa pb (Some pa) (Some pb) (Same pa) (Same pb) false S0 S0 S0) as (M3 & _).
  assert (P2 : forall p q r s, product half d0 p q r s = product half (mf_dm1 nocc) p q r s) by (intros; unfold product; now rewrite !E).
  unfold corr_mf. fold d0. destruct k; cbn [reference]; [rewrite M3|rewrite M1|rewrite M2].
  - cbn [chargecharge]. f_equal; [|apply dpp_ext; intros; now rewrite E]. apply pdp_ext. intros. now rewrite P, P2.
  - cbn [chargecharge]. f_equal; [f_equal; [|apply dpp_ext; intros; now rewrite E]; apply pdp_ext; intros; now rewrite P, P2|]. f_equal; apply dots_ext; auto; intros; now rewrite E.
  - cbn [spinspin]. f_equal; [|f_equal; apply dpp_ext; intros; now rewrite E]. f_equal. f_equal; apply pdp_ext; intros; unfold t0321; now rewrite !P, !P2.
Qed.

(** Unrestricted mean field without a given 1-DM: for the projectors of the whole system the square of (na - nb)/2; for a closed shell the restricted function *)
Lemma occ_mf m p q : (if (p =? q)%nat && (p <? m)%nat then 1 else 0) = occ (K := F) m p q.
Proof. reflexivity. Qed.
Theorem C43_unrestricted_mean_field : forall na nb noa nob, (noa <= na)%nat -> (nob <= nb)%nat ->
  ucorr_mf na nb noa nob SzSz None (Same unit) (Same unit) = Some (((nK noa - nK nob) / n2) * ((nK noa - nK nob) / n2))
  /\ (forall n nocc (pa pb : mat), ucorr_mf n n nocc nocc SzSz None (Same pa) (Same pb) = Some (corr_mf n nocc SzSz None pa pb)).
Proof.
  intros na nb noa nob Ha Hb. split.
  - unfold ucorr_mf, uspinspin. f_equal.
    change (fun p q : nat => if (p =? q)%nat && (p <? noa)%nat then 1 else 0) with (occ (K := F) noa). change (fun p q : nat => if (p =? q)%nat && (p <? nob)%nat then 1 else 0) with (occ (K := F) nob). unfold uspinspin_mf. cbn [proj_a proj_b].
    assert (DU : forall n m, (m <= n)%nat -> dots n (occ m) unit = nK m).
    { intros n m Hm. unfold dots. rewrite (Sum_ext n _ (fun i => if (i <? m)%nat then 1 else 0)).
      - rewrite (Sum_lt n m (fun _ => 1)) by auto. rewrite Sum_const. ring.
      - intros i Hi. unfold unit. rewrite (Sum_ext n _ (fun j => delta i j * occ m i j)) by (intros; ring). rewrite Sum_delta_l by auto. rewrite occ_eq. rewrite delta_eq. reflexivity. }
    assert (DP : forall n m, (m <= n)%nat -> dpp n (occ m) unit unit = nK m).
    { intros n m Hm. rewrite <- (DU n m Hm). unfold dpp, dots. apply Sum_ext. intros i Hi. apply Sum_ext. intros j Hj. unfold unit.
      rewrite (Sum_ext n _ (fun k => delta i k * (occ m i j * delta j k))) by (intros; ring). rewrite (Sum_delta_l n i (fun k => occ m i j * delta j k)) by auto. rewrite (delta_sym j i). ring. }
    assert (XU : forall n m, (m <= n)%nat -> Sum n (fun i => Sum n (fun j => Sum n (fun k => Sum n (fun l => unit i j * occ m i l * (occ m j k * unit k l))))) = nK m).
    { intros n m Hm. rewrite <- (DU n m Hm). unfold dots. apply Sum_ext. intros i Hi. rewrite (Sum_ext n _ (fun j => delta i j * Sum n (fun k => occ m i k * occ m j k))).
      2:{ intros j Hj. rewrite <- Sum_mul_l. apply Sum_ext. intros k Hk. unfold unit. rewrite (Sum_ext n _ (fun l => delta k l * (delta i j * occ m i l * occ m j k))) by (intros; ring).
          rewrite (Sum_delta_l n k (fun l => delta i j * occ m i l * occ m j k)) by auto. ring. }
      rewrite (Sum_delta_l n i (fun j => Sum n (fun k => occ m i k * occ m j k))) by auto. apply Sum_ext. intros k Hk. rewrite !occ_eq. unfold unit. destruct (i <? m)%nat; unfold delta; destruct (i =? k)%nat; ring. }
    rewrite !XU, !DP, !(dots_comm _ unit), !DU by auto. fld.
  - intros n nocc pa pb. unfold ucorr_mf, corr_mf, uspinspin, spinspin, spinspin_mf. cbn [option_map]. f_equal.
    set (d := fun p q : nat => if (p =? q)%nat && (p <? nocc)%nat then 1 else (0 : F)).
    assert (E : forall p q, (if (p =? q)%nat && (p <? nocc)%nat then n2 else 0) / n2 = d p q) by (intros p q; unfold d; destruct ((p =? q)%nat && (p <? nocc)%nat); fld).
    set (d' := fun i j : nat => (if (i =? j)%nat && (i <? nocc)%nat then n2 else 0) / n2).
    assert (E' : forall p q, d p q = d' p q) by (intros; now rewrite <- E). clearbody d d'. clear E. unfold uspinspin_mf. cbn [proj_a proj_b].
    rewrite (dots_comm n pa d), (dots_comm n pa d'), (dots_ext n d d' pa pa), (dots_ext n d d' pb pb) by auto. rewrite !(dpp_ext n d d') by auto.
    assert (XE : forall p p', Sum n (fun i => Sum n (fun j => Sum n (fun k => Sum n (fun l => p i j * d i l * (d j k * p' k l))))) = Sum n (fun i => Sum n (fun j => Sum n (fun k => Sum n (fun l => p i j * d' i l * (d' j k * p' k l)))))).
    { intros. repeat (apply Sum_ext; intros). now rewrite !E'. }
    rewrite !XE. reflexivity.
Qed.

(** ** Detection whether a given 2-DM contains the 1-DM. For density matrices of N >= 2 particles with natural occupations at most two (one per spin) and
    a mean field of N particles, the comparison with N(N-1)/2 tells the full 2-DM from the cumulant *)
Lemma tr2_add n (d e : ten) : tr2 n (fun i j k l => d i j k l + e i j k l) = tr2 n d + tr2 n e.
Proof. unfold tr2. rewrite <- Sum_add. apply Sum_ext; intros. now rewrite Sum_add. Qed.
Lemma tr2_scale n c (d : ten) : tr2 n (fun i j k l => c * d i j k l) = c * tr2 n d.
Proof. unfold tr2. rewrite <- Sum_mul_l. apply Sum_ext; intros. now rewrite Sum_mul_l. Qed.
Lemma tr2_ext n (d e : ten) : (forall i j k l, d i j k l = e i j k l) -> tr2 n d = tr2 n e.
Proof. intros H. unfold tr2. apply Sum_ext; intros; apply Sum_ext; intros. apply H. Qed.
Lemma tr2_outer n (a b : mat) : tr2 n (fun i j k l => a i j * b k l) = tr n a * tr n b.
Proof. unfold tr2, tr. rewrite <- Sum_mul_r. apply Sum_ext; intros. now rewrite Sum_mul_l. Qed.
Lemma tr2_x n m (a : mat) : (m <= n)%nat -> tr2 n (fun i j k l => a i l * occ m k j) = tr m a /\ tr2 n (fun i j k l => occ m i l * a k j) = tr m a.
Proof.
  intros Hm. assert (E : forall f : nat -> nat -> F, (forall i, (i < n)%nat -> f i i = a i i) -> Sum n (fun i => Sum n (fun k => occ m i k * f i k)) = tr m a).
  { intros f Hf. unfold tr. rewrite <- (Sum_lt n m) by auto. apply Sum_ext. intros i Hi. destruct (i <? m)%nat eqn:E.
    - rewrite (Sum_ext n _ (fun j => delta i j * f i j)) by (intros; now rewrite occ_eq, E). rewrite (Sum_delta_l n i (fun j => f i j)) by auto. auto.
    - apply Sum_0. intros. rewrite occ_eq, E. ring. }
  unfold tr2. split.
  - rewrite <- (E (fun i k => a i k)) by auto. apply Sum_ext; intros; apply Sum_ext; intros. rewrite (occ_sym m i0 i). ring.
  - rewrite <- (E (fun i k => a k i)) by auto. reflexivity.
Qed.
Lemma tr_occ n m : (m <= n)%nat -> tr n (occ m) = @nK F m.
Proof.
  intros Hm. unfold tr. rewrite (Sum_ext n _ (fun i => if (i <? m)%nat then 1 else 0)).
  - rewrite (Sum_lt n m (fun _ => 1)) by auto. rewrite Sum_const. ring.
  - intros i Hi. rewrite occ_eq. unfold delta. now rewrite Nat.eqb_refl.
Qed.
Section Order.
Variable ltb : F -> F -> bool.
Hypothesis o_irrefl : forall x, ltb x x = false.
Hypothesis o_trans : forall x y z, ltb x y = true -> ltb y z = true -> ltb x z = true.
Hypothesis o_total : forall x y, ltb x y = true \/ x = y \/ ltb y x = true.
Hypothesis o_add : forall x y z, ltb x y = true -> ltb (x + z) (y + z) = true.
Hypothesis o_mul : forall x y, ltb 0 x = true -> ltb 0 y = true -> ltb 0 (x * y) = true.
Definition OF : oring := {| oc := fring F; Ord.ltb := ltb; ltb_irrefl := o_irrefl; ltb_trans := o_trans; ltb_total := o_total; ltb_add := o_add; ltb_mul := o_mul |}.
Definition gt (x y : F) : bool := ltb y x.
Lemma split_flag (N norm norm' : F) : ltb 1 N = true -> norm = N * (N - 1) -> ltb 0 norm' = false -> dm2_flag gt norm N None = true /\ dm2_flag gt norm' N None = false.
Proof.
  intros H1 -> Hc. unfold dm2_flag, gt. set (P := N * (N - 1)).
  assert (Hone : ltb 0 1 = true).
  { destruct (o_total 0 1) as [H|[H|H]]; [exact H| |].
    - exfalso. apply H2. unfold n2. rewrite <- H. ring.
    - assert (G := o_add _ _ (- (1)) H). replace (1 + - (1)) with (0 : F) in G by ring. replace (0 + - (1)) with (- (1) : F) in G by ring. assert (G2 := o_mul _ _ G G). now replace (- (1) * - (1)) with (1 : F) in G2 by ring. }
  assert (HN : ltb 0 N = true) by now apply (o_trans 0 1 N).
  assert (HN1 : ltb 0 (N - 1) = true). { assert (G := o_add _ _ (- (1)) H1). replace (1 + - (1)) with (0 : F) in G by ring. now replace (N + - (1)) with (N - 1) in G by ring. }
  assert (HP : ltb 0 P = true) by now apply o_mul.
  assert (Hh : ltb 0 (P / n2) = true).
  { destruct (o_total 0 (P / n2)) as [H|[H|H]]; [exact H| |].
    - exfalso. assert (G : P = 0) by (transitivity (n2 * (P / n2)); [fld|rewrite <- H; ring]). rewrite G, o_irrefl in HP. discriminate.
    - exfalso. assert (G := o_add _ _ (P / n2) H). replace (P / n2 + P / n2) with P in G by fld. replace (0 + P / n2) with (P / n2) in G by ring. assert (G2 := o_trans _ _ _ G H). assert (G3 := o_trans _ _ _ HP G2). rewrite o_irrefl in G3. discriminate. }
  split.
  - assert (G := o_add _ _ (P / n2) Hh). replace (P / n2 + P / n2) with P in G by fld. now replace (0 + P / n2) with (P / n2) in G by ring.
  - destruct (ltb (P / n2) norm') eqn:E; [|reflexivity]. exfalso. assert (G := o_trans _ _ _ Hh E). congruence.
Qed.
Lemma tr_nonpos n m (d : mat) : (m <= n)%nat -> (forall i, (i < m)%nat -> ltb 0 (d i i) = false) -> ltb 0 (tr m d) = false.
Proof.
  intros Hm Hd. assert (G : le (K := OF) (tr m d) (Sum m (fun _ => 0))).
  { apply (P_Ints.Sum_le OF). intros i Hi. unfold le, leb. cbn [Ord.ltb OF]. change (negb (ltb 0 (d i i)) = true). now rewrite Hd. }
  rewrite Sum_zero in G. unfold le, leb in G. change (negb (ltb 0 (tr m d)) = true) in G. now destruct (ltb 0 (tr m d)).
Qed.
Theorem C43_detection : forall n nocc N (dm1 : mat) dm2, (nocc <= n)%nat -> n2 * nK nocc = N -> ltb 1 N = true -> n_particles n N dm1 dm2 ->
  (forall i, (i < nocc)%nat -> ltb n2 (dm1 i i) = false) ->
  dm2_flag gt (tr2 n dm2) N None = true
  /\ dm2_flag gt (tr2 n (fun p q r s => dm2 p q r s - mixed_spec F half nocc (fun p q => dm1 p q - mf_dm1 nocc p q) p q r s)) N None = false.
Proof.
  intros n nocc N dm1 dm2 Hn HN H1 (Ht & Hp) Hd. set (D := fun p q => dm1 p q - mf_dm1 nocc p q).
  assert (T : tr2 n dm2 = N * (N - 1)).
  { unfold tr2. rewrite (Sum_ext n _ (fun i => (N - 1) * dm1 i i)) by auto. rewrite Sum_mul_l. fold (tr n dm1). rewrite Ht. ring. }
  assert (TD : tr n D = 0).
  { transitivity (tr n dm1 + - (n2) * tr n (occ nocc)).
    - unfold tr. rewrite <- Sum_mul_l, <- Sum_add. apply Sum_ext; intros. unfold D, mf_dm1, two, n2. ring.
    - rewrite tr_occ, Ht, <- HN by auto. ring. }
  assert (TM : tr2 n (mixed_spec F half nocc D) = N * (N - 1) - n2 * tr nocc D).
  { rewrite (tr2_ext n _ (fun i j k l => n2 * (D i j * occ nocc k l) + (n2 * (occ nocc i j * D k l) + n4 * (occ nocc i j * occ nocc k l)) + (- half * n2) * (D i l * occ nocc k j + (occ nocc i l * D k j + n2 * (occ nocc i l * occ nocc k j))))).
    2:{ intros. unfold mixed_spec, product, mf_dm1, two, n4. fold (n2 (F := F)). ring. }
    rewrite tr2_add, tr2_scale, !tr2_add, !tr2_scale, !tr2_outer, TD, !tr_occ by auto.
    destruct (tr2_x n nocc D Hn) as [-> ->]. destruct (tr2_x n nocc (occ nocc) Hn) as [-> _]. rewrite tr_occ by auto. rewrite <- HN. fld. }
  apply split_flag; auto.
  rewrite (tr2_ext n _ (fun p q r s => dm2 p q r s + - (1) * mixed_spec F half nocc D p q r s)) by (intros; unfold D; ring).
  rewrite tr2_add, tr2_scale, T, TM. replace (N * (N - 1) + - (1) * (N * (N - 1) - n2 * tr nocc D)) with (tr nocc (fun i j => D i j + D i j)).
  2:{ unfold tr, n2. rewrite Sum_add. ring. }
  apply (tr_nonpos n); auto. intros i Hi. assert (E : D i i = dm1 i i - n2).
  { unfold D, mf_dm1, two. rewrite occ_eq. apply Nat.ltb_lt in Hi. rewrite Hi. unfold delta. rewrite Nat.eqb_refl. unfold n2. ring. }
  assert (G : ltb 0 (D i i) = false). { destruct (ltb 0 (D i i)) eqn:X; [|reflexivity]. assert (G := o_add _ _ n2 X). rewrite E in G. replace (0 + n2) with (n2 : F) in G by ring. replace (dm1 i i - n2 + n2) with (dm1 i i) in G by ring. rewrite Hd in G by auto. discriminate. }
  destruct (ltb 0 (D i i + D i i)) eqn:X; [|reflexivity]. exfalso. destruct (o_total 0 (D i i)) as [Y|[Y|Y]]; [congruence| |].
  - rewrite <- Y in X. replace (0 + 0) with (0 : F) in X by ring. rewrite o_irrefl in X. discriminate.
  - assert (Z := o_add _ _ (D i i) Y). replace (0 + D i i) with (D i i) in Z by ring. assert (W := o_trans _ _ _ Z Y). assert (W2 := o_trans _ _ _ X W). rewrite o_irrefl in W2. discriminate.
Qed.
End Order.
End Thms.
Section Cases.
Definition q (n : Z) (d : positive) : QK := Q2Qc (n # d).
Definition eqq (a b : QK) : bool := Qeq_bool (this a) (this b).
Lemma eqq_ok (a b : QK) : eqq a b = true -> a = b.
Proof. intros H. apply Qc_is_canon. now apply Qeq_bool_iff. Qed.
Lemma neqq (a b : QK) : eqq a b = false -> a <> b.
Proof. intros H E. rewrite E in H. unfold eqq in H. rewrite Qeq_bool_refl in H. discriminate. Qed.
(** The two-electron singlet with pair amplitudes 4/5, 3/5 in two orbitals *)
Definition ci (i j : nat) : QF := if Nat.eqb i j then match i with 0%nat => q 4 5 | 1%nat => q 3 5 | _ => q 0 1 end else q 0 1.
Definition edm1 (i j : nat) : QF := if Nat.eqb i j then match i with 0%nat => q 32 25 | 1%nat => q 18 25 | _ => q 0 1 end else q 0 1.
Definition edm2 (i j k l : nat) : QF := (n2 * (ci i k * ci j l))%K.
(** A projector on a site which mixes both orbitals, and the one on the other site *)
Definition pr (i j : nat) : QF := match i, j with 0%nat, 0%nat => q 16 25 | 1%nat, 1%nat => q 9 25 | 0%nat, 1%nat | 1%nat, 0%nat => q 12 25 | _, _ => q 0 1 end.
Definition pr' (i j : nat) : QF := match i, j with 0%nat, 0%nat => q 9 25 | 1%nat, 1%nat => q 16 25 | 0%nat, 1%nat | 1%nat, 0%nat => q (-12) 25 | _, _ => q 0 1 end.
Lemma q2 : (n2 : QF) <> 0%K. Proof. apply neqq. vm_compute. reflexivity. Qed.
Lemma q3 : (n3 : QF) <> 0%K. Proof. apply neqq. vm_compute. reflexivity. Qed.
Lemma two_idx (P : nat -> nat -> Prop) : P 0%nat 0%nat -> P 0%nat 1%nat -> P 1%nat 0%nat -> P 1%nat 1%nat -> forall i j, (i < 2)%nat -> (j < 2)%nat -> P i j.
Proof. intros A B C D i j Hi Hj. destruct i as [|[|]], j as [|[|]]; auto; lia. Qed.
Lemma e_particles : n_particles QF 2 (q 2 1) edm1 edm2 /\ singlet QF 2 (q 2 1) edm1 edm2.
Proof.
  unfold singlet. split; [split|]; [apply eqq_ok; vm_compute; reflexivity| |].
  - apply (two_idx (fun i j => Sum 2 (fun k => edm2 i j k k) = ((q 2 1 - 1) * edm1 i j)%K)); apply eqq_ok; vm_compute; reflexivity.
  - apply (two_idx (fun i j => Sum 2 (fun k => edm2 i k k j) = ((n2 - (q 2 1 : QF) / n2) * edm1 i j)%K)); apply eqq_ok; vm_compute; reflexivity.
Qed.
Lemma e_sym : sym QF edm1 /\ sym QF pr /\ sym QF pr'.
Proof.
  split; [|split]; intros i j; [|now destruct i as [|[|]], j as [|[|]]..].
  unfold edm1. rewrite (Nat.eqb_sym j i). destruct (Nat.eqb i j) eqn:E; [|reflexivity]. apply Nat.eqb_eq in E. now subst.
Qed.
(** sum rules and detection: the hypotheses hold, the site-site functions are not zero *)
Example C43_sum_rule_case : chargecharge 2 edm1 (Some edm2) (Some pr) (Some (unit QF)) true = 0%K /\ spinspin 2 edm1 (Some edm2) (Some pr) (Some (unit QF)) = 0%K
  /\ chargecharge 2 edm1 (Some edm2) (Some pr) (Some pr') true <> 0%K /\ spinspin 2 edm1 (Some edm2) (Some pr) (Some pr') <> 0%K.
Proof.
  destruct e_particles as (A & B). destruct (C43_sum_rule QF q2 q3 2 (q 2 1) edm1 edm2 pr A) as (H & _ & _ & Hs). destruct (Hs B) as (Hs' & _).
  split; [exact H|]. split; [exact Hs'|]. split; apply neqq; vm_compute; reflexivity.
Qed.
Example C43_operators_case : chargecharge 2 edm1 (Some edm2) (Some pr) (Some pr') true
  = (Sum 2 (fun i => Sum 2 (fun j => Sum 2 (fun k => Sum 2 (fun l => pr i j * pr' k l * (edm2 i j k l + delta j k * edm1 i l)))))
    - Sum 2 (fun i => Sum 2 (fun j => pr i j * edm1 i j)) * Sum 2 (fun i => Sum 2 (fun j => pr' i j * edm1 i j)))%K.
Proof. exact (C43_operators QF 2 edm1 edm2 pr pr' true (proj2 (proj2 e_sym))). Qed.
Definition eab (i j k l : nat) : QF := (ci i k * ci j l)%K.
Definition eaa (i j k l : nat) : QF := (eab i j k l - eab i l k j)%K.
Definition edm1a (i j : nat) : QF := (edm1 i j / n2)%K.
Example C43_singlet_case : uspinspin 2 2 (edm1a, edm1a) (Some (eaa, eab, eaa)) (Some (Same pr)) (Some (Same pr')) = Some (spinspin 2 edm1 (Some edm2) (Some pr) (Some pr'))
  /\ spinspin 2 edm1 (Some edm2) (Some pr) (Some pr') <> 0%K.
Proof.
  split; [|apply neqq; vm_compute; reflexivity]. rewrite (C43_singlet QF q2 q3 2 edm1a eaa eab pr pr').
  - apply (f_equal Some). apply eqq_ok. vm_compute. reflexivity.
  - reflexivity.
  - intros i j k l. unfold eab. assert (S : forall a b, ci a b = ci b a) by (intros a b; unfold ci; rewrite (Nat.eqb_sym b a); destruct (Nat.eqb a b) eqn:E; [apply Nat.eqb_eq in E; now subst|reflexivity]). now rewrite (S i k), (S j l).
Qed.
(** the mean-field functions are those of the product 2-DM; they differ from those of the correlated state *)
Example C43_mean_field_case : spinspin 2 edm1 None (Some pr) (Some pr') = spinspin 2 edm1 (Some (product (1 / n2)%K edm1)) (Some pr) (Some pr')
  /\ spinspin 2 edm1 None (Some pr) (Some pr') <> spinspin 2 edm1 (Some edm2) (Some pr) (Some pr')
  /\ chargecharge 2 edm1 None (Some pr) (Some pr') true <> chargecharge 2 edm1 (Some edm2) (Some pr) (Some pr') true.
Proof.
  destruct (C43_mean_field QF q2 q3 2 2 edm1 edm1 edm1 pr pr' (Some pr) (Some pr') (Same pr) (Same pr') true) as (_ & H & _); try apply e_sym.
  split; [exact H|]. split; apply neqq; vm_compute; reflexivity.
Qed.
(** the embedding function from the cumulant of one fragment, whose cluster orbitals are rotated MOs *)
Definition rot (x p : nat) : QF := match x, p with 0%nat, 0%nat => q 3 5 | 0%nat, 1%nat => q 4 5 | 1%nat, 0%nat => q (-4) 5 | 1%nat, 1%nat => q 3 5 | _, _ => q 0 1 end.
Definition fcum (i j k l : nat) : QF := q (Z.of_nat (i * j + k + l + 1)) 7.
Definition cfr : cfrag (F := QF) := {| cf_n := 2; cf_dm2 := fcum; cf_rx := [rot; fun x p => rot p x] |}.
Definition qgt (x y : QF) : bool := Qcltb y x.
Example C43_embedding_case : forall k, corr qgt 2 1 (q 2 1) k edm1 None None [cfr] pr pr'
  = reference QF k 2 edm1 (fun p q r s => (mixed_spec QF (1 / n2) 1 (fun p q => edm1 p q - mf_dm1 1 p q) p q r s + cumulant QF None [cfr] p q r s)%K) pr pr'
  /\ corr qgt 2 1 (q 2 1) k edm1 None None [cfr] pr pr' <> corr qgt 2 1 (q 2 1) k edm1 None None [] pr pr'.
Proof.
  intros k. split; [|destruct k; apply neqq; vm_compute; reflexivity].
  apply (C43_embedding QF q2 q3 qgt 2 1 (q 2 1) k edm1 None None [cfr] pr pr'); try apply e_sym. lia.
Qed.
(** three alpha and one beta electron: Sz = 1 *)
Example C43_unrestricted_mean_field_case : ucorr_mf 4 4 3 1 SzSz None (Same (unit QF)) (Same (unit QF)) = Some (q 1 1) /\ ucorr_mf 2 2 1 1 SzSz None (Same pr) (Same pr') = Some (q (-72) 625).
Proof.
  split; [destruct (C43_unrestricted_mean_field QF q2 4 4 3 1) as (-> & _); [lia|lia|]; apply (f_equal Some); apply eqq_ok; vm_compute; reflexivity|].
  destruct (C43_unrestricted_mean_field QF q2 2 2 1 1) as (_ & ->); [lia|lia|]. apply (f_equal Some). apply eqq_ok. vm_compute. reflexivity.
Qed.
(** detection *)
Example C43_detection_case : dm2_flag qgt (tr2 2 edm2) (q 2 1) None = true
  /\ dm2_flag qgt (tr2 2 (fun p q r s => edm2 p q r s - mixed_spec QF (1 / n2) 1 (fun p q => edm1 p q - mf_dm1 1 p q) p q r s)%K) (q 2 1) None = false.
Proof.
  apply (C43_detection QF q2 Qcltb (ltb_irrefl QO) (ltb_trans QO) (ltb_total QO) (ltb_add QO) (ltb_mul QO) 2 1 (q 2 1) edm1 edm2); [lia| | |apply e_particles|].
  - apply eqq_ok. vm_compute. reflexivity.
  - vm_compute. reflexivity.
  - intros i Hi. destruct i; [|lia]. vm_compute. reflexivity.
Qed.
(** it is needed that the state has more than one particle ... *)
Definition one_dm1 (i j : nat) : QF := match i, j with 0%nat, 0%nat => q 1 1 | _, _ => q 0 1 end.
Theorem C43_detection_one_particle_refuted : n_particles QF 2 (q 1 1) one_dm1 (fun _ _ _ _ => q 0 1 : QF) /\ dm2_flag qgt (tr2 2 (fun _ _ _ _ => q 0 1 : QF)) (q 1 1) None = false.
Proof.
  split; [split|vm_compute; reflexivity]; [apply eqq_ok; vm_compute; reflexivity|].
  apply (two_idx (fun i j => Sum 2 (fun k => q 0 1 : QF) = ((q 1 1 - 1) * one_dm1 i j)%K)); apply eqq_ok; vm_compute; reflexivity.
Qed.
(** ** Findings *)
(** without projectors the unrestricted spin-spin function raises whenever a 2-DM is given *)
Theorem C43_unrestricted_total_refuted : forall (F : cfield) na nb (dm1 : (nat -> nat -> F) * (nat -> nat -> F)) dm2 proj2, uspinspin na nb dm1 (Some dm2) None proj2 = None.
Proof. intros F na nb [a b] [[aa ab] bb] proj2. destruct proj2; reflexivity. Qed.
(** a second projector without a first one is ignored *)
Theorem C43_second_projector_ignored_refuted : forall (F : cfield) n (dm1 : nat -> nat -> F) dm2 p b,
  chargecharge n dm1 dm2 None (Some p) b = chargecharge n dm1 dm2 None None b /\ spinspin n dm1 dm2 None (Some p) = spinspin n dm1 dm2 None None.
Proof. intros F n dm1 dm2 p b. now destruct dm2. Qed.
Theorem C43_identity_mean_field_refuted : sym QF edm1 /\ chargecharge 2 edm1 None (Some (unit QF)) (Some (unit QF)) true <> chargecharge 2 edm1 None None None true.
Proof. split; [apply e_sym|]. apply neqq. vm_compute. reflexivity. Qed.
End Cases.

Print Assumptions C43_identity.
Print Assumptions C43_identity_mean_field.
Print Assumptions C43_additive.
Print Assumptions C43_mean_field.
Print Assumptions C43_operators.
Print Assumptions C43_singlet.
Print Assumptions C43_sum_rule.
Print Assumptions C43_embedding.
Print Assumptions C43_embedding_unrestricted.
Print Assumptions C43_embedding_mean_field.
Print Assumptions C43_unrestricted_mean_field.
Print Assumptions C43_detection.
Print Assumptions C43_detection_one_particle_refuted.
Print Assumptions C43_unrestricted_total_refuted.
Print Assumptions C43_second_projector_ignored_refuted.
Print Assumptions C43_identity_mean_field_refuted.
