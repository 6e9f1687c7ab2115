(** C78: the bath of orbitals near an atom.  Theorems about M_R2Bath. *)
From Coq Require Import String List Arith Lia Bool Ring Setoid Morphisms.
From Verif Require Import Alg Ord M_ExtCorr Mat M_SsRpa P_TtoC P_SsRpa P_BosBath P_FragBasis M_R2Bath.
Import ListNotations.
Local Open Scope string_scope.
Local Open Scope list_scope.

Section T.
Context (K : oring).
Add Ring Kr : (rth K).
Notation vec := (nat -> K).
Notation mt := (nat -> nat -> K).
Variables (eigh : nat -> mt -> vec * mt) (sqrt : K -> K) (asym : mt -> bool) (half thr ibohr : K) (nao : nat).
Notation bath := (r2_bath K eigh sqrt asym half thr ibohr nao).
Notation env_r2 := (env_r2 K asym half nao).
Notation gr := (gr K nao).
Open Scope K_scope.

Lemma le_s0 (x y : K) : le 0 (y - x) <-> le x y.
Proof.
  split; intros H.
  - pose proof (le_add 0 (y - x) x H) as G. replace (0 + x) with x in G by ring. replace (y - x + x) with y in G by ring. exact G.
  - pose proof (le_add x y (- x) H) as G. replace (x + - x) with (0 : K) in G by ring. replace (y + - x) with (y - x) in G by ring. exact G.
Qed.
Lemma sq_le (x y : K) : le 0 x -> le 0 y -> (le x y <-> le (x * x) (y * y)).
Proof.
  intros Hx Hy. split; intros H.
  - apply le_s0. replace (y * y - x * x) with ((y - x) * (y + x)) by ring. apply le_0_mul; [apply le_s0; exact H|apply le_0_add; assumption].
  - apply le_nlt. intros L. apply le_nlt in H. apply H. assert (P : lt 0 ((x - y) * (x + y))).
    { assert (A : lt 0 (x - y)). { pose proof (lt_add y x (- y) L) as G. replace (y + - y) with (0 : K) in G by ring. replace (x + - y) with (x - y) in G by ring. exact G. }
      apply ltb_mul; [exact A|]. apply lt_nle. intros C. apply lt_nle in L. apply L. apply (le_tr x 0 y); [|exact Hy]. apply (le_tr x (x + y) 0); [|exact C]. apply le_s0. replace (x + y - x) with y by ring. exact Hy. }
    pose proof (lt_add _ _ (y * y) P) as G. replace (0 + y * y) with (y * y) in G by ring. replace ((x - y) * (x + y) + y * y) with (x * x) in G by ring. exact G.
Qed.
Lemma count_le (p p' : nat -> bool) l : (forall k, In k l -> p k = true -> p' k = true) -> (length (filter p l) <= length (filter p' l))%nat.
Proof.
  induction l as [|x l IH]; intros H; cbn [filter]; [lia|]. specialize (IH (fun k Hk => H k (or_intror Hk))). pose proof (H x (or_introl eq_refl)) as Hx.
  destruct (p x); [rewrite (Hx eq_refl); cbn; lia|destruct (p' x); cbn; lia].
Qed.
Lemma count_down (p : nat -> bool) n : (forall k l, (k <= l)%nat -> (l < n)%nat -> p l = true -> p k = true) ->
  forall k, (k < n)%nat -> ((k < length (filter p (seq 0 n)))%nat <-> p k = true).
Proof.
  induction n as [|n IH]; intros H k Hk; [lia|]. rewrite seq_S, filter_app, app_length. cbn [filter Nat.add].
  assert (L : (length (filter p (seq 0 n)) <= n)%nat) by (rewrite <- (seq_length n 0) at 2; apply filter_len).
  specialize (IH (fun a b Hab Hb => H a b Hab (Nat.lt_lt_succ_r _ _ Hb))). destruct (p n) eqn:E; cbn [length].
  - assert (A : forall j, (j <= n)%nat -> p j = true) by (intros j Hj; apply (H j n Hj); [lia|exact E]).
    assert (B : length (filter p (seq 0 n)) = n). { destruct n as [|m]; [reflexivity|]. pose proof (proj2 (IH m ltac:(lia)) (A m ltac:(lia))). lia. }
    split; intros _; [apply A; lia|lia].
  - destruct (Nat.eq_dec k n) as [->|N]; [split; [lia|congruence]|]. rewrite <- (IH k ltac:(lia)). lia.
Qed.

(** What an accepted call computes. *)
Lemma bath_ok oc na o v r2 rc u nb cb nr cr : bath oc na o v r2 rc u = Some ((nb, cb), (nr, cr)) ->
  exists n c rb, c_env K oc o v = Some (n, c) /\ na = 1%nat /\ to_bohr K ibohr rc u = Some rb /\ cb = mm n c (snd (eigh n (env_r2 c r2)))
  /\ nb = length (filter (fun k => leb (sqrt (if ltb (fst (eigh n (env_r2 c r2)) k) 0 then 0 else fst (eigh n (env_r2 c r2)) k)) rb) (seq 0 n))
  /\ nr = (n - nb)%nat /\ cr = (fun x j => cb x (nb + j)%nat).
Proof.
  unfold r2_bath. destruct (c_env K oc o v) as [[n c]|]; [|discriminate]. destruct (Nat.eqb_spec na 1) as [Hna|Hna]; cbn [negb]; [|discriminate]. unfold kernel. destruct (eigh n (env_r2 c r2)) as [e w] eqn:E. cbv beta iota zeta.
  destruct (existsb _ _); [discriminate|]. unfold get_bath. destruct (to_bohr K ibohr rc u) as [rb|]; [|discriminate]. cbv zeta. intros H. injection H as <- <- <- <-. exists n, c, rb. rewrite E. cbn [fst snd]. repeat split; auto.
Qed.

(** Bath and rest: orthonormal, orthogonal to each other, and together they span the environment. *)
Theorem C78_orthonormal S oc na o v r2 rc u nb cb nr cr n c : bath oc na o v r2 rc u = Some ((nb, cb), (nr, cr)) -> c_env K oc o v = Some (n, c) ->
  eig_ok n (env_r2 c r2) (eigh n (env_r2 c r2)) -> meq n n (gr S c c) idm ->
  (nb + nr)%nat = n /\ meq nb nb (gr S cb cb) idm /\ meq nr nr (gr S cr cr) idm /\ meq nb nr (gr S cb cr) zm
  /\ forall i, (i < n)%nat -> exists y z, forall x, c x i = Sum nb (fun k => cb x k * y k) + Sum nr (fun k => cr x k * z k).
Proof.
  intros H HC HE HO. destruct (bath_ok _ _ _ _ _ _ _ _ _ _ _ H) as (n' & c' & rb & A & _ & _ & Hcb & Hnb & Hnr & Hcr). rewrite HC in A. injection A as <- <-.
  assert (Ln : (nb <= n)%nat) by (rewrite Hnb; rewrite <- (seq_length n 0) at 2; apply filter_len). clear Hnb. set (w := snd (eigh n (env_r2 c r2))) in *. destruct HE as (_ & E2 & E3). fold w in E2, E3.
  assert (G : forall i j, (i < n)%nat -> (j < n)%nat -> gr S cb cb i j = delta i j).
  { intros i j Hi Hj. rewrite Hcb, gr_l. unfold mm at 1. rewrite (Sum_ext n _ (fun a => w a i * w a j)).
    - exact (E2 i j Hi Hj).
    - intros a Ha. unfold tr. f_equal. rewrite gr_r. unfold mm. rewrite (Sum_ext n _ (fun l => delta a l * w l j)) by (intros l Hl; rewrite (HO a l Ha Hl); reflexivity). exact (Sum_delta_l n a (fun l => w l j) Ha). }
  assert (Gr : forall i j, gr S cr cr i j = gr S cb cb (nb + i)%nat (nb + j)%nat) by (intros; rewrite Hcr; reflexivity).
  assert (Gx : forall i j, gr S cb cr i j = gr S cb cb i (nb + j)%nat) by (intros; rewrite Hcr; reflexivity).
  split; [lia|]. split; [intros i j Hi Hj; apply G; lia|]. split; [|split].
  - intros i j Hi Hj. rewrite Gr, G by lia. unfold idm, delta. destruct (Nat.eqb_spec (nb + i) (nb + j)), (Nat.eqb_spec i j); try reflexivity; lia.
  - intros i j Hi Hj. rewrite Gx, G by lia. unfold zm, delta. destruct (Nat.eqb_spec i (nb + j)); [lia|reflexivity].
  - intros i Hi. exists (fun k => w i k), (fun k => w i (nb + k)%nat). intros x.
    transitivity (Sum n (fun k => cb x k * w i k)).
    + rewrite Hcb. unfold mm. rewrite (Sum_ext n _ (fun k => Sum n (fun a => c x a * (w a k * w i k)))) by (intros k _; rewrite <- Sum_mul_r; apply Sum_ext; intros; ring).
      rewrite Sum_swap. rewrite (Sum_ext n _ (fun a => c x a * delta a i)). 2:{ intros a Ha. rewrite Sum_mul_l. f_equal. exact (E3 a i Ha Hi). } symmetry. exact (Sum_delta_r n i (fun a => c x a) Hi).
    + replace n with (nb + nr)%nat at 1 by lia. rewrite Sum_split. rewrite Hcr. reflexivity.
Qed.

(** Eigenvalues in ascending order, and square roots at the values met. *)
Definition ascending n (e : vec) : Prop := forall k l, (k <= l)%nat -> (l < n)%nat -> le (e k) (e l).
Definition clip (x : K) : K := if ltb x 0 then 0 else x.
Definition root_at (x : K) : Prop := le 0 (sqrt x) /\ sqrt x * sqrt x = x.
Lemma clip_ge x : le x (clip x). Proof. unfold clip. destruct (ltb x 0) eqn:E; [apply lt_le; exact E|apply le_refl]. Qed.
Lemma clip_mono x y : le x y -> le (clip x) (clip y).
Proof.
  intros H. unfold clip. destruct (ltb x 0) eqn:E, (ltb y 0) eqn:F; try apply le_refl; [|exfalso|exact H].
  - apply le_nlt. unfold lt. congruence.
  - assert (G : le 0 x) by (apply le_nlt; unfold lt; congruence). apply (proj1 (le_nlt 0 y) (le_tr _ _ _ G H)). exact F.
Qed.
(** Every orbital made of bath orbitals has a mean squared distance within the cutoff squared (times its norm), and every one made
    of the others has one not smaller than the cutoff squared. *)
Theorem C78_distance oc na o v r2 rc u nb cb nr cr n c rb : bath oc na o v r2 rc u = Some ((nb, cb), (nr, cr)) -> c_env K oc o v = Some (n, c) -> to_bohr K ibohr rc u = Some rb ->
  half + half = 1 -> meq nao nao r2 (tr r2) -> le 0 rb ->
  let ev := eigh n (env_r2 c r2) in eig_ok n (env_r2 c r2) ev -> ascending n (fst ev) -> (forall k, (k < n)%nat -> root_at (clip (fst ev k))) ->
  forall y : mt, le (gr r2 (mm nb cb y) (mm nb cb y) 0%nat 0%nat) (rb * rb * Sum nb (fun k => y k 0%nat * y k 0%nat))
    /\ le (rb * rb * Sum nr (fun k => y k 0%nat * y k 0%nat)) (gr r2 (mm nr cr y) (mm nr cr y) 0%nat 0%nat).
Proof.
  intros H HC HB Hh HS Hr ev HE HA HR y. destruct (bath_ok _ _ _ _ _ _ _ _ _ _ _ H) as (n' & c' & rb' & A & _ & B & Hcb & Hnb & Hnr & Hcr). rewrite HC in A. injection A as <- <-. rewrite HB in B. injection B as <-.
  fold ev in Hcb, Hnb. set (e := fst ev) in *. set (w := snd ev) in *. destruct HE as (E1 & E2 & _). fold e w in E1, E2.
  assert (M : forall i j, env_r2 c r2 i j = gr r2 c c i j).
  { intros i j. unfold M_R2Bath.env_r2. destruct (asym _); rewrite !gr_mm; [|reflexivity]. rewrite (gr_sym K nao r2 HS c c j i). transitivity (gr r2 c c i j * (half + half)); [ring|rewrite Hh; ring]. }
  assert (D : forall i j, (i < n)%nat -> (j < n)%nat -> gr r2 cb cb i j = e j * delta i j).
  { intros i j Hi Hj. rewrite Hcb, gr_l. unfold mm at 1. rewrite (Sum_ext n _ (fun a => e j * (w a i * w a j))).
    - rewrite Sum_mul_l. f_equal. exact (E2 i j Hi Hj).
    - intros a Ha. unfold tr. rewrite gr_r. transitivity (w a i * (w a j * e j)); [|ring]. f_equal. transitivity (mm n (env_r2 c r2) w a j); [unfold mm; apply Sum_ext; intros; rewrite M; reflexivity|].
      rewrite (E1 a j Ha Hj). exact (mm_dgr n n e w a j Ha Hj). }
  assert (Ln : (nb <= n)%nat) by (rewrite Hnb; rewrite <- (seq_length n 0) at 2; apply filter_len).
  assert (P : forall k, (k < n)%nat -> (leb (sqrt (clip (e k))) rb = true <-> le (clip (e k)) (rb * rb))).
  { intros k Hk. destruct (HR k Hk) as [R1 R2]. fold e in R1, R2. pose proof (sq_le (sqrt (clip (e k))) rb R1 Hr) as Q. rewrite R2 in Q. exact Q. }
  assert (C : forall k, (k < n)%nat -> ((k < nb)%nat <-> le (clip (e k)) (rb * rb))).
  { intros k Hk. rewrite <- (P k Hk), Hnb. apply (count_down (fun k => leb (sqrt (clip (e k))) rb) n); [|exact Hk].
    intros a b Hab Hb Q. apply (P a ltac:(lia)). apply (P b Hb) in Q. apply (le_tr _ (clip (e b))); [apply clip_mono, HA; assumption|exact Q]. }
  assert (F : forall m s, (s + m <= n)%nat -> forall d : mt, d = (fun x j => cb x (s + j)%nat) -> gr r2 (mm m d y) (mm m d y) 0%nat 0%nat = Sum m (fun k => e (s + k)%nat * (y k 0%nat * y k 0%nat))).
  { intros m s Hm d Hd. rewrite gr_l. unfold mm at 1. apply Sum_ext. intros k Hk. unfold tr. rewrite gr_r. unfold mm.
    rewrite (Sum_ext m _ (fun l => delta k l * (e (s + l)%nat * y l 0%nat))).
    - rewrite (Sum_delta_l m k (fun l => e (s + l)%nat * y l 0%nat) Hk). ring.
    - intros l Hl. transitivity (gr r2 cb cb (s + k)%nat (s + l)%nat * y l 0%nat); [rewrite Hd; reflexivity|]. rewrite D by lia. unfold delta.
      destruct (Nat.eqb_spec (s + k) (s + l)), (Nat.eqb_spec k l); try lia; ring. }
  split.
  - rewrite (F nb 0%nat) by (lia || reflexivity). rewrite <- Sum_mul_l. apply Sum_le. intros k Hk. cbn [Nat.add]. apply le_s0. replace (rb * rb * (y k 0%nat * y k 0%nat) - e k * (y k 0%nat * y k 0%nat)) with ((rb * rb - e k) * (y k 0%nat * y k 0%nat)) by ring.
    apply le_0_mul; [|apply le_0_sqr]. apply le_s0. apply (le_tr _ (clip (e k))); [apply clip_ge|apply C; lia].
  - rewrite (F nr nb) by (lia || exact Hcr). rewrite <- Sum_mul_l. apply Sum_le. intros k Hk. apply le_s0.
    replace (e (nb + k)%nat * (y k 0%nat * y k 0%nat) - rb * rb * (y k 0%nat * y k 0%nat)) with ((e (nb + k)%nat - rb * rb) * (y k 0%nat * y k 0%nat)) by ring.
    apply le_0_mul; [|apply le_0_sqr]. apply le_s0. assert (N : ~ le (clip (e (nb + k)%nat)) (rb * rb)) by (intros Q; apply (C (nb + k)%nat ltac:(lia)) in Q; lia).
    apply lt_nle in N. apply lt_le. revert N. unfold clip. destruct (ltb (e (nb + k)%nat) 0); [|auto]. intros N. exfalso. apply lt_nle in N. apply N. apply le_0_sqr.
Qed.
(** A larger cutoff gives a larger bath of the same orbitals; the cutoff in Angstrom is that in Bohr after conversion. *)
Theorem C78_nested oc na o v r2 rc rc' u nb cb nr cr : le 0 ibohr -> le rc rc' -> bath oc na o v r2 rc u = Some ((nb, cb), (nr, cr)) ->
  exists nb' nr' cr', bath oc na o v r2 rc' u = Some ((nb', cb), (nr', cr')) /\ (nb <= nb')%nat.
Proof.
  intros Hi Hr. unfold r2_bath. destruct (c_env K oc o v) as [[n c]|]; [|discriminate]. destruct (negb (na =? 1)%nat); [discriminate|]. destruct (kernel K eigh sqrt asym half thr nao n c r2) as [[e w]|]; [|discriminate].
  unfold get_bath. destruct (to_bohr K ibohr rc u) as [rb|] eqn:E; [|discriminate]. cbv zeta. intros H. injection H as <- <- <- <-.
  assert (G : exists rb', to_bohr K ibohr rc' u = Some rb' /\ le rb rb').
  { unfold to_bohr in *. destruct (prefix "ang" (lower u)); [|destruct (prefix "b" (lower u)); [|discriminate]]; injection E as <-; eexists; (split; [reflexivity|]); [|exact Hr].
    apply le_s0. replace (rc' * ibohr - rc * ibohr) with ((rc' - rc) * ibohr) by ring. apply le_0_mul; [apply le_s0; exact Hr|exact Hi]. }
  destruct G as (rb' & -> & L). do 3 eexists. split; [reflexivity|]. apply count_le. intros k _ Q. exact (le_tr _ _ _ Q L).
Qed.
Theorem C78_units oc na o v r2 rc : bath oc na o v r2 rc "Angstrom" = bath oc na o v r2 (rc * ibohr) "Bohr"
  /\ (forall u u', lower u = lower u' -> bath oc na o v r2 rc u = bath oc na o v r2 rc u')
  /\ (forall u, prefix "ang" (lower u) = false -> prefix "b" (lower u) = false -> bath oc na o v r2 rc u = None).
Proof.
  unfold r2_bath. destruct (c_env K oc o v) as [[n c]|]; [|auto]. destruct (negb (na =? 1)%nat); [auto|]. destruct (kernel K eigh sqrt asym half thr nao n c r2) as [[e w]|]; [|auto].
  unfold get_bath. split; [reflexivity|]. unfold to_bohr. split; [intros u u' E; rewrite E; reflexivity|intros u E F; rewrite E, F; reflexivity].
Qed.
End T.

From Coq Require Import ZArith QArith Qcanon.
Section Cases.
Local Close Scope Q_scope. Local Open Scope nat_scope.
Ltac qq := first [apply eqq_ok; vm_compute; reflexivity | apply neqq; vm_compute; reflexivity].
Ltac ck := first [apply meqb_ok | apply eigb_ok]; vm_compute; reflexivity.
Notation K := QO.
Notation vec := (nat -> QO).
Notation mt := (nat -> nat -> QO).
(** Two orbitals of the environment; the distances of their rotated combinations are 1 and 2 Bohr, the cutoff is 3/2. *)
Definition r2m : mt := mat2 (q 73 25) (q (-36) 25) (q (-36) 25) (q 52 25).
Definition req : nat -> mt -> vec * mt := fun _ _ => (vec2 (q 1 1) (q 4 1), rot35).
Definition rsq : K -> K := fun x => if eqq x (q 4 1) then q 2 1 else x.
Definition ras : mt -> bool := fun a => negb (eqq (a 0 1) (a 1 0)).
Definition rhf : K := q 1 2.
Definition rth_ : K := q 1 1000.
Definition rib : K := q 2 1.
Definition rid : mt := idm.
Notation rbath := (r2_bath K req rsq ras rhf rth_ rib 2 "virtual" 1 (0, zm) (2, rid) r2m).
Definition rcb : mt := mm 2 rid rot35.
Definition rcr : mt := fun x j => rcb x (1 + j).
Lemma rB : rbath (q 3 4) "Ang" = Some ((1, rcb), (1, rcr)).
Proof.
  unfold r2_bath, c_env. cbn [String.eqb Ascii.eqb Bool.eqb negb Nat.eqb]. unfold kernel. change (req 2 (env_r2 K ras rhf 2 rid r2m)) with (vec2 (q 1 1) (q 4 1), rot35 : mt). cbv beta iota.
  assert (E : existsb (fun k => ltb (vec2 (q 1 1) (q 4 1) k) (ropp rth_)) (seq 0 2) = false) by (vm_compute; reflexivity). rewrite E. unfold get_bath.
  assert (T : to_bohr K rib (q 3 4) "Ang" = Some (rmul (q 3 4) rib)) by reflexivity. rewrite T. cbv zeta.
  assert (F : length (filter (fun k => Ord.leb (rsq (if ltb (vec2 (q 1 1) (q 4 1) k) r0 then r0 else vec2 (q 1 1) (q 4 1) k)) (rmul (q 3 4) rib)) (seq 0 2)) = 1) by (vm_compute; reflexivity).
  rewrite F. reflexivity.
Qed.
Lemma rE : eig_ok 2 (env_r2 K ras rhf 2 rid r2m) (req 2 (env_r2 K ras rhf 2 rid r2m)). Proof. ck. Qed.
Example C78_orthonormal_case : gr K 2 idm rcb rcr 0 0 = r0 /\ rcb 0 0 <> r0 /\ exists y z : vec, rid 0 0 = radd (Sum 1 (fun k => rmul (rcb 0 k) (y k))) (Sum 1 (fun k => rmul (rcr 0 k) (z k))).
Proof.
  assert (O : meq 2 2 (gr K 2 idm rid rid) idm) by ck.
  destruct (C78_orthonormal K req rsq ras rhf rth_ rib 2 idm _ _ _ _ _ _ _ _ _ _ _ 2 rid rB eq_refl rE O) as (_ & _ & _ & X & Y).
  split; [exact (X 0 0 ltac:(lia) ltac:(lia))|]. split; [qq|]. destruct (Y 0 ltac:(lia)) as (y & z & E). exists y, z. apply E.
Qed.
Example C78_distance_case : gr K 2 r2m (mm 1 rcb (fun _ _ => q 1 1)) (mm 1 rcb (fun _ _ => q 1 1)) 0 0 = q 1 1 /\ Ord.le (K := QO) (q 1 1) (rmul (q 3 2) (q 3 2)) /\
  forall y : mt, Ord.le (K := QO) (rmul (rmul (rmul (q 3 4) rib) (rmul (q 3 4) rib)) (Sum 1 (fun k => rmul (y k 0) (y k 0)))) (gr K 2 r2m (mm 1 rcr y) (mm 1 rcr y) 0 0).
Proof.
  split; [qq|]. split; [vm_compute; reflexivity|]. intros y.
  refine (proj2 (C78_distance K req rsq ras rhf rth_ rib 2 _ _ _ _ _ _ _ _ _ _ _ 2 rid (rmul (q 3 4) rib) rB eq_refl eq_refl _ _ _ rE _ _ y)).
  - qq.
  - ck.
  - vm_compute; reflexivity.
  - intros k l Hkl Hl. destruct l as [|[|l]], k as [|[|k]]; try lia; vm_compute; reflexivity.
  - intros k Hk. destruct k as [|[|k]]; [| |lia]; (split; [vm_compute; reflexivity|qq]).
Qed.
Example C78_nested_case : exists nb' nr' cr', rbath (q 3 1) "Ang" = Some ((nb', rcb), (nr', cr')) /\ 1 <= nb'.
Proof. apply (C78_nested K req rsq ras rhf rth_ rib 2 _ _ _ _ _ (q 3 4) (q 3 1) "Ang" 1 rcb 1 rcr); [vm_compute; reflexivity|vm_compute; reflexivity|exact rB]. Qed.
Example C78_units_case : rbath (q 3 4) "Angstrom" = rbath (rmul (q 3 4) rib) "Bohr" /\ rbath (q 3 4) "ANG" = rbath (q 3 4) "Ang" /\ rbath (q 3 4) "nm" = None.
Proof.
  pose proof (C78_units K req rsq ras rhf rth_ rib 2 "virtual" 1 (0, zm) (2, rid) r2m (q 3 4)) as (A & B & C). split; [exact A|]. split; [apply B; reflexivity|apply C; reflexivity].
Qed.
End Cases.

Print Assumptions C78_orthonormal.
Print Assumptions C78_distance.
Print Assumptions C78_nested.
Print Assumptions C78_units.
