(** C51: the polaritonic shift. *)
From Coq Require Import List Bool Arith ZArith QArith Qcanon Lia Field.
From Verif Require Import Alg M_Polariton.
Import ListNotations.
Close Scope Q_scope. Close Scope Qc_scope. Close Scope Z_scope. Open Scope nat_scope.

Section Thms.
Context (F : cfield).
Add Field Ff : (fth F).
Open Scope K_scope.
Notation mat := (nat -> nat -> F).
Notation vec := (nat -> F).
Notation cpl := (nat -> nat -> nat -> F).

(** Expectation values of a state of electrons and bosons: <p+ q> for both spins, <b+>, <b>, <b+ b>, <p+ q b+>, <p+ q b>. *)
Record state := { Da : mat; Db : mat; Bp : vec; Bm : vec; M : vec; Xa : cpl; Xb : cpl; Ya : cpl; Yb : cpl }.
(** A state with a fixed number of electrons: the number operator acts as the number. *)
Definition fixed (na nb nbos : nat) (N : F) (st : state) : Prop :=
  Sum na (fun p => Da st p p) + Sum nb (fun p => Db st p p) = N
  /\ (forall n, (n < nbos)%nat -> Sum na (fun p => Xa st n p p) + Sum nb (fun p => Xb st n p p) = N * Bp st n)
  /\ (forall n, (n < nbos)%nat -> Sum na (fun p => Ya st n p p) + Sum nb (fun p => Yb st n p p) = N * Bm st n).
Definition dot2 (n : nat) (h d : mat) : F := Sum n (fun p => Sum n (fun q => h p q * d p q)).
(** Energy of h_pq p+ q + w_n b+ b + g_npq (p+ q b+ + q+ p b) *)
Definition energy (na nb nbos : nat) (ha hb : mat) (w : vec) (ga gb : cpl) (st : state) : F :=
  dot2 na ha (Da st) + dot2 nb hb (Db st) + Sum nbos (fun n => w n * M st n)
  + Sum nbos (fun n => dot2 na (ga n) (Xa st n) + dot2 na (fun p q => ga n q p) (Ya st n)
                       + dot2 nb (gb n) (Xb st n) + dot2 nb (fun p q => gb n q p) (Yb st n)).
(** The same state in terms of the displaced bosons b' = b + s *)
Definition displace (s : vec) (st : state) : state :=
  {| Da := Da st; Db := Db st; Bp := fun n => Bp st n + s n; Bm := fun n => Bm st n + s n;
     M := fun n => M st n + s n * (Bp st n + Bm st n) + s n * s n;
     Xa := fun n p q => Xa st n p q + s n * Da st p q; Xb := fun n p q => Xb st n p q + s n * Db st p q;
     Ya := fun n p q => Ya st n p q + s n * Da st p q; Yb := fun n p q => Yb st n p q + s n * Db st p q |}.

Lemma dot2_add_l n a b d : dot2 n (fun p q => a p q + b p q) d = dot2 n a d + dot2 n b d.
Proof. unfold dot2. rewrite <- Sum_add. apply Sum_ext. intros. rewrite <- Sum_add. apply Sum_ext. intros. ring. Qed.
Lemma dot2_add_r n a b d : dot2 n d (fun p q => a p q + b p q) = dot2 n d a + dot2 n d b.
Proof. unfold dot2. rewrite <- Sum_add. apply Sum_ext. intros. rewrite <- Sum_add. apply Sum_ext. intros. ring. Qed.
Lemma dot2_mul_r n c a d : dot2 n d (fun p q => c * a p q) = c * dot2 n d a.
Proof. unfold dot2. rewrite <- Sum_mul_l. apply Sum_ext. intros. rewrite <- Sum_mul_l. apply Sum_ext. intros. ring. Qed.
Lemma dot2_Sum n nb (a : nat -> mat) d : dot2 n (fun p q => - Sum nb (fun k => a k p q)) d = - Sum nb (fun k => dot2 n (a k) d).
Proof.
  unfold dot2. rewrite <- Sum_opp.
  rewrite (Sum_ext nb _ (fun k => Sum n (fun p => Sum n (fun q => - (a k p q * d p q))))).
  2:{ intros. rewrite <- Sum_opp. apply Sum_ext. intros. now rewrite <- Sum_opp. }
  rewrite (Sum_swap nb n). apply Sum_ext. intros p _. rewrite (Sum_swap nb n). apply Sum_ext. intros q _.
  rewrite (Sum_ext nb (fun k => - (a k p q * d p q)) (fun k => (- d p q) * a k p q)) by (intros; ring). rewrite Sum_mul_l. ring.
Qed.
Lemma dot2_delta n c g d : dot2 n (fun p q => g p q - delta p q * c) d = dot2 n g d - c * Sum n (fun p => d p p).
Proof.
  unfold dot2. rewrite <- Sum_mul_l, <- Sum_sub. apply Sum_ext. intros p Hp.
  rewrite (Sum_ext n _ (fun q => g p q * d p q - delta p q * (c * d p q))) by (intros; ring).
  rewrite Sum_sub. f_equal. now rewrite Sum_delta_l.
Qed.
Lemma dot2_delta' n c g d : dot2 n (fun p q => g q p - delta q p * c) d = dot2 n (fun p q => g q p) d - c * Sum n (fun p => d p p).
Proof.
  rewrite <- (dot2_delta n c (fun p q => g q p) d). unfold dot2. apply Sum_ext. intros. apply Sum_ext. intros. now rewrite (delta_sym i0 i).
Qed.

Lemma energy_shift na nb nbos (ha hb : mat) (w s : vec) (ga gb : cpl) (N : F) (st : state) : N <> 0 -> fixed na nb nbos N st ->
  energy na nb nbos ha hb w ga gb st
  = energy na nb nbos (heff_shifted nbos s ga ha) (heff_shifted nbos s gb hb) w (shifted N w s ga) (shifted N w s gb) (displace s st)
    + Sum nbos (fun n => w n * (s n * s n)).
Proof.
  intros HN (H1 & H2 & H3). unfold energy, displace. cbn [Da Db Bp Bm M Xa Xb Ya Yb].
  unfold heff_shifted. rewrite !dot2_add_l. unfold fock_shift. rewrite !dot2_Sum.
  set (A := dot2 na ha (Da st)). set (B := dot2 nb hb (Db st)).
  match goal with |- A + B + ?x + ?y = A + - ?u + (B + - ?v) + ?z + ?t + ?c =>
    transitivity (A + B + (x + y)); [ring|]; transitivity (A + B + (z + t + c - u - v)); [|ring] end.
  f_equal. rewrite <- !Sum_add, <- !Sum_sub. apply Sum_ext. intros n Hn.
  unfold shifted.
  rewrite !dot2_add_r, !dot2_mul_r, !dot2_delta, !dot2_delta'.
  specialize (H2 n Hn). specialize (H3 n Hn).
  assert (Ef : forall k (g : cpl) D, dot2 k (fun p q => (g n p q + g n q p) * s n) D = s n * (dot2 k (g n) D + dot2 k (fun p q => g n q p) D)).
  { intros. rewrite <- dot2_add_l. unfold dot2. rewrite <- Sum_mul_l. apply Sum_ext. intros. rewrite <- Sum_mul_l. apply Sum_ext. intros. ring. }
  rewrite !Ef.
  set (xa := Sum na (fun p => Xa st n p p)) in *. set (xb := Sum nb (fun p => Xb st n p p)) in *.
  set (ya := Sum na (fun p => Ya st n p p)) in *. set (yb := Sum nb (fun p => Yb st n p p)) in *.
  set (da := Sum na (fun p => Da st p p)) in *. set (db := Sum nb (fun p => Db st p p)) in *.
  assert (X : xa = N * Bp st n - xb) by (rewrite <- H2; ring). assert (Y : ya = N * Bm st n - yb) by (rewrite <- H3; ring).
  assert (Dd : da = N - db) by (rewrite <- H1; ring). rewrite X, Y, Dd. field. exact HN.
Qed.

(** ** C51 *)
(** Every state of the electrons and bosons with the right number of electrons has the same energy with shifted couplings and one-electron
    Hamiltonian and displaced bosons, up to the constant w s^2 (unrestricted, for any frequencies, couplings and orbitals). *)
Theorem C51_unrestricted : forall na nb nbos noa nob (ha hb : mat) (w : vec) (ga gb : cpl) (st : state), nK (K := F) (noa + nob) <> 0 ->
  fixed na nb nbos (nK (noa + nob)) st ->
  let s := shift noa nob w ga gb in let g' := couplings_u noa nob w s ga gb in
  energy na nb nbos ha hb w ga gb st
  = energy na nb nbos (heff_shifted nbos s ga ha) (heff_shifted nbos s gb hb) w (fst g') (snd g') (displace s st) + Sum nbos (fun n => w n * (s n * s n)).
Proof. intros. apply energy_shift; auto. Qed.
Lemma nK_two n : nK (K := F) (n + n) = two * nK n.
Proof. rewrite nK_add. unfold two. ring. Qed.
(** Restricted Hamiltonians with the same couplings for both spins, whenever the shifted couplings are accepted. *)
Theorem C51_restricted : forall norb nbos nocc close (ha hb : mat) (w : vec) (g : cpl) (g' : cpl) (st : state), nK (K := F) (nocc + nocc) <> 0 ->
  fixed norb norb nbos (nK (nocc + nocc)) st ->
  let s := shift nocc nocc w g g in
  couplings_r nocc close w s g g = Some g' ->
  energy norb norb nbos ha hb w g g st
  = energy norb norb nbos (heff_shifted nbos s g ha) (heff_shifted nbos s g hb) w g' g' (displace s st) + Sum nbos (fun n => w n * (s n * s n)).
Proof.
  intros norb nbos nocc close ha hb w g g' st HN Hf s E. unfold couplings_r in E. destruct (close _ _); [|discriminate]. injection E as <-.
  rewrite <- nK_two. apply energy_shift; auto.
Qed.
(** They are accepted whenever the comparison accepts equal arrays (np.allclose does), so the restricted Hamiltonian can always be shifted. *)
Theorem C51_accepted : forall nocc close (w s : vec) (g : cpl), (forall a, close a a = true) ->
  exists g', couplings_r nocc close w s g g = Some g' /\ forall n p q, g' n p q = g n p q - delta p q * (s n * w n / nK (nocc + nocc)).
Proof. intros nocc close w s g H. unfold couplings_r. rewrite H. eexists. split; [reflexivity|]. intros. rewrite nK_two. reflexivity. Qed.
(** The mean field no longer displaces the bosons: the coupling to the occupied orbitals vanishes for every boson. *)
Theorem C51_no_displacement : forall noa nob (w : vec) (ga gb : cpl) n, nK (K := F) (noa + nob) <> 0 -> w n <> 0 ->
  let g' := couplings_u noa nob w (shift noa nob w ga gb) ga gb in
  Sum noa (fun p => fst g' n p p) + Sum nob (fun p => snd g' n p p) = 0.
Proof.
  intros noa nob w ga gb n HN Hw. cbn [couplings_u fst snd]. unfold shifted.
  rewrite (Sum_ext noa _ (fun p => ga n p p - shift noa nob w ga gb n * w n / nK (noa + nob))) by (intros; rewrite delta_eq; field; exact HN).
  rewrite (Sum_ext nob _ (fun p => gb n p p - shift noa nob w ga gb n * w n / nK (noa + nob))) by (intros; rewrite delta_eq; field; exact HN).
  rewrite !Sum_sub, !Sum_const. unfold shift. set (A := Sum noa _). set (B := Sum nob _). rewrite nK_add in *. field. split; [exact Hw|exact HN].
Qed.
(** The reported energy change: the mean-field state (bosons in their vacuum) gains -w s^2 when the bosons relax. *)
Definition vacuum (da db : mat) : state :=
  {| Da := da; Db := db; Bp := fun _ => 0; Bm := fun _ => 0; M := fun _ => 0; Xa := fun _ _ _ => 0; Xb := fun _ _ _ => 0; Ya := fun _ _ _ => 0; Yb := fun _ _ _ => 0 |}.
Definition occ (no : nat) : mat := fun p q => if (p <? no)%nat then delta p q else 0.
Lemma dot2_occ n no (h : mat) : (no <= n)%nat -> dot2 n h (occ no) = Sum no (fun p => h p p).
Proof.
  intros Hn. unfold dot2, occ. replace n with (no + (n - no))%nat by lia. rewrite Sum_split.
  rewrite (Sum_0 (n - no)).
  - transitivity (Sum no (fun p => h p p) + 0); [|ring]. f_equal. apply Sum_ext. intros p Hp.
    rewrite (Sum_ext _ _ (fun q => h p q * delta p q)). 2:{ intros q _. destruct (Nat.ltb_spec p no); [reflexivity|lia]. }
    rewrite Sum_delta_r' by lia. reflexivity.
  - intros p Hp. apply Sum_0. intros q _. destruct (Nat.ltb_spec (no + p) no); [lia|ring].
Qed.
Lemma dot2_0 n h : dot2 n h (fun _ _ => 0) = 0.
Proof. unfold dot2. apply Sum_0. intros. apply Sum_0. intros. ring. Qed.
Theorem C51_energy_change : forall na nb nbos noa nob (ha hb : mat) (w : vec) (ga gb : cpl), nK (K := F) (noa + nob) <> 0 ->
  (noa <= na)%nat -> (nob <= nb)%nat -> (forall n, (n < nbos)%nat -> w n <> 0) ->
  let s := shift noa nob w ga gb in let g' := couplings_u noa nob w s ga gb in
  (energy na nb nbos (heff_shifted nbos s ga ha) (heff_shifted nbos s gb hb) w (fst g') (snd g') (vacuum (occ noa) (occ nob)) + Sum nbos (fun n => w n * (s n * s n)))
  - energy na nb nbos ha hb w ga gb (vacuum (occ noa) (occ nob)) = - Sum nbos (fun n => s n * s n * w n).
Proof.
  intros na nb nbos noa nob ha hb w ga gb HN Ha Hb Hw s g'. unfold energy, vacuum. cbn [Da Db M Xa Xb Ya Yb].
  assert (Z0 : forall (x y : cpl), Sum nbos (fun n => dot2 na (x n) (fun _ _ => 0) + dot2 na (fun p q => x n q p) (fun _ _ => 0) + dot2 nb (y n) (fun _ _ => 0) + dot2 nb (fun p q => y n q p) (fun _ _ => 0)) = 0).
  { intros. apply Sum_0. intros. rewrite !dot2_0. ring. }
  assert (Z1 : Sum nbos (fun n => w n * 0) = 0) by (apply Sum_0; intros; ring).
  rewrite !(Z0 (fst g') (snd g')), !(Z0 ga gb), Z1.
  rewrite !dot2_occ by auto. unfold heff_shifted. rewrite !Sum_add. unfold fock_shift.
  assert (E : forall k (g : cpl), Sum k (fun p => - Sum nbos (fun n => (g n p p + g n p p) * s n)) = - Sum nbos (fun n => two * s n * Sum k (fun p => g n p p))).
  { intros. rewrite Sum_opp. f_equal. rewrite Sum_swap. apply Sum_ext. intros. rewrite <- Sum_mul_l. apply Sum_ext. intros. unfold two. ring. }
  rewrite !E.
  assert (E2 : Sum nbos (fun n => two * s n * Sum noa (fun p => ga n p p)) + Sum nbos (fun n => two * s n * Sum nob (fun p => gb n p p)) = two * Sum nbos (fun n => s n * s n * w n)).
  { rewrite <- Sum_add, <- Sum_mul_l. apply Sum_ext. intros n Hn. unfold s at 1 2 3 4, shift. unfold two. field. exact (Hw n Hn). }
  assert (E3 : Sum nbos (fun n => w n * (s n * s n)) = Sum nbos (fun n => s n * s n * w n)) by (apply Sum_ext; intros; ring).
  rewrite E3. set (S1 := Sum nbos (fun n => two * s n * Sum noa _)) in *. set (S2 := Sum nbos (fun n => two * s n * Sum nob _)) in *.
  set (S3 := Sum nbos (fun n => s n * s n * w n)) in *. assert (X : S1 = two * S3 - S2) by (rewrite <- E2; ring). rewrite X. unfold two. ring.
Qed.
(** The correction of the electron-boson density matrix returns to the original bosons, <p+ q b+> = <p+ q b'+> + correction, for both spins. *)
Theorem C51_eb_density : forall (s : vec) (st : state) n p q,
  Xa (displace s st) n p q + eb_dm_shift s (Da (displace s st)) p q n = Xa st n p q
  /\ Xb (displace s st) n p q + eb_dm_shift s (Db (displace s st)) p q n = Xb st n p q.
Proof. intros. unfold eb_dm_shift. cbn [Xa Xb Da Db displace]. split; ring. Qed.
Theorem C51_eb_density_restricted : forall (s : vec) (st : state) n p q, (1 + 1 : F) <> 0 -> (forall p q, Da st p q = Db st p q) ->
  let x := eb_dm_shift_r s (fun p q => Da (displace s st) p q + Db (displace s st) p q) in
  Xa (displace s st) n p q + fst x p q n = Xa st n p q /\ Xb (displace s st) n p q + snd x p q n = Xb st n p q.
Proof.
  intros s st n p q H2 He. unfold eb_dm_shift_r, eb_dm_shift, two. cbn [Xa Xb Da Db displace fst snd]. rewrite He. split; field; exact H2.
Qed.
End Thms.

(** ** Cases *)
Section Cases.
Definition q (n : Z) (d : positive) : QF := Q2Qc (n # d).
(** Two orbitals per spin, one electron each, two bosons *)
Definition ex_ga (n p r : nat) : QF := q (Z.of_nat (1 + n + p + 2 * r)) 1.
Definition ex_gb (n p r : nat) : QF := q (Z.of_nat (2 + n * p + r)) 1.
Definition ex_w (n : nat) : QF := q (Z.of_nat (1 + n)) 1.
Definition ex_st : state QF :=
  {| Da := fun p r => match p, r with O, O => q 3 4 | 1%nat, 1%nat => q 1 4 | _, _ => q 1 3 end; Db := fun p r => match p, r with O, O => q 1 2 | 1%nat, 1%nat => q 1 2 | _, _ => q 1 5 end;
     Bp := fun n => q 1 7; Bm := fun n => q 1 9; M := fun n => q 2 1; Xa := fun n p r => q 1 14; Xb := fun n p r => q 1 14; Ya := fun n p r => q 1 18; Yb := fun n p r => q 1 18 |}.
Example ex_fixed : fixed QF 2 2 2 (nK (1 + 1)) ex_st.
Proof.
  split; [apply Qc_is_canon; reflexivity|]. split; intros n Hn; apply Qc_is_canon; reflexivity.
Qed.
Example ex_shift : shift 1 1 ex_w ex_ga ex_gb 1 = q 2 1.
Proof. apply Qc_is_canon. vm_compute. reflexivity. Qed.
Example ex_displacement : fst (couplings_u 1 1 ex_w (shift 1 1 ex_w ex_ga ex_gb) ex_ga ex_gb) 1 0 0 = q 0 1
  /\ fst (couplings_u 1 1 ex_w (shift 1 1 ex_w ex_ga ex_gb) ex_ga ex_gb) 0 0 0 = q (-1) 2
  /\ snd (couplings_u 1 1 ex_w (shift 1 1 ex_w ex_ga ex_gb) ex_ga ex_gb) 0 0 0 = q 1 2.
Proof. repeat split; apply Qc_is_canon; vm_compute; reflexivity. Qed.
(** Exact comparison on two bosons and two orbitals *)
Definition ex_close (a b : nat -> nat -> nat -> QF) : bool :=
  forallb (fun n => forallb (fun p => forallb (fun r => Qeq_bool (this (a n p r)) (this (b n p r))) (seq 0 2)) (seq 0 2)) (seq 0 2).
Example ex_accepted : (forall a, ex_close a a = true) /\ ex_close ex_ga ex_gb = false
  /\ option_map (fun g => g 1%nat 0%nat 0%nat) (couplings_r 1 ex_close ex_w (shift 1 1 ex_w ex_ga ex_ga) ex_ga ex_ga) = Some (q 0 1).
Proof.
  split; [|split].
  - intros a. unfold ex_close. apply forallb_forall. intros n _. apply forallb_forall. intros p _. apply forallb_forall. intros r _. apply Qeq_bool_refl.
  - vm_compute. reflexivity.
  - destruct (C51_accepted QF 1 ex_close ex_w (shift 1 1 ex_w ex_ga ex_ga) ex_ga) as (g' & -> & H).
    + intros a. unfold ex_close. apply forallb_forall. intros n _. apply forallb_forall. intros p _. apply forallb_forall. intros r _. apply Qeq_bool_refl.
    + cbn [option_map]. rewrite H. apply (f_equal Some). apply Qc_is_canon. vm_compute. reflexivity.
Qed.
Example ex_nonzero : nK (K := QF) (1 + 1) <> 0%Qc.
Proof. intros E. apply (f_equal this) in E. vm_compute in E. discriminate. Qed.
End Cases.

Print Assumptions C51_unrestricted.
Print Assumptions C51_restricted.
Print Assumptions C51_accepted.
Print Assumptions C51_no_displacement.
Print Assumptions C51_energy_change.
Print Assumptions C51_eb_density.
Print Assumptions C51_eb_density_restricted.
