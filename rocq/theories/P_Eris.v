(** C19: contract_dm2_eris and contract_dm2intermeds_eris give the full contraction of density matrix and integrals.
    C20: get_full_array rebuilds every element of the full four-index array. *)
From Coq Require Import List Arith Bool Lia Ring ZArith.
From Verif Require Import Alg M_Wf M_Eris.
Import ListNotations.

Section P.
Context {K : cring}.
Add Ring Kr : (rth K).
Open Scope K_scope.
Notation mat := (nat -> nat -> K).
Notation ten := (nat -> nat -> nat -> nat -> K).

(** ** Specification *)
(** Integrals of real orbitals: exchange of the orbitals of either electron and of the electrons. *)
Definition sym8 (N : nat) (g : ten) : Prop :=
  (forall p q r s, (p < N -> q < N -> r < N -> s < N -> g p q r s = g q p r s)%nat) /\
  (forall p q r s, (p < N -> q < N -> r < N -> s < N -> g p q r s = g p q s r)%nat) /\
  (forall p q r s, (p < N -> q < N -> r < N -> s < N -> g p q r s = g r s p q)%nat).
(** Mixed-spin integrals: orbitals of either electron can be exchanged, the electrons not. *)
Definition sym4 (N M : nat) (g : ten) : Prop :=
  (forall p q r s, (p < N -> q < N -> r < M -> s < M -> g p q r s = g q p r s)%nat) /\
  (forall p q r s, (p < N -> q < N -> r < M -> s < M -> g p q r s = g p q s r)%nat).
(** Density matrices are only symmetric under exchanging the orbitals of both electrons at once (and the electrons). *)
Definition symd (N : nat) (d : ten) : Prop :=
  (forall p q r s, (p < N -> q < N -> r < N -> s < N -> d p q r s = d q p s r)%nat) /\
  (forall p q r s, (p < N -> q < N -> r < N -> s < N -> d p q r s = d r s p q)%nat).
Definition symab (N M : nat) (d : ten) : Prop :=
  forall p q r s, (p < N -> q < N -> r < M -> s < M -> d p q r s = d q p s r)%nat.

(** A packed array holds the element (c, d), d <= c, of a symmetric pair at position c (c + 1) / 2 + d. *)
Definition stores_ovvv (n nv : nat) (m mv : nat) (b : ovvv_block K) (g : ten) : Prop :=
  match b with
  | V4 x => forall i a c d, (i < n -> a < nv -> c < mv -> d < mv -> x i a c d = g i (n + a) (m + c) (m + d))%nat
  | V3 x => forall i a c d, (i < n -> a < nv -> c < mv -> d <= c -> x i a (c * (c + 1) / 2 + d) = g i (n + a) (m + c) (m + d))%nat
  end.
Definition stores_vvvv (n nv m mv : nat) (b : vvvv_block K) (g : ten) : Prop :=
  match b with
  | W4 x => forall a c d e, (a < nv -> c < nv -> d < mv -> e < mv -> x a c d e = g (n + a) (n + c) (m + d) (m + e))%nat
  | W2 x => forall a c d e, (a < nv -> c <= a -> d < mv -> e <= d ->
              x (a * (a + 1) / 2 + c) (d * (d + 1) / 2 + e) = g (n + a) (n + c) (m + d) (m + e))%nat
  | WL3 k l => forall a c d e, (a < nv)%nat -> (c < nv)%nat -> (d < mv)%nat -> (e < mv)%nat ->
              Sum k (fun q => l a c q * l d e q) = g (n + a)%nat (n + c)%nat (m + d)%nat (m + e)%nat
  | WL2 k l => forall a c d e, (a < nv)%nat -> (c <= a)%nat -> (d < mv)%nat -> (e <= d)%nat ->
              Sum k (fun q => l (a * (a + 1) / 2 + c)%nat q * l (d * (d + 1) / 2 + e)%nat q) = g (n + a)%nat (n + c)%nat (m + d)%nat (m + e)%nat
  end.
Definition stores (n nv : nat) (e : eris K) (g : ten) : Prop :=
  (forall i j k l, (i < n -> j < n -> k < n -> l < n -> e_oooo e i j k l = g i j k l)%nat) /\
  (forall i a j k, (i < n -> a < nv -> j < n -> k < n -> e_ovoo e i a j k = g i (n + a) j k)%nat) /\
  (forall i j a b, (i < n -> j < n -> a < nv -> b < nv -> e_oovv e i j a b = g i j (n + a) (n + b))%nat) /\
  (forall i a j b, (i < n -> a < nv -> j < n -> b < nv -> e_ovov e i a j b = g i (n + a) j (n + b))%nat) /\
  (forall i a b j, (i < n -> a < nv -> b < nv -> j < n -> e_ovvo e i a b j = g i (n + a) (n + b) j)%nat) /\
  stores_ovvv n nv n nv (e_ovvv e) g /\ stores_vvvv n nv n nv (e_vvvv e) g.
(** Mixed-spin blocks; in OVoo, OOvv and OVvv the beta electron comes first. *)
Definition ustores (n nv m mv : nat) (e : ueris K) (gaa gab gbb : ten) : Prop :=
  stores n nv (u_aa e) gaa /\ stores m mv (u_bb e) gbb /\
  (forall i j k l, (i < n -> j < n -> k < m -> l < m -> u_ooOO e i j k l = gab i j k l)%nat) /\
  (forall i a k l, (i < n -> a < nv -> k < m -> l < m -> u_ovOO e i a k l = gab i (n + a) k l)%nat) /\
  (forall k b i j, (k < m -> b < mv -> i < n -> j < n -> u_OVoo e k b i j = gab i j k (m + b))%nat) /\
  (forall i j a b, (i < n -> j < n -> a < mv -> b < mv -> u_ooVV e i j a b = gab i j (m + a) (m + b))%nat) /\
  (forall k l a b, (k < m -> l < m -> a < nv -> b < nv -> u_OOvv e k l a b = gab (n + a) (n + b) k l)%nat) /\
  (forall i a b k, (i < n -> a < nv -> b < mv -> k < m -> u_ovVO e i a b k = gab i (n + a) (m + b) k)%nat) /\
  (forall i a k b, (i < n -> a < nv -> k < m -> b < mv -> u_ovOV e i a k b = gab i (n + a) k (m + b))%nat) /\
  stores_ovvv n nv m mv (u_ovVV e) gab /\
  stores_ovvv m mv n nv (u_OVvv e) (fun p q r s => gab r s p q) /\
  stores_vvvv n nv m mv (u_vvVV e) gab.

(** sum_pqrs d[pqrs] g[pqrs] *)
Definition full_contraction (N M : nat) (d g : ten) : K :=
  Sum N (fun p => Sum N (fun q => Sum M (fun r => Sum M (fun s => d p q r s * g p q r s)))).

(** ** Slices *)
Definition sz (n nv : nat) (f : bool) : nat := if f then nv else n.

Lemma inpart_shift n nv f g a : (a < sz n nv g)%nat -> inpart n f (shift n g a) = eqb f g.
Proof.
  destruct f, g; simpl; intros H.
  - apply Nat.leb_le. lia.
  - apply Nat.leb_gt. lia.
  - apply Nat.ltb_ge. lia.
  - apply Nat.ltb_lt. lia.
Qed.

Lemma off_shift n f a : off n f (shift n f a) = a.
Proof. destruct f; simpl; lia. Qed.

Lemma put_shift n nv m mv f1 f2 f3 f4 (x out : ten) g1 g2 g3 g4 a b c d :
  (a < sz n nv g1)%nat -> (b < sz n nv g2)%nat -> (c < sz m mv g3)%nat -> (d < sz m mv g4)%nat ->
  put n m f1 f2 f3 f4 x out (shift n g1 a) (shift n g2 b) (shift m g3 c) (shift m g4 d) =
  (if eqb f1 g1 && eqb f2 g2 && eqb f3 g3 && eqb f4 g4 then x a b c d
   else out (shift n g1 a) (shift n g2 b) (shift m g3 c) (shift m g4 d)).
Proof.
  intros Ha Hb Hc Hd. unfold put.
  rewrite (inpart_shift n nv f1 g1 a), (inpart_shift n nv f2 g2 b), (inpart_shift m mv f3 g3 c), (inpart_shift m mv f4 g4 d) by auto.
  destruct (eqb f1 g1) eqn:E1; [apply eqb_prop in E1; subst|reflexivity].
  destruct (eqb f2 g2) eqn:E2; [apply eqb_prop in E2; subst|reflexivity].
  destruct (eqb f3 g3) eqn:E3; [apply eqb_prop in E3; subst|reflexivity].
  destruct (eqb f4 g4) eqn:E4; [apply eqb_prop in E4; subst|reflexivity].
  cbn [andb]. rewrite !off_shift. reflexivity.
Qed.

Lemma shift_cases n nv p : (p < n + nv)%nat -> exists f a, p = shift n f a /\ (a < sz n nv f)%nat.
Proof.
  intros H. destruct (lt_dec p n) as [Hp|Hp].
  - exists false, p. auto.
  - exists true, (p - n)%nat. simpl. lia.
Qed.

Lemma shift_lt n nv f a : (a < sz n nv f)%nat -> (shift n f a < n + nv)%nat.
Proof. destruct f; simpl; lia. Qed.

(** ** Unpacking *)
Lemma get_ovvv_spec n nv m mv b (g : ten) :
  (forall i a c d, (i < n -> a < nv -> c < mv -> d < mv -> g i (n + a) (m + c) (m + d) = g i (n + a) (m + d) (m + c))%nat) ->
  stores_ovvv n nv m mv b g ->
  forall i a c d, (i < n)%nat -> (a < nv)%nat -> (c < mv)%nat -> (d < mv)%nat ->
  get_ovvv b i a c d = g i (n + a)%nat (m + c)%nat (m + d)%nat.
Proof.
  intros Hs Hb i a c d Hi Ha Hc Hd. destruct b as [x|x]; cbn [get_ovvv stores_ovvv] in *; [auto|]. unfold tri.
  destruct (d <=? c)%nat eqn:E; [apply Nat.leb_le in E; auto|]. apply Nat.leb_gt in E.
  rewrite Hb by lia. auto.
Qed.

Lemma get_vvvv_spec n nv m mv b (g : ten) :
  (forall a c d e, (a < nv -> c < nv -> d < mv -> e < mv -> g (n + a) (n + c) (m + d) (m + e) = g (n + c) (n + a) (m + d) (m + e))%nat) ->
  (forall a c d e, (a < nv -> c < nv -> d < mv -> e < mv -> g (n + a) (n + c) (m + d) (m + e) = g (n + a) (n + c) (m + e) (m + d))%nat) ->
  stores_vvvv n nv m mv b g ->
  forall a c d e, (a < nv)%nat -> (c < nv)%nat -> (d < mv)%nat -> (e < mv)%nat ->
  get_vvvv b a c d e = g (n + a)%nat (n + c)%nat (m + d)%nat (m + e)%nat.
Proof.
  intros H1 H2 Hb a c d e Ha Hc Hd He. destruct b as [x|x|k l|k l]; cbn [get_vvvv stores_vvvv] in *; [auto| |apply Hb; auto|];
  unfold tri; destruct (c <=? a)%nat eqn:E; (apply Nat.leb_le in E || apply Nat.leb_gt in E);
  destruct (e <=? d)%nat eqn:E'; (apply Nat.leb_le in E' || apply Nat.leb_gt in E'); rewrite Hb by lia; auto.
  - rewrite H1 by auto. auto.
  - rewrite H1 by auto. auto.
Qed.

Lemma get_vvVV_spec b w : get_vvVV (K := K) b = Some w -> w = get_vvvv b.
Proof. destruct b; simpl; intros E; try discriminate; apply (f_equal (fun z => match z with Some y => y | None => w end)) in E; auto. Qed.

(** ** C20 *)
Section Full.
Variables (n nv m mv : nat).
Notation PS := (put_shift n nv m mv).

Lemma put_at f1 f2 f3 f4 (x out : ten) g1 g2 g3 g4 a b c d :
  (a < sz n nv g1)%nat -> (b < sz n nv g2)%nat -> (c < sz m mv g3)%nat -> (d < sz m mv g4)%nat ->
  slice n m g1 g2 g3 g4 (put n m f1 f2 f3 f4 x out) a b c d =
  (if eqb f1 g1 && eqb f2 g2 && eqb f3 g3 && eqb f4 g4 then x a b c d else slice n m g1 g2 g3 g4 out a b c d).
Proof. intros. unfold slice. apply (PS); auto. Qed.
End Full.

Ltac sl nv mv := repeat first
  [ rewrite (put_at _ nv _ mv) by assumption; cbn [eqb andb]
  | progress unfold tconj, tswap, trev, texch, tadd, topp, tdbl ].

Theorem C20_restricted : forall n nv e g out,
  sym8 (n + nv) g -> stores n nv e g ->
  forall p q r s, (p < n + nv)%nat -> (q < n + nv)%nat -> (r < n + nv)%nat -> (s < n + nv)%nat ->
  get_full_array_rhf n e out p q r s = g p q r s.
Proof.
  intros n nv e g out (S1 & S2 & S3) (Ho & Hovoo & Hoovv & Hovov & Hovvo & Hovvv & Hvvvv) p q r s Hp Hq Hr Hs.
  assert (L := get_ovvv_spec n nv n nv (e_ovvv e) g ltac:(intros; apply S2; lia) Hovvv).
  assert (W := get_vvvv_spec n nv n nv (e_vvvv e) g ltac:(intros; apply S1; lia) ltac:(intros; apply S2; lia) Hvvvv).
  clear Hovvv Hvvvv.
  assert (C : forall p q r s, (p < n + nv -> q < n + nv -> r < n + nv -> s < n + nv -> g p q r s = g q p s r)%nat)
    by (intros; rewrite S1, S2 by auto; auto).
  destruct (shift_cases n nv p Hp) as (f1 & a & -> & Ha). destruct (shift_cases n nv q Hq) as (f2 & b & -> & Hb).
  destruct (shift_cases n nv r Hr) as (f3 & c & -> & Hc). destruct (shift_cases n nv s Hs) as (f4 & d & -> & Hd).
  change (slice n n f1 f2 f3 f4 (get_full_array_rhf n e out) a b c d = g (shift n f1 a) (shift n f2 b) (shift n f3 c) (shift n f4 d)).
  unfold get_full_array_rhf.
  destruct f1, f2, f3, f4; cbn [shift] in *; sl nv nv; cbn [sz] in *;
    first [ rewrite ?Ho, ?Hovoo, ?Hoovv, ?Hovov, ?Hovvo, ?L, ?W by assumption; reflexivity
          | rewrite ?Ho, ?Hovoo, ?Hoovv, ?Hovov, ?Hovvo, ?L, ?W by assumption; symmetry; first [apply C; lia | apply S3; lia]
          | rewrite ?Ho, ?Hovoo, ?Hoovv, ?Hovov, ?Hovvo, ?L, ?W by assumption; rewrite S3 by lia; apply C; lia ].
Qed.

Theorem C20_unrestricted : forall n nv m mv e w gaa gab gbb outa outab outb,
  sym8 (n + nv) gaa -> sym4 (n + nv) (m + mv) gab -> sym8 (m + mv) gbb -> ustores n nv m mv e gaa gab gbb ->
  get_vvVV (u_vvVV e) = Some w ->
  exists aa ab bb, get_full_array_u n m e None outa outab outb = UFull aa ab bb /\
  (forall p q r s, (p < n + nv)%nat -> (q < n + nv)%nat -> (r < n + nv)%nat -> (s < n + nv)%nat -> aa p q r s = gaa p q r s) /\
  (forall p q r s, (p < n + nv)%nat -> (q < n + nv)%nat -> (r < m + mv)%nat -> (s < m + mv)%nat -> ab p q r s = gab p q r s) /\
  (forall p q r s, (p < m + mv)%nat -> (q < m + mv)%nat -> (r < m + mv)%nat -> (s < m + mv)%nat -> bb p q r s = gbb p q r s).
Proof.
  intros n nv m mv e w gaa gab gbb outa outab outb Saa (S1 & S2) Sbb
    (Haa & Hbb & HooOO & HovOO & HOVoo & HooVV & HOOvv & HovVO & HovOV & HovVV & HOVvv & HvvVV) Ew.
  unfold get_full_array_u. rewrite Ew. do 3 eexists. split; [reflexivity|]. split; [|split].
  - apply C20_restricted; auto.
  - assert (L := get_ovvv_spec n nv m mv (u_ovVV e) gab ltac:(intros; apply S2; lia) HovVV).
    assert (L' := get_ovvv_spec m mv n nv (u_OVvv e) (fun p q r s => gab r s p q) ltac:(intros; apply S1; lia) HOVvv).
    assert (W := get_vvvv_spec n nv m mv (u_vvVV e) gab ltac:(intros; apply S1; lia) ltac:(intros; apply S2; lia) HvvVV).
    rewrite <- (get_vvVV_spec _ _ Ew) in W. clear HovVV HOVvv HvvVV.
    assert (C : forall p q r s, (p < n + nv -> q < n + nv -> r < m + mv -> s < m + mv -> gab p q r s = gab q p s r)%nat)
      by (intros; rewrite S1, S2 by auto; auto).
    intros p q r s Hp Hq Hr Hs.
    destruct (shift_cases n nv p Hp) as (f1 & a & -> & Ha). destruct (shift_cases n nv q Hq) as (f2 & b & -> & Hb).
    destruct (shift_cases m mv r Hr) as (f3 & c & -> & Hc). destruct (shift_cases m mv s Hs) as (f4 & d & -> & Hd).
    change (slice n m f1 f2 f3 f4 (get_full_array_ab n m e w outab) a b c d = gab (shift n f1 a) (shift n f2 b) (shift m f3 c) (shift m f4 d)).
    unfold get_full_array_ab.
    destruct f1, f2, f3, f4; cbn [shift] in *; sl nv mv; cbn [sz] in *;
      rewrite ?HooOO, ?HovOO, ?HOVoo, ?HooVV, ?HOOvv, ?HovVO, ?HovOV, ?L, ?L', ?W by assumption;
      first [ reflexivity | symmetry; apply C; lia ].
  - apply C20_restricted; auto.
Qed.

(** The array handed in is overwritten completely; nothing of it survives, and no symmetry is needed for that. *)
Theorem C20_overwrites : forall n nv (e : eris K) out out' p q r s,
  (p < n + nv)%nat -> (q < n + nv)%nat -> (r < n + nv)%nat -> (s < n + nv)%nat ->
  get_full_array_rhf n e out p q r s = get_full_array_rhf n e out' p q r s.
Proof.
  intros n nv e out out' p q r s Hp Hq Hr Hs.
  destruct (shift_cases n nv p Hp) as (f1 & a & -> & Ha). destruct (shift_cases n nv q Hq) as (f2 & b & -> & Hb).
  destruct (shift_cases n nv r Hr) as (f3 & c & -> & Hc). destruct (shift_cases n nv s Hs) as (f4 & d & -> & Hd).
  change (slice n n f1 f2 f3 f4 (get_full_array_rhf n e out) a b c d = slice n n f1 f2 f3 f4 (get_full_array_rhf n e out') a b c d).
  unfold get_full_array_rhf. destruct f1, f2, f3, f4; sl nv nv; reflexivity.
Qed.

(** With the right orbital coefficients given, the restricted function still works; the unrestricted one fails on every input. *)
Theorem C20_coefficients_refuted : forall n m e outa outab outb,
  get_full_array_u (K := K) n m e (Some true) outa outab outb = FAttributeError.
Proof. reflexivity. Qed.
Theorem C20_coefficients : forall n e out,
  get_full_array_r (K := K) n e (Some true) out = Full (get_full_array_rhf n e out) /\
  get_full_array_r (K := K) n e None out = Full (get_full_array_rhf n e out) /\
  get_full_array_r (K := K) n e (Some false) out = FNotImplemented.
Proof. intros. auto. Qed.

(** ** C19 *)
Lemma c4_ext n1 n2 n3 n4 (a b a' b' : ten) :
  (forall p q r s, (p < n1)%nat -> (q < n2)%nat -> (r < n3)%nat -> (s < n4)%nat -> a p q r s * b p q r s = a' p q r s * b' p q r s) ->
  contract4 n1 n2 n3 n4 a b = contract4 n1 n2 n3 n4 a' b'.
Proof.
  intros H. unfold contract4. apply Sum_ext; intros. apply Sum_ext; intros. apply Sum_ext; intros. apply Sum_ext; intros. auto.
Qed.

Lemma c4_conj n1 n2 n3 n4 (a b : ten) : contract4 n1 n2 n3 n4 a b = contract4 n2 n1 n4 n3 (tconj a) (tconj b).
Proof.
  unfold contract4, tconj. rewrite Sum_swap. apply Sum_ext; intros p _. apply Sum_ext; intros q _. apply Sum_swap.
Qed.

Lemma c4_swap n1 n2 n3 n4 (a b : ten) : contract4 n1 n2 n3 n4 a b = contract4 n3 n4 n1 n2 (tswap a) (tswap b).
Proof.
  unfold contract4, tswap.
  transitivity (Sum n1 (fun p => Sum n3 (fun r => Sum n2 (fun q => Sum n4 (fun s => a p q r s * b p q r s))))).
  { apply Sum_ext; intros p _. apply Sum_swap. }
  rewrite Sum_swap. apply Sum_ext; intros r _.
  transitivity (Sum n1 (fun p => Sum n4 (fun s => Sum n2 (fun q => a p q r s * b p q r s)))).
  { apply Sum_ext; intros p _. apply Sum_swap. }
  apply Sum_swap.
Qed.

Lemma Sum_sz n nv (f : nat -> K) : Sum (n + nv) f = Sum n (fun i => f (shift n false i)) + Sum nv (fun i => f (shift n true i)).
Proof. apply Sum_split. Qed.

Lemma c4_split n nv m mv (a b : ten) :
  let C f1 f2 f3 f4 := contract4 (sz n nv f1) (sz n nv f2) (sz m mv f3) (sz m mv f4) (slice n m f1 f2 f3 f4 a) (slice n m f1 f2 f3 f4 b) in
  full_contraction (n + nv) (m + mv) a b =
    C false false false false + C false false false true + C false false true false + C false false true true +
    C false true false false + C false true false true + C false true true false + C false true true true +
    C true false false false + C true false false true + C true false true false + C true false true true +
    C true true false false + C true true false true + C true true true false + C true true true true.
Proof.
  cbv beta zeta. unfold full_contraction, contract4, slice.
  rewrite Sum_sz.
  assert (R : forall (h : nat -> nat -> nat -> nat -> K) f1,
    Sum (sz n nv f1) (fun p => Sum (n + nv) (fun q => Sum (m + mv) (fun r => Sum (m + mv) (fun s => h (shift n f1 p) q r s)))) =
    let D f2 f3 f4 := Sum (sz n nv f1) (fun p => Sum (sz n nv f2) (fun q => Sum (sz m mv f3) (fun r => Sum (sz m mv f4) (fun s =>
       h (shift n f1 p) (shift n f2 q) (shift m f3 r) (shift m f4 s))))) in
    D false false false + D false false true + D false true false + D false true true +
    D true false false + D true false true + D true true false + D true true true).
  { intros h f1. cbv beta zeta. rewrite <- !Sum_add. apply Sum_ext; intros p _. rewrite Sum_sz.
    assert (R2 : forall f2,
      Sum (sz n nv f2) (fun q => Sum (m + mv) (fun r => Sum (m + mv) (fun s => h (shift n f1 p) (shift n f2 q) r s))) =
      let D f3 f4 := Sum (sz n nv f2) (fun q => Sum (sz m mv f3) (fun r => Sum (sz m mv f4) (fun s =>
       h (shift n f1 p) (shift n f2 q) (shift m f3 r) (shift m f4 s)))) in
      D false false + D false true + D true false + D true true).
    { intros f2. cbv beta zeta. rewrite <- !Sum_add. apply Sum_ext; intros q _. rewrite Sum_sz. cbn [sz].
      rewrite (Sum_ext m _ (fun r => Sum m (fun s => h (shift n f1 p) (shift n f2 q) (shift m false r) (shift m false s))
        + Sum mv (fun s => h (shift n f1 p) (shift n f2 q) (shift m false r) (shift m true s)))) by (intros; apply Sum_sz).
      rewrite (Sum_ext mv _ (fun r => Sum m (fun s => h (shift n f1 p) (shift n f2 q) (shift m true r) (shift m false s))
        + Sum mv (fun s => h (shift n f1 p) (shift n f2 q) (shift m true r) (shift m true s)))) by (intros; apply Sum_sz).
      rewrite !Sum_add. ring. }
    rewrite (R2 false : Sum n _ = _), (R2 true : Sum nv _ = _). cbv beta zeta. ring. }
  rewrite (R (fun p q r s => a p q r s * b p q r s) false : Sum n _ = _), (R (fun p q r s => a p q r s * b p q r s) true : Sum nv _ = _).
  cbv beta zeta. ring.
Qed.

Definition conj_sym (N M : nat) (x : ten) : Prop :=
  forall p q r s, (p < N)%nat -> (q < N)%nat -> (r < M)%nat -> (s < M)%nat -> x p q r s = x q p s r.
Definition Cb (n nv m mv : nat) (f1 f2 f3 f4 : bool) (a b : ten) : K :=
  contract4 (sz n nv f1) (sz n nv f2) (sz m mv f3) (sz m mv f4) (slice n m f1 f2 f3 f4 a) (slice n m f1 f2 f3 f4 b).

Lemma Cb_conj n nv m mv f1 f2 f3 f4 (a b : ten) :
  conj_sym (n + nv) (m + mv) a -> conj_sym (n + nv) (m + mv) b ->
  Cb n nv m mv f2 f1 f4 f3 a b = Cb n nv m mv f1 f2 f3 f4 a b.
Proof.
  intros Ha Hb. unfold Cb. rewrite c4_conj. apply c4_ext. intros p q r s Hp Hq Hr Hs. unfold tconj, slice.
  rewrite Ha, Hb by (apply shift_lt; auto). reflexivity.
Qed.

Lemma Cb_swap n nv f1 f2 f3 f4 (a b : ten) :
  (forall p q r s, (p < n + nv)%nat -> (q < n + nv)%nat -> (r < n + nv)%nat -> (s < n + nv)%nat -> a p q r s = a r s p q) ->
  (forall p q r s, (p < n + nv)%nat -> (q < n + nv)%nat -> (r < n + nv)%nat -> (s < n + nv)%nat -> b p q r s = b r s p q) ->
  Cb n nv n nv f3 f4 f1 f2 a b = Cb n nv n nv f1 f2 f3 f4 a b.
Proof.
  intros Ha Hb. unfold Cb. rewrite c4_swap. apply c4_ext. intros p q r s Hp Hq Hr Hs. unfold tswap, slice.
  rewrite Ha, Hb by (apply shift_lt; auto). reflexivity.
Qed.

Lemma c4_splitC n nv m mv (a b : ten) :
  full_contraction (n + nv) (m + mv) a b =
    let C f1 f2 f3 f4 := Cb n nv m mv f1 f2 f3 f4 a b in
    C false false false false + C false false false true + C false false true false + C false false true true +
    C false true false false + C false true false true + C false true true false + C false true true true +
    C true false false false + C true false false true + C true false true false + C true false true true +
    C true true false false + C true true false true + C true true true false + C true true true true.
Proof. apply c4_split. Qed.

Lemma sym8_conj N g : sym8 N g -> conj_sym N N g.
Proof. intros (S1 & S2 & _) p q r s Hp Hq Hr Hs. rewrite S1, S2 by auto. reflexivity. Qed.
Lemma sym4_conj N M g : sym4 N M g -> conj_sym N M g.
Proof. intros (S1 & S2) p q r s Hp Hq Hr Hs. rewrite S1, S2 by auto. reflexivity. Qed.

(** The blocks of the object are the slices of the integrals. *)
Definition block_at (e : eris K) (f1 f2 f3 f4 : bool) (x : ten) : Prop :=
  match f1, f2, f3, f4 with
   | false, false, false, false => x = e_oooo e
   | false, true, false, false => x = e_ovoo e
   | false, false, true, true => x = e_oovv e
   | false, true, false, true => x = e_ovov e
   | false, true, true, false => x = e_ovvo e
   | false, true, true, true => x = get_ovvv (e_ovvv e)
   | true, true, true, true => x = get_vvvv (e_vvvv e)
   | _, _, _, _ => False end.
Lemma stores_slices n nv e g : sym8 (n + nv) g -> stores n nv e g ->
  forall f1 f2 f3 f4 (x : ten), block_at e f1 f2 f3 f4 x ->
  forall p q r s, (p < sz n nv f1)%nat -> (q < sz n nv f2)%nat -> (r < sz n nv f3)%nat -> (s < sz n nv f4)%nat ->
  x p q r s = slice n n f1 f2 f3 f4 g p q r s.
Proof.
  intros (S1 & S2 & S3) (Ho & Hovoo & Hoovv & Hovov & Hovvo & Hovvv & Hvvvv).
  assert (L := get_ovvv_spec n nv n nv (e_ovvv e) g ltac:(intros; apply S2; lia) Hovvv).
  assert (W := get_vvvv_spec n nv n nv (e_vvvv e) g ltac:(intros; apply S1; lia) ltac:(intros; apply S2; lia) Hvvvv).
  intros f1 f2 f3 f4 x Hx p q r s Hp Hq Hr Hs. unfold slice, block_at in *.
  destruct f1, f2, f3, f4; try contradiction; cbn [sz shift] in *; rewrite Hx;
    rewrite ?Ho, ?Hovoo, ?Hoovv, ?Hovov, ?Hovvo, ?L, ?W by assumption; reflexivity.
Qed.

Theorem C19_restricted : forall n nv dm2 e g,
  symd (n + nv) dm2 -> sym8 (n + nv) g -> stores n nv e g ->
  contract_dm2_eris_rhf n nv dm2 e = full_contraction (n + nv) (n + nv) dm2 g.
Proof.
  intros n nv dm2 e g (D1 & D2) Hg He.
  assert (Hs := stores_slices n nv e g Hg He).
  assert (B : forall f1 f2 f3 f4 x, block_at e f1 f2 f3 f4 x -> contract4 (sz n nv f1) (sz n nv f2) (sz n nv f3) (sz n nv f4) (slice n n f1 f2 f3 f4 dm2) x
    = Cb n nv n nv f1 f2 f3 f4 dm2 g).
  { intros f1 f2 f3 f4 x Hx. apply c4_ext. intros p q r s Hp Hq Hr Hss. rewrite (Hs f1 f2 f3 f4 x Hx) by auto. reflexivity. }
  clear Hs He.
  rewrite c4_splitC. cbv beta zeta.
  assert (Cc : forall f1 f2 f3 f4, Cb n nv n nv f2 f1 f4 f3 dm2 g = Cb n nv n nv f1 f2 f3 f4 dm2 g)
    by (intros; apply Cb_conj; [exact D1|apply sym8_conj; auto]).
  assert (Cs : forall f1 f2 f3 f4, Cb n nv n nv f3 f4 f1 f2 dm2 g = Cb n nv n nv f1 f2 f3 f4 dm2 g)
    by (intros; apply Cb_swap; [exact D2|apply Hg]).
  rewrite (Cs false true false false), (Cc false true false false : Cb n nv n nv true false false false dm2 g = _),
    (Cc false false false true : Cb n nv n nv false false true false dm2 g = _), (Cs false true false false),
    (Cs false false true true), (Cc false true false true), (Cc false true true false),
    (Cc false true true true), (Cc true true false true : Cb n nv n nv true true true false dm2 g = _), (Cs false true true true).
  unfold contract_dm2_eris_rhf. cbv beta zeta.
  rewrite (B false false false false _ eq_refl : contract4 n n n n _ _ = _),
    (B false true false false _ eq_refl : contract4 n nv n n _ _ = _),
    (B false false true true _ eq_refl : contract4 n n nv nv _ _ = _),
    (B false true false true _ eq_refl : contract4 n nv n nv _ _ = _),
    (B false true true false _ eq_refl : contract4 n nv nv n _ _ = _),
    (B false true true true _ eq_refl : contract4 n nv nv nv _ _ = _),
    (B true true true true _ eq_refl : contract4 nv nv nv nv _ _ = _).
  unfold times. cbn [nK]. ring.
Qed.

Theorem C19_unrestricted : forall n nv m mv aa ab bb e w gaa gab gbb,
  symd (n + nv) aa -> symab (n + nv) (m + mv) ab -> symd (m + mv) bb ->
  sym8 (n + nv) gaa -> sym4 (n + nv) (m + mv) gab -> sym8 (m + mv) gbb -> ustores n nv m mv e gaa gab gbb ->
  get_vvVV (u_vvVV e) = Some w ->
  contract_dm2_eris_uhf n nv m mv aa ab bb e w =
    full_contraction (n + nv) (n + nv) aa gaa
    + full_contraction (n + nv) (m + mv) ab gab
    + full_contraction (m + mv) (n + nv) (fun p q r s => ab r s p q) (fun p q r s => gab r s p q)
    + full_contraction (m + mv) (m + mv) bb gbb.
Proof.
  intros n nv m mv aa ab bb e w gaa gab gbb Daa Dab Dbb Saa Sab Sbb
    (Haa & Hbb & HooOO & HovOO & HOVoo & HooVV & HOOvv & HovVO & HovOV & HovVV & HOVvv & HvvVV) Ew.
  assert (T : full_contraction (m + mv) (n + nv) (fun p q r s => ab r s p q) (fun p q r s => gab r s p q)
    = full_contraction (n + nv) (m + mv) ab gab) by (symmetry; apply (c4_swap (n + nv) (n + nv) (m + mv) (m + mv) ab gab)).
  rewrite T. unfold contract_dm2_eris_uhf.
  rewrite (C19_restricted n nv aa (u_aa e) gaa Daa Saa Haa), (C19_restricted m mv bb (u_bb e) gbb Dbb Sbb Hbb).
  destruct Sab as (S1 & S2).
  assert (L := get_ovvv_spec n nv m mv (u_ovVV e) gab ltac:(intros; apply S2; lia) HovVV).
  assert (L' := get_ovvv_spec m mv n nv (u_OVvv e) (fun p q r s => gab r s p q) ltac:(intros; apply S1; lia) HOVvv).
  assert (W := get_vvvv_spec n nv m mv (u_vvVV e) gab ltac:(intros; apply S1; lia) ltac:(intros; apply S2; lia) HvvVV).
  rewrite <- (get_vvVV_spec _ _ Ew) in W.
  rewrite (c4_splitC n nv m mv ab gab). cbv beta zeta.
  assert (Cc : forall f1 f2 f3 f4, Cb n nv m mv f2 f1 f4 f3 ab gab = Cb n nv m mv f1 f2 f3 f4 ab gab)
    by (intros; apply Cb_conj; [exact Dab|apply sym4_conj; split; auto]).
  rewrite (Cc false true false false), (Cc false false false true), (Cc false true true false), (Cc false true false true),
    (Cc false true true true), (Cc true true false true).
  assert (B : forall f1 f2 f3 f4 x,
    (forall p q r s, (p < sz n nv f1)%nat -> (q < sz n nv f2)%nat -> (r < sz m mv f3)%nat -> (s < sz m mv f4)%nat ->
      x p q r s = gab (shift n f1 p) (shift n f2 q) (shift m f3 r) (shift m f4 s)) ->
    contract4 (sz n nv f1) (sz n nv f2) (sz m mv f3) (sz m mv f4) (slice n m f1 f2 f3 f4 ab) x = Cb n nv m mv f1 f2 f3 f4 ab gab).
  { intros f1 f2 f3 f4 x Hx. apply c4_ext. intros p q r s Hp Hq Hr Hss. rewrite Hx by auto. reflexivity. }
  cbv beta zeta.
  rewrite (B false false false false _ HooOO : contract4 n n m m _ _ = _),
    (B false true false false _ HovOO : contract4 n nv m m _ _ = _),
    (B false false false true _ (fun p q r s Hp Hq Hr Hs => HOVoo r s p q Hr Hs Hp Hq) : contract4 n n m mv _ (tswap (u_OVoo e)) = _),
    (B false false true true _ HooVV : contract4 n n mv mv _ _ = _),
    (B true true false false _ (fun p q r s Hp Hq Hr Hs => HOOvv r s p q Hr Hs Hp Hq) : contract4 nv nv m m _ (tswap (u_OOvv e)) = _),
    (B false true true false _ HovVO : contract4 n nv mv m _ _ = _),
    (B false true false true _ HovOV : contract4 n nv m mv _ _ = _),
    (B false true true true _ L : contract4 n nv mv mv _ _ = _),
    (B true true false true _ (fun p q r s Hp Hq Hr Hs => L' r s p q Hr Hs Hp Hq) : contract4 nv nv m mv _ (tswap (get_ovvv (u_OVvv e))) = _),
    (B true true true true _ W : contract4 nv nv mv mv _ _ = _).
  unfold times. cbn [nK]. ring.
Qed.

(** *** Intermediates *)
Definition Gb (n nv m mv : nat) (f1 f2 f3 f4 : bool) (a g : ten) : K :=
  contract4 (sz n nv f1) (sz n nv f2) (sz m mv f3) (sz m mv f4) a (slice n m f1 f2 f3 f4 g).

Lemma Gb_ext n nv m mv f1 f2 f3 f4 (a a' g : ten) :
  (forall p q r s, (p < sz n nv f1)%nat -> (q < sz n nv f2)%nat -> (r < sz m mv f3)%nat -> (s < sz m mv f4)%nat -> a p q r s = a' p q r s) ->
  Gb n nv m mv f1 f2 f3 f4 a g = Gb n nv m mv f1 f2 f3 f4 a' g.
Proof. intros H. apply c4_ext. intros p q r s Hp Hq Hr Hs. rewrite H by auto. reflexivity. Qed.

Lemma Gb_add n nv m mv f1 f2 f3 f4 (a b g : ten) :
  Gb n nv m mv f1 f2 f3 f4 (tadd a b) g = Gb n nv m mv f1 f2 f3 f4 a g + Gb n nv m mv f1 f2 f3 f4 b g.
Proof.
  unfold Gb, contract4, tadd. rewrite <- Sum_add. apply Sum_ext; intros p _. rewrite <- Sum_add. apply Sum_ext; intros q _.
  rewrite <- Sum_add. apply Sum_ext; intros r _. rewrite <- Sum_add. apply Sum_ext; intros s _. ring.
Qed.

Lemma Gb_conj n nv m mv f1 f2 f3 f4 (a g : ten) : conj_sym (n + nv) (m + mv) g ->
  Gb n nv m mv f2 f1 f4 f3 (tconj a) g = Gb n nv m mv f1 f2 f3 f4 a g.
Proof.
  intros H. unfold Gb. rewrite c4_conj. apply c4_ext. intros p q r s Hp Hq Hr Hs. unfold tconj, slice.
  rewrite H by (apply shift_lt; auto). reflexivity.
Qed.

Lemma Gb_swap n nv f1 f2 f3 f4 (a g : ten) : sym8 (n + nv) g ->
  Gb n nv n nv f3 f4 f1 f2 (tswap a) g = Gb n nv n nv f1 f2 f3 f4 a g.
Proof.
  intros (_ & _ & H). unfold Gb. rewrite c4_swap. apply c4_ext. intros p q r s Hp Hq Hr Hs. unfold tswap, slice.
  rewrite H by (apply shift_lt; auto). reflexivity.
Qed.

Lemma Gb_rev n nv f1 f2 f3 f4 (a g : ten) : sym8 (n + nv) g ->
  Gb n nv n nv f4 f3 f2 f1 (trev a) g = Gb n nv n nv f1 f2 f3 f4 a g.
Proof.
  intros H. rewrite (Gb_ext n nv n nv f4 f3 f2 f1 (trev a) (tconj (tswap a)) g) by reflexivity.
  rewrite Gb_conj by (apply sym8_conj; auto). apply Gb_swap. auto.
Qed.

Lemma full_conj N M (a g : ten) : conj_sym N M g -> full_contraction N M (tconj a) g = full_contraction N M a g.
Proof.
  intros H. change (contract4 N N M M (tconj a) g = contract4 N N M M a g). rewrite c4_conj. apply c4_ext.
  intros p q r s Hp Hq Hr Hs. unfold tconj. rewrite H by auto. reflexivity.
Qed.

Ltac blk n nv m mv f1 f2 f3 f4 y := rewrite (Gb_ext n nv m mv f1 f2 f3 f4 (slice n m f1 f2 f3 f4 _) y)
  by (intros; cbn [sz] in *; sl nv mv; reflexivity).

(** Contracting the intermediates directly is the same as assembling the cumulant part of the density matrix first. *)
Theorem C19_intermediates_restricted : forall n nv d e g out,
  sym8 (n + nv) g -> stores n nv e g ->
  contract_dm2i_rhf n nv d e = full_contraction (n + nv) (n + nv) (make_rdm2_rhf n d out) g.
Proof.
  intros n nv d e g out Hg He.
  assert (Hs := stores_slices n nv e g Hg He).
  assert (Hc := sym8_conj _ _ Hg).
  assert (B : forall f1 f2 f3 f4 x a, block_at e f1 f2 f3 f4 x ->
     contract4 (sz n nv f1) (sz n nv f2) (sz n nv f3) (sz n nv f4) a x = Gb n nv n nv f1 f2 f3 f4 a g).
  { intros f1 f2 f3 f4 x a Hx. apply c4_ext. intros p q r s Hp Hq Hr Hss. rewrite (Hs f1 f2 f3 f4 x Hx) by auto. reflexivity. }
  unfold contract_dm2i_rhf.
  assert (E1 : contract4 n n n nv (d_ooov d) (tswap (e_ovoo e)) = Gb n nv n nv false false false true (d_ooov d) g).
  { rewrite c4_swap. transitivity (contract4 n nv n n (tswap (d_ooov d)) (e_ovoo e)); [reflexivity|].
    rewrite (B false true false false (e_ovoo e) _ eq_refl : contract4 n nv n n _ _ = _). apply Gb_swap. auto. }
  rewrite E1.
  rewrite (B false false false false _ _ eq_refl : contract4 n n n n _ _ = _),
    (B false false true true _ _ eq_refl : contract4 n n nv nv _ _ = _),
    (B false true false true _ _ eq_refl : contract4 n nv n nv _ _ = _),
    (B false true true false _ _ eq_refl : contract4 n nv nv n _ _ = _),
    (B false true true true _ _ eq_refl : contract4 n nv nv nv _ _ = _),
    (B true true true true _ _ eq_refl : contract4 nv nv nv nv _ _ = _).
  unfold make_rdm2_rhf. cbv zeta. rewrite full_conj by auto.
  match goal with |- context [full_contraction _ _ ?X g] => set (X0 := X) end.
  rewrite (c4_splitC n nv n nv X0 g). cbv beta zeta.
  assert (Q : forall f1 f2 f3 f4, Cb n nv n nv f1 f2 f3 f4 X0 g = Gb n nv n nv f1 f2 f3 f4 (slice n n f1 f2 f3 f4 X0) g) by reflexivity.
  rewrite !Q. clear Q. subst X0.
  blk n nv n nv false false false false (tadd (tadd (d_oooo d) (tconj (d_oooo d))) (tadd (d_oooo d) (tconj (d_oooo d)))).
  blk n nv n nv false false false true (d_ooov d).
  blk n nv n nv false false true false (tconj (d_ooov d)).
  blk n nv n nv false false true true (tadd (d_oovv d) (tconj (d_oovv d))).
  blk n nv n nv false true false false (tswap (d_ooov d)).
  blk n nv n nv false true false true (tadd (d_ovov d) (tswap (d_ovov d))).
  blk n nv n nv false true true false (tadd (d_ovvo d) (trev (d_ovvo d))).
  blk n nv n nv false true true true (d_ovvv d).
  blk n nv n nv true false false false (trev (d_ooov d)).
  blk n nv n nv true false false true (tconj (tadd (d_ovvo d) (trev (d_ovvo d)))).
  blk n nv n nv true false true false (tconj (tadd (d_ovov d) (tswap (d_ovov d)))).
  blk n nv n nv true false true true (tconj (d_ovvv d)).
  blk n nv n nv true true false false (tswap (tadd (d_oovv d) (tconj (d_oovv d)))).
  blk n nv n nv true true false true (tswap (d_ovvv d)).
  blk n nv n nv true true true false (trev (d_ovvv d)).
  blk n nv n nv true true true true (tadd (tadd (d_vvvv d) (tconj (d_vvvv d))) (tadd (d_vvvv d) (tconj (d_vvvv d)))).
  rewrite ?Gb_add.
  rewrite (Gb_conj n nv n nv false false false true _ g Hc), (Gb_conj n nv n nv false true true false _ g Hc),
    (Gb_conj n nv n nv false true false true _ g Hc), (Gb_conj n nv n nv false true true true _ g Hc),
    (Gb_conj n nv n nv false false false false _ g Hc), (Gb_conj n nv n nv true true true true _ g Hc),
    (Gb_conj n nv n nv false false true true _ g Hc).
  rewrite (Gb_swap n nv false false false true _ g Hg), (Gb_swap n nv false false true true _ g Hg), (Gb_swap n nv false true true true _ g Hg).
  rewrite ?Gb_add.
  rewrite (Gb_conj n nv n nv false false true true _ g Hc), (Gb_swap n nv false true false true _ g Hg).
  rewrite (Gb_rev n nv false false false true _ g Hg), (Gb_rev n nv false true true true _ g Hg), (Gb_rev n nv false true true false _ g Hg).
  unfold times. cbn [nK]. ring.
Qed.

Lemma intermediates_ss n nv d e g out :
  sym8 (n + nv) g -> stores n nv e g ->
  (forall i j a b, (i < n)%nat -> (j < n)%nat -> (a < nv)%nat -> (b < nv)%nat -> d_oovv d i j a b = - d_ovvo d i b a j) ->
  contract_dm2i_ss n nv d e = full_contraction (n + nv) (n + nv) (make_rdm2_ss n d out) g.
Proof.
  intros Hg He Hd.
  assert (Hs := stores_slices n nv e g Hg He).
  assert (Hc := sym8_conj _ _ Hg).
  assert (B : forall f1 f2 f3 f4 x a, block_at e f1 f2 f3 f4 x ->
     contract4 (sz n nv f1) (sz n nv f2) (sz n nv f3) (sz n nv f4) a x = Gb n nv n nv f1 f2 f3 f4 a g).
  { intros f1 f2 f3 f4 x a Hx. apply c4_ext. intros p q r s Hp Hq Hr Hss. rewrite (Hs f1 f2 f3 f4 x Hx) by auto. reflexivity. }
  unfold contract_dm2i_ss.
  assert (E1 : contract4 n n n nv (d_ooov d) (tswap (e_ovoo e)) = Gb n nv n nv false false false true (d_ooov d) g).
  { rewrite c4_swap. transitivity (contract4 n nv n n (tswap (d_ooov d)) (e_ovoo e)); [reflexivity|].
    rewrite (B false true false false (e_ovoo e) _ eq_refl : contract4 n nv n n _ _ = _). apply Gb_swap. auto. }
  rewrite E1.
  rewrite (B false false false false _ _ eq_refl : contract4 n n n n _ _ = _),
    (B false false true true _ _ eq_refl : contract4 n n nv nv _ _ = _),
    (B false true false true _ _ eq_refl : contract4 n nv n nv _ _ = _),
    (B false true true false _ _ eq_refl : contract4 n nv nv n _ _ = _),
    (B false true true true _ _ eq_refl : contract4 n nv nv nv _ _ = _),
    (B true true true true _ _ eq_refl : contract4 nv nv nv nv _ _ = _).
  unfold make_rdm2_ss. cbv zeta. rewrite full_conj by auto.
  match goal with |- context [full_contraction _ _ ?X g] => set (X0 := X) end.
  rewrite (c4_splitC n nv n nv X0 g). cbv beta zeta.
  assert (Q : forall f1 f2 f3 f4, Cb n nv n nv f1 f2 f3 f4 X0 g = Gb n nv n nv f1 f2 f3 f4 (slice n n f1 f2 f3 f4 X0) g) by reflexivity.
  rewrite !Q. clear Q. subst X0.
  blk n nv n nv false false false false (d_oooo d).
  blk n nv n nv false false false true (d_ooov d).
  blk n nv n nv false false true false (tconj (d_ooov d)).
  blk n nv n nv false true false false (tswap (d_ooov d)).
  blk n nv n nv false true false true (d_ovov d).
  blk n nv n nv false true true false (d_ovvo d).
  blk n nv n nv false true true true (d_ovvv d).
  blk n nv n nv true false false false (trev (d_ooov d)).
  blk n nv n nv true false false true (tconj (d_ovvo d)).
  blk n nv n nv true false true false (tconj (d_ovov d)).
  blk n nv n nv true false true true (tconj (d_ovvv d)).
  blk n nv n nv true true false false (tswap (topp (texch (d_ovvo d)))).
  blk n nv n nv true true false true (tswap (d_ovvv d)).
  blk n nv n nv true true true false (trev (d_ovvv d)).
  blk n nv n nv true true true true (d_vvvv d).
  rewrite (Gb_swap n nv false false true true _ g Hg).
  rewrite (Gb_ext n nv n nv false false true true (slice _ _ _ _ _ _ _) (d_oovv d) g)
    by (intros; cbn [sz] in *; sl nv nv; symmetry; apply Hd; auto).
  rewrite (Gb_ext n nv n nv false false true true (topp _) (d_oovv d) g)
    by (intros; cbn [sz] in *; symmetry; apply Hd; auto).
  rewrite (Gb_conj n nv n nv false false false true _ g Hc), (Gb_conj n nv n nv false true true false _ g Hc),
    (Gb_conj n nv n nv false true false true _ g Hc), (Gb_conj n nv n nv false true true true _ g Hc).
  rewrite (Gb_swap n nv false false false true _ g Hg), (Gb_swap n nv false true true true _ g Hg).
  rewrite (Gb_rev n nv false false false true _ g Hg), (Gb_rev n nv false true true true _ g Hg).
  unfold times. cbn [nK]. ring.
Qed.

Theorem C19_intermediates_unrestricted : forall n nv m mv d e w gaa gab gbb outa outab outb,
  sym8 (n + nv) gaa -> sym4 (n + nv) (m + mv) gab -> sym8 (m + mv) gbb -> ustores n nv m mv e gaa gab gbb ->
  get_vvVV (u_vvVV e) = Some w ->
  (forall i j a b, (i < n)%nat -> (j < n)%nat -> (a < nv)%nat -> (b < nv)%nat -> d_oovv (w_aa d) i j a b = - d_ovvo (w_aa d) i b a j) ->
  (forall i j a b, (i < m)%nat -> (j < m)%nat -> (a < mv)%nat -> (b < mv)%nat -> d_oovv (w_bb d) i j a b = - d_ovvo (w_bb d) i b a j) ->
  let ab := make_rdm2_ab n m d outab in
  contract_dm2i_uhf n nv m mv d e w =
    full_contraction (n + nv) (n + nv) (make_rdm2_ss n (w_aa d) outa) gaa
    + full_contraction (n + nv) (m + mv) ab gab
    + full_contraction (m + mv) (n + nv) (fun p q r s => ab r s p q) (fun p q r s => gab r s p q)
    + full_contraction (m + mv) (m + mv) (make_rdm2_ss m (w_bb d) outb) gbb.
Proof.
  intros n nv m mv d e w gaa gab gbb outa outab outb Saa Sab Sbb
    (Haa & Hbb & HooOO & HovOO & HOVoo & HooVV & HOOvv & HovVO & HovOV & HovVV & HOVvv & HvvVV) Ew Da Db ab.
  assert (Hc := sym4_conj _ _ _ Sab).
  assert (T : full_contraction (m + mv) (n + nv) (fun p q r s => ab r s p q) (fun p q r s => gab r s p q)
    = full_contraction (n + nv) (m + mv) ab gab) by (symmetry; apply (c4_swap (n + nv) (n + nv) (m + mv) (m + mv) ab gab)).
  rewrite T. clear T. unfold contract_dm2i_uhf.
  rewrite (intermediates_ss n nv (w_aa d) (u_aa e) gaa outa Saa Haa Da), (intermediates_ss m mv (w_bb d) (u_bb e) gbb outb Sbb Hbb Db).
  destruct Sab as (S1 & S2).
  assert (L := get_ovvv_spec n nv m mv (u_ovVV e) gab ltac:(intros; apply S2; lia) HovVV).
  assert (L' := get_ovvv_spec m mv n nv (u_OVvv e) (fun p q r s => gab r s p q) ltac:(intros; apply S1; lia) HOVvv).
  assert (W := get_vvvv_spec n nv m mv (u_vvVV e) gab ltac:(intros; apply S1; lia) ltac:(intros; apply S2; lia) HvvVV).
  rewrite <- (get_vvVV_spec _ _ Ew) in W.
  assert (B : forall f1 f2 f3 f4 x a,
    (forall p q r s, (p < sz n nv f1)%nat -> (q < sz n nv f2)%nat -> (r < sz m mv f3)%nat -> (s < sz m mv f4)%nat ->
      x p q r s = gab (shift n f1 p) (shift n f2 q) (shift m f3 r) (shift m f4 s)) ->
    contract4 (sz n nv f1) (sz n nv f2) (sz m mv f3) (sz m mv f4) a x = Gb n nv m mv f1 f2 f3 f4 a gab).
  { intros f1 f2 f3 f4 x a Hx. apply c4_ext. intros p q r s Hp Hq Hr Hss. rewrite Hx by auto. reflexivity. }
  rewrite (B false false false false _ (w_ooOO d) HooOO : contract4 n n m m _ _ = _),
    (B false false false true _ (w_ooOV d) (fun p q r s Hp Hq Hr Hs => HOVoo r s p q Hr Hs Hp Hq) : contract4 n n m mv _ (tswap (u_OVoo e)) = _),
    (B false false true true _ (w_ooVV d) HooVV : contract4 n n mv mv _ _ = _),
    (B false true true false _ (w_ovVO d) HovVO : contract4 n nv mv m _ _ = _),
    (B false true false true _ (w_ovOV d) HovOV : contract4 n nv m mv _ _ = _),
    (B false true true true _ (w_ovVV d) L : contract4 n nv mv mv _ _ = _),
    (B true true true true _ (w_vvVV d) W : contract4 nv nv mv mv _ _ = _).
  rewrite (c4_swap m m n nv (w_OOov d)), (c4_swap m m nv nv (w_OOvv d)), (c4_swap m mv nv nv (w_OVvv d)).
  rewrite (B false true false false _ (tswap (w_OOov d)) HovOO : contract4 n nv m m _ (tswap (tswap (u_ovOO e))) = _),
    (B true true false false _ (tswap (w_OOvv d)) (fun p q r s Hp Hq Hr Hs => HOOvv r s p q Hr Hs Hp Hq) : contract4 nv nv m m _ (tswap (u_OOvv e)) = _),
    (B true true false true _ (tswap (w_OVvv d)) (fun p q r s Hp Hq Hr Hs => L' r s p q Hr Hs Hp Hq) : contract4 nv nv m mv _ (tswap (get_ovvv (u_OVvv e))) = _).
  subst ab. unfold make_rdm2_ab. cbv zeta. rewrite (full_conj (n + nv) (m + mv) _ gab Hc).
  match goal with |- context [full_contraction _ _ ?X gab] => set (X0 := X) end.
  rewrite (c4_splitC n nv m mv X0 gab). cbv beta zeta.
  assert (Q : forall f1 f2 f3 f4, Cb n nv m mv f1 f2 f3 f4 X0 gab = Gb n nv m mv f1 f2 f3 f4 (slice n m f1 f2 f3 f4 X0) gab) by reflexivity.
  rewrite !Q. clear Q. subst X0.
  blk n nv m mv false false false false (w_ooOO d).
  blk n nv m mv false false false true (w_ooOV d).
  blk n nv m mv false false true false (tconj (w_ooOV d)).
  blk n nv m mv false false true true (w_ooVV d).
  blk n nv m mv false true false false (tswap (w_OOov d)).
  blk n nv m mv false true false true (w_ovOV d).
  blk n nv m mv false true true false (w_ovVO d).
  blk n nv m mv false true true true (w_ovVV d).
  blk n nv m mv true false false false (tconj (tswap (w_OOov d))).
  blk n nv m mv true false false true (tconj (w_ovVO d)).
  blk n nv m mv true false true false (tconj (w_ovOV d)).
  blk n nv m mv true false true true (tconj (w_ovVV d)).
  blk n nv m mv true true false false (tswap (w_OOvv d)).
  blk n nv m mv true true false true (tswap (w_OVvv d)).
  blk n nv m mv true true true false (tconj (tswap (w_OVvv d))).
  blk n nv m mv true true true true (w_vvVV d).
  rewrite (Gb_conj n nv m mv false false false true _ gab Hc), (Gb_conj n nv m mv false true true false _ gab Hc),
    (Gb_conj n nv m mv false true false true _ gab Hc), (Gb_conj n nv m mv false true true true _ gab Hc),
    (Gb_conj n nv m mv false true false false _ gab Hc), (Gb_conj n nv m mv true true false true _ gab Hc).
  unfold times. cbn [nK]. ring.
Qed.
End P.

(** ** Concrete instances: one occupied and two virtual orbitals, packed virtual pairs *)
Section Ex.
Open Scope nat_scope.
Definition gz : nat -> nat -> nat -> nat -> ZK := fun p q r s => Z.of_nat ((p + q + 1) * (r + s + 1) + p * q * r * s).
Definition dz : nat -> nat -> nat -> nat -> ZK := fun p q r s => Z.of_nat (2 * (p * s + q * r) + p + q + r + s).
Definition un (t : nat) : nat * nat := match t with 0 => (0, 0) | 1 => (1, 0) | _ => (1, 1) end.
Definition ez : eris ZK := {|
  e_oooo := gz; e_ovoo := fun i a j k => gz i (1 + a) j k; e_oovv := fun i j a b => gz i j (1 + a) (1 + b);
  e_ovov := fun i a j b => gz i (1 + a) j (1 + b); e_ovvo := fun i a b j => gz i (1 + a) (1 + b) j;
  e_ovvv := V3 (fun i a t => gz i (1 + a) (1 + fst (un t)) (1 + snd (un t)));
  e_vvvv := W2 (fun t u => gz (1 + fst (un t)) (1 + snd (un t)) (1 + fst (un u)) (1 + snd (un u))) |}.
Definition uz : ueris ZK := {|
  u_aa := ez; u_bb := ez; u_ooOO := gz; u_ovOO := fun i a j k => gz i (1 + a) j k; u_OVoo := fun k b i j => gz i j k (1 + b);
  u_ooVV := fun i j a b => gz i j (1 + a) (1 + b); u_OOvv := fun k l a b => gz (1 + a) (1 + b) k l;
  u_ovVO := fun i a b k => gz i (1 + a) (1 + b) k; u_ovOV := fun i a k b => gz i (1 + a) k (1 + b);
  u_ovVV := e_ovvv ez; u_OVvv := V3 (fun k b t => gz (1 + fst (un t)) (1 + snd (un t)) k (1 + b)); u_vvVV := e_vvvv ez |}.

Lemma gz_sym : sym8 3 gz.
Proof. repeat split; intros; unfold gz; f_equal; lia. Qed.
Lemma dz_sym : symd 3 dz.
Proof. split; intros; unfold dz; f_equal; lia. Qed.
Ltac small x := destruct x as [|[|x]]; try lia.
Lemma ez_ovvv (g : nat -> nat -> nat -> nat -> ZK) :
  stores_ovvv 1 2 1 2 (V3 (fun i a t => g i (1 + a) (1 + fst (un t)) (1 + snd (un t)))) g.
Proof. intros i a c d Hi Ha Hc Hd. small c; small d; reflexivity. Qed.
Lemma ez_vvvv : stores_vvvv 1 2 1 2 (e_vvvv ez) gz.
Proof. intros a c d e Ha Hc Hd He. small a; small c; small d; small e; reflexivity. Qed.
Lemma ez_stores : stores 1 2 ez gz.
Proof. unfold stores. repeat (split; [reflexivity|]). split; [apply (ez_ovvv gz)|apply ez_vvvv]. Qed.
Lemma uz_stores : ustores 1 2 1 2 uz gz gz gz.
Proof.
  unfold ustores. split; [apply ez_stores|]. split; [apply ez_stores|]. repeat (split; [reflexivity|]).
  split; [apply (ez_ovvv gz)|]. split; [apply (ez_ovvv (fun p q r s => gz r s p q))|apply ez_vvvv].
Qed.

Example C20_instance : get_full_array_rhf 1 ez (fun _ _ _ _ => 0%Z) 2 1 0 2 = gz 2 1 0 2 /\ gz 2 1 0 2 = 12%Z.
Proof. split; reflexivity. Qed.
Example C20_uninstance : exists aa ab bb, get_full_array_u 1 1 uz None (fun _ _ _ _ => 0%Z) (fun _ _ _ _ => 7%Z) (fun _ _ _ _ => 0%Z) = UFull aa ab bb
  /\ ab 2 1 0 2 = 12%Z.
Proof. do 3 eexists. split; reflexivity. Qed.
Example C19_instance : contract_dm2_eris_rhf 1 2 dz ez = 9360%Z /\ full_contraction 3 3 dz gz = 9360%Z.
Proof. split; vm_compute; reflexivity. Qed.
(** The density matrix lacks the eight-fold symmetry of the integrals, so the weights of the ovov and ovvo blocks matter. *)
Example C19_not_eightfold : dz 0 1 0 1 <> dz 0 1 1 0.
Proof. vm_compute. discriminate. Qed.
Definition iz : dm2i ZK := {| d_ovov := dz; d_vvvv := dz; d_oooo := dz; d_oovv := dz; d_ovvo := dz; d_ovvv := gz; d_ooov := dz |}.
Example C19_intermediates_instance : contract_dm2i_rhf 1 2 iz ez = full_contraction 3 3 (make_rdm2_rhf 1 iz (fun _ _ _ _ => 0%Z)) gz
  /\ contract_dm2i_rhf 1 2 iz ez <> 0%Z.
Proof. split; [apply (C19_intermediates_restricted 1 2 iz ez gz); [apply gz_sym|apply ez_stores]|vm_compute; discriminate]. Qed.
Definition izs : dm2i ZK := {| d_ovov := dz; d_vvvv := dz; d_oooo := dz; d_oovv := (fun i j a b => (- dz i b a j)%Z); d_ovvo := dz; d_ovvv := gz; d_ooov := dz |}.
Definition wz : udm2i ZK := {| w_aa := izs; w_bb := izs; w_ovOV := dz; w_vvVV := dz; w_ooOO := dz; w_ooVV := gz; w_OOvv := dz; w_ovVO := gz;
  w_ovVV := dz; w_OVvv := gz; w_ooOV := dz; w_OOov := gz |}.
Example C19_intermediates_uninstance : exists w, get_vvVV (u_vvVV uz) = Some w /\
  contract_dm2i_uhf 1 2 1 2 wz uz w <> 0%Z /\ contract_dm2_eris_uhf 1 2 1 2 dz dz dz uz w = (4 * 9360)%Z.
Proof. eexists. split; [reflexivity|]. split; [vm_compute; discriminate|vm_compute; reflexivity]. Qed.
End Ex.

Print Assumptions C19_restricted.
Print Assumptions C19_unrestricted.
Print Assumptions C19_intermediates_restricted.
Print Assumptions C19_intermediates_unrestricted.
Print Assumptions C20_restricted.
Print Assumptions C20_unrestricted.
Print Assumptions C20_overwrites.
