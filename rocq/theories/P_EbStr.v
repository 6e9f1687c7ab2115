(** * Link tables of strings of electrons, and cases of the properties of exact diagonalisation with bosons (model in M_EbFci, theorems in P_EbFci) *)
From Coq Require Import List Bool Arith Lia Ring ZArith QArith Qcanon.
From Verif Require Import Alg Ord M_TtoC P_TtoC M_EbFci P_EbFci.
Import ListNotations.
Open Scope K_scope.

Section Halves.
Context {K : cring}.
Add Ring Kh : (rth K).
(** with half of the spin summed density matrix for each spin, the moments are those with the density matrices of the spins if these are equal *)
Theorem C68_dd_halves (norb nbos mocc : nat) (tabA tabB : list (list (@entry K))) (half : K) (h : ci -> ci) (e0 : K) (max_mom m : nat) (c : ci) (p q r s : nat) : half + half = 1 ->
  (forall p q, (p < norb)%nat -> (q < norb)%nat -> fst (rdm1_u nbos mocc tabA tabB c) p q = snd (rdm1_u nbos mocc tabA tabB c) p q) -> (p < norb)%nat -> (q < norb)%nat -> (r < norb)%nat -> (s < norb)%nat ->
  let '(aa, ab, bb) := dd_moms norb nbos mocc tabA tabB h e0 max_mom m c (rdm1_u nbos mocc tabA tabB c) (None, None) in
  let '(aa', ab', bb') := dd_moms norb nbos mocc tabA tabB h e0 max_mom m c (halves half (rdm1 nbos mocc tabA tabB c)) (None, None) in
  aa' p q r s = aa p q r s /\ ab' p q r s = ab p q r s /\ bb' p q r s = bb p q r s.
Proof.
  intros Hh He Hp Hq Hr Hs. unfold dd_moms, dd_mom, dm_basis, halves. cbn [fst snd].
  assert (A : forall p q, (p < norb)%nat -> (q < norb)%nat -> rdm1 nbos mocc tabA tabB c p q * half = fst (rdm1_u nbos mocc tabA tabB c) p q).
  { intros a b Ha Hb. unfold rdm1. rewrite <- (He a b Ha Hb). transitivity (fst (rdm1_u nbos mocc tabA tabB c) a b * (half + half)); [ring|]. rewrite Hh. ring. }
  rewrite !A by assumption. rewrite <- !He by assumption. repeat split; reflexivity.
Qed.
End Halves.

(** ** Link tables exist: those of strings of electrons
    What cistring.gen_linkstr_index computes, with the strings as lists of occupied or not, in some order; used to show that the properties of link tables assumed above hold for any numbers of orbitals and electrons. *)
Section Strings.
Context {K : cring}.
Add Ring Ks : (rth K).
Fixpoint strs (norb n : nat) : list (list bool) := match norb with
  | O => match n with O => [[]] | _ => [] end
  | S k => map (cons false) (strs k n) ++ match n with O => [] | S m => map (cons true) (strs k m) end end.
Definition seqb (x y : list bool) : bool := if list_eq_dec Bool.bool_dec x y then true else false.
Fixpoint index (s : list bool) (l : list (list bool)) : nat := match l with [] => 0%nat | t :: l => if seqb t s then 0%nat else S (index s l) end.
(** take the electron out of orbital i, put one into orbital a; the sign changes with every electron before *)
Fixpoint des (i : nat) (s : list bool) : option (bool * list bool) := match s, i with
  | [], _ => None | x :: s, O => if x then Some (false, false :: s) else None
  | x :: s, S i => match des i s with Some (g, s') => Some (xorb x g, x :: s') | None => None end end.
Fixpoint put (i : nat) (s : list bool) : option (bool * list bool) := match s, i with
  | [], _ => None | x :: s, O => if x then None else Some (false, true :: s)
  | x :: s, S i => match put i s with Some (g, s') => Some (xorb x g, x :: s') | None => None end end.
Definition path (a i : nat) (s : list bool) : option (bool * list bool) := match des i s with Some (g, s') => match put a s' with Some (g', s1) => Some (xorb g g', s1) | None => None end | None => None end.
Definition sg (b : bool) : K := if b then - (1) else 1.
Definition link_tab (norb n : nat) : list (list entry) :=
  map (fun s => flat_map (fun a => flat_map (fun i => match path a i s with Some (g, s1) => [(a, i, index s1 (strs norb n), sg g)] | None => [] end) (seq 0 norb)) (seq 0 norb)) (strs norb n).

(** creation and annihilation on functions of strings *)
Notation fn := (list bool -> K).
Fixpoint Cr (i : nat) (v : fn) (x : list bool) : K := match x, i with [], _ => 0 | b :: xs, O => if b then v (false :: xs) else 0 | b :: xs, S i => sg b * Cr i (fun ys => v (b :: ys)) xs end.
Fixpoint De (i : nat) (v : fn) (x : list bool) : K := match x, i with [], _ => 0 | b :: xs, O => if b then 0 else v (true :: xs) | b :: xs, S i => sg b * De i (fun ys => v (b :: ys)) xs end.
Lemma sg_sq b : sg b * sg b = 1. Proof. destruct b; cbn; ring. Qed.
Lemma sg_xor a b : sg (xorb a b) = sg a * sg b. Proof. destruct a, b; cbn; ring. Qed.
Definition cnt (x : list bool) : nat := length (filter (fun b => b) x).
Lemma Cr_ext i v w x : (forall t, length t = length x -> S (cnt t) = cnt x -> v t = w t) -> Cr i v x = Cr i w x.
Proof.
  revert i v w. induction x as [|b x IH]; intros [|i] v w H; cbn [Cr]; try reflexivity.
  - destruct b; [|reflexivity]. apply H; reflexivity.
  - f_equal. apply IH. intros t Hl Hc. apply H; cbn; [now rewrite Hl|]. unfold cnt in *. cbn. destruct b; cbn; congruence.
Qed.
Lemma De_ext i v w x : (forall t, length t = length x -> cnt t = S (cnt x) -> v t = w t) -> De i v x = De i w x.
Proof.
  revert i v w. induction x as [|b x IH]; intros [|i] v w H; cbn [De]; try reflexivity.
  - destruct b; [reflexivity|]. apply H; reflexivity.
  - f_equal. apply IH. intros t Hl Hc. apply H; cbn; [now rewrite Hl|]. unfold cnt in *. cbn. destruct b; cbn; congruence.
Qed.
Lemma Cr_ext0 i v w x : (forall t, v t = w t) -> Cr i v x = Cr i w x. Proof. intros H. apply Cr_ext. auto. Qed.
Lemma De_ext0 i v w x : (forall t, v t = w t) -> De i v x = De i w x. Proof. intros H. apply De_ext. auto. Qed.
Lemma Cr_lin i k v w x : Cr i (fun t => v t + k * w t) x = Cr i v x + k * Cr i w x.
Proof. revert i v w. induction x as [|b x IH]; intros [|i] v w; cbn [Cr]; try ring; [destruct b; ring|]. rewrite (IH i (fun ys => v (b :: ys)) (fun ys => w (b :: ys))). ring. Qed.
Lemma De_lin i k v w x : De i (fun t => v t + k * w t) x = De i v x + k * De i w x.
Proof. revert i v w. induction x as [|b x IH]; intros [|i] v w; cbn [De]; try ring; [destruct b; ring|]. rewrite (IH i (fun ys => v (b :: ys)) (fun ys => w (b :: ys))). ring. Qed.
Lemma Cr_0 i x : Cr i (fun _ => 0) x = 0.
Proof. revert i. induction x as [|b x IH]; intros [|i]; cbn [Cr]; try reflexivity; [now destruct b|]. rewrite IH. ring. Qed.
Lemma De_0 i x : De i (fun _ => 0) x = 0.
Proof. revert i. induction x as [|b x IH]; intros [|i]; cbn [De]; try reflexivity; [now destruct b|]. rewrite IH. ring. Qed.
Lemma Cr_scal i k v x : Cr i (fun t => k * v t) x = k * Cr i v x.
Proof. transitivity (Cr i (fun t => 0 + k * v t) x); [apply Cr_ext; intros; ring|]. rewrite Cr_lin, Cr_0. ring. Qed.
Lemma De_scal i k v x : De i (fun t => k * v t) x = k * De i v x.
Proof. transitivity (De i (fun t => 0 + k * v t) x); [apply De_ext; intros; ring|]. rewrite De_lin, De_0. ring. Qed.
Lemma Cr_Sum i n (f : nat -> fn) x : Cr i (fun t => Sum n (fun k => f k t)) x = Sum n (fun k => Cr i (f k) x).
Proof. induction n as [|n IH]; cbn [Sum]; [apply Cr_0|]. rewrite <- IH. transitivity (Cr i (fun t => Sum n (fun k => f k t) + 1 * f n t) x); [apply Cr_ext; intros; ring|]. rewrite Cr_lin. ring. Qed.
Lemma De_Sum i n (f : nat -> fn) x : De i (fun t => Sum n (fun k => f k t)) x = Sum n (fun k => De i (f k) x).
Proof. induction n as [|n IH]; cbn [Sum]; [apply De_0|]. rewrite <- IH. transitivity (De i (fun t => Sum n (fun k => f k t) + 1 * f n t) x); [apply De_ext; intros; ring|]. rewrite De_lin. ring. Qed.
(** anticommutation relations *)
Lemma car i j v x : (i < length x)%nat -> De i (Cr j v) x = delta i j * v x - Cr j (De i v) x.
Proof.
  revert i j v. induction x as [|b x IH]; intros [|i] [|j] v H; cbn [length] in H; try lia; cbn [De Cr].
  - rewrite delta_eq. destruct b; ring.
  - rewrite delta_neq by lia. destruct b; [rewrite Cr_0; ring|]. change (sg true) with (- (1) : K). change (sg false) with (1 : K). ring.
  - rewrite delta_neq by lia. destruct b; [|rewrite De_0; ring]. change (sg true) with (- (1) : K). change (sg false) with (1 : K). ring.
  - rewrite De_scal, Cr_scal. fold (De i). rewrite (IH i j (fun ys => v (b :: ys))) by lia.
    replace (delta (S i) (S j) : K) with (delta i j : K) by reflexivity. transitivity (sg b * sg b * (delta i j * v (b :: x) - Cr j (De i (fun ys => v (b :: ys))) x)); [ring|]. rewrite sg_sq.
    transitivity (delta i j * v (b :: x) - sg b * sg b * Cr j (De i (fun ys => v (b :: ys))) x); [rewrite sg_sq; ring|ring].
Qed.
Lemma cr_anti i j v x : Cr i (Cr j v) x = - Cr j (Cr i v) x.
Proof.
  revert i j v. induction x as [|b x IH]; intros [|i] [|j] v; cbn [Cr]; try ring.
  - destruct b; ring.
  - destruct b; [change (sg true) with (- (1) : K); change (sg false) with (1 : K); ring|rewrite Cr_0; ring].
  - destruct b; [change (sg true) with (- (1) : K); change (sg false) with (1 : K); ring|rewrite Cr_0; ring].
  - rewrite !Cr_scal, (IH i j (fun ys => v (b :: ys))). ring.
Qed.
Definition E (a i : nat) (v : fn) : fn := Cr a (De i v).
Lemma E_exch p q r s v x : (p < length x)%nat -> (q < length x)%nat -> (r < length x)%nat -> E p q (E r s v) x - delta q r * E p s v x = - (E r q (E p s v) x - delta q p * E r s v x).
Proof.
  intros Hp Hq Hr. assert (A : forall p r, E p q (E r s v) x - delta q r * E p s v x = - Cr p (Cr r (De q (De s v))) x).
  { intros a b. unfold E. rewrite (Cr_ext a (De q (Cr b (De s v))) (fun t => delta q b * De s v t + - (1) * Cr b (De q (De s v)) t)).
    - rewrite Cr_lin, Cr_scal. ring.
    - intros t Ht _. rewrite car by (rewrite Ht; exact Hq). ring. }
  rewrite !A, (cr_anti p r). ring.
Qed.
Definition ind (y : list bool) : fn := fun t => if seqb t y then 1 else 0.
Lemma seqb_refl x : seqb x x = true. Proof. unfold seqb. destruct (list_eq_dec _ x x); congruence. Qed.
Lemma seqb_eq x y : seqb x y = true <-> x = y. Proof. unfold seqb. destruct (list_eq_dec _ x y); split; congruence. Qed.
Lemma seqb_cons b b' x y : seqb (b :: x) (b' :: y) = Bool.eqb b b' && seqb x y.
Proof. unfold seqb. destruct (list_eq_dec _ (b :: x) (b' :: y)) as [H|H], (Bool.eqb_spec b b') as [H1|H1], (list_eq_dec _ x y) as [H2|H2]; cbn; try reflexivity; exfalso; congruence. Qed.
Lemma seqb_sym x y : seqb x y = seqb y x.
Proof. unfold seqb. destruct (list_eq_dec _ x y), (list_eq_dec _ y x); congruence. Qed.
Lemma ind_cons b b' y t : ind (b' :: y) (b :: t) = if Bool.eqb b b' then ind y t else 0.
Proof. unfold ind. rewrite seqb_cons. destruct (Bool.eqb b b'); reflexivity. Qed.
Lemma ind_nil_l b t : ind [] (b :: t) = 0. Proof. unfold ind, seqb. destruct (list_eq_dec _ (b :: t) []); [congruence|reflexivity]. Qed.
Lemma ind_nil_r b t : ind (b :: t) [] = 0. Proof. unfold ind, seqb. destruct (list_eq_dec _ [] (b :: t)); [congruence|reflexivity]. Qed.
Lemma ind_sym x y : ind x y = ind y x. Proof. unfold ind. rewrite seqb_sym. reflexivity. Qed.
Lemma Cr_De_ind i x y : Cr i (ind y) x = De i (ind x) y.
Proof.
  revert i y. induction x as [|b x IH]; intros i y.
  - cbn [Cr]. revert i. induction y as [|b y _]; intros [|i]; cbn [De]; try reflexivity; [destruct b; [reflexivity|]; now rewrite ind_nil_l|].
    rewrite (De_ext0 i _ (fun _ => 0)) by (intros; apply ind_nil_l). rewrite De_0. cbn [Cr]. ring.
  - destruct y as [|b' y].
    + cbn [De]. destruct i as [|i]; cbn [Cr]; [destruct b; [|reflexivity]; now rewrite ind_nil_l|]. rewrite (Cr_ext0 i _ (fun _ => 0)) by (intros; apply ind_nil_l). rewrite Cr_0. cbn [De]. ring.
    + destruct i as [|i]; cbn [Cr De].
      * rewrite !ind_cons, (ind_sym x y). destruct b, b'; reflexivity.
      * rewrite (Cr_ext0 i _ (fun t => (if Bool.eqb b b' then 1 else 0) * ind y t)) by (intros; rewrite ind_cons; destruct (Bool.eqb b b'); ring).
        rewrite (De_ext0 i _ (fun t => (if Bool.eqb b b' then 1 else 0) * ind x t)) by (intros; rewrite ind_cons; destruct b, b'; cbn; ring). rewrite Cr_scal, De_scal, IH. destruct b, b'; cbn; ring.
Qed.
Lemma De_ind_cons i b c y x : De i (fun ys => ind (b :: y) (c :: ys)) x = if Bool.eqb c b then De i (ind y) x else 0.
Proof. destruct (Bool.eqb c b) eqn:Hb; [|rewrite <- (De_0 i x)]; apply De_ext0; intros t; rewrite ind_cons, Hb; reflexivity. Qed.
Lemma Cr_ind_cons i b c y x : Cr i (fun ys => ind (b :: y) (c :: ys)) x = if Bool.eqb c b then Cr i (ind y) x else 0.
Proof. destruct (Bool.eqb c b) eqn:Hb; [|rewrite <- (Cr_0 i x)]; apply Cr_ext0; intros t; rewrite ind_cons, Hb; reflexivity. Qed.
Lemma E_adj a i x y : E a i (ind y) x = E i a (ind x) y.
Proof.
  unfold E. revert a i y. induction x as [|b x IH]; intros a i y.
  - symmetry. transitivity (Cr i (fun _ => 0) y); [|rewrite Cr_0; destruct a; reflexivity]. apply Cr_ext0. intros t. rewrite <- Cr_De_ind. destruct a; reflexivity.
  - destruct y as [|b' y].
    + transitivity (Cr a (fun _ => 0) (b :: x)); [|rewrite Cr_0; destruct i; reflexivity]. apply Cr_ext0. intros t. rewrite <- Cr_De_ind. destruct i; reflexivity.
    + destruct a as [|a], i as [|i]; cbn [Cr De].
      * rewrite !ind_cons, (ind_sym x y). destruct b, b'; reflexivity.
      * destruct b, b'; rewrite ?Cr_0, ?De_ind_cons, ?Cr_ind_cons, ?Cr_De_ind; cbn; ring.
      * destruct b, b'; rewrite ?Cr_0, ?De_ind_cons, ?Cr_ind_cons, ?Cr_De_ind; cbn; ring.
      * rewrite (Cr_ext0 a _ (fun t => sg b * ((if Bool.eqb b b' then 1 else 0) * De i (ind y) t))).
        2: { intros t. f_equal. rewrite <- De_scal. apply De_ext0. intros u. rewrite ind_cons. destruct (Bool.eqb b b'); ring. }
        rewrite (Cr_ext0 i (fun ys => sg b' * De a (fun ys0 => ind (b :: x) (b' :: ys0)) ys) (fun t => sg b' * ((if Bool.eqb b b' then 1 else 0) * De a (ind x) t))).
        2: { intros t. f_equal. rewrite <- De_scal. apply De_ext0. intros u. rewrite ind_cons. destruct b, b'; cbn; ring. }
        rewrite !Cr_scal, IH. destruct b, b'; cbn; ring.
Qed.
Lemma Sum_first n (f : nat -> K) : Sum (S n) f = f 0%nat + Sum n (fun k => f (S k)).
Proof. induction n as [|n IH]; [cbn; ring|]. change (Sum (S (S n)) f) with (Sum (S n) f + f (S n)). rewrite IH. cbn [Sum]. ring. Qed.
Lemma E_num v x : Sum (length x) (fun p => E p p v x) = nK (cnt x) * v x.
Proof.
  unfold E. revert v. induction x as [|b x IH]; intros v; [cbn; ring|]. cbn [length]. rewrite Sum_first. cbn [Cr De].
  rewrite (Sum_ext _ _ (fun p => Cr p (De p (fun ys => v (b :: ys))) x)).
  2: { intros p _. rewrite Cr_scal. transitivity (sg b * sg b * Cr p (De p (fun ys => v (b :: ys))) x); [ring|]. rewrite sg_sq. ring. }
  rewrite IH. unfold cnt. destruct b; cbn; ring.
Qed.
Lemma Cr_des i v x : Cr i v x = match des i x with Some (g, s) => sg g * v s | None => 0 end.
Proof.
  revert i v. induction x as [|b x IH]; intros [|i] v; cbn [Cr des]; try reflexivity; [destruct b; [change (sg false) with (1 : K); ring|reflexivity]|].
  rewrite IH. destruct (des i x) as [[g s]|]; [rewrite sg_xor|]; ring.
Qed.
Lemma De_put i v x : De i v x = match put i x with Some (g, s) => sg g * v s | None => 0 end.
Proof.
  revert i v. induction x as [|b x IH]; intros [|i] v; cbn [De put]; try reflexivity; [destruct b; [reflexivity|change (sg false) with (1 : K); ring]|].
  rewrite IH. destruct (put i x) as [[g s]|]; [rewrite sg_xor|]; ring.
Qed.
Lemma E_path a i x y : E a i (ind y) x = match path a i y with Some (g, s) => if seqb s x then sg g else 0 | None => 0 end.
Proof.
  rewrite E_adj. unfold E, path. rewrite Cr_des. destruct (des i y) as [[g s]|]; [|reflexivity]. rewrite De_put. destruct (put a s) as [[g' s']|]; [|ring].
  rewrite sg_xor. unfold ind. destruct (seqb s' x); ring.
Qed.
Lemma des_ok i s g s' : des i s = Some (g, s') -> (i < length s)%nat /\ length s' = length s /\ S (cnt s') = cnt s.
Proof.
  revert i g s'. induction s as [|b s IH]; intros [|i] g s'; cbn [des]; try discriminate.
  - destruct b; [|discriminate]. intros [= <- <-]. cbn. repeat split; lia.
  - destruct (des i s) as [[h t]|] eqn:Hd; [|discriminate]. intros [= <- <-]. destruct (IH _ _ _ Hd) as (H1 & H2 & H3). unfold cnt in *. cbn. destruct b; cbn; repeat split; lia.
Qed.
Lemma put_ok i s g s' : put i s = Some (g, s') -> (i < length s)%nat /\ length s' = length s /\ cnt s' = S (cnt s).
Proof.
  revert i g s'. induction s as [|b s IH]; intros [|i] g s'; cbn [put]; try discriminate.
  - destruct b; [discriminate|]. intros [= <- <-]. cbn. repeat split; lia.
  - destruct (put i s) as [[h t]|] eqn:Hd; [|discriminate]. intros [= <- <-]. destruct (IH _ _ _ Hd) as (H1 & H2 & H3). unfold cnt in *. cbn. destruct b; cbn; repeat split; lia.
Qed.
Lemma path_ok a i s g s' : path a i s = Some (g, s') -> (a < length s)%nat /\ (i < length s)%nat /\ length s' = length s /\ cnt s' = cnt s.
Proof.
  unfold path. destruct (des i s) as [[h t]|] eqn:Hd; [|discriminate]. destruct (put a t) as [[h' t']|] eqn:Hp; [|discriminate]. intros [= <- <-].
  apply des_ok in Hd. apply put_ok in Hp. lia.
Qed.
Lemma in_strs norb : forall n s, In s (strs norb n) <-> length s = norb /\ cnt s = n.
Proof.
  induction norb as [|k IH]; intros n s.
  - cbn. destruct n; cbn; split.
    + intros [<-|[]]; split; reflexivity.
    + intros [H _]. left. now destruct s.
    + intros [].
    + intros [H1 H2]. destruct s; discriminate.
  - cbn [strs]. rewrite in_app_iff. split.
    + intros [H|H].
      * apply in_map_iff in H as (t & <- & Ht). apply IH in Ht as [H1 H2]. unfold cnt in *. cbn. split; lia.
      * destruct n as [|m]; [destruct H|]. apply in_map_iff in H as (t & <- & Ht). apply IH in Ht as [H1 H2]. unfold cnt in *. cbn. split; lia.
    + intros [H1 H2]. destruct s as [|b s]; [discriminate|]. cbn in H1. unfold cnt in H2. cbn in H2. destruct b.
      * right. destruct n as [|m]; [discriminate|]. apply in_map. apply IH. unfold cnt. cbn in H2. split; lia.
      * left. apply in_map. apply IH. unfold cnt. split; lia.
Qed.
Lemma NoDup_map_cons (b : bool) l : NoDup l -> NoDup (map (cons b) l).
Proof. intros H. apply FinFun.Injective_map_NoDup; [intros x y [= E]; exact E|exact H]. Qed.
Lemma NoDup_strs norb : forall n, NoDup (strs norb n).
Proof.
  induction norb as [|k IH]; intros n; cbn [strs]; [destruct n; constructor; [intros []|constructor]|].
  destruct n as [|m]; [rewrite app_nil_r; apply NoDup_map_cons, IH|].
  assert (A : forall l1 l2 : list (list bool), NoDup l1 -> NoDup l2 -> (forall x, In x l1 -> ~ In x l2) -> NoDup (l1 ++ l2)).
  { induction l1 as [|x l1 IH1]; intros l2 H1 H2 H; cbn; [exact H2|]. inversion H1; subst. constructor; [rewrite in_app_iff; intros [Hx|Hx]; [tauto|exact (H x (or_introl eq_refl) Hx)]|]. apply IH1; auto. intros z Hz. apply H. right. exact Hz. }
  apply A; [apply NoDup_map_cons, IH|apply NoDup_map_cons, IH|]. intros x Hx Hy. apply in_map_iff in Hx as (u & <- & _). apply in_map_iff in Hy as (w & Hw & _). discriminate.
Qed.
Lemma index_in s l : In s l -> (index s l < length l)%nat /\ nth (index s l) l [] = s.
Proof.
  induction l as [|t l IH]; [intros []|]. intros H. cbn [index]. destruct (seqb t s) eqn:Ht.
  - apply seqb_eq in Ht. subst t. cbn. split; [lia|reflexivity].
  - destruct H as [->|H]; [rewrite seqb_refl in Ht; discriminate|]. destruct (IH H). cbn. split; [lia|assumption].
Qed.
Lemma index_nth l x : NoDup l -> (x < length l)%nat -> index (nth x l []) l = x.
Proof. intros Hd Hx. destruct (index_in (nth x l []) l (nth_In l [] Hx)) as [H1 H2]. apply (proj1 (NoDup_nth l []) Hd); assumption. Qed.

Section Tab.
Context (norb n : nat).
Local Notation L := (strs norb n).
Local Notation st x := (nth x (strs norb n) []).
Lemma tab_len : length (link_tab norb n) = length L. Proof. unfold link_tab. apply map_length. Qed.
Lemma tab_nth y : (y < length L)%nat -> nth y (link_tab norb n) [] = flat_map (fun a => flat_map (fun i => match path a i (st y) with Some (g, s1) => [(a, i, index s1 L, sg g)] | None => [] end) (seq 0 norb)) (seq 0 norb).
Proof.
  intros Hy. unfold link_tab. set (F := fun s => flat_map _ _). rewrite (nth_indep _ [] (F [])) by (rewrite map_length; exact Hy). rewrite map_nth. reflexivity.
Qed.
Lemma st_ok x : (x < length L)%nat -> length (st x) = norb /\ cnt (st x) = n.
Proof. intros H. apply in_strs. apply nth_In. exact H. Qed.
Lemma path_in a i y g s : (y < length L)%nat -> path a i (st y) = Some (g, s) -> In s L.
Proof. intros Hy Hp. destruct (st_ok y Hy). apply path_ok in Hp. apply in_strs. split; [|]; lia. Qed.
Lemma lk_E a i x y : (a < norb)%nat -> (i < norb)%nat -> (x < length L)%nat -> (y < length L)%nat -> lk (link_tab norb n) a i x y = E a i (ind (st y)) (st x).
Proof.
  intros Ha Hi Hx Hy. unfold lk. rewrite tab_nth by exact Hy. rewrite Lsum_flat_map, Lsum_seq. rewrite (Sum_single norb a); [|exact Ha|].
  - rewrite Lsum_flat_map, Lsum_seq. rewrite (Sum_single norb i); [|exact Hi|].
    + rewrite E_path. destruct (path a i (st y)) as [[g s]|] eqn:Hp; [|reflexivity]. cbn [Lsum]. rewrite !Nat.eqb_refl. cbn [andb].
      pose proof (path_in _ _ _ _ _ Hy Hp) as Hin. destruct (seqb s (st x)) eqn:Hs.
      * apply seqb_eq in Hs. subst s. rewrite index_nth by (try apply NoDup_strs; exact Hx). rewrite Nat.eqb_refl. ring.
      * destruct (Nat.eqb_spec (index s L) x) as [He|_]; [|ring]. exfalso. subst x. destruct (index_in s L Hin) as [_ He]. rewrite He, seqb_refl in Hs. discriminate.
    + intros j _ Hj. destruct (path a j (st y)) as [[g s]|]; [|reflexivity]. cbn [Lsum]. destruct (Nat.eqb_spec j i); [contradiction|]. rewrite andb_false_r. cbn. ring.
  - intros b _ Hb. rewrite Lsum_flat_map, Lsum_seq. transitivity (Sum norb (fun _ => 0 : K)); [|apply Sum_zero]. apply Sum_ext. intros j _.
    destruct (path b j (st y)) as [[g s]|]; [|reflexivity]. cbn [Lsum]. destruct (Nat.eqb_spec b a); [contradiction|]. cbn. ring.
Qed.
Lemma E_complete p q r s x y : (x < length L)%nat -> (y < length L)%nat -> Sum (length L) (fun m => E p q (ind (st m)) (st x) * E r s (ind (st y)) (st m)) = E p q (E r s (ind (st y))) (st x).
Proof.
  intros Hx Hy. set (w := E r s (ind (st y))). clearbody w. destruct (st_ok x Hx) as [Hl Hc].
  assert (H : forall t, length t = norb -> cnt t = n -> w t = Sum (length L) (fun m => w (st m) * ind (st m) t)).
  { intros t H1 H2. assert (Ht : In t L) by (apply in_strs; auto). destruct (index_in t L Ht) as [Hi He]. rewrite (Sum_single _ (index t L)); [|exact Hi|].
    - rewrite He. unfold ind. rewrite seqb_refl. ring.
    - intros m Hm Hne. unfold ind. destruct (seqb t (st m)) eqn:Hs; [|ring]. exfalso. apply Hne. apply seqb_eq in Hs. rewrite Hs. symmetry. apply index_nth; [apply NoDup_strs|exact Hm]. }
  transitivity (E p q (fun t => Sum (length L) (fun m => w (st m) * ind (st m) t)) (st x)).
  - unfold E. rewrite (Cr_ext p (De q (fun t => Sum (length L) (fun m => w (st m) * ind (st m) t))) (fun t => Sum (length L) (fun m => w (st m) * De q (ind (st m)) t))).
    + rewrite Cr_Sum. apply Sum_ext. intros m _. rewrite Cr_scal. ring.
    + intros t _ _. rewrite De_Sum. apply Sum_ext. intros m _. apply De_scal.
  - unfold E. apply Cr_ext. intros t H1 H2. apply De_ext. intros u H3 H4. symmetry. apply H; lia.
Qed.
Theorem C68_link_tables : link_ok norb (nK n) (link_tab norb n).
Proof.
  constructor; rewrite ?tab_len.
  - intros y a i s1 g Hin. destruct (Nat.lt_ge_cases y (length L)) as [Hy|Hy].
    + rewrite tab_nth in Hin by exact Hy. apply in_flat_map in Hin as (a' & Ha & Hin). apply in_flat_map in Hin as (i' & Hi & Hin). apply in_seq in Ha, Hi.
      destruct (path a' i' (st y)) as [[h s]|] eqn:Hp; [|destruct Hin]. destruct Hin as [Hin|[]]. injection Hin as <- <- <- <-.
      destruct (index_in s L (path_in _ _ _ _ _ Hy Hp)). lia.
    + rewrite nth_overflow in Hin by (rewrite tab_len; exact Hy). destruct Hin.
  - intros a i x y Ha Hi Hx Hy. rewrite !lk_E by assumption. apply E_adj.
  - intros x y Hx Hy. rewrite (Sum_ext _ _ (fun p => E p p (ind (st y)) (st x))) by (intros; apply lk_E; assumption).
    destruct (st_ok x Hx) as [Hl Hc]. rewrite <- Hl at 1. rewrite E_num, Hc. unfold ind, delta. destruct (Nat.eqb_spec x y) as [->|Hne]; [rewrite seqb_refl; ring|].
    destruct (seqb (st x) (st y)) eqn:Hs; [|ring]. exfalso. apply Hne. apply seqb_eq in Hs. apply (proj1 (NoDup_nth L []) (NoDup_strs norb n)); assumption.
  - intros p q r s x y Hp Hq Hr Hs Hx Hy. destruct (st_ok x Hx) as [Hl Hc].
    rewrite (Sum_ext _ _ (fun m => E p q (ind (st m)) (st x) * E r s (ind (st y)) (st m))) by (intros; rewrite !lk_E by assumption; reflexivity). rewrite E_complete by assumption.
    rewrite (Sum_ext _ (fun m => lk _ r q x m * _) (fun m => E r q (ind (st m)) (st x) * E p s (ind (st y)) (st m))) by (intros; rewrite !lk_E by assumption; reflexivity). rewrite E_complete by assumption.
    rewrite !lk_E by assumption. apply E_exch; lia.
Qed.
End Tab.
End Strings.

(** ** Cases: two orbitals with one electron of each spin and one boson of occupation up to one *)
Section Cases.
Local Notation kz n := (q (Z.of_nat n) 1 : QK).
Ltac qq := first [apply eqq_ok; vm_compute; reflexivity | apply neqq; vm_compute; reflexivity].
Definition tt1 := link_tab (K := QK) 2 1.
Definition tt2 := link_tab (K := QK) 2 2.
Definition sq1 (k : nat) : QK := if Nat.eqb k 0 then 0 else 1.
Definition hf : QK := q 1 2.
Definition cc : ci (K := QK) := fun sa sb l => kz (1 + sa + 2 * sb + 3 * nth 0 l 0%nat).
Definition dd : ci (K := QK) := fun sa sb l => kz (2 + sa * sb + nth 0 l 0%nat).
Definition hh (p q : nat) : QK := kz (p + q + 1).
Definition er (p q r s : nat) : QK := kz ((p + q + 1) * (r + s + 1)).
Definition er2 (p q r s : nat) : QK := kz ((p + q + 1) * (2 * (r + s) + 1)).
Definition heb (n p q : nat) : QK := kz (2 * p + q + 1).
Definition hpp (m n : nat) : QK := kz (m + n + 3).
Local Notation dotc := (dot 1 1 tt1 tt1).
Lemma ok1 : link_ok 2 (nK 1) tt1. Proof. apply C68_link_tables. Qed.
Lemma ok2 : link_ok 2 (nK 2) tt2. Proof. apply C68_link_tables. Qed.
Lemma hh_sym p q : hh p q = hh q p. Proof. unfold hh. rewrite (Nat.add_comm p q). reflexivity. Qed.
Lemma er_herm p q r s : er p q r s = er s r q p. Proof. unfold er. rewrite (Nat.add_comm s r), (Nat.add_comm q p), (Nat.mul_comm (r + s + 1)). reflexivity. Qed.
Lemma er_pair p q r s : er p q r s = er r s p q. Proof. unfold er. rewrite (Nat.mul_comm (p + q + 1)). reflexivity. Qed.
Lemma er_tr p q r s : er p q r s = er q p s r. Proof. unfold er. rewrite (Nat.add_comm p q), (Nat.add_comm r s). reflexivity. Qed.
Lemma er2_tr p q r s : er2 p q r s = er2 q p s r. Proof. unfold er2. rewrite (Nat.add_comm p q), (Nat.add_comm r s). reflexivity. Qed.
Lemma hpp_sym m n : hpp m n = hpp n m. Proof. unfold hpp. rewrite (Nat.add_comm m n). reflexivity. Qed.
Lemma hf_ok : hf + hf = 1. Proof. qq. Qed.
Lemma ninv_ok : hf * (nK 1 + nK 1) = (1 : QK). Proof. qq. Qed.
Lemma sq1_ok : sq_ok sq1 1. Proof. intros [|[|k]] H; [qq|qq|lia]. Qed.
Definition third : QK := q 1 3.
Lemma third_ok : third * (nK 2 + nK 1) = (1 : QK). Proof. qq. Qed.

Example C68_link_tables_case : link_tab (K := ZK) 3 2 =
  [[(0, 1, 1, 1%Z); (0, 2, 2, (-1)%Z); (1, 1, 0, 1%Z); (2, 2, 0, 1%Z)]; [(0, 0, 1, 1%Z); (1, 0, 0, 1%Z); (1, 2, 2, 1%Z); (2, 2, 1, 1%Z)]; [(0, 0, 2, 1%Z); (1, 1, 2, 1%Z); (2, 0, 0, (-1)%Z); (2, 1, 1, 1%Z)]]%nat.
Proof. reflexivity. Qed.
Example C68_hermitian_case : let H := hop hf hf 1 sq1 2 1 1 tt1 tt1 hh er (heb, heb) hpp true in dotc dd (H cc) = dotc (H dd) cc /\ dotc dd (H cc) <> 0.
Proof. split; [|qq]. apply (C68_hermitian hf hf 1 sq1 2 1 1 tt1 tt1 _ _ ok1 ok1); intros; [apply hh_sym|apply er_herm|apply hpp_sym]. Qed.
Example C68_hermitian_unrestricted_case : let H := hop_u hf third 1 sq1 2 1 1 tt2 tt1 (hh, fun p q => hh p q + hh p q) (er, er2, er) (heb, heb) hpp true in
  dot 1 1 tt2 tt1 dd (H cc) = dot 1 1 tt2 tt1 (H dd) cc /\ dot 1 1 tt2 tt1 dd (H cc) <> 0.
Proof.
  split; [|qq]. apply (C68_hermitian_unrestricted hf third 1 sq1 2 1 1 tt2 tt1 _ _ ok2 ok1); intros; [|repeat split; first [apply er_herm | apply er2_tr]|apply hpp_sym].
  cbn [fst snd]. rewrite (hh_sym p). split; reflexivity.
Qed.
Example C68_energy_case : dotc cc (hop hf hf 1 sq1 2 1 1 tt1 tt1 hh er (heb, heb) hpp false cc) =
  S2 2 (fun p q => hh p q * fst (rdm12 hf 1 1 tt1 tt1 cc) p q) + hf * S4 2 (fun p q r s => er p q r s * snd (rdm12 hf 1 1 tt1 tt1 cc) p q r s) + e_bos sq1 2 1 1 tt1 tt1 (heb, heb) hpp cc /\
  e_bos sq1 2 1 1 tt1 tt1 (heb, heb) hpp cc = q 1402 1 /\ dotc cc (hop hf hf 1 sq1 2 1 1 tt1 tt1 hh er (heb, heb) hpp false cc) = q 4474 1.
Proof. split; [apply (C68_energy hf hf 1 sq1 2 1 1 tt1 tt1 _ _ ok1 ok1); intros; [exact hf_ok|exact ninv_ok|apply er_pair]|split; qq]. Qed.
Example C68_energy_unrestricted_case : let '(dma, dmb, (dmaa, dmab, dmbb)) := rdm12s_u hf 1 1 tt2 tt1 cc in
  dot 1 1 tt2 tt1 cc (hop_u hf third 1 sq1 2 1 1 tt2 tt1 (hh, hh) (er, er2, er) (heb, heb) hpp false cc) =
  S2 2 (fun p q => hh p q * dma p q) + S2 2 (fun p q => hh p q * dmb p q) + hf * S4 2 (fun p q r s => er p q r s * dmaa p q r s) + S4 2 (fun p q r s => er2 p q r s * dmab p q r s) +
  hf * S4 2 (fun p q r s => er p q r s * dmbb p q r s) + e_bos sq1 2 1 1 tt2 tt1 (heb, heb) hpp cc.
Proof.
  apply (C68_energy_unrestricted hf third 1 sq1 2 1 1 tt2 tt1 _ _ ok2 ok1); intros; [exact hf_ok|exact third_ok|repeat split; first [apply er_pair | apply er2_tr]|cbn [fst snd]; split; apply hh_sym|split; apply er_tr].
Qed.
Example C68_dm1_case : Sum 2 (fun p => rdm1 1 1 tt1 tt1 cc p p) = (nK 1 + nK 1) * dotc cc cc /\ dotc cc cc = q 156 1 /\ rdm1 1 1 tt1 tt1 cc 0 1 = q 146 1.
Proof. split; [exact (proj2 (proj2 (proj2 (C68_dm1 hf 2 1 1 tt1 tt1 _ _ ok1 ok1 cc))))|split; qq]. Qed.
Example C68_dm2_trace_case : Sum 2 (fun r => snd (rdm12 hf 1 1 tt2 tt1 cc) 0%nat 1%nat r r) = (nK 2 + nK 1 - 1) * fst (rdm12 hf 1 1 tt2 tt1 cc) 0%nat 1%nat /\ fst (rdm12 hf 1 1 tt2 tt1 cc) 0%nat 1%nat <> 0.
Proof. split; [apply (C68_dm2_trace hf 2 1 1 tt2 tt1 _ _ ok2 ok1); [exact hf_ok|lia|lia]|qq]. Qed.
Example C68_antisymmetric_unrestricted_case : let '(dmaa, dmab, dmbb) := snd (rdm12s_u hf 1 1 tt2 tt1 cc) in dmaa 0%nat 0%nat 1%nat 1%nat = - dmaa 1%nat 0%nat 0%nat 1%nat /\ dmaa 0%nat 0%nat 1%nat 1%nat <> 0.
Proof.
  pose proof (C68_antisymmetric_unrestricted hf 2 1 1 tt2 tt1 _ _ ok2 ok1 cc hf_ok) as H. cbn [snd rdm12s_u] in H |- *. split; [|qq]. specialize (H 0 0 1 1)%nat. destruct H as [H _]; try lia. exact H.
Qed.
Example C68_antisymmetric_case : let dm2 := snd (rdm12s hf 1 1 tt1 tt1 cc) in dm2 0%nat 0%nat 1%nat 3%nat = - dm2 1%nat 0%nat 0%nat 3%nat /\ dm2 0%nat 0%nat 1%nat 3%nat <> 0.
Proof. split; [refine (proj1 (C68_antisymmetric hf 2 1 1 tt1 tt1 _ _ ok1 ok1 cc 0 0 1 3 hf_ok _ _ _ _)); lia|qq]. Qed.
Example C68_spin_blocks_case : let '(dmaa, dmab, dmbb) := snd (rdm12s_u hf 1 1 tt1 tt1 cc) in snd (rdm12s hf 1 1 tt1 tt1 cc) 0%nat 2%nat 1%nat 3%nat = dmab 0%nat 1%nat 0%nat 1%nat /\ dmab 0%nat 1%nat 0%nat 1%nat <> 0.
Proof.
  pose proof (C68_spin_blocks hf 2 1 1 tt1 tt1 _ _ ok1 ok1 cc 0 1 0 1 hf_ok) as H. cbn [snd rdm12s_u] in H |- *. split; [|qq]. destruct H as (_ & H & _); try lia. exact H.
Qed.
Example C68_number_case : cre sq1 1 0 (ann sq1 1 0 cc) 1%nat 0%nat [1%nat] = nK 1 * cc 1%nat 0%nat [1%nat] /\ cc 1%nat 0%nat [1%nat] = q 5 1.
Proof. split; [|qq]. apply (C68_number sq1 1 1 0 cc 1 0 [1%nat] sq1_ok); [lia|]. split; [reflexivity|repeat constructor]. Qed.
Example C68_commutator_case : ann sq1 1 0 (cre sq1 1 0 cc) 1%nat 0%nat [1%nat] - cre sq1 1 0 (ann sq1 1 0 cc) 1%nat 0%nat [1%nat] = - nK 1 * cc 1%nat 0%nat [1%nat] /\
  ann sq1 1 0 (cre sq1 1 0 cc) 1%nat 0%nat [0%nat] - cre sq1 1 0 (ann sq1 1 0 cc) 1%nat 0%nat [0%nat] = cc 1%nat 0%nat [0%nat].
Proof. split; refine (C68_commutator sq1 1 1 0 0 cc 1 0 _ sq1_ok _ _ _); try lia; (split; [reflexivity|repeat constructor]). Qed.
Example C68_diagonal_case : contract_pp sq1 2 1 (fun m n => if Nat.eqb m n then q (Z.of_nat m + 2) 1 else 0) cc 0%nat 0%nat [1; 1]%nat = q 20 1 /\
  contract_pp_diag 2 1 (fun b : nat => if Nat.eqb b b then q (Z.of_nat b + 2) 1 else (0 : QK)) cc 0%nat 0%nat [1; 1]%nat = contract_pp sq1 2 1 (fun m n => if Nat.eqb m n then q (Z.of_nat m + 2) 1 else 0) cc 0%nat 0%nat [1; 1]%nat.
Proof.
  split; [qq|]. refine (proj2 (C68_diagonal sq1 2 1 (fun m n => if Nat.eqb m n then q (Z.of_nat m + 2) 1 else 0) cc 0 0 [1; 1]%nat sq1_ok _ _)).
  - split; [reflexivity|repeat constructor].
  - intros m n H. destruct (Nat.eqb_spec m n); [contradiction|reflexivity].
Qed.
Example C68_hdiag_case : hdiag_bos 2 1 hpp [1; 1]%nat = contract_pp sq1 2 1 hpp (unit_bos [1; 1]%nat) 0%nat 0%nat [1; 1]%nat /\ hdiag_bos 2 1 hpp [1; 1]%nat = q 8 1.
Proof. split; [|qq]. apply C68_hdiag; [exact sq1_ok|]. split; [reflexivity|repeat constructor]. Qed.
Example C68_switch_case : contract_all 1 sq1 2 1 1 tt1 tt1 (fun v => v) (heb, heb) hpp false cc 0%nat 0%nat [1%nat] =
  cc 0%nat 0%nat [1%nat] + contract_ep 1 sq1 2 1 1 tt1 tt1 (heb, heb) false cc 0%nat 0%nat [1%nat] + contract_pp sq1 1 1 hpp cc 0%nat 0%nat [1%nat] /\
  contract_ep 1 sq1 2 1 1 tt1 tt1 (heb, heb) false cc 0%nat 0%nat [1%nat] <> 0.
Proof. split; [apply C68_switch|qq]. Qed.
Example C68_vacuum_case : contract_all 1 sq1 2 1 1 tt1 tt1 (contract_2e 2 tt1 tt1 er) (fun _ _ _ => 0, fun _ _ _ => 0) hpp false (vac (fun sa sb => kz (sa + 2 * sb + 1))) 0%nat 0%nat [0%nat] =
  contract_2e 2 tt1 tt1 er (vac (fun sa sb => kz (sa + 2 * sb + 1))) 0%nat 0%nat [0%nat] /\ contract_2e 2 tt1 tt1 er (vac (fun sa sb => kz (sa + 2 * sb + 1))) 0%nat 0%nat [0%nat] <> 0.
Proof. split; [apply C68_vacuum; split; [reflexivity|repeat constructor]|qq]. Qed.
Example C68_eb_rdm_case : Sum 2 (fun p => fst (eb_rdm sq1 1 1 tt1 tt1 cc) p p 0%nat) = nK 1 * dotc (cre sq1 1 0 cc) cc /\ dotc (cre sq1 1 0 cc) cc <> 0.
Proof. split; [refine (proj1 (proj2 (C68_eb_rdm sq1 2 1 1 tt1 tt1 _ _ ok1 ok1 cc 0 _))); lia|qq]. Qed.
Example C68_zero_mode_case : dotc dd (contract_ep 1 sq1 2 1 1 tt1 tt1 (heb, heb) true cc) = dotc dd (contract_ep 1 sq1 2 1 1 tt1 tt1 (heb, heb) false cc) -
  1 * Sum 1 (fun n => Sum 2 (fun p => heb n p p + heb n p p) * (dotc dd (cre sq1 1 n cc) + dotc dd (ann sq1 1 n cc))) /\
  dotc dd (contract_ep 1 sq1 2 1 1 tt1 tt1 (heb, heb) true cc) <> dotc dd (contract_ep 1 sq1 2 1 1 tt1 tt1 (heb, heb) false cc).
Proof. split; [apply (C68_zero_mode 1 sq1 2 1 1 tt1 tt1 _ _ ok1 ok1)|qq]. Qed.
(** two electrons in two orbitals: the zero mode is not removed but changes its sign *)
Example C68_zero_mode_refuted_case : let h := (fun n a i : nat => q 3 1 * delta a i, fun n a i : nat => q 3 1 * delta a i) : (nat -> nat -> nat -> QK) * (nat -> nat -> nat -> QK) in
  dotc dd (contract_ep 1 sq1 2 1 1 tt1 tt1 h true cc) = - dotc dd (contract_ep 1 sq1 2 1 1 tt1 tt1 h false cc) /\ dotc dd (contract_ep 1 sq1 2 1 1 tt1 tt1 h true cc) <> 0.
Proof. split; [refine (proj1 (C68_zero_mode_refuted 1 sq1 2 1 1 tt1 tt1 _ _ ok1 ok1 (fun _ => q 3 1) dd cc _)); qq|qq]. Qed.
(** a Hamiltonian of which the vector below is an eigenvector with energy 2: hopping between two orbitals *)
Definition hd : nat -> nat -> QK := fun p q => if Nat.eqb p q then 0 else 1.
Definition c1 : ci (K := QK) := fun sa sb l => if Nat.eqb (nth 0 l 0%nat) 0 then q 1 2 else 0.
Definition H1 := hop hf hf 1 sq1 2 1 1 tt1 tt1 hd (fun _ _ _ _ => 0) (fun _ _ _ => 0, fun _ _ _ => 0) hpp false.
Lemma H1_herm x y : dotc x (H1 y) = dotc (H1 x) y.
Proof. apply (C68_hermitian hf hf 1 sq1 2 1 1 tt1 tt1 _ _ ok1 ok1); intros; [|reflexivity|apply hpp_sym]. unfold hd. rewrite Nat.eqb_sym. match goal with |- context [Nat.eqb ?x ?y] => destruct (Nat.eqb_spec x y); reflexivity end. Qed.
Lemma H1_eig : veq 1 1 tt1 tt1 (H1 c1) (vscal (q 2 1) c1).
Proof.
  intros sa sb l Ha Hb [Hl Hf]. change (length tt1) with 2%nat in Ha, Hb. destruct l as [|k [|? ?]]; try discriminate. inversion Hf; subst.
  destruct sa as [|[|?]]; try lia; destruct sb as [|[|?]]; try lia; destruct k as [|[|?]]; try lia; qq.
Qed.
Lemma c1_norm : dotc c1 c1 = 1. Proof. qq. Qed.
Definition valo (o : option QK) : QK := match o with Some x => x | None => q 77 1 end.
Example C68_dd_moments_case : let '(aa, ab, bb) := dd_moms 2 1 1 tt1 tt1 H1 (q 2 1) 3 3 c1 (rdm1_u 1 1 tt1 tt1 c1) (None, None) in
  forall x, aa 0%nat 0%nat 0%nat 1%nat = Some x -> x = dotc (ex_a tt1 c1 0 0) (hpow H1 (q 2 1) 3 (ex_a tt1 c1 0 1)) - 0 * (fst (rdm1_u 1 1 tt1 tt1 c1) 0%nat 0%nat * fst (rdm1_u 1 1 tt1 tt1 c1) 0%nat 1%nat) /\ x <> 0.
Proof.
  pose proof (fun p b r s => C68_dd_moments 2 1 1 tt1 tt1 H1 (q 2 1) H1_herm 3 3 c1 (rdm1_u 1 1 tt1 tt1 c1) p b r s (le_n 3)) as H. cbv beta iota zeta delta [dd_moms] in H |- *.
  intros x Hx. specialize (H 0 0 0 1)%nat. destruct H as [H _]. rewrite H in Hx. injection Hx as <-. split; [reflexivity|qq].
Qed.
Example C68_dd_symmetric_case : let '(aa, _, _) := dd_moms 2 1 1 tt1 tt1 H1 (q 2 1) 1 1 c1 (rdm1_u 1 1 tt1 tt1 c1) (None, None) in
  aa 0%nat 0%nat 0%nat 1%nat = aa 0%nat 1%nat 0%nat 0%nat /\ valo (aa 0%nat 0%nat 0%nat 1%nat) = valo (aa 0%nat 1%nat 0%nat 0%nat) /\ valo (aa 0%nat 0%nat 0%nat 1%nat) <> 0.
Proof.
  pose proof (fun p b r s => C68_dd_symmetric 2 1 1 tt1 tt1 H1 (q 2 1) H1_herm 1 1 c1 (rdm1_u 1 1 tt1 tt1 c1) (None, None) p b r s) as H. cbv beta iota zeta delta [dd_moms] in H |- *.
  split; [destruct (H 0 0 0 1)%nat as [A _]; [lia|exact A]|split; qq].
Qed.
Example C68_dd_basis_case : let '(aa, _, _) := dd_moms 2 1 1 tt1 tt1 H1 (q 2 1) 1 1 c1 (rdm1_u 1 1 tt1 tt1 c1) (Some hh, Some hh) in
  aa 0%nat 0%nat 0%nat 1%nat = Some (S4 2 (fun i a j b => hh i 0%nat * hh a 0%nat * (hh j 0%nat * hh b 1%nat) * (dotc (ex_a tt1 c1 i a) (hpow H1 (q 2 1) 1 (ex_a tt1 c1 j b)) - 0 * (fst (rdm1_u 1 1 tt1 tt1 c1) i a * fst (rdm1_u 1 1 tt1 tt1 c1) j b)))) /\
  valo (aa 0%nat 0%nat 0%nat 1%nat) <> 0.
Proof.
  pose proof (fun p b r s va vab vb => C68_dd_basis 2 1 1 tt1 tt1 H1 (q 2 1) H1_herm 1 1 c1 (rdm1_u 1 1 tt1 tt1 c1) hh hh p b r s va vab vb (le_n 1)) as H.
  pose proof (fun p b r s => C68_dd_moments 2 1 1 tt1 tt1 H1 (q 2 1) H1_herm 1 1 c1 (rdm1_u 1 1 tt1 tt1 c1) p b r s (le_n 1)) as H2.
  cbv beta iota zeta delta [dd_moms] in H, H2 |- *. split; [|qq].
  exact (proj1 (H 0 0 0 1 (fun i a j b => _) (fun i a j b => _) (fun i a j b => _) H2))%nat.
Qed.
Example C68_dd_sum_rule_case : let '(aa, ab, bb) := dd_moms 2 1 1 tt1 tt1 H1 (q 2 1) 2 0 c1 (rdm1_u 1 1 tt1 tt1 c1) (None, None) in
  (exists f g k : nat -> QK, (forall p, (p < 2)%nat -> aa p p 0%nat 0%nat = Some (f p) /\ ab p p 0%nat 0%nat = Some (g p) /\ bb p p 0%nat 0%nat = Some (k p)) /\ Sum 2 f = 0 /\ Sum 2 g = 0 /\ Sum 2 k = 0) /\ valo (aa 0%nat 0%nat 0%nat 0%nat) = q 1 4.
Proof.
  pose proof (C68_dd_sum_rule 2 1 1 tt1 tt1 _ _ ok1 ok1 H1 (q 2 1) H1_herm 2 0 c1 H1_eig c1_norm (Nat.le_0_l 2)) as H. cbv beta iota zeta delta [dd_moms] in H |- *.
  split; [exact (H 0 0 ltac:(lia) ltac:(lia))%nat|qq].
Qed.
Example C68_dd_halves_case : let '(aa, ab, bb) := dd_moms 2 1 1 tt1 tt1 H1 (q 2 1) 2 0 c1 (rdm1_u 1 1 tt1 tt1 c1) (None, None) in let '(aa', ab', bb') := dd_moms 2 1 1 tt1 tt1 H1 (q 2 1) 2 0 c1 (halves hf (rdm1 1 1 tt1 tt1 c1)) (None, None) in
  aa' 0%nat 0%nat 0%nat 0%nat = aa 0%nat 0%nat 0%nat 0%nat /\ valo (aa 0%nat 0%nat 0%nat 0%nat) = q 1 4.
Proof.
  pose proof (fun p b r s Hp => C68_dd_halves 2 1 1 tt1 tt1 hf H1 (q 2 1) 2 0 c1 p b r s hf_ok Hp) as H. cbv beta iota zeta delta [dd_moms] in H |- *. split; [|qq]. destruct (H 0 0 0 0)%nat as [A _]; try lia; [|exact A].
  intros p b Hp Hq. destruct p as [|[|?]]; try lia; destruct b as [|[|?]]; try lia; qq.
Qed.
(** one electron of spin alpha in one orbital: with half of the spin summed density matrix, as in the restricted solver, the zeroth moment is 3/4 although the density does not fluctuate *)
Definition ta1 := link_tab (K := QK) 1 1.
Definition tb0 := link_tab (K := QK) 1 0.
Theorem C68_dd_halves_refuted : exists (h : ci (K := QK) -> ci) (e0 : QK) (c : ci), (forall x y, dot 0 0 ta1 tb0 x (h y) = dot 0 0 ta1 tb0 (h x) y) /\ veq 0 0 ta1 tb0 (h c) (vscal e0 c) /\ dot 0 0 ta1 tb0 c c = 1 /\ rdm1 0 0 ta1 tb0 c 0 0 = 1 /\
  let '(aa, _, bb) := dd_moms 1 0 0 ta1 tb0 h e0 0 0 c (halves hf (rdm1 0 0 ta1 tb0 c)) (None, None) in
  let '(aa', _, bb') := dd_moms 1 0 0 ta1 tb0 h e0 0 0 c (rdm1_u 0 0 ta1 tb0 c) (None, None) in
  valo (aa 0%nat 0%nat 0%nat 0%nat) = q 3 4 /\ valo (aa' 0%nat 0%nat 0%nat 0%nat) = 0 /\ valo (bb 0%nat 0%nat 0%nat 0%nat) = q (-1) 4 /\ valo (bb' 0%nat 0%nat 0%nat 0%nat) = 0.
Proof.
  exists (hop hf 1 1 sq1 1 0 0 ta1 tb0 (fun _ _ => q 2 1) (fun _ _ _ _ => 0) (fun _ _ _ => 0, fun _ _ _ => 0) (fun _ _ => 0) false), (q 2 1), (fun _ _ _ => 1).
  split; [intros x y; apply (C68_hermitian hf 1 1 sq1 1 0 0 ta1 tb0 _ _ (C68_link_tables 1 1) (C68_link_tables 1 0)); reflexivity|].
  split; [intros sa sb l Ha Hb [Hl _]; destruct l; [|discriminate]; change (length ta1) with 1%nat in Ha; change (length tb0) with 1%nat in Hb; destruct sa; [|lia]; destruct sb; [|lia]; qq|].
  split; [qq|]. split; [qq|]. cbv beta iota zeta delta [dd_moms]. split; [qq|]. split; [qq|]. split; qq.
Qed.
End Cases.

Print Assumptions C68_link_tables. Print Assumptions C68_hermitian. Print Assumptions C68_hermitian_unrestricted. Print Assumptions C68_energy. Print Assumptions C68_energy_unrestricted. Print Assumptions C68_dm1.
Print Assumptions C68_dm2_trace. Print Assumptions C68_antisymmetric_unrestricted. Print Assumptions C68_antisymmetric. Print Assumptions C68_spin_blocks. Print Assumptions C68_number. Print Assumptions C68_commutator.
Print Assumptions C68_diagonal. Print Assumptions C68_hdiag. Print Assumptions C68_switch. Print Assumptions C68_vacuum. Print Assumptions C68_eb_rdm. Print Assumptions C68_zero_mode. Print Assumptions C68_zero_mode_refuted.
Print Assumptions C68_dd_moments. Print Assumptions C68_dd_symmetric. Print Assumptions C68_dd_basis. Print Assumptions C68_dd_sum_rule. Print Assumptions C68_dd_halves. Print Assumptions C68_dd_halves_refuted.
