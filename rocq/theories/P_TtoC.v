(** * The amplitudes obtained from CI coefficients are the logarithm of the wave function (C63)
    The exponential ansatz is stated once for all excitation ranks, in spin orbitals: [CI T I A] is the coefficient of exp(T) for the
    excitation from the spin orbitals I to the spin orbitals A, obtained by choosing the amplitude the first hole belongs to and
    recursing on the rest, with the sign of the two rearrangements.  The formulas of t_to_c.py are never mentioned in it. *)
From Coq Require Import List Bool Arith Lia Ring Field QArith Qcanon Permutation.
From Verif Require Import Alg M_Wf M_TtoC.
Import ListNotations.
Open Scope nat_scope.

(** ** The exponential ansatz *)
(** all ways of choosing a sublist: (sign of moving the chosen ones to the front, chosen, others) *)
Fixpoint splits {X} (l : list X) : list (bool * (list X * list X)) :=
  match l with
  | [] => [(false, ([], []))]
  | x :: r => map (fun v => (fst v, (x :: fst (snd v), snd (snd v)))) (splits r)
              ++ map (fun v => (xorb (fst v) (Nat.odd (length (fst (snd v)))), (fst (snd v), x :: snd (snd v)))) (splits r)
  end.
Definition sgn {K : cring} (s : bool) : K := (if s then - (1) else 1)%K.

Section Spec.
Context {K : cring} {X : Type}.
Fixpoint CIn (T : list X -> list X -> K) (n : nat) (I A : list X) : K :=   (* at most n amplitudes *)
  match I, n with
  | [], _ => match A with [] => 1%K | _ => 0%K end
  | _ :: _, O => 0%K
  | i :: r, S n =>
    Lsum (splits r) (fun u => Lsum (splits A) (fun v =>
      if length (fst (snd v)) =? S (length (fst (snd u)))
      then (sgn (xorb (fst u) (fst v)) * T (i :: fst (snd u)) (fst (snd v)) * CIn T n (snd (snd u)) (snd (snd v)))%K else 0%K))
  end.
Definition CI (T : list X -> list X -> K) (I A : list X) : K := CIn T (length I) I A.
End Spec.

(** ** Polynomials in the amplitudes *)
Definition atom := (list nat * list nat)%type.
Definition mono := (nat * nat * list atom)%type.
Definition poly := list mono.
Fixpoint eqn (a b : list nat) : bool := match a, b with [], [] => true | x :: a, y :: b => (x =? y) && eqn a b | _, _ => false end.
Fixpoint len_le (a b : list nat) : comparison :=
  match a, b with [], [] => Eq | [], _ => Lt | _, [] => Gt | x :: a, y :: b => match Nat.compare x y with Eq => len_le a b | c => c end end.
Definition acmp (a b : atom) : comparison :=
  match Nat.compare (length (fst a)) (length (fst b)) with
  | Eq => match len_le (fst a) (fst b) with Eq => len_le (snd a) (snd b) | c => c end | c => c end.
Fixpoint ains (a : atom) (l : list atom) : list atom :=
  match l with [] => [a] | b :: r => match acmp a b with Gt => b :: ains a r | _ => a :: l end end.
Definition asort (l : list atom) : list atom := fold_right ains [] l.
Fixpoint eqas (a b : list atom) : bool :=
  match a, b with [], [] => true | x :: a, y :: b => eqn (fst x) (fst y) && eqn (snd x) (snd y) && eqas a b | _, _ => false end.
Definition pone : poly := [(1, 0, [])].
Definition popp (p : poly) : poly := map (fun m => (snd (fst m), fst (fst m), snd m)) p.
Definition mmul (m k : mono) : mono :=
  (fst (fst m) * fst (fst k) + snd (fst m) * snd (fst k), fst (fst m) * snd (fst k) + snd (fst m) * fst (fst k), snd m ++ snd k).
Definition pmul (p q : poly) : poly := flat_map (fun m => map (mmul m) q) p.
Fixpoint minsert (m : mono) (p : poly) : poly :=
  match p with
  | [] => [m]
  | k :: r => if eqas (snd m) (snd k)
              then (let c := (fst (fst m) + fst (fst k), snd (fst m) + snd (fst k), snd k) in if fst (fst c) =? snd (fst c) then r else c :: r)
              else k :: minsert m r
  end.
Definition collect (p : poly) : poly := fold_right (fun m => minsert (fst m, asort (snd m))) [] p.
Definition psgn (s : bool) (p : poly) : poly := if s then popp p else p.
Definition psum {A} (l : list A) (f : A -> poly) : poly := flat_map f l.

Inductive ex := EL (I A : list nat) | EC (I A : list nat) | E0 | E1 | EA (a b : ex) | EM (a b : ex) | ES (a b : ex) | EO (a : ex).
Section Nf.
Variable leaf : list nat -> list nat -> poly.
Fixpoint pCIn (n : nat) (I A : list nat) : poly :=
  match I, n with
  | [], _ => match A with [] => pone | _ => [] end
  | _ :: _, O => []
  | i :: r, S n =>
    psum (splits r) (fun u => psum (splits A) (fun v =>
      if length (fst (snd v)) =? S (length (fst (snd u)))
      then psgn (xorb (fst u) (fst v)) (pmul (leaf (i :: fst (snd u)) (fst (snd v))) (pCIn n (snd (snd u)) (snd (snd v)))) else []))
  end.
Fixpoint nf (e : ex) : poly :=
  match e with
  | EL x y => leaf x y | EC x y => pCIn (length x) x y | E0 => [] | E1 => pone
  | EA a b => nf a ++ nf b | EM a b => pmul (nf a) (nf b) | ES a b => nf a ++ popp (nf b) | EO a => popp (nf a)
  end.
Definition check (a b : ex) : bool := match collect (nf (ES a b)) with [] => true | _ => false end.
End Nf.

Section Sound.
Context {K : cring}.
Add Ring Kr : (rth K).
Open Scope K_scope.
Variable da : atom -> K.
Fixpoint dprod (l : list atom) : K := match l with [] => 1 | a :: l => da a * dprod l end.
Definition dm (m : mono) : K := (nK (fst (fst m)) - nK (snd (fst m))) * dprod (snd m).
Definition dp (p : poly) : K := Lsum p dm.

Lemma dp_app p q : dp (p ++ q) = dp p + dp q.
Proof. apply Lsum_app. Qed.
Lemma dp_opp p : dp (popp p) = - dp p.
Proof. unfold dp, popp. induction p as [|m p IH]; simpl; [ring|]. rewrite IH. unfold dm; simpl. ring. Qed.
Lemma dprod_app a b : dprod (a ++ b) = dprod a * dprod b.
Proof. induction a as [|x a IH]; simpl; [ring|]. rewrite IH. ring. Qed.
Lemma dp_cons m p : dp (m :: p) = dm m + dp p. Proof. reflexivity. Qed.
Lemma dm_mul m k : dm (mmul m k) = dm m * dm k.
Proof. unfold dm, mmul; simpl. rewrite !nK_add, !nK_mul, dprod_app. ring. Qed.
Lemma dp_mul p q : dp (pmul p q) = dp p * dp q.
Proof.
  unfold pmul. induction p as [|m p IH]; simpl; [unfold dp; simpl; ring|].
  rewrite dp_app, IH, dp_cons.
  assert (E : dp (map (mmul m) q) = dm m * dp q).
  { clear IH. induction q as [|k q IH]; simpl; [unfold dp; simpl; ring|]. rewrite !dp_cons, IH, dm_mul. ring. }
  rewrite E. ring.
Qed.
Lemma dp_one : dp pone = 1.
Proof. unfold dp, pone, dm; simpl. ring. Qed.
Lemma dp_sgn s p : dp (psgn s p) = sgn s * dp p.
Proof. destruct s; simpl; [rewrite dp_opp|]; unfold sgn; ring. Qed.
Lemma dp_sum {A} (l : list A) f : dp (psum l f) = Lsum l (fun x => dp (f x)).
Proof. unfold psum. induction l as [|x l IH]; simpl; [reflexivity|]. rewrite dp_app, IH. reflexivity. Qed.
Lemma eqn_eq a : forall b, eqn a b = true -> a = b.
Proof. induction a as [|x a IH]; intros [|y b]; simpl; try discriminate; auto. intros H. apply andb_true_iff in H. destruct H as [H1 H2]. apply Nat.eqb_eq in H1. rewrite (IH _ H2), H1. auto. Qed.
Lemma eqas_eq a : forall b, eqas a b = true -> a = b.
Proof.
  induction a as [|x a IH]; intros [|y b]; simpl; try discriminate; auto. intros H. apply andb_true_iff in H. destruct H as [H H2].
  apply andb_true_iff in H. destruct H as [H H1]. apply eqn_eq in H. apply eqn_eq in H1. rewrite (IH _ H2). destruct x, y; simpl in *; subst; auto.
Qed.
Lemma minsert_ok m p : dp (minsert m p) = dm m + dp p.
Proof.
  induction p as [|k p IH]; simpl; [reflexivity|]. destruct (eqas (snd m) (snd k)) eqn:E.
  - apply eqas_eq in E. set (c := (_, _, snd k)). assert (Hc : dm c = dm m + dm k).
    { unfold dm, c; simpl. rewrite E, !nK_add. ring. }
    destruct (_ =? _) eqn:Z.
    + apply Nat.eqb_eq in Z. assert (Z0 : dm c = 0). { unfold dm, c; simpl fst; simpl snd. rewrite Z. ring. }
      rewrite dp_cons. transitivity (dm c + dp p); [rewrite Z0; ring|rewrite Hc; ring].
    + rewrite !dp_cons, Hc. ring.
  - rewrite !dp_cons, IH. ring.
Qed.
Lemma ains_ok a l : dprod (ains a l) = da a * dprod l.
Proof. induction l as [|b l IH]; simpl; [reflexivity|]. destruct (acmp a b); simpl; try reflexivity. rewrite IH. ring. Qed.
Lemma asort_ok l : dprod (asort l) = dprod l.
Proof. induction l as [|a l IH]; simpl; [reflexivity|]. rewrite ains_ok, IH. reflexivity. Qed.
Lemma collect_ok p : dp (collect p) = dp p.
Proof. induction p as [|m p IH]; simpl; [reflexivity|]. rewrite minsert_ok, IH, dp_cons. unfold dm; simpl. rewrite asort_ok. reflexivity. Qed.

Variable X : Type.
Variable T : list X -> list X -> K.
Variable leaf : list nat -> list nat -> poly.
Variables eo ev : nat -> X.
Hypothesis leaf_ok : forall I A, dp (leaf I A) = T (map eo I) (map ev A).

Lemma splits_map {Y Z} (f : Y -> Z) l : splits (map f l) = map (fun v => (fst v, (map f (fst (snd v)), map f (snd (snd v))))) (splits l).
Proof.
  induction l as [|x l IH]; simpl; [reflexivity|]. rewrite IH, !map_map, map_app, !map_map. f_equal. apply map_ext.
  intros v. simpl. rewrite map_length. reflexivity.
Qed.
Lemma pCIn_ok n : forall I A, dp (pCIn leaf n I A) = CIn T n (map eo I) (map ev A).
Proof.
  assert (B : forall A, dp match A with [] => pone | _ :: _ => [] end = match map ev A with [] => 1 | _ :: _ => 0 end).
  { intros [|a A]; simpl; [apply dp_one|reflexivity]. }
  induction n as [|n IH]; intros J A; destruct J as [|i J]; simpl; try apply B; [reflexivity|].
  rewrite dp_sum, splits_map. rewrite Lsum_map. apply Lsum_ext. intros u _. rewrite dp_sum, splits_map, Lsum_map. apply Lsum_ext. intros v _.
  simpl. rewrite !map_length. destruct (_ =? _); [|reflexivity].
  rewrite dp_sgn, dp_mul, leaf_ok, IH. simpl. ring.
Qed.

Fixpoint den (e : ex) : K :=
  match e with
  | EL x y => T (map eo x) (map ev y) | EC x y => CI T (map eo x) (map ev y) | E0 => 0 | E1 => 1
  | EA a b => den a + den b | EM a b => den a * den b | ES a b => den a - den b | EO a => - den a
  end.
Lemma nf_ok e : dp (nf leaf e) = den e.
Proof.
  induction e; simpl; rewrite ?dp_app, ?dp_mul, ?dp_opp, ?IHe, ?IHe1, ?IHe2; auto; try ring.
  - rewrite pCIn_ok. unfold CI. rewrite map_length. reflexivity.
  - apply dp_one.
Qed.
Theorem check_sound a b : check leaf a b = true -> den a = den b.
Proof.
  unfold check. intros H. destruct (collect (nf leaf (ES a b))) as [|m p] eqn:E; [|discriminate].
  assert (Z : den (ES a b) = 0). { rewrite <- nf_ok, <- collect_ok, E. reflexivity. }
  simpl in Z. transitivity (den b + (den a - den b)); [ring|rewrite Z; ring].
Qed.
End Sound.

(** ** Spin orbitals, blocks, antisymmetry *)
Notation so := (bool * nat)%type.
Section Blocks.
Context {K : cring}.
Variable T : list so -> list so -> K.
Definition bl1 (s : bool) : nat -> nat -> K := fun i a => T [(s, i)] [(s, a)].
Definition bl2 (s t : bool) : nat -> nat -> nat -> nat -> K := fun i j a b => T [(s, i); (t, j)] [(s, a); (t, b)].
Definition bl3 (s t u : bool) : ten6 K := fun i j k a b c => T [(s, i); (t, j); (u, k)] [(s, a); (t, b); (u, c)].
Definition bl4 (s t u v : bool) : ten8 K :=
  fun i j k l a b c d => T [(s, i); (t, j); (u, k); (v, l)] [(s, a); (t, b); (u, c); (v, d)].
(** amplitudes change sign when two neighbouring holes or two neighbouring particles are exchanged, and conserve spin *)
Definition antisymmetric : Prop :=
  (forall p x y q A, T (p ++ x :: y :: q) A = (- T (p ++ y :: x :: q) A)%K) /\
  (forall p x y q J, T J (p ++ x :: y :: q) = (- T J (p ++ y :: x :: q))%K).
Definition spin_conserving : Prop := forall J A, length (filter fst J) <> length (filter fst A) -> T J A = 0%K.
End Blocks.

Fixpoint insS (x : nat) (l : list nat) : bool * list nat :=
  match l with [] => (false, [x]) | y :: r => if y <? x then (let v := insS x r in (negb (fst v), y :: snd v)) else (false, x :: l) end.
Fixpoint sortS (l : list nat) : bool * list nat :=
  match l with [] => (false, []) | x :: r => let v := sortS r in let w := insS x (snd v) in (xorb (fst v) (fst w), snd w) end.
Definition ups (sp : nat -> bool) (l : list nat) : nat := length (filter sp l).
Definition leafU (so_ sv : nat -> bool) (J A : list nat) : poly :=
  if ups so_ J =? ups sv A then psgn (xorb (fst (sortS J)) (fst (sortS A))) [(1, 0, [(snd (sortS J), snd (sortS A))])] else [].

Section LeafU.
Context {K : cring}.
Add Ring Kr2 : (rth K).
Open Scope K_scope.
Lemma sgn_neg s : sgn (negb s) = - sgn s :> K. Proof. destruct s; unfold sgn; simpl; ring. Qed.
Lemma sgn_xor s t : sgn (xorb s t) = sgn s * sgn t :> K. Proof. destruct s, t; unfold sgn; simpl; ring. Qed.
Lemma insS_ok (X : Type) (f : list X -> K) (e : nat -> X) : (forall p x y q, f (p ++ x :: y :: q) = - f (p ++ y :: x :: q)) ->
  forall l p x, f (p ++ e x :: map e l) = sgn (fst (insS x l)) * f (p ++ map e (snd (insS x l))).
Proof.
  intros H. induction l as [|y l IH]; intros p x; simpl; [unfold sgn; simpl; ring|].
  destruct (y <? x)%nat; simpl; [|unfold sgn; simpl; ring].
  rewrite H, sgn_neg. pose proof (IH (p ++ [e y]) x) as E. rewrite <- !app_assoc in E. simpl in E. rewrite E. ring.
Qed.
Lemma sortS_ok (X : Type) (f : list X -> K) (e : nat -> X) : (forall p x y q, f (p ++ x :: y :: q) = - f (p ++ y :: x :: q)) ->
  forall l p, f (p ++ map e l) = sgn (fst (sortS l)) * f (p ++ map e (snd (sortS l))).
Proof.
  intros H. induction l as [|x l IH]; intros p; simpl; [unfold sgn; simpl; ring|].
  pose proof (IH (p ++ [e x])) as E. rewrite <- !app_assoc in E. simpl in E. rewrite E, (insS_ok X f e H), sgn_xor. ring.
Qed.
Variable T : list so -> list so -> K.
Hypothesis HT : antisymmetric T.
Hypothesis HS : spin_conserving T.
Variables eo ev : nat -> so.
Lemma ups_ok (e : nat -> so) l : length (filter fst (map e l)) = ups (fun p => fst (e p)) l.
Proof. unfold ups. induction l as [|x l IH]; simpl; auto. destruct (fst (e x)); simpl; rewrite IH; auto. Qed.
Lemma leafU_ok J A : dp (fun a => T (map eo (fst a)) (map ev (snd a))) (leafU (fun p => fst (eo p)) (fun p => fst (ev p)) J A) = T (map eo J) (map ev A).
Proof.
  unfold leafU. destruct (_ =? _)%nat eqn:E.
  - rewrite dp_sgn, sgn_xor. unfold dp, dm; simpl.
    pose proof (sortS_ok so (fun J => T J (map ev A)) eo (fun p x y q => Logic.proj1 HT p x y q _) J []) as E1. simpl in E1.
    pose proof (sortS_ok so (fun A => T (map eo (snd (sortS J))) A) ev (fun p x y q => Logic.proj2 HT p x y q _) A []) as E2. simpl in E2.
    rewrite E1, E2. ring.
  - apply Nat.eqb_neq in E. symmetry. apply HS. rewrite !ups_ok. auto.
Qed.
End LeafU.

Ltac t_pos x l := lazymatch l with x :: _ => constr:(O) | _ :: ?r => let p := t_pos x r in constr:(S p) end.
Ltac t_lab J l := lazymatch J with [] => constr:(@nil nat) | ?x :: ?r => let p := t_pos x l in let q := t_lab r l in constr:(p :: q) end.
Ltac t_reify T lo lv e :=
  lazymatch e with
  | radd ?a ?b => let a := t_reify T lo lv a in let b := t_reify T lo lv b in constr:(EA a b)
  | rmul ?a ?b => let a := t_reify T lo lv a in let b := t_reify T lo lv b in constr:(EM a b)
  | rsub ?a ?b => let a := t_reify T lo lv a in let b := t_reify T lo lv b in constr:(ES a b)
  | ropp ?a => let a := t_reify T lo lv a in constr:(EO a)
  | T ?J ?A => let J := t_lab J lo in let A := t_lab A lv in constr:(EL J A)
  | CI T ?J ?A => let J := t_lab J lo in let A := t_lab A lv in constr:(EC J A)
  | r0 => constr:(E0) | r1 => constr:(E1)
  end.
(** decides an equation between polynomials in entries of T and of exp(T) *)
Ltac clusterU T HT HS lo lv :=
  lazymatch goal with |- @eq (car ?K) ?a ?b =>
    let ea := t_reify T lo lv a in let eb := t_reify T lo lv b in
    let eo := constr:(fun p => nth p lo (true, O)) in let ev := constr:(fun p => nth p lv (true, O)) in
    change (@den K so T eo ev ea = @den K so T eo ev eb);
    apply (check_sound _ so T _ eo ev (leafU_ok T HT HS eo ev)); vm_compute; reflexivity
  end.

Section Unrestricted.
Context {K : cring}.
Variable T : list so -> list so -> K.
Hypothesis HT : antisymmetric T.
Hypothesis HS : spin_conserving T.
Notation al := true. Notation be := false.
Ltac go3 s t u i j k a b c := clusterU T HT HS [(s, i); (t, j); (u, k)] [(s, a); (t, b); (u, c)].
Ltac go4 s t u v i j k l a b c d := clusterU T HT HS [(s, i); (t, j); (u, k); (v, l)] [(s, a); (t, b); (u, c); (v, d)].
Lemma u2_aa i j a b : t2_uhf_aaaa (bl1 T al) (bl2 (CI T) al al) i j a b = bl2 T al al i j a b.
Proof. cbv beta zeta delta [t2_uhf_aaaa bl1 bl2]. clusterU T HT HS [(al, i); (al, j)] [(al, a); (al, b)]. Qed.
Lemma u2_ab i j a b : t2_uhf_abab (bl1 T al) (bl1 T be) (bl2 (CI T) al be) i j a b = bl2 T al be i j a b.
Proof. cbv beta zeta delta [t2_uhf_abab bl1 bl2]. clusterU T HT HS [(al, i); (be, j)] [(al, a); (be, b)]. Qed.
Lemma u2_bb i j a b : t2_uhf_bbbb (bl1 T be) (bl2 (CI T) be be) i j a b = bl2 T be be i j a b.
Proof. cbv beta zeta delta [t2_uhf_bbbb bl1 bl2]. clusterU T HT HS [(be, i); (be, j)] [(be, a); (be, b)]. Qed.
Lemma u3_aaa i j k a b c : t3_uhf_aaaaaa (bl1 T al) (bl2 T al al) (bl3 (CI T) al al al) i j k a b c = bl3 T al al al i j k a b c.
Proof. cbv beta zeta delta [t3_uhf_aaaaaa bl1 bl2 bl3]. go3 al al al i j k a b c. Qed.
Lemma u3_aba i j k a b c : t3_uhf_abaaba (bl1 T al) (bl1 T be) (bl2 T al al) (bl2 T al be) (bl3 (CI T) al be al) i j k a b c = bl3 T al be al i j k a b c.
Proof. cbv beta zeta delta [t3_uhf_abaaba bl1 bl2 bl3]. go3 al be al i j k a b c. Qed.
Lemma u3_bab i j k a b c : t3_uhf_babbab (bl1 T al) (bl1 T be) (bl2 T al be) (bl2 T be be) (bl3 (CI T) be al be) i j k a b c = bl3 T be al be i j k a b c.
Proof. cbv beta zeta delta [t3_uhf_babbab bl1 bl2 bl3]. go3 be al be i j k a b c. Qed.
Lemma u3_bbb i j k a b c : t3_uhf_bbbbbb (bl1 T be) (bl2 T be be) (bl3 (CI T) be be be) i j k a b c = bl3 T be be be i j k a b c.
Proof. cbv beta zeta delta [t3_uhf_bbbbbb bl1 bl2 bl3]. go3 be be be i j k a b c. Qed.
Lemma u4_aaaa i j k l a b c d :
  t4_uhf_aaaaaaaa (bl1 T al) (bl2 T al al) (bl3 T al al al) (bl4 (CI T) al al al al) i j k l a b c d = bl4 T al al al al i j k l a b c d.
Proof. cbv beta zeta delta [t4_uhf_aaaaaaaa bl1 bl2 bl3 bl4]. go4 al al al al i j k l a b c d. Qed.
Lemma u4_aaab i j k l a b c d :
  t4_uhf_aaabaaab (bl1 T al) (bl1 T be) (bl2 T al al) (bl2 T al be) (bl3 T al al al) (bl3 T al be al) (bl4 (CI T) al al al be) i j k l a b c d = bl4 T al al al be i j k l a b c d.
Proof. cbv beta zeta delta [t4_uhf_aaabaaab bl1 bl2 bl3 bl4]. go4 al al al be i j k l a b c d. Qed.
Lemma u4_abab i j k l a b c d :
  t4_uhf_abababab (bl1 T al) (bl1 T be) (bl2 T al al) (bl2 T al be) (bl2 T be be) (bl3 T al be al) (bl3 T be al be) (bl4 (CI T) al be al be) i j k l a b c d = bl4 T al be al be i j k l a b c d.
Proof. cbv beta zeta delta [t4_uhf_abababab bl1 bl2 bl3 bl4]. go4 al be al be i j k l a b c d. Qed.
Lemma u4_abbb i j k l a b c d :
  t4_uhf_abbbabbb (bl1 T al) (bl1 T be) (bl2 T al be) (bl2 T be be) (bl3 T be al be) (bl3 T be be be) (bl4 (CI T) al be be be) i j k l a b c d = bl4 T al be be be i j k l a b c d.
Proof. cbv beta zeta delta [t4_uhf_abbbabbb bl1 bl2 bl3 bl4]. go4 al be be be i j k l a b c d. Qed.
Lemma u4_bbbb i j k l a b c d :
  t4_uhf_bbbbbbbb (bl1 T be) (bl2 T be be) (bl3 T be be be) (bl4 (CI T) be be be be) i j k l a b c d = bl4 T be be be be i j k l a b c d.
Proof. cbv beta zeta delta [t4_uhf_bbbbbbbb bl1 bl2 bl3 bl4]. go4 be be be be i j k l a b c d. Qed.
End Unrestricted.

(** ** Closed shells: amplitudes of spatial orbitals *)
(** all rearrangements with their sign *)
Fixpoint inserts {X} (x : X) (s : bool) (l : list X) : list (bool * list X) :=
  (s, x :: l) :: match l with [] => [] | y :: r => map (fun v => (fst v, y :: snd v)) (inserts x (negb s) r) end.
Fixpoint perms {X} (l : list X) : list (bool * list X) :=
  match l with [] => [(false, [])] | x :: r => flat_map (fun v => inserts x (fst v) (snd v)) (perms r) end.
Fixpoint eqspin (a b : list bool) : bool := match a, b with [], [] => true | x :: a, y :: b => Bool.eqb x y && eqspin a b | _, _ => false end.
(** spin-orbital amplitudes of a closed-shell singlet: the holes are connected to the particles of the same spin in all ways;
    [s] are the amplitudes of the spatial orbitals, for the list of (hole, particle) pairs *)
Definition adapt {K : cring} (s : list (nat * nat) -> K) (J A : list so) : K :=
  Lsum (perms A) (fun v => if eqspin (map fst J) (map fst (snd v)) then (sgn (fst v) * s (combine (map snd J) (map snd (snd v))))%K else 0%K).
Definition pair_symmetric {K : cring} (s : list (nat * nat) -> K) : Prop := forall l l', Permutation l l' -> s l = s l'.

Definition plt (a b : nat * nat) : bool := (fst a <? fst b) || ((fst a =? fst b) && (snd a <=? snd b)).
Fixpoint pins (a : nat * nat) (l : list (nat * nat)) : list (nat * nat) :=
  match l with [] => [a] | b :: r => if plt a b then a :: l else b :: pins a r end.
Definition psort (l : list (nat * nat)) : list (nat * nat) := fold_right pins [] l.
Definition leafR (so_ sv : nat -> bool) (ro rv : nat -> nat) (J A : list nat) : poly :=
  psum (perms A) (fun v => if eqspin (map so_ J) (map sv (snd v)) then psgn (fst v) [(1, 0, [List.split (psort (combine (map ro J) (map rv (snd v))))])] else []).

Section LeafR.
Context {K : cring}.
Add Ring Kr3 : (rth K).
Open Scope K_scope.
Variable s : list (nat * nat) -> K.
Hypothesis Hs : pair_symmetric s.
Variables eo ev : nat -> so.
Variables ro rv : nat -> nat.
Hypothesis Hro : forall p, snd (eo (ro p)) = snd (eo p).
Hypothesis Hrv : forall p, snd (ev (rv p)) = snd (ev p).
Lemma pins_perm a l : Permutation (pins a l) (a :: l).
Proof. induction l as [|b l IH]; simpl; auto. destruct (plt a b); auto. apply perm_trans with (b :: a :: l); [auto|constructor]. Qed.
Lemma psort_perm l : Permutation (psort l) l.
Proof. induction l as [|a l IH]; simpl; auto. rewrite pins_perm. auto. Qed.
Lemma inserts_map {X Y} (f : X -> Y) x : forall l sg, inserts (f x) sg (map f l) = map (fun v => (fst v, map f (snd v))) (inserts x sg l).
Proof. induction l as [|y l IH]; intros sg; simpl; [reflexivity|]. rewrite IH, !map_map. reflexivity. Qed.
Lemma flat_map_map' {X Y Z} (f : X -> Y) (g : Y -> list Z) l : flat_map g (map f l) = flat_map (fun x => g (f x)) l.
Proof. induction l; simpl; congruence. Qed.
Lemma map_flat_map' {X Y Z} (f : Y -> Z) (g : X -> list Y) l : map f (flat_map g l) = flat_map (fun x => map f (g x)) l.
Proof. induction l; simpl; auto. rewrite map_app. congruence. Qed.
Lemma perms_map {X Y} (f : X -> Y) l : perms (map f l) = map (fun v => (fst v, map f (snd v))) (perms l).
Proof.
  induction l as [|x l IH]; simpl; [reflexivity|]. rewrite IH, flat_map_map', map_flat_map'. apply flat_map_ext. intros v. apply inserts_map.
Qed.
Lemma combine_map2 {X Y Z W} (f : X -> Z) (g : Y -> W) : forall a b, combine (map f a) (map g b) = map (fun p => (f (fst p), g (snd p))) (combine a b).
Proof. induction a as [|x a IH]; intros [|y b]; simpl; auto. rewrite IH. auto. Qed.
Lemma leafR_ok J A : dp (fun a => s (combine (map (fun p => snd (eo p)) (fst a)) (map (fun p => snd (ev p)) (snd a)))) (leafR (fun p => fst (eo p)) (fun p => fst (ev p)) ro rv J A)
  = adapt s (map eo J) (map ev A).
Proof.
  unfold leafR, adapt. rewrite dp_sum, perms_map, Lsum_map. apply Lsum_ext. intros v _. simpl. rewrite !map_map.
  destruct (eqspin _ _); [|reflexivity]. rewrite dp_sgn. unfold dp, dm; simpl.
  set (l := combine (map ro J) (map rv (snd v))). transitivity (sgn (fst v) * s (combine (map (fun p => snd (eo p)) (fst (List.split (psort l)))) (map (fun p => snd (ev p)) (snd (List.split (psort l)))))); [ring|].
  f_equal. transitivity (s (map (fun p => (snd (eo (fst p)), snd (ev (snd p)))) l)).
  2:{ unfold l. rewrite !combine_map2, map_map. simpl. f_equal. apply map_ext. intros x. rewrite Hro, Hrv. reflexivity. }
  rewrite combine_map2. apply Hs. apply Permutation_map.
  destruct (List.split (psort l)) as [a b] eqn:E. simpl. pose proof (split_combine (psort l)) as E2. rewrite E in E2. rewrite (E2 _ _ eq_refl). apply psort_perm.
Qed.
End LeafR.
Definition flips (l : list so) : list so := l ++ map (fun x => (negb (fst x), snd x)) l.
Definition red (n p : nat) : nat := if p <? n then p else if p <? n + n then p - n else p.
Lemma red_ok l p : snd (nth (red (length l) p) (flips l) (true, O)) = snd (nth p (flips l) (true, O)).
Proof.
  unfold red, flips. destruct (p <? length l) eqn:E; auto. destruct (p <? length l + length l) eqn:E2; auto.
  apply Nat.ltb_ge in E. apply Nat.ltb_lt in E2. rewrite app_nth1 by lia. rewrite app_nth2 by lia.
  change (true, O) with ((fun x : so => (negb (fst x), snd x)) (false, O)) at 2. rewrite map_nth. simpl.
  rewrite (nth_indep l (true, O) (false, O)) by lia. reflexivity.
Qed.
Ltac clusterR s Hs lo lv :=
  lazymatch goal with |- @eq (car ?K) ?a ?b =>
    let fo := eval cbv in (flips lo) in let fv := eval cbv in (flips lv) in
    let ea := t_reify (adapt s) fo fv a in let eb := t_reify (adapt s) fo fv b in
    let eo := constr:(fun p => nth p (flips lo) (true, O)) in let ev := constr:(fun p => nth p (flips lv) (true, O)) in
    change (@den K so (adapt s) eo ev ea = @den K so (adapt s) eo ev eb);
    apply (check_sound _ so (adapt s) _ eo ev (leafR_ok s Hs eo ev (red (length lo)) (red (length lv)) (red_ok lo) (red_ok lv))); vm_compute; reflexivity
  end.
Section Restricted.
Context {K : cring}.
Variable s : list (nat * nat) -> K.
Hypothesis Hs : pair_symmetric s.
Notation T := (adapt s).
Notation al := true. Notation be := false.
Lemma r2_ab i j a b : t2_rhf (bl1 T al) (bl2 (CI T) al be) i j a b = bl2 T al be i j a b.
Proof. cbv beta zeta delta [t2_rhf bl1 bl2]. clusterR s Hs [(al, i); (be, j)] [(al, a); (be, b)]. Qed.
Lemma r3_aba i j k a b c : t3_rhf (bl1 T al) (bl2 T al be) (bl3 (CI T) al be al) i j k a b c = bl3 T al be al i j k a b c.
Proof. cbv beta zeta delta [t3_rhf bl1 bl2 bl3]. clusterR s Hs [(al, i); (be, j); (al, k)] [(al, a); (be, b); (al, c)]. Qed.
Lemma r4_abab i j k l a b c d :
  t4_rhf_abababab (bl1 T al) (bl2 T al be) (bl3 T al be al) (bl4 (CI T) al be al be) i j k l a b c d = bl4 T al be al be i j k l a b c d.
Proof. cbv beta zeta delta [t4_rhf_abababab bl1 bl2 bl3 bl4]. clusterR s Hs [(al, i); (be, j); (al, k); (be, l)] [(al, a); (be, b); (al, c); (be, d)]. Qed.
Lemma r4_abaa i j k l a b c d :
  t4_rhf_abaaabaa (bl1 T al) (bl2 T al be) (bl3 T al be al) (bl4 (CI T) al be al al) i j k l a b c d = bl4 T al be al al i j k l a b c d.
Proof. cbv beta zeta delta [t4_rhf_abaaabaa bl1 bl2 bl3 bl4]. clusterR s Hs [(al, i); (be, j); (al, k); (al, l)] [(al, a); (be, b); (al, c); (al, d)]. Qed.
End Restricted.

(** ** The formulas only depend on the entries of their arguments *)
Section Ext.
Context {K : cring}.
Notation mat := (nat -> nat -> K). Notation ten := (nat -> nat -> nat -> nat -> K).
Notation ten6 := (ten6 K). Notation ten8 := (ten8 K).
Lemma t1_uhf_aa_ext (x0 y0 : mat) i a :
  (forall i a, x0 i a = y0 i a) ->
  t1_uhf_aa x0 i a = t1_uhf_aa y0 i a.
Proof. intros H0. cbv beta zeta delta [t1_uhf_aa]. rewrite !H0. reflexivity. Qed.
Lemma t1_uhf_bb_ext (x0 y0 : mat) i a :
  (forall i a, x0 i a = y0 i a) ->
  t1_uhf_bb x0 i a = t1_uhf_bb y0 i a.
Proof. intros H0. cbv beta zeta delta [t1_uhf_bb]. rewrite !H0. reflexivity. Qed.
Lemma t1_rhf_ext (x0 y0 : mat) i a :
  (forall i a, x0 i a = y0 i a) ->
  t1_rhf x0 i a = t1_rhf y0 i a.
Proof. intros H0. cbv beta zeta delta [t1_rhf]. rewrite !H0. reflexivity. Qed.
Lemma t2_uhf_aaaa_ext (x0 y0 : mat) (x1 y1 : ten) i j a b :
  (forall i a, x0 i a = y0 i a) ->
  (forall i j a b, x1 i j a b = y1 i j a b) ->
  t2_uhf_aaaa x0 x1 i j a b = t2_uhf_aaaa y0 y1 i j a b.
Proof. intros H0 H1. cbv beta zeta delta [t2_uhf_aaaa]. rewrite !H0, !H1. reflexivity. Qed.
Lemma t2_uhf_abab_ext (x0 y0 : mat) (x1 y1 : mat) (x2 y2 : ten) i j a b :
  (forall i a, x0 i a = y0 i a) ->
  (forall i a, x1 i a = y1 i a) ->
  (forall i j a b, x2 i j a b = y2 i j a b) ->
  t2_uhf_abab x0 x1 x2 i j a b = t2_uhf_abab y0 y1 y2 i j a b.
Proof. intros H0 H1 H2. cbv beta zeta delta [t2_uhf_abab]. rewrite !H0, !H1, !H2. reflexivity. Qed.
Lemma t2_uhf_bbbb_ext (x0 y0 : mat) (x1 y1 : ten) i j a b :
  (forall i a, x0 i a = y0 i a) ->
  (forall i j a b, x1 i j a b = y1 i j a b) ->
  t2_uhf_bbbb x0 x1 i j a b = t2_uhf_bbbb y0 y1 i j a b.
Proof. intros H0 H1. cbv beta zeta delta [t2_uhf_bbbb]. rewrite !H0, !H1. reflexivity. Qed.
Lemma t2_rhf_ext (x0 y0 : mat) (x1 y1 : ten) i j a b :
  (forall i a, x0 i a = y0 i a) ->
  (forall i j a b, x1 i j a b = y1 i j a b) ->
  t2_rhf x0 x1 i j a b = t2_rhf y0 y1 i j a b.
Proof. intros H0 H1. cbv beta zeta delta [t2_rhf]. rewrite !H0, !H1. reflexivity. Qed.
Lemma t3_uhf_aaaaaa_ext (x0 y0 : mat) (x1 y1 : ten) (x2 y2 : ten6) i j k a b c :
  (forall i a, x0 i a = y0 i a) ->
  (forall i j a b, x1 i j a b = y1 i j a b) ->
  (forall i j k a b c, x2 i j k a b c = y2 i j k a b c) ->
  t3_uhf_aaaaaa x0 x1 x2 i j k a b c = t3_uhf_aaaaaa y0 y1 y2 i j k a b c.
Proof. intros H0 H1 H2. cbv beta zeta delta [t3_uhf_aaaaaa]. rewrite !H0, !H1, !H2. reflexivity. Qed.
Lemma t3_uhf_abaaba_ext (x0 y0 : mat) (x1 y1 : mat) (x2 y2 : ten) (x3 y3 : ten) (x4 y4 : ten6) i j k a b c :
  (forall i a, x0 i a = y0 i a) ->
  (forall i a, x1 i a = y1 i a) ->
  (forall i j a b, x2 i j a b = y2 i j a b) ->
  (forall i j a b, x3 i j a b = y3 i j a b) ->
  (forall i j k a b c, x4 i j k a b c = y4 i j k a b c) ->
  t3_uhf_abaaba x0 x1 x2 x3 x4 i j k a b c = t3_uhf_abaaba y0 y1 y2 y3 y4 i j k a b c.
Proof. intros H0 H1 H2 H3 H4. cbv beta zeta delta [t3_uhf_abaaba]. rewrite !H0, !H1, !H2, !H3, !H4. reflexivity. Qed.
Lemma t3_uhf_babbab_ext (x0 y0 : mat) (x1 y1 : mat) (x2 y2 : ten) (x3 y3 : ten) (x4 y4 : ten6) i j k a b c :
  (forall i a, x0 i a = y0 i a) ->
  (forall i a, x1 i a = y1 i a) ->
  (forall i j a b, x2 i j a b = y2 i j a b) ->
  (forall i j a b, x3 i j a b = y3 i j a b) ->
  (forall i j k a b c, x4 i j k a b c = y4 i j k a b c) ->
  t3_uhf_babbab x0 x1 x2 x3 x4 i j k a b c = t3_uhf_babbab y0 y1 y2 y3 y4 i j k a b c.
Proof. intros H0 H1 H2 H3 H4. cbv beta zeta delta [t3_uhf_babbab]. rewrite !H0, !H1, !H2, !H3, !H4. reflexivity. Qed.
Lemma t3_uhf_bbbbbb_ext (x0 y0 : mat) (x1 y1 : ten) (x2 y2 : ten6) i j k a b c :
  (forall i a, x0 i a = y0 i a) ->
  (forall i j a b, x1 i j a b = y1 i j a b) ->
  (forall i j k a b c, x2 i j k a b c = y2 i j k a b c) ->
  t3_uhf_bbbbbb x0 x1 x2 i j k a b c = t3_uhf_bbbbbb y0 y1 y2 i j k a b c.
Proof. intros H0 H1 H2. cbv beta zeta delta [t3_uhf_bbbbbb]. rewrite !H0, !H1, !H2. reflexivity. Qed.
Lemma t3_rhf_ext (x0 y0 : mat) (x1 y1 : ten) (x2 y2 : ten6) i j k a b c :
  (forall i a, x0 i a = y0 i a) ->
  (forall i j a b, x1 i j a b = y1 i j a b) ->
  (forall i j k a b c, x2 i j k a b c = y2 i j k a b c) ->
  t3_rhf x0 x1 x2 i j k a b c = t3_rhf y0 y1 y2 i j k a b c.
Proof. intros H0 H1 H2. cbv beta zeta delta [t3_rhf]. rewrite !H0, !H1, !H2. reflexivity. Qed.
Lemma t4_uhf_aaaaaaaa_ext (x0 y0 : mat) (x1 y1 : ten) (x2 y2 : ten6) (x3 y3 : ten8) i j k l a b c d :
  (forall i a, x0 i a = y0 i a) ->
  (forall i j a b, x1 i j a b = y1 i j a b) ->
  (forall i j k a b c, x2 i j k a b c = y2 i j k a b c) ->
  (forall i j k l a b c d, x3 i j k l a b c d = y3 i j k l a b c d) ->
  t4_uhf_aaaaaaaa x0 x1 x2 x3 i j k l a b c d = t4_uhf_aaaaaaaa y0 y1 y2 y3 i j k l a b c d.
Proof. intros H0 H1 H2 H3. cbv beta zeta delta [t4_uhf_aaaaaaaa]. rewrite !H0, !H1, !H2, !H3. reflexivity. Qed.
Lemma t4_uhf_aaabaaab_ext (x0 y0 : mat) (x1 y1 : mat) (x2 y2 : ten) (x3 y3 : ten) (x4 y4 : ten6) (x5 y5 : ten6) (x6 y6 : ten8) i j k l a b c d :
  (forall i a, x0 i a = y0 i a) ->
  (forall i a, x1 i a = y1 i a) ->
  (forall i j a b, x2 i j a b = y2 i j a b) ->
  (forall i j a b, x3 i j a b = y3 i j a b) ->
  (forall i j k a b c, x4 i j k a b c = y4 i j k a b c) ->
  (forall i j k a b c, x5 i j k a b c = y5 i j k a b c) ->
  (forall i j k l a b c d, x6 i j k l a b c d = y6 i j k l a b c d) ->
  t4_uhf_aaabaaab x0 x1 x2 x3 x4 x5 x6 i j k l a b c d = t4_uhf_aaabaaab y0 y1 y2 y3 y4 y5 y6 i j k l a b c d.
Proof. intros H0 H1 H2 H3 H4 H5 H6. cbv beta zeta delta [t4_uhf_aaabaaab]. rewrite !H0, !H1, !H2, !H3, !H4, !H5, !H6. reflexivity. Qed.
Lemma t4_uhf_abababab_ext (x0 y0 : mat) (x1 y1 : mat) (x2 y2 : ten) (x3 y3 : ten) (x4 y4 : ten) (x5 y5 : ten6) (x6 y6 : ten6) (x7 y7 : ten8) i j k l a b c d :
  (forall i a, x0 i a = y0 i a) ->
  (forall i a, x1 i a = y1 i a) ->
  (forall i j a b, x2 i j a b = y2 i j a b) ->
  (forall i j a b, x3 i j a b = y3 i j a b) ->
  (forall i j a b, x4 i j a b = y4 i j a b) ->
  (forall i j k a b c, x5 i j k a b c = y5 i j k a b c) ->
  (forall i j k a b c, x6 i j k a b c = y6 i j k a b c) ->
  (forall i j k l a b c d, x7 i j k l a b c d = y7 i j k l a b c d) ->
  t4_uhf_abababab x0 x1 x2 x3 x4 x5 x6 x7 i j k l a b c d = t4_uhf_abababab y0 y1 y2 y3 y4 y5 y6 y7 i j k l a b c d.
Proof. intros H0 H1 H2 H3 H4 H5 H6 H7. cbv beta zeta delta [t4_uhf_abababab]. rewrite !H0, !H1, !H2, !H3, !H4, !H5, !H6, !H7. reflexivity. Qed.
Lemma t4_uhf_abbbabbb_ext (x0 y0 : mat) (x1 y1 : mat) (x2 y2 : ten) (x3 y3 : ten) (x4 y4 : ten6) (x5 y5 : ten6) (x6 y6 : ten8) i j k l a b c d :
  (forall i a, x0 i a = y0 i a) ->
  (forall i a, x1 i a = y1 i a) ->
  (forall i j a b, x2 i j a b = y2 i j a b) ->
  (forall i j a b, x3 i j a b = y3 i j a b) ->
  (forall i j k a b c, x4 i j k a b c = y4 i j k a b c) ->
  (forall i j k a b c, x5 i j k a b c = y5 i j k a b c) ->
  (forall i j k l a b c d, x6 i j k l a b c d = y6 i j k l a b c d) ->
  t4_uhf_abbbabbb x0 x1 x2 x3 x4 x5 x6 i j k l a b c d = t4_uhf_abbbabbb y0 y1 y2 y3 y4 y5 y6 i j k l a b c d.
Proof. intros H0 H1 H2 H3 H4 H5 H6. cbv beta zeta delta [t4_uhf_abbbabbb]. rewrite !H0, !H1, !H2, !H3, !H4, !H5, !H6. reflexivity. Qed.
Lemma t4_uhf_bbbbbbbb_ext (x0 y0 : mat) (x1 y1 : ten) (x2 y2 : ten6) (x3 y3 : ten8) i j k l a b c d :
  (forall i a, x0 i a = y0 i a) ->
  (forall i j a b, x1 i j a b = y1 i j a b) ->
  (forall i j k a b c, x2 i j k a b c = y2 i j k a b c) ->
  (forall i j k l a b c d, x3 i j k l a b c d = y3 i j k l a b c d) ->
  t4_uhf_bbbbbbbb x0 x1 x2 x3 i j k l a b c d = t4_uhf_bbbbbbbb y0 y1 y2 y3 i j k l a b c d.
Proof. intros H0 H1 H2 H3. cbv beta zeta delta [t4_uhf_bbbbbbbb]. rewrite !H0, !H1, !H2, !H3. reflexivity. Qed.
Lemma t4_rhf_abababab_ext (x0 y0 : mat) (x1 y1 : ten) (x2 y2 : ten6) (x3 y3 : ten8) i j k l a b c d :
  (forall i a, x0 i a = y0 i a) ->
  (forall i j a b, x1 i j a b = y1 i j a b) ->
  (forall i j k a b c, x2 i j k a b c = y2 i j k a b c) ->
  (forall i j k l a b c d, x3 i j k l a b c d = y3 i j k l a b c d) ->
  t4_rhf_abababab x0 x1 x2 x3 i j k l a b c d = t4_rhf_abababab y0 y1 y2 y3 i j k l a b c d.
Proof. intros H0 H1 H2 H3. cbv beta zeta delta [t4_rhf_abababab]. rewrite !H0, !H1, !H2, !H3. reflexivity. Qed.
Lemma t4_rhf_abaaabaa_ext (x0 y0 : mat) (x1 y1 : ten) (x2 y2 : ten6) (x3 y3 : ten8) i j k l a b c d :
  (forall i a, x0 i a = y0 i a) ->
  (forall i j a b, x1 i j a b = y1 i j a b) ->
  (forall i j k a b c, x2 i j k a b c = y2 i j k a b c) ->
  (forall i j k l a b c d, x3 i j k l a b c d = y3 i j k l a b c d) ->
  t4_rhf_abaaabaa x0 x1 x2 x3 i j k l a b c d = t4_rhf_abaaabaa y0 y1 y2 y3 i j k l a b c d.
Proof. intros H0 H1 H2 H3. cbv beta zeta delta [t4_rhf_abaaabaa]. rewrite !H0, !H1, !H2, !H3. reflexivity. Qed.
End Ext.

(** ** The conversions of the wave functions *)
Arguments CI : simpl never. Arguments adapt : simpl never.
Arguments bl1 : simpl never. Arguments bl2 : simpl never. Arguments bl3 : simpl never. Arguments bl4 : simpl never.
Section Theorems.
Context {F : cfield}.
Add Field Ff : (fth F).
Open Scope K_scope.
Notation al := true. Notation be := false.

(** the blocks of a wave function are those of the coefficients C (normalised to 1 for the reference), times c0 *)
Definition holds_u (c0 : F) (C : list so -> list so -> F) (w : @ucisdtq F) : Prop :=
  let D := fun J A => c0 * C J A in
  u0 w = c0 /\
  (forall i a, fst (u1 w) i a = bl1 D al i a /\ snd (u1 w) i a = bl1 D be i a) /\
  (let '(aa, ab, bb) := u2 w in forall i j a b, aa i j a b = bl2 D al al i j a b /\ ab i j a b = bl2 D al be i j a b /\ bb i j a b = bl2 D be be i j a b) /\
  (let '(aaa, aba, bab, bbb) := u3 w in forall i j k a b c,
     aaa i j k a b c = bl3 D al al al i j k a b c /\ aba i j k a b c = bl3 D al be al i j k a b c /\
     bab i j k a b c = bl3 D be al be i j k a b c /\ bbb i j k a b c = bl3 D be be be i j k a b c) /\
  (let '(aaaa, aaab, abab, abbb, bbbb) := u4 w in forall i j k l a b c d,
     aaaa i j k l a b c d = bl4 D al al al al i j k l a b c d /\ aaab i j k l a b c d = bl4 D al al al be i j k l a b c d /\
     abab i j k l a b c d = bl4 D al be al be i j k l a b c d /\ abbb i j k l a b c d = bl4 D al be be be i j k l a b c d /\
     bbbb i j k l a b c d = bl4 D be be be be i j k l a b c d).
Definition amps_u (T : list so -> list so -> F) (w : @uccsdtq F) : Prop :=
  (forall i a, fst (ut1 w) i a = bl1 T al i a /\ snd (ut1 w) i a = bl1 T be i a) /\
  (let '(aa, ab, bb) := ut2 w in forall i j a b, aa i j a b = bl2 T al al i j a b /\ ab i j a b = bl2 T al be i j a b /\ bb i j a b = bl2 T be be i j a b) /\
  (let '(aaa, aba, bab, bbb) := ut3 w in forall i j k a b c,
     aaa i j k a b c = bl3 T al al al i j k a b c /\ aba i j k a b c = bl3 T al be al i j k a b c /\
     bab i j k a b c = bl3 T be al be i j k a b c /\ bbb i j k a b c = bl3 T be be be i j k a b c) /\
  (let '(aaaa, aaab, abab, abbb, bbbb) := ut4 w in forall i j k l a b c d,
     aaaa i j k l a b c d = bl4 T al al al al i j k l a b c d /\ aaab i j k l a b c d = bl4 T al al al be i j k l a b c d /\
     abab i j k l a b c d = bl4 T al be al be i j k l a b c d /\ abbb i j k l a b c d = bl4 T al be be be i j k l a b c d /\
     bbbb i j k l a b c d = bl4 T be be be be i j k l a b c d).
Definition holds_r (c0 : F) (C : list so -> list so -> F) (w : @rcisdtq F) : Prop :=
  let D := fun J A => c0 * C J A in
  k0 w = c0 /\ (forall i a, k1 w i a = bl1 D al i a) /\ (forall i j a b, k2 w i j a b = bl2 D al be i j a b) /\
  (forall i j k a b c, k3 w i j k a b c = bl3 D al be al i j k a b c) /\
  (forall i j k l a b c d, fst (k4 w) i j k l a b c d = bl4 D al be al al i j k l a b c d /\ snd (k4 w) i j k l a b c d = bl4 D al be al be i j k l a b c d).
Definition amps_r (T : list so -> list so -> F) (w : @rccsdtq F) : Prop :=
  (forall i a, rt1 w i a = bl1 T al i a) /\ (forall i j a b, rt2 w i j a b = bl2 T al be i j a b) /\
  (forall i j k a b c, rt3 w i j k a b c = bl3 T al be al i j k a b c) /\
  (forall i j k l a b c d, fst (rt4 w) i j k l a b c d = bl4 T al be al al i j k l a b c d /\ snd (rt4 w) i j k l a b c d = bl4 T al be al be i j k l a b c d).

Lemma cancel (c0 x : F) : c0 <> 0 -> (c0 * x) / c0 = x.
Proof. intros H. field. exact H. Qed.
Lemma CI_one (T : list so -> list so -> F) x y : CI T [x] [y] = T [x] [y].
Proof. unfold CI. simpl. unfold sgn. simpl. ring. Qed.

Section Unscale.
Variables (c0 : F) (C : list so -> list so -> F).
Hypothesis H0 : c0 <> 0.
Notation D := (fun J A => c0 * C J A).
Lemma un2 s w : (forall i a, w i a = bl1 D s i a) -> forall i a, div2 c0 w i a = bl1 C s i a.
Proof. intros H i a. unfold div2. rewrite H. apply cancel. exact H0. Qed.
Lemma un4 s t w : (forall i j a b, w i j a b = bl2 D s t i j a b) -> forall i j a b, div4 c0 w i j a b = bl2 C s t i j a b.
Proof. intros H i j a b. unfold div4. rewrite H. apply cancel. exact H0. Qed.
Lemma un6 s t u w : (forall i j k a b c, w i j k a b c = bl3 D s t u i j k a b c) -> forall i j k a b c, div6 c0 w i j k a b c = bl3 C s t u i j k a b c.
Proof. intros H i j k a b c. unfold div6. rewrite H. apply cancel. exact H0. Qed.
Lemma un8 s t u v w : (forall i j k l a b c d, w i j k l a b c d = bl4 D s t u v i j k l a b c d) ->
  forall i j k l a b c d, div8 c0 w i j k l a b c d = bl4 C s t u v i j k l a b c d.
Proof. intros H i j k l a b c d. unfold div8. rewrite H. apply cancel. exact H0. Qed.
End Unscale.

(** C63: the amplitudes of an unrestricted wave function c0 exp(T) are T *)
Theorem C63_unrestricted T c0 w : antisymmetric T -> spin_conserving T -> c0 <> 0 -> holds_u c0 (CI T) w -> amps_u T (u_as_ccsdtq w).
Proof.
  intros HT HS H0. destruct w as [w0 [w1a w1b] [[w2a w2m] w2b] [[[w3a w3p] w3q] w3b] [[[[w4a w4p] w4q] w4r] w4b]].
  intros (E0 & E1 & E2 & E3 & E4). simpl in E0, E1, E2, E3, E4. subst w0. unfold u_as_ccsdtq, amps_u. simpl.
  assert (A1 : forall i a, t1_uhf_aa (div2 c0 w1a) i a = bl1 T al i a).
  { intros i a. unfold t1_uhf_aa. etransitivity; [apply (un2 c0 (CI T)); [auto|apply E1]|apply CI_one]. }
  assert (B1 : forall i a, t1_uhf_bb (div2 c0 w1b) i a = bl1 T be i a).
  { intros i a. unfold t1_uhf_bb. etransitivity; [apply (un2 c0 (CI T)); [auto|apply E1]|apply CI_one]. }
  set (a1 := t1_uhf_aa (div2 c0 w1a)) in *. set (b1 := t1_uhf_bb (div2 c0 w1b)) in *.
  assert (A2 : forall i j a b, t2_uhf_aaaa a1 (div4 c0 w2a) i j a b = bl2 T al al i j a b).
  { intros. rewrite <- (u2_aa T HT HS). apply t2_uhf_aaaa_ext; auto. apply un4; [auto|intros p q x y; destruct (E2 p q x y) as (G1 & G2 & G3); exact G1]. }
  assert (M2 : forall i j a b, t2_uhf_abab a1 b1 (div4 c0 w2m) i j a b = bl2 T al be i j a b).
  { intros. rewrite <- (u2_ab T HT HS). apply t2_uhf_abab_ext; auto. apply un4; [auto|intros p q x y; destruct (E2 p q x y) as (G1 & G2 & G3); exact G2]. }
  assert (B2 : forall i j a b, t2_uhf_bbbb b1 (div4 c0 w2b) i j a b = bl2 T be be i j a b).
  { intros. rewrite <- (u2_bb T HT HS). apply t2_uhf_bbbb_ext; auto. apply un4; [auto|intros p q x y; destruct (E2 p q x y) as (G1 & G2 & G3); exact G3]. }
  set (a2 := t2_uhf_aaaa a1 (div4 c0 w2a)) in *. set (m2 := t2_uhf_abab a1 b1 (div4 c0 w2m)) in *. set (b2 := t2_uhf_bbbb b1 (div4 c0 w2b)) in *.
  assert (A3 : forall i j k a b c, t3_uhf_aaaaaa a1 a2 (div6 c0 w3a) i j k a b c = bl3 T al al al i j k a b c).
  { intros. rewrite <- (u3_aaa T HT HS). apply t3_uhf_aaaaaa_ext; auto. apply un6; [auto|intros p q r x y z; destruct (E3 p q r x y z) as (G1 & G2 & G3 & G4); exact G1]. }
  assert (P3 : forall i j k a b c, t3_uhf_abaaba a1 b1 a2 m2 (div6 c0 w3p) i j k a b c = bl3 T al be al i j k a b c).
  { intros. rewrite <- (u3_aba T HT HS). apply t3_uhf_abaaba_ext; auto. apply un6; [auto|intros p q r x y z; destruct (E3 p q r x y z) as (G1 & G2 & G3 & G4); exact G2]. }
  assert (Q3 : forall i j k a b c, t3_uhf_babbab a1 b1 m2 b2 (div6 c0 w3q) i j k a b c = bl3 T be al be i j k a b c).
  { intros. rewrite <- (u3_bab T HT HS). apply t3_uhf_babbab_ext; auto. apply un6; [auto|intros p q r x y z; destruct (E3 p q r x y z) as (G1 & G2 & G3 & G4); exact G3]. }
  assert (B3 : forall i j k a b c, t3_uhf_bbbbbb b1 b2 (div6 c0 w3b) i j k a b c = bl3 T be be be i j k a b c).
  { intros. rewrite <- (u3_bbb T HT HS). apply t3_uhf_bbbbbb_ext; auto. apply un6; [auto|intros p q r x y z; destruct (E3 p q r x y z) as (G1 & G2 & G3 & G4); exact G4]. }
  set (a3 := t3_uhf_aaaaaa _ _ _) in *. set (p3 := t3_uhf_abaaba _ _ _ _ _) in *.
  set (q3 := t3_uhf_babbab _ _ _ _ _) in *. set (b3 := t3_uhf_bbbbbb _ _ _) in *.
  split; [auto|]. split; [auto|]. split; [auto|]. intros i j k l a b c d. split; [|split; [|split; [|split]]].
  - rewrite <- (u4_aaaa T HT HS). apply t4_uhf_aaaaaaaa_ext; auto. apply un8; [auto|intros p q r t x y z w; destruct (E4 p q r t x y z w) as (G1 & G2 & G3 & G4 & G5); exact G1].
  - rewrite <- (u4_aaab T HT HS). apply t4_uhf_aaabaaab_ext; auto. apply un8; [auto|intros p q r t x y z w; destruct (E4 p q r t x y z w) as (G1 & G2 & G3 & G4 & G5); exact G2].
  - rewrite <- (u4_abab T HT HS). apply t4_uhf_abababab_ext; auto. apply un8; [auto|intros p q r t x y z w; destruct (E4 p q r t x y z w) as (G1 & G2 & G3 & G4 & G5); exact G3].
  - rewrite <- (u4_abbb T HT HS). apply t4_uhf_abbbabbb_ext; auto. apply un8; [auto|intros p q r t x y z w; destruct (E4 p q r t x y z w) as (G1 & G2 & G3 & G4 & G5); exact G4].
  - rewrite <- (u4_bbbb T HT HS). apply t4_uhf_bbbbbbbb_ext; auto. apply un8; [auto|intros p q r t x y z w; destruct (E4 p q r t x y z w) as (G1 & G2 & G3 & G4 & G5); exact G5].
Qed.

(** C63: the amplitudes of a closed-shell wave function c0 exp(T) are T *)
Theorem C63_restricted s c0 w : pair_symmetric s -> c0 <> 0 -> holds_r c0 (CI (adapt s)) w -> amps_r (adapt s) (r_as_ccsdtq w).
Proof.
  intros Hs H0. destruct w as [w0 w1 w2 w3 [w4p w4q]]. intros (E0 & E1 & E2 & E3 & E4). simpl in E0, E1, E2, E3, E4. subst w0.
  unfold r_as_ccsdtq, amps_r. simpl.
  assert (A1 : forall i a, t1_rhf (div2 c0 w1) i a = bl1 (adapt s) al i a).
  { intros i a. unfold t1_rhf. etransitivity; [apply (un2 c0 (CI (adapt s))); [auto|apply E1]|apply CI_one]. }
  set (t1 := t1_rhf (div2 c0 w1)) in *.
  assert (A2 : forall i j a b, t2_rhf t1 (div4 c0 w2) i j a b = bl2 (adapt s) al be i j a b).
  { intros. rewrite <- (r2_ab s Hs). apply t2_rhf_ext; auto. apply un4; auto. }
  set (t2 := t2_rhf t1 (div4 c0 w2)) in *.
  assert (A3 : forall i j k a b c, t3_rhf t1 t2 (div6 c0 w3) i j k a b c = bl3 (adapt s) al be al i j k a b c).
  { intros. rewrite <- (r3_aba s Hs). apply t3_rhf_ext; auto. apply un6; auto. }
  set (t3 := t3_rhf t1 t2 (div6 c0 w3)) in *.
  split; [auto|]. split; [auto|]. split; [auto|]. intros i j k l a b c d. split.
  - rewrite <- (r4_abaa s Hs). apply t4_rhf_abaaabaa_ext; auto. apply un8; [auto|intros p q r t x y z w; destruct (E4 p q r t x y z w) as (G1 & G2); exact G1].
  - rewrite <- (r4_abab s Hs). apply t4_rhf_abababab_ext; auto. apply un8; [auto|intros p q r t x y z w; destruct (E4 p q r t x y z w) as (G1 & G2); exact G2].
Qed.
End Theorems.

Section More.
Context {F : cfield}.
Add Field Ff2 : (fth F).
Open Scope K_scope.
(** C63: discarding triples and quadruples before or after the conversion is the same: the CCSD part is that of the CISD part *)
Theorem C63_doubles (w : @rcisdtq F) :
  let x := ccsdtq_as_ccsd (r_as_ccsdtq w) in let y := as_ccsd {| c0 := k0 w; c1 := k1 w; c2 := k2 w |} in
  (forall i a, at1 x i a = at1 y i a) /\ (forall i j a b, at2 x i j a b = at2 y i j a b).
Proof.
  destruct w as [w0 w1 w2 w3 w4]. simpl. unfold t1_rhf, t2_rhf, div2, div4, prod1. split; [reflexivity|]. intros i j a b. ring.
Qed.
(** and with c0 = 1 the coefficients of CISD are found again *)
Theorem C63_cisd (w : @rcisdtq F) : k0 w <> 0 ->
  let y := ccsdtq_as_cisd (r_as_ccsdtq w) 1 in
  c0 y = 1 /\ (forall i a, c1 y i a = k1 w i a / k0 w) /\ (forall i j a b, c2 y i j a b = k2 w i j a b / k0 w).
Proof.
  destruct w as [w0 w1 w2 w3 w4]. simpl. unfold t1_rhf, t2_rhf, div2, div4, prod1. intros H. split; [reflexivity|].
  split; intros; field; exact H.
Qed.
End More.

Section Generic.
Context {K : cring}.
Add Ring Kv : (rth K).
Open Scope K_scope.
Lemma vander_anti_gen (xv : so -> K) (df : so -> list so -> K) (vd : list so -> K) :
  (forall x, df x [] = 1) -> (forall x y r, df x (y :: r) = (xv x - xv y) * df x r) -> (forall x r, vd (x :: r) = df x r * vd r) ->
  forall p x y r, vd (p ++ x :: y :: r) = - vd (p ++ y :: x :: r).
Proof.
  intros D0 D1 V p x y r.
  assert (D : forall z p, df z (p ++ x :: y :: r) = df z (p ++ y :: x :: r)).
  { intros z p'. induction p' as [|u p' IH]; simpl; rewrite ?D1; [ring|rewrite IH; ring]. }
  induction p as [|u p IH]; simpl; rewrite ?V, ?D1; [ring|]. rewrite D, IH. ring.
Qed.
Lemma opp_mul_l (a b : K) : (- a) * b = - (a * b). Proof. ring. Qed.
Lemma opp_twice_r (a b : K) : a * (- b + - b) = - (a * (b + b)). Proof. ring. Qed.
Lemma opp_zero : 0 = - (0 : K). Proof. ring. Qed.
Lemma Lsum_perm {A} (l l' : list A) (f : A -> K) : Permutation l l' -> Lsum l f = Lsum l' f.
Proof. induction 1; simpl; try congruence. ring. Qed.
End Generic.

(** ** Cases *)
Section Cases.
Open Scope K_scope.
Definition eqq (a b : QK) : bool := Qeq_bool (this a) (this b).
Lemma eqq_ok (a b : QK) : eqq a b = true -> a = b.
Proof. intros H. apply Qc_is_canon. apply Qeq_bool_iff. exact H. Qed.
Lemma neqq (a b : QK) : eqq a b = false -> a <> b.
Proof. intros H E. rewrite E in H. unfold eqq in H. rewrite Qeq_bool_refl in H. discriminate. Qed.
Definition q (n : Z) (d : positive) : QK := Q2Qc (n # d).
(** an antisymmetric family: products of differences *)
Definition xval (x : so) : QK := q (Z.of_nat (2 * snd x + (if fst x then 0 else 1))) 1.
Fixpoint diffs (x : so) (l : list so) : QK := match l with [] => 1 | y :: r => (xval x - xval y) * diffs x r end.
Fixpoint vander (l : list so) : QK := match l with [] => 1 | x :: r => diffs x r * vander r end.
Definition Tv (J A : list so) : QK := if (length (filter fst J) =? length (filter fst A))%nat then vander J * (vander A + vander A) else 0.
Lemma vander_anti p x y r : vander (p ++ x :: y :: r) = - vander (p ++ y :: x :: r).
Proof. apply (vander_anti_gen xval diffs vander); intros; reflexivity. Qed.
Lemma filter_swap (p : list so) x y r : length (filter fst (p ++ x :: y :: r)) = length (filter fst (p ++ y :: x :: r)).
Proof. rewrite !filter_app, !app_length. simpl. destruct (fst x), (fst y); simpl; lia. Qed.
Example Tv_anti : antisymmetric Tv.
Proof.
  split; intros; unfold Tv; rewrite filter_swap; destruct (_ =? _)%nat; try apply opp_zero.
  - rewrite vander_anti. apply opp_mul_l.
  - rewrite vander_anti. apply opp_twice_r.
Qed.
Example Tv_spin : spin_conserving Tv.
Proof. intros J A H. unfold Tv. apply Nat.eqb_neq in H. rewrite H. reflexivity. Qed.
(** the amplitudes of all ranks are there *)
Example Tv_nonzero :
  bl1 Tv true 0%nat 1%nat = q 2 1 /\ bl2 Tv true false 0%nat 1%nat 0%nat 2%nat = q 30 1 /\ bl3 Tv true true true 0%nat 1%nat 2%nat 0%nat 1%nat 2%nat = q 512 1
  /\ bl4 Tv true true true false 0%nat 1%nat 2%nat 1%nat 0%nat 1%nat 2%nat 1%nat = q 4608 1
  /\ bl4 (CI Tv) true true true false 0%nat 1%nat 2%nat 1%nat 0%nat 1%nat 2%nat 1%nat <> bl4 Tv true true true false 0%nat 1%nat 2%nat 1%nat 0%nat 1%nat 2%nat 1%nat.
Proof. split; [|split; [|split; [|split]]]; [apply eqq_ok; vm_compute; reflexivity ..|apply neqq; vm_compute; reflexivity]. Qed.
(** the wave function 3/2 exp(T) *)
Definition c32 : QF := q 3 2.
Definition wu (T : list so -> list so -> QF) : @ucisdtq QF :=
  let D := fun J A => c32 * CI T J A in
  {| u0 := c32; u1 := (bl1 D true, bl1 D false); u2 := (bl2 D true true, bl2 D true false, bl2 D false false);
     u3 := (bl3 D true true true, bl3 D true false true, bl3 D false true false, bl3 D false false false);
     u4 := (bl4 D true true true true, bl4 D true true true false, bl4 D true false true false, bl4 D true false false false, bl4 D false false false false) |}.
Definition wr (T : list so -> list so -> QF) : @rcisdtq QF :=
  let D := fun J A => c32 * CI T J A in
  {| k0 := c32; k1 := bl1 D true; k2 := bl2 D true false; k3 := bl3 D true false true; k4 := (bl4 D true false true true, bl4 D true false true false) |}.
Lemma c32_nz : c32 <> 0. Proof. apply (neqq c32 0). vm_compute. reflexivity. Qed.
Example C63_unrestricted_case : amps_u (F := QF) Tv (u_as_ccsdtq (wu Tv)) /\
  snd (fst (fst (fst (u4 (wu Tv))))) 0%nat 1%nat 2%nat 1%nat 0%nat 1%nat 2%nat 1%nat = q 9984 1 /\
  snd (fst (fst (fst (ut4 (u_as_ccsdtq (wu Tv)))))) 0%nat 1%nat 2%nat 1%nat 0%nat 1%nat 2%nat 1%nat = q 4608 1.
Proof.
  split; [|split; apply eqq_ok; vm_compute; reflexivity].
  apply (C63_unrestricted (F := QF) Tv c32); [exact Tv_anti|exact Tv_spin|exact c32_nz|]. unfold holds_u, wu. simpl.
  split; [reflexivity|]. split; [split; reflexivity|]. split; [split; [|split]; reflexivity|]. split; [split; [|split; [|split]]; reflexivity|].
  intros; split; [|split; [|split; [|split]]]; reflexivity.
Qed.
(** amplitudes of spatial orbitals: powers of sums over the pairs *)
Definition sv (l : list (nat * nat)) : QK := let x := Lsum l (fun p => q (Z.of_nat (fst p * fst p * snd p * snd p + fst p * snd p + 1)) 1) in x * x * x * x.
Example sv_pairs : pair_symmetric sv.
Proof. intros l l' H. unfold sv. rewrite (Lsum_perm l l' _ H). reflexivity. Qed.
Example sv_nonzero : bl1 (adapt sv) true 1%nat 1%nat = q 81 1 /\
  bl3 (adapt sv) true false true 0%nat 1%nat 1%nat 0%nat 1%nat 1%nat <> 0 /\
  bl4 (adapt sv) true false true true 0%nat 1%nat 1%nat 2%nat 0%nat 1%nat 1%nat 2%nat <> 0 /\
  bl4 (adapt sv) true false true false 0%nat 1%nat 1%nat 2%nat 0%nat 1%nat 1%nat 2%nat <> 0 /\
  bl4 (CI (adapt sv)) true false true false 0%nat 1%nat 1%nat 2%nat 0%nat 1%nat 1%nat 2%nat <> bl4 (adapt sv) true false true false 0%nat 1%nat 1%nat 2%nat 0%nat 1%nat 1%nat 2%nat.
Proof. split; [apply eqq_ok; vm_compute; reflexivity|]. split; [|split; [|split]]; apply neqq; vm_compute; reflexivity. Qed.
Example C63_restricted_case : amps_r (F := QF) (adapt sv) (r_as_ccsdtq (wr (adapt sv))).
Proof.
  apply (C63_restricted (F := QF) sv c32); [exact sv_pairs|exact c32_nz|]. unfold holds_r, wr. simpl.
  split; [reflexivity|]. split; [reflexivity|]. split; [reflexivity|]. split; [reflexivity|]. split; reflexivity.
Qed.
Example C63_doubles_case : exists w : @rcisdtq QF, k0 w = c32 /\ at2 (ccsdtq_as_ccsd (r_as_ccsdtq w)) 1%nat 0%nat 1%nat 1%nat <> 0 /\ k0 w <> 0.
Proof. exists (wr (adapt sv)). split; [reflexivity|]. split; [|exact c32_nz]. apply (neqq _ (q 0 1)). vm_compute. reflexivity. Qed.
(** finding: the normalisation asked for is ignored by as_cisd of the CCSDTQ wave function (the CCSD wave function honours it) *)
Theorem C63_normalisation_refuted : exists (w : @rccsdtq QF) (x : QF), c0 (ccsdtq_as_cisd w x) <> x /\ c0 (as_cisd (ccsdtq_as_ccsd w) x) = x.
Proof. exists (r_as_ccsdtq (wr (adapt sv))), (q 2 1). split; [|reflexivity]. apply (neqq _ (q 2 1)). vm_compute. reflexivity. Qed.
End Cases.
Print Assumptions C63_unrestricted.
Print Assumptions C63_restricted.
Print Assumptions C63_doubles.
Print Assumptions C63_cisd.
Print Assumptions C63_normalisation_refuted.
