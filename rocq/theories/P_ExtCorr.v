(** * C66: the external correction is exactly the T3 and T4 part of the coupled-cluster equations *)
From Coq Require Import List Bool Arith Lia Ring Permutation QArith Qcanon.
From Verif Require Import Alg Esum Esum8 M_Wf M_TtoC P_TtoC M_ExtCorr.
Import ListNotations.
Open Scope K_scope.
Notation al := true. Notation be := false.

(** ** Specification *)
Section Spec.
Context {K : cring}.
Variable half : K.
(** numbers of occupied and of virtual orbitals of either spin, integrals (pq|rs) with p, q of the first and r, s of the second spin over all orbitals
    (occupied first), occupied-virtual Fock matrix *)
Variables no nv : bool -> nat.
Variable eri : bool -> bool -> nat -> nat -> nat -> nat -> K.
Variable fov : bool -> nat -> nat -> K.
(** sums over occupied and virtual spin orbitals *)
Definition SO (f : so -> K) : K := Sum (no al) (fun i => f (al, i)) + Sum (no be) (fun i => f (be, i)).
Definition SV (f : so -> K) : K := Sum (nv al) (fun a => f (al, a)) + Sum (nv be) (fun a => f (be, a)).
Definition vo (a : so) : so := (fst a, no (fst a) + snd a)%nat.
(** integrals over spin orbitals: (pq|rs) and <pq||rs> *)
Definition chem (p q r u : so) : K := if Bool.eqb (fst p) (fst q) && Bool.eqb (fst r) (fst u) then eri (fst p) (fst r) (snd p) (snd q) (snd r) (snd u) else 0.
Definition phys (p q r u : so) : K := chem p r q u - chem p u q r.
Definition fock (m e : so) : K := if Bool.eqb (fst m) (fst e) then fov (fst m) (snd m) (snd e) else 0.
(** Rows of (H - E) C for a singly and a doubly excited determinant (Slater-Condon rules): low stands for everything in which triple and quadruple excitations do not enter *)
Definition row1 (low : K) (C : list so -> list so -> K) (i a : so) : K :=
  low + half * half * SO (fun m => SO (fun n => SV (fun e => SV (fun f => phys m n (vo e) (vo f) * C [i; m; n] [a; e; f])))).
Definition row2 (low : K) (C : list so -> list so -> K) (i j a b : so) : K :=
  low + SO (fun m => SV (fun e => fock m e * C [i; j; m] [a; b; e]))
  + half * (SO (fun m => SV (fun e => SV (fun f => phys (vo b) m (vo e) (vo f) * C [i; j; m] [a; e; f])))
            - SO (fun m => SV (fun e => SV (fun f => phys (vo a) m (vo e) (vo f) * C [i; j; m] [b; e; f]))))
  - half * (SO (fun m => SO (fun n => SV (fun e => phys m n j (vo e) * C [i; m; n] [a; b; e])))
            - SO (fun m => SO (fun n => SV (fun e => phys m n i (vo e) * C [j; m; n] [a; b; e]))))
  + half * half * SO (fun m => SO (fun n => SV (fun e => SV (fun f => phys m n (vo e) (vo f) * C [i; j; m; n] [a; b; e; f])))).
(** The coupled-cluster equations for C = exp(T): projections on connected singles and doubles *)
Variable low1 : (list so -> list so -> K) -> so -> so -> K.
Variable low2 : (list so -> list so -> K) -> so -> so -> so -> so -> K.
Definition residual1 (T : list so -> list so -> K) (i a : so) : K := row1 (low1 T i a) (CI T) i a.
Definition residual2 (T : list so -> list so -> K) (i j a b : so) : K :=
  row2 (low2 T i j a b) (CI T) i j a b
  - (T [i] [a] * residual1 T j b + T [j] [b] * residual1 T i a - T [i] [b] * residual1 T j a - T [j] [a] * residual1 T i b).
(** singles and doubles only *)
Definition trunc (T : list so -> list so -> K) : list so -> list so -> K := fun J A => if (length J <=? 2)%nat then T J A else 0.
Definition low_rank : Prop := forall T, (forall i a, low1 T i a = low1 (trunc T) i a) /\ (forall i j a b, low2 T i j a b = low2 (trunc T) i j a b).

(** ** The part with T3 and T4 *)
Add Ring Kr : (rth K).
Section Diff.
Variable T : list so -> list so -> K.
Notation T' := (trunc T).
Lemma CI3 x y z a b c : CI T [x; y; z] [a; b; c] = CI T' [x; y; z] [a; b; c] + T [x; y; z] [a; b; c].
Proof. unfold CI. cbn -[radd rmul ropp rsub r0 r1]. unfold trunc. cbn -[radd rmul ropp rsub r0 r1]. unfold sgn. ring. Qed.
Definition T13 (i j m n a b e f : so) : K :=
  T [i] [a] * T [j; m; n] [b; e; f] - T [i] [b] * T [j; m; n] [a; e; f] + T [i] [e] * T [j; m; n] [a; b; f] - T [i] [f] * T [j; m; n] [a; b; e]
  - T [j] [a] * T [i; m; n] [b; e; f] + T [j] [b] * T [i; m; n] [a; e; f] - T [j] [e] * T [i; m; n] [a; b; f] + T [j] [f] * T [i; m; n] [a; b; e]
  + T [m] [a] * T [i; j; n] [b; e; f] - T [m] [b] * T [i; j; n] [a; e; f] + T [m] [e] * T [i; j; n] [a; b; f] - T [m] [f] * T [i; j; n] [a; b; e]
  - T [n] [a] * T [i; j; m] [b; e; f] + T [n] [b] * T [i; j; m] [a; e; f] - T [n] [e] * T [i; j; m] [a; b; f] + T [n] [f] * T [i; j; m] [a; b; e].
Lemma CI4 i j m n a b e f : CI T [i; j; m; n] [a; b; e; f] = CI T' [i; j; m; n] [a; b; e; f] + (T [i; j; m; n] [a; b; e; f] + T13 i j m n a b e f).
Proof. unfold CI, T13. cbn -[radd rmul ropp rsub r0 r1]. unfold trunc. cbn -[radd rmul ropp rsub r0 r1]. unfold sgn. ring. Qed.

(** linearity of the sums *)
Lemma SO_ext f g : (forall x, f x = g x) -> SO f = SO g.
Proof. intros H. unfold SO. f_equal; apply Sum_ext; auto. Qed.
Lemma SV_ext f g : (forall x, f x = g x) -> SV f = SV g.
Proof. intros H. unfold SV. f_equal; apply Sum_ext; auto. Qed.
Lemma SO_add f g : SO (fun x => f x + g x) = SO f + SO g.
Proof. unfold SO. rewrite !Sum_add. ring. Qed.
Lemma SV_add f g : SV (fun x => f x + g x) = SV f + SV g.
Proof. unfold SV. rewrite !Sum_add. ring. Qed.
Lemma lin_ov w x y z : (forall m e, z m e = x m e + y m e) -> SO (fun m => SV (fun e => w m e * z m e)) = SO (fun m => SV (fun e => w m e * x m e)) + SO (fun m => SV (fun e => w m e * y m e)).
Proof. intros H. rewrite <- SO_add. apply SO_ext. intros m. rewrite <- SV_add. apply SV_ext. intros e. rewrite H. ring. Qed.
Lemma lin_ovv w x y z : (forall m e f, z m e f = x m e f + y m e f) ->
  SO (fun m => SV (fun e => SV (fun f => w m e f * z m e f))) = SO (fun m => SV (fun e => SV (fun f => w m e f * x m e f))) + SO (fun m => SV (fun e => SV (fun f => w m e f * y m e f))).
Proof. intros H. rewrite <- SO_add. apply SO_ext. intros m. rewrite <- SV_add. apply SV_ext. intros e. rewrite <- SV_add. apply SV_ext. intros f. rewrite H. ring. Qed.
Lemma lin_oov w x y z : (forall m e f, z m e f = x m e f + y m e f) ->
  SO (fun m => SO (fun e => SV (fun f => w m e f * z m e f))) = SO (fun m => SO (fun e => SV (fun f => w m e f * x m e f))) + SO (fun m => SO (fun e => SV (fun f => w m e f * y m e f))).
Proof. intros H. rewrite <- SO_add. apply SO_ext. intros m. rewrite <- SO_add. apply SO_ext. intros e. rewrite <- SV_add. apply SV_ext. intros f. rewrite H. ring. Qed.
Lemma lin_oovv w x y z : (forall m n e f, z m n e f = x m n e f + y m n e f) ->
  SO (fun m => SO (fun n => SV (fun e => SV (fun f => w m n e f * z m n e f)))) =
  SO (fun m => SO (fun n => SV (fun e => SV (fun f => w m n e f * x m n e f)))) + SO (fun m => SO (fun n => SV (fun e => SV (fun f => w m n e f * y m n e f)))).
Proof. intros H. rewrite <- SO_add. apply SO_ext. intros m. rewrite <- SO_add. apply SO_ext. intros n. rewrite <- SV_add. apply SV_ext. intros e. rewrite <- SV_add. apply SV_ext. intros f. rewrite H. ring. Qed.
End Diff.

(** the contribution of T3 and T4, for any integrals and amplitudes *)
Definition X13 (T1 : so -> so -> K) (T3 : so -> so -> so -> so -> so -> so -> K) (i j m n a b e f : so) : K :=
  T1 i a * T3 j m n b e f - T1 i b * T3 j m n a e f + T1 i e * T3 j m n a b f - T1 i f * T3 j m n a b e
  - T1 j a * T3 i m n b e f + T1 j b * T3 i m n a e f - T1 j e * T3 i m n a b f + T1 j f * T3 i m n a b e
  + T1 m a * T3 i j n b e f - T1 m b * T3 i j n a e f + T1 m e * T3 i j n a b f - T1 m f * T3 i j n a b e
  - T1 n a * T3 i j m b e f + T1 n b * T3 i j m a e f - T1 n e * T3 i j m a b f + T1 n f * T3 i j m a b e.
Definition D1 (P1 : so -> so -> so -> so -> K) (T3 : so -> so -> so -> so -> so -> so -> K) (i a : so) : K :=
  half * half * SO (fun m => SO (fun n => SV (fun e => SV (fun f => P1 m n e f * T3 i m n a e f)))).
Definition D2f (F : so -> so -> K) (T3 : so -> so -> so -> so -> so -> so -> K) (i j a b : so) : K := SO (fun m => SV (fun e => F m e * T3 i j m a b e)).
Definition D2v (P2 : so -> so -> so -> so -> K) (T3 : so -> so -> so -> so -> so -> so -> K) (i j a b : so) : K :=
  half * (SO (fun m => SV (fun e => SV (fun f => P2 b m e f * T3 i j m a e f))) - SO (fun m => SV (fun e => SV (fun f => P2 a m e f * T3 i j m b e f)))).
Definition D2o (P3 : so -> so -> so -> so -> K) (T3 : so -> so -> so -> so -> so -> so -> K) (i j a b : so) : K :=
  half * (SO (fun m => SO (fun n => SV (fun e => P3 m n j e * T3 i m n a b e))) - SO (fun m => SO (fun n => SV (fun e => P3 m n i e * T3 j m n a b e)))).
Definition D2q (P1 : so -> so -> so -> so -> K) (T1 : so -> so -> K) (T3 : so -> so -> so -> so -> so -> so -> K) (T4 : so -> so -> so -> so -> so -> so -> so -> so -> K) (i j a b : so) : K :=
  half * half * SO (fun m => SO (fun n => SV (fun e => SV (fun f => P1 m n e f * (T4 i j m n a b e f + X13 T1 T3 i j m n a b e f)))))
  - (T1 i a * D1 P1 T3 j b + T1 j b * D1 P1 T3 i a - T1 i b * D1 P1 T3 j a - T1 j a * D1 P1 T3 i b).
Notation t1_ T := (fun i a => T [i] [a]). Notation t3_ T := (fun i j k a b c => T [i; j; k] [a; b; c]). Notation t4_ T := (fun i j k l a b c d => T [i; j; k; l] [a; b; c; d]).
Lemma diff1 T : low_rank -> forall i a, residual1 T i a - residual1 (trunc T) i a = D1 (fun m n e f => phys m n (vo e) (vo f)) (t3_ T) i a.
Proof.
  intros L i a. unfold residual1, row1, D1. destruct (L T) as [L1 _]. rewrite L1.
  rewrite (lin_oovv (fun m n e f => phys m n (vo e) (vo f)) (fun m n e f => CI (trunc T) [i; m; n] [a; e; f]) (fun m n e f => T [i; m; n] [a; e; f])) by (intros; apply CI3). ring.
Qed.
Lemma diff2 T : low_rank -> forall i j a b, residual2 T i j a b - residual2 (trunc T) i j a b =
  D2f fock (t3_ T) i j a b + D2v (fun b m e f => phys (vo b) m (vo e) (vo f)) (t3_ T) i j a b - D2o (fun m n j e => phys m n j (vo e)) (t3_ T) i j a b
  + D2q (fun m n e f => phys m n (vo e) (vo f)) (t1_ T) (t3_ T) (t4_ T) i j a b.
Proof.
  intros L i j a b. unfold residual2. pose proof (diff1 T L) as R1. destruct (L T) as [_ L2].
  assert (E : row2 (low2 T i j a b) (CI T) i j a b - row2 (low2 (trunc T) i j a b) (CI (trunc T)) i j a b =
    D2f fock (t3_ T) i j a b + D2v (fun b m e f => phys (vo b) m (vo e) (vo f)) (t3_ T) i j a b - D2o (fun m n j e => phys m n j (vo e)) (t3_ T) i j a b
    + half * half * SO (fun m => SO (fun n => SV (fun e => SV (fun f => phys m n (vo e) (vo f) * (T [i; j; m; n] [a; b; e; f] + X13 (t1_ T) (t3_ T) i j m n a b e f)))))).
  { unfold row2, D2f, D2v, D2o. rewrite L2.
    rewrite (lin_oovv (fun m n e f => phys m n (vo e) (vo f)) (fun m n e f => CI (trunc T) [i; j; m; n] [a; b; e; f]) (fun m n e f => T [i; j; m; n] [a; b; e; f] + X13 (t1_ T) (t3_ T) i j m n a b e f)) by (intros; apply CI4).
    rewrite (lin_ov fock (fun m e => CI (trunc T) [i; j; m] [a; b; e]) (fun m e => T [i; j; m] [a; b; e])) by (intros; apply CI3).
    rewrite (lin_ovv (fun m e f => phys (vo b) m (vo e) (vo f)) (fun m e f => CI (trunc T) [i; j; m] [a; e; f]) (fun m e f => T [i; j; m] [a; e; f])) by (intros; apply CI3).
    rewrite (lin_ovv (fun m e f => phys (vo a) m (vo e) (vo f)) (fun m e f => CI (trunc T) [i; j; m] [b; e; f]) (fun m e f => T [i; j; m] [b; e; f])) by (intros; apply CI3).
    rewrite (lin_oov (fun m n e => phys m n j (vo e)) (fun m n e => CI (trunc T) [i; m; n] [a; b; e]) (fun m n e => T [i; m; n] [a; b; e])) by (intros; apply CI3).
    rewrite (lin_oov (fun m n e => phys m n i (vo e)) (fun m n e => CI (trunc T) [j; m; n] [a; b; e]) (fun m n e => T [j; m; n] [a; b; e])) by (intros; apply CI3).
    ring. }
  unfold D2q. rewrite <- !R1. assert (Z : forall x y, trunc T [x] [y] = T [x] [y]) by reflexivity. rewrite !Z.
  match type of E with ?l = ?r => transitivity (l - (T [i] [a] * (residual1 T j b - residual1 (trunc T) j b) + T [j] [b] * (residual1 T i a - residual1 (trunc T) i a)
     - T [i] [b] * (residual1 T j a - residual1 (trunc T) j a) - T [j] [a] * (residual1 T i b - residual1 (trunc T) i b))); [ring|rewrite E; ring] end.
Qed.
(** only the values matter *)
Ltac dext H := repeat first [apply H | progress f_equal | apply SO_ext; intros ? | apply SV_ext; intros ?].
Lemma D1_ext P P' T3 T3' : (forall m n e f, P m n e f = P' m n e f) -> (forall i j k a b c, T3 i j k a b c = T3' i j k a b c) -> forall i a, D1 P T3 i a = D1 P' T3' i a.
Proof. intros H1 H3 i a. unfold D1. f_equal. apply SO_ext; intros m; apply SO_ext; intros n; apply SV_ext; intros e; apply SV_ext; intros f. rewrite H1, H3. reflexivity. Qed.
Lemma D2f_ext F F' T3 T3' : (forall m n, F m n = F' m n) -> (forall i j k a b c, T3 i j k a b c = T3' i j k a b c) -> forall i j a b, D2f F T3 i j a b = D2f F' T3' i j a b.
Proof. intros H1 H3 i j a b. unfold D2f. apply SO_ext; intros m; apply SV_ext; intros e. rewrite H1, H3. reflexivity. Qed.
Lemma D2v_ext P P' T3 T3' : (forall m n e f, P m n e f = P' m n e f) -> (forall i j k a b c, T3 i j k a b c = T3' i j k a b c) -> forall i j a b, D2v P T3 i j a b = D2v P' T3' i j a b.
Proof. intros H1 H3 i j a b. unfold D2v. f_equal. f_equal; apply SO_ext; intros m; apply SV_ext; intros e; apply SV_ext; intros f; rewrite H1, H3; reflexivity. Qed.
Lemma D2o_ext P P' T3 T3' : (forall m n e f, P m n e f = P' m n e f) -> (forall i j k a b c, T3 i j k a b c = T3' i j k a b c) -> forall i j a b, D2o P T3 i j a b = D2o P' T3' i j a b.
Proof. intros H1 H3 i j a b. unfold D2o. f_equal. f_equal; apply SO_ext; intros m; apply SO_ext; intros e; apply SV_ext; intros f; rewrite H1, H3; reflexivity. Qed.
Lemma D2q_ext P P' T1 T1' T3 T3' T4 T4' : (forall m n e f, P m n e f = P' m n e f) -> (forall i a, T1 i a = T1' i a) -> (forall i j k a b c, T3 i j k a b c = T3' i j k a b c) ->
  (forall i j k l a b c d, T4 i j k l a b c d = T4' i j k l a b c d) -> forall i j a b, D2q P T1 T3 T4 i j a b = D2q P' T1' T3' T4' i j a b.
Proof.
  intros H HT1 H3 H4 i j a b. unfold D2q. rewrite !HT1, !(D1_ext P P' T3 T3' H H3). f_equal. f_equal. apply SO_ext; intros m; apply SO_ext; intros n; apply SV_ext; intros e; apply SV_ext; intros f.
  unfold X13. rewrite H, !HT1, !H3, H4. reflexivity.
Qed.
End Spec.

(** ** Entries of T through blocks with the alpha orbitals first *)
Fixpoint part (l : list so) : bool * (list nat * list nat) :=
  match l with
  | [] => (false, ([], []))
  | x :: r => let v := part r in if fst x then (fst v, (snd x :: fst (snd v), snd (snd v))) else (xorb (fst v) (Nat.odd (length (fst (snd v)))), (fst (snd v), snd x :: snd (snd v)))
  end.
Section Part.
Context {K : cring}.
Add Ring Krp : (rth K).
Lemma move_past (f : list so -> K) : (forall p x y q, f (p ++ x :: y :: q) = - f (p ++ y :: x :: q)) -> forall l p x q, f (p ++ x :: l ++ q) = sgn (Nat.odd (length l)) * f (p ++ l ++ x :: q).
Proof.
  intros H. induction l as [|y l IH]; intros p x q; [unfold sgn; cbn; ring|]. cbn [length app]. rewrite H. pose proof (IH (p ++ [y]) x q) as E. rewrite <- !app_assoc in E. cbn [app] in E. rewrite E.
  rewrite Nat.odd_succ, <- Nat.negb_odd, sgn_neg. ring.
Qed.
Lemma part_ok (f : list so -> K) : (forall p x y q, f (p ++ x :: y :: q) = - f (p ++ y :: x :: q)) -> forall l p,
  f (p ++ l) = sgn (fst (part l)) * f (p ++ map (pair al) (fst (snd (part l))) ++ map (pair be) (snd (snd (part l)))).
Proof.
  intros H. induction l as [|[s x] l IH]; intros p; [cbn; unfold sgn; ring|]. pose proof (IH (p ++ [(s, x)])) as E. rewrite <- !app_assoc in E. cbn [app] in E. rewrite E. cbn [part]. destruct s; cbn [fst snd map app]; [reflexivity|].
  rewrite (move_past f H), map_length, sgn_xor. ring.
Qed.
Lemma part_al l : length (filter fst l) = length (fst (snd (part l))).
Proof. induction l as [|[[] x] l IH]; cbn; auto. Qed.
Definition canonE (U : list nat -> list nat -> list nat -> list nat -> K) (J A : list so) : K :=
  let v := part J in let w := part A in
  if (length (fst (snd v)) =? length (fst (snd w)))%nat then sgn (fst v) * (sgn (fst w) * U (fst (snd v)) (snd (snd v)) (fst (snd w)) (snd (snd w))) else 0.
Lemma canonE_ok T : antisymmetric T -> spin_conserving T -> forall J A,
  T J A = canonE (fun i j a b => T (map (pair al) i ++ map (pair be) j) (map (pair al) a ++ map (pair be) b)) J A.
Proof.
  intros [H1 H2] HS J A. unfold canonE. cbv zeta. destruct (_ =? _)%nat eqn:E.
  - pose proof (part_ok (fun J => T J A) (fun p x y q => H1 p x y q _) J []) as EJ. pose proof (part_ok (fun A => T (map (pair al) (fst (snd (part J))) ++ map (pair be) (snd (snd (part J)))) A) (fun p x y q => H2 p x y q _) A []) as EA.
    cbn [app] in EJ, EA. rewrite EJ, EA. reflexivity.
  - apply HS. rewrite !part_al. apply Nat.eqb_neq. auto.
Qed.
End Part.

(** symmetries of the blocks: generators (exchanges of neighbouring orbitals of the same spin) and the groups they generate *)
Definition sw3 : list symt := [
  [([1;0;2;3;4;5], true); ([0;2;1;3;4;5], true); ([0;1;2;4;3;5], true); ([0;1;2;3;5;4], true)];
  [([1;0;2;3;4;5], true); ([0;1;2;4;3;5], true)];
  [([0;2;1;3;4;5], true); ([0;1;2;3;5;4], true)]]%nat.
Definition sw4 : list symt := [
  [([1;0;2;3;4;5;6;7], true); ([0;2;1;3;4;5;6;7], true); ([0;1;3;2;4;5;6;7], true); ([0;1;2;3;5;4;6;7], true); ([0;1;2;3;4;6;5;7], true); ([0;1;2;3;4;5;7;6], true)];
  [([1;0;2;3;4;5;6;7], true); ([0;2;1;3;4;5;6;7], true); ([0;1;2;3;5;4;6;7], true); ([0;1;2;3;4;6;5;7], true)];
  [([1;0;2;3;4;5;6;7], true); ([0;1;3;2;4;5;6;7], true); ([0;1;2;3;5;4;6;7], true); ([0;1;2;3;4;5;7;6], true)];
  [([0;2;1;3;4;5;6;7], true); ([0;1;3;2;4;5;6;7], true); ([0;1;2;3;4;6;5;7], true); ([0;1;2;3;4;5;7;6], true)]]%nat.
Definition gr3_0 : symt := Eval vm_compute in closure 12 (nth 0 sw3 []) (nth 0 sw3 []) (nth 0 sw3 []). Definition gr3_1 : symt := Eval vm_compute in closure 12 (nth 1 sw3 []) (nth 1 sw3 []) (nth 1 sw3 []).
Definition gr3_2 : symt := Eval vm_compute in closure 12 (nth 2 sw3 []) (nth 2 sw3 []) (nth 2 sw3 []).
Definition gr4_0 : symt := Eval vm_compute in closure 16 (nth 0 sw4 []) (nth 0 sw4 []) (nth 0 sw4 []). Definition gr4_1 : symt := Eval vm_compute in closure 16 (nth 1 sw4 []) (nth 1 sw4 []) (nth 1 sw4 []).
Definition gr4_2 : symt := Eval vm_compute in closure 16 (nth 2 sw4 []) (nth 2 sw4 []) (nth 2 sw4 []). Definition gr4_3 : symt := Eval vm_compute in closure 16 (nth 3 sw4 []) (nth 3 sw4 []) (nth 3 sw4 []).
Section Groups.
Context {K : cring} (t : list nat -> K).
Lemma ok3_0 : symok t (nth 0 sw3 []) -> symok t gr3_0. Proof. intros H. pose proof (ok_closure t 6 12 _ H eq_refl) as E. replace gr3_0 with (closure 12 (nth 0 sw3 []) (nth 0 sw3 []) (nth 0 sw3 [])) by (vm_compute; reflexivity). exact E. Qed.
Lemma ok3_1 : symok t (nth 1 sw3 []) -> symok t gr3_1. Proof. intros H. pose proof (ok_closure t 6 12 _ H eq_refl) as E. replace gr3_1 with (closure 12 (nth 1 sw3 []) (nth 1 sw3 []) (nth 1 sw3 [])) by (vm_compute; reflexivity). exact E. Qed.
Lemma ok3_2 : symok t (nth 2 sw3 []) -> symok t gr3_2. Proof. intros H. pose proof (ok_closure t 6 12 _ H eq_refl) as E. replace gr3_2 with (closure 12 (nth 2 sw3 []) (nth 2 sw3 []) (nth 2 sw3 [])) by (vm_compute; reflexivity). exact E. Qed.
Lemma ok4_0 : symok t (nth 0 sw4 []) -> symok t gr4_0. Proof. intros H. pose proof (ok_closure t 8 16 _ H eq_refl) as E. replace gr4_0 with (closure 16 (nth 0 sw4 []) (nth 0 sw4 []) (nth 0 sw4 [])) by (vm_compute; reflexivity). exact E. Qed.
Lemma ok4_1 : symok t (nth 1 sw4 []) -> symok t gr4_1. Proof. intros H. pose proof (ok_closure t 8 16 _ H eq_refl) as E. replace gr4_1 with (closure 16 (nth 1 sw4 []) (nth 1 sw4 []) (nth 1 sw4 [])) by (vm_compute; reflexivity). exact E. Qed.
Lemma ok4_2 : symok t (nth 2 sw4 []) -> symok t gr4_2. Proof. intros H. pose proof (ok_closure t 8 16 _ H eq_refl) as E. replace gr4_2 with (closure 16 (nth 2 sw4 []) (nth 2 sw4 []) (nth 2 sw4 [])) by (vm_compute; reflexivity). exact E. Qed.
Lemma ok4_3 : symok t (nth 3 sw4 []) -> symok t gr4_3. Proof. intros H. pose proof (ok_closure t 8 16 _ H eq_refl) as E. replace gr4_3 with (closure 16 (nth 3 sw4 []) (nth 3 sw4 []) (nth 3 sw4 [])) by (vm_compute; reflexivity). exact E. Qed.
End Groups.

(** ** Unrestricted: the code evaluates this contribution *)
Section UBlocks.
Context {K : cring}.
Add Ring Kru : (rth K).
Variable half : K.
Hypothesis Hhalf : half + half = 1.
Variables noa nob nva nvb : nat.
Notation mat := (nat -> nat -> K). Notation ten := (nat -> nat -> nat -> nat -> K). Notation ten6 := (ten6 K). Notation ten8 := (ten8 K).
Variables ta tb fa fb : mat.
Variables taaa taab tabb tbbb : ten6.
Variables taaaa taaab taabb tabbb tbbbb : ten8.
Variables ovov_aa ovov_ab ovov_bb ooov_aa ooov_ab ooov_bb ovvv_aa ovvv_ab ovvv_bb vvov_ab ovoo_ab : ten.
Notation no := (fun s : bool => if s then noa else nob). Notation nv := (fun s : bool => if s then nva else nvb).
(** amplitudes and integrals over spin orbitals *)
Definition e1 (x y : mat) (i a : so) : K := match fst i, fst a with true, true => x (snd i) (snd a) | false, false => y (snd i) (snd a) | _, _ => 0 end.
Definition e3 (i j k a b c : so) : K := canonE (fun J J' A A' => match J, J', A, A' with
  | [i; j; k], [], [a; b; c], [] => taaa i j k a b c | [i; j], [k], [a; b], [c] => taab i j k a b c | [i], [j; k], [a], [b; c] => tabb i j k a b c | [], [i; j; k], [], [a; b; c] => tbbb i j k a b c
  | _, _, _, _ => 0 end) [i; j; k] [a; b; c].
Definition e4 (i j k l a b c d : so) : K := canonE (fun J J' A A' => match J, J', A, A' with
  | [i; j; k; l], [], [a; b; c; d], [] => taaaa i j k l a b c d | [i; j; k], [l], [a; b; c], [d] => taaab i j k l a b c d | [i; j], [k; l], [a; b], [c; d] => taabb i j k l a b c d
  | [i], [j; k; l], [a], [b; c; d] => tabbb i j k l a b c d | [], [i; j; k; l], [], [a; b; c; d] => tbbbb i j k l a b c d
  | _, _, _, _ => 0 end) [i; j; k; l] [a; b; c; d].
Definition a1 (m e n f : so) : K := match fst m, fst e, fst n, fst f with
  | true, true, true, true => ovov_aa (snd m) (snd e) (snd n) (snd f) | true, true, false, false => ovov_ab (snd m) (snd e) (snd n) (snd f)
  | false, false, true, true => ovov_ab (snd n) (snd f) (snd m) (snd e) | false, false, false, false => ovov_bb (snd m) (snd e) (snd n) (snd f) | _, _, _, _ => 0 end.
Definition a2 (b e m f : so) : K := match fst b, fst e, fst m, fst f with
  | true, true, true, true => ovvv_aa (snd m) (snd f) (snd b) (snd e) | true, true, false, false => vvov_ab (snd b) (snd e) (snd m) (snd f)
  | false, false, true, true => ovvv_ab (snd m) (snd f) (snd b) (snd e) | false, false, false, false => ovvv_bb (snd m) (snd f) (snd b) (snd e) | _, _, _, _ => 0 end.
Definition a3 (m j n e : so) : K := match fst m, fst j, fst n, fst e with
  | true, true, true, true => ooov_aa (snd m) (snd j) (snd n) (snd e) | true, true, false, false => ooov_ab (snd m) (snd j) (snd n) (snd e)
  | false, false, true, true => ovoo_ab (snd n) (snd e) (snd m) (snd j) | false, false, false, false => ooov_bb (snd m) (snd j) (snd n) (snd e) | _, _, _, _ => 0 end.
Definition p1 (m n e f : so) : K := a1 m e n f - a1 m f n e.
Definition p2 (b m e f : so) : K := a2 b e m f - a2 b f m e.
Definition p3 (m n j e : so) : K := a3 m j n e - a3 n j m e.
(** the arrays of the code *)
Notation taba := (fun i j k a b c => taab i k j a c b).
Notation tbab := (fun i j k a b c => tabb j i k b a c).
Notation tabab := (fun i j k l a b c d => taabb i k j l a c b d).
Hypothesis Saaa : symok (w6 taaa) (nth 0 sw3 []). Hypothesis Saab : symok (w6 taab) (nth 1 sw3 []). Hypothesis Sabb : symok (w6 tabb) (nth 2 sw3 []). Hypothesis Sbbb : symok (w6 tbbb) (nth 0 sw3 []).
Hypothesis Saaaa : symok (w8 taaaa) (nth 0 sw4 []). Hypothesis Saaab : symok (w8 taaab) (nth 1 sw4 []). Hypothesis Saabb : symok (w8 taabb) (nth 2 sw4 []). Hypothesis Sabbb : symok (w8 tabbb) (nth 3 sw4 []). Hypothesis Sbbbb : symok (w8 tbbbb) (nth 0 sw4 []).
Definition pswap : symt := [([2;3;0;1], false)]%nat. Definition s01 : symt := [([1;0;2;3], false)]%nat. Definition s23 : symt := [([0;1;3;2], false)]%nat.
Hypothesis Sovov_aa : symok (w4 ovov_aa) pswap. Hypothesis Sovov_bb : symok (w4 ovov_bb) pswap.
Hypothesis Sooov_aa : symok (w4 ooov_aa) s01. Hypothesis Sooov_bb : symok (w4 ooov_bb) s01. Hypothesis Sooov_ab : symok (w4 ooov_ab) s01.
Hypothesis Sovvv_aa : symok (w4 ovvv_aa) s23. Hypothesis Sovvv_bb : symok (w4 ovvv_bb) s23. Hypothesis Sovvv_ab : symok (w4 ovvv_ab) s23.
Hypothesis Svvov_ab : symok (w4 vvov_ab) s01. Hypothesis Sovoo_ab : symok (w4 ovoo_ab) s23.
Let n2 (t : mat) := ok_none (w2 t).
Ltac build := 
  pose proof (Forall2_cons _ _ (n2 ta) (Forall2_cons _ _ (n2 tb) (Forall2_cons _ _ (n2 fa) (Forall2_cons _ _ (n2 fb)
    (Forall2_cons _ _ (ok3_0 _ Saaa) (Forall2_cons _ _ (ok3_1 _ Saab) (Forall2_cons _ _ (ok3_2 _ Sabb) (Forall2_cons _ _ (ok3_0 _ Sbbb)
    (Forall2_cons _ _ (ok4_0 _ Saaaa) (Forall2_cons _ _ (ok4_1 _ Saaab) (Forall2_cons _ _ (ok4_2 _ Saabb) (Forall2_cons _ _ (ok4_3 _ Sabbb) (Forall2_cons _ _ (ok4_0 _ Sbbbb)
    (Forall2_cons _ _ Sovov_aa (Forall2_cons _ _ (ok_none (w4 ovov_ab)) (Forall2_cons _ _ Sovov_bb
    (Forall2_cons _ _ Sooov_aa (Forall2_cons _ _ Sooov_ab (Forall2_cons _ _ Sooov_bb
    (Forall2_cons _ _ Sovvv_aa (Forall2_cons _ _ Sovvv_ab (Forall2_cons _ _ Sovvv_bb (Forall2_cons _ _ Svvov_ab (Forall2_cons _ _ Sovoo_ab (Forall2_nil _))))))))))))))))))))))))) as Hsym.
Lemma u_d1a i a : D1 half no nv p1 e3 (al, i) (al, a) = uhf_dt1_aa half noa nob nva nvb taaa taba tbab tbbb ovov_aa ovov_ab ovov_bb i a.
Proof. build. unfold D1, SO, SV, p1, a1, e3, canonE, uhf_dt1_aa, sgn; cbn -[radd rmul ropp rsub r0 r1 Sum]. esum8 Hhalf Hsym [noa; nob; nva; nvb] [i; a]. Qed.
Ltac uopen := unfold D1, D2f, D2v, D2o, D2q, X13, D1, SO, SV, p1, p2, p3, a1, a2, a3, e1, e3, e4, canonE, sgn; cbn -[radd rmul ropp rsub r0 r1 Sum].
Lemma u_d1b i a : D1 half no nv p1 e3 (be, i) (be, a) = uhf_dt1_bb half noa nob nva nvb taaa taba tbab tbbb ovov_aa ovov_ab ovov_bb i a.
Proof. build. uopen. unfold uhf_dt1_bb; cbv beta zeta. esum8 Hhalf Hsym [noa; nob; nva; nvb] [i; a]. Qed.
Notation t3v_args f := (f noa nob nva nvb taaa taba tbab tbbb ooov_aa ooov_ab ooov_bb ovvv_aa ovvv_ab ovvv_bb vvov_ab ovoo_ab).
Notation dt2_args f := (f half noa nob nva nvb ta tb taaa taba tbab tbbb taaaa taaab tabab tabbb tbbbb fa fb ovov_aa ovov_ab ovov_bb).
Lemma u_v_aa i j a b : D2v half no nv p2 e3 (al, i) (al, j) (al, a) (al, b) - D2o half no nv p3 e3 (al, i) (al, j) (al, a) (al, b) = t3v_args uhf_t3v_aaaa i j a b.
Proof. build. uopen. unfold uhf_t3v_aaaa; cbv beta zeta. esum8 Hhalf Hsym [noa; nob; nva; nvb] [i; j; a; b]. Qed.
Lemma u_v_bb i j a b : D2v half no nv p2 e3 (be, i) (be, j) (be, a) (be, b) - D2o half no nv p3 e3 (be, i) (be, j) (be, a) (be, b) = t3v_args uhf_t3v_bbbb i j a b.
Proof. build. uopen. unfold uhf_t3v_bbbb; cbv beta zeta. esum8 Hhalf Hsym [noa; nob; nva; nvb] [i; j; a; b]. Qed.
Lemma u_v_ab i j a b : D2v half no nv p2 e3 (al, i) (be, j) (al, a) (be, b) - D2o half no nv p3 e3 (al, i) (be, j) (al, a) (be, b) = t3v_args uhf_t3v_abab i j a b.
Proof. build. uopen. unfold uhf_t3v_abab; cbv beta zeta. esum8 Hhalf Hsym [noa; nob; nva; nvb] [i; j; a; b]. Qed.
Lemma u_q_aa i j a b : D2f no nv (e1 fa fb) e3 (al, i) (al, j) (al, a) (al, b) + D2q half no nv p1 (e1 ta tb) e3 e4 (al, i) (al, j) (al, a) (al, b) = dt2_args uhf_dt2_aaaa i j a b.
Proof. build. uopen. unfold uhf_dt2_aaaa; cbv beta zeta. esum8 Hhalf Hsym [noa; nob; nva; nvb] [i; j; a; b]. Qed.
Lemma u_q_bb i j a b : D2f no nv (e1 fa fb) e3 (be, i) (be, j) (be, a) (be, b) + D2q half no nv p1 (e1 ta tb) e3 e4 (be, i) (be, j) (be, a) (be, b) = dt2_args uhf_dt2_bbbb i j a b.
Proof. build. uopen. unfold uhf_dt2_bbbb; cbv beta zeta. esum8 Hhalf Hsym [noa; nob; nva; nvb] [i; j; a; b]. Qed.
Lemma u_q_ab i j a b : D2f no nv (e1 fa fb) e3 (al, i) (be, j) (al, a) (be, b) + D2q half no nv p1 (e1 ta tb) e3 e4 (al, i) (be, j) (al, a) (be, b) = dt2_args uhf_dt2_abab i j a b.
Proof. build. uopen. unfold uhf_dt2_abab; cbv beta zeta. esum8 Hhalf Hsym [noa; nob; nva; nvb] [i; j; a; b]. Qed.
Lemma u_sym_aaaa i j a b : (dt2_args uhf_dt2_aaaa i j a b + t3v_args uhf_t3v_aaaa i j a b = - (dt2_args uhf_dt2_aaaa j i a b + t3v_args uhf_t3v_aaaa j i a b)) /\
  (dt2_args uhf_dt2_aaaa i j a b + t3v_args uhf_t3v_aaaa i j a b = - (dt2_args uhf_dt2_aaaa i j b a + t3v_args uhf_t3v_aaaa i j b a)).
Proof. build. unfold uhf_dt2_aaaa, uhf_t3v_aaaa; cbv beta zeta. split; esum8 Hhalf Hsym [noa; nob; nva; nvb] [i; j; a; b]. Qed.
Lemma u_sym_bbbb i j a b : (dt2_args uhf_dt2_bbbb i j a b + t3v_args uhf_t3v_bbbb i j a b = - (dt2_args uhf_dt2_bbbb j i a b + t3v_args uhf_t3v_bbbb j i a b)) /\
  (dt2_args uhf_dt2_bbbb i j a b + t3v_args uhf_t3v_bbbb i j a b = - (dt2_args uhf_dt2_bbbb i j b a + t3v_args uhf_t3v_bbbb i j b a)).
Proof. build. unfold uhf_dt2_bbbb, uhf_t3v_bbbb; cbv beta zeta. split; esum8 Hhalf Hsym [noa; nob; nva; nvb] [i; j; a; b]. Qed.
(** T3*V as contracted for the integrals of another cluster (_get_delta_t2_from_t3v), without the transformations to that cluster *)
Definition low0_aaaa (govvv_aaaa govvv_aabb govvv_bbbb gvvov_aabb gooov_aaaa gooov_aabb gooov_bbbb govoo_aabb : ten) (t3_aaa t3_aba t3_bab t3_bbb : ten6) : ten :=
  let x0 : ten := fun i J a b => Sum noa (fun l => Sum nob (fun k => Sum nvb (fun c => gooov_aabb J l k c * t3_aba i k l a c b))) in
  let x1 : ten := fun i J a b => - (Sum noa (fun l => Sum noa (fun k => Sum nva (fun c => gooov_aaaa J l k c * t3_aaa i k l a b c)))) in
  let x2 : ten := fun i J a b => - (x0 i J b a) in
  let x2 : ten := fun i J a b => x2 i J a b + - (x1 i J b a) in
  let x2 : ten := fun I J A B => x2 I J A B in
  let dt2_aaaa : ten := fun i j a b => - (x2 i j a b) in
  let dt2_aaaa : ten := fun i j a b => dt2_aaaa i j a b + x2 j i a b in
  let x0 : ten := fun i j a B => Sum nva (fun d => Sum nob (fun k => Sum nvb (fun c => gvvov_aabb B d k c * t3_aba i k j a c d))) in
  let x1 : ten := fun i j a B => Sum noa (fun k => Sum nva (fun c => Sum nva (fun d => govvv_aaaa k c B d * t3_aaa i j k a c d))) in
  let x2 : ten := fun i j a B => x0 i j a B in
  let x2 : ten := fun i j a B => x2 i j a B + - (x1 i j a B) in
  let x2 : ten := fun I J A B => x2 I J A B in
  let dt2_aaaa : ten := fun i j a b => dt2_aaaa i j a b + x2 i j a b in
  let dt2_aaaa : ten := fun i j a b => dt2_aaaa i j a b + - (x2 i j b a) in
  dt2_aaaa.

Definition low0_abab (govvv_aaaa govvv_aabb govvv_bbbb gvvov_aabb gooov_aaaa gooov_aabb gooov_bbbb govoo_aabb : ten) (t3_aaa t3_aba t3_bab t3_bbb : ten6) : ten :=
  let x0 : ten := fun I j a b => - (Sum noa (fun l => Sum nob (fun k => Sum nvb (fun c => gooov_aabb I l k c * t3_bab j l k b a c)))) in
  let x0 : ten := fun I j a b => x0 I j a b + - (Sum noa (fun l => Sum noa (fun m => Sum nva (fun d => gooov_aaaa I l m d * t3_aba l j m a b d)))) in
  let dt2_abab : ten := fun I J A B => x0 I J A B in
  let x0 : ten := fun i J a b => Sum nob (fun n => Sum nob (fun k => Sum nvb (fun c => gooov_bbbb J n k c * t3_bab k i n b a c))) in
  let x0 : ten := fun i J a b => x0 i J a b + - (Sum noa (fun l => Sum nva (fun d => Sum nob (fun k => govoo_aabb l d J k * t3_aba i k l a b d)))) in
  let dt2_abab : ten := fun I J A B => dt2_abab I J A B + x0 I J A B in
  let x0 : ten := fun i j A b => - (Sum noa (fun l => Sum nva (fun d => Sum nva (fun e => govvv_aaaa l d A e * t3_aba i j l d b e)))) in
  let x0 : ten := fun i j A b => x0 i j A b + Sum nva (fun d => Sum nob (fun k => Sum nvb (fun c => gvvov_aabb A d k c * t3_bab j i k b d c))) in
  let dt2_abab : ten := fun I J A B => dt2_abab I J A B + x0 I J A B in
  let x0 : ten := fun i j a B => Sum noa (fun l => Sum nva (fun d => Sum nvb (fun c => govvv_aabb l d B c * t3_aba i j l a c d))) in
  let x0 : ten := fun i j a B => x0 i j a B + - (Sum nob (fun k => Sum nvb (fun c => Sum nvb (fun f => govvv_bbbb k c B f * t3_bab j i k c a f)))) in
  let dt2_abab : ten := fun I J A B => dt2_abab I J A B + x0 I J A B in
  dt2_abab.

Definition low0_bbbb (govvv_aaaa govvv_aabb govvv_bbbb gvvov_aabb gooov_aaaa gooov_aabb gooov_bbbb govoo_aabb : ten) (t3_aaa t3_aba t3_bab t3_bbb : ten6) : ten :=
  let x0 : ten := fun i J a b => Sum nob (fun k => Sum nob (fun l => Sum nvb (fun c => gooov_bbbb J k l c * t3_bbb i k l a b c))) in
  let x1 : ten := fun i J a b => Sum noa (fun l => Sum nva (fun c => Sum nob (fun k => govoo_aabb l c J k * t3_bab i l k a c b))) in
  let x2 : ten := fun i J a b => - (x0 i J b a) in
  let x2 : ten := fun i J a b => x2 i J a b + - (x1 i J b a) in
  let x2 : ten := fun I J A B => x2 I J A B in
  let dt2_bbbb : ten := fun i j a b => - (x2 i j a b) in
  let dt2_bbbb : ten := fun i j a b => dt2_bbbb i j a b + x2 j i a b in
  let x0 : ten := fun i j a B => - (Sum nob (fun k => Sum nvb (fun d => Sum nvb (fun c => govvv_bbbb k d B c * t3_bbb i j k a c d)))) in
  let x1 : ten := fun i j a B => Sum noa (fun k => Sum nva (fun d => Sum nvb (fun c => govvv_aabb k d B c * t3_bab i k j a d c))) in
  let x2 : ten := fun i j a B => x0 i j a B in
  let x2 : ten := fun i j a B => x2 i j a B + - (x1 i j a B) in
  let x2 : ten := fun I J A B => x2 I J A B in
  let dt2_bbbb : ten := fun i j a b => dt2_bbbb i j a b + - (x2 i j a b) in
  let dt2_bbbb : ten := fun i j a b => dt2_bbbb i j a b + x2 i j b a in
  dt2_bbbb.
Lemma u_low0_aaaa i j a b : low0_aaaa ovvv_aa ovvv_ab ovvv_bb vvov_ab ooov_aa ooov_ab ooov_bb ovoo_ab taaa taba tbab tbbb i j a b = t3v_args uhf_t3v_aaaa i j a b.
Proof. build. unfold low0_aaaa, uhf_t3v_aaaa; cbv beta zeta. esum8 Hhalf Hsym [noa; nob; nva; nvb] [i; j; a; b]. Qed.
Lemma u_low0_abab i j a b : low0_abab ovvv_aa ovvv_ab ovvv_bb vvov_ab ooov_aa ooov_ab ooov_bb ovoo_ab taaa taba tbab tbbb i j a b = t3v_args uhf_t3v_abab i j a b.
Proof. build. unfold low0_abab, uhf_t3v_abab; cbv beta zeta. esum8 Hhalf Hsym [noa; nob; nva; nvb] [i; j; a; b]. Qed.
Lemma u_low0_bbbb i j a b : low0_bbbb ovvv_aa ovvv_ab ovvv_bb vvov_ab ooov_aa ooov_ab ooov_bb ovoo_ab taaa taba tbab tbbb i j a b = t3v_args uhf_t3v_bbbb i j a b.
Proof. build. unfold low0_bbbb, uhf_t3v_bbbb; cbv beta zeta. esum8 Hhalf Hsym [noa; nob; nva; nvb] [i; j; a; b]. Qed.
Lemma u_1 i j a b s t (Hst : (s, t) = (al, al) \/ (s, t) = (al, be) \/ (s, t) = (be, be)) :
  D2f no nv (e1 fa fb) e3 (s, i) (t, j) (s, a) (t, b) + D2v half no nv p2 e3 (s, i) (t, j) (s, a) (t, b) - D2o half no nv p3 e3 (s, i) (t, j) (s, a) (t, b) + D2q half no nv p1 (e1 ta tb) e3 e4 (s, i) (t, j) (s, a) (t, b)
  = match s, t with al, al => dt2_args uhf_dt2_aaaa i j a b + t3v_args uhf_t3v_aaaa i j a b | al, _ => dt2_args uhf_dt2_abab i j a b + t3v_args uhf_t3v_abab i j a b | _, _ => dt2_args uhf_dt2_bbbb i j a b + t3v_args uhf_t3v_bbbb i j a b end.
Proof.
  destruct Hst as [H | [H | H]]; injection H; intros; subst s t;
  [rewrite <- u_q_aa, <- u_v_aa | rewrite <- u_q_ab, <- u_v_ab | rewrite <- u_q_bb, <- u_v_bb]; ring.
Qed.
End UBlocks.

(** ** The unrestricted theorem *)
Section UThm.
Context {F : cfield}.
Add Ring Krt : (rth F).
Notation mat := (nat -> nat -> F). Notation ten := (nat -> nat -> nat -> nat -> F). Notation ten6 := (ten6 F). Notation ten8 := (ten8 F).
(** real orbitals: (pq|rs) = (qp|rs) = (pq|sr), for equal spins also (rs|pq) *)
Definition real4 (e : ten) : Prop := (forall p q r u, e p q r u = e q p r u) /\ (forall p q r u, e p q r u = e p q u r).
Definition real8 (e : ten) : Prop := real4 e /\ (forall p q r u, e p q r u = e r u p q).
(** the integrals for all pairs of spins *)
Definition eri_u (eaa eab ebb : ten) (s t : bool) : ten := match s, t with al, al => eaa | al, _ => eab | _, al => (fun p q r u => eab r u p q) | _, _ => ebb end.
Definition by_spin {A} (x y : A) (s : bool) : A := if s then x else y.
Lemma canonE_ext (U V : list nat -> list nat -> list nat -> list nat -> F) J A : length J = length A ->
  (forall j j' a a', length j + length j' = length J -> length j = length a -> length j' = length a' -> U j j' a a' = V j j' a a')%nat -> canonE U J A = canonE V J A.
Proof.
  intros E H. unfold canonE. cbv zeta. destruct (_ =? _)%nat eqn:L; [|reflexivity]. apply Nat.eqb_eq in L. f_equal. f_equal.
  assert (P : forall l, length l = (length (fst (snd (part l))) + length (snd (snd (part l))))%nat) by (induction l as [|[[] x] l IH]; cbn; lia).
  apply H; [symmetry; apply P | exact L |]. rewrite (P J), (P A), L in E. lia.
Qed.
Section Fixed.
Variable T : list so -> list so -> F.
Hypothesis HA : antisymmetric T. Hypothesis HS : spin_conserving T.
Lemma T1_e (ta tb : mat) : (forall i a, ta i a = bl1 T al i a /\ tb i a = bl1 T be i a) -> forall i a, T [i] [a] = e1 ta tb i a.
Proof. intros H [[] i] [[] a]; unfold e1; cbn [fst snd]; first [symmetry; apply (proj1 (H i a)) | symmetry; apply (proj2 (H i a)) | apply HS; cbn; discriminate]. Qed.
Lemma swap0 x y q u v r : T (x :: y :: q) (u :: v :: r) = T (y :: x :: q) (v :: u :: r).
Proof. destruct HA as [H1 H2]. pose proof (H1 [] x y q (u :: v :: r)) as E1. pose proof (H2 [] u v r (y :: x :: q)) as E2. cbn [app] in E1, E2. rewrite E1, E2. ring. Qed.
Lemma swap1 z x y q w u v r : T (z :: x :: y :: q) (w :: u :: v :: r) = T (z :: y :: x :: q) (w :: v :: u :: r).
Proof. destruct HA as [H1 H2]. pose proof (H1 [z] x y q (w :: u :: v :: r)) as E1. pose proof (H2 [w] u v r (z :: y :: x :: q)) as E2. cbn [app] in E1, E2. rewrite E1, E2. ring. Qed.
Ltac lists3 J A L LA := destruct J as [|? [|? [|? [|? J]]]]; cbn [length] in L; try lia; destruct A as [|? [|? [|? [|? A]]]]; cbn [length] in LA; try lia.
Ltac lists4 J A L LA := destruct J as [|? [|? [|? [|? [|? J]]]]]; cbn [length] in L; try lia; destruct A as [|? [|? [|? [|? [|? A]]]]]; cbn [length] in LA; try lia.
Lemma T3_e (taaa taba tbab tbbb : ten6) : (forall i j k a b c, taaa i j k a b c = bl3 T al al al i j k a b c /\ taba i j k a b c = bl3 T al be al i j k a b c /\
     tbab i j k a b c = bl3 T be al be i j k a b c /\ tbbb i j k a b c = bl3 T be be be i j k a b c) ->
  forall i j k a b c, T [i; j; k] [a; b; c] = e3 taaa (fun i j k a b c => taba i k j a c b) (fun i j k a b c => tbab j i k b a c) tbbb i j k a b c.
Proof.
  intros H i j k a b c. rewrite (canonE_ok T HA HS). unfold e3. apply canonE_ext; [reflexivity|]. intros J J' A A' L LA LA'.
  lists3 J A L LA; lists3 J' A' L LA'; cbn [map app]; match goal with |- T [(_, ?i); (_, ?j); (_, ?k)] [(_, ?a); (_, ?b); (_, ?c)] = _ =>
    destruct (H i j k a b c) as (E1 & E2 & E3 & E4); destruct (H i k j a c b) as (_ & E5 & _); destruct (H j i k b a c) as (_ & _ & E6 & _) end;
  unfold bl3 in *; first [symmetry; assumption | rewrite E5; apply swap1 | rewrite E6; apply swap0].
Qed.
Lemma T4_e (taaaa taaab tabab tabbb tbbbb : ten8) : (forall i j k l a b c d, taaaa i j k l a b c d = bl4 T al al al al i j k l a b c d /\ taaab i j k l a b c d = bl4 T al al al be i j k l a b c d /\
     tabab i j k l a b c d = bl4 T al be al be i j k l a b c d /\ tabbb i j k l a b c d = bl4 T al be be be i j k l a b c d /\ tbbbb i j k l a b c d = bl4 T be be be be i j k l a b c d) ->
  forall i j k l a b c d, T [i; j; k; l] [a; b; c; d] = e4 taaaa taaab (fun i j k l a b c d => tabab i k j l a c b d) tabbb tbbbb i j k l a b c d.
Proof.
  intros H i j k l a b c d. rewrite (canonE_ok T HA HS). unfold e4. apply canonE_ext; [reflexivity|]. intros J J' A A' L LA LA'.
  lists4 J A L LA; lists4 J' A' L LA'; cbn [map app]; match goal with |- T [(_, ?i); (_, ?j); (_, ?k); (_, ?l)] [(_, ?a); (_, ?b); (_, ?c); (_, ?d)] = _ =>
    destruct (H i j k l a b c d) as (E1 & E2 & E3 & E4 & E5); destruct (H i k j l a c b d) as (_ & _ & E6 & _) end;
  unfold bl4 in *; first [symmetry; assumption | rewrite E6; apply swap1].
Qed.
(** symmetries of the blocks *)
Lemma anti_o p x y q A : T (p ++ x :: y :: q) A = - T (p ++ y :: x :: q) A. Proof. apply HA. Qed.
Lemma anti_v p x y q J : T J (p ++ x :: y :: q) = - T J (p ++ y :: x :: q). Proof. apply HA. Qed.
Ltac one H := let L := fresh in intros ix L; destruct ix as [|? [|? [|? [|? [|? [|? [|? [|? [|? ix]]]]]]]]]; try discriminate L; cbn [perm map nth fst snd w6 w8 sign]; rewrite !H; unfold bl3, bl4;
  match goal with |- _ = _ * ?r => transitivity (- r); [first [exact (anti_o [] _ _ _ _) | exact (anti_o [_] _ _ _ _) | exact (anti_o [_; _] _ _ _ _) | exact (anti_v [] _ _ _ _) | exact (anti_v [_] _ _ _ _) | exact (anti_v [_; _] _ _ _ _)] | ring] end.
Ltac syms H := unfold symok; cbn [nth sw3 sw4]; repeat (apply Forall_cons; [one H|]); apply Forall_nil.
Lemma sy_aaa s (t : ten6) : (forall i j k a b c, t i j k a b c = bl3 T s s s i j k a b c) -> symok (w6 t) (nth 0 sw3 []).
Proof. intros H. syms H. Qed.
Lemma sy_aab s u (t : ten6) : (forall i j k a b c, t i j k a b c = bl3 T s s u i j k a b c) -> symok (w6 t) (nth 1 sw3 []).
Proof. intros H. syms H. Qed.
Lemma sy_abb s u (t : ten6) : (forall i j k a b c, t i j k a b c = bl3 T s u u i j k a b c) -> symok (w6 t) (nth 2 sw3 []).
Proof. intros H. syms H. Qed.
Lemma sy_aaaa s (t : ten8) : (forall i j k l a b c d, t i j k l a b c d = bl4 T s s s s i j k l a b c d) -> symok (w8 t) (nth 0 sw4 []).
Proof. intros H. syms H. Qed.
Lemma sy_aaab s u (t : ten8) : (forall i j k l a b c d, t i j k l a b c d = bl4 T s s s u i j k l a b c d) -> symok (w8 t) (nth 1 sw4 []).
Proof. intros H. syms H. Qed.
Lemma sy_aabb s u (t : ten8) : (forall i j k l a b c d, t i j k l a b c d = bl4 T s s u u i j k l a b c d) -> symok (w8 t) (nth 2 sw4 []).
Proof. intros H. syms H. Qed.
Lemma sy_abbb s u (t : ten8) : (forall i j k l a b c d, t i j k l a b c d = bl4 T s u u u i j k l a b c d) -> symok (w8 t) (nth 3 sw4 []).
Proof. intros H. syms H. Qed.
End Fixed.
Lemma sy4 (t : ten) p : (forall i j k l, w4 t [i; j; k; l] = w4 t (perm O p [i; j; k; l])) -> length p = 4%nat -> symok (w4 t) [(p, false)].
Proof.
  intros H Lp. apply Forall_cons; [|apply Forall_nil]. cbn [fst snd sign]. intros ix L. rewrite Lp in L. destruct ix as [|i [|j [|k [|l [|? ix]]]]]; try discriminate L. rewrite (H i j k l). ring.
Qed.

(** the amplitudes T of an antisymmetric, spin-conserving cluster operator, stored in w; real orbitals; whatever enters the equations without T3 and T4.
    The code's residual is what T3 and T4 add to the singles and doubles equations. *)
Theorem C66_unrestricted (half : F) (noa nob nva nvb : nat) (eaa eab ebb : ten) (fa fb : mat) low1 low2 (T : list so -> list so -> F) (w : @uccsdtq F) :
  half + half = 1 -> real8 eaa -> real4 eab -> real8 ebb -> low_rank low1 low2 -> antisymmetric T -> spin_conserving T -> amps_u T w ->
  let no := by_spin noa nob in let nv := by_spin nva nvb in let eri := eri_u eaa eab ebb in
  let d1 := fun i a => residual1 half no nv eri low1 T i a - residual1 half no nv eri low1 (trunc T) i a in
  let d2 := fun i j a b => residual2 half no nv eri (by_spin fa fb) low1 low2 T i j a b - residual2 half no nv eri (by_spin fa fb) low1 low2 (trunc T) i j a b in
  let '((xa, xb), (xaa, xab, xbb)) := uhf_residual half noa nob nva nvb (ut1 w) (ut3 w) (ut4 w) (fa, fb) (eaa, eab, ebb) true in
  (forall i a, xa i a = d1 (al, i) (al, a) /\ xb i a = d1 (be, i) (be, a)) /\
  (forall i j a b, xaa i j a b = d2 (al, i) (al, j) (al, a) (al, b) /\ xab i j a b = d2 (al, i) (be, j) (al, a) (be, b) /\ xbb i j a b = d2 (be, i) (be, j) (be, a) (be, b)) /\
  (forall i j a b, xaa i j a b = - xaa j i a b /\ xaa i j a b = - xaa i j b a /\ xbb i j a b = - xbb j i a b /\ xbb i j a b = - xbb i j b a).
Proof.
  intros Hh [[Ea1 Ea2] Ea3] [Em1 Em2] [[Eb1 Eb2] Eb3] HL HA HS HW no nv eri d1 d2. destruct w as [[ta tb] t2 [[[taaa taba] tbab] tbbb] [[[[taaaa taaab] tabab] tabbb] tbbbb]].
  destruct HW as (W1 & _ & W3 & W4). cbn [ut1 ut3 ut4 fst snd] in *.
  unfold uhf_residual. cbv zeta beta iota.
  set (ovov_aa := uslice 0 noa 0 noa eaa). set (ovov_ab := uslice 0 noa 0 nob eab). set (ovov_bb := uslice 0 nob 0 nob ebb).
  set (ooov_aa := uslice 0 0 0 noa eaa). set (ooov_ab := uslice 0 0 0 nob eab). set (ooov_bb := uslice 0 0 0 nob ebb).
  set (ovvv_aa := uslice 0 noa noa noa eaa). set (ovvv_ab := uslice 0 noa nob nob eab). set (ovvv_bb := uslice 0 nob nob nob ebb).
  set (vvov_ab := uslice noa noa 0 nob eab). set (ovoo_ab := uslice 0 noa 0 0 eab).
  set (taab := fun i j k a b c => taba i k j a c b). set (tabb := fun i j k a b c => tbab j i k b a c). set (taabb := fun i j k l a b c d => tabab i k j l a c b d).
  assert (Saaa : symok (w6 taaa) (nth 0 sw3 [])) by (apply (sy_aaa T HA al); intros; apply W3).
  assert (Sbbb : symok (w6 tbbb) (nth 0 sw3 [])) by (apply (sy_aaa T HA be); intros; apply W3).
  assert (Saab : symok (w6 taab) (nth 1 sw3 [])) by (apply (sy_aab T HA al be); intros; unfold taab, bl3; rewrite (proj1 (proj2 (W3 _ _ _ _ _ _))); apply (swap1 T HA)).
  assert (Sabb : symok (w6 tabb) (nth 2 sw3 [])) by (apply (sy_abb T HA al be); intros; unfold tabb, bl3; rewrite (proj1 (proj2 (proj2 (W3 _ _ _ _ _ _)))); apply (swap0 T HA)).
  assert (Saaaa : symok (w8 taaaa) (nth 0 sw4 [])) by (apply (sy_aaaa T HA al); intros; apply W4).
  assert (Saaab : symok (w8 taaab) (nth 1 sw4 [])) by (apply (sy_aaab T HA al be); intros; apply W4).
  assert (Saabb : symok (w8 taabb) (nth 2 sw4 [])) by (apply (sy_aabb T HA al be); intros; unfold taabb, bl4; rewrite (proj1 (proj2 (proj2 (W4 _ _ _ _ _ _ _ _)))); apply (swap1 T HA)).
  assert (Sabbb : symok (w8 tabbb) (nth 3 sw4 [])) by (apply (sy_abbb T HA al be); intros; apply W4).
  assert (Sbbbb : symok (w8 tbbbb) (nth 0 sw4 [])) by (apply (sy_aaaa T HA be); intros; apply W4).
  assert (Y1 : symok (w4 ovov_aa) pswap) by (apply sy4; [|reflexivity]; intros; apply Ea3).
  assert (Y2 : symok (w4 ovov_bb) pswap) by (apply sy4; [|reflexivity]; intros; apply Eb3).
  assert (Y3 : symok (w4 ooov_aa) s01) by (apply sy4; [|reflexivity]; intros; apply Ea1).
  assert (Y4 : symok (w4 ooov_bb) s01) by (apply sy4; [|reflexivity]; intros; apply Eb1).
  assert (Y5 : symok (w4 ooov_ab) s01) by (apply sy4; [|reflexivity]; intros; apply Em1).
  assert (Y6 : symok (w4 ovvv_aa) s23) by (apply sy4; [|reflexivity]; intros; apply Ea2).
  assert (Y7 : symok (w4 ovvv_bb) s23) by (apply sy4; [|reflexivity]; intros; apply Eb2).
  assert (Y8 : symok (w4 ovvv_ab) s23) by (apply sy4; [|reflexivity]; intros; apply Em2).
  assert (Y9 : symok (w4 vvov_ab) s01) by (apply sy4; [|reflexivity]; intros; apply Em1).
  assert (Y10 : symok (w4 ovoo_ab) s23) by (apply sy4; [|reflexivity]; intros; apply Em2).
  assert (P1 : forall m n e f, phys eri m n (vo no e) (vo no f) = p1 ovov_aa ovov_ab ovov_bb m n e f)
    by (intros [[] m] [[] n] [[] e] [[] f]; reflexivity).
  assert (P2 : forall b m e f, phys eri (vo no b) m (vo no e) (vo no f) = p2 ovvv_aa ovvv_ab ovvv_bb vvov_ab b m e f)
    by (intros [[] b] [[] m] [[] e] [[] f]; unfold phys, p2, chem, a2, vo, eri, no, by_spin; cbn -[radd rmul ropp rsub r0 r1 Nat.add]; try reflexivity;
        unfold ovvv_aa, ovvv_bb, uslice; cbn -[radd rmul ropp rsub r0 r1]; first [f_equal; apply Ea3 | f_equal; apply Eb3]).
  assert (P3 : forall m n j e, phys eri m n j (vo no e) = p3 ooov_aa ooov_ab ooov_bb ovoo_ab m n j e).
  { intros [[] m] [[] n] [[] j] [[] e]; unfold phys, p3, chem, a3, vo, eri, no, by_spin; cbn -[radd rmul ropp rsub r0 r1 Nat.add]; try reflexivity;
    unfold ooov_aa, ooov_bb, ooov_ab, ovoo_ab, uslice; cbn -[radd rmul ropp rsub r0 r1]; f_equal; auto. }
  assert (T1e := T1_e T HS ta tb W1). assert (T3e := T3_e T HA HS taaa taba tbab tbbb W3). assert (T4e := T4_e T HA HS taaaa taaab tabab tabbb tbbbb W4).
  assert (Fe : forall m e, fock (by_spin fa fb) m e = e1 fa fb m e) by (intros [[] m] [[] e]; reflexivity).
  split; [|split].
  - intros i a. unfold d1. rewrite !(diff1 half no nv eri low1 low2 T HL). rewrite !(D1_ext half no nv _ _ _ _ P1 T3e). split.
    + symmetry. apply (u_d1a half Hh noa nob nva nvb ta tb fa fb taaa taab tabb tbbb taaaa taaab taabb tabbb tbbbb ovov_aa ovov_ab ovov_bb ooov_aa ooov_ab ooov_bb ovvv_aa ovvv_ab ovvv_bb vvov_ab ovoo_ab); assumption.
    + symmetry. apply (u_d1b half Hh noa nob nva nvb ta tb fa fb taaa taab tabb tbbb taaaa taaab taabb tabbb tbbbb ovov_aa ovov_ab ovov_bb ooov_aa ooov_ab ooov_bb ovvv_aa ovvv_ab ovvv_bb vvov_ab ovoo_ab); assumption.
  - intros i j a b. unfold d2. rewrite !(diff2 half no nv eri (by_spin fa fb) low1 low2 T HL).
    rewrite !(D2f_ext no nv _ _ _ _ Fe T3e), !(D2v_ext half no nv _ _ _ _ P2 T3e), !(D2o_ext half no nv _ _ _ _ P3 T3e), !(D2q_ext half no nv _ _ _ _ _ _ _ _ P1 T1e T3e T4e).
    assert (G := fun s t H => u_1 half Hh noa nob nva nvb ta tb fa fb taaa taab tabb tbbb taaaa taaab taabb tabbb tbbbb ovov_aa ovov_ab ovov_bb ooov_aa ooov_ab ooov_bb ovvv_aa ovvv_ab ovvv_bb vvov_ab ovoo_ab
      Saaa Saab Sabb Sbbb Saaaa Saaab Saabb Sabbb Sbbbb Y1 Y2 Y3 Y4 Y5 Y6 Y7 Y8 Y9 Y10 i j a b s t H).
    split; [|split]; symmetry.
    + apply (G al al). auto.
    + apply (G al be). auto.
    + apply (G be be). auto.
  - intros i j a b.
    assert (Ga := u_sym_aaaa half Hh noa nob nva nvb ta tb fa fb taaa taab tabb tbbb taaaa taaab taabb tabbb tbbbb ovov_aa ovov_ab ovov_bb ooov_aa ooov_ab ooov_bb ovvv_aa ovvv_ab ovvv_bb vvov_ab ovoo_ab
      Saaa Saab Sabb Sbbb Saaaa Saaab Saabb Sabbb Sbbbb Y1 Y2 Y3 Y4 Y5 Y6 Y7 Y8 Y9 Y10 i j a b).
    assert (Gb := u_sym_bbbb half Hh noa nob nva nvb ta tb fa fb taaa taab tabb tbbb taaaa taaab taabb tabbb tbbbb ovov_aa ovov_ab ovov_bb ooov_aa ooov_ab ooov_bb ovvv_aa ovvv_ab ovvv_bb vvov_ab ovoo_ab
      Saaa Saab Sabb Sbbb Saaaa Saaab Saabb Sabbb Sbbbb Y1 Y2 Y3 Y4 Y5 Y6 Y7 Y8 Y9 Y10 i j a b).
    split; [exact (proj1 Ga)|split; [exact (proj2 Ga)|exact Gb]].
Qed.
Lemma u_low0_all (half : F) (noa nob nva nvb : nat) (eaa eab ebb : ten) (T : list so -> list so -> F) (w : @uccsdtq F) :
  half + half = 1 -> real8 eaa -> real4 eab -> real8 ebb -> antisymmetric T -> spin_conserving T -> amps_u T w ->
  let '(taaa, taba, tbab, tbbb) := ut3 w in
  let ovvv_aa := uslice 0 noa noa noa eaa in let ovvv_ab := uslice 0 noa nob nob eab in let ovvv_bb := uslice 0 nob nob nob ebb in let vvov_ab := uslice noa noa 0 nob eab in
  let ooov_aa := uslice 0 0 0 noa eaa in let ooov_ab := uslice 0 0 0 nob eab in let ooov_bb := uslice 0 0 0 nob ebb in let ovoo_ab := uslice 0 noa 0 0 eab in
  forall i j a b,
  low0_aaaa noa nob nva nvb ovvv_aa ovvv_ab ovvv_bb vvov_ab ooov_aa ooov_ab ooov_bb ovoo_ab taaa taba tbab tbbb i j a b = uhf_t3v_aaaa noa nob nva nvb taaa taba tbab tbbb ooov_aa ooov_ab ooov_bb ovvv_aa ovvv_ab ovvv_bb vvov_ab ovoo_ab i j a b /\
  low0_abab noa nob nva nvb ovvv_aa ovvv_ab ovvv_bb vvov_ab ooov_aa ooov_ab ooov_bb ovoo_ab taaa taba tbab tbbb i j a b = uhf_t3v_abab noa nob nva nvb taaa taba tbab tbbb ooov_aa ooov_ab ooov_bb ovvv_aa ovvv_ab ovvv_bb vvov_ab ovoo_ab i j a b /\
  low0_bbbb noa nob nva nvb ovvv_aa ovvv_ab ovvv_bb vvov_ab ooov_aa ooov_ab ooov_bb ovoo_ab taaa taba tbab tbbb i j a b = uhf_t3v_bbbb noa nob nva nvb taaa taba tbab tbbb ooov_aa ooov_ab ooov_bb ovvv_aa ovvv_ab ovvv_bb vvov_ab ovoo_ab i j a b.
Proof.
  intros Hh [[Ea1 Ea2] Ea3] [Em1 Em2] [[Eb1 Eb2] Eb3] HA HS HW. destruct w as [[ta tb] t2 [[[taaa taba] tbab] tbbb] [[[[taaaa taaab] tabab] tabbb] tbbbb]].
  destruct HW as (W1 & _ & W3 & W4). cbn [ut1 ut3 ut4 fst snd] in *. cbv zeta. intros i j a b.
  set (ovov_aa := uslice 0 noa 0 noa eaa). set (ovov_ab := uslice 0 noa 0 nob eab). set (ovov_bb := uslice 0 nob 0 nob ebb).
  set (ooov_aa := uslice 0 0 0 noa eaa). set (ooov_ab := uslice 0 0 0 nob eab). set (ooov_bb := uslice 0 0 0 nob ebb).
  set (ovvv_aa := uslice 0 noa noa noa eaa). set (ovvv_ab := uslice 0 noa nob nob eab). set (ovvv_bb := uslice 0 nob nob nob ebb).
  set (vvov_ab := uslice noa noa 0 nob eab). set (ovoo_ab := uslice 0 noa 0 0 eab).
  set (taab := fun i j k a b c => taba i k j a c b). set (tabb := fun i j k a b c => tbab j i k b a c). set (taabb := fun i j k l a b c d => tabab i k j l a c b d).
  assert (Saaa : symok (w6 taaa) (nth 0 sw3 [])) by (apply (sy_aaa T HA al); intros; apply W3).
  assert (Sbbb : symok (w6 tbbb) (nth 0 sw3 [])) by (apply (sy_aaa T HA be); intros; apply W3).
  assert (Saab : symok (w6 taab) (nth 1 sw3 [])) by (apply (sy_aab T HA al be); intros; unfold taab, bl3; rewrite (proj1 (proj2 (W3 _ _ _ _ _ _))); apply (swap1 T HA)).
  assert (Sabb : symok (w6 tabb) (nth 2 sw3 [])) by (apply (sy_abb T HA al be); intros; unfold tabb, bl3; rewrite (proj1 (proj2 (proj2 (W3 _ _ _ _ _ _)))); apply (swap0 T HA)).
  assert (Saaaa : symok (w8 taaaa) (nth 0 sw4 [])) by (apply (sy_aaaa T HA al); intros; apply W4).
  assert (Saaab : symok (w8 taaab) (nth 1 sw4 [])) by (apply (sy_aaab T HA al be); intros; apply W4).
  assert (Saabb : symok (w8 taabb) (nth 2 sw4 [])) by (apply (sy_aabb T HA al be); intros; unfold taabb, bl4; rewrite (proj1 (proj2 (proj2 (W4 _ _ _ _ _ _ _ _)))); apply (swap1 T HA)).
  assert (Sabbb : symok (w8 tabbb) (nth 3 sw4 [])) by (apply (sy_abbb T HA al be); intros; apply W4).
  assert (Sbbbb : symok (w8 tbbbb) (nth 0 sw4 [])) by (apply (sy_aaaa T HA be); intros; apply W4).
  assert (Y1 : symok (w4 ovov_aa) pswap) by (apply sy4; [|reflexivity]; intros; apply Ea3).
  assert (Y2 : symok (w4 ovov_bb) pswap) by (apply sy4; [|reflexivity]; intros; apply Eb3).
  assert (Y3 : symok (w4 ooov_aa) s01) by (apply sy4; [|reflexivity]; intros; apply Ea1).
  assert (Y4 : symok (w4 ooov_bb) s01) by (apply sy4; [|reflexivity]; intros; apply Eb1).
  assert (Y5 : symok (w4 ooov_ab) s01) by (apply sy4; [|reflexivity]; intros; apply Em1).
  assert (Y6 : symok (w4 ovvv_aa) s23) by (apply sy4; [|reflexivity]; intros; apply Ea2).
  assert (Y7 : symok (w4 ovvv_bb) s23) by (apply sy4; [|reflexivity]; intros; apply Eb2).
  assert (Y8 : symok (w4 ovvv_ab) s23) by (apply sy4; [|reflexivity]; intros; apply Em2).
  assert (Y9 : symok (w4 vvov_ab) s01) by (apply sy4; [|reflexivity]; intros; apply Em1).
  assert (Y10 : symok (w4 ovoo_ab) s23) by (apply sy4; [|reflexivity]; intros; apply Em2).
  split; [|split].
  - exact (u_low0_aaaa half Hh noa nob nva nvb ta tb ta tb taaa taab tabb tbbb taaaa taaab taabb tabbb tbbbb ovov_aa ovov_ab ovov_bb ooov_aa ooov_ab ooov_bb ovvv_aa ovvv_ab ovvv_bb vvov_ab ovoo_ab Saaa Saab Sabb Sbbb Saaaa Saaab Saabb Sabbb Sbbbb Y1 Y2 Y3 Y4 Y5 Y6 Y7 Y8 Y9 Y10 i j a b).
  - exact (u_low0_abab half Hh noa nob nva nvb ta tb ta tb taaa taab tabb tbbb taaaa taaab taabb tabbb tbbbb ovov_aa ovov_ab ovov_bb ooov_aa ooov_ab ooov_bb ovvv_aa ovvv_ab ovvv_bb vvov_ab ovoo_ab Saaa Saab Sabb Sbbb Saaaa Saaab Saabb Sabbb Sbbbb Y1 Y2 Y3 Y4 Y5 Y6 Y7 Y8 Y9 Y10 i j a b).
  - exact (u_low0_bbbb half Hh noa nob nva nvb ta tb ta tb taaa taab tabb tbbb taaaa taaab taabb tabbb tbbbb ovov_aa ovov_ab ovov_bb ooov_aa ooov_ab ooov_bb ovvv_aa ovvv_ab ovvv_bb vvov_ab ovoo_ab Saaa Saab Sabb Sbbb Saaaa Saaab Saabb Sabbb Sbbbb Y1 Y2 Y3 Y4 Y5 Y6 Y7 Y8 Y9 Y10 i j a b).
Qed.
End UThm.

(** ** Restricted: the same with amplitudes of spatial orbitals *)
Definition pp3 : symt := [([1;0;2;4;3;5], false); ([0;2;1;3;5;4], false)]%nat.
Definition pp4 : symt := [([1;0;2;3;5;4;6;7], false); ([0;2;1;3;4;6;5;7], false); ([0;1;3;2;4;5;7;6], false)]%nat.
Definition gp3 : symt := Eval vm_compute in closure 12 pp3 pp3 pp3. Definition gp4 : symt := Eval vm_compute in closure 16 pp4 pp4 pp4.
Section RBlocks.
Context {K : cring}.
Add Ring Krr : (rth K).
Lemma okp3 (t : list nat -> K) : symok t pp3 -> symok t gp3. Proof. intros H. pose proof (ok_closure t 6 12 _ H eq_refl) as E. replace gp3 with (closure 12 pp3 pp3 pp3) by (vm_compute; reflexivity). exact E. Qed.
Lemma okp4 (t : list nat -> K) : symok t pp4 -> symok t gp4. Proof. intros H. pose proof (ok_closure t 8 16 _ H eq_refl) as E. replace gp4 with (closure 16 pp4 pp4 pp4) by (vm_compute; reflexivity). exact E. Qed.
Variable half : K.
Hypothesis Hhalf : half + half = 1.
Variables no nv : nat.
Notation mat := (nat -> nat -> K). Notation ten := (nat -> nat -> nat -> nat -> K). Notation ten6 := (ten6 K). Notation ten8 := (ten8 K).
Variables s1 f : mat. Variable s3 : ten6. Variable s4 : ten8. Variables ovov vvov ooov : ten.
Notation nos := (fun _ : bool => no). Notation nvs := (fun _ : bool => nv).
Definition sp (l : list (nat * nat)) : K := match l with
  | [(i, a)] => s1 i a | [(i, a); (j, b); (k, c)] => s3 i j k a b c | [(i, a); (j, b); (k, c); (l, d)] => s4 i j k l a b c d | _ => 0 end.
Definition rT1 (i a : so) : K := adapt sp [i] [a].
Definition rT3 (i j k a b c : so) : K := adapt sp [i; j; k] [a; b; c].
Definition rT4 (i j k l a b c d : so) : K := adapt sp [i; j; k; l] [a; b; c; d].
Definition P_r1 (m n e f : so) : K := (if Bool.eqb (fst m) (fst e) && Bool.eqb (fst n) (fst f) then ovov (snd m) (snd e) (snd n) (snd f) else 0) - (if Bool.eqb (fst m) (fst f) && Bool.eqb (fst n) (fst e) then ovov (snd m) (snd f) (snd n) (snd e) else 0).
Definition r2 (b m e f : so) : K := (if Bool.eqb (fst b) (fst e) && Bool.eqb (fst m) (fst f) then vvov (snd b) (snd e) (snd m) (snd f) else 0) - (if Bool.eqb (fst b) (fst f) && Bool.eqb (fst m) (fst e) then vvov (snd b) (snd f) (snd m) (snd e) else 0).
Definition r3 (m n j e : so) : K := (if Bool.eqb (fst m) (fst j) && Bool.eqb (fst n) (fst e) then ooov (snd m) (snd j) (snd n) (snd e) else 0) - (if Bool.eqb (fst m) (fst e) && Bool.eqb (fst n) (fst j) then ooov (snd n) (snd j) (snd m) (snd e) else 0).
Definition rf (m e : so) : K := if Bool.eqb (fst m) (fst e) then f (snd m) (snd e) else 0.
Notation taba := (fun i j k a b c => rT3 (al, i) (be, j) (al, k) (al, a) (be, b) (al, c)).
Notation tabaa := (fun i j k l a b c d => rT4 (al, i) (be, j) (al, k) (al, l) (al, a) (be, b) (al, c) (al, d)).
Notation tabab := (fun i j k l a b c d => rT4 (al, i) (be, j) (al, k) (be, l) (al, a) (be, b) (al, c) (be, d)).
Hypothesis S3 : symok (w6 s3) pp3. Hypothesis S4 : symok (w8 s4) pp4. Hypothesis Sovov : symok (w4 ovov) pswap. Hypothesis Svvov : symok (w4 vvov) s01. Hypothesis Sooov : symok (w4 ooov) s01.
Ltac rbuild := 
  pose proof (Forall2_cons _ _ (ok_none (w2 s1)) (Forall2_cons _ _ (ok_none (w2 f)) (Forall2_cons _ _ (okp3 _ S3) (Forall2_cons _ _ (okp4 _ S4) (Forall2_cons _ _ Sovov (Forall2_cons _ _ Svvov (Forall2_cons _ _ Sooov (Forall2_nil _)))))))) as Hsym.
Ltac ropen := unfold D1, D2f, D2v, D2o, D2q, X13, D1, SO, SV, P_r1, r2, r3, rf; cbn [fst snd Bool.eqb andb];
  unfold rT1, rT3, rT4, adapt; cbn -[radd rmul ropp rsub r0 r1 Sum]; unfold sgn; cbv iota.
Lemma r_d1 i a : D1 half nos nvs P_r1 rT3 (al, i) (al, a) = rhf_dt1 no nv taba ovov i a.
Proof. rbuild. unfold rhf_dt1, spinned. ropen. esum8 Hhalf Hsym [no; nv] [i; a]. Qed.
Lemma r_v i j a b : D2v half nos nvs r2 rT3 (al, i) (be, j) (al, a) (be, b) - D2o half nos nvs r3 rT3 (al, i) (be, j) (al, a) (be, b) = rhf_t3v half no nv taba vvov ooov (fun i a j k => ooov j k i a) i j a b.
Proof. rbuild. unfold rhf_t3v. cbv beta zeta. ropen. esum8 Hhalf Hsym [no; nv] [i; j; a; b]. Qed.
Lemma r_q i j a b : D2f nos nvs rf rT3 (al, i) (be, j) (al, a) (be, b) + D2q half nos nvs P_r1 rT1 rT3 rT4 (al, i) (be, j) (al, a) (be, b) = rhf_dt2 half no nv s1 taba tabaa tabab f ovov i j a b.
Proof. rbuild. unfold rhf_dt2, antiphys, spinned. cbv beta zeta. ropen. esum8 Hhalf Hsym [no; nv] [i; j; a; b]. Qed.
(** exchange of the two electrons *)
Lemma r_sym i j a b : rhf_dt2 half no nv s1 taba tabaa tabab f ovov i j a b = rhf_dt2 half no nv s1 taba tabaa tabab f ovov j i b a.
Proof. rbuild. unfold rhf_dt2, antiphys, spinned. cbv beta zeta. ropen. esum8 Hhalf Hsym [no; nv] [i; j; a; b]. Qed.
End RBlocks.
(** only the values of the arrays matter *)
Section RExt.
Context {K : cring} (half : K) (no nv : nat).
Notation mat := (nat -> nat -> K). Notation ten := (nat -> nat -> nat -> nat -> K). Notation ten6 := (ten6 K). Notation ten8 := (ten8 K).
Ltac ext := repeat first [reflexivity | match goal with H : forall _, _ |- _ => apply H end | apply Sum_ext; intros | f_equal].
Lemma rhf_dt1_ext (t t' : ten6) g : (forall i j k a b c, t i j k a b c = t' i j k a b c) -> forall i a, rhf_dt1 no nv t g i a = rhf_dt1 no nv t' g i a.
Proof. intros H i a. unfold rhf_dt1. ext. Qed.
Lemma rhf_t3v_ext (t t' : ten6) v g o o' : (forall i j k a b c, t i j k a b c = t' i j k a b c) -> (forall i a j k, o i a j k = o' i a j k) -> forall i j a b, rhf_t3v half no nv t v g o i j a b = rhf_t3v half no nv t' v g o' i j a b.
Proof. intros H H' i j a b. unfold rhf_t3v. cbv beta zeta. ext. Qed.
Lemma rhf_dt2_ext (t t' : mat) (t3 t3' : ten6) (u u' v v' : ten8) f g : (forall i a, t i a = t' i a) -> (forall i j k a b c, t3 i j k a b c = t3' i j k a b c) -> 
  (forall i j k l a b c d, u i j k l a b c d = u' i j k l a b c d) -> (forall i j k l a b c d, v i j k l a b c d = v' i j k l a b c d) ->
  forall i j a b, rhf_dt2 half no nv t t3 u v f g i j a b = rhf_dt2 half no nv t' t3' u' v' f g i j a b.
Proof. intros H1 H3 H4 H5 i j a b. unfold rhf_dt2. cbv beta zeta. ext. Qed.
End RExt.

(** ** The restricted theorem *)
Section RThm.
Context {F : cfield}.
Add Ring Krs : (rth F).
Notation mat := (nat -> nat -> F). Notation ten := (nat -> nat -> nat -> nat -> F). Notation ten6 := (ten6 F). Notation ten8 := (ten8 F).
Lemma perms_length {X} (l : list X) : Forall (fun v => length (snd v) = length l) (perms l).
Proof.
  assert (I : forall (x : X) l b, Forall (fun v => length (snd v) = S (length l)) (inserts x b l)).
  { intros x. induction l0 as [|y l0 IH]; intros b; cbn [inserts]; constructor; try reflexivity; [constructor|]. rewrite Forall_map. cbn. eapply Forall_impl; [|apply IH]. cbn. intros v ->. reflexivity. }
  induction l as [|x l IH]; cbn [perms]; [constructor; [reflexivity|constructor]|]. rewrite Forall_flat_map. eapply Forall_impl; [|exact IH]. cbn. intros v E. rewrite <- E. apply I.
Qed.
Lemma adapt_ext (s s' : list (nat * nat) -> F) J A : length J = length A -> (forall l, length l = length J -> s l = s' l) -> adapt s J A = adapt s' J A.
Proof.
  intros E H. unfold adapt. apply Lsum_ext. intros v Hv. destruct (eqspin _ _); [|reflexivity]. f_equal. apply H.
  pose proof (perms_length A) as P. rewrite Forall_forall in P. specialize (P v Hv). rewrite combine_length, !map_length, P. lia.
Qed.
(** Closed shells: amplitudes s of spatial orbitals *)
Theorem C66_restricted (half : F) (no nv : nat) (eris : ten) (f : mat) low1 low2 (s : list (nat * nat) -> F) (w : @rccsdtq F) :
  half + half = 1 -> real8 eris -> low_rank low1 low2 -> pair_symmetric s -> amps_r (adapt s) w ->
  let n := fun _ : bool => no in let v := fun _ : bool => nv in let eri := fun _ _ : bool => eris in
  let d1 := fun i a => residual1 half n v eri low1 (adapt s) i a - residual1 half n v eri low1 (trunc (adapt s)) i a in
  let d2 := fun i j a b => residual2 half n v eri (fun _ => f) low1 low2 (adapt s) i j a b - residual2 half n v eri (fun _ => f) low1 low2 (trunc (adapt s)) i j a b in
  let x := rhf_residual half no nv (rt1 w) (rt3 w) (fst (rt4 w)) (snd (rt4 w)) f eris true in
  (forall i a, fst x i a = d1 (al, i) (al, a)) /\ (forall i j a b, snd x i j a b = d2 (al, i) (be, j) (al, a) (be, b) /\ snd x i j a b = snd x j i b a).
Proof.
  intros Hh [[E1 E2] E3] HL Hs (W1 & _ & W3 & W4) n v eri d1 d2 x.
  set (s1 := fun i a => s [(i, a)]). set (s3 := fun i j k a b c => s [(i, a); (j, b); (k, c)]). set (s4 := fun i j k l a b c d => s [(i, a); (j, b); (k, c); (l, d)]).
  set (ovov := sl_ovov no eris). set (vvov := sl_vvov no eris). set (ooov := sl_ooov no eris).
  assert (S3 : symok (w6 s3) pp3).
  { unfold symok, pp3. repeat apply Forall_cons; [| |apply Forall_nil]; intros ix L; destruct ix as [|? [|? [|? [|? [|? [|? [|? ix]]]]]]]; try discriminate L; cbn [perm map nth fst snd w6 sign]; unfold s3;
    match goal with |- _ = _ * ?r => transitivity r; [apply Hs|ring] end; repeat constructor. }
  assert (S4 : symok (w8 s4) pp4).
  { unfold symok, pp4. repeat apply Forall_cons; [| | |apply Forall_nil]; intros ix L; destruct ix as [|? [|? [|? [|? [|? [|? [|? [|? [|? ix]]]]]]]]]; try discriminate L; cbn [perm map nth fst snd w8 sign]; unfold s4;
    match goal with |- _ = _ * ?r => transitivity r; [apply Hs|ring] end; repeat constructor. }
  assert (Y1 : symok (w4 ovov) pswap) by (apply sy4; [|reflexivity]; intros; apply E3).
  assert (Y2 : symok (w4 vvov) s01) by (apply sy4; [|reflexivity]; intros; apply E1).
  assert (Y3 : symok (w4 ooov) s01) by (apply sy4; [|reflexivity]; intros; apply E1).
  assert (T1e : forall i a, adapt s [i] [a] = rT1 s1 s3 s4 i a).
  { intros. apply adapt_ext; [reflexivity|]. intros [|[? ?] [|? ?]] L; try discriminate L. reflexivity. }
  assert (T3e : forall i j k a b c, adapt s [i; j; k] [a; b; c] = rT3 s1 s3 s4 i j k a b c).
  { intros. apply adapt_ext; [reflexivity|]. intros [|[? ?] [|[? ?] [|[? ?] [|? ?]]]] L; try discriminate L. reflexivity. }
  assert (T4e : forall i j k l a b c d, adapt s [i; j; k; l] [a; b; c; d] = rT4 s1 s3 s4 i j k l a b c d).
  { intros. apply adapt_ext; [reflexivity|]. intros [|[? ?] [|[? ?] [|[? ?] [|[? ?] [|? ?]]]]] L; try discriminate L. reflexivity. }
  assert (P1 : forall m n' e f, phys eri m n' (vo n e) (vo n f) = P_r1 ovov m n' e f) by (intros [[] m] [[] n'] [[] e] [[] f']; reflexivity).
  assert (P2 : forall b m e f, phys eri (vo n b) m (vo n e) (vo n f) = r2 vvov b m e f) by (intros [[] b] [[] m] [[] e] [[] f']; reflexivity).
  assert (P3 : forall m n' j e, phys eri m n' j (vo n e) = r3 ooov m n' j e).
  { intros [[] m] [[] n'] [[] j] [[] e]; unfold phys, chem, r3, vo, eri, n; cbn -[radd rmul ropp rsub r0 r1]; try reflexivity; unfold ooov, sl_ooov; f_equal; apply E3. }
  assert (Fe : forall m e, fock (fun _ => f) m e = rf f m e) by (intros [[] m] [[] e]; reflexivity).
  unfold x, rhf_residual. cbv zeta. cbn [fst snd]. split.
  - intros i a. unfold d1. rewrite !(diff1 half n v eri low1 low2 _ HL). rewrite !(D1_ext half n v _ _ _ _ P1 T3e).
    etransitivity; [|symmetry; apply (r_d1 half Hh no nv s1 f s3 s4 ovov vvov ooov); assumption].
    apply rhf_dt1_ext. intros. rewrite W3. apply T3e.
  - intros i j a b.
    assert (Q : forall i j a b, rhf_dt2 half no nv (rt1 w) (rt3 w) (fst (rt4 w)) (snd (rt4 w)) f (sl_ovov no eris) i j a b =
      rhf_dt2 half no nv s1 (fun i j k a b c => rT3 s1 s3 s4 (al, i) (be, j) (al, k) (al, a) (be, b) (al, c))
        (fun i j k l a b c d => rT4 s1 s3 s4 (al, i) (be, j) (al, k) (al, l) (al, a) (be, b) (al, c) (al, d))
        (fun i j k l a b c d => rT4 s1 s3 s4 (al, i) (be, j) (al, k) (be, l) (al, a) (be, b) (al, c) (be, d)) f ovov i j a b).
    { intros. apply rhf_dt2_ext; intros; [rewrite W1; etransitivity; [apply (T1e (al, _) (al, _))|unfold rT1, adapt; cbn -[radd rmul ropp rsub r0 r1]; unfold sgn; ring] | rewrite W3; apply T3e | rewrite (proj1 (W4 _ _ _ _ _ _ _ _)); apply T4e | rewrite (proj2 (W4 _ _ _ _ _ _ _ _)); apply T4e]. }
    split; [|f_equal; [rewrite !Q; apply (r_sym half Hh no nv s1 f s3 s4 ovov vvov ooov S3 S4 Y1 Y2 Y3) | unfold rhf_t3v; cbv beta zeta; ring]].
    unfold d2. rewrite !(diff2 half n v eri (fun _ => f) low1 low2 _ HL).
    rewrite !(D2f_ext n v _ _ _ _ Fe T3e), !(D2v_ext half n v _ _ _ _ P2 T3e), !(D2o_ext half n v _ _ _ _ P3 T3e), !(D2q_ext half n v _ _ _ _ _ _ _ _ P1 T1e T3e T4e).
    assert (G1 := r_q half Hh no nv s1 f s3 s4 ovov vvov ooov S3 S4 Y1 Y2 Y3 i j a b). assert (G2 := r_v half Hh no nv s1 f s3 s4 ovov vvov ooov S3 S4 Y1 Y2 Y3 i j a b).
    match type of G1 with ?p + ?q = ?r => match type of G2 with ?p' - ?q' = ?r' => transitivity (r + r'); [|rewrite <- G1, <- G2; unfold n, v; ring] end end.
    f_equal.
    + apply Q.
    + apply rhf_t3v_ext; intros; [rewrite W3; apply T3e | apply E3].
Qed.
End RThm.
