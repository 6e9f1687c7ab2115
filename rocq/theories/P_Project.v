(** C16: fragment projectors partition the amplitudes. *)
From Coq Require Import List Arith Lia Bool ZArith QArith Qcanon.
From Verif Require Import Alg M_Wf.
Import ListNotations.
Close Scope Q_scope. Close Scope Qc_scope. Open Scope nat_scope.

Section Proj.
Context (K : cring).
Add Ring Kr : (rth K).
Open Scope K_scope.
Variable half : K.
Hypothesis Hhalf : half + half = 1.

(** The fragments divide the space of [n] occupied orbitals: the matrices P_x^T P_x add up to the unit matrix. *)
Definition divides (n : nat) (frags : list (proj K)) : Prop :=
  (forall p, In p frags -> pcol p = n) /\
  forall i j, (i < n)%nat -> (j < n)%nat -> Lsum frags (fun p => Sum (prow p) (fun x => pmat p x i * pmat p x j)) = delta i j.

(** Rows of the projector are orthonormal. *)
Definition orthonormal (p : proj K) : Prop := forall x y, (x < prow p)%nat -> (y < prow p)%nat -> Sum (pcol p) (fun i => pmat p x i * pmat p y i) = delta x y.

Lemma back (f : nat -> K) n p i : pcol p = n ->
  Sum (pcol (ptrans p)) (fun x => pmat (ptrans p) i x * Sum (pcol p) (fun j => pmat p x j * f j)) = Sum n (fun j => Sum (prow p) (fun x => pmat p x i * pmat p x j) * f j).
Proof.
  intros E. cbn [pcol ptrans pmat]. rewrite E. 
  transitivity (Sum (prow p) (fun x => Sum n (fun j => pmat p x i * pmat p x j * f j))).
  - apply Sum_ext. intros x _. rewrite <- Sum_mul_l. apply Sum_ext. intros; ring.
  - rewrite Sum_swap. apply Sum_ext. intros j _. apply Sum_mul_r.
Qed.

Lemma divides_sum (f : nat -> K) n frags i : divides n frags -> (i < n)%nat ->
  Lsum frags (fun p => Sum (pcol (ptrans p)) (fun x => pmat (ptrans p) i x * Sum (pcol p) (fun j => pmat p x j * f j))) = f i.
Proof.
  intros [H1 H2] Hi. 
  transitivity (Lsum frags (fun p => Sum n (fun j => Sum (prow p) (fun x => pmat p x i * pmat p x j) * f j))).
  - apply Lsum_ext. intros p Hp. apply back. auto.
  - rewrite Lsum_Sum. transitivity (Sum n (fun j => delta i j * f j)).
    + apply Sum_ext. intros j Hj. rewrite Lsum_mul_r, H2 by auto. reflexivity.
    + apply Sum_delta_l; auto.
Qed.

Lemma sum_c1 n frags c i a : divides n frags -> (i < n)%nat -> Lsum frags (fun p => pc1 (pc1 c p) (ptrans p) i a) = c i a.
Proof. intros H Hi. unfold pc1. now rewrite (divides_sum (fun j => c j a) n). Qed.
Lemma sum_c2 n frags c i j a b : divides n frags -> (i < n)%nat -> Lsum frags (fun p => pc2 (pc2 c p) (ptrans p) i j a b) = c i j a b.
Proof. intros H Hi. unfold pc2. now rewrite (divides_sum (fun k => c k j a b) n). Qed.

(** The amplitudes of all fragments, each projected and restored. *)
Definition fragments (w : ccsd K) (frags : list (proj K)) (sym : bool) : list (option (ccsd K)) :=
  map (fun p => restore half (project w (Some p)) None sym) frags.

Definition sumopt {A} (rs : list A) (get : A -> option (mat K)) (want : option (mat K)) (n : nat) : Prop :=
  match want with
  | None => forall r, In r rs -> get r = None
  | Some l => exists ls, map get rs = map Some ls /\ forall i a, (i < n)%nat -> Lsum ls (fun c => c i a) = l i a
  end.
Definition sumopt2 {A} (rs : list A) (get : A -> option (ten K)) (want : option (ten K)) (n : nat) : Prop :=
  match want with
  | None => forall r, In r rs -> get r = None
  | Some l => exists ls, map get rs = map Some ls /\ forall i j a b, (i < n)%nat -> (j < n)%nat -> Lsum ls (fun c => c i j a b) = l i j a b
  end.

(** Exchange symmetrised amplitudes, or the amplitudes as they are. *)
Definition wanted (sym : bool) (c : ten K) : ten K := if sym then (fun i j a b => (c i j a b + c j i b a) * half) else c.

Theorem C16_restricted : forall n frags w sym, divides n frags -> exists rs, fragments w frags sym = map Some rs /\
  (forall r, In r rs -> nocc1 r = n /\ projector r = None) /\
  (forall i a, (i < n)%nat -> Lsum rs (fun r => t1 r i a) = t1 w i a) /\
  (forall i j a b, (i < n)%nat -> (j < n)%nat -> Lsum rs (fun r => t2 r i j a b) = wanted sym (t2 w) i j a b) /\
  sumopt rs l1 (l1 w) n /\ sumopt2 rs l2 (option_map (wanted sym) (l2 w)) n.
Proof.
  intros n frags w sym H.
  set (one := fun p => {| nocc1 := pcol p; t1 := pc1 (pc1 (t1 w) p) (ptrans p);
     t2 := if sym then symmetrize_c2 half (pc2 (pc2 (t2 w) p) (ptrans p)) else pc2 (pc2 (t2 w) p) (ptrans p);
     l1 := project_c1 (project_c1 (l1 w) (Some p)) (Some (ptrans p));
     l2 := match project_c2 (project_c2 (l2 w) (Some p)) (Some (ptrans p)) with Some l => Some (if sym then symmetrize_c2 half l else l) | None => None end;
     projector := None |} : ccsd K).
  assert (S2 : forall c i j a b, (i < n)%nat -> (j < n)%nat -> Lsum frags (fun p => (if sym then symmetrize_c2 half (pc2 (pc2 c p) (ptrans p)) else pc2 (pc2 c p) (ptrans p)) i j a b) = wanted sym c i j a b).
  { intros c i j a b Hi Hj. unfold wanted. destruct sym.
    - unfold symmetrize_c2, exch. rewrite Lsum_mul_r, Lsum_add. rewrite (sum_c2 n) by auto. rewrite (sum_c2 n) by auto. reflexivity.
    - apply (sum_c2 n); auto. }
  exists (map one frags). split; [|split; [|split; [|split; [|split]]]].
  - unfold fragments. rewrite map_map. apply map_ext. intros p. reflexivity.
  - intros r Hr. apply in_map_iff in Hr. destruct Hr as (p & <- & Hp). split; auto. apply (proj1 H); auto.
  - intros i a Hi. rewrite Lsum_map. cbn [one t1]. apply (sum_c1 n); auto.
  - intros i j a b Hi Hj. rewrite Lsum_map. cbn [one t2]. apply S2; auto.
  - unfold sumopt. destruct (l1 w) as [l|] eqn:E.
    + exists (map (fun p => pc1 (pc1 l p) (ptrans p)) frags). split.
      * rewrite !map_map. apply map_ext. intros p. unfold one. cbn [l1]. rewrite ?E. reflexivity.
      * intros i a Hi. rewrite Lsum_map. apply (sum_c1 n); auto.
    + intros r Hr. apply in_map_iff in Hr. destruct Hr as (p & <- & Hp). unfold one. cbn [l1]. rewrite ?E. reflexivity.
  - unfold sumopt2. destruct (l2 w) as [l|] eqn:E; cbn [option_map].
    + exists (map (fun p => if sym then symmetrize_c2 half (pc2 (pc2 l p) (ptrans p)) else pc2 (pc2 l p) (ptrans p)) frags). split.
      * rewrite !map_map. apply map_ext. intros p. unfold one. cbn [l2]. rewrite ?E. reflexivity.
      * intros i j a b Hi Hj. rewrite Lsum_map. apply S2; auto.
    + intros r Hr. apply in_map_iff in Hr. destruct Hr as (p & <- & Hp). unfold one. cbn [l2]. rewrite ?E. reflexivity.
Qed.

(** For amplitudes with the exchange symmetry the fragments add up to the amplitudes with and without symmetrisation. *)
Theorem C16_symmetric : forall sym c i j a b, c i j a b = c j i b a -> wanted sym c i j a b = c i j a b.
Proof.
  intros sym c i j a b E. unfold wanted. destruct sym; auto. rewrite <- E.
  transitivity ((half + half) * c i j a b); [ring|]. rewrite Hhalf. ring.
Qed.

(** Without a projector there is nothing to restore: an exception. *)
Theorem C16_unprojected : forall (w : ccsd K) sym, restore half w None sym = None <-> projector w = None.
Proof. intros w sym. unfold restore. destruct (projector w); split; congruence. Qed.

(** Projecting restored amplitudes of a fragment with orthonormal orbitals gives the projected amplitudes back. *)
Theorem C16_round_trip : forall w p r, orthonormal p -> restore half (project w (Some p)) None false = Some r ->
  let q := project r (Some p) in
  nocc1 q = prow p /\ (forall x a, (x < prow p)%nat -> t1 q x a = t1 (project w (Some p)) x a) /\
  (forall x j a b, (x < prow p)%nat -> t2 q x j a b = t2 (project w (Some p)) x j a b).
Proof.
  intros w p r Ho Hr. cbn in Hr. injection Hr as <-. cbv zeta. cbn [project nocc1 t1 t2]. split; auto.
  assert (L : forall (f : nat -> K) x, (x < prow p)%nat ->
     Sum (pcol p) (fun i => pmat p x i * Sum (prow p) (fun y => pmat p y i * f y)) = f x).
  { intros f x Hx. transitivity (Sum (prow p) (fun y => Sum (pcol p) (fun i => pmat p x i * pmat p y i) * f y)).
    - transitivity (Sum (pcol p) (fun i => Sum (prow p) (fun y => pmat p x i * pmat p y i * f y))).
      + apply Sum_ext. intros i _. rewrite <- Sum_mul_l. apply Sum_ext. intros; ring.
      + rewrite Sum_swap. apply Sum_ext. intros y _. apply Sum_mul_r.
    - transitivity (Sum (prow p) (fun y => delta x y * f y)); [|apply Sum_delta_l; auto]. apply Sum_ext. intros y Hy. rewrite Ho; auto. }
  split; intros; unfold pc1, pc2, ptrans; cbn [pcol pmat prow].
  - apply (L (fun x => Sum (pcol p) (fun j => pmat p x j * t1 w j a))); auto.
  - apply (L (fun x => Sum (pcol p) (fun k => pmat p x k * t2 w k j a b))); auto.
Qed.

(** *** Unrestricted amplitudes *)
Definition ufragments (w : uccsd K) (frags : list (uproj K)) (sym : bool) : list (option (uccsd K)) :=
  map (fun p => urestore half (uproject w (Some p)) None sym) frags.

(** All four blocks of the sum (the ba block is the transposed ab block, if there are three). *)
Definition usum_to {A} (rs : list A) (get : A -> uten K) (aa ab ba bb : ten K) (na nb : nat) : Prop :=
  (forall i j a b, (i < na)%nat -> (j < na)%nat -> Lsum rs (fun r => uaa (get r) i j a b) = aa i j a b) /\
  (forall i j a b, (i < na)%nat -> (j < nb)%nat -> Lsum rs (fun r => uab (get r) i j a b) = ab i j a b) /\
  (forall i j a b, (i < nb)%nat -> (j < na)%nat -> Lsum rs (fun r => uba (get r) i j a b) = ba i j a b) /\
  (forall i j a b, (i < nb)%nat -> (j < nb)%nat -> Lsum rs (fun r => ubb (get r) i j a b) = bb i j a b).

(** ab block of the symmetrised amplitudes: the mean of the ab block and the transposed ba block *)
Definition wanted_ab (sym : bool) (c : uten K) : ten K := if sym then (fun i j a b => (uab c i j a b + uba c j i b a) * half) else uab c.
Definition wanted_ba (sym : bool) (c : uten K) : ten K := if sym then (fun i j a b => (uab c j i b a + uba c i j a b) * half) else uba c.

Lemma usum_frags na nb (frags : list (uproj K)) c (sym : bool) : divides na (map fst frags) -> divides nb (map snd frags) ->
  usum_to frags (fun p : uproj K => (if sym then symmetrize_uc2 half else (fun x : uten K => x))
     (U4 (pc2 (pc2 (uaa c) (fst p)) (ptrans (fst p))) (pc2 (pc2 (uab c) (fst p)) (ptrans (fst p)))
         (pc2 (pc2 (uba c) (snd p)) (ptrans (snd p))) (pc2 (pc2 (ubb c) (snd p)) (ptrans (snd p)))))
    (wanted sym (uaa c)) (wanted_ab sym c) (wanted_ba sym c) (wanted sym (ubb c)) na nb.
Proof.
  intros Ha Hb.
  assert (Sa : forall (c : ten K) i j a b, (i < na)%nat -> Lsum frags (fun p => pc2 (pc2 c (fst p)) (ptrans (fst p)) i j a b) = c i j a b).
  { intros c' i j a b Hi. rewrite <- (sum_c2 na (map fst frags) c' i j a b Ha Hi) at 1. rewrite Lsum_map. reflexivity. }
  assert (Sb : forall (c : ten K) i j a b, (i < nb)%nat -> Lsum frags (fun p => pc2 (pc2 c (snd p)) (ptrans (snd p)) i j a b) = c i j a b).
  { intros c' i j a b Hi. rewrite <- (sum_c2 nb (map snd frags) c' i j a b Hb Hi) at 1. rewrite Lsum_map. reflexivity. }
  unfold usum_to, wanted, wanted_ab, wanted_ba. destruct sym; cbn [symmetrize_uc2 uaa uab uba ubb]; unfold symmetrize_c2, exch;
  (split; [|split; [|split]]); intros i j a b Hi Hj;
  rewrite ?Lsum_mul_r, ?Lsum_add, ?Sa, ?Sb by auto; reflexivity.
Qed.

Theorem C16_unrestricted : forall na nb (frags : list (uproj K)) w sym, divides na (map fst frags) -> divides nb (map snd frags) ->
  exists rs, ufragments w frags sym = map Some rs /\
  (forall r, In r rs -> unocc1 r = (na, nb) /\ uprojector r = None /\ (sym = true -> exists aa ab bb, ut2 r = U3 aa ab bb)) /\
  (forall i a, (i < na)%nat -> Lsum rs (fun r => fst (ut1 r) i a) = fst (ut1 w) i a) /\
  (forall i a, (i < nb)%nat -> Lsum rs (fun r => snd (ut1 r) i a) = snd (ut1 w) i a) /\
  usum_to rs ut2 (wanted sym (uaa (ut2 w))) (wanted_ab sym (ut2 w)) (wanted_ba sym (ut2 w)) (wanted sym (ubb (ut2 w))) na nb /\
  (forall l, ul2 w = Some l -> exists ls, map ul2 rs = map Some ls /\ usum_to ls (fun x => x) (wanted sym (uaa l)) (wanted_ab sym l) (wanted_ba sym l) (wanted sym (ubb l)) na nb) /\
  (forall l, ul1 w = Some l -> exists ls, map ul1 rs = map Some ls /\ (forall i a, (i < na)%nat -> Lsum ls (fun c => fst c i a) = fst l i a) /\ (forall i a, (i < nb)%nat -> Lsum ls (fun c => snd c i a) = snd l i a)).
Proof.
  intros na nb frags w sym Ha Hb.
  set (blocks := fun (c : uten K) (p : uproj K) => U4 (pc2 (pc2 (uaa c) (fst p)) (ptrans (fst p))) (pc2 (pc2 (uab c) (fst p)) (ptrans (fst p)))
         (pc2 (pc2 (uba c) (snd p)) (ptrans (snd p))) (pc2 (pc2 (ubb c) (snd p)) (ptrans (snd p)))).
  set (one := fun p : uproj K => {| unocc1 := (pcol (fst p), pcol (snd p));
     ut1 := (pc1 (pc1 (fst (ut1 w)) (fst p)) (ptrans (fst p)), pc1 (pc1 (snd (ut1 w)) (snd p)) (ptrans (snd p)));
     ut2 := (if sym then symmetrize_uc2 half else (fun x : uten K => x)) (blocks (ut2 w) p);
     ul1 := project_uc1 (project_uc1 (ul1 w) (Some p)) (Some (ptrans (fst p), ptrans (snd p)));
     ul2 := match project_uc2 (project_uc2 (ul2 w) (Some p)) (Some (ptrans (fst p), ptrans (snd p))) with Some l => Some (if sym then symmetrize_uc2 half l else l) | None => None end;
     uprojector := None |} : uccsd K).
  assert (S1a : forall c i a, (i < na)%nat -> Lsum frags (fun p => pc1 (pc1 c (fst p)) (ptrans (fst p)) i a) = c i a).
  { intros c' i a Hi. rewrite <- (sum_c1 na (map fst frags) c' i a Ha Hi) at 1. rewrite Lsum_map. reflexivity. }
  assert (S1b : forall c i a, (i < nb)%nat -> Lsum frags (fun p => pc1 (pc1 c (snd p)) (ptrans (snd p)) i a) = c i a).
  { intros c' i a Hi. rewrite <- (sum_c1 nb (map snd frags) c' i a Hb Hi) at 1. rewrite Lsum_map. reflexivity. }
  assert (US : forall (A : Type) (f : uproj K -> A) (get : A -> uten K) c, (forall p, get (f p) = (if sym then symmetrize_uc2 half else (fun x : uten K => x)) (blocks c p)) ->
     usum_to (map f frags) get (wanted sym (uaa c)) (wanted_ab sym c) (wanted_ba sym c) (wanted sym (ubb c)) na nb).
  { intros A f get c Hg. destruct (usum_frags na nb frags c sym Ha Hb) as (H1 & H2 & H3 & H4). fold blocks in H1.
    repeat split; intros i j a b Hi Hj; rewrite Lsum_map; [rewrite <- H1 by auto|rewrite <- H2 by auto|rewrite <- H3 by auto|rewrite <- H4 by auto]; apply Lsum_ext; intros p _; rewrite Hg; reflexivity. }
  exists (map one frags). split; [|split; [|split; [|split; [|split; [|split]]]]].
  - unfold ufragments. rewrite map_map. apply map_ext. intros p. unfold one. destruct sym; reflexivity.
  - intros r Hr. apply in_map_iff in Hr. destruct Hr as (p & <- & Hp). split; [|split; [reflexivity|]].
    + cbn. rewrite (proj1 Ha (fst p)), (proj1 Hb (snd p)); auto; apply in_map; auto.
    + intros E. unfold one. cbn [ut2]. rewrite E. unfold symmetrize_uc2. eauto.
  - intros i a Hi. rewrite Lsum_map. cbn. apply S1a; auto.
  - intros i a Hi. rewrite Lsum_map. cbn. apply S1b; auto.
  - apply US. reflexivity.
  - intros l El. exists (map (fun p => (if sym then symmetrize_uc2 half else (fun x : uten K => x)) (blocks l p)) frags). split.
    + rewrite !map_map. apply map_ext. intros p. unfold one. cbn [ul2]. rewrite El. destruct sym; reflexivity.
    + apply (US (uten K) (fun p => (if sym then symmetrize_uc2 half else (fun x : uten K => x)) (blocks l p)) (fun x => x)). reflexivity.
  - intros l El. exists (map (fun p : uproj K => (pc1 (pc1 (fst l) (fst p)) (ptrans (fst p)), pc1 (pc1 (snd l) (snd p)) (ptrans (snd p)))) frags). split; [|split].
    + rewrite !map_map. apply map_ext. intros p. unfold one. cbn [ul1]. rewrite El. reflexivity.
    + intros i a Hi. rewrite Lsum_map. apply S1a; auto.
    + intros i a Hi. rewrite Lsum_map. apply S1b; auto.
Qed.

(** Three spin blocks: the symmetrised mixed block adds up to the mixed block for all amplitudes. *)
Theorem C16_mixed_spin : forall sym aa ab bb i j a b, wanted_ab sym (U3 aa ab bb) i j a b = ab i j a b.
Proof.
  intros sym aa ab bb i j a b. destruct sym; auto. unfold wanted_ab, uab, uba, exch.
  transitivity ((half + half) * ab i j a b); [ring|]. rewrite Hhalf. ring.
Qed.
End Proj.

(** Example: two occupied orbitals, fragments with orbitals (3 phi_0 + 4 phi_1)/5 and (4 phi_0 - 3 phi_1)/5 divide the space. *)
Definition qc (n : Z) (d : positive) : QK := Q2Qc (n # d).
Definition pex (a b : QK) : proj QK := {| prow := 1; pcol := 2; pmat := fun _ i => match i with O => a | _ => b end |}.
Example divides_example : divides QK 2 [pex (qc 3 5) (qc 4 5); pex (qc 4 5) (qc (-3) 5)].
Proof.
  split.
  - intros p [<-|[<-|[]]]; reflexivity.
  - intros [|[|i]] [|[|j]] Hi Hj; try lia; apply Qc_is_canon; reflexivity.
Qed.
Example orthonormal_example : orthonormal QK (pex (qc 3 5) (qc 4 5)).
Proof. intros [|x] [|y] Hx Hy; cbn in Hx, Hy; try lia. apply Qc_is_canon; reflexivity. Qed.

Print Assumptions C16_restricted. Print Assumptions C16_symmetric. Print Assumptions C16_unprojected. Print Assumptions C16_round_trip. Print Assumptions C16_unrestricted. Print Assumptions C16_mixed_spin.
