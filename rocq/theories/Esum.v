(** A decision procedure for identities between nested sums of products of tensors: expand, order the summation indices canonically, compare. (Nothing of /repo is
    modelled in this file.) *)
From Coq Require Import List Arith Bool Lia Permutation Ring.
From Verif Require Import Alg.
Import ListNotations.

(** ** Syntax: indices are positions in a list of free or enclosing indices; ranges and tensors are positions in lists *)
Inductive ex := Eat (t : nat) (ix : list nat) | E0 | E1 | Eh | Eadd (a b : ex) | Esub (a b : ex) | Emul (a b : ex) | Eopp (a : ex) | Esum (s : nat) (a : ex).
Inductive ref := Fr (k : nat) | Bd (k : nat).
Record mono := { cp : nat; cn : nat; ch : nat; bd : list nat; ats : list (nat * list ref) }.

(** ** Expansion *)
Definition closer (r : ref) : ref := match r with Fr O => Bd O | Fr (S k) => Fr k | Bd k => Bd (S k) end.
Definition onrefs (f : ref -> ref) (l : list (nat * list ref)) : list (nat * list ref) := map (fun a => (fst a, map f (snd a))) l.
Definition close (s : nat) (m : mono) : mono := {| cp := cp m; cn := cn m; ch := ch m; bd := s :: bd m; ats := onrefs closer (ats m) |}.
Definition shiftr (n : nat) (r : ref) : ref := match r with Fr k => Fr k | Bd k => Bd (n + k) end.
Definition mulm (a b : mono) : mono :=
  {| cp := cp a * cp b + cn a * cn b; cn := cp a * cn b + cn a * cp b; ch := ch a + ch b; bd := bd a ++ bd b; ats := ats a ++ onrefs (shiftr (length (bd a))) (ats b) |}.
Definition negm (a : mono) : mono := {| cp := cn a; cn := cp a; ch := ch a; bd := bd a; ats := ats a |}.
Fixpoint nf (e : ex) : list mono :=
  match e with
  | Eat t ix => [{| cp := 1; cn := 0; ch := 0; bd := []; ats := [(t, map Fr ix)] |}]
  | E0 => []
  | E1 => [{| cp := 1; cn := 0; ch := 0; bd := []; ats := [] |}]
  | Eh => [{| cp := 1; cn := 0; ch := 1; bd := []; ats := [] |}]
  | Eadd a b => nf a ++ nf b
  | Esub a b => nf a ++ map negm (nf b)
  | Eopp a => map negm (nf a)
  | Emul a b => flat_map (fun x => map (mulm x) (nf b)) (nf a)
  | Esum s a => map (close s) (nf a)
  end.

(** ** Reordering of summation indices *)
Fixpoint swl {A} (k : nat) (l : list A) : list A :=
  match k, l with
  | O, x :: y :: r => y :: x :: r
  | S k, x :: r => x :: swl k r
  | _, _ => l
  end.
Definition swk (k j : nat) : nat := if j =? k then S k else if j =? S k then k else j.
Definition swr (k : nat) (r : ref) : ref := match r with Fr j => Fr j | Bd j => Bd (swk k j) end.
Definition swapm (k : nat) (m : mono) : mono :=
  if S k <? length (bd m) then {| cp := cp m; cn := cn m; ch := ch m; bd := swl k (bd m); ats := onrefs (swr k) (ats m) |} else m.
Definition bub1 (k : nat) (m : mono) : mono := if nth (S k) (bd m) 0 <? nth k (bd m) 0 then swapm k m else m.
Definition bubble (m : mono) : mono := let n := length (bd m) in fold_left (fun m _ => fold_left (fun m k => bub1 k m) (seq 0 (n - 1)) m) (seq 0 n) m.
Fixpoint inserts (off n : nat) (m : mono) : list mono := match n with O => [m] | S n => m :: inserts off n (swapm (off + n) m) end.
Fixpoint cands (off n : nat) (m : mono) : list mono := match n with O => [m] | S n => flat_map (inserts off n) (cands off n m) end.
Fixpoint segs (l : list nat) : list nat :=                (* lengths of the runs *)
  match l with
  | [] => []
  | x :: r => match segs r, r with c :: cs, y :: _ => if x =? y then S c :: cs else 1 :: c :: cs | _, _ => [1] end
  end.
Fixpoint allc (off : nat) (sg : list nat) (m : mono) : list mono := match sg with [] => [m] | c :: sg => flat_map (allc (off + c) sg) (cands off c m) end.

(** ** Symmetries of tensors and order of factors *)
Definition code (r : ref) : nat := match r with Fr k => 2 * k | Bd k => S (2 * k) end.
Fixpoint cmpl (a b : list nat) : comparison := match a, b with [], [] => Eq | [], _ => Lt | _, [] => Gt | x :: a, y :: b => match Nat.compare x y with Eq => cmpl a b | c => c end end.
Definition lea (a b : nat * list ref) : bool := match Nat.compare (fst a) (fst b) with Lt => true | Gt => false | Eq => match cmpl (map code (snd a)) (map code (snd b)) with Gt => false | _ => true end end.
Fixpoint insa (a : nat * list ref) (l : list (nat * list ref)) : list (nat * list ref) := match l with [] => [a] | b :: r => if lea a b then a :: l else b :: insa a r end.
Definition sorta (l : list (nat * list ref)) : list (nat * list ref) := fold_right insa [] l.
Definition perm {A} (d : A) (p : list nat) (l : list A) : list A := map (fun k => nth k l d) p.
Definition symt := list (list nat * bool).                (* permutations of the indices; true: with a sign *)
Definition best (s : symt) (a : nat * list ref) : bool * (nat * list ref) :=
  fold_left (fun b v => if length (snd a) =? length (fst v) then let c := (fst a, perm (Fr 0) (fst v) (snd a)) in if lea (snd b) c then b else (snd v, c) else b) s (false, a).
Definition normats (syms : list symt) (m : mono) : mono :=
  let l := map (fun a => best (nth (fst a) syms []) a) (ats m) in
  let sg := fold_right xorb false (map fst l) in
  {| cp := if sg then cn m else cp m; cn := if sg then cp m else cn m; ch := ch m; bd := bd m; ats := sorta (map snd l) |}.
Definition key (m : mono) : list nat := flat_map (fun a => fst a :: length (snd a) :: map code (snd a)) (ats m).
Definition pick (a b : mono) : mono := match cmpl (key b) (key a) with Lt => b | _ => a end.
Definition canon (syms : list symt) (m : mono) : mono :=
  let m := bubble m in fold_left (fun b c => pick b (normats syms c)) (allc 0 (segs (bd m)) m) (normats syms m).

(** ** Collection of equal terms *)
Definition eqref (a b : ref) : bool := match a, b with Fr i, Fr j => i =? j | Bd i, Bd j => i =? j | _, _ => false end.
Fixpoint eql {A} (f : A -> A -> bool) (a b : list A) : bool := match a, b with [], [] => true | x :: a, y :: b => f x y && eql f a b | _, _ => false end.
Definition samem (a b : mono) : bool := eql Nat.eqb (bd a) (bd b) && eql (fun x y => (fst x =? fst y) && eql eqref (snd x) (snd y)) (ats a) (ats b).
Definition addc (a b : mono) : mono :=
  let ha := 2 ^ (ch b - ch a) in let hb := 2 ^ (ch a - ch b) in
  {| cp := cp a * ha + cp b * hb; cn := cn a * ha + cn b * hb; ch := Nat.max (ch a) (ch b); bd := bd a; ats := ats a |}.
Fixpoint insm (a : mono) (l : list mono) : list mono := match l with [] => [a] | b :: r => if samem a b then (let c := addc a b in if cp c =? cn c then r else c :: r) else b :: insm a r end.
Definition collect (l : list mono) : list mono := fold_right insm [] l.
Definition check (syms : list symt) (a b : ex) : bool := match collect (map (canon syms) (nf (Esub a b))) with [] => true | _ => false end.
(** What is left over, for debugging *)
Definition leftover (syms : list symt) (a b : ex) : list mono := collect (map (canon syms) (nf (Esub a b))).

Section Sound.
Context {K : cring}.
Add Ring Kr : (rth K).
Open Scope K_scope.
Variable half : K.
Hypothesis Hhalf : half + half = 1.
Variable dims : list nat.
Variable tens : list (list nat -> K).
Definition dim (s : nat) : nat := nth s dims O.
Definition tn (t : nat) : list nat -> K := nth t tens (fun _ => 0).
Fixpoint den (ctx : list nat) (e : ex) : K :=
  match e with
  | Eat t ix => nth t tens (fun _ => 0) (map (fun k => nth k ctx O) ix)
  | E0 => 0
  | E1 => 1
  | Eh => half
  | Eadd a b => den ctx a + den ctx b
  | Esub a b => den ctx a - den ctx b
  | Emul a b => den ctx a * den ctx b
  | Eopp a => - den ctx a
  | Esum s a => Sum (nth s dims O) (fun v => den (v :: ctx) a)
  end.
Definition vr (ctx be : list nat) (r : ref) : nat := match r with Fr k => nth k ctx O | Bd k => nth k be O end.
Fixpoint sumb (b : list nat) (f : list nat -> K) : K := match b with [] => f [] | s :: r => Sum (dim s) (fun v => sumb r (fun vs => f (v :: vs))) end.
Definition da (ctx be : list nat) (a : nat * list ref) : K := tn (fst a) (map (vr ctx be) (snd a)).
Fixpoint prod (l : list K) : K := match l with [] => 1 | x :: r => x * prod r end.
Fixpoint hp (k : nat) : K := match k with O => 1 | S k => half * hp k end.
Definition coef (m : mono) : K := (nK (cp m) - nK (cn m)) * hp (ch m).
Definition denm (ctx : list nat) (m : mono) : K := coef m * sumb (bd m) (fun be => prod (map (da ctx be) (ats m))).
Definition denl (ctx : list nat) (l : list mono) : K := Lsum l (denm ctx).

Lemma sumb_ext b f g : (forall be, length be = length b -> f be = g be) -> sumb b f = sumb b g.
Proof. revert f g. induction b as [|s b IH]; cbn; intros f g H; [apply H; reflexivity|]. apply Sum_ext; intros v _. apply IH. intros be Hb. apply H. cbn. auto. Qed.
Lemma sumb_mul_l b c f : sumb b (fun be => c * f be) = c * sumb b f.
Proof. revert f. induction b as [|s b IH]; cbn; intros f; [reflexivity|]. rewrite <- Sum_mul_l. apply Sum_ext; intros. apply IH. Qed.
Lemma sumb_mul_r b c f : sumb b (fun be => f be * c) = sumb b f * c.
Proof. revert f. induction b as [|s b IH]; cbn; intros f; [reflexivity|]. rewrite <- Sum_mul_r. apply Sum_ext; intros. apply IH. Qed.
Lemma sumb_app b1 b2 f : sumb (b1 ++ b2) f = sumb b1 (fun u => sumb b2 (fun w => f (u ++ w))).
Proof. revert f. induction b1 as [|s b1 IH]; cbn; intros f; [reflexivity|]. apply Sum_ext; intros. apply IH. Qed.
Lemma prod_app l1 l2 : prod (l1 ++ l2) = prod l1 * prod l2.
Proof. induction l1 as [|x l1 IH]; cbn; [ring|]. rewrite IH. ring. Qed.
Lemma prod_perm l1 l2 : Permutation l1 l2 -> prod l1 = prod l2.
Proof. induction 1; cbn; try congruence; ring. Qed.
Lemma da_onrefs f ctx be ctx' be' l : (forall a r, In a l -> In r (snd a) -> vr ctx' be' (f r) = vr ctx be r) -> map (da ctx' be') (onrefs f l) = map (da ctx be) l.
Proof.
  intros H. unfold onrefs. rewrite map_map. apply map_ext_in. intros [t rs] Ha. unfold da. cbn [fst snd]. rewrite map_map. f_equal. apply map_ext_in. intros r Hr. apply (H (t, rs) r Ha Hr).
Qed.
Definition wf (m : mono) : Prop := forall a k, In a (ats m) -> In (Bd k) (snd a) -> (k < length (bd m))%nat.
Lemma close_wf s m : wf m -> wf (close s m).
Proof.
  intros H [t rs] k Ha Hr. unfold close, onrefs in Ha. cbn [ats bd] in *. apply in_map_iff in Ha. destruct Ha as ([t' rs'] & E & Ha). injection E as <- <-. cbn [fst snd] in *.
  apply in_map_iff in Hr. destruct Hr as (r & E & Hr). destruct r as [[|j]|j]; cbn in E; try discriminate; injection E as <-; cbn; [lia|]. specialize (H _ _ Ha Hr). lia.
Qed.
Lemma mulm_wf a b : wf a -> wf b -> wf (mulm a b).
Proof.
  intros Ha Hb [t rs] k Hi Hr. unfold mulm in *. cbn [ats bd] in *. rewrite app_length. apply in_app_or in Hi. destruct Hi as [Hi|Hi].
  - specialize (Ha _ _ Hi Hr). lia.
  - unfold onrefs in Hi. apply in_map_iff in Hi. destruct Hi as ([t' rs'] & E & Hi). injection E as <- <-. cbn [fst snd] in *. apply in_map_iff in Hr. destruct Hr as (r & E & Hr). destruct r; cbn in E; try discriminate. injection E as <-. specialize (Hb _ _ Hi Hr). lia.
Qed.
Lemma nf_wf e : Forall wf (nf e).
Proof.
  induction e; cbn [nf].
  - apply Forall_cons; [|constructor]. intros a k [<-|[]] Hr. cbn in Hr. apply in_map_iff in Hr. destruct Hr as (? & X & _). discriminate.
  - constructor.
  - apply Forall_cons; [|constructor]. intros a k [].
  - apply Forall_cons; [|constructor]. intros a k [].
  - apply Forall_app; split; assumption.
  - apply Forall_app; split; [assumption|]. apply Forall_map. exact IHe2.
  - apply Forall_forall. intros m Hm. apply in_flat_map in Hm. destruct Hm as (x & Hx & Hm). apply in_map_iff in Hm. destruct Hm as (y & <- & Hy). rewrite Forall_forall in *. apply mulm_wf; auto.
  - apply Forall_map. exact IHe.
  - apply Forall_map. apply (Forall_impl _ (fun m => close_wf s m)). exact IHe.
Qed.
Lemma close_den s m ctx : Sum (dim s) (fun v => denm (v :: ctx) m) = denm ctx (close s m).
Proof.
  unfold denm. change (coef (close s m)) with (coef m). rewrite Sum_mul_l. f_equal. cbn [close bd ats sumb]. apply Sum_ext; intros v _. apply sumb_ext. intros be _. f_equal. symmetry. apply da_onrefs. intros a r _ _. destruct r as [[|k]|k]; reflexivity.
Qed.
Lemma hp_add a b : hp (a + b) = hp a * hp b.
Proof. induction a as [|a IH]; cbn; [ring|]. rewrite IH. ring. Qed.
Lemma mulm_den a b ctx : wf a -> denm ctx a * denm ctx b = denm ctx (mulm a b).
Proof.
  intros Wa. unfold denm. assert (C : coef (mulm a b) = coef a * coef b). { unfold coef, mulm. cbn [cp cn ch]. rewrite hp_add, !nK_add, !nK_mul. ring. }
  rewrite C. cbn [mulm bd ats]. rewrite sumb_app. transitivity (coef a * coef b * (sumb (bd a) (fun be => prod (map (da ctx be) (ats a))) * sumb (bd b) (fun be => prod (map (da ctx be) (ats b))))); [ring|]. f_equal.
  rewrite <- sumb_mul_r. apply sumb_ext. intros u Hu. rewrite <- sumb_mul_l. apply sumb_ext. intros w Hw. rewrite map_app, prod_app. f_equal.
  - f_equal. apply map_ext_in. intros [t rs] Ha. unfold da. cbn [fst snd]. f_equal. apply map_ext_in. intros r Hr. destruct r as [k|k]; cbn; [reflexivity|]. rewrite app_nth1; [reflexivity|]. rewrite Hu. apply (Wa _ _ Ha Hr).
  - f_equal. symmetry. apply da_onrefs. intros x r _ _. destruct r as [k|k]; cbn; [reflexivity|]. rewrite app_nth2 by lia. f_equal. lia.
Qed.
Lemma negm_den m ctx : denm ctx (negm m) = - denm ctx m.
Proof. unfold denm, coef, negm. cbn [cp cn ch bd ats]. ring. Qed.
Lemma negs_den l ctx : denl ctx (map negm l) = - denl ctx l.
Proof. unfold denl. rewrite Lsum_map. induction l as [|m l IH]; cbn [Lsum]; [ring|]. rewrite negm_den, IH. ring. Qed.
Lemma nf_den e : forall ctx, den ctx e = denl ctx (nf e).
Proof.
  induction e; intros ctx; cbn [den nf]; unfold denl in *.
  - cbn [Lsum]. unfold denm, coef. cbn [cp cn ch bd ats sumb map prod nK hp]. unfold da, tn. cbn [fst snd]. rewrite map_map. cbn [vr]. ring.
  - reflexivity.
  - cbn [Lsum]. unfold denm, coef. cbn. ring.
  - cbn [Lsum]. unfold denm, coef. cbn. ring.
  - rewrite Lsum_app, <- IHe1, <- IHe2. reflexivity.
  - rewrite Lsum_app, <- IHe1. fold (denl ctx (map negm (nf e2))). rewrite negs_den. unfold denl. rewrite <- IHe2. ring.
  - rewrite Lsum_flat_map, IHe1, IHe2, <- Lsum_mul_r. apply Lsum_ext. intros x Hx. rewrite Lsum_map, <- Lsum_mul_l. apply Lsum_ext. intros y Hy. apply mulm_den. assert (W := nf_wf e1). rewrite Forall_forall in W. apply W. exact Hx.
  - fold (denl ctx (map negm (nf e))). rewrite negs_den. unfold denl. rewrite <- IHe. reflexivity.
  - rewrite Lsum_map. fold (dim s). rewrite (Sum_ext _ _ _ (fun v _ => IHe (v :: ctx))). rewrite <- (Lsum_ext _ _ _ (fun m _ => close_den s m ctx)). symmetry. apply Lsum_Sum.
Qed.

Lemma swl_length {A} k (l : list A) : length (swl k l) = length l.
Proof. revert l. induction k as [|k IH]; intros [|x l]; cbn; auto. destruct l; reflexivity. Qed.
Lemma sumb_swl k : forall b f, sumb (swl k b) f = sumb b (fun be => f (swl k be)).
Proof.
  induction k as [|k IH]; intros [|s [|s' b]] f; cbn [swl sumb]; try reflexivity.
  - apply Sum_swap.
  - destruct k; reflexivity.
  - apply Sum_ext; intros v _. rewrite (IH (s' :: b)). reflexivity.
Qed.
Lemma nth_swl k : forall l j, (S k < length l)%nat -> nth (swk k j) (swl k l) O = nth j l O.
Proof.
  induction k as [|k IH]; intros [|x [|y l]] j H; cbn in H; try lia.
  - destruct j as [|[|j]]; reflexivity.
  - destruct j as [|j]; [reflexivity|]. assert (E : swk (S k) (S j) = S (swk k j)) by (unfold swk; cbn [Nat.eqb]; destruct (j =? k)%nat, (j =? S k)%nat; reflexivity).
    rewrite E. cbn [swl nth]. apply IH. cbn. lia.
Qed.
Lemma swapm_den k m ctx : denm ctx (swapm k m) = denm ctx m.
Proof.
  unfold swapm. destruct (Nat.ltb_spec (S k) (length (bd m))) as [H|]; [|reflexivity]. unfold denm. unfold coef. cbn [cp cn ch bd ats]. f_equal. rewrite sumb_swl. apply sumb_ext. intros be Hb. f_equal.
  apply da_onrefs. intros a r _ _. destruct r as [j|j]; cbn [swr vr]; [reflexivity|]. apply nth_swl. lia.
Qed.
Lemma bubble_den m ctx : denm ctx (bubble m) = denm ctx m.
Proof.
  unfold bubble. generalize (length (bd m)). intros n. assert (B : forall l m', denm ctx (fold_left (fun m k => bub1 k m) l m') = denm ctx m').
  { induction l as [|k l IH]; intros m'; cbn [fold_left]; [reflexivity|]. rewrite IH. unfold bub1. destruct (_ <? _)%nat; [apply swapm_den|reflexivity]. }
  generalize (seq 0 n). intros l. assert (G : forall m', denm ctx (fold_left (fun m _ => fold_left (fun m k => bub1 k m) (seq 0 (n - 1)) m) l m') = denm ctx m'); [|apply G].
  induction l as [|x l IH]; intros m'; cbn [fold_left]; [reflexivity|]. rewrite IH. apply B.
Qed.
Lemma inserts_den off n : forall m m' ctx, In m' (inserts off n m) -> denm ctx m' = denm ctx m.
Proof. induction n as [|n IH]; cbn; intros m m' ctx; [intros [<-|[]]; reflexivity|]. intros [<-|H]; [reflexivity|]. rewrite (IH _ _ ctx H). apply swapm_den. Qed.
Lemma cands_den off n : forall m m' ctx, In m' (cands off n m) -> denm ctx m' = denm ctx m.
Proof.
  induction n as [|n IH]; cbn [cands]; intros m m' ctx; [intros [<-|[]]; reflexivity|]. intros H. apply in_flat_map in H. destruct H as (x & Hx & H). rewrite (inserts_den _ _ _ _ ctx H). apply IH. exact Hx.
Qed.
Lemma allc_den sg : forall off m m' ctx, In m' (allc off sg m) -> denm ctx m' = denm ctx m.
Proof.
  induction sg as [|c sg IH]; cbn [allc]; intros off m m' ctx; [intros [<-|[]]; reflexivity|]. intros H. apply in_flat_map in H. destruct H as (x & Hx & H). rewrite (IH _ _ _ ctx H). apply (cands_den _ _ _ _ ctx Hx).
Qed.

Definition sign (b : bool) : K := if b then - (1) else 1.
Definition symok (t : list nat -> K) (s : symt) : Prop := Forall (fun v : list nat * bool => forall ix, length ix = length (fst v) -> t ix = sign (snd v) * t (perm O (fst v) ix)) s.
Variable syms : list symt.
Hypothesis Hsyms : forall t, symok (tn t) (nth t syms []).
Lemma insa_perm a l : Permutation (insa a l) (a :: l).
Proof. induction l as [|b l IH]; cbn; [reflexivity|]. destruct (lea a b); [reflexivity|]. rewrite IH. apply perm_swap. Qed.
Lemma sorta_perm l : Permutation (sorta l) l.
Proof. induction l as [|a l IH]; cbn; [reflexivity|]. rewrite insa_perm. constructor. exact IH. Qed.
Lemma vr_0 ctx be : vr ctx be (Fr 0) = nth 0 ctx O. Proof. reflexivity. Qed.
Lemma best_den a ctx be : Forall (fun v => Forall (fun k => (k < length (fst v))%nat) (fst v)) (nth (fst a) syms []) -> let b := best (nth (fst a) syms []) a in da ctx be a = sign (fst b) * da ctx be (snd b).
Proof.
  intros HF. unfold best. specialize (Hsyms (fst a)). unfold symok in Hsyms. revert HF Hsyms. generalize (nth (fst a) syms []). intros s.
  assert (G : forall b, da ctx be a = sign (fst b) * da ctx be (snd b) -> Forall (fun v => Forall (fun k => (k < length (fst v))%nat) (fst v)) s ->
    Forall (fun v : list nat * bool => forall ix, length ix = length (fst v) -> tn (fst a) ix = sign (snd v) * tn (fst a) (perm O (fst v) ix)) s ->
    da ctx be a = sign (fst (fold_left (fun b v => if length (snd a) =? length (fst v) then let c := (fst a, perm (Fr 0) (fst v) (snd a)) in if lea (snd b) c then b else (snd v, c) else b)%nat s b)) *
      da ctx be (snd (fold_left (fun b v => if length (snd a) =? length (fst v) then let c := (fst a, perm (Fr 0) (fst v) (snd a)) in if lea (snd b) c then b else (snd v, c) else b)%nat s b))).
  { induction s as [|v s IH]; intros b Hb HF Hs; cbn [fold_left]; [exact Hb|]. inversion Hs as [|? ? H1 H2]; subst. inversion HF as [|? ? F1 F2]; subst. apply IH; auto. destruct (Nat.eqb_spec (length (snd a)) (length (fst v))) as [L|]; [|exact Hb]. cbv zeta. destruct (lea _ _); [exact Hb|]. cbn [fst snd].
    unfold da. cbn [fst snd]. rewrite (H1 (map (vr ctx be) (snd a))) by (rewrite map_length; exact L). f_equal. f_equal. unfold perm. rewrite map_map. apply map_ext_in. intros k Hk.
    rewrite Forall_forall in F1. specialize (F1 k Hk). rewrite (nth_indep _ O (vr ctx be (Fr 0))) by (rewrite map_length; lia). rewrite map_nth. reflexivity. }
  intros HF Hs. apply G; auto. cbn [fst snd sign]. ring.
Qed.
Hypothesis Hrange : Forall (Forall (fun v : list nat * bool => Forall (fun k => (k < length (fst v))%nat) (fst v))) syms.
Lemma Hrange' t : Forall (fun v : list nat * bool => Forall (fun k => (k < length (fst v))%nat) (fst v)) (nth t syms []).
Proof. destruct (nth_in_or_default t syms []) as [H|H]; [rewrite Forall_forall in Hrange; auto|rewrite H; constructor]. Qed.
Lemma normats_den m ctx : denm ctx (normats syms m) = denm ctx m.
Proof.
  unfold denm, normats. cbn [bd ats]. set (l := map (fun a => best (nth (fst a) syms []) a) (ats m)). set (sg := fold_right xorb false (map fst l)).
  transitivity (coef m * (sign sg * sumb (bd m) (fun be => prod (map (da ctx be) (map snd l))))).
  - assert (C : forall (s : bool) (x : K), (nK (if s then cn m else cp m) - nK (if s then cp m else cn m)) * hp (ch m) * x = coef m * (sign s * x)) by (intros [|] x; unfold coef, sign; ring).
    unfold coef at 1. cbn [cp cn ch]. rewrite C. f_equal. f_equal. apply sumb_ext. intros be _. apply prod_perm. apply Permutation_map. apply sorta_perm.
  - f_equal. rewrite <- sumb_mul_l. apply sumb_ext. intros be _. subst sg l. induction (ats m) as [|a r IH]; cbn [map fold_right prod fst]; [cbn [sign]; ring|]. rewrite <- IH. rewrite (best_den a ctx be (Hrange' (fst a))).
    assert (S : forall a b, sign (xorb a b) = sign a * sign b) by (intros [|] [|]; cbn; ring). rewrite S. ring.
Qed.
Lemma canon_den m ctx : denm ctx (canon syms m) = denm ctx m.
Proof.
  unfold canon. rewrite <- (bubble_den m ctx). set (m' := bubble m). assert (G : forall l b, (forall c, In c l -> denm ctx c = denm ctx m') -> denm ctx b = denm ctx m' -> denm ctx (fold_left (fun b c => pick b (normats syms c)) l b) = denm ctx m').
  { induction l as [|c l IH]; intros b Hl Hb; cbn [fold_left]; [exact Hb|]. apply IH; [intros; apply Hl; right; auto|]. unfold pick. destruct (cmpl _ _); auto. rewrite normats_den. apply Hl. left. reflexivity. }
  apply G; [intros; eapply allc_den; eauto|apply normats_den].
Qed.
Lemma eql_eq {A} (f : A -> A -> bool) : (forall x y, f x y = true -> x = y) -> forall a b, eql f a b = true -> a = b.
Proof. intros H. induction a as [|x a IH]; intros [|y b]; cbn; try discriminate; auto. intros E. apply andb_true_iff in E. destruct E as [E1 E2]. f_equal; auto. Qed.
Lemma samem_eq a b : samem a b = true -> bd a = bd b /\ ats a = ats b.
Proof.
  unfold samem. intros E. apply andb_true_iff in E. destruct E as [E1 E2]. split.
  - apply (eql_eq Nat.eqb); auto. intros x y. apply Nat.eqb_eq.
  - eapply eql_eq; [|exact E2]. intros [t r] [t' r'] E. cbn [fst snd] in E. apply andb_true_iff in E. destruct E as [E E']. apply Nat.eqb_eq in E. subst t'. f_equal. eapply eql_eq; [|exact E'].
    intros [x|x] [y|y]; cbn; try discriminate; intros Z; apply Nat.eqb_eq in Z; congruence.
Qed.
Lemma hp_two k n : (n <= k)%nat -> nK (2 ^ (k - n)) * hp k = hp n.
Proof.
  intros H. replace k with ((k - n) + n)%nat at 2 by lia. rewrite hp_add. generalize (k - n)%nat. intros d.
  assert (G : nK (2 ^ d) * hp d = 1). { induction d as [|d IH]; [cbn; ring|]. cbn [Nat.pow hp]. rewrite nK_mul. cbn [nK]. transitivity ((half + half) * (nK (2 ^ d) * hp d)); [ring|]. rewrite Hhalf, IH. ring. }
  transitivity (nK (2 ^ d) * hp d * hp n); [ring|]. rewrite G. ring.
Qed.
Lemma addc_coef a b : coef (addc a b) = coef a + coef b.
Proof.
  unfold coef, addc. cbn [cp cn ch]. rewrite !nK_add, !nK_mul. assert (A := hp_two (Nat.max (ch a) (ch b)) (ch a) (Nat.le_max_l _ _)). assert (B := hp_two (Nat.max (ch a) (ch b)) (ch b) (Nat.le_max_r _ _)).
  replace (Nat.max (ch a) (ch b) - ch a)%nat with (ch b - ch a)%nat in A by lia. replace (Nat.max (ch a) (ch b) - ch b)%nat with (ch a - ch b)%nat in B by lia. rewrite <- A, <- B at 1. ring.
Qed.
Lemma insm_den ctx a l : denl ctx (insm a l) = denm ctx a + denl ctx l.
Proof.
  unfold denl. induction l as [|b l IH]; cbn [insm Lsum]; [reflexivity|]. destruct (samem a b) eqn:E.
  - apply samem_eq in E. destruct E as [E1 E2]. assert (D : denm ctx (addc a b) = denm ctx a + denm ctx b). { unfold denm. rewrite addc_coef. cbn [addc bd ats]. rewrite <- E1, <- E2. ring. }
    cbv zeta. destruct (Nat.eqb_spec (cp (addc a b)) (cn (addc a b))) as [Z|]; cbn [Lsum].
    + assert (X : denm ctx (addc a b) = 0) by (unfold denm, coef; rewrite Z; ring). rewrite X in D. transitivity (0 + Lsum l (denm ctx)); [ring|]. rewrite D. ring.
    + rewrite D. ring.
  - cbn [Lsum]. rewrite IH. ring.
Qed.
Theorem check_sound ctx a b : check syms a b = true -> den ctx a = den ctx b.
Proof.
  unfold check. intros H. destruct (collect _) as [|m l] eqn:E; [|discriminate].
  assert (Z : denl ctx (nf (Esub a b)) = 0).
  { transitivity (denl ctx (collect (map (canon syms) (nf (Esub a b))))); [|rewrite E; reflexivity]. clear E H. generalize (nf (Esub a b)). intros l. induction l as [|m l IH]; [reflexivity|]. cbn [map collect fold_right]. fold (collect (map (canon syms) l)). rewrite insm_den, canon_den, <- IH. reflexivity. }
  rewrite <- nf_den in Z. cbn [den] in Z. transitivity (den ctx a - den ctx b + den ctx b); [ring|]. rewrite Z. ring.
Qed.
End Sound.

(** ** The tactic *)
Section Wrap.
Context {K : cring}.
Add Ring Kr' : (rth K).
Open Scope K_scope.
Definition w0 (x : K) : list nat -> K := fun l => match l with [] => x | _ => 0 end.
Definition w1 (f : nat -> K) : list nat -> K := fun l => match l with [i] => f i | _ => 0 end.
Definition w2 (f : nat -> nat -> K) : list nat -> K := fun l => match l with [i; j] => f i j | _ => 0 end.
Definition w3 (f : nat -> nat -> nat -> K) : list nat -> K := fun l => match l with [i; j; k] => f i j k | _ => 0 end.
Definition w4 (f : nat -> nat -> nat -> nat -> K) : list nat -> K := fun l => match l with [i; j; k; m] => f i j k m | _ => 0 end.
Definition w6 (f : nat -> nat -> nat -> nat -> nat -> nat -> K) : list nat -> K := fun l => match l with [i; j; k; m; n; o] => f i j k m n o | _ => 0 end.
(** No symmetry; symmetric matrix; pair symmetry; antisymmetry *)
Definition snone : symt := [].
Definition smat : symt := [([1; 0], false)]%nat.
Definition spair : symt := [([1; 0; 3; 2], false)]%nat.
Definition santi : symt := [([1; 0; 3; 2], false); ([1; 0; 2; 3], true); ([0; 1; 3; 2], true)]%nat.
Lemma ok_none (t : list nat -> K) : symok t snone. Proof. constructor. Qed.
Lemma ok_mat (t : nat -> nat -> K) : (forall i j, t i j = t j i) -> symok (w2 t) smat.
Proof. intros H. constructor; [|constructor]. intros [|i [|j [|]]] E; try discriminate E. cbn. rewrite H. ring. Qed.
Lemma ok_pair (t : nat -> nat -> nat -> nat -> K) : (forall i j a b, t i j a b = t j i b a) -> symok (w4 t) spair.
Proof. intros H. constructor; [|constructor]. intros [|i [|j [|a [|b [|]]]]] E; try discriminate E. cbn. rewrite H. ring. Qed.
Lemma ok_anti (t : nat -> nat -> nat -> nat -> K) : (forall i j a b, t i j a b = - t j i a b) -> (forall i j a b, t i j a b = - t i j b a) -> symok (w4 t) santi.
Proof. intros H H'. repeat (constructor; [intros [|i [|j [|a [|b [|]]]]] E; try discriminate E; cbn|]); try constructor; [rewrite H, H'|rewrite H|rewrite H']; ring. Qed.
Definition okrange (syms : list symt) : bool := forallb (forallb (fun v => forallb (fun k => k <? length (fst v)) (fst v))) syms.
Theorem esum_sound (half : K) (Hhalf : half + half = 1) (dims : list nat) (tens : list (list nat -> K)) (syms : list symt) : Forall2 symok tens syms -> forall ctx a b,
  okrange syms && check syms a b = true -> den half dims tens ctx a = den half dims tens ctx b.
Proof.
  intros H ctx a b E. apply andb_true_iff in E. destruct E as [R E]. apply (check_sound half Hhalf dims tens syms); auto.
  - unfold tn. clear R E. induction H as [|t s ts ss Ht _ IH]; intros [|k]; cbn; auto; try constructor. 
  - apply Forall_forall. intros s Hs. apply Forall_forall. intros v Hv. apply Forall_forall. intros k Hk. unfold okrange in R. rewrite forallb_forall in R. specialize (R s Hs). rewrite forallb_forall in R. specialize (R v Hv). rewrite forallb_forall in R. apply Nat.ltb_lt. auto.
Qed.
End Wrap.
Ltac e_pos x l := lazymatch l with x :: _ => constr:(O) | _ :: ?r => let p := e_pos x r in constr:(S p) end.
Ltac e_reify half dims tens ctx e :=
  lazymatch e with
  | half => constr:(Eh)
  | r0 => constr:(E0)
  | r1 => constr:(E1)
  | radd ?a ?b => let x := e_reify half dims tens ctx a in let y := e_reify half dims tens ctx b in constr:(Eadd x y)
  | rsub ?a ?b => let x := e_reify half dims tens ctx a in let y := e_reify half dims tens ctx b in constr:(Esub x y)
  | rmul ?a ?b => let x := e_reify half dims tens ctx a in let y := e_reify half dims tens ctx b in constr:(Emul x y)
  | ropp ?a => let x := e_reify half dims tens ctx a in constr:(Eopp x)
  | Sum ?n ?f =>
      let s := e_pos n dims in
      let v := fresh "v" in
      let r := constr:(fun v : nat => ltac:(let b := eval cbv beta in (f v) in let r := e_reify half dims tens (v :: ctx) b in exact r)) in
      lazymatch r with fun _ => ?r' => constr:(Esum s r') end
  | ?t ?i ?j ?k ?m ?n ?o => let p := e_pos (w6 t) tens in let i := e_pos i ctx in let j := e_pos j ctx in let k := e_pos k ctx in let m := e_pos m ctx in let n := e_pos n ctx in let o := e_pos o ctx in constr:(Eat p [i; j; k; m; n; o])
  | ?t ?i ?j ?k ?m => let p := e_pos (w4 t) tens in let i := e_pos i ctx in let j := e_pos j ctx in let k := e_pos k ctx in let m := e_pos m ctx in constr:(Eat p [i; j; k; m])
  | ?t ?i ?j ?k => let p := e_pos (w3 t) tens in let i := e_pos i ctx in let j := e_pos j ctx in let k := e_pos k ctx in constr:(Eat p [i; j; k])
  | ?t ?i ?j => let p := e_pos (w2 t) tens in let i := e_pos i ctx in let j := e_pos j ctx in constr:(Eat p [i; j])
  | ?t ?i => let p := e_pos (w1 t) tens in let i := e_pos i ctx in constr:(Eat p [i])
  | ?t => let p := e_pos (w0 t) tens in constr:(Eat p (@nil nat))
  end.
(** [esum Hhalf S dims ctx]: [S : Forall2 symok tens syms] *)
Ltac esum_with Hhalf S dims ctx k :=
  lazymatch type of Hhalf with
  | radd ?half _ = _ =>
    lazymatch type of S with
    | Forall2 _ ?tens ?syms =>
      lazymatch goal with
      | |- ?l = ?r =>
        let a := e_reify half dims tens ctx l in let b := e_reify half dims tens ctx r in
        k half dims tens syms ctx a b
      end
    end
  end.
Ltac esum Hhalf S dims ctx := esum_with Hhalf S dims ctx ltac:(fun half dims tens syms ctx a b =>
  change (den half dims tens ctx a = den half dims tens ctx b); apply (esum_sound half Hhalf dims tens syms S); vm_compute; reflexivity).
Ltac eleft Hhalf S dims ctx := esum_with Hhalf S dims ctx ltac:(fun half dims tens syms ctx a b =>
  let r := eval vm_compute in (leftover syms a b) in idtac r).

Section Test.
Context {K : cring} (half : K) (Hhalf : (half + half = 1)%K) (n nv : nat).
Open Scope K_scope.
Context (t1 : nat -> nat -> K) (t2 l2 : nat -> nat -> nat -> nat -> K).
Hypothesis H : forall i j a b, t2 i j a b = t2 j i b a.
Example esum_test i j : Sum n (fun k => Sum nv (fun a => (t1 k a + t1 k a) * half * Sum n (fun m => Sum nv (fun b => t2 k m a b * l2 i j b a)))) =
  Sum nv (fun b => Sum n (fun m => Sum nv (fun a => l2 i j a b * Sum n (fun k => t2 m k a b * t1 k b)))).
Proof. pose proof (Forall2_cons _ _ (ok_none (w2 t1)) (Forall2_cons _ _ (ok_pair t2 H) (Forall2_cons _ _ (ok_none (w4 l2)) (Forall2_nil _)))) as S. esum Hhalf S [n; nv] [i; j]. Qed.
End Test.
