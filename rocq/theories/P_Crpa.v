(** C72: screening of the interaction in a cluster by the constrained RPA.  Theorems about M_Crpa. *)
From Coq Require Import List Arith Lia Bool Ring Setoid Morphisms String.
From Verif Require Import Alg Ord Mat M_ExtCorr M_SsRpa P_TtoC P_SsRpa M_Screen P_Screen M_Crpa.
Import ListNotations.
Local Open Scope list_scope.

Section T.
Context (K : oring).
Add Ring Kr : (rth K).
Variables (inv : K -> K) (hlf : K).
Variables (null : nat -> nat -> (nat -> nat -> K) -> nat * (nat -> nat -> K)).
Variables (run : rot K -> result (sol K)).
Open Scope K_scope.
Notation vec := (nat -> K).
Notation mt := (nat -> nat -> K).
Notation t3 := (nat -> nat -> nat -> K).
Notation ten := (nat -> nat -> nat -> nat -> K).
Notation mfd := (mfd K). Notation frag := (frag K). Notation df := (df K).
Notation nov := (nov K). Notation ovs := (ovs K). Notation trot := (trot K). Notation gaps := (gaps K).
Notation co_ := (co_ K). Notation cv_ := (cv_ K). Notation cph := (cph K).
Notation get_crpa := (get_crpa K null run). Notation deltaW := (deltaW K inv hlf null run).
Notation naux := (naux K).

(** ** Specification *)

(** Three-index integrals of all excitations, and of pairs of cluster orbitals of a spin (false: alpha). *)
Definition lov (m : mfd) (d : df) : mt := fun n => vcat K (nova K m) (lova K d n) (lovb K d n).
Definition lpq_ (d : df) (t : bool) : t3 := if t then lpqb K d else lpqa K d.

(** The Coulomb interaction between excitations, A-B and A+B of the whole system. *)
Definition coul (m : mfd) (d : df) : mt := mm (naux d) (tr (lov m d)) (lov m d).
Definition AmB (m : mfd) : mt := dg (gaps m).
Definition ApB (m : mfd) (d : df) : mt := madd (AmB m) (msc (1 + 1) (coul m d)).

(** The rotation into the excitations of the environment, and their number. *)
Definition ne (r : rot K) : nat := (rna K r + rnb K r)%nat.
Definition env (m : mfd) (r : rot K) : mt := block_diag K (rna K r) (nova K m) (rma K r) (rmb K r).

(** The RPA calculation gave a solution for the environment with non-zero frequencies. *)
Definition solved (m : mfd) (d : df) (s : sol K) (r : rot K) : Prop :=
  s_na K s = rna K r /\ s_nb K s = rnb K r /\
  rpa_sol (ne r) (rotm K (nov m) (env m r) (AmB m)) (rotm K (nov m) (env m r) (ApB m d)) (s_f K s) (s_xpy K s) (s_xmy K s) /\
  (forall k, (k < ne r)%nat -> s_f K s k * inv (s_f K s k) = 1).

(** Three-index integrals of the cluster are symmetric. *)
Definition real_orbitals (f : frag) (d : df) : Prop := forall t n p q,
  (p < co_ f t + cv_ f t)%nat -> (q < co_ f t + cv_ f t)%nat -> lpq_ d t n p q = lpq_ d t n q p.

(** A block of the result, for the spins of the first and of the second pair. *)
Definition w_ (x : ten * ten * ten) (t u : bool) : ten := let '(aa, ab, bb) := x in
  match t, u with false, false => aa | false, true => ab | true, true => bb | true, false => fun p q r s => ab r s p q end.

(** A pair of an occupied and a virtual orbital of the cluster, and its place among the excitations. *)
Definition mixed (f : frag) (t : bool) (p q : nat) : bool := xorb (p <? co_ f t)%nat (q <? co_ f t)%nat.
Definition exc (f : frag) (t : bool) (p q : nat) : nat :=
  if (p <? co_ f t)%nat then cph f t p (q - co_ f t) else cph f t q (p - co_ f t).

(** The vectors through which a pair of cluster orbitals couples to X+Y and X-Y of the environment. *)
Definition gam (m : mfd) (f : frag) (d : df) (pc ov : bool) (t : bool) (p q : nat) : vec := fun x =>
  if ov && negb (mixed f t p q) then 0 else
  (1 + 1) * Sum (naux d) (fun n => lpq_ d t n p q * lov m d n x) + (if pc && mixed f t p q then gaps m x * trot m f (exc f t p q) x else 0).
Definition gam' (m : mfd) (f : frag) (pc : bool) (t : bool) (p q : nat) : vec := fun x =>
  if pc && mixed f t p q then (if (p <? co_ f t)%nat then 1 else - (1)) * (gaps m x * trot m f (exc f t p q) x) else 0.
Definition quad (n : nat) (v : vec) (a : mt) (w : vec) : K := Sum n (fun x => Sum n (fun y => v x * a x y * w y)).

(** ** Lemmas *)
Lemma env_sum m r j (v : vec) : (j < ne r)%nat ->
  Sum (nov m) (fun x => v x * env m r j x) =
  if (j <? rna K r)%nat then Sum (nova K m) (fun x => v x * rma K r j x)
  else Sum (novb K m) (fun x => v (nova K m + x)%nat * rmb K r (j - rna K r)%nat x).
Proof.
  intros Hj. unfold nov. rewrite Sum_split. unfold env, block_diag.
  destruct (Nat.ltb_spec j (rna K r)) as [H|H].
  - rewrite (Sum_0 (novb K m)). 2:{ intros x _. rewrite blk_lr by exact H. ring. }
    rewrite (Sum_ext (nova K m) _ (fun x => v x * rma K r j x)).
    2:{ intros x Hx. rewrite blk_ll by assumption. reflexivity. }
    ring.
  - remember (j - rna K r)%nat as j' eqn:Ej. assert (E : j = (rna K r + j')%nat) by lia. clear Ej. subst j.
    rewrite (Sum_0 (nova K m)). 2:{ intros x Hx. rewrite blk_rl by exact Hx. ring. }
    rewrite (Sum_ext (novb K m) _ (fun x => v (nova K m + x)%nat * rmb K r j' x)).
    2:{ intros x Hx. rewrite blk_rr. reflexivity. }
    ring.
Qed.

Lemma env_split m r (v : vec) (z : vec) :
  Sum (ne r) (fun j => Sum (nov m) (fun x => v x * env m r j x) * z j) =
  Sum (rna K r) (fun j => Sum (nova K m) (fun x => v x * rma K r j x) * z j)
  + Sum (rnb K r) (fun j => Sum (novb K m) (fun x => v (nova K m + x)%nat * rmb K r j x) * z (rna K r + j)%nat).
Proof.
  unfold ne. rewrite Sum_split. f_equal; apply Sum_ext; intros j Hj.
  - rewrite env_sum by (unfold ne; lia). destruct (Nat.ltb_spec j (rna K r)); [reflexivity|lia].
  - rewrite env_sum by (unfold ne; lia). destruct (Nat.ltb_spec (rna K r + j) (rna K r)); [lia|].
    replace (rna K r + j - rna K r)%nat with j by lia. reflexivity.
Qed.

Lemma laux_env m d s r n k : s_na K s = rna K r ->
  l_aux K m d s r n k = Sum (ne r) (fun j => Sum (nov m) (fun x => lov m d n x * env m r j x) * s_xpy K s j k).
Proof.
  intros Hs. rewrite (env_split m r (lov m d n) (fun j => s_xpy K s j k)). unfold l_aux, xpy_a, xpy_b. rewrite Hs. f_equal.
  - apply Sum_ext. intros j _. f_equal. apply Sum_ext. intros x Hx. unfold lov. rewrite vcat_l by exact Hx. reflexivity.
  - apply Sum_ext. intros j _. f_equal. apply Sum_ext. intros x Hx. unfold lov. rewrite vcat_r. reflexivity.
Qed.

Definition fb_ (m : mfd) (f : frag) (s : sol K) (r : rot K) (t sign : bool) : mt :=
  if t then fb K hlf (rnb K r) (eps_fb K (novb K m) (gen_eps K (nob K m) (nvb K m) (moeb K m)) (loc_b K m f) (rmb K r)) sign (xpy_b K s) (xmy_b K s)
  else fb K hlf (rna K r) (eps_fb K (nova K m) (gen_eps K (noa K m) (nva K m) (moea K m)) (loc_a K m f) (rma K r)) sign (xpy_a K s) (s_xmy K s).

Definition cpos (f : frag) (t : bool) (I A : nat) : nat := (I * cv_ f t + A)%nat.

Lemma efb_env m f r t I A (z : vec) : (I < co_ f t)%nat -> (A < cv_ f t)%nat ->
  Sum (ne r) (fun j => Sum (nov m) (fun x => gaps m x * trot m f (cph f t I A) x * env m r j x) * z j) =
  if t then Sum (rnb K r) (fun j => eps_fb K (novb K m) (gen_eps K (nob K m) (nvb K m) (moeb K m)) (loc_b K m f) (rmb K r) (cpos f t I A) j * z (rna K r + j)%nat)
  else Sum (rna K r) (fun j => eps_fb K (nova K m) (gen_eps K (noa K m) (nva K m) (moea K m)) (loc_a K m f) (rma K r) (cpos f t I A) j * z j).
Proof.
  intros HI HA. rewrite (env_split m r (fun x => gaps m x * trot m f (cph f t I A) x) z).
  destruct t; cbn [P_Screen.co_ P_Screen.cv_] in *; unfold cpos, eps_fb, trot, block_diag, P_Screen.cph, place; fold (ova K f); cbn [P_Screen.cv_].
  - rewrite (Sum_0 (rna K r)).
    2:{ intros j Hj. rewrite Sum_0; [ring|]. intros x Hx. rewrite blk_rl by exact Hx. ring. }
    match goal with |- 0 + ?y = _ => transitivity y; [ring|] end. apply Sum_ext. intros j Hj. f_equal. apply Sum_ext. intros x Hx.
    rewrite blk_rr. unfold P_Screen.gaps. rewrite vcat_r. reflexivity.
  - assert (Hp : (I * cva K f + A < ova K f)%nat) by (apply pos_lt; assumption).
    rewrite (Sum_0 (rnb K r)).
    2:{ intros j Hj. rewrite Sum_0; [ring|]. intros x Hx. rewrite blk_lr by exact Hp. ring. }
    match goal with |- ?y + 0 = _ => transitivity y; [ring|] end. apply Sum_ext. intros j Hj. f_equal. apply Sum_ext. intros x Hx.
    rewrite blk_ll by assumption. unfold P_Screen.gaps. rewrite vcat_l by exact Hx. reflexivity.
Qed.

Lemma hh (x y : K) : hlf + hlf = 1 -> (x + y) * hlf + (x - y) * hlf = x.
Proof. intros H. transitivity (x * (hlf + hlf)); [ring|rewrite H; ring]. Qed.
Lemma hh' (x y : K) : hlf + hlf = 1 -> (x + y) * hlf - (x - y) * hlf = y.
Proof. intros H. transitivity (y * (hlf + hlf)); [ring|rewrite H; ring]. Qed.


Lemma fb_add m f s r t I A k : hlf + hlf = 1 -> s_na K s = rna K r -> (I < co_ f t)%nat -> (A < cv_ f t)%nat ->
  fb_ m f s r t true (cpos f t I A) k + fb_ m f s r t false (cpos f t I A) k
  = Sum (ne r) (fun j => Sum (nov m) (fun x => gaps m x * trot m f (cph f t I A) x * env m r j x) * s_xpy K s j k).
Proof.
  intros Hh Hs HI HA. rewrite (efb_env m f r t I A (fun j => s_xpy K s j k) HI HA).
  destruct t; unfold fb_, fb; rewrite <- Sum_add; apply Sum_ext; intros j Hj; unfold xpy_b, xpy_a; rewrite ?Hs;
    match goal with |- ?e * ?x + ?e * ?y = ?e * ?z => transitivity (e * (x + y)); [ring|]; rewrite hh by exact Hh; reflexivity end.
Qed.
Lemma fb_sub m f s r t I A k : hlf + hlf = 1 -> s_na K s = rna K r -> (I < co_ f t)%nat -> (A < cv_ f t)%nat ->
  fb_ m f s r t true (cpos f t I A) k - fb_ m f s r t false (cpos f t I A) k
  = Sum (ne r) (fun j => Sum (nov m) (fun x => gaps m x * trot m f (cph f t I A) x * env m r j x) * s_xmy K s j k).
Proof.
  intros Hh Hs HI HA. rewrite (efb_env m f r t I A (fun j => s_xmy K s j k) HI HA).
  destruct t; unfold fb_, fb; rewrite <- Sum_sub; apply Sum_ext; intros j Hj; unfold xmy_b, xpy_a; rewrite ?Hs;
    match goal with |- ?e * ?x - ?e * ?y = ?e * ?z => transitivity (e * (x - y)); [ring|]; rewrite hh' by exact Hh; reflexivity end.
Qed.

(** The couplings of a spin. *)
Definition l_ (x : t3 * t3) (t : bool) : t3 := if t then snd x else fst x.

Lemma set_up_at m f d pc ov s r t k p q :
  l_ (set_up K hlf m f d pc ov s r) t k p q =
  if ov && negb (mixed f t p q) then 0 else
  couple K (naux d) (lpq_ d t) (l_aux K m d s r) k p q +
  (if pc && mixed f t p q then
     if (p <? co_ f t)%nat then fb_ m f s r t true (cpos f t p (q - co_ f t)) k else fb_ m f s r t false (cpos f t q (p - co_ f t)) k
   else 0).
Proof.
  unfold set_up, mixed. destruct t, pc, ov; cbn [l_ fst snd andb]; unfold only_ov, add_p; cbn [P_Screen.co_];
    repeat match goal with |- context [(?a <? ?b)%nat] => destruct (a <? b)%nat end; cbn [xorb negb]; try reflexivity; unfold lpq_, fb_, cpos; cbn [P_Screen.cv_]; try ring.
Qed.

Lemma mixed_sym f t p q : mixed f t q p = mixed f t p q.
Proof. unfold mixed. apply xorb_comm. Qed.
Lemma exc_sym f t p q : mixed f t p q = true -> exc f t q p = exc f t p q.
Proof. unfold mixed, exc. destruct (p <? co_ f t)%nat, (q <? co_ f t)%nat; cbn; intros; congruence. Qed.

Lemma couple_env m d s r t p q k : s_na K s = rna K r ->
  couple K (naux d) (lpq_ d t) (l_aux K m d s r) k p q
  = Sum (ne r) (fun j => Sum (nov m) (fun x => Sum (naux d) (fun n => lpq_ d t n p q * lov m d n x) * env m r j x) * s_xpy K s j k).
Proof.
  intros Hs. unfold couple.
  rewrite (Sum_ext (naux d) _ (fun n => Sum (ne r) (fun j => lpq_ d t n p q * (Sum (nov m) (fun x => lov m d n x * env m r j x) * s_xpy K s j k)))).
  2:{ intros n _. rewrite laux_env by exact Hs. rewrite <- Sum_mul_l. reflexivity. }
  rewrite Sum_swap. apply Sum_ext. intros j _.
  transitivity (Sum (naux d) (fun n => Sum (nov m) (fun x => lpq_ d t n p q * lov m d n x * env m r j x)) * s_xpy K s j k).
  - rewrite <- Sum_mul_r. apply Sum_ext. intros n _. 
    match goal with |- ?a * (?b * ?c) = _ => transitivity (a * b * c); [ring|] end.
    f_equal. rewrite <- Sum_mul_l. apply Sum_ext. intros; ring.
  - f_equal. rewrite Sum_swap. apply Sum_ext. intros x _. rewrite Sum_mul_r. reflexivity.
Qed.

Definition dot (m : mfd) (r : rot K) (v : vec) (j : nat) : K := Sum (nov m) (fun x => v x * env m r j x).
Lemma dot_zero m r (v : vec) j : (forall x, (x < nov m)%nat -> v x = 0) -> dot m r v j = 0.
Proof. intros H. unfold dot. apply Sum_0. intros x Hx. rewrite H by exact Hx. ring. Qed.

Lemma L_plus m f d pc ov s r t k p q : hlf + hlf = 1 -> real_orbitals f d -> s_na K s = rna K r ->
  (p < co_ f t + cv_ f t)%nat -> (q < co_ f t + cv_ f t)%nat ->
  l_ (set_up K hlf m f d pc ov s r) t k p q + l_ (set_up K hlf m f d pc ov s r) t k q p
  = Sum (ne r) (fun j => dot m r (gam m f d pc ov t p q) j * s_xpy K s j k).
Proof.
  intros Hh HR Hs Hp Hq. rewrite !set_up_at, (mixed_sym f t p q).
  destruct (ov && negb (mixed f t p q)) eqn:Eo.
  { rewrite Sum_0; [ring|]. intros j _. rewrite dot_zero; [ring|]. intros x _. unfold gam. rewrite Eo. reflexivity. }
  rewrite !couple_env by exact Hs.
  rewrite (Sum_ext (ne r) (fun j => Sum (nov m) (fun x => Sum (naux d) (fun n => lpq_ d t n q p * lov m d n x) * env m r j x) * s_xpy K s j k)
            (fun j => Sum (nov m) (fun x => Sum (naux d) (fun n => lpq_ d t n p q * lov m d n x) * env m r j x) * s_xpy K s j k)).
  2:{ intros j _. f_equal. apply Sum_ext. intros x _. f_equal. apply Sum_ext. intros n _. rewrite (HR t n q p Hq Hp). reflexivity. }
  assert (G : forall j, dot m r (gam m f d pc ov t p q) j =
     (1 + 1) * Sum (nov m) (fun x => Sum (naux d) (fun n => lpq_ d t n p q * lov m d n x) * env m r j x)
     + (if pc && mixed f t p q then Sum (nov m) (fun x => gaps m x * trot m f (exc f t p q) x * env m r j x) else 0)).
  { intros j. unfold dot, gam. rewrite Eo. destruct (pc && mixed f t p q).
    - rewrite <- Sum_mul_l, <- Sum_add. apply Sum_ext. intros; ring.
    - rewrite <- Sum_mul_l. transitivity (Sum (nov m) (fun x => (1 + 1) * (Sum (naux d) (fun n => lpq_ d t n p q * lov m d n x) * env m r j x))); [apply Sum_ext; intros; ring|ring]. }
  rewrite (Sum_ext (ne r) (fun j => dot m r (gam m f d pc ov t p q) j * s_xpy K s j k) _ (fun j _ => f_equal (fun z => z * s_xpy K s j k) (G j))).
  destruct (pc && mixed f t p q) eqn:Ep.
  - apply andb_prop in Ep. destruct Ep as [_ Em]. unfold mixed in Em.
    assert (E : (if (p <? co_ f t)%nat then fb_ m f s r t true (cpos f t p (q - co_ f t)) k else fb_ m f s r t false (cpos f t q (p - co_ f t)) k)
      + (if (q <? co_ f t)%nat then fb_ m f s r t true (cpos f t q (p - co_ f t)) k else fb_ m f s r t false (cpos f t p (q - co_ f t)) k)
      = Sum (ne r) (fun j => Sum (nov m) (fun x => gaps m x * trot m f (exc f t p q) x * env m r j x) * s_xpy K s j k)).
    { unfold exc. destruct (Nat.ltb_spec p (co_ f t)) as [P|P], (Nat.ltb_spec q (co_ f t)) as [Q|Q]; try discriminate.
      - apply fb_add; try assumption; lia.
      - rewrite <- fb_add by (try assumption; lia). ring. }
    match goal with |- ?a + ?b + (?a + ?c) = _ => transitivity (a + a + (b + c)); [ring|] end. rewrite E, <- !Sum_add.
    apply Sum_ext. intros; ring.
  - match goal with |- ?a + 0 + (?a + 0) = _ => transitivity (a + a); [ring|] end. rewrite <- !Sum_add. apply Sum_ext. intros; ring.
Qed.

Lemma L_minus m f d pc ov s r t k p q : hlf + hlf = 1 -> real_orbitals f d -> s_na K s = rna K r ->
  (p < co_ f t + cv_ f t)%nat -> (q < co_ f t + cv_ f t)%nat ->
  l_ (set_up K hlf m f d pc ov s r) t k p q - l_ (set_up K hlf m f d pc ov s r) t k q p
  = Sum (ne r) (fun j => dot m r (gam' m f pc t p q) j * s_xmy K s j k).
Proof.
  intros Hh HR Hs Hp Hq. rewrite !set_up_at, (mixed_sym f t p q).
  destruct (ov && negb (mixed f t p q)) eqn:Eo.
  { rewrite Sum_0; [ring|]. intros j _. rewrite dot_zero; [ring|]. intros x _. unfold gam'.
    apply andb_prop in Eo. destruct Eo as [_ Eo]. apply negb_true_iff in Eo. rewrite Eo, andb_false_r. reflexivity. }
  rewrite !couple_env by exact Hs.
  rewrite (Sum_ext (ne r) (fun j => Sum (nov m) (fun x => Sum (naux d) (fun n => lpq_ d t n q p * lov m d n x) * env m r j x) * s_xpy K s j k)
            (fun j => Sum (nov m) (fun x => Sum (naux d) (fun n => lpq_ d t n p q * lov m d n x) * env m r j x) * s_xpy K s j k)).
  2:{ intros j _. f_equal. apply Sum_ext. intros x _. f_equal. apply Sum_ext. intros n _. rewrite (HR t n q p Hq Hp). reflexivity. }
  destruct (pc && mixed f t p q) eqn:Ep.
  - assert (G : forall j, dot m r (gam' m f pc t p q) j =
       (if (p <? co_ f t)%nat then 1 else - (1)) * Sum (nov m) (fun x => gaps m x * trot m f (exc f t p q) x * env m r j x)).
    { intros j. unfold dot, gam'. rewrite Ep. rewrite <- Sum_mul_l. apply Sum_ext. intros; ring. }
    rewrite (Sum_ext (ne r) (fun j => dot m r (gam' m f pc t p q) j * s_xmy K s j k) _ (fun j _ => f_equal (fun z => z * s_xmy K s j k) (G j))).
    match goal with |- ?a + ?b - (?a + ?c) = _ => transitivity (b - c); [ring|] end.
    apply andb_prop in Ep. destruct Ep as [_ Em]. unfold mixed in Em. unfold exc.
    destruct (Nat.ltb_spec p (co_ f t)) as [P|P], (Nat.ltb_spec q (co_ f t)) as [Q|Q]; try discriminate.
    + rewrite fb_sub by (try assumption; lia). apply Sum_ext. intros; ring.
    + match goal with |- ?a - ?b = _ => transitivity (- (b - a)); [ring|] end.
      rewrite fb_sub by (try assumption; lia). rewrite <- Sum_opp. apply Sum_ext. intros; ring.
  - rewrite (Sum_0 (ne r) (fun j => dot m r (gam' m f pc t p q) j * s_xmy K s j k)); [ring|]. intros j _. rewrite dot_zero; [ring|].
    intros x _. unfold gam'. rewrite Ep. reflexivity.
Qed.

(** ** The correction in closed form *)
Lemma inv_form n (D R : mt) w xpy xmy Xe : rpa_sol n D R w xpy xmy -> (forall k, (k < n)%nat -> w k * inv (w k) = 1) ->
  meq n n (mm n Xe R) idm -> meq n n Xe (mm n xpy (mm n (dg (fun k => inv (w k))) (tr xpy))).
Proof.
  intros HS Hw HX. apply (inv_unique K n R Xe); [exact HX|]. pose proof (norm' K n D R w xpy xmy HS) as N1.
  destruct HS as (_ & H2 & _ & _). rewrite <- mm_assoc, H2, mm_assoc.
  rewrite <- (mm_assoc n n n n (dg w)), mm_dd, (dg_id n (fun k => w k * inv (w k)) Hw), mm_idl. exact N1.
Qed.
Lemma inv_form' n (D R : mt) w xpy xmy Pe : rpa_sol n D R w xpy xmy -> (forall k, (k < n)%nat -> w k * inv (w k) = 1) ->
  meq n n (mm n Pe D) idm -> meq n n Pe (mm n xmy (mm n (dg (fun k => inv (w k))) (tr xmy))).
Proof.
  intros HS Hw HX. apply (inv_unique K n D Pe); [exact HX|].
  destruct HS as (H1 & _ & _ & H4). rewrite <- mm_assoc, H1, mm_assoc.
  rewrite <- (mm_assoc n n n n (dg w)), mm_dd, (dg_id n (fun k => w k * inv (w k)) Hw), mm_idl. exact H4.
Qed.

Lemma quad_form n (x : mt) (g g' iw : vec) : Sum n (fun k => Sum n (fun j => g j * x j k) * iw k * Sum n (fun j => g' j * x j k))
  = Sum n (fun j => Sum n (fun j' => g j * mm n x (mm n (dg iw) (tr x)) j j' * g' j')).
Proof.
  transitivity (Sum n (fun j => Sum n (fun j' => Sum n (fun k => g j * (x j k * (iw k * x j' k)) * g' j')))).
  - rewrite (Sum_ext n _ (fun k => Sum n (fun j => Sum n (fun j' => g j * (x j k * (iw k * x j' k)) * g' j')))).
    2:{ intros k _. match goal with |- ?a * ?b * ?c = _ => transitivity (b * (a * c)); [ring|] end. rewrite Sum_mul_Sum, <- Sum_mul_l.
        apply Sum_ext. intros j _. rewrite <- Sum_mul_l. apply Sum_ext. intros; ring. }
    rewrite Sum_swap. apply Sum_ext. intros j _. apply Sum_swap.
  - apply Sum_ext. intros j _. apply Sum_ext. intros j' Hj'. rewrite Sum_mul_r. f_equal. rewrite Sum_mul_l. f_equal.
    unfold mm at 1. apply Sum_ext. intros k Hk. f_equal. symmetry. exact (mm_dgl n n iw (tr x) k j' Hk Hj').
Qed.

Lemma quad_env m r (v w : vec) (X : mt) : Sum (ne r) (fun j => Sum (ne r) (fun j' => dot m r v j * X j j' * dot m r w j'))
  = quad (nov m) v (mm (ne r) (tr (env m r)) (mm (ne r) X (env m r))) w.
Proof.
  unfold quad, dot.
  transitivity (Sum (ne r) (fun j => Sum (ne r) (fun j' => Sum (nov m) (fun x => Sum (nov m) (fun y => v x * (env m r j x * (X j j' * env m r j' y)) * w y))))).
  - apply Sum_ext. intros j _. apply Sum_ext. intros j' _. match goal with |- ?a * ?b * ?c = _ => transitivity (b * (a * c)); [ring|] end.
    rewrite Sum_mul_Sum, <- Sum_mul_l. apply Sum_ext. intros x _. rewrite <- Sum_mul_l. apply Sum_ext. intros; ring.
  - transitivity (Sum (nov m) (fun x => Sum (nov m) (fun y => Sum (ne r) (fun j => Sum (ne r) (fun j' => v x * (env m r j x * (X j j' * env m r j' y)) * w y))))).
    + transitivity (Sum (ne r) (fun j => Sum (nov m) (fun x => Sum (nov m) (fun y => Sum (ne r) (fun j' => v x * (env m r j x * (X j j' * env m r j' y)) * w y))))).
      { apply Sum_ext. intros j _. rewrite Sum_swap. apply Sum_ext. intros x _. apply Sum_swap. }
      rewrite Sum_swap. apply Sum_ext. intros x _. apply Sum_swap.
    + apply Sum_ext. intros x _. apply Sum_ext. intros y _. unfold mm, tr. rewrite <- Sum_mul_l, <- Sum_mul_r. apply Sum_ext. intros j _.
      rewrite <- Sum_mul_l, <- Sum_mul_l, <- Sum_mul_r. reflexivity.
Qed.

Lemma deltaW_at m f d pc ov s r dw t u p q p' q' : deltaW m f d pc ov = Ret dw -> get_crpa m f = Ret (Some (s, r)) ->
  w_ dw t u p q p' q' = dblock K inv (s_n K s) (s_f K s) (l_ (set_up K hlf m f d pc ov s r) t) (l_ (set_up K hlf m f d pc ov s r) u) p q p' q'.
Proof.
  unfold M_Crpa.deltaW. intros H G. rewrite G in H. cbn [rbind] in H. destruct (set_up K hlf m f d pc ov s r) as [la lb].
  assert (E : dw = (dblock K inv (s_n K s) (s_f K s) la la, dblock K inv (s_n K s) (s_f K s) la lb, dblock K inv (s_n K s) (s_f K s) lb lb)).
  { exact (eq_sym (f_equal (fun z => match z with Ret y => y | _ => dw end) H)). }
  rewrite E. destruct t, u; cbn [w_ l_ fst snd]; try reflexivity.
  unfold dblock. f_equal; apply Sum_ext; intros; ring.
Qed.

Theorem C72_formula m f d pc ov s r dw Xe Pe t u p q p' q' : hlf + hlf = 1 ->
  deltaW m f d pc ov = Ret dw -> get_crpa m f = Ret (Some (s, r)) -> solved m d s r -> real_orbitals f d ->
  meq (ne r) (ne r) (mm (ne r) Xe (rotm K (nov m) (env m r) (ApB m d))) idm ->
  meq (ne r) (ne r) (mm (ne r) Pe (rotm K (nov m) (env m r) (AmB m))) idm ->
  (p < co_ f t + cv_ f t)%nat -> (q < co_ f t + cv_ f t)%nat -> (p' < co_ f u + cv_ f u)%nat -> (q' < co_ f u + cv_ f u)%nat ->
  (1 + 1) * w_ dw t u p q p' q' =
  - (quad (nov m) (gam m f d pc ov t p q) (mm (ne r) (tr (env m r)) (mm (ne r) Xe (env m r))) (gam m f d pc ov u p' q')
     + quad (nov m) (gam' m f pc t p q) (mm (ne r) (tr (env m r)) (mm (ne r) Pe (env m r))) (gam' m f pc u p' q')).
Proof.
  intros Hh HW HG (S1 & S2 & HS & Hw) HR HX HP Hp Hq Hp' Hq'.
  rewrite (deltaW_at m f d pc ov s r dw t u p q p' q' HW HG). unfold dblock.
  replace (s_n K s) with (ne r) by (unfold ne, s_n; rewrite S1, S2; reflexivity).
  set (L := set_up K hlf m f d pc ov s r).
  assert (E : (1 + 1) * (Sum (ne r) (fun k => l_ L t k p q * - inv (s_f K s k) * l_ L u k p' q') + Sum (ne r) (fun k => l_ L t k q p * - inv (s_f K s k) * l_ L u k q' p'))
    = - (Sum (ne r) (fun k => (l_ L t k p q + l_ L t k q p) * inv (s_f K s k) * (l_ L u k p' q' + l_ L u k q' p'))
         + Sum (ne r) (fun k => (l_ L t k p q - l_ L t k q p) * inv (s_f K s k) * (l_ L u k p' q' - l_ L u k q' p')))).
  { rewrite <- !Sum_add, <- Sum_mul_l, <- Sum_opp. apply Sum_ext. intros; ring. }
  rewrite E. clear E. f_equal. unfold L. clear L. f_equal.
  - rewrite (Sum_ext (ne r) _ (fun k => Sum (ne r) (fun j => dot m r (gam m f d pc ov t p q) j * s_xpy K s j k) * inv (s_f K s k)
              * Sum (ne r) (fun j => dot m r (gam m f d pc ov u p' q') j * s_xpy K s j k))).
    2:{ intros k _. rewrite !L_plus by assumption. reflexivity. }
    rewrite (quad_form (ne r) (s_xpy K s) _ _ (fun k => inv (s_f K s k))), <- quad_env.
    apply Sum_ext. intros j Hj. apply Sum_ext. intros j' Hj'. f_equal. f_equal. symmetry.
    exact (inv_form (ne r) _ _ _ _ _ Xe HS Hw HX j j' Hj Hj').
  - rewrite (Sum_ext (ne r) _ (fun k => Sum (ne r) (fun j => dot m r (gam' m f pc t p q) j * s_xmy K s j k) * inv (s_f K s k)
              * Sum (ne r) (fun j => dot m r (gam' m f pc u p' q') j * s_xmy K s j k))).
    2:{ intros k _. rewrite !L_minus by assumption. reflexivity. }
    rewrite (quad_form (ne r) (s_xmy K s) _ _ (fun k => inv (s_f K s k))), <- quad_env.
    apply Sum_ext. intros j Hj. apply Sum_ext. intros j' Hj'. f_equal. f_equal. symmetry.
    exact (inv_form' (ne r) _ _ _ _ _ Pe HS Hw HP j j' Hj Hj').
Qed.

(** ** The environment *)

(** The rows of the two rotations form an orthonormal basis of all excitations. *)
Definition environment (m : mfd) (f : frag) (r : rot K) : Prop :=
  meq (ovs f) (ovs f) (mm (nov m) (trot m f) (tr (trot m f))) idm /\
  meq (ne r) (ne r) (mm (nov m) (env m r) (tr (env m r))) idm /\
  meq (ne r) (ovs f) (mm (nov m) (env m r) (tr (trot m f))) zm /\
  meq (nov m) (nov m) (madd (mm (ovs f) (tr (trot m f)) (trot m f)) (mm (ne r) (tr (env m r)) (env m r))) idm.

Lemma left_inv n (D R : mt) w xpy xmy : rpa_sol n D R w xpy xmy -> (forall k, (k < n)%nat -> w k * inv (w k) = 1) ->
  meq n n (mm n (mm n xpy (mm n (dg (fun k => inv (w k))) (tr xpy))) R) idm.
Proof.
  intros HS Hw. rewrite (R_spec K n D R w xpy xmy HS). destruct HS as (_ & _ & H3 & H4).
  rewrite !mm_assoc. rewrite <- (mm_assoc n n n n (tr xpy) xmy), H3, mm_idl.
  rewrite <- (mm_assoc n n n n (dg (fun k => inv (w k)))), mm_dd, (dg_id n (fun k => inv (w k) * w k)), mm_idl; [exact H4|].
  intros k Hk. rewrite <- (Hw k Hk). ring.
Qed.
Lemma left_inv' n (D R : mt) w xpy xmy : rpa_sol n D R w xpy xmy -> (forall k, (k < n)%nat -> w k * inv (w k) = 1) ->
  meq n n (mm n (mm n xmy (mm n (dg (fun k => inv (w k))) (tr xmy))) D) idm.
Proof.
  intros HS Hw. rewrite (D_spec K n D R w xpy xmy HS). pose proof (norm' K n D R w xpy xmy HS) as N1.
  pose proof (norm'' K n D R w xpy xmy HS) as N2.
  rewrite !mm_assoc. rewrite <- (mm_assoc n n n n (tr xmy) xpy), N2, mm_idl.
  rewrite <- (mm_assoc n n n n (dg (fun k => inv (w k)))), mm_dd, (dg_id n (fun k => inv (w k) * w k)), mm_idl; [exact N1|].
  intros k Hk. rewrite <- (Hw k Hk). ring.
Qed.

Lemma schur N nc nf (T F R Z Xe : mt) :
  meq nc nc (mm N T (tr T)) idm -> meq nf nc (mm N F (tr T)) zm -> meq N N (madd (mm nc (tr T) T) (mm nf (tr F) F)) idm ->
  meq N N (mm N R Z) idm -> meq nf nf (mm nf Xe (rotm K N F R)) idm ->
  meq nc nc (mm nc (msub (rotm K N T R) (mm nf (mm N (mm N T R) (tr F)) (mm nf Xe (mm N (mm N F R) (tr T))))) (rotm K N T Z)) idm.
Proof.
  intros H1 H2 H3 HZ HX. unfold rotm in *.
  set (z := mm N (mm N T Z) (tr T)) in *. set (y := mm N (mm N F Z) (tr T)).
  assert (G : forall c W, meq N c (madd (mm nc (tr T) (mm N T W)) (mm nf (tr F) (mm N F W))) W).
  { intros c W. rewrite <- (mm_assoc N c nc N (tr T) T W), <- (mm_assoc N c nf N (tr F) F W), <- mm_addl, H3. apply mm_idl. }
  assert (E : forall n a, meq n nc (madd (mm nc (mm N (mm N a R) (tr T)) z) (mm nf (mm N (mm N a R) (tr F)) y)) (mm N a (tr T))).
  { intros n a. unfold z, y.
    transitivity (mm N (mm N a R) (madd (mm nc (tr T) (mm N T (mm N Z (tr T)))) (mm nf (tr F) (mm N F (mm N Z (tr T)))))).
    - rewrite mm_addr. rewrite !(mm_assoc n nc N nc (mm N a R)), !(mm_assoc n nc N nf (mm N a R)).
      rewrite (mm_assoc nc nc N N T Z (tr T)), (mm_assoc nf nc N N F Z (tr T)). reflexivity.
    - rewrite (G nc (mm N Z (tr T))). rewrite (mm_assoc n nc N N a R). rewrite <- (mm_assoc N nc N N R Z (tr T)), HZ, mm_idl. reflexivity. }
  pose proof (E nc T) as E1. pose proof (E nf F) as E2. rewrite H1 in E1. rewrite H2 in E2.
  set (a := mm N (mm N T R) (tr T)) in *. set (b := mm N (mm N T R) (tr F)) in *.
  set (c := mm N (mm N F R) (tr T)) in *. set (e := mm N (mm N F R) (tr F)) in *.
  assert (E3 : meq nf nc (mm nf Xe (mm nc c z)) (msc (- (1)) y)).
  { assert (Q : meq nf nc (mm nc c z) (msc (- (1)) (mm nf e y))).
    { intros i j Hi Hj. specialize (E2 i j Hi Hj). unfold madd, zm in E2. unfold msc.
      match type of E2 with ?u + ?v = 0 => transitivity (u + v - v); [ring|rewrite E2; ring] end. }
    rewrite Q, mm_scr. rewrite <- (mm_assoc nf nc nf nf Xe e y), HX, mm_idl. reflexivity. }
  rewrite mm_subl. rewrite (mm_assoc nc nc nf nc b), (mm_assoc nf nc nf nc Xe), E3, mm_scr.
  rewrite <- E1. intros i j _ _. unfold msub, madd, msc. ring.
Qed.

(** ** Response of the environment with the coupling through orbital energies *)

(** Integrals over excitations of the cluster are those of the system, rotated. *)
Definition integrals_match (m : mfd) (f : frag) (d : df) : Prop := forall t n I A, (I < co_ f t)%nat -> (A < cv_ f t)%nat ->
  lpq_ d t n I (co_ f t + A)%nat = Sum (nov m) (fun x => trot m f (cph f t I A) x * lov m d n x).

(** The bare interaction of the cluster, and the screened one. *)
Definition bare (d : df) (t u : bool) : ten := fun p q r s => Sum (naux d) (fun n => lpq_ d t n p q * lpq_ d u n r s).
Definition scrd (d : df) (dw : ten * ten * ten) (t u : bool) : ten := fun p q r s => bare d t u p q r s + w_ dw t u p q r s.

(** A+B (sign 1) or A-B (sign -1) of the cluster with an interaction [w]. *)
Definition cluster_rpa (m : mfd) (f : frag) (w : bool -> bool -> ten) (sign : K) (C : mt) : Prop :=
  forall t u I A J B, (I < co_ f t)%nat -> (A < cv_ f t)%nat -> (J < co_ f u)%nat -> (B < cv_ f u)%nat ->
  C (cph f t I A) (cph f u J B) = rotm K (nov m) (trot m f) (AmB m) (cph f t I A) (cph f u J B)
    + w t u I (co_ f t + A)%nat J (co_ f u + B)%nat + sign * w t u I (co_ f t + A)%nat (co_ f u + B)%nat J.

Lemma quad_mm n N (a M b : mt) p q : (p < n)%nat -> (q < n)%nat -> quad N (a p) M (b q) = mm N (mm N a M) (tr b) p q.
Proof.
  intros Hp Hq. rewrite (mm_assoc n n N N a M (tr b) p q Hp Hq). unfold quad, mm, tr. apply Sum_ext. intros x _.
  rewrite <- Sum_mul_l. apply Sum_ext. intros; ring.
Qed.
Lemma quad_ext n v v' a w w' : (forall x, (x < n)%nat -> v x = v' x) -> (forall x, (x < n)%nat -> w x = w' x) -> quad n v a w = quad n v' a w'.
Proof. intros Hv Hw. unfold quad. apply Sum_ext. intros x Hx. apply Sum_ext. intros y Hy. rewrite Hv, Hw by assumption. reflexivity. Qed.
Lemma quad_opp n v a w : quad n v a (fun x => - w x) = - quad n v a w.
Proof. unfold quad. rewrite <- Sum_opp. apply Sum_ext. intros x _. rewrite <- Sum_opp. apply Sum_ext. intros; ring. Qed.

Lemma gam_ov m f d ov t I A : real_orbitals f d -> integrals_match m f d -> (I < co_ f t)%nat -> (A < cv_ f t)%nat -> forall x, (x < nov m)%nat ->
  gam m f d true ov t I (co_ f t + A) x = mm (nov m) (trot m f) (ApB m d) (cph f t I A) x /\
  gam m f d true ov t (co_ f t + A) I x = mm (nov m) (trot m f) (ApB m d) (cph f t I A) x /\
  gam' m f true t I (co_ f t + A) x = mm (nov m) (trot m f) (AmB m) (cph f t I A) x /\
  gam' m f true t (co_ f t + A) I x = - mm (nov m) (trot m f) (AmB m) (cph f t I A) x.
Proof.
  intros HR HM HI HA x Hx.
  assert (L1 : (I <? co_ f t)%nat = true) by (apply Nat.ltb_lt; exact HI).
  assert (L2 : (co_ f t + A <? co_ f t)%nat = false) by (apply Nat.ltb_ge; lia).
  assert (ED : mm (nov m) (trot m f) (AmB m) (cph f t I A) x = gaps m x * trot m f (cph f t I A) x).
  { unfold AmB. rewrite (mm_dgr (ovs f) (nov m) (gaps m) (trot m f) _ x (cph_lt K f t I A HI HA) Hx). ring. }
  assert (EV : Sum (naux d) (fun n => lpq_ d t n I (co_ f t + A) * lov m d n x) = mm (nov m) (trot m f) (coul m d) (cph f t I A) x).
  { unfold coul, mm, tr. rewrite (Sum_ext (naux d) _ (fun n => Sum (nov m) (fun y => trot m f (cph f t I A) y * (lov m d n y * lov m d n x)))).
    2:{ intros n _. rewrite HM by assumption. rewrite <- Sum_mul_r. apply Sum_ext. intros; ring. }
    rewrite Sum_swap. apply Sum_ext. intros y _. rewrite Sum_mul_l. reflexivity. }
  assert (ER : mm (nov m) (trot m f) (ApB m d) (cph f t I A) x
    = (1 + 1) * mm (nov m) (trot m f) (coul m d) (cph f t I A) x + gaps m x * trot m f (cph f t I A) x).
  { unfold ApB. rewrite (mm_addr (ovs f) (nov m) (nov m) _ _ _ _ x (cph_lt K f t I A HI HA) Hx). unfold madd. rewrite ED.
    rewrite (mm_scr (ovs f) (nov m) (nov m) _ _ _ _ x (cph_lt K f t I A HI HA) Hx). unfold msc. ring. }
  unfold gam, gam', mixed, exc. rewrite L1, L2, ER, ED. cbn [xorb andb negb]. rewrite andb_false_r.
  replace (co_ f t + A - co_ f t)%nat with A by lia.
  rewrite EV.
  rewrite (Sum_ext (naux d) (fun n => lpq_ d t n (co_ f t + A) I * lov m d n x) (fun n => lpq_ d t n I (co_ f t + A) * lov m d n x)).
  2:{ intros n _. rewrite (HR t n (co_ f t + A)%nat I); [reflexivity|lia|lia]. }
  rewrite EV. repeat split; ring.
Qed.

Lemma coul_match m f d t u I A J B : integrals_match m f d -> (I < co_ f t)%nat -> (A < cv_ f t)%nat -> (J < co_ f u)%nat -> (B < cv_ f u)%nat ->
  bare d t u I (co_ f t + A) J (co_ f u + B) = rotm K (nov m) (trot m f) (coul m d) (cph f t I A) (cph f u J B).
Proof.
  intros HM HI HA HJ HB. unfold bare, rotm. pose proof (cph_lt K f t I A HI HA) as P. pose proof (cph_lt K f u J B HJ HB) as Q.
  rewrite (mm_assoc (ovs f) (ovs f) (nov m) (nov m) _ _ _ _ _ P Q). unfold coul.
  transitivity (Sum (nov m) (fun x => Sum (nov m) (fun y => Sum (naux d) (fun n => trot m f (cph f t I A) x * (lov m d n x * lov m d n y * trot m f (cph f u J B) y))))).
  - rewrite (Sum_ext (naux d) _ (fun n => Sum (nov m) (fun x => Sum (nov m) (fun y => trot m f (cph f t I A) x * (lov m d n x * lov m d n y * trot m f (cph f u J B) y))))).
    2:{ intros n _. rewrite !HM by assumption. rewrite Sum_mul_Sum. apply Sum_ext. intros x _. apply Sum_ext. intros; ring. }
    rewrite Sum_swap. apply Sum_ext. intros x _. apply Sum_swap.
  - unfold mm, tr. apply Sum_ext. intros x _. rewrite <- Sum_mul_l. apply Sum_ext. intros y _. rewrite <- Sum_mul_r, <- Sum_mul_l. reflexivity.
Qed.

Lemma AmB_sym m : meq (nov m) (nov m) (tr (AmB m)) (AmB m).
Proof. unfold AmB. apply tr_dg. Qed.
Lemma ApB_sym m d : meq (nov m) (nov m) (tr (ApB m d)) (ApB m d).
Proof.
  intros x y Hx Hy. unfold ApB, tr, madd, msc. f_equal; [exact (AmB_sym m x y Hx Hy)|]. f_equal.
  unfold coul, mm, tr. apply Sum_ext. intros; ring.
Qed.

(** [T R F^t X F R T^t] as a quadratic form. *)
Lemma sandwich N nc nf (T F R X : mt) p q : meq N N (tr R) R -> (p < nc)%nat -> (q < nc)%nat ->
  quad N (mm N T R p) (mm nf (tr F) (mm nf X F)) (mm N T R q)
  = mm nf (mm N (mm N T R) (tr F)) (mm nf X (mm N (mm N F R) (tr T))) p q.
Proof.
  intros HR Hp Hq. rewrite (quad_mm nc N (mm N T R) _ (mm N T R) p q Hp Hq).
  assert (E : meq nc nc (mm N (mm N (mm N T R) (mm nf (tr F) (mm nf X F))) (tr (mm N T R)))
    (mm nf (mm N (mm N T R) (tr F)) (mm nf X (mm N (mm N F R) (tr T))))).
  { rewrite (tr_mm N nc N T R), HR. rewrite !(mm_assoc nc nc N N (mm N T R)), !(mm_assoc nc nc N nf (mm N T R)).
    rewrite (mm_assoc N nc nf N (tr F)), (mm_assoc nf nc nf N X), (mm_assoc nf nc N N F R). reflexivity. }
  exact (E p q Hp Hq).
Qed.

Section Resp.
Variables (m : mfd) (f : frag) (d : df) (ov : bool) (s : sol K) (r : rot K) (dw : ten * ten * ten).
Hypothesis (Hh : hlf + hlf = 1) (HW : deltaW m f d true ov = Ret dw) (HG : get_crpa m f = Ret (Some (s, r)))
  (HS : solved m d s r) (HR : real_orbitals f d) (HM : integrals_match m f d) (HE : environment m f r).

Lemma bare_swap t u I A J B : (J < co_ f u)%nat -> (B < cv_ f u)%nat ->
  bare d t u I A (co_ f u + B) J = bare d t u I A J (co_ f u + B).
Proof. intros HJ HB. unfold bare. apply Sum_ext. intros n _. f_equal. apply (HR u n (co_ f u + B)%nat J); lia. Qed.

(** A+B (A-B) of the cluster, built with the screened interaction, is the inverse of the cluster's part of the inverse of
    A+B (A-B) of the whole system: the static response of the cluster is that of the system. *)
Theorem C72_response C Z : cluster_rpa m f (scrd d dw) 1 C -> meq (nov m) (nov m) (mm (nov m) (ApB m d) Z) idm ->
  meq (ovs f) (ovs f) (mm (ovs f) C (rotm K (nov m) (trot m f) Z)) idm.
Proof.
  intros HC HZ. destruct HE as (E1 & E2 & E3 & E4). pose proof HS as (S1 & S2 & S3 & S4).
  pose proof (left_inv _ _ _ _ _ _ S3 S4) as HX. pose proof (left_inv' _ _ _ _ _ _ S3 S4) as HP.
  set (Xe := mm (ne r) (s_xpy K s) (mm (ne r) (dg (fun k => inv (s_f K s k))) (tr (s_xpy K s)))) in *.
  set (Pe := mm (ne r) (s_xmy K s) (mm (ne r) (dg (fun k => inv (s_f K s k))) (tr (s_xmy K s)))) in *.
  assert (EC : meq (ovs f) (ovs f) C (msub (rotm K (nov m) (trot m f) (ApB m d))
     (mm (ne r) (mm (nov m) (mm (nov m) (trot m f) (ApB m d)) (tr (env m r))) (mm (ne r) Xe (mm (nov m) (mm (nov m) (env m r) (ApB m d)) (tr (trot m f))))))).
  { intros p q Hp Hq. destruct (cph_cover K f p Hp) as (t & I & A & HI & HA & ->). destruct (cph_cover K f q Hq) as (u & J & B & HJ & HB & ->).
    rewrite (HC t u I A J B HI HA HJ HB). unfold scrd. rewrite bare_swap by assumption. rewrite (coul_match m f d t u I A J B) by assumption.
    pose proof (C72_formula m f d true ov s r dw Xe Pe t u I (co_ f t + A) J (co_ f u + B) Hh HW HG HS HR HX HP) as F1.
    pose proof (C72_formula m f d true ov s r dw Xe Pe t u I (co_ f t + A) (co_ f u + B) J Hh HW HG HS HR HX HP) as F2.
    specialize (F1 ltac:(lia) ltac:(lia) ltac:(lia) ltac:(lia)). specialize (F2 ltac:(lia) ltac:(lia) ltac:(lia) ltac:(lia)).
    pose proof (gam_ov m f d ov t I A HR HM HI HA) as G1. pose proof (gam_ov m f d ov u J B HR HM HJ HB) as G2.
    rewrite (quad_ext _ _ (mm (nov m) (trot m f) (ApB m d) (cph f t I A)) _ _ (mm (nov m) (trot m f) (ApB m d) (cph f u J B))) in F1 by (intros; apply G1 || apply G2; assumption).
    rewrite (quad_ext _ (gam m f d true ov t I (co_ f t + A)) (mm (nov m) (trot m f) (ApB m d) (cph f t I A)) _ _ (mm (nov m) (trot m f) (ApB m d) (cph f u J B))) in F2 by (intros; apply G1 || apply G2; assumption).
    assert (Eq : quad (nov m) (gam' m f true t I (co_ f t + A)) (mm (ne r) (tr (env m r)) (mm (ne r) Pe (env m r))) (gam' m f true u (co_ f u + B) J)
      = - quad (nov m) (gam' m f true t I (co_ f t + A)) (mm (ne r) (tr (env m r)) (mm (ne r) Pe (env m r))) (gam' m f true u J (co_ f u + B))).
    { rewrite <- quad_opp. apply quad_ext; [reflexivity|]. intros x Hx. destruct (G2 x Hx) as (_ & _ & A1 & A2). rewrite A1, A2. reflexivity. }
    rewrite Eq in F2. clear Eq.
    rewrite (sandwich (nov m) (ovs f) (ne r) (trot m f) (env m r) (ApB m d) Xe _ _ (ApB_sym m d) Hp Hq) in F1, F2.
    unfold msub. assert (ER : rotm K (nov m) (trot m f) (ApB m d) (cph f t I A) (cph f u J B)
      = rotm K (nov m) (trot m f) (AmB m) (cph f t I A) (cph f u J B) + (1 + 1) * rotm K (nov m) (trot m f) (coul m d) (cph f t I A) (cph f u J B)).
    { unfold rotm, ApB.
      assert (Q : meq (ovs f) (ovs f) (mm (nov m) (mm (nov m) (trot m f) (madd (AmB m) (msc (1 + 1) (coul m d)))) (tr (trot m f)))
        (madd (mm (nov m) (mm (nov m) (trot m f) (AmB m)) (tr (trot m f))) (msc (1 + 1) (mm (nov m) (mm (nov m) (trot m f) (coul m d)) (tr (trot m f)))))).
      { rewrite (mm_addr (ovs f) (nov m)), (mm_scr (ovs f) (nov m)), mm_addl, mm_scl. reflexivity. }
      exact (Q _ _ Hp Hq). }
    rewrite ER.
    match type of F1 with (1 + 1) * ?w1 = - (?x + ?y) => match type of F2 with (1 + 1) * ?w2 = _ =>
      assert (F : w1 + w2 = - x); [apply (two_cancel K hlf _ _ Hh); transitivity ((1 + 1) * w1 + (1 + 1) * w2); [ring|rewrite F1, F2; ring]|] end end.
    match type of F with ?w1 + ?w2 = - ?x => match goal with |- ?a + (?v + w1) + 1 * (?v + w2) = _ => transitivity (a + (1 + 1) * v + (w1 + w2)); [ring|] end end.
    rewrite F. ring. }
  rewrite EC. apply schur; assumption.
Qed.

Theorem C72_response_minus C Z : cluster_rpa m f (scrd d dw) (- (1)) C -> meq (nov m) (nov m) (mm (nov m) (AmB m) Z) idm ->
  meq (ovs f) (ovs f) (mm (ovs f) C (rotm K (nov m) (trot m f) Z)) idm.
Proof.
  intros HC HZ. destruct HE as (E1 & E2 & E3 & E4). pose proof HS as (S1 & S2 & S3 & S4).
  pose proof (left_inv _ _ _ _ _ _ S3 S4) as HX. pose proof (left_inv' _ _ _ _ _ _ S3 S4) as HP.
  set (Xe := mm (ne r) (s_xpy K s) (mm (ne r) (dg (fun k => inv (s_f K s k))) (tr (s_xpy K s)))) in *.
  set (Pe := mm (ne r) (s_xmy K s) (mm (ne r) (dg (fun k => inv (s_f K s k))) (tr (s_xmy K s)))) in *.
  assert (EC : meq (ovs f) (ovs f) C (msub (rotm K (nov m) (trot m f) (AmB m))
     (mm (ne r) (mm (nov m) (mm (nov m) (trot m f) (AmB m)) (tr (env m r))) (mm (ne r) Pe (mm (nov m) (mm (nov m) (env m r) (AmB m)) (tr (trot m f))))))).
  { intros p q Hp Hq. destruct (cph_cover K f p Hp) as (t & I & A & HI & HA & ->). destruct (cph_cover K f q Hq) as (u & J & B & HJ & HB & ->).
    rewrite (HC t u I A J B HI HA HJ HB). unfold scrd. rewrite bare_swap by assumption.
    pose proof (C72_formula m f d true ov s r dw Xe Pe t u I (co_ f t + A) J (co_ f u + B) Hh HW HG HS HR HX HP) as F1.
    pose proof (C72_formula m f d true ov s r dw Xe Pe t u I (co_ f t + A) (co_ f u + B) J Hh HW HG HS HR HX HP) as F2.
    specialize (F1 ltac:(lia) ltac:(lia) ltac:(lia) ltac:(lia)). specialize (F2 ltac:(lia) ltac:(lia) ltac:(lia) ltac:(lia)).
    pose proof (gam_ov m f d ov t I A HR HM HI HA) as G1. pose proof (gam_ov m f d ov u J B HR HM HJ HB) as G2.
    assert (Eq : quad (nov m) (gam m f d true ov t I (co_ f t + A)) (mm (ne r) (tr (env m r)) (mm (ne r) Xe (env m r))) (gam m f d true ov u (co_ f u + B) J)
      = quad (nov m) (gam m f d true ov t I (co_ f t + A)) (mm (ne r) (tr (env m r)) (mm (ne r) Xe (env m r))) (gam m f d true ov u J (co_ f u + B))).
    { apply quad_ext; [reflexivity|]. intros x Hx. destruct (G2 x Hx) as (A1 & A2 & _ & _). rewrite A1, A2. reflexivity. }
    rewrite Eq in F2. clear Eq.
    assert (Eq : quad (nov m) (gam' m f true t I (co_ f t + A)) (mm (ne r) (tr (env m r)) (mm (ne r) Pe (env m r))) (gam' m f true u (co_ f u + B) J)
      = - quad (nov m) (gam' m f true t I (co_ f t + A)) (mm (ne r) (tr (env m r)) (mm (ne r) Pe (env m r))) (gam' m f true u J (co_ f u + B))).
    { rewrite <- quad_opp. apply quad_ext; [reflexivity|]. intros x Hx. destruct (G2 x Hx) as (_ & _ & A1 & A2). rewrite A1, A2. reflexivity. }
    rewrite Eq in F2. clear Eq.
    rewrite (quad_ext _ (gam' m f true t I (co_ f t + A)) (mm (nov m) (trot m f) (AmB m) (cph f t I A)) _ (gam' m f true u J (co_ f u + B)) (mm (nov m) (trot m f) (AmB m) (cph f u J B))) in F1, F2 by (intros; apply G1 || apply G2; assumption).
    rewrite (sandwich (nov m) (ovs f) (ne r) (trot m f) (env m r) (AmB m) Pe _ _ (AmB_sym m) Hp Hq) in F1, F2.
    unfold msub.
    match type of F1 with (1 + 1) * ?w1 = - (?y + ?x) => match type of F2 with (1 + 1) * ?w2 = _ =>
      assert (F : w1 - w2 = - x); [apply (two_cancel K hlf _ _ Hh); transitivity ((1 + 1) * w1 - (1 + 1) * w2); [ring|rewrite F1, F2; ring]|] end end.
    match type of F with ?w1 - ?w2 = - ?x => match goal with |- ?a + (?v + w1) + - (1) * (?v + w2) = _ => transitivity (a + (w1 - w2)); [ring|] end end.
    rewrite F. ring. }
  rewrite EC. apply schur; assumption.
Qed.
End Resp.

(** ** Where the environment comes from *)

(** What [null_space] has to return: orthonormal rows orthogonal to those of [a], through which every vector orthogonal to
    the rows of [a] can be expanded. *)
Definition null_ok (rows cols : nat) (a : mt) (x : nat * mt) : Prop :=
  meq (fst x) (fst x) (mm cols (snd x) (tr (snd x))) idm /\ meq rows (fst x) (mm cols a (tr (snd x))) zm /\
  (forall v : vec, (forall i, (i < rows)%nat -> Sum cols (fun y => a i y * v y) = 0) ->
     forall y, (y < cols)%nat -> v y = Sum (fst x) (fun j => snd x j y * Sum cols (fun z => snd x j z * v z))).

(** The RPA calculation turns the basis of each spin by an orthogonal matrix. *)
Definition turned (n cols : nat) (a b : mt) : Prop := exists c : mt,
  meq n n (mm n (tr c) c) idm /\ meq n n (mm n c (tr c)) idm /\ meq n cols b (mm n (tr c) a).

Lemma outside_ok rows cols (a : mt) x : meq rows rows (mm cols a (tr a)) idm -> x = outside K null rows cols a ->
  ((0 < rows * cols)%nat -> null_ok rows cols a (null rows cols a)) ->
  meq (fst x) (fst x) (mm cols (snd x) (tr (snd x))) idm /\ meq (fst x) rows (mm cols (snd x) (tr a)) zm /\
  meq cols cols (madd (mm rows (tr a) a) (mm (fst x) (tr (snd x)) (snd x))) idm.
Proof.
  intros Ho -> Hn. unfold outside. destruct (Nat.ltb_spec 0 (rows * cols)) as [L|L].
  - destruct (Hn L) as (A1 & A2 & A3). destruct (null rows cols a) as [k b]. cbn [fst snd] in *. split; [exact A1|]. split.
    + intros i j Hi Hj. transitivity (mm cols a (tr b) j i); [unfold mm, tr; apply Sum_ext; intros; ring|exact (A2 j i Hj Hi)].
    + intros y z Hy Hz.
      pose proof (A3 (fun w => delta w z - Sum rows (fun i => a i w * a i z))) as E.
      assert (E0 : forall i, (i < rows)%nat -> Sum cols (fun w => a i w * (delta w z - Sum rows (fun i => a i w * a i z))) = 0).
      { intros i Hi. rewrite (Sum_ext cols _ (fun w => a i w * delta w z - a i w * Sum rows (fun i => a i w * a i z))) by (intros; ring).
        rewrite Sum_sub, Sum_delta_r by exact Hz.
        rewrite (Sum_ext cols (fun w => a i w * Sum rows (fun i => a i w * a i z)) (fun w => Sum rows (fun i' => a i w * a i' w * a i' z))).
        2:{ intros w _. rewrite <- Sum_mul_l. apply Sum_ext. intros; ring. }
        rewrite Sum_swap. rewrite (Sum_ext rows _ (fun i' => delta i i' * a i' z)).
        2:{ intros i' Hi'. rewrite Sum_mul_r. f_equal. exact (Ho i i' Hi Hi'). }
        rewrite Sum_delta_l by exact Hi. ring. }
      specialize (E E0 y Hy). cbv beta in E. cbn [fst snd] in E. unfold madd, idm, mm at 1, tr.
      assert (E1 : Sum k (fun j => b j y * Sum cols (fun w => b j w * (delta w z - Sum rows (fun i => a i w * a i z)))) = Sum k (fun j => b j y * b j z)).
      { apply Sum_ext. intros j Hj. f_equal.
        rewrite (Sum_ext cols _ (fun w => b j w * delta w z - b j w * Sum rows (fun i => a i w * a i z))) by (intros; ring).
        rewrite Sum_sub, Sum_delta_r by exact Hz.
        rewrite (Sum_ext cols (fun w => b j w * Sum rows (fun i => a i w * a i z)) (fun w => Sum rows (fun i' => a i' w * b j w * a i' z))).
        2:{ intros w _. rewrite <- Sum_mul_l. apply Sum_ext. intros; ring. }
        rewrite Sum_swap. rewrite (Sum_0 rows). 1: ring.
        intros i' Hi'. rewrite Sum_mul_r. transitivity (0 * a i' z); [|ring]. f_equal. exact (A2 i' j Hi' Hj). }
      rewrite E1 in E. unfold mm. rewrite <- E. ring.
  - cbn [fst snd]. split; [change (meq cols cols (mm cols idm (tr idm)) (idm (K := K))); rewrite mm_idl; apply tr_idm|]. split.
    + intros i j Hi Hj. exfalso. nia.
    + intros y z Hy Hz. assert (rows = 0)%nat by nia. subst rows. unfold madd. rewrite (mm_idr cols cols (tr delta) y z Hy Hz : mm cols (tr delta) delta y z = _).
      unfold mm, tr, idm, delta. cbn [Sum]. destruct (Nat.eqb_spec y z), (Nat.eqb_spec z y); try congruence; ring.
Qed.

Lemma turned_ok rows n cols (a b b' : mt) : turned n cols b b' ->
  meq n n (mm cols b (tr b)) idm -> meq n rows (mm cols b (tr a)) zm -> meq cols cols (madd (mm rows (tr a) a) (mm n (tr b) b)) idm ->
  meq n n (mm cols b' (tr b')) idm /\ meq n rows (mm cols b' (tr a)) zm /\ meq cols cols (madd (mm rows (tr a) a) (mm n (tr b') b')) idm.
Proof.
  intros (c & C1 & C2 & C3) A1 A2 A3.
  assert (T : meq cols n (tr (mm n (tr c) b)) (mm n (tr b) c)) by (intros i j _ _; unfold mm, tr; apply Sum_ext; intros; ring).
  split; [|split].
  - rewrite C3, T. rewrite (mm_assoc n n n cols (tr c) b), <- (mm_assoc n n cols n b (tr b) c), A1, mm_idl. exact C1.
  - rewrite C3, (mm_assoc n rows n cols (tr c) b), A2. intros i j _ _. unfold mm, zm. apply Sum_0. intros; ring.
  - rewrite C3, T. rewrite (mm_assoc cols cols n n (tr b) c), <- (mm_assoc n cols n n c (tr c) b), C2, mm_idl. exact A3.
Qed.

Lemma bd_mmt na nb nc nd ca cb (a b c d : mt) :
  meq (na + nb) (nc + nd) (mm (ca + cb) (block_diag K na ca a b) (tr (block_diag K nc ca c d))) (block_diag K na nc (mm ca a (tr c)) (mm cb b (tr d))).
Proof.
  intros p q Hp Hq. unfold mm at 1, tr at 1. rewrite Sum_split. unfold block_diag.
  assert (Dp : (p < na \/ exists p', p = na + p')%nat) by (destruct (Nat.lt_ge_cases p na); [left; assumption|right; exists (p - na)%nat; lia]).
  assert (Dq : (q < nc \/ exists q', q = nc + q')%nat) by (destruct (Nat.lt_ge_cases q nc); [left; assumption|right; exists (q - nc)%nat; lia]).
  destruct Dp as [P|(p' & ->)], Dq as [Q|(q' & ->)].
  - rewrite (blk_ll K na nc _ _ _ _ p q P Q), (Sum_0 cb). 2:{ intros x _. rewrite blk_lr by assumption. ring. }
    unfold mm, tr. match goal with |- ?u + 0 = _ => transitivity u; [ring|] end. apply Sum_ext. intros x Hx. rewrite !blk_ll by assumption. reflexivity.
  - rewrite (blk_lr K na nc _ _ _ _ p q' P). rewrite !Sum_0; [ring| |].
    + intros x _. rewrite blk_lr by assumption. ring.
    + intros x Hx. rewrite (blk_rl K nc ca) by assumption. ring.
  - rewrite (blk_rl K na nc _ _ _ _ p' q Q). rewrite !Sum_0; [ring| |].
    + intros x _. rewrite (blk_lr K nc ca) by assumption. ring.
    + intros x Hx. rewrite (blk_rl K na ca) by assumption. ring.
  - rewrite (blk_rr K na nc), (Sum_0 ca). 2:{ intros x Hx. rewrite (blk_rl K na ca) by assumption. ring. }
    unfold mm, tr. match goal with |- 0 + ?u = _ => transitivity u; [ring|] end. apply Sum_ext. intros x Hx. rewrite !blk_rr. reflexivity.
Qed.
Lemma bd_tmm na nb ca cb (a b c d : mt) :
  meq (ca + cb) (ca + cb) (mm (na + nb) (tr (block_diag K na ca a b)) (block_diag K na ca c d)) (block_diag K ca ca (mm na (tr a) c) (mm nb (tr b) d)).
Proof.
  intros p q Hp Hq. unfold mm at 1, tr at 1. rewrite Sum_split. unfold block_diag.
  assert (Dp : (p < ca \/ exists p', p = ca + p')%nat) by (destruct (Nat.lt_ge_cases p ca); [left; assumption|right; exists (p - ca)%nat; lia]).
  assert (Dq : (q < ca \/ exists q', q = ca + q')%nat) by (destruct (Nat.lt_ge_cases q ca); [left; assumption|right; exists (q - ca)%nat; lia]).
  destruct Dp as [P|(p' & ->)], Dq as [Q|(q' & ->)].
  - rewrite (blk_ll K ca ca _ _ _ _ p q P Q), (Sum_0 nb). 2:{ intros x _. rewrite !blk_rl by assumption. ring. }
    unfold mm, tr. match goal with |- ?u + 0 = _ => transitivity u; [ring|] end. apply Sum_ext. intros x Hx. rewrite !blk_ll by assumption. reflexivity.
  - rewrite (blk_lr K ca ca _ _ _ _ p q' P). rewrite !Sum_0; [ring| |].
    + intros x _. rewrite blk_rl by assumption. ring.
    + intros x Hx. rewrite (blk_lr K na ca) by assumption. ring.
  - rewrite (blk_rl K ca ca _ _ _ _ p' q Q). rewrite !Sum_0; [ring| |].
    + intros x _. rewrite (blk_rl K na ca _ _ _ _ x q Q). ring.
    + intros x Hx. rewrite (blk_lr K na ca) by assumption. ring.
  - rewrite (blk_rr K ca ca), (Sum_0 na). 2:{ intros x Hx. rewrite (blk_lr K na ca) by assumption. ring. }
    unfold mm, tr. match goal with |- 0 + ?u = _ => transitivity u; [ring|] end. apply Sum_ext. intros x Hx. rewrite !blk_rr. reflexivity.
Qed.
Lemma bd_eq na nb nc nd (a b c d : mt) : meq na nc a c -> meq nb nd b d -> meq (na + nb) (nc + nd) (block_diag K na nc a b) (block_diag K na nc c d).
Proof.
  intros H1 H2 p q Hp Hq. unfold block_diag, blk.
  destruct (Nat.ltb_spec p na), (Nat.ltb_spec q nc); try reflexivity; [apply H1; assumption|apply H2; lia].
Qed.
Lemma bd_id n n' : meq (n + n') (n + n') (block_diag K n n idm idm) idm.
Proof.
  intros p q Hp Hq. unfold block_diag, blk, idm, delta.
  destruct (Nat.ltb_spec p n), (Nat.ltb_spec q n), (Nat.eqb_spec p q); try lia; try reflexivity;
    destruct (Nat.eqb_spec (p - n) (q - n)); (lia || reflexivity).
Qed.
Lemma bd_zm na nb nc nd : meq (na + nb) (nc + nd) (block_diag K na nc zm zm) zm.
Proof. intros p q Hp Hq. unfold block_diag, blk, zm. destruct (p <? na)%nat, (q <? nc)%nat; reflexivity. Qed.
Lemma bd_add na nb nc nd (a b c d : mt) : meq (na + nb) (nc + nd) (madd (block_diag K na nc a b) (block_diag K na nc c d)) (block_diag K na nc (madd a c) (madd b d)).
Proof. intros p q Hp Hq. unfold madd, block_diag, blk. destruct (p <? na)%nat, (q <? nc)%nat; ring. Qed.

(** A basis that completes the given rows meets the contract. *)
Lemma null_complete rows cols (a : mt) k (b : mt) : meq k k (mm cols b (tr b)) idm -> meq rows k (mm cols a (tr b)) zm ->
  meq cols cols (madd (mm rows (tr a) a) (mm k (tr b) b)) idm -> null_ok rows cols a (k, b).
Proof.
  intros H1 H2 H3. split; [exact H1|]. split; [exact H2|]. cbn [fst snd]. intros v Hv y Hy.
  transitivity (Sum cols (fun z => v z * delta y z)); [symmetry; exact (Sum_delta_r' cols y v Hy)|].
  transitivity (Sum cols (fun z => Sum rows (fun i => a i y * (a i z * v z)) + Sum k (fun j => b j y * (b j z * v z)))).
  - apply Sum_ext. intros z Hz. transitivity (v z * idm y z); [reflexivity|]. rewrite <- (H3 y z Hy Hz). unfold madd, mm, tr.
    match goal with |- ?x * (?s + ?u) = _ => transitivity (x * s + x * u); [ring|] end. rewrite <- !Sum_mul_l. f_equal; apply Sum_ext; intros; ring.
  - rewrite Sum_add, (Sum_swap cols rows), (Sum_swap cols k).
    rewrite (Sum_0 rows).
    + match goal with |- 0 + ?x = _ => transitivity x; [ring|] end. apply Sum_ext. intros j _. rewrite Sum_mul_l. reflexivity.
    + intros i Hi. rewrite Sum_mul_l, (Hv i Hi). ring.
Qed.

(** The excitations of the environment complete those of the cluster to an orthonormal basis. *)
Theorem C72_environment m f s r : orthonormal K m f ->
  ((0 < ova K f * nova K m)%nat -> null_ok (ova K f) (nova K m) (loc_a K m f) (null (ova K f) (nova K m) (loc_a K m f))) ->
  ((0 < ovb K f * novb K m)%nat -> null_ok (ovb K f) (novb K m) (loc_b K m f) (null (ovb K f) (novb K m) (loc_b K m f))) ->
  (forall r0, run r0 = Ret s -> rna K r = rna K r0 /\ rnb K r = rnb K r0 /\
     turned (rna K r0) (nova K m) (rma K r0) (rma K r) /\ turned (rnb K r0) (novb K m) (rmb K r0) (rmb K r)) ->
  get_crpa m f = Ret (Some (s, r)) -> environment m f r.
Proof.
  intros Ho Na Nb Hr HG. unfold M_Crpa.get_crpa in HG.
  pose proof (trot_orth K m f Ho) as HT.
  assert (HB : meq (ovs f) (ovs f) (mm (nov m) (trot m f) (tr (trot m f))) (block_diag K (ova K f) (ova K f) (mm (nova K m) (loc_a K m f) (tr (loc_a K m f))) (mm (novb K m) (loc_b K m f) (tr (loc_b K m f))))) by apply bd_mmt.
  assert (Oa : meq (ova K f) (ova K f) (mm (nova K m) (loc_a K m f) (tr (loc_a K m f))) idm).
  { intros p q Hp Hq. pose proof (HB p q ltac:(unfold M_Screen.ovs; lia) ltac:(unfold M_Screen.ovs; lia)) as E.
    rewrite (HT p q ltac:(unfold M_Screen.ovs; lia) ltac:(unfold M_Screen.ovs; lia)) in E. unfold block_diag in E. rewrite blk_ll in E by assumption. symmetry. exact E. }
  assert (Ob : meq (ovb K f) (ovb K f) (mm (novb K m) (loc_b K m f) (tr (loc_b K m f))) idm).
  { intros p q Hp Hq. pose proof (HB (ova K f + p)%nat (ova K f + q)%nat ltac:(unfold M_Screen.ovs; lia) ltac:(unfold M_Screen.ovs; lia)) as E.
    rewrite (HT (ova K f + p)%nat (ova K f + q)%nat ltac:(unfold M_Screen.ovs; lia) ltac:(unfold M_Screen.ovs; lia)) in E. unfold block_diag in E. rewrite blk_rr in E.
    rewrite <- E. unfold idm, delta. destruct (Nat.eqb_spec p q), (Nat.eqb_spec (ova K f + p) (ova K f + q)); (lia || reflexivity). }
  destruct (outside_ok _ _ _ _ Oa eq_refl Na) as (A1 & A2 & A3). destruct (outside_ok _ _ _ _ Ob eq_refl Nb) as (B1 & B2 & B3).
  destruct (outside K null (ova K f) (nova K m) (loc_a K m f)) as [na ra]. destruct (outside K null (ovb K f) (novb K m) (loc_b K m f)) as [nb rb].
  cbn [fst snd] in *. destruct ((na =? 0) && (nb =? 0))%nat; [discriminate|].
  set (r0 := {| rna := na; rma := ra; rnb := nb; rmb := rb |}) in *. pose proof (Hr r0) as Hr0.
  destruct (run r0) as [s'| | |]; cbn [rbind] in HG; try discriminate. destruct (s_rot K s') as [r'|]; [|discriminate].
  assert (Es : (s', r') = (s, r)) by exact (f_equal (fun z => match z with Ret (Some y) => y | _ => (s, r) end) HG).
  assert (s' = s) by exact (f_equal fst Es). assert (r' = r) by exact (f_equal snd Es). subst s' r'. clear Es HG.
  destruct (Hr0 eq_refl) as (R1 & R2 & Ta & Tb). cbn [rna rnb rma rmb r0] in *.
  destruct (turned_ok _ _ _ _ _ _ Ta A1 A2 A3) as (C1 & C2 & C3). destruct (turned_ok _ _ _ _ _ _ Tb B1 B2 B3) as (D1 & D2 & D3).
  split; [exact HT|]. unfold ne, env. rewrite R1, R2.
  change (trot m f) with (block_diag K (ova K f) (nova K m) (loc_a K m f) (loc_b K m f)).
  unfold M_Screen.nov, M_Screen.ovs. split; [|split].
  - rewrite bd_mmt, (bd_eq na nb na nb _ _ _ _ C1 D1). apply bd_id.
  - rewrite bd_mmt, (bd_eq na nb (ova K f) (ovb K f) _ _ _ _ C2 D2). apply bd_zm.
  - rewrite !bd_tmm, bd_add, (bd_eq (nova K m) (novb K m) (nova K m) (novb K m) _ _ _ _ C3 D3). apply bd_id.
Qed.

Lemma cancel_add (x y z : K) : x + y = x + z -> y = z.
Proof. intros H. transitivity (x + y - x); [ring|rewrite H; ring]. Qed.

(** ** Independence of the basis of the environment *)
Lemma proj_inv_unique N n n' (F F' R X X' : mt) :
  meq n n (mm N F (tr F)) idm -> meq n' n' (mm N F' (tr F')) idm -> meq N N (mm n (tr F) F) (mm n' (tr F') F') ->
  meq n n (mm n X (rotm K N F R)) idm -> meq n' n' (mm n' (rotm K N F' R) X') idm ->
  meq N N (mm n (tr F) (mm n X F)) (mm n' (tr F') (mm n' X' F')).
Proof.
  intros H1 H2 HP HX HX'. unfold rotm in *.
  set (P := mm n (tr F) F) in *. set (M := mm n (tr F) (mm n X F)). set (M' := mm n' (tr F') (mm n' X' F')).
  assert (A1 : meq N N (mm N M P) M).
  { unfold M, P. rewrite !mm_assoc. rewrite <- (mm_assoc n N N n F (tr F) F), H1, mm_idl. reflexivity. }
  assert (A2 : meq N N (mm N P M') M').
  { rewrite HP. unfold M'. rewrite !mm_assoc. rewrite <- (mm_assoc n' N N n' F' (tr F') (mm n' X' F')), H2, mm_idl. reflexivity. }
  assert (A3 : meq N N (mm N M (mm N R P)) P).
  { unfold M, P. rewrite !(mm_assoc N N n N (tr F)), (mm_assoc n N n N X F).
    rewrite <- (mm_assoc N N N n R (tr F) F), <- (mm_assoc n N N N F (mm N R (tr F)) F) || idtac.
    assert (Q : meq n N (mm n X (mm N F (mm N R (mm n (tr F) F)))) F).
    { transitivity (mm n (mm n X (mm N (mm N F R) (tr F))) F); [|rewrite HX; apply mm_idl].
      rewrite !mm_assoc. reflexivity. }
    rewrite Q. reflexivity. }
  assert (A4 : meq N N (mm N P (mm N R M')) P).
  { rewrite HP. unfold M'. rewrite !(mm_assoc N N n' N (tr F')).
    assert (Q : meq n' N (mm N F' (mm N R (mm n' (tr F') (mm n' X' F')))) F').
    { transitivity (mm n' (mm n' (mm N (mm N F' R) (tr F')) X') F'); [|rewrite HX'; apply mm_idl].
      rewrite !mm_assoc. reflexivity. }
    rewrite Q. reflexivity. }
  transitivity (mm N M (mm N R M')).
  - rewrite <- A1 at 1. rewrite <- A4. rewrite <- (mm_assoc N N N N M P), A1. reflexivity.
  - rewrite <- A2 at 1. rewrite <- (mm_assoc N N N N R P M'), <- (mm_assoc N N N N M (mm N R P) M'), A3. exact A2.
Qed.

Lemma right_inv n (D R : mt) w xpy xmy : rpa_sol n D R w xpy xmy -> (forall k, (k < n)%nat -> w k * inv (w k) = 1) ->
  meq n n (mm n R (mm n xpy (mm n (dg (fun k => inv (w k))) (tr xpy)))) idm.
Proof.
  intros HS Hw. pose proof (norm' K n D R w xpy xmy HS) as N1. destruct HS as (_ & H2 & _ & _). rewrite <- mm_assoc, H2, mm_assoc.
  rewrite <- (mm_assoc n n n n (dg w)), mm_dd, (dg_id n (fun k => w k * inv (w k)) Hw), mm_idl. exact N1.
Qed.
Lemma right_inv' n (D R : mt) w xpy xmy : rpa_sol n D R w xpy xmy -> (forall k, (k < n)%nat -> w k * inv (w k) = 1) ->
  meq n n (mm n D (mm n xmy (mm n (dg (fun k => inv (w k))) (tr xmy)))) idm.
Proof.
  intros HS Hw. destruct HS as (H1 & _ & _ & H4). rewrite <- mm_assoc, H1, mm_assoc.
  rewrite <- (mm_assoc n n n n (dg w)), mm_dd, (dg_id n (fun k => w k * inv (w k)) Hw), mm_idl. exact H4.
Qed.

(** ** Without the coupling through orbital energies *)
Lemma gam'_none m f t p q x : gam' m f false t p q x = 0.
Proof. reflexivity. Qed.
Lemma gam_none m f d t p q x : gam m f d false false t p q x = (1 + 1) * Sum (naux d) (fun n => lpq_ d t n p q * lov m d n x).
Proof. unfold gam. cbn [andb]. ring. Qed.
Lemma quad_zero n v a w : (forall x, (x < n)%nat -> v x = 0) -> quad n v a w = 0.
Proof. intros H. unfold quad. apply Sum_0. intros x Hx. apply Sum_0. intros y _. rewrite H by exact Hx. ring. Qed.

(** [l M l^t] for the three-index integrals of all excitations. *)
Definition aux (m : mfd) (d : df) (M : mt) : mt := mm (nov m) (lov m d) (mm (nov m) M (tr (lov m d))).

Lemma static m f d s r dw Xe t u p q p' q' : hlf + hlf = 1 ->
  deltaW m f d false false = Ret dw -> get_crpa m f = Ret (Some (s, r)) -> solved m d s r -> real_orbitals f d ->
  meq (ne r) (ne r) (mm (ne r) Xe (rotm K (nov m) (env m r) (ApB m d))) idm ->
  (p < co_ f t + cv_ f t)%nat -> (q < co_ f t + cv_ f t)%nat -> (p' < co_ f u + cv_ f u)%nat -> (q' < co_ f u + cv_ f u)%nat ->
  w_ dw t u p q p' q' = - ((1 + 1) * Sum (naux d) (fun n => Sum (naux d) (fun n' => lpq_ d t n p q
    * aux m d (mm (ne r) (tr (env m r)) (mm (ne r) Xe (env m r))) n n' * lpq_ d u n' p' q'))).
Proof.
  intros Hh HW HG HS HR HX Hp Hq Hp' Hq'. pose proof HS as (S1 & S2 & S3 & S4).
  pose proof (C72_formula m f d false false s r dw Xe _ t u p q p' q' Hh HW HG HS HR HX (left_inv' _ _ _ _ _ _ S3 S4) Hp Hq Hp' Hq') as F.
  rewrite (quad_zero _ (gam' m f false t p q)) in F by reflexivity. apply (two_cancel K hlf _ _ Hh). rewrite F.
  set (M := mm (ne r) (tr (env m r)) (mm (ne r) Xe (env m r))). clearbody M.
  assert (E : quad (nov m) (gam m f d false false t p q) M (gam m f d false false u p' q')
    = (1 + 1) * (1 + 1) * Sum (naux d) (fun n => Sum (naux d) (fun n' => lpq_ d t n p q * aux m d M n n' * lpq_ d u n' p' q'))).
  { unfold quad.
    rewrite (Sum_ext (nov m) _ (fun x => (1 + 1) * (1 + 1) * Sum (nov m) (fun y => Sum (naux d) (fun n => Sum (naux d) (fun n' =>
        lpq_ d t n p q * (lov m d n x * (M x y * lov m d n' y)) * lpq_ d u n' p' q'))))).
    2:{ intros x _. rewrite <- Sum_mul_l. apply Sum_ext. intros y _. rewrite !gam_none.
        match goal with |- (1 + 1) * ?a * ?b * ((1 + 1) * ?c) = _ => transitivity ((1 + 1) * (1 + 1) * (b * (a * c))); [ring|] end.
        f_equal. rewrite Sum_mul_Sum, <- Sum_mul_l. apply Sum_ext. intros n _. rewrite <- Sum_mul_l. apply Sum_ext. intros; ring. }
    rewrite Sum_mul_l. f_equal.
    transitivity (Sum (naux d) (fun n => Sum (naux d) (fun n' => Sum (nov m) (fun x => Sum (nov m) (fun y =>
        lpq_ d t n p q * (lov m d n x * (M x y * lov m d n' y)) * lpq_ d u n' p' q'))))).
    - transitivity (Sum (nov m) (fun x => Sum (naux d) (fun n => Sum (naux d) (fun n' => Sum (nov m) (fun y =>
        lpq_ d t n p q * (lov m d n x * (M x y * lov m d n' y)) * lpq_ d u n' p' q'))))).
      { apply Sum_ext. intros x _. rewrite Sum_swap. apply Sum_ext. intros n _. apply Sum_swap. }
      rewrite Sum_swap. apply Sum_ext. intros n _. apply Sum_swap.
    - apply Sum_ext. intros n _. apply Sum_ext. intros n' _. unfold aux, mm, tr. rewrite <- Sum_mul_l, <- Sum_mul_r. apply Sum_ext. intros x _.
      rewrite <- Sum_mul_l, <- Sum_mul_l, <- Sum_mul_r. reflexivity. }
  rewrite E. ring.
Qed.

(** The dielectric function of the environment in the auxiliary basis, from the inverse [Pe] of the energy differences. *)
Definition dielectric (m : mfd) (d : df) (r : rot K) (Pe : mt) : mt :=
  madd idm (msc (1 + 1) (aux m d (mm (ne r) (tr (env m r)) (mm (ne r) Pe (env m r))))).

Lemma dielectric_inv m d s r Pe : solved m d s r ->
  meq (ne r) (ne r) (mm (ne r) Pe (rotm K (nov m) (env m r) (AmB m))) idm ->
  let Xe := mm (ne r) (s_xpy K s) (mm (ne r) (dg (fun k => inv (s_f K s k))) (tr (s_xpy K s))) in
  meq (naux d) (naux d) (mm (naux d) (dielectric m d r Pe) (msub idm (msc (1 + 1) (aux m d (mm (ne r) (tr (env m r)) (mm (ne r) Xe (env m r))))))) idm.
Proof.
  intros (S1 & S2 & S3 & S4) HP Xe. pose proof (right_inv _ _ _ _ _ _ S3 S4) as HX. fold Xe in HX. clearbody Xe. clear S3 S4.
  set (F := env m r) in *. set (n := ne r) in *. set (N := nov m) in *. set (a := naux d) in *. set (l := lov m d) in *.
  assert (ER : meq n n (rotm K N F (ApB m d)) (madd (rotm K N F (AmB m)) (msc (1 + 1) (rotm K N F (coul m d))))).
  { unfold rotm, ApB. rewrite (mm_addr n N N), (mm_scr n N N), mm_addl, mm_scl. reflexivity. }
  assert (E : meq n n (madd Xe (msc (1 + 1) (mm n Pe (mm n (rotm K N F (coul m d)) Xe)))) Pe).
  { transitivity (mm n Pe (mm n (rotm K N F (ApB m d)) Xe)); [|rewrite HX; apply mm_idr].
    rewrite ER, mm_addl, mm_addr, <- (mm_assoc n n n n Pe (rotm K N F (AmB m)) Xe), HP, mm_idl, mm_scl, mm_scr. reflexivity. }
  set (P := mm n (tr F) (mm n Pe F)). set (X := mm n (tr F) (mm n Xe F)).
  assert (E2 : meq N N (madd X (msc (1 + 1) (mm N P (mm N (coul m d) X)))) P).
  { unfold P at 2. rewrite <- E at 1. unfold P, X, rotm. rewrite (mm_addl n N n), (mm_addr N N n). rewrite (mm_scl n N n), (mm_scr N N n).
    rewrite !mm_assoc. reflexivity. }
  assert (E3 : meq a a (madd (aux m d X) (msc (1 + 1) (mm a (aux m d P) (aux m d X)))) (aux m d P)).
  { unfold aux. fold l N. rewrite <- E2 at 2. rewrite (mm_addl N a N), (mm_addr a a N). rewrite (mm_scl N a N), (mm_scr a a N).
    unfold coul. fold a l. rewrite !mm_assoc. reflexivity. }
  unfold dielectric. fold F n P.
  rewrite mm_subr, mm_idr, (mm_scr a a a), mm_addl, mm_idl, (mm_scl a a a).
  intros i j Hi Hj. specialize (E3 i j Hi Hj). unfold madd, msub, msc in *.
  rewrite <- E3. ring.
Qed.

(** The screened interaction is the bare one, divided by the dielectric function of the environment. *)
Theorem C72_dielectric m f d s r dw Pe Y t u p q p' q' : hlf + hlf = 1 ->
  deltaW m f d false false = Ret dw -> get_crpa m f = Ret (Some (s, r)) -> solved m d s r -> real_orbitals f d ->
  meq (ne r) (ne r) (mm (ne r) Pe (rotm K (nov m) (env m r) (AmB m))) idm ->
  meq (naux d) (naux d) (mm (naux d) Y (dielectric m d r Pe)) idm ->
  (p < co_ f t + cv_ f t)%nat -> (q < co_ f t + cv_ f t)%nat -> (p' < co_ f u + cv_ f u)%nat -> (q' < co_ f u + cv_ f u)%nat ->
  scrd d dw t u p q p' q' = Sum (naux d) (fun n => Sum (naux d) (fun n' => lpq_ d t n p q * Y n n' * lpq_ d u n' p' q')).
Proof.
  intros Hh HW HG HS HR HP HY Hp Hq Hp' Hq'. pose proof HS as (S1 & S2 & S3 & S4).
  pose proof (inv_unique K _ _ _ _ HY (dielectric_inv m d s r Pe HS HP)) as E.
  unfold scrd. rewrite (static m f d s r dw _ t u p q p' q' Hh HW HG HS HR (left_inv _ _ _ _ _ _ S3 S4) Hp Hq Hp' Hq').
  cbv zeta in E. set (A := aux m d _) in *. clearbody A. unfold bare.
  transitivity (Sum (naux d) (fun n => Sum (naux d) (fun n' => lpq_ d t n p q * (idm n n' - (1 + 1) * A n n') * lpq_ d u n' p' q'))).
  2:{ apply Sum_ext. intros n Hn. apply Sum_ext. intros n' Hn'. rewrite (E n n' Hn Hn'). reflexivity. }
  match goal with |- ?a + - ?b = _ => transitivity (a - b); [ring|] end. rewrite <- Sum_mul_l, <- Sum_sub. apply Sum_ext. intros n Hn.
  rewrite (Sum_ext (naux d) (fun n' => lpq_ d t n p q * (idm n n' - (1 + 1) * A n n') * lpq_ d u n' p' q')
     (fun n' => lpq_ d t n p q * lpq_ d u n' p' q' * delta n n' - (1 + 1) * (lpq_ d t n p q * A n n' * lpq_ d u n' p' q'))).
  2:{ intros n' _. unfold idm. ring. }
  rewrite Sum_sub, Sum_mul_l. f_equal. symmetry. exact (Sum_delta_r' (naux d) n (fun n' => lpq_ d t n p q * lpq_ d u n' p' q') Hn).
Qed.

(** ** Options, limits and symmetries *)

(** [only_ov_screened] changes nothing but to drop every correction with a pair of two occupied or two virtual orbitals. *)
Theorem C72_only_ov m f d pc dw dw' t u p q p' q' : deltaW m f d pc true = Ret dw -> deltaW m f d pc false = Ret dw' ->
  w_ dw t u p q p' q' = if mixed f t p q && mixed f u p' q' then w_ dw' t u p q p' q' else 0.
Proof.
  intros H H'. destruct (get_crpa m f) as [[[s r]|]| | |] eqn:G.
  - rewrite (deltaW_at m f d pc true s r dw t u p q p' q' H G), (deltaW_at m f d pc false s r dw' t u p q p' q' H' G).
    assert (E : forall v k a b, l_ (set_up K hlf m f d pc true s r) v k a b = if mixed f v a b then l_ (set_up K hlf m f d pc false s r) v k a b else 0).
    { intros v k a b. rewrite !set_up_at. cbn [andb]. destruct (mixed f v a b); reflexivity. }
    unfold dblock. destruct (mixed f t p q && mixed f u p' q') eqn:M.
    + apply andb_prop in M. destruct M as [M1 M2]. f_equal; apply Sum_ext; intros k _; rewrite !E, ?(mixed_sym f t p q), ?(mixed_sym f u p' q'), M1, M2; reflexivity.
    + rewrite !Sum_0; [ring| |]; intros k _; rewrite !E, ?(mixed_sym f t p q), ?(mixed_sym f u p' q');
        destruct (mixed f t p q), (mixed f u p' q'); try discriminate; ring.
  - unfold M_Crpa.deltaW in H, H'. rewrite G in H, H'. cbn [rbind] in H, H'.
    rewrite <- (f_equal (fun z => match z with Ret y => y | _ => dw end) H), <- (f_equal (fun z => match z with Ret y => y | _ => dw' end) H').
    destruct t, u; cbn [w_]; destruct (_ && _); reflexivity.
  - unfold M_Crpa.deltaW in H. rewrite G in H. discriminate.
  - unfold M_Crpa.deltaW in H. rewrite G in H. discriminate.
  - unfold M_Crpa.deltaW in H. rewrite G in H. discriminate.
Qed.

(** The correction is symmetric in the two particles, and if both pairs are transposed. *)
Theorem C72_particles m f d pc ov dw t u p q p' q' : deltaW m f d pc ov = Ret dw ->
  w_ dw u t p' q' p q = w_ dw t u p q p' q' /\ w_ dw t u q p q' p' = w_ dw t u p q p' q'.
Proof.
  intros H. destruct (get_crpa m f) as [[[s r]|]| | |] eqn:G.
  - rewrite !(deltaW_at m f d pc ov s r dw) with (1 := H) (2 := G). unfold dblock. split.
    + f_equal; apply Sum_ext; intros; ring.
    + match goal with |- ?a + ?b = ?b + ?a => ring end.
  - unfold M_Crpa.deltaW in H. rewrite G in H. cbn [rbind] in H. rewrite <- (f_equal (fun z => match z with Ret y => y | _ => dw end) H).
    destruct t, u; split; reflexivity.
  - unfold M_Crpa.deltaW in H. rewrite G in H. discriminate.
  - unfold M_Crpa.deltaW in H. rewrite G in H. discriminate.
  - unfold M_Crpa.deltaW in H. rewrite G in H. discriminate.
Qed.

(** Without the coupling through orbital energies it has all symmetries of real integrals. *)
Theorem C72_permutations m f d ov dw t u p q p' q' : real_orbitals f d -> deltaW m f d false ov = Ret dw ->
  (p < co_ f t + cv_ f t)%nat -> (q < co_ f t + cv_ f t)%nat -> (p' < co_ f u + cv_ f u)%nat -> (q' < co_ f u + cv_ f u)%nat ->
  w_ dw t u q p p' q' = w_ dw t u p q p' q' /\ w_ dw t u p q q' p' = w_ dw t u p q p' q' /\ w_ dw u t p' q' p q = w_ dw t u p q p' q'.
Proof.
  intros HR H Hp Hq Hp' Hq'. split; [|split]; [| |exact (proj1 (C72_particles m f d false ov dw t u p q p' q' H))].
  all: destruct (get_crpa m f) as [[[s r]|]| | |] eqn:G;
    [|unfold M_Crpa.deltaW in H; rewrite G in H; cbn [rbind] in H; rewrite <- (f_equal (fun z => match z with Ret y => y | _ => dw end) H);
      destruct t, u; reflexivity|unfold M_Crpa.deltaW in H; rewrite G in H; discriminate..].
  all: rewrite !(deltaW_at m f d false ov s r dw) with (1 := H) (2 := G).
  all: assert (E : forall v k a b, (a < co_ f v + cv_ f v)%nat -> (b < co_ f v + cv_ f v)%nat ->
         l_ (set_up K hlf m f d false ov s r) v k b a = l_ (set_up K hlf m f d false ov s r) v k a b) by
    (intros v k a b Ha Hb; rewrite !set_up_at, (mixed_sym f v a b); cbn [andb]; destruct (ov && negb (mixed f v a b)); [reflexivity|];
     f_equal; unfold couple; apply Sum_ext; intros n _; rewrite (HR v n b a Hb Ha); reflexivity).
  - unfold dblock. f_equal; apply Sum_ext; intros k _; rewrite (E t k p q Hp Hq); [|rewrite (E u k p' q' Hp' Hq')]; reflexivity.
  - unfold dblock. f_equal; apply Sum_ext; intros k _; rewrite (E u k p' q' Hp' Hq'); [|rewrite (E t k p q Hp Hq)]; reflexivity.
Qed.

(** In a restricted calculation the correction does not depend on the spins, without that coupling, and the average over
    spins changes nothing. *)
Theorem C72_spin m f d ov dw t u p q p' q' : hlf + hlf = 1 -> (forall n a b, lpqb K d n a b = lpqa K d n a b) -> cob K f = coa K f ->
  deltaW m f d false ov = Ret dw ->
  w_ dw t u p q p' q' = w_ dw false false p q p' q' /\ spin_integrate K hlf dw p q p' q' = w_ dw t u p q p' q'.
Proof.
  intros Hh HL Hc H.
  assert (E : forall t u p q p' q', w_ dw t u p q p' q' = w_ dw false false p q p' q').
  { clear t u p q p' q'. intros t u p q p' q'. destruct (get_crpa m f) as [[[s r]|]| | |] eqn:G.
    - rewrite !(deltaW_at m f d false ov s r dw) with (1 := H) (2 := G).
      assert (E : forall v k a b, l_ (set_up K hlf m f d false ov s r) v k a b = l_ (set_up K hlf m f d false ov s r) false k a b).
      { intros v k a b. rewrite !set_up_at. unfold mixed. destruct v; [|reflexivity]. cbn [P_Screen.co_ andb]. rewrite Hc.
        destruct (ov && _); [reflexivity|]. f_equal. unfold couple. apply Sum_ext. intros n _. cbn [lpq_]. rewrite HL. reflexivity. }
      unfold dblock. f_equal; apply Sum_ext; intros k _; rewrite (E t), (E u); reflexivity.
    - unfold M_Crpa.deltaW in H. rewrite G in H. cbn [rbind] in H. rewrite <- (f_equal (fun z => match z with Ret y => y | _ => dw end) H).
      destruct t, u; reflexivity.
    - unfold M_Crpa.deltaW in H. rewrite G in H. discriminate.
    - unfold M_Crpa.deltaW in H. rewrite G in H. discriminate.
    - unfold M_Crpa.deltaW in H. rewrite G in H. discriminate. }
  split; [apply E|]. rewrite (E t u). pose proof (E false true p q p' q') as E1. pose proof (E true true p q p' q') as E2. pose proof (E true false p q p' q') as E3.
  destruct dw as [[aa ab] bb]. cbn [w_ spin_integrate] in *. rewrite E1, E2, E3.
  match goal with |- (?x + ?x + ?x + ?x) * _ = _ => transitivity (x * (hlf + hlf) * (hlf + hlf)); [ring|rewrite Hh; ring] end.
Qed.

(** A cluster with all excitations of the system is not screened. *)
Lemma spanned_none rows cols (a : mt) : (1 : K) <> 0 -> meq rows rows (mm cols a (tr a)) idm -> meq cols cols (mm rows (tr a) a) idm ->
  ((0 < rows * cols)%nat -> null_ok rows cols a (null rows cols a)) -> fst (outside K null rows cols a) = 0%nat.
Proof.
  intros H1 Ho Hs Hn. destruct (outside_ok rows cols a _ Ho eq_refl Hn) as (A1 & A2 & A3).
  set (x := outside K null rows cols a) in *. destruct (Nat.eq_dec (fst x) 0) as [E|E]; [exact E|exfalso].
  assert (Z : meq cols cols (mm (fst x) (tr (snd x)) (snd x)) zm).
  { intros i j Hi Hj. specialize (A3 i j Hi Hj). specialize (Hs i j Hi Hj). unfold madd in A3. rewrite Hs in A3. unfold zm.
    match type of A3 with ?u + ?v = ?u => transitivity (u + v - u); [ring|rewrite A3; ring] end. }
  assert (Q : meq (K := K) (fst x) (fst x) idm zm).
  { rewrite <- A1. rewrite <- (mm_idl (fst x) cols (snd x)) at 1. rewrite <- A1. rewrite (mm_assoc (fst x) cols cols (fst x)), Z.
    intros i j _ _. unfold mm, zm. apply Sum_0. intros y _. rewrite Sum_0; [ring|]. intros; ring. }
  apply H1. specialize (Q 0%nat 0%nat ltac:(lia) ltac:(lia)). exact Q.
Qed.
Theorem C72_complete m f d pc ov : (1 : K) <> 0 -> orthonormal K m f -> spans K m f ->
  ((0 < ova K f * nova K m)%nat -> null_ok (ova K f) (nova K m) (loc_a K m f) (null (ova K f) (nova K m) (loc_a K m f))) ->
  ((0 < ovb K f * novb K m)%nat -> null_ok (ovb K f) (novb K m) (loc_b K m f) (null (ovb K f) (novb K m) (loc_b K m f))) ->
  exists dw, deltaW m f d pc ov = Ret dw /\ forall t u p q p' q', w_ dw t u p q p' q' = 0.
Proof.
  intros H1 Ho Hs Na Nb. pose proof (trot_orth K m f Ho) as HT. pose proof (trot_span K m f Hs) as HU.
  assert (HB : meq (ovs f) (ovs f) (mm (nov m) (trot m f) (tr (trot m f))) (block_diag K (ova K f) (ova K f) (mm (nova K m) (loc_a K m f) (tr (loc_a K m f))) (mm (novb K m) (loc_b K m f) (tr (loc_b K m f))))) by apply bd_mmt.
  assert (HC : meq (nov m) (nov m) (mm (ovs f) (tr (trot m f)) (trot m f)) (block_diag K (nova K m) (nova K m) (mm (ova K f) (tr (loc_a K m f)) (loc_a K m f)) (mm (ovb K f) (tr (loc_b K m f)) (loc_b K m f)))) by apply bd_tmm.
  assert (P : forall n n' (a b c : mt), meq (n + n') (n + n') a idm -> meq (n + n') (n + n') a (block_diag K n n b c) -> meq n n b idm /\ meq n' n' c idm).
  { intros n n' a b c Q1 Q2. rewrite Q1 in Q2. split; intros i j Hi Hj.
    - specialize (Q2 i j ltac:(lia) ltac:(lia)). unfold block_diag in Q2. rewrite blk_ll in Q2 by assumption. symmetry. exact Q2.
    - specialize (Q2 (n + i)%nat (n + j)%nat ltac:(lia) ltac:(lia)). unfold block_diag in Q2. rewrite blk_rr in Q2. rewrite <- Q2.
      unfold idm, delta. destruct (Nat.eqb_spec i j), (Nat.eqb_spec (n + i) (n + j)); (lia || reflexivity). }
  destruct (P _ _ _ _ _ HT HB) as [Oa Ob]. destruct (P _ _ _ _ _ HU HC) as [Sa Sb].
  pose proof (spanned_none _ _ _ H1 Oa Sa Na) as Za. pose proof (spanned_none _ _ _ H1 Ob Sb Nb) as Zb.
  unfold M_Crpa.deltaW, M_Crpa.get_crpa.
  destruct (outside K null (ova K f) (nova K m) (loc_a K m f)) as [na ra]. destruct (outside K null (ovb K f) (novb K m) (loc_b K m f)) as [nb rb].
  cbn [fst] in Za, Zb. subst na nb. cbn [Nat.eqb andb rbind]. eexists. split; [reflexivity|]. intros [] []; reflexivity.
Qed.

(** The poles and couplings of the frequency-dependent interaction give the static correction at frequency zero. *)
Theorem C72_dynamic m f d pc ov n w la lb dw : frag_W K hlf null run m f d pc ov = Ret (n, w, (la, lb)) -> deltaW m f d pc ov = Ret dw ->
  forall t u p q p' q', w_ dw t u p q p' q' = - Sum n (fun k => inv (w k) * (l_ (la, lb) t k p q * l_ (la, lb) u k p' q' + l_ (la, lb) t k q p * l_ (la, lb) u k q' p')).
Proof.
  intros HF HW t u p q p' q'. unfold frag_W in HF. destruct (get_crpa m f) as [[[s r]|]| | |] eqn:G; cbn [rbind] in HF; try discriminate.
  - assert (E : (s_n K s, s_f K s, set_up K hlf m f d pc ov s r) = (n, w, (la, lb))) by exact (f_equal (fun z => match z with Ret y => y | _ => (n, w, (la, lb)) end) HF).
    rewrite (deltaW_at m f d pc ov s r dw t u p q p' q' HW G).
    pose proof (f_equal (fun z => fst (fst z)) E) as E1. pose proof (f_equal (fun z => snd (fst z)) E) as E2. pose proof (f_equal snd E) as E3.
    cbn [fst snd] in E1, E2, E3. rewrite <- E1, <- E2, <- E3. unfold dblock. rewrite <- Sum_add, <- Sum_opp. apply Sum_ext. intros; ring.
  - assert (E : (0%nat, (fun _ => 0) : vec, ((fun _ _ _ => 0) : t3, (fun _ _ _ => 0) : t3)) = (n, w, (la, lb))) by exact (f_equal (fun z => match z with Ret y => y | _ => (n, w, (la, lb)) end) HF).
    unfold M_Crpa.deltaW in HW. rewrite G in HW. cbn [rbind] in HW. rewrite <- (f_equal (fun z => match z with Ret y => y | _ => dw end) HW).
    pose proof (f_equal (fun z => fst (fst z)) E) as E1. cbn [fst] in E1. rewrite <- E1. cbn [Sum]. destruct t, u; cbn [w_]; ring.
Qed.

(** ** The screened interaction lies between nothing and the bare one *)

(** Sum over the spins and all pairs of orbitals of the cluster; the energy of a density [c] with an interaction. *)
Definition G (f : frag) (F : bool -> mt) : K :=
  Sum (co_ f false + cv_ f false) (fun p => Sum (co_ f false + cv_ f false) (F false p))
  + Sum (co_ f true + cv_ f true) (fun p => Sum (co_ f true + cv_ f true) (F true p)).
Definition energy (f : frag) (c : bool -> mt) (w : bool -> bool -> ten) : K :=
  G f (fun t p q => G f (fun u r s => c t p q * w t u p q r s * c u r s)).

Lemma G_ext f F F' : (forall t p q, (p < co_ f t + cv_ f t)%nat -> (q < co_ f t + cv_ f t)%nat -> F t p q = F' t p q) -> G f F = G f F'.
Proof. intros H. unfold G. f_equal; apply Sum_ext; intros p Hp; apply Sum_ext; intros q Hq; apply H; assumption. Qed.
Lemma G_Sum f n (F : nat -> bool -> mt) : G f (fun t p q => Sum n (fun k => F k t p q)) = Sum n (fun k => G f (F k)).
Proof.
  assert (E : forall a, Sum a (fun p => Sum a (fun q => Sum n (fun k => F k false p q))) = Sum n (fun k => Sum a (fun p => Sum a (F k false p)))).
  { intros a. symmetry. rewrite Sum_swap. apply Sum_ext. intros p _. apply Sum_swap. }
  assert (E' : forall a, Sum a (fun p => Sum a (fun q => Sum n (fun k => F k true p q))) = Sum n (fun k => Sum a (fun p => Sum a (F k true p)))).
  { intros a. symmetry. rewrite Sum_swap. apply Sum_ext. intros p _. apply Sum_swap. }
  unfold G. rewrite Sum_add, E, E'. reflexivity.
Qed.
Lemma G_mul f x F : G f (fun t p q => x * F t p q) = x * G f F.
Proof.
  unfold G. transitivity (x * Sum (co_ f false + cv_ f false) (fun p => Sum (co_ f false + cv_ f false) (F false p))
  + x * Sum (co_ f true + cv_ f true) (fun p => Sum (co_ f true + cv_ f true) (F true p))); [|ring].
  f_equal; rewrite <- Sum_mul_l; apply Sum_ext; intros p _; rewrite <- Sum_mul_l; reflexivity.
Qed.
Lemma G_add f F F' : G f (fun t p q => F t p q + F' t p q) = G f F + G f F'.
Proof.
  assert (E : forall t a, Sum a (fun p => Sum a (fun q => F t p q + F' t p q)) = Sum a (fun p => Sum a (F t p)) + Sum a (fun p => Sum a (F' t p))).
  { intros t a. rewrite <- Sum_add. apply Sum_ext. intros p _. apply Sum_add. }
  unfold G. rewrite !E. ring.
Qed.

Definition zc (f : frag) (c : bool -> mt) (a : bool -> mt) : K := G f (fun t p q => c t p q * a t p q).
Lemma energy_one f c (a b : bool -> mt) : energy f c (fun t u p q r s => a t p q * b u r s) = zc f c a * zc f c b.
Proof.
  unfold energy, zc. transitivity (G f (fun t p q => G f (fun t p q => c t p q * b t p q) * (c t p q * a t p q))).
  - apply G_ext. intros t p q _ _.
    transitivity (G f (fun u r s => c t p q * a t p q * (c u r s * b u r s))); [apply G_ext; intros; ring|]. rewrite !G_mul. ring.
  - rewrite G_mul. ring.
Qed.
Lemma energy_ext f c w w' : (forall t u p q p' q', (p < co_ f t + cv_ f t)%nat -> (q < co_ f t + cv_ f t)%nat ->
  (p' < co_ f u + cv_ f u)%nat -> (q' < co_ f u + cv_ f u)%nat -> w t u p q p' q' = w' t u p q p' q') -> energy f c w = energy f c w'.
Proof. intros H. unfold energy. apply G_ext. intros t p q Hp Hq. apply G_ext. intros u r s Hr Hs. rewrite (H t u p q r s) by assumption. reflexivity. Qed.
Lemma energy_Sum f c n (w : nat -> bool -> bool -> ten) : energy f c (fun t u p q r s => Sum n (fun k => w k t u p q r s)) = Sum n (fun k => energy f c (w k)).
Proof.
  unfold energy. rewrite <- G_Sum. apply G_ext. intros t p q _ _. rewrite <- G_Sum. apply G_ext. intros u r s _ _.
  rewrite <- Sum_mul_l, <- Sum_mul_r. reflexivity.
Qed.
Lemma energy_mul f c x w : energy f c (fun t u p q r s => x * w t u p q r s) = x * energy f c w.
Proof.
  unfold energy. rewrite <- G_mul. apply G_ext. intros t p q _ _. rewrite <- G_mul. apply G_ext. intros; ring.
Qed.
Lemma energy_add f c w w' : energy f c (fun t u p q r s => w t u p q r s + w' t u p q r s) = energy f c w + energy f c w'.
Proof.
  unfold energy. rewrite <- G_add. apply G_ext. intros t p q _ _. rewrite <- G_add. apply G_ext. intros; ring.
Qed.

Lemma inv_pos x : le 0 x -> x * inv x = 1 -> le 0 (inv x).
Proof. intros H E. replace (inv x) with (x * (inv x * inv x)); [apply le_0_mul; [exact H|apply le_0_sqr]|]. transitivity (x * inv x * inv x); [ring|rewrite E; ring]. Qed.

(** No density repels itself more strongly than without screening, whatever the options. *)
Theorem C72_attractive m f d pc ov dw c : (forall s r, get_crpa m f = Ret (Some (s, r)) -> forall k, (k < s_n K s)%nat -> le 0 (s_f K s k) /\ s_f K s k * inv (s_f K s k) = 1) ->
  deltaW m f d pc ov = Ret dw -> le (energy f c (scrd d dw)) (energy f c (bare d)).
Proof.
  intros HG HW.
  assert (E : le 0 (- energy f c (w_ dw))).
  { destruct (get_crpa m f) as [[[s r]|]| | |] eqn:G0.
    - pose proof (HG s r eq_refl) as Hw. set (L := set_up K hlf m f d pc ov s r).
      rewrite (energy_ext f c (w_ dw) (fun t u p q p' q' => - (1) * Sum (s_n K s) (fun k => inv (s_f K s k) * (l_ L t k p q * l_ L u k p' q' + l_ L t k q p * l_ L u k q' p')))).
      2:{ intros t u p q p' q' _ _ _ _. rewrite (deltaW_at m f d pc ov s r dw t u p q p' q' HW G0). unfold dblock. fold L.
          transitivity (- Sum (s_n K s) (fun k => inv (s_f K s k) * (l_ L t k p q * l_ L u k p' q' + l_ L t k q p * l_ L u k q' p'))); [|ring].
          rewrite <- Sum_add, <- Sum_opp. apply Sum_ext. intros; ring. }
      rewrite energy_mul, energy_Sum.
      match goal with |- le 0 (- (- (1) * ?x)) => replace (- (- (1) * x)) with x by ring end.
      apply le_0_Sum. intros k Hk. destruct (Hw k Hk) as [H1 H2]. rewrite energy_mul, energy_add.
      apply le_0_mul; [apply inv_pos; assumption|]. apply le_0_add.
      + rewrite (energy_one f c (fun t p q => l_ L t k p q) (fun t p q => l_ L t k p q)). apply le_0_sqr.
      + rewrite (energy_one f c (fun t p q => l_ L t k q p) (fun t p q => l_ L t k q p)). apply le_0_sqr.
    - unfold M_Crpa.deltaW in HW. rewrite G0 in HW. cbn [rbind] in HW. rewrite <- (f_equal (fun z => match z with Ret y => y | _ => dw end) HW).
      rewrite (energy_ext f c _ (fun t u p q p' q' => 0 * 0)) by (intros [] []; intros; cbn [w_]; ring). rewrite (energy_mul f c 0 (fun _ _ _ _ _ _ => 0)).
      match goal with |- le 0 (- (0 * ?x)) => replace (- (0 * x)) with (r0 : K) by ring end. apply le_refl.
    - unfold M_Crpa.deltaW in HW. rewrite G0 in HW. discriminate.
    - unfold M_Crpa.deltaW in HW. rewrite G0 in HW. discriminate.
    - unfold M_Crpa.deltaW in HW. rewrite G0 in HW. discriminate. }
  unfold scrd. rewrite energy_add. pose proof (le_add _ _ (energy f c (bare d) + energy f c (w_ dw)) E) as Q.
  match type of Q with le ?a ?b => replace a with (energy f c (bare d) + energy f c (w_ dw)) in Q by ring; replace b with (energy f c (bare d)) in Q by ring end.
  exact Q.
Qed.

Lemma psd_left_inv n (a b : mt) : psd K n b -> meq n n (tr b) b -> meq n n (mm n a b) idm -> psd K n a.
Proof.
  intros Pb Sb Hab.
  assert (E : meq n n (mm n b (tr a)) idm).
  { rewrite <- Sb. intros i j Hi Hj. transitivity (mm n a b j i); [unfold mm, tr; apply Sum_ext; intros; ring|]. rewrite (Hab j i Hj Hi).
    unfold idm, delta. rewrite Nat.eqb_sym. reflexivity. }
  apply (psd_ext K n (mm n (tr (tr a)) (mm n b (tr a)))).
  - rewrite E. rewrite mm_idr. intros i j _ _. reflexivity.
  - apply psd_congr. exact Pb.
Qed.
Lemma psd_one n : psd K n idm.
Proof.
  intros y. rewrite (Sum_ext n _ (fun i => y i * y i)).
  - apply le_0_Sum. intros. apply le_0_sqr.
  - intros i Hi. unfold idm. rewrite (Sum_ext n _ (fun j => y i * y j * delta i j)) by (intros; ring).
    exact (Sum_delta_r' n i (fun j => y i * y j) Hi).
Qed.
Lemma psd_plus n a b : psd K n a -> psd K n b -> psd K n (madd a b).
Proof.
  intros A B y. rewrite (Sum_ext n _ (fun i => Sum n (fun j => y i * a i j * y j) + Sum n (fun j => y i * b i j * y j))).
  - rewrite Sum_add. apply le_0_add; [apply A|apply B].
  - intros i _. rewrite <- Sum_add. apply Sum_ext. intros. unfold madd. ring.
Qed.
Lemma psd_trans n a : psd K n a -> psd K n (tr a).
Proof.
  intros A y. specialize (A y). rewrite Sum_swap. erewrite Sum_ext; [exact A|]. intros i _. apply Sum_ext. intros j _. unfold tr. cbn beta. ring.
Qed.

(** Without the coupling through orbital energies the screened interaction stays repulsive. *)
Theorem C72_repulsive m f d s r dw c : hlf + hlf = 1 -> (forall x, (x < nov m)%nat -> le 0 (gaps m x)) ->
  deltaW m f d false false = Ret dw -> get_crpa m f = Ret (Some (s, r)) -> solved m d s r -> real_orbitals f d ->
  le 0 (energy f c (scrd d dw)).
Proof.
  intros Hh Hg HW HG HS HR. pose proof HS as (S1 & S2 & S3 & S4). pose proof (left_inv' _ _ _ _ _ _ S3 S4) as HP.
  set (Pe := mm (ne r) (s_xmy K s) (mm (ne r) (dg (fun k => inv (s_f K s k))) (tr (s_xmy K s)))) in *.
  pose proof (dielectric_inv m d s r Pe HS HP) as HD. cbv zeta in HD.
  set (Xe := mm (ne r) (s_xpy K s) (mm (ne r) (dg (fun k => inv (s_f K s k))) (tr (s_xpy K s)))) in *.
  set (Y := msub idm (msc (1 + 1) (aux m d (mm (ne r) (tr (env m r)) (mm (ne r) Xe (env m r)))))) in *.
  assert (PP : psd K (ne r) Pe).
  { apply (psd_left_inv _ _ _) with (3 := HP).
    - unfold rotm, AmB. apply (psd_ext K _ (mm (nov m) (env m r) (mm (nov m) (dg (gaps m)) (tr (env m r))))).
      + rewrite mm_assoc. reflexivity.
      + apply psd_gram. exact Hg.
    - intros i j Hi Hj. unfold tr. unfold rotm, AmB. rewrite (mm_assoc (ne r) (ne r) (nov m) (nov m)) by assumption.
      rewrite (mm_assoc (ne r) (ne r) (nov m) (nov m) _ _ _ i j) by assumption. unfold mm at 1 3. apply Sum_ext. intros x Hx.
      pose proof (mm_dgl (nov m) (ne r) (gaps m) (tr (env m r))) as Q. rewrite (Q x i Hx Hi), (Q x j Hx Hj). unfold tr. ring. }
  assert (PD : psd K (naux d) (dielectric m d r Pe)).
  { unfold dielectric. apply psd_plus; [apply psd_one|].
    assert (PA : psd K (naux d) (aux m d (mm (ne r) (tr (env m r)) (mm (ne r) Pe (env m r))))).
    { unfold aux. apply (psd_ext K _ (mm (nov m) (tr (tr (lov m d))) (mm (nov m) (mm (ne r) (tr (env m r)) (mm (ne r) Pe (env m r))) (tr (lov m d))))).
      - intros i j _ _. reflexivity.
      - apply psd_congr. apply psd_congr. exact PP. }
    intros y. specialize (PA y). pose proof (le_0_add K _ _ PA PA) as Q. rewrite <- Sum_add in Q. erewrite Sum_ext; [exact Q|].
    intros i _. cbn beta. rewrite <- Sum_add. apply Sum_ext. intros. unfold msc. ring. }
  assert (PY : psd K (naux d) Y).
  { apply (psd_ext K _ (mm (naux d) (tr Y) (mm (naux d) (tr (dielectric m d r Pe)) Y))).
    - rewrite <- mm_assoc. assert (Q : meq (naux d) (naux d) (mm (naux d) (tr Y) (tr (dielectric m d r Pe))) idm).
      { intros i j Hi Hj. transitivity (mm (naux d) (dielectric m d r Pe) Y j i); [unfold mm, tr; apply Sum_ext; intros; ring|]. rewrite (HD j i Hj Hi).
        unfold idm, delta. rewrite Nat.eqb_sym. reflexivity. }
      rewrite Q. apply mm_idl.
    - apply psd_congr, psd_trans, PD. }
  rewrite (energy_ext f c _ (fun t u p q p' q' => Sum (naux d) (fun n => Sum (naux d) (fun n' => Y n n' * (lpq_ d t n p q * lpq_ d u n' p' q'))))).
  - rewrite energy_Sum. specialize (PY (fun n => zc f c (fun t p q => lpq_ d t n p q))). erewrite Sum_ext; [exact PY|].
    intros n _. cbn beta. rewrite energy_Sum. apply Sum_ext. intros n' _. rewrite energy_mul.
    rewrite (energy_one f c (fun t p q => lpq_ d t n p q) (fun t p q => lpq_ d t n' p q)). ring.
  - intros t u p q p' q' Hp Hq Hp' Hq'. unfold scrd.
    rewrite (static m f d s r dw _ t u p q p' q' Hh HW HG HS HR (left_inv _ _ _ _ _ _ S3 S4) Hp Hq Hp' Hq'). fold Xe. unfold Y.
    set (A := aux m d _). clearbody A. unfold bare.
    match goal with |- ?a + - ?b = _ => transitivity (a - b); [ring|] end. rewrite <- Sum_mul_l, <- Sum_sub. apply Sum_ext. intros n Hn.
    rewrite (Sum_ext (naux d) (fun n' => msub idm (msc (1 + 1) A) n n' * _)
       (fun n' => lpq_ d t n p q * lpq_ d u n' p' q' * delta n n' - (1 + 1) * (lpq_ d t n p q * A n n' * lpq_ d u n' p' q'))).
    2:{ intros n' _. unfold msub, msc, idm. ring. }
    rewrite Sum_sub, Sum_mul_l. f_equal. symmetry. exact (Sum_delta_r' (naux d) n (fun n' => lpq_ d t n p q * lpq_ d u n' p' q') Hn).
Qed.

(** ** The text given by the user *)

(** The interaction of the cluster is the bare one plus the correction with the options named in the text. *)
Theorem C72_sum m f d sc b b' : add_crpa_u K inv hlf null run m f d sc b = Ret b' ->
  exists dw, deltaW m f d (contains "pcoupled" sc) (contains "ov" sc) = Ret dw /\
  forall t u p q p' q', w_ b' t u p q p' q' = w_ b t u p q p' q' + w_ dw t u p q p' q'.
Proof.
  unfold add_crpa_u. destruct (String.prefix "crpa" sc); [|discriminate].
  destruct (deltaW m f d (contains "pcoupled" sc) (contains "ov" sc)) as [dw| | |]; cbn [rbind]; try discriminate.
  destruct (contains "full" sc); [discriminate|]. destruct b as [[baa bab] bbb]. destruct dw as [[daa dab] dbb]. intros H.
  eexists. split; [reflexivity|]. intros t u p q p' q'.
  rewrite <- (f_equal (fun z => match z with Ret y => y | _ => b' end) H). destruct t, u; reflexivity.
Qed.
Theorem C72_sum_restricted m f d sc b b' : add_crpa_r K inv hlf null run m f d sc b = Ret b' ->
  exists dw, deltaW m f d (contains "pcoupled" sc) (contains "ov" sc) = Ret dw /\
  forall p q p' q', b' p q p' q' = b p q p' q'
     + (w_ dw false false p q p' q' + w_ dw false true p q p' q' + w_ dw true false p q p' q' + w_ dw true true p q p' q') * (hlf * hlf).
Proof.
  unfold add_crpa_r. destruct (String.prefix "crpa" sc); [|discriminate].
  destruct (deltaW m f d (contains "pcoupled" sc) (contains "ov" sc)) as [dw| | |]; cbn [rbind]; try discriminate.
  destruct (contains "full" sc); [discriminate|]. intros H. eexists. split; [reflexivity|]. intros p q p' q'.
  rewrite <- (f_equal (fun z => match z with Ret y => y | _ => b' end) H). destruct dw as [[daa dab] dbb]. cbn [spin_integrate w_]. ring.
Qed.

(** The documented word "pcoupling" is not the one that is looked for: it changes nothing. *)
Theorem C72_documented_option_refuted m f d b bu :
  add_crpa_r K inv hlf null run m f d "crpa_pcoupling" b = add_crpa_r K inv hlf null run m f d "crpa" b /\
  add_crpa_u K inv hlf null run m f d "crpa_pcoupling" bu = add_crpa_u K inv hlf null run m f d "crpa" bu.
Proof. split; reflexivity. Qed.
End T.

(** The correction does not depend on the basis chosen for the environment nor on that of degenerate excitations. *)
Theorem C72_basis (K : oring) inv hlf null run null' run' m f d pc ov s r s' r' dw dw' t u p q p' q' : radd hlf hlf = (r1 : K) ->
  deltaW K inv hlf null run m f d pc ov = Ret dw -> get_crpa K null run m f = Ret (Some (s, r)) -> solved K inv m d s r -> environment K m f r ->
  deltaW K inv hlf null' run' m f d pc ov = Ret dw' -> get_crpa K null' run' m f = Ret (Some (s', r')) -> solved K inv m d s' r' -> environment K m f r' ->
  real_orbitals K f d ->
  (p < co_ K f t + cv_ K f t)%nat -> (q < co_ K f t + cv_ K f t)%nat -> (p' < co_ K f u + cv_ K f u)%nat -> (q' < co_ K f u + cv_ K f u)%nat ->
  w_ K dw t u p q p' q' = w_ K dw' t u p q p' q'.
Proof.
  intros Hh HW HG HS (_ & E2 & _ & E4) HW' HG' HS' (_ & E2' & _ & E4') HR Hp Hq Hp' Hq'.
  pose proof HS as (_ & _ & S3 & S4). pose proof HS' as (_ & _ & S3' & S4').
  pose proof (C72_formula K inv hlf null run m f d pc ov s r dw _ _ t u p q p' q' Hh HW HG HS HR (left_inv K inv _ _ _ _ _ _ S3 S4) (left_inv' K inv _ _ _ _ _ _ S3 S4) Hp Hq Hp' Hq') as F.
  pose proof (C72_formula K inv hlf null' run' m f d pc ov s' r' dw' _ _ t u p q p' q' Hh HW' HG' HS' HR (left_inv K inv _ _ _ _ _ _ S3' S4') (left_inv' K inv _ _ _ _ _ _ S3' S4') Hp Hq Hp' Hq') as F'.
  assert (EP : meq (nov K m) (nov K m) (mm (ne K r) (tr (env K m r)) (env K m r)) (mm (ne K r') (tr (env K m r')) (env K m r'))).
  { rewrite <- E4' in E4. intros i j Hi Hj. specialize (E4 i j Hi Hj). unfold madd in E4.
    exact (cancel_add K _ _ _ E4). }
  pose proof (proj_inv_unique K _ _ _ _ _ _ _ _ E2 E2' EP (left_inv K inv _ _ _ _ _ _ S3 S4) (right_inv K inv _ _ _ _ _ _ S3' S4')) as Q1.
  pose proof (proj_inv_unique K _ _ _ _ _ _ _ _ E2 E2' EP (left_inv' K inv _ _ _ _ _ _ S3 S4) (right_inv' K inv _ _ _ _ _ _ S3' S4')) as Q2.
  apply (two_cancel K hlf _ _ Hh). rewrite F, F'. f_equal. f_equal; unfold quad; apply Sum_ext; intros x Hx; apply Sum_ext; intros y Hy.
  - rewrite (Q1 x y Hx Hy). reflexivity.
  - rewrite (Q2 x y Hx Hy). reflexivity.
Qed.

(** * Cases *)
From Coq Require Import ZArith QArith Qcanon.
Section Cases.
Local Close Scope Q_scope. Local Open Scope nat_scope.
Ltac qq := first [apply eqq_ok; vm_compute; reflexivity | apply neqq; vm_compute; reflexivity].
Ltac ck := first [apply meqb_ok | apply eigb_ok | apply rootsb_ok]; vm_compute; reflexivity.
Notation K := QO.
Notation vec := (nat -> QO).
Notation mt := (nat -> nat -> QO).
(** One occupied and three virtual orbitals per spin; the cluster has the occupied and one mixture of two virtual orbitals. *)
Definition ke : vec := fun i => match i with 0 => q 0 1 | 1 => q 1 1 | 2 => q 28 3 | _ => q 4 1 end.
Definition km : mfd K := Build_mfd K 1 3 1 3 ke ke false 4.
Definition ku : vec := fun a => match a with 0 => q 3 5 | 1 => q 4 5 | _ => q 0 1 end.
Definition kb : mt := fun j a => match j, a with 0, 0 => q (-4) 5 | 0, 1 => q 3 5 | 1, 2 => q 1 1 | _, _ => q 0 1 end.
Definition kb' : mt := fun j a => if (j =? 0)%nat then kb 1 a else ropp (kb 0 a).
Definition kf : frag K := Build_frag K 1 1 1 1 (fun _ _ => q 1 1) (fun a _ => ku a) (fun _ _ => q 1 1) (fun a _ => ku a).
Definition kl : mt := fun n j => match n with 0 => q 11 8 | 1 => q 3 8 | 2 => if (j =? 0)%nat then q 5 2 else q (-5) 2
  | 3 => if (j =? 0)%nat then q 1 1 else q (-1) 1 | _ => if (j =? 0)%nat then q 1 2 else q (-1) 2 end.
Definition kc : vec := fun n => match n with 0 => q 1 1 | 1 => q 2 1 | 3 => q 1 1 | _ => q 0 1 end.
Definition klov : mt := fun n a => radd (rmul (kc n) (ku a)) (radd (rmul (kl n 0) (kb 0 a)) (rmul (kl n 1) (kb 1 a))).
Definition klpq : nat -> nat -> nat -> K := fun n p k => match p, k with 0, 0 => kl n 0 | 1, 1 => kl n 1 | _, _ => kc n end.
Definition kd : df K := Build_df K 5 klov klov klpq klpq.
Definition knull : nat -> nat -> mt -> nat * mt := fun _ _ _ => (2, kb).
Definition knull' : nat -> nat -> mt -> nat * mt := fun _ _ _ => (2, kb').
Definition ksw : mt := fun i j => match i, j with 0, 1 => q 1 1 | 1, 0 => q (-1) 1 | 2, 3 => q 1 1 | 3, 2 => q (-1) 1 | _, _ => q 0 1 end.
(** Another phase of the first excitation, and the two triplets turned. *)
Definition ksg : mt := fun i j => match i, j with 0, 0 => q (-1) 1 | 1, 1 => q 1 1 | 2, 2 => q 3 5 | 2, 3 => q (-4) 5 | 3, 2 => q 4 5 | 3, 3 => q 3 5 | _, _ => q 0 1 end.
Definition krun : rot K -> result (sol K) := fun r => Ret (Build_sol K 2 2 cw cxpy cxmy r0 (Some r)).
Definition krun' : rot K -> result (sol K) := fun r => Ret (Build_sol K 2 2 cw (mm 4 ksw (mm 4 cxpy ksg)) (mm 4 ksw (mm 4 cxmy ksg)) r0 (Some r)).
Definition kr : rot K := Build_rot K 2 kb 2 kb.
Definition kr' : rot K := Build_rot K 2 kb' 2 kb'.
Definition ks : sol K := getsol (krun kr).
Definition ks' : sol K := getsol (krun' kr').
Definition getw (x : result ((nat -> nat -> nat -> nat -> K) * (nat -> nat -> nat -> nat -> K) * (nat -> nat -> nat -> nat -> K))) :=
  match x with Ret y => y | _ => (fun _ _ _ _ => r0, fun _ _ _ _ => r0, fun _ _ _ _ => r0) end.
Definition kW (pc ov : bool) := deltaW K ivr half knull krun km kf kd pc ov.
Definition kW' (pc ov : bool) := deltaW K ivr half knull' krun' km kf kd pc ov.
Definition kw (pc ov : bool) := getw (kW pc ov).
Definition kw' (pc ov : bool) := getw (kW' pc ov).
Lemma kW_ok pc ov : deltaW K ivr half knull krun km kf kd pc ov = Ret (kw pc ov). Proof. destruct pc, ov; reflexivity. Qed.
Lemma kW'_ok pc ov : deltaW K ivr half knull' krun' km kf kd pc ov = Ret (kw' pc ov). Proof. destruct pc, ov; reflexivity. Qed.
Lemma kG : get_crpa K knull krun km kf = Ret (Some (ks, kr)). Proof. reflexivity. Qed.
Lemma kG' : get_crpa K knull' krun' km kf = Ret (Some (ks', kr')). Proof. reflexivity. Qed.
Ltac four := let k := fresh in let H := fresh in intros k H; change (ne K _) with 4 in H; do 4 (destruct k as [|k]; [qq|]); lia.
Lemma kS : solved K ivr km kd ks kr.
Proof. split; [reflexivity|]. split; [reflexivity|]. split; [split; [|split; [|split]]; ck|four]. Qed.
Lemma kS' : solved K ivr km kd ks' kr'.
Proof. split; [reflexivity|]. split; [reflexivity|]. split; [split; [|split; [|split]]; ck|four]. Qed.
Lemma kO : orthonormal K km kf.
Proof. intros []; split; intros i j Hi Hj; cbn in Hi, Hj; (destruct i as [|i]; [|lia]); (destruct j as [|j]; [|lia]); qq. Qed.
Lemma kNull a : meq 1 3 a (fun _ y => ku y) -> null_ok K 1 3 a (2, kb).
Proof.
  intros Ha. apply null_complete; [ck| |].
  - rewrite Ha. ck.
  - rewrite Ha. ck.
Qed.
Lemma kturn n cols (a : mt) : turned K n cols a a.
Proof. exists idm. split; [|split]; [rewrite tr_idm; apply mm_idl..|]. rewrite tr_idm, mm_idl. reflexivity. Qed.
Example C72_environment_case : environment K km kf kr.
Proof.
  apply (C72_environment K knull krun km kf ks kr kO).
  - intros _. apply kNull. ck.
  - intros _. apply kNull. ck.
  - intros r0 H. assert (E : s_rot K ks = s_rot K (getsol (krun r0))) by (rewrite H; reflexivity). cbn in E.
    assert (E' : r0 = kr) by (injection E; intros; destruct r0; cbn in *; congruence). subst r0. repeat split; apply kturn.
  - exact kG.
Qed.
Lemma kE' : environment K km kf kr'.
Proof. split; [|split; [|split]]; ck. Qed.
Lemma kR : real_orbitals K kf kd.
Proof. intros [] n p k Hp Hk; destruct p as [|[|p]]; destruct k as [|[|k]]; reflexivity. Qed.
Lemma kM : integrals_match K km kf kd.
Proof.
  intros t n I A HI HA. destruct I as [|I]; [|destruct t; cbn in HI; lia]. destruct A as [|A]; [|destruct t; cbn in HA; lia].
  destruct t; (do 5 (destruct n as [|n]; [qq|])); qq.
Qed.

(** The correction of (ia|ia): by the formula, by the response of the environment. *)
Definition kXe : mt := mm 4 cxpy (mm 4 (dg (fun k => ivr (cw k))) (tr cxpy)).
Definition kPe : mt := mm 4 cxmy (mm 4 (dg (fun k => ivr (cw k))) (tr cxmy)).
Example C72_formula_case : w_ K (kw true false) false true 0 1 0 0 <> q 0 1 /\
  rmul (radd r1 r1) (w_ K (kw true false) false true 0 1 0 0) =
  ropp (radd (quad K 6 (gam K km kf kd true false false 0 1) (mm 4 (tr (env K km kr)) (mm 4 kXe (env K km kr))) (gam K km kf kd true false true 0 0))
             (quad K 6 (gam' K km kf true false 0 1) (mm 4 (tr (env K km kr)) (mm 4 kPe (env K km kr))) (gam' K km kf true true 0 0))).
Proof.
  split; [qq|]. apply (C72_formula K ivr half knull krun km kf kd true false ks kr (kw true false) kXe kPe false true 0 1 0 0 hhalf (kW_ok _ _) kG kS kR); [ck|ck|cbn; lia..].
Qed.
Example C72_basis_case : w_ K (kw true true) false true 0 1 1 0 = w_ K (kw' true true) false true 0 1 1 0 /\
  fst (set_up K half km kf kd true true ks kr) 0 0 1 <> fst (set_up K half km kf kd true true ks' kr') 0 0 1.
Proof.
  split; [|qq]. apply (C72_basis K ivr half knull krun knull' krun' km kf kd true true ks kr ks' kr' _ _ false true 0 1 1 0 hhalf (kW_ok _ _) kG kS C72_environment_case (kW'_ok _ _) kG' kS' kE' kR); cbn; lia.
Qed.

(** The inverse of A+B of the whole system. *)
Definition zs (p k : nat) : QO := match p, k with | 0, 0 => q (483284) 890325 | 0, 1 => q (1504) 296775 | 0, 2 => q (-3452) 178065 | 1, 0 => q (1504) 296775 | 1, 1 => q (1429951) 22159200 | 1, 2 => q (91) 1899360 | 2, 0 => q (-3452) 178065 | 2, 1 => q (91) 1899360 | 2, 2 => q (166585) 1139616 | _, _ => q 0 1 end.
Definition zd (p k : nat) : QO := match p, k with | 0, 0 => q (-407041) 890325 | 0, 1 => q (1504) 296775 | 0, 2 => q (-3452) 178065 | 1, 0 => q (1504) 296775 | 1, 1 => q (-944249) 22159200 | 1, 2 => q (91) 1899360 | 2, 0 => q (-3452) 178065 | 2, 1 => q (91) 1899360 | 2, 2 => q (-118319) 1139616 | _, _ => q 0 1 end.
Definition dY (p k : nat) : QO := match p, k with | 0, 0 => q (41) 162 | 0, 1 => q (-11) 54 | 1, 0 => q (-11) 54 | 1, 1 => q (17) 18 | 2, 2 => q (7) 32 | 2, 3 => q (-5) 16 | 2, 4 => q (-5) 32 | 3, 2 => q (-5) 16 | 3, 3 => q (7) 8 | 3, 4 => q (-1) 16 | 4, 2 => q (-5) 32 | 4, 3 => q (-1) 16 | 4, 4 => q (31) 32 | _, _ => q 0 1 end.

Definition kZ : mt := fun p k => if (p <? 3)%nat then (if (k <? 3)%nat then zs p k else zd p (k - 3)) else (if (k <? 3)%nat then zd (p - 3) k else zs (p - 3) (k - 3)).
Definition kD : mt := dg (fun p => match p mod 3 with 0 => q 1 1 | 1 => q 3 28 | _ => q 1 4 end).
(** A+B and A-B of the cluster with the screened interaction. *)
Definition kC (sg : K) : mt := fun p k => radd (radd (rotm K 6 (trot K km kf) (AmB K km) p k) (scrd K kd (kw true false) (1 <=? p)%nat (1 <=? k)%nat 0 1 0 1))
   (rmul sg (scrd K kd (kw true false) (1 <=? p)%nat (1 <=? k)%nat 0 1 1 0)).
Lemma kC_ok sg : cluster_rpa K km kf (scrd K kd (kw true false)) sg (kC sg).
Proof.
  intros [] [] [|I] [|A] [|J] [|B] H1 H2 H3 H4; try (exfalso; clear - H1 H2 H3 H4; cbn in H1, H2, H3, H4; lia).
  all: repeat change (cph K kf true 0 0) with 1; repeat change (cph K kf false 0 0) with 0; unfold kC; cbn [Nat.leb].
  all: change (co_ K kf true + 0)%nat with 1; change (co_ K kf false + 0)%nat with 1; reflexivity.
Qed.
Example C72_response_case : meq 2 2 (mm 2 (kC r1) (rotm K 6 (trot K km kf) kZ)) idm /\ kC r1 0 1 <> rmul (radd r1 r1) (bare K kd false true 0 1 0 1).
Proof.
  split; [|qq]. apply (C72_response K ivr half knull krun km kf kd false ks kr (kw true false) hhalf (kW_ok _ _) kG kS kR kM C72_environment_case (kC r1) kZ (kC_ok _)). ck.
Qed.
Example C72_response_minus_case : meq 2 2 (mm 2 (kC (ropp r1)) (rotm K 6 (trot K km kf) kD)) idm /\ kC (ropp r1) 0 0 <> rotm K 6 (trot K km kf) (AmB K km) 0 0.
Proof.
  split; [|qq]. apply (C72_response_minus K ivr half knull krun km kf kd false ks kr (kw true false) hhalf (kW_ok _ _) kG kS kR kM C72_environment_case (kC (ropp r1)) kD (kC_ok _)). ck.
Qed.
Example C72_dielectric_case : scrd K kd (kw false false) true false 1 1 0 1 = Sum 5 (fun n => Sum 5 (fun n' => rmul (rmul (klpq n 1 1) (dY n n')) (klpq n' 0 1))).
Proof.
  apply (C72_dielectric K ivr half knull krun km kf kd ks kr (kw false false) (msc (q 1 4) idm) dY true false 1 1 0 1 hhalf (kW_ok _ _) kG kS kR); [ck|ck|cbn; lia..].
Qed.
Example C72_only_ov_case : w_ K (kw true true) false true 0 1 1 1 = r0 /\ w_ K (kw true false) false true 0 1 1 1 <> r0 /\
  w_ K (kw true true) false true 0 1 1 0 = w_ K (kw true false) false true 0 1 1 0.
Proof.
  split; [|split; [qq|]]; rewrite (C72_only_ov K ivr half knull krun km kf kd true _ _ false true _ _ _ _ (kW_ok true true) (kW_ok true false)); reflexivity.
Qed.
Example C72_particles_case : w_ K (kw true false) true false 1 0 0 1 = w_ K (kw true false) false true 0 1 1 0 /\ w_ K (kw true false) false true 1 0 1 0 = w_ K (kw true false) false true 0 1 0 1.
Proof.
  split; [apply (C72_particles K ivr half knull krun km kf kd true false _ false true 0 1 1 0 (kW_ok _ _))|
          apply (C72_particles K ivr half knull krun km kf kd true false _ false true 0 1 0 1 (kW_ok _ _))].
Qed.
Example C72_permutations_case : w_ K (kw false false) false true 0 1 1 1 = w_ K (kw false false) false true 1 0 1 1 /\ w_ K (kw false false) false true 0 1 1 1 <> r0.
Proof. split; [symmetry; apply (C72_permutations K ivr half knull krun km kf kd false _ false true 0 1 1 1 kR (kW_ok _ _)); cbn; lia|qq]. Qed.
(** With the coupling through orbital energies the interaction lacks the symmetry of real orbitals. *)
Theorem C72_permutations_refuted : ~ forall null run m f d dw p q p' q', real_orbitals K f d -> deltaW K ivr half null run m f d true false = Ret dw ->
  w_ K dw false false q p p' q' = w_ K dw false false p q p' q'.
Proof. intros H. specialize (H knull krun km kf kd _ 0 1 0 1 kR (kW_ok true false)). revert H. qq. Qed.
Example C72_spin_case : w_ K (kw false true) true false 0 1 0 1 = w_ K (kw false true) false false 0 1 0 1 /\
  spin_integrate K half (kw false true) 0 1 0 1 = w_ K (kw false true) true true 0 1 0 1.
Proof.
  split; [apply (C72_spin K ivr half knull krun km kf kd true _ true false 0 1 0 1 hhalf (fun _ _ _ => eq_refl) eq_refl (kW_ok _ _))|
          apply (C72_spin K ivr half knull krun km kf kd true _ true true 0 1 0 1 hhalf (fun _ _ _ => eq_refl) eq_refl (kW_ok _ _))].
Qed.
(** With all orbitals rotated into the cluster nothing is left of the environment. *)
Definition kall : frag K := Build_frag K 1 2 1 2 (fun _ _ => q 1 1) rot35 (fun _ _ => q 1 1) rot35.
Example C72_complete_case : exists dw, deltaW K ivr half (fun _ _ _ => (0, zm)) krun cm kall kd true false = Ret dw /\ w_ K dw true false 0 1 1 2 = r0.
Proof.
  assert (N : forall a, meq 2 2 a (tr rot35) -> null_ok K 2 2 a (0, zm)).
  { intros a Ha. apply null_complete; [intros i j Hi; lia|intros i j _ Hj; lia|]. rewrite Ha. ck. }
  destruct (C72_complete K ivr half (fun _ _ _ => (0, zm)) krun cm kall kd true false) as (dw & E & H).
  - qq.
  - exact corth1.
  - exact cspan1.
  - intros _. apply N. ck.
  - intros _. apply N. ck.
  - exists dw. split; [exact E|apply H].
Qed.
Example C72_dynamic_case : w_ K (kw true false) false true 0 1 1 0 =
  ropp (Sum 4 (fun k => rmul (ivr (cw k)) (let L := set_up K half km kf kd true false ks kr in radd (rmul (fst L k 0 1) (snd L k 1 0)) (rmul (fst L k 1 0) (snd L k 0 1))))).
Proof.
  apply (C72_dynamic K ivr half knull krun km kf kd true false 4 cw (fst (set_up K half km kf kd true false ks kr)) (snd (set_up K half km kf kd true false ks kr)) _ eq_refl (kW_ok _ _)).
Qed.
Lemma kpos : forall s r, get_crpa K knull krun km kf = Ret (Some (s, r)) -> forall k, k < s_n K s -> le r0 (s_f K s k) /\ rmul (s_f K s k) (ivr (s_f K s k)) = r1.
Proof.
  intros s r H. rewrite kG in H. assert (E : ks = s) by exact (f_equal (fun z => match z with Ret (Some y) => fst y | _ => s end) H).
  rewrite <- E. intros k Hk. change (s_n K _) with 4 in Hk.
  do 4 (destruct k as [|k]; [split; [vm_compute; congruence|qq]|]). lia.
Qed.
Definition kden : bool -> mt := fun t p k => if t then q 1 1 else match p, k with 0, 1 => q 2 1 | 1, 1 => q (-1) 1 | _, _ => q 3 1 end.
Example C72_attractive_case : le (energy K kf kden (scrd K kd (kw true false))) (energy K kf kden (bare K kd)).
Proof. apply (C72_attractive K ivr half knull krun km kf kd true false _ kden kpos (kW_ok _ _)). Qed.
Example C72_repulsive_case : le r0 (energy K kf kden (scrd K kd (kw false false))) /\ w_ K (kw false false) false false 0 0 0 0 <> r0.
Proof.
  split; [|qq]. apply (C72_repulsive K ivr half knull krun km kf kd ks kr _ kden hhalf).
  - intros x Hx. change (nov K km) with 6 in Hx. do 6 (destruct x as [|x]; [vm_compute; congruence|]). lia.
  - apply kW_ok.
  - exact kG.
  - exact kS.
  - exact kR.
Qed.
Definition kbare : nat -> nat -> nat -> nat -> K := bare K kd false false.
Definition getu (x : result (nat -> nat -> nat -> nat -> K)) := match x with Ret y => y | _ => fun _ _ _ _ => r0 end.
Definition kadd (sc : string) := getu (add_crpa_r K ivr half knull krun km kf kd sc kbare).
Example C72_sum_case : exists dw, kW true true = Ret dw /\
  let b' := getw (add_crpa_u K ivr half knull krun km kf kd "crpa_ov_pcoupled" (kbare, kbare, kbare)) in
  w_ K b' true false 0 1 1 0 = radd (kbare 1 0 0 1) (w_ K dw true false 0 1 1 0).
Proof.
  destruct (C72_sum K ivr half knull krun km kf kd "crpa_ov_pcoupled" (kbare, kbare, kbare) _ eq_refl) as (dw & E & H).
  exists dw. split; [exact E|]. apply H.
Qed.
Example C72_sum_restricted_case : exists dw, kW false false = Ret dw /\
  kadd "crpa" 0 1 1 1 = radd (kbare 0 1 1 1) (rmul (radd (radd (radd (w_ K dw false false 0 1 1 1) (w_ K dw false true 0 1 1 1)) (w_ K dw true false 0 1 1 1)) (w_ K dw true true 0 1 1 1)) (rmul half half)).
Proof.
  destruct (C72_sum_restricted K ivr half knull krun km kf kd "crpa" kbare _ eq_refl) as (dw & E & H).
  exists dw. split; [exact E|]. apply H.
Qed.
(** The word that is looked for does change the result, the documented one does not. *)
Example C72_documented_option_refuted_case : kadd "crpa_pcoupling" 0 1 0 1 = kadd "crpa" 0 1 0 1 /\ kadd "crpa_pcoupled" 0 1 0 1 <> kadd "crpa" 0 1 0 1.
Proof. split; [unfold kadd; rewrite (proj1 (C72_documented_option_refuted K ivr half knull krun km kf kd kbare (kbare, kbare, kbare))); reflexivity|qq]. Qed.
End Cases.

Print Assumptions C72_formula.
Print Assumptions C72_response.
Print Assumptions C72_response_minus.
Print Assumptions C72_environment.
Print Assumptions C72_dielectric.
Print Assumptions C72_only_ov.
Print Assumptions C72_particles.
Print Assumptions C72_permutations.
Print Assumptions C72_spin.
Print Assumptions C72_complete.
Print Assumptions C72_dynamic.
Print Assumptions C72_attractive.
Print Assumptions C72_repulsive.
Print Assumptions C72_sum.
Print Assumptions C72_sum_restricted.
Print Assumptions C72_documented_option_refuted.
Print Assumptions C72_basis.
Print Assumptions C72_permutations_refuted.
