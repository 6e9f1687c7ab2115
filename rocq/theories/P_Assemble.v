(** Lemmas on the assembly of two-particle density matrices from intermediates, used for C45. *)
From Coq Require Import List Arith Bool Lia Ring ZArith.
From Verif Require Import Alg M_Wf M_Eris M_Rdm P_Eris P_Part2.
Import ListNotations.
Close Scope Z_scope. Open Scope nat_scope.

Section P.
Context {K : cring}.
Add Ring Kr : (rth K).
Open Scope K_scope.
Notation mat := (nat -> nat -> K).
Notation ten := (nat -> nat -> nat -> nat -> K).
Ltac toslice n p q r s f1 f2 f3 f4 a b c d :=
  let H1 := fresh in let H2 := fresh in let H3 := fresh in let H4 := fresh in
  let E1 := fresh in let E2 := fresh in let E3 := fresh in let E4 := fresh in
  destruct (shift_cases n (S (p + q + r + s)) p ltac:(lia)) as (f1 & a & E1 & H1);
  destruct (shift_cases n (S (p + q + r + s)) q ltac:(lia)) as (f2 & b & E2 & H2);
  destruct (shift_cases n (S (p + q + r + s)) r ltac:(lia)) as (f3 & c & E3 & H3);
  destruct (shift_cases n (S (p + q + r + s)) s ltac:(lia)) as (f4 & d & E4 & H4);
  revert H1 H2 H3 H4; generalize (S (p + q + r + s)); subst p q r s.

Lemma make_rdm2_zero n (d : dm2i K) out :
  (forall i j k l, d_ovov d i j k l = 0) -> (forall i j k l, d_vvvv d i j k l = 0) -> (forall i j k l, d_oooo d i j k l = 0) ->
  (forall i j k l, d_oovv d i j k l = 0) -> (forall i j k l, d_ovvo d i j k l = 0) -> (forall i j k l, d_ovvv d i j k l = 0) ->
  (forall i j k l, d_ooov d i j k l = 0) -> forall p q r s, make_rdm2_rhf n d out p q r s = 0.
Proof.
  intros Z1 Z2 Z3 Z4 Z5 Z6 Z7 p q r s. toslice n p q r s f1 f2 f3 f4 a b c e. intros nv B1 B2 B3 B4.
  rewrite (make_rdm2_part n nv) by auto. destruct f1, f2, f3, f4; cbn [part]; rewrite ?Z1, ?Z2, ?Z3, ?Z4, ?Z5, ?Z6, ?Z7; ring.
Qed.

(** The assembled matrix is Hermitian whatever the intermediates are. *)
Lemma make_rdm2_herm n (d : dm2i K) out p q r s : make_rdm2_rhf n d out p q r s = make_rdm2_rhf n d out q p s r.
Proof.
  toslice n p q r s f1 f2 f3 f4 a b c e. intros nv B1 B2 B3 B4.
  rewrite !(make_rdm2_part n nv) by auto. apply part_herm.
Qed.
End P.
