(** Model of the intermediates of the restricted CCSD two-particle density matrix: vayesta/core/vpyscf/ccsd_rdm.py 51-55 (_gamma2_intermediates), 58-227
    (_gamma2_outcore) and 245-257 (make_rdm2); the assembly _make_rdm2 is in M_Eris.v (make_rdm2_rhf) and M_Rdm.v (cc_rdm2).
    Simplifications: real arrays over a commutative ring with 1/2; the blocks over virtual orbitals are one block (they bound the memory used); arrays are functions of
    the indices instead of files; compress_vvvv=False. *)
From Coq Require Import List Arith Bool.
From Verif Require Import Alg M_Wf M_Eris M_Rdm.

Section Gamma2.
Context {K : cring}.
Open Scope K_scope.
Variable half : K.
Notation mat := (nat -> nat -> K).
Notation ten := (nat -> nat -> nat -> nat -> K).
Variables n nv : nat.
Variables (t1 : mat) (t2 : ten) (l1 : mat) (l2 : ten).

(** pvOOv, 71: einsum("ikca,jkcb->aijb", l2, t2) *)
Definition pvOOv : ten := fun a i j b => Sum n (fun k => Sum nv (fun c => l2 i k c a * t2 j k c b)).
(** pvoOV, 78-80 *)
Definition pvoOV : ten := fun a i j b =>
  - Sum n (fun k => Sum nv (fun c => l2 i k c a * t2 j k b c)) + Sum n (fun k => Sum nv (fun c => l2 i k a c * cc_theta t2 j k b c)).
(** moo, 72 and 81; mvv, 73 and 82 *)
Definition moo : mat := fun j l => Sum nv (fun d => pvOOv d l j d) * two + Sum nv (fun d => pvoOV d l j d).
Definition mvv : mat := fun d b => Sum n (fun l => pvOOv b l l d) * two + Sum n (fun l => pvoOV b l l d).
(** mia, mab, mij, 87-89 *)
Definition mia : mat := fun i a => Sum n (fun k => Sum nv (fun c => l1 k c * t2 i k a c)) * two - Sum n (fun k => Sum nv (fun c => l1 k c * t2 i k c a)).
Definition mab : mat := fun c b => Sum n (fun k => l1 k c * t1 k b).
Definition mij : mat := fun j k => Sum nv (fun c => l1 k c * t1 j c) + moo j k * half.
(** tau, 91-92 and 118-119; tau of pass 2 after 140 *)
Definition tau : ten := fun i j a b => t1 i a * t1 j b + t2 i j a b.
Definition tau' : ten := fun i j a b => tau i j a b - t2 i j a b * half.
(** goooo, 93 *)
Definition goooo : ten := fun i j k l => Sum nv (fun a => Sum nv (fun b => tau i j a b * l2 k l a b)) * half.
(** gooov, 74, 83 and 96-100 *)
Definition gooov : ten := fun j k i a =>
  Sum nv (fun c => t1 k c * pvOOv c i j a) - Sum nv (fun c => t1 j c * pvoOV c i k a)
  + - half * moo j i * t1 k a
  + Sum n (fun l => two * t1 l a * goooo j k i l)
  - Sum nv (fun b => l1 i b * tau j k b a)
  - Sum nv (fun b => l2 j k b a * t1 i b).
(** goovv, 105, 120-127 and 140-145 *)
Definition goovv : ten := fun i j a b =>
  mia i a * t1 j b
  + (Sum n (fun k => Sum n (fun l => goooo i j k l * tau k l a b))
     - Sum n (fun k => mij j k * tau i k a b)
     - Sum nv (fun c => mab c b * t2 i j a c)
     - Sum nv (fun d => mvv b d * half * tau i j a d)
     + half * tau i j a b
     + half * l2 i j a b)
  + Sum nv (fun d => Sum n (fun l => pvOOv d l i b * tau' j l d a))
  - Sum nv (fun d => Sum n (fun l => pvoOV d l i a * tau' j l d b))
  + Sum nv (fun d => Sum n (fun l => (pvoOV d l i a + pvOOv d l i a * half) * t2 j l b d)).
(** gOvvO, 131-132; govVO, 133-135 *)
Definition gOvvO : ten := fun i a b j => Sum n (fun k => Sum nv (fun c => l2 k i a c * t1 j c * t1 k b)) + pvOOv a i j b.
Definition govVO : ten := fun i a b j => l1 i a * t1 j b - Sum n (fun k => Sum nv (fun c => l2 i k a c * t1 j c * t1 k b)) + pvoOV a i j b.
(** gvvvv, 164-166 *)
Definition gvvvv : ten := fun a b c d =>
  Sum n (fun i => Sum n (fun j => l2 i j a b * t2 i j c d)) + Sum n (fun j => Sum n (fun i => l2 i j a b * t1 i c) * t1 j d).
(** gvovv, 200-210 *)
Definition gvovv : ten := fun a i b c =>
  Sum nv (fun d => gvvvv a d b c * - t1 i d)
  + Sum n (fun k => pvoOV a k i c * t1 k b) - Sum n (fun k => pvOOv a k i b * t1 k c)
  + Sum n (fun j => l1 j a * t2 j i b c) + Sum n (fun j => l1 j a * t1 j b * t1 i c)
  + mvv b a * half * t1 i c
  + Sum n (fun j => t1 j a * l2 j i b c).
(** _gamma2_outcore, 58-227: transposed and combined as in 94, 101, 136-137, 148, 196-198 and 212 *)
Definition cc_gamma2 : dm2i K :=
  {| d_ovov := fun i a j b => goovv i j a b * two - goovv j i a b;
     d_vvvv := fun a x y z => gvvvv a y x z - gvvvv a y z x * half;
     d_oooo := fun i j k l => goooo i k j l * two - goooo i k l j;
     d_oovv := fun j i a b => - two * gOvvO i a b j - govVO i a b j;
     d_ovvo := fun i a b j => two * govVO i a b j + gOvvO i a b j;
     d_ovvv := fun i x y z => gvovv y i z x * two - gvovv y i x z;
     d_ooov := fun i j k a => gooov i k j a * two - gooov k i j a |}.
End Gamma2.

Section Rdm2.
Context {K : cring}.
Open Scope K_scope.
Variable half : K.
Notation mat := (nat -> nat -> K).
Notation ten := (nat -> nat -> nat -> nat -> K).
(** make_rdm2, 245-257; [out]: the uninitialised array of 307 *)
Definition ccsd_make_rdm2 (n nv : nat) (t1 : mat) (t2 : ten) (l1 : mat) (l2 : ten) (out : ten) (with_dm1 : bool) : ten :=
  cc_rdm2 n (cc_gamma1 n nv t1 t2 l1 l2) (cc_gamma2 half n nv t1 t2 l1 l2) out with_dm1.
End Rdm2.
