(** Model of the intermediates of the unrestricted CCSD two-particle density matrix: vayesta/core/vpyscf/uccsd_rdm.py 88-345 (_gamma2_outcore), 348-352
    (_gamma2_intermediates) and 371-395 (make_rdm2); the assembly _make_rdm2 is in M_Eris.v (make_rdm2_ss, make_rdm2_ab) and M_Rdm.v (ucc_rdm2).
    Simplifications: real arrays over a commutative ring with 1/2; compress_vvvv=False. Entries of the result that are None are left out. *)
From Coq Require Import List Arith Bool.
From Verif Require Import Alg M_Wf M_Eris M_Rdm.

Section UGamma2.
Context {K : cring}.
Open Scope K_scope.
Variable half : K.
Notation mat := (nat -> nat -> K).
Notation ten := (nat -> nat -> nat -> nat -> K).
Variables n nv m mv : nat.
Variables (t1a t1b : mat) (t2aa t2ab t2bb : ten) (l1a l1b : mat) (l2aa l2ab l2bb : ten).
Definition quarter : K := half * half.
Definition eighth : K := half * half * half.

(** 94-96 *)
Definition tauaa : ten := fun i j a b => t2aa i j a b + two * t1a i a * t1a j b.
Definition tauab : ten := fun i j a b => t2ab i j a b + t1a i a * t1b j b.
Definition taubb : ten := fun i j a b => t2bb i j a b + two * t1b i a * t1b j b.
(** 97-106 *)
Definition miajb : ten := fun i a j b => Sum n (fun k => Sum nv (fun c => l2aa i k a c * t2aa k j c b)) + Sum m (fun k => Sum mv (fun c => l2ab i k a c * t2ab j k b c)).
Definition miaJB : ten := fun i a j b => Sum n (fun k => Sum nv (fun c => l2aa i k a c * t2ab k j c b)) + Sum m (fun k => Sum mv (fun c => l2ab i k a c * t2bb k j c b)).
Definition mIAjb : ten := fun i a j b => Sum m (fun k => Sum mv (fun c => l2bb k i c a * t2ab j k b c)) + Sum n (fun k => Sum nv (fun c => l2ab k i c a * t2aa k j c b)).
Definition mIAJB : ten := fun i a j b => Sum m (fun k => Sum mv (fun c => l2bb i k a c * t2bb k j c b)) + Sum n (fun k => Sum nv (fun c => l2ab k i c a * t2ab k j c b)).
Definition miAjB : ten := fun i a j b => Sum m (fun k => Sum nv (fun c => l2ab i k c a * t2ab j k c b)).
Definition mIaJb : ten := fun i a j b => Sum n (fun k => Sum mv (fun c => l2ab k i a c * t2ab k j b c)).
(** tmpa, tmpb of 112-115, 121-122, 127-128, 134-137 and 142-145 *)
Definition u_ia : mat := fun i a => Sum n (fun k => Sum nv (fun c => l1a k c * t2aa k i c a)) + Sum m (fun k => Sum mv (fun c => l1b k c * t2ab i k a c)).
Definition u_IA : mat := fun i a => Sum m (fun k => Sum mv (fun c => l1b k c * t2bb k i c a)) + Sum n (fun k => Sum nv (fun c => l1a k c * t2ab k i c a)).
Definition u_cb : mat := fun c b => Sum n (fun k => l1a k c * t1a k b).
Definition u_CB : mat := fun c b => Sum m (fun k => l1b k c * t1b k b).
Definition u_kj : mat := fun k j => Sum nv (fun c => l1a k c * t1a j c).
Definition u_KJ : mat := fun k j => Sum mv (fun c => l1b k c * t1b j c).
Definition u_lj : mat := fun l j => Sum nv (fun d => miajb l d j d) + Sum mv (fun d => miAjB l d j d).
Definition u_LJ : mat := fun l j => Sum mv (fun d => mIAJB l d j d) + Sum nv (fun d => mIaJb l d j d).
Definition u_db : mat := fun d b => Sum n (fun l => miajb l d l b) + Sum m (fun l => mIaJb l d l b).
Definition u_DB : mat := fun d b => Sum m (fun l => mIAJB l d l b) + Sum n (fun l => miAjB l d l b).
(** tmpaa, tmpbb, tmpabab, 162-164 *)
Definition u_ijkl : ten := fun i j k l => Sum nv (fun c => Sum nv (fun d => l2aa k l c d * tauaa i j c d)) * (quarter * quarter).
Definition u_IJKL : ten := fun i j k l => Sum mv (fun c => Sum mv (fun d => l2bb k l c d * taubb i j c d)) * (quarter * quarter).
Definition u_iJkL : ten := fun i j k l => Sum nv (fun c => Sum mv (fun d => l2ab k l c d * tauab i j c d)) * half.
(** goovv: 108, 116, 123, 129, 138, 146, 151-152, 165 *)
Definition ugoovv : ten := fun i j a b =>
  (l2aa i j a b + tauaa i j a b) * quarter
  + u_ia i a * t1a j b
  + Sum nv (fun c => u_cb c b * t2aa i j c a) * half
  + Sum n (fun k => tauaa k i a b * u_kj k j) * half
  - Sum n (fun l => u_lj l j * tauaa l i b a) * quarter
  - Sum nv (fun d => u_db d b * tauaa j i d a) * quarter
  - Sum n (fun l => Sum nv (fun d => miajb l d i a * tauaa l j b d)) * half
  + Sum m (fun l => Sum mv (fun d => mIAjb l d i a * t2ab j l b d)) * half
  + Sum n (fun k => Sum n (fun l => u_ijkl i j k l * tauaa k l a b)).
(** gOOVV: 110, 119, 126, 132, 141, 149, 153-154, 167 *)
Definition ugOOVV : ten := fun i j a b =>
  (l2bb i j a b + taubb i j a b) * quarter
  + u_IA i a * t1b j b
  + Sum mv (fun c => u_CB c b * t2bb i j c a) * half
  + Sum m (fun k => taubb k i a b * u_KJ k j) * half
  - Sum m (fun l => u_LJ l j * taubb l i b a) * quarter
  - Sum mv (fun d => u_DB d b * taubb j i d a) * quarter
  - Sum m (fun l => Sum mv (fun d => mIAJB l d i a * taubb l j b d)) * half
  + Sum n (fun l => Sum nv (fun d => miaJB l d i a * t2ab l j d b)) * half
  + Sum m (fun k => Sum m (fun l => u_IJKL i j k l * taubb k l a b)).
(** goOvV: 109, 117-118, 124-125, 130-131, 139-140, 147-148, 155-160, 166 *)
Definition ugoOvV : ten := fun i j a b =>
  (l2ab i j a b + tauab i j a b) * half
  + u_ia i a * t1b j b * half
  + u_IA j b * t1a i a * half
  - Sum mv (fun c => u_CB c b * t2ab i j a c) * half
  - Sum nv (fun c => u_cb c a * t2ab i j c b) * half
  - Sum m (fun k => tauab i k a b * u_KJ k j) * half
  - Sum n (fun k => tauab k j a b * u_kj k i) * half
  - Sum m (fun l => u_LJ l j * tauab i l a b) * quarter
  - Sum n (fun l => u_lj l i * tauab l j a b) * quarter
  - Sum mv (fun d => u_DB d b * tauab i j a d) * quarter
  - Sum nv (fun d => u_db d a * tauab i j d b) * quarter
  - Sum m (fun l => Sum mv (fun d => mIAjb l d i a * taubb l j b d)) * quarter
  + Sum n (fun l => Sum nv (fun d => miajb l d i a * t2ab l j d b)) * quarter
  - Sum n (fun l => Sum nv (fun d => miaJB l d j b * tauaa l i a d)) * quarter
  + Sum m (fun l => Sum mv (fun d => mIAJB l d j b * t2ab i l a d)) * quarter
  + Sum n (fun l => Sum mv (fun d => miAjB l d i b * tauab l j a d)) * half
  + Sum m (fun l => Sum nv (fun d => mIaJb l d j a * t1a i d * t1b l b)) * half
  + Sum n (fun k => Sum m (fun l => u_iJkL i j k l * tauab k l a b)).
(** 172-178 *)
Definition ugvvvv : ten := fun a b c d => Sum n (fun i => Sum n (fun j => tauaa i j a b * l2aa i j c d)) * eighth.
Definition ugvVvV : ten := fun a b c d => Sum n (fun i => Sum m (fun j => tauab i j a b * l2ab i j c d)) * quarter.
Definition ugVVVV : ten := fun a b c d => Sum m (fun i => Sum m (fun j => taubb i j a b * l2bb i j c d)) * eighth.
Definition ugoooo : ten := fun i j k l => Sum nv (fun a => Sum nv (fun b => l2aa i j a b * tauaa k l a b)) * eighth.
Definition ugoOoO : ten := fun i j k l => Sum nv (fun a => Sum mv (fun b => l2ab i j a b * tauab k l a b)) * quarter.
Definition ugOOOO : ten := fun i j k l => Sum mv (fun a => Sum mv (fun b => l2bb i j a b * taubb k l a b)) * eighth.
(** gooov, goOoV, gOoOv, gOOOV: 180-213; tmpa and tmpb of 190-193 are those of 134-137 times 0.25 with the indices (i, j) *)
Definition ugooov : ten := fun j k i a =>
  Sum nv (fun b => tauaa j k b a * (- quarter * l1a i b))
  + Sum n (fun l => ugoooo i l j k * t1a l a)
  - u_lj i j * quarter * t1a k a
  + Sum nv (fun c => miajb i c j a * (half * t1a k c))
  + Sum nv (fun b => l2aa j k a b * (quarter * t1a i b)).
Definition ugOOOV : ten := fun j k i a =>
  Sum mv (fun b => taubb j k b a * (- quarter * l1b i b))
  + Sum m (fun l => ugOOOO i l j k * t1b l a)
  - u_LJ i j * quarter * t1b k a
  + Sum mv (fun c => mIAJB i c j a * (half * t1b k c))
  + Sum mv (fun b => l2bb j k a b * (quarter * t1b i b)).
Definition ugoOoV : ten := fun j k i a =>
  Sum nv (fun b => tauab j k b a * (- half * l1a i b))
  + Sum m (fun l => ugoOoO i l j k * t1b l a) * two
  - u_lj i j * quarter * t1b k a
  + Sum mv (fun c => miAjB i c j a * (half * t1b k c))
  - Sum nv (fun c => miaJB i c k a * (half * t1a j c))
  - Sum nv (fun b => l2ab j k b a * (half * t1a i b)).
Definition ugOoOv : ten := fun j k i a =>
  Sum mv (fun b => tauab k j a b * (- half * l1b i b))
  + Sum n (fun l => ugoOoO l i k j * t1a l a) * two
  - u_LJ i j * quarter * t1a k a
  + Sum nv (fun c => mIaJb i c j a * (half * t1a k c))
  - Sum mv (fun c => mIAjb i c k a * (half * t1b j c))
  - Sum mv (fun b => l2ab k j a b * (half * t1b i b)).
(** govvv, goVvV, gOvVv, gOVVV: 215-247; tmpa and tmpb of 225-228 are those of 142-145 times 0.25 *)
Definition ugovvv : ten := fun i a b c =>
  Sum n (fun j => quarter * l1a j a * tauaa i j b c)
  + Sum nv (fun d => ugvvvv b c a d * t1a i d)
  + u_db a c * quarter * t1a i b
  + Sum n (fun k => miajb k a i b * (half * t1a k c))
  + Sum n (fun j => l2aa i j b c * (quarter * t1a j a)).
Definition ugOVVV : ten := fun i a b c =>
  Sum m (fun j => quarter * l1b j a * taubb i j b c)
  + Sum mv (fun d => ugVVVV b c a d * t1b i d)
  + u_DB a c * quarter * t1b i b
  + Sum m (fun k => mIAJB k a i b * (half * t1b k c))
  + Sum m (fun j => l2bb i j b c * (quarter * t1b j a)).
Definition ugoVvV : ten := fun i a b c =>
  Sum m (fun j => half * l1b j a * tauab i j b c)
  - Sum nv (fun d => ugvVvV b c d a * t1a i d) * two
  + u_DB a c * quarter * t1a i b
  + Sum m (fun k => mIAjb k a i b * (half * t1b k c))
  - Sum n (fun k => miAjB k a i c * (half * t1a k b))
  + Sum m (fun j => l2ab i j b c * (half * t1b j a)).
Definition ugOvVv : ten := fun i a b c =>
  Sum n (fun j => half * l1a j a * tauab j i c b)
  - Sum mv (fun d => ugvVvV c b a d * t1b i d) * two
  + u_db a c * quarter * t1b i b
  + Sum n (fun k => miaJB k a i b * (half * t1a k c))
  - Sum m (fun k => mIaJb k a i c * (half * t1b k b))
  + Sum n (fun j => l2ab j i c b * (half * t1a j a)).
(** 249-266 *)
Definition ugovvo : ten := fun i b a j => l1a i a * t1a j b + miajb i a j b - Sum n (fun k => Sum nv (fun c => l2aa i k a c * t1a j c * t1a k b)).
Definition ugOVVO : ten := fun i b a j => l1b i a * t1b j b + mIAJB i a j b - Sum m (fun k => Sum mv (fun c => l2bb i k a c * t1b j c * t1b k b)).
Definition ugoVvO : ten := fun i b a j => l1a i a * t1b j b + miaJB i a j b - Sum m (fun k => Sum mv (fun c => l2ab i k a c * t1b j c * t1b k b)).
Definition ugOvVo : ten := fun i b a j => l1b i a * t1a j b + mIAjb i a j b - Sum n (fun k => Sum nv (fun c => l2ab k i c a * t1a j c * t1a k b)).
Definition ugoVoV : ten := fun i b j a => miAjB i a j b + Sum m (fun k => Sum nv (fun c => l2ab i k c a * t1a j c * t1b k b)).
Definition ugOvOv : ten := fun i b j a => mIaJb i a j b + Sum n (fun k => Sum mv (fun c => l2ab k i a c * t1b j c * t1a k b)).
(** x.transpose(0, 2, 1, 3), x.transpose(0, 3, 1, 2), x.transpose(1, 2, 0, 3) *)
Definition tr0213 (x : ten) : ten := fun p q r s => x p r q s.
Definition tr0312 (x : ten) : ten := fun p q r s => x p r s q.
Definition tr1203 (x : ten) : ten := fun p q r s => x r p q s.
Definition uscale (c : K) (x : ten) : ten := fun p q r s => x p q r s * c.
(** One spin of 268-279 / 281-292 *)
Definition ugamma2_ss (oovv vvvv oooo ovvv ooov ovvo : ten) : dm2i K :=
  let dovov := tsub (tr0213 oovv) (tr0312 oovv) in
  let dvvvv := tsub (tr0213 vvvv) (tr0312 vvvv) in
  let doooo := tsub (tr0213 oooo) (tr0312 oooo) in
  let dovvv := tsub (tr0213 ovvv) (tr0312 ovvv) in
  let dooov := tsub (tr0213 ooov) (tr1203 ooov) in
  let dovvo := tr0213 ovvo in
  let dovov := uscale half (tadd dovov (tswap dovov)) in
  let dvvvv := tadd dvvvv (tconj dvvvv) in
  let doooo := tadd doooo (tconj doooo) in
  let dovvo := uscale half (tadd dovvo (trev dovvo)) in
  let doovv := topp (texch dovvo) in
  {| d_ovov := dovov; d_vvvv := dvvvv; d_oooo := doooo; d_oovv := doovv; d_ovvo := dovvo; d_ovvv := dovvv; d_ooov := dooov |}.
(** 268-318 and 336-345 *)
Definition ucc_gamma2 : udm2i K :=
  let dvvVV := uscale two (tr0213 ugvVvV) in
  let dooOO := uscale two (tr0213 ugoOoO) in
  let dooVV := tr0213 ugoVoV in
  let dOOvv := tr0213 ugOvOv in
  {| w_aa := ugamma2_ss ugoovv ugvvvv ugoooo ugovvv ugooov ugovvo;
     w_bb := ugamma2_ss ugOOVV ugVVVV ugOOOO ugOVVV ugOOOV ugOVVO;
     w_ovOV := tr0213 ugoOvV;
     w_vvVV := tadd dvvVV (tconj dvvVV);
     w_ooOO := tadd dooOO (tconj dooOO);
     w_ooVV := uscale half (topp (tadd dooVV (tconj dooVV)));
     w_OOvv := uscale half (topp (tadd dOOvv (tconj dOOvv)));
     w_ovVO := uscale half (tadd (tr0213 ugoVvO) (trev (tr0213 ugOvVo)));
     w_ovVV := tr0213 ugoVvV; w_OVvv := tr0213 ugOvVv; w_ooOV := tr0213 ugoOoV; w_OOov := tr0213 ugOoOv |}.
(** make_rdm2, 371-395; [out]: the uninitialised arrays of 463-465 *)
Definition uccsd_make_rdm2 (outa outab outb : ten) (with_dm1 : bool) : ten * ten * ten :=
  let '(da, db) := ucc_gamma1_ab half n nv m mv t1a t1b t2aa t2ab t2bb l1a l1b l2aa l2ab l2bb in
  ucc_rdm2 half n m da db ucc_gamma2 outa outab outb with_dm1.
End UGamma2.
