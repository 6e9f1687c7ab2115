(** * External correction of CCSD by the T3 and T4 amplitudes of another cluster
    Model of vayesta/solver/ccsdtq.py 6-87 (t2_residual_rhf_t3v, t_residual_rhf), 90-155 (t2_residual_uhf_t3v) and 158-320 (t_residual_uhf), and of
    vayesta/solver/coupling.py 10-40 and 55-88 (transform_amplitude, project_t2 and its two versions), 268-299 (_integrals_for_extcorr),
    302-355 (_get_delta_t_for_extcorr), 358-498 (_get_delta_t2_from_t3v), 501-513 (_get_delta_t_for_delta_tailor) and 516-699
    (externally_correct and the callback it returns), for restricted and unrestricted spin symmetry.
    Every einsum is written as the sum of products of entries that it denotes, in the order of the code; the accumulations
    "x = np.zeros(...); x += ..." are kept as let-bindings that rebind the name.  The unrestricted definitions were produced line by line from the
    source by a script.
    Simplifications: entries in an arbitrary commutative ring with an element half (x / 2 and x * 0.5 are half * x; x / 4 is half * (half * x)), in an
    arbitrary field where the code divides by orbital energy differences; arrays as functions of the indices with the sizes as parameters; the
    overlaps of orbitals of the two clusters (cxs_occ . c_active_occ etc.) and of fragment and cluster orbitals are given as matrices instead of
    being computed from AO coefficients; the wave function of the correcting fragment is given by its CCSDTQ amplitudes (as_ccsdtq is in M_TtoC) and
    the solution of the CCSD run by _get_delta_t_for_delta_tailor is an arbitrary pair of amplitudes; logging is left out. *)
From Coq Require Import List Bool Arith.
From Verif Require Import Alg M_TtoC.
Import ListNotations.
Open Scope K_scope.

(** What the functions do other than return: [raise ValueError] (coupling.py 61, 72, 86, 617), a failed assert (607), and the use of a name that was never
    bound (654 and 674 when the list of corrections is empty) *)
Inductive result (A : Type) := Ret (a : A) | ValueErr | AssertErr | UnboundErr.
Arguments Ret {A}. Arguments ValueErr {A}. Arguments AssertErr {A}. Arguments UnboundErr {A}.
(** sequencing of calls that may raise *)
Definition rbind {A B} (x : result A) (f : A -> result B) : result B :=
  match x with Ret a => f a | ValueErr => ValueErr | AssertErr => AssertErr | UnboundErr => UnboundErr end.

Section ExtCorr.
Context {K : cring}.
Notation mat := (nat -> nat -> K).
Notation ten := (nat -> nat -> nat -> nat -> K).
Notation ten6 := (ten6 K). Notation ten8 := (ten8 K).
(** the number 0.5 *)
Variable half : K.

(** ** Restricted residuals *)
Section RHF.
Variables no nv : nat.
(** t2_residual_rhf_t3v, ccsdtq.py 6-20 *)
Definition rhf_t3v (t3 : ten6) (gvvov gooov govoo : ten) : ten :=
  let dt2 : ten := fun _ _ _ _ => 0 in
  let dt2 : ten := fun i j a b => dt2 i j a b + half * Sum nv (fun e => Sum no (fun m => Sum nv (fun f => (gvvov b e m f - gvvov b f m e) * t3 j i m e a f))) in
  let dt2 : ten := fun i j a b => dt2 i j a b + Sum nv (fun e => Sum no (fun m => Sum nv (fun f => gvvov b e m f * t3 i j m a e f))) in
  let dt2 : ten := fun i j a b => dt2 i j a b - half * Sum no (fun m => Sum no (fun n => Sum nv (fun e => (gooov m j n e - govoo m e n j) * t3 m i n b a e))) in
  let dt2 : ten := fun i j a b => dt2 i j a b - Sum no (fun m => Sum no (fun n => Sum nv (fun e => gooov m j n e * t3 i m n a b e))) in
  fun i j a b => dt2 i j a b + dt2 j i b a.
(** antiphys_g and spinned_antiphys_g, ccsdtq.py 35-36 *)
Definition antiphys (govov : ten) : ten := fun i j a b => govov i a j b - govov i b j a.
Definition spinned (govov : ten) : ten := fun i j a b => (1 + 1) * govov i a j b - govov i b j a.
(** t_residual_rhf, T1, ccsdtq.py 40 *)
Definition rhf_dt1 (t3 : ten6) (govov : ten) : mat :=
  fun u p => 0 - Sum no (fun i => Sum no (fun j => Sum nv (fun a => Sum nv (fun b => spinned govov i j a b * t3 j i u p a b)))).
(** t_residual_rhf, T2 without T3*V, ccsdtq.py 42-75 *)
Definition rhf_dt2 (t1 : mat) (t3 : ten6) (t4_abaa t4_abab : ten8) (fov : mat) (govov : ten) : ten :=
  let dt2 : ten := fun _ _ _ _ => 0 in
  let dt2 : ten := fun i j a b => dt2 i j a b + Sum no (fun m => Sum nv (fun e => fov m e * t3 i j m a b e)) in
  let dt2 : ten := fun i j a b => dt2 i j a b + Sum no (fun m => Sum nv (fun e => fov m e * t3 j i m b a e)) in
  let t4v : ten := fun i j a b => half * (half * Sum no (fun m => Sum no (fun n => Sum nv (fun e => Sum nv (fun f => antiphys govov m n e f * t4_abaa i j m n a b e f))))) in
  let t4v : ten := fun i j a b => t4v i j a b + t4v j i b a in
  let t4v : ten := fun i j a b => t4v i j a b + Sum no (fun m => Sum nv (fun e => Sum no (fun n => Sum nv (fun f => govov m e n f * t4_abab i j m n a b e f)))) in
  let dt2 : ten := fun i j a b => dt2 i j a b + t4v i j a b in
  let t1t3v : ten := fun _ _ _ _ => 0 in
  let x : mat := fun n f => Sum no (fun m => Sum nv (fun e => spinned govov m n e f * t1 m e)) in
  let t1t3v : ten := fun i j a b => t1t3v i j a b + Sum no (fun n => Sum nv (fun f => x n f * t3 n i j f a b)) in
  let x : ten := fun i j m b => half * Sum no (fun n => Sum nv (fun e => Sum nv (fun f => antiphys govov m n e f * t3 n j i e b f))) in
  let x : ten := fun i j m b => x i j m b + Sum nv (fun e => Sum no (fun n => Sum nv (fun f => govov m e n f * t3 j i n f e b))) in
  let t1t3v : ten := fun i j a b => t1t3v i j a b + Sum no (fun m => x i j m b * t1 m a) in
  let x : ten := fun e j a b => half * Sum no (fun m => Sum no (fun n => Sum nv (fun f => antiphys govov m n e f * t3 m j n f b a))) in
  let x : ten := fun e j a b => x e j a b + Sum no (fun m => Sum no (fun n => Sum nv (fun f => govov m e n f * t3 n m j b a f))) in
  let t1t3v : ten := fun i j a b => t1t3v i j a b + Sum nv (fun e => x e j a b * t1 i e) in
  let t1t3v : ten := fun i j a b => t1t3v i j a b + t1t3v j i b a in
  fun i j a b => dt2 i j a b + t1t3v i j a b.
(** _integrals_for_extcorr, restricted, coupling.py 273-281: slices of the four-index integrals eris *)
Definition sl_ovov (eris : ten) : ten := fun i a j b => eris i (no + a)%nat j (no + b)%nat.
Definition sl_vvov (eris : ten) : ten := fun a b i c => eris (no + a)%nat (no + b)%nat i (no + c)%nat.
Definition sl_ooov (eris : ten) : ten := fun i j k a => eris i j k (no + a)%nat.
Definition sl_ovoo (eris : ten) : ten := fun i a j k => eris i (no + a)%nat j k.
(** t_residual_rhf, ccsdtq.py 23-87, called with the integrals of _integrals_for_extcorr as in _get_delta_t_for_extcorr, coupling.py 338-344 *)
Definition rhf_residual (t1 : mat) (t3 : ten6) (t4_abaa t4_abab : ten8) (fov : mat) (eris : ten) (include_t3v : bool) : mat * ten :=
  let dt1 := rhf_dt1 t3 (sl_ovov eris) in
  let dt2 := rhf_dt2 t1 t3 t4_abaa t4_abab fov (sl_ovov eris) in
  (dt1, if include_t3v then (fun i j a b => dt2 i j a b + rhf_t3v t3 (sl_vvov eris) (sl_ooov eris) (sl_ovoo eris) i j a b) else dt2).
End RHF.

(** ** Unrestricted residuals *)
Section UHF.
Variables noa nob nva nvb : nat.
(** t2_residual_uhf_t3v, block aaaa, ccsdtq.py 101-120 *)
Definition uhf_t3v_aaaa (t3_aaaaaa t3_abaaba t3_babbab t3_bbbbbb : ten6) (v_aaaa_ooov v_aabb_ooov v_bbbb_ooov v_aaaa_ovvv v_aabb_ovvv v_bbbb_ovvv v_aabb_vvov v_aabb_ovoo : ten) : ten :=
  let x0 : ten := fun _ _ _ _ => 0 in
  let x0 : ten := fun i j a b => x0 i j a b + Sum noa (fun l => Sum nob (fun k => Sum nvb (fun c => v_aabb_ooov j l k c * t3_abaaba i k l a c b))) in
  let x1 : ten := fun _ _ _ _ => 0 in
  let x1 : ten := fun i j a b => x1 i j a b + - (Sum noa (fun l => Sum noa (fun k => Sum nva (fun c => v_aaaa_ooov j l k c * t3_aaaaaa i k l a b c)))) in
  let x2 : ten := fun _ _ _ _ => 0 in
  let x2 : ten := fun i j a b => x2 i j a b + - (x0 i j b a) in
  let x2 : ten := fun i j a b => x2 i j a b + - (x1 i j b a) in
  let dt2_aaaa : ten := fun _ _ _ _ => 0 in
  let dt2_aaaa : ten := fun i j a b => dt2_aaaa i j a b + - (x2 i j a b) in
  let dt2_aaaa : ten := fun i j a b => dt2_aaaa i j a b + x2 j i a b in
  let x3 : ten := fun _ _ _ _ => 0 in
  let x3 : ten := fun i j a b => x3 i j a b + Sum nva (fun d => Sum nob (fun k => Sum nvb (fun c => v_aabb_vvov b d k c * t3_abaaba i k j a c d))) in
  let x4 : ten := fun _ _ _ _ => 0 in
  let x4 : ten := fun i j a b => x4 i j a b + Sum noa (fun k => Sum nva (fun c => Sum nva (fun d => v_aaaa_ovvv k c b d * t3_aaaaaa i j k a c d))) in
  let x5 : ten := fun _ _ _ _ => 0 in
  let x5 : ten := fun i j a b => x5 i j a b + x3 i j a b in
  let x5 : ten := fun i j a b => x5 i j a b + - (x4 i j a b) in
  let dt2_aaaa : ten := fun i j a b => dt2_aaaa i j a b + x5 i j a b in
  let dt2_aaaa : ten := fun i j a b => dt2_aaaa i j a b + - (x5 i j b a) in
  dt2_aaaa.
(** t2_residual_uhf_t3v, block bbbb, ccsdtq.py 122-141 *)
Definition uhf_t3v_bbbb (t3_aaaaaa t3_abaaba t3_babbab t3_bbbbbb : ten6) (v_aaaa_ooov v_aabb_ooov v_bbbb_ooov v_aaaa_ovvv v_aabb_ovvv v_bbbb_ovvv v_aabb_vvov v_aabb_ovoo : ten) : ten :=
  let x0 : ten := fun _ _ _ _ => 0 in
  let x0 : ten := fun i j a b => x0 i j a b + Sum nob (fun k => Sum nob (fun l => Sum nvb (fun c => v_bbbb_ooov j k l c * t3_bbbbbb i k l a b c))) in
  let x1 : ten := fun _ _ _ _ => 0 in
  let x1 : ten := fun i j a b => x1 i j a b + Sum noa (fun l => Sum nva (fun c => Sum nob (fun k => v_aabb_ovoo l c j k * t3_babbab i l k a c b))) in
  let x2 : ten := fun _ _ _ _ => 0 in
  let x2 : ten := fun i j a b => x2 i j a b + - (x0 i j b a) in
  let x2 : ten := fun i j a b => x2 i j a b + - (x1 i j b a) in
  let dt2_bbbb : ten := fun _ _ _ _ => 0 in
  let dt2_bbbb : ten := fun i j a b => dt2_bbbb i j a b + - (x2 i j a b) in
  let dt2_bbbb : ten := fun i j a b => dt2_bbbb i j a b + x2 j i a b in
  let x3 : ten := fun _ _ _ _ => 0 in
  let x3 : ten := fun i j a b => x3 i j a b + - (Sum nob (fun k => Sum nvb (fun d => Sum nvb (fun c => v_bbbb_ovvv k d b c * t3_bbbbbb i j k a c d)))) in
  let x4 : ten := fun _ _ _ _ => 0 in
  let x4 : ten := fun i j a b => x4 i j a b + Sum noa (fun k => Sum nva (fun d => Sum nvb (fun c => v_aabb_ovvv k d b c * t3_babbab i k j a d c))) in
  let x5 : ten := fun _ _ _ _ => 0 in
  let x5 : ten := fun i j a b => x5 i j a b + x3 i j a b in
  let x5 : ten := fun i j a b => x5 i j a b + - (x4 i j a b) in
  let dt2_bbbb : ten := fun i j a b => dt2_bbbb i j a b + - (x5 i j a b) in
  let dt2_bbbb : ten := fun i j a b => dt2_bbbb i j a b + x5 i j b a in
  dt2_bbbb.
(** t2_residual_uhf_t3v, block abab, ccsdtq.py 143-151 *)
Definition uhf_t3v_abab (t3_aaaaaa t3_abaaba t3_babbab t3_bbbbbb : ten6) (v_aaaa_ooov v_aabb_ooov v_bbbb_ooov v_aaaa_ovvv v_aabb_ovvv v_bbbb_ovvv v_aabb_vvov v_aabb_ovoo : ten) : ten :=
  let dt2_abab : ten := fun _ _ _ _ => 0 in
  let dt2_abab : ten := fun i j a b => dt2_abab i j a b + - (Sum noa (fun l => Sum nob (fun k => Sum nvb (fun c => v_aabb_ooov i l k c * t3_babbab j l k b a c)))) in
  let dt2_abab : ten := fun i j a b => dt2_abab i j a b + - (Sum noa (fun l => Sum nva (fun d => Sum nob (fun k => v_aabb_ovoo l d j k * t3_abaaba i k l a b d)))) in
  let dt2_abab : ten := fun i j a b => dt2_abab i j a b + - (Sum noa (fun l => Sum noa (fun m => Sum nva (fun d => v_aaaa_ooov i l m d * t3_abaaba l j m a b d)))) in
  let dt2_abab : ten := fun i j a b => dt2_abab i j a b + Sum noa (fun l => Sum nva (fun d => Sum nvb (fun c => v_aabb_ovvv l d b c * t3_abaaba i j l a c d))) in
  let dt2_abab : ten := fun i j a b => dt2_abab i j a b + Sum nva (fun d => Sum nob (fun k => Sum nvb (fun c => v_aabb_vvov a d k c * t3_babbab j i k b d c))) in
  let dt2_abab : ten := fun i j a b => dt2_abab i j a b + Sum nob (fun n => Sum nob (fun k => Sum nvb (fun c => v_bbbb_ooov j n k c * t3_babbab k i n b a c))) in
  let dt2_abab : ten := fun i j a b => dt2_abab i j a b + - (Sum noa (fun l => Sum nva (fun d => Sum nva (fun e => v_aaaa_ovvv l d a e * t3_abaaba i j l d b e)))) in
  let dt2_abab : ten := fun i j a b => dt2_abab i j a b + - (Sum nob (fun k => Sum nvb (fun c => Sum nvb (fun f => v_bbbb_ovvv k c b f * t3_babbab j i k c a f)))) in
  dt2_abab.
(** t_residual_uhf, T1 of spin aa, ccsdtq.py 173-176 *)
Definition uhf_dt1_aa (t3_aaaaaa t3_abaaba t3_babbab t3_bbbbbb : ten6) (v_aaaa_ovov v_aabb_ovov v_bbbb_ovov : ten) : mat :=
  let dt1_aa : mat := fun _ _ => 0 in
  let dt1_aa : mat := fun i a => dt1_aa i a + half * Sum noa (fun j => Sum nva (fun b => Sum noa (fun k => Sum nva (fun c => v_aaaa_ovov j b k c * t3_aaaaaa i j k a b c)))) in
  let dt1_aa : mat := fun i a => dt1_aa i a + half * Sum nob (fun l => Sum nvb (fun d => Sum nob (fun m => Sum nvb (fun e => v_bbbb_ovov l d m e * t3_babbab l i m d a e)))) in
  let dt1_aa : mat := fun i a => dt1_aa i a + Sum noa (fun j => Sum nva (fun b => Sum nob (fun m => Sum nvb (fun d => v_aabb_ovov j b m d * t3_abaaba i m j a d b)))) in
  dt1_aa.
(** t_residual_uhf, T1 of spin bb, ccsdtq.py 177-180 *)
Definition uhf_dt1_bb (t3_aaaaaa t3_abaaba t3_babbab t3_bbbbbb : ten6) (v_aaaa_ovov v_aabb_ovov v_bbbb_ovov : ten) : mat :=
  let dt1_bb : mat := fun _ _ => 0 in
  let dt1_bb : mat := fun i a => dt1_bb i a + half * Sum noa (fun j => Sum nva (fun b => Sum noa (fun k => Sum nva (fun c => v_aaaa_ovov j b k c * t3_abaaba j i k b a c)))) in
  let dt1_bb : mat := fun i a => dt1_bb i a + half * Sum nob (fun l => Sum nvb (fun d => Sum nob (fun m => Sum nvb (fun e => v_bbbb_ovov l d m e * t3_bbbbbb i l m a d e)))) in
  let dt1_bb : mat := fun i a => dt1_bb i a + Sum noa (fun k => Sum nva (fun c => Sum nob (fun m => Sum nvb (fun d => v_aabb_ovov k c m d * t3_babbab i k m a c d)))) in
  dt1_bb.
(** t_residual_uhf, block aaaa without T3*V, ccsdtq.py 182-225 *)
Definition uhf_dt2_aaaa (t1_aa t1_bb : mat) (t3_aaaaaa t3_abaaba t3_babbab t3_bbbbbb : ten6) (t4_aaaaaaaa t4_aaabaaab t4_abababab t4_abbbabbb t4_bbbbbbbb : ten8) (f_aa_ov f_bb_ov : mat) (v_aaaa_ovov v_aabb_ovov v_bbbb_ovov : ten) : ten :=
  let dt2_aaaa : ten := fun _ _ _ _ => 0 in
  let dt2_aaaa : ten := fun i j a b => dt2_aaaa i j a b + Sum noa (fun l => Sum nva (fun d => Sum nob (fun k => Sum nvb (fun c => v_aabb_ovov l d k c * t4_aaabaaab i j l k a b d c)))) in
  let dt2_aaaa : ten := fun i j a b => dt2_aaaa i j a b + half * Sum nob (fun k => Sum nvb (fun c => Sum nob (fun m => Sum nvb (fun e => v_bbbb_ovov k c m e * t4_abababab i k j m a c b e)))) in
  let dt2_aaaa : ten := fun i j a b => dt2_aaaa i j a b + - (half * Sum noa (fun l => Sum nva (fun f => Sum noa (fun n => Sum nva (fun d => v_aaaa_ovov l f n d * t4_aaaaaaaa i j l n a b d f))))) in
  let x0 : ten := fun _ _ _ _ => 0 in
  let x0 : ten := fun i a j k => x0 i a j k + Sum nva (fun b => t1_aa j b * v_aabb_ovov k b i a) in
  let x1 : ten := fun _ _ _ _ => 0 in
  let x1 : ten := fun i j a b => x1 i j a b + Sum nob (fun k => Sum nvb (fun c => Sum noa (fun l => x0 k c i l * t3_abaaba j k l a c b))) in
  let x2 : ten := fun _ _ _ _ => 0 in
  let x2 : ten := fun i j k a => x2 i j k a + Sum nva (fun b => t1_aa i b * v_aaaa_ovov j a k b) in
  let x3 : ten := fun _ _ _ _ => 0 in
  let x3 : ten := fun i j a b => x3 i j a b + - (Sum noa (fun k => Sum noa (fun l => Sum nva (fun c => x2 i k l c * t3_aaaaaa j k l a b c)))) in
  let x4 : ten := fun _ _ _ _ => 0 in
  let x4 : ten := fun i j a b => x4 i j a b + - (x1 i j b a) in
  let x4 : ten := fun i j a b => x4 i j a b + - (x3 i j b a) in
  let dt2_aaaa : ten := fun i j a b => dt2_aaaa i j a b + x4 i j a b in
  let dt2_aaaa : ten := fun i j a b => dt2_aaaa i j a b + - (x4 j i a b) in
  let x5 : ten := fun _ _ _ _ => 0 in
  let x5 : ten := fun i j k a => x5 i j k a + Sum nva (fun c => Sum nob (fun l => Sum nvb (fun b => v_aabb_ovov k c l b * t3_abaaba i l j a b c))) in
  let x6 : ten := fun _ _ _ _ => 0 in
  let x6 : ten := fun i j k a => x6 i j k a + - (Sum nva (fun c => Sum noa (fun l => Sum nva (fun b => v_aaaa_ovov k c l b * t3_aaaaaa i j l a b c)))) in
  let x7 : ten := fun _ _ _ _ => 0 in
  let x7 : ten := fun i j k a => x7 i j k a + x5 i j k a in
  let x7 : ten := fun i j k a => x7 i j k a + x6 i j k a in
  let x8 : ten := fun _ _ _ _ => 0 in
  let x8 : ten := fun i j a b => x8 i j a b + Sum noa (fun k => t1_aa k a * x7 i j k b) in
  let dt2_aaaa : ten := fun i j a b => dt2_aaaa i j a b + x8 i j a b in
  let dt2_aaaa : ten := fun i j a b => dt2_aaaa i j a b + - (x8 i j b a) in
  let x9 : ten := fun _ _ _ _ => 0 in
  let x9 : ten := fun i j a b => x9 i j a b + v_aaaa_ovov i b j a in
  let x9 : ten := fun i j a b => x9 i j a b + - (v_aaaa_ovov i a j b) in
  let x10 : mat := fun _ _ => 0 in
  let x10 : mat := fun i a => x10 i a + f_aa_ov i a in
  let x10 : mat := fun i a => x10 i a + Sum nob (fun j => Sum nvb (fun b => t1_bb j b * v_aabb_ovov i a j b)) in
  let x10 : mat := fun i a => x10 i a + - (Sum noa (fun k => Sum nva (fun c => t1_aa k c * x9 k i c a))) in
  let dt2_aaaa : ten := fun i j a b => dt2_aaaa i j a b + Sum noa (fun l => Sum nva (fun d => x10 l d * t3_aaaaaa i j l a b d)) in
  let x11 : ten := fun _ _ _ _ => 0 in
  let x11 : ten := fun i j a b => x11 i j a b + v_bbbb_ovov i b j a in
  let x11 : ten := fun i j a b => x11 i j a b + - (v_bbbb_ovov i a j b) in
  let x12 : mat := fun _ _ => 0 in
  let x12 : mat := fun i a => x12 i a + f_bb_ov i a in
  let x12 : mat := fun i a => x12 i a + Sum noa (fun j => Sum nva (fun b => t1_aa j b * v_aabb_ovov j b i a)) in
  let x12 : mat := fun i a => x12 i a + - (Sum nob (fun k => Sum nvb (fun c => t1_bb k c * x11 k i c a))) in
  let dt2_aaaa : ten := fun i j a b => dt2_aaaa i j a b + Sum nob (fun k => Sum nvb (fun c => x12 k c * t3_abaaba i k j a c b)) in
  dt2_aaaa.
(** t_residual_uhf, block bbbb without T3*V, ccsdtq.py 226-269 *)
Definition uhf_dt2_bbbb (t1_aa t1_bb : mat) (t3_aaaaaa t3_abaaba t3_babbab t3_bbbbbb : ten6) (t4_aaaaaaaa t4_aaabaaab t4_abababab t4_abbbabbb t4_bbbbbbbb : ten8) (f_aa_ov f_bb_ov : mat) (v_aaaa_ovov v_aabb_ovov v_bbbb_ovov : ten) : ten :=
  let dt2_bbbb : ten := fun _ _ _ _ => 0 in
  let dt2_bbbb : ten := fun i j a b => dt2_bbbb i j a b + half * Sum nob (fun k => Sum nvb (fun c => Sum nob (fun l => Sum nvb (fun d => v_bbbb_ovov k c l d * t4_bbbbbbbb i j k l a b c d)))) in
  let dt2_bbbb : ten := fun i j a b => dt2_bbbb i j a b + Sum noa (fun m => Sum nva (fun e => Sum nob (fun l => Sum nvb (fun c => v_aabb_ovov m e l c * t4_abbbabbb m i j l e a b c)))) in
  let dt2_bbbb : ten := fun i j a b => dt2_bbbb i j a b + half * Sum noa (fun m => Sum nva (fun e => Sum noa (fun n => Sum nva (fun f => v_aaaa_ovov m e n f * t4_abababab m i n j e a f b)))) in
  let x0 : ten := fun _ _ _ _ => 0 in
  let x0 : ten := fun i j k a => x0 i j k a + Sum nvb (fun b => t1_bb i b * v_bbbb_ovov j a k b) in
  let x1 : ten := fun _ _ _ _ => 0 in
  let x1 : ten := fun i j a b => x1 i j a b + - (Sum nob (fun k => Sum nob (fun l => Sum nvb (fun c => x0 i k l c * t3_bbbbbb j k l a b c)))) in
  let x2 : ten := fun _ _ _ _ => 0 in
  let x2 : ten := fun i j k a => x2 i j k a + Sum nvb (fun b => t1_bb i b * v_aabb_ovov k a j b) in
  let x3 : ten := fun _ _ _ _ => 0 in
  let x3 : ten := fun i j a b => x3 i j a b + Sum nob (fun k => Sum noa (fun l => Sum nva (fun c => x2 i k l c * t3_babbab j l k a c b))) in
  let x4 : ten := fun _ _ _ _ => 0 in
  let x4 : ten := fun i j a b => x4 i j a b + - (x1 i j b a) in
  let x4 : ten := fun i j a b => x4 i j a b + - (x3 i j b a) in
  let dt2_bbbb : ten := fun i j a b => dt2_bbbb i j a b + x4 i j a b in
  let dt2_bbbb : ten := fun i j a b => dt2_bbbb i j a b + - (x4 j i a b) in
  let x5 : ten := fun _ _ _ _ => 0 in
  let x5 : ten := fun i j k a => x5 i j k a + - (Sum nvb (fun c => Sum nob (fun l => Sum nvb (fun b => v_bbbb_ovov k c l b * t3_bbbbbb i j l a b c)))) in
  let x6 : ten := fun _ _ _ _ => 0 in
  let x6 : ten := fun i j k a => x6 i j k a + Sum noa (fun l => Sum nva (fun c => Sum nvb (fun b => v_aabb_ovov l c k b * t3_babbab i l j a c b))) in
  let x7 : ten := fun _ _ _ _ => 0 in
  let x7 : ten := fun i j k a => x7 i j k a + x5 i j k a in
  let x7 : ten := fun i j k a => x7 i j k a + x6 i j k a in
  let x8 : ten := fun _ _ _ _ => 0 in
  let x8 : ten := fun i j a b => x8 i j a b + Sum nob (fun k => t1_bb k a * x7 i j k b) in
  let dt2_bbbb : ten := fun i j a b => dt2_bbbb i j a b + x8 i j a b in
  let dt2_bbbb : ten := fun i j a b => dt2_bbbb i j a b + - (x8 i j b a) in
  let x9 : ten := fun _ _ _ _ => 0 in
  let x9 : ten := fun i j a b => x9 i j a b + v_bbbb_ovov i b j a in
  let x9 : ten := fun i j a b => x9 i j a b + - (v_bbbb_ovov i a j b) in
  let x10 : mat := fun _ _ => 0 in
  let x10 : mat := fun i a => x10 i a + f_bb_ov i a in
  let x10 : mat := fun i a => x10 i a + Sum noa (fun j => Sum nva (fun b => t1_aa j b * v_aabb_ovov j b i a)) in
  let x10 : mat := fun i a => x10 i a + - (Sum nob (fun k => Sum nvb (fun c => t1_bb k c * x9 k i c a))) in
  let dt2_bbbb : ten := fun i j a b => dt2_bbbb i j a b + Sum nob (fun l => Sum nvb (fun c => x10 l c * t3_bbbbbb i j l a b c)) in
  let x11 : ten := fun _ _ _ _ => 0 in
  let x11 : ten := fun i j a b => x11 i j a b + v_aaaa_ovov i b j a in
  let x11 : ten := fun i j a b => x11 i j a b + - (v_aaaa_ovov i a j b) in
  let x12 : mat := fun _ _ => 0 in
  let x12 : mat := fun i a => x12 i a + f_aa_ov i a in
  let x12 : mat := fun i a => x12 i a + Sum nob (fun j => Sum nvb (fun b => t1_bb j b * v_aabb_ovov i a j b)) in
  let x12 : mat := fun i a => x12 i a + - (Sum noa (fun k => Sum nva (fun c => t1_aa k c * x11 k i c a))) in
  let dt2_bbbb : ten := fun i j a b => dt2_bbbb i j a b + Sum noa (fun m => Sum nva (fun e => x12 m e * t3_babbab i m j a e b)) in
  dt2_bbbb.
(** t_residual_uhf, block abab without T3*V, ccsdtq.py 270-309 *)
Definition uhf_dt2_abab (t1_aa t1_bb : mat) (t3_aaaaaa t3_abaaba t3_babbab t3_bbbbbb : ten6) (t4_aaaaaaaa t4_aaabaaab t4_abababab t4_abbbabbb t4_bbbbbbbb : ten8) (f_aa_ov f_bb_ov : mat) (v_aaaa_ovov v_aabb_ovov v_bbbb_ovov : ten) : ten :=
  let dt2_abab : ten := fun _ _ _ _ => 0 in
  let dt2_abab : ten := fun i j a b => dt2_abab i j a b + half * Sum noa (fun k => Sum nva (fun c => Sum noa (fun l => Sum nva (fun d => v_aaaa_ovov k c l d * t4_aaabaaab i k l j a c d b)))) in
  let dt2_abab : ten := fun i j a b => dt2_abab i j a b + Sum noa (fun l => Sum nva (fun d => Sum nob (fun m => Sum nvb (fun e => v_aabb_ovov l d m e * t4_abababab i j l m a b d e)))) in
  let dt2_abab : ten := fun i j a b => dt2_abab i j a b + - (half * Sum nob (fun m => Sum nvb (fun f => Sum nob (fun n => Sum nvb (fun e => v_bbbb_ovov m f n e * t4_abbbabbb i j m n a b e f))))) in
  let x0 : ten := fun _ _ _ _ => 0 in
  let x0 : ten := fun i j k a => x0 i j k a + Sum nva (fun b => t1_aa i b * v_aaaa_ovov j a k b) in
  let dt2_abab : ten := fun i j a b => dt2_abab i j a b + Sum noa (fun k => Sum noa (fun l => Sum nva (fun d => x0 i k l d * t3_abaaba k j l a b d))) in
  let x1 : ten := fun _ _ _ _ => 0 in
  let x1 : ten := fun i j k a => x1 i j k a + Sum nvb (fun b => t1_bb i b * v_aabb_ovov k a j b) in
  let dt2_abab : ten := fun i j a b => dt2_abab i j a b + - (Sum nob (fun m => Sum noa (fun l => Sum nva (fun d => x1 j m l d * t3_abaaba i m l a b d)))) in
  let x2 : ten := fun _ _ _ _ => 0 in
  let x2 : ten := fun i a j k => x2 i a j k + Sum nva (fun b => t1_aa j b * v_aabb_ovov k b i a) in
  let dt2_abab : ten := fun i j a b => dt2_abab i j a b + - (Sum nob (fun m => Sum nvb (fun e => Sum noa (fun l => x2 m e i l * t3_babbab j l m b a e)))) in
  let x3 : ten := fun _ _ _ _ => 0 in
  let x3 : ten := fun i j k a => x3 i j k a + Sum nvb (fun b => t1_bb i b * v_bbbb_ovov j a k b) in
  let dt2_abab : ten := fun i j a b => dt2_abab i j a b + Sum nob (fun m => Sum nob (fun n => Sum nvb (fun e => x3 j m n e * t3_babbab m i n b a e))) in
  let x4 : ten := fun _ _ _ _ => 0 in
  let x4 : ten := fun i j a b => x4 i j a b + v_bbbb_ovov i b j a in
  let x4 : ten := fun i j a b => x4 i j a b + - (v_bbbb_ovov i a j b) in
  let x5 : mat := fun _ _ => 0 in
  let x5 : mat := fun i a => x5 i a + f_bb_ov i a in
  let x5 : mat := fun i a => x5 i a + Sum noa (fun j => Sum nva (fun b => t1_aa j b * v_aabb_ovov j b i a)) in
  let x5 : mat := fun i a => x5 i a + - (Sum nob (fun k => Sum nvb (fun c => t1_bb k c * x4 k i c a))) in
  let dt2_abab : ten := fun i j a b => dt2_abab i j a b + Sum nob (fun m => Sum nvb (fun e => x5 m e * t3_babbab j i m b a e)) in
  let x6 : ten := fun _ _ _ _ => 0 in
  let x6 : ten := fun i j a b => x6 i j a b + v_aaaa_ovov i b j a in
  let x6 : ten := fun i j a b => x6 i j a b + - (v_aaaa_ovov i a j b) in
  let x7 : mat := fun _ _ => 0 in
  let x7 : mat := fun i a => x7 i a + f_aa_ov i a in
  let x7 : mat := fun i a => x7 i a + Sum nob (fun j => Sum nvb (fun b => t1_bb j b * v_aabb_ovov i a j b)) in
  let x7 : mat := fun i a => x7 i a + - (Sum noa (fun k => Sum nva (fun c => t1_aa k c * x6 k i c a))) in
  let dt2_abab : ten := fun i j a b => dt2_abab i j a b + Sum noa (fun l => Sum nva (fun d => x7 l d * t3_abaaba i j l a b d)) in
  let x8 : ten := fun _ _ _ _ => 0 in
  let x8 : ten := fun i a j k => x8 i a j k + Sum nva (fun c => Sum nob (fun l => Sum nvb (fun b => v_aabb_ovov k c l b * t3_babbab i j l a c b))) in
  let x8 : ten := fun i a j k => x8 i a j k + Sum nva (fun c => Sum noa (fun m => Sum nva (fun d => v_aaaa_ovov k c m d * t3_abaaba j i m c a d))) in
  let dt2_abab : ten := fun i j a b => dt2_abab i j a b + - (Sum noa (fun l => t1_aa l a * x8 j b i l)) in
  let x9 : ten := fun _ _ _ _ => 0 in
  let x9 : ten := fun i j k a => x9 i j k a + - (Sum nvb (fun c => Sum nob (fun l => Sum nvb (fun b => v_bbbb_ovov j c l b * t3_babbab i k l b a c)))) in
  let x9 : ten := fun i j k a => x9 i j k a + Sum noa (fun m => Sum nva (fun d => Sum nvb (fun c => v_aabb_ovov m d j c * t3_abaaba k i m a c d))) in
  let dt2_abab : ten := fun i j a b => dt2_abab i j a b + - (Sum nob (fun m => t1_bb m b * x9 j m i a)) in
  dt2_abab.
(** _integrals_for_extcorr, unrestricted, coupling.py 283-296: slices of eris = (aa, ab, bb) *)
Definition uslice (n1 n2 n3 n4 : nat) (e : ten) : ten := fun p q r s => e (n1 + p)%nat (n2 + q)%nat (n3 + r)%nat (n4 + s)%nat.
(** t_residual_uhf, ccsdtq.py 158-320, called with the integrals of _integrals_for_extcorr as in _get_delta_t_for_extcorr, coupling.py 346-350 *)
Definition uhf_residual (t1 : mat * mat) (t3 : ten6 * ten6 * ten6 * ten6) (t4 : ten8 * ten8 * ten8 * ten8 * ten8) (f : mat * mat) (eris : ten * ten * ten)
  (include_t3v : bool) : (mat * mat) * (ten * ten * ten) :=
  let '(t1a, t1b) := t1 in let '(taaa, taba, tbab, tbbb) := t3 in let '(taaaa, taaab, tabab, tabbb, tbbbb) := t4 in let '(fa, fb) := f in let '(eaa, eab, ebb) := eris in
  let vovov_aa := uslice 0 noa 0 noa eaa in let vovov_ab := uslice 0 noa 0 nob eab in let vovov_bb := uslice 0 nob 0 nob ebb in
  let vooov_aa := uslice 0 0 0 noa eaa in let vooov_ab := uslice 0 0 0 nob eab in let vooov_bb := uslice 0 0 0 nob ebb in
  let vovvv_aa := uslice 0 noa noa noa eaa in let vovvv_ab := uslice 0 noa nob nob eab in let vovvv_bb := uslice 0 nob nob nob ebb in
  let vvvov_ab := uslice noa noa 0 nob eab in let vovoo_ab := uslice 0 noa 0 0 eab in
  let dt1 := (uhf_dt1_aa taaa taba tbab tbbb vovov_aa vovov_ab vovov_bb, uhf_dt1_bb taaa taba tbab tbbb vovov_aa vovov_ab vovov_bb) in
  let d_aa := uhf_dt2_aaaa t1a t1b taaa taba tbab tbbb taaaa taaab tabab tabbb tbbbb fa fb vovov_aa vovov_ab vovov_bb in
  let d_ab := uhf_dt2_abab t1a t1b taaa taba tbab tbbb taaaa taaab tabab tabbb tbbbb fa fb vovov_aa vovov_ab vovov_bb in
  let d_bb := uhf_dt2_bbbb t1a t1b taaa taba tbab tbbb taaaa taaab tabab tabbb tbbbb fa fb vovov_aa vovov_ab vovov_bb in
  (dt1, if include_t3v then
    ((fun i j a b => d_aa i j a b + uhf_t3v_aaaa taaa taba tbab tbbb vooov_aa vooov_ab vooov_bb vovvv_aa vovvv_ab vovvv_bb vvvov_ab vovoo_ab i j a b),
     (fun i j a b => d_ab i j a b + uhf_t3v_abab taaa taba tbab tbbb vooov_aa vooov_ab vooov_bb vovvv_aa vovvv_ab vovvv_bb vvvov_ab vovoo_ab i j a b),
     (fun i j a b => d_bb i j a b + uhf_t3v_bbbb taaa taba tbab tbbb vooov_aa vooov_ab vooov_bb vovvv_aa vovvv_ab vovvv_bb vvvov_ab vovoo_ab i j a b))
   else (d_aa, d_ab, d_bb)).
End UHF.

(** ** Transformation and projection of amplitudes *)
(** transform_amplitude of T1 and T2, coupling.py 24-29: t has n1 x n2 (n1 x n1' x n2 x n2') entries *)
Definition trans1 (n1 n2 : nat) (t u v : mat) : mat := fun x y => Sum n1 (fun i => Sum n2 (fun a => t i a * u i x * v a y)).
Definition trans2 (n1 n1' n2 n2' : nat) (t : ten) (u u' v v' : mat) : ten :=
  fun x y z w => Sum n1 (fun i => Sum n1' (fun j => Sum n2 (fun a => Sum n2' (fun b => t i j a b * u i x * u' j y * v a z * v' b w)))).
(** spinalg.T, core/spinalg.py 64-70 *)
Definition tr (u : mat) : mat := fun i j => u j i.
(** spinalg.dot(proj, t1), coupling.py 625 *)
Definition pdot (n : nat) (p t : mat) : mat := fun x a => Sum n (fun i => p x i * t i a).
(** spinalg.dot(spinalg.T(proj), proj), coupling.py 624: proj has nf x n entries *)
Definition gram (nf : nat) (p : mat) : mat := fun i j => Sum nf (fun x => p x i * p x j).
(** project_t2_rspin, coupling.py 64-72 *)
Definition project_r (n : nat) (t : ten) (p : mat) (projectors : nat) : result ten :=
  match projectors with
  | O => Ret t
  | 1 => let t := fun x j a b => Sum n (fun i => p x i * t i j a b) in Ret (fun i j a b => half * (t i j a b + t j i b a))
  | 2 => Ret (fun x y a b => Sum n (fun i => Sum n (fun j => p x i * p y j * t i j a b)))
  | _ => ValueErr
  end.
(** project_t2_uspin, coupling.py 75-88 *)
Definition project_u (na nb : nat) (t : ten * ten * ten) (p : mat * mat) (projectors : nat) : result (ten * ten * ten) :=
  let '(taa, tab, tbb) := t in let '(pa, pb) := p in
  match projectors with
  | O => Ret t
  | _ => rbind (project_r na taa pa projectors) (fun aa => rbind (project_r nb tbb pb projectors) (fun bb =>
    match projectors with
    | 1 => Ret (aa, (fun x y a b => half * (Sum na (fun i => pa x i * tab i y a b) + Sum nb (fun j => pb y j * tab x j a b))), bb)
    | 2 => Ret (aa, (fun x y a b => Sum na (fun i => Sum nb (fun j => pa x i * pb y j * tab i j a b))), bb)
    | _ => ValueErr
    end))
  end.

(** ** T3*V with the integrals of the corrected cluster *)
(** _get_delta_t2_from_t3v, restricted, before the projection, coupling.py 386-412: xo, xv orbitals of the corrected cluster, no, nv of the correcting one *)
Definition r_low_t3v (xo xv no nv : nat) (gvvov_x gooov_x govoo_x : ten) (t3 : ten6) (ro rv : mat) : ten :=
  let gvvov_ : ten := fun a B I C => Sum xv (fun b => Sum xo (fun i => Sum xv (fun c => gvvov_x a b i c * rv b B * ro i I * rv c C))) in
  let t3v_ : ten := fun i j a b => half * Sum nv (fun e => Sum no (fun m => Sum nv (fun f => (gvvov_ b e m f - gvvov_ b f m e) * t3 j i m e a f))) in
  let t3v_ : ten := fun i j a b => t3v_ i j a b + Sum nv (fun e => Sum no (fun m => Sum nv (fun f => gvvov_ b e m f * t3 i j m a e f))) in
  let t3v_x : ten := fun i j a b => Sum no (fun I => Sum no (fun J => Sum nv (fun A => t3v_ I J A b * ro i I * ro j J * rv a A))) in
  let gooov_ : ten := fun I j K A => Sum xo (fun i => Sum xo (fun k => Sum xv (fun a => gooov_x i j k a * ro i I * ro k K * rv a A))) in
  let govoo_ : ten := fun I A J k => Sum xo (fun i => Sum xv (fun a => Sum xo (fun j => govoo_x i a j k * ro i I * rv a A * ro j J))) in
  let t3v_ : ten := fun i j a b => - (half * Sum no (fun m => Sum no (fun n => Sum nv (fun e => (gooov_ m j n e - govoo_ m e n j) * t3 m i n b a e)))) in
  let t3v_ : ten := fun i j a b => t3v_ i j a b - Sum no (fun m => Sum no (fun n => Sum nv (fun e => gooov_ m j n e * t3 i m n a b e))) in
  let t3v_x : ten := fun i j a b => t3v_x i j a b + Sum no (fun I => Sum nv (fun A => Sum nv (fun B => t3v_ I j A B * ro i I * rv a A * rv b B))) in
  fun i j a b => t3v_x i j a b + t3v_x j i b a.
Section ULow.
Variables xoa xob xva xvb noa nob nva nvb : nat.
(** _get_delta_t2_from_t3v, unrestricted block aaaa before the projection, coupling.py 422-436 and 438-452 *)
Definition u_low_t3v_aaaa (govvv_aaaa govvv_aabb govvv_bbbb gvvov_aabb gooov_aaaa gooov_aabb gooov_bbbb govoo_aabb : ten) (t3_aaa t3_aba t3_bab t3_bbb : ten6) (roa rob rva rvb : mat) : ten :=
  let govvv_aaaa_ : ten := fun I A b C => Sum xoa (fun i => Sum xva (fun a => Sum xva (fun c => govvv_aaaa i a b c * roa i I * rva a A * rva c C))) in
  let gvvov_aabb_ : ten := fun a B I C => Sum xva (fun b => Sum xob (fun i => Sum xvb (fun c => gvvov_aabb a b i c * rva b B * rob i I * rvb c C))) in
  let gooov_aaaa_ : ten := fun i J K A => Sum xoa (fun j => Sum xoa (fun k => Sum xva (fun a => gooov_aaaa i j k a * roa j J * roa k K * rva a A))) in
  let gooov_aabb_ : ten := fun i J K A => Sum xoa (fun j => Sum xob (fun k => Sum xvb (fun a => gooov_aabb i j k a * roa j J * rob k K * rvb a A))) in
  let x0 : ten := fun i J a b => Sum noa (fun l => Sum nob (fun k => Sum nvb (fun c => gooov_aabb_ J l k c * t3_aba i k l a c b))) in
  let x1 : ten := fun i J a b => - (Sum noa (fun l => Sum noa (fun k => Sum nva (fun c => gooov_aaaa_ J l k c * t3_aaa i k l a b c)))) in
  let x2 : ten := fun i J a b => - (x0 i J b a) in
  let x2 : ten := fun i J a b => x2 i J a b + - (x1 i J b a) in
  let x2 : ten := fun I J A B => Sum noa (fun i => Sum nva (fun a => Sum nva (fun b => x2 i J a b * roa I i * rva A a * rva B b))) in
  let dt2_aaaa : ten := fun i j a b => - (x2 i j a b) in
  let dt2_aaaa : ten := fun i j a b => dt2_aaaa i j a b + x2 j i a b in
  let x0 : ten := fun i j a B => Sum nva (fun d => Sum nob (fun k => Sum nvb (fun c => gvvov_aabb_ B d k c * t3_aba i k j a c d))) in
  let x1 : ten := fun i j a B => Sum noa (fun k => Sum nva (fun c => Sum nva (fun d => govvv_aaaa_ k c B d * t3_aaa i j k a c d))) in
  let x2 : ten := fun i j a B => x0 i j a B in
  let x2 : ten := fun i j a B => x2 i j a B + - (x1 i j a B) in
  let x2 : ten := fun I J A B => Sum noa (fun i => Sum noa (fun j => Sum nva (fun a => x2 i j a B * roa I i * roa J j * rva A a))) in
  let dt2_aaaa : ten := fun i j a b => dt2_aaaa i j a b + x2 i j a b in
  let dt2_aaaa : ten := fun i j a b => dt2_aaaa i j a b + - (x2 i j b a) in
  dt2_aaaa.
(** _get_delta_t2_from_t3v, unrestricted block abab before the projection, coupling.py 422-436 and 470-484 *)
Definition u_low_t3v_abab (govvv_aaaa govvv_aabb govvv_bbbb gvvov_aabb gooov_aaaa gooov_aabb gooov_bbbb govoo_aabb : ten) (t3_aaa t3_aba t3_bab t3_bbb : ten6) (roa rob rva rvb : mat) : ten :=
  let govvv_aaaa_ : ten := fun I A b C => Sum xoa (fun i => Sum xva (fun a => Sum xva (fun c => govvv_aaaa i a b c * roa i I * rva a A * rva c C))) in
  let govvv_aabb_ : ten := fun I A b C => Sum xoa (fun i => Sum xva (fun a => Sum xvb (fun c => govvv_aabb i a b c * roa i I * rva a A * rvb c C))) in
  let govvv_bbbb_ : ten := fun I A b C => Sum xob (fun i => Sum xvb (fun a => Sum xvb (fun c => govvv_bbbb i a b c * rob i I * rvb a A * rvb c C))) in
  let gvvov_aabb_ : ten := fun a B I C => Sum xva (fun b => Sum xob (fun i => Sum xvb (fun c => gvvov_aabb a b i c * rva b B * rob i I * rvb c C))) in
  let gooov_aaaa_ : ten := fun i J K A => Sum xoa (fun j => Sum xoa (fun k => Sum xva (fun a => gooov_aaaa i j k a * roa j J * roa k K * rva a A))) in
  let gooov_aabb_ : ten := fun i J K A => Sum xoa (fun j => Sum xob (fun k => Sum xvb (fun a => gooov_aabb i j k a * roa j J * rob k K * rvb a A))) in
  let gooov_bbbb_ : ten := fun i J K A => Sum xob (fun j => Sum xob (fun k => Sum xvb (fun a => gooov_bbbb i j k a * rob j J * rob k K * rvb a A))) in
  let govoo_aabb_ : ten := fun I A j K => Sum xoa (fun i => Sum xva (fun a => Sum xob (fun k => govoo_aabb i a j k * roa i I * rva a A * rob k K))) in
  let x0 : ten := fun I j a b => - (Sum noa (fun l => Sum nob (fun k => Sum nvb (fun c => gooov_aabb_ I l k c * t3_bab j l k b a c)))) in
  let x0 : ten := fun I j a b => x0 I j a b + - (Sum noa (fun l => Sum noa (fun m => Sum nva (fun d => gooov_aaaa_ I l m d * t3_aba l j m a b d)))) in
  let dt2_abab : ten := fun I J A B => Sum nob (fun j => Sum nva (fun a => Sum nvb (fun b => x0 I j a b * rob J j * rva A a * rvb B b))) in
  let x0 : ten := fun i J a b => Sum nob (fun n => Sum nob (fun k => Sum nvb (fun c => gooov_bbbb_ J n k c * t3_bab k i n b a c))) in
  let x0 : ten := fun i J a b => x0 i J a b + - (Sum noa (fun l => Sum nva (fun d => Sum nob (fun k => govoo_aabb_ l d J k * t3_aba i k l a b d)))) in
  let dt2_abab : ten := fun I J A B => dt2_abab I J A B + Sum noa (fun i => Sum nva (fun a => Sum nvb (fun b => x0 i J a b * roa I i * rva A a * rvb B b))) in
  let x0 : ten := fun i j A b => - (Sum noa (fun l => Sum nva (fun d => Sum nva (fun e => govvv_aaaa_ l d A e * t3_aba i j l d b e)))) in
  let x0 : ten := fun i j A b => x0 i j A b + Sum nva (fun d => Sum nob (fun k => Sum nvb (fun c => gvvov_aabb_ A d k c * t3_bab j i k b d c))) in
  let dt2_abab : ten := fun I J A B => dt2_abab I J A B + Sum noa (fun i => Sum nob (fun j => Sum nvb (fun b => x0 i j A b * roa I i * rob J j * rvb B b))) in
  let x0 : ten := fun i j a B => Sum noa (fun l => Sum nva (fun d => Sum nvb (fun c => govvv_aabb_ l d B c * t3_aba i j l a c d))) in
  let x0 : ten := fun i j a B => x0 i j a B + - (Sum nob (fun k => Sum nvb (fun c => Sum nvb (fun f => govvv_bbbb_ k c B f * t3_bab j i k c a f)))) in
  let dt2_abab : ten := fun I J A B => dt2_abab I J A B + Sum noa (fun i => Sum nob (fun j => Sum nva (fun a => x0 i j a B * roa I i * rob J j * rva A a))) in
  dt2_abab.
(** _get_delta_t2_from_t3v, unrestricted block bbbb before the projection, coupling.py 422-436 and 454-468 *)
Definition u_low_t3v_bbbb (govvv_aaaa govvv_aabb govvv_bbbb gvvov_aabb gooov_aaaa gooov_aabb gooov_bbbb govoo_aabb : ten) (t3_aaa t3_aba t3_bab t3_bbb : ten6) (roa rob rva rvb : mat) : ten :=
  let govvv_aabb_ : ten := fun I A b C => Sum xoa (fun i => Sum xva (fun a => Sum xvb (fun c => govvv_aabb i a b c * roa i I * rva a A * rvb c C))) in
  let govvv_bbbb_ : ten := fun I A b C => Sum xob (fun i => Sum xvb (fun a => Sum xvb (fun c => govvv_bbbb i a b c * rob i I * rvb a A * rvb c C))) in
  let gooov_bbbb_ : ten := fun i J K A => Sum xob (fun j => Sum xob (fun k => Sum xvb (fun a => gooov_bbbb i j k a * rob j J * rob k K * rvb a A))) in
  let govoo_aabb_ : ten := fun I A j K => Sum xoa (fun i => Sum xva (fun a => Sum xob (fun k => govoo_aabb i a j k * roa i I * rva a A * rob k K))) in
  let x0 : ten := fun i J a b => Sum nob (fun k => Sum nob (fun l => Sum nvb (fun c => gooov_bbbb_ J k l c * t3_bbb i k l a b c))) in
  let x1 : ten := fun i J a b => Sum noa (fun l => Sum nva (fun c => Sum nob (fun k => govoo_aabb_ l c J k * t3_bab i l k a c b))) in
  let x2 : ten := fun i J a b => - (x0 i J b a) in
  let x2 : ten := fun i J a b => x2 i J a b + - (x1 i J b a) in
  let x2 : ten := fun I J A B => Sum nob (fun i => Sum nvb (fun a => Sum nvb (fun b => x2 i J a b * rob I i * rvb A a * rvb B b))) in
  let dt2_bbbb : ten := fun i j a b => - (x2 i j a b) in
  let dt2_bbbb : ten := fun i j a b => dt2_bbbb i j a b + x2 j i a b in
  let x0 : ten := fun i j a B => - (Sum nob (fun k => Sum nvb (fun d => Sum nvb (fun c => govvv_bbbb_ k d B c * t3_bbb i j k a c d)))) in
  let x1 : ten := fun i j a B => Sum noa (fun k => Sum nva (fun d => Sum nvb (fun c => govvv_aabb_ k d B c * t3_bab i k j a d c))) in
  let x2 : ten := fun i j a B => x0 i j a B in
  let x2 : ten := fun i j a B => x2 i j a B + - (x1 i j a B) in
  let x2 : ten := fun I J A B => Sum nob (fun i => Sum nob (fun j => Sum nvb (fun a => x2 i j a B * rob I i * rob J j * rvb A a))) in
  let dt2_bbbb : ten := fun i j a b => dt2_bbbb i j a b + - (x2 i j a b) in
  let dt2_bbbb : ten := fun i j a b => dt2_bbbb i j a b + x2 i j b a in
  dt2_bbbb.
End ULow.
End ExtCorr.

(** ** externally_correct *)
(** the second entry of an external correction, coupling.py 609-617 *)
Inductive ctype := External | DeltaTailor | OtherType.
Section Callback.
Context {F : cfield}.
Notation mat := (nat -> nat -> F).
Notation ten := (nat -> nat -> nat -> nat -> F).
Variable half : F.

(** The corrected cluster x, as read by externally_correct: coupling.py 542-558 (sizes and mo_energy), 579-590 (bare integrals from the Hamiltonian), 593-595 *)
Record rclusterx := { x_id : nat; x_no : nat; x_nv : nat; x_mo : nat -> F; x_eris : ten }.
(** A correcting fragment y, as read at 605-643: sizes, overlaps of the orbitals of x and y (629-630), (frag|cluster-occ) of y (623), overlap of the fragment orbitals with
    the occupied orbitals of x (492), amplitudes of its wave function, Fock matrix and screened integrals of its cluster (271-281), and the amplitudes t1, t2
    of a CCSD calculation in the same cluster (506-510) *)
Record rfrag := { y_id : nat; y_no : nat; y_nv : nat; y_nf : nat; y_ro : mat; y_rv : mat; y_fo : mat; y_fx : mat; y_wf : @rccsdtq F; y_fov : mat; y_eris : ten; y_ccsd : mat * ten }.
(** one correction: fragment, type, number of projectors, low_level_coul, coupling.py 605 *)
Definition rcorr := (rfrag * ctype * nat * bool)%type.
(** spinalg.add, core/spinalg.py 100, for T1 and T2 *)
Definition add1 (a b : mat) : mat := fun i j => a i j + b i j.
Definition add2 (a b : ten) : ten := fun i j k l => a i j k l + b i j k l.

(** the amplitudes added by one pass of the loop, coupling.py 605-643 *)
Definition r_contribution (x : rclusterx) (c : rcorr) : result (mat * ten) :=
  let '(y, ty, projectors, low) := c in
  if Nat.eqb (y_id y) (x_id x) then AssertErr else
  let w := y_wf y in let no := y_no y in let nv := y_nv y in
  let d := match ty with
    | External => Ret (rhf_residual half no nv (rt1 w) (rt3 w) (fst (rt4 w)) (snd (rt4 w)) (y_fov y) (y_eris y) (negb low))
    | DeltaTailor => Ret ((fun i a => rt1 w i a - fst (y_ccsd y) i a), (fun i j a b => rt2 w i j a b - snd (y_ccsd y) i j a b))
    | OtherType => ValueErr
    end in
  rbind d (fun d => let '(dt1, dt2) := d in
  let proj := gram (y_nf y) (y_fo y) in
  let dt1 := match projectors with O => dt1 | _ => pdot no proj dt1 end in
  rbind (project_r half no dt2 proj projectors) (fun dt2 =>
  let dt1 := trans1 no nv dt1 (tr (y_ro y)) (tr (y_rv y)) in
  let dt2 := trans2 no no nv nv dt2 (tr (y_ro y)) (tr (y_ro y)) (tr (y_rv y)) (tr (y_rv y)) in
  match ty, low with
  | External, true =>
      rbind (project_r half (x_no x)
        (r_low_t3v half (x_no x) (x_nv x) no nv (sl_vvov (x_no x) (x_eris x)) (sl_ooov (x_no x) (x_eris x)) (sl_ovoo (x_no x) (x_eris x)) (rt3 w) (y_ro y) (y_rv y))
        (gram (y_nf y) (y_fx y)) projectors) (fun low2 => Ret (dt1, add2 dt2 low2))
  | _, _ => Ret (dt1, dt2)
  end)).
(** the loop with the accumulators dt1, dt2, coupling.py 593-651; the last correction type stays bound to corrtype *)
Fixpoint r_loop (x : rclusterx) (l : list rcorr) (acc : mat * ten) (last : option ctype) : result ((mat * ten) * option ctype) :=
  match l with
  | [] => Ret (acc, last)
  | c :: l => rbind (r_contribution x c) (fun d => r_loop x l (add1 (fst acc) (fst d), add2 (snd acc) (snd d)) (Some (snd (fst (fst c)))))
  end.
(** the energy denominators, coupling.py 657-658 *)
Definition eia (no : nat) (mo : nat -> F) : mat := fun i a => mo i - mo (no + a)%nat.
Definition eijab (no : nat) (mo : nat -> F) : ten := fun i j a b => eia no mo i a + eia no mo j b.
(** the amplitudes the callback adds, coupling.py 653-660 *)
Definition r_externally_correct (x : rclusterx) (l : list rcorr) : result (mat * ten) :=
  rbind (r_loop x l ((fun _ _ => 0), (fun _ _ _ _ => 0)) None) (fun r =>
  let '((dt1, dt2), last) := r in
  match last with
  | None => UnboundErr
  | Some External => Ret ((fun i a => dt1 i a / eia (x_no x) (x_mo x) i a), (fun i j a b => dt2 i j a b / eijab (x_no x) (x_mo x) i j a b))
  | Some _ => Ret (dt1, dt2)
  end).
(** callback: t1[:] += dt1; t2[:] += dt2, coupling.py 667-671 *)
Definition r_callback (d t : mat * ten) : mat * ten := (add1 (fst t) (fst d), add2 (snd t) (snd d)).

(** ** The same for unrestricted spin symmetry *)
Notation mat2 := (mat * mat)%type. Notation ten3 := (ten * ten * ten)%type.
(** the corrected cluster and the correcting fragments, as above with a pair (alpha, beta) or a triple (aa, ab, bb) of everything *)
Record uclusterx := { ux_id : nat; ux_no : nat * nat; ux_nv : nat * nat; ux_mo : (nat -> F) * (nat -> F); ux_eris : ten3 }.
Record ufrag := { uy_id : nat; uy_no : nat * nat; uy_nv : nat * nat; uy_nf : nat * nat; uy_ro : mat2; uy_rv : mat2; uy_fo : mat2; uy_fx : mat2; uy_wf : @uccsdtq F; uy_fov : mat2;
  uy_eris : ten3; uy_ccsd : mat2 * ten3 }.
(** one correction, coupling.py 605 *)
Definition ucorr := (ufrag * ctype * nat * bool)%type.
(** spinalg.add of tuples, core/spinalg.py 78-100 *)
Definition add1u (a b : mat2) : mat2 := (add1 (fst a) (fst b), add1 (snd a) (snd b)).
Definition add2u (a b : ten3) : ten3 := (add2 (fst (fst a)) (fst (fst b)), add2 (snd (fst a)) (snd (fst b)), add2 (snd a) (snd b)).
(** spinalg.subtract, core/spinalg.py 101 *)
Definition sub1u (a b : mat2) : mat2 := ((fun i j => fst a i j - fst b i j), (fun i j => snd a i j - snd b i j)).
Definition sub2u (a b : ten3) : ten3 :=
  ((fun i j k l => fst (fst a) i j k l - fst (fst b) i j k l), (fun i j k l => snd (fst a) i j k l - snd (fst b) i j k l), (fun i j k l => snd a i j k l - snd b i j k l)).
(** spinalg.dot(spinalg.T(proj), proj) of tuples, coupling.py 624 *)
Definition gram2 (nf : nat * nat) (p : mat2) : mat2 := (gram (fst nf) (fst p), gram (snd nf) (snd p)).
(** transform_amplitude with inverse=True for tuples, coupling.py 16-20 and 30-39 *)
Definition trans1u (n1 n2 : nat * nat) (t : mat2) (u v : mat2) : mat2 :=
  (trans1 (fst n1) (fst n2) (fst t) (tr (fst u)) (tr (fst v)), trans1 (snd n1) (snd n2) (snd t) (tr (snd u)) (tr (snd v))).
Definition trans2u (n1 n2 : nat * nat) (t : ten3) (u v : mat2) : ten3 :=
  (trans2 (fst n1) (fst n1) (fst n2) (fst n2) (fst (fst t)) (tr (fst u)) (tr (fst u)) (tr (fst v)) (tr (fst v)),
   trans2 (fst n1) (snd n1) (fst n2) (snd n2) (snd (fst t)) (tr (fst u)) (tr (snd u)) (tr (fst v)) (tr (snd v)),
   trans2 (snd n1) (snd n1) (snd n2) (snd n2) (snd t) (tr (snd u)) (tr (snd u)) (tr (snd v)) (tr (snd v))).
(** _get_delta_t2_from_t3v, unrestricted, before the projection, coupling.py 414-486, with the integrals of 587-590 *)
Definition u_low_t3v (x : uclusterx) (y : ufrag) : ten3 :=
  let '(xoa, xob) := ux_no x in let '(xva, xvb) := ux_nv x in let '(noa, nob) := uy_no y in let '(nva, nvb) := uy_nv y in
  let '(roa, rob) := uy_ro y in let '(rva, rvb) := uy_rv y in let '(eaa, eab, ebb) := ux_eris x in let '(taaa, taba, tbab, tbbb) := ut3 (uy_wf y) in
  let ovvv_a := uslice 0 xoa xoa xoa eaa in let ovvv_ab := uslice 0 xoa xob xob eab in let ovvv_b := uslice 0 xob xob xob ebb in
  let vvov_ab := uslice xoa xoa 0 xob eab in let ooov_a := uslice 0 0 0 xoa eaa in let ooov_ab := uslice 0 0 0 xob eab in let ooov_b := uslice 0 0 0 xob ebb in let ovoo_ab := uslice 0 xoa 0 0 eab in
  (u_low_t3v_aaaa xoa xob xva xvb noa nob nva nvb ovvv_a ovvv_ab ovvv_b vvov_ab ooov_a ooov_ab ooov_b ovoo_ab taaa taba tbab tbbb roa rob rva rvb,
   u_low_t3v_abab xoa xob xva xvb noa nob nva nvb ovvv_a ovvv_ab ovvv_b vvov_ab ooov_a ooov_ab ooov_b ovoo_ab taaa taba tbab tbbb roa rob rva rvb,
   u_low_t3v_bbbb xoa xob xva xvb noa nob nva nvb ovvv_a ovvv_ab ovvv_b vvov_ab ooov_a ooov_ab ooov_b ovoo_ab taaa taba tbab tbbb roa rob rva rvb).
(** one pass of the loop, unrestricted, coupling.py 605-643 *)
Definition u_contribution (x : uclusterx) (c : ucorr) : result (mat2 * ten3) :=
  let '(y, ty, projectors, low) := c in
  if Nat.eqb (uy_id y) (ux_id x) then AssertErr else
  let w := uy_wf y in
  let d := match ty with
    | External => Ret (uhf_residual half (fst (uy_no y)) (snd (uy_no y)) (fst (uy_nv y)) (snd (uy_nv y)) (ut1 w) (ut3 w) (ut4 w) (uy_fov y) (uy_eris y) (negb low))
    | DeltaTailor => Ret (sub1u (ut1 w) (fst (uy_ccsd y)), sub2u (ut2 w) (snd (uy_ccsd y)))
    | OtherType => ValueErr
    end in
  rbind d (fun d => let '(dt1, dt2) := d in
  let proj := gram2 (uy_nf y) (uy_fo y) in
  let dt1 := match projectors with O => dt1 | _ => (pdot (fst (uy_no y)) (fst proj) (fst dt1), pdot (snd (uy_no y)) (snd proj) (snd dt1)) end in
  rbind (project_u half (fst (uy_no y)) (snd (uy_no y)) dt2 proj projectors) (fun dt2 =>
  let dt1 := trans1u (uy_no y) (uy_nv y) dt1 (uy_ro y) (uy_rv y) in
  let dt2 := trans2u (uy_no y) (uy_nv y) dt2 (uy_ro y) (uy_rv y) in
  match ty, low with
  | External, true =>
      rbind (project_u half (fst (ux_no x)) (snd (ux_no x)) (u_low_t3v x y) (gram2 (uy_nf y) (uy_fx y)) projectors) (fun low2 => Ret (dt1, add2u dt2 low2))
  | _, _ => Ret (dt1, dt2)
  end)).
(** the loop, coupling.py 596-651 *)
Fixpoint u_loop (x : uclusterx) (l : list ucorr) (acc : mat2 * ten3) (last : option ctype) : result ((mat2 * ten3) * option ctype) :=
  match l with
  | [] => Ret (acc, last)
  | c :: l => rbind (u_contribution x c) (fun d => u_loop x l (add1u (fst acc) (fst d), add2u (snd acc) (snd d)) (Some (snd (fst (fst c)))))
  end.
(** the amplitudes the callback adds, coupling.py 673-682 *)
Definition u_externally_correct (x : uclusterx) (l : list ucorr) : result (mat2 * ten3) :=
  let z1 : mat := fun _ _ => 0 in let z2 : ten := fun _ _ _ _ => 0 in
  rbind (u_loop x l ((z1, z1), (z2, z2, z2)) None) (fun r =>
  let '((dt1, dt2), last) := r in
  match last with
  | None => UnboundErr
  | Some External =>
      let ea := eia (fst (ux_no x)) (fst (ux_mo x)) in let eb := eia (snd (ux_no x)) (snd (ux_mo x)) in
      Ret (((fun i a => fst dt1 i a / ea i a), (fun i a => snd dt1 i a / eb i a)),
           ((fun i j a b => fst (fst dt2) i j a b / (ea i a + ea j b)), (fun i j a b => snd (fst dt2) i j a b / (ea i a + eb j b)), (fun i j a b => snd dt2 i j a b / (eb i a + eb j b))))
  | Some _ => Ret (dt1, dt2)
  end).
(** callback, coupling.py 689-697 *)
Definition u_callback (d t : mat2 * ten3) : mat2 * ten3 := (add1u (fst t) (fst d), add2u (snd t) (snd d)).
End Callback.
