(** * CI coefficients to coupled-cluster amplitudes
    Model of vayesta/core/types/wf/t_to_c.py 10-484 (t1_uhf, t1_rhf, ..., t4_uhf, t4_rhf) and of as_ccsdtq of the restricted and
    unrestricted CISDTQ wave functions, vayesta/core/types/wf/cisdtq.py 24-35 and 53-64 (with the constructor checks of 14-22 and 39-51).
    Every einsum of t_to_c.py is an outer product with permuted indices and is written here as that product of entries, in the order
    and with the sign of the code; the accumulations "x = zeros; x += ..." are sums; the intermediates x0, x1, ... are let-bound (they do
    not depend on the tensor being accumulated, so that computing them first changes nothing).  The definitions of the blocks were
    produced line by line from t_to_c.py by a script.
    Simplifications: entries in an arbitrary commutative ring (in an arbitrary field where the code divides by c0), arrays as
    functions of the indices (shapes not modelled). *)
From Coq Require Import List Bool Arith.
From Verif Require Import Alg M_Wf.
Import ListNotations.
Open Scope K_scope.

Section TtoC.
Context {K : cring}.
Notation mat := (nat -> nat -> K).
Notation ten := (nat -> nat -> nat -> nat -> K).
(** arrays with six and with eight axes: c3, t3, c4, t4 *)
Definition ten6 := nat -> nat -> nat -> nat -> nat -> nat -> K.
Definition ten8 := nat -> nat -> nat -> nat -> nat -> nat -> nat -> nat -> K.

(** t_to_c.t1_uhf, t_to_c.py 14-15: the block t1_aa *)
Definition t1_uhf_aa (c1_aa : mat) : mat :=
  fun i a =>
    c1_aa i a.

(** t_to_c.t1_uhf, t_to_c.py 16-17: the block t1_bb *)
Definition t1_uhf_bb (c1_bb : mat) : mat :=
  fun i a =>
    c1_bb i a.

(** t_to_c.t1_rhf, t_to_c.py 23-24: the block t1 *)
Definition t1_rhf (c1 : mat) : mat :=
  fun i a =>
    c1 i a.

(** t_to_c.t2_uhf, t_to_c.py 33-36: the block t2_aaaa *)
Definition t2_uhf_aaaa (t1_aa : mat) (c2_aaaa : ten) : ten :=
  fun i j a b =>
    c2_aaaa i j a b
    + t1_aa i b * t1_aa j a
    + - (t1_aa i a * t1_aa j b).

(** t_to_c.t2_uhf, t_to_c.py 37-39: the block t2_abab *)
Definition t2_uhf_abab (t1_aa : mat) (t1_bb : mat) (c2_abab : ten) : ten :=
  fun i j a b =>
    c2_abab i j a b
    + - (t1_aa i a * t1_bb j b).

(** t_to_c.t2_uhf, t_to_c.py 40-43: the block t2_bbbb *)
Definition t2_uhf_bbbb (t1_bb : mat) (c2_bbbb : ten) : ten :=
  fun i j a b =>
    c2_bbbb i j a b
    + t1_bb i b * t1_bb j a
    + - (t1_bb i a * t1_bb j b).

(** t_to_c.t2_rhf, t_to_c.py 49-51: the block t2 *)
Definition t2_rhf (t1 : mat) (c2 : ten) : ten :=
  fun i j a b =>
    c2 i j a b
    + - (t1 i a * t1 j b).

(** t_to_c.t3_uhf, t_to_c.py 61-75: the block t3_aaaaaa *)
Definition t3_uhf_aaaaaa (t1_aa : mat) (t2_aaaa : ten) (c3_aaaaaa : ten6) : ten6 :=
  let x0 : ten := fun i j a b =>
    t2_aaaa i j a b
    + - (t1_aa i b * t1_aa j a)
    + t1_aa i a * t1_aa j b in
  fun i j k a b c =>
    c3_aaaaaa i j k a b c
    + - (t1_aa i a * t2_aaaa j k b c)
    + - (t1_aa i c * t2_aaaa j k a b)
    + t1_aa j a * t2_aaaa i k b c
    + t1_aa j c * t2_aaaa i k a b
    + - (t1_aa k a * t2_aaaa i j b c)
    + - (t1_aa k c * t2_aaaa i j a b)
    + t1_aa i b * x0 k j c a
    + t1_aa k b * x0 j i c a
    + - (t1_aa j b * x0 k i c a).

(** t_to_c.t3_uhf, t_to_c.py 76-86: the block t3_abaaba *)
Definition t3_uhf_abaaba (t1_aa : mat) (t1_bb : mat) (t2_aaaa : ten) (t2_abab : ten) (c3_abaaba : ten6) : ten6 :=
  let x0 : ten := fun i j a b =>
    t2_aaaa i j a b
    + - (t1_aa i b * t1_aa j a)
    + t1_aa i a * t1_aa j b in
  fun i j k a b c =>
    c3_abaaba i j k a b c
    + - (t1_aa i a * t2_abab k j c b)
    + t1_aa i c * t2_abab k j a b
    + t1_aa k a * t2_abab i j c b
    + - (t1_aa k c * t2_abab i j a b)
    + - (t1_bb j b * x0 k i c a).

(** t_to_c.t3_uhf, t_to_c.py 87-97: the block t3_babbab *)
Definition t3_uhf_babbab (t1_aa : mat) (t1_bb : mat) (t2_abab : ten) (t2_bbbb : ten) (c3_babbab : ten6) : ten6 :=
  let x0 : ten := fun i j a b =>
    t2_bbbb i j a b
    + - (t1_bb i b * t1_bb j a)
    + t1_bb i a * t1_bb j b in
  fun i j k a b c =>
    c3_babbab i j k a b c
    + - (t1_bb i a * t2_abab j k b c)
    + t1_bb i c * t2_abab j k b a
    + t1_bb k a * t2_abab j i b c
    + - (t1_bb k c * t2_abab j i b a)
    + - (t1_aa j b * x0 k i c a).

(** t_to_c.t3_uhf, t_to_c.py 98-112: the block t3_bbbbbb *)
Definition t3_uhf_bbbbbb (t1_bb : mat) (t2_bbbb : ten) (c3_bbbbbb : ten6) : ten6 :=
  let x0 : ten := fun i j a b =>
    t2_bbbb i j a b
    + - (t1_bb i b * t1_bb j a)
    + t1_bb i a * t1_bb j b in
  fun i j k a b c =>
    c3_bbbbbb i j k a b c
    + - (t1_bb i a * t2_bbbb j k b c)
    + - (t1_bb i c * t2_bbbb j k a b)
    + t1_bb j a * t2_bbbb i k b c
    + t1_bb j c * t2_bbbb i k a b
    + - (t1_bb k a * t2_bbbb i j b c)
    + - (t1_bb k c * t2_bbbb i j a b)
    + t1_bb i b * x0 k j c a
    + t1_bb k b * x0 j i c a
    + - (t1_bb j b * x0 k i c a).

(** t_to_c.t3_rhf, t_to_c.py 118-129: the block t3 *)
Definition t3_rhf (t1 : mat) (t2 : ten) (c3 : ten6) : ten6 :=
  let x0 : ten := fun i j a b =>
    - (t2 i j a b)
    + t2 i j b a
    + t1 i b * t1 j a
    + - (t1 i a * t1 j b) in
  fun i j k a b c =>
    c3 i j k a b c
    + - (t1 i a * t2 k j c b)
    + t1 i c * t2 k j a b
    + t1 k a * t2 i j c b
    + - (t1 k c * t2 i j a b)
    + - (t1 j b * x0 i k c a).

(** t_to_c.t4_uhf, t_to_c.py 140-203: the block t4_aaaaaaaa *)
Definition t4_uhf_aaaaaaaa (t1_aa : mat) (t2_aaaa : ten) (t3_aaaaaa : ten6) (c4_aaaaaaaa : ten8) : ten8 :=
  let x0 : ten := fun i j a b =>
    t2_aaaa i j a b
    + - (t1_aa i b * t1_aa j a)
    + t1_aa i a * t1_aa j b in
  let x1 : ten6 := fun i j k a b c =>
    t3_aaaaaa i j k a b c
    + - (t1_aa j a * t2_aaaa i k b c)
    + t1_aa j b * t2_aaaa i k a c
    + - (t1_aa j c * t2_aaaa i k a b)
    + t1_aa k a * t2_aaaa i j b c
    + - (t1_aa k b * t2_aaaa i j a c)
    + t1_aa k c * t2_aaaa i j a b
    + t1_aa i a * x0 k j c b
    + t1_aa i c * x0 k j b a
    + - (t1_aa i b * x0 k j c a) in
  let x2 : ten6 := fun i j k a b c =>
    t3_aaaaaa i j k a b c
    + t1_aa i a * t2_aaaa j k b c
    + - (t1_aa i b * t2_aaaa j k a c)
    + t1_aa i c * t2_aaaa j k a b
    + t1_aa k a * t2_aaaa i j b c
    + - (t1_aa k b * t2_aaaa i j a c)
    + t1_aa k c * t2_aaaa i j a b in
  let x3 : ten6 := fun i j k a b c =>
    t3_aaaaaa i j k a b c
    + t1_aa i a * t2_aaaa j k b c
    + - (t1_aa i b * t2_aaaa j k a c)
    + t1_aa i c * t2_aaaa j k a b in
  fun i j k l a b c d =>
    c4_aaaaaaaa i j k l a b c d
    + t1_aa l a * t3_aaaaaa i j k b c d
    + - (t1_aa l b * t3_aaaaaa i j k a c d)
    + t1_aa l c * t3_aaaaaa i j k a b d
    + - (t1_aa l d * t3_aaaaaa i j k a b c)
    + - (t2_aaaa i l c d * t2_aaaa j k a b)
    + t2_aaaa i l b d * t2_aaaa j k a c
    + - (t2_aaaa i l a d * t2_aaaa j k b c)
    + - (t2_aaaa i l b c * t2_aaaa j k a d)
    + t2_aaaa i l a c * t2_aaaa j k b d
    + - (t2_aaaa i l a b * t2_aaaa j k c d)
    + t2_aaaa i k c d * t2_aaaa j l a b
    + - (t2_aaaa i k b d * t2_aaaa j l a c)
    + t2_aaaa i k a d * t2_aaaa j l b c
    + t2_aaaa i k b c * t2_aaaa j l a d
    + - (t2_aaaa i k a c * t2_aaaa j l b d)
    + t2_aaaa i k a b * t2_aaaa j l c d
    + - (t2_aaaa i j c d * t2_aaaa k l a b)
    + t2_aaaa i j b d * t2_aaaa k l a c
    + - (t2_aaaa i j a d * t2_aaaa k l b c)
    + - (t2_aaaa i j b c * t2_aaaa k l a d)
    + t2_aaaa i j a c * t2_aaaa k l b d
    + - (t2_aaaa i j a b * t2_aaaa k l c d)
    + t1_aa i b * x1 l j k d a c
    + t1_aa i d * x1 l j k c a b
    + - (t1_aa i a * x1 l j k d b c)
    + - (t1_aa i c * x1 l j k d a b)
    + t1_aa j a * x2 l i k d b c
    + t1_aa j c * x2 l i k d a b
    + - (t1_aa j b * x2 l i k d a c)
    + - (t1_aa j d * x2 l i k c a b)
    + t1_aa k b * x3 l i j d a c
    + t1_aa k d * x3 l i j c a b
    + - (t1_aa k a * x3 l i j d b c)
    + - (t1_aa k c * x3 l i j d a b).

(** t_to_c.t4_uhf, t_to_c.py 204-245: the block t4_aaabaaab *)
Definition t4_uhf_aaabaaab (t1_aa : mat) (t1_bb : mat) (t2_aaaa : ten) (t2_abab : ten) (t3_aaaaaa : ten6) (t3_abaaba : ten6) (c4_aaabaaab : ten8) : ten8 :=
  let x0 : ten := fun i j a b =>
    t2_aaaa i j a b
    + - (t1_aa i b * t1_aa j a)
    + t1_aa i a * t1_aa j b in
  let x1 : ten6 := fun i j k a b c =>
    t3_aaaaaa i j k a b c
    + - (t1_aa j a * t2_aaaa i k b c)
    + t1_aa j b * t2_aaaa i k a c
    + - (t1_aa j c * t2_aaaa i k a b)
    + t1_aa k a * t2_aaaa i j b c
    + - (t1_aa k b * t2_aaaa i j a c)
    + t1_aa k c * t2_aaaa i j a b
    + t1_aa i a * x0 k j c b
    + t1_aa i c * x0 k j b a
    + - (t1_aa i b * x0 k j c a) in
  let x2 : ten6 := fun i a j k b c =>
    t3_abaaba j i k b a c
    + t1_aa j b * t2_abab k i c a
    + - (t1_aa j c * t2_abab k i b a)
    + - (t1_aa k b * t2_abab j i c a)
    + t1_aa k c * t2_abab j i b a in
  fun i j k l a b c d =>
    c4_aaabaaab i j k l a b c d
    + - (t1_aa i a * t3_abaaba j l k b d c)
    + - (t1_aa i c * t3_abaaba j l k a d b)
    + t1_aa j a * t3_abaaba i l k b d c
    + t1_aa j c * t3_abaaba i l k a d b
    + - (t1_aa k a * t3_abaaba i l j b d c)
    + - (t1_aa k c * t3_abaaba i l j a d b)
    + - (t2_abab k l c d * t2_aaaa i j a b)
    + - (t2_abab k l a d * t2_aaaa i j b c)
    + t2_abab j l c d * t2_aaaa i k a b
    + t2_abab j l a d * t2_aaaa i k b c
    + - (t2_abab i l c d * t2_aaaa j k a b)
    + - (t2_abab i l a d * t2_aaaa j k b c)
    + t2_abab i l b d * x0 k j c a
    + t2_abab k l b d * x0 j i c a
    + - (t2_abab j l b d * x0 k i c a)
    + - (t1_bb l d * x1 k i j c a b)
    + t1_aa i b * x2 l d k j c a
    + t1_aa k b * x2 l d j i c a
    + - (t1_aa j b * x2 l d k i c a).

(** t_to_c.t4_uhf, t_to_c.py 246-278: the block t4_abababab *)
Definition t4_uhf_abababab (t1_aa : mat) (t1_bb : mat) (t2_aaaa : ten) (t2_abab : ten) (t2_bbbb : ten) (t3_abaaba : ten6) (t3_babbab : ten6) (c4_abababab : ten8) : ten8 :=
  let x0 : ten := fun i j a b =>
    t2_aaaa i j a b
    + - (t1_aa i b * t1_aa j a)
    + t1_aa i a * t1_aa j b in
  let x1 : ten := fun i j a b =>
    t2_bbbb i j a b
    + - (t1_bb i b * t1_bb j a)
    + t1_bb i a * t1_bb j b in
  let x2 : ten6 := fun i a j k b c =>
    t3_abaaba j i k b a c
    + t1_aa j b * t2_abab k i c a
    + - (t1_aa j c * t2_abab k i b a)
    + - (t1_aa k b * t2_abab j i c a)
    + t1_aa k c * t2_abab j i b a in
  fun i j k l a b c d =>
    c4_abababab i j k l a b c d
    + - (t1_aa i a * t3_babbab j k l b c d)
    + t1_aa i c * t3_babbab j k l b a d
    + t1_aa k a * t3_babbab j i l b c d
    + - (t1_aa k c * t3_babbab j i l b a d)
    + t2_abab i l a b * t2_abab k j c d
    + - (t2_abab i l c b * t2_abab k j a d)
    + - (t2_abab i j c d * t2_abab k l a b)
    + t2_abab i j a d * t2_abab k l c b
    + - (t2_abab i l a d * t2_abab k j c b)
    + t2_abab i l c d * t2_abab k j a b
    + t2_abab i j c b * t2_abab k l a d
    + - (t2_abab i j a b * t2_abab k l c d)
    + - (x0 k i c a * x1 l j d b)
    + t1_bb j d * x2 l b k i c a
    + t1_bb l b * x2 j d k i c a
    + - (t1_bb j b * x2 l d k i c a)
    + - (t1_bb l d * x2 j b k i c a).

(** t_to_c.t4_uhf, t_to_c.py 279-320: the block t4_abbbabbb *)
Definition t4_uhf_abbbabbb (t1_aa : mat) (t1_bb : mat) (t2_abab : ten) (t2_bbbb : ten) (t3_babbab : ten6) (t3_bbbbbb : ten6) (c4_abbbabbb : ten8) : ten8 :=
  let x0 : ten := fun i j a b =>
    t2_bbbb i j a b
    + - (t1_bb i b * t1_bb j a)
    + t1_bb i a * t1_bb j b in
  let x1 : ten6 := fun i j k a b c =>
    t3_bbbbbb i j k a b c
    + - (t1_bb j a * t2_bbbb i k b c)
    + t1_bb j b * t2_bbbb i k a c
    + - (t1_bb j c * t2_bbbb i k a b)
    + t1_bb k a * t2_bbbb i j b c
    + - (t1_bb k b * t2_bbbb i j a c)
    + t1_bb k c * t2_bbbb i j a b
    + t1_bb i a * x0 k j c b
    + t1_bb i c * x0 k j b a
    + - (t1_bb i b * x0 k j c a) in
  let x2 : ten6 := fun i j a b k c =>
    t3_babbab i k j a c b
    + t1_bb i a * t2_abab k j c b
    + - (t1_bb i b * t2_abab k j c a)
    + - (t1_bb j a * t2_abab k i c b)
    + t1_bb j b * t2_abab k i c a in
  fun i j k l a b c d =>
    c4_abbbabbb i j k l a b c d
    + - (t1_bb j b * t3_babbab k i l c a d)
    + - (t1_bb j d * t3_babbab k i l b a c)
    + t1_bb k b * t3_babbab j i l c a d
    + t1_bb k d * t3_babbab j i l b a c
    + - (t1_bb l b * t3_babbab j i k c a d)
    + - (t1_bb l d * t3_babbab j i k b a c)
    + - (t2_abab i l a d * t2_bbbb j k b c)
    + - (t2_abab i l a b * t2_bbbb j k c d)
    + t2_abab i k a d * t2_bbbb j l b c
    + t2_abab i k a b * t2_bbbb j l c d
    + - (t2_abab i j a d * t2_bbbb k l b c)
    + - (t2_abab i j a b * t2_bbbb k l c d)
    + t2_abab i l a c * x0 k j d b
    + t2_abab i j a c * x0 l k d b
    + - (t2_abab i k a c * x0 l j d b)
    + - (t1_aa i a * x1 l j k d b c)
    + t1_bb j c * x2 l k d b i a
    + t1_bb l c * x2 k j d b i a
    + - (t1_bb k c * x2 l j d b i a).

(** t_to_c.t4_uhf, t_to_c.py 321-384: the block t4_bbbbbbbb *)
Definition t4_uhf_bbbbbbbb (t1_bb : mat) (t2_bbbb : ten) (t3_bbbbbb : ten6) (c4_bbbbbbbb : ten8) : ten8 :=
  let x0 : ten := fun i j a b =>
    t2_bbbb i j a b
    + - (t1_bb i b * t1_bb j a)
    + t1_bb i a * t1_bb j b in
  let x1 : ten6 := fun i j k a b c =>
    t3_bbbbbb i j k a b c
    + - (t1_bb j a * t2_bbbb i k b c)
    + t1_bb j b * t2_bbbb i k a c
    + - (t1_bb j c * t2_bbbb i k a b)
    + t1_bb k a * t2_bbbb i j b c
    + - (t1_bb k b * t2_bbbb i j a c)
    + t1_bb k c * t2_bbbb i j a b
    + t1_bb i a * x0 k j c b
    + t1_bb i c * x0 k j b a
    + - (t1_bb i b * x0 k j c a) in
  let x2 : ten6 := fun i j k a b c =>
    t3_bbbbbb i j k a b c
    + t1_bb i a * t2_bbbb j k b c
    + - (t1_bb i b * t2_bbbb j k a c)
    + t1_bb i c * t2_bbbb j k a b
    + t1_bb k a * t2_bbbb i j b c
    + - (t1_bb k b * t2_bbbb i j a c)
    + t1_bb k c * t2_bbbb i j a b in
  let x3 : ten6 := fun i j k a b c =>
    t3_bbbbbb i j k a b c
    + t1_bb i a * t2_bbbb j k b c
    + - (t1_bb i b * t2_bbbb j k a c)
    + t1_bb i c * t2_bbbb j k a b in
  fun i j k l a b c d =>
    c4_bbbbbbbb i j k l a b c d
    + t1_bb l a * t3_bbbbbb i j k b c d
    + - (t1_bb l b * t3_bbbbbb i j k a c d)
    + t1_bb l c * t3_bbbbbb i j k a b d
    + - (t1_bb l d * t3_bbbbbb i j k a b c)
    + - (t2_bbbb i l c d * t2_bbbb j k a b)
    + t2_bbbb i l b d * t2_bbbb j k a c
    + - (t2_bbbb i l a d * t2_bbbb j k b c)
    + - (t2_bbbb i l b c * t2_bbbb j k a d)
    + t2_bbbb i l a c * t2_bbbb j k b d
    + - (t2_bbbb i l a b * t2_bbbb j k c d)
    + t2_bbbb i k c d * t2_bbbb j l a b
    + - (t2_bbbb i k b d * t2_bbbb j l a c)
    + t2_bbbb i k a d * t2_bbbb j l b c
    + t2_bbbb i k b c * t2_bbbb j l a d
    + - (t2_bbbb i k a c * t2_bbbb j l b d)
    + t2_bbbb i k a b * t2_bbbb j l c d
    + - (t2_bbbb i j c d * t2_bbbb k l a b)
    + t2_bbbb i j b d * t2_bbbb k l a c
    + - (t2_bbbb i j a d * t2_bbbb k l b c)
    + - (t2_bbbb i j b c * t2_bbbb k l a d)
    + t2_bbbb i j a c * t2_bbbb k l b d
    + - (t2_bbbb i j a b * t2_bbbb k l c d)
    + t1_bb i b * x1 l j k d a c
    + t1_bb i d * x1 l j k c a b
    + - (t1_bb i a * x1 l j k d b c)
    + - (t1_bb i c * x1 l j k d a b)
    + t1_bb j a * x2 l i k d b c
    + t1_bb j c * x2 l i k d a b
    + - (t1_bb j b * x2 l i k d a c)
    + - (t1_bb j d * x2 l i k c a b)
    + t1_bb k b * x3 l i j d a c
    + t1_bb k d * x3 l i j c a b
    + - (t1_bb k a * x3 l i j d b c)
    + - (t1_bb k c * x3 l i j d a b).

(** t_to_c.t4_rhf, t_to_c.py 391-420: the block t4_abababab *)
Definition t4_rhf_abababab (t1 : mat) (t2 : ten) (t3 : ten6) (c4_abababab : ten8) : ten8 :=
  let x0 : ten := fun i j a b =>
    - (t2 i j a b)
    + t2 i j b a
    + t1 i b * t1 j a
    + - (t1 i a * t1 j b) in
  let x1 : ten6 := fun i j k a b c =>
    t3 i j k a b c
    + t1 i a * t2 j k b c
    + - (t1 i c * t2 j k b a)
    + - (t1 k a * t2 j i b c)
    + t1 k c * t2 j i b a in
  fun i j k l a b c d =>
    c4_abababab i j k l a b c d
    + - (t1 j b * t3 i l k a d c)
    + t1 j d * t3 i l k a b c
    + t1 l b * t3 i j k a d c
    + - (t1 l d * t3 i j k a b c)
    + - (t2 i j a b * t2 k l c d)
    + t2 i j a d * t2 k l c b
    + t2 i j c b * t2 k l a d
    + - (t2 i j c d * t2 k l a b)
    + t2 i l a b * t2 k j c d
    + - (t2 i l a d * t2 k j c b)
    + - (t2 i l c b * t2 k j a d)
    + t2 i l c d * t2 k j a b
    + x0 i k a c * x0 j l d b
    + t1 i c * x1 j k l b a d
    + t1 k a * x1 j i l b c d
    + - (t1 i a * x1 j k l b c d)
    + - (t1 k c * x1 j i l b a d).

(** t_to_c.t4_rhf, t_to_c.py 421-483: the block t4_abaaabaa *)
Definition t4_rhf_abaaabaa (t1 : mat) (t2 : ten) (t3 : ten6) (c4_abaaabaa : ten8) : ten8 :=
  let x0 : ten := fun i j a b =>
    - (t2 i j a b)
    + t2 i j b a
    + t1 i b * t1 j a
    + - (t1 i a * t1 j b) in
  let x1 : ten := fun i j a b =>
    t2 i j a b
    + - (t2 i j b a)
    + - (t1 i b * t1 j a)
    + t1 i a * t1 j b in
  let x2 : ten6 := fun i j k a b c =>
    - (t3 i j k a b c)
    + t3 i j k a c b
    + t3 i j k b a c
    + t1 j a * t2 i k b c
    + - (t1 j a * t2 i k c b)
    + - (t1 j b * t2 i k a c)
    + t1 j b * t2 i k c a
    + t1 j c * t2 i k a b
    + - (t1 j c * t2 i k b a)
    + - (t1 k a * t2 i j b c)
    + t1 k a * t2 i j c b
    + t1 k b * t2 i j a c
    + - (t1 k b * t2 i j c a)
    + - (t1 k c * t2 i j a b)
    + t1 k c * t2 i j b a
    + - (t1 i a * x0 j k c b)
    + - (t1 i b * x1 j k c a)
    + - (t1 i c * x1 j k a b) in
  let x3 : ten6 := fun i j k a b c =>
    t3 i j k a b c
    + t1 i a * t2 k j c b
    + - (t1 i c * t2 k j a b)
    + - (t1 k a * t2 i j c b)
    + t1 k c * t2 i j a b in
  fun i j k l a b c d =>
    c4_abaaabaa i j k l a b c d
    + - (t1 i a * t3 k j l c b d)
    + - (t1 i d * t3 k j l a b c)
    + t1 k a * t3 i j l c b d
    + t1 k d * t3 i j l a b c
    + - (t1 l a * t3 i j k c b d)
    + - (t1 l d * t3 i j k a b c)
    + - (t2 i j a b * t2 k l c d)
    + t2 i j a b * t2 k l d c
    + - (t2 i j d b * t2 k l a c)
    + t2 i j d b * t2 k l c a
    + t2 i l a c * t2 k j d b
    + t2 i l c d * t2 k j a b
    + - (t2 i l c a * t2 k j d b)
    + - (t2 i l d c * t2 k j a b)
    + - (t2 i k a c * t2 l j d b)
    + - (t2 i k c d * t2 l j a b)
    + t2 i k c a * t2 l j d b
    + t2 i k d c * t2 l j a b
    + - (t2 k j c b * x0 i l d a)
    + - (t2 i j c b * x1 k l d a)
    + - (t2 l j c b * x1 i k d a)
    + t1 j b * x2 i k l a c d
    + t1 i c * x3 k j l a b d
    + t1 l c * x3 i j k a b d
    + - (t1 k c * x3 i j l a b d).

(** t_to_c.t1_uhf, t_to_c.py 10-18 *)
Definition t1_uhf (c1 : mat * mat) : mat * mat := (t1_uhf_aa (fst c1), t1_uhf_bb (snd c1)).
(** t_to_c.t2_uhf, t_to_c.py 28-44: the blocks (aaaa, abab, bbbb) *)
Definition t2_uhf (t1 : mat * mat) (c2 : ten * ten * ten) : ten * ten * ten :=
  let '(aa, bb) := t1 in let '(c_aaaa, c_abab, c_bbbb) := c2 in
  (t2_uhf_aaaa aa c_aaaa, t2_uhf_abab aa bb c_abab, t2_uhf_bbbb bb c_bbbb).
(** t_to_c.t3_uhf, t_to_c.py 55-113: the blocks (aaa, aba, bab, bbb) *)
Definition t3_uhf (t1 : mat * mat) (t2 : ten * ten * ten) (c3 : ten6 * ten6 * ten6 * ten6) : ten6 * ten6 * ten6 * ten6 :=
  let '(aa, bb) := t1 in let '(aaaa, abab, bbbb) := t2 in let '(c_aaa, c_aba, c_bab, c_bbb) := c3 in
  (t3_uhf_aaaaaa aa aaaa c_aaa, t3_uhf_abaaba aa bb aaaa abab c_aba, t3_uhf_babbab aa bb abab bbbb c_bab, t3_uhf_bbbbbb bb bbbb c_bbb).
(** t_to_c.t4_uhf, t_to_c.py 133-385: the blocks (aaaa, aaab, abab, abbb, bbbb) *)
Definition t4_uhf (t1 : mat * mat) (t2 : ten * ten * ten) (t3 : ten6 * ten6 * ten6 * ten6) (c4 : ten8 * ten8 * ten8 * ten8 * ten8)
  : ten8 * ten8 * ten8 * ten8 * ten8 :=
  let '(aa, bb) := t1 in let '(aaaa, abab, bbbb) := t2 in let '(aaa, aba, bab, bbb) := t3 in
  let '(c_aaaa, c_aaab, c_abab, c_abbb, c_bbbb) := c4 in
  (t4_uhf_aaaaaaaa aa aaaa aaa c_aaaa, t4_uhf_aaabaaab aa bb aaaa abab aaa aba c_aaab,
   t4_uhf_abababab aa bb aaaa abab bbbb aba bab c_abab, t4_uhf_abbbabbb aa bb abab bbbb bab bbb c_abbb,
   t4_uhf_bbbbbbbb bb bbbb bbb c_bbbb).
(** t_to_c.t4_rhf, t_to_c.py 388-484: the blocks (abaa, abab) *)
Definition t4_rhf (t1 : mat) (t2 : ten) (t3 : ten6) (c4 : ten8 * ten8) : ten8 * ten8 :=
  (t4_rhf_abaaabaa t1 t2 t3 (fst c4), t4_rhf_abababab t1 t2 t3 (snd c4)).
End TtoC.
Arguments ten6 : clear implicits. Arguments ten8 : clear implicits.

Section Conv.
Context {F : cfield}.
(** RCISDTQ_WaveFunction, cisdtq.py 13-22: c4 is a pair (abaa, abab), anything else is refused *)
Record rcisdtq := { k0 : F; k1 : mat F; k2 : ten F; k3 : ten6 F; k4 : ten8 F * ten8 F }.
(** UCISDTQ_WaveFunction, cisdtq.py 38-51: c3 is (aaa, aba, bab, bbb), c4 is (aaaa, aaab, abab, abbb, bbbb), anything else is refused *)
Record ucisdtq := { u0 : F; u1 : mat F * mat F; u2 : ten F * ten F * ten F; u3 : ten6 F * ten6 F * ten6 F * ten6 F;
  u4 : ten8 F * ten8 F * ten8 F * ten8 F * ten8 F }.
(** RCCSDTQ_WaveFunction and UCCSDTQ_WaveFunction, ccsdtq.py 12-46 *)
Record rccsdtq := { rt1 : mat F; rt2 : ten F; rt3 : ten6 F; rt4 : ten8 F * ten8 F }.
Record uccsdtq := { ut1 : mat F * mat F; ut2 : ten F * ten F * ten F; ut3 : ten6 F * ten6 F * ten6 F * ten6 F;
  ut4 : ten8 F * ten8 F * ten8 F * ten8 F * ten8 F }.
(** c / self.c0 for arrays with two, four, six and eight axes, cisdtq.py 25-28 and 54-57 *)
Definition div2 (c0 : F) (c : mat F) : mat F := fun i a => c i a / c0.
Definition div4 (c0 : F) (c : ten F) : ten F := fun i j a b => c i j a b / c0.
Definition div6 (c0 : F) (c : ten6 F) : ten6 F := fun i j k a b c' => c i j k a b c' / c0.
Definition div8 (c0 : F) (c : ten8 F) : ten8 F := fun i j k l a b c' d => c i j k l a b c' d / c0.
(** RCISDTQ_WaveFunction.as_ccsdtq, cisdtq.py 24-35 *)
Definition r_as_ccsdtq (w : rcisdtq) : rccsdtq :=
  let c1 := div2 (k0 w) (k1 w) in let c2 := div4 (k0 w) (k2 w) in let c3 := div6 (k0 w) (k3 w) in
  let c4 := (div8 (k0 w) (fst (k4 w)), div8 (k0 w) (snd (k4 w))) in
  let t1 := t1_rhf c1 in let t2 := t2_rhf t1 c2 in let t3 := t3_rhf t1 t2 c3 in let t4 := t4_rhf t1 t2 t3 c4 in
  {| rt1 := t1; rt2 := t2; rt3 := t3; rt4 := t4 |}.
(** UCISDTQ_WaveFunction.as_ccsdtq, cisdtq.py 53-64 *)
Definition u_as_ccsdtq (w : ucisdtq) : uccsdtq :=
  let c0 := u0 w in
  let c1 := (div2 c0 (fst (u1 w)), div2 c0 (snd (u1 w))) in
  let '(x, y, z) := u2 w in let c2 := (div4 c0 x, div4 c0 y, div4 c0 z) in
  let '(aaa, aba, bab, bbb) := u3 w in let c3 := (div6 c0 aaa, div6 c0 aba, div6 c0 bab, div6 c0 bbb) in
  let '(aaaa, aaab, abab, abbb, bbbb) := u4 w in let c4 := (div8 c0 aaaa, div8 c0 aaab, div8 c0 abab, div8 c0 abbb, div8 c0 bbbb) in
  let t1 := t1_uhf c1 in let t2 := t2_uhf t1 c2 in let t3 := t3_uhf t1 t2 c3 in let t4 := t4_uhf t1 t2 t3 c4 in
  {| ut1 := t1; ut2 := t2; ut3 := t3; ut4 := t4 |}.
(** RCCSDTQ_WaveFunction.as_ccsd, ccsdtq.py 30-33 (without projector) *)
Definition ccsdtq_as_ccsd (w : rccsdtq) : @amps F := {| at1 := rt1 w; at2 := rt2 w |}.
(** RCCSDTQ_WaveFunction.as_cisd, ccsdtq.py 35-36: the argument c0 is not passed on *)
Definition ccsdtq_as_cisd (w : rccsdtq) (c0 : F) : @cisd F := as_cisd (ccsdtq_as_ccsd w) (1).
End Conv.
