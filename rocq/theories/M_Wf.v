(** Model of projection, conversion and rotation of amplitudes:
    vayesta/core/types/wf/project.py 7-98, ccsd.py (RCCSD/UCCSD_WaveFunction), cisd.py (RCISD/UCISD_WaveFunction), mp2.py.
    Simplifications: arrays are functions of their indices with values in a commutative ring (a field for divisions), the
    dimension of the first occupied index is kept in the record; the shapes of arguments fit (numpy raises otherwise);
    copies and in-place operation are not distinguished. *)
From Coq Require Import List Arith Bool.
From Verif Require Import Alg.
Import ListNotations.

Section Wf.
Context {K : cring}.
Open Scope K_scope.
Variable half : K.                                   (* 1/2 *)

Definition mat := nat -> nat -> K.
Definition ten := nat -> nat -> nat -> nat -> K.
(** c2.transpose(1, 0, 3, 2) *)
Definition exch (c2 : ten) : ten := fun i j a b => c2 j i b a.

(** A projector: a matrix with its shape *)
Record proj := { prow : nat; pcol : nat; pmat : mat }.
(** p.T *)
Definition ptrans (p : proj) : proj := {| prow := pcol p; pcol := prow p; pmat := fun i x => pmat p x i |}.

(** np.dot(p, c1) and np.tensordot(p, c2, axes=1) *)
Definition pc1 (c : mat) (p : proj) : mat := fun x a => Sum (pcol p) (fun i => pmat p x i * c i a).
Definition pc2 (c : ten) (p : proj) : ten := fun x j a b => Sum (pcol p) (fun i => pmat p x i * c i j a b).

(** project_c1, project.py 7-12 *)
Definition project_c1 (c1 : option mat) (p : option proj) : option mat :=
  match c1, p with
  | None, _ => None
  | Some c, None => Some c
  | Some c, Some p => Some (pc1 c p)
  end.

(** project_c2, project.py 15-20 *)
Definition project_c2 (c2 : option ten) (p : option proj) : option ten :=
  match c2, p with
  | None, _ => None
  | Some c, None => Some c
  | Some c, Some p => Some (pc2 c p)
  end.

(** Doubles amplitudes with three or four spin blocks *)
Inductive uten := U3 (aa ab bb : ten) | U4 (aa ab ba bb : ten).
Definition uaa (c : uten) : ten := match c with U3 aa _ _ => aa | U4 aa _ _ _ => aa end.
Definition uab (c : uten) : ten := match c with U3 _ ab _ => ab | U4 _ ab _ _ => ab end.
(** properties t2ba, l2ba, c2ba (e.g. ccsd.py 253-257): the transposed ab block if there is none *)
Definition uba (c : uten) : ten := match c with U3 _ ab _ => exch ab | U4 _ _ ba _ => ba end.
Definition ubb (c : uten) : ten := match c with U3 _ _ bb => bb | U4 _ _ _ bb => bb end.
Definition umat := (mat * mat)%type.
Definition uproj := (proj * proj)%type.

(** project_uc1, project.py 23-28 *)
Definition project_uc1 (c1 : option umat) (p : option uproj) : option umat :=
  match c1, p with
  | None, _ => None
  | Some c, None => Some c
  | Some c, Some p => Some (pc1 (fst c) (fst p), pc1 (snd c) (snd p))
  end.

(** project_uc2, project.py 31-43: always four blocks *)
Definition project_uc2 (c2 : option uten) (p : option uproj) : option uten :=
  match c2, p with
  | None, _ => None
  | Some c, None => Some c
  | Some c, Some p => Some (U4 (pc2 (uaa c) (fst p)) (pc2 (uab c) (fst p)) (pc2 (uba c) (snd p)) (pc2 (ubb c) (snd p)))
  end.

(** symmetrize_c2, project.py 46-50 *)
Definition symmetrize_c2 (c2 : ten) : ten := fun i j a b => (c2 i j a b + exch c2 i j a b) * half.

(** symmetrize_uc2, project.py 53-62 *)
Definition symmetrize_uc2 (c2 : uten) : uten :=
  U3 (symmetrize_c2 (uaa c2))
     (match c2 with U3 _ ab _ => ab | U4 _ ab ba _ => fun i j a b => (ab i j a b + exch ba i j a b) * half end)
     (symmetrize_c2 (ubb c2)).

(** *** Restricted and unrestricted CCSD wave functions *)
Record ccsd := { nocc1 : nat; t1 : mat; t2 : ten; l1 : option mat; l2 : option ten; projector : option proj }.

(** RCCSD_WaveFunction.project, ccsd.py 109-116 *)
Definition project (w : ccsd) (p : option proj) : ccsd :=
  {| nocc1 := match p with Some p => prow p | None => nocc1 w end;
     t1 := match p with Some p => pc1 (t1 w) p | None => t1 w end;
     t2 := match p with Some p => pc2 (t2 w) p | None => t2 w end;
     l1 := project_c1 (l1 w) p; l2 := project_c2 (l2 w) p; projector := p |}.

(** RCCSD_WaveFunction.restore, ccsd.py 136-148; None: AttributeError of None.T *)
Definition restore (w : ccsd) (p : option proj) (sym : bool) : option ccsd :=
  match (match p with Some p => Some p | None => projector w end) with
  | None => None
  | Some p =>
      let r := project w (Some (ptrans p)) in
      Some {| nocc1 := nocc1 r; t1 := t1 r; t2 := if sym then symmetrize_c2 (t2 r) else t2 r; l1 := l1 r;
              l2 := match l2 r with Some l => Some (if sym then symmetrize_c2 l else l) | None => None end; projector := None |}
  end.

Record uccsd := { unocc1 : nat * nat; ut1 : umat; ut2 : uten; ul1 : option umat; ul2 : option uten; uprojector : option uproj }.

(** UCCSD_WaveFunction.project, ccsd.py 298-305 *)
Definition uproject (w : uccsd) (p : option uproj) : uccsd :=
  {| unocc1 := match p with Some p => (prow (fst p), prow (snd p)) | None => unocc1 w end;
     ut1 := match p with Some p => (pc1 (fst (ut1 w)) (fst p), pc1 (snd (ut1 w)) (snd p)) | None => ut1 w end;
     ut2 := match project_uc2 (Some (ut2 w)) p with Some c => c | None => ut2 w end;
     ul1 := project_uc1 (ul1 w) p; ul2 := project_uc2 (ul2 w) p; uprojector := p |}.

(** UCCSD_WaveFunction.restore, ccsd.py 307-318; None: TypeError of None[0] *)
Definition urestore (w : uccsd) (p : option uproj) (sym : bool) : option uccsd :=
  match (match p with Some p => Some p | None => uprojector w end) with
  | None => None
  | Some p =>
      let r := uproject w (Some (ptrans (fst p), ptrans (snd p))) in
      Some {| unocc1 := unocc1 r; ut1 := ut1 r; ut2 := if sym then symmetrize_uc2 (ut2 r) else ut2 r; ul1 := ul1 r;
              ul2 := match ul2 r with Some l => Some (if sym then symmetrize_uc2 l else l) | None => None end; uprojector := None |}
  end.

(** *** Rotations *)
(** transform_c1, project.py 65-68: dot(to.T, c1, tv); o1, v1: dimensions before the rotation *)
Definition transform_c1 (o1 v1 : nat) (c1 : mat) (to tv : mat) : mat :=
  fun i' a' => Sum v1 (fun a => Sum o1 (fun i => to i i' * c1 i a) * tv a a').
(** transform_c2, project.py 71-79: einsum("ijab,iI,jJ,aA,bB->IJAB", c2, to, to2, tv, tv2) *)
Definition transform_c2 (o1 o2 v1 v2 : nat) (c2 : ten) (to tv to2 tv2 : mat) : ten :=
  fun i' j' a' b' => Sum o1 (fun i => Sum o2 (fun j => Sum v1 (fun a => Sum v2 (fun b =>
    c2 i j a b * to i i' * to2 j j' * tv a a' * tv2 b b')))).

(** block_diag(to, tv) for to of no1 x no2: rows/columns below are occupied *)
Definition block_diag (o1 o2 : nat) (to tv : mat) : mat :=
  fun p q => if Nat.ltb p o1 then (if Nat.ltb q o2 then to p q else 0) else (if Nat.ltb q o2 then 0 else tv (p - o1)%nat (q - o2)%nat).

(** A wave function with its orbitals: coefficients, numbers of occupied and virtual orbitals, amplitudes *)
Record rwf := { coeff : mat; no : nat; nv : nat; a1 : mat; a2 : ten; b1 : option mat; b2 : option ten }.
(** RCCSD_WaveFunction.rotate_ov, ccsd.py 206-225, with to of shape (no, o2) and tv of shape (nv, v2) *)
Definition rotate_ov (w : rwf) (o2 v2 : nat) (to tv : mat) : rwf :=
  {| coeff := fun mu q => Sum (no w + nv w) (fun p => coeff w mu p * block_diag (no w) o2 to tv p q); no := o2; nv := v2;
     a1 := transform_c1 (no w) (nv w) (a1 w) to tv; a2 := transform_c2 (no w) (no w) (nv w) (nv w) (a2 w) to tv to tv;
     b1 := option_map (fun l => transform_c1 (no w) (nv w) l to tv) (b1 w);
     b2 := option_map (fun l => transform_c2 (no w) (no w) (nv w) (nv w) l to tv to tv) (b2 w) |}.

(** RCCSD_WaveFunction.rotate, ccsd.py 190-204, for orbitals ordered with the occupied ones first; None: ValueError.
    The comparison with 1e-12 is a test for zero here. *)
Definition rotate (isz : K -> bool) (w : rwf) (t : mat) : option rwf :=
  if forallb (fun i => forallb (fun a => isz (t i (no w + a)%nat) && isz (t (no w + a)%nat i)) (seq 0 (nv w))) (seq 0 (no w))
  then Some (rotate_ov w (no w) (nv w) t (fun a b => t (no w + a)%nat (no w + b)%nat)) else None.

Record uwf := { ucoeff : umat; uno : nat * nat; unv : nat * nat; ua1 : umat; ua2 : uten }.
(** UCCSD_WaveFunction.rotate_ov, ccsd.py 375-399, with to, tv pairs.  Line 390: both functions of the list refer to the same
    variable x, whose value after the comprehension is the beta matrix. *)
Definition urotate_ov (w : uwf) (o2 v2 : nat * nat) (to tv : umat) : uwf :=
  let x := block_diag (snd (uno w)) (snd o2) (snd to) (snd tv) in
  let nb := (snd (uno w) + snd (unv w))%nat in
  {| ucoeff := (fun mu q => Sum nb (fun p => fst (ucoeff w) mu p * x p q), fun mu q => Sum nb (fun p => snd (ucoeff w) mu p * x p q));
     uno := o2; unv := v2;
     ua1 := (transform_c1 (fst (uno w)) (fst (unv w)) (fst (ua1 w)) (fst to) (fst tv), transform_c1 (snd (uno w)) (snd (unv w)) (snd (ua1 w)) (snd to) (snd tv));
     ua2 := let oa := fst (uno w) in let ob := snd (uno w) in let va := fst (unv w) in let vb := snd (unv w) in
            let aa := transform_c2 oa oa va va (uaa (ua2 w)) (fst to) (fst tv) (fst to) (fst tv) in
            let ab := transform_c2 oa ob va vb (uab (ua2 w)) (fst to) (fst tv) (snd to) (snd tv) in
            let bb := transform_c2 ob ob vb vb (ubb (ua2 w)) (snd to) (snd tv) (snd to) (snd tv) in
            match ua2 w with
            | U3 _ _ _ => U3 aa ab bb
            | U4 _ _ ba _ => U4 aa ab (transform_c2 ob oa vb va ba (snd to) (snd tv) (fst to) (fst tv)) bb
            end |}.
End Wf.
Arguments proj : clear implicits. Arguments mat : clear implicits. Arguments ten : clear implicits. Arguments umat : clear implicits.
Arguments uten : clear implicits. Arguments uproj : clear implicits. Arguments ccsd : clear implicits. Arguments uccsd : clear implicits. Arguments rwf : clear implicits. Arguments uwf : clear implicits.

(** *** Conversions between CISD, CCSD and MP2 (fields) *)
Section Conv.
Context {F : cfield}.
Open Scope K_scope.
(** einsum("ia,jb->ijab", x, y) and einsum("ib,ja->ijab", x, y) *)
Definition prod1 (x y : mat F) : ten F := fun i j a b => x i a * y j b.
Definition prod2 (x y : mat F) : ten F := fun i j a b => x i b * y j a.

Record cisd := { c0 : F; c1 : mat F; c2 : ten F }.
Record amps := { at1 : mat F; at2 : ten F }.

(** RCCSD_WaveFunction.as_cisd, ccsd.py 176-182 (without projector; raises NotImplementedError with one) *)
Definition as_cisd (w : amps) (c0 : F) : cisd :=
  {| c0 := c0; c1 := fun i a => c0 * at1 w i a; c2 := fun i j a b => c0 * (at2 w i j a b + prod1 (at1 w) (at1 w) i j a b) |}.
(** RCISD_WaveFunction.as_ccsd, cisd.py 66-76 (without projector); the Lambda-amplitudes are set to the same values *)
Definition as_ccsd (w : cisd) : amps :=
  let t1 := fun i a => c1 w i a / c0 w in
  {| at1 := t1; at2 := fun i j a b => c2 w i j a b / c0 w - prod1 t1 t1 i j a b |}.
(** RCISD_WaveFunction.project, cisd.py 32-37 *)
Definition cproject (w : cisd) (p : proj F) : cisd := {| c0 := c0 w; c1 := pc1 (c1 w) p; c2 := pc2 (c2 w) p |}.
(** RCISD_WaveFunction.as_ccsd with a projector, cisd.py 66-76 (with restore, 39-47): restored, converted, projected *)
Definition projected_as_ccsd (half : F) (w : cisd) (p : proj F) : amps :=
  let r := as_ccsd {| c0 := c0 w; c1 := pc1 (c1 w) (ptrans p); c2 := symmetrize_c2 half (pc2 (c2 w) (ptrans p)) |} in
  {| at1 := pc1 (at1 r) p; at2 := pc2 (at2 r) p |}.
(** RCISD_WaveFunction.as_cisd, cisd.py 59-64 *)
Definition renorm (w : cisd) (x : F) : cisd :=
  {| c0 := x; c1 := fun i a => c1 w i a * x / c0 w; c2 := fun i j a b => c2 w i j a b * x / c0 w |}.

Record ucisd := { uc0 : F; uc1 : umat F; uc2 : uten F }.
Record uamps := { uat1 : umat F; uat2 : uten F }.
(** UCCSD_WaveFunction.as_cisd, ccsd.py 323-337 *)
Definition uas_cisd (w : uamps) (c0 : F) : ucisd :=
  let ta := fst (uat1 w) in let tb := snd (uat1 w) in
  let c1a := fun i a => c0 * ta i a in let c1b := fun i a => c0 * tb i a in
  let aa : ten F := fun i j a b => c0 * (uaa (uat2 w) i j a b + prod1 ta ta i j a b - prod2 ta ta i j a b) in
  let bb : ten F := fun i j a b => c0 * (ubb (uat2 w) i j a b + prod1 tb tb i j a b - prod2 tb tb i j a b) in
  let ab : ten F := fun i j a b => c0 * (uab (uat2 w) i j a b + prod1 ta tb i j a b) in
  {| uc0 := c0; uc1 := (c1a, c1b);
     uc2 := match uat2 w with
            | U3 _ _ _ => U3 aa ab bb
            | U4 _ _ ba _ => U4 aa ab (fun i j a b => c0 * ba i j a b + prod1 c1b c1a i j a b) bb
            end |}.
(** UCISD_WaveFunction.as_ccsd, cisd.py 151-170; line 164 takes the ab block for the ba block *)
Definition uas_ccsd (w : ucisd) : uamps :=
  let ta : mat F := fun i a => fst (uc1 w) i a / uc0 w in let tb : mat F := fun i a => snd (uc1 w) i a / uc0 w in
  let aa : ten F := fun i j a b => uaa (uc2 w) i j a b / uc0 w - prod1 ta ta i j a b + prod2 ta ta i j a b in
  let bb : ten F := fun i j a b => ubb (uc2 w) i j a b / uc0 w - prod1 tb tb i j a b + prod2 tb tb i j a b in
  let ab : ten F := fun i j a b => uab (uc2 w) i j a b / uc0 w - prod1 ta tb i j a b in
  {| uat1 := (ta, tb);
     uat2 := match uc2 w with
             | U3 _ _ _ => U3 aa ab bb
             | U4 _ cab _ _ => U4 aa ab (fun i j a b => cab i j a b / uc0 w - prod1 tb ta i j a b) bb
             end |}.
(** UCISD_WaveFunction.as_cisd, cisd.py 135-149 *)
Definition urenorm (w : ucisd) (x : F) : ucisd :=
  let sc2 (c : ten F) : ten F := fun i j a b => c i j a b * x / uc0 w in
  {| uc0 := x; uc1 := (fun i a => fst (uc1 w) i a * x / uc0 w, fun i a => snd (uc1 w) i a * x / uc0 w);
     uc2 := match uc2 w with U3 aa ab bb => U3 (sc2 aa) (sc2 ab) (sc2 bb) | U4 aa ab ba bb => U4 (sc2 aa) (sc2 ab) (sc2 ba) (sc2 bb) end |}.

(** RMP2_WaveFunction.as_cisd and as_ccsd, mp2.py 90-99 *)
Definition mp2_as_cisd (t : ten F) (x : F) : cisd := {| c0 := x; c1 := fun _ _ => 0; c2 := fun i j a b => x * t i j a b |}.
Definition mp2_as_ccsd (t : ten F) : amps := {| at1 := fun _ _ => 0; at2 := t |}.
(** UMP2_WaveFunction.as_cisd and as_ccsd, mp2.py 172-190 *)
Definition ump2_as_cisd (t : uten F) (x : F) : ucisd :=
  let sc2 (c : ten F) : ten F := fun i j a b => x * c i j a b in
  {| uc0 := x; uc1 := (fun _ _ => 0, fun _ _ => 0);
     uc2 := match t with U3 aa ab bb => U3 (sc2 aa) (sc2 ab) (sc2 bb) | U4 aa ab ba bb => U4 (sc2 aa) (sc2 ab) (sc2 ba) (sc2 bb) end |}.
Definition ump2_as_ccsd (t : uten F) : uamps := {| uat1 := (fun _ _ => 0, fun _ _ => 0); uat2 := t |}.
(** RMP2_WaveFunction.as_unrestricted, mp2.py 61-66: t2aa = t2 - t2.transpose(0,1,3,2) *)
Definition spin_blocks (t : ten F) : uten F := let aa : ten F := fun i j a b => t i j a b - t i j b a in U3 aa t aa.

(** RCCSDTQ_WaveFunction.as_cisd, ccsdtq.py 35-36 (with as_ccsd, lines 30-33): the argument c0 is not passed on *)
Definition tq_as_cisd (w : amps) (x : F) : cisd := as_cisd w 1.
End Conv.
Arguments cisd : clear implicits. Arguments amps : clear implicits. Arguments ucisd : clear implicits. Arguments uamps : clear implicits.
