(** Model of MP2 amplitudes built block by block, and of the MP2 bath density matrix:
    vayesta/core/bath/bno.py 303-349 and 541-646 (_make_t2), 409-458 and 648-723 (_project_t2, make_delta_dm1),
    vayesta/solver/mp2.py 40-70 and 91-158 (make_t2).
    Simplifications: arrays are functions of their indices with values in a field, numpy's uninitialised memory (np.empty) is
    an arbitrary array [out]; real amplitudes (conj is the identity); the negative-definite part of the density-fitting
    integrals is present for both spins or for none; the quotient of int(max_memory / size) is taken exactly. *)
From Coq Require Import List ZArith Bool Arith.
From Verif Require Import Alg M_Blocks.
Import ListNotations.
Close Scope Z_scope. Open Scope nat_scope.

Section Mp2.
Context {F : cfield}.
Open Scope K_scope.
Notation mat := (nat -> nat -> F).
Notation ten := (nat -> nat -> nat -> nat -> F).
Notation vec := (nat -> F).
Definition two : F := 1 + 1.

(** The two forms of integrals, (ov|ov) with chemists' index order, or three-index integrals (L|ov) with an optional negative part *)
Inductive integrals :=
| Eris (g : ten)
| Cderi (naux : nat) (cd : nat -> mat) (neg : option (nat * (nat -> mat))).
(** gijab, bno.py 335-340: eris[blk].transpose(0,2,1,3), or einsum "Lia,Ljb->ijab" *)
Definition gijab (g : integrals) : ten := fun i j a b =>
  match g with
  | Eris g => g i a j b
  | Cderi n cd None => Sum n (fun L => cd L i a * cd L j b)
  | Cderi n cd (Some (n', cn)) => Sum n (fun L => cd L i a * cd L j b) - Sum n' (fun L => cn L i a * cn L j b)
  end.

(** eia = mo_energy[:nocc, None] - mo_energy[None, nocc:], bno.py 325 *)
Definition eia (nocc : nat) (e : vec) : mat := fun i a => e i - e (nocc + a)%nat.

(** Block size from the memory limit, bno.py 326-328, mp2.py 56-57 *)
Definition block_size (nocc nvir : nat) (max_memory : Z) (blksize : option Z) : Z :=
  match blksize with Some b => b | None => (max_memory / Z.max (Z.of_nat (nocc * nvir * nvir * 8)) 1)%Z end.
(** The slices of brange(0, nocc, blksize) *)
Definition slices (nocc : nat) (blksize : Z) : list (nat * nat) :=
  match brange 0 (Z.of_nat nocc) blksize 1 None with
  | Ok l => map (fun s => (Z.to_nat (fst s), Z.to_nat (snd s))) l
  | ValueError => []
  end.
(** t2[blk] = x, for the block of the first index *)
Definition assign (blk : nat * nat) (x : ten) (t2 : ten) : ten := fun i j a b =>
  if (fst blk <=? i)%nat && (i <? snd blk)%nat then x i j a b else t2 i j a b.

(** ** Restricted *)
(** RMP2_Solver.make_t2, mp2.py 40-70; the part of _make_t2 without the energy, bno.py 322-344 *)
Definition make_t2 (nocc : nat) (e : vec) (g : integrals) (bl : list (nat * nat)) (out : ten) : ten :=
  fold_left (fun t2 blk => assign blk (fun i j a b => gijab g i j a b / (eia nocc e i a + eia nocc e j b)) t2) bl out.
(** sum over the indices of a block *)
Definition block_sum (blk : nat * nat) (f : nat -> F) : F := Sum (snd blk - fst blk) (fun i => f (fst blk + i)%nat).
(** tp, gp = einsum("ix,i...->x...", rfrag[blk], ...), bno.py 345-346 *)
Definition bproj (blk : nat * nat) (r : mat) (x : ten) : ten := fun p j a b => block_sum blk (fun i => r i p * x i j a b).
(** ecorr, bno.py 347; [nf] fragment orbitals *)
Definition contract2 (n1 n2 v1 v2 : nat) (x y : ten) : F := Sum n1 (fun i => Sum n2 (fun j => Sum v1 (fun a => Sum v2 (fun b => x i j a b * y i j a b)))).
Definition tr_ab (x : ten) : ten := fun i j a b => x i j b a.
Definition ecorr (nocc nvir nf : nat) (e : vec) (r : mat) (g : integrals) (bl : list (nat * nat)) : F :=
  fold_left (fun acc blk =>
    let t := fun i j a b => gijab g i j a b / (eia nocc e i a + eia nocc e j b) in
    let tp := bproj blk r t in let gp := bproj blk r (gijab g) in
    acc + (two * contract2 nf nocc nvir nvir tp gp - contract2 nf nocc nvir nvir tp (tr_ab gp))) bl 0.

(** ** Unrestricted: UMP2_Solver.make_t2, mp2.py 91-158; UMP2_BNO_Bath._make_t2, bno.py 541-646 *)
(** Mixed-spin integrals: eris[1] or einsum("Lia,Ljb->ijab", cderi[0], cderi[1]) *)
Inductive mixed :=
| Eris_ab (g : ten)
| Cderi_ab (naux : nat) (ca cb : nat -> mat) (neg : option (nat * (nat -> mat) * (nat -> mat))).
Definition gab (g : mixed) : ten := fun i j a b =>
  match g with
  | Eris_ab g => g i a j b
  | Cderi_ab n ca cb None => Sum n (fun L => ca L i a * cb L j b)
  | Cderi_ab n ca cb (Some (n', na, nb)) => Sum n (fun L => ca L i a * cb L j b) - Sum n' (fun L => na L i a * nb L j b)
  end.
(** t2blk = gijab / eijab; t2blk -= t2blk.transpose(0,1,3,2) *)
Definition t_ss (nocc : nat) (e : vec) (g : integrals) : ten := fun i j a b =>
  gijab g i j a b / (eia nocc e i a + eia nocc e j b) - gijab g i j b a / (eia nocc e i b + eia nocc e j a).
Definition t_ab (na nb : nat) (ea eb : vec) (g : mixed) : ten := fun i j a b => gab g i j a b / (eia na ea i a + eia nb eb j b).
(** mp2.py 124-142 and 149-157 *)
Definition umake_t2 (na nb : nat) (ea eb : vec) (gaa : integrals) (g : mixed) (gbb : integrals) (bla blb : list (nat * nat)) (out : ten * ten * ten) : ten * ten * ten :=
  let '(aa, ab) := fold_left (fun t blk => (assign blk (t_ss na ea gaa) (fst t), assign blk (t_ab na nb ea eb g) (snd t))) bla (fst (fst out), snd (fst out)) in
  let bb := fold_left (fun t blk => assign blk (t_ss nb eb gbb) t) blb (snd out) in
  (aa, ab, bb).
(** ecorr, bno.py 589-643 *)
Definition bprojb (n : nat) (r : mat) (x : ten) : ten := fun i p a b => Sum n (fun j => r j p * x i j a b).
Definition ecorr_ss (nocc nvir nf : nat) (e : vec) (r : mat) (g : integrals) (blk : nat * nat) : F :=
  let tp := bproj blk r (t_ss nocc e g) in let gp := bproj blk r (gijab g) in
  (contract2 nf nocc nvir nvir tp gp - contract2 nf nocc nvir nvir tp (tr_ab gp)) / (two * two).
Definition ecorr_ab (na va nb vb nfa nfb : nat) (ea eb : vec) (ra rb : mat) (g : mixed) (blk : nat * nat) : F :=
  let t := t_ab na nb ea eb g in
  contract2 nfa nb va vb (bproj blk ra t) (bproj blk ra (gab g)) / two
  + block_sum blk (fun i => Sum nfb (fun p => Sum va (fun a => Sum vb (fun b => bprojb nb rb t i p a b * bprojb nb rb (gab g) i p a b)))) / two.
Definition uecorr (na va nb vb nfa nfb : nat) (ea eb : vec) (ra rb : mat) (gaa : integrals) (g : mixed) (gbb : integrals) (bla blb : list (nat * nat)) : F :=
  let e1 := fold_left (fun acc blk => acc + ecorr_ss na va nfa ea ra gaa blk + ecorr_ab na va nb vb nfa nfb ea eb ra rb g blk) bla 0 in
  fold_left (fun acc blk => acc + ecorr_ss nb vb nfb eb rb gbb blk) blb e1.

(** ** Projection of the amplitudes onto the fragment-DMET space, bno.py 409-439 (restricted) and 648-703 (unrestricted) *)
Inductive occtype := Occupied | Virtual.
(** einsum("ix,x,jx->ij", rot, weights, rot) *)
Definition wproj (nx : nat) (rot : mat) (w : vec) : mat := fun i j => Sum nx (fun x => rot i x * w x * rot j x).
Definition exch (x : ten) : ten := fun i j a b => x j i b a.
Definition proj_v1 (v : nat) (p : mat) (t : ten) : ten := fun i j a b => Sum v (fun c => p a c * t i j c b).
Definition proj_v2 (v : nat) (p : mat) (t : ten) : ten := fun i j a b => Sum v (fun c => p b c * t i j a c).
Definition proj_o1 (n : nat) (p : mat) (t : ten) : ten := fun i j a b => Sum n (fun k => p i k * t k j a b).
Definition proj_o2 (n : nat) (p : mat) (t : ten) : ten := fun i j a b => Sum n (fun k => p j k * t i k a b).
Definition halve (x : F) : F := x / two.
(** [order] is 1 or 2; other values raise ValueError *)
Definition project_t2 (nocc nvir : nat) (o : occtype) (order : nat) (p : mat) (t : ten) : option ten :=
  match o, order with
  | Occupied, 1%nat => Some (proj_v1 nvir p t)
  | Occupied, 2%nat => Some (proj_v1 nvir p (proj_v2 nvir p t))
  | Virtual, 1%nat => Some (proj_o1 nocc p t)
  | Virtual, 2%nat => Some (proj_o1 nocc p (proj_o2 nocc p t))
  | _, _ => None
  end.
Definition sym_t2 (t : ten) : ten := fun i j a b => halve (t i j a b + exch t i j a b).
Definition project_ab (na va nb vb : nat) (o : occtype) (order : nat) (pa pb : mat) (t : ten) : option ten :=
  match o, order with
  | Occupied, 1%nat => Some (fun i j a b => halve (proj_v1 va pa t i j a b + proj_v2 vb pb t i j a b))
  | Occupied, 2%nat => Some (fun i j a b => halve (proj_v1 va pa (proj_v2 vb pb t) i j a b + proj_v2 vb pb (proj_v1 va pa t) i j a b))
  | Virtual, 1%nat => Some (fun i j a b => halve (proj_o1 na pa t i j a b + proj_o2 nb pb t i j a b))
  | Virtual, 2%nat => Some (fun i j a b => halve (proj_o1 na pa (proj_o2 nb pb t) i j a b + proj_o2 nb pb (proj_o1 na pa t) i j a b))
  | _, _ => None
  end.

(** ** Density matrices of the bath, bno.py 441-458 and 705-723 *)
Definition delta_dm1 (nocc nvir : nat) (o : occtype) (t : ten) : mat := fun p q =>
  match o with
  | Occupied => two * Sum nocc (fun k => Sum nvir (fun a => Sum nvir (fun b => t p k a b * t q k a b)))
                - Sum nocc (fun k => Sum nvir (fun a => Sum nvir (fun b => t p k a b * t q k b a)))
  | Virtual => two * Sum nocc (fun i => Sum nocc (fun j => Sum nvir (fun c => t i j p c * t i j q c)))
               - Sum nocc (fun i => Sum nocc (fun j => Sum nvir (fun c => t i j p c * t i j c q)))
  end.
Definition delta_dm1_a (na va nb vb : nat) (o : occtype) (aa ab : ten) : mat := fun p q =>
  match o with
  | Occupied => halve (Sum na (fun m => Sum va (fun e => Sum va (fun f => aa p m e f * aa q m e f))))
                + Sum nb (fun m => Sum va (fun e => Sum vb (fun f => ab p m e f * ab q m e f)))
  | Virtual => halve (Sum na (fun m => Sum na (fun n => Sum va (fun e => aa m n q e * aa m n p e))))
               + Sum na (fun m => Sum nb (fun n => Sum vb (fun e => ab m n q e * ab m n p e)))
  end.
Definition delta_dm1_b (na va nb vb : nat) (o : occtype) (bb ab : ten) : mat := fun p q =>
  match o with
  | Occupied => halve (Sum nb (fun m => Sum vb (fun e => Sum vb (fun f => bb p m e f * bb q m e f))))
                + Sum na (fun m => Sum va (fun e => Sum vb (fun f => ab m p e f * ab m q e f)))
  | Virtual => halve (Sum nb (fun m => Sum nb (fun n => Sum vb (fun e => bb m n q e * bb m n p e))))
               + Sum na (fun m => Sum nb (fun n => Sum va (fun e => ab m n e q * ab m n e p)))
  end.
(** make_delta_dm1 with the projection applied for project_dmet_order > 0, bno.py 441-458; None is the ValueError of a projection order above 2 *)
Definition make_delta_dm1 (nocc nvir : nat) (o : occtype) (order : nat) (p : mat) (t : ten) : option mat :=
  match order with
  | O => Some (delta_dm1 nocc nvir o t)
  | _ => option_map (fun x => delta_dm1 nocc nvir o (sym_t2 x)) (project_t2 nocc nvir o order p t)
  end.
(** bno.py 705-723 *)
Definition umake_delta_dm1 (na va nb vb : nat) (o : occtype) (order : nat) (pa pb : mat) (t : ten * ten * ten) : option (mat * mat) :=
  let '(aa, ab, bb) := t in
  match order with
  | O => Some (delta_dm1_a na va nb vb o aa ab, delta_dm1_b na va nb vb o bb ab)
  | _ => match project_t2 na va o order pa aa, project_ab na va nb vb o order pa pb ab, project_t2 nb vb o order pb bb with
         | Some aa, Some ab, Some bb => Some (delta_dm1_a na va nb vb o (sym_t2 aa) ab, delta_dm1_b na va nb vb o (sym_t2 bb) ab)
         | _, _, _ => None
         end
  end.
End Mp2.
Arguments integrals : clear implicits.
Arguments mixed : clear implicits.
