(** Models of the compression of three-centre integrals and of the selection of integral blocks:
    vayesta/solver/hamiltonian.py 178-235 (restricted) and 676-748 (unrestricted). *)
From Coq Require Import List Bool Arith Ascii String.
From Verif Require Import Alg Ord.
Import ListNotations.

Section Compress.
Context {K : oring}.
Open Scope K_scope.
Notation mat := (nat -> nat -> K).
(** np.linalg.svd(full_matrices=False) is an oracle: number of singular values, u, s, v. The two orbital indices are one index (reshape to n1*n2), 222-227. *)
Definition svd_t := nat -> nat -> mat -> nat * mat * (nat -> K) * mat.
(** compress_cderi, 222-228 (and the same text at 733-738): number of vectors and vectors *)
Definition compress_cderi (svd : svd_t) (thr : K) (naux nx : nat) (cd : mat) : nat * mat :=
  let '(k, u, s, v) := svd naux nx cd in
  let want := filter (fun n => ltb thr (s n)) (seq 0 k) in
  (List.length want, fun l x => s (nth l want 0%nat) * v (nth l want 0%nat) x).
(** get_cderi_bare, 209-235: number of vectors and vectors of the positive and the negative part *)
Definition get_cderi_bare (svd : svd_t) (compress : bool) (thr : K) (nx : nat) (pos : nat * mat) (neg : option (nat * mat)) : (nat * mat) * option (nat * mat) :=
  if compress then (compress_cderi svd thr (fst pos) nx (snd pos), option_map (fun c => compress_cderi svd thr (fst c) nx (snd c)) neg)
  else (pos, neg).
(** UClusterHamiltonian.get_cderi_bare, 716-748. Line 740 compresses cderi[0] twice. nx: orbital pairs of each spin (the reshape uses the shape of the array given). *)
Definition get_cderi_bare_u (svd : svd_t) (compress : bool) (thr : K) (nxa nxb : nat) (pos : (nat * mat) * (nat * mat)) (neg : option (nat * mat) * option (nat * mat))
  : ((nat * mat) * (nat * mat)) * (option (nat * mat) * option (nat * mat)) :=
  let comp nx c := compress_cderi svd thr (fst c) nx (snd c) in
  if compress then ((comp nxa (fst pos), comp nxa (fst pos)), (option_map (comp nxa) (fst neg), option_map (comp nxb) (snd neg)))
  else (pos, neg).
End Compress.

Section Blocks.
Context {K : cring}.
(** An orbital of the cluster: spin (false: alpha) and number *)
Notation ten := (nat -> nat -> nat -> nat -> K).
(** Numbers of occupied orbitals of each spin *)
Record cl := { na : nat; nb : nat }.
Definition is_occ (c : ascii) : bool := (Ascii.eqb c "o" || Ascii.eqb c "O")%char.
Definition is_vir (c : ascii) : bool := (Ascii.eqb c "v" || Ascii.eqb c "V")%char.
(** int(i.upper() == i), 700 *)
Definition beta (c : ascii) : bool := (Ascii.eqb c "O" || Ascii.eqb c "V")%char.
(** first orbital of the slice d[i], 704-709 (and of the coefficients, 687-692) *)
Definition start (c : cl) (x : ascii) : nat := if is_occ x then 0 else if beta x then nb c else na c.
(** The assertion 699 on the block *)
Definition valid (block : list ascii) : bool := (List.length block =? 4)%nat && forallb (fun c => is_occ c || is_vir c) block.
Definition ch (block : list ascii) (i : nat) : ascii := nth i block "o"%char.
Definition sp_sum (block : list ascii) : nat := List.length (filter beta block).
(** _get_eris_block, 698-714: the element [i;j;k;l] of the returned block (real integrals: conjugate is the identity) ; None: AssertionError *)
Definition get_eris_block (c : cl) (eris : ten * ten * ten) (block : list ascii) : option ten :=
  if valid block then
    let flip := (sp_sum block =? 2)%nat && beta (ch block 0) in
    let b := if flip then rev block else block in
    let '(aa, ab, bb) := eris in
    let e := match (sp_sum block / 2)%nat with 0%nat => aa | 1%nat => ab | _ => bb end in
    let res i j k l := e (start c (ch b 0) + i)%nat (start c (ch b 1) + j)%nat (start c (ch b 2) + k)%nat (start c (ch b 3) + l)%nat in
    Some (if flip then fun i j k l => res l k j i else res)
  else None.
(** The integrals over orbitals of any spin, (spin, number) *)
Notation orb := (bool * nat)%type.
(** get_eris_array(coeffs), 684-694, for a block not in the cache: integrals over the orbitals of the letters *)
Definition direct (c : cl) (I : orb -> orb -> orb -> orb -> K) (block : list ascii) : ten :=
  let o n i := (beta (ch block n), (start c (ch block n) + i)%nat) in
  fun i j k l => I (o 0%nat i) (o 1%nat j) (o 2%nat k) (o 3%nat l).
(** get_eris_array_uhf(c_active), 680: the arrays aa, ab, bb *)
Definition eris_uhf (I : orb -> orb -> orb -> orb -> K) : ten * ten * ten :=
  let f s t p q r u := I (s, p) (s, q) (t, r) (t, u) in (f false false, f false true, f true true).
(** get_eris_bare(block), 676-696; [cached]: whether self._eris is set *)
Definition get_eris_bare_u (c : cl) (I : orb -> orb -> orb -> orb -> K) (cached : bool) (block : list ascii) : option ten :=
  if cached then get_eris_block c (eris_uhf I) block else Some (direct c I block).
(** Restricted: RClusterHamiltonian.get_eris_bare(block), 190-196 and _get_eris_block, 198-204 (letters are lower-cased) *)
Definition rstart (no : nat) (x : ascii) : nat := if is_occ x then 0 else no.
Definition get_eris_bare_r (no : nat) (I : ten) (cached : bool) (block : list ascii) : option ten :=
  if valid block then
    Some (if cached then fun i j k l => I (rstart no (ch block 0) + i)%nat (rstart no (ch block 1) + j)%nat (rstart no (ch block 2) + k)%nat (rstart no (ch block 3) + l)%nat
          else let o n i := (rstart no (ch block n) + i)%nat in fun i j k l => I (o 0%nat i) (o 1%nat j) (o 2%nat k) (o 3%nat l))
  else None.
End Blocks.
