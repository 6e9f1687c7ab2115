(** Model of the projected correlation energy: vayesta/ewf/fragment.py 355-407 (restricted get_fragment_energy), ewf/ufragment.py 22-142
    (unrestricted), ewf/ewf.py 333-350 (get_wf_corr_energy); the amplitudes are projected as in M_Wf (core/types/wf/project.py).
    Simplifications: real arrays as functions of their indices over a commutative ring with 1/2 ([half]); shapes are kept where the code slices
    padded arrays or where they may not fit; Fock matrix and integrals are those in the cluster basis (fov = c_occ.T fock c_vir,
    hamil.get_eris_bare); no logging; one MPI rank (the allreduce decorator is C15's topic). *)
From Coq Require Import List Arith Bool.
From Verif Require Import Alg M_Wf.
Import ListNotations.

Section Energy.
Context {K : cring}.
Open Scope K_scope.
Variable half : K.
Notation mat := (nat -> nat -> K).
Notation ten := (nat -> nat -> nat -> nat -> K).

(** Sum over four indices (einsum to a scalar) *)
Definition Sum4 (n1 n2 n3 n4 : nat) (f : ten) : K := Sum n1 (fun i => Sum n2 (fun j => Sum n3 (fun a => Sum n4 (fun b => f i j a b)))).

(** ** Restricted *)
(** fragment.py 384-394: singles energy; [px] is get_overlap("proj|cluster-occ") with axis1="fragment", None otherwise (amplitudes in the cluster) *)
Definition e_singles (px : option (proj K)) (no nv : nat) (fov : mat) (c1 : option mat) : K :=
  match c1 with
  | None => 0
  | Some c1 =>
      match px with
      | Some p => (1 + 1) * Sum no (fun i => Sum nv (fun a => Sum (prow p) (fun x => fov i a * pmat p x i * c1 x a)))
      | None => (1 + 1) * Sum no (fun i => Sum nv (fun a => fov i a * c1 i a))
      end
  end.
(** 399-402: doubles energy; [g] is the ovvo block *)
Definition e_doubles (px : option (proj K)) (no nv : nat) (g c2 : ten) : K :=
  match px with
  | Some p => (1 + 1) * Sum (prow p) (fun x => Sum4 no no nv nv (fun i j a b => pmat p x i * c2 x j a b * g i a b j))
              - Sum (prow p) (fun x => Sum4 no no nv nv (fun i j a b => pmat p x i * c2 x j a b * g i b a j))
  | None => (1 + 1) * Sum4 no no nv nv (fun i j a b => c2 i j a b * g i a b j) - Sum4 no no nv nv (fun i j a b => c2 i j a b * g i b a j)
  end.
(** get_fragment_energy, 355-407; [rows] is the first dimension of the amplitudes, which einsum compares with that of the projector *)
Definition frag_energy (px : option (proj K)) (rows no nv : nat) (fov : mat) (g : ten) (symf : K) (c1 : option mat) (c2 : ten) : option (K * K * K) :=
  if (match px with Some p => prow p =? rows | None => rows =? no end)%nat then
    let es := symf * e_singles px no nv fov c1 in
    let ed := symf * e_doubles px no nv g c2 in
    Some (es, ed, es + ed)
  else None.

(** A fragment with results. fr: get_overlap("frag|cluster-occ"), pr: get_overlap("proj|cluster-occ"), ca1/ca2: cluster amplitudes
    (results.wf.as_cisd(c0=1.0)), stored: results.e_corr, nchildren: n_symmetry_children *)
Record efrag := { fr : proj K; pr : proj K; eno : nat; env : nat; efov : mat; eg : ten; ca1 : mat; ca2 : ten; symf : K; nchildren : nat; stored : option K }.
(** Body of the loop, ewf.py 337-347 *)
Definition energy_of (x : efrag) : option K :=
  match stored x with
  | Some e => Some e
  | None => option_map snd (frag_energy (Some (pr x)) (prow (fr x)) (eno x) (env x) (efov x) (eg x) (symf x) (Some (pc1 (ca1 x) (fr x))) (pc2 (ca2 x) (fr x)))
  end.
(** x.symmetry_factor, core/qemb/fragment.py 817-820, 812-815 *)
Definition symmetry_factor (x : efrag) : K := nK (nchildren x + 1).
(** get_wf_corr_energy, ewf.py 333-350; [ncinv] is 1/ncells *)
Definition wf_corr_energy (ncinv : K) (frags : list efrag) : option K :=
  option_map (fun e => e * ncinv)
    (fold_left (fun acc x => match acc, energy_of x with Some e, Some ex => Some (e + symmetry_factor x * ex) | _, _ => None end) frags (Some 0)).

(** ** Unrestricted *)
(** Doubles amplitudes with shape, as padded by the solvers *)
Record arr := { sh : nat * nat * nat * nat; el : ten }.
Definition eqs (s t : nat * nat * nat * nat) : bool := let '(a, b, c, d) := s in let '(a', b', c', d') := t in (a =? a')%nat && (b =? b')%nat && (c =? c')%nat && (d =? d')%nat.
(** c[:n1, :n2, :n3, :n4] *)
Definition cut (n1 n2 n3 n4 : nat) (c : arr) : arr := let '(a, b, c', d) := sh c in {| sh := (Nat.min n1 a, Nat.min n2 b, Nat.min n3 c', Nat.min n4 d); el := el c |}.
(** c.transpose(1, 0, 3, 2) *)
Definition swap (c : arr) : arr := let '(a, b, c', d) := sh c in {| sh := (b, a, d, c'); el := exch (el c) |}.
(** einsum("xi,xjab,iajb", p, c, g) *)
Definition direct (p : proj K) (no no' nv nv' : nat) (c g : ten) : K := Sum (prow p) (fun x => Sum4 no no' nv nv' (fun i j a b => pmat p x i * c x j a b * g i a j b)).
(** einsum("xi,xjab,ibja", p, c, g) *)
Definition exchange (p : proj K) (no nv : nat) (c g : ten) : K := Sum (prow p) (fun x => Sum4 no no nv nv (fun i j a b => pmat p x i * c x j a b * g i b j a)).
(** einsum("xi,xjab,jbia", p, c, g) with the first pair of indices of c and p belonging to the second electron of g *)
Definition direct_ba (p : proj K) (no no' nv nv' : nat) (c g : ten) : K := Sum (prow p) (fun x => Sum4 no' no nv' nv (fun i j a b => pmat p x i * c x j a b * g j b i a)).
(** ufragment.py 63-84, axis1="fragment"; [order_ab] is c2ba_order == "ab". None: shapes do not fit in einsum *)
Definition u_doubles (pa pb : proj K) (noa nob nva nvb : nat) (gaa gab gbb : ten) (order_ab : bool) (caa cab cba cbb : arr) : option K :=
  let caa := cut (prow pa) noa nva nva caa in
  let cab := cut (prow pa) nob nva nvb cab in
  let cba := cut (prow pb) noa nvb nva cba in
  let cbb := cut (prow pb) nob nvb nvb cbb in
  let cba := if order_ab then swap cba else cba in
  if eqs (sh caa) (prow pa, noa, nva, nva) && eqs (sh cab) (prow pa, nob, nva, nvb) && eqs (sh cba) (prow pb, noa, nvb, nva) && eqs (sh cbb) (prow pb, nob, nvb, nvb) then
    Some (half * half * direct pa noa noa nva nva (el caa) gaa - half * half * exchange pa noa nva (el caa) gaa
          + half * half * direct pb nob nob nvb nvb (el cbb) gbb - half * half * exchange pb nob nvb (el cbb) gbb
          + half * direct pa noa nob nva nvb (el cab) gab + half * direct_ba pb noa nob nva nvb (el cba) gab)
  else None.
(** 86-101, amplitudes in the cluster space (already without padding) *)
Definition u_doubles_cl (noa nob nva nvb : nat) (gaa gab gbb caa cab cbb : ten) : K :=
  half * half * Sum4 noa noa nva nva (fun i j a b => caa i j a b * gaa i a j b) - half * half * Sum4 noa noa nva nva (fun i j a b => caa i j a b * gaa i b j a)
  + half * half * Sum4 nob nob nvb nvb (fun i j a b => cbb i j a b * gbb i a j b) - half * half * Sum4 nob nob nvb nvb (fun i j a b => cbb i j a b * gbb i b j a)
  + Sum4 noa nob nva nvb (fun i j a b => cab i j a b * gab i a j b).
(** 103-137: singles; without occupied or virtual orbitals nothing is added, which is the empty sum *)
Definition u_singles (p : proj K) (no nv : nat) (fov c1 : mat) : K := Sum no (fun i => Sum nv (fun a => Sum (prow p) (fun x => fov i a * pmat p x i * c1 x a))).
(** The whole function, 22-142. Amplitudes in the cluster space ([Cluster]) together with singles fail in 121: the slices oaf, obf are only
    set with axis1="fragment". *)
Inductive amplitudes := Fragment (pa pb : proj K) (order_ab : bool) (caa cab cba cbb : arr) | Cluster (caa cab cbb : ten).
Definition ufrag_energy (noa nob nva nvb : nat) (fova fovb : mat) (gaa gab gbb : ten) (symf : K) (c1 : option (mat * mat)) (c2 : amplitudes) : option (K * K * K) :=
  match c2 with
  | Fragment pa pb order_ab caa cab cba cbb =>
      match u_doubles pa pb noa nob nva nvb gaa gab gbb order_ab caa cab cba cbb with
      | None => None
      | Some ed =>
          let es := match c1 with None => 0 | Some (ca, cb) => u_singles pa noa nva fova ca + u_singles pb nob nvb fovb cb end in
          Some (symf * es, symf * ed, symf * es + symf * ed)
      end
  | Cluster caa cab cbb =>
      match c1 with
      | None => let ed := u_doubles_cl noa nob nva nvb gaa gab gbb caa cab cbb in Some (symf * 0, symf * ed, symf * 0 + symf * ed)
      | Some _ => None
      end
  end.
(** A fragment with results; amplitudes of the cluster wave function (results.wf.as_cisd(c0=1.0): aa, ab, bb) *)
Record uefrag := { ufra : proj K; ufrb : proj K; upra : proj K; uprb : proj K; unoa : nat; unob : nat; unva : nat; unvb : nat;
  ufova : mat; ufovb : mat; ugaa : ten; ugab : ten; ugbb : ten; uca : mat; ucb : mat; ucaa : ten; ucab : ten; ucbb : ten; usymf : K; unchildren : nat; ustored : option K }.
(** Body of the loop, ewf.py 337-347, with the projection of M_Wf (project.py 23-61: aa, ab with alpha, ba, bb with beta projector) *)
Definition uenergy_of (x : uefrag) : option K :=
  match ustored x with
  | Some e => Some e
  | None =>
      match project_uc2 (Some (U3 (ucaa x) (ucab x) (ucbb x))) (Some (ufra x, ufrb x)) with
      | Some (U4 aa ab ba bb) =>
          option_map snd (ufrag_energy (unoa x) (unob x) (unva x) (unvb x) (ufova x) (ufovb x) (ugaa x) (ugab x) (ugbb x) (usymf x)
            (project_uc1 (Some (uca x, ucb x)) (Some (ufra x, ufrb x)))
            (Fragment (upra x) (uprb x) false
               {| sh := (prow (ufra x), unoa x, unva x, unva x); el := aa |} {| sh := (prow (ufra x), unob x, unva x, unvb x); el := ab |}
               {| sh := (prow (ufrb x), unoa x, unvb x, unva x); el := ba |} {| sh := (prow (ufrb x), unob x, unvb x, unvb x); el := bb |}))
      | _ => None
      end
  end.
Definition u_wf_corr_energy (ncinv : K) (frags : list uefrag) : option K :=
  option_map (fun e => e * ncinv)
    (fold_left (fun acc x => match acc, uenergy_of x with Some e, Some ex => Some (e + nK (unchildren x + 1) * ex) | _, _ => None end) frags (Some 0)).
End Energy.

