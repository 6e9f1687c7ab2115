(** Model of the bosonic bath from RPA: vayesta/core/bosonic_bath/bbath.py 8-78, vayesta/core/bosonic_bath/qba_rpa.py 7-111,
    vayesta/core/qemb/qemb.py 728-753 and vayesta/core/qemb/fragment.py 980-1007.

    Modelled: the excitations of a cluster, the target excitations with the options for orbitals and local projection, the
    division of the RPA moment among the fragments, the bosons from the moment, and their truncation.

    Simplifications: floats are elements of an ordered commutative ring.  1/sqrt(2), [x ** (-0.5)], [numpy.linalg.eigh] and the
    RPA moment are arbitrary parameters; their properties are hypotheses of the theorems.  A matrix is a function with explicit
    sizes; pairs of occupied and virtual orbitals are numbered row by row as by [reshape].  The number of a threshold of type
    "number" is natural.  Left out: logging, MPI, fragments related by symmetry. *)
From Coq Require Import List Arith Lia Bool String.
From Verif Require Import Alg Ord Mat M_ExtCorr M_Ewdmet.
Import ListNotations.
Local Open Scope list_scope.

Section M.
Context (K : oring).
Notation vec := (nat -> K).
Notation mt := (nat -> nat -> K).
Variables (hr : K) (rs : K -> K) (eigh : nat -> mt -> vec * mt) (mom : nat -> mt -> mt).
Open Scope K_scope.

(** [np.hstack((x, x))] for x with n columns. (bbath.py 25, qba_rpa.py 77) *)
Definition twice (n : nat) (x : mt) : mt := fun r c => if (c <? n)%nat then x r c else x r (c - n)%nat.

(** Excitations of the cluster for no, nv orbitals of the system and nvc virtual orbitals of the cluster; [co], [cv] are the
    overlaps of cluster and molecular orbitals. (bbath.py 21-25) *)
Definition cluster_excitations (no nv nvc : nat) (co cv : mt) : mt :=
  twice (no * nv) (fun r c => co (r / nvc)%nat (c / nv)%nat * cv (r mod nvc)%nat (c mod nv)%nat * hr).

(** Target orbitals by name. (qba_rpa.py 32-42) *)
Definition c_target {A} (name : string) (full dmet : A) : result A :=
  if String.eqb name "full" then Ret full else if String.eqb name "dmet" then Ret dmet else ValueErr.
(** [s[-k:] == e] for a text e of length k. *)
Definition ends (k : nat) (e s : string) : bool := String.eqb (substring (String.length s - k) k s) e.
(** Which of the occupied and virtual orbitals are projected onto the fragment. (qba_rpa.py 44-54) *)
Definition c_loc (name : option string) : result (bool * bool) :=
  match name with
  | None => Ret (false, false)
  | Some s =>
    match String.index 0 "fragment" s with
    | Some _ => if (String.length s =? 8)%nat || ends 3 "occ" s then Ret (true, false)
                else if ends 2 "ov" s then Ret (true, true) else ValueErr
    | None => ValueErr
    end
  end.
(** Projection of t orbitals c onto f orbitals l, both in n molecular orbitals. (qba_rpa.py 69-74) *)
Definition project (n t f : nat) (c l : mt) : mt := mm t c (mm f (tr (mm n (tr l) c)) (mm n (tr l) c)).
(** gen_target_excitation for target orbitals (numbers and coefficients) and fragment orbitals [lo], [lv]. (qba_rpa.py 56-77) *)
Definition targets (no nv nf : nat) (orbs : string) (loc : option string) (full dmet : (nat * mt) * (nat * mt)) (lo lv : mt)
  : result (nat * mt) :=
  rbind (c_target orbs full dmet) (fun '((n_o, c_o), (n_v, c_v)) =>
  rbind (c_loc loc) (fun '(b_o, b_v) =>
  let c_o := if b_o then project no n_o nf c_o lo else c_o in
  let c_v := if b_v then project nv n_v nf c_v lv else c_v in
  Ret ((n_o * n_v)%nat, twice (no * nv) (fun r c => c_o (c / nv)%nat (r / n_v)%nat * c_v (c mod nv)%nat (r mod n_v)%nat)))).

(** [np.vstack] and [np.vsplit] into parts of given numbers of rows. (qemb.py 743, 747) *)
Fixpoint vstack (l : list (nat * mt)) : nat * mt :=
  match l with
  | [] => (O, fun _ _ => 0)
  | (n, t) :: l => let '(m, u) := vstack l in ((n + m)%nat, fun i j => if (i <? n)%nat then t i j else u (i - n)%nat j)
  end.
Fixpoint vsplit (ns : list nat) (a : mt) : list mt :=
  match ns with [] => [] | n :: ns => a :: vsplit ns (fun i j => a (n + i)%nat j) end.
(** The moment of each fragment; None are fragments without a bosonic bath, whose targets count zero rows.
    (qemb.py 742-748, fragment.py 983-984) *)
Definition moments (ts : list (option (nat * mt))) : list mt :=
  let '(n, t) := vstack (flat_map (fun x => match x with Some y => [y] | None => [] end) ts) in
  vsplit (map (fun x => match x with Some y => fst y | None => O end) ts) (mom n t).

(** The moment without excitations of the cluster; nex excitations, ncl of the cluster. (qba_rpa.py 94-97) *)
Definition m0_env (nex ncl : nat) (m0 clus : mt) : mt := msub m0 (mm ncl (mm nex m0 (tr clus)) clus).
(** Occupations and coefficients of the bosons. (qba_rpa.py 98-111) *)
Definition boson_coeff (nt nex ncl : nat) (m0 clus : mt) : mt * vec :=
  let e := m0_env nex ncl m0 clus in
  let '(w, c) := eigh nt (mm nex e (tr e)) in
  let occup := fun i => w (nt - 1 - i)%nat in
  let c := fun p i => c p (nt - 1 - i)%nat in
  (mm nt (tr (fun p i => c p i * rs (occup i))) e, occup).

(** Boson_Threshold: the types of thresholds that are not refused. (bbath.py 8-12) *)
Inductive thr := Number (n : nat) | Occupation (t : K) | Truncation (t : K) | Percent.
(** The least of k, ..., k + fuel - 1 at which the sum of the first occupations reaches the target.
    (core/bath/bno.py 46-50) *)
Fixpoint find (pos : vec) (target : K) (k fuel : nat) : option nat :=
  match fuel with O => None | S fuel => if leb target (Sum k pos) then Some k else find pos target (S k) fuel end.
(** get_number; a RuntimeError is [UnboundErr]. (core/bath/bno.py 27-53, bbath.py 10-11) *)
Definition get_number (th : thr) (n : nat) (occup : vec) : result nat :=
  match th with
  | Percent => ValueErr
  | _ => if (n =? 0)%nat then Ret O else
    match th with
    | Number k => Ret k
    | Occupation t => Ret (count n (fun i => leb t (occup i)))
    | Truncation t => let pos := fun i => if ltb (occup i) 0 then 0 else occup i in
        match find pos (Sum n pos - t) 0 (S n) with Some k => Ret k | None => UnboundErr end
    | Percent => ValueErr
    end
  end.
(** Bosons of the bath and the rest. (bbath.py 42-78, fragment.py 999-1005) *)
Definition boson_bath (th : thr) (nt nex ncl : nat) (m0 clus : mt) : result ((nat * mt) * (nat * mt)) :=
  let '(coeff, occup) := boson_coeff nt nex ncl m0 clus in
  rbind (get_number th nt occup) (fun k =>
  let b := Nat.min k nt in Ret ((b, coeff), ((nt - b)%nat, fun i j => coeff (b + i)%nat j))).
End M.
