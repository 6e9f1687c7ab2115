(** * Self-energy of the whole system from the self-energies of the clusters
    Model of vayesta/core/qemb/self_energy.py 12-404 (make_self_energy_moments, make_self_energy_1proj, make_self_energy_2proj, remove_se_degeneracy,
    get_unique).
    Simplifications: real numbers in an ordered commutative ring, with half and the inverses of natural numbers as elements; arrays as functions of the
    indices with sizes as parameters; what the package dyson computes (block Lanczos, auxiliary shift, static potential) is arbitrary: a fragment carries the
    poles of its cluster self-energy, th[1] + tp[1], and a function static_pot; SVD, eigh and the square root are arbitrary functions whose
    specification is a hypothesis of the theorems; a complex coupling is a pair of real vectors; the single precision of np.sqrt(..., dtype=np.complex64) is
    ignored; a self-energy with a tuple of couplings and one with a single array are treated alike (as _unpack_couplings does); logging is left out; the
    overlaps of a fragment are given as matrices.  Not modelled: fit_hermitian, 407-504 (uses scipy and eta, neither of which it defines or imports). *)
From Coq Require Import List Bool Arith.
From Verif Require Import Alg Ord M_ExtCorr.
Import ListNotations.
Open Scope K_scope.

Section SelfEnergy.
Context {K : oring}.
Notation vec := (nat -> K).
Notation mat := (nat -> nat -> K).
(** the number 0.5; 1/n as needed for the mean; np.sqrt *)
Variable half : K.
Variable inv : nat -> K.
Variable sq : K -> K.

(** a @ b with inner dimension n, self_energy.py 60 and below *)
Definition mm (n : nat) (a b : mat) : mat := fun i j => Sum n (fun k => a i k * b k j).
(** a.T, 60 *)
Definition tp (a : mat) : mat := fun i j => a j i.
(** a + b, 0.5 * a, as used at 69-80 *)
Definition mplus (a b : mat) : mat := fun i j => a i j + b i j.
(** 0.5 * a, self_energy.py 69 *)
Definition mhalf (a : mat) : mat := fun i j => half * a i j.
(** np.zeros, 40-42 *)
Definition mzero : mat := fun _ _ => 0.
(** a @ u for a vector, 216 *)
Definition mv (n : nat) (a : mat) (u : vec) : vec := fun i => Sum n (fun k => a i k * u k).

(** dyson.Lehmann: poles (energy, left coupling, right coupling), real couplings *)
Definition pole := (K * vec * vec)%type.
(** the list of all poles of a self-energy, 55 *)
Definition lehmann := list pole.
(** a power of a pole energy, as in Lehmann.moment, 55 *)
Fixpoint npow (x : K) (n : nat) : K := match n with O => 1 | S n => x * npow x n end.
(** Lehmann.moment, as used at 55 *)
Definition moment (s : lehmann) (n : nat) : mat := fun p q => Lsum s (fun z => let '(e, l, r) := z in l p * npow e n * r q).
(** poles with complex couplings: energy, real and imaginary part of the left and of the right coupling *)
Definition cpole := (K * (vec * vec) * (vec * vec))%type.

(** A fragment: dimension of cluster and fragment; overlaps mo|cluster, mo|frag, frag|cluster; cluster.c_active, c_frag (nao rows); th[1] + tp[1]; self-energy of the cluster; 47-62 *)
Record sfrag := { s_nc : nat; s_nf : nat; s_mc : mat; s_mf : mat; s_fc : mat; s_ca : mat; s_cf : mat; s_t1 : mat; s_se : lehmann }.
(** se.as_static_potential(e_cls, eta=eta), 67 *)
Variable static_pot : lehmann -> vec -> mat.
(** f.get_symmetry_children(), 83 *)
Variable children : sfrag -> list sfrag.
(** number of AOs and the Fock matrix, 39 *)
Variable nao : nat.
Variable fock : mat.

(** cfc, 60 *)
Definition cfc (f : sfrag) : mat := mm (s_nf f) (tp (s_fc f)) (s_fc f).
(** fock_cls and e_cls, 62-63 *)
Definition fock_cls (f : sfrag) : mat := mm nao (mm nao (tp (s_ca f)) fock) (s_ca f).
(** e_cls, 63 *)
Definition e_cls (f : sfrag) : vec := fun i => fock_cls f i i.
(** v_cls, 67; static_se_cls, 73 *)
Definition v_cls (f : sfrag) : mat := static_pot (s_se f) (e_cls f).
(** static_se_cls, 73 *)
Definition static_se_cls (f : sfrag) : mat := fun i j => s_t1 f i j - fock_cls f i j.
(** one projector: v_frag 68-69 and static_self_energy_frag 74-75 *)
Definition sym1 (f : sfrag) (v : mat) : mat := let v := mm (s_nc f) (cfc f) v in mhalf (mplus v (tp v)).
(** one projector: se_moms_frag, 79 *)
Definition symm1 (f : sfrag) (m : mat) : mat := mhalf (mplus (mm (s_nc f) (cfc f) m) (mm (s_nc f) m (cfc f))).
(** two projectors: fc @ v @ fc.T, 92 and 97 *)
Definition two_proj (f : sfrag) (v : mat) : mat := mm (s_nc f) (mm (s_nc f) (s_fc f) v) (tp (s_fc f)).
(** c @ v @ c.T for v of dimension n, 70, 76, 80, 93, 98, 102 *)
Definition back (n : nat) (c v : mat) : mat := mm n (mm n c v) (tp c).

(** the three accumulators: self-energy moments, static self-energy, static potential; 40-42 *)
Definition acc3 := ((nat -> mat) * mat * mat)%type.
(** the += of the three accumulators, 70, 76, 80 *)
Definition add3 (a : acc3) (m : nat -> mat) (s v : mat) : acc3 := let '(am, as_, av) := a in ((fun n => mplus (am n) (m n)), mplus as_ s, mplus av v).
(** body of the loop of make_self_energy_moments, 45-110 *)
Definition moments_step (use_sym : bool) (proj : nat) (a : acc3) (f : sfrag) : acc3 :=
  let kids := if use_sym then children f else [] in
  match proj with
  | 1 =>
      let v := sym1 f (v_cls f) in let s := sym1 f (static_se_cls f) in let m := fun n => symm1 f (moment (s_se f) n) in
      let a := add3 a (fun n => back (s_nc f) (s_mc f) (m n)) (back (s_nc f) (s_mc f) s) (back (s_nc f) (s_ca f) v) in
      fold_left (fun a c => add3 a (fun n => back (s_nc f) (s_mc c) (m n)) (back (s_nc f) (s_mc c) s) (back (s_nc f) (s_ca c) v)) kids a
  | 2 =>
      let v := two_proj f (v_cls f) in let s := two_proj f (static_se_cls f) in let m := fun n => mhalf (two_proj f (moment (s_se f) n)) in
      let a := add3 a (fun n => back (s_nf f) (s_mf f) (m n)) (back (s_nf f) (s_mf f) s) (back (s_nf f) (s_cf f) v) in
      fold_left (fun a c => add3 a (fun n => back (s_nf f) (s_mf c) (m n)) (back (s_nf f) (s_mf c) s) (back (s_nf f) (s_cf c) v)) kids a
  | _ => a
  end.
(** make_self_energy_moments, 12-112; frags: the fragments of line 44; the moments as a function of the order *)
Definition make_moments (use_sym : bool) (proj : nat) (frags : list sfrag) : acc3 := fold_left (moments_step use_sym proj) frags ((fun _ => mzero), mzero, mzero).

(** ** Lehmann representation *)
(** np.linalg.svd: singular values with left and right vectors; np.linalg.eigh: eigenvalues with vectors *)
Variable svd : nat -> mat -> list pole.
Variable eigh : nat -> mat -> list (K * vec).
(** sym_coup[a], 199-200 *)
Definition sym_coup (f : sfrag) (l r : vec) : mat := fun p q => half * (mv (s_nc f) (cfc f) l p * r q + l p * mv (s_nc f) (cfc f) r q).
(** a vector of zeros, the imaginary part of a real coupling *)
Definition vzero : vec := fun _ => 0.
(** use_svd: the poles from one pole, 204-213 *)
Definition split_svd (tol : K) (f : sfrag) (z : pole) : result (list cpole) :=
  let '(e, l, r) := z in
  let kept := filter (fun y : pole => ltb tol (absK (fst (fst y)))) (svd (s_nc f) (sym_coup f l r)) in
  if Nat.leb (length kept) 2 then Ret (map (fun y : pole => let '(s, u, v) := y in (e, ((fun p => u p * sq s), vzero), ((fun p => v p * sq s), vzero))) kept) else AssertErr.
(** vec * sqrt(val) in complex numbers, 226 and 371 *)
Definition csqrt (val : K) (u : vec) : vec * vec := if ltb val 0 then (vzero, (fun p => u p * sq (- val))) else ((fun p => u p * sq val), vzero).
(** not use_svd: the poles from one pole, 221-228 *)
Definition split_eigh (tol : K) (f : sfrag) (z : pole) : result (list cpole) :=
  let '(e, l, r) := z in
  let kept := filter (fun y : K * vec => ltb tol (absK (fst y))) (eigh (s_nc f) (sym_coup f l r)) in
  if Nat.leb (length kept) 2 then Ret (map (fun y : K * vec => let w := csqrt (fst y) (snd y) in (e, w, w)) kept) else AssertErr.
(** the loop over the poles of the cluster, 204 and 221 *)
Fixpoint all_poles (g : pole -> result (list cpole)) (l : lehmann) : result (list cpole) :=
  match l with [] => Ret [] | z :: l => rbind (g z) (fun a => rbind (all_poles g l) (fun b => Ret (a ++ b))) end.
(** mc @ couplings, 216-217, 232, 242-245 *)
Definition rot_pole (n : nat) (c : mat) (z : cpole) : cpole := let '(e, (lr, li), (rr, ri)) := z in (e, (mv n c lr, mv n c li), (mv n c rr, mv n c ri)).
(** the loop over the fragments, 156-245; np.hstack of an empty list raises ValueError (215, 230) *)
Fixpoint lehmann1 (use_sym use_svd : bool) (tol : K) (frags : list sfrag) : result (list cpole) :=
  match frags with
  | [] => Ret []
  | f :: frags =>
      rbind (all_poles (if use_svd then split_svd tol f else split_eigh tol f) (s_se f)) (fun z =>
      match s_se f with [] => ValueErr | _ =>
        let own := map (rot_pole (s_nc f) (s_mc f)) z in
        let kids := flat_map (fun c => map (rot_pole (s_nc f) (s_mc c)) z) (if use_sym then children f else []) in
        rbind (lehmann1 use_sym use_svd tol frags) (fun rest => Ret (own ++ kids ++ rest))
      end)
  end.

(** get_unique, 384-404: length of the run of entries closer than atol to the first one, 393-399 *)
Fixpoint run_len (atol x0 : K) (l : list K) : nat := match l with [] => O | y :: l => if ltb (absK (x0 - y)) atol then S (run_len atol x0 l) else O end.
(** the slices, first index and index after the last, 390-402; the outer loop advances by at least one, so that the length bounds the number of rounds *)
Fixpoint slices (fuel : nat) (atol : K) (i : nat) (l : list K) : list (nat * nat) :=
  match fuel, l with
  | S fuel, x :: l => let j := S (run_len atol x l) in (i, (i + j)%nat) :: slices fuel atol (i + j) (skipn (j - 1) l)
  | _, _ => []
  end.
(** array[s], 364 and 403 *)
Definition cut {A} (s : nat * nat) (l : list A) : list A := firstn (snd s - fst s) (skipn (fst s) l).
(** array[s].mean(), 403 *)
Definition mean (l : list K) : K := inv (length l) * Lsum l (fun x => x).
(** get_unique, 384-404 *)
Definition get_unique (atol : K) (l : list K) : list (K * (nat * nat)) := map (fun s => (mean (cut s l), s)) (slices (length l) atol 0 l).
(** remove_se_degeneracy, 354-382: n is the dimension of the self-energy; np.hstack of an empty list raises ValueError (381) *)
Definition remove_degeneracy (n : nat) (dtol etol : K) (drop : bool) (se : list cpole) : result lehmann :=
  let groups := get_unique dtol (map (fun z : cpole => fst (fst z)) se) in
  match groups with [] => ValueErr | _ =>
    Ret (flat_map (fun g : K * (nat * nat) =>
      let m : mat := fun p q => Lsum (cut (snd g) se) (fun z => let '(_, (lr, li), (rr, ri)) := z in lr p * rr q - li p * ri q) in
      let kept := filter (fun y : K * vec => if drop then ltb etol (fst y) else ltb etol (absK (fst y))) (eigh n m) in
      map (fun y : K * vec => let w := fst (csqrt (fst y) (snd y)) in (fst g, w, w)) kept) groups)
  end.
(** the static parts of 1proj, 188-196 and 236-239, are those of make_self_energy_moments with proj=1 *)
Definition statics (a : acc3) : mat * mat := (snd (fst a), snd a).
(** make_self_energy_1proj, 114-256; np.concatenate([]) raises ValueError (247) *)
Definition make_1proj (use_sym use_svd : bool) (nmo : nat) (dtol etol : K) (drop : bool) (frags : list sfrag) : result (lehmann * (mat * mat)) :=
  rbind (lehmann1 use_sym use_svd etol frags) (fun z => match frags with [] => ValueErr | _ =>
  rbind (remove_degeneracy nmo dtol etol drop z) (fun se => Ret (se, statics (make_moments use_sym 1 frags))) end).

(** make_self_energy_2proj, 259-352; with an empty list of fragments couplings[0] raises IndexError, which is not modelled *)
Definition rot2 (f : sfrag) (mf fc : mat) (z : pole) : pole := let '(e, l, r) := z in (e, mv (s_nf f) mf (mv (s_nc f) fc l), mv (s_nf f) mf (mv (s_nc f) fc r)).
(** the poles of one fragment and its symmetry children, 300-345 *)
Definition poles2 (use_sym : bool) (f : sfrag) : lehmann :=
  map (rot2 f (s_mf f) (s_fc f)) (s_se f) ++ flat_map (fun c => map (rot2 f (s_mf c) (s_fc c)) (s_se f)) (if use_sym then children f else []).
(** the whole of make_self_energy_2proj, 259-352 *)
Definition make_2proj (use_sym : bool) (frags : list sfrag) : lehmann * (mat * mat) := (flat_map (poles2 use_sym) frags, statics (make_moments use_sym 2 frags)).
End SelfEnergy.
