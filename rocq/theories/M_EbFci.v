(** * Exact diagonalisation of coupled electron-boson systems
    Model of vayesta/solver/eb_fci/ebfci_slow.py 15-696, vayesta/solver/eb_fci/uebfci_slow.py (where it differs) and of what vayesta/solver/eb_fci/ebfci.py takes from them.
    Simplifications: numbers are elements of a commutative ring in which half is one half and ninv the inverse of the number of electrons; a vector of the product space is a function of the
    index of the alpha string, that of the beta string and the list of the occupations of the bosons, so that reshape and ravel are left out; an array to which a loop adds is the
    sum of what is added; what pyscf computes is given by its specification: the link tables of cistring.gen_linkstr_index are arbitrary lists of (a, i, string, sign), absorb_h1e and reorder_rdm are
    written down from pyscf; lib.davidson is arbitrary, the theorems speak of any vector that it may return; numpy.sqrt of an integer is an arbitrary function of the integer.
    Not modelled: contract_1e (always raises), the electronic part of make_hdiag (only used as preconditioner), random noise of the initial guess, run_hub_test and run_ep_hubbard. *)
From Coq Require Import List Bool Arith.
From Verif Require Import Alg.
Import ListNotations.
Open Scope K_scope.

Section EbFci.
Context {K : cring}.
Notation mat := (nat -> nat -> K).
Notation ten := (nat -> nat -> nat -> nat -> K).
(** a vector with the shape of make_shape, ebfci_slow.py 38-44: alpha string, beta string, occupations *)
Definition ci := (nat -> nat -> list nat -> K).
(** an entry of a link table: orbitals a and i, the string reached by a^+ i, the sign; ebfci_slow.py 88-90 *)
Definition entry := (nat * nat * nat * K)%type.
(** 0.5 and 1/nelec (absorb_h1e); (neleca + nelecb)/norb, 125; numpy.sqrt of a natural number, 165 and 189 *)
Variable half ninv zfac : K.
Variable sq : nat -> K.
(** norb, nbosons, max_occ and the two link tables, of which the lengths are the numbers of strings; 76-85 *)
Variable norb nbos mocc : nat.
Variable tabA tabB : list (list entry).

(** sum over all occupations of n bosons with at most m each, as in a contraction over the axes after the second *)
Fixpoint BSum (n m : nat) (f : list nat -> K) : K := match n with O => f [] | S n => Sum (S m) (fun k => BSum n m (fun l => f (k :: l))) end.
(** the index with the occupation of boson b replaced, slices_for 248-259 *)
Fixpoint upd (b v : nat) (l : list nat) : list nat := match l, b with [], _ => [] | _ :: l, O => v :: l | x :: l, S b => x :: upd b v l end.
(** numpy.dot of two raveled vectors, 573 *)
Definition dot (x y : ci) : K := Sum (length tabA) (fun sa => Sum (length tabB) (fun sb => BSum nbos mocc (fun l => x sa sb l * y sa sb l))).

(** t1[a, i, str1] += sign * ci0[str0], 88-90, and the same for beta, 91-93 *)
Definition ex_a (c : ci) (a i : nat) : ci := fun sa sb l => Sum (length tabA) (fun str0 => Lsum (nth str0 tabA []) (fun e : entry => let '(a', i', str1, sg) := e in
  if Nat.eqb a' a && Nat.eqb i' i && Nat.eqb str1 sa then sg * c str0 sb l else 0)).
Definition ex_b (c : ci) (a i : nat) : ci := fun sa sb l => Sum (length tabB) (fun str0 => Lsum (nth str0 tabB []) (fun e : entry => let '(a', i', str1, sg) := e in
  if Nat.eqb a' a && Nat.eqb i' i && Nat.eqb str1 sb then sg * c sa str0 l else 0)).
(** fcinew[str1] += sign * t1[a, i, str0], 99-101, and the same for beta, 102-104 *)
Definition gat_a (t : nat -> nat -> ci) : ci := fun sa sb l => Sum (length tabA) (fun str0 => Lsum (nth str0 tabA []) (fun e : entry => let '(a, i, str1, sg) := e in
  if Nat.eqb str1 sa then sg * t a i str0 sb l else 0)).
Definition gat_b (t : nat -> nat -> ci) : ci := fun sa sb l => Sum (length tabB) (fun str0 => Lsum (nth str0 tabB []) (fun e : entry => let '(a, i, str1, sg) := e in
  if Nat.eqb str1 sb then sg * t a i sa str0 l else 0)).
(** contract_2e, 76-105 *)
Definition contract_2e (eri : ten) (c : ci) : ci :=
  let t1 := fun a i sa sb l => ex_a c a i sa sb l + ex_b c a i sa sb l in
  let t2 := fun b j sa sb l => Sum norb (fun a => Sum norb (fun i => eri b j a i * t1 a i sa sb l)) in
  fun sa sb l => gat_a t2 sa sb l + gat_b t2 sa sb l.
(** contract_2e of uebfci_slow.py, 67-102: integrals (aa, ab, bb) *)
Definition contract_2e_u (eri : ten * ten * ten) (c : ci) : ci :=
  let '(eaa, eab, ebb) := eri in
  let t1a := ex_a c in let t1b := ex_b c in
  let t1a' := fun b j sa sb l => Sum norb (fun a => Sum norb (fun i => eaa b j a i * t1a a i sa sb l)) + Sum norb (fun a => Sum norb (fun i => eab b j a i * t1b a i sa sb l)) in
  let t1b' := fun b j sa sb l => Sum norb (fun a => Sum norb (fun i => ebb b j a i * t1b a i sa sb l)) + Sum norb (fun a => Sum norb (fun i => eab a i b j * t1a a i sa sb l)) in
  fun sa sb l => gat_a t1a' sa sb l + gat_b t1b' sa sb l.

(** bos_cre[k] with bos_cre = numpy.sqrt(numpy.arange(1, max_occ + 1)), 165 *)
Definition bos_cre (k : nat) : K := sq (k + 1).
(** res[slices_for_cre(b, i)] += ci0[slices_for(b, i)] * phonon_cre[i] for all i, 220-228 (row psite_id of apply_bos_creation) and 201-205 *)
Definition cre (b : nat) (c : ci) : ci := fun sa sb l => Sum mocc (fun i => if Nat.eqb (nth b l 0%nat) (i + 1) then c sa sb (upd b i l) * bos_cre i else 0).
(** res[slices_for(b, i)] += ci0[slices_for_cre(b, i)] * phonon_cre[i] for all i, 209-217 (row psite_id of apply_bos_annihilation) *)
Definition ann (b : nat) (c : ci) : ci := fun sa sb l => Sum mocc (fun i => if Nat.eqb (nth b l 0%nat) i then c sa sb (upd b (i + 1) l) * bos_cre i else 0).
(** contract_ep, 109-178; heb: pair of the couplings [n, a, i] for alpha and beta (148) *)
Definition contract_ep (heb : (nat -> mat) * (nat -> mat)) (adj : bool) (c : ci) : ci :=
  let adj_val := fun a i sa sb l => if adj && Nat.eqb a i then zfac * c sa sb l else 0 in
  let t1a := fun a i sa sb l => ex_a c a i sa sb l - adj_val a i sa sb l in
  let t1b := fun a i sa sb l => ex_b c a i sa sb l - adj_val a i sa sb l in
  let tex := fun n sa sb l => Sum norb (fun a => Sum norb (fun i => fst heb n a i * t1a a i sa sb l)) + Sum norb (fun a => Sum norb (fun i => snd heb n a i * t1b a i sa sb l)) in
  let tdex := fun n sa sb l => Sum norb (fun x => Sum norb (fun y => fst heb n x y * t1a y x sa sb l)) + Sum norb (fun x => Sum norb (fun y => snd heb n x y * t1b y x sa sb l)) in
  fun sa sb l => Sum nbos (fun ibos =>
    Sum mocc (fun iocc => if Nat.eqb (nth ibos l 0%nat) (iocc + 1) then tex ibos sa sb (upd ibos iocc l) * bos_cre iocc else 0) +
    Sum mocc (fun k => let iocc := (k + 1)%nat in if Nat.eqb (nth ibos l 0%nat) (iocc - 1) then tdex ibos sa sb (upd ibos iocc l) * bos_cre (iocc - 1) else 0)).
(** contract_pp, 184-206 *)
Definition contract_pp (hpp : mat) (c : ci) : ci :=
  let t1 := fun n => ann n c in
  let t2 := fun m sa sb l => Sum nbos (fun n => hpp m n * t1 n sa sb l) in
  fun sa sb l => Sum nbos (fun m => cre m (t2 m) sa sb l).
(** contract_pp_for_future, 231-245 *)
Definition contract_pp_diag (hpp : nat -> K) (c : ci) : ci := fun sa sb l => Sum nbos (fun b => Sum (S mocc) (fun iocc => if Nat.eqb (nth b l 0%nat) iocc then c sa sb l * nK iocc * hpp b else 0)).
(** make_hdiag, the bosons 298-304 *)
Definition hdiag_bos (hpp : mat) (l : list nat) : K := Sum nbos (fun b => Sum (S mocc) (fun i => if Nat.eqb (nth b l 0%nat) i then hpp b b * nK i else 0)).
(** contract_all, 15-36; the two-electron part is that of either module *)
Definition contract_all (two : ci -> ci) (heb : (nat -> mat) * (nat -> mat)) (hpp : mat) (adj : bool) (c : ci) : ci :=
  if Nat.ltb 0 nbos && Nat.ltb 0 mocc then fun sa sb l => two c sa sb l + contract_ep heb adj c sa sb l + contract_pp hpp c sa sb l else two c.

(** pyscf's fci_slow.absorb_h1e with fac=0.5, called at 326 *)
Definition absorb (h1e : mat) (eri : ten) : ten :=
  let f1e : mat := fun j k => (h1e j k - Sum norb (fun i => eri j i i k) * half) * ninv in
  fun p q r s => (eri p q r s + (if Nat.eqb p q then f1e r s else 0) + (if Nat.eqb r s then f1e p q else 0)) * half.
(** pyscf's direct_uhf.absorb_h1e with fac=0.5, uebfci_slow.py 332 *)
Definition absorb_u (h1e : mat * mat) (eri : ten * ten * ten) : ten * ten * ten :=
  let '(eaa, eab, ebb) := eri in
  let fa : mat := fun j k => (fst h1e j k - Sum norb (fun i => eaa j i i k) * half) * ninv in
  let fb : mat := fun j k => (snd h1e j k - Sum norb (fun i => ebb j i i k) * half) * ninv in
  ((fun p q r s => (eaa p q r s + (if Nat.eqb p q then fa r s else 0) + (if Nat.eqb r s then fa p q else 0)) * half),
   (fun p q r s => (eab p q r s + (if Nat.eqb r s then fa p q else 0) + (if Nat.eqb p q then fb r s else 0)) * half),
   (fun p q r s => (ebb p q r s + (if Nat.eqb p q then fb r s else 0) + (if Nat.eqb r s then fb p q else 0)) * half)).
(** hop of kernel, 334-336, in both modules *)
Definition hop (h1e : mat) (eri : ten) heb hpp adj : ci -> ci := contract_all (contract_2e (absorb h1e eri)) heb hpp adj.
Definition hop_u (h1e : mat * mat) (eri : ten * ten * ten) heb hpp adj : ci -> ci := contract_all (contract_2e_u (absorb_u h1e eri)) heb hpp adj.

(** ** Density matrices *)
(** make_rdm1 of uebfci_slow.py 421-440; that of ebfci_slow.py, 416-434, is the sum of the two *)
Definition rdm1_u (c : ci) : mat * mat :=
  ((fun a i => Sum (length tabA) (fun str0 => Lsum (nth str0 tabA []) (fun e : entry => let '(a', i', str1, sg) := e in
     if Nat.eqb a' a && Nat.eqb i' i then sg * Sum (length tabB) (fun sb => BSum nbos mocc (fun l => c str1 sb l * c str0 sb l)) else 0))),
   (fun a i => Sum (length tabB) (fun str0 => Lsum (nth str0 tabB []) (fun e : entry => let '(a', i', str1, sg) := e in
     if Nat.eqb a' a && Nat.eqb i' i then sg * Sum (length tabA) (fun sa => BSum nbos mocc (fun l => c sa str1 l * c sa str0 l)) else 0)))).
Definition rdm1 (c : ci) : mat := fun a i => fst (rdm1_u c) a i + snd (rdm1_u c) a i.
(** t1[i, a] of make_rdm12, for all str0 at once: alpha 454-455 (uebfci_slow.py 502-503), beta 457-459 *)
Definition tr_a (c : ci) (i a : nat) : ci := fun str0 sb l => Lsum (nth str0 tabA []) (fun e : entry => let '(a', i', str1, sg) := e in if Nat.eqb a' a && Nat.eqb i' i then sg * c str1 sb l else 0).
Definition tr_b (c : ci) (i a : nat) : ci := fun str0 k l => Lsum (nth k tabB []) (fun e : entry => let '(a', i', str1, sg) := e in if Nat.eqb a' a && Nat.eqb i' i then sg * c str0 str1 l else 0).
(** pyscf's rdm.reorder_rdm(rdm1, rdm2, True): rdm2[:, k, k, :] -= rdm1.T, then half the sum with the transpose; called at 466 *)
Definition reorder (dm1 : mat) (dm2 : ten) : ten :=
  let d : ten := fun p q r s => dm2 p q r s - (if Nat.eqb q r then dm1 s p else 0) in
  fun p q r s => (d p q r s + d r s p q) * half.
(** make_rdm12, 437-467 *)
Definition rdm12 (c : ci) : mat * ten :=
  let t1 : nat -> nat -> ci := fun i a str0 sb l => tr_a c i a str0 sb l + tr_b c i a str0 sb l in
  let dm1 : mat := fun i j => dot c (t1 i j) in
  let dm2 : ten := fun j i k l => dot (t1 i j) (t1 k l) in
  (dm1, reorder dm1 dm2).
(** make_rdm12s of uebfci_slow.py, 476-527, with reorder=True *)
Definition rdm12s_u (c : ci) : (mat * mat) * (ten * ten * ten) :=
  let t1a := tr_a c in let t1b := tr_b c in
  let dm1a : mat := fun i j => dot (t1a i j) c in let dm1b : mat := fun i j => dot (t1b i j) c in
  let dm2aa : ten := fun j i k l => dot (t1a i j) (t1a k l) in let dm2ab : ten := fun j i k l => dot (t1a i j) (t1b k l) in let dm2bb : ten := fun j i k l => dot (t1b i j) (t1b k l) in
  ((dm1a, dm1b), (reorder dm1a dm2aa, dm2ab, reorder dm1b dm2bb)).
(** make_rdm12s of ebfci_slow.py, 470-523: spin orbitals 2 p (alpha) and 2 p + 1 (beta); before reordering *)
Definition raw_s (c : ci) : mat * ten :=
  let t1 : nat -> nat -> ci := fun i a => if Nat.even i && Nat.even a then tr_a c (Nat.div2 i) (Nat.div2 a) else if Nat.odd i && Nat.odd a then tr_b c (Nat.div2 i) (Nat.div2 a) else fun _ _ _ => 0 in
  let dm1 : mat := fun i j => dot (t1 i j) c in
  let dm2 : ten := fun j i k l => dot (t1 i j) (t1 k l) in
  let fill : ten := fun p q r s => (if Nat.eqb q r then dm1 p s else 0) - dm2 r q p s in
  (dm1, fun p q r s => if Nat.even p && Nat.odd q && Nat.odd r && Nat.even s then fill p q r s else if Nat.odd p && Nat.even q && Nat.even r && Nat.odd s then fill p q r s else dm2 p q r s).
(** the first two values that make_rdm12s returns, 526-527 *)
Definition rdm12s (c : ci) : mat * ten := (fst (raw_s c), reorder (fst (raw_s c)) (snd (raw_s c))).
(** make_eb_rdm, 530-575: P[p, q, b] for alpha and beta, nbosons > 0 *)
Definition eb_rdm (c : ci) : (nat -> nat -> nat -> K) * (nat -> nat -> nat -> K) :=
  ((fun p q b => dot (cre b (ex_a c p q)) c), (fun p q b => dot (cre b (ex_b c p q)) c)).

(** ** Moments of the density-density response *)
(** t1a after the transformation with coeffs, 612-623 *)
Definition to_basis (t : nat -> nat -> ci) (co : option mat) : nat -> nat -> ci := match co with None => t | Some co => fun p q sa sb l => Sum norb (fun i => Sum norb (fun a => t i a sa sb l * co i p * co a q)) end.
(** aintermeds[k + 1] = hop(aintermeds[k]) - e0 * aintermeds[k], 631-649, for one entry of the array *)
Fixpoint inter (h : ci -> ci) (e0 : K) (k : nat) (t : ci) : ci := match k with O => t | S k => let t := inter h e0 k t in fun sa sb l => h t sa sb l - e0 * t sa sb l end.
(** aintermeds[k], 628-649 and 659-662: KeyError (None) if k is larger than max_intermed *)
Definition lookup (h : ci -> ci) (e0 : K) (max_intermed k : nat) (t : ci) : option ci := if Nat.leb k max_intermed then Some (inter h e0 k t) else None.
(** transformed density matrix, 682-684: coeffs.T @ rdm @ coeffs *)
Definition dm_basis (dm : mat) (co : option mat) : mat := match co with None => dm | Some co => fun p q => Sum norb (fun a => Sum norb (fun i => co i p * dm i a) * co a q) end.
(** the density matrices if rdm1 is no tuple, as in EBFCI.make_dd_moms (ebfci.py 82-107): rdma = rdmb = rdm1 / 2, 680-681 *)
Definition halves (dm : mat) : mat * mat := ((fun p q => dm p q * half), (fun p q => dm p q * half)).
(** calc_dd_resp_mom, 578-696, with trace=False: moment imom for one pair of spins, of which the left one has t1 tl and density matrix dl; rdm1 a tuple, 678-681 *)
Definition dd_mom (h : ci -> ci) (e0 : K) (max_mom imom : nat) (tl tr : nat -> nat -> ci) (dl dr : mat) (p q r s : nat) : option K :=
  let max_intermed := ((max_mom + 1) / 2)%nat in
  let r_ind := Nat.min imom max_intermed in let l_ind := (imom - r_ind)%nat in
  match lookup h e0 max_intermed l_ind (tl p q), lookup h e0 max_intermed r_ind (tr r s) with
  | Some x, Some y => Some (if Nat.eqb imom 0 then dot x y - dl p q * dr r s else dot x y)
  | _, _ => None
  end.
(** the three entries of moments[imom]: alpha-alpha, alpha-beta, beta-beta; 670-695 *)
Definition dd_moms (h : ci -> ci) (e0 : K) (max_mom imom : nat) (c : ci) (dm : mat * mat) (co : option mat * option mat) : (nat -> nat -> nat -> nat -> option K) * (nat -> nat -> nat -> nat -> option K) * (nat -> nat -> nat -> nat -> option K) :=
  let ta := to_basis (ex_a c) (fst co) in let tb := to_basis (ex_b c) (snd co) in let da := dm_basis (fst dm) (fst co) in let db := dm_basis (snd dm) (snd co) in
  (dd_mom h e0 max_mom imom ta ta da da, dd_mom h e0 max_mom imom ta tb da db, dd_mom h e0 max_mom imom tb tb db db).
(** with trace=True, 624-626, 635-636, 664-669 and 687-690: the entries with equal indices *)
Definition dd_trace (m : nat -> nat -> nat -> nat -> option K) (p q : nat) : option K := m p p q q.
End EbFci.
