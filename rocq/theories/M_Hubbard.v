(** Model of the Hubbard lattice models.

    Modelled: vayesta/lattmod/latt.py Hubbard1D (111-141), Hubbard2D (187-266), get_tiles_order (307-326),
    atom_coords (171-176, 291-305, in units of the site distance).
    Simplifications: hopping amplitudes are elements of any commutative ring; the arrays are functions of their
    indices; boundary names are an enumeration (upper/lower case is not modelled); mean-field, electron numbers and
    spin are left out. *)
From Coq Require Import List ZArith Arith Bool.
From Verif Require Import Alg.
Import ListNotations.

Inductive boundary := Auto | Open | Pbc | Apbc | OtherName.
Inductive exc := ValueError | UnboundLocalError | IndexError | NotImplementedError | AssertionError | ZeroDivisionError.
Inductive res (A : Type) := Ok (a : A) | Raise (e : exc).
Arguments Ok {A}. Arguments Raise {A}.

Section Hub.
Context (K : cring).
Open Scope K_scope.
Definition arr := nat -> nat -> K.

(** [h[i, j] = v] and [h[i, j] += v] *)
Definition set2 (h : arr) (i j : nat) (v : K) : arr :=
  fun a b => if (a =? i)%nat && (b =? j)%nat then v else h a b.
Definition inc2 (h : arr) (i j : nat) (v : K) : arr :=
  fun a b => if (a =? i)%nat && (b =? j)%nat then h a b + v else h a b.

(** Hubbard1D.__init__, latt.py 121-134: the boundary phase.  "Open" is not known to Hubbard1D. *)
Definition bfac1 (nsite : nat) (b : boundary) : res K :=
  let b' := match b with
            | Auto => if (nsite mod 4 =? 2)%nat then Ok Pbc else if (nsite mod 4 =? 0)%nat then Ok Apbc else Raise ValueError
            | x => Ok x
            end in
  match b' with
  | Ok Pbc => Ok 1
  | Ok Apbc => Ok (- (1))
  | Ok _ => Raise UnboundLocalError
  | Raise e => Raise e
  end.

(** latt.py 135-138 *)
Definition h1e_1d_raw (nsite : nat) (bfac t : K) : arr :=
  let h := fold_left (fun h i => set2 (set2 h i (S i) (- t)) (S i) i (- t)) (seq 0 (nsite - 1)) (fun _ _ => 0) in
  set2 (set2 h (nsite - 1) 0 (bfac * - t)) 0 (nsite - 1) (bfac * - t).

(** latt.py 139-141: the optional reordering *)
Definition reorder (order : option (list nat)) (h : arr) : arr :=
  match order with
  | None => h
  | Some o => fun a b => h (nth a o 0%nat) (nth b o 0%nat)
  end.

(** latt.py 114-141; no sites: the assignment of line 138 fails *)
Definition hubbard1d (nsite : nat) (t : K) (b : boundary) (order : option (list nat)) : res arr :=
  match bfac1 nsite b with
  | Raise e => Raise e
  | Ok bfac => if (nsite =? 0)%nat then Raise IndexError else Ok (reorder order (h1e_1d_raw nsite bfac t))
  end.

(** Hubbard2D.get_index, latt.py 258-266, for any integers i and j *)
Definition get_index (n0 n1 : nat) (b0 b1 : K) (i j : Z) : nat * K :=
  let fac := 1 in
  let fac := if (i mod Z.of_nat n0 =? i)%Z then fac else fac * b0 in
  let fac := if (j mod Z.of_nat n1 =? j)%Z then fac else fac * b1 in
  (Z.to_nat (i mod Z.of_nat n0 * Z.of_nat n1 + j mod Z.of_nat n1), fac).

(** latt.py 242-253: loop over the sites, four bonds each *)
Definition site_bonds (n0 n1 : nat) (b0 b1 t : K) (h : arr) (i j : nat) : arr :=
  let zi := Z.of_nat i in let zj := Z.of_nat j in
  let idx := fst (get_index n0 n1 b0 b1 zi zj) in
  let l := get_index n0 n1 b0 b1 zi (zj - 1) in
  let r := get_index n0 n1 b0 b1 zi (zj + 1) in
  let u := get_index n0 n1 b0 b1 (zi - 1) zj in
  let d := get_index n0 n1 b0 b1 (zi + 1) zj in
  inc2 (inc2 (inc2 (inc2 h idx (fst l) (snd l * - t)) idx (fst r) (snd r * - t)) idx (fst u) (snd u * - t))
       idx (fst d) (snd d * - t).

Definition h1e_2d_raw (n0 n1 : nat) (b0 b1 t : K) : arr :=
  fold_left (fun h i => fold_left (fun h j => site_bonds n0 n1 b0 b1 t h i j) (seq 0 n1) h) (seq 0 n0) (fun _ _ => 0).

(** latt.py 230-239 *)
Definition bfac2 (b : boundary) : res K :=
  match b with
  | Open => Ok 0
  | Pbc => Ok 1
  | Apbc => Ok (- (1))
  | _ => Raise ValueError
  end.

(** latt.py 208-225: the automatic choice; [half] says whether the number of electrons was given and equals the
    number of sites *)
Definition auto2 (n0 n1 : nat) (half : bool) : res (boundary * boundary) :=
  if half then
    match (n0 mod 4)%nat, (n1 mod 4)%nat with
    | 0, 0 => Ok (Pbc, Apbc)
    | 0, 2 => Ok (Apbc, Apbc)
    | 2, 0 => Ok (Apbc, Apbc)
    | 2, 2 => Ok (Pbc, Apbc)
    | _, _ => Raise NotImplementedError
    end%nat
  else Raise NotImplementedError.

(** The boundary argument: one name for both directions or a pair, latt.py 208 and 226-227 *)
Inductive barg := One (b : boundary) | Two (b0 b1 : boundary).

(** Hubbard2D.get_tiles_order, latt.py 308-326 *)
Definition get_xy (n0 t0 t1 site : nat) : nat * nat :=
  let tsize := (t0 * t1)%nat in
  let nt0 := (n0 / t0)%nat in
  let tile := (site / tsize)%nat in let pos := (site mod tsize)%nat in
  let ty := (tile / nt0)%nat in let tx := (tile mod nt0)%nat in
  let py := (pos / t0)%nat in let px := (pos mod t0)%nat in
  ((tx * t0 + px)%nat, (ty * t1 + py)%nat).

Definition get_tiles_order (n0 n1 t0 t1 : nat) : res (list nat) :=
  if (t0 =? 0)%nat then Raise ZeroDivisionError
  else if negb (n0 mod t0 =? 0)%nat then Raise AssertionError
  else if (t1 =? 0)%nat then Raise ZeroDivisionError
  else if negb (n1 mod t1 =? 0)%nat then Raise AssertionError
  else Ok (map (fun site => let xy := get_xy n0 t0 t1 site in (snd xy * n0 + fst xy)%nat) (seq 0 (n0 * n1))).

(** Hubbard2D.__init__, latt.py 200-256; [order] is an explicit site order *)
Definition hubbard2d (n0 n1 : nat) (half : bool) (t : K) (b : barg) (tiles : nat * nat) (order : option (list nat)) : res arr :=
  let o := match order with
           | Some o => Ok (Some o)
           | None => if ((fst tiles =? 1) && (snd tiles =? 1))%nat then Ok None
                     else match get_tiles_order n0 n1 (fst tiles) (snd tiles) with
                          | Ok o => Ok (Some o) | Raise e => Raise e end
           end in
  match o with
  | Raise e => Raise e
  | Ok o =>
    match (match b with
           | One Auto => auto2 n0 n1 half
           | One x => Ok (x, x)
           | Two x y => Ok (x, y)
           end) with
    | Raise e => Raise e
    | Ok (x, y) =>
      match bfac2 x, bfac2 y with
      | Ok b0, Ok b1 => Ok (reorder o (h1e_2d_raw n0 n1 b0 b1 t))
      | Raise e, _ => Raise e
      | _, Raise e => Raise e
      end
    end
  end.

End Hub.
Arguments h1e_1d_raw {K}. Arguments h1e_2d_raw {K}. Arguments hubbard1d {K}. Arguments hubbard2d {K}.
Arguments set2 {K}. Arguments inc2 {K}. Arguments get_index {K}. Arguments site_bonds {K}. Arguments reorder {K}.
Arguments bfac1 {K}. Arguments bfac2 {K}.

(** Hubbard2D.atom_coords, latt.py 291-305, without the reordering: the position (x, y) of site [s] *)
Definition atom_coords (n0 : nat) (s : nat) : nat * nat := ((s mod n0)%nat, (s / n0)%nat).
