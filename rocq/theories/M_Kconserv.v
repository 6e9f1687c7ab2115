(** Model of the momentum conservation table.

    Modelled: vayesta/core/ao2mo/helper.py get_kconserv (12-49).
    Simplifications: k-points and lattice vectors are vectors of exact rationals; [a] stands for
    lattice_vectors/(2 pi), so that [a k] are the coordinates of k in units of the reciprocal lattice vectors. *)
From Coq Require Import List ZArith QArith Qround Qabs Bool.
Import ListNotations.

Definition vec := (Q * Q * Q)%type.
Definition vsub (x y : vec) : vec :=
  match x, y with (x1, x2, x3), (y1, y2, y3) => (x1 - y1, x2 - y2, x3 - y3) end.
Definition vadd (x y : vec) : vec :=
  match x, y with (x1, x2, x3), (y1, y2, y3) => (x1 + y1, x2 + y2, x3 + y3) end.
Definition vdot (x y : vec) : Q :=
  match x, y with (x1, x2, x3), (y1, y2, y3) => x1 * y1 + x2 * y2 + x3 * y3 end.

(** Three lattice vectors (rows of [a], helper.py 30) *)
Definition mat := (vec * vec * vec)%type.
(** helper.py 44: einsum("wx,...x->w...", a, k) *)
Definition scaled (a : mat) (k : vec) : vec := match a with (a1, a2, a3) => (vdot a1 k, vdot a2 k, vdot a3 k) end.

(** numpy.rint: to the nearest integer, halves to the even one, helper.py 46 *)
Definition rint (x : Q) : Z :=
  let f := Qfloor x in
  let d := x - inject_Z f in
  match Qcompare d (1 # 2) with
  | Lt => f
  | Gt => (f + 1)%Z
  | Eq => if Z.even f then f else (f + 1)%Z
  end.

(** helper.py 46: is the sum of the deviations from integers below 1e-9? *)
Definition mask (a : mat) (k : vec) : bool :=
  match scaled a k with
  | (s1, s2, s3) =>
      negb (Qle_bool (1 # 1000000000)
             (Qabs (s1 - inject_Z (rint s1)) + Qabs (s2 - inject_Z (rint s2)) + Qabs (s3 - inject_Z (rint s3))))
  end.

(** helper.py 42-47 for one entry of the table: later n overwrite earlier ones, the table starts with zeros (34) *)
Fixpoint last_match (a : mat) (k : vec) (kpts : list vec) (n : nat) (acc : nat) : nat :=
  match kpts with
  | [] => acc
  | kn :: rest => last_match a k rest (S n) (if mask a (vsub k kn) then n else acc)
  end.

(** The tables for nk = 3 and nk = 2 as functions of the indices (helper.py 36 and 38), the list for nk = 1 (33),
    ValueError otherwise (40). *)
Inductive table :=
| Table1 (t : list nat)
| Table2 (t : nat -> nat -> nat)
| Table3 (t : nat -> nat -> nat -> nat)
| ValueError.

Definition kpt (kpts : list vec) (i : nat) : vec := nth i kpts (0, 0, 0).

Definition get_kconserv (a : mat) (kpts : list vec) (nk : nat) : table :=
  match nk with
  | 1%nat => Table1 (seq 0 (length kpts))
  | 2%nat => Table2 (fun k l => last_match a (vsub (kpt kpts k) (kpt kpts l)) kpts 0 0)
  | 3%nat => Table3 (fun k l m =>
       last_match a (vadd (vsub (kpt kpts k) (kpt kpts l)) (kpt kpts m)) kpts 0 0)
  | _ => ValueError
  end.
