(** Model of vayesta/dmet/updates.py: Update._flatten_params (11-25), _unflatten_params (27-42), MixUpdate.update (66-71).
    Simplifications: array elements are from a commutative ring; the norm of the change is kept as its square; an array
    is its shape and its elements in C order (ravel and reshape keep that order). *)
From Coq Require Import List Arith Lia.
From Verif Require Import Alg.
Import ListNotations.

Section U.
Context (K : cring).
Open Scope K_scope.

(** Parameters: nested lists of arrays *)
Inductive nested := Arr (shape : list nat) (data : list K) | Lst (l : list nested).
(** get_shape, updates.py 12-13: tuples of ints for arrays, lists for lists *)
Inductive shapes := Tup (shape : list nat) | Shp (l : list shapes).

(** updates.py 12-13 *)
Fixpoint get_shape (p : nested) : shapes :=
  match p with Arr s _ => Tup s | Lst l => Shp (map get_shape l) end.

(** updates.py 15-16; np.concatenate of an empty list is an error *)
Fixpoint get_flat (p : nested) : option (list K) :=
  match p with
  | Arr _ d => Some d
  | Lst l =>
      match l with
      | [] => None
      | _ => (fix go (l : list nested) : option (list K) :=
                match l with
                | [] => Some []
                | x :: r => match get_flat x, go r with Some a, Some b => Some (a ++ b) | _, _ => None end
                end) l
      end
  end.

(** np.prod, updates.py 33 *)
Definition prod (s : list nat) : nat := fold_right Nat.mul 1%nat s.

(** updates.py 31-39: reads from position [x]; shapes[0] of an empty tuple or list is an IndexError; reshape of too
    few elements is a ValueError *)
Fixpoint get_nonflat (flat : list K) (sh : shapes) (x : nat) : option (nested * nat) :=
  match sh with
  | Tup [] => None
  | Tup s => let d := firstn (prod s) (skipn x flat) in
             if Nat.eqb (length d) (prod s) then Some (Arr s d, (x + prod s)%nat) else None
  | Shp [] => None
  | Shp l => match (fix go (l : list shapes) (x : nat) : option (list nested * nat) :=
                      match l with
                      | [] => Some ([], x)
                      | s :: r => match get_nonflat flat s x with
                                  | None => None
                                  | Some (v, x1) => match go r x1 with None => None | Some (vs, x2) => Some (v :: vs, x2) end
                                  end
                      end) l x with
             | None => None
             | Some (vs, x') => Some (Lst vs, x')
             end
  end.

(** The object: recorded shape and previous parameters, updates.py 8-9 *)
Definition ustate := option (shapes * list K).

(** updates.py 11-25 *)
Definition flatten (st : ustate) (p : nested) : option (list K * (shapes * list K)) :=
  match get_flat p with
  | None => None
  | Some f => Some (f, match st with Some s => s | None => (get_shape p, map (fun _ => 0) f) end)
  end.

(** updates.py 27-42, with the final assert *)
Definition unflatten (sh : shapes) (f : list K) : option nested :=
  match get_nonflat f sh 0 with
  | Some (v, x) => if Nat.eqb x (length f) then Some v else None
  | None => None
  end.

Fixpoint zip_with (g : K -> K -> K) (a b : list K) : list K :=
  match a, b with x :: a', y :: b' => g x y :: zip_with g a' b' | _, _ => [] end.

(** updates.py 66-71: returns the new parameters and the squared change; arrays of different length cannot be combined *)
Definition mix (alpha : K) (st : ustate) (p : nested) : option (nested * K * ustate) :=
  match flatten st p with
  | None => None
  | Some (f, (sh, prev)) =>
      if Nat.eqb (length f) (length prev) then
        let diff2 := Lsum (zip_with (fun a b => (a - b) * (a - b)) f prev) (fun z => z) in
        let upd := zip_with (fun a b => (1 - alpha) * a + alpha * b) prev f in
        match unflatten sh upd with
        | None => None
        | Some v => Some (v, diff2, Some (sh, f))
        end
      else None
  end.

(** Successive calls *)
Fixpoint mixes (alpha : K) (st : ustate) (ps : list nested) : option (list nested) :=
  match ps with
  | [] => Some []
  | p :: r => match mix alpha st p with
              | None => None
              | Some (v, _, st') => match mixes alpha st' r with None => None | Some vs => Some (v :: vs) end
              end
  end.
End U.
Arguments Arr {K}. Arguments Lst {K}. Arguments get_shape {K}. Arguments get_flat {K}. Arguments flatten {K}. Arguments unflatten {K}.
Arguments mix {K}. Arguments mixes {K}. Arguments get_nonflat {K}. Arguments zip_with {K}.
