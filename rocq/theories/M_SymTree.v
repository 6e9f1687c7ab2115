(** Model of the symmetry tree of fragments, vayesta/core/qemb/fragment.py:722-820 and vayesta/core/qemb/qemb.py:1050-1092. *)
From Coq Require Import List Arith Bool.
Import ListNotations.

Section SymTree.
(** Symmetry operations and arrays; [act op axis a] is [op(a, axis=axis)]. *)
Context {op arr : Type} (act : op -> nat -> arr -> arr).

(** The attributes id, sym_parent and sym_op of a fragment, fragment.py:203-208.
    The parent object is represented by its id, sym_op is only used if there is a parent. *)
Record frag := { fid : nat; fparent : option nat; fop : op }.

(** [self.base.get_fragments(fragments, sym_parent=x)], qemb.py:1094-1164 with this one filter. *)
Definition children (frags : list frag) (p : nat) : list frag :=
  filter (fun f => match fparent f with Some q => q =? p | None => false end) frags.

(** [get_symmetry_parent_fragments], qemb.py:1050-1062. *)
Definition symmetry_parents (frags : list frag) : list frag :=
  filter (fun f => match fparent f with None => true | _ => false end) frags.

(** [get_symmetry_child_fragments] (include_parents=False), qemb.py:1064-1092; None: AssertionError. *)
Fixpoint child_fragments (frags parents : list frag) (todo : list frag) (acc : nat -> list frag) : option (nat -> list frag) :=
  match todo with
  | [] => Some acc
  | f :: todo' =>
      match fparent f with
      | None => child_fragments frags parents todo' acc
      | Some pid =>
          if existsb (fun p => fid p =? pid) parents
          then child_fragments frags parents todo' (fun q => if q =? pid then acc q ++ [f] else acc q)
          else None
      end
  end.
Definition get_symmetry_child_fragments (frags : list frag) : option (list (list frag)) :=
  let parents := symmetry_parents frags in
  match child_fragments frags parents frags (fun _ => []) with
  | None => None
  | Some acc => Some (map (fun p => acc (fid p)) parents)
  end.

(** The loop of [get_symmetry_generations], fragment.py:741-748, with [n] turns left. *)
Fixpoint generations_loop (frags : list frag) (n : nat) (lastgen : list frag) : list (list frag) :=
  match n with
  | 0 => []
  | S n' =>
      match flat_map (fun fx => children frags (fid fx)) lastgen with
      | [] => []
      | newgen => newgen :: generations_loop frags n' newgen
      end
  end.

(** [get_symmetry_generations], fragment.py:732-749; [frags] is the result of get_fragments( **filters).
    [range(1, maxgen or 1000)] has maxgen-1 (or 999) turns. *)
Definition get_symmetry_generations (frags : list frag) (p : nat) (maxgen : option nat) : list (list frag) :=
  match maxgen with
  | Some 0 => []
  | _ => let lastgen := children frags p in
         let n := match maxgen with Some m => m | None => 1000 end in
         lastgen :: generations_loop frags (n - 1) lastgen
  end.

(** [get_symmetry_children], fragment.py:751-755. *)
Definition get_symmetry_children (frags : list frag) (p : nat) (maxgen : option nat) : list frag :=
  concat (get_symmetry_generations frags p maxgen).

(** [symmetry_factor], fragment.py:812-820. *)
Definition symmetry_factor (frags : list frag) (p : nat) : nat :=
  length (get_symmetry_children frags p None) + 1.

(** [get_symmetry_tree], fragment.py:757-770 (without filters). *)
Inductive tree := Node (x : frag) (ts : list tree).
Fixpoint get_symmetry_tree (frags : list frag) (maxgen : nat) (p : nat) : list tree :=
  match maxgen with
  | 0 => []
  | S m => map (fun x => Node x (get_symmetry_tree frags m (fid x))) (get_symmetry_children frags p (Some 1))
  end.

(** [intermediates], fragment.py:805; zip stops at the shorter list. *)
Definition transform (axes : list nat) (o : op) (arrays : list arr) : list arr :=
  map (fun '(a, axis) => act o axis a) (combine arrays axes).

(** Body of the for-loop of [loop_symmetry_children] for one element of symtree, fragment.py:804-810; maxgen >= 1. *)
Fixpoint loop_tree (axes : list nat) (maxgen : nat) (arrays : list arr) (t : tree) {struct t} : list (frag * list arr) :=
  match t with
  | Node x ts =>
      let intermediates := transform axes (fop x) arrays in
      (x, intermediates) ::
      (if 1 <? maxgen then flat_map (loop_tree axes (maxgen - 1) intermediates) ts else [])
  end.

(** [loop_symmetry_children], fragment.py:772-810, symtree=None. *)
Definition loop_symmetry_children (frags : list frag) (self : frag) (arrays : list arr) (axes : option (list nat))
    (maxgen : option nat) (include_self : bool) : list (frag * list arr) :=
  (if include_self then [(self, arrays)] else []) ++
  match maxgen with
  | Some 0 => []
  | _ =>
      let m := match maxgen with Some m => m | None => 1000 end in
      let axes := match axes with Some a => a | None => repeat 0 (length arrays) end in
      flat_map (loop_tree axes m arrays) (get_symmetry_tree frags 1000 (fid self))
  end.

(** [get_symmetry_operation], fragment.py:727-730; None stands for SymmetryIdentity. *)
Definition get_symmetry_operation (f : frag) : option op :=
  match fparent f with None => None | Some _ => Some (fop f) end.
End SymTree.
Arguments frag : clear implicits.
Arguments tree : clear implicits.
