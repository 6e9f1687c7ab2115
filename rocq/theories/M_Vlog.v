(** Model of the indentation of log messages: vayesta/core/vlog.py 203-239 (setIndentLevel, changeIndentLevel, the
    context manager and decorator [indent]) and the formatter VFormatter.format (114-131).
    Simplifications: an execution is the finite tree of what it does ([prog]); the body of the with-statement or
    of the decorated function may do anything, also raise; strings are lists of characters, [record.msg % record.args]
    is taken as done, the MPI rank part of the prefix is part of [prefix]. *)
From Coq Require Import List ZArith Bool Lia.
Import ListNotations.

(** ** Indentation *)

(** What a program does to the logger.  [With] is a with-statement on a new object made by log.indent(delta);
    [WithObj o] enters the existing object number [o]: a function decorated with it enters the same object on
    every call (contextlib.ContextDecorator._recreate_cm returns self). *)
Inductive prog :=
| Skip
| Raise
| SetIndent (z : Z)
| ChangeIndent (z : Z)
| Seq (p q : prog)
| TryExcept (p q : prog)
| With (delta : Z) (p : prog)
| WithObj (o : nat) (p : prog).

(** root.indentLevel (line 201), the objects made so far: delta and level_init (lines 214-217), and the number of objects *)
Record lstate := { level : Z; objs : nat -> Z * option Z; nobjs : nat }.

(** assignment to root.indentLevel (lines 205, 210, 221, 224) *)
Definition set_level (z : Z) (s : lstate) := {| level := z; objs := objs s; nobjs := nobjs s |}.
(** assignment to level_init (line 220) *)
Definition set_init (o : nat) (z : Z) (s : lstate) :=
  {| level := level s; objs := fun k => if Nat.eqb k o then (fst (objs s k), Some z) else objs s k; nobjs := nobjs s |}.
(** log.indent(delta): a new object, lines 214-217 *)
Definition new (delta : Z) (s : lstate) : lstate :=
  {| level := level s; objs := fun k => if Nat.eqb k (nobjs s) then (delta, None) else objs s k; nobjs := S (nobjs s) |}.

(** vlog.py 219-221 *)
Definition enter (o : nat) (s : lstate) : lstate :=
  let s1 := set_init o (level s) s in
  set_level (Z.max (level s + fst (objs s o)) 0) s1.

(** vlog.py 223-224; the level is set to None if never entered (not reachable) *)
Definition leave (o : nat) (s : lstate) : lstate :=
  match snd (objs s o) with Some z => set_level z s | None => s end.

(** Runs a program; true if it ends without exception *)
Fixpoint run (p : prog) (s : lstate) : bool * lstate :=
  match p with
  | Skip => (true, s)
  | Raise => (false, s)
  | SetIndent z => (true, set_level (Z.max z 0) s)                       (* 203-206 *)
  | ChangeIndent z => (true, set_level (Z.max (level s + z) 0) s)        (* 208-211 *)
  | Seq p q => let '(ok, s1) := run p s in if ok then run q s1 else (false, s1)
  | TryExcept p q => let '(ok, s1) := run p s in if ok then (true, s1) else run q s1
  | With delta p => let o := nobjs s in let '(ok, s1) := run p (enter o (new delta s)) in (ok, leave o s1)
  | WithObj o p => let '(ok, s1) := run p (enter o s) in (ok, leave o s1)
  end.

(** ** Formatting *)

Section Format.
Variable char : Type.
Variable newline : char.
Variable eqc : char -> char -> bool.

(** str.split("\n") *)
Fixpoint split (s : list char) : list (list char) :=
  match s with
  | [] => [[]]
  | c :: s' =>
      match split s' with
      | [] => [[c]]
      | l :: r => if eqc c newline then [] :: l :: r else (c :: l) :: r
      end
  end.

(** "\n".join *)
Fixpoint join (l : list (list char)) : list char :=
  match l with
  | [] => []
  | [x] => x
  | x :: r => x ++ newline :: join r
  end.

(** vlog.py 125-131: [indent] the string of indentation, [prefix] the prefix column, [sep] two spaces *)
Definition format (indent prefix sep msg : list char) : list char :=
  let lines := map (fun x => indent ++ x) (split msg) in
  let lines := match prefix with
    | [] => lines
    | _ => map (fun line => match line with [] => prefix | _ => prefix ++ sep ++ line end) lines
    end in
  join lines.
End Format.
