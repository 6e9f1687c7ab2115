(** Model of the block-splitting helpers of vayesta/core/util.py. *)
From Coq Require Import List ZArith Bool.
Import ListNotations.
Local Open Scope Z_scope.

(** Result of a generator that is consumed completely: the yielded values, or a Python exception. *)
Inductive result (A : Type) : Type :=
| Ok (v : A)
| ValueError.
Arguments Ok {A} v.
Arguments ValueError {A}.

(** Python's [range(start, stop, step)] as used at vayesta/core/util.py:391 and :406: step 0 raises, the number of
    elements is [max(0, ceil((stop-start)/step))]. *)
Definition py_range (start stop step : Z) : result (list Z) :=
  if step =? 0 then ValueError
  else
    let n := if 0 <? step then (stop - start + step - 1) / step
             else (start - stop - step - 1) / (- step) in
    Ok (map (fun k => start + Z.of_nat k * step) (seq 0 (Z.to_nat n))).

(** [np.clip(step, minstep, maxstep)], vayesta/core/util.py:390. *)
Definition clip (x lo hi : Z) : Z := Z.min (Z.max x lo) hi.

(** [brange], vayesta/core/util.py:368-393, with the positional arguments already expanded (lines 374-384).
    A slice is a pair (start, stop). *)
Definition brange (start stop step minstep : Z) (maxstep : option Z) : result (list (Z * Z)) :=
  if stop <=? start then Ok []
  else
    let maxstep' := match maxstep with None => stop - start | Some m => m end in
    let step' := clip step minstep maxstep' in
    match py_range start stop step' with
    | ValueError => ValueError
    | Ok l => Ok (map (fun i => (i, Z.min (i + step') stop)) l)
    end.

(** [array[start:stop]] for [0 <= start], along the block axis. *)
Definition slice {A : Type} (a : list A) (start stop : Z) : list A :=
  firstn (Z.to_nat stop - Z.to_nat start) (skipn (Z.to_nat start) a).

(** Ceiling division, [int(np.ceil(x / y))] at vayesta/core/util.py:401-402 (exact instead of floating point). *)
Definition ceil_div (x y : Z) : Z := - ((- x) / y).

(** [split_into_blocks], vayesta/core/util.py:396-408.  The array is the list of its slices along [axis]; [nbytes] is its
    memory.  Only the array part of the yielded pair is returned. *)
Definition split_into_blocks {A : Type} (array : list A) (blocksize : option Z) (nbytes max_memory : Z)
  : result (list (list A)) :=
  let size := Z.of_nat (length array) in
  let blocksize' :=
    match blocksize with
    | Some b => b
    | None => let nblocks := Z.max (ceil_div nbytes max_memory) 1 in ceil_div size nblocks
    end in
  if size <=? blocksize' then Ok [array]
  else
    match py_range 0 size blocksize' with
    | ValueError => ValueError
    | Ok l => Ok (map (fun i => slice array i (Z.min (i + blocksize') size)) l)
    end.
