(** Model of the choice of the number of bath natural orbitals.

    Modelled: vayesta/core/bath/bno.py, BNO_Threshold (10-53) and truncate_bno (153-188, 280-283).
    Simplifications: floating point numbers are exact rationals (rounding of the sums is not modelled); a
    coefficient matrix is the list of its columns; the logging in truncate_bno is left out. *)
From Coq Require Import List ZArith QArith Bool.
Import ListNotations.

(** The five threshold types with their value, bno.py 19-22.  The value of 'number' is an integer (any other
    value fails later, in the slicing of numpy), the other values are floats.  An invalid type raises a
    ValueError in the constructor and never becomes an object. *)
Inductive threshold :=
| Number (n : Z)
| Occupation (t : Q)
| Truncation (t : Q)
| ElectronPercent (t : Q)
| ExcitedPercent (t : Q).

Inductive outcome := Returns (n : Z) | RuntimeError | AssertionError.

(** [np.clip(bno_occup, 0.0, None)], bno.py 35 *)
Definition clip0 (x : Q) : Q := if Qle_bool 0 x then x else 0.

(** [np.sum], bno.py 36 and 47 *)
Fixpoint qsum (l : list Q) : Q := match l with [] => 0 | x :: l' => x + qsum l' end.

(** bno.py 46-50: the loop over [range(nbno + 1)], from [k] on with [fuel] values left *)
Fixpoint find_number (npos : list Q) (nelec0 ntarget : Q) (k fuel : nat) : outcome :=
  match fuel with
  | O => RuntimeError
  | S fuel' =>
      if Qle_bool ntarget (nelec0 + qsum (firstn k npos)) then Returns (Z.of_nat k)
      else find_number npos nelec0 ntarget (S k) fuel'
  end.

(** bno.py 27-53.  [electron_total] is None when not given. *)
Definition get_number (th : threshold) (occup : list Q) (electron_total : option Q) : outcome :=
  match occup with
  | [] => Returns 0
  | _ =>
    let npos := map clip0 occup in
    let nexcited := qsum npos in
    match th with
    | Number n => Returns n
    | Truncation t => find_number npos 0 (nexcited - t) 0 (S (length occup))
    | ElectronPercent t =>
        match electron_total with
        | None => AssertionError
        | Some ne => find_number npos (ne - nexcited) ((1 - t) * ne) 0 (S (length occup))
        end
    | ExcitedPercent t => find_number npos 0 ((1 - t) * nexcited) 0 (S (length occup))
    | Occupation t => Returns (Z.of_nat (length (filter (fun x => Qle_bool t x) occup)))
    end
  end.

(** Python's [l[:n]] and [l[n:]] for any integer [n], as used by np.hsplit, bno.py 187 *)
Definition py_stop {A} (l : list A) (n : Z) : nat :=
  if (n <? 0)%Z then Z.to_nat (Z.of_nat (length l) + n) else Z.to_nat n.

(** bno.py 153-161 and 187-188: a plain number as threshold means type 'occupation' (158-159) *)
Inductive threshold_arg := Plain (t : Q) | Object (t : threshold).

Definition as_threshold (t : threshold_arg) : threshold :=
  match t with Plain x => Occupation x | Object t => t end.

(** bno.py 153-188: [Some (c_bath, c_rest)], None for an exception *)
Definition truncate_bno {A} (coeff : list A) (occup : list Q) (t : threshold_arg) (nelec_cluster : Q)
  : option (list A * list A) :=
  match get_number (as_threshold t) occup (Some nelec_cluster) with
  | Returns n => Some (firstn (py_stop coeff n) coeff, skipn (py_stop coeff n) coeff)
  | _ => None
  end.

(** bno.py 280-283: the unrestricted version, alpha then beta with the same threshold *)
Definition truncate_bno_uhf {A} (coeff : list A * list A) (occup : list Q * list Q) (t : threshold_arg)
  (nelec_cluster : Q) : option ((list A * list A) * (list A * list A)) :=
  match truncate_bno (fst coeff) (fst occup) t nelec_cluster with
  | Some (ba, ra) =>
      match truncate_bno (snd coeff) (snd occup) t nelec_cluster with
      | Some (bb, rb) => Some ((ba, bb), (ra, rb))
      | None => None
      end
  | None => None
  end.
