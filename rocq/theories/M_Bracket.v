(** Model of the search for a chemical potential bracket in DMET.kernel, vayesta/dmet/dmet.py 143-195.
    Simplifications: rational numbers; the defect of the number of electrons is a function of the chemical potential within one
    iteration, None stands for numpy's LinAlgError (any other exception ends the kernel and is not modelled). *)
From Coq Require Import List QArith Qabs Bool.
Import ListNotations.
Close Scope Q_scope.

Inductive outcome := Suitable (cpt : Q) | Bracket (lo hi : Q) | NoBracket | LinAlgError.

Section Kernel.
Variable electron_err : Q -> option Q.   (* electron_err, lines 145-147 *)
Variable ccsd : bool.                    (* self.solver == "CCSD" *)
Variable tol : Q.                        (* max_elec_err * nelec_mf *)

Definition Qltb (x y : Q) : bool := negb (Qle_bool y x).
(** np.sign *)
Definition sign (x : Q) : Q := if Qltb x 0 then - 1 else if Qltb 0 x then 1 else 0.

(** sorted, line 187 *)
Definition sorted2 (a b : Q) : outcome := if Qltb b a then Bracket b a else Bracket a b.

(** the for-loop with its else-branch, lines 169-185 *)
Fixpoint tries (n : nat) (cpt err new_cpt new_err : Q) : outcome :=
  match n with
  | O => NoBracket
  | S n' =>
      let new_cpt1 := (cpt + (new_cpt - cpt) * 2)%Q in
      match electron_err new_cpt1 with
      | Some e => if Qltb (err * e) 0 then sorted2 cpt new_cpt1 else tries n' cpt err new_cpt1 e
      | None => if ccsd then
                  let new_cpt2 := (cpt - (new_cpt1 - cpt) * 3 / 8)%Q in
                  if Qltb (err * new_err) 0 then sorted2 cpt new_cpt2 else tries n' cpt err new_cpt2 new_err
                else LinAlgError
      end
  end.

(** lines 149-187 *)
Definition search (cpt : Q) : outcome :=
  match electron_err cpt with
  | None => LinAlgError
  | Some err =>
      if Qltb tol (Qabs err) then
        let new_cpt := (cpt - sign err * (1 # 10))%Q in
        match electron_err new_cpt with
        | Some new_err => if Qltb 0 (err * new_err) then tries 10 cpt err new_cpt new_err else sorted2 cpt new_cpt
        | None => if ccsd then
                    let new_cpt' := (cpt - (new_cpt - cpt) * 3 / 8)%Q in
                    if Qltb 0 (err * err) then tries 10 cpt err new_cpt' err else sorted2 cpt new_cpt'
                  else LinAlgError
        end
      else Suitable cpt
  end.
End Kernel.

(** The self-consistency loop around it, lines 118 and 195-227: [iter] gives the outcome of each iteration.
    A search without bracket leaves the loop (line 185 ends the inner, "break" of line 185 the outer loop). *)
Inductive iteration := ItNoBracket | ItOneshot | ItConverged | ItContinue.
Record report := { converged : bool; not_reached_logged : bool; iterations : nat }.
Fixpoint scloop (iter : nat -> iteration) (n k : nat) : report :=
  match n with
  | O => {| converged := false; not_reached_logged := true; iterations := k |}
  | S n' => match iter (S k) with
            | ItNoBracket => {| converged := false; not_reached_logged := false; iterations := S k |}
            | ItOneshot => {| converged := false; not_reached_logged := false; iterations := S k |}
            | ItConverged => {| converged := true; not_reached_logged := false; iterations := S k |}
            | ItContinue => scloop iter n' (S k)
            end
  end.
