(** Model of the two chemical potential searches.

    Modelled: vayesta/misc/cptbisect.py ChempotBisection.kernel (18-72) and vayesta/solver/solver.py
    optimize_cpt (52-193) with calc_v_ext (195-196).
    Simplifications: numbers are exact rationals; the SciPy root finder brentq is an arbitrary finite interaction
    ([strategy]): it asks for values of the function one after the other and ends in some way; the error function
    and the cluster solver are arbitrary and may depend on all their earlier calls; log messages are left out. *)
From Coq Require Import List ZArith QArith Qabs Bool.
Import ListNotations.

(** scipy.optimize.brentq as seen by the caller: ask for f(x), or end with success/failure, or raise ValueError
    (no sign change at the ends). *)
Inductive strategy :=
| Ask (x : Q) (k : Q -> strategy)
| Done (converged : bool)
| NoBracket.

(** ** ChempotBisection *)

(** The attributes of the object that change, cptbisect.py 10-11 *)
Record bstate := { cpt : Q; converged : bool }.

Inductive boutcome :=
| BReturn (c : Q)        (* returned value *)
| BValueError            (* no bracket found, line 47, or raised by brentq *)
| BRuntimeError          (* brentq did not converge *)
| BFuncError             (* an exception of the user's function *)
| BNonFinite.            (* gradient zero: the function is called with an infinite argument (line 39) *)

Section Bisect.
(** The user's function: may depend on the arguments of all earlier calls; None is an exception. *)
Variable func : list Q -> Q -> option Q.
(** The evaluations done so far, latest first. *)
Definition trace := list (Q * Q).
Definition call (tr : trace) (x : Q) : option (Q * trace) :=
  match func (map fst tr) x with Some e => Some (e, (x, e) :: tr) | None => None end.

(** np.sign, cptbisect.py 26 *)
Definition qsign (x : Q) : Q := match x ?= 0 with Lt => -(1) | Eq => 0 | Gt => 1 end.

(** cptbisect.py 53-72: the interaction of brentq with [iteration] *)
Fixpoint run_brentq (tol c1 e1 c3 e3 : Q) (s : strategy) (st : bstate) (tr : trace) : boutcome * bstate * trace :=
  match s with
  | Done true => (BReturn (cpt st), st, tr)
  | Done false => (BRuntimeError, st, tr)
  | NoBracket => (BValueError, st, tr)
  | Ask x k =>
      let go e tr' :=
        let st' := {| cpt := x; converged := converged st |} in
        if Qle_bool (Qabs e) tol then (BReturn x, {| cpt := x; converged := true |}, tr')
        else run_brentq tol c1 e1 c3 e3 (k e) st' tr' in
      if Qeq_bool x c1 then go e1 tr
      else if Qeq_bool x c3 then go e3 tr
      else match call tr x with
           | None => (BFuncError, st, tr)
           | Some (e, tr') => go e tr'
           end
  end.

(** cptbisect.py 38-47: the search for the upper end of the bracket, exponents left to try; Some (c3, e3) if found *)
Inductive found := Found (c e : Q) (tr : trace) | NotFound (tr : trace) | FuncError (tr : trace).

Fixpoint bracket (c1 e1 m base : Q) (exps : list nat) (tr : trace) : found :=
  match exps with
  | [] => NotFound tr
  | x :: rest =>
      let c3 := c1 - Qpower base (Z.of_nat x) * e1 / m in
      match call tr c3 with
      | None => FuncError tr
      | Some (e3, tr') => if Qle_bool (e1 * e3) 0 then Found c3 e3 tr' else bracket c1 e1 m base rest tr'
      end
  end.

(** cptbisect.py 18-72; [brentq a b] is the root finder on [a, b]; [tr] the earlier evaluations *)
Definition bisect_kernel (tol : Q) (robust : bool) (brentq : Q -> Q -> strategy) (st : bstate) (tr : trace)
  : boutcome * bstate * trace :=
  let c1 := cpt st in
  match call tr c1 with
  | None => (BFuncError, st, tr)
  | Some (e1, tr) =>
    if Qle_bool (Qabs e1) tol then (BReturn c1, {| cpt := cpt st; converged := true |}, tr)
    else
      let c2 := c1 + qsign e1 * (1 # 1000) in
      match call tr c2 with
      | None => (BFuncError, st, tr)
      | Some (e2, tr) =>
        let m := (e2 - e1) / (c2 - c1) in
        if Qeq_bool m 0 then (BNonFinite, st, tr)
        else
          let '(base, exps) := if robust then (13 # 10, [0; 1; 2; 3]%nat) else (2, [1; 2; 3]%nat) in
          match bracket c1 e1 m base exps tr with
          | FuncError tr => (BFuncError, st, tr)
          | NotFound tr => (BValueError, st, tr)
          | Found c3 e3 tr =>
              (* lower = min, upper = max *)
              let '(lower, upper) := if Qle_bool c1 c3 then (c1, c3) else (c3, c1) in
              run_brentq tol c1 e1 c3 e3 (brentq lower upper) st tr
          end
      end
  end.
End Bisect.

(** ** optimize_cpt *)

Section Opt.
(** External potentials. *)
Variable V : Type.
(** calc_v_ext, solver.py 195-196: [v_ext_0 - cpt * projector], None standing for no external potential (0, line 106) *)
Variable calc : option V -> Q -> V.

(** One run of the original kernel of the solver in a given external potential: converged with a number of electrons
    in the fragment, not converged, or an exception. *)
Inductive run := Conv (nelec : Q) | NotConv | RaisesValueError | RaisesConvergenceError | RaisesOther.
(** May depend on all earlier external potentials. *)
Variable solve : list (option V) -> option V -> run.

(** The state: external potential of the Hamiltonian, the electron number of the current wave function (if the last
    run converged) and all runs so far (chemical potential, external potential during the run), latest first. *)
Record ostate := { v_ext : option V; wf : option Q; runs : list (Q * option V) }.

Inductive signal := Err (e : Q) | CptFound | SigValueError | SigConvergenceError | SigOther.

(** solver.py 94-133; [err0] the cached error (None during the first run).  replace_attr (line 110) restores
    the external potential whatever happens (property C04). *)
Definition electron_err (nelectron atol rtol : Q) (err0 : option Q) (c : Q) (st : ostate) : signal * ostate :=
  match (if Qeq_bool c 0 then err0 else None) with
  | Some e => (Err e, st)
  | None =>
    let v := if Qeq_bool c 0 then v_ext st else Some (calc (v_ext st) c) in
    let r := solve (map snd (runs st)) v in
    let st' ne := {| v_ext := v_ext st; wf := ne; runs := (c, v) :: runs st |} in
    match r with
    | Conv ne =>
        let err := ne - nelectron in
        if Qle_bool (atol + rtol * nelectron) (Qabs err) then (Err err, st' (Some ne)) else (CptFound, st' (Some ne))
    | NotConv => (SigConvergenceError, st' None)
    | RaisesValueError => (SigValueError, st' None)
    | RaisesConvergenceError => (SigConvergenceError, st' None)
    | RaisesOther => (SigOther, st' None)
    end
  end.

(** The end of one try of the loop, solver.py 161-184 *)
Inductive tried := TFound (c : Q) | TValueError | TConvergenceError | TRuntimeError | TOther.

Fixpoint run_search (nelectron atol rtol err0 : Q) (s : strategy) (st : ostate) : tried * ostate :=
  match s with
  | Done _ => (TRuntimeError, st)      (* lines 165-168, or brentq itself raises RuntimeError *)
  | NoBracket => (TValueError, st)
  | Ask x k =>
      match electron_err nelectron atol rtol (Some err0) x st with
      | (Err e, st') => run_search nelectron atol rtol err0 (k e) st'
      | (CptFound, st') => (TFound x, st')
      | (SigValueError, st') => (TValueError, st')
      | (SigConvergenceError, st') => (TConvergenceError, st')
      | (SigOther, st') => (TOther, st')
      end
  end.

(** The outcome of the replaced kernel: returns (the value of [result], which is None throughout, lines 87, 146
    and 190, with the chemical potential found) or raises. *)
Inductive ooutcome :=
| OReturn (result : option Q) (c : Q)
| ORuntimeError | OConvergenceError | OValueError | OOther.

(** solver.py 160-188: the five tries with changing bounds *)
Fixpoint tries (n : nat) (brentq : Q -> Q -> strategy) (nelectron atol rtol err0 lo up : Q) (st : ostate) : ooutcome * ostate :=
  match n with
  | O => (ORuntimeError, st)
  | S n' =>
      match run_search nelectron atol rtol err0 (brentq lo up) st with
      | (TFound c, st') => (OReturn None c, st')
      | (TValueError, st') => tries n' brentq nelectron atol rtol err0 (lo * 2) (up * 2) st'
      | (TConvergenceError, st') => tries n' brentq nelectron atol rtol err0 (lo / 2) (up / 2) st'
      | (TRuntimeError, st') => (ORuntimeError, st')
      | (TOther, st') => (OOther, st')
      end
  end.

(** solver.py 86-190 *)
Definition cpt_kernel (brentq : Q -> Q -> strategy) (nelectron guess atol rtol radius : Q) (st : ostate) : ooutcome * ostate :=
  match electron_err nelectron atol rtol None guess st with
  | (CptFound, st') => (OReturn None guess, st')
  | (SigValueError, st') => (OValueError, st')
  | (SigConvergenceError, st') => (OConvergenceError, st')
  | (SigOther, st') => (OOther, st')
  | (Err err0, st') =>
      let '(lo, up) := if Qle_bool 0 err0 then (guess - radius, guess) else (guess, guess + radius) in
      tries 5 brentq nelectron atol rtol err0 lo up st'
  end.
End Opt.
Arguments v_ext {V}. Arguments wf {V}. Arguments runs {V}. Arguments electron_err {V}. Arguments cpt_kernel {V}.
Arguments tries {V}. Arguments run_search {V}.
