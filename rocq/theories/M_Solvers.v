(** Model of vayesta/solver/__init__.py: _get_solver_class (38-47), _solver_dict (51-72), _ebcc_solver_dict (76-81),
    _get_solver_class_internal (84-94), _get_solver_class_ebcc (97-122); and of CallbackSolver.kernel
    (vayesta/solver/callback.py 14-52).
    Simplifications: a class is its name; [None] for the ansatz means the default of the options.  Not modelled: log
    messages, the classes themselves. *)
From Coq Require Import List String Ascii Bool Arith.
Import ListNotations.
Open Scope string_scope.

(** What is returned: a class of this package, or a class of the ebcc interface with its ansatz; or what is raised *)
Inductive solver_class := Class (name : string) | Ebcc (is_uhf is_eb : bool) (ansatz : option string).
Inductive outcome := Found (c : solver_class) | ValueError | NotImplementedError | ImportError.
Inductive entry := ECls (name : string) | ENotImplemented.

(** _solver_dict, lines 51-72 *)
Definition solver_dict : list (string * bool * bool * entry) :=
  [ ("MP2", false, false, ECls "RMP2_Solver"); ("MP2", true, false, ECls "UMP2_Solver");
    ("CISD", false, false, ECls "RCISD_Solver"); ("CISD", true, false, ECls "UCISD_Solver");
    ("CCSD", false, false, ECls "RCCSD_Solver"); ("CCSD", true, false, ECls "UCCSD_Solver");
    ("TCCSD", false, false, ECls "TRCCSD_Solver"); ("TCCSD", true, false, ENotImplemented);
    ("extCCSD", false, false, ECls "extRCCSD_Solver"); ("extCCSD", true, false, ECls "extUCCSD_Solver");
    ("coupledCCSD", false, false, ECls "coupledRCCSD_Solver"); ("coupledCCSD", true, false, ENotImplemented);
    ("FCI", false, false, ECls "FCI_Solver"); ("FCI", true, false, ECls "UFCI_Solver");
    ("FCI", false, true, ECls "EB_EBFCI_Solver"); ("FCI", true, true, ECls "EB_UEBFCI_Solver");
    ("DUMP", false, false, ECls "DumpSolver"); ("DUMP", true, false, ECls "DumpSolver");
    ("CALLBACK", false, false, ECls "CallbackSolver"); ("CALLBACK", true, false, ECls "CallbackSolver") ].

(** _solver_dict.get((solver, is_uhf, is_eb), None), line 85 *)
Definition lookup (s : string) (u e : bool) : option entry :=
  match find (fun x => let '(s', u', e', _) := x in String.eqb s s' && Bool.eqb u u' && Bool.eqb e e') solver_dict with
  | Some (_, x) => Some x
  | None => None
  end.

(** 'CC' in solver, line 91 *)
Fixpoint contains_cc (s : string) : bool :=
  match s with
  | String "C" (String "C" _ as r) => true
  | String _ r => contains_cc r
  | EmptyString => false
  end.

(** solver[2:] if solver[:2] == "EB", lines 104-105 *)
Definition strip_eb (s : string) : string :=
  match s with String "E" (String "B" r) => r | _ => s end.

(** lines 97-122 *)
Definition get_ebcc (has_ebcc : bool) (s : string) (u e : bool) : outcome :=
  if negb has_ebcc then ImportError
  else if String.eqb s "EBCC" then Found (Ebcc u e None)
  else let s1 := strip_eb s in
       let s2 := if (String.eqb s1 "CCSD" && e)%bool then "CCSD-SD-1-1" else s1 in
       Found (Ebcc u e (Some s2)).

(** lines 84-94; the ValueError is raised again with another message (42-47) *)
Definition get_solver_class (has_ebcc : bool) (s : string) (u e : bool) : outcome :=
  match lookup s u e with
  | Some ENotImplemented => NotImplementedError
  | Some (ECls c) => Found (Class c)
  | None => if contains_cc s then get_ebcc has_ebcc s u e else ValueError
  end.

(** The call of the returned class with a keyword argument ansatz, lines 111-120: the ansatz used, None for the
    ValueError *)
Definition construct_ansatz (c : solver_class) (kwarg : option string) : option (option string) :=
  match c with
  | Class _ => Some None
  | Ebcc _ _ None => Some kwarg
  | Ebcc _ _ (Some s) =>
      match kwarg with
      | Some k => if String.eqb k s then Some (Some s) else None
      | None => Some (Some s)
      end
  end.

(** ** CallbackSolver.kernel: [results] the dictionary returned by the user's function, keys in any order *)
Section Callback.
Variable value : Type.
Definition results := list (string * value).
Fixpoint get (r : results) (k : string) : option value :=
  match r with [] => None | (k', v) :: l => if String.eqb k k' then Some v else get l k end.

Inductive wavefunction := FCI (civec : value) | CCSD (t1 t2 : value) (l : option (value * value)) | CISD (c0 c1 c2 : value) | RDM (dm1 dm2 : value).

(** callback.py 19-40; None: the variable wf is not assigned *)
Definition choose_wf (r : results) : option wavefunction :=
  match get r "civec" with
  | Some c => Some (FCI c)
  | None =>
      match get r "t1", get r "t2" with
      | Some t1, Some t2 => Some (CCSD t1 t2 (match get r "l1", get r "l2" with Some l1, Some l2 => Some (l1, l2) | _, _ => None end))
      | _, _ =>
          match get r "c0", get r "c1", get r "c2" with
          | Some c0, Some c1, Some c2 => Some (CISD c0 c1 c2)
          | _, _, _ => match get r "dm1", get r "dm2" with Some d1, Some d2 => Some (RDM d1 d2) | _, _ => None end
          end
      end
  end.

(** The solver after kernel, callback.py 42-52: None for the UnboundLocalError in line 49.  [truth] is the value of
    "False"; the moments are only set if given *)
Record solved := Solved { wf : wavefunction; converged : value; hole : option value; particle : option value }.
Definition kernel (false_ : value) (r : results) : option solved :=
  match choose_wf r with
  | Some w => Some (Solved w (match get r "converged" with Some c => c | None => false_ end) (get r "hole_moments") (get r "particle_moments"))
  | None => None
  end.
End Callback.
