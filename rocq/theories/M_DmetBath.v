(** Model of the separation of environment and cluster orbitals by the eigenvalues of a density matrix.

    Modelled: vayesta/core/bath/dmet.py make_dmet_bath (83-180, and 309-317 for the unrestricted case) and
    vayesta/core/qemb/fragment.py diagonalize_cluster_dm (541-576; ufragment.py 82-107).
    Simplifications: the eigensolver is an arbitrary list of (eigenvalue, eigenvector) pairs in the order numpy
    returns it (the orthonormality of the vectors is not modelled here), eigenvectors are of any type [A] and
    already expressed in the AO basis; the sign fixing of the columns is any function [fix]; eigenvalues and
    tolerances are exact rationals; the logging of unphysical eigenvalues (139-142, fragment.py 568-569) and the
    unmaintained options c_ref and nbath (nbath raises NotImplementedError) are left out. *)
From Coq Require Import List ZArith QArith Bool.
Import ListNotations.

Section Bath.
Variable A : Type.

(** dmet.py 160-162 *)
Definition mask_bath (tol e : Q) : bool := Qle_bool tol e && Qle_bool e (1 - tol).
Definition mask_occenv (tol e : Q) : bool := negb (Qle_bool e (1 - tol)).
Definition mask_virenv (tol e : Q) : bool := negb (Qle_bool tol e).

(** [sum(mask)], dmet.py 163-166 *)
Definition count (f : Q -> bool) (l : list (Q * A)) : nat := length (filter (fun p => f (fst p)) l).

(** [c_env[:, mask]], dmet.py 169-171 *)
Definition select (f : Q -> bool) (l : list (Q * A)) : list A := map snd (filter (fun p => f (fst p)) l).

Record bath := { c_bath : list A; n_dmet : list Q; c_occenv : list A; c_virenv : list A }.

(** dmet.py 121-180 for c_ref = nbath = None; None is the AssertionError of line 168.
    [pairs] is what eigh returns (ascending in the code, nothing is assumed here); it is reversed (line 138). *)
Definition make_dmet_bath (tol : Q) (fix_sign : A -> A) (pairs : list (Q * A)) : option bath :=
  match pairs with
  | [] => Some {| c_bath := []; n_dmet := []; c_occenv := []; c_virenv := [] |}
  | _ =>
    let env := map (fun p => (fst p, fix_sign (snd p))) (rev pairs) in
    if Nat.eqb (count (mask_bath tol) env + count (mask_occenv tol) env + count (mask_virenv tol) env) (length env)
    then Some {| c_bath := select (mask_bath tol) env;
                 n_dmet := map fst (filter (fun p => mask_bath tol (fst p)) env);
                 c_occenv := select (mask_occenv tol) env;
                 c_virenv := select (mask_virenv tol) env |}
    else None
  end.

(** fragment.py 562-576: eigenpairs as returned by eigh (ascending) are reversed, the first nocc columns are
    occupied, where nocc counts the eigenvalues of at least norm/2 *)
Definition diagonalize_cluster_dm (norm : Q) (fix_sign : A -> A) (pairs : list (Q * A)) : list A * list A :=
  let l := rev pairs in
  let c := map (fun p => fix_sign (snd p)) l in
  let nocc := length (filter (fun p => Qle_bool (norm / 2) (fst p)) l) in
  (firstn nocc c, skipn nocc c).

End Bath.
Arguments make_dmet_bath {A}. Arguments diagonalize_cluster_dm {A}. Arguments count {A}. Arguments select {A}.
Arguments c_bath {A}. Arguments n_dmet {A}. Arguments c_occenv {A}. Arguments c_virenv {A}.

(** dmet.py 309-317: each spin channel with the restricted routine, None if one of them fails *)
Definition make_dmet_bath_uhf {A} (tol : Q) (fix_sign : A -> A) (pa pb : list (Q * A)) : option (bath A * bath A) :=
  match make_dmet_bath tol fix_sign pa with
  | None => None
  | Some a => match make_dmet_bath tol fix_sign pb with None => None | Some b => Some (a, b) end
  end.
