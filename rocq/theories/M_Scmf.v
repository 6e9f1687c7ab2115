(** Model of the self-consistent mean-field loop: vayesta/core/scmf/scmf.py SCMF.check_convergence (60-78) and
    SCMF.kernel (80-136).
    Simplifications: numbers are exact rationals; a density matrix is the list of its elements (one list per spin
    channel); the embedding calculation, the update of the orbitals (with DIIS) and the symmetry check are arbitrary
    functions of everything that happened before, and may raise; log messages are left out. *)
From Coq Require Import List ZArith QArith Qabs Qminmax Bool.
Import ListNotations.

(** abs(a - b).max() *)
Fixpoint max_diff (a b : list Q) : Q :=
  match a, b with
  | x :: a', y :: b' => Qmax (Qabs (x - y)) (max_diff a' b')
  | _, _ => 0
  end.

(** A density matrix: restricted or the two spin channels *)
Inductive dm := Rdm (d : list Q) | Udm (da db : list Q).

(** scmf.py 67-72 *)
Definition ddm (d l : dm) : Q :=
  match d, l with
  | Rdm x, Rdm y => max_diff x y / 2
  | Udm xa xb, Udm ya yb => Qmax (max_diff xa ya) (max_diff xb yb)
  | _, _ => 0
  end.

(** x < tighten * tol with tol None standing for infinity (lines 17-18): 0*inf is not a number, every comparison False *)
Definition below (tighten : Q) (tol : option Q) (x : Q) : bool :=
  match tol with
  | Some t => negb (Qle_bool (tighten * t) x)
  | None => negb (Qle_bool tighten 0)
  end.

(** scmf.py 60-78; the differences are infinite in the first iteration, and infinity is below nothing *)
Definition check_convergence (damping : Q) (etol dtol : option Q) (e : Q) (d : dm) (last : option (Q * dm)) : bool :=
  match last with
  | None => false
  | Some (e_last, d_last) =>
      below (1 - damping) etol (Qabs (e - e_last)) && below (1 - damping) dtol (ddm d d_last)
  end.

Section Kernel.
Variables M R : Type.                                (* mean-fields, results of the embedding calculation *)
(** kernel_orig with get_e_corr (lines 103-106): results and total energy; depends on the earlier runs *)
Variable solve : list (M * R) -> M -> option (R * Q).
(** update_mo_coeff and update_mf (lines 110-111): depends on all runs *)
Variable update : list (M * R) -> M -> option M.
Variable make_dm : M -> dm.                          (* mf.make_rdm1, line 113 *)
Variable symmetric : dm -> bool.                     (* check_fragment_symmetry, line 116 *)
Variables (damping : Q) (etol dtol : option Q).

(** The attributes of the object and the embedding that change; [hist] all runs so far, latest first *)
Record sstate := { mf : M; converged : bool; energies : list Q; hist : list (M * R) }.

Inductive soutcome :=
| SReturn (res : R)
| SUnbound                (* maxiter < 1: res is not defined, line 136 *)
| SException.             (* raised in the embedding calculation or the update *)

(** scmf.py 96-136: [n] iterations left, [last] the energy and density matrix of the previous iteration, [res] the last result *)
Fixpoint loop (n : nat) (last : option (Q * dm)) (res : option R) (st : sstate) : soutcome * sstate :=
  match n with
  | O => (match res with Some r => SReturn r | None => SUnbound end, st)
  | S n' =>
      match solve (hist st) (mf st) with
      | None => (SException, st)
      | Some (r, e) =>
          let h := (mf st, r) :: hist st in
          let en := energies st ++ [e] in
          match update h (mf st) with
          | None => (SException, {| mf := mf st; converged := converged st; energies := en; hist := h |})
          | Some m =>
              let d := make_dm m in
              if symmetric d then
                if check_convergence damping etol dtol e d last
                then (SReturn r, {| mf := m; converged := true; energies := en; hist := h |})
                else loop n' (Some (e, d)) (Some r) {| mf := m; converged := converged st; energies := en; hist := h |}
              else (SReturn r, {| mf := m; converged := false; energies := en; hist := h |})
          end
      end
  end.

Definition scmf_kernel (maxiter : nat) (st : sstate) : soutcome * sstate := loop maxiter None None st.

(** scmf.py 38-44: e_tot and e_tot_oneshot *)
Definition e_tot (st : sstate) : option Q := nth_error (rev (energies st)) 0.
Definition e_tot_oneshot (st : sstate) : option Q := nth_error (energies st) 0.
End Kernel.
Arguments mf {M R}. Arguments converged {M R}. Arguments energies {M R}. Arguments hist {M R}.
Arguments scmf_kernel {M R}. Arguments loop {M R}. Arguments e_tot {M R}. Arguments e_tot_oneshot {M R}.
Arguments SReturn {R}. Arguments SUnbound {R}. Arguments SException {R}.
