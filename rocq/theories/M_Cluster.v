(** Model of the orbital containers and of the cluster of a fragment.

    Modelled: vayesta/core/types/orbitals.py (SpatialOrbitals, SpinOrbitals) and
    vayesta/core/types/cluster.py (Cluster, ClusterRHF, ClusterUHF).
    Simplifications: a coefficient matrix is the list of its columns (orbitals), of any type [A];
    occupation numbers are exact rationals; orbital energies, labels and bosons are not modelled. *)
From Coq Require Import List ZArith QArith Bool.
Import ListNotations.

Section Cluster.
Variable A : Type.

(** SpatialOrbitals, orbitals.py 47-55: the coefficients [coeff] and the occupations [occ].
    [occ = None] (no occupations given) is not modelled, all users of the cluster give occupations. *)
Record orbitals := { coeff : list A; occ : list Q }.

(** orbitals.py 52-53: an integer occupation means [occ] filled orbitals followed by empty ones;
    Python's [n * [x]] is the empty list for negative [n], which is [repeat] of the truncated difference. *)
Definition orbitals_int (c : list A) (nocc : nat) (maxocc : Q) : orbitals :=
  {| coeff := c; occ := repeat maxocc nocc ++ repeat 0%Q (length c - nocc) |}.

(** orbitals.py 61-63 *)
Definition norb (o : orbitals) : nat := length (coeff o).

(** orbitals.py 65-69: [np.count_nonzero(self.occ > 0)] *)
Definition nocc (o : orbitals) : nat := length (filter (fun x => negb (Qle_bool x 0)) (occ o)).

(** orbitals.py 71-75: [np.count_nonzero(self.occ == 0)] *)
Definition nvir (o : orbitals) : nat := length (filter (fun x => Qeq_bool x 0) (occ o)).

(** orbitals.py 86-88: [self.coeff[:, :self.nocc]] *)
Definition coeff_occ (o : orbitals) : list A := firstn (nocc o) (coeff o).

(** orbitals.py 90-92: [self.coeff[:, self.nocc:]] *)
Definition coeff_vir (o : orbitals) : list A := skipn (nocc o) (coeff o).

(** orbitals.py 94-97: the coefficients are replaced, the occupations stay. *)
Definition basis_transform (trafo : list A -> list A) (o : orbitals) : orbitals :=
  {| coeff := trafo (coeff o); occ := occ o |}.

(** cluster.py 12-16: active and frozen orbitals *)
Record cluster := { active : orbitals; frozen : orbitals }.

(** cluster.py 18-32 (restricted case); orbitals.py 48: the default [maxocc=2] *)
Definition from_coeffs (ao av fo fv : list A) (maxocc : Q) : cluster :=
  {| active := orbitals_int (ao ++ av) (length ao) maxocc;
     frozen := orbitals_int (fo ++ fv) (length fo) maxocc |}.

(** cluster.py 71-81 and 37-47, read off the containers *)
Definition norb_active (c : cluster) := norb (active c).
Definition nocc_frozen (c : cluster) := nocc (frozen c).
Definition nvir_frozen (c : cluster) := nvir (frozen c).

(** cluster.py 97-99 *)
Definition norb_total (c : cluster) : nat := norb (active c) + norb (frozen c).

(** cluster.py 101-103 *)
Definition nocc_total (c : cluster) : nat := nocc (active c) + nocc (frozen c).

(** cluster.py 105-107 *)
Definition nvir_total (c : cluster) : nat := nvir (active c) + nvir (frozen c).

(** cluster.py 113-115: [hstack(c_frozen_occ, c_active_occ)] *)
Definition c_total_occ (c : cluster) : list A := coeff_occ (frozen c) ++ coeff_occ (active c).

(** cluster.py 117-119: [hstack(c_active_vir, c_frozen_vir)] *)
Definition c_total_vir (c : cluster) : list A := coeff_vir (active c) ++ coeff_vir (frozen c).

(** cluster.py 109-111 *)
Definition c_total (c : cluster) : list A := c_total_occ c ++ c_total_vir c.

(** Python's [range(a, b)] for integers a, b (negative values possible after a subtraction). *)
Definition pyrange (a b : Z) : list Z := map (fun k => (a + Z.of_nat k)%Z) (seq 0 (Z.to_nat (b - a))).

(** cluster.py 145-146: the bounds of the slice *)
Definition get_active_slice (c : cluster) : nat * nat :=
  (nocc_frozen c, (nocc_frozen c + norb_active c)%nat).

(** cluster.py 148-149 *)
Definition get_active_indices (c : cluster) : list Z :=
  pyrange (Z.of_nat (nocc_frozen c)) (Z.of_nat (nocc_frozen c + norb_active c)).

(** cluster.py 151-152 *)
Definition get_frozen_indices (c : cluster) : list Z :=
  pyrange 0 (Z.of_nat (nocc_frozen c))
  ++ pyrange (Z.of_nat (norb_total c) - Z.of_nat (nvir_frozen c)) (Z.of_nat (norb_total c)).

(** cluster.py 128-134 without bosons *)
Definition cluster_transform (trafo : list A -> list A) (c : cluster) : cluster :=
  {| active := basis_transform trafo (active c); frozen := basis_transform trafo (frozen c) |}.

End Cluster.

Arguments coeff {A}. Arguments occ {A}. Arguments active {A}. Arguments frozen {A}.
Arguments orbitals_int {A}. Arguments from_coeffs {A}. Arguments get_active_indices {A}.
Arguments get_frozen_indices {A}. Arguments get_active_slice {A}. Arguments c_total {A}.
Arguments norb_total {A}. Arguments nocc_total {A}. Arguments nvir_total {A}.
Arguments cluster_transform {A}. Arguments norb {A}. Arguments nocc {A}. Arguments nvir {A}.
Arguments coeff_occ {A}. Arguments coeff_vir {A}. Arguments norb_active {A}.
Arguments nocc_frozen {A}. Arguments nvir_frozen {A}. Arguments basis_transform {A}.
Arguments c_total_occ {A}. Arguments c_total_vir {A}.

(** ClusterUHF: one restricted-style container per spin channel, cluster.py 21-33 (is_rhf false, the
    default [maxocc=1] of SpinOrbitals, orbitals.py 121-132) *)
Definition from_coeffs_uhf {A} (ao av fo fv : list A * list A) : cluster A * cluster A :=
  (from_coeffs (fst ao) (fst av) (fst fo) (fst fv) 1%Q, from_coeffs (snd ao) (snd av) (snd fo) (snd fv) 1%Q).

(** cluster.py 188-192 *)
Definition get_active_indices_uhf {A} (c : cluster A * cluster A) : list Z * list Z :=
  (pyrange (Z.of_nat (nocc_frozen (fst c))) (Z.of_nat (nocc_frozen (fst c) + norb_active (fst c))),
   pyrange (Z.of_nat (nocc_frozen (snd c))) (Z.of_nat (nocc_frozen (snd c) + norb_active (snd c)))).

(** cluster.py 194-200 *)
Definition get_frozen_indices_uhf {A} (c : cluster A * cluster A) : list Z * list Z :=
  (pyrange 0 (Z.of_nat (nocc_frozen (fst c)))
   ++ pyrange (Z.of_nat (norb_total (fst c)) - Z.of_nat (nvir_frozen (fst c))) (Z.of_nat (norb_total (fst c))),
   pyrange 0 (Z.of_nat (nocc_frozen (snd c)))
   ++ pyrange (Z.of_nat (norb_total (snd c)) - Z.of_nat (nvir_frozen (snd c))) (Z.of_nat (norb_total (snd c)))).
