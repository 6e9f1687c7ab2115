# Design

Formal model, in Rocq/Coq 8.16.1, of parts of Vayesta (source read as text in /repo, never executed).

## Conventions

* `M_*.v` are models: one Gallina definition per function or code block, with a comment citing file and lines and stating
  simplifications. All functions are total and computable. Python exceptions are values (`None` or an error constructor).
* Linear algebra is done over abstract algebra written for this project in plain Coq (no mathcomp): `Alg.v` has the records
  `cring` (commutative rings) and `cfield` (fields) with finite sums `Sum n f`, `Lsum`, and the instances `ZK`, `QK`/`QF`;
  `Ord.v` has ordered rings `oring` (instances `ZO`, `QO`). Arrays are functions of their indices, with their sizes where
  the code looks at sizes. Floating-point numbers are exact elements of an arbitrary ring/field: rounding is not modelled.
* Code that is not modelled but called (PySCF, NumPy/SciPy numerics, MPI transport, user callbacks) is an oracle: a variable
  or an inductive strategy over which the theorems quantify.
* `P_*.v` hold the independent specifications, lemmas, the property theorems `Cnn_...`, concrete cases meeting the hypotheses
  (`Example`s), findings, and `Print Assumptions`.
* Findings: where the code does not do what its user would expect, the statement in properties.jsonl says exactly what holds
  and what does not; the theorem `..._refuted` proves the negative part with a witness, the other theorems the positive
  part. A theorem that proves only part of the property would have the suffix `_partial`; there is none at present.
* Mutation testing: `seeded/LOG.jsonl`, one line per edit of a model definition, with the theorems that stopped proving
  and the theorems that were tightened because of it.

## Trusted base

* the Coq 8.16.1 kernel (`coqc`, `coqchk`);
* the axioms printed by `Print Assumptions`, see below;
* the reading of the Python source: each definition cites the lines it models, simplifications are in the comment.

### Axioms

Every theorem is "Closed under the global context" except the ones listed here, which use the classical real numbers of the
standard library (Coq.Reals):

* C21_orbitals, C21_products, C21_real, C21_round_trip, C21_unfold_fold, C21_unitary: `ClassicalDedekindReals.sig_forall_dec`, `ClassicalDedekindReals.sig_not_dec`, `FunctionalExtensionality.functional_extensionality_dep`
* C21_imaginary: `ClassicalDedekindReals.sig_forall_dec`, `FunctionalExtensionality.functional_extensionality_dep`

No axiom is declared in this development; no kernel check is switched off.

## Properties

### C01 permutations_with_signs enumerates the symmetric group with parities

Status: proved. Files: M_Perms.v; P_Perms.v.
The recursion of permutations_with_signs on lists, signs by position parity. Specification: number of inversions of an arrangement; induction on the length.

Theorems: C01_positions, C01_sequences, C01_identity_first.

### C02 decompress_axes restores an antisymmetric (or symmetric) tensor

Status: proved. Files: M_Perms.v; P_Perms.v.
One index group; the loop over signed permutations assigns entries of a map from index tuples, later assignments overwrite. Proof from C01 and uniqueness of sorting.

Theorems: C02_entries, C02_repeated_zero, C02_antisymmetric.
Findings: C02_diagonal_minus_refuted.

### C03 brange / split_into_blocks cut a range into blocks without loss or overlap

Status: proved. Files: M_Blocks.v; P_Blocks.v.
brange over Z, split_into_blocks over lists; the concatenation of the blocks is the range, bounds on every block.

Theorems: C03_brange, C03_exactly_once, C03_split.
Findings: C03_negative_limit_refuted.

### C04 replace_attr is transactional

Status: proved. Files: M_Attr.v; P_Attr.v.
An object is a finite attribute map, the body of the with statement any state transformer that returns or raises.

Theorems: C04_replace_attr, C04_failed_entry.
Findings: C04_instance_dict_refuted.

### C05 Option handling: replace is strict, update is lenient, nested dictionaries merge

Status: proved. Files: M_Options.v; P_Options.v.
Option table as association list with dictionary values; replace, update and get as folds returning Ok or TypeError with the table left behind.

Theorems: C05_replace, C05_replace_iff, C05_get, C05_update, C05_change_dict_defaults.
Findings: C05_replace_atomic_refuted.

### C06 cache(copy=True) isolates callers from each other

Status: proved. Files: M_Cache.v; P_Cache.v.
Heap and LRU list as a state machine; histories of calls, mutations by callers and cache_clear; invariants by induction on the history.

Theorems: C06_copy_correct, C06_copy_fresh, C06_lru.
Findings: C06_nocopy_refuted.

### C07 einsum decorated indices are renamed consistently

Status: proved. Files: M_Einsum.v; P_Einsum.v.
Characters as code points; the loop over the string with the list of free letters and the dictionary. The specification reads the string as separators and decorated letters.

Theorems: C07_renaming, C07_ValueError, C07_succeeds.

### C08 Orbital sign convention

Status: proved. Files: M_Sign.v; P_Sign.v.
Columns over any ordered ring; argmax of absolute values by first index.

Theorems: C08_total, C08_signs, C08_idempotent, C08_gauge, C08_density, C08_orthonormal, C08_unrestricted.

### C09 pack_arrays / unpack_arrays round trip

Status: proved. Files: M_Pack.v; P_Pack.v.
Arrays as (dtype, shape, half words); metadata words, offsets. Round trip by induction over the list; complex128 arrays never survive.

Theorems: C09_accepts, C09_round_trip, C09_rejects, C09_complex.
Findings: C09_maxdim_refuted.

### C10 Fragment register hands out unique ids and balances MPI ranks

Status: proved. Files: M_Register.v; P_Register.v.
Register as counter machine; uniqueness and balance of the ranks by induction.

Theorems: C10_register, C10_ids_unique, C10_balance.

### C11 get_fragments returns exactly the fragments that satisfy the filters

Status: proved. Files: M_Fragments.v; P_Fragments.v.
The loop with its continue/skip flags branch by branch; specification: List.filter with a conjunction.

Theorems: C11_get_fragments, C11_sound_complete, C11_options_ignored.
Findings: C11_options_and_flags_refuted.

### C12 Every fragment is visited exactly once through the symmetry tree

Status: proved. Files: M_SymTree.v; P_SymTree.v.
Fragments with parent pointers, forests of any depth; the loop over the tree visits each descendant once with the operations composed along the path.

Theorems: C12_loop, C12_visits_all, C12_children, C12_child_fragments.
Findings: C12_child_fragments_refuted, C12_symmetry_operation_refuted, C12_filtered_children_refuted.

### C13 Symmetry-reduced sums equal full sums

Status: proved. Files: M_SymTree.v; P_SymTree.v.
Weights and sums over the tree in Z.

Theorems: C13_weighted_sum.

### C14 RMA dictionary: all ranks read the same, complete data

Status: proved. Files: M_Rma.v; P_Rma.v.
Asynchronous system of P ranks; invariant over all executions; deadlock freedom.

Theorems: C14_reads, C14_no_deadlock, C14_fails_only_on_conflict, C14_stops_at_conflict, C14_failure_is_permanent.

### C15 MPI reduction of per-rank partial sums

Status: proved. Files: M_Mpi.v; P_Mpi.v.
Ranks as numbers, reductions as sums; ownership arbitrary.

Theorems: C15_allreduce, C15_ccsd_energy, C15_nreduce, C15_replicated, C15_projected.
Findings: C15_global_wf_refuted.

### C16 Fragment projectors partition the amplitudes

Status: proved. Files: M_Wf.v; P_Project.v.
Amplitudes as functions of indices over a ring; projectors adding up to the identity.

Theorems: C16_restricted, C16_symmetric, C16_unprojected, C16_round_trip, C16_unrestricted, C16_mixed_spin.

### C17 CISD <-> CCSD amplitude conversion is a bijection

Status: proved. Files: M_Wf.v; P_Conv.v.
Conversion formulas over a field, closed-shell comparison with the spin-orbital formulas; findings for four-block input, norms and CCSDTQ.

Theorems: C17_restricted, C17_exponential, C17_renormalise, C17_unrestricted, C17_four_blocks, C17_unrestricted_renormalise, C17_closed_shell, C17_mp2, C17_projected.
Findings: C17_projected_refuted, C17_four_blocks_refuted, C17_norm_refuted, C17_ccsdtq_refuted.

### C18 Orbital rotation of amplitudes composes

Status: proved. Files: M_Wf.v; P_Rotate.v.
Rotation as four-index contraction; composition, inverse, physical meaning (rotated tensor in rotated orbitals).

Theorems: C18_compose, C18_identity, C18_inverse, C18_physical, C18_rotate, C18_unrestricted, C18_unrestricted_orbitals.
Findings: C18_orbitals_refuted.

### C19 Block contraction of two-particle density matrix and integrals equals the full contraction

Status: proved. Files: M_Eris.v, M_Wf.v; P_Eris.v.
Contraction of blocks with the weights of the code equals the contraction of the full arrays, also from the intermediates of PySCF.

Theorems: C19_restricted, C19_unrestricted, C19_intermediates_restricted, C19_intermediates_unrestricted.

### C20 Full integral array from occupied/virtual blocks

Status: proved. Files: M_Eris.v, M_Wf.v; P_Eris.v.
Reconstruction of the full array from its blocks, real and with 8-fold symmetry as needed by each access.

Theorems: C20_restricted, C20_unrestricted, C20_overwrites, C20_coefficients.
Findings: C20_coefficients_refuted.

### C21 k-point folding and unfolding are inverse

Status: proved. Files: M_Fold.v; P_Fold.v.
Complex numbers as pairs of Coq reals; the phase matrix is unitary for every mesh (sums of roots of unity); fold/unfold inverse. Uses the standard library's axioms of Reals.

Theorems: C21_unitary, C21_round_trip, C21_products, C21_orbitals, C21_real, C21_imaginary, C21_unfold_fold, C21_kmesh.
Findings: C21_kmesh_refuted.

### C22 Momentum conservation table

Status: proved. Files: M_Kconserv.v; P_Kconserv.v.
k-points and lattice as rational vectors; the search loop; specification through integrality of the coordinates of the momentum difference.

Theorems: C22_any_points, C22_mesh, C22_mesh2, C22_other.
Findings: C22_no_point_refuted.

### C23 Bath natural-orbital threshold selects the right number of orbitals

Status: proved. Files: M_Bno.v; P_Bno.v.
get_number branch by branch over rationals; specification by sums of occupation numbers.

Theorems: C23_share, C23_unreachable, C23_occupation, C23_truncate, C23_plain, C23_unrestricted.
Findings: C23_number_exceeds_refuted, C23_unsorted_refuted.

### C24 DMET bath splits the environment completely

Status: proved. Files: M_DmetBath.v; P_DmetBath.v.
Eigenvalue list in the order of numpy; masks; partition of the environment.

Theorems: C24_split, C24_check, C24_half, C24_unrestricted, C24_cluster.

### C25 Active and frozen index sets of a cluster are complementary

Status: proved. Files: M_Cluster.v; P_Cluster.v.
Index ranges and totals of the orbital containers; rotation of orbitals.

Theorems: C25_restricted, C25_slice, C25_totals, C25_unrestricted, C25_basis_transform.
Findings: C25_any_occupations_refuted.

### C26 MP2 amplitudes, energies and bath density matrices

Status: proved. Files: M_Blocks.v, M_Mp2.v; P_Mp2.v.
The block loop fills every entry once whatever the block size; uninitialised memory arbitrary; the bath density matrix.

Theorems: C26_amplitudes, C26_block_size_irrelevant, C26_uamplitudes, C26_antisymmetric, C26_density_fitting, C26_density_fitting_unrestricted, C26_energy_one_block, C26_energy_sum, C26_uenergy_sum, C26_closed_shell_energy, C26_bath_dm_closed_shell, C26_bath_dm_symmetric, C26_bath_dm_trace, C26_bath_dm_positive, C26_bath_dm_nonneg.
Findings: C26_energy_block_size_refuted, C26_energy_memory_refuted, C26_closed_shell_blocks_refuted.

### C27 Hubbard models: hopping matrix is symmetric and translationally invariant

Status: proved. Files: M_Hubbard.v; P_Hubbard.v.
Loops as folds of assignments; the entries compared with a hopping specification; translations with phases.

Theorems: C27_1d_boundary, C27_1d_hopping, C27_1d_symmetric, C27_1d_translation, C27_2d_hopping, C27_2d_boundary, C27_2d_translation, C27_2d_square_positions, C27_2d_symmetric.
Findings: C27_1d_two_sites_refuted, C27_2d_positions_refuted.

### C28 Hubbard2D tiling is a permutation of the sites

Status: proved. Files: M_Hubbard.v; P_Hubbard.v.
Loop nest as map; permutation of seq, tiles consecutive.

Theorems: C28_permutation, C28_tile_by_tile, C28_rejects, C28_hopping.
Findings: C28_tile_connected_refuted.

### C29 Chemical potential search only reports convergence inside the tolerance

Status: proved. Files: M_Cpt.v; P_Cpt.v.
Error function and root finder arbitrary (the latter a strategy tree); induction over the strategy.

Theorems: C29_converged, C29_not_converged, C29_exceptions, C29_root_finder.
Findings: C29_second_call_refuted.

### C30 Fragment chemical potential in the solver

Status: proved. Files: M_Cpt.v; P_Cpt.v.
As C29 for optimize_cpt; solver arbitrary, may depend on its history and raise.

Theorems: C30_within_tolerance, C30_restores, C30_wave_function, C30_finds, C30_first_run_fails, C30_outcomes.
Findings: C30_no_results_refuted, C30_cached_error_refuted, C30_interval_refuted.

### C31 Self-consistent mean-field loop bookkeeping

Status: proved. Files: M_Scmf.v; P_Scmf.v.
Loop with oracles for the embedding calculation, update and symmetry check.

Theorems: C31_iterations, C31_converged, C31_not_converged, C31_one_iteration.
Findings: C31_second_run_refuted, C31_final_energy_refuted, C31_no_iterations_refuted.

### C32 Log indentation is restored

Status: proved. Files: M_Vlog.v; P_Vlog.v.
Programs as trees; indentation restored on every exit, also by exceptions.

Theorems: C32_with, C32_decorated, C32_inside, C32_nonnegative.
Findings: C32_recursion_refuted.

### C33 DIIS/mixing parameter flattening round trip

Status: proved. Files: M_Updates.v; P_Updates.v.
Nested lists of arrays; flatten/unflatten inverse; mixing acts elementwise.

Theorems: C33_round_trip, C33_mix, C33_first, C33_fixed_point, C33_sequence.
Findings: C33_first_refuted, C33_shape_refuted, C33_scalar_refuted.

### C34 Democratic partitioning of density matrices

Status: proved. Files: M_Demo.v, M_Rdm.v; P_Demo.v.
Sums over fragments with projectors adding up to the identity; energy of the exact density matrices; findings on the unrestricted mixed block and the documented energy formula.

Theorems: C34_rdm1_restricted, C34_rdm2_restricted, C34_symmetric_restricted, C34_energy, C34_energy_cumulant, C34_rdm1_unrestricted, C34_rdm2_unrestricted, C34_symmetric_unrestricted.
Findings: C34_ab_symmetric_refuted, C34_documented_energy_refuted.

### C35 Fragment correlation energies add up to the energy of the whole amplitudes

Status: proved. Files: M_Energy.v, M_Wf.v; P_Energy.v.
Projected energies add up to the energy of the full amplitudes; findings for clusters not containing the fragment orbitals.

Theorems: C35_restricted, C35_axis_restricted, C35_axis_unrestricted, C35_unrestricted, C35_padding.
Findings: C35_unrestricted_cluster_axis_refuted, C35_order_ab_refuted, C35_absorbed_refuted.

### C36 Effective one-electron Hamiltonian reproduces the Fock matrix

Status: proved. Files: M_Heff.v; P_Heff.v.
Heff and Fock matrix in the cluster basis for restricted/unrestricted, screened/bare integrals.

Theorems: C36_restricted, C36_fock_matched, C36_fock_screened, C36_heff_unmatched, C36_energy, C36_pyscf, C36_pyscf_bare, C36_unrestricted, C36_upyscf, C36_closed_shell.
Findings: C36_dummy_eris_refuted, C36_overwrite_fock_refuted, C36_force_bare_refuted, C36_match_fock_unrestricted_refuted.

### C37 Atom and AO reorderings of symmetry operations are inverse permutations

Status: proved. Files: M_Symop.v; P_Symop.v.
Atom and orbital reorderings from the closest-atom search; inverse permutations; action on coefficients.

Theorems: C37_atoms, C37_rejected, C37_collision, C37_inverse_operation, C37_aos, C37_action, C37_inversion_matrices.

### C38 Translation operators form a group action

Status: proved. Files: M_Symop.v, M_Tsym.v; P_Tsym.v.
Positions in units of 1/N of the lattice vectors; composition with boundary phases.

Theorems: C38_compose, C38_zero, C38_inverse, C38_accepted, C38_mesh, C38_orbit, C38_first_equivalent, C38_list, C38_mesh_number.
Findings: C38_mesh_number_refuted, C38_unwrapped_refuted.

### C39 Fragmentation contexts: symmetric copies are created once and only on success

Status: proved. Files: M_Contexts.v, M_Symop.v; P_Contexts.v.
User programs as trees; the state machine of the contexts; specification by structure of the program.

Theorems: C39_contexts, C39_orbit, C39_copies_distinct, C39_exit.
Findings: C39_overlap_refuted, C39_exception_refuted, C39_exit_refuted.

### C40 Auxiliary (secondary) fragments cancel

Status: proved. Files: M_Contexts.v, M_Symop.v; P_Contexts.v.
The same machine; weighted totals over secondary fragments.

Theorems: C40_total, C40_envelop, C40_symmetric.
Findings: C40_zero_refuted.

### C41 Fragment and environment orbitals partition the fragmentation basis

Status: proved. Files: M_FragCoeff.v; P_FragCoeff.v.
Selection of columns by index; partition.

Theorems: C41_orbitals, C41_errors, C41_partition, C41_atomic, C41_atomic_partition, C41_all_atoms, C41_complete, C41_full_system, C41_symbols.
Findings: C41_duplicates_refuted.

### C42 Solver selection

Status: proved. Files: M_Solvers.v; P_Solvers.v.
Dispatch on strings, compared with an independent classification of the solver classes.

Theorems: C42_suits, C42_errors, C42_ansatz.
Findings: C42_check_refuted.

### C43 Correlation functions: projectors, sum rules and embedding

Status: proved. Files: M_Corrfunc.v, M_Rdm.v; P_Corrfunc.v.
Correlation functions of density matrices and of embeddings; second-quantised operators as reference; sum rules.

Theorems: C43_identity, C43_identity_mean_field, C43_additive, C43_mean_field, C43_operators, C43_singlet, C43_sum_rule, C43_embedding, C43_embedding_unrestricted, C43_embedding_mean_field, C43_unrestricted_mean_field, C43_detection.
Findings: C43_detection_one_particle_refuted, C43_unrestricted_total_refuted, C43_second_projector_ignored_refuted, C43_identity_mean_field_refuted.

### C44 Density matrix from amplitudes: electron count and symmetry

Status: proved. Files: M_Eris.v, M_Rdm.v, M_Wf.v; P_Rdm.v.
Trace and symmetry of density matrices from amplitudes.

Theorems: C44_mp2_symmetric, C44_mp2_electrons, C44_ccsd_symmetric, C44_ccsd_electrons, C44_uccsd_symmetric, C44_uccsd_electrons, C44_closed_shell.
Findings: C44_mp2_projected_refuted.

### C45 Full two-particle density matrix from the cumulant

Status: proved. Files: M_Eris.v, M_Rdm.v, M_Wf.v; P_Rdm.v.
2-DM from cumulant and 1-DM; spin sums; mean-field limit.

Theorems: C45_restricted, C45_stored, C45_round_trip, C45_mp2, C45_mp2_cumulant, C45_unrestricted, C45_unrestricted_stored, C45_unrestricted_round_trip, C45_spin_sum, C45_hermitian, C45_mean_field, C45_mean_field_mp2.

### C46 Counterpoise ghost atoms

Status: proved. Files: M_Counterpoise.v; P_Counterpoise.v.
The neighbouring cells as lists, distance any function.

Theorems: C46_atoms, C46_no_radius, C46_open, C46_units.
Findings: C46_unit_refuted, C46_molecule_refuted.

### C47 DMET bracket search moves towards the root

Status: proved. Files: M_Bracket.v; P_Bracket.v.
Bracket search with an arbitrary error function that may fail.

Theorems: C47_bracket, C47_suitable, C47_complete, C47_gives_up, C47_exceptions, C47_converged.
Findings: C47_direction_refuted, C47_exact_root_refuted, C47_silent_refuted.

### C48 Callback solver picks a wave function from the callback results

Status: proved. Files: M_Solvers.v; P_Solvers.v.
Priority of the keys of the callback's result.

Theorems: C48_kind, C48_rest.
Findings: C48_moments_refuted.

### C50 Indented log records keep every line of the message

Status: proved. Files: M_Vlog.v; P_Vlog.v.
Lines and prefix of log messages; injectivity.

Theorems: C50_lines, C50_injective.

### C51 Polaritonic shift leaves the physics unchanged

Status: proved. Files: M_Polariton.v; P_Polariton.v.
Polaritonic shift over a field.

Theorems: C51_unrestricted, C51_restricted, C51_accepted, C51_no_displacement, C51_energy_change, C51_eb_density, C51_eb_density_restricted.

### C52 Dummy orbitals do not change the cluster Hamiltonian

Status: proved. Files: M_Pad.v; P_Pad.v.
Padding with dummy orbitals over an ordered ring.

Theorems: C52_elements, C52_dummies_above, C52_frozen, C52_energy, C52_veff.
Findings: C52_empty_channel_refuted.

### C53 Compressed density-fitting integrals

Status: proved. Files: M_Ints.v; P_Ints.v.
Compression of three-centre integrals, error bounded by the discarded eigenvalues.

Theorems: C53_exact, C53_error, C53_fewer, C53_restricted, C53_unrestricted_aa.
Findings: C53_unrestricted_refuted, C53_unrestricted_negative_refuted.

### C54 Integral blocks do not depend on the cache

Status: proved. Files: M_Ints.v; P_Ints.v.
Blocks of the integrals; caching does not change them.

Theorems: C54_cached, C54_restricted, C54_values, C54_restricted_values, C54_refused.
Findings: C54_mixed_refuted.

### C55 The DMET energy is the energy of the democratically partitioned density matrices

Status: proved. Files: M_Demo.v, M_DmetEnergy.v, M_Rdm.v; P_DmetEnergy.v.
DMET energy against the energy of the democratic density matrices.

Theorems: C55_restricted, C55_unrestricted, C55_total.
Findings: C55_sym_factor_refuted.

### C56 Global amplitudes of an embedding

Status: proved. Files: M_Eris.v, M_GlobalWf.v, M_Rdm.v, M_Wf.v; P_GlobalAmp.v.
Global amplitudes as sums over fragments and symmetry copies over a commutative ring with 1/2.

Theorems: C56_pair_symmetric, C56_full_bath, C56_errors, C56_order, C56_invariant, C56_for_dm2.

### C57 The fast global density matrix is that of the global wave function

Status: proved. Files: M_Eris.v, M_GlobalWf.v, M_Rdm.v, M_Wf.v; P_GlobalAmp.v, P_GlobalWf.v.
Every term of the pair algorithm against the contraction of the global tensors; symmetry copies by invariance of the tensors.

Theorems: C57_electrons, C57_lambda_needed, C57_full_bath, C57_fast_is_slow.
Findings: C57_option_refuted.

### C58 Electron number of density matrices assembled from fragments

Status: proved. Files: M_Eris.v, M_GlobalWf.v, M_PartDm.v, M_Rdm.v, M_Wf.v; P_PartDm.v.
Traces of the loops for orthonormal cluster orbitals; projected density matrices fragment by fragment.

Theorems: C58_electrons, C58_symmetric, C58_projected_electrons, C58_projected_symmetric, C58_lambda_needed, C58_projected_lambda_needed.

### C59 Density matrices assembled from fragments are exact for a full bath

Status: proved. Files: M_Eris.v, M_GlobalWf.v, M_PartDm.v, M_Rdm.v, M_Wf.v; P_PartDm.v.
Contractions in the cluster basis lifted to the system basis (generic lemmas), additivity in the Lambda amplitudes.

Theorems: C59_partitioned, C59_partitioned_mp2, C59_projected.
Findings: C59_truncated_refuted.

### C60 Two-particle density matrices of coupled cluster wave functions

Status: proved. Files: M_Eris.v, M_Gamma2.v, M_Rdm.v, M_UGamma2.v, M_Wf.v; P_Gamma2.v, P_TwoEl.v, P_UGamma2.v.
Block by block: every block of the assembled matrix is identified and the identities between the contractions are decided by a proved reflective normaliser for nested sums of products of tensors (Esum.v).

Theorems: C60_trace, C60_exchange_trace, C60_pairs, C60_symmetry, C60_cumulant_trace, C60_two_electrons, C60_two_electrons_dm1, C60_unrestricted_trace, C60_unrestricted_symmetry, C60_closed_shell.
Findings: C60_projected_refuted.

### C61 Two-particle density matrices assembled from fragments

Status: proved. Files: M_Eris.v, M_Gamma2.v, M_GlobalWf.v, M_PartDm.v, M_PartDm2.v, M_Rdm.v, M_Wf.v; P_PartDm2.v, P_PartDm3.v.
Covariance of every block of the two-particle intermediates under the change to cluster orbitals is decided by reflection (Inv.v); traces follow from block identities (Esum.v) and orthonormality of the cluster orbitals.

Theorems: C61_full_bath, C61_trace, C61_exchange_trace, C61_pairs, C61_mp2, C61_available, C61_symmetry.
Findings: C61_default_dm1_refuted, C61_trace_refuted, C61_mp2_t_as_lambda_refuted, C61_mp2_symmetry_refuted.

### C62 Correlation energy from two-particle matrices of fragments

Status: proved. Files: M_Eris.v, M_Gamma2.v, M_GlobalWf.v, M_PartDm.v, M_PartDm2.v, M_Rdm.v, M_Wf.v; P_PartDm4.v.
Reduction of each organisation of the contraction to the full one (C19), lifting of the contraction to the system by the transformed integrals, and C56/C61 for the full bath.

Theorems: C62_fragment, C62_projected, C62_full_bath, C62_ranks, C62_approx_two.
Findings: C62_stored_refuted, C62_ranks_global_refuted.

### C63 Cluster amplitudes from configuration-interaction coefficients

Status: proved. Files: M_TtoC.v, M_Wf.v; P_TtoC.v.
Formulas transcribed term by term; exp(T) is an independent sum over signed splittings of the indices; a reflective normaliser for polynomials in antisymmetric (or closed-shell) amplitude families decides every block for all indices.

Theorems: C63_unrestricted, C63_restricted, C63_doubles, C63_cisd.
Findings: C63_normalisation_refuted.

### C64 Excitation coefficients read off an FCI vector

Status: proved. Files: M_Fci.v, M_TtoC.v, M_Wf.v; P_Fci.v.
Antisymmetry of exp(T) for all ranks by swapping in sums over splittings; sorting with sign proved sound for antisymmetric arrays; each transposition computed on symbolic indices; then C63.

Theorems: C64_exp_antisymmetric, C64_closed_shell_antisymmetric, C64_closed_shell_spin, C64_unrestricted, C64_unrestricted_cisd, C64_restricted, C64_restricted_cisd, C64_amplitudes_unrestricted, C64_amplitudes_restricted, C64_agree.

### C65 Tailoring replaces the CCSD amplitudes by those of other fragments, and uses every correction that was asked for

Status: proved. Files: M_ExtCorr.v, M_Tailor.v, M_TtoC.v; P_Tailor.v.
the loop is shown to return the amplitudes plus a sum over the overlapping fragments of back-transformed, projected differences; the properties follow from algebra of the two- and four-index transformations (composition, projectors moved through, deltas) with the overlap matrices' orthonormality as hypothesis; the sequence of calls by induction, the choice of callback by cases

Theorems: C65_replaced, C65_consistent, C65_twice, C65_assembled, C65_both_projected, C65_pair_symmetry, C65_remote, C65_threshold, C65_threshold_unrestricted, C65_cas, C65_replaced_unrestricted, C65_consistent_unrestricted, C65_assembled_unrestricted, C65_antisymmetry, C65_closed_shell, C65_list, C65_test_flag, C65_accepted, C65_dispatch.
Findings: C65_level3_refuted, C65_one_kind_refuted, C65_overlap_refuted, C65_test_flag_refuted.

### C66 External correction adds exactly the T3 and T4 terms of the coupled-cluster equations

Status: proved. Files: M_ExtCorr.v, M_Tailor.v, M_TtoC.v, M_Wf.v; P_Delta.v, P_ExtCall.v, P_ExtCorr.v.
Spec: rows of (H-E)exp(T) from the Slater-Condon rules with everything of lower rank an arbitrary function; the difference is reduced to linear T3, T4, T1T3 terms (diff1, diff2) and compared with the einsums by the reflective sum normaliser extended to the symmetries of real integrals and antisymmetric amplitudes (Esum8). The loop over fragments by induction with resolution of the identity. Delta-tailoring (P_Delta): transformation to the cluster and back with orbitals that span the corrected cluster, sum of projectors.

Theorems: C66_delta, C66_delta_unrestricted, C66_low_level, C66_total, C66_fixed_point, C66_order, C66_low_level_unrestricted, C66_total_unrestricted, C66_fixed_point_unrestricted, C66_unrestricted, C66_restricted.
Findings: C66_mixed_refuted.

### C67 The self-energy put together from the clusters is that of the system

Status: proved. Files: M_ExtCorr.v, M_SelfEnergy.v, M_TtoC.v; P_SelfEnergy.v.
the accumulators are shown to be sums over fragments and children of C v C^T; the complete case from orthonormality of the cluster orbitals and the sum of the projectors; the poles from the decomposition's specification, pole by pole; the assertion because the coupling matrix has rank two (three orthonormal vectors in the image of a rank-two matrix make a vanishing Gram determinant); grouping by induction over the runs

Theorems: C67_symmetry, C67_complete, C67_symmetric, C67_trace, C67_poles, C67_assertion_svd, C67_assertion_eigh, C67_unique, C67_degeneracy, C67_lehmann.
Findings: C67_two_projectors_trace_refuted, C67_two_projectors_refuted, C67_non_causal_refuted, C67_negative_weight_refuted, C67_other_projectors_refuted.

### C68 Exact diagonalisation with bosons: Hamiltonian, density matrices and response moments belong together

Status: proved. Files: M_EbFci.v, M_TtoC.v; P_EbFci.v, P_EbStr.v.
from four properties of the link tables (bounds, adjoint, number, exchange of creators), which are proved for the tables of all numbers of orbitals and electrons from the anticommutation relations by induction over the orbitals; the bosonic operators by cases on the occupation; the moments by moving powers of H - E across the scalar product. Further findings, read from the code: contract_1e always raises; kernel_multiroot does not add the core energy and, unrestricted, lacks the restoring of the integrals that kernel has; kernel uses couplings and frequencies of the Hamiltonian, make_dd_moms those of the solver; the unrestricted make_eb_rdm without bosons returns one array and not a pair

Theorems: C68_hermitian, C68_hermitian_unrestricted, C68_energy, C68_energy_unrestricted, C68_dm1, C68_dm2_trace, C68_antisymmetric_unrestricted, C68_antisymmetric, C68_spin_blocks, C68_number, C68_commutator, C68_diagonal, C68_hdiag, C68_switch, C68_vacuum, C68_eb_rdm, C68_zero_mode, C68_dd_moments, C68_dd_symmetric, C68_dd_basis, C68_dd_sum_rule, C68_dd_halves, C68_link_tables.
Findings: C68_zero_mode_refuted, C68_dd_halves_refuted.

### C69 Dense RPA: the solution satisfies the RPA equations, and moments and energy follow from it

Status: proved. Files: M_ExtCorr.v, M_SsRpa.v; P_SsRpa.v.
with a small library of matrices (Mat.v): the four equations follow from the eigenvalue equation of M, everything else from the four equations; independence of the eigenvectors because functions of a symmetric matrix commute through the overlap of two eigenbases; spin symmetry as an instance of it. Square roots, inverses, eigh and sqrtm are arbitrary functions of which the theorems assume the defining equations at the matrices met. Further findings, read from the code: ssurpa.py uses pyscf without importing it (NameError for spin-dependent integrals); an unknown version of the energy correction given as a number raises a formatting error instead of the message

Theorems: C69_moments, C69_solution, C69_energy, C69_energy_plasmon, C69_arrays_unrestricted, C69_arrays_restricted, C69_arrays_rotated, C69_projected, C69_assert, C69_rotated_restricted, C69_symmetric, C69_interaction_symmetric, C69_unique, C69_spin, C69_solution_xc, C69_energy_xc, C69_rpa_solution, C69_drpa, C69_rpax, C69_low_rank, C69_xc_symmetric.

### C70 RI-RPA: low-rank algebra, moments and energies by numerical integration agree with the RPA solution

Status: proved. Files: M_ExtCorr.v, M_RiRpa.v, M_SsRpa.v; P_RiRpa.v.
Woodbury's identity for the forms and for the integrand at each point of the grid; functions of (A-B)(A+B) in the basis of the RPA vectors; the spin-adapted formulas by cancelling A+B. Inverses, roots, decompositions and the grids are arguments; the theorems assume their defining equations where they are used. The concrete cases need a root of two and live in the ordered field of numbers a + b sqrt(2) (Root2.v). Further findings, read from the code: direct_AC_integration divides a tuple and always raises TypeError; ri_decomps is passed twice in one call (TypeError); compress_target_rot compares the number of kept vectors with the number of columns instead of rows (harmless)

Theorems: C70_product, C70_inverse, C70_matrices, C70_mom0, C70_moments, C70_trace, C70_energy, C70_energy_kernel, C70_Q_symmetric, C70_compress, C70_spin_moments, C70_spatial, C70_spin_errors, C70_spin_trace, C70_spin_energy, C70_errors, C70_levels.

### C71 Screened interactions conserve the RPA moment, and their corrections add up

Status: proved. Files: M_ExtCorr.v, M_Screen.v, M_SsRpa.v; P_Screen.v.
M_Screen.v follows screening_moment.py: rotation of the excitations, rows of the moment for each fragment, local A-B, inverse by diagonalisation, kernel, replacement in arrays, and the energies of hamiltonian.py and qemb.py; the moments of the system and numpy's eigh are arbitrary functions.  P_Screen.v proves: C71_rotation, C71_moment (the local moment is the projection of the moment of the system), C71_conserved and C71_rpa (the equation M (A+B) M = A-B holds in the cluster, and a solution of its RPA with positive frequencies has the moment M; uniqueness of the positive solution is proved), C71_symmetric, C71_complete, C71_uncorrelated, C71_orbitals, C71_spin, C71_replaced, C71_permutations, C71_unscreened, C71_spin_average, C71_restore, C71_screened_ccsd, C71_energy (with the plasmon formula), C71_cumulant (and that nothing non-local remains), C71_returns and the errors.  Findings: with copy=False a single array is overwritten three times (C71_inplace_refuted); after two screenings restore_bare gives the integrals of the first and is gone (C71_restore_twice_refuted); an unrestricted calculation with linearly dependent atomic orbitals always fails (C71_linear_dependence), because the number of orbitals is read from the rows of the coefficients; one cluster without excitations makes the whole set-up fail (C71_empty_cluster); build_screened_eris returns nothing, contrary to its documentation.

Theorems: C71_rotation, C71_moment, C71_conserved, C71_rpa, C71_symmetric, C71_complete, C71_uncorrelated, C71_orbitals, C71_spin, C71_replaced, C71_permutations, C71_unscreened, C71_spin_average, C71_restore, C71_screened_ccsd, C71_restore_twice, C71_energy, C71_cumulant, C71_returns, C71_no_excitations, C71_empty_cluster, C71_linear_dependence.

### C72 The constrained RPA integrates out the environment of a cluster exactly

Status: proved. Files: M_Crpa.v, M_ExtCorr.v, M_Screen.v, M_SsRpa.v; P_Crpa.v.
M_Crpa.v follows screening_crpa.py: the excitations of the cluster and of the environment, the couplings with both options, static correction, poles of the dynamic one, and the options read from the text; null_space and the RPA calculation are arbitrary functions.  P_Crpa.v proves: C72_environment (from the contracts of null_space and of the canonicalisation), C72_formula (closed form of the correction), C72_response and C72_response_minus (a Schur complement), C72_dielectric, C72_basis, C72_attractive, C72_repulsive, C72_only_ov, C72_particles, C72_permutations, C72_spin, C72_complete, C72_dynamic, C72_sum, C72_sum_restricted.  Findings: with the coupling through orbital energies the screened integrals lose the symmetry (pq|rs) = (qp|rs) of real orbitals (C72_permutations_refuted), although solvers for real orbitals assume it; the documented word 'pcoupling' is not recognised, the code looks for 'pcoupled' (C72_documented_option_refuted).  Read, not modelled: the class used for the RPA handles only restricted mean fields; for a cluster without environment the fallback of get_frag_deltaW builds arrays of the size of the system.

Theorems: C72_formula, C72_response, C72_response_minus, C72_environment, C72_dielectric, C72_only_ov, C72_particles, C72_permutations, C72_spin, C72_complete, C72_dynamic, C72_attractive, C72_repulsive, C72_sum, C72_sum_restricted, C72_basis.
Findings: C72_documented_option_refuted, C72_permutations_refuted.

### C73 The energy-weighted DMET bath of order k conserves the Fock matrix' powers up to 2k+1 in the fragment

Status: proved. Files: M_Crpa.v, M_Ewdmet.v, M_ExtCorr.v, M_Screen.v, M_SsRpa.v; P_Ewdmet.v.
M_Ewdmet.v follows recursive_block_svd (the loop, its slices, threshold, assertions and early exits) and the bath built from it; numpy.linalg.svd is an arbitrary function.  P_Ewdmet.v keeps an invariant of the loop and proves: C73_orthogonal, C73_orders, C73_values, C73_chain, C73_moments (the bound 2k+1 is attained: the case shows that the next power differs), C73_closed, C73_orbitals, C73_fock, C73_fock_closed, C73_split, C73_returns, C73_no_fragment, C73_no_environment.  Contracts (at the matrices met): vh orthogonal, values non-negative and descending, product equal to the block; for the powers also that no value lies strictly between zero and the threshold.  Not modelled: the assertion on orthogonality up to rounding (it holds exactly), logging, choice of the Fock matrix.  Observed in the code: the bath's default option order=None raises a TypeError when compared with the orders, an order above max_order gives the bath of max_order only, and unrestricted calculations have no such bath.

Theorems: C73_orthogonal, C73_orders, C73_moments, C73_closed, C73_chain, C73_returns, C73_no_fragment, C73_values, C73_orbitals, C73_fock, C73_fock_closed, C73_no_environment, C73_split.

### C74 Bosons of the RPA bath are orthonormal, outside the cluster, and lose exactly the truncated occupations

Status: proved. Files: M_BosBath.v, M_Ewdmet.v, M_ExtCorr.v, M_Screen.v, M_SsRpa.v; P_BosBath.v.
M_BosBath.v follows bbath.py and qba_rpa.py: excitations of the cluster, target excitations with their options, stacking and splitting of the moment, removal of the cluster's excitations, bosons from the eigenvectors, and truncation by number, occupation or sum; eigh, the inverse square root, 1/sqrt(2) and the RPA moment are arbitrary functions.  P_BosBath.v proves: C74_cluster, C74_orthonormal, C74_loss, C74_complete, C74_spin, C74_rest, C74_targets, C74_projection, C74_options, C74_shares, and C74_number_refuted (with a fixed number, or the threshold zero, a boson of occupation zero is divided by the root of zero).  Contracts: eigenvectors with ascending eigenvalues; inverse square roots of the positive ones; orthonormal excitations of the cluster (C74_cluster proves them for orthonormal orbitals); a moment linear in the targets (see C70).  Not modelled: logging, MPI, negative numbers of bosons.  Observed in the code: Boson_Threshold is never applied to a plain number by the fragment, and QuasiBosonOrbitals refers to its own missing attribute if given spin orbitals.

Theorems: C74_cluster, C74_orthonormal, C74_loss, C74_complete, C74_spin, C74_rest, C74_projection, C74_options, C74_targets, C74_shares.
Findings: C74_number_refuted.

### C75 The bosonic part of a cluster's Hamiltonian belongs to the bosons stored with it, and its frequencies respect the gap

Status: proved. Files: M_BosHam.v, M_ExtCorr.v, M_SsRpa.v; P_BosHam.v.
M_BosHam models the coefficients of bosons in atomic orbitals, rotation, the loop over blocks of integrals, the boson matrix, all parts of the couplings, the non-conserving term, the cluster projectors and what is stored.  All quantities are linear in the boson coefficients (lemmas *_rot), which gives C75_consistent with the diagonaliser's contract.  C75_matrix and C75_couplings expand the atomic-orbital sums in canonical orbitals; C75_gap bounds the diagonal of the rotated matrix by squares.  C75_projectors states which orbitals the cluster's occupied and virtual projectors keep.  C75_nonconserving uses that the occupied projector of an orthonormal cluster is diagonal, so that the code's diagonal-only sum for beta spin loses nothing.  C75_exchange states exactly what the exchange part is; C75_exchange_refuted and C75_periodic_refuted are the findings (the latter for periodic systems whose two loops, sr_loop and loop, both give the integrals: _loop_df does not return after the first).  Also seen, not modelled: `fock or mf.get_fock()` raises for a given array; QuasiBosonOrbitals given spin orbitals reads an attribute that does not exist yet; fbasis_transform uses the first element of the transformation only; the block size multiplies by the number of orbitals where it should divide.

Theorems: C75_consistent, C75_matrix, C75_gap, C75_spin, C75_nonconserving, C75_projectors, C75_couplings, C75_exchange.
Findings: C75_exchange_refuted, C75_periodic_refuted.

### C76 The orbitals of a fragmentation are orthonormal, complete and correctly ordered

Status: proved. Files: M_ExtCorr.v, M_FragBasis.v, M_Sign.v, M_SsRpa.v; P_FragBasis.v.
M_FragBasis models symmetric orthogonalisation with its threshold and signs, the symmetric, intrinsic and projected atomic orbitals, the added virtuals with their check, the electron count and the ordering by labels; pyscf's intrinsic orbitals, the diagonaliser and the inverse square root are arbitrary inputs whose contract is assumed only at the matrices met.  C76_sign carries the sign convention of C08 over to the orthogonaliser.  C76_norms computes the trace of the metric as the number of kept eigenvalues, which gives the finding C76_dependent (and C76_orthonormal_refuted at a concrete pair of dependent orbitals).  C76_virtual shows that the projector's trace equals the number of missing orbitals, so the RuntimeError is unreachable under its hypotheses.  Warnings and the log output are not modelled.

Theorems: C76_orthonormal, C76_span, C76_norms, C76_dependent, C76_sign, C76_sao, C76_electrons, C76_all_electrons, C76_virtual, C76_iao, C76_order, C76_iaopao.
Findings: C76_orthonormal_refuted.

### C77 An active-space fragment holds the orbitals around the Fermi level with the electrons asked for

Status: proved. Files: M_CasFrag.v; P_CasFrag.v.
M_CasFrag models the checks, the search for the number of orbitals, the tests for degeneracy with Python's indexing, and the range of orbitals.  C77_space and C77_electrons follow from an invariant of the search (the electrons passed so far); C77_electrons_refuted is the finding that the test 'offset > ncas' should be 'offset >= ncas'.  C77_gaps reads the tolerance test back as an order statement; C77_closed_shell and C77_odd compute the search for doubly occupied orbitals.  Occupations that are not integers and add_orbital_fragment itself (modelled elsewhere) are left out.

Theorems: C77_space, C77_electrons, C77_gaps, C77_in_range, C77_closed_shell, C77_odd.
Findings: C77_electrons_refuted.

### C78 The distance bath holds exactly the environment orbitals near the atom

Status: proved. Files: M_ExtCorr.v, M_R2Bath.v, M_SsRpa.v; P_R2Bath.v.
M_R2Bath models the units, the matrix in the environment (made symmetric if needed), the diagonalisation with its check, clipping and square root, the count and the split of the columns.  C78_orthonormal transports orthonormality through the eigenvectors.  C78_distance shows that counting distances within the cutoff selects a prefix of the ascending eigenvalues and bounds the quadratic form on both blocks.  C78_nested and C78_units follow from monotonicity of the count and the conversion.  The integrals of the squared distance, also the numerical ones of periodic systems, are an arbitrary symmetric matrix.

Theorems: C78_orthonormal, C78_distance, C78_nested, C78_units.

## What is modelled

The header of each model file, i.e. what is modelled and how it is simplified:

* **M_Attr.v**: Model of the context manager `replace_attr`, vayesta/core/util.py:569-584.
* **M_Blocks.v**: Model of the block-splitting helpers of vayesta/core/util.py.
* **M_Bno.v**: Model of the choice of the number of bath natural orbitals. Modelled: vayesta/core/bath/bno.py, BNO_Threshold (10-53) and truncate_bno (153-188, 280-283). Simplifications: floating point numbers are exact rationals (rounding of the sums is not modelled); a coefficient matrix is the list of its columns; the logging in truncate_bno is left out.
* **M_BosBath.v**: Model of the bosonic bath from RPA: vayesta/core/bosonic_bath/bbath.py 8-78, vayesta/core/bosonic_bath/qba_rpa.py 7-111, vayesta/core/qemb/qemb.py 728-753 and vayesta/core/qemb/fragment.py 980-1007. Modelled: the excitations of a cluster, the target excitations with the options for orbitals and local projection, the division of the RPA moment among the fragments, the bosons from the moment, and their truncation. Simplifications: floats are elements of an ordered commutative ring. 1/sqrt(2), `x ** (-0.5)`, `numpy.linalg.eigh` and the RPA moment are arbitrary parameters; their properties are hypotheses of the theorems. A matrix is a function with explicit sizes; pairs of occupied and virtual orbitals are numbered row by row as by `reshape`. The number of a threshold of type "number" is natural. Left out: logging, MPI, fragments related by symmetry.
* **M_BosHam.v**: Model of the bosonic part of a cluster's Hamiltonian: vayesta/core/types/bosonic_orbitals.py 33-39, 71-93, 112-131 and vayesta/core/bosonic_bath/projected_interactions.py 42-54, 86-244, with its use in vayesta/solver/hamiltonian.py 844-857. Modelled: coefficients of bosons in atomic orbitals (also with deexcitations), rotation of bosons, the matrix whose eigenvalues are the frequencies, couplings (Coulomb, Fock and exchange parts), terms that do not conserve the number of bosons, projectors, the loop over density-fitting integrals, and the quantities stored after rotation. Simplifications: floats are elements of an ordered commutative ring. `numpy.linalg.eigh` and the integrals of the cluster are arbitrary. The first argument of functions of spin is a boolean, true for alpha. Left out: negative parts of the integrals of two-dimensional systems (the code raises NotImplementedError), complex integrals (an assertion refuses them), `exchange=True` of the frequencies (NotImplementedError), logging.
* **M_Bracket.v**: Model of the search for a chemical potential bracket in DMET.kernel, vayesta/dmet/dmet.py 143-195. Simplifications: rational numbers; the defect of the number of electrons is a function of the chemical potential within one iteration, None stands for numpy's LinAlgError (any other exception ends the kernel and is not modelled).
* **M_Cache.v**: Model of the caching decorator, vayesta/core/util.py:72-111.
* **M_CasFrag.v**: Model of the fragment that is an active space: vayesta/core/fragmentation/cas.py 30-112 (add_cas_fragment). Simplifications: occupations are natural numbers (the code truncates them with `int`), energies are elements of an ordered commutative ring, `ncas` and `nelec` are not negative, and every list of energies is as long as the occupations. Left out: logging, and add_orbital_fragment, which makes the fragment of the orbitals returned here.
* **M_Cluster.v**: Model of the orbital containers and of the cluster of a fragment. Modelled: vayesta/core/types/orbitals.py (SpatialOrbitals, SpinOrbitals) and vayesta/core/types/cluster.py (Cluster, ClusterRHF, ClusterUHF). Simplifications: a coefficient matrix is the list of its columns (orbitals), of any type `A`; occupation numbers are exact rationals; orbital energies, labels and bosons are not modelled.
* **M_Contexts.v**: Model of the fragmentation contexts: vayesta/core/fragmentation/fragmentation.py __enter__ (58-62), __exit__ (64-104), _create_fragment (173-196), rotational_symmetry / inversion_symmetry / mirror_symmetry (200-242), secondary_fragments (246-262), _create_secondary_fragments (264-296); create_symmetric_fragments (vayesta/core/qemb/qemb.py 805-975); Fragment.copy (vayesta/core/qemb/fragment.py 610-623). The user's code is a program `prog`; `Try p` is "try: p / except: pass" of the user. Simplifications: the space of fragment orbitals is a number `site`; two spaces overlap iff they are equal; a symmetry operation maps sites to sites; bath options are the three thresholds; of the flags is_envelop and is_secfrag. Not modelled: orbital coefficients (C41), names, log messages, the mean-field symmetry check (one oracle), MPI ranks.
* **M_Corrfunc.v**: Model of correlation functions: vayesta/misc/corrfunc.py 7-155 (chargecharge, spin_z, spinspin_z and their mean-field and unrestricted versions), vayesta/core/qemb/corrfunc.py 10-42 (get_corrfunc_mf), 45-174 (get_corrfunc), 177-331 (get_corrfunc_unrestricted). Simplifications: real arrays as functions of their indices over a field; the embedding functions fill every entry of an array over pairs of atoms independently of the other entries, the model is the entry of one pair, from the projectors of the two atoms (_get_atom_projectors, in the MO basis); cluster coefficients are given in the MO basis; an exception is the result None.
* **M_Counterpoise.v**: Model of make_cp_mol, vayesta/misc/counterpoise.py 31-131. Simplifications: coordinates are from any ordered ring, the Euclidean norm is any function; a symbol is a number with a mark for ghosts; the atom exists. The result is the list of atoms given to PySCF; building the molecule (123-131) is not modelled.
* **M_Cpt.v**: Model of the two chemical potential searches. Modelled: vayesta/misc/cptbisect.py ChempotBisection.kernel (18-72) and vayesta/solver/solver.py optimize_cpt (52-193) with calc_v_ext (195-196). Simplifications: numbers are exact rationals; the SciPy root finder brentq is an arbitrary finite interaction (`strategy`): it asks for values of the function one after the other and ends in some way; the error function and the cluster solver are arbitrary and may depend on all their earlier calls; log messages are left out.
* **M_Crpa.v**: Model of the screening of the cluster interaction by the constrained RPA ("crpa"): vayesta/core/screening/screening_crpa.py and its use in vayesta/solver/hamiltonian.py 482-506 and vayesta/core/qemb/fragment.py 1186-1195. Modelled: the rotation into the excitations of the cluster and of its environment, the couplings of the cluster to the excitations of the environment with the options `pcoupling` and `only_ov_screened`, the static correction of the interaction, the poles and couplings of the dynamic one, the choice of the options from the text given by the user, the average over spins and the sum with the bare interaction. Simplifications: floats are elements of an ordered commutative ring; 1/x is an arbitrary function `inv`, 1/2 a constant `hlf`. `scipy.linalg.null_space` is an arbitrary function `null` of the shape and the matrix, that returns the number of rows and the rows of the transpose. The calculation `ssRPA(orig_mf, ov_rot=rot_ov).kernel()` is an arbitrary function `run` of the rotation (its model is `ssrpa` in M_SsRpa). Three-index integrals in the orbitals of the mean field and of the cluster, which `ao2mo` computes with pyscf, are given. Overlaps are given as in M_Screen ("mo|cluster", the code asks for the transposed). The numbers of orbitals and the energies may depend on the spin although the class `ssRPA` handles only restricted mean fields. Left out: logging, the option "store", memory checks, and mean fields without density fitting (NotImplementedError).
* **M_Demo.v**: Model of democratically partitioned density matrices: vayesta/core/qemb/rdm.py 7-50 (restricted 1-DM), 53-99 (unrestricted 1-DM), 104-252 (restricted 2-DM), 256-350 (unrestricted 2-DM). Simplifications: real arrays as functions of their indices over a commutative ring with 1/2 (`half`); everything in the MO basis (ao_basis=False), the MOs being orthonormal and complete, so that overlaps with other orbitals are products of their MO coefficients; one MPI rank; the loop over contributing fragments runs over a list.
* **M_DmetBath.v**: Model of the separation of environment and cluster orbitals by the eigenvalues of a density matrix. Modelled: vayesta/core/bath/dmet.py make_dmet_bath (83-180, and 309-317 for the unrestricted case) and vayesta/core/qemb/fragment.py diagonalize_cluster_dm (541-576; ufragment.py 82-107). Simplifications: the eigensolver is an arbitrary list of (eigenvalue, eigenvector) pairs in the order numpy returns it (the orthonormality of the vectors is not modelled here), eigenvectors are of any type `A` and already expressed in the AO basis; the sign fixing of the columns is any function `fix`; eigenvalues and tolerances are exact rationals; the logging of unphysical eigenvalues (139-142, fragment.py 568-569) and the unmaintained options c_ref and nbath (nbath raises NotImplementedError) are left out.
* **M_DmetEnergy.v**: Model of the DMET energy: vayesta/core/qemb/qemb.py 1268-1308 (get_dmet_elec_energy), 1310-1335 (get_dmet_energy), vayesta/core/qemb/fragment.py 1027-1098 and vayesta/core/qemb/ufragment.py 153-215 (get_fragment_dmet_energy). Simplifications: real arrays as functions of their indices over a commutative ring with 1/2; everything in the MO basis (orthonormal and complete, so that sums over AO arrays are sums over MO arrays); one MPI rank; ncells = 1; the bare integrals of a cluster are the rotated integrals of the system (get_eris_bare without screening; C54 is about their blocks); the projector has not been detached from the fragment orbitals (see C35).
* **M_EbFci.v**: * Exact diagonalisation of coupled electron-boson systems Model of vayesta/solver/eb_fci/ebfci_slow.py 15-696, vayesta/solver/eb_fci/uebfci_slow.py (where it differs) and of what vayesta/solver/eb_fci/ebfci.py takes from them. Simplifications: numbers are elements of a commutative ring in which half is one half and ninv the inverse of the number of electrons; a vector of the product space is a function of the index of the alpha string, that of the beta string and the list of the occupations of the bosons, so that reshape and ravel are left out; an array to which a loop adds is the sum of what is added; what pyscf computes is given by its specification: the link tables of cistring.gen_linkstr_index are arbitrary lists of (a, i, string, sign), absorb_h1e and reorder_rdm are written down from pyscf; lib.davidson is arbitrary, the theorems speak of any vector that it may return; numpy.sqrt of an integer is an arbitrary function of the integer. Not modelled: contract_1e (always raises), the electronic part of make_hdiag (only used as preconditioner), random noise of the initial guess, run_hub_test and run_ep_hubbard.
* **M_Einsum.v**: Model of the decorated-subscript replacement of `einsum`, vayesta/core/util.py:259-280.
* **M_Energy.v**: Model of the projected correlation energy: vayesta/ewf/fragment.py 355-407 (restricted get_fragment_energy), ewf/ufragment.py 22-142 (unrestricted), ewf/ewf.py 333-350 (get_wf_corr_energy); the amplitudes are projected as in M_Wf (core/types/wf/project.py). Simplifications: real arrays as functions of their indices over a commutative ring with 1/2 (`half`); shapes are kept where the code slices padded arrays or where they may not fit; Fock matrix and integrals are those in the cluster basis (fov = c_occ.T fock c_vir, hamil.get_eris_bare); no logging; one MPI rank (the allreduce decorator is C15's topic).
* **M_Eris.v**: Model of the occupied/virtual blocks of two-electron integrals: vayesta/core/ao2mo/helper.py 52-593, and of the assembly of two-particle density matrices from their intermediates, vayesta/core/vpyscf/ccsd_rdm.py 296-386 and uccsd_rdm.py 450-630. Simplifications: real arrays, given as functions of their indices with values in a commutative ring (.conj() is the identity); numpy's shape checks, logging and the in-place destruction of intermediates are left out; the object's numbers of occupied and virtual orbitals are arguments; frozen orbitals and the AO representation are not modelled.
* **M_Ewdmet.v**: Model of the energy-weighted DMET bath: vayesta/core/linalg.py 8-77, vayesta/core/bath/ewdmet.py 8-59 and its use in vayesta/core/qemb/fragment.py 881-885, 936-938. Modelled: the recursive decomposition of off-diagonal blocks with threshold and maximum number of recursions, its assertions on shapes and on the number of orbitals, orders and singular values, the bath orbitals and their division by order. Simplifications: floats are elements of an ordered commutative ring. `numpy.linalg.svd` is an arbitrary function `svd` of the shape and the matrix that returns the singular values and the matrix vh (u is not used by the code). Infinite orders are `None`. The last assertion, that the coefficients are orthogonal up to a tolerance, is left out: it holds exactly (C73_orthogonal). Left out: logging.
* **M_ExtCorr.v**: * External correction of CCSD by the T3 and T4 amplitudes of another cluster Model of vayesta/solver/ccsdtq.py 6-87 (t2_residual_rhf_t3v, t_residual_rhf), 90-155 (t2_residual_uhf_t3v) and 158-320 (t_residual_uhf), and of vayesta/solver/coupling.py 10-40 and 55-88 (transform_amplitude, project_t2 and its two versions), 268-299 (_integrals_for_extcorr), 302-355 (_get_delta_t_for_extcorr), 358-498 (_get_delta_t2_from_t3v), 501-513 (_get_delta_t_for_delta_tailor) and 516-699 (externally_correct and the callback it returns), for restricted and unrestricted spin symmetry. Every einsum is written as the sum of products of entries that it denotes, in the order of the code; the accumulations "x = np.zeros(...); x += ..." are kept as let-bindings that rebind the name. The unrestricted definitions were produced line by line from the source by a script. Simplifications: entries in an arbitrary commutative ring with an element half (x / 2 and x * 0.5 are half * x; x / 4 is half * (half * x)), in an arbitrary field where the code divides by orbital energy differences; arrays as functions of the indices with the sizes as parameters; the overlaps of orbitals of the two clusters (cxs_occ . c_active_occ etc.) and of fragment and cluster orbitals are given as matrices instead of being computed from AO coefficients; the wave function of the correcting fragment is given by its CCSDTQ amplitudes (as_ccsdtq is in M_TtoC) and the solution of the CCSD run by _get_delta_t_for_delta_tailor is an arbitrary pair of amplitudes; logging is left out.
* **M_Fci.v**: * CI coefficients of an FCI wave function Model of as_cisd and as_cisdtq of the restricted and the unrestricted FCI wave function, vayesta/core/types/wf/fci.py 124-146, 148-222, 326-369 and 371-487 (with as_ccsdtq, 227-228). The wave function is the vector ci`alpha string, beta string`. Simplifications. A string is named by its excitation from the reference, (holes, particles), both written in decreasing order (the order of tril_indices_ndim, util.py 144-169); address 0 is the reference, (``, ``). pyscf.ci.cisd.tn_addrs_signs (external) lists the strings of a given excitation rank in that order, with a sign; it is modelled as: entry ((i > j > ..), (a > b > ..)) of the packed array is the element of ci with this name, times an arbitrary function `sg` of the name. pyscf.cc.ccsd._unpack_4fold (external) is modelled as decompress_axes("iiaa", ..). decompress_axes (util.py 172-249) is modelled by its result (proved in P_Perms for one group of axes): a stored element times the sign of the permutation, 0 where two indices of a group are equal. Arrays are functions of the list of indices; reshapes between (pairs, pairs) and separate axes are implicit in the names; numbers are elements of a field; warnings for a small c0 are left out; a projector (NotImplementedError) is not modelled.
* **M_Fold.v**: Model of folding k-point sampled quantities to the Born-von Karman supercell, vayesta/core/foldscf.py.
* **M_FragBasis.v**: Model of the orbitals of the fragmentations: vayesta/core/fragmentation/fragmentation.py 347-358 (symmetric_orth), vayesta/core/fragmentation/iao.py 69-125, 165-214 (intrinsic atomic orbitals, their electrons and the remaining virtual orbitals), vayesta/core/fragmentation/sao.py 10-22 (orthogonalised atomic orbitals) and vayesta/core/fragmentation/iaopao.py 13-72 (projected atomic orbitals and the order of all). Simplifications: floats are elements of an ordered commutative ring. `eigh`, the inverse square root, `allclose` and the orbitals that pyscf returns (intrinsic orbitals before orthogonalisation, the list of Rydberg orbitals) are arbitrary. Errors are `None`. Left out: logging (so the check of orthonormality, which only logs), labels other than those used for the order, the pairs of the unrestricted classes (each spin is treated alike).
* **M_FragCoeff.v**: Model of the choice of fragment orbitals: vayesta/core/fragmentation/fragmentation.py get_atom_indices_symbols (377-394), get_atomic_fragment_indices (396-430), get_orbital_indices_labels for integers (432-441), get_frag_coeff (462-465), get_env_coeff (467-472), _create_fragment (173-177), add_all_atomic_fragments (151-165), add_full_system (167-169). Simplifications: a column of coefficients is an element of any type; symbols are numbers; the orbital filter is the list of orbitals it finds. Not modelled: search by label strings (search_labels), names.
* **M_Fragments.v**: Model of the fragment selection, vayesta/core/qemb/qemb.py:1094-1164.
* **M_Gamma2.v**: Model of the intermediates of the restricted CCSD two-particle density matrix: vayesta/core/vpyscf/ccsd_rdm.py 51-55 (_gamma2_intermediates), 58-227 (_gamma2_outcore) and 245-257 (make_rdm2); the assembly _make_rdm2 is in M_Eris.v (make_rdm2_rhf) and M_Rdm.v (cc_rdm2). Simplifications: real arrays over a commutative ring with 1/2; the blocks over virtual orbitals are one block (they bound the memory used); arrays are functions of the indices instead of files; compress_vvvv=False.
* **M_GlobalWf.v**: Model of global amplitudes and of the global one-particle density matrix of an embedding: vayesta/ewf/amplitudes.py 7-92 (get_global_t1_rhf, get_global_t2_rhf), vayesta/ewf/ewf.py 213-219 (get_global_l1, get_global_l2) and 278-292 (with_mf), vayesta/ewf/rdm.py 152-455 (make_rdm1_ccsd_global_wf: the slow algorithm from the global wave function and the fast one by pairs of clusters). Simplifications: real arrays as functions of their indices over a commutative ring with 1/2 (`half`); one MPI rank; all overlaps with AO orbitals are given in the basis of the (orthonormal) molecular orbitals: C^T S c is the overlap matrix "mo|c", and a symmetry operation is the matrix C^T S op(C) of the occupied and of the virtual orbitals (occupied and virtual space are invariant); np.linalg.svd and the norms used for skipping pairs are arbitrary functions; the log messages and the counts of kept singular values are not modelled.
* **M_Heff.v**: Model of the one-electron parts of a cluster Hamiltonian: vayesta/solver/hamiltonian.py, get_fock, get_heff, get_eris_screened, get_integrals, get_dummy_eri_object and the parts of to_pyscf_mf that combine them. Simplifications: arrays are functions of their indices over a commutative ring (real arithmetic); the integrals and the Fock matrix of the full system are given; caching of the integrals (cache_eris) does not change their value and is left out.
* **M_Hubbard.v**: Model of the Hubbard lattice models. Modelled: vayesta/lattmod/latt.py Hubbard1D (111-141), Hubbard2D (187-266), get_tiles_order (307-326), atom_coords (171-176, 291-305, in units of the site distance). Simplifications: hopping amplitudes are elements of any commutative ring; the arrays are functions of their indices; boundary names are an enumeration (upper/lower case is not modelled); mean-field, electron numbers and spin are left out.
* **M_Ints.v**: Models of the compression of three-centre integrals and of the selection of integral blocks: vayesta/solver/hamiltonian.py 178-235 (restricted) and 676-748 (unrestricted).
* **M_Kconserv.v**: Model of the momentum conservation table. Modelled: vayesta/core/ao2mo/helper.py get_kconserv (12-49). Simplifications: k-points and lattice vectors are vectors of exact rationals; `a` stands for lattice_vectors/(2 pi), so that `a k` are the coordinates of k in units of the reciprocal lattice vectors.
* **M_Mp2.v**: Model of MP2 amplitudes built block by block, and of the MP2 bath density matrix: vayesta/core/bath/bno.py 303-349 and 541-646 (_make_t2), 409-458 and 648-723 (_project_t2, make_delta_dm1), vayesta/solver/mp2.py 40-70 and 91-158 (make_t2). Simplifications: arrays are functions of their indices with values in a field, numpy's uninitialised memory (np.empty) is an arbitrary array `out`; real amplitudes (conj is the identity); the negative-definite part of the density-fitting integrals is present for both spins or for none; the quotient of int(max_memory / size) is taken exactly.
* **M_Mpi.v**: Model of MPI reductions of per-rank sums, vayesta/mpi/interface.py:72-90, 134-164, and of the fragment loops that use them.
* **M_Options.v**: Model of the option dataclass base, vayesta/core/util.py:629-710.
* **M_Pack.v**: Model of array packing, vayesta/core/helper.py:16-91.
* **M_Pad.v**: Model of the padding of spin channels with dummy orbitals in to_pyscf_mf: vayesta/solver/hamiltonian.py 268-306, 326-329, 356-373. Simplifications: an array is its shape and a function from index lists; exact arithmetic in an ordered ring.
* **M_PartDm.v**: Model of the one-particle density matrices built from single clusters: vayesta/ewf/rdm.py 22-118 (make_rdm1_ccsd, partitioned fragment wave functions, also with mp2=True) and 121-158 (make_rdm1_ccsd_proj_lambda), vayesta/ewf/fragment.py 411-432 (_ccsd_amplitudes_for_dm, _get_projected_gamma1_intermediates) and 446-452 (make_fragment_dm1). Simplifications: as in M_GlobalWf.v (real arrays over a commutative ring with 1/2, one MPI rank, overlaps in the basis of the orthonormal MOs); no AO representation; the PySCF functions _gamma1_intermediates and _make_rdm1 are those of the copy in core/vpyscf/ccsd_rdm.py; the overlap "mo|cluster" is block diagonal (occupied cluster orbitals are combinations of occupied MOs, virtual of virtual ones); the loops are over all fragments with contributes=True, copies by symmetry included, and a copy reads the results of its parent (core/qemb/fragment.py 360-361) and its own cluster (369-373).
* **M_PartDm2.v**: Model of two-particle density matrices and density-matrix energies built from single clusters: vayesta/ewf/fragment.py 434-444 (_get_projected_gamma2_intermediates), 454-494 (make_fragment_dm2cumulant) and 503-533 (make_fragment_dm2cumulant_energy), vayesta/ewf/rdm.py 469-505 (make_rdm2_ccsd_global_wf), 508-576 (make_rdm2_ccsd_proj_lambda) and vayesta/ewf/ewf.py 397-425 (get_dm_corr_energy_e2). Simplifications: as in M_PartDm.v (real arrays over a commutative ring with 1/2, one MPI rank except in `allreduce`, MO basis, block diagonal overlaps "mo|cluster"); the PySCF functions _gamma2_intermediates and _make_rdm2 are those of the copy in core/vpyscf/ccsd_rdm.py (M_Gamma2.v, M_Eris.v); approx_cumulant is a natural number (False = 0, True = 1); a fragment uses the solver of its wave function (MP2 or CCSD).
* **M_Perms.v**: Model of the permutation and antisymmetric-unpacking helpers of vayesta/core/util.py.
* **M_Polariton.v**: Model of the polaritonic shift of electron-boson cluster Hamiltonians: vayesta/solver/hamiltonian.py, EB_RClusterHamiltonian 792-903 and EB_UClusterHamiltonian 909-933. Simplifications: exact field arithmetic instead of floating point; the couplings of all bosons are functions n, p, q.
* **M_R2Bath.v**: Model of the bath of orbitals near an atom: vayesta/core/bath/r2bath.py 11-18, 50-102. Simplifications: floats are elements of an ordered commutative ring; `eigh`, the square root and the test of the error of hermiticity (76-77) are arbitrary; one Angstrom is `ibohr` Bohr (line 14 divides by its inverse). The matrix of the squared distance in atomic orbitals (21-47) is an arbitrary matrix. Errors are `None`. Left out: logging and histograms.
* **M_Rdm.v**: Model of one- and two-particle density matrices of wave functions: vayesta/core/types/wf/mp2.py 23-56, ccsd.py 43-99 and 290-297, rdm.py 27-71 and 137-216, and of the PySCF routines shipped with the code, vayesta/core/vpyscf/ccsd_rdm.py 32-47, 260-276, 367-386 and uccsd_rdm.py 30-82, 398-423, 590-622. Simplifications: real arrays as functions of their indices with values in a commutative ring with 1/2 (`half`); no frozen orbitals, no AO representation; ndarray copies are not modelled (all functions are pure).
* **M_Register.v**: Model of the fragment register, vayesta/core/qemb/register.py:4-27.
* **M_RiRpa.v**: Model of the RPA with low-rank integrals and numerical integration: vayesta/rpa/rirpa/RIRPA.py (class ssRIRRPA and the functions construct_product_RI, construct_inverse_RI, compress_low_rank), RIURPA.py (class ssRIURPA), RIdRRPA.py (class ssRIdRRPA), momzero_NI.py and energy_NI.py (the integrands), NI_eval.py (the sum over the points). Modelled: the matrices A+B and A-B as diagonal plus product of two rectangular matrices, built from density-fitted integrals (with or without negative part) and a low-rank kernel; the products, inverses and compressions of such forms; the integrands for all three values of `integral_deduct` and of the analytical offset; the sum over a grid; `kernel_moms`, `kernel_trMPrt` and `kernel_energy` of the spin-orbital classes and of the spin-adapted class, including the compression of the target rotation and `return_spatial`. Simplifications: floats are elements of an ordered commutative ring; 1/x is an arbitrary function `inv`, x**0.5 an arbitrary function `sq`, exp an arbitrary function `ex`, sqrt(2), 1/2 and 1/pi constants `s2`, `hlf`, `ipi`; numpy's inv, svd, eig and eigh are arbitrary functions of the dimension and the matrix. The grid (points with weights, after optimisation of its spacing; NI_eval.py 146-207, 405-425) is an argument: a list of pairs. A class with a restricted reference is the unrestricted one with equal data for the two spins (`restricted`). The three-index integrals with occupied and virtual index are given (RIRPA.py 682-692, RIURPA.py 157-169), flattened as in the code. Left out: error estimates (they do not change the values returned), get_gap, direct_AC_integration (which divides a tuple by a float in its first line, RIRPA.py 427, and so always raises TypeError), test functions, memory records.
* **M_Rma.v**: Model of the distributed dictionary, vayesta/mpi/rma.py:9-228, as an asynchronous system of `P` ranks with MPI enabled (P > 1). A rank runs a program of write sections (`with d.writable(): ...`) and single accesses; exceptions of single accesses are caught and logged by the program, an exception of a section end stops the rank. Windows: the n-th allocation on each rank belongs to the same window (MPI matches collective calls in order); allocations are not assumed to synchronise the ranks. Not modelled: __delitem__, clear, shapes and dtypes (other than the type of None).
* **M_Scmf.v**: Model of the self-consistent mean-field loop: vayesta/core/scmf/scmf.py SCMF.check_convergence (60-78) and SCMF.kernel (80-136). Simplifications: numbers are exact rationals; a density matrix is the list of its elements (one list per spin channel); the embedding calculation, the update of the orbitals (with DIIS) and the symmetry check are arbitrary functions of everything that happened before, and may raise; log messages are left out.
* **M_Screen.v**: Model of the static screening of the cluster interaction by moments of the RPA ("mrpa"): vayesta/core/screening/screening_moment.py, the part of ClusterHamiltonian that uses it (vayesta/solver/hamiltonian.py 397-449 and 463-481), and the energies of the external RPA correction (vayesta/core/qemb/qemb.py 586-589 and 756-800). Modelled: the rotation of the particle-hole space into the clusters, the local moments, the screened kernel, the replacement of integrals in a full array and in the arrays of a CCSD calculation (with `restore_bare`), the average over spins, the local energies of the RPA and their cumulant version, the total cumulant energy. Simplifications: floats are elements of an ordered commutative ring; 1/x is an arbitrary function `inv`, 1/2 a constant `hlf`, 1e-10 a constant `thr`; numpy's eigh is an arbitrary function of the dimension and the matrix. The call of `ssRIRPA.kernel_moms` for moment zero is an arbitrary function `km` of the number of rows and the target rotation (its model is in M_RiRpa). Overlaps between orbitals of the mean field and of the cluster are given. Left out: logging (also: the default `log=None` of `get_screened_eris_full` raises AttributeError), MPI, calc_moms_RPA (never called), and the selection of the fragments, of which the list is an argument.
* **M_SelfEnergy.v**: * Self-energy of the whole system from the self-energies of the clusters Model of vayesta/core/qemb/self_energy.py 12-404 (make_self_energy_moments, make_self_energy_1proj, make_self_energy_2proj, remove_se_degeneracy, get_unique). Simplifications: real numbers in an ordered commutative ring, with half and the inverses of natural numbers as elements; arrays as functions of the indices with sizes as parameters; what the package dyson computes (block Lanczos, auxiliary shift, static potential) is arbitrary: a fragment carries the poles of its cluster self-energy, th`1` + tp`1`, and a function static_pot; SVD, eigh and the square root are arbitrary functions whose specification is a hypothesis of the theorems; a complex coupling is a pair of real vectors; the single precision of np.sqrt(..., dtype=np.complex64) is ignored; a self-energy with a tuple of couplings and one with a single array are treated alike (as _unpack_couplings does); logging is left out; the overlaps of a fragment are given as matrices. Not modelled: fit_hermitian, 407-504 (uses scipy and eta, neither of which it defines or imports).
* **M_Sign.v**: Model of the orbital sign convention. Modelled: vayesta/core/util.py fix_orbital_sign (713-727) and the identical vayesta/core/helper.py orbital_sign_convention (4-13). Simplifications: a coefficient matrix is a function (row = basis function, column = orbital) together with its numbers of rows and columns, over any ordered ring; whether the input array is overwritten (`inplace`) is not modelled.
* **M_Solvers.v**: Model of vayesta/solver/__init__.py: _get_solver_class (38-47), _solver_dict (51-72), _ebcc_solver_dict (76-81), _get_solver_class_internal (84-94), _get_solver_class_ebcc (97-122); and of CallbackSolver.kernel (vayesta/solver/callback.py 14-52). Simplifications: a class is its name; `None` for the ansatz means the default of the options. Not modelled: log messages, the classes themselves.
* **M_SsRpa.v**: Model of the dense RPA solvers: vayesta/rpa/ssrpa.py (class ssRPA), vayesta/rpa/ssurpa.py (class ssURPA) and vayesta/rpa/rpa.py (class RPA). Modelled: the excitation energies and their rotation by `ov_rot`, the assembly of A-B, A+B and M from the integrals (restricted and unrestricted), the contributions of an exchange-correlation kernel (dense and low-rank), the solution of the RPA problem (`kernel`: frequencies, X+Y, X-Y, correlation energy, with and without kernel), the moments (`gen_moms`), version 3 of the energy correction (the one used by `kernel`), and the whole of RPA.kernel. Simplifications: floats are elements of an ordered commutative ring; x**0.5 is an arbitrary function `sq`, 1/x an arbitrary function `inv` (so x**(-0.5) is `inv (sq x)`), 0.5 a constant `hlf`; the theorems state what they need of them at the values met. numpy's and scipy's eigh, sqrtm and inv are arbitrary functions of the dimension and the matrix (`eigh`, `sqrtm`, `minv`). The integrals in the basis of the molecular orbitals (ao2mo, ssrpa.py 328-346, ssurpa.py 132-150) are given. Left out: the other versions of the energy correction (of which 0, 1 and 4 integrate numerically over the coupling strength), logging and timing, and shapes of arrays (`ov_rot` with rows but without columns).
* **M_SymTree.v**: Model of the symmetry tree of fragments, vayesta/core/qemb/fragment.py:722-820 and vayesta/core/qemb/qemb.py:1050-1092.
* **M_Symop.v**: Model of the symmetry operations of vayesta/core/symmetry/operation.py: get_atom_reorder (64-106), get_ao_reorder (108-123), rotate_angular_orbitals (125-146), the call (36-53) of inversion, reflection and rotation, and SymmetryGroup.get_closest_atom (group.py 55-59). Simplifications: a -1 in an array of indices is None; coordinates are points of any type with a distance in any ordered ring; coefficients are from any commutative ring; aoslice_by_atom (PySCF) gives consecutive intervals in the order of the atoms; every exception other than an assertion is one outcome. Not modelled: log messages, the geometry of the operations (apply_to_point is any map) and PySCF's angular rotation matrices (any matrices).
* **M_Tailor.v**: * Tailoring of CCSD with the amplitudes of other fragments or of a CAS Model of vayesta/solver/coupling.py 43-52 (get_amplitude_norm, as far as it needs both amplitudes), 148-257 (tailor_with_fragments and the callback it returns), of vayesta/solver/tccsd.py 44-60 (the callback of tailored CCSD), of vayesta/solver/ext_ccsd.py 17-38 (which callback is used) and of vayesta/ewf/fragment.py 136-186 (add_external_corrections and clear_external_corrections), for restricted and unrestricted spin symmetry. transform_amplitude and project_t2 are in M_ExtCorr. Simplifications: entries in an arbitrary ordered commutative ring with an element half; arrays as functions of the indices with the sizes as parameters; the overlaps of orbitals of the two clusters and of fragment and cluster orbitals are given as matrices instead of being computed from AO coefficients; the wave functions of the other fragments are given by their T1 and T2 (as_ccsd is in M_TtoC); array.max() of an empty array (an exception) is taken to be 0; a failing call returns no amplitudes, although it may have changed them in place; the values of the norms are left out, not the evaluation of their arguments. Not modelled: couple_ccsd_iterations, coupling.py 91-145, which reads solver.base, solver.cluster and solver.fragment; no solver has these attributes, so that every call raises AttributeError.
* **M_Tsym.v**: Model of translations: vayesta/core/symmetry/operation.py SymmetryTranslation.get_atom_reorder (317-364), get_ao_reorder (366-396), call (51, 284-287); the list of translations of create_symmetric_fragments (vayesta/core/qemb/qemb.py 877-878) and of loop_tvecs (vayesta/core/symmetry/tsymmetry.py 40-48); tsymmetric_atoms (tsymmetry.py 51-106); the mesh of get_mesh_tvecs (tsymmetry.py 30-34). Simplifications: positions are exact, in units of 1/N of the lattice vectors (`N` any positive integer: a common denominator), so that "closer than the tolerance" is "equal"; a boundary is +1 (periodic) or -1. The helper functions for reordered orbitals are those of M_Symop.
* **M_TtoC.v**: * CI coefficients to coupled-cluster amplitudes Model of vayesta/core/types/wf/t_to_c.py 10-484 (t1_uhf, t1_rhf, ..., t4_uhf, t4_rhf) and of as_ccsdtq of the restricted and unrestricted CISDTQ wave functions, vayesta/core/types/wf/cisdtq.py 24-35 and 53-64 (with the constructor checks of 14-22 and 39-51). Every einsum of t_to_c.py is an outer product with permuted indices and is written here as that product of entries, in the order and with the sign of the code; the accumulations "x = zeros; x += ..." are sums; the intermediates x0, x1, ... are let-bound (they do not depend on the tensor being accumulated, so that computing them first changes nothing). The definitions of the blocks were produced line by line from t_to_c.py by a script. Simplifications: entries in an arbitrary commutative ring (in an arbitrary field where the code divides by c0), arrays as functions of the indices (shapes not modelled).
* **M_UGamma2.v**: Model of the intermediates of the unrestricted CCSD two-particle density matrix: vayesta/core/vpyscf/uccsd_rdm.py 88-345 (_gamma2_outcore), 348-352 (_gamma2_intermediates) and 371-395 (make_rdm2); the assembly _make_rdm2 is in M_Eris.v (make_rdm2_ss, make_rdm2_ab) and M_Rdm.v (ucc_rdm2). Simplifications: real arrays over a commutative ring with 1/2; compress_vvvv=False. Entries of the result that are None are left out.
* **M_Updates.v**: Model of vayesta/dmet/updates.py: Update._flatten_params (11-25), _unflatten_params (27-42), MixUpdate.update (66-71). Simplifications: array elements are from a commutative ring; the norm of the change is kept as its square; an array is its shape and its elements in C order (ravel and reshape keep that order).
* **M_Vlog.v**: Model of the indentation of log messages: vayesta/core/vlog.py 203-239 (setIndentLevel, changeIndentLevel, the context manager and decorator `indent`) and the formatter VFormatter.format (114-131). Simplifications: an execution is the finite tree of what it does (`prog`); the body of the with-statement or of the decorated function may do anything, also raise; strings are lists of characters, `record.msg % record.args` is taken as done, the MPI rank part of the prefix is part of `prefix`.
* **M_Wf.v**: Model of projection, conversion and rotation of amplitudes: vayesta/core/types/wf/project.py 7-98, ccsd.py (RCCSD/UCCSD_WaveFunction), cisd.py (RCISD/UCISD_WaveFunction), mp2.py. Simplifications: arrays are functions of their indices with values in a commutative ring (a field for divisions), the dimension of the first occupied index is kept in the record; the shapes of arguments fit (numpy raises otherwise); copies and in-place operation are not distinguished.

## Not modelled

* floating-point rounding, overflow, NaN; BLAS/LAPACK/SciPy numerics (eigensolvers, brentq, DIIS are oracles);
* PySCF itself, file formats (HDF5, cube files), plotting, the text of log messages;
* complex arithmetic, except in the k-point folding (C21), where complex numbers are pairs of Coq's real numbers;
* the chemical accuracy of any approximation;
* whole modules: vayesta/rpa, vayesta/edmet, vayesta/core/screening, vayesta/solver/ebcc.py and the solver kernels
  themselves (the amplitudes they deliver are arbitrary), vayesta/core/ao2mo/{kao2gmo,postscf_ao2mo}.py, vayesta/tests,
  vayesta/misc/{cubefile,gdf,gto_helper,molecules,solids}.py, vayesta/ewf/icmp2.py.
