{
 "claims": [
  {
   "property": "C01",
   "status": "proved",
   "theorems": [
    "C01_positions",
    "C01_sequences",
    "C01_identity_first"
   ],
   "note": "The recursion of permutations_with_signs on lists, signs by position parity. Specification: number of inversions of an arrangement; induction on the length."
  },
  {
   "property": "C02",
   "status": "proved",
   "theorems": [
    "C02_entries",
    "C02_repeated_zero",
    "C02_antisymmetric",
    "C02_diagonal_minus_refuted"
   ],
   "note": "One index group; the loop over signed permutations assigns entries of a map from index tuples, later assignments overwrite. Proof from C01 and uniqueness of sorting."
  },
  {
   "property": "C03",
   "status": "proved",
   "theorems": [
    "C03_brange",
    "C03_exactly_once",
    "C03_split",
    "C03_negative_limit_refuted"
   ],
   "note": "brange over Z, split_into_blocks over lists; the concatenation of the blocks is the range, bounds on every block."
  },
  {
   "property": "C04",
   "status": "proved",
   "theorems": [
    "C04_replace_attr",
    "C04_failed_entry",
    "C04_instance_dict_refuted"
   ],
   "note": "An object is a finite attribute map, the body of the with statement any state transformer that returns or raises."
  },
  {
   "property": "C05",
   "status": "proved",
   "theorems": [
    "C05_replace",
    "C05_replace_iff",
    "C05_get",
    "C05_update",
    "C05_change_dict_defaults",
    "C05_replace_atomic_refuted"
   ],
   "note": "Option table as association list with dictionary values; replace, update and get as folds returning Ok or TypeError with the table left behind."
  },
  {
   "property": "C06",
   "status": "proved",
   "theorems": [
    "C06_copy_correct",
    "C06_copy_fresh",
    "C06_lru",
    "C06_nocopy_refuted"
   ],
   "note": "Heap and LRU list as a state machine; histories of calls, mutations by callers and cache_clear; invariants by induction on the history."
  },
  {
   "property": "C07",
   "status": "proved",
   "theorems": [
    "C07_renaming",
    "C07_ValueError",
    "C07_succeeds"
   ],
   "note": "Characters as code points; the loop over the string with the list of free letters and the dictionary. The specification reads the string as separators and decorated letters."
  },
  {
   "property": "C08",
   "status": "proved",
   "theorems": [
    "C08_total",
    "C08_signs",
    "C08_idempotent",
    "C08_gauge",
    "C08_density",
    "C08_orthonormal",
    "C08_unrestricted"
   ],
   "note": "Columns over any ordered ring; argmax of absolute values by first index."
  },
  {
   "property": "C09",
   "status": "proved",
   "theorems": [
    "C09_accepts",
    "C09_round_trip",
    "C09_rejects",
    "C09_complex",
    "C09_maxdim_refuted"
   ],
   "note": "Arrays as (dtype, shape, half words); metadata words, offsets. Round trip by induction over the list; complex128 arrays never survive."
  },
  {
   "property": "C10",
   "status": "proved",
   "theorems": [
    "C10_register",
    "C10_ids_unique",
    "C10_balance"
   ],
   "note": "Register as counter machine; uniqueness and balance of the ranks by induction."
  },
  {
   "property": "C11",
   "status": "proved",
   "theorems": [
    "C11_get_fragments",
    "C11_sound_complete",
    "C11_options_ignored",
    "C11_options_and_flags_refuted"
   ],
   "note": "The loop with its continue/skip flags branch by branch; specification: List.filter with a conjunction."
  },
  {
   "property": "C12",
   "status": "proved",
   "theorems": [
    "C12_loop",
    "C12_visits_all",
    "C12_children",
    "C12_child_fragments",
    "C12_child_fragments_refuted",
    "C12_symmetry_operation_refuted",
    "C12_filtered_children_refuted"
   ],
   "note": "Fragments with parent pointers, forests of any depth; the loop over the tree visits each descendant once with the operations composed along the path."
  },
  {
   "property": "C13",
   "status": "proved",
   "theorems": [
    "C13_weighted_sum"
   ],
   "note": "Weights and sums over the tree in Z."
  },
  {
   "property": "C14",
   "status": "proved",
   "theorems": [
    "C14_reads",
    "C14_no_deadlock",
    "C14_fails_only_on_conflict",
    "C14_stops_at_conflict",
    "C14_failure_is_permanent"
   ],
   "note": "Asynchronous system of P ranks; invariant over all executions; deadlock freedom."
  },
  {
   "property": "C15",
   "status": "proved",
   "theorems": [
    "C15_allreduce",
    "C15_ccsd_energy",
    "C15_nreduce",
    "C15_replicated",
    "C15_projected",
    "C15_global_wf_refuted"
   ],
   "note": "Ranks as numbers, reductions as sums; ownership arbitrary."
  },
  {
   "property": "C16",
   "status": "proved",
   "theorems": [
    "C16_restricted",
    "C16_symmetric",
    "C16_unprojected",
    "C16_round_trip",
    "C16_unrestricted",
    "C16_mixed_spin"
   ],
   "note": "Amplitudes as functions of indices over a ring; projectors adding up to the identity."
  },
  {
   "property": "C17",
   "status": "proved",
   "theorems": [
    "C17_restricted",
    "C17_exponential",
    "C17_renormalise",
    "C17_unrestricted",
    "C17_four_blocks",
    "C17_unrestricted_renormalise",
    "C17_closed_shell",
    "C17_mp2",
    "C17_projected",
    "C17_projected_refuted",
    "C17_four_blocks_refuted",
    "C17_norm_refuted",
    "C17_ccsdtq_refuted"
   ],
   "note": "Conversion formulas over a field, closed-shell comparison with the spin-orbital formulas; findings for four-block input, norms and CCSDTQ."
  },
  {
   "property": "C18",
   "status": "proved",
   "theorems": [
    "C18_compose",
    "C18_identity",
    "C18_inverse",
    "C18_physical",
    "C18_rotate",
    "C18_unrestricted",
    "C18_unrestricted_orbitals",
    "C18_orbitals_refuted"
   ],
   "note": "Rotation as four-index contraction; composition, inverse, physical meaning (rotated tensor in rotated orbitals)."
  },
  {
   "property": "C19",
   "status": "proved",
   "theorems": [
    "C19_restricted",
    "C19_unrestricted",
    "C19_intermediates_restricted",
    "C19_intermediates_unrestricted"
   ],
   "note": "Contraction of blocks with the weights of the code equals the contraction of the full arrays, also from the intermediates of PySCF."
  },
  {
   "property": "C20",
   "status": "proved",
   "theorems": [
    "C20_restricted",
    "C20_unrestricted",
    "C20_overwrites",
    "C20_coefficients_refuted",
    "C20_coefficients"
   ],
   "note": "Reconstruction of the full array from its blocks, real and with 8-fold symmetry as needed by each access."
  },
  {
   "property": "C21",
   "status": "proved",
   "theorems": [
    "C21_unitary",
    "C21_round_trip",
    "C21_products",
    "C21_orbitals",
    "C21_real",
    "C21_imaginary",
    "C21_unfold_fold",
    "C21_kmesh",
    "C21_kmesh_refuted"
   ],
   "note": "Complex numbers as pairs of Coq reals; the phase matrix is unitary for every mesh (sums of roots of unity); fold/unfold inverse. Uses the standard library's axioms of Reals."
  },
  {
   "property": "C22",
   "status": "proved",
   "theorems": [
    "C22_any_points",
    "C22_mesh",
    "C22_mesh2",
    "C22_other",
    "C22_no_point_refuted"
   ],
   "note": "k-points and lattice as rational vectors; the search loop; specification through integrality of the coordinates of the momentum difference."
  },
  {
   "property": "C23",
   "status": "proved",
   "theorems": [
    "C23_share",
    "C23_unreachable",
    "C23_occupation",
    "C23_truncate",
    "C23_plain",
    "C23_number_exceeds_refuted",
    "C23_unsorted_refuted",
    "C23_unrestricted"
   ],
   "note": "get_number branch by branch over rationals; specification by sums of occupation numbers."
  },
  {
   "property": "C24",
   "status": "proved",
   "theorems": [
    "C24_split",
    "C24_check",
    "C24_half",
    "C24_unrestricted",
    "C24_cluster"
   ],
   "note": "Eigenvalue list in the order of numpy; masks; partition of the environment."
  },
  {
   "property": "C25",
   "status": "proved",
   "theorems": [
    "C25_restricted",
    "C25_slice",
    "C25_totals",
    "C25_unrestricted",
    "C25_basis_transform",
    "C25_any_occupations_refuted"
   ],
   "note": "Index ranges and totals of the orbital containers; rotation of orbitals."
  },
  {
   "property": "C26",
   "status": "proved",
   "theorems": [
    "C26_amplitudes",
    "C26_block_size_irrelevant",
    "C26_uamplitudes",
    "C26_antisymmetric",
    "C26_density_fitting",
    "C26_density_fitting_unrestricted",
    "C26_energy_one_block",
    "C26_energy_sum",
    "C26_uenergy_sum",
    "C26_closed_shell_energy",
    "C26_bath_dm_closed_shell",
    "C26_bath_dm_symmetric",
    "C26_bath_dm_trace",
    "C26_bath_dm_positive",
    "C26_bath_dm_nonneg",
    "C26_energy_block_size_refuted",
    "C26_energy_memory_refuted",
    "C26_closed_shell_blocks_refuted"
   ],
   "note": "The block loop fills every entry once whatever the block size; uninitialised memory arbitrary; the bath density matrix."
  },
  {
   "property": "C27",
   "status": "proved",
   "theorems": [
    "C27_1d_boundary",
    "C27_1d_hopping",
    "C27_1d_symmetric",
    "C27_1d_translation",
    "C27_2d_hopping",
    "C27_2d_boundary",
    "C27_2d_translation",
    "C27_1d_two_sites_refuted",
    "C27_2d_positions_refuted",
    "C27_2d_square_positions",
    "C27_2d_symmetric"
   ],
   "note": "Loops as folds of assignments; the entries compared with a hopping specification; translations with phases."
  },
  {
   "property": "C28",
   "status": "proved",
   "theorems": [
    "C28_permutation",
    "C28_tile_by_tile",
    "C28_rejects",
    "C28_hopping",
    "C28_tile_connected_refuted"
   ],
   "note": "Loop nest as map; permutation of seq, tiles consecutive."
  },
  {
   "property": "C29",
   "status": "proved",
   "theorems": [
    "C29_converged",
    "C29_not_converged",
    "C29_exceptions",
    "C29_root_finder",
    "C29_second_call_refuted"
   ],
   "note": "Error function and root finder arbitrary (the latter a strategy tree); induction over the strategy."
  },
  {
   "property": "C30",
   "status": "proved",
   "theorems": [
    "C30_within_tolerance",
    "C30_restores",
    "C30_wave_function",
    "C30_finds",
    "C30_first_run_fails",
    "C30_outcomes",
    "C30_no_results_refuted",
    "C30_cached_error_refuted",
    "C30_interval_refuted"
   ],
   "note": "As C29 for optimize_cpt; solver arbitrary, may depend on its history and raise."
  },
  {
   "property": "C31",
   "status": "proved",
   "theorems": [
    "C31_iterations",
    "C31_converged",
    "C31_not_converged",
    "C31_second_run_refuted",
    "C31_final_energy_refuted",
    "C31_no_iterations_refuted",
    "C31_one_iteration"
   ],
   "note": "Loop with oracles for the embedding calculation, update and symmetry check."
  },
  {
   "property": "C32",
   "status": "proved",
   "theorems": [
    "C32_with",
    "C32_decorated",
    "C32_inside",
    "C32_nonnegative",
    "C32_recursion_refuted"
   ],
   "note": "Programs as trees; indentation restored on every exit, also by exceptions."
  },
  {
   "property": "C33",
   "status": "proved",
   "theorems": [
    "C33_round_trip",
    "C33_mix",
    "C33_first",
    "C33_fixed_point",
    "C33_sequence",
    "C33_first_refuted",
    "C33_shape_refuted",
    "C33_scalar_refuted"
   ],
   "note": "Nested lists of arrays; flatten/unflatten inverse; mixing acts elementwise."
  },
  {
   "property": "C34",
   "status": "proved",
   "theorems": [
    "C34_rdm1_restricted",
    "C34_rdm2_restricted",
    "C34_symmetric_restricted",
    "C34_energy",
    "C34_energy_cumulant",
    "C34_rdm1_unrestricted",
    "C34_rdm2_unrestricted",
    "C34_symmetric_unrestricted",
    "C34_ab_symmetric_refuted",
    "C34_documented_energy_refuted"
   ],
   "note": "Sums over fragments with projectors adding up to the identity; energy of the exact density matrices; findings on the unrestricted mixed block and the documented energy formula."
  },
  {
   "property": "C35",
   "status": "proved",
   "theorems": [
    "C35_restricted",
    "C35_axis_restricted",
    "C35_axis_unrestricted",
    "C35_unrestricted",
    "C35_padding",
    "C35_unrestricted_cluster_axis_refuted",
    "C35_order_ab_refuted",
    "C35_absorbed_refuted"
   ],
   "note": "Projected energies add up to the energy of the full amplitudes; findings for clusters not containing the fragment orbitals."
  },
  {
   "property": "C36",
   "status": "proved",
   "theorems": [
    "C36_restricted",
    "C36_fock_matched",
    "C36_fock_screened",
    "C36_heff_unmatched",
    "C36_energy",
    "C36_pyscf",
    "C36_pyscf_bare",
    "C36_unrestricted",
    "C36_upyscf",
    "C36_closed_shell",
    "C36_dummy_eris_refuted",
    "C36_overwrite_fock_refuted",
    "C36_force_bare_refuted",
    "C36_match_fock_unrestricted_refuted"
   ],
   "note": "Heff and Fock matrix in the cluster basis for restricted/unrestricted, screened/bare integrals."
  },
  {
   "property": "C37",
   "status": "proved",
   "theorems": [
    "C37_atoms",
    "C37_rejected",
    "C37_collision",
    "C37_inverse_operation",
    "C37_aos",
    "C37_action",
    "C37_inversion_matrices"
   ],
   "note": "Atom and orbital reorderings from the closest-atom search; inverse permutations; action on coefficients."
  },
  {
   "property": "C38",
   "status": "proved",
   "theorems": [
    "C38_compose",
    "C38_zero",
    "C38_inverse",
    "C38_accepted",
    "C38_mesh",
    "C38_orbit",
    "C38_first_equivalent",
    "C38_list",
    "C38_mesh_number",
    "C38_mesh_number_refuted",
    "C38_unwrapped_refuted"
   ],
   "note": "Positions in units of 1/N of the lattice vectors; composition with boundary phases."
  },
  {
   "property": "C39",
   "status": "proved",
   "theorems": [
    "C39_contexts",
    "C39_orbit",
    "C39_copies_distinct",
    "C39_exit",
    "C39_overlap_refuted",
    "C39_exception_refuted",
    "C39_exit_refuted"
   ],
   "note": "User programs as trees; the state machine of the contexts; specification by structure of the program."
  },
  {
   "property": "C40",
   "status": "proved",
   "theorems": [
    "C40_total",
    "C40_envelop",
    "C40_symmetric",
    "C40_zero_refuted"
   ],
   "note": "The same machine; weighted totals over secondary fragments."
  },
  {
   "property": "C41",
   "status": "proved",
   "theorems": [
    "C41_orbitals",
    "C41_errors",
    "C41_partition",
    "C41_duplicates_refuted",
    "C41_atomic",
    "C41_atomic_partition",
    "C41_all_atoms",
    "C41_complete",
    "C41_full_system",
    "C41_symbols"
   ],
   "note": "Selection of columns by index; partition."
  },
  {
   "property": "C42",
   "status": "proved",
   "theorems": [
    "C42_suits",
    "C42_errors",
    "C42_ansatz",
    "C42_check_refuted"
   ],
   "note": "Dispatch on strings, compared with an independent classification of the solver classes."
  },
  {
   "property": "C43",
   "status": "proved",
   "theorems": [
    "C43_identity",
    "C43_identity_mean_field",
    "C43_additive",
    "C43_mean_field",
    "C43_operators",
    "C43_singlet",
    "C43_sum_rule",
    "C43_embedding",
    "C43_embedding_unrestricted",
    "C43_embedding_mean_field",
    "C43_unrestricted_mean_field",
    "C43_detection",
    "C43_detection_one_particle_refuted",
    "C43_unrestricted_total_refuted",
    "C43_second_projector_ignored_refuted",
    "C43_identity_mean_field_refuted"
   ],
   "note": "Correlation functions of density matrices and of embeddings; second-quantised operators as reference; sum rules."
  },
  {
   "property": "C44",
   "status": "proved",
   "theorems": [
    "C44_mp2_symmetric",
    "C44_mp2_electrons",
    "C44_ccsd_symmetric",
    "C44_ccsd_electrons",
    "C44_uccsd_symmetric",
    "C44_uccsd_electrons",
    "C44_closed_shell",
    "C44_mp2_projected_refuted"
   ],
   "note": "Trace and symmetry of density matrices from amplitudes."
  },
  {
   "property": "C45",
   "status": "proved",
   "theorems": [
    "C45_restricted",
    "C45_stored",
    "C45_round_trip",
    "C45_mp2",
    "C45_mp2_cumulant",
    "C45_unrestricted",
    "C45_unrestricted_stored",
    "C45_unrestricted_round_trip",
    "C45_spin_sum",
    "C45_hermitian",
    "C45_mean_field",
    "C45_mean_field_mp2"
   ],
   "note": "2-DM from cumulant and 1-DM; spin sums; mean-field limit."
  },
  {
   "property": "C46",
   "status": "proved",
   "theorems": [
    "C46_atoms",
    "C46_no_radius",
    "C46_open",
    "C46_units",
    "C46_unit_refuted",
    "C46_molecule_refuted"
   ],
   "note": "The neighbouring cells as lists, distance any function."
  },
  {
   "property": "C47",
   "status": "proved",
   "theorems": [
    "C47_bracket",
    "C47_suitable",
    "C47_complete",
    "C47_gives_up",
    "C47_exceptions",
    "C47_direction_refuted",
    "C47_exact_root_refuted",
    "C47_converged",
    "C47_silent_refuted"
   ],
   "note": "Bracket search with an arbitrary error function that may fail."
  },
  {
   "property": "C48",
   "status": "proved",
   "theorems": [
    "C48_kind",
    "C48_rest",
    "C48_moments_refuted"
   ],
   "note": "Priority of the keys of the callback's result."
  },
  {
   "property": "C50",
   "status": "proved",
   "theorems": [
    "C50_lines",
    "C50_injective"
   ],
   "note": "Lines and prefix of log messages; injectivity."
  },
  {
   "property": "C51",
   "status": "proved",
   "theorems": [
    "C51_unrestricted",
    "C51_restricted",
    "C51_accepted",
    "C51_no_displacement",
    "C51_energy_change",
    "C51_eb_density",
    "C51_eb_density_restricted"
   ],
   "note": "Polaritonic shift over a field."
  },
  {
   "property": "C52",
   "status": "proved",
   "theorems": [
    "C52_elements",
    "C52_dummies_above",
    "C52_frozen",
    "C52_energy",
    "C52_veff",
    "C52_empty_channel_refuted"
   ],
   "note": "Padding with dummy orbitals over an ordered ring."
  },
  {
   "property": "C53",
   "status": "proved",
   "theorems": [
    "C53_exact",
    "C53_error",
    "C53_fewer",
    "C53_restricted",
    "C53_unrestricted_aa",
    "C53_unrestricted_refuted",
    "C53_unrestricted_negative_refuted"
   ],
   "note": "Compression of three-centre integrals, error bounded by the discarded eigenvalues."
  },
  {
   "property": "C54",
   "status": "proved",
   "theorems": [
    "C54_cached",
    "C54_restricted",
    "C54_values",
    "C54_restricted_values",
    "C54_refused",
    "C54_mixed_refuted"
   ],
   "note": "Blocks of the integrals; caching does not change them."
  },
  {
   "property": "C55",
   "status": "proved",
   "theorems": [
    "C55_restricted",
    "C55_unrestricted",
    "C55_total",
    "C55_sym_factor_refuted"
   ],
   "note": "DMET energy against the energy of the democratic density matrices."
  },
  {
   "property": "C56",
   "status": "proved",
   "theorems": [
    "C56_pair_symmetric",
    "C56_full_bath",
    "C56_errors",
    "C56_order",
    "C56_invariant",
    "C56_for_dm2"
   ],
   "note": "Global amplitudes as sums over fragments and symmetry copies over a commutative ring with 1/2."
  },
  {
   "property": "C57",
   "status": "proved",
   "theorems": [
    "C57_electrons",
    "C57_lambda_needed",
    "C57_full_bath",
    "C57_option_refuted",
    "C57_fast_is_slow"
   ],
   "note": "Every term of the pair algorithm against the contraction of the global tensors; symmetry copies by invariance of the tensors."
  },
  {
   "property": "C58",
   "status": "proved",
   "theorems": [
    "C58_electrons",
    "C58_symmetric",
    "C58_projected_electrons",
    "C58_projected_symmetric",
    "C58_lambda_needed",
    "C58_projected_lambda_needed"
   ],
   "note": "Traces of the loops for orthonormal cluster orbitals; projected density matrices fragment by fragment."
  },
  {
   "property": "C59",
   "status": "proved",
   "theorems": [
    "C59_partitioned",
    "C59_partitioned_mp2",
    "C59_projected",
    "C59_truncated_refuted"
   ],
   "note": "Contractions in the cluster basis lifted to the system basis (generic lemmas), additivity in the Lambda amplitudes."
  },
  {
   "property": "C60",
   "status": "proved",
   "theorems": [
    "C60_trace",
    "C60_exchange_trace",
    "C60_pairs",
    "C60_symmetry",
    "C60_cumulant_trace",
    "C60_two_electrons",
    "C60_two_electrons_dm1",
    "C60_projected_refuted",
    "C60_unrestricted_trace",
    "C60_unrestricted_symmetry",
    "C60_closed_shell"
   ],
   "note": "Block by block: every block of the assembled matrix is identified and the identities between the contractions are decided by a proved reflective normaliser for nested sums of products of tensors (Esum.v)."
  },
  {
   "property": "C61",
   "status": "proved",
   "theorems": [
    "C61_full_bath",
    "C61_trace",
    "C61_exchange_trace",
    "C61_pairs",
    "C61_mp2",
    "C61_available",
    "C61_symmetry",
    "C61_default_dm1_refuted",
    "C61_trace_refuted",
    "C61_mp2_t_as_lambda_refuted",
    "C61_mp2_symmetry_refuted"
   ],
   "note": "Covariance of every block of the two-particle intermediates under the change to cluster orbitals is decided by reflection (Inv.v); traces follow from block identities (Esum.v) and orthonormality of the cluster orbitals."
  },
  {
   "property": "C62",
   "status": "proved",
   "theorems": [
    "C62_fragment",
    "C62_projected",
    "C62_full_bath",
    "C62_ranks",
    "C62_approx_two",
    "C62_stored_refuted",
    "C62_ranks_global_refuted"
   ],
   "note": "Reduction of each organisation of the contraction to the full one (C19), lifting of the contraction to the system by the transformed integrals, and C56/C61 for the full bath."
  },
  {
   "property": "C63",
   "status": "proved",
   "theorems": [
    "C63_unrestricted",
    "C63_restricted",
    "C63_doubles",
    "C63_cisd",
    "C63_normalisation_refuted"
   ],
   "note": "Formulas transcribed term by term; exp(T) is an independent sum over signed splittings of the indices; a reflective normaliser for polynomials in antisymmetric (or closed-shell) amplitude families decides every block for all indices."
  },
  {
   "property": "C64",
   "status": "proved",
   "theorems": [
    "C64_exp_antisymmetric",
    "C64_closed_shell_antisymmetric",
    "C64_closed_shell_spin",
    "C64_unrestricted",
    "C64_unrestricted_cisd",
    "C64_restricted",
    "C64_restricted_cisd",
    "C64_amplitudes_unrestricted",
    "C64_amplitudes_restricted",
    "C64_agree"
   ],
   "note": "Antisymmetry of exp(T) for all ranks by swapping in sums over splittings; sorting with sign proved sound for antisymmetric arrays; each transposition computed on symbolic indices; then C63."
  },
  {
   "property": "C65",
   "status": "proved",
   "theorems": [
    "C65_replaced",
    "C65_consistent",
    "C65_twice",
    "C65_assembled",
    "C65_both_projected",
    "C65_pair_symmetry",
    "C65_remote",
    "C65_threshold",
    "C65_threshold_unrestricted",
    "C65_cas",
    "C65_level3_refuted",
    "C65_one_kind_refuted",
    "C65_replaced_unrestricted",
    "C65_consistent_unrestricted",
    "C65_assembled_unrestricted",
    "C65_antisymmetry",
    "C65_closed_shell",
    "C65_list",
    "C65_test_flag",
    "C65_accepted",
    "C65_dispatch",
    "C65_overlap_refuted",
    "C65_test_flag_refuted"
   ],
   "note": "the loop is shown to return the amplitudes plus a sum over the overlapping fragments of back-transformed, projected differences; the properties follow from algebra of the two- and four-index transformations (composition, projectors moved through, deltas) with the overlap matrices' orthonormality as hypothesis; the sequence of calls by induction, the choice of callback by cases"
  },
  {
   "property": "C66",
   "status": "proved",
   "theorems": [
    "C66_delta",
    "C66_delta_unrestricted",
    "C66_low_level",
    "C66_total",
    "C66_fixed_point",
    "C66_order",
    "C66_low_level_unrestricted",
    "C66_total_unrestricted",
    "C66_fixed_point_unrestricted",
    "C66_mixed_refuted",
    "C66_unrestricted",
    "C66_restricted"
   ],
   "note": "Spec: rows of (H-E)exp(T) from the Slater-Condon rules with everything of lower rank an arbitrary function; the difference is reduced to linear T3, T4, T1T3 terms (diff1, diff2) and compared with the einsums by the reflective sum normaliser extended to the symmetries of real integrals and antisymmetric amplitudes (Esum8). The loop over fragments by induction with resolution of the identity. Delta-tailoring (P_Delta): transformation to the cluster and back with orbitals that span the corrected cluster, sum of projectors."
  },
  {
   "property": "C67",
   "status": "proved",
   "theorems": [
    "C67_symmetry",
    "C67_complete",
    "C67_symmetric",
    "C67_trace",
    "C67_two_projectors_trace_refuted",
    "C67_two_projectors_refuted",
    "C67_poles",
    "C67_assertion_svd",
    "C67_assertion_eigh",
    "C67_unique",
    "C67_degeneracy",
    "C67_non_causal_refuted",
    "C67_lehmann",
    "C67_negative_weight_refuted",
    "C67_other_projectors_refuted"
   ],
   "note": "the accumulators are shown to be sums over fragments and children of C v C^T; the complete case from orthonormality of the cluster orbitals and the sum of the projectors; the poles from the decomposition's specification, pole by pole; the assertion because the coupling matrix has rank two (three orthonormal vectors in the image of a rank-two matrix make a vanishing Gram determinant); grouping by induction over the runs"
  },
  {
   "property": "C68",
   "status": "proved",
   "theorems": [
    "C68_hermitian",
    "C68_hermitian_unrestricted",
    "C68_energy",
    "C68_energy_unrestricted",
    "C68_dm1",
    "C68_dm2_trace",
    "C68_antisymmetric_unrestricted",
    "C68_antisymmetric",
    "C68_spin_blocks",
    "C68_number",
    "C68_commutator",
    "C68_diagonal",
    "C68_hdiag",
    "C68_switch",
    "C68_vacuum",
    "C68_eb_rdm",
    "C68_zero_mode",
    "C68_zero_mode_refuted",
    "C68_dd_moments",
    "C68_dd_symmetric",
    "C68_dd_basis",
    "C68_dd_sum_rule",
    "C68_dd_halves",
    "C68_link_tables",
    "C68_dd_halves_refuted"
   ],
   "note": "from four properties of the link tables (bounds, adjoint, number, exchange of creators), which are proved for the tables of all numbers of orbitals and electrons from the anticommutation relations by induction over the orbitals; the bosonic operators by cases on the occupation; the moments by moving powers of H - E across the scalar product. Further findings, read from the code: contract_1e always raises; kernel_multiroot does not add the core energy and, unrestricted, lacks the restoring of the integrals that kernel has; kernel uses couplings and frequencies of the Hamiltonian, make_dd_moms those of the solver; the unrestricted make_eb_rdm without bosons returns one array and not a pair"
  },
  {
   "property": "C69",
   "status": "proved",
   "theorems": [
    "C69_moments",
    "C69_solution",
    "C69_energy",
    "C69_energy_plasmon",
    "C69_arrays_unrestricted",
    "C69_arrays_restricted",
    "C69_arrays_rotated",
    "C69_projected",
    "C69_assert",
    "C69_rotated_restricted",
    "C69_symmetric",
    "C69_interaction_symmetric",
    "C69_unique",
    "C69_spin",
    "C69_solution_xc",
    "C69_energy_xc",
    "C69_rpa_solution",
    "C69_drpa",
    "C69_rpax",
    "C69_low_rank",
    "C69_xc_symmetric"
   ],
   "note": "with a small library of matrices (Mat.v): the four equations follow from the eigenvalue equation of M, everything else from the four equations; independence of the eigenvectors because functions of a symmetric matrix commute through the overlap of two eigenbases; spin symmetry as an instance of it. Square roots, inverses, eigh and sqrtm are arbitrary functions of which the theorems assume the defining equations at the matrices met. Further findings, read from the code: ssurpa.py uses pyscf without importing it (NameError for spin-dependent integrals); an unknown version of the energy correction given as a number raises a formatting error instead of the message"
  },
  {
   "property": "C70",
   "status": "proved",
   "theorems": [
    "C70_product",
    "C70_inverse",
    "C70_matrices",
    "C70_mom0",
    "C70_moments",
    "C70_trace",
    "C70_energy",
    "C70_energy_kernel",
    "C70_Q_symmetric",
    "C70_compress",
    "C70_spin_moments",
    "C70_spatial",
    "C70_spin_errors",
    "C70_spin_trace",
    "C70_spin_energy",
    "C70_errors",
    "C70_levels"
   ],
   "note": "Woodbury's identity for the forms and for the integrand at each point of the grid; functions of (A-B)(A+B) in the basis of the RPA vectors; the spin-adapted formulas by cancelling A+B. Inverses, roots, decompositions and the grids are arguments; the theorems assume their defining equations where they are used. The concrete cases need a root of two and live in the ordered field of numbers a + b sqrt(2) (Root2.v). Further findings, read from the code: direct_AC_integration divides a tuple and always raises TypeError; ri_decomps is passed twice in one call (TypeError); compress_target_rot compares the number of kept vectors with the number of columns instead of rows (harmless)"
  },
  {
   "property": "C71",
   "status": "proved",
   "theorems": [
    "C71_rotation",
    "C71_moment",
    "C71_conserved",
    "C71_rpa",
    "C71_symmetric",
    "C71_complete",
    "C71_uncorrelated",
    "C71_orbitals",
    "C71_spin",
    "C71_replaced",
    "C71_permutations",
    "C71_unscreened",
    "C71_spin_average",
    "C71_restore",
    "C71_screened_ccsd",
    "C71_restore_twice",
    "C71_energy",
    "C71_cumulant",
    "C71_returns",
    "C71_no_excitations",
    "C71_empty_cluster",
    "C71_linear_dependence"
   ],
   "note": "M_Screen.v follows screening_moment.py: rotation of the excitations, rows of the moment for each fragment, local A-B, inverse by diagonalisation, kernel, replacement in arrays, and the energies of hamiltonian.py and qemb.py; the moments of the system and numpy's eigh are arbitrary functions.  P_Screen.v proves: C71_rotation, C71_moment (the local moment is the projection of the moment of the system), C71_conserved and C71_rpa (the equation M (A+B) M = A-B holds in the cluster, and a solution of its RPA with positive frequencies has the moment M; uniqueness of the positive solution is proved), C71_symmetric, C71_complete, C71_uncorrelated, C71_orbitals, C71_spin, C71_replaced, C71_permutations, C71_unscreened, C71_spin_average, C71_restore, C71_screened_ccsd, C71_energy (with the plasmon formula), C71_cumulant (and that nothing non-local remains), C71_returns and the errors.  Findings: with copy=False a single array is overwritten three times (C71_inplace_refuted); after two screenings restore_bare gives the integrals of the first and is gone (C71_restore_twice_refuted); an unrestricted calculation with linearly dependent atomic orbitals always fails (C71_linear_dependence), because the number of orbitals is read from the rows of the coefficients; one cluster without excitations makes the whole set-up fail (C71_empty_cluster); build_screened_eris returns nothing, contrary to its documentation."
  },
  {
   "property": "C72",
   "status": "proved",
   "theorems": [
    "C72_formula",
    "C72_response",
    "C72_response_minus",
    "C72_environment",
    "C72_dielectric",
    "C72_only_ov",
    "C72_particles",
    "C72_permutations",
    "C72_spin",
    "C72_complete",
    "C72_dynamic",
    "C72_attractive",
    "C72_repulsive",
    "C72_sum",
    "C72_sum_restricted",
    "C72_documented_option_refuted",
    "C72_basis",
    "C72_permutations_refuted"
   ],
   "note": "M_Crpa.v follows screening_crpa.py: the excitations of the cluster and of the environment, the couplings with both options, static correction, poles of the dynamic one, and the options read from the text; null_space and the RPA calculation are arbitrary functions.  P_Crpa.v proves: C72_environment (from the contracts of null_space and of the canonicalisation), C72_formula (closed form of the correction), C72_response and C72_response_minus (a Schur complement), C72_dielectric, C72_basis, C72_attractive, C72_repulsive, C72_only_ov, C72_particles, C72_permutations, C72_spin, C72_complete, C72_dynamic, C72_sum, C72_sum_restricted.  Findings: with the coupling through orbital energies the screened integrals lose the symmetry (pq|rs) = (qp|rs) of real orbitals (C72_permutations_refuted), although solvers for real orbitals assume it; the documented word 'pcoupling' is not recognised, the code looks for 'pcoupled' (C72_documented_option_refuted).  Read, not modelled: the class used for the RPA handles only restricted mean fields; for a cluster without environment the fallback of get_frag_deltaW builds arrays of the size of the system."
  },
  {
   "property": "C73",
   "status": "proved",
   "theorems": [
    "C73_orthogonal",
    "C73_orders",
    "C73_moments",
    "C73_closed",
    "C73_chain",
    "C73_returns",
    "C73_no_fragment",
    "C73_values",
    "C73_orbitals",
    "C73_fock",
    "C73_fock_closed",
    "C73_no_environment",
    "C73_split"
   ],
   "note": "M_Ewdmet.v follows recursive_block_svd (the loop, its slices, threshold, assertions and early exits) and the bath built from it; numpy.linalg.svd is an arbitrary function.  P_Ewdmet.v keeps an invariant of the loop and proves: C73_orthogonal, C73_orders, C73_values, C73_chain, C73_moments (the bound 2k+1 is attained: the case shows that the next power differs), C73_closed, C73_orbitals, C73_fock, C73_fock_closed, C73_split, C73_returns, C73_no_fragment, C73_no_environment.  Contracts (at the matrices met): vh orthogonal, values non-negative and descending, product equal to the block; for the powers also that no value lies strictly between zero and the threshold.  Not modelled: the assertion on orthogonality up to rounding (it holds exactly), logging, choice of the Fock matrix.  Observed in the code: the bath's default option order=None raises a TypeError when compared with the orders, an order above max_order gives the bath of max_order only, and unrestricted calculations have no such bath."
  },
  {
   "property": "C74",
   "status": "proved",
   "theorems": [
    "C74_cluster",
    "C74_orthonormal",
    "C74_loss",
    "C74_complete",
    "C74_spin",
    "C74_rest",
    "C74_projection",
    "C74_options",
    "C74_targets",
    "C74_shares",
    "C74_number_refuted"
   ],
   "note": "M_BosBath.v follows bbath.py and qba_rpa.py: excitations of the cluster, target excitations with their options, stacking and splitting of the moment, removal of the cluster's excitations, bosons from the eigenvectors, and truncation by number, occupation or sum; eigh, the inverse square root, 1/sqrt(2) and the RPA moment are arbitrary functions.  P_BosBath.v proves: C74_cluster, C74_orthonormal, C74_loss, C74_complete, C74_spin, C74_rest, C74_targets, C74_projection, C74_options, C74_shares, and C74_number_refuted (with a fixed number, or the threshold zero, a boson of occupation zero is divided by the root of zero).  Contracts: eigenvectors with ascending eigenvalues; inverse square roots of the positive ones; orthonormal excitations of the cluster (C74_cluster proves them for orthonormal orbitals); a moment linear in the targets (see C70).  Not modelled: logging, MPI, negative numbers of bosons.  Observed in the code: Boson_Threshold is never applied to a plain number by the fragment, and QuasiBosonOrbitals refers to its own missing attribute if given spin orbitals."
  },
  {
   "property": "C75",
   "status": "proved",
   "theorems": [
    "C75_consistent",
    "C75_matrix",
    "C75_gap",
    "C75_spin",
    "C75_nonconserving",
    "C75_projectors",
    "C75_couplings",
    "C75_exchange",
    "C75_exchange_refuted",
    "C75_periodic_refuted"
   ],
   "note": "M_BosHam models the coefficients of bosons in atomic orbitals, rotation, the loop over blocks of integrals, the boson matrix, all parts of the couplings, the non-conserving term, the cluster projectors and what is stored.  All quantities are linear in the boson coefficients (lemmas *_rot), which gives C75_consistent with the diagonaliser's contract.  C75_matrix and C75_couplings expand the atomic-orbital sums in canonical orbitals; C75_gap bounds the diagonal of the rotated matrix by squares.  C75_projectors states which orbitals the cluster's occupied and virtual projectors keep.  C75_nonconserving uses that the occupied projector of an orthonormal cluster is diagonal, so that the code's diagonal-only sum for beta spin loses nothing.  C75_exchange states exactly what the exchange part is; C75_exchange_refuted and C75_periodic_refuted are the findings (the latter for periodic systems whose two loops, sr_loop and loop, both give the integrals: _loop_df does not return after the first).  Also seen, not modelled: `fock or mf.get_fock()` raises for a given array; QuasiBosonOrbitals given spin orbitals reads an attribute that does not exist yet; fbasis_transform uses the first element of the transformation only; the block size multiplies by the number of orbitals where it should divide."
  },
  {
   "property": "C76",
   "status": "proved",
   "theorems": [
    "C76_orthonormal",
    "C76_span",
    "C76_norms",
    "C76_dependent",
    "C76_sign",
    "C76_sao",
    "C76_electrons",
    "C76_all_electrons",
    "C76_virtual",
    "C76_iao",
    "C76_order",
    "C76_iaopao",
    "C76_orthonormal_refuted"
   ],
   "note": "M_FragBasis models symmetric orthogonalisation with its threshold and signs, the symmetric, intrinsic and projected atomic orbitals, the added virtuals with their check, the electron count and the ordering by labels; pyscf's intrinsic orbitals, the diagonaliser and the inverse square root are arbitrary inputs whose contract is assumed only at the matrices met.  C76_sign carries the sign convention of C08 over to the orthogonaliser.  C76_norms computes the trace of the metric as the number of kept eigenvalues, which gives the finding C76_dependent (and C76_orthonormal_refuted at a concrete pair of dependent orbitals).  C76_virtual shows that the projector's trace equals the number of missing orbitals, so the RuntimeError is unreachable under its hypotheses.  Warnings and the log output are not modelled."
  },
  {
   "property": "C77",
   "status": "proved",
   "theorems": [
    "C77_space",
    "C77_electrons",
    "C77_gaps",
    "C77_in_range",
    "C77_closed_shell",
    "C77_odd",
    "C77_electrons_refuted"
   ],
   "note": "M_CasFrag models the checks, the search for the number of orbitals, the tests for degeneracy with Python's indexing, and the range of orbitals.  C77_space and C77_electrons follow from an invariant of the search (the electrons passed so far); C77_electrons_refuted is the finding that the test 'offset > ncas' should be 'offset >= ncas'.  C77_gaps reads the tolerance test back as an order statement; C77_closed_shell and C77_odd compute the search for doubly occupied orbitals.  Occupations that are not integers and add_orbital_fragment itself (modelled elsewhere) are left out."
  },
  {
   "property": "C78",
   "status": "proved",
   "theorems": [
    "C78_orthonormal",
    "C78_distance",
    "C78_nested",
    "C78_units"
   ],
   "note": "M_R2Bath models the units, the matrix in the environment (made symmetric if needed), the diagonalisation with its check, clipping and square root, the count and the split of the columns.  C78_orthonormal transports orthonormality through the eigenvectors.  C78_distance shows that counting distances within the cutoff selects a prefix of the ascending eigenvalues and bounds the quadratic form on both blocks.  C78_nested and C78_units follow from monotonicity of the count and the conversion.  The integrals of the squared distance, also the numerical ones of periodic systems, are an arbitrary symmetric matrix."
  }
 ]
}
