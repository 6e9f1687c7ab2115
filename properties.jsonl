{"id": "C01", "title": "permutations_with_signs enumerates the symmetric group with parities", "statement": "permutations_with_signs(seq) returns len(seq)! entries; every arrangement of seq occurs exactly once, and the sign attached to it is the parity of the permutation that produces it (the identity comes with +1, one swap changes the sign).", "quantifier": "every sequence of every length", "why_tests_cant": "Tests compare a handful of lengths; the sign rule (index parity of an interleaved construction) is an induction over the length.", "anchors": ["vayesta/core/util.py: permutations_with_signs"]}
{"id": "C02", "title": "decompress_axes restores an antisymmetric (or symmetric) tensor", "statement": "Unpacking a flat array of strictly ordered index tuples gives a full tensor whose entry at any reordering of a stored tuple is sign(permutation) times the stored value (or the stored value itself with symmetry '+'), whose entries with a repeated index are zero when the diagonal is not included, and which is therefore antisymmetric (symmetric) under every exchange of two axes of the same group. With the diagonal included and symmetry '-' the diagonal entry is not what the storage says.", "quantifier": "every number of axes of one index group, every dimension, every stored array", "why_tests_cant": "The tensor order and dimension are unbounded; tests use rank 2-4 and small dimensions.", "anchors": ["vayesta/core/util.py: decompress_axes, tril_indices_ndim, permutations_with_signs"]}
{"id": "C03", "title": "brange / split_into_blocks cut a range into blocks without loss or overlap", "statement": "The blocks produced by brange(start, stop, step, minstep, maxstep) are consecutive, non-empty, never longer than the clipped step, cover every element of [start, stop) exactly once and nothing else; concatenating the blocks that split_into_blocks yields for an array gives the array back.", "quantifier": "every start, stop, step, min/max step and array length", "why_tests_cant": "Boundary behaviour (last short block, step larger than range, empty range) has to hold for all integers.", "anchors": ["vayesta/core/util.py: brange, split_into_blocks"]}
{"id": "C04", "title": "replace_attr is transactional", "statement": "Inside a `with replace_attr(obj, **new)` block the named attributes have the new values (function values bound to the object) and all others are unchanged; after leaving the block normally or by exception every named attribute has its old value again, whatever the block did to it, and changes of other attributes made by the block survive.", "quantifier": "every object state, every set of replaced attributes, every body and every exit path (including nesting)", "why_tests_cant": "Exit paths and nesting are unbounded; tests only exercise the normal exit.", "anchors": ["vayesta/core/util.py: replace_attr"]}
{"id": "C05", "title": "Option handling: replace is strict, update is lenient, nested dictionaries merge", "statement": "OptionsBase.replace(**kw) raises TypeError when a keyword is not an option (or a key is unknown to a dictionary option), otherwise sets exactly the named options, merges dictionary values key by key into dictionary options and leaves all others as they were; update(**kw) ignores unknown names and otherwise does the same; neither ever adds an option. When replace raises, options named before the unknown keyword keep the new value already assigned (the call is not atomic).", "quantifier": "every option table and every keyword list", "why_tests_cant": "The merge/override interaction depends on arbitrary option contents and keyword order.", "anchors": ["vayesta/core/util.py: OptionsBase.replace, OptionsBase.update, OptionsBase.get, OptionsBase.keys, OptionsBase.asdict"]}
{"id": "C06", "title": "cache(copy=True) isolates callers from each other", "statement": "With copy=True, whatever callers do to objects returned earlier, a later call returns a fresh object with the value computed by the function for these arguments; without copy, a caller that mutates the returned object changes what later callers see. At most maxsize results are retained and the least recently used one is dropped.", "quantifier": "every sequence of calls and caller mutations", "why_tests_cant": "Aliasing bugs depend on the history of calls and mutations.", "anchors": ["vayesta/core/util.py: cache"]}
{"id": "C07", "title": "einsum decorated indices are renamed consistently", "statement": "In einsum subscripts, letters carrying a one-character decoration are replaced by letters so that equal decorated indices get equal letters, different decorated indices get different letters, no new letter collides with an undecorated letter of the subscripts, and everything else (commas, arrow, brackets, undecorated letters) stays where it is; a decoration without a preceding letter raises ValueError.", "quantifier": "every subscript string", "why_tests_cant": "Free-letter bookkeeping has to hold for all strings, including repeated and interleaved decorations.", "anchors": ["vayesta/core/util.py: _einsum_replace_decorated_subscripts"]}
{"id": "C08", "title": "Orbital sign convention", "statement": "fix_orbital_sign multiplies each orbital (column) by +1 or -1 only, returns these signs, makes the largest-magnitude coefficient of each orbital non-negative, is idempotent, and does not change the one-particle space or any density matrix built from the orbitals.", "quantifier": "every coefficient matrix over every ordered field", "why_tests_cant": "Ties and zero columns and all dimensions must be handled.", "anchors": ["vayesta/core/util.py: fix_orbital_sign", "vayesta/core/helper.py: orbital_sign_convention"]}
{"id": "C09", "title": "pack_arrays / unpack_arrays round trip", "statement": "Packing a list of arrays and Nones into one flat array and unpacking it returns the same list (same order, shapes, element types, data; None stays None, zero-dimensional and empty arrays included) for every element type of eight bytes and at most eight dimensions; more dimensions are rejected; for sixteen-byte (complex) element types the round trip does not return the input.", "quantifier": "every list of arrays", "why_tests_cant": "The offset bookkeeping is a property of all list lengths, shapes and mixtures of None.", "anchors": ["vayesta/core/helper.py: pack_arrays, unpack_arrays, pack_metadata, unpack_metadata, get_dtype_int, get_dtype"]}
{"id": "C10", "title": "Fragment register hands out unique ids and balances MPI ranks", "statement": "Successive registrations return ids 0,1,2,... without repetition, every id is assigned an existing rank, and at any time the numbers of fragments assigned to two ranks differ by at most one.", "quantifier": "every number of ranks and every number of registrations", "why_tests_cant": "Balance and uniqueness are invariants of unbounded histories.", "anchors": ["vayesta/core/qemb/register.py: FragmentRegister"]}
{"id": "C11", "title": "get_fragments returns exactly the fragments that satisfy the filters", "statement": "get_fragments(options, flags, **attributes) returns, in order and without duplicates, every fragment that satisfies all attribute, option and flag filters, and no other one. (With option and flag filters given together the code also returns fragments whose options do not match: the claim holds whenever at most one of the two is given.)", "quantifier": "every fragment list and every combination of filters and values (single value or list)", "why_tests_cant": "Filter combinations are unbounded; the wrong result only appears when two filter kinds are combined.", "anchors": ["vayesta/core/qemb/qemb.py: Embedding.get_fragments"]}
{"id": "C12", "title": "Every fragment is visited exactly once through the symmetry tree", "statement": "Looping over the fragments without a symmetry parent and, for each, over loop_symmetry_children visits every fragment of the calculation exactly once, and each visited child comes with the parent's arrays transformed by the composition of all symmetry operations on the path from the parent.", "quantifier": "every forest of symmetry-derived fragments of any depth and branching", "why_tests_cant": "The recursion depth and the tree shape are unbounded; tests use depth one.", "anchors": ["vayesta/core/qemb/fragment.py: loop_symmetry_children, get_symmetry_tree, get_symmetry_children, get_symmetry_generations", "vayesta/core/qemb/qemb.py: get_symmetry_parent_fragments"]}
{"id": "C13", "title": "Symmetry-reduced sums equal full sums", "statement": "For any fragment quantity that is the same for symmetry-related fragments, the sum over symmetry parents weighted with symmetry_factor equals the sum over all fragments.", "quantifier": "every forest of symmetry-derived fragments and every invariant additive quantity", "why_tests_cant": "Counts of descendants over arbitrary trees.", "anchors": ["vayesta/core/qemb/fragment.py: symmetry_factor, n_symmetry_children", "vayesta/ewf/ewf.py: get_wf_corr_energy"]}
{"id": "C14", "title": "RMA dictionary: all ranks read the same, complete data", "statement": "After a write section is left, every rank reads for every key the value written by the one rank that wrote it, the key sets agree on all ranks, writing outside and reading inside of a write section is refused, and a key written by two ranks in one section makes the section fail on all ranks instead of silently choosing a value.", "quantifier": "every number of ranks, every set of local writes and every interleaving of the ranks between the collective synchronisation points", "why_tests_cant": "Needs all interleavings and all rank counts.", "anchors": ["vayesta/mpi/rma.py: RMA_Dict"]}
{"id": "C15", "title": "MPI reduction of per-rank partial sums", "statement": "A result computed as a sum over the fragments of each rank and combined with allreduce equals the serial result on every rank, for every assignment of fragments to ranks; with a target only that rank obtains the sum. A quantity that every rank already computes in full is multiplied by the number of ranks.", "quantifier": "every number of ranks and every assignment", "why_tests_cant": "All rank counts and distributions.", "anchors": ["vayesta/mpi/interface.py: MPI_Interface.nreduce, with_allreduce", "vayesta/ewf/ewf.py: get_dm_corr_energy_e2, get_wf_corr_energy"]}
{"id": "C16", "title": "Fragment projectors partition the amplitudes", "statement": "If the fragment projectors sum to the identity on the occupied space, then projecting T1/T2 (or C1/C2) amplitudes in one occupied index to every fragment and summing gives the original amplitudes, with and without exchange symmetrisation, in restricted and unrestricted form.", "quantifier": "every set of fragments, every dimension and all amplitudes over every commutative ring with 1/2", "why_tests_cant": "A numerical test can only sample amplitudes and dimensions.", "anchors": ["vayesta/core/types/wf/project.py: project_c1, project_c2, project_uc1, project_uc2, symmetrize_c2, symmetrize_uc2"]}
{"id": "C17", "title": "CISD <-> CCSD amplitude conversion is a bijection", "statement": "as_cisd and as_ccsd are inverse to each other for every nonzero reference weight c0: C = c0*(T1, T2 + T1T1) and back, also for unrestricted amplitudes given as (aa, ab, bb); projected doubles and a four-component (aa, ab, ba, bb) unrestricted amplitude set are not converted back correctly.", "quantifier": "all amplitudes and all c0 over every field", "why_tests_cant": "Algebraic identity for all tensors; the four-component path is not exercised by tests.", "anchors": ["vayesta/core/types/wf/cisd.py: as_ccsd", "vayesta/core/types/wf/ccsd.py: as_cisd"]}
{"id": "C18", "title": "Orbital rotation of amplitudes composes", "statement": "Rotating amplitudes by (to, tv) and then by (uo, uv) is the same as rotating once by the products, rotating by identities changes nothing, and rotating back with inverse matrices restores the amplitudes.", "quantifier": "all amplitudes, all rotations, every dimension", "why_tests_cant": "Universal algebraic law.", "anchors": ["vayesta/core/types/wf/project.py: transform_c1, transform_c2, transform_uc1, transform_uc2", "vayesta/core/types/wf/ccsd.py: rotate_ov"]}
{"id": "C19", "title": "Block contraction of two-particle density matrix and integrals equals the full contraction", "statement": "contract_dm2_eris computes sum_pqrs dm2[pqrs]*eris[pqrs] from occupied/virtual integral blocks with the block weights in the code, for every density matrix and integral tensor with the usual permutational symmetries, restricted and unrestricted.", "quantifier": "every number of occupied and virtual orbitals and all tensors with these symmetries over every commutative ring", "why_tests_cant": "A wrong weight on one block cancels in symmetric special cases; universally quantified over tensors.", "anchors": ["vayesta/core/ao2mo/helper.py: contract_dm2_eris_rhf, contract_dm2_eris_uhf"]}
{"id": "C20", "title": "Full integral array from occupied/virtual blocks", "statement": "get_full_array rebuilds every element of the full four-index array from the stored blocks: no element is left zero or undefined, each element is taken from the block that contains one of its eight symmetry-equivalent index quadruples. The mo_coeff argument of the restricted function transforms the result; the unrestricted function fails when given mo_coeff.", "quantifier": "every number of occupied and virtual orbitals, all eight-fold symmetric tensors", "why_tests_cant": "All index quadruples of all dimensions.", "anchors": ["vayesta/core/ao2mo/helper.py: get_full_array_rhf, get_full_array_uhf"]}
{"id": "C21", "title": "k-point folding and unfolding are inverse", "statement": "For every mesh (Gamma-centred or shifted, points given up to reciprocal lattice vectors) the phase factors are unitary; folding k-space matrices to the supercell and unfolding gives the original matrices, and unfolding and folding gives back every supercell matrix with the translational symmetry of the mesh; folding respects products, traces and Hermitian conjugation, gives exactly real matrices for time-reversal symmetric input, and folded orbitals are orthonormal eigenvectors in the order of the energies. The mesh guessed from the k-points is right for a product grid but not if a point is replaced by an equivalent one in another zone.", "quantifier": "every mesh, every number of orbitals, all matrices", "why_tests_cant": "Unitarity for every mesh is a statement on roots of unity; tests only use small meshes.", "anchors": ["vayesta/core/foldscf.py: get_phase, k2bvk_2d, bvk2k_2d, fold_mos, kpts_to_kmesh"]}
{"id": "C22", "title": "Momentum conservation table", "statement": "get_kconserv gives, for every triple of k-points of a regular mesh, the one k-point that conserves crystal momentum modulo reciprocal lattice vectors. For points that do not form a mesh every entry set is conserving, but an entry without conserving point is silently 0.", "quantifier": "every mesh and triple", "why_tests_cant": "All meshes.", "anchors": ["vayesta/core/ao2mo/helper.py: get_kconserv"]}
{"id": "C23", "title": "Bath natural-orbital threshold selects the right number of orbitals", "statement": "For a non-increasing list of occupations, threshold type 'occupation' keeps exactly the orbitals with occupation at or above the threshold; 'electron-percent' and 'excited-percent' keep the smallest number that reaches the requested share of electrons; 'truncation' and 'number' follow the requested size; the truncated bath never exceeds the number of orbitals (the number returned before truncation can) and unreachable targets raise an error instead of returning a wrong number. For unsorted occupations the claim fails.", "quantifier": "every list of occupations (also with small negative ones) and every threshold", "why_tests_cant": "Universally quantified over occupation lists.", "anchors": ["vayesta/core/bath/bno.py: BNO_Threshold.get_number, truncate_bno"]}
{"id": "C24", "title": "DMET bath splits the environment completely", "statement": "Every environment eigenvector is used exactly once: as bath orbital, as occupied environment or as virtual environment, according to its eigenvalue; if the tolerance is at most 1/2 the three groups are disjoint and complete, for larger tolerances the code's own consistency check fails exactly when some eigenvalue lies strictly between 1 - tolerance and the tolerance.", "quantifier": "every spectrum and tolerance", "why_tests_cant": "All eigenvalue lists including values on the boundary.", "anchors": ["vayesta/core/bath/dmet.py: make_dmet_bath"]}
{"id": "C25", "title": "Active and frozen index sets of a cluster are complementary", "statement": "The active and frozen index lists of a cluster are disjoint, together enumerate every orbital once, and select exactly the active/frozen occupied and virtual orbitals in the concatenated orbital order frozen-occ, active-occ, active-vir, frozen-vir.", "quantifier": "all numbers of active and frozen orbitals", "why_tests_cant": "All sizes incl. zero.", "anchors": ["vayesta/core/types/cluster.py: Cluster.get_active_indices, Cluster.get_frozen_indices", "vayesta/core/types/orbitals.py"]}
{"id": "C26", "title": "MP2 amplitudes, energies and bath density matrices", "statement": "The MP2 amplitudes assembled block by block are those of second-order perturbation theory, the same for every block size and memory limit, in the solver and in the bath, restricted and unrestricted. If the occupied space fits into one block, the correlation energy reported for a fragment is the projected one, and equal for restricted and closed-shell unrestricted calculations; energies of fragments that add up to the identity add up to the MP2 energy for every block size. The energy of a single fragment does depend on the block size (terms between blocks are lost). The bath density matrix is symmetric and positive, has the same trace for occupied and virtual orbitals, and is the same for restricted and closed-shell unrestricted amplitudes for every projection order.", "quantifier": "every block size and memory limit, every dimension, all orbital energies and integrals, every set of fragments", "why_tests_cant": "Only shows up when memory forces more than one block, which no test triggers.", "anchors": ["vayesta/core/bath/bno.py: MP2_BNO_Bath._make_t2, _project_t2, make_delta_dm1", "vayesta/solver/mp2.py: RMP2_Solver.make_t2, UMP2_Solver.make_t2"]}
{"id": "C27", "title": "Hubbard models: hopping matrix is symmetric and translationally invariant", "statement": "For every lattice size, boundary condition and hopping the one-electron matrix of Hubbard1D/Hubbard2D is symmetric, has exactly the nearest-neighbour structure with the boundary phase on wrapped bonds, and commutes with lattice translations. Exceptions: the antiperiodic chain of two sites; on a non-square lattice the hopping does not connect neighbours according to the reported site positions.", "quantifier": "every lattice size and boundary condition", "why_tests_cant": "Edge cases at size 1 and 2 and odd/even boundaries; all sizes.", "anchors": ["vayesta/lattmod/latt.py: Hubbard1D, Hubbard2D"]}
{"id": "C28", "title": "Hubbard2D tiling is a permutation of the sites", "statement": "get_tiles_order returns every site exactly once, tile after tile, for all lattice and tile sizes for which the tile divides the lattice, and it is rejected otherwise; the reordered hopping matrix is the original one permuted. On a non-square lattice the sites of a tile need not be neighbours.", "quantifier": "every lattice and tile size", "why_tests_cant": "All sizes.", "anchors": ["vayesta/lattmod/latt.py: Hubbard2D.get_tiles_order"]}
{"id": "C29", "title": "Chemical potential search only reports convergence inside the tolerance", "statement": "If ChempotBisection.kernel returns with converged set during this call, then the error function at the returned chemical potential is within tolerance, or the bracketing root finder reported success on a bracket with a sign change; if no bracket is found it raises ValueError. A second call on the same object can report converged from the first call.", "quantifier": "every error function, tolerance and history of calls", "why_tests_cant": "Behaviour over arbitrary functions and repeated use.", "anchors": ["vayesta/misc/cptbisect.py: ChempotBisection"]}
{"id": "C30", "title": "Fragment chemical potential in the solver", "statement": "The chemical potential optimisation of a cluster solver returns only with an electron-number error below atol + rtol*nelectron, otherwise it raises RuntimeError or ConvergenceError, and leaves the external potential of the Hamiltonian as it was, whatever happens in between. The cached error of the start guess is only correct when the start guess is zero, and a doubled interval can move away from the root.", "quantifier": "every electron-number function, tolerance, guess and failure of the inner solver", "why_tests_cant": "Depends on arbitrary response functions and failures.", "anchors": ["vayesta/solver/solver.py: ClusterSolver.optimize_cpt, ClusterSolver.calc_v_ext, UClusterSolver.calc_v_ext"]}
{"id": "C31", "title": "Self-consistent mean-field loop bookkeeping", "statement": "In the first run of SCMF.kernel the list of energies has one entry per iteration, the number of iterations never exceeds maxiter, convergence is reported only if the convergence test passed in the last iteration, and the mean-field of iteration n is the update computed in iteration n-1. A second run keeps the energies and the convergence mark of the first; the reported final energy belongs to the mean-field before the last update; maxiter=0 fails.", "quantifier": "every sequence of energies/density matrices and every maxiter", "why_tests_cant": "All histories.", "anchors": ["vayesta/core/scmf/scmf.py: SCMF.kernel, SCMF.check_convergence"]}
{"id": "C32", "title": "Log indentation is restored", "statement": "After a `with log.indent()` block, or a function decorated with it, the indentation level is what it was before, also when an exception leaves the block. (Fails when one decorated function calls itself: the saved level is overwritten.)", "quantifier": "every nesting and exit path", "why_tests_cant": "Nesting and recursion depth.", "anchors": ["vayesta/core/vlog.py: VLogger.indent, changeIndentLevel"]}
{"id": "C33", "title": "DIIS/mixing parameter flattening round trip", "statement": "Flattening a nested list of arrays to a vector and unflattening the vector with the recorded shapes returns the nested list, so mixing acts element-wise on every array: alpha times the new input plus (1 - alpha) times the previous input. The first update is scaled by alpha (nothing to mix with), the shapes of the first update are used for ever, scalars and empty lists are not supported.", "quantifier": "every nesting depth, list length and array shape", "why_tests_cant": "Nesting unbounded.", "anchors": ["vayesta/dmet/updates.py: Update._flatten_params, Update._unflatten_params, MixUpdate.update"]}
{"id": "C34", "title": "Democratic partitioning of density matrices", "statement": "If the fragment projectors sum to one and every cluster spans all orbitals and holds the exact density matrices, the democratically partitioned one- and two-particle density matrices (restricted and unrestricted) equal the exact ones for every combination of options (mean-field part, one-particle part, partitioning by cumulant, approximate or exact cumulant, symmetrisation). For any fragments and clusters, symmetrised results are symmetric, except the opposite-spin two-particle part which is never symmetrised; and the energy from the one- and two-particle density matrices equals the energy from the Fock matrix and cumulant, for both the approximate and the exact cumulant. The two formulas documented for the literature DMET energy do not agree with each other.", "quantifier": "every set of fragments, clusters, density matrices and integrals, all options", "why_tests_cant": "Algebraic identity over all inputs and option combinations; tests compare single molecules to stored numbers.", "anchors": ["vayesta/core/qemb/rdm.py: make_rdm1_demo_rhf, make_rdm1_demo_uhf, make_rdm2_demo_rhf, make_rdm2_demo_uhf"]}
{"id": "C35", "title": "Fragment correlation energies add up to the energy of the whole amplitudes", "statement": "If the fragment projectors, weighted and including the symmetry images that are not calculated, sum to one and every cluster spans the system, then the sum of the fragment correlation energies (restricted and unrestricted), each counted with its symmetry factor, equals the correlation energy of the full amplitudes; the energy does not depend on whether projected amplitudes are stored in the fragment or (restricted) the cluster basis, nor on padding rows and columns of the amplitude arrays. Exceptions, shown as such: the unrestricted energy cannot be evaluated from cluster-basis amplitudes with singles, passing the beta-alpha amplitudes in 'ab' order is wrong whenever fragment and cluster dimensions differ, and after absorbing another fragment the stored projector no longer fits the fragment.", "quantifier": "all fragmentations, amplitudes, integrals and Fock matrices of any dimensions, all symmetry factors, all paddings", "why_tests_cant": "Tests compare the total energy of a few molecules to recorded numbers; that the projections sum up for every fragmentation and every amplitude is an identity over all tensors.", "anchors": ["vayesta/ewf/fragment.py: get_fragment_energy", "vayesta/ewf/ufragment.py: get_fragment_energy", "vayesta/ewf/ewf.py: get_wf_corr_energy, get_proj_corr_energy"]}
{"id": "C36", "title": "Effective one-electron Hamiltonian reproduces the Fock matrix", "statement": "Within a cluster, the effective one-electron Hamiltonian plus the mean-field potential of the active electrons, built from the interaction handed to the solver (bare or screened), gives back the cluster Fock matrix, with and without external potential, exxdiv and match_fock, in restricted and unrestricted form; for a closed shell both forms agree unless screening is combined with match_fock. The mean-field objects passed to solvers have the same property, except: with screening and match_fock a restricted cluster hands out a Fock matrix (get_dummy_eri_object, overwrite_fock) or a Hamiltonian (force_bare_eris) that does not fit to the other integrals, and an unrestricted cluster ignores match_fock.", "quantifier": "all cluster sizes, occupations, integrals, potentials and options", "why_tests_cant": "Universal linear-algebra identity.", "anchors": ["vayesta/solver/hamiltonian.py: RClusterHamiltonian.get_heff, get_fock, get_integrals, to_pyscf_mf, get_dummy_eri_object", "vayesta/solver/hamiltonian.py: UClusterHamiltonian.get_heff, get_fock"]}
{"id": "C37", "title": "Atom and AO reorderings of symmetry operations are inverse permutations", "statement": "For every symmetry operation accepted for a molecule the atom reorder list and its inverse are mutually inverse permutations, the AO reorder list permutes AOs within atom blocks accordingly, and applying the operation and its inverse to AO coefficients returns the input; an operation that maps some atom to no atom is rejected, one that maps two atoms to the same atom fails with an assertion.", "quantifier": "every molecule and operation", "why_tests_cant": "All geometries.", "anchors": ["vayesta/core/symmetry/operation.py", "vayesta/core/symmetry/tsymmetry.py: reorder_atoms, reorder_atoms2aos"]}
{"id": "C38", "title": "Translation operators form a group action", "statement": "Translation vectors enumerated for a cell subdivision contain each non-zero translation once; translating by all of them maps every site orbit onto the supercell exactly once; composition and inverses of translations act on orbitals as the sums and negatives of vectors. The positions must be wrapped inside of the cell, and subdivisions given as translation vectors are only found when lengths are whole numbers of Bohr.", "quantifier": "every mesh", "why_tests_cant": "All meshes.", "anchors": ["vayesta/core/symmetry/tsymmetry.py: loop_tvecs, tsymmetric_atoms", "vayesta/core/fragmentation"]}
{"id": "C39", "title": "Fragmentation contexts: symmetric copies are created once and only on success", "statement": "Fragments added inside a rotational/translational/inversion/mirror symmetry context get their symmetric copies when the context is left, every registered fragment exactly once. If the body raises, the fragments stay without copies and a failed secondary context blocks later symmetry contexts; nested equal symmetries create the same fragment twice; entering the fragmentation twice adds fragments again.", "quantifier": "every sequence of additions, contexts and exceptions", "why_tests_cant": "History dependent.", "anchors": ["vayesta/core/fragmentation/fragmentation.py: rotational_symmetry, inversion_symmetry, mirror_symmetry, _create_fragment"]}
{"id": "C40", "title": "Auxiliary (secondary) fragments cancel", "statement": "Inside the secondary_fragments context each primary fragment gets a plus and a minus copy with weights +f and -f, so the sum of all weights per fragment stays one for all thresholds. (Factor 0 gives the minus copy weight -1.)", "quantifier": "every number of fragments, thresholds and weights", "why_tests_cant": "History and combination dependent.", "anchors": ["vayesta/core/fragmentation/fragmentation.py: secondary_fragments"]}
{"id": "C41", "title": "Fragment and environment orbitals partition the fragmentation basis", "statement": "For each fragment the fragment coefficient and the environment coefficient select complementary columns of the fragmentation orbitals: every column is in exactly one of them, in order, unless an orbital is asked for twice (then it is duplicated); the fragments of all atoms contain every orbital exactly once.", "quantifier": "every index list and number of orbitals", "why_tests_cant": "All index lists.", "anchors": ["vayesta/core/fragmentation/fragmentation.py: get_frag_coeff, get_env_coeff, get_atomic_fragment_indices"]}
{"id": "C42", "title": "Solver selection", "statement": "The solver class chosen for a solver name depends only on name, spin symmetry and presence of bosons; a solver class of the right spin symmetry and boson support is returned or an error raised. (Every name containing 'CC' passes the check, whether or not such an ansatz exists.)", "quantifier": "every solver name and Hamiltonian type", "why_tests_cant": "String space is unbounded.", "anchors": ["vayesta/solver/__init__.py: get_solver_class, check_solver_config"]}
{"id": "C43", "title": "Correlation functions: projectors, sum rules and embedding", "statement": "Charge-charge and spin-spin correlation functions equal the unprojected ones when the projectors are the identity, are additive in each projector, are the expectation values of the products of the projected number (spin) operators, and the mean-field versions agree with the general formula evaluated with the mean-field (product) two-particle density matrix; the restricted spin function equals the unrestricted one for singlets. For states of N particles the fluctuations of all charges against the total charge vanish and the total charge correlation is N^2; for singlets so do those of spins. get_corrfunc of an embedding equals the plain function of its one-particle density matrix and of the two-particle matrix assembled from products and the cumulant (given, or summed over fragments and symmetry children); whether a given two-particle matrix already contains the products is recognised correctly for every N > 1 state. Exceptions, shown as such: the mean-field charge function without projectors agrees with identity projectors only for idempotent density matrices; the unrestricted spin function with a two-particle matrix but without projectors raises; a second projector without a first one is ignored; one-particle states are not recognised.", "quantifier": "all density matrices, cumulants, fragments, symmetry children, projectors, dimensions and electron numbers", "why_tests_cant": "Tests compare a few molecules with stored numbers; the identities hold for all tensors and all fragmentations.", "anchors": ["vayesta/misc/corrfunc.py: chargecharge, spinspin_z, spin_z, chargecharge_mf, spinspin_z_mf", "vayesta/core/qemb/corrfunc.py: get_corrfunc_mf, get_corrfunc, get_corrfunc_unrestricted"]}
{"id": "C44", "title": "Density matrix from amplitudes: electron count and symmetry", "statement": "One-particle density matrices from MP2 and CCSD amplitudes (restricted, and unrestricted CCSD) are symmetric for all amplitudes, have the mean-field electron count as trace, and the occupied block loses exactly the electrons the virtual block gains; for MP2 this needs amplitudes symmetric under simultaneous exchange of both index pairs and fails for projected ones.", "quantifier": "all amplitudes over every commutative ring", "why_tests_cant": "Universal identity.", "anchors": ["vayesta/core/types/wf/mp2.py: make_rdm1", "vayesta/core/types/wf/ccsd.py"]}
{"id": "C45", "title": "Full two-particle density matrix from the cumulant", "statement": "For CCSD, MP2 and stored density matrices, restricted and unrestricted, the full two-particle density matrix is the exact cumulant plus the antisymmetrised product of the full one-particle density matrix, and the approximate cumulant the exact one plus the product of the correlation parts; adding and removing the non-cumulant part are inverse operations, the matrix of a mean-field state has exactly the product form, and restricted and unrestricted product forms agree after summing over spin.", "quantifier": "all density matrices", "why_tests_cant": "Universal identity.", "anchors": ["vayesta/core/types/wf/mp2.py: make_rdm2", "vayesta/core/types/wf/rdm.py"]}
{"id": "C46", "title": "Counterpoise ghost atoms", "statement": "The counterpoise molecule contains the atom itself and, as ghosts and each once, exactly the other atoms of the cell and the neighbouring cells in periodic directions whose distance is within the radius. The documented units 'a1', 'a2', 'a3' should measure in the first, second, third lattice vector, but the code uses the next vector and fails for 'a3'.", "quantifier": "every set of atoms, lattice, radius and number of images", "why_tests_cant": "Only visible with anisotropic cells; not tested.", "anchors": ["vayesta/misc/counterpoise.py: make_cp_mol"]}
{"id": "C47", "title": "DMET bracket search moves towards the root", "statement": "The bracket search for the global chemical potential moves the trial value away from the start in the direction that reduces the electron error, doubling the distance on each attempt, and gives up after ten attempts; every bracket handed to the root finder has errors of opposite sign (or zero) at its ends, whatever solver failures occur, and for a monotone error function without failures the bracket is found whenever the sign changes within 102.4. Recovery from a solver failure should keep the direction, but the code flips it; giving up is silent.", "quantifier": "every error function and every failure pattern", "why_tests_cant": "Failure patterns are not reproducible in tests.", "anchors": ["vayesta/dmet/dmet.py: DMET.kernel"]}
{"id": "C48", "title": "Callback solver picks a wave function from the callback results", "statement": "The wave-function type built from a callback depends on the keys returned in fixed priority (CI vector, T amplitudes, C amplitudes, density matrices); without any of them the result should have no wave function, but the code fails with an unbound variable.", "quantifier": "every set of returned keys", "why_tests_cant": "All key sets.", "anchors": ["vayesta/solver/callback.py: CallbackSolver.kernel"]}
{"id": "C50", "title": "Indented log records keep every line of the message", "statement": "The formatted log record consists of the message lines in order, each with the same prefix and indentation in front, so different messages give different records for the same level and indentation.", "quantifier": "every message (any number of lines), indentation and prefix", "why_tests_cant": "All messages and levels.", "anchors": ["vayesta/core/vlog.py: VFormatter.format"]}
{"id": "C51", "title": "Polaritonic shift leaves the physics unchanged", "statement": "Shifting the bosons of an electron-boson cluster (polaritonic shift) changes couplings, one-electron Hamiltonian and bosons such that every state with the right number of electrons keeps its energy up to the constant sum of w s^2, the mean field no longer displaces any boson, the reported energy change is that of the relaxed mean-field state, and the correction of the electron-boson density matrix undoes the displacement; for restricted and unrestricted clusters.", "quantifier": "all numbers of orbitals, electrons and bosons, all frequencies, couplings, Hamiltonians and (correlated) states", "why_tests_cant": "A test checks the energy of one solver state; the invariance is a statement about every state and every set of couplings.", "anchors": ["vayesta/solver/hamiltonian.py: EB_RClusterHamiltonian.set_polaritonic_shift, get_polaritonic_fock_shift, get_polaritonic_shifted_couplings, get_eb_dm_polaritonic_shift", "vayesta/solver/hamiltonian.py: EB_UClusterHamiltonian"]}
{"id": "C52", "title": "Dummy orbitals do not change the cluster Hamiltonian", "statement": "If a cluster has different numbers of alpha and beta orbitals, the mean-field object handed to a solver pads the smaller spin channel with dummy orbitals: all integrals, energies and occupations between real orbitals are unchanged, dummy orbitals are empty, have no matrix element with and no interaction with any orbital, lie above all orbitals of both spins, and exactly they are listed as frozen; the energy of every state is that of its part in the real orbitals plus the dummy energy per electron in dummy orbitals. A cluster without any orbital of one spin is not accepted.", "quantifier": "all numbers of alpha and beta orbitals, all integrals, orbital energies, occupations and density matrices", "why_tests_cant": "Tests use one or two molecules with one particular imbalance; index errors in the padding of the mixed-spin integrals only show for particular shapes.", "anchors": ["vayesta/solver/hamiltonian.py: RClusterHamiltonian.to_pyscf_mf (pad_to_match)"]}
{"id": "C53", "title": "Compressed density-fitting integrals", "statement": "Compressing the three-centre integrals of a cluster by singular value decomposition changes no two-electron integral if only zero singular values are dropped and otherwise no integral by more than the square of the threshold (twice that with a negative part), and never increases the number of vectors. This holds for restricted clusters and the alpha-alpha integrals of unrestricted clusters; in unrestricted clusters the beta vectors are replaced by the alpha vectors, and the vectors of the negative part lose their common auxiliary index, so that beta-beta and alpha-beta integrals become wrong.", "quantifier": "all numbers of auxiliary functions and orbital pairs, all integrals, every valid singular value decomposition, every threshold", "why_tests_cant": "No test uses the option for unrestricted clusters; an error bound for every integral cannot be established by examples.", "anchors": ["vayesta/solver/hamiltonian.py: RClusterHamiltonian.get_cderi_bare, UClusterHamiltonian.get_cderi_bare", "vayesta/solver/mp2.py: compress_cderi option"]}
{"id": "C54", "title": "Integral blocks do not depend on the cache", "statement": "Requesting a block of two-electron integrals of a cluster gives the same integrals whether it is cut from cached integrals or calculated directly, for every spin-paired block, including the blocks with beta orbitals first, which are taken from the stored alpha-beta integrals by reversing the indices. Blocks mixing spins within a pair (such as oVoV) are accepted but differ.", "quantifier": "all numbers of occupied and virtual orbitals, all real integrals, all blocks", "why_tests_cant": "Whether the cache is filled depends on options and on the order of calls; a test sees one order and a few blocks.", "anchors": ["vayesta/solver/hamiltonian.py: RClusterHamiltonian.get_eris_bare, _get_eris_block", "vayesta/solver/hamiltonian.py: UClusterHamiltonian.get_eris_bare, _get_eris_block"]}
{"id": "C55", "title": "The DMET energy is the energy of the democratically partitioned density matrices", "statement": "For every embedding whose fragment orbitals are an orthonormal basis, whose clusters contain their fragment orbitals with occupied and virtual parts separated, and with unit sym_factor, get_dmet_elec_energy(part_cumulant, approx_cumulant) equals h\u00b7dm1 + (1/2) g\u00b7dm2 with dm1 = make_rdm1_demo and dm2 = make_rdm2_demo(part_cumulant, approx_cumulant) of the same embedding, for all three variants (literature DMET partitioning, partitioned approximate cumulant, partitioned exact cumulant), symmetrised or not, restricted and unrestricted; fragments with symmetry children, counted once with their symmetry factor, give the same energy as all fragments treated explicitly. The user option sym_factor is not an equivalent of symmetry children: it scales the fragment energies but not the density matrix in the mean-field part of the cumulant variants.", "quantifier": "all numbers of orbitals and fragments, all real integrals with the permutation symmetry of real orbitals, all cluster density matrices, all orthogonal symmetry operations under which the Hamiltonian is invariant", "why_tests_cant": "Tests compare a few molecules against stored numbers; the identity between fragment-wise energies and a global density-matrix expectation value involves arbitrary integrals, cluster overlaps and symmetry operations.", "anchors": ["vayesta/core/qemb/qemb.py:get_dmet_elec_energy", "vayesta/core/qemb/fragment.py:get_fragment_dmet_energy", "vayesta/core/qemb/ufragment.py:get_fragment_dmet_energy", "vayesta/core/qemb/rdm.py:make_rdm1_demo_rhf", "vayesta/core/qemb/rdm.py:make_rdm2_demo_rhf"]}
{"id": "C56", "title": "Global amplitudes of an embedding", "statement": "The global T and Lambda amplitudes (get_global_t1/t2/l1/l2, restricted) have the exchange symmetry T2[ijab] = T2[jiba], do not depend on the order of the fragments, and are invariant under the symmetry operations that generate fragment copies; if every cluster spans the whole space and the fragments resolve the occupied space, they are exactly the amplitudes of the whole system. The Lambda amplitudes are an error exactly if a fragment has none and does not use its T amplitudes instead. For two-body properties MP2 fragments count twice in T2 and not at all in T1 and Lambda.", "quantifier": "all fragmentations, clusters, amplitudes, symmetry operations and dimensions", "why_tests_cant": "Tests compare sums over one fragmentation with stored numbers; the statements hold for all tensors and all overlapping clusters.", "anchors": ["vayesta/ewf/amplitudes.py: get_global_t1_rhf, get_global_t2_rhf", "vayesta/ewf/ewf.py: get_global_l1, get_global_l2"]}
{"id": "C57", "title": "The fast global density matrix is that of the global wave function", "statement": "The one-particle density matrix of the global wave function computed by pairs of clusters (the default) equals the one computed from the global amplitudes (slow=True), with and without singles, with and without use of symmetry, with early or late symmetrisation of the amplitudes, with and without singular value decomposition of the overlaps, whenever only pairs without overlap are skipped and the decomposition is exact; it is symmetric and has the right number of electrons, and equals the CCSD density matrix of the whole system if every cluster spans it. Exception, shown as such: the option t_as_lambda of a single fragment is honoured by the slow but not by the fast algorithm, which then returns another matrix or raises.", "quantifier": "all fragmentations, clusters, amplitudes, symmetry operations, options and dimensions", "why_tests_cant": "Tests compare both algorithms for two or three molecules; the identity of about thirty tensor contractions with the global formula has to hold for all clusters and amplitudes.", "anchors": ["vayesta/ewf/rdm.py: make_rdm1_ccsd_global_wf", "vayesta/ewf/ewf.py: _make_rdm1_ccsd_global_wf"]}
{"id": "C58", "title": "Electron number of density matrices assembled from fragments", "statement": "The one-particle density matrices assembled from the partitioned wave functions of the fragments (make_rdm1_ccsd, CCSD and MP2, symmetrised or not) and from projected Lambda amplitudes (make_rdm1_ccsd_proj_lambda) are symmetric, and their trace is exactly the number of electrons (zero without the mean-field part), for every truncation of the clusters and any amplitudes, as long as the orbitals of each cluster are orthonormal. They fail exactly if a fragment lacks Lambda amplitudes that are needed; an option t_as_lambda of the fragment does not help for the doubles.", "quantifier": "all fragmentations, truncated clusters, amplitudes, symmetry copies, options and dimensions", "why_tests_cant": "Tests compare traces and single elements for a few molecules; conservation of the electron number for arbitrary truncation is an algebraic identity.", "anchors": ["vayesta/ewf/rdm.py: make_rdm1_ccsd, make_rdm1_ccsd_proj_lambda", "vayesta/ewf/fragment.py: make_fragment_dm1, _get_projected_gamma1_intermediates"]}
{"id": "C59", "title": "Density matrices assembled from fragments are exact for a full bath", "statement": "If every cluster spans the whole space, the fragments resolve the occupied space and the amplitudes of every cluster are those of the system (in its own orbital basis), then the density matrices assembled from partitioned wave functions and from projected Lambda amplitudes are the CCSD (or, with mp2=True, MP2) one-particle density matrix of the whole system, for all options. Exception, shown as such: for truncated clusters the result depends on the option symmetrize.", "quantifier": "all fragmentations, orbital bases of the clusters, amplitudes, symmetry copies, options and dimensions", "why_tests_cant": "Tests check the limit for one small molecule up to a threshold; the contractions have to agree for all tensors and all rotations of the cluster orbitals.", "anchors": ["vayesta/ewf/rdm.py: make_rdm1_ccsd, make_rdm1_ccsd_proj_lambda", "vayesta/ewf/fragment.py: make_fragment_dm1, _ccsd_amplitudes_for_dm"]}
{"id": "C60", "title": "Two-particle density matrices of coupled cluster wave functions", "statement": "For every CCSD wave function (any t and Lambda amplitudes with the usual permutation symmetry) the two-particle density matrix returned by make_rdm2 contracts to (N-1) times the one-particle matrix returned by make_rdm1, counts N(N-1) electron pairs, satisfies the singlet condition on the exchange trace, is symmetric under exchange of the electrons and under transposition of both pairs; its cumulant traces to dm1^2/2 - dm1. Spin by spin the same holds for unrestricted wave functions, whose same-spin blocks are antisymmetric; a closed shell treated with unrestricted amplitudes gives the same total matrix. With two electrons the matrix is the exact one of the left and right coupled cluster states. For amplitudes projected onto a fragment the trace relation fails.", "quantifier": "all amplitudes, all numbers of occupied and virtual orbitals of each spin, all rings containing one half, all initial contents of output buffers", "why_tests_cant": "Tests compare numbers of one molecule up to a threshold; the relations are identities between several hundred contractions that must hold for all tensors, including those not solving the amplitude equations.", "anchors": ["vayesta/core/types/wf/ccsd.py: make_rdm2", "vayesta/core/vpyscf/ccsd_rdm.py: _gamma2_intermediates, make_rdm2", "vayesta/core/vpyscf/uccsd_rdm.py: _gamma2_intermediates, make_rdm2"]}
{"id": "C61", "title": "Two-particle density matrices assembled from fragments", "statement": "The two-particle density matrix assembled from the projected amplitudes of single clusters (a) equals the CCSD two-particle matrix of the system when every cluster is the whole system, for every setting of the symmetrisation and cumulant options; (b) for any truncated clusters of CCSD fragments with orthonormal orbitals has, together with the one-particle matrix of the same amplitudes, the exact partial traces (N-1) dm1 and exchange traces when the amplitudes are symmetrised, and always the exact number of pairs N(N-1); (c) is symmetric under exchange of the electrons and under transposition; (d) for MP2 fragments equals the matrix of the global wave function; (e) is returned or refused exactly according to the documented options and the amplitudes available. Refuted: the number of pairs with the default one-particle matrix (of the global wave function); partial traces without symmetrised amplitudes or with the non-approximate cumulant; exchange symmetry of unsymmetrised MP2 fragments (sym_dm2 has no effect); agreement of both MP2 algorithms with t_as_lambda=True.", "quantifier": "all fragments, clusters, amplitudes, symmetry copies, options and sizes over any commutative ring with 1/2", "why_tests_cant": "tests compare a few molecules with full baths or stored numbers; the sum rules for truncated clusters concern every choice of cluster orbitals and amplitudes", "anchors": ["vayesta/ewf/rdm.py:469-576", "vayesta/ewf/fragment.py:411-494"]}
{"id": "C62", "title": "Correlation energy from two-particle matrices of fragments", "statement": "The energy a fragment contributes through its two-particle cumulant is half the contraction of that matrix with the integrals of its cluster, however the contraction is organised (from intermediates or from the full matrix) and independent of symmetrisation of the matrix. Summed over fragments, their copies and the MPI ranks it is half the contraction of the assembled matrix of the system with the integrals of the system. With full clusters both available functionals (projected and global) give the same energy, that of the CCSD matrix of the system. Refuted: use of the stored energies when the option t_as_lambda is set (they were computed without it); the energy of the global matrix with more than one MPI rank (multiplied by the number of ranks). approx_cumulant=2 silently gives the energy of approx_cumulant=1.", "quantifier": "all fragments, clusters, amplitudes, integrals with eight-fold symmetry, storage formats, copies, distributions over ranks", "why_tests_cant": "tests compare total energies of a few molecules, on one rank, with default options", "anchors": ["vayesta/ewf/fragment.py:503-533", "vayesta/ewf/ewf.py:397-425", "vayesta/mpi/interface.py:150-164"]}
{"id": "C63", "title": "Cluster amplitudes from configuration-interaction coefficients", "statement": "Converting a CISDTQ wave function c0*exp(T) (restricted or unrestricted) to CCSDTQ amplitudes gives back the amplitudes T of every rank and spin block, whatever the normalisation c0 is; the singles and doubles agree with those of the CISD to CCSD conversion; converting back to CISD with c0=1 gives the coefficients divided by c0. Refuted: as_cisd of the CCSDTQ wave function ignores the normalisation it is asked for.", "quantifier": "all antisymmetric spin-conserving amplitudes up to quadruples (unrestricted), all closed-shell amplitudes (restricted), all orbitals, all normalisations c0 <> 0, any field", "why_tests_cant": "the conversions have hundreds of signed permuted products; tests compare a handful of small molecules where many blocks vanish by symmetry", "anchors": ["vayesta/core/types/wf/cisdtq.py:24-64", "vayesta/core/types/wf/ccsdtq.py:27-36", "vayesta/core/types/wf/t_to_c.py"]}
{"id": "C64", "title": "Excitation coefficients read off an FCI vector", "statement": "Every block of the CISD and CISDTQ wave functions extracted from an FCI vector (spins aa, ab, bb, aaa, aba, ..., bbbb) holds, at every index (in any order, with equal indices too), the coefficient of exactly that excitation, with the sign of the order of its orbitals, times the normalisation asked for. For an FCI vector equal to c*exp(T) of the reference the CCSDTQ amplitudes extracted are T; for a closed shell the restricted and the unrestricted extraction agree.", "quantifier": "all FCI vectors, all orbitals and orders of indices, all normalisations, all conventions for the phases of strings that fulfil the contract of tn_addrs_signs", "why_tests_cant": "tests compare energies after the conversion for few systems; an exchanged axis or a wrong sign of a single block is invisible when the block is small or symmetric", "anchors": ["vayesta/core/types/wf/fci.py:124-228", "vayesta/core/types/wf/fci.py:326-487", "vayesta/core/util.py:144-249"]}
{"id": "C65", "title": "Tailoring replaces the CCSD amplitudes by those of other fragments, and uses every correction that was asked for", "statement": "Restricted and unrestricted. Without projection, when the other fragments' orbitals lie in the cluster and different fragments have no common space, the callback leaves amplitudes whose T1 and T2, seen in the orbitals of every fragment, are exactly those of that fragment; applying it again changes nothing. If the amplitudes already agree with those of all fragments nothing changes, whatever the projection and however the fragments overlap. With one projector, fragments that contain the cluster and projectors that add up to one, the result is the sum of the fragments' projected amplitudes (symmetrised over the two electrons, for opposite spins averaged over the alpha and beta projector), independent of what the amplitudes were; with two projectors exactly the part with both occupied indices in one fragment is replaced. T2 keeps its pair symmetry, equal-spin T2 its antisymmetry, closed-shell data give the same in the unrestricted as in the restricted code, fragments without overlap, or with all overlaps below the threshold, make no difference, and CAS-tailored CCSD is the case of one fragment without projection. After any sequence of add_external_corrections and clear_external_corrections the fragment holds exactly what the successful calls since the last clear asked for; the solver uses all of it or raises NotImplementedError, the latter exactly when tailoring is mixed with another kind or with different numbers of projectors. Findings: project=3 (documented) always raises; switching off T1 or T2 always raises; fragments sharing a space are counted twice without projection; test_extcorr is reset by a later call.", "quantifier": "every number of orbitals in every cluster, every list of fragments, all overlaps, amplitudes and thresholds in an ordered commutative ring with one half; every sequence of calls", "why_tests_cant": "tests run tailoring on one or two molecules with one projector setting and compare the energy; they cannot decide for which overlaps the amplitudes are replaced, nor that no correction is lost in some sequence of calls", "anchors": ["vayesta/solver/coupling.py:148-257", "vayesta/solver/coupling.py:55-88", "vayesta/solver/tccsd.py:44-60", "vayesta/solver/ext_ccsd.py:17-38", "vayesta/ewf/fragment.py:136-186"]}
{"id": "C66", "title": "External correction adds exactly the T3 and T4 terms of the coupled-cluster equations", "statement": "The amplitudes that externally_correct adds after every CCSD iteration are the difference between the singles and doubles equations with and without the triple and quadruple amplitudes of the correcting wave function, divided by the orbital energy differences: for one unprojected correction from a fragment with the same cluster, and for any number of corrections projected onto fragments that together cover the occupied space. Hence amplitudes that solve the full equations do not change under an iteration followed by the correction. A correction of type delta-tailor takes CCSD amplitudes T to the amplitudes W whenever all fragments have W as wave function and T as their CCSD solution. The spin blocks keep their symmetries; evaluating the T3 integrals at low level instead gives the same result when the clusters and integrals agree; the order of corrections of one kind does not matter. (Corrections of type external and delta-tailor together do depend on the order: only the last one decides about the division by the denominators.)", "quantifier": "all T1..T4 amplitudes with the antisymmetry and spin symmetry of a wave function, all real integrals and Fock matrices, all numbers of orbitals of both spins, all lists of fragments, restricted and unrestricted, over any field in which 2 is invertible", "why_tests_cant": "tests compare energies of a few small systems; a wrong factor of one of some eighty contractions contributes little to the energy, and whether a fixed point is exact cannot be seen from converged numbers", "anchors": ["vayesta/solver/ccsdtq.py:6-320", "vayesta/solver/coupling.py:268-513", "vayesta/solver/coupling.py:516-699", "vayesta/solver/ext_ccsd.py:17-51"]}
{"id": "C67", "title": "The self-energy put together from the clusters is that of the system", "statement": "With one projector: if every cluster spans the whole system and has the self-energy moments, static self-energy and static potential of one system, and the fragments add up to the whole space, then make_self_energy_moments returns exactly the moments, static self-energy and potential of that system, for every order and however the clusters are rotated. For any fragments the results are symmetric, and the trace of each is the sum over the fragments of what their cluster has in the fragment. With symmetry, looping over the parents and adding the children gives what looping over all fragments gives, for one and two projectors. The poles of make_self_energy_1proj, with singular values or eigenvalues, have exactly the moments of make_self_energy_moments before degenerate poles are joined, with vanishing imaginary part; its assertion of at most two kept values per pole never fails; joining degenerate poles keeps every order of moments if degenerate energies are equal and no weight is negative, and keeps order zero in any case without negative weights; the groups are the runs of neighbouring energies within the tolerance of their first. Findings: with two projectors the moments carry an extra factor of one half, compared with make_self_energy_2proj and with the trace of one projector; drop_non_causal makes no difference, as negative weights are lost either way; energies are grouped without having been sorted; any other number of projectors returns zero without an error.", "quantifier": "every number of orbitals, fragments, poles and orders, all overlaps and couplings in an ordered commutative ring, every decomposition that SVD, eigh and square root can return", "why_tests_cant": "tests run a Hubbard chain with a few fragments and compare numbers to stored ones; they cannot show that the moments are right for all clusters, or that no pole is lost for some degeneracy", "anchors": ["vayesta/core/qemb/self_energy.py:12-112", "vayesta/core/qemb/self_energy.py:114-256", "vayesta/core/qemb/self_energy.py:259-352", "vayesta/core/qemb/self_energy.py:354-404"]}
{"id": "C68", "title": "Exact diagonalisation with bosons: Hamiltonian, density matrices and response moments belong together", "statement": "For any numbers of orbitals, electrons of each spin and bosons with any cutoff, the operator that the Davidson solver of the electron-boson FCI is given is Hermitian, restricted and unrestricted, whenever the integrals have the symmetry of a real Hamiltonian, and its expectation value is the trace of the Hamiltonian with the density matrices returned by make_rdm12 (make_rdm12s) plus the boson terms. The one-body density matrices of all routines agree, are symmetric and have the number of electrons as trace; the partial trace of the two-body one is N-1 times the one-body one; the spin-orbital density matrices change sign when creators or annihilators are exchanged and add up to the spin-summed ones. Creation and annihilation of bosons give the number operator and commute to one below the cutoff; the diagonal and the preconditioner of the bosons agree with the operator; without bosons or with cutoff zero they contribute nothing. make_eb_rdm has the boson displacement times the number of electrons as trace. The response moments are the matrix elements of powers of H - E, less the product of density matrices for the zeroth, are symmetric, transform with the orbital coefficients, and vanish when traced over a pair of indices for an eigenvector. Findings: with adj_zero_pho=True (not the default) the coupling to the total density is not removed but changes its sign; the restricted make_dd_moms uses half of the spin-summed density matrix for each spin, so that the zeroth moments of an open shell are wrong.", "quantifier": "all numbers of orbitals, strings, bosons, cutoffs and moments, all vectors and integrals in a commutative ring; link tables proved for all numbers of orbitals and electrons", "why_tests_cant": "tests compare energies and a few moments of small Hubbard-Holstein chains with stored numbers; whether density matrices, moments and operator agree for every system and cutoff is not visible from them", "anchors": ["vayesta/solver/eb_fci/ebfci_slow.py:15-245", "vayesta/solver/eb_fci/ebfci_slow.py:306-350", "vayesta/solver/eb_fci/ebfci_slow.py:416-696", "vayesta/solver/eb_fci/uebfci_slow.py:67-102", "vayesta/solver/eb_fci/uebfci_slow.py:421-527", "vayesta/solver/eb_fci/ebfci.py:44-113"]}
{"id": "C69", "title": "Dense RPA: the solution satisfies the RPA equations, and moments and energy follow from it", "statement": "For every molecule, restricted or unrestricted, with or without a projection of the excitation space (ov_rot) and with or without an exchange-correlation kernel, the frequencies and vectors left by kernel() of ssRPA, ssURPA and RPA solve (A-B)(X-Y) = (X+Y)W and (A+B)(X+Y) = (X-Y)W and are normalised, (X+Y)^T(X-Y) = 1 = (X+Y)(X-Y)^T. A and B hold the matrix elements of (direct) RPA, with a projection those of the projected problem, for RPA(xc_kernel='rpax') those of time-dependent Hartree-Fock in spin orbitals. The moments returned by gen_moms are symmetric, of first order A-B, obey the recursion eta(k+2) = (A-B)(A+B)eta(k) and the equation eta(0)(A+B)eta(0) = A-B. Without projection and at full coupling the correlation energy is the plasmon formula, minus the sum of frequency times norm of Y squared, hence never positive; with a kernel it is that less a quarter of tr[(eta(0)-1)B_xc]. Energy and moments do not depend on which eigenvectors the diagonalisation returns, and in a restricted calculation alpha and beta are equivalent in the moments of every order. RPA.kernel('drpa') has no spin-flip energy and the energy of ssRPA. For alpha other than 1, or with a projection, kernel() returns an energy that is not the RPA energy (found false: half the trace of the unscaled, unprojected interaction is subtracted); a low-rank kernel with different factors for the two spins gets the wrong alpha-beta block (found false); ssRPA with a projection without rows for one spin raises UnboundLocalError, ssURPA does not.", "quantifier": "all numbers of orbitals, all orbital energies and integrals, all kernels, all projections, all moment orders, all diagonalisations that return eigenvectors", "why_tests_cant": "tests compare energies and moments with stored numbers for a few molecules at full coupling; equations that hold for every system, and independence of degenerate eigenvectors, cannot be sampled", "anchors": ["vayesta/rpa/ssrpa.py:72-326", "vayesta/rpa/ssurpa.py:46-130", "vayesta/rpa/rpa.py:50-171"]}
{"id": "C70", "title": "RI-RPA: low-rank algebra, moments and energies by numerical integration agree with the RPA solution", "statement": "For every system with density-fitted integrals (restricted or unrestricted, with or without a negative part of the integrals, with or without a low-rank kernel) the pairs of factors built by ssRIRRPA/ssRIURPA stand for A+B, A-B and (A-B)(A+B); the product and inverse of such forms are the products and inverses of the matrices. For every grid, every target rotation and every value of integral_deduct, kernel_moms returns a zeroth moment whose product with A+B is the rotation times the grid's approximation of the root of (A-B)(A+B), plus a defect that depends only on how well the grids integrate the scalar functions deducted; with grids exact for the frequencies and the diagonal, the moments of all orders are those of the RPA solution. For direct RPA without negative part, kernel_trMPrt and kernel_energy are likewise the sum of the frequencies and the plasmon energy; with a kernel the energy is that of the dense solver plus half the error of the trace. The spin-adapted class ssRIdRRPA gives the moments (for spin-orbital targets, also when it compresses them, and spatial ones; with return_spatial the sum over the two spins), trace and energy of the spin-orbital class for the same data. Compression does not change the product of the factors if it leaves out null vectors only. Found false: with a negative part or a kernel the trace and so the energy are wrong although the grid is exact (the matrix of the auxiliary space is used transposed); compression drops a negative part of the integrals; the argument alpha of kernel_moms has no effect; adaptive_quad=True always raises.", "quantifier": "all numbers of orbitals and auxiliary functions, all integrals, kernels, grids, target rotations and moment orders; all inverses, decompositions and square roots that satisfy their defining equations at the matrices met", "why_tests_cant": "tests compare a few molecules with dense RPA up to a tolerance that hides the quadrature error; that the deducted terms, the low-rank inverse and the spin adaptation are exact identities for every rotation and grid cannot be sampled", "anchors": ["vayesta/rpa/rirpa/RIRPA.py:49-411", "vayesta/rpa/rirpa/RIRPA.py:585-804", "vayesta/rpa/rirpa/RIURPA.py:75-169", "vayesta/rpa/rirpa/RIdRRPA.py:15-251", "vayesta/rpa/rirpa/momzero_NI.py:31-242", "vayesta/rpa/rirpa/energy_NI.py:32-115"]}
{"id": "C71", "title": "Screened interactions conserve the RPA moment, and their corrections add up", "statement": "Screening a cluster by moments of the RPA gives an interaction whose RPA in the cluster has exactly the zeroth moment of the density response that the system has in the cluster's excitations, and no other positive moment.  The interaction is symmetric, does not depend on the fragments treated beside it, turns with the orbitals of the cluster like any two-body interaction, vanishes if the system has no correlation, and is the bare interaction if the cluster is the whole system.  In a restricted calculation it is the same for all pairs of spins, so the average over spins changes nothing.  Only integrals between occupied and virtual orbitals are replaced and the permutational symmetries stay; integrals of a coupled-cluster calculation are brought back completely by the method for that.  With complete clusters the local RPA energies add up to the RPA correlation energy of the plasmon formula, their cumulant versions to the total cumulant energy, so that no non-local correction remains.", "quantifier": "All numbers of orbitals and fragments, orbital energies, overlaps, interactions, moments and results of the diagonalisations that satisfy the eigenvalue equations; every ordered ring", "why_tests_cant": "Tests compare a few total energies of one molecule with stored numbers; the conservation is a matrix equation for all clusters, and errors in a spin block, in the choice of rows of the moment or in the projection cancel or vanish in symmetric examples", "anchors": ["vayesta/core/screening/screening_moment.py:10-137", "vayesta/core/screening/screening_moment.py:150-271", "vayesta/solver/hamiltonian.py:397-481", "vayesta/core/qemb/qemb.py:586-589", "vayesta/core/qemb/qemb.py:756-800"]}
{"id": "C72", "title": "The constrained RPA integrates out the environment of a cluster exactly", "statement": "Screening a cluster by the constrained RPA adds to its interaction a static correction.  With the coupling through orbital energies, A+B and A-B of the cluster built with the screened interaction are exactly the inverses of the cluster's parts of the inverse A+B and A-B of the whole system, so that the static response is conserved.  Without it, the screened interaction is the bare one divided by the dielectric function of the environment.  The correction does not depend on the basis chosen for the environment or for degenerate excitations, never makes a density repel itself more strongly, leaves the interaction repulsive without the coupling, vanishes if the cluster is the whole system, is the limit at zero frequency of the frequency-dependent interaction, is symmetric in the two particles, has all permutational symmetries of real orbitals and, in a restricted calculation, does not depend on spins without the coupling.  Screening only occupied-virtual pairs drops the other corrections and changes nothing else.", "quantifier": "All numbers of orbitals, auxiliary functions, orbital energies, overlaps, three-index integrals, null spaces and RPA solutions that satisfy their equations; all densities; every ordered ring", "why_tests_cant": "Tests compare one energy per option with stored numbers; conservation of the response and independence of the basis are statements about all systems, and a wrong factor or transposed coupling changes the stored number only", "anchors": ["vayesta/core/screening/screening_crpa.py:18-213", "vayesta/solver/hamiltonian.py:452-506", "vayesta/core/qemb/fragment.py:1186-1195"]}
{"id": "C73", "title": "The energy-weighted DMET bath of order k conserves the Fock matrix' powers up to 2k+1 in the fragment", "statement": "The energy-weighted bath is an orthonormal basis of the environment (same span, orthonormal if the environment is), ordered by orders 1, 2, ... without a gap and with at most as many orbitals per order as the fragment has.  Orbitals couple through the Fock matrix only to those of neighbouring orders.  If no singular value lies strictly between zero and the threshold, the powers of the Fock matrix between fragment orbitals in the fragment with the bath of order k are those in all orbitals, up to the power 2k+1, and all of them once an order adds no orbital.  Singular values are at least the threshold and descend within an order; a higher order only adds to the bath; an assertion fails exactly if the fragment is empty.", "quantifier": "All numbers of orbitals, Fock matrices, thresholds, maximum orders and singular value decompositions that satisfy their equations; all powers; every ordered ring", "why_tests_cant": "Tests compare a number of bath orbitals or an energy for one molecule; the conservation of powers is a statement about all matrices and orders, and a wrong slice still gives an orthonormal bath", "anchors": ["vayesta/core/linalg.py:8-77", "vayesta/core/bath/ewdmet.py:8-59", "vayesta/core/qemb/fragment.py:881-885"]}
{"id": "C74", "title": "Bosons of the RPA bath are orthonormal, outside the cluster, and lose exactly the truncated occupations", "statement": "The bosons added to a cluster are orthonormal and orthogonal to all excitations of the cluster, for a positive threshold on occupations or any threshold on the sum of those left out.  What cluster and bosons together leave of the RPA moment has as its square the sum of the occupations left out: each is below the threshold, or their sum is not above it; nothing is left if those are zero.  The bosons are singlets.  Each fragment gets the moment of its own targets, also if other fragments have no bosons.  The targets are products of occupied and virtual orbitals, depend on the fragment's space only, and options other than those documented are refused.  A fixed number of bosons above the number of coupled ones breaks orthonormality (refuted).", "quantifier": "All numbers of orbitals, targets, fragments and excitations, all moments and overlaps, all eigenvectors that satisfy their equations, all thresholds; every ordered ring", "why_tests_cant": "Tests compare an energy for one system with a stored number; orthonormality, the exact loss and the division among fragments are statements about all systems, and zero occupations do not occur in the tests", "anchors": ["vayesta/core/bosonic_bath/bbath.py:8-78", "vayesta/core/bosonic_bath/qba_rpa.py:7-111", "vayesta/core/qemb/qemb.py:728-753", "vayesta/core/qemb/fragment.py:980-1007"]}
{"id": "C75", "title": "The bosonic part of a cluster's Hamiltonian belongs to the bosons stored with it, and its frequencies respect the gap", "statement": "When the Hamiltonian of a cluster with bosons generates its bosonic interactions, the stored frequencies, electron-boson couplings and terms that do not conserve the number of bosons all belong to the (rotated) bosons stored in the cluster: with these bosons the boson matrix is diagonal with the frequencies on its diagonal, and recomputing the couplings from them gives the stored ones; rotated bosons stay orthonormal.  For a canonical mean field the boson matrix is the direct-RPA matrix (orbital-energy differences plus Coulomb integrals) projected on the bosons, so no frequency is below the smallest orbital-energy gap.  The Coulomb and Fock parts of the couplings are the contractions with all excitations in the boson; the non-conserving term takes out exactly the coupling to the cluster's occupied orbitals of both spins; singlet bosons of a restricted mean field couple equally to both spins.  Findings: the exchange part has the opposite sign (and transposed orbitals) of the one the code's comment asks for, and in periodic systems it is counted twice.", "quantifier": "all numbers of atomic orbitals, orbitals of either spin, bosons and auxiliary functions, all boson coefficients (with or without deexcitations for consistency and spin symmetry), all integrals and ways to block them, all clusters, every diagonaliser with its defining properties", "why_tests_cant": "Tests compare final energies for a few molecules; consistency of three stored quantities under rotation, a bound on all frequencies and the form of every coupling hold for infinitely many systems, and a wrong sign or a doubled exchange term is not visible without an independent formula.", "anchors": ["vayesta/core/bosonic_bath/projected_interactions.py:86-244", "vayesta/core/types/bosonic_orbitals.py:33-131", "vayesta/solver/hamiltonian.py:844-857"]}
{"id": "C76", "title": "The orbitals of a fragmentation are orthonormal, complete and correctly ordered", "statement": "The orbitals a fragmentation builds from atomic orbitals are orthonormal in the overlap metric and span what they were made from, whenever no eigenvalue of their overlap is below the orthogonalisation threshold; if one is below it, the number of orbitals is unchanged and they are not orthonormal.  Symmetrically orthogonalised atomic orbitals are orthonormal.  The electrons missing from the intrinsic orbitals are the sum over occupied orbitals of occupation times squared norm outside their span, and none are missing if the occupied orbitals lie in the span.  The virtual orbitals added to intrinsic orbitals are orthonormal, orthogonal to them and complete the space of the molecular orbitals; the check on their number never fails.  Intrinsic plus projected atomic orbitals are orthonormal as one set, and reordering puts each orbital at the position of its atomic-orbital label.", "quantifier": "all numbers of atomic, intrinsic and molecular orbitals, all overlap matrices and coefficients, all thresholds, all lists of labels and orders, every diagonaliser and inverse square root with their defining properties at the matrices met", "why_tests_cant": "Tests build fragments of a few molecules with well-conditioned bases; orthonormality and completeness for all bases, and what happens when the overlap is nearly singular, cannot be settled by examples.", "anchors": ["vayesta/core/fragmentation/fragmentation.py:347-358", "vayesta/core/fragmentation/iao.py:69-125", "vayesta/core/fragmentation/iao.py:165-214", "vayesta/core/fragmentation/sao.py:10-22", "vayesta/core/fragmentation/iaopao.py:13-72"]}
{"id": "C77", "title": "An active-space fragment holds the orbitals around the Fermi level with the electrons asked for", "statement": "When a fragment is requested as an active space of a number of orbitals and electrons and the request is accepted, the fragment consists of exactly that many consecutive mean-field orbitals, all of which exist, and exactly the requested number of electrons is not below it.  The fragment then holds the requested electrons, or all of them but those of the highest occupied orbital, which lies just above it.  (That the fragment always holds the requested electrons is false: one orbital for four electrons is accepted and gives the lowest orbital with two electrons.)  No orbital at an edge is degenerate with its neighbour outside, for either spin.  For closed shells every request for k pairs that fits is accepted and gives the expected orbitals, and requests for odd numbers of electrons are refused.  The search never runs past the first orbital.", "quantifier": "all numbers of orbitals, all occupations by natural numbers including open shells and holes, all orbital energies of one or two spins, all tolerances, all requests", "why_tests_cant": "Tests request a few sensible spaces; the accepted request with one orbital too few is exactly at a boundary that no test visits, and acceptance of every fitting request quantifies over all occupations and energies.", "anchors": ["vayesta/core/fragmentation/cas.py:30-112"]}
{"id": "C78", "title": "The distance bath holds exactly the environment orbitals near the atom", "statement": "A bath built by distance from an atom and the remaining environment orbitals are each orthonormal, orthogonal to each other, and together span the occupied or virtual environment.  Every combination of bath orbitals has a mean squared distance from the atom of at most the squared cutoff times its norm, and every combination of the remaining orbitals one of at least that.  A larger cutoff in the same unit gives a bath that contains the smaller one, with the same orbitals in the same order.  A cutoff in Angstrom gives the bath of the converted cutoff in Bohr, the unit does not depend on upper or lower case, and unknown units are refused.", "quantifier": "all numbers of orbitals, all symmetric matrices of the squared distance, all orbitals, cutoffs (not negative for distances) and units, every diagonaliser and square root with their defining properties at the matrices and values met", "why_tests_cant": "A test compares the number of bath orbitals for one molecule and cutoff; the bounds hold for infinitely many combinations of orbitals, and a wrong comparison or a missing unit conversion still gives a plausible number.", "anchors": ["vayesta/core/bath/r2bath.py:11-18", "vayesta/core/bath/r2bath.py:50-108"]}
