{"id": "C01", "title": "Config construction accepts exactly the valid phonon arrays", "statement": "Config(array) succeeds if and only if the array has at least two axes, no negative entry, and either holds no phonon at all or has, on both edges of every spatial axis, at least one phonon of some type; otherwise the program exits.", "quantifier": "every integer array of every rank and shape", "why_tests_cant": "the set of shapes, ranks and contents is infinite; the test-suite tries a handful of random 1d/2d/3d arrays", "anchors": ["ggce/engine/terms.py:_check_config", "ggce/engine/terms.py:_config_edges_legal", "ggce/engine/terms.py:_validate_config_is_legal", "ggce/engine/terms.py:Config.__init__", "ggce/engine/terms.py:Config.validate"]}
{"id": "C02", "title": "remove_phonon_ removes exactly one phonon and re-trims the cloud", "statement": "On a valid config, removing a phonon at an occupied in-range site succeeds; the new config is again valid, has the same number of axes and phonon types, and its occupation is the old one with exactly that phonon missing, every position p of the new cloud being position p+shift of the old one, where shift is the returned vector (all zeros when the cloud becomes the vacuum).", "quantifier": "every valid config of every rank, every occupied index", "why_tests_cant": "trimming interacts with every axis and with every zero pattern inside the cloud; infinitely many clouds", "anchors": ["ggce/engine/terms.py:Config.remove_phonon_", "ggce/engine/terms.py:Config._apply_phonon_reduction_rules_"]}
{"id": "C03", "title": "add_phonon_ adds exactly one phonon and grows the cloud minimally", "statement": "On a valid non-vacuum config, adding a phonon of an existing type at any spatial site - inside, left or right of the cloud, on any axis - succeeds; the new config is valid, and its occupation is the old one plus exactly that phonon, position p of the old cloud being position p+shift of the new one, where shift is the returned vector.", "quantifier": "every valid non-vacuum config of every rank, every site in Z^d, every phonon type", "why_tests_cant": "sites range over all of Z^d and clouds over all shapes", "anchors": ["ggce/engine/terms.py:Config.add_phonon_"]}
{"id": "C04", "title": "Adding and then removing the same phonon is the identity", "statement": "add_phonon_ at any site followed by remove_phonon_ at the same physical site restores the original array, and the two returned shifts are equal, so the phase bookkeeping cancels; likewise remove followed by add at the same physical site (unless the cloud became empty).", "quantifier": "every valid non-vacuum config, every site and type, modification budget of at least two", "why_tests_cant": "a round-trip law over an infinite domain", "anchors": ["ggce/engine/terms.py:Config.add_phonon_", "ggce/engine/terms.py:Config.remove_phonon_"]}
{"id": "C05", "title": "Illegal modifications abort", "statement": "remove_phonon_ exits when the index lies outside the cloud, when the site holds no phonon of that type, when the number of indexes is wrong, or when the modification budget is exhausted; add_phonon_ exits on a wrong number of indexes, an unknown phonon type or an exhausted budget. (The documented claim 'indexes must fall within the existing config, else the program will abort' is examined for negative indexes as well.)", "quantifier": "every config, every index vector, every budget", "why_tests_cant": "the rejected inputs are an infinite set; tests try four", "anchors": ["ggce/engine/terms.py:Config.remove_phonon_", "ggce/engine/terms.py:Config.add_phonon_"]}
{"id": "C06", "title": "Identifiers are unambiguous", "statement": "Two configs have the same id() iff they both contain no phonon or are the same array (same shape, same contents); two terms have the same short id() iff their config ids agree and their f_arg values agree numerically.", "quantifier": "all pairs of configs and terms of every shape", "why_tests_cant": "injectivity of a string rendering over infinitely many arrays; a collision would silently merge two unknowns of the linear system", "anchors": ["ggce/engine/terms.py:Config.__str__", "ggce/engine/terms.py:Config.id", "ggce/engine/terms.py:Term.id", "ggce/engine/terms.py:Term._get_f_arg_id"]}
{"id": "C07", "title": "config_legal decides exactly the documented conditions", "statement": "config_legal returns True iff (it is allowed to be and is phonon-free) or the array is valid with both edges occupied, no site exceeds max_phonons_per_site, the distance between the outermost phonons of each type is at most its extent, and each type's total is at most its phonon_number.", "quantifier": "every array and every combination of optional constraints", "why_tests_cant": "combination of five independent constraints over all arrays", "anchors": ["ggce/engine/terms.py:config_legal", "ggce/engine/terms.py:_extent_of_1d"]}
{"id": "C08", "title": "Any sequence of phonon operations keeps the cloud valid and conserves phonons", "statement": "After any sequence of successful add_phonon_/remove_phonon_ calls that does not pass through the vacuum, the config is valid, has unchanged rank and number of types, its total phonon number is the initial one plus adds minus removes, and at most max_modifications operations succeeded.", "quantifier": "every history of operations from every valid config", "why_tests_cant": "unbounded histories", "anchors": ["ggce/engine/terms.py:Config", "ggce/engine/terms.py:Config.total_phonons"]}
{"id": "C09", "title": "config_space_gen enumerates all compositions exactly once", "statement": "For length >= 1 the generator yields exactly the tuples of non-negative integers of that length and sum, each once. (Without slots it recurses for ever unless the total is negative.)", "quantifier": "every length >= 1 and total", "why_tests_cant": "completeness and absence of duplicates for all sizes; tests check three small sets", "anchors": ["ggce/engine/system.py:config_space_gen"]}
{"id": "C10", "title": "The generated cloud space is sound, complete and duplicate free", "statement": "generate_all_legal_configurations returns, under key n, each valid cloud with n phonons, at most absolute-extent sites, and satisfying the per-type extent, per-type number and per-site limits - every one of them, exactly once, and nothing else.", "quantifier": "every model (any number of phonon types, any limits)", "why_tests_cant": "the variational space has unbounded size; a missing or duplicated cloud changes the physics or breaks the linear system", "anchors": ["ggce/engine/system.py:generate_all_legal_configurations"]}
{"id": "C11", "title": "The closed-form count of generalized equations is right", "statement": "With a single phonon type, no per-site limit and the default absolute extent, the number of generated generalized equations is 1 plus total_generalized_equations(M, N), i.e. the logged consistency check never reports a mismatch. That number is (M + N - 1)! / (M! (N - 1)!), and for several types total_generalized_equations is the product over the types.", "quantifier": "every M >= 1 and N >= 1", "why_tests_cant": "a combinatorial identity for all M, N", "anchors": ["ggce/utils/combinatorics.py:total_generalized_equations", "ggce/utils/combinatorics.py:generalized_equations_combinatorics_term", "ggce/engine/system.py:System._predict_total_terms"]}
{"id": "C12", "title": "Enlarging the limits only enlarges the space", "statement": "Raising phonon_number, phonon_extent, absolute extent or the per-site limit never removes a cloud from the variational space.", "quantifier": "all pairs of comparable models", "why_tests_cant": "monotonicity over all parameter pairs; it is what makes 'increase until converged' meaningful", "anchors": ["ggce/engine/system.py:generate_all_legal_configurations", "ggce/engine/terms.py:config_legal"]}
{"id": "C13", "title": "Annihilation terms carry the right cloud, argument and phase", "statement": "Each term produced for an annihilation operator with offset phi, acting on the cloud of the equation, stands for the auxiliary Green's function of the cloud with that phonon removed, at argument phi - site: the stored cloud, f_arg and exp_shift describe the same function after translating the trimmed cloud back, its prefactor is coupling times occupation, and its g_arg is psi - phi + site.", "quantifier": "every cloud of every rank, every annihilation operator, every occupied site", "why_tests_cant": "sign and offset bookkeeping over infinitely many clouds; literature tests only compare final numbers at a few parameters", "anchors": ["ggce/engine/terms.py:AnnihilationTerm._modify_n_phonons_", "ggce/engine/terms.py:NonIndexTerm.step_", "ggce/engine/terms.py:Term.check_if_green_and_simplify_", "ggce/engine/equations.py:Equation._initialize_terms"]}
{"id": "C14", "title": "Creation terms carry the right cloud, argument and phase", "statement": "Same as C13 for creation operators: stored cloud, f_arg and exp_shift describe the cloud with one more phonon at the chosen site (possibly outside the old cloud), the prefactor is the coupling, g_arg is psi - phi + site.", "quantifier": "every cloud of every rank, every creation operator, every site", "why_tests_cant": "as C13, including sites left and right of the cloud", "anchors": ["ggce/engine/terms.py:CreationTerm._modify_n_phonons_", "ggce/engine/terms.py:NonIndexTerm.step_", "ggce/engine/equations.py:Equation._initialize_terms"]}
{"id": "C15", "title": "Equations couple neighbouring phonon numbers only", "statement": "Every right-hand-side term of an equation for a cloud with n phonons has n-1 or n+1 phonons; every right-hand-side term of the Green's function equation has exactly one phonon.", "quantifier": "every model and every equation", "why_tests_cant": "the continued-fraction solver silently drops any other term, so one violation changes results", "anchors": ["ggce/engine/equations.py:Equation._initialize_terms", "ggce/engine/equations.py:GreenEquation._initialize_terms", "ggce/executors/solvers.py:DenseSolver._fill_matrix"]}
{"id": "C16", "title": "Generated equations are the truncated equation of motion (eq. 22/13)", "statement": "For any cloud n of the space and any delta, the row of the system - evaluated on any translation covariant family of auxiliary Green's functions - is f_n(delta) plus the sum over all coupling terms and all sites of coupling * n-factor * g0(delta + site - phi + psi, omega - sum Omega n) * F(n changed at site, phi - site), where exactly the clouds outside the variational space are dropped; for the Green's function it is G plus the sum of coupling*G0*exp(ik(psi-phi)) f_1(phi) = G0.", "quantifier": "every model, every cloud, every delta, every k, omega, eta", "why_tests_cant": "the statement quantifies over all clouds and all values of the unknowns", "anchors": ["ggce/engine/equations.py:Equation._initialize_terms", "ggce/engine/equations.py:Equation._init_full", "ggce/engine/equations.py:GreenEquation", "ggce/engine/terms.py:NonIndexTerm.coefficient", "ggce/engine/terms.py:EOMTerm.coefficient"]}
{"id": "C17", "title": "There is exactly one Green's function unknown", "statement": "Every phonon-free term on any right-hand side has f_arg zero (its phase being moved to exp_shift), and the full system has exactly one equation for the phonon-free cloud, with argument 0.", "quantifier": "every model", "why_tests_cant": "a second phonon-free unknown would make the system wrong or singular", "anchors": ["ggce/engine/terms.py:Term.check_if_green_and_simplify_", "ggce/engine/system.py:System._initialize_equations"]}
{"id": "C18", "title": "System construction succeeds and closes", "statement": "For every model assembled from at least one supported coupling with distinct phonon frequencies (integer-offset couplings or bond couplings alone), System(model) raises nothing: the set of unknowns on left-hand sides equals the set of unknowns on right-hand sides. The same claim for arbitrary successful add_ histories is examined.", "quantifier": "every sequence of add_ calls, every M, N, per-site limit, temperature on/off, every iteration order of Python sets", "why_tests_cant": "closure depends on interplay of generation, trimming and truncation for all sizes", "anchors": ["ggce/engine/system.py:System._prime_system", "ggce/engine/system.py:System._final_checks", "ggce/engine/system.py:System._initialize_generalized_equations", "ggce/engine/system.py:System._initialize_equations"]}
{"id": "C19", "title": "One equation per unknown", "statement": "In a constructed System no two equations have the same identifier, and the number of equations equals the number predicted from the generalized form.", "quantifier": "every constructed system", "why_tests_cant": "uniqueness over all generated identifiers for all models", "anchors": ["ggce/engine/system.py:System._initialize_equations", "ggce/engine/system.py:System._get_total_terms", "ggce/engine/system.py:System._determine_unique_dictionary"]}
{"id": "C20", "title": "get_basis numbers the unknowns bijectively and puts G last", "statement": "The full basis maps the identifiers of the N equations one-to-one onto 0..N-1, the identifier of the Green's function being mapped to N-1; the local basis maps, per phonon number, the identifiers one-to-one onto 0..N_n-1.", "quantifier": "every constructed system, every set iteration order", "why_tests_cant": "solvers index matrices with it, and the PETSc solver assumes without looking that G is the last row", "anchors": ["ggce/engine/system.py:System.get_basis", "ggce/executors/petsc4py/base.py:MassSolver._scaffold", "ggce/executors/petsc4py/solvers.py:MassSolverMUMPS.solve"]}
{"id": "C21", "title": "Results do not depend on set iteration order", "statement": "Solving the linear system gives the same G whatever order Python iterates the sets of f_arg tuples in.", "quantifier": "every pair of iteration orders, every model, every k, omega, eta", "why_tests_cant": "the order is an implementation detail tests cannot vary", "anchors": ["ggce/engine/system.py:System._determine_unique_dictionary", "ggce/executors/solvers.py:SparseSolver._scaffold"]}
{"id": "C22", "title": "The sparse matrix is exactly the system of equations", "statement": "The assembled triplets have no duplicate (row, column), contain every diagonal position, describe a square matrix whose (i,j) entry is the sum of the coefficients of all terms of equation i with unknown j (plus 1 on the diagonal), and the right-hand side is zero except G0 in the row of G; hence a vector solves the matrix equation iff it satisfies every equation.", "quantifier": "every constructed system, every k, omega, eta", "why_tests_cant": "sums over arbitrarily many like terms; all systems", "anchors": ["ggce/executors/solvers.py:SparseSolver._sparse_matrix_from_equations", "ggce/executors/solvers.py:SparseSolver._scaffold", "ggce/executors/petsc4py/base.py:MassSolver._sparse_matrix_from_equations"]}
{"id": "C23", "title": "DenseSolver and SparseSolver compute the same G", "statement": "In exact arithmetic the continued-fraction result of DenseSolver extends to a solution of SparseSolver's linear system with the same G component; if that system is nonsingular the two solvers return the same value; and if every pivot of the recursion is nonsingular, the sparse system is nonsingular.", "quantifier": "every constructed system, every k, omega, eta, every number of phonon levels", "why_tests_cant": "equality of two algorithms over all inputs", "anchors": ["ggce/executors/solvers.py:DenseSolver.solve", "ggce/executors/solvers.py:DenseSolver._fill_matrix", "ggce/executors/solvers.py:SparseSolver.solve"]}
{"id": "C24", "title": "MPI over points returns the serial result", "statement": "greens_function with an MPI communicator returns on rank 0, for any world size (also larger than the number of points), the same nk x nw array as the serial run with entry [i][j] belonging to (k[i], w[j]), and None on other ranks.", "quantifier": "every k grid, w grid, world size and rank", "why_tests_cant": "all grid sizes and world sizes, including non-divisible and more ranks than jobs", "anchors": ["ggce/executors/solvers.py:BasicSolver.greens_function", "ggce/executors/solvers.py:Solver.get_jobs_on_this_rank", "ggce/utils/utils.py:chunk_jobs"]}
{"id": "C25", "title": "Brigades: results are complete, ordered and balanced", "statement": "MassSolver.greens_function on W ranks with brigade size b dividing W returns on every rank the array over the (padded) grid with the right entry at each position, result[:nk,:nw] being the unpadded result; every brigade gets the same number of jobs; a brigade size not dividing W is rejected.", "quantifier": "every grid, world size and brigade size", "why_tests_cant": "all combinations of sizes", "anchors": ["ggce/executors/petsc4py/base.py:MassSolver.greens_function", "ggce/executors/petsc4py/base.py:MassSolver.get_jobs_on_this_brigade", "ggce/executors/petsc4py/base.py:MassSolver.split_into_brigades"]}
{"id": "C26", "title": "Padding extends the grid minimally", "statement": "padded_kw extends only w (or only k if w has one point), keeps the given points as a prefix, appends points with the last spacing (outside the range for an increasing grid), makes the number of points divisible by the number of brigades, and uses the least possible number of extra points; it never fails for up to 1000 brigades. (One-point grids are examined too.)", "quantifier": "every pair of grids and number of brigades", "why_tests_cant": "all sizes; minimality is a for-all statement", "anchors": ["ggce/utils/utils.py:padded_kw"]}
{"id": "C27", "title": "Distributed matrix assembly equals the global matrix", "statement": "For every partition of the rows into contiguous ownership ranges the ranks together insert every entry of the sparse matrix exactly once, each on the rank owning the row, the preallocation counts equal the inserted diagonal-block and off-diagonal-block entries per row, and the value read back as G (last entry of the last rank's part) is the component of the Green's function.", "quantifier": "every matrix, every number of ranks in a brigade", "why_tests_cant": "all partitions, all matrices", "anchors": ["ggce/executors/petsc4py/base.py:MassSolver._scaffold", "ggce/executors/petsc4py/base.py:MassSolver._setup_petsc_structs", "ggce/executors/petsc4py/solvers.py:MassSolverMUMPS.solve"]}
{"id": "C28", "title": "Matrices prepared on disk reproduce the on-the-fly run", "statement": "After prepare_greens_function(k, w, eta), a solver that reads matrices from that directory builds, for every point of the grid, the same matrix, size and right-hand side as a solver building them on the fly. (Points whose ten-digit renderings coincide are examined.)", "quantifier": "every grid and number of brigades", "why_tests_cant": "all grids; file-name collisions", "anchors": ["ggce/executors/petsc4py/base.py:MassSolver.prepare_system", "ggce/executors/petsc4py/base.py:MassSolver.prepare_greens_function", "ggce/executors/petsc4py/base.py:MassSolver._scaffold_from_disk", "ggce/executors/petsc4py/base.py:MassSolver._get_matr_size"]}
{"id": "C29", "title": "Result caching is transparent", "statement": "A solver with a root directory returns for every sequence of solve calls the values a solver without root would return. (Histories that reuse a directory for another model, and distinct points with equal ten-digit renderings, are examined.)", "quantifier": "every history of solve calls and every initial directory contents", "why_tests_cant": "unbounded histories of calls and reuse of directories", "anchors": ["ggce/executors/solvers.py:BasicSolver._pre_solve", "ggce/executors/solvers.py:BasicSolver._post_solve", "ggce/executors/solvers.py:Solver._k_omega_eta_to_str"]}
{"id": "C30", "title": "A crash while checkpointing a System is recoverable", "statement": "If the process dies at any point during System(model, root=...) on a fresh directory, System.from_checkpoint(root) afterwards rebuilds the same system (or, before model.json is complete, exits with a clear error).", "quantifier": "every crash point between and inside the file writes", "why_tests_cant": "tests never crash the process mid-write", "anchors": ["ggce/engine/system.py:System.checkpoint", "ggce/engine/system.py:System._save_model", "ggce/engine/system.py:System.from_checkpoint", "ggce/engine/system.py:System._prime_system"]}
{"id": "C31", "title": "Checkpoint round-trip and no overwriting", "statement": "System.from_checkpoint(root) after System(model, root=root) yields a system with the same model parameters, generalized equations, f_arg lists and equations; existing checkpoint files are never overwritten. (Directories with earlier contents and the equation-count limit are examined.)", "quantifier": "every model, every initial directory contents, every history of constructor calls", "why_tests_cant": "all histories of reusing a directory", "anchors": ["ggce/engine/system.py:System.checkpoint", "ggce/engine/system.py:System.from_checkpoint", "ggce/engine/system.py:System.__init__"]}
{"id": "C32", "title": "Model.add_ is all-or-nothing", "statement": "Model.add_ either reports an error and leaves the model unchanged, or adds exactly the coupling's operators: one phonon type with the given limits at zero temperature, a pair (real, fictitious with opposite frequency) at finite temperature, earlier entries being untouched; zero temperature never adds fictitious types.", "quantifier": "every model state and every argument combination", "why_tests_cant": "all argument combinations and all histories", "anchors": ["ggce/model.py:Model.add_", "ggce/model.py:Hamiltonian._add_"]}
{"id": "C33", "title": "Each phonon type keeps its own frequency", "statement": "In a model built by add_ calls, the energy subtracted for a cloud is the sum over types of (number of phonons of that type) times the frequency given when that type was added.", "quantifier": "every sequence of add_ calls", "why_tests_cant": "depends on the history of add_ calls, e.g. two modes of equal frequency", "anchors": ["ggce/model.py:Hamiltonian._add_", "ggce/engine/terms.py:NonIndexTerm.__init__"]}
{"id": "C34", "title": "Thermofield prefactors are the Bose-Einstein factors", "statement": "For temperature T > 0 and frequency Omega > 0 the real and fictitious prefactors c, s satisfy c^2 - s^2 = 1, c^2 = 1 + n_B, s^2 = n_B with n_B = 1/(exp(Omega/T)-1), c >= 1, s > 0; at zero temperature they are (1, 0).", "quantifier": "all real T > 0 and Omega > 0", "why_tests_cant": "an identity over the reals", "anchors": ["ggce/model.py:Model._get_TFD_coupling_prefactors"]}
{"id": "C35", "title": "Supported couplings are Hermitian and reflection symmetric", "statement": "For every Hamiltonian built by add_ calls the list of operators is closed under Hermitian conjugation with equal coupling, (psi, phi, +) corresponding to (-psi, phi - psi, -), and under spatial reflection up to the sign of the phonon coordinate.", "quantifier": "every sequence of add_ calls", "why_tests_cant": "all histories and strengths", "anchors": ["ggce/model.py:Hamiltonian._get_SingleTerm_objects"]}
{"id": "C36", "title": "Free propagator in momentum space", "statement": "G0_k_omega is the inverse of omega + i eta + 2 t cos(ka): it is well defined with negative imaginary part for eta > 0 (non-negative spectral function), even and 2pi/a periodic in k.", "quantifier": "all real k, omega, a > 0, eta > 0, t", "why_tests_cant": "analytic identities over the reals", "anchors": ["ggce/utils/physics.py:G0_k_omega"]}
{"id": "C37", "title": "Free propagator in real space is the lattice resolvent", "statement": "For eta > 0 and hopping t, g0_delta_omega is even in delta, decays (its base has modulus < 1) and satisfies (omega + i eta) g(d) + t (g(d+1) + g(d-1)) = [d = 0] for every site d, i.e. it is the Fourier partner of G0_k_omega, whatever the lattice constant and the sign of t.", "quantifier": "all omega, eta > 0, t, lattice constants, all sites d", "why_tests_cant": "analytic identity on infinitely many sites", "anchors": ["ggce/utils/physics.py:g0_delta_omega"]}
{"id": "C38", "title": "Lorentzian peak extraction is exact", "statement": "peak_location_and_weight recovers location and weight exactly from two broadenings of one Lorentzian when evaluated above the peak; peak_location_and_weight_wstep recovers them from two frequencies.", "quantifier": "all peak parameters and evaluation points", "why_tests_cant": "identities over the reals, including degenerate positions", "anchors": ["ggce/utils/utils.py:peak_location_and_weight", "ggce/utils/utils.py:peak_location_and_weight_wstep"]}
{"id": "C39", "title": "Buffer neither loses nor duplicates nor reorders values", "statement": "After any sequence of calls and flushes, the concatenation of the files written (in order of writing) followed by the queue is the sequence of values passed in; a full buffer is always written, and after flush nothing is pending.", "quantifier": "every buffer size and history of calls", "why_tests_cant": "unbounded histories", "anchors": ["ggce/utils/utils.py:Buffer"]}
{"id": "C40", "title": "Log routing and termination", "statement": "With the default configuration a message is printed at most once per rank, INFO/SUCCESS/WARNING only on rank 0, ERROR/CRITICAL on every rank, DEBUG only when enabled; a CRITICAL message always terminates the program. (Histories using the context managers are examined.)", "quantifier": "every level, rank, world size and history of enter/exit of the logger context managers", "why_tests_cant": "histories of nested context managers", "anchors": ["ggce/logger.py:configure_loggers", "ggce/logger.py:disable_logger", "ggce/logger.py:debug", "ggce/logger.py:_testing_mode"]}
{"id": "C41", "title": "Model JSON round-trip", "statement": "Saving a model to JSON and reloading it gives a model with identical observable attributes, and it behaves identically under further add_ calls.", "quantifier": "every model and every later history of add_ calls", "why_tests_cant": "all models and later histories", "anchors": ["ggce/model.py:Model", "ggce/engine/system.py:System._save_model", "ggce/engine/system.py:System.from_checkpoint"]}
{"id": "C42", "title": "The overall sign of the couplings is irrelevant, zero coupling is free", "statement": "Flipping the sign of all coupling strengths does not change G; with all couplings zero, G is exactly the free propagator G0_k_omega.", "quantifier": "every model, every k, omega, eta", "why_tests_cant": "a gauge symmetry over all models", "anchors": ["ggce/engine/equations.py:Equation._initialize_terms", "ggce/executors/solvers.py:SparseSolver.solve"]}
{"id": "C43", "title": "Elapsed-time formatting preserves the duration", "statement": "_elapsed_time_str returns a value and unit that together denote the given duration, seconds below 10 s, minutes below 10 min, hours below 10 h, days above; time_remaining extrapolates linearly and is 0 at 100 %.", "quantifier": "all durations and percentages", "why_tests_cant": "all reals, boundaries included", "anchors": ["ggce/utils/utils.py:_elapsed_time_str", "ggce/utils/utils.py:time_remaining"]}
{"id": "C44", "title": "Model attribute setters reject bad values without effect", "statement": "Assigning an invalid temperature, lattice constant or absolute extent leaves the model unchanged; a valid one is stored and nothing else changes; the absolute extent defaults to the largest extent.", "quantifier": "every model and every assigned value", "why_tests_cant": "all histories of assignments", "anchors": ["ggce/model.py:Model.temperature", "ggce/model.py:Model.lattice_constant", "ggce/model.py:Model.phonon_absolute_extent"]}
{"id": "C45", "title": "Brigade ranks never deadlock on the result cache", "statement": "Within a brigade all ranks take the same branch (cached or computed) for every job under every interleaving, so the collective calls match and the job list is completed. (Job lists with two points of equal cache key are examined.)", "quantifier": "every interleaving of the ranks of a brigade, every job list", "why_tests_cant": "schedules cannot be enumerated by tests", "anchors": ["ggce/executors/petsc4py/solvers.py:MassSolverMUMPS.solve", "ggce/executors/petsc4py/solvers.py:MassSolverMUMPS._pre_solve", "ggce/executors/petsc4py/solvers.py:MassSolverMUMPS._post_solve"]}
{"id": "C46", "title": "Coupling conversion", "statement": "model_coupling_map converts the dimensionless coupling by g^2 = 2 t |Omega| lam (Holstein), t |Omega| lam / 2 (Peierls), t |Omega| lam (bond Peierls), g = lam (Edwards), non-negative root, independent of the sign of Omega, and rejects unknown names.", "quantifier": "all real parameters", "why_tests_cant": "identities over the reals", "anchors": ["ggce/model.py:model_coupling_map"]}
{"id": "C47", "title": "G(k) = G(-k)", "statement": "For any Hamiltonian built from supported couplings, the computed G is the same at k and -k whenever the linear system is nonsingular.", "quantifier": "every model, every k, omega, eta", "why_tests_cant": "a symmetry of all systems that the closure (cloud space, truncation, trimming) must respect", "anchors": ["ggce/engine/equations.py:Equation._initialize_terms", "ggce/engine/system.py:System", "ggce/model.py:Hamiltonian._get_SingleTerm_objects"]}
{"id": "C48", "title": "Zero-temperature limit of the thermofield system", "statement": "If the fictitious couplings vanish, G of the doubled (finite temperature) system equals G of the zero-temperature system.", "quantifier": "every model and every size of the fictitious space", "why_tests_cant": "relates two systems of different size for all parameters", "anchors": ["ggce/model.py:Model.add_", "ggce/engine/system.py:System"]}
{"id": "C49", "title": "Root directories: what is on disk is what was asked for", "statement": "A solver given a System and a root checkpoints that System under the root, so that a later solver given only the root can load it; results with negative spectral function are not stored (both are documented).", "quantifier": "every history of solver construction and solves", "why_tests_cant": "documented behaviour over all histories", "anchors": ["ggce/executors/solvers.py:Solver.__init__", "ggce/executors/solvers.py:SparseSolver", "ggce/executors/solvers.py:BasicSolver._post_solve"]}
{"id": "C50", "title": "G is periodic in k with period 2 pi / a", "statement": "The computed G is the same at k and k + 2 pi n / a for every integer n whenever the linear system is nonsingular; real-space propagators are only ever needed between whole sites, also for bond couplings.", "quantifier": "every model built from supported couplings, every k, omega, eta and integer n", "why_tests_cant": "a gauge symmetry of all systems; half-integer phases of bond couplings change sign", "anchors": ["ggce/engine/terms.py:EOMTerm.coefficient", "ggce/engine/terms.py:NonIndexTerm.coefficient", "ggce/engine/equations.py:Equation._initialize_terms", "ggce/utils/physics.py:G0_k_omega"]}
{"id": "C51", "title": "The spectral function is positive and G is bounded by 1 / eta", "statement": "For eta > 0 the computed G satisfies Im G <= - eta |G|^2 < 0, hence A = - Im G / pi > 0 and |G| <= 1 / eta, at every truncation of the cloud space. (Lattice constants other than 1 are examined.)", "quantifier": "every model built from supported couplings, every extent and number of phonons, every k, omega, eta > 0", "why_tests_cant": "a statement about the exact solution of systems of every size", "anchors": ["ggce/executors/solvers.py:SparseSolver.solve", "ggce/engine/equations.py:Equation._initialize_terms", "ggce/utils/physics.py:g0_delta_omega", "ggce/model.py:Hamiltonian._get_SingleTerm_objects"]}
{"id": "C52", "title": "The linear system is nonsingular for eta > 0", "statement": "For eta > 0 the matrix built by SparseSolver is nonsingular, so the solver's result is determined by the equations and the symmetries C42, C47 and C50 hold without conditions.", "quantifier": "every model built from supported couplings, every k, omega, eta > 0", "why_tests_cant": "a statement about determinants of all sizes", "anchors": ["ggce/executors/solvers.py:SparseSolver._sparse_matrix_from_equations", "ggce/executors/solvers.py:SparseSolver.solve"]}
{"id": "C53", "title": "DenseSolver never divides by zero for eta > 0", "statement": "For eta > 0 every matrix inverted by DenseSolver's continued fraction and its final denominator are nonsingular, so it returns the same G as SparseSolver.", "quantifier": "every model built from supported couplings, every k, omega, eta > 0", "why_tests_cant": "nonsingularity of the whole matrix does not imply nonsingular blocks; all sizes", "anchors": ["ggce/executors/solvers.py:DenseSolver.solve"]}
{"id": "C54", "title": "The Holstein polaron has the momentum-average closed form", "statement": "For a Holstein model at temperature 0 with clouds of one site, or with hopping 0 and any clouds, the computed G is 1 / (omega + i eta + 2 t cos ka - Sigma(omega)), where Sigma is the continued fraction with levels n g^2 p(n) / (1 - p(n) ...), p(n) being the local lattice Green's function at omega - n Omega; as many levels as phonons fit on a site.", "quantifier": "every hopping, lattice constant, coupling, frequency, number of phonons, limit per site, k, omega, eta > 0", "why_tests_cant": "tests compare a handful of points with stored numbers; this is the result for every input", "anchors": ["ggce/executors/solvers.py:SparseSolver.solve", "ggce/engine/equations.py:Equation._initialize_terms", "ggce/utils/physics.py:g0_delta_omega", "ggce/model.py:Hamiltonian._get_SingleTerm_objects", "ggce/model.py:Model.add_"]}
{"id": "C55", "title": "What is reported about the accuracy of a solution", "statement": "MassSolverMUMPS.solve reports the exit code, the memory and the excess of the preconditioned residual over the tolerance; rank 0 raises an alarm exactly if the excess is positive, the exit code is not 0 or the spectral function is negative: a warning for a positive excess or exit code, an error for a negative exit code or spectral function. The memory is right to six digits. If the check passes and the factorization is accurate to delta < 1, the solution is accurate to rtol (1 + delta) / (1 - delta); an exact factorization always passes. (Silent failures are examined.)", "quantifier": "every matrix size and entries, right-hand side, tolerance, factorization, rank and brigade", "why_tests_cant": "a bound for every matrix; failures of the factorization cannot be provoked in tests", "anchors": ["ggce/executors/petsc4py/base.py:MassSolver.check_conv_manual", "ggce/executors/petsc4py/solvers.py:MassSolverMUMPS.check_conv", "ggce/executors/petsc4py/solvers.py:MassSolverMUMPS.check_mem_use", "ggce/executors/petsc4py/solvers.py:MassSolverMUMPS.solve"]}
{"id": "C56", "title": "The computed number is the Green's function of the Hamiltonian on the variational space", "statement": "Let H = phonon energy - t sum (c+_i c_{i+1} + h.c.) - sum_h g_h c+_i c_{i+psi} b^d_{i+phi} over the terms h of the model, on the states with no phonon or with the phonons of one legal cloud placed anywhere and the particle on any site. There is exactly one bounded linear functional Psi of momentum k with Psi ((z - H) |j, n>) = <k|j, n> for all these states, and the number computed at k and omega + i eta = z is Psi |0, no phonons>, that is <k| (z - H)^-1 |k>.", "quantifier": "every mixture of couplings the engine accepts, every extent, phonon number, temperature mode, k, omega, eta > 0", "why_tests_cant": "the Hamiltonian acts on an infinite lattice; tests compare a handful of points with stored numbers", "anchors": ["ggce/executors/solvers.py:SparseSolver.solve", "ggce/executors/solvers.py:DenseSolver.solve", "ggce/engine/equations.py:Equation._initialize_terms", "ggce/engine/terms.py:Term.coefficient", "ggce/engine/terms.py:AnnihilationTerm", "ggce/utils/physics.py:g0_delta_omega", "ggce/utils/physics.py:G0_k_omega"]}
{"id": "C57", "title": "From the user's calls to the returned array", "statement": "For every model made by add_ calls (lattice constant 1 or no hopping, hopping >= 0), building the system succeeds and there is a function f, the exact Green's function of C56, such that for eta > 0: greens_function of SparseSolver and DenseSolver returns f on the grid, entry [i][j] belonging to (k[i], w[j]), serially and on rank 0 of any number of ranks, None on the others; MassSolverMUMPS returns it on all ranks of any brigade layout with enough equations, up to padded points; with a results directory every call of any sequence of distinguishable points returns f; the error 'A(k,w) < 0' is never logged.", "quantifier": "every sequence of add_ calls, grid, eta > 0, number of ranks, brigade layout, sequence of calls on one directory", "why_tests_cant": "runs on all numbers of ranks and all grids cannot be tried", "anchors": ["ggce/executors/solvers.py:BasicSolver.greens_function", "ggce/executors/solvers.py:SparseSolver.solve", "ggce/executors/solvers.py:DenseSolver.solve", "ggce/executors/solvers.py:BasicSolver._post_solve", "ggce/executors/petsc4py/base.py:MassSolver.greens_function", "ggce/executors/petsc4py/solvers.py:MassSolverMUMPS.solve", "ggce/model.py:Model.add_"]}
{"id": "C58", "title": "Several processes on one root directory", "statement": "Processes (MPI ranks or separate runs) execute the file operations of solve and System interleaved in any order, any of them may be killed at any point. (1) If no two processes have a point with the same file name, no process fails, each finishes after at most three operations per point with the right results, and they are in the directory; so greens_function of any number of ranks sharing a results directory returns the array on every grid without repeated or too close points. (2) If names overlap, a process ends with the right results or with EOFError, and complete files are right. (3) Processes constructing the same System never fail, all get that system, and the directory is complete at the end. (4) Constructing and reloading processes together: a construction never fails, a reload gives the system or fails with one of four errors, never a wrong system. Reloads do disturb each other: from_checkpoint rewrites model.json, so one of two processes reloading the same complete directory can fail.", "quantifier": "every schedule of file operations of any number of processes, every set of killed processes, every initial directory with right contents, every model, grid and limit", "why_tests_cant": "the number of schedules is infinite and races are not reproducible", "anchors": ["ggce/executors/solvers.py:BasicSolver._pre_solve", "ggce/executors/solvers.py:BasicSolver._post_solve", "ggce/executors/solvers.py:BasicSolver.greens_function", "ggce/executors/solvers.py:Solver.__init__", "ggce/engine/system.py:System.checkpoint", "ggce/engine/system.py:System._save_model", "ggce/engine/system.py:System.from_checkpoint"]}
{"id": "C59", "title": "Dyson's equation and the size of the self-energy", "statement": "For eta > 0 the returned G(k, w) is 1 / (w + i eta - e_k - s) with the free band e_k = -2 t cos(k a) and a self-energy s with Im s <= 0 and |s| <= S^2 / eta, where S is the sum of the absolute values of the couplings of the terms that create a phonon. Hence G differs from the free propagator by at most S^2 / eta^3 (weak coupling, large broadening), and |G| <= 1 / (|w - e_k| - S^2 / eta) far from the band. The bound does not depend on the cloud sizes, phonon numbers, frequencies or the momentum, holds for SparseSolver and DenseSolver and every sequence of add_ calls, is g^2 / eta for one Holstein coupling, and is attained.", "quantifier": "every model with distinct frequencies and unit lattice constant (or no hopping), momentum, frequency, eta > 0, enumeration order and exact linear solver", "why_tests_cant": "the bound is a statement about all clouds at once; tests compare single numbers", "anchors": ["ggce/executors/solvers.py:SparseSolver.solve", "ggce/executors/solvers.py:DenseSolver.solve", "ggce/engine/equations.py:Equation.initialize_terms", "ggce/engine/equations.py:GreenEquation.initialize_terms", "ggce/utils/physics.py:G0_k_omega", "ggce/utils/physics.py:g0_delta_omega", "ggce/engine/terms.py:Term.coefficient"]}
{"id": "C60", "title": "A basis given by the user", "statement": "The solvers accept a basis (numbering of the unknowns). SparseSolver and MassSolverMUMPS return the usual Green's function for every numbering that gives the Green's function the last number, DenseSolver for every numbering of the unknowns of each phonon number. With another numbering SparseSolver raises ValueError, while MassSolverMUMPS returns, without any error, the diagonal element for whatever unknown has the last number. A basis that lacks an unknown, or was made for the other kind of solver, is a KeyError.", "quantifier": "every good model, enumeration order, numbering, coefficients with nonsingular matrices (all physical ones with eta > 0), exact linear solver, number of ranks", "why_tests_cant": "no test passes a basis; the numberings are all permutations", "anchors": ["ggce/executors/solvers.py:SparseSolver.__init__", "ggce/executors/solvers.py:DenseSolver.__init__", "ggce/executors/solvers.py:Solver.__init__", "ggce/executors/solvers.py:SparseSolver._scaffold", "ggce/executors/solvers.py:DenseSolver._fill_matrix", "ggce/executors/petsc4py/solvers.py:MassSolverMUMPS.__init__", "ggce/executors/petsc4py/base.py:MassSolver._scaffold"]}
{"id": "C61", "title": "Convergence with the number of phonons", "statement": "Two models of the same Hamiltonian whose variational spaces have the same clouds of up to K + 1 phonons return Green's functions with eta^3 sqrt(K) |G - G'|^2 <= 4 S, where S is the sum of the absolute values of the couplings of the terms that create a phonon. In particular this holds for two limits phonon_number (or max_phonons_per_site) of at least K + 1 with the same extents. So the results converge when phonon_number grows, uniformly in momentum and frequency, to a limit with Im G <= 0 and |G| <= 1 / eta, at this rate.", "quantifier": "every model with distinct frequencies and unit lattice constant (or no hopping), number of phonon types, temperature mode, pair of limits, momentum, frequency, eta > 0, enumeration order and exact linear solver", "why_tests_cant": "a limit over infinitely many systems of growing size; tests use one or two small limits", "anchors": ["ggce/executors/solvers.py:SparseSolver.solve", "ggce/engine/equations.py:Equation.initialize_terms", "ggce/engine/terms.py:Term.coefficient", "ggce/engine/system.py:generate_all_legal_configurations", "ggce/model.py:Model.add_", "ggce/engine/terms.py:config_legal", "ggce/utils/physics.py:g0_delta_omega"]}
{"id": "C62", "title": "Systems that are not primed", "statement": "System(model, autoprime=False) followed by _prime_system() goes through the same states of the directory and gives the same object or the same error as System(model). In between, any number of checkpoints writes nothing, and SparseSolver, DenseSolver and MassSolverMUMPS raise AttributeError unless a basis is given (MassSolverMUMPS(autoprime=False) accepts the System). Priming again changes nothing. A directory left by an unprimed System with a root reloads as the full system. MassSolverMUMPS(autoprime=False) on an unprimed System solves from matrices on disk with the values of the primed System.", "quantifier": "every model, enumeration order, limit, root or none, initial directory, sequence of operations between creation and priming", "why_tests_cant": "one test creates an unprimed System; sequences of operations are unbounded", "anchors": ["ggce/engine/system.py:System.__init__", "ggce/engine/system.py:System._prime_system", "ggce/engine/system.py:System.checkpoint", "ggce/engine/system.py:System.get_basis", "ggce/executors/solvers.py:Solver.__init__", "ggce/executors/solvers.py:SparseSolver.__init__", "ggce/executors/solvers.py:DenseSolver.__init__", "ggce/executors/petsc4py/solvers.py:MassSolverMUMPS.__init__"]}
{"id": "C63", "title": "Arguments of the solvers", "statement": "SparseSolver and DenseSolver take system, root, basis, mpi_comm, and MassSolverMUMPS takes autoprime, brigade_size, matr_dir and then these four, by position in this order or by name in any order; every other call is a TypeError. Hence a System given by name is the System of every solver, while one given as first positional argument is the System of SparseSolver and DenseSolver only: MassSolverMUMPS takes it as autoprime, loads what the root holds, or exits without a root. MassSolverMUMPS without a communicator exits.", "quantifier": "every list of positional arguments, set and order of keyword arguments, disk", "why_tests_cant": "calls have any number of arguments; tests use two forms", "anchors": ["ggce/executors/solvers.py:Solver.__init__", "ggce/executors/solvers.py:SparseSolver.__init__", "ggce/executors/solvers.py:DenseSolver.__init__", "ggce/executors/petsc4py/base.py:MassSolver.__init__", "ggce/executors/petsc4py/solvers.py:MassSolverMUMPS.__init__"]}
{"id": "C64", "title": "Numbers in file names", "statement": "The names of results and matrix files contain k, omega and eta with ten decimals: reading such a number back gives the multiple of 1e-10 nearest to its absolute value, ties to even, and a minus sign exactly if it is negative; multiples of 1e-10 are written exactly. Two points have the same results file, or the same matrix file, exactly if their three numbers pairwise have the same sign and the same nearest multiple. So points more than 1e-10 apart never share a file, this bound is sharp at every magnitude, and results and matrices never have the same name.", "quantifier": "every rational k, omega, eta", "why_tests_cant": "the set of points is infinite; collisions are at the 1e-10 level and never met by a test", "anchors": ["ggce/executors/solvers.py:Solver._k_omega_eta_to_str", "ggce/executors/solvers.py:BasicSolver._pre_solve", "ggce/executors/petsc4py/base.py:MassSolver.prepare_system", "ggce/executors/petsc4py/base.py:MassSolver._k_omega_eta_to_str"]}
{"id": "C65", "title": "Convergence with the extent of the clouds", "statement": "Two models of the same Hamiltonian with the same phonon-number limits, at most N phonons in a mode, that have the same clouds of up to 2 (K + rho) - 1 sites return Green's functions with eta^3 K |G - G'|^2 <= 4 t + 2 sqrt(N) S, where rho is the distance between the particle and the modes its terms change (0 for Holstein, at most 1 for every supported coupling) and S bounds the steps of the particle in these terms (0 for Holstein). So two Holstein models with phonon_extent >= 2 K - 1 differ by |G - G'|^2 <= 4 t / (eta^3 K), whatever coupling, frequency and phonon number. The results converge when the extents grow, uniformly in momentum and frequency, to a limit with Im G <= 0 and |G| <= 1 / eta, at this rate.", "quantifier": "every model with distinct frequencies and unit lattice constant (or no hopping), number of phonon types, temperature mode, pair of extents, momentum, frequency, eta > 0, enumeration order and exact linear solver", "why_tests_cant": "a limit over infinitely many systems of growing size; tests use extents of 2 or 3", "anchors": ["ggce/executors/solvers.py:SparseSolver.solve", "ggce/engine/equations.py:Equation.initialize_terms", "ggce/engine/terms.py:Term.coefficient", "ggce/engine/system.py:generate_all_legal_configurations", "ggce/model.py:Model.add_", "ggce/model.py:Model.absolute_extent", "ggce/engine/terms.py:config_legal", "ggce/utils/physics.py:g0_delta_omega"]}
{"id": "C66", "title": "Convergence to the exact Green's function", "statement": "For every model there is exactly one square-summable functional <k| (z - H)^-1 on ALL states of the particle and finitely many phonons on the infinite chain (no variational space; at most max_phonons_per_site phonons in a mode if that is set), and its value G on the phonon-free state has Im G < 0 and |G| <= 1 / eta. The number g that SparseSolver.solve returns for a variational space with room for P - 1 phonons of every type on 2 (K + rho) - 1 sites satisfies eta^3 |g - G|^2 <= (4 t + 2 sqrt(P) S) / K + 2 C / sqrt(P), where rho and S are as in C65 and C is the sum of |coupling| over the terms. So all results with large extents and large phonon numbers are close to G, whatever the order in which the two limits grow. For Holstein: eta^3 |g - G|^2 <= 4 t / K + 4 |coupling| / sqrt(P) for phonon_extent >= 2 K - 1 and phonon_number >= P - 1.", "quantifier": "every model with distinct frequencies and unit lattice constant (or no hopping), number of phonon types, temperature mode, limits, momentum, frequency, eta > 0, enumeration order and exact linear solver", "why_tests_cant": "compares the computed number with the resolvent of an operator on an infinite-dimensional space", "anchors": ["ggce/executors/solvers.py:SparseSolver.solve", "ggce/engine/equations.py:Equation.initialize_terms", "ggce/engine/terms.py:Term.coefficient", "ggce/engine/system.py:generate_all_legal_configurations", "ggce/model.py:Model.add_", "ggce/model.py:Model.absolute_extent", "ggce/engine/terms.py:config_legal", "ggce/utils/physics.py:g0_delta_omega"]}
{"id": "C67", "title": "Atomic limit: Lang-Firsov formula", "statement": "Without hopping, for the Holstein model with frequency Om != 0, coupling g and no limit per site, the exact Green's function of C66 is the sum over n of e^(-x) x^n / n! / (z - (n Om - g^2 / Om)) with x = (g / Om)^2, for every momentum: the lines of a displaced oscillator with Poisson weights, which are nonnegative and add up to 1; the first L + 1 lines miss it by at most the missing weight over eta. The number that SparseSolver.solve returns for Model.from_parameters(hopping=0) with add_('Holstein', ...), any phonon_extent and phonon_number >= P - 1 differs from it by at most sqrt(4 |g| / (eta^3 sqrt(P))).", "quantifier": "every lattice constant, frequency other than 0, coupling, phonon_extent, phonon_number, momentum, frequency argument, eta > 0, enumeration order and exact linear solver", "why_tests_cant": "the reference is an infinite series; shows the sign of the coupling, the sqrt(n) factors of b and b+ and the energies against a closed form that the code does not contain", "anchors": ["ggce/executors/solvers.py:SparseSolver.solve", "ggce/engine/equations.py:Equation.initialize_terms", "ggce/engine/terms.py:Term.coefficient", "ggce/model.py:Model.add_", "ggce/model.py:SingleTerm", "ggce/utils/physics.py:g0_delta_omega"]}
{"id": "C68", "title": "What is printed says what is there", "statement": "System.visualize prints one block per number of phonons, most phonons first, each equation as a line with its index and one indented line per term, in order. Nothing is lost: two Systems print the same text if and only if, for every number of phonons, their lists of equations agree position by position: same index and terms up to the shape of phonon-free clouds, numerically equal f arguments and, with full=True, numerically equal g arguments and exponents. The generalized equations print alike whatever the iteration order of sets; an unprimed System raises AttributeError. Hamiltonian.get_dict_rep is the partition of the terms by phonon type, in order. Model.visualize never raises after any calls of add_ and the setters; after successful calls without override it prints types 0, 1, ... in order, each with its own limits and exactly its operators. After a call with an unknown coupling type (which only logs an error), or with phonon_index_override, a type is printed with the limits of another.", "quantifier": "every model, set order, value of full and generalized, history of calls, formats of numbers", "why_tests_cant": "quantifies over all pairs of systems; no test reads the printed text", "anchors": ["ggce/engine/system.py:System.visualize", "ggce/engine/equations.py:Equation.visualize", "ggce/engine/terms.py:Term.id", "ggce/model.py:Hamiltonian.get_dict_rep", "ggce/model.py:Model.visualize"]}
{"id": "C69", "title": "Moments of the spectral function", "statement": "For every model the functionals <k| H^q on all states exist and are unique; the exact Green's function of C66 is mu_0 / z + ... + mu_(Q-1) / z^Q up to a constant over eta |z|^Q, with mu_q = <k| H^q |k> and a constant that depends on neither momentum nor z. The number that SparseSolver.solve returns for a variational space with everything that d applications of H reach from the phonon-free state has the same first 2 d + 2 coefficients, and no other coefficients fit. Room for d phonons of each type on d + 3 sites is enough for every supported coupling; for Holstein d phonons on d - 1 sites. So for Holstein every phonon_extent and phonon_number gives the exact sum rules 1, e, e^2 + g^2, e^3 + 2 e g^2 + Om g^2 with e = - 2 t cos(k a). 2 d + 2 cannot be improved: with one phonon on one site the fifth coefficient is 2 instead of 4.", "quantifier": "every model with distinct frequencies and unit lattice constant (or no hopping), limits, d, momentum, frequency, eta > 0, enumeration order and exact linear solver", "why_tests_cant": "an asymptotic statement about all frequencies at once, against an operator on an infinite-dimensional space", "anchors": ["ggce/executors/solvers.py:SparseSolver.solve", "ggce/engine/equations.py:Equation.initialize_terms", "ggce/engine/terms.py:Term.coefficient", "ggce/engine/system.py:generate_all_legal_configurations", "ggce/model.py:Model.add_", "ggce/engine/terms.py:config_legal", "ggce/utils/physics.py:g0_delta_omega"]}
{"id": "C70", "title": "Errors of the linear solver are bounded", "statement": "Whatever vector x the sparse solver returns, the Green's function read off it satisfies eta |G' - G| <= |z - band(k)| |y_G| + 2 S sqrt(N) |y|, where y = X x - v is what x misses the linear system by, y_G its last component, |y| the norm of the others, S the sum of the creation couplings, N the largest number of phonons; the number of equations does not enter. So an iterative solver that stops at |y| <= rtol |v| makes an error of at most rtol (1 + 2 S sqrt(N) / |z - band(k)|) / eta, and if the entries of matrix and right-hand side are rounded by at most d (scipy gets complex64 numbers) and the rows of the rounded system are missed by at most t, the error is at most (t + d (1 + |x|_1)) (|z - band(k)| + 2 S sqrt(N n)) / eta. For every eps there is a precision d such that all arithmetic of that precision gives G within eps.", "quantifier": "every model with distinct frequencies and unit lattice constant (or no hopping), momentum, frequency, eta > 0, enumeration order, and every function used as linear solver", "why_tests_cant": "an inequality for all vectors and all models, with a constant that is independent of the size of the system", "anchors": ["ggce/executors/solvers.py:SparseSolver.solve", "ggce/executors/solvers.py:SparseSolver._scaffold", "ggce/engine/equations.py:Equation.initialize_terms", "ggce/engine/terms.py:Term.coefficient", "ggce/executors/petsc4py/solvers.py:MassSolverMUMPS.solve", "ggce/executors/petsc4py/base.py:MassSolver.check_conv_manual"]}
{"id": "C71", "title": "Shared mutable objects do not interfere when a System is built", "statement": "Let the arrays, configurations, terms, equations, lists and dictionaries be objects on a heap that are changed in place and may be referred to from several places, as in the program. Building a System from a Model object then (a) gives exactly the generalized equations, delta lists and full equations of the calculation with values, or raises the same exception; every equation refers to a Model equal to the given one; (b) changes no object that existed before, whether it succeeds or raises; (c) gives a System from which no earlier object can be reached, so later changes of the caller's objects do not affect it, and a second System built from the same Model neither changes nor shares anything with the first; (d) gives equations of which no two share an object (for any Model whatever they share at most a delta array of the System's dictionary). The full equations do share these delta arrays with the dictionary itself.", "quantifier": "every heap without dangling references, every Model object on it, every order of the sets of deltas", "why_tests_cant": "quantifies over all heaps and aliasing patterns the caller may have set up; a test sees one object graph", "anchors": ["ggce/engine/terms.py:Term", "ggce/engine/terms.py:Config.__init__", "ggce/engine/equations.py:Equation.__init__", "ggce/engine/equations.py:Equation._init_full", "ggce/engine/equations.py:Equation._populate_f_arg_terms", "ggce/engine/system.py:System._append_master_dictionary", "ggce/engine/system.py:System._determine_unique_dictionary", "ggce/engine/system.py:System._initialize_equations", "ggce/engine/system.py:System.__init__"]}
{"id": "C72", "title": "At a temperature the code approximates the thermal average", "statement": "Let the same add_ calls (Holstein, Peierls or BondPeierls, positive frequencies) be made on a model at temperature T > 0 and on one at temperature 0. The model at T is then the thermofield double of the other, and for every q the moment <k|H^q|k> of its phonon-free state equals the Boltzmann average over all phonon states n of <k,n|(H - E_n)^q|k,n>, H the Hamiltonian at temperature 0 and E_n the energy of the phonons; the average is a convergent sum over all occupation numbers of all modes near the particle. Hence the Green's function that the code computes at T with d phonons of each type on d + 3 sites has the first 2 d + 2 exact thermal moments. For EdwardsFermionBoson this is false: the fictitious copy is added with the same daggers, and the second moment differs from the thermal one by 2 g^2 n cos(2 k a), n the Bose function.", "quantifier": "every T > 0, hopping, momentum, list of calls, order q of the moment, and truncation", "why_tests_cant": "an identity between an infinite thermal sum and a matrix element of another Hamiltonian, for all parameters; a test compares rounded numbers of truncated calculations", "anchors": ["ggce/model.py:Model._get_TFD_coupling_prefactors", "ggce/model.py:Model.add_", "ggce/model.py:Hamiltonian.add_", "ggce/model.py:Hamiltonian._get_SingleTerm_objects"]}
{"id": "C73", "title": "The result depends continuously on the parameters and on the temperature", "statement": "Let two models have the same phonon types, variational space and operators, and differ in hopping, phonon frequencies and couplings. For eta > 0 the computed Green's functions differ at every k and omega by at most (2 |t - t'| + sum over types of |Omega - Omega'| times the phonon number limit + sqrt N times the sum of |g - g'| over the operators) / eta^2, N the largest phonon number limit. For the same add_ calls at two temperatures the bound is sqrt N delta / eta^2 times the sum of |g|, delta the change of the two prefactors, so the result is continuous in T > 0, uniformly in k and omega. If the fictitious extents do not exceed the largest physical one (or there is one type), then the result at T with T <= tau^2 Omega for all types differs from that of temperature 0 by at most sqrt N (tau + tau^2/2) sum |g| / eta^2, and tends to it as T falls to 0.", "quantifier": "every pair of parameter sets, temperature, momentum, frequency, cloud size, list of calls", "why_tests_cant": "a bound over a continuum of parameters and a limit T -> 0 uniform in k and omega; tests sample a few temperatures", "anchors": ["ggce/model.py:Model._get_TFD_coupling_prefactors", "ggce/model.py:Model.add_", "ggce/utils/physics.py:g0_delta_omega", "ggce/executors/solvers.py:SparseSolver.greens_function"]}
{"id": "C74", "title": "The spectral function integrates to one", "statement": "Let A(omega) = -Im G(k, omega + i eta) / pi of the numbers that the code returns. For every model made by add_ calls, at temperature 0 or T > 0, every momentum and every eta > 0: A is positive, does not depend on the linear solver or the equation order, and has a Riemann integral over every interval; the integral over [-r, r] differs from that of a single broadened level, (2/pi) atan(r/eta), by at most K (1 + 1/eta) / r with a constant K of the model, so it tends to 1 as r grows, uniformly in k; the integral over any window is positive and at most 1; and the sum of the returned array over n equally spaced frequencies of [-r, r], times the spacing, differs from 1 by at most (K (1 + 1/eta) + eta) / r + (16 r^2 / eta^3 + 2 r / eta^2) h / pi.", "quantifier": "every list of calls, temperature, momentum, broadening, window, grid, variational space", "why_tests_cant": "an integral over an infinite frequency axis; a test sums a finite grid and cannot separate truncation, discretisation and a missing weight", "anchors": ["ggce/executors/solvers.py:SparseSolver.greens_function", "ggce/executors/solvers.py:DenseSolver.greens_function", "ggce/utils/physics.py:g0_delta_omega", "ggce/model.py:Model.add_", "docs/source/tutorials/introduction.rst:A = -G.imag / np.pi"]}
{"id": "C75", "title": "No spectral weight outside of the band", "statement": "Let the model be made by add_ calls, at temperature 0 or T > 0, with at most N phonons of each type. Let floor = (sum over types of min(0, Omega_t pn_t)) - w and ceiling = (sum of max(0, Omega_t pn_t)) + w with w = 2|t| + sqrt(N) times the sum of the absolute couplings of the terms. At a frequency at least d below the floor or above the ceiling the number that the code returns satisfies, for every momentum and every eta > 0: |G| <= 1/d; 0 < -Im G <= eta/d^2; Re G <= -d|G|^2 below and d|G|^2 <= Re G above. Two such numbers differ by at most |z - z'| / (d d'), whatever the broadenings; as eta goes to 0 they converge to a real number, negative below and positive above, with error at most eta/d^2. At every frequency -Im G >= eta / (|z| + w)^2. The spectral weight of an interval outside of the band is at most eta / (pi d), and a window that covers the band with a margin d holds between 1 - 2 eta/(pi d) and 1.", "quantifier": "every list of calls, temperature, momentum, broadening, frequency outside of the band, window, variational space", "why_tests_cant": "the bound must hold down to eta = 0 where the linear systems of a wrong model become singular; a test sees a few frequencies and one eta", "anchors": ["ggce/executors/solvers.py:SparseSolver.greens_function", "ggce/executors/solvers.py:DenseSolver.greens_function", "ggce/engine/system.py:System._initialize_equations", "ggce/utils/physics.py:g0_delta_omega", "ggce/model.py:Model.add_", "docs/source/tutorials/introduction.rst:A = -G.imag / np.pi"]}
{"id": "C76", "title": "The Green's function is a resolvent at every set of points", "statement": "Let the model be made by add_ calls, at temperature 0 or T > 0, and let G_1..G_n be what the code returns at the same momentum and any points z_p = w_p + i eta_p with eta_p > 0. The Pick matrix (conj G_q - G_p) / (z_p - conj z_q) is hermitian and at least the matrix G_p conj G_q, in the sense of forms; the same matrix of the self-energies (G = 1/(z - band - Sigma)) is hermitian and positive. Consequences: |G - G'|^2 eta eta' <= |z - z'|^2 Im G Im G'. At one frequency and eta < eta', eta A <= eta' A', A' / eta' < A / eta and eta / A + pi (eta'^2 - eta^2) <= eta' / A'. At one eta, A(w) <= (t + sqrt(t^2 + 1))^2 A(w') with t = |w - w'| / (2 eta); on a grid with spacing at most eta every frequency has a grid point within half a spacing at which A is at least 3/5 of its value there.", "quantifier": "every list of calls, temperature, momentum, number of points, frequencies and broadenings, variational space", "why_tests_cant": "relates the results of independent runs, each with its own linear system, for every number of points at once; a test compares a few values with a stored result", "anchors": ["ggce/executors/solvers.py:SparseSolver.greens_function", "ggce/executors/solvers.py:DenseSolver.greens_function", "ggce/engine/system.py:System._initialize_equations", "ggce/utils/physics.py:g0_delta_omega", "ggce/model.py:Model.add_", "docs/source/tutorials/introduction.rst:A = -G.imag / np.pi"]}
{"id": "C77", "title": "The peak finders on the computed spectral function", "statement": "Let A and A' be the spectral functions the code gives at broadenings eta and eta' which differ. The number under the root in peak_location_and_weight is never negative, and positive wherever Re G is not zero (always outside of the band). Where it is positive the returned Lorentzian lies below w, has positive weight, and passes through A at eta and A' at eta'; if Re G is not zero its weight is at most one. Outside of the band (w - loc)^2 <= (|z| + half the width of the band)^2 - eta^2. In peak_location_and_weight_wstep, at two frequencies with different A, the number under the root is never negative and the returned Lorentzian has positive weight and passes through both values.", "quantifier": "every list of calls, temperature, momentum, frequency, pair of broadenings or frequencies, variational space", "why_tests_cant": "the finders assume an exact Lorentzian, which computed spectra are not; that the roots are real for all of them is a fact about the Green's function, not about the formula", "anchors": ["ggce/utils/utils.py:peak_location_and_weight", "ggce/utils/utils.py:peak_location_and_weight_wstep", "ggce/utils/utils.py:lorentzian", "ggce/executors/solvers.py:SparseSolver.greens_function"]}
{"id": "C78", "title": "The variational principle", "statement": "Let the model be made by add_ calls. Call trial state of momentum k a finite combination of states of the variational space (particle, cloud) with that momentum; its energy is <Psi|H|Psi> / <Psi|Psi>. If no trial state has an energy below e then at every frequency w <= e - d and every eta > 0 the number that the code returns satisfies Re G <= -d|G|^2, |G| <= 1/d and 0 < -Im G <= eta/d^2, so A <= eta/(pi d^2); as eta goes to 0 it converges to a real number with error at most eta/d^2; the same above all energies with the other sign. All energies lie in the band of C75, and the phonon-free state has energy -2 t cos(k a). If every limit of a second model with the same physics (phonon_extent, phonon_number, absolute extent, phonons per site) is at least that of the first, each bound on its energies is one for the first model, and below them Re G' + d|G' - G|^2 <= Re G + 2 eta/d^2; at eta = 0, x' + d(x' - x)^2 <= x. Above them the order is reversed.", "quantifier": "every list of calls, momentum, frequency outside of the energies of the trial states, broadening, every two sets of limits one of which is at least the other", "why_tests_cant": "compares runs with different variational spaces, at every frequency and at broadenings where each run is nearly singular; the hypothesis quantifies over all trial states", "anchors": ["ggce/executors/solvers.py:SparseSolver.greens_function", "ggce/executors/solvers.py:DenseSolver.greens_function", "ggce/engine/system.py:System._initialize_equations", "ggce/engine/system.py:generate_all_legal_configurations", "ggce/model.py:Model.add_", "ggce/utils/physics.py:g0_delta_omega"]}
{"id": "C79", "title": "Timed blocks and messages do not change what is computed", "statement": "with timeit(stream, msg): a block returns or raises what its body does and, also when the body raises, writes exactly one message after the body: '[x u] msg' where x has two decimals, u is s below 10 s, m below 10 min, h below 10 h and d above, and x u is the time between the two clock readings up to half a hundredth of the unit, hence up to 0.005 s below 10 s and up to 3 percent above. An exception of the stream replaces the outcome. Building a system with its four timed blocks gives the same system or exception for every clock, with one message per stage up to the one that failed, in order. Messages with elapsed= pass through str.format: those with a fixed text never raise; loading a matrix from disk is unaffected if the directory name has no braces. A directory name with a word in braces makes every load raise KeyError or IndexError under the configuration set at import, although the message is shown nowhere. In general a message without nested fields gives the text of its parts, or the exception of the first that raises: doubled braces give one, a field that names elapsed its value, a number IndexError, another name KeyError, a brace without partner ValueError. With the logger disabled or no handler for debug messages nothing is formatted and no name has an effect.", "quantifier": "every clock, body, message, duration, model, visiting order, directory name, logger configuration", "why_tests_cant": "quantifies over clocks and exceptions at every stage; the failure needs a directory name with braces and an MPI run", "anchors": ["ggce/utils/utils.py:timeit", "ggce/utils/utils.py:_adjust_log_msg_for_time", "ggce/utils/utils.py:_elapsed_time_str", "ggce/engine/system.py:System._prime_system", "ggce/executors/petsc4py/base.py:MassSolver._scaffold_from_disk", "ggce/executors/petsc4py/solvers.py:MassSolverMUMPS.solve"]}
{"id": "C80", "title": "Stronger couplings and softer phonons lower the Green's function below the spectrum", "statement": "Below all energies of trial states, by d, the real part of the number that the solver returns is the minimum over the trial states of <Psi|H - w|Psi> + 2 Re Psi(vacuum), up to the broadening, and above it is a maximum. Hence the least energy and, below the energies, the real part are concave functions of the Hamiltonian (hopping, couplings, frequencies), the greatest energy and the real part above are convex. Multiplying the couplings to any of the types of phonons by a factor between -1 and 1 keeps the energies between the same bounds, raises the real part below them and lowers it above. Higher frequencies raise the energies and the real part. All bounds on the real parts hold up to 2 eta / d^2. Model.add_ with a coupling strength times a factor gives the model whose couplings to the new types, also those added at finite temperature, are multiplied by it.", "quantifier": "every two or three models with the same space, momentum, energy outside of the spectrum, broadening, factor between -1 and 1, trial state", "why_tests_cant": "quantifies over pairs of models, all trial states and all energies outside of the spectrum", "anchors": ["ggce/model.py:Model.add_", "ggce/model.py:Hamiltonian._get_SingleTerm_objects", "ggce/executors/solvers.py:SparseSolver.solve", "ggce/utils/physics.py:G0_k_omega", "ggce/engine/system.py:System._prime_system"]}
{"id": "C81", "title": "Broadening of the other sign", "statement": "G0_k_omega at the conjugate frequency and minus the broadening is the conjugate, that is the advanced function. g0_delta_omega is that too without hopping, and with hopping if also sgn = -1 is given. With the default sgn, the one the solvers use, and hopping it still solves the equation of the chain, but it is the other solution: on the same site minus the advanced function, at distance d growing as the retarded function decays, and at no distance the advanced function. No solver rejects a negative eta: for clouds of one site the result is the conjugate without hopping, and with hopping the self energy enters with the wrong sign, so that with a coupling the result is never the conjugate of the one at positive eta.", "quantifier": "every complex frequency, broadening, hopping, distance, lattice constant, momentum, coupling, number of phonons", "why_tests_cant": "quantifies over all complex frequencies, distances and models; the tests only use positive broadenings", "anchors": ["ggce/utils/physics.py:g0_delta_omega", "ggce/utils/physics.py:G0_k_omega", "ggce/executors/solvers.py:SparseSolver.solve", "ggce/executors/solvers.py:BasicSolver.greens_function"]}
{"id": "C82", "title": "The order of the add_ calls and uncoupled phonon types do not matter", "statement": "Two models made by the same add_ calls in different orders are both accepted and give the same Green's function, although their phonon types are numbered differently. Calls with coupling 0 can be left out, if their extents are not larger than those of the others; an uncoupled type of larger extent does change the result, because it raises the absolute extent of the clouds of all types.", "quantifier": "every list of calls with different frequencies, of any length, types, couplings, extents and numbers of phonons, every order of them and every set of uncoupled calls; every hopping, lattice constant, temperature, momentum, frequency and positive broadening, every order of iteration over dictionaries", "why_tests_cant": "quantifies over all lists of calls and their permutations; the tests compare a few fixed models", "anchors": ["ggce/model.py:Model.add_", "ggce/model.py:Model.from_parameters", "ggce/model.py:Hamiltonian._add_", "ggce/executors/solvers.py:SparseSolver.solve"]}
{"id": "C83", "title": "The Green's function commutes with maps of the numbers; complex conjugation", "statement": "If all numbers that enter (couplings, phases, propagators) at one point are the images of those at another under a homomorphism of rings, the Green's function is the image too; an invertible map also carries over that the linear system is nonsingular. Complex conjugation is such a map, hence: without hopping the Green's function at the opposite broadening is the complex conjugate, for every model made by add_ calls, and without broadening it is real; with hopping this holds for the solver with sgn = -1 in g0_delta_omega, which the code never passes (C81).", "quantifier": "every ring homomorphism, model, point, order of iteration over dictionaries, exact solver; every model made by add_ calls, every momentum, frequency and broadening", "why_tests_cant": "quantifies over all models, maps and points; no test uses a broadening that is not positive", "anchors": ["ggce/engine/terms.py:Term.coefficient", "ggce/executors/solvers.py:SparseSolver.solve", "ggce/utils/physics.py:g0_delta_omega", "ggce/utils/physics.py:G0_k_omega"]}
{"id": "C84", "title": "The sign of the hopping", "statement": "The hopping appears in none of the equations, only in the numbers put into them. The Green's functions g, g' for two free Green's functions G0, G0' (all other numbers equal) obey (G0' - G0) g g' = G0 G0' (g' - g), so they have the same self-energy. Since g0_delta_omega uses only |t|, the code therefore returns for hopping -t at momentum k the Green's function with the band of -t but the self-energy of +t at k. The lattice demands G_{-t}(k) = G_t(k + pi): with the propagator times (-1)^distance, which is the resolvent of the lattice for negative hopping, this holds for every model made by add_ calls; with the code's propagator it is false.", "quantifier": "every ring, model, point, order of iteration over dictionaries, exact solver; every model made by add_ calls with lattice constant 1, every momentum, frequency and positive broadening", "why_tests_cant": "quantifies over all models and points; no test uses a negative hopping", "anchors": ["ggce/utils/physics.py:g0_delta_omega", "ggce/utils/physics.py:G0_k_omega", "ggce/engine/terms.py:EOMTerm.coefficient", "ggce/engine/terms.py:NonIndexTerm.coefficient", "ggce/executors/solvers.py:SparseSolver.solve"]}
{"id": "C85", "title": "Units of energy and length", "statement": "Only ratios of energies matter: if hopping, temperature, frequencies, coupling strengths, w and eta are all multiplied by c > 0 (dimensionless coupling strengths unchanged), every add_ call gives the same messages and the model with all energies multiplied by c, and the returned Green's function and spectral function are divided by c. The same holds over every ring for numbers related in this way. Only k times the lattice constant matters (examined: true without hopping).", "quantifier": "every c > 0, sequence of add_ calls at any temperature, point, order of iteration over dictionaries, exact solver", "why_tests_cant": "quantifies over all models, points and factors; no test changes units", "anchors": ["ggce/model.py:model_coupling_map", "ggce/model.py:Model.add_", "ggce/model.py:Model._get_TFD_coupling_prefactors", "ggce/utils/physics.py:g0_delta_omega", "ggce/utils/physics.py:G0_k_omega", "ggce/engine/terms.py:EOMTerm.coefficient", "ggce/executors/solvers.py:SparseSolver.solve"]}
{"id": "C86", "title": "Raising eta is broadening with a Lorentzian", "statement": "The spectral function with broadening eta + delta is the spectral function with broadening eta convolved with a Lorentzian of width delta, and the same holds for real and imaginary part of the Green's function; over [-r, r] the error is at most K / r with K the same for all models and momenta. So raising eta never raises the highest peak and never lowers the lowest value. The Green's function is complex differentiable in w + i eta, and its divided difference at n + 1 distinct frequencies with Im z >= y is at most 1 / y^(n + 1).", "quantifier": "every model made by calls of add_, momentum, eta and delta > 0, order of iteration over dictionaries, exact solver", "why_tests_cant": "relates values at all frequencies to each other through an integral; tests compare single values", "anchors": ["ggce/executors/solvers.py:SparseSolver.solve", "ggce/executors/solvers.py:Solver.greens_function", "ggce/utils/physics.py:g0_delta_omega", "ggce/utils/physics.py:G0_k_omega", "ggce/engine/terms.py:EOMTerm.coefficient"]}
{"id": "C87", "title": "The spectral function on an interval determines the Green's function", "statement": "If the spectral functions of two models agree on some interval of frequencies for one eta, then greens_function gives the same value for both at every frequency and every eta > 0, whatever the two momenta, cutoffs and couplings; so the energies -2 t cos(k a) agree, and for two Holstein models also the couplings up to sign, the phonon frequencies (if the coupling is not 0) and, if both have room for two phonons, the hoppings. Between two neighbouring frequencies x and x' of the array the straight line through the two values is within (x' - x)^2 / (4 pi eta^3) of the spectral function; Newton's polynomial through the values of the Green's function at n distinct frequencies goes through these values and is elsewhere within |product of the n differences| / y^(n + 1), if Im z >= y at all of them.", "quantifier": "every pair of models made by calls of add_, momenta, eta > 0, interval, list of frequencies, order of iteration over dictionaries, exact solver", "why_tests_cant": "speaks of all frequencies at once, and of the frequencies between those of any grid; a test sees the grid only", "anchors": ["ggce/executors/solvers.py:SparseSolver.solve", "ggce/executors/solvers.py:Solver.greens_function", "ggce/utils/physics.py:g0_delta_omega", "ggce/utils/physics.py:G0_k_omega", "ggce/engine/terms.py:EOMTerm.coefficient"]}
{"id": "C88", "title": "What the solvers log about memory", "statement": "The CSR matrix made from the assembled entries is the same matrix, with one stored number per entry. 'Estimated memory needed' of SparseSolver is at least what this matrix takes and less than twice that. 'Memory usage of sparse X' (solvers.py:295) divides numbers of elements by the bytes of a MB: the matrix takes more than 4 and less than 6 times what is logged. The parallel solver (base.py:239) divides by the bytes of a GB but writes MB: its number is less than 1/1023 of the other and reads 0.00 exactly for matrices with at most 223696 entries.", "quantifier": "every model the engine works on, order of iteration over dictionaries, coefficients, number of entries", "why_tests_cant": "the numbers occur in debug messages only, which no test reads; the factor between 4 and 6 is a statement about all models", "anchors": ["ggce/executors/solvers.py:SparseSolver._sparse_matrix_from_equations", "ggce/executors/solvers.py:SparseSolver._scaffold", "ggce/executors/petsc4py/base.py:MassSolver._sparse_matrix_from_equations"]}
{"id": "C89", "title": "SingleTerm: checks and text", "statement": "With the loggers in any configuration, the constructor of SingleTerm keeps all arguments if psi and phi are arrays, dag is '+' or '-', the coupling and the frequency are int or float and the index is an int that is not negative, and ends the program otherwise. Inside disable_logger() a wrong dag, coupling, index or frequency raises TypeError, and a psi or phi of a wrong type is kept: reading it raises AttributeError. The terms the models make pass in every state of the loggers. Two terms with the same text have the same type, shifts, dagger and index, and couplings and frequencies that differ by at most 0.01; Hamiltonians that print alike have such terms in the same order.", "quantifier": "every value of each argument, configuration of the loggers, term with shifts of one integer and a type without colon and line feed, list of terms", "why_tests_cant": "tests make valid terms only; which pairs of terms print alike is a statement about all pairs", "anchors": ["ggce/model.py:SingleTerm.__init__", "ggce/model.py:SingleTerm.psi", "ggce/model.py:SingleTerm.phi", "ggce/model.py:SingleTerm.dag", "ggce/model.py:SingleTerm.coupling", "ggce/model.py:SingleTerm.phonon_index", "ggce/model.py:SingleTerm.phonon_frequency", "ggce/model.py:SingleTerm.__str__", "ggce/model.py:Hamiltonian.visualize", "ggce/logger.py:configure_loggers"]}
{"id": "C90", "title": "Fitting a line to the spectral function", "statement": "peak_location_and_weight_scipy raises IndexError without frequencies and TypeError with one or two. If the data lie on a Lorentzian of positive weight and width, at three or more different frequencies, the least-squares solutions are exactly this Lorentzian and the one with weight and width both negated; nothing in the code keeps curve_fit from the latter. A line of weight one at the last frequency is returned, up to these signs, if the fit converges. The spectral function of the code without coupling is a line at the energy of the free particle, of weight one and width eta, so that the fit gives these three numbers. For the Holstein model this happens only without coupling: on no interval of frequencies is A a line of weight one and width eta if the coupling is not zero.", "quantifier": "every list of frequencies with three different ones, line, usable model without coupling, momentum, eta, Holstein model, interval, and every curve_fit that meets its documentation", "why_tests_cant": "which parameters solve the least-squares problem is a statement about all parameters; no test calls this function", "anchors": ["ggce/utils/utils.py:peak_location_and_weight_scipy", "ggce/utils/utils.py:lorentzian"]}
{"id": "C91", "title": "Assignments to Config and Term", "statement": "With the loggers in any configuration the constructor of Config accepts the arrays of C01, ends the program for all others and warns exactly about more than four axes. Assigning to Config.config checks the number of axes and the signs only and keeps the counters: it accepts clouds with empty edges, which the constructor rejects. Inside disable_logger() the constructor accepts every array, e.g. one with -1 phonons. exp_shift, f_arg and g_arg accept None and vectors with one number per spatial axis, constant_prefactor ints and floats; anything else ends the program, or is kept while the logger is disabled.", "quantifier": "every array, configuration of the loggers, Config, vector, value", "why_tests_cant": "the setters are not tested, and the checks of the constructor with the default loggers only", "anchors": ["ggce/engine/terms.py:Config.__init__", "ggce/engine/terms.py:Config.config", "ggce/engine/terms.py:_check_config", "ggce/engine/terms.py:_validate_config_is_legal", "ggce/engine/terms.py:Term.exp_shift", "ggce/engine/terms.py:Term.f_arg", "ggce/engine/terms.py:Term.g_arg", "ggce/engine/terms.py:Term.constant_prefactor"]}
