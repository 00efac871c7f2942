{
 "claims": [
  {
   "property": "C01",
   "status": "proved",
   "theorems": [
    "C01_config_accepts"
   ],
   "note": "Every rank and shape."
  },
  {
   "property": "C02",
   "status": "proved",
   "theorems": [
    "C02_remove_phonon"
   ],
   "note": "Every rank; result described by the occupation function on Z^d."
  },
  {
   "property": "C03",
   "status": "proved",
   "theorems": [
    "C03_add_phonon"
   ],
   "note": "Every rank; tightness of the result is minimality of the box."
  },
  {
   "property": "C04",
   "status": "proved",
   "theorems": [
    "C04_add_then_remove",
    "C04_remove_then_add"
   ],
   "note": "Both directions."
  },
  {
   "property": "C05",
   "status": "proved",
   "theorems": [
    "C05_remove_aborts",
    "C05_remove_no_other_failure",
    "C05_remove_index_wraps",
    "C05_add_outcome",
    "C05_negative_index_refuted"
   ],
   "note": "Aborts proved; the documented abort for negative indexes is refuted (numpy wraps), and what happens instead is proved (C05_remove_index_wraps)."
  },
  {
   "property": "C06",
   "status": "proved",
   "theorems": [
    "C06_config_id",
    "C06_term_id",
    "C06_phonon_config_id"
   ],
   "note": "Config, term and phonon-config ids; all ranks. -0.0 in f_arg is not modelled."
  },
  {
   "property": "C07",
   "status": "proved",
   "theorems": [
    "C07_config_legal",
    "C07_short_constraint_refuted",
    "C07_empty_axis_refuted",
    "C07_negative_green_refuted"
   ],
   "note": "Under non-empty spatial axes and constraint lists covering all types; each side condition is shown necessary by a refutation."
  },
  {
   "property": "C08",
   "status": "proved",
   "theorems": [
    "C08_histories",
    "C08_through_vacuum_refuted"
   ],
   "note": "All histories not adding to a phonon-free config; the excluded case is refuted."
  },
  {
   "property": "C09",
   "status": "proved",
   "theorems": [
    "C09_degenerate",
    "C09_config_space_gen"
   ],
   "note": "Every length >= 1 and total >= 0; other arguments in C09_degenerate."
  },
  {
   "property": "C10",
   "status": "proved",
   "theorems": [
    "C10_space_exact",
    "C10_higher_dimension_exits"
   ],
   "note": "One dimension; higher dimensions exit."
  },
  {
   "property": "C11",
   "status": "proved",
   "theorems": [
    "C11_closed",
    "C11_product",
    "C11_short",
    "C11_term",
    "C11_analytic_count",
    "C11_explicit_extent_mismatch_refuted"
   ],
   "note": "With the default absolute extent; explicit extent refuted. Closed form and product in C11_closed and C11_product, arguments outside the range in C11_short and C11_term."
  },
  {
   "property": "C12",
   "status": "proved",
   "theorems": [
    "C12_monotone_space"
   ],
   "note": "Monotone in phonon number, extent, absolute extent and per-site limit."
  },
  {
   "property": "C13",
   "status": "proved",
   "theorems": [
    "C13_annihilation_term"
   ],
   "note": "Every rank; annihilation terms built for legal clouds."
  },
  {
   "property": "C14",
   "status": "proved",
   "theorems": [
    "C14_lengths",
    "C14_creation_term",
    "C14_terms_exact"
   ],
   "note": "Every rank; C14_terms_exact additionally gives the exact list of terms of an equation in one dimension."
  },
  {
   "property": "C15",
   "status": "proved",
   "theorems": [
    "C15_hierarchy"
   ],
   "note": "Every system built from a model satisfying good_model (Spec_engine.v)."
  },
  {
   "property": "C16",
   "status": "proved",
   "theorems": [
    "C16_cloud_row",
    "C16_green_row",
    "C16_system_rows",
    "C16_annihilation_sites"
   ],
   "note": "Every row of every system built from a good_model, over any commutative ring; delta arbitrary. Sums are over exactly the sites that keep the cloud in the space."
  },
  {
   "property": "C17",
   "status": "proved",
   "theorems": [
    "C17_single_green"
   ],
   "note": "Every system built from a good_model."
  },
  {
   "property": "C18",
   "status": "proved",
   "theorems": [
    "C18_closure",
    "C18_histories",
    "C18_equal_frequencies_refuted",
    "C18_mixed_offsets_refuted",
    "C18_no_coupling_refuted",
    "C18_zero_limit_refuted",
    "C18_zero_extent_refuted",
    "C18_override_refuted"
   ],
   "note": "For every model satisfying good_model and, in C18_histories, every sequence of accepted add_ calls and attribute assignments; each hypothesis (distinct frequencies, no mixing with bond couplings, at least one coupling, positive limits, no index override) is shown necessary by a refutation."
  },
  {
   "property": "C19",
   "status": "proved",
   "theorems": [
    "C19_one_equation_per_unknown"
   ],
   "note": "Every system built from a good_model."
  },
  {
   "property": "C20",
   "status": "proved",
   "theorems": [
    "C20_full_basis",
    "C20_local_basis"
   ],
   "note": "Every system built from a good_model; Green's function last."
  },
  {
   "property": "C21",
   "status": "proved",
   "theorems": [
    "C21_order_permutes",
    "C21_result_order_independent"
   ],
   "note": "Every good_model, every pair of orders; SparseSolver's result, assuming spsolve solves nonsingular systems (shown satisfiable by Gaussian elimination)."
  },
  {
   "property": "C22",
   "status": "proved",
   "theorems": [
    "C22_matrix",
    "C22_solutions",
    "C22_sparse_result"
   ],
   "note": "Every system built from a good_model, over any commutative ring."
  },
  {
   "property": "C23",
   "status": "proved",
   "theorems": [
    "C23_dense_extends",
    "C23_dense_is_sparse",
    "C23_pivots_nonsingular",
    "C23_singular_pivot_refuted"
   ],
   "note": "Exact arithmetic over any field. Agreement needs linalg.solve to have solved the pivots; a singular pivot with a nonsingular sparse system exists (C23_singular_pivot_refuted). Nonsingular pivots include the final denominator."
  },
  {
   "property": "C24",
   "status": "proved",
   "theorems": [
    "C24_serial",
    "C24_others",
    "C24_entries",
    "C24_distribution",
    "C24_scalar",
    "C24_int_refuted"
   ],
   "note": "Solve at a point does not depend on the rank (no communication inside it). An integer scalar argument raises TypeError (C24_int_refuted)."
  },
  {
   "property": "C25",
   "status": "proved",
   "theorems": [
    "C25_accepted",
    "C25_rejected",
    "C25_divisors",
    "C25_brigades",
    "C25_balanced",
    "C25_result",
    "C25_prefix",
    "C25_nan",
    "C25_shape_refuted",
    "C25_one_point_refuted"
   ],
   "note": "Results on every rank for results without nan; nan results break the reshape (C25_nan), the returned shape is the padded one (C25_shape_refuted), and a one-point grid with several brigades fails (C25_one_point_refuted)."
  },
  {
   "property": "C26",
   "status": "proved",
   "theorems": [
    "C26_minimal",
    "C26_divisible",
    "C26_amount",
    "C26_total",
    "C26_errors",
    "C26_increasing",
    "C26_one_point_fails",
    "C26_many_refuted"
   ],
   "note": "Minimality, prefix, spacing, totality up to 1000 brigades; one-point grids and more than 1000 brigades fail (C26_one_point_fails, C26_many_refuted)."
  },
  {
   "property": "C27",
   "status": "proved",
   "theorems": [
    "C27_assembly",
    "C27_prealloc",
    "C27_value",
    "C27_too_many_ranks",
    "C27_ranks_refuted",
    "C27_duplicates_refuted"
   ],
   "note": "For every distribution of rows (assembly, preallocation) and every number of ranks up to the number of unknowns (value). With more ranks than unknowns reading the result raises IndexError (C27_too_many_ranks, C27_ranks_refuted); assembly needs entries at distinct positions, proved for the matrices of the code (C27_duplicates_refuted without). MUMPS is an assumption (mumps_ok), shown satisfiable."
  },
  {
   "property": "C28",
   "status": "proved",
   "theorems": [
    "C28_disk",
    "C28_greens",
    "C28_no_directory",
    "C28_files",
    "C28_collision_refuted",
    "C28_other_size_refuted",
    "C28_brigades_refuted"
   ],
   "note": "For grids whose points are equal or more than 1e-10 apart, a directory without other pickles and the same number of brigades. Refuted otherwise: colliding names, a matrix of another size in the directory, another number of brigades, no directory. C28_files: what is read from any directory at all."
  },
  {
   "property": "C29",
   "status": "proved",
   "theorems": [
    "C29_transparent",
    "C29_stored",
    "C29_never_replaced",
    "C29_errors",
    "C29_points",
    "C29_reuse",
    "C29_torn",
    "C29_crash",
    "C29_crash_refuted",
    "C29_collision_refuted",
    "C29_other_model_refuted"
   ],
   "note": "For directories with complete files holding the values of the points asked for, and points equal or more than 1e-10 apart in a coordinate. Refuted otherwise: colliding names (C29_collision_refuted), results of another model (C29_other_model_refuted), a crash during the write (C29_crash_refuted)."
  },
  {
   "property": "C30",
   "status": "proved",
   "theorems": [
    "C30_crash_points",
    "C30_torn_forever",
    "C30_repeat",
    "C30_killed_reload",
    "C30_refuted"
   ],
   "note": "The statement as given is false (C30_refuted). Proved instead: the exact outcome of reloading at every crash point (C30_crash_points), that a torn pickle is never repaired by anything the code does (C30_torn_forever), that without one repeating the construction recovers (C30_repeat), and that a kill during a reload loses model.json (C30_killed_reload)."
  },
  {
   "property": "C31",
   "status": "proved",
   "theorems": [
    "C31_root_irrelevant",
    "C31_roundtrip",
    "C31_files",
    "C31_histories",
    "C31_failure",
    "C31_never_replaced",
    "C31_subsets",
    "C31_other_model",
    "C31_overwrites_refuted",
    "C31_mixed_refuted",
    "C31_order_refuted"
   ],
   "note": "Round-trip for every storable model, limit and history of constructions and reloads of that model; pickles never replaced in any directory and history. Overwriting refuted for model.json (C31_overwrites_refuted), and a second model in the directory gives a mixed checkpoint (C31_other_model, C31_mixed_refuted). C31_subsets: what a reload gives when any of the three pickles is missing; if only generalized_equations.pkl is, the stored f_arg_list is appended to and the result needs an order of iteration unchanged by iterating twice (C31_order_refuted without it)."
  },
  {
   "property": "C32",
   "status": "proved",
   "theorems": [
    "C32_rejected",
    "C32_added",
    "C32_raises",
    "C32_all_or_nothing",
    "C32_unknown_type",
    "C32_unknown_type_refuted"
   ],
   "note": "Every model state and argument combination for the four supported types; refuted for unknown types, which are reported but still counted."
  },
  {
   "property": "C33",
   "status": "proved",
   "theorems": [
    "C33_frequencies",
    "C33_energy",
    "C33_equal_frequencies_refuted"
   ],
   "note": "Every history with pairwise different frequencies; refuted when two types share one."
  },
  {
   "property": "C34",
   "status": "proved",
   "theorems": [
    "C34_prefactors",
    "C34_zero_temperature",
    "C34_low_temperature"
   ],
   "note": "Over the reals; T <= 0 gives (1, 0); the prefactors' convergence for T -> 0 is also proved."
  },
  {
   "property": "C35",
   "status": "proved",
   "theorems": [
    "C35_symmetric"
   ],
   "note": "Every history, temperature on or off; the phonon coordinate of Peierls couplings is odd under reflection."
  },
  {
   "property": "C36",
   "status": "proved",
   "theorems": [
    "C36_inverse",
    "C36_even",
    "C36_periodic"
   ],
   "note": "Over the reals, floating-point rounding not modelled; complex omega allowed with Im omega + eta > 0."
  },
  {
   "property": "C37",
   "status": "proved",
   "theorems": [
    "C37_resolvent",
    "C37_resolvent_no_hopping",
    "C37_negative_hopping",
    "C37_lattice_constant",
    "C37_negative_hopping_refuted",
    "C37_lattice_constant_refuted",
    "C37_even",
    "C37_decay",
    "C37_fourier"
   ],
   "note": "Resolvent equation, evenness, decay and Fourier sum proved for t >= 0 and a = 1; refuted for every t < 0 and every a <> 1 with t > 0."
  },
  {
   "property": "C38",
   "status": "proved",
   "theorems": [
    "C38_two_broadenings",
    "C38_below_peak",
    "C38_below_peak_refuted",
    "C38_two_frequencies",
    "C38_two_frequencies_refuted"
   ],
   "note": "Two broadenings: exact above the peak, mirror image below. Two frequencies: exact when the other root has weight above 1; refuted otherwise."
  },
  {
   "property": "C39",
   "status": "proved",
   "theorems": [
    "C39_history",
    "C39_flush",
    "C39_full",
    "C39_collision_refuted"
   ],
   "note": "File names (uuid4) are an oracle; distinctness is a hypothesis, needed by C39_collision_refuted."
  },
  {
   "property": "C40",
   "status": "proved",
   "theorems": [
    "C40_routing",
    "C40_programs",
    "C40_exact",
    "C40_critical",
    "C40_disabled",
    "C40_enabled_after",
    "C40_custom",
    "C40_streams",
    "C40_all",
    "C40_critical_refuted",
    "C40_nested_disable_refuted",
    "C40_nested_debug_refuted",
    "C40_testing_refuted",
    "C40_twice_refuted"
   ],
   "note": "Every level, rank and program of messages, configurations, exceptions and nested context managers (C40_exact gives the mode of every message). Refuted: CRITICAL inside disable_logger does not terminate, nested disable_logger/debug are undone early, _testing_mode leaves DEBUG on, overlapping custom filters print twice. loguru's dispatch is modelled (order of handlers, levels, filters, disable/enable of everything)."
  },
  {
   "property": "C41",
   "status": "proved",
   "theorems": [
    "C41_built_storable",
    "C41_roundtrip",
    "C41_later",
    "C41_identical",
    "C41_same_extent",
    "C41_refuted"
   ],
   "note": "Round-trip for every model made by the library (C41_built_storable). Later behaviour characterised exactly: equal but for the absolute extent, which is frozen at the saved value (C41_later, C41_same_extent); identical behaviour refuted (C41_refuted). monty's JSON encoding is modelled for the attribute types that occur."
  },
  {
   "property": "C42",
   "status": "proved",
   "theorems": [
    "C42_sign",
    "C42_calls",
    "C42_physical",
    "C42_free",
    "C42_free_physical"
   ],
   "note": "Every good_model (sign of any subset of types), every pair of orders, any commutative ring; spelled out for histories of add_ calls and on the complex numbers. Needs a nonsingular system and spsolve solving it."
  },
  {
   "property": "C43",
   "status": "proved",
   "theorems": [
    "C43_duration",
    "C43_remaining"
   ],
   "note": "Over the reals; percentage 0 raises."
  },
  {
   "property": "C44",
   "status": "proved",
   "theorems": [
    "C44_temperature",
    "C44_lattice_constant",
    "C44_absolute_extent"
   ],
   "note": "The isinstance checks are represented by the option type (None = not a number); bool counts as a number in Python."
  },
  {
   "property": "C45",
   "status": "proved",
   "theorems": [
    "C45_same_branch",
    "C45_matching",
    "C45_progress",
    "C45_bound",
    "C45_complete",
    "C45_grid",
    "C45_equal_names_refuted",
    "C45_torn_refuted",
    "C45_other_brigade_refuted",
    "C45_padding_refuted"
   ],
   "note": "For points with different file names not written by other brigades, complete files: same branch, matching collectives, no failure, progress, at most 5 steps per point and rank, all files at the end; hypotheses hold for separated grids (C45_grid). Refuted otherwise: equal names (deadlock or EOFError), another brigade writing the same file, which padding can cause."
  },
  {
   "property": "C46",
   "status": "proved",
   "theorems": [
    "C46_square_root",
    "C46_edwards",
    "C46_sign_of_frequency",
    "C46_unknown"
   ],
   "note": "Over the reals; a negative radicand raises ValueError."
  },
  {
   "property": "C47",
   "status": "proved",
   "theorems": [
    "C47_mirror",
    "C47_built",
    "C47_opposite",
    "C47_physical"
   ],
   "note": "Every model built by add_ calls (distinct frequencies not needed for the symmetry itself, good_model for the system), any commutative ring; instantiated with the complex environment at k and -k."
  },
  {
   "property": "C48",
   "status": "proved",
   "theorems": [
    "C48_part",
    "C48_calls",
    "C48_additive",
    "C48_extent_refuted"
   ],
   "note": "Every history whose fictitious prefactors vanish, in any ring, under the condition that the fictitious extents do not enlarge the default absolute extent (or there is a single type); refuted without it (C48_extent_refuted: the default absolute extent is the maximum over physical and fictitious extents)."
  },
  {
   "property": "C49",
   "status": "proved",
   "theorems": [
    "C49_same_root",
    "C49_own_root_only",
    "C49_other_root",
    "C49_nothing",
    "C49_negative",
    "C49_refuted",
    "C49_negative_refuted"
   ],
   "note": "Holds when the System's own root is the solver's root (C49_same_root). Both documented claims are refuted: the System is not checkpointed under the solver's root otherwise (C49_other_root, C49_refuted), and negative results are stored (C49_negative, C49_negative_refuted)."
  },
  {
   "property": "C50",
   "status": "proved",
   "theorems": [
    "C50_periodic",
    "C50_brillouin",
    "C50_separations",
    "C50_lattice"
   ],
   "note": "Over any commutative ring (C50_periodic) and for the physical propagators at any lattice constant (C50_brillouin); propagators only between sites (C50_separations)."
  },
  {
   "property": "C51",
   "status": "proved",
   "theorems": [
    "C51_hermitian",
    "C51_spectral",
    "C51_histories",
    "C51_lattice_refuted"
   ],
   "note": "Lattice constant 1 or no hopping, exact arithmetic, spsolve solves nonsingular systems; all supported couplings, any mixture the engine accepts, zero or finite temperature, any hopping sign. C51_histories starts from the calls the user makes. Refuted for lattice constants other than 1 (C51_lattice_refuted): negative spectral weight, caused by |delta * a| in g0_delta_omega."
  },
  {
   "property": "C52",
   "status": "proved",
   "theorems": [
    "C52_regular",
    "C52_symmetric"
   ],
   "note": "Lattice constant 1 or no hopping, exact arithmetic, spsolve solves nonsingular systems; all supported couplings, any mixture the engine accepts, zero or finite temperature, any hopping sign. C52_symmetric: C47 and C50 without regularity assumptions."
  },
  {
   "property": "C53",
   "status": "proved",
   "theorems": [
    "C53_pivots",
    "C53_dense"
   ],
   "note": "Lattice constant 1 or no hopping, exact arithmetic, spsolve solves nonsingular systems; all supported couplings, any mixture the engine accepts, zero or finite temperature, any hopping sign. scipy.linalg.solve is assumed to solve nonsingular systems."
  },
  {
   "property": "C54",
   "status": "proved",
   "theorems": [
    "C54_local",
    "C54_momentum_average",
    "C54_histories",
    "C54_atomic"
   ],
   "note": "One add_ call (C54_histories) or any model of that form; exact arithmetic, spsolve solves nonsingular systems (nonsingularity is proved). C54_local: the code's on-site propagator is the branch of 1 / sqrt(z^2 - 4 t^2) with negative imaginary part. Finite temperature has two modes and no such closed form."
  },
  {
   "property": "C55",
   "status": "proved",
   "theorems": [
    "C55_reported",
    "C55_levels",
    "C55_cached",
    "C55_accuracy",
    "C55_exact",
    "C55_silent",
    "C55_brigade_refuted",
    "C55_stored_refuted",
    "C55_zero_refuted",
    "C55_nan_refuted",
    "C55_GB_refuted",
    "C55_memory"
   ],
   "note": "Numbers are exact or nan; the factorization is an oracle used both to solve and in the check, as in the code. Refuted parts: brigades without global rank 0 never report, failed solutions are stored and later served without a trace, the check passes for a factorization that maps everything to zero and for nan, the GB constant is not 2^30."
  },
  {
   "property": "C56",
   "status": "proved",
   "theorems": [
    "C56_exists",
    "C56_unique",
    "C56_green",
    "C56_dense",
    "C56_histories"
   ],
   "note": "Hopping >= 0 and lattice constant 1 (or no hopping), exact arithmetic, spsolve solves nonsingular systems. C56_green is stated for every functional satisfying the conditions; C56_exists and C56_unique supply exactly one; C56_dense is the same for DenseSolver; C56_histories starts from the calls the user makes. At finite temperature H is the Hamiltonian with the fictitious modes that add_ creates. Sign convention found: terms enter H with minus the coupling stored in SingleTerm, although its docstring says the coupling directly multiplies the operators."
  },
  {
   "property": "C57",
   "status": "proved",
   "theorems": [
    "C57_solvers",
    "C57_grid",
    "C57_brigades",
    "C57_directory"
   ],
   "note": "Exact arithmetic; the linear solvers are oracles that solve nonsingular systems (nonsingularity is proved). The directory theorem is for one process or ranks whose calls are in any order, points being rational; two processes inside the same file are in C45. Brigades: the padded array is returned (C25_shape_refuted), so the claim is about its leading part."
  },
  {
   "property": "C58",
   "status": "proved",
   "theorems": [
    "C58_alone_results",
    "C58_alone_init",
    "C58_alone_reload",
    "C58_results",
    "C58_never_wrong",
    "C58_race_refuted",
    "C58_ranks",
    "C58_polaron",
    "C58_construct",
    "C58_mixed",
    "C58_reload_refuted"
   ],
   "note": "An operation is one test, one load, one truncating open, or one write-and-close. A file two processes have open at the same time is incomplete or complete when one of them closes it (free choice) and complete when the last closes it, which holds when both write the same contents; theorems are only about such processes. C58_alone_* tie the programs to Cache.v and Checkpoint.v. (4) is for processes whose sets iterate in the same order, unchanged by iterating twice (settled): a reload that finds no generalized_equations.pkl but then an f_arg_list.pkl appends to the latter."
  },
  {
   "property": "C59",
   "status": "proved",
   "theorems": [
    "C59_self_energy",
    "C59_dense",
    "C59_weak",
    "C59_tails",
    "C59_histories",
    "C59_holstein",
    "C59_sharp"
   ],
   "note": "Reals instead of floats, exact linear solver (C52 shows that the matrix is nonsingular). The unit lattice constant is the condition of C51 (Findings, C50). C59_holstein, C59_sharp: temperature 0."
  },
  {
   "property": "C60",
   "status": "proved",
   "theorems": [
    "C60_default",
    "C60_sparse",
    "C60_mass",
    "C60_mass_general",
    "C60_dense",
    "C60_physical",
    "C60_missing",
    "C60_dense_flat",
    "C60_mass_refuted"
   ],
   "note": "Bases whose values are nonnegative integers and whose keys are all of one kind. The claim that MassSolverMUMPS gives the usual value for every numbering is refuted (C60_mass_refuted); C60_mass_general says what it returns."
  },
  {
   "property": "C61",
   "status": "proved",
   "theorems": [
    "C61_spaces",
    "C61_numbers",
    "C61_limit",
    "C61_histories",
    "C61_holstein"
   ],
   "note": "Exact arithmetic, SparseSolver. Extents are held fixed; convergence in the extent is not claimed. The rate is an upper bound."
  },
  {
   "property": "C62",
   "status": "proved",
   "theorems": [
    "C62_split",
    "C62_defer",
    "C62_again",
    "C62_reload",
    "C62_adjust",
    "C62_unprimed",
    "C62_primed",
    "C62_two_stages",
    "C62_docs_refuted",
    "C62_adjust_refuted"
   ],
   "note": "Solvers for an unprimed System are given no root of their own. The sentence of the tutorial that equations are built when the Solver is instantiated is refuted (C62_docs_refuted), as is that a model adjusted before priming is what the checkpoint holds (C62_adjust_refuted)."
  },
  {
   "property": "C63",
   "status": "proved",
   "theorems": [
    "C63_basic",
    "C63_mumps",
    "C63_keywords",
    "C63_system",
    "C63_positional",
    "C63_no_comm",
    "C63_positional_refuted",
    "C63_objects"
   ],
   "note": "Arguments are None, Systems, paths, communicators and booleans; the splitting of the communicator is in C26. That one call means the same for all solvers is refuted (C63_positional_refuted)."
  },
  {
   "property": "C64",
   "status": "proved",
   "theorems": [
    "C64_value",
    "C64_exact",
    "C64_result_names",
    "C64_matrix_names",
    "C64_disjoint",
    "C64_alike",
    "C64_close_refuted"
   ],
   "note": "Numbers are exact rationals (every finite float is one); nan, inf and negative zero are not modelled. That close points share a file is refuted (C64_close_refuted)."
  },
  {
   "property": "C65",
   "status": "proved",
   "theorems": [
    "C65_spaces",
    "C65_extents",
    "C65_limit",
    "C65_histories",
    "C65_holstein"
   ],
   "note": "Stated for the exact complex Green's function (real arithmetic), like C56 and C61. The bound is not claimed to be sharp in K."
  },
  {
   "property": "C66",
   "status": "proved",
   "theorems": [
    "C66_exists",
    "C66_unique",
    "C66_spectral",
    "C66_error",
    "C66_converges",
    "C66_histories",
    "C66_holstein"
   ],
   "note": "Real arithmetic, as for C56, C61 and C65. The rate is not claimed to be sharp. If max_phonons_per_site is set, the exact problem keeps that limit."
  },
  {
   "property": "C67",
   "status": "proved",
   "theorems": [
    "C67_weights",
    "C67_exact",
    "C67_tail",
    "C67_code",
    "C67_lines"
   ],
   "note": "C67_weights, C67_exact, C67_tail (closed form of the exact Green's function), C67_code (through model_add), C67_lines (against finitely many lines)"
  },
  {
   "property": "C68",
   "status": "proved",
   "theorems": [
    "C68_layout",
    "C68_text",
    "C68_systems",
    "C68_order",
    "C68_unprimed",
    "C68_groups",
    "C68_hamiltonian",
    "C68_model",
    "C68_total",
    "C68_unknown_type_refuted",
    "C68_override_refuted"
   ],
   "note": "coef=None only; the two statements about wrong limits are refutations of the claim that Model.visualize always pairs types with their limits."
  },
  {
   "property": "C69",
   "status": "proved",
   "theorems": [
    "C69_defined",
    "C69_exact",
    "C69_moments",
    "C69_determined",
    "C69_room",
    "C69_histories",
    "C69_values",
    "C69_holstein",
    "C69_sum_rules",
    "C69_sharp"
   ],
   "note": "m' ranges over all models of the same Hamiltonian; C69_sharp shows that 2 d + 2 is the best number."
  },
  {
   "property": "C70",
   "status": "proved",
   "theorems": [
    "C70_residual",
    "C70_tolerance",
    "C70_rounded",
    "C70_limit",
    "C70_histories"
   ],
   "note": "The solver is a parameter without hypotheses; C70_tolerance uses the plain residual, check_conv_manual the preconditioned one (C55)."
  },
  {
   "property": "C71",
   "status": "proved",
   "theorems": [
    "C71_refines",
    "C71_untouched",
    "C71_fresh",
    "C71_later",
    "C71_apart",
    "C71_disjoint",
    "C71_twice",
    "C71_layout",
    "C71_dictionary_refuted"
   ],
   "note": "deepcopy is modelled by its specification as a traversal of the object graph (C71 proves it makes an isomorphic copy); the Model references held by terms are not read after construction and not compared."
  },
  {
   "property": "C72",
   "status": "proved",
   "theorems": [
    "C72_defined",
    "C72_double",
    "C72_calls",
    "C72_computed",
    "C72_holstein",
    "C72_edwards_values",
    "C72_edwards_refuted"
   ],
   "note": "max_phonons_per_site must be None (the identity is about unrestricted oscillators) and frequencies positive; EdwardsFermionBoson is excluded and refuted (C72_edwards_refuted). The statement is about moments of all orders, not about the sum of their series."
  },
  {
   "property": "C73",
   "status": "proved",
   "theorems": [
    "C73_parameters",
    "C73_histories",
    "C73_temperatures",
    "C73_continuous",
    "C73_cold",
    "C73_low_temperature",
    "C73_limit"
   ],
   "note": "Hopping t >= 0, eta > 0, and lattice constant 1 or t = 0 (the conditions of C56). The zero-temperature limit needs frequencies that are distinct and not opposite, and the condition on the extents that C48 needs."
  },
  {
   "property": "C74",
   "status": "proved",
   "theorems": [
    "C74_defined",
    "C74_integrable",
    "C74_sum_rule",
    "C74_total",
    "C74_window",
    "C74_grid",
    "C74_thermal"
   ],
   "note": "Hopping t >= 0, eta > 0, and lattice constant 1 or t = 0 (the conditions of C56). Exact arithmetic."
  },
  {
   "property": "C75",
   "status": "proved",
   "theorems": [
    "C75_bound",
    "C75_lower",
    "C75_continuous",
    "C75_real",
    "C75_gap",
    "C75_window",
    "C75_thermal"
   ],
   "note": "for models made by add_ calls (exact lattice constant, hopping >= 0 as in C51); the band is an outer bound, not the spectrum itself"
  },
  {
   "property": "C76",
   "status": "proved",
   "theorems": [
    "C76_pick",
    "C76_self",
    "C76_schwarz",
    "C76_broadening",
    "C76_resolution",
    "C76_grid",
    "C76_thermal"
   ],
   "note": "For all finite lists of points. Models at a temperature by C76_thermal. The converse (that such values determine a spectral measure) is not claimed."
  },
  {
   "property": "C77",
   "status": "proved",
   "theorems": [
    "C77_fit",
    "C77_outside",
    "C77_wstep",
    "C77_centre_refuted"
   ],
   "note": "Exact real arithmetic. Where eta A = eta' A' the code divides zero by zero; C77_fit shows this needs Re G = 0; C77_centre_refuted is an instance. For peak_location_and_weight_wstep the weight may exceed one and no bound is claimed."
  },
  {
   "property": "C78",
   "status": "proved",
   "theorems": [
    "C78_gap",
    "C78_weight",
    "C78_band",
    "C78_free",
    "C78_principle",
    "C78_limits",
    "C78_real",
    "C78_order"
   ],
   "note": "for models made by add_ calls (exact lattice constant, hopping >= 0 as in C51); the hypotheses energies_above and energies_below are satisfiable by C78_band; C78_order takes the limits at eta = 0 whose existence is C78_real"
  },
  {
   "property": "C79",
   "status": "proved",
   "theorems": [
    "C79_timeit",
    "C79_stream",
    "C79_message",
    "C79_units",
    "C79_prime",
    "C79_fixed",
    "C79_disk",
    "C79_braces",
    "C79_format",
    "C79_silent",
    "C79_disk_refuted"
   ],
   "note": "clock readings are rationals; messages written inside of the timed blocks of _prime_system are left out; of loguru the rule when a message with keyword arguments is formatted is assumed (DESIGN.md); C79_disk_refuted records the directory name that makes loading fail"
  },
  {
   "property": "C80",
   "status": "proved",
   "theorems": [
    "C80_formula",
    "C80_concave",
    "C80_weaker",
    "C80_stiffer",
    "C80_mixed",
    "C80_coupling",
    "C80_frequency",
    "C80_add"
   ],
   "note": "for models that build a hermitian Hamiltonian on a chain (the hypothesis sound, met by every model built by add_ with the supported types); the numbers returned are those of an exact solver"
  },
  {
   "property": "C81",
   "status": "proved",
   "theorems": [
    "C81_momentum",
    "C81_sign",
    "C81_equation",
    "C81_growing",
    "C81_not_advanced",
    "C81_advanced_refuted",
    "C81_solver",
    "C81_solver_refuted"
   ],
   "note": "the part on the solvers is for the Holstein model with clouds of one site, where the result has a closed form (C54), with an exact solver"
  },
  {
   "property": "C82",
   "status": "proved",
   "theorems": [
    "C82_any",
    "C82_idle",
    "C82_order",
    "C82_extent_refuted"
   ],
   "note": "calls by coupling strength or lambda, without phonon index override, in one dimension, with different frequencies, BondPeierls not mixed with other types, with an exact solver; on the reals for lattice constant 1 or no hopping, in any arithmetic when the systems are regular; calls are left out only if given by coupling strength 0"
  },
  {
   "property": "C83",
   "status": "proved",
   "theorems": [
    "C83_map",
    "C83_iso",
    "C83_conjugation",
    "C83_carried",
    "C83_signed",
    "C83_atoms",
    "C83_advanced",
    "C83_repair",
    "C83_rational"
   ],
   "note": "for exact solvers; the part on the repaired sign for lattice constant 1 (or no hopping) and positive broadening, where C52 gives regularity"
  },
  {
   "property": "C84",
   "status": "proved",
   "theorems": [
    "C84_equations",
    "C84_dressing",
    "C84_same_self_energy",
    "C84_gauge",
    "C84_moves",
    "C84_resolvent",
    "C84_momentum",
    "C84_bond",
    "C84_momentum_refuted"
   ],
   "note": "for exact solvers; C84_same_self_energy for lattice constant 1 or no hopping and positive broadening (C52); the symmetry of the lattice is refuted for the code's propagator (C84_momentum_refuted) and proved for the corrected one (C84_momentum)"
  },
  {
   "property": "C85",
   "status": "proved",
   "theorems": [
    "C85_ratios",
    "C85_g0",
    "C85_point",
    "C85_call",
    "C85_calls",
    "C85_set_temperature",
    "C85_physical",
    "C85_from_calls",
    "C85_edwards_refuted",
    "C85_length",
    "C85_length_refuted"
   ],
   "note": "for exact solvers; the results for lattice constant 1 or no hopping and positive broadening (C52), C85_ratios for any regular numbers. Refuted: the dimensionless coupling of EdwardsFermionBoson (C85_edwards_refuted), the unit of length with hopping (C85_length_refuted)"
  },
  {
   "property": "C86",
   "status": "proved",
   "theorems": [
    "C86_defined",
    "C86_divided",
    "C86_derivative",
    "C86_green",
    "C86_integrable",
    "C86_rate",
    "C86_broadened",
    "C86_peak"
   ],
   "note": "for exact solvers, and models with lattice constant 1 or no hopping and hopping not negative (`usable`, as in C74)"
  },
  {
   "property": "C87",
   "status": "proved",
   "theorems": [
    "C87_newton",
    "C87_linear",
    "C87_determined",
    "C87_band",
    "C87_holstein"
   ],
   "note": "for exact solvers, and models with lattice constant 1 or no hopping and hopping not negative (`usable`, as in C74)"
  },
  {
   "property": "C88",
   "status": "proved",
   "theorems": [
    "C88_arrays",
    "C88_estimate",
    "C88_usage_refuted",
    "C88_parallel_refuted",
    "C88_zero"
   ],
   "note": "without the rounding of the division; scipy stores indices as int32, as it does for fewer than 2^31 entries"
  },
  {
   "property": "C89",
   "status": "proved",
   "theorems": [
    "C89_checks",
    "C89_silent",
    "C89_shift_refuted",
    "C89_terms",
    "C89_text",
    "C89_hamiltonian"
   ],
   "note": "the values of attributes are of nine kinds (Single.v); the text is about shifts of one integer, floats are rational numbers"
  },
  {
   "property": "C90",
   "status": "proved",
   "theorems": [
    "C90_few",
    "C90_exact",
    "C90_start",
    "C90_sign_refuted",
    "C90_two_refuted",
    "C90_free",
    "C90_code",
    "C90_line"
   ],
   "note": "over the real numbers; curve_fit is a parameter, of which is used that it needs as many points as parameters and does not end worse than it started; that it reaches a least-squares solution is a hypothesis where needed"
  },
  {
   "property": "C91",
   "status": "proved",
   "theorems": [
    "C91_constructor",
    "C91_setter",
    "C91_edges_refuted",
    "C91_silent",
    "C91_silent_refuted",
    "C91_vector",
    "C91_prefactor"
   ],
   "note": "the arrays hold integers; values of constant_prefactor are of the nine kinds of Single.v"
  }
 ]
}