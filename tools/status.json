{
 "C01": [
  "proved",
  "Every rank and shape."
 ],
 "C02": [
  "proved",
  "Every rank; result described by the occupation function on Z^d."
 ],
 "C03": [
  "proved",
  "Every rank; tightness of the result is minimality of the box."
 ],
 "C04": [
  "proved",
  "Both directions."
 ],
 "C05": [
  "proved",
  "Aborts proved; the documented abort for negative indexes is refuted (numpy wraps), and what happens instead is proved (C05_remove_index_wraps)."
 ],
 "C06": [
  "proved",
  "Config, term and phonon-config ids; all ranks. -0.0 in f_arg is not modelled."
 ],
 "C07": [
  "proved",
  "Under non-empty spatial axes and constraint lists covering all types; each side condition is shown necessary by a refutation."
 ],
 "C08": [
  "proved",
  "All histories not adding to a phonon-free config; the excluded case is refuted."
 ],
 "C09": [
  "proved",
  "Every length >= 1 and total >= 0; other arguments in C09_degenerate."
 ],
 "C10": [
  "proved",
  "One dimension; higher dimensions exit."
 ],
 "C11": [
  "proved",
  "With the default absolute extent; explicit extent refuted. Closed form and product in C11_closed and C11_product, arguments outside the range in C11_short and C11_term."
 ],
 "C12": [
  "proved",
  "Monotone in phonon number, extent, absolute extent and per-site limit."
 ],
 "C13": [
  "proved",
  "Every rank; annihilation terms built for legal clouds."
 ],
 "C14": [
  "proved",
  "Every rank; C14_terms_exact additionally gives the exact list of terms of an equation in one dimension."
 ],
 "C15": [
  "proved",
  "Every system built from a model satisfying good_model (Spec_engine.v)."
 ],
 "C17": [
  "proved",
  "Every system built from a good_model."
 ],
 "C19": [
  "proved",
  "Every system built from a good_model."
 ],
 "C20": [
  "proved",
  "Every system built from a good_model; Green's function last."
 ],
 "C16": [
  "proved",
  "Every row of every system built from a good_model, over any commutative ring; delta arbitrary. Sums are over exactly the sites that keep the cloud in the space."
 ],
 "C21": [
  "proved",
  "Every good_model, every pair of orders; SparseSolver's result, assuming spsolve solves nonsingular systems (shown satisfiable by Gaussian elimination)."
 ],
 "C22": [
  "proved",
  "Every system built from a good_model, over any commutative ring."
 ],
 "C23": [
  "proved",
  "Exact arithmetic over any field. Agreement needs linalg.solve to have solved the pivots; a singular pivot with a nonsingular sparse system exists (C23_singular_pivot_refuted). Nonsingular pivots include the final denominator."
 ],
 "C18": [
  "proved",
  "For every model satisfying good_model and, in C18_histories, every sequence of accepted add_ calls and attribute assignments; each hypothesis (distinct frequencies, no mixing with bond couplings, at least one coupling, positive limits, no index override) is shown necessary by a refutation."
 ],
 "C32": [
  "proved",
  "Every model state and argument combination for the four supported types; refuted for unknown types, which are reported but still counted."
 ],
 "C33": [
  "proved",
  "Every history with pairwise different frequencies; refuted when two types share one."
 ],
 "C35": [
  "proved",
  "Every history, temperature on or off; the phonon coordinate of Peierls couplings is odd under reflection."
 ],
 "C44": [
  "proved",
  "The isinstance checks are represented by the option type (None = not a number); bool counts as a number in Python."
 ],
 "C34": [
  "proved",
  "Over the reals; T <= 0 gives (1, 0); the prefactors' convergence for T -> 0 is also proved."
 ],
 "C36": [
  "proved",
  "Over the reals, floating-point rounding not modelled; complex omega allowed with Im omega + eta > 0."
 ],
 "C37": [
  "proved",
  "Resolvent equation, evenness, decay and Fourier sum proved for t >= 0 and a = 1; refuted for every t < 0 and every a <> 1 with t > 0."
 ],
 "C38": [
  "proved",
  "Two broadenings: exact above the peak, mirror image below. Two frequencies: exact when the other root has weight above 1; refuted otherwise."
 ],
 "C43": [
  "proved",
  "Over the reals; percentage 0 raises."
 ],
 "C46": [
  "proved",
  "Over the reals; a negative radicand raises ValueError."
 ],
 "C42": [
  "proved",
  "Every good_model (sign of any subset of types), every pair of orders, any commutative ring; spelled out for histories of add_ calls and on the complex numbers. Needs a nonsingular system and spsolve solving it."
 ],
 "C47": [
  "proved",
  "Every model built by add_ calls (distinct frequencies not needed for the symmetry itself, good_model for the system), any commutative ring; instantiated with the complex environment at k and -k."
 ],
 "C48": [
  "proved",
  "Every history whose fictitious prefactors vanish, in any ring, under the condition that the fictitious extents do not enlarge the default absolute extent (or there is a single type); refuted without it (C48_extent_refuted: the default absolute extent is the maximum over physical and fictitious extents)."
 ],
 "C24": [
  "proved",
  "Solve at a point does not depend on the rank (no communication inside it). An integer scalar argument raises TypeError (C24_int_refuted)."
 ],
 "C25": [
  "proved",
  "Results on every rank for results without nan; nan results break the reshape (C25_nan), the returned shape is the padded one (C25_shape_refuted), and a one-point grid with several brigades fails (C25_one_point_refuted)."
 ],
 "C26": [
  "proved",
  "Minimality, prefix, spacing, totality up to 1000 brigades; one-point grids and more than 1000 brigades fail (C26_one_point_fails, C26_many_refuted)."
 ],
 "C39": [
  "proved",
  "File names (uuid4) are an oracle; distinctness is a hypothesis, needed by C39_collision_refuted."
 ],
 "C27": [
  "proved",
  "For every distribution of rows (assembly, preallocation) and every number of ranks up to the number of unknowns (value). With more ranks than unknowns reading the result raises IndexError (C27_too_many_ranks, C27_ranks_refuted); assembly needs entries at distinct positions, proved for the matrices of the code (C27_duplicates_refuted without). MUMPS is an assumption (mumps_ok), shown satisfiable."
 ],
 "C28": [
  "proved",
  "For grids whose points are equal or more than 1e-10 apart, a directory without other pickles and the same number of brigades. Refuted otherwise: colliding names, a matrix of another size in the directory, another number of brigades, no directory. C28_files: what is read from any directory at all."
 ],
 "C29": [
  "proved",
  "For directories with complete files holding the values of the points asked for, and points equal or more than 1e-10 apart in a coordinate. Refuted otherwise: colliding names (C29_collision_refuted), results of another model (C29_other_model_refuted), a crash during the write (C29_crash_refuted)."
 ],
 "C45": [
  "proved",
  "For points with different file names not written by other brigades, complete files: same branch, matching collectives, no failure, progress, at most 5 steps per point and rank, all files at the end; hypotheses hold for separated grids (C45_grid). Refuted otherwise: equal names (deadlock or EOFError), another brigade writing the same file, which padding can cause."
 ],
 "C30": [
  "proved",
  "The statement as given is false (C30_refuted). Proved instead: the exact outcome of reloading at every crash point (C30_crash_points), that a torn pickle is never repaired by anything the code does (C30_torn_forever), that without one repeating the construction recovers (C30_repeat), and that a kill during a reload loses model.json (C30_killed_reload)."
 ],
 "C31": [
  "proved",
  "Round-trip for every storable model, limit and history of constructions and reloads of that model; pickles never replaced in any directory and history. Overwriting refuted for model.json (C31_overwrites_refuted), and a second model in the directory gives a mixed checkpoint (C31_other_model, C31_mixed_refuted). C31_subsets: what a reload gives when any of the three pickles is missing; if only generalized_equations.pkl is, the stored f_arg_list is appended to and the result needs an order of iteration unchanged by iterating twice (C31_order_refuted without it)."
 ],
 "C41": [
  "proved",
  "Round-trip for every model made by the library (C41_built_storable). Later behaviour characterised exactly: equal but for the absolute extent, which is frozen at the saved value (C41_later, C41_same_extent); identical behaviour refuted (C41_refuted). monty's JSON encoding is modelled for the attribute types that occur."
 ],
 "C49": [
  "proved",
  "Holds when the System's own root is the solver's root (C49_same_root). Both documented claims are refuted: the System is not checkpointed under the solver's root otherwise (C49_other_root, C49_refuted), and negative results are stored (C49_negative, C49_negative_refuted)."
 ],
 "C40": [
  "proved",
  "Every level, rank and program of messages, configurations, exceptions and nested context managers (C40_exact gives the mode of every message). Refuted: CRITICAL inside disable_logger does not terminate, nested disable_logger/debug are undone early, _testing_mode leaves DEBUG on, overlapping custom filters print twice. loguru's dispatch is modelled (order of handlers, levels, filters, disable/enable of everything)."
 ],
 "C50": [
  "proved",
  "Over any commutative ring (C50_periodic) and for the physical propagators at any lattice constant (C50_brillouin); propagators only between sites (C50_separations)."
 ],
 "C51": [
  "proved",
  "Lattice constant 1 or no hopping, exact arithmetic, spsolve solves nonsingular systems; all supported couplings, any mixture the engine accepts, zero or finite temperature, any hopping sign. C51_histories starts from the calls the user makes. Refuted for lattice constants other than 1 (C51_lattice_refuted): negative spectral weight, caused by |delta * a| in g0_delta_omega."
 ],
 "C52": [
  "proved",
  "Lattice constant 1 or no hopping, exact arithmetic, spsolve solves nonsingular systems; all supported couplings, any mixture the engine accepts, zero or finite temperature, any hopping sign. C52_symmetric: C47 and C50 without regularity assumptions."
 ],
 "C53": [
  "proved",
  "Lattice constant 1 or no hopping, exact arithmetic, spsolve solves nonsingular systems; all supported couplings, any mixture the engine accepts, zero or finite temperature, any hopping sign. scipy.linalg.solve is assumed to solve nonsingular systems."
 ],
 "C54": [
  "proved",
  "One add_ call (C54_histories) or any model of that form; exact arithmetic, spsolve solves nonsingular systems (nonsingularity is proved). C54_local: the code's on-site propagator is the branch of 1 / sqrt(z^2 - 4 t^2) with negative imaginary part. Finite temperature has two modes and no such closed form."
 ],
 "C55": [
  "proved",
  "Numbers are exact or nan; the factorization is an oracle used both to solve and in the check, as in the code. Refuted parts: brigades without global rank 0 never report, failed solutions are stored and later served without a trace, the check passes for a factorization that maps everything to zero and for nan, the GB constant is not 2^30."
 ],
 "C56": [
  "proved",
  "Hopping >= 0 and lattice constant 1 (or no hopping), exact arithmetic, spsolve solves nonsingular systems. C56_green is stated for every functional satisfying the conditions; C56_exists and C56_unique supply exactly one; C56_dense is the same for DenseSolver; C56_histories starts from the calls the user makes. At finite temperature H is the Hamiltonian with the fictitious modes that add_ creates. Sign convention found: terms enter H with minus the coupling stored in SingleTerm, although its docstring says the coupling directly multiplies the operators."
 ],
 "C57": [
  "proved",
  "Exact arithmetic; the linear solvers are oracles that solve nonsingular systems (nonsingularity is proved). The directory theorem is for one process or ranks whose calls are in any order, points being rational; two processes inside the same file are in C45. Brigades: the padded array is returned (C25_shape_refuted), so the claim is about its leading part."
 ],
 "C58": [
  "proved",
  "An operation is one test, one load, one truncating open, or one write-and-close. A file two processes have open at the same time is incomplete or complete when one of them closes it (free choice) and complete when the last closes it, which holds when both write the same contents; theorems are only about such processes. C58_alone_* tie the programs to Cache.v and Checkpoint.v. (4) is for processes whose sets iterate in the same order, unchanged by iterating twice (settled): a reload that finds no generalized_equations.pkl but then an f_arg_list.pkl appends to the latter."
 ],
 "C59": [
  "proved",
  "Reals instead of floats, exact linear solver (C52 shows that the matrix is nonsingular). The unit lattice constant is the condition of C51 (Findings, C50). C59_holstein, C59_sharp: temperature 0."
 ],
 "C60": [
  "proved",
  "Bases whose values are nonnegative integers and whose keys are all of one kind. The claim that MassSolverMUMPS gives the usual value for every numbering is refuted (C60_mass_refuted); C60_mass_general says what it returns."
 ],
 "C61": [
  "proved",
  "Exact arithmetic, SparseSolver. Extents are held fixed; convergence in the extent is not claimed. The rate is an upper bound."
 ],
 "C62": [
  "proved",
  "Solvers for an unprimed System are given no root of their own. The sentence of the tutorial that equations are built when the Solver is instantiated is refuted (C62_docs_refuted), as is that a model adjusted before priming is what the checkpoint holds (C62_adjust_refuted)."
 ],
 "C63": [
  "proved",
  "Arguments are None, Systems, paths, communicators and booleans; the splitting of the communicator is in C26. That one call means the same for all solvers is refuted (C63_positional_refuted)."
 ],
 "C64": [
  "proved",
  "Numbers are exact rationals (every finite float is one); nan, inf and negative zero are not modelled. That close points share a file is refuted (C64_close_refuted)."
 ],
 "C65": [
  "proved",
  "Stated for the exact complex Green's function (real arithmetic), like C56 and C61. The bound is not claimed to be sharp in K."
 ],
 "C66": [
  "proved",
  "Real arithmetic, as for C56, C61 and C65. The rate is not claimed to be sharp. If max_phonons_per_site is set, the exact problem keeps that limit."
 ],
 "C67": [
  "proved",
  "C67_weights, C67_exact, C67_tail (closed form of the exact Green's function), C67_code (through model_add), C67_lines (against finitely many lines)"
 ],
 "C68": [
  "proved",
  "coef=None only; the two statements about wrong limits are refutations of the claim that Model.visualize always pairs types with their limits."
 ],
 "C69": [
  "proved",
  "m' ranges over all models of the same Hamiltonian; C69_sharp shows that 2 d + 2 is the best number."
 ],
 "C70": [
  "proved",
  "The solver is a parameter without hypotheses; C70_tolerance uses the plain residual, check_conv_manual the preconditioned one (C55)."
 ],
 "C71": [
  "proved",
  "deepcopy is modelled by its specification as a traversal of the object graph (C71 proves it makes an isomorphic copy); the Model references held by terms are not read after construction and not compared."
 ],
 "C72": [
  "proved",
  "max_phonons_per_site must be None (the identity is about unrestricted oscillators) and frequencies positive; EdwardsFermionBoson is excluded and refuted (C72_edwards_refuted). The statement is about moments of all orders, not about the sum of their series."
 ],
 "C73": [
  "proved",
  "Hopping t >= 0, eta > 0, and lattice constant 1 or t = 0 (the conditions of C56). The zero-temperature limit needs frequencies that are distinct and not opposite, and the condition on the extents that C48 needs."
 ],
 "C74": [
  "proved",
  "Hopping t >= 0, eta > 0, and lattice constant 1 or t = 0 (the conditions of C56). Exact arithmetic."
 ],
 "C75": [
  "proved",
  "for models made by add_ calls (exact lattice constant, hopping >= 0 as in C51); the band is an outer bound, not the spectrum itself"
 ],
 "C76": [
  "proved",
  "For all finite lists of points. Models at a temperature by C76_thermal. The converse (that such values determine a spectral measure) is not claimed."
 ],
 "C77": [
  "proved",
  "Exact real arithmetic. Where eta A = eta' A' the code divides zero by zero; C77_fit shows this needs Re G = 0; C77_centre_refuted is an instance. For peak_location_and_weight_wstep the weight may exceed one and no bound is claimed."
 ],
 "C78": [
  "proved",
  "for models made by add_ calls (exact lattice constant, hopping >= 0 as in C51); the hypotheses energies_above and energies_below are satisfiable by C78_band; C78_order takes the limits at eta = 0 whose existence is C78_real"
 ],
 "C79": [
  "proved",
  "clock readings are rationals; messages written inside of the timed blocks of _prime_system are left out; of loguru the rule when a message with keyword arguments is formatted is assumed (DESIGN.md); C79_disk_refuted records the directory name that makes loading fail"
 ],
 "C80": [
  "proved",
  "for models that build a hermitian Hamiltonian on a chain (the hypothesis sound, met by every model built by add_ with the supported types); the numbers returned are those of an exact solver"
 ],
 "C81": [
  "proved",
  "the part on the solvers is for the Holstein model with clouds of one site, where the result has a closed form (C54), with an exact solver"
 ],
 "C82": [
  "proved",
  "calls by coupling strength or lambda, without phonon index override, in one dimension, with different frequencies, BondPeierls not mixed with other types, with an exact solver; on the reals for lattice constant 1 or no hopping, in any arithmetic when the systems are regular; calls are left out only if given by coupling strength 0"
 ],
 "C83": [
  "proved",
  "for exact solvers; the part on the repaired sign for lattice constant 1 (or no hopping) and positive broadening, where C52 gives regularity"
 ],
 "C84": [
  "proved",
  "for exact solvers; C84_same_self_energy for lattice constant 1 or no hopping and positive broadening (C52); the symmetry of the lattice is refuted for the code's propagator (C84_momentum_refuted) and proved for the corrected one (C84_momentum)"
 ],
 "C85": [
  "proved",
  "for exact solvers; the results for lattice constant 1 or no hopping and positive broadening (C52), C85_ratios for any regular numbers. Refuted: the dimensionless coupling of EdwardsFermionBoson (C85_edwards_refuted), the unit of length with hopping (C85_length_refuted)"
 ],
 "C86": [
  "proved",
  "for exact solvers, and models with lattice constant 1 or no hopping and hopping not negative (`usable`, as in C74)"
 ],
 "C87": [
  "proved",
  "for exact solvers, and models with lattice constant 1 or no hopping and hopping not negative (`usable`, as in C74)"
 ],
 "C88": [
  "proved",
  "without the rounding of the division; scipy stores indices as int32, as it does for fewer than 2^31 entries"
 ],
 "C89": [
  "proved",
  "the values of attributes are of nine kinds (Single.v); the text is about shifts of one integer, floats are rational numbers"
 ],
 "C90": [
  "proved",
  "over the real numbers; curve_fit is a parameter, of which is used that it needs as many points as parameters and does not end worse than it started; that it reaches a least-squares solution is a hypothesis where needed"
 ],
 "C91": [
  "proved",
  "the arrays hold integers; values of constant_prefactor are of the nine kinds of Single.v"
 ]
}