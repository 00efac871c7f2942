# Formal model of GGCE (Rocq/Coq 8.16.1)

Source: `/repo` (matthewcarbone/GGCE, python). The model lives in
`rocq/theories`, logical prefix `Verif`. Properties are in `properties.jsonl`,
theorem-to-property map in `MANIFEST.json`, mutation tests in
`seeded/LOG.jsonl`.

## Ground rules

* Model files hold definitions only (no proofs); `*_proofs.v` hold lemmas;
  `Props_*.v` hold the property theorems, with short proofs, followed by `Print Assumptions` and a concrete non-vacuity `Example`.
* Python exceptions are values: `result A = Ok a | Err exn`. `logger.critical`
  terminates the process (the default logger configuration), modelled as
  `Err SystemExit`.
* Numpy integer arrays are row-major records (`NdArray.v`), rank unrestricted.
* Offsets that may be half-integers (bond couplings) are stored doubled in `Z`,
  with the numpy dtype (int/float) as a flag, because dtype decides whether
  `+=` raises.
* Strings (config and term ids) are real Coq strings with decimal rendering.
* Floating point is replaced by exact arithmetic: real/complex numbers
  (stdlib `Reals`; complex numbers are pairs of reals) or an arbitrary
  commutative ring or field.
* The iteration order of Python `set`s is an arbitrary permutation (oracle).
* `scipy`'s `spsolve`, `scipy.linalg.solve` and MUMPS are oracles specified by
  "returns a solution of the given linear system". `LinSolve.v` proves that such
  oracles exist over every field with decidable equality.
* The file system is a finite map from names to contents; a crash may leave a
  torn file.

* In `seeded/LOG.jsonl`, `failing_proofs` are the proofs that no longer go through
  in the edited copy (each is then left out there, so that later files are still
  checked). `failed` are the property theorems whose proofs refer, by name and
  through any number of lemmas, to one of them: none of these is established for
  the edited model, although some may still hold. Where that would be most of the
  theorems, because a basic lemma fails, `failed` repeats the lemmas.

## Trusted base

* Coq's kernel (`coqc` 8.16.1).
* Axioms reported by `Print Assumptions` (printed under every theorem at build
  time): for theorems about lists, integers, strings, abstract fields: none
  ("Closed under the global context"). For theorems about real/complex numbers:
  `ClassicalDedekindReals.sig_forall_dec`,
  `ClassicalDedekindReals.sig_not_dec`,
  `FunctionalExtensionality.functional_extensionality_dep`
  (and `Classical_Prop.classic` where stdlib analysis uses it); all from the
  standard library. No other library is used. The last section lists them per
  theorem.
* A listing of all axioms in loaded modules also shows
  `Coq.ssr.ssrunder.Under_rel.*` and, once `Reals` is loaded,
  `Rdefinitions.RbaseSymbolsImpl.*` and `RinvImpl.*`: these are fields of
  sealed stdlib modules (their implementations are inside the modules), not
  assumptions; `Print Assumptions` does not report them.
* That the Gallina definitions transcribe the cited Python lines. Each
  definition cites file and lines and states its simplifications.

## Files: what is modelled

| file | code | left out |
|------|------|----------|
| `NdArray.v`, `Config.v` | numpy helpers, `Config` and `config_legal` (`engine/terms.py`) | dtype of configs (always int) |
| `Model.v`, `HModel.v` | `model.py`: data, `model_coupling_map`, `_get_SingleTerm_objects`, `Hamiltonian.add_`, `Model.from_parameters`, `add_`, TFD prefactors, setters | the setters used by MSONable only (`visualize`, `get_dict_rep` are in `Visual.v`, the checks and `__str__` of a term in `Single.v`) |
| `Space.v` | `config_space_gen`, `generate_all_legal_configurations`, `model_legal` lists; `utils/combinatorics.py` (the predicted count) | dimension > 1 beyond the exit it makes |
| `Render.v` | `__str__`/`id` strings | floats other than half-integers |
| `Term.v`, `Equation.v`, `System.v` | `engine/terms.py`, `equations.py`, `system.py` (`_prime_system`, `_final_checks`, `get_basis`) | progress logs (memory estimates are in `Memory.v`) |
| `Ring.v`, `Coef.v` | `Term.coefficient`, `Equation.bias` over any commutative ring | rounding |
| `Cplx.v`, `Physics.v` | complex numbers as pairs of reals; `utils/physics.py` (`g0_delta_omega`, `G0_k_omega`), `utils/utils.py` peak extraction and time helpers | rounding (the scipy curve fit is in `Curve.v`) |
| `Spec_sym.v` | specification only: sign flips, mirror images, embedded models | |
| `Utils.v` | `utils/utils.py` `Buffer`, `chunk_jobs`, `float_to_list`, `padded_kw` | pickle encoding; uuid4 is an oracle |
| `Mpi.v` | `executors/solvers.py` `greens_function`, `petsc4py/base.py` brigades and `greens_function` | MPI itself: gather/bcast are list operations |
| `Spec_mpi.v` | specification only: fair cuts, grids, least padding | |
| `Keys.v` | f"{x:.10f}" and the file names built from it | floats are rationals (no nan, inf, negative zero) |
| `Petsc.v` | `petsc4py/base.py` row ranges, preallocation, assembly, matrices on disk (`prepare_greens_function`, `_scaffold_from_disk`); `petsc4py/solvers.py` `solve` up to the value | PETSc's row distribution, MUMPS (assumption `mumps_ok`) |
| `Spec_petsc.v` | specification only: what MUMPS returns, row counts, clean directories | |
| `Cache.v` | `executors/solvers.py` `_pre_solve`, `_post_solve`, `solve` around the calculation | a file is absent, complete or incomplete |
| `Brigade.v` | `petsc4py/solvers.py` `solve` of all ranks of a brigade as a transition system | the collective operations of one point are merged into one |
| `Checkpoint.v` | `engine/system.py` `_save_model`, `checkpoint`, `from_checkpoint`, `__init__`, `_prime_system` with a root; JSON of `Model` | monty's encoder beyond the types that occur; pickling is the identity on complete files; `autoprime=False` (in `Lazy.v`) |
| `Roots.v` | `executors/solvers.py` `Solver.__init__` | results directory (in `Cache.v`), two spellings of one path |
| `Logger.v` | `logger.py`: handlers, configuration helpers, context managers; programs using them | formats, loguru beyond dispatch, filters given as strings other than "all" |
| `Conc.v` | the file operations of `solve` (`executors/solvers.py`) and of `System` (`engine/system.py`) as programs, run interleaved | writes of unequal contents to one file at the same time; the order of iteration of sets is the same in all processes (and, for C58_mixed, unchanged by iterating twice) |
| `Spec_conc.v` | specification only: ends of processes, right contents, the files of a system | |
| `Spec_cutoff.v` | specification only: models that differ in their variational space, limits that agree up to n phonons | |
| `Lazy.v` | `engine/system.py` `__init__` with `autoprime=False`, `_prime_system`, `checkpoint`, `get_basis`; constructors and `solve` of the three solvers on such a System | solvers with a root of their own; changes of the model other than by replacing it |
| `Spec_lazy.v` | an unprimed and a primed System, operations that do not prime | |
| `Args.v` | binding of arguments in the constructors of the solvers (`executors/solvers.py:50,209,367`, `petsc4py/base.py:66`, `petsc4py/solvers.py:24`) | arguments other than None, Systems, paths, communicators, booleans |
| `Spec_args.v` | acceptable calls, the meaning of a parameter | |
| `Spec_names.v` | reading a decimal number, nearest multiple of 1e-10 | |
| `Spec_extent.v` | no code: the number of sites a cloud reaches, the clouds two spaces share, the steps of the particle in the terms (C65) | |
| `Spec_exact.v` | no code: all placements of finitely many phonons, their energy and norm, the functional <k\| (z - H)^-1 on all states (C66) | |
| `Spec_firsov.v` | no code: Poisson weights, levels of the displaced oscillator, partial sums of the lines (C67) | |
| `Visual.v` | `System.visualize`, `Equation.visualize`, `Term.id(full=True)`, `Hamiltonian.get_dict_rep`, `visualize`, `Model.visualize` | `coef`: coefficients are not printed; the formats .02e, .02f and `SingleTerm.__str__` are parameters (the latter is in `Single.v`); text printed before an exception |
| `Spec_visual.v` | specification only: lines, terms that print alike (C68) | |
| `Spec_moments.v` | specification only: the functionals <k\| H^q, partial sums in 1/z, states reached by d applications of H (C69) | |
| `Spec_stable.v` | specification only: residuals, norms, neighbouring matrices (C70) | |
| `Heap.v` | Python objects: cells, references, deepcopy, and terms.py / equations.py / system.py as programs that change them in place | terms.py:264-282, 350-482, 588-954; equations.py:85-393; system.py:142-281, 381-438 |
| `Spec_alias.v` | specification only: dangling references, reachability, objects of a System, Models on a heap (C71) | |
| `Spec_thermal.v` | specification only: Boltzmann averages of <k,n\| (H - E_n)^q \|k,n>, the thermofield double (C72) | |
| `Spec_perturb.v` | specification only: models with the same operators and space, the change of hopping, phonon energies and couplings (C73) | |
| `Spec_sum.v` | specification only: the spectral function formed from the returned numbers, the sum of its array (C74) | docs/source/tutorials/introduction.rst:112, benchmark.rst:156 |
| `Spec_band.v` | specification only: the edges of the band of a model, frequencies outside of it (C75) | none: edges from hopping, couplings, frequencies and phonon numbers |
| `Spec_pick.v` | specification only: Pick matrices of samples of a function (C76) | none |
| `Spec_ritz.v` | specification only: trial states in the variational space, their norm and energy, wider limits (C78) | none; norms, energies and H are those of `Spec_exact.v` and `Spec_green.v` |
| `Timing.v` | `utils/utils.py` `_elapsed_time_str`, `_adjust_log_msg_for_time`, `timeit`; the timed blocks of `system.py` `_prime_system`; messages with `elapsed=` in `petsc4py/base.py`, `petsc4py/solvers.py` | rounding of clock readings and quotients, messages written inside of the blocks; of loguru: formatting happens iff the logger is enabled, some handler's level is at most that of the message and there are keyword arguments; str.format without nested fields |
| `Spec_timing.v` | specification only: units, a time-stamped line, names without braces (C79) | none |
| `Spec_mix.v` | specification only: mixed, weakened and stiffer Hamiltonians (C80) | none |
| `Spec_calls.v` | specification only: lists of add_ calls (C82) | none |
| `Spec_hom.v` | specification only: homomorphisms and the points they carry (C83) | none |
| `Spec_neghop.v` | specification only: other hoppings, signs of sites (C84) | none |
| `Spec_units.v` | specification only: models and calls in other units (C85) | none |
| `Spec_blur.v` | specification only: Lorentzian, the returned values as a function of w + i eta, divided differences (C86) | none |
| `Spec_interp.v` | specification only: Newton's polynomial, straight line (C87) | none |
| `Memory.v` | `solvers.py:259-262, 287-297`, `petsc4py/base.py:237-240`: the numbers logged about memory; scipy's `tocsr` | the order of columns within a row; rounding of the quotients |
| `Spec_memory.v` | specification only: entries and bytes of CSR arrays (C88) | none |
| `Single.v` | `model.py:52-203`: the checks of `SingleTerm` and `__str__` | kinds of values other than the nine listed; arrays as `dag`; text of arrays with several elements |
| `Spec_single.v` | specification only: valid attributes, terms that print alike (C89) | none |
| `Curve.v` | `utils/utils.py:182-194`: `peak_location_and_weight_scipy` | `curve_fit` is a parameter; the covariance it returns is not described |
| `Spec_curve.v` | specification only: least squares, what scipy documents of `curve_fit` (C90) | none |
| `Assign.v` | `engine/terms.py:23-39, 140-150, 194-197, 264-282, 554-651`: checks and setters with the logger in use | the setters of `Term.config` and `hamiltonian_term` |
| `Spec_self.v` | specification only: sum of the creating couplings, free band, Dyson's equation | |
| `Basis.v` | the argument `basis` of the solvers: `SparseSolver.__init__`, `DenseSolver.__init__`, `MassSolverMUMPS.__init__` and the linear algebra with it | values that are not nonnegative integers; dictionaries with ids and phonon numbers as keys |
| `Spec_basis.v` | specification only: numberings of the unknowns | |
| `Spec_checkpoint.v` | specification only: same attributes, same system, changes of a model | |
| `Spec_spectral.v` | specification only: Hermitian interactions, lattices, equivalent momenta | |
| `Spec_green.v` | specification only: the Hamiltonian on the variational space, the row of its resolvent | |
| `Spec_ma.v` | specification only: continued fractions, single-mode Holstein models, the local Green's function | |
| `Solvers.v` | `SparseSolver`, `DenseSolver` (matrix assembly, recursion) | the solvers inside scipy: oracles; `LinSolve.v` shows such oracles exist |
| `Conv.v`, `Spec_conv.v` | `petsc4py/base.py` `check_conv_manual`; `petsc4py/solvers.py` `check_conv`, `check_mem_use`, what `solve` returns, logs and stores | rounding, infinities, the messages of the assembly, times |

## Plan per property

| id | modelled | how |
|----|----------|-----|
| C01 | `_check_config`, `_config_edges_legal`, `Config.__init__` | decision procedure vs. declarative validity over occupation functions |
| C02 | `remove_phonon_`, `_apply_phonon_reduction_rules_` | trimming loop invariant per axis; result related by translation |
| C03 | `add_phonon_` | padding lemma per axis |
| C04 | both | from C02/C03: a valid cloud is determined by its occupation up to translation |
| C05 | both, incl. numpy negative indexing | case analysis; negative index refuted |
| C06 | `__str__`, `Term.id` | injectivity of decimal rendering and of list printing |
| C07 | `config_legal` | boolean reflection against declarative spec |
| C08 | op sequences | induction; adding to the vacuum refuted |
| C09 | `config_space_gen` | induction, sound/complete/NoDup |
| C10 | `generate_all_legal_configurations` | from C07/C09 |
| C11 | count | hockey-stick identity on the number of compositions; applied twice it gives the closed form with factorials (`Closed_proofs.v`) |
| C12 | same | monotonicity of legality |
| C13/C14 | `Term` classes | from C02/C03 |
| C15 | `Equation`, `GreenEquation` | phonon counting |
| C16 | coefficients, equations | value in an abstract field with a phase homomorphism |
| C17 | `check_if_green_and_simplify_`, `System` | invariants of term construction |
| C18 | `System._prime_system`, `_final_checks` | closure: creation and annihilation are mutually inverse on the space; failures refuted by witnesses |
| C19/C20 | `System`, `get_basis` | NoDup of ids, position in the list |
| C21/C22 | `SparseSolver` | solution of matrix iff id-indexed assignment satisfies all equations |
| C23 | `DenseSolver` | back substitution over a field, block by block |
| C24/C25/C26 | `chunk_jobs`, gather, reshape, `padded_kw` | list lemmas with Euclidean division |
| C27 | row ownership | partition lemmas |
| C28-C31, C49 | file-system model | refinement / invariants on histories, witnesses for violations |
| C32/C33/C41/C44 | `Model`, `Hamiltonian` | case analysis; invariants over add_ histories; violations refuted |
| C34/C36/C37/C38/C46 | physics formulas | stdlib Reals |
| C35 | `_get_SingleTerm_objects` | closure under involutions |
| C39 | `Buffer` | induction over histories |
| C40 | loguru sinks | induction over histories; violation refuted |
| C42/C47/C48 | symmetries of the linear system | transformation of solutions |
| C43 | time helpers | case analysis over R |
| C45 | brigade transition system | invariant on reachable states |
| C50 | the linear system | gauge transformation of solutions |
| C51/C52 | the linear system at physical values | the amplitudes of all clouds, weighted by their occupations, satisfy an energy balance: the propagator between sites is the inverse of (omega + i eta + hopping) on the lattice, so its anti-Hermitian part is negative (`Toeplitz_proofs.v`), and the interaction is Hermitian (`Weight_proofs.v`, `Energy_proofs.v`) |
| C53 | `DenseSolver` | the same balance for the clouds with at least k phonons (`Pivot_proofs.v`) |
| C54 | Holstein models | the rows of clouds of one site form a ladder, solved from the top (`Ladder_proofs.v`); each level keeps a negative imaginary part (`MA_proofs.v`) |
| C55 | residual checks | Cauchy-Schwarz and the triangle inequality for complex vectors; residual = factorization applied to matrix times error (`Conv_proofs.v`) |
| C56 | the linear system at physical values | row by row: the equation of an unknown is the solution formula of the lattice equation of one cloud (`Green_proofs.v`); bounded solutions of the lattice equation without sources vanish (`Bounded_proofs.v`) |
| C57 | everything from `add_` to `greens_function` | composition of C24, C25, C27, C29, C51, C53, C56 |
| C58 | file operations of several processes | programs over a directory, all schedules; invariants: an incomplete file belongs to a process that has it open, complete files are right (`Interleave_proofs.v`, `Rootdir_proofs.v`) |
| C59 | self-energy | the energy balance of C51 bounds the one-phonon amplitudes by what is missing in the vacuum; Dyson's equation turns this into a bound on the self-energy (`Self_proofs.v`) |
| C60 | given basis | renumbering the unknowns renumbers triplets and matrices; each step of the linear algebra commutes with it, by uniqueness of solutions (`Basis_proofs.v`) |
| C61 | phonon-number limits | energy flow through the level of n phonons: the difference of two solutions satisfies the equations below level K, so what is missing in the vacuum is bounded by the amplitudes at every level n < K; summing over the levels against the total norm gives the rate (`Cutoff_proofs.v`) |
| C62 | unprimed Systems | the constructor is creation followed by priming; a run-append lemma and invariants of an unprimed and a primed object (`Lazy_proofs.v`) |
| C63 | arguments of constructors | binding to a list of parameters splits at any point, so three nested constructors are one; induction over the parameters (`Args_proofs.v`) |
| C64 | numbers in file names | a reader of decimals inverts the rendering; rounding to nearest is unique (`Names_proofs.v`) |
| C65 | extents of the clouds | conservation of weight: the difference of two solutions satisfies all rows of clouds within K + rho sites of the particle, so a tent-shaped weight of slope 1 in the distance can only lose at the rate of the current across its sides; the current of the hopping is at most 2 t and that of a term at most sqrt(N) times its coupling, each times the norm, and the norm of a solution is at most 1 / eta (`Tent_proofs.v`, `Walk_proofs.v`, `Reach_proofs.v`, `Extent_proofs.v`) |
| C66 | exact Green's function | both cuts at once: the weight min(P chi, K (P - phonons)) vanishes outside the rows that a truncated solution satisfies (`Full_proofs.v`); it bounds the difference of two solutions, so square-summable solutions are unique; the solutions of growing spaces are a Cauchy sequence on every placement and their limit satisfies all rows, so one exists (limits are chosen with the completeness of R, no axiom of choice); a placement with a phonon is a translated cloud, whose energy is that of the equation (`Exact_proofs.v`) |
| C67 | Lang-Firsov | the coefficients of exp(-a x)(a + x)^n satisfy the recursion of the displaced oscillator (`dd_eigen`), the series over n converge absolutely (`uu_sum`), so their limits satisfy all rows on the placements with all phonons on the site of the particle and vanish elsewhere; uniqueness (C66) identifies the exact functional with them (`Firsov_proofs.v`) |
| C68 | printing | every line is free of line feeds (`lines_eol`), so texts determine lines (`text_inj`); lines starting with a digit or sign, a brace, a tab or empty determine blocks and equations (`blocks_split`), identifiers determine terms (`show_spec`, C06); sorted lists with the same keys agree (`falling_blocks`). Grouping: `groups_spec`; keys of successful histories are 0, 1, ... (`built_keys`) (`Visual_proofs.v`) |
| C69 | moments | multiplying the rows by z and inserting them into themselves Q times gives the Q-th partial sum with a remainder that is a finite sum of amplitudes, each at most 1/eta (`expand`, `close`, `exact_expand`); the computed rows agree with the exact ones on what d steps reach, and by covariance and the symmetry of H the difference at the phonon-free state needs d steps out and d steps back (`computed_close`); what is reached is within d jumps (`room_covers`, `onsite_covers`); coefficients of a bounded remainder are unique (`series_unique`) |
| C70 | errors of the linear solver | the error u satisfies the equations with the residual r as inhomogeneity; v = u - r is a response, so the dissipation inequality of C51 holds for v with cross terms between v and r; these are matched along the adjoint pairs of operators, each bounded by the square root of an occupation number (`Stable_proofs.v`: `stable`, `solver_error`). `C70_limit` needs only a bounded inverse (`inverse_bound`) |
| C71 | shared mutable objects | a second model of terms.py, equations.py and system.py in which objects are cells of a heap and programs change cells in place, rebind attributes and copy (`Heap.v`); `a_vec` ... `a_eqs` read off the value an object stands for. A simulation relation `sim n b` (objects below n unchanged, objects from b on refer only to such, results related) is proved function by function; `sep` (the arrays increased in place when a delta is chosen are referred to from nowhere else in the equation), blocks of the heap for each equation and the frame of the master dictionary make it compose. Conclusions in terms of reachability (`Spec_alias.v`). Simplifications: the Hamiltonian belongs to the Model cell, the System's dictionaries of equations and the configurations of `Space.v` are values, an object appears when its constructor is done, and the unused `_model` attribute of terms is not compared |
| C72 | thermal average | one mode: commuting a letter through a word of ladder operators gives the same recursion for the thermofield functional `tfd` and for the Boltzmann sum (`wick_sum`). All modes: both functionals are sums over what q applications of H do (`ev`), a word of phonon operators being valued by a product over the modes (`row_words`, `double_words`); averages are linear and factorise (`avg_ev`, `avg_prod`). The calls: `pair_add` follows add_ at both temperatures; the tilde operators of Holstein, Peierls and BondPeierls are a permutation of the flipped ones. The refutation compares second moments (`second_moment`) of the code's double and the right one |
| C73 | parameters, temperature | resolvent identity on the exact rows of C56: the difference of the rows is paired with the mirrored row of the other model (`parameter_error`), the perturbation is bounded by its row sums; for temperatures the same calls give models that are `alike` (`twin_calls`), and the limit goes through a model whose prefactors are 1 and 0 (`Rcold`), which C48 compares with the model of temperature zero |
| C74 | sum rule | no complex analysis library: the resolvent identity twice gives a bound on the first and second differences of G in the frequency (`first_at`, `second_at`), the four sides of a small square then cancel up to h^3; summing over the squares of a grid (`Contour_proofs.square`) leaves the bottom, which is the Riemann sum of A minus a Lorentzian, and three sides where G - 1/z is below K/z^2 by C69 with two moments; A is Lipschitz, so the sums tend to the Riemann integral of the standard library |
| C75 | outside of the band | the real part of the rows (conjugate of the amplitude times the row), summed over a window with the weights of C65; the couplings are at most `half_width` times the norm by the arithmetic-geometric mean, so the least bound V of the norm satisfies d V <= |Re G|; -Im G <= eta V by running the balance of C65 backwards on the conjugate amplitudes; the integrals by comparison with 1/(x - edge)^2 (`Tail_proofs`) and C74 |
| C76 | Pick matrices | for two points the rows give an identity for the amplitudes summed over a window with slowly falling weights; the sum of conj F_q F_p over all sites is then (conj G_q - G_p)/(z_p - conj z_q) up to a leak that goes to zero (Cauchy-Schwarz on the current at the edge), so the Pick form is a Gram form of the vectors sum a_p F_p, which is at least its term at the vacuum. Self-energy: multiply the coefficients by 1/G. The two-point consequences are algebra with 2x2 positive matrices |
| C77 | peak finders | the radicands are the Schwarz-Pick inequalities of C76; the weight bound is eta/A + pi(eta'^2 - eta^2) <= eta'/A' |
| C78 | variational principle | the row of the code, cut off by the square root of the slowly falling weight of C65, is a trial state; its energy is the weighted sum of the rows up to a boundary term, so the bound on the energies gives d |row|^2 <= -Re G; for two spaces the same with the difference of the two rows, which solves the rows of the smaller space with source zero |
| C79 | timed blocks | case analysis over the stages; the text is read back with the decimal reader of C64; str.format by induction over the text before the first brace |
| C80 | dependence on the couplings and frequencies | the row minus a trial state, cut off as in C78, gives one side of the formula; the cut-off row itself the other. Trial energies are linear in the Hamiltonian; changing the sign of the states with an odd number of the chosen phonons changes that of their couplings |
| C81 | broadening of the other sign | the square root and the power commute with conjugation off their cuts, and the base of the power is never real; the bases at conjugate frequencies have product of modulus 1; the continued fraction of C54 is odd in the propagators |
| C82 | the order of the add_ calls and uncoupled phonon types | a model made by calls has a closed form; permuted calls give models with renumbered types and the uncoupled ones terms that vanish, so that C48_part applies; C52 gives regularity |
| C83 | maps of the numbers, complex conjugation | rows and right-hand sides commute with the map, so the image of a solution is a solution; uniqueness; the mirror symmetry (C47) returns to the same momentum |
| C84 | sign of the hopping | the combination g' u - g u' of two solutions has no free part, so uniqueness kills its cloud sum; a sign for every site in the unknowns gives the symmetry of the lattice |
| C85 | units | couplings enter the equations only times a propagator, so the equations stay and the right-hand side is divided by c; the calls are followed through `model_add` |
| C86 | broadening | divided differences of the states solve the equations with a divided difference as source, so C51's estimate bounds them; the quotient (G(z) - G(z0)) / (z - z0) is extended to z0, multiplied with the propagator at the mirror point of z0, and summed around squares as in C74 |
| C87 | interpolation | the remainder of Newton's interpolation is a divided difference, bounded in C86; with ever more points in the interval the values on the whole line follow; C86 gives the imaginary parts above the line, where a difference with no imaginary part has derivative 0, so is constant and, by decay, 0; interpolation again goes down to the real axis |
| C88 | memory messages | rows of the CSR arrays are slices of one list, entries by induction; lengths from the distinct places of C22, which has the diagonal in it |
| C89 | `SingleTerm` | each check against a small inductive predicate, then the sequence; the text is split at its first colon and its separators, which no number contains |
| C90 | `peak_location_and_weight_scipy` | equality of two lines at a frequency is a quadratic equation, which has at most two solutions; C42 for the free particle, C87 for the converse |
| C91 | assignments | the checks with a logger, equal to those of `Config.v` and `Term.v` if `logger.critical` exits |

## Findings

Where the code does not do what its documentation or the property says. Each has
a machine-checked witness (`..._refuted : exists ...`).

| theorem | what happens |
|---------|--------------|
| `C05_negative_index_refuted` | negative site indexes wrap around instead of aborting |
| `C07_short_constraint_refuted`, `C07_empty_axis_refuted`, `C07_negative_green_refuted` | `config_legal` raises on short constraint lists and empty axes, and calls an array with entries 1 and -1 legal |
| `C08_through_vacuum_refuted` | adding a phonon to an empty config at any site leaves an empty edge |
| `C11_explicit_extent_mismatch_refuted` | the predicted count does not match when the absolute extent is explicit |
| `C18_equal_frequencies_refuted`, `C33_equal_frequencies_refuted` | two types with equal frequencies share one entry in the frequency list; building the system fails |
| `C18_mixed_offsets_refuted` | a bond coupling next to a coupling with integer offsets fails to build |
| `C18_override_refuted` | `phonon_index_override`, as documented, makes a model no system can be built from |
| `C18_no_coupling_refuted`, `C18_zero_limit_refuted`, `C18_zero_extent_refuted` | KeyError for models without coupling or with a limit of zero |
| `C23_singular_pivot_refuted` | `DenseSolver` meets a singular pivot although the sparse system is nonsingular (arbitrary propagators; C53 excludes it for the physical ones) |
| `C24_int_refuted` | an int as `k` or `w` raises TypeError |
| `C25_shape_refuted`, `C25_one_point_refuted` | the mass solver's result has the padded shape; one point on several brigades fails |
| `C26_many_refuted` | padding fails for more than 1000 brigades |
| `C27_ranks_refuted` | more ranks than unknowns: IndexError |
| `C28_collision_refuted`, `C28_other_size_refuted`, `C28_brigades_refuted` | matrices on disk: colliding names, size read from an arbitrary file, another number of brigades |
| `C29_collision_refuted`, `C29_other_model_refuted`, `C29_crash_refuted` | results cache: points closer than 1e-10, another model's directory, a crash during the write |
| `C30_refuted` | a crash inside a pickle makes the checkpoint unusable for ever |
| `C31_overwrites_refuted`, `C31_mixed_refuted` | model.json is overwritten despite the docstring; a second model in the directory is reloaded with the first one's equations |
| `C31_order_refuted` | with generalized_equations.pkl missing a reload appends to the stored f_arg_list; unless iterating a set twice gives the same order, the list is permuted |
| `C32_unknown_type_refuted` | an unknown coupling type is reported, but the model is changed |
| `C37_negative_hopping_refuted`, `C37_lattice_constant_refuted` | `g0_delta_omega` is the lattice propagator only for hopping >= 0 and lattice constant 1 |
| `C38_below_peak_refuted`, `C38_two_frequencies_refuted` | the extracted peak is mirrored below the peak, or the wrong root is taken |
| `C40_critical_refuted`, `C40_nested_disable_refuted`, `C40_nested_debug_refuted`, `C40_testing_refuted` | inside `disable_logger` CRITICAL does not terminate; the context managers do not restore the previous state |
| `C40_twice_refuted` | overlapping filters print a message twice |
| `C41_refuted` | a reloaded model has its absolute extent frozen, so later `add_` calls behave differently |
| `C45_equal_names_refuted`, `C45_torn_refuted`, `C45_other_brigade_refuted`, `C45_padding_refuted` | ranks of a brigade look at the disk one by one: deadlock or EOFError when a file appears in between |
| `C51_lattice_refuted` | with lattice constant 1/4 the computed spectral function is negative at some frequency |
| `C48_extent_refuted` | frozen fictitious modes still enlarge the default absolute extent |
| `C49_refuted`, `C49_negative_refuted` | the solver does not checkpoint the System under its own root; negative results are stored |
| `C55_brigade_refuted` | MUMPS errors and failed residual checks on brigades without global rank 0 are not logged |
| `C55_stored_refuted` | a failed solution is stored in the results directory and later returned with empty meta information |
| `C55_zero_refuted`, `C55_nan_refuted` | the residual check uses the factorization it tests: a zero solution of a broken factorization passes, and so does nan |
| `C55_GB_refuted` | `BYTES_TO_GB` is 1073741274, not 2^30 |
| `C58_race_refuted`, `C58_reload_refuted` | two processes asking for the same point: EOFError; two processes reloading the same complete directory: ValueError, because `from_checkpoint` rewrites model.json |
| `C60_mass_refuted` | MassSolverMUMPS given a basis in which the Green's function is not last returns a wrong value without an error (the right-hand side and the result are always the last entry) |
| `C62_docs_refuted` | tutorials/benchmark.rst:76-105 says that `autoprime=False` defers the building of the equations until a Solver is instantiated; the instantiation raises AttributeError |
| `C62_adjust_refuted` | a model changed before priming (same tutorial: "adjust its parameters later on"): model.json in the root stays that of the old model, beside the equations of the new one |
| `C63_positional_refuted` | `SparseSolver(system, root=r)` solves `system`, `MassSolverMUMPS(system, root=r, mpi_comm=c)` silently solves whatever `r` holds, since its first parameter is `autoprime` |
| `C64_close_refuted` | arbitrarily close points can have different files (-1e-12 and 0 already do, "-0.0000000000"), so a stored result is not found |
| `C68_unknown_type_refuted`, `C68_override_refuted` | `Model.visualize` (model.py:735-740) looks up the limits of a type by its position in `get_dict_rep`, not by its index. After `add_` with an unknown coupling type, which logs an error but appends the limits, every later type is printed with the limits of another call; so it is after `phonon_index_override`. |
| `C71_dictionary_refuted` | the System's delta lists (`f_arg_list`) and the `f_arg` of the index terms of the full equations are the same arrays (equations.py:221 assigns without copying): changing one in place would change the other; nothing in the program does |
| `C72_edwards_refuted` | for EdwardsFermionBoson at T > 0 the fictitious copy (model.py:952-960) has the same daggers as the physical one; b -> cosh a + sinh a'+ needs them exchanged. For the other couplings the operators come in pairs and it makes no difference. The second moment of the spectral function differs from the thermal one by 2 g^2 n cos(2 k a) (`C72_edwards_values`) |
| `C77_centre_refuted` | `peak_location_and_weight` (utils.py:145-157) divides 0 by 0 where eta A = eta' A' (numpy gives nan), e.g. at the exact centre of a peak; C77_fit shows that Re G = 0 there. Away from these frequencies it returns a peak below w, also when w lies below all spectral weight (see C38) |
| `C79_disk_refuted`, `C79_braces` | `_scaffold_from_disk` (petsc4py/base.py:428-432) passes an f-string with the directory name together with `elapsed=dt` to `logger.debug`. loguru calls `message.format(elapsed=dt)` as soon as some handler takes DEBUG, which the handlers of logger.py do (their filters drop the record only afterwards), so a directory such as `runs/{t}` makes every solve from disk raise KeyError. `elapsed` itself is never shown: the handlers have no field for it |
| `C81_advanced_refuted`, `C81_solver_refuted` | a negative broadening is not rejected (physics.py:6-71). With hopping g0_delta_omega then returns, unless sgn = -1 is given, the growing solution instead of the advanced function, and the solvers, which never pass sgn, return the Green's function with the self energy of the wrong sign (`C81_solver`) |
| `C82_extent_refuted` | a phonon type with coupling 0 is not without effect: if its extent is the largest, the absolute extent of all clouds grows (model.py, Model.add_) and the Green's function changes |
| `C84_momentum_refuted`, `C84_bond` | a negative hopping is accepted, but only `G0_k_omega` sees its sign; `g0_delta_omega` uses abs(t) (physics.py). The Green's function returned for (-t, k) is not the one for (t, k + pi), as the lattice demands, whenever the self-energy depends on the momentum; C84_momentum proves the symmetry with the propagator times (-1)^distance |
| `C85_edwards_refuted` | `dimensionless_coupling_strength` of EdwardsFermionBoson is returned unchanged by `model_coupling_map`, as an energy: with all energies doubled the coupling stays the same |
| `C85_length_refuted` | with hopping the result depends on the lattice constant at fixed k a: physics.py raises to the power abs(delta * a), where delta already counts sites (compare C37, C51) |
| `C88_usage_refuted` | "Memory usage of sparse X" (solvers.py:295) adds up `.size`, the number of elements, and divides by the bytes of a MB: the matrix takes between 4 and 6 times what is logged |
| `C88_parallel_refuted`, `C88_zero` | the estimate in petsc4py/base.py:239-240 is divided by `BYTES_TO_GB` and labelled MB: "0.00 MB" for every matrix with at most 223696 entries |
| `C89_silent`, `C89_shift_refuted` | the setters of psi and phi (model.py:76-79, 93-96) only log: with the logger disabled a wrong type is kept and fails when it is read. The other setters write `raise logger.critical(...)`, which is `raise None`, a TypeError without the message |
| `C90_sign_refuted` | `lorentzian` is unchanged when weight and width change sign together, and `curve_fit` is called without bounds (utils.py:186-188): a fit may end at a negative weight and width, and no code checks this |
| `C91_edges_refuted` | `Config.config = x` (terms.py:194-197) calls `_check_config` but not `validate`: clouds with empty edges are accepted |
| `C91_silent_refuted` | all checks of the constructor of `Config` are calls of `logger.critical`: inside `disable_logger()` a cloud with -1 phonons can be made |

C56 fixes a sign: the equations are those of the Hamiltonian in which every term
enters with *minus* the stored coupling, `H = ... - sum_h coupling_h c+ c b`,
while the docstring of `SingleTerm.coupling` (model.py:117-124) says that the
number "directly multiplies the operators". `_get_SingleTerm_objects` hides this
for the supported couplings (Holstein gets -g, so H has +g).

Two refutations show that a hypothesis is needed rather than a defect:
`C39_collision_refuted` (uuid4 drawing a name twice) and `C27_duplicates_refuted`
(entries at equal positions, which the code's matrices do not have).

Not expressible: floating-point arithmetic itself (C70 bounds the effect of
rounded entries and of an inexact solution), performance, memory use beyond what C88 states, the numeric
quality of SuperLU/LAPACK/MUMPS, the wording of log messages other than those of C79.

## Assumptions per theorem

What `Print Assumptions` reports (written by `tools/assumptions.py`); the axioms are the standard library's.

* none (closed under the global context) (287): C01_config_accepts, C02_remove_phonon, C03_add_phonon, C04_add_then_remove, C04_remove_then_add, C05_remove_aborts, C05_remove_no_other_failure, C05_remove_index_wraps, C05_add_outcome, C05_negative_index_refuted, C06_config_id, C06_term_id, C06_phonon_config_id, C07_config_legal, C07_short_constraint_refuted, C07_empty_axis_refuted, C07_negative_green_refuted, C08_histories, C08_through_vacuum_refuted, C09_degenerate, C09_config_space_gen, C10_space_exact, C10_higher_dimension_exits, C11_closed, C11_product, C11_short, C11_term, C11_analytic_count, C11_explicit_extent_mismatch_refuted, C12_monotone_space, C13_annihilation_term, C14_lengths, C14_creation_term, C14_terms_exact, C15_hierarchy, C16_cloud_row, C16_green_row, C16_system_rows, C16_annihilation_sites, C17_single_green, C18_closure, C18_histories, C18_equal_frequencies_refuted, C18_mixed_offsets_refuted, C18_no_coupling_refuted, C18_zero_limit_refuted, C18_zero_extent_refuted, C18_override_refuted, C19_one_equation_per_unknown, C20_full_basis, C20_local_basis, C21_order_permutes, C21_result_order_independent, C22_matrix, C22_solutions, C22_sparse_result, C23_dense_extends, C23_dense_is_sparse, C23_pivots_nonsingular, C23_singular_pivot_refuted, C24_serial, C24_others, C24_entries, C24_distribution, C24_scalar, C24_int_refuted, C25_accepted, C25_rejected, C25_divisors, C25_brigades, C25_balanced, C25_result, C25_prefix, C25_nan, C25_shape_refuted, C25_one_point_refuted, C26_minimal, C26_divisible, C26_amount, C26_total, C26_errors, C26_one_point_fails, C26_many_refuted, C27_assembly, C27_prealloc, C27_value, C27_too_many_ranks, C27_ranks_refuted, C27_duplicates_refuted, C28_disk, C28_greens, C28_no_directory, C28_files, C28_collision_refuted, C28_other_size_refuted, C28_brigades_refuted, C29_transparent, C29_stored, C29_never_replaced, C29_errors, C29_points, C29_reuse, C29_torn, C29_crash, C29_crash_refuted, C29_collision_refuted, C29_other_model_refuted, C30_crash_points, C30_torn_forever, C30_repeat, C30_killed_reload, C30_refuted, C31_root_irrelevant, C31_roundtrip, C31_files, C31_histories, C31_failure, C31_never_replaced, C31_subsets, C31_other_model, C31_overwrites_refuted, C31_mixed_refuted, C31_order_refuted, C32_rejected, C32_added, C32_raises, C32_all_or_nothing, C32_unknown_type, C32_unknown_type_refuted, C33_frequencies, C33_energy, C33_equal_frequencies_refuted, C35_symmetric, C39_history, C39_flush, C39_full, C39_collision_refuted, C40_routing, C40_programs, C40_exact, C40_critical, C40_disabled, C40_enabled_after, C40_custom, C40_streams, C40_all, C40_critical_refuted, C40_nested_disable_refuted, C40_nested_debug_refuted, C40_testing_refuted, C40_twice_refuted, C41_built_storable, C41_roundtrip, C41_later, C41_identical, C41_same_extent, C41_refuted, C42_sign, C42_calls, C42_free, C44_temperature, C44_lattice_constant, C44_absolute_extent, C45_same_branch, C45_matching, C45_progress, C45_bound, C45_complete, C45_grid, C45_equal_names_refuted, C45_torn_refuted, C45_other_brigade_refuted, C45_padding_refuted, C46_edwards, C47_mirror, C47_built, C48_part, C48_calls, C48_extent_refuted, C49_same_root, C49_own_root_only, C49_other_root, C49_nothing, C49_negative, C49_refuted, C49_negative_refuted, C50_periodic, C50_separations, C58_alone_results, C58_alone_init, C58_alone_reload, C58_results, C58_never_wrong, C58_race_refuted, C58_ranks, C58_construct, C58_mixed, C58_reload_refuted, C60_default, C60_sparse, C60_mass, C60_mass_general, C60_dense, C60_missing, C60_dense_flat, C60_mass_refuted, C62_split, C62_defer, C62_again, C62_reload, C62_adjust, C62_unprimed, C62_primed, C62_two_stages, C62_docs_refuted, C62_adjust_refuted, C63_basic, C63_mumps, C63_keywords, C63_system, C63_positional, C63_no_comm, C63_positional_refuted, C63_objects, C64_value, C64_exact, C64_result_names, C64_matrix_names, C64_disjoint, C64_alike, C64_close_refuted, C68_layout, C68_text, C68_systems, C68_order, C68_unprimed, C68_groups, C68_hamiltonian, C68_model, C68_total, C68_unknown_type_refuted, C68_override_refuted, C71_refines, C71_untouched, C71_fresh, C71_later, C71_apart, C71_disjoint, C71_twice, C71_layout, C71_dictionary_refuted, C79_timeit, C79_stream, C79_message, C79_prime, C79_fixed, C79_disk, C79_braces, C79_format, C79_silent, C79_disk_refuted, C82_any, C82_extent_refuted, C83_map, C83_iso, C84_equations, C84_dressing, C84_gauge, C85_ratios, C88_arrays, C88_estimate, C88_usage_refuted, C88_parallel_refuted, C88_zero, C89_checks, C89_silent, C89_shift_refuted, C89_terms, C89_text, C89_hamiltonian, C91_constructor, C91_setter, C91_edges_refuted, C91_silent, C91_silent_refuted, C91_vector, C91_prefactor.

* `sig_forall_dec`, `functional_extensionality_dep` (8): C26_increasing, C43_duration, C43_remaining, C55_GB_refuted, C55_memory, C79_units, C83_conjugation, C83_rational.

* `sig_forall_dec`, `classic`, `functional_extensionality_dep` (1): C69_room.

* `sig_forall_dec`, `sig_not_dec`, `functional_extensionality_dep` (28): C36_inverse, C36_even, C36_periodic, C38_two_broadenings, C38_below_peak, C38_below_peak_refuted, C38_two_frequencies, C38_two_frequencies_refuted, C55_reported, C55_levels, C55_cached, C55_accuracy, C55_exact, C55_silent, C55_brigade_refuted, C55_stored_refuted, C55_zero_refuted, C55_nan_refuted, C67_weights, C67_tail, C78_principle, C80_concave, C81_momentum, C90_few, C90_exact, C90_start, C90_sign_refuted, C90_two_refuted.

* `sig_forall_dec`, `sig_not_dec`, `classic`, `functional_extensionality_dep` (185): C34_prefactors, C34_zero_temperature, C34_low_temperature, C37_resolvent, C37_resolvent_no_hopping, C37_negative_hopping, C37_lattice_constant, C37_negative_hopping_refuted, C37_lattice_constant_refuted, C37_even, C37_decay, C37_fourier, C42_physical, C42_free_physical, C46_square_root, C46_sign_of_frequency, C46_unknown, C47_opposite, C47_physical, C48_additive, C50_brillouin, C50_lattice, C51_hermitian, C51_spectral, C51_histories, C51_lattice_refuted, C52_regular, C52_symmetric, C53_pivots, C53_dense, C54_local, C54_momentum_average, C54_histories, C54_atomic, C56_exists, C56_unique, C56_green, C56_dense, C56_histories, C57_solvers, C57_grid, C57_brigades, C57_directory, C58_polaron, C59_self_energy, C59_dense, C59_weak, C59_tails, C59_histories, C59_holstein, C59_sharp, C60_physical, C61_spaces, C61_numbers, C61_limit, C61_histories, C61_holstein, C65_spaces, C65_extents, C65_limit, C65_histories, C65_holstein, C66_exists, C66_unique, C66_spectral, C66_error, C66_converges, C66_histories, C66_holstein, C67_exact, C67_code, C67_lines, C69_defined, C69_exact, C69_moments, C69_determined, C69_histories, C69_values, C69_holstein, C69_sum_rules, C69_sharp, C70_residual, C70_tolerance, C70_rounded, C70_limit, C70_histories, C72_defined, C72_double, C72_calls, C72_computed, C72_holstein, C72_edwards_values, C72_edwards_refuted, C73_parameters, C73_histories, C73_temperatures, C73_continuous, C73_cold, C73_low_temperature, C73_limit, C74_defined, C74_integrable, C74_sum_rule, C74_total, C74_window, C74_grid, C74_thermal, C75_bound, C75_lower, C75_continuous, C75_real, C75_gap, C75_window, C75_thermal, C76_pick, C76_self, C76_schwarz, C76_broadening, C76_resolution, C76_grid, C76_thermal, C77_fit, C77_outside, C77_wstep, C77_centre_refuted, C78_gap, C78_weight, C78_band, C78_free, C78_limits, C78_real, C78_order, C80_formula, C80_weaker, C80_stiffer, C80_mixed, C80_coupling, C80_frequency, C80_add, C81_sign, C81_equation, C81_growing, C81_not_advanced, C81_advanced_refuted, C81_solver, C81_solver_refuted, C82_idle, C82_order, C83_carried, C83_signed, C83_atoms, C83_advanced, C83_repair, C84_same_self_energy, C84_moves, C84_resolvent, C84_momentum, C84_bond, C84_momentum_refuted, C85_g0, C85_point, C85_call, C85_calls, C85_set_temperature, C85_physical, C85_from_calls, C85_edwards_refuted, C85_length, C85_length_refuted, C86_defined, C86_divided, C86_derivative, C86_green, C86_integrable, C86_rate, C86_broadened, C86_peak, C87_newton, C87_linear, C87_determined, C87_band, C87_holstein, C90_free, C90_code, C90_line.
