# Formal model of A-dot-S-dot/cls1 in Rocq (Coq 8.16.1)

## 1. How the model is organised

All Coq files are in `rocq/theories/` (logical name `Verif`).

* `Prelude.v`      – result type, list/numpy helpers (slices, sums, `linspace`, strided slices).
* `M_*.v`          – the model. Definitions only. Each definition cites the file and lines of `/repo` it models
                     and says where it simplifies.
* `S_*.v`          – small independent specifications (what the English property says), without the model's helpers.
* `L_*.v`          – lemmas and proofs.
* `P_*.v`          – the property theorems `Cxx_...`, each followed by `Print Assumptions` and by an `Example`/`Lemma`
                     showing that its hypotheses are met by a concrete non-trivial case.

Theorem names start with the property id. `_partial` marks a theorem that proves only part of a property,
`_refuted` marks a proof that the property as users would like it is *false* of the code (a finding), with a concrete
witness.

## 2. Modelling choices (trusted)

* IEEE floats are modelled (except in M_FloatStepping and M_FloatODE, which use the doubles of Flocq) by the real numbers `R` of the Coq standard library, with decidable comparisons
  (`Rlt_dec`, `Rle_dec`, `Req_EM_T`). Rounding is not modelled. Where NaN or infinities decide the control flow
  (`np.isfinite`, `float("nan")`, `nan` place holders, masks) an explicit extended float type or an `option` is used.
* Division of Python/numpy numbers is `rdiv`, which returns `Err ZeroDivisionError` for a zero divisor (numpy only warns
  and yields nan/inf, so a theorem that a run is `Ok` also says that no such value appears). Coq's total division is
  only used where the divisor is a non-zero literal or proved non-zero.
* numpy vectors are lists (`list R` for scalar problems, `list (R*R)` for shallow water, row = (height, discharge)).
  Array aliasing is only modelled in the files that say so (`M_Solver.v` has a heap of arrays; `M_FE.v` models the
  identity of the cached array of the flux approximation).
* Python exceptions are values (`Err e`).
* Calls into scipy/numpy whose result we do not reimplement (eigen decomposition, sparse LU solve, Newton, random
  generators, networks, plotting) are universally quantified parameters of the theorems, with their contract as an
  explicit hypothesis of the theorem. They are never axioms. Where a contract is used, a theorem or example shows
  that some function satisfies it (`eig_works`: `C43_ex…`; `solves`: `C55_ex`, by elimination; Newton for the dam break:
  existence and uniqueness of the root).

## 3. Plan per property

| id | model | proof |
|----|-------|-------|
| C01 C02 C03 C04 | `TimeStepping` as a state machine (`time`, `count`, `stop`), generator = arbitrary stream | invariant by induction over steps; `len` compared with number of yielded steps |
| C05 | `CFLChecker.__call__` as a fold over stages | iff by induction |
| C06 C07 C08 | `DiscreteSolution*` as records, operations as a data type, histories as `fold_left` | invariant |
| C09 C10 | strided slices, loop of `+=` as fold | refinement to block means, algebra |
| C11–C14 | `Interval`, `UniformMesh`, `AffineTransformation`, `FineGridIndicesMapping` | algebra over R, induction over lists |
| C15–C17 | `execute` for arbitrary tableaus over an abstract vector space | refinement to textbook recursion; order conditions over all rooted trees of size <= p; convex combination (Shu–Osher) forms |
| C18 C19 C52 | ghost cells, slices, builder; walls of the shallow water boundary | index arithmetic |
| C20–C25 | flux interface on node arrays, RHS, LLF, limiter, MCL | telescoping sums, convexity |
| C26–C30, C33 | shallow water functions | field/nra, telescoping, convexity |
| C31 C32 | flux wrappers, subgrid flux | refinement |
| C34 C35 | index mappings | arithmetic |
| C36 C37 C43 | polynomials as coefficient lists, `scipy.interpolate.lagrange`, assembly loops, Golub–Welsch from an eigen decomposition contract | algebra, telescoping over cells |
| C38–C40 | artificial diffusion, low order CG, FE-MCL | M-matrix/convexity arguments |
| C41 C42 C44 C54 | norms, interpolation, EOC, error evolution | algebra, integrals of polynomials |
| C45 C46 C48 C50 | parsers, argument splitting, file writing, matrix cache as state machines over Z, strings, lists | induction |
| C47 C53 | `Solver.solve` with a heap of arrays (aliasing) | simulation; crash of the right hand side at any point |
| C49 | exact solutions of all benchmarks | derivatives, uniqueness of roots, Riemann problem of the dam break |
| C51 | recursive `maximum/minimum`, `minmod` | induction |
| C55–C58 | continuous Galerkin right hand side, flux cache (array identity), runs of the finite element schemes, choice of the integrator | integrals of polynomials, simulation |
| C59–C63 | wave speeds, entropy variables, mirror and translation symmetry, well-balancing of all shallow water schemes | derivatives, nra, list reversal/rotation |
| C64–C66 | the complete finite volume solver for shallow water built from a benchmark (`M_FVSolver.v`): initial averages, bottom, flux getters, boundary, time stepping, history, solve | composition of the scheme level theorems along the run |
| C67 C68 | the coarse solver and reinitialisation as operations on the complete solver | simulation relation over arbitrary operation sequences |
| C69 C70 | the scalar finite volume solvers built from a benchmark (quadrature, flux getter, boundary conditions, generator), arbitrary sequences of uses | one-step theorems of C23-C25 lifted by the invariant of L_Invariant; refutations by concrete runs |
| C71 | the finite element solvers built from a benchmark; arbitrary sequences of uses | one-step theorems C39, C40, C55, C57 lifted by the invariant of L_Invariant; the ratio of node rates bounded from the sparsity of the assembled matrices and a rational table checked by computation (L_FERates) |
| C72 C73 C74 | the commands calculate, plot and animate as functions of arbitrary solvers; the pictures are the lists of lines/frames handed to matplotlib | induction over the list of solvers; S_Command says what a drawing, the stored data and a frame are; TemporalInterpolator's theorems (C45) for the frames |
| C75 | Curvature and DeleteCurvature on tables (lists of rows) | algebra with sqrt for the power 3/2; filter lemmas |
| C76 | the series over abstract solvers with the contract 're-initialised is like new'; that contract for the shallow water solvers from C68; averages by TemporalInterpolator | induction over the benchmarks; C42 for the interpolation |
| C77 | numpy generators as state machines with uniform and integers; the order of the draws as in the source | induction over the benchmarks; a counting generator as witness of the refutation |
| C78 | scalers, training data, files and the confirmation dialogue; skorch/torch as parameters | algebra of mean and variance; the file system as a function |
| C79 | the low order and the limited flux, cell by cell | bar states written out at every face (L_SWBounds), convex combinations; explicit two cell counterexample for velocities |
| C80 | all schemes, ghost cells and Runge-Kutta steps as in C61 | every array operation commutes with the conversion (L_Units); explicit two cell counterexamples for the two inconsistent schemes |
| C81 | flux getters with all nestings and solver construction of M_FVSolver; ghost cells as in C18 | node values by node_neighbours_spec, flux differences cell by cell; explicit pond over a step for the refutations |
| C82 | M_Parser: option tables of all 17 parsers, classification and conversion of strings as argparse does for options written in full, SolverAction, constructor keywords | induction over the strings: a parse succeeds exactly on sequences of written wishes (S_Parser); namespaces as folds of wishes; grouping from C46; explicit lines for the refutations |
| C83 | M_CommandLine: options, argument numbers, classification and conversion of all words of seven commands, exclusive groups, namespaces, postprocess of each command, construction of the objects and calculate | induction over the words: a parse succeeds exactly on sequences of written wishes (S_CommandLine), the namespace is a summary of the wishes; job by job computation; C65 from the built objects for still water; explicit lines for the refutations |
| C84 | calculate_line of M_CommandLine: words to namespace to constructors (M_FVSolver, M_ScalarSolver) to Solver.solve, list of solvers with the first exception | C83 gives the wishes of every line; case analysis over the solvers for construction; induction over the steps: C64, C67, C70, C71 for water, mass and bounds; a step of fixed size bounds the number of steps, the rest ends by exceptions or the step limit argument of L_CommandRun |
| C85 | M_Program: names in the namespace from argparse through postprocess and main to the constructor of each command; values with as_dict as trees, _get_deep_dict; main for calculate with print_arguments and the profile | evaluation over the finite list of commands against the table `wanted`; structural induction over nested values against the relations `shown` and `fails`; for lines the wishes of C83, the solvers of C84 and case analysis over the solvers for adaptive steps |
| C86 | scalar_solver and fe_solver (M_ScalarSolver), fluxes of M_Scalar and M_FE, Runge-Kutta methods of M_ODE, history of M_Solver; calculate_line of M_CommandLine | Harten's incremental form: each Euler step is u + C (right jump) - D (left jump) with C, D nonnegative and C_i + D_(i+1) at most 1; for limiters the form follows from the local maximum principle (C25, C40) of the doubled step; convexity of the variation carries it through the Runge-Kutta stages, induction over the uses to the history, C83/C84 to the words |
| C87 | scalar_solver and fe_solver (M_ScalarSolver), Lax-Friedrichs flux of M_Scalar, low order flux of M_FE, cell averages of M_Interpolate, Runge-Kutta methods of M_ODE, history of M_Solver, advection_exact of M_Benchmark; calculate_line of M_CommandLine | both schemes are the upwind scheme in step fractions h; a solution value is a mean of initial values under a probability distribution whose mean displacement is t/h and whose variance is at most t/h (induction over stages, steps and uses); Taylor's formula, Cauchy-Schwarz and uniform continuity give the three estimates; C83/C84 carry them to the words |
| C88 | M_EOC: EOCCalculator, EOCDataFrame, CalculateEOC.execute and the words of eoc, on top of M_CommandLine, M_ScalarSolver, M_Norm | inversion of the line by C83, of the solutions and of the rows gives what every table contains; for smooth data C87 bounds the values, Lipschitz continuity the difference inside the cells, and the quadrature of the norms keeps bounds (weights are positive and sum to the length); runs end since steps have a positive lower bound; the maximum over finitely many rows gives the fuel |
| C89 | as C88 | counterexample `eoc advection -s llf -r 1`; number of rows from C88 |
| C90 | M_ScalarSolver, M_Scalar, M_Flux, M_ODE, M_Solver (unchanged); S_Contraction: order, distance, convex totals | the Lax-Friedrichs update is nondecreasing in its three arguments and conserves the sum; Crandall-Tartar gives contraction of the distance, Kruzkov the sums of abs(u - k), interpolation by a cone of such functions all convex functions; Runge-Kutta methods as convex combinations of Euler steps on pairs of vectors with a projection lemma; two solvers are followed in lockstep through the loop and the program |
| C91 | M_Tools: the six parsers, argparse with positional arguments (single words, lists), postprocess, constructors; S_Tools: the parts of a line | every option step and every run of words is read as one part (induction over the parts); conversely every accepted line decomposes into parts (induction over the reading); concrete and quantified lines for the refutations |
| C92 | `M_Benchmark`, `M_ScalarSolver`, `M_EOC` (no new definitions); `S_Jumps` defines total variation over increasing points, the area between values and a function, and the row of an eoc table | the solution is a mean of shifted initial values (C87) with variance at most h t; the area between a function of variation V and its shift by d is at most V(d + h) (each jump is crossed by at most d/h + 1 cells); Cauchy-Schwarz turns the variance into sqrt(h t); the benchmarks are sums of monotone pieces; quadrature in L1 is a weighted sum of such areas |
| C93 | M_Boundary get_boundary_conditions/is_periodic/get_cell_neighbours, all fluxes of M_FVSolver and M_ScalarSolver | the two spellings give the same ghost cells and differ only in the flag; induction over the flux; for the scalar limiter the extra neighbour repeats a value that is in the row already; refutation by computing one step of three cells |
| C94 | M_FE cg_low_rhs for Burgers, M_ScalarSolver LLF, M_Benchmark burgers_exact, all uses of a solver | exact solution by characteristics (intermediate value theorem, Taylor with the second derivative); both schemes have the flux of Rusanov; each Euler stage contracts up to a factor 1 + C dt and is consistent up to dt h; induction over the stages and steps, with the step size kept by the largest value |
| C95 | M_GenerateRun over M_FVSolver, M_Solver, M_Series, M_Generate | the state before solution i is that of a used solver, so C68 makes it a fresh one; the recorded windows are those of the whole values (C31); at bottoms without topography the flux at a node depends on its two cells only, so the windows give the fluxes of the whole mesh; files by C48 |
| C96 | M_FE, M_FESolver, M_Solver, M_RK (no new model) | the low order right hand side is a sum over pairs of nodes with a diffusion that dominates the flux difference, so every Kruzkov entropy decreases under an explicit Euler step; convex functions of finitely many values are majorised by Kruzkov ones; strong stability preserving methods are convex combinations; advection: the right hand side is linear, so differences of solutions are solutions and C57's bounds apply to them; two solvers run in lockstep as in C90 |
| C97 | M_FloatStepping: the code of M_TimeStepping with a rounding function; the doubles of Flocq (round to nearest even), without rounding it is M_TimeStepping (C97_exact_arithmetic) | invariant of the loop: the rounded remainder is at least the rounded 1e-12, so the time is below the end; the result of a rounded sum is a nearest double and the end is a double, so a step of the whole remainder ends within 2^-40 of the end; induction on a bound of the remaining steps |
| C98 | M_FloatODE: the Runge-Kutta loop with sums from the left and a rounded clock; M_Flux and M_Boundary with rounded cells (float_cells, float_states) in place of real ones | every rounding changes a number of size A >= 2^-1022 by at most 2^-53 A; p roundings of something that sums to zero stay within A((1+2^-53)^p - 1) of it; fluxes telescope exactly since the two values at a node are opposite and rounding is odd; induction over stages and steps |
| C99 | M_FloatODE, M_Flux, M_Boundary (unchanged), cells in any arithmetic that rounds every result (S_Constant: arithmetic, shows_constant) | all neighbour arrays of a constant state are constant for each boundary condition, so a local flux has the same value at all nodes and every difference is exactly zero; zero times anything and zero plus anything are exact; shifts: the list of pairs of neighbours of the shifted data is the shifted list, and map and map2 commute with shifts, without any law of arithmetic; start times: no ghost cell but inflow reads the time; induction over stages and steps |

### Findings (proved `_refuted` theorems or stated inside theorems)

* C03 `len(time_stepping)` is one too large when the last remainder is exactly 1e-12.
* C07 a rejected `set_value` has already truncated the history.
* C23 Burgers: negative states break the maximum principle; two neighbouring zero states divide by zero.
* C25 the periodic scalar MCL finite volume scheme does not conserve mass.
* C27 `FluxJacobian` has its second row swapped.
* C28 two neighbouring dry cells divide by zero.
* C39 C40 degree 8: negative lumped masses, no positive time step; FE-MCL on one cell of degree 3 leaves the bounds.
* C45 `nan` is accepted by the float argument types. C46 only `+f` protects solver names.
* C47 solving twice runs the whole interval twice; a fixed zero step divides by zero.
* C48 appending to a missing file writes no header; a crash between the two csv writes leaves files of different length.
* C49 the default end time of the Burgers benchmark lies after shock formation; explicit zeros are ignored by `x or default`.
* C50 `dot` and `inverse` are stale after single-entry assignments.
* C52 the second ghost cell of a wall repeats the first one.
* C53 a refused non-finite step is visible in `solution.value`.
* C56 the flux approximation raises AttributeError on a first call and returns stale fluxes for arrays modified in place.
* C58 the continuous Galerkin solver cannot be built for degrees 3–7 (TypeError) and from 8 on (KeyError).
* C60 the energy stable schemes can increase the energy. C61 the limited scheme is not mirror symmetric.
* C62 the bottom is extended by edge values on periodic domains. C63 four schemes are not well-balanced.
* C64 networks between walls lose water. C66 reduced schemes subtract the bottom source twice, and flux getters that are
  given the bottom as an array raise ValueError. C68 `reinitialize` ignores everything but the initial data.
- C69 The program's Burgers shock benchmark leaves the range of its data: the scalar local Lax-Friedrichs flux takes the wave speed u without absolute value, so negative states get negative diffusion; after one Heun step on six cells a value lies below -1.
- C70 The scalar finite volume MCL solver loses mass on periodic domains, end to end from a benchmark with piecewise constant data.
- C71 For Burgers' equation with degree 2 or more the optimal time step of the initial data need not be safe for later ones with the same bounds (the fast value can sit at a slow node); C71_safe_cfl gives the CFL numbers for which it is.
- C72 `calculate` without a solver raises TypeError (`len(None)`).
- C73 Two plotted lines with equal labels (default for two solvers of the same kind) overwrite each other in the saved data.
- C74 `animate` with a start time after all recorded times raises IndexError; without solver it raises TypeError while `plot` shows the exact solution.
- C75 delete-curvature, analyze-data and analyze-curvature always raise AttributeError: core.load_data and core.save_data do not exist. A high jump can have a smaller curvature than a low one (C75_deleted_rows_ex).
- C76 The error series with save_plot ends with TypeError at the first success; the average of an empty series raises ValueError.
- C77 The reference and the varied benchmarks differ in more than the varied parameter; directories are concatenated without separator.
- C78 A network whose files are missing is announced as untrained, but predict raises.
- C79 The velocity limiter multiplies the velocity bounds of both neighbours of a face with the limited height on its right side (solver/mcl.py L147-172), so velocities of the left cell can leave every bound: -2 becomes -5.2 in one admissible step.
- C80 Lambda of the first order energy stable flux carries an extra factor 1/sqrt(2g) (energy_stable.py L106-120), so its diffusion depends on the unit of time. LaxWendroffFlux adds dt*s/dx instead of dt*s^2/dx times the jump and keeps the full Lax-Friedrichs viscosity (lax_wendroff.py L27-40): it depends on the units and is not the scheme of that name.
- C81 `x or default` replaces explicit zeros: bottom 0, gamma 0, CFL 0, mesh size 0 all become the default (finite_volume/solver.py L60, antidiffusion.py L21, low_order.py L122 and the other getters). ReducedFluxGetter does not hand a given bottom to its inner scheme, LaxWendroffSolver ignores the benchmark's bottom.
- C82 SolverAction catches every KeyError inside the parser (core/solver.py L226-242) and calls quit(): unknown solvers, fluxes and time integrators all print "Only the following solvers are available" and exit with status 0. CGParser, CGLowParser and MCLParser override _add_arguments without super(), so +p (finite_element/solver.py L20-28) does not exist. "++flux llf" is split before llf since only "+f" protects a value (core/solver.py L216).
- C83 `-b unknown` and `help unknown` raise an uncaught KeyError (command/calculate.py L104, command/help.py L39); `-b random`, listed by help, always ends with exit status 2 since its class needs an argument. animate and eoc without -s raise TypeError in postprocess, calculate in execute (len(None)); wrong numbers of solvers are AssertionErrors, generate-data without -d a KeyError for solvers whose short name is not in DIRECTORIES. generate-data does not call _adjust_end_time, and reinitialize does not change the end time, so -T never reaches the solver. help merges the registries so that llf and central always mean the shallow water solvers. scripts/gen_solver_1 L16 lacks a blank before -s.
- C85 `calculate advection -s cg-low ++adaptive --args` ends with an uncaught AttributeError: TimeStepGenerator.as_dict (core/time_stepping.py L77-82) reads `_time_step`, which exists only without adaptivity (L63-68). eoc is not affected only because lists of lists are not opened by _get_deep_dict, so --args shows no solvers there.
- C89 `eoc --refine r` (help: "Specify number of refinements.", command/error.py L261-268) computes r meshes (L293-303), that is r-1 refinements; `-r 1` prints a table of one row whose orders are NaN.
- C91 `test a --args b` and `analyze-data a --histogram b` are refused: argparse fills a list of words from the first run only. `print-network --profile llf` is refused since "llf" is taken for the number of lines. `train-network llf -p lr x` ends with an uncaught ValueError (command/train_network.py L198-205: the conversion is done in postprocess, not by argparse). Every accepted line of analyze-curvature, analyze-data and delete-curvature ends with AttributeError (core has no load_data, see C75).
- C93 (core/boundary.py L126-130): the flag of periodic boundaries is set by `conditions == ("periodic",)`, so ("periodic", "periodic") makes periodic ghost cells with the flag off. The limited shallow water solver then takes its bounds at the ends from one side only and computes other rates (C93_periodic_twice_refuted).
- C94 is a bound for times before the critical time only, and the bound needs cells that are small enough for the data. After shocks appear nothing is proved about convergence. The finite volume part needs positive data because the Lax-Friedrichs flux of the program uses the signed wave speed (see C69); both Burgers benchmarks of the program have data that change sign, so for them only the finite element part applies.
- C95 (command/generate_data.py L281-341): two random benchmarks are used up while the command is built (for the fine and for the coarse flux), so the first row belongs to the third benchmark of the seed.
- C95 (command/generate_data.py L342-362): --append with the same seed, also the default one, adds the same rows a second time (C95_appending_repeats_the_data).
- C95 (defaults.py SEED, command/parameter_variation_test.py L228-234): generate-data and parameter-variation-test have the same default seed, so all but two of the reference benchmarks of the test are benchmarks of the training data (C95_training_benchmarks_are_tested).
- C97 (core/time_stepping.py L136-156): the guard against small steps compares with 1e-12 whatever the time is. From 32768 on (2^15, where neighbouring doubles are 7.3e-12 apart) steps of 1e-12 pass the guard and do not advance the clock: the loop never ends (C97_late_times_refuted). Below 4096 this cannot happen (C97_terminates).
- C98: mass is not conserved exactly in double precision (C98_rounding_changes_mass, two cells with 3*2^50 and 1, one Euler step of 1/8); the drift is bounded by the theorem.
- C90: the bound of half a cell per step for Burgers' equation is sharp (C90_half_a_cell_is_sharp): with CFL numbers above 1/2, which the solvers accept, solutions may lose their order and drift apart though they stay within their bounds.

## 4. Trusted base

* Coq's kernel (8.16.1), `coqc`.
* Axioms: only those of the standard library's real numbers, as printed by `Print Assumptions` beside each theorem
  (`ClassicalDedekindReals.sig_forall_dec`, `ClassicalDedekindReals.sig_not_dec`,
  `FunctionalExtensionality.functional_extensionality_dep`, and `Classical_Prop.classic` where classical lemmas of the
  library are used). No axiom of our own. Section 6 lists them for each theorem.
* The faithfulness of the definitions in `M_*.v` to `/repo`, by reading (nothing was executed).

## 5. What is modelled and what is not

| /repo file | model | left out |
|---|---|---|
| core/time_stepping.py | M_TimeStepping | progress bar |
| core/discrete_solution.py, core/vector_coarsener.py | M_Solution, M_Coarsener | – |
| core/mesh.py, core/index_mapping.py | M_Mesh, M_Neighbours | – |
| core/ode_solver.py | M_ODE | – |
| core/boundary.py, finite_volume/shallow_water/boundary.py | M_Boundary | – |
| core/solver.py, finite_element/solver.py, finite_volume/solver.py | M_Solver (aliasing), M_Misc (grouping of arguments), M_FVSolver | tqdm, argparse |
| core/norm.py, core/quadrature.py, core/interpolate.py | M_Norm, M_Quadrature, M_Interpolate | – |
| core/local_bounds.py, core/riemann_solver.py, core/function.py, core/system.py, core/type.py | M_Neighbours, M_Flux, M_Misc | – |
| core/benchmark.py, core/space.py | fields in M_Benchmark, M_FVSolver | abstract classes |
| benchmark/*.py | M_Benchmark, M_FVSolver | random numbers (arbitrary values), plotting parameters |
| finite_element/*.py, finite_element/scalar/solver/*.py | M_FE, M_FEChoice | parsers |
| finite_volume/{index_mapping,numerical_flux,space,solver,time_stepping}.py | M_Neighbours, M_Flux, M_FVSolver, M_Scalar | – |
| finite_volume/scalar/** | M_Scalar | parsers |
| finite_volume/shallow_water/{core,numerical_flux}.py | M_ShallowWater | – |
| finite_volume/shallow_water/solver/{central,lax_friedrichs,energy_stable,lax_wendroff,low_order,mcl,antidiffusion,coarse}.py | M_ShallowWater, M_FVSolver | parsers |
| finite_volume/shallow_water/solver/reduced_model.py, reduced_llf.py, reduced_llf_2.py | M_FVSolver, M_Generate (the network is an arbitrary function) | loading of networks |
| command/{error,error_evolution,generate_data}.py | M_Norm, M_Interpolate, M_Generate | pandas formatting, argparse |
| finite_volume/solver.py with finite_volume/scalar/solver, finite_element/solver.py with finite_element/scalar/solver | M_ScalarSolver | names, terminal output, argparse (see M_Parser) |
| command/calculate.py, command/plot.py, command/animate.py | M_Command | matplotlib, titles and limits of axes, terminal output, argparse (see M_Parser) |
| command/error_evolution.py, command/parameter_variation_test.py, benchmark/shallow_water.py (random generator) | M_Interpolate, M_Series | pictures, terminal output, argparse (see M_Parser) |
| finite_volume/shallow_water/solver/reduced_model.py, command/train_network.py, command/delete_curvature.py | M_Network, M_Generate, M_FVSolver | torch and skorch (parameters), float32, plots of losses, argparse (see M_Parser) |
| core/solver.py (SolverParser, SolverAction), all solver parsers and registries, command/calculate.py (_build_solver) | M_Parser | abbreviated options, "+m5", "++cfl=1", "+", "--" and strings with a leading "+" and a blank; infinite and nan numbers; help texts; the outer parser |
| cls1, parser.py, command/help.py, parsers and postprocess of calculate, plot, animate, eoc, plot-error-evolution, generate-data, parameter-variation-test, defaults.py | M_CommandLine | abbreviated options, "-m5", "--save=x", "--"; infinite and nan numbers; words of the other commands (see M_Tools) |
| cls1 (print_arguments, _get_deep_dict, print_profile, execute_command, main), profiler.py, as_dict methods, namespaces and constructors of all commands | M_Program | what pprint and cProfile print; numbers in descriptions |
| command/error.py (EOCCalculator, EOCDataFrame, CalculateEOC, postprocess) | M_EOC | Burgers.exact_solution (parameter); layout of the printed data frame; floats |
| parsers, postprocess and constructors of analyze-curvature, analyze-data, delete-curvature, print-network, test, train-network | M_Tools | abbreviated options, "--"; construction of networks by skorch; what print-network prints; plots |
| command/generate_data.py (GenerateData as a whole) | M_GenerateRun | names of columns; progress bars; solvers other than the five first order ones (model yes, theorem no) |
| finite_element/scalar/solver/cg_low.py as a run of convex functionals | S_FEEntropy (specification only) | order and distances for Burgers (false between half and one cell per step already for finite volumes); entropy of mcl |
| core/time_stepping.py in double precision | M_FloatStepping | overflow, infinite and nan steps, __len__ |
| core/ode_solver.py and the finite volume right hand side in double precision | M_FloatODE, float_cells, float_states | overflow; the rounding inside fluxes (the flux is a parameter); np.sum over more than eight numbers (not used by the step) |
| drawing in command/{analyze_curvature,analyze_data,animate,plot}.py, PyTorch behind command/{print_network,train_network}.py | – | plotting, PyTorch, timing |

Nowhere modelled: floating point rounding (except in the time stepping, C97, and in the update of the cells, C98), plotting, animation, the optimisation of networks by PyTorch, pickling, argparse beyond full options separated by blanks, progress bars.

## 6. Print Assumptions per theorem

Abbreviations: **D** = `ClassicalDedekindReals.sig_forall_dec`, **N** = `ClassicalDedekindReals.sig_not_dec`,
**F** = `FunctionalExtensionality.functional_extensionality_dep`, **C** = `Classical_Prop.classic`,
**–** = closed under the global context.

### D

* `C04_generator_history`
* `C06_rejected_update_changes_nothing`, `C06_time_steps_are_differences`
* `C15_step_is_unique`
* `C18_ex_mixed`
* `C19_ex`
* `C32_corrected_flux_adds`, `C32_ex`
* `C50_dot`, `C50_dot_current_partial`, `C50_dot_undefined`, `C50_entries`, `C50_ex`, `C50_inverse`
* `C52_wall_mirrors_edge_cells_partial`
* `C77_directory_refuted`
* `C78_training_data_ex`
* `C85_args_of_commands`
* `C93_accepted_ex`
* `C99_interrupted_runs`

### DF

* `C01_ex`, `C01_time_stepping_covers_interval`, `C01_too_small_iff`
* `C02_ex`, `C02_time_stepping_terminates`
* `C03_ex`, `C03_len_is_number_of_steps_partial`, `C03_len_refuted`
* `C04_ex`, `C04_mesh_dependent_steps`, `C04_steps_follow_generator`
* `C05_cfl_check_exact`, `C05_check_only_warns`, `C05_ex`, `C05_solver_ex`, `C05_warns_iff_violated`
* `C06_ex`, `C06_history_lengths_agree`, `C06_history_refines_log`, `C06_history_times_increase`
* `C07_rejected_set_value_truncates_refuted`, `C07_set_value_rewinds_partial`
* `C08_coarse_history_is_block_average_of_log`, `C08_coarse_value_follows_fine`, `C08_ex`
* `C09_coarsen_block_averages`, `C09_ex`
* `C10_coarsen_composes`, `C10_coarsen_conserves_integral`, `C10_coarsen_constant`, `C10_coarsen_linear`, `C10_coarsen_monotone`, `C10_coarsen_stays_in_block_bounds`, `C10_ex`
* `C11_ex`, `C11_geometry_ex`, `C11_interval_constructor`, `C11_interval_geometry`, `C11_uniform_mesh_partitions_domain`
* `C12_coarsen_rejects_exactly_nonmultiples`, `C12_coarsen_undoes_refine`, `C12_fine_grid_indices_exact`
* `C13_ex`, `C13_find_cell_indices_sound_complete`, `C13_find_cells_exact`, `C13_number_of_cells_found`
* `C14_affine_bijection`, `C14_ex`
* `C15_euler_formula`, `C15_ex`, `C15_execute_is_runge_kutta_step`, `C15_heun_formula`, `C15_ssp3_formula`, `C15_time_adds_up`
* `C17_convex_invariants_survive_ssp_steps`, `C17_ex`
* `C20_ex`, `C20_fluxes_are_single_valued`, `C20_update_is_flux_balance`
* `C21_ex`, `C21_fluxes_are_local`
* `C22_advection_upwind`, `C22_ex`, `C22_riemann_solver_consistent`, `C22_riemann_solver_relations`, `C22_riemann_solver_total`
* `C23_burgers_negative_states_refuted`, `C23_burgers_zero_states_refuted`, `C23_ex`, `C23_llf_local_maximum_principle`, `C23_llf_runs_stay_in_range`, `C23_optimal_time_step`
* `C24_ex`, `C24_limiter`
* `C25_ex`, `C25_mcl_flux_balance`, `C25_mcl_local_maximum_principle`, `C25_mcl_runs_stay_in_range`, `C25_periodic_mass_conservation_refuted`
* `C26_ex`, `C26_nullify`, `C26_positivity_fix`, `C26_velocity`
* `C27_ex`, `C27_flux`, `C27_jacobian_refuted`, `C27_jacobian_rows_swapped`
* `C30_source_keeps_heights`
* `C31_data_is_exact`, `C31_ex`, `C31_exact_subgrid_fluxes`, `C31_recorded_subgrid_fluxes`, `C31_recorded_windows`
* `C34_basis_nodes`, `C34_ex`, `C34_numbering`
* `C35_fe_neighbours_share_a_cell`, `C35_local_bounds_are_extrema`
* `C36_basis`, `C36_ex`, `C36_fast_elements`, `C36_initial_values`
* `C38_ex`, `C38_rows_in_general`
* `C41_maximum_norm`
* `C42_ex`, `C42_spatial`, `C42_temporal`, `C42_temporal_nodes_and_errors`
* `C44_error_is_a_distance`
* `C45_ex`, `C45_floats_partial`, `C45_nan_refuted`
* `C47_ex`, `C47_reinitialized_is_like_new`, `C47_solve_drives_ode_solver_and_solution`, `C47_solve_raises_before_the_first_step`, `C47_solvers_start_in_sync`, `C47_solving_twice`, `C47_time_of_the_solution`, `C47_values_read_are_independent`
* `C49_advection`, `C49_advection_ex`
* `C50_stale_dot_refuted`, `C50_stale_inverse_refuted`
* `C51_ex`, `C51_maximum_minimum`, `C51_maximum_minimum_defined`, `C51_minmod`
* `C52_wall_second_ghost_refuted`
* `C53_exceptions_keep_the_solution_partial`, `C53_only_cfl_violations_become_warnings`, `C53_refused_step_refuted`
* `C54_ex`, `C54_relative_error`, `C54_self_and_errors`
* `C56_ex`, `C56_first_call_refuted`, `C56_flux_of_the_argument`, `C56_modified_in_place_refuted`
* `C73_equal_labels_refuted`, `C73_ex`, `C73_shallow_water_axes`
* `C74_ex`, `C74_exact_solution_alone_refuted`, `C74_frames`, `C74_histories_can_be_animated`, `C74_late_start`, `C74_recorded_values`, `C74_start_time_refuted`
* `C75_the_parabola`
* `C76_average`, `C76_average_ex`
* `C78_memory_ex`, `C78_saved_networks`, `C78_untrained_networks_refuted`
* `C80_lax_wendroff_ex`
* `C82_ex`, `C82_long_flux_option_refuted`, `C82_no_exception`, `C82_nothing_ignored`, `C82_options`, `C82_polynomial_degree_refuted`, `C82_several_solvers`, `C82_several_solvers_only`, `C82_unknown_flux_refuted`, `C82_unknown_integrator_refuted`, `C82_unknown_solver_refuted`
* `C83_help`
* `C84_linear_solver_ex`
* `C86_line_ex`
* `C90_half_a_cell_is_sharp`
* `C91_everything_granted`, `C91_ex`, `C91_nothing_ignored`, `C91_parameter_refuted`, `C91_profile_refuted`, `C91_split_lists_refuted`
* `C93_limiter_ex`, `C93_same_scalar_limiter`
* `C97_exact_arithmetic`
* `C98_exact_arithmetic`, `C98_exact_ex`
* `C99_constant_states_are_kept`, `C99_shifts`, `C99_start_times`

### DNF

* `C15_tableaus_are_explicit`
* `C16_euler_order_1`, `C16_heun_order_2`, `C16_nodes_are_row_sums`, `C16_orders_are_sharp`, `C16_rk8_order_8`, `C16_ssp3_order_3`
* `C21_periodic_runs_conserve_mass`, `C21_scalar_schemes_conserve_mass`
* `C28_adjacent_dry_cells`, `C28_ex`, `C28_low_order_defined`, `C28_low_order_runs`, `C28_low_order_step`, `C28_mcl_runs`, `C28_mcl_step`
* `C29_ex`, `C29_lake_at_rest_rhs`, `C29_lake_at_rest_runs`
* `C30_ex`, `C30_water_is_conserved`
* `C33_diffusion_matrix`, `C33_diffusion_removes_energy`, `C33_ex`
* `C36_interpolation`
* `C37_discrete_gradient`, `C37_ex`, `C37_lumped_masses`, `C37_mass_matrix`
* `C38_artificial_diffusion`
* `C39_low_order_bounds`, `C39_low_order_conserves`
* `C40_mcl_bounds`, `C40_mcl_conserves`, `C40_mcl_target`
* `C41_L2_is_the_integral`, `C41_ex`, `C41_finite_volume_norms`, `C41_integral_norms_are_seminorms`
* `C42_averages_ex`, `C42_cell_averages`, `C42_components`, `C42_two_point_average`
* `C43_decomposition_exists`, `C43_ex`, `C43_gauss_exact`, `C43_rule_independent_of_solver`
* `C49_dam_break_ex`, `C49_dam_break_refused`, `C49_dam_break_root`, `C49_moving_water_ex`, `C49_oscillations`, `C49_random_zero_parameters_ignored`
* `C55_cg_conserves`, `C55_cg_weak_form`, `C55_ex`
* `C57_runs_conserve_mass`
* `C58_integrator_fits_degree`
* `C59_ex`
* `C60_ex`
* `C61_ex`, `C61_limited_mirror_refuted`, `C61_mirror`
* `C62_ex`, `C62_periodic_bottom_refuted`, `C62_translation`, `C62_uniform_flow`, `C62_wet_states`
* `C63_lake_at_rest_refuted`
* `C64_ex`, `C64_lax_wendroff_water`, `C64_networks_between_walls_refuted`, `C64_solvers_can_be_built`, `C64_water_is_conserved`
* `C65_ex`, `C65_lake_at_rest_benchmark`, `C65_lake_run_completes`, `C65_lake_stays`, `C65_lake_without_bottom_benchmark`
* `C66_given_bottom_refuted`, `C66_reduced_flux`, `C66_zero_network_flat_bottom`, `C66_zero_network_refuted`
* `C67_coarse_solver_shows_coarsened_solution`, `C67_degree_must_divide`, `C67_ex`
* `C68_ex`, `C68_new_end_time_refuted`, `C68_reinitialized_is_a_new_solver`
* `C69_bounds_hold`, `C69_burgers_shock_benchmark_refuted`, `C69_constants_stay`, `C69_ex`, `C69_run_completes`, `C69_scalar_solvers_can_be_built`
* `C70_ex`, `C70_limited_solver_refuted`, `C70_mass_is_conserved`
* `C71_fe_solvers_can_be_built`, `C71_integral_is_conserved`
* `C72_end_time`, `C72_ex`
* `C76_series_of_solvers`
* `C77_admissible`, `C77_ex`, `C77_references_refuted`, `C77_same_experiments`
* `C78_confirmation`, `C78_ex`, `C78_perfect_network`, `C78_scaling`
* `C79_heights`, `C79_high_order_kept`, `C79_kept_ex`, `C79_limited_velocities_partial`, `C79_limited_velocities_refuted`, `C79_low_ex`, `C79_low_order_average`, `C79_low_order_velocities`
* `C80_energy_stable_refuted`, `C80_ex`, `C80_lax_wendroff_refuted`, `C80_lax_wendroff_units_refuted`, `C80_lax_wendroff_viscosity`, `C80_units`
* `C81_antidiffusion`, `C81_antidiffusion_ex`, `C81_defaults`, `C81_given_constant_bottom`, `C81_given_constant_bottom_ex`, `C81_given_zero_bottom_refuted`, `C81_lax_wendroff_bottom_refuted`, `C81_lax_wendroff_step`, `C81_lax_wendroff_step_ex`, `C81_network_given_bottom_refuted`, `C81_scalar_schemes`, `C81_scalar_schemes_ex`, `C81_zero_options_refuted`
* `C83_end_time_of_generate_data_refuted`, `C83_everything_granted`, `C83_ex`, `C83_generate_ex`, `C83_help_page_refuted`, `C83_no_solver_refuted`, `C83_nothing_ignored`, `C83_random_benchmark_refuted`, `C83_still_water`, `C83_still_water_ex`, `C83_uncaught_ex`, `C83_uncaught_exceptions_refuted`, `C83_unknown_benchmark_refuted`
* `C84_solvers_are_built`, `C84_water_ex`
* `C85_args_adaptive_refuted`, `C85_args_and_profile`, `C85_args_and_profile_ex`, `C85_args_and_profile_granted`, `C85_refusals`
* `C86_ex`, `C86_variation_never_grows`
* `C87_error_of_rough_solutions`, `C87_ex`, `C87_line_ex`
* `C90_convex_totals_never_grow`, `C90_distance_never_grows`, `C90_ex`, `C90_order_is_kept`, `C90_ordered_data`, `C90_small_changes`
* `C92_area_of_solutions_with_jumps`
* `C93_ex`, `C93_periodic_twice_refuted`, `C93_same_lax_wendroff`, `C93_same_scalar_solver`, `C93_same_water_solver_partial`
* `C94_ex`
* `C95_appending_repeats_the_data`, `C95_command_starts`, `C95_ex`, `C95_fluxes_of_the_rows_exist`, `C95_rows_of_generate_data`, `C95_training_benchmarks_are_tested`
* `C96_euler_step_loses_entropy`

### DNFC

* `C36_elements`
* `C37_degree_8_masses_negative`, `C37_lumped_masses_positive`
* `C39_degree_8_has_no_time_step`, `C39_ex`, `C39_low_order_succeeds`
* `C40_ex`, `C40_mcl_succeeds`, `C40_one_cell_bounds_refuted`
* `C44_exact_order`, `C44_table`
* `C49_advection_data`, `C49_burgers`, `C49_burgers_critical`, `C49_burgers_ex`, `C49_dam_break`, `C49_lake_at_rest`, `C49_moving_water`
* `C55_cg_energy`
* `C57_ex`, `C57_runs_keep_bounds`
* `C59_wave_speeds`
* `C60_central_energy`, `C60_energy_decays`, `C60_energy_stable_refuted`, `C60_entropy_is_energy_gradient`, `C60_equal_velocities`, `C60_potential`
* `C69_advection_benchmarks`
* `C71_bounds_hold`, `C71_data_bounds_hold`, `C71_default_cfl_keeps_bounds`, `C71_ex`, `C71_run_completes`, `C71_safe_cfl`
* `C72_calculate_advection`
* `C75_curvature_of_the_parabola`, `C75_deleted_rows`, `C75_deleted_rows_ex`, `C75_ex`, `C75_properties`, `C75_transform`
* `C84_bounds_are_kept`, `C84_calculate_ends`, `C84_mass_is_kept`, `C84_scalar_ex`, `C84_water_is_kept`
* `C86_advection_benchmarks`, `C86_calculated_variation`, `C86_element_ex`, `C86_element_variation_never_grows`
* `C87_advection_benchmarks`, `C87_calculated_error`, `C87_element_benchmarks`, `C87_element_error`, `C87_element_solutions_converge`, `C87_error_of_smooth_solutions`, `C87_solutions_converge`
* `C88_advection_tables`, `C88_error_lines`, `C88_ex`, `C88_never_warns`, `C88_tables_asked_for`, `C88_what_the_tables_contain`
* `C89_one_refinement_missing_partial`, `C89_refinements_refuted`
* `C91_data_commands_refuted`, `C91_tests_started`
* `C92_advection_benchmarks`, `C92_calculated_area`, `C92_element_area`, `C92_element_benchmarks`, `C92_line_ex`, `C92_solutions_converge`, `C92_tables`, `C92_tables_asked_for`, `C92_tables_ex`
* `C94_burgers_benchmarks`, `C94_element_error`, `C94_element_solutions_converge`, `C94_exact_solution`, `C94_positive_ex`, `C94_positive_solutions_converge`
* `C96_advection_distance_never_grows`, `C96_advection_keeps_order`, `C96_default_cfl_loses_entropy`, `C96_entropy_never_grows`, `C96_ex`, `C96_ex_order`
* `C97_ex`, `C97_late_times_refuted`, `C97_rounding_never_raises`, `C97_steps_cover_interval`, `C97_terminates`
* `C98_arrays_round`, `C98_ex`, `C98_fluxes_meet_the_hypotheses`, `C98_methods_meet_the_hypotheses`, `C98_rounding_changes_mass`, `C98_runs_conserve_mass_up_to_rounding`, `C98_step_conserves_mass_up_to_rounding`
* `C99_arithmetics`, `C99_double_precision`, `C99_ex`, `C99_exact`, `C99_shifts_ex`, `C99_start_times_ex`

### –

* `C03_len_adaptive_is_zero`
* `C09_ex_rejected`
* `C12_ex`, `C12_fine_cells_partitioned`, `C12_fine_grid_mapping_validation`
* `C18_cell_neighbours`, `C18_cell_neighbours_not_periodic`, `C18_ex_cells`, `C18_ex_periodic`, `C18_node_neighbours_are_extension_values`
* `C19_boundary_names_validated`, `C19_inflow_needs_time`, `C19_no_condition`
* `C31_window_parameters`
* `C32_arbitrary_input`, `C32_dof_vector_is_extended_vector`, `C32_history`, `C32_required_values`
* `C34_refusals`
* `C35_ex`, `C35_fv_neighbours_share_a_node`, `C35_sharing_is_symmetric`
* `C43_degree_zero_refused`
* `C44_ex`
* `C45_integers`
* `C46_ex`, `C46_groups`, `C46_namespaces`, `C46_option_values_ex`, `C46_other_options_do_not_protect`
* `C48_appending_to_missing_file_writes_no_header`, `C48_ex`, `C48_generated_files`, `C48_one_header`
* `C58_ex`, `C58_integrator_exists`, `C58_solver_can_be_built_refuted`
* `C72_calculate`, `C72_no_solver_refuted`, `C72_one_solver`
* `C73_file_of_a_scalar_plot`, `C73_lines`, `C73_saved_data`
* `C75_command_refuted`
* `C76_ex`, `C76_no_success_refuted`, `C76_saving_plots_refuted`, `C76_series`
* `C77_chosen`, `C77_chosen_ex`
* `C78_training_data`
* `C83_generation_script_refuted`
* `C85_keywords_fit`, `C85_printing`, `C85_printing_ex`
* `C93_accepted`, `C93_neighbours`
