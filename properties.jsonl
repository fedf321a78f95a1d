{"id": "C01", "title": "Iterating a time stepping covers [start, end] exactly", "statement": "For every time stepping with positive step generator, every step yielded by iterating it is at least 1e-12, never larger than what the step generator asked for and never larger than the time that was left; `time` never exceeds end_time, after the k-th step `time` equals start plus the first k steps (or end_time once the remainder is below 1e-12), and when the iteration stops normally `time` is exactly end_time while the yielded steps sum to the interval length up to less than 1e-12. The iteration raises TimeStepTooSmallError exactly when the step asked for (clipped to the remaining time) is below 1e-12.", "quantifier": "all start/end times, all (adaptive, state dependent) sequences of generated steps, all numbers of iterations", "why_tests_cant": "needs an invariant over an unbounded number of iterations and arbitrary generated steps; a test fixes one step size", "anchors": ["core/time_stepping.py:TimeStepping", "core/time_stepping.py:TimeStepTooSmallError"]}
{"id": "C02", "title": "A time stepping terminates", "statement": "If every generated step is at least some fixed eps >= 1e-12, iterating the time stepping stops (normally) after at most floor((end-start)/eps)+1 steps.", "quantifier": "all intervals, all generated step sequences bounded below", "why_tests_cant": "termination of a while-style loop for every input is not observable by finitely many runs", "anchors": ["core/time_stepping.py:TimeStepping.__next__"]}
{"id": "C03", "title": "len(time_stepping) is the number of yielded steps", "statement": "For a non-adaptive time stepping, len() equals the number of steps iteration yields, so progress bars and len-based consumers are right; for an adaptive one it is 0.", "quantifier": "all intervals and all constant step sizes >= 1e-12", "why_tests_cant": "the claim fails only on a thin set of inputs around the 1e-12 tolerance, which sampled tests miss", "anchors": ["core/time_stepping.py:TimeStepping.__len__"]}
{"id": "C04", "title": "Adaptive generators track the state, non-adaptive ones are frozen", "statement": "TimeStepGenerator with adaptive=True returns cfl_number*f() evaluated at the moment of every call; with adaptive=False it returns cfl_number times the value f() had at construction, whatever happens afterwards. A mesh dependent time stepping always generates mesh.step_length*cfl_number.", "quantifier": "all step functions, all interleavings of state changes with calls", "why_tests_cant": "quantifies over call histories", "anchors": ["core/time_stepping.py:TimeStepGenerator", "core/time_stepping.py:get_mesh_dependent_time_stepping"]}
{"id": "C05", "title": "The CFL check is exact and only warns inside a solver", "statement": "CFLChecker raises CFLConditionViolatedError iff the time step used exceeds the optimal step of at least one stage (time node, stage dofs); inside Solver.solve such a violation never aborts the run and never changes the computed solution.", "quantifier": "all optimal-step functions, all stage lists, all runs", "why_tests_cant": "needs all positions of the violating stage and all runs", "anchors": ["core/time_stepping.py:CFLChecker", "core/solver.py:Solver._check_cfl_condition"]}
{"id": "C06", "title": "Discrete solution history is consistent", "statement": "After any sequence of updates (accepted or rejected) and accepted set_value calls a DiscreteSolutionWithHistory has equally many times and values, its last history entries are the current time and value, time equals initial time plus the accepted steps, history times are strictly increasing when all steps are positive, and time_step_history contains exactly the differences. An update with a non-finite value raises ValueError and leaves time and history unchanged.", "quantifier": "all operation sequences, all values", "why_tests_cant": "invariant over unbounded histories including failing calls", "anchors": ["core/discrete_solution.py:DiscreteSolution", "core/discrete_solution.py:DiscreteSolutionWithHistory"]}
{"id": "C07", "title": "set_value rewinds the history", "statement": "DiscreteSolutionWithHistory.set_value(v, t) with finite v drops exactly the entries with time >= t, keeps the earlier ones in order and appends (t, v); a rejected value should leave the history as it was.", "quantifier": "all histories, all times and values", "why_tests_cant": "all histories and both outcomes", "anchors": ["core/discrete_solution.py:DiscreteSolutionWithHistory.set_value"]}
{"id": "C08", "title": "Coarse solutions are block averages of the fine ones", "statement": "CoarseSolution.value always is the block average of the wrapped fine solution's value, whatever updates were made through it or through the fine solution; CoarseSolutionWithHistory's history holds the block averages of all fine values passed to it, in order, with the same times.", "quantifier": "all update sequences, all coarsening degrees dividing the dimension", "why_tests_cant": "history quantification", "anchors": ["core/discrete_solution.py:CoarseSolution", "core/discrete_solution.py:CoarseSolutionWithHistory"]}
{"id": "C09", "title": "VectorCoarsener returns block averages", "statement": "VectorCoarsener(d)(v) raises ValueError iff len(v) is not a multiple of d, otherwise it returns len(v)/d values, the i-th being the arithmetic mean of v[i*d..i*d+d-1].", "quantifier": "all degrees d >= 1, all vectors of any length", "why_tests_cant": "unbounded sizes", "anchors": ["core/vector_coarsener.py:VectorCoarsener"]}
{"id": "C10", "title": "Coarsening conserves mass and bounds and composes", "statement": "Coarsening preserves the cell-average integral (d*sum(coarse) = sum(fine)), every coarse value lies between the minimum and maximum of the fine ones, constants stay constant, it is linear and monotone, and coarsening by d then e equals coarsening by d*e.", "quantifier": "all vectors, all degrees", "why_tests_cant": "algebraic law for all sizes", "anchors": ["core/vector_coarsener.py:VectorCoarsener"]}
{"id": "C11", "title": "A uniform mesh partitions its domain", "statement": "UniformMesh(domain, n) has n cells of equal length step_length that cover the domain: consecutive cells share exactly one end point, the first starts at a, the last ends at b, the lengths add up to b-a and every point of the domain is in some cell.", "quantifier": "all intervals a<b, all n >= 1", "why_tests_cant": "all mesh sizes", "anchors": ["core/mesh.py:UniformMesh", "core/mesh.py:Interval"]}
{"id": "C12", "title": "Refine and coarsen are inverse and compatible with fine grid indices", "statement": "coarsen(d) undoes refine(d) and raises when n is not a multiple of d; the fine cells listed by FineGridIndicesMapping for coarse cell c are exactly those contained in c; every fine cell belongs to exactly one coarse cell.", "quantifier": "all meshes, all degrees", "why_tests_cant": "all sizes", "anchors": ["core/mesh.py:UniformMesh.refine", "core/mesh.py:UniformMesh.coarsen", "core/index_mapping.py:FineGridIndicesMapping"]}
{"id": "C13", "title": "Cell lookup is sound and complete", "statement": "find_cells(x) returns exactly the cells containing x and find_cell_indices(x) their indices: one for inner points, two for inner nodes, none outside of the domain.", "quantifier": "all uniform meshes, all points", "why_tests_cant": "real-valued points: uncountably many inputs", "anchors": ["core/mesh.py:Mesh.find_cells", "core/mesh.py:Mesh.find_cell_indices"]}
{"id": "C14", "title": "The affine transformation is a bijection of the unit interval and the cell", "statement": "AffineTransformation maps [0,1] onto the cell, inverse undoes it in both directions, end points go to end points and derivative is the slope, inverse_derivative its reciprocal.", "quantifier": "all intervals, all points", "why_tests_cant": "real-valued", "anchors": ["core/mesh.py:AffineTransformation"]}
{"id": "C15", "title": "execute(dt) performs the Runge-Kutta step of its tableau", "statement": "For every right hand side and every explicit tableau ExplicitRungeKuttaMethod.execute(dt) moves solution to u + dt*sum b_i*k_i with k_i = f(t + c_i*dt, u + dt*sum_{j<i} a_ij*k_j), advances time by dt, evaluates f exactly once per stage in order, and never modifies the array it was constructed with. Forward Euler, Heun and SSP3 give the textbook formulas.", "quantifier": "all right hand sides, tableaus, step sizes, numbers of steps", "why_tests_cant": "higher-order quantification over right hand sides", "anchors": ["core/ode_solver.py:ExplicitRungeKuttaMethod.execute", "core/ode_solver.py:ForwardEuler", "core/ode_solver.py:Heun", "core/ode_solver.py:StrongStabilityPreservingRungeKutta3"]}
{"id": "C16", "title": "The tableaus have the advertised order", "statement": "Heun is second order, SSP3 third order and RungeKutta8 eighth order: all order conditions for all rooted trees up to that order hold, and the nodes are consistent with the coefficient rows.", "quantifier": "all rooted trees with at most p vertices; all linear/autonomous problems", "why_tests_cant": "an order test on one ODE cannot see a wrong coefficient that ODE does not excite", "anchors": ["core/ode_solver.py:RungeKutta8", "core/ode_solver.py:Heun", "core/ode_solver.py:StrongStabilityPreservingRungeKutta3"]}
{"id": "C17", "title": "SSP time integrators keep every convex invariant of forward Euler", "statement": "If a forward Euler step of size dt maps a convex set into itself for every state and time, then so do Heun and SSP3 steps of the same size, for any number of steps.", "quantifier": "all right hand sides, convex sets, step sizes, step counts", "why_tests_cant": "quantifies over all convex sets and right hand sides", "anchors": ["core/ode_solver.py:Heun", "core/ode_solver.py:StrongStabilityPreservingRungeKutta3"]}
{"id": "C18", "title": "Boundary conditions deliver the right neighbours at every node", "statement": "For radius r and n cells get_node_neighbours returns 2r arrays of length n+1, where the k-th array at node i is the value of cell i-r+k of the extended vector: the cell itself if it exists, its periodic image for periodic boundaries, the nearest edge cell for outflow, the prescribed inflow value for inflow.", "quantifier": "all n, r, all dof vectors and node indices", "why_tests_cant": "all sizes and radii, index arithmetic at every position", "anchors": ["core/boundary.py:BoundaryConditions.get_node_neighbours", "core/boundary.py:BoundaryConditionsBuilder"]}
{"id": "C19", "title": "Boundary condition names are validated", "statement": "Building boundary conditions raises ValueError for every unknown name and for inflow without an inflow function; it succeeds for all other combinations; evaluating an inflow cell without time fails.", "quantifier": "all name pairs, radii and inflow functions", "why_tests_cant": "all strings", "anchors": ["core/boundary.py:BoundaryConditionsBuilder", "core/boundary.py:InflowCell"]}
{"id": "C20", "title": "The finite volume update is conservative for any numerical flux", "statement": "step_length * sum of the right hand side equals the flux contribution through the two domain boundaries for every single valued flux (flux_left = -flux_right at each node); inner node fluxes cancel.", "quantifier": "all numerical fluxes, all meshes, states", "why_tests_cant": "all flux functions", "anchors": ["finite_volume/numerical_flux.py:NumericalFluxDependentRightHandSide"]}
{"id": "C21", "title": "Periodic finite volume runs conserve mass until the end", "statement": "For the periodic finite volume schemes (local Lax-Friedrichs, central, antidiffusive, corrected combinations, scalar problems; height for shallow water) any number of steps of any explicit Runge-Kutta method leaves the integral of the solution unchanged.", "quantifier": "all states, meshes, step sequences, Runge-Kutta tableaus", "why_tests_cant": "unbounded executions", "anchors": ["finite_volume/numerical_flux.py", "core/ode_solver.py", "core/boundary.py"]}
{"id": "C22", "title": "The HLL intermediate state and flux are consistent", "statement": "The Riemann solver's flux is consistent (f(u,u)=f(u)), it satisfies the Rankine-Hugoniot relations across both waves with the intermediate state, equals (fL+fR)/2 - s/2 (uR-uL) for symmetric speeds, and is the exact upwind flux when both wave speeds have the same sign limit.", "quantifier": "all states, fluxes and wave speeds sL<sR", "why_tests_cant": "real valued", "anchors": ["core/riemann_solver.py:RiemannSolver"]}
{"id": "C23", "title": "Local Lax-Friedrichs for scalar problems obeys the local maximum principle", "statement": "For advection and Burgers (with non-negative states), one forward Euler step with dt not larger than the optimal time step keeps every cell value between the minimum and maximum of itself and its two neighbours; hence global bounds hold during whole runs with Euler, Heun or SSP3. ", "quantifier": "all states, meshes, boundary conditions, steps satisfying the CFL condition", "why_tests_cant": "real valued, arbitrarily long runs", "anchors": ["finite_volume/scalar/core.py", "finite_volume/scalar/solver/lax_friedrichs.py", "finite_volume/numerical_flux.py:LaxFriedrichsFlux", "finite_volume/time_stepping.py:OptimalTimeStep"]}
{"id": "C24", "title": "Monolithic convex limiter keeps bar states in bounds and is conservative", "statement": "The limited flux returned by limit is antisymmetric, lies between zero and the unlimited flux whenever the bar states are in bounds, keeps both flux corrected bar states inside the given bounds, and leaves the flux untouched if that is already admissible.", "quantifier": "all fluxes, speeds s>0, bar states and bounds", "why_tests_cant": "real valued", "anchors": ["finite_volume/scalar/solver/mcl.py:limit"]}
{"id": "C25", "title": "Scalar MCL obeys the local maximum principle", "statement": "One forward Euler step of the scalar MCL scheme under the CFL condition keeps each cell value between the minimum and maximum of the neighbourhood used for limiting; whole runs stay within the initial global bounds; the scheme is conservative.", "quantifier": "all states, meshes, boundary conditions, steps", "why_tests_cant": "real valued, arbitrarily long runs", "anchors": ["finite_volume/scalar/solver/mcl.py:MCLFlux", "core/local_bounds.py"]}
{"id": "C26", "title": "Shallow water point functions", "statement": "get_velocity is q/h for h >= eps, is finite and bounded by |q|/eps-like desingularization for 0<=h<eps and vanishes for q=0; the positivity fix never exceeds the HLL height in modulus and has the sign of the bottom step; nullify zeroes exactly the entries below eps.", "quantifier": "all heights, discharges, bottoms", "why_tests_cant": "real valued", "anchors": ["finite_volume/shallow_water/core.py"]}
{"id": "C27", "title": "The shallow water flux rejects negative heights and is zero on dry cells", "statement": "Flux raises ValueError iff some height is negative; on heights below EPSILON the flux is zero; otherwise it is (q, q^2/h+g h^2/2), and FluxJacobian is its derivative.", "quantifier": "all state vectors", "why_tests_cant": "real valued, all lengths", "anchors": ["finite_volume/shallow_water/core.py:Flux", "finite_volume/shallow_water/core.py:FluxJacobian"]}
{"id": "C28", "title": "The low order shallow water scheme is positivity preserving", "statement": "With non-negative heights and any bottom topography, one forward Euler step of the low order (and of the MCL) scheme with dt at most half the optimal time step leaves all heights non-negative; therefore so do Euler, Heun and SSP3 runs whose evaluated states meet that restriction. For positive heights the right hand side is defined.", "quantifier": "all states, bathymetries, meshes, runs under the CFL condition", "why_tests_cant": "real valued, arbitrarily long runs", "anchors": ["finite_volume/shallow_water/solver/low_order.py:LowOrderFlux"]}
{"id": "C29", "title": "Lake at rest is preserved", "statement": "For h+b constant, q=0 and every h at least EPSILON (1e-15), with wall or outflow sides (or periodic ones if the bottom has the same value in the first and last cell), the right hand side of the low order, central and MCL shallow water schemes with bathymetry vanishes, so every run of every Runge-Kutta method returns the initial state; the bottom must be exactly flat or differ from its first value by at least EPSILON somewhere.", "quantifier": "all bathymetries, meshes, numbers of steps", "why_tests_cant": "all bathymetries, arbitrarily long runs", "anchors": ["finite_volume/shallow_water/solver/low_order.py", "finite_volume/shallow_water/solver/mcl.py", "finite_volume/shallow_water/numerical_flux.py"]}
{"id": "C30", "title": "Water mass is conserved with bathymetry and walls", "statement": "Bathymetry source terms never change the total water mass, and walls let no water through: with reflecting or periodic boundaries the total water height is constant.", "quantifier": "all states, bathymetries, runs", "why_tests_cant": "arbitrarily long runs", "anchors": ["finite_volume/shallow_water/boundary.py", "finite_volume/shallow_water/solver/low_order.py"]}
{"id": "C31", "title": "Exact subgrid fluxes make the coarse scheme follow the fine one", "statement": "Adding the subgrid flux recorded by generate-data (fine flux minus coarse flux at the coarse nodes) to the coarse flux yields a coarse right hand side equal to the coarsened fine right hand side, so coarse Euler steps commute with coarsening.", "quantifier": "all fine fluxes, coarse fluxes, states, degrees", "why_tests_cant": "quantifies over all fluxes and sizes", "anchors": ["command/generate_data.py:SubgridFluxDataBuilder", "finite_volume/numerical_flux.py:CorrectedNumericalFlux", "core/vector_coarsener.py"]}
{"id": "C32", "title": "Flux wrappers hand the right cells to the wrapped fluxes", "statement": "get_required_values selects the central arguments; NumericalFluxWithArbitraryInput and CorrectedNumericalFlux evaluate every wrapped flux on the innermost cells it needs and add the results; NumericalFluxWithHistory appends one entry per call without changing the results; get_dof_vector reconstructs the extended dof vector.", "quantifier": "all arities, sizes, fluxes, call histories", "why_tests_cant": "all arities and histories", "anchors": ["finite_volume/numerical_flux.py"]}
{"id": "C33", "title": "Energy stable diffusion is dissipative", "statement": "The diffusion matrix of the first order energy stable flux is symmetric positive semidefinite, and the flux tested with the jump of the entropy variables is at most the undiffused energy stable flux tested with it, so the diffusion only removes energy.", "quantifier": "all pairs of states, bottoms, positive gravities", "why_tests_cant": "real valued", "anchors": ["finite_volume/shallow_water/solver/energy_stable.py"]}
{"id": "C34", "title": "Finite element numbering", "statement": "GlobalIndexMapping numbers the local nodes of all cells onto 0..dim-1 without gaps; neighbouring cells share exactly their common node; periodic numbering identifies the last with the first node; distinct inner local nodes get distinct numbers.", "quantifier": "all meshes, degrees, periodic or not", "why_tests_cant": "all sizes", "anchors": ["finite_element/index_mapping.py:GlobalIndexMapping"]}
{"id": "C35", "title": "Neighbour mappings describe the sparsity/stencil", "statement": "The finite volume neighbour mapping lists exactly the cells sharing a node (periodically) including the cell itself; the finite element one exactly the dofs sharing a cell; both are symmetric; padding never adds a foreign index; LocalMaximum/LocalMinimum are the max/min over these.", "quantifier": "all sizes and indices", "why_tests_cant": "all sizes", "anchors": ["finite_volume/index_mapping.py", "finite_element/index_mapping.py", "core/index_mapping.py", "core/local_bounds.py"]}
{"id": "C36", "title": "Lagrange basis", "statement": "The local basis of degree p is nodal (1 at its own node, 0 at the others), sums to one, its derivatives sum to zero, and interpolation with it reproduces every polynomial of degree <= p.", "quantifier": "all degrees, points, polynomials", "why_tests_cant": "all degrees", "anchors": ["finite_element/space.py:LocalLagrangeBasis"]}
{"id": "C37", "title": "Assembled mass and gradient matrices", "statement": "On periodic meshes the assembled mass matrix is symmetric and positive definite and its bilinear form is the L2 product of the elements; the discrete gradient is skew symmetric with zero row and column sums and its bilinear form is the integral of v w'; both couple only degrees of freedom that share a cell; row sums of the mass matrix are the lumped masses, these add up to the domain length and are positive for degrees 1 to 7 (for degree 8 some are negative).", "quantifier": "all degrees, mesh sizes, quadratures exact to the needed degree", "why_tests_cant": "all sizes and degrees", "anchors": ["finite_element/mass.py", "finite_element/discrete_gradient.py", "finite_element/lumped_mass.py"]}
{"id": "C38", "title": "Artificial diffusion", "statement": "The discrete upwind and Burgers diffusion matrices are symmetric with non-negative off-diagonal entries and zero row sums, and d_ij bounds |c_ij| times the local wave speed, for every skew symmetric gradient. For a general matrix the row sums equal minus what the diagonal of the unrepaired matrix holds.", "quantifier": "all gradients and states", "why_tests_cant": "all sizes, real valued", "anchors": ["finite_element/artificial_diffusion.py"]}
{"id": "C39", "title": "Low order continuous Galerkin is conservative and bound preserving", "statement": "The low order CG right hand side conserves the lumped mass integral for every degree. Whenever right hand side and OptimalTimeStep can be computed, a forward Euler step with 0 <= dt <= OptimalTimeStep keeps each dof between the min and max of the values it shares a cell with. For degrees 1 to 7 both can be computed for every state and the step is positive; for degree 8 the step is never positive.", "quantifier": "all states, meshes, degrees", "why_tests_cant": "real valued", "anchors": ["finite_element/scalar/solver/cg_low.py"]}
{"id": "C40", "title": "Finite element MCL is conservative and bound preserving", "statement": "The FE-MCL right hand side conserves the lumped integral. On meshes with at least two cells a forward Euler step with 0 <= dt <= OptimalTimeStep keeps each dof between the min and max of the values it shares a cell with, and where the raw antidiffusive fluxes respect these bounds nothing is limited. For degrees 1 to 7 the right hand side can be computed for every state.", "quantifier": "all states, meshes, degrees", "why_tests_cant": "real valued", "anchors": ["finite_element/scalar/solver/mcl.py"]}
{"id": "C41", "title": "Norms are norms of the piecewise functions", "statement": "The L1, L2 and maximum norms of a mesh are defined for every function, non-negative, zero for the zero function, absolutely homogeneous and satisfy the triangle inequality, for every quadrature degree. For the finite volume function with values u the L2 norm is sqrt(dx*sum u_i^2) and the L1 norm dx*sum|u_i|, and only u = 0 has norm zero. For piecewise polynomials of degree below the number of quadrature nodes the L2 norm is the root of the integral of the square. The maximum norm is at most every bound of the function and at least its modulus at both ends of every cell.", "quantifier": "all functions, uniform meshes and quadrature degrees", "why_tests_cant": "all functions", "anchors": ["core/norm.py"]}
{"id": "C42", "title": "Interpolation", "statement": "Interpolation in time and on another grid gives, entry by entry, the continuous piecewise linear interpolant of the data, held constant outside; at the given times it returns the data; every new row is one convex combination of two consecutive old rows, so bounds and total mass are kept. Without values it raises IndexError, without sample points or with too few rows ValueError. Cell averages lie between the bounds of the function on the cell, are the exact averages of polynomials of degree below twice the number of nodes, and dx times their sum is then the integral over the domain; functions with several components are averaged component by component.", "quantifier": "all increasing grids, data, evaluation points, functions and uniform meshes", "why_tests_cant": "all sizes, real valued", "anchors": ["core/interpolate.py"]}
{"id": "C43", "title": "Gaussian quadrature exactness survives the affine transformation", "statement": "If the reference rule integrates polynomials up to degree 2n-1 exactly on [-1,1], then GaussianQuadrature does on any interval; weights add up to the interval length; the Golub-Welsch construction yields such a rule.", "quantifier": "all intervals, numbers of nodes, polynomials", "why_tests_cant": "all degrees", "anchors": ["core/quadrature.py"]}
{"id": "C44", "title": "EOC calculation", "statement": "The error is the norm of the difference between exact and discrete solution together with the time of the discrete solution: zero for equal functions, symmetric, and it satisfies the triangle inequality. Row i of the EOC table belongs to refinement i, its mesh has 2^i times the initial cells, the first row has no order (nan), every later one the logarithm to base 2 of previous error over error; for errors C*h^p this order is exactly p.", "quantifier": "all functions, norms, orders, constants, mesh sizes, refinement numbers", "why_tests_cant": "real valued", "anchors": ["command/error.py:EOCCalculator"]}
{"id": "C45", "title": "Argument types accept exactly the documented numbers", "statement": "positive_int accepts exactly integers > 0, non_negative_int exactly integers >= 0, positive_float exactly floats > 0 and percent_number exactly floats in [0,1]; all others raise.", "quantifier": "all inputs", "why_tests_cant": "all numbers, special floats included", "anchors": ["core/type.py"]}
{"id": "C46", "title": "Solver command line grouping", "statement": "Arguments after -s are split into one group per solver: concatenating the groups restores the input, a group starts with a solver key and contains no other solver key except as value of a preceding +f option (this is the only such splitting); each group goes to the parser of its key, and if the very first value is no solver key the program quits. Only the short spelling +f protects a value.", "quantifier": "all argument lists", "why_tests_cant": "all lists of strings", "anchors": ["core/solver.py:SolverAction"]}
{"id": "C47", "title": "Solver.solve drives ode solver and solution consistently", "statement": "Solver.solve applies execute and update exactly once per step yielded by the time stepping, whose generator sees the current solution; afterwards solution time is initial time plus the sum of steps (within 1e-12 of the interval length when it ends normally) and the solution value is the ODE solver's; histories record exactly these states; values read from the solution are not changed by later steps and writing to them changes nothing; a too small step ends the run with the state reached so far; a reinitialized solver behaves like a new one.", "quantifier": "all right hand sides, step generators, runs", "why_tests_cant": "unbounded runs, aliasing over all interleavings", "anchors": ["core/solver.py:Solver", "core/ode_solver.py", "core/discrete_solution.py"]}
{"id": "C48", "title": "generate-data writes one consistent data file", "statement": "The file written by generate-data has exactly one header (if overwriting) followed by the rows of all benchmarks in order.", "quantifier": "all numbers of solutions, append/overwrite, existing files", "why_tests_cant": "histories of file operations", "anchors": ["command/generate_data.py:GenerateData"]}
{"id": "C49", "title": "Exact solutions solve the benchmark problems", "statement": "Benchmark data are consistent. Advection: the exact solution at t is the initial data moved by t on the periodic domain, equals the initial data at t=0 and after whole periods, and the shipped profiles have the stated bounds. Burgers: before the critical time exact_solution is the unique value transported along characteristics, at or after it (or with an end time after it) it raises. Shallow water: lakes at rest have constant surface, no flow, positive height and solve the equations with the shipped bottom; moving water has the given discharge and energy; oscillations stay within average height plus/minus amplitude and are periodic for integer wave numbers, random ones are positive for every random draw; the dam break solution is defined for all x and t>=0, starts at the initial data, stays between the two heights, is continuous across the rarefaction, solves the shallow water equations between the waves and satisfies Rankine-Hugoniot and Lax entropy conditions at the shock.", "quantifier": "all positions, times, parameters of the benchmarks, random draws, and all root finders that return roots", "why_tests_cant": "real valued", "anchors": ["benchmark/advection.py", "benchmark/shallow_water.py"]}
{"id": "C50", "title": "System matrices reflect their entries", "statement": "dot, inverse, row and column products of a SystemMatrix reflect the values last set.", "quantifier": "all operation sequences", "why_tests_cant": "histories", "anchors": ["core/system.py:SystemMatrix"]}
{"id": "C51", "title": "minmod, maximum and minimum", "statement": "minimum/maximum return elementwise the extreme of any number of arguments; minmod is symmetric, returns zero for opposite signs, and otherwise the argument of smallest modulus.", "quantifier": "all arities and values", "why_tests_cant": "all arities", "anchors": ["core/function.py"]}
{"id": "C52", "title": "Walls mirror the flow", "statement": "With wall conditions, ghost cell -1-i is the mirror image of cell i: same height, reversed discharge (and likewise on the right), for every ghost layer the flux asks for.", "quantifier": "every dof vector with at least as many cells as ghost layers, every radius", "why_tests_cant": "a test fixes a radius and a vector; the mirror property must hold for each ghost layer and all values, and fails only in the second layer", "anchors": ["finite_volume/shallow_water/boundary.py:LeftReflectingCell", "finite_volume/shallow_water/boundary.py:RightReflectingCell", "core/boundary.py:BoundaryConditionsBuilder"]}
{"id": "C53", "title": "A failing step leaves the solution at the last accepted state", "statement": "If a step of Solver.solve ends in an exception, solution.time, solution.value and the histories are those of the last accepted step.", "quantifier": "all right hand sides, states, steps, exceptions", "why_tests_cant": "depends on which arrays are shared after an arbitrary history of steps", "anchors": ["core/solver.py:Solver._update", "core/discrete_solution.py:DiscreteSolution.update", "core/ode_solver.py:ExplicitRungeKuttaMethod.execute"]}
{"id": "C54", "title": "Relative error over time", "statement": "The error evolution of two solutions with history is given at the times of the longer history; entry i is the norm of the difference divided by the norm of the exact solution, with the other solution interpolated linearly in time. A solution compared with itself has error zero at all times where it is not zero. Different spatial shapes raise AssertionError and a missing space ValueError before anything is computed.", "quantifier": "all pairs of histories with increasing times, all norms", "why_tests_cant": "ranges over all histories and time grids", "anchors": ["command/error_evolution.py:ErrorEvolutionCalculator", "core/interpolate.py:TemporalInterpolator"]}
{"id": "C55", "title": "The continuous Galerkin right hand side is the weak form of the equation", "statement": "For every uniform mesh, polynomial degree, state and problem (advection, Burgers), the continuous Galerkin right hand side r satisfies (v, r) = (v', F) in L2 for every finite element v, where F is the flux of the finite element (exact flux) or the interpolated flux; hence the integral of r is zero, and (u, r) = 0 (the L2 norm does not grow) for advection and for Burgers with exact flux. It does not depend on the linear solver.", "quantifier": "all intervals, numbers of cells, polynomial degrees, states, test functions and all solvers of positive definite systems", "why_tests_cant": "Tests compare the right hand side with numbers for a few meshes and states; the weak form quantifies over all test functions and states.", "anchors": ["finite_element/scalar/solver/cg.py:CGRightHandSide", "finite_element/flux_gradient.py:FluxGradient", "finite_element/flux_gradient.py:ApproximatedFluxGradient", "finite_element/mass.py:MassMatrix"]}
{"id": "C56", "title": "The flux approximation returns the flux of its argument", "statement": "For every sequence of calls of a flux approximation, each call returns the flux of the values of its argument, although results are cached.", "quantifier": "all sequences of calls, all arrays, all fluxes, all contents of uninitialised memory", "why_tests_cant": "Stale results depend on the history of calls and on uninitialised memory.", "anchors": ["finite_element/flux_approximation.py:FluxApproximation"]}
{"id": "C57", "title": "Finite element runs conserve the integral and keep the bounds", "statement": "A run of any length of the continuous Galerkin, low order or limited scheme with any of the time integrators leaves the integral of the finite element solution over the domain unchanged. With Euler, Heun or SSP3 and step sizes below the optimal step for the largest wave speed, runs of the low order and limited schemes (at least two cells, degree at most 7) succeed and keep every degree of freedom within any bounds of the initial ones.", "quantifier": "all meshes, degrees, initial states, problems, numbers and sizes of steps and the listed time integrators", "why_tests_cant": "The claim is about runs of unbounded length from arbitrary initial data.", "anchors": ["finite_element/scalar/solver/cg.py:ContinuousGalerkinSolver", "finite_element/scalar/solver/cg_low.py:LowOrderContinuousGalerkinSolver", "finite_element/scalar/solver/mcl.py:MCLSolver", "core/ode_solver.py:ExplicitRungeKuttaMethod"]}
{"id": "C58", "title": "The continuous Galerkin solver picks a time integrator that fits the polynomial degree", "statement": "For every polynomial degree p the continuous Galerkin solver can be built, with a time integrator of order at least p + 1.", "quantifier": "all polynomial degrees; order means the order conditions of all rooted trees", "why_tests_cant": "The order of an integrator is a statement about all differential equations.", "anchors": ["finite_element/ode_solver.py:build_optimal_ode_solver", "finite_element/scalar/solver/cg.py:ContinuousGalerkinSolver", "core/ode_solver.py:RungeKutta8"]}
{"id": "C59", "title": "Wave speeds bound the characteristic speeds", "statement": "For two wet states the shallow water wave speeds returned for a node enclose every characteristic speed of both states and zero, and each is attained by one of them (or is zero); the maximum wave speed is positive, bounds the absolute value of every characteristic speed and is the absolute value of one.", "quantifier": "all pairs of states with height at least the dry tolerance, all positive gravities; characteristic speeds are the eigenvalues of the derivative of the physical flux", "why_tests_cant": "A bound for all pairs of states, against the derivative of the flux; examples cannot exclude a pair for which a speed is missed.", "anchors": ["finite_volume/shallow_water/core.py:WaveSpeed", "finite_volume/shallow_water/core.py:MaximumWaveSpeed"]}
{"id": "C60", "title": "Entropy variables, potential and energy balance of the shallow water schemes", "statement": "The entropy variables are the gradient of the total energy; the potential is entropy variables times flux minus energy flux. On a periodic domain with flat bottom the energy never grows along the semi-discrete low order, Lax-Friedrichs and energy stable schemes; the central scheme changes it by a given third order expression of the jumps, and both it and the energy stable scheme keep it for a common velocity.", "quantifier": "all wet states, bottoms, gravities and, for the balance, all periodic vectors of wet states", "why_tests_cant": "A statement about derivatives at all states and about sums over vectors of any length.", "anchors": ["finite_volume/shallow_water/solver/energy_stable.py:EnergyStableFlux", "finite_volume/shallow_water/solver/energy_stable.py:FirstOrderDiffusiveEnergyStableFlux", "finite_volume/shallow_water/core.py:Entropy", "finite_volume/shallow_water/core.py:Potential"]}
{"id": "C61", "title": "Mirrored initial data give the mirrored solution", "statement": "Reversing the order of the cells, the sign of the discharge, the bottom and the boundary conditions reverses the solution of every shallow water scheme, for the right-hand side and for runs with any time integrator.", "quantifier": "all schemes, gravities, recognised bottoms, boundary conditions, vectors of any length, time integrators and step sequences", "why_tests_cant": "A symmetry over all states and run lengths; a test compares a few initial states.", "anchors": ["finite_volume/shallow_water/numerical_flux.py:NumericalFlux", "finite_volume/shallow_water/boundary.py:BoundaryConditionsBuilder", "finite_volume/shallow_water/solver/mcl.py:MCLFlux", "core/ode_solver.py:ExplicitRungeKuttaMethod"]}
{"id": "C62", "title": "Translation, uniform flow and totality of the shallow water schemes", "statement": "On a periodic domain, rotating the cells (and the bottom) rotates the solution; uniform flow over a flat bottom stays unchanged for every scheme including the limited one; for positive heights and a recognised bottom the right-hand side is always defined and has one entry per cell.", "quantifier": "all schemes, gravities, vectors of any length, rotations, uniform states, boundary conditions compatible with the state, time integrators and step sequences", "why_tests_cant": "Universal over states, sizes, rotations and histories.", "anchors": ["finite_volume/shallow_water/numerical_flux.py:NumericalFlux", "finite_volume/solver.py:Solver", "finite_volume/shallow_water/solver/mcl.py:MCLFlux"]}
{"id": "C63", "title": "Every shallow water scheme preserves the lake at rest", "statement": "For every shallow water scheme with a bottom, a lake at rest (constant water level, no discharge) over a bottom that is not treated as constant has zero right-hand side.", "quantifier": "all schemes, gravities and bottoms", "why_tests_cant": "Universal over schemes, gravities, levels and bottoms.", "anchors": ["finite_volume/shallow_water/solver/lax_friedrichs.py:LaxFriedrichsSolver", "finite_volume/shallow_water/solver/energy_stable.py:EnergyStableSolver", "finite_volume/shallow_water/solver/lax_wendroff.py:LaxWendroffSolver"]}
{"id": "C64", "title": "A shallow water solver built from a benchmark conserves the water end to end", "statement": "Every finite volume shallow water solver (low order, central, Lax-Friedrichs, energy stable, Lax-Wendroff, limited, with antidiffusion, with a network) can be built from a benchmark on a non-degenerate interval with recognised boundary conditions. On a periodic domain, and between walls, every value the solver ever shows - current value or history, after any sequence of updates, solves, reinitialisations with the same water and rejected steps - holds as much water as the initial cell averages.", "quantifier": "all benchmarks, solver kinds (arbitrarily nested getters), mesh sizes, integrators, CFL numbers, eigenvalue routines that work for size 2, and sequences of uses of the solver including failing ones", "why_tests_cant": "Universal over benchmarks, solver compositions and histories of use.", "anchors": ["finite_volume/solver.py:Solver", "finite_volume/shallow_water/solver/mcl.py:MCLFluxGetter", "finite_volume/shallow_water/solver/reduced_model.py:ReducedFluxGetter", "finite_volume/shallow_water/solver/lax_wendroff.py:LaxWendroffSolver"]}
{"id": "C66", "title": "A reduced solver adds exactly the network flux to its inner scheme", "statement": "The numerical flux of a reduced solver is the flux of the inner scheme plus the network prediction at every interface minus the source of the bottom; with a network that predicts nothing the reduced solver has the same right-hand side as its inner scheme. A bottom that is handed to a flux getter is used.", "quantifier": "all inner schemes, benchmarks, meshes, networks, states", "why_tests_cant": "Universal over networks, bottoms and states.", "anchors": ["finite_volume/shallow_water/solver/reduced_model.py:ReducedFluxGetter", "finite_volume/shallow_water/numerical_flux.py:NumericalFlux", "finite_volume/shallow_water/solver/mcl.py:MCLFluxGetter"]}
{"id": "C65", "title": "A lake at rest stays at rest in a solver built from a benchmark", "statement": "For every benchmark whose initial data is a lake at rest (constant water level over the bottom, no discharge, water nowhere thinner than EPSILON) over a bottom the mesh resolves, with walls, open boundaries or a periodic domain with equal ends: in the low order, central and limited solvers every value ever seen is the initial one, and solve completes at the end time. The lake at rest benchmarks that come with the program satisfy this for every mesh size, end time and positive gravity.", "quantifier": "all lake benchmarks, mesh sizes, integrators, CFL numbers, and sequences of uses of the solver", "why_tests_cant": "Universal over benchmarks, mesh sizes and histories of use.", "anchors": ["benchmark/shallow_water.py:LakeAtRestBenchmark", "benchmark/shallow_water.py:LakeAtRestNoBathymetryBenchmark", "finite_volume/solver.py:Solver", "finite_volume/shallow_water/solver/low_order.py:LowOrderFluxGetter", "core/interpolate.py:CellAverageInterpolator"]}
{"id": "C67", "title": "The coarse solver shows the coarsened solution of the fine solver", "statement": "Whatever is done with a finite volume shallow water solver and with the coarse solver of the same arguments (solving, interrupted solving, reinitialising, failing steps): both report the same outcomes, and the coarse solver shows at every moment the same time and time history and the block averages of the value and the value history of the fine solver. A coarsening degree that does not divide the number of cells is rejected.", "quantifier": "all benchmarks, solver kinds, arguments, degrees, and sequences of solves and reinitialisations", "why_tests_cant": "Universal over benchmarks, solver compositions and histories of use.", "anchors": ["finite_volume/shallow_water/solver/coarse.py:CoarseSolver", "core/discrete_solution.py:CoarseSolution", "core/discrete_solution.py:CoarseSolutionWithHistory", "core/vector_coarsener.py:VectorCoarsener"]}
{"id": "C68", "title": "A reinitialised finite volume solver is a new solver of the new benchmark", "statement": "However a solver was used before, after reinitialize with a benchmark it shows the same and runs the same as a new solver of that benchmark.", "quantifier": "all benchmarks, solver kinds, arguments and histories of use", "why_tests_cant": "Universal over benchmarks and histories of use.", "anchors": ["finite_volume/solver.py:Solver", "core/solver.py:Solver"]}
{"id": "C69", "title": "Scalar finite volume solvers keep the bounds of their data and reach the end time", "statement": "A low order (local Lax-Friedrichs) or limited (MCL) solver of advection or Burgers' equation, built from a benchmark, shows at every moment - initially, after complete, interrupted and repeated solves and reinitialisations, in the current value and in the whole history - only values between the bounds of the initial and inflow data, provided the integrator is Euler, Heun or SSP3 and CFL number times top wave speed is at most 1 (1/2 for MCL). Its run completes within duration / step + 1 iterations, without exception or warning, at the end time up to 1e-12. Constants stay constant.", "quantifier": "all benchmarks (domain, data, boundary conditions, times), mesh sizes, CFL numbers, integrators and sequences of uses", "why_tests_cant": "Universal over initial data, mesh sizes, run lengths and histories of use; a test sees one benchmark on one mesh.", "anchors": ["finite_volume/solver.py:Solver", "finite_volume/scalar/solver/lax_friedrichs.py:LaxFriedrichsFluxGetter", "finite_volume/scalar/solver/mcl.py:MCLFluxGetter", "finite_volume/space.py:get_finite_volume_solution", "core/solver.py:Solver.solve", "benchmark/advection.py", "benchmark/burgers.py"]}
{"id": "C70", "title": "Scalar finite volume solvers conserve the total on periodic domains", "statement": "The sum of the cell values (times the mesh width, the integral) that a local Lax-Friedrichs, central or limited solver shows on a periodic domain never changes, whatever is done with the solver.", "quantifier": "all periodic benchmarks, mesh sizes, CFL numbers, the four integrators and sequences of uses", "why_tests_cant": "Universal over initial data, step sequences and histories; round-off hides small losses in tests.", "anchors": ["finite_volume/solver.py:Solver", "finite_volume/scalar/solver/lax_friedrichs.py", "finite_volume/scalar/solver/central.py", "finite_volume/scalar/solver/mcl.py", "core/solver.py:Solver"]}
{"id": "C71", "title": "Finite element solvers conserve the integral and keep the bounds of the data, from the benchmark to the solution", "statement": "A finite element solver built from a benchmark can be built for every mesh size, degree and CFL number (continuous Galerkin up to degree 2), starts with the nodal values of the initial data, and never shows a solution whose integral differs from that of the initial values. The low order and the limited solver with Euler's, Heun's or the SSP3 method never show a value outside the range of the initial values as long as the CFL number is at most 1 (advection) or at most a number depending on the degree only (Burgers), in particular with the default CFL number for all degrees up to 7; and their runs reach the end time.", "quantifier": "all benchmarks, meshes with at least two cells, degrees up to 7, CFL numbers up to the limit, and sequences of uses of the solver", "why_tests_cant": "Universal over initial data, meshes, degrees and histories of steps, calls and re-initialisations; tests see finitely many runs.", "anchors": ["finite_element/solver.py:Solver", "finite_element/scalar/solver/cg.py", "finite_element/scalar/solver/cg_low.py", "finite_element/scalar/solver/mcl.py", "core/solver.py:Solver"]}
{"id": "C72", "title": "Calculating several solvers treats each as if it were alone", "statement": "The calculate command solves the given solvers one after the other: each ends as if it had been solved alone, until the first that raises; its exception ends the command and the later solvers are left untouched. The end time given on the command line replaces that of the benchmark.", "quantifier": "all lists of solvers and all outcomes of solving them", "why_tests_cant": "Universal over the solvers given and over where a failure occurs.", "anchors": ["command/calculate.py:Calculate", "command/calculate.py:CalculateParser"]}
{"id": "C73", "title": "Plots show exactly the solutions asked for, and saved data are the plotted lines", "statement": "The plot command draws, in this order, the exact solution if it can be evaluated, one line for every solver with its cell centres and current values, and the initial data if asked for. The saved data contain every drawn line under its label.", "quantifier": "all benchmarks, lists of solvers, grids and options of the plot", "why_tests_cant": "Universal over the solvers, benchmarks and labels.", "anchors": ["command/plot.py:Plotter", "command/plot.py:Plot", "command/plot.py:PlotParser"]}
{"id": "C74", "title": "Animations show every recorded time once and every solution at that time", "statement": "The animate command shows frames in increasing time, exactly one for every time at or after the start time that some shown solution recorded, and in every frame each solution with its value at that time: the recorded one if it recorded that time, interpolated between neighbours otherwise. Histories recorded by a solver can always be animated, with any start time.", "quantifier": "all histories of solvers with increasing times, functions of space and time, and start times", "why_tests_cant": "Universal over recorded histories with unrelated time grids.", "anchors": ["command/animate.py:Animator", "command/animate.py:Animate", "core/interpolate.py:TemporalInterpolator"]}
{"id": "C75", "title": "Curvature of the data is that of the parabola through them, and delete-curvature removes exactly the strongly curved rows", "statement": "The curvature computed for three neighbouring values is that of the parabola through them at the middle: it is zero exactly for values on a line, does not depend on the direction in which the values are read, on their sign or on a constant added to them. delete-curvature keeps exactly the rows whose mean curvatures of height and discharge are both below the thresholds, unchanged and in their order; applying it again removes nothing more.", "quantifier": "all tables of data, step lengths and thresholds", "why_tests_cant": "Universal over real data and tables of any length.", "anchors": ["finite_volume/shallow_water/solver/reduced_model.py:Curvature", "command/delete_curvature.py:DeleteCurvature"]}
{"id": "C76", "title": "A series of error curves is a list of independent experiments, and the average curve is their average", "statement": "Computing error curves for a series of random benchmarks with the same two solvers gives, in order, one curve for every benchmark for which both solvers succeed, and each is the curve two new solvers would give: neither earlier benchmarks nor failed ones influence it. The plotted average is, at every time of the shortest time grid, the mean of the interpolated curves, the shaded area ends at their maximum, and the mean is at most the maximum. Saving pictures does not change this.", "quantifier": "all solvers of the shallow water equations, series of benchmarks, failures and error curves", "why_tests_cant": "Universal over series of benchmarks and over which of them fail.", "anchors": ["command/error_evolution.py:GenerateShallowWaterErrorEvolutionSeries", "command/error_evolution.py:PlotShallowWaterAverageErrorEvolution"]}
{"id": "C77", "title": "Parameter variations change one parameter at a time", "statement": "The parameter variation test runs every value of a parameter, and the reference, on the same random benchmarks except for that parameter; all benchmarks are admissible (positive height and velocity, periodic); exactly the variations asked for are tested, and results are saved inside the given directory.", "quantifier": "all seeds, numbers of benchmarks, random number generators with the contract of numpy's, and lists of variations", "why_tests_cant": "Universal over random number generators and seeds.", "anchors": ["command/parameter_variation_test.py:ParameterVariationTest", "command/parameter_variation_test.py:ParameterVariationTestParser", "benchmark/shallow_water.py:RandomOscillationNoTopographyBenchmark", "benchmark/shallow_water.py:RandomBenchmarkGenerator"]}
{"id": "C78", "title": "Networks are trained on every skip-th row, scaling is transparent, and saved networks can be loaded again", "statement": "train-network uses exactly every skip-th row of the table, its last two numbers as target; the inputs and targets handed to the network have mean zero and variance one in every column that is not constant; a network that has learned its scaled data predicts the unscaled ones; a saved and loaded network predicts the same, and with its history is the same; files are written unless the user declines; a network without files can be used untrained.", "quantifier": "all tables, numbers of skipped rows, networks (training and prediction are parameters), answers and contents of files", "why_tests_cant": "Universal over data, networks and files.", "anchors": ["command/train_network.py:TrainNetwork", "finite_volume/shallow_water/solver/reduced_model.py:ReducedNetwork"]}
{"id": "C79", "title": "Heights and velocities stay within the bounds of neighbouring cells and faces", "statement": "One explicit Euler step of the shallow water solvers, with a step length that satisfies the half CFL condition, produces new cell heights between the cell's own height and the (bottom corrected) intermediate heights of its two faces, for the low order scheme and for the limited scheme with any high order flux. Over a flat bottom the low order scheme's new state is a weighted average of the own state and the two intermediate states, so its velocities stay within theirs; the limited scheme keeps a high order flux whose intermediate states lie within the bounds, and bounds its velocities likewise.", "quantifier": "every gravity, wet initial state, boundary condition, bottom, high order flux, number of cells and admissible step", "why_tests_cant": "the bounds must hold for every state and every high order flux the limiter may be given (including the output of a neural network); a test sees finitely many of them", "anchors": ["finite_volume/shallow_water/solver/mcl.py:MCLFlux", "finite_volume/shallow_water/solver/low_order.py:LowOrderFlux", "finite_volume/shallow_water/core.py:RiemannSolver", "finite_volume/shallow_water/solver/mcl.py:MCLSolver"]}
{"id": "C80", "title": "Results do not depend on the units of length and time", "statement": "A shallow water problem written down in other units of horizontal length and of time (gravity, discharges, inflow functions, step lengths, times and time steps converted accordingly) has the same solution, converted: the right hand side of every shallow water scheme, limited or not, and every Runge-Kutta run with converted time steps. In particular the time step dependent scheme called Lax-Wendroff computes the flux of that name.", "quantifier": "every scheme, gravity, bottom, boundary condition, inflow function, state, Runge-Kutta method, list of time steps and pair of conversion factors", "why_tests_cant": "a dimensional inconsistency is invisible in any single run: all numbers look plausible. It only shows when all inputs are related to all converted inputs.", "anchors": ["finite_volume/shallow_water/solver/low_order.py:LowOrderFlux", "finite_volume/shallow_water/solver/mcl.py:MCLFlux", "finite_volume/shallow_water/solver/energy_stable.py:FirstOrderDiffusiveEnergyStableFlux", "finite_volume/shallow_water/solver/lax_wendroff.py:LaxWendroffFlux", "finite_volume/shallow_water/solver/antidiffusion.py", "core/ode_solver.py:ExplicitRungeKuttaMethod"]}
{"id": "C81", "title": "Options of the finite volume solvers take effect", "statement": "Every option given to a shallow water solver or flux getter is used: a given constant bottom replaces that of the benchmark, antidiffusion gamma reduces the right hand side of the underlying scheme by gamma times the second difference quotient of the cells (continued by the boundary conditions) and changes nothing else, every Lax-Wendroff step uses the length of this step in its flux, and options that are not given are the documented defaults. The scalar solvers central and llf change each cell by the difference of the central resp. local Lax-Friedrichs fluxes at its two sides. False as stated: a bottom, gamma, CFL number or mesh size given as zero is replaced by the default; a network solver keeps the benchmark's bottom in its inner scheme; the Lax-Wendroff solver never sees the bottom.", "quantifier": "all benchmarks, boundary conditions, schemes and nestings of them, meshes, states, times and values of the options", "why_tests_cant": "The effect must hold for every state, boundary condition and inner scheme; unit tests use a few states and non-zero option values.", "anchors": ["finite_volume/solver.py: Solver._get_solver_args", "finite_volume/shallow_water/solver/antidiffusion.py: LinearAntidiffusiveSolver", "finite_volume/shallow_water/solver/lax_wendroff.py: LaxWendroffSolver", "finite_volume/shallow_water/solver/reduced_model.py: ReducedFluxGetter", "defaults.py", "finite_volume/scalar/solver/central.py: CentralFluxSolver"]}
{"id": "C82", "title": "The solver command line means what it says", "statement": "The strings behind -s build exactly the solvers they describe: for each solver key the options it offers (name, short name, mesh size, CFL number, time integrator, flux, gamma, coarsening degree, adaptive, exact flux), in any order and spelling, are all granted, the last one of a kind counts, options not given have the documented defaults; nothing that is written is ignored, every other line ends the program with a message and never with an exception; several solvers on one line each get their own options in order. False as stated: an unknown solver, and even a misspelled flux or time integrator of a known solver, ends the program with exit status 0 and the message about available solvers; the polynomial degree of the finite element solvers (+p) cannot be given; \"++flux llf\" is torn apart while \"+f llf\" works.", "quantifier": "all lines of strings behind -s (abbreviated options, \"=\" and \"--\" excluded), all solvers of both registries, all numbers and names, with and without saved history", "why_tests_cant": "The possible lines are unbounded sequences of options of 17 solvers; tests try single lines.", "anchors": ["core/solver.py: SolverParser, SolverAction", "finite_volume/solver.py: SolverParser", "finite_element/solver.py: SolverParser", "finite_volume/shallow_water/solver/__init__.py: SOLVER_PARSER, SHALLOW_WATER_FLUX_GETTER", "finite_volume/scalar/solver/__init__.py: SOLVER_PARSER", "finite_element/scalar/solver/__init__.py: SOLVER_PARSER", "command/calculate.py: _build_solver"]}
{"id": "C83", "title": "The command line does what it says", "statement": "The seven working commands (calculate, plot, animate, eoc, plot-error-evolution, generate-data, parameter-variation-test) grant every choice they offer, in any order and spelling: benchmark by name or seed, end time, solvers, mesh, files, series and data options; the last wish of a kind counts, otherwise the documented defaults hold. Nothing that is written is ignored: a command only starts if all words belong to choices it offers, and -b and -r exclude each other. A line asking for a lake at rest with the low order, central or limited schemes ends with still water at the end time. False as stated: the end time of generate-data has no effect on its solver; the advertised benchmark key random is never accepted; unknown benchmarks, unknown help keys, missing or wrongly counted solvers, unknown variations and missing data directories end with uncaught exceptions; help llf and help central never show the pages of the scalar solvers; the line in scripts/gen_solver_1 is refused.", "quantifier": "all lines of strings behind the program name (abbreviated options, \"=\" and \"--\" excluded), all seven commands and three equations, all numbers, names and directories; for still water all meshes, CFL numbers, integrators and end times", "why_tests_cant": "Lines are unbounded sequences of 29 options with nested solver options; tests try single lines and never reach the end of a run from the words.", "anchors": ["cls1", "parser.py", "command/calculate.py: CalculateParser", "command/plot.py: PlotParser", "command/animate.py: AnimateParser", "command/error.py: EOCParser", "command/error_evolution.py: parser", "command/generate_data.py: GenerateDataParser", "command/parameter_variation_test.py: parser", "command/help.py", "defaults.py", "scripts/gen_solver_1"]}
{"id": "C84", "title": "Every calculation from the command line ends, reaches its end time and keeps water, mass and bounds", "statement": "For every line of words with which calculate starts: every solver asked for is built without an exception; the program comes to an end; if it ends without an exception, every solver whose steps come from its mesh has reached the end time of the line or of the benchmark up to 1e-12; for benchmarks with joined ends or walls the amount of water every solver shows equals the amount of the initial data on the mesh asked for, at any moment of the run and also after an exception; for the scalar problems the Lax-Friedrichs, central and all finite element solvers show exactly the initial mass; and Lax-Friedrichs and limited solvers with suitable CFL numbers show values between the bounds of the initial data.", "quantifier": "all lists of command line words that calculate accepts (any benchmark, random seed, end time, number and kind of solvers with any options), all networks, all numbers of steps, all verdicts about finiteness", "why_tests_cant": "The words range over an infinite language and the runs over arbitrarily many steps; a test sees a few lines with a few meshes.", "anchors": ["command/calculate.py: Calculate", "core/solver.py: Solver.solve", "defaults.py", "finite_volume/shallow_water/solver", "finite_volume/scalar/solver", "finite_element/scalar/solver"]}
{"id": "C85", "title": "The program passes commands exactly their arguments, and --args and --profile leave the calculation alone", "statement": "Every one of the fourteen commands is started with exactly the keyword arguments its constructor takes: nothing is missing, unknown or left over from parsing. --args prints every argument, with objects replaced by their own descriptions at every depth, before the command runs. A calculation gives the same result with and without --args and --profile. A profile is printed exactly if a positive number of lines is asked for and the calculation raised nothing. Lines that are refused are refused in the same way. (Refuted: --args together with a solver with adaptive time steps ends the program with an AttributeError before anything is calculated.)", "quantifier": "all commands; all nested values of arguments; all lines of words for calculate, in any order, repeated or not; all numbers of iterations", "why_tests_cant": "the options combine with every command, problem, solver and order of words; descriptions are nested without bound", "anchors": ["cls1: print_arguments, _get_deep_dict, print_profile, execute_command, main", "profiler.py: profile", "parser.py: CustomArgumentParser.parse_arguments", "command/: constructors and parsers of all commands", "core/time_stepping.py: TimeStepGenerator.as_dict, TimeStepping.as_dict", "core/solver.py: Solver.as_dict", "core/benchmark.py: Benchmark.as_dict"]}
{"id": "C86", "title": "Monotone and limited solvers of scalar problems never create oscillations", "statement": "On a periodic domain the total variation of the solution (the sum of all jumps between neighbouring cells or nodes) never grows: whatever a program does with a Lax-Friedrichs or limited finite volume solver, or with a low order or limited finite element solver of degree one, the variation after is at most the variation before, and the values recorded in the history meanwhile have ever smaller variation. Waves may cross one cell per step (a quarter of a cell for the finite volume limiter), finite element solvers may use the optimal step (half of it with the limiter). All advection benchmarks with default options are covered, and the solutions calculate shows, for every line of words, have at most the variation of the initial values on the mesh asked for.", "quantifier": "all initial data and domains, mesh sizes, Runge-Kutta methods euler, heun and ssp3, CFL numbers within the stated limits, all programs that solve, interrupt, reinitialise within the range of the data and read the solution; all command lines of calculate", "why_tests_cant": "a bound on a quantity of the whole solution after any number of steps for all data; tests look at single runs of single benchmarks", "anchors": ["finite_volume/scalar/solver/lax_friedrichs.py: LaxFriedrichsFluxGetter, LaxFriedrichsSolver", "finite_volume/scalar/solver/mcl.py: MCLFlux, MCLSolver", "finite_volume/solver.py: Solver", "finite_element/scalar/solver/cg_low.py: LowOrderCGRightHandSide, OptimalTimeStep, LowOrderContinuousGalerkinSolver", "finite_element/scalar/solver/mcl.py: MCLRightHandSide, MCLSolver", "core/solver.py: Solver.solve", "core/ode_solver.py: ForwardEuler, Heun, StrongStabilityPreservingRungeKutta3", "command/calculate.py: Calculate"]}
{"id": "C87", "title": "First order solvers of the advection equation converge to the exact solution", "statement": "On a periodic domain, with CFL number at most 1, every value that the Lax-Friedrichs finite volume solver of the advection equation shows at a time t, now or in its history, whatever the program did with the solver before, differs from the initial data moved by t by at most M/2 t h + M/24 h^2 when the second derivative of the data is at most M, by at most K (sqrt(t h) + sqrt(1/12) h) when their slope is at most K, and for continuous data by less than any tolerance once the mesh is fine enough. The low order finite element solver of degree one has the same errors at its nodes (without the terms for the cell averages). The cosine and Gaussian benchmarks, whose exact_solution is the reference of the eoc command, have errors 2 pi^2 t h + pi^2/6 h^2 and 10 (sqrt(t h) + sqrt(1/12) h); the solutions of calculate keep these bounds for every line of words.", "quantifier": "all periodic data with the stated smoothness, all domains, mesh sizes, times, Runge-Kutta methods euler, heun and ssp3, CFL numbers up to 1, all programs that solve, interrupt and read; all command lines of calculate", "why_tests_cant": "a limit and an error bound for every mesh, time and initial function; a test sees a few meshes of one benchmark", "anchors": ["finite_volume/scalar/solver/lax_friedrichs.py: LaxFriedrichsFluxGetter, LaxFriedrichsSolver", "finite_element/scalar/solver/cg_low.py: LowOrderContinuousGalerkinSolver, LowOrderCGRightHandSide", "core/time_stepping.py: TimeStepping", "core/ode_solver.py: Heun, StrongStabilityPreservingRungeKutta3", "core/interpolate.py: CellAverageInterpolator", "benchmark/advection.py: AdvectionBenchmark.exact_solution, CosineBenchmark, GaussianBellBenchmark", "command/calculate.py: Calculate"]}
{"id": "C88", "title": "The tables of eoc hold the errors of the runs asked for, and small ones for smooth advection data", "statement": "Every table that the eoc command prints belongs to a solver asked for, in that order and with its name as title, and has one row per mesh: the i-th row (from 0) comes from a completed run of that solver on 2^i times as many cells as asked for, shows the number of its values, and holds the distances of its solution to the exact solution at the end time in the L1, L2 and maximum norm. The orders of the first row are not numbers and each later one is log2 of the error above divided by the error beside it. For the cosine and the Gaussian bell of the advection equation and first order solvers (Lax-Friedrichs, low order finite elements) with CFL number at most 1 all tables are printed, and on cells of length h and at end time T every error is at most 2 pi ((pi T + 1) h + 10^-12) for the cosine and 10 (sqrt(T h) + h + 10^-12) for the bell. The warning about missing solvers never appears for a command line. Orders of vanished errors are infinite or nan as in numpy; a line with an error message appears only after all solvers have been solved on all meshes, their own exceptions are not caught.", "quantifier": "all command lines of eoc for the advection and Burgers' equation, all solvers, names, meshes, numbers of meshes, end times of at least 10^-12 and steps of at least 10^-12 on the finest mesh", "why_tests_cant": "the claim is about every line of words, every mesh and every end time; a test compares a few printed numbers", "anchors": ["command/error.py: EOCCalculator, EOCDataFrame, CalculateEOC, CalculateEOCParser.postprocess", "core/norm.py: L1Norm, L2Norm", "core/mesh.py: UniformMesh", "finite_volume/scalar/solver/lax_friedrichs.py: LaxFriedrichsSolver", "finite_element/scalar/solver/cg_low.py: LowOrderContinuousGalerkinSolver", "benchmark/advection.py: AdvectionBenchmark.exact_solution"]}
{"id": "C89", "title": "eoc makes as many refinements as asked for", "statement": "With `--refine r`, described as the number of refinements, the eoc command refines the first mesh r times. This is false: a table has r rows and therefore r-1 refinements; with `-r 1` nothing is refined and all orders are NaN.", "quantifier": "all command lines of eoc, all solvers and numbers of refinements", "why_tests_cant": "a test would have to fix one number and one solver; the claim relates the words to the shape of every table", "anchors": ["command/error.py: CalculateEOCParser._add_refine, CalculateEOCParser.postprocess, EOCCalculator"]}
{"id": "C90", "title": "Lax-Friedrichs solutions of scalar problems stay ordered, do not drift apart and lose entropy", "statement": "On a periodic domain the Lax-Friedrichs finite volume solver of the advection equation and of Burgers' equation (data in a range where waves run to the right, Euler, Heun or the three stage method, waves crossing at most one cell per step, half a cell for Burgers' equation) is monotone. Two solvers with the same options and different data that run through the same program are always at the same time, and: if the values of one are below those of the other at some time, they are at all later times and in all later history entries; the sum of the absolute differences never grows between two times; data that are ordered have ordered solutions; data that differ by at most e have solutions whose difference has an integral of at most e times the length of the domain. For one solver the sum of any convex function of the values (for instance of the squares) never grows between two times, and the history entries have ever smaller sums. The bound of half a cell for Burgers' equation cannot be improved: for every larger step of at most one cell there are two solutions that lose their order and drift apart in one Euler step.", "quantifier": "all pairs of initial data in the range, all meshes, domains, start and end times, CFL numbers under the condition, the three Runge-Kutta methods, with and without history, all programs of solve, reads and writes to returned arrays (and reinitialisations before the first time for the convex sums), all convex functions on the range, all steps between half a cell and one cell (sharpness)", "why_tests_cant": "the statements compare the solutions of all pairs of data and all convex functions at all times; a test can compare a few runs", "anchors": ["finite_volume/scalar/solver/lax_friedrichs.py: LaxFriedrichsFluxGetter, LaxFriedrichsSolver", "finite_volume/scalar/core.py: WaveSpeed", "finite_volume/solver.py: Solver", "core/solver.py: Solver.solve", "core/ode_solver.py: ForwardEuler, Heun, StrongStabilityPreservingRungeKutta3"]}
{"id": "C91", "title": "The words of analyze-curvature, analyze-data, delete-curvature, print-network, test and train-network do what they say", "statement": "For each of these commands, every option that is offered is heard wherever it is written and the last one of a kind counts; the words of their own are the paths, files or the network; nothing on an accepted line is ignored; bad lines are refused with a message; an accepted test line starts the test program with exactly its files, and the commands that work with data do their work. Refuted in parts: lists of files split by an option are refused, --profile takes a following network for its number, a network parameter that is no number raises an uncaught ValueError, and all accepted lines of the three data commands fail with AttributeError before anything is done.", "quantifier": "all command lines of these commands written with full options separated by blanks, all orders and repetitions of the options, all words", "why_tests_cant": "there are infinitely many lines; a test tries a few orders of options and positional words", "anchors": ["command/analyze_curvature.py: AnalyzeCurvatureParser, PlotCurvatureAgainstSubgridFlux", "command/analyze_data.py: AnalazyDataParser, AnalyzeData", "command/delete_curvature.py: DeleteCurvatureParser, DeleteCurvature", "command/print_network.py: PrintNetworkParser", "command/test.py: TestParser, Test", "command/train_network.py: TrainNetworkParser, TrainNetwork", "command/command.py: CommandParser", "core/type.py: positive_int, positive_float"]}
{"id": "C92", "title": "First order solutions of the advection equation converge in area also for data with jumps", "statement": "For every periodic advection benchmark whose initial data have finite total variation V, with jumps or without, the Lax-Friedrichs solver and the low order continuous Galerkin solver (linear elements) show at every time t values whose distance to the exact, moved data, summed over the cells and multiplied by the cell length h, is at most V(sqrt(t h) + 13/10 h), so that refining the mesh makes this area as small as wanted. This holds for all five advection benchmarks (V = 2, 4, 6, 2 and 4), for every command line of calculate, also after an exception, and eoc prints for these benchmarks tables whose L1 errors are at most V(sqrt(T h) + 9/5 h + 1e-12), whose L2 errors are at most the square root of L1 times the length of the range of the data, and whose Linf errors never exceed that length.", "quantifier": "all initial data of finite variation on all intervals, mesh sizes, CFL numbers up to 1, strong stability preserving Runge-Kutta methods, sequences of uses of the solver, all words of calculate and eoc, numbers of rows and solvers", "why_tests_cant": "a test compares a few meshes and sees a falling error; that no choice of data, mesh, time or CFL number makes the error larger needs a bound for all of them, and the usual proof for smooth data does not apply to the default benchmark, which jumps", "anchors": ["benchmark/advection.py:TwoHillsBenchmark", "benchmark/advection.py:ThreeHillsBenchmark", "benchmark/advection.py:OneHillBenchmark", "finite_volume/scalar/solver/lax_friedrichs.py", "finite_element/scalar/solver/cg_low.py", "command/error.py:CalculateEOC", "command/calculate.py"]}
{"id": "C93", "title": "Naming the condition of both ends once or twice makes no difference", "statement": "A boundary condition may be given once for both ends of the domain or once per end. For every condition word, the two spellings are accepted for the same inputs, give every cell the same neighbours, and make the same solver: all finite volume solvers of scalar problems, Lax-Wendroff, and every shallow water solver without limiter or with a condition other than periodic are equal; for the limited solver of scalar problems on periodic domains every evaluation of the right hand side is equal. The claim is refuted for the limited shallow water solver with ('periodic', 'periodic'): its bounds ignore the neighbour across the end, and the rates of change differ from those for ('periodic',).", "quantifier": "every condition word, benchmark, mesh size, flux (by induction over networks, limiters and antidiffusion stacked on each other), solver arguments, number of ghost cells, state", "why_tests_cant": "the tests use one spelling per condition; equality has to hold for every flux, state and radius", "anchors": ["core/boundary.py: BoundaryConditionsBuilder, BoundaryConditions.get_cell_neighbours, get_node_neighbours", "finite_volume/shallow_water/solver/mcl.py: MCLFlux, MCLFluxGetter", "finite_volume/scalar/solver/mcl.py: MCLFluxGetter", "finite_volume/solver.py: Solver"]}
{"id": "C94", "title": "First order solutions of Burgers' equation converge to the exact solution before shocks appear", "statement": "For periodic data with bounded slope and bounded second derivative, Burgers' equation has exactly one solution up to every time before one over the largest slope, namely the function whose values travel with themselves as speed. Up to such a time the values that the low order finite element solver (cg_low, degree one, CFL number of at most one third) shows in the nodes differ from that solution by at most a constant over the number of cells, once there are enough cells, whatever strong stability preserving method is chosen and whatever a program does with the solver apart from reinitialising it, also for the entries of its history; the constants depend on the data only. So both Burgers benchmarks approach what exact_solution returns as long as the time stays away from the critical time. The Lax-Friedrichs finite volume solver has the same property for positive data when the CFL number times the largest value is at most one sixth.", "quantifier": "all smooth periodic data, all times before the critical time, all numbers of cells from some number on, all strong stability preserving methods, CFL numbers up to the limit, all uses of the solver without reinitialisation", "why_tests_cant": "A test compares one solution on one grid with a tolerance; convergence is a statement about all grids, and the equation is nonlinear, so no finite set of runs shows that the error constants do not grow with the number of steps.", "anchors": ["benchmark/burgers.py: BurgersBenchmark.exact_solution, SchockBenchmark, SmoothBenchmark", "finite_element/scalar/solver/cg_low.py: LowOrderContinuousGalerkinSolver, LowOrderCGRightHandSide", "finite_volume/scalar/solver/lax_friedrichs.py: LaxFriedrichsFluxGetter, LaxFriedrichsSolver", "core/time_stepping.py: TimeStepping", "core/ode_solver.py: Heun, StrongStabilityPreservingRungeKutta3", "core/interpolate.py: CellAverageInterpolator"]}
{"id": "C95", "title": "generate-data from the seed to the files", "statement": "generate-data with a first order shallow water solver (low order, central, Lax-Friedrichs, energy stable) is reproducible from its seed: the rows of solution i are those of a newly built solver on the benchmark number i + 2 of the sequence of the seed, one row for every recorded time, with the coarsened cells around the node and the flux of the fine solver at the node minus the flux of the coarse solver there; exceptions of the run are handed on. The command starts whenever the mesh can be coarsened and the window around the node fits in, and the rows exist as long as the heights are positive. A finished run leaves one header and all rows in order. Repeating the command with --append and the same seed appends the same rows again, and parameter-variation-test with the same seed (both defaults are 1) tests with benchmarks of the training data.", "quantifier": "all random number generators, seeds, mesh sizes, coarsening degrees, radii, nodes, time integrators, numbers of solutions and lengths of runs, and all five first order fluxes", "why_tests_cant": "A test reads the files of one seed and cannot tell a row that was computed with the state left over by the previous solution, with another benchmark or at a shifted node from the right one.", "anchors": ["command/generate_data.py: GenerateData, SubgridFluxDataFrameBuilder, DiscreteSolutionWithInputData", "benchmark/shallow_water.py: RandomOscillationNoTopographyBenchmark", "command/parameter_variation_test.py: ParameterVariationTest", "defaults.py: SEED"]}
{"id": "C96", "title": "Low order continuous Galerkin solutions lose entropy and do not drift apart", "statement": "The low order continuous Galerkin solver (cg_low) never increases the integral of the interpolated value of any convex function of its solution while it runs, at the default cfl number and at every cfl number that meets the condition of the bounds (C71), for advection and Burgers, fixed and adaptive step widths; what is recorded in the history loses entropy from entry to entry. For advection two solvers that differ in their data only stay in the same order: if the nodal values of one were below those of the other, they stay below at the same times and in all entries of the history. The integral of their interpolated distance never grows.", "quantifier": "all convex functions on the range of the data, benchmarks of the two scalar equations, mesh sizes, polynomial degrees up to 7, strong stability preserving time integrators, programs of solver calls (updates, solves, setters; before: also reinitialisations within the bounds)", "why_tests_cant": "A test compares one convex function and one pair of initial data at a few times; growth of another entropy or a crossing of two solutions needs other data, degrees or step widths.", "anchors": ["finite_element/scalar/solver/cg_low.py", "finite_element/artificial_diffusion.py", "finite_element/discrete_gradient.py", "finite_element/lumped_mass.py", "core/solver.py:Solver", "core/ode_solver.py"]}
{"id": "C97", "title": "Time stepping works in double precision", "statement": "With IEEE double precision instead of real numbers, for start and end times below 4096 in absolute value: every step is at least 1e-12 and at most the generated one; the clock of the solution never passes the end by more than 2^-40, equals the start plus the sum of the steps up to 2^-41 per step, and differs from the end by less than 1.001e-12 when the loop has ended, while the time of the time stepping is exactly the end then; rounding never produces a TimeStepTooSmallError, only a generated step below 1e-12 does; and the loop ends after at most (end - start)/(eps - 2^-41) + 1 steps if the generated steps are at least eps >= 1e-12. Without the bound on the times the last claim fails: from 32768 on steps of 1e-12 are absorbed by the clock and the loop never ends.", "quantifier": "all doubles for start, end (below 4096 in absolute value, at least 1e-12 apart) and the generated steps, all numbers of calls, including loops that are abandoned", "why_tests_cant": "Rounding errors depend on every bit of the start time, the end time and all steps; a test sees a few of 2^64 doubles and the loops that fail never end.", "anchors": ["core/time_stepping.py:TimeStepping", "core/discrete_solution.py:DiscreteSolution.update", "core/ode_solver.py:ExplicitRungeKuttaMethod.execute", "core/solver.py:Solver.solve"]}
{"id": "C98", "title": "Finite volume runs in double precision conserve mass up to rounding", "statement": "With IEEE double precision instead of real numbers, on a periodic mesh of N cells of length dx: if all values are at most M and all fluxes at most F in a run of m steps of total length T with a Runge-Kutta method of s stages, then the sum of the cell values at the end differs from the sum at the start by at most N * 2^-53 * (m * M + 4 * s * (s + 4) * F * T / dx): the error grows at most linearly in the number of steps and cells, and no flux is lost but by rounding. This holds for every flux whose two values at a node are opposite, hence for all fluxes of the project, whose values are opposite in double precision too. The bound is not zero: rounding changes the mass.", "quantifier": "all fluxes, all meshes, all cell values and steps, all Runge-Kutta methods with weights at most one, scalar problems and both components of the shallow water equations, any number of steps", "why_tests_cant": "Rounding errors depend on every bit of all cell values; a test that compares masses with a tolerance tries a few initial values on a few meshes.", "anchors": ["finite_volume/numerical_flux.py:NumericalFluxDependentRightHandSide", "finite_volume/numerical_flux.py:LaxFriedrichsFlux", "core/ode_solver.py:ExplicitRungeKuttaMethod.execute", "core/boundary.py:BoundaryConditions.get_node_neighbours"]}
{"id": "C99", "title": "Constant states, shifts, restarts and start times: what finite volume runs keep exactly in double precision", "statement": "A finite volume run that starts with the same value in all cells keeps this value in all cells exactly, without any rounding error, at every stage and after every step: for every flux whose value at a node depends on the neighbouring cells only and is the same from both sides, every mesh, every Runge-Kutta method and every sequence of steps, on periodic domains, with outflow, with inflow of the same value, and with walls when the state is its own mirror image (water at rest). In double precision the value must be a double. On periodic domains no cell is special: with Lax-Friedrichs, central and antidiffusive fluxes and their sums, data shifted by any number of cells have the solution shifted by as many cells, bit for bit, at the same time. A run may be interrupted after any step and continued from the state and time reached, with the same result as without interruption; without inflow the start time does not matter for the values, which are the same in all stages, bit for bit.", "quantifier": "all constants, fluxes, cell lengths, numbers of cells, Runge-Kutta methods, steps, boundary conditions that show the constant, scalar problems and systems, exact and double precision arithmetic; for shifts all cell values, all shifts, all Riemann problems and fluxes, any arithmetic; for restarts all right hand sides and points of interruption; for start times all fluxes and all boundary conditions without inflow", "why_tests_cant": "A test with a tolerance does not see rounding errors, and an exact one tries a few constants, meshes and steps.", "anchors": ["finite_volume/numerical_flux.py:NumericalFluxDependentRightHandSide", "finite_volume/numerical_flux.py:LaxFriedrichsFlux", "core/ode_solver.py:ExplicitRungeKuttaMethod.execute", "core/boundary.py:BoundaryConditions.get_node_neighbours"]}
