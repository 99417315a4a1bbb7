{"id": "C01", "title": "Work arrays are never handed out twice while live", "statement": "If a routine saves a block's work-array index, requests any number of work arrays (taking one and advancing the index each time) and then restores the saved index, all the arrays it obtained are pairwise different, none of them is an array obtained on that block before the save, and afterwards the block hands out exactly the array it would have handed out before the routine ran. Nesting such a routine inside another keeps the outer routine's arrays safe too.", "quantifier": "every block, every starting index, every interleaving of take / advance / save / restore operations of any length", "why_tests_cant": "The allocator is a pair of mutable counters shared by every discretisation routine; aliasing appears only for particular histories of calls, and tests sample a few of them.", "anchors": ["opensbli/core/grid.py: WorkDataSet.work_array, increase_work_index, store_work_index, reset_work_to_stored, reset_work_index", "opensbli/schemes/spatial/scheme.py: sbli_rhs_discretisation", "opensbli/equation_types/metric.py: spatial_discretisation"]}
{"id": "C02", "title": "Every kernel gets its own C function name", "statement": "Two different kernels created on the blocks of a problem with different block numbers, or at different moments on the same block, never have the same C function name, and the same holds for the iteration-range array names written into the main program.", "quantifier": "every sequence of kernel creations over any set of blocks with distinct numbers, with any number of kernels per block", "why_tests_cant": "Names are produced with fixed-width numeric formats; collisions would only show beyond the padding width or for unusual block numbers.", "anchors": ["opensbli/core/kernel.py: Kernel.__init__, opsc_code", "opensbli/core/block.py: KernelCounter, SimulationBlock.blockname"]}
{"id": "C03", "title": "Every access of a kernel is inside the stencil it passes to OPS", "statement": "After a kernel is registered on its block, for each array it touches the stencil named in its ops_par_loop call is declared on the block, and that stencil contains exactly the relative offsets at which the kernel reads or writes the array. Stencils declared on a block have pairwise distinct names and pairwise distinct contents, whatever kernels were registered before or after.", "quantifier": "every history of kernel registrations on a block, every kernel body", "why_tests_cant": "The stencil table is a dictionary that grows over the whole generation run; a clash or a missing offset depends on the history.", "anchors": ["opensbli/core/kernel.py: get_stencils, update_block_datasets"]}
{"id": "C04", "title": "Every array used by a kernel is declared exactly once", "statement": "After any sequence of kernel registrations on a block, the array declarations contain every array read or written by a registered kernel, each exactly once, and nothing else.", "quantifier": "every history of kernel registrations on a block", "why_tests_cant": "Depends on the whole registration history.", "anchors": ["opensbli/core/kernel.py: update_block_datasets, lhs_datasetbases, rhs_datasetbases"]}
{"id": "C05", "title": "The OPS call and the kernel signature agree", "statement": "For every kernel, the n-th argument passed in the generated ops_par_loop call is the object named by the n-th formal parameter of the generated C kernel function, so the generated program hands each kernel the data it was written for.", "quantifier": "every kernel body: any sets of read, written and read-written arrays, any global values, any indexed constants, with or without use of the grid index, and any iteration order of the sets", "why_tests_cant": "The two texts are produced by two independent pieces of code; only particular combinations of argument kinds put them out of step.", "anchors": ["opensbli/core/kernel.py: Kernel.opsc_code", "opensbli/code_generation/opsc.py: OPSC.kernel_computation_opsc, kernel_header"]}
{"id": "C06", "title": "Declared access modes are truthful", "statement": "In the generated call an array is passed OPS_READ only if the kernel never writes it, OPS_WRITE only if the kernel never reads it, and OPS_RW otherwise; a global value that the kernel assigns is not passed as read-only.", "quantifier": "every kernel body", "why_tests_cant": "OPS uses the modes to decide halo exchanges and data movement; a wrong mode gives silent wrong answers only on some back ends and partitions.", "anchors": ["opensbli/core/kernel.py: opsc_code, lhs_datasetbases, rhs_datasetbases, global_variables"]}
{"id": "C07", "title": "Array accesses inside a kernel carry the right argument number", "statement": "In generated kernel code the access macro used with an array is the one numbered with that array's position among the kernel's formal parameters.", "quantifier": "every kernel body", "why_tests_cant": "Numbering is recomputed for each kernel from unordered sets.", "anchors": ["opensbli/code_generation/opsc.py: kernel_computation_opsc, OPSAccess, OPSCCodePrinter._print_DataSet"]}
{"id": "C08", "title": "Line wrapping never changes the generated program", "statement": "Wrapping of long generated lines keeps the sequence of blank-separated words of every line, never fails its own correctness check, leaves lines within the limit untouched, and every line it emits is within the limit unless it holds a single word.", "quantifier": "every list of source lines of any length and content", "why_tests_cant": "The wrapping loop depends on word lengths and indentation; only unusual combinations hit the boundary cases.", "anchors": ["opensbli/code_generation/opsc.py: OPSC.wrap_long_lines"]}
{"id": "C09", "title": "Max is printed as nested binary fmax with the same value", "statement": "For an n-ary maximum, the printed C expression evaluates to the largest of the values of its arguments, for every number of arguments at least one.", "quantifier": "every argument list and every valuation", "why_tests_cant": "Arity is unbounded.", "anchors": ["opensbli/code_generation/opsc.py: OPSCCodePrinter._print_Max"]}
{"id": "C10", "title": "Grouped piecewise equations execute the first true branch", "statement": "The if / else-if / else text generated for a grouped piecewise equation performs exactly the assignments of the first branch whose condition holds, and none if no condition holds.", "quantifier": "every list of branches, conditions and machine states", "why_tests_cant": "Number of branches and their conditions are unbounded, and the generator treats the first branch specially.", "anchors": ["opensbli/code_generation/opsc.py: kernel_computation_opsc", "opensbli/core/opensbliobjects.py: GroupedPiecewise"]}
{"id": "C11", "title": "Rational and reciprocal constants are named consistently", "statement": "Throughout code generation one numerical constant is always printed under the same name, two different constants never share a name, and each name is declared exactly once with the value it stands for, even though plain rationals and reciprocals share one counter.", "quantifier": "every sequence of expressions printed during a generation run", "why_tests_cant": "The table is global mutable state that persists over the whole run.", "anchors": ["opensbli/code_generation/opsc.py: RationalCounter, _print_Rational, pow_to_constant", "opensbli/core/kernel.py: ConstantsToDeclare.add_constant"]}
{"id": "C12", "title": "Constants are declared once, in first-use order", "statement": "After any sequence of requests to declare constants the list of constants to declare contains each requested constant exactly once, ordered by first request, and contains nothing else.", "quantifier": "every sequence of requests, singly or in lists", "why_tests_cant": "The list is a class attribute shared by the whole process.", "anchors": ["opensbli/core/kernel.py: ConstantsToDeclare"]}
{"id": "C13", "title": "All kernels of the program are written, once, in program order", "statement": "The set of kernels written to the header files is exactly the set of kernels occurring anywhere in the algorithm tree (under loops, conditions and timers at any depth); each is written once, in order of first occurrence; the same traversal collects all halo exchanges.", "quantifier": "every algorithm tree", "why_tests_cant": "Tree depth and sharing are unbounded.", "anchors": ["opensbli/code_generation/opsc.py: loop_alg, write_kernels"]}
{"id": "C14", "title": "Code generation works for every block numbering", "statement": "For every set of blocks used in a program, code generation sends each kernel to the header file of its own block.", "quantifier": "every list of blocks with distinct block numbers and every list of kernels on them", "why_tests_cant": "Only unusual block numbers reach the failing case.", "anchors": ["opensbli/code_generation/opsc.py: write_kernels", "opensbli/core/block.py: SimulationBlock.__init__"]}
{"id": "C15", "title": "Simulation parameters are substituted exactly", "statement": "Substituting user values into the generated main program replaces each placeholder assignment of a listed constant by the assignment of its value and leaves every other character of the program unchanged; with the names and values in any order the result is the same.", "quantifier": "every program text and every list of constant names and values", "why_tests_cant": "The substitution is textual; collisions depend on the particular names chosen by the user.", "anchors": ["opensbli/utilities/helperfunctions.py: substitute_simulation_parameters"]}
{"id": "C16", "title": "Declared arrays have room for every access", "statement": "Every array element that a generated kernel reads or writes, over the whole iteration range including halo extensions, lies within the storage declared for that array.", "quantifier": "every central scheme order, WENO and TENO order, grid size and dimension", "why_tests_cant": "The failing accesses corrupt memory silently; which orders fail is a property of all orders.", "anchors": ["opensbli/schemes/spatial/scheme.py: CentralHalos, CentralHalos_defdec", "opensbli/schemes/spatial/weno.py: WenoHalos", "opensbli/code_generation/opsc.py: get_max_halos, declare_dataset", "opensbli/core/block.py: get_all_scheme_halos"]}
{"id": "C17", "title": "The time loop performs the prescribed steps in the prescribed order", "statement": "The generated program runs the initial actions once, then exactly niter time steps, each consisting of: the start-of-step actions, then for each stage in order the spatial residual kernels, the stage-update kernels and the boundary kernels, then the per-step diagnostics and output, and after the last step the final actions, once.", "quantifier": "every number of iterations and stages and every list of kernels of each kind", "why_tests_cant": "The claim is about the whole execution history for every niter.", "anchors": ["opensbli/code_generation/algorithm/algorithm.py: TraditionalAlgorithmRK.generate_solution, DoLoop"]}
{"id": "C18", "title": "Output is written exactly at the requested iterations", "statement": "With output requested every m iterations, output during the run happens after step k exactly when m divides k, k between 1 and niter, under a file name that encodes k and is different for every k; output requested at the end of the run is written exactly once.", "quantifier": "every niter, m at least 1", "why_tests_cant": "Off-by-one errors depend on the relation between niter and m; file name collisions only show for very long runs.", "anchors": ["opensbli/code_generation/algorithm/algorithm.py: generate_solution", "opensbli/core/io_hdf5.py: iohdf5"]}
{"id": "C19", "title": "Every equation class contributes its kernels to the program", "statement": "Each equation class discretised on a block contributes all its kernels to the generated program in the place its kind prescribes; evaluation of non-simulation equations follows their order numbers.", "quantifier": "every list of equation classes, including several of the same kind", "why_tests_cant": "Losing one class's kernels yields a compilable program that computes something else.", "anchors": ["opensbli/code_generation/algorithm/algorithm.py: generate_solution", "opensbli/equation_types/opensbliequations.py: NonSimulationEquations"]}
{"id": "C20", "title": "Constituent relations are evaluated in dependency order", "statement": "The sorting of constituent relations returns every relation that is needed exactly once, each after all the relations it depends on, whenever the dependencies are acyclic, and reports an error when they are cyclic or refer to something that is never computed.", "quantifier": "every finite set of relations and every set of already known arrays", "why_tests_cant": "Dependency graphs are unbounded; the implementation has an iteration limit.", "anchors": ["opensbli/equation_types/opensbliequations.py: sort_constituents, sort_dictionary"]}
{"id": "C21", "title": "Equation classes are ordered without loss", "statement": "Setting equations on a block keeps every equation class exactly once, puts all constituent relations before all the others, and keeps the relative order of the others.", "quantifier": "every list of equation classes, with repeated calls", "why_tests_cant": "The code mutates a list while iterating over it.", "anchors": ["opensbli/core/block.py: set_equations, sort_equation_classes"]}
{"id": "C22", "title": "Converting equations to block arrays keeps their grouping", "statement": "Converting a nested list of equations to block arrays returns the converted equations in the same nesting and order as given.", "quantifier": "every nested list of equations", "why_tests_cant": "Nesting depth and list lengths are unbounded.", "anchors": ["opensbli/core/block.py: dataobjects_to_datasets_on_block"]}
{"id": "C23", "title": "RK3 low-storage (Williamson) scheme is third-order Runge-Kutta", "statement": "One step of the generated third-order low-storage program equals one step of a three-stage explicit Runge-Kutta method satisfying all order conditions up to order three, for every right-hand side (linear or not), independently of what the temporary register contained before the step.", "quantifier": "every state space (any vector space), every residual function, every step size, every previous content of the temporary register", "why_tests_cant": "The residual function ranges over all functions.", "anchors": ["opensbli/schemes/temporal/rk_LS.py: RungeKuttaLS"]}
{"id": "C24", "title": "SBLI RK3 scheme is third-order Runge-Kutta", "statement": "One step of the generated SBLI-form RK3 program equals one step of a three-stage explicit Runge-Kutta method satisfying all order conditions up to order three for every right-hand side, and for linear problems has the stability polynomial 1+z+z^2/2+z^3/6.", "quantifier": "every state space, residual function and step size", "why_tests_cant": "The residual function ranges over all functions.", "anchors": ["opensbli/schemes/temporal/rk_sbli.py: RungeKutta"]}
{"id": "C25", "title": "Time stepping keeps steady states and linear invariants", "statement": "If the residual vanishes at a state, every number of time steps leaves that state unchanged; if a linear functional of the residual vanishes identically, every number of steps preserves that functional of the state.", "quantifier": "all Runge-Kutta variants, all stage counts, all residual functions, all numbers of steps", "why_tests_cant": "Claim over all functions and unbounded histories.", "anchors": ["opensbli/schemes/temporal/rk_LS.py", "opensbli/schemes/temporal/rk_sbli.py"]}
{"id": "C26", "title": "Central derivatives have their nominal order", "statement": "The central approximation of order n (n even) of the m-th derivative (m = 1, 2) used by the code is exact on all polynomials of degree up to n at every point and every grid spacing, for every even n.", "quantifier": "every even order n, polynomial of degree at most n, point and nonzero spacing", "why_tests_cant": "Order is a parameter of the API; each test fixes one.", "anchors": ["opensbli/schemes/spatial/scheme.py: Central", "opensbli/core/opensblifunctions.py: CentralDerivative"]}
{"id": "C27", "title": "Central derivatives conserve on periodic grids", "statement": "On a periodic grid the sum over all grid points of the discrete first derivative of any field is zero, and summation by parts holds: sum of a times D b equals minus sum of b times D a; hence the skew-symmetric form conserves the quadratic energy.", "quantifier": "every antisymmetric stencil of any width, every grid size, every pair of fields", "why_tests_cant": "Ranges over all fields and grid sizes.", "anchors": ["opensbli/schemes/spatial/scheme.py: Central", "opensbli/core/parsing.py: Skew"]}
{"id": "C28", "title": "Shifting an expression along the grid shifts every array access", "statement": "Moving an expression by k points in a direction gives an expression whose value at a grid point is the value of the original expression k points further, whatever arrays and offsets the expression contains.", "quantifier": "every expression, direction, offset, valuation, and every iteration order of the internal sets", "why_tests_cant": "Depends on the iteration order of hash sets.", "anchors": ["opensbli/utilities/helperfunctions.py: increment_dataset", "opensbli/core/opensblifunctions.py: _discretise_derivative"]}
{"id": "C29", "title": "Discretised central derivative equals the difference formula", "statement": "Discretising a central derivative of any expression yields an expression whose value at each grid point is the weighted sum of the values of the expression at the stencil points divided by the spacing power.", "quantifier": "every expression, scheme order and valuation", "why_tests_cant": "Ranges over all expressions.", "anchors": ["opensbli/core/opensblifunctions.py: CentralDerivative._discretise_derivative"]}
{"id": "C30", "title": "Splitting the right-hand side loses no term", "statement": "Splitting a right-hand side into convective, viscous and remaining terms yields parts whose sum equals the right-hand side, for every right-hand side.", "quantifier": "every right-hand side expression", "why_tests_cant": "Only particular shapes of right-hand side are lost.", "anchors": ["opensbli/schemes/spatial/scheme.py: classify_equations_on_parameter, sbli_rhs_discretisation, create_residual_kernel"]}
{"id": "C31", "title": "The residual is the full right-hand side", "statement": "After all residual kernels of an equation have executed, its residual array holds the discretised full right-hand side whatever the array held before.", "quantifier": "every system of equations discretised with the central scheme, any initial memory", "why_tests_cant": "Depends on which groups of terms are empty.", "anchors": ["opensbli/schemes/spatial/scheme.py: create_residual_kernel, sbli_rhs_discretisation", "opensbli/schemes/spatial/shock_capturing.py: evaluate_residuals"]}
{"id": "C32", "title": "WENO candidate stencils are exact", "statement": "Each candidate reconstruction of the WENO scheme of parameter k is exact at the cell interface for every polynomial of degree at most k-1 given by its cell averages.", "quantifier": "every k, every candidate, every polynomial", "why_tests_cant": "k is a parameter.", "anchors": ["opensbli/schemes/spatial/weno.py: ConfigureWeno.generate_eno_coefficients"]}
{"id": "C33", "title": "WENO optimal weights recover the wide stencil", "statement": "The optimal linear weights are positive, sum to one, and the linear combination of the candidates is exact for polynomials of degree up to 2k-2.", "quantifier": "all supported k, all polynomials", "why_tests_cant": "Ranges over all polynomials.", "anchors": ["opensbli/schemes/spatial/weno.py: generate_optimal_weights"]}
{"id": "C34", "title": "Nonlinear WENO weights are a convex combination", "statement": "For all cell values the WENO-JS and WENO-Z weights are positive and sum to one, so the reconstructed value lies between the smallest and largest candidate value and constants are reproduced exactly.", "quantifier": "every k, all cell values, every positive epsilon", "why_tests_cant": "Continuum of inputs.", "anchors": ["opensbli/schemes/spatial/weno.py: WenoJS, WenoZ"]}
{"id": "C35", "title": "Left and right reconstructions are mirror images", "statement": "The left-biased reconstruction of a field equals the right-biased reconstruction of the mirrored field.", "quantifier": "all schemes WENO and TENO, all fields", "why_tests_cant": "Continuum of inputs.", "anchors": ["opensbli/schemes/spatial/weno.py", "opensbli/schemes/spatial/teno.py"]}
{"id": "C36", "title": "TENO weights are a partition of unity and at least one stencil survives", "statement": "For every input the TENO cut-off keeps at least one candidate stencil, the resulting weights are non-negative and sum to one, and in smooth regions the scheme reduces to its linear scheme.", "quantifier": "orders 5 and 6, all cell values, all cut-off parameters below one over the number of stencils", "why_tests_cant": "Continuum of inputs.", "anchors": ["opensbli/schemes/spatial/teno.py"]}
{"id": "C37", "title": "Flux splitting is consistent and conservative", "statement": "The split fluxes sum to the flux, the wave speed used is at least the local one at every point of the stencil, and the flux-difference form telescopes: the total change over any range of cells equals the difference of the two end fluxes.", "quantifier": "all fluxes, states and ranges", "why_tests_cant": "Continuum of inputs and unbounded ranges.", "anchors": ["opensbli/schemes/spatial/shock_capturing.py: LLFCharacteristic", "opensbli/schemes/spatial/weno.py", "opensbli/core/opensblifunctions.py: WenoDerivative, TenoDerivative"]}
{"id": "C38", "title": "Euler eigensystem diagonalises the flux Jacobian", "statement": "The left and right eigenvector matrices used for the characteristic transformation are inverse to each other and diagonalise the Jacobian of the inviscid flux with the listed wave speeds, in 1, 2 and 3 dimensions and for every metric direction.", "quantifier": "every state with positive density and sound speed, every non-zero metric vector", "why_tests_cant": "Continuum of states.", "anchors": ["opensbli/physical_models/euler_eigensystem.py: EulerEquations"]}
{"id": "C39", "title": "Roe averaging satisfies Roe's property", "statement": "The Roe-averaged state satisfies the exact jump identity between left and right states.", "quantifier": "every pair of admissible states", "why_tests_cant": "Continuum of states.", "anchors": ["opensbli/schemes/spatial/averaging.py: RoeAverage"]}
{"id": "C40", "title": "Einstein expansion enumerates exactly the components", "statement": "Expanding an equation in Einstein notation with r distinct free indices in n dimensions yields exactly n^r equations, one for each assignment of the free indices, and every repeated index in a term is summed over all n values.", "quantifier": "every number of dimensions, every equation", "why_tests_cant": "Unbounded nesting and index counts.", "anchors": ["opensbli/core/parsing.py: EinsteinEquation.expand", "opensbli/core/opensblifunctions.py: EinsteinStructure, expand_expr"]}
{"id": "C41", "title": "Expanded component names are unambiguous", "statement": "Different components of indexed quantities expand to differently named arrays and equal components to the same name.", "quantifier": "every base name, index list and number of dimensions", "why_tests_cant": "Only particular names collide.", "anchors": ["opensbli/core/opensbliobjects.py: EinsteinTerm.apply_index, get_indices"]}
{"id": "C42", "title": "The Skew operator equals the derivative of the product", "statement": "The skew-symmetric form produced for a product of two quantities equals the derivative of the product for every derivation, and inputs with other shapes are rejected.", "quantifier": "every expression, every derivation", "why_tests_cant": "Ranges over all derivations.", "anchors": ["opensbli/core/parsing.py: Skew"]}
{"id": "C43", "title": "Periodic boundaries make halos periodic in all directions including corners", "statement": "After the periodic exchanges of all directions are executed in the generated order, every halo value within the halo width, including edges and corners, equals the interior value one period away, provided the grid has at least as many points as the halo width.", "quantifier": "every dimension, grid size and halo width", "why_tests_cant": "Corners depend on the order of exchanges over all directions.", "anchors": ["opensbli/core/boundary_conditions/periodic.py: PeriodicBC", "opensbli/core/boundary_conditions/exchange.py"]}
{"id": "C44", "title": "Symmetry boundary reflects the velocity", "statement": "The symmetry condition fills halos with the mirror image: scalars are copied, the momentum is reflected in the wall normal, reflection twice is the identity and keeps kinetic energy, and the normal momentum at the boundary is zero.", "quantifier": "every state and wall normal", "why_tests_cant": "Continuum of inputs.", "anchors": ["opensbli/core/boundary_conditions/symmetry.py: SymmetryBC"]}
{"id": "C45", "title": "Extrapolation reproduces polynomial data", "statement": "Zero-order extrapolation fills the halos with the boundary neighbour's value and first-order extrapolation reproduces linear data exactly at all halo points.", "quantifier": "every halo width, side, direction and data", "why_tests_cant": "Halo width and data unbounded.", "anchors": ["opensbli/core/boundary_conditions/extrapolation.py: ExtrapolationBC"]}
{"id": "C46", "title": "Wall conditions enforce no-slip and the wall temperature condition", "statement": "After the isothermal and adiabatic wall conditions, the momentum at the wall is zero, the wall temperature equals the prescribed value (isothermal) or makes the one-sided temperature derivative vanish (adiabatic), and the halo states mirror the interior as documented.", "quantifier": "all interior states, halo widths", "why_tests_cant": "Continuum of inputs.", "anchors": ["opensbli/core/boundary_conditions/isothermal_wall.py", "opensbli/core/boundary_conditions/adiabatic_wall.py"]}
{"id": "C47", "title": "One-sided boundary schemes have their nominal order on both sides", "statement": "The Carpenter, reduced-access and reduced-order one-sided formulas for first and second derivatives are exact on polynomials up to their nominal degree at the lower and at the upper boundary, and the Carpenter closure satisfies the summation-by-parts identity.", "quantifier": "all polynomials, all boundary points covered by the closure, both sides", "why_tests_cant": "Ranges over all polynomials.", "anchors": ["opensbli/core/boundary_conditions/Carpenter_scheme.py", "opensbli/core/boundary_conditions/reduced_access_scheme.py", "opensbli/core/boundary_conditions/reduced_order_scheme.py"]}
{"id": "C48", "title": "Multi-block interfaces copy the matching points", "statement": "Interface exchanges between two blocks copy, for every halo point, the value of the geometrically coincident point of the neighbouring block, for all face pairings.", "quantifier": "every pair of faces, grid size and halo width", "why_tests_cant": "Many pairings and sizes.", "anchors": ["opensbli/core/boundary_conditions/multi_block.py"]}
{"id": "C49", "title": "Boundary kernels touch exactly their boundary plane", "statement": "The boundary kernel for a direction and side runs over exactly the grid points of that face (extended by the halos in the other directions) and on no interior point; lists of boundary conditions of the wrong length are rejected.", "quantifier": "every dimension, direction, side, grid size and halo width", "why_tests_cant": "Unbounded sizes.", "anchors": ["opensbli/core/boundary_conditions/bc_core.py"]}
{"id": "C50", "title": "Metric terms invert the Jacobian and transform derivatives", "statement": "The metric coefficients computed by the code are the inverse of the Jacobian matrix of the mapping and the transformed first and second derivatives equal the physical derivatives for every smooth mapping, in 1, 2 and 3 dimensions and for every choice of stretched and curvilinear directions.", "quantifier": "every invertible Jacobian, every derivation", "why_tests_cant": "Continuum of mappings.", "anchors": ["opensbli/equation_types/metric.py: MetricsEquation"]}
{"id": "C51", "title": "Derived thermodynamic relations agree with each other", "statement": "The conservative and the primitive forms of pressure, temperature and the other relations supplied by the Navier-Stokes physics object agree for every admissible state.", "quantifier": "every admissible state and dimension", "why_tests_cant": "Continuum of states.", "anchors": ["opensbli/physical_models/ns_physics.py: NSphysics"]}
{"id": "C52", "title": "The binomial filter keeps means and damps the shortest wave", "statement": "The explicit filter of even order N has weights that sum to one, leaves constants and linear fields unchanged, removes the grid-frequency oscillation entirely, never creates new extrema, and rejects odd orders.", "quantifier": "every even order, field and blending parameter in [0,1]", "why_tests_cant": "Ranges over all orders and fields.", "anchors": ["opensbli/filters/binomial_filter.py"]}
{"id": "C53", "title": "Selective frequency damping keeps its invariant and converges", "statement": "The selective frequency damping update keeps the weighted combination of state and filtered state unchanged, multiplies their difference by the damping factor, and has as fixed points exactly the states equal to their filtered value.", "quantifier": "every state, filter parameters and number of steps", "why_tests_cant": "Unbounded histories and continuum of inputs.", "anchors": ["opensbli/filters/SFD.py"]}
{"id": "C54", "title": "Cubic spline interpolation passes through its data", "statement": "Spline coefficients computed by the code solve the spline equations with the requested end conditions, and evaluation at a knot returns the knot value, for any strictly increasing abscissae.", "quantifier": "every number of knots and data", "why_tests_cant": "Unbounded data.", "anchors": ["opensbli/utilities/numerical_functions.py: spline, splint"]}
{"id": "C55", "title": "Halo range merging covers all requests", "statement": "The iteration range of a kernel covers the grid and the halo extension of every scheme registered on it in each direction and side, and equals the smallest such range; merging two kernels' halo ranges covers both.", "quantifier": "every set of halo requests", "why_tests_cant": "Arbitrary sets.", "anchors": ["opensbli/core/kernel.py: set_halo_range, merge_halo_range, total_range", "opensbli/utilities/helperfunctions.py: get_min_max_halo_values"]}
{"id": "C56", "title": "Input and output requests are validated and placed as asked", "statement": "File input/output declared before the run, after the run, or every m steps is executed at these places and nowhere else; arrays that are never computed are rejected; reading is done before the run only.", "quantifier": "every combination of keyword options", "why_tests_cant": "Combinations of options are many.", "anchors": ["opensbli/core/io_hdf5.py"]}
{"id": "C57", "title": "Simulation monitors print one value per requested probe", "statement": "The monitor's print statement has as many format placeholders as values, each probe is reduced at its own point, the probe list must match the array list, and monitoring fires at the first step and then exactly when the step number is a multiple of the frequency.", "quantifier": "every number of probes, frequency and iteration", "why_tests_cant": "Unbounded.", "anchors": ["opensbli/core/diagnostics/simulation_monitors.py", "opensbli/code_generation/algorithm/algorithm.py"]}
{"id": "C58", "title": "Oblique-shock jump satisfies the conservation laws and rejects impossible angles", "statement": "The post-shock state computed for a given Mach number and wave angle conserves mass, momentum and energy across the shock, and wave angles below the Mach angle are rejected.", "quantifier": "every Mach number greater than one and wave angle", "why_tests_cant": "Continuum of inputs.", "anchors": ["opensbli/utilities/oblique_shock.py: ShockConditions"]}
{"id": "C59", "title": "Programs with several blocks order the metric and boundary work correctly", "statement": "In multi-block programs every block's kernels of each phase run before any block's kernels of the next phase, so that no block reads halo data of a neighbour before it is produced.", "quantifier": "every number of blocks", "why_tests_cant": "Unbounded number of blocks.", "anchors": ["opensbli/multiblock/algorithm.py: TraditionalAlgorithmRKMB", "opensbli/multiblock/blockcollection.py"]}
{"id": "C60", "title": "The whole generated program solves the semi-discrete system", "statement": "For a periodic problem discretised with central differences, executing the generated program for niter steps on a grid whose size is at least the halo width yields on every grid point the value obtained by niter Runge-Kutta steps of the system du_i/dt = R_i(u), where R_i is the right-hand side with each derivative replaced by its periodic central difference formula, whatever the initial contents of work, residual and halo storage.", "quantifier": "every dimension, grid size, system of equations, number of steps, initial data and initial memory", "why_tests_cant": "End-to-end refinement over all systems, sizes and histories.", "anchors": ["opensbli/core/block.py: discretise", "opensbli/schemes/spatial/scheme.py", "opensbli/schemes/temporal/rk_LS.py", "opensbli/schemes/temporal/rk_sbli.py", "opensbli/code_generation/algorithm/algorithm.py", "opensbli/core/boundary_conditions/periodic.py"]}
{"id": "C61", "title": "Every value read has been computed", "statement": "When a kernel of the generated program reads an array at a point, that array has been computed at that point (by an earlier kernel of the step, a boundary condition, or the initial data).", "quantifier": "every system of equations, constituent relations and stencils", "why_tests_cant": "Depends on the propagation of ranges through arbitrary dependency chains.", "anchors": ["opensbli/schemes/spatial/scheme.py: update_range_of_constituent_relations", "opensbli/equation_types/opensbliequations.py"]}
{"id": "C62", "title": "Output statements compile together", "statement": "In the generated main program no scope declares the same C variable for an output file name twice.", "quantifier": "every number and kind of output requests", "why_tests_cant": "Combinations of requests are unbounded.", "anchors": ["opensbli/core/io_hdf5.py: hdf5write_opsc_code", "opensbli/code_generation/algorithm/algorithm.py"]}
{"id": "C63", "title": "Each solution array advances with the residual of its own equation", "statement": "After one Runge-Kutta stage, each solution array has been advanced with the residual of the equation that contains its time derivative, and no other array has changed.", "quantifier": "every list of simulation equations, every memory, every grid, every coefficient set", "why_tests_cant": "it must hold for every list of equations and every memory content; tests use systems with one time derivative per equation", "anchors": ["opensbli/schemes/temporal/rk_LS.py: discretise, constant_time_step_solution", "opensbli/schemes/temporal/rk_sbli.py: discretise, create_discretisation_kernel", "opensbli/equation_types/opensbliequations.py: create_residual_arrays"]}
{"id": "C64", "title": "TENO has its nominal order", "statement": "Where no candidate is cut off, a TENO scheme of order n reconstructs the interface value of every polynomial of degree n-1 exactly from its cell averages, on both sides.", "quantifier": "orders 5 and 6, both sides, all polynomials, all positions and spacings", "why_tests_cant": "Accuracy for every polynomial; a convergence run mixes in the time integrator and shows only one flow.", "anchors": ["opensbli/schemes/spatial/teno.py: ConfigureTeno.generate_coeffs, generate_opt_coeffs"]}
{"id": "C65", "title": "Shock-capturing and central schemes together compute the right-hand side", "statement": "If a block has a shock-capturing and a central scheme, discretisation of the simulation equations succeeds exactly for the systems the characteristic decomposition fits, and running the generated loops leaves in every residual array, at every grid point, the right-hand side: shock-capturing derivatives as differences of the matching component of the numerical fluxes at the two faces, central derivatives by the central formula, every other term once. Nothing but residual and work arrays changes. A uniform flow gives residual 0; on a periodic block the residual of an equation in divergence form adds up to 0.", "quantifier": "all systems of equations, dimensions, orders, WENO and TENO schemes, set iteration orders, initial contents of the memory and grid points", "why_tests_cant": "which derivative ends up in which component, and which scheme assigns or adds, depends on the whole system and on set order; tests run a few complete applications and compare with stored output", "anchors": ["opensbli/schemes/spatial/weno.py: Weno.group_by_direction, LLFWeno.discretise", "opensbli/schemes/spatial/teno.py: Teno.group_by_direction, LLFTeno.discretise", "opensbli/schemes/spatial/shock_capturing.py: ShockCapturing.evaluate_residuals, generate_left_right_reconstructions", "opensbli/core/opensblifunctions.py: WenoDerivative._discretise_derivative", "opensbli/equation_types/opensbliequations.py: SimulationEquations.spatial_discretisation"]}
{"id": "C66", "title": "Contact waves keep velocity and pressure", "statement": "Where velocity, pressure and metrics are constant along a grid line and only the density varies, the shock-capturing flux at every interface is a mass flux that carries the constant velocity plus the constant pressure flux, so that a time step changes the density only; and that mass flux depends only on the densities in the upwind stencil.", "quantifier": "all WENO orders and variants and TENO 5 and 6, simple and Roe averages, one to three dimensions (in three, metric rows along one axis), all densities, velocities, pressures and time steps", "why_tests_cant": "Holds for every density profile, including discontinuous ones; spurious pressure oscillations in a run can be small and are easily taken for truncation error.", "anchors": ["opensbli/schemes/spatial/shock_capturing.py: LLFCharacteristic, EigenSystem", "opensbli/schemes/spatial/weno.py", "opensbli/schemes/spatial/averaging.py"]}
{"id": "C67", "title": "Dirichlet conditions prescribe the given values on the face and in its halos", "statement": "After a Dirichlet condition every array with a prescribed expression holds, at the boundary point and at every halo point of that side including corners, the value of that expression at that point, and no other value changes.", "quantifier": "every dimension, direction, side, halo width, list of equations whose right-hand sides read no prescribed array, every sweep order over the points", "why_tests_cant": "Ranges over all grid sizes, expressions and states.", "anchors": ["opensbli/core/boundary_conditions/dirichlet.py: DirichletBC.apply", "opensbli/core/boundary_conditions/bc_core.py"]}
{"id": "C68", "title": "Zero-gradient outlets and inlet transfers copy the documented layer", "statement": "After the zero-gradient condition the face holds the value of the first point inside and each halo point the mirror image; after the inlet transfer condition the face holds the value of the first halo point; nothing else changes; the inlet transfer on the upper side is rejected.", "quantifier": "every dimension, direction, side, halo width, state and sweep order", "why_tests_cant": "Ranges over all sizes and states.", "anchors": ["opensbli/core/boundary_conditions/zero_gradient_outlet.py", "opensbli/core/boundary_conditions/inlet_transfer.py"]}
{"id": "C69", "title": "The pressure outlet imposes the back pressure", "statement": "After the pressure outlet condition the face and every halo point of the upper side carry density and momentum of the first interior point and their pressure, computed from the conserved variables, equals the back pressure; the lower side is rejected.", "quantifier": "every dimension, direction, halo width, number of momentum components, state and sweep order", "why_tests_cant": "Ranges over all states.", "anchors": ["opensbli/core/boundary_conditions/pressure_outlet.py: PressureOutletBC.apply"]}
{"id": "C70", "title": "The loops of a generated program can run in any order", "statement": "For a periodic block with central differences, the values of all arrays at the end of the generated program do not depend on the order in which the parallel loops visit the points of their ranges: every launch of every kernel may use its own order. No kernel reads at one point an array element that it writes at another point.", "quantifier": "all systems of equations of the supported form, all constituent relations, orders of accuracy, grid sizes, Runge-Kutta schemes, numbers of iterations, and all visiting orders, chosen per kernel launch", "why_tests_cant": "the order is chosen by the OPS back end (threads, MPI, GPU); a test runs one back end with one schedule", "anchors": ["opensbli/schemes/spatial/scheme.py: Central.SBLI_rhs_discretisation", "opensbli/code_generation/opsc.py: OPSC.kernel_computation_opsc", "opensbli/core/kernel.py: Kernel", "opensbli/schemes/temporal/rk_LS.py", "opensbli/schemes/temporal/rk_sbli.py"]}
{"id": "C71", "title": "Storing only some of the derivatives does not change the residual", "statement": "The low-storage variant of the central scheme, which keeps the first derivatives of a user-chosen list of arrays in memory and evaluates all other derivatives on the fly, computes the same residuals as the variant that stores every derivative: after its kernels have run, the residual array of every equation holds at every grid point the right-hand side with each derivative replaced by the central difference formula, whatever the arrays contained before and in whatever order the points are visited. Apart from residuals and work arrays nothing is changed.", "quantifier": "all systems of equations of the supported form, all lists of stored arrays, orders of accuracy, grid sizes, contents of memory, set and dictionary orders, and visiting orders per kernel launch", "why_tests_cant": "a test compares two variants for one system and one choice of stored arrays; which terms survive depends on the choice and on the form of every term", "anchors": ["opensbli/optimisations/StoreSome.py: StoreSome.SBLI_rhs_discretisation", "opensbli/optimisations/StoreSome.py: StoreSome.SS", "opensbli/schemes/spatial/scheme.py: Central.traverse", "opensbli/schemes/spatial/scheme.py: Central.classify_equations_on_parameter"]}
{"id": "C72", "title": "The shock filter acts only where the solution is not smooth, and only as dissipation", "statement": "The shock-capturing filter is generated for WENO orders 3, 5 and 7 only. The flux it subtracts is the interface form of the central scheme of one order higher. Its nonlinearity sensor lies between 0 and 1, is 0 exactly when the WENO weights are ideal and 1 when all weight is on the least ideal candidate. With ideal weights the remaining flux contains only an odd difference of the conserved variables scaled by the wave speed. A point where fluxes and conserved variables are linear along every grid line within the stencil is not changed. The six points next to every wall are not changed and all others are filtered. On a periodic block the total of each conserved variable changes exactly by the correlation of the filter fluxes with the jumps of the control function, so it is conserved when the control is constant.", "quantifier": "all orders, exponents, regularisations, gas states, grid sizes, dimensions, wall layouts and control functions, on uniform grids", "why_tests_cant": "a test filters a few fields; that nothing happens to smooth data, that totals are conserved and that no order slips through must hold for all of them", "anchors": ["opensbli/filters/WENO_filter.py: WENOFilter", "opensbli/schemes/spatial/shock_capturing.py: LLFCharacteristic.central_diff_formula, post_process", "opensbli/schemes/spatial/weno.py: Weno.compute_sensor"]}
{"id": "C73", "title": "The shock sensors stay in range and vanish where they should", "statement": "The Ducros sensor is available in two and three dimensions only, lies in [0, 1), is zero exactly where the computed divergence is zero and is at least as large in a compression as in the opposite expansion. The control function at a point is the largest sensor value at the point and its two neighbours on each side in each direction. The Mach-number sensor lies in [0, 1] and is zero exactly in a gas at rest.", "quantifier": "all velocity gradients, all sensor arrays and points, all gas states of positive density and pressure", "why_tests_cant": "range and zero set of a nonlinear function over all real inputs cannot be enumerated", "anchors": ["opensbli/schemes/spatial/shock_sensors.py: ShockSensor.ducros_equations", "opensbli/filters/WENO_filter.py: WENOFilter"]}
{"id": "C74", "title": "User-defined equations are evaluated in the order given, at the points requested", "statement": "A list of user-defined equations without derivatives becomes one loop that executes them in the order given at exactly the grid points plus the requested halo points; whatever the order of the points, every point holds the result of the equations started from the initial values, and other points are untouched. A list whose equations all contain derivatives becomes loops that, run in any point order, have the effect of evaluating the equations one after the other on the grid, each derivative by the block's central scheme, and change nothing but the named arrays and work arrays. Equations of a list are never dropped, requested halo points are honoured, and the list can be used with every spatial scheme.", "quantifier": "all lists of equations, all block sizes, orders, halo requests and sets of schemes, all iteration orders of Python sets, all point orders of the loops", "why_tests_cant": "which equations survive and in which order depends on the whole list, on the schemes and on set iteration order, none of which a few test lists cover", "anchors": ["opensbli/utilities/user_defined_kernels.py: UserDefinedEquations.spatial_discretisation", "opensbli/schemes/spatial/scheme.py: Central.discretise, CentralHalos", "opensbli/schemes/spatial/weno.py: ShockCapturing/Weno discretise", "opensbli/filters/WENO_filter.py: create_kernel, evaluate_Ducros_sensor"]}
{"id": "C75", "title": "Periodic programs conserve totals, keep uniform states, restart and translate", "statement": "For a problem on a periodic block, over any number of time steps: the sum over the grid of an array whose right-hand side is a sum of derivatives never changes; a uniform state stays as it is if all right-hand sides are made of derivatives; the result depends only on the advanced arrays at grid points and the arrays the problem is given, not on halos, work arrays, residuals, the register of the time scheme or the order in which sets were iterated when the program was generated; running n1 steps, keeping only these arrays and running n2 more from them is running n1+n2 steps; and moving the initial data around the block moves the result.", "quantifier": "all systems and constituent relations, dimensions, sizes, orders, time schemes, numbers of steps, initial contents of the memory and set iteration orders", "why_tests_cant": "each is a statement about every trajectory of every generated program; a test runs one program from one initial state", "anchors": ["opensbli/core/block.py: SimulationBlock.discretise", "opensbli/code_generation/algorithm/algorithm.py: TraditionalAlgorithmRK.generate_solution", "opensbli/schemes/temporal/rk_LS.py: RungeKuttaLS", "opensbli/schemes/temporal/rk_sbli.py: RungeKutta", "opensbli/core/boundary_conditions/periodic.py: PeriodicBC"]}
{"id": "C76", "title": "The remaining walls, inlets and split boundaries do what they state", "statement": "The Carpenter adiabatic wall sets the momentum on the face to zero, keeps the density and chooses the energy so that the one-sided temperature derivative of the discretisation vanishes. The Lawal inlet gives face and halos the velocity of the first point inside and the isentropic state with that speed and unit stagnation conditions. The forcing strip imposes the given normal momentum and energy with zero tangential momentum, and fills halos as the isothermal wall does when a scheme captures shocks. The pressure inlet takes the first halo point where the inflow is supersonic, and otherwise leaves the face and copies its energy to the halos. The two-dimensional slip wall makes the momentum tangential to the wall and interpolates density, pressure and tangential speed. No other value changes. The parts of a split boundary run their own equations and can each be given their own range.", "quantifier": "all dimensions, sizes, halo widths, directions, sides, array contents, orders in which accesses are visited and orders in which face points are visited", "why_tests_cant": "each is a statement about every state of the flow and every grid; a test compares the generated text of one kernel", "anchors": ["opensbli/core/boundary_conditions/adiabatic_wall_Carpenter.py: AdiabaticWall_CarpenterBC.apply", "opensbli/core/boundary_conditions/inlet_Lawal.py: InletLawalBC.apply", "opensbli/core/boundary_conditions/forcing_strip_wall.py: ForcingStripBC.apply", "opensbli/core/boundary_conditions/inlet_pressure_extrapolate.py: InletPressureExtrapolateBC.apply", "opensbli/core/boundary_conditions/inviscid_wall2D.py: InviscidWall2DBC.apply", "opensbli/core/boundary_conditions/bc_core.py: SplitBC.apply"]}
{"id": "C77", "title": "The initialisation sets what its equations state before the first step", "statement": "After a grid-based initialisation all its equations, including conditional ones, hold at every point of the grid and of the five halos on each side, in whatever order the points are treated; these are all the stored elements of the arrays; nothing else changes. The grid index in an equation is the position of the point. Several initialisations run once each in the order of their numbers, before the time loop, and the program then advances what they leave. If the initialisation sets all advanced arrays and reads only given ones, the solution after any number of steps does not depend on what the memory held before.", "quantifier": "all dimensions, sizes, lists of equations with conditions and local variables, memory contents, orders of points, orders of the classes, periodic problems, time schemes and numbers of steps", "why_tests_cant": "a test looks at the generated text of one kernel; that all points, halos and branches are set, and that nothing stale reaches the solution after any number of steps, is a statement about all memories", "anchors": ["opensbli/initialisation/gridbasedinit.py: GridBasedInitialisation", "opensbli/core/block.py: SimulationBlock.known_datasets, SimulationBlock.discretise", "opensbli/code_generation/algorithm/algorithm.py: TraditionalAlgorithmRK.generate_solution", "opensbli/code_generation/opsc.py: OPSC.kernel_computation_opsc"]}
{"id": "C78", "title": "With walls, symmetry planes and outlets the program is a Runge-Kutta method for the points inside", "statement": "For one block whose faces are symmetry planes, inviscid walls, zero-gradient outlets or periodic pairs, in any combination: the boundary kernels leave at every point of the grid and its halos that a condition determines (edges and corners included) the value the conditions give to the values inside, and these values exist and are unique. The generated program advances the values at the remaining points exactly like an explicit Runge-Kutta method of the order of the time scheme applied to the semi-discrete system with these boundary values. What the halos, the determined points, the work arrays and the registers held before, the order of the points and the order of Python's sets have no influence on the result. After every step the vectors have no component normal to an inviscid wall on the wall.", "quantifier": "all dimensions, sizes, combinations of conditions, metrics, systems of equations with local constituent relations, orders of the scheme, time schemes, step sizes, numbers of steps, memory contents and orders of execution", "why_tests_cant": "tests look at the kernels of single conditions or run one case; corners, stale halos and many steps are covered for all memories and all combinations only by a proof", "anchors": ["opensbli/core/block.py: SimulationBlock.discretise, SimulationBlock.apply_boundary_conditions", "opensbli/core/boundary_conditions/symmetry.py: SymmetryBC.apply", "opensbli/core/boundary_conditions/inviscid_wall.py: InviscidWallBC.apply", "opensbli/core/boundary_conditions/zero_gradient_outlet.py: ZeroGradientOutletBC.apply", "opensbli/core/boundary_conditions/periodic.py: PeriodicBC.apply", "opensbli/equation_types/opensbliequations.py: SimulationEquations.apply_boundary_conditions", "opensbli/code_generation/algorithm/algorithm.py: TraditionalAlgorithmRK.generate_solution"]}
{"id": "C79", "title": "Next to boundaries the discretised right-hand side uses the one-sided formulas, and nothing else changes", "statement": "On a block where any boundary condition may replace the central formulas by one of the one-sided schemes (Carpenter, reduced access, reduced order), in any combination of sides: after the generated kernels have run, the residual of every equation holds at every grid point the right-hand side with each derivative, also of nested derivatives and of products stored in work arrays, replaced by the formula belonging to that point (one-sided next to the boundary, central elsewhere), divided by the right power of the spacing, and no other array is changed. Stale work and residual arrays have no influence. With one-sided formulas at both ends of every direction the halo points have no influence. Derivatives of order three and more in such directions are refused. Without such conditions the kernels are the central ones. With Carpenter boundaries an equation in conservation form changes in total only by the fluxes at the two ends.", "quantifier": "all systems of equations of the supported form, dimensions, sizes, combinations of one-sided schemes, orders of the central scheme, memory contents and orders of Python's sets", "why_tests_cant": "tests compare generated text or a run of one case; that the kernels with Piecewise formulas, work arrays and extended ranges together compute the intended operator for every system and every boundary combination needs a proof", "anchors": ["opensbli/core/opensblifunctions.py: CentralDerivative._discretise_derivative, CentralDerivative.modify_boundary_formula", "opensbli/schemes/spatial/scheme.py: Central.sbli_rhs_discretisation", "opensbli/core/boundary_conditions/bc_core.py: ModifyCentralDerivative, BoundaryConditionTypes.check_modify_central", "opensbli/core/boundary_conditions/Carpenter_scheme.py: Carpenter", "opensbli/core/boundary_conditions/reduced_access_scheme.py: ReducedAccess", "opensbli/core/boundary_conditions/reduced_order_scheme.py: ReducedOrder"]}
{"id": "C80", "title": "Programs with walls, inlets and outlets take the announced steps, and the boundary conditions hold at the end of every run", "statement": "For a single block with, on each side of each direction, any of the conditions periodic, symmetry, inviscid wall, zero gradient, Dirichlet, extrapolation, inlet transfer, pressure outlet, adiabatic wall, isothermal wall, Carpenter's adiabatic wall, forcing strip, Lawal's inlet and pressure-extrapolation inlet, with the one-sided formulas they bring along: for every number of iterations and all initial values the generated program performs exactly the steps of the chosen Runge-Kutta scheme. In every step the conditions are imposed first, each stage takes the right-hand sides of the current values (with the one-sided formulas next to the boundaries), advances the solution at all grid points and imposes all conditions again, direction by direction, lower side first. No array that belongs to the user is changed. Hence at the end of every run of at least one iteration (at points that are not on the faces of a direction treated later): the momentum vanishes on no-slip walls; isothermal walls have the wall temperature; at adiabatic walls the one-sided temperature difference vanishes; at pressure outlets face and halos have the back pressure; Dirichlet values computed from given arrays hold their initial values; extrapolated halos continue the values inside constantly or linearly.", "quantifier": "all problems of the stated form, both time schemes with all their orders, all combinations of conditions and one-sided schemes on the sides, all grid sizes and halo widths that fit, all initial contents of the arrays, all orders in which boundary points are treated, all numbers of iterations and time steps", "why_tests_cant": "A unit test runs a few iterations of one case; that the conditions survive the stages and the conditions applied later, for all initial data and combinations of conditions, needs an invariant over the generated program.", "anchors": ["opensbli/core/block.py:SimulationBlock.apply_boundary_conditions", "opensbli/core/block.py:SimulationBlock.discretise", "opensbli/core/boundary_conditions/bc_core.py:ModifyCentralDerivative", "opensbli/core/boundary_conditions/dirichlet.py", "opensbli/core/boundary_conditions/extrapolation.py", "opensbli/core/boundary_conditions/isothermal_wall.py", "opensbli/core/boundary_conditions/adiabatic_wall.py", "opensbli/core/boundary_conditions/pressure_outlet.py", "opensbli/code_generation/algorithm/algorithm.py:TraditionalAlgorithmRK"]}
{"id": "C81", "title": "Programs with WENO or TENO shock capturing take the announced Runge-Kutta steps of the flux-difference scheme, conserve mass, momentum and energy and keep uniform flow", "statement": "For a single periodic block with a WENO or TENO scheme, with or without a central scheme for the viscous terms, and constituent relations evaluated point by point: the generated program (relations in the order in which they can be evaluated and with the halos that the reconstruction and the central formulas need, reconstruction of the fluxes direction by direction, derivatives, residuals, time stepping, halo exchange) advances the solution, at every grid point and for every number of iterations, by exactly that many steps of the chosen Runge-Kutta method applied to the semi-discrete equations in which every inviscid derivative is the difference of the local Lax-Friedrichs fluxes at the two faces divided by the grid spacing. Arrays that belong to the user are not changed. Hence the totals of conserved quantities never change, uniform states stay, the result depends only on the solution at grid points and the given arrays (not on halo or work contents or set orders), and translated initial data give translated results.", "quantifier": "all equations of the form of C65, all relations that are not circular, WENO of order at least 3 and TENO of order 5 or 6, both time schemes with all their orders, simple or Roe averaging, all grid sizes not smaller than the halos, all initial contents of the arrays, all orders of sets and dictionaries, all numbers of iterations", "why_tests_cant": "A unit test runs one case for a few iterations; conservation and exactness of the steps for every flow and every number of iterations need an invariant over the generated program and the exchanged halos.", "anchors": ["opensbli/schemes/spatial/shock_capturing.py:ShockCapturing.group_by_direction", "opensbli/schemes/spatial/shock_capturing.py:ShockCapturing.update_constituent_relation_symbols", "opensbli/schemes/spatial/shock_capturing.py:ShockCapturing.check_constituent_relations", "opensbli/schemes/spatial/weno.py:LLFWeno", "opensbli/schemes/spatial/teno.py:LLFTeno", "opensbli/equation_types/opensbliequations.py:ConstituentRelations.spatial_discretisation", "opensbli/core/kernel.py:Kernel.merge_halo_range", "opensbli/core/block.py:SimulationBlock.discretise"]}
{"id": "C82", "title": "Programs with shock capturing and walls, inlets or outlets take the announced steps with the boundary conditions imposed at every stage", "statement": "For a single block with a WENO or TENO scheme, with or without a central scheme for the viscous terms, and any mixture of the boundary conditions (periodic, symmetry, walls, inlets, outlets, extrapolation, Dirichlet, forcing strip): the generated program takes as many steps of the time scheme as requested; every stage takes the right-hand side from the current contents of the arrays - differences of the numerical fluxes for the inviscid derivatives, central formulas for the viscous ones with the announced one-sided formulas next to the boundaries - and every stage is followed by all the boundary conditions, which fill the wider halos of the shock-capturing scheme (one more layer on the upper side). Hence, after at least one step, no-slip walls have zero momentum, isothermal walls the prescribed temperature, adiabatic walls zero one-sided temperature difference, outlets the prescribed pressure on the face and in all halo layers, Dirichlet boundaries their prescribed values, extrapolated boundaries constant or linear continuation. Arrays that belong to the user are not changed.", "quantifier": "all equations of the form of C65, all relations that are not circular, WENO of order at least 3 and TENO of order 5 or 6, both time schemes, all mixtures of conditions on the sides, all grid sizes, all initial contents, all orders of sets, dictionaries and of the points of a boundary kernel, all numbers of iterations", "why_tests_cant": "A unit test checks one boundary kernel or one case; that every stage of every program reads only halo values the conditions have filled, with halos that differ from side to side, is a statement about all generated programs and flows.", "anchors": ["opensbli/core/block.py:SimulationBlock.discretise", "opensbli/core/block.py:SimulationBlock.apply_boundary_conditions", "opensbli/core/boundary_conditions/bc_core.py:ModifyCentralDerivative", "opensbli/core/boundary_conditions/forcing_strip_wall.py:ForcingStripBC", "opensbli/schemes/spatial/shock_capturing.py:ShockCapturing", "opensbli/schemes/spatial/weno.py:LLFWeno", "opensbli/schemes/spatial/teno.py:LLFTeno", "opensbli/equation_types/opensbliequations.py:SimulationEquations.spatial_discretisation"]}
{"id": "C83", "title": "The boundary-layer initial conditions set a consistent flow state with uniform pressure on the whole grid and its halos", "statement": "For a boundary layer along one wall (in any direction, two or three dimensions), the kernel that the initial condition adds to the program sets, at every point of the grid and of the halos of the spatial schemes and nowhere else: temperature and the two momenta from the fitted polynomial below the edge and from the free-stream constant above it, density 1/T, zero spanwise momentum in three dimensions, and the total energy that belongs to them; so the pressure is the free-stream pressure 1/(gamma Minf^2) everywhere and the temperature is the fitted one. Coordinates are those computed by the user's equations in the same kernel; all other arrays are as those equations leave them. With a wall below and walls on both sides in the spanwise direction the state is the product profile of the two layers, again with uniform pressure, and it is symmetric about the plane in the middle: spanwise momentum changes sign, everything else is equal. Wrong inputs are rejected: no wall, wrong number of directions, fewer than ten coefficients, three walls, two walls in two dimensions. With the built-in profile (simple variant) density lies between 0.595 and 1, temperature between 1 and 1.68, streamwise momentum between -0.001 and 1 from the wall outwards.", "quantifier": "all fitted coefficients, edges and free-stream values, all grid sizes, halo types of the schemes, user equations for the coordinates, contents of the arrays, orders of the points; for the built-in profile all distances from the wall (down to 0.2 behind it)", "why_tests_cant": "A unit test evaluates one profile at some points; uniform pressure, positivity of density and temperature between the fitted points, symmetry and the coverage of all halos are statements about every point of every grid.", "anchors": ["opensbli/utilities/katzer_init.py:Initialise_Katzer", "opensbli/utilities/simple_katzer_init.py:Initialise_Katzer", "opensbli/core/kernel.py:Kernel"]}
{"id": "C84", "title": "The boundary-layer profiles come from the compressible similarity equations, scaled to unit displacement thickness, and satisfy discrete continuity", "statement": "The system handed to the ODE solver for the initial boundary layer is the compressible similarity system with Sutherland's viscosity: (c f'')' = -f f'' and (c g')' = -Pr f g' - Pr (gamma-1) M^2 c f''^2, with c the product of density and viscosity; for Pr = 1 the gradient of the total enthalpy satisfies a homogeneous equation. For an adiabatic wall each pass of the shooting iteration takes the secant-Newton step for the missed free-stream values, and one step is exact if they depend linearly on the guesses; if the iteration stops early, the profile that is used starts from the reported wall temperature and misses the free stream by less than 1e-10 in total. Coordinates start at the wall and increase; distances are integrals of the temperature, and the displacement thickness is 1. The slope at the wall is exact up to 1e-13 relative for cubics on equidistant points. The profiles are put on the uniform coordinates by the cubic spline through all points; the edge is the first point where the profile stops changing, and an IndexError otherwise. The wall-normal momentum is zero at the wall and balances, by the trapezoidal rule, the central difference in x of the self-similar momentum. The profile polynomial has one coefficient more than requested, is the least-squares one, reproduces data that lie on a polynomial of that degree, and is continued by the value at the edge. Constants given as strings are rejected.", "quantifier": "all solvers for the differential equation, Mach, Prandtl and Reynolds numbers, ratios of specific heats, profiles, numbers of points and coefficients", "why_tests_cant": "A unit test compares one profile with stored numbers; the equations, the Newton property, the unit displacement thickness and the continuity balance are statements about every flow condition and every solution of the equations.", "anchors": ["opensbli/utilities/katzer_init.py:Boundary_layer_profile", "opensbli/utilities/katzer_init.py:Initialise_Katzer"]}
{"id": "C85", "title": "Programs with shock capturing and boundary conditions do not depend on the order in which the points of a loop are visited", "statement": "Each generated kernel is a loop over the points of a range; its body executes all statements of the kernel at one point, and the parallel backends visit the points in any order. For programs with a WENO or TENO scheme, with or without a central scheme, with periodic boundaries or any of the boundary conditions, and for programs with central differences, one-sided formulas at boundaries and any of the boundary conditions, the contents of all arrays after any number of steps are the same whatever the order in which each launch of each kernel visits its points, and equal what the statements of a kernel give when each is applied to all points at once. So the results on what these programs compute hold for every order.", "quantifier": "all problems, block sizes, schemes, boundary conditions, initial contents, numbers of steps, and all orders of the points, chosen anew in each launch", "why_tests_cant": "A race between points shows only for particular orders and particular hardware schedules; a test runs one of them.", "anchors": ["opensbli/code_generation/opsc.py:OPSC.kernel_computation", "opensbli/core/kernel.py:Kernel", "opensbli/schemes/spatial/weno.py:Weno", "opensbli/schemes/spatial/scheme.py:Central"]}
{"id": "C86", "title": "Programs with shock capturing and boundary conditions access declared elements only", "statement": "For programs with a WENO or TENO scheme, with or without a central scheme, with periodic boundaries or any of the boundary conditions, and for programs with central differences, one-sided formulas at boundaries and any of the boundary conditions: every array element that a kernel of the executed program reads or writes lies within the storage declared for that array. What lies outside that storage neither influences the contents of the arrays nor changes, after any number of steps.", "quantifier": "all problems, block sizes, schemes and orders, boundary conditions, initial contents and numbers of steps", "why_tests_cant": "An access outside an array goes unnoticed until the memory behind it matters; each order of scheme, boundary condition and array name has its own accesses.", "anchors": ["opensbli/schemes/spatial/weno.py:WenoHalos", "opensbli/schemes/spatial/teno.py:TenoHalos", "opensbli/core/boundary_conditions", "opensbli/code_generation/opsc.py:OPSC.declare_dataset", "opensbli/core/kernel.py:Kernel.total_range"]}
{"id": "C87", "title": "Programs with shock capturing and boundary conditions start from their initialisations", "statement": "A program with initialisations on the grid, and with any of the boundary conditions, a WENO or TENO scheme, or both, runs each initialisation exactly once, in the order of their numbers and before the time loop, and then takes its time steps from what they leave. In particular an inlet whose values are prescribed from arrays that the program does not advance keeps the values set there by the initialisations. If one initialisation sets all advanced arrays, the result of a program with shock capturing and periodic boundaries does not depend on what else the memory contains, nor on the order in which the points are initialised.", "quantifier": "all problems, schemes, boundary conditions, lists of initialisations and orders of the equation classes, initial contents, outcomes of conditions and numbers of steps", "why_tests_cant": "The order comes from sorting and from the order in which classes are listed; uninitialised memory often contains zeros when tests run.", "anchors": ["opensbli/initialisation/gridbasedinit.py:GridBasedInitialisation", "opensbli/code_generation/algorithm/algorithm.py", "opensbli/core/block.py:SimulationBlock.discretise"]}
{"id": "C88", "title": "The iteration report is added to the time loop and nothing else changes", "statement": "print_iteration_ops(every, NaN_check) puts a statement that reports every so many iterations (and checks an array) into the body of the loop over the iterations of the generated program, as its first statement, and leaves every other character of the program as it was; in general it puts the statement after each line that follows a line which starts such a loop, and raises an exception if there is no line to follow.", "quantifier": "every program text, every interval and every array name", "why_tests_cant": "The text of the program, the number of lines that match and the end of the file are unbounded; the function changes the list it iterates over.", "anchors": ["opensbli/utilities/helperfunctions.py:print_iteration_ops"]}
{"id": "C89", "title": "Data written for a simulation are what the generated program reads", "statement": "Arrays written with output_hdf5 and requested with iohdf5(iotype='Read') under the same file name are declared in the generated program as read from this file, from the group of their block and the dataset of their name, which holds the data given together with the halos per direction, the size and the block; each other array is declared without a file; the file contains nothing else.", "quantifier": "every number of directions, list of arrays and names, halos, sizes, block number, file name, dictionary of datasets and further requests to write", "why_tests_cant": "File names, names of arrays, halos and numbers of directions range over infinite sets and the two sides of the agreement are written by different functions.", "anchors": ["opensbli/utilities/helperfunctions.py:output_hdf5", "opensbli/utilities/helperfunctions.py:set_hdf5_metadata", "opensbli/core/io_hdf5.py:iohdf5.set_read_from_hdf5_arrays", "opensbli/code_generation/opsc.py:OPSC.declare_dataset"]}
{"id": "C90", "title": "Post-processing removes the halo points and nothing else", "statement": "The script that strips halos from an output file writes, for every array of the file, exactly the points of the grid: the shape without halos, and at every index the value at the shifted index of the original. The file is written next to the original with _pp added to its name.", "quantifier": "every number of directions, block, list of arrays, shape, numbers of lower and upper halo points, data and path", "why_tests_cant": "Shapes, halo widths, data and paths range over infinite sets.", "anchors": ["opensbli/postprocess/removehalos.py:read_dataset", "opensbli/postprocess/removehalos.py:strip_halos"]}
