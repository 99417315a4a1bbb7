# Formal model of OpenSBLI in Rocq (Coq 8.16.1)

## Method

OpenSBLI is a Python code generator: Einstein-notation equations are expanded,
discretised (central / WENO / TENO), advanced in time (Runge-Kutta), closed
with boundary conditions, and written out as an OPS C program.  The model
follows the Python code function by function as total Gallina functions.

* Python exceptions are values (`result A := Ok a | Err e`).
* Python sets whose iteration order is unspecified are modelled by lists; a
  theorem about code that iterates over a set quantifies over *every* order
  (every permutation / every list with the right elements).
* SymPy expressions are modelled by an expression tree with an evaluation
  function parametric in the interpretation of the operators, so that a claim
  "same value" holds for real numbers and for floating point alike whenever no
  algebraic law is needed.
* Numerical claims (orders of accuracy, conservation, eigenvectors, boundary
  formulas) are proved over an arbitrary field, over Q, or over Coq's real
  numbers R where order, square roots or trigonometry are needed.  Rounding
  is out of scope.
* Generated programs are modelled by their syntax tree and an execution
  semantics (trace of kernel calls, or effect on arrays over Z^d).

## File layout (rocq/theories)

For every topic `X`:
* `XModel.v`  - the model; every definition cites the Python lines.
* `XSpec.v`   - the independent specification (where the statement needs one).
* `XProofs.v` - lemmas.
* `XProps.v`  - only theorem statements, each closed by `exact`, followed by
  `Print Assumptions`, and the `Example`s showing that hypotheses are met.

Suffix `_partial`: part of the property (what is missing is said next to it).
Suffix `_refuted`: the full property is false of the faithful model; the
theorem exhibits the witness.  These are recorded as findings below.

## Plan per property

| id | modelled | proof method |
|----|----------|--------------|
| C01 | `WorkDataSet` counters as a state machine | induction over operation lists; nested save refuted |
| C02 | `Kernel.__init__`, `%03d`/`%02d` formatting on real strings | injectivity of decimal printing |
| C03, C04 | `get_stencils`, `update_block_datasets` as map updates | invariant over registration histories |
| C05-C07 | `Kernel.opsc_code`, `kernel_computation_opsc` argument lists | list equality for every ordering of the sets; refuted with globals + indexed constants |
| C08 | `wrap_long_lines` on strings | induction over the words |
| C09 | `_print_Max` | induction over arguments |
| C10 | if/else-if/else text as command tree | induction over branches |
| C11, C12 | `RationalCounter`, `ConstantsToDeclare` | invariant over histories |
| C13 | `loop_alg` on trees | structural induction |
| C14 | `write_kernels` file selection | refuted for single block with non-zero number; proved for 0..n-1 |
| C15 | `substitute_simulation_parameters` on strings | proved for suffix-free names, refuted otherwise |
| C16 | halo classes, `declare_dataset` | arithmetic over orders; refuted for large orders |
| C17-C19 | `TraditionalAlgorithmRK.generate_solution`, loop semantics | trace semantics, induction on niter |
| C20 | `sort_dictionary` | termination + topological order invariant |
| C21, C22 | `sort_equation_classes`, `dataobjects_to_datasets_on_block` | list induction; deep nesting refuted |
| C23-C25 | `rk_LS.py`, `rk_sbli.py` programs | ring/field in an arbitrary module; induction over stages and steps |
| C26-C29 | `Central`, `_discretise_derivative`, `increment_dataset` | Lagrange interpolation uniqueness; bijection of periodic sums; substitution lemma |
| C30, C31 | classification, residual kernels | structural induction; refuted cases |
| C32-C37 | WENO/TENO/LLF coefficient generators and weights | interpolation theory, vm_compute over Q for fixed tables, ordered-field reasoning |
| C38, C39 | eigensystem and Roe averages | `field` |
| C40-C42 | Einstein expansion, names, Skew | induction; collisions refuted |
| C43-C49 | boundary conditions | index arithmetic on Z^d, polynomials |
| C50, C51 | metrics, NS relations | `field` in an arbitrary field |
| C52-C54 | filters, spline | binomial theorem, induction on Thomas algorithm |
| C55 | halo ranges | min/max lemmas |
| C56, C57 | IO and monitors | state machine / list reasoning |
| C58 | oblique shock | `field`, real trigonometry; degrees/radians comparison refuted |
| C59 | multi-block algorithm | list reasoning on traces |
| C60 | composition of all of the above | refinement |
| C61 | ranges of nested derivatives and of constituent relations (`DiscModel`, `ProgModel`) | independence of the residual from stale contents, by running from two memories; counterexamples computed |
| C62 | `io_hdf5.py` file names | list reasoning; refuted for two unnamed requests |
| C63 | pairing of equations, residuals and advanced arrays in the RK kernels (`AdvModel`) | induction over the statements of the kernels |
| C64 | TENO optimal weights | exactness on polynomials, counterexample one degree higher |
| C65 | shock-capturing and central schemes on one system (`HybModel`) | invariant of the grouping by direction; run of the reconstruction kernels followed by C31's viscous kernels; summation over a periodic block; counterexamples run symbolically |
| C66 | LLF flux on contact waves | reduction of the characteristic fluxes to one scalar reconstruction |
| C67-C69 | Dirichlet, zero-gradient and pressure-outlet conditions | execution of the boundary kernels point by point |
| C70 | Order of the points in the loops | point-by-point execution of every kernel with an arbitrary schedule; each kernel reads what it writes only at the point itself |
| C71 | StoreSome (`SomeModel`) | execution of the kernels point by point with an arbitrary schedule; local variables replaced by their values; counterexamples computed |
| C72 | the WENO filter on uniform grids (`WFModel`) | convexity bounds for the sensor; indicators of linear data by uniqueness of interpolation; summation by parts over a block |
| C73 | Ducros, Mach-number and neighbourhood sensors (`WFModel`) | real analysis of tanh and the quotients; induction over the fold of maxima |
| C74 | user-defined equations and their kernels (`UserModel`) | simulation of the kernels by the derivative and equation kernels of C31, induction over the list; loop lemma of C71 for point orders |
| C75 | the generated programs of C60 over many steps (`InvSpec` bundles the hypotheses) | the semi-discrete system exists when relations are not circular; its slopes sum to zero, vanish on uniform data and commute with translations; each carries over to Runge-Kutta steps and their iteration |
| C76 | the walls and inlets not covered by C46 and C67-C69 (`BC2Model`) | a kernel is a list of local variables and of assignments at offsets from the face; one lemma runs such a list point by point in any order of the points; gas relations and trigonometry over the reals |
| C77 | grid-based initialisation and programs with it (`InitModel`) | each equation holds after it ran and is not disturbed by later ones; points do not disturb each other; C17 places the kernels, C60 and C75 do the rest; counterexample run with a Runge-Kutta method on a constant slope |
| C78 | assembly and execution of programs with symmetry planes, inviscid walls, zero-gradient outlets and periodic faces (`BndModel`, on `BCModel` and `ProgModel`) | every near point by induction on the last direction that determines it; the kernels of one direction after the other establish the values of that direction (C43, C44, C52 at faces and halos); uniqueness gives independence of stale values; then the stage invariant of C60 on the free points |
| C79 | discretisation of the simulation equations on a block with one-sided formulas: `Piecewise` right-hand sides, work arrays, ranges (`SideModel`, on `DiscModel` and `OneModel`) | the invariants of C31 (which work arrays are correct where) with the central operator replaced by the one that belongs to the point (C47); a specification `sem1` that applies the formula of the point to the values of the argument; refusal by following the first third derivative met; conservation by the summation-by-parts property (C28) |
| C80 | the whole program with any of the boundary conditions (`FaceModel`, on `BndModel`, `SideModel`, `BCModel`, `BC2Model`): kernels of every condition in the order of `apply_boundary_conditions`, spatial kernels with one-sided formulas, time stepping, the program text and its execution | a relational specification (`FaceSpec`): what each condition imposes, what a stage and a step do; every condition's kernel satisfies its clause (from C44-C46, C67-C69, C76), the spatial kernels give the right-hand sides (C79), induction over stages and steps along the trace of C17; the corollaries follow the last imposition through the directions applied after it |
| C81 | the whole program with shock capturing (`CapModel`, on `HybModel`, `ProgModel`, `OrdModel`, `KernelModel`, `BCModel`): required symbols of the eigensystem and the fluxes by direction, halos of the relation kernels merged over both schemes, sorting, reconstruction and derivative kernels, time stepping, periodic exchange with the halos of both schemes, the program text and its execution | semi-discrete system with flux differences (`CapSpec`): every stage reads only points inside the exchanged halos and relations inside their ranges (`CapProofs`), so residuals are those of C65 on the periodic extension; then the argument of C60. Conservation, uniform states, independence and translations (`CapMore`) by carrying the system along maps of the points, as C75 |
| C82 | the whole program with shock capturing and boundary conditions of all kinds (`ShkModel`, on `HybModel`, `CapModel`, `SideModel`, `FaceModel`): spatial kernels of the two schemes, conditions with the halos of both schemes, the forcing strip with halos | right-hand sides of contents (`ShkSpec`: fluxes of C37, formulas of C79, relations on the halos); `ShkProofs` joins the run of the shock-capturing kernels (`HybProofs`), of the one-sided central kernels (`SideRun`) and of the relations on their merged ranges (`CapProofs`); steps and consequences by the invariants of C80 (`FaceTime`, `FaceEnd`) with halos of different widths |
| C83 | the equations and the kernel of both boundary-layer initial conditions (`KatzModel`: polynomials and Piecewise expressions as built by form_equation and form_mixed_equation, input checks, kernel range from the halo types of the spatial schemes), run with the initialisation kernels of `InitModel` | profiles, product state, covered points in `KatzSpec`; `KatzProofs` evaluates the equations in order at a point and shows the rest of the kernel does not interfere; bounds of the built-in polynomials by expansion around midpoints and bisection with integer arithmetic, proved sound in `KatzPoly` |
| C84 | the numbers behind the fitted profiles (`SimModel`: right-hand side of the similarity equations, shooting iteration, integration and scaling, wall slope, spline onto the uniform coordinates, edge search, continuity, fit) over the real numbers, odeint and polyfit as arbitrary functions | Sutherland's law, wall values, trapezoidal rule and least squares in `SimSpec`; derivatives from the standard library's analysis, Newton step by solving the 2x2 system, spline from C54; refutations by explicit solvers |
| C85 | the programs of C80-C82 executed point by point (`Loop2Model`: the body of a kernel with all its statements at one point, `ops_par_loop` as a fold over the points in the order of that launch) | `any_order_of`: every launch visits each point of its range once; a generic lemma on bodies that write at their own point and read there only, or read arrays they do not write; each kind of generated kernel is shown to be of that form; kernels of boundary conditions access only the line through their point across the boundary, or their point itself (`Loop2Wall`), so that no two points of a kernel touch the same location |
| C86 | the programs of C80-C82, with the storage of C16 (`StoreModel`) | `touched`: the elements a kernel reads or writes, for every kind of kernel (one-sided rows only where they are selected, reconstructions over their stencil, wall kernels at their points); kernel by kernel the accesses are bounded by halos of at most five; refuted for WENO order 9 and more by the reconstruction kernel |
| C87 | the blocks of C80-C82 with the initialisations of C77 (`Init2Model`) | for any block with one simulation class the program with initialisations is split, with C17 and C56, into the initialisations in the order of their numbers and the program without them; then C80, C81, C82 |
| C88 | `print_iteration_ops` on texts as lists of characters (`HelpModel`) | induction over the lines; a match in a changed line is a match in the line itself, because every `;` of the added text follows a `)` |
| C89 | `output_hdf5`, `set_read_from_hdf5_arrays`, `declare_dataset` (`HelpModel`) with the requests of `AlgModel` | induction over arrays and dictionaries; refuted for one and three directions, for names with capitals and for arrays without a kernel |
| C90 | `removehalos.py` on nested lists with Python's slices (`StripModel`) | induction over the axes; refuted for different halos, one direction, several blocks, names with several dots |

C16 was extended after the first plan: `StoreModel` models the arrays' declared halos and the ranges
of the shock-capturing kernels, and the theorem covers every kernel of whole periodic programs.

## Trusted base

* Coq 8.16.1 kernel (with `vm_compute`) and, for the gate, `coqchk`.
* The reading of the Python sources: the model is hand-written, definition by definition, each with
  the file and lines it models and the simplifications made.
* The model of what is outside the repository: SymPy (`diff`, `subs`, `atoms`, `solve`,
  `finite_diff_weights`, `integrate`, printing of Python numbers), Python (`%` formats, `sorted`,
  dictionaries, sets in arbitrary order) and the OPS library (`ops_par_loop` runs its kernel at every
  point of the range, `ops_halo_transfer` copies boxes).  These are stated in the comments of the
  model files.
* Real arithmetic is exact: floating-point rounding is not modelled.
* What `Print Assumptions` lists, below.  Only axioms of the standard library occur.  No axiom, no
  section-less variable, no functor, no module type is defined here.

### What is modelled

| repository file | model | parts left out |
|---|---|---|
| core/grid.py, core/block.py | WorkModel, OrdModel, KernelModel, StoreModel | metric accessors, naming of grid constants |
| core/kernel.py | KernelModel | LaTeX output |
| code_generation/opsc.py | CodeModel, KernelModel (calls), MBModel (halo exchange), StoreModel (declarations) | text of the `main` preamble and declarations; of the expression printer only constants, `Max`, rationals and data sets |
| code_generation/algorithm/algorithm.py, multiblock/algorithm.py, multiblock/blockcollection.py | AlgModel | LaTeX, text of timers |
| core/io_hdf5.py, core/diagnostics/simulation_monitors.py | AlgModel, HelpModel, MonModel | HDF5 itself |
| equation_types/opensbliequations.py | OrdModel, AdvModel, DiscModel, HybModel (order of the schemes) | user kernels outside the simulation equations |
| schemes/temporal/rk_LS.py, rk_sbli.py | RKModel, AdvModel | |
| schemes/spatial/scheme.py | FDModel, ShiftModel, DiscModel | the driver `discretise` |
| filters/WENO_filter.py, schemes/spatial/shock_sensors.py, filter parts of shock_capturing.py and weno.py | WFModel | metric terms, airfoil masks, the kernels and their ranges, the SymPy text of the sensor equations |
| optimisations/StoreSome.py | SomeModel | constituent relations (`check_missing_constituent_relations`, `update_range_of_constituent_relations`) |
| schemes/spatial/weno.py, teno.py | WenoModel, TenoModel | sensor kernels |
| schemes/spatial/averaging.py, shock_capturing.py, physical_models/euler_eigensystem.py | EulerModel, LLFModel, HybModel (grouping, work arrays, residuals) | metric terms of the derivatives |
| core/parsing.py | EinModel, SkewModel | tokenising by SymPy's parser |
| core/opensblifunctions.py | EinModel, ShiftModel, MetModel, LLFModel, OneModel | printing methods |
| core/boundary_conditions/*.py | BCModel, BC2Model, MBModel, OneModel | printing; the loss of one-sided derivatives when a wall is inside SplitBC |
| equation_types/metric.py | MetModel | metric boundary and interface kernels |
| physical_models/ns_physics.py | NSModel, BCModel | |
| filters/SFD.py, binomial_filter.py | FiltModel | grid condition of the binomial filter |
| utilities/numerical_functions.py, oblique_shock.py | SplineModel, ShockModel | |
| utilities/user_defined_kernels.py | UserModel | `algorithm_place`, block bookkeeping (`update_block_datasets`) |
| initialisation/gridbasedinit.py | InitModel | equations with derivatives, name of the kernel |
| composition for one block; loops of the generated code | ProgModel, BndModel, FaceModel, CapModel, ShkModel, Init2Model, LoopModel, Loop2Model | whole programs with several blocks, split conditions or InviscidWall2DBC |
| utilities/katzer_init.py, simple_katzer_init.py | SimModel, KatzModel | see the comments there |
| utilities/helperfunctions.py | CodeModel (`substitute_simulation_parameters`), HelpModel (`print_iteration_ops`, `output_hdf5`) | HDF5 itself |
| postprocess/removehalos.py | StripModel | HDF5 itself |

Not modelled at all: postprocess/post_process_eq.py, code_generation/latex.py,
core/datatypes.py and the apps.

### Findings

Behaviour of the code that contradicts what a user would expect.  The first list is proved
(`_refuted` theorems), the second was noted while reading and is not proved.

Proved:
* `C01_nested_resume_refuted`: a nested save overwrites the single saved slot: the outer restore resumes one array too late.
* `C05_call_matches_signature_refuted`: With a global value and an indexed constant in one kernel, the two texts are out of step whatever the iteration order.
* `C05_parameter_names_refuted`: two elements of one indexed constant give two formal parameters with the same name, which is not valid C.
* `C06_global_modes_refuted`: a global value that a kernel assigns is passed read-only.
* `C11_shared_constants_refuted`: A user constant named like a generated one silently takes its place: the rational printed as rc0 is never declared.
* `C14_kernel_files_refuted`: A single block with number 1 makes generation fail, and blocks listed in another order swap their kernels.
* `C15_substitution_refuted`: when one name ends in another, the constant gama receives the value given for a and its own value is lost.
* `C16_order_limit_refuted`: Above order 10 no such program stays inside the storage: its first exchange of the boundary values writes outside the array.
* `C16_names_refuted`: An advanced array whose name contains "Residual" has no halo points, but its derivative reads them.
* `C16_sibling_refuted`: With two sibling derivatives inside another one, the range of the first grows in the direction of the second. If that is its own direction, it reads twice as far: outside the array from order 6 on.
* `C19_every_class_contributes_refuted`: With two sets of simulation equations, the residuals and boundary conditions of one of them are left out of the program without an error.
* `C20_succeeds_refuted`: An acyclic chain of 1001 relations is rejected.
* `C22_nesting_refuted`: Deeper nesting is not kept: equations are put in the wrong group and lost.
* `C28_shift_refuted`: an access moved onto one that is treated later is moved twice.
* `C29_formula_refuted`: The full claim fails when an array is accessed at two stencil points.
* `C30_no_term_lost_refuted`: The full claim is false: a right-hand side that is a single derivative, and a function of the solution, are lost.
* `C31_residual_refuted`: Without a convective derivative, the residual array is added to, never assigned.
* `C31_variable_viscosity_refuted`: SymPy replaces larger patterns first; with that order an outer derivative of a product with an inner one stays in the residual undiscretised.
* `C35_teno6_mirror_refuted`: For TENO6 only the candidates mirror; because of the missing square the reconstructions do not, shown for eps = 1e-15 and CT = 1e-5.
* `C36_right6_indicator_refuted`: the fourth right-sided indicator of TENO6 misses a square (teno.py 167): it vanishes, and can be negative, on fields that are not smooth.
* `C40_expansion_refuted`: u_j*u_j becomes the power u_j**2 and is not summed; k = u_j*u_j is rejected.
* `C40_square_accepted_refuted`: k_j = u_j*u_j, which has no meaning in the convention, is accepted.
* `C40_order_refuted`: With two free indices the order of the equations depends on the order in which Python lists a set.
* `C41_apply_index_refuted`: index names where one begins with another: applying i to u_i_ii spoils the index ii.
* `C41_unambiguous_refuted`: Otherwise names can collide: component 2 of u1 and component (1, 2) of u; components (1, 11) and (11, 1) of one tensor.
* `C42_other_shapes_refuted`: sums and powers are accepted by Skew and treated as products; with two directions the mixed terms are missing.
* `C43_upper_layer_refuted`: if the upper halo is wider than the lower one, as for WENO, the outermost upper layer keeps its old value.
* `C43_direction_width_refuted`: the widths of direction 0 are used in all directions: a wider halo in another direction is not filled.
* `C43_interior_overwritten_refuted`: if the upper width is more than twice the lower one, interior values are overwritten with unfilled halo values.
* `C44_normal_zero_refuted`: the symmetry condition never writes the boundary points, so the normal momentum there stays what it was.
* `C46_isothermal_positive_refuted`: if the first point inside is at least twice as hot as the wall, the extrapolated halo temperature is not positive.
* `C47_reduced_order_upper_refuted`: With the reduced-order scheme at the upper end, the second derivative at the last point has the wrong sign: of x^2 it is -2.
* `C47_carpenter_degree_four_refuted`: Degree 3 is the best the Carpenter first derivative does: degree 4 fails at one of the first four points.
* `C48_lower_to_upper_refuted`: the exchange from a lower to an upper face given as (block, direction, 1) copies the layers in reverse order.
* `C48_lower_to_lower_refuted`: likewise between two lower faces given as (block, direction, 0).
* `C48_directions_refuted`: the exchange from the upper face of direction 0 to the lower face of direction 1 leaves a halo point unfilled.
* `C50_nested_refuted`: With nested derivatives the result depends on the order: if the inner one is visited first, the outer one is left untransformed.
* `C51_speed_of_sound_refuted`: The relation supplied for the speed of sound a is its square.
* `C51_viscosity_refuted`: Asking for the viscosity gives the momentum arrays; relations for the total energy and the viscosity do not exist.
* `C52_order_of_points_refuted`: the binomial filter updates its arrays in place: the result depends on the order in which the points are visited.
* `C52_in_place_refuted`: run in place, the binomial filter neither removes the alternating wave nor keeps the mean.
* `C52_negative_order_refuted`: A negative even order is accepted and has no weights: constants are then scaled by 1 - sigma.
* `C58_mach_angle_refuted`: degrees are compared with radians: at M = 2 a wave of 10 degrees, below the Mach angle, is accepted although it expands the gas.
* `C58_freestream_refuted`: The free-stream pressure assumes a unit free-stream velocity: with another velocity the momentum flux is not the same on both sides.
* `C61_sibling_range_refuted`: Two derivatives inside a third: the range of the first is extended in the direction of the second instead of the third, and the third reads points that are not computed.
* `C61_same_direction_refuted`: A derivative of a derivative in the same direction: if the set lists the outer one first, its kernel runs first and reads an array computed later.
* `C61_constituent_range_refuted`: a relation that needs another relation in the halo reads points where that one is not evaluated.
* `C62_output_buffers_refuted`: with two unnamed write requests the same C variable is declared twice in main.
* `C63_update_refuted`: if an equation contains two time derivatives, the second array gets the residual of the next equation.
* `C64_nominal_order_refuted`: TENO5 and TENO6 are exact to degree 3 and 4 only, one less than nominal.
* `C65_order_refuted`: Hybrid schemes: if the central scheme is set before the shock-capturing one, the viscous terms are computed and then overwritten.
* `C65_function_refuted`: Hybrid schemes: functions of the solution in an equation (sin, exp, ...) are silently replaced by 0.
* `C65_reynolds_source_refuted`: Hybrid schemes: a term with the Reynolds number but without derivative is counted twice as soon as some equation has a viscous derivative.
* `C65_overwritten_refuted`: Hybrid schemes: one central derivative in a term without the Reynolds number makes the central scheme assign all residuals; the shock-capturing part of every equation is lost.
* `C52_order_of_points_refuted`: the binomial filter updates its arrays in place: the result depends on the order in which the points are visited.
* `C71_viscous_lost_refuted`: StoreSome: if every derivative in the viscous terms is stored, no kernel evaluates the viscous terms: the residual is that of the convective terms alone.
* `C71_no_kernels_refuted`: StoreSome: if every derivative of the equations is stored, no kernel at all is generated and the residual is never computed.
* `C71_inner_not_stored_refuted`: StoreSome: a derivative inside another one that is not stored is left undiscretised in the generated statement.
* `C71_mixed_refuted`: StoreSome: a derivative that is not stored next to a stored one inside a third one raises AttributeError.
* `C71_sibling_range_refuted`: StoreSome: two stored derivatives inside a third: the range of the first is extended in the wrong direction and the third reads points that are not computed.
* `C74_dropped_refuted`: User-defined equations: if one equation of a list has a derivative, the equations without one are silently dropped.
* `C74_halos_refuted`: User-defined equations: requested halo points are ignored as soon as there is a derivative; the Ducros sensor of the WENO filter is not computed at the halo points the filter reads.
* `C74_weno_refuted`: User-defined equations: a block with a WENO scheme raises UnboundLocalError for every non-empty list.
* `C74_order_refuted`: User-defined equations: the kernel of an outer derivative may come before that of the derivative it contains, depending on set order.
* `C74_local_refuted`: User-defined equations: with derivatives, a local variable assigned in one equation is undeclared in the kernel of the next.
* `C76_split_blocks_refuted`: the ranges of split boundaries of two blocks are the same constants, so the blocks cannot be split differently.
* `C76_strip_halo_velocity_refuted`: with shock capturing, the halos of the forcing strip mirror the velocity as at a wall at rest, so the mean across the wall is not the prescribed velocity.
* `C76_inlet_pressure_refuted`: with subsonic inflow the energy, not the pressure, is copied to the halos.
* `C76_slip_reads_refuted`: at the ends of the face the two-dimensional slip wall reads coordinates beyond the halos.
* `C77_relation_refuted`: an array that has a constituent relation and is also set by the initialisation counts as known, so its relation is left out of the program and the array keeps its initial values for ever.
* `C83_side_wall_refuted`: the boundary-layer initial condition with two walls always takes direction 2 for the second wall, also if directions 0 and 1 were requested; nothing is reported.
* `C83_simple_profile_refuted`: the built-in profile of the simple boundary-layer initial condition is discontinuous: the wall-normal momentum jumps by more than a third at the edge (0.0039 below, 0.00565 above), and the streamwise momentum at the wall is -0.00066.
* `C83_wall_normal_refuted`: the boundary-layer initial condition stores the wall-normal momentum in rhou1 whatever the direction of the wall; with a wall in direction 2 it ends up parallel to the wall.
* `C84_wall_temperature_refuted`: if the shooting iteration does not stop within five passes, the kept solution is that of the last incremented guess; its wall temperature differs from the reported one, which is used for scaling, and nothing is reported.
* `C84_isothermal_refuted`: with a prescribed wall temperature the first guess and so the first increment of the shooting iteration are zero: the first pass divides by zero unless the fixed slope 1.141575 happens to give the solution.
* `C84_wall_slope_refuted`: the six-point slope at the wall assumes equidistant points, but the points are equidistant only in the similarity coordinate; the slope of a linear profile can be wrong by 25 percent.
* `C86_weno_limit_refuted`: With WENO schemes of order 9 and more the reconstruction reads the density outside its declared storage: arrays are declared with five halo points, the stencil of the last interface ends at n + (order+1)/2.
* `C89_directions_refuted`: output_hdf5 works for two-dimensional blocks only: it demands exactly two halo entries with as many numbers each as there are directions, then reads them as pairs (lower, upper) of two directions. A one-dimensional block never gets a file with data; a three-dimensional one is refused when halos are given for three directions, and otherwise gets metadata for two.
* `C89_capitals_refuted`: iohdf5 lower-cases the values of its keyword arguments, the file name among them; output_hdf5 does not. A file written as Data.h5 is looked for as data.h5.
* `C89_unused_refuted`: a request to read an array that no kernel uses never gives a program: set_read_from_hdf5_arrays either uses its local variable dset before assignment or stores an access in place of a dataset, which OPSC refuses.
* `C90_upper_halos_refuted`: removehalos.py removes as many points at the upper end as there are lower halo points and never looks at d_p.
* `C90_one_direction_refuted`: for one-dimensional data removehalos.py refers to an undefined name (group).
* `C90_blocks_refuted`: of a file with several blocks only the first is stripped and written; the others are lost without a message.
* `C90_output_name_refuted`: the output name is cut at the first dot of the file name, so case.1.h5 and case.2.h5 are written to the same file.

Noted while reading:
* `LLFTeno` without a sensor raises ValueError; TENO order 8 is listed but rejected.
* `rk_LS` orders other than 3 and 4 raise UnboundLocalError.
* `metric.py` iterates over a set with `subs`, so the result for dependent substitutions depends on
  hash order; third-order derivatives raise UnboundLocalError.
* The isothermal wall adds its equations cumulatively, so later kernels contain duplicates.
* `WENOFilter.process_metrics` leaves `self.stretched` unset when no direction is stretched.
* `Weno.__init__` returns a list, so `Weno(order, formulation)` raises TypeError.
* A TENO scheme silently ignores the derivatives of user-defined equations.
* `_print_Mod` drops the printer settings; a repeated `ConstantIndexed` is declared twice.
* `StoreSome` replaces its method `derivatives_to_store` by a list, so a second block raises TypeError.
* The multi-block algorithm uses `iteritems` and `cmp` (Python 2 only).
* The WENO filter multiplies the difference of the filter fluxes by the sensor at the point, so it is not
  conservative where the sensor varies (`C72_conservation` gives the exact change).
* `removehalos.py` fails in one dimension (NameError); `set_hdf5_metadata` mixes the lower and upper
  halo in its layout.
* SplitBC is not a ModifyCentralDerivative, so the one-sided derivatives of the walls inside it are not used.
* The temperature of the Lawal inlet is scaled with the speed of sound, the one of the walls with Minf^2: T_wall = Minf^2 T_Lawal.

### Print Assumptions

Generated from the theorems listed in MANIFEST.json.

No axioms ("Closed under the global context") (135 theorems):
C01_no_live_array_reused, C01_routine_distinct, C01_resume_depth_one, C01_nested_resume_refuted,
C02_kernel_names_distinct, C02_array_names_distinct, C03_stencils_exact,
C03_every_kernel_enumerable, C04_arrays_declared_once, C05_argument_count,
C05_call_matches_signature_partial, C05_call_matches_signature_refuted,
C05_parameter_names_refuted, C05_parameters, C06_array_modes_partial, C06_global_modes_refuted,
C07_access_numbers, C08_wrapping, C09_fmax, C10_first_true_branch, C11_shared_constants_partial,
C11_shared_constants_refuted, C12_declared_once_in_order, C12_defined_before_use,
C13_all_kernels_once, C14_kernel_files_partial, C14_kernel_files_refuted, C15_substitution_partial,
C15_substitution_refuted, C16_central_halos_exact_partial, C16_weno_storage, C16_teno_storage,
C17_time_loop, C18_output_files, C19_every_class_contributes_partial,
C19_every_class_contributes_refuted, C20_order_is_valid, C20_succeeds_partial,
C20_succeeds_refuted, C20_kernels, C21_classes_ordered, C22_nesting_partial, C22_nesting_refuted,
C28_exact_condition, C28_shift_partial, C28_rejects_unplaced, C28_shift_refuted,
C29_rejects_constants, C30_groups, C31_variable_viscosity_refuted, C40_expansion_partial,
C40_accepted_partial, C40_levi_civita, C40_expansion_refuted, C40_square_accepted_refuted,
C40_order_refuted, C41_apply_index_partial, C41_unambiguous_partial, C41_apply_index_refuted,
C41_unambiguous_refuted, C42_rejected_partial, C43_periodic_partial, C43_frame,
C43_upper_layer_refuted, C43_direction_width_refuted, C43_interior_overwritten_refuted,
C45_constant, C45_other_orders, C48_interface_partial, C48_upper_faces_partial,
C48_lower_to_upper_refuted, C48_lower_to_lower_refuted, C48_directions_refuted, C49_plane,
C49_no_such_direction, C49_types, C49_reading_order,
C50_parameters, C50_nested_refuted, C51_viscosity_refuted,
C51_arrays_read, C52_accepted, C53_dimensions, C53_initial, C55_total_range, C55_set_halo_range,
C55_merge_halo_range, C56_places, C56_accepted, C56_any_case, C56_small_letters,
C57_one_probe_per_pair, C57_format, C57_probe_value, C57_fires, C59_phases_of_all_blocks,
C59_schemes_agree, C61_sibling_range_refuted, C61_same_direction_refuted,
C62_output_buffers_partial, C62_output_buffers_refuted, C65_accepted, C67_dirichlet,
C68_zero_gradient, C68_inlet_transfer, C71_no_kernels_refuted, C71_inner_not_stored_refuted,
C71_mixed_refuted, C71_sibling_range_refuted, C74_pointwise, C74_dropped_refuted,
C74_halos_refuted, C74_weno_refuted, C74_order_refuted, C74_local_refuted, C76_slip_refused,
C76_split, C76_split_blocks_refuted, C77_storage, C83_inputs, C83_side_wall_refuted,
C83_simple_inputs, C84_constants, C90_interior_partial, C90_upper_halos_refuted,
C90_one_direction_refuted, C90_blocks_refuted, C90_output_name, C90_output_name_refuted,
C88_report, C88_first_in_loop, C89_read_back_partial, C89_directions_refuted, C89_capitals_refuted,
C89_unused_refuted.

`ClassicalDedekindReals.sig_forall_dec`, `ClassicalDedekindReals.sig_not_dec`, `FunctionalExtensionality.functional_extensionality_dep` (107 theorems):
C16_storage_partial, C16_order_limit_refuted, C16_names_refuted, C23_low_storage_third_order,
C23_low_storage_fourth_order, C23_rejected_orders, C23_local_error, C23_stability_polynomial,
C25_steady_state, C25_linear_invariants, C37_split, C37_speed_attained, C37_local,
C37_conservation, C38_inverse, C38_eigenvectors, C38_diagonalises, C38_simple_average_admissible,
C39_roe_jump, C39_roe_admissible, C39_roe_consistent, C44_symmetry, C44_inviscid_wall,
C44_inviscid_wall_tangential, C44_symmetry_boundary_untouched, C44_normal_zero_refuted, C45_linear,
C45_linear_exact, C46_adiabatic, C46_isothermal, C46_isothermal_temperature,
C46_isothermal_positive_refuted, C47_exact_partial, C47_orders, C47_reduced_order_upper_refuted,
C47_carpenter_degree_four_refuted, C47_carpenter_summation_by_parts, C47_carpenter_energy_and_mass,
C47_no_halo_points, C51_relations_agree_partial, C51_gas_law, C51_answers,
C51_speed_of_sound_square, C51_speed_of_sound_refuted, C52_formula, C52_linear_unchanged,
C52_no_new_extrema, C52_alternating_partial, C52_mean_partial, C52_order_of_points_refuted,
C52_in_place_refuted, C52_negative_order_refuted, C53_step, C60_program_partial,
C65_residual_partial, C65_conservation, C65_order_refuted, C65_function_refuted,
C65_reynolds_source_refuted, C66_contact_state, C69_pressure_outlet, C70_any_order_partial,
C70_no_races_partial, C72_supported, C72_conservation, C73_yee, C75_conservation, C75_uniform,
C75_problem, C75_restart, C75_translation, C76_forcing_strip, C76_strip_halo_velocity_refuted,
C77_program, C77_memory, C77_relation_refuted, C78_boundary_conditions, C79_residual_partial,
C79_no_stale_value_partial, C79_no_halo_points_partial, C79_unmodified, C79_refused,
C79_central_inside, C79_carpenter_conservation_partial, C81_program_partial, C81_conservation,
C81_uniform, C81_problem, C81_translation, C83_one_wall, C83_uniform_pressure, C83_two_walls,
C83_two_walls_pressure, C83_symmetric, C83_simple, C83_wall_normal_refuted, C84_equations,
C84_enthalpy, C84_continuity, C85_capturing_any_order, C85_capturing_program_partial,
C86_faces_partial, C86_bounded_partial, C86_capturing_partial, C86_weno_limit_refuted,
C87_capturing_partial, C87_memory.

`ClassicalDedekindReals.sig_forall_dec` (7 theorems):
C16_sibling_refuted, C47_expressions, C63_low_storage_update_partial, C63_sbli_update_partial,
C63_update_refuted, C77_equations, C77_index.

`ClassicalDedekindReals.sig_forall_dec`, `FunctionalExtensionality.functional_extensionality_dep` (68 theorems):
C16_weno_kernels, C16_teno_kernels, C24_sbli_third_order, C24_local_error,
C24_stability_polynomial, C26_polynomials_exact, C26_odd_order_rounds_down, C27_conservation,
C27_summation_by_parts, C27_second_derivative, C27_skew_conserves, C29_formula_partial,
C29_exact_on_polynomials, C29_formula_refuted, C30_no_term_lost_partial, C30_no_term_lost_refuted,
C31_residual_partial, C31_residual_refuted, C33_weights_positive, C34_supported, C35_teno5_mirror,
C35_teno6_candidates_mirror, C35_teno6_mirror_refuted, C36_supported, C36_survivor, C36_partition,
C36_cutoff_bound_needed, C36_smooth_linear, C36_adaptive_cutoff, C37_stencil_width, C37_telescopes,
C38_state_sound_speed, C42_product_rule, C42_derivative, C42_discrete_conservation,
C42_other_shapes_refuted, C44_reflection, C44_projection, C54_spline, C54_reproduces_cubics,
C54_repeated_knot, C61_no_stale_value_partial, C61_constituent_range_refuted,
C64_nominal_order_refuted, C66_upwind_weno, C71_residual_partial, C71_same_residual_partial,
C71_viscous_lost_refuted, C72_central_flux, C72_pure_dissipation, C72_near_walls, C73_kappa_max,
C74_differential_partial, C74_unnested_partial, C83_simple_profile_refuted, C84_newton_step,
C84_newton_exact, C84_kept_solution, C84_wall_temperature_refuted, C84_isothermal_refuted,
C84_coordinates, C84_reported, C84_wall_slope, C84_wall_slope_refuted, C84_interpolated, C84_edge,
C84_fit, C84_scaling.

`ClassicalDedekindReals.sig_forall_dec`, `ClassicalDedekindReals.sig_not_dec`, `Classical_Prop.classic`, `FunctionalExtensionality.functional_extensionality_dep` (71 theorems):
C26_order, C32_candidate_exact, C33_wide_exact, C34_convex, C34_exact, C34_constants,
C34_weights_follow_smoothness, C34_indicator_integral, C35_weno_mirror, C36_candidates_exact,
C36_constants, C36_indicators_are_integrals, C36_right6_indicator_refuted, C37_exact, C37_uniform,
C50_inverse, C50_first, C50_second, C50_equation, C53_exact_flow, C53_steps, C53_fixed_points,
C58_jump, C58_mach, C58_compression, C58_check, C58_mach_angle_refuted, C58_freestream_refuted,
C64_linear_order, C65_uniform, C65_overwritten_refuted, C66_flux, C66_equilibrium, C66_upwind,
C72_sensor, C72_linear, C72_blend, C73_ducros, C76_carpenter_wall, C76_lawal_inlet,
C76_pressure_inlet, C76_slip_wall, C76_inlet_pressure_refuted, C76_slip_reads_refuted,
C78_determined, C78_system, C78_program_partial, C78_memory, C78_no_penetration,
C80_program_partial, C80_no_slip, C80_wall_temperature, C80_adiabatic_wall, C80_outlet_pressure,
C80_dirichlet_held, C80_extrapolated, C82_program_partial, C82_no_slip, C82_wall_temperature,
C82_adiabatic_wall, C82_outlet_pressure, C82_dirichlet_held, C82_extrapolated,
C85_bounded_any_order, C85_faces_any_order, C85_bounded_program_partial, C85_faces_program_partial,
C87_faces_partial, C87_bounded_partial, C87_inlet, C87_shock_inlet.
