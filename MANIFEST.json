{
 "claims": [
  {
   "property": "C01",
   "status": "partial",
   "theorems": [
    "C01_no_live_array_reused",
    "C01_routine_distinct",
    "C01_resume_depth_one",
    "C01_nested_resume_refuted"
   ],
   "note": "Safety for every history; resumption proved for non-nested saves; nested resumption is refuted (the saved slot is overwritten)."
  },
  {
   "property": "C02",
   "status": "proved",
   "theorems": [
    "C02_kernel_names_distinct",
    "C02_array_names_distinct"
   ],
   "note": "Kernel, iteration-range and array names."
  },
  {
   "property": "C03",
   "status": "proved",
   "theorems": [
    "C03_stencils_exact",
    "C03_every_kernel_enumerable"
   ],
   "note": "Invariant over every registration history and every enumeration order."
  },
  {
   "property": "C04",
   "status": "proved",
   "theorems": [
    "C04_arrays_declared_once"
   ],
   "note": "Invariant over every registration history."
  },
  {
   "property": "C05",
   "status": "partial",
   "theorems": [
    "C05_argument_count",
    "C05_call_matches_signature_partial",
    "C05_call_matches_signature_refuted",
    "C05_parameter_names_refuted",
    "C05_parameters"
   ],
   "note": "Holds unless a kernel uses global values and indexed constants together; that combination is refuted, and so is distinctness of parameter names. C05_parameters adds that the signature has a parameter for every object the body uses, and for nothing else."
  },
  {
   "property": "C06",
   "status": "partial",
   "theorems": [
    "C06_array_modes_partial",
    "C06_global_modes_refuted"
   ],
   "note": "Arrays proved; assigned global values are passed read-only (refuted)."
  },
  {
   "property": "C07",
   "status": "proved",
   "theorems": [
    "C07_access_numbers"
   ],
   "note": "For every set iteration order."
  },
  {
   "property": "C08",
   "status": "proved",
   "theorems": [
    "C08_wrapping"
   ],
   "note": "Every list of lines."
  },
  {
   "property": "C09",
   "status": "proved",
   "theorems": [
    "C09_fmax"
   ],
   "note": "Any number of arguments, any order relation."
  },
  {
   "property": "C10",
   "status": "proved",
   "theorems": [
    "C10_first_true_branch"
   ],
   "note": "Generated tokens parse as C and run as specified."
  },
  {
   "property": "C11",
   "status": "partial",
   "theorems": [
    "C11_shared_constants_partial",
    "C11_shared_constants_refuted"
   ],
   "note": "Proved when no user constant is named like a generated one; otherwise refuted."
  },
  {
   "property": "C12",
   "status": "proved",
   "theorems": [
    "C12_declared_once_in_order",
    "C12_defined_before_use"
   ],
   "note": "Order of first request; define-before-use follows."
  },
  {
   "property": "C13",
   "status": "proved",
   "theorems": [
    "C13_all_kernels_once"
   ],
   "note": "Structural induction on the algorithm tree."
  },
  {
   "property": "C14",
   "status": "partial",
   "theorems": [
    "C14_kernel_files_partial",
    "C14_kernel_files_refuted"
   ],
   "note": "Proved for blocks numbered 0..n-1 in order; refuted otherwise."
  },
  {
   "property": "C15",
   "status": "partial",
   "theorems": [
    "C15_substitution_partial",
    "C15_substitution_refuted"
   ],
   "note": "Proved when no listed name is a proper suffix of another constant; refuted otherwise."
  },
  {
   "property": "C16",
   "status": "partial",
   "theorems": [
    "C16_central_halos_exact_partial",
    "C16_storage_partial",
    "C16_order_limit_refuted",
    "C16_names_refuted",
    "C16_sibling_refuted",
    "C16_weno_kernels",
    "C16_teno_kernels",
    "C16_weno_storage",
    "C16_teno_storage"
   ],
   "note": "Whole periodic programs with central schemes up to order 10 and all boundary exchanges: every element touched is stored and the results do not depend on anything else (C16_storage_partial); above order 10 such programs always leave the arrays (C16_order_limit_refuted), as do names containing Residual (C16_names_refuted) and sibling nested derivatives from order 6 (C16_sibling_refuted). For WENO/TENO the kernel ranges are proved consistent and storage sufficient exactly up to WENO order 8. Missing: walls and other boundary kernels, inter-block exchanges."
  },
  {
   "property": "C17",
   "status": "proved",
   "theorems": [
    "C17_time_loop"
   ],
   "note": "Complete execution trace for every niter, stage count, class list, monitor and output requests, for one set of simulation equations."
  },
  {
   "property": "C18",
   "status": "proved",
   "theorems": [
    "C18_output_files"
   ],
   "note": "Exact list of files written, all distinct."
  },
  {
   "property": "C19",
   "status": "partial",
   "theorems": [
    "C19_every_class_contributes_partial",
    "C19_every_class_contributes_refuted"
   ],
   "note": "Proved with one set of simulation equations; refuted with two (residual and boundary kernels of one are dropped)."
  },
  {
   "property": "C20",
   "status": "partial",
   "theorems": [
    "C20_order_is_valid",
    "C20_succeeds_partial",
    "C20_succeeds_refuted",
    "C20_kernels"
   ],
   "note": "Every returned order is valid; succeeds exactly when 1000 rounds suffice; refuted for longer acyclic chains."
  },
  {
   "property": "C21",
   "status": "proved",
   "theorems": [
    "C21_classes_ordered"
   ],
   "note": "Any history of calls."
  },
  {
   "property": "C22",
   "status": "partial",
   "theorems": [
    "C22_nesting_partial",
    "C22_nesting_refuted"
   ],
   "note": "Proved for at most one level of lists; refuted for deeper nesting."
  },
  {
   "property": "C23",
   "status": "proved",
   "theorems": [
    "C23_low_storage_third_order",
    "C23_low_storage_fourth_order",
    "C23_rejected_orders",
    "C23_local_error",
    "C23_stability_polynomial"
   ],
   "note": "Third order (both formulations) exactly, with the O(dt^4) local error; the five-stage fourth-order program to twelve decimals, the accuracy of its decimal coefficients."
  },
  {
   "property": "C24",
   "status": "proved",
   "theorems": [
    "C24_sbli_third_order",
    "C24_local_error",
    "C24_stability_polynomial"
   ],
   "note": ""
  },
  {
   "property": "C25",
   "status": "proved",
   "theorems": [
    "C25_steady_state",
    "C25_linear_invariants"
   ],
   "note": ""
  },
  {
   "property": "C26",
   "status": "proved",
   "theorems": [
    "C26_polynomials_exact",
    "C26_order",
    "C26_odd_order_rounds_down"
   ],
   "note": "Every even order, every derivative order for exactness; order of accuracy 2k for smooth functions for the first and second derivative. Odd orders are shown to be rounded down."
  },
  {
   "property": "C27",
   "status": "proved",
   "theorems": [
    "C27_conservation",
    "C27_summation_by_parts",
    "C27_second_derivative",
    "C27_skew_conserves"
   ],
   "note": "Every even order, grid size, spacing and periodic fields."
  },
  {
   "property": "C28",
   "status": "partial",
   "theorems": [
    "C28_exact_condition",
    "C28_shift_partial",
    "C28_rejects_unplaced",
    "C28_shift_refuted"
   ],
   "note": "Exact condition on the iteration order proved (if and only if); holds for every expression whose accesses are at one location, which is what the code moves. The claim for every expression and order is refuted: an access moved onto a later one is moved twice."
  },
  {
   "property": "C29",
   "status": "partial",
   "theorems": [
    "C29_formula_partial",
    "C29_exact_on_polynomials",
    "C29_rejects_constants",
    "C29_formula_refuted"
   ],
   "note": "Every expression whose accesses are at one location, every order; refuted when the expression accesses an array at several stencil points."
  },
  {
   "property": "C30",
   "status": "partial",
   "theorems": [
    "C30_no_term_lost_partial",
    "C30_groups",
    "C30_no_term_lost_refuted"
   ],
   "note": "The two groups add up to the right-hand side, and are split by the Reynolds number, for sums and products without functions. A single bare derivative and functions of the solution are lost (C30_no_term_lost_refuted)."
  },
  {
   "property": "C31",
   "status": "partial",
   "theorems": [
    "C31_residual_partial",
    "C31_residual_refuted",
    "C31_variable_viscosity_refuted"
   ],
   "note": "Central scheme: residual = full discretised right-hand side from any memory, for well-formed systems (convective derivatives flat, viscous ones nested at most once in another coordinate, inner derivatives substituted first, at least one convective derivative). The other cases are refuted by example."
  },
  {
   "property": "C32",
   "status": "proved",
   "theorems": [
    "C32_candidate_exact"
   ],
   "note": "Every candidate stencil of every WENO order, both sides."
  },
  {
   "property": "C33",
   "status": "proved",
   "theorems": [
    "C33_weights_positive",
    "C33_wide_exact"
   ],
   "note": "Optimal weights positive, sum one, exact to degree 2k-2, every k, both sides."
  },
  {
   "property": "C34",
   "status": "proved",
   "theorems": [
    "C34_supported",
    "C34_convex",
    "C34_exact",
    "C34_constants",
    "C34_weights_follow_smoothness",
    "C34_indicator_integral"
   ],
   "note": "Every k for JS, k = 2..7 for Z (the others are rejected); order 1 raises AttributeError."
  },
  {
   "property": "C35",
   "status": "partial",
   "theorems": [
    "C35_weno_mirror",
    "C35_teno5_mirror",
    "C35_teno6_candidates_mirror",
    "C35_teno6_mirror_refuted"
   ],
   "note": "WENO: proved for every k and both formulations. TENO5: proved. TENO6: false, because teno.py line 167 misses a square; the refutation is proved."
  },
  {
   "property": "C36",
   "status": "proved",
   "theorems": [
    "C36_supported",
    "C36_candidates_exact",
    "C36_survivor",
    "C36_partition",
    "C36_cutoff_bound_needed",
    "C36_smooth_linear",
    "C36_constants",
    "C36_indicators_are_integrals",
    "C36_right6_indicator_refuted",
    "C36_adaptive_cutoff"
   ],
   "note": "Cut-off at most one over the number of stencils; also shown that this bound is needed and that the adaptive cut-off respects it. The fourth right-sided indicator of TENO6 is not the intended integral (refuted)."
  },
  {
   "property": "C37",
   "status": "proved",
   "theorems": [
    "C37_split",
    "C37_speed_attained",
    "C37_local",
    "C37_stencil_width",
    "C37_telescopes",
    "C37_conservation",
    "C37_exact",
    "C37_uniform"
   ],
   "note": "WENO-JS/Z and TENO5/6, both averages, one to three dimensions, on one grid line; includes conservation on periodic lines, free-stream preservation and polynomial exactness. The shock-filter variant is not modelled."
  },
  {
   "property": "C38",
   "status": "proved",
   "theorems": [
    "C38_inverse",
    "C38_eigenvectors",
    "C38_diagonalises",
    "C38_state_sound_speed",
    "C38_simple_average_admissible"
   ],
   "note": "All three dimensions, every positive density and sound speed, every non-zero metric row (one dimension: metric 1). Eigenvectors are stated through the derivative of the physical flux, not through a Jacobian written down by hand."
  },
  {
   "property": "C39",
   "status": "proved",
   "theorems": [
    "C39_roe_jump",
    "C39_roe_admissible",
    "C39_roe_consistent"
   ],
   "note": "Exact flux-jump property, positivity of the averaged sound speed, consistency."
  },
  {
   "property": "C40",
   "status": "partial",
   "theorems": [
    "C40_expansion_partial",
    "C40_accepted_partial",
    "C40_levi_civita",
    "C40_expansion_refuted",
    "C40_square_accepted_refuted",
    "C40_order_refuted"
   ],
   "note": "Proved for equations whose products have factors with different bases; refuted otherwise: u_j*u_j is collected into a power and not summed. The order of the equations for two or more free indices depends on the order in which Python lists a set (C40_order_refuted). The ValueError for a contracted product that occurs twice is not modelled."
  },
  {
   "property": "C41",
   "status": "partial",
   "theorems": [
    "C41_apply_index_partial",
    "C41_unambiguous_partial",
    "C41_apply_index_refuted",
    "C41_unambiguous_refuted"
   ],
   "note": "Proved when no index name begins with another, base names do not end in a digit and there are at most ten dimensions; refuted otherwise."
  },
  {
   "property": "C42",
   "status": "partial",
   "theorems": [
    "C42_product_rule",
    "C42_derivative",
    "C42_discrete_conservation",
    "C42_rejected_partial",
    "C42_other_shapes_refuted"
   ],
   "note": "The identity holds for products of two factors and one direction, for every operator with a product rule, and the discrete form conserves mass and energy. Rejection of other shapes is refuted: sums, powers and two directions are accepted and give a different value."
  },
  {
   "property": "C43",
   "status": "partial",
   "theorems": [
    "C43_periodic_partial",
    "C43_frame",
    "C43_upper_layer_refuted",
    "C43_direction_width_refuted",
    "C43_interior_overwritten_refuted"
   ],
   "note": "Proved for lower width m and upper width p of direction 0 with m <= p <= 2m and at least m points: all values within m layers in every direction, corners included. With m = p equal in all directions this is the full property. Refuted otherwise: the outermost upper layer is not filled when p > m; the widths of direction 0 are used for all directions; p > 2m overwrites interior values."
  },
  {
   "property": "C44",
   "status": "partial",
   "theorems": [
    "C44_symmetry",
    "C44_reflection",
    "C44_projection",
    "C44_inviscid_wall",
    "C44_inviscid_wall_tangential",
    "C44_symmetry_boundary_untouched",
    "C44_normal_zero_refuted"
   ],
   "note": "Proved for every grid, side, halo width, metric row and data: halo points receive the mirror image (scalars copied, vectors reflected), frame, reflection algebra; inviscid wall including the wall point. The clause 'normal momentum zero at the boundary' is refuted for the symmetry condition (it never writes boundary points) and proved for the inviscid wall when the metric row is the same at the wall and its neighbour."
  },
  {
   "property": "C45",
   "status": "proved",
   "theorems": [
    "C45_constant",
    "C45_linear",
    "C45_linear_exact",
    "C45_other_orders"
   ],
   "note": "Order 0 and order 1 for every halo width, side, direction, set of arrays and data, with frame; other orders are errors."
  },
  {
   "property": "C46",
   "status": "proved",
   "theorems": [
    "C46_adiabatic",
    "C46_isothermal",
    "C46_isothermal_temperature",
    "C46_isothermal_positive_refuted"
   ],
   "note": "Isothermal and adiabatic walls: no slip, wall temperature, halo states, frame. C46_isothermal_positive_refuted: extrapolated halo temperatures can become negative, giving negative halo densities. Up to ten momentum components (names of local variables). The Carpenter variant of the adiabatic wall is not modelled."
  },
  {
   "property": "C47",
   "status": "partial",
   "theorems": [
    "C47_exact_partial",
    "C47_orders",
    "C47_reduced_order_upper_refuted",
    "C47_carpenter_degree_four_refuted",
    "C47_carpenter_summation_by_parts",
    "C47_carpenter_energy_and_mass",
    "C47_no_halo_points",
    "C47_expressions"
   ],
   "note": "First and second derivatives with Carpenter, reduced-access and reduced-order boundaries at either end are exact at every point for polynomials of the nominal degree; the Carpenter closure satisfies summation by parts for an inner product (its norm matrix is shown positive definite) and conserves mass and energy up to the end values; no halo point is read; the expression-level formulas have the stated values. Partial: the reduced-order second derivative at the upper end has the wrong sign (refuted), as its weights are multiplied with -1. Degree 4 is shown to fail for the Carpenter first derivative."
  },
  {
   "property": "C48",
   "status": "partial",
   "theorems": [
    "C48_interface_partial",
    "C48_upper_faces_partial",
    "C48_lower_to_upper_refuted",
    "C48_lower_to_lower_refuted",
    "C48_directions_refuted"
   ],
   "note": "Proved for faces of the same direction when the last entry of match tells whether both faces are on the same side. With three entries this covers exchanges from upper faces. Refuted: exchanges from lower faces given with three entries, and faces of different directions. The behaviour of ops_halo_transfer for negative directions is assumed (backwards traversal)."
  },
  {
   "property": "C49",
   "status": "proved",
   "theorems": [
    "C49_plane",
    "C49_no_such_direction",
    "C49_types",
    "C49_reading_order"
   ],
   "note": "Planes of full (not split) boundaries: the kernel runs over exactly the points of the face, extended by the registered halos in the other directions. Wrong-length lists and non-existing directions are errors; the pairing of a flat or nested list is characterised. C49_reading_order fixes the order in which nested conditions are read by a separate relation."
  },
  {
   "property": "C50",
   "status": "partial",
   "theorems": [
    "C50_parameters",
    "C50_inverse",
    "C50_first",
    "C50_second",
    "C50_equation",
    "C50_nested_refuted"
   ],
   "note": "For 1, 2 and 3 dimensions, every choice of stretched and curvilinear directions and every twice differentiable invertible mapping of the declared kind: the stored metric coefficients are the inverse of the Jacobian matrix, detJ its determinant, and the transformed first and second derivatives (also mixed) equal the physical derivatives of every differentiable function; an equation without nested derivatives is transformed completely and keeps its value in whatever order its derivatives are visited. With nested derivatives the outer one may be left untransformed (C50_nested_refuted), which is why the status is partial."
  },
  {
   "property": "C51",
   "status": "partial",
   "theorems": [
    "C51_relations_agree_partial",
    "C51_gas_law",
    "C51_speed_of_sound_square",
    "C51_speed_of_sound_refuted",
    "C51_viscosity_refuted",
    "C51_answers",
    "C51_arrays_read"
   ],
   "note": "For every number of directions and every state with non-zero density, the primitive and conservative forms of pressure and temperature agree with each other and with the ideal gas law, and the momentum relation returns the momentum. Partial: the relation supplied for the speed of sound is its square (refuted as a speed), and the viscosity accessor returns the momentum arrays. C51_answers and C51_arrays_read state the same for the accessors with all combinations of their options."
  },
  {
   "property": "C52",
   "status": "partial",
   "theorems": [
    "C52_accepted",
    "C52_formula",
    "C52_linear_unchanged",
    "C52_no_new_extrema",
    "C52_alternating_partial",
    "C52_mean_partial",
    "C52_order_of_points_refuted",
    "C52_in_place_refuted",
    "C52_negative_order_refuted"
   ],
   "note": "Linear fields unchanged and no new extrema: proved for sweeps in any order. Removal of the alternating wave and conservation of the mean: proved when every point is evaluated on unfiltered data; refuted for the generated in-place kernel, whose result depends on the order of the points. Odd orders and orders above 10 are rejected; a negative even order is accepted and scales constants. The optional grid condition is not modelled."
  },
  {
   "property": "C53",
   "status": "proved",
   "theorems": [
    "C53_dimensions",
    "C53_step",
    "C53_exact_flow",
    "C53_steps",
    "C53_fixed_points",
    "C53_initial"
   ],
   "note": "Any order of the grid points; also equality with the exact flow of the damping equations and convergence."
  },
  {
   "property": "C54",
   "status": "proved",
   "theorems": [
    "C54_spline",
    "C54_reproduces_cubics",
    "C54_repeated_knot"
   ],
   "note": "Any number of knots and any strictly increasing abscissae; the interpolant is shown to be twice continuously differentiable on the whole line and to reproduce cubics."
  },
  {
   "property": "C55",
   "status": "proved",
   "theorems": [
    "C55_total_range",
    "C55_set_halo_range",
    "C55_merge_halo_range"
   ],
   "note": "Numeric ranges."
  },
  {
   "property": "C56",
   "status": "proved",
   "theorems": [
    "C56_places",
    "C56_accepted",
    "C56_any_case",
    "C56_small_letters"
   ],
   "note": "Places of output objects and exact acceptance condition. C56_any_case and C56_small_letters fix the treatment of capitals in keywords independently of the model."
  },
  {
   "property": "C57",
   "status": "proved",
   "theorems": [
    "C57_one_probe_per_pair",
    "C57_format",
    "C57_probe_value",
    "C57_fires"
   ],
   "note": "Probes, format, reduced value, firing steps."
  },
  {
   "property": "C58",
   "status": "partial",
   "theorems": [
    "C58_jump",
    "C58_mach",
    "C58_compression",
    "C58_check",
    "C58_mach_angle_refuted",
    "C58_freestream_refuted"
   ],
   "note": "Mass, momentum and energy fluxes through the shock agree for a unit free stream and every Mach number >= 1, ratio of specific heats > 1 and wave angle between 0 and 90 degrees; the reported Mach number and temperature ratio are those of the computed state; above the Mach angle the shock compresses. The rejection of angles below the Mach angle fails because degrees are compared with radians (C58_check says what is rejected, C58_mach_angle_refuted gives a wrongly accepted angle), and the conservation fails for a free-stream velocity other than 1 (C58_freestream_refuted). Missing for the full claim: rejection, which is false of the code."
  },
  {
   "property": "C59",
   "status": "proved",
   "theorems": [
    "C59_phases_of_all_blocks",
    "C59_schemes_agree"
   ],
   "note": "Trace of multi-block programs, phase by phase over all blocks. C59_schemes_agree adds that all blocks share kind, iterations and stages of the time discretisation."
  },
  {
   "property": "C60",
   "status": "partial",
   "theorems": [
    "C60_program_partial"
   ],
   "note": "One block, periodic boundaries, central differences of any order, low-storage and SBLI Runge-Kutta schemes, any dimension, any number of steps, constituent relations that are local formulas: the program generated (constituent kernels, derivative and residual kernels, stage update, periodic exchanges, in the order of the algorithm) leaves in the advanced arrays the iterates of an explicit Runge-Kutta method of the stated order applied to the semi-discrete periodic system, for every initial memory. Restricted to systems with the form required by C31, and to relations whose ranges cover those of the relations that need them (the general claim fails without this, see C61_constituent_range_refuted)."
  },
  {
   "property": "C61",
   "status": "partial",
   "theorems": [
    "C61_no_stale_value_partial",
    "C61_sibling_range_refuted",
    "C61_same_direction_refuted",
    "C61_constituent_range_refuted"
   ],
   "note": "For the kernels of the central discretisation: the residuals do not depend on the previous contents of work and residual arrays (and, through C60, on those of relation arrays and halos for periodic problems). Sibling and same-direction nested derivatives, and relations that need other relations in a halo where those are not evaluated (two-dimensional Euler equations), refute the general claim."
  },
  {
   "property": "C62",
   "status": "partial",
   "theorems": [
    "C62_output_buffers_partial",
    "C62_output_buffers_refuted"
   ],
   "note": "Proved for at most one unnamed write request; refuted for two."
  },
  {
   "property": "C63",
   "status": "partial",
   "theorems": [
    "C63_low_storage_update_partial",
    "C63_sbli_update_partial",
    "C63_update_refuted"
   ],
   "note": "Proved when each equation has exactly one time derivative; refuted otherwise (zip of unequal lists)."
  },
  {
   "property": "C64",
   "status": "partial",
   "theorems": [
    "C64_linear_order",
    "C64_nominal_order_refuted"
   ],
   "note": "The claim is false of the code: TENO5 is exact to degree 3 and TENO6 to degree 4, one less than nominal. Both facts are proved."
  },
  {
   "property": "C65",
   "status": "partial",
   "theorems": [
    "C65_residual_partial",
    "C65_accepted",
    "C65_conservation",
    "C65_uniform",
    "C65_order_refuted",
    "C65_function_refuted",
    "C65_reynolds_source_refuted",
    "C65_overwritten_refuted"
   ],
   "note": "Proved for the shock-capturing scheme before the central one, one shock-capturing derivative per equation and direction, inviscid terms without central derivatives or other functions, viscous terms that vanish with their central derivatives; uniform flow and conservation follow for these systems, and acceptance is characterised for all systems. The other scheme order, central derivatives in inviscid terms, functions in the equations and derivative-free Reynolds-number terms are refuted. Metric terms are not modelled."
  },
  {
   "property": "C66",
   "status": "proved",
   "theorems": [
    "C66_contact_state",
    "C66_flux",
    "C66_equilibrium",
    "C66_upwind",
    "C66_upwind_weno"
   ],
   "note": "The property is stated for one and two dimensions with any metric row and three dimensions with a metric row along one axis. Oblique rows in three dimensions are outside it: there the density shows in several characteristic waves that are reconstructed with different weights."
  },
  {
   "property": "C67",
   "status": "proved",
   "theorems": [
    "C67_dirichlet"
   ],
   "note": "Prescribed expressions read no prescribed array, as the theorem states."
  },
  {
   "property": "C68",
   "status": "proved",
   "theorems": [
    "C68_zero_gradient",
    "C68_inlet_transfer"
   ],
   "note": "Both conditions with frame."
  },
  {
   "property": "C69",
   "status": "proved",
   "theorems": [
    "C69_pressure_outlet"
   ],
   "note": ""
  },
  {
   "property": "C70",
   "status": "partial",
   "theorems": [
    "C70_any_order_partial",
    "C70_no_races_partial",
    "C52_order_of_points_refuted"
   ],
   "note": "Periodic blocks with central differences, both Runge-Kutta schemes; programs with shock capturing or other boundary conditions are in C85. For the binomial filter the claim is false (C52_order_of_points_refuted)."
  },
  {
   "property": "C71",
   "status": "partial",
   "theorems": [
    "C71_residual_partial",
    "C71_same_residual_partial",
    "C71_viscous_lost_refuted",
    "C71_no_kernels_refuted",
    "C71_inner_not_stored_refuted",
    "C71_mixed_refuted",
    "C71_sibling_range_refuted"
   ],
   "note": "Without constituent relations; derivatives inside others must be stored ones, at most one per outer derivative, and both groups of terms must keep a derivative that is not stored. Outside these conditions the claim is false: see the refuted theorems."
  },
  {
   "property": "C72",
   "status": "proved",
   "theorems": [
    "C72_supported",
    "C72_central_flux",
    "C72_sensor",
    "C72_pure_dissipation",
    "C72_linear",
    "C72_near_walls",
    "C72_conservation",
    "C72_blend"
   ],
   "note": "Uniform grids (no metric terms); real arithmetic; sensor_theta a natural number."
  },
  {
   "property": "C73",
   "status": "proved",
   "theorems": [
    "C73_ducros",
    "C73_kappa_max",
    "C73_yee"
   ],
   "note": "Real arithmetic; the gradient entries are arbitrary values of the difference formulas."
  },
  {
   "property": "C74",
   "status": "partial",
   "theorems": [
    "C74_differential_partial",
    "C74_unnested_partial",
    "C74_pointwise",
    "C74_dropped_refuted",
    "C74_halos_refuted",
    "C74_weno_refuted",
    "C74_order_refuted",
    "C74_local_refuted"
   ],
   "note": "Proved for lists without derivatives and, in any point order, for lists in which every equation has derivatives (un-nested: any set order; nested: set orders with inner derivatives first). The claims on mixed lists, halo requests with derivatives, WENO blocks, set orders and local variables are refuted."
  },
  {
   "property": "C75",
   "status": "proved",
   "theorems": [
    "C75_conservation",
    "C75_uniform",
    "C75_problem",
    "C75_restart",
    "C75_translation"
   ],
   "note": "For programs as in C60: one block, periodic boundaries, central differences, constituent relations that are pointwise and not circular. Arithmetic is over the reals, so rounding is not covered."
  },
  {
   "property": "C76",
   "status": "proved",
   "theorems": [
    "C76_carpenter_wall",
    "C76_lawal_inlet",
    "C76_forcing_strip",
    "C76_pressure_inlet",
    "C76_slip_wall",
    "C76_slip_refused",
    "C76_split",
    "C76_split_blocks_refuted",
    "C76_strip_halo_velocity_refuted",
    "C76_inlet_pressure_refuted",
    "C76_slip_reads_refuted"
   ],
   "note": "The functions that occur (powers, sine, cosine, angle, comparison) are assumed to be the real ones. The coordinates of the slip wall must be separate points and the tangents nonzero. What does not hold is stated in the _refuted theorems: ranges of split boundaries of two blocks share their constants, the forcing strip mirrors velocities as at a wall at rest, the pressure inlet copies the energy and not the pressure, the slip wall reads coordinates beyond the halos."
  },
  {
   "property": "C77",
   "status": "partial",
   "theorems": [
    "C77_equations",
    "C77_index",
    "C77_storage",
    "C77_program",
    "C77_memory",
    "C77_relation_refuted"
   ],
   "note": "For periodic blocks with central differences; initialisations with derivatives, data sets read from files and other boundary conditions are not covered. An array that has a constituent relation and is also initialised is never computed again (C77_relation_refuted)."
  },
  {
   "property": "C78",
   "status": "partial",
   "theorems": [
    "C78_boundary_conditions",
    "C78_determined",
    "C78_system",
    "C78_program_partial",
    "C78_memory",
    "C78_no_penetration"
   ],
   "note": "Covers the conditions that leave the difference formulas alone (periodic, symmetry, inviscid wall, zero-gradient outlet); the walls with one-sided derivatives, Dirichlet and inlet conditions and the shock-capturing schemes are not included in whole programs."
  },
  {
   "property": "C79",
   "status": "partial",
   "theorems": [
    "C79_residual_partial",
    "C79_no_stale_value_partial",
    "C79_no_halo_points_partial",
    "C79_unmodified",
    "C79_refused",
    "C79_central_inside",
    "C79_carpenter_conservation_partial"
   ],
   "note": "The form of the equations is restricted as for C31 (each term of a right-hand side is either convective or viscous, and the sets of derivatives are given); symbolic grid sizes are numbers; the memory outside the ranges is total. The conservation theorem is for one dimension and a central scheme of order 4."
  },
  {
   "property": "C80",
   "status": "partial",
   "theorems": [
    "C80_program_partial",
    "C80_no_slip",
    "C80_wall_temperature",
    "C80_adiabatic_wall",
    "C80_outlet_pressure",
    "C80_dirichlet_held",
    "C80_extrapolated"
   ],
   "note": "The problems are those of C60 (relations computed where they are read, C61; form of the equations as C31), on one block with the central scheme; conditions inside SplitBC, several blocks and shock capturing schemes are not covered; symbolic grid sizes are numbers. On edges shared by two directions the condition applied last wins, which is why the corollaries exclude the faces of later directions."
  },
  {
   "property": "C81",
   "status": "partial",
   "theorems": [
    "C81_program_partial",
    "C81_conservation",
    "C81_uniform",
    "C81_problem",
    "C81_translation"
   ],
   "note": "C81_program_partial: equations of the form of C65 on a Cartesian grid; relations without derivatives that only need relations computed on at least their own range, and the pressure, if it is computed, occurs in every flux (the code registers the arrays of the fluxes and of the eigensystem, but Roe averaging also reads the pressure); WENO of order at least 3 (WENO-Z up to 14), TENO of order 5 and 6 with a cut-off below 1/(order-2), where the numerical flux of C37 is proved. That the block is accepted is a hypothesis (C20, C65 say when). Not covered: curvilinear metrics, adaptive TENO, the shock filter, relations with derivatives, other boundaries, several blocks."
  },
  {
   "property": "C82",
   "status": "partial",
   "theorems": [
    "C82_program_partial",
    "C82_no_slip",
    "C82_wall_temperature",
    "C82_adiabatic_wall",
    "C82_outlet_pressure",
    "C82_dirichlet_held",
    "C82_extrapolated"
   ],
   "note": "C82_program_partial: schemes, equations and relations as in C81, conditions as in C80 (no interfaces between blocks, split conditions or the curved inviscid wall); that the block is accepted is a hypothesis. Right-hand sides are taken at all grid points from the relations at the points of the grid and its lower number of halo layers. Not covered: curvilinear metrics, adaptive TENO, the shock filter, relations with derivatives, several blocks."
  },
  {
   "property": "C83",
   "status": "proved",
   "theorems": [
    "C83_one_wall",
    "C83_uniform_pressure",
    "C83_two_walls",
    "C83_two_walls_pressure",
    "C83_symmetric",
    "C83_inputs",
    "C83_side_wall_refuted",
    "C83_simple",
    "C83_simple_inputs",
    "C83_simple_profile_refuted",
    "C83_wall_normal_refuted"
   ],
   "note": "The polynomial coefficients, edges and free-stream values are arbitrary numbers (where they come from is C84); floats are rational numbers. Two walls: direction 1 and both sides of direction 2, the case the code is written for; C83_side_wall_refuted shows that other choices of two walls are silently replaced by direction 2. C83_wall_normal_refuted: with the wall in direction 0 or 2 the wall-normal profile is stored in rhou1. C83_simple_profile_refuted: the built-in wall-normal momentum jumps at the edge of the layer and the velocity at the wall is not zero."
  },
  {
   "property": "C84",
   "status": "proved",
   "theorems": [
    "C84_equations",
    "C84_enthalpy",
    "C84_newton_step",
    "C84_newton_exact",
    "C84_kept_solution",
    "C84_wall_temperature_refuted",
    "C84_isothermal_refuted",
    "C84_coordinates",
    "C84_reported",
    "C84_wall_slope",
    "C84_wall_slope_refuted",
    "C84_interpolated",
    "C84_edge",
    "C84_continuity",
    "C84_fit",
    "C84_scaling",
    "C84_constants"
   ],
   "note": "Floats are real numbers (a division by zero is an error value); odeint and polyfit are arbitrary functions. Whether the five passes suffice for a given flow is not claimed. C84_wall_temperature_refuted: if they do not, the reported wall temperature is not the temperature of the profile at the wall and nothing is reported. C84_isothermal_refuted: with a given wall temperature the first pass divides by zero. C84_wall_slope_refuted: the points are not equidistant, and the slope at the wall of a linear profile can be wrong by 25 percent."
  },
  {
   "property": "C85",
   "status": "partial",
   "theorems": [
    "C85_capturing_any_order",
    "C85_bounded_any_order",
    "C85_faces_any_order",
    "C85_capturing_program_partial",
    "C85_bounded_program_partial",
    "C85_faces_program_partial"
   ],
   "note": "Every launch of every kernel, including those of the boundary conditions, chooses its own order. The programs are those of C80, C81 and C82: one block, no split conditions, no InviscidWall2DBC, uniform grids."
  },
  {
   "property": "C86",
   "status": "partial",
   "theorems": [
    "C86_faces_partial",
    "C86_bounded_partial",
    "C86_capturing_partial",
    "C86_weno_limit_refuted"
   ],
   "note": "Every kernel of the executed programs of C80, C81 and C82 stays inside the storage, and the results depend on nothing else, up to central order 10 and schemes reaching four points (WENO up to order 8, TENO 5 and 6), if no array has a name that is stored without halo points. With WENO of order 9 and more every such program with periodic boundaries reads outside (C86_weno_limit_refuted). One block, no split conditions, no InviscidWall2DBC, uniform grids; names without halo points and central orders above 10 are refuted under C16."
  },
  {
   "property": "C87",
   "status": "partial",
   "theorems": [
    "C87_faces_partial",
    "C87_bounded_partial",
    "C87_capturing_partial",
    "C87_inlet",
    "C87_shock_inlet",
    "C87_memory"
   ],
   "note": "The programs of C80, C81 and C82 with any list of initialisations, in any order of the classes. Partial as those are: one block, no split conditions, no InviscidWall2DBC, uniform grids; independence of the rest of the memory is proved for periodic boundaries. What a single initialisation sets is C77."
  },
  {
   "property": "C88",
   "status": "proved",
   "theorems": [
    "C88_report",
    "C88_first_in_loop"
   ],
   "note": "Text as lists of characters with \\n as the only line separator; the array name contains no semicolon."
  },
  {
   "property": "C89",
   "status": "partial",
   "theorems": [
    "C89_read_back_partial",
    "C89_directions_refuted",
    "C89_capitals_refuted",
    "C89_unused_refuted"
   ],
   "note": "Proved for blocks of two directions, file names without capitals and arrays that a kernel uses; refuted for each of the three exceptions. HDF5 itself is represented by the list of datasets and attributes written."
  },
  {
   "property": "C90",
   "status": "partial",
   "theorems": [
    "C90_interior_partial",
    "C90_upper_halos_refuted",
    "C90_one_direction_refuted",
    "C90_blocks_refuted",
    "C90_output_name",
    "C90_output_name_refuted"
   ],
   "note": "Proved for two and three directions, equal numbers of lower and upper halo points, one block and file names with one dot; refuted for each exception. Python 2 as the file is written; h5py is represented by groups, attributes, shapes and nested lists."
  }
 ]
}
