{
 "claims": [
  {
   "property": "C01",
   "status": "proved",
   "theorems": [
    "C01_derivatives_are_periodic_differences"
   ],
   "note": "Dxf, Dxb, Dyf, Dyb of a freshly built Simulation without PML are the periodic one-sided differences of step dl, for every grid with at least 2x2 pixels."
  },
  {
   "property": "C02",
   "status": "proved",
   "theorems": [
    "C02_summation_by_parts",
    "C02_x_and_y_derivatives_commute"
   ],
   "note": "Summation by parts and commutation of x and y operators."
  },
  {
   "property": "C03",
   "status": "partial",
   "theorems": [
    "C03_single_pixel_operator_is_identity",
    "C03_zero_derivative_refuted"
   ],
   "note": "The English claim (zero derivative along a one-pixel direction) is false of the code: createDws returns the identity. Proved: what the code computes, and the refutation."
  },
  {
   "property": "C04",
   "status": "partial",
   "theorems": [
    "C04_step_after_any_history",
    "C04_step_is_dl_partial",
    "C04_shape_change_refuted"
   ],
   "note": "Step after any history is proved to be (original N / current N) * dl; it equals dl exactly for histories ending with the original shape (_partial); the unrestricted claim is refuted."
  },
  {
   "property": "C05",
   "status": "proved",
   "theorems": [
    "C05_pml_absorbs_near_border_only"
   ],
   "note": "PML operators are the plain ones divided by the complex stretching factor, which differs from 1 only inside the layers."
  },
  {
   "property": "C06",
   "status": "partial",
   "theorems": [
    "C06_absorption_grows_towards_border_partial",
    "C06_shifted_mirror",
    "C06_mirror_refuted"
   ],
   "note": "Grading towards the border proved on each side; exact mirror symmetry is false of the code (off by one) and refuted; the shifted mirror identity is proved."
  },
  {
   "property": "C07",
   "status": "proved",
   "theorems": [
    "C07_reciprocity",
    "C07_reciprocity_no_pml",
    "C07_reciprocity_complex_permittivity"
   ],
   "note": "Weighted reciprocity with PML, plain reciprocity without, also for complex permittivity."
  },
  {
   "property": "C08",
   "status": "proved",
   "theorems": [
    "C08_lossless_closed_domain"
   ],
   "note": "No net power leaves a closed lossless domain."
  },
  {
   "property": "C09",
   "status": "partial",
   "theorems": [
    "C09_fields_satisfy_maxwell_Ez",
    "C09_fields_satisfy_maxwell_Hz_averaging_partial",
    "C09_Hz_default_uniform_partial",
    "C09_Hz_default_averaging_refuted"
   ],
   "note": "Ez: fields satisfy the discrete Maxwell equations. Hz: proved with averaging=True or uniform permittivity; false with the default flags, refuted."
  },
  {
   "property": "C10",
   "status": "proved",
   "theorems": [
    "C10_linear_in_source",
    "C10_zero_source"
   ],
   "note": "Linearity in the source and zero source gives zero fields."
  },
  {
   "property": "C11",
   "status": "proved",
   "theorems": [
    "C11_matrix_is_helmholtz_stencil",
    "C11_one_pixel_change"
   ],
   "note": "Helmholtz stencil after any history ending with the original shape; single-pixel change affects a single diagonal entry."
  },
  {
   "property": "C12",
   "status": "partial",
   "theorems": [
    "C12_nonlinear_matrix_Ez",
    "C12_nonlinear_matrix_Hz_refuted"
   ],
   "note": "Ez: matrix used with the nonlinear term is the matrix of eps + eps_nl. Hz: false of the code; proved equality forces eps_nl = 0."
  },
  {
   "property": "C13",
   "status": "proved",
   "theorems": [
    "C13_matrix_is_that_of_current_permittivity",
    "C13_same_as_fresh_simulation",
    "C13_assignment_keeps_the_rest"
   ],
   "note": "After any history of operations the matrix is the one of the current permittivity (with the step in force), and solving gives the fields of a freshly built simulation."
  },
  {
   "property": "C14",
   "status": "partial",
   "theorems": [
    "C14_stored_fields_valid_partial",
    "C14_source_change_refuted"
   ],
   "note": "Stored fields solve the current structure provided the source is not changed after solving (_partial); changing the source leaves stale fields, refuted."
  },
  {
   "property": "C15",
   "status": "partial",
   "theorems": [
    "C15_compute_nl_and_include_nl",
    "C15_nonlinear_solve",
    "C15_krylov_Hz_refuted"
   ],
   "note": "Ez with every solver and Hz with every solver but krylov leave permittivity and matrix alone; krylov with Hz raises and is characterised."
  },
  {
   "property": "C16",
   "status": "proved",
   "theorems": [
    "C16_design_region_initialised",
    "C16_random_sym_is_symmetric",
    "C16_random_designs",
    "C16_density_matches_permittivity"
   ],
   "note": "All styles; symmetric random style is symmetric; stored density is the one of the permittivity."
  },
  {
   "property": "C17",
   "status": "partial",
   "theorems": [
    "C17_heap_model_agrees",
    "C17_users_array_unchanged_partial",
    "C17_halfway_refuted"
   ],
   "note": "Every style but halfway leaves the caller's array alone (_partial, heap model); halfway overwrites it, refuted."
  },
  {
   "property": "C18",
   "status": "proved",
   "theorems": [
    "C18_filter_keeps_density_outside_design_region"
   ],
   "note": "Every design mask, radius, NPML."
  },
  {
   "property": "C19",
   "status": "partial",
   "theorems": [
    "C19_filter_is_average_in_the_interior_partial",
    "C19_near_pml_refuted",
    "C19_edge_refuted"
   ],
   "note": "Weighted average proved at pixels whose whole neighbourhood is filtered, together with existence of the matrix; refuted at the first filtered pixel (weights exceed one) and within R of the PML (density lost)."
  },
  {
   "property": "C20",
   "status": "partial",
   "theorems": [
    "C20_periodic_x_refuted",
    "C20_periodic_y_refuted",
    "C20_met"
   ],
   "note": "False of the code, refuted on every grid with a periodic axis: x raises ValueError, y weights depend on position. No positive part holds for R>=2."
  },
  {
   "property": "C21",
   "status": "proved",
   "theorems": [
    "C21_projection_endpoints_and_monotone",
    "C21_projection_decreases_with_eta"
   ],
   "note": "Endpoints, strict monotonicity in density, strict antitonicity in eta, range."
  },
  {
   "property": "C22",
   "status": "proved",
   "theorems": [
    "C22_projection_derivative",
    "C22_permittivity_derivative",
    "C22_chain_derivative"
   ],
   "note": "Exact derivative of the projection whenever the denominator is non-zero, of the permittivity, and of the chain of both."
  },
  {
   "property": "C23",
   "status": "proved",
   "theorems": [
    "C23_weak_projection_is_identity",
    "C23_strong_projection_is_threshold"
   ],
   "note": "Both limits."
  },
  {
   "property": "C24",
   "status": "proved",
   "theorems": [
    "C24_density_permittivity_roundtrip"
   ],
   "note": "Round trips and ranges."
  },
  {
   "property": "C25",
   "status": "proved",
   "theorems": [
    "C25_permittivity_in_range"
   ],
   "note": "Range and endpoints, with equivalences."
  },
  {
   "property": "C67",
   "status": "proved",
   "theorems": [
    "C67_new_simulation",
    "C67_constructor_validates"
   ],
   "note": "Constructor accepts exactly the valid arguments."
  },
  {
   "property": "C73",
   "status": "partial",
   "theorems": [
    "C73_other_simulations_undisturbed_partial",
    "C73_shared_array_refuted"
   ],
   "note": "Holds for every style but halfway (_partial); refuted for halfway."
  },
  {
   "property": "C26",
   "status": "proved",
   "theorems": [
    "C26_field_derivative_exact",
    "C26_permittivity_derivative_exact"
   ],
   "note": "Both derivatives, exact with explicit remainder; eps_scale included."
  },
  {
   "property": "C27",
   "status": "proved",
   "theorems": [
    "C27_contributions_add_up",
    "C27_initially_zero",
    "C27_order_irrelevant",
    "C27_zero_and_phase",
    "C27_scaled_in_material",
    "C27_add_nl"
   ],
   "note": "Additivity, zero set, phase invariance, order independence, scaled values."
  },
  {
   "property": "C28",
   "status": "proved",
   "theorems": [
    "C28_complex2real_solves_widely_linear_system"
   ],
   "note": "For every exact real solver; the scipy branch raises NameError (see C33)."
  },
  {
   "property": "C29",
   "status": "proved",
   "theorems": [
    "C29_born_result",
    "C29_born_reproduces_solutions"
   ],
   "note": "Frozen system, zero change implies nonlinear solution, solutions reproduced."
  },
  {
   "property": "C30",
   "status": "proved",
   "theorems": [
    "C30_jacobian_exact",
    "C30_newton_step_fixed_points",
    "C30_newton_result",
    "C30_newton_reproduces_solutions"
   ],
   "note": "Jacobian exact with explicit remainder; fixed points; converged runs."
  },
  {
   "property": "C31",
   "status": "partial",
   "theorems": [
    "C31_convergence_record",
    "C31_hybrid_record_refuted"
   ],
   "note": "Proved for born and newton; the default solver always returns 20 entries (_refuted)."
  },
  {
   "property": "C32",
   "status": "partial",
   "theorems": [
    "C32_hybrid_falls_back_partial",
    "C32_max_num_iter_refuted",
    "C32_other_threshold_refuted"
   ],
   "note": "Fallback decision proved for the default threshold (_partial); max_num_iter and other thresholds ignored (_refuted)."
  },
  {
   "property": "C33",
   "status": "partial",
   "theorems": [
    "C33_solvers_run_partial",
    "C33_unknown_solver_refused",
    "C33_always_fail_refuted",
    "C33_newton_without_pyMKL_refuted"
   ],
   "note": "Which solvers run is characterised; LM, Newton without pyMKL, Newton and krylov for Hz fail (_refuted)."
  },
  {
   "property": "C34",
   "status": "proved",
   "theorems": [
    "C34_no_nonlinearity_gives_linear_fields"
   ],
   "note": "born, hybrid, newton (Ez), with stored or absent linear fields."
  },
  {
   "property": "C68",
   "status": "proved",
   "theorems": [
    "C68_index_shift_bounds"
   ],
   "note": "Non-negative, zero where eps_nl is zero, upper bound."
  },
  {
   "property": "C70",
   "status": "proved",
   "theorems": [
    "C70_average_of_neighbours",
    "C70_total_preserved",
    "C70_bounds_preserved",
    "C70_uniform_unchanged"
   ],
   "note": "Average of neighbours, total, bounds, uniform arrays."
  },
  {
   "property": "C35",
   "status": "proved",
   "theorems": [
    "C35_linear_Ez_gradient"
   ],
   "note": "Every differentiable objective of the linear Ez field; derivative of the value compute_J returns, zero outside the design region."
  },
  {
   "property": "C36",
   "status": "proved",
   "theorems": [
    "C36_linear_gradient_Ez_polarization"
   ],
   "note": "Same with any mixture of Ez, Hx and Hy arguments."
  },
  {
   "property": "C38",
   "status": "partial",
   "theorems": [
    "C38_filtered_gradient_partial",
    "C38_interior_gradient_partial",
    "C38_asymmetric_filter_refuted",
    "C38_filter_refuted"
   ],
   "note": "Exact derivative whenever the filter is symmetric on the design block (_partial), in particular at pixels deep inside the filtered area (_partial); false near the edges, refuted with a concrete 9 x 9 case because the code applies W instead of its transpose."
  },
  {
   "property": "C72",
   "status": "proved",
   "theorems": [
    "C72_check_deriv_converges"
   ],
   "note": "Every perturbation sequence and choice of pixels; uniform over the sampled pixels."
  },
  {
   "property": "C37",
   "status": "proved",
   "theorems": [
    "C37_mixed_gradient"
   ],
   "note": "Objectives of any mixture of nonlinear Ez and linear Ez/Hx/Hy arguments, unfiltered density: computed gradient = derivative along every branch of solutions of the nonlinear equation (existence of the branch is proved by a contraction argument). Hypotheses: the stored nonlinear field solves the nonlinear equation, the widely-linear Jacobian is injective, the objective is differentiable."
  },
  {
   "property": "C39",
   "status": "partial",
   "theorems": [
    "C39_hz_gradient_and_derivative_partial",
    "C39_two_by_two_wrong_sign",
    "C39_hz_gradient_refuted"
   ],
   "note": "Exact formulas for the gradient that compute_dJ returns and for the true derivative (_partial); their equality is refuted: on every uniform 2 x 2 grid without PML the computed gradient has the wrong sign."
  },
  {
   "property": "C40",
   "status": "partial",
   "theorems": [
    "C40_gradient_defined_iff",
    "C40_missing_gradients_raise",
    "C40_every_argument_has_gradient_refuted"
   ],
   "note": "Refuted for the code: nonlinear Hx/Hy raise NameError and nonlinear Hz/Ex/Ey NotImplementedError. Exact characterisation of the argument lists for which compute_dJ works proved (iff)."
  },
  {
   "property": "C41",
   "status": "proved",
   "theorems": [
    "C41_density_and_permittivity_stay_valid"
   ],
   "note": "GD and ADAM, any number of steps and any outcome (also when an exception ends the run)."
  },
  {
   "property": "C42",
   "status": "partial",
   "theorems": [
    "C42_density_outside_kept",
    "C42_permittivity_outside_projected",
    "C42_filter_rows",
    "C42_two_material_surroundings_kept_partial",
    "C42_permittivity_outside_iff",
    "C42_background_refuted"
   ],
   "note": "Density outside the design region is kept by all methods and outcomes. The permittivity outside is either kept or the projection of the density there (exact iff after a completed step); kept where the surroundings consist of the two materials (_partial). False in general: refuted with a background of permittivity 2."
  },
  {
   "property": "C43",
   "status": "proved",
   "theorems": [
    "C43_recorded_values_are_fresh",
    "C43_fresh_value_ignores_stored_fields",
    "C43_fresh_value_linear"
   ],
   "note": "GD and ADAM; every recorded value is the objective on freshly solved fields of the design at that step, and fresh values do not depend on stored fields."
  },
  {
   "property": "C44",
   "status": "partial",
   "theorems": [
    "C44_uncached_partial",
    "C44_when_uncached",
    "C44_second_call_returns_first_value",
    "C44_stale_after_frequency_scan",
    "C44_passed_simulation_refuted"
   ],
   "note": "Holds whenever nothing is cached (_partial; characterised: new optimization, density, design-vector and source updates). Refuted in general: after one evaluation compute_J returns that value for every simulation; after scan_frequency it returns the value at the last frequency."
  },
  {
   "property": "C45",
   "status": "proved",
   "theorems": [
    "C45_run_appends_aligned_entries",
    "C45_objectives_and_amplitudes_aligned"
   ],
   "note": "Any sequence of runs of any methods that do not raise, with arbitrary edits of the simulation and arbitrary sequences of LBFGS calls."
  },
  {
   "property": "C46",
   "status": "proved",
   "theorems": [
    "C46_insert_and_extract_are_inverse",
    "C46_design_vector_order",
    "C46_design_vector_is_stored",
    "C46_lbfgs_without_steps"
   ],
   "note": "Insert/extract inverse, order of the design vector, tolerance of 1e-10, and LBFGS when the library only asks for the starting vector."
  },
  {
   "property": "C47",
   "status": "partial",
   "theorems": [
    "C47_lbfgs_value_partial",
    "C47_value_of_vector_refuted",
    "C47_lbfgs_gradient"
   ],
   "note": "Proved for every sequence of LBFGS calls: the value is minus the objective of the starting structure with a density that is x up to a relative error of 1e-10 (and the starting density elsewhere); the source is the only other trace of the history (_partial). The exact version is refuted: vectors closer than 1e-10 get the value of the earlier one."
  },
  {
   "property": "C48",
   "status": "partial",
   "theorems": [
    "C48_run_without_density_raises",
    "C48_run_without_density_refuted"
   ],
   "note": "False of the code: refuted; run raises (AttributeError, or TypeError when the density is None) and changes nothing, for every method, also for every newly constructed simulation."
  },
  {
   "property": "C49",
   "status": "proved",
   "theorems": [
    "C49_weights_convex",
    "C49_ADAM_uses_averages",
    "C49_average_between",
    "C49_constant_gradient"
   ],
   "note": "ADAM runs are exactly the runs whose steps use convex combinations with explicit weights, for any number of iterations; constant gradients."
  },
  {
   "property": "C50",
   "status": "partial",
   "theorems": [
    "C50_scan_values_and_width_partial",
    "C50_centre_not_on_peak_refuted",
    "C50_sample_is_a_new_simulation"
   ],
   "note": "Values, frequencies and width proved; when the central sample is not above half maximum the run ending just below it is counted, so the property is refuted in that case (_partial covers both)."
  },
  {
   "property": "C53",
   "status": "proved",
   "theorems": [
    "C53_objective_checks_arity",
    "C53_nonlinear_solve_iff_nonlinear_argument",
    "C53_other_polarization_raises",
    "C53_argument_names",
    "C53_fields_of_the_names"
   ],
   "note": "Arity check, linearity, nonlinear solve iff nonlinear argument, other polarization."
  },
  {
   "property": "C54",
   "status": "partial",
   "theorems": [
    "C54_lists_agree_iff",
    "C54_setter_refuted",
    "C54_mismatched_objective_raises"
   ],
   "note": "False of the code: refuted; the lists agree iff the last function assigned has as many parameters as there are arguments; otherwise evaluations raise."
  },
  {
   "property": "C69",
   "status": "partial",
   "theorems": [
    "C69_limit_met_iff_partial",
    "C69_small_limit_refuted"
   ],
   "note": "The limit is met iff the present shift is at most 40000 times the limit (_partial); refuted for smaller limits with a concrete Kerr simulation."
  },
  {
   "property": "C71",
   "status": "partial",
   "theorems": [
    "C71_options_ignored",
    "C71_averaging_ignored",
    "C71_run_same_for_all_options",
    "C71_options_refuted"
   ],
   "note": "False of the code: refuted; field_start and nl_solver have no effect on any run, evaluation or frequency scan, averaging none on solve_fields_nl."
  },
  {
   "property": "C59",
   "status": "partial",
   "theorems": [
    "C59_interface_power_conserved",
    "C59_column_sum",
    "C59_straight_waveguide_partial",
    "C59_probe_on_straight_waveguide_partial",
    "C59_full_height_refuted",
    "C59_step_refuted"
   ],
   "note": "The Poynting flux through cell interfaces is conserved for every solved Ez field without PML; the flux of flux_probe is conserved where the permittivity is the same on both columns (_partial); refuted for a permittivity step and for full-height lines (ValueError)."
  },
  {
   "property": "C60",
   "status": "proved",
   "theorems": [
    "C60_scales_with_power",
    "C60_time_reversal_flips_sign",
    "C60_source_times_factor"
   ],
   "note": "Any direction, centre, width, polarization, linear or nonlinear fields, including the calls that raise; also in terms of a rescaled source."
  },
  {
   "property": "C51",
   "status": "proved",
   "theorems": [
    "C51_frequency_scan_keeps_simulation",
    "C51_power_scan_keeps_simulation"
   ],
   "note": "scan_frequency and scan_power, any outcome."
  },
  {
   "property": "C52",
   "status": "partial",
   "theorems": [
    "C52_one_transmission_per_probe_and_power",
    "C52_scales_are_geometric",
    "C52_one_point",
    "C52_own_linear_fields_partial",
    "C52_stored_linear_fields_kept",
    "C52_nonlinear_fields_of_the_point",
    "C52_solver_of_the_point",
    "C52_stale_fields_refuted",
    "C52_source_of_the_point"
   ],
   "note": "One transmission per probe and power, geometric scales, each point a fresh setup and solve on a copy; the nonlinear fields a probe reads are those of the point, the linear ones when the simulation has none stored (_partial). Refuted: with stored linear fields the linear probes see the old fields."
  },
  {
   "property": "C55",
   "status": "partial",
   "theorems": [
    "C55_only_the_line_is_written",
    "C55_nothing_else_changes",
    "C55_linear_in_scale",
    "C55_set_up_again",
    "C55_modulus_independent_of_phase_partial",
    "C55_eigenvector_sign_refuted",
    "C55_line_holds_the_eigenvector",
    "C55_cut_line_refused",
    "C55_equation_of_the_line"
   ],
   "note": "Only the line is written, nothing else changes, linear in scale, set up again gives the same source, the line holds the eigenvector; modulus independent of phase for a deterministic eigensolver (_partial); refuted for eigensolvers that may return another sign."
  },
  {
   "property": "C56",
   "status": "partial",
   "theorems": [
    "C56_only_sources_off_the_line_partial",
    "C56_set_up_again_partial",
    "C56_refuted"
   ],
   "note": "Depends on the earlier source only off the line (_partial), set up again; false in general: refuted with a source elsewhere."
  },
  {
   "property": "C57",
   "status": "partial",
   "theorems": [
    "C57_measured_inside_partial",
    "C57_zero_power_near_the_border",
    "C57_index_minus_one_raises",
    "C57_refuted",
    "C57_center_outside_raises",
    "C57_negative_index_names_the_column"
   ],
   "note": "Normalisation measured in the interior for centres at least 2 (_partial); zero power for the first columns and centre -1 raises, so the property is refuted."
  },
  {
   "property": "C58",
   "status": "partial",
   "theorems": [
    "C58_exactly_width_pixels_partial",
    "C58_even_width_centred_partial",
    "C58_odd_width_shifted",
    "C58_line_to_the_border_raises",
    "C58_no_power_on_the_last_column",
    "C58_border_refuted",
    "C58_odd_width_refuted",
    "C58_no_power_on_the_last_row",
    "C58_line_to_the_right_border_raises"
   ],
   "note": "Exactly width pixels for lines clear of the last row and column, centred for even widths (_partial); refuted: odd widths are shifted by one pixel, lines that reach the border raise ValueError, the last column or row reports zero. Both orientations."
  },
  {
   "property": "C61",
   "status": "proved",
   "theorems": [
    "C61_order_irrelevant",
    "C61_two_port",
    "C61_three_port",
    "C61_N_port",
    "C61_ortho_port",
    "C61_accelerator",
    "C61_builders_return",
    "C61_accelerator_returns"
   ],
   "note": "All six builders: exact union of the regions, order irrelevant, values, shapes, and exactly when the builders return."
  },
  {
   "property": "C62",
   "status": "partial",
   "theorems": [
    "C62_coordinates_partial",
    "C62_spacing_refuted"
   ],
   "note": "Symmetric and equally spaced (_partial), but the pitch is N/(N-1) times dl, so the spacing is refuted for every shape; a single pixel sits at -dl/2."
  },
  {
   "property": "C63",
   "status": "partial",
   "theorems": [
    "C63_two_port",
    "C63_accelerator",
    "C63_N_port",
    "C63_three_port_even_rows_partial",
    "C63_three_port_odd_rows",
    "C63_three_port_refuted"
   ],
   "note": "two_port and accelerators in both directions, N_port right of the origin (the deliberate offset is on the left), three_port with an even number of rows (_partial). Refuted for three_port with an odd number of rows."
  },
  {
   "property": "C64",
   "status": "proved",
   "theorems": [
    "C64_density_factor",
    "C64_exponential_factor",
    "C64_only_the_design_region_counts"
   ],
   "note": "Both factors, with the exact lower bound of the exponential one; pixels outside the design region have no influence."
  },
  {
   "property": "C65",
   "status": "partial",
   "theorems": [
    "C65_smoothness_is_density",
    "C65_smoothness_refuted",
    "C65_arrangement_irrelevant"
   ],
   "note": "False of the code: refuted; smoothness equals density on permittivities between 1 and eps_m, and no factor depends on the arrangement for any permittivities."
  },
  {
   "property": "C66",
   "status": "partial",
   "theorems": [
    "C66_accepted_means_unusable",
    "C66_direct_call_partial",
    "C66_three_arguments_refused",
    "C66_binarized_objective_refuted"
   ],
   "note": "False of the code: refuted; a binarized objective accepted by Objective raises IndexError on every evaluation, one of three or more arguments is refused; a direct call works (_partial)."
  },
  {
   "property": "C74",
   "status": "proved",
   "theorems": [
    "C74_assignment_discards_fields",
    "C74_init_discards_fields",
    "C74_nonlinear_fields_of_present_structure",
    "C74_results_are_stored"
   ],
   "note": "Every history of operations of the simulation."
  },
  {
   "property": "C75",
   "status": "partial",
   "theorems": [
    "C75_input_guide_rows_partial",
    "C75_parity_refuted"
   ],
   "note": "The guide has int(w/dl) rows or one fewer, whichever has the parity of the number of rows, and is centred (_partial); refuted for the other parity."
  },
  {
   "property": "C76",
   "status": "proved",
   "theorems": [
    "C76_even_number_raises",
    "C76_slabs",
    "C76_mirror",
    "C76_channels"
   ],
   "note": "Every odd number of channels; even numbers raise."
  },
  {
   "property": "C77",
   "status": "partial",
   "theorems": [
    "C77_conversions",
    "C77_derivative_partial",
    "C77_derivative_refuted",
    "C77_drho_bar_drho_raises"
   ],
   "note": "Inverses and agreement with the filter proved; deps_drho_bar is the derivative iff eps_m = 2 (_partial), refuted; drho_bar_drho always raises NameError."
  },
  {
   "property": "C78",
   "status": "partial",
   "theorems": [
    "C78_profile_has_designed_strength",
    "C78_layers_partial",
    "C78_high_end_refuted"
   ],
   "note": "The continuous profile has exactly the designed strength. On the grid the layer at the low end of an axis is stronger and the one at the high end weaker by at least ((N-1)/N)^5 (_partial), so the property is refuted for every simulation with PML (10 pixels: below 7.1 instead of 12)."
  },
  {
   "property": "C79",
   "status": "proved",
   "theorems": [
    "C79_translation_beside_pml",
    "C79_translation"
   ],
   "note": "All three components, both polarizations, both values of averaging; no PML along the axis of the translation, any PML along the other."
  },
  {
   "property": "C80",
   "status": "proved",
   "theorems": [
    "C80_axes_exchanged"
   ],
   "note": "Any PML, both polarizations, both values of averaging."
  },
  {
   "property": "C81",
   "status": "partial",
   "theorems": [
    "C81_reflection_x",
    "C81_reflection_y",
    "C81_Hz_default_partial",
    "C81_Hz_default_averaging_refuted"
   ],
   "note": "Proved for Ez and for Hz with averaging=True. For Hz with the default averaging the component across the mirror is reversed at an edge iff hz or the permittivity is equal on its two sides (_partial), so the property is refuted there."
  },
  {
   "property": "C82",
   "status": "proved",
   "theorems": [
    "C82_units_linear",
    "C82_units_nonlinear",
    "C82_units_index_shift",
    "C82_one_pixel_refuted"
   ],
   "note": "Grids of at least 2 x 2 pixels: linear solve, born, newton and hybrid solvers, index shift. Refuted for one-pixel axes, where the derivative is the identity. The krylov solver is an oracle and not covered."
  },
  {
   "property": "C83",
   "status": "proved",
   "theorems": [
    "C83_time_reversal",
    "C83_time_reversal_nonlinear"
   ],
   "note": "No PML; linear solve and the nonlinear equation."
  },
  {
   "property": "C84",
   "status": "proved",
   "theorems": [
    "C84_frequency_permittivity"
   ],
   "note": "No PML, linear solve."
  },
  {
   "property": "C85",
   "status": "proved",
   "theorems": [
    "C85_small_step_improves",
    "C85_small_step_improves_without_filter"
   ],
   "note": "Ez, linear objectives; GD and the first ADAM iteration. With the filter the statement assumes W j p = W p j * design j; without the filter there is no such assumption. Later ADAM iterations are not ascent directions in general and are not claimed."
  },
  {
   "property": "C86",
   "status": "proved",
   "theorems": [
    "C86_pixels_on_no_line_keep_their_source",
    "C86_last_added_mode_wins",
    "C86_input_power_of_the_last_mode",
    "C86_separate_modes_add_up",
    "C86_set_up_in_the_order_added"
   ],
   "note": "Every list of modes; the separate-modes sum is for pairwise disjoint lines."
  },
  {
   "property": "C87",
   "status": "proved",
   "theorems": [
    "C87_plt_abs",
    "C87_plt_re",
    "C87_plt_eps",
    "C87_plt_diff",
    "C87_unsolved",
    "C87_reachable_shaped"
   ],
   "note": "The data handed to matplotlib; rendering, colour maps and the logarithmic colour scale are not modelled."
  },
  {
   "property": "C88",
   "status": "proved",
   "theorems": [
    "C88_frames",
    "C88_loop_closes",
    "C88_scale",
    "C88_harmonic",
    "C88_one_frame",
    "C88_square_pixels_iff",
    "C88_stretched_frames",
    "C88_square_pixels_refuted"
   ],
   "note": "Includes the refuted expectation of square pixels (the first image is transposed twice), characterised by C88_square_pixels_iff."
  },
  {
   "property": "C89",
   "status": "proved",
   "theorems": [
    "C89_unit_amplitude",
    "C89_points",
    "C89_without_axes_raises",
    "C89_wrong_degree"
   ],
   "note": "Linear Ez/Hz objectives without nonlinear fields; wrong degree and missing axes are characterised."
  },
  {
   "property": "C90",
   "status": "proved",
   "theorems": [
    "C90_names_distinct",
    "C90_names_sorted",
    "C90_six_digits",
    "C90_files",
    "C90_no_influence",
    "C90_without_temp_plt",
    "C90_old_files_removed",
    "C90_contents",
    "C90_run_succeeds",
    "C90_first_picture_fails",
    "C90_page_failures",
    "C90_default_figure_empty",
    "C90_Hz_fails",
    "C90_every_due_iteration",
    "C90_default_every_iteration"
   ],
   "note": "File names and contents for GD and ADAM; no influence and removal of old files for L-BFGS as well. C90_default_figure_empty, C90_page_failures and C90_Hz_fails characterise the calls in which no picture can be drawn."
  },
  {
   "property": "C93",
   "status": "partial",
   "theorems": [
    "C93_kerr_optimizers_keep_symmetry",
    "C93_optimizers_keep_symmetry",
    "C93_filter_symmetric",
    "C93_no_filter_symmetric",
    "C93_mirror_across_pml_refuted"
   ],
   "note": "Proved for the symmetries the discretised operator has (C93_optimizers_keep_symmetry; C93_kerr_optimizers_keep_symmetry for objectives of the nonlinear Ez field, when the systems met along the run, the adjoint included, have one solution; filters in C93_filter_symmetric). The mirror across an absorbing layer is false of the code and refuted (C93_mirror_across_pml_refuted). L-BFGS and the polarization Hz are not covered."
  },
  {
   "property": "C92",
   "status": "partial",
   "theorems": [
    "C92_gd_resumes",
    "C92_gd_any_division",
    "C92_failure_keeps_last_design",
    "C92_adam_without_memory_resumes",
    "C92_adam_resumes_refuted"
   ],
   "note": "Proved for gradient descent, for failures of both methods and for ADAM with beta1 = beta2 = 0. For ADAM with memory the property is false of the code and refuted at the default parameters (C92_adam_resumes_refuted). L-BFGS keeps its history inside scipy and is not covered."
  },
  {
   "property": "C94",
   "status": "proved",
   "theorems": [
    "C94_two_powers_same_transmission",
    "C94_power_scan_is_flat",
    "C94_every_power_can_be_computed"
   ],
   "note": "For probes that read the nonlinear fields. Probes that read the linear fields see stale ones when the simulation stores any (C52_stored_linear_fields_kept). The solver krylov returns the oracle of scipy and is not covered."
  },
  {
   "property": "C91",
   "status": "proved",
   "theorems": [
    "C91_frequency_data",
    "C91_power_data",
    "C91_flags_tell_the_truth",
    "C91_data_need_parameters_and_geometry",
    "C91_geometry_is_stored",
    "C91_new_device",
    "C91_parameters_are_stored",
    "C91_two_port_transmissions",
    "C91_three_port_table",
    "C91_ortho_port_table",
    "C91_Hz_device_refused"
   ],
   "note": "Pickling (save, load_device) and the pictures are not modelled."
  },
  {
   "property": "C95",
   "status": "partial",
   "theorems": [
    "C95_output_column_partial",
    "C95_one_or_two_pixels_measure_nothing",
    "C95_output_column_refuted",
    "C95_recorded_coordinates",
    "C95_coordinates_refuted",
    "C95_stale_data_refuted"
   ],
   "note": "False as stated: C95_output_column_refuted (one or two pixels from the end nothing is measured), C95_coordinates_refuted (linspace over n pixels takes n-1 steps) and C95_stale_data_refuted. C95_output_column_partial gives the region where the place is right (at least three pixels), C95_recorded_coordinates the exact spacing."
  },
  {
   "property": "C96",
   "status": "proved",
   "theorems": [
    "C96_fields_agree",
    "C96_linear_device",
    "C96_flat_power_scan"
   ],
   "note": "The power scan theorem has the hypotheses of C94 (the mode is the only source)."
  },
  {
   "property": "C97",
   "status": "partial",
   "theorems": [
    "C97_scan_values",
    "C97_frequencies_about_the_centre",
    "C97_linear_power_unique",
    "C97_linear_device",
    "C97_low_power_scan_raises",
    "C97_low_power_scan_TypeError",
    "C97_get_spectrum_never_returns",
    "C97_high_power_scan_returns"
   ],
   "note": "Proved for the scan with a probe of the nonlinear fields. The last sentence is false: C97_low_power_scan_raises and C97_get_spectrum_never_returns (two_port: no linear fields at the new frequencies; ortho_port: a probe is not defined; other structures: no probes)."
  },
  {
   "property": "C98",
   "status": "proved",
   "theorems": [
    "C98_one_solution",
    "C98_born_error",
    "C98_born_from_the_linear_field",
    "C98_born_record",
    "C98_born_stops",
    "C98_default_solver",
    "C98_low_power",
    "C98_low_power_default_solver"
   ],
   "note": "For an exact linear solver. The solution is unique in the ball of radius 2 K |source term|; K bounds the inverse of the system matrix."
  },
  {
   "property": "C99",
   "status": "proved",
   "theorems": [
    "C99_solution_isolated",
    "C99_newton_quadratic",
    "C99_newton_weak"
   ],
   "note": "For an exact linear solver, Ez polarization (for Hz the solver raises, C33). The last linear solve of the solver is included in the error."
  },
  {
   "property": "C100",
   "status": "proved",
   "theorems": [
    "C100_power_and_chi3",
    "C100_same_index_shift",
    "C100_solutions"
   ],
   "note": "For an exact linear solver, matrices that are invertible along the way, and a simulation without an already stored linear field; Born, Newton and hybrid solvers."
  },
  {
   "property": "C101",
   "status": "proved",
   "theorems": [
    "C101_no_net_power",
    "C101_interface_power"
   ],
   "note": "Net power for both polarizations; the interface statement for Ez polarization, in the interface densities of C59."
  },
  {
   "property": "C102",
   "status": "proved",
   "theorems": [
    "C102_stats_are_the_data",
    "C102_no_data"
   ],
   "note": "The rounding of the format strings is not modelled. For three ports no transmission is printed."
  },
  {
   "property": "C103",
   "status": "proved",
   "theorems": [
    "C103_run_stays_near",
    "C103_default_parameters",
    "C103_first_step"
   ],
   "note": "Exact real arithmetic; condition beta1^2 < beta2 (met by the defaults)."
  },
  {
   "property": "C104",
   "status": "partial",
   "theorems": [
    "C104_rounding_is_nearest",
    "C104_port_shapes",
    "C104_ortho_shape",
    "C104_accelerator_shape",
    "C104_accelerator_multi_shape",
    "C104_width_never_loses",
    "C104_power_of_two_exact",
    "C104_halves_and_windows_exact",
    "C104_decimal_within_one",
    "C104_decimal_lengths_refuted",
    "C104_grid_loses_a_cell"
   ],
   "note": "The last sentence is refuted (C104_decimal_lengths_refuted, C104_grid_loses_a_cell): in python L = 0.3 and dl = 0.1 make two cells; C104_decimal_within_one shows that at most one cell is lost. Everything else is proved. Overflow and NaN are not modelled."
  },
  {
   "property": "C105",
   "status": "partial",
   "theorems": [
    "C105_coordinates",
    "C105_two_port",
    "C105_two_port_mirror",
    "C105_two_port_as_exact",
    "C105_three_port",
    "C105_decimals",
    "C105_mirror_refuted"
   ],
   "note": "The last sentence is refuted (C105_mirror_refuted): a guide 4/3 pixels wide on four rows contains row 2 and not row 1. Everything else is proved. In three_port the middle column of an odd number of columns outside the box is left out (the sign of x is a matter of rounding there). Overflow and NaN are not modelled."
  },
  {
   "property": "C106",
   "status": "proved",
   "theorems": [
    "C106_almost_every_frequency",
    "C106_closed_domain",
    "C106_uniform_medium",
    "C106_every_frequency_refuted",
    "C106_libraries_agree"
   ],
   "note": "Every valid simulation having a field is false of the code (C106_every_frequency_refuted); the property says what is true instead. Rounding near a resonance is not modelled."
  },
  {
   "property": "C107",
   "status": "proved",
   "theorems": [
    "C107_translation",
    "C107_axes_exchanged",
    "C107_reflection_x",
    "C107_reflection_y"
   ],
   "note": "The component of an Hz field across the axis of reflection is not claimed (false already for linear fields, C81). Fields already stored by an earlier solve, used as starting field, are outside the theorems."
  },
  {
   "property": "C108",
   "status": "proved",
   "theorems": [
    "C108_projection",
    "C108_permittivity",
    "C108_density_to_permittivity",
    "C108_unfiltered_pixels",
    "C108_filter_rows",
    "C108_initial_density",
    "C108_two_level_designs",
    "C108_updates",
    "C108_runs",
    "C108_correctly_rounded_tanh"
   ],
   "note": "The tanh of the C library is a parameter with four stated properties; a correctly rounded tanh has them (C108_correctly_rounded_tanh). Without a filter radius the code computes with complex arrays, which is not modelled here. Overflow, NaN and fused multiply-add are not modelled."
  },
  {
   "property": "C109",
   "status": "proved",
   "theorems": [
    "C109_response",
    "C109_free_waves",
    "C109_probe",
    "C109_dispersion",
    "C109_constants"
   ],
   "note": "Real arithmetic, a solver that solves exactly. Periodic domain without absorbing layer. The probe theorem is for lines whose pixels all lie before the last row and column."
  },
  {
   "property": "C110",
   "status": "proved",
   "theorems": [
    "C110_wave_operator",
    "C110_derivatives",
    "C110_field_bound",
    "C110_convergence"
   ],
   "note": "Real arithmetic, a solver that solves exactly. Periodic domain without absorbing layer. The convergence of the solution is for a uniform medium; the wave operator is covered for Ez with any permittivity."
  },
  {
   "property": "C111",
   "status": "proved",
   "theorems": [
    "C111_is_equal",
    "C111_Ez_structures_told_apart",
    "C111_Hz_checkerboards",
    "C111_same_matrix_same_field",
    "C111_Hz_in_plane_fields"
   ],
   "note": "Real arithmetic, a solver that solves exactly. For Hz at least 3 pixels in each direction."
  },
  {
   "property": "C112",
   "status": "proved",
   "theorems": [
    "C112_stationary_designs_stay",
    "C112_other_designs_move"
   ],
   "note": "Ez, linear objectives, no limit on the index shift; real arithmetic, a solver that solves exactly. Assumes that the objective reads only the entries of the arrays it is given."
  },
  {
   "property": "C113",
   "status": "partial",
   "theorems": [
    "C113_step_accurate",
    "C113_step_exact",
    "C113_step_power_of_two",
    "C113_step_refuted",
    "C113_uniform_field",
    "C113_transpose",
    "C113_derivative_accurate",
    "C113_total_error",
    "C113_relative_error_refuted"
   ],
   "note": "The claim that the step is exactly dl, and the claim that derivatives have a small relative error, are false and refuted; the accuracy bounds and the exact parts are proved. Without PML; infinities, NaN and the sign of zero are not modelled."
  },
  {
   "property": "C114",
   "status": "proved",
   "theorems": [
    "C114_constants",
    "C114_consistent",
    "C114_micrometres",
    "C114_digits"
   ],
   "note": "Exact reals for float64; without PML."
  },
  {
   "property": "C115",
   "status": "partial",
   "theorems": [
    "C115_n2_refuted",
    "C115_np_not_enough",
    "C115_formula"
   ],
   "note": "False of the code and refuted: the function reads two names the module does not bind, so every call raises NameError. With these names bound the formula is the promised one."
  },
  {
   "property": "C116",
   "status": "partial",
   "theorems": [
    "C116_two_port",
    "C116_two_port_sketch",
    "C116_curves",
    "C116_two_port_returns",
    "C116_ortho_port_returns",
    "C116_two_port_positions",
    "C116_square_pixels_refuted",
    "C116_ortho_port_upside_down",
    "C116_in_place_refuted",
    "C116_three_port_refuted",
    "C116_abstract_refuted",
    "C116_unknown",
    "C116_independent_of_power",
    "C116_ortho_port_sketch",
    "C116_colour_scale"
   ],
   "note": "False parts refuted: no three-port is drawn (the builder of nine arguments is called with eight, TypeError); the graphical abstract is never drawn; the panels of an ortho-port are upside down against their axis; the pixels of a two-port panel are not square. Two-port and ortho-port figures are proved to return and to show the promised values. Rendering by matplotlib is not modelled."
  },
  {
   "property": "C117",
   "status": "partial",
   "theorems": [
    "C117_travels_alone_x",
    "C117_travels_alone_y",
    "C117_simple_mode_one_phase",
    "C117_positive_mode_simple",
    "C117_profile_kept_iff",
    "C117_narrow_source",
    "C117_set_up_narrow",
    "C117_whole_line_refused",
    "C117_degenerate_refuted",
    "C117_property_refuted"
   ],
   "note": "False as a whole, and refuted: setup_modes refuses a line that crosses the whole grid (its power monitor has mismatching shapes), and a line that leaves two neighbouring pixels of the column out never excites one profile. Proved for what insert_mode writes on a whole column or row, Ez polarization, when the returned eigenvector has one phase up to a constant; a simple mode always has one, the fundamental (positive) mode is simple, and without this hypothesis the claim is refuted. A field is of one profile iff the written profile is a mode. Hz polarization is not covered."
  },
  {
   "property": "C118",
   "status": "proved",
   "theorems": [
    "C118_fundamental_exists",
    "C118_fundamental",
    "C118_set_up",
    "C118_travels_alone_x",
    "C118_travels_alone_y",
    "C118_low_guess_refuted"
   ],
   "note": "For insert_mode and for setup_modes of a simulation with this one mode, both polarizations, both normals, lines of two or more pixels. What is written is the fundamental mode times a real factor; the factor is zero only if the scale is 0 or the eigenvector came back purely imaginary (the code keeps the sign of its real part). The eigensolver is assumed to return a unit eigenvector of an eigenvalue nearest to the guess when it returns at all. With a guess between the indices on the line the claim is refuted (a two-signed mode is written). Straight guides: Ez polarization, a line over the whole column or row."
  },
  {
   "property": "C119",
   "status": "proved",
   "theorems": [
    "C119_profile_kept_iff_x",
    "C119_profile_kept_iff_y",
    "C119_divided_source_x",
    "C119_divided_source_y",
    "C119_alone_iff_uniform_y",
    "C119_mode_alone_y_refuted",
    "C119_mode_alone_x_refuted"
   ],
   "note": "Both directions of the guide; an absorbing layer is allowed along the guide only. The expectation that the mode source of the code excites its mode alone, true for Ez (C117, C118), is refuted for Hz with an exact solver and the fundamental eigenvector: for a guide along y in every case but a uniform row, for a guide along x by a guide of two materials (there the mode is moreover computed without the averaging of the permittivity that the system uses). Exact arithmetic."
  },
  {
   "property": "C120",
   "status": "partial",
   "theorems": [
    "C120_constant_of_the_line",
    "C120_more_permittivity",
    "C120_effective_index_grows",
    "C120_first_order",
    "C120_symmetric_source_partial",
    "C120_Hz_x_symmetric_iff_uniform",
    "C120_symmetric_source_Hz_x_refuted",
    "C120_orthogonal"
   ],
   "note": "Proved for both polarizations and directions, except the last sentence for Hz and normal x: there the code averages the permittivity along the wrong axis, and the source of a symmetric cross-section is symmetric if and only if the cross-section is uniform (C120_symmetric_source_Hz_x_refuted). Orthogonality assumes eigenvectors that are real up to a phase. Exact arithmetic."
  },
  {
   "property": "C121",
   "status": "proved",
   "theorems": [
    "C121_source_strength_cancels",
    "C121_straight_guide_transmits_one",
    "C121_equal_split_is_best",
    "C121_two_way",
    "C121_switch",
    "C121_three_port",
    "C121_transmission_of_each_port",
    "C121_linear_switch"
   ],
   "note": "Polarization Ez, as in the examples. Exact arithmetic. That the ports together get at most the power of the straight guide is a hypothesis of the bounds, not a theorem."
  },
  {
   "property": "C122",
   "status": "proved",
   "theorems": [
    "C122_splitter",
    "C122_switch",
    "C122_three_port",
    "C122_splitter_gradient",
    "C122_switch_gradient"
   ],
   "note": "Polarization Ez, no spatial filter (C35 and C37 for these objectives, with their assumption on the gradient of the objective proved). The gradient of the objective with respect to the fields, computed by autograd, is modelled as its chain rule and proved to be the derivative. Exact arithmetic."
  },
  {
   "property": "C123",
   "status": "proved",
   "theorems": [
    "C123_gain_bound",
    "C123_objective_gradient",
    "C123_position_turns_phase",
    "C123_uniform_channel_gains_nothing",
    "C123_slabs_are_uniform",
    "C123_gain_per_reference_field",
    "C123_source_strength_cancels"
   ],
   "note": "Polarization Hz, as in the example. Exact arithmetic: the period of the structure is exactly the distance per cycle (in the notebook the rounding of the grid makes this approximate). The derivative is the one with respect to the field; the gradient with respect to the density has the wrong value for Hz (C39)."
  },
  {
   "property": "C124",
   "status": "proved",
   "theorems": [
    "C124_gain_bound",
    "C124_uniform_channels_gain_nothing",
    "C124_slabs_are_uniform",
    "C124_source_strength_cancels",
    "C124_columns_are_channels",
    "C124_every_channel_is_read"
   ],
   "note": "Polarization Hz, as in the example. Exact arithmetic, with the same remark on the period as in C123. The gradient of this objective (a quotient with maxima) is not modelled."
  },
  {
   "property": "C125",
   "status": "proved",
   "theorems": [
    "C125_effective_width",
    "C125_plateau",
    "C125_width_of_scaled_field",
    "C125_predicted_phase",
    "C125_unit_of_length"
   ],
   "note": "Exact arithmetic. The notebook takes 3e8 for the speed of light in the wave number and C_0 in the nonlinear index; both are kept as they are."
  }
 ]
}
