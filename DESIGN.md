# Formal model of fancompute/angler in Rocq (Coq 8.16.1)

Source: `/repo` (python), read as text.  Nothing of it is executed.

## 1. Shape of the development

`/verif/rocq/theories/`

| file | content |
|---|---|
| `Base.v` | exceptions as values, state+exception monad, finite sums over R and C, complex conjugate lemmas |
| `Linear.v` | vectors `nat -> C`, matrices `nat -> nat -> C` with explicit sizes, products, transposes, inverses |
| `Spec.v` | small independent specification vocabulary (periodic difference, non-singular, gradient of a real function of complex fields, weighted average, ...) |
| `M*.v` | the model, one file per python module, every definition citing file and lines |
| `P*.v` | lemmas |
| `Props*.v` | the theorems of MANIFEST.json, `Print Assumptions`, non-vacuity examples |

Modelling decisions

* **Numbers.** Floats are idealised as exact reals `R` / Coquelicot complex numbers `C`.
  Rounding, overflow and `complex64` truncation are *not* modelled.  Where the program's
  control flow depends on inf/nan (0/0 in convergence tests, division by a zero norm), quotients
  are taken in an extended type `xr = Fin r | PInf | NaN` with IEEE comparison.
* **Arrays.** An `ndarray` is a shape and a C-ordered buffer `nat -> T`; `reshape` is the identity
  on the buffer.  `a[i,j]` is `buf (i*Ny+j)`.  Cells outside the shape carry no meaning and
  no theorem speaks of them.
* **Sparse matrices** are functions `nat -> nat -> C` with the entry-level meaning of
  `sp.diags`, `sp.spdiags`, `sp.kron`, `sp.eye`, `.dot`, `.multiply`, `.T`, `csr_matrix((v,(r,c)))`
  (duplicates added, out-of-range column raises ValueError).
* **Exceptions** are values: methods are functions `state -> state * result A`, so the state at the
  moment of the exception is visible.
* **External code** (SuperLU / pardiso, ARPACK `eigs`, `np.random`, `fmin_l_bfgs_b`,
  autograd, user objective) appears as *parameters* (fields of a record `env`, or arbitrary lists of
  callbacks for L-BFGS).  What a theorem assumes of them ("the solver returns a solution whenever the
  matrix is non-singular") is a hypothesis in its statement, never an axiom.
* Progress bars, printing and timing are not modelled.  A plot is the data handed to matplotlib.

## 2. Trusted base

Coq 8.16.1 kernel; Coq standard library Reals axioms (`ClassicalDedekindReals.sig_not_dec`,
`ClassicalDedekindReals.sig_forall_dec`), `FunctionalExtensionality.functional_extensionality_dep`,
`Classical_Prop.classic`, and for the existence of a concrete exact solver used in
non-vacuity examples `ClassicalEpsilon.constructive_indefinite_description`.
No axiom is declared here.  `Print Assumptions` output per theorem is in section 4 (kept current).
The hand translation python -> Gallina is trusted; each definition cites its lines.

## 3. Plan per property

For each property of `properties.jsonl`: what is modelled, how it is proved.  "refuted" means the
property as stated is false of the code: a theorem `..._refuted` gives a counterexample in the model
and further theorems give the exact region where it does hold.

| id | modelled | proof |
|---|---|---|
| C01 | `createDws`, `S_create`, `construct_A` | entry-level computation of kron/diags, delta sums, division lemmas on i*Ny+j |
| C02 | same | from entries: Df = -Db^T, kron factors commute |
| C03 | same | refuted: operator is the identity; action of the code characterised |
| C04 | `__init__`, eps_r setter, `dL` | holds iff shape unchanged; refuted on shape change |
| C05 | `sig_w`, `S`, `create_sfactor`, `S_create` | real inequalities |
| C06 | same | refuted for mirror symmetry (all Nw > 2 NPML), monotone grading proved |
| C07 | `construct_A` | S A symmetric from Df=-Db^T, diagonal commutation; bilinear form |
| C08 | `construct_A`, `solve_fields` | A real symmetric => quadratic form real |
| C09 | `solve_fields` | algebra from A X = b; refuted for Hz default averaging |
| C10 | `solver_direct`, `solve_fields` | uniqueness from left inverse |
| C11 | `construct_A` | C01 + algebra |
| C12 | `compute_nl`, `solve_fields` | entrywise; refuted for Hz |
| C13 | `Simulation` as transition system | invariant by induction over operation lists |
| C14 | same | invariant without src/omega change; refuted with it |
| C15 | same + nonlinear solvers | invariant through the iteration loops |
| C16 | `init_design_region` | case analysis |
| C17 | heap model of arrays | refuted for 'halfway', proved for the others |
| C18 | `get_W`, `rho2rhot` | row of W outside design is a unit vector |
| C19 | `get_W` | deep-interior average theorem; refuted at the edge of the filtered block |
| C20 | `wrap`, `get_W` | refuted: every periodic x filter with R>=2 raises |
| C21-C23 | `rhot2rhob`, `drhob_drhot` | analysis of tanh with Coquelicot |
| C24-C25 | `eps2rho`, `rhob2eps`, `rho2eps` | algebra, C21 |
| C26-C27 | `Nonlinearity`, `compute_nl` | algebra; permutations of the list |
| C28 | `solver_complex2real` | splitting sums in real and imaginary blocks |
| C29-C31 | `born_solve`, `newton_solve`, `nl_eq_and_jac` | induction on iterations |
| C32-C34 | `solve_fields_nl` | case analysis; refutations |
| C35-C37 | `gradients.py`, `adjoint.py`, `compute_dJ` | derivative of the inverse by rank-one updates, chain rule, adjoint identity |
| C38 | same with `get_W` | proved when the filter is symmetric on the design block; refuted otherwise |
| C39 | Hz gradients | refuted by an explicit small system |
| C40 | `GRADIENT_MAP` | case analysis; refuted for five of twelve |
| C41-C47 | `Optimization` as transition system | induction over steps / callbacks |
| C48 | `run` | refuted |
| C49 | `_step_adam` | induction on iterations |
| C50-C52 | `scan_frequency`, `scan_power` | list induction |
| C53-C54 | `Objective`, `obj_arg` | list induction; refutation |
| C55-C57 | `mode` | slice semantics; refutations |
| C58-C60 | `flux_probe` | slice arithmetic, sums; refutation of conservation |
| C61-C63 | `structures.py` | list induction, linspace algebra |
| C64-C66 | `Binarizer` | finite sums |
| C67 | `__init__`, `_check_inputs` | case analysis |
| C68-C69 | `compute_index_shift`, `_set_source_amplitude` | real inequalities |
| C70 | `grid_average` | sums |
| C71 | options | non-dependence, by definition unfolding over all option values |
| C72 | `check_deriv` | C35 + definition of derivative |
| C73 | heap model `MHeap.v`: arrays are addresses, a simulation holds the address of its permittivity | case analysis over the styles; halfway writes in place: refuted, others proved |
| C74 | `Simulation` histories, `store3` | case analysis of every operation that stores fields |
| C75-C76 | `three_port`, `accelerator_multi` | counting of grid rows, integer arithmetic; parity refutation |
| C77 | `utils.py` conversions | algebra, derivative by Coquelicot; refutation |
| C78 | `sig_w`, `S`, `create_sfactor` | integral of the profile, sums against integrals; refutation |
| C79 | `construct_A`, `solve_fields` | grid form of the matrix, covariance under shifts, uniqueness of the solution |
| C80 | same, with `S_create` | grid form, exchange of the axes, uniqueness |
| C81 | same | grid form, mirror; refutation by a 2 x 2 device for Hz with averaging=False |
| C82 | `Simulation`, `add_nl`, `solve_fields`, `solve_fields_nl`, `compute_index_shift` | relation between the two runs kept by every step of the solvers (induction on iterations); one-pixel axes refuted |
| C83 | `construct_A`, `solve_fields`, `compute_nl` | the matrix without PML is real, uniqueness |
| C84 | `construct_A`, `solve_fields` | ratio of the two matrices, uniqueness |
| C85 | `run`, `_run_GD`, `_run_ADAM`, `adjoint_linear`, `Objective` | directional derivative of the objective along the step; projection onto [0,1] is inactive on the movable pixels for small steps |
| C86 | `setup_modes`, `add_mode`, `mode.setup_src`, `insert_mode` | induction on the list of modes |
| C87 | `plt_abs`, `plt_re`, `plt_diff`, `plt_eps`, `plt_base`, `plt_base_eps` as the data handed to matplotlib | index arithmetic of transpose and hstack; maximum over tiles |
| C88 | `plt_base_ani`: limits, frames, box | trigonometric identities; box characterised, square pixels refuted |
| C89 | `plt_objs`, histories of runs | homogeneity of the objective and linearity of the solve |
| C90 | `run` with `temp_plt`: `_check_temp_plt`, `plot_it`, folder as association list | one loop for GD and ADAM, invariant on the folder, induction on the number of steps |
| C92 | `run` with GD and ADAM as state transformers | induction on the first part; failures by the frame of one iteration; refutation with an explicit gradient on a uniform 2 x 2 device |
| C94 | `scan_point`, `scan_power` on simulations with zero susceptibilities | every nonlinear solve ends with a linear system equal to the linear one; fields and input power scale with the source; quotient |
| C91 | class `Device` of `data/device_saver.py` (`MDevice.v`): attributes as a dictionary, deep copies as values | invariant over histories of calls; footprint calculus (which attributes a method may set, needs, gives) |
| C95 | `Device._calc_trans_*`, `flux_probe` with negative centers | slices with negative bounds; refuted near the end, for coordinates and for stale data |
| C96 | `generate_data`, `power_scan` | nonlinear solve of a linear problem is the linear one; C94 for the scan |
| C97 | `scan_frequency` and `get_spectrum` of `data/spectrum_plotter.py` (`MSpectrum.v`) | induction over the frequencies; the solve with a starting field leaves the linear fields unset, so get_spectrum is refuted |
| C98 | the Born loop, the hybrid solver and the Kerr term, as in C29-C33 | contraction of the Born map on a ball (`PWeak.v`), completeness of the reals for existence, induction over the loop; low power by scaling |
| C99 | the Newton loop and the derivative of the nonlinear equation, as in C28-C31 | Taylor expansion of the Kerr term with an explicit rest (`PNewton.v`), stability of an injective real-linear map, induction over the loop |
| C100 | the nonlinear solvers, chi3 and the source, as in C28-C33 | a relation between two runs preserved by every step of the loops (`PropsPower.v`) |
| C101 | the last linear solve of every nonlinear solver | the returned field solves a linear problem with a frozen real permittivity; then C59 applies (`PropsNlPower.v`) |
| C102 | `get_stats` (`MStats.v`) on the device of C91 | frame conditions of the parts of `generate_data` and the values they store |
| C103 | `run` with `MADAM` (`MOpt.v`) | invariant: first moment squared at most a factor times the second (Cauchy-Schwarz), the bias corrections by the mean inequality; induction on the iterations |
| C104 | the counting expressions of `structures.py`, `simulation.py`, `mode.py` in binary64 (`MFloat.v`, Flocq's rounding) | relative error of each operation carried through the expression; monotonicity of rounding; concrete division by evaluation |
| C105 | `get_grid`, `apply_regions`, `two_port`, `three_port` in binary64 (`MFloatGrid.v`) | error of each coordinate bounded; edges of whole-pixel regions are at least one unit delta/(2(n-1)) from every pixel centre, or on the border or middle |
| C106 | system matrix as a function of the frequency (`MCore.v`) | entries are quotients of polynomials in omega; elimination keeps this, so a family that is non-singular once is so up to finitely many zeros (`PSolv.v`); without PML eigenvectors of different frequencies are orthogonal (Bessel); plane waves and finite Fourier inversion for the uniform medium |
| C107 | nonlinear solvers (`MSim.v`) | the solvers run in lock step on two simulations whose pixels are renumbered; norms do not change, so all comparisons agree (`PSymNl.v`); the renumbering moves the system matrix (`PropsSymNl.v`) |
| C108 | `filter.py` and `_update_rho` in binary64 (`MFloatFilter.v`), tanh a parameter | rounding is monotone and odd, eps_m - 1 is exact; induction over the rows of the filter and over the updates |
| C109 | the model of C01, C58 and C106 in a uniform medium | plane waves diagonalise the periodic differences; the discrete equations reduce to one scalar equation; y cos y < sin y < y on (0, pi/2) by the mean value theorem |
| C110 | the model of C01, C106 and C109, and functions of the plane with bounded derivatives | Taylor's theorem with remainder for the differences; Parseval's identity on the grid gives a lower bound of the wave operator by its distance from the resonances; summation by parts bounds the differences of the error |
| C111 | `is_equal` (`MEqual.v`): the number of positions at which two matrices differ; the matrices of C11 | single entries of the matrix give back the averages along both axes (the factors of the absorbing layer are not zero); sequences that alternate around a cycle vanish when its length is odd |
| C112 | the loops of C43 | a relation between simulations with the same arrays is kept by evaluation and by an update that moves no density; the moments of ADAM under a constant gradient in closed form |
| C113 | the grid step, the entries of createDws and the sparse product in binary64 | relative errors of single roundings (Flocq) composed; a row has two entries; Taylor expansion of C110 for the total error; concrete counterexamples by evaluation in Flocq |
| C114 | the constants of constants.py, Simulation with the default length scale | Machin's series bounds pi to ten digits, square roots bounded by squares; C110_wave_operator rescaled |
| C115 | n2_from_chi3 and the names bound by constants.py | evaluation; the formula with the missing names bound |
| C116 | plot_generator.py: pad_array, pad_list, the three plot functions, plot_Device; TOC_generator.py: plot_Device | the figure as a record of panels and curves; inversion of the monadic program, index arithmetic of padding and flipping |
| C117 | mode.py: insert_mode, setup_src; simulation.py: solve_fields, the matrices of a straight guide | separation of variables on the grid, projection on the profile and uniqueness of the solution; eigenvectors of a real symmetric matrix; sign argument (discrete maximum principle) for the positive mode |
| C118 | mode.py: insert_mode, setup_src; linalg.py: solver_eigs (as an eigensolver that returns a nearest eigenvalue) | the transverse matrix as a weighted periodic chain; supremum of its quadratic form is attained (singularity argument); the absolute value of a maximiser is a maximiser, has no zero and is simple; all eigenvalues are real and below the guess, so the nearest is the largest |
| C119 | mode.py: insert_mode; linalg.py: construct_A, grid_average; simulation.py: solve_fields | the Hz system of a straight guide times the permittivity separates into the derivative along the guide and the transverse matrix, symmetric with weight 1/permittivity; projection on the left eigenvector; a mode and permittivity times it have the same propagation constant by orthogonality, hence are multiples when the mode is fundamental |
| C120 | mode.py: insert_mode; derivatives.py: createDws; linalg.py: grid_average | the fundamental mode is the maximum of a Rayleigh quotient (C118); comparing the quotient of one line at the mode of the other gives monotonicity and both first-order estimates; mirrored modes are modes and the fundamental one is simple; for Hz, normal x, a symmetric mode satisfies the equations with and without the permittivity between the differences, whose combination is a vanishing sum of squares |
| C121 | objectives and normalization of Notebooks/Splitter, Splitter_4, 2_port, T_port (`MNotebook.v`) | fields are linear in the source, profiles too (C94), so both weighings scale alike; arithmetic and geometric mean by 1 + x <= exp x, with its case of equality; C34 for the linear switch |
| C122 | the same objectives; optimization.py: compute_dJ | product rule for gradients along all directions, then C35 and C37 |
| C123 | Notebooks/Accelerator.ipynb cells 7, 8, 10 (`MAccel.v`); structures.py: accelerator | fields move with the structure along the axis without PML (`C79_translation_beside_pml`), so the complex gain is multiplied by the phase of one pixel; a uniform structure is its own translate; triangle inequality with its case of equality; fields are linear in the source |
| C124 | Notebooks/Accelerator_multi_channel.ipynb cells 7, 10 (`MMulti.v`); structures.py: accelerator_multi | at most one column per channel is marked and the field is at most its maximum; both roundings move a column by less than two pixels; translation beside PML and linearity as for C123 |
| C125 | Notebooks/Nonlinear_system.ipynb cell 5 (`MWidth.v`); constants.py | variance of the intensities, with the case of equality; cancellation of the unit of length |
| C93 | `run` with GD and ADAM, filter, PML | renumbering of pixels commutes with the operator, its transpose solve, the nonlinear solvers, the doubled system of the Kerr adjoint, the filter and the update; induction on the steps; refutation on the 2 x 2 grid |

## 4. Print Assumptions

Written by `tools/assumptions.py`: every theorem of MANIFEST.json, grouped by exactly the axioms
`Print Assumptions` lists for it.  All are axioms of the Coq standard library.

**Closed under the global context** (15 theorems)

C53_objective_checks_arity, C53_argument_names, C54_lists_agree_iff, C66_three_arguments_refused, C77_drho_bar_drho_raises, C88_one_frame, C88_stretched_frames, C89_without_axes_raises, C90_names_distinct, C90_names_sorted, C90_six_digits, C91_geometry_is_stored, C95_stale_data_refuted, C115_n2_refuted, C115_np_not_enough

**`ClassicalDedekindReals.sig_forall_dec`** (7 theorems)

C54_setter_refuted, C66_accepted_means_unusable, C66_direct_call_partial, C66_binarized_objective_refuted, C88_square_pixels_iff, C88_square_pixels_refuted, C93_no_filter_symmetric

**`ClassicalDedekindReals.sig_forall_dec`, `FunctionalExtensionality.functional_extensionality_dep`** (48 theorems)

C10_zero_source, C24_density_permittivity_roundtrip, C27_add_nl, C28_complex2real_solves_widely_linear_system, C70_average_of_neighbours, C70_total_preserved, C70_bounds_preserved, C70_uniform_unchanged, C46_insert_and_extract_are_inverse, C46_design_vector_order, C49_weights_convex, C49_average_between, C60_time_reversal_flips_sign, C57_refuted, C57_negative_index_names_the_column, C58_exactly_width_pixels_partial, C58_even_width_centred_partial, C58_odd_width_shifted, C58_line_to_the_border_raises, C58_no_power_on_the_last_column, C58_no_power_on_the_last_row, C58_line_to_the_right_border_raises, C61_order_irrelevant, C61_two_port, C61_three_port, C61_N_port, C61_ortho_port, C61_accelerator, C61_builders_return, C61_accelerator_returns, C62_coordinates_partial, C62_spacing_refuted, C63_three_port_odd_rows, C63_three_port_refuted, C64_density_factor, C65_smoothness_is_density, C65_smoothness_refuted, C75_input_guide_rows_partial, C75_parity_refuted, C76_even_number_raises, C76_slabs, C76_channels, C87_plt_re, C87_plt_eps, C95_output_column_partial, C95_one_or_two_pixels_measure_nothing, C111_is_equal, C124_every_channel_is_read

**`ClassicalDedekindReals.sig_forall_dec`, `ClassicalDedekindReals.sig_not_dec`, `FunctionalExtensionality.functional_extensionality_dep`** (240 theorems)

C01_derivatives_are_periodic_differences, C02_summation_by_parts, C02_x_and_y_derivatives_commute, C03_single_pixel_operator_is_identity, C03_zero_derivative_refuted, C04_step_after_any_history, C04_step_is_dl_partial, C05_pml_absorbs_near_border_only, C06_absorption_grows_towards_border_partial, C06_shifted_mirror, C06_mirror_refuted, C07_reciprocity, C07_reciprocity_no_pml, C07_reciprocity_complex_permittivity, C08_lossless_closed_domain, C09_fields_satisfy_maxwell_Ez, C09_fields_satisfy_maxwell_Hz_averaging_partial, C09_Hz_default_uniform_partial, C10_linear_in_source, C11_matrix_is_helmholtz_stencil, C11_one_pixel_change, C12_nonlinear_matrix_Ez, C12_nonlinear_matrix_Hz_refuted, C13_matrix_is_that_of_current_permittivity, C13_same_as_fresh_simulation, C13_assignment_keeps_the_rest, C14_stored_fields_valid_partial, C14_source_change_refuted, C15_compute_nl_and_include_nl, C15_nonlinear_solve, C15_krylov_Hz_refuted, C16_design_region_initialised, C16_random_sym_is_symmetric, C16_random_designs, C16_density_matches_permittivity, C17_heap_model_agrees, C17_users_array_unchanged_partial, C17_halfway_refuted, C18_filter_keeps_density_outside_design_region, C19_filter_is_average_in_the_interior_partial, C19_near_pml_refuted, C19_edge_refuted, C20_periodic_x_refuted, C20_periodic_y_refuted, C20_met, C67_new_simulation, C67_constructor_validates, C73_other_simulations_undisturbed_partial, C26_field_derivative_exact, C27_contributions_add_up, C27_initially_zero, C27_order_irrelevant, C27_zero_and_phase, C27_scaled_in_material, C29_born_result, C29_born_reproduces_solutions, C30_jacobian_exact, C30_newton_step_fixed_points, C30_newton_result, C30_newton_reproduces_solutions, C31_convergence_record, C31_hybrid_record_refuted, C32_hybrid_falls_back_partial, C32_max_num_iter_refuted, C32_other_threshold_refuted, C33_solvers_run_partial, C33_unknown_solver_refused, C33_always_fail_refuted, C33_newton_without_pyMKL_refuted, C34_no_nonlinearity_gives_linear_fields, C68_index_shift_bounds, C40_gradient_defined_iff, C40_missing_gradients_raise, C41_density_and_permittivity_stay_valid, C42_density_outside_kept, C42_permittivity_outside_projected, C42_filter_rows, C42_permittivity_outside_iff, C43_recorded_values_are_fresh, C43_fresh_value_ignores_stored_fields, C43_fresh_value_linear, C44_uncached_partial, C44_when_uncached, C44_second_call_returns_first_value, C44_stale_after_frequency_scan, C45_run_appends_aligned_entries, C45_objectives_and_amplitudes_aligned, C46_design_vector_is_stored, C46_lbfgs_without_steps, C47_lbfgs_value_partial, C48_run_without_density_raises, C49_ADAM_uses_averages, C49_constant_gradient, C50_scan_values_and_width_partial, C50_sample_is_a_new_simulation, C53_nonlinear_solve_iff_nonlinear_argument, C53_other_polarization_raises, C53_fields_of_the_names, C54_mismatched_objective_raises, C69_limit_met_iff_partial, C71_options_ignored, C71_averaging_ignored, C71_run_same_for_all_options, C71_options_refuted, C59_interface_power_conserved, C59_column_sum, C59_straight_waveguide_partial, C59_probe_on_straight_waveguide_partial, C60_scales_with_power, C60_source_times_factor, C51_frequency_scan_keeps_simulation, C52_own_linear_fields_partial, C52_stored_linear_fields_kept, C52_nonlinear_fields_of_the_point, C52_solver_of_the_point, C52_source_of_the_point, C55_only_the_line_is_written, C55_nothing_else_changes, C55_linear_in_scale, C55_set_up_again, C55_modulus_independent_of_phase_partial, C55_line_holds_the_eigenvector, C55_cut_line_refused, C55_equation_of_the_line, C57_measured_inside_partial, C57_zero_power_near_the_border, C57_index_minus_one_raises, C57_center_outside_raises, C64_only_the_design_region_counts, C65_arrangement_irrelevant, C74_assignment_discards_fields, C74_init_discards_fields, C74_nonlinear_fields_of_present_structure, C74_results_are_stored, C77_conversions, C78_layers_partial, C78_high_end_refuted, C83_time_reversal, C83_time_reversal_nonlinear, C86_pixels_on_no_line_keep_their_source, C86_last_added_mode_wins, C86_input_power_of_the_last_mode, C86_set_up_in_the_order_added, C87_plt_abs, C87_plt_diff, C87_unsolved, C87_reachable_shaped, C88_frames, C88_loop_closes, C88_scale, C88_harmonic, C89_unit_amplitude, C89_points, C89_wrong_degree, C90_files, C90_no_influence, C90_without_temp_plt, C90_old_files_removed, C90_contents, C90_run_succeeds, C90_first_picture_fails, C90_page_failures, C90_default_figure_empty, C90_Hz_fails, C90_every_due_iteration, C90_default_every_iteration, C93_filter_symmetric, C92_gd_resumes, C92_gd_any_division, C92_failure_keeps_last_design, C92_adam_without_memory_resumes, C94_two_powers_same_transmission, C94_every_power_can_be_computed, C91_new_device, C95_output_column_refuted, C96_fields_agree, C97_scan_values, C97_frequencies_about_the_centre, C97_linear_power_unique, C97_linear_device, C97_low_power_scan_raises, C97_low_power_scan_TypeError, C97_get_spectrum_never_returns, C97_high_power_scan_returns, C98_low_power, C100_solutions, C101_no_net_power, C101_interface_power, C102_no_data, C103_run_stays_near, C103_default_parameters, C103_first_step, C109_free_waves, C109_constants, C111_Ez_structures_told_apart, C111_Hz_checkerboards, C111_same_matrix_same_field, C111_Hz_in_plane_fields, C112_stationary_designs_stay, C112_other_designs_move, C114_consistent, C115_formula, C116_two_port, C116_two_port_sketch, C116_curves, C116_two_port_returns, C116_ortho_port_returns, C116_two_port_positions, C116_square_pixels_refuted, C116_ortho_port_upside_down, C116_in_place_refuted, C116_abstract_refuted, C116_unknown, C116_independent_of_power, C116_ortho_port_sketch, C116_colour_scale, C117_positive_mode_simple, C117_whole_line_refused, C121_source_strength_cancels, C121_straight_guide_transmits_one, C121_two_way, C121_switch, C121_three_port, C121_transmission_of_each_port, C121_linear_switch, C122_splitter, C122_switch, C122_three_port, C123_gain_bound, C123_objective_gradient, C123_gain_per_reference_field, C123_source_strength_cancels, C124_gain_bound, C124_source_strength_cancels, C124_columns_are_channels, C125_effective_width, C125_plateau, C125_width_of_scaled_field, C125_predicted_phase, C125_unit_of_length

**`ClassicalDedekindReals.sig_forall_dec`, `Classical_Prop.classic`, `FunctionalExtensionality.functional_extensionality_dep`** (7 theorems)

C63_two_port, C63_accelerator, C63_N_port, C63_three_port_even_rows_partial, C76_mirror, C123_slabs_are_uniform, C124_slabs_are_uniform

**`ClassicalDedekindReals.sig_forall_dec`, `ClassicalDedekindReals.sig_not_dec`, `Classical_Prop.classic`, `FunctionalExtensionality.functional_extensionality_dep`** (131 theorems)

C21_projection_endpoints_and_monotone, C21_projection_decreases_with_eta, C22_projection_derivative, C22_permittivity_derivative, C22_chain_derivative, C23_weak_projection_is_identity, C23_strong_projection_is_threshold, C25_permittivity_in_range, C26_permittivity_derivative_exact, C35_linear_Ez_gradient, C36_linear_gradient_Ez_polarization, C38_filtered_gradient_partial, C38_interior_gradient_partial, C38_asymmetric_filter_refuted, C72_check_deriv_converges, C39_hz_gradient_and_derivative_partial, C39_two_by_two_wrong_sign, C42_two_material_surroundings_kept_partial, C47_lbfgs_gradient, C51_power_scan_keeps_simulation, C52_one_transmission_per_probe_and_power, C52_scales_are_geometric, C52_one_point, C64_exponential_factor, C77_derivative_partial, C77_derivative_refuted, C78_profile_has_designed_strength, C79_translation_beside_pml, C79_translation, C80_axes_exchanged, C81_reflection_x, C81_reflection_y, C81_Hz_default_partial, C82_units_linear, C82_units_nonlinear, C82_units_index_shift, C82_one_pixel_refuted, C84_frequency_permittivity, C85_small_step_improves, C85_small_step_improves_without_filter, C93_kerr_optimizers_keep_symmetry, C93_optimizers_keep_symmetry, C94_power_scan_is_flat, C91_frequency_data, C91_power_data, C91_flags_tell_the_truth, C91_data_need_parameters_and_geometry, C91_parameters_are_stored, C91_two_port_transmissions, C91_three_port_table, C91_ortho_port_table, C91_Hz_device_refused, C95_recorded_coordinates, C95_coordinates_refuted, C96_linear_device, C96_flat_power_scan, C98_born_error, C98_born_from_the_linear_field, C98_born_record, C98_born_stops, C99_solution_isolated, C99_newton_quadratic, C99_newton_weak, C100_power_and_chi3, C100_same_index_shift, C102_stats_are_the_data, C104_rounding_is_nearest, C104_port_shapes, C104_ortho_shape, C104_accelerator_shape, C104_accelerator_multi_shape, C104_width_never_loses, C104_power_of_two_exact, C104_halves_and_windows_exact, C104_decimal_within_one, C104_decimal_lengths_refuted, C104_grid_loses_a_cell, C105_coordinates, C105_two_port, C105_two_port_mirror, C105_two_port_as_exact, C105_three_port, C105_decimals, C105_mirror_refuted, C107_translation, C107_axes_exchanged, C107_reflection_x, C107_reflection_y, C108_projection, C108_permittivity, C108_density_to_permittivity, C108_unfiltered_pixels, C108_filter_rows, C108_initial_density, C108_two_level_designs, C108_updates, C108_runs, C108_correctly_rounded_tanh, C109_dispersion, C110_wave_operator, C110_derivatives, C110_convergence, C113_step_accurate, C113_step_exact, C113_step_power_of_two, C113_step_refuted, C113_uniform_field, C113_transpose, C113_derivative_accurate, C113_total_error, C113_relative_error_refuted, C114_constants, C114_micrometres, C114_digits, C116_three_port_refuted, C117_simple_mode_one_phase, C118_fundamental_exists, C118_fundamental, C118_set_up, C120_constant_of_the_line, C120_more_permittivity, C120_effective_index_grows, C120_first_order, C120_symmetric_source_partial, C120_Hz_x_symmetric_iff_uniform, C120_orthogonal, C121_equal_split_is_best, C122_splitter_gradient, C123_position_turns_phase, C123_uniform_channel_gains_nothing, C124_uniform_channels_gain_nothing

**`ClassicalDedekindReals.sig_forall_dec`, `ClassicalEpsilon.constructive_indefinite_description`, `Classical_Prop.classic`, `FunctionalExtensionality.functional_extensionality_dep`** (1 theorems)

C106_libraries_agree

**`ClassicalDedekindReals.sig_forall_dec`, `ClassicalDedekindReals.sig_not_dec`, `ClassicalEpsilon.constructive_indefinite_description`, `Classical_Prop.classic`, `FunctionalExtensionality.functional_extensionality_dep`** (55 theorems)

C04_shape_change_refuted, C09_Hz_default_averaging_refuted, C73_shared_array_refuted, C38_filter_refuted, C37_mixed_gradient, C39_hz_gradient_refuted, C40_every_argument_has_gradient_refuted, C42_background_refuted, C44_passed_simulation_refuted, C47_value_of_vector_refuted, C48_run_without_density_refuted, C50_centre_not_on_peak_refuted, C69_small_limit_refuted, C59_full_height_refuted, C59_step_refuted, C52_stale_fields_refuted, C55_eigenvector_sign_refuted, C56_only_sources_off_the_line_partial, C56_set_up_again_partial, C56_refuted, C58_border_refuted, C58_odd_width_refuted, C81_Hz_default_averaging_refuted, C86_separate_modes_add_up, C93_mirror_across_pml_refuted, C92_adam_resumes_refuted, C98_one_solution, C98_default_solver, C98_low_power_default_solver, C106_almost_every_frequency, C106_closed_domain, C106_uniform_medium, C106_every_frequency_refuted, C109_response, C109_probe, C110_field_bound, C117_travels_alone_x, C117_travels_alone_y, C117_profile_kept_iff, C117_narrow_source, C117_set_up_narrow, C117_degenerate_refuted, C117_property_refuted, C118_travels_alone_x, C118_travels_alone_y, C118_low_guess_refuted, C119_profile_kept_iff_x, C119_profile_kept_iff_y, C119_divided_source_x, C119_divided_source_y, C119_alone_iff_uniform_y, C119_mode_alone_y_refuted, C119_mode_alone_x_refuted, C120_symmetric_source_Hz_x_refuted, C122_switch_gradient

## 5. Which code is modelled

| python file | model | not modelled |
|---|---|---|
| `constants.py` | the constants (`MCore.v`), `n2_from_chi3` (`MConst.v`) | `DEFAULT_MATRIX_FORMAT` (all formats hold the same matrix) |
| `pml.py` | all four functions (`MCore.v`) | |
| `derivatives.py` | `createDws` (`MCore.v`) | `unpack_derivs` is inlined |
| `linalg.py` | `grid_average`, `dL`, `construct_A`, `solver_direct`, `solver_complex2real`, `solver_eigs` as an oracle (`MCore.v`, `MSim.v`, `MMode.v`), `is_equal` (`MEqual.v`) | timing output |
| `simulation.py` | constructor, setters, `add_mode`, `setup_modes`, `add_nl`, `compute_nl`, `solve_fields`, `solve_fields_nl`, `flux_probe`, `init_design_region`, `compute_index_shift` (`MSim.v`, `MMode.v`, `MHeap.v`), data of `plt_abs`, `plt_re`, `plt_diff`, `plt_eps` (`MPlot.v`) | rendering |
| `nonlinearity.py`, `nonlinear_solvers.py` | all; `newton_krylov` as an oracle (`MSim.v`) | |
| `filter.py` | all functions (`MFilter.v`) | the demo under `__main__` |
| `gradients.py`, `adjoint.py` | all (`MOpt.v`) | |
| `objective.py` | `Objective`, `obj_arg`, the gradient table (`MOpt.v`); autograd is a parameter | the demo under `__main__` |
| `optimization.py` | everything that computes (`MOpt.v`, `MMode.v`); `plot_it`, `plt_objs`, `_check_temp_plt` (`MPlot.v`) | `plot_transmissions`' drawing, progress bars, rendering |
| `structures.py` | all builders (`MStruct.v`); the counting of cells, the grid and the two- and three-port pixel maps also in binary64 (`MFloat.v`, `MFloatGrid.v`) | the `print` in `accelerator_multi` |
| `utils.py` | all (`MUtils.v`) | |
| `source/mode.py` | all (`MMode.v`) | |
| `plot.py` | `plt_base`, `plt_base_eps`, `plt_base_ani`, `Temp_plt` as data (`MPlot.v`) | rendering |
| `data/device_saver.py` | class `Device` (`MDevice.v`); `deepcopy` makes independent values | `save`, `load_device` (pickle), drawing |
| `data/spectrum_plotter.py` | `scan_frequency`, `get_spectrum` (`MSpectrum.v`) | drawing, files |
| `data/get_stats.py` | `get_stats` (`MStats.v`) | rounding of the printed numbers, the file names |
| `data/plot_generator.py`, `data/TOC_generator.py` | `pad_array`, `pad_list`, `plot_two_port`, `plot_three_port`, `plot_ortho_port`, `plot_Device` as data (`MFigure.v`) | labels, scale bars, rendering, `apply_sublabels`, `set_axis_font` |
| `Notebooks/Splitter.ipynb`, `Splitter_4.ipynb`, `2_port.ipynb`, `3_port.ipynb`, `T_port.ipynb` | objectives, profiles of the ports, normalization (`MNotebook.v`); also the objectives of `data/gif_generator_splitter.py` and `gif_generator_Tport.py` | the structures, plots, printed text, the calls already modelled elsewhere. The gif scripts call `Optimization(J=...)`, a keyword the class no longer has, and stop there |
| `Notebooks/Accelerator.ipynb`, `Accelerator_multi_channel.ipynb` | source, normalization and objective (`MAccel.v`, `MMulti.v`) | plots, printed text, the calls already modelled elsewhere; the gradient of the multi-channel objective |
| `Notebooks/Nonlinear_system.ipynb` | effective width, predicted phase (`MWidth.v`) | the scan over amplitudes (calls modelled elsewhere), plots |
| other `data/*.py`, `Notebooks/Linear_System.ipynb` (calls modelled elsewhere), tests | | all |

Idealisations that matter

* floats are exact reals, except in `MFloat.v`, `MFloatGrid.v`, `MFloatFilter.v` and `MFloatStep.v` (C104, C105, C108, C113), where they are binary64 numbers; the rounding of
  the solver and of `complex64` is absent;
* SuperLU, pardiso, ARPACK, `newton_krylov`, L-BFGS, `np.random` and autograd are parameters:
  a theorem that needs them to be right says so in its hypotheses;
* python objects are values; sharing of arrays between objects is modelled only in `MHeap.v`
  (C17, C73), elsewhere the code copies or rebinds;
* inputs of a type that the API does not document (strings for numbers, ragged arrays) are not
  representable.
