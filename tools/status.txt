C01|proved|Dxf, Dxb, Dyf, Dyb of a freshly built Simulation without PML are the periodic one-sided differences of step dl, for every grid with at least 2x2 pixels.
C02|proved|Summation by parts and commutation of x and y operators.
C03|partial|The English claim (zero derivative along a one-pixel direction) is false of the code: createDws returns the identity. Proved: what the code computes, and the refutation.
C04|partial|Step after any history is proved to be (original N / current N) * dl; it equals dl exactly for histories ending with the original shape (_partial); the unrestricted claim is refuted.
C05|proved|PML operators are the plain ones divided by the complex stretching factor, which differs from 1 only inside the layers.
C06|partial|Grading towards the border proved on each side; exact mirror symmetry is false of the code (off by one) and refuted; the shifted mirror identity is proved.
C07|proved|Weighted reciprocity with PML, plain reciprocity without, also for complex permittivity.
C08|proved|No net power leaves a closed lossless domain.
C09|partial|Ez: fields satisfy the discrete Maxwell equations. Hz: proved with averaging=True or uniform permittivity; false with the default flags, refuted.
C10|proved|Linearity in the source and zero source gives zero fields.
C11|proved|Helmholtz stencil after any history ending with the original shape; single-pixel change affects a single diagonal entry.
C12|partial|Ez: matrix used with the nonlinear term is the matrix of eps + eps_nl. Hz: false of the code; proved equality forces eps_nl = 0.
C13|proved|After any history of operations the matrix is the one of the current permittivity (with the step in force), and solving gives the fields of a freshly built simulation.
C14|partial|Stored fields solve the current structure provided the source is not changed after solving (_partial); changing the source leaves stale fields, refuted.
C15|partial|Ez with every solver and Hz with every solver but krylov leave permittivity and matrix alone; krylov with Hz raises and is characterised.
C16|proved|All styles; symmetric random style is symmetric; stored density is the one of the permittivity.
C17|partial|Every style but halfway leaves the caller's array alone (_partial, heap model); halfway overwrites it, refuted.
C18|proved|Every design mask, radius, NPML.
C19|partial|Weighted average proved at pixels whose whole neighbourhood is filtered, together with existence of the matrix; refuted at the first filtered pixel (weights exceed one) and within R of the PML (density lost).
C20|partial|False of the code, refuted on every grid with a periodic axis: x raises ValueError, y weights depend on position. No positive part holds for R>=2.
C21|proved|Endpoints, strict monotonicity in density, strict antitonicity in eta, range.
C22|proved|Exact derivative of the projection whenever the denominator is non-zero, of the permittivity, and of the chain of both.
C23|proved|Both limits.
C24|proved|Round trips and ranges.
C25|proved|Range and endpoints, with equivalences.
C67|proved|Constructor accepts exactly the valid arguments.
C73|partial|Holds for every style but halfway (_partial); refuted for halfway.
C26|proved|Both derivatives, exact with explicit remainder; eps_scale included.
C27|proved|Additivity, zero set, phase invariance, order independence, scaled values.
C28|proved|For every exact real solver; the scipy branch raises NameError (see C33).
C29|proved|Frozen system, zero change implies nonlinear solution, solutions reproduced.
C30|proved|Jacobian exact with explicit remainder; fixed points; converged runs.
C31|partial|Proved for born and newton; the default solver always returns 20 entries (_refuted).
C32|partial|Fallback decision proved for the default threshold (_partial); max_num_iter and other thresholds ignored (_refuted).
C33|partial|Which solvers run is characterised; LM, Newton without pyMKL, Newton and krylov for Hz fail (_refuted).
C34|proved|born, hybrid, newton (Ez), with stored or absent linear fields.
C68|proved|Non-negative, zero where eps_nl is zero, upper bound.
C70|proved|Average of neighbours, total, bounds, uniform arrays.
C35|proved|Every differentiable objective of the linear Ez field; derivative of the value compute_J returns, zero outside the design region.
C36|proved|Same with any mixture of Ez, Hx and Hy arguments.
C38|partial|Exact derivative whenever the filter is symmetric on the design block (_partial), in particular at pixels deep inside the filtered area (_partial); false near the edges, refuted with a concrete 9 x 9 case because the code applies W instead of its transpose.
C72|proved|Every perturbation sequence and choice of pixels; uniform over the sampled pixels.
C37|proved|Objectives of any mixture of nonlinear Ez and linear Ez/Hx/Hy arguments, unfiltered density: computed gradient = derivative along every branch of solutions of the nonlinear equation (existence of the branch is proved by a contraction argument). Hypotheses: the stored nonlinear field solves the nonlinear equation, the widely-linear Jacobian is injective, the objective is differentiable.
C39|partial|Exact formulas for the gradient that compute_dJ returns and for the true derivative (_partial); their equality is refuted: on every uniform 2 x 2 grid without PML the computed gradient has the wrong sign.
C40|partial|Refuted for the code: nonlinear Hx/Hy raise NameError and nonlinear Hz/Ex/Ey NotImplementedError. Exact characterisation of the argument lists for which compute_dJ works proved (iff).
C41|proved|GD and ADAM, any number of steps and any outcome (also when an exception ends the run).
C42|partial|Density outside the design region is kept by all methods and outcomes. The permittivity outside is either kept or the projection of the density there (exact iff after a completed step); kept where the surroundings consist of the two materials (_partial). False in general: refuted with a background of permittivity 2.
C43|proved|GD and ADAM; every recorded value is the objective on freshly solved fields of the design at that step, and fresh values do not depend on stored fields.
C44|partial|Holds whenever nothing is cached (_partial; characterised: new optimization, density, design-vector and source updates). Refuted in general: after one evaluation compute_J returns that value for every simulation; after scan_frequency it returns the value at the last frequency.
C45|proved|Any sequence of runs of any methods that do not raise, with arbitrary edits of the simulation and arbitrary sequences of LBFGS calls.
C46|proved|Insert/extract inverse, order of the design vector, tolerance of 1e-10, and LBFGS when the library only asks for the starting vector.
C47|partial|Proved for every sequence of LBFGS calls: the value is minus the objective of the starting structure with a density that is x up to a relative error of 1e-10 (and the starting density elsewhere); the source is the only other trace of the history (_partial). The exact version is refuted: vectors closer than 1e-10 get the value of the earlier one.
C48|partial|False of the code: refuted; run raises (AttributeError, or TypeError when the density is None) and changes nothing, for every method, also for every newly constructed simulation.
C49|proved|ADAM runs are exactly the runs whose steps use convex combinations with explicit weights, for any number of iterations; constant gradients.
C50|partial|Values, frequencies and width proved; when the central sample is not above half maximum the run ending just below it is counted, so the property is refuted in that case (_partial covers both).
C53|proved|Arity check, linearity, nonlinear solve iff nonlinear argument, other polarization.
C54|partial|False of the code: refuted; the lists agree iff the last function assigned has as many parameters as there are arguments; otherwise evaluations raise.
C69|partial|The limit is met iff the present shift is at most 40000 times the limit (_partial); refuted for smaller limits with a concrete Kerr simulation.
C71|partial|False of the code: refuted; field_start and nl_solver have no effect on any run, evaluation or frequency scan, averaging none on solve_fields_nl.
C59|partial|The Poynting flux through cell interfaces is conserved for every solved Ez field without PML; the flux of flux_probe is conserved where the permittivity is the same on both columns (_partial); refuted for a permittivity step and for full-height lines (ValueError).
C60|proved|Any direction, centre, width, polarization, linear or nonlinear fields, including the calls that raise; also in terms of a rescaled source.
C51|proved|scan_frequency and scan_power, any outcome.
C52|partial|One transmission per probe and power, geometric scales, each point a fresh setup and solve on a copy; the nonlinear fields a probe reads are those of the point, the linear ones when the simulation has none stored (_partial). Refuted: with stored linear fields the linear probes see the old fields.
C55|partial|Only the line is written, nothing else changes, linear in scale, set up again gives the same source, the line holds the eigenvector; modulus independent of phase for a deterministic eigensolver (_partial); refuted for eigensolvers that may return another sign.
C56|partial|Depends on the earlier source only off the line (_partial), set up again; false in general: refuted with a source elsewhere.
C57|partial|Normalisation measured in the interior for centres at least 2 (_partial); zero power for the first columns and centre -1 raises, so the property is refuted.
C58|partial|Exactly width pixels for lines clear of the last row and column, centred for even widths (_partial); refuted: odd widths are shifted by one pixel, lines that reach the border raise ValueError, the last column or row reports zero. Both orientations.
C61|proved|All six builders: exact union of the regions, order irrelevant, values, shapes, and exactly when the builders return.
C62|partial|Symmetric and equally spaced (_partial), but the pitch is N/(N-1) times dl, so the spacing is refuted for every shape; a single pixel sits at -dl/2.
C63|partial|two_port and accelerators in both directions, N_port right of the origin (the deliberate offset is on the left), three_port with an even number of rows (_partial). Refuted for three_port with an odd number of rows.
C64|proved|Both factors, with the exact lower bound of the exponential one; pixels outside the design region have no influence.
C65|partial|False of the code: refuted; smoothness equals density on permittivities between 1 and eps_m, and no factor depends on the arrangement for any permittivities.
C66|partial|False of the code: refuted; a binarized objective accepted by Objective raises IndexError on every evaluation, one of three or more arguments is refused; a direct call works (_partial).
C74|proved|Every history of operations of the simulation.
C75|partial|The guide has int(w/dl) rows or one fewer, whichever has the parity of the number of rows, and is centred (_partial); refuted for the other parity.
C76|proved|Every odd number of channels; even numbers raise.
C77|partial|Inverses and agreement with the filter proved; deps_drho_bar is the derivative iff eps_m = 2 (_partial), refuted; drho_bar_drho always raises NameError.
C78|partial|The continuous profile has exactly the designed strength. On the grid the layer at the low end of an axis is stronger and the one at the high end weaker by at least ((N-1)/N)^5 (_partial), so the property is refuted for every simulation with PML (10 pixels: below 7.1 instead of 12).
C79|proved|All three components, both polarizations, both values of averaging; no PML along the axis of the translation, any PML along the other.
C80|proved|Any PML, both polarizations, both values of averaging.
C81|partial|Proved for Ez and for Hz with averaging=True. For Hz with the default averaging the component across the mirror is reversed at an edge iff hz or the permittivity is equal on its two sides (_partial), so the property is refuted there.
C82|proved|Grids of at least 2 x 2 pixels: linear solve, born, newton and hybrid solvers, index shift. Refuted for one-pixel axes, where the derivative is the identity. The krylov solver is an oracle and not covered.
C83|proved|No PML; linear solve and the nonlinear equation.
C84|proved|No PML, linear solve.
C85|proved|Ez, linear objectives; GD and the first ADAM iteration. With the filter the statement assumes W j p = W p j * design j; without the filter there is no such assumption. Later ADAM iterations are not ascent directions in general and are not claimed.
C86|proved|Every list of modes; the separate-modes sum is for pairwise disjoint lines.
C87|proved|The data handed to matplotlib; rendering, colour maps and the logarithmic colour scale are not modelled.
C88|proved|Includes the refuted expectation of square pixels (the first image is transposed twice), characterised by C88_square_pixels_iff.
C89|proved|Linear Ez/Hz objectives without nonlinear fields; wrong degree and missing axes are characterised.
C90|proved|File names and contents for GD and ADAM; no influence and removal of old files for L-BFGS as well. C90_default_figure_empty, C90_page_failures and C90_Hz_fails characterise the calls in which no picture can be drawn.
C93|partial|Proved for the symmetries the discretised operator has (C93_optimizers_keep_symmetry; C93_kerr_optimizers_keep_symmetry for objectives of the nonlinear Ez field, when the systems met along the run, the adjoint included, have one solution; filters in C93_filter_symmetric). The mirror across an absorbing layer is false of the code and refuted (C93_mirror_across_pml_refuted). L-BFGS and the polarization Hz are not covered.
C92|partial|Proved for gradient descent, for failures of both methods and for ADAM with beta1 = beta2 = 0. For ADAM with memory the property is false of the code and refuted at the default parameters (C92_adam_resumes_refuted). L-BFGS keeps its history inside scipy and is not covered.
C94|proved|For probes that read the nonlinear fields. Probes that read the linear fields see stale ones when the simulation stores any (C52_stored_linear_fields_kept). The solver krylov returns the oracle of scipy and is not covered.
C91|proved|Pickling (save, load_device) and the pictures are not modelled.
C95|partial|False as stated: C95_output_column_refuted (one or two pixels from the end nothing is measured), C95_coordinates_refuted (linspace over n pixels takes n-1 steps) and C95_stale_data_refuted. C95_output_column_partial gives the region where the place is right (at least three pixels), C95_recorded_coordinates the exact spacing.
C96|proved|The power scan theorem has the hypotheses of C94 (the mode is the only source).
C97|partial|Proved for the scan with a probe of the nonlinear fields. The last sentence is false: C97_low_power_scan_raises and C97_get_spectrum_never_returns (two_port: no linear fields at the new frequencies; ortho_port: a probe is not defined; other structures: no probes).
C98|proved|For an exact linear solver. The solution is unique in the ball of radius 2 K |source term|; K bounds the inverse of the system matrix.
C99|proved|For an exact linear solver, Ez polarization (for Hz the solver raises, C33). The last linear solve of the solver is included in the error.
C100|proved|For an exact linear solver, matrices that are invertible along the way, and a simulation without an already stored linear field; Born, Newton and hybrid solvers.
C101|proved|Net power for both polarizations; the interface statement for Ez polarization, in the interface densities of C59.
C102|proved|The rounding of the format strings is not modelled. For three ports no transmission is printed.
C103|proved|Exact real arithmetic; condition beta1^2 < beta2 (met by the defaults).
C104|partial|The last sentence is refuted (C104_decimal_lengths_refuted, C104_grid_loses_a_cell): in python L = 0.3 and dl = 0.1 make two cells; C104_decimal_within_one shows that at most one cell is lost. Everything else is proved. Overflow and NaN are not modelled.
C105|partial|The last sentence is refuted (C105_mirror_refuted): a guide 4/3 pixels wide on four rows contains row 2 and not row 1. Everything else is proved. In three_port the middle column of an odd number of columns outside the box is left out (the sign of x is a matter of rounding there). Overflow and NaN are not modelled.
C106|proved|Every valid simulation having a field is false of the code (C106_every_frequency_refuted); the property says what is true instead. Rounding near a resonance is not modelled.
C107|proved|The component of an Hz field across the axis of reflection is not claimed (false already for linear fields, C81). Fields already stored by an earlier solve, used as starting field, are outside the theorems.
C108|proved|The tanh of the C library is a parameter with four stated properties; a correctly rounded tanh has them (C108_correctly_rounded_tanh). Without a filter radius the code computes with complex arrays, which is not modelled here. Overflow, NaN and fused multiply-add are not modelled.
C109|proved|Real arithmetic, a solver that solves exactly. Periodic domain without absorbing layer. The probe theorem is for lines whose pixels all lie before the last row and column.
C110|proved|Real arithmetic, a solver that solves exactly. Periodic domain without absorbing layer. The convergence of the solution is for a uniform medium; the wave operator is covered for Ez with any permittivity.
C111|proved|Real arithmetic, a solver that solves exactly. For Hz at least 3 pixels in each direction.
C112|proved|Ez, linear objectives, no limit on the index shift; real arithmetic, a solver that solves exactly. Assumes that the objective reads only the entries of the arrays it is given.
C113|partial|The claim that the step is exactly dl, and the claim that derivatives have a small relative error, are false and refuted; the accuracy bounds and the exact parts are proved. Without PML; infinities, NaN and the sign of zero are not modelled.
C114|proved|Exact reals for float64; without PML.
C115|partial|False of the code and refuted: the function reads two names the module does not bind, so every call raises NameError. With these names bound the formula is the promised one.
C116|partial|False parts refuted: no three-port is drawn (the builder of nine arguments is called with eight, TypeError); the graphical abstract is never drawn; the panels of an ortho-port are upside down against their axis; the pixels of a two-port panel are not square. Two-port and ortho-port figures are proved to return and to show the promised values. Rendering by matplotlib is not modelled.
C117|partial|False as a whole, and refuted: setup_modes refuses a line that crosses the whole grid (its power monitor has mismatching shapes), and a line that leaves two neighbouring pixels of the column out never excites one profile. Proved for what insert_mode writes on a whole column or row, Ez polarization, when the returned eigenvector has one phase up to a constant; a simple mode always has one, the fundamental (positive) mode is simple, and without this hypothesis the claim is refuted. A field is of one profile iff the written profile is a mode. Hz polarization is not covered.
C118|proved|For insert_mode and for setup_modes of a simulation with this one mode, both polarizations, both normals, lines of two or more pixels. What is written is the fundamental mode times a real factor; the factor is zero only if the scale is 0 or the eigenvector came back purely imaginary (the code keeps the sign of its real part). The eigensolver is assumed to return a unit eigenvector of an eigenvalue nearest to the guess when it returns at all. With a guess between the indices on the line the claim is refuted (a two-signed mode is written). Straight guides: Ez polarization, a line over the whole column or row.
C119|proved|Both directions of the guide; an absorbing layer is allowed along the guide only. The expectation that the mode source of the code excites its mode alone, true for Ez (C117, C118), is refuted for Hz with an exact solver and the fundamental eigenvector: for a guide along y in every case but a uniform row, for a guide along x by a guide of two materials (there the mode is moreover computed without the averaging of the permittivity that the system uses). Exact arithmetic.
C120|partial|Proved for both polarizations and directions, except the last sentence for Hz and normal x: there the code averages the permittivity along the wrong axis, and the source of a symmetric cross-section is symmetric if and only if the cross-section is uniform (C120_symmetric_source_Hz_x_refuted). Orthogonality assumes eigenvectors that are real up to a phase. Exact arithmetic.
C121|proved|Polarization Ez, as in the examples. Exact arithmetic. That the ports together get at most the power of the straight guide is a hypothesis of the bounds, not a theorem.
C122|proved|Polarization Ez, no spatial filter (C35 and C37 for these objectives, with their assumption on the gradient of the objective proved). The gradient of the objective with respect to the fields, computed by autograd, is modelled as its chain rule and proved to be the derivative. Exact arithmetic.
C123|proved|Polarization Hz, as in the example. Exact arithmetic: the period of the structure is exactly the distance per cycle (in the notebook the rounding of the grid makes this approximate). The derivative is the one with respect to the field; the gradient with respect to the density has the wrong value for Hz (C39).
C124|proved|Polarization Hz, as in the example. Exact arithmetic, with the same remark on the period as in C123. The gradient of this objective (a quotient with maxima) is not modelled.
C125|proved|Exact arithmetic. The notebook takes 3e8 for the speed of light in the wave number and C_0 in the nonlinear index; both are kept as they are.
