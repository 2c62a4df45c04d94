{"id": "C01", "title": "Derivative operators are the periodic difference stencils", "statement": "Without PML, applying the x (resp. y) forward/backward derivative operator held by a Simulation to any field array gives, at every pixel (i,j), the difference with the next/previous pixel along that axis only, divided by the grid step, with the index wrapping around at the edge.", "quantifier": "every Nx>=2, Ny>=2, every step, every complex field, every pixel", "why_tests_cant": "A test fixes one grid and one field; the off-by-one errors live in the wrap-around row and in the C-ordering of the flattened index for every Nx,Ny.", "anchors": ["angler/derivatives.py:createDws", "angler/linalg.py:construct_A"]}
{"id": "C02", "title": "Forward and backward derivatives are adjoint, x and y derivatives commute", "statement": "For any two fields u, v: sum(u * Df v) = - sum(Db u * v) along each axis (summation by parts with periodic wrap), and the x and y derivative operators commute.", "quantifier": "every grid size, every pair of fields", "why_tests_cant": "It is an identity between operators; a test can only sample vectors on one grid.", "anchors": ["angler/derivatives.py:createDws"]}
{"id": "C03", "title": "A direction with a single pixel has zero derivative", "statement": "On a grid with only one pixel in a direction (the 1-D simulations that Simulation accepts) the derivative of every field along that direction is zero.", "quantifier": "every field on every N x 1 or 1 x N grid", "why_tests_cant": "The test suite only checks that a 1-D simulation runs, not that what it solves is the 1-D problem.", "anchors": ["angler/derivatives.py:createDws", "angler/simulation.py:Simulation.__init__"]}
{"id": "C04", "title": "The operators use the grid step given to Simulation", "statement": "After construction, and after every assignment of an eps_r array, the derivative operators of the simulation use the step dl given at construction.", "quantifier": "every dl, every shape, every sequence of eps_r assignments", "why_tests_cant": "Requires quantifying over sequences of assignments of arrays of arbitrary shapes.", "anchors": ["angler/simulation.py:Simulation.__init__", "angler/simulation.py:Simulation.eps_r", "angler/linalg.py:dL"]}
{"id": "C05", "title": "PML only absorbs, only near the border, and is always invertible", "statement": "For omega>0, L0>0 and a positive cell size, every PML stretch factor has real part exactly 1 and non-positive imaginary part (hence is never 0); it is exactly 1 for pixels further than NPML from both ends; with NPML=0 the operators are unchanged.", "quantifier": "every frequency, length scale, grid size, NPML, axis, staggering and pixel", "why_tests_cant": "Depends on real-valued inequalities for all parameters and all pixels.", "anchors": ["angler/pml.py:sig_w", "angler/pml.py:S", "angler/pml.py:create_sfactor", "angler/pml.py:S_create"]}
{"id": "C06", "title": "The two PML layers on opposite sides are mirror images", "statement": "The absorption profile of the PML at the low end of an axis is the mirror image of the one at the high end, and absorption grows monotonically towards the border on each side.", "quantifier": "every Nw, NPML>=1, pixel, staggering", "why_tests_cant": "An asymmetry by one pixel is invisible to tests that only look at field shapes.", "anchors": ["angler/pml.py:create_sfactor"]}
{"id": "C07", "title": "Reciprocity of the solver", "statement": "For any permittivity (real or complex) and any PML, if field E1 is the response to source b1 and E2 to b2, then the sources and fields satisfy the discrete Lorentz reciprocity relation sum(w*b1*E2) = sum(w*b2*E1), where w is the product of the local forward PML stretch factors (w=1 without PML, where the system matrix is symmetric).", "quantifier": "every permittivity, grid, PML, polarization and pair of sources", "why_tests_cant": "It is a statement about all pairs of sources and all permittivity maps.", "anchors": ["angler/linalg.py:construct_A", "angler/pml.py:S_create", "angler/simulation.py:Simulation.solve_fields"]}
{"id": "C08", "title": "A lossless closed domain absorbs no power", "statement": "Without PML and with a real permittivity, the total time-averaged power delivered by any source is zero: Re(sum(conj(src)*F))=0 for the solved field F.", "quantifier": "every real permittivity, grid, source and both polarizations", "why_tests_cant": "Energy balance must hold for every source and structure.", "anchors": ["angler/linalg.py:construct_A", "angler/simulation.py:Simulation.solve_fields"]}
{"id": "C09", "title": "Returned fields satisfy the discrete Maxwell equations", "statement": "The triple returned by solve_fields satisfies the two discrete curl equations with the simulation's own difference operators, permittivity and source, at every pixel.", "quantifier": "every permittivity, source, PML, frequency, polarization and averaging flag", "why_tests_cant": "A solver test checks one structure within tolerance; consistency of the derived components with the system matrix must hold for all.", "anchors": ["angler/simulation.py:Simulation.solve_fields", "angler/linalg.py:construct_A"]}
{"id": "C10", "title": "Linear solve is linear in the source", "statement": "When the system matrix is non-singular, the fields for a*src1+b*src2 are a times the fields of src1 plus b times those of src2, for all three components; a zero source gives zero fields without calling the solver.", "quantifier": "every pair of sources and complex coefficients, every structure", "why_tests_cant": "Quantifies over all sources and structures.", "anchors": ["angler/simulation.py:Simulation.solve_fields", "angler/linalg.py:solver_direct"]}
{"id": "C11", "title": "System matrix is the 5-point Helmholtz stencil", "statement": "Without PML and in Ez polarization, the matrix row of pixel (i,j) applied to a field is (1/mu0)*(periodic 5-point Laplacian) + omega^2*eps0*eps_r(i,j)*field, where the mu0 and eps0 are scaled by L0; so changing eps_r at one pixel changes only that pixel's diagonal entry.", "quantifier": "every grid, permittivity, frequency and field", "why_tests_cant": "An identity for all grids and fields.", "anchors": ["angler/linalg.py:construct_A"]}
{"id": "C12", "title": "Nonlinear permittivity enters the system like a permittivity", "statement": "The matrix used for a nonlinear solve equals the matrix the simulation would build for the permittivity eps_r+eps_nl.", "quantifier": "every permittivity, nonlinear contribution, grid and polarization", "why_tests_cant": "Matrix identity for all inputs.", "anchors": ["angler/simulation.py:Simulation.compute_nl", "angler/simulation.py:Simulation.solve_fields", "angler/linalg.py:construct_A"]}
{"id": "C13", "title": "System matrix is always that of the current permittivity", "statement": "After any sequence of public operations (assign eps_r, solve, add nonlinearity, evaluate nonlinearity, initialise the design region, set the source), the stored system matrix and derivative operators are exactly those that would be built for the current eps_r; assigning eps_r leaves source, modes, nonlinearities and all parameters as they are.", "quantifier": "every finite sequence of operations from construction", "why_tests_cant": "Histories are unbounded.", "anchors": ["angler/simulation.py:Simulation.eps_r", "angler/simulation.py:Simulation"]}
{"id": "C14", "title": "Stored linear fields are valid for the current structure and source", "statement": "After any sequence of operations, if the stored linear field is not None then it solves the current system matrix for the current source.", "quantifier": "every finite sequence of operations including source changes", "why_tests_cant": "Histories are unbounded; staleness only shows after particular interleavings.", "anchors": ["angler/simulation.py:Simulation.eps_r", "angler/simulation.py:Simulation.solve_fields", "angler/nonlinear_solvers.py:born_solve"]}
{"id": "C15", "title": "Nonlinear evaluation does not disturb the linear problem", "statement": "Evaluating the nonlinearity, solving with include_nl=True and running a nonlinear solve leave the permittivity, the source and the linear system matrix untouched, and only store linear fields if none were stored.", "quantifier": "every field, iteration count and outcome (converged or not)", "why_tests_cant": "Must hold for every number of iterations.", "anchors": ["angler/simulation.py:Simulation.compute_nl", "angler/simulation.py:Simulation.solve_fields", "angler/nonlinear_solvers.py:born_solve", "angler/nonlinear_solvers.py:newton_solve"]}
{"id": "C16", "title": "init_design_region changes exactly the design region", "statement": "For every style, pixels outside the design region keep their permittivity, pixels inside get the value the style names (eps_m, (1+eps_m)/2, 1, or something between 1 and eps_m for the random styles), random_sym is symmetric under y reflection wherever the design region is, and the stored density is the one whose permittivity is the new eps_r.", "quantifier": "every permittivity, 0/1 design region, eps_m>1, style and random draw", "why_tests_cant": "Quantifies over arrays and random draws.", "anchors": ["angler/simulation.py:Simulation.init_design_region", "angler/filter.py:eps2rho"]}
{"id": "C17", "title": "init_design_region does not modify the caller's array", "statement": "The numpy array that the user passed as eps_r is not modified by init_design_region.", "quantifier": "every style and array", "why_tests_cant": "Aliasing depends on which style was used and on the history of assignments.", "anchors": ["angler/simulation.py:Simulation.init_design_region"]}
{"id": "C18", "title": "Filter leaves pixels outside the design region alone", "statement": "The filtered density equals the density at every pixel outside the design region.", "quantifier": "every 0/1 design region, radius, grid, NPML and density", "why_tests_cant": "Must hold for every pixel of every mask.", "anchors": ["angler/filter.py:get_W", "angler/filter.py:rho2rhot"]}
{"id": "C19", "title": "Filter is a weighted average", "statement": "Within the design region the filtered density is a weighted average of the densities within distance R: the weights are non-negative and add up to one, so a uniform density is preserved and a density within [0,1] stays within [0,1].", "quantifier": "every pixel, design region, radius, grid, NPML and density", "why_tests_cant": "Boundary pixels are where it fails; needs all positions.", "anchors": ["angler/filter.py:get_W"]}
{"id": "C20", "title": "Filter wraps around periodic boundaries", "statement": "When NPML is 0 along an axis, the filter treats that axis as periodic: the weight between two pixels depends only on their periodic distance.", "quantifier": "every grid and radius with a periodic axis", "why_tests_cant": "Index arithmetic for all positions.", "anchors": ["angler/filter.py:wrap", "angler/filter.py:get_W"]}
{"id": "C21", "title": "Projection is a monotone map of [0,1] onto [0,1]", "statement": "For beta>0 and 0<=eta<=1 the projected density is 0 at 0, 1 at 1, strictly increasing in the filtered density, and stays within [0,1]; raising eta lowers it (bias towards vacuum).", "quantifier": "every beta>0, eta in [0,1], density", "why_tests_cant": "Real-analytic inequality for all parameters.", "anchors": ["angler/filter.py:rhot2rhob"]}
{"id": "C22", "title": "Projection derivative is exact", "statement": "drhob_drhot is the derivative of rhot2rhob with respect to the filtered density, at every density and for all parameters with a non-zero denominator.", "quantifier": "every density, eta, beta", "why_tests_cant": "Tests can only compare finite differences at samples.", "anchors": ["angler/filter.py:drhob_drhot", "angler/filter.py:rhot2rhob"]}
{"id": "C23", "title": "Projection limits", "statement": "As beta tends to 0 the projection tends to the identity (no projection), and as beta tends to infinity it tends to a hard threshold at eta.", "quantifier": "every density and eta in (0,1)", "why_tests_cant": "A limit is not observable by a test.", "anchors": ["angler/filter.py:rhot2rhob", "angler/README.md"]}
{"id": "C24", "title": "Density and permittivity convert back and forth", "statement": "With no filter, converting a permittivity to a density and back through the (affine) map gives the same permittivity, densities in [0,1] give permittivities in [1,eps_m] and conversely.", "quantifier": "every permittivity and eps_m<>1", "why_tests_cant": "Round trip for all reals.", "anchors": ["angler/filter.py:eps2rho", "angler/filter.py:rhob2eps", "angler/utils.py:eps2rho_bar"]}
{"id": "C25", "title": "rho2eps keeps the permittivity in range and respects vacuum and material", "statement": "With no filter, rho2eps maps densities in [0,1] to permittivities in [1,eps_m], 0 to 1 and 1 to eps_m, for every projection strength.", "quantifier": "every density array, eta, beta>0, eps_m>=1", "why_tests_cant": "For all arrays and parameters.", "anchors": ["angler/filter.py:rho2eps"]}
{"id": "C26", "title": "Kerr derivatives are exact", "statement": "dnl_de is the Wirtinger derivative of eps_nl with respect to the field (so eps_nl(e+h)=eps_nl(e)+2Re(dnl_de(e)*h)+ a term quadratic in h), and dnl_deps is its derivative with respect to eps_r, with and without eps_scale.", "quantifier": "every field value, permittivity, chi, region, eps_max<>1", "why_tests_cant": "Derivative identity for all values.", "anchors": ["angler/nonlinearity.py:Nonlinearity"]}
{"id": "C27", "title": "Nonlinearities add up, vanish outside their region and do not depend on the phase of the field", "statement": "The nonlinear permittivity of a simulation is the sum over the nonlinearities added, in any order; it is zero where no nonlinearity region is set or the field is zero; it is unchanged when the field is multiplied by a phase; with eps_scale it vanishes in vacuum and equals the unscaled value at eps_max. add_nl raises AssertionError exactly for an unknown type or eps_scale without eps_max, and then changes nothing.", "quantifier": "every list of nonlinearities, field and permutation", "why_tests_cant": "Any number of nonlinearities in any order.", "anchors": ["angler/simulation.py:Simulation.compute_nl", "angler/simulation.py:Simulation.add_nl", "angler/nonlinearity.py:Nonlinearity"]}
{"id": "C28", "title": "Complex-to-real solve solves the widely linear system", "statement": "solver_complex2real(A11,A12,b) returns x exactly when A11*x + A12*conj(x) = b, given an exact real solver.", "quantifier": "every size, complex matrices A11, A12 and right-hand side", "why_tests_cant": "Sign errors in the four blocks cancel on special matrices; must hold for all.", "anchors": ["angler/linalg.py:solver_complex2real"]}
{"id": "C29", "title": "Born iteration returns a solution of the linearised system and its fixed points are the nonlinear solutions", "statement": "The fields returned by the born solver solve the system with the nonlinear permittivity of the previous iterate; if the reported convergence is 0 they solve the nonlinear equation exactly, and a solution of the nonlinear equation is reproduced with convergence 0 in one iteration; if it stops before the iteration limit the relative change is below the threshold.", "quantifier": "every starting field, threshold, iteration limit, structure and nonlinearity", "why_tests_cant": "Any number of iterations.", "anchors": ["angler/nonlinear_solvers.py:born_solve"]}
{"id": "C30", "title": "Newton iteration: Jacobian exact, fixed points are the nonlinear solutions", "statement": "The Jacobian blocks used are the exact derivative of the residual: f(E+h)=f(E)+J11*h+J12*conj(h)+O(|h|^2) with an explicit remainder; a Newton step leaves E unchanged exactly when f(E)=0.", "quantifier": "every field and perturbation, structure, nonlinearity, source", "why_tests_cant": "Derivative identity over all fields.", "anchors": ["angler/nonlinear_solvers.py:nl_eq_and_jac", "angler/nonlinear_solvers.py:newton_solve"]}
{"id": "C31", "title": "Convergence record", "statement": "The convergence array returned has max_num_iter entries; entries after the iteration that met the threshold are 0, all entries before it are not below the threshold, and a non-converged run fills the array.", "quantifier": "every iteration history and limit", "why_tests_cant": "Unbounded iteration counts.", "anchors": ["angler/nonlinear_solvers.py:born_solve", "angler/nonlinear_solvers.py:newton_solve"]}
{"id": "C32", "title": "Hybrid solver falls back to Newton exactly when Born did not converge", "statement": "solve_fields_nl with the default solver runs Newton if and only if the Born phase did not reach conv_threshold, and honours max_num_iter.", "quantifier": "every threshold, limit and Born history", "why_tests_cant": "Depends on the exact iteration at which convergence occurs.", "anchors": ["angler/simulation.py:Simulation.solve_fields_nl"]}
{"id": "C33", "title": "Every accepted solver_nl runs", "statement": "Each solver name that solve_fields_nl accepts runs for the polarization it is documented for and returns fields, and any other name is refused with an error before anything changes.", "quantifier": "every solver name, polarization and installed linear solver", "why_tests_cant": "Depends on environment (pyMKL present or not) and names resolved only at run time.", "anchors": ["angler/simulation.py:Simulation.solve_fields_nl", "angler/linalg.py:solver_complex2real", "angler/nonlinear_solvers.py:newton_solve"]}
{"id": "C34", "title": "No nonlinearity means the nonlinear fields are the linear fields", "statement": "If no nonlinearity has been added (or chi is 0), solve_fields_nl returns the linear fields, converging in one iteration from the stored linear fields.", "quantifier": "every structure and source with a non-singular system", "why_tests_cant": "For all structures.", "anchors": ["angler/simulation.py:Simulation.solve_fields_nl", "angler/simulation.py:Simulation.compute_nl"]}
{"id": "C35", "title": "Adjoint gradient of a linear Ez objective is the true gradient", "statement": "With no filter, compute_dJ for an objective of the linear Ez field returns, at every design pixel, the derivative of the objective with respect to that pixel's density (through projection, permittivity, Maxwell solve), and 0 outside the design region.", "quantifier": "every differentiable objective, structure, source, projection and pixel with a non-singular system", "why_tests_cant": "A finite-difference test samples a few pixels with a tolerance.", "anchors": ["angler/gradients.py:grad_linear_Ez", "angler/adjoint.py:adjoint_linear_Ez", "angler/optimization.py:Optimization.compute_dJ"]}
{"id": "C36", "title": "Adjoint gradients of linear Hx and Hy objectives are the true gradients", "statement": "Same as C35 for objectives of the linear Hx or Hy field.", "quantifier": "every differentiable objective, structure, source, projection and pixel with a non-singular system", "why_tests_cant": "As C35.", "anchors": ["angler/gradients.py:grad_linear_Hx", "angler/gradients.py:grad_linear_Hy"]}
{"id": "C37", "title": "Adjoint gradient of a nonlinear (Kerr) Ez objective is the true gradient", "statement": "With no filter, compute_dJ for an objective of the nonlinear Ez field returns the derivative of the objective along the nonlinear solution, at every design pixel.", "quantifier": "every differentiable objective, structure, nonlinearity and exact nonlinear solution with a non-singular linearisation", "why_tests_cant": "As C35; the nonlinear case additionally depends on conjugate blocks.", "anchors": ["angler/gradients.py:grad_kerr_Ez", "angler/adjoint.py:adjoint_kerr_Ez"]}
{"id": "C38", "title": "With a filter the gradient is still the true gradient", "statement": "With a filter radius R, compute_dJ returns the derivative of the objective with respect to each design density.", "quantifier": "every filter matrix built by get_W, every pixel", "why_tests_cant": "Only pixels near the filter's boundary reveal a transposed filter.", "anchors": ["angler/gradients.py:grad_linear_Ez", "angler/filter.py:drhot_drho", "angler/filter.py:get_W"]}
{"id": "C39", "title": "Adjoint gradients of Hz-polarization objectives are the true gradients", "statement": "For Hz polarization compute_dJ for objectives of the linear Hz, Ex or Ey field returns the derivative of the objective with respect to each design density.", "quantifier": "every differentiable objective, structure, source and pixel", "why_tests_cant": "As C35.", "anchors": ["angler/gradients.py:grad_linear_Hz", "angler/gradients.py:grad_linear_Ex", "angler/gradients.py:grad_linear_Ey", "angler/adjoint.py:adjoint_linear_Hz"]}
{"id": "C40", "title": "Every objective argument that can be constructed has a working gradient", "statement": "If obj_arg accepts a component and linearity, then compute_dJ can evaluate its gradient.", "quantifier": "all 12 component/linearity combinations, every simulation", "why_tests_cant": "Name-resolution errors only appear when that combination is evaluated.", "anchors": ["angler/objective.py:obj_arg", "angler/gradients.py:grad_kerr_Hx", "angler/gradients.py:grad_kerr_Hz"]}
{"id": "C41", "title": "Gradient-based updates keep the density in [0,1] and the permittivity in step with it", "statement": "After any number of GD or ADAM steps the density is within [0,1] at every pixel and the simulation permittivity is exactly rho2eps of the density.", "quantifier": "every number of steps, gradient history, step size and starting density", "why_tests_cant": "Unbounded number of steps.", "anchors": ["angler/optimization.py:Optimization._update_rho", "angler/optimization.py:Optimization._run_GD", "angler/optimization.py:Optimization._run_ADAM"]}
{"id": "C42", "title": "Optimization never changes the structure outside the design region", "statement": "Running an optimization leaves density and permittivity outside the design region as they were.", "quantifier": "every number of steps, method and starting structure", "why_tests_cant": "Unbounded steps and arbitrary starting structures.", "anchors": ["angler/optimization.py:Optimization._update_rho", "angler/optimization.py:Optimization._set_design_region", "angler/filter.py:rho2eps"]}
{"id": "C43", "title": "Every recorded objective value is the objective of the design at that step", "statement": "During run (GD, ADAM), the value appended to objfn_list at each step is the objective evaluated on freshly solved fields of the simulation as it is at that step, never a cached value from an earlier design or source.", "quantifier": "every number of steps and history before run", "why_tests_cant": "Cache staleness depends on history.", "anchors": ["angler/optimization.py:Optimization._solve_objfn_arg_fields", "angler/optimization.py:Optimization.compute_J", "angler/optimization.py:Optimization._run_GD", "angler/optimization.py:Optimization._run_ADAM"]}
{"id": "C44", "title": "compute_J(simulation) is the objective of the simulation passed", "statement": "compute_J(simulation) returns the objective function evaluated on the fields of the simulation passed in, whatever was called before.", "quantifier": "every history of calls to compute_J, compute_dJ, scan_frequency, check_deriv and eps_r assignments", "why_tests_cant": "Depends on call history.", "anchors": ["angler/optimization.py:Optimization.compute_J", "angler/optimization.py:Optimization.scan_frequency", "angler/optimization.py:Optimization.check_deriv"]}
{"id": "C45", "title": "Recorded objective values and source amplitudes stay aligned", "statement": "After any sequence of runs with any methods, objfn_list and src_amplitudes have equal length, and entry k of src_amplitudes is the source amplitude with which entry k of objfn_list was computed.", "quantifier": "every sequence of runs, methods and step counts that do not raise", "why_tests_cant": "Unbounded histories.", "anchors": ["angler/optimization.py:Optimization._set_source_amplitude", "angler/optimization.py:Optimization.plt_objs", "angler/optimization.py:Optimization._run_LBFGS"]}
{"id": "C46", "title": "Inserting and extracting the design vector are inverse", "statement": "After _set_design_region(x), extracting the design region of the density gives x up to a relative error of 1e-10, and the density outside the design region is unchanged; LBFGS with Nsteps=0 leaves the density as it was.", "quantifier": "every 0/1 mask, vector x and density", "why_tests_cant": "For all masks and vectors.", "anchors": ["angler/optimization.py:Optimization._set_design_region", "angler/optimization.py:Optimization._get_design_region"]}
{"id": "C47", "title": "The LBFGS objective is a function of the design vector", "statement": "The value that the LBFGS driver obtains for a design vector x is the objective of the structure rho2eps(density with x inserted), independent of which vectors were evaluated before; the gradient it obtains is that of minus the objective with respect to the entries of x.", "quantifier": "every sequence of evaluations", "why_tests_cant": "History dependence.", "anchors": ["angler/optimization.py:Optimization._run_LBFGS", "angler/optimization.py:Optimization._set_design_region"]}
{"id": "C48", "title": "run works on a simulation without a stored density", "statement": "Calling run on an optimization whose simulation has no density yet initialises the density from the permittivity and runs.", "quantifier": "every simulation on which init_design_region was not called", "why_tests_cant": "Path not covered by tests; must hold for every simulation.", "anchors": ["angler/optimization.py:Optimization.run", "angler/filter.py:eps2rho"]}
{"id": "C49", "title": "ADAM moments are bias-corrected averages", "statement": "At every iteration the first-moment estimate used is a convex combination of all gradients seen so far and the second-moment estimate a convex combination of their squares; for a constant gradient the step is g/(|g|+epsilon) at every iteration.", "quantifier": "every number of iterations, gradient history, beta1, beta2 in [0,1)", "why_tests_cant": "Unbounded iteration.", "anchors": ["angler/optimization.py:Optimization._step_adam"]}
{"id": "C50", "title": "Frequency scan: width of the central peak", "statement": "The FWHM returned is the frequency step times the number of points in the contiguous run of samples above half maximum around the central frequency, and the objective values are those at the listed frequencies.", "quantifier": "every list of objective values and number of points", "why_tests_cant": "All lengths and value patterns.", "anchors": ["angler/optimization.py:Optimization.scan_frequency"]}
{"id": "C51", "title": "Scans leave the optimization's simulation untouched", "statement": "scan_frequency and scan_power do not change the permittivity, source, frequency, fields or matrix of the optimization's simulation.", "quantifier": "every number of points and every outcome", "why_tests_cant": "Any number of points.", "anchors": ["angler/optimization.py:Optimization.scan_frequency", "angler/optimization.py:Optimization.scan_power"]}
{"id": "C52", "title": "Power scan returns one transmission per probe and power", "statement": "scan_power returns Ns powers and, for each probe, Ns transmissions, entry k being the probe output over the input power for the k-th source scale; each point is computed with fields of its own source.", "quantifier": "every list of probes and number of points", "why_tests_cant": "All sizes.", "anchors": ["angler/optimization.py:Optimization.scan_power"]}
{"id": "C53", "title": "Objective arguments are checked", "statement": "Objective raises ValueError exactly when the number of arguments of J differs from the number of obj_args; is_linear is true exactly when no argument is nonlinear; a nonlinear solve is performed exactly when the objective is not linear; asking for a component of the other polarization raises ValueError. J gets the fields stored under the names of its arguments, in order; other names raise ValueError.", "quantifier": "every argument list and objective arity", "why_tests_cant": "All lists of arguments.", "anchors": ["angler/objective.py:Objective", "angler/optimization.py:Optimization._solve_objfn_arg_fields"]}
{"id": "C54", "title": "Reassigning J keeps the objective consistent", "statement": "After objective.J is reassigned, the list of partial derivatives and the list of arguments have the same length, so that every partial contributes to the gradient.", "quantifier": "every sequence of assignments to J", "why_tests_cant": "Histories of assignments.", "anchors": ["angler/objective.py:Objective.J", "angler/optimization.py:Optimization.compute_dJ"]}
{"id": "C55", "title": "A mode source is confined to its window and linear in its scale", "statement": "Setting up a mode writes only the pixels of its source line; what it writes is real, proportional to scale for positive scale, and setting it up again with the same parameters gives the same source. The eigenvector solves the discrete transverse wave equation of the line.", "quantifier": "every eigenvector, window, scale and previous source", "why_tests_cant": "All windows and eigenvectors.", "anchors": ["angler/source/mode.py:mode.insert_mode", "angler/source/mode.py:mode.setup_src"]}
{"id": "C56", "title": "Input power of a mode is the power of that mode alone", "statement": "The input power W_in computed when a mode is set up does not depend on what other sources are present in the simulation.", "quantifier": "every previous content of the source array", "why_tests_cant": "Depends on history of the source array.", "anchors": ["angler/source/mode.py:mode.compute_normalization"]}
{"id": "C57", "title": "Input power is measured on a valid line for every source position", "statement": "For every source position inside the domain (including positions given by negative indices) the normalisation probe lies inside the domain, so that W_in is the sum over width pixels.", "quantifier": "every center and width", "why_tests_cant": "Edge positions.", "anchors": ["angler/source/mode.py:mode.compute_normalization", "angler/simulation.py:Simulation.flux_probe"]}
{"id": "C58", "title": "flux_probe integrates over exactly width pixels", "statement": "For a probe line inside the domain, flux_probe adds up exactly width pixel contributions, centred on the given pixel, times dl.", "quantifier": "every center, width and grid for which the line is inside the domain", "why_tests_cant": "Parity of width and truncation direction matter; all positions.", "anchors": ["angler/simulation.py:Simulation.flux_probe"]}
{"id": "C59", "title": "flux_probe measures conserved power", "statement": "In a lossless, source-free stretch of a simulation the flux through parallel full-height lines is the same on every line.", "quantifier": "every solved field, real permittivity, line position", "why_tests_cant": "Discrete conservation for all fields.", "anchors": ["angler/simulation.py:Simulation.flux_probe", "angler/linalg.py:grid_average"]}
{"id": "C60", "title": "flux_probe scales with power and flips sign with direction of propagation", "statement": "Multiplying all fields by a complex factor c multiplies the flux by |c|^2, conjugating the wave (time reversal) flips its sign.", "quantifier": "every field and complex factor", "why_tests_cant": "All fields.", "anchors": ["angler/simulation.py:Simulation.flux_probe"]}
{"id": "C61", "title": "Structure builders produce two-material maps and 0/1 design regions", "statement": "Every structure builder returns a permittivity taking only the values eps_start and background, equal to eps_start exactly on the union of its regions (independent of their order), and a design region with values 0 or 1; both have the same shape.", "quantifier": "every geometry parameter", "why_tests_cant": "All geometries.", "anchors": ["angler/structures.py:apply_regions", "angler/structures.py:three_port", "angler/structures.py:two_port", "angler/structures.py:N_port", "angler/structures.py:ortho_port", "angler/structures.py:accelerator"]}
{"id": "C62", "title": "Structure grid coordinates", "statement": "Grid coordinates are symmetric about 0 and neighbouring pixels are dl apart.", "quantifier": "every shape and dl", "why_tests_cant": "All sizes.", "anchors": ["angler/structures.py:get_grid"]}
{"id": "C63", "title": "Structure symmetry", "statement": "two_port, three_port, N_port (apart from its deliberate offset of the input guide), and accelerator structures are mirror symmetric in y.", "quantifier": "every geometry parameter", "why_tests_cant": "All geometries.", "anchors": ["angler/structures.py:three_port", "angler/structures.py:two_port", "angler/structures.py:N_port", "angler/structures.py:accelerator"]}
{"id": "C64", "title": "Binarizer factor", "statement": "For permittivities between 1 and eps_m in the design region the density factor is within [0,1], equals 1 exactly for binary structures and 0 exactly for uniformly half-way ones; the exponential factor is within (0,1] and 1 exactly for binary structures.", "quantifier": "every permittivity and non-empty design region", "why_tests_cant": "For all arrays.", "anchors": ["angler/utils.py:Binarizer.density", "angler/utils.py:Binarizer.density_exp"]}
{"id": "C65", "title": "Smoothness measure distinguishes smooth from rough structures", "statement": "Binarizer.smoothness depends on the spatial arrangement of the permittivity, unlike Binarizer.density.", "quantifier": "every permittivity", "why_tests_cant": "A negative claim about all structures.", "anchors": ["angler/utils.py:Binarizer.smoothness"]}
{"id": "C66", "title": "A binarized objective can be used as an objective", "statement": "If J is accepted by Objective with a list of arguments, then Binarizer.density(J) is accepted with the same list and can be evaluated.", "quantifier": "every J and argument list", "why_tests_cant": "All arities.", "anchors": ["angler/utils.py:Binarizer.density", "angler/objective.py:Objective.__init__"]}
{"id": "C67", "title": "Constructor validation", "statement": "Simulation raises AssertionError exactly when L0<=0, omega<=0, NPML is not a list of two non-negative numbers or pol is not 'Ez'/'Hz'; otherwise construction on a 1-D or 2-D array succeeds with zero source and no fields.", "quantifier": "every argument combination", "why_tests_cant": "All combinations.", "anchors": ["angler/simulation.py:Simulation._check_inputs", "angler/simulation.py:Simulation.__init__"]}
{"id": "C68", "title": "Index shift", "statement": "The index shift map is non-negative and is zero wherever the nonlinear permittivity is zero; for non-negative nonlinear permittivity it is at most eps_nl/(2*sqrt(eps_r)).", "quantifier": "every permittivity>0 and nonlinear contribution", "why_tests_cant": "All arrays.", "anchors": ["angler/simulation.py:Simulation.compute_index_shift"]}
{"id": "C69", "title": "max_ind_shift lowers the source below the limit", "statement": "After the source amplitude has been set, a field response quadratic in the source would satisfy the maximum index shift.", "quantifier": "every current shift and limit", "why_tests_cant": "All ratios.", "anchors": ["angler/optimization.py:Optimization._set_source_amplitude"]}
{"id": "C70", "title": "Grid averaging preserves sums and bounds", "statement": "grid_average preserves the total of the array, keeps values between the minimum and maximum, leaves a uniform array unchanged, and is periodic.", "quantifier": "every array and axis", "why_tests_cant": "All arrays.", "anchors": ["angler/linalg.py:grid_average"]}
{"id": "C71", "title": "Options of Optimization and solve_fields_nl take effect", "statement": "The options nl_solver and field_start of Optimization and averaging of solve_fields_nl influence the computation.", "quantifier": "every value of the options", "why_tests_cant": "Non-dependence on an argument is a statement about all values.", "anchors": ["angler/optimization.py:Optimization.__init__", "angler/simulation.py:Simulation.solve_fields_nl"]}
{"id": "C72", "title": "check_deriv's numerical derivative converges to the analytical one", "statement": "For a linear Ez objective without filter, the finite-difference values that check_deriv computes tend to the adjoint gradient as d_rho tends to 0.", "quantifier": "every structure, objective and sampled pixel", "why_tests_cant": "A limit.", "anchors": ["angler/optimization.py:Optimization.check_deriv"]}
{"id": "C73", "title": "Simulations built on the same array do not disturb each other", "statement": "When two Simulations were built from the same permittivity array, initialising the design region of one of them leaves the permittivity of the other unchanged, so the other still solves the structure it was given.", "quantifier": "every pair of simulations, design region, material permittivity and initialisation style", "why_tests_cant": "Aliasing is a property of every history of two objects; the suite never holds two simulations on one array.", "anchors": ["angler/simulation.py:Simulation.__init__", "angler/simulation.py:Simulation.init_design_region"]}
{"id": "C74", "title": "Stored fields always belong to the present structure", "statement": "A solve stores what it returns under the names of its polarization, and a solve that raises changes nothing. Assigning the permittivity or initialising the design region discards the stored linear and nonlinear fields; therefore nonlinear fields that are found on a simulation, after any history of operations, are the result of a nonlinear solve of the present permittivity and nonlinearity from some starting simulation of that structure.", "quantifier": "every history of assignments, initialisations, solves and source changes", "why_tests_cant": "A stale field is only visible after a particular order of operations; the statement is about all orders.", "anchors": ["angler/simulation.py:Simulation.eps_r", "angler/simulation.py:Simulation.init_design_region", "angler/simulation.py:Simulation.solve_fields_nl"]}
{"id": "C75", "title": "Width of the input guide of three_port", "statement": "The input guide of three_port is int(w/dl) pixels wide, centred on the structure.", "quantifier": "every geometry", "why_tests_cant": "The parity of two derived integers decides; all geometries.", "anchors": ["angler/structures.py:three_port"]}
{"id": "C76", "title": "Multi-channel accelerator", "statement": "accelerator_multi raises ValueError for an even number of channels; otherwise the material fills everything up to the outermost slab except n equally spaced channels of width gap, is mirror symmetric, and leaves at least 2*spc on either side.", "quantifier": "every geometry and number of channels", "why_tests_cant": "All numbers of channels; needs induction over the slabs.", "anchors": ["angler/structures.py:accelerator_multi"]}
{"id": "C77", "title": "Conversions in utils agree with the filter module", "statement": "eps2rho_bar and rho_bar2eps are inverse to each other, rho_bar is the projection of the filter module, and deps_drho_bar and drho_bar_drho are the derivatives of rho_bar2eps and rho_bar.", "quantifier": "every density, permittivity, eta and beta", "why_tests_cant": "Identities and derivatives for all reals.", "anchors": ["angler/utils.py:eps2rho_bar", "angler/utils.py:rho_bar2eps", "angler/utils.py:deps_drho_bar", "angler/utils.py:rho_bar", "angler/utils.py:drho_bar_drho"]}
{"id": "C78", "title": "Strength of the PML", "statement": "Each PML layer attenuates a normally incident wave by the designed round-trip factor exp(-12), at every frequency, thickness and length scale.", "quantifier": "every frequency, length scale, cell size, number of PML pixels, axis and staggering", "why_tests_cant": "An integral identity for the profile and sums of any length for the pixels.", "anchors": ["angler/pml.py:sig_w", "angler/pml.py:S", "angler/pml.py:create_sfactor"]}
{"id": "C79", "title": "Position of the device", "statement": "Moving the permittivity and the source by any number of pixels around the periodic domain, along an axis without PML, moves all three computed field components by the same amount.", "quantifier": "every polarization, permittivity, source, grid size, displacement and value of averaging", "why_tests_cant": "A shift covariance of the solved system for every device and displacement.", "anchors": ["angler/linalg.py:construct_A", "angler/derivatives.py:createDws", "angler/simulation.py:Simulation.solve_fields"]}
{"id": "C80", "title": "Exchange of the axes", "statement": "Exchanging the two axes of a device (grid, permittivity, source, PML thicknesses) transposes the component along z and exchanges the two others with a change of sign.", "quantifier": "every polarization, permittivity, source, grid, PML and value of averaging", "why_tests_cant": "Relates two different simulations for every device; needs the solution to be unique.", "anchors": ["angler/linalg.py:construct_A", "angler/pml.py:S_create", "angler/derivatives.py:createDws", "angler/simulation.py:Simulation.solve_fields"]}
{"id": "C81", "title": "Mirror image of a device", "statement": "Without PML, mirroring the permittivity and the source along an axis mirrors the computed fields, the component across the mirror changing sign on the mirrored cell edges.", "quantifier": "every polarization, permittivity, source, grid and axis", "why_tests_cant": "Relates two different simulations for every device; a mismatch appears only across material steps.", "anchors": ["angler/linalg.py:construct_A", "angler/linalg.py:grid_average", "angler/simulation.py:Simulation.solve_fields"]}
{"id": "C82", "title": "Choice of the length unit", "statement": "Describing the same device in another length unit L0 (pixel size divided by k, L0 multiplied by k, source multiplied by k^2) multiplies every linear and nonlinear field by k, gives the same convergence record and the same refractive index shift.", "quantifier": "every device with or without PML and Kerr materials, every unit, source, starting field, solver (born, newton, hybrid), threshold and iteration limit", "why_tests_cant": "An invariance over all runs of the iterative solvers, not one value.", "anchors": ["angler/simulation.py:Simulation.__init__", "angler/simulation.py:Simulation.add_nl", "angler/simulation.py:Simulation.solve_fields", "angler/simulation.py:Simulation.solve_fields_nl", "angler/simulation.py:Simulation.compute_index_shift", "angler/pml.py:S_create"]}
{"id": "C83", "title": "Time reversal", "statement": "Without PML, conjugating the source gives the time-reversed fields: minus the conjugate of the component along z and the conjugates of the others. The solutions of the nonlinear equation are reversed in the same way.", "quantifier": "every polarization, permittivity, source and value of averaging", "why_tests_cant": "A symmetry of the solved system for every device and source.", "anchors": ["angler/linalg.py:construct_A", "angler/simulation.py:Simulation.solve_fields"]}
{"id": "C84", "title": "Frequency against permittivity", "statement": "Without PML, dividing the frequency by c and multiplying the permittivity by c^2 leaves the in-plane components unchanged and divides (Ez) or multiplies (Hz) the component along z by c, for the same source.", "quantifier": "every polarization, permittivity, source, c > 0 and value of averaging", "why_tests_cant": "Relates two different simulations for every device and every c.", "anchors": ["angler/linalg.py:construct_A", "angler/simulation.py:Simulation.solve_fields"]}
{"id": "C85", "title": "A small enough step improves the objective", "statement": "One iteration of the optimizer (gradient descent, or the first iteration of ADAM) with a small enough step size strictly increases the objective whenever some design density can follow its gradient without leaving [0,1]; if none can, density and objective stay as they are.", "quantifier": "every Ez simulation, linear differentiable objective, density, and (with the filter) every filter whose design-region columns are symmetric; every step below a bound that depends on the device", "why_tests_cant": "Existence of a neighbourhood of step sizes for every device; a test sees one step on one device.", "anchors": ["angler/optimization.py:Optimization.run", "angler/optimization.py:Optimization._run_GD", "angler/optimization.py:Optimization._run_ADAM", "angler/adjoint.py:adjoint_linear_Ez", "angler/objective.py:Objective"]}
{"id": "C86", "title": "Several mode sources in one simulation", "statement": "Setting up several modes leaves the pixels on none of their lines at their previous source; on a pixel where lines overlap the mode added last wins; the recorded input power is the one of the last mode; modes on disjoint lines give the sum of what each alone gives. Modes are set up in the order in which they were added.", "quantifier": "every list of modes, every simulation and every eigensolver answer", "why_tests_cant": "An order and overlap property over lists of modes of any length.", "anchors": ["angler/simulation.py:Simulation.add_mode", "angler/simulation.py:Simulation.setup_modes", "angler/source/mode.py:mode.setup_src", "angler/source/mode.py:mode.insert_mode"]}
{"id": "C87", "title": "Field and permittivity plots show the simulation", "statement": "The absolute value, real part, difference and permittivity plots show at column i and row j (row counted upwards) the value of the simulation at pixel (i,j), repeated vertically the requested number of times, with the permittivity of the same pixels as outline; default colour limits are attained values that contain all plotted values (symmetric for real part and difference); before solving, or with zero tiles, the plot raises instead of showing something.", "quantifier": "every simulation of any grid size, both polarizations, every field, tiling, limits and option of the plotting methods", "why_tests_cant": "Pixel-by-pixel orientation and range for every grid and field; a picture test compares a few images.", "anchors": ["angler/simulation.py:Simulation.plt_abs", "angler/simulation.py:Simulation.plt_re", "angler/simulation.py:Simulation.plt_diff", "angler/simulation.py:Simulation.plt_eps", "angler/plot.py:plt_base", "angler/plot.py:plt_base_eps"]}
{"id": "C88", "title": "Animations show one period of the harmonic field", "statement": "Frame i of an animation of N frames shows the field at time i/(N-1) of the optical period, the last frame equals the first, every frame stays within the fixed colour scale (the largest modulus of the field), and consecutive frames satisfy the harmonic recurrence; one frame raises ZeroDivisionError. Pixels are drawn square exactly for square domains.", "quantifier": "every complex field, number of frames and frame index", "why_tests_cant": "All frames of all animations; trigonometric identities for real numbers.", "anchors": ["angler/plot.py:plt_base_ani"]}
{"id": "C89", "title": "The normalized objective plot shows the objective at unit source amplitude", "statement": "plt_objs with axes shows one point per stored iteration, the k-th at abscissa k; without normalization its ordinate is the recorded objective; with normalization by field (objectives of degree 1) or by power (degree 2) it is the value the objective would have with the source scaled to unit amplitude; for objectives of another degree it is not. Without axes plt_objs raises AttributeError.", "quantifier": "every history of optimization runs, every linear objective homogeneous of the degree, every source of positive amplitude, every exact solver", "why_tests_cant": "Links the plotted number with a counterfactual solve for every history.", "anchors": ["angler/optimization.py:Optimization.plt_objs", "angler/optimization.py:Optimization._set_source_amplitude"]}
{"id": "C90", "title": "Pictures taken during a run", "statement": "A run with temp_plt removes the old files (not the directories) of the folder, writes exactly one picture for every due iteration under a name that determines the iteration, each showing the design, objectives and field of the state reached by the same run of that many iterations, and does not influence the optimization: densities, objectives and permittivity are those of the run without pictures. A run needs two or more panels and the input power of a mode; otherwise the first picture raises before the design is changed, and the default Temp_plt gives an empty figure.", "quantifier": "every run of GD and ADAM of any length (no influence and file removal: also L-BFGS), every folder content, panel list and interval", "why_tests_cant": "Quantifies over runs, iterations and folder contents.", "anchors": ["angler/optimization.py:Optimization.run", "angler/optimization.py:Optimization.plot_it", "angler/optimization.py:Optimization._check_temp_plt", "angler/plot.py:Temp_plt"]}
{"id": "C93", "title": "Optimizers keep the symmetry of the device", "statement": "When the starting density and permittivity, source, background, design region, filter and objective are unchanged by a reflection or shift along an axis without absorbing layer, or by the exchange of the axes of a square grid, every density and permittivity reached by gradient descent or ADAM is unchanged by it as well. The filter of a design region is such a symmetric setting when there are layers on all sides. For a mirror line that runs across an absorbing layer the property is false, because the layer has one pixel more at the low end.", "quantifier": "every grid, number of iterations, step size and ADAM parameters, every symmetric objective of the linear and the nonlinear Ez fields (with symmetric Kerr media, default nonlinear solver), every exact solver, every run whose systems stay regular", "why_tests_cant": "Quantifies over all runs, objectives and symmetric starting designs; an absent symmetry shows only as a slow drift.", "anchors": ["angler/optimization.py:Optimization.run", "angler/optimization.py:Optimization._update_rho", "angler/filter.py:get_W", "angler/pml.py:create_sfactor", "angler/gradients.py:grad_kerr_Ez", "angler/adjoint.py:adjoint_kerr_Ez"]}
{"id": "C92", "title": "An interrupted optimization can be continued", "statement": "Gradient descent for n+m iterations equals n iterations followed by a second call for m iterations: same density, permittivity, fields, recorded objectives and source, or the same exception at the same place; hence any division of the iterations into calls of run gives the same result. A run of gradient descent or ADAM that raises leaves the density and permittivity of its last complete iteration. For ADAM continuing is exact only without memory: with the default parameters two iterations differ from one followed by one, because run starts again with zero moments.", "quantifier": "every environment, state, step size, number of iterations and division; for failures every run of GD and ADAM that raises", "why_tests_cant": "Quantifies over crash points and divisions of a run.", "anchors": ["angler/optimization.py:Optimization.run", "angler/optimization.py:Optimization._run_GD", "angler/optimization.py:Optimization._run_ADAM", "angler/optimization.py:Optimization._step_adam"]}
{"id": "C94", "title": "A power scan of a linear device is flat", "statement": "When the device has no nonlinearity and the only current is that of the first mode, every transmission of scan_power measured with flux_probe on the nonlinear fields is the same at all powers, and the reported input powers are in the ratio of the squared scales; with the Born solver, if one power can be computed then every power can. This holds for the solvers born, newton and hybrid and even when the simulation still stores linear fields of another power.", "quantifier": "every simulation without nonlinearity whose matrices are nonsingular, every exact solver, every list of flux probes, all numbers of points and all limits of the scan", "why_tests_cant": "Relates all pairs of powers, for every device and probe.", "anchors": ["angler/optimization.py:Optimization.scan_power", "angler/source/mode.py:mode.setup_src", "angler/source/mode.py:mode.compute_normalization", "angler/simulation.py:Simulation.flux_probe", "angler/nonlinear_solvers.py:born_solve", "angler/nonlinear_solvers.py:newton_solve"]}
{"id": "C91", "title": "A saved device tells the truth about itself", "statement": "After any sequence of calls on a Device, successful or not: the flag for parameters, geometry or data is only set when every attribute it announces is there; generate_data cannot succeed unless parameters and geometry were set; set_geometry stores each argument under its name, or raises and changes nothing; the sizes, the middle pixel, the wavelength and the frequency stored are those given and those of the simulation; and the transmissions are powers through the output ports over the input power of the simulation, at the place that the geometry prescribes, in the documented places of the table. The frequency scan stored is the objective at evenly spaced frequencies of a band of 1/400 about the frequency of the simulation with the bandwidth found in it; the power scan stored is, for mode scales evenly spaced in their logarithm, the input power and each output power over it. For a simulation in polarization Hz set_parameters always raises AttributeError or ZeroDivisionError and no data is ever generated.", "quantifier": "every simulation and optimization, every history of calls with every argument, also those that raise", "why_tests_cant": "Quantifies over all histories of calls including calls that raise half way.", "anchors": ["data/device_saver.py:Device.__init__", "data/device_saver.py:Device.set_parameters", "data/device_saver.py:Device.set_geometry", "data/device_saver.py:Device.generate_data", "data/device_saver.py:Device.calc_transmissions", "data/device_saver.py:Device.freq_scan", "data/device_saver.py:Device.power_scan"]}
{"id": "C95", "title": "Device measures its outputs where the output is, and its coordinates and data fit its structure", "statement": "The output power is measured in the column that lies the absorbing layer and half the waveguide length from the right end, for every length; the stored coordinates are one pixel apart; data belong to the geometry stored with them.", "quantifier": "every simulation, every absorbing layer and waveguide length, every history", "why_tests_cant": "Ranges over all lengths and grid sizes; the failure is at the edge only.", "anchors": ["data/device_saver.py:Device._calc_trans_two", "data/device_saver.py:Device.set_parameters", "data/device_saver.py:Device.set_geometry", "angler/simulation.py:Simulation.flux_probe"]}
{"id": "C96", "title": "The data of a linear device agree with each other", "statement": "For a device without nonlinearity, generate_data stores equal linear and nonlinear transmissions for every kind of structure, and every curve of the power scan is constant.", "quantifier": "every device without nonlinearity with nonsingular matrices, every exact solver, every number of points", "why_tests_cant": "Relates separately computed results for every device.", "anchors": ["data/device_saver.py:Device.generate_data", "data/device_saver.py:Device.calc_transmissions", "data/device_saver.py:Device.power_scan", "angler/simulation.py:Simulation.compute_index_shift"]}
{"id": "C97", "title": "The spectra of a saved device", "statement": "The frequency scan of the spectrum script returns equally spaced frequencies, symmetric about that of the device, and for each the power that the probe finds in the fields of that frequency over the input power recorded in the device (for a device without nonlinearity: the power of the linear fields, whatever field the solver starts from). The device keeps its attributes and its problem, also when the scan raises. get_spectrum returns these curves at low and at high power for every kind of device.", "quantifier": "every device, every place of the probe, every number of frequencies and width of the band", "why_tests_cant": "Ranges over all devices and frequencies; whether a call ever returns cannot be seen from examples.", "anchors": ["data/spectrum_plotter.py:scan_frequency", "data/spectrum_plotter.py:get_spectrum", "angler/simulation.py:Simulation.solve_fields_nl", "angler/simulation.py:Simulation.flux_probe"]}
{"id": "C98", "title": "Weak nonlinearity: the nonlinear solve finds the one solution", "statement": "When the nonlinear term is small against the linear system (which every simulation with a solvable linear system reaches at low enough source power), the nonlinear equation has one solution of the size of the linear field; every step of the Born solver divides the distance to it by at least ten, the recorded convergences fall by ten at each step, the solver stops after at most m steps when 10^-m is below its threshold, and the default solver returns the solution within its threshold, without falling back on Newton, for both polarizations.", "quantifier": "every simulation, grid, permittivity and set of Kerr nonlinearities that is weak in this sense, every starting field of that size, every number of iterations and threshold", "why_tests_cant": "Convergence to the exact solution is a statement about all weak problems and all iteration counts; a test sees a few residuals.", "anchors": ["angler/nonlinear_solvers.py:born_solve", "angler/simulation.py:Simulation.solve_fields_nl", "angler/simulation.py:Simulation.compute_nl"]}
{"id": "C99", "title": "Newton's iteration doubles the correct digits near a solution", "statement": "Around every solution of the nonlinear equation at which the derivative is invertible there is no other solution, and the Newton solver started anywhere close enough to it leaves, after n iterations, an error below a constant times 2^-(2^n); when its threshold stops it earlier, the error is of the order of the square of the threshold. For a weak nonlinearity and no starting field, n iterations leave a relative error of at most 10^-(2 * 2^n).", "quantifier": "every simulation, permittivity, set of Kerr nonlinearities, regular solution, starting field in a neighbourhood, threshold and number of iterations", "why_tests_cant": "Quadratic convergence is a statement about all starting fields of a neighbourhood and all iteration counts; floating point hides it after a few iterations.", "anchors": ["angler/nonlinear_solvers.py:newton_solve", "angler/simulation.py:Simulation.solve_fields_nl"]}
{"id": "C100", "title": "Only the product of power and nonlinearity matters", "statement": "Multiplying the source and the starting field (if one is given) by a complex number c and dividing every chi3 by |c|^2 makes each nonlinear solver return the same convergence record, the same index shift, and c times the fields, iteration by iteration, whether it converges or not; and X is an exact solution of the first problem if and only if c X is one of the second.", "quantifier": "every simulation, polarization, set of Kerr nonlinearities, non-zero complex factor, starting field, threshold, number of iterations and solver", "why_tests_cant": "The scaling law couples two runs of an iterative solver for all factors and all iteration counts.", "anchors": ["angler/nonlinear_solvers.py:born_solve", "angler/nonlinear_solvers.py:newton_solve", "angler/simulation.py:Simulation.solve_fields_nl", "angler/simulation.py:Simulation.compute_index_shift", "angler/nonlinearity.py:Nonlinearity"]}
{"id": "C101", "title": "Nonlinear fields conserve power, converged or not", "statement": "Without PML and with a real permittivity, the fields a nonlinear solver returns carry no net power out of the source, even when the solver has not converged; and the power flowing through one grid interface equals that through the next whenever there is no source between them.", "quantifier": "every reachable simulation without PML, set of Kerr nonlinearities, solver, starting field, threshold and number of iterations (also one that did not converge)", "why_tests_cant": "Conservation must hold for every unconverged iterate; tests only look at a converged field.", "anchors": ["angler/nonlinear_solvers.py:born_solve", "angler/nonlinear_solvers.py:newton_solve", "angler/simulation.py:Simulation.solve_fields_nl", "angler/simulation.py:Simulation.flux_probe"]}
{"id": "C102", "title": "The statistics printed for a device are the data it stores", "statement": "After generate_data, get_stats prints the input power in mW, the largest index shift, frequency over bandwidth, the bandwidth in GHz and, for two ports, the stored transmissions, for orthogonal ports the entries of the transmission table in percent; the device is not changed. For a new device it raises AttributeError.", "quantifier": "every device reached by any history of calls, structure kind, frequency and power scan", "why_tests_cant": "The printed numbers and the table are computed separately from separately stored attributes; they must agree for all devices and histories.", "anchors": ["data/get_stats.py:get_stats", "data/device_saver.py:Device.generate_data"]}
{"id": "C103", "title": "ADAM never jumps: the density moves by at most a fixed number of step sizes per iteration", "statement": "run(method='ADAM') moves no density value by more than Nsteps * step_size * (1 - beta1) / sqrt((1 - beta2)(1 - beta1^2/beta2)), at most 7.3 step sizes per iteration for the default parameters, however large or erratic the gradients are and even if the run ends in an exception; values outside the design region do not move. The first iteration moves by at most one step size and never against the sign of the gradient.", "quantifier": "every optimization, objective, solver, number of steps, step size, 0 <= beta1 < 1, beta1^2 < beta2 < 1", "why_tests_cant": "The bound has to hold for every possible sequence of gradients; no finite set of runs exercises the worst one.", "anchors": ["angler/optimization.py:Optimization.run", "angler/optimization.py:Optimization._run_ADAM", "angler/optimization.py:Optimization._step_adam", "angler/optimization.py:Optimization._update_rho"]}
{"id": "C104", "title": "Grid sizes computed in floating point", "statement": "With lengths that are binary64 numbers, the number of cells int((2*l + L)/dl) etc. that a structure builder computes in floating point is that of the exact quotient up to one cell, and exactly that one when the quotient is not within rounding of an integer or the grid step is a power of two; a width is never counted short; halves of cell counts and the ends of probe and mode windows are exact. A length that is N grid steps in decimal notation makes N cells.", "quantifier": "every builder of structures.py, all binary64 lengths and grid steps (up to 2^48 cells), all integers below 2^52 as positions and widths", "why_tests_cant": "The bad inputs (0.3/0.1 and the like) are isolated points; no sample of lengths bounds the error for all of them.", "anchors": ["angler/structures.py:two_port", "angler/structures.py:three_port", "angler/structures.py:N_port", "angler/structures.py:ortho_port", "angler/structures.py:accelerator", "angler/structures.py:accelerator_multi", "angler/simulation.py:Simulation.flux_probe", "angler/source/mode.py:mode.insert_mode"]}
{"id": "C105", "title": "Pixel maps computed in floating point", "statement": "With lengths that are whole numbers of pixels up to a few units in the last place (decimal literals are), the permittivity and the design region that two_port and three_port compute in binary64 are decided by an integer inequality on the pixel index; for two_port they are what exact arithmetic gives on the same grid and are their own mirror images. The coordinates of get_grid are within 2^-49 of the grid length of the exact ones, increase strictly, and their ends are opposite. Mirror symmetry holds for all lengths.", "quantifier": "every pixel size from 2^-900, every length in pixels up to twice the grid, every grid of 2 to 2^22 pixels a side, every pixel", "why_tests_cant": "Whether a pixel centre falls on the right side of an edge depends on the last bits of each of several roundings; a test sees a few grids only.", "anchors": ["angler/structures.py:get_grid", "angler/structures.py:apply_regions", "angler/structures.py:two_port", "angler/structures.py:three_port"]}
{"id": "C106", "title": "Solvability of the field equations", "statement": "For every positive permittivity, every PML and both polarizations, all frequencies but finitely many give exactly one field for every source, and that field does not depend on the library that solves the equations. Without PML there are at most as many exceptions as pixels. In a uniform medium without PML the exceptions are exactly the frequencies with (omega n dl / c)^2 = 4 sin^2(pi a/Nx) + 4 sin^2(pi b/Ny) for integers a, b.", "quantifier": "every positive permittivity of every shape, every frequency, PML, grid step, length unit and polarization; the uniform case for at least two pixels a side", "why_tests_cant": "The exceptional frequencies are isolated points that no test meets by chance; near them the result is wrong by any factor.", "anchors": ["angler/linalg.py:construct_A", "angler/linalg.py:solver_direct", "angler/simulation.py:Simulation.solve_fields"]}
{"id": "C107", "title": "Symmetries of the nonlinear fields", "statement": "A Kerr device moved around the periodic domain, with its two axes exchanged, or mirrored in x or y, has the moved, transposed or mirrored nonlinear fields: the Born, Newton and hybrid solvers take the same decisions on both devices, record the same list of convergences and return corresponding fields; the refractive index shift and the set of exact solutions correspond as well.", "quantifier": "every pair of reachable simulations of any shape whose permittivity, source and nonlinear regions correspond, every starting field, threshold and number of iterations, both polarizations; no PML for translations and reflections; the linear systems met have one solution each", "why_tests_cant": "The iterations multiply any asymmetry of the discretisation; a test compares two runs of one device.", "anchors": ["angler/nonlinear_solvers.py:born_solve", "angler/nonlinear_solvers.py:newton_solve", "angler/simulation.py:Simulation.solve_fields_nl", "angler/simulation.py:Simulation.compute_index_shift"]}
{"id": "C108", "title": "Densities and permittivities in floating point", "statement": "Computed in IEEE double precision, with a filter radius given, the projection never decreases, sends density 0 to exactly 0 and 1 to exactly 1 and [0,1] into [0,1]; the permittivity of a projected density lies between 1 and eps_m and is exactly 1 and exactly eps_m at the ends. The weights of the filter are nonnegative and a pixel outside the design region is not filtered at all. More density never lowers any permittivity, no density gives exactly 1 everywhere. A two-level design is turned into a density and back without changing one bit, and a grey permittivity comes back with a relative error of at most 2^-51 from the maps without filter and projection. After any number of updates of gradient descent or ADAM, with any gradients and step sizes, every density is in [0,1], every permittivity is at least 1 and at most that of full density, and pixels outside the design region have exactly their starting density and permittivity.", "quantifier": "every double precision density, eta in [0,1], beta of at least 2^-1000, eps_m in [1,2^53], every design region, filter matrix and storage order of its rows, every tanh which is odd, does not decrease and is positive on positive numbers, every sequence of finite gradients and step sizes", "why_tests_cant": "Rounding errors differ from one value to the next; a test samples a few densities.", "anchors": ["angler/filter.py:get_W", "angler/filter.py:rho2rhot", "angler/filter.py:rhot2rhob", "angler/filter.py:rhob2eps", "angler/filter.py:eps2rho", "angler/filter.py:rho2eps", "angler/optimization.py:Optimization._update_rho", "angler/simulation.py:Simulation.init_design_region"]}
{"id": "C109", "title": "Plane waves in a uniform medium", "statement": "In a uniform medium without absorbing layer, in both polarizations, a current that is a plane wave fitting the grid excites the same plane wave, with amplitude i omega m / (k_medium^2 - k_grid^2) where k_grid^2 = (4 sin^2(kx/2) + 4 sin^2(ky/2))/dl^2; the in-plane fields are the corresponding differences and their squared length is k_grid^2/(omega m)^2 times that of the out-of-plane field. A plane wave satisfies the discrete Maxwell equations without currents exactly when k_grid = k_medium, and then the ratio of the fields is the impedance of the medium. Along an axis exactly one wavelength belongs to a frequency; it is shorter than the one in the medium, by a factor between sqrt(1-(pi/N)^2) and 1 at N pixels per wavelength. The power probe reads the power crossing each pixel interface multiplied by the cosine of the phase per pixel, so too little by that factor, and zero at four pixels per period. The constants satisfy eps_0 mu_0 c^2 = 1 and eta_0 = mu_0 c, with c within 0.15 m/s of the exact value.", "quantifier": "every grid of at least 2 by 2 pixels, uniform permittivity, frequency, pixel size, length unit, both polarizations, every plane wave of the grid, complex amplitude and exact solver, every probe line clear of the boundary", "why_tests_cant": "The statement holds for every frequency, grid and wave; a test checks a few to some tolerance.", "anchors": ["angler/simulation.py:Simulation.solve_fields", "angler/simulation.py:Simulation.flux_probe", "angler/linalg.py:construct_A", "angler/derivatives.py:createDws", "angler/constants.py"]}
{"id": "C110", "title": "Accuracy of the finite differences", "statement": "Without absorbing layer, for a smooth field that is periodic over the domain: the wave operator for Ez, with any permittivity, agrees at every pixel with Laplace's operator over mu plus omega^2 epsilon, up to sqrt 2 K dl^2 / (6 mu) where K bounds the fourth derivatives. The backward and forward differences are the derivatives half a pixel before and after the pixel up to sqrt 2 K dl^2 / 24, and at the centre of the pixel they are off by half a pixel times the second derivative. In a uniform medium, both polarizations, when the frequency is at least delta (in squared wave numbers) away from every wave of the grid, the field of any current is at most omega m / delta times the current in root mean square, and so is the difference of two fields. If u solves the continuous wave equation for a current and the simulation is given the values of that current at the pixels, then the computed out-of-plane field is u up to sqrt 2 K dl^2 / (6 delta) in root mean square, and the two in-plane fields are those of u half a pixel before the pixel, also up to a constant times dl^2.", "quantifier": "every grid of at least 2 by 2 pixels, pixel size, frequency, length unit, every periodic field with bounded derivatives, every current, every exact solver", "why_tests_cant": "Convergence is a statement about all pixel sizes and all smooth fields; a test compares two or three resolutions of one example.", "anchors": ["angler/simulation.py:Simulation.solve_fields", "angler/linalg.py:construct_A", "angler/derivatives.py:createDws"]}
{"id": "C111", "title": "Which structures a simulation can tell apart", "statement": "is_equal answers True exactly for matrices of the same size with the same entries, False when an entry differs, and raises when the sizes differ. In polarization Ez the system matrices of two structures are equal exactly when the structures are equal at every pixel. In polarization Hz, on at least 3 by 3 pixels, they are equal exactly when the structures are equal or, if both numbers of pixels are even, differ by a checkerboard (the same amount added and subtracted in turn). Two structures have the same out-of-plane field for every source exactly when their matrices are equal; in Hz the in-plane fields are then in inverse proportion to the permittivities.", "quantifier": "every pair of matrices; every pair of structures with positive permittivity, frequency, pixel size, unit, absorbing layer, source, every exact solver", "why_tests_cant": "Quantifies over all pairs of structures and all sources; that nothing but a checkerboard is invisible cannot be seen from examples.", "anchors": ["angler/linalg.py:is_equal", "angler/linalg.py:construct_A", "angler/linalg.py:grid_average", "angler/simulation.py:Simulation.solve_fields"]}
{"id": "C112", "title": "Where the gradient optimizers rest", "statement": "Call a design stationary when no density of the design region can follow its gradient: the gradient is zero, or positive at density one, or negative at density zero. From a stationary design, run with gradient descent or ADAM leaves every density and the permittivity unchanged, for every number of steps of every positive size, and records the objective of that design at every step. From every other design the first step, whatever its size, raises every density of the design region that has a positive gradient and is below one, lowers every one that has a negative gradient and is above zero, and moves no other density.", "quantifier": "every simulation, linear Ez, Hx or Hy objective that is a function of the field arrays, design region, filter, projection, number of steps, step size, ADAM parameters in [0,1), exact solver", "why_tests_cant": "Quantifies over all designs, numbers of steps and step sizes; ADAM keeps moments between the steps that only an induction over the steps follows.", "anchors": ["angler/optimization.py:Optimization._run_GD", "angler/optimization.py:Optimization._run_ADAM", "angler/optimization.py:Optimization._step_adam", "angler/optimization.py:Optimization._update_rho"]}
{"id": "C113", "title": "The grid step and the difference matrices in floating point", "statement": "In IEEE binary64 the step of the derivative matrices, which is the length of the domain divided again by the number of pixels, differs from the dl of the simulation by at most two roundings (a relative error of 2u + u^2 with u = 2^-53), and it is dl exactly when the length of the domain is a binary64 number, for instance for a power of two of pixels. Without PML, with at least two pixels along the axis, every derivative matrix maps a uniform field to exactly zero, the forward matrices are exactly minus the transposes of the backward ones, and the derivative of any field is its periodic difference quotient over dl up to 6.25 u times the sum of the two values over dl. For samples of a smooth periodic field the total error at the half step is at most K dl^2/24 + 15 u B/dl, so refining the grid stops helping. Not always: the step is dl exactly (three pixels of 0.1), or the relative error of the derivative is small (it can exceed a quarter).", "quantifier": "every number of pixels, every dl between 2^-400 and 2^400, every axis and side, every field whose values are zero or at least 2^-400", "why_tests_cant": "Rounding depends on every bit of dl and of the field; a bound for all values and all grid sizes is not a finite set of cases.", "anchors": ["angler/simulation.py:Simulation.__init__", "angler/linalg.py:dL", "angler/linalg.py:construct_A", "angler/derivatives.py:createDws"]}
{"id": "C114", "title": "Units and physical constants", "statement": "MU_0 and EPSILON_0 are the SI values of the vacuum permeability and permittivity rounded to nine digits; C_0 and ETA_0 are the speed of light and the impedance of free space within two parts in 10^9, and MU_0 EPSILON_0 C_0^2 = 1 and ETA_0 = MU_0 C_0 hold exactly. With the default length scale, lengths are micrometres: for omega the angular frequency of light of vacuum wavelength w micrometres, the Ez system applied to a smooth periodic field is, up to the factor 1/(MU_0 L0), the wave equation in micrometres with wave number 2 pi/w times the refractive index, up to the error of the grid step (second order in dl) and a relative error of 2/10^9 in the wave number squared.", "quantifier": "every wavelength, permittivity array, grid step, grid size and smooth periodic field", "why_tests_cant": "It compares the matrix with a differential equation for all fields and all wavelengths, and pi and the square roots are irrational.", "anchors": ["angler/constants.py:EPSILON_0", "angler/constants.py:MU_0", "angler/constants.py:C_0", "angler/constants.py:ETA_0", "angler/constants.py:DEFAULT_LENGTH_SCALE", "angler/simulation.py:Simulation.__init__"]}
{"id": "C115", "title": "The nonlinear index from chi3", "statement": "n2_from_chi3(chi3) returns the nonlinear index 3 chi3/(c n eps0) of the medium.", "quantifier": "every chi3", "why_tests_cant": "It ranges over all reals, and the failure is the same for each.", "anchors": ["angler/constants.py:n2_from_chi3"]}
{"id": "C116", "title": "The figures of a stored device", "statement": "plot_Device(device) returns a figure for every device that has been optimized and scanned. Its panels show, at each pixel's place, the permittivity, the linear and the nonlinear field amplitude per root of the input power (the last two on one colour scale, with the outline of the structure), and the structure the builder made; its curves show the objective of every iteration against the iteration number and the transmission of every port against the power, with a mark at the design power. The device is unchanged. The shown amplitude does not depend on the power of the source.", "quantifier": "every device record, of every kind, size and set of stored results", "why_tests_cant": "It ranges over all devices, grids and stored fields.", "anchors": ["data/plot_generator.py:plot_Device", "data/plot_generator.py:plot_two_port", "data/plot_generator.py:plot_three_port", "data/plot_generator.py:plot_ortho_port", "data/plot_generator.py:pad_array", "data/plot_generator.py:pad_list", "data/TOC_generator.py:plot_Device"]}
{"id": "C117", "title": "A mode source in a straight guide excites that mode alone", "statement": "In a guide of one cross-section along x (or y), a mode added with add_mode and set up with setup_modes, normal to the guide, excites the field of that mode alone: at every pixel the electric field is the mode's cross-section times one function of the position along the guide. That function obeys the grid's wave equation with the mode's propagation constant, driven at the source and nowhere else.", "quantifier": "every straight guide (any cross-section, length, frequency, step and length unit, absorbing ends), every mode and every eigensolver that returns eigenvectors", "why_tests_cant": "It ranges over all cross-sections, grid sizes, frequencies and eigenvectors.", "anchors": ["angler/source/mode.py:mode.insert_mode", "angler/source/mode.py:mode.setup_src", "angler/source/mode.py:mode.compute_normalization", "angler/simulation.py:Simulation.add_mode", "angler/simulation.py:Simulation.setup_modes", "angler/simulation.py:Simulation.solve_fields", "angler/simulation.py:Simulation.flux_probe"]}
{"id": "C118", "title": "The first mode is the fundamental mode", "statement": "A mode of order 1 whose effective index is set at or above every refractive index on its line writes the fundamental mode of that line: the profile has one sign and no zero, it solves the transverse equation of the polarization, and no other mode of the line has a propagation constant as large (any mode with the same one is a multiple of it). Every line with positive permittivity has such a mode. In a straight guide the field is then this mode alone.", "quantifier": "every grid, polarization, frequency, step, length unit, permittivity that is positive on the line, line normal to x or y, and every eigensolver that returns an eigenvector of an eigenvalue nearest to the guess", "why_tests_cant": "It ranges over all permittivities on the line, of any length, and over all other modes of the line.", "anchors": ["angler/source/mode.py:mode.insert_mode", "angler/source/mode.py:mode.setup_src", "angler/linalg.py:solver_eigs", "angler/simulation.py:Simulation.add_mode", "angler/simulation.py:Simulation.setup_modes"]}
{"id": "C119", "title": "Which source excites one mode of a straight guide in polarization Hz", "statement": "In polarization Hz, a real source on a whole column or row of a straight guide gives a magnetic field of one transverse profile if and only if the permittivity times the source profile is a mode of the guide; so the source mode / permittivity excites that mode alone, with an amplitude that satisfies the mode's wave equation along the guide. A mode source writes the mode without this division: in a guide along y its first mode travels alone only if the permittivity is the same on the whole row, and in a guide along x it does not travel alone in general.", "quantifier": "every grid, frequency, step, length unit, absorbing layer along the guide, permittivity that is positive and does not change along the guide, source profile, position of the source line, and every exact solver", "why_tests_cant": "It ranges over all cross-sections, source profiles and grid sizes, and the claim that no other source works quantifies over all amplitudes and profiles of the field.", "anchors": ["angler/source/mode.py:mode.insert_mode", "angler/linalg.py:construct_A", "angler/linalg.py:grid_average", "angler/simulation.py:Simulation.solve_fields"]}
{"id": "C120", "title": "How the fundamental mode follows the guide", "statement": "The first mode that a mode source writes depends on the guide the way a user expects. Its propagation constant belongs to the line, not to the eigensolver; it grows when the permittivity grows anywhere on the line, and strictly; with the frequency both the propagation constant and the effective index grow, the index staying the same only on a uniform line. In polarization Ez a small change of the permittivity changes the square of the propagation constant by no more than k^2 times the largest change, and the change lies between the two first-order estimates. Two modes of different propagation constants are orthogonal, in Hz with weight 1/permittivity. A symmetric cross-section has a symmetric source.", "quantifier": "every grid, position and length of the source line of at least two pixels, both directions and polarizations, frequency, step, length unit, positive permittivity, and every eigensolver that returns the eigenvector nearest to a guess at or above all indices on the line", "why_tests_cant": "It compares infinitely many pairs of structures and frequencies, and the modes are defined by an extremal property over all profiles.", "anchors": ["angler/source/mode.py:mode.insert_mode", "angler/derivatives.py:createDws", "angler/linalg.py:grid_average"]}
{"id": "C121", "title": "The objectives of the examples measure transmission", "statement": "In the splitter and switch examples (Splitter, Splitter_4, 2_port, 3_port and T_port notebooks) each port weighs the field with the profile of its mode, normalized by the same weighing in a straight guide. The straight guide itself then transmits exactly 1. The linear transmissions of a design do not depend on the amplitude of the source. The splitter objective is never negative, is zero exactly if some port gets nothing and, when the ports together get no more than the straight guide, is at most 1, with 1 exactly for an equal split; the objective of the two-way example is the two-port case. The switch objectives lie between -1 and 1, reach 1 exactly for the perfect switch, and are 0 without a nonlinearity, whichever nonlinear solver is used.", "quantifier": "every grid, permittivity, design, frequency, step, PML, source, list of ports and normalizing modes, source amplitude other than 0, eigensolver, solver that solves regular systems, and every field with at most unit total power in the ports", "why_tests_cant": "A test evaluates the objective at a few designs; that it has no larger value than at the equal split, and that the amplitude cancels, concern all fields and all amplitudes.", "anchors": ["Notebooks/Splitter.ipynb", "Notebooks/Splitter_4.ipynb", "Notebooks/2_port.ipynb", "Notebooks/3_port.ipynb", "Notebooks/T_port.ipynb", "angler/simulation.py:Simulation.setup_modes", "angler/simulation.py:Simulation.solve_fields"]}
{"id": "C122", "title": "The gradients of the examples are the derivatives of their objectives", "statement": "For the objectives of the splitter and switch examples, what compute_dJ returns is, in every pixel of the design region, the derivative of the objective with respect to the density of that pixel, and zero outside the design region; for the switches this holds once the forward solve has reached the nonlinear solution.", "quantifier": "every grid, profile of the ports, number of ports, design region, density, source, projection strength and level, linear or Kerr medium with a regular system", "why_tests_cant": "A numerical derivative at a few pixels of one design has an error of its own; the claim concerns every pixel of every design.", "anchors": ["Notebooks/Splitter.ipynb", "Notebooks/Splitter_4.ipynb", "Notebooks/2_port.ipynb", "Notebooks/3_port.ipynb", "Notebooks/T_port.ipynb", "angler/optimization.py:Optimization.compute_dJ", "angler/objective.py:Objective"]}
{"id": "C123", "title": "The objective of the accelerator example measures phase matching", "statement": "In the accelerator example the objective is at most the mean field amplitude on the axis of the channel over that of the reference structure, and equals it exactly if the field along the axis is in step with the electron everywhere. If the period of the structure is the distance the electron travels per optical cycle, moving the structure along the channel only turns the phase of the complex gain, a structure that does not vary along the channel (such as the one the example starts from) gives exactly no gain, and the amplitude of the plane wave source cancels in the objective. The gradient of the objective with respect to the field is its derivative.", "quantifier": "every grid, permittivity, frequency, step, PML across the channel, column of the source, source amplitude, velocity and wavelength, and every solver that solves regular systems", "why_tests_cant": "A test runs a few structures; that no structure exceeds the bound and that every uniform structure gives no gain concerns all of them.", "anchors": ["Notebooks/Accelerator.ipynb", "angler/structures.py:accelerator", "angler/simulation.py:Simulation.solve_fields"]}
{"id": "C124", "title": "The objective of the multi-channel accelerator example", "statement": "In the multi-channel accelerator example the objective lies between -1 and 1 for every field. If a channel is at least four pixels wide, the columns it reads exist and lie in the channels of the structure that accelerator_multi builds, outside the material, and it reads every channel less than two pixels from its axis. A structure that does not vary along the channels, such as the one the example starts from, gives exactly no gain if its period is the distance the electron travels per optical cycle, and the amplitude of the source cancels in the objective.", "quantifier": "every grid, permittivity, frequency, step, PML across the channels, column and amplitude of the source, odd number of channels, width of channels and slabs, velocity and wavelength, field that is not zero, and every solver that solves regular systems", "why_tests_cant": "A test runs a few structures; that no field exceeds the bound, and that the columns meet the channels for every number and width of channels in spite of two roundings, concerns all of them.", "anchors": ["Notebooks/Accelerator_multi_channel.ipynb", "angler/structures.py:accelerator_multi", "angler/simulation.py:Simulation.solve_fields"]}
{"id": "C125", "title": "Effective width and predicted phase of the nonlinear example", "statement": "In the nonlinear example the effective width of a field profile is between one pixel and the number of pixels of the cross section, equals the number of pixels exactly for a profile of constant modulus, equals the number of lit pixels for a profile of constant modulus on some pixels, and does not depend on the amplitude of the field. The predicted phase of self phase modulation is the product of nonlinear index, wave number, power and length over the effective area in SI units, whatever the unit of length of the simulation.", "quantifier": "every field profile that is not zero, number of pixels, unit of length, step, frequency, susceptibility, permittivity and power", "why_tests_cant": "A test evaluates the formula for a few profiles; the bounds, the cases of equality and the independence of the unit concern all of them.", "anchors": ["Notebooks/Nonlinear_system.ipynb", "angler/constants.py:C_0", "angler/constants.py:EPSILON_0"]}
