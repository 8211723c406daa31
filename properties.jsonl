{"id": "C01", "title": "Back-tracking factor stays in the safeguard interval", "statement": "Every step length LineSearch::get_lambda returns is either NaN or lies in [0.1, 0.5] on the first call after reinit and in [0.1 l, 0.5 l] on later calls, where l is the trial step length of that call; hence an all-finite search only ever shrinks positive steps. It is NaN on exactly the degenerate inputs 0/0 or negative discriminant.", "quantifier": "all initial objective values, all sequences of (trial objective, trial lambda) pairs, including infinite/NaN intermediate values", "why_tests_cant": "unit tests sample a handful of objective triples; the interpolation formula has poles and negative discriminants on measure-small sets", "anchors": ["source/line_search.cc: LineSearch::get_lambda, quadratic_backtracking, cubic_backtracking"]}
{"id": "C02", "title": "Line search always terminates", "statement": "For any behaviour of the residual (any stream of objective values, even non-descending or NaN), the line-search loop of the solver performs at most n_max_iterations + 1 step reductions after the first trial, and it stops exactly at the first trial that satisfies the acceptance test.", "quantifier": "all objective streams, all parameter values", "why_tests_cant": "an adversarial objective stream is an infinite object; tests only try smooth functions", "anchors": ["source/line_search.cc: suficient_descent_condition", "source/gradient_crystal_plasticity/solve.cc: line_search_algorithm"]}
{"id": "C03", "title": "Accepted steps satisfy the Armijo condition", "statement": "If the line search stops before its iteration budget is exhausted, the objective f at the accepted lambda satisfies f < (1 - 2 alpha lambda) f0; with the objective 0.5 r^2 and lambda<=1, 0<alpha<1/2 the residual norm strictly decreased.", "quantifier": "all objective streams and parameters", "why_tests_cant": "needs to hold for all residual functions", "anchors": ["source/line_search.cc: suficient_descent_condition, get_objective_function_value", "solve.cc: line_search_algorithm"]}
{"id": "C04", "title": "Interpolation models are the right polynomials", "statement": "Where no safeguard is hit, the first reduction is the exact minimiser of the parabola matching f(0), f'(0)=-2f(0), f(1), and later reductions are a stationary point with non-negative curvature of the cubic that matches f(0), f'(0) and the last two trial values.", "quantifier": "all real data with a well-defined interpolant", "why_tests_cant": "algebraic identity over all reals", "anchors": ["source/line_search.cc: quadratic_backtracking, cubic_backtracking"]}
{"id": "C05", "title": "A line-search trial evaluates the step it claims to evaluate", "statement": "Whenever the line search tests lambda, the trial solution's searched block equals stored solution + lambda * newton update (block other than the searched one unchanged).", "quantifier": "all stored solutions, updates, lambda sequences, and both the macro and the micro block", "why_tests_cant": "depends on arbitrary sequences of rejected steps", "anchors": ["source/gradient_crystal_plasticity/solve.cc: line_search_algorithm, store_trial_solution, reset_trial_solution, update_trial_solution"]}
{"id": "C06", "title": "Macaulay brackets and signum are the positive part and the sign", "statement": "macaulay_brackets(x) = max(x,0) and signum_function(x) in {-1,0,1} with x = signum(x)|x|, and x = <x> - <-x>.", "quantifier": "all reals", "why_tests_cant": "universal", "anchors": ["source/utilities.cc: macaulay_brackets, signum_function"]}
{"id": "C07", "title": "Regularised sign function is an odd, strictly increasing sigmoid bounded by one", "statement": "For each regularisation kind (atan, sqrt, gd, tanh, erf) and each positive parameter, sigmoid_function is odd, strictly increasing, strictly inside (-1,1), and has the sign of its argument.", "quantifier": "all x, all parameters > 0, all five kinds", "why_tests_cant": "universal over reals", "anchors": ["source/utilities.cc: sigmoid_function"]}
{"id": "C08", "title": "Regularised derivative is the true derivative", "statement": "sigmoid_function_derivative_value is the exact derivative of sigmoid_function for each kind, and is positive.", "quantifier": "all x, all parameters > 0, all kinds", "why_tests_cant": "limit statement, universal over reals", "anchors": ["source/utilities.cc: sigmoid_function_derivative_value"]}
{"id": "C09", "title": "Slip-resistance update is path independent within a step", "statement": "Between two commits the slip resistances at a quadrature point depend only on the last committed resistances and on the last update's (slip, old slip) arguments: any number of intermediate updates or resets leaves no trace.", "quantifier": "all finite histories of store/reset/update calls", "why_tests_cant": "histories are unbounded", "anchors": ["source/gradient_crystal_plasticity/quadrature_point_history.cc: QuadraturePointHistory::update_values", "include/gCP/quadrature_point_history.h: store_current_values, reset_values"]}
{"id": "C10", "title": "Hardening never softens", "statement": "With non-negative modulus and hardening parameter q in [0,..), no history of calls makes a slip resistance fall below its last committed value, hence never below the initial resistance; the increment equals sum over slip systems of H (q + (1-q) delta) |slip increment|; with perfect plasticity it never changes.", "quantifier": "all histories, all slip increments, any number of slip systems", "why_tests_cant": "histories are unbounded", "anchors": ["source/gradient_crystal_plasticity/quadrature_point_history.cc: update_values", "include/gCP/quadrature_point_history.h: get_hardening_matrix_entry"]}
{"id": "C11", "title": "No use before initialisation", "statement": "Every method of the quadrature-point history (and of the solver/laws guarded the same way) called before init throws instead of returning a value, and init makes all slip resistances equal initial/characteristic.", "quantifier": "all call sequences", "why_tests_cant": "ranges over call sequences", "anchors": ["source/gradient_crystal_plasticity/quadrature_point_history.cc: QuadraturePointHistory::init", "include/gCP/quadrature_point_history.h"]}
{"id": "C12", "title": "Exponential cohesive damage is irreversible and bounded", "statement": "With the OrtizEtAl model and any sequence of update/store/reset calls, the damage variable stays in [0,1), equals 1-(1+k/dc)exp(-k/dc) for the recorded maximum opening k, and committed damage never decreases.", "quantifier": "all call histories, all openings, all critical openings > 0", "why_tests_cant": "histories are unbounded", "anchors": ["source/gradient_crystal_plasticity/quadrature_point_history.cc: InterfaceQuadraturePointHistory::update_values(double)"]}
{"id": "C13", "title": "Recorded maximum opening is the history maximum of committed openings", "statement": "After any history, the recorded maximum effective opening is the maximum of the initial value and all openings that were the last update before a commit, together with the current uncommitted one.", "quantifier": "all call histories", "why_tests_cant": "histories are unbounded", "anchors": ["source/gradient_crystal_plasticity/quadrature_point_history.cc: InterfaceQuadraturePointHistory::update_values, store_current_values, reset_values"]}
{"id": "C14", "title": "Rate-type damage is bounded by one and irreversible", "statement": "With the M1 model the damage variable never exceeds 1; and it never decreases over a history. (The second half needs thermodynamic force >= endurance limit: refuted otherwise.)", "quantifier": "all call histories, openings and forces", "why_tests_cant": "histories are unbounded", "anchors": ["source/gradient_crystal_plasticity/quadrature_point_history.cc: InterfaceQuadraturePointHistory::update_values(double,double,double)"]}
{"id": "C15", "title": "Residual evaluation is repeatable under rate-type damage", "statement": "Updating the interface internal variables twice for the same trial solution gives the same damage.", "quantifier": "all states and trial openings", "why_tests_cant": "needs all internal states", "anchors": ["source/gradient_crystal_plasticity/assembly.cc: update_local_quadrature_point_history"]}
{"id": "C16", "title": "One effective opening", "statement": "The effective opening the history stores for a displacement jump is the one the cohesive law uses.", "quantifier": "all jumps and unit normals", "why_tests_cant": "universal over vectors", "anchors": ["source/gradient_crystal_plasticity/quadrature_point_history.cc: store_effective_opening_displacement", "source/constitutive_laws.cc: CohesiveLaw::get_effective_opening_displacement"]}
{"id": "C17", "title": "Both sides of an interface share one history", "statement": "Looking up the interface data by (cell A, cell B) and by (cell B, cell A) yields the same data, lookups of different unordered pairs never alias, and re-initialising keeps existing data.", "quantifier": "all cells pairs, all sequences of initialise/get", "why_tests_cant": "universal over meshes", "anchors": ["include/gCP/quadrature_point_history.h: InterfaceDataStorage"]}
{"id": "C18", "title": "Crystal rotations are proper rotations", "statement": "For every Euler angle (2D: one, 3D: three) the crystal's rotation matrix is orthogonal with determinant one; in 2D the 3x3 tensor used for the stiffness is the same in-plane rotation.", "quantifier": "all angles", "why_tests_cant": "universal over angles", "anchors": ["source/crystal_data.cc: compute_rotation_matrices"]}
{"id": "C19", "title": "Rotated slip systems stay orthonormal", "statement": "For input slip directions/normals accepted by the reader as exactly orthogonal, the rotated slip directions, normals and (3D) binormals of every crystal form an orthonormal triad.", "quantifier": "all accepted input vectors and angles", "why_tests_cant": "universal", "anchors": ["source/crystal_data.cc: read_and_store_data, compute_slip_systems"]}
{"id": "C20", "title": "Schmid tensors generate volume-preserving, symmetric strain", "statement": "Every symmetrised Schmid tensor is symmetric, traceless, has squared norm 1/2 and equals R sym(d (x) n) R^T.", "quantifier": "all slip systems and crystals", "why_tests_cant": "universal", "anchors": ["source/crystal_data.cc: compute_slip_systems"]}
{"id": "C21", "title": "Additive strain split", "statement": "Total strain = elastic strain + dimensionless number * plastic strain at every point, the elastic strain is linear in (strain, slips), and slip never changes the volumetric strain.", "quantifier": "all strains, slips, number of slip systems", "why_tests_cant": "universal", "anchors": ["source/constitutive_laws.cc: ElasticStrain"]}
{"id": "C22", "title": "Stiffness tetrad symmetries and covariance", "statement": "For every orientation the crystal's stiffness has the minor and major symmetries and equals the rotated cubic reference stiffness R R R R C0; the stress is symmetric and linear and rotating the crystal and the strain together rotates the stress.", "quantifier": "all cubic constants, all rotations", "why_tests_cant": "universal over rotations", "anchors": ["source/constitutive_laws.cc: HookeLaw::init, get_stress_tensor"]}
{"id": "C23", "title": "Elastic energy is positive", "statement": "If C1111 > C1122 >= 0... (C1111 - C1122 > 0, C1111 + 2 C1122 > 0, C1212 > 0) then strain : C : strain > 0 for every non-zero symmetric strain and every orientation.", "quantifier": "all strains and rotations", "why_tests_cant": "universal", "anchors": ["source/constitutive_laws.cc: HookeLaw::init"]}
{"id": "C24", "title": "Resolved shear stress is work conjugate to slip", "statement": "tau = d . sigma n, and sum_a tau_a dgamma_a = sigma : d(plastic strain).", "quantifier": "all stresses, slips", "why_tests_cant": "universal", "anchors": ["include/gCP/constitutive_laws.h: ResolvedShearStressLaw", "source/constitutive_laws.cc"]}
{"id": "C25", "title": "Scalar microstress is bounded, dissipative and monotone", "statement": "With a regularised law |microstress| < slip resistance and it is strictly increasing in the slip; with the rate-independent law |microstress| equals the resistance whenever the slip changes and it is non-decreasing. In both, microstress * slip rate >= 0 with equality only at zero rate, and the microstress is odd in the slip increment.", "quantifier": "all slips, resistances > 0, step sizes > 0, all regularisations", "why_tests_cant": "universal", "anchors": ["source/constitutive_laws.cc: ScalarMicrostressLaw::get_scalar_microstress"]}
{"id": "C26", "title": "Scalar microstress Jacobian is the derivative", "statement": "get_jacobian is the exact derivative of the vector of microstresses (including the hardening of the resistances) with respect to the slips.", "quantifier": "all slips, all numbers of slip systems", "why_tests_cant": "limit statement", "anchors": ["source/constitutive_laws.cc: ScalarMicrostressLaw::get_jacobian"]}
{"id": "C27", "title": "Vectorial microstress is energetic", "statement": "The vectorial microstress lies in the slip plane, is the gradient of the defect energy, is monotone, and its Jacobian is its exact derivative, symmetric and positive semidefinite, for defect energy index p >= 2 (and everywhere defined); p < 2 is examined separately.", "quantifier": "all slip gradients, indices, slip frames", "why_tests_cant": "universal / limit statements", "anchors": ["source/constitutive_laws.cc: VectorialMicrostressLaw"]}
{"id": "C28", "title": "Grain-interaction moduli are bounded and exchange-symmetric", "statement": "For orthonormal slip frames and unit normals no interaction-modulus assertion can fail; swapping the grains swaps the inter-grain moduli's indices, and both are insensitive to the sign of the normal.", "quantifier": "all orientations and interface normals", "why_tests_cant": "universal", "anchors": ["source/constitutive_laws.cc: MicrotractionLaw::get_grain_interaction_moduli"]}
{"id": "C29", "title": "Microtraction derives from a non-negative free energy", "statement": "The microtraction's quadratic form is the interface free energy 1/2 lambda |Burgers tensor jump|^2 >= 0, the traction is minus its derivative with respect to the slips (up to the characteristic microtraction), and the coded Gateaux derivatives are exact.", "quantifier": "all slips", "why_tests_cant": "universal / limit statements", "anchors": ["source/constitutive_laws.cc: MicrotractionLaw"]}
{"id": "C30", "title": "Cohesive traction: envelope, unloading and continuity", "statement": "Under loading the traction follows Tc/dc exp(1-d/dc) times the effective opening direction, peaks at Tc for d=dc, never exceeds it, vanishes at zero opening; unloading is linear to the origin and both branches agree at the recorded maximum.", "quantifier": "all openings, normals, histories", "why_tests_cant": "universal", "anchors": ["source/constitutive_laws.cc: CohesiveLaw::get_cohesive_traction"]}
{"id": "C31", "title": "Cohesive free energy is the potential of the loading traction", "statement": "d(free energy)/d(opening) equals the effective traction; the energy is non-negative, increasing and bounded by e Tc dc.", "quantifier": "all openings >= 0", "why_tests_cant": "limit statement", "anchors": ["source/constitutive_laws.cc: CohesiveLaw::get_free_energy_density"]}
{"id": "C32", "title": "Cohesive Jacobian is the derivative of the cohesive traction", "statement": "get_jacobian is the exact derivative of get_cohesive_traction with respect to the opening displacement vector, in the loading and in the unloading branch.", "quantifier": "all openings with positive normal part", "why_tests_cant": "limit statement", "anchors": ["source/constitutive_laws.cc: CohesiveLaw::get_jacobian"]}
{"id": "C33", "title": "Contact traction only resists penetration", "statement": "The contact traction vanishes for non-negative normal opening, otherwise it is normal to the interface, opposes penetration and grows linearly with it; its Jacobian is its exact derivative away from touching.", "quantifier": "all openings and unit normals", "why_tests_cant": "universal", "anchors": ["source/constitutive_laws.cc: ContactLaw"]}
{"id": "C34", "title": "Action equals reaction across an interface", "statement": "Exchanging the two sides (jump and normal change sign) negates cohesive and contact tractions and leaves the effective opening and all Jacobians unchanged.", "quantifier": "all jumps, normals, histories", "why_tests_cant": "universal", "anchors": ["source/constitutive_laws.cc: CohesiveLaw, ContactLaw"]}
{"id": "C35", "title": "Degradation is a decreasing map of [0,1] onto [0,1]", "statement": "For damage in [0,1] and exponent >= 1 the degradation value lies in [0,1], decreases with damage, is 1 at no damage and 0 at full damage; its coded derivative is the derivative, also when damage is not coupled.", "quantifier": "all damages and exponents", "why_tests_cant": "limit statement", "anchors": ["include/gCP/constitutive_laws.h: DegradationFunction"]}
{"id": "C36", "title": "Newton matrix is the derivative of the residual", "statement": "The cell's assembled bulk Jacobian is the exact negative derivative of the assembled bulk right-hand side with respect to every local degree of freedom.", "quantifier": "all meshes cells (shape functions, quadrature), all trial solutions, any number of slip systems", "why_tests_cant": "limit statement over arbitrary FE data", "anchors": ["source/gradient_crystal_plasticity/assembly.cc: assemble_local_jacobian, assemble_local_residual"]}
{"id": "C37", "title": "Newton matrix is symmetric up to the row scaling of the balance equations", "statement": "With the displacement rows multiplied by the documented factor the bulk Jacobian is symmetric whenever the scalar microstress Jacobian is.", "quantifier": "all cells and states", "why_tests_cant": "universal", "anchors": ["source/gradient_crystal_plasticity/assembly.cc: assemble_local_jacobian"]}
{"id": "C38", "title": "An unloaded, undeformed body is in equilibrium", "statement": "Zero displacement, slips unchanged from the last step and equal across the cell with no supply term, macroscopic strain or plastic pre-strain give a zero bulk residual.", "quantifier": "all cells", "why_tests_cant": "universal", "anchors": ["source/gradient_crystal_plasticity/assembly.cc: assemble_local_residual"]}
{"id": "C39", "title": "Component layout is a bijection", "statement": "Displacement and slip extractors of all crystals address pairwise disjoint components that together cover exactly 0..n_components-1, with and without decohesion.", "quantifier": "all dims, crystals, slips", "why_tests_cant": "universal over sizes", "anchors": ["source/fe_field.cc: setup_extractors", "include/gCP/fe_field.h: get_n_components"]}
{"id": "C40", "title": "Set-up order is enforced", "statement": "Any call sequence on FEField either respects set-up order or throws; vectors are never usable before the dofs and constraints are set up.", "quantifier": "all call sequences", "why_tests_cant": "ranges over sequences", "anchors": ["source/fe_field.cc"]}
{"id": "C41", "title": "Solution history is a two-step window", "statement": "After n calls of update_solution_vectors interleaved with assignments of solution, old_solution and old_old_solution are the last and second to last committed solutions.", "quantifier": "all sequences of commits", "why_tests_cant": "histories", "anchors": ["source/fe_field.cc: update_solution_vectors"]}
{"id": "C42", "title": "Block norms split the vector norm", "statement": "The two sub-norms reported for a block vector are non-negative and, with unit factor, their squares add up to the squared norm of the whole vector for any partition over MPI ranks.", "quantifier": "all vectors, ranks", "why_tests_cant": "universal", "anchors": ["source/fe_field.cc: get_sub_l2_norms"]}
{"id": "C43", "title": "Active and inactive slip sets partition the owned slip dofs", "statement": "With no identity constraints, after determine_active_set/determine_inactive_set each unconstrained owned slip dof is in exactly one of the sets; a dof is active iff |trial microstress| exceeds its slip resistance; rate-dependent behaviour makes all active.", "quantifier": "all trial states, any numbering", "why_tests_cant": "universal", "anchors": ["source/gradient_crystal_plasticity/active_set.cc"]}
{"id": "C44", "title": "Inactive dofs are constrained, active dofs are not", "statement": "A slip dof gets an elastic (zero increment) constraint iff it is inactive, and inactive dofs are reset to their previous value.", "quantifier": "all trial states and constraint structures", "why_tests_cant": "order dependent iteration over arbitrary sets", "anchors": ["source/gradient_crystal_plasticity/active_set.cc: determine_active_set, reset_inactive_set_values"]}
{"id": "C45", "title": "Dof-level hardening agrees with the quadrature-point hardening", "statement": "The slip resistance stored per active dof follows the same hardening law as at quadrature points and inactive dofs keep their resistance.", "quantifier": "all slips, dof maps", "why_tests_cant": "universal", "anchors": ["source/gradient_crystal_plasticity/setup.cc: reset_and_update_slip_resistances"]}
{"id": "C46", "title": "A step that returns has converged (monolithic)", "statement": "If the monolithic solve returns normally, the last evaluated residual norm is below the absolute tolerance and (rate-independent) the active set was stable; otherwise an exception is thrown after at most n_max iterations of a Newton pass.", "quantifier": "all residual/update behaviours", "why_tests_cant": "adversarial oracles", "anchors": ["source/gradient_crystal_plasticity/solve.cc: solve_nonlinear_system monolithic"]}
{"id": "C47", "title": "A step that returns has converged (bouncing)", "statement": "If the bouncing staggered solve returns normally, both the macro and the micro residual were below tolerance in the same final solution loop; the number of loops and inner iterations is bounded.", "quantifier": "all residual behaviours", "why_tests_cant": "adversarial oracles", "anchors": ["source/gradient_crystal_plasticity/solve.cc: bouncing_algorithm"]}
{"id": "C48", "title": "A step that returns has converged (embracing)", "statement": "If the embracing solve returns normally both residuals were below tolerance and iteration counts respect their limits.", "quantifier": "all residual behaviours", "why_tests_cant": "adversarial oracles", "anchors": ["source/gradient_crystal_plasticity/solve.cc: embracing_algorithm"]}
{"id": "C49", "title": "Extrapolated start value is exact for linear-in-time solutions", "statement": "The extrapolated trial value equals old + r (old - old_old), which is the exact next value for solutions linear in time when the extrapolation factor is one; the first step extrapolates nothing beyond the data.", "quantifier": "all vectors and step sizes", "why_tests_cant": "universal", "anchors": ["source/gradient_crystal_plasticity/solve.cc: extrapolate_initial_trial_solution"]}
{"id": "C50", "title": "The step plan fills the simulated time exactly", "statement": "The time step sizes handed out for the planned steps add up to the end time minus the start time, for monotonic and for cyclic loading with or without unloading phase.", "quantifier": "all durations, step numbers, cycle counts", "why_tests_cant": "sums of arbitrary length", "anchors": ["source/run_time_parameters.cc: SimpleLoading::get_next_time_step_size, parse_parameters"]}
{"id": "C51", "title": "Extrapolation is skipped exactly at load reversals", "statement": "skip_extrapolation(step) holds iff loading is cyclic and the step starts the cyclic phase, starts the unloading phase, or follows a quarter/three-quarter point of a cycle inside the cyclic phase.", "quantifier": "all step numbers and parameters, including those where unsigned subtraction wraps", "why_tests_cant": "universal", "anchors": ["source/run_time_parameters.cc: SimpleLoading::skip_extrapolation"]}
{"id": "C52", "title": "Displacement control prescribes the requested load", "statement": "The prescribed boundary displacement equals t * height * max load / characteristic displacement in the loaded component of every crystal and zero elsewhere; cyclic loading parameters take effect.", "quantifier": "all times, components, crystals", "why_tests_cant": "universal", "anchors": ["source/boundary_conditions.cc: DisplacementControl"]}
{"id": "C53", "title": "Load control prescribes the requested load", "statement": "The prescribed traction follows the configured loading.", "quantifier": "all times, points", "why_tests_cant": "universal", "anchors": ["source/boundary_conditions.cc: LoadControl"]}
{"id": "C54", "title": "Crystal bands", "statement": "Every cell of the strip gets exactly one crystal: the band floor(y n / h) containing its centre.", "quantifier": "all heights, numbers of crystals, cell centres", "why_tests_cant": "universal", "anchors": ["applications/simple_shear.cc: make_grid"]}
{"id": "C55", "title": "Results of the final step are always written", "statement": "Graphical output happens exactly at the multiples of the output frequency and at the end time, so the final state is always written, and the time loop ends.", "quantifier": "all frequencies and step counts", "why_tests_cant": "universal", "anchors": ["applications/simple_shear.cc: run, postprocessing"]}
{"id": "C56", "title": "Command line accepts exactly one .prm path", "statement": "With no argument the default file is used; with one argument it is accepted iff its last extension is prm; anything else is rejected.", "quantifier": "all argument vectors and strings", "why_tests_cant": "universal over strings", "anchors": ["applications/simple_shear.cc: main"]}
{"id": "C57", "title": "File comparison is byte equality", "statement": "files_are_identical returns true iff both files are readable and have the same bytes.", "quantifier": "all contents", "why_tests_cant": "universal", "anchors": ["source/utilities.cc: files_are_identical"]}
{"id": "C58", "title": "Logger prints declared columns in declaration order", "statement": "Every declared column is printed exactly once per row, in order of declaration, with the last value set; duplicates are rejected.", "quantifier": "all call sequences", "why_tests_cant": "sequences", "anchors": ["source/utilities.cc: Logger"]}
{"id": "C59", "title": "Von Mises measures are zero exactly on hydrostatic states", "statement": "The von Mises stress is non-negative, unchanged by adding pressure, positively homogeneous, equals |s| for uniaxial stress s, sqrt(3)|t| in pure shear and is zero iff the stress is hydrostatic.", "quantifier": "all stresses", "why_tests_cant": "universal", "anchors": ["source/postprocessing.cc: get_von_mises_stress"]}
{"id": "C60", "title": "Homogenised stress is a volume average independent of the partition", "statement": "The macroscopic stress is the volume-weighted mean of the point stresses, independent of how cells are distributed over ranks or ordered, lies between the extreme point values, and a uniform field is reproduced.", "quantifier": "all cells, quadratures, partitions", "why_tests_cant": "universal over partitions", "anchors": ["source/postprocessing.cc: Homogenization::compute_macroscopic_stress"]}
{"id": "C61", "title": "Macroscopic damage is the interface average", "statement": "get_macroscopic_damage returns the area-weighted mean interface damage (in [0,1] if all point damages are).", "quantifier": "all interfaces and histories", "why_tests_cant": "reads an uninitialised accumulator", "anchors": ["source/gradient_crystal_plasticity/assembly.cc: get_macroscopic_damage"]}
{"id": "C62", "title": "Output names match output slots", "statement": "The graphical post-processor fills exactly as many slots as it names, and slot k carries the quantity named k.", "quantifier": "all numbers of slip systems, light/full/fluctuation output", "why_tests_cant": "universal", "anchors": ["source/postprocessing.cc: get_names, get_data_component_interpretation, evaluate_vector_field"]}
{"id": "C63", "title": "Reported stress fluctuations are in stress units", "statement": "The fluctuation stress written to the output is the characteristic stress times the dimensionless one, as for the total stress.", "quantifier": "all states and characteristic stresses", "why_tests_cant": "universal", "anchors": ["source/postprocessing.cc: evaluate_vector_field"]}
{"id": "C64", "title": "Dimensionless and dimensional problems have the same solutions", "statement": "With the coded characteristic quantities and dimensionless numbers, the dimensionless bulk residual is the dimensional one divided by a constant per equation.", "quantifier": "all states and reference values", "why_tests_cant": "universal", "anchors": ["source/run_time_parameters.cc: DimensionlessForm::init", "source/gradient_crystal_plasticity/assembly.cc"]}
{"id": "C65", "title": "Grain-boundary Jacobian matches the grain-boundary residual", "statement": "The interface contributions to the Jacobian (own cell and neighbour coupling) are the exact negative derivatives of the interface contribution to the residual with frozen damage.", "quantifier": "all jumps, slips, shape functions", "why_tests_cant": "limit statement", "anchors": ["source/gradient_crystal_plasticity/assembly.cc: assemble_local_jacobian, assemble_local_residual"]}
{"id": "C66", "title": "Damage projection reproduces constants and bounds", "statement": "The lumped L2 projection of the interface damage returns c at every interface dof if the damage is uniformly c, provided the lumped mass is positive; for non-negative shape functions it stays within the range of point damages.", "quantifier": "all meshes and damage fields", "why_tests_cant": "universal", "anchors": ["source/gradient_crystal_plasticity/assembly.cc: assemble_local_projection_matrix, assemble_local_projection_rhs"]}
{"id": "C67", "title": "Slip-system input reader accepts exactly well-formed files", "statement": "Reading slip or Euler-angle files either throws or yields exactly one entry per non-blank leading line, with the number of components required by the dimension, and slip direction and normal lists of equal length.", "quantifier": "all file contents", "why_tests_cant": "universal over inputs", "anchors": ["source/crystal_data.cc: read_and_store_data"]}
{"id": "C68", "title": "Crystal count is independent of the partition", "statement": "Every rank computes the same crystal count: the number of distinct material ids over all cells.", "quantifier": "all meshes and distributions over ranks", "why_tests_cant": "universal over partitions", "anchors": ["source/crystal_data.cc: count_n_crystals"]}
{"id": "C69", "title": "Newton matrix of a cell is positive semidefinite", "statement": "With a positive semidefinite stiffness, latent hardening ratio in [0,1], non-negative resistances and quadrature weights, the assembled bulk Newton matrix J of a cell satisfies V.J.V >= 0 for every coefficient vector V.", "quantifier": "all cells, states, coefficient vectors, any number of slip systems and quadrature points", "why_tests_cant": "The inequality ranges over all states and directions; a sampled check can miss an indefinite direction.", "anchors": ["source/gradient_crystal_plasticity/assembly.cc:assemble_local_jacobian"]}
{"id": "C70", "title": "The right-hand side is the discrete virtual power balance", "statement": "Tested with any virtual displacement/slip coefficients, the assembled bulk right-hand side equals the virtual power of the supply term minus that of stress, vectorial and scalar microstresses, integrated with the quadrature rule.", "quantifier": "all cells, states and virtual coefficients", "why_tests_cant": "An identity between functionals over all states and test vectors.", "anchors": ["source/gradient_crystal_plasticity/assembly.cc:assemble_local_residual"]}
{"id": "C71", "title": "Von Mises columns of the homogenisation table are the von Mises values of the homogenised tensors", "statement": "The von Mises stress written to the homogenisation table is the von Mises stress of the macroscopic stress, also in plane problems (out-of-plane components taken as zero).", "quantifier": "all homogenised stresses, both dimensions", "why_tests_cant": "universal; two-dimensional stresses with a nonzero trace expose it", "anchors": ["source/postprocessing.cc: Homogenization::update_table_handler_values, Homogenization::Homogenization"]}
{"id": "C72", "title": "Interface data remember the largest opening, once per announced update", "statement": "For every sequence of prepare and update calls on the data of an interface point, the stored maximum is the largest of zero and the absolute differences of the two values passed to those update calls that were the first after a prepare call; updates that were not announced change nothing, and the stored maximum never decreases.", "quantifier": "all call histories of prepare_for_update_call and update", "why_tests_cant": "ranges over all call histories", "anchors": ["source/quadrature_point_history.cc:InterfaceData", "include/gCP/quadrature_point_history.h"]}
{"id": "C73", "title": "Each degree of freedom obeys the constraint prescribed last", "statement": "After any sequence of set-up, reset and constraint-setting calls on the field, the line constraining a degree of freedom is the line prescribed for it by the last constraint-setting call since the last set-up or reset, and if there is none, its hanging-node line.", "quantifier": "all call sequences, degrees of freedom and constraint objects", "why_tests_cant": "ranges over all call histories and all constraint sets", "anchors": ["source/fe_field.cc:set_affine_constraints, set_newton_method_constraints, reset_affine_constraints, setup_dofs"]}
{"id": "C74", "title": "The nonlinear algorithms call their subroutines in a legal order", "statement": "Whatever the parameters, none of the three solution algorithms solves a linear system without a Jacobian and a residual assembled from internal variables that belong to the current trial solution, and none starts a line search from an outdated residual.", "quantifier": "all parameters, all numerical subroutines, all initial states and all numbers of iterations", "why_tests_cant": "ranges over all paths through the nested loops", "anchors": ["source/gradient_crystal_plasticity/solve.cc:monolithic_algorithm, bouncing_algorithm, embracing_algorihtm"]}
{"id": "C75", "title": "The trial microstress is the frozen slip balance, averaged", "statement": "The right-hand side assembled for the trial microstress equals, row by row, the slip part of the residual with the slips kept at their committed values. For committed slips uniform in space the trial microstress of a node reproduces a uniform resolved shear stress exactly, with non-negative shape functions it lies within the range of the resolved shear stress in the cells sharing the node, so that a slip is left inactive where the resolved shear stress does not exceed the yield stress and is activated where it exceeds it on all sides.", "quantifier": "all meshes, elements whose slip shape functions add up to one, material parameters with defect energy index >= 2, displacement states and nodes without hanging-node constraint", "why_tests_cant": "a test fixes one mesh and one state; the claim is about every stress distribution and every patch of cells around a node", "anchors": ["/repo/source/gradient_crystal_plasticity/assembly.cc: assemble_trial_microstress_lumped_matrix, assemble_local_trial_microstress_right_hand_side", "/repo/source/gradient_crystal_plasticity/active_set.cc: compute_trial_microstress, determine_active_set"]}
{"id": "C76", "title": "The Jacobian fits its sparsity pattern for every active set", "statement": "Once the sparsity pattern has been made, assembling the Jacobian never adds an entry outside it (which would throw), whichever slips are active, with and without coupling across grain boundaries; making the pattern is refused exactly when the element of a cell, or of a coupled neighbour, does not match its material. Constraints relaxed after initialisation break this.", "quantifier": "all meshes, materials, constraint sets, active sets and local matrices", "why_tests_cant": "ranges over every mesh topology and every active set an analysis may run into", "anchors": ["source/gradient_crystal_plasticity/setup.cc:make_sparsity_pattern", "source/gradient_crystal_plasticity/assembly.cc:copy_local_to_global_jacobian", "source/gradient_crystal_plasticity/active_set.cc:determine_active_set"]}
{"id": "C77", "title": "The linear system is the Newton system restricted to admissible updates", "statement": "A vector solves the assembled linear system if and only if it vanishes at constrained degrees of freedom and the update obtained by distributing the constraints balances, against every test obeying the constraints, the residual with the unconstrained Jacobian, coupling across grain boundaries included; the update obeys the constraints and every admissible solution is obtained.", "quantifier": "all meshes, closed homogeneous constraint sets (supports, periodicity, inactive slips), local matrices and residuals", "why_tests_cant": "equivalence for all systems and all constraint sets", "anchors": ["source/gradient_crystal_plasticity/assembly.cc:copy_local_to_global_jacobian, copy_local_to_global_residual", "source/gradient_crystal_plasticity/solve.cc:solve_linearized_system"]}
{"id": "C78", "title": "The reduced system gives the displacement part of a Newton step once the slips have converged", "statement": "The displacement update of the reduced (Schur complement) system is the displacement part of the solution of the full Newton system with the slip residual set to zero, and only of that: with a remaining slip residual the error is exactly the omitted term; an inexact inverse of the slip block leaves a defect in the slip rows only.", "quantifier": "all block matrices, residuals and inverses of the slip block", "why_tests_cant": "algebraic identity over all systems", "anchors": ["source/gradient_crystal_plasticity/solve.cc:solve_reduced_linearized_system"]}
{"id": "C79", "title": "Accepted linear solves are good enough, or the program stops", "statement": "Every Newton update stems from a vector whose linear residual is at most the larger of the relative tolerance times the residual and of the absolute tolerance; a solver failure stops the program. With the relative tolerance below one and the absolute one below the residual, the vector is a descent direction of half the squared residual, with a slope as close to the one assumed by the line search as the tolerance. Below the absolute tolerance the staggered solves return a zero update, and the monolithic solve may return the previous update.", "quantifier": "all linear systems, tolerances and solvers respecting their tolerance", "why_tests_cant": "ranges over all systems and all solver behaviours", "anchors": ["source/gradient_crystal_plasticity/solve.cc:solve_linearized_system, solve_decoupled_linearized_subsystem", "source/utilities.cc:handle_std_excepction"]}
{"id": "C80", "title": "Both cells visiting an interface point", "statement": "An interior interface point is visited by both adjacent cells during one assembly. Both cells hand the point the same effective opening displacement and the same interface energy, and for the exponential damage law two visits in turn, in either order, leave exactly the history one visit would leave. Under any interleaving of the two visits the recorded maximum opening is still the larger of the committed maximum and the current opening and the committed values are untouched; the damage should likewise be the one of that maximum.", "quantifier": "all jumps, normals, slip values and committed histories, and all interleavings of the statements of the two visits", "why_tests_cant": "the outcome depends on the thread schedule of the parallel assembly; a test sees one schedule", "anchors": ["source/gradient_crystal_plasticity/assembly.cc: assemble_local_jacobian", "source/quadrature_point_history.cc: InterfaceQuadraturePointHistory::update_values", "applications/simple_shear.cc: MPI_InitFinalize"]}
{"id": "C81", "title": "Microhard grain boundaries fix the slips and nothing else", "statement": "With microhard conditions requested, every slip degree of freedom on a grain-boundary face is fixed to zero and no displacement degree of freedom is touched, for every dimension, number of slip systems and pair of polynomial degrees the parameters admit.", "quantifier": "all numbers of slip systems, polynomial degrees, dimensions, face dof numberings and existing constraints", "why_tests_cant": "holds for some combinations of degrees and dimension and fails for others; a test covers one combination", "anchors": ["applications/simple_shear.cc: setup_constraints", "include/gCP/fe_field.h: get_global_component"]}
{"id": "C82", "title": "Newton constraints are the homogeneous version of the prescribed conditions", "statement": "At every time step the constraints of the Newton update constrain exactly the degrees of freedom constrained in the solution, with the same coefficients and zero values, so an increment keeps the boundary, periodicity and hanging-node conditions of the step if and only if it obeys the Newton constraints; the conditions prescribed are the displacement control of the current time at the upper boundary, zero displacement at the lower one and zero slip at both.", "quantifier": "all meshes, boundary dofs, hanging nodes, periodic pairings, loading functions and numbers of steps", "why_tests_cant": "quantifies over meshes and over the whole history of boundary updates", "anchors": ["applications/simple_shear.cc: setup_constraints, update_dirichlet_boundary_conditions", "source/fe_field.cc: set_affine_constraints, set_newton_method_constraints"]}
{"id": "C83", "title": "The boundary table lists the applied shear and the mean shear stress", "statement": "Each row of the boundary table of the simple shear problem contains the shear prescribed at the upper boundary (displacement over height) and the mean of the shear stress over the upper boundary, independent of the partition of the mesh over ranks.", "quantifier": "all loadings, times, meshes, solutions, partitions, widths of the strip, in two and three dimensions", "why_tests_cant": "mean and independence of the partition are statements over all fields and partitions", "anchors": ["source/postprocessing.cc: SimpleShear::compute_data, compute_stress_12_at_boundary", "applications/simple_shear.cc: make_grid, constructor"]}
{"id": "C84", "title": "Every run parameter is the value its entry has in the parameter file", "statement": "If the construction of the problem parameters from a parameter file succeeds, every parameter equals the last value the file assigns to the entry documented for it (in its subsection), or the documented default if the file does not mention it; enumerations are the option spelled in the file. Only the settings of the selected solution algorithm are read, the others keep the defaults. A file with an unknown entry, an entry in the wrong subsection or a value outside its range is rejected. Order of the entries and overwritten assignments do not matter.", "quantifier": "all parameter files (sequences of assignments), debug and release builds, all answers of the file system", "why_tests_cant": "quantifies over all files; a test checks a few entries, a wrong subsection or a copied name in one of 120 entries goes unnoticed", "anchors": ["source/run_time_parameters.cc: declare_parameters, parse_parameters of all structs, InfiniteStripProblem", "applications/simple_shear.cc: main"]}
{"id": "C85", "title": "A parameter file is accepted exactly when its values meet the documented demands", "statement": "Construction succeeds iff the file is well formed and the values in force satisfy: positive elastic constants, positive regularisation parameters, positive height, dimension 2 or 3, 0 < absolute < relative tolerances and 0 < alpha < beta < 1 of the selected solver, creatable output directory, and in a debug build also the asserted conditions on times, loads, resistances and preconditioner; otherwise an exception is thrown and no result is produced. Accepted parameters lie in the ranges the constitutive laws, the solvers and the time loop require.", "quantifier": "all parameter files, builds and file systems", "why_tests_cant": "an equivalence over all files", "anchors": ["source/run_time_parameters.cc: AssertThrow and Assert checks, Patterns"]}
{"id": "C86", "title": "The parameter file copied to the output directory reproduces the run", "statement": "The file parameter_file.prm written to the output directory, used as parameter file of another run, gives the same parameters and writes the same file again. The template written when the parameter file does not exist assigns to every entry its default and, used as parameter file, is equivalent to an empty file; the run that writes it ends with an exception.", "quantifier": "all accepted parameter files, builds and file systems", "why_tests_cant": "a round trip over all files", "anchors": ["source/run_time_parameters.cc: InfiniteStripProblem(const std::string &)"]}
{"id": "C87", "title": "Only accepted solutions leave a trace in the history", "statement": "After any number of time steps the internal variables are those obtained by one update per step for the solution that step accepted, starting from the values committed at the step's begin: Newton iterates, line-search trials, staggered loops and active-set restarts leave no trace. In particular the slip resistance of a system at a quadrature point is its initial value plus, per step, sum_b H (q + (1-q) delta_ab) |gamma_b - gamma_b(last step)| of the accepted solutions.", "quantifier": "all runs of any number of steps, all algorithms (the monolithic one for rate-dependent behaviour), all numbers the subroutines may compute", "why_tests_cant": "the number and order of iterates, line-search trials and loops is unbounded", "anchors": ["source/gradient_crystal_plasticity/solve.cc: solve_nonlinear_system, monolithic_algorithm, bouncing_algorithm, embracing_algorihtm, line_search", "source/gradient_crystal_plasticity/assembly.cc: reset_and_update_internal_variables, prepare_quadrature_point_history", "applications/simple_shear.cc: run"]}
{"id": "C88", "title": "The accepted solution meets the tolerance", "statement": "When solve_nonlinear_system returns, the residual of the returned solution, with the internal variables belonging to it, is below the configured tolerance (total norm for the monolithic algorithm, both block norms for the staggered ones). Rate-independent monolithic solves violate this after an active-set restart: the slip of inactive dofs is changed after the residual was tested.", "quantifier": "all algorithms, parameters, trial solutions and numbers the subroutines may compute", "why_tests_cant": "every path through three nested iterations, restarts and line searches", "anchors": ["source/gradient_crystal_plasticity/solve.cc: solve_nonlinear_system, monolithic_algorithm, bouncing_algorithm, embracing_algorihtm"]}
{"id": "C89", "title": "Dofs below yield do not slip", "statement": "In a rate-independent step an unconstrained slip dof that is not in the active set when the step ends has the value it had at the end of the last step, provided the staggered algorithms do not reset the trial solution at each micro loop; the sets change only when their determination is requested. With that option (on by default) an inactive dof can keep its extrapolated slip.", "quantifier": "all algorithms, meshes, constraints, trial solutions and numbers the subroutines may compute", "why_tests_cant": "must hold for every iteration history", "anchors": ["source/gradient_crystal_plasticity/active_set.cc: active_set_algorithm, reset_inactive_set_values", "source/gradient_crystal_plasticity/solve.cc: reset_trial_solution, solve_nonlinear_system", "source/run_time_parameters.cc: Reset trial solution at each micro loop"]}
{"id": "C90", "title": "Histories do not depend on the distribution of the cells", "statement": "However the cells are distributed over the MPI processes, and in whatever order a process visits them, every process that holds the history of a quadrature point or of a grain-boundary point has the same history after any sequence of initialisations, stores, resets, updates and end-of-step calls: each sweep counts once per point, also at grain boundaries visited from both sides and at those shared by two processes. With the exponential (Ortiz) damage model this holds; with the rate model M1 a process that owns both sides of a boundary counts its damage increments twice, so the damage depends on the number of processes.", "quantifier": "all meshes without hanging nodes at grain boundaries, partitions, orders of cells, sequences of sweeps and solutions", "why_tests_cant": "ranges over every partition of every mesh; a test compares a few process counts", "anchors": ["source/gradient_crystal_plasticity/assembly.cc: prepare_quadrature_point_history, reset_quadrature_point_history, update_local_quadrature_point_history, store_local_effective_opening_displacement", "source/gradient_crystal_plasticity/setup.cc: init_quadrature_point_history", "source/quadrature_point_history.cc", "include/gCP/quadrature_point_history.h: InterfaceDataStorage"]}
{"id": "C91", "title": "The distributed linear system is the serial one", "statement": "The residual, the Jacobian and the active sets assembled by several MPI processes are those a single process would assemble, for every partition of the cells and dofs, when the processes agree on the constraints of the dofs they meet. With the active-set constraints this holds only as long as no process meets an inactive dof owned by another one and there is no periodicity: an inactive dof is constrained on its owner alone, so at a partition boundary other processes add to its residual, and a yielding periodic slave activates its master only on its own process.", "quantifier": "all partitions, cells, local contributions, constraints, trial solutions and yield states", "why_tests_cant": "ranges over every partition and every active set", "anchors": ["source/gradient_crystal_plasticity/assembly.cc: assemble_jacobian, assemble_residual, copy_local_to_global_jacobian, copy_local_to_global_residual", "source/gradient_crystal_plasticity/active_set.cc: active_set_algorithm, determine_active_set, determine_inactive_set"]}
{"id": "C92", "title": "Accepted solutions are in equilibrium", "statement": "On any mesh of crystals with any loads, boundary constraints and linear solvers: whenever a time step ends normally, the solution it returns satisfies the weak form of the macro- and microforce balances up to the tolerances: on every virtual displacement/slip field that respects the constraints, the total virtual power of stresses, microstresses, interface tractions and loads is at most the tolerance times the size of the field (monolithic), or the macro tolerance times its displacement part plus the micro tolerance times its slip part (staggered). The stresses and tractions are evaluated with the internal variables (slip resistances, damage, maximum openings) that follow from the accepted solutions of this and the earlier steps alone, not from discarded iterates.", "quantifier": "all meshes, crystals, loads, constraints, solution algorithms, linear solvers, line searches and numbers of time steps", "why_tests_cant": "ranges over every mesh, every load history, every virtual field and every sequence of iterates", "anchors": ["source/gradient_crystal_plasticity/solve.cc: solve_nonlinear_system, monolithic_algorithm, bouncing_algorithm, embracing_algorithm", "source/gradient_crystal_plasticity/assembly.cc: assemble_residual, assemble_local_residual, copy_local_to_global_residual, prepare_quadrature_point_history, reset_and_update_quadrature_point_history", "source/fe_field.cc: get_sub_l2_norms"]}
{"id": "C93", "title": "The Newton matrix is the derivative of the assembled residual", "statement": "On any mesh of crystals, with histories updated for every trial solution: the assembled Jacobian times any direction that respects the constraints is minus the directional derivative of the assembled residual, wherever the residual is differentiable (rate-independent laws: every system slips; other laws: perfectly plastic; interfaces: away from first contact and from the moment the largest opening is reached, tractions independent of the damage while it grows). The step computed from an exact linear solve therefore cancels the residual to first order, the slope -2f that the line search assumes for f = |r|^2/2 is the slope of f along that step, and every short enough step passes the line search's test (alpha < 1).", "quantifier": "all meshes, crystals, interfaces, loads, constraints, trial solutions, histories and directions", "why_tests_cant": "ranges over every mesh, state and direction; a derivative is a limit", "anchors": ["source/gradient_crystal_plasticity/assembly.cc: assemble_jacobian, assemble_local_jacobian, copy_local_to_global_jacobian, assemble_residual, assemble_local_residual, update_local_quadrature_point_history", "source/gradient_crystal_plasticity/solve.cc: solve_linearized_system, compute_line_search", "source/line_search.cc: reinit, suficient_descent_condition"]}
{"id": "C94", "title": "The material memory of a whole body is that of the accepted solutions", "statement": "In a run of any number of steps from a freshly set up body (any mesh, loads, solvers, line searches): after every accepted step the slip resistance at every point of every cell is its initial value plus the hardening increments of the accepted solutions so far (none with perfect plasticity), and the largest opening stored at every interface point is the largest opening among the accepted solutions, the damage being 1-(1+x)exp(-x) of it; discarded iterates and trial states contribute nothing. Slip resistances, largest openings and damage never decrease from one accepted step to a later one, and damage stays in [0,1).", "quantifier": "all meshes, bodies, step counts, solution algorithms, linear solvers and points", "why_tests_cant": "ranges over every history of steps and iterates on every mesh", "anchors": ["source/gradient_crystal_plasticity/assembly.cc: prepare_quadrature_point_history, reset_and_update_quadrature_point_history, store_effective_opening_displacement_in_quadrature_history", "source/gradient_crystal_plasticity/solve.cc: solve_nonlinear_system", "source/quadrature_point_history.cc: update_values, store_current_values", "source/gradient_crystal_plasticity/setup.cc: init_quadrature_point_history"]}
{"id": "C95", "title": "A computed body obeys the second law: energy is dissipated, never created", "statement": "In every accepted step on any body with stable elasticity, positive constants and interfaces seen alike from both sides: the change of the stored energy (elastic energy and defect energy of the grains; recoverable, contact and slip-mismatch energy of the interfaces, degraded by damage) plus the energy dissipated by slip is at most the work supplied by the loads, by the change of the macroscopic strain and by the moving supports, up to the residual tolerance times the size of the motion. The dissipation of slip is non-negative and vanishes exactly when no slip changed; the stored energy is non-negative; a body without loads, with held supports and macroscopic strain, cannot gain stored energy nor dissipate more than it had, up to the tolerance. Over a run of any number of steps from set-up the same holds for the summed works.", "quantifier": "all meshes, bodies, regularisations, histories, step counts, solution algorithms, linear solvers and motions of the supports", "why_tests_cant": "an inequality over every load path and every state of damage; a test sees one path", "anchors": ["source/gradient_crystal_plasticity/assembly.cc: assemble_local_residual, prepare/reset_and_update_quadrature_point_history", "source/constitutive_laws.cc: ResolvedShearStressLaw, ScalarMicroscopicStressLaw, VectorialMicroscopicStressLaw, MicroscopicTractionLaw, CohesiveLaw, DegradationFunction, ContactLaw", "source/gradient_crystal_plasticity/solve.cc: solve_nonlinear_system"]}
{"id": "C96", "title": "The Newton matrix is symmetric and, without softening, positive definite: a Newton step exists and is unique", "statement": "For every trial solution of every body with stable elasticity, positive constants, cohesive interfaces seen alike from both sides and histories as the solver produces them, the assembled global matrix (constrained dofs condensed) is symmetric. If the hardening is non-negative with latent ratio at most one and no interface point follows the falling part of the cohesive envelope (it unloads, or its opening is at most the critical one), the matrix is positive semidefinite. If moreover slip is rate dependent, the elasticity is positive definite and the supports exclude rigid motions, it is positive definite, so for every right-hand side the linear system of the Newton iteration has exactly one solution. Past the critical opening this fails: an admissible state exists in which the matrix has a direction of negative curvature.", "quantifier": "all meshes, bodies, trial solutions, histories, constraints, sparsity patterns and right-hand sides", "why_tests_cant": "definiteness of a matrix of any size for every state; the conjugate gradient solver relies on it", "anchors": ["source/gradient_crystal_plasticity/assembly.cc: assemble_local_jacobian, copy_local_to_global_jacobian", "source/constitutive_laws.cc: CohesiveLaw::get_jacobian, ContactLaw::get_jacobian, ScalarMicroscopicStressLaw::get_jacobian, VectorialMicroscopicStressLaw::get_jacobian, MicroscopicTractionLaw", "source/gradient_crystal_plasticity/solve.cc: solve_linearized_system"]}
{"id": "C97", "title": "The shear problem from the first to the last step: prescribed shear, equilibrium and output together", "statement": "Running the shear problem (monotonic loading, any mesh, material, linear solvers and line searches), every accepted solution obeys all constraints of its time: displacements on the upper boundary equal time times height times maximal shear in units of the characteristic displacement in the loaded component and zero in the others, displacements of the lower boundary and slips on both are zero; each accepted solution is in equilibrium up to the configured tolerances for every virtual motion of the problem, with the internal variables that follow from the accepted solutions alone. If the run completes, the steps are numbered from 1, graphical output is written at the multiples of the frequency and at the end, and the last accepted solution is the one at the configured end time; in exact arithmetic the accepted steps are exactly the planned ones. If a solve fails, what was accepted before is on file as documented. The damage of an interface when a step is accepted is that of the largest opening accepted so far.", "quantifier": "all programs (loading, mesh, boundary dofs, materials, solver parameters, algorithms, linear solvers, line searches), all numbers of steps, completed and interrupted runs", "why_tests_cant": "couples the time loop, the constraint updates and the nonlinear solver over arbitrarily many steps and for every behaviour of the linear solver", "anchors": ["applications/simple_shear.cc: run, setup_constraints, update_dirichlet_boundary_conditions", "source/gradient_crystal_plasticity/solve.cc: solve_nonlinear_system", "source/boundary_conditions.cc: DisplacementControl", "source/fe_field.cc: set_affine_constraints, update_solution_vectors"]}
{"id": "C98", "title": "What a run leaves in its text files", "statement": "A completed run with homogenisation switched on leaves in homogenization.txt one rectangular table with exactly one row per due step (multiples of the homogenisation frequency, and always the step reaching the end time), in the order of the steps: the time, the von Mises stress and strain measures and, under each component name, that component of the averaged stress, of the averaged plus macroscopic strain and of the fluctuations; components the dimension does not have are blank, never shifted into another column. The boundary file always lists every accepted step, also when the run was interrupted; in a monotonic run the shear in each row is the one the loaded boundary dofs have in the accepted solution. An interrupted run keeps the homogenised rows computed so far, and every admitted frequency is usable.", "quantifier": "all runs (any number of steps, completed or interrupted at any step), both dimensions, all frequencies, all states", "why_tests_cant": "ranges over all sequences of accepted steps, frequencies and interruption points", "anchors": ["applications/simple_shear.cc: initialize_calls, postprocessing, run", "source/postprocessing.cc: Homogenization, SimpleShear::compute_data, output_data_to_file", "source/run_time_parameters.cc: Homogenization"]}
{"id": "C99", "title": "Without latent hardening and decohesion a time step has at most one solution, and what the solver accepts is close to it", "statement": "For every mesh without opening interfaces, stable elasticity, positive constants, sound histories and slip systems that do not harden each other (perfect plasticity, latent ratio 0 or a single system), the out-of-balance forces, histories updated with the trial solution, are a monotone function of the trial solution: the power of their difference on the difference of two trial solutions is at least the (non-negative) work of the differences of stresses and microstresses on the differences of strains, slips and slip gradients. Hence two exact solutions of the step that obey the same supports have the same strains and slips at all quadrature points, and are equal if the supports exclude rigid motions. Two accepted solutions of the same step, whatever algorithm, parameters, initial guess, linear solver and line search led to them, differ in that measure by at most the two tolerances times the size of their difference. With the default latent hardening ratio 1.4 this fails: a body exists whose step has two solutions with different slips.", "quantifier": "all meshes, elements, materials, regularizations, histories, trial solutions, constraints, solver parameters, initial guesses and outcomes of the linear solver", "why_tests_cant": "uniqueness speaks about all states; a test sees the one solution its iteration found", "anchors": ["source/gradient_crystal_plasticity/solve.cc: solve_nonlinear_system", "source/gradient_crystal_plasticity/assembly.cc: assemble_local_residual, reset_and_update_quadrature_point_history", "source/constitutive_laws.cc: ScalarMicroscopicStressLaw::get_scalar_microscopic_stress, VectorialMicroscopicStressLaw::get_vectorial_microscopic_stress", "source/run_time_parameters.cc: HardeningLaw"]}
{"id": "C100", "title": "Away from equilibrium the Newton iteration never gets stuck", "statement": "With the sparsity pattern made at set-up, for every trial solution of a viscoplastic body (perfectly plastic, so that the matrix is the derivative) that is held in place, with stable elasticity and interfaces that do not soften, histories as the solver produces them: the Newton matrix can be assembled, its linear system has exactly one solution, and unless the out-of-balance forces vanish every sufficiently small step along it reduces their squared norm by more than the fraction 2 alpha lambda. Hence the back-tracking line search of the code, if it may reduce often enough, returns such a step length in (0,1] - or NaN, when two trials happen to predict the same curvature (C01).", "quantifier": "all meshes, materials, histories, trial solutions, constraints, alpha < 1", "why_tests_cant": "existence of a descent step at every state; a test sees a few iterates", "anchors": ["source/line_search.cc: get_lambda, quadratic_backtracking, cubic_backtracking", "include/gCP/line_search.h: suficient_descent_condition", "source/gradient_crystal_plasticity/solve.cc: line_search_algorithm, solve_linearized_system", "source/gradient_crystal_plasticity/assembly.cc: assemble_jacobian, assemble_residual", "source/gradient_crystal_plasticity/setup.cc: make_sparsity_pattern"]}
{"id": "C101", "title": "The testing machine pays for all energy of a shear test", "statement": "In a simple shear run (monotonic loading, no body forces, no tractions, no macroscopic strain, rate-dependent behaviour, stable material), at every accepted time the energy stored in grains and interfaces beyond that at the start, plus the energy dissipated by the slips so far (never negative), is at most the work of the machine so far - reaction of the sheared edge times its motion, summed over the steps - plus the tolerances of the accepted equilibria. In particular no part of the boundary motion other than the driven edge does work: clamped edge, microhard faces, periodic and hanging dofs contribute nothing.", "quantifier": "all meshes, materials, step numbers and sizes, arithmetic (exact or double) of the clock, solution algorithms, linear solvers, completed, interrupted and unfinished runs, every accepted step", "why_tests_cant": "The inequality couples the whole history of a run (constraints rebuilt at every step, damage and hardening memory, solver tolerances); a test sees single runs of one mesh.", "anchors": ["applications/simple_shear.cc: SimpleShearProblem::run, setup_constraints, update_dirichlet_boundary_conditions", "source/gradient_crystal_plasticity/solve.cc: solve_nonlinear_system", "source/boundary_conditions.cc: DisplacementControl", "source/gradient_crystal_plasticity/assembly.cc: assemble_residual"]}
{"id": "C102", "title": "An elastic body is solved by one linear solve per time step", "statement": "For a crystal without slip systems (and without separating or slip-interacting grain boundaries) whose linear systems are solved exactly, every time step is accepted whatever the iterate it starts from: the monolithic and the embracing algorithm accept it after one Newton iteration with a residual of exactly zero, the bouncing algorithm after at most two displacement iterations; the iterations reported are exactly those. Hence the whole simple shear test of such a crystal runs to its end, through all planned steps at the planned times, in exact arithmetic and, for a monotonic load, with the clock in double precision.", "quantifier": "all consistent elastic bodies, meshes and stiffness tensors, prescribed displacements, hanging-node constraints, solution algorithms, start states, time step sizes, load histories, positive tolerances and sufficient iteration limits", "why_tests_cant": "A test runs one mesh with one stiffness and one load; that one Newton iteration always removes the residual depends on the matrix being the exact derivative, on the constraints of the Newton update being the homogeneous version of those of the solution and on the residual being assembled after the move, for every mesh and every start state.", "anchors": ["source/gradient_crystal_plasticity/solve.cc: solve_nonlinear_system", "source/gradient_crystal_plasticity/solve.cc: monolithic_algorithm, bouncing_algorithm, embracing_algorithm", "source/gradient_crystal_plasticity/assembly.cc: assemble_jacobian, assemble_residual", "applications/simple_shear.cc: SimpleShearProblem::run"]}
{"id": "C103", "title": "The supports of the body balance its loads", "statement": "In every accepted time step the forces the constraints exert on the body, taken on any rigid virtual motion, balance the body forces and tractions up to the accepted residual: the internal forces, including those of separating and of contacting grain boundaries, do no work on rigid motions because the two sides of a boundary pull with opposite forces. In the simple shear test, in every accepted step of the run, the force of the lower edge plus the force of the upper edge plus the resultant of the loads vanishes up to the tolerance, and the machine acts on the body through the upper edge only.", "quantifier": "all bodies with matching interfaces, meshes, hanging-node, periodic and boundary constraints, accepted steps of every algorithm, rigid motions, loads, histories and load programs", "why_tests_cant": "A test compares the reactions of one computed state; that they balance in every accepted state needs the antisymmetry of all face tractions, the vanishing of all stress powers on rigid motions and the equilibrium of every accepted step.", "anchors": ["source/gradient_crystal_plasticity/assembly.cc: assemble_residual (cell, boundary and grain-boundary contributions)", "source/gradient_crystal_plasticity/solve.cc: solve_nonlinear_system", "applications/simple_shear.cc: SimpleShearProblem::setup_constraints, run"]}
{"id": "C104", "title": "Reversing the load reverses the solution", "statement": "If all loads and prescribed displacements are reversed, every time step of a body whose grain boundaries do not open ends in the same way and with exactly the reversed solution: reversed displacements, slips and stresses, the same slip resistances, active sets, residual norms and number of iterations; the simple shear test with the opposite maximal load makes the same steps and accepts the reversed solutions. The assembled matrix is the same and the right-hand side reversed, so linear solvers that are odd in the right-hand side and line searches that look at the residual norm keep this symmetry.", "quantifier": "all coherent bodies (any mesh, slip systems, hardening, regularisation, defect energy, slip-interacting grain boundaries, rate-dependent and rate-independent), algorithms, iteration limits, start states, load programs, hanging-node, periodic and boundary constraints", "why_tests_cant": "A test mirrors one simulation to rounding accuracy; the symmetry must hold along every path through active sets, restarts, line searches, extrapolation and hardening, for every state.", "anchors": ["source/constitutive_laws.cc: ScalarMicrostressLaw, VectorialMicrostressLaw, MicrotractionLaw", "source/quadrature_point_history.cc: QuadraturePointHistory::update_values", "source/gradient_crystal_plasticity/solve.cc: solve_nonlinear_system", "source/gradient_crystal_plasticity/active_set.cc: determine_active_set", "source/boundary_conditions.cc: DisplacementControl::vector_value", "applications/simple_shear.cc: SimpleShearProblem::run"]}
{"id": "C105", "title": "Only the product of slip rates and time matters", "statement": "Multiplying all durations of the loading by a factor, dividing the loading rate and the reference slip rates of the regularised crystals by it, changes nothing but the times: the assembled residual, Newton matrix and line search function are the same, every time step does the same iterations and returns the same state (solution, histories, active sets), and the whole simple shear test accepts the same states at the multiplied times, with the same output written and the same ending. Rate-independent crystals do not feel the speed of the test at all: the same holds with unchanged material parameters.", "quantifier": "every positive factor, body (rate-dependent with any regularisation and positive reference rate, or rate-independent, with or without cohesive interfaces), solver parameters, algorithm, loading programme, starting state", "why_tests_cant": "a test compares two runs of one specimen at two speeds; the claim is for every factor, specimen and step of every algorithm, and a dimensional error (a step size missing or used in absolute terms in a rate, a derivative, the loading/unloading decision or the extrapolation) can hide in the cases not run", "anchors": ["source/constitutive_laws.cc:278-441", "source/constitutive_laws.cc:1019-1190", "source/gradient_crystal_plasticity/assembly.cc:704-1146", "source/gradient_crystal_plasticity/solve.cc:13-65", "source/boundary_conditions.cc:46-103", "source/run_time_parameters.cc:1478-1671", "applications/simple_shear.cc:845-925"]}
{"id": "C106", "title": "A step is made under the loads in force", "statement": "Whatever was called before and wherever among the calls the loads were given (before or after init, between steps, several times): a time step is the step of the body under the macroscopic strain given last, for every boundary id the traction given last evaluated at the time the step ends at, and the body force given last; what the step accepts is in equilibrium with exactly these loads. A traction for an id no face has does nothing. The body force acts with the time the user last set it to (the code never sets it: that it follows the time of the step is refuted). Evaluating the residual twice gives the same unless one function object is given both as body force and as traction (refuted then: the first evaluation moves the clock of the shared object).", "quantifier": "all sequences of calls on a constructed solver object (set-up, loads, init, steps, user's set_time), all bodies, boundary faces, user functions, times, trial solutions and histories", "why_tests_cant": "A test runs one order of calls with one set of functions; the claim is over every sequence of calls and every function, including functions shared between roles.", "anchors": ["source/gradient_crystal_plasticity/setup.cc: set_macroscopic_strain, set_supply_term, set_neumann_boundary_condition", "source/gradient_crystal_plasticity/assembly.cc: assemble_local_residual (743-748, 1099-1146)", "source/gradient_crystal_plasticity/solve.cc: solve_nonlinear_system"]}
{"id": "C107", "title": "Initialising the solver object", "statement": "init is accepted exactly when the field and the crystals were set up before; from the first accepted init on, after any further calls and steps, every history the steps read exists; right after the first one the body is untouched: trial vectors zero, slip resistances at their initial value, interfaces undamaged. Called again, init resets the trial vectors and slip resistances but leaves every interface history as it was (that a second init starts with an undamaged body is refuted). A step before init is undefined behaviour: the flag init sets is never read (that it is rejected is refuted).", "quantifier": "all sequences of calls on a constructed solver object, all bodies with a sound set-up, all steps made in between", "why_tests_cant": "A test initialises once in the documented order; the claim is over every sequence of calls, repeated initialisations and steps in between.", "anchors": ["source/gradient_crystal_plasticity/setup.cc: init, init_quadrature_point_history", "source/gradient_crystal_plasticity/solve.cc: solve_nonlinear_system", "include/gCP/quadrature_point_history.h: InterfaceDataStorage::initialize", "source/gradient_crystal_plasticity/gradient_crystal_plasticity_solver.cc: constructor"]}
{"id": "C108", "title": "An elastic body responds linearly and without memory", "statement": "For a body without slip systems and without separating or interacting grain boundaries the displacements are linear in the loading: if macroscopic strain, body forces, boundary tractions and prescribed boundary values are combined linearly, the same combination of the solutions is a solution of the step, the only one if the elasticity is positive definite and the body is held in place. Solutions a time step accepts obey this as closely as the tolerances say, whatever algorithms, step sizes, earlier loadings, initial guesses, linear solvers and line searches led to them; in particular the solution does not depend on the past, and in the shear test of an elastic body without other loads the displacements grow in proportion to time.", "quantifier": "all elastic bodies (meshes, elements, crystals, loads), all coefficients of the combination, all constraints, algorithms, tolerances, histories, runs and pairs of accepted steps", "why_tests_cant": "Superposition is a statement about all loadings and all histories at once; a test compares a few load levels of one mesh.", "anchors": ["source/gradient_crystal_plasticity/assembly.cc: assemble_local_residual", "source/gradient_crystal_plasticity/solve.cc: solve_nonlinear_system", "source/boundary_conditions.cc: DisplacementControl::vector_value", "applications/simple_shear.cc: update_dirichlet_boundary_conditions"]}
{"id": "C109", "title": "Every time step has exactly one solution", "statement": "The nonlinear system a time step poses has a solution that obeys the boundary conditions, and only one, provided the slip is rate dependent, the elasticity is positive definite, interfaces do not separate, there is no latent hardening, the body is held in place and either nothing but the supports and the macroscopic strain drives it or every slip system hardens. What a step accepts is then close to the solution of the step itself, not only to other accepted solutions, and histories of exactly solved steps exist and are unique for any number of steps. (Under body forces or tractions without hardening this is refuted: the regularised flow laws are bounded, and a load above the bound has no solution for the iteration to find.)", "quantifier": "all meshes, elements, crystals, boundary conditions, loads, previous solutions, internal variables, regularisations, numbers of time steps and accepted steps", "why_tests_cant": "Existence of a solution for every mesh, load and history is a statement about infinitely many nonlinear systems; a run that converges shows one solution up to tolerances, one that fails does not show there is none.", "anchors": ["source/gradient_crystal_plasticity/assembly.cc: assemble_local_residual", "source/gradient_crystal_plasticity/solve.cc: solve_nonlinear_system", "source/constitutive_laws.cc: ScalarMicrostressLaw::get_scalar_microstress, VectorialMicrostressLaw", "include/gCP/quadrature_point_history.h: QuadraturePointHistory::update_values", "source/gradient_crystal_plasticity/assembly.cc: update_local_quadrature_point_history"]}
{"id": "C110", "title": "Disturbances do not grow: the time integration is unconditionally stable", "statement": "Take two computations of the same body under the same loading, starting from different displacements and slips but equally strong slip systems (quadratic defect energy, closed interfaces). The energy the difference of their solutions stores, elastic energy of the stress difference plus defect and interface energy of the slip difference, does not grow in a step, whatever the step size and the law's regularisation, with or without hardening; without hardening it does not grow over any number of steps, so errors of early steps are never amplified. If the difference stored no energy, the stresses agree after the step as well. Solutions accepted by steps and whole runs obey this up to the sum of what their tolerances admit, whatever solvers, guesses and algorithms produced them. If the loads differ, the energy of the difference grows at most by the work of the load difference on the drift.", "quantifier": "all meshes, elements, crystals, step sizes, loadings, regularisations, initial states, numbers of steps and pairs of runs", "why_tests_cant": "Stability is a statement about all pairs of initial states and all step sizes; a test follows a few perturbed computations for a few steps.", "anchors": ["source/gradient_crystal_plasticity/assembly.cc: assemble_local_residual", "source/gradient_crystal_plasticity/solve.cc: solve_nonlinear_system", "source/constitutive_laws.cc: ScalarMicrostressLaw::get_scalar_microstress, VectorialMicrostressLaw, MicrotractionLaw", "applications/simple_shear.cc: SimpleShearProblem::run"]}
{"id": "C111", "title": "A time step has a solution exactly when its loads can be carried below the slip resistances", "statement": "For a stable viscoplastic body without decohesion (with gradients, interfaces, any supports that hold it in place), a time step has a solution if and only if some state of stress, defect stresses and interface tractions together with flow stresses smaller than the slip resistances (unrestricted on systems that harden) balances the body forces and tractions. The solution is then unique. Whether it exists therefore does not depend on the previous state, the prescribed displacements, the step size's effect on the rates or the regularisation; a whole loading history can be followed if and only if the loads of each step can be carried at the resistances the body started with; loads that do as much work on some stress-free mechanism as the slip systems can dissipate at most have no solution. Each regularised law (atan, sqrt, Gudermann, tanh, erf) attains exactly the stresses below the resistance.", "quantifier": "all meshes, elements, crystals, flow laws, regularisations, supports, loads, previous states and histories", "why_tests_cant": "It is an equivalence between the solvability of a nonlinear system and the existence of an equilibrium stress field, for every body and load; a test sees a solver converge or diverge on one of them, and divergence does not tell whether a solution exists.", "anchors": ["source/gradient_crystal_plasticity/assembly.cc: assemble_local_residual", "source/constitutive_laws.cc: ScalarMicrostressLaw::get_scalar_microstress, get_regularization_function_value, VectorialMicrostressLaw, MicrotractionLaw, HookeLaw", "source/gradient_crystal_plasticity/solve.cc: solve_nonlinear_system"]}
{"id": "C112", "title": "Every body has a limit load, up to which and beyond which it does not matter how the load is reached", "statement": "For a stable viscoplastic body without decohesion: if a step cannot be solved under some multiple of its loads (body forces and tractions), there is one positive limit such that a step under a multiple t >= 0 of the loads has a solution exactly for t below the limit - whatever the macroscopic strain, prescribed displacements, time step and previous solution - and a programme of proportional loads can be followed to its end exactly if all its factors stay below that limit. Loads that can be carried separately can be carried in any proportion; loads that can be carried leave a margin; without loads every step has a solution. To show that loads can be carried it suffices to find any stresses (not necessarily of displacements) below the resistances that balance them.", "quantifier": "all meshes, elements, crystals, regularisations, supports, loads, load factors, macroscopic strains, time steps, previous states, lengths of loading programmes", "why_tests_cant": "A test can find a load that converges and one that does not; that nothing between and nothing beyond behaves differently, for any macroscopic strain, time step or path, ranges over all loads and histories.", "anchors": ["source/gradient_crystal_plasticity/assembly.cc: assemble_local_residual", "source/constitutive_laws.cc: ScalarMicrostressLaw, HookeLaw", "source/gradient_crystal_plasticity/solve.cc: solve_nonlinear_system", "applications/simple_shear.cc: the loading loop"]}
{"id": "C113", "title": "A step without a solution has a collapse: a motion nothing stores energy in and the slip systems cannot stop", "statement": "For a stable viscoplastic body without decohesion a time step has a solution exactly if no collapse exists: a non-zero motion the supports allow, which stores no energy (no elastic strain, no slip-gradient or interface energy; it suffices to compare the power of two states), slips no hardening system, and on which the loads work at least what the slip systems can dissipate. If multiples of the loads have a limit (C112), it is the ratio of dissipation to load work of one critical motion, and no free motion has a smaller ratio. Bodies that allow no free motion carry every load; stronger slip systems never carry less.", "quantifier": "all meshes, elements, crystals, regularisations, supports, loads, load factors, macroscopic strains, time steps, previous states, motions", "why_tests_cant": "A test can try one motion or one load; that the absence of a collapse among all motions is sufficient, and that the limit is attained by one, ranges over an infinite-dimensional choice of states and motions.", "anchors": ["source/gradient_crystal_plasticity/assembly.cc: assemble_local_residual", "source/constitutive_laws.cc: ScalarMicrostressLaw, HookeLaw", "source/gradient_crystal_plasticity/solve.cc: solve_nonlinear_system", "applications/simple_shear.cc: the loading loop"]}
{"id": "C114", "title": "The numbering of the dofs does not matter", "statement": "Numbering the dofs of the same mesh differently (Cuthill-McKee after every set-up, other numbers for other numbers of processes) renumbers residual, Jacobian and every solution and changes nothing else: residual norms, the function the line searches minimise, histories at the quadrature points, active sets, the iterations performed and the end of every step are the same, over any number of time steps, provided linear solvers, projection and line searches do not depend on the numbering (a solver that solves the assembled system exactly does not). Exception: rate-independent behaviour with periodic boundary conditions on slips, where visiting a copying dof before its master changes the constraints of the master.", "quantifier": "all renumberings, meshes, elements, constraints (hanging nodes, prescribed values, periodicity), materials, algorithms, parameters, solver states, numbers of time steps", "why_tests_cant": "A test compares two numberings on one mesh; that no numbering, constraint set or state of the solver leads to a different result is a statement about all of them.", "anchors": ["source/fe_field.cc:245 DoFRenumbering::Cuthill_McKee", "source/gradient_crystal_plasticity/assembly.cc: assemble_residual, assemble_jacobian, copy_local_to_global_*", "source/gradient_crystal_plasticity/active_set.cc: determine_active_set", "source/gradient_crystal_plasticity/solve.cc: solve_nonlinear_system"]}
{"id": "C115", "title": "A body does not feel where it is", "statement": "Moving body and supports together by a rigid motion (one that strains no cell, opens no interface and changes no slip; translations of the displacement dofs are such motions, hanging nodes and interfaces included) moves the solution along and changes nothing else: residual, Jacobian, residual norms, line-search function, histories at the quadrature points, damage, slip resistances, active sets, the iterations performed and the end of every step are the same, over any number of time steps, also when the first Newton update starts from the old solution (skipped extrapolation), provided linear solvers do not depend on their first guess.", "quantifier": "all bodies and meshes, rigid motions, constraints, materials, algorithms, parameters, solver states, numbers of time steps", "why_tests_cant": "A test moves one body once. That no term of the residual, the history or the solver reads an absolute position, for no state, algorithm or number of steps, is a statement about all of them.", "anchors": ["source/gradient_crystal_plasticity/assembly.cc: assemble_residual, assemble_jacobian, update of histories and stored openings", "source/gradient_crystal_plasticity/solve.cc:13-82 extrapolate_initial_trial_solution", "source/gradient_crystal_plasticity/solve.cc: solve_nonlinear_system, update_trial_solution, reset_trial_solution", "source/gradient_crystal_plasticity/active_set.cc: reset_inactive_set_values"]}
{"id": "C116", "title": "Work objects carry nothing from one cell to the next", "statement": "The residual a cell contributes depends on the cell alone, whatever the reused work arrays (WorkStream's Scratch and Copy objects) held before: for any number of objects, handed to any cells in any order and any number of times, what the copier finds is what a fresh object would have given. The one value that is not rewritten is the body force without a supply term; the zeros put there when the object is made stay there for good, and are needed.", "quantifier": "all contents of the work arrays, cells, faces, loads, states, schedules, numbers of objects", "why_tests_cant": "Which thread and object assembles which cell, after which other cell, changes from run to run; a test sees one schedule. A leftover would show up only after one particular predecessor.", "anchors": ["source/gradient_crystal_plasticity/assembly.cc: assemble_residual, assemble_local_residual", "source/gradient_crystal_plasticity/assembly_data.cc: Residual::Scratch, Residual::Copy", "include/gCP/assembly_data.h"]}
{"id": "C117", "title": "The Newton matrix carries nothing from one cell to the next", "statement": "The matrix, the coupling matrices across grain boundaries and the dof indices that a cell contributes depend on the cell alone, whatever the reused work arrays, flags and lists held before: for any number of objects, handed to any cells in any order and any number of times, the copier finds the cell's own indices and matrix, one coupling matrix and one list of neighbour indices per face across a grain boundary, in the order of the faces, and none of a previous cell.", "quantifier": "all contents of the work arrays and lists, cells, faces, states, schedules, numbers of objects", "why_tests_cant": "Which thread and object assembles which cell, after which other cell, changes from run to run. A coupling matrix left over from a predecessor would be added to the wrong rows only after one particular predecessor.", "anchors": ["source/gradient_crystal_plasticity/assembly.cc: assemble_jacobian, assemble_local_jacobian, copy_local_to_global_jacobian", "include/gCP/assembly_data.h: Jacobian::Scratch, Jacobian::Copy"]}
{"id": "C118", "title": "The order in which the cells are visited does not matter", "statement": "Visiting the cells of the mesh in another order, in every loop of assembly and of the history updates and differently in every time step, changes nothing: residual, norms, line search objective, all entries of the Newton matrix and of its sparsity pattern, and the histories of all points are the same (or the same errors end the program), and so is every time step and every sequence of time steps, including the numbers logged; in the rate model provided both sides of an interface find the same free energy, and otherwise not.", "quantifier": "all bodies, orders of the cells, states, histories, constraints, loadings, numbers of time steps, algorithms and linear solvers which read the entries of the matrix", "why_tests_cant": "The order comes from the mesh generator, the refinement and the partition; histories of interface points are written from both sides, so that the result could depend on which side comes last. Tests use one mesh with one order.", "anchors": ["source/gradient_crystal_plasticity/assembly.cc: assemble_jacobian, assemble_residual, prepare_quadrature_point_history, reset_and_update_quadrature_point_history, store_effective_opening_displacement_in_quadrature_history", "source/gradient_crystal_plasticity/setup.cc: make_sparsity_pattern", "source/gradient_crystal_plasticity/solve.cc: solve_nonlinear_system"]}
{"id": "C119", "title": "The names of the cells do not matter", "statement": "Giving the cells of the mesh other names (indices), in any one-to-one way, and naming accordingly the neighbours, the interfaces and the stored histories, changes nothing: the residual, its norms, the line search objective, the Newton matrix entry for entry as written, its sparsity pattern and the histories of all points of cells and interfaces are the same, and so is every time step and every sequence of time steps, including the numbers logged, although the histories of an interface are stored under the smaller name first, so that they are entered from the other side.", "quantifier": "all one-to-one namings of the cells, bodies, states, histories, constraints, loadings, numbers of time steps, algorithms and linear solvers called with the assembled systems", "why_tests_cant": "The names come from the mesh generator, the refinement and the partition; which side of an interface comes first in its key depends on them. Tests use one mesh with one naming.", "anchors": ["include/gCP/quadrature_point_history.h: InterfaceDataStorage", "source/gradient_crystal_plasticity/assembly.cc: assemble_jacobian, assemble_residual, prepare_quadrature_point_history, reset_and_update_quadrature_point_history, store_effective_opening_displacement_in_quadrature_history", "source/gradient_crystal_plasticity/solve.cc: solve_nonlinear_system"]}
