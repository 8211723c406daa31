{
 "claims": [
  {
   "property": "C01",
   "status": "partial",
   "theorems": [
    "C01_step_in_safeguard_interval",
    "C01_step_sequence_shape",
    "C01_first_reduction_is_finite",
    "C01_nan_iff_equal_curvature",
    "C01_finite_step_refuted"
   ],
   "note": "NaN-or-in-interval proved for every input incl. inf/NaN; the exact condition for NaN is proved for alpha<=1/4; that a finite search always yields a finite step is refuted (0/0 when two trials predict the same curvature)."
  },
  {
   "property": "C02",
   "status": "proved",
   "theorems": [
    "C02_line_search_terminates"
   ],
   "note": ""
  },
  {
   "property": "C03",
   "status": "proved",
   "theorems": [
    "C03_accepted_step_satisfies_armijo",
    "C03_residual_norm_decreases"
   ],
   "note": ""
  },
  {
   "property": "C04",
   "status": "proved",
   "theorems": [
    "C04_first_reduction_minimises_parabola",
    "C04_later_reduction_is_cubic_minimum"
   ],
   "note": ""
  },
  {
   "property": "C05",
   "status": "partial",
   "theorems": [
    "C05_macro_trial_is_stored_plus_step_partial",
    "C05_micro_trial_accumulates",
    "C05_micro_trial_is_stored_plus_step_refuted",
    "C05_macro_iteration",
    "C05_micro_iteration",
    "C05_monolithic_iteration",
    "C05_trials_obey_constraints",
    "C05_first_trial_obeys_constraints"
   ],
   "note": "Holds for the macro block and the one-block system, over whole search loops and whole iterations; refuted for the micro block: the search loop resets only the macro block, so micro trials accumulate (exact value proved). Constrained dofs of the searched and of the macro block obey their lines after any sequence of steps."
  },
  {
   "property": "C06",
   "status": "proved",
   "theorems": [
    "C06_macaulay_is_positive_part",
    "C06_signum_is_sign"
   ],
   "note": ""
  },
  {
   "property": "C07",
   "status": "proved",
   "theorems": [
    "C07_sigmoid_is_odd",
    "C07_sigmoid_strictly_increasing",
    "C07_sigmoid_bounded_by_one",
    "C07_sigmoid_has_sign_of_argument"
   ],
   "note": "erf is the mathematical error function; the Gaussian integral bound is proved, not assumed."
  },
  {
   "property": "C08",
   "status": "proved",
   "theorems": [
    "C08_derivative_is_exact",
    "C08_derivative_is_positive_with_common_slope"
   ],
   "note": ""
  },
  {
   "property": "C09",
   "status": "proved",
   "theorems": [
    "C09_uncommitted_calls_leave_no_trace",
    "C09_reset_restores_committed",
    "C09_store_commits_current",
    "C09_reset_returns_to_last_commit"
   ],
   "note": ""
  },
  {
   "property": "C10",
   "status": "proved",
   "theorems": [
    "C10_update_is_hardening_law",
    "C10_resistance_never_below_committed_or_initial",
    "C10_committed_resistance_never_falls",
    "C10_perfect_plasticity_never_changes"
   ],
   "note": ""
  },
  {
   "property": "C100",
   "status": "proved",
   "theorems": [
    "C100_small_steps_descend",
    "C100_line_search_succeeds",
    "C100_newton_is_never_stuck"
   ],
   "note": "Composition of C76 (pattern), C93 (derivative), C96 (definiteness), C01/C02 (line search). Hypotheses met by a pulled, perfectly plastic point (C100_example). With hardening the matrix is not the derivative (C36) and past the cohesive peak not definite (C96)."
  },
  {
   "property": "C101",
   "status": "proved",
   "theorems": [
    "C101_machine_pays_for_all_energy"
   ],
   "note": "Rate-dependent behaviour and monotonic loading; the general balance with loads and macroscopic strains is C95."
  },
  {
   "property": "C102",
   "status": "proved",
   "theorems": [
    "C102_elastic_step_is_accepted",
    "C102_number_of_iterations",
    "C102_elastic_test_completes",
    "C102_elastic_test_completes_in_double_precision"
   ],
   "note": "Newton in one step for elastic bodies, all three algorithms, and completion of the shear test; the linear solver is assumed to solve the assembled system exactly."
  },
  {
   "property": "C103",
   "status": "proved",
   "theorems": [
    "C103_rigid_motions_feel_the_loads_only",
    "C103_supports_balance_the_loads",
    "C103_edges_balance_in_the_shear_test",
    "C103_machine_acts_through_the_upper_edge"
   ],
   "note": "rigid translations and small rotations; bodies whose two cell sides use the same interface parameters; the edge theorem covers motions obstructed only at the lower and upper edges"
  },
  {
   "property": "C104",
   "status": "proved",
   "theorems": [
    "C104_reversed_step",
    "C104_assembled_systems",
    "C104_linear_solvers",
    "C104_reversed_test",
    "C104_reversed_stresses"
   ],
   "note": "bodies whose grain boundaries do not open (cohesive and contact laws treat opening and closing differently); linear solvers, microstress projection and line searches are assumed to be odd, which C104_linear_solvers derives for solvers called with the assembled systems"
  },
  {
   "property": "C105",
   "status": "proved",
   "theorems": [
    "C105_assembled_systems",
    "C105_retimed_step",
    "C105_linear_solvers",
    "C105_retimed_test",
    "C105_rate_independent_test"
   ],
   "note": "Exact arithmetic for the time loop (C50/C51 treat rounding of the times). Linear solvers and line searches are arbitrary but the same functions of the state; C105_linear_solvers shows this for solvers that get the assembled systems. Examples: ExampleTimescale (a run at half speed; two creeping grains; the reference rate has to follow)."
  },
  {
   "property": "C106",
   "status": "partial",
   "theorems": [
    "C106_step_under_the_loads_in_force",
    "C106_equilibrium_with_the_loads_in_force",
    "C106_evaluation_is_repeatable",
    "C106_unknown_boundary",
    "C106_body_force_follows_time_refuted",
    "C106_shared_function_refuted"
   ],
   "note": "Loads in force and equilibrium with them proved for every sequence of calls; that the body force follows the time of the step, and repeatability with a function shared between roles, are refuted (the code never calls set_time on the supply term)."
  },
  {
   "property": "C107",
   "status": "partial",
   "theorems": [
    "C107_uninitialised_steps",
    "C107_initialised_histories",
    "C107_first_initialisation",
    "C107_later_initialisations",
    "C107_uninitialised_step_is_rejected_refuted",
    "C107_second_init_starts_anew_refuted"
   ],
   "note": "Proved for every sequence of calls; two expectations are refuted: a step before init is undefined behaviour rather than an exception, a second init keeps the damage of the interfaces."
  },
  {
   "property": "C108",
   "status": "proved",
   "theorems": [
    "C108_superposition_is_a_solution",
    "C108_superposition",
    "C108_accepted_solutions_superpose",
    "C108_no_memory",
    "C108_shear_test_is_proportional"
   ],
   "note": "Superposition in exact arithmetic and, for accepted solutions, up to the tolerances (in the energy of the deviation); no memory; proportional growth in the shear test."
  },
  {
   "property": "C109",
   "status": "partial",
   "theorems": [
    "C109_exactly_one_solution",
    "C109_accepted_solution_is_close",
    "C109_whole_histories",
    "C109_refuted_overloaded"
   ],
   "note": "Existence and uniqueness of the solution of a step, distance of accepted solutions from it, existence and uniqueness of whole histories: proved by minimising the incremental potential (continuity, coercivity, Weierstrass over finitely many degrees of freedom). Refuted for dead loads without hardening: C109_refuted_overloaded."
  },
  {
   "property": "C11",
   "status": "proved",
   "theorems": [
    "C11_no_use_before_init",
    "C11_init_sets_initial_resistance"
   ],
   "note": "Modelled for QuadraturePointHistory; the same guard on other classes is C40."
  },
  {
   "property": "C110",
   "status": "proved",
   "theorems": [
    "C110_step",
    "C110_disturbances_do_not_grow",
    "C110_accepted_solutions",
    "C110_whole_histories",
    "C110_runs",
    "C110_same_stresses",
    "C110_other_loads"
   ],
   "note": "Contraction of the energy of the difference: one step (exact, with arbitrary residuals, and accepted), whole exact histories, whole runs; equal stresses; other loads. The hypotheses of equal strength and, over several steps, of no hardening are part of the statement."
  },
  {
   "property": "C111",
   "status": "proved",
   "theorems": [
    "C111_solvable_iff_loads_carried",
    "C111_exactly_one_solution",
    "C111_other_step",
    "C111_overload",
    "C111_flow_stresses_are_reached",
    "C111_whole_histories"
   ],
   "note": "Existence by minimising the incremental energy from any state that carries the loads; necessity from the solution itself; uniqueness from C99. Over whole histories the loads of every step need only be carried at the initial resistances. Replaces C109's sufficient conditions by an equivalence."
  },
  {
   "property": "C112",
   "status": "proved",
   "theorems": [
    "C112_any_equilibrium_stresses",
    "C112_same_loads",
    "C112_convex",
    "C112_no_loads",
    "C112_margin",
    "C112_limit_load",
    "C112_limit_load_of_histories"
   ],
   "note": "The solvable loads are those under which the incremental energy grows linearly; that set is convex, open and contains zero loads. The solvability of any step of the same solid is transferred to one reference body by adding stresses of incompatible strains."
  },
  {
   "property": "C113",
   "status": "proved",
   "theorems": [
    "C113_solvable_iff_no_collapse",
    "C113_unsolvable_collapses",
    "C113_effortless_motions",
    "C113_free_motions_strain_nothing",
    "C113_no_motion",
    "C113_load_factor",
    "C113_limit_load",
    "C113_stronger_systems"
   ],
   "note": "Kinematic theorem of limit analysis for the step assembly.cc poses: solvable exactly without a collapse; limit attained by a critical motion; examples compute the limit of a point from its motions."
  },
  {
   "property": "C114",
   "status": "proved",
   "theorems": [
    "C114_renumbered_step",
    "C114_renumbered_run",
    "C114_assembled_systems",
    "C114_histories",
    "C114_linear_systems",
    "C114_linear_solvers",
    "C114_copies_order_matters_refuted"
   ],
   "note": "Exception (slip dofs copying others, rate-independent) stated in the property and shown necessary by the refuted theorem."
  },
  {
   "property": "C115",
   "status": "proved",
   "theorems": [
    "C115_moved_step",
    "C115_moved_run",
    "C115_assembled_systems",
    "C115_histories",
    "C115_linear_solvers",
    "C115_resistances",
    "C115_translations"
   ],
   "note": "Linear solvers are assumed not to depend on their first guess (the displacement part of the Newton update carries the old solution when extrapolation is skipped); b_energy, the energies that drive damage in model M1, is assumed to depend on strains and slips only."
  },
  {
   "property": "C116",
   "status": "proved",
   "theorems": [
    "C116_cell",
    "C116_supply_values",
    "C116_work_stream",
    "C116_schedules_agree",
    "C116_body"
   ],
   "note": "Residual assembly run statement by statement on reused arrays; C116_work_stream for any schedule and any number of objects, C116_body ties it to the residual of the body models. Sizes of the arrays are the maxima over the crystals and not modelled; the matrix and the history sweeps have their own objects."
  },
  {
   "property": "C117",
   "status": "proved",
   "theorems": [
    "C117_cell",
    "C117_work_stream",
    "C117_schedules_agree",
    "C117_body"
   ],
   "note": "Jacobian assembly run statement by statement on reused arrays, flags and lists; any schedule and any number of objects; C117_body ties it to the Newton matrix of the body models. Sizes of the arrays are the maxima over the crystals and not modelled."
  },
  {
   "property": "C118",
   "status": "proved",
   "theorems": [
    "C118_histories",
    "C118_assembled_systems",
    "C118_sparsity_patterns",
    "C118_linear_solvers",
    "C118_step",
    "C118_run"
   ],
   "note": "Every loop over the cells, all steps and runs; the linear solver is any function of the entries of the matrix. In the rate model both sides must find the same free energy (C118_sides_must_agree shows why)."
  },
  {
   "property": "C119",
   "status": "proved",
   "theorems": [
    "C119_histories",
    "C119_assembled_systems",
    "C119_linear_solvers",
    "C119_step",
    "C119_run"
   ],
   "note": "Entries of the matrix, histories, steps and runs are equal under any one-to-one naming of the cells; the linear solvers may be any function of the assembled system."
  },
  {
   "property": "C12",
   "status": "proved",
   "theorems": [
    "C12_exponential_damage_law",
    "C12_committed_damage_never_decreases",
    "C12_set_damage_is_uncommitted"
   ],
   "note": ""
  },
  {
   "property": "C13",
   "status": "proved",
   "theorems": [
    "C13_recorded_maximum_is_history_maximum"
   ],
   "note": ""
  },
  {
   "property": "C14",
   "status": "partial",
   "theorems": [
    "C14_rate_damage_at_most_one_partial",
    "C14_rate_damage_irreversible_partial",
    "C14_rate_damage_irreversible_refuted",
    "C14_update_is_rate_law",
    "C14_driving_force",
    "C14_second_init_ignored"
   ],
   "note": "Bounded by one for all histories; irreversible under force >= endurance limit; unconditional irreversibility is refuted (damage heals and even becomes negative)."
  },
  {
   "property": "C15",
   "status": "partial",
   "theorems": [
    "C15_exponential_update_repeatable",
    "C15_rate_update_repeatable_partial",
    "C15_rate_update_repeatable_refuted"
   ],
   "note": "Proved for OrtizEtAl and for M1 with degradation exponent 1; refuted for M1 with another exponent (force uses the not yet rolled back damage)."
  },
  {
   "property": "C16",
   "status": "partial",
   "theorems": [
    "C16_stored_opening_is_law_opening_partial",
    "C16_stored_opening_is_law_opening_refuted"
   ],
   "note": "Equal exactly when the interface is not compressed; refuted under compression."
  },
  {
   "property": "C17",
   "status": "proved",
   "theorems": [
    "C17_lookup_symmetric",
    "C17_no_aliasing",
    "C17_existing_data_is_kept",
    "C17_initialised_faces_have_data",
    "C17_lookup_before_initialise_poisons"
   ],
   "note": ""
  },
  {
   "property": "C18",
   "status": "proved",
   "theorems": [
    "C18_rotation_is_proper",
    "C18_rotation_exists",
    "C18_rotation_angle_2d",
    "C18_stiffness_rotation_is_in_plane",
    "C18_stiffness_rotation_is_proper",
    "C18_rotation_angles_3d",
    "C18_stiffness_rotation_3d"
   ],
   "note": "Exact real trigonometry; both dimensions."
  },
  {
   "property": "C19",
   "status": "proved",
   "theorems": [
    "C19_orthogonal_input_accepted",
    "C19_rotated_frame_orthonormal",
    "C19_rotated_binormal_is_normal_cross_direction",
    "C19_accepted_frame_error",
    "C19_tolerance_refuted",
    "C19_frame_is_the_rotated_input",
    "C19_oblique_input_rejected"
   ],
   "note": "For exactly orthogonal non-zero input. C19_accepted_frame_error gives what the code's absolute tolerance guarantees for all accepted input; C19_tolerance_refuted: parallel vectors of length 2^-26 pass the orthogonality check (finding)."
  },
  {
   "property": "C20",
   "status": "proved",
   "theorems": [
    "C20_schmid_symmetric",
    "C20_schmid_of_every_crystal",
    "C20_schmid_is_direction_times_normal"
   ],
   "note": ""
  },
  {
   "property": "C21",
   "status": "proved",
   "theorems": [
    "C21_additive_split",
    "C21_plastic_strain_value",
    "C21_elastic_strain_linear",
    "C21_slip_is_isochoric",
    "C21_elastic_strain_symmetric"
   ],
   "note": ""
  },
  {
   "property": "C22",
   "status": "proved",
   "theorems": [
    "C22_stiffness_is_rotated_cubic",
    "C22_reference_is_cubic",
    "C22_stiffness_symmetries",
    "C22_stress_symmetric_and_linear",
    "C22_stress_covariant",
    "C22_get_stress",
    "C22_out_of_plane_extension",
    "C22_get_stress_single_crystal",
    "C22_stored_3d_stiffness"
   ],
   "note": "Includes the storage order of SymmetricTensor<4> writes and the 2D/3D consistency."
  },
  {
   "property": "C23",
   "status": "proved",
   "theorems": [
    "C23_elastic_energy_positive",
    "C23_conditions_necessary",
    "C23_parser_accepts_unstable_refuted"
   ],
   "note": "Sufficient (2D,3D) and, in 3D, necessary. Finding: the parameter parser accepts C1111 <= C1122, for which the energy is indefinite (C23_parser_accepts_unstable_refuted)."
  },
  {
   "property": "C24",
   "status": "proved",
   "theorems": [
    "C24_resolved_is_projected_traction",
    "C24_power_identity"
   ],
   "note": ""
  },
  {
   "property": "C25",
   "status": "proved",
   "theorems": [
    "C25_bounded",
    "C25_rate_independent_on_yield_surface",
    "C25_dissipative",
    "C25_odd",
    "C25_increasing"
   ],
   "note": "Rate-dependent: strict bound, dissipation, oddness, strict monotonicity; rate-independent: on the yield surface."
  },
  {
   "property": "C26",
   "status": "partial",
   "theorems": [
    "C26_jacobian_exact_perfect",
    "C26_jacobian_exact_rate_independent",
    "C26_jacobian_error_partial",
    "C26_jacobian_exact_hardening_refuted",
    "C26_jacobian_symmetric",
    "C26_jacobian_psd"
   ],
   "note": "Exact for perfect plasticity (rate dependent) and for rate-independent flow; for rate-dependent hardening the code's Jacobian is provably not the derivative (exact error term given): refuted there. Symmetric always; psd for latent ratios in [0,1]."
  },
  {
   "property": "C27",
   "status": "proved",
   "theorems": [
    "C27_finite",
    "C27_gradient_of_defect_energy",
    "C27_in_slip_plane",
    "C27_monotone",
    "C27_jacobian_exact",
    "C27_jacobian_symmetric_psd",
    "C27_index_below_two_planar_refuted",
    "C27_energetic_length"
   ],
   "note": "p>=2; for 1<=p<2 in the plane the law always returns NaN (separate theorem)."
  },
  {
   "property": "C28",
   "status": "proved",
   "theorems": [
    "C28_no_assertion_fails",
    "C28_bounded",
    "C28_exchange",
    "C28_normal_sign",
    "C28_same_grain_throws",
    "C28_intra_symmetric",
    "C28_intra_psd"
   ],
   "note": ""
  },
  {
   "property": "C29",
   "status": "proved",
   "theorems": [
    "C29_traction_is_minus_energy_derivative",
    "C29_energy_nonneg",
    "C29_energy_independent_of_side",
    "C29_gateaux_exact"
   ],
   "note": ""
  },
  {
   "property": "C30",
   "status": "partial",
   "theorems": [
    "C30_effective_opening",
    "C30_loading_follows_envelope",
    "C30_envelope_shape",
    "C30_unloading_is_secant",
    "C30_zero_opening_zero_traction",
    "C30_traction_bounded",
    "C30_compressed_interface_nan_refuted"
   ],
   "note": "Envelope, peak, linear unloading, continuity and the bound are proved; refuted corner: a purely compressed interface yields 0/0 = NaN."
  },
  {
   "property": "C31",
   "status": "proved",
   "theorems": [
    "C31_potential",
    "C31_range_and_growth"
   ],
   "note": ""
  },
  {
   "property": "C32",
   "status": "partial",
   "theorems": [
    "C32_jacobian_loading_partial",
    "C32_jacobian_unloading_partial",
    "C32_jacobian_exact_undimensioned",
    "C32_jacobian_dimensionless_refuted",
    "C32_jacobian_symmetric"
   ],
   "note": "Exact derivative = characteristic displacement times the coded Jacobian; so exact without length scaling, refuted with it."
  },
  {
   "property": "C33",
   "status": "partial",
   "theorems": [
    "C33_contact",
    "C33_contact_jacobian_partial",
    "C33_contact_jacobian_exact_undimensioned",
    "C33_contact_jacobian_dimensionless_refuted"
   ],
   "note": "Traction part proved; Jacobian exact without length scaling, refuted with it."
  },
  {
   "property": "C34",
   "status": "proved",
   "theorems": [
    "C34_action_reaction",
    "C34_power_of_both_sides"
   ],
   "note": ""
  },
  {
   "property": "C35",
   "status": "partial",
   "theorems": [
    "C35_range_and_ends",
    "C35_decreasing",
    "C35_derivative_coupled_partial",
    "C35_derivative_uncoupled_refuted",
    "C35_value"
   ],
   "note": "All proved for the coupled function (derivative for damage below one); the uncoupled derivative is refuted (returns 1)."
  },
  {
   "property": "C36",
   "status": "partial",
   "theorems": [
    "C36_newton_exact_perfect_plasticity",
    "C36_newton_exact_rate_independent",
    "C36_newton_hardening_partial",
    "C36_newton_hardening_refuted"
   ],
   "note": "Exact under perfect plasticity (rate dependent) and for rate-independent flow; with rate-dependent hardening the matrix misses an explicitly given term, refuted by a one-element counterexample."
  },
  {
   "property": "C37",
   "status": "proved",
   "theorems": [
    "C37_bulk_symmetric",
    "C37_coupling_transposed",
    "C37_local_symmetric"
   ],
   "note": "Bulk matrix symmetric (the row scaling N3/N0 is inside the assembled entries), grain boundary blocks symmetric / mutually transposed."
  },
  {
   "property": "C38",
   "status": "proved",
   "theorems": [
    "C38_unloaded_body_in_equilibrium",
    "C38_virgin_cell_in_equilibrium"
   ],
   "note": "Bulk residual zero for any stress-free resting state; whole cell (grain boundaries, Neumann faces) zero in the virgin state."
  },
  {
   "property": "C39",
   "status": "proved",
   "theorems": [
    "C39_component_layout_is_a_bijection",
    "C39_elements_match_the_extractors",
    "C39_global_components_are_crystal_independent",
    "C39_blocks_separate_displacement_and_slips",
    "C39_owned_dofs_are_split_by_component"
   ],
   "note": "nat instead of unsigned int (no wrap-around); set-up called once."
  },
  {
   "property": "C40",
   "status": "partial",
   "theorems": [
    "C40_calls_out_of_order_throw",
    "C40_initialized_iff_set_up_in_order",
    "C40_no_vectors_before_dofs_partial",
    "C40_copies_start_without_vectors",
    "C40_vectors_before_constraints_refuted",
    "C40_repeated_set_up_corrupts_layout_refuted"
   ],
   "note": "Guards characterised for every call sequence; is_initialized (checked by the solver) holds iff dofs, both constraint sets and vectors were set up in order. Refuted parts: setup_vectors does not require constraints; a repeated setup_extractors silently corrupts the layout."
  },
  {
   "property": "C41",
   "status": "proved",
   "theorems": [
    "C41_history_is_a_two_step_window"
   ],
   "note": ""
  },
  {
   "property": "C42",
   "status": "proved",
   "theorems": [
    "C42_sub_norms_are_the_norms_of_the_parts",
    "C42_sub_norms_split_the_norm",
    "C42_debug_check_accepts_unit_factor"
   ],
   "note": "deal.II component_wise renumbering is a hypothesis (only for two blocks)."
  },
  {
   "property": "C43",
   "status": "proved",
   "theorems": [
    "C43_active_iff_yielding",
    "C43_sets_partition_the_slip_dofs",
    "C43_sets_without_periodicity",
    "C43_rate_dependent_all_active",
    "C43_trial_microstress_is_lumped_quotient"
   ],
   "note": "One rank; trial microstress as proved in C43_trial_microstress_is_lumped_quotient; general constraints covered."
  },
  {
   "property": "C44",
   "status": "partial",
   "theorems": [
    "C44_constraints_without_periodicity_partial",
    "C44_constraint_is_decided_at_the_visit",
    "C44_inactive_values_are_reset",
    "C44_active_master_is_constrained_refuted",
    "C44_slave_loses_periodicity_refuted"
   ],
   "note": "Holds without periodic (identity) constraints; exact condition proved in general. Refuted with periodic constraints: an active master can be constrained, and an inactive slave loses its periodicity line."
  },
  {
   "property": "C45",
   "status": "proved",
   "theorems": [
    "C45_active_dofs_follow_the_hardening_law",
    "C45_dof_and_quadrature_hardening_agree",
    "C45_updates_do_not_accumulate",
    "C45_perfect_plasticity_keeps",
    "C45_owner_is_found",
    "C45_inactive_dof_misses_latent_hardening_refuted"
   ],
   "note": "For complete keys (all slip systems of a support point owned by the rank). Also shown: inactive dofs miss the latent hardening the quadrature points see."
  },
  {
   "property": "C46",
   "status": "partial",
   "theorems": [
    "C46_return_means_converged",
    "C46_iterations_respect_the_limit",
    "C46_terminates_if_the_active_set_is_stable",
    "C46_divergence_is_reported",
    "C46_restarts_are_unbounded_refuted"
   ],
   "note": "Returned solves have converged with a stable active set; iterations between restarts respect the limit; terminates if the active set is stable; divergence is reported. The unconditional termination claim is refuted: every active-set restart resets the iteration counter."
  },
  {
   "property": "C47",
   "status": "proved",
   "theorems": [
    "C47_return_means_converged",
    "C47_iterations_respect_the_limits",
    "C47_always_ends",
    "C47_one_loop_never_suffices",
    "C47_selected_algorithm"
   ],
   "note": "Control flow modelled exactly, numerical subroutines arbitrary. Also: a limit of one loop can never succeed."
  },
  {
   "property": "C48",
   "status": "proved",
   "theorems": [
    "C48_return_means_converged",
    "C48_both_residuals_converged",
    "C48_iterations_respect_the_limits",
    "C48_always_ends",
    "C48_active_set_is_frozen_after_the_first_iteration"
   ],
   "note": "Control flow modelled exactly, numerical subroutines arbitrary."
  },
  {
   "property": "C49",
   "status": "proved",
   "theorems": [
    "C49_extrapolation_formula",
    "C49_exact_for_linear_fields",
    "C49_nothing_beyond_the_data",
    "C49_initial_update",
    "C49_skipped_update_is_zero_refuted"
   ],
   "note": "Start value formula and exactness for linear fields. Finding beside the claim: the Newton update left behind when extrapolation is skipped is the old solution instead of zero (C49_skipped_update_is_zero_refuted)."
  },
  {
   "property": "C50",
   "status": "proved",
   "theorems": [
    "C50_plan_fills_the_configured_time",
    "C50_run_follows_the_plan",
    "C50_comparable_steps_suffice",
    "C50_double_precision_monotonic",
    "C50_short_phases_are_dropped_refuted"
   ],
   "note": "Plan adds up exactly; the time loop follows it (exact arithmetic, and IEEE doubles via Flocq for monotonic loading). Finding: phases shorter than 5% of the preceding step are dropped (C50_short_phases_are_dropped_refuted)."
  },
  {
   "property": "C51",
   "status": "proved",
   "theorems": [
    "C51_skip_exactly_at_load_reversals",
    "C51_reversals_are_load_extrema"
   ],
   "note": "Including unsigned 32-bit wrap-around and the IEEE double comparison of the cycle fraction."
  },
  {
   "property": "C52",
   "status": "partial",
   "theorems": [
    "C52_monotonic_load",
    "C52_final_strain",
    "C52_cyclic_parameters_have_no_effect",
    "C52_cyclic_load_refuted",
    "C52_dead_cyclic_branch_jumps"
   ],
   "note": "Monotonic loading proved; cyclic loading refuted: the constructor hard-codes Monotonic."
  },
  {
   "property": "C53",
   "status": "partial",
   "theorems": [
    "C53_load_control_is_always_zero",
    "C53_configured_load_refuted"
   ],
   "note": "Refuted: the traction is always zero, whatever is configured."
  },
  {
   "property": "C54",
   "status": "proved",
   "theorems": [
    "C54_material_id_is_the_band",
    "C54_band_is_unique"
   ],
   "note": ""
  },
  {
   "property": "C55",
   "status": "partial",
   "theorems": [
    "C55_final_state_is_written",
    "C55_interrupted_runs",
    "C55_monotonic_double_run_writes_the_end",
    "C55_frequency_zero_refuted"
   ],
   "note": "Proved in exact and IEEE double arithmetic for non-zero frequencies, including runs interrupted by an exception; frequency 0, which the parameter file admits, divides by zero (refuted)."
  },
  {
   "property": "C56",
   "status": "proved",
   "theorems": [
    "C56_command_line",
    "C56_otherwise_an_exception"
   ],
   "note": ""
  },
  {
   "property": "C57",
   "status": "proved",
   "theorems": [
    "C57_true_iff_same_bytes"
   ],
   "note": "File contents as strings, unchanged during the call."
  },
  {
   "property": "C58",
   "status": "partial",
   "theorems": [
    "C58_accepted_iff_names_are_fresh",
    "C58_otherwise_an_exception",
    "C58_rows_show_the_declared_columns",
    "C58_negative_integers_refuted"
   ],
   "note": "Proved for every accepted call sequence; values of Integer columns outside (-1, 2^32) are undefined behaviour (refuted part). Spacing and digits of the printed text are not modelled."
  },
  {
   "property": "C59",
   "status": "proved",
   "theorems": [
    "C59_von_mises"
   ],
   "note": "for every symmetric 3x3 stress, including the closed formula"
  },
  {
   "property": "C60",
   "status": "proved",
   "theorems": [
    "C60_macroscopic_stress",
    "C60_fluctuations"
   ],
   "note": "volume-weighted mean for every partition/order of cells; bounds; uniform fields; fluctuations"
  },
  {
   "property": "C61",
   "status": "partial",
   "theorems": [
    "C61_refuted",
    "C61_macroscopic_damage_partial"
   ],
   "note": "refuted for the code as written: the accumulator is uninitialised, so every call is undefined behaviour (C61_refuted). Proved for the same code with the accumulator initialised to 0: area-weighted mean in [0,1]; NaN without interface faces"
  },
  {
   "property": "C62",
   "status": "proved",
   "theorems": [
    "C62_output",
    "C62_components",
    "C62_slip_based",
    "C62_dimensionless_output",
    "C62_slip_names"
   ],
   "note": "slots = names = interpretations, slot k holds the quantity named k, names distinct, components agree with the field's extractors; slip-based output as well; slip a is called Slip_ with the decimal digits of a+1, at least two"
  },
  {
   "property": "C63",
   "status": "partial",
   "theorems": [
    "C63_fluctuations_partial",
    "C63_refuted"
   ],
   "note": "refuted: fluctuation stresses carry the square of the characteristic stress. Holds when that is 1 (dimensional runs or dimensionless output)"
  },
  {
   "property": "C64",
   "status": "proved",
   "theorems": [
    "C64_same_residual",
    "C64_same_solutions",
    "C64_history"
   ],
   "note": "residual of the dimensionless problem = positive constant per equation times the dimensional one (IEEE exceptional values included), same roots, and the stored slip resistances scale through every call history. Bulk only, as stated"
  },
  {
   "property": "C65",
   "status": "partial",
   "theorems": [
    "C65_slip_rows_exact",
    "C65_displacement_rows_partial",
    "C65_exact_undimensioned",
    "C65_dimensionless_refuted"
   ],
   "note": "Exact for slip rows and, without dimensionless form, for displacement rows away from kinks; the displacement block misses the characteristic displacement factor (refuted)."
  },
  {
   "property": "C66",
   "status": "proved",
   "theorems": [
    "C66_projection",
    "C66_untouched"
   ],
   "note": "all meshes without hanging nodes"
  },
  {
   "property": "C67",
   "status": "partial",
   "theorems": [
    "C67_reads_exactly_the_file",
    "C67_initialisation",
    "C67_malformed_files_throw_partial",
    "C67_too_many_fields_refuted",
    "C67_second_initialisation_throws"
   ],
   "note": "Acceptance characterised exactly; lines with more than dim fields are undefined behaviour in release builds instead of an exception (refuted part). std::stod is a parameter."
  },
  {
   "property": "C68",
   "status": "proved",
   "theorems": [
    "C68_crystal_count"
   ],
   "note": "MPI set union trusted as union over ranks."
  },
  {
   "property": "C69",
   "status": "proved",
   "theorems": [
    "C69_newton_matrix_psd",
    "C69_latent_ratio_above_one_refuted"
   ],
   "note": "Proved for latent hardening ratios in [0,1]; the documented default ratio 1.4 lies outside, and for every ratio above one an indefinite cell matrix is exhibited (C69_latent_ratio_above_one_refuted)."
  },
  {
   "property": "C70",
   "status": "proved",
   "theorems": [
    "C70_virtual_power",
    "C70_virtual_power_cell",
    "C70_virtual_power_of_finite_entries",
    "C70_stress_includes_macroscopic_strain",
    "C70_objective"
   ],
   "note": ""
  },
  {
   "property": "C71",
   "status": "partial",
   "theorems": [
    "C71_plane_von_mises_partial",
    "C71_plane_von_mises_refuted"
   ],
   "note": "holds in 3D and for trace-free plane stresses; refuted for other plane stresses: the table uses the two-dimensional projector"
  },
  {
   "property": "C72",
   "status": "proved",
   "theorems": [
    "C72_running_maximum",
    "C72_maximum_bounds"
   ],
   "note": ""
  },
  {
   "property": "C73",
   "status": "proved",
   "theorems": [
    "C73_constraint_lines",
    "C73_hanging_nodes_kept"
   ],
   "note": ""
  },
  {
   "property": "C74",
   "status": "proved",
   "theorems": [
    "C74_calling_rules_respected"
   ],
   "note": "Distributing the affine constraints is assumed not to outdate the internal variables (calling_rules, r_current_affine)."
  },
  {
   "property": "C75",
   "status": "proved",
   "theorems": [
    "C75_right_hand_side_is_the_frozen_residual",
    "C75_uniform_shear_is_reproduced",
    "C75_trial_is_a_mean_of_the_shear",
    "C75_activation_follows_the_shear",
    "C75_uniform_slip_gradient_is_cancelled"
   ],
   "note": "Faces at grain boundaries carry no term in the code; hanging nodes excluded; slip-gradient-free committed state for the mean-value statements."
  },
  {
   "property": "C76",
   "status": "proved",
   "theorems": [
    "C76_assembly_stays_in_the_pattern",
    "C76_active_sets_stay_within_the_newton_constraints",
    "C76_jacobian_assembles_for_every_active_set",
    "C76_pattern_needs_matching_elements",
    "C76_relaxed_constraints_refuted",
    "C76_closing_keeps_the_solutions"
   ],
   "note": "One rank; deal.II's AffineConstraints modelled as documented."
  },
  {
   "property": "C77",
   "status": "proved",
   "theorems": [
    "C77_linear_system_is_the_constrained_newton_system",
    "C77_update_is_admissible_and_complete"
   ],
   "note": "Exact linear solver; deal.II's distribute_local_to_global modelled as documented (homogeneous constraints)."
  },
  {
   "property": "C78",
   "status": "proved",
   "theorems": [
    "C78_reduced_update_completes_to_a_newton_step",
    "C78_error_of_the_reduced_update",
    "C78_inexact_inverse",
    "C78_unconverged_slips_refuted"
   ],
   "note": "The omitted term is a limit of the code, not of the proof."
  },
  {
   "property": "C79",
   "status": "proved",
   "theorems": [
    "C79_linear_residual_is_bounded",
    "C79_failing_solver_aborts",
    "C79_inexact_step_descends",
    "C79_accepted_steps_descend",
    "C79_stagnation_below_the_absolute_tolerance",
    "C79_stale_update_refuted"
   ],
   "note": "Trilinos' solvers are parameters with the stated contract."
  },
  {
   "property": "C80",
   "status": "partial",
   "theorems": [
    "C80_both_sides_pass_the_same_values",
    "C80_sequential_visits_are_one_update",
    "C80_every_schedule_partial",
    "C80_race_loses_damage_refuted",
    "C80_rate_model_counts_both_visits_refuted"
   ],
   "note": "Same values from both sides; sequential visits equal one visit; every interleaving gives the right maximum and leaves committed values untouched, but the damage may be that of the last committed maximum: a race that loses the damage of the step is exhibited, and with the rate model even sequential visits count twice."
  },
  {
   "property": "C81",
   "status": "partial",
   "theorems": [
    "C81_microhard_exactly_the_slip_dofs",
    "C81_default_degrees_3d_refuted",
    "C81_other_dofs_untouched"
   ],
   "note": "Characterised exactly: true iff the degrees are (1,1), (2,2) or, in 2D, (2,1). With the default degrees (2,1) in 3D displacement dofs at grain boundaries are fixed to zero (refuted theorem): the component of a face dof is looked up with the numbering of cell dofs."
  },
  {
   "property": "C82",
   "status": "proved",
   "theorems": [
    "C82_newton_constraints_are_the_homogeneous_version",
    "C82_newton_updates_keep_the_conditions",
    "C82_prescribed_values",
    "C82_applied_shear"
   ],
   "note": "deal.II's interpolate_boundary_values / make_periodicity_constraints conventions are stated in ModelShear.v."
  },
  {
   "property": "C83",
   "status": "partial",
   "theorems": [
    "C83_stress_column_2d",
    "C83_stress_column_3d_refuted",
    "C83_shear_column_monotonic",
    "C83_shear_column_cyclic_refuted"
   ],
   "note": "Shear column right for monotonic loading, wrong for cyclic loading (refuted); stress column is the mean in 2D, but width times the mean in 3D (refuted)."
  },
  {
   "property": "C84",
   "status": "proved",
   "theorems": [
    "C84_parameters_are_the_file_values",
    "C84_unselected_algorithm_keeps_defaults",
    "C84_input_files",
    "C84_unknown_or_out_of_range_rejected",
    "C84_only_values_in_force_matter"
   ],
   "note": "Every entry of the manual (SpecParams.v), the unselected algorithm, the 3D input file names, rejection, order independence. ParameterHandler modelled from its documentation; lexing of texts not modelled."
  },
  {
   "property": "C85",
   "status": "partial",
   "theorems": [
    "C85_accepted_iff",
    "C85_defaults_accepted",
    "C85_accepted_parameters_are_admissible",
    "C85_release_gaps_refuted",
    "C85_large_alpha_excludes_full_steps"
   ],
   "note": "Acceptance characterised exactly and accepted parameters lie in the checked ranges; the claim that accepted parameters are safe for the program is refuted for release builds (zero critical opening, zero durations, exchanged extrema, alpha >= 1/2, unstable elasticity, zero reference length, output frequency 0 are accepted)."
  },
  {
   "property": "C86",
   "status": "proved",
   "theorems": [
    "C86_copy_reproduces_the_run",
    "C86_template_has_the_defaults"
   ],
   "note": "Round trip of the copy and of the template."
  },
  {
   "property": "C87",
   "status": "proved",
   "theorems": [
    "C87_only_accepted_solutions_leave_a_trace",
    "C87_hardening_of_accepted_slips"
   ],
   "note": "run/solve_nonlinear_system over the data members; monolithic algorithm only for rate-dependent behaviour (the rate-independent case is refuted by C88_monolithic_restart_refuted). Hypothesis forgets_iterates is proved for the slip resistances; the M1 damage law violates it (C15)."
  },
  {
   "property": "C88",
   "status": "partial",
   "theorems": [
    "C88_accepted_solution_is_converged",
    "C88_monolithic_rate_independent_partial",
    "C88_monolithic_restart_refuted"
   ],
   "note": "Proved for every algorithm except the rate-independent monolithic one; for that one the residual tested is that of the last iterate, which the accepted solution agrees with up to constrained and inactive dofs, and the full statement is refuted."
  },
  {
   "property": "C89",
   "status": "proved",
   "theorems": [
    "C89_inactive_dofs_do_not_slip",
    "C89_sets_change_only_on_request",
    "C89_reset_lets_inactive_dofs_slip_refuted"
   ],
   "note": "Without the reset option; with it (default) refuted for both staggered algorithms."
  },
  {
   "property": "C90",
   "status": "partial",
   "theorems": [
    "C90_histories_do_not_depend_on_the_partition",
    "C90_every_sweep_counts_once",
    "C90_completes_on_every_partition_or_none",
    "C90_rate_model_partial",
    "C90_rate_model_depends_on_the_partition_refuted"
   ],
   "note": "Full for the exponential model; the rate model M1 only where a process owns exactly one side or both runs own the same number of sides (refuted otherwise). Workers of one process run one after the other (interleavings: C80)."
  },
  {
   "property": "C91",
   "status": "partial",
   "theorems": [
    "C91_residual_does_not_depend_on_the_partition",
    "C91_jacobian_does_not_depend_on_the_partition",
    "C91_active_sets_do_not_depend_on_the_partition",
    "C91_system_with_active_sets_partial",
    "C91_inactive_dofs_of_other_ranks_refuted",
    "C91_periodic_active_sets_refuted"
   ],
   "note": "Refuted at partition boundaries crossing inactive dofs and with periodicity; proved otherwise."
  },
  {
   "property": "C92",
   "status": "proved",
   "theorems": [
    "C92_accepted_solution_in_equilibrium",
    "C92_every_step_in_equilibrium",
    "C92_initialised_after_setup"
   ],
   "note": "Composition of C87, C88, C70, C77 and C90 on one mesh. Damage by the exponential law or no decohesion (the M1 law keeps iterates, C15); the rate-independent monolithic algorithm is excluded (C88_monolithic_restart_refuted); one process; a residual entry that is not a number makes the norms NaN, so the step is not accepted."
  },
  {
   "property": "C93",
   "status": "proved",
   "theorems": [
    "C93_matrix_is_the_derivative",
    "C93_newton_step_cancels_the_residual",
    "C93_line_search_knows_the_slope",
    "C93_short_steps_are_accepted"
   ],
   "note": "Hypotheses state where the residual is differentiable; outside them (hardening under a rate-dependent law, C36; damage-coupled tractions while the opening grows, char. displacement other than 1, C65) the matrix is not the derivative. Exact linear solver, exact arithmetic. Example: two bars and a half-opened interface (C93_example)."
  },
  {
   "property": "C94",
   "status": "proved",
   "theorems": [
    "C94_resistances_accumulate_accepted_slips",
    "C94_damage_follows_the_largest_opening",
    "C94_nothing_heals"
   ],
   "note": "Exponential damage law (the rate law depends on iterates and partition: C80, C90) and staggered or rate-dependent monolithic algorithm (the rate-independent monolithic algorithm updates its sets after the last update: C87). Example: two grains pulled apart (C94_example)."
  },
  {
   "property": "C95",
   "status": "proved",
   "theorems": [
    "C95_dissipation_inequality",
    "C95_slip_dissipates",
    "C95_stored_energy_nonneg",
    "C95_setup_is_sound",
    "C95_step_keeps_soundness",
    "C95_isolated_body_loses_energy",
    "C95_energy_is_never_created"
   ],
   "note": "discrete Clausius-Duhem inequality per accepted step and summed over runs from set-up; backward-Euler sampled forces, convex energies, monotone damage. Material data that make it fail (indefinite stiffness, negative constants) are excluded by stable_material/stable_interfaces."
  },
  {
   "property": "C96",
   "status": "proved",
   "theorems": [
    "C96_matrix_symmetric",
    "C96_matrix_positive_semidefinite",
    "C96_matrix_positive_definite",
    "C96_newton_step_exists_and_is_unique",
    "C96_trial_histories",
    "C96_softening_matrix_can_be_indefinite"
   ],
   "note": "Matrix of ModelTangent.body_jacobian; hypotheses met by creep_body (C96_example), including histories from C96_trial_histories; C96_softening_matrix_can_be_indefinite is the last sentence."
  },
  {
   "property": "C97",
   "status": "proved",
   "theorems": [
    "C97_accepted_solution_obeys_the_constraints",
    "C97_run_is_a_sequence_of_steps",
    "C97_accepted_solutions_are_sheared",
    "C97_completed_run",
    "C97_completed_run_follows_the_plan",
    "C97_interrupted_run",
    "C97_every_accepted_solution_in_equilibrium",
    "C97_rate_dependent_run_in_equilibrium",
    "C97_program_is_a_run_from_setup",
    "C97_damage_of_the_program"
   ],
   "note": "time loop, constraints and solver composed; hanging-node and periodicity lines are assumed closed and within the blocks (deal.II close()); linear solvers and line searches arbitrary"
  },
  {
   "property": "C98",
   "status": "partial",
   "theorems": [
    "C98_completed_run_files_homog",
    "C98_boundary_file",
    "C98_files_of_the_shear_problem",
    "C98_interrupted_run_keeps_the_table_refuted",
    "C98_frequency_zero_refuted"
   ],
   "note": "rows, columns and cadence proved for completed runs, boundary file for all runs; refuted: homogenization.txt is written after the loop only, so an interrupted run leaves it empty; the admitted frequency 0 divides by zero"
  },
  {
   "property": "C99",
   "status": "proved",
   "theorems": [
    "C99_residual_is_monotone",
    "C99_at_most_one_solution",
    "C99_accepted_solutions_are_close",
    "C99_latent_hardening_refuted"
   ],
   "note": "Hypotheses met by point_body (C99_example: a slipping point with its only solution) and by the bar solved from two initial guesses (C99_example_accepted); C99_latent_hardening_refuted is the last sentence (two equivalent slip systems, ratio 1.4)."
  }
 ]
}