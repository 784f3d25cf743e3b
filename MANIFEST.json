{
 "claims": [
  {
   "property": "C01",
   "status": "proved",
   "theorems": [
    "C01_rejected_counted_refuted",
    "C01_guard_rejects",
    "C01_guard_transparent",
    "C01_guard_array",
    "C01_keyword_tau_refuted"
   ],
   "note": "The statement is proved with the conditions it carries. Theorems ending in _refuted prove by counterexample that the broader documented claim is false, i.e. that a condition is needed: C01_rejected_counted_refuted, C01_keyword_tau_refuted."
  },
  {
   "property": "C02",
   "status": "proved",
   "theorems": [
    "C02_default_proxdual",
    "C02_default_prox",
    "C02_moreau_identity"
   ],
   "note": ""
  },
  {
   "property": "C03",
   "status": "proved",
   "theorems": [
    "C03_no_override_diverges",
    "C03_one_override_total"
   ],
   "note": ""
  },
  {
   "property": "C04",
   "status": "proved",
   "theorems": [
    "C04_adjoint_prox",
    "C04_adjoint_involutive",
    "C04_adjoint_value_refuted"
   ],
   "note": "The statement is proved with the conditions it carries. Theorems ending in _refuted prove by counterexample that the broader documented claim is false, i.e. that a condition is needed: C04_adjoint_value_refuted."
  },
  {
   "property": "C05",
   "status": "proved",
   "theorems": [
    "C05_affine_prox",
    "C05_affine_grad",
    "C05_subtraction",
    "C05_type_errors",
    "C05_indicator_value_refuted"
   ],
   "note": "The statement is proved with the conditions it carries. Theorems ending in _refuted prove by counterexample that the broader documented claim is false, i.e. that a condition is needed: C05_indicator_value_refuted."
  },
  {
   "property": "C06",
   "status": "proved",
   "theorems": [
    "C06_scaling_prox",
    "C06_scaling_grad",
    "C06_nonpositive_scale",
    "C06_int_scale_refuted"
   ],
   "note": "The statement is proved with the conditions it carries. Theorems ending in _refuted prove by counterexample that the broader documented claim is false, i.e. that a condition is needed: C06_int_scale_refuted."
  },
  {
   "property": "C07",
   "status": "proved",
   "theorems": [
    "C07_precomp_prox",
    "C07_precomp_grad",
    "C07_type_errors"
   ],
   "note": ""
  },
  {
   "property": "C08",
   "status": "proved",
   "theorems": [
    "C08_chain_value_refuted",
    "C08_chain_order",
    "C08_same_class_refuted",
    "C08_chain_assoc",
    "C08_chain_grad_refuted",
    "C08_chain_not_sum_refuted"
   ],
   "note": "The statement is proved with the conditions it carries. Theorems ending in _refuted prove by counterexample that the broader documented claim is false, i.e. that a condition is needed: C08_chain_value_refuted, C08_same_class_refuted, C08_chain_grad_refuted, C08_chain_not_sum_refuted."
  },
  {
   "property": "C09",
   "status": "proved",
   "theorems": [
    "C09_envelope_gradient"
   ],
   "note": ""
  },
  {
   "property": "C10",
   "status": "proved",
   "theorems": [
    "C10_moreau_verdict",
    "C10_moreau_accepts_derived",
    "C10_moreau_detects"
   ],
   "note": ""
  },
  {
   "property": "C11",
   "status": "proved",
   "theorems": [
    "C11_prox_exact",
    "C11_call",
    "C11_call_literal",
    "C11_call_array_refuted",
    "C11_dual_exact",
    "C11_moreau",
    "C11_callable_dual_refuted",
    "C11_complex"
   ],
   "note": "The statement is proved with the conditions it carries. Theorems ending in _refuted prove by counterexample that the broader documented claim is false, i.e. that a condition is needed: C11_call_array_refuted, C11_callable_dual_refuted."
  },
  {
   "property": "C12",
   "status": "proved",
   "theorems": [
    "C12_euclidean_prox",
    "C12_euclidean_dual",
    "C12_euclidean_grad",
    "C12_sigma_zero_refuted",
    "C12_ball_projection",
    "C12_radius_zero_refuted"
   ],
   "note": "The statement is proved with the conditions it carries. Theorems ending in _refuted prove by counterexample that the broader documented claim is false, i.e. that a condition is needed: C12_sigma_zero_refuted, C12_radius_zero_refuted."
  },
  {
   "property": "C13",
   "status": "proved",
   "theorems": [
    "C13_l2_call",
    "C13_l2_prox",
    "C13_l2_inexact",
    "C13_l2_grad",
    "C13_l2_start"
   ],
   "note": ""
  },
  {
   "property": "C14",
   "status": "proved",
   "theorems": [
    "C14_cache_coherent",
    "C14_sigma_change_refuted",
    "C14_sigma_zero_refuted"
   ],
   "note": "The statement is proved with the conditions it carries. Theorems ending in _refuted prove by counterexample that the broader documented claim is false, i.e. that a condition is needed: C14_sigma_change_refuted, C14_sigma_zero_refuted."
  },
  {
   "property": "C15",
   "status": "proved",
   "theorems": [
    "C15_box",
    "C15_idempotent",
    "C15_crossed_refuted"
   ],
   "note": "The statement is proved with the conditions it carries. Theorems ending in _refuted prove by counterexample that the broader documented claim is false, i.e. that a condition is needed: C15_crossed_refuted."
  },
  {
   "property": "C16",
   "status": "proved",
   "theorems": [
    "C16_halfspace_projection",
    "C16_degenerate"
   ],
   "note": ""
  },
  {
   "property": "C17",
   "status": "proved",
   "theorems": [
    "C17_affine_projection",
    "C17_affine_inexact"
   ],
   "note": ""
  },
  {
   "property": "C18",
   "status": "proved",
   "theorems": [
    "C18_start",
    "C18_quadratic_prox",
    "C18_quadratic_grad",
    "C18_nonsymmetric_refuted"
   ],
   "note": "The statement is proved with the conditions it carries. Theorems ending in _refuted prove by counterexample that the broader documented claim is false, i.e. that a condition is needed: C18_nonsymmetric_refuted."
  },
  {
   "property": "C19",
   "status": "proved",
   "theorems": [
    "C19_l21",
    "C19_l21l1",
    "C19_rho_one_refuted"
   ],
   "note": "The statement is proved with the conditions it carries. Theorems ending in _refuted prove by counterexample that the broader documented claim is false, i.e. that a condition is needed: C19_rho_one_refuted."
  },
  {
   "property": "C20",
   "status": "proved",
   "theorems": [
    "C20_hubercircular_prox",
    "C20_huber_call",
    "C20_huber_exact_iff",
    "C20_huber_refuted"
   ],
   "note": "The statement is proved with the conditions it carries. Theorems ending in _refuted prove by counterexample that the broader documented claim is false, i.e. that a condition is needed: C20_huber_refuted."
  },
  {
   "property": "C21",
   "status": "proved",
   "theorems": [
    "C21_orthogonal_partial_mode",
    "C21_orthogonal_full_mode"
   ],
   "note": ""
  },
  {
   "property": "C22",
   "status": "proved",
   "theorems": [
    "C22_prox",
    "C22_call",
    "C22_grad",
    "C22_restr",
    "C22_restr_call",
    "C22_restr_grad",
    "C22_errors",
    "C22_indicator_call_refuted",
    "C22_hasgrad_refuted",
    "C22_extra_sizes_refuted",
    "C22_overlap_refuted"
   ],
   "note": "The statement is proved with the conditions it carries. Theorems ending in _refuted prove by counterexample that the broader documented claim is false, i.e. that a condition is needed: C22_indicator_call_refuted, C22_hasgrad_refuted, C22_extra_sizes_refuted, C22_overlap_refuted."
  },
  {
   "property": "C23",
   "status": "proved",
   "theorems": [
    "C23_axis",
    "C23_axis_refuted",
    "C23_result",
    "C23_terminates",
    "C23_infeasible_refuted",
    "C23_simplex",
    "C23_simplex_runs",
    "C23_simplex_numba",
    "C23_numba_large_radius_refuted",
    "C23_dims",
    "C23_call",
    "C23_call_dims_refuted"
   ],
   "note": "The statement is proved with the conditions it carries. Theorems ending in _refuted prove by counterexample that the broader documented claim is false, i.e. that a condition is needed: C23_axis_refuted, C23_infeasible_refuted, C23_numba_large_radius_refuted, C23_call_dims_refuted."
  },
  {
   "property": "C24",
   "status": "proved",
   "theorems": [
    "C24_outside",
    "C24_inside_refuted",
    "C24_moved_refuted",
    "C24_call"
   ],
   "note": "The statement is proved with the conditions it carries. Theorems ending in _refuted prove by counterexample that the broader documented claim is false, i.e. that a condition is needed: C24_inside_refuted, C24_moved_refuted."
  },
  {
   "property": "C25",
   "status": "proved",
   "theorems": [
    "C25_l0",
    "C25_radius_zero_refuted",
    "C25_l10_feasible",
    "C25_l10_refuted"
   ],
   "note": "The statement is proved with the conditions it carries. Theorems ending in _refuted prove by counterexample that the broader documented claim is false, i.e. that a condition is needed: C25_radius_zero_refuted, C25_l10_refuted."
  },
  {
   "property": "C26",
   "status": "proved",
   "theorems": [
    "C26_prox",
    "C26_means",
    "C26_call_refuted"
   ],
   "note": "The statement is proved with the conditions it carries. Theorems ending in _refuted prove by counterexample that the broader documented claim is false, i.e. that a condition is needed: C26_call_refuted."
  },
  {
   "property": "C27",
   "status": "proved",
   "theorems": [
    "C27_call",
    "C27_what_it_computes",
    "C27_l0_refuted"
   ],
   "note": "The statement is proved with the conditions it carries. Theorems ending in _refuted prove by counterexample that the broader documented claim is false, i.e. that a condition is needed: C27_l0_refuted."
  },
  {
   "property": "C28",
   "status": "proved",
   "theorems": [
    "C28_log1_local",
    "C28_log1_exact",
    "C28_log1_refuted",
    "C28_log1_threshold_refuted",
    "C28_log1_sign_refuted",
    "C28_log1_zero_refuted",
    "C28_log1_complex_refuted",
    "C28_log_exact"
   ],
   "note": "The statement is proved with the conditions it carries. Theorems ending in _refuted prove by counterexample that the broader documented claim is false, i.e. that a condition is needed: C28_log1_refuted, C28_log1_threshold_refuted, C28_log1_sign_refuted, C28_log1_zero_refuted, C28_log1_complex_refuted."
  },
  {
   "property": "C29",
   "status": "proved",
   "theorems": [
    "C29_scad_call",
    "C29_scad_exact",
    "C29_scad_refuted"
   ],
   "note": "The statement is proved with the conditions it carries. Theorems ending in _refuted prove by counterexample that the broader documented claim is false, i.e. that a condition is needed: C29_scad_refuted."
  },
  {
   "property": "C30",
   "status": "proved",
   "theorems": [
    "C30_separable",
    "C30_rms_refuted"
   ],
   "note": "The statement is proved with the conditions it carries. Theorems ending in _refuted prove by counterexample that the broader documented claim is false, i.e. that a condition is needed: C30_rms_refuted."
  },
  {
   "property": "C31",
   "status": "proved",
   "theorems": [
    "C31_card_exact",
    "C31_card_refuted",
    "C31_cardind_prox",
    "C31_cardind_call",
    "C31_cardind_call_refuted",
    "C31_cardind_tau_refuted",
    "C31_rank_prox",
    "C31_rank_index_refuted",
    "C31_rank_bound_refuted",
    "C31_rank_call_refuted"
   ],
   "note": "The statement is proved with the conditions it carries. Theorems ending in _refuted prove by counterexample that the broader documented claim is false, i.e. that a condition is needed: C31_card_refuted, C31_cardind_call_refuted, C31_cardind_tau_refuted, C31_rank_index_refuted, C31_rank_bound_refuted, C31_rank_call_refuted."
  },
  {
   "property": "C32",
   "status": "proved",
   "theorems": [
    "C32_exists",
    "C32_nuclear_prox",
    "C32_nuclear_convex",
    "C32_weighted",
    "C32_weighted_refuted",
    "C32_nuclear_value",
    "C32_weights_size_refuted",
    "C32_ball",
    "C32_ball_inside_refuted",
    "C32_ball_call",
    "C32_penalty",
    "C32_penalty_value",
    "C32_penalty_order_refuted"
   ],
   "note": "The statement is proved with the conditions it carries. Theorems ending in _refuted prove by counterexample that the broader documented claim is false, i.e. that a condition is needed: C32_weighted_refuted, C32_weights_size_refuted, C32_ball_inside_refuted, C32_penalty_order_refuted."
  },
  {
   "property": "C33",
   "status": "proved",
   "theorems": [
    "C33_history",
    "C33_offset_refuted",
    "C33_indexing_refuted"
   ],
   "note": "The statement is proved with the conditions it carries. Theorems ending in _refuted prove by counterexample that the broader documented claim is false, i.e. that a condition is needed: C33_offset_refuted, C33_indexing_refuted."
  },
  {
   "property": "C34",
   "status": "proved",
   "theorems": [
    "C34_l2_mutates_refuted",
    "C34_l2_preserves"
   ],
   "note": "The statement is proved with the conditions it carries. Theorems ending in _refuted prove by counterexample that the broader documented claim is false, i.e. that a condition is needed: C34_l2_mutates_refuted."
  },
  {
   "property": "C35",
   "status": "proved",
   "theorems": [
    "C35_recursion",
    "C35_converges",
    "C35_stops",
    "C35_stop_error",
    "C35_intersection",
    "C35_intersection_converges",
    "C35_intersection_accepted",
    "C35_call_tol0_refuted",
    "C35_accepted_refuted",
    "C35_cyclic",
    "C35_cyclic_stops",
    "C35_sum_converges",
    "C35_two_sets_converge",
    "C35_cyclic_converges"
   ],
   "note": "The statement is proved with the conditions it carries. Theorems ending in _refuted prove by counterexample that the broader documented claim is false, i.e. that a condition is needed: C35_call_tol0_refuted, C35_accepted_refuted."
  },
  {
   "property": "C36",
   "status": "proved",
   "theorems": [
    "C36_recursion",
    "C36_converges",
    "C36_weighted_refuted",
    "C36_array_weights_refuted",
    "C36_stop_refuted",
    "C36_weight_count",
    "C36_parallel_converges"
   ],
   "note": "The statement is proved with the conditions it carries. Theorems ending in _refuted prove by counterexample that the broader documented claim is false, i.e. that a condition is needed: C36_weighted_refuted, C36_array_weights_refuted, C36_stop_refuted."
  },
  {
   "property": "C37",
   "status": "proved",
   "theorems": [
    "C37_sums",
    "C37_feasible",
    "C37_certificate",
    "C37_last_pair",
    "C37_errors",
    "C37_call",
    "C37_exact_refuted",
    "C37_stop_refuted",
    "C37_converges"
   ],
   "note": "The statement is proved with the conditions it carries. Theorems ending in _refuted prove by counterexample that the broader documented claim is false, i.e. that a condition is needed: C37_exact_refuted, C37_stop_refuted."
  },
  {
   "property": "C38",
   "status": "proved",
   "theorems": [
    "C38_intersection_arity",
    "C38_sum_arity",
    "C38_empty_sum_refuted",
    "C38_sum_call"
   ],
   "note": "The statement is proved with the conditions it carries. Theorems ending in _refuted prove by counterexample that the broader documented claim is false, i.e. that a condition is needed: C38_empty_sum_refuted."
  },
  {
   "property": "C40",
   "status": "proved",
   "theorems": [
    "C40_iterates",
    "C40_rate",
    "C40_fixed"
   ],
   "note": ""
  },
  {
   "property": "C41",
   "status": "proved",
   "theorems": [
    "C41_rate",
    "C41_backtracking_rate",
    "C41_fixed_points",
    "C41_backtracking_nonconvex"
   ],
   "note": ""
  },
  {
   "property": "C42",
   "status": "proved",
   "theorems": [
    "C42_accelerated_rate",
    "C42_wrapper_rate",
    "C42_accelerated_backtracking"
   ],
   "note": ""
  },
  {
   "property": "C43",
   "status": "proved",
   "theorems": [
    "C43_recursion",
    "C43_acceleration_ignored",
    "C43_relaxed_rate",
    "C43_relaxation_refuted",
    "C43_backtracking_relaxation_refuted"
   ],
   "note": "The statement is proved with the conditions it carries. Theorems ending in _refuted prove by counterexample that the broader documented claim is false, i.e. that a condition is needed: C43_relaxation_refuted, C43_backtracking_relaxation_refuted."
  },
  {
   "property": "C44",
   "status": "proved",
   "theorems": [
    "C44_accepted",
    "C44_terminates_early",
    "C44_exhaustion_refuted",
    "C44_no_trials_refuted"
   ],
   "note": "The statement is proved with the conditions it carries. Theorems ending in _refuted prove by counterexample that the broader documented claim is false, i.e. that a condition is needed: C44_exhaustion_refuted, C44_no_trials_refuted."
  },
  {
   "property": "C45",
   "status": "proved",
   "theorems": [
    "C45_zero_objective_refuted",
    "C45_proximal_point",
    "C45_proximal_gradient"
   ],
   "note": "The statement is proved with the conditions it carries. Theorems ending in _refuted prove by counterexample that the broader documented claim is false, i.e. that a condition is needed: C45_zero_objective_refuted."
  },
  {
   "property": "C46",
   "status": "proved",
   "theorems": [
    "C46_missing_guess",
    "C46_derived_guess",
    "C46_unused_guess",
    "C46_linearized_z0_refuted"
   ],
   "note": "The statement is proved with the conditions it carries. Theorems ending in _refuted prove by counterexample that the broader documented claim is false, i.e. that a condition is needed: C46_linearized_z0_refuted."
  },
  {
   "property": "C47",
   "status": "proved",
   "theorems": [
    "C47_lyapunov",
    "C47_lyapunov_gfirst"
   ],
   "note": ""
  },
  {
   "property": "C48",
   "status": "proved",
   "theorems": [
    "C48_equivalence"
   ],
   "note": ""
  },
  {
   "property": "C49",
   "status": "proved",
   "theorems": [
    "C49_certificate",
    "C49_gap",
    "C49_fixed_points",
    "C49_no_iterations_refuted"
   ],
   "note": "The statement is proved with the conditions it carries. Theorems ending in _refuted prove by counterexample that the broader documented claim is false, i.e. that a condition is needed: C49_no_iterations_refuted."
  },
  {
   "property": "C50",
   "status": "proved",
   "theorems": [
    "C50_hqs",
    "C50_taus",
    "C50_bias_refuted"
   ],
   "note": "The statement is proved with the conditions it carries. Theorems ending in _refuted prove by counterexample that the broader documented claim is false, i.e. that a condition is needed: C50_bias_refuted."
  },
  {
   "property": "C51",
   "status": "proved",
   "theorems": [
    "C51_linearized_admm",
    "C51_linearized_admm_z0",
    "C51_admml2",
    "C51_admml2_gfirst_refuted"
   ],
   "note": "The statement is proved with the conditions it carries. Theorems ending in _refuted prove by counterexample that the broader documented claim is false, i.e. that a condition is needed: C51_admml2_gfirst_refuted."
  },
  {
   "property": "C52",
   "status": "proved",
   "theorems": [
    "C52_recursion",
    "C52_ist",
    "C52_fixed_points",
    "C52_parameters",
    "C52_partial_parameters_refuted"
   ],
   "note": "The statement is proved with the conditions it carries. Theorems ending in _refuted prove by counterexample that the broader documented claim is false, i.e. that a condition is needed: C52_partial_parameters_refuted."
  },
  {
   "property": "C53",
   "status": "proved",
   "theorems": [
    "C53_ppxa",
    "C53_per_function_weights_refuted",
    "C53_early_stop_refuted",
    "C53_no_tol_raises"
   ],
   "note": "The statement is proved with the conditions it carries. Theorems ending in _refuted prove by counterexample that the broader documented claim is false, i.e. that a condition is needed: C53_per_function_weights_refuted, C53_early_stop_refuted."
  },
  {
   "property": "C54",
   "status": "proved",
   "theorems": [
    "C54_consensus_admm",
    "C54_early_stop_refuted",
    "C54_no_tol_raises"
   ],
   "note": "The statement is proved with the conditions it carries. Theorems ending in _refuted prove by counterexample that the broader documented claim is false, i.e. that a condition is needed: C54_early_stop_refuted."
  },
  {
   "property": "C55",
   "status": "proved",
   "theorems": [
    "C55_gpg",
    "C55_default_weights_refuted",
    "C55_weights_rejected",
    "C55_eta_ignored_refuted"
   ],
   "note": "The statement is proved with the conditions it carries. Theorems ending in _refuted prove by counterexample that the broader documented claim is false, i.e. that a condition is needed: C55_default_weights_refuted, C55_eta_ignored_refuted."
  },
  {
   "property": "C56",
   "status": "proved",
   "theorems": [
    "C56_safeguard",
    "C56_show",
    "C56_show_refuted",
    "C56_weights",
    "C56_recursion",
    "C56_breakdown",
    "C56_at_solution",
    "C56_nan_refuted",
    "C56_nhistory1",
    "C56_errors",
    "C56_trace",
    "C56_history_refuted",
    "C56_safeguard_refuted"
   ],
   "note": "The statement is proved with the conditions it carries. Theorems ending in _refuted prove by counterexample that the broader documented claim is false, i.e. that a condition is needed: C56_show_refuted, C56_nan_refuted, C56_history_refuted, C56_safeguard_refuted."
  },
  {
   "property": "C57",
   "status": "proved",
   "theorems": [
    "C57_recursion",
    "C57_certificates",
    "C57_alias_refuted",
    "C57_alias_limit"
   ],
   "note": "The statement is proved with the conditions it carries. Theorems ending in _refuted prove by counterexample that the broader documented claim is false, i.e. that a condition is needed: C57_alias_refuted."
  },
  {
   "property": "C58",
   "status": "proved",
   "theorems": [
    "C58_converges",
    "C58_invariants",
    "C58_residuals_vanish_no_z",
    "C58_stops_early_refuted",
    "C58_z_residual_refuted",
    "C58_z_shape_refuted"
   ],
   "note": "The statement is proved with the conditions it carries. Theorems ending in _refuted prove by counterexample that the broader documented claim is false, i.e. that a condition is needed: C58_stops_early_refuted, C58_z_residual_refuted, C58_z_shape_refuted."
  },
  {
   "property": "C59",
   "status": "proved",
   "theorems": [
    "C59_bregman",
    "C59_start",
    "C59_int_alpha_refuted"
   ],
   "note": "The statement is proved with the conditions it carries. Theorems ending in _refuted prove by counterexample that the broader documented claim is false, i.e. that a condition is needed: C59_int_alpha_refuted."
  },
  {
   "property": "C60",
   "status": "proved",
   "theorems": [
    "C60_palm_descent",
    "C60_palm_runs",
    "C60_g_ignored_refuted",
    "C60_constraint_violated_refuted",
    "C60_stale_y_refuted",
    "C60_zero_start_refuted",
    "C60_ipalm_no_inertia",
    "C60_ipalm_gammag_none_refuted",
    "C60_ipalm_y_inertia_refuted",
    "C60_ipalm_inertial"
   ],
   "note": "The statement is proved with the conditions it carries. Theorems ending in _refuted prove by counterexample that the broader documented claim is false, i.e. that a condition is needed: C60_g_ignored_refuted, C60_constraint_violated_refuted, C60_stale_y_refuted, C60_zero_start_refuted, C60_ipalm_gammag_none_refuted, C60_ipalm_y_inertia_refuted."
  },
  {
   "property": "C61",
   "status": "proved",
   "theorems": [
    "C61_call",
    "C61_call_failure_refuted",
    "C61_gradients",
    "C61_constants",
    "C61_constants_with_op_refuted",
    "C61_matvec",
    "C61_grad_updated",
    "C61_grad_stale_refuted",
    "C61_palm",
    "C61_palm_with_op_refuted"
   ],
   "note": "The statement is proved with the conditions it carries. Theorems ending in _refuted prove by counterexample that the broader documented claim is false, i.e. that a condition is needed: C61_call_failure_refuted, C61_constants_with_op_refuted, C61_grad_stale_refuted, C61_palm_with_op_refuted."
  },
  {
   "property": "C62",
   "status": "proved",
   "theorems": [
    "C62_outcome",
    "C62_detects",
    "C62_imaginary_draw_refuted",
    "C62_default_refuted",
    "C62_negative_delta_refuted",
    "C62_mutation_refuted",
    "C62_bilinear"
   ],
   "note": "The statement is proved with the conditions it carries. Theorems ending in _refuted prove by counterexample that the broader documented claim is false, i.e. that a condition is needed: C62_imaginary_draw_refuted, C62_default_refuted, C62_negative_delta_refuted, C62_mutation_refuted."
  },
  {
   "property": "C63",
   "status": "proved",
   "theorems": [
    "C63_recursion",
    "C63_prox_denoiser",
    "C63_rejects"
   ],
   "note": ""
  },
  {
   "property": "C64",
   "status": "proved",
   "theorems": [
    "C64_output",
    "C64_output_bisect",
    "C64_optimal",
    "C64_zero_iter_refuted",
    "C64_errors",
    "C64_step_3d_refuted"
   ],
   "note": "The statement is proved with the conditions it carries. Theorems ending in _refuted prove by counterexample that the broader documented claim is false, i.e. that a condition is needed: C64_zero_iter_refuted, C64_step_3d_refuted."
  },
  {
   "property": "C65",
   "status": "proved",
   "theorems": [
    "C65_sr3",
    "C65_zero_data_refuted",
    "C65_one_unknown_refuted",
    "C65_documented_recursion_refuted"
   ],
   "note": "The statement is proved with the conditions it carries. Theorems ending in _refuted prove by counterexample that the broader documented claim is false, i.e. that a condition is needed: C65_zero_data_refuted, C65_one_unknown_refuted, C65_documented_recursion_refuted."
  },
  {
   "property": "C66",
   "status": "proved",
   "theorems": [
    "C66_value",
    "C66_iterates",
    "C66_converges",
    "C66_sum_preserved",
    "C66_momentum_refuted",
    "C66_count",
    "C66_errors",
    "C66_stop_refuted"
   ],
   "note": "The statement is proved with the conditions it carries. Theorems ending in _refuted prove by counterexample that the broader documented claim is false, i.e. that a condition is needed: C66_momentum_refuted, C66_stop_refuted."
  },
  {
   "property": "C67",
   "status": "proved",
   "theorems": [
    "C67_projections",
    "C67_dual_balls",
    "C67_simplex",
    "C67_l1ball_refuted"
   ],
   "note": "The statement is proved with the conditions it carries. Theorems ending in _refuted prove by counterexample that the broader documented claim is false, i.e. that a condition is needed: C67_l1ball_refuted."
  },
  {
   "property": "C68",
   "status": "proved",
   "theorems": [
    "C68_l2_solver",
    "C68_simplex",
    "C68_acceleration_gpg",
    "C68_penalties",
    "C68_log_zero_refuted",
    "C68_acceleration"
   ],
   "note": "The statement is proved with the conditions it carries. Theorems ending in _refuted prove by counterexample that the broader documented claim is false, i.e. that a condition is needed: C68_log_zero_refuted."
  },
  {
   "property": "C69",
   "status": "proved",
   "theorems": [
    "C69_lsqr",
    "C69_exact_start_refuted"
   ],
   "note": "The statement is proved with the conditions it carries. Theorems ending in _refuted prove by counterexample that the broader documented claim is false, i.e. that a condition is needed: C69_exact_start_refuted."
  },
  {
   "property": "C70",
   "status": "proved",
   "theorems": [
    "C70_etp_exact",
    "C70_init"
   ],
   "note": ""
  },
  {
   "property": "C71",
   "status": "proved",
   "theorems": [
    "C71_geman_exact",
    "C71_defined"
   ],
   "note": ""
  },
  {
   "property": "C72",
   "status": "proved",
   "theorems": [
    "C72_recursion",
    "C72_descent",
    "C72_acceleration_refuted",
    "C72_start_refuted"
   ],
   "note": "The statement is proved with the conditions it carries. Theorems ending in _refuted prove by counterexample that the broader documented claim is false, i.e. that a condition is needed: C72_acceleration_refuted, C72_start_refuted."
  },
  {
   "property": "C73",
   "status": "proved",
   "theorems": [
    "C73_session",
    "C73_prox",
    "C73_inexact"
   ],
   "note": ""
  },
  {
   "property": "C74",
   "status": "proved",
   "theorems": [
    "C74_call",
    "C74_linear",
    "C74_grad",
    "C74_prox",
    "C74_prox_padded",
    "C74_short_refuted",
    "C74_padding_refuted",
    "C74_real",
    "C74_nd"
   ],
   "note": "The statement is proved with the conditions it carries. Theorems ending in _refuted prove by counterexample that the broader documented claim is false, i.e. that a condition is needed: C74_short_refuted, C74_padding_refuted."
  },
  {
   "property": "C75",
   "status": "proved",
   "theorems": [
    "C75_arrays",
    "C75_proximal_point",
    "C75_proximal_gradient",
    "C75_douglas_rachford",
    "C75_admm",
    "C75_hqs",
    "C75_primal_dual",
    "C75_linearized_admm",
    "C75_admml2",
    "C75_ppxa",
    "C75_consensus_admm",
    "C75_gpg",
    "C75_backtracking",
    "C75_accelerated"
   ],
   "note": ""
  },
  {
   "property": "C76",
   "status": "proved",
   "theorems": [
    "C76_l1",
    "C76_threshold",
    "C76_l1_monotone",
    "C76_nan",
    "C76_box",
    "C76_l1_dual",
    "C76_l0_twice",
    "C76_shift",
    "C76_l2",
    "C76_ball_refuted",
    "C76_halfspace_refuted",
    "C76_l1_expands_refuted"
   ],
   "note": "The statement is proved with the conditions it carries. Theorems ending in _refuted prove by counterexample that the broader documented claim is false, i.e. that a condition is needed: C76_ball_refuted, C76_halfspace_refuted, C76_l1_expands_refuted."
  },
  {
   "property": "C77",
   "status": "proved",
   "theorems": [
    "C77_schedule",
    "C77_exact",
    "C77_axis_refuted"
   ],
   "note": "The statement is proved with the conditions it carries. Theorems ending in _refuted prove by counterexample that the broader documented claim is false, i.e. that a condition is needed: C77_axis_refuted."
  },
  {
   "property": "C78",
   "status": "proved",
   "theorems": [
    "C78_optimality",
    "C78_solution",
    "C78_ista",
    "C78_fista",
    "C78_admm",
    "C78_douglas_rachford",
    "C78_linearized_admm",
    "C78_primal_dual"
   ],
   "note": ""
  },
  {
   "property": "C79",
   "status": "proved",
   "theorems": [
    "C79_douglas_rachford",
    "C79_proximal_point",
    "C79_proximal_point_value",
    "C79_hqs",
    "C79_hqs_last",
    "C79_admm",
    "C79_ppxa",
    "C79_consensus_admm",
    "C79_dykstra_prox",
    "C79_l2_confined",
    "C79_l2_reads",
    "C79_dr_l2_refuted",
    "C79_dr_inplace",
    "C79_intersection",
    "C79_dr_intersection_refuted",
    "C79_hqs_shift",
    "C79_hqs_domain_refuted",
    "C79_hqs_caller_refuted",
    "C79_point_history_refuted",
    "C79_moreau_grad",
    "C79_moreau_grad_refuted",
    "C79_ppxa_refuted",
    "C79_sum_refuted"
   ],
   "note": "The statement is proved with the conditions it carries. Theorems ending in _refuted prove by counterexample that the broader documented claim is false, i.e. that a condition is needed: C79_dr_l2_refuted, C79_dr_intersection_refuted, C79_hqs_domain_refuted, C79_hqs_caller_refuted, C79_point_history_refuted, C79_moreau_grad_refuted, C79_ppxa_refuted, C79_sum_refuted."
  },
  {
   "property": "C80",
   "status": "proved",
   "theorems": [
    "C80_radial",
    "C80_huber",
    "C80_l0",
    "C80_log",
    "C80_geman",
    "C80_qe_card",
    "C80_rms",
    "C80_scad",
    "C80_phase",
    "C80_old_sign_log_refuted",
    "C80_old_sign_geman_refuted",
    "C80_old_sign_qe_card_refuted",
    "C80_old_sign_scad_refuted",
    "C80_scad_call",
    "C80_etp_refuted",
    "C80_l21_refuted",
    "C80_l21l1",
    "C80_l1_ball",
    "C80_l0_ball",
    "C80_sum",
    "C80_l2_q",
    "C80_quadratic_refuted",
    "C80_backtracking_refuted",
    "C80_backtracking_real",
    "C80_box_refuted",
    "C80_halfspace_refuted",
    "C80_nuclear_call",
    "C80_bilinear"
   ],
   "note": "The statement is proved with the conditions it carries. Theorems ending in _refuted prove by counterexample that the broader documented claim is false, i.e. that a condition is needed: C80_old_sign_log_refuted, C80_old_sign_geman_refuted, C80_old_sign_qe_card_refuted, C80_old_sign_scad_refuted, C80_etp_refuted, C80_l21_refuted, C80_quadratic_refuted, C80_backtracking_refuted, C80_box_refuted, C80_halfspace_refuted."
  },
  {
   "property": "C81",
   "status": "proved",
   "theorems": [
    "C81_adaptive",
    "C81_arrays",
    "C81_multiplier",
    "C81_douglas_rachford",
    "C81_admm",
    "C81_primal_dual",
    "C81_linearized_admm",
    "C81_admml2",
    "C81_ppxa",
    "C81_consensus_admm",
    "C81_gpg",
    "C81_no_slater_refuted"
   ],
   "note": "The statement is proved with the conditions it carries. Theorems ending in _refuted prove by counterexample that the broader documented claim is false, i.e. that a condition is needed: C81_no_slater_refuted."
  },
  {
   "property": "C82",
   "status": "proved",
   "theorems": [
    "C82_prox",
    "C82_value",
    "C82_gradient",
    "C82_splitting",
    "C82_composite",
    "C82_proximal_gradient",
    "C82_ppxa"
   ],
   "note": ""
  },
  {
   "property": "C83",
   "status": "proved",
   "theorems": [
    "C83_float_arrays",
    "C83_truncated",
    "C83_exact_iff",
    "C83_worse_than_input_refuted",
    "C83_huber_value_refuted",
    "C83_proximal_point_huber",
    "C83_simplex",
    "C83_vstack",
    "C83_dykstra_refuted",
    "C83_douglas_rachford",
    "C83_generalized_pg_refuted",
    "C83_generalized_pg_float",
    "C83_l2",
    "C83_orthogonal_call_refuted",
    "C83_float_loops",
    "C83_values"
   ],
   "note": "The statement is proved with the conditions it carries. Theorems ending in _refuted prove by counterexample that the broader documented claim is false, i.e. that a condition is needed: C83_worse_than_input_refuted, C83_huber_value_refuted, C83_dykstra_refuted, C83_generalized_pg_refuted, C83_orthogonal_call_refuted."
  },
  {
   "property": "C84",
   "status": "proved",
   "theorems": [
    "C84_orthogonal_call",
    "C84_orthogonal_call_refuted",
    "C84_proximal_point",
    "C84_hqs",
    "C84_admm",
    "C84_douglas_rachford",
    "C84_proximal_gradient",
    "C84_primal_dual",
    "C84_admm_refuted",
    "C84_point_refuted",
    "C84_point_tol_refuted",
    "C84_primal_dual_identity"
   ],
   "note": "The statement is proved with the conditions it carries. Theorems ending in _refuted prove by counterexample that the broader documented claim is false, i.e. that a condition is needed: C84_orthogonal_call_refuted, C84_admm_refuted, C84_point_refuted, C84_point_tol_refuted."
  },
  {
   "property": "C85",
   "status": "proved",
   "theorems": [
    "C85_adaptive",
    "C85_arrays",
    "C85_existence",
    "C85_bounded",
    "C85_splitting",
    "C85_primal_dual",
    "C85_linearized_admm",
    "C85_admml2",
    "C85_ppxa",
    "C85_proximal_gradient",
    "C85_expressions",
    "C85_expr_solvers",
    "C85_unique",
    "C85_unique_sum",
    "C85_denoising",
    "C85_unbounded_refuted",
    "C85_backtracking"
   ],
   "note": "The statement is proved with the conditions it carries. Theorems ending in _refuted prove by counterexample that the broader documented claim is false, i.e. that a condition is needed: C85_unbounded_refuted."
  },
  {
   "property": "C86",
   "status": "proved",
   "theorems": [
    "C86_proximal_point",
    "C86_proximal_gradient",
    "C86_hqs",
    "C86_douglas_rachford",
    "C86_primal_dual",
    "C86_palm",
    "C86_tolerance",
    "C86_ppxa_refuted",
    "C86_consensus_refuted",
    "C86_admm_refuted",
    "C86_linearized_admm_refuted",
    "C86_primal_dual_refuted",
    "C86_twist_refuted",
    "C86_acceleration_refuted",
    "C86_generalized_refuted",
    "C86_backtracking_refuted"
   ],
   "note": "The statement is proved with the conditions it carries. Theorems ending in _refuted prove by counterexample that the broader documented claim is false, i.e. that a condition is needed: C86_ppxa_refuted, C86_consensus_refuted, C86_admm_refuted, C86_linearized_admm_refuted, C86_primal_dual_refuted, C86_twist_refuted, C86_acceleration_refuted, C86_generalized_refuted, C86_backtracking_refuted."
  },
  {
   "property": "C87",
   "status": "proved",
   "theorems": [
    "C87_order",
    "C87_linearized_admm",
    "C87_admml2",
    "C87_moreau_dual",
    "C87_primal_dual_dr",
    "C87_primal_dual_order",
    "C87_adaptive",
    "C87_twist",
    "C87_generalized_single",
    "C87_ppxa_consensus",
    "C87_consensus_single",
    "C87_generalized_ppxa",
    "C87_anderson",
    "C87_ipalm",
    "C87_linearized_admm_refuted",
    "C87_generalized_single_refuted",
    "C87_adaptive_refuted"
   ],
   "note": "The statement is proved with the conditions it carries. Theorems ending in _refuted prove by counterexample that the broader documented claim is false, i.e. that a condition is needed: C87_linearized_admm_refuted, C87_generalized_single_refuted, C87_adaptive_refuted."
  },
  {
   "property": "C88",
   "status": "proved",
   "theorems": [
    "C88_algebra",
    "C88_dual_algebra",
    "C88_proximal_point",
    "C88_splitting",
    "C88_proximal_gradient",
    "C88_many",
    "C88_operator",
    "C88_order",
    "C88_weights_refuted"
   ],
   "note": "The statement is proved with the conditions it carries. Theorems ending in _refuted prove by counterexample that the broader documented claim is false, i.e. that a condition is needed: C88_weights_refuted."
  },
  {
   "property": "C89",
   "status": "proved",
   "theorems": [
    "C89_moduli",
    "C89_proximal_point",
    "C89_proximal_gradient",
    "C89_douglas_rachford",
    "C89_hqs",
    "C89_admm",
    "C89_primal_dual",
    "C89_reach_point",
    "C89_reach_gradient",
    "C89_reach_splitting",
    "C89_reach_primal_dual"
   ],
   "note": ""
  },
  {
   "property": "C90",
   "status": "proved",
   "theorems": [
    "C90_factors",
    "C90_proximal_point",
    "C90_proximal_gradient",
    "C90_douglas_rachford",
    "C90_admm",
    "C90_hqs",
    "C90_primal_dual",
    "C90_sharp"
   ],
   "note": ""
  },
  {
   "property": "C91",
   "status": "proved",
   "theorems": [
    "C91_primal_dual_refuted",
    "C91_linearized_admm_refuted",
    "C91_relaxation_refuted",
    "C91_gradient_refuted",
    "C91_denoising"
   ],
   "note": "The statement is proved with the conditions it carries. Theorems ending in _refuted prove by counterexample that the broader documented claim is false, i.e. that a condition is needed: C91_primal_dual_refuted, C91_linearized_admm_refuted, C91_relaxation_refuted, C91_gradient_refuted."
  },
  {
   "property": "C92",
   "status": "proved",
   "theorems": [
    "C92_recovery",
    "C92_stable",
    "C92_basis_pursuit",
    "C92_certificate",
    "C92_noise",
    "C92_box_optimality",
    "C92_box"
   ],
   "note": ""
  },
  {
   "property": "C93",
   "status": "proved",
   "theorems": [
    "C93_add_back",
    "C93_rate",
    "C93_converges",
    "C93_basis_pursuit"
   ],
   "note": ""
  },
  {
   "property": "C94",
   "status": "proved",
   "theorems": [
    "C94_stationary",
    "C94_proximal_gradient",
    "C94_step_refuted",
    "C94_admm",
    "C94_douglas_rachford",
    "C94_hqs",
    "C94_penalties",
    "C94_least_squares",
    "C94_palm"
   ],
   "note": "The statement is proved with the conditions it carries. Theorems ending in _refuted prove by counterexample that the broader documented claim is false, i.e. that a condition is needed: C94_step_refuted."
  },
  {
   "property": "C95",
   "status": "proved",
   "theorems": [
    "C95_flag",
    "C95_gradient",
    "C95_proximal_gradient",
    "C95_scaled_refuted"
   ],
   "note": "The statement is proved with the conditions it carries. Theorems ending in _refuted prove by counterexample that the broader documented claim is false, i.e. that a condition is needed: C95_scaled_refuted."
  },
  {
   "property": "C96",
   "status": "proved",
   "theorems": [
    "C96_recovery",
    "C96_accelerated",
    "C96_support",
    "C96_group_refuted"
   ],
   "note": "The statement is proved with the conditions it carries. Theorems ending in _refuted prove by counterexample that the broader documented claim is false, i.e. that a condition is needed: C96_group_refuted."
  },
  {
   "property": "C97",
   "status": "proved",
   "theorems": [
    "C97_nuclear_dual",
    "C97_certificate",
    "C97_solvers",
    "C97_hankel",
    "C97_ball_refuted"
   ],
   "note": "The statement is proved with the conditions it carries. Theorems ending in _refuted prove by counterexample that the broader documented claim is false, i.e. that a condition is needed: C97_ball_refuted."
  },
  {
   "property": "C98",
   "status": "proved",
   "theorems": [
    "C98_l21",
    "C98_isotropic",
    "C98_anisotropic",
    "C98_certificate",
    "C98_variation",
    "C98_data_terms",
    "C98_rof",
    "C98_tv_operator",
    "C98_stop_refuted"
   ],
   "note": "The statement is proved with the conditions it carries. Theorems ending in _refuted prove by counterexample that the broader documented claim is false, i.e. that a condition is needed: C98_stop_refuted."
  },
  {
   "property": "C99",
   "status": "proved",
   "theorems": [
    "C99_nonneg_runs",
    "C99_better_runs",
    "C99_rate",
    "C99_kkt",
    "C99_kkt_nonneg",
    "C99_negative_refuted",
    "C99_gamma_one_refuted",
    "C99_ipalm_refuted",
    "C99_global_refuted"
   ],
   "note": "The statement is proved with the conditions it carries. Theorems ending in _refuted prove by counterexample that the broader documented claim is false, i.e. that a condition is needed: C99_negative_refuted, C99_gamma_one_refuted, C99_ipalm_refuted, C99_global_refuted."
  },
  {
   "property": "C100",
   "status": "proved",
   "theorems": [
    "C100_plain",
    "C100_index",
    "C100_proximal_gradient",
    "C100_douglas_rachford",
    "C100_admm",
    "C100_hqs",
    "C100_classes",
    "C100_serves",
    "C100_lasso",
    "C100_rerun_refuted",
    "C100_backtracking",
    "C100_primal_dual_refuted",
    "C100_deblending"
   ],
   "note": "The statement is proved with the conditions it carries. Theorems ending in _refuted prove by counterexample that the broader documented claim is false, i.e. that a condition is needed: C100_rerun_refuted, C100_primal_dual_refuted."
  },
  {
   "property": "C101",
   "status": "proved",
   "theorems": [
    "C101_admm",
    "C101_douglas_rachford",
    "C101_proximal_gradient",
    "C101_hqs",
    "C101_same",
    "C101_residual",
    "C101_lipschitz",
    "C101_denoisers",
    "C101_bounded",
    "C101_tutorial",
    "C101_more",
    "C101_refuted"
   ],
   "note": "The statement is proved with the conditions it carries. Theorems ending in _refuted prove by counterexample that the broader documented claim is false, i.e. that a condition is needed: C101_refuted."
  },
  {
   "property": "C102",
   "status": "proved",
   "theorems": [
    "C102_douglas_rachford",
    "C102_admm",
    "C102_hqs",
    "C102_exists",
    "C102_ppxa",
    "C102_consensus",
    "C102_compromise",
    "C102_proximal_point",
    "C102_proximal_gradient",
    "C102_dr_cases",
    "C102_hqs_cases",
    "C102_library",
    "C102_settled_refuted"
   ],
   "note": "The statement is proved with the conditions it carries. Theorems ending in _refuted prove by counterexample that the broader documented claim is false, i.e. that a condition is needed: C102_settled_refuted."
  },
  {
   "property": "C103",
   "status": "proved",
   "theorems": [
    "C103_limits",
    "C103_weight",
    "C103_constrained",
    "C103_data",
    "C103_vanishing",
    "C103_dominating",
    "C103_noise",
    "C103_lasso",
    "C103_start_refuted"
   ],
   "note": "The statement is proved with the conditions it carries. Theorems ending in _refuted prove by counterexample that the broader documented claim is false, i.e. that a condition is needed: C103_start_refuted."
  },
  {
   "property": "C104",
   "status": "proved",
   "theorems": [
    "C104_primal_dual",
    "C104_denoiser",
    "C104_inherited",
    "C104_linearized_admm",
    "C104_denoiser_linearized",
    "C104_count_primal_dual",
    "C104_count_inherited",
    "C104_count_linearized_admm",
    "C104_admm",
    "C104_offset",
    "C104_multiplier_refuted"
   ],
   "note": "The statement is proved with the conditions it carries. Theorems ending in _refuted prove by counterexample that the broader documented claim is false, i.e. that a condition is needed: C104_multiplier_refuted."
  },
  {
   "property": "C105",
   "status": "proved",
   "theorems": [
    "C105_proximal_point",
    "C105_proximal_gradient",
    "C105_denoiser_gradient",
    "C105_admm",
    "C105_denoiser_admm",
    "C105_douglas_rachford",
    "C105_primal_dual",
    "C105_linearized_admm",
    "C105_settled_refuted"
   ],
   "note": "The statement is proved with the conditions it carries. Theorems ending in _refuted prove by counterexample that the broader documented claim is false, i.e. that a condition is needed: C105_settled_refuted."
  },
  {
   "property": "C106",
   "status": "proved",
   "theorems": [
    "C106_proximal_point",
    "C106_proximal_gradient",
    "C106_never_refuted",
    "C106_offset_refuted"
   ],
   "note": "The statement is proved with the conditions it carries. Theorems ending in _refuted prove by counterexample that the broader documented claim is false, i.e. that a condition is needed: C106_never_refuted, C106_offset_refuted."
  },
  {
   "property": "C107",
   "status": "proved",
   "theorems": [
    "C107_ppxa",
    "C107_consensus",
    "C107_bregman",
    "C107_adaptive",
    "C107_never_refuted"
   ],
   "note": "The statement is proved with the conditions it carries. Theorems ending in _refuted prove by counterexample that the broader documented claim is false, i.e. that a condition is needed: C107_never_refuted."
  },
  {
   "property": "C108",
   "status": "proved",
   "theorems": [
    "C108_l1",
    "C108_box",
    "C108_lasso",
    "C108_strict_refuted"
   ],
   "note": "The statement is proved with the conditions it carries. Theorems ending in _refuted prove by counterexample that the broader documented claim is false, i.e. that a condition is needed: C108_strict_refuted."
  },
  {
   "property": "C109",
   "status": "proved",
   "theorems": [
    "C109_monotone",
    "C109_step",
    "C109_entries",
    "C109_penalties",
    "C109_lipschitz_refuted"
   ],
   "note": "The statement is proved with the conditions it carries. Theorems ending in _refuted prove by counterexample that the broader documented claim is false, i.e. that a condition is needed: C109_lipschitz_refuted."
  },
  {
   "property": "C110",
   "status": "proved",
   "theorems": [
    "C110_sharp",
    "C110_split",
    "C110_keeps",
    "C110_l1",
    "C110_euclidean",
    "C110_split_refuted",
    "C110_gradient",
    "C110_lasso_zero"
   ],
   "note": "The statement is proved with the conditions it carries. Theorems ending in _refuted prove by counterexample that the broader documented claim is false, i.e. that a condition is needed: C110_split_refuted."
  },
  {
   "property": "C111",
   "status": "proved",
   "theorems": [
    "C111_proximal_point",
    "C111_proximal_gradient",
    "C111_restart",
    "C111_least_squares",
    "C111_gradient_descent"
   ],
   "note": ""
  }
 ]
}