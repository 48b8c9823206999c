{
 "claims": [
  {
   "property": "C01",
   "status": "proved",
   "theorems": [
    "C01_sample_valid",
    "C01_sample_raises_iff_empty"
   ],
   "note": ""
  },
  {
   "property": "C02",
   "status": "proved",
   "theorems": [
    "C02_sample_share",
    "C02_sample_share_all_draws",
    "C02_strict_share_at_zero_refuted"
   ],
   "note": "Strict bound proved for draws in (0,1); at the draw exactly 0 only the bound <= 1 holds, and the strict one is refuted there."
  },
  {
   "property": "C03",
   "status": "proved",
   "theorems": [
    "C03_sample_one_interval",
    "C03_sample_unbiased"
   ],
   "note": ""
  },
  {
   "property": "C04",
   "status": "proved",
   "theorems": [
    "C04_sample_scale",
    "C04_log_offset_irrelevant"
   ],
   "note": ""
  },
  {
   "property": "C05",
   "status": "proved",
   "theorems": [
    "C05_zero_weight_never_drawn",
    "C05_zero_weight_at_zero_draw_refuted"
   ],
   "note": "Proved for draws in (0,1); refuted at the single draw 0."
  },
  {
   "property": "C06",
   "status": "proved",
   "theorems": [
    "C06_sample_binary64_valid",
    "C06_cumulative_sorted",
    "C06_sample_any_rounding"
   ],
   "note": ""
  },
  {
   "property": "C07",
   "status": "proved",
   "theorems": [
    "C07_neff_bounds"
   ],
   "note": ""
  },
  {
   "property": "C08",
   "status": "proved",
   "theorems": [
    "C08_resample"
   ],
   "note": ""
  },
  {
   "property": "C09",
   "status": "proved",
   "theorems": [
    "C09_resampled_iff",
    "C09_thresholds",
    "C09_auxiliary"
   ],
   "note": ""
  },
  {
   "property": "C10",
   "status": "proved",
   "theorems": [
    "C10_measure_multiplies"
   ],
   "note": ""
  },
  {
   "property": "C11",
   "status": "proved",
   "theorems": [
    "C11_finite_weights",
    "C11_nan_only_after_extinction",
    "C11_forward_step",
    "C11_resample_after_extinction"
   ],
   "note": ""
  },
  {
   "property": "C12",
   "status": "proved",
   "theorems": [
    "C12_auxiliary_offset",
    "C12_auxiliary_refuted",
    "C12_forward_likelihood",
    "C12_update_total"
   ],
   "note": "For the bootstrap filter as stated; C12_auxiliary_offset computes what weights and offset of the auxiliary filter represent (step without resampling), C12_auxiliary_refuted is the failure."
  },
  {
   "property": "C13",
   "status": "proved",
   "theorems": [
    "C13_bookkeeping"
   ],
   "note": ""
  },
  {
   "property": "C14",
   "status": "proved",
   "theorems": [
    "C14_simulate_smooths",
    "C14_simulate",
    "C14_simulate_meas_first",
    "C14_resampling_count",
    "C14_never_raises"
   ],
   "note": ""
  },
  {
   "property": "C15",
   "status": "proved",
   "theorems": [
    "C15_steps_well_formed",
    "C15_never_raises"
   ],
   "note": ""
  },
  {
   "property": "C16",
   "status": "proved",
   "theorems": [
    "C16_forward",
    "C16_forwards",
    "C16_history",
    "C16_object_particles_refuted",
    "C16_shared_weights_refuted",
    "C16_sir_buffer_refuted",
    "C16_smoothing",
    "C16_smoothing_unshared",
    "C16_history_smoothing"
   ],
   "note": "Proved for models meeting the stated frame contract, for filters and smoothers; three counterexamples show that each clause of the contract is needed (object particles sharing state, a shared weight array, a reused qsample buffer)."
  },
  {
   "property": "C17",
   "status": "proved",
   "theorems": [
    "C17_bootstrap_step",
    "C17_pfy_step",
    "C17_pfy_preallocated_refuted"
   ],
   "note": "The statement's second half (PFY with preallocated T) is the refuted theorem."
  },
  {
   "property": "C18",
   "status": "proved",
   "theorems": [
    "C18_filter_names",
    "C18_case_insensitive",
    "C18_filter_kind",
    "C18_conditional_needs_trajectory"
   ],
   "note": ""
  },
  {
   "property": "C19",
   "status": "proved",
   "theorems": [
    "C19_conditioned_path",
    "C19_cpf_ancestor",
    "C19_csiras_first_step_refuted"
   ],
   "note": "The exception for CSIRAS's first step is the refuted theorem."
  },
  {
   "property": "C20",
   "status": "proved",
   "theorems": [
    "C20_ancestor_law",
    "C20_ancestor_probability"
   ],
   "note": ""
  },
  {
   "property": "C21",
   "status": "proved",
   "theorems": [
    "C21_auxiliary_weights",
    "C21_needs_measurement"
   ],
   "note": ""
  },
  {
   "property": "C22",
   "status": "proved",
   "theorems": [
    "C22_sir_weights"
   ],
   "note": ""
  },
  {
   "property": "C23",
   "status": "proved",
   "theorems": [
    "C23_trajectory_law",
    "C23_lines_exist",
    "C23_ancestor_histories",
    "C23_end_points",
    "C23_ancestor_total"
   ],
   "note": ""
  },
  {
   "property": "C24",
   "status": "proved",
   "theorems": [
    "C24_bsi_full_valid",
    "C24_bsi_full_law"
   ],
   "note": ""
  },
  {
   "property": "C25",
   "status": "proved",
   "theorems": [
    "C25_bsi_rs_total",
    "C25_bsi_rs_law",
    "C25_find_ignored",
    "C25_wrong_future_refuted"
   ],
   "note": "Exact for future index lists 0..M-1, the only ones the library passes; refuted for other lists."
  },
  {
   "property": "C26",
   "status": "proved",
   "theorems": [
    "C26_rsas_terminates",
    "C26_zero_ratio_refuted",
    "C26_rsas_law"
   ],
   "note": "Needs ratio > 0; with ratio 0 the loop need not end (refuted)."
  },
  {
   "property": "C27",
   "status": "proved",
   "theorems": [
    "C27_bsi_mcmc_valid",
    "C27_bsi_mcmc_law",
    "C27_detailed_balance",
    "C27_stationary"
   ],
   "note": ""
  },
  {
   "property": "C28",
   "status": "proved",
   "theorems": [
    "C28_mh_move",
    "C28_acceptance_probability",
    "C28_detailed_balance",
    "C28_reduced_move",
    "C28_reduced_needs_information",
    "C28_mh_smoothers_total"
   ],
   "note": ""
  },
  {
   "property": "C29",
   "status": "proved",
   "theorems": [
    "C29_backward_particles",
    "C29_backward_total"
   ],
   "note": ""
  },
  {
   "property": "C30",
   "status": "proved",
   "theorems": [
    "C30_method_names",
    "C30_default_R30",
    "C30_mhips_reduced_R10",
    "C30_default_bounds"
   ],
   "note": ""
  },
  {
   "property": "C31",
   "status": "proved",
   "theorems": [
    "C31_single_step_mhips",
    "C31_single_step_mhbp"
   ],
   "note": ""
  },
  {
   "property": "C32",
   "status": "proved",
   "theorems": [
    "C32_filtered_weights",
    "C32_offset_invariant",
    "C32_filtered_mean",
    "C32_smoothed_mean"
   ],
   "note": ""
  },
  {
   "property": "C33",
   "status": "proved",
   "theorems": [
    "C33_measure_bayes",
    "C33_measure_likelihood",
    "C33_measure_no_C",
    "C33_rejects"
   ],
   "note": ""
  },
  {
   "property": "C34",
   "status": "proved",
   "theorems": [
    "C34_predict_moments"
   ],
   "note": ""
  },
  {
   "property": "C35",
   "status": "proved",
   "theorems": [
    "C35_psd_invariant",
    "C35_measure_shrinks"
   ],
   "note": ""
  },
  {
   "property": "C36",
   "status": "proved",
   "theorems": [
    "C36_scalar_agrees"
   ],
   "note": ""
  },
  {
   "property": "C37",
   "status": "proved",
   "theorems": [
    "C37_smooth_exact",
    "C37_smooth_moments"
   ],
   "note": ""
  },
  {
   "property": "C38",
   "status": "proved",
   "theorems": [
    "C38_dynamics_remembered",
    "C38_stored_used",
    "C38_time_update_refuted"
   ],
   "note": "Also: time_update always raises TypeError (refuted theorem)."
  },
  {
   "property": "C39",
   "status": "proved",
   "theorems": [
    "C39_same_density",
    "C39_vec",
    "C39_scalar"
   ],
   "note": ""
  },
  {
   "property": "C40",
   "status": "proved",
   "theorems": [
    "C40_measure_exact",
    "C40_measure_scalar",
    "C40_measure_scalar_refuted",
    "C40_xnext_exact",
    "C40_xnext_scalar",
    "C40_xnext_scalar_refuted"
   ],
   "note": "Multi-dimensional case proved; the scalar case is characterised exactly and refuted unless the variance is 1."
  },
  {
   "property": "C41",
   "status": "proved",
   "theorems": [
    "C41_hier_bound",
    "C41_hier_refuted",
    "C41_mlnlg_bound",
    "C41_nlg_bound",
    "C41_nlg_scalar"
   ],
   "note": "Proved for MLNLG and multi-dimensional NLG; exact conditions for scalar NLG and hierarchical models, refuted outside them."
  },
  {
   "property": "C42",
   "status": "proved",
   "theorems": [
    "C42_ltv_storage",
    "C42_rbpf_storage",
    "C42_rbpf_Mz"
   ],
   "note": ""
  },
  {
   "property": "C43",
   "status": "proved",
   "theorems": [
    "C43_constant_dynamics",
    "C43_last_step",
    "C43_time_varying_refuted"
   ],
   "note": "Constant dynamics proved; what is computed in general is characterised; refuted for time-varying dynamics."
  },
  {
   "property": "C44",
   "status": "proved",
   "theorems": [
    "C44_sample_smooth",
    "C44_single_exact",
    "C44_last_step",
    "C44_refuted",
    "C44_second_refuted"
   ],
   "note": "What is computed is characterised exactly; refuted for M >= 2."
  },
  {
   "property": "C45",
   "status": "proved",
   "theorems": [
    "C45_cond_predict",
    "C45_correlated_refuted"
   ],
   "note": "A and f proved, Q proved for uncorrelated noises; with correlated noises never right (refuted)."
  },
  {
   "property": "C46",
   "status": "proved",
   "theorems": [
    "C46_ltv_xnext",
    "C46_ltv_x0",
    "C46_ltv_y"
   ],
   "note": ""
  },
  {
   "property": "C47",
   "status": "proved",
   "theorems": [
    "C47_logprod",
    "C47_ltv_xnext",
    "C47_ltv_x0",
    "C47_ltv_y_refuted"
   ],
   "note": "Helpers and the LTV transition and initial terms proved; the LTV measurement gradient always raises (refuted)."
  },
  {
   "property": "C48",
   "status": "proved",
   "theorems": [
    "C48_process_noise",
    "C48_initial_scalar",
    "C48_initial_zero",
    "C48_initial_refuted",
    "C48_initial_density",
    "C48_initial_density_zero"
   ],
   "note": "Process noise proved; initial sampler refuted whenever the first state is correlated with another."
  },
  {
   "property": "C49",
   "status": "proved",
   "theorems": [
    "C49_step_sizes"
   ],
   "note": ""
  },
  {
   "property": "C50",
   "status": "proved",
   "theorems": [
    "C50_psaem_probability",
    "C50_psaem_weights"
   ],
   "note": ""
  },
  {
   "property": "C51",
   "status": "proved",
   "theorems": [
    "C51_discard"
   ],
   "note": ""
  },
  {
   "property": "C52",
   "status": "proved",
   "theorems": [
    "C52_em_calls",
    "C52_em_total",
    "C52_psaem_iterations",
    "C52_psaem_callback_never_stops",
    "C52_psaem_needs_options"
   ],
   "note": ""
  },
  {
   "property": "C53",
   "status": "proved",
   "theorems": [
    "C53_xnext_mean",
    "C53_y_mean",
    "C53_objective",
    "C53_maximize",
    "C53_xnext_gradient",
    "C53_y_gradient",
    "C53_fval_grad",
    "C53_fval_grad_right_iff",
    "C53_fval_grad_refuted",
    "C53_x0_sum_refuted",
    "C53_maximize_grad"
   ],
   "note": "Value proved for every parameter; the gradient is characterised exactly (iff) and refuted as a derivative in general."
  },
  {
   "property": "C54",
   "status": "proved",
   "theorems": [
    "C54_convolution",
    "C54_density",
    "C54_degenerate",
    "C54_one_degenerate"
   ],
   "note": ""
  },
  {
   "property": "C55",
   "status": "proved",
   "theorems": [
    "C55_transparent_and_counts",
    "C55_missing_methods_refuted",
    "C55_addition"
   ],
   "note": "Proved for every adaptive sequence of calls the wrapper has; the missing methods are the refuted theorem."
  },
  {
   "property": "C56",
   "status": "proved",
   "theorems": [
    "C56_find_best_returns_smallest",
    "C56_find_best_refuted"
   ],
   "note": "Refuted; what is returned instead (the n smallest) is proved."
  },
  {
   "property": "C57",
   "status": "proved",
   "theorems": [
    "C57_spawn_fails"
   ],
   "note": ""
  },
  {
   "property": "C58",
   "status": "proved",
   "theorems": [
    "C58_hook_counts",
    "C58_hook_once",
    "C58_hook_twice"
   ],
   "note": ""
  },
  {
   "property": "C59",
   "status": "proved",
   "theorems": [
    "C59_saem_refuted"
   ],
   "note": "Refuted for every model: every run with at least one iteration raises."
  },
  {
   "property": "C60",
   "status": "proved",
   "theorems": [
    "C60_psaem2_equals_psaem"
   ],
   "note": ""
  },
  {
   "property": "C61",
   "status": "proved",
   "theorems": [
    "C61_raoblackwell_refuted"
   ],
   "note": "Refuted: none of the trajectories comes from the simulation."
  },
  {
   "property": "C62",
   "status": "proved",
   "theorems": [
    "C62_ltv_is_kalman",
    "C62_initial",
    "C62_constant_matrices"
   ],
   "note": ""
  },
  {
   "property": "C63",
   "status": "proved",
   "theorems": [
    "C63_cond_predict_exact",
    "C63_update_exact",
    "C63_update_refuted"
   ],
   "note": "Proved for one nonlinear state and for overridden calc_xi_next; the library's own update raises for more (refuted)."
  },
  {
   "property": "C64",
   "status": "proved",
   "theorems": [
    "C64_logp_xnext",
    "C64_logp_singlestep",
    "C64_sample_smooth"
   ],
   "note": ""
  },
  {
   "property": "C65",
   "status": "proved",
   "theorems": [
    "C65_post_smoothing"
   ],
   "note": ""
  },
  {
   "property": "C66",
   "status": "proved",
   "theorems": [
    "C66_measure_exact",
    "C66_first_stage"
   ],
   "note": ""
  },
  {
   "property": "C67",
   "status": "proved",
   "theorems": [
    "C67_update",
    "C67_first_stage",
    "C67_proposal",
    "C67_proposal_initial"
   ],
   "note": ""
  },
  {
   "property": "C68",
   "status": "proved",
   "theorems": [
    "C68_measure_exact",
    "C68_update_exact",
    "C68_logp_xnext_exact"
   ],
   "note": ""
  },
  {
   "property": "C69",
   "status": "proved",
   "theorems": [
    "C69_sample_interval",
    "C69_resample_unbiased"
   ],
   "note": ""
  },
  {
   "property": "C70",
   "status": "proved",
   "theorems": [
    "C70_smoother_calls",
    "C70_backward_calls"
   ],
   "note": ""
  },
  {
   "property": "C71",
   "status": "proved",
   "theorems": [
    "C71_failed_forward",
    "C71_never_realigned",
    "C71_stuck",
    "C71_retry_misaligned"
   ],
   "note": ""
  },
  {
   "property": "C72",
   "status": "proved",
   "theorems": [
    "C72_xnext_value",
    "C72_y_value",
    "C72_x0_value",
    "C72_initial_gaussian"
   ],
   "note": ""
  },
  {
   "property": "C73",
   "status": "proved",
   "theorems": [
    "C73_xnext_grad",
    "C73_y_grad",
    "C73_y_grad_C_ignored",
    "C73_y_grad_C_refuted",
    "C73_y_grad_R_refuted",
    "C73_x0_grad",
    "C73_x0_value_refuted",
    "C73_xi0_grad"
   ],
   "note": "Proved where it holds; three refuted parts are listed in the statement."
  },
  {
   "property": "C74",
   "status": "proved",
   "theorems": [
    "C74_statistics",
    "C74_weight",
    "C74_weight_common",
    "C74_weight_refuted",
    "C74_two_states_refuted",
    "C74_no_measurement_refuted",
    "C74_preprocessed_refuted"
   ],
   "note": "The summary recursion is proved exact for one nonlinear state and present measurements; the four ways it fails are refuted theorems."
  },
  {
   "property": "C75",
   "status": "proved",
   "theorems": [
    "C75_proposal",
    "C75_cancels",
    "C75_initial",
    "C75_two_states_refuted"
   ],
   "note": "Proved for one nonlinear state; more raise ValueError (refuted)."
  },
  {
   "property": "C76",
   "status": "proved",
   "theorems": [
    "C76_matrices_in_effect",
    "C76_determined",
    "C76_as_if_new",
    "C76_not_copied_refuted"
   ],
   "note": "Proved for all histories; arrays of the linear part are not copied (refuted theorem)."
  },
  {
   "property": "C77",
   "status": "proved",
   "theorems": [
    "C77_curves",
    "C77_gradients",
    "C77_no_params",
    "C77_no_such_param"
   ],
   "note": ""
  },
  {
   "property": "C78",
   "status": "proved",
   "theorems": [
    "C78_history",
    "C78_call",
    "C78_steps",
    "C78_usual_model"
   ],
   "note": ""
  },
  {
   "property": "C79",
   "status": "proved",
   "theorems": [
    "C79_smoothing",
    "C79_calls",
    "C79_estimation",
    "C79_usual_model"
   ],
   "note": ""
  },
  {
   "property": "C80",
   "status": "proved",
   "theorems": [
    "C80_evidence_from_any_state",
    "C80_averages_exist",
    "C80_evidence_given_initial",
    "C80_evidence_unbiased"
   ],
   "note": "Bootstrap filter; finite measurement log-densities assumed (total collapse of the weights is C11); process noise and initial distribution enter as linear averages."
  },
  {
   "property": "C81",
   "status": "proved",
   "theorems": [
    "C81_trajectory_mean",
    "C81_one_trajectory",
    "C81_joint"
   ],
   "note": "Method 'full'; positive total backward weights assumed ('smoothable'), as in C29-C31."
  },
  {
   "property": "C82",
   "status": "proved",
   "theorems": [
    "C82_two_particles_cpf",
    "C82_two_particles_cpfas",
    "C82_iteration_unique",
    "C82_three_particles_refuted"
   ],
   "note": "Invariance proved for two particles; refuted for three (so not a consequence for N > 2). Finite log-densities; averages are linear functionals that may be interchanged."
  },
  {
   "property": "C83",
   "status": "proved",
   "theorems": [
    "C83_sir_from_any_state",
    "C83_averages_exist",
    "C83_sir_unbiased",
    "C83_sir_agrees_with_bootstrap"
   ],
   "note": "Models with the default callbacks (interfaces.ParticleFiltering + SIR). Finite log-densities; the densities of proposal and dynamics share a reference measure."
  },
  {
   "property": "C84",
   "status": "proved",
   "theorems": [
    "C84_gradient",
    "C84_work_arrays",
    "C84_no_linear_state_refuted"
   ],
   "note": "Exact arithmetic; the arrays passed in are distinct, as calc_l2_grad makes them; Cython's translation of the .pyx is trusted. C84_no_linear_state_refuted: the failure without linear states."
  },
  {
   "property": "C85",
   "status": "proved",
   "theorems": [
    "C85_call",
    "C85_history",
    "C85_no_stray_calls"
   ],
   "note": "After measure() the vectors of inputs that callbacks receive may have trailing padding (cells after the step reached), which is why the specification speaks of the inputs a vector shows. 'PFY' with preallocated T is left out of this claim because it is false there: the proposal gets the last preallocated slot (see the refuted theorem of C17)."
  },
  {
   "property": "C86",
   "status": "proved",
   "theorems": [
    "C86_call",
    "C86_mean",
    "C86_proportional",
    "C86_averages_exist",
    "C86_conditional_refuted"
   ],
   "note": "Restricted to pt_init without T (with T, 'PFY' proposes from the last preallocated slot: the refuted theorem of C17). The estimate covers calls of forward; measure() may occur in the past (it appends a freshly proposed step). C86_conditional_refuted: with propose_from_y drawing from p(x_t|y_t), as documented, the normalised estimate is (1/5, 4/5) where the filter distribution is (1/3, 2/3), for every number of particles."
  },
  {
   "property": "C87",
   "status": "proved",
   "theorems": [
    "C87_from_any_state",
    "C87_averages_exist",
    "C87_one_call",
    "C87_given_initial",
    "C87_unbiased"
   ],
   "note": "Stated for models with scalar-per-particle callbacks (eval_1st_stage_weights as a map over particles) and any T. The factor is not offered by the library; it uses the stored particles, weights and ancestors, the returned flag, and the model's own densities."
  },
  {
   "property": "C88",
   "status": "proved",
   "theorems": [
    "C88_paths_from_any_state",
    "C88_averages_exist",
    "C88_paths_given_initial",
    "C88_paths_unbiased",
    "C88_drawn_trajectories"
   ],
   "note": ""
  }
 ]
}