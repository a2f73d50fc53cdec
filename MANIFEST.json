{
 "claims": [
  {
   "property": "C01",
   "status": "proved",
   "theorems": [
    "C01_sqp_direction_kkt",
    "C01_C02_sqp_every_round"
   ],
   "note": ""
  },
  {
   "property": "C02",
   "status": "proved",
   "theorems": [
    "C02_sqp_direction_unique_minimiser",
    "C01_C02_sqp_every_round"
   ],
   "note": ""
  },
  {
   "property": "C03",
   "status": "proved",
   "theorems": [
    "C03_convex_backward_pass"
   ],
   "note": ""
  },
  {
   "property": "C04",
   "status": "proved",
   "theorems": [
    "C04_sqp_Vxx_symmetric",
    "C04_backward_Vxx",
    "C04_csqp_Vxx"
   ],
   "note": "The positive-semidefinite part is C04_backward_Vxx (SQP/DDP) and the second conjunct of C04_csqp_Vxx."
  },
  {
   "property": "C05",
   "status": "proved",
   "theorems": [
    "C05_direction_zero_at_kkt",
    "C05_kkt_at_zero_direction"
   ],
   "note": ""
  },
  {
   "property": "C06",
   "status": "proved",
   "theorems": [
    "C06_kkt_norm",
    "C06_kkt_nonneg",
    "C06_ckkt_norm",
    "C06_ckkt_nonneg",
    "C06_sqp_check",
    "C06_csqp_check"
   ],
   "note": "Exact arithmetic."
  },
  {
   "property": "C07",
   "status": "proved",
   "theorems": [
    "C07_sqp_values_guarded",
    "C07_csqp_certifies_nan"
   ],
   "note": "SolverCSQP part is a counterexample."
  },
  {
   "property": "C08",
   "status": "proved",
   "theorems": [
    "C08_sqp_true_means_kkt",
    "C08_sqp_true_componentwise",
    "C08_sqp_stale_certificate"
   ],
   "note": "Proved under the condition that the last line search accepted a step; refuted (binary64 run, default parameters) without it."
  },
  {
   "property": "C09",
   "status": "proved",
   "theorems": [
    "C09_csqp_true_means_small_residual",
    "C09_csqp_true_componentwise"
   ],
   "note": ""
  },
  {
   "property": "C10",
   "status": "proved",
   "theorems": [
    "C10_sqp_initial_state_pinned",
    "C10_csqp_initial_state_pinned",
    "C10_nan_step_moves_x0"
   ],
   "note": ""
  },
  {
   "property": "C11",
   "status": "proved",
   "theorems": [
    "C11_sqp_unit_step_solves_lq",
    "C11_sqp_lq_one_line_search"
   ],
   "note": "Exact arithmetic, Euclidean states."
  },
  {
   "property": "C12",
   "status": "proved",
   "theorems": [
    "C12_sqp_defects_scale",
    "C12_csqp_defects_scale"
   ],
   "note": "Exact arithmetic, Euclidean states."
  },
  {
   "property": "C13",
   "status": "proved",
   "theorems": [
    "C13_C14_sqp_line_search",
    "C13_sqp_merit_decrease",
    "C13_C14_csqp_line_search",
    "C13_csqp_merit_decrease"
   ],
   "note": ""
  },
  {
   "property": "C14",
   "status": "proved",
   "theorems": [
    "C14_sqp_filter_undominated",
    "C14_sqp_solve_safe",
    "C14_csqp_filter_undominated",
    "C14_csqp_solve_safe"
   ],
   "note": ""
  },
  {
   "property": "C15",
   "status": "proved",
   "theorems": [
    "C15_filter_entries",
    "C15_filter_reads",
    "C15_shrunk_filter_reads_older_iterates",
    "C15_resizing_back_breaks_solve",
    "C14_sqp_filter_undominated",
    "C14_csqp_filter_undominated"
   ],
   "note": ""
  },
  {
   "property": "C16",
   "status": "proved",
   "theorems": [
    "C16_sqp_retries_bounded",
    "C16_csqp_retries_bounded",
    "C16_csqp_no_retry_without_regularisation",
    "C16_zero_regularisation_never_returns",
    "C16_zero_reg_min_never_returns",
    "C16_rounding_never_returns"
   ],
   "note": ""
  },
  {
   "property": "C17",
   "status": "proved",
   "theorems": [
    "C17_sqp_regularisation_range",
    "C17_csqp_regularisation_range"
   ],
   "note": ""
  },
  {
   "property": "C18",
   "status": "proved",
   "theorems": [
    "C18_sqp_iteration_budget",
    "C18_csqp_iteration_budget"
   ],
   "note": ""
  },
  {
   "property": "C19",
   "status": "proved",
   "theorems": [
    "C19_sqp_callback_protocol",
    "C19_csqp_callback_protocol"
   ],
   "note": ""
  },
  {
   "property": "C20",
   "status": "proved",
   "theorems": [
    "C20_setter_call",
    "C20_any_sequence",
    "C20_no_undefined",
    "C20_range_invariant",
    "C20_defaults_in_range",
    "C20_nan_accepted",
    "C20_first_step_length_unchecked"
   ],
   "note": ""
  },
  {
   "property": "C21",
   "status": "proved",
   "theorems": [
    "C21_sqp_accepted_cost_finite",
    "C21_csqp_accepted_cost_finite",
    "C21_proxqp_accepted_cost_finite",
    "C21_ddp_candidate_finite",
    "C21_fddp_candidate_finite"
   ],
   "note": ""
  },
  {
   "property": "C22",
   "status": "proved",
   "theorems": [
    "C22_sqp_values_carried",
    "C22_csqp_values_carried"
   ],
   "note": ""
  },
  {
   "property": "C23",
   "status": "proved",
   "theorems": [
    "C23_admm_primal_step"
   ],
   "note": ""
  },
  {
   "property": "C24",
   "status": "proved",
   "theorems": [
    "C24_fast_pass_equals_full_pass"
   ],
   "note": "Every interpretation of the arithmetic, binary64 included (vec0_float)."
  },
  {
   "property": "C25",
   "status": "proved",
   "theorems": [
    "C25_fast_pass_mt",
    "C25_full_pass_mt",
    "C25_fast_pass_any_schedule",
    "C25_full_pass_deterministic",
    "C25_full_pass_any_schedule",
    "C25_dual_update_any_schedule",
    "C25_dual_update_any_schedule_binary64",
    "C25_threads_change_solve_binary64"
   ],
   "note": ""
  },
  {
   "property": "C26",
   "status": "proved",
   "theorems": [
    "C26_fast_pass_fresh_factorisation"
   ],
   "note": ""
  },
  {
   "property": "C27",
   "status": "proved",
   "theorems": [
    "C27_complementary_rows"
   ],
   "note": ""
  },
  {
   "property": "C28",
   "status": "proved",
   "theorems": [
    "C28_C29_C37_penalties"
   ],
   "note": "Rows with lb <= ub; rows with lb > ub + 1e-6 keep their old value."
  },
  {
   "property": "C29",
   "status": "proved",
   "theorems": [
    "C28_C29_C37_penalties",
    "C29_positive",
    "C29_after_iteration"
   ],
   "note": ""
  },
  {
   "property": "C30",
   "status": "proved",
   "theorems": [
    "C30_qp_iters",
    "C30_executed",
    "C30_qp_iters_exceeds_budget",
    "C30_negative_budget"
   ],
   "note": "The unconditional equality fails on exhaustion (max+1): proved exactly when, with a binary64 counterexample."
  },
  {
   "property": "C31",
   "status": "proved",
   "theorems": [
    "C31_csqp_time_limit"
   ],
   "note": ""
  },
  {
   "property": "C32",
   "status": "proved",
   "theorems": [
    "C32_csqp_steplength_constant",
    "C32_csqp_steplength_not_reported"
   ],
   "note": "The property fails: the member is never written. Proved what it is instead, and the counterexample."
  },
  {
   "property": "C33",
   "status": "proved",
   "theorems": [
    "C33_constructor"
   ],
   "note": ""
  },
  {
   "property": "C34",
   "status": "proved",
   "theorems": [
    "C34_rho_sparse_ignored"
   ],
   "note": "The property fails: proved that the setter never has an effect on the next solve."
  },
  {
   "property": "C35",
   "status": "proved",
   "theorems": [
    "C35_stationary_iteration"
   ],
   "note": ""
  },
  {
   "property": "C36",
   "status": "proved",
   "theorems": [
    "C36_true_without_complementarity",
    "C27_complementary_rows"
   ],
   "note": "The property fails (binary64 run with default parameters); what holds instead is complementarity of the QP variable z, C27."
  },
  {
   "property": "C37",
   "status": "proved",
   "theorems": [
    "C28_C29_C37_penalties"
   ],
   "note": ""
  },
  {
   "property": "C38",
   "status": "proved",
   "theorems": [
    "C38_exact_trial_values",
    "C38_exact_nonneg_trial",
    "C38_every_schedule_has_an_outcome",
    "C38_nan_trial_kills_process",
    "C38_rounding_depends_on_schedule",
    "C38_thread_count_decides_termination"
   ],
   "note": "Positive part in exact arithmetic; the unconditional claim is refuted."
  },
  {
   "property": "C39",
   "status": "proved",
   "theorems": [
    "C39_sqp_solve_forgets_the_past"
   ],
   "note": ""
  },
  {
   "property": "C40",
   "status": "proved",
   "theorems": [
    "C40_qp_is_subproblem",
    "C40_objective_and_dynamics",
    "C40_direction_solves",
    "layout_uniform",
    "C40_varying_controls_wrong"
   ],
   "note": "Exact arithmetic; backend is a parameter. Fails for varying control dimensions (counterexample)."
  },
  {
   "property": "C41",
   "status": "proved",
   "theorems": [
    "C41_kkt_norm",
    "C41_round",
    "C41_certificate",
    "C41_exposed_multipliers_uncertified"
   ],
   "note": "Exact arithmetic. The property with the exposed multipliers fails (counterexample)."
  },
  {
   "property": "C42",
   "status": "proved",
   "theorems": [
    "C42_system",
    "C42_direction_solves_lq",
    "C42_convex_unique_minimiser"
   ],
   "note": "Exact arithmetic; the LU solver is a parameter assumed to solve invertible systems."
  },
  {
   "property": "C43",
   "status": "proved",
   "theorems": [
    "C43_reported_residual",
    "C43_zero_direction_residual",
    "C43_infeasible_candidate_certified",
    "C43_optimum_not_certified"
   ],
   "note": "The intended property fails; what the residual measures is proved, with both counterexamples."
  },
  {
   "property": "C44",
   "status": "proved",
   "theorems": [
    "C44_solve_ends",
    "C44_raise_keeps_old_system",
    "C44_true_after_raise",
    "C44_raising_guess_returned_as_solution"
   ],
   "note": "Termination proved; 'returns false' fails, with a counterexample."
  },
  {
   "property": "C45",
   "status": "proved",
   "theorems": [
    "C45_ddp_solve_is_a_chain_of_rollouts",
    "C45_ddp_candidate_is_guess_or_rollout"
   ],
   "note": ""
  },
  {
   "property": "C46",
   "status": "proved",
   "theorems": [
    "C46_fddp_filter_measures_motion",
    "C55_fddp_step_contracts_gaps"
   ],
   "note": "The property fails (binary64 run, default parameters): the trial gap norm is the motion along the trial.  What the gaps of the trial really are is C55."
  },
  {
   "property": "C47",
   "status": "proved",
   "theorems": [
    "C47_ddp_trial_decrease",
    "C47_ddp_lq_accepts_first",
    "C47_ddp_lq_step",
    "C47_ddp_lq_solve"
   ],
   "note": ""
  },
  {
   "property": "C48",
   "status": "proved",
   "theorems": [
    "C48_safe_partial",
    "C48_ddp_fddp_undefined",
    "C48_sqp_line",
    "C48_csqp_line",
    "C48_ddp_calls"
   ],
   "note": "The property fails for SolverDDP and SolverFDDP (proved undefined); proved for the other two."
  },
  {
   "property": "C49",
   "status": "proved",
   "theorems": [
    "C49_column_width",
    "C49_fitting_label",
    "C49_label_kept",
    "C49_wide_headers",
    "C49_default_header_ragged",
    "C49_precision",
    "C49_overflow"
   ],
   "note": ""
  },
  {
   "property": "C50",
   "status": "proved",
   "theorems": [
    "C50_sqp_step_out_of_range",
    "C50_sqp_step_in_range_frame",
    "C50_csqp_step_out_of_range",
    "C50_csqp_step_frame",
    "C50_proxqp_step_range",
    "C50_ddp_step_range",
    "C50_fddp_step_range",
    "C50_nan_passes_range_test",
    "C50_nan_step_returns"
   ],
   "note": ""
  },
  {
   "property": "C51",
   "status": "proved",
   "theorems": [
    "C51_ddp_success_certificate",
    "C51_ddp_optimal_guess_not_recognised"
   ],
   "note": "The converse fails (binary64 run)."
  },
  {
   "property": "C53",
   "status": "proved",
   "theorems": [
    "C53_convex_iteration_no_exception",
    "C53_convex_guess_no_exception",
    "C53_convex_direction_no_exception"
   ],
   "note": ""
  },
  {
   "property": "C54",
   "status": "proved",
   "theorems": [
    "C54_equality_guess"
   ],
   "note": ""
  },
  {
   "property": "C55",
   "status": "proved",
   "theorems": [
    "C55_fddp_solve_is_a_chain",
    "C55_fddp_feasible_mark_is_truthful",
    "C55_fddp_success_certificate",
    "C55_usable_objects",
    "C55_fddp_step_contracts_gaps",
    "C55_fddp_stale_cost"
   ],
   "note": "Contraction in exact arithmetic on manifolds with diff(x+v,x) = -v; the chain for any arithmetic."
  },
  {
   "property": "C56",
   "status": "proved",
   "theorems": [
    "C56_ddp_expected_decrease",
    "C56_ddp_accepted_step_descends",
    "C56_ddp_solve_descends",
    "C56_ddp_final_cost"
   ],
   "note": ""
  },
  {
   "property": "C57",
   "status": "proved",
   "theorems": [
    "C57_sqp_false_means_exhausted",
    "C57_csqp_false_means_exhausted",
    "C57_csqp_time_limit_needs_clock"
   ],
   "note": ""
  },
  {
   "property": "C58",
   "status": "proved",
   "theorems": [
    "C58_question_ignores_regularisation",
    "C58_retries_never_help"
   ],
   "note": "The backend is a deterministic function of the QP: the code builds a fresh QP object at each call."
  },
  {
   "property": "C59",
   "status": "proved",
   "theorems": [
    "C59_iteration_approaches_solutions",
    "C59_fixed_penalty",
    "C59_converges",
    "C59_some_budget_suffices",
    "C59_hypotheses_met"
   ],
   "note": "Exact arithmetic."
  },
  {
   "property": "C60",
   "status": "proved",
   "theorems": [
    "C60_termination_test",
    "C60_no_rows_test_succeeds",
    "C60_no_rows_solution_is_stationary",
    "C60_hypotheses_met",
    "C60_no_rows_hypotheses_met"
   ],
   "note": "Exact arithmetic."
  },
  {
   "property": "C61",
   "status": "proved",
   "theorems": [
    "C61_ddp_control",
    "C61_fddp_control",
    "C61_ddp_regularisation_range",
    "C61_fddp_regularisation_range",
    "C61_ddp_retries_bounded",
    "C61_fddp_retries_bounded",
    "C61_parameters_met",
    "C61_runs"
   ],
   "note": "Control flow for any arithmetic; regularisation range and retry bound for exact arithmetic."
  },
  {
   "property": "C62",
   "status": "proved",
   "theorems": [
    "C62_csqp_solve_forgets_the_past",
    "C62_settled_rows",
    "C62_ordered_rows_settled",
    "C62_default_solve_remembers_y"
   ],
   "note": "Any arithmetic; C62_settled_rows says in exact arithmetic which rows are settled; C62_default_solve_remembers_y is a binary64 run showing that the hypothesis on y is needed.  With maxiter 0 the clock must never fire."
  },
  {
   "property": "C63",
   "status": "proved",
   "theorems": [
    "C63_proxqp_run",
    "C63_step_taken"
   ],
   "note": "Exact arithmetic; the backend is any function of the QP (it may fail)."
  },
  {
   "property": "C64",
   "status": "proved",
   "theorems": [
    "C64_kkt_run",
    "C64_step_taken"
   ],
   "note": "Exact arithmetic; the LU solve is any function, the models raise by an arbitrary oracle.  Starting guesses at which the models raise are C44."
  },
  {
   "property": "C65",
   "status": "proved",
   "theorems": [
    "C65_proxqp_solve_forgets_the_past",
    "C65_used_object"
   ],
   "note": "Exact arithmetic; the backend is a function of the QP (a fresh proxsuite object is constructed at each call).  C65_used_object applies it to the run of C63_step_taken: a fresh object and one that was given another candidate and evaluated there."
  },
  {
   "property": "C66",
   "status": "proved",
   "theorems": [
    "C66_sqp_filter_accepts_nan_gap",
    "C66_sqp_merit_rejects_nan_gap",
    "C66_csqp_filter_accepts_nan",
    "C66_csqp_merit_rejects_nan",
    "C66_sqp_stuck_at_nan",
    "C66_csqp_converges_at_nan"
   ],
   "note": "binary64.  The last theorem also rests on the modelled NaN behaviour of std::max and lpNorm<Infinity> (DESIGN.md)."
  },
  {
   "property": "C67",
   "status": "proved",
   "theorems": [
    "C67_interval_zero_crashes",
    "C67_interval_zero_undefined"
   ],
   "note": "Division by zero is the outcome UB of the model.  C14_csqp_solve_safe is the converse: with a non-zero interval no call of solve is undefined.  Endings other than UB include a retry loop that outlives the model's fuel."
  }
 ]
}