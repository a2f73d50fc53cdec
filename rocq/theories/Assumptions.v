(** Generated by tools/manifest.py: the assumptions of every theorem of MANIFEST.json. *)
From Verif Require CSQPExit.
From Verif Require ConvexQP.
From Verif Require Exit.
From Verif Require KKTNorm.
From Verif Require P_ADMM.
From Verif Require P_Affine.
From Verif Require P_AffineCSQP.
From Verif Require P_CIndep.
From Verif Require P_CIndepExact.
From Verif Require P_CIndepWitness.
From Verif Require P_CSQPSolve.
From Verif Require P_Callbacks.
From Verif Require P_Converge.
From Verif Require P_ConvergeWitness.
From Verif Require P_DDP.
From Verif Require P_DDPControl.
From Verif Require P_DDPDescent.
From Verif Require P_DDPFloat.
From Verif Require P_Direction.
From Verif Require P_Diverge.
From Verif Require P_FDDP.
From Verif Require P_FDDPExact.
From Verif Require P_FDDPFloat.
From Verif Require P_Filter.
From Verif Require P_Indep.
From Verif Require P_Interval.
From Verif Require P_KKT.
From Verif Require P_KKTRunWitness.
From Verif Require P_KKTSolve.
From Verif Require P_KKTWitness.
From Verif Require P_NanGap.
From Verif Require P_NanStep.
From Verif Require P_PIndep.
From Verif Require P_PROXCert.
From Verif Require P_PROXQP.
From Verif Require P_PROXRunWitness.
From Verif Require P_PROXSolve.
From Verif Require P_PROXTrial.
From Verif Require P_PROXWitness.
From Verif Require P_Parallel.
From Verif Require P_ParallelFloat.
From Verif Require P_ParallelNorms.
From Verif Require P_ParallelWitness.
From Verif Require P_QPLoop.
From Verif Require P_QPStop.
From Verif Require P_Retry.
From Verif Require P_RollFinite.
From Verif Require P_SQPRounds.
From Verif Require P_SQPSolve.
From Verif Require P_Setters.
From Verif Require P_Stale.
Print Assumptions P_Direction.C01_sqp_direction_kkt.
Print Assumptions P_SQPRounds.C01_C02_sqp_every_round.
Print Assumptions P_Direction.C02_sqp_direction_unique_minimiser.
Print Assumptions P_Direction.C03_convex_backward_pass.
Print Assumptions P_Direction.C04_sqp_Vxx_symmetric.
Print Assumptions P_Direction.C04_backward_Vxx.
Print Assumptions P_ADMM.C04_csqp_Vxx.
Print Assumptions P_Direction.C05_direction_zero_at_kkt.
Print Assumptions P_Direction.C05_kkt_at_zero_direction.
Print Assumptions KKTNorm.C06_kkt_norm.
Print Assumptions KKTNorm.C06_kkt_nonneg.
Print Assumptions KKTNorm.C06_ckkt_norm.
Print Assumptions KKTNorm.C06_ckkt_nonneg.
Print Assumptions KKTNorm.C06_sqp_check.
Print Assumptions KKTNorm.C06_csqp_check.
Print Assumptions P_SQPRounds.C07_sqp_values_guarded.
Print Assumptions P_SQPRounds.C07_csqp_certifies_nan.
Print Assumptions P_SQPSolve.C08_sqp_true_means_kkt.
Print Assumptions KKTNorm.C08_sqp_true_componentwise.
Print Assumptions P_Stale.C08_sqp_stale_certificate.
Print Assumptions P_CSQPSolve.C09_csqp_true_means_small_residual.
Print Assumptions KKTNorm.C09_csqp_true_componentwise.
Print Assumptions P_SQPSolve.C10_sqp_initial_state_pinned.
Print Assumptions P_CSQPSolve.C10_csqp_initial_state_pinned.
Print Assumptions P_NanStep.C10_nan_step_moves_x0.
Print Assumptions P_Affine.C11_sqp_unit_step_solves_lq.
Print Assumptions P_Affine.C11_sqp_lq_one_line_search.
Print Assumptions P_Affine.C12_sqp_defects_scale.
Print Assumptions P_AffineCSQP.C12_csqp_defects_scale.
Print Assumptions P_SQPSolve.C13_C14_sqp_line_search.
Print Assumptions P_SQPSolve.C13_sqp_merit_decrease.
Print Assumptions P_CSQPSolve.C13_C14_csqp_line_search.
Print Assumptions P_CSQPSolve.C13_csqp_merit_decrease.
Print Assumptions P_SQPSolve.C14_sqp_filter_undominated.
Print Assumptions P_SQPSolve.C14_sqp_solve_safe.
Print Assumptions P_CSQPSolve.C14_csqp_filter_undominated.
Print Assumptions P_CSQPSolve.C14_csqp_solve_safe.
Print Assumptions P_Filter.C15_filter_entries.
Print Assumptions P_Filter.C15_filter_reads.
Print Assumptions P_Filter.C15_shrunk_filter_reads_older_iterates.
Print Assumptions P_Filter.C15_resizing_back_breaks_solve.
Print Assumptions P_Retry.C16_sqp_retries_bounded.
Print Assumptions P_Retry.C16_csqp_retries_bounded.
Print Assumptions P_Retry.C16_csqp_no_retry_without_regularisation.
Print Assumptions P_Diverge.C16_zero_regularisation_never_returns.
Print Assumptions P_Diverge.C16_zero_reg_min_never_returns.
Print Assumptions P_Diverge.C16_rounding_never_returns.
Print Assumptions P_SQPRounds.C17_sqp_regularisation_range.
Print Assumptions P_SQPRounds.C17_csqp_regularisation_range.
Print Assumptions P_SQPSolve.C18_sqp_iteration_budget.
Print Assumptions P_CSQPSolve.C18_csqp_iteration_budget.
Print Assumptions P_SQPSolve.C19_sqp_callback_protocol.
Print Assumptions P_CSQPSolve.C19_csqp_callback_protocol.
Print Assumptions P_Setters.C20_setter_call.
Print Assumptions P_Setters.C20_any_sequence.
Print Assumptions P_Setters.C20_no_undefined.
Print Assumptions P_Setters.C20_range_invariant.
Print Assumptions P_Setters.C20_defaults_in_range.
Print Assumptions P_Setters.C20_nan_accepted.
Print Assumptions P_Setters.C20_first_step_length_unchecked.
Print Assumptions P_SQPSolve.C21_sqp_accepted_cost_finite.
Print Assumptions P_CSQPSolve.C21_csqp_accepted_cost_finite.
Print Assumptions P_PROXTrial.C21_proxqp_accepted_cost_finite.
Print Assumptions P_RollFinite.C21_ddp_candidate_finite.
Print Assumptions P_RollFinite.C21_fddp_candidate_finite.
Print Assumptions P_SQPSolve.C22_sqp_values_carried.
Print Assumptions P_CSQPSolve.C22_csqp_values_carried.
Print Assumptions P_ADMM.C23_admm_primal_step.
Print Assumptions P_ADMM.C24_fast_pass_equals_full_pass.
Print Assumptions P_ADMM.C25_fast_pass_mt.
Print Assumptions P_ADMM.C25_full_pass_mt.
Print Assumptions P_Parallel.C25_fast_pass_any_schedule.
Print Assumptions P_Parallel.C25_full_pass_deterministic.
Print Assumptions P_Parallel.C25_full_pass_any_schedule.
Print Assumptions P_Parallel.C25_dual_update_any_schedule.
Print Assumptions P_ParallelNorms.C25_dual_update_any_schedule_binary64.
Print Assumptions P_ParallelWitness.C25_threads_change_solve_binary64.
Print Assumptions P_ADMM.C26_fast_pass_fresh_factorisation.
Print Assumptions P_ADMM.C27_complementary_rows.
Print Assumptions P_ADMM.C28_C29_C37_penalties.
Print Assumptions P_ADMM.C29_positive.
Print Assumptions P_ADMM.C29_after_iteration.
Print Assumptions P_QPLoop.C30_qp_iters.
Print Assumptions P_QPLoop.C30_executed.
Print Assumptions P_QPLoop.C30_qp_iters_exceeds_budget.
Print Assumptions P_QPLoop.C30_negative_budget.
Print Assumptions P_CSQPSolve.C31_csqp_time_limit.
Print Assumptions P_CSQPSolve.C32_csqp_steplength_constant.
Print Assumptions P_CSQPSolve.C32_csqp_steplength_not_reported.
Print Assumptions P_QPLoop.C33_constructor.
Print Assumptions P_QPLoop.C34_rho_sparse_ignored.
Print Assumptions P_ADMM.C35_stationary_iteration.
Print Assumptions P_QPLoop.C36_true_without_complementarity.
Print Assumptions P_Parallel.C38_exact_trial_values.
Print Assumptions P_Parallel.C38_exact_nonneg_trial.
Print Assumptions P_ParallelFloat.C38_every_schedule_has_an_outcome.
Print Assumptions P_ParallelFloat.C38_nan_trial_kills_process.
Print Assumptions P_ParallelFloat.C38_rounding_depends_on_schedule.
Print Assumptions P_ParallelFloat.C38_thread_count_decides_termination.
Print Assumptions P_Indep.C39_sqp_solve_forgets_the_past.
Print Assumptions P_PROXQP.C40_qp_is_subproblem.
Print Assumptions P_PROXQP.C40_objective_and_dynamics.
Print Assumptions P_PROXQP.C40_direction_solves.
Print Assumptions P_PROXQP.layout_uniform.
Print Assumptions P_PROXWitness.C40_varying_controls_wrong.
Print Assumptions P_PROXCert.C41_kkt_norm.
Print Assumptions P_PROXCert.C41_round.
Print Assumptions P_PROXCert.C41_certificate.
Print Assumptions P_PROXWitness.C41_exposed_multipliers_uncertified.
Print Assumptions P_KKT.C42_system.
Print Assumptions P_KKT.C42_direction_solves_lq.
Print Assumptions P_KKT.C42_convex_unique_minimiser.
Print Assumptions P_KKT.C43_reported_residual.
Print Assumptions P_KKT.C43_zero_direction_residual.
Print Assumptions P_KKTWitness.C43_infeasible_candidate_certified.
Print Assumptions P_KKTWitness.C43_optimum_not_certified.
Print Assumptions P_KKT.C44_solve_ends.
Print Assumptions P_KKT.C44_raise_keeps_old_system.
Print Assumptions P_KKT.C44_true_after_raise.
Print Assumptions P_KKTWitness.C44_raising_guess_returned_as_solution.
Print Assumptions P_DDP.C45_ddp_solve_is_a_chain_of_rollouts.
Print Assumptions P_DDP.C45_ddp_candidate_is_guess_or_rollout.
Print Assumptions P_FDDPFloat.C46_fddp_filter_measures_motion.
Print Assumptions P_FDDPExact.C55_fddp_step_contracts_gaps.
Print Assumptions P_DDPDescent.C47_ddp_trial_decrease.
Print Assumptions P_DDPDescent.C47_ddp_lq_accepts_first.
Print Assumptions P_DDPDescent.C47_ddp_lq_step.
Print Assumptions P_DDPDescent.C47_ddp_lq_solve.
Print Assumptions P_Callbacks.C48_safe_partial.
Print Assumptions P_Callbacks.C48_ddp_fddp_undefined.
Print Assumptions P_Callbacks.C48_sqp_line.
Print Assumptions P_Callbacks.C48_csqp_line.
Print Assumptions P_Callbacks.C48_ddp_calls.
Print Assumptions P_Callbacks.C49_column_width.
Print Assumptions P_Callbacks.C49_fitting_label.
Print Assumptions P_Callbacks.C49_label_kept.
Print Assumptions P_Callbacks.C49_wide_headers.
Print Assumptions P_Callbacks.C49_default_header_ragged.
Print Assumptions P_Callbacks.C49_precision.
Print Assumptions P_Callbacks.C49_overflow.
Print Assumptions P_SQPSolve.C50_sqp_step_out_of_range.
Print Assumptions P_SQPSolve.C50_sqp_step_in_range_frame.
Print Assumptions P_CSQPSolve.C50_csqp_step_out_of_range.
Print Assumptions P_CSQPSolve.C50_csqp_step_frame.
Print Assumptions P_PROXTrial.C50_proxqp_step_range.
Print Assumptions P_RollFinite.C50_ddp_step_range.
Print Assumptions P_RollFinite.C50_fddp_step_range.
Print Assumptions P_NanStep.C50_nan_passes_range_test.
Print Assumptions P_NanStep.C50_nan_step_returns.
Print Assumptions P_DDP.C51_ddp_success_certificate.
Print Assumptions P_DDPFloat.C51_ddp_optimal_guess_not_recognised.
Print Assumptions P_ADMM.C53_convex_iteration_no_exception.
Print Assumptions P_ADMM.C53_convex_guess_no_exception.
Print Assumptions ConvexQP.C53_convex_direction_no_exception.
Print Assumptions P_ADMM.C54_equality_guess.
Print Assumptions P_FDDP.C55_fddp_solve_is_a_chain.
Print Assumptions P_FDDP.C55_fddp_feasible_mark_is_truthful.
Print Assumptions P_FDDP.C55_fddp_success_certificate.
Print Assumptions P_FDDP.C55_usable_objects.
Print Assumptions P_FDDPFloat.C55_fddp_stale_cost.
Print Assumptions P_DDPDescent.C56_ddp_expected_decrease.
Print Assumptions P_DDPDescent.C56_ddp_accepted_step_descends.
Print Assumptions P_DDPDescent.C56_ddp_solve_descends.
Print Assumptions P_DDPDescent.C56_ddp_final_cost.
Print Assumptions Exit.C57_sqp_false_means_exhausted.
Print Assumptions CSQPExit.C57_csqp_false_means_exhausted.
Print Assumptions CSQPExit.C57_csqp_time_limit_needs_clock.
Print Assumptions P_PROXCert.C58_question_ignores_regularisation.
Print Assumptions P_PROXCert.C58_retries_never_help.
Print Assumptions P_Converge.C59_iteration_approaches_solutions.
Print Assumptions P_Converge.C59_fixed_penalty.
Print Assumptions P_Converge.C59_converges.
Print Assumptions P_Converge.C59_some_budget_suffices.
Print Assumptions P_ConvergeWitness.C59_hypotheses_met.
Print Assumptions P_QPStop.C60_termination_test.
Print Assumptions P_QPStop.C60_no_rows_test_succeeds.
Print Assumptions P_QPStop.C60_no_rows_solution_is_stationary.
Print Assumptions P_ConvergeWitness.C60_hypotheses_met.
Print Assumptions P_ConvergeWitness.C60_no_rows_hypotheses_met.
Print Assumptions P_DDPControl.C61_ddp_control.
Print Assumptions P_DDPControl.C61_fddp_control.
Print Assumptions P_DDPControl.C61_ddp_regularisation_range.
Print Assumptions P_DDPControl.C61_fddp_regularisation_range.
Print Assumptions P_DDPControl.C61_ddp_retries_bounded.
Print Assumptions P_DDPControl.C61_fddp_retries_bounded.
Print Assumptions P_DDPControl.C61_parameters_met.
Print Assumptions P_DDPControl.C61_runs.
Print Assumptions P_CIndep.C62_csqp_solve_forgets_the_past.
Print Assumptions P_CIndepExact.C62_settled_rows.
Print Assumptions P_CIndepExact.C62_ordered_rows_settled.
Print Assumptions P_CIndepWitness.C62_default_solve_remembers_y.
Print Assumptions P_PROXSolve.C63_proxqp_run.
Print Assumptions P_PROXRunWitness.C63_step_taken.
Print Assumptions P_KKTSolve.C64_kkt_run.
Print Assumptions P_KKTRunWitness.C64_step_taken.
Print Assumptions P_PIndep.C65_proxqp_solve_forgets_the_past.
Print Assumptions P_PIndep.C65_used_object.
Print Assumptions P_NanGap.C66_sqp_filter_accepts_nan_gap.
Print Assumptions P_NanGap.C66_sqp_merit_rejects_nan_gap.
Print Assumptions P_NanGap.C66_csqp_filter_accepts_nan.
Print Assumptions P_NanGap.C66_csqp_merit_rejects_nan.
Print Assumptions P_NanGap.C66_sqp_stuck_at_nan.
Print Assumptions P_NanGap.C66_csqp_converges_at_nan.
Print Assumptions P_Interval.C67_interval_zero_crashes.
Print Assumptions P_Interval.C67_interval_zero_undefined.
