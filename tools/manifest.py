#!/usr/bin/env python3
# writes MANIFEST.json
import json
C=[]
def c(p,st,th,note=""): C.append(dict(property=p,status=st,theorems=th.split(),note=note))
c("C01","proved","C01_sqp_direction_kkt C01_C02_sqp_every_round")
c("C02","proved","C02_sqp_direction_unique_minimiser C01_C02_sqp_every_round")
c("C03","proved","C03_convex_backward_pass")
c("C04","proved","C04_sqp_Vxx_symmetric C04_backward_Vxx C04_csqp_Vxx","The positive-semidefinite part is C04_backward_Vxx (SQP/DDP) and the second conjunct of C04_csqp_Vxx.")
c("C05","proved","C05_direction_zero_at_kkt C05_kkt_at_zero_direction")
c("C08","proved","C08_sqp_true_means_kkt C08_sqp_true_componentwise C08_sqp_stale_certificate","Proved under the condition that the last line search accepted a step; refuted (binary64 run, default parameters) without it.")
c("C09","proved","C09_csqp_true_means_small_residual C09_csqp_true_componentwise")
c("C10","proved","C10_sqp_initial_state_pinned C10_csqp_initial_state_pinned C10_nan_step_moves_x0")
c("C13","proved","C13_C14_sqp_line_search C13_sqp_merit_decrease C13_C14_csqp_line_search C13_csqp_merit_decrease")
c("C14","proved","C14_sqp_filter_undominated C14_sqp_solve_safe C14_csqp_filter_undominated C14_csqp_solve_safe")
c("C18","proved","C18_sqp_iteration_budget C18_csqp_iteration_budget")
c("C19","proved","C19_sqp_callback_protocol C19_csqp_callback_protocol")
c("C21","proved","C21_sqp_accepted_cost_finite C21_csqp_accepted_cost_finite C21_proxqp_accepted_cost_finite C21_ddp_candidate_finite C21_fddp_candidate_finite")
c("C22","proved","C22_sqp_values_carried C22_csqp_values_carried")
c("C31","proved","C31_csqp_time_limit")
c("C32","proved","C32_csqp_steplength_constant C32_csqp_steplength_not_reported","The property fails: the member is never written. Proved what it is instead, and the counterexample.")
c("C50","proved","C50_sqp_step_out_of_range C50_sqp_step_in_range_frame C50_csqp_step_out_of_range C50_csqp_step_frame C50_proxqp_step_range C50_ddp_step_range C50_fddp_step_range C50_nan_passes_range_test C50_nan_step_returns")
c("C23","proved","C23_admm_primal_step")
c("C24","proved","C24_fast_pass_equals_full_pass","Every interpretation of the arithmetic, binary64 included (vec0_float).")
c("C25","proved","C25_fast_pass_mt C25_full_pass_mt C25_fast_pass_any_schedule C25_full_pass_deterministic C25_full_pass_any_schedule C25_dual_update_any_schedule C25_dual_update_any_schedule_binary64 C25_threads_change_solve_binary64")
c("C38","proved","C38_exact_trial_values C38_exact_nonneg_trial C38_every_schedule_has_an_outcome C38_nan_trial_kills_process C38_rounding_depends_on_schedule C38_thread_count_decides_termination","Positive part in exact arithmetic; the unconditional claim is refuted.")
c("C26","proved","C26_fast_pass_fresh_factorisation")
c("C27","proved","C27_complementary_rows")
c("C28","proved","C28_C29_C37_penalties","Rows with lb <= ub; rows with lb > ub + 1e-6 keep their old value.")
c("C29","proved","C28_C29_C37_penalties C29_positive C29_after_iteration")
c("C35","proved","C35_stationary_iteration")
c("C37","proved","C28_C29_C37_penalties")
c("C53","proved","C53_convex_iteration_no_exception C53_convex_guess_no_exception C53_convex_direction_no_exception")
c("C54","proved","C54_equality_guess")
c("C30","proved","C30_qp_iters C30_executed C30_qp_iters_exceeds_budget C30_negative_budget","The unconditional equality fails on exhaustion (max+1): proved exactly when, with a binary64 counterexample.")
c("C33","proved","C33_constructor")
c("C34","proved","C34_rho_sparse_ignored","The property fails: proved that the setter never has an effect on the next solve.")
c("C36","proved","C36_true_without_complementarity C27_complementary_rows","The property fails (binary64 run with default parameters); what holds instead is complementarity of the QP variable z, C27.")
c("C06","proved","C06_kkt_norm C06_kkt_nonneg C06_ckkt_norm C06_ckkt_nonneg C06_sqp_check C06_csqp_check","Exact arithmetic.")
c("C07","proved","C07_sqp_values_guarded C07_csqp_certifies_nan","SolverCSQP part is a counterexample.")
c("C15","proved","C15_filter_entries C15_filter_reads C15_shrunk_filter_reads_older_iterates C15_resizing_back_breaks_solve C14_sqp_filter_undominated C14_csqp_filter_undominated")
c("C16","proved","C16_sqp_retries_bounded C16_csqp_retries_bounded C16_csqp_no_retry_without_regularisation C16_zero_regularisation_never_returns C16_zero_reg_min_never_returns C16_rounding_never_returns")
c("C17","proved","C17_sqp_regularisation_range C17_csqp_regularisation_range")
c("C39","proved","C39_sqp_solve_forgets_the_past")
c("C45","proved","C45_ddp_solve_is_a_chain_of_rollouts C45_ddp_candidate_is_guess_or_rollout")
c("C51","proved","C51_ddp_success_certificate C51_ddp_optimal_guess_not_recognised","The converse fails (binary64 run).")
c("C46","proved","C46_fddp_filter_measures_motion C55_fddp_step_contracts_gaps","The property fails (binary64 run, default parameters): the trial gap norm is the motion along the trial.  What the gaps of the trial really are is C55.")
c("C55","proved","C55_fddp_solve_is_a_chain C55_fddp_feasible_mark_is_truthful C55_fddp_success_certificate C55_usable_objects C55_fddp_step_contracts_gaps C55_fddp_stale_cost","Contraction in exact arithmetic on manifolds with diff(x+v,x) = -v; the chain for any arithmetic.")
c("C11","proved","C11_sqp_unit_step_solves_lq C11_sqp_lq_one_line_search","Exact arithmetic, Euclidean states.")
c("C12","proved","C12_sqp_defects_scale C12_csqp_defects_scale","Exact arithmetic, Euclidean states.")
c("C57","proved","C57_sqp_false_means_exhausted C57_csqp_false_means_exhausted C57_csqp_time_limit_needs_clock")
c("C20","proved","C20_setter_call C20_any_sequence C20_no_undefined C20_range_invariant C20_defaults_in_range C20_nan_accepted C20_first_step_length_unchecked")
c("C48","proved","C48_safe_partial C48_ddp_fddp_undefined C48_sqp_line C48_csqp_line C48_ddp_calls","The property fails for SolverDDP and SolverFDDP (proved undefined); proved for the other two.")
c("C49","proved","C49_column_width C49_fitting_label C49_label_kept C49_wide_headers C49_default_header_ragged C49_precision C49_overflow")
c("C42","proved","C42_system C42_direction_solves_lq C42_convex_unique_minimiser","Exact arithmetic; the LU solver is a parameter assumed to solve invertible systems.")
c("C43","proved","C43_reported_residual C43_zero_direction_residual C43_infeasible_candidate_certified C43_optimum_not_certified","The intended property fails; what the residual measures is proved, with both counterexamples.")
c("C44","proved","C44_solve_ends C44_raise_keeps_old_system C44_true_after_raise C44_raising_guess_returned_as_solution","Termination proved; 'returns false' fails, with a counterexample.")
c("C40","proved","C40_qp_is_subproblem C40_objective_and_dynamics C40_direction_solves layout_uniform C40_varying_controls_wrong","Exact arithmetic; backend is a parameter. Fails for varying control dimensions (counterexample).")
c("C41","proved","C41_kkt_norm C41_round C41_certificate C41_exposed_multipliers_uncertified","Exact arithmetic. The property with the exposed multipliers fails (counterexample).")
c("C58","proved","C58_question_ignores_regularisation C58_retries_never_help","The backend is a deterministic function of the QP: the code builds a fresh QP object at each call.")
c("C47","proved","C47_ddp_trial_decrease C47_ddp_lq_accepts_first C47_ddp_lq_step C47_ddp_lq_solve")
c("C56","proved","C56_ddp_expected_decrease C56_ddp_accepted_step_descends C56_ddp_solve_descends C56_ddp_final_cost")
c("C59","proved","C59_iteration_approaches_solutions C59_fixed_penalty C59_converges C59_some_budget_suffices C59_hypotheses_met","Exact arithmetic.")
c("C60","proved","C60_termination_test C60_no_rows_test_succeeds C60_no_rows_solution_is_stationary C60_hypotheses_met C60_no_rows_hypotheses_met","Exact arithmetic.")
c("C61","proved","C61_ddp_control C61_fddp_control C61_ddp_regularisation_range C61_fddp_regularisation_range C61_ddp_retries_bounded C61_fddp_retries_bounded C61_parameters_met C61_runs","Control flow for any arithmetic; regularisation range and retry bound for exact arithmetic.")
c("C63","proved","C63_proxqp_run C63_step_taken","Exact arithmetic; the backend is any function of the QP (it may fail).")
c("C64","proved","C64_kkt_run C64_step_taken","Exact arithmetic; the LU solve is any function, the models raise by an arbitrary oracle.  Starting guesses at which the models raise are C44.")
c("C62","proved","C62_csqp_solve_forgets_the_past C62_settled_rows C62_ordered_rows_settled C62_default_solve_remembers_y","Any arithmetic; C62_settled_rows says in exact arithmetic which rows are settled; C62_default_solve_remembers_y is a binary64 run showing that the hypothesis on y is needed.  With maxiter 0 the clock must never fire.")
c("C67","proved","C67_interval_zero_crashes C67_interval_zero_undefined","Division by zero is the outcome UB of the model.  C14_csqp_solve_safe is the converse: with a non-zero interval no call of solve is undefined.  Endings other than UB include a retry loop that outlives the model's fuel.")
c("C66","proved","C66_sqp_filter_accepts_nan_gap C66_sqp_merit_rejects_nan_gap C66_csqp_filter_accepts_nan C66_csqp_merit_rejects_nan C66_sqp_stuck_at_nan C66_csqp_converges_at_nan","binary64.  The last theorem also rests on the modelled NaN behaviour of std::max and lpNorm<Infinity> (DESIGN.md).")
c("C65","proved","C65_proxqp_solve_forgets_the_past C65_used_object","Exact arithmetic; the backend is a function of the QP (a fresh proxsuite object is constructed at each call).  C65_used_object applies it to the run of C63_step_taken: a fresh object and one that was given another candidate and evaluated there.")
C.sort(key=lambda d:d["property"])
json.dump({"claims":C},open("/verif/MANIFEST.json","w"),indent=1)

# theories/Assumptions.v: Print Assumptions of every theorem listed
import glob, os, re
where = {}
for f in sorted(glob.glob('/verif/rocq/theories/*.v')):
    for m in re.findall(r'^(?:Theorem|Lemma|Corollary|Example)\s+(\w+)', open(f).read(), re.M):
        where.setdefault(m, os.path.basename(f)[:-2])
ths = []
for x in C:
    for t in x["theorems"]:
        if t not in ths: ths.append(t)
out = "(** Generated by tools/manifest.py: the assumptions of every theorem of MANIFEST.json. *)\n"
for f in sorted({where[t] for t in ths}): out += "From Verif Require %s.\n" % f
for t in ths: out += "Print Assumptions %s.%s.\n" % (where[t], t)
open('/verif/rocq/theories/Assumptions.v', 'w').write(out)
