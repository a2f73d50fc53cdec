# Formal model of mim_solvers in Rocq (Coq 8.16.1)

The model is a function-by-function transcription of `src/{ddp,fddp,sqp,csqp,csqp_proxqp,kkt}.cpp`,
`src/utils/callbacks.cpp` and the headers they need.  Every definition cites the lines it models; simplifications are
stated in the same comment.

## 1. Method

* **One model, two readings.** All solver functions are written once, parametric in a record `E : Eig` (`Eigen.v`) of
  scalars, vectors, matrices and the Eigen operations used.  `EigenExact.v` interprets it with mathcomp matrices over an
  arbitrary `realFieldType` (exact arithmetic); `EigenFloat.v` with IEEE binary64 (`SpecFloat`), which computes.
  Control-flow properties are proved for *every* `E` (so also for binary64 with NaN and infinities); algebraic ones for
  the exact reading; refutations are complete executions of the model in binary64 with default parameters
  (`vm_compute` inside the kernel) or exact constructions.
* **The problem is arbitrary.** `Problem.v`: a state manifold (`diff`, `integrate`, norms), running/terminal action
  models with their own control and constraint dimensions (0 allowed), their data objects as *memory* written by `calc`
  and read by `calcDiff`.  Nothing is assumed of the models unless a theorem says so (affine, quadratic, symmetric, convex ...).
* **The solver object is a record** of the C++ members that outlive a call; `solve` maps (arguments, parameters, object)
  to `Ret b s | Exc s | UB | NoFuel`.  The only fuel is that of the unbounded `while (true)` retry loops (C16 proves
  when a bound exists).  "Any history of API calls" is an inductive predicate (`History.v`, `CSQPHist.v`, `KKTHist.v`, `PROXHist.v`).
* **Observable events** (callbacks, line searches, acceptances, clock readings, QP iterations) are a ghost log in the state.
* **Specifications are separate** (`LQSpec`, `QPSpec`, `TrialSpec`, `TraceSpec`, `RollSpec`, `DDPSpec`, `FDDPSpec`, `SetSpec`, `KKTSpec`,
  `PROXSpec`, `ADMMSpec`, `Affine`): plain matrices, lists and inequalities that do not mention the passes.
* **Where the code does not have the property** the theorem proves the strongest true part and a second theorem is the counterexample.

## 2. Layout (`rocq/theories`)

| files | content |
|---|---|
| Eigen, EigenExact, EigenFloat, FieldTac, ExactLemmas, SsrLia, Flat | arithmetic interface, its two interpretations, Cholesky facts, tactics |
| Problem, DDP, Filter, SQP, CSQP, FDDP, Init, Setters, Callbacks, KKT, PROXQP, OMP, ParLoops, Models | **the model** (Models: LQ models used in examples) |
| LQSpec, QPSpec, TrialSpec, TraceSpec, RollSpec, DDPSpec, FDDPSpec, SQPSpec, CSQPSpec, ADMMSpec, CallSpec, SetSpec, KKTSpec, PROXSpec, Affine, Exit | specifications |
| Riccati, SubQP, PassExact, SQPDir, LQHom | the Riccati recursion: KKT system, value identity, uniqueness, convexity |
| FilterProofs, Rounds, SQPTrial, SQPLoop, CSQPTrial, CSQPLoop, CSQPFrames, History, CSQPHist, CSQPClock, KKTNorm, Retry, Indep, IndepTerm | loop invariants of SQP/CSQP |
| FastPass, ADMMExact, ADMMIter, CallInv, CallGood, CallCover, QPExact, CSQPConvex, EqGuess, ConvexQP | the ADMM loop |
| DDPLoop, DDPRun, DDPExact, FDDPInit, FDDPRun, AffineStep, KKTSys, KKTUniq, KKTHist, PROXBlocks, PROXSys, PROXHist | invariants of DDP/FDDP, affine steps, KKT and PROXQP |
| P_*.v | **the theorems of MANIFEST.json**, non-vacuity examples, counterexamples, `Print Assumptions` |
| Witness, AdmmWitness, FloatWitness, P_*Witness, P_*Float | concrete problems and runs |

## 3. Trusted base

* Coq 8.16.1's kernel including its `vm_compute` reduction machine.
* `Print Assumptions` of every theorem in MANIFEST.json answers **"Closed under the global context"**: no axiom, not even
  of the standard library, is used (collected in the generated `Assumptions.v`).
* No functor, module type, axiom, `Admitted`, plugin or kernel switch.
* The reading of C++ into the model, and the behaviour assumed of code outside /repo:
  - crocoddyl: `setCandidate` (empty guess = zero states / zero controls, wrong sizes throw, else copy); `ShootingProblem::calc/calcDiff`
    (calc writes the per-node data, calcDiff reads data and point and writes derivatives, and returns the sum of the stored costs);
    `computeDynamicFeasibility` (fs[0] = diff(xs[0],x0), fs[t+1] = diff(xs[t+1],xnext_t); zero when marked feasible);
    `raiseIfNaN` (NaN, inf, >= 1e30); `steplength_` initially 1, `th_acceptstep_` = 0.1; `ActionModelAbstract::calc(data,x)` for nu = 0.
  - Eigen: LLT succeeds iff the matrix given by the lower triangle is positive definite and then solves exactly (exact
    reading; *proved* of the recursive Cholesky used there; in binary64 the same recursion is executed);
    `lpNorm<Infinity>` = fold of max over absolute values (its NaN behaviour in the binary64 reading follows
    `std::max`-style comparison); coefficient-wise operations are coefficient-wise; sums are left folds (binary64).
  - `std::max(a,b) = (a<b)?b:a`, `std::min(a,b) = (b<a)?b:a`; unqualified `abs` on doubles (`apply_rho_update`) is the `double` overload.
  - boost::circular_buffer `resize`/`push_back`/`operator[]` (out-of-range read = UB).
  - OpenMP (`OMP.v`): `parallel for` gives every iteration to exactly one thread, statements of threads interleave
    arbitrarily, reductions combine private copies in any order and bracketing, an exception leaving the region ends the process.
  - `lu().solve` in SolverKKT and the ProxQP backend in SolverPROXQP are parameters (an LU that solves invertible
    systems; an arbitrary function of the QP that may also throw).
* **Not modelled**: profiling, number formatting of console output, Python bindings and the pure-Python prototypes,
  memory allocation, `resizeData` (dimensions fixed during the life of a solver), rounding order inside one Eigen reduction
  (binary64 runs use the left fold), integer overflow of `size_t` counters (`n_eq_crocoddyl`, iteration counts),
  exceptions thrown by user models' `calc` (except in KKT.v) and callbacks that modify the solver.
  With horizon T = 0 SQP's tryStep, DDP, FDDP, KKT and PROXQP read empty vectors: undefined behaviour, reported as such
  or excluded by hypothesis.

### Source coverage

| source | modelled | in |
|---|---|---|
| ddp.cpp 22-58, 62-159, 177-228, 253-445, 447-502 | ctor, solve, checkKKT, stopping, expectedImprovement, calcDiff, backwardPass, forwardPass, computeGains, regularisation, allocateData | DDP.v, Init.v |
| ddp.cpp 547-639 | setters | Setters.v |
| fddp.cpp 57-393 | solve, filter/expectation line search, forwardPass, updateExpectedImprovement | FDDP.v |
| sqp.cpp 23-374 | ctor, solve, computeDirection, checkKKT, forwardPass, tryStep | SQP.v, Filter.v, Init.v |
| csqp.cpp 24-1435 | everything incl. both multi-threaded passes, ADMM loop, penalty updates, clock | CSQP.v, ParLoops.v |
| csqp_proxqp.cpp 25-540 | ctor checks, solve, QP assembly, extraction, checkKKT, tryStep | PROXQP.v |
| kkt.cpp 44-365 | solve, assembly, direction, residual, step, expected improvement | KKT.v |
| utils/callbacks.cpp 19-167 | type dispatch, header layout, precision | Callbacks.v |

## 4. Per-property plan and outcome

* **C01** SQP search direction solves the LQ KKT system — Model DDP::backwardPass + SQP::forwardPass per node (DDP.v, SQP.v); spec LQSpec.v states the LQ KKT system on plain matrices; proof by induction on the node list with the value-function invariant lam = Vxx(dx-fs)+Vx.  
  proved: `C01_sqp_direction_kkt`, `C01_C02_sqp_every_round`
* **C02** SQP direction is the unique minimiser of the LQ subproblem — Completing the square over the same induction; spec: quadratic model value of a competitor trajectory (LQSpec.v).  
  proved: `C02_sqp_direction_unique_minimiser`, `C01_C02_sqp_every_round`
* **C03** Convex subproblems never make the backward pass fail — PSD invariant for Vxx by Schur complement; LLT contract proved for the exact instance.  
  proved: `C03_convex_backward_pass`
* **C04** Value-function Hessians are symmetric — Corollary of the backward-pass induction.  
  proved: `C04_sqp_Vxx_symmetric`, `C04_backward_Vxx`, `C04_csqp_Vxx`
* **C05** The search direction vanishes exactly at KKT points — Uniqueness (from 2) plus residual algebra.  
  proved: `C05_direction_zero_at_kkt`, `C05_kkt_at_zero_direction`
* **C06** get_KKT() is the max-norm of all optimality residuals — Generic fold-of-max lemma on the exact instance.  
  proved: `C06_kkt_norm`, `C06_kkt_nonneg`, `C06_ckkt_norm`, `C06_ckkt_nonneg`, `C06_sqp_check`, `C06_csqp_check`
* **C07** SolverSQP never certifies a backward pass with NaN values; SolverCSQP can — SQP: the guard in the backward pass, any arithmetic.  CSQP: binary64 run.  
  proved: `C07_sqp_values_guarded`, `C07_csqp_certifies_nan`
* **C08** When SolverSQP's true is a certificate about the returned trajectory — Loop invariant with a freshness flag; binary64 counterexample for the stale case.  
  proved: `C08_sqp_true_means_kkt`, `C08_sqp_true_componentwise`, `C08_sqp_stale_certificate`
* **C09** SolverCSQP::solve returning true means small residuals at the returned trajectory — Invariant of the CSQP loop: datas fresh at the KKT check.  
  proved: `C09_csqp_true_means_small_residual`, `C09_csqp_true_componentwise`
* **C10** The initial state is pinned — Invariant: dx[0]=0 and xs[0]=x0.  
  proved: `C10_sqp_initial_state_pinned`, `C10_csqp_initial_state_pinned`, `C10_nan_step_moves_x0`
* **C11** LQR problems are solved by one full SQP step — Corollary of 1 and affine algebra.  
  proved: `C11_sqp_unit_step_solves_lq`, `C11_sqp_lq_one_line_search`
* **C12** Gaps contract linearly along the step for affine dynamics — Affine algebra on tryStep.  
  proved: `C12_sqp_defects_scale`, `C12_csqp_defects_scale`
* **C13** Merit line search accepts only strict decrease — Structure of the line-search recursion, any arithmetic.  
  proved: `C13_C14_sqp_line_search`, `C13_sqp_merit_decrease`, `C13_C14_csqp_line_search`, `C13_csqp_merit_decrease`
* **C14** Filter line search accepts only non-dominated trials — Same, with the circular-buffer model and push history.  
  proved: `C14_sqp_filter_undominated`, `C14_sqp_solve_safe`, `C14_csqp_filter_undominated`, `C14_csqp_solve_safe`
* **C15** Filter entries over histories of filter sizes — Circular buffer model; invariant for growing histories, refutation for shrinking.  
  proved: `C15_filter_entries`, `C15_filter_reads`, `C15_shrunk_filter_reads_older_iterates`, `C15_resizing_back_breaks_solve`, `C14_sqp_filter_undominated`, `C14_csqp_filter_undominated`
* **C16** Regularisation retries are bounded — Archimedean argument on exact arithmetic; divergence witnesses as forall-fuel theorems.  
  proved: `C16_sqp_retries_bounded`, `C16_csqp_retries_bounded`, `C16_csqp_no_retry_without_regularisation`, `C16_zero_regularisation_never_returns`, `C16_zero_reg_min_never_returns`, `C16_rounding_never_returns`
* **C17** Regularisation stays within its configured range — Invariant over the solve loop (exact order).  
  proved: `C17_sqp_regularisation_range`, `C17_csqp_regularisation_range`
* **C18** Iteration budget — Invariant over the solve loop, any arithmetic.  
  proved: `C18_sqp_iteration_budget`, `C18_csqp_iteration_budget`
* **C19** Callback protocol — Trace component of the state; invariant, any arithmetic.  
  proved: `C19_sqp_callback_protocol`, `C19_csqp_callback_protocol`
* **C20** Setters accept exactly their documented range and fail atomically — Model of each setter; iff theorems; NaN findings on binary64.  
  proved: `C20_setter_call`, `C20_any_sequence`, `C20_no_undefined`, `C20_range_invariant`, `C20_defaults_in_range`, `C20_nan_accepted`, `C20_first_step_length_unchecked`
* **C21** A trial with NaN or overflowing cost is never accepted — Invariant on the tryStep recursion.  
  proved: `C21_sqp_accepted_cost_finite`, `C21_csqp_accepted_cost_finite`, `C21_proxqp_accepted_cost_finite`, `C21_ddp_candidate_finite`, `C21_fddp_candidate_finite`
* **C22** Accepted trial values are the next iterate's values — Two recursions (tryStep vs calc) shown equal under a monoid law; exact instance.  
  proved: `C22_sqp_values_carried`, `C22_csqp_values_carried`
* **C23** Each ADMM primal step solves its augmented LQ KKT system — As 1, for the augmented data.  
  proved: `C23_admm_primal_step`
* **C24** The fast backward pass equals the full backward pass — Induction; needs only that LLT stores the factor.  
  proved: `C24_fast_pass_equals_full_pass`
* **C25** Multithreaded passes equal the sequential ones for every schedule — Generic scheduler lemma on disjoint slots + equality of the two phase split.  
  proved: `C25_fast_pass_mt`, `C25_full_pass_mt`, `C25_fast_pass_any_schedule`, `C25_full_pass_deterministic`, `C25_full_pass_any_schedule`, `C25_dual_update_any_schedule`, `C25_dual_update_any_schedule_binary64`, `C25_threads_change_solve_binary64`
* **C26** The fast pass is never used with a stale factorisation — Ghost-free statement: the pass result of computeDirection equals that of a variant using the full pass always.  
  proved: `C26_fast_pass_fresh_factorisation`
* **C27** Projected constraint variable and multiplier are complementary — Componentwise order lemmas on exact instance.  
  proved: `C27_complementary_rows`
* **C28** Penalty vector classification — Componentwise case analysis; uninitialised slot modelled by option.  
  proved: `C28_C29_C37_penalties`
* **C29** Adaptive penalty stays in range — Extended scalars (finite, +-inf, NaN) in the exact instance.  
  proved: `C28_C29_C37_penalties`, `C29_positive`, `C29_after_iteration`
* **C30** get_qp_iters() is the number of QP iterations, except on exhaustion — Loop count; refuted (exhaustion gives max+1), with exact characterisation.  
  proved: `C30_qp_iters`, `C30_executed`, `C30_qp_iters_exceeds_budget`, `C30_negative_budget`
* **C31** Solve-time limit semantics — Clock as an arbitrary oracle; trace of started iterations.  
  proved: `C31_csqp_time_limit`
* **C32** SolverCSQP::get_steplength() is constantly 1 — The member is never written; binary64 run.  
  proved: `C32_csqp_steplength_constant`, `C32_csqp_steplength_not_reported`
* **C33** Constructor rejects equality constraints — Fold over models.  
  proved: `C33_constructor`
* **C34** set_rho_sparse has no effect on the next solve — Two-run argument: reset_rho_vec overwrites the value on every path.  
  proved: `C34_rho_sparse_ignored`
* **C35** Stationary ADMM iterates solve the constrained QP — Fixed-point algebra on top of 23.  
  proved: `C35_stationary_iteration`
* **C36** SolverCSQP's true does not imply complementary slackness — Binary64 counterexample; positive part is C27.  
  proved: `C36_true_without_complementarity`, `C27_complementary_rows`
* **C37** First QP iteration never reads uninitialised penalties — Rows carry an initialised flag; path analysis of solve.  
  proved: `C28_C29_C37_penalties`
* **C38** Thread count does not change trial evaluation — Exact: permutation invariance of sums; binary64: refutation witness.  
  proved: `C38_exact_trial_values`, `C38_exact_nonneg_trial`, `C38_every_schedule_has_an_outcome`, `C38_nan_trial_kills_process`, `C38_rounding_depends_on_schedule`, `C38_thread_count_decides_termination`
* **C39** SQP solve is independent of earlier solves — Relational invariant of the solve loop (Indep), with freshness of everything read.  
  proved: `C39_sqp_solve_forgets_the_past`
* **C40** PROXQP's QP is the linearised subproblem, unless control dimensions vary — Index-level assembly; equality of objective, dynamics and constraint rows with the stagewise subproblem; counterexample for varying nu.  
  proved: `C40_qp_is_subproblem`, `C40_objective_and_dynamics`, `C40_direction_solves`, `layout_uniform`, `C40_varying_controls_wrong`
* **C41** What PROXQP's true certifies — Order of check and QP in computeDirection; exact counterexample for the exposed multipliers.  
  proved: `C41_kkt_norm`, `C41_round`, `C41_certificate`, `C41_exposed_multipliers_uncertified`
* **C42** SolverKKT assembles and solves the LQ KKT system — Assembly with block matrices; lu().solve contract.  
  proved: `C42_system`, `C42_direction_solves_lq`, `C42_convex_unique_minimiser`
* **C43** SolverKKT's KKT residual vanishes at optima — Algebra of the residual (signs); two exact counterexamples.  
  proved: `C43_reported_residual`, `C43_zero_direction_residual`, `C43_infeasible_candidate_certified`, `C43_optimum_not_certified`
* **C44** SolverKKT::solve terminates when evaluation fails — Termination by the regularisation bound of the loop; counterexample for the stale system.  
  proved: `C44_solve_ends`, `C44_raise_keeps_old_system`, `C44_true_after_raise`, `C44_raising_guess_returned_as_solution`
* **C45** A SolverDDP call is a chain of roll-outs — Loop invariant: chain of accepted roll-outs (DDPRun).  
  proved: `C45_ddp_solve_is_a_chain_of_rollouts`, `C45_ddp_candidate_is_guess_or_rollout`
* **C46** FDDP trial gap norm measures the defects of the trial (fails) — Refuted by witness.  
  proved: `C46_fddp_filter_measures_motion`, `C55_fddp_step_contracts_gaps`
* **C47** DDP's expected decrease on linear-quadratic problems — Riccati value identity along the policy, plus exact quadratic expansion of the models.  
  proved: `C47_ddp_trial_decrease`, `C47_ddp_lq_accepts_first`, `C47_ddp_lq_step`, `C47_ddp_lq_solve`
* **C48** Verbose callback is safe with every solver that invokes it — Dynamic type tag model; refuted for DDP/FDDP.  
  proved: `C48_safe_partial`, `C48_ddp_fddp_undefined`, `C48_sqp_line`, `C48_csqp_line`, `C48_ddp_calls`
* **C49** Verbose header columns have the promised width — String model of center_string.  
  proved: `C49_column_width`, `C49_fitting_label`, `C49_label_kept`, `C49_wide_headers`, `C49_default_header_ragged`, `C49_precision`, `C49_overflow`
* **C50** Ill-posed step lengths are rejected — Direct, any arithmetic.  
  proved: `C50_sqp_step_out_of_range`, `C50_sqp_step_in_range_frame`, `C50_csqp_step_out_of_range`, `C50_csqp_step_frame`, `C50_proxqp_step_range`, `C50_ddp_step_range`, `C50_fddp_step_range`, `C50_nan_passes_range_test`, `C50_nan_step_returns`
* **C51** SolverDDP success is a certificate about the returned trajectory — Loop invariant: data fresh at the KKT check of SolverDDP; binary64 run for the converse.  
  proved: `C51_ddp_success_certificate`, `C51_ddp_optimal_guess_not_recognised`
* **C53** Convex constrained subproblems never raise — PSD invariant through all ADMM passes and penalty updates (CSQPConvex).  
  proved: `C53_convex_iteration_no_exception`, `C53_convex_guess_no_exception`, `C53_convex_direction_no_exception`
* **C54** The equality-QP initial guess is the unconstrained minimiser — Riccati recursion on the equality guess (EqGuess).  
  proved: `C54_equality_guess`
* **C55** A SolverFDDP call is a chain of multiple-shooting steps that contract the gaps by 1-a — Loop invariant of FDDP over chains of accepted steps; exact algebra on retractions for the gaps.  
  proved: `C55_fddp_solve_is_a_chain`, `C55_fddp_feasible_mark_is_truthful`, `C55_fddp_success_certificate`, `C55_usable_objects`, `C55_fddp_step_contracts_gaps`, `C55_fddp_stale_cost`
* **C56** SolverDDP descends — Factor facts of the backward pass give Quu k = Qu, Quu > 0; with the acceptance rule of the C45 chain.  
  proved: `C56_ddp_expected_decrease`, `C56_ddp_accepted_step_descends`, `C56_ddp_solve_descends`, `C56_ddp_final_cost`
* **C57** solve returning false means that something was exhausted — Exit analysis of the SQP and CSQP loops on the C19 and C39 traces (Exit, CSQPExit).  
  proved: `C57_sqp_false_means_exhausted`, `C57_csqp_false_means_exhausted`, `C57_csqp_time_limit_needs_clock`
* **C58** Regularisation has no effect on PROXQP's QP — Assembly never reads preg/dreg; induction over retries.  
  proved: `C58_question_ignores_regularisation`, `C58_retries_never_help`
* **C59** ADMM iterations approach the solution and the QP loop terminates by its test — Fejer monotonicity of the relaxed ADMM step: monotonicity of the KKT operators of two subproblems with equal Hessians, complementarity of rows; residual norms below tolerance when progress is small; counting the tests.  
  proved: `C59_iteration_approaches_solutions`, `C59_fixed_penalty`, `C59_converges`, `C59_some_budget_suffices`, `C59_hypotheses_met`
* **C60** What the termination test of the QP loop certifies — The relaxed ADMM step solves a perturbed KKT system whose perturbation is expressed by the residuals the norms measure and by the proximal term; bounding each part. Witnesses: a stopping solve, and a row-free solve stopped at a non-KKT direction.  
  proved: `C60_termination_test`, `C60_no_rows_test_succeeds`, `C60_no_rows_solution_is_stationary`, `C60_hypotheses_met`, `C60_no_rows_hypotheses_met`
* **C61** Control flow of SolverDDP and SolverFDDP — Invariant of the solve loops on the ghost log of callbacks, the iteration counter and the regularisation values (DDPCtl).  
  proved: `C61_ddp_control`, `C61_fddp_control`, `C61_ddp_regularisation_range`, `C61_fddp_regularisation_range`, `C61_ddp_retries_bounded`, `C61_fddp_retries_bounded`, `C61_parameters_met`, `C61_runs`
* **C62** How much of its past a SolverCSQP object remembers — Relational proof: two runs related by the set of arrays on which they agree (CIndep: each function adds the arrays it overwrites), carried through the QP loop, the line search and the outer loop (CIndepLoop), the start of solve and the terminal node (CIndepTerm, P_CIndep).  Witness: a fresh object and one that solved another problem.  
  proved: `C62_csqp_solve_forgets_the_past`, `C62_settled_rows`, `C62_ordered_rows_settled`, `C62_default_solve_remembers_y`
* **C63** What a returning call of SolverPROXQP::solve did — Invariant of the solve loop over rounds (PROXRun), the line search characterised by trial values of TrialSpec; witness: a run that takes a unit step.  
  proved: `C63_proxqp_run`, `C63_step_taken`
* **C64** What a returning call of SolverKKT::solve did — KKTQuant: expectedImprovement and stoppingCriteria computed from the dense system equal slope, curvature and squared residuals read off the nodes (KKTRunSpec); KKTRun/P_KKTSolve: loop invariant over rounds; witness: a run that takes a unit step and then certifies.  
  proved: `C64_kkt_run`, `C64_step_taken`
* **C65** How much of its past a SolverPROXQP object remembers — As C62: PIndep (arrays and QP blocks: entries not covered by the block assignments are zero in every reachable object, bound rows are all covered), PIndepLoop (states, retries, line search, loop), P_PIndep (start of solve, theorem, witness).  
  proved: `C65_proxqp_solve_forgets_the_past`, `C65_used_object`
* **C66** A trial whose dynamics gap is NaN: rejected by the merit rule, accepted by the filter — P_NanGap: NaN propagates through radd/rmul and fails every comparison; induction on the filter loop; two binary64 runs.  
  proved: `C66_sqp_filter_accepts_nan_gap`, `C66_sqp_merit_rejects_nan_gap`, `C66_csqp_filter_accepts_nan`, `C66_csqp_merit_rejects_nan`, `C66_sqp_stuck_at_nan`, `C66_csqp_converges_at_nan`
* **C67** set_rho_update_interval(0) is accepted and the next solve crashes — P_Interval: case analysis of computeDirection, induction on the retry loop; a run with default parameters as witness.  
  proved: `C67_interval_zero_crashes`, `C67_interval_zero_undefined`
