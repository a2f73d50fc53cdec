{"id": "C01", "title": "SQP search direction solves the LQ KKT system", "statement": "Whenever SolverSQP computes a direction without raising, get_dx()/get_du()/lag_mul satisfy, exactly in real arithmetic, the first-order (KKT) system of the linear-quadratic subproblem built from the current derivatives, gaps and regularisation: linearised dynamics with gaps, stationarity in every u_t, stationarity in every x_t, and the terminal multiplier equation; dx_0 = 0.", "quantifier": "every horizon T, every state dimension, every per-node control dimension (including 0), all derivative values, all gaps, all regularisation values", "why_tests_cant": "a numeric test checks one problem to a tolerance; the claim is an identity over all dimensions and data", "anchors": ["src/ddp.cpp:SolverDDP::backwardPass", "src/ddp.cpp:SolverDDP::computeGains", "src/sqp.cpp:SolverSQP::forwardPass", "src/sqp.cpp:SolverSQP::computeDirection"]}
{"id": "C02", "title": "SQP direction is the unique minimiser of the LQ subproblem", "statement": "Whenever the backward pass succeeds, (dx,du) has strictly smaller regularised quadratic model value than every other pair satisfying the same linearised dynamics from dx_0 = 0.", "quantifier": "all horizons, dimensions, data for which the pass succeeds and Hessians are symmetric; all competing trajectories", "why_tests_cant": "optimality compares against infinitely many competitors", "anchors": ["src/ddp.cpp:SolverDDP::backwardPass", "src/sqp.cpp:SolverSQP::forwardPass"]}
{"id": "C03", "title": "Convex subproblems never make the backward pass fail", "statement": "If every stage Hessian [[Lxx,Lxu],[Lxu^T,Luu]] and the terminal Hessian are positive semidefinite and the regularisation is positive (or Luu is positive definite with non-negative regularisation), the factorisations all succeed; the pass can only raise because a value-function norm reaches the 1e30 overflow guard.", "quantifier": "all horizons, dimensions, PSD data, all dynamics matrices", "why_tests_cant": "needs an induction over the horizon with a semidefiniteness invariant", "anchors": ["src/ddp.cpp:SolverDDP::backwardPass", "src/ddp.cpp:SolverDDP::computeGains"]}
{"id": "C04", "title": "Value-function Hessians are symmetric", "statement": "After a successful SQP/DDP/CSQP backward pass every get_Vxx()[t] is symmetric, and it is positive semidefinite when the stage Hessians are.", "quantifier": "all horizons, dimensions and data", "why_tests_cant": "universal over matrices and horizon", "anchors": ["src/ddp.cpp:SolverDDP::backwardPass", "src/csqp.cpp:SolverCSQP::backwardPass"]}
{"id": "C05", "title": "The search direction vanishes exactly at KKT points", "statement": "If the current iterate has zero gaps and some multipliers make every KKT residual zero, SolverSQP's direction is identically zero (for any regularisation for which the pass succeeds) and the multipliers it reports are those; conversely a zero direction with zero gaps means every KKT residual is zero.", "quantifier": "all problems, horizons, regularisations", "why_tests_cant": "both directions of an equivalence over all data", "anchors": ["src/sqp.cpp:SolverSQP::computeDirection", "src/sqp.cpp:SolverSQP::checkKKTConditions"]}
{"id": "C06", "title": "get_KKT() is the max-norm of all optimality residuals", "statement": "After a check, get_KKT() <= tol (tol >= 0) iff every component of every stationarity residual, every gap (and, for CSQP, the total constraint violation) is bounded by tol in absolute value, at the multipliers the solver exposes; get_KKT() >= 0.", "quantifier": "all problems, horizons, dimensions, multipliers and tolerances", "why_tests_cant": "quantifies over every residual component", "anchors": ["src/sqp.cpp:SolverSQP::checkKKTConditions", "src/csqp.cpp:SolverCSQP::checkKKTConditions", "src/ddp.cpp:SolverDDP::checkKKTConditions"]}
{"id": "C07", "title": "SolverSQP never certifies a backward pass with NaN values; SolverCSQP can", "statement": "When SolverSQP::solve returns true (and in every round that starts a line search) the max-norms of all get_Vx()[t] and get_Vxx()[t] are numbers: not NaN, not infinite, below 1e30. For SolverCSQP the analogous claim is false: there is a problem whose cost gradients are NaN everywhere on which solve with default parameters returns true with get_KKT() = 0.", "quantifier": "all problems, histories of API calls, settings and arithmetic (SQP); one binary64 counterexample (CSQP)", "why_tests_cant": "NaN propagation through std::max depends on operand order at every position", "anchors": ["src/csqp.cpp:SolverCSQP::checkKKTConditions", "src/csqp.cpp:SolverCSQP::backwardPass", "src/ddp.cpp:SolverDDP::backwardPass"]}
{"id": "C08", "title": "When SolverSQP's true is a certificate about the returned trajectory", "statement": "If SolverSQP::solve returns true and its last line search (if there was one) accepted a trial, then the model data held are those of fresh evaluations at the returned xs/us and every stationarity component and gap recomputed there, with the returned multipliers, is <= the termination tolerance. Without the proviso this is false: after a line search that rejected every step the next round re-uses trial data, and with all parameters at their defaults solve returns true at the unchanged guess although the residual there is 1.", "quantifier": "all problems, initial guesses, maxiter, regularisation, line-search settings, histories of accepted and rejected steps", "why_tests_cant": "depends on the whole history of accepted/rejected trials", "anchors": ["src/sqp.cpp:SolverSQP::solve", "src/ddp.cpp:SolverDDP::calcDiff", "src/sqp.cpp:SolverSQP::tryStep"]}
{"id": "C09", "title": "SolverCSQP::solve returning true means small residuals at the returned trajectory", "statement": "If SolverCSQP::solve returns true then stationarity, gaps and constraint violation recomputed from fresh model evaluations at the returned xs/us, with the returned lag_mul/y, are all <= termination tolerance.", "quantifier": "all problems, guesses, settings, timeouts and histories", "why_tests_cant": "depends on the whole execution history", "anchors": ["src/csqp.cpp:SolverCSQP::solve", "src/csqp.cpp:SolverCSQP::calc", "src/csqp.cpp:SolverCSQP::checkKKTConditions"]}
{"id": "C10", "title": "The initial state is pinned", "statement": "After SolverSQP/SolverCSQP::solve returns (true or false) with a well-formed guess, xs[0] equals the problem's x0, whatever init_xs[0] was. (The step lengths must be numbers: set_alphas accepts NaN, and then SolverSQP can return with NaN in xs[0]; this exception is proved too.)", "quantifier": "all problems, guesses, settings, iteration counts", "why_tests_cant": "invariant over all line-search histories", "anchors": ["src/sqp.cpp:SolverSQP::solve", "src/sqp.cpp:SolverSQP::tryStep", "src/csqp.cpp:SolverCSQP::solve", "src/csqp.cpp:SolverCSQP::tryStep"]}
{"id": "C11", "title": "LQR problems are solved by one full SQP step", "statement": "On a problem with affine dynamics and quadratic costs on a Euclidean state, with zero regularisation (initial value 0, reg_min 0), whatever the guess and the history of the SolverSQP object: the unit trial of every line search that starts from data evaluated at its iterate has zero defects and is a stationary point of the optimal control problem with the reported multipliers; an accepted unit step ends the solve (no further line search) and the residual computed there is exactly 0. With the default filter line search starting at step length 1, at most one line search is made and, when two iterations are allowed, solve returns true (trial costs below the 1e30 guard).", "quantifier": "all LQ problems, horizons, dimensions, initial guesses", "why_tests_cant": "universal over problems and guesses", "anchors": ["src/sqp.cpp:SolverSQP::computeDirection", "src/sqp.cpp:SolverSQP::tryStep"]}
{"id": "C12", "title": "Gaps contract linearly along the step for affine dynamics", "statement": "With affine dynamics on a Euclidean state, for every line search of SolverSQP::solve or SolverCSQP::solve that starts from data evaluated at its iterate: if ds are the defects of the iterate, the reported gap norm is their total 1-norm, and for every step length a the trial trajectory has exactly the defects (1-a) ds and the trial gap norm is |1-a| times the iterate's.", "quantifier": "all affine problems, horizons, guesses, object histories, step lengths", "why_tests_cant": "universal identity", "anchors": ["src/sqp.cpp:SolverSQP::tryStep", "src/csqp.cpp:SolverCSQP::tryStep"]}
{"id": "C13", "title": "Merit line search accepts only strict decrease", "statement": "With the filter line search disabled, SolverSQP/SolverCSQP change the candidate trajectory in an iteration only to a trial whose merit is strictly smaller than the current merit, and the trial used is the first step length in get_alphas() order with that property.", "quantifier": "all problems, alphas lists, states", "why_tests_cant": "universal over trial outcomes including trials that raise", "anchors": ["src/sqp.cpp:SolverSQP::solve", "src/csqp.cpp:SolverCSQP::solve"]}
{"id": "C14", "title": "Filter line search accepts only non-dominated trials", "statement": "With the filter line search enabled, an accepted trial is not dominated (cost, gap and for CSQP constraint norm all >=) by any of the last min(filter_size, iterations so far) iterates of this solve, and it is the first such step length; entries of earlier solves are never consulted.", "quantifier": "all filter sizes, histories, alphas", "why_tests_cant": "history-dependent over unboundedly many iterations", "anchors": ["src/sqp.cpp:SolverSQP::solve", "src/csqp.cpp:SolverCSQP::solve"]}
{"id": "C15", "title": "Filter entries over histories of filter sizes", "statement": "As long as set_filter_size never reduces the size, for every sequence of size changes and recorded iterates the filter test of size n at iteration i compares with exactly the min(n, i+1) most recent iterates recorded since the size was set, and never reads outside the buffer. After a reduction from m to n < m this is false: every consulted entry is m - n iterations too old once m iterates were recorded, and resizing 1 -> 2 -> 1 makes a solve fail that otherwise converges.", "quantifier": "all sequences of set_filter_size calls and recorded iterates; all predicates; all m, n", "why_tests_cant": "history of buffer capacities", "anchors": ["include/mim_solvers/sqp.hpp:set_filter_size", "include/mim_solvers/csqp.hpp:set_filter_size"]}
{"id": "C16", "title": "Regularisation retries are bounded", "statement": "If the initial regularisation, reg_min and reg_max are positive and the growth factor exceeds 1, there is a bound depending on these parameters only on the number of retries of every iteration of every solve of SolverSQP and SolverCSQP, so solve's retry loop terminates; with remove_reg SolverCSQP never retries. With initial regularisation 0 (or reg_min 0), or a positive value that rounding keeps from growing, there are problems on which solve never returns.", "quantifier": "all problems, histories, guesses, maxiter, clocks (exact arithmetic over any archimedean field); binary64 counterexamples for every fuel", "why_tests_cant": "termination over unbounded retries", "anchors": ["src/ddp.cpp:SolverDDP::solve", "src/sqp.cpp:SolverSQP::solve", "src/csqp.cpp:SolverCSQP::solve", "src/ddp.cpp:SolverDDP::increaseRegularization"]}
{"id": "C17", "title": "Regularisation stays within its configured range", "statement": "If the initial regularisation lies in [reg_min, reg_max] (0 <= reg_min <= reg_max, factors >= 1), the one used by every direction of the solve and the one left behind lie in that range, and primal and dual regularisation are equal.", "quantifier": "all settings allowed by the setters, problems, histories (exact arithmetic)", "why_tests_cant": "invariant over the whole solve", "anchors": ["src/ddp.cpp:SolverDDP::increaseRegularization", "src/ddp.cpp:SolverDDP::decreaseRegularization", "src/sqp.cpp:SolverSQP::solve"]}
{"id": "C18", "title": "Iteration budget", "statement": "get_iter() never exceeds maxiter, at most maxiter line searches are run and at most maxiter (+1 with the extra KKT iteration) callback rounds are performed; maxiter = 0 leaves the candidate equal to the (pinned) initial guess and returns false when no extra iteration is requested.", "quantifier": "all maxiter, problems, settings", "why_tests_cant": "all executions", "anchors": ["src/sqp.cpp:SolverSQP::solve", "src/csqp.cpp:SolverCSQP::solve", "src/ddp.cpp:SolverDDP::solve"]}
{"id": "C19", "title": "Callback protocol", "statement": "The visible trace of SolverSQP::solve and SolverCSQP::solve is: for each round i = 0,1,2,..., every registered callback once in registration order with iteration number i, then that round's line search; then possibly one last callback round. The solver goes on exactly when the residual shown to the callbacks exceeds the tolerance and returns true only after showing one that does not. For SolverSQP the numbers are strictly increasing; for SolverCSQP too, except that the extra KKT iteration after a rejected line search repeats the number of that round.", "quantifier": "all callback lists, executions", "why_tests_cant": "trace property of all executions", "anchors": ["src/sqp.cpp:SolverSQP::solve", "src/csqp.cpp:SolverCSQP::solve"]}
{"id": "C20", "title": "Setters accept exactly their documented range and fail atomically", "statement": "set_reg_incfactor/decfactor/regfactor, set_reg_min/max, set_alphas (non-empty), set_th_stepdec/stepinc/grad and set_th_acceptnegstep return exactly when the value is in the documented range and then change exactly the parameters they name to the value given; when they raise, the object is unchanged; consequently after any sequence of calls every getter returns the last in-range value assigned to it (or the initial one) and parameters in range stay in range. (Comparisons are exact; NaN passes every check, the first step length is never checked against a range, and set_alphas of an empty vector is undefined - these exceptions are proved too.)", "quantifier": "all parameter values and prior states, any sequence of calls", "why_tests_cant": "all doubles / lists, all call sequences", "anchors": ["src/ddp.cpp:set_reg_incfactor", "src/ddp.cpp:set_alphas", "src/ddp.cpp:set_th_stepdec", "src/fddp.cpp:set_th_acceptnegstep"]}
{"id": "C21", "title": "A trial with NaN or overflowing cost is never accepted", "statement": "In SolverSQP, (single-threaded) SolverCSQP, SolverPROXQP, SolverDDP and SolverFDDP a trial step whose accumulated cost is NaN, infinite or >= 1e30 at any node raises inside tryStep, is skipped, and never becomes the candidate; in SolverDDP and SolverFDDP the same holds for the successor states, so that after solve the candidate is the guess or a trajectory without NaN or overflow.", "quantifier": "all problems, nodes, step lengths, object states", "why_tests_cant": "universal over node positions and values", "anchors": ["src/sqp.cpp:SolverSQP::tryStep", "src/csqp.cpp:SolverCSQP::tryStep", "src/csqp_proxqp.cpp:SolverPROXQP::tryStep", "src/ddp.cpp:SolverDDP::forwardPass", "src/fddp.cpp:SolverFDDP::forwardPass"]}
{"id": "C22", "title": "Accepted trial values are the next iterate's values", "statement": "When a line search accepts a trial, the cost, gap norm (and constraint norm) evaluated at the start of the next iteration equal the accepted trial's values.", "quantifier": "all problems, executions", "why_tests_cant": "couples two different code paths on all inputs", "anchors": ["src/sqp.cpp:SolverSQP::tryStep", "src/csqp.cpp:SolverCSQP::tryStep", "src/csqp.cpp:SolverCSQP::calc", "src/ddp.cpp:SolverDDP::calcDiff"]}
{"id": "C23", "title": "Each ADMM primal step solves its augmented LQ KKT system", "statement": "In SolverCSQP every backward+forward pass returns (dx~,du~) which exactly solves the KKT system of the augmented LQ problem with proximal weight sigma around (dx,du), penalty rho around z with multiplier y and the current regularisation.", "quantifier": "all horizons, dimensions, constraint counts, data, sigma, rho", "why_tests_cant": "identity over all data", "anchors": ["src/csqp.cpp:SolverCSQP::backwardPass", "src/csqp.cpp:SolverCSQP::forwardPass"]}
{"id": "C24", "title": "The fast backward pass equals the full backward pass", "statement": "With unchanged derivatives, gaps, rho, sigma and regularisation, backwardPass_without_rho_update after a full pass gives the same gains, feed-forward terms and value gradients as running the full backwardPass.", "quantifier": "all data, dual iterates, horizons", "why_tests_cant": "equality of two algorithms on all inputs", "anchors": ["src/csqp.cpp:SolverCSQP::backwardPass_without_rho_update", "src/csqp.cpp:SolverCSQP::backwardPass"]}
{"id": "C25", "title": "Multithreaded passes equal the sequential ones for every schedule", "statement": "backwardPass_mt, backwardPass_without_rho_update_mt and the dual update of SolverCSQP produce the same results as their sequential versions for every number of threads, every assignment of iterations to threads, every interleaving of their statements and every order of the max-reductions: the fast pass bit for bit in every arithmetic, the residual norms bit for bit in exact arithmetic and in binary64, the full pass in exact arithmetic; and every schedule completes. In binary64 the multithreaded full pass adds its terms in another order, and a solve with threads can return other controls than the sequential one.", "quantifier": "all thread counts, assignments, interleavings and reduction orders of the parallel loops, all data", "why_tests_cant": "all interleavings", "anchors": ["src/csqp.cpp:SolverCSQP::backwardPass_mt", "src/csqp.cpp:SolverCSQP::backwardPass_without_rho_update_mt"]}
{"id": "C26", "title": "The fast pass is never used with a stale factorisation", "statement": "In every QP solve with a positive rho update interval, whenever the fast pass is used a full pass has been run earlier in the same QP solve with the same rho vector, derivatives and regularisation.", "quantifier": "all intervals, QP iteration counts, rho-update decisions", "why_tests_cant": "interaction of two modular conditions over all iteration numbers", "anchors": ["src/csqp.cpp:SolverCSQP::computeDirection", "src/csqp.cpp:SolverCSQP::update_rho_vec"]}
{"id": "C27", "title": "Projected constraint variable and multiplier are complementary", "statement": "After every ADMM iteration, every component of z lies in [lb-g, ub-g]; a positive multiplier component occurs only at the upper bound, a negative one only at the lower bound, and strictly inside the multiplier is zero.", "quantifier": "all nodes, components, bounds with lb <= ub, rho > 0, all previous iterates", "why_tests_cant": "all iterates and components", "anchors": ["src/csqp.cpp:SolverCSQP::update_lagrangian_parameters"]}
{"id": "C28", "title": "Penalty vector classification", "statement": "After the penalty vector is set for a scalar rho > 0, each component is rho_min for a free row, 1e3*rho for an equality row (|lb-ub| <= 1e-6) and rho for any other row with lb < ub, and inv_rho is its reciprocal; every component is set.", "quantifier": "all bounds including one-sided and infinite ones, all rho", "why_tests_cant": "all bound configurations", "anchors": ["src/csqp.cpp:SolverCSQP::apply_rho_update", "src/csqp.cpp:SolverCSQP::reset_rho_vec"]}
{"id": "C29", "title": "Adaptive penalty stays in range", "statement": "Throughout a solve rho_sparse is the configured base value or lies in [rho_min, rho_max]; in particular it is always positive, also when the residual norms are zero, infinite or -infinity.", "quantifier": "all residual values incl. zero/infinite, all iteration counts", "why_tests_cant": "IEEE edge cases (0/0, inf*0) over all iterations", "anchors": ["src/csqp.cpp:SolverCSQP::update_rho_vec", "src/csqp.cpp:SolverCSQP::reset_rho_vec"]}
{"id": "C30", "title": "get_qp_iters() is the number of QP iterations, except on exhaustion", "statement": "A direction computation of SolverCSQP executes ADMM iterations 1..n with n <= max_qp_iters, and afterwards get_qp_iters() = n, except that it is max_qp_iters + 1 when the loop ran out of iterations without converging (counterexample to 'at most max_qp_iters' by a binary64 run), and that it keeps its old value when the equality guess raises before the loop. A negative configured maximum executes no iteration.", "quantifier": "all max_qp_iters, convergence patterns and timeouts", "why_tests_cant": "all loop exits", "anchors": ["src/csqp.cpp:SolverCSQP::computeDirection"]}
{"id": "C31", "title": "Solve-time limit semantics", "statement": "If the elapsed time first reaches max_solve_time at a check, SolverCSQP starts no further SQP or QP iteration after that check, get_max_solve_time_reached() becomes true and the extra KKT iteration is skipped; if it never does, the flag is false.", "quantifier": "all clock behaviours (any non-decreasing sequence of readings), all problems", "why_tests_cant": "all timings", "anchors": ["src/csqp.cpp:SolverCSQP::solve", "src/csqp.cpp:SolverCSQP::computeDirection"]}
{"id": "C32", "title": "SolverCSQP::get_steplength() is constantly 1", "statement": "Expected: get_steplength() is the accepted step length and drives the regularisation decision. This is false: after any history of calls SolverCSQP's get_steplength() is 1, and there is a run with default parameters that accepts step length 1/2 (not larger than th_stepdec) and still decreases the regularisation.", "quantifier": "all accepted step positions", "why_tests_cant": "depends on which trial is accepted", "anchors": ["src/csqp.cpp:SolverCSQP::solve"]}
{"id": "C33", "title": "Constructor rejects equality constraints", "statement": "SolverCSQP (and SolverPROXQP) construction raises iff some running or terminal model declares nh > 0.", "quantifier": "all problems, any mix of nh", "why_tests_cant": "all problems", "anchors": ["src/csqp.cpp:SolverCSQP::SolverCSQP", "src/csqp_proxqp.cpp:SolverPROXQP::SolverPROXQP"]}
{"id": "C34", "title": "set_rho_sparse has no effect on the next solve", "statement": "Expected: a penalty set with set_rho_sparse is the initial penalty of the next solve. This is false in every case: whatever the value and the state of the object, solve after set_rho_sparse behaves exactly as without it (as long as the guess is well-formed and the time limit is not already reached at the first check).", "quantifier": "all values and settings of reset_rho", "why_tests_cant": "data flow through the whole solve", "anchors": ["include/mim_solvers/csqp.hpp:set_rho_sparse", "src/csqp.cpp:SolverCSQP::solve", "src/csqp.cpp:SolverCSQP::reset_rho_vec"]}
{"id": "C35", "title": "Stationary ADMM iterates solve the constrained QP", "statement": "If an ADMM iteration reproduces its own iterate (z unchanged, primal residual zero, direction unchanged), the direction satisfies the KKT conditions of the inequality-constrained LQ subproblem with multiplier y; in general the stationarity defect equals an explicit linear function of the primal and dual residuals.", "quantifier": "all QPs, sigma, rho, alpha", "why_tests_cant": "identity over all iterates", "anchors": ["src/csqp.cpp:SolverCSQP::update_lagrangian_parameters", "src/csqp.cpp:SolverCSQP::backwardPass"]}
{"id": "C36", "title": "SolverCSQP's true does not imply complementary slackness", "statement": "Expected: solve returning true implies complementary slackness of the returned multipliers and constraint values up to the tolerance. This is false: with default parameters solve returns true on a one-node problem with y < -0.9 on a row whose lower bound -1 is inactive (g = 0), i.e. at a non-optimal point. What holds (C27) is exact complementarity of y with the QP variable z.", "quantifier": "all problems", "why_tests_cant": "needs quantification over problems", "anchors": ["src/csqp.cpp:SolverCSQP::checkKKTConditions"]}
{"id": "C37", "title": "First QP iteration never reads uninitialised penalties", "statement": "For every combination of maxiter, reset_rho and settings, the penalty vector has been written for every row with lb <= ub before the first ADMM iteration of a solve reads it.", "quantifier": "all settings and bound configurations", "why_tests_cant": "all configurations and paths", "anchors": ["src/csqp.cpp:SolverCSQP::solve", "src/csqp.cpp:SolverCSQP::computeDirection", "src/csqp.cpp:SolverCSQP::reset_params"]}
{"id": "C38", "title": "Thread count does not change trial evaluation", "statement": "In exact arithmetic, the cost, gap norm and constraint norm of every completed execution of tryStep's parallel loop are the sums over the horizon, whatever the threads; if the costs are non-negative, every execution returns what the sequential one returns, or, when the sequential one raises, raises or kills the process. Otherwise thread scheduling matters: a NaN cost kills the process under every schedule, the number of threads can decide between returning and dying, and in binary64 the order of the reduction can decide between acceptance and rejection of the same trial.", "quantifier": "all schedules, partitions and reduction orders; exact and binary64 arithmetic", "why_tests_cant": "all interleavings and rounding", "anchors": ["src/csqp.cpp:SolverCSQP::tryStep"]}
{"id": "C39", "title": "SQP solve is independent of earlier solves", "statement": "Take two SolverSQP objects for the same problem models and filter size, with arbitrary histories of public calls (solves, direction computations, trial steps, growing the filter). A call solve(args) with the same arguments and parameters behaves the same on both: same normal return / exception, same boolean, same xs and us, iteration count and regularisation, same convergence/line-search/acceptance trace, and after success the same KKT residual, cost and multipliers. The only thing of the past that shows is the step length printed by the callbacks of the first iteration.", "quantifier": "all pairs of histories of public calls, all arguments and parameters with a non-empty list of step lengths, any arithmetic", "why_tests_cant": "all histories", "anchors": ["src/sqp.cpp:SolverSQP::solve", "src/ddp.cpp:SolverDDP::calcDiff"]}
{"id": "C40", "title": "PROXQP's QP is the linearised subproblem, unless control dimensions vary", "statement": "After SolverPROXQP::calc the data P,q,A,b,C,l,u handed to the QP backend describe exactly the stagewise subproblem at the candidate: equal objective for every direction, feasible directions = those meeting linearised dynamics and all constraint bounds, and the optimality conditions agree with lag_mul/y read back at the documented offsets. Objective and dynamics hold for every sequence of control dimensions; the constraint rows only if every constrained node's controls start at (node index)*(its nu), e.g. all nu equal. Otherwise it fails: with nu = 2 then 1, the QP accepts a direction violating the linearised constraint of the second node. If the backend's answer satisfies the QP's optimality conditions, the stored direction and multipliers satisfy those of the subproblem.", "quantifier": "all horizons >= 1, state dimensions, control and constraint dimensions, models, and objects reachable by any calls", "why_tests_cant": "index arithmetic over all dimension sequences", "anchors": ["src/csqp_proxqp.cpp:SolverPROXQP::calc"]}
{"id": "C41", "title": "What PROXQP's true certifies", "statement": "When SolverPROXQP::solve returns true, the returned candidate, with the multipliers the solver held when the last residual was computed, has stationarity, defects and constraint violation all within the tolerance, whatever the backend answers. Those are not the exposed multipliers: lag_mul and y are overwritten by the QP solved after the residual check, and on a concrete problem with an exact backend solve returns true while the residual at the candidate with the exposed lag_mul and y is 3/2 of the tolerance.", "quantifier": "all problems, objects reachable by any calls, all QP backend answers; all tolerances > 0 for the counterexample", "why_tests_cant": "all backend outputs", "anchors": ["src/csqp_proxqp.cpp:SolverPROXQP::computeDirection", "src/csqp_proxqp.cpp:SolverPROXQP::checkKKTConditions"]}
{"id": "C42", "title": "SolverKKT assembles and solves the LQ KKT system", "statement": "After any history of calls, SolverKKT::computeDirection(true) keeps xs/us, evaluates the derivatives there, and assembles a matrix and vector whose linear system, unpacked into dxs/dus/lambda, is exactly the optimality system of the LQ subproblem (right signs and offsets for every horizon and every sequence of control dimensions; symmetric when the Hessians are). If the matrix is invertible the stored direction solves that system; if the Hessians are positive semidefinite with positive definite Luu, the matrix is invertible and the stored dus are the unique minimiser.", "quantifier": "all call histories, horizons, dimension sequences, problem data; LU factorisation exact", "why_tests_cant": "index arithmetic over all dimensions", "anchors": ["src/kkt.cpp:SolverKKT::calcDiff", "src/kkt.cpp:SolverKKT::computePrimalDual", "src/kkt.cpp:SolverKKT::computeDirection"]}
{"id": "C43", "title": "SolverKKT's KKT residual vanishes at optima", "statement": "What SolverKKT's KKT residual measures: after computeDirection with an invertible system it is the largest entry of 2*gradient + Hessian*direction over the nodes, and gaps never enter. Hence (a) with a zero direction it is twice the largest gradient entry, so an exact optimum with nonzero gradients is not certified, and (b) a guess that violates the dynamics and the initial state can be returned with true. (The intended property -- zero at optima, nonzero when gaps are -- is refuted.)", "quantifier": "all problems", "why_tests_cant": "universal over problems", "anchors": ["src/kkt.cpp:SolverKKT::checkKKTConditions"]}
{"id": "C44", "title": "SolverKKT::solve terminates when evaluation fails", "statement": "SolverKKT::solve terminates for every behaviour of the models. If the evaluation at the guess raises, solve does not return false: it retries without re-evaluating, works on the matrix and vector of the previous call until it ends, and returns true when the previous call's residual was within the tolerance -- with the raising guess as the reported solution. (The intended 'returns false' is refuted.)", "quantifier": "all problems, settings, call histories, sets of points where evaluation raises", "why_tests_cant": "termination", "anchors": ["src/kkt.cpp:SolverKKT::solve"]}
{"id": "C45", "title": "A SolverDDP call is a chain of roll-outs", "statement": "Whatever the state of the solver object, a call of SolverDDP::solve that returns has performed a sequence of at most maxiter accepted steps. Each accepted step starts from the current candidate (the guess, then the previous accepted one) with derivatives evaluated there; its controls are u - a*k - K*(x_new - x) with a one of the configured step lengths, its states are exactly the roll-out of these controls from x0 (so all gaps are zero), its cost is the sum of the model costs along that roll-out, and it satisfies the documented acceptance test. On return xs, us, cost and is_feasible are those of the last accepted step, or of the guess when none was accepted. The only exception is a guess of wrong size.", "quantifier": "all problems with at least one running node, all models, arithmetics, parameters, guesses, object histories", "why_tests_cant": "all executions", "anchors": ["src/ddp.cpp:SolverDDP::forwardPass", "src/ddp.cpp:SolverDDP::solve"]}
{"id": "C46", "title": "FDDP trial gap norm measures the defects of the trial (fails)", "statement": "Expected: the gap norm SolverFDDP's filter uses for a trial is the 1-norm of the trial trajectory's defects, so zero for full-step trials. This fails: the code sums |f(x_t,u_t) - x_t|. Proved instead: what the defects of every accepted step are (C55), and that with default parameters the wrong measure makes solve return false with an unchanged guess on a one-node LQ problem that SolverSQP solves in one iteration.", "quantifier": "all problems (positive part); one concrete run (negative part)", "why_tests_cant": "universal", "anchors": ["src/fddp.cpp:SolverFDDP::forwardPass"]}
{"id": "C47", "title": "DDP's expected decrease on linear-quadratic problems", "statement": "On a linear-quadratic problem (affine dynamics, quadratic costs with symmetric Hessians) from a feasible candidate, the cost decrease of the SolverDDP trial of length a equals exactly a(1-a/2) sum Qu.k, the expected decrease, plus preg/2 times the squared motion of the states plus dreg/2 times the squared motion of the controls. So with non-negative regularisation, th_acceptstep < 1 and th_grad > 0 the line search accepts the first step length tried (provided the roll-out stays below the overflow threshold), and every step a call of solve accepts after the first one decreases the cost by at least the expected decrease.", "quantifier": "all linear-quadratic problems, horizons, candidates, step lengths, regularisations (exact arithmetic)", "why_tests_cant": "identity over all data", "anchors": ["src/ddp.cpp:SolverDDP::expectedImprovement", "src/ddp.cpp:SolverDDP::forwardPass", "src/ddp.cpp:SolverDDP::solve"]}
{"id": "C48", "title": "Verbose callback is safe with every solver that invokes it", "statement": "CallbackVerbose can be registered with SolverDDP, SolverSQP, SolverFDDP and SolverCSQP: the object is only viewed as its own dynamic type, and the line printed consists of the object's iteration, merit, cost, gap (constraint norm, step, residual, QP iterations). Holds for SolverSQP and SolverCSQP; refuted for SolverDDP and SolverFDDP, which pass the tag of SolverSQP so that every call is an invalid static_cast (undefined behaviour).", "quantifier": "all solver kinds and iteration numbers", "why_tests_cant": "undefined behaviour is not observable by tests", "anchors": ["src/utils/callbacks.cpp:CallbackVerbose::operator()", "src/ddp.cpp:SolverDDP::solve", "src/fddp.cpp:SolverFDDP::solve"]}
{"id": "C49", "title": "Verbose header columns have the promised width", "statement": "For every precision >= 0 the header consists of the labels padded to max(width, label) characters, width = 6 + precision, plus one blank exactly when a label is longer than the column by an odd number; from precision 8 on all columns have exactly that width; set_precision rejects exactly negative values and keeps the old value; a precision above INT_MAX-6 makes the header undefined.", "quantifier": "all precisions", "why_tests_cant": "all integers", "anchors": ["src/utils/callbacks.cpp:update_header", "src/utils/callbacks.cpp:set_precision"]}
{"id": "C50", "title": "Ill-posed step lengths are rejected", "statement": "tryStep of SolverSQP, SolverCSQP, SolverPROXQP, SolverDDP and SolverFDDP raises for every step length below 0 or above 1 and then changes nothing (a NaN step length is not caught: SolverSQP then returns normally, with NaN in the trial states, when the cost does not depend on them); whatever the step length it leaves the candidate and its cost unchanged (SolverSQP, SolverCSQP and SolverPROXQP also the multipliers).", "quantifier": "all step lengths and states", "why_tests_cant": "all doubles", "anchors": ["src/sqp.cpp:SolverSQP::tryStep", "src/csqp.cpp:SolverCSQP::tryStep", "src/csqp_proxqp.cpp:SolverPROXQP::tryStep", "src/ddp.cpp:SolverDDP::forwardPass", "src/fddp.cpp:SolverFDDP::forwardPass"]}
{"id": "C51", "title": "SolverDDP success is a certificate about the returned trajectory", "statement": "If SolverDDP::solve returns true then the stored model data and derivatives are those of a fresh evaluation at the returned xs, us, KKT_ is the norm of the residual computed from them, and it is <= the termination tolerance. The converse fails: an optimal feasible guess is not recognised at iteration 0 since the first check uses the multipliers of the constructor (or of the previous call).", "quantifier": "all problems, guesses, parameters, object histories", "why_tests_cant": "a certificate must hold for every execution; staleness shows only after particular histories", "anchors": ["src/ddp.cpp:SolverDDP::solve", "src/ddp.cpp:SolverDDP::checkKKTConditions"]}
{"id": "C53", "title": "Convex constrained subproblems never raise", "statement": "In SolverCSQP, if at the point where a direction is computed every stage Hessian is symmetric positive semidefinite, every row has lb <= ub, rho_min and rho_base are positive with rho_min <= rho_max, sigma >= 0, the regularisation is non-negative and sigma + regularisation is positive (and, for the equality guess, the regularisation is positive or every Luu positive definite), then the direction computation raises no exception, whatever the number of ADMM iterations, penalty updates and time-outs.", "quantifier": "all convex problems, histories of API calls, configurations, clocks and iteration counts (exact arithmetic)", "why_tests_cant": "needs every matrix and every sequence of adaptive penalties", "anchors": ["src/csqp.cpp: SolverCSQP::computeDirection", "src/csqp.cpp: SolverCSQP::backwardPass"]}
{"id": "C54", "title": "The equality-QP initial guess is the unconstrained minimiser", "statement": "With the equality-QP initial guess enabled, the direction with which the ADMM loop of SolverCSQP starts is the unique minimiser of the regularised LQ subproblem without constraint rows (and satisfies its KKT system with dx_0 = 0).", "quantifier": "all problems, states and regularisations for which the guess does not raise (exact arithmetic)", "why_tests_cant": "needs all derivatives and horizons", "anchors": ["src/csqp.cpp: SolverCSQP::backwardPass_without_constraints", "src/csqp.cpp: SolverCSQP::forwardPass_without_constraints"]}
{"id": "C55", "title": "A SolverFDDP call is a chain of multiple-shooting steps that contract the gaps by 1-a", "statement": "For any state of the solver object with filter buffers of the configured size, a call of SolverFDDP::solve that returns has performed at most maxiter accepted steps; each starts from the current candidate with fresh derivatives, applies the policy u - a k - K dx, each state is the image of its predecessor retracted by (a-1) times the present gap (closed when a = 1 or the candidate is marked feasible), and passes the filter (against exactly the last filter_size recorded iterations of this call) or the expectation test. Hence every gap is multiplied by exactly 1-a. xs, us, is_feasible are those of the last step; a candidate marked feasible is the guess or a roll-out from x0; true is a certificate about freshly evaluated data. get_cost() is the cost of the returned trajectory unless the filter accepted the last step and solve returned false (counterexample).", "quantifier": "all problems with a running node, all guesses, parameters, object histories, step lengths; gap identity in exact arithmetic on retractions", "why_tests_cant": "quantifies over every execution of the loop and every history of the object", "anchors": ["src/fddp.cpp:SolverFDDP::solve", "src/fddp.cpp:SolverFDDP::forwardPass", "src/fddp.cpp:SolverFDDP::expectedImprovement"]}
{"id": "C56", "title": "SolverDDP descends", "statement": "For models with symmetric Hessians, at every step SolverDDP accepts the expected decrease is a(1-a/2) D with 0 <= a <= 1 and D = sum Qu.k >= 0, and D = 0 exactly when every control gradient Qu vanishes. A step accepted from a feasible candidate with D >= th_grad decreases the cost by more than th_acceptstep times the expected decrease, so strictly. In a call of solve this holds for every accepted step but the first, and for the first too if the guess is declared feasible; with th_grad <= 0 the cost of the returned candidate is then strictly below that of the guess unless the guess is returned.", "quantifier": "all problems with symmetric Hessians, nonlinear ones included, parameters with th_acceptstep >= 0, guesses, object states (exact arithmetic)", "why_tests_cant": "descent must hold at every accepted step of every execution", "anchors": ["src/ddp.cpp:SolverDDP::solve", "src/ddp.cpp:SolverDDP::expectedImprovement"]}
{"id": "C57", "title": "solve returning false means that something was exhausted", "statement": "SolverSQP::solve returns false only after exactly maxiter line searches or with the regularisation equal to its maximum. SolverCSQP::solve returns false only after exactly maxiter line searches, after a final line search that admitted no step length, with the regularisation at its maximum (regularisation not removed), or because max_solve_time was reached; and it reports the time limit as reached only if one of its checks of the clock exceeded it. Neither gives up for another reason.", "quantifier": "all problems, parameters, guesses, object histories and clocks, any arithmetic", "why_tests_cant": "ranges over all runs", "anchors": ["src/sqp.cpp: SolverSQP::solve", "src/csqp.cpp: SolverCSQP::solve, computeDirection"]}
{"id": "C58", "title": "Regularisation has no effect on PROXQP's QP", "statement": "The direction SolverPROXQP computes (and whether the backend throws) does not depend on preg/dreg. Hence if the QP backend throws at the first attempt of an iteration, every retry after increasing the regularisation throws as well: solve returns false with preg = reg_max and an unchanged candidate, never a direction.", "quantifier": "all problems, backends (as functions of the QP), configurations, retry counts", "why_tests_cant": "quantifies over every backend and every number of retries", "anchors": ["src/csqp_proxqp.cpp:SolverPROXQP::solve", "src/csqp_proxqp.cpp:SolverPROXQP::computeDirection"]}
{"id": "C59", "title": "ADMM iterations approach the solution and the QP loop terminates by its test", "statement": "Let the QP subproblem of a call of SolverCSQP::computeDirection made during solve be convex (with well-ordered rows) and let (dx*,du*,y*) be any KKT point of it. With a positive rho_update_interval, positive penalties, 0 <= alpha <= 2 and sigma >= 0, every QP iteration after the first one decreases the weighted distance sum_rows rho_i (z_i - (G dx*)_i + (y_i - y*_i)/rho_i)^2 + alpha sigma |(dx,du) - (dx*,du*)|^2 by at least alpha (2 - alpha) sum_rows rho_i ((G dx_new)_i - z_i)^2 + alpha sigma |change of (dx,du)|^2. If the settings make the penalty constant (rho_max <= rho_base * adaptive_rho_tolerance and rho_base / adaptive_rho_tolerance <= rho_min), eps_abs > 0 and 0 < alpha < 2, then for every sufficiently large max_qp_iters computeDirection returns with its termination test fulfilled (or at the time limit); an explicit sufficient budget is B / delta tests, with B the distance after the first iteration.", "quantifier": "all problems, dimensions, horizons, histories of the solver object, settings in the stated ranges, KKT points, and all QP iterations of all calls made by solve", "why_tests_cant": "It is a convergence statement over unboundedly many iterations of every convex problem; tests run finitely many problems with fixed budgets.", "anchors": ["src/csqp.cpp: SolverCSQP::computeDirection, update_lagrangian_parameters, update_rho_vec, backwardPass, forwardPass"]}
{"id": "C60", "title": "What the termination test of the QP loop certifies", "statement": "When a call of SolverCSQP::computeDirection made during solve leaves the QP loop by its termination test, with primal tolerance tolp and dual tolerance told, the exposed direction and multipliers satisfy the KKT conditions of the regularised LQ subproblem approximately: the linearised dynamics hold exactly; every linearised constraint row is within tolp of its bounds, and within tolp of the bound that a non-zero multiplier belongs to; every component of the stationarity conditions is at most |1-alpha| K tolp + |2-alpha| L told + sigma eps, where K bounds the penalty-weighted column sums of the row Jacobians, L is 1 (or bounds the plain column sums when update_rho_with_heuristic is set), and eps is the largest change of a component of the direction in the last iteration. The last term is not tested by the code: on a problem without constraint rows the first test always succeeds, and the direction solves the subproblem only if the iteration did not change it.", "quantifier": "all problems with symmetric Hessians and well-ordered rows, dimensions, horizons, histories, settings in the stated ranges, and all terminating QP iterations of all calls made by solve", "why_tests_cant": "The bound relates residual norms computed by the code to the exact KKT system for every problem and every iteration; a test observes single runs, and the missing proximal residual is invisible unless a run happens to stop early.", "anchors": ["src/csqp.cpp: SolverCSQP::computeDirection, update_lagrangian_parameters"]}
{"id": "C61", "title": "Control flow of SolverDDP and SolverFDDP", "statement": "Every returning call of SolverDDP::solve or SolverFDDP::solve runs one round of callbacks per finished iteration, iterations numbered 0, 1, 2, ..., each registered callback once and in order, each time with a residual above termination_tol and a step length from the list; get_iter() is the number of finished iterations and at most maxiter. true means that the residual is within termination_tol and the budget was not used up; false means that exactly maxiter iterations were finished or that the regularisation equals reg_max. An exception leaves solve only for a guess of the wrong size. With the initial regularisation in [reg_min, reg_max] every direction is computed with equal primal and dual regularisation in that range, and with positive values and a growth factor above one there is a number of retries, depending on these parameters only, that no iteration exceeds.", "quantifier": "all problems, horizons, guesses, settings, object histories and maxiter; callbacks, budget and outcome for any arithmetic, range and retry bound for exact arithmetic", "why_tests_cant": "All runs of the loop, including those in which directions and line searches fail in any pattern.", "anchors": ["src/ddp.cpp: SolverDDP::solve, increaseRegularization, decreaseRegularization", "src/fddp.cpp: SolverFDDP::solve"]}
{"id": "C62", "title": "How much of its past a SolverCSQP object remembers", "statement": "Take two SolverCSQP objects built for the same models and filter size, with any two histories of public calls, and make the same call of solve on both, with the same parameters and the same sequence of clock answers. If get_y agrees on both (or reset_y is set) and get_dx, get_du agree on both (or equality_qp_initial_guess is set), if no constraint row has its lower bound more than 1e-6 above its upper bound and at least one QP iteration is allowed, then the two calls have the same outcome (returns, raises, undefined), return the same value, leave the same states, controls, iteration count, regularisation and time-limit flag, and show the same trace of callbacks, line-search steps and QP iterations (except the merit shown by callbacks of iteration 0); when they return true the cost, gap, constraint violation, KKT residual and all multipliers agree too. Stored z, rho, directions, filter contents, cached evaluations and Riccati blocks of the past are therefore never read. With the default parameters (reset_y off) the multipliers y of an earlier solve of a different initial state do change the trajectory returned.", "quantifier": "all problems, horizons, guesses, settings, clock schedules and pairs of object histories, any arithmetic (in particular binary64)", "why_tests_cant": "Quantifies over all pairs of histories of public calls; a stale buffer shows only for particular histories.", "anchors": ["src/csqp.cpp: SolverCSQP::solve, reset_params, reset_rho_vec, computeDirection, calc, update_lagrangian_parameters, tryStep"]}
{"id": "C63", "title": "What a returning call of SolverPROXQP::solve did", "statement": "Every returning call of SolverPROXQP::solve takes the guess, its first state replaced by x0, through at most maxiter rounds to the returned candidate. Each round evaluates the problem at its candidate, asks the QP solver for a direction there and finds a residual above termination_tol; it then takes the first step length of the list that the merit or filter rule admits, in the model's integration, or leaves the candidate unchanged and goes on when there is none. The rule compares cost + mu_dynamic * gap + mu_constraint * violation, or the three values with those of the last filter_size iterations, always computed at the candidates themselves. true means that the residual at the returned candidate is within termination_tol and the budget was not used up, false that maxiter rounds were done or the regularisation is at reg_max. The regularisation follows the step lengths alone, unless a failing QP solver raised it to the maximum.", "quantifier": "all problems, horizons, guesses, settings, QP solvers and object histories, exact arithmetic", "why_tests_cant": "All runs, with every pattern of accepted and rejected line searches and QP solver failures.", "anchors": ["src/csqp_proxqp.cpp: SolverPROXQP::solve, calc, computeDirection, tryStep"]}
{"id": "C64", "title": "What a returning call of SolverKKT::solve did", "statement": "Every returning call of SolverKKT::solve that starts at a guess the models can evaluate takes that guess through at most maxiter rounds to the returned candidate. Each round evaluates the models and their derivatives at its candidate, computes a direction there and finds a residual above termination_tol; it then takes the first step length at which the models evaluate without raising and which either has an expected slope below th_grad, or is tried from a candidate not marked feasible, or decreases the total cost by more than th_acceptstep times the value predicted by the quadratic model. With no such step length the candidate is kept. true means that the residual at the returned candidate is within termination_tol, or that the last round saw a squared Lagrangian gradient plus squared defects below th_stop after a step had been taken from a candidate marked feasible; false means that maxiter rounds were done without either.", "quantifier": "all problems, horizons, guesses, settings, linear solvers and object histories, exact arithmetic", "why_tests_cant": "All runs, with every pattern of accepted, rejected and raising trials.", "anchors": ["src/kkt.cpp: SolverKKT::solve, tryStep, stoppingCriteria, expectedImprovement"]}
{"id": "C65", "title": "How much of its past a SolverPROXQP object remembers", "statement": "Take two SolverPROXQP objects built for the same models and initial state, with any two histories of public calls, and make the same call of solve on both with the same parameters; the QP backend is a function of the QP it is given. If get_lag_mul and get_y agree on both (and, when the list of step lengths is empty, the last step length too), and the filter buffers have the configured size whenever the filter is used, then the two calls have the same outcome, return the same value and leave the same states, controls, multipliers, iteration count and regularisation; when they return true, the KKT residual, cost, gap, constraint violation, merit and the directions agree too. The QP matrices and vectors, filter contents, cached evaluations, directions, step length, regularisation and candidate left by earlier calls are never read.", "quantifier": "all problems, horizons, guesses, settings, QP backends (including ones that throw) and pairs of object histories (exact arithmetic)", "why_tests_cant": "Quantifies over all pairs of histories of public calls; a QP buffer entry or filter slot that is not overwritten shows only for particular histories and sizes.", "anchors": ["src/csqp_proxqp.cpp: SolverPROXQP::solve, calc, computeDirection, checkKKTConditions, tryStep"]}
{"id": "C66", "title": "A trial whose dynamics gap is NaN: rejected by the merit rule, accepted by the filter", "statement": "In SolverSQP and SolverCSQP a trial step whose cost is an ordinary number but whose gap norm (or, in SolverCSQP, constraint norm) is NaN is never accepted when use_filter_line_search is false. With the filter (the default) it is always accepted, whatever the filter memory holds. Consequence: on a one-node problem with x+ = sqrt(u) and a well-defined guess, SolverSQP with default parameters moves to a control where the dynamics is NaN and stays there for every further iteration; SolverCSQP with default parameters moves there and returns true with get_KKT() = 0.", "quantifier": "all problems, solver states, settings and step lengths in binary64; the consequence is a concrete run", "why_tests_cant": "The claim is about every filter memory and every state; no test has dynamics that can be undefined.", "anchors": ["src/sqp.cpp: SolverSQP::solve (line search), tryStep", "src/csqp.cpp: SolverCSQP::solve (line search), tryStep, checkKKTConditions"]}
{"id": "C67", "title": "set_rho_update_interval(0) is accepted and the next solve crashes", "statement": "SolverCSQP::set_rho_update_interval accepts 0. With that value, max_qp_iters >= 1 and no time limit, every call of solve that iterates (maxiter >= 1 or extra_iteration_for_last_kkt) from a well-formed guess divides by zero, whatever the problem, the guess and the object's past; with equality_qp_initial_guess on, the only other possible endings are the exceptions and failures of the equality-constrained starting pass. It never returns true.", "quantifier": "all problems, guesses, settings with interval 0, object states; any arithmetic", "why_tests_cant": "The claim is about every problem and state; the tests only use the default interval.", "anchors": ["include/mim_solvers/csqp.hpp: set_rho_update_interval", "src/csqp.cpp: SolverCSQP::computeDirection, solve"]}
