# Formal model of mim_solvers in Rocq (Coq 8.16.1)

## Layout
* `rocq/theories/Eigen.v` – the interface "scalars + Eigen" as one record; every model function is parametric in it.
* `rocq/theories/EigenExact.v` – interpretation (i): exact arithmetic, mathcomp matrices over an arbitrary `realFieldType`.
* `rocq/theories/EigenFloat.v` – interpretation (ii): IEEE binary64 (`SpecFloat`), executable, used for NaN/overflow behaviour and for refutations.
* `rocq/theories/{Problem,DDP,SQP,CSQP,...}.v` – the model, one file per source file, each definition citing the lines it models.
* `rocq/theories/*Spec.v` – small independent specifications (LQ problem, QP, ...).
* `rocq/theories/*Proofs.v` – proofs; `rocq/theories/Properties*.v` – the theorems listed in MANIFEST.json.

## Trusted base
* Coq 8.16.1's kernel (and `vm_compute`).
* `Print Assumptions` under every property theorem (see the Properties files; summary at the end of this file).
* The reading of the C++ into the model, and the behaviour assumed of code outside /repo:
  - crocoddyl: `setCandidate` (empty guess = zero states / zero controls, wrong sizes throw, else copy), `ShootingProblem::calc/calcDiff`
    (calc writes the per-node data, calcDiff reads it and the point and writes derivatives, and returns the sum of the stored costs),
    `computeDynamicFeasibility` (fs[0] = diff(xs[0],x0), fs[t+1] = diff(xs[t+1],xnext_t)), `raiseIfNaN` (NaN, inf, >= 1e30),
    `steplength_` initially 1, `th_acceptstep_` = 0.1.
  - Eigen: LLT succeeds iff the matrix given by the lower triangle is positive definite and then solves exactly (exact
    interpretation; *proved* of the recursive Cholesky test used there); coefficient-wise operations are coefficient-wise.
  - `std::max(a,b) = (a<b)?b:a`, `std::min(a,b) = (b<a)?b:a`; unqualified `abs` on doubles is `std::abs(double)`.
  - boost::circular_buffer `resize`/`push_back`/`operator[]`.
* Not modelled: profiling, console output formatting of numbers, Python bindings' conversion code, memory allocation,
  `resizeData` (problem dimensions are fixed during the life of a solver), rounding order inside one Eigen reduction.

## Per-property plan
* **C01** SQP search direction solves the LQ KKT system — Model DDP::backwardPass + SQP::forwardPass per node (DDP.v, SQP.v); spec LQSpec.v states the LQ KKT system on plain matrices; proof by induction on the node list with the value-function invariant lam = Vxx(dx-fs)+Vx.
* **C02** SQP direction is the unique minimiser of the LQ subproblem — Completing the square over the same induction; spec: quadratic model value of a competitor trajectory (LQSpec.v).
* **C03** Convex subproblems never make the backward pass fail — PSD invariant for Vxx by Schur complement; LLT contract proved for the exact instance.
* **C04** Value-function Hessians are symmetric — Corollary of the backward-pass induction.
* **C05** The search direction vanishes exactly at KKT points — Uniqueness (from 2) plus residual algebra.
* **C06** get_KKT() is the max-norm of all optimality residuals — Generic fold-of-max lemma on the exact instance.
* **C07** A NaN derivative is never certified as optimal — Binary64 instance: run the model on NaN derivatives (refutation for CSQP); SQP: proof that a NaN value gradient/Hessian raises.
* **C08** SolverSQP::solve returning true means the returned trajectory is a KKT point — Full solve loop of SQP; refuted by a binary64/exact witness (stale datas after a fully rejected line search); positive part: proved for executions where each line search accepts.
* **C09** SolverCSQP::solve returning true means small residuals at the returned trajectory — Invariant of the CSQP loop: datas fresh at the KKT check.
* **C10** The initial state is pinned — Invariant: dx[0]=0 and xs[0]=x0.
* **C11** LQR problems are solved by one full SQP step — Corollary of 1 and affine algebra.
* **C12** Gaps contract linearly along the step for affine dynamics — Affine algebra on tryStep.
* **C13** Merit line search accepts only strict decrease — Structure of the line-search recursion, any arithmetic.
* **C14** Filter line search accepts only non-dominated trials — Same, with the circular-buffer model and push history.
* **C15** set_filter_size takes effect for every history of sizes — Model boost::circular_buffer resize/push_back; invariant for growing histories, refutation for shrinking.
* **C16** Regularisation retry terminates — Archimedean argument on exact arithmetic; divergence witnesses as forall-fuel theorems.
* **C17** Regularisation stays within its configured range — Invariant over the solve loop (exact order).
* **C18** Iteration budget — Invariant over the solve loop, any arithmetic.
* **C19** Callback protocol — Trace component of the state; invariant, any arithmetic.
* **C20** Setters accept exactly their documented range and fail atomically — Model of each setter; iff theorems; NaN findings on binary64.
* **C21** A trial with NaN or overflowing cost is never accepted — Invariant on the tryStep recursion.
* **C22** Accepted trial values are the next iterate's values — Two recursions (tryStep vs calc) shown equal under a monoid law; exact instance.
* **C23** Each ADMM primal step solves its augmented LQ KKT system — As 1, for the augmented data.
* **C24** The fast backward pass equals the full backward pass — Induction; needs only that LLT stores the factor.
* **C25** Multithreaded passes equal the sequential ones for every schedule — Generic scheduler lemma on disjoint slots + equality of the two phase split.
* **C26** The fast pass is never used with a stale factorisation — Ghost-free statement: the pass result of computeDirection equals that of a variant using the full pass always.
* **C27** Projected constraint variable and multiplier are complementary — Componentwise order lemmas on exact instance.
* **C28** Penalty vector classification — Componentwise case analysis; uninitialised slot modelled by option.
* **C29** Adaptive penalty stays in range — Extended scalars (finite, +-inf, NaN) in the exact instance.
* **C30** get_qp_iters() is the number of QP iterations executed — Loop count; refuted (exhaustion gives max+1), with exact characterisation.
* **C31** Solve-time limit semantics — Clock as an arbitrary oracle; trace of started iterations.
* **C32** get_steplength() is the accepted step length — Refuted: shadowed variable at csqp.cpp:316.
* **C33** Constructor rejects equality constraints — Fold over models.
* **C34** set_rho_sparse affects the next solve — Refuted: overwritten by reset_rho_vec on every path.
* **C35** Stationary ADMM iterates solve the constrained QP — Fixed-point algebra on top of 23.
* **C36** CSQP convergence implies complementarity — Refuted by an exact witness; positive part from 27 and zero primal residual.
* **C37** First QP iteration never reads uninitialised penalties — Rows carry an initialised flag; path analysis of solve.
* **C38** Thread count does not change trial evaluation — Exact: permutation invariance of sums; binary64: refutation witness.
* **C39** SQP solve is independent of earlier solves — Relational (two-run) invariant of the solve loop.
* **C40** PROXQP assembles the stagewise QP — Index-level assembly model; spec = block expression; refuted for varying nu.
* **C41** PROXQP returns true only with matching multipliers — Order of operations in computeDirection; refuted; true under unchanged multipliers.
* **C42** SolverKKT assembles and solves the LQ KKT system — Assembly with block matrices; lu().solve contract.
* **C43** SolverKKT's KKT residual vanishes at optima — Refuted by sign; algebra.
* **C44** SolverKKT::solve terminates when evaluation fails — forall fuel divergence.
* **C45** DDP candidates are dynamically feasible rollouts — Induction on forwardPass.
* **C46** FDDP trial gap norm measures the defects of the trial — Refuted by witness.
* **C47** DDP line search uses the expected decrease of the step it takes — Algebra over the backward pass.
* **C48** Verbose callback is safe with every solver that invokes it — Dynamic type tag model; refuted for DDP/FDDP.
* **C49** Verbose header columns have the promised width — String model of center_string.
* **C50** Ill-posed step lengths are rejected — Direct, any arithmetic.
