import json,re
head = r'''# Formal model of mim_solvers in Rocq (Coq 8.16.1)

The model is a function-by-function transcription of `src/{ddp,fddp,sqp,csqp,csqp_proxqp,kkt}.cpp`,
`src/utils/callbacks.cpp` and the headers they need.  Every definition cites the lines it models; simplifications are
stated in the same comment.

## 1. Method

* **One model, two readings.** All solver functions are written once, parametric in a record `E : Eig` (`Eigen.v`) of
  scalars, vectors, matrices and the Eigen operations used.  `EigenExact.v` interprets it with mathcomp matrices over an
  arbitrary `realFieldType` (exact arithmetic); `EigenFloat.v` with IEEE binary64 (`SpecFloat`), which computes.
  Control-flow properties are proved for *every* `E` (so also for binary64 with NaN and infinities); algebraic ones for
  the exact reading; refutations are complete executions of the model in binary64 with default parameters
  (`vm_compute` inside the kernel) or exact constructions.
* **The problem is arbitrary.** `Problem.v`: a state manifold (`diff`, `integrate`, norms), running/terminal action
  models with their own control and constraint dimensions (0 allowed), their data objects as *memory* written by `calc`
  and read by `calcDiff`.  Nothing is assumed of the models unless a theorem says so (affine, quadratic, symmetric, convex ...).
* **The solver object is a record** of the C++ members that outlive a call; `solve` maps (arguments, parameters, object)
  to `Ret b s | Exc s | UB | NoFuel`.  The only fuel is that of the unbounded `while (true)` retry loops (C16 proves
  when a bound exists).  "Any history of API calls" is an inductive predicate (`History.v`, `CSQPHist.v`, `KKTHist.v`, `PROXHist.v`).
* **Observable events** (callbacks, line searches, acceptances, clock readings, QP iterations) are a ghost log in the state.
* **Specifications are separate** (`LQSpec`, `QPSpec`, `TrialSpec`, `TraceSpec`, `RollSpec`, `DDPSpec`, `FDDPSpec`, `SetSpec`, `KKTSpec`,
  `PROXSpec`, `ADMMSpec`, `Affine`): plain matrices, lists and inequalities that do not mention the passes.
* **Where the code does not have the property** the theorem proves the strongest true part and a second theorem is the counterexample.

## 2. Layout (`rocq/theories`)

| files | content |
|---|---|
| Eigen, EigenExact, EigenFloat, FieldTac, ExactLemmas, SsrLia, Flat | arithmetic interface, its two interpretations, Cholesky facts, tactics |
| Problem, DDP, Filter, SQP, CSQP, FDDP, Init, Setters, Callbacks, KKT, PROXQP, OMP, ParLoops, Models | **the model** (Models: LQ models used in examples) |
| LQSpec, QPSpec, TrialSpec, TraceSpec, RollSpec, DDPSpec, FDDPSpec, SQPSpec, CSQPSpec, ADMMSpec, CallSpec, SetSpec, KKTSpec, PROXSpec, Affine, Exit | specifications |
| Riccati, SubQP, PassExact, SQPDir, LQHom | the Riccati recursion: KKT system, value identity, uniqueness, convexity |
| FilterProofs, Rounds, SQPTrial, SQPLoop, CSQPTrial, CSQPLoop, CSQPFrames, History, CSQPHist, CSQPClock, KKTNorm, Retry, Indep, IndepTerm | loop invariants of SQP/CSQP |
| FastPass, ADMMExact, ADMMIter, CallInv, CallGood, CallCover, QPExact, CSQPConvex, EqGuess, ConvexQP | the ADMM loop |
| DDPLoop, DDPRun, DDPExact, FDDPInit, FDDPRun, AffineStep, KKTSys, KKTUniq, KKTHist, PROXBlocks, PROXSys, PROXHist | invariants of DDP/FDDP, affine steps, KKT and PROXQP |
| P_*.v | **the theorems of MANIFEST.json**, non-vacuity examples, counterexamples, `Print Assumptions` |
| Witness, AdmmWitness, FloatWitness, P_*Witness, P_*Float | concrete problems and runs |

## 3. Trusted base

* Coq 8.16.1's kernel including its `vm_compute` reduction machine.
* `Print Assumptions` of every theorem in MANIFEST.json answers **"Closed under the global context"**: no axiom, not even
  of the standard library, is used (collected in the generated `Assumptions.v`).
* No functor, module type, axiom, `Admitted`, plugin or kernel switch.
* The reading of C++ into the model, and the behaviour assumed of code outside /repo:
  - crocoddyl: `setCandidate` (empty guess = zero states / zero controls, wrong sizes throw, else copy); `ShootingProblem::calc/calcDiff`
    (calc writes the per-node data, calcDiff reads data and point and writes derivatives, and returns the sum of the stored costs);
    `computeDynamicFeasibility` (fs[0] = diff(xs[0],x0), fs[t+1] = diff(xs[t+1],xnext_t); zero when marked feasible);
    `raiseIfNaN` (NaN, inf, >= 1e30); `steplength_` initially 1, `th_acceptstep_` = 0.1; `ActionModelAbstract::calc(data,x)` for nu = 0.
  - Eigen: LLT succeeds iff the matrix given by the lower triangle is positive definite and then solves exactly (exact
    reading; *proved* of the recursive Cholesky used there; in binary64 the same recursion is executed);
    `lpNorm<Infinity>` = fold of max over absolute values (its NaN behaviour in the binary64 reading follows
    `std::max`-style comparison); coefficient-wise operations are coefficient-wise; sums are left folds (binary64).
  - `std::max(a,b) = (a<b)?b:a`, `std::min(a,b) = (b<a)?b:a`; unqualified `abs` on doubles (`apply_rho_update`) is the `double` overload.
  - boost::circular_buffer `resize`/`push_back`/`operator[]` (out-of-range read = UB).
  - OpenMP (`OMP.v`): `parallel for` gives every iteration to exactly one thread, statements of threads interleave
    arbitrarily, reductions combine private copies in any order and bracketing, an exception leaving the region ends the process.
  - `lu().solve` in SolverKKT and the ProxQP backend in SolverPROXQP are parameters (an LU that solves invertible
    systems; an arbitrary function of the QP that may also throw).
* **Not modelled**: profiling, number formatting of console output, Python bindings and the pure-Python prototypes,
  memory allocation, `resizeData` (dimensions fixed during the life of a solver), rounding order inside one Eigen reduction
  (binary64 runs use the left fold), integer overflow of `size_t` counters (`n_eq_crocoddyl`, iteration counts),
  exceptions thrown by user models' `calc` (except in KKT.v) and callbacks that modify the solver.
  With horizon T = 0 SQP's tryStep, DDP, FDDP, KKT and PROXQP read empty vectors: undefined behaviour, reported as such
  or excluded by hypothesis.

### Source coverage

| source | modelled | in |
|---|---|---|
| ddp.cpp 22-58, 62-159, 177-228, 253-445, 447-502 | ctor, solve, checkKKT, stopping, expectedImprovement, calcDiff, backwardPass, forwardPass, computeGains, regularisation, allocateData | DDP.v, Init.v |
| ddp.cpp 547-639 | setters | Setters.v |
| fddp.cpp 57-393 | solve, filter/expectation line search, forwardPass, updateExpectedImprovement | FDDP.v |
| sqp.cpp 23-374 | ctor, solve, computeDirection, checkKKT, forwardPass, tryStep | SQP.v, Filter.v, Init.v |
| csqp.cpp 24-1435 | everything incl. both multi-threaded passes, ADMM loop, penalty updates, clock | CSQP.v, ParLoops.v |
| csqp_proxqp.cpp 25-540 | ctor checks, solve, QP assembly, extraction, checkKKT, tryStep | PROXQP.v |
| kkt.cpp 44-365 | solve, assembly, direction, residual, step, expected improvement | KKT.v |
| utils/callbacks.cpp 19-167 | type dispatch, header layout, precision | Callbacks.v |

## 4. Per-property plan and outcome

'''
m={c['property']:c for c in json.load(open('/verif/MANIFEST.json'))['claims']}
old=open('/verif/DESIGN.md').read() if False else open('/verif/tools/plan.md').read()
plan=dict(re.findall(r'^\* \*\*(C\d\d)\*\* .*? — (.*)$',old,re.M))
extra={
'C51':'Loop invariant: data fresh at the KKT check of SolverDDP; binary64 run for the converse.',
'C53':'PSD invariant through all ADMM passes and penalty updates (CSQPConvex).',
'C54':'Riccati recursion on the equality guess (EqGuess).',
'C55':'Loop invariant of FDDP over chains of accepted steps; exact algebra on retractions for the gaps.',
'C56':'Factor facts of the backward pass give Quu k = Qu, Quu > 0; with the acceptance rule of the C45 chain.',
'C59':'Fejer monotonicity of the relaxed ADMM step: monotonicity of the KKT operators of two subproblems with equal Hessians, complementarity of rows; residual norms below tolerance when progress is small; counting the tests.',
'C60':'The relaxed ADMM step solves a perturbed KKT system whose perturbation is expressed by the residuals the norms measure and by the proximal term; bounding each part. Witnesses: a stopping solve, and a row-free solve stopped at a non-KKT direction.',
'C61':'Invariant of the solve loops on the ghost log of callbacks, the iteration counter and the regularisation values (DDPCtl).',
'C57':'Exit analysis of the SQP and CSQP loops on the C19 and C39 traces (Exit, CSQPExit).',
'C63':'Invariant of the solve loop over rounds (PROXRun), the line search characterised by trial values of TrialSpec; witness: a run that takes a unit step.',
'C64':'KKTQuant: expectedImprovement and stoppingCriteria computed from the dense system equal slope, curvature and squared residuals read off the nodes (KKTRunSpec); KKTRun/P_KKTSolve: loop invariant over rounds; witness: a run that takes a unit step and then certifies.',
'C62':'Relational proof: two runs related by the set of arrays on which they agree (CIndep: each function adds the arrays it overwrites), carried through the QP loop, the line search and the outer loop (CIndepLoop), the start of solve and the terminal node (CIndepTerm, P_CIndep).  Witness: a fresh object and one that solved another problem.',
'C67':'P_Interval: case analysis of computeDirection, induction on the retry loop; a run with default parameters as witness.',
'C66':'P_NanGap: NaN propagates through radd/rmul and fails every comparison; induction on the filter loop; two binary64 runs.',
'C65':'As C62: PIndep (arrays and QP blocks: entries not covered by the block assignments are zero in every reachable object, bound rows are all covered), PIndepLoop (states, retries, line search, loop), P_PIndep (start of solve, theorem, witness).',
'C58':'Assembly never reads preg/dreg; induction over retries.',
'C07':'SQP: the guard in the backward pass, any arithmetic.  CSQP: binary64 run.',
'C08':'Loop invariant with a freshness flag; binary64 counterexample for the stale case.',
'C15':'Circular buffer model; invariant for growing histories, refutation for shrinking.',
'C36':'Binary64 counterexample; positive part is C27.',
'C40':'Index-level assembly; equality of objective, dynamics and constraint rows with the stagewise subproblem; counterexample for varying nu.',
'C41':'Order of check and QP in computeDirection; exact counterexample for the exposed multipliers.',
'C43':'Algebra of the residual (signs); two exact counterexamples.',
'C44':'Termination by the regularisation bound of the loop; counterexample for the stale system.',
'C45':'Loop invariant: chain of accepted roll-outs (DDPRun).',
'C47':'Riccati value identity along the policy, plus exact quadratic expansion of the models.',
'C34':'Two-run argument: reset_rho_vec overwrites the value on every path.',
'C32':'The member is never written; binary64 run.',
'C39':'Relational invariant of the solve loop (Indep), with freshness of everything read.'}
plan.update(extra)
out=head
for l in open('/verif/properties.jsonl'):
    d=json.loads(l); c=m.get(d['id'])
    t=', '.join('`%s`'%x for x in c['theorems']) if c else '-'
    out+='* **%s** %s — %s  \n  %s: %s\n'%(d['id'],d['title'],plan.get(d['id'],''),c['status'] if c else 'open',t)
open('/verif/DESIGN.md','w').write(out)
