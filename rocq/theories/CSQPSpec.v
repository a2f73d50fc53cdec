(** * Specification of SolverCSQP::solve over all histories of API calls. *)
From Coq Require Import ZArith List Bool Arith.
From Verif Require Import Eigen Problem DDP Filter SQP CSQP Init TrialSpec TraceSpec SQPSpec.
Import ListNotations.
Set Implicit Arguments.
Unset Strict Implicit.
Set Asymmetric Patterns.

Section Spec.
Variable E : Eig.
Variable M : manifold E.
Notation R := (R E).
Notation node := (node M).
Notation X := (mX M).

(** ** Merit function.  With both weights non-negative it is
    cost + mu_dynamic * gaps + mu_constraint * violation; otherwise the weight is
    lag_mul_inf_norm_coef times the largest multiplier (dynamics and
    constraints) of the iterate. *)
Definition largest_multiplier (t : traj M) : R := lag_inf t.
Definition csqp_merit_fun (c : ccfg E) (t : traj M) (cost gap con : R) : R :=
  if rlt E (cc_mu c) (r0 E) || rlt E (cc_mucon c) (r0 E)
  then radd E cost (rmul E (rmul E (cc_lagcoef c) (largest_multiplier t)) (radd E gap con))
  else radd E (radd E cost (rmul E (cc_mu c) gap)) (rmul E (cc_mucon c) con).
Definition csqp_rule (c : ccfg E) : lsrule M :=
  mkRule (c_alphas (cc_ddp c)) (cc_filter c) (cc_fsize c) true (csqp_merit_fun c).

(** ** Values of the stored evaluation *)
(** defects at nodes 1..T in 1-norm, summed in node order *)
Definition stored_gap (t : traj M) : R :=
  match run t with
  | [] => r0 E
  | n :: l => radd E (fold_left (fun a n' => radd E a (vl1 E (fs n'))) l (r0 E)) (vl1 E (tfs (trm t)))
  end.
(** violation of lb <= g <= ub in 1-norm, summed in node order *)
Definition stored_con (t : traj M) : R :=
  violation (tlb (tm (trm t))) (tub (tm (trm t))) (tg (tm (trm t)) (tme (trm t)))
    (fold_left (fun a n => violation (alb (nm n)) (aub (nm n)) (ag (nm n) (mem n)) a) (run t) (r0 E)).
(** re-evaluation from fresh calls of calc and calcDiff at the current xs, us;
    the first gap (x0 (-) xs[0]) is the zero vector because xs[0] is pinned *)
Definition creeval (t : traj M) : traj M :=
  let t1 := fst (problem_calcDiff (problem_calc t)) in
  let r := gaps_from (vzero E) (run t1) (trm t1) in
  mkTraj (fst r) (snd r).

(** ** Histories *)
Variables (l : list (slot M)) (t : tslot M).
Variable resize : nat -> nat -> Prop.
(** an object reached by any sequence of public calls, [n] its filter size.
    Every call may use other parameters, another initial state and another
    clock; calls that let an exception escape are included. *)
Inductive csqp_hist : nat -> csqp M -> Prop :=
  | chist_new x0 n rho : csqp_hist n (new_csqp x0 l t n rho)
  | chist_solve n s c to x0 fuel xs us k reg b s' : csqp_hist n s -> cc_fsize c = n ->
      csqp_solve c to x0 fuel xs us k reg s = Ret b s' -> csqp_hist n s'
  | chist_throw n s c to x0 fuel xs us k reg s' : csqp_hist n s -> cc_fsize c = n ->
      csqp_solve c to x0 fuel xs us k reg s = Exc s' -> csqp_hist n s'
  | chist_guess n s xs us tr : csqp_hist n s ->              (* setCandidate *)
      set_guess xs us (k_tr s) = Some tr -> csqp_hist n (set_k_tr tr s)
  | chist_calc n s : csqp_hist n s -> csqp_hist n (csqp_calc s)
  | chist_dir n s c to s' : csqp_hist n s ->                 (* computeDirection *)
      csqp_computeDirection c to s = QDone s' \/ csqp_computeDirection c to s = QThrow s' ->
      csqp_hist n s'
  | chist_kkt n s : csqp_hist n s -> csqp_hist n (csqp_checkKKT s)
  | chist_try n s c a : csqp_hist n s -> csqp_hist n (snd (csqp_tryStep c a s))
  | chist_reset n s c : csqp_hist n s -> csqp_hist n (reset_params c s)
  | chist_rho n s c : csqp_hist n s -> csqp_hist n (reset_rho c s)
  | chist_apply n s c r : csqp_hist n s ->                   (* apply_rho_update *)
      csqp_hist n (set_k_tr (apply_rho c r (k_tr s)) s)
  | chist_upd n s c b : csqp_hist n s -> csqp_hist n (update_lagrangian c b s)
  | chist_updrho n s c b : csqp_hist n s -> csqp_hist n (update_rho c b s)
  | chist_pass n s t' : csqp_hist n s ->                     (* a backward or forward pass *)
      (exists c p d, t' = snd (cb_backward c p d (k_tr s)) \/ t' = snd (cm_backward c p d (k_tr s)) \/
         t' = snd (cw_backward p d (k_tr s)) \/ t' = cf_backward c (k_tr s) \/ t' = cfm_backward c (k_tr s) \/
         t' = cforward (k_tr s) \/ t' = cwforward (k_tr s)) ->
      csqp_hist n (set_k_tr t' s)
  | chist_inc n s c : csqp_hist n s -> csqp_hist n (csqp_inc c s)
  | chist_dec n s c : csqp_hist n s -> csqp_hist n (csqp_dec c s)
  | chist_sparse n s r : csqp_hist n s -> csqp_hist n (csqp_set_rho_sparse r s)
  | chist_size n n' s : csqp_hist n s -> resize n n' -> csqp_hist n' (csqp_set_filter_size n' s).

(** ** A run of solve: its rounds [rs]; [last]: it ends with a convergence check
    that starts no line search *)
Record csqp_run (x0 : X) (c : ccfg E) (timeout : nat -> bool) (xs : list X) (us : list {k : nat & vec E k})
    (maxiter : nat) (s : csqp M) (rs : list (round M)) (last b : bool) (s' : csqp M) : Prop := mkCrun {
  crun_trace : observed (k_log s') = observed (k_log s) ++ rounds_trace (c_ncb (cc_ddp c)) 0 rs ++
    (if last then callback_trace (c_ncb (cc_ddp c)) (k_iter s')
                    (k_kkt s') (k_cost s') (k_merit s') (k_step s') else []);
  crun_budget : length rs <= maxiter /\ (last = true -> length rs < maxiter \/ cc_extra c = true);
  (** a rejected line search ends the solve (up to the extra iteration, which
      then carries the same iteration number again) *)
  crun_reject : forall i r, nth_error rs i = Some r -> r_acc r = None -> S i = length rs;
  crun_iter : k_iter s' <= length rs <= S (k_iter s') /\
    (last = true -> k_iter s' = length rs \/
       (cc_extra c = true /\ exists r, nth_error rs (k_iter s') = Some r /\ r_acc r = None));
  crun_result : if last then
      b = rle E (k_kkt s') (c_tol (cc_ddp c)) /\ k_kkt s' = ckkt_residual (k_con s') (k_tr s') /\
      creeval (k_tr s') = k_tr s' /\ k_cost s' = stored_cost (k_tr s') /\
      k_gap s' = stored_gap (k_tr s') /\ k_con s' = stored_con (k_tr s')
    else b = false;
  crun_iterates : iterates (pinned_guess x0 (length l) xs) (control_guess l us) rs
                   (get_xs (k_tr s')) (get_us (k_tr s'));
  crun_x0 : zero_ok (c_alphas (cc_ddp c)) x0 -> hd_error (get_xs (k_tr s')) = Some x0;
  crun_kkt : forall r, In r rs -> r_kkt r = ckkt_residual (r_con r) (r_tr r) /\
              rle E (r_kkt r) (c_tol (cc_ddp c)) = false;
  crun_values : forall r, In r rs -> creeval (r_tr r) = r_tr r /\ r_cost r = stored_cost (r_tr r) /\
              r_gap r = stored_gap (r_tr r) /\ r_con r = stored_con (r_tr r) /\
              r_merit r = csqp_merit_fun c (r_tr r) (r_cost r) (r_gap r) (r_con r);
  (** what callbacks see as merit is the merit of the previous round *)
  crun_cbmerit : forall i r r', nth_error rs i = Some r -> nth_error rs (S i) = Some r' ->
              r_cbmerit r' = r_merit r;
  (** ... and as step length a constant *)
  crun_step : k_step s' = k_step s /\ forall r, In r rs -> r_step r = k_step s;
  (** the models are those of the problem throughout; the initial state does not move *)
  crun_models : forall r, In r rs -> map (@nm E M) (run (r_tr r)) = map (@sl_m E M) l /\
              hd_dx (run (r_tr r)) (trm (r_tr r)) = vzero E;
  crun_carried : values_carried rs;
  (** with a clock that does not run backwards, the direction of every round (and
      of the last check) was computed by computeDirection *)
  crun_dir : (forall n, timeout n = true -> timeout (S n) = true) ->
      (forall r, In r rs -> exists s1 s2, csqp_computeDirection c timeout s1 = QDone s2 /\
         k_qpit s2 <> 0 /\ r_tr r = k_tr (csqp_checkKKT s2)) /\
      (last = true -> exists s1 s2, csqp_computeDirection c timeout s1 = QDone s2 /\
         k_tr s' = k_tr (csqp_checkKKT s2));
  crun_searched : cc_filter c = false \/
      (cap (k_costl s) = cc_fsize c /\ length (items (k_costl s)) = cc_fsize c /\
       cap (k_gapl s) = cc_fsize c /\ length (items (k_gapl s)) = cc_fsize c /\
       cap (k_conl s) = cc_fsize c /\ length (items (k_conl s)) = cc_fsize c) ->
      rounds_searched (csqp_rule c) rs
}.
End Spec.
Arguments csqp_rule {E M}. Arguments csqp_merit_fun {E M}.
