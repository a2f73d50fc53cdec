(** * Specification of SolverSQP::solve over all histories of API calls. *)
From Coq Require Import ZArith List Bool Arith.
From Verif Require Import Eigen Problem DDP Filter SQP CSQP Init TrialSpec TraceSpec.
Import ListNotations.
Set Implicit Arguments.
Unset Strict Implicit.
Set Asymmetric Patterns.

Section Spec.
Variable E : Eig.
Variable M : manifold E.
Notation R := (R E).
Notation node := (node M).
Notation X := (mX M).

(** ** Line-search rule of SolverSQP: merit = cost + mu_dynamic * gap norm;
    constraints do not take part *)
Definition sqp_rule (c : scfg E) : lsrule M :=
  mkRule (c_alphas (sc_ddp c)) (sc_filter c) (sc_fsize c) false
    (fun _ cost gap _ => radd E cost (rmul E (sc_mu c) gap)).

(** ** Histories *)
(** the models of the problem and the permitted changes of the filter size *)
Variables (l : list (slot M)) (t : tslot M).
Variable resize : nat -> nat -> Prop.

(** [sqp_hist n s]: the object [s] is reached from its constructor by any
    sequence of public calls; [n] is its current filter size.  The problem's
    initial state and all parameters may change between calls. *)
Inductive sqp_hist : nat -> sqp M -> Prop :=
  | hist_new x0 n : sqp_hist n (new_sqp x0 l t n)
  | hist_solve n s x0 c fuel xs us k reg b s' :
      sqp_hist n s -> sc_fsize c = n ->
      sqp_solve x0 c fuel xs us k reg s = Ret b s' -> sqp_hist n s'
  | hist_guess n s xs us tr : sqp_hist n s ->        (* setCandidate *)
      set_guess xs us (q_tr s) = Some tr -> sqp_hist n (set_q_tr tr s)
  | hist_dir n s x0 c recalc : sqp_hist n s -> sc_fsize c = n ->   (* computeDirection *)
      sqp_hist n (snd (sqp_computeDirection x0 c recalc s))
  | hist_try n s c a s' : sqp_hist n s ->            (* tryStep *)
      (sqp_tryStep c a s = TOk s' \/ sqp_tryStep c a s = TThrow s') -> sqp_hist n s'
  | hist_diff n s x0 : sqp_hist n s ->               (* calcDiff *)
      sqp_hist n (let r := calcDiff x0 (q_iter s) (q_tr s) in set_q_cost (snd r) (set_q_tr (fst r) s))
  | hist_bwd n s feas : sqp_hist n s ->              (* backwardPass *)
      sqp_hist n (set_q_tr (snd (backwardPass (q_preg s) (q_dreg s) feas (q_tr s))) s)
  | hist_fwd n s : sqp_hist n s ->                   (* forwardPass *)
      sqp_hist n (let f := forwardPass (q_tr s) in
                  set_q_ug (snd (snd f)) (set_q_xg (fst (snd f)) (set_q_tr (fst f) s)))
  | hist_kkt n s : sqp_hist n s ->                   (* checkKKTConditions *)
      sqp_hist n (set_q_kkt (kkt_residual (q_tr s)) s)
  | hist_reg n s c : sqp_hist n s -> sqp_hist n (sqp_inc c s)   (* increaseRegularization *)
  | hist_reg' n s c : sqp_hist n s -> sqp_hist n (sqp_dec c s)  (* decreaseRegularization *)
  | hist_size n n' s : sqp_hist n s -> resize n n' ->           (* set_filter_size *)
      sqp_hist n' (sqp_set_filter_size n' s).

(** ** The guess as solve uses it: empty lists stand for zeros, the first state is
    replaced by the problem's initial state *)
Definition pinned_guess (x0 : X) (T : nat) (xs : list X) : list X :=
  x0 :: tl (match xs with [] => repeat (xzero M) (S T) | _ => xs end).
Definition control_guess (us : list {k : nat & vec E k}) : list {k : nat & vec E k} :=
  match us with
  | [] => map (fun sl => existT (vec E) (nu (sl_m sl)) (vzero E)) l
  | _ => us
  end.

(** ** A run of solve: [rs] are its rounds, [last] tells whether it ends with a
    convergence check that starts no line search *)
Record sqp_run (x0 : X) (c : scfg E) (xs : list X) (us : list {k : nat & vec E k}) (maxiter : nat)
    (reg : option R) (s : sqp M) (rs : list (round M)) (last b : bool) (s' : sqp M) : Prop := mkRun {
  (** what an observer sees: callbacks and line searches, in order *)
  run_trace : rev (q_log s') = rev (q_log s) ++ rounds_trace (c_ncb (sc_ddp c)) 0 rs ++
    (if last then callback_trace (c_ncb (sc_ddp c)) (length rs)
                    (q_kkt s') (q_cost s') (q_merit s') (q_step s') else []);
  run_budget : length rs <= maxiter /\ (last = true -> length rs < maxiter \/ sc_extra c = true);
  run_iter : q_iter s' <= length rs;
  (** result *)
  run_result : if last then
      b = rle E (q_kkt s') (c_tol (sc_ddp c)) /\ q_kkt s' = kkt_residual (q_tr s') /\
      q_iter s' = length rs /\
      (evaluated_at rs (length rs) -> reeval x0 (q_tr s') = q_tr s')
    else b = false;
  (** iterates, from the pinned guess to the returned trajectory *)
  run_iterates : iterates (pinned_guess x0 (length l) xs) (control_guess us) rs
                   (get_xs (q_tr s')) (get_us (q_tr s'));
  run_x0 : zero_ok (c_alphas (sc_ddp c)) x0 -> hd_error (get_xs (q_tr s')) = Some x0;
  (** rounds *)
  run_kkt : forall r, In r rs -> r_kkt r = kkt_residual (r_tr r) /\
              rle E (r_kkt r) (c_tol (sc_ddp c)) = false;
  run_values : forall r, In r rs -> r_gap r = gap_l1 (r_tr r) /\ r_con r = r0 E /\
              r_merit r = radd E (r_cost r) (rmul E (sc_mu c) (r_gap r)) /\ r_cbmerit r = r_merit r;
  (** every direction is computed with equal primal and dual regularisation, reached
      from the initial one *)
  run_dir : forall r, In r rs -> exists s1 recalc s2,
              reg_reach (sc_ddp c) (init_reg (sc_ddp c) reg) (q_preg s1) /\ q_dreg s1 = q_preg s1 /\
              sqp_computeDirection x0 c recalc s1 = (true, s2) /\ r_tr r = q_tr s2 /\
              hd_dx (run (q_tr s2)) (trm (q_tr s2)) = vzero E;
  (** the direction of the last check *)
  run_reg : reg_reach (sc_ddp c) (init_reg (sc_ddp c) reg) (q_preg s') /\ q_dreg s' = q_preg s';
  run_last : last = true -> exists s1 recalc s2,
              reg_reach (sc_ddp c) (init_reg (sc_ddp c) reg) (q_preg s1) /\ q_dreg s1 = q_preg s1 /\
              sqp_computeDirection x0 c recalc s1 = (true, s2) /\ q_tr s' = q_tr s2 /\
              hd_dx (run (q_tr s2)) (trm (q_tr s2)) = vzero E;
  (** the models are those of the problem throughout *)
  run_models : models (q_tr s') = models (q_tr s) /\ forall r, In r rs -> models (r_tr r) = models (q_tr s);
  run_evaluated : rounds_evaluated x0 rs;
  run_carried : zero_ok (c_alphas (sc_ddp c)) x0 -> values_carried rs
}.
End Spec.
Arguments sqp_rule {E M}.
