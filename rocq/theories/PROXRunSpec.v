(** * Specification: a run of SolverPROXQP::solve (exact arithmetic, any QP backend). *)
From Coq Require Import ZArith List Arith.
Set Warnings "-notation-overridden,-ambiguous-paths".
From mathcomp Require Import all_ssreflect all_algebra.
From Verif Require Import Eigen EigenExact Problem DDP Filter SQP CSQP Init TrialSpec TraceSpec SQPSpec CSQPSpec PROXQP.

Set Implicit Arguments.
Unset Strict Implicit.
Unset Printing Implicit Defensive.
Local Open Scope ring_scope.

Section Spec.
Variable F : realFieldType.
Variable sq : F -> F.
Notation E := (ExactE sq).
Variable M : manifold E.
Variable x0 : mX M.
Variable qp : forall N Me Mi : nat, 'M[F]_N -> 'cV[F]_N -> 'M[F]_(Me, N) -> 'cV[F]_Me ->
  'M[F]_(Mi, N) -> 'cV[option F]_Mi -> 'cV[option F]_Mi -> option ('cV[F]_N * 'cV[F]_Me * 'cV[F]_Mi).
Variable l : seq (slot M).

(** the line search: merit = cost + mu_dynamic * gaps + mu_constraint * violation *)
Definition pq_merit_fun (c : pcfg sq) (cost gap con : F) : F := cost + pc_mu c * gap + pc_mucon c * con.
Definition pq_rule (c : pcfg sq) : lsrule M :=
  @mkRule E M (c_alphas (pc_ddp c)) (pc_filter c) (pc_fsize c) true (fun _ => pq_merit_fun c).

(** the step length a round leaves behind: the accepted one, or the last one tried *)
Definition step_after (c : pcfg sq) (st : F) (r : round M) : F :=
  if r_acc r is Some a then a_step a else List.last (c_alphas (pc_ddp c) : seq F) st.
(** regularisation after a round that ended with step length [st] *)
Definition reg_after (c : pcfg sq) (st p : F) : F :=
  let p1 : F := if (c_stepdec (pc_ddp c) : F) < st then dec_reg (pc_ddp c) p else p in
  if st <= (c_stepinc (pc_ddp c) : F) then inc_reg (pc_ddp c) p1 else p1.
(** regularisation and step length after the rounds [rs] *)
Fixpoint reg_path (c : pcfg sq) (p st : F) (rs : seq (round M)) : F * F :=
  match rs with
  | [::] => (p, st)
  | r :: rs' => reg_path c (reg_after c (step_after c st r) p) (step_after c st r) rs'
  end.

Definition buf_of_size (n : nat) (b : cbuf F) : Prop := cap b = n /\ List.length (items b) = n.

Record pq_run (c : pcfg sq) (xs : seq (mX M)) (us : seq {k : nat & vec E k}) (maxiter : nat) (reg : option F)
    (s : pqs M) (rs : seq (round M)) (b : bool) (s' : pqs M) : Prop := mkPrun {
  (** the guess, with its first state replaced by x0, is led by the rounds to the result *)
  prun_iterates : iterates (pinned_guess x0 (List.length l) xs) (control_guess l us) rs
                    (get_xs (pq_tr s')) (get_us (pq_tr s'));
  prun_x0 : zero_ok (c_alphas (pc_ddp c)) x0 -> List.hd_error (get_xs (pq_tr s')) = Some x0;
  prun_budget : (List.length rs <= maxiter)%coq_nat /\ (b = true -> (List.length rs < maxiter)%coq_nat);
  (** every round starts from a fresh evaluation at its iterate, whose residual is above
      termination_tol, with a direction computed by computeDirection *)
  prun_values : forall r, List.In r rs ->
      [/\ creeval (r_tr r) = r_tr r, r_cost r = stored_cost (r_tr r), r_gap r = stored_gap (r_tr r),
          r_con r = stored_con (r_tr r) & r_merit r = pq_merit_fun c (r_cost r) (r_gap r) (r_con r)];
  prun_direction : forall r, List.In r rs -> exists s1 s2 : pqs M,
      [/\ pq_direction qp c true s1 = PDok s2, r_tr r = pq_tr s2, r_kkt r = pq_KKT s2
        & (c_tol (pc_ddp c) : F) < r_kkt r];
  prun_models : forall r, List.In r rs -> List.map (@nm E M) (run (r_tr r)) = List.map (@sl_m E M) l /\
      hd_dx (run (r_tr r)) (trm (r_tr r)) = vzero E;
  prun_carried : values_carried rs;
  (** the first admissible step length is accepted *)
  prun_searched : pc_filter c = false \/ [/\ buf_of_size (pc_fsize c) (pq_costl s),
        buf_of_size (pc_fsize c) (pq_gapl s) & buf_of_size (pc_fsize c) (pq_conl s)] ->
      rounds_searched (pq_rule c) rs;
  (** true: the residual at the returned iterate is at most termination_tol *)
  prun_true : b = true ->
      [/\ pq_KKT s' <= (c_tol (pc_ddp c) : F), creeval (pq_tr s') = pq_tr s', pq_cost s' = stored_cost (pq_tr s'),
          pq_gap s' = stored_gap (pq_tr s') & pq_con s' = stored_con (pq_tr s')];
  prun_true_dir : b = true -> exists s1 : pqs M, pq_direction qp c true s1 = PDok s';
  (** false: all iterations were used or the regularisation is at its maximum *)
  prun_false : b = false -> List.length rs = maxiter \/ pq_preg s' = c_rmax (pc_ddp c) :> F;
  prun_iter : pq_iter s' = List.length rs \/ (S (pq_iter s') = List.length rs /\ pq_preg s' = c_rmax (pc_ddp c) :> F);
  (** the regularisation follows the step lengths; only a failing backend raises it to the
      maximum instead *)
  prun_reg : pq_dreg s' = pq_preg s' /\
      ((pq_preg s', pq_step s') = reg_path c (init_reg (pc_ddp c) reg) (pq_step s) rs \/
       [/\ b = false, pq_preg s' = c_rmax (pc_ddp c) :> F & pq_ask qp s' = None]);
  (** the solve does not go on once a small step has raised it to the maximum *)
  prun_go : forall i r, List.nth_error rs i = Some r -> (S i < List.length rs)%coq_nat ->
      let q := reg_path c (init_reg (pc_ddp c) reg) (pq_step s) (List.firstn (S i) rs) in
      snd q <= (c_stepinc (pc_ddp c) : F) -> fst q <> (c_rmax (pc_ddp c) : F)
}.
End Spec.
