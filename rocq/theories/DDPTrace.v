(** * Specification: the control flow of SolverDDP::solve and SolverFDDP::solve as a
    user sees it. *)
From Coq Require Import List Bool Arith.
From Verif Require Import Eigen Problem DDP FDDP TraceSpec.
Import ListNotations.
Set Implicit Arguments.
Unset Strict Implicit.
Set Asymmetric Patterns.

Section Trace.
Variable E : Eig.
Notation R := (R E).

(** what the callbacks of one iteration see: residual, cost, step length *)
Record shown := mkShown { h_kkt : R; h_cost : R; h_step : R }.
(** iterations numbered i, i+1, ...: every registered callback once, in order *)
Fixpoint shown_trace (ncb i : nat) (l : list shown) : list (event E) :=
  match l with
  | [] => []
  | r :: l' => callback_trace ncb i (h_kkt r) (h_cost r) (r0 E) (h_step r) ++ shown_trace ncb (S i) l'
  end.

(** a call of solve(..., maxiter, ..., reg) with outcome [b] takes the solver from [s]
    to [s'] and runs the callbacks of the iterations [l] *)
Record controlled (M : manifold E) (c : cfg E) (maxiter : nat) (reg : option R) (b : bool)
    (s s' : ddp M) (l : list shown) : Prop := mkControlled {
  (** callback protocol: iteration numbers 0, 1, 2, ... *)
  co_log : rev (d_log s') = rev (d_log s) ++ shown_trace (c_ncb c) 0 l;
  (** get_iter() is the number of finished iterations, at most maxiter *)
  co_iter : d_iter s' = length l;
  co_budget : length l <= maxiter;
  (** an iteration is finished only with a residual above the tolerance, and its last
      step length is from the list *)
  co_go : Forall (fun r => rle E (h_kkt r) (c_tol c) = false /\ (In (h_step r) (c_alphas c) \/ c_alphas c = [])) l;
  (** true: the residual is within the tolerance before the budget is used up *)
  co_true : b = true -> rle E (d_kkt s') (c_tol c) = true /\ length l < maxiter;
  (** false: the budget is used up or the regularisation is at its maximum *)
  co_false : b = false -> length l = maxiter \/ req E (d_preg s') (c_rmax c) = true;
  (** primal and dual regularisation agree; the value comes from the initial one by
      increases and decreases *)
  co_reg : d_dreg s' = d_preg s' /\ reg_reach c (init_reg c reg) (d_preg s')
}.

(** ** The calls of computeDirection made by a solve *)
Variable M : manifold E.
Variable x0 : mX M.
Section D.
Variables (c : cfg E) (fuel : nat).
(** the state in which the loop starts *)
Definition ddp_begin (xs : list (mX M)) (us : list {k : nat & vec E k}) (feas : bool) (reg : option R)
    (s : ddp M) : option (ddp M) :=
  let s0 := set_d_tr (pin_xt0 x0 (d_tr s)) s in
  match set_guess xs us (d_tr s0) with
  | None => None
  | Some t =>
      let p := init_reg c reg in
      Some (set_d_iter 0 (set_d_wasfeas false (set_d_dreg p (set_d_preg p (set_d_feas feas (set_d_tr t s0))))))
  end.
(** [ddp_head n rc s]: iteration [n] starts in [s] with recalcDiff = [rc] *)
Inductive ddp_head (s0 : ddp M) : nat -> bool -> ddp M -> Prop :=
  | dh0 : ddp_head s0 0 true s0
  | dhS n rc s r : ddp_head s0 n rc s -> ddp_body x0 c fuel rc s = BNext r ->
      ddp_head s0 (S n) (fst r) (set_d_iter (S (d_iter (snd r))) (snd r)).
Inductive ddp_called (s0 : ddp M) (maxiter : nat) : bool -> ddp M -> Prop :=
  | dc_first n rc s : ddp_head s0 n rc s -> n < maxiter -> ddp_called s0 maxiter rc s
  | dc_retry rc s s1 : ddp_called s0 maxiter rc s -> ddp_computeDirection x0 rc s = (false, s1) ->
      req E (d_preg (ddp_inc c s1)) (c_rmax c) = false ->
      ddp_called s0 maxiter false (ddp_inc c s1).
End D.
Section F.
Variables (c : fcfg E) (fuel : nat).
Definition fddp_begin (xs : list (mX M)) (us : list {k : nat & vec E k}) (feas : bool) (reg : option R)
    (s : fddp M) : option (fddp M) :=
  match ddp_begin (fc_ddp c) xs us feas reg (f_d s) with
  | None => None
  | Some d => Some (upd (fun _ => d) s)
  end.
Inductive fddp_head (s0 : fddp M) : nat -> bool -> fddp M -> Prop :=
  | fh0 : fddp_head s0 0 true s0
  | fhS n rc s r : fddp_head s0 n rc s -> fddp_body x0 c fuel rc s = BNext r ->
      fddp_head s0 (S n) (fst r) (upd (fun d => set_d_iter (S (d_iter d)) d) (snd r)).
Inductive fddp_called (s0 : fddp M) (maxiter : nat) : bool -> fddp M -> Prop :=
  | fc_first n rc s : fddp_head s0 n rc s -> n < maxiter -> fddp_called s0 maxiter rc s
  | fc_retry rc s s1 : fddp_called s0 maxiter rc s -> fddp_computeDirection x0 rc s = (false, s1) ->
      req E (d_preg (ddp_inc (fc_ddp c) (f_d s1))) (c_rmax (fc_ddp c)) = false ->
      fddp_called s0 maxiter false (upd (ddp_inc (fc_ddp c)) s1).
End F.
End Trace.
