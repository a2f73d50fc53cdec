(** * SolverDDP in binary64: an optimal guess is not recognised at iteration 0, and the
    concrete runs that meet the hypotheses of P_DDP.v *)
From Coq Require Import ZArith List Bool SpecFloat.
From Verif Require Import Eigen EigenFloat Problem DDP Filter SQP CSQP Init Models FloatWitness RollSpec DDPSpec P_DDP.
Import ListNotations.
Set Implicit Arguments.
Set Asymmetric Patterns.

(** one node, x+ = x + u, cost (x^2+u^2)/2 + x+^2/2, x0 = 2: the optimum is u = -1 *)
Definition ddp1 : ddp F1 := new_ddp (M := F1) (v1 (z 2)) [slot_of fstage] (tslot_of fterm).
Definition sqp1 : sqp F1 := new_sqp (M := F1) (v1 (z 2)) [slot_of fstage] (tslot_of fterm) 1.
Definition u_of (x : f64) : {k : nat & vec FloatE k} := existT (vec FloatE) 1 (v1 x).
Notation opt_run k := (ddp_solve (M := F1) (v1 (z 2)) (default_cfg FloatE 1) 3
  [v1 (z 2); v1 (z 1)] [u_of (z (-1))] k true None ddp1).
Notation opt_sqp := (sqp_solve (M := F1) (v1 (z 2)) (default_scfg FloatE 1) 3
  [v1 (z 2); v1 (z 1)] [u_of (z (-1))] 1 None sqp1).
Notation cold_run := (ddp_solve (M := F1) (v1 (z 2)) (default_cfg FloatE 1) 3 [] [] 10 false None ddp1).

(** C51 (negative part): SolverDDP's first test of the stopping criterion is made before
    any multiplier of this call exists (ddp.cpp:86-104 with lag_mul_ from the
    constructor), so the optimal trajectory, given as a feasible guess, is not accepted
    within one iteration although every dynamics gap is zero and the controls are
    optimal; SolverSQP accepts the same guess at iteration 0.  A second iteration lets
    DDP certify the same trajectory with residual 0. *)
Theorem C51_ddp_optimal_guess_not_recognised :
  exists sa sb sq,
    opt_run 1 = Ret false sa /\ d_kkt sa = z 2 /\
    opt_run 2 = Ret true sb /\ d_kkt sb = f0 /\ d_iter sb = 1 /\
    get_xs (d_tr sb) = [v1 (z 2); v1 (z 1)] /\ get_us (d_tr sb) = [u_of (z (-1))] /\
    opt_sqp = Ret true sq /\ q_iter sq = 0.
Proof.
  exists (state ddp1 (opt_run 1)), (state ddp1 (opt_run 2)), (state sqp1 opt_sqp).
  split; [apply (@result_state _ ddp1 (opt_run 1)); vm_compute; reflexivity|].
  split; [vm_compute; reflexivity|].
  split; [apply (@result_state _ ddp1 (opt_run 2)); vm_compute; reflexivity|].
  split; [vm_compute; reflexivity|].
  split; [vm_compute; reflexivity|].
  split; [vm_compute; reflexivity|].
  split; [vm_compute; reflexivity|].
  split; [apply (@result_state _ sqp1 opt_sqp); vm_compute; reflexivity|].
  vm_compute; reflexivity.
Qed.

(** non-vacuity of C45 and C51: a cold start from zeros converges after three iterations *)
Example cold_result : exists s', cold_run = Ret true s' /\ d_iter s' = 3 /\ d_feas s' = true /\
  get_xs (d_tr s') = [v1 (z 2); v1 (z 1)] /\ models ddp1 <> [].
Proof.
  exists (state ddp1 cold_run).
  split; [apply (@result_state _ ddp1 cold_run); vm_compute; reflexivity|].
  split; [vm_compute; reflexivity|].
  split; [vm_compute; reflexivity|].
  split; [vm_compute; reflexivity|].
  unfold models; discriminate.
Qed.
Print Assumptions C51_ddp_optimal_guess_not_recognised.
