(** * SolverFDDP in binary64: the gap norm its filter uses, and the cost it reports. *)
From Coq Require Import ZArith List Bool SpecFloat.
From Verif Require Import Eigen EigenFloat Problem DDP Filter SQP CSQP Init Models FloatWitness FDDP FDDPInit FDDPSpec FDDPRun P_DDP P_DDPFloat P_FDDP.
Import ListNotations.
Set Implicit Arguments.
Set Asymmetric Patterns.

(** one node, x+ = x + u + 5, cost (x^2 + u^2)/2 + x+^2/2, x0 = 1/8 *)
Definition drift : lq FloatE 1 1 0 :=
  @mkLq FloatE 1 1 0 (lA fstage) (lB fstage) (v1 (z 5)) (lQ fstage) (lS fstage) (lR fstage) (lq_q fstage) (lq_r fstage)
    (lC fstage) (lD fstage) (lh fstage) (l_lb fstage) (l_ub fstage).
Definition eighth : f64 := flit 1 8.
Definition fddp1 : fddp F1 := new_fddp (M := F1) (v1 eighth) [slot_of drift] (tslot_of fterm) 1.
Definition sqp2 : sqp F1 := new_sqp (M := F1) (v1 eighth) [slot_of drift] (tslot_of fterm) 1.
(** guess: the optimum for the initial state 0 *)
Definition gxs := [v1 f0; v1 (flit 5 2)].
Definition gus := [u_of (flit (-5) 2)].
(** optimum for the initial state 1/8 *)
Definition oxs := [v1 eighth; v1 (flit 41 16)].
Definition ous := [u_of (flit (-41) 16)].
Notation filter_run := (fddp_solve (M := F1) (v1 eighth) (default_fcfg FloatE 1 true) 3 gxs gus 50 false None fddp1).
Notation expect_run := (fddp_solve (M := F1) (v1 eighth) (default_fcfg FloatE 1 false) 3 gxs gus 50 false None fddp1).
Notation sqp_run := (sqp_solve (M := F1) (v1 eighth) (default_scfg FloatE 1) 3 gxs gus 50 None sqp2).

(** C46 (negative): the quantity SolverFDDP compares with the recorded gap norms is
    sum_t |f(x_t, u_t) - x_t|, the motion along the trial, not the gaps of the trial.  With
    all parameters at their defaults the full step, which closes every gap, is rejected,
    so is every other one, and solve returns false with the guess unchanged; SolverSQP
    (whose filter measures the gaps) and the same solver with the expectation test
    reach the optimum.  In the latter run the returned candidate is a roll-out (all gaps
    zero) and the trial gap norm is not zero. *)
Theorem C46_fddp_filter_measures_motion :
  exists sf se sq,
    filter_run = Ret false sf /\ get_xs (d_tr (f_d sf)) = gxs /\ get_us (d_tr (f_d sf)) = gus /\
    expect_run = Ret true se /\ get_xs (d_tr (f_d se)) = oxs /\ get_us (d_tr (f_d se)) = ous /\
      d_feas (f_d se) = true /\ f_gap se = f0 /\ SFltb (z 2) (f_gapt se) = true /\
    sqp_run = Ret true sq /\ get_xs (q_tr sq) = oxs /\ q_iter sq = 1.
Proof.
  exists (state fddp1 filter_run), (state fddp1 expect_run), (state sqp2 sqp_run).
  split; [apply (@result_state _ fddp1 filter_run); vm_compute; reflexivity|].
  split; [vm_compute; reflexivity|].
  split; [vm_compute; reflexivity|].
  split; [apply (@result_state _ fddp1 expect_run); vm_compute; reflexivity|].
  split; [vm_compute; reflexivity|].
  split; [vm_compute; reflexivity|].
  split; [vm_compute; reflexivity|].
  split; [vm_compute; reflexivity|].
  split; [vm_compute; reflexivity|].
  split; [apply (@result_state _ sqp2 sqp_run); vm_compute; reflexivity|].
  split; vm_compute; reflexivity.
Qed.

(** The proviso "b = true or no filter" of C55_fddp_solve_is_a_chain is needed: when the
    filter accepts a step (fddp.cpp:128-131) cost_ is not updated, so after the last
    iteration get_cost() is the cost of the candidate before the last one: here 0, the cost
    of the (infeasible) zero guess, while the returned trajectory costs 3. *)
Definition fddp2 : fddp F1 := new_fddp (M := F1) (v1 (z 2)) [slot_of fstage] (tslot_of fterm) 1.
Notation one_iter := (fddp_solve (M := F1) (v1 (z 2)) (default_fcfg FloatE 1 true) 3 [] [] 1 false None fddp2).
Notation two_iters := (fddp_solve (M := F1) (v1 (z 2)) (default_fcfg FloatE 1 true) 3 [] [] 10 false None fddp2).
Theorem C55_fddp_stale_cost : exists s1 s2,
  one_iter = Ret false s1 /\ d_cost (f_d s1) = f0 /\
  two_iters = Ret true s2 /\ d_cost (f_d s2) = z 3 /\
  get_xs (d_tr (f_d s1)) = get_xs (d_tr (f_d s2)) /\ get_us (d_tr (f_d s1)) = get_us (d_tr (f_d s2)).
Proof.
  exists (state fddp2 one_iter), (state fddp2 two_iters).
  split; [apply (@result_state _ fddp2 one_iter); vm_compute; reflexivity|].
  split; [vm_compute; reflexivity|].
  split; [apply (@result_state _ fddp2 two_iters); vm_compute; reflexivity|].
  split; [vm_compute; reflexivity|].
  split; vm_compute; reflexivity.
Qed.
(** hypotheses of the C55 theorems on these objects *)
Example fddp_hyps : models (f_d fddp1) <> [] /\ usable 1 fddp1 /\ models (f_d fddp2) <> [] /\ usable 1 fddp2.
Proof.
  split; [discriminate|]. split; [apply (proj1 (C55_usable_objects F1))|].
  split; [discriminate|]. apply (proj1 (C55_usable_objects F1)).
Qed.
Print Assumptions C46_fddp_filter_measures_motion.
Print Assumptions C55_fddp_stale_cost.
