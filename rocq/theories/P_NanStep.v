(** * A step length that is NaN.

    The range test of tryStep is [steplength > 1. || steplength < 0.] (sqp.cpp:308, csqp.cpp:1343, ddp.cpp:351,
    fddp.cpp:282),
    which NaN passes, and set_alphas accepts NaN (C20).  raiseIfNaN looks at the cost only, so on a
    problem whose cost does not depend on the trial (a pure feasibility problem) SolverSQP with the
    filter accepts the step: solve returns with every state NaN, x0 included. *)
From Coq Require Import ZArith List Bool Lia SpecFloat.
From Verif Require Import Eigen EigenFloat Problem DDP Filter SQP CSQP Init Models FloatWitness SQPSpec TrialSpec P_NanGap.
Import ListNotations.
Set Implicit Arguments.
Set Asymmetric Patterns.

(** the range test does not see NaN, for SolverSQP, SolverCSQP, SolverDDP and SolverFDDP *)
Theorem C50_nan_passes_range_test : rlt FloatE (r1 FloatE) fnan || rlt FloatE fnan (r0 FloatE) = false.
Proof. reflexivity. Qed.

(** x+ = x + u, constant cost *)
Definition flat_model : amodel F1 :=
  @mkAmodel FloatE F1 1 0 0 (vec FloatE 1 * vec FloatE 1)%type
    (fun x u => (x, u)) (fun x => (x, vzero FloatE))
    (fun w => f1) (fun w => vadd FloatE (fst w) (snd w)) (fun w => tt)
    (fun _ x u => @mkDerivs FloatE F1 1 0 (v1 f0) (v1 f0) (m1 f0) (m1 f0) (m1 f0) (m1 f1) (m1 f1) tt tt)
    tt tt.
Definition flat_slot : slot F1 :=
  @mkSlot FloatE F1 flat_model (v1 f0, v1 f0)
    (adiff flat_model (v1 f0, v1 f0) (v1 f0) (v1 f0)) (lconst fnan) (lconst fnan).
Definition flat_tmodel : tmodel F1 :=
  @mkTmodel FloatE F1 0 0 (vec FloatE 1) (fun x => x) (fun _ => f1) (fun _ => tt)
    (fun _ x => @mkTderivs FloatE F1 0 (v1 f0) (m1 f0) tt) tt tt.
Definition flat_term : tslot F1 :=
  @mkTslot FloatE F1 flat_tmodel (v1 f0) (tdiff flat_tmodel (v1 f0) (v1 f0)) (lconst fnan) (lconst fnan).
Definition flat0 : sqp F1 := new_sqp (M := F1) (v1 f0) [flat_slot] flat_term 1.
(** default parameters with set_alphas({NaN}) *)
Definition nan_cfg : scfg FloatE :=
  let d := default_cfg FloatE 1 in
  mkScfg (mkCfg FloatE (c_inc d) (c_dec d) (c_rmin d) (c_rmax d) [fnan : R FloatE] (c_stepdec d) (c_stepinc d)
     (c_grad d) (c_accept d) (c_tol d) (c_ncb d)) (flit 1 1) true 1 false.
Notation nan_run := (sqp_solve (M := F1) (v1 f0) nan_cfg 20 [v1 f0; v1 (z 5)] [uvec f0] 1 None flat0).

Theorem C10_nan_step_moves_x0 : exists s : sqp F1,
  nan_run = Ret false s /\ get_xs (q_tr s) = [v1 fnan; v1 fnan] /\ q_step s = fnan /\ q_costt s = z 2 /\
  ~ zero_ok (M := F1) (c_alphas (sc_ddp nan_cfg)) (v1 f0).
Proof.
  exists (state flat0 nan_run).
  split; [apply (@result_state _ flat0 nan_run); vm_compute; reflexivity|].
  split; [vm_compute; reflexivity|].
  split; [vm_compute; reflexivity|].
  split; [vm_compute; reflexivity|].
  intros [H _]. specialize (H fnan (or_introl eq_refl) eq_refl). vm_compute in H. discriminate.
Qed.
(** tryStep itself: it returns, with NaN states and controls in the trial *)
Theorem C50_nan_step_returns : exists s s1 : sqp F1,
  sqp_tryStep (M := F1) nan_cfg fnan s = TOk s1 /\
  get_xs (accept_try (q_tr s1)) = [v1 fnan; v1 fnan] /\ get_us (accept_try (q_tr s1)) = [uvec fnan].
Proof.
  exists flat0, (tst flat0 (sqp_tryStep (M := F1) nan_cfg fnan flat0)).
  split; [apply tok_state; vm_compute; reflexivity|]. split; vm_compute; reflexivity.
Qed.
Print Assumptions C10_nan_step_moves_x0.
