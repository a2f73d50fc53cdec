(** * C16, negative part: solve can retry for ever (binary64).

    In the model a run that needs more retries than its fuel is [NoFuel]; a run that
    is [NoFuel] for every fuel never returns. *)
From Coq Require Import ZArith List Bool SpecFloat.
From Verif Require Import Eigen EigenFloat Problem DDP Filter SQP CSQP Init Models Retry FloatWitness.
Import ListNotations.
Set Implicit Arguments.
Set Asymmetric Patterns.

Definition is_some {A} (o : option A) : bool := match o with Some _ => true | None => false end.
Definition from_some {A} (d : A) (o : option A) : A := match o with Some a => a | None => d end.
Lemma from_someE A (d : A) o : is_some o = true -> o = Some (from_some d o).
Proof. destruct o; [reflexivity|discriminate]. Qed.

(** one running node x+ = x with the concave control cost -u^2/2 *)
Definition concave : lq FloatE 1 1 0 :=
  @mkLq FloatE 1 1 0 (m1 (z 1)) (m1 f0) (v1 f0) (m1 f0) (m1 f0) (m1 (z (-1))) (v1 f0) (v1 f0) tt tt tt tt tt.
Definition flat_term : tlq FloatE 1 0 := @mkTlq FloatE 1 0 (m1 f0) (v1 f0) tt tt tt tt.
Definition concave_obj : sqp F1 := new_sqp (M := F1) (v1 f0) [slot_of concave] (tslot_of flat_term) 1.

(** the parameters of a solver whose reg_min was set to 0 (accepted by the setter) or
    whose growth factor was set to 1.1 *)
Definition with_reg (rmin inc : f64) : scfg FloatE :=
  let c := default_scfg FloatE 0 in
  let d := sc_ddp c in
  mkScfg (mkCfg FloatE inc (c_dec d) rmin (c_rmax d) (c_alphas d) (c_stepdec d) (c_stepinc d)
                (c_grad d) (c_accept d) (c_tol d) (c_ncb d))
         (sc_mu c) (sc_filter c) (sc_fsize c) (sc_extra c).

Ltac diverges :=
  eapply stuck_solve;
    [ apply (from_someE (q_tr concave_obj)); vm_compute; reflexivity
    | vm_compute; reflexivity | vm_compute; reflexivity | vm_compute; reflexivity | vm_compute; reflexivity ].

(** solve(reginit = 0) with every parameter at its default never returns: zero
    regularisation is multiplied by ten for ever *)
Theorem C16_zero_regularisation_never_returns :
  exists (l : list (slot F1)) (t : tslot F1), forall fuel k,
    sqp_solve (M := F1) (v1 f0) (default_scfg FloatE 0) fuel [] [] (S k) (Some f0)
      (new_sqp (M := F1) (v1 f0) l t 1) = NoFuel.
Proof. exists [slot_of concave], (tslot_of flat_term). intros fuel k. change (new_sqp _ _ _ _) with concave_obj. diverges. Qed.
(** the same through set_reg_min(0) and the default argument of solve *)
Theorem C16_zero_reg_min_never_returns :
  exists (l : list (slot F1)) (t : tslot F1), forall fuel k,
    sqp_solve (M := F1) (v1 f0) (with_reg f0 (fofZ 10)) fuel [] [] (S k) None
      (new_sqp (M := F1) (v1 f0) l t 1) = NoFuel.
Proof. exists [slot_of concave], (tslot_of flat_term). intros fuel k. change (new_sqp _ _ _ _) with concave_obj. diverges. Qed.
(** and with a positive initial value that rounding keeps from growing: the smallest
    subnormal times 1.1 is itself *)
Theorem C16_rounding_never_returns :
  exists (l : list (slot F1)) (t : tslot F1) (p : f64), SFltb f0 p = true /\ forall fuel k,
    sqp_solve (M := F1) (v1 f0) (with_reg (flit 1 1000000000) (flit 11 10)) fuel [] [] (S k) (Some p)
      (new_sqp (M := F1) (v1 f0) l t 1) = NoFuel.
Proof.
  exists [slot_of concave], (tslot_of flat_term), (S754_finite false 1 (-1074)). split; [reflexivity|].
  intros fuel k. change (new_sqp _ _ _ _) with concave_obj. diverges.
Qed.
Print Assumptions C16_zero_regularisation_never_returns.
Print Assumptions C16_zero_reg_min_never_returns.
Print Assumptions C16_rounding_never_returns.
