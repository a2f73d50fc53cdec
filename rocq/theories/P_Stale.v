(** * SolverSQP can certify a trajectory it never evaluated (binary64).

    When a line search rejects every step length, the model data still hold the
    evaluation of the last trial; the next iteration calls calcDiff without calc
    (ddp.cpp:253-263: calc only when iter_ == 0), so gaps, costs and every
    derivative read from the data belong to a point that is not the candidate. *)
From Coq Require Import ZArith List Bool SpecFloat.
From Verif Require Import Eigen EigenFloat Problem DDP Filter SQP CSQP Init Models TraceSpec SQPSpec FloatWitness.
Import ListNotations.
Set Implicit Arguments.
Set Asymmetric Patterns.

Notation "a +. b" := (fadd a b) (at level 50, left associativity).
Notation "a *. b" := (fmul a b) (at level 40, left associativity).

(** One running node, x+ = x, and the smooth cost
      c(u) = -u + 8 u^2/h - 9 u^3/h^2 + 3 u^4/h^3,   h = 2^-9,
    c'(0) = -1.  calc stores u; calcDiff returns Lu = c'(stored u) and the
    (Gauss-Newton like) approximation Luu = 1. *)
Definition bump_cost (u : f64) : f64 :=
  u *. (z (-1) +. u *. (z 4096 +. u *. (z (-2359296) +. u *. z 402653184))).
Definition bump_grad (u : f64) : f64 :=
  z (-1) +. u *. (z 8192 +. u *. (z (-7077888) +. u *. z 1610612736)).
Definition bump : amodel F1 :=
  @mkAmodel FloatE F1 1 0 0 (vec FloatE 1 * vec FloatE 1)%type
    (fun x u => (x, u)) (fun x => (x, v1 f0))
    (fun w => bump_cost (fst (snd w))) (fun w => fst w) (fun _ => tt)
    (fun w _ _ => @mkDerivs FloatE F1 1 0 (v1 f0) (v1 (bump_grad (fst (snd w))))
                    (m1 f0) (m1 f0) (m1 (z 1)) (m1 (z 1)) (m1 f0) tt tt)
    tt tt.
Definition bump_slot : slot F1 :=
  @mkSlot FloatE F1 bump (v1 f0, v1 f0) (adiff bump (v1 f0, v1 f0) (v1 f0) (v1 f0)) tt tt.
Definition zero_term : tlq FloatE 1 0 := @mkTlq FloatE 1 0 (m1 f0) (v1 f0) tt tt tt tt.

Notation stale_run := (sqp_solve (M := F1) (v1 f0) (default_scfg FloatE 1) 3 [] [] 5 None
    (new_sqp (M := F1) (v1 f0) [bump_slot] (tslot_of zero_term) 1)).
Definition stale : sqp F1 :=
  state (new_sqp (M := F1) (v1 f0) [] (tslot_of zero_term) 1) stale_run.

(** C08 (negative part): with every parameter at its default, solve returns true
    with get_KKT() <= 1e-6 at the unchanged guess, where the residual evaluated
    from fresh calls of calc and calcDiff is 1. *)
Theorem C08_sqp_stale_certificate :
  exists (l : list (slot F1)) (t : tslot F1) (s' : sqp F1),
    sqp_solve (M := F1) (v1 f0) (default_scfg FloatE 1) 3 [] [] 5 None (new_sqp (M := F1) (v1 f0) l t 1)
      = Ret true s' /\
    SFleb (q_kkt s') (flit 1 1000000) = true /\
    get_xs (q_tr s') = [v1 f0; v1 f0] /\
    get_us (q_tr s') = [existT (vec FloatE) 1 (v1 f0)] /\
    kkt_residual (reeval (M := F1) (v1 f0) (q_tr s')) = f1.
Proof.
  exists [bump_slot], (tslot_of zero_term), stale.
  split; [apply (@result_state _ (new_sqp (M := F1) (v1 f0) [] (tslot_of zero_term) 1) stale_run); vm_compute; reflexivity|].
  split; [vm_compute; reflexivity|]. split; [vm_compute; reflexivity|]. split; vm_compute; reflexivity.
Qed.
Print Assumptions C08_sqp_stale_certificate.

