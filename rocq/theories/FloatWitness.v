(** * Concrete binary64 runs: witnesses that the hypotheses of the theorems are
    met by non-trivial executions (tests of the statements, not properties). *)
From Coq Require Import ZArith List Bool SpecFloat.
From Verif Require Import Eigen EigenFloat Problem DDP Filter SQP CSQP Init Models TraceSpec SQPSpec.
Import ListNotations.
Set Implicit Arguments.
Set Asymmetric Patterns.

Notation F1 := (euclid FloatE 1).
Definition v1 (x : f64) : vec FloatE 1 := (x, tt).
Definition m1 (x : f64) : mat FloatE 1 1 := ((x, tt), tt).
Definition z (k : Z) : f64 := fofZ k.

(** x+ = x + u, cost (x^2 + u^2)/2, no constraint; terminal cost x^2/2 *)
Definition fstage : lq FloatE 1 1 0 :=
  @mkLq FloatE 1 1 0 (m1 (z 1)) (m1 (z 1)) (v1 f0) (m1 (z 1)) (m1 f0) (m1 (z 1)) (v1 f0) (v1 f0)
    tt tt tt tt tt.
Definition fterm : tlq FloatE 1 0 := @mkTlq FloatE 1 0 (m1 (z 1)) (v1 f0) tt tt tt tt.

Definition slot_of p (d : lq FloatE 1 1 p) : slot F1 :=
  @mkSlot FloatE F1 (lq_model d) (v1 f0, v1 f0)
    (adiff (lq_model d) (v1 f0, v1 f0) (v1 f0) (v1 f0)) (lconst fnan) (lconst fnan).
Definition tslot_of p (d : tlq FloatE 1 p) : tslot F1 :=
  @mkTslot FloatE F1 (lq_tmodel d) (v1 f0) (tdiff (lq_tmodel d) (v1 f0) (v1 f0)) (lconst fnan) (lconst fnan).

Definition sol (s : sqp F1) : list f64 * list f64 :=
  (map fst (get_xs (q_tr s)),
   map (fun n => match nu (nm n) as k return vec FloatE k -> f64 with
                 | O => fun _ => f0 | S k => fun v => fst v end (pu (pt n))) (run (q_tr s))).

(** the result of a call (states are not normalised: they contain the models) *)
Definition result {S} (o : outcome S) : option bool := match o with Ret b _ => Some b | _ => None end.
Definition state {S} (d : S) (o : outcome S) : S := match o with Ret _ s | Exc s => s | _ => d end.
Lemma result_state S (d : S) o b : result o = Some b -> o = Ret b (state d o).
Proof. destruct o; try discriminate. intros H. injection H as ->. reflexivity. Qed.

(** two nodes, x0 = 1, default parameters, 1 callback, 5 iterations *)
Notation run1 :=
  (sqp_solve (M := F1) (v1 (z 1)) (default_scfg FloatE 1) 3 [] [] 5 None
    (new_sqp (M := F1) (v1 (z 1)) [slot_of fstage; slot_of fstage] (tslot_of fterm) 1)).
Definition summary (o : outcome (sqp F1)) :=
  match o with
  | Ret b s => Some (b, q_iter s, length (q_log s), sol s)
  | _ => None
  end.
Definition done1 : sqp F1 := state (new_sqp (M := F1) (v1 (z 1)) [] (tslot_of fterm) 1) run1.
(** it converges after one accepted full step; the trace has two callbacks, a
    line search and an acceptance *)
Example run1_result : run1 = Ret true done1 /\ q_iter done1 = 1 /\
  map (fun e => match e with EvAccept i a _ _ _ _ => Some (i, a) | _ => None end) (rev (q_log done1))
    = [None; None; Some (0, f1); None].
Proof.
  split; [apply (@result_state _ (new_sqp (M := F1) (v1 (z 1)) [] (tslot_of fterm) 1) run1); vm_compute; reflexivity|].
  split; vm_compute; reflexivity.
Qed.
Example run1_hist : sqp_hist (M := F1) [slot_of fstage; slot_of fstage] (tslot_of fterm) le 1
  (new_sqp (M := F1) (v1 (z 1)) [slot_of fstage; slot_of fstage] (tslot_of fterm) 1).
Proof. constructor. Qed.
(** the hypothesis zero_ok holds for this initial state *)
Example run1_zero_ok : TrialSpec.zero_ok (M := F1) (c_alphas (sc_ddp (default_scfg FloatE 1))) (v1 (z 1)).
Proof.
  split; [|vm_compute; reflexivity].
  intros a H _. repeat (destruct H as [<-|H]; [vm_compute; reflexivity|]). destruct H.
Qed.
(** a second solve on the same object (warm history), merit rule, two callbacks *)
Definition merit_scfg : scfg FloatE :=
  mkScfg (default_cfg FloatE 2) (flit 1 1) false 1 true.
Notation run2 := (sqp_solve (M := F1) (v1 (z 3)) merit_scfg 3 [] [] 7 None done1).
Definition done2 : sqp F1 := state done1 run2.
Example run2_result : run2 = Ret true done2 /\ q_iter done2 = 1 /\ length (q_log done2) = 10.
Proof.
  split; [apply (@result_state _ done1 run2); vm_compute; reflexivity|].
  split; vm_compute; reflexivity.
Qed.
Example run2_hist : sqp_hist (M := F1) [slot_of fstage; slot_of fstage] (tslot_of fterm) le 1 done1.
Proof. eapply hist_solve; [exact run1_hist | | exact (proj1 run1_result)]. reflexivity. Qed.
