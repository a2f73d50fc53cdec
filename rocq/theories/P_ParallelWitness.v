(** * C25: the multithreaded full pass adds in another order, so in binary64 a solve
    with threads can return other controls than one without. *)
From Coq Require Import ZArith List Bool Arith.
From Verif Require Import Eigen EigenFloat Problem DDP Filter SQP CSQP Init Models FloatWitness.
Import ListNotations.
Set Implicit Arguments.
Set Asymmetric Patterns.

Definition p2 (n : positive) : f64 := flit 1 (2 ^ n).
(** one node, x+ = x + 2^-15 u, cost x^2/2 + 2^22 u^2 + 3u, terminal cost about x^2; no constraints *)
Definition rstage : lq FloatE 1 1 0 :=
  @mkLq FloatE 1 1 0 (m1 (z 1)) (m1 (p2 15)) (v1 f0) (m1 (z 1)) (m1 f0) (m1 (z (2 ^ 23))) (v1 f0) (v1 (z 3))
    tt tt tt tt tt.
Definition rterm : tlq FloatE 1 0 :=
  @mkTlq FloatE 1 0 (m1 (fsub (fsub (z 2) (p2 20)) (p2 30))) (v1 f0) tt tt tt tt.
(** default parameters with sigma = 2^-20; [mt]: problem with more than one thread *)
Definition rcfg (mt : bool) : ccfg FloatE :=
  mkCcfg (default_cfg FloatE 1) (flit 10 1) (flit 10 1) (flit 10 1) true 1 false
    (p2 20) (flit 16 10) 1000 (flit 1 10) (flit 1 1000000) (flit 1000 1) 25 (flit 5 1)
    (flit 1 10000) (flit 1 10000) true false false false false mt.
Notation robj := (new_csqp (M := F1) (v1 (z 1)) [slot_of rstage] (tslot_of rterm) 1 (flit 1 10)).
Notation rsolve mt := (csqp_solve (M := F1) (rcfg mt) (fun _ => false) (v1 (z 1)) 3 [] [] 5 (Some (p2 30)) robj).
Definition rdone (mt : bool) : csqp F1 := state (new_csqp (M := F1) (v1 (z 1)) [] (tslot_of rterm) 1 f0) (rsolve mt).
Lemma rsolve_done mt : rsolve mt = Ret true (rdone mt).
Proof.
  apply (@result_state _ (new_csqp (M := F1) (v1 (z 1)) [] (tslot_of rterm) 1 f0) (rsolve mt)).
  destruct mt; vm_compute; reflexivity.
Qed.
Definition ctrls (l : list {k : nat & vec FloatE k}) : list (option f64) :=
  map (fun y : {k : nat & vec FloatE k} => match y with existT 1 v => Some (fst v) | _ => None end) l.
(** With one node every schedule of the other parallel loops is the sequential one, so
    this is the run of a multithreaded build for every schedule.  Both calls return
    true, with different controls. *)
Theorem C25_threads_change_solve_binary64 : exists (c : bool -> ccfg FloatE) x0 reg s r1 r2,
  (forall mt, cc_mt (c mt) = mt) /\
  csqp_solve (M := F1) (c false) (fun _ => false) x0 3 [] [] 5 reg s = Ret true r1 /\
  csqp_solve (M := F1) (c true) (fun _ => false) x0 3 [] [] 5 reg s = Ret true r2 /\
  get_us (k_tr r1) <> get_us (k_tr r2).
Proof.
  exists rcfg, (v1 (z 1)), (Some (p2 30)), robj, (rdone false), (rdone true).
  split; [reflexivity|]. split; [exact (rsolve_done false)|]. split; [exact (rsolve_done true)|].
  intros h. apply (f_equal ctrls) in h. revert h. vm_compute. discriminate.
Qed.
Print Assumptions C25_threads_change_solve_binary64.
