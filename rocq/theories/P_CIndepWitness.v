(** * C62: concrete objects (binary64), a fresh one and one that has solved another problem. *)
From Coq Require Import ZArith List Bool Arith Lia.
From Verif Require Import Eigen EigenFloat Problem DDP Filter SQP CSQP Init TraceSpec CSQPSpec Models FloatWitness FastPass P_CSQPSolve
  CIndep P_CIndep.
From Verif Require P_ADMM.
Import ListNotations.
Set Implicit Arguments.
Unset Strict Implicit.

Notation cmodels := [slot_of cstage; slot_of cstage].
Notation cterm := (tslot_of fterm).
Notation fresh1 := (new_csqp (M := F1) (v1 (z 1)) cmodels cterm 1 (flit 1 10)).
(** default parameters with reset_y = true *)
Definition forget_ccfg : ccfg FloatE :=
  mkCcfg (default_cfg FloatE 2) (flit 10 1) (flit 10 1) (flit 10 1) true 1 true
    (flit 1 1000000) (flit 16 10) 1000 (flit 1 10) (flit 1 1000000) (flit 1000 1) 25 (flit 5 1)
    (flit 1 10000) (flit 1 10000) true true false false false false.
Notation never := (fun _ : nat => false).
Notation dflt := (new_csqp (M := F1) (v1 (z 1)) [] cterm 1 f0).
Notation ofA := (csqp_solve (M := F1) forget_ccfg never (v1 (flit 1 10)) 3 [] [] 5 None fresh1).
Notation orA := (csqp_solve (M := F1) (default_ccfg FloatE 1 false) never (v1 (z 3)) 3 [] [] 5 None fresh1).
Notation orB := (csqp_solve (M := F1) (default_ccfg FloatE 1 false) never (v1 (z 3)) 3 [] [] 5 None cdone1).
Definition fA : csqp F1 := state dflt ofA.
Definition rA : csqp F1 := state dflt orA.
Definition rB : csqp F1 := state dflt orB.
Definition coords (l : list {k : nat & vec FloatE k}) : list (option f64) :=
  map (fun y : {k : nat & vec FloatE k} => match y with existT 1 v => Some (fst v) | _ => None end) l.

Lemma eA : orA = Ret true rA.
Proof. apply (@result_state _ dflt orA). vm_compute. reflexivity. Qed.
Lemma eB : orB = Ret true rB.
Proof. apply (@result_state _ dflt orB). vm_compute. reflexivity. Qed.
Lemma eF : ofA = Ret true fA /\ k_iter fA = 1.
Proof. split; [apply (@result_state _ dflt ofA)|]; vm_compute; reflexivity. Qed.
Lemma xs_differ : get_xs (k_tr rA) <> get_xs (k_tr rB).
Proof. vm_compute. discriminate. Qed.
Lemma duals_differ : duals (k_tr fresh1) <> duals (k_tr cdone1).
Proof. intros h. apply (f_equal coords) in h. revert h. vm_compute. discriminate. Qed.
Lemma cstage_settled : settled forget_ccfg (alb (sl_m (slot_of cstage))) (aub (sl_m (slot_of cstage))).
Proof. intros rho [a []] [b []] [a' []] [b' []]. reflexivity. Qed.
Lemma cterm_settled : settled forget_ccfg (tlb (ts_m cterm)) (tub (ts_m cterm)).
Proof. intros rho [] [] [] []. reflexivity. Qed.

Example C62_nonvacuous : vec0_unique FloatE /\ (forall m m', m <= m' -> m <= m') /\ cc_fsize forget_ccfg = 1 /\ 1 <= cc_maxqp forget_ccfg /\
  (forall sl, In sl cmodels -> settled forget_ccfg (alb (sl_m sl)) (aub (sl_m sl))) /\
  settled forget_ccfg (tlb (ts_m cterm)) (tub (ts_m cterm)) /\
  csqp_hist (M := F1) cmodels cterm le 1 fresh1 /\
  csqp_hist (M := F1) cmodels cterm le 1 cdone1 /\
  (forall k, never (k_clk fresh1 + k) = never (k_clk cdone1 + k)) /\
  cc_resety forget_ccfg = true /\ cc_eqguess forget_ccfg = true /\
  duals (k_tr fresh1) <> duals (k_tr cdone1) /\
  ofA = Ret true fA /\ k_iter fA = 1.
Proof.
  split; [exact P_ADMM.vec0_float|]. split; [intros m m' h; exact h|]. split; [reflexivity|].
  split; [apply Nat.leb_le; vm_compute; reflexivity|].
  split; [intros sl [<-|[<-|[]]]; exact cstage_settled|]. split; [exact cterm_settled|].
  split; [exact crun1_hist|]. split; [exact crun1b_hist|]. split; [intros k; reflexivity|].
  split; [reflexivity|]. split; [reflexivity|]. split; [exact duals_differ|exact eF].
Qed.

(** The hypothesis on the multipliers is needed: with the default parameters (reset_y
    off) an object that has solved another problem before returns another trajectory
    than a fresh one, for the same call. *)
Theorem C62_default_solve_remembers_y : exists (l : list (slot F1)) t s1 s2,
  csqp_hist l t le 1 s1 /\ csqp_hist l t le 1 s2 /\
  exists r1 r2,
    csqp_solve (M := F1) (default_ccfg FloatE 1 false) never (v1 (z 3)) 3 [] [] 5 None s1 = Ret true r1 /\
    csqp_solve (M := F1) (default_ccfg FloatE 1 false) never (v1 (z 3)) 3 [] [] 5 None s2 = Ret true r2 /\
    get_xs (k_tr r1) <> get_xs (k_tr r2).
Proof.
  exists cmodels, cterm, fresh1, cdone1. split; [exact crun1_hist|]. split; [exact crun1b_hist|].
  exists rA, rB. split; [exact eA|]. split; [exact eB|exact xs_differ].
Qed.
Print Assumptions C62_default_solve_remembers_y.
Print Assumptions C62_nonvacuous.
