(** * Every QP iteration executed by solve is one described by CallSpec (any
    arithmetic): the log of the run contains EvQP i only where an iteration
    satisfying [solve_qp] started. *)
From Coq Require Import ZArith List Bool Arith Lia ssreflect.
From Verif Require Import Eigen Problem DDP Filter SQP CSQP Init TrialSpec TraceSpec SQPSpec CSQPSpec SQPTrial SQPLoop
  History CSQPFrames CSQPTrial CSQPLoop CSQPHist QPSpec CallSpec FastPass CallInv.
Import ListNotations.
Set Implicit Arguments.
Unset Strict Implicit.
Set Asymmetric Patterns.

Section Cover.
Variable E : Eig.
Variable M : manifold E.
Notation R := (R E).
Variable c : ccfg E.
Variable timeout : nat -> bool.
Variable fuel : nat.

(** events between [log0] and [log]: every QP iteration satisfies [P] *)
Section Cov.
Variable P : nat -> list (event E) -> Prop.
Variable log0 : list (event E).
Inductive covered : list (event E) -> Prop :=
  | cov_nil : covered log0
  | cov_other e log : (forall i, e <> EvQP E i) -> covered log -> covered (e :: log)
  | cov_qp i log : P i log -> covered log -> covered (EvQP E i :: log).
Lemma cov_callbacks n it kkt cst mer st : forall log, covered log ->
  covered (run_callbacks n it kkt cst mer st log).
Proof.
  move=> log h. rewrite /run_callbacks. elim: (seq 0 n) log h => [|j r ih] log h //=. apply: ih. by constructor.
Qed.
End Cov.

Variables (x0 : mX M) (xs : list (mX M)) (us : list {k : nat & vec E k}) (maxiter : nat) (reg : option R).
Variable s : csqp M.
Definition qp_at (i : nat) (log : list (event E)) : Prop :=
  exists s1 si, solve_qp c timeout fuel x0 xs us maxiter reg s s1 i si /\ k_log si = log.
Notation cov s' := (covered qp_at (k_log s) (k_log s')).
Variable s0 : csqp M.
Hypothesis hb : solve_begin c x0 xs us maxiter reg s = Some s0.
Notation call := (called c timeout fuel s0 maxiter).

Lemma cov_tr (a b : csqp M) : k_log b = k_log a -> cov a -> cov b.
Proof. by move=> ->. Qed.
Lemma cov_tick (a : csqp M) : cov a -> cov (snd (tick timeout a)).
Proof. by constructor. Qed.
Lemma step_log i (a : csqp M) : match qp_step c i a with SThrow b | SStop b | SGo b => k_log b = EvQP E i :: k_log a end.
Proof.
  rewrite /qp_step. set a0 := set_k_log _ _. have e0 : k_log a0 = EvQP E i :: k_log a by [].
  have ep : k_log (snd (qp_pass c i a0)) = k_log a0 by rewrite /qp_pass; case: (qp_full c i).
  rewrite -e0 -ep. move: (qp_pass c i a0) => [b p]. cbn [fst snd]. case: b => //.
  set a1 := set_k_tr _ p. have e1 : k_log a1 = k_log p by []. rewrite -e1. clearbody a1.
  have eu : forall q, k_log (update_rho c q (update_lagrangian c q a1)) = k_log a1.
  { move=> q. rewrite /update_rho. case: (_ && _) => //. }
  case: (_ =? 0) => //. have := eu true. move: (update_rho _ _ _) => a2 <-.
  have et : k_log (qp_tolerances c a2) = k_log a2 by rewrite /qp_tolerances; case: (rle _ _ _).
  rewrite -et. move: (qp_tolerances c a2) => a3. by case: (qp_converged _).
Qed.
(** about to start iteration i *)
Definition pretop (s1 : csqp M) (i : nat) (a : csqp M) : Prop :=
  i <= cc_maxqp c -> fst (tick timeout a) = false -> qp_top c timeout s1 i (snd (tick timeout a)).
Lemma cov_loop s1 : call s1 -> forall r i a, r + i = S (cc_maxqp c) -> pretop s1 i a -> cov a ->
  match qp_loop c timeout r i a with QDone b | QThrow b => cov b | QUB => True end.
Proof.
  move=> hc. elim=> [|r ih] i a hr hp h; first by exact: cov_tr h.
  cbn [qp_loop]. case e: (fst (tick timeout a)).
  - have h1 := cov_tick h. move: (snd (tick timeout a)) h1 => a1 h1. exact: cov_tr h1.
  - case: (_ =? 0) => //. have ht : qp_top c timeout s1 i (snd (tick timeout a)) by apply: hp => //; lia.
    have h1 := cov_tick h. move: (snd (tick timeout a)) h1 ht => a1 h1 ht.
    have hq : covered qp_at (k_log s) (EvQP E i :: k_log a1).
    { apply: cov_qp => //. exists s1, a1. split => //. by exists s0. }
    have := step_log i a1. case es: (qp_step c i a1) => [a2|a2|a2] e2.
    + apply: (@cov_tr a2) => //. by rewrite e2.
    + apply: (@cov_tr a2) => //. by rewrite e2.
    + apply: ih; [lia| |by rewrite e2]. move=> hi ht2. apply: qp_topS ht es _ ht2. lia.
Qed.
Lemma reset_params_log (a : csqp M) : k_log (reset_params c a) = k_log a.
Proof. rewrite /reset_params. by case: (cc_resetrho c). Qed.
Lemma cov_dir s1 : call s1 -> cov s1 ->
  match csqp_computeDirection c timeout s1 with QDone b | QThrow b => cov b | QUB => True end.
Proof.
  move=> hc h. rewrite /csqp_computeDirection.
  have e := reset_params_log s1.
  have hp : forall a, qp_begin c s1 = Some a -> pretop s1 1 a by move=> a ha hm ht; exact: qp_top1 ha hm ht.
  move: hp. rewrite /qp_begin. move: (reset_params c s1) e => a e hp.
  case: (cc_eqguess c) hp => hp.
  - case: (fst (cw_backward _ _ _)) hp => hp; last by apply: (@cov_tr a) => //; rewrite e.
    apply: (cov_loop hc); [lia|exact: hp|by apply: (@cov_tr a) => //; rewrite e].
  - apply: (cov_loop hc); [lia|exact: hp|by rewrite e].
Qed.
Lemma cov_retry watch : cc_removereg c = false -> forall f s1, call s1 -> cov s1 ->
  match csqp_retry c timeout watch f s1 with
  | DirOk b | DirFail b | DirExc b => cov b
  | _ => True end.
Proof.
  move=> hrr. elim=> [|f ih] s1 hc h //=. case: (_ && _) => //.
  have := cov_dir hc h. case e: (csqp_computeDirection c timeout s1) => [s2|s2|] // h2.
  case e2: (rge _ _); first by exact: cov_tr h2.
  apply: ih; [exact: call_retry hc hrr e e2|exact: cov_tr h2].
Qed.
Lemma cov_direction watch f s1 : call s1 -> cov s1 ->
  match csqp_direction c timeout watch f s1 with
  | DirOk b | DirFail b | DirExc b => cov b
  | _ => True end.
Proof.
  rewrite /csqp_direction => hc h. case e: (cc_removereg c); last exact: cov_retry.
  have := cov_dir hc h. by case: (csqp_computeDirection c timeout s1).
Qed.
Lemma main_log (a : csqp M) : k_log (main_start c timeout a) = EvIter E (k_iter a) :: EvClock E (fst (tick timeout a)) :: k_log a.
Proof. rewrite /main_start. by case: (_ && _). Qed.
Lemma ls_log (a : csqp M) : match csqp_line_search c (c_alphas (cc_ddp c)) a with
  | CLSAccept _ b | CLSNone b => k_log b = k_log a | _ => True end.
Proof.
  have := cline_searchP c (c_alphas (cc_ddp c)) a.
  case: (csqp_line_search _ _ _) => [al b|b|] //.
  - move=> [pre [post [_ [_ [_ [_ [_ [_ [_ [s1 [hf [-> _]]]]]]]]]]]]. exact: lf_log hf.
  - move=> [_ hf]. exact: lf_log hf.
Qed.
Lemma after_log (a : csqp M) : match csqp_after c a with BRet _ b | BNext b | BBreak b => k_log b = k_log a | _ => True end.
Proof. rewrite /csqp_after. case: (cc_removereg c) => //. case: (rgt _ _) => //. by case: (rge _ _). Qed.
Lemma cov_check (a : csqp M) : cov a -> cov (csqp_check c a).
Proof. move=> h. exact: cov_callbacks. Qed.
Lemma cov_merit (a : csqp M) : cov a -> cov (csqp_merit c (csqp_push a)).
Proof.
  move=> h. have h1 : cov (csqp_push a) by exact: cov_tr h. move: (csqp_push a) h1 => b h1.
  rewrite /csqp_merit. by case: (_ || _); constructor.
Qed.
Lemma cov_rest s1 : call s1 -> cov s1 ->
  match body_rest c timeout fuel s1 with
  | CB (BRet _ b) | CB (BNext b) | CB (BBreak b) | CExc b => cov b
  | _ => True
  end.
Proof.
  move=> hc h2. rewrite /body_rest. have := cov_direction true fuel hc h2.
  move: (csqp_direction _ _ _ _ _) => r. case: r => // s3 h3.
  case: (_ =? 0) => //. have h4 := cov_check h3. move: (csqp_check c s3) h4 => s4 h4.
  case: (rle _ _ _) => //. have h5 := cov_merit h4. move: (csqp_merit _ _) h5 => s5 h5.
  have := ls_log s5. move: (csqp_line_search _ _ _) => r. case: r => [a s6|s6|] // h6.
  - have h7 : cov (csqp_log_accept a s6) by constructor => //; rewrite h6.
    move: (csqp_log_accept a s6) h7 => s7 h7. have := after_log s7. by case: (csqp_after c s7) => // => [? b|b|b] ->.
  - have h7 : cov (csqp_log_reject s6) by constructor => //; rewrite h6. exact: h7.
Qed.
Lemma cov_body n a : loop_head c timeout fuel s0 n a -> n < maxiter -> cov a ->
  match csqp_body c timeout fuel a with
  | CB (BRet _ b) | CB (BNext b) | CB (BBreak b) | CExc b => cov b
  | _ => True
  end.
Proof.
  move=> hh hn h. rewrite bodyE. case e: (fst (tick timeout a)).
  - have h' : cov (set_k_reached true (snd (tick timeout a))) by exact: cov_tr (cov_tick h). exact: h'.
  - apply: cov_rest; [exact: call_main hh hn e|]. rewrite main_log. by do 2 apply: cov_other => //.
Qed.
Lemma cov_final a : loop_end c timeout fuel s0 maxiter a -> cov a ->
  match csqp_final c timeout fuel a with Ret _ b | Exc b => cov b | _ => True end.
Proof.
  move=> he h. rewrite /csqp_final. case e: (cc_extra c && negb (k_reached a)) => //.
  move/andb_true_iff: e => [e1 /negb_true_iff e2].
  have hc := call_extra he e1 e2. have h1 : cov (csqp_calc a) by exact: cov_tr h.
  have := cov_direction false fuel hc h1. move: (csqp_direction _ _ _ _ _) => r. case: r => // s3 h3.
  exact: cov_check.
Qed.
Lemma cov_iter k : forall n a, n + k = maxiter -> loop_head c timeout fuel s0 n a -> cov a ->
  match csqp_loop c timeout fuel k a with Ret _ b | Exc b => cov b | _ => True end.
Proof.
  elim: k => [|k ih] n a hn hh h; cbn [csqp_loop].
  - apply: cov_final => //. left. by replace maxiter with n by lia.
  - have := cov_body hh ltac:(lia) h. case eb: (csqp_body c timeout fuel a) => [[r b|b|b| |]|b] // h1.
    + apply: (ih (S n)); [lia|exact: headS hh eb|exact: cov_tr h1].
    + apply: cov_final => //. right. exists n, a. do 2 (split => //). lia.
Qed.
Lemma begin_log : k_log s0 = k_log s.
Proof.
  move: hb. rewrite /solve_begin. case: (set_guess _ _ _) => // t. set a := set_k_dreg _ _.
  have e : k_log a = k_log s by []. move: a e => a e. case: (_ =? 0) => -[<-]; exact: e.
Qed.
Theorem cov_solve_at : match csqp_loop c timeout fuel maxiter s0 with Ret _ b | Exc b => cov b | _ => True end.
Proof. apply: (@cov_iter _ 0) => //; [constructor|]. rewrite begin_log. constructor. Qed.
End Cover.

Theorem cov_solve E (M : manifold E) (c : ccfg E) timeout fuel x0 xs us maxiter reg (s : csqp M) :
  match csqp_solve c timeout x0 fuel xs us maxiter reg s with
  | Ret _ s' | Exc s' => covered (qp_at c timeout fuel x0 xs us maxiter reg s) (k_log s) (k_log s')
  | _ => True end.
Proof.
  case e: (solve_begin c x0 xs us maxiter reg s) => [s0|].
  - have := cov_solve_at timeout fuel e.
    have -> : csqp_solve c timeout x0 fuel xs us maxiter reg s = csqp_loop c timeout fuel maxiter s0.
    { move: e. rewrite /csqp_solve /solve_begin. case: (set_guess _ _ _) => // t [<-]. exact: Logic.eq_refl. }
    exact.
  - have -> : csqp_solve c timeout x0 fuel xs us maxiter reg s = Exc s.
    { move: e. rewrite /csqp_solve /solve_begin. by case: (set_guess _ _ _). }
    constructor.
Qed.
