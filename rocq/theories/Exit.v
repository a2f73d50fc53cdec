(** * Why solve stops (SolverSQP and SolverCSQP, any arithmetic). *)
From Coq Require Import ZArith List Bool Arith Lia ssreflect.
From Verif Require Import Eigen Problem DDP Filter SQP CSQP Init TrialSpec TraceSpec SQPSpec SQPTrial SQPLoop History Retry.
Import ListNotations.
Set Implicit Arguments.
Unset Strict Implicit.
Set Asymmetric Patterns.

Section SQP.
Variable E : Eig.
Variable M : manifold E.
Variable x0 : mX M.
Variable c : scfg E.
Notation dc := (sc_ddp c).

Lemma direction_iter recalc (s : sqp M) : q_iter (snd (sqp_computeDirection x0 c recalc s)) = q_iter s.
Proof. have := SQPLoop.computeDirectionP x0 c recalc s; cbv zeta. by move=> [_ [_ [_ [_ [_ [_ [_ [h _]]]]]]]]. Qed.
Lemma retry_iter fuel : forall recalc (s : sqp M),
  match sqp_retry x0 c fuel recalc s with
  | DirOk s' => q_iter s' = q_iter s
  | DirFail s' => q_iter s' = q_iter s /\ req E (q_preg s') (c_rmax dc) = true
  | DirExc _ | DirUB => False
  | DirNoFuel => True
  end.
Proof.
  elim: fuel => [|fuel ih] recalc s //. cbn [sqp_retry].
  case: (fst _); first exact: direction_iter.
  have h : q_iter (sqp_inc c (snd (sqp_computeDirection x0 c recalc s))) = q_iter s
    by cbn [q_iter sqp_inc set_q_dreg set_q_preg]; exact: direction_iter.
  case e: (req E _ _); first by split.
  have := ih false (sqp_inc c (snd (sqp_computeDirection x0 c recalc s))). rewrite h. by [].
Qed.
Lemma try_iter a (s : sqp M) :
  match sqp_tryStep c a s with TOk s' | TThrow s' => q_iter s' = q_iter s | TUB => True end.
Proof.
  rewrite /sqp_tryStep. case: (rgt _ _ || _) => //. cbv zeta.
  case: (negb _) => //. case: (snd _) => // xn. by case: (raiseIfNaN _).
Qed.
Lemma line_search_iter als : forall s : sqp M,
  match sqp_line_search c als s with LSAccept s' | LSNone s' => q_iter s' = q_iter s | LSUB => True end.
Proof.
  elim: als => [|a als ih] s //. cbn [sqp_line_search].
  have := try_iter a (set_q_step a s). case: (sqp_tryStep c a _) => [s1|s1|] // h.
  - case: (sqp_accept c s1) => [[]|] //. have := ih s1. by case: (sqp_line_search c als s1) => // s2 ->.
  - have := ih s1. by case: (sqp_line_search c als s1) => // s2 ->.
Qed.
Lemma after_iter (s : sqp M) :
  match sqp_after c s with
  | BNext s' => q_iter s' = q_iter s
  | BRet b s' => b = false /\ req E (q_preg s') (c_rmax dc) = true
  | _ => False end.
Proof.
  rewrite /sqp_after. cbv zeta. set s5 := (if _ then _ else s).
  have h5 : q_iter s5 = q_iter s by rewrite /s5; case: (rgt _ _).
  case: (rle E _ _) => //. by case e: (req E _ _).
Qed.
Lemma body_iter fuel (s : sqp M) :
  match sqp_body x0 c fuel s with
  | BNext s' => q_iter s' = q_iter s
  | BRet b s' => b = true \/ req E (q_preg s') (c_rmax dc) = true
  | BBreak _ => False
  | _ => True end.
Proof.
  rewrite /sqp_body. have := retry_iter fuel true s.
  case: (sqp_retry x0 c fuel true s) => // [s1|s1] h; last by right; case: h. cbv zeta.
  case: (rle E _ _); first by left.
  have := line_search_iter (c_alphas dc) (sqp_push (sqp_check c s1)).
  have -> : q_iter (sqp_push (sqp_check c s1)) = q_iter s1 by [].
  case: (sqp_line_search c _ _) => [s3|s3|] // e.
  - have := after_iter (sqp_log_accept s3). case: (sqp_after c _) => // [b s4 [_ k]|s4 ->]; [by right|].
    by cbn [q_iter sqp_log_accept set_q_log]; rewrite e.
  - have := after_iter (sqp_log_reject s3). case: (sqp_after c _) => // [b s4 [_ k]|s4 ->]; [by right|].
    by cbn [q_iter sqp_log_reject set_q_log]; rewrite e.
Qed.
(** a loop that returns false has used its budget or raised the regularisation to
    its maximum *)
Lemma loop_exit fuel k : forall (s : sqp M) s', sqp_loop x0 c fuel k s = Ret false s' ->
  q_iter s' = q_iter s + k \/ req E (q_preg s') (c_rmax dc) = true.
Proof.
  elim: k => [|k ih] s s'; cbn [sqp_loop].
  - rewrite /sqp_final Nat.add_0_r. case: (sc_extra c); last by move=> [<-]; left.
    have := retry_iter fuel true s. case: (sqp_retry x0 c fuel true s) => // s1 h.
    + cbv zeta. set s2 := sqp_check c s1. have h2 : q_iter s2 = q_iter s1 by [].
      move: (rle E _ _) => b. move=> hh. injection hh => <- _. left. by rewrite h2.
    + move=> hh. injection hh => <-. by right; case: h.
  - have := body_iter fuel s. case: (sqp_body x0 c fuel s) => // [b s1 h [eb es]|s1 h] //.
    + subst. case: h => // h. by right.
    + move=> /ih. cbn [q_iter set_q_iter]. rewrite h. case=> e; [left; lia|by right].
Qed.
Lemma solve_exit fuel xs us k reg (s s' : sqp M) : sqp_solve x0 c fuel xs us k reg s = Ret false s' ->
  q_iter s' = k \/ req E (q_preg s') (c_rmax dc) = true.
Proof.
  rewrite /sqp_solve. case: (set_guess _ _ _) => // tr. cbv zeta. move: (init_reg _ _) => p.
  set s1 := set_q_iter _ _. have h1 : q_iter s1 = 0 by []. move: s1 h1 => s1 h1.
  move=> /loop_exit. by rewrite h1.
Qed.

(** C57 (SolverSQP).  solve returns false only after [maxiter] line searches or
    with the regularisation at its maximum. *)
Theorem C57_sqp_false_means_exhausted (l : list (slot M)) t resize n fuel xs us k reg (s s' : sqp M) :
  l <> [] -> sqp_hist l t resize n s -> sqp_solve x0 c fuel xs us k reg s = Ret false s' ->
  exists rs last, sqp_run l x0 c xs us k reg s rs last false s' /\
    (length rs = k \/ req E (q_preg s') (c_rmax dc) = true).
Proof.
  move=> hl hh hs. case: (sqp_solve_run hl hh hs) => rs [last [hr _]]. exists rs, last. split => //.
  case: (solve_exit hs) => h; last by right.
  left. have := run_iter hr. have := proj1 (run_budget hr). lia.
Qed.
End SQP.
