(** * The terminal model of a SolverSQP object never changes. *)
From Coq Require Import ZArith List Bool Arith Lia ssreflect.
From Verif Require Import Eigen Problem DDP Filter SQP CSQP Init SQPSpec History.
Import ListNotations.
Set Implicit Arguments.
Unset Strict Implicit.
Set Asymmetric Patterns.

Section Term.
Variable E : Eig.
Variable M : manifold E.
Notation ttm t := (tm (trm (t : traj M))).

Lemma fwd_tm l : forall d (tn : tnode M) xg ug, tm (snd (fst (fwd_nodes d l tn xg ug))) = tm tn.
Proof. elim: l => [|n l ih] d tn xg ug //=. Qed.
Lemma bwd_tm preg dreg feas (t : traj M) : ttm (snd (backwardPass preg dreg feas t)) = ttm t.
Proof. by []. Qed.
Lemma gaps_tm l : forall f (tn : tnode M), tm (snd (gaps_from f l tn)) = tm tn.
Proof. elim: l => [|n l ih] f tn //=. Qed.
Lemma calcDiff_tm x0 i (t : traj M) : ttm (fst (calcDiff x0 i t)) = ttm t.
Proof. rewrite /calcDiff /computeGaps /= gaps_tm. by case: (i =? 0). Qed.

Variable x0 : mX M.
Variable c : scfg E.
Lemma dir_tm rc s : ttm (q_tr (snd (sqp_computeDirection x0 c rc s))) = ttm (q_tr s).
Proof.
  have hf : forall t : traj M, ttm (fst (forwardPass t)) = ttm t by move=> t; rewrite /forwardPass /= fwd_tm.
  rewrite /sqp_computeDirection. case: rc; case: (fst _);
    cbn [snd q_tr set_q_ug set_q_xg set_q_tr set_q_merit set_q_gap set_q_cost];
    rewrite ?hf ?bwd_tm; try exact: calcDiff_tm; done.
Qed.
Lemma retry_tm fuel rc : forall s : sqp M,
  match sqp_retry x0 c fuel rc s with DirOk r | DirFail r | DirExc r => ttm (q_tr r) = ttm (q_tr s) | _ => True end.
Proof.
  elim: fuel rc => [|fuel ih] rc s //. cbn [sqp_retry]. have := dir_tm rc s.
  case: (sqp_computeDirection x0 c rc s) => b s' hi. cbn [fst snd] in hi |- *.
  case: b => //. case: (req _ _ _) => //.
  have := ih false (sqp_inc c s'). by case: (sqp_retry _ _ _ _ _) => // r -> //; rewrite -hi.
Qed.
Lemma try_tm a (s : sqp M) :
  match sqp_tryStep c a s with TOk r | TThrow r => ttm (q_tr r) = ttm (q_tr s) | TUB => True end.
Proof.
  rewrite /sqp_tryStep. case: (_ || _) => //. case: (fst (fst (fst _))) => //=.
  case: (snd _) => [xn|] //. by case: (raiseIfNaN _).
Qed.
Lemma ls_tm als : forall (s : sqp M),
  match sqp_line_search c als s with LSAccept r | LSNone r => ttm (q_tr r) = ttm (q_tr s) | LSUB => True end.
Proof.
  elim: als => [|a als ih] s //. cbn [sqp_line_search].
  have := try_tm a (set_q_step a s). case: (sqp_tryStep c a (set_q_step a s)) => [r|r|] // hr.
  - case: (sqp_accept c r) => [[]|] //. have := ih r. by case: (sqp_line_search c als r) => // ? ->.
  - have := ih r. by case: (sqp_line_search c als r) => // ? ->.
Qed.
Lemma after_tm (s : sqp M) :
  match sqp_after c s with BNext r | BRet _ r | BBreak r => ttm (q_tr r) = ttm (q_tr s) | _ => True end.
Proof. rewrite /sqp_after. case: (rgt _ _); case: (rle _ _ _) => //; case: (req _ _ _) => //. Qed.
Lemma body_tm fuel (s : sqp M) :
  match sqp_body x0 c fuel s with BNext r | BRet _ r | BBreak r => ttm (q_tr r) = ttm (q_tr s) | _ => True end.
Proof.
  rewrite /sqp_body. have := retry_tm fuel true s. case: (sqp_retry _ _ _ _ _) => // s1 h1.
  case: (rle _ _ _) => //. have := ls_tm (c_alphas (sc_ddp c)) (sqp_push (sqp_check c s1)).
  case: (sqp_line_search _ _ _) => // s3 h3.
  - have := after_tm (sqp_log_accept s3). case: (sqp_after c _) => // *; rewrite -h1; (etransitivity; [eassumption|exact: h3]).
  - have := after_tm (sqp_log_reject s3). case: (sqp_after c _) => // *; rewrite -h1; (etransitivity; [eassumption|exact: h3]).
Qed.
Lemma loop_tm fuel k : forall s : sqp M,
  match sqp_loop x0 c fuel k s with Ret _ r | Exc r => ttm (q_tr r) = ttm (q_tr s) | _ => True end.
Proof.
  elim: k => [|k ih] s; cbn [sqp_loop].
  - rewrite /sqp_final. case: (sc_extra c) => //. have := retry_tm fuel true s. by case: (sqp_retry _ _ _ _ _).
  - have := body_tm fuel s. case: (sqp_body _ _ _ _) => // r hr; rewrite -hr; exact: ih.
Qed.
Lemma guess_xs_tm l : forall (tn : tnode M) xs r, guess_xs l tn xs = Some r -> tm (snd r) = tm tn.
Proof.
  elim: l => [|n l ih] tn [|x xs] r //=; first by case: xs => // -[<-].
  case e: (guess_xs l tn xs) => [q|] // [<-]. exact: ih e.
Qed.
Lemma guess_tm xs us (t t' : traj M) : set_guess xs us t = Some t' -> ttm t' = ttm t.
Proof. move=> /set_guessP [_ [[x ->] _]]. by []. Qed.

Lemma solve_tm fuel xs us k reg (s : sqp M) b s' :
  sqp_solve x0 c fuel xs us k reg s = Ret b s' -> ttm (q_tr s') = ttm (q_tr s).
Proof.
  rewrite /sqp_solve. case e: (set_guess _ _ _) => [t|] //. move=> h.
  have := loop_tm fuel k (set_q_iter 0 (set_q_dreg (init_reg (sc_ddp c) reg) (set_q_preg (init_reg (sc_ddp c) reg)
                  (set_q_tr (pin_xt0 x0 (pin_x0 x0 t)) s)))).
  rewrite h => ->. rewrite -(guess_tm e) /= /pin_xt0 /pin_x0. by case: (run t).
Qed.
End Term.

Lemma hist_tm E (M : manifold E) l (t : tslot M) resize n s :
  sqp_hist l t resize n s -> tm (trm (q_tr s)) = ts_m t.
Proof.
  elim=> {n s} [x0 n|n s x0 c fuel xs us k reg b s' _ h hn hs|n s xs us tr _ h hg
               |n s x0 c recalc _ h hn|n s c a s' _ h ht
               |n s x0 _ h|n s feas _ h|n s _ h|n s _ h|n s c _ h|n s c _ h|n n' s _ h hr] //.
  - by rewrite (solve_tm hs).
  - by rewrite (guess_tm hg).
  - by rewrite dir_tm.
  - rewrite -h. have := try_tm c a s. by case: ht => ->.
  - rewrite -h. exact: calcDiff_tm.
  - rewrite -h /= fwd_tm //.
Qed.
