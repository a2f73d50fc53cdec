(** * The terminal model of a SolverCSQP object never changes. *)
From Coq Require Import ZArith List Bool Arith Lia ssreflect.
From Verif Require Import Eigen Problem DDP Filter SQP CSQP Init CSQPSpec CSQPFrames History.
Import ListNotations.
Set Implicit Arguments.
Unset Strict Implicit.
Set Asymmetric Patterns.

Section Term.
Variable E : Eig.
Variable M : manifold E.
Notation ttm t := (tm (trm (t : traj M))).

Lemma cstep_tm (t t' : traj M) : cstep t t' -> ttm t' = ttm t.
Proof. move=> [[_ h] _]. case: h => [? [? [? [? [? [? [? [? [? [? [? ->]]]]]]]]]]]. by []. Qed.
Lemma calc_nodes_tm l : forall f (tn : tnode M) a b, tm (snd (fst (calc_nodes f l tn a b))) = tm tn.
Proof. elim: l => [|n l ih] f tn a b //=. by case: f. Qed.
Lemma calc_tm (s : csqp M) : ttm (k_tr (csqp_calc s)) = ttm (k_tr s).
Proof. rewrite /csqp_calc. cbn [k_tr set_k_con set_k_gap set_k_cost set_k_tr trm]. by rewrite calc_nodes_tm. Qed.
Variable c : ccfg E.
Variable to : nat -> bool.
Lemma rho_tm (s : csqp M) : ttm (k_tr (reset_rho c s)) = ttm (k_tr s).
Proof. by []. Qed.
Lemma retry_tm w fuel : forall s : csqp M,
  match csqp_retry c to w fuel s with DirOk r | DirFail r | DirExc r => ttm (k_tr r) = ttm (k_tr s) | _ => True end.
Proof.
  elim: fuel => [|fuel ih] s //. cbn [csqp_retry]. case: (_ && _) => //. have := computeDirectionP c to s.
  case: (csqp_computeDirection c to s) => // r [/df_tr /cstep_tm h _] //.
  case: (rge _ _) => //. have := ih (csqp_inc c r). by case: (csqp_retry _ _ _ _ _) => // q ->.
Qed.
Lemma direction_tm w fuel (s : csqp M) :
  match csqp_direction c to w fuel s with DirOk r | DirFail r | DirExc r => ttm (k_tr r) = ttm (k_tr s) | _ => True end.
Proof.
  rewrite /csqp_direction. case: (cc_removereg c); last exact: retry_tm. have := computeDirectionP c to s.
  by case: (csqp_computeDirection c to s) => // r [/df_tr /cstep_tm h _].
Qed.
Lemma ctry_tm a (s : csqp M) : ttm (k_tr (snd (csqp_tryStep c a s))) = ttm (k_tr s).
Proof. rewrite /csqp_tryStep. case: (_ || _) => //. by case: (fst (fst _)). Qed.
Lemma cls_tm als : forall (s : csqp M),
  match csqp_line_search c als s with CLSAccept _ r | CLSNone r => ttm (k_tr r) = ttm (k_tr s) | CLSUB => True end.
Proof.
  elim: als => [|a als ih] s //. cbn [csqp_line_search]. have ht := ctry_tm a s.
  move: (csqp_tryStep c a s) ht => [b r]; cbn [fst snd] => ht.
  have hi := ih r. case: b.
  - case: (csqp_accept c r) => [[]|] //. rewrite -ht. exact: hi.
  - rewrite -ht. exact: hi.
Qed.
Lemma merit_tm (s : csqp M) : ttm (k_tr (csqp_merit c s)) = ttm (k_tr s).
Proof. rewrite /csqp_merit. by case: (_ || _). Qed.
Lemma body_tm fuel (s : csqp M) :
  match csqp_body c to fuel s with
  | CB (BNext r) | CB (BRet _ r) | CB (BBreak r) | CExc r => ttm (k_tr r) = ttm (k_tr s) | _ => True end.
Proof.
  rewrite /csqp_body. case: (fst _) => //.
  set s2 := if _ then reset_rho _ _ else _.
  have h2 : ttm (k_tr s2) = ttm (k_tr s).
  { rewrite /s2. case: (_ && _); rewrite ?rho_tm calc_tm //. }
  have := direction_tm true fuel s2. case: (csqp_direction _ _ _ _ _) => // r h3; rewrite -h2 //.
  case: (_ =? 0) => //. case: (rle _ _ _) => //.
  have := cls_tm (c_alphas (cc_ddp c)) (csqp_merit c (csqp_push (csqp_check c r))). rewrite merit_tm.
  have h4 : ttm (k_tr (csqp_push (csqp_check c r))) = ttm (k_tr r) by [].
  rewrite h4 h3. case: (csqp_line_search _ _ _) => // a r5 h5.
  have <- : ttm (k_tr (csqp_log_accept a r5)) = ttm (k_tr s2) by [].
  move: (csqp_log_accept a r5) => r6. rewrite /csqp_after. case: (cc_removereg c) => //. case: (rgt _ _) => //. by case: (rge _ _).
Qed.
Lemma final_tm fuel (s : csqp M) :
  match csqp_final c to fuel s with Ret _ r | Exc r => ttm (k_tr r) = ttm (k_tr s) | _ => True end.
Proof.
  rewrite /csqp_final. case: (_ && _) => //. have := direction_tm false fuel (csqp_calc s). rewrite calc_tm.
  by case: (csqp_direction _ _ _ _ _).
Qed.
Lemma loop_tm fuel k : forall s : csqp M,
  match csqp_loop c to fuel k s with Ret _ r | Exc r => ttm (k_tr r) = ttm (k_tr s) | _ => True end.
Proof.
  elim: k => [|k ih] s; cbn [csqp_loop]; first exact: final_tm.
  have := body_tm fuel s. case: (csqp_body _ _ _ _) => [[]|] // r hr; rewrite -hr; [exact: ih|exact: final_tm].
Qed.
Lemma guess_tm xs us (t t' : traj M) : set_guess xs us t = Some t' -> ttm t' = ttm t.
Proof. move=> /set_guessP [_ [[x ->] _]]. by []. Qed.
Lemma solve_tm x0 fuel xs us k reg (s : csqp M) :
  match csqp_solve c to x0 fuel xs us k reg s with Ret _ r | Exc r => ttm (k_tr r) = ttm (k_tr s) | _ => True end.
Proof.
  rewrite /csqp_solve. case e: (set_guess _ _ _) => [t|] //.
  set s2 := if _ then _ else _.
  have h2 : ttm (k_tr s2) = ttm (k_tr s).
  { have hp : ttm (pin_xt0 x0 (pin_x0 x0 t)) = ttm (k_tr s) by rewrite -(guess_tm e) /pin_xt0 /pin_x0; case: (run t).
    rewrite /s2. case: (_ =? 0); rewrite ?rho_tm ?calc_tm; exact: hp. }
  rewrite -h2. exact: loop_tm.
Qed.
End Term.

Lemma chist_tm E (M : manifold E) l (t : tslot M) resize n s :
  csqp_hist l t resize n s -> tm (trm (k_tr s)) = ts_m t.
Proof.
  elim=> {n s} //.
  - move=> n s c to x0 fuel xs us k reg b s' _ h _ hs. rewrite -h. have := solve_tm c to x0 fuel xs us k reg s. by rewrite hs.
  - move=> n s c to x0 fuel xs us k reg s' _ h _ hs. rewrite -h. have := solve_tm c to x0 fuel xs us k reg s. by rewrite hs.
  - move=> n s xs us tr _ h hg. by rewrite /= (guess_tm hg).
  - move=> n s _ h. by rewrite calc_tm.
  - move=> n s c to s' _ h hd. rewrite -h. have := computeDirectionP c to s. by case: hd => -> [/df_tr /cstep_tm].
  - move=> n s c a _ h. by rewrite ctry_tm.
  - move=> n s c _ h. by rewrite (cstep_tm (df_tr (reset_params_dframe c s))).
  - move=> n s c b _ h. by rewrite (cstep_tm (df_tr (update_lagrangian_dframe c b s))).
  - move=> n s c b _ h. by rewrite (cstep_tm (df_tr (update_rho_dframe c b s))).
  - move=> n s t' _ h [c [p [d hh]]]. rewrite -h. cbn [k_tr set_k_tr]. apply: cstep_tm.
    move: hh => [->|[->|[->|[->|[->|[->|->]]]]]].
    + exact: cb_backward_cstep.
    + exact: cm_backward_cstep.
    + exact: cw_backward_cstep.
    + exact: cf_backward_cstep.
    + exact: cfm_backward_cstep.
    + exact: cforward_cstep.
    + exact: cwforward_cstep.
Qed.
