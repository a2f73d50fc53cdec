(** * Data at every QP iteration of a solve: fresh evaluation, pinned first state,
    models of the object (any arithmetic). *)
From Coq Require Import ZArith List Bool Arith Lia ssreflect.
From Verif Require Import Eigen Problem DDP Filter SQP CSQP Init TrialSpec TraceSpec SQPSpec CSQPSpec SQPTrial SQPLoop
  History CSQPFrames CSQPTrial CSQPLoop CSQPHist QPSpec CallSpec FastPass CallInv.
Import ListNotations.
Set Implicit Arguments.
Unset Strict Implicit.
Set Asymmetric Patterns.

Section Good.
Variable E : Eig.
Variable M : manifold E.
Notation R := (R E).
Notation node := (node M).
Notation tnode := (tnode M).
Variable c : ccfg E.
Variable timeout : nat -> bool.
Variables (l : list (slot M)) (tt : tslot M).
Notation good := (good l).

Lemma good_tr (s s' : csqp M) : k_tr s' = k_tr s -> good s -> good s'.
Proof. rewrite /CSQPHist.good => ->. exact. Qed.
Lemma good_dframe' s s' : CSQPLoop.dframe' s s' -> good s -> good s'.
Proof. move=> [p [q h]] g. exact: good_cstep (df_tr h) g. Qed.
Lemma good_calc s : good s -> good (csqp_calc s) /\ ccons (k_tr (csqp_calc s)).
Proof.
  move=> [g1 [g2 g3]]. case: (calcP g3) => -[h1 _] [h2 [_ _]]. split => //.
  split; [by rewrite (ep_nm h2)|]. split; [exact: ep_z h2 g2|].
  case: h1 => _ [_]. move: (k_tr _) => t'. case: t' => -[|n l'] tn //=. by case.
Qed.
Lemma good_ls s : good s ->
  match csqp_line_search c (c_alphas (cc_ddp c)) s with
  | CLSAccept a s' => good s' | CLSNone s' => good s' | _ => True end.
Proof.
  move=> [g1 [g2 g3]]. have := cline_searchP c (c_alphas (cc_ddp c)) s.
  case: (csqp_line_search _ _ _) => [a s6|s6|] //.
  - move=> [pre [post [_ [_ [_ [_ [_ [_ [_ [s1 [hf [-> _]]]]]]]]]]]].
    have ht := lf_tr hf.
    split; [by rewrite /set_k_tr; cbn [k_tr]; rewrite nm_accept' (nm_touched ht)|].
    split; [exact: accept_zeros (touched_zeros ht g2)|].
    by cbn [k_tr set_k_tr]; rewrite accept_fs (touched_fs ht).
  - move=> [_ hf]. have ht := lf_tr hf.
    split; [by rewrite (nm_touched ht)|]. split; [exact: touched_zeros ht g2|by rewrite (touched_fs ht)].
Qed.
Lemma good_direction watch fuel s : good s ->
  match csqp_direction c timeout watch fuel s with
  | DirOk s' => good s' | _ => True end.
Proof.
  have := directionP c timeout watch fuel s. case: (csqp_direction _ _ _ _ _) => // s' [h _] g. exact: good_dframe' h g.
Qed.
Lemma good_main s : good s -> good (main_start c timeout s) /\ ccons (k_tr (main_start c timeout s)).
Proof.
  rewrite /main_start => g. set s0 := set_k_log _ _.
  have g0 : good s0 by exact: good_tr g. have := good_calc g0. move: (csqp_calc s0) => s1 [g1 h1].
  case: (_ && _) => //.
  have hs : cstep (k_tr s1) (k_tr (reset_rho c s1)) by exact: apply_rho_cstep.
  split; [exact: good_cstep hs g1|exact: cp_cons (proj1 hs) h1].
Qed.
Lemma good_after s : good s -> match csqp_after c s with BNext s' => good s' | BBreak s' => good s' | _ => True end.
Proof.
  rewrite /csqp_after => h. case: (cc_removereg c) => //. case: (rgt _ _).
  - have h1 : good (csqp_dec c s) by exact: good_tr h. exact: h1.
  - have h1 : good (csqp_inc c s) by exact: good_tr h. move: (csqp_inc c s) h1 => s1 h1. by case: (rge _ _).
Qed.
Lemma good_rest fuel s2 : good s2 ->
  match body_rest c timeout fuel s2 with
  | CB (BNext s') => good s'
  | CB (BBreak s') => good s'
  | _ => True
  end.
Proof.
  move=> h2. rewrite /body_rest. have := good_direction true fuel h2.
  move: (csqp_direction _ _ _ _ _) => r. case: r => // s3 h3.
  case: (_ =? 0) => //. have h4 : good (csqp_check c s3) by exact: good_cstep (check_cp c s3) h3.
  move: (csqp_check c s3) h4 => s4 h4.
  case: (rle _ _ _) => //. have h5 : good (csqp_merit c (csqp_push s4)).
  { have h : good (csqp_push s4) by exact: good_tr h4. move: (csqp_push s4) h => s' h.
    rewrite /csqp_merit. case: (_ || _); exact: good_tr h. }
  move: (csqp_merit _ _) h5 => s5 h5.
  have := good_ls h5. move: (csqp_line_search _ _ _) => r. case: r => [a s6|s6|] h6; last by [].
  - have h7 : good (csqp_log_accept a s6) by exact: good_tr h6.
    move: (csqp_log_accept a s6) h7 => s7 h7. exact: good_after.
  - have h7 : good (csqp_log_reject s6) by exact: good_tr h6. exact: h7.
Qed.
Lemma good_body fuel s : good s ->
  match csqp_body c timeout fuel s with
  | CB (BNext s') => good s'
  | CB (BBreak s') => good s'
  | _ => True
  end.
Proof.
  move=> h. rewrite bodyE. case: (fst (tick timeout s)).
  - have h' : good (set_k_reached true (snd (tick timeout s))) by exact: good_tr h. exact: h'.
  - exact: good_rest (proj1 (good_main h)).
Qed.
Lemma good_head fuel s0 n s : good s0 -> loop_head c timeout fuel s0 n s -> good s.
Proof.
  move=> h0 h. elim: h => [//|n' s1 s2 _ ih hb].
  have := good_body fuel ih. rewrite hb => h. exact: good_tr h.
Qed.
Lemma good_called fuel s0 maxiter s1 : good s0 -> called c timeout fuel s0 maxiter s1 ->
  good s1 /\ ccons (k_tr s1).
Proof.
  move=> h0 h. elim: h => [n s hh hn ht|s he _ hr|s s2 _ [ih1 ih2] hrr hd _].
  - apply: good_main. exact: good_head h0 hh.
  - apply: good_calc. case: he => [hh|[n [s' [hh [hn hb]]]]]; first exact: good_head h0 hh.
    have := good_body fuel (good_head h0 hh). by rewrite hb.
  - have := computeDirectionP c timeout s. rewrite hd => -[hdf _].
    split; [exact: good_tr (good_cstep (df_tr hdf) ih1)|exact: cp_cons (proj1 (df_tr hdf)) ih2].
Qed.
Lemma good_begin x0 xs us maxiter reg s s0 : good s ->
  solve_begin c x0 xs us maxiter reg s = Some s0 -> good s0.
Proof.
  move=> [g1 [g2 g3]]. rewrite /solve_begin. case hg: (set_guess _ _ _) => [tr|//].
  have := @cstart_tr E M x0 c reg maxiter xs us tr s hg g2 g3. cbv zeta. rewrite /cstart /cstart0.
  move=> [k1 [k2 [k3 _]]] [e]. rewrite -e.
  split; [by rewrite -g1; exact: k3|]. by split.
Qed.
Lemma begin_cstep (s s1 : csqp M) : qp_begin c s = Some s1 -> cstep (k_tr s) (k_tr s1).
Proof.
  rewrite /qp_begin. have := df_tr (reset_params_dframe c s). move: (reset_params c s) => s2 h.
  case: (cc_eqguess c); last by move=> [<-].
  case: (fst _) => // -[<-]. apply: cstep_trans h _.
  exact: cstep_trans (cw_backward_cstep _ _ _) (cwforward_cstep _).
Qed.
Lemma top_cstep (s : csqp M) i si : qp_top c timeout s i si -> cstep (k_tr s) (k_tr si).
Proof.
  elim=> [s1 hb _ _|i' s1 s2 _ ih hs _ _]; first exact: begin_cstep hb.
  have := qp_step_dframe c i' s1. rewrite hs => -[h _]. apply: (cstep_trans ih). exact: df_tr h.
Qed.
Theorem good_solve fuel x0 xs us maxiter reg s s1 i si :
  good s -> solve_qp c timeout fuel x0 xs us maxiter reg s s1 i si ->
  good si /\ ccons (k_tr si).
Proof.
  move=> g [s0 [hb [hc ht]]]. case: (good_called (good_begin g hb) hc) => h1 h2.
  have hs := top_cstep ht. split; [exact: good_cstep hs h1|exact: cp_cons (proj1 hs) h2].
Qed.
End Good.
