(** * Why SolverCSQP::solve returns false (any arithmetic, any clock). *)
From Coq Require Import ZArith List Bool Arith Lia ssreflect.
From Verif Require Import Eigen Problem DDP Filter SQP CSQP Init TrialSpec TraceSpec SQPSpec CSQPSpec SQPTrial SQPLoop
  CSQPFrames CSQPTrial CSQPLoop CSQPHist.
Import ListNotations.
Set Implicit Arguments.
Unset Strict Implicit.
Set Asymmetric Patterns.

Section Exit.
Variable E : Eig.
Variable M : manifold E.
Variable c : ccfg E.
Variable timeout : nat -> bool.
Notation dc := (cc_ddp c).

(** [rej]: a line search of the part from [s] to [s'] accepted nothing *)
Definition news (s s' : csqp M) (new : list (event E)) : Prop :=
  observed (k_log s') = observed (k_log s) ++ new.
Definition rejected (new : list (event E)) : Prop := exists i, In (EvReject E i) new.
Lemma news_refl s : news s s []. Proof. by rewrite /news app_nil_r. Qed.
Lemma news_trans s1 s2 s3 n1 n2 : news s1 s2 n1 -> news s2 s3 n2 -> news s1 s3 (n1 ++ n2).
Proof. rewrite /news => -> ->. by rewrite app_assoc. Qed.
Lemma rejected_l n1 n2 : rejected n1 -> rejected (n1 ++ n2).
Proof. move=> [i h]. exists i. apply/in_or_app. by left. Qed.
Lemma rejected_r n1 n2 : rejected n2 -> rejected (n1 ++ n2).
Proof. move=> [i h]. exists i. apply/in_or_app. by right. Qed.
Lemma observed_cons e (lg : list (event E)) : observed (e :: lg) = observed lg ++ (if visible e then [e] else []).
Proof. by rewrite /observed /= filter_app /=; case: (visible e). Qed.

(** no QP iteration was run: only the clock stops the loop before its first one *)
Lemma qp_loop_zero r : forall i (s s' : csqp M), 0 < i ->
  qp_loop c timeout r i s = QDone s' -> k_qpit s' = 0 -> k_reached s' = true.
Proof.
  elim: r => [|r ih] i s s' hi; cbn [qp_loop].
  - case=> <- /= h; lia.
  - cbv zeta. case: (fst (tick timeout s)); first by case=> <-.
    case: (cc_interval c =? 0) => //. case: (qp_step c i _) => // s1.
    + by case=> <- /= h; lia.
    + apply: ih; lia.
Qed.
Lemma direction_zero (s s' : csqp M) : csqp_computeDirection c timeout s = QDone s' -> k_qpit s' = 0 -> k_reached s' = true.
Proof.
  rewrite /csqp_computeDirection. cbv zeta.
  case: (cc_eqguess c); [case: (fst _) => //|]; apply: qp_loop_zero; lia.
Qed.
Lemma retry_exit watch fuel : forall s : csqp M,
  match csqp_retry c timeout watch fuel s with
  | DirOk s' => k_qpit s' = 0 -> k_reached s' = true
  | DirFail s' => rge (k_preg s') (c_rmax dc) = true
  | _ => True
  end.
Proof.
  elim: fuel => [|fuel ih] s //. cbn [csqp_retry]. case e: (watch && k_reached s).
  { move=> _. by move/andb_true_iff: e => [_ ->]. }
  case ed: (csqp_computeDirection c timeout s) => [s1|s1|] //; first exact: direction_zero ed.
  case er: (rge _ _) => //. exact: ih.
Qed.
Lemma direction_exit watch fuel (s : csqp M) :
  match csqp_direction c timeout watch fuel s with
  | DirOk s' => (k_qpit s' = 0 -> k_reached s' = true) /\ news s s' [] /\ k_iter s' = k_iter s
  | DirFail s' => cc_removereg c = false /\ rge (k_preg s') (c_rmax dc) = true /\ news s s' [] /\ k_iter s' = k_iter s
  | _ => True
  end.
Proof.
  have hd := directionP c timeout watch fuel s.
  have fr (s' : csqp M) : dframe' s s' -> news s s' [] /\ k_iter s' = k_iter s.
  { move=> [p [q h]]. rewrite /news app_nil_r. by rewrite (df_log h) (df_iter h). }
  have hq : match csqp_direction c timeout watch fuel s with
    | DirOk s' => k_qpit s' = 0 -> k_reached s' = true
    | DirFail s' => cc_removereg c = false /\ rge (k_preg s') (c_rmax dc) = true
    | _ => True end.
  { rewrite /csqp_direction. case er: (cc_removereg c).
    - case ed: (csqp_computeDirection c timeout s) => //. exact: direction_zero ed.
    - have := retry_exit watch fuel s. by case: (csqp_retry _ _ _ _ _). }
  case: (csqp_direction c timeout watch fuel s) hd hq => // s'.
  - move=> [h _] hq. by split; [|exact: fr].
  - move=> [h _] [h1 h2]. by split; [|split; [|exact: fr]].
Qed.
Lemma search_iter als (s : csqp M) :
  match csqp_line_search c als s with
  | CLSAccept _ s' | CLSNone s' => k_iter s' = k_iter s /\ k_log s' = k_log s
  | CLSUB => True
  end.
Proof.
  have := cline_searchP c als s. case: (csqp_line_search c als s) => [a s'|s'|] //.
  - move=> [pre [post [_ [_ [_ [_ [_ [_ [_ [s1 [h [-> _]]]]]]]]]]]]. by rewrite /= (lf_iter h) (lf_log h).
  - move=> [_ h]. by rewrite (lf_iter h) (lf_log h).
Qed.

Lemma merit_news (s : csqp M) : exists e, news s (csqp_merit c (csqp_push s)) [e].
Proof.
  rewrite /news /csqp_merit. cbv zeta.
  case: (_ || _); eexists; cbn [k_log set_k_log]; rewrite observed_cons; reflexivity.
Qed.
Lemma merit_iter (s : csqp M) : k_iter (csqp_merit c (csqp_push s)) = k_iter s.
Proof. rewrite /csqp_merit. cbv zeta. by case: (_ || _). Qed.
Lemma check_iter (s : csqp M) : k_iter (csqp_check c s) = k_iter s.
Proof. by []. Qed.
(** the reasons *)
Definition gave_up (new : list (event E)) (s' : csqp M) : Prop :=
  rejected new \/ (cc_removereg c = false /\ rge (k_preg s') (c_rmax dc) = true) \/ k_reached s' = true.
Lemma body_exit fuel (s : csqp M) :
  match csqp_body c timeout fuel s with
  | CB (BRet b s') => exists new, news s s' new /\ (b = false -> gave_up new s')
  | CB (BNext s') => exists new, news s s' new /\ k_iter s' = k_iter s
  | CB (BBreak s') => exists new, news s s' new /\ k_iter s' = k_iter s /\ (rejected new \/ k_reached s' = true)
  | _ => True
  end.
Proof.
  rewrite /csqp_body. cbv zeta.
  have ht : news s (snd (tick timeout s)) [] by rewrite /news /tick /= observed_cons.
  case: (fst (tick timeout s)).
  { exists []. split => //. split => //. by right. }
  set s1 := csqp_calc _. have n1 : news s s1 [].
  { rewrite /news /s1 /= !observed_cons. by rewrite !app_nil_r. }
  have i1 : k_iter s1 = k_iter s by [].
  set s2 := (if _ then reset_rho c s1 else s1).
  have [n2 i2] : news s s2 [] /\ k_iter s2 = k_iter s by rewrite /s2; case: (_ && _).
  move: s2 n2 i2 => s2 n2 i2 {s1 n1 i1 ht}.
  have := direction_exit true fuel s2. case: (csqp_direction c timeout true fuel s2) => // s3; last first.
  { move=> [h1 [h2 [h3 h4]]]. exists []. split; [exact: (news_trans n2 h3)|]. move=> _. right. by left. }
  move=> [hq [n3 i3]]. have {}n3 : news s s3 [] := news_trans n2 n3.
  case: Nat.eqb_spec => q0. { exists []. split => // _. right. right. exact: hq. }
  have [cb n4] : exists cb, news s (csqp_check c s3) cb.
  { eexists. rewrite /news check_log n3 app_nil_r. by []. }
  case: (rle E _ _); first by exists cb.
  set s5 := csqp_merit c _. have i5 : k_iter s5 = k_iter s by rewrite /s5 merit_iter check_iter i3.
  have [n5' n5] : exists new, news s s5 new.
  { case: (merit_news (csqp_check c s3)) => e he. exists (cb ++ [e]). exact: (news_trans n4 he). }
  have := search_iter (c_alphas dc) s5. case: (csqp_line_search c (c_alphas dc) s5) => [a s6|s6|] // [i6 l6].
  - set s7 := csqp_log_accept a s6.
    have [new [n7 i7]] : exists new, news s s7 new /\ k_iter s7 = k_iter s.
    { eexists. split; last by rewrite -i5 -i6. rewrite /news /s7 /csqp_log_accept. cbn [k_log set_k_log].
      rewrite observed_cons l6 n5 -app_assoc. by []. }
    rewrite /csqp_after. case er: (cc_removereg c); first by exists new.
    case: (rgt _ _); first by exists new. cbv zeta.
    case eg: (rge _ _); last by exists new.
    exists new. split => // _. right. left. by split.
  - exists (n5' ++ [EvReject E (k_iter s6)]). split.
    { rewrite /news /csqp_log_reject. cbn [k_log set_k_log]. by rewrite observed_cons l6 n5 -app_assoc. }
    split; first by rewrite -i5 -i6. left. exists (k_iter s6). apply/in_or_app. right. by left.
Qed.
Lemma final_exit fuel (s s' : csqp M) b : csqp_final c timeout fuel s = Ret b s' ->
  k_iter s' = k_iter s /\ (exists new, news s s' new) /\ (k_reached s = true -> k_reached s' = true).
Proof.
  rewrite /csqp_final. case eb: (cc_extra c && negb (k_reached s)); last first.
  { case=> _ <-. split => //. split => //. exists []. exact: news_refl. }
  have hr : k_reached s = false by move/andb_true_iff: eb => [_]; case: (k_reached s).
  have := direction_exit false fuel (csqp_calc s).
  case: (csqp_direction _ _ _ _ _) => // s1.
  - move=> [_ [h1 h2]]. cbv zeta. move: (rle E _ _) => r. case=> _ <-.
    split; [by rewrite -[k_iter s]/(k_iter (csqp_calc s)) -h2|]. split; last by rewrite hr.
    eexists. rewrite /news check_log h1 app_nil_r. by [].
  - move=> [_ [_ [h1 h2]]]. case=> _ <-. split; [by rewrite h2|]. split; last by rewrite hr.
    exists []. exact: h1.
Qed.
Lemma loop_exit fuel k : forall (s s' : csqp M), csqp_loop c timeout fuel k s = Ret false s' ->
  exists new, news s s' new /\ (k_iter s' = k_iter s + k \/ gave_up new s').
Proof.
  elim: k => [|k ih] s s'; cbn [csqp_loop].
  - move=> /final_exit [h1 [[new h2] _]]. exists new. split => //. left. lia.
  - have := body_exit fuel s. case: (csqp_body c timeout fuel s) => // -[b s1|s1|s1| |] //.
    + move=> [new [h1 h2]] [eb es]. subst. exists new. split => //. right. exact: h2.
    + move=> [new [h1 h2]] /ih [new' [h3 h4]]. exists (new ++ new').
      split; [exact: (news_trans h1 h3)|]. cbn [k_iter set_k_iter] in h4. rewrite h2 in h4.
      case: h4 => [h4|h4]; [left; lia|right]. case: h4 => [h|h]; [left; exact: rejected_r|right; exact: h].
    + move=> [new [h1 [h2 h3]]] /final_exit [h4 [[new' h5] h6]]. exists (new ++ new').
      split; [exact: (news_trans h1 h5)|]. right. case: h3 => h3; [left; exact: rejected_l|right; right; exact: h6].
Qed.
Lemma rounds_rejected ncb (rs : list (round M)) : forall i j, In (EvReject E j) (rounds_trace ncb i rs) ->
  exists r, In r rs /\ r_acc r = None.
Proof.
  elim: rs => [|r rs ih] i j //= h. move: h. rewrite in_app_iff => -[h|h].
  - move: h. rewrite /round_trace in_app_iff => -[h|/= h].
    + exfalso. move: h. rewrite /callback_trace in_map_iff => -[x [h _]]. by [].
    + exists r. split; first by left. case: h => // -[|//]. by case: (r_acc r).
  - case: (ih _ _ h) => r' [h1 h2]. exists r'. by split; [right|].
Qed.

(** C57 (SolverCSQP).  solve returns false only after [maxiter] line searches, after a
    line search that accepted no step length (it is the last one), with the
    regularisation at its maximum, or because the time limit was reached. *)
Theorem C57_csqp_false_means_exhausted (l : list (slot M)) t resize n x0 fuel xs us maxiter reg (s s' : csqp M) :
  csqp_hist l t resize n s -> csqp_solve c timeout x0 fuel xs us maxiter reg s = Ret false s' ->
  exists rs last, csqp_run l x0 c timeout xs us maxiter s rs last false s' /\
    (length rs = maxiter \/
     (exists r rs', rs = rs' ++ [r] /\ r_acc r = None) \/
     (cc_removereg c = false /\ rge (k_preg s') (c_rmax dc) = true) \/
     k_reached s' = true).
Proof.
  move=> hh hs. case: (csqp_solve_run hh hs) => rs [last hr]. exists rs, last. split => //.
  have [new [hn hx]] : exists new, news s s' new /\ (k_iter s' = maxiter \/ gave_up new s').
  { move: hs. rewrite /csqp_solve. case: (set_guess _ _ _) => // tr. cbv zeta.
    move: (if cc_removereg c then _ else _) => p. set s2 := (if maxiter =? 0 then _ else _).
    have e2 : k_log s2 = k_log s by rewrite /s2; case: (maxiter =? 0).
    move: s2 e2 => s2 e2 /loop_exit [new [h1 h2]]. exists new. split => //.
    by rewrite /news -e2. }
  case: hx => [hi|[hx|[hx|hx]]]; [left|right; left|right; right; by left|by right; right; right].
  - have [h1 _] := crun_iter hr. have [h2 _] := crun_budget hr. lia.
  - have := crun_trace hr. rewrite hn => /app_inv_head e. case: hx => i hx. rewrite e in hx.
    have [r [h1 h2]] : exists r, In r rs /\ r_acc r = None.
    { move: hx. rewrite in_app_iff => -[|h]; first exact: rounds_rejected.
      exfalso. case: last {hr e} h => //. rewrite /callback_trace in_map_iff => -[x [h _]]. by []. }
    case: (In_nth_error _ _ h1) => j hj. have hl := crun_reject hr hj h2.
    case: (nth_error_split _ _ hj) => l1 [l2 [e1 e2]]. exists r, l1. split => //. rewrite e1.
    have : length rs = length l1 + S (length l2) by rewrite e1 app_length.
    case: (l2) => // a l2' /=. lia.
Qed.

(** *** the time limit is reported reached only if a check of the clock fired *)
Lemma direction_fired watch fuel (s : csqp M) :
  match csqp_direction c timeout watch fuel s with
  | DirOk s' | DirFail s' => k_reached s = false -> k_reached s' = true -> exists n, timeout n = true
  | _ => True
  end.
Proof.
  have := directionP c timeout watch fuel s. case: (csqp_direction _ _ _ _ _) => // s'.
  - move=> [_ h] /h [_ h2] /h2 [n [h3 _]]. by exists n.
  - by move=> [_ h] /h ->.
Qed.
Lemma search_reached als (s : csqp M) :
  match csqp_line_search c als s with
  | CLSAccept _ s' | CLSNone s' => k_reached s' = k_reached s
  | CLSUB => True
  end.
Proof.
  have := cline_searchP c als s. case: (csqp_line_search c als s) => [a s'|s'|] //.
  - move=> [pre [post [_ [_ [_ [_ [_ [_ [_ [s1 [h [-> _]]]]]]]]]]]]. by rewrite /= (lf_reached h).
  - move=> [_ h]. by rewrite (lf_reached h).
Qed.
Lemma merit_reached (s : csqp M) : k_reached (csqp_merit c (csqp_push s)) = k_reached s.
Proof. rewrite /csqp_merit. cbv zeta. by case: (_ || _). Qed.
Lemma check_reached (s : csqp M) : k_reached (csqp_check c s) = k_reached s.
Proof. by []. Qed.
Lemma body_fired fuel (s : csqp M) : k_reached s = false ->
  match csqp_body c timeout fuel s with
  | CB (BRet _ s') | CB (BNext s') | CB (BBreak s') => k_reached s' = true -> exists n, timeout n = true
  | _ => True
  end.
Proof.
  move=> hs. rewrite /csqp_body. cbv zeta. case et: (fst (tick timeout s)).
  { move=> _. by exists (k_clk s). }
  set s1 := csqp_calc _. have r1 : k_reached s1 = false by [].
  set s2 := (if _ then reset_rho c s1 else s1).
  have r2 : k_reached s2 = false by rewrite /s2; case: (_ && _).
  move: s2 r2 => s2 r2 {s1 r1}.
  have := direction_fired true fuel s2. case: (csqp_direction c timeout true fuel s2) => // s3 h3; last exact: h3.
  have {}h3 := h3 r2.
  case: (k_qpit s3 =? 0) => //. case: (rle E _ _); first by rewrite check_reached.
  set s5 := csqp_merit c _. have r5 : k_reached s5 = k_reached s3 by rewrite /s5 merit_reached check_reached.
  have := search_reached (c_alphas dc) s5. case: (csqp_line_search c (c_alphas dc) s5) => [a s6|s6|] // r6.
  - have r7 : k_reached (csqp_log_accept a s6) = k_reached s3 by rewrite -r5 -r6.
    rewrite /csqp_after. case: (cc_removereg c); first by rewrite r7.
    case: (rgt _ _); first by rewrite /= r6 r5.
    cbv zeta. by case: (rge _ _); rewrite /= r6 r5.
  - by rewrite /= r6 r5.
Qed.
Lemma final_fired fuel (s : csqp M) : 
  match csqp_final c timeout fuel s with
  | Ret _ s' => k_reached s' = true -> k_reached s = true \/ exists n, timeout n = true
  | _ => True
  end.
Proof.
  rewrite /csqp_final. case eb: (cc_extra c && negb (k_reached s)); last by left.
  have hr : k_reached s = false by move/andb_true_iff: eb => [_]; case: (k_reached s).
  have := direction_fired false fuel (csqp_calc s). case: (csqp_direction _ _ _ _ _) => // s1 h.
  - move=> h1. right. exact: h.
  - move=> h1. right. exact: h.
Qed.
Lemma loop_fired fuel k : forall s : csqp M, k_reached s = false ->
  match csqp_loop c timeout fuel k s with
  | Ret _ s' => k_reached s' = true -> exists n, timeout n = true
  | _ => True
  end.
Proof.
  elim: k => [|k ih] s hs; cbn [csqp_loop].
  - have := final_fired fuel s. case: (csqp_final _ _ _ _) => // b s' h /h [|//]. by rewrite hs.
  - have := body_fired fuel hs. case: (csqp_body c timeout fuel s) => // -[b s1|s1|s1| |] // h.
    + case e1: (k_reached s1).
      * case: (h e1) => n hn. case: (csqp_loop _ _ _ _ _) => // b s' _. by exists n.
      * exact: ih.
    + have := final_fired fuel s1. case: (csqp_final _ _ _ _) => // b s' h2 /h2 [|//]. exact: h.
Qed.
Theorem C57_csqp_time_limit_needs_clock x0 fuel xs us maxiter reg (s s' : csqp M) b :
  csqp_solve c timeout x0 fuel xs us maxiter reg s = Ret b s' -> k_reached s' = true -> exists n, timeout n = true.
Proof.
  rewrite /csqp_solve. case: (set_guess _ _ _) => // tr. cbv zeta. set s3 := set_k_iter _ _.
  have h3 : k_reached s3 = false by []. have := loop_fired fuel maxiter h3. by move=> h e; rewrite e in h.
Qed.
End Exit.
