(** * Clock checks of SolverCSQP::solve (any arithmetic). *)
From Coq Require Import ZArith List Bool Arith Lia ssreflect.
From Verif Require Import Eigen Problem DDP Filter SQP CSQP Init TrialSpec TraceSpec SQPSpec CSQPSpec CSQPFrames CSQPTrial CSQPLoop CSQPHist.
Import ListNotations.
Set Implicit Arguments.
Unset Strict Implicit.
Set Asymmetric Patterns.

Section Clock.
Variable E : Eig.
Variable M : manifold E.
Notation ev := (event E).

(** the results of the clock checks in a list of events *)
Fixpoint clocks (l : list ev) : list bool :=
  match l with
  | [] => []
  | EvClock b :: l' => b :: clocks l'
  | _ :: l' => clocks l'
  end.
(** start of an SQP or QP iteration *)
Definition is_work (e : ev) : bool := match e with EvIter _ | EvQP _ => true | _ => false end.
(** no iteration starts after a positive clock check ([b]: there has been one) *)
Fixpoint quiet (b : bool) (l : list ev) : Prop :=
  match l with
  | [] => True
  | e :: l' => (is_work e = true -> b = false) /\ quiet (b || match e with EvClock b' => b' | _ => false end) l'
  end.
Definition hit (l : list ev) : bool := existsb id (clocks l).

Lemma clocks_app l1 l2 : clocks (l1 ++ l2) = clocks l1 ++ clocks l2.
Proof. elim: l1 => [|e l1 ih] //=. by case: e => //= b; rewrite ih. Qed.
Lemma hit_app l1 l2 : hit (l1 ++ l2) = hit l1 || hit l2.
Proof. by rewrite /hit clocks_app existsb_app. Qed.
Lemma hit_cons e l : hit (e :: l) = match e with EvClock b' => b' | _ => false end || hit l.
Proof. by case: e. Qed.
Lemma quiet_app b l1 l2 : quiet b l1 -> quiet (b || hit l1) l2 -> quiet b (l1 ++ l2).
Proof.
  elim: l1 b => [|e l1 ih] b /=; first by rewrite orb_false_r.
  move=> [h1 h2] h3. split => //. apply: ih => //. by rewrite -orb_assoc -hit_cons.
Qed.
Lemma quiet_after b l pre post : quiet b l -> l = pre ++ EvClock E true :: post ->
  forall e, In e post -> is_work e = false.
Proof.
  move=> h e0. subst l. elim: pre b h => [|e1 pre ih] b /=.
  - rewrite orb_true_r. move=> [_]. elim: post => [|e2 post ih2] //= [h1 h2] e [<-|].
    + by case: (is_work e2) h1 => // ->.
    + exact: ih2.
  - move=> [_ h]. exact: ih h.
Qed.

Variable c : ccfg E.
Variable timeout : nat -> bool.
Notation mono := (forall n, timeout n = true -> timeout (S n) = true).
Lemma mono_le (hm : mono) n m : n <= m -> timeout n = true -> timeout m = true.
Proof. elim=> [|m' _ ih] // h. exact: hm (ih h). Qed.

(** from [s] to [s'] the events [evs] were added *)
Definition tl (s s' : csqp M) : Prop := exists evs,
  k_log s' = rev evs ++ k_log s /\ k_reached s' = k_reached s || hit evs /\
  k_clk s' = k_clk s + length (clocks evs) /\
  clocks evs = map timeout (seq (k_clk s) (length (clocks evs))) /\
  (mono -> (k_reached s = true -> timeout (k_clk s) = true) ->
     quiet (k_reached s) evs).
Lemma tl_live (hm : mono) (s s' : csqp M) : tl s s' -> (k_reached s = true -> timeout (k_clk s) = true) ->
  k_reached s' = true -> timeout (k_clk s') = true.
Proof.
  move=> [evs [h1 [h2 [h3 [h4 _]]]]] hs. rewrite h2 => /orb_true_iff [h|h].
  - apply: (mono_le hm) (hs h). lia.
  - move: h. rewrite /hit h4. move=> /existsb_exists [b [/in_map_iff [n [hn /in_seq hi]] hb]].
    apply: (mono_le hm (n:=n)); [lia|]. by rewrite hn -[RHS]hb.
Qed.
Lemma tl_trans s1 s2 s3 : tl s1 s2 -> tl s2 s3 -> tl s1 s3.
Proof.
  move=> h12 h23. have hl := fun hm => tl_live hm h12. move: h12 h23.
  move=> [e1 [a1 [a2 [a3 [a4 a5]]]]] [e2 [b1 [b2 [b3 [b4 b5]]]]]. exists (e1 ++ e2).
  split; first by rewrite b1 a1 rev_app_distr app_assoc.
  split; first by rewrite b2 a2 hit_app orb_assoc.
  rewrite clocks_app app_length. split; first by rewrite b3 a3; lia.
  split; first by rewrite seq_app map_app -a4 {1}b4 a3.
  move=> hm hs. apply: quiet_app; [exact: a5|]. rewrite -a2. apply: b5 => //. exact: hl.
Qed.
Lemma tl_same (s s' : csqp M) : k_log s' = k_log s -> k_reached s' = k_reached s -> k_clk s' = k_clk s -> tl s s'.
Proof.
  move=> h1 h2 h3. exists []. rewrite h1 h2 h3 orb_false_r /=. do 2 (split; [done|]). split; [lia|done].
Qed.
Lemma tl_refl s : tl s s.
Proof. exact: tl_same. Qed.
(** events that are neither work nor clock checks *)
Definition plain (e : ev) : bool := negb (is_work e) && match e with EvClock _ => false | _ => true end.
Lemma plain_clocks l : Forall (fun e => plain e = true) l -> clocks l = [] /\ forall b, quiet b l.
Proof.
  elim=> [|e l' he _ [h1 h2]] //.
  have hc : match e with EvClock b' => b' | _ => false end = false by destruct e.
  split; first by destruct e.
  move=> b. cbn [quiet]. rewrite hc orb_false_r. split => // hw. by move: he; rewrite /plain hw.
Qed.
Lemma tl_plain (s s' : csqp M) l : Forall (fun e => plain e = true) l ->
  k_log s' = rev l ++ k_log s -> k_reached s' = k_reached s -> k_clk s' = k_clk s -> tl s s'.
Proof.
  move=> hp h1 h2 h3. case: (plain_clocks hp) => p1 p2. exists l.
  rewrite h1 h2 h3 /hit p1 orb_false_r /=. do 2 (split; [done|]). split; [lia|]. by split.
Qed.
Lemma tl_work e (s : csqp M) : timeout (k_clk s) = false -> plain e = false -> is_work e = true ->
  tl s (set_k_log (e :: k_log (snd (tick timeout s))) (snd (tick timeout s))).
Proof.
  move=> ht _ he. exists [EvClock E false; e].
  have hc : clocks [EvClock E false; e] = [false] by case: e he.
  rewrite /hit hc /=. split; first by rewrite ht. rewrite ?orb_false_r ht. split; [by rewrite ?orb_false_r|]. split; [lia|]. split => //.
  move=> hm hs. rewrite ?orb_false_r. split => //. split => // _. case er: (k_reached s) => //.
  by have := hs er.
Qed.
Lemma tl_stop (s s' : csqp M) : timeout (k_clk s) = true ->
  k_log s' = k_log (snd (tick timeout s)) -> k_reached s' = true -> k_clk s' = S (k_clk s) -> tl s s'.
Proof.
  move=> ht h1 h2 h3. exists [EvClock E true]. rewrite h1 h2 h3 /= ht orb_true_r. do 2 (split; [done|]).
  split; [lia|]. by split.
Qed.

(** ** computeDirection *)
Definition same (s s' : csqp M) : Prop := k_log s' = k_log s /\ k_reached s' = k_reached s /\ k_clk s' = k_clk s.
Lemma same_trans s1 s2 s3 : same s1 s2 -> same s2 s3 -> same s1 s3.
Proof. move=> [a1 [a2 a3]] [b1 [b2 b3]]. rewrite /same b1 b2 b3. by split. Qed.
Lemma same_tl s s' : same s s' -> tl s s'.
Proof. move=> [h1 [h2 h3]]. exact: tl_same. Qed.
Lemma update_rho_same b s : same s (update_rho c b s).
Proof. rewrite /update_rho. by case: (_ && _). Qed.
Lemma qp_tol_same s : same s (qp_tolerances c s).
Proof. rewrite /qp_tolerances. by case: (rle _ _ _). Qed.
Lemma qp_pass_same i s : same s (snd (qp_pass c i s)).
Proof. rewrite /qp_pass. by case: (qp_full c i). Qed.
Lemma qp_step_same i s :
  match qp_step c i s with SThrow s' | SStop s' | SGo s' => same (set_k_log (EvQP E i :: k_log s) s) s' end.
Proof.
  rewrite /qp_step. set s1 := set_k_log _ _. have h1 := qp_pass_same i s1.
  case: (qp_pass c i s1) h1 => ok s2. cbn [fst snd]. move=> h1. case: ok => //.
  set b := (_ =? 0).
  have h2 : same s2 (update_rho c b (update_lagrangian c b (set_k_tr (cforward (k_tr s2)) s2))).
  { apply: (@same_trans _ (update_lagrangian c b (set_k_tr (cforward (k_tr s2)) s2))) => //. exact: update_rho_same. }
  have h3 := same_trans h1 h2.
  move: (update_rho c b _) h3 => s3 h3. case: b {h2}.
  - have h4 := same_trans h3 (qp_tol_same s3). by case: (qp_converged _).
  - by [].
Qed.
Lemma qp_loop_tl : forall r i s,
  match qp_loop c timeout r i s with QDone s' | QThrow s' => tl s s' | QUB => True end.
Proof.
  elim=> [|r ih] i s; cbn [qp_loop]; first exact: tl_same.
  case e: (fst (tick timeout s)).
  - exact: tl_stop.
  - case: (cc_interval c =? 0) => //.
    have hw := @tl_work (EvQP E i) s e (Logic.eq_refl _) (Logic.eq_refl _).
    have := qp_step_same i (snd (tick timeout s)).
    case: (qp_step c i (snd (tick timeout s))) => s1 hs.
    + apply: tl_trans hw _. apply: tl_trans (same_tl hs) _. exact: tl_same.
    + apply: tl_trans hw _. apply: tl_trans (same_tl hs) _. exact: tl_same.
    + have hw' := tl_trans hw (same_tl hs). have := ih (S i) s1.
      case: (qp_loop c timeout r (S i) s1) => // s2; exact: tl_trans hw'.
Qed.
Lemma computeDirection_tl s :
  match csqp_computeDirection c timeout s with QDone s' | QThrow s' => tl s s' | QUB => True end.
Proof.
  rewrite /csqp_computeDirection. cbv zeta.
  have h1 : same s (reset_params c s) by rewrite /reset_params; case: (cc_resetrho c).
  move: (reset_params c s) h1 => s1 h1. case: (cc_eqguess c).
  - case: (cw_backward _ _ _) => ok t'. cbn [fst snd]. case: ok.
    + set s3 := set_k_tr _ _. have h3 : tl s s3 by apply: same_tl; exact: h1.
      have := qp_loop_tl (cc_maxqp c) 1 s3.
      case: (qp_loop _ _ _ _ _) => // s2; exact: tl_trans.
    + exact: same_tl.
  - have := qp_loop_tl (cc_maxqp c) 1 s1.
    case: (qp_loop _ _ _ _ _) => // s2; apply: tl_trans; exact: same_tl.
Qed.
Lemma retry_tl watch : forall fuel s,
  match csqp_retry c timeout watch fuel s with DirOk s' | DirFail s' | DirExc s' => tl s s' | _ => True end.
Proof.
  elim=> [|fuel ih] s //; cbn [csqp_retry]. case: (watch && k_reached s); first exact: tl_refl.
  have := computeDirection_tl s. case: (csqp_computeDirection c timeout s) => // s1 h1.
  have h2 : tl s (csqp_inc c s1) by apply: tl_trans h1 _; exact: tl_same.
  case: (rge _ _) => //. have := ih (csqp_inc c s1).
  case: (csqp_retry _ _ _ _ _) => // s2; exact: tl_trans.
Qed.
Lemma direction_tl watch fuel s :
  match csqp_direction c timeout watch fuel s with DirOk s' | DirFail s' | DirExc s' => tl s s' | _ => True end.
Proof.
  rewrite /csqp_direction. case: (cc_removereg c); last exact: retry_tl.
  have := computeDirection_tl s. by case: (csqp_computeDirection c timeout s).
Qed.

(** ** solve *)
Lemma check_tl (s : csqp M) : tl s (csqp_check c s).
Proof.
  apply: (@tl_plain _ _ (callback_trace (c_ncb (cc_ddp c)) (k_iter s) (k_kkt (csqp_check c s)) (k_cost s) (k_merit s) (k_step s))) => //.
  - rewrite /callback_trace. elim: (seq _ _) => [|j l ih] /=; constructor => //.
  - rewrite /csqp_check. cbn [k_log csqp_callbacks set_k_log]. by rewrite Rounds.run_callbacksE.
Qed.
Lemma search_tl (s : csqp M) : tl s (csqp_merit c (csqp_push s)).
Proof.
  have : forall s2 : csqp M, k_log s2 = k_log s -> k_reached s2 = k_reached s -> k_clk s2 = k_clk s -> tl s (csqp_merit c s2).
  { move=> s2 h1 h2 h3. rewrite /csqp_merit. cbv zeta. set s3 := (if _ then _ else _).
    have : k_log s3 = k_log s2 /\ k_reached s3 = k_reached s2 /\ k_clk s3 = k_clk s2 by rewrite /s3; case: (_ || _).
    move=> [g1 [g2 g3]]. move: s3 g1 g2 g3 => s3 g1 g2 g3.
    apply: (@tl_plain _ _ [EvLineSearch E (k_iter s3) (k_cost s3) (k_gap s3) (k_con s3) (merit_of c (k_lagn s3) (k_cost s3) (k_gap s3) (k_con s3))]).
    - by constructor.
    - cbn. by rewrite g1 h1.
    - cbn. by rewrite g2 h2.
    - cbn. by rewrite g3 h3. }
  apply; by [].
Qed.
Lemma line_tl als (s : csqp M) :
  match csqp_line_search c als s with CLSAccept _ s' | CLSNone s' => same s s' | CLSUB => True end.
Proof.
  elim: als s => [|a r ih] s //; cbn [csqp_line_search]; cbv zeta.
  case: (ctryStepP c a s) => _ [hf _]. case: (csqp_tryStep c a s) hf => ok s1. cbn [fst snd]. move=> hf.
  have h1 : same s s1 by split; [exact: lf_log hf|split; [exact: lf_reached hf|exact: lf_clk hf]].
  have := ih s1. case: ok.
  - case: (csqp_accept c s1) => // [[]]; first by [].
    case: (csqp_line_search c r s1) => // *; exact: same_trans h1 _.
  - case: (csqp_line_search c r s1) => // *; exact: same_trans h1 _.
Qed.
Lemma calc_same (s : csqp M) : same s (csqp_calc s).
Proof. by []. Qed.
Lemma body_tl fuel s :
  match csqp_body c timeout fuel s with
  | CExc s' | CB (BRet _ s') | CB (BNext s') | CB (BBreak s') => tl s s'
  | _ => True
  end.
Proof.
  rewrite /csqp_body. cbv zeta. case e: (fst (tick timeout s)); first exact: tl_stop.
  have hw := @tl_work (EvIter E (k_iter s)) s e (Logic.eq_refl _) (Logic.eq_refl _).
  set s1 := set_k_log _ _ in hw *.
  have h2 : tl s (csqp_calc s1) := tl_trans hw (same_tl (calc_same s1)).
  move: (csqp_calc s1) h2 => {hw e} s1' h2.
  set s2 := (if (k_iter s1' =? 0) && _ then _ else _).
  have h3 : tl s s2. { apply: tl_trans h2 _. apply: same_tl. rewrite /s2. by case: (_ && _). }
  move: s2 h3 => s2 h3.
  have := direction_tl true fuel s2. case: (csqp_direction c timeout true fuel s2) => // s3 hd;
    [|exact: tl_trans h3 hd|exact: tl_trans h3 hd].
  have h4 := tl_trans h3 hd. case: (k_qpit s3 =? 0) => //.
  have h5 := tl_trans h4 (check_tl s3). move: (csqp_check c s3) h5 => s4 h5.
  case: (rle _ _ _) => //.
  have h6 := tl_trans h5 (search_tl s4). move: (csqp_merit c (csqp_push s4)) h6 => s5 h6.
  have := line_tl (c_alphas (cc_ddp c)) s5.
  case: (csqp_line_search c _ s5) => // [a s6|s6] h7.
  - have h8 : tl s (csqp_log_accept a s6).
    { apply: tl_trans (tl_trans h6 (same_tl h7)) _.
      apply: (@tl_plain _ _ [EvAccept E (k_iter s6) a (k_costt s6) (k_gapt s6) (k_cont s6) (k_meritt s6)]) => //. by constructor. }
    move: (csqp_log_accept a s6) h8 => s7 h8. rewrite /csqp_after.
    case: (cc_removereg c) => //. case: (rgt _ _); first by apply: tl_trans h8 _; exact: tl_same.
    case: (rge _ _); by apply: tl_trans h8 _; exact: tl_same.
  - apply: tl_trans (tl_trans h6 (same_tl h7)) _.
    apply: (@tl_plain _ _ [EvReject E (k_iter s6)]) => //. by constructor.
Qed.
Lemma final_tl fuel s :
  match csqp_final c timeout fuel s with Ret _ s' | Exc s' => tl s s' | _ => True end.
Proof.
  rewrite /csqp_final. case: (_ && _); last exact: tl_refl.
  have h1 := same_tl (calc_same s). move: (csqp_calc s) h1 => s1 h1.
  have := direction_tl false fuel s1. case: (csqp_direction c timeout false fuel s1) => // s2 h2;
    have h3 := tl_trans h1 h2 => //. exact: tl_trans h3 (check_tl s2).
Qed.
Lemma loop_tl fuel : forall k s,
  match csqp_loop c timeout fuel k s with Ret _ s' | Exc s' => tl s s' | _ => True end.
Proof.
  elim=> [|k ih] s; cbn [csqp_loop]; first exact: final_tl.
  have := body_tl fuel s. case: (csqp_body c timeout fuel s) => // [[b s'|s'|s'| |]] // h.
  - have h1 : tl s (set_k_iter (S (k_iter s')) s') by apply: tl_trans h _; exact: tl_same.
    have := ih (set_k_iter (S (k_iter s')) s'). case: (csqp_loop _ _ _ _ _) => // *; exact: tl_trans h1 _.
  - have := final_tl fuel s'. case: (csqp_final _ _ _ _) => // *; exact: tl_trans h _.
Qed.
Lemma solve_tl x0 fuel xs us k reg (s : csqp M) tr : set_guess xs us (k_tr s) = Some tr ->
  match csqp_solve c timeout x0 fuel xs us k reg s with
  | Ret _ s' | Exc s' => tl (set_k_reached false s) s'
  | _ => True
  end.
Proof.
  move=> hg. rewrite /csqp_solve hg. set ss := set_k_iter _ _.
  have h : same (set_k_reached false s) ss by rewrite /ss; case: (k =? 0).
  have := loop_tl fuel k ss. case: (csqp_loop _ _ _ _ _) => // *; exact: tl_trans (same_tl h) _.
Qed.
End Clock.
