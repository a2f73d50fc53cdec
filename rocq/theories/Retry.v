(** * The regularisation retry loops of SolverSQP and SolverCSQP (any arithmetic):
    the regularisation values they see, and when they come to an end. *)
From Coq Require Import ZArith List Bool Arith Lia ssreflect.
From Verif Require Import Eigen Problem DDP Filter SQP CSQP Init TrialSpec TraceSpec SQPSpec SQPTrial SQPLoop
  CSQPFrames CSQPTrial CSQPLoop.
Import ListNotations.
Set Implicit Arguments.
Unset Strict Implicit.
Set Asymmetric Patterns.

(** [k] increases from [p] *)
Definition raised E (c : cfg E) (k : nat) (p : R E) : R E := Nat.iter k (inc_reg c) p.
(** [Q] is closed under increaseRegularization and decreaseRegularization *)
Definition reg_closed E (c : cfg E) (Q : R E -> Prop) : Prop :=
  forall p, Q p -> Q (inc_reg c p) /\ Q (dec_reg c p).

Lemma iter_succ_r A (f : A -> A) k x : Nat.iter (S k) f x = Nat.iter k f (f x).
Proof. elim: k => [|k ih] //=. congr (f _). exact: ih. Qed.

Section SQP.
Variable E : Eig.
Variable M : manifold E.
Variable x0 : mX M.
Variable c : scfg E.
Notation dc := (sc_ddp c).

Lemma raisedS k (p : R E) : raised dc (S k) p = raised dc k (inc_reg dc p).
Proof. exact: iter_succ_r. Qed.
Lemma direction_preg recalc (s : sqp M) : q_preg (snd (sqp_computeDirection x0 c recalc s)) = q_preg s.
Proof. by have := SQPLoop.computeDirectionP x0 c recalc s; cbv zeta; move=> [_ [_ [_ [_ [_ [h _]]]]]]. Qed.

(** the loop ends at the first increase that reaches reg_max, if not earlier *)
Lemma sqp_retry_bound k : forall fuel recalc (s : sqp M), k < fuel ->
  req E (raised dc (S k) (q_preg s)) (c_rmax dc) = true ->
  sqp_retry x0 c fuel recalc s <> DirNoFuel.
Proof.
  elim: k => [|k ih] [|fuel] recalc s hk hr; try lia; cbn [sqp_retry].
  - case: (fst _) => //. cbn [q_preg sqp_inc set_q_dreg set_q_preg]. rewrite direction_preg.
    by rewrite /raised /= in hr; rewrite hr.
  - case: (fst _) => //. case: (req E _ _) => //. apply: ih; first by lia.
    cbn [q_preg sqp_inc set_q_dreg set_q_preg]. rewrite direction_preg -raisedS. exact: hr.
Qed.

Lemma try_preg a (s : sqp M) :
  match sqp_tryStep c a s with TOk s' | TThrow s' => q_preg s' = q_preg s | TUB => True end.
Proof.
  rewrite /sqp_tryStep. case: (rgt _ _ || _) => //. cbv zeta.
  case: (negb _) => //. case: (snd _) => // xn. by case: (raiseIfNaN _).
Qed.
Lemma line_search_preg als : forall s : sqp M,
  match sqp_line_search c als s with LSAccept s' | LSNone s' => q_preg s' = q_preg s | LSUB => True end.
Proof.
  elim: als => [|a als ih] s //. cbn [sqp_line_search].
  have := try_preg a (set_q_step a s). case: (sqp_tryStep c a _) => [s1|s1|] // h.
  - case: (sqp_accept c s1) => [[]|] //. have := ih s1. by case: (sqp_line_search c als s1) => // s2 ->.
  - have := ih s1. by case: (sqp_line_search c als s1) => // s2 ->.
Qed.

Variable Q : R E -> Prop.
Hypothesis closed : reg_closed dc Q.
Lemma sqp_retry_reg fuel : forall recalc (s : sqp M), Q (q_preg s) ->
  match sqp_retry x0 c fuel recalc s with DirOk s' | DirFail s' | DirExc s' => Q (q_preg s') | _ => True end.
Proof.
  elim: fuel => [|fuel ih] recalc s hs //. cbn [sqp_retry].
  case: (fst _); first by rewrite direction_preg.
  have h : Q (q_preg (sqp_inc c (snd (sqp_computeDirection x0 c recalc s)))).
  { cbn [q_preg sqp_inc set_q_dreg set_q_preg]. rewrite direction_preg. by case: (closed hs). }
  case: (req E _ _) => //. exact: ih.
Qed.
Lemma sqp_after_reg (s : sqp M) : Q (q_preg s) ->
  match sqp_after c s with BNext s' | BRet _ s' | BBreak s' => Q (q_preg s') | BUB => True | BNoFuel => False end.
Proof.
  move=> h. rewrite /sqp_after. cbv zeta. set s5 := (if _ then _ else s).
  have h5 : Q (q_preg s5) by rewrite /s5; case: (rgt _ _) => //; case: (closed h).
  case: (rle E _ _) => //. have h6 : Q (q_preg (sqp_inc c s5)) by case: (closed h5).
  by case: (req E _ _).
Qed.
Lemma sqp_body_reg fuel (s : sqp M) : Q (q_preg s) ->
  (forall s1, Q (q_preg s1) -> sqp_retry x0 c fuel true s1 <> DirNoFuel) ->
  match sqp_body x0 c fuel s with
  | BNoFuel => False
  | BNext s' | BRet _ s' | BBreak s' => Q (q_preg s')
  | BUB => True
  end.
Proof.
  move=> hs hr. rewrite /sqp_body. have := sqp_retry_reg fuel true hs. have := hr s hs.
  case: (sqp_retry x0 c fuel true s) => // s1 _ h1. cbv zeta.
  case: (rle E _ _) => //. have := line_search_preg (c_alphas dc) (sqp_push (sqp_check c s1)).
  case: (sqp_line_search c _ _) => [s3|s3|] // e.
  - have := @sqp_after_reg (sqp_log_accept s3). cbn [q_preg sqp_log_accept set_q_log]. rewrite e => /(_ h1).
    by case: (sqp_after c _).
  - have := @sqp_after_reg (sqp_log_reject s3). cbn [q_preg sqp_log_reject set_q_log]. rewrite e => /(_ h1).
    by case: (sqp_after c _).
Qed.
Lemma sqp_loop_fuel fuel :
  (forall s1, Q (q_preg s1) -> sqp_retry x0 c fuel true s1 <> DirNoFuel) ->
  forall k (s : sqp M), Q (q_preg s) -> sqp_loop x0 c fuel k s <> NoFuel.
Proof.
  move=> hr. elim=> [|k ih] s hs; cbn [sqp_loop].
  - rewrite /sqp_final. case: (sc_extra c) => //. have := hr s hs.
    by case: (sqp_retry x0 c fuel true s).
  - have := sqp_body_reg hs hr. case: (sqp_body x0 c fuel s) => // s1 h; exact: ih.
Qed.
Lemma sqp_solve_fuel fuel xs us k reg (s : sqp M) :
  (forall s1, Q (q_preg s1) -> sqp_retry x0 c fuel true s1 <> DirNoFuel) ->
  Q (init_reg dc reg) -> sqp_solve x0 c fuel xs us k reg s <> NoFuel.
Proof.
  move=> hr hq. rewrite /sqp_solve. case: (set_guess _ _ _) => // tr. exact: sqp_loop_fuel.
Qed.

(** ** A direction that fails for ever *)
(** one running node whose control Hessian is rejected by the factorisation *)
Definition stuck (s : sqp M) : bool :=
  match run (q_tr s) with
  | [n] => negb (nu (nm n) =? 0) && negb (llt_ok E (add_reg E (madd E (Luu (der n))
             (mmul E (mmul E (mtr E (Fu (der n))) (add_reg E (tLxx (tder (trm (q_tr s)))) (q_preg s)))
                     (Fu (der n)))) (q_dreg s)))
  | _ => false
  end.
Lemma stuck_direction (s : sqp M) : stuck s = true ->
  fst (sqp_computeDirection x0 c false s) = false /\
  stuck (snd (sqp_computeDirection x0 c false s)) = true /\
  q_dreg (snd (sqp_computeDirection x0 c false s)) = q_dreg s.
Proof.
  rewrite /stuck. case er: (run (q_tr s)) => [|n [|? ?]] // h.
  rewrite /sqp_computeDirection. cbv zeta. cbn [q_preg q_dreg q_tr set_q_merit set_q_gap].
  rewrite /backwardPass /= er. cbn [bwd_nodes fst snd hd_Vxx hd_Vx].
  rewrite /bwd_node. cbv zeta. cbn [tVxx bwd_term set_tV].
  move/andb_true_iff: (h) => [h1 h2]. rewrite h1 /= h2 /=. rewrite h1 /=. by split.
Qed.
Lemma stuck_for_ever fuel : forall s : sqp M, stuck s = true -> q_dreg s = q_preg s ->
  inc_reg dc (q_preg s) = q_preg s -> req E (q_preg s) (c_rmax dc) = false ->
  sqp_retry x0 c fuel false s = DirNoFuel.
Proof.
  elim: fuel => [|fuel ih] s hs hd hp hr //. cbn [sqp_retry].
  case: (stuck_direction hs) => h1 [h2 h3]. rewrite h1.
  have e1 : q_preg (sqp_inc c (snd (sqp_computeDirection x0 c false s))) = q_preg s.
  { cbn [q_preg sqp_inc set_q_dreg set_q_preg]. by rewrite direction_preg. }
  have e2 : q_dreg (sqp_inc c (snd (sqp_computeDirection x0 c false s))) = q_preg s.
  { cbn [q_dreg sqp_inc set_q_dreg set_q_preg]. by rewrite direction_preg. }
  cbv zeta. rewrite e1 hr. apply: ih; rewrite ?e1 ?e2 //.
  move: h2. rewrite /stuck. cbn [q_tr sqp_inc set_q_dreg set_q_preg q_preg q_dreg].
  by rewrite direction_preg hp h3 hd.
Qed.
Lemma stuck_solve fuel xs us k reg (s : sqp M) tr :
  set_guess xs us (q_tr s) = Some tr ->
  let p := init_reg dc reg in
  let s1 := set_q_iter 0 (set_q_dreg p (set_q_preg p (set_q_tr (pin_xt0 x0 (pin_x0 x0 tr)) s))) in
  let s2 := sqp_inc c (snd (sqp_computeDirection x0 c true s1)) in
  fst (sqp_computeDirection x0 c true s1) = false -> stuck s2 = true ->
  inc_reg dc p = p -> req E p (c_rmax dc) = false ->
  sqp_solve x0 c fuel xs us (S k) reg s = NoFuel.
Proof.
  move=> hg p s1 s2 h1 h2 hp hr. rewrite /sqp_solve hg. cbv zeta. rewrite -/p -/s1. cbn [sqp_loop].
  have e1 : q_preg s2 = p.
  { rewrite /s2. cbn [q_preg sqp_inc set_q_dreg set_q_preg]. by rewrite direction_preg. }
  have e2 : q_dreg s2 = q_preg s2 by [].
  suff -> : sqp_body x0 c fuel s1 = BNoFuel by [].
  rewrite /sqp_body. suff -> : sqp_retry x0 c fuel true s1 = DirNoFuel by [].
  case: fuel => [|fuel] //. cbn [sqp_retry]. rewrite h1 -/s2 e1 hr.
  by apply: stuck_for_ever => //; rewrite ?e1.
Qed.
End SQP.

Section CSQP.
Variable E : Eig.
Variable M : manifold E.
Variable c : ccfg E.
Variable timeout : nat -> bool.
Notation dc := (cc_ddp c).

Lemma craisedS k (p : R E) : raised dc (S k) p = raised dc k (inc_reg dc p).
Proof. exact: iter_succ_r. Qed.
Lemma cdirection_preg (s : csqp M) :
  match csqp_computeDirection c timeout s with QDone s' | QThrow s' => k_preg s' = k_preg s | QUB => True end.
Proof.
  have := computeDirectionP c timeout s. case: (csqp_computeDirection c timeout s) => [s1|s1|] //; move=> [h _]; exact: df_preg h.
Qed.
Lemma csqp_retry_bound k : forall fuel watch (s : csqp M), k < fuel ->
  rge (raised dc (S k) (k_preg s)) (c_rmax dc) = true ->
  csqp_retry c timeout watch fuel s <> DirNoFuel.
Proof.
  elim: k => [|k ih] [|fuel] watch s hk hr; try lia; cbn [csqp_retry]; case: (watch && _) => //;
    have := cdirection_preg s; case: (csqp_computeDirection c timeout s) => [s1|s1|] // e; cbv zeta.
  - cbn [k_preg csqp_inc set_k_dreg set_k_preg]. rewrite e. by rewrite /raised /= in hr; rewrite hr.
  - case: (rge _ _) => //. apply: ih; first by lia.
    cbn [k_preg csqp_inc set_k_dreg set_k_preg]. rewrite e -craisedS. exact: hr.
Qed.
Variable Q : R E -> Prop.
Hypothesis closed : reg_closed dc Q.
Lemma csqp_retry_reg fuel : forall watch (s : csqp M), Q (k_preg s) ->
  match csqp_retry c timeout watch fuel s with DirOk s' | DirFail s' | DirExc s' => Q (k_preg s') | _ => True end.
Proof.
  elim: fuel => [|fuel ih] watch s hs //. cbn [csqp_retry]. case: (watch && _) => //.
  have := cdirection_preg s; case: (csqp_computeDirection c timeout s) => [s1|s1|] // e; cbv zeta; first by rewrite e.
  have h : Q (k_preg (csqp_inc c s1)).
  { cbn [k_preg csqp_inc set_k_dreg set_k_preg]. rewrite e. by case: (closed hs). }
  case: (rge _ _) => //. exact: ih.
Qed.
Lemma cline_search_preg als (s : csqp M) :
  match csqp_line_search c als s with CLSAccept _ s' | CLSNone s' => k_preg s' = k_preg s | CLSUB => True end.
Proof.
  have := cline_searchP c als s. case: (csqp_line_search c als s) => [a s'|s'|] //.
  - move=> [_ [_ [_ [_ [_ [_ [_ [_ [_ [s1 [h [-> _]]]]]]]]]]]]. exact: lf_preg h.
  - move=> [_ h]. exact: lf_preg h.
Qed.
Lemma csqp_after_reg (s : csqp M) : Q (k_preg s) ->
  match csqp_after c s with BNext s' | BRet _ s' | BBreak s' => Q (k_preg s') | BUB => True | BNoFuel => False end.
Proof.
  move=> h. rewrite /csqp_after. case: (cc_removereg c) => //. case: (rgt _ _); first by case: (closed h).
  cbv zeta. have h1 : Q (k_preg (csqp_inc c s)) by case: (closed h). by case: (rge _ _).
Qed.
Lemma csqp_direction_reg watch fuel (s : csqp M) : Q (k_preg s) ->
  (forall w (s1 : csqp M), Q (k_preg s1) -> csqp_retry c timeout w fuel s1 <> DirNoFuel) ->
  match csqp_direction c timeout watch fuel s with
  | DirOk s' | DirFail s' | DirExc s' => Q (k_preg s') | DirUB => True | DirNoFuel => False end.
Proof.
  move=> hs hr. rewrite /csqp_direction. case: (cc_removereg c).
  - have := cdirection_preg s. by case: (csqp_computeDirection c timeout s) => [s1|s1|] // ->.
  - have := csqp_retry_reg fuel watch hs. have := hr watch s hs. by case: (csqp_retry c timeout watch fuel s).
Qed.
Lemma check_preg (s : csqp M) : k_preg (csqp_check c s) = k_preg s.
Proof. by destruct s. Qed.
Lemma csqp_body_reg fuel (s : csqp M) : Q (k_preg s) ->
  (forall w (s1 : csqp M), Q (k_preg s1) -> csqp_retry c timeout w fuel s1 <> DirNoFuel) ->
  match csqp_body c timeout fuel s with
  | CB BNoFuel => False
  | CB (BNext s') | CB (BRet _ s') | CB (BBreak s') => Q (k_preg s')
  | _ => True
  end.
Proof.
  move=> hs hr. rewrite /csqp_body. cbv zeta. case: (fst (tick timeout s)) => //.
  set s2 := (if _ then _ else _).
  have h2 : Q (k_preg s2).
  { rewrite /s2. by case: (_ && _). }
  have := csqp_direction_reg true h2 hr. case: (csqp_direction c timeout true fuel s2) => // s3 h3.
  case: (_ =? _) => //. have h4 : Q (k_preg (csqp_check c s3)) by rewrite check_preg.
  move: (csqp_check c s3) h4 => s4 h4.
  case: (rle E _ _) => //. have := cline_search_preg (c_alphas dc) (csqp_merit c (csqp_push s4)).
  have -> : k_preg (csqp_merit c (csqp_push s4)) = k_preg s4 by rewrite /csqp_merit; case: (_ || _).
  case: (csqp_line_search c _ _) => [a s5|s5|] // e; last by cbn [k_preg csqp_log_reject set_k_log]; rewrite e.
  have := @csqp_after_reg (csqp_log_accept a s5). cbn [k_preg csqp_log_accept set_k_log]. rewrite e => /(_ h4).
  by case: (csqp_after c _).
Qed.
Lemma csqp_loop_fuel fuel :
  (forall w (s1 : csqp M), Q (k_preg s1) -> csqp_retry c timeout w fuel s1 <> DirNoFuel) ->
  forall k (s : csqp M), Q (k_preg s) -> csqp_loop c timeout fuel k s <> NoFuel.
Proof.
  move=> hr. have hf (s : csqp M) : Q (k_preg s) -> csqp_final c timeout fuel s <> NoFuel.
  { move=> hs. rewrite /csqp_final. case: (_ && _) => //.
    have hs' : Q (k_preg (csqp_calc s)) by [].
    have := csqp_direction_reg false hs' hr. by case: (csqp_direction c timeout false fuel _). }
  elim=> [|k ih] s hs; cbn [csqp_loop]; first exact: hf.
  have := csqp_body_reg hs hr. case: (csqp_body c timeout fuel s) => // [[b s'|s'|s'||]] // h; [exact: ih|exact: hf].
Qed.
Lemma csqp_solve_fuel x0 fuel xs us k reg (s : csqp M) :
  (forall w (s1 : csqp M), Q (k_preg s1) -> csqp_retry c timeout w fuel s1 <> DirNoFuel) ->
  Q (if cc_removereg c then r0 E else init_reg dc reg) -> csqp_solve c timeout x0 fuel xs us k reg s <> NoFuel.
Proof.
  move=> hr hq. rewrite /csqp_solve. case: (set_guess _ _ _) => // tr. cbv zeta.
  move: (if cc_removereg c then _ else _) hq => p hq.
  have h1 : Q (k_preg (set_k_dreg p (set_k_preg p (set_k_tr (pin_xt0 x0 (pin_x0 x0 tr)) s)))) by [].
  move: (set_k_dreg _ _) h1 => s1 h1. apply: csqp_loop_fuel => //. by case: (k =? 0).
Qed.

(** equal primal and dual regularisation, in [Q] *)
Definition cregs (s : csqp M) : Prop := k_dreg s = k_preg s /\ Q (k_preg s).
Lemma cregs_same (s s' : csqp M) : k_preg s' = k_preg s -> k_dreg s' = k_dreg s -> cregs s -> cregs s'.
Proof. by rewrite /cregs => -> ->. Qed.
Lemma cregs_inc (s : csqp M) : cregs s -> cregs (csqp_inc c s).
Proof. move=> [_ h]. split => //. by case: (closed h). Qed.
Lemma cregs_dec (s : csqp M) : cregs s -> cregs (csqp_dec c s).
Proof. move=> [_ h]. split => //. by case: (closed h). Qed.
Lemma cdirection_regs (s : csqp M) : cregs s ->
  match csqp_computeDirection c timeout s with QDone s' | QThrow s' => cregs s' | QUB => True end.
Proof.
  move=> hs. have := computeDirectionP c timeout s. case: (csqp_computeDirection c timeout s) => [s1|s1|] //; move=> [h _];
  exact: (cregs_same (df_preg h) (df_dreg h)).
Qed.
Lemma csqp_direction_regs watch fuel (s : csqp M) : cregs s ->
  match csqp_direction c timeout watch fuel s with
  | DirOk s' | DirFail s' | DirExc s' => cregs s' | _ => True end.
Proof.
  move=> hs. rewrite /csqp_direction. case: (cc_removereg c).
  { have := cdirection_regs hs. by case: (csqp_computeDirection c timeout s). }
  elim: fuel s hs => [|fuel ih] s hs //. cbn [csqp_retry]. case: (watch && _) => //.
  have := cdirection_regs hs; case: (csqp_computeDirection c timeout s) => [s1|s1|] // h1; cbv zeta.
  have h2 := cregs_inc h1. case: (rge _ _) => //. exact: ih.
Qed.
Lemma cline_search_regs als (s : csqp M) : cregs s ->
  match csqp_line_search c als s with CLSAccept _ s' | CLSNone s' => cregs s' | CLSUB => True end.
Proof.
  move=> hs. have := cline_searchP c als s. case: (csqp_line_search c als s) => [a s'|s'|] //.
  - move=> [_ [_ [_ [_ [_ [_ [_ [_ [_ [s1 [h [-> _]]]]]]]]]]]]. exact: (cregs_same (lf_preg h) (lf_dreg h)).
  - move=> [_ h]. exact: (cregs_same (lf_preg h) (lf_dreg h)).
Qed.
Lemma csqp_body_regs fuel (s : csqp M) : cregs s ->
  match csqp_body c timeout fuel s with
  | CB (BNext s') | CB (BRet _ s') | CB (BBreak s') | CExc s' => cregs s'
  | _ => True
  end.
Proof.
  move=> hs. rewrite /csqp_body. cbv zeta. case: (fst (tick timeout s)) => //.
  set s2 := (if _ then _ else _).
  have h2 : cregs s2.
  { rewrite /s2. by case: (_ && _). }
  have := csqp_direction_regs true fuel h2. case: (csqp_direction c timeout true fuel s2) => // s3 h3.
  case: (_ =? _) => //. have h4 : cregs (csqp_check c s3) by apply: cregs_same h3; destruct s3.
  move: (csqp_check c s3) h4 => s4 h4.
  case: (rle E _ _) => //. have h5 : cregs (csqp_merit c (csqp_push s4)).
  { apply: cregs_same h4; by rewrite /csqp_merit; case: (_ || _). }
  have := cline_search_regs (c_alphas dc) h5.
  case: (csqp_line_search c _ _) => [a s5|s5|] // h6.
  have h7 : cregs (csqp_log_accept a s5) by []. move: (csqp_log_accept a s5) h7 => s6 h7.
  rewrite /csqp_after. case: (cc_removereg c) => //. case: (rgt _ _); first exact: cregs_dec.
  cbv zeta. have h8 := cregs_inc h7. by case: (rge _ _).
Qed.
Lemma csqp_loop_regs fuel k : forall s : csqp M, cregs s ->
  match csqp_loop c timeout fuel k s with Ret _ s' | Exc s' => cregs s' | _ => True end.
Proof.
  have hf (s : csqp M) : cregs s -> match csqp_final c timeout fuel s with Ret _ s' | Exc s' => cregs s' | _ => True end.
  { move=> hs. rewrite /csqp_final. case: (_ && _) => //.
    have hs' : cregs (csqp_calc s) by [].
    have := csqp_direction_regs false fuel hs'. case: (csqp_direction c timeout false fuel _) => // s1 h1. }
  elim: k => [|k ih] s hs; cbn [csqp_loop]; first exact: hf.
  have := csqp_body_regs fuel hs. case: (csqp_body c timeout fuel s) => // [[b s'|s'|s'||]] // h; [exact: ih|exact: hf].
Qed.
Lemma csqp_solve_regs x0 fuel xs us k reg (s : csqp M) b s' :
  Q (if cc_removereg c then r0 E else init_reg dc reg) ->
  csqp_solve c timeout x0 fuel xs us k reg s = Ret b s' -> cregs s'.
Proof.
  move=> hq. rewrite /csqp_solve. case: (set_guess _ _ _) => // tr. cbv zeta.
  move: (if cc_removereg c then _ else _) hq => p hq.
  have h1 : cregs (set_k_dreg p (set_k_preg p (set_k_tr (pin_xt0 x0 (pin_x0 x0 tr)) s))) by [].
  move: (set_k_dreg _ _) h1 => s1 h1.
  set s2 := set_k_iter _ _. have h2 : cregs s2 by rewrite /s2; case: (k =? 0).
  have := csqp_loop_regs fuel k h2. by case: (csqp_loop _ _ _ _ _) => // b1 s3 h3 [_ <-].
Qed.
End CSQP.
