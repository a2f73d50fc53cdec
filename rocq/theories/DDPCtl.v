(** * Control flow of SolverDDP::solve and SolverFDDP::solve, for any arithmetic. *)
From Coq Require Import List Bool Arith Lia ssreflect ssrbool.
From Verif Require Import Eigen Problem DDP Filter FDDP TraceSpec DDPTrace Retry.
Import ListNotations.
Set Implicit Arguments.
Unset Strict Implicit.
Set Asymmetric Patterns.

Section Ctl.
Variable E : Eig.
Notation R := (R E).
Variable M : manifold E.
Variable x0 : mX M.

Lemma run_callbacks_rev n i kkt cost merit step (log : list (event E)) :
  rev (run_callbacks n i kkt cost merit step log) = rev log ++ callback_trace n i kkt cost merit step.
Proof.
  rewrite /run_callbacks /callback_trace. elim: (seq 0 n) log => [|j l ih] log /=; first by rewrite app_nil_r.
  by rewrite ih /= -app_assoc.
Qed.
Lemma shown_app ncb l : forall i r,
  shown_trace ncb i (l ++ [r]) =
  shown_trace ncb i l ++ callback_trace ncb (i + length l) (h_kkt r) (h_cost r) (r0 E) (h_step r).
Proof.
  elim: l => [|a l ih] i r /=; first by rewrite app_nil_r Nat.add_0_r.
  rewrite ih -app_assoc. by have -> : S i + length l = i + S (length l) by lia.
Qed.
Lemma reg_reach_trans (c : cfg E) p q r : reg_reach c p q -> reg_reach c q r -> reg_reach c p r.
Proof. move=> h. by elim=> [|z _ ih|z _ ih]; [|apply: reach_inc|apply: reach_dec]. Qed.

(** what directions and line searches leave alone *)
Record held (s s' : ddp M) : Prop := mkHeld {
  hd_iter : d_iter s' = d_iter s; hd_log : d_log s' = d_log s;
  hd_preg : d_preg s' = d_preg s; hd_dreg : d_dreg s' = d_dreg s }.
Lemma held_refl s : held s s. Proof. by []. Qed.
Lemma held_trans s1 s2 s3 : held s1 s2 -> held s2 s3 -> held s1 s3.
Proof. by move=> [a b c d] [a' b' c' d']; split; congruence. Qed.

(** the two regularisations agree and come from [p] *)
Definition regs (c : cfg E) (p : R) (s : ddp M) : Prop := d_dreg s = d_preg s /\ reg_reach c p (d_preg s).
Lemma regs_held c p s s' : held s s' -> regs c p s -> regs c p s'.
Proof. move=> [_ _ h1 h2] [e h]. by rewrite /regs h1 h2. Qed.
Lemma regs_inc c p s : regs c p s -> regs c p (ddp_inc c s).
Proof. move=> [_ h]. split => //. exact: reach_inc. Qed.
Lemma regs_dec c p s : regs c p s -> regs c p (ddp_dec c s).
Proof. move=> [_ h]. split => //. exact: reach_dec. Qed.

Section D.
Variables (c : cfg E) (fuel : nat).
Lemma dir_held rc (s : ddp M) : held s (snd (ddp_computeDirection x0 rc s)).
Proof. rewrite /ddp_computeDirection. by case: rc. Qed.
Lemma try_held a (s : ddp M) : held s (snd (ddp_tryStep a s)).
Proof. rewrite /ddp_tryStep. by case: (rgt _ _ || _). Qed.
Lemma search_held als : forall s : ddp M, let s' := snd (ddp_line_search c als s) in
  held s s' /\ d_kkt s' = d_kkt s /\ (In (d_step s') als \/ als = []).
Proof.
  elim: als => [|a l ih] s; first by split; [|split; [|right]].
  cbn [ddp_line_search]. cbv zeta.
  have ht : held s (snd (ddp_tryStep a (set_d_step a s))) by apply: held_trans (try_held a _).
  have hk : d_kkt (snd (ddp_tryStep a (set_d_step a s))) = d_kkt s /\
            d_step (snd (ddp_tryStep a (set_d_step a s))) = a.
  { rewrite /ddp_tryStep. by case: (rgt _ _ || _). }
  move: (ddp_tryStep a (set_d_step a s)) ht hk => [[] t] /= ht [hk hs]; last first.
  { have [h1 [h2 h3]] := ih t. split; [exact: held_trans ht h1|]. split; [by rewrite h2|]. left.
    case: l h1 h2 h3 {ih} => [|b l] h1 h2 h3 /=; first by left. right. by case: h3. }
  case: (_ && _) => /=.
  - split; [by case: ht|]. by split; [|left; left].
  - set s2 := set_d_dVexp _ _. have [h1 [h2 h3]] := ih s2. split; [apply: held_trans h1; by case: ht|].
    split; [by rewrite h2|]. left. case: l h1 h2 h3 {ih} => [|b l] h1 h2 h3 /=; first by left. right. by case: h3.
Qed.
Lemma retry_ctl f p : forall rc (s : ddp M), regs c p s ->
  match ddp_retry x0 c f rc s with
  | DirOk s' => regs c p s' /\ d_iter s' = d_iter s /\ d_log s' = d_log s
  | DirFail s' => regs c p s' /\ d_iter s' = d_iter s /\ d_log s' = d_log s /\ req E (d_preg s') (c_rmax c) = true
  | DirExc _ | DirUB => False
  | DirNoFuel => True
  end.
Proof.
  elim: f => [|f ih] rc s hs //. cbn [ddp_retry]. have hh := dir_held rc s.
  case: (fst _). { split; [exact: regs_held hh hs|]. by case: hh. }
  have hi := regs_inc (regs_held hh hs).
  have [e1 e2] : d_iter (ddp_inc c (snd (ddp_computeDirection x0 rc s))) = d_iter s /\
     d_log (ddp_inc c (snd (ddp_computeDirection x0 rc s))) = d_log s by case: hh.
  case er: (req E _ _) => //. have := ih false _ hi. rewrite e1 e2. by case: (ddp_retry _ _ _ _ _).
Qed.
(** after the line search: regularisation update, callbacks (ddp.cpp:136-152) *)
Lemma body_ctl p rc (s : ddp M) : regs c p s ->
  match ddp_body x0 c fuel rc s with
  | BNext r => exists h : shown E,
      rev (d_log (snd r)) = rev (d_log s) ++ callback_trace (c_ncb c) (d_iter s) (h_kkt h) (h_cost h) (r0 E) (h_step h) /\
      (rle E (h_kkt h) (c_tol c) = false /\ (In (h_step h) (c_alphas c) \/ c_alphas c = [])) /\
      d_iter (snd r) = d_iter s /\ regs c p (snd r)
  | BRet b r => d_log (snd r) = d_log s /\ d_iter (snd r) = d_iter s /\ regs c p (snd r) /\
      (b = true -> rle E (d_kkt (snd r)) (c_tol c) = true) /\
      (b = false -> req E (d_preg (snd r)) (c_rmax c) = true)
  | BBreak _ | BUB => False
  | BNoFuel => True
  end.
Proof.
  move=> hs. rewrite /ddp_body. have := retry_ctl fuel rc hs.
  case: (ddp_retry x0 c fuel rc s) => //= s1; last first.
  { move=> [h [h1 [h2 h3]]]. by split; [|split; [|split; [|split]]]. }
  move=> [h1 [e1 l1]]. set s3 := set_d_kkt _ _. case ek: (rle E _ _) => /=.
  { by split; [|split; [|split; [|split]]]. }
  have [hh [hk hst]] := search_held (c_alphas c) s3.
  have h3 : regs c p s3 by [].
  move: (ddp_line_search c (c_alphas c) s3) hh hk hst => [rc' s4] /= hh hk hst.
  have h4 := regs_held hh h3.
  set s5 := (if rgt _ _ then _ else _).
  have [h5 [e5 [l5 [k5 [c5 st5]]]]] : regs c p s5 /\ d_iter s5 = d_iter s4 /\ d_log s5 = d_log s4 /\ d_kkt s5 = d_kkt s4
    /\ d_cost s5 = d_cost s4 /\ d_step s5 = d_step s4.
  { rewrite /s5. case: (rgt _ _) => //. split => //. exact: regs_dec. }
  case eu: (rle E (d_step s5) _) => /=.
  - have h6 := regs_inc h5. case er: (req E _ _) => /=.
    + split; [|split]; [by rewrite l5 -l1; case: hh|by rewrite e5 -e1; case: hh|]. by split.
    + exists (mkShown (d_kkt s4) (d_cost s4) (d_step s4)). cbn [h_kkt h_cost h_step].
      rewrite run_callbacks_rev.
      cbn [d_log d_iter d_kkt d_cost d_step d_preg ddp_inc set_d_log set_d_stop set_d_dreg set_d_preg].
      rewrite k5 c5 st5 l5 e5. move: (hh) => [-> -> _ _]. split; [by rewrite e1 l1|].
      split; [by rewrite hk|]. by split.
  - exists (mkShown (d_kkt s4) (d_cost s4) (d_step s4)). cbn [h_kkt h_cost h_step].
    rewrite run_callbacks_rev. cbn [d_log d_iter d_kkt d_cost d_step d_preg set_d_log set_d_stop].
    rewrite k5 c5 st5 l5 e5. move: (hh) => [-> -> _ _]. split; [by rewrite e1 l1|].
    split; [by rewrite hk|]. by split.
Qed.

(** the loop started after [length l] finished iterations *)
Lemma loop_ctl p lg k : forall rc (s : ddp M) l,
  regs c p s -> d_iter s = length l -> rev (d_log s) = lg ++ shown_trace (c_ncb c) 0 l ->
  Forall (fun r => rle E (h_kkt r) (c_tol c) = false /\ (In (h_step r) (c_alphas c) \/ c_alphas c = [])) l ->
  match ddp_loop x0 c fuel k rc s with
  | Ret b s' => exists l', rev (d_log s') = lg ++ shown_trace (c_ncb c) 0 l' /\ d_iter s' = length l' /\
      length l' <= length l + k /\
      Forall (fun r => rle E (h_kkt r) (c_tol c) = false /\ (In (h_step r) (c_alphas c) \/ c_alphas c = [])) l' /\
      (b = true -> rle E (d_kkt s') (c_tol c) = true /\ length l' < length l + k) /\
      (b = false -> length l' = length l + k \/ req E (d_preg s') (c_rmax c) = true) /\
      regs c p s'
  | NoFuel => True
  | Exc _ | UB => False
  end.
Proof.
  elim: k => [|k ih] rc s l hr hi hl hf; cbn [ddp_loop].
  - exists l. rewrite Nat.add_0_r. split => //. split => //. split; first by lia.
    split => //. split => //. split => //. by left.
  - have := body_ctl rc hr. case: (ddp_body x0 c fuel rc s) => // [b r|r].
    + move=> [h1 [h2 [h3 [h4 h5]]]]. exists l. rewrite h1 h2. split => //. split => //.
      split; first by lia. split => //. split; first by move=> /h4 h; split => //; lia.
      split => //. by move=> /h5 h; right.
    + move=> [h [h1 [h2 [h3 h4]]]].
      have := ih (fst r) (set_d_iter (S (d_iter (snd r))) (snd r)) (l ++ [h]).
      have -> : length (l ++ [h]) = S (length l) by rewrite app_length /=; lia.
      have -> : S (length l) + k = length l + S k by lia.
      apply => //.
      * by rewrite /= h3 hi.
      * rewrite /= h1 hl hi shown_app -app_assoc. by rewrite Nat.add_0_l.
      * apply/Forall_app; split => //. by constructor.
Qed.
Theorem ddp_controlled xs us maxiter feas reg (s : ddp M) :
  match ddp_solve x0 c fuel xs us maxiter feas reg s with
  | Ret b s' => exists l, controlled c maxiter reg b s s' l
  | Exc _ => set_guess xs us (pin_xt0 x0 (d_tr s)) = None
  | UB => False
  | NoFuel => True
  end.
Proof.
  rewrite /ddp_solve. cbv zeta. cbn [d_tr set_d_tr]. case e: (set_guess xs us _) => [t|] //.
  set s1 := set_d_iter _ _. have hr : regs c (init_reg c reg) s1 by split => //; exact: reach_start.
  have := @loop_ctl _ (rev (d_log s)) maxiter true s1 [] hr. case: (ddp_loop _ _ _ _ _ _) => [b s'|s'| |] h //.
  - case: h => //; first by rewrite app_nil_r.
    move=> l [h1 [h2 [h3 [h4 [h5 [h6 h7]]]]]]. by exists l.
  - case: h => //. by rewrite app_nil_r.
  - case: h => //. by rewrite app_nil_r.
Qed.

(** the calls of computeDirection of a solve *)
Lemma head_regs p (s0 : ddp M) n rc s : regs c p s0 -> ddp_head x0 c fuel s0 n rc s -> regs c p s.
Proof.
  move=> h0. elim=> [|{}n {}rc {}s r _ ih e] //. have := body_ctl rc ih. rewrite e. by move=> [h [_ [_ [_ h4]]]].
Qed.
Lemma called_regs p (s0 : ddp M) k rc s : regs c p s0 -> ddp_called x0 c fuel s0 k rc s -> regs c p s.
Proof.
  move=> h0. elim=> [n rc' s' h _|rc' s' s1 _ ih e _]; first exact: head_regs h.
  apply: regs_inc. apply: regs_held ih. have := dir_held rc' s'. by rewrite e.
Qed.
Theorem ddp_called_regs xs us feas reg (s s0 : ddp M) maxiter rc s1 :
  ddp_begin x0 c xs us feas reg s = Some s0 -> ddp_called x0 c fuel s0 maxiter rc s1 ->
  d_dreg s1 = d_preg s1 /\ reg_reach c (init_reg c reg) (d_preg s1).
Proof.
  rewrite /ddp_begin. cbv zeta. case: (set_guess _ _ _) => // t. case=> <-. apply: called_regs.
  split => //. exact: reach_start.
Qed.
(** solve is the loop from its begin *)
Lemma ddp_solve_begin xs us maxiter feas reg (s : ddp M) :
  ddp_solve x0 c fuel xs us maxiter feas reg s =
  match ddp_begin x0 c xs us feas reg s with
  | Some s0 => ddp_loop x0 c fuel maxiter true s0
  | None => Exc (set_d_tr (pin_xt0 x0 (d_tr s)) s)
  end.
Proof. rewrite /ddp_solve /ddp_begin. cbv zeta. by case: (set_guess _ _ _). Qed.

(** ** retries *)
Lemma ddp_retry_bound k : forall f rc (s : ddp M), k < f ->
  req E (raised c (S k) (d_preg s)) (c_rmax c) = true -> ddp_retry x0 c f rc s <> DirNoFuel.
Proof.
  elim: k => [|k ih] [|f] rc s hk hr; try lia; cbn [ddp_retry].
  - case: (fst _) => //. cbn [d_preg ddp_inc set_d_dreg set_d_preg]. move: (dir_held rc s) => [_ _ -> _].
    by rewrite /raised /= in hr; rewrite hr.
  - case: (fst _) => //. case: (req E _ _) => //. apply: ih; first by lia.
    cbn [d_preg ddp_inc set_d_dreg set_d_preg]. move: (dir_held rc s) => [_ _ -> _].
    by rewrite /raised (@iter_succ_r _ _ (S k)) in hr.
Qed.
Lemma reg_reach_closed (Q : R -> Prop) p q : reg_closed c Q -> Q p -> reg_reach c p q -> Q q.
Proof. move=> hc hp. by elim=> [|z _ /hc []|z _ /hc []]. Qed.
Lemma ddp_solve_fuel (Q : R -> Prop) xs us maxiter feas reg (s : ddp M) :
  (forall rc s1, Q (d_preg s1) -> ddp_retry x0 c fuel rc s1 <> DirNoFuel) ->
  reg_closed c Q -> Q (init_reg c reg) ->
  ddp_solve x0 c fuel xs us maxiter feas reg s <> NoFuel.
Proof.
  move=> hr hc hq. rewrite ddp_solve_begin. case e: (ddp_begin _ _ _ _ _ _ _) => [s0|] //.
  have : regs c (init_reg c reg) s0.
  { move: e. rewrite /ddp_begin. cbv zeta. case: (set_guess _ _ _) => // t. case=> <-. by split => //; exact: reach_start. }
  elim: maxiter true s0 {e} => [|k ih] rc s0 h0 //. cbn [ddp_loop].
  have := body_ctl rc h0. have nf : ddp_body x0 c fuel rc s0 <> BNoFuel.
  { rewrite /ddp_body. have := hr rc s0. case: (ddp_retry _ _ _ _ _) => [s1|s1|s1| |] //.
    - move=> _. cbv zeta. case: (rle E _ _) => //. by case: (_ && req E _ _).
    - move=> /(_ (reg_reach_closed hc hq (match h0 with conj _ h => h end))). by []. }
  case: (ddp_body _ _ _ _ _) nf => // r _ [h [_ [_ [_ h4]]]]. exact: ih.
Qed.
End D.

Section F.
Variables (c : fcfg E) (fuel : nat).
Notation dc := (fc_ddp c).
Lemma fdir_held rc (s : fddp M) : held (f_d s) (f_d (snd (fddp_computeDirection x0 rc s))).
Proof. rewrite /fddp_computeDirection. by case: rc. Qed.
Lemma fsearch_held als : forall s : fddp M,
  match fddp_line_search x0 c als s with
  | FLSDone _ s' => held (f_d s) (f_d s') /\ d_kkt (f_d s') = d_kkt (f_d s) /\ (In (d_step (f_d s')) als \/ als = [])
  | FLSUB => fc_filter c = true
  end.
Proof.
  elim: als => [|a l ih] s; first by split; [|split; [|right]].
  cbn [fddp_line_search]. cbv zeta.
  have [ht [hk hs]] : held (f_d s) (f_d (snd (fddp_tryStep x0 a (upd (set_d_step a) s)))) /\
            d_kkt (f_d (snd (fddp_tryStep x0 a (upd (set_d_step a) s)))) = d_kkt (f_d s) /\
            d_step (f_d (snd (fddp_tryStep x0 a (upd (set_d_step a) s)))) = a.
  { rewrite /fddp_tryStep. by case: (rgt _ _ || _). }
  have next : forall t : fddp M, held (f_d s) (f_d t) -> d_kkt (f_d t) = d_kkt (f_d s) -> d_step (f_d t) = a ->
    match fddp_line_search x0 c l t with
    | FLSDone _ s' => held (f_d s) (f_d s') /\ d_kkt (f_d s') = d_kkt (f_d s) /\ (In (d_step (f_d s')) (a :: l) \/ a :: l = [])
    | FLSUB => fc_filter c = true
    end.
  { move=> t h1 h2 h3. have := ih t. case: l {ih} => [|b l].
    - move=> _ /=. split => //. split => //. by left; left.
    - case: (fddp_line_search _ _ _ _) => // rc s' [k1 [k2 k3]]. split; [exact: held_trans h1 k1|].
      split; [by rewrite k2|]. left. right. by case: k3. }
  move: (fddp_tryStep x0 a (upd (set_d_step a) s)) ht hk hs => [[] t] /= ht hk hs; last exact: next.
  case ef: {1}(fc_filter c).
  - case: (filter_worse _ _ _) => [[]|] //.
    + refine (next _ _ _ _) => //. by case: ht.
    + cbn. split; [by case: ht|]. by split; [|left; left].
  - case: (fddp_expect_ok c _); [|by refine (next _ _ _ _) => //; case: ht].
    cbn. split; [by case: ht|]. by split; [|left; left].
Qed.
Lemma fretry_ctl f p : forall rc (s : fddp M), regs dc p (f_d s) ->
  match fddp_retry x0 c f rc s with
  | DirOk s' => regs dc p (f_d s') /\ d_iter (f_d s') = d_iter (f_d s) /\ d_log (f_d s') = d_log (f_d s)
  | DirFail s' => regs dc p (f_d s') /\ d_iter (f_d s') = d_iter (f_d s) /\ d_log (f_d s') = d_log (f_d s) /\
                  req E (d_preg (f_d s')) (c_rmax dc) = true
  | DirExc _ | DirUB => False
  | DirNoFuel => True
  end.
Proof.
  elim: f => [|f ih] rc s hs //. cbn [fddp_retry]. have hh := fdir_held rc s.
  case: (fst _). { split; [exact: regs_held hh hs|]. by case: hh. }
  have hi : regs dc p (f_d (upd (ddp_inc dc) (snd (fddp_computeDirection x0 rc s)))) := regs_inc (regs_held hh hs).
  have [e1 e2] : d_iter (f_d (upd (ddp_inc dc) (snd (fddp_computeDirection x0 rc s)))) = d_iter (f_d s) /\
     d_log (f_d (upd (ddp_inc dc) (snd (fddp_computeDirection x0 rc s)))) = d_log (f_d s) by case: hh.
  case er: (req E _ _) => //. have := ih false _ hi. rewrite e1 e2. by case: (fddp_retry _ _ _ _ _).
Qed.
Lemma fafter_ctl p (s4 : ddp M) : regs dc p s4 ->
  match fddp_after c s4 with
  | BNext s' =>
      rev (d_log s') = rev (d_log s4) ++ callback_trace (c_ncb dc) (d_iter s4) (d_kkt s4) (d_cost s4) (r0 E) (d_step s4) /\
      d_iter s' = d_iter s4 /\ regs dc p s'
  | BRet b s' => d_log s' = d_log s4 /\ d_iter s' = d_iter s4 /\ regs dc p s' /\ b = false /\
      req E (d_preg s') (c_rmax dc) = true
  | _ => False
  end.
Proof.
  move=> h4. rewrite /fddp_after. cbv zeta. set s5 := (if rgt _ _ then _ else _).
  have [h5 [e5 [l5 [k5 [c5 st5]]]]] : regs dc p s5 /\ d_iter s5 = d_iter s4 /\ d_log s5 = d_log s4 /\ d_kkt s5 = d_kkt s4
    /\ d_cost s5 = d_cost s4 /\ d_step s5 = d_step s4.
  { rewrite /s5. case: (rgt _ _) => //. split => //. exact: regs_dec. }
  case eu: (rle E (d_step s5) _) => /=.
  - have h6 := regs_inc h5. case er: (req E _ _) => //=.
    rewrite run_callbacks_rev.
    cbn [d_log d_iter d_kkt d_cost d_step d_preg ddp_inc set_d_log set_d_stop set_d_dreg set_d_preg].
    by rewrite k5 c5 st5 l5 e5.
  - rewrite run_callbacks_rev. cbn [d_log d_iter d_kkt d_cost d_step d_preg set_d_log set_d_stop].
    by rewrite k5 c5 st5 l5 e5.
Qed.
Lemma fbody_ctl p rc (s : fddp M) : regs dc p (f_d s) ->
  match fddp_body x0 c fuel rc s with
  | BNext r => exists h : shown E,
      rev (d_log (f_d (snd r))) = rev (d_log (f_d s)) ++
        callback_trace (c_ncb dc) (d_iter (f_d s)) (h_kkt h) (h_cost h) (r0 E) (h_step h) /\
      (rle E (h_kkt h) (c_tol dc) = false /\ (In (h_step h) (c_alphas dc) \/ c_alphas dc = [])) /\
      d_iter (f_d (snd r)) = d_iter (f_d s) /\ regs dc p (f_d (snd r))
  | BRet b r => d_log (f_d (snd r)) = d_log (f_d s) /\ d_iter (f_d (snd r)) = d_iter (f_d s) /\ regs dc p (f_d (snd r)) /\
      (b = true -> rle E (d_kkt (f_d (snd r))) (c_tol dc) = true) /\
      (b = false -> req E (d_preg (f_d (snd r))) (c_rmax dc) = true)
  | BBreak _ => False
  | BUB => fc_filter c = true
  | BNoFuel => True
  end.
Proof.
  move=> hs. rewrite /fddp_body. have := fretry_ctl fuel rc hs.
  case: (fddp_retry x0 c fuel rc s) => //= s1; last first.
  { move=> [h [h1 [h2 h3]]]. by split; [|split; [|split; [|split]]]. }
  move=> [h1 [e1 l1]]. case ek: (rle E _ _) => /=.
  { by split; [|split; [|split; [|split]]]. }
  set s4 := set_f_lists _ _ _. have := fsearch_held (c_alphas dc) s4.
  have h4 : regs dc p (f_d s4) by [].
  case: (fddp_line_search _ _ _ _) => [rc' s5|] // [hh [hk hst]].
  have h5 := regs_held hh h4. have := fafter_ctl h5. case: (fddp_after c (f_d s5)) => // [b d|d].
  - move=> [a1 [a2 [a3 [a4 a5]]]]. cbn [snd f_d upd]. rewrite a1 a2. split; first by case: hh => _ ->.
    split; first by case: hh => ->. split => //. split => // hb. by rewrite hb in a4.
  - move=> [a1 [a2 a3]]. exists (mkShown (d_kkt (f_d s5)) (d_cost (f_d s5)) (d_step (f_d s5))).
    cbn [snd f_d upd h_kkt h_cost h_step]. rewrite a1 a2. move: (hh) => [-> -> _ _].
    split; first by rewrite /s4 /= l1 e1. split; first by rewrite hk. by split.
Qed.
Lemma floop_ctl p lg k : forall rc (s : fddp M) l,
  regs dc p (f_d s) -> d_iter (f_d s) = length l -> rev (d_log (f_d s)) = lg ++ shown_trace (c_ncb dc) 0 l ->
  Forall (fun r => rle E (h_kkt r) (c_tol dc) = false /\ (In (h_step r) (c_alphas dc) \/ c_alphas dc = [])) l ->
  match fddp_loop x0 c fuel k rc s with
  | Ret b s' => exists l', rev (d_log (f_d s')) = lg ++ shown_trace (c_ncb dc) 0 l' /\ d_iter (f_d s') = length l' /\
      length l' <= length l + k /\
      Forall (fun r => rle E (h_kkt r) (c_tol dc) = false /\ (In (h_step r) (c_alphas dc) \/ c_alphas dc = [])) l' /\
      (b = true -> rle E (d_kkt (f_d s')) (c_tol dc) = true /\ length l' < length l + k) /\
      (b = false -> length l' = length l + k \/ req E (d_preg (f_d s')) (c_rmax dc) = true) /\
      regs dc p (f_d s')
  | NoFuel => True
  | UB => fc_filter c = true
  | Exc _ => False
  end.
Proof.
  elim: k => [|k ih] rc s l hr hi hl hf; cbn [fddp_loop].
  - exists l. rewrite Nat.add_0_r. split => //. split => //. split; first by lia.
    split => //. split => //. split => //. by left.
  - have := fbody_ctl rc hr. case: (fddp_body x0 c fuel rc s) => // [b r|r].
    + move=> [h1 [h2 [h3 [h4 h5]]]]. exists l. rewrite h1 h2. split => //. split => //.
      split; first by lia. split => //. split; first by move=> /h4 h; split => //; lia.
      split => //. by move=> /h5 h; right.
    + move=> [h [h1 [h2 [h3 h4]]]].
      have := ih (fst r) (upd (fun d => set_d_iter (S (d_iter d)) d) (snd r)) (l ++ [h]).
      have -> : length (l ++ [h]) = S (length l) by rewrite app_length /=; lia.
      have -> : S (length l) + k = length l + S k by lia.
      apply => //.
      * by rewrite /= h3 hi.
      * rewrite /= h1 hl hi shown_app -app_assoc. by rewrite Nat.add_0_l.
      * apply/Forall_app; split => //. by constructor.
Qed.
Lemma fddp_solve_begin xs us maxiter feas reg (s : fddp M) :
  fddp_solve x0 c fuel xs us maxiter feas reg s =
  match fddp_begin x0 c xs us feas reg s with
  | Some s0 => fddp_loop x0 c fuel maxiter true s0
  | None => Exc (upd (fun d => set_d_tr (pin_xt0 x0 (d_tr d)) d) s)
  end.
Proof. rewrite /fddp_solve /fddp_begin /ddp_begin. cbv zeta. cbn [d_tr set_d_tr f_d upd]. by case: (set_guess _ _ _). Qed.
Lemma fddp_begin_regs xs us feas reg (s s0 : fddp M) : fddp_begin x0 c xs us feas reg s = Some s0 ->
  regs dc (init_reg dc reg) (f_d s0) /\ d_iter (f_d s0) = 0 /\ d_log (f_d s0) = d_log (f_d s).
Proof.
  rewrite /fddp_begin /ddp_begin. cbv zeta. case: (set_guess _ _ _) => // t. case=> <-.
  split => //. split => //. exact: reach_start.
Qed.
Theorem fddp_controlled xs us maxiter feas reg (s : fddp M) :
  match fddp_solve x0 c fuel xs us maxiter feas reg s with
  | Ret b s' => exists l, controlled dc maxiter reg b (f_d s) (f_d s') l
  | Exc _ => set_guess xs us (pin_xt0 x0 (d_tr (f_d s))) = None
  | UB => fc_filter c = true
  | NoFuel => True
  end.
Proof.
  rewrite fddp_solve_begin. case e: (fddp_begin _ _ _ _ _ _ _) => [s0|]; last first.
  { move: e. rewrite /fddp_begin /ddp_begin. cbv zeta. cbn [d_tr set_d_tr]. by case: (set_guess _ _ _). }
  have [hr [hi hl]] := fddp_begin_regs e.
  have := @floop_ctl _ (rev (d_log (f_d s))) maxiter true s0 [] hr hi.
  rewrite hl app_nil_r => /(_ Logic.eq_refl (Forall_nil _)).
  case: (fddp_loop _ _ _ _ _ _) => [b s'|s'| |] //.
  move=> [l [h1 [h2 [h3 [h4 [h5 [h6 h7]]]]]]]. by exists l.
Qed.
Lemma fhead_regs p (s0 : fddp M) n rc s : regs dc p (f_d s0) -> fddp_head x0 c fuel s0 n rc s -> regs dc p (f_d s).
Proof.
  move=> h0. elim=> [|{}n {}rc {}s r _ ih e] //. have := fbody_ctl rc ih. rewrite e. by move=> [h [_ [_ [_ h4]]]].
Qed.
Lemma fcalled_regs p (s0 : fddp M) k rc s : regs dc p (f_d s0) -> fddp_called x0 c fuel s0 k rc s -> regs dc p (f_d s).
Proof.
  move=> h0. elim=> [n rc' s' h _|rc' s' s1 _ ih e _]; first exact: fhead_regs h.
  apply: (@regs_inc dc p (f_d s1)). apply: regs_held ih. have := fdir_held rc' s'. by rewrite e.
Qed.
Theorem fddp_called_regs xs us feas reg (s s0 : fddp M) maxiter rc s1 :
  fddp_begin x0 c xs us feas reg s = Some s0 -> fddp_called x0 c fuel s0 maxiter rc s1 ->
  d_dreg (f_d s1) = d_preg (f_d s1) /\ reg_reach dc (init_reg dc reg) (d_preg (f_d s1)).
Proof. move=> /fddp_begin_regs [h _]. exact: fcalled_regs. Qed.
Lemma fddp_retry_bound k : forall f rc (s : fddp M), k < f ->
  req E (raised dc (S k) (d_preg (f_d s))) (c_rmax dc) = true -> fddp_retry x0 c f rc s <> DirNoFuel.
Proof.
  elim: k => [|k ih] [|f] rc s hk hr; try lia; cbn [fddp_retry].
  - case: (fst _) => //. cbn [d_preg f_d upd ddp_inc set_d_dreg set_d_preg]. move: (fdir_held rc s) => [_ _ -> _].
    by rewrite /raised /= in hr; rewrite hr.
  - case: (fst _) => //. case: (req E _ _) => //. apply: ih; first by lia.
    cbn [d_preg f_d upd ddp_inc set_d_dreg set_d_preg]. move: (fdir_held rc s) => [_ _ -> _].
    by rewrite /raised (@iter_succ_r _ _ (S k)) in hr.
Qed.
Lemma fddp_solve_fuel (Q : R -> Prop) xs us maxiter feas reg (s : fddp M) :
  (forall rc s1, Q (d_preg (f_d s1)) -> fddp_retry x0 c fuel rc s1 <> DirNoFuel) ->
  reg_closed dc Q -> Q (init_reg dc reg) ->
  fddp_solve x0 c fuel xs us maxiter feas reg s <> NoFuel.
Proof.
  move=> hr hc hq. rewrite fddp_solve_begin. case e: (fddp_begin _ _ _ _ _ _ _) => [s0|] //.
  have [h0 _] := fddp_begin_regs e.
  elim: maxiter true s0 {e} h0 => [|k ih] rc s0 h0 //. cbn [fddp_loop].
  have := fbody_ctl rc h0. have nf : fddp_body x0 c fuel rc s0 <> BNoFuel.
  { rewrite /fddp_body. have := hr rc s0. case: (fddp_retry _ _ _ _ _) => [s1|s1|s1| |] //.
    - move=> _. cbv zeta. case: (rle E _ _) => //. case: (fddp_line_search _ _ _ _) => // rc' s5.
      rewrite /fddp_after. cbv zeta. by case: (_ && req E _ _).
    - move=> /(_ (reg_reach_closed hc hq (match h0 with conj _ h => h end))). by []. }
  case: (fddp_body _ _ _ _ _) nf => // r _ [h [_ [_ [_ h4]]]]. exact: ih.
Qed.
End F.
End Ctl.
