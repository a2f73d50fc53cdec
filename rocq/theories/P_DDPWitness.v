(** * The hypotheses of C47 and C56 are met: the one-step problem of Witness.v, started from
    the roll-out of the zero control. *)
From Coq Require Import Ring Field ZArith PeanoNat List.
Set Warnings "-notation-overridden,-ambiguous-paths".
From mathcomp Require Import all_ssreflect all_algebra.
From Verif Require Import FieldTac Eigen EigenExact ExactLemmas Problem DDP SQP CSQP Init LQSpec Riccati SubQP PassExact RollSpec DDPLoop DDPSpec DDPRun P_DDP Models Witness Affine AffineStep P_AffineWitness DDPExact P_DDPDescent.

Set Implicit Arguments.
Unset Strict Implicit.
Unset Printing Implicit Defensive.

Import Order.TTheory GRing.Theory Num.Theory.
Local Open Scope ring_scope.

Section W.
Variable F : realFieldType.
Variable sq : F -> F.
Notation E := (ExactE sq).
Notation M1 := (euclid E 1).
Local Arguments chol_solve : simpl never.
Local Arguments chol_ok : simpl never.
Local Arguments xlinf : simpl never.
Notation one := (const_mx 1 : 'cV[F]_1).
Notation A1 := (lq_model (wlq sq)).
Notation T1 := (lq_tmodel (wtlq sq)).

(** the new solver with the candidate x = (0, 1), u = 0 declared feasible *)
Definition start : ddp M1 :=
  set_d_feas true (set_d_tr (mkTraj [:: new_node (wx0 sq) (wslot sq)] (@set_tx E M1 (new_tnode (wtslot sq)) one)) (new_ddp (wx0 sq) [:: wslot sq] (wtslot sq))).

Lemma w_bwd_t p m (b f : 'cV[F]_1) v dd a :
  let nd := @mkNode E M1 A1 p m (wder sq b) f v dd a in
  exists2 v', bwd_node (r0 E) (r0 E) true nd (0 : 'M[F]_1) (0 : 'cV[F]_1) = (true, set_val nd v') &
    [/\ (gk v' : 'cV[F]_1) = b, (gK v' : 'M[F]_1) = 0 & (Qu v' : 'cV[F]_1) = b].
Proof.
move=> nd; rewrite /bwd_node; cbn [nu nm nd lq_model Nat.eqb negb andb der Lx Lu Lxx Lxu Luu Fx Fu wder].
rewrite /add_reg /symmetrize /raiseIfNaN /=.
rewrite !(mulmx0, mul0mx, addr0, trmx1, mulmx1, mul1mx, trmx0) !raddf0 !addr0 chol_ok_id /=.
rewrite !chol_solve_id !(trmx0, mul0mx, addr0, scaler0, subr0) xlinf0 leNgt big0 /=.
by eexists; first reflexivity.
Qed.
Definition base_traj : traj M1 := fst (ddp_calcDiff (wx0 sq) true 0 (d_tr start)).
Lemma base_run : exists v dd a, run base_traj =
    [:: @mkNode E M1 A1 (@mkPoint E M1 1 (0 : 'cV[F]_1) (0 : 'cV[F]_1) (0 : 'cV[F]_1) (0 : 'cV[F]_1)) ((0 : 'cV[F]_1), (0 : 'cV[F]_1)) (wder sq one) (0 : 'cV[F]_1) v dd a].
Proof.
pose nd := new_node (wx0 sq) (wslot sq).
exists (val nd), (dir nd), (adm nd).
have -> : run base_traj =
  [:: @mkNode E M1 A1 (@mkPoint E M1 1 (0 : 'cV[F]_1) (0 : 'cV[F]_1) (0 : 'cV[F]_1) (0 : 'cV[F]_1)) ((0 : 'cV[F]_1), (0 : 'cV[F]_1))
     (adiff A1 ((0 : 'cV[F]_1), (0 : 'cV[F]_1)) (0 : 'cV[F]_1) (0 : 'cV[F]_1))
     (0 : 'cV[F]_1) (val nd) (dir nd) (adm nd)] by reflexivity.
congr (_ :: _); apply: mkNode_eq => //.
rewrite /wder /adiff; cbn [lq_model]; rewrite /wlq; cbn [lQ lS lR lA lB lC lD lq_q lq_r].
by rewrite /= !mul0mx trmx0 mul0mx mulmx0 !addr0 add0r.
Qed.

Lemma base_term : let tn := bwd_term (r0 E) true (trm base_traj) in
  [/\ tVxx tn = (0 : 'M[F]_1), tVx tn = (0 : 'cV[F]_1), tm tn = T1, tx tn = one & tder tn = tdiff T1 one one].
Proof.
move=> tn; split=> //.
- by rewrite /tn /= /add_reg /= raddf0 addr0.
- by rewrite /tn /= mul0mx addr0.
Qed.
Lemma lin_start : linearised true (wx0 sq) (r0 E) (run base_traj) (trm base_traj) (snd (ddp_calcDiff (wx0 sq) true 0 (d_tr start))).
Proof.
rewrite /base_traj; move: (d_tr start) => tr.
have := @calcDiff_lin E M1 (wx0 sq) true (problem_calc tr) (cur_calc _); cbv zeta; rewrite /ddp_calcDiff.
exact.
Qed.
(** the state after the direction was computed *)
Definition ready_state (tr : traj M1) : ddp M1 :=
  let d := ddp_expected (run tr) in
  set_d_d1 (snd d) (set_d_d0 (fst d) (set_d_tr tr (set_d_cost (snd (ddp_calcDiff (wx0 sq) true 0 (d_tr start))) start))).
Lemma dirE (x0 : mX M1) (s : ddp M1) tr : d_feas s = true -> d_iter s = 0%N -> d_preg s = r0 E -> d_dreg s = r0 E ->
  backwardPass (r0 E) (r0 E) true (fst (ddp_calcDiff x0 true 0 (d_tr s))) = (true, tr) ->
  ddp_computeDirection x0 true s = (true, set_d_tr tr (set_d_cost (snd (ddp_calcDiff x0 true 0 (d_tr s))) s)).
Proof.
move=> h1 h2 h3 h4 hb; rewrite /ddp_computeDirection; cbn [d_preg d_dreg d_feas d_tr set_d_cost set_d_tr].
by rewrite h1 h2 h3 h4 hb.
Qed.
Lemma readyE tr : let s := ready_state tr in
  [/\ d_tr s = tr, d_cost s = snd (ddp_calcDiff (wx0 sq) true 0 (d_tr start)), d_preg s = r0 E, d_dreg s = r0 E & d_feas s = true /\ (d_d0 s, d_d1 s) = ddp_expected (run tr)].
Proof. by rewrite /ready_state; case: (ddp_expected _). Qed.
Lemma neg_small (x : F) : x <= 0 -> raiseIfNaN (x : R E) = false.
Proof.
by move=> h; rewrite /raiseIfNaN /=; apply/negbTE; rewrite -ltNge; apply: le_lt_trans h (big0 F).
Qed.
(** the trial with the unit step from that node *)
Lemma w_try m d f (v : vals M1 1) dd a (tn : tnode M1) : (gk v : 'cV[F]_1) = one -> (gK v : 'M[F]_1) = 0 -> tm tn = T1 ->
  let nd := @mkNode E M1 A1 (@mkPoint E M1 1 (0 : 'cV[F]_1) (0 : 'cV[F]_1) (0 : 'cV[F]_1) (0 : 'cV[F]_1)) m d f v dd a in
  fst (fst (fst (roll_nodes (r1 E) (wx0 sq) (vzero E) [:: nd] tn (r0 E)))) = true.
Proof.
move=> ek eK et nd; cbn [roll_nodes].
set nd' := roll_node _ _ nd.
have eu : (put (pt nd') : 'cV[F]_1) = - one.
  by rewrite /nd' /roll_node /= ek eK mul0mx subr0 scale1r sub0r.
have em : mem nd' = ((0 : 'cV[F]_1), - one : 'cV[F]_1).
  by rewrite -eu.
have ec : (acost (nm nd') (mem nd') : F) <= 0.
  rewrite em -[acost _ _]/(lq_cost (wlq sq) (0 : 'cV[F]_1) (- one : 'cV[F]_1)) /lq_cost /=.
  rewrite xlit12 /xdot mul1mx trmx0 !mul0mx mxE mulr0 !add0r addr0 !mxE !big_ord1 !mxE mulN1r opprK mulr1 mul1r.
  by rewrite subr_le0 invf_le1 ?ler1n ?ltr0n.
have en : axnext (nm nd') (mem nd') = (0 : 'cV[F]_1).
  by rewrite em /= /lq_next /= !mul1mx add0r addNr.
have h1 : raiseIfNaN (radd E (r0 E) (acost (nm nd') (mem nd'))) = false.
  by apply: neg_small; rewrite -[radd E _ _]/(0 + (acost (nm nd') (mem nd') : F)) add0r.
have h2 : raiseIfNaN (xnorm M1 (axnext (nm nd') (mem nd'))) = false.
  by apply: neg_small; rewrite en -[xnorm _ _]/(xlinf (0 : 'cV[F]_1)) xlinf0.
rewrite /is_rollout_error h1 h2; cbn [orb fst snd roll_nodes tm tme set_tme set_txt set_tlam].
have h3 : forall t, t = T1 -> (tcost t (tcalc t (axnext (nm nd') (mem nd'))) : F) = 0.
  by move=> _ ->; rewrite en /= /half /= /xdot trmx0 !mul0mx !mxE ?mulr0 ?addr0.
rewrite (neg_small (x := radd E (radd E (r0 E) (acost (nm nd') (mem nd'))) (tcost (tm tn) (tcalc (tm tn) (axnext (nm nd') (mem nd')))))) //.
by rewrite -[radd E _ _]/(0 + (acost (nm nd') (mem nd') : F) + (tcost (tm tn) (tcalc (tm tn) (axnext (nm nd') (mem nd'))) : F)) add0r (h3 _ et) addr0.
Qed.
Example C47_hypotheses_met : exists (t0 : traj M1) (s1 s s' : ddp M1),
  ddp_computeDirection (wx0 sq) true start = (true, s1) /\ d_tr s = d_tr s1 /\
  [/\ (forall nd, List.In nd (run (d_tr s)) -> lq_running (nm nd)), lq_terminal (tm (trm (d_tr s))),
      linearised true (wx0 sq) (r0 E) (run (d_tr s)) (trm (d_tr s)) (d_cost s),
      follows_dynamics (wx0 sq) (run (d_tr s)) (trm (d_tr s))
    & hd_xt (run (d_tr s)) (trm (d_tr s)) = wx0 sq] /\
  [/\ backwardPass (d_preg s) (d_dreg s) true t0 = (true, d_tr s), (d_d0 s, d_d1 s) = ddp_expected (run (d_tr s)),
      d_feas s = true, ddp_tryStep (r1 E) (set_d_step (r1 E) s) = (true, s')
    & slope (run (d_tr s)) = 1] /\
  d_preg s = r0 E /\ d_dreg s = r0 E /\ List.map (@nm E M1) (run (d_tr s)) = [:: A1] /\ tm (trm (d_tr s)) = T1.
Proof.
have [v [dd [a er]]] := base_run; have := base_term; cbv zeta.
set tn := bwd_term (r0 E) true (trm base_traj) => -[eV ev em ex ed].
set p := mkPoint _ _ _ _ in er; set m := (_, _) in er.
have [v' e1 [ek eK eQ]] := w_bwd_t p m one (0 : 'cV[F]_1) v dd a.
set nd := set_val _ v' in e1.
have eb : backwardPass (r0 E) (r0 E) true base_traj = (true, mkTraj [:: nd] tn).
  rewrite /backwardPass er -/tn; cbn [bwd_nodes hd_Vxx hd_Vx fst snd]; rewrite eV ev.
  by rewrite e1.
have hs : slope [:: nd] = 1.
  rewrite /slope big_cons big_nil addr0 -[Qu (val nd)]/(Qu v') -[gk (val nd)]/(gk v') ek eQ.
  by rewrite /dot mxE big_ord1 !mxE mulr1.
have hl : linearised true (wx0 sq) (r0 E) [:: nd] tn (snd (ddp_calcDiff (wx0 sq) true 0 (d_tr start))).
  have [h1 h2] := bwd_agree (r0 E) (r0 E) true base_traj; rewrite eb in h1 h2.
  exact: (lin_agree h1 h2 lin_start).
have hd : ddp_computeDirection (wx0 sq) true start = (true, set_d_tr (mkTraj [:: nd] tn) (set_d_cost (snd (ddp_calcDiff (wx0 sq) true 0 (d_tr start))) start)).
  by apply: dirE => //; exact: eb.
have ht : fst (fst (fst (roll_nodes (r1 E) (wx0 sq) (vzero E) [:: nd] tn (r0 E)))) = true by exact: (@w_try m (wder sq one) (0 : 'cV[F]_1) v' dd a tn ek eK em).
have [q1 q2 q3 q4 [q5 q6]] := readyE (mkTraj [:: nd] tn).
have hfo : follows_dynamics (wx0 sq) [:: nd] tn.
  split=> //; cbn [follows_dynamics]; rewrite ex.
  by rewrite -[axnext _ _]/(1%:M *m (0 : 'cV[F]_1) + 1%:M *m (0 : 'cV[F]_1) + one) !mulmx0 !add0r.
have hx : hd_xt [:: nd] tn = wx0 sq by [].
have hm : forall k, List.In k [:: nd] -> lq_running (nm k).
  by move=> k [<-|] //; split=> //; apply: lq_model_ok; rewrite /is_sym /= ?trmx0 ?trmx1.
have hT : lq_terminal (tm tn) by rewrite em; apply: lq_tmodel_ok; rewrite /is_sym /= trmx0.
rewrite -q2 in hl.
have [s' es] : exists s', ddp_tryStep (r1 E) (set_d_step (r1 E) (ready_state (mkTraj [:: nd] tn))) = (true, s').
  have gen (s : ddp M1) : d_tr s = mkTraj [:: nd] tn -> exists s', ddp_tryStep (r1 E) (set_d_step (r1 E) s) = (true, s').
    move=> e; rewrite /ddp_tryStep; cbn [d_tr set_d_step].
    have -> : rgt (r1 E) (r1 E) || rlt E (r1 E) (r0 E) = false by rewrite /rgt /= ltxx ltNge ler01.
    by rewrite e; cbn [run trm]; rewrite hx ht; eexists.
  exact: gen.
exists base_traj; eexists; exists (ready_state (mkTraj [:: nd] tn)), s'; split; first exact: hd.
move: (ready_state _) q1 q2 q3 q4 q5 q6 es hl => s q1 q2 q3 q4 q5 q6 es hl.
by rewrite q1 q3 q4; split=> //; split=> //; split=> //; split.
Qed.

(** the step accepted there is a step from a feasible candidate, with th_grad = 0 below its slope *)
Definition dcfg : cfg E :=
  @mkCfg E (1 : F) (1 : F) (0 : F) (1 : F) [:: (1 : F)] (0 : F) (0 : F) (0 : F) (xlit F 1 2) (0 : F) 0.
Example C56_hypotheses_met : exists r : accepted M1,
  accepted_ok [:: A1] T1 (wx0 sq) dcfg r /\ a_feas r = true /\ (c_grad dcfg : F) <= slope (run (a_from r)) /\
  (forall m, List.In m [:: A1] -> sym_model m) /\ sym_tmodel T1 /\ 0 <= (c_accept dcfg : F).
Proof.
have [t0 [s1 [s [s' [hd [e1 [[h1 h2 h3 h4 h5] [[h6 h7 h8 h9 h10] [h11 [h12 [h13 h14]]]]]]]]]]] := C47_hypotheses_met.
have hl : 0 <= (d_preg s : F) /\ 0 <= (d_dreg s : F) by rewrite h11 h12; split; exact: lexx.
have hc : (c_accept dcfg : F) < 1 by rewrite -[c_accept _]/(xlit F 1 2) xlit12 invf_lt1 ?ltr1n ?ltr0n.
have hg : 0 < (c_grad dcfg : F) \/ 0 < slope (run (d_tr s)) by right; rewrite h10 ltr01.
have [s2 [es2 _ _ _ _]] := @C47_ddp_lq_accepts_first F sq 1 (wx0 sq) dcfg s s' t0 (r1 E) [::] h1 h2 h3 h4 h5 h6 h7 h8 (proj1 hl) (proj2 hl) hc hg ltr01 h9.
have hm : forall m, List.In m [:: A1] -> sym_model m.
  by move=> m [<-|] //; apply: lq_sym; apply: lq_model_ok; rewrite /is_sym /= ?trmx0 ?trmx1.
have ht : sym_tmodel T1 by apply: lqt_sym; apply: lq_tmodel_ok; rewrite /is_sym /= trmx0.
have ha : 0 <= (c_accept dcfg : F) by rewrite -[c_accept _]/(xlit F 1 2) xlit12 invr_ge0 ler0n.
have hb : base [:: A1] T1 (wx0 sq) dcfg (get_xs (d_tr s)) (get_us (d_tr s)) true [::] s.
  move: h7; rewrite /ddp_expected expectedE => -[e0 e2].
  split.
  - by split=> //; split=> //; rewrite h8.
  - by rewrite /lin h8.
  - by exists t0; rewrite h8.
  - by split.
have := @ls_path E M1 [:: A1] T1 (wx0 sq) dcfg ltac:(done) (get_xs (d_tr s)) (get_us (d_tr s)) true [::] s [:: r1 E] hb (fun z hz => hz) s.
have hal : along (wx0 sq) s s by split; [exact: jtried_refl|].
move/(_ hal); rewrite [ddp_line_search _ _ _]es2; cbn [fst snd]; move=> [r [hp _]].
have [hch hok] := p_steps hp; have [hr _] := proj1 (List.Forall_cons_iff _ _ _) hok.
exists r; split; first exact: hr.
split; first by case: hch => _ [_ [-> _]].
split=> //; have [_ hD _ _] := C56_ddp_expected_decrease hm ht hr; exact: hD.
Qed.
End W.
Print Assumptions C47_hypotheses_met.
Print Assumptions C47_ddp_trial_decrease.
Print Assumptions C47_ddp_lq_accepts_first.
Print Assumptions C47_ddp_lq_step.
Print Assumptions C47_ddp_lq_solve.
Print Assumptions C56_ddp_expected_decrease.
Print Assumptions C56_ddp_accepted_step_descends.
Print Assumptions C56_ddp_solve_descends.
Print Assumptions C56_ddp_final_cost.
Print Assumptions C56_hypotheses_met.
