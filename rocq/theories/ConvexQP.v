(** * Convex subproblems: SolverCSQP::computeDirection never raises (C53), and a
    concrete solve that meets the hypotheses of the theorems of P_ADMM.v. *)
From Coq Require Import Ring Field ZArith PeanoNat.
Set Warnings "-notation-overridden,-ambiguous-paths".
From mathcomp Require Import all_ssreflect all_algebra.
From Verif Require Import FieldTac Eigen EigenExact EigenFloat ExactLemmas Problem DDP Filter SQP CSQP Init Models LQSpec SubQP Riccati PassExact
  TrialSpec TraceSpec SQPSpec CSQPSpec CSQPFrames CSQPLoop CSQPHist P_Direction
  QPSpec FastPass ADMMSpec ADMMExact ADMMIter CallSpec CallInv CallGood CallCover QPExact CSQPConvex EqGuess P_ADMM Witness.

Set Implicit Arguments.
Unset Strict Implicit.
Unset Printing Implicit Defensive.

Import Order.TTheory GRing.Theory Num.Theory.
Local Open Scope ring_scope.

Section C.
Variable F : realFieldType.
Variable sq : F -> F.
Notation E := (ExactE sq).
Variable M : manifold E.
Notation n := (mndx M).
Notation traj := (traj M).

(** every row has lb <= ub *)
Definition node_ordered (nd : node M) : Prop :=
  forall i, ordered ((alb (nm nd) : 'cV[option F]_(ng (nm nd))) i 0) ((aub (nm nd) : 'cV[option F]_(ng (nm nd))) i 0).
Definition rows_ordered (t : traj) : Prop :=
  (forall nd, List.In nd (run t) -> node_ordered nd) /\
  (forall i, ordered ((tlb (tm (trm t)) : 'cV[option F]_(tng (tm (trm t)))) i 0) ((tub (tm (trm t)) : 'cV[option F]_(tng (tm (trm t)))) i 0)).
(** a symmetric convex subproblem with well-ordered rows *)
Definition convex_qp (t : traj) : Prop := [/\ traj_sym t, traj_convex t & rows_ordered t].

Lemma passed_in (l l' : list (node M)) nd : List.Forall2 (@cpassed E M) l l' -> List.In nd l' ->
  exists2 m, List.In m l & cpassed m nd.
Proof.
elim=> [//|a b l1 l2 h _ ih] /= [<-|/ih [m hm hp]]; first by exists a => //; left.
by exists m => //; right.
Qed.
Lemma passed_convex (t t' : traj) : cpassed_traj t t' -> convex_qp t -> convex_qp t'.
Proof.
move=> [h1 h2] [[s1 s2] [c1 c2] [o1 o2]].
have hn : forall nd, List.In nd (run t') -> [/\ node_sym nd, node_convex nd & node_ordered nd].
  move=> nd /(passed_in h1) [m hm [v [d [a ->]]]].
  by split; [exact: (s1 m hm)|exact: (c1 m hm)|exact: (o1 m hm)].
have ht : [/\ tnode_sym (trm t'), forall x : 'cV[F]_n, 0 <= quad (tLxx (tder (trm t')) : 'M[F]_n) x
  & (forall i, ordered ((tlb (tm (trm t')) : 'cV[option F]_(tng (tm (trm t')))) i 0) ((tub (tm (trm t')) : 'cV[option F]_(tng (tm (trm t')))) i 0))].
  by case: h2 => A [v [d [la [dt [z [zp [zr [y [r [ir ->]]]]]]]]]]; split.
case: ht => t1 t2 t3.
by split; split=> // nd /hn [].
Qed.
Lemma passed_regpos (t t' : traj) dreg : cpassed_traj t t' -> reg_positive dreg t -> reg_positive dreg t'.
Proof.
move=> [h1 _] [h|[h h']]; first by left.
right; split=> // nd /(passed_in h1) [m hm [v [d [a ->]]]]; exact: (h' m hm).
Qed.

Lemma penalty_ge0 (rmin rho : F) lo hi : 0 <= rmin -> 0 <= rho -> 0 <= penalty rmin rho lo hi.
Proof.
move=> h1 h2; rewrite /penalty; case: lo => [a|]; case: hi => [b|] //.
by case: ifP => _ //; apply: mulr_ge0 => //; apply: ltW; apply: xlit_gt0.
Qed.
Lemma penalties_nonneg (rmin rho : F) (t : traj) : 0 <= rmin -> 0 <= rho -> rows_ordered t ->
  penalties rmin rho t -> rho_nonneg t.
Proof.
move=> h1 h2 [o1 o2] [p1 p2]; split=> [nd hnd i|i].
  by have [-> _] := p1 nd hnd i (o1 nd hnd i); exact: penalty_ge0.
by have [-> _] := p2 i (o2 i); exact: penalty_ge0.
Qed.

Variable c : ccfg E.
Variable timeout : nat -> bool.
Notation sigma := (cc_sigma c : F).
Notation rmin := (cc_rhomin c : F).
Notation rmax := (cc_rhomax c : F).
Variables (l : seq (slot M)) (t : tslot M) (resize : nat -> nat -> Prop).
Variables (k : nat) (s : csqp M) (fuel : nat) (x0 : mX M) (xs : seq (mX M)) (us : seq {m : nat & vec E m}).
Variables (maxiter : nat) (reg : option (R E)).

Lemma qp_begin_regs (s1 s2 : csqp M) : qp_begin c s1 = Some s2 -> k_preg s2 = k_preg s1 /\ k_dreg s2 = k_dreg s1.
Proof.
have := reset_params_dframe c s1; rewrite /qp_begin; move: (reset_params c s1) => s3 h.
case: (cc_eqguess c) => [|[<-]]; last by rewrite (df_preg h) (df_dreg h).
by case: (fst _) => // -[<-]; rewrite -(df_preg h) -(df_dreg h).
Qed.
Lemma qp_top_regs (s1 : csqp M) i si : qp_top c timeout s1 i si -> k_preg si = k_preg s1 /\ k_dreg si = k_dreg s1.
Proof.
elim=> [s2 /qp_begin_regs [<- <-] _ _ //|i' s2 s3 _ [<- <-] hs _ _].
have := qp_step_dframe c i' s2; rewrite hs => -[h _]; by rewrite -(df_preg h) -(df_dreg h).
Qed.

(** QThrow comes from the guess or from an iteration of the loop *)
Lemma qp_loop_throw (s1 : csqp M) : forall r i si s2, (r + i = (cc_maxqp c).+1)%nat ->
  (forall j sj sk, qp_top c timeout s1 j sj -> qp_step c j sj <> SThrow sk) ->
  (i = 1%nat /\ qp_begin c s1 = Some si \/ exists j sj, [/\ i = j.+1, qp_top c timeout s1 j sj & qp_step c j sj = SGo si]) ->
  qp_loop c timeout r i si <> QThrow s2.
Proof.
elim=> [//|r ih] i si s2 er hno hpre; cbn [qp_loop].
case et: (fst (tick timeout si)) => //.
have hle : (i <= cc_maxqp c)%nat by rewrite -ltnS -er addSn ltnS leq_addl.
have htop : qp_top c timeout s1 i (snd (tick timeout si)).
  case: hpre => [[ei hb]|[j [sj [ei hj hg]]]].
    rewrite ei in hle *; apply: (qp_top1 hb _ et). apply/ssrnat.leP; exact: hle.
  rewrite ei in hle *; apply: (qp_topS hj hg _ et); apply/ssrnat.leP; exact: hle.
case: (Nat.eqb _ _) => //.
case es: (qp_step c i _) => [s3|s3|s3].
- by move=> _; exact: (hno _ _ _ htop es).
- by [].
- apply: ih => //; first by rewrite addnS.
  by right; exists i, (snd (tick timeout si)).
Qed.

(** C53: from any history, a direction of a convex subproblem computed during
    solve never raises. *)
Theorem C53_convex_direction_no_exception s0 s1 : Peano.lt 0 (cc_interval c) -> 0 < rmin -> rmin <= rmax -> 0 < (cc_rhobase c : F) ->
  csqp_hist l t resize k s -> solve_begin c x0 xs us maxiter reg s = Some s0 -> called c timeout fuel s0 maxiter s1 ->
  convex_qp (k_tr s1) -> 0 <= (k_preg s1 : F) -> reg_positive (k_dreg s1) (k_tr s1) ->
  0 <= sigma -> 0 < sigma + (k_dreg s1 : F) ->
  forall s2, csqp_computeDirection c timeout s1 <> QThrow s2.
Proof.
move=> hk r0 rm rb hh hb hc cv p0 rp sg sd s2.
have hqp : qp_begin c s1 <> None.
  by case: cv => h1 h2 h3; apply: C53_convex_guess_no_exception.
have d0 : 0 <= (k_dreg s1 : F) by case: rp => [/ltW|[]].
have hno : forall j sj sk, qp_top c timeout s1 j sj -> qp_step c j sj <> SThrow sk.
  move=> j sj sk hj.
  have [ep ed] := qp_top_regs hj.
  have [h1 h2 h3] := passed_convex (proj1 (top_cstep hj)) cv.
  have hr : csqp_hist l t resize k s /\ solve_qp c timeout fuel x0 xs us maxiter reg s s1 j sj.
    by split=> //; exists s0.
  have hpos := C29_positive r0 rm rb hr.
  have [_ hp] := C28_C29_C37_penalties rm hr.
  apply: (C53_convex_iteration_no_exception hk hr) => //; rewrite ?ep ?ed //.
  apply: penalties_nonneg hp => //; exact: ltW.
rewrite /csqp_computeDirection.
case e: (qp_begin c s1) hqp => [sb|//] _.
move: (e); rewrite /qp_begin; case: (cc_eqguess c).
  case: (fst _) => // -[e']; rewrite e'; apply: (qp_loop_throw (s1 := s1)) => //; first by rewrite addn1.
  by left.
move=> [e']; rewrite e'; apply: (qp_loop_throw (s1 := s1)) => //; first by rewrite addn1.
by left.
Qed.
End C.
