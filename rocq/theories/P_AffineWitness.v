(** * The hypotheses of C11, C12 are met: LQ models, and a complete solve in
    exact arithmetic that makes a line search. *)
From Coq Require Import Ring Field ZArith PeanoNat List.
Set Warnings "-notation-overridden,-ambiguous-paths".
From mathcomp Require Import all_ssreflect all_algebra.
From Verif Require Import FieldTac Eigen EigenExact ExactLemmas Problem DDP Filter SQP CSQP Init Models LQSpec Riccati Witness TrialSpec TraceSpec
  SQPSpec SQPTrial SQPLoop History SubQP PassExact P_Direction KKTNorm Exit Affine AffineStep P_Affine.

Set Implicit Arguments.
Unset Strict Implicit.
Unset Printing Implicit Defensive.

Import Order.TTheory GRing.Theory Num.Theory.
Local Open Scope ring_scope.

Section A.
Variable F : realFieldType.
Variable sq : F -> F.
Notation E := (ExactE sq).

(** every linear-quadratic action model with symmetric Q and R is an
    [lq_action], every quadratic terminal model an [lq_terminal] *)
Lemma half_quad n (Q : 'M[F]_n) (x : 'cV[F]_n) : (half (E := E) (vdot E x (mmulv E Q x)) : F) = quad Q x / 2%:R.
Proof. rewrite /half /= /xlit /= mulrC; congr (_ * _); last by rewrite mul1r.
by rewrite /quad /xdot /= mulmxA. Qed.
Lemma lq_model_ok n m p (d : lq E n m p) :
  is_sym (lQ d : 'M[F]_n) -> is_sym (lR d : 'M[F]_m) -> lq_action (lq_model d).
Proof.
move=> sQ sR; split; first by exists (lA d : 'M[F]_n), (lB d), (lf d).
exists (lQ d : 'M[F]_n), (lS d), (lR d), (lq_q d), (lq_r d), 0; split=> //.
by move=> x u; rewrite -!half_quad addr0.
Qed.
Lemma lq_tmodel_ok n p (d : tlq E n p) : is_sym (ltQ d : 'M[F]_n) -> lq_terminal (lq_tmodel d).
Proof.
move=> sQ; exists (ltQ d : 'M[F]_n), (ltq d), 0; split=> // x.
by rewrite -half_quad addr0.
Qed.

(** a solver of the one-step problem of Witness.v, default parameters but zero
    regularisation, tolerance 0 and only the unit step length: solve from the zero
    guess with one iteration allowed returns false after one line search *)
Definition zcfg : scfg E :=
  @mkScfg E (@mkCfg E (10%:R : F) (10%:R : F) (0 : F) (1 : F) [:: (1 : F)] (0 : F) (0 : F) (0 : F) (0 : F) (0 : F) 0)
    (1 : F) true 1 false.

Notation W0 := (wsqp_at sq (0 : 'cV[F]_1)).
Notation z0 := (wx0 sq).
Lemma start_state : sqp_solve z0 zcfg 1 nil nil 1 (Some (0 : R E)) (wsqp sq) =
  sqp_loop z0 zcfg 1 1 W0.
Proof. reflexivity. Qed.

(** a line search over the single step length 1 with a filter of size 1 *)
Lemma ls_total (s : sqp (euclid E 1)) : run (q_tr s) <> nil -> q_iter s = 0%N ->
  cb_get (q_costl s) 0 <> None -> cb_get (q_gapl s) 0 <> None ->
  (exists s1, sqp_line_search zcfg [:: (1 : R E)] s = LSAccept s1) \/
  (exists s1, sqp_line_search zcfg [:: (1 : R E)] s = LSNone s1).
Proof.
move=> hr hi h1 h2; cbn [sqp_line_search].
have hc : forall (s1 : sqp (euclid E 1)), q_iter s1 = 0%N -> q_costl s1 = q_costl s -> q_gapl s1 = q_gapl s ->
    sqp_accept zcfg s1 <> None.
  move=> s1 e1 e2 e3; rewrite /sqp_accept; cbn [sc_filter zcfg sc_fsize].
  rewrite /filter_worse; cbn [filter_loop Nat.leb Nat.sub]; rewrite /sqp_dominated e2 e3.
  case: (cb_get _ _) h1 => // ci _; case: (cb_get _ _) h2 => // gi _.
  by case: (_ && _).
rewrite /sqp_tryStep; case: (_ || _); first by right; eexists.
cbv zeta. move: hr; cbn [q_tr set_q_step]; case er: (run (q_tr s)) => [|nd ls] // _.
have hx : forall ls cst gap xn, snd (try_nodes (M := euclid E 1) (1 : R E) (Some xn) ls cst gap) <> None.
  by elim=> [|m l IH] //= cst gap xn; case: (raiseIfNaN _) => //; exact: IH.
have hn : fst (fst (fst (try_nodes (M := euclid E 1) (1 : R E) None (nd :: ls) (r0 E) (r0 E)))) = true ->
          snd (try_nodes (M := euclid E 1) (1 : R E) None (nd :: ls) (r0 E) (r0 E)) <> None.
  by cbn [try_nodes]; case: (raiseIfNaN _) => //= _; exact: hx.
move: (try_nodes _ _ _ _ _) hn => [[[ok ns] cg] xn] /= hn.
case: ok hn => /= hn; last by right; eexists.
case: xn hn => [xn|/(_ erefl) //] _.
case: (raiseIfNaN _); first by right; eexists.
set s2 := set_q_meritt _ _.
case ea: (sqp_accept zcfg s2) => [[]|]; [by left; eexists|by right; eexists|].
by case: (hc s2 hi erefl erefl).
Qed.
Lemma after_false (s : sqp (euclid E 1)) : exists s', sqp_after zcfg s = BRet false s' \/ sqp_after zcfg s = BNext s'.
Proof.
rewrite /sqp_after; cbv zeta; set s5 := (if _ then _ else s).
case: (rle E _ _); last by eexists; right.
by case: (req E _ _); eexists; [left|right].
Qed.
Lemma dir_frame rc (s : sqp (euclid E 1)) : let s' := snd (sqp_computeDirection z0 zcfg rc s) in
  [/\ q_iter s' = q_iter s, q_costl s' = q_costl s & q_gapl s' = q_gapl s].
Proof. by rewrite /sqp_computeDirection; case: rc; case: (fst _). Qed.
Lemma push_some (x : F) (b : cbuf F) : cap b = 1%N -> length (items b) = 1%N -> cb_get (cb_push x b) 0 <> None.
Proof. by rewrite /cb_push => -> ->; case: b => c0 [|y l] //=; case: l. Qed.
Example C11_C12_run : exists s', sqp_solve z0 zcfg 1 nil nil 1 (Some (0 : R E)) (wsqp sq) = Ret false s'.
Proof.
rewrite start_state; cbn [sqp_loop]; rewrite /sqp_body; cbn [sqp_retry].
have [s1 es [p [m [v [la [a [tn [et [e1 _ _ _]]]]]]]]] := w_direction_c zcfg (0 : 'cV[F]_1).
have := dir_frame true W0; cbv zeta; rewrite es; cbn [fst snd]; move=> [f1 f2 f3].
have hk : rle E (q_kkt (sqp_check zcfg s1)) (c_tol (sc_ddp zcfg)) = false.
  apply/negP => h.
  have {}h : (kkt_residual (q_tr s1) : F) <= 0 by exact: h.
  have /C06_kkt_norm [//|_ [_ hg]] := h.
  have := hg 0; rewrite et; cbn [trm]; rewrite e1 add0r mxE normr1.
  by rewrite leNgt ltr01.
rewrite hk.
set s2 := sqp_push _.
have c1 : cb_get (q_costl s2) 0 <> None by apply: push_some; rewrite [q_costl _]f2.
have c2 : cb_get (q_gapl s2) 0 <> None by apply: push_some; rewrite [q_gapl _]f3.
have c3 : run (q_tr s2) <> nil by rewrite [q_tr _]et.
have c4 : q_iter s2 = 0%N by exact: f1.
have [[s3 e3]|[s3 e3]] := ls_total c3 c4 c1 c2; rewrite [sqp_line_search _ _ _]e3.
  by have [s4 [->|->]] := after_false (sqp_log_accept s3); eexists.
by have [s4 [->|->]] := after_false (sqp_log_reject s3); eexists.
Qed.

(** all the hypotheses of C11 and C12 hold of this call, and it contains a line
    search from evaluated data *)
Example C11_C12_hypotheses_met :
  [/\ forall sl, List.In sl [:: wslot sq] -> lq_action (sl_m sl), lq_terminal (ts_m (wtslot sq)),
      zero_reg (sc_ddp zcfg) (Some (0 : R E))
    & sqp_hist (M := euclid E 1) [:: wslot sq] (wtslot sq) le 1 (wsqp sq) /\
  exists rs last s', [/\ sqp_solve z0 zcfg 1 nil nil 1 (Some (0 : R E)) (wsqp sq) = Ret false s',
     sqp_run [:: wslot sq] z0 zcfg nil nil 1 (Some (0 : R E)) (wsqp sq) rs last false s' & rs <> nil]].
Proof.
have hh : sqp_hist (M := euclid E 1) [:: wslot sq] (wtslot sq) le 1 (wsqp sq) by exact: hist_new.
split.
- by move=> sl [<-|] //; apply: lq_model_ok; rewrite /is_sym /= ?trmx0 ?trmx1.
- by apply: lq_tmodel_ok; rewrite /is_sym /= trmx0.
- by split=> //; split=> //; exact: ler01.
split=> //.
have [s' es] := C11_C12_run.
have hn : [:: wslot sq] <> nil by [].
have [rs [last [hr he]]] := C57_sqp_false_means_exhausted hn hh es.
exists rs, last, s'; split=> // ers; rewrite ers in he hr.
case: he => // he.
have [hp _] := run_reg hr.
have hz : zero_reg (sc_ddp zcfg) (Some (0 : R E)) by split=> //; split=> //; exact: ler01.
have := zero_reach hz hp => p0; move: he.
have -> : req E (q_preg s') (c_rmax (sc_ddp zcfg)) = ((q_preg s' : F) == 1) by [].
by rewrite p0 eq_sym oner_eq0.
Qed.
End A.

Print Assumptions C12_sqp_defects_scale.
Print Assumptions C11_sqp_unit_step_solves_lq.
Print Assumptions C11_sqp_lq_one_line_search.
Print Assumptions C57_sqp_false_means_exhausted.
