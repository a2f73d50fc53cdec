(** * Properties of SolverCSQP's QP (ADMM) iterations: C23, C24, C26-C30, C35, C37.

    [csqp_hist] (CSQPSpec.v): the solver was reached by any sequence of API calls.
    [solve_qp] (CallSpec.v): iteration [i] of a QP solved by the next call of
    solve begins in state [si]; CallCover.v shows that every QP iteration solve
    performs is one of these.  [qp_step c i si]: one ADMM iteration. *)
From Coq Require Import Ring Field ZArith PeanoNat.
Set Warnings "-notation-overridden,-ambiguous-paths".
From mathcomp Require Import all_ssreflect all_algebra.
From Verif Require Import FieldTac Eigen EigenExact EigenFloat ExactLemmas Problem DDP Filter SQP CSQP Init LQSpec SubQP Riccati PassExact
  TrialSpec TraceSpec SQPSpec CSQPSpec CSQPFrames CSQPLoop CSQPHist P_Direction
  QPSpec FastPass ADMMSpec ADMMExact ADMMIter CallSpec CallInv CallGood CallCover QPExact CSQPConvex EqGuess.

Set Implicit Arguments.
Unset Strict Implicit.
Unset Printing Implicit Defensive.

Import Order.TTheory GRing.Theory Num.Theory.
Local Open Scope ring_scope.

(** ** Properties of every interpretation of the arithmetic *)
Section AnyE.
Variable E : Eig.
Variable M : manifold E.
Variable c : ccfg E.

(** C24.  [t'] is any state with the same derivatives, gaps, penalties and
    factorisation as the one the full pass left (new dx, du, z, y are allowed):
    there the fast pass computes the same, bit for bit, as a full pass. *)
Theorem C24_fast_pass_equals_full_pass (preg dreg : R E) (t t' : traj M) : vec0_unique E ->
  fst (cb_backward c preg dreg t) = true -> same_factor (snd (cb_backward c preg dreg t)) t' ->
  cb_backward c preg dreg t' = (true, cf_backward c t').
Proof. move=> h0 hok hs; apply: (cf_cb h0); apply: fitted_traj_sf hs _; exact: cb_fitted. Qed.
(** the multithreaded fast pass is the sequential one *)
Theorem C25_fast_pass_mt (t : traj M) : cfm_backward c t = cf_backward c t.
Proof. exact: cfm_cf. Qed.

(** C26 *)
Theorem C26_fast_pass_fresh_factorisation (timeout : nat -> bool) (s : csqp M) i si :
  Peano.lt 0 (cc_interval c) -> qp_top c timeout s i si -> qp_full c i = false ->
  exists j sj, Peano.lt j i /\ qp_top c timeout s j sj /\ qp_full c j = true /\
    fst (full_pass c (k_preg sj) (k_dreg sj) (k_tr sj)) = true /\
    same_data (k_tr sj) (k_tr si) /\
    same_factor (snd (full_pass c (k_preg sj) (k_dreg sj) (k_tr sj))) (k_tr si) /\
    k_preg si = k_preg sj /\ k_dreg si = k_dreg sj.
Proof. exact: qp_top_fast. Qed.
End AnyE.
Lemma vec0_float : vec0_unique FloatE.
Proof. by move=> k v w e; move: e v w => -> [] []. Qed.

(** ** Exact arithmetic *)
Section P.
Variable F : realFieldType.
Variable sq : F -> F.
Notation E := (ExactE sq).
Variable M : manifold E.
Notation n := (mndx M).
Variable c : ccfg E.
Variable timeout : nat -> bool.
Notation sigma := (cc_sigma c : F).
Notation alpha := (cc_alpha c : F).
Notation rmin := (cc_rhomin c : F).
Notation rmax := (cc_rhomax c : F).
Variables (l : seq (slot M)) (t : tslot M) (resize : nat -> nat -> Prop).

(** C25 (exact part): the multithreaded full pass is the sequential one. *)
Theorem C25_full_pass_mt (preg dreg : R E) (tr : traj M) :
  fst (cm_backward c preg dreg tr) = fst (cb_backward c preg dreg tr) /\
  (fst (cb_backward c preg dreg tr) = true -> cm_backward c preg dreg tr = cb_backward c preg dreg tr).
Proof. exact: cm_cb. Qed.

Section Solve.
Variables (k : nat) (s : csqp M) (fuel : nat) (x0 : mX M) (xs : seq (mX M)) (us : seq {m : nat & vec E m}).
Variables (maxiter : nat) (reg : option (R E)).
Notation reached s1 i si := (csqp_hist l t resize k s /\ solve_qp c timeout fuel x0 xs us maxiter reg s s1 i si).
Notation continues i si s2 := (qp_step c i si = SGo s2 \/ qp_step c i si = SStop s2).

Lemma reached_dxt s1 i si : reached s1 i si -> (hd_dxt (run (k_tr si)) (trm (k_tr si)) : 'cV[F]_n) = 0.
Proof. by case=> h1 h2; have [[_ [[_ h] _]] _] := good_solve (chist_good h1) h2. Qed.

(** C23.  An ADMM iteration that does not raise passes through a point [t']
    ((dx~,du~) in [t'], everything else as in the state before) such that
    - (dx~,du~) solves the KKT system of the augmented LQ problem, and is its
      unique minimiser;
    - the state after is the relaxed dual step from [t']. *)
Theorem C23_admm_primal_step s1 i si s2 : Peano.lt 0 (cc_interval c) ->
  reached s1 i si -> traj_sym (k_tr si) -> continues i si s2 ->
  exists t', [/\ primal_step (k_tr si) t', dual_step alpha t' (k_tr s2),
     lq_kkt 0 (aug_stages sigma (k_preg si) (k_dreg si) true (run t') (trm t')) (aug_final sigma (k_preg si) (trm t'))
   & forall v : controls (aug_stages sigma (k_preg si) (k_dreg si) true (run t') (trm t')),
       v <> own_controls (aug_stages sigma (k_preg si) (k_dreg si) true (run t') (trm t')) ->
       lq_value 0 (aug_final sigma (k_preg si) (trm t')) (own_controls (aug_stages sigma (k_preg si) (k_dreg si) true (run t') (trm t')))
       < lq_value 0 (aug_final sigma (k_preg si) (trm t')) v].
Proof.
move=> hk hr hs hgo; have d0 := reached_dxt hr; case: hr => hh [s0 [hb [hc ht]]].
have [hok [hd _]] := step_tr hk ht hgo.
exists (cforward (snd (cb_backward c (k_preg si) (k_dreg si) (k_tr si)))).
have [ok pd sy so] := cb_direction hok hs.
rewrite d0 in so.
split=> //; first exact: cb_primal.
- by rewrite -map_aug_gsts; apply: ric_kkt.
- by rewrite -map_aug_gsts => v nv; apply: ric_optimal.
Qed.

(** C28, C29, C37.  Before every QP iteration (also the first one of the first
    solve) the scalar penalty is the configured base value or in
    [rho_min, rho_max], and every row with lb <= ub holds the penalty of its
    class and its reciprocal. *)
Theorem C28_C29_C37_penalties s1 i si : rmin <= rmax -> reached s1 i si ->
  ((k_rho si : F) = cc_rhobase c \/ rmin <= (k_rho si : F) <= rmax) /\
  penalties rmin (k_rho si) (k_tr si).
Proof.
move=> hm [_ h]; have [h1 h2] := solve_penalties hm h; split=> //.
by case: h1 => [h1|[h1 h1']]; [left|right; rewrite h1 h1'].
Qed.
Corollary C29_positive s1 i si : 0 < rmin -> rmin <= rmax -> 0 < (cc_rhobase c : F) -> reached s1 i si -> 0 < (k_rho si : F).
Proof.
move=> h0 hm hb hr; have [[->|/andP[h _]] _] := C28_C29_C37_penalties hm hr => //; exact: lt_le_trans h.
Qed.
(** ... and the same after the iteration, whose update may have changed rho. *)
Theorem C29_after_iteration s1 i si s2 : rmin <= rmax -> reached s1 i si -> continues i si s2 ->
  ((k_rho s2 : F) = cc_rhobase c \/ rmin <= (k_rho s2 : F) <= rmax) /\
  penalties rmin (k_rho s2) (k_tr s2).
Proof.
move=> hm [_ h] hgo; have [h1 h2] := step_range hm (solve_penalties hm h) hgo; split=> //.
by case: h1 => [h1|[h1 h1']]; [left|right; rewrite h1 h1'].
Qed.

(** C27 *)
Theorem C27_complementary_rows s1 i si s2 : Peano.lt 0 (cc_interval c) -> 0 < rmin -> rmin <= rmax -> 0 < (cc_rhobase c : F) ->
  reached s1 i si -> continues i si s2 -> rows_complementary (k_tr s2).
Proof.
move=> hk h0 hm hb hr hgo; have hpos := C29_positive h0 hm hb hr.
have [_ hp] := C28_C29_C37_penalties hm hr; case: hr => hh [s0 [hb' [hc ht]]].
have [_ [hd _]] := step_tr hk ht hgo.
apply: (dual_rows h0 hpos hd); apply: primal_penalties hp; exact: cb_primal.
Qed.

(** C35.  The stationarity defect of the exposed direction and multipliers after
    an iteration is sigma (change of (dx,du)) + G' rho ((1-alpha)(Cd - z) + change
    of z); in particular a stationary iteration certifies the KKT conditions of
    the inequality-constrained subproblem. *)
Theorem C35_stationary_iteration s1 i si s2 : Peano.lt 0 (cc_interval c) -> 0 < rmin -> rmin <= rmax -> 0 < (cc_rhobase c : F) ->
  reached s1 i si -> traj_sym (k_tr si) -> continues i si s2 ->
  exists t', [/\ primal_step (k_tr si) t', dual_step alpha t' (k_tr s2),
     lq_kkt 0 (it_stages alpha sigma (k_preg si) (k_dreg si) true (run t') (trm t')) (it_final alpha sigma (k_preg si) (trm t'))
   & stationary alpha t' -> qp_kkt (k_preg s2) (k_dreg s2) (k_tr (csqp_checkKKT s2))].
Proof.
move=> hk h0 hm hb hr hs hgo; have hpos := C29_positive h0 hm hb hr.
have [_ hp] := C28_C29_C37_penalties hm hr.
have [t' [h1 h2 h3 _]] := C23_admm_primal_step hk hr hs hgo.
have h4 := it_kkt (or_intror erefl) h3.
exists t'; split=> // hst.
case: hr => hh [s0 [hb' [hc ht]]]; have [_ [_ [-> ->]]] := step_tr hk ht hgo.
exact: (stationary_kkt h0 hpos h2 (primal_penalties h1 hp) hst h4).
Qed.

(** C04 (SolverCSQP part): after the pass of every QP iteration, of whatever kind,
    the value-function Hessians are symmetric, and positive semidefinite when the
    subproblem is convex. *)
Theorem C04_csqp_Vxx s1 i si : Peano.lt 0 (cc_interval c) -> reached s1 i si -> traj_sym (k_tr si) ->
  fst (qp_pass c i si) = true ->
  let tr := k_tr (snd (qp_pass c i si)) in
  forall V : mat E n n, V = tVxx (trm tr) \/ (exists2 nd, List.In nd (run tr) & V = Vxx (val nd)) ->
  is_sym (V : 'M[F]_n) /\
  (traj_convex (k_tr si) -> rho_nonneg (k_tr si) -> 0 <= sigma -> 0 <= (k_preg si : F) -> 0 <= (k_dreg si : F) ->
   0 < sigma + (k_dreg si : F) -> forall x : 'cV[F]_n, 0 <= quad (V : 'M[F]_n) x).
Proof.
move=> hk [hh [s0 [hb [hc ht]]]] hs hok tr V.
have [e1 e2] := qp_pass_cb hk ht; rewrite hok in e1; rewrite {}/tr e2 -?e1 // => hV.
split; first exact: cb_sym hV.
move=> cv hr s0' p0 d0 sd; have [_ h] := cb_convex hs cv hr s0' p0 d0 sd.
by have [] := h V hV.
Qed.

(** C53: on convex subproblems with positive regularisation no QP iteration
    raises. *)
Theorem C53_convex_iteration_no_exception s1 i si s2 : Peano.lt 0 (cc_interval c) -> reached s1 i si ->
  traj_sym (k_tr si) -> traj_convex (k_tr si) -> rho_nonneg (k_tr si) ->
  0 <= sigma -> 0 <= (k_preg si : F) -> 0 <= (k_dreg si : F) -> 0 < sigma + (k_dreg si : F) ->
  qp_step c i si <> SThrow s2.
Proof.
move=> hk [hh [s0 [hb [hc ht]]]] hs cv hr h0 p0 d0 sd.
have [e1 _] := qp_pass_cb hk ht.
have [hok _] := cb_convex hs cv hr h0 p0 d0 sd.
rewrite /qp_step; set sl := set_k_log _ _.
have : fst (qp_pass c i sl) = true by rewrite -[RHS]hok -e1 /qp_pass; case: (qp_full c i).
move: (qp_pass c i sl) => [b p] /= -> /=.
case: (Nat.eqb _ _) => //; move: (qp_tolerances _ _) => q; by case: (qp_converged _).
Qed.
End Solve.

(** The equality-constrained initial guess: the state in which the QP loop starts
    holds in dx_, du_ the unique solution of the subproblem without constraint
    rows. *)
Theorem C54_equality_guess (s s1 : csqp M) : cc_eqguess c = true -> qp_begin c s = Some s1 ->
  traj_sym (k_tr s) -> (hd_dx (run (k_tr s)) (trm (k_tr s)) : 'cV[F]_n) = 0 ->
  let stages := guess_stages (k_preg s) (k_dreg s) (run (k_tr s1)) (trm (k_tr s1)) in
  let e := guess_final (k_preg s) (trm (k_tr s1)) in
  lq_kkt 0 stages e /\
  forall v : controls stages, v <> own_controls stages -> lq_value 0 e (own_controls stages) < lq_value 0 e v.
Proof.
move=> he; rewrite /qp_begin he.
have ep : k_preg (reset_params c s) = k_preg s by rewrite /reset_params; case: (cc_resetrho c).
have ed : k_dreg (reset_params c s) = k_dreg s by rewrite /reset_params; case: (cc_resetrho c).
have hsy : traj_sym (k_tr s) -> traj_sym (k_tr (reset_params c s)).
  move=> [h1 h2]; rewrite /reset_params; case: (cc_resetrho c); (split; last exact: h2) => nd /List.in_map_iff [m [<- hm]].
    by move: hm => /List.in_map_iff [m' [<- hm']]; exact: (h1 m' hm').
  exact: (h1 m hm).
have hd0 : hd_dx (run (k_tr (reset_params c s))) (trm (k_tr (reset_params c s))) = hd_dx (run (k_tr s)) (trm (k_tr s)).
  by rewrite /reset_params /reset_rho /apply_rho; case: (cc_resetrho c); cbn [k_tr set_k_tr run trm]; case: (run (k_tr s)).
rewrite ep ed; move: (reset_params c s) hsy hd0 {ep ed} => sr hsy hd0.
case e: (fst _) => // -[<-] hs d0.
have [ok pd sy so] := cw_direction e (hsy hs).
rewrite hd0 d0 in so.
rewrite /= -map_g_gsts; split; first exact: ric_kkt.
by move=> v nv; apply: ric_optimal.
Qed.
(** ... and on convex subproblems computing it does not raise. *)
Theorem C53_convex_guess_no_exception (s : csqp M) :
  traj_sym (k_tr s) -> traj_convex (k_tr s) -> 0 <= (k_preg s : F) -> reg_positive (k_dreg s) (k_tr s) ->
  qp_begin c s <> None.
Proof.
move=> hs cv p0 hr; rewrite /qp_begin; case: (cc_eqguess c) => //.
have ep : k_preg (reset_params c s) = k_preg s by rewrite /reset_params; case: (cc_resetrho c).
have ed : k_dreg (reset_params c s) = k_dreg s by rewrite /reset_params; case: (cc_resetrho c).
have hin : forall nd, List.In nd (run (k_tr (reset_params c s))) -> exists2 m, List.In m (run (k_tr s)) & exists a, nd = set_adm m a.
  move=> nd; rewrite /reset_params; case: (cc_resetrho c) => /List.in_map_iff [m [<- hm]].
    by move: hm => /List.in_map_iff [m' [<- hm']]; exists m' => //; eexists; reflexivity.
  by exists m => //; eexists; reflexivity.
have [ht1 ht2] : tnode_sym (trm (k_tr (reset_params c s))) /\ (forall x : 'cV[F]_n, 0 <= quad (tLxx (tder (trm (k_tr (reset_params c s)))) : 'M[F]_n) x).
  by rewrite /reset_params; case: (cc_resetrho c); (split; [case: hs|case: cv]).
rewrite ep ed; move: (reset_params c s) hin ht1 ht2 {ep ed} => sr hin ht1 ht2.
have -> : fst (cw_backward (k_preg s) (k_dreg s) (k_tr sr)) = true.
  apply: cw_convex => //.
  - by split=> // nd /hin [m hm [a ->]]; case: hs => h _; exact: (h m hm).
  - by split=> // nd /hin [m hm [a ->]]; case: cv => h _; exact: (h m hm).
  - case: hr => [h|[h1 h2]]; [by left|right; split=> // nd /hin [m hm [a ->]]; exact: (h2 m hm)].
by [].
Qed.
End P.
