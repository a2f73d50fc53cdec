(** * What a solve call of SolverSQP inherits from its direction computations:
    NaN guards (C07), and in exact arithmetic the KKT and optimality theorems of
    one direction (C01, C02) for every round of a solve and for the last check. *)
From Coq Require Import Ring Field ZArith PeanoNat SpecFloat.
Set Warnings "-notation-overridden,-ambiguous-paths".
From mathcomp Require Import all_ssreflect all_algebra.
From Verif Require Import FieldTac Eigen EigenFloat EigenExact ExactLemmas Problem DDP Filter SQP CSQP Init LQSpec SubQP
  Riccati PassExact SQPDir Models TrialSpec P_Direction TraceSpec Rounds SQPSpec SQPLoop History FloatWitness Retry.
Set Implicit Arguments.
Unset Strict Implicit.
Unset Printing Implicit Defensive.

(** ** C07: the guard of the backward pass (any arithmetic) *)
Section Guard.
Variable E : Eig.
Variable M : manifold E.

(** neither the max-norm of Vx nor the one of Vxx is NaN, infinite or >= 1e30 *)
Definition values_finite (t : traj M) : Prop :=
  forall nd, List.In nd (run t) ->
    raiseIfNaN (vlinf E (Vx (val nd))) = false /\ raiseIfNaN (mlinf E (Vxx (val nd))) = false.

Lemma bwd_node_guard p d feas (nd : node M) V v nd' : bwd_node p d feas nd V v = (true, nd') ->
  raiseIfNaN (vlinf E (Vx (val nd'))) = false /\ raiseIfNaN (mlinf E (Vxx (val nd'))) = false.
Proof.
rewrite /bwd_node; case: ifP => _; first by [].
by move=> [h <-] /=; case/norP: h => /negbTE -> /negbTE ->.
Qed.
Lemma bwd_nodes_guard p d feas (l : list (node M)) tn l' : bwd_nodes p d feas l tn = (true, l') ->
  forall nd, List.In nd l' ->
    raiseIfNaN (vlinf E (Vx (val nd))) = false /\ raiseIfNaN (mlinf E (Vxx (val nd))) = false.
Proof.
elim: l l' => [|a l IH] l' /=; first by move=> [<-].
case: (bwd_nodes p d feas l tn) IH => [b q] IH /=; case: b IH => IH //.
case e: (bwd_node _ _ _ _ _ _) => [b' a'] /= [eb <-] nd [<-|]; last exact: (IH q).
by apply: (bwd_node_guard (etrans e _)); rewrite eb.
Qed.
Lemma fwd_nodes_val d (l : list (node M)) tn xg ug nd :
  List.In nd (fwd_nodes d l tn xg ug).1.1 -> exists nd0, List.In nd0 l /\
    Vx (val nd) = Vx (val nd0) /\ Vxx (val nd) = Vxx (val nd0).
Proof.
elim: l d xg ug => [|a l IH] d xg ug //=.
case=> [<-|/IH [b [hb eb]]]; first by exists a; split; [left|].
by exists b; split; [right|].
Qed.
Lemma sqp_direction_guard x0 (c : scfg E) recalc (s s' : sqp M) :
  sqp_computeDirection x0 c recalc s = (true, s') -> values_finite (q_tr s').
Proof.
rewrite /sqp_computeDirection; set s1 := if recalc then _ else s.
case eb: (backwardPass _ _ _ _) => [b tr] /=; case: b eb => eb // [<-] nd /=.
move=> /fwd_nodes_val [nd0 [hin [-> ->]]].
move: eb; rewrite /backwardPass.
case en: (bwd_nodes _ _ _ _ _) => [b l] /= [hb et]; subst b tr.
exact: (bwd_nodes_guard en hin).
Qed.

(** C07 (SolverSQP).  Whenever solve returns true, and in every round that starts a
    line search, the max-norms of all Vx and Vxx of the certificate's backward pass
    are numbers: neither NaN, nor infinite, nor >= 1e30. *)
Theorem C07_sqp_values_guarded (l : list (slot M)) (t : tslot M) (resize : nat -> nat -> Prop) n (s : sqp M)
    x0 (c : scfg E) fuel xs us maxiter reg b s' :
  l <> nil -> sqp_hist l t resize n s ->
  sqp_solve x0 c fuel xs us maxiter reg s = Ret b s' ->
  exists rs last, sqp_run l x0 c xs us maxiter reg s rs last b s' /\
    (forall r, List.In r rs -> values_finite (r_tr r)) /\
    (b = true -> values_finite (q_tr s')).
Proof.
move=> l0 hist call; case: (sqp_solve_run l0 hist call) => rs [last [h _]]; exists rs, last; split=> //.
split=> [r hr|].
  by case: (run_dir h hr) => s1 [recalc [s2 [_ [_ [e [-> _]]]]]]; exact: sqp_direction_guard e.
case: last h => h; last by rewrite (run_result h).
by case: (run_last h erefl) => s1 [recalc [s2 [_ [_ [e [-> _]]]]]] _; exact: sqp_direction_guard e.
Qed.
End Guard.

(** ** C01, C02 for a whole solve (exact arithmetic) *)
Import Order.TTheory GRing.Theory Num.Theory.
Local Open Scope ring_scope.
Section Exact.
Variable F : realFieldType.
Variable sq : F -> F.
Notation E := (ExactE sq).
Variable M : manifold E.
Notation n := (mndx M).

(** the stored direction of [t] solves the regularised subproblem with weights
    [preg], [dreg], and is its only minimiser *)
Definition direction_optimal (preg dreg : F) (t : traj M) : Prop :=
  let stages := sqp_stages false preg dreg (run t) (trm t) in
  let e := sqp_final preg (trm t) in
  lq_kkt 0 stages e /\
  forall v : controls stages, v <> own_controls stages -> lq_value 0 e (own_controls stages) < lq_value 0 e v.

Lemma direction_is_optimal x0 (c : scfg E) recalc (s s' : sqp M) :
  sqp_computeDirection x0 c recalc s = (true, s') -> traj_sym (q_tr s') ->
  hd_dx (run (q_tr s')) (trm (q_tr s')) = vzero E ->
  direction_optimal (q_preg s) (q_dreg s) (q_tr s').
Proof.
move=> e sy; have := sqp_direction_hd_dx x0 c recalc s; rewrite e /= => -> d0; split.
  by case: (C01_sqp_direction_kkt e sy d0).
exact: C02_sqp_direction_unique_minimiser e sy d0.
Qed.

(** C01/C02 through solve: in every round of every solve of every history, and at
    the check that returns true, the stored direction and multipliers are the unique
    optimum of the subproblem built from the stored derivatives and gaps, for a
    regularisation value (equal for states and controls) reached from the initial one
    by increases and decreases. *)
Theorem C01_C02_sqp_every_round (l : list (slot M)) (t : tslot M) (resize : nat -> nat -> Prop) k (s : sqp M)
    x0 (c : scfg E) fuel xs us maxiter reg b s' :
  l <> nil -> sqp_hist l t resize k s ->
  sqp_solve x0 c fuel xs us maxiter reg s = Ret b s' ->
  exists rs last, sqp_run l x0 c xs us maxiter reg s rs last b s' /\
    (forall r, List.In r rs -> traj_sym (r_tr r) -> exists p,
       reg_reach (sc_ddp c) (init_reg (sc_ddp c) reg) p /\ direction_optimal p p (r_tr r)) /\
    (b = true -> traj_sym (q_tr s') -> exists p,
       reg_reach (sc_ddp c) (init_reg (sc_ddp c) reg) p /\ direction_optimal p p (q_tr s')).
Proof.
move=> l0 hist call; case: (sqp_solve_run l0 hist call) => rs [last [h _]]; exists rs, last; split=> //.
split=> [r hr|].
  case: (run_dir h hr) => s1 [recalc [s2 [h1 [h2 [e [-> d0]]]]]] sy.
  by exists (q_preg s1); split=> //; rewrite -[in X in direction_optimal _ X]h2; exact: direction_is_optimal e sy d0.
case: last h => h; last by rewrite (run_result h).
case: (run_last h erefl) => s1 [recalc [s2 [h1 [h2 [e [-> d0]]]]]] _ sy.
by exists (q_preg s1); split=> //; rewrite -[in X in direction_optimal _ X]h2; exact: direction_is_optimal e sy d0.
Qed.

(** ** C17 *)
(** the parameters as the setters allow them *)
Definition reg_params (c : cfg E) : Prop :=
  1 <= (c_inc c : F) /\ 1 <= (c_dec c : F) /\ 0 <= (c_rmin c : F) /\ (c_rmin c : F) <= c_rmax c.
Lemma reg_reach_range (c : cfg E) (p q : F) : reg_params c -> (c_rmin c : F) <= p <= c_rmax c ->
  reg_reach c p q -> (c_rmin c : F) <= q <= c_rmax c.
Proof.
move=> [hi [hd [h0 hm]]] hp; elim=> [|z _ /andP [h1 h2]|z _ /andP [h1 h2]] //.
  rewrite /inc_reg -[rgt _ _]/((c_rmax c : F) < (z : F) * c_inc c); case: ltP => h; first by rewrite hm lexx.
  rewrite h andbT; apply: (le_trans (h1)); rewrite -[X in (X <= _)%R]mulr1.
  by apply: ler_wpmul2l hi; apply: le_trans h0 h1.
rewrite /dec_reg -[rlt _ _ _]/((z : F) / c_dec c < (c_rmin c : F)); case: ltP => h; first by rewrite lexx hm.
rewrite h /=; apply: le_trans _ h2; rewrite ler_pdivr_mulr ?(lt_le_trans ltr01) //.
rewrite -[X in (X <= _)%R]mulr1; apply: ler_wpmul2l hd; exact: le_trans h0 h1.
Qed.
(** C17.  If the initial regularisation is in [reg_min, reg_max], so is the one of
    every direction computed by the solve and the one it leaves behind; primal and
    dual regularisation are equal. *)
Theorem C17_sqp_regularisation_range (l : list (slot M)) (t : tslot M) (resize : nat -> nat -> Prop) k (s : sqp M)
    x0 (c : scfg E) fuel xs us maxiter reg b s' :
  l <> nil -> sqp_hist l t resize k s ->
  sqp_solve x0 c fuel xs us maxiter reg s = Ret b s' ->
  reg_params (sc_ddp c) ->
  (c_rmin (sc_ddp c) : F) <= init_reg (sc_ddp c) reg <= c_rmax (sc_ddp c) ->
  let ok (p q : R E) := p = q /\ (c_rmin (sc_ddp c) : F) <= p <= c_rmax (sc_ddp c) in
  ok (q_preg s') (q_dreg s') /\
  exists rs last, sqp_run l x0 c xs us maxiter reg s rs last b s' /\
    forall r, List.In r rs -> exists s1 recalc s2, ok (q_preg s1) (q_dreg s1) /\
      sqp_computeDirection x0 c recalc s1 = (true, s2) /\ r_tr r = q_tr s2.
Proof.
move=> l0 hist call hp hi ok; case: (sqp_solve_run l0 hist call) => rs [last [h _]].
split; first by case: (run_reg h) => h1 h2; split=> //; exact: reg_reach_range h1.
exists rs, last; split=> // r hr; case: (run_dir h hr) => s1 [recalc [s2 [h1 [h2 [e [e2 _]]]]]].
by exists s1, recalc, s2; split=> //; split=> //; exact: reg_reach_range h1.
Qed.
(** C17 for SolverCSQP (with remove_reg the regularisation is 0 throughout) *)
Theorem C17_csqp_regularisation_range x0 (c : ccfg E) timeout fuel xs us maxiter reg (s : csqp M) b s' :
  csqp_solve c timeout x0 fuel xs us maxiter reg s = Ret b s' ->
  reg_params (cc_ddp c) -> cc_removereg c = false ->
  (c_rmin (cc_ddp c) : F) <= init_reg (cc_ddp c) reg <= c_rmax (cc_ddp c) ->
  k_dreg s' = k_preg s' /\ (c_rmin (cc_ddp c) : F) <= k_preg s' <= c_rmax (cc_ddp c).
Proof.
move=> call hp er hi.
apply: (@csqp_solve_regs _ _ c timeout (fun p : R E => (c_rmin (cc_ddp c) : F) <= p <= c_rmax (cc_ddp c)) _
  x0 fuel xs us maxiter reg s b s' _ call); last by rewrite er.
move=> p h; split; apply: (@reg_reach_range _ (p : F)) => //; [apply: reach_inc|apply: reach_dec]; exact: reach_start.
Qed.
End Exact.

(** ** C07 fails for SolverCSQP (binary64) *)
Definition nanm : amodel F1 :=
  @mkAmodel FloatE F1 1 0 0 (vec FloatE 1 * vec FloatE 1)%type
    (fun x u => (x, u)) (fun x => (x, v1 f0))
    (fun w => f0) (fun w => fst w) (fun _ => tt)
    (fun w _ _ => @mkDerivs FloatE F1 1 0 (v1 fnan) (v1 fnan)
                    (m1 f0) (m1 f0) (m1 (FloatWitness.z 1)) (m1 (FloatWitness.z 1)) (m1 f0) tt tt)
    tt tt.
Definition nans : slot F1 :=
  @mkSlot FloatE F1 nanm (v1 f0, v1 f0) (adiff nanm (v1 f0, v1 f0) (v1 f0) (v1 f0)) tt tt.
Definition zterm0 : tlq FloatE 1 0 := @mkTlq FloatE 1 0 (m1 f0) (v1 f0) tt tt tt tt.
Notation nan_run :=
  (csqp_solve (M := F1) (default_ccfg FloatE 0 false) (fun _ => false) (v1 f0) 3 nil nil 10 None
    (new_csqp (M := F1) (v1 f0) (cons nans nil) (tslot_of zterm0) 1 (flit 1 10))).
Definition nan_state : csqp F1 := state (new_csqp (M := F1) (v1 f0) nil (tslot_of zterm0) 1 f0) nan_run.
Notation nan_sqp_run :=
  (sqp_solve (M := F1) (v1 f0) (default_scfg FloatE 0) 30 nil nil 10 None
    (new_sqp (M := F1) (v1 f0) (cons nans nil) (tslot_of zterm0) 1)).
Definition nan_sqp_state : sqp F1 := state (new_sqp (M := F1) (v1 f0) nil (tslot_of zterm0) 1) nan_sqp_run.

(** C07, negative part: the cost gradient with respect to the state and to the
    control is NaN everywhere, and SolverCSQP::solve with every parameter at its
    default returns true with get_KKT() = 0, while SolverSQP returns false. *)
Theorem C07_csqp_certifies_nan :
  exists (l : list (slot F1)) (t : tslot F1) (s' : csqp F1) (q' : sqp F1),
    csqp_solve (M := F1) (default_ccfg FloatE 0 false) (fun _ => false) (v1 f0) 3 nil nil 10 None
      (new_csqp (M := F1) (v1 f0) l t 1 (flit 1 10)) = Ret true s' /\
    k_kkt s' = f0 /\
    (forall sl x u, List.In sl l ->
        match Lx (adiff (sl_m sl) (acalc (sl_m sl) x u) x u) return Prop with (a, _) => a = fnan end) /\
    sqp_solve (M := F1) (v1 f0) (default_scfg FloatE 0) 30 nil nil 10 None
      (new_sqp (M := F1) (v1 f0) l t 1) = Ret false q'.
Proof.
exists (cons nans nil), (tslot_of zterm0), nan_state, nan_sqp_state.
split; [apply: (@result_state _ (new_csqp (M := F1) (v1 f0) nil (tslot_of zterm0) 1 f0) nan_run); vm_compute; reflexivity|].
split; [vm_compute; reflexivity|].
split.
  move=> sl x u hin; have e : nans = sl by case: hin.
  by move: x u {hin}; case: sl / e.
apply: (@result_state _ (new_sqp (M := F1) (v1 f0) nil (tslot_of zterm0) 1) nan_sqp_run); vm_compute; reflexivity.
Qed.

Print Assumptions C07_sqp_values_guarded.
Print Assumptions C01_C02_sqp_every_round.
Print Assumptions C07_csqp_certifies_nan.
