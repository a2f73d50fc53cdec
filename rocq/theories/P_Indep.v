(** * C39: a call of SolverSQP::solve is not influenced by what the object did before. *)
From Coq Require Import ZArith List Bool Arith Lia ssreflect.
From Verif Require Import Eigen EigenFloat EigenExact Problem DDP Filter FilterProofs SQP CSQP Init TrialSpec TraceSpec
  SQPSpec SQPLoop History FloatWitness FastPass ADMMExact P_ADMM Indep IndepTerm.
Import ListNotations.
Set Implicit Arguments.
Unset Strict Implicit.
Set Asymmetric Patterns.

Section Indep39.
Variable E : Eig.
Variable M : manifold E.
Notation X := (mX M).

(** what the caller can see of the multipliers *)
Definition multipliers (s : sqp M) : list (vec E (mndx M)) :=
  map (fun n => lam (dir n)) (run (q_tr s)) ++ [tlam (trm (q_tr s))].
(** the events that a call added to the trace (the trace is kept newest first) *)
Definition trace_of_call (s s' : sqp M) (w : list (event E)) : Prop := q_log s' = w ++ q_log s.

(** The two objects [s1] and [s2] have the same models and filter size, but arbitrary
    pasts.  A call with the same arguments and parameters gives the same outcome, and
    everything it leaves behind or prints is the same, except the step length printed
    by the callbacks of iteration 0. *)
Definition same_call (s1 s2 : sqp M) (o1 o2 : outcome (sqp M)) : Prop :=
  match o1, o2 with
  | Ret b1 r1, Ret b2 r2 =>
      b1 = b2 /\ get_xs (q_tr r1) = get_xs (q_tr r2) /\ get_us (q_tr r1) = get_us (q_tr r2) /\
      q_iter r1 = q_iter r2 /\ q_preg r1 = q_preg r2 /\
      (exists w1 w2, trace_of_call s1 r1 w1 /\ trace_of_call s2 r2 w2 /\ Forall2 (@evrel E) w1 w2) /\
      (b1 = true -> q_kkt r1 = q_kkt r2 /\ q_cost r1 = q_cost r2 /\ multipliers r1 = multipliers r2)
  | Exc r1, Exc r2 => r1 = s1 /\ r2 = s2
  | NoFuel, NoFuel => True
  | _, _ => False
  end.

Theorem C39_sqp_solve_forgets_the_past (l : list (slot M)) (t : tslot M) (resize : nat -> nat -> Prop) n s1 s2
    x0 c fuel xs us maxiter reg :
  vec0_unique E -> l <> [] -> (forall m m', resize m m' -> m <= m') ->
  c_alphas (sc_ddp c) <> [] -> sc_fsize c = n ->
  sqp_hist l t resize n s1 -> sqp_hist l t resize n s2 ->
  same_call s1 s2 (sqp_solve x0 c fuel xs us maxiter reg s1) (sqp_solve x0 c fuel xs us maxiter reg s2).
Proof.
  move=> u0 hl hg ha hn h1 h2.
  have v0 : forall v w : vec E 0, v = w by move=> v w; exact: u0.
  case: (hist_basic hl h1) => m1 d1. case: (hist_basic hl h2) => m2 d2.
  case: (hist_bufs hl hg h1) => b1 b1'. case: (hist_bufs hl hg h2) => b2 b2'.
  have hgr := @set_guess_rel E M (q_tr s1) (q_tr s2) xs us.
  move: hgr => /(_ (eq_trans m1 (eq_sym m2))) /(_ (eq_trans (hist_tm h1) (eq_sym (hist_tm h2)))).
  move=> /(_ (eq_trans d1 (eq_sym d2))).
  have sf1 := sqp_solve_safe hl x0 fuel xs us maxiter reg h1 hn (or_introl hg).
  rewrite /same_call. move: sf1. rewrite /sqp_solve.
  case: (set_guess xs us (q_tr s1)) => [t1|]; case: (set_guess xs us (q_tr s2)) => [t2|] // sf1 hj.
  have hj' := pin_rel x0 hj. move: sf1.
  set a1 := set_q_iter 0 _. set a2 := set_q_iter 0 (set_q_dreg _ (set_q_preg _ (set_q_tr _ s2))).
  have hc : ctl c (q_log s1) (q_log s2) (q_iter a1) a1 a2.
  { split => //=; [by left| |].
    - by exists [], []; split => //; split => //; constructor.
    - exists [], []. rewrite hn. by split => //; split => //; split => //. }
  have := loop_rel v0 x0 ha fuel maxiter hc hj'.
  case: (sqp_loop x0 c fuel maxiter a1) => [v1 r1|r1||]; case: (sqp_loop x0 c fuel maxiter a2) => [v2 r2|r2||] //.
  move=> [e1 [[j k1] [k2 k3]]] _. case: (get_rel k2) => x1 x2. case: k1 => g1 g2 g3 g4 g5 g6.
  do 5 (split => //). split => // hb. case: (k3 hb) => k4 [-> ->]. split => //. split => //.
  rewrite /multipliers. case: k4 => q1 [q2 _]. congr (_ ++ _).
  - elim: q1 => [|n1 n2 ? ? hh _ ih] //=. rewrite ih. f_equal. move: hh; clear.
    case=> m p1 p2 me1 me2 d1 d2 f1 f2 w1 w2 e1 e2 a1 a2 ? ? ? ? ? ? h5 ?; cbn. rewrite h5 //.
  - f_equal. move: q2; clear.
    case=> m x xt1 xt2 me1 me2 d1 d2 f1 f2 A1 A2 w1 w2 dx1 dx2 l1 l2 dt1 dt2 z1 z2 zp1 zp2 zr1 zr2 y1 y2 ra rb i1 i2
      ? ? ? ? h5 ?; cbn. by case: (h5 (le_n 5)).
Qed.
End Indep39.

(** A fresh object and one that has already solved another problem satisfy the
    hypotheses, for binary64 and an actual run (FloatWitness.v). *)
Example C39_nonvacuous : vec0_unique FloatE /\
  sqp_hist (M := F1) [slot_of fstage; slot_of fstage] (tslot_of fterm) le 1
    (new_sqp (M := F1) (v1 (z 1)) [slot_of fstage; slot_of fstage] (tslot_of fterm) 1) /\
  sqp_hist (M := F1) [slot_of fstage; slot_of fstage] (tslot_of fterm) le 1 done1 /\
  c_alphas (sc_ddp (default_scfg FloatE 1)) <> [] /\
  q_log done1 <> [].
Proof.
  split; [exact vec0_float|]. split; [exact run1_hist|]. split; [exact run2_hist|]. split; [discriminate|].
  intro H. assert (K : length (q_log done1) = 4) by (vm_compute; reflexivity).
  rewrite H in K. discriminate K.
Qed.
Print Assumptions C39_sqp_solve_forgets_the_past.
Print Assumptions C39_nonvacuous.
