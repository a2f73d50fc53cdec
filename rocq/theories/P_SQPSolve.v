(** * Theorems about SolverSQP::solve for every history of API calls (any
    arithmetic unless stated otherwise).

    In every theorem the solver object [s] is reached by an arbitrary history
    ([sqp_hist]) of public calls on a problem with at least one running node. *)
From Coq Require Import ZArith List Bool Arith Lia ssreflect SpecFloat.
From Verif Require Import Eigen EigenFloat Problem DDP Filter FilterProofs SQP CSQP Init Models TrialSpec TraceSpec
  Rounds SQPSpec SQPTrial SQPLoop History FloatWitness.
Import ListNotations.
Set Implicit Arguments.
Unset Strict Implicit.
Set Asymmetric Patterns.

Section Thms.
Variable E : Eig.
Variable M : manifold E.
Variables (l : list (slot M)) (t : tslot M).
Variable resize : nat -> nat -> Prop.
Hypothesis Tpos : l <> [].
Variables (n : nat) (s : sqp M).
Hypothesis hist : sqp_hist l t resize n s.
(** the call *)
Variables (x0 : mX M) (c : scfg E) (fuel : nat) (xs : list (mX M)) (us : list {k : nat & vec E k})
  (maxiter : nat) (reg : option (R E)) (b : bool) (s' : sqp M).
Hypothesis call : sqp_solve x0 c fuel xs us maxiter reg s = Ret b s'.
Notation ncb := (c_ncb (sc_ddp c)).

(** C10: the first state of the returned trajectory is the problem's x0 *)
Theorem C10_sqp_initial_state_pinned : zero_ok (c_alphas (sc_ddp c)) x0 -> hd_error (get_xs (q_tr s')) = Some x0.
Proof. case: (sqp_solve_run Tpos hist call) => rs [last [h _]]. exact: run_x0 h. Qed.

(** C18: at most [maxiter] line searches; at most [maxiter] rounds of callbacks, one
    more only with the extra KKT iteration; get_iter() <= maxiter; nothing happens
    for maxiter = 0 *)
Theorem C18_sqp_iteration_budget :
  exists rs last, sqp_run l x0 c xs us maxiter reg s rs last b s' /\
    length rs <= maxiter /\
    length rs + (if last then 1 else 0) <= maxiter + (if sc_extra c then 1 else 0) /\
    q_iter s' <= maxiter /\
    (maxiter = 0 -> get_xs (q_tr s') = pinned_guess x0 (length l) xs /\ get_us (q_tr s') = control_guess l us /\
                    (sc_extra c = false -> b = false /\ q_log s' = q_log s)).
Proof.
  case: (sqp_solve_run Tpos hist call) => rs [last [h _]]. exists rs, last. split => //.
  case: (run_budget h) => h1 h2. have h3 := run_iter h.
  split => //. split; [|split; [lia|]].
  - case: last h2 {h} => h2; last by case: (sc_extra c); lia.
    case: (h2 (Logic.eq_refl _)) => [|->]; [case: (sc_extra c)|]; lia.
  - move=> k0. have e : rs = [] by case: (rs) h1 => //= ? ? ; lia.
    subst rs. case: (run_iterates h) => -> ->. do 2 split => //.
    move=> he. case: last h2 h => h2 h; first by case: (h2 (Logic.eq_refl _)); rewrite /= ?he; [lia|].
    split; first exact: (run_result h).
    have := run_trace h. rewrite /= app_nil_r => /(f_equal (@rev _)). by rewrite !rev_involutive.
Qed.

(** C19: the trace is: for each round i = 0,1,..., the callbacks in registration
    order with iteration number i, then the line search of that round; then
    possibly a last round of callbacks.  The solver goes on exactly when the
    residual shown to the callbacks exceeds the tolerance, and returns true only
    after callbacks that were shown a residual <= tolerance. *)
Theorem C19_sqp_callback_protocol :
  exists (rs : list (round M)) last,
    rev (q_log s') = rev (q_log s) ++ rounds_trace ncb 0 rs ++
      (if last then callback_trace ncb (length rs) (q_kkt s') (q_cost s') (q_merit s') (q_step s') else []) /\
    (forall r, In r rs -> rle E (r_kkt r) (c_tol (sc_ddp c)) = false) /\
    b = last && rle E (q_kkt s') (c_tol (sc_ddp c)).
Proof.
  case: (sqp_solve_run Tpos hist call) => rs [last [h _]]. exists rs, last.
  split; [exact: run_trace h|]. split; first by move=> r /(run_kkt h) [].
  have := run_result h. case: last {h} => // [[-> _]]. by [].
Qed.

(** C13/C14: every round takes the first step length (in get_alphas() order) that
    is admissible for the configured rule, and moves to exactly that trial; the
    iterates go from the pinned guess to the returned trajectory.  With the filter
    rule, the sizes in the history must be grow-only (see C15). *)
Theorem C13_C14_sqp_line_search :
  sc_fsize c = n -> (forall m m', resize m m' -> m <= m') \/ sc_filter c = false ->
  exists rs last, sqp_run l x0 c xs us maxiter reg s rs last b s' /\ rounds_searched (sqp_rule c) rs.
Proof.
  move=> hn hg. case: (sqp_solve_run Tpos hist call) => rs [last [h hs]]. exists rs, last. split => //.
  apply: hs => hf. case: hg => [hg|]; last by rewrite hf.
  rewrite /bufs hn. exact: hist_bufs hist.
Qed.
(** merit rule spelled out *)
Theorem C13_sqp_merit_decrease : sc_filter c = false ->
  exists rs last, sqp_run l x0 c xs us maxiter reg s rs last b s' /\
    forall r a, In r rs -> r_acc r = Some a ->
      a_cost a = trial_cost (a_step a) (r_tr r) /\ a_gap a = trial_gap (a_step a) (r_tr r) /\
      a_merit a = radd E (a_cost a) (rmul E (sc_mu c) (a_gap a)) /\
      rlt E (a_merit a) (radd E (r_cost r) (rmul E (sc_mu c) (r_gap r))) = true /\
      exists pre post, c_alphas (sc_ddp c) = pre ++ a_step a :: post /\
        forall d, In d pre -> trial_ok d (r_tr r) = false \/
          rlt E (radd E (trial_cost d (r_tr r)) (rmul E (sc_mu c) (trial_gap d (r_tr r)))) (r_merit r) = false.
Proof.
  move=> hf. case: (sqp_solve_run Tpos hist call) => rs [last [h hs]]. exists rs, last. split => //.
  move=> r a hin ha. case: (In_nth_error _ _ hin) => i hi.
  have := hs ltac:(by rewrite hf) i r hi. rewrite ha. case ef: (find _ _) => [st|] //= [->] /=.
  do 3 split => //. case: (run_values h hin) => _ [_ [hm _]]. rewrite -hm.
  case: (find_some _ _ ef) => hst. rewrite /admissible /= hf => /andb_prop [_ hlt]. split => //.
  move: ef {hst hlt}. change (ls_alphas (sqp_rule c)) with (c_alphas (sc_ddp c)). elim: (c_alphas _) => [|d als ih] //=.
  case ed: (admissible _ _ _ d).
  - move=> [<-]. exists [], als. by split.
  - move=> /ih [pre [post [-> hp]]]. exists (d :: pre), post. split => //. move=> d' [e|]; last exact: hp. subst d'.
    move: ed. rewrite /admissible /= hf. case: (trial_ok d (r_tr r)) => /= hd; [by right|by left].
Qed.
(** filter rule spelled out *)
Theorem C14_sqp_filter_undominated : sc_filter c = true ->
  sc_fsize c = n -> (forall m m', resize m m' -> m <= m') ->
  exists rs last, sqp_run l x0 c xs us maxiter reg s rs last b s' /\
    forall i r a, nth_error rs i = Some r -> r_acc r = Some a ->
      a_cost a = trial_cost (a_step a) (r_tr r) /\ a_gap a = trial_gap (a_step a) (r_tr r) /\
      (forall j rj, nth_error rs j = Some rj -> j <= i < j + n ->
         rle E (r_cost rj) (a_cost a) && rle E (r_gap rj) (a_gap a) = false) /\
      exists pre post, c_alphas (sc_ddp c) = pre ++ a_step a :: post /\
        forall d, In d pre -> trial_ok d (r_tr r) = false \/
          exists j rj, nth_error rs j = Some rj /\ j <= i < j + n /\
            rle E (r_cost rj) (trial_cost d (r_tr r)) && rle E (r_gap rj) (trial_gap d (r_tr r)) = true.
Proof.
  move=> hf hn hg. case: (C13_C14_sqp_line_search hn (or_introl hg)) => rs [last [h hs]].
  exists rs, last. split => // i r a hi ha.
  have hil : i < length rs by apply/nth_error_Some; rewrite hi.
  have hpre : firstn i rs ++ [r] = firstn (S i) rs.
  { move: hi. clear. elim: rs i => [|r1 rs ih] [|i] //=; [by move=> [->]|]. move=> /ih. by rewrite /= => ->. }
  have hrec : forall j rj, nth_error rs j = Some rj -> j <= i < j + n -> In rj (recent n (firstn i rs ++ [r])).
  { move=> j rj hj hji. rewrite hpre /recent.
    have hlen : length (firstn (S i) rs) = S i by rewrite firstn_length; lia.
    have hj' : nth_error (firstn (S i) rs) j = Some rj.
    { have : nth_error (firstn (S i) rs ++ skipn (S i) rs) j = Some rj by rewrite firstn_skipn.
      rewrite nth_error_app1 //. lia. }
    apply: (@nth_error_In _ _ (i - j)).
    have := nth_rev' hj'. rewrite hlen. move=> hr.
    have : nth_error (firstn n (rev (firstn (S i) rs)) ++ skipn n (rev (firstn (S i) rs))) (i - j) = Some rj.
    { rewrite firstn_skipn -hr. congr nth_error. lia. }
    rewrite nth_error_app1 //. rewrite firstn_length rev_length hlen. lia. }
  have hrec' : forall rj, In rj (recent n (firstn i rs ++ [r])) ->
     exists j, nth_error rs j = Some rj /\ j <= i < j + n.
  { move=> rj. rewrite hpre /recent => hin. case: (In_nth_error _ _ hin) => k hk.
    have hkn : k < n /\ k < S i /\ nth_error (rev (firstn (S i) rs)) k = Some rj.
    { have hk1 : k < length (firstn n (rev (firstn (S i) rs))) by apply/nth_error_Some; rewrite hk.
      rewrite firstn_length rev_length firstn_length in hk1. split; [lia|]. split; [lia|].
      rewrite -(firstn_skipn n (rev (firstn (S i) rs))) nth_error_app1 //.
      rewrite firstn_length rev_length firstn_length. lia. }
    case: hkn => h1 [h2 h3]. exists (i - k). split; [|lia].
    have := nth_rev' h3. rewrite rev_involutive rev_length firstn_length.
    replace (Nat.min (S i) (length rs) - 1 - k) with (i - k) by lia. move=> h4.
    rewrite -(firstn_skipn (S i) rs) nth_error_app1 //. rewrite firstn_length. lia. }
  have := hs i r hi. rewrite ha. case ef: (find _ _) => [st|] //= [->] /=. do 2 split => //.
  case: (find_some _ _ ef) => hst. rewrite /admissible /= hf hn => /andb_prop [_ hlt]. split.
  - move=> j rj hj hji. move/negb_true_iff: hlt => hlt.
    case e: (rle E _ _ && _) => //. exfalso.
    have : existsb (dominates (sqp_rule c) (trial_of (sqp_rule c) (r_tr r) st)) (recent n (firstn i rs ++ [r])) = true.
    { apply/existsb_exists. exists rj. split; first exact: hrec hj hji. by rewrite /dominates /= e. }
    by rewrite hlt.
  - move: ef {hst hlt}. change (ls_alphas (sqp_rule c)) with (c_alphas (sc_ddp c)). elim: (c_alphas _) => [|d als ih] //=.
    case ed: (admissible _ _ _ d).
    + move=> [<-]. exists [], als. by split.
    + move=> /ih [pre [post [-> hp]]]. exists (d :: pre), post. split => //. move=> d' [e|]; last exact: hp. subst d'.
      move: ed. rewrite /admissible /= hf hn. case: (trial_ok d (r_tr r)) => /=; last by left.
      move=> /negb_false_iff /existsb_exists [rj [hin hd]]. right.
      case: (hrec' rj hin) => j [h1 h2]. exists j, rj. do 2 split => //.
      move: hd. by rewrite /dominates /= andb_true_r.
Qed.
(** C21: every accepted trial evaluates to a cost that is not NaN, not infinite and
    below 1e30, at every node *)
Theorem C21_sqp_accepted_cost_finite :
  sc_fsize c = n -> (forall m m', resize m m' -> m <= m') \/ sc_filter c = false ->
  exists rs last, sqp_run l x0 c xs us maxiter reg s rs last b s' /\
    forall r a, In r rs -> r_acc r = Some a ->
      step_in_range (a_step a) = true /\ a_cost a = trial_cost (a_step a) (r_tr r) /\
      raiseIfNaN (a_cost a) = false /\
      forall pre nd post, run (r_tr r) = pre ++ nd :: post ->
        raiseIfNaN (trial_rcost (a_step a) (pre ++ [nd])) = false.
Proof.
  move=> hn hg. case: (C13_C14_sqp_line_search hn hg) => rs [last [h hs]]. exists rs, last. split => //.
  move=> r a hin ha. case: (In_nth_error _ _ hin) => i hi.
  have := hs i r hi. rewrite ha. case ef: (find _ _) => [st|] //= [->] /=.
  case: (find_some _ _ ef) => _. rewrite /admissible => /andb_prop [hok _].
  move: hok. rewrite /trial_ok => /andb_prop [/andb_prop [h1 h2] /negb_true_iff h3].
  do 3 split => //. move=> pre nd post e. move: h2. rewrite e /trial_rcost. clear.
  move: (r0 E). elim: pre => [|m pre ih] z /=.
  - by move=> /andb_prop [/negb_true_iff].
  - by move=> /andb_prop [_ /ih].
Qed.

(** C22: the cost and gap norm at the start of the next round are those of the
    accepted trial *)
Theorem C22_sqp_values_carried : zero_ok (c_alphas (sc_ddp c)) x0 ->
  exists rs last, sqp_run l x0 c xs us maxiter reg s rs last b s' /\ values_carried rs.
Proof.
  move=> hz. case: (sqp_solve_run Tpos hist call) => rs [last [h hs]]. exists rs, last. split => //.
  exact: run_carried h hz.
Qed.

(** C08: if solve returns true and its last round (if any) accepted a trial, the
    KKT residual re-evaluated from fresh model evaluations at the returned
    trajectory, with the returned multipliers, is <= tolerance.  (Without the
    condition on the last round this is false: C08_sqp_stale_certificate.) *)
Theorem C08_sqp_true_means_kkt : b = true ->
  exists rs, sqp_run l x0 c xs us maxiter reg s rs true true s' /\
    (evaluated_at rs (length rs) ->
       reeval x0 (q_tr s') = q_tr s' /\
       rle E (kkt_residual (reeval x0 (q_tr s'))) (c_tol (sc_ddp c)) = true).
Proof.
  move=> hb. case: (sqp_solve_run Tpos hist call) => rs [last [h hs]]. exists rs.
  have hr := run_result h. rewrite hb in h hr. case: last h hr => h hr //.
  split => //. case: hr => h1 [h2 [_ h3]] he. rewrite (h3 he). split => //. by rewrite -h2 -h1.
Qed.
End Thms.

Section Safe.
Variable E : Eig.
Variable M : manifold E.
(** C14, safety: with grow-only sizes (or the merit rule) solve never reads outside
    the filter memory, whatever happened before; an exception only escapes for a
    guess of the wrong size, and then nothing changed *)
Theorem C14_sqp_solve_safe (l : list (slot M)) t resize n s x0 c fuel xs us k reg :
  l <> [] -> sqp_hist l t resize n s -> sc_fsize c = n ->
  (forall m m', resize m m' -> m <= m') \/ sc_filter c = false ->
  match sqp_solve x0 c fuel xs us k reg s with
  | UB => False
  | Exc s' => s' = s /\ set_guess xs us (q_tr s) = None
  | _ => True
  end.
Proof. move=> h1 h2 h3 h4. exact: (sqp_solve_safe h1 x0 fuel xs us k reg h2 h3 h4). Qed.

(** C50: tryStep raises for every step length outside [0,1] and changes nothing;
    in range it never changes candidate, cost, gaps, multipliers or direction *)
Theorem C50_sqp_step_out_of_range (c : scfg E) (a : R E) (s : sqp M) :
  rlt E (r1 E) a || rlt E a (r0 E) = true -> sqp_tryStep c a s = TThrow s.
Proof. move=> h. by rewrite /sqp_tryStep /rgt h. Qed.
Theorem C50_sqp_step_in_range_frame (c : scfg E) (a : R E) (s s' : sqp M) :
  run (q_tr s) <> [] ->
  sqp_tryStep c a s = TOk s' \/ sqp_tryStep c a s = TThrow s' ->
  get_xs (q_tr s') = get_xs (q_tr s) /\ get_us (q_tr s') = get_us (q_tr s) /\
  map (fun n => lam (dir n)) (run (q_tr s')) = map (fun n => lam (dir n)) (run (q_tr s)) /\
  tlam (trm (q_tr s')) = tlam (trm (q_tr s)) /\
  q_cost s' = q_cost s /\ q_merit s' = q_merit s /\ q_gap s' = q_gap s /\ q_kkt s' = q_kkt s.
Proof.
  move=> hr ht. have hf : ls_frame s s'.
  { have := @tryStepP E M c a s hr. case: ht => ->; by [move=> [_ [h _]]|move=> [_ [h _]]]. }
  case: hf => ht1 [_ [_ [h1 [h2 [h3 [_ [_ [h4 _]]]]]]]].
  split; [exact: get_xs_t|]. split; [exact: get_us_t|]. split; [|split; [|by split]].
  - case: ht1 => h _. elim: h => [|x y ? ? hxy _ ih] //=. rewrite ih. case: hxy => [? [? [? [_ ->]]]]. by [].
  - case: ht1 => _ [? [? ->]]. by [].
Qed.
End Safe.

(** Non-vacuity: FloatWitness.run1_hist / run1_result / run1_zero_ok (filter rule,
    fresh object, one accepted round, returns true) and run2_hist / run2_result
    (merit rule, object with a history) are concrete instances. *)
Print Assumptions C10_sqp_initial_state_pinned.
Print Assumptions C18_sqp_iteration_budget.
Print Assumptions C19_sqp_callback_protocol.
Print Assumptions C13_C14_sqp_line_search.
Print Assumptions C13_sqp_merit_decrease.
Print Assumptions C14_sqp_filter_undominated.
Print Assumptions C21_sqp_accepted_cost_finite.
Print Assumptions C22_sqp_values_carried.
Print Assumptions C08_sqp_true_means_kkt.
Print Assumptions C14_sqp_solve_safe.
Print Assumptions C50_sqp_step_out_of_range.
Print Assumptions C50_sqp_step_in_range_frame.
