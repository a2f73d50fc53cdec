(** * Theorems about SolverCSQP::solve for every history of API calls (any
    arithmetic, any clock unless stated otherwise).

    In every theorem the solver object [s] is reached by an arbitrary history
    ([csqp_hist]) of public calls. *)
From Coq Require Import ZArith List Bool Arith Lia ssreflect SpecFloat.
From Verif Require Import Eigen EigenFloat Problem DDP Filter FilterProofs SQP CSQP Init Models TrialSpec TraceSpec
  Rounds SQPSpec CSQPSpec SQPTrial SQPLoop History CSQPFrames CSQPTrial CSQPLoop CSQPHist CSQPClock FloatWitness.
Import ListNotations.
Set Implicit Arguments.
Unset Strict Implicit.
Set Asymmetric Patterns.

Section Thms.
Variable E : Eig.
Variable M : manifold E.
Variables (l : list (slot M)) (t : tslot M).
Variable resize : nat -> nat -> Prop.
Variables (n : nat) (s : csqp M).
Hypothesis hist : csqp_hist l t resize n s.
(** the call *)
Variables (x0 : mX M) (c : ccfg E) (timeout : nat -> bool) (fuel : nat) (xs : list (mX M))
  (us : list {k : nat & vec E k}) (maxiter : nat) (reg : option (R E)) (b : bool) (s' : csqp M).
Hypothesis call : csqp_solve c timeout x0 fuel xs us maxiter reg s = Ret b s'.
Notation ncb := (c_ncb (cc_ddp c)).
Notation csqp_run := (csqp_run l x0 c timeout xs us maxiter s).

(** C10: the first state of the returned trajectory is the problem's x0 *)
Theorem C10_csqp_initial_state_pinned : zero_ok (c_alphas (cc_ddp c)) x0 -> hd_error (get_xs (k_tr s')) = Some x0.
Proof. case: (csqp_solve_run hist call) => rs [last h]. exact: crun_x0 h. Qed.

(** C09: if solve returns true, the residual (stationarity with the returned
    multipliers, gaps, constraint violation) evaluated from fresh calls of calc and
    calcDiff at the returned trajectory is <= tolerance, and the cost reported is
    the cost there *)
Theorem C09_csqp_true_means_small_residual : b = true ->
  creeval (k_tr s') = k_tr s' /\
  rle E (ckkt_residual (stored_con (creeval (k_tr s'))) (creeval (k_tr s'))) (c_tol (cc_ddp c)) = true /\
  k_kkt s' = ckkt_residual (stored_con (creeval (k_tr s'))) (creeval (k_tr s')) /\
  k_cost s' = stored_cost (creeval (k_tr s')).
Proof.
  move=> hb. case: (csqp_solve_run hist call) => rs [last h]. have hr := crun_result h.
  rewrite hb in hr. case: last {h} hr => // [[h1 [h2 [h3 [h4 [h5 h6]]]]]].
  rewrite h3 -h6 -h2 -h1. by split.
Qed.

(** C18: budget *)
Theorem C18_csqp_iteration_budget :
  exists rs last, csqp_run rs last b s' /\
    length rs <= maxiter /\
    length rs + (if last then 1 else 0) <= maxiter + (if cc_extra c then 1 else 0) /\
    k_iter s' <= maxiter /\
    (maxiter = 0 -> get_xs (k_tr s') = pinned_guess x0 (length l) xs /\ get_us (k_tr s') = control_guess l us /\
                    (cc_extra c = false -> b = false /\ observed (k_log s') = observed (k_log s))).
Proof.
  case: (csqp_solve_run hist call) => rs [last h]. exists rs, last. split => //.
  case: (crun_budget h) => h1 h2. case: (crun_iter h) => h3 _.
  split => //. split; [|split; [lia|]].
  - case: last h2 {h} => h2; last by case: (cc_extra c); lia.
    case: (h2 (Logic.eq_refl _)) => [|->]; [case: (cc_extra c)|]; lia.
  - move=> k0. have e : rs = [] by case: (rs) h1 => //= ? ? ; lia.
    subst rs. case: (crun_iterates h) => -> ->. split => //. split => // he.
    have hl : last = false.
    { case: last h2 {h} => h2 //. by case: (h2 (Logic.eq_refl _)); rewrite /= ?he; [lia|]. }
    subst last. split; first exact: (crun_result h).
    have := crun_trace h. by rewrite /= app_nil_r.
Qed.

(** C19: the visible trace (callbacks and line searches) is: for each round i =
    0,1,..., the callbacks in registration order with iteration number i, then the
    line search of that round; then possibly a last round of callbacks with number
    get_iter().  The numbers are strictly increasing except that the extra
    iteration after a rejected line search repeats the number of that round. *)
Theorem C19_csqp_callback_protocol :
  exists (rs : list (round M)) last,
    observed (k_log s') = observed (k_log s) ++ rounds_trace ncb 0 rs ++
      (if last then callback_trace ncb (k_iter s') (k_kkt s') (k_cost s') (k_merit s') (k_step s') else []) /\
    (forall r, In r rs -> rle E (r_kkt r) (c_tol (cc_ddp c)) = false) /\
    b = last && rle E (k_kkt s') (c_tol (cc_ddp c)) /\
    (forall i r, nth_error rs i = Some r -> r_acc r = None -> S i = length rs) /\
    (last = true -> k_iter s' = length rs \/
      (cc_extra c = true /\ S (k_iter s') = length rs /\ exists r, nth_error rs (k_iter s') = Some r /\ r_acc r = None)).
Proof.
  case: (csqp_solve_run hist call) => rs [last h]. exists rs, last.
  split; [exact: crun_trace h|]. split; first by move=> r /(crun_kkt h) [].
  split; first by have := crun_result h; case: last {h} => // [[-> _]].
  split; [exact: crun_reject h|].
  move=> hl. case: (crun_iter h) => _ /(_ hl) [->|[h1 [r [h2 h3]]]]; [by left|right].
  split => //. split; [exact: crun_reject h _ _ h2 h3|]. by exists r.
Qed.

(** C13/C14: every round takes the first step length (in get_alphas() order) that
    is admissible for the configured rule, and moves to exactly that trial *)
Theorem C13_C14_csqp_line_search :
  cc_fsize c = n -> (forall m m', resize m m' -> m <= m') \/ cc_filter c = false ->
  exists rs last, csqp_run rs last b s' /\ rounds_searched (csqp_rule c) rs.
Proof.
  move=> hn hg. case: (csqp_solve_run hist call) => rs [last h]. exists rs, last. split => //.
  apply: crun_searched h _. case: hg => [hg|hg]; [|by left]. right. rewrite hn.
  case: (chist_bufs hg hist) => [[h1 [h2 _]] [[h3 [h4 _]] [h5 [h6 _]]]]. by do 5 split => //.
Qed.
(** merit rule spelled out (non-negative weights) *)
Theorem C13_csqp_merit_decrease : cc_filter c = false ->
  rlt E (cc_mu c) (r0 E) = false -> rlt E (cc_mucon c) (r0 E) = false ->
  exists rs last, csqp_run rs last b s' /\
    forall r a, In r rs -> r_acc r = Some a ->
      let merit co g k := radd E (radd E co (rmul E (cc_mu c) g)) (rmul E (cc_mucon c) k) in
      let merit_at d := merit (trial_cost d (r_tr r)) (trial_gap d (r_tr r)) (trial_con d (r_tr r)) in
      a_cost a = trial_cost (a_step a) (r_tr r) /\ a_gap a = trial_gap (a_step a) (r_tr r) /\
      a_con a = trial_con (a_step a) (r_tr r) /\
      rlt E (merit_at (a_step a)) (merit (r_cost r) (r_gap r) (r_con r)) = true /\
      exists pre post, c_alphas (cc_ddp c) = pre ++ a_step a :: post /\
        forall d, In d pre -> trial_ok d (r_tr r) = false \/
          rlt E (merit_at d) (merit (r_cost r) (r_gap r) (r_con r)) = false.
Proof.
  move=> hf hm1 hm2. case: (csqp_solve_run hist call) => rs [last h]. exists rs, last. split => //.
  have hs := crun_searched h (or_introl hf).
  move=> r a hin ha. case: (In_nth_error _ _ hin) => i hi. cbv zeta.
  have hmer x y z : csqp_merit_fun c (r_tr r) x y z = radd E (radd E x (rmul E (cc_mu c) y)) (rmul E (cc_mucon c) z)
    by rewrite /csqp_merit_fun hm1 hm2.
  have := hs i r hi. rewrite ha. case ef: (find _ _) => [st|] //= [->] /=.
  do 3 split => //. case: (crun_values h hin) => _ [_ [_ [_ hm]]]. rewrite -!hmer -hm.
  case: (find_split ef) => hadm [pre [post [he hp]]].
  move: hadm. rewrite /admissible /= hf => /andb_prop [_ hlt]. split => //.
  exists pre, post. split => // d /hp. rewrite /admissible /= hf hmer.
  case: (trial_ok d (r_tr r)) => /= hd; [by right|by left].
Qed.
(** filter rule spelled out *)
Theorem C14_csqp_filter_undominated : cc_filter c = true ->
  cc_fsize c = n -> (forall m m', resize m m' -> m <= m') ->
  exists rs last, csqp_run rs last b s' /\
    forall i r a, nth_error rs i = Some r -> r_acc r = Some a ->
      a_cost a = trial_cost (a_step a) (r_tr r) /\ a_gap a = trial_gap (a_step a) (r_tr r) /\
      a_con a = trial_con (a_step a) (r_tr r) /\
      (forall j rj, nth_error rs j = Some rj -> j <= i < j + n ->
         rle E (r_cost rj) (a_cost a) && rle E (r_gap rj) (a_gap a) && rle E (r_con rj) (a_con a) = false) /\
      exists pre post, c_alphas (cc_ddp c) = pre ++ a_step a :: post /\
        forall d, In d pre -> trial_ok d (r_tr r) = false \/
          exists j rj, nth_error rs j = Some rj /\ j <= i < j + n /\
            rle E (r_cost rj) (trial_cost d (r_tr r)) && rle E (r_gap rj) (trial_gap d (r_tr r))
              && rle E (r_con rj) (trial_con d (r_tr r)) = true.
Proof.
  move=> hf hn hg. case: (C13_C14_csqp_line_search hn (or_introl hg)) => rs [last [h hs]].
  exists rs, last. split => // i r a hi ha.
  have := hs i r hi. rewrite ha. case ef: (find _ _) => [st|] //= [->] /=. do 3 split => //. split.
  - case: (find_split ef) => hadm _. move: hadm. rewrite /admissible /= hf hn => /andb_prop [_ /negb_true_iff hlt].
    move=> j rj hj hji. case e: (rle E _ _ && _ && _) => //. exfalso.
    have : existsb (dominates (csqp_rule c) (trial_of (csqp_rule c) (r_tr r) st)) (recent n (firstn i rs ++ [r])) = true.
    { apply/existsb_exists. exists rj. split; last by rewrite /dominates /= e.
      apply/(recent_iff n rj hi). by exists j. }
    by rewrite hlt.
  - case: (find_split ef) => _ [pre [post [he hp]]]. exists pre, post. split => // d /hp.
    rewrite /admissible /= hf hn. case: (trial_ok d (r_tr r)) => /=; last by left.
    move=> /negb_false_iff /existsb_exists [rj [hin hd]]. right.
    move/(recent_iff n rj hi): hin => [j [h1 h2]]. exists j, rj. do 2 split => //.
Qed.
(** C21 *)
Theorem C21_csqp_accepted_cost_finite :
  cc_fsize c = n -> (forall m m', resize m m' -> m <= m') \/ cc_filter c = false ->
  exists rs last, csqp_run rs last b s' /\
    forall r a, In r rs -> r_acc r = Some a ->
      step_in_range (a_step a) = true /\ a_cost a = trial_cost (a_step a) (r_tr r) /\
      raiseIfNaN (a_cost a) = false /\
      forall pre nd post, run (r_tr r) = pre ++ nd :: post ->
        raiseIfNaN (trial_rcost (a_step a) (pre ++ [nd])) = false.
Proof.
  move=> hn hg. case: (C13_C14_csqp_line_search hn hg) => rs [last [h hs]]. exists rs, last. split => //.
  move=> r a hin ha. case: (In_nth_error _ _ hin) => i hi.
  have := hs i r hi. rewrite ha. case ef: (find _ _) => [st|] //= [->] /=.
  case: (find_some _ _ ef) => _. rewrite /admissible => /andb_prop [hok _].
  move: hok. rewrite /trial_ok => /andb_prop [/andb_prop [h1 h2] /negb_true_iff h3].
  do 3 split => //. move=> pre nd post e. move: h2. rewrite e /trial_rcost. clear.
  move: (r0 E). elim: pre => [|m pre ih] z /=.
  - by move=> /andb_prop [/negb_true_iff].
  - by move=> /andb_prop [_ /ih].
Qed.
(** C22: the cost, gap norm and violation at the start of the next round are those
    of the accepted trial; every round's values are those of a fresh evaluation *)
Theorem C22_csqp_values_carried :
  exists rs last, csqp_run rs last b s' /\ values_carried rs /\
    forall r, In r rs -> creeval (r_tr r) = r_tr r /\ r_cost r = stored_cost (creeval (r_tr r)) /\
      r_gap r = stored_gap (creeval (r_tr r)) /\ r_con r = stored_con (creeval (r_tr r)).
Proof.
  case: (csqp_solve_run hist call) => rs [last h]. exists rs, last. split => //.
  split; [exact: crun_carried h|]. move=> r /(crun_values h) [h1 [h2 [h3 [h4 _]]]]. by rewrite h1.
Qed.

(** C31: [evs] = the events of this call in order.  The flag is set iff some clock
    check of this call found the limit reached; if the clock does not run
    backwards, after such a check no SQP or QP iteration starts. *)
Theorem C31_csqp_time_limit : exists evs,
  rev (k_log s') = rev (k_log s) ++ evs /\
  clocks evs = map timeout (seq (k_clk s) (length (clocks evs))) /\
  (k_reached s' = true <-> In (EvClock E true) evs) /\
  ((forall m, timeout m = true -> timeout (S m) = true) ->
     forall pre post e, evs = pre ++ EvClock E true :: post -> In e post ->
       match e with EvIter _ | EvQP _ => False | _ => True end).
Proof.
  case e: (set_guess xs us (k_tr s)) => [tr|]; last by move: call; rewrite /csqp_solve e.
  have := @solve_tl E M c timeout x0 fuel xs us maxiter reg s tr e.
  rewrite call => [[evs [h1 [h2 [h3 [h4 h5]]]]]]. exists evs.
  cbn [k_log k_reached k_clk set_k_reached] in *.
  split; first by rewrite h1 rev_app_distr rev_involutive.
  split => //. split.
  - rewrite h2 /= /hit. clear. elim: evs => [|ev evs ih] //=.
    split.
    + case: ev => /=; try by (move=> *; right; apply/ih). move=> [|] /=; [by left|by move=> h; right; apply/ih].
    + by move=> [->//|/ih h]; case: ev => //= bb; rewrite h orb_true_r.
  - move=> hm pre post ev he hin.
    have := quiet_after (h5 hm _) he hin. move=> /(_ ltac:(by [])). by case: ev hin.
Qed.

End Thms.

Section Safe.
Variable E : Eig.
Variable M : manifold E.
(** safety: only an update interval of 0 or (without grow-only sizes) a wrongly
    sized filter leads to undefined behaviour *)
Theorem C14_csqp_solve_safe (l : list (slot M)) t resize n s x0 c to fuel xs us k reg :
  csqp_hist l t resize n s -> cc_fsize c = n ->
  (forall m m', resize m m' -> m <= m') \/ cc_filter c = false ->
  cc_interval c <> 0 ->
  csqp_solve c to x0 fuel xs us k reg s <> UB.
Proof. move=> h1 h2 h3 h4 h5. apply: h4. exact: (csqp_solve_safe h1 h2 h3 h5). Qed.

(** C50 *)
Theorem C50_csqp_step_out_of_range (c : ccfg E) (a : R E) (s : csqp M) :
  rlt E (r1 E) a || rlt E a (r0 E) = true -> csqp_tryStep c a s = (false, s).
Proof. move=> h. by rewrite /csqp_tryStep /rgt h. Qed.
Theorem C50_csqp_step_frame (c : ccfg E) (a : R E) (s : csqp M) :
  let s' := snd (csqp_tryStep c a s) in
  get_xs (k_tr s') = get_xs (k_tr s) /\ get_us (k_tr s') = get_us (k_tr s) /\
  map (fun n => (lam (dir n))) (run (k_tr s')) = map (fun n => (lam (dir n))) (run (k_tr s)) /\
  tlam (trm (k_tr s')) = tlam (trm (k_tr s)) /\
  k_cost s' = k_cost s /\ k_merit s' = k_merit s /\ k_gap s' = k_gap s /\ k_con s' = k_con s /\ k_kkt s' = k_kkt s.
Proof.
  cbv zeta. case: (ctryStepP c a s) => _ [hf _]. move: (snd _) hf => s' hf.
  have ht := lf_tr hf.
  split; [exact: get_xs_t|]. split; [exact: get_us_t|]. split; [|split].
  - case: ht => h _. elim: h => [|x y ? ? hxy _ ih] //=. rewrite ih. case: hxy => [? [? [? [_ ->]]]]. by [].
  - case: ht => _ [? [? ->]]. by [].
  - by rewrite (lf_cost hf) (lf_merit hf) (lf_gap hf) (lf_con hf) (lf_kkt hf).
Qed.

(** C32 (what the code does): get_steplength() is 1 for ever, whatever was accepted;
    the local loop variable shadows the member *)
Theorem C32_csqp_steplength_constant (l : list (slot M)) t resize n s :
  csqp_hist l t resize n s -> k_step s = r1 E.
Proof.
  elim=> {n s} //.
  - move=> n s c to x0 fuel xs us k reg b s' hh ih hn hs.
    case: (csqp_solve_run hh hs) => rs [last h]. by case: (crun_step h) => ->.
  - move=> n s c to x0 fuel xs us k reg s' hh ih hn.
    have loop : forall fuel k (s s' : csqp M), csqp_loop c to fuel k s = Exc s' -> k_step s' = k_step s.
    { clear. move=> fuel. elim=> [|k ih] s s'; cbn [csqp_loop].
      - rewrite /csqp_final. case: (_ && _) => //. have := directionP c to false fuel (csqp_calc s).
        case: (csqp_direction c to false fuel (csqp_calc s)) => // s1 [p [q h]] [<-].
        by rewrite (df_step h).
      - have fin : forall s, csqp_final c to fuel s = Exc s' -> k_step s' = k_step s.
        { clear. move=> s. rewrite /csqp_final. case: (_ && _) => //. have := directionP c to false fuel (csqp_calc s).
          case: (csqp_direction c to false fuel (csqp_calc s)) => // s1 [p [q h]] [<-]. by rewrite (df_step h). }
        have : (match csqp_body c to fuel s with
               | CExc s1 | CB (BNext s1) | CB (BBreak s1) => k_step s1 = k_step s | _ => True end : Prop).
        { rewrite /csqp_body. cbv zeta. case: (fst _) => //.
          set s1 := (set_k_log (_ :: _) _). have e1 : k_step (csqp_calc s1) = k_step s by [].
          move: (csqp_calc s1) e1 => s2 e2. set s3 := (if _ then _ else _).
          have e3 : k_step s3 = k_step s by rewrite /s3; case: (_ && _).
          move: s3 e3 => s3 e3. have := directionP c to true fuel s3.
          case: (csqp_direction c to true fuel s3) => // s4.
          - move=> [[p [q h]] _]. have e4 : k_step s4 = k_step s by rewrite (df_step h) -e3.
            case: (_ =? 0) => //. case: (rle _ _ _) => //.
            case: (searching_frame c s4) => _ [_ [_ [_ [_ [f _]]]]]. rewrite /searching in f.
            move: (csqp_merit c _) f => s5 f.
            have := cline_searchP c (c_alphas (cc_ddp c)) s5.
            case: (csqp_line_search c _ s5) => // [a s6|s6].
            + move=> [pre [post [_ [_ [_ [_ [_ [_ [_ [s7 [hl [-> _]]]]]]]]]]]].
              have e7 : k_step s7 = k_step s by rewrite (lf_step hl) f e4.
              rewrite /csqp_after. set s8 := csqp_log_accept _ _.
              have e8 : k_step s8 = k_step s by exact: e7. move: s8 e8 => s8 e8.
              case: (cc_removereg c) => //. case: (rgt _ _) => //. case: (rge _ _) => //.
            + move=> [_ hl]. by rewrite -e4 -f -(lf_step hl).
          - move=> [p [q h]]. by rewrite (df_step h) -e3. }
        case: (csqp_body c to fuel s) => [[b s1|s1|s1| |]|s1] // h.
        + move=> /ih. by rewrite -h.
        + move=> /fin. by rewrite -h.
        + by move=> [<-]. }
    rewrite /csqp_solve. case: (set_guess xs us (k_tr s)) => [tr|]; last by move=> [<-].
    set ss := set_k_iter _ _. have e : k_step ss = k_step s by rewrite /ss; case: (k =? 0).
    move: ss e => ss e /loop ->. by rewrite e.
  - move=> n s c to s' _ ih hd. have := computeDirectionP c to s.
    by case: hd => -> [h _]; rewrite (df_step h).
  - move=> n s c a _ ih. case: (ctryStepP c a s) => _ [hf _]. by rewrite (lf_step hf).
  - move=> n s c _ ih. by rewrite (df_step (reset_params_dframe c s)).
  - move=> n s c b _ ih. by rewrite (df_step (update_rho_dframe c b s)).
Qed.
End Safe.

(** ** Concrete runs *)
(** x+ = x + u, cost (x^2 + u^2)/2, constraint -1/4 <= u *)
Definition cstage : lq FloatE 1 1 1 :=
  @mkLq FloatE 1 1 1 (m1 (z 1)) (m1 (z 1)) (v1 f0) (m1 (z 1)) (m1 f0) (m1 (z 1)) (v1 f0) (v1 f0)
    (m1 f0) (m1 (z 1)) (v1 f0) (Some (flit (-1) 4), tt) (None, tt).
Notation crun1 :=
  (csqp_solve (M := F1) (default_ccfg FloatE 1 false) (fun k => 5000 <=? k) (v1 (z 1)) 3 [] [] 5 None
    (new_csqp (M := F1) (v1 (z 1)) [slot_of cstage; slot_of cstage] (tslot_of fterm) 1 (flit 1 10))).
Definition cdone1 : csqp F1 := state (new_csqp (M := F1) (v1 (z 1)) [] (tslot_of fterm) 1 f0) crun1.
(** returns true after one accepted step; the QP needed 25 ADMM iterations and the
    lower bound is active at the first node *)
Example crun1_result : crun1 = Ret true cdone1 /\ k_iter cdone1 = 1 /\ k_qpit cdone1 = 25 /\
  map (fun e => match e with EvAccept i a _ _ _ _ => Some (i, a) | _ => None end) (observed (k_log cdone1))
    = [None; None; Some (0, f1); None].
Proof.
  split; [apply: (@result_state _ (new_csqp (M := F1) (v1 (z 1)) [] (tslot_of fterm) 1 f0) crun1); vm_compute; reflexivity|].
  split; [vm_compute; reflexivity|]. split; vm_compute; reflexivity.
Qed.
Example crun1_hist : csqp_hist (M := F1) [slot_of cstage; slot_of cstage] (tslot_of fterm) le 1
  (new_csqp (M := F1) (v1 (z 1)) [slot_of cstage; slot_of cstage] (tslot_of fterm) 1 (flit 1 10)).
Proof. constructor. Qed.
(** a second solve on the same object, merit rule, time limit reached during the
    fourth QP iteration, extra iteration requested (and skipped) *)
Definition merit_ccfg : ccfg FloatE :=
  mkCcfg (default_cfg FloatE 2) (flit 10 1) (flit 10 1) (flit 10 1) false 1 true
    (flit 1 1000000) (flit 16 10) 1000 (flit 1 10) (flit 1 1000000) (flit 1000 1) 25 (flit 5 1)
    (flit 1 10000) (flit 1 10000) true false false false false false.
Notation crun1b :=
  (csqp_solve (M := F1) merit_ccfg (fun k => k_clk cdone1 + 4 <=? k) (v1 (z 3)) 3 [] [] 5 None cdone1).
Definition cdone1b : csqp F1 := state cdone1 crun1b.
Example crun1b_hist : csqp_hist (M := F1) [slot_of cstage; slot_of cstage] (tslot_of fterm) le 1 cdone1.
Proof. eapply chist_solve; [exact crun1_hist | | exact (proj1 crun1_result)]. reflexivity. Qed.
Example crun1b_result : crun1b = Ret false cdone1b /\ k_reached cdone1b = true /\ k_iter cdone1b = 1 /\
  length (k_log cdone1b) = length (k_log cdone1) + 14.
Proof.
  split; [apply: (@result_state _ cdone1 crun1b); vm_compute; reflexivity|].
  split; [vm_compute; reflexivity|]. split; vm_compute; reflexivity.
Qed.

(** *** C32 refuted.  c(u) = 2u^2 - u with the approximation Luu = 1: the full step
    is rejected, step length 1/2 (= th_stepdec) is accepted.  *)
Definition crooked : amodel F1 :=
  @mkAmodel FloatE F1 1 0 0 (vec FloatE 1 * vec FloatE 1)%type
    (fun x u => (x, u)) (fun x => (x, v1 f0))
    (fun w => let u := fst (snd w) in fsub (fmul (z 2) (fmul u u)) u) (fun w => fst w) (fun _ => tt)
    (fun w _ _ => @mkDerivs FloatE F1 1 0 (v1 f0) (v1 (fsub (fmul (z 4) (fst (snd w))) (z 1)))
                    (m1 f0) (m1 f0) (m1 (z 1)) (m1 (z 1)) (m1 f0) tt tt)
    tt tt.
Definition crooked_slot : slot F1 :=
  @mkSlot FloatE F1 crooked (v1 f0, v1 f0) (adiff crooked (v1 f0, v1 f0) (v1 f0) (v1 f0)) tt tt.
Definition zterm : tlq FloatE 1 0 := @mkTlq FloatE 1 0 (m1 f0) (v1 f0) tt tt tt tt.
Notation crun2 :=
  (csqp_solve (M := F1) (default_ccfg FloatE 0 false) (fun _ => false) (v1 f0) 3 [] [] 1 (Some (flit 1 1000))
    (new_csqp (M := F1) (v1 f0) [crooked_slot] (tslot_of zterm) 1 (flit 1 10))).
Definition cdone2 : csqp F1 := state (new_csqp (M := F1) (v1 f0) [] (tslot_of zterm) 1 f0) crun2.
(** C32 (negative part): default parameters, reginit = 1e-3.  The accepted step
    length is 1/2, which is not larger than th_stepdec = 1/2, yet get_steplength()
    is 1 and the regularisation was decreased *)
Theorem C32_csqp_steplength_not_reported :
  exists (l : list (slot F1)) (t : tslot F1) (s' : csqp F1),
    csqp_solve (M := F1) (default_ccfg FloatE 0 false) (fun _ => false) (v1 f0) 3 [] [] 1 (Some (flit 1 1000))
      (new_csqp (M := F1) (v1 f0) l t 1 (flit 1 10)) = Ret false s' /\
    map (fun e => match e with EvAccept i a _ _ _ _ => Some (i, a) | _ => None end) (observed (k_log s'))
      = [None; Some (0, flit 1 2)] /\
    k_step s' = f1 /\ SFltb (k_preg s') (flit 1 1000) = true.
Proof.
  exists [crooked_slot], (tslot_of zterm), cdone2.
  split; [apply: (@result_state _ (new_csqp (M := F1) (v1 f0) [] (tslot_of zterm) 1 f0) crun2); vm_compute; reflexivity|].
  split; [vm_compute; reflexivity|]. split; vm_compute; reflexivity.
Qed.

Print Assumptions C10_csqp_initial_state_pinned.
Print Assumptions C09_csqp_true_means_small_residual.
Print Assumptions C18_csqp_iteration_budget.
Print Assumptions C19_csqp_callback_protocol.
Print Assumptions C13_C14_csqp_line_search.
Print Assumptions C13_csqp_merit_decrease.
Print Assumptions C14_csqp_filter_undominated.
Print Assumptions C21_csqp_accepted_cost_finite.
Print Assumptions C22_csqp_values_carried.
Print Assumptions C31_csqp_time_limit.
Print Assumptions C14_csqp_solve_safe.
Print Assumptions C50_csqp_step_out_of_range.
Print Assumptions C50_csqp_step_frame.
Print Assumptions C32_csqp_steplength_constant.
Print Assumptions C32_csqp_steplength_not_reported.
