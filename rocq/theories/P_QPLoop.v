(** * C30 (get_qp_iters), C33 (constructor), C34 (set_rho_sparse), C36
    (complementarity). *)
From Coq Require Import ZArith List Bool Arith Lia SpecFloat ssreflect.
From Verif Require Import Eigen EigenFloat Problem DDP Filter SQP CSQP Init Models TraceSpec SQPSpec CSQPSpec CSQPFrames QPSpec FastPass
  CallSpec CallInv FloatWitness P_CSQPSolve.
Import ListNotations.
Set Implicit Arguments.
Unset Strict Implicit.
Set Asymmetric Patterns.

Section P.
Variable E : Eig.
Variable M : manifold E.
Variable c : ccfg E.
Variable timeout : nat -> bool.

Lemma reset_params_qp (s : csqp M) : qp_events (k_log (reset_params c s)) = qp_events (k_log s) /\
  k_qpit (reset_params c s) = k_qpit s /\ k_reached (reset_params c s) = k_reached s.
Proof. rewrite /reset_params. by case: (cc_resetrho c). Qed.

(** C30.  [qp_events (k_log s')] lists, newest first, the ADMM iterations ever
    executed.  A direction computation executes iterations 1, ..., n, n <= max, and
    get_qp_iters() is n, except that it is max + 1 when the loop ran out of
    iterations without converging. *)
Theorem C30_qp_iters (s : csqp M) :
  match csqp_computeDirection c timeout s with
  | QDone s' => exists n, n <= cc_maxqp c /\
      qp_events (k_log s') = map (EvQP E) (rev (seq 1 n)) ++ qp_events (k_log s) /\
      (k_qpit s' = n \/ (n = cc_maxqp c /\ k_qpit s' = S n /\ (k_reached s = false -> k_reached s' = false)))
  | QThrow s' => exists n, n <= cc_maxqp c /\
      qp_events (k_log s') = map (EvQP E) (rev (seq 1 n)) ++ qp_events (k_log s) /\
      (0 < n /\ k_qpit s' = n \/
       n = 0 /\ k_qpit s' = k_qpit s /\ cc_eqguess c = true)   (* the initial guess raised *)
  | QUB => cc_interval c = 0
  end.
Proof.
  rewrite /csqp_computeDirection. have [hr1 [hr2 hr3]] := reset_params_qp s.
  move: (reset_params c s) hr1 hr2 hr3 => s1 hr1 hr2 hr3.
  have key : forall s2 : csqp M, qp_events (k_log s2) = qp_events (k_log s) -> k_reached s2 = k_reached s ->
    match qp_loop c timeout (cc_maxqp c) 1 s2 with
    | QDone s' => exists n, n <= cc_maxqp c /\
      qp_events (k_log s') = map (EvQP E) (rev (seq 1 n)) ++ qp_events (k_log s) /\
      (k_qpit s' = n \/ (n = cc_maxqp c /\ k_qpit s' = S n /\ (k_reached s = false -> k_reached s' = false)))
    | QThrow s' => exists n, n <= cc_maxqp c /\
      qp_events (k_log s') = map (EvQP E) (rev (seq 1 n)) ++ qp_events (k_log s) /\
      (0 < n /\ k_qpit s' = n \/ n = 0 /\ k_qpit s' = k_qpit s /\ cc_eqguess c = true)
    | QUB => cc_interval c = 0
    end.
  { move=> s2 <- <-. have := qp_loop_count c timeout (cc_maxqp c) 1 s2.
    case: (qp_loop _ _ _ _ _) => // s3 [n [h1 [h2 h3]]]; exists n.
    - split => //. split => //. case: h3 => [[h3 [h4 h5]]|[h3 h4]]; [right; split => //; split => //; lia|left; lia].
    - split; [lia|]. split => //. left. lia. }
  case he: (cc_eqguess c).
  - move: key; rewrite he => key. case: (fst _).
    + apply: key => //.
    + exists 0. split; [lia|]. split; [exact: hr1|]. right. by split.
  - move: key; rewrite he => key. exact: key.
Qed.
(** in particular the reported number is at most max + 1, and the number of
    executed iterations is min(reported, max) *)
Corollary C30_executed (s s' : csqp M) : csqp_computeDirection c timeout s = QDone s' ->
  length (qp_events (k_log s')) = Nat.min (k_qpit s') (cc_maxqp c) + length (qp_events (k_log s)) /\
  k_qpit s' <= S (cc_maxqp c).
Proof.
  move=> e. have := C30_qp_iters s. rewrite e => -[n [h1 [h2 h3]]].
  rewrite h2 app_length map_length rev_length seq_length. lia.
Qed.

(** C34: whatever penalty is set, the next solve behaves as if it had not been. *)
Lemma calc_rho r (s : csqp M) : csqp_calc (set_k_rho r s) = set_k_rho r (csqp_calc s).
Proof. by destruct s. Qed.
Lemma reset_rho_rho r (s : csqp M) : reset_rho c (set_k_rho r s) = reset_rho c s.
Proof. by destruct s. Qed.
Lemma direction_rho watch fuel r (s : csqp M) : cc_resetrho c = true -> k_reached s = false ->
  csqp_direction c timeout watch fuel (set_k_rho r s) = csqp_direction c timeout watch fuel s.
Proof.
  move=> hr hk.
  have hd : csqp_computeDirection c timeout (set_k_rho r s) = csqp_computeDirection c timeout s.
  { rewrite /csqp_computeDirection.
    have -> : reset_params c (set_k_rho r s) = reset_params c s by rewrite /reset_params hr reset_rho_rho.
    exact: Logic.eq_refl. }
  rewrite /csqp_direction hd. case: (cc_removereg c) => //.
  case: fuel => [//|fuel]. cbn [csqp_retry]. rewrite hd.
  have -> : k_reached (set_k_rho r s) = k_reached s by [].
  by rewrite hk andb_false_r.
Qed.
Lemma begin_rho x0 xs us maxiter reg r (s : csqp M) :
  solve_begin c x0 xs us maxiter reg (set_k_rho r s) =
  match solve_begin c x0 xs us maxiter reg s with
  | None => None
  | Some s0 => Some (if maxiter =? 0 then s0 else set_k_rho r s0)
  end.
Proof.
  rewrite /solve_begin. have -> : k_tr (set_k_rho r s) = k_tr s by []. case: (set_guess _ _ _) => // t.
  case: (maxiter =? 0); last by destruct s.
  have h : forall q p x, set_k_dreg q (set_k_preg p (set_k_tr x (set_k_rho r s))) = set_k_rho r (set_k_dreg q (set_k_preg p (set_k_tr x s))).
  { by destruct s. }
  by rewrite h calc_rho reset_rho_rho.
Qed.
Lemma main_rho r (s : csqp M) : k_iter s = 0 -> main_start c timeout (set_k_rho r s) =
  if cc_resetrho c then set_k_rho r (main_start c timeout s) else main_start c timeout s.
Proof.
  move=> hi. rewrite /main_start.
  have h1 : fst (tick timeout (set_k_rho r s)) = fst (tick timeout s) by [].
  have h2 : set_k_log (EvIter E (k_iter (set_k_rho r s)) :: k_log (snd (tick timeout (set_k_rho r s)))) (snd (tick timeout (set_k_rho r s)))
          = set_k_rho r (set_k_log (EvIter E (k_iter s) :: k_log (snd (tick timeout s))) (snd (tick timeout s))).
  { by destruct s. }
  rewrite h2 calc_rho. cbv zeta.
  have hi3 : k_iter (csqp_calc (set_k_log (EvIter E (k_iter s) :: k_log (snd (tick timeout s))) (snd (tick timeout s)))) = 0 by [].
  move: (csqp_calc _) hi3 => s3 hi3.
  have -> : k_iter (set_k_rho r s3) = k_iter s3 by []. rewrite hi3.
  by case: (cc_resetrho c) => //=; rewrite reset_rho_rho.
Qed.
Lemma main_reached (s : csqp M) : k_reached (main_start c timeout s) = k_reached s.
Proof. rewrite /main_start. by case: (_ && _). Qed.
Lemma rest_rho fuel r (s : csqp M) : cc_resetrho c = true -> k_reached s = false ->
  body_rest c timeout fuel (set_k_rho r s) = body_rest c timeout fuel s.
Proof. move=> h1 h2. by rewrite /body_rest direction_rho. Qed.
Theorem C34_rho_sparse_ignored fuel x0 xs us maxiter reg r (s : csqp M) :
  set_guess xs us (k_tr s) <> None -> maxiter = 0 \/ timeout (k_clk s) = false ->
  csqp_solve c timeout x0 fuel xs us maxiter reg (csqp_set_rho_sparse r s) =
  csqp_solve c timeout x0 fuel xs us maxiter reg s.
Proof.
  move=> hg ht.
  have hs : forall a : csqp M, csqp_solve c timeout x0 fuel xs us maxiter reg a =
     match solve_begin c x0 xs us maxiter reg a with None => Exc a | Some s0 => csqp_loop c timeout fuel maxiter s0 end.
  { move=> a. rewrite /csqp_solve /solve_begin. by case: (set_guess _ _ _). }
  rewrite /csqp_set_rho_sparse !hs begin_rho.
  case eb: (solve_begin c x0 xs us maxiter reg s) => [s0|].
  - case: maxiter ht hs eb => [|k] ht hs eb //=.
    have ht' : fst (tick timeout s0) = false /\ k_iter s0 = 0 /\ k_reached s0 = false.
    { case: ht => // ht. move: eb. rewrite /solve_begin. case: (set_guess _ _ _) => // t [<-]. by split. }
    case: ht' => ht1 [ht2 ht3].
    rewrite !bodyE. have -> : fst (tick timeout (set_k_rho r s0)) = fst (tick timeout s0) by [].
    rewrite ht1 main_rho //.
    case hr: (cc_resetrho c) => //.
    rewrite rest_rho //; by rewrite main_reached.
  - exfalso. move: eb. rewrite /solve_begin. by case: (set_guess _ _ _) hg.
Qed.
End P.

(** C33: construction succeeds iff no model declares equality rows. *)
Theorem C33_constructor E (M : manifold E) (ms : list (amodel M)) (tmod : tmodel M) :
  csqp_ctor_ok ms tmod = true <-> (forall m, In m ms -> nh m = 0) /\ tnh tmod = 0.
Proof.
  rewrite /csqp_ctor_ok Nat.eqb_eq.
  have h : forall l a, fold_left (fun acc (m : amodel M) => acc + nh m) l a = 0 <-> a = 0 /\ forall m, In m l -> nh m = 0.
  { elim=> [|m l ih] a /=; first by intuition.
    rewrite ih. split.
    - move=> [h1 h2]. split; [lia|]. move=> m' [<-|]; [lia|exact: h2].
    - move=> [h1 h2]. split; [have := h2 m (or_introl Logic.eq_refl); lia|]. move=> m' hm. apply: h2. by right. }
  split.
  - move=> e. have : fold_left (fun acc (m : amodel M) => acc + nh m) ms 0 = 0 by lia.
    move/h => [_ h2]. split => //. lia.
  - move=> [h1 h2]. have : fold_left (fun acc (m : amodel M) => acc + nh m) ms 0 = 0 by apply/h; split.
    lia.
Qed.

(** ** Counterexamples (binary64) *)
Definition short_ccfg : ccfg FloatE :=
  mkCcfg (default_cfg FloatE 0) (flit 10 1) (flit 10 1) (flit 10 1) true 1 false
    (flit 1 1000000) (flit 16 10) 2 (flit 1 10) (flit 1 1000000) (flit 1000 1) 25 (flit 5 1)
    (flit 1 10000) (flit 1 10000) true false false false false false.
(** C30: with set_max_qp_iters(2) two ADMM iterations are executed, get_qp_iters() is 3 *)
Notation crun3 :=
  (csqp_solve (M := F1) short_ccfg (fun _ => false) (v1 (z 1)) 3 [] [] 1 None
    (new_csqp (M := F1) (v1 (z 1)) [slot_of cstage] (tslot_of fterm) 1 (flit 1 10))).
Definition cdone3 : csqp F1 := state (new_csqp (M := F1) (v1 f0) [] (tslot_of fterm) 1 f0) crun3.
Theorem C30_qp_iters_exceeds_budget :
  exists (l : list (slot F1)) (t : tslot F1) (s' : csqp F1),
    csqp_solve (M := F1) short_ccfg (fun _ => false) (v1 (z 1)) 3 [] [] 1 None
      (new_csqp (M := F1) (v1 (z 1)) l t 1 (flit 1 10)) = Ret false s' /\
    cc_maxqp short_ccfg = 2 /\ length (qp_events (k_log s')) = 2 /\ k_qpit s' = 3.
Proof.
  exists [slot_of cstage], (tslot_of fterm), cdone3.
  split; [apply: (@result_state _ (new_csqp (M := F1) (v1 f0) [] (tslot_of fterm) 1 f0) crun3); vm_compute; reflexivity|].
  split; [vm_compute; reflexivity|]. split; vm_compute; reflexivity.
Qed.
(** ... and set_max_qp_iters(-1) executes none *)
Theorem C30_negative_budget : qp_budget (-1) = 0.
Proof. vm_compute. reflexivity. Qed.

(** C36: minimise u subject to -1 <= u, default parameters.  solve returns true at
    the initial guess u = 0 (optimum: u = -1): the multiplier is about -1 although
    the bound is inactive by 1. *)
Definition slopestage : lq FloatE 1 1 1 :=
  @mkLq FloatE 1 1 1 (m1 (z 1)) (m1 f0) (v1 f0) (m1 f0) (m1 f0) (m1 f0) (v1 f0) (v1 (z 1))
    (m1 f0) (m1 (z 1)) (v1 f0) (Some (z (-1)), tt) (None, tt).
Notation crun4 :=
  (csqp_solve (M := F1) (default_ccfg FloatE 0 false) (fun _ => false) (v1 f0) 3 [] [] 10 None
    (new_csqp (M := F1) (v1 f0) [slot_of slopestage] (tslot_of zterm) 1 (flit 1 10))).
Definition cdone4 : csqp F1 := state (new_csqp (M := F1) (v1 f0) [] (tslot_of fterm) 1 f0) crun4.
Definition first1 k (v : vec FloatE k) : f64 :=
  match k as k return vec FloatE k -> f64 with O => fun _ => f0 | S _ => fun v => fst v end v.
Theorem C36_true_without_complementarity :
  exists s' : csqp F1,
    csqp_solve (M := F1) (default_ccfg FloatE 0 false) (fun _ => false) (v1 f0) 3 [] [] 10 None
      (new_csqp (M := F1) (v1 f0) [slot_of slopestage] (tslot_of zterm) 1 (flit 1 10)) = Ret true s' /\
    map (fun n => first1 (pu (pt n))) (run (k_tr s')) = [f0] /\              (* u *)
    map (fun n => first1 (ag (nm n) (mem n))) (run (k_tr s')) = [f0] /\      (* g = u, lower bound -1 *)
    map (fun n => SFltb (first1 (ay (adm n))) (flit (-9) 10)) (run (k_tr s')) = [true]. (* y < -0.9 *)
Proof.
  exists cdone4.
  split; [apply: (@result_state _ (new_csqp (M := F1) (v1 f0) [] (tslot_of fterm) 1 f0) crun4); vm_compute; reflexivity|].
  split; [vm_compute; reflexivity|]. split; vm_compute; reflexivity.
Qed.
Print Assumptions C30_qp_iters.
Print Assumptions C34_rho_sparse_ignored.
Print Assumptions C33_constructor.
Print Assumptions C30_qp_iters_exceeds_budget.
Print Assumptions C36_true_without_complementarity.
