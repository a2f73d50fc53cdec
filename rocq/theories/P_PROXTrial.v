(** * C21, C50 for SolverPROXQP: trials that overflow are never accepted, and step lengths
    outside [0,1] are rejected. *)
From Coq Require Import ZArith List Arith.
Set Warnings "-notation-overridden,-ambiguous-paths".
From mathcomp Require Import all_ssreflect all_algebra.
From Verif Require Import Eigen EigenExact Problem DDP Filter SQP CSQP Init TrialSpec TraceSpec SQPSpec CSQPSpec
  SQPTrial PROXQP PROXSpec PROXHist PROXRunSpec PROXRun P_PROXSolve.

Set Implicit Arguments.
Unset Strict Implicit.
Unset Printing Implicit Defensive.
Local Open Scope ring_scope.

Section Trial.
Variable F : realFieldType.
Variable sq : F -> F.
Notation E := (ExactE sq).
Variable M : manifold E.
Variable x0 : mX M.
Variable qp : forall N Me Mi : nat, 'M[F]_N -> 'cV[F]_N -> 'M[F]_(Me, N) -> 'cV[F]_Me ->
  'M[F]_(Mi, N) -> 'cV[option F]_Mi -> 'cV[option F]_Mi -> option ('cV[F]_N * 'cV[F]_Me * 'cV[F]_Mi).
Variables (l : seq (slot M)) (t : tslot M).

(** every accepted step has a step length in [0,1] and its cost, accumulated node by node,
    stays below the overflow bound *)
Theorem C21_proxqp_accepted_cost_finite c fuel xs us maxiter reg (s : pqs M) b s' :
  pq_hist x0 qp l t s -> pq_solve x0 qp c fuel xs us maxiter reg s = PRet b s' ->
  pc_filter c = false \/ [/\ buf_of_size (pc_fsize c) (pq_costl s), buf_of_size (pc_fsize c) (pq_gapl s)
                           & buf_of_size (pc_fsize c) (pq_conl s)] ->
  exists2 rs, pq_run x0 qp l c xs us maxiter reg s rs b s' &
  forall r a, List.In r rs -> r_acc r = Some a ->
    [/\ 0 <= (a_step a : F) <= 1, a_cost a = trial_cost (a_step a) (r_tr r),
        raiseIfNaN (a_cost a) = false
      & forall pre nd post, run (r_tr r) = List.app pre (nd :: post) ->
          raiseIfNaN (trial_rcost (a_step a) (List.app pre [:: nd])) = false].
Proof.
move=> hh hsol hb; have [rs h] := C63_proxqp_run hh hsol; exists rs => // r a hin ha; have hs := prun_searched h hb.
have [i hi] := List.In_nth_error _ _ hin.
have := hs i r hi; rewrite ha; case ef: (List.find _ _) => [st|] //= [->] /=.
have [_] := List.find_some _ _ ef; rewrite /admissible => /andP [hok _].
move: hok; rewrite /trial_ok => /andP [/andP [h1 h2] /negbTE h3].
have h1' : 0 <= (st : F) <= 1.
  move: h1; rewrite /step_in_range negb_or => /andP [].
  by rewrite -!Order.TotalTheory.leNgt => -> ->.
split=> // pre nd post e; move: h2; rewrite e /trial_rcost; clear.
move: (r0 E); elim: pre => [|m pre ih] z /=.
- by case/andP => /negbTE.
- by case/andP => _; exact: ih.
Qed.

Theorem C50_proxqp_step_range c (a : F) (s : pqs M) :
  (~~ (0 <= a <= 1) -> pq_tryStep c a s = (false, s)) /\
  (let s' := snd (pq_tryStep c a s) in
   [/\ get_xs (pq_tr s') = get_xs (pq_tr s), get_us (pq_tr s') = get_us (pq_tr s),
       [seq lam (dir n) | n <- run (pq_tr s')] = [seq lam (dir n) | n <- run (pq_tr s)] /\
         tlam (trm (pq_tr s')) = tlam (trm (pq_tr s)),
       pq_cost s' = pq_cost s /\ pq_merit s' = pq_merit s
     & pq_preg s' = pq_preg s /\ pq_dreg s' = pq_dreg s]).
Proof.
split.
  by move=> h; rewrite /pq_tryStep Order.TotalTheory.ltNge [a < 0]Order.TotalTheory.ltNge -negb_and andbC h.
have [_ hf _ _] := ptryStepP c a s; move: (snd _) hf => s' hf; cbv zeta.
have ht := pf_tr hf.
split.
- exact: get_xs_t ht.
- exact: get_us_t ht.
- split; last by case: ht => _ [? [? ->]].
  case: ht => h _; elim: h => [|x y ? ? hxy _ ih] //=; rewrite ih; by case: hxy => [? [? [? [_ ->]]]].
- by rewrite (pf_cost hf) (pf_merit hf).
- by rewrite (pf_preg hf) (pf_dreg hf).
Qed.
End Trial.
Print Assumptions C21_proxqp_accepted_cost_finite.
Print Assumptions C50_proxqp_step_range.
