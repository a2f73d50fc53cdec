(** * Theorems about SolverDDP::solve, for any arithmetic and any object state. *)
From Coq Require Import ZArith List Bool Arith Lia ssreflect ssrbool.
From Verif Require Import Eigen Problem DDP Filter SQP CSQP Init TrialSpec SQPSpec SQPTrial SQPLoop History RollSpec DDPLoop DDPSpec DDPRun.
Import ListNotations.
Set Implicit Arguments.
Unset Strict Implicit.
Set Asymmetric Patterns.

Section DDP.
Variable E : Eig.
Variable M : manifold E.
Notation R := (R E).
Notation vec := (vec E).
Notation X := (mX M).

(** the guess as setCandidate uses it: empty lists stand for zeros *)
Definition guess_states (T : nat) (xs : list X) : list X :=
  match xs with [] => repeat (xzero M) (S T) | _ => xs end.
Definition guess_controls (ms : list (amodel M)) (us : list {k : nat & vec k}) : list {k : nat & vec k} :=
  match us with [] => map (fun m => existT vec (nu m) (vzero E)) ms | _ => us end.
(** the models of the object's problem *)
Definition models (s : ddp M) : list (amodel M) := map (@nm E M) (run (d_tr s)).
Definition tmodel_of (s : ddp M) : tmodel M := tm (trm (d_tr s)).

Lemma pin_facts x0 (t : traj M) : map (@nm E M) (run (pin_xt0 x0 t)) = map (@nm E M) (run t) /\
  tm (trm (pin_xt0 x0 t)) = tm (trm t) /\ length (run (pin_xt0 x0 t)) = length (run t) /\
  hd_xt (run (pin_xt0 x0 t)) (trm (pin_xt0 x0 t)) = x0.
Proof. rewrite /pin_xt0. by case: (run t). Qed.
Lemma guess_xs_hdxt ls : forall (tn : tnode M) xs ls' tn', guess_xs ls tn xs = Some (ls', tn') ->
  hd_xt ls' tn' = hd_xt ls tn.
Proof.
  move=> tn xs. case: ls xs => [|n ls] [|x xs] ls' tn' //=; first by case: xs => // -[<- <-].
  case: (guess_xs ls tn xs) => [[l1 tn1]|] // [<- <-]. by [].
Qed.
Lemma guess_us_hdxt (ls : list (node M)) us ls' (tn : tnode M) : guess_us ls us = Some ls' -> hd_xt ls' tn = hd_xt ls tn.
Proof.
  case: ls us => [|n ls] [|u us] //=; first by move=> [<-].
  case: (@cast_vec _ _ _ _) => [v|] //. by case: (guess_us ls us) => [r|] // [<-].
Qed.
Lemma set_guess_hdxt xs us (t t' : traj M) : set_guess xs us t = Some t' -> hd_xt (run t') (trm t') = hd_xt (run t) (trm t).
Proof.
  rewrite /set_guess. case e1: (guess_xs _ _ _) => [[l1 tn1]|] //. case e2: (guess_us _ _) => [l2|] // [<-] /=.
  by rewrite (guess_us_hdxt _ e2) (guess_xs_hdxt e1).
Qed.
Lemma start_path x0 c xs us feas (s : ddp M) t reg :
  run (d_tr s) <> [] -> set_guess xs us (pin_xt0 x0 (d_tr s)) = Some t ->
  path (models s) (tmodel_of s) x0 c (guess_states (length (models s)) xs) (guess_controls (models s) us) feas []
    (set_d_iter 0 (set_d_wasfeas false (set_d_dreg (init_reg c reg) (set_d_preg (init_reg c reg)
       (set_d_feas feas (set_d_tr t (set_d_tr (pin_xt0 x0 (d_tr s)) s))))))).
Proof.
  move=> hr hg. case: (set_guessP hg) => k1 [[x k2] [k3 k4]]. case: (pin_facts x0 (d_tr s)) => q1 [q2 [q3 q4]].
  split.
  - split; [|split]; cbn [d_tr set_d_iter set_d_wasfeas set_d_dreg set_d_preg set_d_feas set_d_tr].
    + by rewrite (ptonly_nm k1) q1.
    + by rewrite k2.
    + by rewrite (set_guess_hdxt hg) q4.
  - by split.
  - rewrite /at_steps. cbn [d_tr set_d_iter set_d_wasfeas set_d_dreg set_d_preg set_d_feas set_d_tr steps_from fst snd d_feas].
    rewrite k3 k4. split; [|split => //].
    + by rewrite /guess_states /models map_length q3.
    + rewrite /guess_controls /models. case: us {hg k4} => //.
      rewrite -q1 map_map. by [].
Qed.

(** ** C45, C51: a call of solve is a chain of accepted steps *)
Theorem C45_ddp_solve_is_a_chain_of_rollouts x0 c fuel xs us maxiter feas reg (s : ddp M) :
  models s <> [] ->
  match ddp_solve x0 c fuel xs us maxiter feas reg s with
  | Ret b s' =>
      exists rs : list (accepted M),
        length rs <= maxiter /\
        (** every accepted step obeys the rule and gives a roll-out from x0 *)
        Forall (accepted_ok (models s) (tmodel_of s) x0 c) rs /\
        (** each step starts from the candidate the previous one (or the guess) gave *)
        chained (guess_states (length (models s)) xs) (guess_controls (models s) us) feas None rs /\
        (** and the object holds the last candidate, its feasibility mark and its cost *)
        (let z := steps_from (guess_states (length (models s)) xs) (guess_controls (models s) us) feas None rs in
         get_xs (d_tr s') = fst (fst (fst z)) /\ get_us (d_tr s') = snd (fst (fst z)) /\
         d_feas s' = snd (fst z) /\ (forall v, snd z = Some v -> d_cost s' = v))
  | Exc s' => set_guess xs us (pin_xt0 x0 (d_tr s)) = None   (* a guess of the wrong size *)
  | UB => False
  | NoFuel => True
  end.
Proof.
  move=> hm. have hr : run (d_tr s) <> [] by move=> e; apply: hm; rewrite /models e.
  rewrite /ddp_solve. cbn [d_tr set_d_tr].
  case e: (set_guess xs us (pin_xt0 x0 (d_tr s))) => [t|] //.
  have hp := start_path c feas reg hr e.
  have := loop_path hm fuel maxiter (recalc := true) hp (or_introl (conj Logic.eq_refl Logic.eq_refl)).
  case: (ddp_loop _ _ _ _ _ _) => // b s' [rs [[h1 [h2 h3] h4] [h5 h6]]].
  exists rs. split; [exact: h5|]. by split.
Qed.

(** the candidate a caller finds afterwards: the guess, or the roll-out of us from x0 *)
Theorem C45_ddp_candidate_is_guess_or_rollout x0 c fuel xs us maxiter feas reg (s s' : ddp M) b :
  models s <> [] -> ddp_solve x0 c fuel xs us maxiter feas reg s = Ret b s' ->
  (get_xs (d_tr s') = guess_states (length (models s)) xs /\
   get_us (d_tr s') = guess_controls (models s) us /\ d_feas s' = feas) \/
  (d_feas s' = true /\ exists running,
     rollout (models s) x0 (r0 E) (get_us (d_tr s')) (get_xs (d_tr s')) running /\
     rollout_cost (tmodel_of s) running (get_xs (d_tr s')) (d_cost s')).
Proof.
  move=> hm hs. have := C45_ddp_solve_is_a_chain_of_rollouts x0 c fuel xs us maxiter feas reg hm.
  rewrite hs. move=> [rs [_ [h2 [_ [h4 [h5 [h6 h7]]]]]]].
  move: h2 h4 h5 h6 h7. elim/rev_ind: rs => [|r rs' _]; first by left.
  rewrite steps_app; cbn [fst snd]. move=> /Forall_app [_ hr] -> -> -> hc. right. split => //.
  have hr' : accepted_ok (models s) (tmodel_of s) x0 c r by inversion hr.
  case: (ao_rollout hr') => cr [k1 k2]. exists cr. split => //. by rewrite (hc _ Logic.eq_refl).
Qed.

(** ** C51: success is a certificate for the returned candidate *)
Theorem C51_ddp_success_certificate x0 c fuel xs us maxiter feas reg (s s' : ddp M) :
  models s <> [] -> ddp_solve x0 c fuel xs us maxiter feas reg s = Ret true s' ->
  linearised (d_feas s') x0 (r0 E) (run (d_tr s')) (trm (d_tr s')) (d_cost s') /\
  d_kkt s' = kkt_residual (d_tr s') /\ rle E (d_kkt s') (c_tol c) = true.
Proof.
  move=> hm. have hr : run (d_tr s) <> [] by move=> e; apply: hm; rewrite /models e.
  rewrite /ddp_solve. cbn [d_tr set_d_tr].
  case e: (set_guess xs us (pin_xt0 x0 (d_tr s))) => [t|] //.
  have hp := start_path c feas reg hr e.
  have := loop_path hm fuel maxiter (recalc := true) hp (or_introl (conj Logic.eq_refl Logic.eq_refl)).
  move=> hl hs. rewrite hs in hl. case: hl => rs [_ [_ h]]. exact: h.
Qed.
End DDP.
Print Assumptions C45_ddp_solve_is_a_chain_of_rollouts.
Print Assumptions C45_ddp_candidate_is_guess_or_rollout.
Print Assumptions C51_ddp_success_certificate.
