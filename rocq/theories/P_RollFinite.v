(** * SolverDDP and SolverFDDP: trials with NaN or overflow never become the candidate, and
    step lengths outside [0,1] are rejected (any arithmetic). *)
From Coq Require Import ZArith List Bool Arith Lia ssreflect ssrbool.
From Verif Require Import Eigen Problem DDP Filter SQP CSQP Init RollSpec DDPLoop DDPSpec DDPRun.
From Verif Require Import FDDP FDDPInit FDDPSpec FDDPRun P_DDP P_FDDP.
Import ListNotations.
Set Implicit Arguments.
Unset Strict Implicit.
Set Asymmetric Patterns.

Section Finite.
Variable E : Eig.
Variable M : manifold E.
Notation R := (R E).
Notation vec := (vec E).
Notation X := (mX M).
Notation fmodels s := (models (f_d s)).

(** C21: what the caller finds after solve is the guess, or a trajectory whose accumulated
    running costs, successor states and total cost are all free of NaN and overflow *)
Theorem C21_ddp_candidate_finite x0 c fuel xs us maxiter feas reg (s s' : ddp M) b :
  models s <> [] -> ddp_solve x0 c fuel xs us maxiter feas reg s = Ret b s' ->
  (get_xs (d_tr s') = guess_states (length (models s)) xs /\
   get_us (d_tr s') = guess_controls (models s) us) \/
  (finite_run (tmodel_of s) (models s) (r0 E) (get_us (d_tr s')) (get_xs (d_tr s')) /\
   raiseIfNaN (d_cost s') = false).
Proof.
  move=> hm hs. have := C45_ddp_solve_is_a_chain_of_rollouts x0 c fuel xs us maxiter feas reg hm.
  rewrite hs. move=> [rs [_ [h2 [_ [h4 [h5 [_ h7]]]]]]].
  move: h2 h4 h5 h7. elim/rev_ind: rs => [|r rs' _]; first by left.
  rewrite steps_app; cbn [fst snd]. move=> /Forall_app [_ hr] -> -> hc. right.
  have hr' : accepted_ok (models s) (tmodel_of s) x0 c r by inversion hr.
  have hf := ao_finite hr'. split => //. rewrite (hc _ Logic.eq_refl).
  case: (ao_rollout hr') => cr [k1 [x [k2 ->]]]. rewrite -k2.
  elim: k1 hf => [y acc|m ms y acc u us' xs' cost h ih] hf.
  - by inversion hf.
  - inversion hf as [|m' ms' acc' x' u' us2 xs2 q1 q2 q3 e1 e2 e3 e4]; subst.
    have eu : u' = u by apply: (Eqdep_dec.inj_pair2_eq_dec _ Nat.eq_dec).
    subst u'. have := ih q3. by case: xs' h {ih hf q3} => // h; inversion h.
Qed.
Theorem C21_fddp_candidate_finite x0 c fuel xs us maxiter feas reg (s s' : fddp M) b :
  fmodels s <> [] -> usable (fc_fsize c) s ->
  fddp_solve x0 c fuel xs us maxiter feas reg s = Ret b s' ->
  (get_xs (d_tr (f_d s')) = guess_states (length (fmodels s)) xs /\
   get_us (d_tr (f_d s')) = guess_controls (fmodels s) us) \/
  finite_run (tmodel_of (f_d s)) (fmodels s) (r0 E) (get_us (d_tr (f_d s'))) (get_xs (d_tr (f_d s'))).
Proof.
  move=> hm hu hs. have := C55_fddp_solve_is_a_chain x0 fuel xs us maxiter feas reg hm hu. rewrite hs.
  move=> [rs [_ [h2 [_ [[h4 [h5 _]] _]]]]]. move: h2 h4 h5.
  elim/rev_ind: rs => [|r rs' _]; first by left.
  rewrite fsteps_last; cbn [cd_xs cd_us fcand_after]. move=> /Forall_app [_ hr] -> ->. right.
  have ho : faccepted_ok (fmodels s) (tmodel_of (f_d s)) x0 (fc_ddp c) (fc_filter c) (fc_fsize c) (fc_neg c) r by inversion hr.
  exact: fo_finite ho.
Qed.

(** C50: outside [0,1] tryStep raises and changes nothing; for every step length it leaves
    the candidate, its cost and its feasibility mark alone *)
Theorem C50_ddp_step_range (a : R) (s : ddp M) :
  (rlt E (r1 E) a || rlt E a (r0 E) = true -> ddp_tryStep a s = (false, s)) /\
  let s' := snd (ddp_tryStep a s) in
  get_xs (d_tr s') = get_xs (d_tr s) /\ get_us (d_tr s') = get_us (d_tr s) /\
  d_cost s' = d_cost s /\ d_feas s' = d_feas s /\ d_preg s' = d_preg s /\ d_dreg s' = d_dreg s.
Proof.
  rewrite /ddp_tryStep /rgt. case: (_ || _) => //. split => //. cbv zeta. cbn [snd].
  have hr := roll_tried a (run (d_tr s)) (hd_xt (run (d_tr s)) (trm (d_tr s))) (vzero E) (trm (d_tr s)) (r0 E).
  have hk := kept_xs (jagree_kept (@jtried_agree E M (d_tr s) (mkTraj _ _) hr)).
  case: hk => h1 h2. by split; [exact: h1|split; [exact: h2|]].
Qed.
Theorem C50_fddp_step_range x0 (a : R) (s : fddp M) :
  (rlt E (r1 E) a || rlt E a (r0 E) = true -> fddp_tryStep x0 a s = (false, s)) /\
  let d := f_d s in let d' := f_d (snd (fddp_tryStep x0 a s)) in
  get_xs (d_tr d') = get_xs (d_tr d) /\ get_us (d_tr d') = get_us (d_tr d) /\
  d_cost d' = d_cost d /\ d_feas d' = d_feas d /\ d_preg d' = d_preg d /\ d_dreg d' = d_dreg d.
Proof.
  rewrite /fddp_tryStep /rgt. case: (_ || _) => //. split => //. cbv zeta. cbn [snd].
  have hr := froll_tried (d_feas (f_d s) || req E a (r1 E)) a (run (d_tr (f_d s))) x0 (vzero E) (trm (d_tr (f_d s))) (r0 E) (r0 E).
  have hk := kept_xs (jagree_kept (@jtried_agree E M (d_tr (f_d s)) (mkTraj _ _) hr)).
  case: hk => h1 h2. by split; [exact: h1|split; [exact: h2|]].
Qed.
End Finite.
Print Assumptions C21_ddp_candidate_finite.
Print Assumptions C21_fddp_candidate_finite.
Print Assumptions C50_ddp_step_range.
Print Assumptions C50_fddp_step_range.
