(** * Theorems about SolverFDDP::solve, for any arithmetic and any object state. *)
From Coq Require Import ZArith List Bool Arith Lia ssreflect ssrbool.
From Verif Require Import Eigen Problem DDP Filter SQP CSQP Init TrialSpec SQPSpec SQPTrial SQPLoop History RollSpec DDPLoop.
From Verif Require Import FDDP FDDPInit FDDPSpec FDDPRun FilterProofs P_DDP.
Import ListNotations.
Set Implicit Arguments.
Unset Strict Implicit.
Set Asymmetric Patterns.

Section FDDP.
Variable E : Eig.
Variable M : manifold E.
Notation R := (R E).
Notation vec := (vec E).
Notation X := (mX M).

(** the object's filter buffers have the configured size: true after construction, after
    set_filter_size to at least the present size, and after every call of solve *)
Definition usable (fsize : nat) (s : fddp M) : Prop :=
  holds fsize [] (f_costl s) /\ holds fsize [] (f_gapl s).
Notation fmodels s := (models (f_d s)).
(** the candidate given by the caller *)
Definition fguess (s : fddp M) (xs : list X) (us : list {k : nat & vec k}) (feas : bool) : fcand M :=
  mkFcand (guess_states (length (fmodels s)) xs) (guess_controls (fmodels s) us) feas None [].

Lemma fddp_solveP x0 c fuel xs us maxiter feas reg (s : fddp M) :
  fmodels s <> [] -> usable (fc_fsize c) s ->
  match fddp_solve x0 c fuel xs us maxiter feas reg s with
  | Ret b s' => exists rs h, fpath (fmodels s) (tmodel_of (f_d s)) x0 c (fguess s xs us feas) rs s' /\
      fbufs c h s' /\ length rs <= maxiter /\
      (b = true \/ fc_filter c = false -> costok c (fguess s xs us feas) rs (f_d s')) /\ (b = true -> fcert x0 c (f_d s'))
  | Exc s' => set_guess xs us (pin_xt0 x0 (d_tr (f_d s))) = None
  | UB => False
  | NoFuel => True
  end.
Proof.
  move=> hm [hu1 hu2]. have hr : run (d_tr (f_d s)) <> [] by move=> e; apply: hm; rewrite /models e.
  rewrite /fddp_solve. cbn [f_d upd d_tr set_d_tr].
  case e: (set_guess xs us (pin_xt0 x0 (d_tr (f_d s)))) => [t|] //.
  set s1 := upd _ (upd _ s).
  case: (set_guessP e) => k1 [[x k2] [k3 k4]]. case: (pin_facts x0 (d_tr (f_d s))) => q1 [q2 [q3 q4]].
  set z0 := fguess s xs us feas.
  have hp : fpath (fmodels s) (tmodel_of (f_d s)) x0 c z0 [] s1.
  { split.
    - split; cbn [f_d s1 upd d_tr set_d_iter set_d_wasfeas set_d_dreg set_d_preg set_d_feas set_d_tr].
      + by rewrite (ptonly_nm k1) q1.
      + by rewrite k2.
    - by split.
    - rewrite /fat_steps. cbn [f_d s1 upd d_tr set_d_iter set_d_wasfeas set_d_dreg set_d_preg set_d_feas set_d_tr fsteps_from d_feas].
      rewrite k3 k4. split; [|split => //].
      + by rewrite /z0 /fguess /guess_states /models /= map_length q3.
      + rewrite /z0 /fguess /guess_controls /models /=. case: us {e k4 s1 z0} => //.
        rewrite -q1 map_map. by []. }
  have hrd : fready x0 c z0 true [] 0 s1.
  { split; [|by split; [|left]]. by split. }
  have := @floop_path E M (fmodels s) (tmodel_of (f_d s)) x0 c z0 Logic.eq_refl fuel maxiter true [] 0 s1 hp hrd Logic.eq_refl.
  have hc0 : fc_filter c = false -> costok c z0 [] (f_d s1) by move=> _ v.
  move=> /(_ hc0). by case: (fddp_loop _ _ _ _ _ _).
Qed.
Theorem C55_fddp_solve_is_a_chain x0 c fuel xs us maxiter feas reg (s : fddp M) :
  fmodels s <> [] -> usable (fc_fsize c) s ->
  match fddp_solve x0 c fuel xs us maxiter feas reg s with
  | Ret b s' =>
      exists rs : list (faccepted M),
        length rs <= maxiter /\
        Forall (faccepted_ok (fmodels s) (tmodel_of (f_d s)) x0 (fc_ddp c) (fc_filter c) (fc_fsize c) (fc_neg c)) rs /\
        fchained (fc_filter c) (fguess s xs us feas) rs /\
        (let z := fsteps_from (fc_filter c) (fguess s xs us feas) rs in
         get_xs (d_tr (f_d s')) = cd_xs z /\ get_us (d_tr (f_d s')) = cd_us z /\ d_feas (f_d s') = cd_feas z /\
         (b = true \/ fc_filter c = false -> forall v, cd_cost z = Some v -> d_cost (f_d s') = v)) /\
        usable (fc_fsize c) s'
  | Exc s' => set_guess xs us (pin_xt0 x0 (d_tr (f_d s))) = None
  | UB => False
  | NoFuel => True
  end.
Proof.
  move=> hm hu. have := fddp_solveP x0 fuel xs us maxiter feas reg hm hu.
  case: (fddp_solve _ _ _ _ _ _ _ _ _) => // b s' [rs [h [[h1 [h2 h3] h4] [h5 [h6 [h7 h8]]]]]].
  exists rs. do 3 (split; [by []|]). split.
  - case: h4 => r1 [r2 r3]. do 3 (split => //).
  - case: h5 => u1 u2. split; [exact: (holds_forget u1)|exact: (holds_forget u2)].
Qed.

Lemma fsteps_last b (z : fcand M) rs r : fsteps_from b z (rs ++ [r]) = fcand_after b r.
Proof. elim: rs z => [|q rs ih] z //=. Qed.

(** a candidate that solve marks feasible is the guess, or the roll-out of its controls from
    x0 with all gaps closed *)
Theorem C55_fddp_feasible_mark_is_truthful x0 c fuel xs us maxiter feas reg (s s' : fddp M) b :
  fmodels s <> [] -> usable (fc_fsize c) s ->
  fddp_solve x0 c fuel xs us maxiter feas reg s = Ret b s' -> d_feas (f_d s') = true ->
  (get_xs (d_tr (f_d s')) = guess_states (length (fmodels s)) xs /\
   get_us (d_tr (f_d s')) = guess_controls (fmodels s) us /\ feas = true) \/
  (exists running, rollout (fmodels s) x0 (r0 E) (get_us (d_tr (f_d s'))) (get_xs (d_tr (f_d s'))) running /\
     rollout_cost (tmodel_of (f_d s)) running (get_xs (d_tr (f_d s'))) (d_cost (f_d s'))).
Proof.
  move=> hm hu hs hf. have := C55_fddp_solve_is_a_chain x0 fuel xs us maxiter feas reg hm hu. rewrite hs.
  move=> [rs [_ [h2 [_ [[h4 [h5 [h6 h7]]] _]]]]]. move: h2 h4 h5 h6 h7.
  elim/rev_ind: rs => [|r rs' _]; first by cbn; rewrite hf; left.
  rewrite fsteps_last; cbn [cd_xs cd_us cd_feas cd_cost fcand_after]. move=> /Forall_app [_ hr] e1 e2 e3 hc. right.
  have ho : faccepted_ok (fmodels s) (tmodel_of (f_d s)) x0 (fc_ddp c) (fc_filter c) (fc_fsize c) (fc_neg c) r by inversion hr.
  move: e3. rewrite hf /fa_feas'. case ef: (fc_filter c) => // efull.
  case: (fo_shoot ho) => enm [cr [k1 k2]]. exists cr. rewrite -efull in k1. have := shoot_rollout k1.
  rewrite enm e1 e2 => k3. split => //. by rewrite (hc (or_intror ef) _ Logic.eq_refl).
Qed.

(** success is a certificate for the returned candidate *)
Theorem C55_fddp_success_certificate x0 c fuel xs us maxiter feas reg (s s' : fddp M) :
  fmodels s <> [] -> usable (fc_fsize c) s ->
  fddp_solve x0 c fuel xs us maxiter feas reg s = Ret true s' ->
  let d := f_d s' in
  linearised (d_feas d) x0 (r0 E) (run (d_tr d)) (trm (d_tr d)) (d_cost d) /\
  d_kkt d = kkt_residual (d_tr d) /\ rle E (d_kkt d) (c_tol (fc_ddp c)) = true.
Proof.
  move=> hm hu hs. have := fddp_solveP x0 fuel xs us maxiter feas reg hm hu. rewrite hs.
  move=> [rs [h [_ [_ [_ [_ /(_ Logic.eq_refl) hc]]]]]]. exact: hc.
Qed.

(** the buffer hypothesis holds on the objects a caller can build *)
Theorem C55_usable_objects :
  (forall x0 l t fsize, usable fsize (@new_fddp E M x0 l t fsize)) /\
  (forall fsize n (s : fddp M), usable fsize s -> fsize <= n -> usable n (fddp_set_filter_size n s)).
Proof.
  split; first by move=> x0 l t n; split; exact: holds_new.
  move=> fsize n s [h1 h2] hn. split; exact: (holds_grow _ hn).
Qed.
End FDDP.
Print Assumptions C55_fddp_solve_is_a_chain.
Print Assumptions C55_fddp_feasible_mark_is_truthful.
Print Assumptions C55_fddp_success_certificate.
Print Assumptions C55_usable_objects.
