(** * tryStep and the line search of SolverSQP against TrialSpec.v (any
    arithmetic). *)
From Coq Require Import ZArith List Bool Arith Lia ssreflect.
From Verif Require Import Eigen Problem DDP Filter FilterProofs SQP TrialSpec.
Import ListNotations.
Set Implicit Arguments.
Unset Strict Implicit.
Set Asymmetric Patterns.

Section Touched.
Variable E : Eig.
Variable M : manifold E.
Notation R := (R E).
Notation node := (node M).
Notation tnode := (tnode M).

(** [n'] is [n] with other trial values and another content of the data object
    left by calc *)
Definition touched (n n' : node) : Prop :=
  exists xt ut m, ((nu (nm n) =? 0) = true -> ut = put (pt n)) /\
    n' = set_mem (set_pt n (mkPoint (px (pt n)) (pu (pt n)) xt ut)) m.
Definition ttouched (n n' : tnode) : Prop := exists xt m, n' = set_tme (set_txt n xt) m.
Definition touched_traj (t t' : traj M) : Prop :=
  Forall2 touched (run t) (run t') /\ ttouched (trm t) (trm t').

Lemma touched_refl n : touched n n.
Proof.
  destruct n as [m p me d f v e a]. exists (pxt p), (put p), me.
  split => //=. by destruct p.
Qed.
Lemma ttouched_refl n : ttouched n n.
Proof. destruct n. eexists _, _. reflexivity. Qed.
Lemma touched_trans n1 n2 n3 : touched n1 n2 -> touched n2 n3 -> touched n1 n3.
Proof.
  move=> [xt [ut [m [h1 ->]]]] [xt' [ut' [m' [h2 ->]]]].
  exists xt', ut', m'. split; last reflexivity.
  move=> h. move: (h2 h) => /= ->. exact: h1.
Qed.
Lemma ttouched_trans n1 n2 n3 : ttouched n1 n2 -> ttouched n2 n3 -> ttouched n1 n3.
Proof. move=> [xt [m ->]] [xt' [m' ->]]. by exists xt', m'. Qed.
Lemma touched_list_refl l : Forall2 touched l l.
Proof. elim: l => [|n l ih]; constructor => //. exact: touched_refl. Qed.
Lemma touched_list_trans l1 l2 l3 :
  Forall2 touched l1 l2 -> Forall2 touched l2 l3 -> Forall2 touched l1 l3.
Proof.
  move=> h; elim: h l3 => [|n1 n2 l1' l2' h hl ih] l3 h3; inversion h3; subst; constructor.
  - exact: touched_trans h H1.
  - exact: ih.
Qed.
Lemma touched_traj_refl t : touched_traj t t.
Proof. split; [exact: touched_list_refl | exact: ttouched_refl]. Qed.
Lemma touched_traj_trans t1 t2 t3 : touched_traj t1 t2 -> touched_traj t2 t3 -> touched_traj t1 t3.
Proof.
  move=> [h1 h2] [h3 h4]. split; [exact: touched_list_trans h1 h3 | exact: ttouched_trans h2 h4].
Qed.

(** the trial functions ignore trial values and data objects *)
Lemma trial_x_t a n n' : touched n n' -> trial_x a n' = trial_x a n.
Proof. by move=> [xt [ut [m [_ ->]]]]. Qed.
Definition same_model (n n' : node) := nm n = nm n'.

Lemma trial_eval_t a n n' : touched n n' ->
  acost (nm n') (trial_eval a n') = acost (nm n) (trial_eval a n) /\
  axnext (nm n') (trial_eval a n') = axnext (nm n) (trial_eval a n) /\
  existT (vec E) (nu (nm n')) (trial_u a n') = existT (vec E) (nu (nm n)) (trial_u a n) /\
  (forall c, violation (alb (nm n')) (aub (nm n')) (ag (nm n') (trial_eval a n')) c
   = violation (alb (nm n)) (aub (nm n)) (ag (nm n) (trial_eval a n)) c).
Proof.
  move=> [xt [ut [m [h ->]]]].
  have e : trial_u a (set_mem (set_pt n (mkPoint (px (pt n)) (pu (pt n)) xt ut)) m) = trial_u a n.
  { rewrite /trial_u /=. case he: (nu (nm n) =? 0) => //. }
  rewrite /trial_eval e. by split.
Qed.
Lemma trial_tx_t a tn tn' : ttouched tn tn' -> trial_tx a tn' = trial_tx a tn.
Proof. by move=> [xt [m ->]]. Qed.
Lemma trial_teval_t a tn tn' : ttouched tn tn' ->
  tcost (tm tn') (trial_teval a tn') = tcost (tm tn) (trial_teval a tn) /\
  (forall c, violation (tlb (tm tn')) (tub (tm tn')) (tg (tm tn') (trial_teval a tn')) c
   = violation (tlb (tm tn)) (tub (tm tn)) (tg (tm tn) (trial_teval a tn)) c).
Proof. by move=> [xt [m ->]]. Qed.

Lemma trial_rcost_from a l l' : Forall2 touched l l' -> forall c,
  fold_left (fun c nd => radd E c (acost (nm nd) (trial_eval a nd))) l' c =
  fold_left (fun c nd => radd E c (acost (nm nd) (trial_eval a nd))) l c.
Proof. elim=> [|n n' l1 l1' h hl ih] c //=. by rewrite ih (proj1 (trial_eval_t a h)). Qed.
Lemma trial_cost_t a t t' : touched_traj t t' -> trial_cost a t' = trial_cost a t.
Proof.
  move=> [h1 h2]. by rewrite /trial_cost /trial_rcost (trial_rcost_from a h1) (proj1 (trial_teval_t a h2)).
Qed.
Lemma trial_next_t a l l' tn tn' : Forall2 touched l l' -> ttouched tn tn' ->
  trial_next_x a l' tn' = trial_next_x a l tn.
Proof. move=> [|n n' ? ? h ?] ht /=; [exact: trial_tx_t | exact: trial_x_t]. Qed.
Lemma trial_defects_t a l l' tn tn' : Forall2 touched l l' -> ttouched tn tn' -> forall acc,
  trial_defects a l' tn' acc = trial_defects a l tn acc.
Proof.
  move=> hl ht. elim: hl => [|n n' l1 l1' h hl ih] acc //=.
  by rewrite ih (trial_next_t a hl ht) (proj1 (proj2 (trial_eval_t a h))).
Qed.
Lemma trial_gap_t a t t' : touched_traj t t' -> trial_gap a t' = trial_gap a t.
Proof. move=> [h1 h2]. exact: trial_defects_t. Qed.
Lemma costs_ok_t a l l' : Forall2 touched l l' -> forall c, costs_ok a l' c = costs_ok a l c.
Proof. elim=> [|n n' l1 l1' h hl ih] c //=. by rewrite ih (proj1 (trial_eval_t a h)). Qed.
Lemma trial_ok_t a t t' : touched_traj t t' -> trial_ok a t' = trial_ok a t.
Proof.
  move=> h. rewrite /trial_ok (trial_cost_t a h) (costs_ok_t a (proj1 h)) //.
Qed.
Lemma trial_xs_t a t t' : touched_traj t t' -> trial_xs a t' = trial_xs a t.
Proof.
  move=> [h1 h2]. rewrite /trial_xs (trial_tx_t a h2). congr (_ ++ _).
  elim: h1 => [|n n' l1 l1' h hl ih] //=. by rewrite ih (trial_x_t a h).
Qed.
Lemma trial_us_t a t t' : touched_traj t t' -> trial_us a t' = trial_us a t.
Proof.
  move=> [h1 h2]. rewrite /trial_us.
  elim: h1 => [|n n' l1 l1' h hl ih] //=. by rewrite ih (proj1 (proj2 (proj2 (trial_eval_t a h)))).
Qed.
Lemma trial_con_t a t t' : touched_traj t t' -> trial_con a t' = trial_con a t.
Proof.
  move=> [h1 h2]. rewrite /trial_con (proj2 (trial_teval_t a h2)). congr (violation _ _ _ _).
  move: (r0 E). elim: h1 => [|n n' l1 l1' h hl ih] c //=.
  by rewrite ih (proj2 (proj2 (proj2 (trial_eval_t a h)))).
Qed.
Lemma get_xs_t t t' : touched_traj t t' -> get_xs t' = get_xs t.
Proof.
  move=> [h1 [xt [m h2]]]. rewrite /get_xs h2 /=. congr (_ ++ _).
  elim: h1 => [|n n' l1 l1' [x [u [me [_ h]]]] hl ih] //=. by rewrite ih h.
Qed.
Lemma get_us_t t t' : touched_traj t t' -> get_us t' = get_us t.
Proof.
  move=> [h1 _]. rewrite /get_us.
  elim: h1 => [|n n' l1 l1' [x [u [me [_ h]]]] hl ih] //=. by rewrite ih h.
Qed.
Lemma run_ne_t (t t' : traj M) : touched_traj t t' -> run t <> [] -> run t' <> [].
Proof. move=> [h _]. by case: h. Qed.
Lemma hd_x_t (t t' : traj M) : touched_traj t t' -> hd_x (run t') (trm t') = hd_x (run t) (trm t).
Proof. move=> [h [xt [m ->]]]. by case: h => [|n n' l l' [? [? [? [_ ->]]]] _]. Qed.
Lemma hd_dx_t (t t' : traj M) : touched_traj t t' -> hd_dx (run t') (trm t') = hd_dx (run t) (trm t).
Proof. move=> [h [xt [m ->]]]. by case: h => [|n n' l l' [? [? [? [_ ->]]]] _]. Qed.
End Touched.

Section SQPTrial.
Variable E : Eig.
Variable M : manifold E.
Notation R := (R E).
Notation node := (node M).
Notation tnode := (tnode M).
Variable c : scfg E.

(** the node left by a trial with step length [a] *)
Definition trial_node (a : R) (n : node) : node :=
  set_mem (set_pt n (mkPoint (px (pt n)) (pu (pt n)) (trial_x a n) (trial_u a n))) (trial_eval a n).
Definition trial_tnode (a : R) (tn : tnode) : tnode :=
  set_tme (set_txt tn (trial_tx a tn)) (trial_teval a tn).
Definition trial_traj (a : R) (t : traj M) : traj M :=
  mkTraj (map (trial_node a) (run t)) (trial_tnode a (trm t)).

Lemma touched_trial a n : touched n (trial_node a n).
Proof.
  exists (trial_x a n), (trial_u a n), (trial_eval a n). split => // h. by rewrite /trial_u h.
Qed.
Lemma ttouched_trial a tn : ttouched tn (trial_tnode a tn).
Proof. by exists (trial_tx a tn), (trial_teval a tn). Qed.
Lemma touched_trial_traj a t : touched_traj t (trial_traj a t).
Proof.
  split; last exact: ttouched_trial. rewrite /=.
  elim: (run t) => [|n l ih] /=; constructor => //. exact: touched_trial.
Qed.

Lemma try_nodeE a n : try_node a n = trial_node a n.
Proof.
  rewrite /try_node /trial_node /trial_eval /trial_u.
  by case he: (nu (nm n) =? 0).
Qed.
Lemma try_termE a tn : try_term a tn = trial_tnode a tn.
Proof. by []. Qed.

(** gap accumulated by try_nodes from an optional previous successor *)
Definition gap_in (a : R) (prev : option (mX M)) (l : list node) (tn : tnode) (gap : R) : R :=
  match prev with
  | None => gap
  | Some xn => radd E gap (vl1 E (diff M (trial_next_x a l tn) xn))
  end.

Lemma try_nodesP a l tn : forall prev cst gap,
  let r := try_nodes a prev l cst gap in
  Forall2 (@touched E M) l (snd (fst (fst r))) /\
  fst (fst (fst r)) = costs_ok a l cst /\
  (fst (fst (fst r)) = true ->
     snd (fst (fst r)) = map (trial_node a) l /\
     fst (snd (fst r)) = fold_left (fun c nd => radd E c (acost (nm nd) (trial_eval a nd))) l cst /\
     match snd r with
     | None => l = [] /\ prev = None
     | Some xn =>
         radd E (snd (snd (fst r))) (vl1 E (diff M (trial_tx a tn) xn)) =
         trial_defects a l tn (gap_in a prev l tn gap)
     end).
Proof.
  elim: l => [|n l ih] prev cst gap.
  - cbn. split; [constructor|]. split => // _. split => //. split => //. by case: prev.
  - cbn [try_nodes]. rewrite try_nodeE.
    set c' := radd E cst _. set g' := (match prev with None => _ | _ => _ end).
    cbn [costs_ok]. change (radd E cst (acost (nm n) (trial_eval a n))) with c'.
    case hr: (raiseIfNaN c').
    + cbn. split; [|split => //].
      constructor; [exact: touched_trial | exact: touched_list_refl].
    + cbn [negb andb fst snd].
      case: (ih (Some (axnext (nm n) (trial_eval a n))) c' g') => h1 [h2 h3].
      split; [|split].
      * constructor; [exact: touched_trial | exact: h1].
      * exact: h2.
      * move=> hs. case: (h3 hs) => -> [-> h4]. split; [reflexivity|]. split; [reflexivity|].
        change (axnext (nm (trial_node a n)) (mem (trial_node a n)))
          with (axnext (nm n) (trial_eval a n)).
        move: h4. case: (snd _) => [xn|]; last by case.
        move=> ->. cbn [trial_defects gap_in]. congr (trial_defects _ _ _ _).
Qed.

(** everything the line search does not change *)
Definition ls_frame (s s' : sqp M) : Prop :=
  touched_traj (q_tr s) (q_tr s') /\
  q_preg s' = q_preg s /\ q_dreg s' = q_dreg s /\ q_cost s' = q_cost s /\
  q_merit s' = q_merit s /\ q_gap s' = q_gap s /\ q_xg s' = q_xg s /\ q_ug s' = q_ug s /\
  q_kkt s' = q_kkt s /\ q_iter s' = q_iter s /\ q_costl s' = q_costl s /\
  q_gapl s' = q_gapl s /\ q_log s' = q_log s.
Lemma ls_frame_refl s : ls_frame s s.
Proof. split; [exact: touched_traj_refl|]. by repeat split. Qed.
Lemma ls_frame_trans s1 s2 s3 : ls_frame s1 s2 -> ls_frame s2 s3 -> ls_frame s1 s3.
Proof.
  rewrite /ls_frame. move=> [h1 [? [? [? [? [? [? [? [? [? [? [? ?]]]]]]]]]]]]
    [h2 [? [? [? [? [? [? [? [? [? [? [? ?]]]]]]]]]]]].
  split; [exact: touched_traj_trans h1 h2|]. by repeat split; etransitivity; eauto.
Qed.
Lemma ls_frame_step s a : ls_frame s (set_q_step a s).
Proof. split; [exact: touched_traj_refl|]. by repeat split. Qed.

(** trial merit *)
Definition trial_merit (a : R) (t : traj M) : R :=
  radd E (trial_cost a t) (rmul E (sc_mu c) (trial_gap a t)).

Lemma tryStepP a s : run (q_tr s) <> [] ->
  match sqp_tryStep c a s with
  | TUB => False
  | TThrow s1 => trial_ok a (q_tr s) = false /\ ls_frame s s1 /\ q_step s1 = q_step s
  | TOk s1 => trial_ok a (q_tr s) = true /\ ls_frame s s1 /\ q_step s1 = q_step s /\
      q_tr s1 = trial_traj a (q_tr s) /\
      q_costt s1 = trial_cost a (q_tr s) /\ q_gapt s1 = trial_gap a (q_tr s) /\
      q_meritt s1 = trial_merit a (q_tr s)
  end.
Proof.
  move=> hne. rewrite /sqp_tryStep /trial_ok /step_in_range.
  case hr: (rgt a (r1 E) || rlt E a (r0 E)).
  { split => //. split => //. exact: ls_frame_refl. }
  have := try_nodesP a (run (q_tr s)) (trm (q_tr s)) None (r0 E) (r0 E).
  set r := try_nodes a None _ _ _. cbv zeta. move=> [h1 [h2 h3]].
  rewrite -h2. cbn [negb andb].
  have ht tn : ttouched (trm (q_tr s)) tn -> touched_traj (q_tr s) (mkTraj (snd (fst (fst r))) tn)
    by move=> ?; split.
  case hok: (fst (fst (fst r))); cbn [negb andb].
  - case: (h3 hok) => hm [hc hg]. rewrite try_termE.
    case: (snd r) hg => [xn hg|[]]; last by move/hne.
    cbv zeta. move: (ht _ (ttouched_trial a (trm (q_tr s)))) => {}ht.
    rewrite hm hc in ht *.
    change (txt (trial_tnode a (trm (q_tr s)))) with (trial_tx a (trm (q_tr s))).
    rewrite hg.
    change (tcost _ (tme (trial_tnode a (trm (q_tr s)))))
      with (tcost (tm (trm (q_tr s))) (trial_teval a (trm (q_tr s)))).
    change (radd E (fold_left _ _ _) _) with (trial_cost a (q_tr s)).
    change (trial_defects a (run (q_tr s)) (trm (q_tr s)) _) with (trial_gap a (q_tr s)).
    case hn: (raiseIfNaN (trial_cost a (q_tr s))); cbn [negb andb].
    + split; [reflexivity|]. split; [|reflexivity]. split; [exact: ht|]. by repeat split.
    + split; [reflexivity|]. split; last by repeat split. split; [exact: ht|]. by repeat split.
  - split; [reflexivity|]. split; [|reflexivity]. split; [apply: ht; exact: ttouched_refl|]. by repeat split.
Qed.
End SQPTrial.

Section LineSearch.
Variable E : Eig.
Variable M : manifold E.
Notation R := (R E).
Variable c : scfg E.

(** verdict of the acceptance test on a pair of values *)
Definition acceptable (s : sqp M) (cost gap merit : R) : option bool :=
  if sc_filter c then
    match filter_worse (fun i => match cb_get (q_costl s) i, cb_get (q_gapl s) i with
                                 | Some ci, Some gi => Some (rle E ci cost && rle E gi gap)
                                 | _, _ => None
                                 end) (sc_fsize c) (q_iter s) with
    | None => None
    | Some w => Some (negb w)
    end
  else Some (rgt (q_merit s) merit).
(** step length [a] gives a trial that is evaluated and passes the test *)
Definition step_passes (s : sqp M) (a : R) : bool :=
  trial_ok a (q_tr s) &&
  match acceptable s (trial_cost a (q_tr s)) (trial_gap a (q_tr s)) (trial_merit c a (q_tr s)) with
  | Some b => b | None => false
  end.

Lemma acceptable_frame s s' x y z : ls_frame s s' -> acceptable s' x y z = acceptable s x y z.
Proof.
  move=> [_ [_ [_ [_ [h1 [_ [_ [_ [_ [h2 [h3 [h4 _]]]]]]]]]]]].
  by rewrite /acceptable h1 h2 h3 h4.
Qed.
Lemma trial_merit_t a (t t' : traj M) : touched_traj t t' -> trial_merit c a t' = trial_merit c a t.
Proof. move=> h. by rewrite /trial_merit (trial_cost_t a h) (trial_gap_t a h). Qed.
Lemma step_passes_frame s s' a : ls_frame s s' -> step_passes s' a = step_passes s a.
Proof.
  move=> h. have ht := proj1 h. rewrite /step_passes (trial_ok_t a ht) (acceptable_frame _ _ _ h).
  by rewrite (trial_cost_t a ht) (trial_gap_t a ht) (trial_merit_t a ht).
Qed.

Lemma get_xs_accept a (t : traj M) : get_xs (accept_try (trial_traj a t)) = trial_xs a t.
Proof. rewrite /get_xs /trial_xs /=. by rewrite !map_map. Qed.
Lemma get_us_accept a (t : traj M) : get_us (accept_try (trial_traj a t)) = trial_us a t.
Proof. rewrite /get_us /trial_us /=. by rewrite !map_map. Qed.

Lemma last_cons T (a d : T) r : last (a :: r) d = last r a.
Proof.
  have h : forall (l : list T) d1 d2 y, last (y :: l) d1 = last (y :: l) d2.
  { elim=> [|z l ih] d1 d2 y //. change (last (z :: l) d1 = last (z :: l) d2). exact: ih. }
  case: r => // y l. change (last (y :: l) d = last (y :: l) a). exact: h.
Qed.

Lemma line_searchP als : forall s, run (q_tr s) <> [] ->
  match sqp_line_search c als s with
  | LSUB => exists a, In a als /\ trial_ok a (q_tr s) = true /\
      acceptable s (trial_cost a (q_tr s)) (trial_gap a (q_tr s)) (trial_merit c a (q_tr s)) = None
  | LSAccept s' => exists pre a post,
      als = pre ++ a :: post /\ Forall (fun b => step_passes s b = false) pre /\
      step_passes s a = true /\ q_step s' = a /\
      q_costt s' = trial_cost a (q_tr s) /\ q_gapt s' = trial_gap a (q_tr s) /\
      q_meritt s' = trial_merit c a (q_tr s) /\
      exists s1, ls_frame s s1 /\ s' = set_q_tr (accept_try (q_tr s1)) s1 /\
        exists t1, touched_traj (q_tr s) t1 /\ q_tr s1 = trial_traj a t1
  | LSNone s' => Forall (fun b => step_passes s b = false) als /\ ls_frame s s' /\
      q_step s' = last als (q_step s)
  end.
Proof.
  elim: als => [|a r ih] s hne.
  - cbn. split; [constructor|]. split => //. exact: ls_frame_refl.
  - cbn [sqp_line_search].
    have := @tryStepP E M c a (set_q_step a s) hne.
    case: (sqp_tryStep c a (set_q_step a s)) => [s1|s1|] //.
    + move=> [hok [hf [hst [htr [hc [hg hm]]]]]].
      change (q_tr (set_q_step a s)) with (q_tr s) in *.
      have hf' : ls_frame s s1 by exact: ls_frame_trans (ls_frame_step s a) hf.
      have hacc : sqp_accept c s1 = acceptable s (trial_cost a (q_tr s)) (trial_gap a (q_tr s))
                    (trial_merit c a (q_tr s)).
      { rewrite -(acceptable_frame _ _ _ hf') /sqp_accept /acceptable /sqp_dominated hc hg hm. done. }
      rewrite hacc. case ha: (acceptable _ _ _ _) => [[]|].
      * exists [], a, r. split => //. split; first constructor.
        split; first by rewrite /step_passes hok ha. rewrite /= hst hc hg hm.
        do 4 split => //. exists s1. split => //. split => //. exists (q_tr s). split => //.
        exact: touched_traj_refl.
      * have hp : step_passes s a = false by rewrite /step_passes hok ha.
        have hne1 : run (q_tr s1) <> [].
        { exact: run_ne_t (proj1 hf') hne. }
        have := ih s1 hne1. case: (sqp_line_search c r s1) => [s'|s'|].
        -- move=> [pre [b [post [-> [h1 [h2 [h3 [h4 [h5 [h6 [s2 [h7 [h8 [t1 [h9 h10]]]]]]]]]]]]]]].
           exists (a :: pre), b, post. split => //. split.
           { constructor => //. apply: Forall_impl h1 => b'. by rewrite (step_passes_frame _ hf'). }
           rewrite -(step_passes_frame _ hf') -(trial_cost_t b (proj1 hf'))
             -(trial_gap_t b (proj1 hf')) -(trial_merit_t b (proj1 hf')).
           do 5 split => //. exists s2. split; first exact: ls_frame_trans hf' h7. split => //.
           exists t1. split => //. exact: touched_traj_trans (proj1 hf') h9.
        -- move=> [h1 [h2 h3]]. split.
           { constructor => //. apply: Forall_impl h1 => b'. by rewrite (step_passes_frame _ hf'). }
           split; first exact: ls_frame_trans hf' h2.
           by rewrite h3 hst last_cons.
        -- move=> [b [hb [h1 h2]]]. exists b. split; [by right|].
           rewrite -(trial_ok_t b (proj1 hf')) -(acceptable_frame _ _ _ hf') -(trial_cost_t b (proj1 hf'))
             -(trial_gap_t b (proj1 hf')) -(trial_merit_t b (proj1 hf')) //.
      * exists a. split; [by left|]. done.
    + move=> [hok [hf hst]].
      change (q_tr (set_q_step a s)) with (q_tr s) in *.
      have hf' : ls_frame s s1 by exact: ls_frame_trans (ls_frame_step s a) hf.
      have hp : step_passes s a = false by rewrite /step_passes hok.
      have hne1 : run (q_tr s1) <> [].
      { exact: run_ne_t (proj1 hf') hne. }
      have := ih s1 hne1. case: (sqp_line_search c r s1) => [s'|s'|].
      * move=> [pre [b [post [-> [h1 [h2 [h3 [h4 [h5 [h6 [s2 [h7 [h8 [t1 [h9 h10]]]]]]]]]]]]]]].
        exists (a :: pre), b, post. split => //. split.
        { constructor => //. apply: Forall_impl h1 => b'. by rewrite (step_passes_frame _ hf'). }
        rewrite -(step_passes_frame _ hf') -(trial_cost_t b (proj1 hf'))
          -(trial_gap_t b (proj1 hf')) -(trial_merit_t b (proj1 hf')).
        do 5 split => //. exists s2. split; first exact: ls_frame_trans hf' h7. split => //.
        exists t1. split => //. exact: touched_traj_trans (proj1 hf') h9.
      * move=> [h1 [h2 h3]]. split.
        { constructor => //. apply: Forall_impl h1 => b'. by rewrite (step_passes_frame _ hf'). }
        split; first exact: ls_frame_trans hf' h2.
        by rewrite h3 hst last_cons.
      * move=> [b [hb [h1 h2]]]. exists b. split; [by right|].
        rewrite -(trial_ok_t b (proj1 hf')) -(acceptable_frame _ _ _ hf') -(trial_cost_t b (proj1 hf'))
          -(trial_gap_t b (proj1 hf')) -(trial_merit_t b (proj1 hf')) //.
Qed.
End LineSearch.
