(** * tryStep and the line search of SolverCSQP against TrialSpec.v (any
    arithmetic). *)
From Coq Require Import ZArith List Bool Arith Lia ssreflect.
From Verif Require Import Eigen Problem DDP Filter FilterProofs SQP CSQP TrialSpec TraceSpec SQPTrial CSQPSpec.
Import ListNotations.
Set Implicit Arguments.
Unset Strict Implicit.
Set Asymmetric Patterns.

Section CTrial.
Variable E : Eig.
Variable M : manifold E.
Notation R := (R E).
Notation node := (node M).
Notation tnode := (tnode M).
Variable c : ccfg E.

Lemma touched_ctrial a (n : node) : touched n (ctrial_node a n).
Proof.
  exists (trial_x a n), (trial_u a n), (mem n). split.
  - by rewrite /trial_u => ->.
  - rewrite /ctrial_node /trial_u. case: (nu (nm n) =? 0); by destruct n.
Qed.
Lemma ceval_trial a (n : node) : ceval_node (ctrial_node a n) = trial_node a n.
Proof. rewrite /ceval_node /ctrial_node /trial_node /trial_eval /trial_u /=. by case: (nu (nm n) =? 0). Qed.
Definition ctx a (tn : tnode) : tnode := set_txt tn (trial_tx a tn).
Lemma hd_xt_trial a l tn : hd_xt (map (ctrial_node a) l) (ctx a tn) = trial_next_x a l tn.
Proof. by case: l. Qed.

Lemma ceval_nodesP a l (tn : tnode) : forall cst gap con,
  let r := ceval_nodes (map (ctrial_node a) l) (ctx a tn) cst gap con in
  Forall2 (@touched E M) l (snd (fst r)) /\
  fst (fst r) = costs_ok a l cst /\
  (fst (fst r) = true ->
     snd (fst r) = map (trial_node a) l /\
     fst (fst (snd r)) = fold_left (fun c nd => radd E c (acost (nm nd) (trial_eval a nd))) l cst /\
     snd (fst (snd r)) = trial_defects a l tn gap /\
     snd (snd r) = fold_left (fun c nd => violation (alb (nm nd)) (aub (nm nd)) (ag (nm nd) (trial_eval a nd)) c) l con).
Proof.
  elim: l => [|n l ih] cst gap con.
  - cbn. by split; [constructor|].
  - cbn [map ceval_nodes]. rewrite ceval_trial hd_xt_trial.
    cbn [costs_ok]. change (acost (nm (trial_node a n)) (mem (trial_node a n))) with (acost (nm n) (trial_eval a n)).
    set c' := radd E cst _.
    case hr: (raiseIfNaN c').
    + cbn [fst snd negb andb]. split; [|by split].
      constructor; [exact: touched_trial|]. elim: (l) => [|n' l' ih'] /=; constructor => //. exact: touched_ctrial.
    + cbn [fst snd negb andb]. set g' := radd E gap _. set k' := radd E _ _.
      case: (ih c' g' k') => h1 [h2 h3]. split; [|split].
      * constructor; [exact: touched_trial | exact: h1].
      * exact: h2.
      * move=> hs. case: (h3 hs) => -> [-> [-> ->]]. by [].
Qed.

(** everything the line search does not change *)
Record lframe (s s' : csqp M) : Prop := mkLframe {
  lf_tr : touched_traj (k_tr s) (k_tr s');
  lf_preg : k_preg s' = k_preg s; lf_dreg : k_dreg s' = k_dreg s;
  lf_cost : k_cost s' = k_cost s; lf_gap : k_gap s' = k_gap s; lf_con : k_con s' = k_con s;
  lf_merit : k_merit s' = k_merit s; lf_kkt : k_kkt s' = k_kkt s; lf_lagn : k_lagn s' = k_lagn s;
  lf_iter : k_iter s' = k_iter s; lf_step : k_step s' = k_step s;
  lf_costl : k_costl s' = k_costl s; lf_gapl : k_gapl s' = k_gapl s; lf_conl : k_conl s' = k_conl s;
  lf_rho : k_rho s' = k_rho s; lf_qpit : k_qpit s' = k_qpit s;
  lf_reached : k_reached s' = k_reached s; lf_clk : k_clk s' = k_clk s; lf_log : k_log s' = k_log s
}.
Lemma lframe_refl s : lframe s s.
Proof. split => //. exact: touched_traj_refl. Qed.
Lemma lframe_trans s1 s2 s3 : lframe s1 s2 -> lframe s2 s3 -> lframe s1 s3.
Proof.
  move=> [h1 a1 a2 a3 a4 a5 a6 a7 a8 a9 a10 a11 a12 a13 a14 a15 a16 a17 a18]
    [k1 b1 b2 b3 b4 b5 b6 b7 b8 b9 b10 b11 b12 b13 b14 b15 b16 b17 b18].
  split; [exact: touched_traj_trans h1 k1| | | | | | | | | | | | | | | | | |]; congruence.
Qed.

Definition ctrial_merit (s : csqp M) (a : R) : R :=
  merit_of c (k_lagn s) (trial_cost a (k_tr s)) (trial_gap a (k_tr s)) (trial_con a (k_tr s)).

Lemma ctryStepP a (s : csqp M) :
  let r := csqp_tryStep c a s in
  fst r = trial_ok a (k_tr s) /\ lframe s (snd r) /\
  (fst r = true -> k_tr (snd r) = trial_traj a (k_tr s) /\
     k_costt (snd r) = trial_cost a (k_tr s) /\ k_gapt (snd r) = trial_gap a (k_tr s) /\
     k_cont (snd r) = trial_con a (k_tr s) /\ k_meritt (snd r) = ctrial_merit s a).
Proof.
  rewrite /csqp_tryStep /trial_ok /step_in_range.
  case hr: (rgt a (r1 E) || rlt E a (r0 E)).
  { split => //. split => //. exact: lframe_refl. }
  have := ceval_nodesP a (run (k_tr s)) (trm (k_tr s)) (r0 E) (r0 E) (r0 E).
  change (map (ctrial_node a) (run (k_tr s))) with (run (ctrial a (k_tr s))).
  change (ctx a (trm (k_tr s))) with (trm (ctrial a (k_tr s))).
  set r := ceval_nodes _ _ _ _ _. cbv zeta. move=> [h1 [h2 h3]].
  rewrite -h2. cbn [negb andb].
  have ht tn : ttouched (trm (k_tr s)) tn -> touched_traj (k_tr s) (mkTraj (snd (fst r)) tn)
    by move=> ?; split.
  case hok: (fst (fst r)); cbn [negb andb fst snd].
  - case: (h3 hok) => hm [hc [hg hk]].
    set tn := set_tme _ _.
    have etn : tn = trial_tnode a (trm (k_tr s)) by [].
    move: (ht _ (ttouched_trial a (trm (k_tr s)))) => {}ht.
    rewrite -etn in ht. rewrite hc hg hk.
    split => //. split.
    + split; try reflexivity. exact: ht.
    + move=> _. split; last by [].
      by rewrite etn hm.
  - split => //. split => //. split; try reflexivity. apply: ht.
    exists (trial_tx a (trm (k_tr s))), (tme (trm (k_tr s))). rewrite /ctrial /= /trial_tx. by case: (trm (k_tr s)).
Qed.

(** verdict of the acceptance test on a triple of values *)
Definition cacceptable (s : csqp M) (cost gap con merit : R) : option bool :=
  if cc_filter c then
    match filter_worse (fun i => match cb_get (k_costl s) i, cb_get (k_gapl s) i, cb_get (k_conl s) i with
                                 | Some ci, Some gi, Some hi => Some (rle E ci cost && rle E gi gap && rle E hi con)
                                 | _, _, _ => None
                                 end) (cc_fsize c) (k_iter s) with
    | None => None
    | Some w => Some (negb w)
    end
  else Some (rgt (k_merit s) merit).
Definition cverdict (s : csqp M) (a : R) : option bool :=
  cacceptable s (trial_cost a (k_tr s)) (trial_gap a (k_tr s)) (trial_con a (k_tr s)) (ctrial_merit s a).
Definition cpasses (s : csqp M) (a : R) : bool :=
  trial_ok a (k_tr s) && match cverdict s a with Some b => b | None => false end.

Lemma cverdict_frame s s' a : lframe s s' -> cverdict s' a = cverdict s a.
Proof.
  move=> h. have ht := lf_tr h. rewrite /cverdict /cacceptable /ctrial_merit.
  rewrite (trial_cost_t a ht) (trial_gap_t a ht) (trial_con_t a ht) (lf_lagn h) (lf_costl h) (lf_gapl h) (lf_conl h)
    (lf_iter h) (lf_merit h) //.
Qed.
Lemma cpasses_frame s s' a : lframe s s' -> cpasses s' a = cpasses s a.
Proof. move=> h. by rewrite /cpasses (cverdict_frame a h) (trial_ok_t a (lf_tr h)). Qed.

Lemma cline_searchP als : forall s,
  match csqp_line_search c als s with
  | CLSUB => exists a, In a als /\ trial_ok a (k_tr s) = true /\ cverdict s a = None
  | CLSAccept a s' => exists pre post,
      als = pre ++ a :: post /\ Forall (fun b => cpasses s b = false) pre /\
      cpasses s a = true /\
      k_costt s' = trial_cost a (k_tr s) /\ k_gapt s' = trial_gap a (k_tr s) /\
      k_cont s' = trial_con a (k_tr s) /\ k_meritt s' = ctrial_merit s a /\
      exists s1, lframe s s1 /\ s' = set_k_tr (accept_try (k_tr s1)) s1 /\
        exists t1, touched_traj (k_tr s) t1 /\ k_tr s1 = trial_traj a t1
  | CLSNone s' => Forall (fun b => cpasses s b = false) als /\ lframe s s'
  end.
Proof.
  elim: als => [|a r ih] s.
  - cbn. split; [constructor|]. exact: lframe_refl.
  - cbn [csqp_line_search]. case: (ctryStepP a s).
    set s1 := snd (csqp_tryStep c a s). move=> hok [hf hv].
    have rec : cpasses s a = false ->
      match csqp_line_search c r s1 with
      | CLSUB => exists b, In b (a :: r) /\ trial_ok b (k_tr s) = true /\ cverdict s b = None
      | CLSAccept b s' => exists pre post,
        a :: r = pre ++ b :: post /\ Forall (fun b => cpasses s b = false) pre /\
        cpasses s b = true /\
        k_costt s' = trial_cost b (k_tr s) /\ k_gapt s' = trial_gap b (k_tr s) /\
        k_cont s' = trial_con b (k_tr s) /\ k_meritt s' = ctrial_merit s b /\
        exists s2, lframe s s2 /\ s' = set_k_tr (accept_try (k_tr s2)) s2 /\
        exists t1, touched_traj (k_tr s) t1 /\ k_tr s2 = trial_traj b t1
      | CLSNone s' => Forall (fun b => cpasses s b = false) (a :: r) /\ lframe s s'
      end.
    { move=> hp. have := ih s1. case: (csqp_line_search c r s1) => [b s'|s'|].
      - move=> [pre [post [-> [h1 [h2 [h4 [h5 [h6 [h6' [s2 [h7 [h8 [t1 [h9 h10]]]]]]]]]]]]]].
        exists (a :: pre), post. split => //. split.
        { constructor => //. apply: Forall_impl h1 => b'. by rewrite (cpasses_frame _ hf). }
        have hm : ctrial_merit s1 b = ctrial_merit s b.
        { rewrite /ctrial_merit (trial_cost_t b (lf_tr hf)) (trial_gap_t b (lf_tr hf))
            (trial_con_t b (lf_tr hf)) (lf_lagn hf) //. }
        rewrite -(cpasses_frame _ hf) -(trial_cost_t b (lf_tr hf))
          -(trial_gap_t b (lf_tr hf)) -(trial_con_t b (lf_tr hf)) -hm.
        do 5 split => //. exists s2. split; first exact: lframe_trans hf h7. split => //.
        exists t1. split => //. exact: touched_traj_trans (lf_tr hf) h9.
      - move=> [h1 h2]. split; last exact: lframe_trans hf h2.
        constructor => //. apply: Forall_impl h1 => b'. by rewrite (cpasses_frame _ hf).
      - move=> [b [hb [h1 h2]]]. exists b. split; [by right|].
        by rewrite -(trial_ok_t b (lf_tr hf)) -(cverdict_frame b hf). }
    move: hok hv. case e: (fst (csqp_tryStep c a s)) => hok hv.
    + case: (hv (Logic.eq_refl _)) => htr [hc [hg [hk hm]]].
      have hacc : csqp_accept c s1 = cverdict s a.
      { rewrite -(cverdict_frame a hf) /csqp_accept /cverdict /cacceptable /csqp_dominated hc hg hk hm.
        rewrite (trial_cost_t a (lf_tr hf)) (trial_gap_t a (lf_tr hf)) (trial_con_t a (lf_tr hf)).
        rewrite /ctrial_merit (trial_cost_t a (lf_tr hf)) (trial_gap_t a (lf_tr hf)) (trial_con_t a (lf_tr hf)) (lf_lagn hf). done. }
      rewrite hacc. case ha: (cverdict s a) => [[]|].
      * exists [], r. split => //. split; first constructor.
        split; first by rewrite /cpasses -hok ha. rewrite /= hc hg hk hm.
        do 4 split => //. exists s1. split => //. split => //. exists (k_tr s). split => //.
        exact: touched_traj_refl.
      * apply: rec. by rewrite /cpasses -hok ha.
      * exists a. split; [by left|]. by rewrite -hok.
    + apply: rec. by rewrite /cpasses -hok.
Qed.
End CTrial.
