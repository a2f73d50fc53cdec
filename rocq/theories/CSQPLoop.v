(** * Invariants of SolverCSQP::solve (any arithmetic). *)
From Coq Require Import ZArith List Bool Arith Lia ssreflect.
From Verif Require Import Eigen Problem DDP Filter FilterProofs SQP CSQP TrialSpec TraceSpec Rounds SQPSpec CSQPSpec
  SQPTrial SQPLoop CSQPFrames CSQPTrial.
Import ListNotations.
Set Implicit Arguments.
Unset Strict Implicit.
Set Asymmetric Patterns.

Section Eval.
Variable E : Eig.
Variable M : manifold E.
Notation R := (R E).
Notation node := (node M).
Notation tnode := (tnode M).
Notation vec := (vec E).

(** the stored evaluation is that of the current xs, us *)
Definition ccons (t : traj M) : Prop := fresh t /\ diffed t /\ gaps_ok (vzero E) (run t) (trm t).
Lemma ccons_id t : ccons t -> creeval t = t.
Proof.
  move=> [h1 [h2 h3]]. rewrite /creeval (fresh_calc h1) (diffed_id h2) (gaps_ok_id h3). by destruct t.
Qed.
Lemma gaps_hd (l : list node) tn f : gaps_ok f l tn -> hd_fs l tn = f.
Proof. case: l => [|n l] //=. by case. Qed.

(** what a pass does not change *)
Lemma cp_hd_x (l l' : list node) tn tn' : Forall2 (@cpassed E M) l l' -> tcpassed tn tn' -> hd_x l' tn' = hd_x l tn.
Proof.
  move=> h [? [? [? [? [? [? [? [? [? [? [? ->]]]]]]]]]]].
  by case: h => [|n n' ? ? [? [? [? ->]]] _].
Qed.
Lemma cp_hd_fs (l l' : list node) tn tn' : Forall2 (@cpassed E M) l l' -> tcpassed tn tn' -> hd_fs l' tn' = hd_fs l tn.
Proof.
  move=> h [? [? [? [? [? [? [? [? [? [? [? ->]]]]]]]]]]].
  by case: h => [|n n' ? ? [? [? [? ->]]] _].
Qed.
Lemma cp_gaps f (l l' : list node) tn tn' : Forall2 (@cpassed E M) l l' -> tcpassed tn tn' ->
  gaps_ok f l tn -> gaps_ok f l' tn'.
Proof.
  move=> h ht. elim: h f => [|n n' l1 l1' h hl ih] f /=.
  - by case: ht => [? [? [? [? [? [? [? [? [? [? [? ->]]]]]]]]]]].
  - move=> [h1 h2]. split; first by case: h => [? [? [? ->]]].
    rewrite (cp_hd_x hl ht).
    have -> : axnext (nm n') (mem n') = axnext (nm n) (mem n) by case: h => [? [? [? ->]]].
    exact: ih.
Qed.
Lemma cp_cons (t t' : traj M) : cpassed_traj t t' -> ccons t -> ccons t'.
Proof.
  move=> [hl ht] [[h1 h2] [[h3 h4] h5]]. split; [split|split; [split|]].
  - move: h1. elim: hl => [|n n' l l' [v [d [a ->]]] _ ih] h; inversion h; subst; constructor => //. exact: ih.
  - by case: ht => [? [? [? [? [? [? [? [? [? [? [? ->]]]]]]]]]]].
  - move: h3. elim: hl => [|n n' l l' [v [d [a ->]]] _ ih] h; inversion h; subst; constructor => //. exact: ih.
  - by case: ht => [? [? [? [? [? [? [? [? [? [? [? ->]]]]]]]]]]].
  - exact: cp_gaps hl ht h5.
Qed.
Lemma cp_cost (t t' : traj M) : cpassed_traj t t' -> stored_cost t' = stored_cost t.
Proof.
  move=> [h [? [? [? [? [? [? [? [? [? [? [? e]]]]]]]]]]]]. rewrite /stored_cost e /=. congr (radd _ _ _).
  move: (r0 E). elim: h => [|n n' l1 l1' [w [e1 [e2 ->]]] _ ih] a //=.
Qed.
Lemma cp_gap (t t' : traj M) : cpassed_traj t t' -> stored_gap t' = stored_gap t.
Proof.
  move=> [h [? [? [? [? [? [? [? [? [? [? [? e]]]]]]]]]]]]. rewrite /stored_gap e /=.
  case: h => [|n n' l1 l1' _ h] //=. congr (radd _ _ _).
  move: (r0 E). elim: h => [|m m' l2 l2' [w [e1 [e2 ->]]] _ ih] a //=.
Qed.
Lemma cp_con (t t' : traj M) : cpassed_traj t t' -> stored_con t' = stored_con t.
Proof.
  move=> [h [? [? [? [? [? [? [? [? [? [? [? e]]]]]]]]]]]]. rewrite /stored_con e /=. congr (violation _ _ _ _).
  move: (r0 E). elim: h => [|n n' l1 l1' [w [e1 [e2 ->]]] _ ih] a //=.
Qed.
Lemma cp_xs (t t' : traj M) : cpassed_traj t t' -> get_xs t' = get_xs t /\ get_us t' = get_us t.
Proof.
  move=> [h [? [? [? [? [? [? [? [? [? [? [? e]]]]]]]]]]]]. rewrite /get_xs /get_us e /=. split.
  - congr (_ ++ _). elim: h => [|n n' l1 l1' [w [e1 [e2 ->]]] _ ih] //=. by rewrite ih.
  - elim: h => [|n n' l1 l1' [w [e1 [e2 ->]]] _ ih] //=. by rewrite ih.
Qed.
Lemma cp_nm (t t' : traj M) : cpassed_traj t t' -> map (@nm E M) (run t') = map (@nm E M) (run t).
Proof. move=> [h _]. elim: h => [|n n' l1 l1' [w [e1 [e2 ->]]] _ ih] //=. by rewrite ih. Qed.

(** ** calc *)
Lemma calc_someP (l : list node) (tn : tnode) : forall f g gap con, gap = radd E g (vl1 E f) ->
  let r := calc_nodes (Some f) l tn gap con in
  (fst (fst r), snd (fst r)) = gaps_from f l tn /\
  fst (snd r) = radd E (fold_left (fun a n' => radd E a (vl1 E (fs n'))) (fst (fst r)) g) (vl1 E (tfs (snd (fst r)))) /\
  snd (snd r) = fold_left (fun a n => violation (alb (nm n)) (aub (nm n)) (ag (nm n) (mem n)) a) (fst (fst r)) con.
Proof.
  elim: l => [|n l ih] f g gap con hg.
  - cbn. by split.
  - cbn [calc_nodes gaps_from]. cbv zeta. set f' := diff M _ _. set con' := radd E (radd E con _) _.
    case: (ih f' gap (radd E gap (vl1 E f')) con') => //. cbv zeta.
    set r := calc_nodes _ _ _ _ _. set q := gaps_from f' l tn. move=> h1 [h2 h3].
    cbn [fst snd]. split; [|split].
    + by rewrite -h1.
    + by rewrite h2 /= hg.
    + by rewrite h3.
Qed.
Lemma calc_noneP (t : traj M) : hd_fs (run t) (trm t) = vzero E ->
  let r := calc_nodes None (run t) (trm t) (r0 E) (r0 E) in
  (fst (fst r), snd (fst r)) = gaps_from (vzero E) (run t) (trm t) /\
  fst (snd r) = stored_gap (mkTraj (fst (fst r)) (snd (fst r))) /\
  snd (snd r) = fold_left (fun a n => violation (alb (nm n)) (aub (nm n)) (ag (nm n) (mem n)) a) (fst (fst r)) (r0 E).
Proof.
  destruct t as [[|n l] tn]; cbn [run trm hd_fs].
  - cbn. move=> <-. split => //. by destruct tn.
  - move=> hf. cbn [calc_nodes]. cbv zeta. set f' := diff M _ _. set con' := radd E (radd E (r0 E) _) _.
    case: (@calc_someP l tn f' (r0 E) (radd E (r0 E) (vl1 E f')) con') => //. cbv zeta.
    set r := calc_nodes _ _ _ _ _. move=> h1 [h2 h3]. cbn [fst snd].
    split; [|split].
    + cbn [gaps_from]. rewrite -/f' -h1 -hf. by destruct n.
    + by rewrite h2.
    + by rewrite h3.
Qed.

(** points and directions of a trajectory that evaluation keeps *)
Record epts (t t' : traj M) : Prop := mkEpts {
  ep_xs : get_xs t' = get_xs t; ep_us : get_us t' = get_us t;
  ep_nm : map (@nm E M) (run t') = map (@nm E M) (run t);
  ep_x : hd_x (run t') (trm t') = hd_x (run t) (trm t);
  ep_z : zeros t -> zeros t'
}.
Definition evald (n n' : node) : Prop := exists m d f, n' = set_fs (set_der (set_mem n m) d) f.
Definition tevald (n n' : tnode) : Prop := exists m d f, n' = set_tfs (set_tder (set_tme n m) d) f.
Lemma evald_pts l l' tn tn' : Forall2 evald l l' -> tevald tn tn' -> epts (mkTraj l tn) (mkTraj l' tn').
Proof.
  move=> h [m [d [f ->]]]. split; rewrite /get_xs /get_us /zeros /=.
  - congr (_ ++ _). elim: h => [|n n' l1 l1' [? [? [? ->]]] _ ih] //=. by rewrite ih.
  - elim: h => [|n n' l1 l1' [? [? [? ->]]] _ ih] //=. by rewrite ih.
  - elim: h => [|n n' l1 l1' [? [? [? ->]]] _ ih] //=. by rewrite ih.
  - by case: h => [|n n' l1 l1' [? [? [? ->]]] _].
  - by case: h => [|n n' l1 l1' [? [? [? ->]]] _].
Qed.
Lemma gaps_evald l (tn : tnode) : forall f,
  Forall2 evald l (fst (gaps_from f (map (@node_calcDiff E M) (map (@node_calc E M) l)) (tnode_calcDiff (tnode_calc tn)))) /\
  tevald tn (snd (gaps_from f (map (@node_calcDiff E M) (map (@node_calc E M) l)) (tnode_calcDiff (tnode_calc tn)))).
Proof.
  elim: l => [|n l ih] f.
  - cbn. split; [constructor|]. eexists _, _, _. reflexivity.
  - cbn [gaps_from map]. cbv zeta. set f' := diff M _ _. case: (ih f') => h1 h2. split => //.
    constructor => //. eexists _, _, _. reflexivity.
Qed.

(** calc: the values and the gaps are those of a fresh evaluation *)
Definition evaluated (s : csqp M) : Prop :=
  ccons (k_tr s) /\ k_cost s = stored_cost (k_tr s) /\ k_gap s = stored_gap (k_tr s) /\ k_con s = stored_con (k_tr s).
Record cframe (s s' : csqp M) : Prop := mkCframe {
  cf_preg : k_preg s' = k_preg s; cf_dreg : k_dreg s' = k_dreg s;
  cf_merit : k_merit s' = k_merit s; cf_iter : k_iter s' = k_iter s; cf_step : k_step s' = k_step s;
  cf_costl : k_costl s' = k_costl s; cf_gapl : k_gapl s' = k_gapl s; cf_conl : k_conl s' = k_conl s;
  cf_reached : k_reached s' = k_reached s; cf_clk : k_clk s' = k_clk s; cf_log : k_log s' = k_log s;
  cf_rho : k_rho s' = k_rho s; cf_qpit : k_qpit s' = k_qpit s }.
Lemma calcP (s : csqp M) : hd_fs (run (k_tr s)) (trm (k_tr s)) = vzero E ->
  evaluated (csqp_calc s) /\ epts (k_tr s) (k_tr (csqp_calc s)) /\ cframe s (csqp_calc s) /\
  k_tr (csqp_calc s) = creeval (k_tr s).
Proof.
  move=> hf. rewrite /csqp_calc. cbv zeta.
  set t := fst (problem_calcDiff (problem_calc (k_tr s))).
  have hf' : hd_fs (run t) (trm t) = vzero E.
  { rewrite -hf /t /=. by case: (run (k_tr s)). }
  have := calc_noneP hf'. cbv zeta. set v := calc_nodes _ _ _ _ _. move=> [h1 [h2 h3]].
  set s' := set_k_con _ _.
  have e : k_tr s' = creeval (k_tr s).
  { rewrite /creeval -/t. cbv zeta. rewrite -h1. by []. }
  have hg : gaps_ok (vzero E) (fst (fst v)) (snd (fst v)).
  { case: (gaps_fromP (vzero E) (run t) (trm t)) => _ [_ [h _]]. by rewrite -h1 in h. }
  case: (gaps_evald (run (k_tr s)) (trm (k_tr s)) (vzero E)).
  change (gaps_from _ _ _) with (gaps_from (vzero E) (run t) (trm t)). rewrite -h1. cbn [fst snd]. move=> g1 g2.
  have hfresh : Forall2 (@fsonly E M) (run t) (fst (fst v)) /\ exists f, snd (fst v) = set_tfs (trm t) f.
  { case: (gaps_fromP (vzero E) (run t) (trm t)) => k1 [k2 _]. by rewrite -h1 in k1 k2. }
  case: hfresh => k1 [f k2].
  split; [|split; [|split]] => //.
  - split; [|split; [|split]].
    + split; [|split].
      * split; last by rewrite [trm _]k2.
        change (run (k_tr s')) with (fst (fst v)).
        have h : Forall (@fresh_node E M) (run t).
        { rewrite /t /= map_map. elim: (run (k_tr s)) => [|n l ih] /=; constructor => //. }
        elim: k1 h => [|n n' l l' [g ->] _ ih] h; inversion h; subst; constructor => //. exact: ih.
      * split; last by rewrite [trm _]k2.
        change (run (k_tr s')) with (fst (fst v)).
        have h : Forall (@diffed_node E M) (run t).
        { rewrite /t /= map_map. elim: (run (k_tr s)) => [|n l ih] /=; constructor => //. }
        elim: k1 h => [|n n' l l' [g ->] _ ih] h; inversion h; subst; constructor => //. exact: ih.
      * exact: hg.
    + change (stored_cost (problem_calc (k_tr s)) = stored_cost (mkTraj (fst (fst v)) (snd (fst v)))).
      rewrite /stored_cost k2 /=. congr (radd _ _ _). move: k1. rewrite /t /=.
      generalize (fst (fst v)) (r0 E). elim: (run (k_tr s)) => [|n l ih] l' a h; inversion h; subst => //=.
      case: H1 => g ->. exact: (ih _ _ H3).
    + exact: h2.
    + rewrite /s' /stored_con /=. by rewrite h3.
  - destruct (k_tr s) as [l tn]. exact: evald_pts.
Qed.

(** evaluation of an accepted trial *)
Fixpoint go (tn : tnode) (l : list node) (acc : R) : R :=
  match l with
  | [] => acc
  | n :: l' => go tn l' (radd E acc (vl1 E (diff M (hd_x l' tn) (axnext (nm n) (fresh_mem n)))))
  end.
Lemma creeval_gap (t : traj M) : stored_gap (creeval t) = go (trm t) (run t) (r0 E).
Proof.
  destruct t as [[|n0 l0] tn]; first by []. rewrite /creeval /stored_gap.
  cbn [fst problem_calcDiff problem_calc run trm gaps_from map]. cbv zeta. cbn [fst snd run trm].
  suff gen : forall l f acc n (e : f = diff M (hd_x l tn) (axnext (nm n) (fresh_mem n))),
    let r := gaps_from f (map (@node_calcDiff E M) (map (@node_calc E M) l)) (tnode_calcDiff (tnode_calc tn)) in
    radd E (fold_left (fun a n' => radd E a (vl1 E (fs n'))) (fst r) acc) (vl1 E (tfs (snd r))) = go tn (n :: l) acc.
  { rewrite -(gen l0 (diff M (hd_x l0 tn) (axnext (nm n0) (fresh_mem n0)))) //.
    have -> : diff M (hd_x (map (@node_calcDiff E M) (map (@node_calc E M) l0)) (tnode_calcDiff (tnode_calc tn)))
      (axnext (nm (node_calcDiff (node_calc n0))) (mem (node_calcDiff (node_calc n0)))) =
      diff M (hd_x l0 tn) (axnext (nm n0) (fresh_mem n0)) by case: (l0).
    by []. }
  elim=> [|m l ih] f acc n e.
  - cbn. by rewrite e.
  - cbn [map gaps_from]. cbv zeta. cbn [fst snd fold_left].
    rewrite (ih _ (radd E acc (vl1 E f)) m); first by case: (l).
    cbn [go]. by rewrite e.
Qed.
Lemma creeval_cost (t : traj M) : stored_cost (creeval t) = stored_cost (problem_calc t).
Proof.
  rewrite /creeval. cbv zeta. set t1 := fst (problem_calcDiff (problem_calc t)).
  case: (gaps_fromP (vzero E) (run t1) (trm t1)) => h1 [[f h2] _].
  rewrite /stored_cost /= h2 /=. congr (radd _ _ _). move: h1. rewrite /t1 /=. move: (r0 E).
  elim: (run t) (fst _) => [|n l ih] l' a h; inversion h; subst => //=.
  case: H1 => g ->. exact: (ih _ _ H3).
Qed.
Lemma creeval_con (t : traj M) : stored_con (creeval t) = stored_con (problem_calc t).
Proof.
  rewrite /creeval. cbv zeta. set t1 := fst (problem_calcDiff (problem_calc t)).
  case: (gaps_fromP (vzero E) (run t1) (trm t1)) => h1 [[f h2] _].
  rewrite /stored_con /= h2 /=. congr (violation _ _ _ _). move: h1. rewrite /t1 /=. move: (r0 E).
  elim: (run t) (fst _) => [|n l ih] l' a h; inversion h; subst => //=.
  case: H1 => g ->. exact: (ih _ _ H3).
Qed.
Lemma carried_values a (t : traj M) : let t' := creeval (accept_try (trial_traj a t)) in
  stored_cost t' = trial_cost a t /\ stored_gap t' = trial_gap a t /\ stored_con t' = trial_con a t.
Proof.
  cbv zeta. rewrite creeval_cost creeval_con (fresh_calc (fresh_trial a t)).
  split; [exact: stored_cost_trial|]. split.
  - rewrite creeval_gap /trial_gap. cbn [run trm accept_try trial_traj]. rewrite map_map.
    move: (run t) (r0 E) => l.
    elim: l => [|n l ih] acc //. cbn [map trial_defects go]. rewrite -ih.
    congr (go _ _ _). congr (radd _ _ (vl1 _ (diff _ _ _))). by case: (l).
  - rewrite /stored_con /trial_con /=. congr (violation _ _ _ _). rewrite map_map.
    move: (r0 E). elim: (run t) => [|n l ih] x //=.
Qed.
End Eval.

Lemma some_inj A (x y : A) : Some x = Some y -> x = y.
Proof. by case. Qed.

(** ** Directions *)
Section Dir.
Variable E : Eig.
Variable M : manifold E.
Notation R := (R E).
Variable c : ccfg E.
Variable timeout : nat -> bool.
Notation dc := (cc_ddp c).

Definition setreg (p q : R) (s : csqp M) : csqp M := set_k_dreg q (set_k_preg p s).
(** frame up to regularisation *)
Definition dframe' (s s' : csqp M) : Prop := exists p q, dframe (setreg p q s) s'.
Lemma dframe_setreg p q (s s' : csqp M) : dframe s s' -> dframe (setreg p q s) (setreg p q s').
Proof. by case=> *; split. Qed.
Lemma setreg_id (s : csqp M) : setreg (k_preg s) (k_dreg s) s = s.
Proof. by destruct s. Qed.
Lemma dframe'_refl s : dframe' s s.
Proof. exists (k_preg s), (k_dreg s). rewrite setreg_id. exact: dframe_refl. Qed.
Lemma dframe'_step s s1 s2 : dframe' s s1 -> dframe s1 s2 -> dframe' s s2.
Proof. move=> [p [q h1]] h2. exists p, q. exact: dframe_trans h1 h2. Qed.
Lemma dframe'_inc s s' : dframe' s s' -> dframe' s (csqp_inc c s').
Proof.
  move=> [p [q h]]. exists (inc_reg dc (k_preg s')), (inc_reg dc (k_preg s')).
  exact: (dframe_setreg _ _ h).
Qed.

Lemma retryP watch : forall fuel s0 s, dframe' s0 s ->
  match csqp_retry c timeout watch fuel s with
  | DirOk s' => dframe' s0 s' /\ (k_reached s = false ->
      (exists s1, csqp_computeDirection c timeout s1 = QDone s') /\
      (k_reached s' = true -> exists n, timeout n = true /\ k_clk s' = S n))
  | DirFail s' => dframe' s0 s' /\ (k_reached s = false -> k_reached s' = false)
  | DirExc _ => False
  | DirUB => cc_interval c = 0
  | DirNoFuel => True
  end.
Proof.
  elim=> [|fuel ih] s0 s hs //. cbn [csqp_retry].
  case hw: (watch && k_reached s).
  { split => // hr. by rewrite hr andb_false_r in hw. }
  have := computeDirectionP c timeout s.
  case e: (csqp_computeDirection c timeout s) => [s1|s1|] //.
  - move=> [h1 h2]. split; first exact: dframe'_step hs h1. move=> hr. split; first by exists s.
    exact: h2.
  - move=> [h1 h2]. have h3 := dframe'_inc (dframe'_step hs h1).
    case: (rge _ _); first by split => //= <-. have := ih s0 _ h3.
    case: (csqp_retry c timeout watch fuel (csqp_inc c s1)) => // s' [h4 h5]; (split; [done|]) => hr;
    apply: h5; by rewrite -hr -h2.
Qed.
Lemma directionP watch fuel s :
  match csqp_direction c timeout watch fuel s with
  | DirOk s' => dframe' s s' /\ (k_reached s = false ->
      (exists s1, csqp_computeDirection c timeout s1 = QDone s') /\
      (k_reached s' = true -> exists n, timeout n = true /\ k_clk s' = S n))
  | DirExc s' => dframe' s s'
  | DirFail s' => dframe' s s' /\ (k_reached s = false -> k_reached s' = false)
  | DirUB => cc_interval c = 0
  | DirNoFuel => True
  end.
Proof.
  rewrite /csqp_direction. case: (cc_removereg c).
  - have := computeDirectionP c timeout s.
    case e: (csqp_computeDirection c timeout s) => [s1|s1|] //.
    + move=> [h1 h2]. split; first exact: dframe'_step (dframe'_refl s) h1. move=> hr. split; first by exists s.
      exact: h2.
    + move=> [h1 h2]. exact: dframe'_step (dframe'_refl s) h1.
  - have := @retryP watch fuel s s (dframe'_refl s). by case: (csqp_retry _ _ _ _ _).
Qed.
End Dir.

(** ** The loop invariant *)
Section Inv.
Variable E : Eig.
Variable M : manifold E.
Notation R := (R E).
Variable x0 : mX M.
Variable c : ccfg E.
Variable timeout : nat -> bool.
Notation dc := (cc_ddp c).
Notation ncb := (c_ncb (cc_ddp c)).
Variable s0 : csqp M.
Notation zero_ok := (zero_ok (c_alphas dc) x0).
Notation csqp_rule := (@csqp_rule E M c).
Notation mono := (forall n, timeout n = true -> timeout (S n) = true).

(** the filter buffers have the configured size *)
Definition cbufs (s : csqp M) : Prop :=
  holds (cc_fsize c) [] (k_costl s) /\ holds (cc_fsize c) [] (k_gapl s) /\ holds (cc_fsize c) [] (k_conl s).
Definition cdir_of (t : traj M) : Prop :=
  exists s1 s2, csqp_computeDirection c timeout s1 = QDone s2 /\ k_qpit s2 <> 0 /\ t = k_tr (csqp_checkKKT s2).
Definition cround_wf (r : round M) : Prop :=
  r_kkt r = ckkt_residual (r_con r) (r_tr r) /\ rle E (r_kkt r) (c_tol dc) = false /\
  ccons (r_tr r) /\ r_cost r = stored_cost (r_tr r) /\
  r_gap r = stored_gap (r_tr r) /\ r_con r = stored_con (r_tr r) /\
  r_merit r = csqp_merit_fun c (r_tr r) (r_cost r) (r_gap r) (r_con r) /\
  r_step r = k_step s0 /\ (mono -> cdir_of (r_tr r)) /\
  map (@nm E M) (run (r_tr r)) = map (@nm E M) (run (k_tr s0)) /\ zeros (r_tr r).
Definition crounds_ok (rs : list (round M)) : Prop :=
  ((cc_filter c = true -> cbufs s0) -> rounds_searched csqp_rule rs) /\
  values_carried rs /\ Forall cround_wf rs /\
  (forall i r, nth_error rs i = Some r -> r_acc r = None -> S i = length rs) /\
  (forall i r r', nth_error rs i = Some r -> nth_error rs (S i) = Some r' -> r_cbmerit r' = r_merit r).

(** basic facts that hold after every public call *)
Record cbasic (s : csqp M) : Prop := mkCbasic {
  b_nm : map (@nm E M) (run (k_tr s)) = map (@nm E M) (run (k_tr s0));
  b_zeros : zeros (k_tr s);
  b_fs : hd_fs (run (k_tr s)) (trm (k_tr s)) = vzero E;
  b_buf : cbufs s0 -> cbufs s
}.
Record core (rs : list (round M)) (s : csqp M) : Prop := mkCore {
  o_log : observed (k_log s) = observed (k_log s0) ++ rounds_trace ncb 0 rs;
  o_nm : map (@nm E M) (run (k_tr s)) = map (@nm E M) (run (k_tr s0));
  o_zeros : zeros (k_tr s);
  o_fs : hd_fs (run (k_tr s)) (trm (k_tr s)) = vzero E;
  o_x : zero_ok -> hd_x (run (k_tr s)) (trm (k_tr s)) = x0;
  o_buf : cbufs s0 -> holds (cc_fsize c) (rev (map (@r_cost E M) rs)) (k_costl s) /\
                      holds (cc_fsize c) (rev (map (@r_gap E M) rs)) (k_gapl s) /\
                      holds (cc_fsize c) (rev (map (@r_con E M) rs)) (k_conl s);
  o_rounds : crounds_ok rs;
  o_cand : iterates (get_xs (k_tr s0)) (get_us (k_tr s0)) rs (get_xs (k_tr s)) (get_us (k_tr s));
  o_step : k_step s = k_step s0;
  o_merit : forall r, nth_error rs (length rs - 1) = Some r -> k_merit s = r_merit r;
  o_reached : mono -> k_reached s = true -> exists n, timeout n = true /\ k_clk s = S n
}.
Definition all_acc (rs : list (round M)) : Prop := forall r, In r rs -> r_acc r <> None.
(** at the head of the loop *)
Record head (rs : list (round M)) (s : csqp M) : Prop := mkHead {
  h_core : core rs s;
  h_iter : k_iter s = length rs;
  h_acc : all_acc rs;
  h_last : forall a, last_acc rs = Some a -> exists t,
     k_tr s = accept_try (trial_traj (a_step a) t) /\
     a_cost a = trial_cost (a_step a) t /\ a_gap a = trial_gap (a_step a) t /\ a_con a = trial_con (a_step a) t
}.
Lemma core_basic rs s : core rs s -> cbasic s.
Proof.
  case=> h1 h2 h3 h4 h5 h6 *. split => // hb. case: (h6 hb) => k1 [k2 k3].
  by split; [|split]; apply: holds_forget; eassumption.
Qed.

(** evaluation and direction keep the core *)
Lemma core_calc rs s s' : core rs s -> epts (k_tr s) (k_tr s') -> hd_fs (run (k_tr s')) (trm (k_tr s')) = vzero E ->
  cframe s s' -> core rs s'.
Proof.
  move=> [h1 h2 h3 h4 h5 h6 h7 h8 h9 h10 h11] [e1 e2 e3 e4 e5] hf [f1 f2 f3 f4 f5 f6 f7 f8 f9 f10 f11 f12 f13].
  split => //.
  - by rewrite f11.
  - by rewrite e3.
  - exact: e5.
  - move=> hz. by rewrite e4 h5.
  - by rewrite f6 f7 f8.
  - by rewrite e1 e2.
  - by rewrite f5.
  - by rewrite f3.
  - by rewrite f9 f10.
Qed.
Lemma core_dframe rs s s' : core rs s -> dframe' s s' ->
  (mono -> k_reached s' = true -> exists n, timeout n = true /\ k_clk s' = S n) -> core rs s'.
Proof.
  move=> [h1 h2 h3 h4 h5 h6 h7 h8 h9 h10 h11] [p [q [k1 a1 a2 a3 a4 a5 a6 a7 a8 a9 a10 a11 a12 a13 a14 a15]]] hr.
  case: k1 => k1 k2. change (k_tr (setreg p q s)) with (k_tr s) in *.
  case: (cp_xs k1) => e1 e2. split => //.
  - by rewrite a14.
  - by rewrite (cp_nm k1).
  - exact: k2.
  - by rewrite (cp_hd_fs (proj1 k1) (proj2 k1)).
  - move=> hz. by rewrite (cp_hd_x (proj1 k1) (proj2 k1)) h5.
  - by rewrite a11 a12 a13.
  - by rewrite e1 e2.
  - by rewrite a10.
  - by rewrite a6.
Qed.
Lemma basic_dframe s s' : cbasic s -> dframe' s s' -> cbasic s'.
Proof.
  move=> [h1 h2 h3 h4] [p [q [k1 a1 a2 a3 a4 a5 a6 a7 a8 a9 a10 a11 a12 a13 a14 a15]]].
  case: k1 => k1 k2. change (k_tr (setreg p q s)) with (k_tr s) in *. split.
  - by rewrite (cp_nm k1).
  - exact: k2.
  - by rewrite (cp_hd_fs (proj1 k1) (proj2 k1)).
  - by rewrite /cbufs a11 a12 a13.
Qed.
Lemma eval_dframe (s s' : csqp M) : evaluated s -> dframe' s s' -> evaluated s'.
Proof.
  move=> [h1 [h2 [h3 h4]]] [p [q [k1 a1 a2 a3 a4 a5 a6 a7 a8 a9 a10 a11 a12 a13 a14 a15]]].
  case: k1 => k1 k2. change (k_tr (setreg p q s)) with (k_tr s) in *.
  split; [exact: cp_cons k1 h1|]. by rewrite a3 a4 a5 (cp_cost k1) (cp_gap k1) (cp_con k1).
Qed.

(** ** Convergence check *)
Lemma check_log (s : csqp M) : observed (k_log (csqp_check c s)) =
  observed (k_log s) ++ callback_trace ncb (k_iter s) (k_kkt (csqp_check c s)) (k_cost s) (k_merit s) (k_step s).
Proof.
  rewrite /csqp_check /=. rewrite run_callbacksE /observed rev_app_distr rev_involutive filter_app.
  congr (_ ++ _). rewrite /callback_trace. elim: (seq 0 ncb) => [|j l ih] //=. by rewrite ih.
Qed.
Lemma check_cp (s : csqp M) : cpassed_traj (k_tr s) (k_tr (csqp_check c s)) /\
  (zeros (k_tr s) -> zeros (k_tr (csqp_check c s))).
Proof. exact: (lag_cstep (k_tr s)). Qed.
Lemma check_eval (s : csqp M) : evaluated s -> evaluated (csqp_check c s).
Proof.
  move=> [h1 [h2 [h3 h4]]]. case: (check_cp s) => k1 k2. split; [exact: cp_cons k1 h1|].
  rewrite (cp_cost k1) (cp_gap k1) (cp_con k1). by [].
Qed.

(** a state that has computed a direction at a fresh evaluation *)
Definition mid (rs : list (round M)) (s : csqp M) : Prop := core rs s /\ evaluated s.

(** ** Outcome *)
Record cfin (rs : list (round M)) (last b : bool) (s' : csqp M) : Prop := mkCfin {
  f_log : observed (k_log s') = observed (k_log s0) ++ rounds_trace ncb 0 rs ++
    (if last then callback_trace ncb (k_iter s') (k_kkt s') (k_cost s') (k_merit s') (k_step s') else []);
  f_result : if last then
      b = rle E (k_kkt s') (c_tol dc) /\ k_kkt s' = ckkt_residual (k_con s') (k_tr s') /\ evaluated s' /\
      (mono -> exists s1 s2, csqp_computeDirection c timeout s1 = QDone s2 /\ k_tr s' = k_tr (csqp_checkKKT s2))
    else b = false;
  f_basic : cbasic s';
  f_x : zero_ok -> hd_x (run (k_tr s')) (trm (k_tr s')) = x0;
  f_rounds : crounds_ok rs;
  f_cand : iterates (get_xs (k_tr s0)) (get_us (k_tr s0)) rs (get_xs (k_tr s')) (get_us (k_tr s'));
  f_step : k_step s' = k_step s0;
  f_reached : mono -> k_reached s' = true -> exists n, timeout n = true /\ k_clk s' = S n
}.
Lemma fin_core rs s : core rs s -> cfin rs false false s.
Proof.
  move=> h. have hb := core_basic h. move: h => [h1 h2 h3 h4 h5 h6 h7 h8 h9 h10 h11]. split => //.
  by rewrite app_nil_r.
Qed.
Lemma fin_check rs s : mid rs s ->
  (mono -> exists s1, csqp_computeDirection c timeout s1 = QDone s) ->
  cfin rs true (rle E (k_kkt (csqp_check c s)) (c_tol dc)) (csqp_check c s).
Proof.
  move=> [hc he] hd. have hb := core_basic hc. move: hc => [h1 h2 h3 h4 h5 h6 h7 h8 h9 h10 h11].
  case: (check_cp s) => k1 k2. case: (cp_xs k1) => e1 e2. split => //.
  - by rewrite check_log h1 -app_assoc.
  - split => //. split => //. split; first exact: check_eval.
    move=> hm. case: (hd hm) => s1 e. by exists s1, s.
  - move: hb => [b1 b2 b3 b4]. split => //.
    + by rewrite (cp_nm k1).
    + exact: k2.
    + by rewrite (cp_hd_fs (proj1 k1) (proj2 k1)).
  - move=> hz. by rewrite (cp_hd_x (proj1 k1) (proj2 k1)) h5.
  - by rewrite e1 e2.
Qed.

(** ** A complete round *)
Definition searching (s : csqp M) : csqp M := csqp_merit c (csqp_push (csqp_check c s)).
Definition the_round (s : csqp M) (acc : option (accepted E)) : round M :=
  let sm := searching s in
  mkRound (k_tr sm) (k_kkt sm) (k_merit s) (k_step sm) (k_cost sm) (k_gap sm) (k_con sm) (k_merit sm) acc.

Lemma searching_frame (s : csqp M) : let sm := searching s in let sc := csqp_check c s in
  k_tr sm = k_tr sc /\ k_cost sm = k_cost s /\ k_gap sm = k_gap s /\ k_con sm = k_con s /\
  k_kkt sm = k_kkt sc /\ k_step sm = k_step s /\ k_iter sm = k_iter s /\ k_reached sm = k_reached s /\
  k_clk sm = k_clk s /\
  k_costl sm = cb_push (k_cost s) (k_costl s) /\ k_gapl sm = cb_push (k_gap s) (k_gapl s) /\
  k_conl sm = cb_push (k_con s) (k_conl s) /\
  k_log sm = EvLineSearch E (k_iter sm) (k_cost sm) (k_gap sm) (k_con sm) (k_merit sm) :: k_log sc /\
  k_merit sm = csqp_merit_fun c (k_tr sm) (k_cost sm) (k_gap sm) (k_con sm) /\
  (forall x y z, merit_of c (k_lagn sm) x y z = csqp_merit_fun c (k_tr sm) x y z).
Proof.
  cbv zeta. rewrite /searching.
  have gen : forall s2 : csqp M, let sm := csqp_merit c s2 in
    k_tr sm = k_tr s2 /\ k_cost sm = k_cost s2 /\ k_gap sm = k_gap s2 /\ k_con sm = k_con s2 /\
    k_kkt sm = k_kkt s2 /\ k_step sm = k_step s2 /\ k_iter sm = k_iter s2 /\ k_reached sm = k_reached s2 /\
    k_clk sm = k_clk s2 /\ k_costl sm = k_costl s2 /\ k_gapl sm = k_gapl s2 /\ k_conl sm = k_conl s2 /\
    k_log sm = EvLineSearch E (k_iter sm) (k_cost sm) (k_gap sm) (k_con sm) (k_merit sm) :: k_log s2 /\
    k_merit sm = csqp_merit_fun c (k_tr sm) (k_cost sm) (k_gap sm) (k_con sm) /\
    (forall x y z, merit_of c (k_lagn sm) x y z = csqp_merit_fun c (k_tr sm) x y z).
  { clear. move=> s2. unfold csqp_merit, csqp_merit_fun, merit_of. cbv zeta.
    case: (rlt E (cc_mu c) (r0 E) || rlt E (cc_mucon c) (r0 E)) => /=; do 14 (split; [reflexivity|]); reflexivity. }
  case: (gen (csqp_push (csqp_check c s))) => h1 [h2 [h3 [h4 [h5 [h6 [h7 [h8 [h9 [h10 [h11 [h12 [h13 [h14 h15]]]]]]]]]]]]].
  set sm := csqp_merit _ _ in h1 h2 h3 h4 h5 h6 h7 h8 h9 h10 h11 h12 h13 h14 h15 *. clearbody sm.
  split; [exact h1|].
  split; [exact h2|].
  split; [exact h3|].
  split; [exact h4|].
  split; [exact h5|].
  split; [exact h6|].
  split; [exact h7|].
  split; [exact h8|].
  split; [exact h9|].
  split; [exact h10|].
  split; [exact h11|].
  split; [exact h12|].
  split; [exact h13|].
  split; [exact h14|].
  exact h15.
Qed.
Lemma round_logE rs s ev acc : core rs s -> k_iter s = length rs ->
  ev = match acc with
       | Some a => EvAccept E (k_iter s) (a_step a) (a_cost a) (a_gap a) (a_con a) (a_merit a)
       | None => EvReject E (k_iter s)
       end ->
  observed (ev :: k_log (searching s)) =
  observed (k_log s0) ++ rounds_trace ncb 0 (rs ++ [the_round s acc]).
Proof.
  move=> hc hi ->. rewrite rounds_trace_snoc.
  case: (searching_frame s) => e1 [e2 [e3 [e4 [e5 [e6 [e7 [_ [_ [_ [_ [_ [e8 _]]]]]]]]]]]].
  rewrite e8. set sm := searching s in e1 e2 e3 e4 e5 e6 e7 e8 *.
  have hv : forall (x y : event E) l, visible x = true -> visible y = true -> observed (x :: y :: l) = observed l ++ [y; x].
  { move=> x y l hx hy. by rewrite /observed /= !filter_app /= hx hy -app_assoc. }
  rewrite hv //; first by case: acc.
  rewrite check_log (o_log hc) /round_trace -!app_assoc. congr (_ ++ (_ ++ _)).
  rewrite /the_round. cbn [r_kkt r_cost r_cbmerit r_step r_gap r_con r_merit r_acc]. cbv zeta.
  rewrite -/sm e5 e2 e6 e7 hi. by [].
Qed.
Lemma bufs_push rs s acc : core rs s -> cbufs s0 ->
  holds (cc_fsize c) (rev (map (@r_cost E M) (rs ++ [the_round s acc]))) (k_costl (searching s)) /\
  holds (cc_fsize c) (rev (map (@r_gap E M) (rs ++ [the_round s acc]))) (k_gapl (searching s)) /\
  holds (cc_fsize c) (rev (map (@r_con E M) (rs ++ [the_round s acc]))) (k_conl (searching s)).
Proof.
  move=> hc hb. case: (o_buf hc hb) => h1 [h2 h3]. rewrite !map_app !rev_app_distr /=.
  case: (searching_frame s) => e1 [e2 [e3 [e4 [_ [_ [_ [_ [_ [f1 [f2 [f3 _]]]]]]]]]]].
  rewrite f1 f2 f3 e2 e3 e4. by split; [|split]; apply: holds_push.
Qed.
Lemma trial_meritE s a : ctrial_merit c (searching s) a =
  a_merit (trial_of csqp_rule (k_tr (searching s)) a).
Proof.
  case: (searching_frame s) => _ [_ [_ [_ [_ [_ [_ [_ [_ [_ [_ [_ [_ [_ h]]]]]]]]]]]]].
  by rewrite /ctrial_merit h.
Qed.
Lemma cverdictE rs s acc a : core rs s -> k_iter s = length rs -> (cc_filter c = true -> cbufs s0) ->
  cverdict c (searching s) a =
  Some (if cc_filter c
        then negb (existsb (dominates csqp_rule (trial_of csqp_rule (k_tr (searching s)) a))
                         (recent (cc_fsize c) (rs ++ [the_round s acc])))
        else rlt E (a_merit (trial_of csqp_rule (k_tr (searching s)) a)) (k_merit (searching s))).
Proof.
  move=> hc hi hb. rewrite /cverdict /cacceptable trial_meritE. case hf: (cc_filter c) => //.
  set test := fun i : nat => _.
  case: (bufs_push acc hc (hb hf)) => b1 [b2 b3].
  have e : filter_worse test (cc_fsize c) (k_iter (searching s)) =
    Some (existsb (dominates csqp_rule (trial_of csqp_rule (k_tr (searching s)) a))
                         (recent (cc_fsize c) (rs ++ [the_round s acc]))).
  { apply: (@accept_spec E M csqp_rule rs (the_round s acc)).
    - case: (searching_frame s) => _ [_ [_ [_ [_ [_ [e7 _]]]]]]. by rewrite e7.
    - move=> k rk hk hr. rewrite /test (holds_recent b1 hk hr) (holds_recent b2 hk hr) (holds_recent b3 hk hr).
      by rewrite /dominates. }
  by rewrite e.
Qed.
Lemma cpassesE rs s acc a : core rs s -> k_iter s = length rs -> (cc_filter c = true -> cbufs s0) ->
  cpasses c (searching s) a = admissible csqp_rule rs (the_round s acc) a.
Proof. move=> hc hi hb. by rewrite /cpasses (@cverdictE rs s acc a hc hi hb). Qed.

Lemma rounds_snoc rs s acc : mid rs s -> k_iter s = length rs -> all_acc rs ->
  (forall a, last_acc rs = Some a -> k_cost s = a_cost a /\ k_gap s = a_gap a /\ k_con s = a_con a) ->
  (mono -> exists s1, csqp_computeDirection c timeout s1 = QDone s /\ k_qpit s <> 0) ->
  rle E (k_kkt (csqp_check c s)) (c_tol dc) = false ->
  ((cc_filter c = true -> cbufs s0) ->
     acc = option_map (trial_of csqp_rule (k_tr (searching s)))
             (find (admissible csqp_rule rs (the_round s acc)) (c_alphas dc))) ->
  crounds_ok (rs ++ [the_round s acc]).
Proof.
  move=> [hc he] hi ha hl hd hk h1. case: (o_rounds hc) => r1 [r2 [r3 [r4 r5]]].
  case: (searching_frame s) => e1 [e2 [e3 [e4 [e5 [e6 [e7 [_ [_ [_ [_ [_ [e8 [e9 e10]]]]]]]]]]]]].
  split; [|split; [|split; [|split]]].
  - move=> hb. apply: searched_snoc; [exact: r1|]. exact: h1.
  - apply: carried_snoc; [exact: r2|]. move=> a ha'. case: (hl a ha') => k1 [k2 k3]. by rewrite /= e2 e3 e4.
  - apply/Forall_app. split => //. constructor; [|constructor].
    case: (check_eval he) => v1 [v2 [v3 v4]].
    rewrite /cround_wf /the_round. cbv zeta. cbn [r_tr r_kkt r_cost r_gap r_con r_merit r_step]. rewrite e9 e1 e2 e3 e4 e5 e6.
    do 6 split => //. split; [done|]. split; [exact: o_step hc|].
    split; [move=> /hd [s1 [h h']]; by exists s1, s|]. case: (check_cp s) => c1 c2.
    split; [by rewrite (cp_nm c1) (o_nm hc)|exact: c2 (o_zeros hc)].
  - move=> i r hi' hr. rewrite app_length /=. case: (nth_snoc hi') => [[hlt hi'']|[-> _]]; last lia.
    case: (ha r _ hr). exact: nth_error_In hi''.
  - move=> i r r' hi1 hi2. case: (nth_snoc hi2) => [[hlt hi2']|[ei er]].
    + have hi0 : nth_error rs i = Some r by rewrite nth_error_app1 in hi1 => //; lia.
      exact: r5 hi0 hi2'.
    + have hi0 : nth_error rs i = Some r by rewrite nth_error_app1 in hi1 => //; lia.
      subst r'. cbn. apply: (o_merit hc). by replace (length rs - 1) with i by lia.
Qed.

Lemma touched_zeros (t t' : traj M) : touched_traj t t' -> zeros t -> zeros t'.
Proof. rewrite /zeros. move=> [h [xt [m ->]]]. by case: h => [|n n' l l' [? [? [? [_ ->]]]] _]. Qed.
Lemma touched_fs (t t' : traj M) : touched_traj t t' -> hd_fs (run t') (trm t') = hd_fs (run t) (trm t).
Proof. move=> [h [xt [m ->]]]. by case: h => [|n n' l l' [? [? [? [_ ->]]]] _]. Qed.
Lemma nm_accept' (t : traj M) : map (@nm E M) (run (accept_try t)) = map (@nm E M) (run t).
Proof. by rewrite /= map_map. Qed.
Lemma accept_zeros (t : traj M) : zeros t -> zeros (accept_try t).
Proof. rewrite /zeros /=. by case: (run t). Qed.
Lemma accept_fs (t : traj M) : hd_fs (run (accept_try t)) (trm (accept_try t)) = hd_fs (run t) (trm t).
Proof. by rewrite /=; case: (run t). Qed.
Lemma hd_x_trial' a (t : traj M) : In a (c_alphas dc) -> step_in_range a = true -> zero_ok ->
  hd_x (run t) (trm t) = x0 -> hd_dx (run t) (trm t) = vzero E ->
  hd_x (run (accept_try (trial_traj a t))) (trm (accept_try (trial_traj a t))) = x0.
Proof.
  move=> hin ha [hz _]. rewrite /=. case: (run t) => [|n l] /= hx hd.
  - by rewrite /trial_tx hx hd hz.
  - by rewrite /trial_x hx hd hz.
Qed.

(** states after the line search *)
Lemma core_reject rs s s' : mid rs s -> k_iter s = length rs -> all_acc rs ->
  (forall a, last_acc rs = Some a -> k_cost s = a_cost a /\ k_gap s = a_gap a /\ k_con s = a_con a) ->
  (mono -> exists s1, csqp_computeDirection c timeout s1 = QDone s /\ k_qpit s <> 0) ->
  rle E (k_kkt (csqp_check c s)) (c_tol dc) = false ->
  Forall (fun b => cpasses c (searching s) b = false) (c_alphas dc) ->
  lframe (searching s) s' ->
  core (rs ++ [the_round s None]) (csqp_log_reject s').
Proof.
  move=> hm hi hacc hl hd hk hal hf.
  case: (searching_frame s) => e1 [e2 [e3 [e4 [e5 [e6 [e7 [e8 [e9 _]]]]]]]].
  case: (check_cp s) => k1 k2. have hc := proj1 hm.
  have [g1 g2] := cp_xs k1.
  have ht : touched_traj (k_tr (csqp_check c s)) (k_tr s') by rewrite -e1; exact: lf_tr hf.
  split.
  - rewrite /csqp_log_reject. cbn [k_log set_k_log]. rewrite (lf_log hf).
    apply: round_logE => //. by rewrite (lf_iter hf) e7.
  - cbn [k_tr csqp_log_reject set_k_log]. by rewrite (nm_touched ht) (cp_nm k1) (o_nm hc).
  - cbn [k_tr csqp_log_reject set_k_log]. exact: touched_zeros ht (k2 (o_zeros hc)).
  - cbn [k_tr csqp_log_reject set_k_log]. by rewrite (touched_fs ht) (cp_hd_fs (proj1 k1) (proj2 k1)) (o_fs hc).
  - cbn [k_tr csqp_log_reject set_k_log]. move=> hz. by rewrite (hd_x_t ht) (cp_hd_x (proj1 k1) (proj2 k1)) (o_x hc hz).
  - move=> hb. cbn [k_costl k_gapl k_conl csqp_log_reject set_k_log].
    rewrite (lf_costl hf) (lf_gapl hf) (lf_conl hf). exact: bufs_push.
  - apply: rounds_snoc => // hb. rewrite find_none' //.
    apply: Forall_impl hal => b. by rewrite (@cpassesE rs s None).
  - have := @iterates_snoc E M rs (the_round s None) (get_xs (k_tr s0)) (get_us (k_tr s0)).
    rewrite /next_xs /next_us /the_round. cbv zeta. cbn [r_acc r_tr]. rewrite e1 g1 g2 => h.
    cbn [k_tr csqp_log_reject set_k_log]. rewrite (get_xs_t ht) (get_us_t ht) g1 g2. apply: h. exact: o_cand hc.
  - cbn [k_step csqp_log_reject set_k_log]. by rewrite (lf_step hf) e6 (o_step hc).
  - move=> r. rewrite app_length /=. replace (length rs + 1 - 1) with (length rs) by lia.
    rewrite nth_error_app2 // Nat.sub_diag => [[<-]]. exact: lf_merit hf.
  - cbn [k_reached k_clk csqp_log_reject set_k_log]. rewrite (lf_reached hf) (lf_clk hf) e8 e9. exact: o_reached hc.
Qed.

Lemma passes_range (s : csqp M) (a : R) : cpasses c s a = true -> step_in_range a = true.
Proof. rewrite /cpasses /trial_ok. by case: (step_in_range a). Qed.

Lemma core_accept rs s s' a pre post : mid rs s -> k_iter s = length rs -> all_acc rs ->
  (forall a, last_acc rs = Some a -> k_cost s = a_cost a /\ k_gap s = a_gap a /\ k_con s = a_con a) ->
  (mono -> exists s1, csqp_computeDirection c timeout s1 = QDone s /\ k_qpit s <> 0) ->
  rle E (k_kkt (csqp_check c s)) (c_tol dc) = false ->
  let sp := searching s in
  c_alphas dc = pre ++ a :: post -> Forall (fun b => cpasses c sp b = false) pre ->
  cpasses c sp a = true ->
  k_costt s' = trial_cost a (k_tr sp) -> k_gapt s' = trial_gap a (k_tr sp) ->
  k_cont s' = trial_con a (k_tr sp) -> k_meritt s' = ctrial_merit c sp a ->
  (exists s1, lframe sp s1 /\ s' = set_k_tr (accept_try (k_tr s1)) s1 /\
        exists t1, touched_traj (k_tr sp) t1 /\ k_tr s1 = trial_traj a t1) ->
  exists r, core (rs ++ [r]) (csqp_log_accept a s') /\ k_iter s' = length rs /\ r_acc r <> None /\
    forall a', last_acc (rs ++ [r]) = Some a' -> exists t,
     k_tr s' = accept_try (trial_traj (a_step a') t) /\
     a_cost a' = trial_cost (a_step a') t /\ a_gap a' = trial_gap (a_step a') t /\ a_con a' = trial_con (a_step a') t.
Proof.
  move=> hm hi hacc hl hd hk sp hal hpre hpass hc' hg' hk' hme [s1 [hf [hs' [t1 [ht1 htr]]]]].
  case: (searching_frame s) => e1 [e2 [e3 [e4 [e5 [e6 [e7 [e8 [e9 _]]]]]]]].
  case: (check_cp s) => k1 k2. have hc := proj1 hm.
  have [g1 g2] := cp_xs k1.
  set acc := Some (trial_of csqp_rule (k_tr sp) a).
  exists (the_round s acc).
  have ht : touched_traj (k_tr (csqp_check c s)) t1 by rewrite -e1.
  have hrange := passes_range hpass.
  have htr' : k_tr s' = accept_try (trial_traj a t1) by rewrite hs' -htr.
  have hxt : zero_ok -> hd_x (run (accept_try (trial_traj a t1))) (trm (accept_try (trial_traj a t1))) = x0.
  { move=> hz. apply: hd_x_trial' => //.
    - rewrite hal. apply: in_or_app. by right; left.
    - by rewrite (hd_x_t ht) (cp_hd_x (proj1 k1) (proj2 k1)) (o_x hc hz).
    - rewrite (hd_dx_t ht). exact: (proj1 (k2 (o_zeros hc))). }
  have htt := touched_trial_traj a t1.
  split; [|split; [|split]] => //.
  - split.
    + rewrite /csqp_log_accept. cbn [k_log set_k_log].
      have -> : k_log s' = k_log (searching s) by rewrite hs'; cbn [k_log set_k_tr]; rewrite (lf_log hf).
      have hi' : k_iter s' = k_iter s by rewrite hs'; cbn [k_iter set_k_tr]; rewrite (lf_iter hf) e7.
      apply: round_logE => //. rewrite hi' hc' hg' hk' hme. by rewrite trial_meritE.
    + cbn [k_tr csqp_log_accept set_k_log]. by rewrite htr' nm_accept (nm_touched ht) (cp_nm k1) (o_nm hc).
    + cbn [k_tr csqp_log_accept set_k_log]. rewrite htr'.
      exact: accept_zeros (touched_zeros htt (touched_zeros ht (k2 (o_zeros hc)))).
    + cbn [k_tr csqp_log_accept set_k_log].
      by rewrite htr' accept_fs (touched_fs htt) (touched_fs ht) (cp_hd_fs (proj1 k1) (proj2 k1)) (o_fs hc).
    + cbn [k_tr csqp_log_accept set_k_log]. by rewrite htr'.
    + move=> hb. cbn [k_costl k_gapl k_conl csqp_log_accept set_k_log].
      rewrite hs'. cbn [k_costl k_gapl k_conl set_k_tr].
      rewrite (lf_costl hf) (lf_gapl hf) (lf_conl hf). exact: bufs_push.
    + apply: rounds_snoc => // hb. rewrite hal (@find_first _ _ pre a post) //.
      * apply: Forall_impl hpre => b. by rewrite (@cpassesE rs s acc).
      * by rewrite -(@cpassesE rs s acc).
    + have := @iterates_snoc E M rs (the_round s acc) (get_xs (k_tr s0)) (get_us (k_tr s0)).
      rewrite /next_xs /next_us /the_round. cbv zeta. cbn [r_acc r_tr a_step trial_of acc]. rewrite /sp e1 g1 g2 => h.
      cbn [k_tr csqp_log_accept set_k_log]. rewrite htr' get_xs_accept get_us_accept (trial_xs_t a ht) (trial_us_t a ht).
      apply: h. exact: o_cand hc.
    + cbn [k_step csqp_log_accept set_k_log]. by rewrite hs'; cbn [k_step set_k_tr]; rewrite (lf_step hf) e6 (o_step hc).
    + move=> r. rewrite app_length /=. replace (length rs + 1 - 1) with (length rs) by lia.
      rewrite nth_error_app2 // Nat.sub_diag => [[<-]]. rewrite hs'. exact: lf_merit hf.
    + cbn [k_reached k_clk csqp_log_accept set_k_log].
      rewrite hs'. cbn [k_reached k_clk set_k_tr]. rewrite (lf_reached hf) (lf_clk hf) e8 e9. exact: o_reached hc.
  - by rewrite hs'; cbn [k_iter set_k_tr]; rewrite (lf_iter hf) e7.
  - move=> a'. rewrite last_acc_snoc. change (r_acc (the_round s acc)) with acc. move/(@some_inj _ _ _) => <-. exists t1.
    change (a_step (trial_of csqp_rule (k_tr sp) a)) with a.
    change (a_cost (trial_of csqp_rule (k_tr sp) a)) with (trial_cost a (k_tr sp)).
    change (a_gap (trial_of csqp_rule (k_tr sp) a)) with (trial_gap a (k_tr sp)).
    change (a_con (trial_of csqp_rule (k_tr sp) a)) with (trial_con a (k_tr sp)).
    by rewrite (trial_cost_t a ht1) (trial_gap_t a ht1) (trial_con_t a ht1).
Qed.

Lemma core_reg rs s p q : core rs s -> core rs (setreg p q s).
Proof. by case=> *; split. Qed.
Lemma core_iter rs s n : core rs s -> core rs (set_k_iter n s).
Proof. by case=> *; split. Qed.
Lemma cafterP rs s : core rs s ->
  match csqp_after c s with
  | BRet b s' => b = false /\ core rs s' /\ k_iter s' = k_iter s /\ k_tr s' = k_tr s
  | BNext s' => core rs s' /\ k_iter s' = k_iter s /\ k_tr s' = k_tr s
  | _ => False
  end.
Proof.
  move=> h. rewrite /csqp_after. case: (cc_removereg c) => //. case: (rgt _ _).
  - split => //. exact: core_reg.
  - case: (rge _ _); [split; [done|]|]; (split; [exact: core_reg|done]).
Qed.

(** final phase can start: the loop ended or was left *)
Definition iter_ok (rs : list (round M)) (n : nat) : Prop :=
  n = length rs \/ (S n = length rs /\ exists r, nth_error rs n = Some r /\ r_acc r = None).
Lemma reset_rho_core rs s : core rs s -> core rs (reset_rho c s).
Proof.
  move=> h. have hd : dframe' s (reset_rho c s).
  { exists (k_preg s), (k_dreg s). rewrite setreg_id. split => //. exact: apply_rho_cstep. }
  apply: (core_dframe h hd). exact: o_reached h.
Qed.
Lemma reset_rho_eval (s : csqp M) : evaluated s -> evaluated (reset_rho c s).
Proof.
  move=> h. have hd : dframe' s (reset_rho c s).
  { exists (k_preg s), (k_dreg s). rewrite setreg_id. split => //. exact: apply_rho_cstep. }
  exact: eval_dframe h hd.
Qed.

Inductive cbody_spec (rs : list (round M)) : cbody M -> Prop :=
  | cbs_check b s' : cfin rs true b s' -> k_iter s' = length rs -> cbody_spec rs (CB (BRet b s'))
  | cbs_fail s' : cfin rs false false s' -> k_iter s' = length rs -> cbody_spec rs (CB (BRet false s'))
  | cbs_reg r s' : cfin (rs ++ [r]) false false s' -> k_iter s' = length rs -> cbody_spec rs (CB (BRet false s'))
  | cbs_next r s' : head (rs ++ [r]) (set_k_iter (S (k_iter s')) s') -> cbody_spec rs (CB (BNext s'))
  | cbs_time s' : core rs s' -> k_reached s' = true -> k_iter s' = length rs -> cbody_spec rs (CB (BBreak s'))
  | cbs_reject r s' : core (rs ++ [r]) s' -> r_acc r = None -> k_iter s' = length rs -> cbody_spec rs (CB (BBreak s'))
  | cbs_ub : (cc_filter c = true /\ ~ cbufs s0) \/ cc_interval c = 0 -> cbody_spec rs (CB (BUB))
  | cbs_nofuel : cbody_spec rs (CB (BNoFuel))
  | cbs_exc s' : cbasic s' -> cbody_spec rs (CExc s').

Lemma body_spec fuel rs s : head rs s -> cbody_spec rs (csqp_body c timeout fuel s).
Proof.
  move=> [hc hi hacc hl]. rewrite /csqp_body /tick. cbn [fst snd].
  case ht: (timeout (k_clk s)).
  { apply: cbs_time => //. case: hc => h1 h2 h3 h4 h5 h6 h7 h8 h9 h10 h11. split => //.
    - by rewrite /= observed_inv.
    - move=> _ _. by exists (k_clk s). }
  set s1 := set_k_log _ _.
  have hc1 : core rs s1.
  { case: hc => h1 h2 h3 h4 h5 h6 h7 h8 h9 h10 h11. split => //.
    - by rewrite /s1 /= !observed_inv.
    - move=> hm hr. case: (h11 hm hr) => n [k1 k2]. move: (hm _ k1). by rewrite -k2 ht. }
  have hr1 : mono -> k_reached s1 = false.
  { move=> hm. case hr: (k_reached s1) => //. case: (o_reached hc hm hr) => n [k1 k2]. move: (hm _ k1). by rewrite -k2 ht. }
  have hi1 : k_iter s1 = length rs by [].
  case: (calcP (o_fs hc1)) => ev [ep [cf etr]].
  set s2 := csqp_calc s1 in ev ep cf etr *.
  have hc2 : core rs s2.
  { apply: (core_calc hc1 ep _ cf). exact: gaps_hd (proj2 (proj2 (proj1 ev))). }
  have hl2 : forall a, last_acc rs = Some a -> k_cost s2 = a_cost a /\ k_gap s2 = a_gap a /\ k_con s2 = a_con a.
  { move=> a ha. case: (hl a ha) => t [e1 [e2 [e3 e4]]]. case: ev => _ [-> [-> ->]].
    rewrite etr [k_tr s1]e1. case: (carried_values (a_step a) t) => -> [-> ->]. by rewrite e2 e3 e4. }
  set s3 := (if _ then reset_rho c s2 else s2).
  have [hc3 [ev3 [hl3 [hi3 hr3]]]] : core rs s3 /\ evaluated s3 /\
    (forall a, last_acc rs = Some a -> k_cost s3 = a_cost a /\ k_gap s3 = a_gap a /\ k_con s3 = a_con a) /\
    k_iter s3 = length rs /\ k_reached s3 = k_reached s1.
  { rewrite /s3. case: (_ && _); last by rewrite (cf_iter cf) (cf_reached cf).
    split; [exact: reset_rho_core|]. split; [exact: reset_rho_eval|]. split; [exact: hl2|].
    split; [exact: Logic.eq_trans (cf_iter cf) hi1|]. exact: (cf_reached cf). }
  have := directionP c timeout true fuel s3.
  case: (csqp_direction c timeout true fuel s3) => [s4|s4|s4||].
  - move=> [hd hq].
    have hc4 : core rs s4.
    { apply: (core_dframe hc3 hd) => hm. apply: (proj2 (hq _)). by rewrite hr3 hr1. }
    have ev4 := eval_dframe ev3 hd.
    have [hi4 hl4] : k_iter s4 = length rs /\
      (forall a, last_acc rs = Some a -> k_cost s4 = a_cost a /\ k_gap s4 = a_gap a /\ k_con s4 = a_con a).
    { case: hd => p [q [_ _ _ d1 d2 d3 _ _ _ d4 _ _ _ _ _ _]]. rewrite d1 d2 d3 d4. by split. }
    case hq0: (k_qpit s4 =? 0).
    { apply: cbs_fail => //. exact: fin_core. }
    have hd4 : mono -> exists s1, csqp_computeDirection c timeout s1 = QDone s4 /\ k_qpit s4 <> 0.
    { move=> hm. case: (hq _) => [|[s5 h5] _]; first by rewrite hr3 hr1.
      exists s5. split => //. exact/Nat.eqb_neq. }
    have hmid : mid rs s4 by split.
    case hk: (rle E (k_kkt (csqp_check c s4)) (c_tol dc)).
    { apply: cbs_check => //. have := @fin_check rs s4 hmid. rewrite hk. apply.
      move=> /hd4 [s5 [h5 _]]. by exists s5. }
    have := @cline_searchP E M c (c_alphas dc) (searching s4).
    rewrite /searching. case: (csqp_line_search c (c_alphas dc) _) => [a s5|s5|].
    + move=> [pre [post [h1 [h1' [h2 [h3 [h4 [h5 [h6 h7]]]]]]]]].
      case: (core_accept hmid hi4 hacc hl4 hd4 hk h1 h1' h2 h3 h4 h5 h6 h7) => r [k1 [k2 [k3 k4]]].
      have := cafterP k1. case: (csqp_after c _) => // [b s'|s'].
      * move=> [-> [j1 [j2 j3]]]. apply: cbs_reg; [exact: fin_core j1|]. by rewrite j2.
      * move=> [j1 [j2 j3]]. apply: (@cbs_next _ r). split.
        -- exact: core_iter.
        -- rewrite app_length /= j2 /= k2. lia.
        -- move=> r' hin. case: (in_app_or _ _ _ hin) => [/hacc //|[<-|[]]] //.
        -- move=> a' /k4 [t hh]. exists t. cbn [k_tr set_k_iter]. rewrite j3. exact: hh.
    + move=> [h1 h2]. apply: (@cbs_reject _ (the_round s4 None)) => //.
      * exact: core_reject.
      * change (k_iter (csqp_log_reject s5)) with (k_iter s5). rewrite (lf_iter h2).
        case: (searching_frame s4) => _ [_ [_ [_ [_ [_ [e7 _]]]]]]. rewrite /searching in e7. by rewrite e7.
    + move=> [a [_ [_ h]]]. apply: cbs_ub. left. case hf: (cc_filter c); last by rewrite /cverdict /cacceptable hf in h.
      split => // hb. have := @cverdictE rs s4 None a hc4 hi4 (fun _ => hb). rewrite /searching. by rewrite h.
  - move=> [hd hq]. apply: cbs_fail.
    + apply: fin_core. apply: (core_dframe hc3 hd) => hm. by rewrite hq // hr3 hr1.
    + case: hd => p [q [_ _ _ d1 d2 d3 _ _ _ d4 _ _ _ _ _ _]]. by rewrite d4.
  - move=> hd. apply: cbs_exc. exact: basic_dframe (core_basic hc3) hd.
  - move=> h. apply: cbs_ub. by right.
  - move=> _. exact: cbs_nofuel.
Qed.

Definition budget_ok (rs rs' : list (round M)) (k : nat) (last : bool) : Prop :=
  length rs' <= k /\ (last = true -> length rs' < k \/ cc_extra c = true).
Lemma final_fin fuel rs s : core rs s -> iter_ok rs (k_iter s) ->
  match csqp_final c timeout fuel s with
  | Ret b s' => exists last, cfin rs last b s' /\ (last = true -> cc_extra c = true) /\ iter_ok rs (k_iter s')
  | Exc s' => cbasic s'
  | UB => cc_interval c = 0
  | NoFuel => True
  end.
Proof.
  move=> hc hi. rewrite /csqp_final. case he: (cc_extra c && negb (k_reached s)); last first.
  { exists false. split; [exact: fin_core|]. by split. }
  move: he. case hx: (cc_extra c) => // he.
  have hr : k_reached s = false by move: he; case: (k_reached s).
  case: (calcP (o_fs hc)) => ev [ep [cf etr]].
  set s2 := csqp_calc s in ev ep cf etr *.
  have hc2 : core rs s2.
  { apply: (core_calc hc ep _ cf). exact: gaps_hd (proj2 (proj2 (proj1 ev))). }
  have hr2 : k_reached s2 = false by rewrite (cf_reached cf).
  have hi2 : k_iter s2 = k_iter s := cf_iter cf.
  have := directionP c timeout false fuel s2.
  case: (csqp_direction c timeout false fuel s2) => // s4.
  - move=> [hd hq].
    have hc4 : core rs s4.
    { apply: (core_dframe hc2 hd) => hm. by apply: (proj2 (hq _)). }
    have ev4 := eval_dframe ev hd.
    have hi4 : k_iter s4 = k_iter s.
    { case: hd => p [q [_ _ _ d1 d2 d3 _ _ _ d4 _ _ _ _ _ _]]. by rewrite d4. }
    exists true. split; [|split => //].
    + apply: fin_check; first by split. move=> _. by case: (hq hr2).
    + change (k_iter (csqp_check c s4)) with (k_iter s4). by rewrite hi4.
  - move=> [hd hq]. exists false. split; [|split => //].
    + apply: fin_core. apply: (core_dframe hc2 hd) => hm. by rewrite hq.
    + case: hd => p [q [_ _ _ d1 d2 d3 _ _ _ d4 _ _ _ _ _ _]]. by rewrite d4 [k_iter _]hi2.
  - move=> hd. exact: basic_dframe (core_basic hc2) hd.
Qed.

(** iteration count at the end: rounds 0..k_iter-1 accepted; one more round if the
    last line search was rejected or the regularisation limit was hit *)
Definition end_iter (rs : list (round M)) (last : bool) (n : nat) : Prop :=
  n <= length rs <= S n /\ (last = true -> iter_ok rs n).
Lemma iter_end rs last n : iter_ok rs n -> end_iter rs last n.
Proof. move=> h. split => //. case: h => [->|[<- _]]; lia. Qed.

Lemma loop_fin fuel : forall k rs s, head rs s ->
  match csqp_loop c timeout fuel k s with
  | Ret b s' => exists rs' last, cfin (rs ++ rs') last b s' /\ budget_ok rs rs' k last /\
       end_iter (rs ++ rs') last (k_iter s') /\
       (last = true -> k_iter s' = length (rs ++ rs') \/ cc_extra c = true)
  | Exc s' => cbasic s'
  | UB => (cc_filter c = true /\ ~ cbufs s0) \/ cc_interval c = 0
  | NoFuel => True
  end.
Proof.
  elim=> [|k ih] rs s hh; cbn [csqp_loop].
  - have := @final_fin fuel rs s (h_core hh) (or_introl (h_iter hh)).
    case: (csqp_final c timeout fuel s) => // [b s' [last [h1 [h2 h3]]]|]; last by right.
    exists [], last. rewrite app_nil_r. split => //. split; [split; [done|by move=> /h2; right]|].
    split; [exact: iter_end|]. move=> /h2; by right.
  - have := body_spec fuel hh. move: (csqp_body c timeout fuel s) => B hB. case: B / hB.
    + move=> b s' h hi. exists [], true. rewrite app_nil_r. split => //. split; [split; cbn; [lia|left; lia]|].
      split; [apply: iter_end; by left|by left].
    + move=> s' h hi. exists [], false. rewrite app_nil_r. split => //. split; [split; cbn; [lia|done]|].
      split; [apply: iter_end; by left|done].
    + move=> r s' h hi. exists [r], false. split => //. split; [split; cbn; [lia|done]|].
      split; [|done]. split => //. rewrite app_length hi /=. lia.
    + move=> r s' h. have := ih _ _ h. case: (csqp_loop c timeout fuel k _) => // b s2.
      move=> [rs' [last [h1 [[h2 h2'] [h3 h4]]]]]. exists (r :: rs'), last.
      rewrite -app_assoc in h1 h3 h4. split => //. split; [split; cbn; [lia|]|by split].
      move=> /h2' [h'|h']; [left; lia|by right].
    + move=> s' hc' hr hi. have := @final_fin fuel rs s' hc' (or_introl hi).
      case: (csqp_final c timeout fuel s') => // [b s2 [last [h1 [h2 h3]]]|]; last by right.
      exists [], last. rewrite app_nil_r. split => //. split; [split; [cbn; lia|by move=> /h2; right]|].
      split; [exact: iter_end|]. move=> /h2; by right.
    + move=> r s' hc' hr hi.
      have hio : iter_ok (rs ++ [r]) (k_iter s').
      { right. rewrite hi app_length /=. split; [lia|]. exists r. split => //.
        by rewrite nth_error_app2 // Nat.sub_diag. }
      have := @final_fin fuel (rs ++ [r]) s' hc' hio.
      case: (csqp_final c timeout fuel s') => // [b s2 [last [h1 [h2 h3]]]|]; last by right.
      exists [r], last. split => //. split; [split; [cbn; lia|by move=> /h2; right]|].
      split; [exact: iter_end|]. move=> /h2; by right.
    + by [].
    + by [].
    + by [].
Qed.
End Inv.
