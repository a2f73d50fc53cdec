(** * Invariants of SolverSQP::solve (any arithmetic). *)
From Coq Require Import ZArith List Bool Arith Lia ssreflect.
From Verif Require Import Eigen Problem DDP Filter FilterProofs SQP TrialSpec TraceSpec Rounds SQPSpec SQPTrial.
Import ListNotations.
Set Implicit Arguments.
Unset Strict Implicit.
Set Asymmetric Patterns.

Section Passed.
Variable E : Eig.
Variable M : manifold E.
Notation R := (R E).
Notation node := (node M).
Notation tnode := (tnode M).
Notation vec := (vec E).
Variable x0 : mX M.

(** what the backward and forward passes leave alone *)
Definition passed (n n' : node) : Prop := exists v d, n' = set_dir (set_val n v) d.
Definition tpassed (n n' : tnode) : Prop :=
  exists A v d l, n' = set_tlam (set_tdx (set_tV n A v) d) l.
Definition passed_traj (t t' : traj M) : Prop :=
  Forall2 passed (run t) (run t') /\ tpassed (trm t) (trm t').

Lemma passed_refl n : passed n n.
Proof. destruct n. eexists _, _. reflexivity. Qed.
Lemma passed_trans n1 n2 n3 : passed n1 n2 -> passed n2 n3 -> passed n1 n3.
Proof. move=> [v [d ->]] [v' [d' ->]]. by exists v', d'. Qed.
Lemma tpassed_refl n : tpassed n n.
Proof. destruct n. eexists _, _, _, _. reflexivity. Qed.
Lemma tpassed_trans n1 n2 n3 : tpassed n1 n2 -> tpassed n2 n3 -> tpassed n1 n3.
Proof. move=> [A [v [d [l ->]]]] [A' [v' [d' [l' ->]]]]. by exists A', v', d', l'. Qed.
Lemma tpassed_V tn A v : tpassed tn (set_tV tn A v).
Proof. exists A, v, (tdx tn), (tlam tn). by destruct tn. Qed.
Lemma tpassed_D tn d l : tpassed tn (set_tlam (set_tdx tn d) l).
Proof. exists (tVxx tn), (tVx tn), d, l. by destruct tn. Qed.
Lemma passed_D (n : node) d : passed n (set_dir n d).
Proof. exists (val n), d. by destruct n. Qed.
Lemma passed_list_refl l : Forall2 passed l l.
Proof. elim: l => [|n l ih]; constructor => //. exact: passed_refl. Qed.
Lemma passed_list_trans l1 l2 l3 :
  Forall2 passed l1 l2 -> Forall2 passed l2 l3 -> Forall2 passed l1 l3.
Proof.
  move=> h; elim: h l3 => [|n1 n2 l1' l2' h hl ih] l3 h3; inversion h3; subst; constructor.
  - exact: passed_trans h H1.
  - exact: ih.
Qed.
Lemma passed_traj_trans t1 t2 t3 : passed_traj t1 t2 -> passed_traj t2 t3 -> passed_traj t1 t3.
Proof. move=> [h1 h2] [h3 h4]. split; [exact: passed_list_trans h1 h3 | exact: tpassed_trans h2 h4]. Qed.
Lemma passed_traj_refl t : passed_traj t t.
Proof. split; [exact: passed_list_refl | exact: tpassed_refl]. Qed.

Lemma bwd_nodeV (preg dreg : R) feas (n : node) A v : exists w, snd (bwd_node preg dreg feas n A v) = set_val n w.
Proof. rewrite /bwd_node. by case: (_ && negb _); eexists; reflexivity. Qed.
Definition valonly (n n' : node) : Prop := exists v, n' = set_val n v.
Lemma bwd_nodesV (preg dreg : R) feas l (tn : tnode) : Forall2 valonly l (snd (bwd_nodes preg dreg feas l tn)).
Proof.
  elim: l => [|n l ih] //=. case: (fst _) => /=; constructor => //.
  - exact: bwd_nodeV.
  - by exists (val n); destruct n.
Qed.
Lemma valonly_passed l l' : Forall2 valonly l l' -> Forall2 passed l l'.
Proof. elim=> [|n n' ? ? [v ->] _ ih]; constructor => //. exists v, (dir n). by destruct n. Qed.
Lemma backward_passed (preg dreg : R) feas (t : traj M) : passed_traj t (snd (backwardPass preg dreg feas t)).
Proof.
  split; first exact: valonly_passed (bwd_nodesV _ _ _ _ _).
  rewrite /= /bwd_term. exact: tpassed_V.
Qed.
Lemma backward_dx (preg dreg : R) feas (t : traj M) :
  hd_dx (run (snd (backwardPass preg dreg feas t))) (trm (snd (backwardPass preg dreg feas t)))
  = hd_dx (run t) (trm t).
Proof.
  rewrite /=. have := bwd_nodesV preg dreg feas (run t) (bwd_term preg feas (trm t)).
  case: (run t) (snd _) => [|n l] l' h; inversion h; subst => //=.
  by case: H1 => v ->.
Qed.
Lemma fwd_nodesP l (tn : tnode) : forall d xg ug,
  Forall2 passed l (fst (fst (fwd_nodes d l tn xg ug))) /\
  tpassed tn (snd (fst (fwd_nodes d l tn xg ug))) /\
  hd_dx (fst (fst (fwd_nodes d l tn xg ug))) (snd (fst (fwd_nodes d l tn xg ug))) = d.
Proof.
  elim: l => [|n l ih] d xg ug.
  - cbn. split; [constructor|]. split => //.
    exact: tpassed_D.
  - cbn [fwd_nodes fst snd hd_dx].
    set d' := vadd E _ _. case: (ih d' (radd E xg (vl1 E d)) (radd E ug (vl1 E (fwd_du n d)))) => h1 [h2 _].
    split; [constructor => //|split => //]. exact: passed_D.
Qed.
Lemma forward_passed (t : traj M) : passed_traj t (fst (forwardPass t)) /\
  hd_dx (run (fst (forwardPass t))) (trm (fst (forwardPass t))) = hd_dx (run t) (trm t).
Proof.
  case: (fwd_nodesP (run t) (trm t) (hd_dx (run t) (trm t)) (r0 E) (r0 E)) => h1 [h2 h3].
  by split.
Qed.

(** ** Freshness *)
Definition fresh_node (n : node) : Prop := mem n = acalc (nm n) (px (pt n)) (pu (pt n)).
Definition fresh (t : traj M) : Prop :=
  Forall fresh_node (run t) /\ tme (trm t) = tcalc (tm (trm t)) (tx (trm t)).
Lemma fresh_calc t : fresh t -> problem_calc t = t.
Proof.
  destruct t as [l tn]. move=> [/= h1 h2]. rewrite /problem_calc /=. f_equal.
  - elim: h1 => [|n l' h _ ih] //=. rewrite ih. f_equal.
    rewrite /node_calc -h. by destruct n.
  - rewrite /tnode_calc /= -h2. by destruct tn.
Qed.
Lemma problem_calc_fresh t : fresh (problem_calc t).
Proof. split => //=. elim: (run t) => [|n l ih] /=; constructor => //. Qed.

(** der of a running node as calcDiff computes it from its data *)
Definition diffed_node (n : node) : Prop := der n = adiff (nm n) (mem n) (px (pt n)) (pu (pt n)).
Definition diffed (t : traj M) : Prop :=
  Forall diffed_node (run t) /\ tder (trm t) = tdiff (tm (trm t)) (tme (trm t)) (tx (trm t)).
Lemma diffed_id t : diffed t -> fst (problem_calcDiff t) = t.
Proof.
  destruct t as [l tn]. move=> [/= h1 h2]. rewrite /problem_calcDiff /=. f_equal.
  - elim: h1 => [|n l' h _ ih] //=. rewrite ih. f_equal.
    rewrite /node_calcDiff -h. by destruct n.
  - rewrite /tnode_calcDiff /= -h2. by destruct tn.
Qed.
Fixpoint gaps_ok (f : vec (mndx M)) (l : list node) (tn : tnode) : Prop :=
  match l with
  | [] => tfs tn = f
  | n :: l' => fs n = f /\ gaps_ok (diff M (hd_x l' tn) (axnext (nm n) (mem n))) l' tn
  end.
Lemma gaps_ok_id f l tn : gaps_ok f l tn -> gaps_from f l tn = (l, tn).
Proof.
  elim: l f => [|n l ih] f /=.
  - move=> <-. by destruct tn.
  - move=> [h1 h2]. rewrite (ih _ h2) /= -h1. by destruct n.
Qed.
Definition consistent (t : traj M) : Prop :=
  fresh t /\ diffed t /\ gaps_ok (diff M (hd_x (run t) (trm t)) x0) (run t) (trm t).
Lemma consistent_id t : consistent t -> reeval x0 t = t.
Proof.
  move=> [h1 [h2 h3]]. rewrite /reeval (fresh_calc h1) (diffed_id h2) /computeGaps (gaps_ok_id h3).
  by destruct t.
Qed.

(** fs-only changes *)
Definition fsonly (n n' : node) : Prop := exists f, n' = set_fs n f.
Lemma gaps_fromP f l tn :
  Forall2 fsonly l (fst (gaps_from f l tn)) /\ (exists f', snd (gaps_from f l tn) = set_tfs tn f') /\
  gaps_ok f (fst (gaps_from f l tn)) (snd (gaps_from f l tn)) /\
  hd_x (fst (gaps_from f l tn)) (snd (gaps_from f l tn)) = hd_x l tn.
Proof.
  elim: l f => [|n l ih] f.
  - cbn. split; [constructor|]. split => //. by exists f.
  - cbn [gaps_from fst snd].
    case: (ih (diff M (hd_x l tn) (axnext (nm n) (mem n)))) => h1 [h2 [h3 h4]].
    split; [constructor => //; by exists f|]. split => //. split => //.
    cbn [gaps_ok]. split => //. rewrite h4. exact: h3.
Qed.
Lemma computeGapsP t :
  Forall2 fsonly (run t) (run (computeGaps x0 t)) /\
  (exists f', trm (computeGaps x0 t) = set_tfs (trm t) f') /\
  gaps_ok (diff M (hd_x (run (computeGaps x0 t)) (trm (computeGaps x0 t))) x0)
    (run (computeGaps x0 t)) (trm (computeGaps x0 t)) /\
  hd_x (run (computeGaps x0 t)) (trm (computeGaps x0 t)) = hd_x (run t) (trm t) /\
  hd_dx (run (computeGaps x0 t)) (trm (computeGaps x0 t)) = hd_dx (run t) (trm t).
Proof.
  rewrite /computeGaps /=.
  case: (gaps_fromP (diff M (hd_x (run t) (trm t)) x0) (run t) (trm t)) => h1 [h2 [h3 h4]].
  split => //. split => //. rewrite h4. split => //. split => //.
  case: h2 => f ->. by case: h1 => [|n n' l l' [g ->] _].
Qed.
Lemma reeval_consistent_of t : fresh t -> consistent (computeGaps x0 (fst (problem_calcDiff t))).
Proof.
  move=> hf. case: (computeGapsP (fst (problem_calcDiff t))).
  set t' := computeGaps _ _. move=> h1 [[f h2] [h3 _]].
  have e : forall n n' : node, In n (run t) -> fsonly (node_calcDiff n) n' -> fresh_node n' /\ diffed_node n'.
  { move=> n n' hn [g ->]. split; last done.
    exact: (proj1 (Forall_forall _ _) (proj1 hf) n hn). }
  have h : Forall fresh_node (run t') /\ Forall diffed_node (run t').
  { suff gen : forall l l', Forall2 fsonly (map (@node_calcDiff E M) l) l' ->
      (forall n n' : node, In n l -> fsonly (node_calcDiff n) n' -> fresh_node n' /\ diffed_node n') ->
      Forall fresh_node l' /\ Forall diffed_node l' by exact: gen h1 e.
    clear. elim=> [|n l ih] l' h; inversion h; subst => e.
    - by split; constructor.
    - case: (ih _ H3) => [m m' hm|hf' hd]; first by apply: e; right.
      case: (e n y) => //; first by left. by split; constructor. }
  case: h => h4 h5. split; [|split => //].
  - split => //. rewrite h2 /=. exact: (proj2 hf).
  - split => //. by rewrite h2.
Qed.
Lemma reeval_consistent t : consistent (reeval x0 t).
Proof. exact: reeval_consistent_of (problem_calc_fresh t). Qed.

Lemma passed_gaps_ok f l l' tn tn' : Forall2 passed l l' -> tpassed tn tn' ->
  gaps_ok f l tn -> gaps_ok f l' tn'.
Proof.
  move=> h ht. elim: h f => [|n n' l1 l1' h hl ih] f /=.
  - by case: ht => [A [v [d [la ->]]]].
  - move=> [h1 h2]. split; first by case: h => [v [d ->]].
    have -> : hd_x l1' tn' = hd_x l1 tn.
    { case: hl => [|? ? ? ? [v [d ->]] _] //=. by case: ht => [A [v [d [la ->]]]]. }
    have -> : axnext (nm n') (mem n') = axnext (nm n) (mem n) by case: h => [v [d ->]].
    exact: ih.
Qed.
Lemma passed_hd_x t t' : passed_traj t t' -> hd_x (run t') (trm t') = hd_x (run t) (trm t).
Proof. move=> [[|n n' ? ? [v [d ->]] _] [A [v' [d' [la ->]]]]] //. Qed.
Lemma passed_consistent t t' : passed_traj t t' -> consistent t -> consistent t'.
Proof.
  move=> hp [[h1 h2] [[h3 h4] h5]]. rewrite /consistent (passed_hd_x hp).
  case: hp => hl ht. split; [split|split; [split|]].
  - move: h1. elim: hl => [|n n' l l' [v [d ->]] _ ih] h; inversion h; subst; constructor => //. exact: ih.
  - by case: ht => [A [v [d [la ->]]]].
  - move: h3. elim: hl => [|n n' l l' [v [d ->]] _ ih] h; inversion h; subst; constructor => //. exact: ih.
  - by case: ht => [A [v [d [la ->]]]].
  - exact: passed_gaps_ok hl ht h5.
Qed.
End Passed.

(** ** Direction and retries *)
Section Loop.
Variable E : Eig.
Variable M : manifold E.
Notation R := (R E).
Notation node := (node M).
Notation tnode := (tnode M).
Variable x0 : mX M.
Variable c : scfg E.
Notation dc := (sc_ddp c).

(** the trajectory the direction is computed from *)
Definition dir_base (recalc : bool) (s : sqp M) : traj M :=
  if recalc then fst (calcDiff x0 (q_iter s) (q_tr s)) else q_tr s.

Lemma dir_base_dx recalc s :
  hd_dx (run (dir_base recalc s)) (trm (dir_base recalc s)) = hd_dx (run (q_tr s)) (trm (q_tr s)).
Proof.
  rewrite /dir_base. case: recalc => //.
  rewrite /calcDiff. case: (computeGapsP x0 (fst (problem_calcDiff
    (if q_iter s =? 0 then problem_calc (q_tr s) else q_tr s)))) => _ [_ [_ [_ h]]].
  etransitivity; first exact: h.
  case: (q_iter s =? 0); cbn [run trm fst problem_calcDiff problem_calc]; by case: (run (q_tr s)).
Qed.
Lemma computeDirectionP recalc s :
  let s' := snd (sqp_computeDirection x0 c recalc s) in
  passed_traj (dir_base recalc s) (q_tr s') /\
  hd_dx (run (q_tr s')) (trm (q_tr s')) = hd_dx (run (q_tr s)) (trm (q_tr s)) /\
  q_cost s' = (if recalc then snd (calcDiff x0 (q_iter s) (q_tr s)) else q_cost s) /\
  q_gap s' = gap_l1 (dir_base recalc s) /\
  q_merit s' = radd E (q_cost s') (rmul E (sc_mu c) (q_gap s')) /\
  q_preg s' = q_preg s /\ q_dreg s' = q_dreg s /\ q_iter s' = q_iter s /\ q_step s' = q_step s /\
  q_costl s' = q_costl s /\ q_gapl s' = q_gapl s /\ q_log s' = q_log s /\ q_kkt s' = q_kkt s.
Proof.
  rewrite /sqp_computeDirection.
  have : exists s1, s1 = (if recalc then let r := calcDiff x0 (q_iter s) (q_tr s) in
            set_q_cost (snd r) (set_q_tr (fst r) s) else s) /\
    q_tr s1 = dir_base recalc s /\
    q_cost s1 = (if recalc then snd (calcDiff x0 (q_iter s) (q_tr s)) else q_cost s) /\
    q_preg s1 = q_preg s /\ q_dreg s1 = q_dreg s /\ q_iter s1 = q_iter s /\ q_step s1 = q_step s /\
     q_costl s1 = q_costl s /\ q_gapl s1 = q_gapl s /\ q_log s1 = q_log s /\ q_kkt s1 = q_kkt s.
  { eexists. split; first reflexivity. rewrite /dir_base. by case: recalc. }
  move=> [s1 [<- [e1 [e2 e4]]]]. cbv zeta. rewrite -e2 -e1.
  have e3 : hd_dx (run (q_tr s1)) (trm (q_tr s1)) = hd_dx (run (q_tr s)) (trm (q_tr s))
    by rewrite e1; exact: dir_base_dx.
  set s2 := set_q_merit _ _.
  have hb := backward_passed (q_preg s2) (q_dreg s2) false (q_tr s2).
  have hd := backward_dx (q_preg s2) (q_dreg s2) false (q_tr s2).
  move: hb hd. cbv zeta.
  case: (backwardPass (q_preg s2) (q_dreg s2) false (q_tr s2)) => b t1.
  cbn [fst snd].
  change (q_tr s2) with (q_tr s1). move=> hb hd. rewrite e3 in hd.
  case: b; cbn [fst snd].
  - case: (forward_passed t1) => h1 h2.
    split; [|split].
    + cbn. exact: passed_traj_trans hb h1.
    + by rewrite -hd -h2.
    + by move: e4 => [? [? [? [? [? [? [? ?]]]]]]].
  - split; [exact: hb|]. split; [exact: hd|].
    by move: e4 => [? [? [? [? [? [? [? ?]]]]]]].
Qed.

(** result of the retry loop: some number of failed directions, each followed by
    a regularisation increase, then a success or reg_max *)
Lemma retry_inv (I : sqp M -> Prop) :
  (forall s, I s -> I (sqp_inc c (snd (sqp_computeDirection x0 c false s)))) ->
  forall fuel s, I s ->
  match sqp_retry x0 c fuel false s with
  | DirOk s' => exists s1, I s1 /\ sqp_computeDirection x0 c false s1 = (true, s')
  | DirFail s' => exists s1, I s1 /\ fst (sqp_computeDirection x0 c false s1) = false /\
                    s' = sqp_inc c (snd (sqp_computeDirection x0 c false s1))
  | DirExc _ | DirUB => False
  | DirNoFuel => True
  end.
Proof.
  move=> hI. elim=> [|f ih] s hs //. cbn [sqp_retry].
  have hs' := hI s hs. move: hs'.
  case e: (sqp_computeDirection x0 c false s) => [[] s']; cbn [fst snd] => hs'.
  - by exists s.
  - case: (req E _ _); last exact: ih.
    exists s. by rewrite e.
Qed.
Lemma retry_true (I : sqp M -> Prop) fuel s :
  (forall s', I s' -> I (sqp_inc c (snd (sqp_computeDirection x0 c false s')))) ->
  I (sqp_inc c (snd (sqp_computeDirection x0 c true s))) ->
  match sqp_retry x0 c fuel true s with
  | DirOk s' => sqp_computeDirection x0 c true s = (true, s') \/
                exists s1, I s1 /\ sqp_computeDirection x0 c false s1 = (true, s')
  | DirFail s' => s' = sqp_inc c (snd (sqp_computeDirection x0 c true s)) \/
      exists s1, I s1 /\ fst (sqp_computeDirection x0 c false s1) = false /\
                    s' = sqp_inc c (snd (sqp_computeDirection x0 c false s1))
  | DirExc _ | DirUB => False
  | DirNoFuel => True
  end.
Proof.
  case: fuel => [|f] // hI h0. cbn [sqp_retry]. move: h0.
  case: (sqp_computeDirection x0 c true s) => [[] s']; cbn [fst snd] => h0.
  - by left.
  - case: (req E _ _); first by left.
    have := retry_inv hI f h0. case: (sqp_retry x0 c f false _) => // s1 h; by right.
Qed.

(** what a (possibly retried) direction computation does *)
Definition dir_frame (s s' : sqp M) : Prop :=
  passed_traj (dir_base true s) (q_tr s') /\
  hd_dx (run (q_tr s')) (trm (q_tr s')) = hd_dx (run (q_tr s)) (trm (q_tr s)) /\
  q_cost s' = snd (calcDiff x0 (q_iter s) (q_tr s)) /\
  q_gap s' = gap_l1 (dir_base true s) /\
  q_merit s' = radd E (q_cost s') (rmul E (sc_mu c) (q_gap s')) /\
  q_iter s' = q_iter s /\ q_step s' = q_step s /\
  q_costl s' = q_costl s /\ q_gapl s' = q_gapl s /\ q_log s' = q_log s /\ q_kkt s' = q_kkt s.
Lemma gap_l1_passed (t t' : traj M) : passed_traj t t' -> gap_l1 t' = gap_l1 t.
Proof.
  move=> [h [A [v [d [l e]]]]]. rewrite /gap_l1 e /=. congr (radd _ _ _).
  move: (r0 E). elim: h => [|n n' l1 l1' [w [e1 ->]] _ ih] a //=.
Qed.
Lemma dir_frame_inc s s' : dir_frame s s' -> dir_frame s (sqp_inc c s').
Proof. by []. Qed.
Lemma dir_frame_again s s' : dir_frame s s' ->
  dir_frame s (snd (sqp_computeDirection x0 c false s')).
Proof.
  move=> [h1 [h2 [h3 [h4 [h5 [h6 [h7 [h8 [h9 [h10 h11]]]]]]]]]].
  have := computeDirectionP false s'. cbv zeta. set s'' := snd _.
  move=> [k1 [k2 [k3 [k4 [k5 [_ [_ [k6 [k7 [k8 [k9 [k10 k11]]]]]]]]]]]].
  rewrite /dir_base in k1 k4.
  split; [exact: passed_traj_trans h1 k1|]. split; [congruence|]. split; [congruence|].
  split; [by rewrite k4 (gap_l1_passed h1)|]. split; [done|]. by repeat split; etransitivity; eauto.
Qed.
Lemma dir_frame_first s : dir_frame s (snd (sqp_computeDirection x0 c true s)).
Proof.
  have := computeDirectionP true s. cbv zeta. set s'' := snd _.
  move=> [k1 [k2 [k3 [k4 [k5 [_ [_ [k6 [k7 [k8 [k9 [k10 k11]]]]]]]]]]]].
  split; [exact: k1|]. by repeat split.
Qed.
(** equal regularisations, reached from [p0] *)
Definition regs_at (p0 : R) (s : sqp M) : Prop := reg_reach dc p0 (q_preg s) /\ q_dreg s = q_preg s.
Lemma regs_inc p0 s : regs_at p0 s -> regs_at p0 (sqp_inc c s).
Proof. move=> [h1 h2]. split => //. exact: reach_inc. Qed.
Lemma regs_dec p0 s : regs_at p0 s -> regs_at p0 (sqp_dec c s).
Proof. move=> [h1 h2]. split => //. exact: reach_dec. Qed.
Lemma regs_dir p0 recalc s : regs_at p0 s -> regs_at p0 (snd (sqp_computeDirection x0 c recalc s)).
Proof.
  have := computeDirectionP recalc s. cbv zeta. move=> [_ [_ [_ [_ [_ [k1 [k2 _]]]]]]].
  by rewrite /regs_at k1 k2.
Qed.
Lemma retryP p0 fuel s : regs_at p0 s ->
  match sqp_retry x0 c fuel true s with
  | DirOk s' => (dir_frame s s' /\ regs_at p0 s') /\
      exists s1 recalc, regs_at p0 s1 /\ sqp_computeDirection x0 c recalc s1 = (true, s')
  | DirFail s' => dir_frame s s' /\ regs_at p0 s'
  | DirExc _ | DirUB => False
  | DirNoFuel => True
  end.
Proof.
  move=> hs.
  have := @retry_true (fun s' => dir_frame s s' /\ regs_at p0 s') fuel s
    (fun s' h => conj (dir_frame_inc (dir_frame_again (proj1 h))) (regs_inc (regs_dir false (proj2 h))))
    (conj (dir_frame_inc (dir_frame_first s)) (regs_inc (regs_dir true hs))).
  case: (sqp_retry x0 c fuel true s) => // s'.
  - move=> [h|[s1 [[h1 g1] h2]]].
    + split; last by exists s, true. have := conj (dir_frame_first s) (regs_dir true hs). by rewrite h.
    + split; last by exists s1, false. have := conj (dir_frame_again h1) (regs_dir false g1). by rewrite h2.
  - move=> [->|[s1 [[h1 g1] [_ ->]]]].
    + split; [exact: dir_frame_inc (dir_frame_first s) | exact: regs_inc (regs_dir true hs)].
    + split; [exact: dir_frame_inc (dir_frame_again h1) | exact: regs_inc (regs_dir false g1)].
Qed.

(** ** Values of an accepted trial at the next iteration *)
Fixpoint gap_chain (f : vec E (mndx M)) (l : list node) (tn : tnode) (acc : R) : R :=
  match l with
  | [] => radd E acc (vl1 E f)
  | n :: l' => gap_chain (diff M (hd_x l' tn) (axnext (nm n) (mem n))) l' tn (radd E acc (vl1 E f))
  end.
Lemma gap_chainE f (l : list node) tn acc : gaps_ok f l tn ->
  radd E (fold_left (fun a n => radd E a (vl1 E (fs n))) l acc) (vl1 E (tfs tn)) = gap_chain f l tn acc.
Proof.
  elim: l f acc => [|n l ih] f acc /=; first by move=> ->.
  move=> [-> h]. by rewrite (ih _ _ h).
Qed.
Lemma gap_chain_trial a (l : list node) tn : forall f acc,
  gap_chain f (map (fun n => node_accept (trial_node a n)) l)
     (set_tx (trial_tnode a tn) (txt (trial_tnode a tn))) acc
  = trial_defects a l tn (radd E acc (vl1 E f)).
Proof.
  elim: l => [|n l ih] f acc //=. rewrite ih. congr (trial_defects _ _ _ (radd _ _ (vl1 _ _))).
  congr (diff _ _ _). by case: (l).
Qed.
Lemma gap_chain_der f (l : list node) tn tn' acc : tx tn' = tx tn ->
  gap_chain f (map (@node_calcDiff E M) l) tn' acc = gap_chain f l tn acc.
Proof.
  move=> h. elim: l f acc => [|n l ih] f acc //=. rewrite ih. congr (gap_chain (diff M _ _) _ _ _).
  by case: (l).
Qed.
Lemma gap_chain_fs f (l l' : list node) tn tn' : Forall2 (@fsonly E M) l l' -> tx tn' = tx tn -> forall acc,
  gap_chain f l' tn' acc = gap_chain f l tn acc.
Proof.
  move=> h ht. elim: h f => [|n n' l1 l1' [g ->] hl ih] f acc //=. rewrite ih.
  congr (gap_chain (diff M _ _) _ _ _). by case: hl => [|? ? ? ? [? ->] _].
Qed.

Notation zero_ok := (zero_ok (c_alphas dc) x0).
Lemma gap_next a (t : traj M) : hd_x (run (accept_try (trial_traj a t))) (trm (accept_try (trial_traj a t))) = x0 ->
  zero_ok ->
  gap_l1 (computeGaps x0 (fst (problem_calcDiff (accept_try (trial_traj a t))))) = trial_gap a t.
Proof.
  move=> hx [_ hz]. set ta := accept_try _.
  case: (computeGapsP x0 (fst (problem_calcDiff ta))).
  set B := computeGaps _ _. move=> h1 [[f' h2] [h3 [h4 _]]].
  rewrite /gap_l1 (gap_chainE (r0 E) h3).
  rewrite (@gap_chain_fs _ _ _ (trm ta) _ h1); first by rewrite h2.
  change (run (fst (problem_calcDiff ta))) with (map (@node_calcDiff E M) (run ta)).
  rewrite (@gap_chain_der _ _ (trm ta)) //.
  change (run ta) with (map (@node_accept E M) (map (trial_node a) (run t))).
  change (trm ta) with (set_tx (trial_tnode a (trm t)) (txt (trial_tnode a (trm t)))).
  rewrite map_map gap_chain_trial.
  have -> : hd_x (run B) (trm B) = x0.
  { rewrite h4 -hx /ta /=. by case: (run t). }
  by rewrite hz.
Qed.
Lemma stored_cost_trial a (t : traj M) : stored_cost (accept_try (trial_traj a t)) = trial_cost a t.
Proof.
  rewrite /stored_cost /trial_cost /trial_rcost /=. congr (radd _ _ _). rewrite map_map.
  move: (r0 E). elim: (run t) => [|n l ih] x //=.
Qed.
Lemma fresh_trial a (t : traj M) : fresh (accept_try (trial_traj a t)).
Proof. split => //=. rewrite map_map. elim: (run t) => [|n l ih] /=; constructor => //. Qed.
Lemma hd_x_trial a (t : traj M) : In a (c_alphas dc) -> step_in_range a = true -> zero_ok ->
  hd_x (run t) (trm t) = x0 -> hd_dx (run t) (trm t) = vzero E ->
  hd_x (run (accept_try (trial_traj a t))) (trm (accept_try (trial_traj a t))) = x0.
Proof.
  move=> hin ha [hz _]. rewrite /=. case: (run t) => [|n l] /= hx hd.
  - by rewrite /trial_tx hx hd hz.
  - by rewrite /trial_x hx hd hz.
Qed.
Lemma calcDiffE s : calcDiff x0 (q_iter s) (q_tr s) =
  let t := if q_iter s =? 0 then problem_calc (q_tr s) else q_tr s in
  (computeGaps x0 (fst (problem_calcDiff t)), stored_cost t).
Proof. by []. Qed.
End Loop.

(** ** The loop invariant *)
Section Inv.
Variable E : Eig.
Variable M : manifold E.
Notation R := (R E).
Variable x0 : mX M.
Variable c : scfg E.
Notation dc := (sc_ddp c).
Notation ncb := (c_ncb (sc_ddp c)).
Variable s0 : sqp M.
Notation zero_ok := (zero_ok (c_alphas dc) x0).

Notation sqp_rule := (@sqp_rule E M c).
(** the filter buffers have the configured size *)
Definition bufs (s : sqp M) : Prop :=
  holds (sc_fsize c) [] (q_costl s) /\ holds (sc_fsize c) [] (q_gapl s).

(** values of a round: KKT residual (above the tolerance), gap norm and merit of
    its iterate, and its direction is one computed by computeDirection *)
Definition round_wf (r : round M) : Prop :=
  r_kkt r = kkt_residual (r_tr r) /\ rle E (r_kkt r) (c_tol dc) = false /\
  r_gap r = gap_l1 (r_tr r) /\ r_con r = r0 E /\
  r_merit r = radd E (r_cost r) (rmul E (sc_mu c) (r_gap r)) /\ r_cbmerit r = r_merit r /\
  hd_dx (run (r_tr r)) (trm (r_tr r)) = vzero E /\
  models (r_tr r) = models (q_tr s0) /\
  exists s1 recalc s2, reg_reach dc (q_preg s0) (q_preg s1) /\ q_dreg s1 = q_preg s1 /\
    sqp_computeDirection x0 c recalc s1 = (true, s2) /\ r_tr r = q_tr s2.

Definition rounds_ok (rs : list (round M)) : Prop :=
  ((sc_filter c = true -> bufs s0) -> rounds_searched sqp_rule rs) /\
  (zero_ok -> values_carried rs) /\ rounds_evaluated x0 rs /\ Forall round_wf rs.

Record inv (rs : list (round M)) (s : sqp M) : Prop := mkInv {
  i_iter : q_iter s = length rs;
  i_log : rev (q_log s) = rev (q_log s0) ++ rounds_trace ncb 0 rs;
  i_run : run (q_tr s) <> [];
  i_nm : models (q_tr s) = models (q_tr s0);
  i_dx : hd_dx (run (q_tr s)) (trm (q_tr s)) = vzero E;
  i_x : zero_ok -> hd_x (run (q_tr s)) (trm (q_tr s)) = x0;
  i_reg : regs_at c (q_preg s0) s;
  i_buf : bufs s0 -> holds (sc_fsize c) (rev (map (@r_cost E M) rs)) (q_costl s) /\
                     holds (sc_fsize c) (rev (map (@r_gap E M) rs)) (q_gapl s);
  i_rounds : rounds_ok rs;
  i_last : forall a, last_acc rs = Some a ->
     a_con a = r0 E /\ fresh (q_tr s) /\ stored_cost (q_tr s) = a_cost a /\
     (zero_ok -> gap_l1 (computeGaps x0 (fst (problem_calcDiff (q_tr s)))) = a_gap a);
  i_cand : iterates (get_xs (q_tr s0)) (get_us (q_tr s0)) rs (get_xs (q_tr s)) (get_us (q_tr s))
}.

(** invariant of the states inside an iteration, after the direction *)
Record mid (rs : list (round M)) (s : sqp M) : Prop := mkMid {
  m_iter : q_iter s = length rs;
  m_log : rev (q_log s) = rev (q_log s0) ++ rounds_trace ncb 0 rs;
  m_run : run (q_tr s) <> [];
  m_nm : models (q_tr s) = models (q_tr s0);
  m_dx : hd_dx (run (q_tr s)) (trm (q_tr s)) = vzero E;
  m_x : zero_ok -> hd_x (run (q_tr s)) (trm (q_tr s)) = x0;
  m_reg : regs_at c (q_preg s0) s;
  m_buf : bufs s0 -> holds (sc_fsize c) (rev (map (@r_cost E M) rs)) (q_costl s) /\
                     holds (sc_fsize c) (rev (map (@r_gap E M) rs)) (q_gapl s);
  m_rounds : rounds_ok rs;
  m_last : forall a, last_acc rs = Some a -> a_con a = r0 E /\ q_cost s = a_cost a /\ (zero_ok -> q_gap s = a_gap a);
  m_cand : iterates (get_xs (q_tr s0)) (get_us (q_tr s0)) rs (get_xs (q_tr s)) (get_us (q_tr s));
  m_fresh : evaluated_at rs (length rs) -> consistent x0 (q_tr s) /\ q_cost s = stored_cost (q_tr s);
  m_gap : q_gap s = gap_l1 (q_tr s);
  m_merit : q_merit s = radd E (q_cost s) (rmul E (sc_mu c) (q_gap s))
}.

Lemma get_xs_base (t t' : traj M) : passed_traj t t' -> get_xs t' = get_xs t /\ get_us t' = get_us t.
Proof.
  move=> [h [A [v [d [l e]]]]]. rewrite /get_xs /get_us e /=. split.
  - congr (_ ++ _). elim: h => [|n n' l1 l1' [w [e1 ->]] _ ih] //=. by rewrite ih.
  - elim: h => [|n n' l1 l1' [w [e1 ->]] _ ih] //=. by rewrite ih.
Qed.
Lemma stored_cost_passed (t t' : traj M) : passed_traj t t' -> stored_cost t' = stored_cost t.
Proof.
  move=> [h [A [v [d [l e]]]]]. rewrite /stored_cost e /=. congr (radd _ _ _).
  move: (r0 E). elim: h => [|n n' l1 l1' [w [e1 ->]] _ ih] a //=.
Qed.
Lemma stored_cost_gaps (t : traj M) : stored_cost (computeGaps x0 (fst (problem_calcDiff t))) = stored_cost t.
Proof.
  case: (computeGapsP x0 (fst (problem_calcDiff t))) => h1 [[f h2] _].
  rewrite /stored_cost h2 /=. congr (radd _ _ _). move: h1. rewrite /=. move: (r0 E).
  elim: (run t) (fst _) => [|n l ih] l' a h; inversion h; subst => //=.
  case: H1 => g ->. exact: (ih _ _ H3).
Qed.
Lemma base_pts s : get_xs (dir_base x0 true s) = get_xs (q_tr s) /\
  get_us (dir_base x0 true s) = get_us (q_tr s) /\
  (run (q_tr s) <> [] -> run (dir_base x0 true s) <> []) /\
  hd_x (run (dir_base x0 true s)) (trm (dir_base x0 true s)) = hd_x (run (q_tr s)) (trm (q_tr s)).
Proof.
  rewrite /dir_base /calcDiff. set t := (if _ then _ else _).
  have [e1 [e2 [e3 e4]]] : get_xs t = get_xs (q_tr s) /\ get_us t = get_us (q_tr s) /\
    (run (q_tr s) <> [] -> run t <> []) /\ hd_x (run t) (trm t) = hd_x (run (q_tr s)) (trm (q_tr s)).
  { rewrite /t. case: (q_iter s =? 0) => //. rewrite /get_xs /get_us /= !map_map. by case: (run (q_tr s)). }
  cbn [fst snd]. rewrite -e1 -e2 -e4.
  case: (computeGapsP x0 (fst (problem_calcDiff t))) => h1 [[f h2] [_ [h3 _]]].
  rewrite h3 /get_xs /get_us h2. split; [|split; [|split]].
  - congr (_ ++ _). move: h1. rewrite /=. elim: (run t) (fst _) => [|n l ih] l' h; inversion h; subst => //=.
    case: H1 => g ->. by rewrite (ih _ H3).
  - move: h1. rewrite /=. elim: (run t) (fst _) => [|n l ih] l' h; inversion h; subst => //=.
    case: H1 => g ->. by rewrite (ih _ H3).
  - move=> h. move: (e3 h) h1. cbn [run fst problem_calcDiff]. case: (run t) => [|n l] // _ h'; inversion h'; discriminate.
  - cbn [run trm fst problem_calcDiff]. by case: (run t).
Qed.

Lemma nm_passed (t t' : traj M) : passed_traj t t' -> map (@nm E M) (run t') = map (@nm E M) (run t).
Proof. move=> [h _]. elim: h => [|n n' l1 l1' [w [e1 ->]] _ ih] //=. by rewrite ih. Qed.
Lemma nm_touched (t t' : traj M) : touched_traj t t' -> map (@nm E M) (run t') = map (@nm E M) (run t).
Proof. move=> [h _]. elim: h => [|n n' l1 l1' h1 _ ih] //=. rewrite ih. case: h1 => [xt [ut [m [_ ->]]]]. by []. Qed.
Lemma nm_gaps (t : traj M) : map (@nm E M) (run (computeGaps x0 t)) = map (@nm E M) (run t).
Proof.
  case: (computeGapsP x0 t) => h1 _. elim: h1 => [|n n' l1 l1' [f ->] _ ih] //=. by rewrite ih.
Qed.
Lemma nm_base s : map (@nm E M) (run (dir_base x0 true s)) = map (@nm E M) (run (q_tr s)).
Proof.
  rewrite /dir_base /calcDiff. cbn [fst]. rewrite nm_gaps /= map_map.
  case: (q_iter s =? 0) => //=. by rewrite map_map.
Qed.
Lemma nm_accept a (t : traj M) : map (@nm E M) (run (accept_try (trial_traj a t))) = map (@nm E M) (run t).
Proof. by rewrite /= !map_map. Qed.

Lemma ms_passed (t t' : traj M) : passed_traj t t' -> models t' = models t.
Proof. move=> h. rewrite /models (nm_passed h). by case: h => _ [A [v [d [lm ->]]]]. Qed.
Lemma ms_touched (t t' : traj M) : touched_traj t t' -> models t' = models t.
Proof. move=> h. rewrite /models (nm_touched h). by case: h => _ [xt [m ->]]. Qed.
Lemma ms_base s : models (dir_base x0 true s) = models (q_tr s).
Proof.
  rewrite /models nm_base. congr (_, _). rewrite /dir_base /calcDiff. cbn [fst].
  case: (computeGapsP x0 (fst (problem_calcDiff (if q_iter s =? 0 then problem_calc (q_tr s) else q_tr s)))) => _ [[f ->] _].
  by case: (q_iter s =? 0).
Qed.
Lemma ms_accept a (t : traj M) : models (accept_try (trial_traj a t)) = models t.
Proof. by rewrite /models nm_accept. Qed.

Lemma inv_dir rs s s' : inv rs s -> dir_frame x0 c s s' /\ regs_at c (q_preg s0) s' -> mid rs s'.
Proof.
  move=> [h1 h2 h3 hnm h4 h5 hrg h6 h7 h8 h9] [[k1 [k2 [k3 [k4 [k5 [k6 [k7 [k8 [k9 [k10 k11]]]]]]]]]] hrg'].
  case: (base_pts s) => b1 [b2 [b3 b4]]. case: (get_xs_base k1) => b5 b6.
  split.
  - by rewrite k6.
  - by rewrite k10.
  - move: (b3 h3). case: k1 => hf _. by case: hf.
  - by rewrite (ms_passed k1) ms_base.
  - by rewrite k2.
  - move=> hz. by rewrite (passed_hd_x k1) b4 h5.
  - exact: hrg'.
  - by rewrite k8 k9.
  - exact: h7.
  - move=> a ha. case: (h8 a ha) => f0 [f1 [f2 f3]]. split; [exact: f0|].
    rewrite k3 k4 /dir_base calcDiffE. cbv zeta. cbn [fst snd].
    have -> : (if q_iter s =? 0 then problem_calc (q_tr s) else q_tr s) = q_tr s
      by case: (_ =? _) => //; exact: fresh_calc.
    by split.
  - by rewrite b5 b6 b1 b2.
  - move=> hf. split.
    + apply: (passed_consistent k1). rewrite /dir_base calcDiffE. cbv zeta. cbn [fst].
      apply: reeval_consistent_of. case: (evaluated_last hf) => [e|[a e]].
      * rewrite h1 e /=. exact: problem_calc_fresh.
      * case: (h8 a e) => _ [f1 _].
        case: (_ =? _) => //. exact: problem_calc_fresh.
    + rewrite k3 (stored_cost_passed k1) /dir_base calcDiffE. cbv zeta. cbn [fst snd].
      by rewrite stored_cost_gaps.
  - by rewrite (gap_l1_passed k1).
  - exact: k5.
Qed.


(** ** Outcome of a solve: rounds, then possibly a last check ([last]) *)
Definition dir_of (t : traj M) : Prop :=
  exists s1 recalc s2, reg_reach dc (q_preg s0) (q_preg s1) /\ q_dreg s1 = q_preg s1 /\
    sqp_computeDirection x0 c recalc s1 = (true, s2) /\ t = q_tr s2.
Record fin (rs : list (round M)) (last b : bool) (s' : sqp M) : Prop := mkFin {
  f_log : rev (q_log s') = rev (q_log s0) ++ rounds_trace ncb 0 rs ++
    (if last then callback_trace ncb (length rs) (q_kkt s') (q_cost s') (q_merit s') (q_step s') else []);
  f_last : if last then
      q_iter s' = length rs /\ b = rle E (q_kkt s') (c_tol dc) /\
      q_kkt s' = kkt_residual (q_tr s') /\ (evaluated_at rs (length rs) -> consistent x0 (q_tr s'))
    else b = false;
  f_ldir : last = true -> dir_of (q_tr s');
  f_iter : q_iter s' <= length rs <= S (q_iter s');
  f_run : run (q_tr s') <> [];
  f_nm : models (q_tr s') = models (q_tr s0);
  f_dx : hd_dx (run (q_tr s')) (trm (q_tr s')) = vzero E;
  f_x : zero_ok -> hd_x (run (q_tr s')) (trm (q_tr s')) = x0;
  f_reg : regs_at c (q_preg s0) s';
  f_buf : bufs s0 -> bufs s';
  f_rounds : rounds_ok rs;
  f_cand : iterates (get_xs (q_tr s0)) (get_us (q_tr s0)) rs (get_xs (q_tr s')) (get_us (q_tr s'))
}.

Lemma fin_mid rs s : mid rs s -> fin rs false false s.
Proof.
  move=> [h1 h2 h3 hnm h4 h5 hrg h6 h7 h8 h9 h10 h11 h12]. split => //.
  - by rewrite app_nil_r.
  - lia.
  - move=> hb. case: (h6 hb) => k1 k2. by split; apply: holds_forget; eassumption.
Qed.
Lemma fin_inv rs s : inv rs s -> fin rs false false s.
Proof.
  move=> [h1 h2 h3 hnm h4 h5 hrg h6 h7 h8 h9]. split => //.
  - by rewrite app_nil_r.
  - lia.
  - move=> hb. case: (h6 hb) => k1 k2. by split; apply: holds_forget; eassumption.
Qed.
Lemma check_log (s : sqp M) : rev (q_log (sqp_check c s)) =
  rev (q_log s) ++ callback_trace ncb (q_iter s) (kkt_residual (q_tr s)) (q_cost s) (q_merit s) (q_step s).
Proof. rewrite /sqp_check /=. by rewrite run_callbacksE rev_app_distr rev_involutive. Qed.
Lemma fin_check rs s : mid rs s -> dir_of (q_tr s) -> fin rs true (rle E (q_kkt (sqp_check c s)) (c_tol dc)) (sqp_check c s).
Proof.
  move=> [h1 h2 h3 hnm h4 h5 hrg h6 h7 h8 h9 h10 h11 h12] hdo. split => //.
  - by rewrite check_log h2 -app_assoc h1.
  - do 3 split => //. by move=> /h10 [].
  - cbn. lia.
  - move=> hb. case: (h6 hb) => k1 k2. by split; apply: holds_forget; eassumption.
Qed.

(** a complete round *)
Definition the_round (s : sqp M) (acc : option (accepted E)) : round M :=
  mkRound (q_tr s) (q_kkt s) (q_merit s) (q_step s) (q_cost s) (q_gap s) (r0 E) (q_merit s) acc.
Definition push_log (s : sqp M) : list (event E) := q_log (sqp_push (sqp_check c s)).

Lemma push_logE rs s ev acc : mid rs s ->
  ev = match acc with
       | Some a => EvAccept E (q_iter s) (a_step a) (a_cost a) (a_gap a) (a_con a) (a_merit a)
       | None => EvReject E (q_iter s)
       end ->
  rev (ev :: push_log s) =
  rev (q_log s0) ++ rounds_trace ncb 0 (rs ++ [the_round (sqp_check c s) acc]).
Proof.
  move=> hm ->. rewrite rounds_trace_snoc. cbn [rev].
  rewrite /push_log /sqp_push. cbn [q_log set_q_log set_q_costl set_q_gapl]. cbn [rev].
  rewrite check_log (m_log hm) /round_trace -!app_assoc. congr (_ ++ (_ ++ _)).
  rewrite (m_iter hm). cbn. by rewrite (m_iter hm).
Qed.

(** the pushed buffers contain the values of the last iterates *)
Lemma bufs_push rs s acc : mid rs s -> bufs s0 ->
  holds (sc_fsize c) (rev (map (@r_cost E M) (rs ++ [the_round (sqp_check c s) acc])))
     (q_costl (sqp_push (sqp_check c s))) /\
  holds (sc_fsize c) (rev (map (@r_gap E M) (rs ++ [the_round (sqp_check c s) acc])))
     (q_gapl (sqp_push (sqp_check c s))).
Proof.
  move=> hm hb. case: (m_buf hm hb) => h1 h2. rewrite !map_app !rev_app_distr /=.
  by split; apply: holds_push.
Qed.
(** the code's acceptance test is the specified one *)
Lemma acceptableE rs s acc a : mid rs s -> (sc_filter c = true -> bufs s0) ->
  let t := q_tr s in
  acceptable c (sqp_push (sqp_check c s)) (trial_cost a t) (trial_gap a t) (trial_merit c a t)
    = Some (if sc_filter c
            then negb (existsb (dominates sqp_rule (trial_of sqp_rule t a))
                         (recent (sc_fsize c) (rs ++ [the_round (sqp_check c s) acc])))
            else rlt E (trial_merit c a t) (q_merit s)).
Proof.
  move=> hm hb t. rewrite /acceptable. case hf: (sc_filter c) => //. set test := fun i : nat => _.
  case: (bufs_push acc hm (hb hf)) => b1 b2.
  have e : filter_worse test (sc_fsize c) (q_iter (sqp_push (sqp_check c s))) =
    Some (existsb (dominates sqp_rule (trial_of sqp_rule t a))
                         (recent (sc_fsize c) (rs ++ [the_round (sqp_check c s) acc]))).
  { apply: (@accept_spec E M sqp_rule rs (the_round (sqp_check c s) acc)).
    - by rewrite -(m_iter hm).
    - move=> k rk hk hr. rewrite /test (holds_recent b1 hk hr) (holds_recent b2 hk hr).
      by rewrite /dominates /= andb_true_r. }
  by rewrite e.
Qed.
Lemma step_passesE rs s acc a : mid rs s -> (sc_filter c = true -> bufs s0) ->
  step_passes c (sqp_push (sqp_check c s)) a = admissible sqp_rule rs (the_round (sqp_check c s) acc) a.
Proof.
  move=> hm hb. rewrite /step_passes. have := @acceptableE rs s acc a hm hb. cbv zeta.
  change (q_tr (sqp_push (sqp_check c s))) with (q_tr s). move=> ->.
  rewrite /admissible. change (r_tr (the_round _ _)) with (q_tr s).
  congr (_ && _).
Qed.

Lemma rounds_snoc rs s acc : mid rs s -> dir_of (q_tr s) ->
  rle E (q_kkt (sqp_check c s)) (c_tol dc) = false ->
  ((sc_filter c = true -> bufs s0) ->
     acc = option_map (trial_of sqp_rule (q_tr s))
             (find (admissible sqp_rule rs (the_round (sqp_check c s) acc)) (c_alphas dc))) ->
  rounds_ok (rs ++ [the_round (sqp_check c s) acc]).
Proof.
  move=> hm hd hk h1. case: (m_rounds hm) => r1 [r2 [r3 r4]]. split; [|split; [|split]].
  - move=> hb. apply: searched_snoc; [exact: r1|]. exact: h1.
  - move=> hz. apply: carried_snoc; [exact: r2|]. move=> a ha.
    case: (m_last hm ha) => k1 [k2 k3]. rewrite /= k1 k2 (k3 hz). by [].
  - apply: evaluated_rounds_snoc => // he.
    change (r_tr (the_round _ _)) with (q_tr s).
    case: (m_fresh hm he) => k1 k2. rewrite consistent_id //.
  - apply/Forall_app. split => //. constructor; [|constructor].
    split; [done|]. split; [exact: hk|]. split; [exact: m_gap hm|]. split; [done|].
    split; [exact: m_merit hm|]. split; [done|]. split; [exact: m_dx hm|]. split; [exact: m_nm hm|exact: hd].
Qed.

Definition same_but_reg (s s' : sqp M) : Prop := (exists p q, s' = set_q_dreg p (set_q_preg q s)) /\
  (regs_at c (q_preg s0) s -> regs_at c (q_preg s0) s').
Lemma afterP s :
  match sqp_after c s with
  | BRet b s' => b = false /\ same_but_reg s s'
  | BNext s' => same_but_reg s s'
  | _ => False
  end.
Proof.
  rewrite /sqp_after. have h0 : same_but_reg s s by split => //; exists (q_dreg s), (q_preg s); destruct s.
  have h1 : same_but_reg s (if rgt (q_step s) (c_stepdec dc) then sqp_dec c s else s).
  { case: (rgt _ _) => //. split; [by eexists _, _; reflexivity|exact: regs_dec]. }
  move: h1. set s5 := (if _ then _ else _). move=> h1.
  case: (rle E _ _) => //.
  have h2 : same_but_reg s (sqp_inc c s5).
  { case: h1 => [[p [q ->]] hr]. split; [by eexists _, _; reflexivity|move=> /hr h; exact: regs_inc]. }
  by case: (req E _ _).
Qed.

Lemma inv_reg rs s s' : inv rs s -> same_but_reg s s' -> inv rs s'.
Proof. move=> [? ? ? ? ? ? hrg ? ? ? ?] [[p [q e]] hr]. have := hr hrg. subst s'. by split. Qed.

Lemma inv_reg_iter rs s s' : inv rs (set_q_iter (S (q_iter s)) s) -> same_but_reg s s' ->
  inv rs (set_q_iter (S (q_iter s')) s').
Proof.
  move=> hi [[p [q e]] hr]. apply: (inv_reg hi). subst s'. split => //. by exists p, q.
Qed.
(** the state after the line search, before the regularisation update *)
Lemma fin_of_inv rs s : inv rs (set_q_iter (S (q_iter s)) s) -> fin rs false false s.
Proof.
  move=> [h1 h2 h3 hnm h4 h5 hrg h6 h7 h8 h9]. cbn in h1. split => //.
  - by rewrite app_nil_r.
  - lia.
  - move=> hb. case: (h6 hb) => k1 k2. by split; apply: holds_forget; eassumption.
Qed.

Lemma passes_range (s : sqp M) (a : R) : step_passes c s a = true -> step_in_range a = true.
Proof. rewrite /step_passes /trial_ok. by case: (step_in_range a). Qed.
Lemma find_passes rs s acc pre a post : mid rs s -> (sc_filter c = true -> bufs s0) ->
  Forall (fun b => step_passes c (sqp_push (sqp_check c s)) b = false) pre ->
  step_passes c (sqp_push (sqp_check c s)) a = true ->
  find (admissible sqp_rule rs (the_round (sqp_check c s) acc)) (pre ++ a :: post) = Some a.
Proof.
  move=> hm hb hpre ha. apply: find_first.
  - apply: Forall_impl hpre => b. by rewrite (@step_passesE rs s acc).
  - by rewrite -(@step_passesE rs s acc).
Qed.
Lemma find_passes_none rs s acc als : mid rs s -> (sc_filter c = true -> bufs s0) ->
  Forall (fun b => step_passes c (sqp_push (sqp_check c s)) b = false) als ->
  find (admissible sqp_rule rs (the_round (sqp_check c s) acc)) als = None.
Proof.
  move=> hm hb hpre. apply: find_none'. apply: Forall_impl hpre => b. by rewrite (@step_passesE rs s acc).
Qed.

Lemma inv_accept rs s s' a pre post : mid rs s -> dir_of (q_tr s) ->
  rle E (q_kkt (sqp_check c s)) (c_tol dc) = false ->
  let sp := sqp_push (sqp_check c s) in
  c_alphas dc = pre ++ a :: post -> Forall (fun b => step_passes c sp b = false) pre ->
  step_passes c sp a = true -> q_step s' = a ->
  q_costt s' = trial_cost a (q_tr sp) -> q_gapt s' = trial_gap a (q_tr sp) ->
  q_meritt s' = trial_merit c a (q_tr sp) ->
  (exists s1, ls_frame sp s1 /\ s' = set_q_tr (accept_try (q_tr s1)) s1 /\
        exists t1, touched_traj (q_tr sp) t1 /\ q_tr s1 = trial_traj a t1) ->
  exists r, inv (rs ++ [r]) (set_q_iter (S (q_iter s')) (sqp_log_accept s')).
Proof.
  move=> hm hd hk sp hal hpre hpass hst hc hg hme [s1 [hf [hs' [t1 [ht1 htr]]]]].
  set acc := Some (trial_of sqp_rule (q_tr s) a).
  exists (the_round (sqp_check c s) acc).
  have hq : q_tr sp = q_tr s by [].
  have e1 : trial_cost a t1 = trial_cost a (q_tr s) by exact: (trial_cost_t a ht1).
  have e2 : trial_gap a t1 = trial_gap a (q_tr s) by exact: (trial_gap_t a ht1).
  have hrange := passes_range hpass.
  case: hf => f1 [g1 [g2 [_ [_ [_ [_ [_ [_ [f2 [f3 [f4 f5]]]]]]]]]]].
  have hrg : regs_at c (q_preg s0) s'.
  { case: (m_reg hm). rewrite /regs_at hs' /= g1 g2. by split. }
  have hxt : zero_ok -> hd_x (run (accept_try (trial_traj a t1))) (trm (accept_try (trial_traj a t1))) = x0.
  { move=> hz. apply: (hd_x_trial (c := c)) => //.
    - rewrite hal. apply: in_or_app. by right; left.
    - rewrite -(m_x hm hz). exact: hd_x_t.
    - rewrite -(m_dx hm). exact: hd_dx_t. }
  split.
  - rewrite hs' /= f2 app_length /=. rewrite [q_iter sp](m_iter hm). lia.
  - rewrite /sqp_log_accept. cbn [q_log set_q_log set_q_iter].
    have -> : q_log s' = push_log s by rewrite hs' /= f5.
    have hi : q_iter s' = q_iter s by rewrite hs' /= f2.
    apply: push_logE => //. by rewrite hi hst hc hg hme hq.
  - rewrite hs' /= htr. have := run_ne_t ht1 (m_run hm). rewrite /=. by case: (run t1).
  - rewrite -(m_nm hm) hs'. cbn [q_tr set_q_tr set_q_iter sqp_log_accept set_q_log]. rewrite htr ms_accept. exact: ms_touched.
  - rewrite -(m_dx hm) -(hd_dx_t ht1) hs' /= htr /=. by case: (run t1).
  - move=> hz. rewrite hs'. cbn [q_tr set_q_tr set_q_iter sqp_log_accept set_q_log]. rewrite htr. exact: hxt.
  - exact: hrg.
  - move=> hb. rewrite hs' /= f3 f4. exact: bufs_push.
  - apply: rounds_snoc => // hb. by rewrite hal (find_passes _ _ hm hb hpre hpass).
  - move=> a'. rewrite last_acc_snoc /= => [[<-]]. rewrite hs'.
    cbn [q_tr set_q_tr set_q_iter sqp_log_accept set_q_log a_con a_cost a_gap trial_of ls_usecon SQPSpec.sqp_rule]. rewrite htr.
    split; [done|]. split; [exact: fresh_trial|]. split; [by rewrite stored_cost_trial|].
    move=> hz. rewrite (gap_next (c := c)) //. exact: hxt.
  - have := @iterates_snoc E M rs (the_round (sqp_check c s) acc) _ _ (m_cand hm).
    rewrite hs'. cbn [q_tr set_q_tr set_q_iter sqp_log_accept set_q_log]. rewrite htr.
    rewrite get_xs_accept get_us_accept (trial_xs_t a ht1) (trial_us_t a ht1). by [].
Qed.

Lemma inv_reject rs s s' : mid rs s -> dir_of (q_tr s) ->
  rle E (q_kkt (sqp_check c s)) (c_tol dc) = false ->
  let sp := sqp_push (sqp_check c s) in
  Forall (fun b => step_passes c sp b = false) (c_alphas dc) ->
  ls_frame sp s' ->
  exists r, r_acc r = None /\ inv (rs ++ [r]) (set_q_iter (S (q_iter s')) (sqp_log_reject s')).
Proof.
  move=> hm hd hk sp hal hf. exists (the_round (sqp_check c s) None). split => //.
  case: hf => f1 [g1 [g2 [_ [_ [_ [_ [_ [_ [f2 [f3 [f4 f5]]]]]]]]]]].
  have hq : q_tr sp = q_tr s by [].
  split.
  - rewrite /= f2 app_length /=. rewrite [q_iter sp](m_iter hm). lia.
  - rewrite /sqp_log_reject. cbn [q_log set_q_log set_q_iter]. rewrite f5.
    apply: push_logE => //. by rewrite f2.
  - exact: run_ne_t f1 (m_run hm).
  - rewrite -(m_nm hm). exact: ms_touched.
  - rewrite -(m_dx hm) /=. exact: hd_dx_t.
  - move=> hz. rewrite -(m_x hm hz) /=. exact: hd_x_t.
  - case: (m_reg hm). rewrite /regs_at /= g1 g2. by split.
  - move=> hb. rewrite /= f3 f4. exact: bufs_push.
  - apply: rounds_snoc => // hb. by rewrite (find_passes_none _ hm hb hal).
  - move=> a'. by rewrite last_acc_snoc.
  - have := @iterates_snoc E M rs (the_round (sqp_check c s) None) _ _ (m_cand hm).
    cbn [q_tr set_q_tr set_q_iter sqp_log_reject set_q_log].
    by rewrite (get_xs_t f1) (get_us_t f1) hq.
Qed.

Lemma body_inv fuel rs s : inv rs s ->
  match sqp_body x0 c fuel s with
  | BRet b s' => (exists last, fin rs last b s') \/ (b = false /\ exists r, fin (rs ++ [r]) false false s')
  | BNext s' => exists r, inv (rs ++ [r]) (set_q_iter (S (q_iter s')) s')
  | BBreak _ => False
  | BUB => sc_filter c = true /\ ~ bufs s0
  | BNoFuel => True
  end.
Proof.
  move=> hi. rewrite /sqp_body. have := retryP x0 fuel (i_reg hi).
  case: (sqp_retry x0 c fuel true s) => // s1 hd; last by left; exists false; exact: fin_mid (inv_dir hi hd).
  case: hd => hd [sd [rc [[hr1 hr2] hdir]]].
  have hm := inv_dir hi hd. cbv zeta. have hdo : dir_of (q_tr s1) by exists sd, rc, s1.
  case hk: (rle E (q_kkt (sqp_check c s1)) (c_tol dc)).
  { left. exists true. have := fin_check hm hdo. by rewrite hk. }
  have := @line_searchP E M c (c_alphas dc) (sqp_push (sqp_check c s1)) (m_run hm).
  case: (sqp_line_search c (c_alphas dc) _) => [s3|s3|].
  - move=> [pre [a [post [h1 [h1' [h2 [h3 [h4 [h5 [h6 h7]]]]]]]]]].
    case: (inv_accept hm hdo hk h1 h1' h2 h3 h4 h5 h6 h7) => r hr.
    have := afterP (sqp_log_accept s3). case: (sqp_after c _) => // [b s'|s'].
    + move=> [-> hreg]. right. split => //. exists r. apply: fin_of_inv. exact: inv_reg_iter hr hreg.
    + move=> hreg. exists r. exact: inv_reg_iter hr hreg.
  - move=> [h1 [h2 _]]. case: (inv_reject hm hdo hk h1 h2) => r [_ hr].
    have := afterP (sqp_log_reject s3). case: (sqp_after c _) => // [b s'|s'].
    + move=> [-> hreg]. right. split => //. exists r. apply: fin_of_inv. exact: inv_reg_iter hr hreg.
    + move=> hreg. exists r. exact: inv_reg_iter hr hreg.
  - move=> [a [_ [_ h]]]. case hf: (sc_filter c); last by rewrite /acceptable hf in h.
    split => // hb.
    have := @acceptableE rs s1 None a hm (fun _ => hb). cbv zeta.
    by change (q_tr (sqp_push (sqp_check c s1))) with (q_tr s1) in h; rewrite h.
Qed.

Lemma final_fin fuel rs s : inv rs s ->
  match sqp_final x0 c fuel s with
  | Ret b s' => exists last, fin rs last b s' /\ (last = true -> sc_extra c = true)
  | Exc _ | UB => False
  | NoFuel => True
  end.
Proof.
  move=> hi. rewrite /sqp_final. case: (sc_extra c); last by exists false; split => //; exact: fin_inv.
  have := retryP x0 fuel (i_reg hi).
  case: (sqp_retry x0 c fuel true s) => // s1 hd.
  - case: hd => hd [sd [rc [[hr1 hr2] hdir]]]. exists true. split => //. apply: (fin_check (inv_dir hi hd)). by exists sd, rc, s1.
  - exists false. split => //. exact: fin_mid (inv_dir hi hd).
Qed.

Lemma loop_fin fuel : forall k rs s, inv rs s ->
  match sqp_loop x0 c fuel k s with
  | Ret b s' => exists rs' last, fin (rs ++ rs') last b s' /\ length rs' <= k /\
                  (last = true -> length rs' < k \/ sc_extra c = true)
  | Exc _ => False
  | UB => sc_filter c = true /\ ~ bufs s0
  | NoFuel => True
  end.
Proof.
  elim=> [|k ih] rs s hi; cbn [sqp_loop].
  - have := final_fin fuel hi. case: (sqp_final x0 c fuel s) => // b s' [last [h1 h2]].
    exists [], last. rewrite app_nil_r. split => //. split => // hl. right. exact: h2.
  - have := body_inv fuel hi. case: (sqp_body x0 c fuel s) => // [b s'|s'].
    + move=> [[last h]|[-> [r h]]].
      * exists [], last. rewrite app_nil_r. split => //=. split; [lia|]. left. lia.
      * exists [r], false. split => //=. split; [lia|done].
    + move=> [r hr]. have := ih _ _ hr. case: (sqp_loop _ _ _ _ _) => // b s2.
      move=> [rs' [last [h1 [h2 h3]]]]. exists (r :: rs'), last.
      split; [by rewrite -app_assoc in h1|]. cbn. split; [lia|]. move=> /h3 [h|h]; [left; lia|by right].
Qed.
End Inv.
