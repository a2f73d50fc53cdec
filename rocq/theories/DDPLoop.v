(** * Invariants of SolverDDP::solve, for any arithmetic. *)
From Coq Require Import ZArith List Bool Arith Lia ssreflect ssrbool.
From Verif Require Import Eigen Problem DDP RollSpec.
Import ListNotations.
Set Implicit Arguments.
Unset Strict Implicit.
Set Asymmetric Patterns.

Section Loop.
Variable E : Eig.
Variable M : manifold E.
Notation R := (R E).
Notation vec := (vec E).
Notation X := (mX M).
Notation node := (node M).
Notation tnode := (tnode M).
Notation nms := (map (@nm E M)).

(** nodes with the same model, candidate, linearisation and gaps *)
Definition agree (n n' : node) : Prop :=
  exists (p : point M (nu (nm n))) me v e a, px p = px (pt n) /\ pu p = pu (pt n) /\
    n' = @mkNode E M (nm n) p me (der n) (fs n) v e a.
Definition tagree (n n' : tnode) : Prop :=
  exists xt me A v dx l dt z zp zr y r i,
    n' = @mkTnode E M (tm n) (tx n) xt me (tder n) (tfs n) A v dx l dt z zp zr y r i.
Definition jagree (t1 t2 : traj M) : Prop := Forall2 agree (run t1) (run t2) /\ tagree (trm t1) (trm t2).

Lemma agree_refl n : agree n n. Proof. exists (pt n), (mem n), (val n), (dir n), (adm n). by destruct n. Qed.
Lemma tagree_refl n : tagree n n. Proof. rewrite /tagree. destruct n. by repeat eexists. Qed.
Lemma agree_trans n1 n2 n3 : agree n1 n2 -> agree n2 n3 -> agree n1 n3.
Proof.
  move=> [p [me [v [e [a [h1 [h2 ->]]]]]]] [p' [me' [v' [e' [a' [h1' [h2' ->]]]]]]].
  exists p', me', v', e', a'. cbn in *. by rewrite h1' h2' h1 h2.
Qed.
Lemma tagree_trans n1 n2 n3 : tagree n1 n2 -> tagree n2 n3 -> tagree n1 n3.
Proof. rewrite /tagree. move=> [? [? [? [? [? [? [? [? [? [? [? [? [? ->]]]]]]]]]]]]] [? [? [? [? [? [? [? [? [? [? [? [? [? ->]]]]]]]]]]]]]. by repeat eexists. Qed.
Lemma Forall2_trans (A : Type) (P : A -> A -> Prop) : (forall a b c, P a b -> P b c -> P a c) ->
  forall l1 l2 l3, Forall2 P l1 l2 -> Forall2 P l2 l3 -> Forall2 P l1 l3.
Proof. move=> ht l1 l2 l3 h. elim: h l3 => [|a b q1 q2 h1 _ ih] l3 h3; inversion h3; subst; constructor; eauto. Qed.
Lemma jagree_trans t1 t2 t3 : jagree t1 t2 -> jagree t2 t3 -> jagree t1 t3.
Proof.
  move=> [h1 h2] [h3 h4]. split; [exact: (Forall2_trans agree_trans h1 h3)|exact: tagree_trans h2 h4].
Qed.
Lemma Forall2_refl (A : Type) (P : A -> A -> Prop) l : (forall a, P a a) -> Forall2 P l l.
Proof. move=> h; elim: l => *; constructor; auto. Qed.
Lemma jagree_refl t : jagree t t.
Proof. split; [exact: Forall2_refl agree_refl|exact: tagree_refl]. Qed.
Lemma agree_px n1 n2 : agree n1 n2 -> px (pt n1) = px (pt n2).
Proof. by move=> [p [me [v [e [a [h1 [h2 ->]]]]]]]. Qed.
Lemma agree_nm l1 l2 : Forall2 agree l1 l2 -> nms l1 = nms l2.
Proof. elim=> [|n1 n2 q1 q2 h _ ih] //=. rewrite ih. by move: h => [p [me [v [e [a [h1 [h2 ->]]]]]]]. Qed.
Lemma agree_us l1 l2 : Forall2 agree l1 l2 ->
  map (fun n => existT vec (nu (nm n)) (pu (pt n))) l1 = map (fun n => existT vec (nu (nm n)) (pu (pt n))) l2.
Proof.
  elim=> [|n1 n2 q1 q2 h _ ih] //=. rewrite ih. f_equal. move: h => [p [me [v [e [a [h1 [h2 ->]]]]]]]; cbn. by rewrite h2.
Qed.
Lemma agree_xs t1 t2 : jagree t1 t2 -> get_xs t1 = get_xs t2 /\ get_us t1 = get_us t2.
Proof.
  move=> [h1 h2]. split; last exact: agree_us.
  rewrite /get_xs. f_equal; last by move: h2 => [? [? [? [? [? [? [? [? [? [? [? [? [? ->]]]]]]]]]]]]].
  elim: h1 => [|n1 n2 q1 q2 h _ ih] //=. by rewrite ih (agree_px h).
Qed.
Lemma lin_agree feas l1 l2 tn1 tn2 : Forall2 agree l1 l2 -> tagree tn1 tn2 -> forall xin acc cost,
  linearised feas xin acc l1 tn1 cost -> linearised feas xin acc l2 tn2 cost.
Proof.
  move=> h ht. elim: h => [|n1 n2 q1 q2 hn _ ih] xin acc cost /=; first by move: ht => [? [? [? [? [? [? [? [? [? [? [? [? [? ->]]]]]]]]]]]]].
  move=> [h1 [e [h2 [h3 h4]]]].
  move: hn => [p [me [v [e' [a [k1 [k2 ->]]]]]]]. rewrite /evals; cbn.
  rewrite k1 k2. split => //. exists e. split => //. split => //. exact: ih.
Qed.

(** ** backward pass *)
Lemma bwd_agree preg dreg feas (t : traj M) : jagree t (snd (backwardPass preg dreg feas t)).
Proof.
  rewrite /backwardPass /=. split => /=; last by rewrite /bwd_term /set_tV /tagree; repeat eexists.
  move: (bwd_term _ _ _) => tn. elim: (run t) => [|n l ih] /=; first by constructor.
  case: (fst (bwd_nodes preg dreg feas l tn)) => /=; constructor => //; [|exact: agree_refl].
  move: (hd_Vxx _ _) (hd_Vx _ _) => A v. rewrite /bwd_node. by case: (_ && _); rewrite /agree /set_val; repeat eexists.
Qed.

(** ** calcDiff *)
Definition cur (t : traj M) : Prop :=
  Forall (fun n => evals (mem n)) (run t) /\ tme (trm t) = tcalc (tm (trm t)) (tx (trm t)).
Lemma cur_calc (t : traj M) : cur (problem_calc t).
Proof.
  split => //=. elim: (run t) => [|n l ih] /=; constructor => //. by left.
Qed.
Notation ncd := (@node_calcDiff E M).
Lemma ncd_x l (tn : tnode) : hd_x (map ncd l) (tnode_calcDiff tn) = hd_x l tn.
Proof. by case: l. Qed.
Lemma gaps_lin l (tn : tnode) : Forall (fun n => evals (mem n)) l -> tme tn = tcalc (tm tn) (tx tn) ->
  forall xin acc,
  let r := gaps_from (diff M (hd_x (map ncd l) (tnode_calcDiff tn)) xin) (map ncd l) (tnode_calcDiff tn) in
  linearised false xin acc (fst r) (snd r)
    (radd E (fold_left (fun c n => radd E c (acost (nm n) (mem n))) l acc) (tcost (tm tn) (tme tn))).
Proof.
  move=> h ht. elim: h => [|n l' hn hl ih] xin acc; cbv zeta; cbn [map gaps_from fst snd linearised hd_x fold_left].
  - rewrite -ht. by split.
  - split; [by []|]. exists (mem n). split; [exact: hn|]. split; [by []|]. exact: ih.
Qed.
Lemma zero_lin l (tn : tnode) : Forall (fun n => evals (mem n)) l -> tme tn = tcalc (tm tn) (tx tn) ->
  forall xin acc,
  linearised true xin acc (map (fun n => set_fs n (vzero E)) (map ncd l)) (set_tfs (tnode_calcDiff tn) (vzero E))
    (radd E (fold_left (fun c n => radd E c (acost (nm n) (mem n))) l acc) (tcost (tm tn) (tme tn))).
Proof.
  move=> h ht. elim: h => [|n l' hn hl ih] xin acc; cbn [map linearised fold_left].
  - rewrite -ht. by split.
  - split; [by []|]. exists (mem n). split; [exact: hn|]. split; [by []|]. exact: ih.
Qed.
Variable x0 : X.
Lemma calcDiff_lin feas (t : traj M) : cur t ->
  let r := problem_calcDiff t in
  let t' := if feas then zeroGaps (fst r) else computeGaps x0 (fst r) in
  linearised feas x0 (r0 E) (run t') (trm t') (snd r).
Proof.
  move=> [h1 h2]. cbv zeta. case: feas.
  - exact: zero_lin.
  - exact: (gaps_lin h1 h2 x0 (r0 E)).
Qed.
(** calcDiff keeps models, states, controls and trial states *)
Definition kept (n n' : node) : Prop :=
  exists (p : point M (nu (nm n))) me d f v e a, px p = px (pt n) /\ pu p = pu (pt n) /\
    n' = @mkNode E M (nm n) p me d f v e a.
Definition tkept (a b : tnode) : Prop := tm b = tm a /\ tx b = tx a.
Definition jkept (t1 t2 : traj M) : Prop := Forall2 kept (run t1) (run t2) /\ tkept (trm t1) (trm t2).
Lemma kept_refl n : kept n n.
Proof. exists (pt n), (mem n), (der n), (fs n), (val n), (dir n), (adm n). by destruct n. Qed.
Lemma kept_trans n1 n2 n3 : kept n1 n2 -> kept n2 n3 -> kept n1 n3.
Proof.
  move=> [p [me [d [f [v [e [a [h1 [h2 ->]]]]]]]]] [p' [me' [d' [f' [v' [e' [a' [h1' [h2' ->]]]]]]]]].
  exists p', me', d', f', v', e', a'. cbn in *. by rewrite h1' h2' h1 h2.
Qed.
Lemma agree_kept n1 n2 : agree n1 n2 -> kept n1 n2.
Proof. move=> [p [me [v [e [a h]]]]]. by exists p, me, (der n1), (fs n1), v, e, a. Qed.
Lemma jkept_refl t : jkept t t.
Proof. split; [exact: Forall2_refl kept_refl|by split]. Qed.
Lemma jkept_trans t1 t2 t3 : jkept t1 t2 -> jkept t2 t3 -> jkept t1 t3.
Proof.
  move=> [h1 [h2 h2']] [h3 [h4 h4']]. split; [exact: (Forall2_trans kept_trans h1 h3)|].
  split; congruence.
Qed.
Lemma jagree_kept t1 t2 : jagree t1 t2 -> jkept t1 t2.
Proof.
  move=> [h1 h2]. split.
  - elim: h1 => *; constructor => //. exact: agree_kept.
  - move: h2 => [? [? [? [? [? [? [? [? [? [? [? [? [? ->]]]]]]]]]]]]]. by split.
Qed.
Lemma kept_nm l1 l2 : Forall2 kept l1 l2 -> nms l2 = nms l1.
Proof. elim=> [|n1 n2 q1 q2 h _ ih] //=. rewrite ih. by move: h => [p [me [d [f [v [e [a [h1 [h2 ->]]]]]]]]]. Qed.
Lemma kept_xs t1 t2 : jkept t1 t2 -> get_xs t2 = get_xs t1 /\ get_us t2 = get_us t1.
Proof.
  move=> [h1 [_ h2]]. rewrite /get_xs /get_us h2. move: h1. 
  move: (run t1) (run t2) => l1 l2 h1. 
  have : map (fun n => px (pt n)) l2 = map (fun n => px (pt n)) l1 /\
         map (fun n => existT vec (nu (nm n)) (pu (pt n))) l2 = map (fun n => existT vec (nu (nm n)) (pu (pt n))) l1.
  { elim: h1 => [|n1 n2 q1 q2 h _ [ih1 ih2]] //=. rewrite ih1 ih2.
    move: h => [p [me [d [f [v [e [a [h1 [h2' ->]]]]]]]]]; cbn. by rewrite h1 h2'. }
  by move=> [-> ->].
Qed.
Lemma fs_kept n f : kept n (set_fs n f).
Proof. exists (pt n), (mem n), (der n), f, (val n), (dir n), (adm n). by destruct n. Qed.
Lemma der_kept n d : kept n (set_der n d).
Proof. exists (pt n), (mem n), d, (fs n), (val n), (dir n), (adm n). by destruct n. Qed.
Lemma mem_kept n d : kept n (set_mem n d).
Proof. exists (pt n), d, (der n), (fs n), (val n), (dir n), (adm n). by destruct n. Qed.
Lemma Forall2_map (A : Type) (P : A -> A -> Prop) g l : (forall a, P a (g a)) -> Forall2 P l (map g l).
Proof. move=> h; elim: l => *; constructor; auto. Qed.
Lemma gaps_kept (l : list node) : forall f (tn : tnode), Forall2 kept l (fst (gaps_from f l tn)) /\ tkept tn (snd (gaps_from f l tn)).
Proof.
  elim: l => [|n l ih] f tn /=; first by split; [constructor|split].
  case: (ih (diff M (hd_x l tn) (axnext (nm n) (mem n))) tn) => h1 h2.
  split => //. constructor => //. exact: fs_kept.
Qed.
Lemma calcDiff_kept feas iter (t : traj M) : jkept t (fst (ddp_calcDiff x0 feas iter t)).
Proof.
  rewrite /ddp_calcDiff. apply: (@jkept_trans _ (if iter =? 0 then problem_calc t else t)).
  - case: (iter =? 0); last exact: jkept_refl. split; [exact: Forall2_map (fun n => mem_kept _)|by split].
  - move: (if iter =? 0 then _ else _) => t1.
    apply: (@jkept_trans _ (fst (problem_calcDiff t1))).
    { split; [exact: Forall2_map (fun n => der_kept _)|by split]. }
    move: (fst (problem_calcDiff t1)) => t2. cbn [fst]. case: feas.
    + split; [exact: Forall2_map (fun n => fs_kept n _)|by split].
    + exact: gaps_kept.
Qed.

(** ** roll-outs: everything of the linearisation, the gaps and the gains stays *)
Definition tried (n n' : node) : Prop :=
  exists (p : point M (nu (nm n))) me e, px p = px (pt n) /\ pu p = pu (pt n) /\
    n' = @mkNode E M (nm n) p me (der n) (fs n) (val n) e (adm n).
Definition ttried (n n' : tnode) : Prop :=
  exists xt me dx l, n' = @mkTnode E M (tm n) (tx n) xt me (tder n) (tfs n) (tVxx n) (tVx n) dx l (tdxt n) (taz n) (tazp n)
    (tazr n) (tay n) (tarho n) (tairho n).
Definition jtried (t1 t2 : traj M) : Prop := Forall2 tried (run t1) (run t2) /\ ttried (trm t1) (trm t2).
Lemma tried_refl n : tried n n. Proof. exists (pt n), (mem n), (dir n). by destruct n. Qed.
Lemma ttried_refl n : ttried n n. Proof. rewrite /ttried. exists (txt n), (tme n), (tdx n), (tlam n). by destruct n. Qed.
Lemma tried_trans n1 n2 n3 : tried n1 n2 -> tried n2 n3 -> tried n1 n3.
Proof.
  move=> [p [me [e [h1 [h2 ->]]]]] [p' [me' [e' [h1' [h2' ->]]]]].
  exists p', me', e'. cbn in *. by rewrite h1' h2' h1 h2.
Qed.
Lemma ttried_trans n1 n2 n3 : ttried n1 n2 -> ttried n2 n3 -> ttried n1 n3.
Proof. move=> [xt [me [d [l ->]]]] [xt' [me' [d' [l' ->]]]]. by exists xt', me', d', l'. Qed.
Lemma jtried_refl t : jtried t t.
Proof. split; [exact: Forall2_refl tried_refl|exact: ttried_refl]. Qed.
Lemma jtried_trans t1 t2 t3 : jtried t1 t2 -> jtried t2 t3 -> jtried t1 t3.
Proof.
  move=> [h1 h2] [h3 h4]. split; [exact: (Forall2_trans tried_trans h1 h3)|exact: ttried_trans h2 h4].
Qed.
Lemma tried_agree n n' : tried n n' -> agree n n'.
Proof. move=> [p [me [e [h1 [h2 h3]]]]]. by exists p, me, (val n), e, (adm n). Qed.
Lemma jtried_agree t t' : jtried t t' -> jagree t t'.
Proof.
  move=> [h1 [xt [me [d [l h2]]]]]. split.
  - elim: h1 => *; constructor => //. exact: tried_agree.
  - rewrite /tagree h2. by repeat eexists.
Qed.
Lemma tried_follows a n1 n2 n3 : tried n1 n2 -> follows a n2 n3 -> follows a n1 n3.
Proof.
  move=> [p [me [e [h1 [h2 ->]]]]]. rewrite /follows /policy; cbn. by rewrite h1 h2.
Qed.

Lemma roll_tried a l : forall xt ld (tn : tnode) c,
  let r := roll_nodes a xt ld l tn c in
  Forall2 tried l (snd (fst (fst r))) /\ ttried tn (snd (fst r)).
Proof.
  have xt_tried : forall n x, tried n (set_xt n x).
  { move=> n x. eexists (mkPoint (px (pt n)) (pu (pt n)) _ _), _, _. by repeat split. }
  have nd_tried : forall x n, tried n (roll_node a x n).
  { move=> x n. eexists (mkPoint (px (pt n)) (pu (pt n)) _ _), _, _. by repeat split. }
  elim: l => [|n l ih] xt ld tn c; cbv zeta.
  - split; [by constructor|]. cbn [roll_nodes fst snd]. rewrite /ttried /set_tme /set_txt /set_tlam; cbn. by repeat eexists.
  - cbn [roll_nodes]. case: (is_rollout_error _ _); cbn [fst snd].
    + split; [constructor => //|].
      * case: l {ih} => [|m q]; constructor => //. exact: Forall2_refl tried_refl.
      * case: l {ih} => [|m q]; [|exact: ttried_refl]. rewrite /ttried /set_txt. by repeat eexists.
    + move: (radd E c _) => c'. have := ih (axnext (nm (roll_node a xt n)) (mem (roll_node a xt n))) (dx (dir (roll_node a xt n))) tn c'.
      move=> [h1 h2]. split => //. by constructor.
Qed.
Definition trial_cur (t : traj M) : Prop :=
  Forall (fun n => mem n = aeval (pxt (pt n)) (put (pt n))) (run t) /\ tme (trm t) = tcalc (tm (trm t)) (txt (trm t)).
(** like [follows], for the trial arrays *)
Definition tfollows (a : R) (n n' : node) : Prop :=
  (nu (nm n) =? 0) = false ->
  existT vec (nu (nm n')) (put (pt n')) = existT vec (nu (nm n)) (policy a n (pxt (pt n'))).
Notation tus l := (map (fun n => existT vec (nu (nm n)) (put (pt n))) l).
Notation txs l tn := (map (fun n => pxt (pt n)) l ++ [txt (tn : tnode)]).
Lemma roll_ok a l : forall xt ld (tn : tnode) c l' tn' c',
  roll_nodes a xt ld l tn c = (true, l', tn', c') ->
  Forall2 (tfollows a) l l' /\ trial_cur (mkTraj l' tn') /\
  (exists cr, rollout (nms l) xt c (tus l') (txs l' tn') cr /\ c' = radd E cr (tcost (tm tn) (tcalc (tm tn) (txt tn')))) /\
  c' = radd E (fold_left (fun c n => radd E c (acost (nm n) (mem n))) l' c) (tcost (tm tn') (tme tn')).
Proof.
  elim: l => [|n l ih] xt ld tn c l' tn' c'; cbn [roll_nodes].
  - move=> [_ <- <- <-]. split; [by constructor|]. split; [by split; [constructor|]|]. split => //.
    exists c. split => //. exact: roll_end.
  - case: (is_rollout_error _ _) => //. set n' := roll_node a xt n. set r := roll_nodes _ _ _ _ _ _.
    case e: r => [[[b l1] tn1] c1]; cbn [fst snd]. move=> [e1 e2 e3 e4]. subst b l' tn1 c1.
    case: (ih _ _ _ _ _ _ _ e) => h1 [[h2 h3] [[cr [h4 h5]] h6]].
    have ev : mem n' = aeval (pxt (pt n')) (put (pt n')).
    { rewrite /n' /roll_node /aeval /set_mem /set_dir /set_pt; cbn. by case: (nu (nm n) =? 0). }
    split; [|split; [|split]].
    + constructor => //. rewrite /tfollows /n' /roll_node /set_mem /set_dir /set_pt; cbn. by move=> ->.
    + split => //. by constructor.
    + exists cr. split => //. cbn [map app].
      change (nm n) with (nm n'). apply: roll_step. rewrite -ev. exact: h4.
    + exact: h6.
Qed.
(** a successful roll-out met no NaN *)
Lemma roll_finite a l : forall xt ld (tn : tnode) c l' tn' c',
  roll_nodes a xt ld l tn c = (true, l', tn', c') -> finite_run (tm tn) (nms l) c (tus l') (txs l' tn').
Proof.
  elim: l => [|n l ih] xt ld tn c l' tn' c'; cbn [roll_nodes].
  - move=> [/negb_true_iff h <- <- _]. apply: finite_end. exact: h.
  - case he: (is_rollout_error _ _) => //. set n' := roll_node a xt n. set r := roll_nodes _ _ _ _ _ _.
    case e: r => [[[b l1] tn1] c1]; cbn [fst snd]. move=> [e1 e2 e3 e4]. subst b l' tn1 c1.
    have ev : mem n' = aeval (pxt (pt n')) (put (pt n')).
    { rewrite /n' /roll_node /aeval /set_mem /set_dir /set_pt; cbn. by case: (nu (nm n) =? 0). }
    move/orb_false_iff: he => [he1 he2]. cbn [map app].
    change (nm n) with (nm n'). apply: finite_step; rewrite -ev //. exact: ih e.
Qed.
Lemma roll_hd a xt ld l (tn : tnode) c : let r := roll_nodes a xt ld l tn c in
  l <> [] -> hd_xt (snd (fst (fst r))) (snd (fst r)) = xt.
Proof. case: l => [|n l] //= _. by case: (is_rollout_error _ _). Qed.

(** accepting the trial *)
Lemma accept_xs (t : traj M) : get_xs (accept_try t) = txs (run t) (trm t) /\ get_us (accept_try t) = tus (run t).
Proof. by rewrite /get_xs /get_us /accept_try /= !map_map. Qed.
Lemma accept_cur (t : traj M) : trial_cur t -> cur (accept_try t).
Proof.
  move=> [h1 h2]. split => //=. elim: h1 => [|n l hn hl ih] /=; constructor => //.
  rewrite /evals /node_accept /set_pt; cbn. rewrite hn /aeval. by case: (nu (nm n) =? 0); [right|left].
Qed.
Lemma accept_hd (t : traj M) : hd_xt (run (accept_try t)) (trm (accept_try t)) = hd_xt (run t) (trm t).
Proof. rewrite /accept_try /=. by case: (run t). Qed.
Lemma accept_nm (t : traj M) : nms (run (accept_try t)) = nms (run t).
Proof. rewrite /accept_try /= map_map. by []. Qed.
Lemma accept_cost (t : traj M) : stored_cost (accept_try t) = stored_cost t.
Proof.
  rewrite /stored_cost /accept_try /=. f_equal. move: (r0 E) => c. elim: (run t) c => [|n l ih] c //=.
Qed.
Lemma accept_follows a l l' : Forall2 (tfollows a) l l' -> Forall2 (follows a) l (map (@node_accept E M) l').
Proof. elim=> *; constructor => //. Qed.
End Loop.
