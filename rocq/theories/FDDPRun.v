(** * SolverFDDP::solve runs are sequences of accepted steps (any arithmetic). *)
From Coq Require Import ZArith List Bool Arith Lia ssreflect ssrbool.
From Verif Require Import Eigen Problem DDP Filter FilterProofs SQP FDDP RollSpec DDPLoop FDDPSpec.
Import ListNotations.
Set Implicit Arguments.
Unset Strict Implicit.
Set Asymmetric Patterns.

Section Roll.
Variable E : Eig.
Variable M : manifold E.
Notation R := (R E).
Notation vec := (vec E).
Notation X := (mX M).
Notation node := (node M).
Notation tnode := (tnode M).
Notation nms := (map (@nm E M)).

Lemma froll_node_tried full a x (n : node) : tried n (froll_node full a x n).
Proof. eexists (mkPoint (px (pt n)) (pu (pt n)) _ _), _, _. by repeat split. Qed.
Lemma froll_tried full a l : forall xt ld (tn : tnode) c g,
  let r := froll_nodes full a xt ld l tn c g in
  Forall2 (@tried E M) l (snd (fst (fst r))) /\ ttried tn (snd (fst r)).
Proof.
  elim: l => [|n l ih] xt ld tn c g; cbv zeta.
  - split; [by constructor|]. cbn [froll_nodes fst snd]. rewrite /ttried /set_tme /set_txt /set_tlam; cbn. by repeat eexists.
  - cbn [froll_nodes]. case: (is_rollout_error _ _); cbn [fst snd].
    + split; [|exact: ttried_refl]. constructor; [exact: froll_node_tried|exact: Forall2_refl (@tried_refl E M)].
    + move: (radd E c _) (radd E g _) => c' g'.
      have := ih (axnext (nm (froll_node full a xt n)) (mem (froll_node full a xt n))) (dx (dir (froll_node full a xt n))) tn c' g'.
      move=> [h1 h2]. split => //. constructor => //. exact: froll_node_tried.
Qed.
Notation tus l := (map (fun n => existT vec (nu (nm n)) (put (pt n))) l).
Notation txs l tn := (map (fun n => pxt (pt n)) l ++ [txt (tn : tnode)]).
Lemma froll_ok full a l : forall xt ld (tn : tnode) c g l' tn' c' g',
  froll_nodes full a xt ld l tn c g = (true, l', tn', (c', g')) ->
  Forall2 (tfollows a) l l' /\ trial_cur (mkTraj l' tn') /\
  (exists cr, shoot full a l (tfs tn) xt c g (tus l') (txs l' tn') cr g' /\
     c' = radd E cr (tcost (tm tn) (tcalc (tm tn) (txt tn')))) /\
  c' = radd E (fold_left (fun c n => radd E c (acost (nm n) (mem n))) l' c) (tcost (tm tn') (tme tn')).
Proof.
  elim: l => [|n l ih] xt ld tn c g l' tn' c' g'; cbn [froll_nodes].
  - move=> [_ <- <- <- <-]. split; [by constructor|]. split; [by split; [constructor|]|]. split => //.
    exists c. split => //. exact: shoot_end.
  - case: (is_rollout_error _ _) => //. set n' := froll_node full a xt n. set r := froll_nodes _ _ _ _ _ _ _ _.
    case e: r => [[[b l1] tn1] [c1 g1]]; cbn [fst snd]. move=> [e1 e2 e3 e4 e5]. subst b l' tn1 c1 g1.
    case: (ih _ _ _ _ _ _ _ _ _ e) => h1 [[h2 h3] [[cr [h4 h5]] h6]].
    have ev : mem n' = aeval (pxt (pt n')) (put (pt n')).
    { rewrite /n' /froll_node /aeval /set_mem /set_dir /set_pt; cbn. by case: (nu (nm n) =? 0). }
    split; [|split; [|split]].
    + constructor => //. rewrite /tfollows /n' /froll_node /set_mem /set_dir /set_pt; cbn. by move=> ->.
    + split => //. by constructor.
    + exists cr. split => //. cbn [map app].
      have := @shoot_step E M full a n l (tfs tn) xt c g (put (pt n')) (tus l1) (txs l1 tn') cr g'.
      change (arrive full a xt (fs n)) with (pxt (pt n')). apply.
      have ev' : aeval (pxt (pt n')) (put (pt n')) = mem n' by [].
      change (nm n) with (nm n'). rewrite ev'. exact: h4.
    + exact: h6.
Qed.

(** a successful pass met no NaN *)
Lemma froll_finite full a l : forall xt ld (tn : tnode) c g l' tn' cg,
  froll_nodes full a xt ld l tn c g = (true, l', tn', cg) -> finite_run (tm tn) (nms l) c (tus l') (txs l' tn').
Proof.
  elim: l => [|n l ih] xt ld tn c g l' tn' cg; cbn [froll_nodes].
  - move=> [/negb_true_iff h <- <- _]. apply: finite_end. exact: h.
  - case he: (is_rollout_error _ _) => //. set n' := froll_node full a xt n. set r := froll_nodes _ _ _ _ _ _ _ _.
    case e: r => [[[b l1] tn1] c1]; cbn [fst snd]. move=> [e1 e2 e3 e4]. subst b l' tn1 c1.
    have ev : mem n' = aeval (pxt (pt n')) (put (pt n')).
    { rewrite /n' /froll_node /aeval /set_mem /set_dir /set_pt; cbn. by case: (nu (nm n) =? 0). }
    move/orb_false_iff: he => [he1 he2]. cbn [map app].
    change (nm n) with (nm n'). apply: finite_step; rewrite -ev //. exact: ih e.
Qed.

(** a full step is a roll-out from x0 *)
Lemma shoot_rollout a l f x acc g us xs cr d :
  shoot true a l f x acc g us xs cr d -> rollout (nms l) x acc us xs cr.
Proof.
  elim=> [f' x' acc' g'|n l' f' x' acc' g' u us' xs' cost dist _ ih]; first exact: roll_end.
  exact: roll_step.
Qed.
End Roll.

Section Run.
Variable E : Eig.
Variable M : manifold E.
Notation R := (R E).
Notation vec := (vec E).
Notation X := (mX M).
Notation node := (node M).
Notation tnode := (tnode M).
Notation nms := (map (@nm E M)).
Variables (ms : list (amodel M)) (tmod : tmodel M) (x0 : X) (c : fcfg E).
Notation dc := (fc_ddp c).
Variable z0 : fcand M.
Notation faccepted := (faccepted M).
Notation faccepted_ok := (faccepted_ok ms tmod x0 dc (fc_filter c) (fc_fsize c) (fc_neg c)).
Notation fchained := (fchained (fc_filter c)).
Notation fsteps := (fsteps_from (fc_filter c) z0).

Definition fshape (t : traj M) : Prop := nms (run t) = ms /\ tm (trm t) = tmod.
Definition fat_steps (rs : list faccepted) (d : ddp M) : Prop :=
  get_xs (d_tr d) = cd_xs (fsteps rs) /\ get_us (d_tr d) = cd_us (fsteps rs) /\ d_feas d = cd_feas (fsteps rs).
Definition costok (rs : list faccepted) (d : ddp M) : Prop :=
  forall v, cd_cost (fsteps rs) = Some v -> d_cost d = v.
Definition fbufs (h : list (R * R)) (s : fddp M) : Prop :=
  holds (fc_fsize c) (map fst h) (f_costl s) /\ holds (fc_fsize c) (map snd h) (f_gapl s).
Record fpath (rs : list faccepted) (s : fddp M) : Prop := mkFpath {
  fp_shape : fshape (d_tr (f_d s));
  fp_steps : fchained z0 rs /\ Forall faccepted_ok rs;
  fp_at : fat_steps rs (f_d s)
}.
Definition flin (d : ddp M) : Prop := linearised (d_feas d) x0 (r0 E) (run (d_tr d)) (trm (d_tr d)) (d_cost d).
(** the recorded history: since the last acceptance, [m] times the present candidate *)
Definition recorded (rs : list faccepted) (m : nat) (s : fddp M) : list (R * R) :=
  repeat (d_cost (f_d s), gap_l1 (d_tr (f_d s))) m ++ cd_hist (fsteps rs).
(** at the start of an iteration *)
Definition fready (recalc : bool) (rs : list faccepted) (m : nat) (s : fddp M) : Prop :=
  fbufs (recorded rs m s) s /\
  if recalc then m = 0 /\ (d_iter (f_d s) = 0 /\ rs = [] \/
                  d_iter (f_d s) <> 0 /\ cur (d_tr (f_d s)) /\ forall v, cd_cost (fsteps rs) = Some v -> stored_cost (d_tr (f_d s)) = v)
  else flin (f_d s) /\ costok rs (f_d s).
Hypothesis z0cost : cd_cost z0 = None.

Lemma fsteps_app rs r : fsteps (rs ++ [r]) = fcand_after (fc_filter c) r.
Proof. move: z0 => z. elim: rs z => [|q rs ih] z //=. Qed.
Lemma fchained_app rs r : fchained z0 rs -> starts_at (fsteps rs) r -> fchained z0 (rs ++ [r]).
Proof.
  move: z0 => z. elim: rs z => [|q rs ih] z /=; first by move=> _ h.
  move=> [h1 h2] hz. split => //. exact: ih.
Qed.
Lemma kept_fshape t t' : jkept t t' -> fshape t -> fshape t'.
Proof. move=> [h1 [h2 h3]] [k1 k2]. split; [by rewrite (kept_nm h1)|congruence]. Qed.
Lemma fpath_tr rs s s' : jkept (d_tr (f_d s)) (d_tr (f_d s')) -> d_feas (f_d s') = d_feas (f_d s) -> fpath rs s -> fpath rs s'.
Proof.
  move=> hk e2 [h1 h2 h3]. split => //; first exact: kept_fshape hk h1.
  case: h3 => k1 [k2 k3]. case: (kept_xs hk) => q1 q2. by rewrite /fat_steps e2 q1 q2.
Qed.
Lemma agree_gap (t t' : traj M) : jagree t t' -> gap_l1 t' = gap_l1 t.
Proof.
  move=> [h1 h2]. rewrite /gap_l1. f_equal; last by move: h2 => [? [? [? [? [? [? [? [? [? [? [? [? [? ->]]]]]]]]]]]]].
  move: (r0 E) => acc. elim: h1 acc => [|n1 n2 q1 q2 h _ ih] acc //=. rewrite ih.
  by move: h => [p [me [v [e [a [k1 [k2 ->]]]]]]].
Qed.

Lemma fdirection_path recalc rs m s : fpath rs s -> fready recalc rs m s ->
  let r := fddp_computeDirection x0 recalc s in
  let d := f_d (snd r) in
  fpath rs (snd r) /\ flin d /\ costok rs d /\ d_iter d = d_iter (f_d s) /\ d_log d = d_log (f_d s) /\
  fbufs (recorded rs m (snd r)) (snd r) /\ f_gap (snd r) = gap_l1 (d_tr d) /\
  (fst r = true -> exists t, backwardPass (d_preg d) (d_dreg d) (d_feas d) t = (true, d_tr d)).
Proof.
  move=> hp [hb hr]. cbv zeta. rewrite /fddp_computeDirection.
  set s1 := if recalc then _ else s.
  have h1 : fpath rs s1 /\ flin (f_d s1) /\ costok rs (f_d s1) /\ d_iter (f_d s1) = d_iter (f_d s) /\
            d_log (f_d s1) = d_log (f_d s) /\ fbufs (recorded rs m s1) s1.
  { rewrite /s1. case: recalc hr {s1} => hr; last by case: hr.
    case: hr => hm hr. split; [|split; [|split; [|split; [|split]]]] => //.
    - apply: (fpath_tr _ _ hp) => //. exact: calcDiff_kept.
    - rewrite /flin. cbn [f_d upd d_cost set_d_cost d_feas d_tr set_d_tr]. rewrite /ddp_calcDiff. cbn [fst snd].
      apply: calcDiff_lin. case: hr => [[e _]|[e [hc _]]]; [rewrite e; exact: cur_calc|].
      by move/Nat.eqb_neq: e => ->.
    - move=> v. cbn [f_d upd d_cost set_d_cost]. case: hr => [[_ ->]|[e [_ hs]]]; first by rewrite /= z0cost.
      move=> hv. rewrite /ddp_calcDiff. move/Nat.eqb_neq: e => ->. cbn [snd problem_calcDiff]. exact: hs.
    - subst m. exact: hb. }
  move: s1 h1 => s1 [h1 [h2 [h3 [h4 [h5 h6]]]]].
  have ha := bwd_agree (d_preg (f_d s1)) (d_dreg (f_d s1)) (d_feas (f_d s1)) (d_tr (f_d s1)).
  cbn [fst snd f_d upd set_f_gap f_gap d_preg d_dreg d_feas d_tr set_d_tr d_iter d_log].
  split; [|split; [|split; [|split; [|split; [|split; [|split]]]]]] => //.
  - apply: (fpath_tr _ _ h1) => //. exact: jagree_kept ha.
  - rewrite /flin. cbn [d_feas set_d_tr d_tr d_cost]. case: ha => k1 k2. exact: lin_agree k1 k2 _ _ _ h2.
  - move: h6. rewrite /fbufs /recorded. cbn [f_d f_costl f_gapl upd set_f_gap d_tr set_d_tr d_cost].
    by rewrite (agree_gap ha).
  - by rewrite (agree_gap ha).
  - move=> e. exists (d_tr (f_d s1)). by case: (backwardPass _ _ _ _) e => b t /= ->.
Qed.
(** only regularisation, iteration counter or log change *)
Definition fquiet (s s' : fddp M) : Prop :=
  d_tr (f_d s') = d_tr (f_d s) /\ d_feas (f_d s') = d_feas (f_d s) /\ d_cost (f_d s') = d_cost (f_d s) /\
  f_costl s' = f_costl s /\ f_gapl s' = f_gapl s.
Lemma quiet_path rs s s' : fquiet s s' -> fpath rs s -> fpath rs s'.
Proof. move=> [e1 [e2 _]] h. apply: (fpath_tr _ e2 h). rewrite e1. exact: jkept_refl. Qed.
Lemma quiet_lin s s' : fquiet s s' -> flin (f_d s) -> flin (f_d s').
Proof. move=> [e1 [e2 [e3 _]]]. by rewrite /flin e1 e2 e3. Qed.
Lemma quiet_cost rs s s' : fquiet s s' -> costok rs (f_d s) -> costok rs (f_d s').
Proof. move=> [e1 [e2 [e3 _]]]. by rewrite /costok e3. Qed.
Lemma quiet_bufs rs m s s' : fquiet s s' -> fbufs (recorded rs m s) s -> fbufs (recorded rs m s') s'.
Proof. move=> [e1 [e2 [e3 [e4 e5]]]]. by rewrite /fbufs /recorded e1 e3 e4 e5. Qed.

Lemma fretry_path fuel : forall recalc rs m s, fpath rs s -> fready recalc rs m s ->
  match fddp_retry x0 c fuel recalc s with
  | DirOk r => let d := f_d r in
      fpath rs r /\ flin d /\ costok rs d /\ d_iter d = d_iter (f_d s) /\ fbufs (recorded rs m r) r /\
      f_gap r = gap_l1 (d_tr d) /\
      exists t, backwardPass (d_preg d) (d_dreg d) (d_feas d) t = (true, d_tr d)
  | DirFail r => fpath rs r /\ costok rs (f_d r) /\ fbufs (recorded rs m r) r
  | DirExc _ | DirUB => False
  | DirNoFuel => True
  end.
Proof.
  elim: fuel => [|fuel ih] recalc rs m s hp hr //. cbn [fddp_retry].
  case: (fdirection_path hp hr) => h1 [h2 [h3 [h4 [_ [h5 [h6 h7]]]]]].
  case e: (fst _); first by do 6 (split => //); exact: h7.
  move: (snd (fddp_computeDirection x0 recalc s)) h1 h2 h3 h4 h5 {h6 h7} => s' h1 h2 h3 h4 h5.
  have q : fquiet s' (upd (ddp_inc dc) s') by [].
  have h1' := quiet_path q h1. have h3' := quiet_cost q h3. have h5' := quiet_bufs q h5.
  case: (req E _ _) => //. have := ih false rs m (upd (ddp_inc dc) s') h1' (conj h5' (conj h2 h3')).
  case: (fddp_retry x0 c fuel false _) => // r [k1 [k2 [k3 [k4 k5]]]]. do 3 (split => //). split => //.
  by rewrite k4 -h4.
Qed.

(** the line search from the state [b] after the direction was computed and recorded *)
Record fbase (rs : list faccepted) (m : nat) (b : fddp M) : Prop := mkFbase {
  fb_path : fpath rs b; fb_lin : flin (f_d b); fb_cost : costok rs (f_d b);
  fb_bufs : fbufs (recorded rs (S m) b) b;
  fb_len : length (recorded rs (S m) b) = S (d_iter (f_d b));
  fb_bwd : exists t, backwardPass (d_preg (f_d b)) (d_dreg (f_d b)) (d_feas (f_d b)) t = (true, d_tr (f_d b));
  fb_d : f_dg b = coef_dg (d_feas (f_d b)) (d_tr (f_d b)) /\ f_dq b = coef_dq (d_feas (f_d b)) (d_tr (f_d b))
}.
Definition falong (b s : fddp M) : Prop :=
  jtried (d_tr (f_d b)) (d_tr (f_d s)) /\ d_feas (f_d s) = d_feas (f_d b) /\ d_cost (f_d s) = d_cost (f_d b) /\
  d_preg (f_d s) = d_preg (f_d b) /\ d_dreg (f_d s) = d_dreg (f_d b) /\ d_iter (f_d s) = d_iter (f_d b) /\
  d_kkt (f_d s) = d_kkt (f_d b) /\ f_dg s = f_dg b /\ f_dq s = f_dq b /\ f_costl s = f_costl b /\ f_gapl s = f_gapl b.
Lemma falong_path rs m b s : fbase rs m b -> falong b s ->
  fpath rs s /\ flin (f_d s) /\ costok rs (f_d s) /\ fbufs (recorded rs (S m) s) s.
Proof.
  move=> hb [h1 [h2 [h3 [_ [_ [_ [_ [_ [_ [h4 h5]]]]]]]]]]. have hx := jtried_agree h1.
  split; [|split; [|split]].
  - exact: (fpath_tr (jagree_kept hx) h2 (fb_path hb)).
  - rewrite /flin h2 h3. case: hx => k1 k2. exact: lin_agree k1 k2 _ _ _ (fb_lin hb).
  - rewrite /costok h3. exact: fb_cost hb.
  - move: (fb_bufs hb). by rewrite /fbufs /recorded h3 h4 h5 (agree_gap hx).
Qed.
Lemma ftried_nm l1 l2 : Forall2 (@tried E M) l1 l2 -> nms l2 = nms l1.
Proof. elim=> [|n1 n2 q1 q2 h _ ih] //=. rewrite ih. by move: h => [p [me [e [h1 [h2 ->]]]]]. Qed.

(** nodes related by [tried] have the same coefficients of the expected improvement *)
Lemma tried_shoot full a l1 l2 : Forall2 (@tried E M) l1 l2 -> forall f x acc g us xs cr d,
  shoot full a l2 f x acc g us xs cr d -> shoot full a l1 f x acc g us xs cr d.
Proof.
  elim=> [|n1 n2 q1 q2 h _ ih] f x acc g us xs cr d hs; inversion hs; subst; first exact: shoot_end.
  move: h => [p [me [e [k1 [k2 e2]]]]]. subst n2. cbn [nm fs] in *.
  apply: shoot_step. exact: ih.
Qed.
Lemma tried_dv l1 l2 : Forall2 (@tried E M) l1 l2 -> forall acc xs,
  sum_dv acc l1 xs = sum_dv acc l2 xs.
Proof.
  elim=> [|n1 n2 q1 q2 h _ ih] acc xs //=. case: xs => [|x xs] //. rewrite ih.
  move: h => [p [me [e [k1 [k2 ->]]]]]. cbn. by rewrite k1.
Qed.
Lemma sum_dvE (l : list node) : forall acc, sum_dv acc l (map (fun n => pxt (pt n)) l) =
  fold_left (fun dv n => rsub E dv (vdot E (fs n) (mmulv E (Vxx (val n)) (diff M (pxt (pt n)) (px (pt n)))))) l acc.
Proof. elim: l => [|n l ih] acc //=. Qed.
Lemma sum_dv_app (l : list node) x : forall acc xs, length xs = length l -> sum_dv acc l (xs ++ [x]) = sum_dv acc l xs.
Proof. elim: l => [|n l ih] acc [|y xs] //= [h]. exact: ih. Qed.
Lemma updexpE feas (l : list node) : forall d : R * R,
  fold_left (fun (d : R * R) n =>
      let d1 := if negb (nu (nm n) =? 0)
                then (radd E (fst d) (vdot E (Qu (val n)) (gk (val n))),
                      rsub E (snd d) (vdot E (gk (val n)) (Quuk (val n))))
                else d in
      if feas then d1
      else (rsub E (fst d1) (vdot E (Vx (val n)) (fs n)),
            radd E (snd d1) (vdot E (fs n) (mmulv E (Vxx (val n)) (fs n))))) l d
  = (sum_dg feas (fst d) l, sum_dq feas (snd d) l).
Proof.
  elim: l => [|n l ih] [d1 d2]; first by [].
  cbn [fold_left sum_dg sum_dq]. rewrite ih. by case: (nu (nm n) =? 0); case: feas {ih}.
Qed.
Lemma update_expectedE feas (t : traj M) : fddp_update_expected feas t = (coef_dg feas t, coef_dq feas t).
Proof. rewrite /fddp_update_expected updexpE /coef_dg /coef_dq. by case: feas. Qed.
Lemma set_back_tried (l : list node) : Forall2 (@tried E M) l (map (@set_back_dx E M) l).
Proof.
  apply: (@Forall2_map). move=> n. eexists (pt n), _, _. by repeat split.
Qed.

Lemma fls_path rs m b als : fbase rs m b -> incl als (c_alphas dc) -> forall s, falong b s ->
  match fddp_line_search x0 c als s with
  | FLSUB => False
  | FLSDone true r => exists a, fpath (rs ++ [a]) r /\ cur (d_tr (f_d r)) /\ stored_cost (d_tr (f_d r)) = fa_cost' a /\
                        fbufs (fa_hist a) r /\ d_iter (f_d r) = d_iter (f_d b) /\ length (fa_hist a) = S (d_iter (f_d b)) /\
                        (fc_filter c = false -> d_cost (f_d r) = fa_cost' a)
  | FLSDone false r => falong b r
  end.
Proof.
  move=> hb. elim: als => [|a als ih] hin s hs //. cbn [fddp_line_search].
  have hin' : incl als (c_alphas dc) by move=> z hz; apply: hin; right.
  set t := fddp_tryStep x0 a (upd (set_d_step a) s).
  case et: t => [ok s1]. cbn [fst snd].
  have [hs1 hok] : falong b s1 /\ (ok = true -> rgt a (r1 E) || rlt E a (r0 E) = false /\
     exists l' tn', d_tr (f_d s1) = mkTraj l' tn' /\
      Forall2 (@tried E M) (run (d_tr (f_d s))) l' /\ ttried (trm (d_tr (f_d s))) tn' /\
      froll_nodes (d_feas (f_d s) || req E a (r1 E)) a x0 (vzero E) (run (d_tr (f_d s))) (trm (d_tr (f_d s))) (r0 E) (r0 E)
        = (true, l', tn', (d_costt (f_d s1), f_gapt s1))).
  { move: et. rewrite /t /fddp_tryStep. case er: (rgt a (r1 E) || rlt E a (r0 E)); first by move=> [<- <-].
    cbn [f_d upd d_tr d_feas set_d_step].
    have hr := froll_tried (d_feas (f_d s) || req E a (r1 E)) a (run (d_tr (f_d s))) x0 (vzero E) (trm (d_tr (f_d s))) (r0 E) (r0 E).
    move: hr. cbv zeta. move: (froll_nodes _ _ _ _ _ _ _ _) => r. move: r => [[[ok' l'] tn'] [c' g']].
    cbn [fst snd]. move=> hr [<- <-].
    case: hs => h1 h3.
    split.
    - split; [apply: (jtried_trans h1); exact: hr|]. exact: h3.
    - move=> ->. split => //. exists l', tn'. case: hr => hr1 hr2. by do 2 (split => //). }
  case: ok hok {et t} => hok; last exact: ih hin' _ hs1.
  case: (hok Logic.eq_refl) => er [l' [tn' [htr [hr1 [hr2 e]]]]]. clear hok.
  case: (froll_ok e) => k1 [k2 [[cr [k3 k4]] k5]].
  case: (hs) => h1 [h2 [h3 [h4 [h5 [h6 [h7 [h8 [h9 [h10 h11]]]]]]]]].
  set s2 := upd (fun d => set_d_dV _ d) s1.
  have hs2 : falong b s2 by exact: hs1.
  case: (fb_path hb) => [[p1 p2] [p4 p5] p6].
  have nml : nms (run (d_tr (f_d s))) = ms by rewrite (ftried_nm (proj1 h1)).
  have tml : tm (trm (d_tr (f_d s))) = tmod by rewrite -p2; case: h1 => _ [? [? [? [? ->]]]].
  have tml' : tm tn' = tmod by rewrite -tml; case: hr2 => [? [? [? [? ->]]]].
  have tfl : tfs (trm (d_tr (f_d s))) = tfs (trm (d_tr (f_d b))) by case: h1 => _ [? [? [? [? ->]]]].
  (* the accepted step, if any; the expectation model overwrites dx_ *)
  set to := fun sb : bool => accept_try (mkTraj (if sb then map (@set_back_dx E M) l' else l') tn').
  set r := fun sb => mkFaccepted (d_tr (f_d b)) (d_cost (f_d b)) (d_feas (f_d b)) (d_preg (f_d b), d_dreg (f_d b))
             (recorded rs (S m) b) a (to sb) (d_costt (f_d s1)) (f_gapt s1).
  have x12 sb : get_xs (to sb) = map (fun n => pxt (pt n)) l' ++ [txt tn'] /\
                get_us (to sb) = map (fun n => existT vec (nu (nm n)) (put (pt n))) l'.
  { case: (accept_xs (mkTraj (if sb then map (@set_back_dx E M) l' else l') tn')) => -> ->. case: sb => //=.
    by rewrite !map_map. }
  have hr_ok sb : (if fc_filter c then filter_rule (fc_fsize c) (r sb) else expect_rule dc (fc_neg c) (r sb)) -> faccepted_ok (r sb).
  { move=> hrule. case: (x12 sb) => x1 x2. split => //.
    - by apply: hin; left.
    - exact: fb_lin hb.
    - exact: fb_bwd hb.
    - rewrite /= /to /=. apply: accept_follows.
      have k1' : Forall2 (tfollows a) (run (d_tr (f_d s))) (if sb then map (@set_back_dx E M) l' else l').
      { case: sb {hrule x1 x2} => //. move: k1. clear. elim=> *; constructor => //. }
      move: (proj1 h1) k1'. clear. move: (if sb then _ else _) => l2. move: (run (d_tr (f_d b))) (run (d_tr (f_d s))) => lb ls h. elim: h l2 => [|n1 n2 q1 q2 h _ ih] l2 hl; inversion hl; subst; constructor.
      + move: h H1 => [p [me [e [e1 [e2 ->]]]]]. rewrite /tfollows /policy; cbn. by rewrite e1 e2.
      + exact: ih.
    - split; [exact: p1|]. exists cr. rewrite /r /fa_full. cbn [fa_to fa_dist fa_from fa_step fa_feas].
      rewrite x1 x2. split.
      + rewrite -h2 -tfl. exact: tried_shoot (proj1 h1) _ _ _ _ _ _ _ _ k3.
      + exists (txt tn'). rewrite last_last. split => //. by rewrite k4 tml.
    - rewrite /r. cbn [fa_to]. rewrite x1 x2 -nml -tml. exact: froll_finite e. }
  have hstart sb : starts_at (fsteps rs) (r sb).
  { case: p6 => q1 [q2 q3]. do 3 (split => //). split; [exact: fb_cost hb|]. by exists m. }
  have hpath sb : forall d, d_tr d = to sb -> d_feas d = fa_feas' (fc_filter c) (r sb) -> faccepted_ok (r sb) ->
    forall g1 g2 g3 g4 g5 g6, fpath (rs ++ [r sb]) (mkFddp d g1 g2 g3 g4 g5 g6).
  { move=> d e1 e2 hro g1 g2 g3 g4 g5 g6. split.
    - cbn [f_d]. rewrite e1 /to. split; [|exact: tml']. rewrite accept_nm /=. rewrite -nml -(ftried_nm hr1).
      case: (sb) => //. by rewrite map_map.
    - split; [exact: fchained_app|]. apply/Forall_app. split => //. by constructor.
    - cbn [f_d]. by rewrite /fat_steps fsteps_app e1 e2. }
  have hcur sb : cur (to sb).
  { apply: accept_cur. case: sb => //. case: k2 => k21 k22. split => //. move: k21. cbn [run]. clear. elim=> *; constructor => //. }
  have hcost sb : stored_cost (to sb) = d_costt (f_d s1).
  { rewrite /to accept_cost k5 /stored_cost /=. f_equal. case: sb => //. move: (r0 E) => acc. clear.
    elim: l' acc => [|n l ih] acc //=. }
  case ef: (fc_filter c).
  - have fr := @filter_recent (R * R) (recorded rs (S m) b) (fun p => rle E (fst p) (d_costt (f_d s1)) && rle E (snd p) (f_gapt s1))
       (fddp_dominated s2) (fc_fsize c) (d_iter (f_d s2)).
    have hl : length (recorded rs (S m) b) = S (d_iter (f_d s2)).
    { rewrite (fb_len hb). by case: hs2 => _ [_ [_ [_ [_ [-> _]]]]]. }
    have ht : forall k x, k < fc_fsize c -> nth_error (recorded rs (S m) b) k = Some x ->
       fddp_dominated s2 (fc_fsize c - 1 - k) = Some (rle E (fst x) (d_costt (f_d s1)) && rle E (snd x) (f_gapt s1)).
    { move=> k x hk hx. rewrite /fddp_dominated /cb_get.
      case: hs2 => _ [_ [_ [_ [_ [_ [_ [_ [_ [-> ->]]]]]]]]].
      case: (fb_bufs hb) => [[_ [_ b1]] [_ [_ b2]]].
      by rewrite (b1 k (fst x) hk (map_nth_error fst _ _ hx)) (b2 k (snd x) hk (map_nth_error snd _ _ hx)). }
    rewrite (fr hl ht). case ex: (existsb _ _); first by have := ih hin' _ hs2; rewrite ef.
    exists (r false).
    have hrule : filter_rule (fc_fsize c) (r false).
    { move=> p hp. case ed: (_ && _) => //. have : existsb (fun p => rle E (fst p) (d_costt (f_d s1)) && rle E (snd p) (f_gapt s1)) (firstn (fc_fsize c) (recorded rs (S m) b)) = true.
      { apply/existsb_exists. by exists p. }
      by rewrite ex. }
    have := hr_ok false. rewrite {1}ef => hro'. have hro := hro' hrule.
    split; [|split; [|split; [|split; [|split; [|split]]]]] => //.
    + apply: hpath => //; [by rewrite /= htr|by rewrite /fa_feas' ef].
    + cbn. rewrite htr. exact: (hcur false).
    + cbn [f_d upd d_tr set_d_feas set_d_tr set_d_dV s2]. rewrite htr. exact: (hcost false).
    + case: (hs2) => _ [_ [_ [_ [_ [_ [_ [_ [_ [e1 e2]]]]]]]]]. rewrite /fbufs.
      case: (fb_bufs hb) => b1 b2. split.
      * rewrite -[f_costl _]/(f_costl s2) e1. exact: b1.
      * rewrite -[f_gapl _]/(f_gapl s2) e2. exact: b2.
    + by case: (hs2) => _ [_ [_ [_ [_ [hi _]]]]].
    + exact: fb_len hb.
  - set s3 := upd (fddp_set_dVexp a) (fddp_expected s2).
    have hs3 : falong b s3.
    { case: hs2 => g1 g2. split; last by exact: g2.
      apply: (jtried_trans g1). rewrite /s3 /fddp_expected /fddp_set_dVexp. cbn [f_d upd d_tr set_d_dVexp set_d_d1 set_d_d0 set_d_tr].
      case: (d_feas (f_d s2)); first exact: jtried_refl. split; [exact: set_back_tried|exact: ttried_refl]. }
    case ea: (fddp_expect_ok c (f_d s3)); last by have := ih hin' _ hs3; rewrite ef.
    set sb := negb (d_feas (f_d s1)). exists (r sb).
    have hto : accept_try (d_tr (f_d s3)) = to sb.
    { rewrite /s3 /fddp_expected /fddp_set_dVexp /sb /to. cbn [f_d upd d_tr set_d_dVexp set_d_d1 set_d_d0 set_d_tr d_feas set_d_dV s2].
      rewrite htr. by case: (d_feas (f_d s1)). }
    case: (hs1) => g1 [g2 [g3 [g4 [g5 [g6 [g7 [g8 [g9 _]]]]]]]].
    have hdv : (if d_feas (f_d s1) then r0 E else fddp_dv (d_tr (f_d s1))) = coef_dv (d_feas (f_d b)) (d_tr (f_d b)) (get_xs (to sb)).
    { rewrite /coef_dv -g2. case: (d_feas (f_d s1)) => //. case: (x12 sb) => -> _. rewrite last_last.
      rewrite sum_dv_app; first by move: (proj1 g1); rewrite htr map_length; cbn [run]; clear; elim=> [|y1 y2 q1 q2 _ _ ih'] //=; rewrite ih'.
      rewrite (tried_dv (proj1 g1)) htr [run _]/= sum_dvE /fddp_dv [run _]/=. congr (fold_left _ _ _).
      move: (proj2 g1) => [xt [me [dx [l hx]]]]. rewrite htr /= in hx. by rewrite hx. }
    case: (fb_d hb) => bd0 bd1.
    have hd0 : d_d0 (f_d s3) = coef_d0 (r sb).
    { rewrite /coef_d0 /r; cbn [fa_feas fa_from fa_to]. rewrite -hdv -bd0 -g8. by []. }
    have hd1 : d_d1 (f_d s3) = coef_d1 (r sb).
    { rewrite /coef_d1 /r; cbn [fa_feas fa_from fa_to]. rewrite -hdv -bd1 -g9. by []. }
    have hde : d_dVexp (f_d s3) = fexpected (r sb).
    { rewrite /fexpected -hd0 -hd1. by []. }
    have hdd : d_dV (f_d s3) = rsub E (fa_cost (r sb)) (fa_cost' (r sb)).
    { rewrite /r; cbn [fa_cost fa_cost']. rewrite -g3. by []. }
    have hrule : expect_rule dc (fc_neg c) (r sb).
    { move: ea. rewrite /fddp_expect_ok /expect_rule hde hd0 hdd. case: (rge _ _) => //. by move/orb_true_iff. }
    have := hr_ok sb. rewrite {1}ef => hro'. have hro := hro' hrule.
    split; [|split; [|split; [|split; [|split; [|split]]]]] => //.
    + apply: hpath => //. rewrite /fa_feas' ef /fa_full. rewrite /r. cbn [fa_feas fa_step]. by rewrite -g2.
    + cbn [f_d upd d_tr set_d_feas set_d_tr set_d_cost set_d_wasfeas]. rewrite hto. exact: hcur.
    + cbn [f_d upd d_tr set_d_feas set_d_tr set_d_cost set_d_wasfeas]. rewrite hto. exact: hcost.
    + case: (hs3) => _ [_ [_ [_ [_ [_ [_ [_ [_ [e1 e2]]]]]]]]]. rewrite /fbufs.
      case: (fb_bufs hb) => b1 b2. split.
      * rewrite -[f_costl _]/(f_costl s3) e1. exact: b1.
      * rewrite -[f_gapl _]/(f_gapl s3) e2. exact: b2.
    + exact: fb_len hb.
Qed.

(** what a finished call guarantees *)
Definition fcert (d : ddp M) : Prop :=
  flin d /\ d_kkt d = kkt_residual (d_tr d) /\ rle E (d_kkt d) (c_tol dc) = true.
Lemma after_quiet (d : ddp M) : match fddp_after c d with
  | BRet b d' => b = false /\ d_tr d' = d_tr d /\ d_feas d' = d_feas d /\ d_cost d' = d_cost d
  | BNext d' => d_iter d' = d_iter d /\ d_tr d' = d_tr d /\ d_feas d' = d_feas d /\ d_cost d' = d_cost d
  | _ => False end.
Proof.
  rewrite /fddp_after. set d5 := if rgt (d_step d) (c_stepdec dc) then _ else d.
  have e5 : d_tr d5 = d_tr d /\ d_feas d5 = d_feas d /\ d_cost d5 = d_cost d /\ d_iter d5 = d_iter d
    by rewrite /d5; case: (rgt _ _).
  set d6 := if rle E (d_step d5) (c_stepinc dc) then _ else d5.
  have e6 : d_tr d6 = d_tr d /\ d_feas d6 = d_feas d /\ d_cost d6 = d_cost d /\ d_iter d6 = d_iter d
    by rewrite /d6; case: (rle _ _ _).
  move: d6 e6 => d6 [e1 [e2 [e3 e4]]]. by case: (_ && _).
Qed.
Lemma fbody_path fuel recalc rs m s : fpath rs s -> fready recalc rs m s -> length (recorded rs m s) = d_iter (f_d s) ->
  match fddp_body x0 c fuel recalc s with
  | BRet b r =>
      exists rs' h, fpath rs' (snd r) /\ fbufs h (snd r) /\ length rs' <= S (length rs) /\ (b = true -> rs' = rs) /\
        (b = true \/ fc_filter c = false -> costok rs' (f_d (snd r))) /\ (b = true -> fcert (f_d (snd r)))
  | BNext r => d_iter (f_d (snd r)) = d_iter (f_d s) /\
      exists rs' m', fpath rs' (snd r) /\ length rs' <= S (length rs) /\
        length (recorded rs' m' (snd r)) = S (d_iter (f_d s)) /\
        (fc_filter c = false -> costok rs' (f_d (snd r))) /\
        fready (fst r) rs' m' (upd (fun d => set_d_iter (S (d_iter d)) d) (snd r))
  | BBreak _ | BUB => False
  | BNoFuel => True
  end.
Proof.
  move=> hp hr hlen. rewrite /fddp_body. have := fretry_path fuel hp hr.
  case: (fddp_retry x0 c fuel recalc s) => // s1; last first.
  { move=> [h1 [h2 h3]]. exists rs, (recorded rs m s1). do 2 (split => //). split; [lia|]. by split; [|split]. }
  cbv zeta. move=> [h1 [h2 [h3 [h4 [h5 [h6 h7]]]]]].
  rewrite update_expectedE. cbn [fst snd]. set s3 := upd _ (set_f_exp _ _ s1).
  have q3 : fquiet s1 s3 by [].
  case ek: (rle E (d_kkt (f_d s3)) (c_tol dc)).
  { exists rs, (recorded rs m s3). split; [exact: quiet_path q3 h1|]. split; [exact: quiet_bufs q3 h5|].
    split; [lia|]. split; [by []|]. split; [by move=> _; exact: quiet_cost q3 h3|]. move=> _. split; [exact: quiet_lin q3 h2|]. by split. }
  set s4 := set_f_lists _ _ s3.
  have hb : fbase rs m s4.
  { split.
    - apply: (fpath_tr _ _ h1) => //. exact: jkept_refl.
    - exact: h2.
    - exact: h3.
    - case: h5 => b1 b2. split; cbn [recorded repeat app map f_costl f_gapl s4 set_f_lists].
      + apply: holds_push. exact: b1.
      + change (f_gap s3) with (f_gap s1). rewrite h6. apply: holds_push. exact: b2.
    - move: hlen. rewrite /recorded !app_length !repeat_length. change (d_iter (f_d s4)) with (d_iter (f_d s1)). rewrite h4. lia.
    - exact: h7.
    - by split. }
  have ha : falong s4 s4 by split; [exact: jtried_refl|].
  have := fls_path hb (fun z hz => hz) ha.
  have i4 : d_iter (f_d s4) = d_iter (f_d s) by exact: h4.
  case: (fddp_line_search x0 c (c_alphas dc) s4) => // rc s5 hls.
  have := after_quiet (f_d s5). case: (fddp_after c (f_d s5)) => [b d|d|d||] // [e0 [e1 [e2 e3]]]; cbn [fst snd].
  - subst b. have q : fquiet s5 (upd (fun _ => d) s5) by [].
    case: rc hls => hls.
    + case: hls => r [k1 [k2 [k3 [k4 [k5 [k6 k7]]]]]]. exists (rs ++ [r]), (fa_hist r).
      split; [exact: quiet_path q k1|]. split; [exact: k4|]. split; [rewrite app_length /=; lia|].
      split => //. split => // -[//|hf] v. rewrite fsteps_app; cbn [cd_cost fcand_after]. move=> [<-]. 
      change (d_cost (f_d (upd (fun _ => d) s5))) with (d_cost d). rewrite e3. exact: k7.
    + case: (falong_path hb hls) => k1 [k2 [k3 k4]]. exists rs, (recorded rs (S m) s5).
      split; [exact: quiet_path q k1|]. split; [exact: k4|]. split; [lia|]. split => //. split => // _.
      exact: quiet_cost q k3.
  - have q : fquiet s5 (upd (fun _ => d) s5) by [].
    have q' : fquiet s5 (upd (fun d => set_d_iter (S (d_iter d)) d) (upd (fun _ => d) s5)) by [].
    case: rc hls => hls.
    + case: hls => r [k1 [k2 [k3 [k4 [k5 [k6 k7]]]]]].
      split; [by change (d_iter d = d_iter (f_d s)); rewrite e0 k5|].
      exists (rs ++ [r]), 0.
      split; [exact: quiet_path q k1|]. split; [rewrite app_length /=; lia|].
      split; [rewrite /recorded fsteps_app /=; by rewrite k6 i4|].
      split; [move=> hf v; rewrite fsteps_app; cbn [cd_cost fcand_after] => -[<-];
              change (d_cost (f_d (upd (fun _ => d) s5))) with (d_cost d); rewrite e3; exact: k7|].
      split; [rewrite /recorded fsteps_app /=; exact: k4|].
      split => //. right. split => //. cbn [f_d upd d_tr set_d_iter]. rewrite e1. split => //.
      move=> v; rewrite fsteps_app; cbn [cd_cost fcand_after] => -[<-]. exact: k3.
    + case: (falong_path hb hls) => k1 [k2 [k3 k4]].
      split; [change (d_iter d = d_iter (f_d s)); rewrite e0 -i4; by case: hls => _ [_ [_ [_ [_ [-> _]]]]]|].
      exists rs, (S m). split; [exact: quiet_path q k1|]. split; [lia|].
      split; [move: hlen; rewrite /recorded !app_length !repeat_length; lia|].
      split; [move=> _; exact: quiet_cost q k3|].
      split; [exact: quiet_bufs q' k4|]. split; [exact: quiet_lin q' k2|exact: quiet_cost q' k3].
Qed.
Lemma floop_path fuel k : forall recalc rs m s, fpath rs s -> fready recalc rs m s ->
  length (recorded rs m s) = d_iter (f_d s) -> (fc_filter c = false -> costok rs (f_d s)) ->
  match fddp_loop x0 c fuel k recalc s with
  | Ret b r => exists rs' h, fpath rs' r /\ fbufs h r /\ length rs' <= length rs + k /\
      (b = true \/ fc_filter c = false -> costok rs' (f_d r)) /\ (b = true -> fcert (f_d r))
  | Exc _ | UB => False
  | NoFuel => True
  end.
Proof.
  elim: k => [|k ih] recalc rs m s hp hr hl hc; cbn [fddp_loop].
  - exists rs, (recorded rs m s). split => //. split; [by case: hr|]. split; [lia|]. by split => // -[//|hf]; exact: hc.
  - have := fbody_path fuel hp hr hl. case: (fddp_body x0 c fuel recalc s) => [b r|r|r||] //.
    + move=> [rs' [h [k1 [k2 [k3 [k4 [k5 k6]]]]]]]. exists rs', h. do 2 (split => //). split; [lia|]. by split.
    + move=> [hi [rs' [m' [k1 [k2 [k3 [k4 k5]]]]]]].
      set s2 := upd _ _ in k5. have q : fquiet (snd r) s2 by [].
      have := ih (fst r) rs' m' s2 (quiet_path q k1) k5.
      have hl2 : length (recorded rs' m' s2) = d_iter (f_d s2).
      { cbn [f_d s2 upd d_iter set_d_iter]. rewrite hi -k3. by []. }
      move=> /(_ hl2 k4). case: (fddp_loop _ _ _ _ _ _) => // b s' [rs'' [h [q1 [q2 [q3 q4]]]]].
      exists rs'', h. do 2 (split => //). split => //. lia.
Qed.
End Run.
