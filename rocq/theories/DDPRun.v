(** * SolverDDP::solve runs are sequences of accepted steps (any arithmetic). *)
From Coq Require Import ZArith List Bool Arith Lia ssreflect ssrbool.
From Verif Require Import Eigen Problem DDP RollSpec DDPLoop DDPSpec.
Import ListNotations.
Set Implicit Arguments.
Unset Strict Implicit.
Set Asymmetric Patterns.

Section Run.
Variable E : Eig.
Variable M : manifold E.
Notation R := (R E).
Notation vec := (vec E).
Notation X := (mX M).
Notation node := (node M).
Notation tnode := (tnode M).
Notation nms := (map (@nm E M)).
Variables (ms : list (amodel M)) (tmod : tmodel M) (x0 : X) (c : cfg E).
Hypothesis Tpos : ms <> [].
Variables (gxs : list X) (gus : list {k : nat & vec k}) (gfeas : bool).
Notation accepted := (accepted M).
Notation accepted_ok := (accepted_ok ms tmod x0 c).

Definition shape (t : traj M) : Prop := nms (run t) = ms /\ tm (trm t) = tmod /\ hd_xt (run t) (trm t) = x0.
(** the candidate and cost of [s] are those after the steps [rs] *)
Definition at_steps (rs : list accepted) (s : ddp M) : Prop :=
  let z := steps_from gxs gus gfeas None rs in
  get_xs (d_tr s) = fst (fst (fst z)) /\ get_us (d_tr s) = snd (fst (fst z)) /\ d_feas s = snd (fst z) /\
  (forall v, snd z = Some v -> d_cost s = v).
Record path (rs : list accepted) (s : ddp M) : Prop := mkPath {
  p_shape : shape (d_tr s);
  p_steps : chained gxs gus gfeas None rs /\ Forall accepted_ok rs;
  p_at : at_steps rs s
}.
Definition lin (s : ddp M) : Prop := linearised (d_feas s) x0 (r0 E) (run (d_tr s)) (trm (d_tr s)) (d_cost s).
(** at the start of an iteration *)
Definition ready (recalc : bool) (rs : list accepted) (s : ddp M) : Prop :=
  if recalc then (d_iter s = 0 /\ rs = []) \/ (d_iter s <> 0 /\ cur (d_tr s) /\ stored_cost (d_tr s) = d_cost s)
  else lin s.

Lemma steps_app (xs : list X) us feas cost (rs : list accepted) r :
  steps_from xs us feas cost (rs ++ [r]) = (get_xs (a_to r), get_us (a_to r), true, Some (a_cost' r)).
Proof. elim: rs xs us feas cost => [|q rs ih] xs us feas cost //=. Qed.
Lemma chained_app (xs : list X) us feas cost (rs : list accepted) r :
  chained xs us feas cost rs ->
  (let z := steps_from xs us feas cost rs in
   get_xs (a_from r) = fst (fst (fst z)) /\ get_us (a_from r) = snd (fst (fst z)) /\ a_feas r = snd (fst z) /\
   (forall v, snd z = Some v -> a_cost r = v)) ->
  chained xs us feas cost (rs ++ [r]).
Proof.
  elim: rs xs us feas cost => [|q rs ih] xs us feas cost /=; first by move=> _ [h1 [h2 [h3 h4]]].
  move=> [h1 [h2 [h3 [h4 h5]]]] hz. do 4 (split => //). exact: ih.
Qed.

Lemma kept_shape t t' : jkept t t' -> hd_xt (run t') (trm t') = hd_xt (run t) (trm t) -> shape t -> shape t'.
Proof.
  move=> [h1 [h2 h3]] h4 [k1 [k2 k3]]. split; [by rewrite (kept_nm h1)|]. split; congruence.
Qed.
(** calcDiff and the backward pass leave xs_try_ alone *)
Lemma calcDiff_hdxt feas iter t : hd_xt (run (fst (ddp_calcDiff x0 feas iter t))) (trm (fst (ddp_calcDiff x0 feas iter t))) = hd_xt (run t) (trm t).
Proof.
  rewrite /ddp_calcDiff. case: feas; case: (iter =? 0); cbn; by case: (run t).
Qed.
Lemma bwd_hdxt preg dreg feas (t : traj M) :
  hd_xt (run (snd (backwardPass preg dreg feas t))) (trm (snd (backwardPass preg dreg feas t))) = hd_xt (run t) (trm t).
Proof.
  rewrite /backwardPass /=. case: (run t) => [|n l] //=. case: (fst (bwd_nodes _ _ _ _ _)) => //=.
  rewrite /bwd_node. by case: (_ && _).
Qed.
Lemma path_tr rs s t : jkept (d_tr s) t -> hd_xt (run t) (trm t) = hd_xt (run (d_tr s)) (trm (d_tr s)) ->
  path rs s -> forall s', d_tr s' = t -> d_feas s' = d_feas s ->
  (forall v, snd (steps_from gxs gus gfeas None rs) = Some v -> d_cost s = v -> d_cost s' = v) -> path rs s'.
Proof.
  move=> hk hh [h1 h2 h3] s' e1 e2 e3. subst t. split => //.
  - exact: kept_shape hk hh h1.
  - case: h3 => k1 [k2 [k3 k4]]. case: (kept_xs hk) => q1 q2. rewrite /at_steps e2 q1 q2.
    do 3 (split => //). move=> v hv. exact: e3 hv (k4 _ hv).
Qed.

Lemma direction_path recalc rs s : path rs s -> ready recalc rs s ->
  let r := ddp_computeDirection x0 recalc s in
  path rs (snd r) /\ lin (snd r) /\ d_iter (snd r) = d_iter s /\ d_log (snd r) = d_log s /\
  (fst r = true -> exists t, backwardPass (d_preg (snd r)) (d_dreg (snd r)) (d_feas (snd r)) t = (true, d_tr (snd r))).
Proof.
  move=> hp hr. cbv zeta. rewrite /ddp_computeDirection.
  set s1 := if recalc then _ else s.
  have h1 : path rs s1 /\ lin s1 /\ d_iter s1 = d_iter s /\ d_log s1 = d_log s.
  { rewrite /s1. case: recalc hr {s1} => // hr.
    split; [|split => //].
    - apply: (path_tr (calcDiff_kept x0 (d_feas s) (d_iter s) (d_tr s)) (calcDiff_hdxt _ _ _) hp) => //.
      move=> v hv hc. cbn [d_cost set_d_cost snd]. case: hr => [[_ e]|[e [_ hs]]]; first by rewrite e in hv.
      rewrite /ddp_calcDiff. move/Nat.eqb_neq: e => ->. cbn [snd problem_calcDiff]. by rewrite hs.
    - rewrite /lin. cbn [d_cost set_d_cost d_feas d_tr set_d_tr]. rewrite /ddp_calcDiff. cbn [fst snd].
      apply: calcDiff_lin. case: hr => [[e _]|[e [hc _]]]; [rewrite e; exact: cur_calc|].
      by move/Nat.eqb_neq: e => ->. }
  move: s1 h1 => s1 [h1 [h2 [h3 h4]]].
  have hb := bwd_agree (d_preg s1) (d_dreg s1) (d_feas s1) (d_tr s1).
  split; [|split; [|split; [|split]]] => //.
  - by apply: (path_tr (jagree_kept hb) (bwd_hdxt _ _ _ _) h1).
  - rewrite /lin. cbn [snd d_feas set_d_tr d_tr d_cost]. case: hb => k1 k2. exact: lin_agree k1 k2 _ _ _ h2.
  - cbn [fst snd d_preg d_dreg d_feas d_tr set_d_tr] => e. exists (d_tr s1).
    by case: (backwardPass _ _ _ _) e => b t /= ->.
Qed.
Lemma path_reg rs s p q : path rs s -> path rs (set_d_dreg p (set_d_preg q s)).
Proof. by case. Qed.
Lemma retry_path fuel : forall recalc rs s, path rs s -> ready recalc rs s ->
  match ddp_retry x0 c fuel recalc s with
  | DirOk r => path rs r /\ lin r /\ d_iter r = d_iter s /\
      exists t, backwardPass (d_preg r) (d_dreg r) (d_feas r) t = (true, d_tr r)
  | DirFail r => path rs r
  | DirExc _ | DirUB => False
  | DirNoFuel => True
  end.
Proof.
  elim: fuel => [|fuel ih] recalc rs s hp hr //. cbn [ddp_retry].
  case: (direction_path hp hr) => h1 [h2 [h3 [h4 h5]]].
  case e: (fst _); first by split => //; split => //; split => //; exact: h5.
  move: (snd (ddp_computeDirection x0 recalc s)) h1 h2 h3 {h4 h5} => s' h1 h2 h3.
  have h1' : path rs (ddp_inc c s') by exact: path_reg.
  case: (req E _ _) => //. have := ih false rs (ddp_inc c s') h1' h2.
  case: (ddp_retry x0 c fuel false (ddp_inc c s')) => // r [k1 [k2 [k3 k4]]]. do 2 (split => //). split => //.
  by rewrite k3 -h3.
Qed.

(** the line search from the state [b] after the direction was computed *)
Record base (rs : list accepted) (b : ddp M) : Prop := mkBase {
  b_path : path rs b; b_lin : lin b;
  b_bwd : exists t, backwardPass (d_preg b) (d_dreg b) (d_feas b) t = (true, d_tr b);
  b_d : d_d0 b = sum_quk (r0 E) (run (d_tr b)) /\ d_d1 b = sum_kquuk (r0 E) (run (d_tr b))
}.
Definition along (b s : ddp M) : Prop :=
  jtried (d_tr b) (d_tr s) /\ hd_xt (run (d_tr s)) (trm (d_tr s)) = x0 /\ d_feas s = d_feas b /\ d_cost s = d_cost b /\
  d_preg s = d_preg b /\ d_dreg s = d_dreg b /\ d_d0 s = d_d0 b /\ d_d1 s = d_d1 b /\ d_iter s = d_iter b /\ d_kkt s = d_kkt b.
Lemma along_path rs b s : base rs b -> along b s -> path rs s /\ lin s.
Proof.
  move=> hb [h1 [h2 [h3 [h4 _]]]]. have hx := jtried_agree h1. case: (b_path hb) => [[_ [_ p3]] _ _].
  split.
  - apply: (path_tr (jagree_kept hx) _ (b_path hb)) => //; first by rewrite h2 p3.
    move=> v _ <-. exact: h4.
  - rewrite /lin h3 h4. case: hx => k1 k2. exact: lin_agree k1 k2 _ _ _ (b_lin hb).
Qed.
Lemma tried_nm l1 l2 : Forall2 (@tried E M) l1 l2 -> nms l2 = nms l1.
Proof. elim=> [|n1 n2 q1 q2 h _ ih] //=. rewrite ih. by move: h => [p [me [e [h1 [h2 ->]]]]]. Qed.
Lemma ls_path rs b als : base rs b -> incl als (c_alphas c) -> forall s, along b s ->
  let r := ddp_line_search c als s in
  if fst r then exists a, path (rs ++ [a]) (snd r) /\ cur (d_tr (snd r)) /\ stored_cost (d_tr (snd r)) = d_cost (snd r) /\
                          d_iter (snd r) = d_iter b
  else along b (snd r).
Proof.
  move=> hb. elim: als => [|a als ih] hin s hs //. cbn [ddp_line_search].
  have hin' : incl als (c_alphas c) by move=> z hz; apply: hin; right.
  have hne : run (d_tr s) <> [].
  { case: hs => -[h1 _] _. case: (b_path hb) => [[p1 _] _ _]. rewrite -(tried_nm h1) in p1.
    move=> e. by rewrite e in p1; apply: Tpos. }
  set t := ddp_tryStep a (set_d_step a s).
  case et: t => [ok s1]. cbn [fst snd].
  have [hs1 hok] : along b s1 /\ (ok = true -> rgt a (r1 E) || rlt E a (r0 E) = false /\
     exists l' tn', d_tr s1 = mkTraj l' tn' /\
      Forall2 (@tried E M) (run (d_tr s)) l' /\ ttried (trm (d_tr s)) tn' /\ hd_xt l' tn' = x0 /\
      roll_nodes a (hd_xt (run (d_tr s)) (trm (d_tr s))) (vzero E) (run (d_tr s)) (trm (d_tr s)) (r0 E) = (true, l', tn', d_costt s1)).
  { move: et. rewrite /t /ddp_tryStep. case er: (rgt a (r1 E) || rlt E a (r0 E)); first by move=> [<- <-].
    cbn [d_tr set_d_step].
    have hr := roll_tried a (run (d_tr s)) (hd_xt (run (d_tr s)) (trm (d_tr s))) (vzero E) (trm (d_tr s)) (r0 E).
    have hh := @roll_hd E M a (hd_xt (run (d_tr s)) (trm (d_tr s))) (vzero E) (run (d_tr s)) (trm (d_tr s)) (r0 E).
    move: hr hh. cbv zeta. move: (roll_nodes _ _ _ _ _ _) => r. move: r => [[[ok' l'] tn'] c'].
    cbn [fst snd]. move=> hr /(_ hne) hh [<- <-].
    case: hs => h1 [h2 h3]. have hh' : hd_xt l' tn' = x0 by rewrite hh h2.
    split.
    - split; [apply: (jtried_trans h1); exact: hr|]. by split.
    - move=> ->. split => //. exists l', tn'. case: hr => hr1 hr2. by do 3 (split => //). }
  case: ok hok {et t} => hok; last exact: ih hin' _ hs1.
  case: (hok Logic.eq_refl) => er [l' [tn' [htr1 [hr1 [hr2 [hh e]]]]]].
  set s2 := set_d_dVexp _ _.
  have hs2 : along b s2 by exact: hs1.
  case ea: (rge (d_dVexp s2) (r0 E) && _); last exact: ih hin' _ hs2.
  cbn [fst snd].
  case: (roll_ok e) => k1 [k2 [[cr [k3 k4]] k5]].
  case: hs => h1 [h2 [h3 [h4 [h5 [h6 [h7 [h8 [h9 h10]]]]]]]].
  case: (b_path hb) => [[p1 [p2 p3]] [p4 p5] p6].
  have htr : d_tr s2 = mkTraj l' tn' by exact: htr1.
  set to := accept_try (d_tr s2).
  exists (mkAccepted (d_tr b) (d_cost b) (d_feas b) (d_preg b, d_dreg b) a to (d_costt s2)).
  have nml : nms (run (d_tr s)) = ms by rewrite (tried_nm (proj1 h1)).
  have tml : tm (trm (d_tr s)) = tmod by rewrite -p2; case: h1 => _ [? [? [? [? ->]]]].
  have tml' : tm tn' = tmod by rewrite -tml; case: hr2 => [? [? [? [? ->]]]].
  case: (accept_xs (d_tr s2)) => x1 x2.
  case: (b_d hb) => bd0 bd1.
  split; [|split; [|split]].
  - split.
    + change (shape to). rewrite /to htr. split; [|split].
      * rewrite accept_nm /=. by rewrite (tried_nm hr1).
      * exact: tml'.
      * rewrite accept_hd /=. exact: hh.
    + split.
      * apply: chained_app => //.
      * apply/Forall_app. split => //. constructor => //. split => //=.
        -- by apply: hin; left.
        -- exact: b_lin hb.
        -- exact: b_bwd hb.
        -- rewrite /to htr /=. apply: accept_follows.
           move: (proj1 h1) k1. clear. move: (run (d_tr b)) (run (d_tr s)) => lb ls h. elim: h l' => [|n1 n2 q1 q2 h _ ih] l' hl; inversion hl; subst; constructor.
           ++ move: h H1 => [p [me [e [e1 [e2 ->]]]]]. rewrite /tfollows /policy; cbn. by rewrite e1 e2.
           ++ exact: ih.
        -- exists cr. rewrite /to x1 x2 htr /=. split; [by rewrite -nml -h2|].
           exists (txt tn'). rewrite last_last. split => //. rewrite /s2 /=. by rewrite k4 tml.
        -- rewrite /to x1 x2 htr /= -nml -tml. exact: roll_finite e.
        -- rewrite /accept_rule; cbn [a_step a_from a_cost a_cost' a_feas].
           move/andb_true_iff: ea => [ea1 ea2]. rewrite /expected_decrease -bd0 -bd1.
           case: (hs1) => _ [_ [s1f [s1c [_ [_ [s10 [s11 _]]]]]]].
           have dv : d_dVexp s2 = rmul E a (radd E (d_d0 b) (rmul E (rmul E (rlit E 1 2) a) (d_d1 b)))
             by rewrite /s2 /= s10 s11.
           rewrite -dv. split => //.
           move/orb_true_iff: ea2 => [/orb_true_iff [ea2|ea2]|ea2]; [left|right; left|right; right].
           ++ by move: ea2; rewrite /= s10.
           ++ move/negb_true_iff: ea2. by rewrite /= s1f.
           ++ by move: ea2; rewrite /= s1c.
    + rewrite /at_steps steps_app. cbn [fst snd a_to a_cost']. do 3 (split => //). by move=> v [<-].
  - change (cur to). rewrite /to htr. by apply: accept_cur.
  - change (stored_cost to = d_costt s1). rewrite /to accept_cost htr k5. by [].
  - case: (hs1) => _ [_ [_ [_ [_ [_ [_ [_ [hi _]]]]]]]]. exact: hi.
Qed.

Lemma expectedE l : forall d : R * R,
  fold_left (fun (d : R * R) n => if negb (nu (nm n) =? 0)
      then (radd E (fst d) (vdot E (Qu (val n)) (gk (val n))), rsub E (snd d) (vdot E (gk (val n)) (Quuk (val n))))
      else d) l d = (sum_quk (fst d) l, sum_kquuk (M := M) (snd d) l).
Proof.
  elim: l => [|n l ih] d /=; first by case: d. rewrite ih. by case: (nu (nm n) =? 0).
Qed.

(** what a finished call guarantees *)
Definition finished (k : nat) (b : bool) (s' : ddp M) : Prop :=
  exists rs, path rs s' /\ length rs <= k /\
    (b = true -> lin s' /\ d_kkt s' = kkt_residual (d_tr s') /\ rle E (d_kkt s') (c_tol c) = true).

Lemma after_path rs (s s' : ddp M) : path rs s -> d_tr s' = d_tr s -> d_feas s' = d_feas s -> d_cost s' = d_cost s -> path rs s'.
Proof. move=> [h1 h2 h3] e1 e2 e3. split; rewrite ?/at_steps ?e1 ?e2 ?e3 //. Qed.
Lemma body_path fuel recalc rs s : path rs s -> ready recalc rs s ->
  match ddp_body x0 c fuel recalc s with
  | BRet b r => path rs (snd r) /\ (b = true -> lin (snd r) /\ d_kkt (snd r) = kkt_residual (d_tr (snd r)) /\
                                       rle E (d_kkt (snd r)) (c_tol c) = true) \/
                b = false /\ exists a, path (rs ++ [a]) (snd r)
  | BNext r => d_iter (snd r) = d_iter s /\
      (if fst r then exists a, path (rs ++ [a]) (snd r) /\ cur (d_tr (snd r)) /\ stored_cost (d_tr (snd r)) = d_cost (snd r)
       else path rs (snd r) /\ lin (snd r))
  | BBreak _ | BUB => False
  | BNoFuel => True
  end.
Proof.
  move=> hp hr. rewrite /ddp_body. have := retry_path fuel hp hr.
  case: (ddp_retry x0 c fuel recalc s) => // s1; last by move=> h; left; split.
  move=> [h1 [h2 [h3 h4]]].
  rewrite /ddp_expected expectedE. set s3 := set_d_kkt _ _.
  have hb : base rs s3.
  { split; [|exact: h2|exact: h4|by split]. case: h1 => q1 q2 q3. by split. }
  case ek: (rle E (d_kkt s3) (c_tol c)); first by left; split; [exact: b_path hb|].
  have ha : along s3 s3.
  { split; [exact: jtried_refl|]. split; [|by repeat split]. by case: (b_path hb) => [[_ [_ ->]] _ _]. }
  have := ls_path hb (fun z hz => hz) ha. cbv zeta. case: (ddp_line_search c (c_alphas c) s3) => rc s4. cbn [fst snd].
  move=> hls.
  set s5 := if rgt (d_step s4) (c_stepdec c) then _ else s4.
  have e5 : d_tr s5 = d_tr s4 /\ d_feas s5 = d_feas s4 /\ d_cost s5 = d_cost s4 /\ d_iter s5 = d_iter s4
    by rewrite /s5; case: (rgt _ _).
  set s6 := if rle E (d_step s5) (c_stepinc c) then _ else s5.
  have e6 : d_tr s6 = d_tr s4 /\ d_feas s6 = d_feas s4 /\ d_cost s6 = d_cost s4 /\ d_iter s6 = d_iter s4
    by rewrite /s6; case: (rle _ _ _).
  move: s6 e6 => s6 [e61 [e62 [e63 e64]]]. clear e5.
  have i3 : d_iter s3 = d_iter s by exact: h3.
  case: (rle E (d_step s5) (c_stepinc c) && _); cbn [snd fst].
  - case: rc hls => hls.
    + right. split => //. case: hls => a [k1 _]. exists a. apply: (after_path k1); [exact: e61|exact: e62|exact: e63].
    + left. split => //. apply: (after_path (proj1 (along_path hb hls)) e61 e62 e63).
  - case: rc hls => hls.
    + case: hls => a [k1 [k2 [k3 k4]]]. split; [by cbn; rewrite e64 k4|]. exists a.
      cbn [d_tr set_d_log set_d_stop d_cost]. rewrite e61 e63. split => //. apply: (after_path k1); [exact: e61|exact: e62|exact: e63].
    + case: (along_path hb hls) => k1 k2. split.
      * cbn. rewrite e64. case: hls => _ [_ [_ [_ [_ [_ [_ [_ [hi _]]]]]]]]. by rewrite hi.
      * split; [apply: (after_path k1); [exact: e61|exact: e62|exact: e63]|]. move: k2. by rewrite /lin /= e61 e62 e63.
Qed.
Lemma loop_path fuel k : forall recalc rs s, path rs s -> ready recalc rs s ->
  match ddp_loop x0 c fuel k recalc s with
  | Ret b r => exists rs', path rs' r /\ length rs' <= length rs + k /\
      (b = true -> lin r /\ d_kkt r = kkt_residual (d_tr r) /\ rle E (d_kkt r) (c_tol c) = true)
  | Exc _ | UB => False
  | NoFuel => True
  end.
Proof.
  elim: k => [|k ih] recalc rs s hp hr; cbn [ddp_loop].
  - exists rs. split => //. split => //. lia.
  - have := body_path fuel hp hr. case: (ddp_body x0 c fuel recalc s) => [b r|r|r||] //.
    + case=> [[h1 h2]|[-> [a h1]]].
      * exists rs. split => //. split => //. lia.
      * exists (rs ++ [a]). split => //. split => //. rewrite app_length /=. lia.
    + case: r => rc r. cbn [fst snd]. move=> [hi h]. case: rc h => h.
      * case: h => a [h1 [h2 h3]]. have := ih true (rs ++ [a]) (set_d_iter (S (d_iter r)) r).
        have h1' : path (rs ++ [a]) (set_d_iter (S (d_iter r)) r) by apply: (after_path h1).
        move=> /(_ h1'). case: (ddp_loop _ _ _ _ _ _) => [b s'|s'||] // hx; [|exact: hx (or_intror (conj (Nat.neq_succ_0 _) (conj h2 h3)))..].
        case: (hx (or_intror (conj (Nat.neq_succ_0 _) (conj h2 h3)))) => rs' [q1 [q2 q3]].
        exists rs'. split => //. split => //. rewrite app_length /= in q2. lia.
      * case: h => h1 h2. have := ih false rs (set_d_iter (S (d_iter r)) r).
        have h1' : path rs (set_d_iter (S (d_iter r)) r) by apply: (after_path h1).
        move=> /(_ h1' h2). case: (ddp_loop _ _ _ _ _ _) => // b s' [rs' [q1 [q2 q3]]].
        exists rs'. split => //. split => //. lia.
Qed.
End Run.
