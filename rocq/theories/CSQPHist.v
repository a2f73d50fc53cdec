(** * Invariants of histories of API calls on a SolverCSQP object. *)
From Coq Require Import ZArith List Bool Arith Lia ssreflect.
From Verif Require Import Eigen Problem DDP Filter FilterProofs SQP CSQP Init TrialSpec TraceSpec Rounds SQPSpec CSQPSpec
  SQPTrial SQPLoop History CSQPFrames CSQPTrial CSQPLoop.
Import ListNotations.
Set Implicit Arguments.
Unset Strict Implicit.
Set Asymmetric Patterns.

Section Hist.
Variable E : Eig.
Variable M : manifold E.
Notation R := (R E).
Notation node := (node M).
Notation tnode := (tnode M).
Notation X := (mX M).
Notation nms := (map (@nm E M)).

Lemma ptonly_zeros (tr tr' : traj M) x : Forall2 (@ptonly E M) (run tr) (run tr') -> trm tr' = set_tx (trm tr) x ->
  zeros tr -> zeros tr'.
Proof. rewrite /zeros. move=> h ->. by case: h => [|n n' ? ? [p ->] _]. Qed.
Lemma ptonly_fs (tr tr' : traj M) x : Forall2 (@ptonly E M) (run tr) (run tr') -> trm tr' = set_tx (trm tr) x ->
  hd_fs (run tr') (trm tr') = hd_fs (run tr) (trm tr).
Proof. move=> h ->. by case: h => [|n n' ? ? [p ->] _]. Qed.
Lemma pin_zeros x0 (tr : traj M) : zeros tr -> zeros (pin_xt0 x0 (pin_x0 x0 tr)).
Proof. rewrite /zeros /pin_xt0 /pin_x0. by case: (run tr). Qed.
Lemma pin_fs x0 (tr : traj M) : hd_fs (run (pin_xt0 x0 (pin_x0 x0 tr))) (trm (pin_xt0 x0 (pin_x0 x0 tr))) = hd_fs (run tr) (trm tr).
Proof. rewrite /pin_xt0 /pin_x0. by case: (run tr). Qed.
Lemma pin_nm x0 (tr : traj M) : nms (run (pin_xt0 x0 (pin_x0 x0 tr))) = nms (run tr).
Proof. rewrite /pin_xt0 /pin_x0. by case: (run tr). Qed.
Lemma pin_hd x0 (tr : traj M) : hd_x (run (pin_xt0 x0 (pin_x0 x0 tr))) (trm (pin_xt0 x0 (pin_x0 x0 tr))) = x0.
Proof. rewrite /pin_xt0 /pin_x0. by case: (run tr). Qed.

(** starting state of the loop of solve *)
Definition cstart0 (x0 : X) (c : ccfg E) (reg : option R) (tr : traj M) (s : csqp M) : csqp M :=
  let p := if cc_removereg c then r0 E else init_reg (cc_ddp c) reg in
  set_k_dreg p (set_k_preg p (set_k_tr (pin_xt0 x0 (pin_x0 x0 tr)) s)).
Definition cstart (x0 : X) (c : ccfg E) (reg : option R) (k : nat) (tr : traj M) (s : csqp M) : csqp M :=
  let s1 := cstart0 x0 c reg tr s in
  set_k_iter 0 (set_k_reached false (if k =? 0 then reset_rho c (csqp_calc s1) else s1)).
Lemma cstart_tr x0 c reg k xs us tr s :
  set_guess xs us (k_tr s) = Some tr -> zeros (k_tr s) -> hd_fs (run (k_tr s)) (trm (k_tr s)) = vzero E ->
  let ss := cstart x0 c reg k tr s in
  zeros (k_tr ss) /\ hd_fs (run (k_tr ss)) (trm (k_tr ss)) = vzero E /\
  nms (run (k_tr ss)) = nms (run (k_tr s)) /\ hd_x (run (k_tr ss)) (trm (k_tr ss)) = x0 /\
  get_xs (k_tr ss) = x0 :: tl (get_xs tr) /\ get_us (k_tr ss) = get_us tr /\
  k_log ss = k_log s /\ k_step ss = k_step s /\ k_iter ss = 0 /\ k_reached ss = false /\
  k_costl ss = k_costl s /\ k_gapl ss = k_gapl s /\ k_conl ss = k_conl s.
Proof.
  move=> hg hz hf. case: (set_guessP hg) => h1 [[x h2] _]. cbv zeta. rewrite /cstart.
  set s1 := cstart0 x0 c reg tr s.
  have z1 : zeros (k_tr s1) by exact: pin_zeros (ptonly_zeros h1 h2 hz).
  have f1 : hd_fs (run (k_tr s1)) (trm (k_tr s1)) = vzero E
    by rewrite [LHS]pin_fs (ptonly_fs h1 h2).
  have n1 : nms (run (k_tr s1)) = nms (run (k_tr s)) by rewrite [LHS]pin_nm (ptonly_nm h1).
  have x1 : hd_x (run (k_tr s1)) (trm (k_tr s1)) = x0 by exact: pin_hd.
  have g1 : get_xs (k_tr s1) = x0 :: tl (get_xs tr) by exact: get_xs_pin.
  have u1 : get_us (k_tr s1) = get_us tr by exact: get_us_pin.
  have e1 : k_log s1 = k_log s /\ k_step s1 = k_step s /\ k_costl s1 = k_costl s /\ k_gapl s1 = k_gapl s /\ k_conl s1 = k_conl s by [].
  case: e1 => a1 [a2 [a3 [a4 a5]]].
  move: s1 z1 f1 n1 x1 g1 u1 a1 a2 a3 a4 a5 => s1 z1 f1 n1 x1 g1 u1 a1 a2 a3 a4 a5.
  case: (k =? 0); last by do 12 (split; [done|]).
  case: (calcP f1) => ev [[e1 e2 e3 e4 e5] [[c1 c2 c3 c4 c5 c6 c7 c8 c9 c10 c11 c12 c13] ee]].
  case: ev => [[_ [_ hg']] _].
  case: (apply_rho_cstep c (cc_rhobase c) (k_tr (csqp_calc s1))) => k1 k2.
  move: (csqp_calc s1) e1 e2 e3 e4 e5 c5 c6 c7 c8 c9 c11 hg' k1 k2 {ee c1 c2 c3 c4 c10 c12 c13} => s2 e1 e2 e3 e4 e5 c5 c6 c7 c8 c9 c11 hg' k1 k2.
  cbn [k_tr k_log k_step k_iter k_reached k_costl k_gapl k_conl set_k_iter set_k_reached reset_rho set_k_tr set_k_rho].
  case: (cp_xs k1) => y1 y2.
  split; [exact: k2 (e5 z1)|]. split; [by rewrite (cp_hd_fs (proj1 k1) (proj2 k1)) (gaps_hd hg')|].
  split; [by rewrite (cp_nm k1) e3|]. split; [by rewrite (cp_hd_x (proj1 k1) (proj2 k1)) e4|].
  split; [by rewrite y1 e1|]. split; [by rewrite y2 e2|].
  rewrite c11 c5 c6 c7 c8. by [].
Qed.
Lemma cstart_head x0 c timeout reg k xs us tr s :
  set_guess xs us (k_tr s) = Some tr -> zeros (k_tr s) -> hd_fs (run (k_tr s)) (trm (k_tr s)) = vzero E ->
  head x0 c timeout (cstart x0 c reg k tr s) [] (cstart x0 c reg k tr s).
Proof.
  move=> hg hz hf. have := cstart_tr x0 c reg k hg hz hf. cbv zeta.
  move: (cstart x0 c reg k tr s) => ss [z1 [f1 [n1 [x1 [_ [_ [_ [_ [i1 [r1 _]]]]]]]]]].
  split => //. split => //.
  - by rewrite /= app_nil_r.
  - split; [by move=> _ [|i]|]. split; [by move=> [|i]|]. split; [constructor|]. split; [by move=> [|i]|by move=> [|i]].
  - by rewrite r1.
Qed.
Lemma csolve_fin x0 c timeout fuel xs us k reg (s : csqp M) tr :
  set_guess xs us (k_tr s) = Some tr -> zeros (k_tr s) -> hd_fs (run (k_tr s)) (trm (k_tr s)) = vzero E ->
  match csqp_solve c timeout x0 fuel xs us k reg s with
  | Ret b s' => exists rs last, cfin x0 c timeout (cstart x0 c reg k tr s) rs last b s' /\
      budget_ok c [] rs k last /\ end_iter rs last (k_iter s') /\
      (last = true -> k_iter s' = length rs \/ cc_extra c = true)
  | Exc s' => cbasic c (cstart x0 c reg k tr s) s'
  | UB => (cc_filter c = true /\ ~ cbufs c (cstart x0 c reg k tr s)) \/ cc_interval c = 0
  | NoFuel => True
  end.
Proof.
  move=> hg hz hf. rewrite /csqp_solve hg.
  exact: (@loop_fin E M x0 c timeout (cstart x0 c reg k tr s) fuel k [] (cstart x0 c reg k tr s) (cstart_head x0 c timeout reg k hg hz hf)).
Qed.

Variables (l : list (slot M)) (t : tslot M).
Variable resize : nat -> nat -> Prop.
Notation csqp_hist := (csqp_hist l t resize).

Definition good (s : csqp M) : Prop :=
  nms (run (k_tr s)) = map (@sl_m E M) l /\ zeros (k_tr s) /\ hd_fs (run (k_tr s)) (trm (k_tr s)) = vzero E.
Definition hbufs (n : nat) (s : csqp M) : Prop :=
  holds n [] (k_costl s) /\ holds n [] (k_gapl s) /\ holds n [] (k_conl s).
Lemma good_cstep (s s' : csqp M) : cstep (k_tr s) (k_tr s') -> good s -> good s'.
Proof.
  move=> [h1 h2] [g1 [g2 g3]]. split; [by rewrite (cp_nm h1)|]. split; [exact: h2|].
  by rewrite (cp_hd_fs (proj1 h1) (proj2 h1)).
Qed.
Lemma new_good x0 n rho : good (new_csqp x0 l t n rho).
Proof. rewrite /good /zeros /=. case: (l) => [|sl l'] //=. rewrite map_map. by do 2 split. Qed.

Lemma chist_good n s : csqp_hist n s -> good s.
Proof.
  elim=> {n s}.
  - move=> *. exact: new_good.
  - move=> n s c to x0 fuel xs us k reg b s' _ [g1 [g2 g3]] _ hs.
    case e: (set_guess xs us (k_tr s)) => [tr|]; last by rewrite /csqp_solve e in hs.
    have := csolve_fin x0 c to fuel k reg e g2 g3. rewrite hs => [[rs [last [hf _]]]].
    case: (f_basic hf) => b1 b2 b3 _. split; [|by split].
    have := cstart_tr x0 c reg k e g2 g3. cbv zeta. move=> [_ [_ [h _]]]. by rewrite b1 h.
  - move=> n s c to x0 fuel xs us k reg s' _ [g1 [g2 g3]] _ hs.
    case e: (set_guess xs us (k_tr s)) => [tr|]; last by rewrite /csqp_solve e in hs; case: hs => <-.
    have := csolve_fin x0 c to fuel k reg e g2 g3. rewrite hs => [[b1 b2 b3 _]]. split; [|by split].
    have := cstart_tr x0 c reg k e g2 g3. cbv zeta. move=> [_ [_ [h _]]]. by rewrite b1 h.
  - move=> n s xs us tr _ [g1 [g2 g3]] hg. case: (set_guessP hg) => h1 [[x h2] _].
    split; [|split].
    + by rewrite /= (ptonly_nm h1).
    + exact: ptonly_zeros h1 h2 g2.
    + cbn [k_tr set_k_tr]. by rewrite (ptonly_fs h1 h2).
  - move=> n s _ [g1 [g2 g3]]. case: (calcP g3) => ev [[e1 e2 e3 e4 e5] _].
    case: ev => [[_ [_ hg']] _]. split; [by rewrite e3|]. split; [exact: e5|exact: gaps_hd hg'].
  - move=> n s c to s' _ hg hd. have := computeDirectionP c to s.
    case: hd => -> [h _]; exact: good_cstep (df_tr h) hg.
  - move=> n s _ hg. apply: good_cstep hg. exact: lag_cstep.
  - move=> n s c a _ [g1 [g2 g3]]. case: (ctryStepP c a s) => _ [hf _].
    have ht := lf_tr hf. move: (snd _) ht => s' ht {hf}.
    split; [by rewrite (nm_touched ht)|]. split; [exact: touched_zeros ht g2|by rewrite (touched_fs ht)].
  - move=> n s c _ hg. exact: good_cstep (df_tr (reset_params_dframe c s)) hg.
  - move=> n s c _ hg. apply: good_cstep hg. exact: apply_rho_cstep.
  - move=> n s c r _ hg. apply: good_cstep hg. exact: apply_rho_cstep.
  - move=> n s c b _ hg. exact: good_cstep (df_tr (update_lagrangian_dframe c b s)) hg.
  - move=> n s c b _ hg. exact: good_cstep (df_tr (update_rho_dframe c b s)) hg.
  - move=> n s t' _ hg [c [p [d h]]]. apply: good_cstep hg. cbn [k_tr set_k_tr].
    move: h => [->|[->|[->|[->|[->|[->|->]]]]]].
    + exact: cb_backward_cstep.
    + exact: cm_backward_cstep.
    + exact: cw_backward_cstep.
    + exact: cf_backward_cstep.
    + exact: cfm_backward_cstep.
    + exact: cforward_cstep.
    + exact: cwforward_cstep.
  - by [].
  - by [].
  - by [].
  - by [].
Qed.
Lemma chist_len n s : csqp_hist n s -> length (run (k_tr s)) = length l.
Proof. move=> /chist_good [h _]. by rewrite -(map_length (@nm E M)) h map_length. Qed.

Hypothesis growing : forall n n', resize n n' -> n <= n'.
Lemma chist_bufs n s : csqp_hist n s -> hbufs n s.
Proof.
  have dfr m (sa sb : csqp M) : dframe sa sb -> hbufs m sa -> hbufs m sb.
  { move=> h. by rewrite /hbufs (df_costl h) (df_gapl h) (df_conl h). }
  elim=> {n s}.
  - move=> *. by split; [|split]; exact: holds_new.
  - move=> n s c to x0 fuel xs us k reg b s' hh hb hn hs.
    case: (chist_good hh) => g1 [g2 g3].
    case e: (set_guess xs us (k_tr s)) => [tr|]; last by rewrite /csqp_solve e in hs.
    have := csolve_fin x0 c to fuel k reg e g2 g3. rewrite hs => [[rs [last [hf _]]]].
    case: (f_basic hf) => _ _ _. rewrite /cbufs hn. apply.
    have := cstart_tr x0 c reg k e g2 g3. cbv zeta. by move=> [_ [_ [_ [_ [_ [_ [_ [_ [_ [_ [-> [-> ->]]]]]]]]]]]].
  - move=> n s c to x0 fuel xs us k reg s' hh hb hn hs.
    case: (chist_good hh) => g1 [g2 g3].
    case e: (set_guess xs us (k_tr s)) => [tr|]; last by rewrite /csqp_solve e in hs; case: hs => <-.
    have := csolve_fin x0 c to fuel k reg e g2 g3. rewrite hs => [[_ _ _]]. rewrite /cbufs hn. apply.
    have := cstart_tr x0 c reg k e g2 g3. cbv zeta. by move=> [_ [_ [_ [_ [_ [_ [_ [_ [_ [_ [-> [-> ->]]]]]]]]]]]].
  - by [].
  - by [].
  - move=> n s c to s' _ hb hd. have := computeDirectionP c to s.
    case: hd => -> [h _]; exact: dfr h hb.
  - by [].
  - move=> n s c a _ hb. case: (ctryStepP c a s) => _ [hf _].
    by rewrite /hbufs (lf_costl hf) (lf_gapl hf) (lf_conl hf).
  - move=> n s c _ hb. exact: dfr (reset_params_dframe c s) hb.
  - by [].
  - by [].
  - move=> n s c b _ hb. exact: dfr (update_lagrangian_dframe c b s) hb.
  - move=> n s c b _ hb. exact: dfr (update_rho_dframe c b s) hb.
  - by [].
  - by [].
  - by [].
  - by [].
  - move=> n n' s _ [h1 [h2 h3]] hr. have hle := growing hr.
    by split; [|split]; apply: holds_grow hle _.
Qed.
End Hist.

Section Run.
Variable E : Eig.
Variable M : manifold E.
Variables (l : list (slot M)) (t : tslot M).
Variable resize : nat -> nat -> Prop.

Lemma cpinned_start x0 c reg k xs us tr (s : csqp M) n :
  csqp_hist l t resize n s -> set_guess xs us (k_tr s) = Some tr ->
  get_xs (k_tr (cstart x0 c reg k tr s)) = pinned_guess x0 (length l) xs /\
  get_us (k_tr (cstart x0 c reg k tr s)) = control_guess l us.
Proof.
  move=> hh hg. case: (chist_good hh) => g1 [g2 g3]. case: (set_guessP hg) => k1 [_ [k2 k3]].
  have := cstart_tr x0 c reg k hg g2 g3. cbv zeta. move=> [_ [_ [_ [_ [-> [-> _]]]]]].
  rewrite k2 k3 (chist_len hh). split => //.
  rewrite /control_guess. case: us {hg k3} => //.
  have e : forall l1 : list (node M), map (fun n0 => existT (vec E) (nu (nm n0)) (vzero E)) l1 =
     map (fun m => existT (vec E) (nu m) (vzero E)) (map (@nm E M) l1) by move=> l1; rewrite map_map.
  by rewrite e g1 map_map.
Qed.

(** every call of solve is a run *)
Lemma csqp_solve_run n s x0 c to fuel xs us k reg b s' :
  csqp_hist l t resize n s -> csqp_solve c to x0 fuel xs us k reg s = Ret b s' ->
  exists rs last, csqp_run l x0 c to xs us k s rs last b s'.
Proof.
  move=> hh hs. case: (chist_good hh) => g1 [g2 g3].
  case e: (set_guess xs us (k_tr s)) => [tr|]; last by rewrite /csqp_solve e in hs.
  have := csolve_fin x0 c to fuel k reg e g2 g3. rewrite hs => [[rs [last [hf [[hb1 hb2] [[he1 he2] hl]]]]]].
  have := cstart_tr x0 c reg k e g2 g3. cbv zeta.
  case: (cpinned_start x0 c reg k hh e) => p1 p2.
  move: (cstart x0 c reg k tr s) hf p1 p2 => ss hf p1 p2
    [_ [_ [n1 [_ [_ [_ [l1 [l2 [_ [_ [q1 [q2 q3]]]]]]]]]]]].
  case: (f_rounds hf) => r1 [r2 [r3 [r4 r5]]].
  have wf r : In r rs -> cround_wf c to ss r by move=> hin; move/Forall_forall: r3; apply.
  exists rs, last. split.
  - rewrite -l1. exact: f_log hf.
  - by split.
  - exact: r4.
  - split => // hlast. case: (hl hlast) => [h|h]; first by left.
    case: (he2 hlast) => [h'|[h1 h2]]; [by left|by right; split].
  - have := f_result hf. case: last {hf hb2 hl he2} => // [[h1 [h2 [[h3 [h4 [h5 h6]]] _]]]].
    do 2 split => //. split; [exact: ccons_id|by split].
  - have := f_cand hf. by rewrite p1 p2.
  - move=> hz. by rewrite hd_x_get (f_x hf hz).
  - move=> r /wf [h1 [h2 _]]. by split.
  - move=> r /wf [_ [_ [h1 [h2 [h3 [h4 [h5 _]]]]]]]. split; [exact: ccons_id|by split].
  - exact: r5.
  - split; [by rewrite (f_step hf) l2|]. move=> r /wf [_ [_ [_ [_ [_ [_ [_ [h _]]]]]]]]. by rewrite h l2.
  - move=> r /wf [_ [_ [_ [_ [_ [_ [_ [_ [_ [h1 [h2 _]]]]]]]]]]]. by rewrite h1 n1 g1.
  - exact: r2.
  - move=> hm. split.
    + move=> r /wf [_ [_ [_ [_ [_ [_ [_ [_ [h _]]]]]]]]]. exact: h.
    + move=> hlast. have := f_result hf. rewrite hlast => [[_ [_ [_ h]]]]. exact: h.
  - move=> hb. apply: r1 => hfl. rewrite /cbufs q1 q2 q3. case: hb => [hb|]; first by rewrite hfl in hb.
    move=> [a1 [a2 [a3 [a4 [a5 a6]]]]]. 
    have hh' A m (bb : cbuf A) : cap bb = m -> length (items bb) = m -> holds m [] bb.
    { move=> h1 h2. split => //. split => //. by move=> [|j]. }
    by split; [|split]; apply: hh'.
Qed.
(** only an interval of 0 or filter buffers of the wrong size lead to undefined
    behaviour *)
Lemma csqp_solve_safe n s x0 c to fuel xs us k reg :
  csqp_hist l t resize n s -> cc_fsize c = n ->
  (forall m m', resize m m' -> m <= m') \/ cc_filter c = false ->
  csqp_solve c to x0 fuel xs us k reg s = UB -> cc_interval c = 0.
Proof.
  move=> hh hn hg hs. case: (chist_good hh) => g1 [g2 g3].
  case e: (set_guess xs us (k_tr s)) => [tr|]; last by rewrite /csqp_solve e in hs.
  have := csolve_fin x0 c to fuel k reg e g2 g3. rewrite hs => [[[hf hb]|//]].
  exfalso. case: hg => [hg|]; last by rewrite hf.
  apply: hb. rewrite /cbufs hn.
  have := cstart_tr x0 c reg k e g2 g3. cbv zeta. move=> [_ [_ [_ [_ [_ [_ [_ [_ [_ [_ [-> [-> ->]]]]]]]]]]]].
  exact: chist_bufs hh.
Qed.
End Run.
