(** * Invariants of histories of API calls on a SolverSQP object. *)
From Coq Require Import ZArith List Bool Arith Lia ssreflect.
From Verif Require Import Eigen Problem DDP Filter FilterProofs SQP CSQP Init TrialSpec TraceSpec Rounds SQPSpec SQPTrial SQPLoop.
Import ListNotations.
Set Implicit Arguments.
Unset Strict Implicit.
Set Asymmetric Patterns.

Section Hist.
Variable E : Eig.
Variable M : manifold E.
Notation R := (R E).
Notation node := (node M).
Notation tnode := (tnode M).
Notation X := (mX M).
Variables (l : list (slot M)) (t : tslot M).
Variable resize : nat -> nat -> Prop.
Notation sqp_hist := (sqp_hist l t resize).

(** ** Proofs *)
Definition ptonly (n n' : node) : Prop := exists p, n' = set_pt n p.
Lemma ptonly_refl n : ptonly n n.
Proof. by exists (pt n); destruct n. Qed.
Lemma ptonly_trans n1 n2 n3 : ptonly n1 n2 -> ptonly n2 n3 -> ptonly n1 n3.
Proof. move=> [p ->] [q ->]. by exists q. Qed.
Lemma ptonly_list_trans l1 l2 l3 : Forall2 ptonly l1 l2 -> Forall2 ptonly l2 l3 -> Forall2 ptonly l1 l3.
Proof.
  move=> h; elim: h l3 => [|n1 n2 l1' l2' h hl ih] l3 h3; inversion h3; subst; constructor.
  - exact: ptonly_trans h H1.
  - exact: ih.
Qed.
Lemma guess_xsP ls (tn : tnode) xs ls' tn' : guess_xs ls tn xs = Some (ls', tn') ->
  Forall2 ptonly ls ls' /\ (exists x, tn' = set_tx tn x) /\
  map (fun n => px (pt n)) ls' ++ [tx tn'] = xs.
Proof.
  elim: ls xs ls' => [|n ls ih] [|x xs] ls' //=.
  - case: xs => // -[<- <-]. split; [constructor|]. split => //. by exists x.
  - case e: (guess_xs ls tn xs) => [[l1 tn1]|] //= [<- h]; subst tn1.
    case: (ih _ _ e) => h1 [h2 h3]. split; [constructor => //|split => //].
    + by eexists; reflexivity.
    + by rewrite /= h3.
Qed.
Lemma cast_vecE k n (v : vec E k) w : @cast_vec E k n v = Some w -> existT (vec E) n w = existT (vec E) k v.
Proof. rewrite /cast_vec. case: (Nat.eq_dec k n) => // e [<-]. by destruct e. Qed.
Lemma guess_usP (ls : list node) us ls' : guess_us ls us = Some ls' ->
  Forall2 ptonly ls ls' /\ map (fun n => existT (vec E) (nu (nm n)) (pu (pt n))) ls' = us /\
  map (fun n => px (pt n)) ls' = map (fun n => px (pt n)) ls.
Proof.
  elim: ls us ls' => [|n ls ih] [|u us] ls' //=.
  - move=> [<-]. split; [constructor|]. by split.
  - case e1: (@cast_vec _ _ _ _) => [v|] //. case e2: (guess_us ls us) => [r|] // [<-].
    case: (ih _ _ e2) => h1 [h2 h3]. split; [constructor => //; by eexists; reflexivity|].
    rewrite /= h2 h3. split => //. rewrite (cast_vecE e1). by destruct u.
Qed.
Lemma set_guessP xs us (tr tr' : traj M) : set_guess xs us tr = Some tr' ->
  Forall2 ptonly (run tr) (run tr') /\ (exists x, trm tr' = set_tx (trm tr) x) /\
  get_xs tr' = match xs with [] => repeat (xzero M) (S (length (run tr))) | _ => xs end /\
  get_us tr' = match us with [] => map (fun n => existT (vec E) (nu (nm n)) (vzero E)) (run tr) | _ => us end.
Proof.
  rewrite /set_guess.
  case e1: (guess_xs _ _ _) => [[l1 tn1]|] //.
  case e2: (guess_us _ _) => [l2|] // [<-].
  case: (guess_xsP e1) => h1 [h2 h3]. case: (guess_usP e2) => k1 [k2 k3].
  split; [exact: ptonly_list_trans h1 k1|]. split => //. split => //.
  rewrite /get_xs /= k3. exact: h3.
Qed.
Lemma get_xs_pin x0 (tr : traj M) : get_xs (pin_xt0 x0 (pin_x0 x0 tr)) = x0 :: tl (get_xs tr).
Proof. rewrite /get_xs /pin_xt0 /pin_x0. by case: (run tr). Qed.
Lemma get_us_pin x0 (tr : traj M) : get_us (pin_xt0 x0 (pin_x0 x0 tr)) = get_us tr.
Proof. rewrite /get_us /pin_xt0 /pin_x0. by case: (run tr). Qed.
Lemma ptonly_dx (tr tr' : traj M) x : Forall2 ptonly (run tr) (run tr') -> trm tr' = set_tx (trm tr) x ->
  hd_dx (run tr') (trm tr') = hd_dx (run tr) (trm tr).
Proof. move=> h ->. by case: h => [|n n' ? ? [p ->] _]. Qed.

Lemma hd_x_get (tr : traj M) : hd_error (get_xs tr) = Some (hd_x (run tr) (trm tr)).
Proof. rewrite /get_xs. by case: (run tr). Qed.

(** starting state of the loop of solve *)
Definition solve_start (x0 : X) (c : scfg E) (reg : option R) (tr : traj M) (s : sqp M) : sqp M :=
  set_q_iter 0 (set_q_dreg (init_reg (sc_ddp c) reg) (set_q_preg (init_reg (sc_ddp c) reg)
    (set_q_tr (pin_xt0 x0 (pin_x0 x0 tr)) s))).
Lemma start_inv x0 c reg xs us tr s :
  set_guess xs us (q_tr s) = Some tr -> run (q_tr s) <> [] ->
  hd_dx (run (q_tr s)) (trm (q_tr s)) = vzero E ->
  inv x0 c (solve_start x0 c reg tr s) [] (solve_start x0 c reg tr s).
Proof.
  move=> hg hr hd. case: (set_guessP hg) => h1 [[x h2] _].
  have hne : run tr <> [] by case: h1 hr.
  have hdx := ptonly_dx h1 h2.
  split => //.
  - by rewrite /= app_nil_r.
  - rewrite /= /pin_xt0 /pin_x0 /=. by case: (run tr) hne.
  - rewrite -hd -hdx /= /pin_xt0 /pin_x0 /=. by case: (run tr).
  - move=> _. rewrite /= /pin_xt0 /pin_x0 /=. by case: (run tr).
  - by split; [exact: reach_start|].
  - split; [by move=> _ [|i]|]. split; [by move=> _ [|i]|]. split; [by move=> [|i]|constructor].
Qed.
Lemma solve_fin x0 c fuel xs us k reg s tr :
  set_guess xs us (q_tr s) = Some tr -> run (q_tr s) <> [] ->
  hd_dx (run (q_tr s)) (trm (q_tr s)) = vzero E ->
  match sqp_solve x0 c fuel xs us k reg s with
  | Ret b s' => exists rs last, fin x0 c (solve_start x0 c reg tr s) rs last b s' /\ length rs <= k /\
                  (last = true -> length rs < k \/ sc_extra c = true)
  | Exc _ => False
  | UB => sc_filter c = true /\ ~ bufs c s
  | NoFuel => True
  end.
Proof.
  move=> hg hr hd. rewrite /sqp_solve hg.
  have := loop_fin fuel k (start_inv x0 c reg hg hr hd). rewrite /solve_start.
  by case: (sqp_loop _ _ _ _ _).
Qed.

Hypothesis Tpos : l <> [].
Notation nms := (map (@nm E M)).

Lemma ptonly_nm (l1 l2 : list node) : Forall2 ptonly l1 l2 -> nms l2 = nms l1.
Proof. elim=> [|n n' ? ? [p ->] _ ih] //=. by rewrite ih. Qed.
Lemma start_ms x0 c reg tr (s : sqp M) : models (q_tr (solve_start x0 c reg tr s)) = models tr.
Proof. rewrite /models /= /pin_xt0 /pin_x0. by case: (run tr). Qed.
Lemma guess_ms xs us (tr tr' : traj M) : set_guess xs us tr = Some tr' -> models tr' = models tr.
Proof. move=> /set_guessP [k1 [[x k2] _]]. by rewrite /models (ptonly_nm k1) k2. Qed.
Lemma start_nm x0 c reg tr (s : sqp M) : nms (run (q_tr (solve_start x0 c reg tr s))) = nms (run tr).
Proof. rewrite /= /pin_xt0 /pin_x0. by case: (run tr). Qed.
Lemma new_nm x0 n : nms (run (q_tr (new_sqp x0 l t n))) = map (@sl_m E M) l.
Proof. rewrite /=. case: (l) => [|sl l'] //=. rewrite map_map. by congr (_ :: _). Qed.
Lemma dir_base_nm x0 recalc (s : sqp M) : nms (run (dir_base x0 recalc s)) = nms (run (q_tr s)).
Proof. case: recalc; [exact: nm_base|done]. Qed.
Lemma nms_ne (l1 l2 : list node) : nms l2 = nms l1 -> l1 <> [] -> l2 <> [].
Proof. by case: l1; case: l2. Qed.

Lemma hist_models n s : sqp_hist n s -> models (q_tr s) = (map (@sl_m E M) l, ts_m t) /\ hd_dx (run (q_tr s)) (trm (q_tr s)) = vzero E.
Proof.
  have ne : forall s : sqp M, models (q_tr s) = (map (@sl_m E M) l, ts_m t) -> run (q_tr s) <> [].
  { move=> s1 [] h _. case: (run (q_tr s1)) h => //=. by case: (l) Tpos. }
  elim=> {n s} [x0 n|n s x0 c fuel xs us k reg b s' _ [h1 h2] hn hs|n s xs us tr _ [h1 h2] hg
               |n s x0 c recalc _ [h1 h2] hn|n s c a s' _ [h1 h2] ht
               |n s x0 _ [h1 h2]|n s feas _ [h1 h2]|n s _ [h1 h2]|n s _ h|n s c _ h|n s c _ h|n n' s _ h hr] //.
  - rewrite /models new_nm. split => //. rewrite /=. by case: (l) Tpos.
  - case e: (set_guess xs us (q_tr s)) => [tr|]; last by rewrite /sqp_solve e in hs.
    have := solve_fin x0 c fuel k reg e (ne _ h1) h2. rewrite hs => [[rs [last [hf _]]]].
    split; [|exact: f_dx hf]. by rewrite (f_nm hf) start_ms (guess_ms e).
  - split; first by rewrite /= (guess_ms hg). case: (set_guessP hg) => k1 [[x k2] _].
    cbn [q_tr set_q_tr]. by rewrite (ptonly_dx k1 k2).
  - have := computeDirectionP x0 c recalc s. cbv zeta. move=> [k1 [-> _]]. split => //.
    rewrite (ms_passed k1). case: recalc {k1}; [by rewrite ms_base|exact: h1].
  - have := @tryStepP E M c a s (ne _ h1). case: ht => ->; [move=> [_ [hf _]]|move=> [_ [hf _]]];
      (split; [by rewrite (ms_touched (proj1 hf)) | by rewrite (hd_dx_t (proj1 hf))]).
  - split.
    + cbn [q_tr set_q_cost set_q_tr]. rewrite -h1. exact: (ms_base x0 s).
    + cbn [q_tr set_q_cost set_q_tr]. rewrite -h2. exact: (dir_base_dx x0 true s).
  - cbn [q_tr set_q_tr]. split.
    + by rewrite (ms_passed (backward_passed _ _ _ _)).
    + rewrite -h2. exact: backward_dx.
  - cbn [q_tr set_q_tr set_q_xg set_q_ug]. case: (forward_passed (q_tr s)) => k1 k2. split.
    + by rewrite (ms_passed k1).
    + by rewrite k2.
Qed.
Lemma hist_basic n s : sqp_hist n s ->
  nms (run (q_tr s)) = map (@sl_m E M) l /\ hd_dx (run (q_tr s)) (trm (q_tr s)) = vzero E.
Proof. by move=> /hist_models [[-> _] ->]. Qed.
Lemma hist_ne n s : sqp_hist n s -> run (q_tr s) <> [].
Proof. move=> /hist_basic [h _]. case: (run (q_tr s)) h => //=. by case: (l) Tpos. Qed.
Lemma hist_len n s : sqp_hist n s -> length (run (q_tr s)) = length l.
Proof. move=> /hist_basic [h _]. by rewrite -(map_length (@nm E M)) h map_length. Qed.

Hypothesis growing : forall n n', resize n n' -> n <= n'.
Lemma hist_bufs n s : sqp_hist n s -> holds n [] (q_costl s) /\ holds n [] (q_gapl s).
Proof.
  elim=> {n s} [x0 n|n s x0 c fuel xs us k reg b s' hh [h1 h2] hn hs|n s xs us tr _ [h1 h2] hg
               |n s x0 c recalc _ [h1 h2] hn|n s c a s' hh [h1 h2] ht
               |n s x0 _ [h1 h2]|n s feas _ [h1 h2]|n s _ [h1 h2]|n s _ h|n s c _ h|n s c _ h|n n' s _ [h1 h2] hr] //.
  - by split; exact: holds_new.
  - case: (hist_basic hh) => _ b2. have b1 := hist_ne hh.
    case e: (set_guess xs us (q_tr s)) => [tr|]; last by rewrite /sqp_solve e in hs.
    have := solve_fin x0 c fuel k reg e b1 b2. rewrite hs => [[rs [last [hf _]]]].
    have := f_buf hf. rewrite /bufs hn. by apply.
  - have := computeDirectionP x0 c recalc s. cbv zeta.
    by move=> [_ [_ [_ [_ [_ [_ [_ [_ [_ [-> [-> _]]]]]]]]]]].
  - have := @tryStepP E M c a s (hist_ne hh).
    have hfr : forall s1, ls_frame s s1 -> holds n [] (q_costl s1) /\ holds n [] (q_gapl s1).
    { move=> s1 [_ [_ [_ [_ [_ [_ [_ [_ [_ [_ [-> [-> _]]]]]]]]]]]]. by split. }
    case: ht => ->; [move=> [_ [hf _]]|move=> [_ [hf _]]]; exact: hfr.
  - have hle := growing hr. by split; [exact: holds_grow hle h1 | exact: holds_grow hle h2].
Qed.
End Hist.

Section Run.
Variable E : Eig.
Variable M : manifold E.
Variables (l : list (slot M)) (t : tslot M).
Variable resize : nat -> nat -> Prop.
Hypothesis Tpos : l <> [].

Lemma pinned_start x0 c reg xs us tr (s : sqp M) n :
  sqp_hist l t resize n s -> set_guess xs us (q_tr s) = Some tr ->
  get_xs (q_tr (solve_start x0 c reg tr s)) = pinned_guess x0 (length l) xs /\
  get_us (q_tr (solve_start x0 c reg tr s)) = control_guess l us.
Proof.
  move=> hh hg. case: (set_guessP hg) => k1 [_ [k2 k3]].
  cbn [q_tr solve_start set_q_iter set_q_dreg set_q_preg set_q_tr].
  rewrite get_xs_pin get_us_pin k2 k3 (hist_len Tpos hh). split => //.
  rewrite /control_guess. case: us {hg k3} => //.
  case: (hist_basic Tpos hh) => h _.
  have e : forall l1 : list (node M), map (fun n0 => existT (vec E) (nu (nm n0)) (vzero E)) l1 =
     map (fun m => existT (vec E) (nu m) (vzero E)) (map (@nm E M) l1) by move=> l1; rewrite map_map.
  by rewrite e h map_map.
Qed.

(** every call of solve is a run *)
Lemma sqp_solve_run n s x0 c fuel xs us k reg b s' :
  sqp_hist l t resize n s -> sqp_solve x0 c fuel xs us k reg s = Ret b s' ->
  exists rs last, sqp_run l x0 c xs us k reg s rs last b s' /\
    ((sc_filter c = true -> bufs c s) -> rounds_searched (sqp_rule c) rs).
Proof.
  move=> hh hs. case: (hist_basic Tpos hh) => _ b2. have b1 := hist_ne Tpos hh.
  case e: (set_guess xs us (q_tr s)) => [tr|]; last by rewrite /sqp_solve e in hs.
  have := solve_fin x0 c fuel k reg e b1 b2. rewrite hs => [[rs [last [hf [hk1 hk2]]]]].
  case: (pinned_start x0 c reg hh e) => p1 p2.
  case: (f_rounds hf) => r1 [r2 [r3 r4]]. have wf r : In r rs -> round_wf x0 c (solve_start x0 c reg tr s) r
    by move=> hin; move/Forall_forall: r4; apply.
  exists rs, last. split; last by move=> hb; apply: r1.
  split.
  - exact: f_log hf.
  - by split.
  - by case: (f_iter hf).
  - have := f_last hf. case: last {hf hk2} => // [[h1 [h2 [h3 h4]]]]. do 3 split => //.
    move=> /h4 h. exact: consistent_id.
  - have := f_cand hf. by rewrite p1 p2.
  - move=> hz. by rewrite hd_x_get (f_x hf hz).
  - move=> r /wf [h1 [h2 _]]. by split.
  - move=> r /wf [_ [_ [h1 [h2 [h3 [h4 _]]]]]]. by split.
  - move=> r /wf [_ [_ [_ [_ [_ [_ [h1 [_ [s1 [rc [s2 [hr1 [hr2 [h2 h3]]]]]]]]]]]]]].
    exists s1, rc, s2. do 4 split => //. by rewrite -h3.
  - exact: f_reg hf.
  - move=> hl. case: (f_ldir hf hl) => s1 [rc [s2 [hr1 [hr2 [h2 h3]]]]]. exists s1, rc, s2. do 4 split => //.
    rewrite -h3. exact: f_dx hf.
  - rewrite (f_nm hf) start_ms (guess_ms e). split => // r /wf [_ [_ [_ [_ [_ [_ [_ [-> _]]]]]]]].
    by rewrite start_ms (guess_ms e).
  - exact: r3.
  - exact: r2.
Qed.
(** and it neither lets an exception escape nor, with grow-only filter sizes,
    reads outside the filter buffers *)
Lemma sqp_solve_safe n s x0 c fuel xs us k reg :
  sqp_hist l t resize n s -> sc_fsize c = n ->
  (forall m m', resize m m' -> m <= m') \/ sc_filter c = false ->
  match sqp_solve x0 c fuel xs us k reg s with
  | UB => False
  | Exc s' => s' = s /\ set_guess xs us (q_tr s) = None
  | _ => True
  end.
Proof.
  move=> hh hn hg. case: (hist_basic Tpos hh) => _ b2. have b1 := hist_ne Tpos hh.
  case e: (set_guess xs us (q_tr s)) => [tr|]; last by rewrite /sqp_solve e.
  have := solve_fin x0 c fuel k reg e b1 b2.
  case: (sqp_solve _ _ _ _ _ _ _ _) => // [[hf hb]].
  case: hg => [hg|]; last by rewrite hf.
  apply: hb. rewrite /bufs hn. exact: hist_bufs hh.
Qed.
End Run.
