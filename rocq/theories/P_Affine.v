(** * Properties C11, C12: affine dynamics and linear-quadratic problems
    (SolverSQP, exact arithmetic, vector-space states). *)
From Coq Require Import Ring Field ZArith PeanoNat List.
Set Warnings "-notation-overridden,-ambiguous-paths".
From mathcomp Require Import all_ssreflect all_algebra.
From Verif Require Import FieldTac Eigen EigenExact ExactLemmas Problem DDP Filter SQP CSQP Init Models LQSpec Riccati TrialSpec TraceSpec
  SQPSpec SQPTrial SQPLoop History SubQP PassExact P_Direction KKTNorm Exit Affine AffineStep.

Set Implicit Arguments.
Unset Strict Implicit.
Unset Printing Implicit Defensive.

Import Order.TTheory GRing.Theory Num.Theory.
Local Open Scope ring_scope.

Section A.
Variable F : realFieldType.
Variable sq : F -> F.
Notation E := (ExactE sq).
Variable n : nat.
Notation M := (euclid E n).
Notation node := (node M).
Notation tnode := (tnode M).
Add Field FfB : (F_field_theory F).

Lemma reeval_id (x0 : mX M) (t : traj M) : reeval x0 t = t -> consistent x0 t.
Proof. by move=> <-; exact: reeval_consistent. Qed.

(** ** Every iterate starts at the problem's initial state *)
Lemma hd_get (t : traj M) : List.hd_error (get_xs t) = Some (hd_x (run t) (trm t)).
Proof. by rewrite /get_xs; case: (run t). Qed.
Lemma hd_trial (a : R E) (t : traj M) : hd_dx (run t) (trm t) = vzero E ->
  List.hd_error (trial_xs a t) = Some (hd_x (run t) (trm t)).
Proof.
by rewrite /trial_xs; case: (run t) => [|nd l] /= e; rewrite ?/trial_tx ?/trial_x /= e scaler0 addr0.
Qed.
Lemma iter_head (x0 : mX M) xs us rs xs' us' :
  iterates xs us rs xs' us' -> List.hd_error xs = Some x0 ->
  (forall r, List.In r rs -> hd_dx (run (r_tr r)) (trm (r_tr r)) = vzero E) ->
  forall r, List.In r rs -> hd_x (run (r_tr r)) (trm (r_tr r)) = x0.
Proof.
elim: rs xs us => [|r rs IH] xs us //= [e1 [e2 hi]] hx hd r' hr'.
have hr : hd_x (run (r_tr r)) (trm (r_tr r)) = x0.
  by have := hd_get (r_tr r); rewrite e1 hx => -[].
case: hr' => [<-//|hr']; apply: (IH _ _ hi) => // [|r1 h1]; last by apply: hd; right.
rewrite /next_xs; case: (r_acc r) => [a|]; last by rewrite hd_get hr.
by rewrite hd_trial ?hr //; apply: hd; left.
Qed.

Section Run.
Variables (l : list (slot M)) (t : tslot M).
Variable resize : nat -> nat -> Prop.
Hypothesis Tpos : l <> nil.
Notation ms := (List.map (@sl_m E M) l).

(** what an evaluated round looks like *)
Record round_facts (x0 : mX M) (r : round M) : Prop := mkFacts {
  rf_cons : consistent x0 (r_tr r);
  rf_models : List.map (@nm E M) (run (r_tr r)) = ms /\ tm (trm (r_tr r)) = ts_m t;
  rf_x : hd_x (run (r_tr r)) (trm (r_tr r)) = x0;
  rf_dx : hd_dx (run (r_tr r)) (trm (r_tr r)) = vzero E;
  rf_lin : lin_dyn (run (r_tr r)) (trm (r_tr r))
}.
Lemma rounds_facts k s x0 (c : scfg E) xs us maxiter reg rs last b s' :
  sqp_hist l t resize k s -> sqp_run l x0 c xs us maxiter reg s rs last b s' ->
  forall i r, List.nth_error rs i = Some r -> evaluated_at rs i -> round_facts x0 r.
Proof.
move=> hh hr i r hi he; have hin := List.nth_error_In _ _ hi.
have hm := proj1 (hist_models Tpos hh).
have hdx : forall r, List.In r rs -> hd_dx (run (r_tr r)) (trm (r_tr r)) = vzero E.
  by move=> r1 /(run_dir hr) [s1 [rc [s2 [_ [_ [_ [-> ->]]]]]]].
split.
- by apply: reeval_id; have [] := run_evaluated hr hi he.
- by have := proj2 (run_models hr) r hin; rewrite hm /models => -[-> ->].
- exact: iter_head (run_iterates hr) erefl hdx r hin.
- exact: hdx.
- by have [s1 [rc [s2 [_ [_ [h [-> _]]]]]]] := run_dir hr hin; exact: direction_lin h.
Qed.

Lemma normZ (a : F) (v : 'cV[F]_n) : norm1 (a *: v) = `|a| * norm1 v.
Proof. by rewrite /norm1 mulr_sumr; apply: eq_bigr => i _; rewrite mxE normrM. Qed.
Lemma totalZ (a : F) (ds : list 'cV[F]_n) : total [seq a *: v | v <- ds] = `|a| * total ds.
Proof. by rewrite /total big_map mulr_sumr; apply: eq_bigr => v _; exact: normZ. Qed.
Lemma total_cat (d1 d2 : list 'cV[F]_n) : total (d1 ++ d2) = total d1 + total d2.
Proof. by rewrite /total big_cat. Qed.
Lemma norm10 : norm1 (0 : 'cV[F]_n) = 0.
Proof. by rewrite /norm1 big1 // => i _; rewrite mxE normr0. Qed.
Lemma gap_total (tr : traj M) : (gap_l1 tr : F) = total (gaps (run tr) (trm tr)).
Proof.
rewrite /gap_l1 /gaps total_cat {2}/total big_seq1; congr (_ + _).
suff gen : forall ls (acc : F), List.fold_left (fun a (nd : node) => radd E a (vl1 E (fs nd))) ls acc
   = acc + total [seq (fs nd : 'cV[F]_n) | nd : node <- ls] by rewrite gen add0r.
elim=> [|nd ls IH] acc; first by rewrite /total big_nil /= addr0.
by rewrite /= IH /total big_cons addrA.
Qed.
Lemma get_xsE (tr : traj M) : get_xs tr = List.map (fun nd : node => px (pt nd)) (run tr) ++ [:: tx (trm tr)].
Proof. by []. Qed.
Lemma gaps_head (x0 : mX M) (r : round M) : round_facts x0 r ->
  exists ds, gaps (run (r_tr r)) (trm (r_tr r)) = (0 : 'cV[F]_n) :: ds.
Proof.
move=> [[_ [_ hg]] _ hx _ _]; move: hg; rewrite hx /gaps /= subrr.
by case: (run _) => [|nd ls] /=; [move=> ->; exists nil|move=> [-> _]; eexists].
Qed.
Lemma trial_head (a : R E) (x0 : mX M) (r : round M) : round_facts x0 r ->
  trial_next_x a (run (r_tr r)) (trm (r_tr r)) = x0.
Proof.
move=> [_ _ hx hdx _].
by move: hx hdx; case: (run _) => [|nd ls] /= -> e; rewrite ?/trial_tx ?/trial_x /= e scaler0 addr0.
Qed.

(** a round on a problem with affine dynamics: defects at the iterate and at
    every trial *)
Lemma round_defects (x0 : mX M) (r : round M) :
  (forall sl, List.In sl l -> affine_dynamics (sl_m sl)) -> round_facts x0 r -> r_gap r = gap_l1 (r_tr r) ->
  exists ds, defects_of ms x0 (get_us (r_tr r)) (get_xs (r_tr r)) ds /\ (r_gap r : F) = total ds /\
    forall a : F, defects_of ms x0 (trial_us (a : R E) (r_tr r)) (trial_xs (a : R E) (r_tr r)) [seq (1 - a) *: v | v <- ds] /\
      (trial_gap (a : R E) (r_tr r) : F) = `|1 - a| * r_gap r.
Proof.
move=> ha hf hg; have [[[h1 h2] [[h3 h4] h5]] [hm1 hm2] hx hdx hl] := hf.
have [ds eds] := gaps_head hf.
exists (gaps (run (r_tr r)) (trm (r_tr r))).
rewrite -hm1. split; first by apply: fresh_defects.
split; first by rewrite hg gap_total.
move=> a.
have ha' nd : List.In nd (run (r_tr r)) -> affine_dynamics (nm nd).
  move=> hin; have := List.in_map (@nm E M) _ _ hin; rewrite hm1 => /List.in_map_iff [sl [<- hsl]].
  exact: ha.
have hgok : exists f, gaps_ok f (run (r_tr r)) (trm (r_tr r)) by eexists; exact: h5.
have := step_defects (a : R E) x0 ha' h1 h3 hgok hl.
rewrite (trial_head _ hf) subrr eds /= => hd.
have -> : (1 - a) *: (0 : 'cV[F]_n) = 0 by rewrite scaler0.
split; first exact: hd.
rewrite /trial_gap (@trial_defectsP _ _ _ (a : R E) _ _ (r0 E) _ _ hd) /= add0r hg gap_total eds {2}/total big_cons norm10 add0r.
exact: totalZ.
Qed.

(** C12 (SolverSQP).  On a problem with affine dynamics, in every call of solve
    on every object, for every round that starts from data evaluated at its
    iterate (the first one, and every one after an accepted step): if ds are the
    defects of the iterate then the gap norm is their total 1-norm, and for every
    step length a the trial trajectory has exactly the defects (1-a) ds and the
    trial's gap norm is |1-a| times the iterate's. *)
Theorem C12_sqp_defects_scale k s x0 (c : scfg E) fuel xs us maxiter reg b s' :
  (forall sl, List.In sl l -> affine_dynamics (sl_m sl)) ->
  sqp_hist l t resize k s -> sqp_solve x0 c fuel xs us maxiter reg s = Ret b s' ->
  exists rs last, sqp_run l x0 c xs us maxiter reg s rs last b s' /\
    forall i r, List.nth_error rs i = Some r -> evaluated_at rs i ->
    exists ds, defects_of ms x0 (get_us (r_tr r)) (get_xs (r_tr r)) ds /\ (r_gap r : F) = total ds /\
      forall a : F, defects_of ms x0 (trial_us (a : R E) (r_tr r)) (trial_xs (a : R E) (r_tr r)) [seq (1 - a) *: v | v <- ds] /\
        (trial_gap (a : R E) (r_tr r) : F) = `|1 - a| * r_gap r.
Proof.
move=> ha hh hs; have [rs [last [hr _]]] := sqp_solve_run Tpos hh hs.
exists rs, last; split=> // i r hi he; apply: round_defects => //; first exact: rounds_facts hh hr _ _ hi he.
by have [] := run_values hr (List.nth_error_In _ _ hi).
Qed.

(** ** C11: linear-quadratic problems *)
Hypothesis lq_running : forall sl, List.In sl l -> lq_action (sl_m sl).
Hypothesis lq_term : lq_terminal (ts_m t).

(** zero regularisation throughout: initial value 0, reg_min = 0 <= reg_max *)
Definition zero_reg (c : cfg E) (reg : option (R E)) : Prop :=
  (init_reg c reg : F) = 0 /\ (c_rmin c : F) = 0 /\ 0 <= (c_rmax c : F).
Lemma zero_reach (c : cfg E) reg q : zero_reg c reg -> reg_reach c (init_reg c reg) q -> (q : F) = 0.
Proof.
move=> [h0 [h1 h2]]; elim=> [//|q' _ ih|q' _ ih]; rewrite /inc_reg /dec_reg.
  have -> : rmul E q' (c_inc c) = 0 :> F by rewrite /= ih mul0r.
  by rewrite /rgt /=; case: ltP => // h3; have := le_lt_trans h2 h3; rewrite ltxx.
have -> : rdiv E q' (c_dec c) = 0 :> F by rewrite /= ih mul0r.
by rewrite /=; case: ltP => //; rewrite h1 ltxx.
Qed.

Lemma in_models (tr : traj M) nd : List.map (@nm E M) (run tr) = ms -> List.In nd (run tr) -> lq_action (nm nd).
Proof.
move=> hm hin; have := List.in_map (@nm E M) _ _ hin; rewrite hm => /List.in_map_iff [sl [<- hsl]].
exact: lq_running.
Qed.
Lemma lq_traj_sym x0 (tr : traj M) : List.map (@nm E M) (run tr) = ms -> tm (trm tr) = ts_m t ->
  consistent x0 tr -> traj_sym tr.
Proof.
move=> h1 h2 [_ [[h3 h4] _]]; split.
  move=> nd hin.
  have [_ [Q [S [R0 [q [r [k [[sQ sR] _ _ hh]]]]]]]] := in_models h1 hin.
  have hd : diffed_node nd by move/List.Forall_forall: h3; apply.
  rewrite /node_sym hd.
  by have [-> [_ ->]] := hh (mem nd) (px (pt nd)) (pu (pt nd)).
rewrite /tnode_sym h4.
by move: (lq_term); rewrite -h2 => -[Q [q [k [sQ _ _ hh]]]]; rewrite hh.
Qed.
(** the direction of a call of computeDirection that left [tr] *)
Lemma direction_kkt x0 (c : scfg E) (tr : traj M) s1 rc s2 :
  List.map (@nm E M) (run tr) = ms -> tm (trm tr) = ts_m t -> consistent x0 tr ->
  hd_dx (run tr) (trm tr) = vzero E ->
  sqp_computeDirection x0 c rc s1 = (true, s2) -> tr = q_tr s2 -> (q_preg s1 : F) = 0 -> q_dreg s1 = q_preg s1 ->
  lq_kkt 0 (sqp_stages (M := M) false 0 0 (run tr) (trm tr)) (SubQP.sqp_final (M := M) 0 (trm tr)).
Proof.
move=> h1 h2 hc hdx hs e p0 d0.
have hdx1 : (hd_dx (run (q_tr s1)) (trm (q_tr s1)) : 'cV[F]_n) = 0.
  by have := SQPDir.sqp_direction_hd_dx x0 c rc s1; rewrite hs /= -e hdx => <-.
have hsym := lq_traj_sym h1 h2 hc; rewrite e in hsym.
by have [+ _] := C01_sqp_direction_kkt hs hsym hdx1; rewrite d0 p0 -e.
Qed.

Lemma small0 m (v : 'cV[F]_m) : v = 0 -> small 0 v.
Proof. by move=> -> i; rewrite mxE normr0. Qed.
Lemma kkt_small (ls : list node) (tn : tnode) : kkt_multipliers (M := M) ls tn (multipliers ls tn) -> stat_small 0 ls tn.
Proof.
elim: ls => [|nd ls IH]; first by move=> /= h; apply: small0; rewrite h subrr.
have hl : head 0 (multipliers (M := M) ls tn) = next_lam ls tn by case: (ls).
case; rewrite -/(multipliers ls tn) hl => h1 h2 h3; split.
- by apply: small0; rewrite h1 subrr.
- exact: small0 h2.
- exact: IH.
Qed.
(** a trajectory with zero defects that is stationary has a zero residual after
    the next direction *)
Lemma kkt_point_residual x0 (c : scfg E) (tr : traj M) s1 rc s2 ds las :
  List.map (@nm E M) (run tr) = ms -> tm (trm tr) = ts_m t -> consistent x0 tr ->
  hd_dx (run tr) (trm tr) = vzero E ->
  sqp_computeDirection x0 c rc s1 = (true, s2) -> tr = q_tr s2 ->
  defects_of ms x0 (get_us tr) (get_xs tr) ds -> (forall v, List.In v ds -> v = 0) ->
  stationary ms (ts_m t) (get_us tr) (get_xs tr) las ->
  (kkt_residual tr : F) = 0.
Proof.
move=> h1 h2 hc hdx hs e hd hz hst.
have hsym := lq_traj_sym h1 h2 hc; rewrite e in hsym.
have hdx1 : (hd_dx (run (q_tr s1)) (trm (q_tr s1)) : 'cV[F]_n) = 0.
  by have := SQPDir.sqp_direction_hd_dx x0 c rc s1; rewrite hs /= -e hdx => <-.
have [[f1 f2] [[f3 f4] f5]] := hc.
have hg : ds = gaps (run tr) (trm tr).
  by apply: (defects_fun hd); rewrite -h1; exact: fresh_defects.
have zg : zero_gaps (run tr) (trm tr).
  split=> [nd hin|]; apply: hz; rewrite hg /gaps.
    by apply: List.in_or_app; left; rewrite /map; apply/List.in_map_iff; exists nd.
  by apply: List.in_or_app; right; left.
have km : kkt_multipliers (run tr) (trm tr) las.
  by apply: fresh_stationary => //; rewrite h1 h2.
rewrite e in zg km.
have [zd hm] := C05_direction_zero_at_kkt hs hsym hdx1 zg km.
rewrite -hm -e in km.
have h0 : (kkt_residual tr : F) <= 0.
  apply/C06_kkt_norm => //; split; first exact: kkt_small.
  by rewrite -e in zg; case: zg => z1 z2; split=> [nd hin|]; apply: small0 => //; exact: z1.
by apply/eqP; rewrite eq_le h0 C06_kkt_nonneg.
Qed.

(** ** The unit step of a round *)
Lemma round_kkt k s x0 (c : scfg E) xs us maxiter reg rs last b s' :
  zero_reg (sc_ddp c) reg ->
  sqp_hist l t resize k s -> sqp_run l x0 c xs us maxiter reg s rs last b s' ->
  forall i r, List.nth_error rs i = Some r -> evaluated_at rs i ->
  lq_kkt 0 (sqp_stages (M := M) false 0 0 (run (r_tr r)) (trm (r_tr r))) (SubQP.sqp_final (M := M) 0 (trm (r_tr r))).
Proof.
move=> hz hh hr i r hi he; have hf := rounds_facts hh hr hi he.
have [hc [hm1 hm2] _ hdx _] := hf.
have [s1 [rc [s2 [hp [hd [h [e _]]]]]]] := run_dir hr (List.nth_error_In _ _ hi).
exact: direction_kkt hm1 hm2 hc hdx h e (zero_reach hz hp) hd.
Qed.
Lemma affine_of_lq sl : List.In sl l -> affine_dynamics (sl_m sl).
Proof. by move=> /lq_running []. Qed.
Lemma unit_step k s x0 (c : scfg E) xs us maxiter reg rs last b s' :
  zero_reg (sc_ddp c) reg ->
  sqp_hist l t resize k s -> sqp_run l x0 c xs us maxiter reg s rs last b s' ->
  forall i r, List.nth_error rs i = Some r -> evaluated_at rs i ->
  exists ds las, defects_of ms x0 (trial_us (1 : R E) (r_tr r)) (trial_xs (1 : R E) (r_tr r)) ds /\
    (forall v, List.In v ds -> v = 0) /\ las = multipliers (run (r_tr r)) (trm (r_tr r)) /\
    stationary ms (ts_m t) (trial_us (1 : R E) (r_tr r)) (trial_xs (1 : R E) (r_tr r)) las.
Proof.
move=> hz hh hr i r hi he; have hf := rounds_facts hh hr hi he.
have [hg _] := run_values hr (List.nth_error_In _ _ hi).
have [ds [_ [_ hd]]] := round_defects affine_of_lq hf hg.
have [{}hd _] := hd 1.
eexists _, _; split; first exact: hd.
split.
  by move=> v /List.in_map_iff [w [<- _]]; rewrite subrr scale0r.
split=> //.
have [[[f1 f2] [[f3 f4] f5]] [hm1 hm2] _ _ _] := hf.
rewrite -hm1 -hm2; apply: trial_stationary => //; [|by rewrite hm2|exact: round_kkt hz hh hr _ _ hi he].
by move=> nd; exact: in_models.
Qed.

Lemma iterates_next xs us (rs : list (round M)) xs' us' i r : iterates xs us rs xs' us' -> List.nth_error rs i = Some r ->
  match List.nth_error rs (S i) with
  | Some r' => get_xs (r_tr r') = next_xs r /\ get_us (r_tr r') = next_us r
  | None => xs' = next_xs r /\ us' = next_us r
  end.
Proof.
elim: rs i xs us => [|r1 rs IH] [|i] xs us //= [_ [_ hi]].
  by move=> [<-]; case: rs hi {IH} => [|r2 rs] //= [-> [-> _]].
exact: IH hi.
Qed.
Lemma le_of (x y : F) : rle E (x : R E) (y : R E) = (x <= y).
Proof. by []. Qed.

Lemma unit_accepted k s x0 (c : scfg E) xs us maxiter reg rs last b s' :
  zero_reg (sc_ddp c) reg -> 0 <= (c_tol (sc_ddp c) : F) ->
  sqp_hist l t resize k s -> sqp_run l x0 c xs us maxiter reg s rs last b s' ->
    forall i r, List.nth_error rs i = Some r -> evaluated_at rs i ->
    (exists ds, defects_of ms x0 (trial_us (1 : R E) (r_tr r)) (trial_xs (1 : R E) (r_tr r)) ds /\
      (forall v, List.In v ds -> v = 0)) /\
    stationary ms (ts_m t) (trial_us (1 : R E) (r_tr r)) (trial_xs (1 : R E) (r_tr r))
       (multipliers (run (r_tr r)) (trm (r_tr r))) /\
    (forall a, r_acc r = Some a -> (a_step a : F) = 1 ->
       S i = List.length rs /\
       get_xs (q_tr s') = trial_xs (1 : R E) (r_tr r) /\ get_us (q_tr s') = trial_us (1 : R E) (r_tr r) /\
       (last = true -> b = true /\ (q_kkt s' : F) = 0)).
Proof.
move=> hz htol hh hr i r hi he.
have [ds [las [u1 [u2 [u3 u4]]]]] := unit_step hz hh hr hi he.
split; first by exists ds.
split; first by rewrite -u3.
move=> a ha ea.
have eN : next_xs r = trial_xs (1 : R E) (r_tr r) /\ next_us r = trial_us (1 : R E) (r_tr r).
  by rewrite /next_xs /next_us ha; move: ea => /= ->.
have := iterates_next (run_iterates hr) hi.
have heS : evaluated_at rs (S i) by right; exists r, a; rewrite /= Nat.sub_0_r.
case hi' : (List.nth_error rs (S i)) => [r'|].
  case; rewrite (proj1 eN) (proj2 eN) => ex eu.
  have [hc' [hm1 hm2] _ hdx' _] := rounds_facts hh hr hi' heS.
  have hin := List.nth_error_In _ _ hi'.
  have [s1 [rc [s2 [_ [_ [h [e _]]]]]]] := run_dir hr hin.
  have hk : (kkt_residual (r_tr r') : F) = 0.
    by apply: (kkt_point_residual hm1 hm2 hc' hdx' h e) => //; rewrite ?ex ?eu; [exact: u1|exact: u2|exact: u4].
  by have [-> ] := run_kkt hr hin; rewrite le_of hk htol.
case; rewrite (proj1 eN) (proj2 eN) => ex eu.
have hlen : S i = List.length rs.
  apply: Nat.le_antisymm; first by apply/List.nth_error_Some; rewrite hi.
  exact/List.nth_error_None.
do 3 split=> //.
move=> hl; have := run_result hr; rewrite hl => -[eb [ek [_ hre]]].
rewrite -hlen in hre; have hc' := reeval_id (hre heS).
have [s1 [rc [s2 [_ [_ [h [e hdx']]]]]]] := run_last hr hl.
rewrite -e in hdx'.
have := proj1 (run_models hr); rewrite (proj1 (hist_models Tpos hh)) /models => -[hm1 hm2].
have hk : (kkt_residual (q_tr s') : F) = 0.
  by apply: (kkt_point_residual hm1 hm2 hc' hdx' h e) => //; rewrite ?ex ?eu; [exact: u1|exact: u2|exact: u4].
by rewrite eb ek le_of hk htol.
Qed.
(** C11a.  On an LQ problem with zero regularisation: whatever the guess and the
    history of the object, the unit trial of every round that starts from
    evaluated data has zero defects and is a stationary point of the optimal
    control problem, with the round's multipliers; and once a unit step is
    accepted, that trajectory is returned after no further line search and, if
    solve still checks the residual, it is exactly 0 and solve returns true. *)
Theorem C11_sqp_unit_step_solves_lq k s x0 (c : scfg E) fuel xs us maxiter reg b s' :
  zero_reg (sc_ddp c) reg -> 0 <= (c_tol (sc_ddp c) : F) ->
  sqp_hist l t resize k s -> sqp_solve x0 c fuel xs us maxiter reg s = Ret b s' ->
  exists rs last, sqp_run l x0 c xs us maxiter reg s rs last b s' /\
    forall i r, List.nth_error rs i = Some r -> evaluated_at rs i ->
    (exists ds, defects_of ms x0 (trial_us (1 : R E) (r_tr r)) (trial_xs (1 : R E) (r_tr r)) ds /\
      (forall v, List.In v ds -> v = 0)) /\
    stationary ms (ts_m t) (trial_us (1 : R E) (r_tr r)) (trial_xs (1 : R E) (r_tr r))
       (multipliers (run (r_tr r)) (trm (r_tr r))) /\
    (forall a, r_acc r = Some a -> (a_step a : F) = 1 ->
       S i = List.length rs /\
       get_xs (q_tr s') = trial_xs (1 : R E) (r_tr r) /\ get_us (q_tr s') = trial_us (1 : R E) (r_tr r) /\
       (last = true -> b = true /\ (q_kkt s' : F) = 0)).
Proof.
move=> hz htol hh hs; have [rs [last [hr _]]] := sqp_solve_run Tpos hh hs.
by exists rs, last; split=> //; exact: unit_accepted hz htol hh hr.
Qed.

(** ** C11b: the default line search takes the unit step *)
Fixpoint zeroc (st : seq (stage F n)) : controls st :=
  match st with [::] => tt | s :: st' => (0, zeroc st') end.
Lemma zeroc_value ls (tn : tnode) : zero_gaps (M := M) ls tn ->
  lq_value (0 : 'cV[F]_n) (SubQP.sqp_final (M := M) 0 tn) (zeroc (sqp_stages (M := M) false 0 0 ls tn)) = 0.
Proof.
elim: ls => [|nd ls IH] zg.
  by rewrite /= quadE dotE qf0r bf0r mul0r addr0.
have zg' := zero_gaps_tl zg.
cbn [sqp_stages zeroc lq_value fst snd]. rewrite /gap_of (hd_fs0 zg') /= !mulmx0 !addr0 IH //.
by rewrite /stage_cost !quadE !dotE !qf0r !bf0r !bf0l !mul0r !addr0.
Qed.
Lemma zeroc_du ls (tn : tnode) : own_controls (sqp_stages (M := M) false 0 0 ls tn) = zeroc (sqp_stages (M := M) false 0 0 ls tn) ->
  forall nd, List.In nd ls -> (du (dir nd) : 'cV[F]_(nu (nm nd))) = 0.
Proof.
by elim: ls => [|nd ls IH] //= [h1 h2] nd' [<-|/(IH h2)].
Qed.
Lemma lin_zero (ls : list node) (tn : tnode) : zero_gaps (M := M) ls tn -> lin_dyn ls tn ->
  (hd_dx ls tn : 'cV[F]_n) = 0 -> (forall nd, List.In nd ls -> (du (dir nd) : 'cV[F]_(nu (nm nd))) = 0) ->
  zero_direction (M := M) ls tn.
Proof.
elim: ls => [|nd ls IH] zg hl hx hu; first by split.
case: hl => hl1 hl2.
have hu1 := hu nd (or_introl erefl).
have hx' : (hd_dx ls tn : 'cV[F]_n) = 0.
  by move: hx => /= hx; rewrite hl1 hu1 hx (hd_fs0 (zero_gaps_tl zg)) !mulmx0 !addr0.
have [d1 d2] := IH (zero_gaps_tl zg) hl2 hx' (fun m h => hu m (or_intror h)).
by split=> // m [<-|/d1].
Qed.
Lemma norm1_0 (v : 'cV[F]_n) : norm1 v = 0 -> v = 0.
Proof.
move=> h; apply/matrixP => i j; rewrite ord1 mxE; apply/eqP; rewrite -normr_eq0 eq_le normr_ge0 andbT.
by rewrite -h /norm1 (bigD1 i) //= ler_addl sumr_ge0.
Qed.
Lemma norm1_ge0 (v : 'cV[F]_n) : 0 <= norm1 v.
Proof. by rewrite /norm1 sumr_ge0. Qed.
Lemma total_0 (ds : list 'cV[F]_n) : total ds <= 0 -> forall v, List.In v ds -> v = 0.
Proof.
elim: ds => [|d ds IH] //; rewrite /total big_cons -/(total ds).
have g0 : 0 <= total ds by rewrite /total sumr_ge0 // => w _; exact: norm1_ge0.
move=> h v [<-|hv].
  by apply: norm1_0; apply/eqP; rewrite eq_le norm1_ge0 andbT (le_trans _ h) // ler_addl.
by apply: IH => //; apply: le_trans h; rewrite ler_addr norm1_ge0.
Qed.
Lemma gaps_total0 (tr : traj M) : total (gaps (run tr) (trm tr)) <= 0 -> zero_gaps (run tr) (trm tr).
Proof.
move=> /total_0 h; split=> [nd hin|]; apply: h; rewrite /gaps; apply: List.in_or_app; [left|by right; left].
by apply/List.in_map_iff; exists nd.
Qed.

Lemma unit_not_dominated k s x0 (c : scfg E) xs us maxiter reg rs last b s' :
  zero_reg (sc_ddp c) reg -> 0 <= (c_tol (sc_ddp c) : F) ->
  sqp_hist l t resize k s -> sqp_run l x0 c xs us maxiter reg s rs last b s' ->
  forall i r, List.nth_error rs i = Some r -> evaluated_at rs i ->
  dominates (sqp_rule c) (trial_of (sqp_rule c) (r_tr r) (1 : R E)) r = false.
Proof.
move=> hz htol hh hr i r hi he; have hf := rounds_facts hh hr hi he.
have hin := List.nth_error_In _ _ hi.
have [hg _] := run_values hr hin.
have [ds [_ [_ hd]]] := round_defects affine_of_lq hf hg.
have [_ hgap] := hd 1; rewrite subrr normr0 mul0r in hgap.
have [hre hcost] := run_evaluated hr hi he; rewrite hre in hcost.
have [[[f1 f2] [[f3 f4] f5]] [hm1 hm2] hx hdx hl] := hf.
have [kk1 kk2] := run_kkt hr hin.
apply/negP; rewrite /dominates /= => /andP [/andP [h1 h2] _].
have {}h1 : (r_cost r : F) <= trial_cost (1 : R E) (r_tr r) by exact: h1.
have {}h2 : (r_gap r : F) <= trial_gap (1 : R E) (r_tr r) by exact: h2.
rewrite hgap hg gap_total in h2.
have zg := gaps_total0 h2.
have [s1 [rc [s2 [hp [hdr [h [e _]]]]]]] := run_dir hr hin.
have p0 := zero_reach hz hp.
have hsym := lq_traj_sym hm1 hm2 (rf_cons hf).
have hdx1 : (hd_dx (run (q_tr s1)) (trm (q_tr s1)) : 'cV[F]_n) = 0.
  by have := SQPDir.sqp_direction_hd_dx x0 c rc s1; rewrite h /= -e hdx => <-.
have hdu : forall nd, List.In nd (run (r_tr r)) -> (du (dir nd) : 'cV[F]_(nu (nm nd))) = 0.
  case ez: (all (fun nd : node => (du (dir nd) : 'cV[F]_(nu (nm nd))) == 0) (run (r_tr r))).
    move=> nd; elim: (run (r_tr r)) ez => [|m ls IH] //= /andP [/eqP e1 e2] [<-//|]; exact: IH.
  have ne : own_controls (sqp_stages (M := M) false 0 0 (run (r_tr r)) (trm (r_tr r))) <>
            zeroc (sqp_stages (M := M) false 0 0 (run (r_tr r)) (trm (r_tr r))).
    move=> /zeroc_du h0; move: ez; suff -> : all (fun nd : node => (du (dir nd) : 'cV[F]_(nu (nm nd))) == 0) (run (r_tr r)) by [].
    elim: (run (r_tr r)) h0 => [|m ls IH] //= h0; rewrite (h0 _ (or_introl erefl)) eqxx /=.
    by apply: IH => nd hnd; apply: h0; right.
  rewrite e in hsym.
  have := C02_sqp_direction_unique_minimiser h hsym hdx1; rewrite hdr p0 -e => /(_ _ (not_eq_sym ne)).
  rewrite (zeroc_value zg).
  have ht : lq_terminal (tm (trm (r_tr r))) by rewrite hm2.
  have := @cost_step _ _ _ (run (r_tr r)) (trm (r_tr r)) 0 0 (fun nd => @in_models (r_tr r) nd hm1) ht f1 f3 f2 f4 hl.
  rewrite !add0r.
  have -> : hd_dx (run (r_tr r)) (trm (r_tr r)) = (0 : 'cV[F]_n) by exact: hdx.
  move=> hc hlt; exfalso.
  have : (trial_cost (1 : R E) (r_tr r) : F) < r_cost r.
    by rewrite hcost; apply: (@eq_ind_r _ _ (fun v => v < _) _ _ hc); rewrite gtr_addl.
  by rewrite ltNge h1.
have zd := lin_zero zg hl hdx hdu.
rewrite e in zg zd hsym.
have km := C05_kkt_at_zero_direction h hsym hdx1 zg zd; rewrite -e in km zg.
have h0 : (kkt_residual (r_tr r) : F) <= 0.
  apply/C06_kkt_norm => //; split; first exact: kkt_small.
  by case: zg => z1 z2; split=> [nd hnd|]; apply: small0 => //; exact: z1.
by move: kk2; rewrite le_of kk1 (le_trans h0 htol).
Qed.

(** C11b.  On an LQ problem with zero regularisation and the default (filter)
    line search starting with step length 1: solve makes at most one line search,
    if the unit trial costs stay below the 1e30 guard; a line search leads to a
    trajectory with zero defects that is a stationary point; and with at least
    two iterations allowed solve returns true. *)
Theorem C11_sqp_lq_one_line_search k s x0 (c : scfg E) fuel xs us maxiter reg b s' als :
  (forall m m', resize m m' -> (m <= m')%coq_nat) ->
  zero_reg (sc_ddp c) reg -> 0 <= (c_tol (sc_ddp c) : F) -> 0 < (c_rmax (sc_ddp c) : F) ->
  sc_filter c = true -> sc_fsize c = k -> c_alphas (sc_ddp c) = (1 : R E) :: als ->
  sqp_hist l t resize k s -> sqp_solve x0 c fuel xs us maxiter reg s = Ret b s' ->
  exists rs last, sqp_run l x0 c xs us maxiter reg s rs last b s' /\
    ((forall r, List.In r rs -> trial_ok (1 : R E) (r_tr r) = true) ->
     (List.length rs <= 1)%coq_nat /\ ((2 <= maxiter)%coq_nat -> b = true) /\
     (rs <> nil ->
       (exists ds, defects_of ms x0 (get_us (q_tr s')) (get_xs (q_tr s')) ds /\ forall v, List.In v ds -> v = 0) /\
       exists las, stationary ms (ts_m t) (get_us (q_tr s')) (get_xs (q_tr s')) las)).
Proof.
move=> grow hz htol hmax hfl hk hal hh hs; have [rs [last [hr hsr]]] := sqp_solve_run Tpos hh hs.
exists rs, last; split=> // hok.
have {}hsr : rounds_searched (sqp_rule c) rs.
  by apply: hsr => _; rewrite /bufs hk; apply: (hist_bufs Tpos grow hh).
have hC := unit_accepted hz htol hh hr.
have hacc r : List.nth_error rs 0 = Some r -> exists2 a, r_acc r = Some a & (a_step a : F) = 1.
  move=> h0; have he : evaluated_at rs 0 by left.
  have := hsr 0%N r h0; rewrite /= hal /=.
  have -> : admissible (sqp_rule c) [::] r (1 : R E) = true.
    rewrite /admissible (hok _ (List.nth_error_In _ _ h0)) /= hfl /=.
    have hd := unit_not_dominated hz htol hh hr h0 he.
    rewrite /recent /=; case: (sc_fsize c) => [|m] //=.
    by rewrite List.firstn_nil /= orbF hd.
  by move=> -> /=; eexists.
have hlen : (List.length rs <= 1)%coq_nat.
  case e0: (List.nth_error rs 0) => [r|]; last first.
    by move/List.nth_error_None: e0 => e0; apply: Nat.le_trans e0 _; exact: Nat.le_0_1.
  have [a ha ea] := hacc r e0.
  have [_ [_ /(_ a ha ea) [<- _]]] := hC 0%N r e0 (or_introl erefl).
  exact: Nat.le_refl.
split=> //; split.
- have hit := run_iter hr; have [hpr _] := run_reg hr.
  move=> h2; case: b hs {hr hsr hC} => // hs.
  case: (solve_exit hs) => h3.
    by have := Nat.le_trans _ _ _ h2 (Nat.le_trans _ _ _ (Nat.eq_le_incl _ _ (esym h3)) (Nat.le_trans _ _ _ hit hlen)) => /ssrnat.leP.
  have := zero_reach hz hpr => p0; exfalso; move: h3 hmax.
  have -> : req E (q_preg s') (c_rmax (sc_ddp c)) = ((q_preg s' : F) == c_rmax (sc_ddp c)) by [].
  by rewrite p0 => /eqP <-; rewrite ltxx.
case ers: rs => [//|r rs1] _.
have e0 : List.nth_error rs 0 = Some r by rewrite ers.
have [a ha ea] := hacc r e0.
have [[ds u1] [u2 /(_ a ha ea) [_ [-> [-> _]]]]] := hC 0%N r e0 (or_introl erefl).
by split; [exists ds | eexists; exact: u2].
Qed.
End Run.
End A.
