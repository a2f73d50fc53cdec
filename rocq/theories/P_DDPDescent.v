(** * C47, C56: the expected decrease of SolverDDP, descent, and linear-quadratic problems
    (exact arithmetic). *)
From Coq Require Import Ring Field ZArith PeanoNat List.
Set Warnings "-notation-overridden,-ambiguous-paths".
From mathcomp Require Import all_ssreflect all_algebra.
From Verif Require Import FieldTac Eigen EigenExact ExactLemmas Problem DDP SQP CSQP LQSpec Riccati SubQP PassExact RollSpec DDPLoop DDPSpec DDPRun P_DDP Models Affine AffineStep DDPExact.

Set Implicit Arguments.
Unset Strict Implicit.
Unset Printing Implicit Defensive.

Import Order.TTheory GRing.Theory Num.Theory.
Local Open Scope ring_scope.

Section General.
Variable F : realFieldType.
Variable sq : F -> F.
Notation E := (ExactE sq).
Variable M : manifold E.
Notation n := (mndx M).
Notation node := (node M).
Notation tnode := (tnode M).

(** symmetric Hessians *)
Definition sym_model (m : amodel M) : Prop := forall e x u,
  is_sym (Lxx (adiff m e x u) : 'M[F]_n) /\ is_sym (Luu (adiff m e x u) : 'M[F]_(nu m)).
Definition sym_tmodel (m : tmodel M) : Prop := forall e x, is_sym (tLxx (tdiff m e x) : 'M[F]_n).

Lemma lin_sym feas (xin : mX M) acc (l : seq node) (tn : tnode) cost : linearised feas xin acc l tn cost ->
  (forall nd, List.In nd l -> sym_model (nm nd)) -> sym_tmodel (tm tn) ->
  (forall nd, List.In nd l -> node_sym nd) /\ tnode_sym tn.
Proof.
move=> h hm ht; elim: l xin acc h hm => [|nd l IH] xin acc.
  by move=> [_ [h _]] _; split=> //; rewrite /tnode_sym h; exact: ht.
move=> [_ [e [_ [hd h]]]] hm; have [h1 h2] := IH _ _ h (fun m hin => hm m (or_intror hin)); split=> // m [<-|]; last exact: h1.
by rewrite /node_sym hd; exact: hm (or_introl erefl) _ _ _.
Qed.
Lemma agree_sym (l l' : seq node) : List.Forall2 (@agree E M) l l' -> (forall nd, List.In nd l' -> node_sym nd) -> forall nd, List.In nd l -> node_sym nd.
Proof.
elim=> [|a b q q' [p [me [v [e [w [_ [_ ->]]]]]]] _ ih] //= h nd [<-|hin]; last by apply: ih hin => m hm; apply: h; right.
by have := h _ (or_introl erefl).
Qed.
(** facts about a trajectory whose gains come from a successful backward pass *)
Lemma bwd_facts (preg dreg : R E) feas (t t' : traj M) : backwardPass preg dreg feas t = (true, t') ->
  (forall nd, List.In nd (run t') -> node_sym nd) -> tnode_sym (trm t') ->
  [/\ forall nd, List.In nd (run t') -> ff_ok nd, term_ok feas preg (trm t'),
      ric_ok (sqp_gsts feas preg dreg (run t') (trm t')) (SubQP.sqp_final preg (trm t'))
    & gsym (sqp_gsts feas preg dreg (run t') (trm t')) (SubQP.sqp_final preg (trm t'))].
Proof.
move=> hb hs ht; have [ha _] := bwd_agree preg dreg feas t; move: ha; rewrite hb; cbn [snd] => ha.
move: hb; rewrite /backwardPass; set tn := bwd_term _ _ _.
case e: (bwd_nodes _ _ _ _ _) => [b r]; cbn [fst snd] => -[eb et]; subst b.
have hs' := agree_sym ha hs.
have hk : term_ok feas preg tn by exact: bwd_term_ok.
have hn : tnode_sym tn by rewrite -et in ht.
rewrite -et; cbn [run trm].
by have [h1 h2 h3 _] := bwd_nodes_ok e hs' hk hn; split=> //; exact: (bwd_ff e hs' hk hn).
Qed.
Lemma bwd_slopes (preg dreg : R E) (t t' : traj M) : backwardPass preg dreg true t = (true, t') ->
  rslope (sqp_gsts true preg dreg (run t') (trm t')) (SubQP.sqp_final preg (trm t')) = slope (run t').
Proof.
rewrite /backwardPass; set tn := bwd_term _ _ _.
case e: (bwd_nodes _ _ _ _ _) => [b r]; cbn [fst snd] => -[eb <-]; subst b; cbn [run trm].
by apply: (bwd_slope e); exact: bwd_term_ok.
Qed.

(** C56: the decrease SolverDDP expects of a step is a(1 - a/2) times the non-negative slope
    sum Qu.k, which vanishes only if every control gradient Qu does *)
Theorem C56_ddp_expected_decrease (ms : list (amodel M)) (tmod : tmodel M) x0 c (r : accepted M) :
  (forall m, List.In m ms -> sym_model m) -> sym_tmodel tmod -> accepted_ok ms tmod x0 c r ->
  let D := slope (run (a_from r)) in
  let a : F := a_step r in
  [/\ (expected_decrease (a_step r) (run (a_from r)) : F) = a * (1 - a / 2%:R) * D, 0 <= D, 0 <= a <= 1
    & D = 0 <-> forall nd, List.In nd (run (a_from r)) -> nu (nm nd) <> 0%N -> (Qu (val nd) : 'cV[F]_(nu (nm nd))) = 0].
Proof.
move=> hm ht [_ hr em et hl [t hb] _ _ _] D a.
have hm' nd : List.In nd (run (a_from r)) -> sym_model (nm nd) by move=> h; apply: hm; rewrite -em; exact: List.in_map.
have [h1 h2] := lin_sym hl hm' ltac:(by rewrite et).
have [hf _ _ _] := bwd_facts hb h1 h2.
split; [exact: expected_exact hf|exact: slope_ge0 hf| |exact: slope0 hf].
move: hr; rewrite /rgt /= => /norP [g1 g2]; by rewrite !leNgt g1 g2.
Qed.
Lemma gain_ge0 (a D : F) : 0 <= a <= 1 -> 0 <= D -> 0 <= a * (1 - a / 2%:R) * D.
Proof.
move=> /andP [h0 h1] hD; rewrite mulr_ge0 // mulr_ge0 // subr_ge0.
by rewrite ler_pdivr_mulr ?ltr0n // mul1r; apply: le_trans h1 _; rewrite ler1n.
Qed.

(** C56: a step accepted from a feasible candidate whose slope is not below th_grad
    decreases the cost by more than th_acceptstep times the expected decrease *)
Theorem C56_ddp_accepted_step_descends (ms : list (amodel M)) (tmod : tmodel M) x0 c (r : accepted M) :
  (forall m, List.In m ms -> sym_model m) -> sym_tmodel tmod -> accepted_ok ms tmod x0 c r ->
  0 <= (c_accept c : F) ->
  let D := slope (run (a_from r)) in
  let a : F := a_step r in
  a_feas r = true -> (c_grad c : F) <= D ->
  (c_accept c : F) * (a * (1 - a / 2%:R) * D) < (a_cost r : F) - (a_cost' r : F) /\ (a_cost' r : F) < (a_cost r : F).
Proof.
move=> hm ht hok hc D a hf hg; have [h1 h2 h3 _] := C56_ddp_expected_decrease hm ht hok.
have [_ hr] := ao_rule hok.
have {}hr : (c_accept c : F) * (a * (1 - a / 2%:R) * D) < (a_cost r : F) - (a_cost' r : F).
  case: hr => [|[|]]; rewrite ?hf //.
    rewrite sum_qukE add0r => h; have {}h : D < (c_grad c : F) by exact: h.
    by move: hg; rewrite leNgt h.
  by rewrite h1.
split=> //; rewrite -subr_gt0; apply: le_lt_trans hr.
by rewrite mulr_ge0 //; exact: gain_ge0.
Qed.

(** C56, for a call of solve: the accepted steps form a chain from the guess to the returned
    candidate; after the first of them (from the first, if the guess is declared feasible)
    every step whose slope is at least th_grad strictly decreases the cost *)
Fixpoint descends (c : cfg E) (feas : bool) (rs : list (accepted M)) : Prop :=
  match rs with
  | nil => True
  | r :: rs' => (feas = true -> (c_grad c : F) <= slope (run (a_from r)) -> (a_cost' r : F) < (a_cost r : F)) /\ descends c true rs'
  end.
Lemma chain_descends (ms : list (amodel M)) (tmod : tmodel M) (x0 : mX M) (c : cfg E) xs us feas cost (rs : list (accepted M)) :
  (forall m, List.In m ms -> sym_model m) -> sym_tmodel tmod -> 0 <= (c_accept c : F) ->
  List.Forall (accepted_ok ms tmod x0 c) rs -> chained xs us feas cost rs -> descends c feas rs.
Proof.
move=> hm ht hc; elim: rs xs us feas cost => [|r rs ih] xs us feas cost //= /List.Forall_cons_iff [h hs] [_ [_ [ef [_ hr]]]].
split; last exact: ih hs hr.
by move=> e hg; have [] := C56_ddp_accepted_step_descends hm ht h hc ltac:(by rewrite ef) hg.
Qed.
Theorem C56_ddp_solve_descends (x0 : mX M) (c : cfg E) fuel xs us maxiter feas reg (s s' : ddp M) b :
  models s <> nil -> (forall m, List.In m (models s) -> sym_model m) -> sym_tmodel (tmodel_of s) -> 0 <= (c_accept c : F) ->
  ddp_solve x0 c fuel xs us maxiter feas reg s = Ret b s' ->
  exists rs : list (accepted M),
    [/\ (length rs <= maxiter)%coq_nat, List.Forall (accepted_ok (models s) (tmodel_of s) x0 c) rs,
        chained (guess_states (length (models s)) xs) (guess_controls (models s) us) feas None rs,
        (let z := steps_from (guess_states (length (models s)) xs) (guess_controls (models s) us) feas None rs in
         get_xs (d_tr s') = fst (fst (fst z)) /\ get_us (d_tr s') = snd (fst (fst z)) /\
         (forall v, snd z = Some v -> d_cost s' = v))
      & descends c feas rs].
Proof.
move=> h0 hm ht hc e; have := C45_ddp_solve_is_a_chain_of_rollouts x0 c fuel xs us maxiter feas reg h0.
rewrite e => -[rs [k1 [k2 [k3 [k4 [k5 [_ k6]]]]]]]; exists rs; split=> //.
exact: chain_descends hm ht hc k2 k3.
Qed.
(** in particular no cost of the chain exceeds an earlier one when th_grad <= 0 *)
Theorem C56_ddp_final_cost (x0 : mX M) (c : cfg E) fuel xs us maxiter reg (s s' : ddp M) b :
  models s <> nil -> (forall m, List.In m (models s) -> sym_model m) -> sym_tmodel (tmodel_of s) ->
  0 <= (c_accept c : F) -> (c_grad c : F) <= 0 ->
  ddp_solve x0 c fuel xs us maxiter true reg s = Ret b s' ->
  (get_xs (d_tr s') = guess_states (length (models s)) xs /\ get_us (d_tr s') = guess_controls (models s) us) \/
  exists (tr : traj M) (cost : R E), [/\ linearised true x0 (r0 E) (run tr) (trm tr) cost,
     get_xs tr = guess_states (length (models s)) xs, get_us tr = guess_controls (models s) us & (d_cost s' : F) < (cost : F)].
Proof.
move=> h0 hm ht hc hg e; have [rs [_ h1 h2 [h3 [h4 h5]] h6]] := C56_ddp_solve_descends h0 hm ht hc e.
case: rs h1 h2 h3 h4 h5 h6 => [|r rs] h1 h2 h3 h4 h5 h6; first by left.
right; have [hr _] := proj1 (List.Forall_cons_iff _ _ _) h1.
case: (h2) => e1 [e2 [e3 [_ _]]]; exists (a_from r), (a_cost r); split=> //.
  by rewrite -e3; exact: ao_lin hr.
have gen (z : F) xs' us' feas' (cost : option (R E)) (q : list (accepted M)) : (forall v, cost = Some v -> (v : F) < z) -> cost <> None ->
    List.Forall (accepted_ok (models s) (tmodel_of s) x0 c) q -> chained xs' us' feas' cost q -> feas' = true ->
    exists2 v, snd (steps_from xs' us' feas' cost q) = Some v & (v : F) < z.
  elim: q xs' us' feas' cost => [|p q ih] xs' us' feas' cost hz hn /=.
    by case: cost hz hn => // v hz _ _ _ _; exists v => //; exact: hz.
  move=> /List.Forall_cons_iff [hp hq] [_ [_ [ef [hv hq']]]] et.
  have [_ g2 _ _] := C56_ddp_expected_decrease hm ht hp.
  have [_ lt] := C56_ddp_accepted_step_descends hm ht hp hc ltac:(by rewrite ef) (le_trans hg g2).
  apply: (ih _ _ true) => // v [<-]; apply: lt_trans lt _.
  by case: cost hz hn hv => // v' hz _ hv; rewrite (hv v' erefl); exact: hz.
have [_ g2 _ _] := C56_ddp_expected_decrease hm ht hr.
have [_ lt] := C56_ddp_accepted_step_descends hm ht hr hc e3 (le_trans hg g2).
move: h1 h2 h5 => /List.Forall_cons_iff [_ hs] [_ [_ [_ [_ hc']]]] h5.
have hz : forall v, Some (a_cost' r) = Some v -> (v : F) < (a_cost r : F) by move=> v [<-].
by have [v hv lt2] := gen (a_cost r : F) _ _ _ _ rs hz ltac:(done) hs hc' erefl; rewrite (h5 v hv).
Qed.
End General.

(** ** C47: linear-quadratic problems *)
Section LQ.
Variable F : realFieldType.
Variable sq : F -> F.
Notation E := (ExactE sq).
Variable n : nat.
Notation M := (euclid E n).
Notation node := (node M).
Notation tnode := (tnode M).

Definition lq_running (m : amodel M) : Prop := lq_action m /\ calc_agree m.
Lemma lq_sym (m : amodel M) : lq_action m -> @sym_model F sq M m.
Proof. by move=> [_ [Q [S [R0 [q [r [k [[sQ sR] _ _ hh]]]]]]]] e x u; have [-> [_ ->]] := hh e x u. Qed.
Lemma lqt_sym (m : tmodel M) : lq_terminal m -> @sym_tmodel F sq M m.
Proof. by move=> [Q [q [k [sQ _ _ hh]]]] e x; rewrite hh. Qed.
Lemma try_agree (a : R E) (x : mX M) (ld : vec E n) (l : seq node) (tn : tnode) (c : R E) b l' tn' c' :
  roll_nodes a x ld l tn c = (b, l', tn', c') -> b = true -> 
  fst (fst (fst (roll_nodes a x ld l tn c))) = true.
Proof. by move=> -> ->. Qed.

(** the achieved decrease of a trial of length [a] from a candidate that follows the dynamics *)
Theorem C47_ddp_trial_decrease (x0 : mX M) (s s' : ddp M) (t0 : traj M) (a : R E) :
  (forall nd, List.In nd (run (d_tr s)) -> lq_running (nm nd)) -> lq_terminal (tm (trm (d_tr s))) ->
  linearised true x0 (r0 E) (run (d_tr s)) (trm (d_tr s)) (d_cost s) ->
  follows_dynamics x0 (run (d_tr s)) (trm (d_tr s)) -> hd_xt (run (d_tr s)) (trm (d_tr s)) = x0 ->
  backwardPass (d_preg s) (d_dreg s) true t0 = (true, d_tr s) ->
  ddp_tryStep a s = (true, s') ->
  (d_cost s : F) - (d_costt s' : F) =
    (a : F) * (1 - (a : F) / 2%:R) * slope (run (d_tr s))
    + (d_preg s : F) * (state_motion (run (d_tr s')) (trm (d_tr s')) / 2%:R)
    + (d_dreg s : F) * (control_motion (run (d_tr s')) / 2%:R).
Proof.
move=> hm ht hl hf hx hb; rewrite /ddp_tryStep; case: (_ || _) => //; rewrite hx.
case er: (roll_nodes _ _ _ _ _ _) => [[[b l'] tn'] c']; cbn [fst snd] => -[eb <-]; subst b.
cbn [d_costt set_d_costt d_tr set_d_tr run trm].
have hm' nd : List.In nd (run (d_tr s)) -> @sym_model F sq M (nm nd) by move=> h; apply: lq_sym; exact: (proj1 (hm nd h)).
have [h1 h2] := lin_sym hl hm' (lqt_sym ht).
have [_ _ h3 h4] := bwd_facts hb h1 h2.
have er' : roll_nodes a ((x0 : 'cV[F]_n) + 0 : mX M) (vzero E) (run (d_tr s)) (trm (d_tr s)) (r0 E) = (true, l', tn', c') by rewrite addr0.
have := @roll_cost F sq n (d_preg s) (d_dreg s) a _ _ 0 _ _ _ _ _ _ _ _ hm ht hl hf er'.
have := pol_value (a : F) h3 h4 (@gsts_no_gaps F sq M _ _ _ _).
rewrite (bwd_slopes hb) => -> ->.
rewrite -[(r0 E : F)]/(0 : F) subr0 add0r.
move: (d_cost s : F) (_ * slope _) (_ * (state_motion _ _ / _)) (_ * (control_motion _ / _)) => b1 b2 b3 b4.
by rewrite !opprD !opprK !addrA subrr add0r.
Qed.

(** the same for a step in the list of step lengths: on a linear-quadratic problem the line
    search accepts the first step length whose roll-out does not overflow *)
Theorem C47_ddp_lq_accepts_first (x0 : mX M) (c : cfg E) (s s' : ddp M) (t0 : traj M) (a : R E) als :
  (forall nd, List.In nd (run (d_tr s)) -> lq_running (nm nd)) -> lq_terminal (tm (trm (d_tr s))) ->
  linearised true x0 (r0 E) (run (d_tr s)) (trm (d_tr s)) (d_cost s) ->
  follows_dynamics x0 (run (d_tr s)) (trm (d_tr s)) -> hd_xt (run (d_tr s)) (trm (d_tr s)) = x0 ->
  backwardPass (d_preg s) (d_dreg s) true t0 = (true, d_tr s) ->
  (d_d0 s, d_d1 s) = ddp_expected (run (d_tr s)) -> d_feas s = true ->
  0 <= (d_preg s : F) -> 0 <= (d_dreg s : F) -> (c_accept c : F) < 1 -> 0 < (c_grad c : F) \/ 0 < slope (run (d_tr s)) -> 0 < (a : F) ->
  ddp_tryStep a (set_d_step a s) = (true, s') ->
  exists s2, [/\ ddp_line_search c (a :: als) s = (true, s2), (d_step s2 : F) = a,
      d_tr s2 = accept_try (d_tr s'),
      (d_cost s2 : F) = (d_costt s' : F)
    & (a : F) * (1 - (a : F) / 2%:R) * slope (run (d_tr s)) <= (d_cost s : F) - (d_cost s2 : F)].
Proof.
move=> hm ht hl hf hx hb hd hfe hp hg hc hgr ha et.
have hdec := @C47_ddp_trial_decrease x0 (set_d_step a s) s' t0 a hm ht hl hf hx hb et.
have hm' nd : List.In nd (run (d_tr s)) -> @sym_model F sq M (nm nd) by move=> h; apply: lq_sym; exact: (proj1 (hm nd h)).
have [h1 h2] := lin_sym hl hm' (lqt_sym ht).
have [hff _ _ _] := bwd_facts hb h1 h2.
have hD := slope_ge0 hff.
have ha1 : 0 <= (a : F) <= 1.
  move: et; rewrite /ddp_tryStep; case er: (_ || _) => // _.
  by move: er; rewrite /rgt /= => /norP [g1 g2]; rewrite !leNgt g1 g2.
have hge := gain_ge0 ha1 hD.
have hdec2 : (a : F) * (1 - (a : F) / 2%:R) * slope (run (d_tr s)) <= (d_cost s : F) - (d_costt s' : F).
  rewrite -[d_cost s]/(d_cost (set_d_step a s)) hdec -addrA ler_addl addr_ge0 // mulr_ge0 // divr_ge0 ?ler0n //.
    rewrite /state_motion addr_ge0 //; last by rewrite dotE; exact: bf_ge0.
    by apply: sumr_ge0 => i _; rewrite dotE; exact: bf_ge0.
  by apply: sumr_ge0 => i _; rewrite dotE; exact: bf_ge0.
cbn [ddp_line_search]; rewrite et; cbn [fst snd].
move: hd; rewrite /ddp_expected expectedE => -[e0 e1].
have [fc [f0 [f1 ff]]] : d_cost s' = d_cost s /\ d_d0 s' = d_d0 s /\ d_d1 s' = d_d1 s /\ d_feas s' = d_feas s.
  by move: et; rewrite /ddp_tryStep; case: (_ || _) => // -[_ <-].
have fs : d_step s' = a.
  by move: et; rewrite /ddp_tryStep; case: (_ || _) => // -[_ <-].
cbn [d_cost d_costt d_d0 d_d1 d_feas d_dV d_dVexp set_d_dV set_d_dVexp]; rewrite fc f0 f1 ff hfe e0 e1.
rewrite -[rmul E a _]/(expected_decrease a (run (d_tr s))).
have hexp := expected_exact a hff.
set ex := expected_decrease a (run (d_tr s)) in hexp *.
have g1 : rge ex (r0 E) = true by rewrite /rge; have {}hge : 0 <= (ex : F) by rewrite hexp.
have g2 : rlt E (sum_quk (r0 E) (run (d_tr s))) (c_grad c) || ~~ true || rgt (rsub E (d_cost s) (d_costt s')) (rmul E (c_accept c) ex) = true.
  have hsq := sum_qukE (r0 E) (run (d_tr s)).
  rewrite -[(r0 E : F)]/(0 : F) add0r in hsq.
  case: (ltP (slope (run (d_tr s))) (c_grad c : F)) => hs.
    by apply/orP; left; apply/orP; left; rewrite -[rlt E _ _]/((sum_quk (r0 E) (run (d_tr s)) : F) < (c_grad c : F)) hsq.
  apply/orP; right; rewrite -[rgt _ _]/((c_accept c : F) * (ex : F) < (d_cost s : F) - (d_costt s' : F)).
  apply: lt_le_trans hdec2; rewrite -hexp -[X in _ < X]mul1r ltr_pmul2r // hexp.
  have [ha2 ha3] := andP ha1.
  rewrite !mulr_gt0 //; last by case: hgr => // hgr; exact: lt_le_trans hgr hs.
  rewrite subr_gt0 ltr_pdivr_mulr ?ltr0n // mul1r; apply: le_lt_trans ha3 _; by rewrite ltr1n.
rewrite g1 g2; cbn [andb]; eexists; split; first reflexivity; by [].
Qed.

Lemma rollout_follows (l : seq node) (tn : tnode) (x : mX M) acc cr :
  (forall nd, List.In nd l -> calc_agree (nm nd)) ->
  @rollout E M (List.map (@nm E M) l) x acc (List.map (fun k : node => existT (vec E) (nu (nm k)) (pu (pt k))) l)
     (List.map (fun k : node => px (pt k)) l ++ [:: tx tn]) cr ->
  follows_dynamics x l tn.
Proof.
elim: l x acc => [|nd l ih] x acc hm h; first by have [[e] _] := roll_nil h.
have [u [us' [xs' [eu ex hr]]]] := roll_cons h.
case: eu => /(@Eqdep_dec.inj_pair2_eq_dec _ Nat.eq_dec _ _ _ _) eu eus; case: ex => ex exs.
rewrite -{}eu -{}eus -{}exs in hr; cbn [follows_dynamics]; rewrite ex; split=> //.
have ea : aeval x (pu (pt nd)) = acalc (nm nd) x (pu (pt nd)).
  by rewrite /aeval; case: Nat.eqb_spec => [e0|e0] //; exact: hm (or_introl erefl) e0 _ _.
rewrite ea in hr; apply: ih hr => m hin; exact: hm (or_intror hin).
Qed.

(** the steps solve accepts on a linear-quadratic problem: from a candidate that is the
    roll-out of its controls, the decrease is at least the expected one *)
Theorem C47_ddp_lq_step (ms : list (amodel M)) (tmod : tmodel M) (x0 : mX M) (c : cfg E) (r : accepted M) cr :
  (forall m, List.In m ms -> lq_running m) -> lq_terminal tmod ->
  accepted_ok ms tmod x0 c r -> a_feas r = true ->
  rollout ms x0 (r0 E) (get_us (a_from r)) (get_xs (a_from r)) cr ->
  0 <= (fst (a_reg r) : F) -> 0 <= (snd (a_reg r) : F) ->
  let D := slope (run (a_from r)) in
  let a : F := a_step r in
  0 <= D /\ a * (1 - a / 2%:R) * D <= (a_cost r : F) - (a_cost' r : F).
Proof.
move=> hm ht hok hfe hro hp hd D a.
have [_ hD _ _] := C56_ddp_expected_decrease (fun m h => lq_sym (proj1 (hm m h))) (lqt_sym ht) hok.
split=> //; case: hok => _ _ em et hl [t0 hb] hpo [cr' [hr hc]] _.
have hm1 nd : List.In nd (run (a_from r)) -> lq_action (nm nd) /\ calc_agree (nm nd).
  by move=> h; apply: hm; rewrite -em; exact: List.in_map.
rewrite hfe in hl hb; rewrite -em in hr hro; rewrite -et in hc ht.
have hfo : follows_dynamics x0 (run (a_from r)) (trm (a_from r)) by apply: rollout_follows hro => nd /hm1 [].
have [h1 h2] := lin_sym hl (fun nd h => lq_sym (proj1 (hm1 nd h))) (lqt_sym ht).
have [_ _ h3 h4] := bwd_facts hb h1 h2.
have hr' : @rollout E M (List.map (@nm E M) (run (a_from r))) ((x0 : 'cV[F]_n) + 0 : mX M) (r0 E) (get_us (a_to r)) (get_xs (a_to r)) cr' by rewrite addr0.
have hpr : pol_run a (run (a_from r)) (get_us (a_to r)) (get_xs (a_to r)) by exact: follows_run.
have [mx [mu [m1 m2 ->]]] := run_cost (fst (a_reg r)) (snd (a_reg r)) hm1 ht hl hfo hr' hc hpr.
have := pol_value a h3 h4 (@gsts_no_gaps F sq M _ _ _ _).
rewrite (bwd_slopes hb) => ->.
rewrite -[(r0 E : F)]/(0 : F) subr0 add0r -/D.
have : 0 <= (fst (a_reg r) : F) * mx + (snd (a_reg r) : F) * mu by rewrite addr_ge0 // mulr_ge0.
move: (a_cost r : F) (_ * D) (_ * mx) (_ * mu) => b1 b2 b3 b4 hb4.
by rewrite !opprD !opprK !addrA subrr add0r -addrA ler_addl.
Qed.

Lemma chained_at xs us feas cost (p : list (accepted M)) r q : chained xs us feas cost (p ++ r :: q) ->
  let z := steps_from xs us feas cost p in
  get_xs (a_from r) = fst (fst (fst z)) /\ get_us (a_from r) = snd (fst (fst z)) /\ a_feas r = snd (fst z).
Proof. by elim: p xs us feas cost => [|k p ih] xs us feas cost /= [h1 [h2 [h3 [_ h4]]]] //; exact: ih h4. Qed.
(** C47 for a call of solve *)
Theorem C47_ddp_lq_solve (x0 : mX M) (c : cfg E) fuel xs us maxiter feas reg (s s' : ddp M) b :
  models s <> nil -> (forall m, List.In m (models s) -> lq_running m) -> lq_terminal (tmodel_of s) ->
  ddp_solve x0 c fuel xs us maxiter feas reg s = Ret b s' ->
  exists rs : list (accepted M),
    [/\ List.Forall (accepted_ok (models s) (tmodel_of s) x0 c) rs,
        chained (guess_states (length (models s)) xs) (guess_controls (models s) us) feas None rs,
        (let z := steps_from (guess_states (length (models s)) xs) (guess_controls (models s) us) feas None rs in
         get_xs (d_tr s') = fst (fst (fst z)) /\ get_us (d_tr s') = snd (fst (fst z)) /\
         (forall v, snd z = Some v -> d_cost s' = v))
      & forall p r q, rs = p ++ r :: q ->
          (p <> nil \/ feas = true /\ exists cr, rollout (models s) x0 (r0 E) (guess_controls (models s) us) (guess_states (length (models s)) xs) cr) ->
          0 <= (fst (a_reg r) : F) -> 0 <= (snd (a_reg r) : F) ->
          let D := slope (run (a_from r)) in
          let a : F := a_step r in
          0 <= D /\ a * (1 - a / 2%:R) * D <= (a_cost r : F) - (a_cost' r : F)].
Proof.
move=> h0 hm ht e; have := C45_ddp_solve_is_a_chain_of_rollouts x0 c fuel xs us maxiter feas reg h0.
rewrite e => -[rs [k1 [k2 [k3 [k4 [k5 [_ k6]]]]]]]; exists rs; split=> // p r q ers hp hr1 hr2.
rewrite ers in k2 k3; have [g1 [g2 g3]] := chained_at k3.
have /List.Forall_app [kp /List.Forall_cons_iff [kr _]] := k2.
case: hp => [hp|[ef [cr hro]]]; last first.
  case: p ers kp k2 k3 g1 g2 g3 => [|y p] ers kp k2 k3 g1 g2 g3.
    by apply: (C47_ddp_lq_step hm ht kr _ _ hr1 hr2) => //; rewrite ?g3 // ?g1 ?g2; exact: hro.
  by have := g3; move: kp g1 g2 g3; rewrite lastI -cats1 steps_app => /List.Forall_app [_ /List.Forall_cons_iff [hy _]] g1 g2 g3 _;
     have [cr' [hr _]] := ao_rollout hy; apply: (C47_ddp_lq_step hm ht kr g3 _ hr1 hr2); rewrite g1 g2; exact: hr.
case: p hp ers kp k2 k3 g1 g2 g3 => [|y p] // _ ers kp k2 k3 g1 g2 g3.
move: kp g1 g2 g3; rewrite lastI -cats1 steps_app => /List.Forall_app [_ /List.Forall_cons_iff [hy _]] g1 g2 g3.
by have [cr' [hr _]] := ao_rollout hy; apply: (C47_ddp_lq_step hm ht kr g3 _ hr1 hr2); rewrite g1 g2; exact: hr.
Qed.
End LQ.
