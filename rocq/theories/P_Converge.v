(** * C59: the ADMM iterations of SolverCSQP converge to a solution of the subproblem. *)
From Coq Require Import Ring Field ZArith PeanoNat.
Set Warnings "-notation-overridden,-ambiguous-paths".
From mathcomp Require Import all_ssreflect all_algebra.
From Verif Require Import FieldTac Eigen EigenExact ExactLemmas Problem DDP Filter SQP CSQP Init LQSpec SubQP Riccati PassExact
  TrialSpec TraceSpec SQPSpec CSQPSpec CSQPFrames CSQPLoop CSQPHist P_Direction
  QPSpec FastPass ADMMSpec ADMMExact ADMMIter CallSpec CallInv CallGood CallCover QPExact CSQPConvex EqGuess P_ADMM ConvexQP
  KKTNorm ConvSpec ADMMConv ConvLoop SsrLia.

Set Implicit Arguments.
Unset Strict Implicit.
Unset Printing Implicit Defensive.

Import Order.TTheory GRing.Theory Num.Theory.
Local Open Scope ring_scope.

Section P.
Variable F : realFieldType.
Variable sq : F -> F.
Add Field FfPC : (F_field_theory F).
Notation E := (ExactE sq).
Variable M : manifold E.
Notation n := (mndx M).
Variable c : ccfg E.
Variable timeout : nat -> bool.
Notation sigma := (cc_sigma c : F).
Notation alpha := (cc_alpha c : F).
Notation rmin := (cc_rhomin c : F).
Notation rmax := (cc_rhomax c : F).
Notation rbase := (cc_rhobase c : F).
Notation epsabs := (cc_epsabs c : F).
Notation interval := (cc_interval c).
Variables (l : seq (slot M)) (t : tslot M) (resize : nat -> nat -> Prop).
Variables (k : nat) (s : csqp M) (fuel : nat) (x0 : mX M) (xs : seq (mX M)) (us : seq {m : nat & vec E m}).
Variables (maxiter : nat) (reg : option (R E)).
Notation reached s1 i si := (csqp_hist l t resize k s /\ solve_qp c timeout fuel x0 xs us maxiter reg s s1 i si).
Notation continues i si s2 := (qp_step c i si = SGo s2 \/ qp_step c i si = SStop s2).

(** the settings a user relies on: a positive interval and positive penalties,
    over-relaxation between 0 and 2, non-negative proximal weight *)
Definition sane : Prop :=
  [/\ Peano.lt 0 interval, 0 < rmin /\ rmin <= rmax, 0 < rbase, 0 <= alpha /\ alpha <= 2%:R & 0 <= sigma].

Lemma good_top s1 i si : sane -> reached s1 i si -> Peano.le 2 i -> convex_qp (k_tr si) ->
  good_traj rmin (k_rho si) (k_tr si).
Proof.
move=> [hk [h0 hm] hb _ _] hr hi [h1 [cv1 cv2] [o1 o2]].
have [_ [p1 p2]] := C28_C29_C37_penalties hm hr.
have [r1 r2] : rows_complementary (k_tr si).
  case: hr => hh [s0 [hb' [hc ht]]]; inversion ht as [? ? ? ? e1|j sj s2 hj hs ? ? e1 e2]; subst; first by move: hi; clear; slia.
  have hr' : reached s1 j sj by split=> //; exists s0.
  exact: (C27_complementary_rows hk h0 hm hb hr' (or_introl hs)).
by split=> [nd hn|]; split=> //; [exact: cv1|exact: o1|exact: p1|exact: r1].
Qed.

(** Every iteration after the first one moves the state towards every solution of
    the (convex) subproblem: the distance decreases by at least the progress of
    the iteration. *)
Theorem C59_iteration_approaches_solutions s1 i si s2 (ts : traj M) : sane -> reached s1 i si -> Peano.le 2 i -> continues i si s2 ->
  convex_qp (k_tr si) -> 0 <= (k_preg si : F) -> 0 <= (k_dreg si : F) ->
  cpassed_traj (k_tr si) ts -> qp_kkt (k_preg si) (k_dreg si) ts ->
  distance rmin (k_rho si) alpha sigma (k_tr s2) ts + progress rmin (k_rho si) alpha sigma (k_tr si) (k_tr s2)
    <= distance rmin (k_rho si) alpha sigma (k_tr si) ts.
Proof.
move=> hs hr hi hgo cv p0 d0 hp hq.
have hg := good_top hs hr hi cv; case: hs => hk [h0 hm] hb [a0 _] _.
have hpos := C29_positive h0 hm hb hr.
have [h1 h2 h3] := cv.
have [t' [q1 q2 q3 _]] := C35_stationary_iteration hk h0 hm hb hr h1 hgo.
exact: (traj_iter h0 hpos a0 p0 d0 hg q1 q2 hp q3 hq).
Qed.

(** ** Fixed penalties *)
(** settings under which update_rho_vec never changes the penalty: no admissible
    penalty differs from the base value by more than adaptive_rho_tolerance *)
Definition fixed_penalty : Prop := rmax <= rbase * (cc_adtol c : F) /\ rbase / (cc_adtol c : F) <= rmin.
Lemma estimate_in w (r : F) : rmin <= rmax -> rho_estimate c w r = ENaN F \/ exists2 e : F, rho_estimate c w r = EFin e & rmin <= e <= rmax.
Proof.
move=> hm; rewrite /rho_estimate; set v := emul _ _ _; clearbody v.
rewrite /estd_min /estd_max /=.
case: v => [a| | |] /=.
- case: (ltP a rmin) => h1 /=.
  + case: (ltP rmax rmin) => h2 /=; right; [exists rmax|exists rmin] => //; by rewrite ?lexx ?hm.
  + case: (ltP rmax a) => h2 /=; right; [exists rmax|exists a] => //; by rewrite ?lexx ?hm ?h1 ?h2.
- by right; exists rmax => //; rewrite lexx hm.
- by case: (ltP rmax rmin) => h2 /=; right; [exists rmax|exists rmin] => //; rewrite ?lexx ?hm.
- by left.
Qed.
Theorem C59_fixed_penalty s1 i si : rmin <= rmax -> fixed_penalty -> reached s1 i si -> (k_rho si : F) = rbase.
Proof.
move=> hm [f1 f2] [_ h].
have upd : forall (w : norms E) (r : R E), (r : F) = rbase ->
  elt E (efin E (rmul E r (cc_adtol c))) (rho_estimate c w r) || elt E (rho_estimate c w r) (efin E (rdiv E r (cc_adtol c))) = false.
  move=> w r er; have [->|[e -> /andP[e1 e2]]] := @estimate_in w r hm => //=.
  have er' : (r : R E) = (cc_rhobase c) by exact: er.
  rewrite er' /= !ltNge (le_trans e2 f1) /=.
  by rewrite (le_trans f2 e1).
have [] := @I_solve E M c timeout (fun r => (r : F) = rbase) (fun _ _ => True) _ _ _ _ fuel x0 xs us maxiter reg s s1 i si h => //.
by move=> w r er; rewrite (upd w r er).
Qed.

(** ** The point an iteration passes through, and the test at its end *)
Notation point si := (cforward (snd (cb_backward c (k_preg si) (k_dreg si) (k_tr si)))).
Lemma qp_step_test i (si s2 p : csqp M) : qp_pass c i (set_k_log (EvQP E i :: k_log si) si) = (true, p) ->
  qp_step c i si = SGo s2 -> Nat.modulo i interval = 0%N ->
  settled c (norms_of (cc_heur c) (mkTraj (List.map (admm_node c) (run (cforward (k_tr p)))) (admm_tnode c (trm (cforward (k_tr p)))))) = false.
Proof.
move=> hp; rewrite /qp_step hp; cbn [fst snd] => H hm.
move: H; rewrite hm; cbn [Nat.eqb].
set u := update_lagrangian _ _ _.
have hn : k_norms (update_rho c true u) = norms_of (cc_heur c) (mkTraj (List.map (admm_node c) (run (cforward (k_tr p)))) (admm_tnode c (trm (cforward (k_tr p))))).
  by rewrite /update_rho; case: (_ && _).
rewrite -hn; move: (update_rho c true u) => q {hn u}.
case e: (qp_converged _) => // _; move: e.
by rewrite /qp_converged /qp_tolerances /settled /tol_p /tol_d; case: (rle _ _ _).
Qed.
Lemma step_point s1 i si s2 : Peano.lt 0 interval -> reached s1 i si -> traj_sym (k_tr si) -> continues i si s2 ->
  [/\ primal_step (k_tr si) (point si), dual_step alpha (point si) (k_tr s2),
     lq_kkt 0 (it_stages alpha sigma (k_preg si) (k_dreg si) true (run (point si)) (trm (point si))) (it_final alpha sigma (k_preg si) (trm (point si)))
   & Nat.modulo i interval = 0%N -> qp_step c i si = SGo s2 ->
     settled c (norms_of (cc_heur c) (mkTraj (List.map (admm_node c) (run (point si))) (admm_tnode c (trm (point si))))) = false].
Proof.
move=> hk hr hs hgo; have d0 := reached_dxt hr; case: hr => hh [s0 [hb [hc ht]]].
have [hok [hd _]] := step_tr hk ht hgo.
have [ok pd sy so] := cb_direction hok hs.
rewrite d0 in so.
have h3 : lq_kkt 0 (aug_stages sigma (k_preg si) (k_dreg si) true (run (point si)) (trm (point si))) (aug_final sigma (k_preg si) (trm (point si))).
  by rewrite -map_aug_gsts; apply: ric_kkt.
split=> //; [exact: cb_primal|exact: (it_kkt (or_intror erefl) h3)|].
move=> hm hg; have [h1 h2] := qp_pass_cb hk ht.
set s9 := set_k_log (EvQP E i :: k_log si) si.
have e1 : fst (qp_pass c i s9) = fst (qp_pass c i si) by rewrite /qp_pass; case: (qp_full c i).
have e2 : k_tr (snd (qp_pass c i s9)) = k_tr (snd (qp_pass c i si)) by rewrite /qp_pass; case: (qp_full c i).
have ep : qp_pass c i s9 = (true, snd (qp_pass c i s9)).
  by move: e1; rewrite h1 hok; case: (qp_pass c i s9) => b q /= ->.
by have := qp_step_test ep hg hm; rewrite e2 h2.
Qed.

(** ** Transport along the iterations *)
Lemma cpassed_turn (nd nd1 ns : node M) : cpassed nd nd1 -> cpassed nd ns -> cpassed nd1 ns.
Proof. by move=> [v [d [a ->]]] [v' [d' [a' ->]]]; exists v', d', a'. Qed.
Lemma tcpassed_turn (nd nd1 ns : tnode M) : tcpassed nd nd1 -> tcpassed nd ns -> tcpassed nd1 ns.
Proof.
move=> [A [v [d [la [dt [z [zp [zr [y [r [ir ->]]]]]]]]]]] [A' [v' [d' [la' [dt' [z' [zp' [zr' [y' [r' [ir' ->]]]]]]]]]]].
by exists A', v', d', la', dt', z', zp', zr', y', r', ir'.
Qed.
Lemma cpassed_traj_turn (t0 t1 ts : traj M) : cpassed_traj t0 t1 -> cpassed_traj t0 ts -> cpassed_traj t1 ts.
Proof.
move=> [h1 h2] [g1 g2]; split; last exact: tcpassed_turn h2 g2.
elim: h1 (run ts) g1 => [l' h|a b la lb hab _ ih l' h]; inversion h; subst; constructor; last exact: ih.
by apply: cpassed_turn hab _.
Qed.
Lemma gain_passed (r0 rho : F) heur K (t0 t1 : traj M) : cpassed_traj t0 t1 -> dual_gain r0 rho heur K t0 -> dual_gain r0 rho heur K t1.
Proof.
move=> [h1 h2] [g1 g2]; split=> [nd /(passed_in h1) [m hm [v [d [a ->]]]]|]; first exact: (g1 m hm).
by case: h2 => A [v [d [la [dt [z [zp [zr [y [r [ir ->]]]]]]]]]].
Qed.

Lemma distance_ge0 (rho : F) (t0 ts : traj M) : 0 < rmin -> 0 < rho -> 0 <= alpha -> 0 <= sigma ->
  0 <= distance rmin rho alpha sigma t0 ts.
Proof.
move=> h0 hr a0 s0.
have rd m k' (w z y : 'cV[F]_m) (d e : 'cV[F]_k') : (forall i, 0 <= w i 0) -> 0 <= rows_dist w z y d e.
  by move=> hw; apply: sumr_ge0 => i _; rewrite [coord w i]coordE; apply: mulr_ge0 => //; exact: sqr_ge0.
have sd m k' (v : 'cV[F]_m) (w : 'cV[F]_k') : 0 <= sq_dist v w by apply: sumr_ge0 => i _; exact: sqr_ge0.
have as0' : 0 <= alpha * sigma by exact: mulr_ge0.
have hn nd ns : 0 <= node_distance rmin rho alpha sigma nd ns.
  apply: addr_ge0; first by apply: rd => i; apply: ltW; exact: weights_pos.
  by apply: mulr_ge0 => //; apply: addr_ge0; exact: sd.
apply: addr_ge0; last first.
  apply: addr_ge0; first by apply: rd => i; apply: ltW; exact: tweights_pos.
  by apply: mulr_ge0 => //; exact: sd.
elim: (run t0) (run ts) => [|a la ih] [|b lb] //=; exact: addr_ge0.
Qed.

(** ** Counting the tests *)
Lemma modulo_dvd (i q : nat) : Peano.lt 0 q -> (Nat.modulo i q = 0%N) <-> (q %| i)%N.
Proof.
move=> hq; split=> [h|/dvdnP[m ->]]; last by rewrite -[(_ * _)%N]/(Nat.mul m q); apply: Nat.mod_mul => e; move: hq; rewrite e; slia.
apply/dvdnP; exists (Nat.div i q); rewrite mulnC -[(_ * _)%N]/(Nat.mul q (Nat.div i q)).
have := Nat.div_mod i q; rewrite h; slia.
Qed.
(** number of tests among the iterations 2, ..., i *)
Notation tests i := (i %/ interval - 1 %/ interval)%N.
Lemma tests1 : tests 1 = 0%N. Proof. by rewrite subnn. Qed.
Lemma testsS i : Peano.lt 0 interval -> (1 <= i)%N -> tests i.+1 = (tests i + (interval %| i.+1))%N.
Proof.
move=> hk hi; have hk' : (0 < interval)%N by apply/ssrnat.ltP.
rewrite divnS // addnC -addnBAC ?leq_div2r //.
Qed.

(** computeDirection, started in [s1], ended in [s2] because the termination test
    succeeded in its iteration number get_qp_iters() *)
Definition stopped (s1 s2 : csqp M) : Prop :=
  [/\ qp_converged s2 = true, (k_qpit s2 <= cc_maxqp c)%N
    & exists si s3, [/\ qp_top c timeout s1 (k_qpit s2) si, qp_step c (k_qpit s2) si = SStop s3 & s2 = set_k_qpit (k_qpit s2) s3]].
(** ** The theorem.  [eta] is a residual small enough for the tolerances, [delta]
    the progress an iteration makes when a residual is larger. *)
Section Bound.
Variables (s0 s1 : csqp M) (ts : traj M) (om eta K B : F).
Notation delta := (alpha * (2%:R - alpha) * (om * eta ^+ 2)).
Hypothesis Hsane : sane.
Hypothesis Hfix : fixed_penalty.
Hypothesis Hrel : 0 <= (cc_epsrel c : F).
Hypothesis Hhist : csqp_hist l t resize k s.
Hypothesis Hbegin : solve_begin c x0 xs us maxiter reg s = Some s0.
Hypothesis Hcall : called c timeout fuel s0 maxiter s1.
Hypothesis Hconv : convex_qp (k_tr s1).
Hypothesis Hpreg : 0 <= (k_preg s1 : F).
Hypothesis Hdreg : 0 <= (k_dreg s1 : F).
Hypothesis Hsame : cpassed_traj (k_tr s1) ts.
Hypothesis Hsol : qp_kkt (k_preg s1) (k_dreg s1) ts.
Hypothesis Hgain : dual_gain rmin rbase (cc_heur c) K (k_tr s1).
Hypothesis HK : 0 <= K.
Hypothesis Hom : [/\ 0 <= om, om <= rmin & om <= rbase].
Hypothesis Heta : 0 <= eta.
Hypothesis Heta1 : (1 + alpha) * eta <= epsabs.
Hypothesis Heta2 : K * (alpha * eta) <= epsabs.
Hypothesis HB : forall si s2, qp_top c timeout s1 1 si -> qp_step c 1 si = SGo s2 ->
  distance rmin rbase alpha sigma (k_tr s2) ts <= B.

Lemma bound j sj : qp_top c timeout s1 j sj -> (1 <= j)%N /\ forall s2, qp_step c j sj = SGo s2 ->
  distance rmin rbase alpha sigma (k_tr s2) ts + (tests j)%:R * delta <= B.
Proof.
move=> hj.
elim: hj => [sa hb hm ht|i sa sb ha [hi IH] hg hlt ht].
  split=> // s2 hgo; rewrite tests1 mul0r addr0; exact: (HB (qp_top1 hb hm ht) hgo).
split=> // s2 hgo.
have htop := qp_topS ha hg hlt ht.
have IH' := IH _ hg; move: hgo htop; set si := snd (tick timeout sb) => hgo htop.
have etr : k_tr si = k_tr sb by [].
have hr : reached s1 i.+1 si by split=> //; exists s0.
have cv := passed_convex (proj1 (top_cstep htop)) Hconv.
have hp := cpassed_traj_turn (proj1 (top_cstep htop)) Hsame.
have hgn := gain_passed (proj1 (top_cstep htop)) Hgain.
have [ep ed] := qp_top_regs htop.
have i2 : Peano.le 2 i.+1 by move: hi; clear; move/ssrnat.leP; slia.
have hg' := good_top Hsane hr i2 cv.
have [hk [h0 hm] hb [a0 a2] sg] := Hsane.
have er := C59_fixed_penalty hm Hfix hr.
have [hs _ _] := cv.
have [q1 q2 q3 q4] := step_point hk hr hs (or_introl hgo).
rewrite er in hg'.
have dec : distance rmin rbase alpha sigma (k_tr s2) ts + progress rmin rbase alpha sigma (k_tr si) (k_tr s2)
   <= distance rmin rbase alpha sigma (k_tr si) ts.
  apply: (traj_iter h0 hb a0 _ _ hg' q1 q2 hp q3); rewrite ?ep ?ed //.
case: Hom => om0 om1 om2.
have [p0 pc] := traj_prog hb a0 Heta om0 om1 om2 a2 sg q1 q2.
rewrite testsS // natrD mulrDl; rewrite etr in dec p0 pc.
have le1 : (interval %| i.+1)%N%:R * delta <= progress rmin rbase alpha sigma (k_tr sb) (k_tr s2).
  case e: (interval %| i.+1)%N; last by rewrite mul0r.
  rewrite mul1r leNgt; apply/negP => hlt2.
  have [c1 c2] := pc hlt2.
  have nk := traj_norms h0 hb a0 Heta HK hg' hgn c1 c2.
  have : settled c (norms_of (cc_heur c) (mkTraj (List.map (admm_node c) (run (point si))) (admm_tnode c (trm (point si))))) = true.
    apply: ok_settled => //; case: nk => [->|[p [d [pr [dr [-> w1 w2 w3 w4]]]]]]; first by left.
    by right; exists p, d, pr, dr; split=> //; [exact: le_trans Heta1|exact: le_trans Heta2].
  by rewrite q4 // modulo_dvd.
apply: le_trans IH'; rewrite [X in _ <= X]addrC addrCA ler_add2l.
by apply: le_trans dec; rewrite ler_add2l.
Qed.

(** The loop ends before its budget is used up. *)
Hypothesis HB0 : 0 <= B.
Hypothesis Hbudget : B < (tests (cc_maxqp c))%:R * delta.
Lemma no_exhaust j sj s2 : qp_top c timeout s1 j sj -> qp_step c j sj = SGo s2 -> (j < cc_maxqp c)%N.
Proof.
move=> hj hg; have [h1 h2] := bound hj; have h3 := h2 _ hg.
have [hk [h0 hm] hb [a0 a2] sg] := Hsane.
have d0 := distance_ge0 (k_tr s2) ts h0 hb a0 sg.
rewrite ltnNge; apply/negP => hle.
have de0 : 0 <= delta.
  case: Hom => o0 _ _; apply: mulr_ge0; first exact: (aa0 a0 a2).
  by apply: mulr_ge0 => //; exact: sqr_ge0.
have hle2 : (tests (cc_maxqp c))%:R * delta <= (tests j)%:R * delta.
  by apply: ler_wpmul2r => //; rewrite ler_nat leq_sub2r // leq_div2r.
have := le_lt_trans h3 (lt_le_trans Hbudget hle2).
by rewrite ltNge ler_addr d0.
Qed.
Lemma qp_loop_done : forall r i si, (r + i = (cc_maxqp c).+1)%nat ->
  (forall j sj sk, qp_top c timeout s1 j sj -> qp_step c j sj <> SThrow sk) ->
  (i = 1%nat /\ qp_begin c s1 = Some si \/ exists j sj, [/\ i = j.+1, qp_top c timeout s1 j sj & qp_step c j sj = SGo si]) ->
  exists2 s2, qp_loop c timeout r i si = QDone s2 & (k_reached s2 = true /\ exists q, timeout q = true) \/ stopped s1 s2.
Proof.
elim=> [|r ih] i si er hno hpre.
  exfalso; case: hpre => [[e1 hb]|[j [sj [e1 hj hg]]]].
    move: er Hbudget HB0; rewrite e1 => -[<-]; rewrite div0n sub0n mul0r => h1 h2.
    by have := lt_le_trans h1 h2; rewrite ltxx.
  by have := no_exhaust hj hg; rewrite -ltnS -er e1 add0n ltnn.
cbn [qp_loop].
case et: (fst (tick timeout si)).
  by exists (set_k_reached true (set_k_qpit (Nat.sub i 1) (snd (tick timeout si)))) => //; left; split=> //; exists (k_clk si).
have hle : (i <= cc_maxqp c)%nat by rewrite -ltnS -er addSn ltnS leq_addl.
have htop : qp_top c timeout s1 i (snd (tick timeout si)).
  case: hpre => [[ei hb]|[j [sj [ei hj hg]]]].
    rewrite ei in hle *; apply: (qp_top1 hb _ et); apply/ssrnat.leP; exact: hle.
  rewrite ei in hle *; apply: (qp_topS hj hg _ et); apply/ssrnat.leP; exact: hle.
have [hk _ _ _ _] := Hsane.
case: Nat.eqb_spec => [e0|_]; first by exfalso; move: hk; rewrite e0; clear; slia.
case es: (qp_step c i _) => [s3|s3|s3].
- by exfalso; exact: (hno _ _ _ htop es).
- exists (set_k_qpit i s3) => //; right; split=> //; last by exists (snd (tick timeout si)), s3.
  move: es; rewrite /qp_step; case: (fst _) => //; case: (Nat.eqb _ _) => //.
  case ec: (qp_converged _) => // -[<-]; exact: ec.
- apply: ih => //; first by rewrite addnS.
  by right; exists i, (snd (tick timeout si)).
Qed.
End Bound.

(** C59: with a fixed penalty, on a convex subproblem that has a solution [ts],
    computeDirection returns, and either the time limit was noticed or the
    termination test holds, as soon as the budget of QP iterations contains more
    than B / delta tests, where B bounds the distance to the solution after the
    first iteration. *)
Theorem C59_converges s0 s1 (ts : traj M) (om eta K B : F) : sane -> fixed_penalty -> 0 <= (cc_epsrel c : F) ->
  csqp_hist l t resize k s -> solve_begin c x0 xs us maxiter reg s = Some s0 -> called c timeout fuel s0 maxiter s1 ->
  convex_qp (k_tr s1) -> 0 <= (k_preg s1 : F) -> reg_positive (k_dreg s1) (k_tr s1) -> 0 < sigma + (k_dreg s1 : F) ->
  cpassed_traj (k_tr s1) ts -> qp_kkt (k_preg s1) (k_dreg s1) ts ->
  dual_gain rmin rbase (cc_heur c) K (k_tr s1) -> 0 <= K ->
  [/\ 0 <= om, om <= rmin & om <= rbase] ->
  0 <= eta -> (1 + alpha) * eta <= epsabs -> K * (alpha * eta) <= epsabs ->
  0 <= B ->
  (forall si s2, qp_top c timeout s1 1 si -> qp_step c 1 si = SGo s2 -> distance rmin rbase alpha sigma (k_tr s2) ts <= B) ->
  B < (cc_maxqp c %/ interval - 1 %/ interval)%:R * (alpha * (2%:R - alpha) * (om * eta ^+ 2)) ->
  exists2 s2, csqp_computeDirection c timeout s1 = QDone s2
    & (k_reached s2 = true /\ exists q, timeout q = true) \/ stopped s1 s2.
Proof.
move=> hs hf er hh hb hc cv p0 rp sd hp hq hg K0 hom e0 e1 e2 B0 hB hbud.
have [hk [h0 hm] hrb [a0 a2] sg] := hs.
have d0 : 0 <= (k_dreg s1 : F) by case: rp => [/ltW|[]].
have hno : forall j sj sk, qp_top c timeout s1 j sj -> qp_step c j sj <> SThrow sk.
  move=> j sj sk hj.
  have [ep ed] := qp_top_regs hj.
  have [h1 h2 h3] := passed_convex (proj1 (top_cstep hj)) cv.
  have hr : csqp_hist l t resize k s /\ solve_qp c timeout fuel x0 xs us maxiter reg s s1 j sj.
    by split=> //; exists s0.
  have hpos := C29_positive h0 hm hrb hr.
  have [_ hpn] := C28_C29_C37_penalties hm hr.
  apply: (C53_convex_iteration_no_exception hk hr) => //; rewrite ?ep ?ed //.
  apply: penalties_nonneg hpn => //; exact: ltW.
have hdone := qp_loop_done hs hf er hh hb hc cv p0 d0 hp hq hg K0 hom e0 e1 e2 hB B0 hbud.
have hqp : qp_begin c s1 <> None.
  by case: cv => h1 h2 h3; apply: C53_convex_guess_no_exception.
rewrite /csqp_computeDirection.
case e: (qp_begin c s1) hqp => [sb|//] _.
move: (e); rewrite /qp_begin; case: (cc_eqguess c).
  case: (fst _) => // -[e']; rewrite e'; apply: hdone => //; first by rewrite addn1.
  by left.
move=> [e']; rewrite e'; apply: hdone => //; first by rewrite addn1.
by left.
Qed.
End P.

(** ** Some budget always suffices *)
Lemma gain_exists (F : realFieldType) (sq : F -> F) (M : manifold (ExactE sq)) (r0 rho : F) (heur : bool) (t : traj M) :
  0 < r0 -> 0 < rho -> exists2 K, 0 <= K & dual_gain r0 rho heur K t.
Proof.
move=> h0 hr.
have cb m q (G : 'M[F]_(m, q)) (w : 'cV[F]_m) : (forall i, 0 < w i 0) -> exists2 K, 0 <= K & forall K', K <= K' -> column_bound G w K'.
  move=> hw; exists (\sum_(j < q) \sum_(i < m) `|G i j| * w i 0).
    by apply: sumr_ge0 => j _; apply: sumr_ge0 => i _; apply: mulr_ge0 => //; exact: ltW.
  move=> K' hK j; apply: le_trans hK; rewrite [X in _ <= X](bigD1 j) //= ler_addl.
  by apply: sumr_ge0 => j' _; apply: sumr_ge0 => i _; apply: mulr_ge0 => //; exact: ltW.
have wb m (w : 'cV[F]_m) : (forall i, 0 < w i 0) -> exists2 K, 0 <= K & forall K', K <= K' -> forall i, w i 0 <= K'.
  move=> hw; exists (\sum_(i < m) w i 0); first by apply: sumr_ge0 => i _; exact: ltW.
  move=> K' hK i; apply: le_trans hK; rewrite [X in _ <= X](bigD1 i) //= ler_addl.
  by apply: sumr_ge0 => j' _; exact: ltW.
have hn (nd : node M) : exists2 K, 0 <= K & forall K', K <= K' -> node_gain r0 rho heur K' nd.
  have hw := @weights_pos F sq M r0 rho h0 hr nd; rewrite /node_gain; case: (heur); first exact: wb.
  have [K1 k1 g1] := cb _ _ (Gx (der nd) : 'M[F]_(ng (nm nd), mndx M)) _ hw.
  have [K2 k2 g2] := cb _ _ (Gu (der nd) : 'M[F]_(ng (nm nd), nu (nm nd))) _ hw.
  exists (K1 + K2); first exact: addr_ge0.
  by move=> K' hK; split; [apply: g1|apply: g2]; apply: le_trans hK; rewrite ?ler_addl ?ler_addr.
have ht : exists2 K, 0 <= K & forall K', K <= K' -> tnode_gain r0 rho heur K' (trm t).
  have hw := @tweights_pos F sq M r0 rho h0 hr (trm t); rewrite /tnode_gain; case: (heur); first exact: wb.
  exact: cb.
have hl (l : seq (node M)) : exists2 K, 0 <= K & forall K', K <= K' -> forall nd, List.In nd l -> node_gain r0 rho heur K' nd.
  elim: l => [|nd l [K1 k1 g1]]; first by exists 0.
  have [K2 k2 g2] := hn nd; exists (K1 + K2); first exact: addr_ge0.
  by move=> K' hK x [<-|hx]; [apply: g2|apply: (g1 K' _ x hx)]; apply: le_trans hK; rewrite ?ler_addl ?ler_addr.
have [K1 k1 g1] := ht; have [K2 k2 g2] := hl (run t).
exists (K1 + K2); first exact: addr_ge0.
by split; [apply: g2|apply: g1]; rewrite ?ler_addl ?ler_addr.
Qed.

Section Archi.
Variable F : archiFieldType.
Variable sq : F -> F.
Notation E := (ExactE sq).
Variable M : manifold E.

(** [c] with another value of max_qp_iters (set_max_qp_iters) *)
Definition with_maxqp (c : ccfg E) (N : nat) : ccfg E :=
  @mkCcfg E (cc_ddp c) (cc_mu c) (cc_mucon c) (cc_lagcoef c) (cc_filter c) (cc_fsize c) (cc_extra c) (cc_sigma c) (cc_alpha c)
    N (cc_rhobase c) (cc_rhomin c) (cc_rhomax c) (cc_interval c) (cc_adtol c) (cc_epsabs c) (cc_epsrel c)
    (cc_eqguess c) (cc_resety c) (cc_resetrho c) (cc_heur c) (cc_removereg c) (cc_mt c).

Lemma sane_max (c : ccfg E) N : sane c -> sane (with_maxqp c N).
Proof. by []. Qed.
Lemma apply_rho_max (c : ccfg E) N r (t : traj M) : apply_rho (with_maxqp c N) r t = apply_rho c r t.
Proof. by []. Qed.
Lemma reset_rho_max (c : ccfg E) N (s : csqp M) : reset_rho (with_maxqp c N) s = reset_rho c s.
Proof. by rewrite /reset_rho apply_rho_max. Qed.
Lemma solve_begin_max (c : ccfg E) N x0 xs us maxiter reg (s : csqp M) :
  solve_begin (with_maxqp c N) x0 xs us maxiter reg s = solve_begin c x0 xs us maxiter reg s.
Proof. by rewrite /solve_begin; case: (set_guess _ _ _) => // t; rewrite reset_rho_max. Qed.
Lemma main_start_max (c : ccfg E) N timeout (s : csqp M) : main_start (with_maxqp c N) timeout s = main_start c timeout s.
Proof. by rewrite /main_start reset_rho_max. Qed.

Lemma reset_params_max (c : ccfg E) N (s : csqp M) : reset_params (with_maxqp c N) s = reset_params c s.
Proof. by rewrite /reset_params; cbn [cc_resety cc_resetrho with_maxqp]; rewrite ?reset_rho_max. Qed.
Lemma qp_begin_max (c : ccfg E) N (s : csqp M) : qp_begin (with_maxqp c N) s = qp_begin c s.
Proof. by rewrite /qp_begin reset_params_max. Qed.
Lemma qp_pass_max (c : ccfg E) N i (s : csqp M) : qp_pass (with_maxqp c N) i s = qp_pass c i s.
Proof. by rewrite /qp_pass; cbn [cc_mt with_maxqp]. Qed.
Lemma lag_max (c : ccfg E) N b (s : csqp M) : update_lagrangian (with_maxqp c N) b s = update_lagrangian c b s.
Proof. by rewrite /update_lagrangian. Qed.
Lemma rho_max (c : ccfg E) N b (s : csqp M) : update_rho (with_maxqp c N) b s = update_rho c b s.
Proof. by rewrite /update_rho apply_rho_max. Qed.
Lemma tol_max (c : ccfg E) N (s : csqp M) : qp_tolerances (with_maxqp c N) s = qp_tolerances c s.
Proof. by []. Qed.
Lemma qp_step_max (c : ccfg E) N i (s : csqp M) : qp_step (with_maxqp c N) i s = qp_step c i s.
Proof. by rewrite /qp_step qp_pass_max !lag_max !rho_max !tol_max. Qed.

Variable c : ccfg E.
Variable timeout : nat -> bool.
Variables (l : seq (slot M)) (t : tslot M) (resize : nat -> nat -> Prop).
Variables (k : nat) (s : csqp M) (x0 : mX M) (xs : seq (mX M)) (us : seq {m : nat & vec E m}).
Variables (maxiter : nat) (reg : option (R E)).

(** C59: if the subproblem at the guess of a solve is convex and has a solution,
    then for every sufficiently large budget of QP iterations the first call of
    computeDirection ends with the termination test fulfilled (or at the time
    limit). *)
Theorem C59_some_budget_suffices s0 (ts : traj M) : sane c -> fixed_penalty c ->
  0 < (cc_alpha c : F) < 2%:R -> 0 < (cc_epsabs c : F) -> 0 <= (cc_epsrel c : F) ->
  csqp_hist l t resize k s -> solve_begin c x0 xs us maxiter reg s = Some s0 -> Peano.lt 0 maxiter ->
  let s1 := main_start c timeout s0 in
  convex_qp (k_tr s1) -> 0 <= (k_preg s1 : F) -> reg_positive (k_dreg s1) (k_tr s1) -> 0 < (cc_sigma c : F) + (k_dreg s1 : F) ->
  cpassed_traj (k_tr s1) ts -> qp_kkt (k_preg s1) (k_dreg s1) ts ->
  fst (tick timeout s0) = false ->
  exists N0, forall N, (N0 <= N)%N ->
  exists2 s2, csqp_computeDirection (with_maxqp c N) timeout s1 = QDone s2
    & (k_reached s2 = true /\ exists q, timeout q = true) \/ stopped (with_maxqp c N) timeout s1 s2.
Proof.
move=> hs hf /andP[a0 a2] ea er hh hb hm s1 cv p0 rp sd hp hq htk.
have [hk [h0 hrm] hrb _ sg] := hs.
have [K K0 hK] := gain_exists (cc_heur c) (k_tr s1) h0 hrb.
pose om := Num.min (cc_rhomin c : F) (cc_rhobase c : F).
have om0 : 0 < om by rewrite /om lt_minr h0 hrb.
pose D := 1 + (cc_alpha c : F) + K * (cc_alpha c : F).
have D0 : 0 < D 
  by rewrite /D -addrA; apply: ltr_spaddl; [exact: ltr01|apply: addr_ge0; [exact: ltW|apply: mulr_ge0 => //; exact: ltW]].
pose eta := (cc_epsabs c : F) / D.
have e0 : 0 < eta by exact: divr_gt0.
have eD : eta * D = (cc_epsabs c : F) by rewrite /eta mulfVK // gt_eqF.
have e1 : (1 + (cc_alpha c : F)) * eta <= (cc_epsabs c : F).
  rewrite -eD mulrC; apply: ler_wpmul2l; first exact: ltW.
  by rewrite /D ler_addl; apply: mulr_ge0 => //; exact: ltW.
have e2 : K * ((cc_alpha c : F) * eta) <= (cc_epsabs c : F).
  rewrite -eD mulrA [X in X <= _]mulrC; apply: ler_wpmul2l; first exact: ltW.
  by rewrite /D ler_addr; apply: addr_ge0; [exact: ler01|exact: ltW].
pose delta := (cc_alpha c : F) * (2%:R - (cc_alpha c : F)) * (om * eta ^+ 2).
have d0 : 0 < delta.
  apply: mulr_gt0; apply: mulr_gt0 => //; [by rewrite subr_gt0|exact: exprn_gt0].
have [B B0 hB] : exists2 B : F, 0 <= B & forall si s2, (exists sb, qp_begin c s1 = Some sb /\ si = snd (tick timeout sb)) -> qp_step c 1 si = SGo s2 ->
    distance (cc_rhomin c : F) (cc_rhobase c : F) (cc_alpha c : F) (cc_sigma c : F) (k_tr s2) ts <= B.
  case eb: (qp_begin c s1) => [sb|]; last by exists 0 => // si s2 [sb [e _]].
  case es: (qp_step c 1 (snd (tick timeout sb))) => [s2|s2|s2].
  - by exists 0 => // si s2' [sb' [[<-] ->]]; rewrite es.
  - by exists 0 => // si s2' [sb' [[<-] ->]]; rewrite es.
  - exists (distance (cc_rhomin c : F) (cc_rhobase c : F) (cc_alpha c : F) (cc_sigma c : F) (k_tr s2) ts).
      by apply: distance_ge0 => //; exact: ltW.
    by move=> si s2' [sb' [[<-] ->]]; rewrite es => -[<-].
pose m := Num.bound (B / delta).
have hmb : B < m%:R * delta.
  by rewrite -ltr_pdivr_mulr // /m; apply: archi_boundP; apply: divr_ge0 => //; exact: ltW.
exists ((m + 1 %/ cc_interval c) * cc_interval c)%N => N hN.
set c' := with_maxqp c N.
have hs' : sane c' := hs.
have hf' : fixed_penalty c' := hf.
have hb' : solve_begin c' x0 xs us maxiter reg s = Some s0 := hb.
have hc : called c' timeout 0 s0 maxiter s1.
  by rewrite /s1 -(main_start_max c N); exact: (call_main (head0 c' timeout 0 s0) hm htk).
have hom : [/\ 0 <= om, om <= (cc_rhomin c' : F) & om <= (cc_rhobase c' : F)].
  by split; [exact: ltW|rewrite /om le_minl lexx|rewrite /om le_minl lexx orbT].
have hB' : forall si s2, qp_top c' timeout s1 1 si -> qp_step c' 1 si = SGo s2 ->
   distance (cc_rhomin c' : F) (cc_rhobase c' : F) (cc_alpha c' : F) (cc_sigma c' : F) (k_tr s2) ts <= B.
  move=> si s2 ht; rewrite qp_step_max => hgo; apply: hB hgo.
  inversion ht as [sb hbeg h1 h2|j sa sb ha hbeg h1 h2]; subst; last by exfalso; inversion ha.
  by exists sb; split=> //; rewrite -(qp_begin_max c N).
have hbud : B < (cc_maxqp c' %/ cc_interval c' - 1 %/ cc_interval c')%:R * ((cc_alpha c' : F) * (2%:R - (cc_alpha c' : F)) * (om * eta ^+ 2)).
  apply: (lt_le_trans hmb); apply: ler_wpmul2r; first exact: ltW.
  rewrite ler_nat; cbn [cc_maxqp cc_interval c' with_maxqp].
  have hk' : (0 < cc_interval c)%N by apply/ssrnat.ltP.
  rewrite leq_subRL; first by rewrite addnC leq_divRL.
  by rewrite leq_divRL // (leq_trans _ hN) // mulnDl leq_addl.
clearbody s1 om eta.
have hf2 : 0 <= (cc_epsrel c' : F) := er.
have sd' : 0 < (cc_sigma c' : F) + (k_dreg s1 : F) := sd.
have hK' : dual_gain (cc_rhomin c' : F) (cc_rhobase c' : F) (cc_heur c') K (k_tr s1) := hK.
have e1' : (1 + (cc_alpha c' : F)) * eta <= (cc_epsabs c' : F) := e1.
have e2' : K * ((cc_alpha c' : F) * eta) <= (cc_epsabs c' : F) := e2.
have := @C59_converges F sq M c' timeout l t resize k s 0 x0 xs us maxiter reg s0 s1 ts om eta K B
  hs' hf' hf2 hh hb' hc cv p0 rp sd' hp hq hK' K0 hom (ltW e0) e1' e2' B0 hB' hbud.
exact.
Qed.
End Archi.
