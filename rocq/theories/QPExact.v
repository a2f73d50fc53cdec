(** * Exact arithmetic: the QP iterations executed by computeDirection and solve. *)
From Coq Require Import Ring Field ZArith PeanoNat.
Set Warnings "-notation-overridden,-ambiguous-paths".
From mathcomp Require Import all_ssreflect all_algebra.
From Verif Require Import FieldTac Eigen EigenExact ExactLemmas Problem DDP Filter SQP CSQP Init LQSpec SubQP Riccati PassExact
  TrialSpec TraceSpec SQPSpec CSQPSpec CSQPFrames CSQPLoop CSQPHist
  QPSpec FastPass ADMMSpec ADMMExact ADMMIter CallSpec CallInv CallGood.

Set Implicit Arguments.
Unset Strict Implicit.
Unset Printing Implicit Defensive.

Import Order.TTheory GRing.Theory Num.Theory.
Local Open Scope ring_scope.

Section QP.
Variable F : realFieldType.
Variable sq : F -> F.
Notation E := (ExactE sq).
Variable M : manifold E.
Notation n := (mndx M).
Notation node := (node M).
Notation tnode := (tnode M).
Variable c : ccfg E.
Variable timeout : nat -> bool.
Notation sigma := (cc_sigma c : F).
Notation alpha := (cc_alpha c : F).

(** the pass of a QP iteration, whatever its kind, is the sequential full pass *)
Lemma qp_pass_cb (s : csqp M) i si : Peano.lt 0 (cc_interval c) -> qp_top c timeout s i si ->
  let b := cb_backward c (k_preg si) (k_dreg si) (k_tr si) in
  fst (qp_pass c i si) = fst b /\ (fst b -> k_tr (snd (qp_pass c i si)) = snd b).
Proof.
move=> hk h; cbv zeta; have [h1 [h2 _]] := qp_pass_tr c i si; rewrite h1 h2.
have full (s1 : csqp M) : fst (full_pass c (k_preg s1) (k_dreg s1) (k_tr s1)) = fst (cb_backward c (k_preg s1) (k_dreg s1) (k_tr s1)) /\
  (fst (cb_backward c (k_preg s1) (k_dreg s1) (k_tr s1)) ->
   full_pass c (k_preg s1) (k_dreg s1) (k_tr s1) = cb_backward c (k_preg s1) (k_dreg s1) (k_tr s1)).
  by rewrite /full_pass; case: (cc_mt c) => //; exact: cm_cb.
case e: (qp_full c i).
  have [k1 k2] := full si; split=> // /k2 -> //.
have [j [sj [_ [_ [_ [k1 [_ [k2 [k3 k4]]]]]]]]] := qp_top_fast hk h e.
have [f1 f2] := full sj; rewrite f1 in k1; rewrite f2 // in k2.
have hf : fitted_traj c (k_preg si) (k_dreg si) (k_tr si).
  by apply: fitted_traj_sf k2 _; rewrite k3 k4; exact: cb_fitted.
by rewrite (cf_cb (@vec0_exact F sq) hf).
Qed.

(** a QP iteration that does not raise *)
Lemma step_tr (s : csqp M) i si s2 : Peano.lt 0 (cc_interval c) -> qp_top c timeout s i si ->
  qp_step c i si = SGo s2 \/ qp_step c i si = SStop s2 ->
  fst (cb_backward c (k_preg si) (k_dreg si) (k_tr si)) /\
  dual_step alpha (cforward (snd (cb_backward c (k_preg si) (k_dreg si) (k_tr si)))) (k_tr s2) /\
  k_preg s2 = k_preg si /\ k_dreg s2 = k_dreg si.
Proof.
move=> hk ht; have [h1 h2] := qp_pass_cb hk ht; rewrite /qp_step; set s0 := set_k_log _ _.
have e1 : fst (qp_pass c i s0) = fst (qp_pass c i si) by rewrite /qp_pass; case: (qp_full c i).
have e2 : k_tr (snd (qp_pass c i s0)) = k_tr (snd (qp_pass c i si)) by rewrite /qp_pass; case: (qp_full c i).
have e3 : k_preg (snd (qp_pass c i s0)) = k_preg si by rewrite /qp_pass; case: (qp_full c i).
have e4 : k_dreg (snd (qp_pass c i s0)) = k_dreg si by rewrite /qp_pass; case: (qp_full c i).
move: (qp_pass c i s0) e1 e2 e3 e4 => [b p]; cbn [fst snd] => e1 e2 e3 e4.
case: b e1 => e1; last by case.
have hb : fst (cb_backward c (k_preg si) (k_dreg si) (k_tr si)) by rewrite -h1 -e1.
move=> H; split=> //; rewrite -h2 // -e2.
have upd q : k_tr (update_rho c q (update_lagrangian c q (set_k_tr (cforward (k_tr p)) p)))
   = mkTraj (List.map (admm_node c) (run (cforward (k_tr p)))) (admm_tnode c (trm (cforward (k_tr p)))) \/
   exists r, k_tr (update_rho c q (update_lagrangian c q (set_k_tr (cforward (k_tr p)) p)))
   = apply_rho c r (mkTraj (List.map (admm_node c) (run (cforward (k_tr p)))) (admm_tnode c (trm (cforward (k_tr p))))).
  rewrite /update_rho; case: (_ && _); last by left.
  by right; eexists.
have du q : dual_step alpha (cforward (k_tr p)) (k_tr (update_rho c q (update_lagrangian c q (set_k_tr (cforward (k_tr p)) p)))).
  case: (upd q) => [->|[r ->]]; first exact: admm_dual.
  by apply: dual_rho; exact: admm_dual.
have rg q : k_preg (update_rho c q (update_lagrangian c q (set_k_tr (cforward (k_tr p)) p))) = k_preg si /\
            k_dreg (update_rho c q (update_lagrangian c q (set_k_tr (cforward (k_tr p)) p))) = k_dreg si.
  by rewrite /update_rho; case: (_ && _).
move: H; case: (Nat.eqb _ _); last by case=> // -[<-]; have [r1 r2] := rg false.
have := du true; have := rg true; move: (update_rho _ _ _) => q [r1 r2] d.
have hq : k_tr (qp_tolerances c q) = k_tr q /\ k_preg (qp_tolerances c q) = k_preg q /\ k_dreg (qp_tolerances c q) = k_dreg q.
  by rewrite /qp_tolerances; case: (rle _ _ _).
move: (qp_tolerances c q) hq => q' [q1 [q2 q3]].
by case: (qp_converged _) => -[] // [<-]; rewrite q1 q2 q3 r1 r2.
Qed.

(** ** Penalties *)
Notation rmin := (cc_rhomin c : F).
Notation rmax := (cc_rhomax c : F).
Definition rho_range (rho : F) : Prop := rho = (cc_rhobase c : F) \/ (rmin <= rho /\ rho <= rmax).
Lemma estimate_range w (rho : F) : rmin <= rmax ->
  @elt E (efin E (rmul E rho (cc_adtol c))) (rho_estimate c w rho)
    || @elt E (rho_estimate c w rho) (efin E (rdiv E rho (cc_adtol c))) ->
  rmin <= (eto E (rho_estimate c w rho) : F) /\ (eto E (rho_estimate c w rho) : F) <= rmax.
Proof.
move=> hm; rewrite /rho_estimate; set v := emul _ _ _; clearbody v.
rewrite /estd_min /estd_max /=.
case: v => [a| | |] /=.
- case: (ltP a rmin) => h1 /=.
  + by case: (ltP rmax rmin) => h2 /= _; rewrite ?lexx ?hm.
  + by case: (ltP rmax a) => h2 /= _; rewrite ?lexx ?hm ?h1 ?h2.
- by rewrite ?lexx ?hm.
- by case: (ltP rmax rmin) => h2 /= _; rewrite ?lexx ?hm.
- by [].
Qed.
Lemma rho_rowE (rho : F) (lo hi : option F) : ordered lo hi ->
  @rho_row E c rho lo hi = Some (penalty rmin rho lo hi, (penalty rmin rho lo hi)^-1).
Proof.
case: lo => [a|]; case: hi => [b|] /= h; rewrite /rho_row /= ?div1r //.
case: ifP => hab //.
have hlt : (a < b) = true.
  rewrite lt_neqAle h andbT; apply: contraFneq hab => ->; rewrite subrr normr0; exact: ltW (xlit_gt0 _ _ _).
by rewrite hlt.
Qed.
Lemma apply_penalties r (t : traj M) : penalties rmin r (apply_rho c r t).
Proof.
split.
- move=> nd /List.in_map_iff [nd0 [<- _]] i ho.
  have e := rho_rowE r ho; rewrite /rho_node /= /rho_rows /= /xzip !mxE.
  by rewrite e.
- move=> i ho; have e := rho_rowE r ho; rewrite /rho_tnode /= /rho_rows /= /xzip !mxE.
  by rewrite e.
Qed.
Lemma penalties_psame r (t t' : traj M) : psame t t' -> penalties rmin r t -> penalties rmin r t'.
Proof.
case=> h1 [x [xt [me [de [f [A [v [d [la [dt [z [zp [zr [y e]]]]]]]]]]]]]] [p1 p2]; split; last by rewrite e.
elim: h1 p1 => [|nd nd' l l' [p [m [dd [ff [vv [di [a [-> [e1 e2]]]]]]]]] _ IH] p1 //= nd0 [<-|h].
- by move=> i ho; move: (p1 nd (or_introl erefl) i ho); rewrite /= e1 e2.
- by apply: IH h => nd1 h1; apply: p1; right.
Qed.
Theorem solve_penalties fuel x0 xs us maxiter reg (s s1 : csqp M) i si : rmin <= rmax ->
  solve_qp c timeout fuel x0 xs us maxiter reg s s1 i si ->
  rho_range (k_rho si) /\ penalties rmin (k_rho si) (k_tr si).
Proof.
move=> hm; apply: (@I_solve E M c timeout rho_range (fun r t => penalties rmin r t)).
- exact: penalties_psame.
- by left.
- by move=> w rho _ h; right; exact: estimate_range.
- by move=> r t _; exact: apply_penalties.
Qed.
(** the same after the iteration *)
Lemma step_range (s : csqp M) i s2 : rmin <= rmax -> rho_range (k_rho s) /\ penalties rmin (k_rho s) (k_tr s) ->
  qp_step c i s = SGo s2 \/ qp_step c i s = SStop s2 ->
  rho_range (k_rho s2) /\ penalties rmin (k_rho s2) (k_tr s2).
Proof.
move=> hm h.
have := @I_step E M c rho_range (fun r t => penalties rmin r t) penalties_psame
  (fun w rho _ h => or_intror (estimate_range hm h)) (fun r t _ => apply_penalties r t) i s h.
by case: (qp_step c i s) => q hq [] // [<-].
Qed.

(** ** complementarity after the dual step *)
Lemma penalty_pos (r : F) lo hi : 0 < rmin -> 0 < r -> 0 < penalty rmin r lo hi.
Proof.
move=> h1 h2; rewrite /penalty; case: lo => [a|]; case: hi => [b|] //.
by case: ifP => // _; rewrite mulr_gt0 // xlit_gt0.
Qed.
Lemma dual_node_rows r (nd nd' : node) : 0 < rmin -> 0 < r -> dual_node alpha nd nd' -> node_penalty rmin r nd -> node_rows nd'.
Proof.
move=> h1 h2 [zp [zr [q [iq ->]]]] hp i ho; have [e1 e2] := hp i ho; cbn [nm mem adm az ay] in *.
by apply: rows_compl => //; rewrite e1; exact: penalty_pos.
Qed.
Lemma dual_tnode_rows r (nd nd' : tnode) : 0 < rmin -> 0 < r -> dual_tnode alpha nd nd' -> tnode_penalty rmin r nd -> tnode_rows nd'.
Proof.
move=> h1 h2 [zp [zr [q [iq ->]]]] hp i ho; have [e1 e2] := hp i ho; cbn [tm tme taz tay] in *.
by apply: rows_compl => //; rewrite e1; exact: penalty_pos.
Qed.
Lemma primal_penalties r (t t' : traj M) : primal_step t t' -> penalties rmin r t -> penalties rmin r t'.
Proof.
case=> h1 [A [v [d e]]] [p1 p2]; split; last by rewrite e.
elim: h1 p1 => [|nd nd' l l' [vv [dd [u ->]]] _ IH] p1 //= nd0 [<-|h].
- exact: (p1 nd (or_introl erefl)).
- by apply: IH h => nd1 h1; apply: p1; right.
Qed.
Lemma dual_rows r (t t' : traj M) : 0 < rmin -> 0 < r -> dual_step alpha t t' -> penalties rmin r t -> rows_complementary t'.
Proof.
move=> h1 h2 [hd ht] [p1 p2]; split; last exact: (dual_tnode_rows h1 h2 ht p2).
elim: hd p1 => [|nd nd' l l' hn _ IH] p1 //= nd0 [<-|h].
- by apply: (dual_node_rows h1 h2 hn); apply: p1; left.
- by apply: IH h => nd1 h'; apply: p1; right.
Qed.

(** ** what computeDirection exposes after the KKT check *)
Lemma res0 m (lo hi : 'cV[option F]_m) (g Cd z y rho irho : 'cV[F]_m) :
  Cd = z -> new_z lo hi alpha g Cd z y irho = z -> mixed_res lo hi alpha g Cd z y rho irho = 0.
Proof. by move=> e1 e2; rewrite /mixed_res e2 e1 !subrr scaler0 addr0; apply/matrixP => i j; rewrite !mxE mulr0. Qed.
Lemma con_it (preg dreg : F) (tn tn' : tnode) : dual_tnode alpha tn tn' -> forall (l l' : seq node) first,
  List.Forall2 (@dual_node F sq M alpha) l l' -> (forall nd, List.In nd l -> stationary_node alpha nd) ->
  con_stages preg dreg first (List.map (@lag_node E M) l') (lag_tnode tn') = it_stages alpha sigma preg dreg first l tn.
Proof.
move=> [zp [zr [q [iq et]]]] l l' first h; elim: h first => [|nd nd' l1 l1' [zp' [zr' [q' [iq' e]]]] h IH] first hs //=.
congr (_ :: _); last by apply: IH => nd0 h0; apply: hs; right.
have [s1 s2 s3 s4] := hs nd (or_introl erefl).
have ef : hd_fs (List.map (@lag_node E M) l1') (lag_tnode tn') = hd_fs l1 tn.
  by case: h => [|a b l2 l2' [? [? [? [? ->]]]] _] //; rewrite et.
rewrite ef {}e /con_stage /it_stage /=.
have -> : node_res alpha nd = 0 by exact: res0.
by rewrite -s1 -s2 !subrr !scaler0 !mulmx0 !addr0.
Qed.
Lemma con_it_final (preg : F) (tn tn' : tnode) : dual_tnode alpha tn tn' -> stationary_tnode alpha tn ->
  con_final preg (lag_tnode tn') = it_final alpha sigma preg tn.
Proof.
move=> [zp [zr [q [iq ->]]]] [s1 s2 s3]; rewrite /con_final /it_final /=.
have -> : tnode_res alpha tn = 0 by exact: res0.
by rewrite -s1 !subrr !scaler0 !mulmx0 !addr0.
Qed.
Lemma lin_rows r (nd nd' : node) : 0 < rmin -> 0 < r -> dual_node alpha nd nd' -> node_penalty rmin r nd -> stationary_node alpha nd ->
  node_lin_rows (lag_node nd').
Proof.
move=> h1 h2 [zp [zr [q [iq ->]]]] hp [_ _ s3 s4] i ho; have [e1 e2] := hp i ho; cbn [lag_node set_dir nm mem adm az ay] in *.
have -> : node_lin (lag_node (@mkNode E M (nm nd) (pt nd) (mem nd) (der nd) (fs nd) (val nd)
    (mkDirs (dxt (adm nd)) (dut (adm nd)) (lam (dir nd)))
    (mkAdmm (dxt (adm nd)) (dut (adm nd)) (node_z alpha nd) zp zr (node_y alpha nd) q iq))) = node_z alpha nd.
  by rewrite s4 -s3.
by apply: rows_compl => //; rewrite e1; exact: penalty_pos.
Qed.
Lemma tlin_rows r (nd nd' : tnode) : 0 < rmin -> 0 < r -> dual_tnode alpha nd nd' -> tnode_penalty rmin r nd -> stationary_tnode alpha nd ->
  tnode_lin_rows (lag_tnode nd').
Proof.
move=> h1 h2 [zp [zr [q [iq ->]]]] hp [_ s3 s4] i ho; have [e1 e2] := hp i ho; cbn [lag_tnode set_tlam tm tme taz tay] in *.
have -> : tnode_lin (lag_tnode (@mkTnode E M (tm nd) (tx nd) (txt nd) (tme nd) (tder nd) (tfs nd) (tVxx nd) (tVx nd)
    (tdxt nd) (tlam nd) (tdxt nd) (tnode_z alpha nd) zp zr (tnode_y alpha nd) q iq)) = tnode_z alpha nd.
  by rewrite s4 -s3.
by apply: rows_compl => //; rewrite e1; exact: penalty_pos.
Qed.
Lemma stationary_kkt r (preg dreg : F) (t t' : traj M) : 0 < rmin -> 0 < r ->
  dual_step alpha t t' -> penalties rmin r t -> stationary alpha t ->
  lq_kkt 0 (it_stages alpha sigma preg dreg true (run t) (trm t)) (it_final alpha sigma preg (trm t)) ->
  qp_kkt preg dreg (mkTraj (List.map (@lag_node E M) (run t')) (lag_tnode (trm t'))).
Proof.
move=> h1 h2 [hd ht] [p1 p2] [s1 s2] hk; split.
- by cbn [run trm]; rewrite (con_it preg dreg ht true hd s1) (con_it_final preg ht s2).
- cbn [run]; elim: {hk} hd p1 s1 => [|nd nd' l l' hn _ IH] p1 s1 //= nd0 [<-|h].
  + by apply: (lin_rows h1 h2 hn); [apply: p1|apply: s1]; left.
  + by apply: IH h => nd1 h'; [apply: p1|apply: s1]; right.
- exact: (tlin_rows h1 h2 ht p2 s2).
Qed.
End QP.
