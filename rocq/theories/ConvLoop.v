(** * Proofs: residual norms and termination of the ADMM loop of SolverCSQP. *)
From Coq Require Import Ring Field ZArith PeanoNat.
Set Warnings "-notation-overridden,-ambiguous-paths".
From mathcomp Require Import all_ssreflect all_algebra.
From Verif Require Import FieldTac Eigen EigenExact ExactLemmas Problem DDP SQP CSQP LQSpec SubQP Riccati PassExact P_Direction
  CSQPFrames QPSpec FastPass ADMMSpec ADMMExact ADMMIter CallSpec CallInv CallGood CallCover QPExact CSQPConvex EqGuess P_ADMM ConvexQP
  KKTNorm ConvSpec ADMMConv.

Set Implicit Arguments.
Unset Strict Implicit.
Unset Printing Implicit Defensive.

Import Order.TTheory GRing.Theory Num.Theory.
Local Open Scope ring_scope.

Section Project.
Variable F : realFieldType.
Add Field FfPr : (F_field_theory F).
Implicit Types (a b c g z y r v : F) (lo hi : option F).

Lemma max_lip a b c : `|Num.max a c - Num.max b c| <= `|a - b|.
Proof.
wlog hab : a b / a <= b.
  move=> h; case/orP: (le_total a b) => /h //; by rewrite (distrC a b) (distrC (Num.max a c)).
rewrite (distrC a b) (distrC (Num.max a c)).
rewrite [X in _ <= X]ger0_norm ?subr_ge0 // ger0_norm ?subr_ge0; last by rewrite !(le_maxl, le_maxr) hab lexx orbT.
rewrite !maxEle; case: (lerP a c) => h1; case: (lerP b c) => h2.
- by rewrite subrr subr_ge0.
- by rewrite ler_add2l ler_opp2.
- have := lt_le_trans h1 (le_trans hab h2); by rewrite ltxx.
- by [].
Qed.
Lemma min_lip a b c : `|Num.min a c - Num.min b c| <= `|a - b|.
Proof.
have e x : Num.min x c = - Num.max (- x) (- c) by rewrite oppr_max !opprK.
rewrite !e -opprD normrN; apply: (le_trans (max_lip _ _ _)).
by rewrite -opprD normrN.
Qed.
Lemma project_lip lo hi g a b : `|project lo hi g a - project lo hi g b| <= `|a - b|.
Proof.
rewrite /project; case: lo => [l|]; case: hi => [h|] //; [|exact: max_lip|exact: min_lip].
by apply: (le_trans (min_lip _ _ _)); exact: max_lip.
Qed.
Lemma project_fix lo hi g z y r : 0 < r -> ordered lo hi -> complementary lo hi g z y ->
  project lo hi g (z + y / r) = z.
Proof.
move=> r0 ho [[hl hu] hp hn]; rewrite /project.
have box v : z = v -> (if hi is Some b then Num.min v (b - g) else v) = z.
  by move=> <-; case: hi ho hu hp => [b|] // _ /(_ b erefl) h _; rewrite minEle h.
case: (ltrgt0P y) => hy.
- have [b [eb ez]] := hp hy; rewrite eb.
  have hv : b - g <= z + y / r by rewrite -ez ler_addl divr_ge0 // ltW.
  have hv' : b - g <= (if lo is Some a then Num.max (z + y / r) (a - g) else z + y / r).
    by case: lo {ho hl hn} => [a|] //; rewrite le_maxr hv.
  move: (if lo is Some a then _ else _) hv' => v hv'; rewrite minEle ez; case: ifP => // h.
  by apply: le_anti; rewrite h hv'.
- have [b [eb ez]] := hn hy; rewrite eb; apply: box.
  rewrite maxEle ez -{1}ez ger_addl; case: ifP => // /negP h; exfalso; apply: h.
  by rewrite nmulr_rle0 // invr_ge0 ltW.
- rewrite hy mul0r addr0; apply: box.
  by case: lo ho hl hn => [b|] // _ /(_ b erefl) h _; rewrite maxEle leNgt lt_neqAle h andbT; case: eqP => //= ->.
Qed.
End Project.

Section Norms.
Variable F : realFieldType.
Variable sq : F -> F.
Add Field FfNm : (F_field_theory F).
Notation E := (ExactE sq).
Variable M : manifold E.
Notation n := (mndx M).
Notation node := (node M).
Notation tnode := (tnode M).
Variable c : ccfg E.
Notation alpha := (cc_alpha c : F).
Notation sigma := (cc_sigma c : F).
Notation epsabs := (cc_epsabs c : F).
Notation epsrel := (cc_epsrel c : F).
Notation heur := (cc_heur c).

Definition norm_ok (P D : F) (w : norms E) : Prop :=
  w = norms_init E \/
  exists p d pr dr : F, [/\ w = @mkNorms E (EFin p) (EFin d) (EFin pr) (EFin dr), p <= P, d <= D, 0 <= pr & 0 <= dr].

Definition tol_p (w : norms E) : ext E :=
  if @rle E (rabs E epsrel) (rlit E 1 (2 ^ 52)) then efin E epsabs else eadd E (efin E epsabs) (emul E (efin E epsrel) (n_pr w)).
Definition tol_d (w : norms E) : ext E :=
  if @rle E (rabs E epsrel) (rlit E 1 (2 ^ 52)) then efin E epsabs else eadd E (efin E epsabs) (emul E (efin E epsrel) (n_dr w)).
Definition settled (w : norms E) : bool := ele E (n_p w) (tol_p w) && ele E (n_d w) (tol_d w).

Lemma ok_settled w : 0 <= epsrel -> norm_ok epsabs epsabs w -> settled w.
Proof.
move=> r0; rewrite /settled /tol_p /tol_d; case=> [->|[p [d [pr [dr [-> hp hd hpr hdr]]]]]] /=.
  case: ifP => //= h; have er : epsrel != 0.
    by apply/eqP => e; move: h; rewrite e normr0 ltW // xlit_gt0.
  by rewrite (negbTE er) /xsgn_inf ltNge r0.
case: ifP => _ /=; first by rewrite hp hd.
by rewrite !ler_paddr // mulr_ge0.
Qed.

Lemma emaxE (a b : F) : @emax E (EFin a) b = EFin (Num.max a b).
Proof. by rewrite /emax /estd_max /= maxElt; case: ifP. Qed.
Lemma emax_init (b : F) : @emax E (ENInf F) b = EFin b.
Proof. by []. Qed.

Lemma norms_node_ok P D w (nd : node) : norm_ok P D w ->
  (ng (nm nd) <> 0%N ->
   xlinf ((node_Cd nd : 'cV[F]_(ng (nm nd))) - az (adm nd)) <= P /\
   let td : 'cV[F]_(ng (nm nd)) := had (arho (adm nd)) ((az (adm nd) : 'cV[F]_(ng (nm nd))) - azp (adm nd)) in
   if heur then (xlinf td <= D : Prop)
   else xlinf ((Gx (der nd) : 'M[F]_(ng (nm nd), n))^T *m td) <= D /\
        xlinf ((Gu (der nd) : 'M[F]_(ng (nm nd), nu (nm nd)))^T *m td) <= D) ->
  norm_ok P D (norms_node heur w nd).
Proof.
move=> hw hb; rewrite /norms_node; case: Nat.eqb_spec => // h0.
have {h0} [h1 h2] := hb h0; cbv zeta in h2; right.
have td : (@cmul E _ (arho (adm nd)) (vsub E (az (adm nd)) (azp (adm nd))) : 'cV[F]_(ng (nm nd)))
   = had (arho (adm nd)) ((az (adm nd) : 'cV[F]_(ng (nm nd))) - azp (adm nd)) by [].
rewrite td; move: (had _ _) h2 {td} => t h2.
case: hw => [->|[p [d [pr [dr [-> hp hd hpr hdr]]]]]]; case: heur h2 => [h2|[h2 h3]]; rewrite /= ?emax_init ?emaxE;
  eexists _, _, _, _; split; try reflexivity; rewrite ?le_maxl ?h1 ?hp ?hd ?h2 ?h3 // ?le_maxr ?xlinf_ge0 ?hpr ?hdr ?orbT //.
Qed.
Lemma norms_tnode_ok P D w (tn : tnode) : norm_ok P D w ->
  (tng (tm tn) <> 0%N ->
   xlinf ((tnode_Cd tn : 'cV[F]_(tng (tm tn))) - taz tn) <= P /\
   let td : 'cV[F]_(tng (tm tn)) := had (tarho tn) ((taz tn : 'cV[F]_(tng (tm tn))) - tazp tn) in
   if heur then (xlinf td <= D : Prop)
   else xlinf ((tGx (tder tn) : 'M[F]_(tng (tm tn), n))^T *m td) <= D) ->
  norm_ok P D (norms_tnode heur w tn).
Proof.
move=> hw hb; rewrite /norms_tnode; case: Nat.eqb_spec => // h0.
have {h0} [h1 h2] := hb h0; cbv zeta in h2; right.
have td : (@cmul E _ (tarho tn) (vsub E (taz tn) (tazp tn)) : 'cV[F]_(tng (tm tn)))
   = had (tarho tn) ((taz tn : 'cV[F]_(tng (tm tn))) - tazp tn) by [].
rewrite td; move: (had _ _) h2 {td} => t h2.
case: hw => [->|[p [d [pr [dr [-> hp hd hpr hdr]]]]]]; case: heur h2 => h2; rewrite /= ?emax_init ?emaxE;
  eexists _, _, _, _; split; try reflexivity; rewrite ?le_maxl ?h1 ?hp ?hd ?h2 // ?le_maxr ?xlinf_ge0 ?hpr ?hdr ?orbT //.
Qed.

(** rows whose new value is within eta of the old z *)
Lemma rows_small m (lo hi : 'cV[option F]_m) (g Cd z y w irho : 'cV[F]_m) (eta : F) : 0 <= alpha ->
  (forall i, 0 < w i 0) -> (forall i, irho i 0 = (w i 0)^-1) -> (forall i, ordered (lo i 0) (hi i 0)) ->
  (forall i, complementary (lo i 0) (hi i 0) (g i 0) (z i 0) (y i 0)) ->
  (forall i, `|Cd i 0 - z i 0| <= eta) ->
  (forall i, `|new_z lo hi alpha g Cd z y irho i 0 - z i 0| <= alpha * eta) /\
  (forall i, `|Cd i 0 - new_z lo hi alpha g Cd z y irho i 0| <= (1 + alpha) * eta).
Proof.
move=> a0 w0 hi' ho hc hs.
have h1 i : `|new_z lo hi alpha g Cd z y irho i 0 - z i 0| <= alpha * eta.
  rewrite -{1}(project_fix (w0 i) (ho i) (hc i)) mxE; apply: (le_trans (project_lip _ _ _ _ _)).
  rewrite hi' /relaxed !mxE.
  have -> : alpha * Cd i 0 + (1 - alpha) * z i 0 + y i 0 / w i 0 - (z i 0 + y i 0 / w i 0) = alpha * (Cd i 0 - z i 0).
    move: (y i 0 / w i 0) (Cd i 0) (z i 0) (alpha) => p q r a; by mcfold F; ring.
  rewrite normrM (ger0_norm a0); exact: ler_wpmul2l.
split=> // i; have := h1 i; move: (new_z _ _ _ _ _ _ _ _ i 0) => nz h.
have -> : Cd i 0 - nz = (Cd i 0 - z i 0) - (nz - z i 0) by move: (Cd i 0) (z i 0) => p q; mcfold F; ring.
by apply: (le_trans (ler_norm_sub _ _)); rewrite mulrDl mul1r; exact: ler_add.
Qed.
Lemma xlinf_le m (v : 'cV[F]_m) (B : F) : 0 <= B -> (forall i, `|v i 0| <= B) -> xlinf v <= B.
Proof. by move=> b0 h; apply/xlinf_small. Qed.
Lemma column_small m k (G : 'M[F]_(m, k)) (w v : 'cV[F]_m) (K B : F) : (forall i, 0 <= w i 0) ->
  0 <= B -> (forall i, `|v i 0| <= B) -> column_bound G w K -> forall j, `|(G^T *m had w v) j 0| <= K * B.
Proof.
move=> w0 b0 hv hk j; rewrite mxE; apply: (le_trans (ler_norm_sum _ _ _)).
apply: (@le_trans _ _ ((\sum_(i < m) `|G i j| * w i 0) * B)); last exact: ler_wpmul2r (hk j).
rewrite mulr_suml; apply: ler_sum => i _; rewrite !mxE !normrM (ger0_norm (w0 i)) -mulrA.
by apply: ler_wpmul2l => //; apply: ler_wpmul2l.
Qed.

Variables (rmin rho eta K : F).
Hypothesis rmin0 : 0 < rmin.
Hypothesis rho0 : 0 < rho.
Hypothesis al0 : 0 <= alpha.
Hypothesis eta0 : 0 <= eta.
Hypothesis K0 : 0 <= K.
Definition close_node (nd nd' : node) : Prop := exists v d u, nd' = @mkNode E M (nm nd) (pt nd) (mem nd) (der nd) (fs nd) v (dir nd)
    (mkAdmm d u (az (adm nd)) (azp (adm nd)) (azr (adm nd)) (ay (adm nd)) (arho (adm nd)) (airho (adm nd))) /\
   forall i : 'I_(ng (nm nd)), `|((Gx (der nd) : 'M[F]_(ng (nm nd), n)) *m (d : 'cV[F]_n)
     + (Gu (der nd) : 'M[F]_(ng (nm nd), nu (nm nd))) *m (u : 'cV[F]_(nu (nm nd)))) i 0 - (az (adm nd) : 'cV[F]_(ng (nm nd))) i 0| <= eta.
Lemma admm_nodeE (nd : node) : ng (nm nd) <> 0%N -> exists zr, admm_node c nd =
  @mkNode E M (nm nd) (pt nd) (mem nd) (der nd) (fs nd) (val nd) (mkDirs (dxt (adm nd)) (dut (adm nd)) (lam (dir nd)))
    (mkAdmm (dxt (adm nd)) (dut (adm nd)) (node_z alpha nd) (az (adm nd)) zr (node_y alpha nd) (arho (adm nd)) (airho (adm nd))).
Proof.
move=> h0; rewrite /admm_node; case: Nat.eqb_spec => // _.
have [h1 [h2 h3]] := @admm_rowsE F sq c (ng (nm nd)) (alb (nm nd)) (aub (nm nd)) (ag (nm nd) (mem nd)) (node_Cd nd)
    (az (adm nd)) (ay (adm nd)) (arho (adm nd)) (airho (adm nd)).
rewrite h1 h2 h3; by eexists.
Qed.
Lemma admm_tnodeE (tn : tnode) : tng (tm tn) <> 0%N -> exists zr, admm_tnode c tn =
  @mkTnode E M (tm tn) (tx tn) (txt tn) (tme tn) (tder tn) (tfs tn) (tVxx tn) (tVx tn)
    (tdxt tn) (tlam tn) (tdxt tn) (tnode_z alpha tn) (taz tn) zr (tnode_y alpha tn) (tarho tn) (tairho tn).
Proof.
move=> h0; rewrite /admm_tnode; case: Nat.eqb_spec => // _.
have [h1 [h2 h3]] := @admm_rowsE F sq c (tng (tm tn)) (tlb (tm tn)) (tub (tm tn)) (tg (tm tn) (tme tn)) (tnode_Cd tn)
    (taz tn) (tay tn) (tarho tn) (tairho tn).
rewrite h1 h2 h3; by eexists.
Qed.
(** the residuals of a block of rows *)
Lemma block_small m k1 k2 (lo hi : 'cV[option F]_m) (g Cd z y w irho : 'cV[F]_m) (G1 : 'M[F]_(m, k1)) (G2 : 'M[F]_(m, k2)) :
  (forall i, 0 < w i 0) -> (forall i, irho i 0 = (w i 0)^-1) -> (forall i, ordered (lo i 0) (hi i 0)) ->
  (forall i, complementary (lo i 0) (hi i 0) (g i 0) (z i 0) (y i 0)) ->
  (forall i, `|Cd i 0 - z i 0| <= eta) ->
  (if heur then forall i, w i 0 <= K else column_bound G1 w K /\ column_bound G2 w K) ->
  let nz := new_z lo hi alpha g Cd z y irho in
  xlinf (Cd - nz) <= (1 + alpha) * eta /\
  (if heur then is_true (xlinf (had w (nz - z)) <= K * (alpha * eta))
   else xlinf (G1^T *m had w (nz - z)) <= K * (alpha * eta) /\ xlinf (G2^T *m had w (nz - z)) <= K * (alpha * eta)).
Proof.
move=> w0 wi ho hr hc hg /=; have [s1 s2] := rows_small al0 w0 wi ho hr hc.
have ae : 0 <= alpha * eta by exact: mulr_ge0.
have kae : 0 <= K * (alpha * eta) by exact: mulr_ge0.
move: (new_z _ _ _ _ _ _ _ _) s1 s2 => nz s1 s2.
have s1' i : `|(nz - z) i 0| <= alpha * eta by have := s1 i; rewrite !mxE.
have wge i : 0 <= w i 0 by exact: ltW.
split.
  apply: xlinf_le => [|i]; first by apply: mulr_ge0 => //; apply: addr_ge0 => //; exact: ler01.
  by have := s2 i; rewrite !mxE.
case: heur hg => [hg|[g1 g2]].
  apply: xlinf_le => // i; rewrite mxE normrM (ger0_norm (wge i)); exact: ler_pmul.
by split; apply: xlinf_le => //; exact: column_small.
Qed.
Lemma close_norms w (nd nd' : node) : good_node rmin rho nd -> node_gain rmin rho heur K nd -> close_node nd nd' ->
  norm_ok ((1 + alpha) * eta) (K * (alpha * eta)) w ->
  norm_ok ((1 + alpha) * eta) (K * (alpha * eta)) (norms_node heur w (admm_node c nd')).
Proof.
move=> [hcv ho hp hr] hg [v [d [u [-> hc]]]] hw.
have [ew hi] := penalty_weights ho hp.
have hr' (i : 'I_(ng (nm nd))) := hr i (ho i).
have w0 i : 0 < (arho (adm nd) : 'cV[F]_(ng (nm nd))) i 0 by rewrite ew; exact: weights_pos.
have wi i : (airho (adm nd) : 'cV[F]_(ng (nm nd))) i 0 = ((arho (adm nd) : 'cV[F]_(ng (nm nd))) i 0)^-1 by rewrite ew; exact: hi.
have hg' : if heur then forall i, (arho (adm nd) : 'cV[F]_(ng (nm nd))) i 0 <= K
  else column_bound (Gx (der nd) : 'M[F]_(ng (nm nd), n)) (arho (adm nd)) K /\
       column_bound (Gu (der nd) : 'M[F]_(ng (nm nd), nu (nm nd))) (arho (adm nd)) K by rewrite ew.
have key := block_small w0 wi ho hr' hc hg'.
case: (Nat.eqb_spec (ng (nm nd)) 0) => h0.
  have h0' : ng (nm (admm_node c (@mkNode E M (nm nd) (pt nd) (mem nd) (der nd) (fs nd) v (dir nd)
    (mkAdmm d u (az (adm nd)) (azp (adm nd)) (azr (adm nd)) (ay (adm nd)) (arho (adm nd)) (airho (adm nd)))))) = 0%N.
    by rewrite /admm_node; cbn [nm]; case: (Nat.eqb _ _).
  by apply: norms_node_ok.
have [zr ->] := @admm_nodeE (@mkNode E M (nm nd) (pt nd) (mem nd) (der nd) (fs nd) v (dir nd)
    (mkAdmm d u (az (adm nd)) (azp (adm nd)) (azr (adm nd)) (ay (adm nd)) (arho (adm nd)) (airho (adm nd)))) h0.
by apply: norms_node_ok => // _; exact: key.
Qed.
Definition close_tnode (tn tn' : tnode) : Prop := exists A v d, tn' = @mkTnode E M (tm tn) (tx tn) (txt tn) (tme tn) (tder tn) (tfs tn) A v (tdx tn) (tlam tn)
    d (taz tn) (tazp tn) (tazr tn) (tay tn) (tarho tn) (tairho tn) /\
   forall i : 'I_(tng (tm tn)), `|((tGx (tder tn) : 'M[F]_(tng (tm tn), n)) *m (d : 'cV[F]_n)) i 0 - (taz tn : 'cV[F]_(tng (tm tn))) i 0| <= eta.
Lemma close_tnorms w (tn tn' : tnode) : good_tnode rmin rho tn -> tnode_gain rmin rho heur K tn -> close_tnode tn tn' ->
  norm_ok ((1 + alpha) * eta) (K * (alpha * eta)) w ->
  norm_ok ((1 + alpha) * eta) (K * (alpha * eta)) (norms_tnode heur w (admm_tnode c tn')).
Proof.
move=> [hcv ho hp hr] hg [A [v [d [-> hc]]]] hw.
have [ew hi] := tpenalty_weights ho hp.
pose m := tng (tm tn).
have hr' (i : 'I_m) := hr i (ho i).
have w0 i : 0 < (tarho tn : 'cV[F]_m) i 0 by rewrite ew; exact: tweights_pos.
have wi i : (tairho tn : 'cV[F]_m) i 0 = ((tarho tn : 'cV[F]_m) i 0)^-1 by rewrite ew; exact: hi.
have hg' : if heur then forall i, (tarho tn : 'cV[F]_m) i 0 <= K
  else column_bound (tGx (tder tn) : 'M[F]_(m, n)) (tarho tn) K /\
       column_bound (tGx (tder tn) : 'M[F]_(m, n)) (tarho tn) K.
  by move: hg; rewrite /tnode_gain ew; case: heur.
have key := block_small w0 wi ho hr' hc hg'.
case: (Nat.eqb_spec (tng (tm tn)) 0) => h0.
  have h0' : tng (tm (admm_tnode c (@mkTnode E M (tm tn) (tx tn) (txt tn) (tme tn) (tder tn) (tfs tn) A v (tdx tn) (tlam tn)
    d (taz tn) (tazp tn) (tazr tn) (tay tn) (tarho tn) (tairho tn)))) = 0%N.
    by rewrite /admm_tnode; cbn [tm]; case: (Nat.eqb _ _).
  by apply: norms_tnode_ok.
have [zr ->] := @admm_tnodeE (@mkTnode E M (tm tn) (tx tn) (txt tn) (tme tn) (tder tn) (tfs tn) A v (tdx tn) (tlam tn)
    d (taz tn) (tazp tn) (tazr tn) (tay tn) (tarho tn) (tairho tn)) h0.
apply: norms_tnode_ok => // _; move: key; rewrite /=; by case: heur => // -[k1 [k2 _]].
Qed.
Lemma traj_norms (t t' : traj M) : good_traj rmin rho t -> dual_gain rmin rho heur K t ->
  List.Forall2 close_node (run t) (run t') -> close_tnode (trm t) (trm t') ->
  norm_ok ((1 + alpha) * eta) (K * (alpha * eta))
    (norms_of heur (mkTraj (List.map (admm_node c) (run t')) (admm_tnode c (trm t')))).
Proof.
move=> [g1 g2] [d1 d2] h1 h2; rewrite /norms_of; cbn [run trm].
apply: (close_tnorms g2 d2 h2).
have : norm_ok ((1 + alpha) * eta) (K * (alpha * eta)) (norms_init E) by left.
move: (norms_init E); elim: h1 g1 d1 => [//|nd nd' l l' hc _ IH] g1 d1 w hw.
cbn [List.map List.fold_left]; apply: IH; [by move=> x hx; apply: g1; right|by move=> x hx; apply: d1; right|].
exact: (close_norms (g1 nd (or_introl erefl)) (d1 nd (or_introl erefl)) hc hw).
Qed.

(** ** small progress means close rows *)
Lemma posr_ge1 (q : positive) : 1 <= posr F q.
Proof.
elim: q => [q ih|q ih|] //=; first by rewrite ler_addr addr_ge0 // (le_trans ler01).
by apply: ler_paddr => //; exact: (le_trans ler01).
Qed.
Lemma penalty_ge (om : F) lo hi : om <= rmin -> om <= rho -> om <= penalty rmin rho lo hi.
Proof.
move=> h1 h2; rewrite /penalty; case: lo => [a|]; case: hi => [b|] //; case: ifP => _ //.
apply: (le_trans h2); rewrite /xlit divr1 -[X in X <= _]mul1r; apply: ler_wpmul2r; [exact: ltW|exact: posr_ge1].
Qed.
Lemma rows_gap_ge0 m (w z : 'cV[F]_m) (d : 'cV[F]_m) : (forall i, 0 <= w i 0) -> 0 <= rows_gap w z d.
Proof. by move=> h; apply: sumr_ge0 => i _; rewrite !coordE; apply: mulr_ge0 => //; exact: sqr_ge0. Qed.
Lemma rows_gap_close m (w z d : 'cV[F]_m) (om B : F) : 0 <= om -> 0 <= B -> (forall i, om <= w i 0) ->
  B * rows_gap w z d < B * (om * eta ^+ 2) -> forall i, `|d i 0 - z i 0| <= eta.
Proof.
move=> o0 b0 hw h i; rewrite leNgt; apply/negP => hi.
have h2 : om * eta ^+ 2 <= rows_gap w z d.
  rewrite /rows_gap (bigD1 i) //=; apply: ler_paddr.
    by apply: sumr_ge0 => j _; rewrite !coordE; apply: mulr_ge0; [exact: le_trans (hw j)|exact: sqr_ge0].
  rewrite !coordE -(real_normK (num_real (d i 0 - z i 0))); apply: ler_pmul => //; first exact: sqr_ge0.
  by apply: ler_expn2r => //; rewrite ?nnegrE // ltW.
have := lt_le_trans h (ler_wpmul2l b0 h2); by rewrite ltxx.
Qed.
Lemma sq_dist_ge0 m (v w : 'cV[F]_m) : 0 <= sq_dist v w.
Proof. by apply: sumr_ge0 => i _; exact: sqr_ge0. Qed.

Variable om : F.
Hypothesis om0 : 0 <= om.
Hypothesis om1 : om <= rmin.
Hypothesis om2 : om <= rho.
Hypothesis al2 : alpha <= 2%:R.
Hypothesis si0 : 0 <= sigma.
Notation prog := (progress rmin rho alpha sigma).
Notation delta := (alpha * (2%:R - alpha) * (om * eta ^+ 2)).
Lemma aa0 : 0 <= alpha * (2%:R - alpha).
Proof. by apply: mulr_ge0 => //; rewrite subr_ge0. Qed.
Lemma as0 : 0 <= alpha * sigma.
Proof. exact: mulr_ge0. Qed.
Lemma node_prog (nd nd' nd2 : node) : primal_node nd nd' -> dual_node alpha nd' nd2 ->
  0 <= node_progress rmin rho alpha sigma nd nd2 /\
  (node_progress rmin rho alpha sigma nd nd2 < delta -> close_node nd nd').
Proof.
move=> [v [d [u ->]]] [zp [zr [r [ir ->]]]].
have wge i : om <= weights rmin rho nd i 0 by rewrite mxE; exact: penalty_ge.
have w0 i : 0 <= weights rmin rho nd i 0 by exact: le_trans (wge i).
pose cd : 'cV[F]_(ng (nm nd)) := (Gx (der nd) : 'M[F]_(ng (nm nd), n)) *m (d : 'cV[F]_n)
     + (Gu (der nd) : 'M[F]_(ng (nm nd), nu (nm nd))) *m (u : 'cV[F]_(nu (nm nd))).
have g0 := rows_gap_ge0 (az (adm nd)) cd w0.
have d0 := addr_ge0 (@sq_dist_ge0 n (dx (dir nd)) d) (@sq_dist_ge0 (nu (nm nd)) (du (dir nd)) u).
have p1 := mulr_ge0 aa0 g0; have p2 := mulr_ge0 as0 d0.
split; first exact: (addr_ge0 p1 p2).
move=> h; exists v, d, u; split=> //.
apply: (rows_gap_close om0 aa0 wge).
apply: le_lt_trans h; exact: (ler_paddr p2 (lexx _)).
Qed.
Lemma tnode_prog (nd nd' nd2 : tnode) : primal_tnode nd nd' -> dual_tnode alpha nd' nd2 ->
  0 <= tnode_progress rmin rho alpha sigma nd nd2 /\
  (tnode_progress rmin rho alpha sigma nd nd2 < delta -> close_tnode nd nd').
Proof.
move=> [A [v [d ->]]] [zp [zr [r [ir ->]]]].
have wge i : om <= tweights rmin rho nd i 0 by rewrite mxE; exact: penalty_ge.
have w0 i : 0 <= tweights rmin rho nd i 0 by exact: le_trans (wge i).
pose cd : 'cV[F]_(tng (tm nd)) := (tGx (tder nd) : 'M[F]_(tng (tm nd), n)) *m (d : 'cV[F]_n).
have g0 := rows_gap_ge0 (taz nd) cd w0.
have d0 := @sq_dist_ge0 n (tdx nd) d.
have p1 := mulr_ge0 aa0 g0; have p2 := mulr_ge0 as0 d0.
split; first exact: (addr_ge0 p1 p2).
move=> h; exists A, v, d; split=> //.
apply: (rows_gap_close om0 aa0 wge).
apply: le_lt_trans h; exact: (ler_paddr p2 (lexx _)).
Qed.
Lemma nodes_prog : forall l l' l2 : seq node, List.Forall2 (@primal_node F sq M) l l' -> List.Forall2 (@dual_node F sq M alpha) l' l2 ->
  0 <= sum2 (node_progress rmin rho alpha sigma) l l2 /\
  (sum2 (node_progress rmin rho alpha sigma) l l2 < delta -> List.Forall2 close_node l l').
Proof.
move=> l l' l2 h1; elim: h1 l2 => [|nd nd' l1 l1' hn _ IH] l2 h2.
  by inversion h2; split=> //= _; constructor.
inversion h2 as [|? nd2 ? l3 hd hl]; subst; have [p0 pc] := node_prog hn hd; have [q0 qc] := IH _ hl.
split=> [|h]; first exact: addr_ge0.
constructor.
- by apply: pc; apply: le_lt_trans h; rewrite /= ler_addl.
- by apply: qc; apply: le_lt_trans h; rewrite /= ler_addr.
Qed.
Lemma traj_prog (t t' t2 : traj M) : primal_step t t' -> dual_step alpha t' t2 ->
  0 <= prog t t2 /\
  (prog t t2 < delta -> List.Forall2 close_node (run t) (run t') /\ close_tnode (trm t) (trm t')).
Proof.
move=> [h1 h2] [d1 d2]; have [p0 pc] := nodes_prog h1 d1; have [q0 qc] := tnode_prog h2 d2.
split=> [|h]; first exact: addr_ge0.
split; [apply: pc|apply: qc]; apply: le_lt_trans h; [exact: (ler_paddr q0 (lexx _))|exact: (ler_paddl p0 (lexx _))].
Qed.
End Norms.
