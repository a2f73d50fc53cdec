(** * C60: what the termination test of the QP loop of SolverCSQP certifies. *)
From Coq Require Import Ring Field ZArith PeanoNat.
Set Warnings "-notation-overridden,-ambiguous-paths".
From mathcomp Require Import all_ssreflect all_algebra.
From Verif Require Import FieldTac Eigen EigenExact ExactLemmas Problem DDP Filter SQP CSQP Init LQSpec SubQP Riccati PassExact
  TrialSpec TraceSpec SQPSpec CSQPSpec CSQPFrames CSQPLoop CSQPHist P_Direction
  QPSpec FastPass ADMMSpec ADMMExact ADMMIter CallSpec CallInv CallGood CallCover QPExact CSQPConvex EqGuess P_ADMM ConvexQP
  KKTNorm ConvSpec StopSpec ADMMConv ConvLoop P_Converge SsrLia.

Set Implicit Arguments.
Unset Strict Implicit.
Unset Printing Implicit Defensive.

Import Order.TTheory GRing.Theory Num.Theory.
Local Open Scope ring_scope.

Section P.
Variable F : realFieldType.
Variable sq : F -> F.
Add Field FfQS : (F_field_theory F).
Notation E := (ExactE sq).
Variable M : manifold E.
Notation n := (mndx M).
Notation node := (node M).
Notation tnode := (tnode M).
Variable c : ccfg E.
Notation sigma := (cc_sigma c : F).
Notation alpha := (cc_alpha c : F).
Notation rmin := (cc_rhomin c : F).
Notation heur := (cc_heur c).

(** ** reading the norms *)
Lemma ele_emax (a : ext E) (b P : F) : ele E (@emax E a b) (EFin P) -> ele E a (EFin P) /\ b <= P.
Proof.
rewrite /emax /estd_max; case: a => [a| | |] //=.
case: ltP => //= h1 h2; split=> //; [exact: ltW (lt_le_trans h1 h2)|exact: le_trans h2].
Qed.
Lemma ele_trans (a b : ext E) (P : F) : ele E a b -> ele E b (EFin P) -> ele E a (EFin P).
Proof. by case: a => [a| | |]; case: b => [b| | |] //=; exact: le_trans. Qed.

(** the residuals of the rows of a node of the point [t'] *)
Definition row_test (P D : F) m q r (G1 : 'M[F]_(m, q)) (G2 : 'M[F]_(m, r)) (Cd nz z w : 'cV[F]_m) : Prop :=
  small P (Cd - nz) /\ (if heur then small D (had w (nz - z)) else small D (G1^T *m had w (nz - z)) /\ small D (G2^T *m had w (nz - z))).
Definition node_test (P D : F) (nd : node) : Prop :=
  @row_test P D (ng (nm nd)) n (nu (nm nd)) (Gx (der nd)) (Gu (der nd)) (row_Cd nd) (node_z alpha nd) (az (adm nd)) (arho (adm nd)).
Definition tnode_test (P D : F) (tn : tnode) : Prop :=
  @row_test P D (tng (tm tn)) n n (tGx (tder tn)) (tGx (tder tn)) (row_Cd_t tn) (tnode_z alpha tn) (taz tn) (tarho tn).
Lemma xlinf_smallW m (v : 'cV[F]_m) (B : F) : xlinf v <= B -> small B v.
Proof. by move=> h; apply/xlinf_small => //; apply: le_trans h; exact: xlinf_ge0. Qed.
Lemma row_test0 P D m q r (G1 : 'M[F]_(m, q)) (G2 : 'M[F]_(m, r)) (Cd nz z w : 'cV[F]_m) : 0 <= D -> m = 0%N -> row_test P D G1 G2 Cd nz z w.
Proof.
move=> D0 e; subst m; split; first by case.
have z0 k (G : 'M[F]_(0, k)) : small D (G^T *m had w (nz - z)) by move=> i; rewrite mxE big_ord0 normr0.
by case: heur; [case|split].
Qed.
Lemma node_test_of P D w (nd : node) : 0 <= D -> ele E (n_p (norms_node heur w (admm_node c nd))) (EFin P) ->
  ele E (n_d (norms_node heur w (admm_node c nd))) (EFin D) ->
  [/\ ele E (n_p w) (EFin P), ele E (n_d w) (EFin D) & node_test P D nd].
Proof.
move=> D0; case: (Nat.eqb_spec (ng (nm nd)) 0) => h0.
  have e : norms_node heur w (admm_node c nd) = w.
    rewrite /norms_node /admm_node; cbn [nm]; have /Nat.eqb_eq h1 := h0.
    by rewrite h1; cbn [nm set_dir set_adm]; rewrite h1.
  by rewrite e => h1 h2; split=> //; exact: row_test0.
have [zr ->] := admm_nodeE c h0; rewrite /norms_node; cbn [nm adm der].
case: Nat.eqb_spec => // _; rewrite /node_test /row_test.
have cd : (node_Cd (@mkNode E M (nm nd) (pt nd) (mem nd) (der nd) (fs nd) (val nd) (mkDirs (dxt (adm nd)) (dut (adm nd)) (lam (dir nd)))
    (mkAdmm (dxt (adm nd)) (dut (adm nd)) (node_z alpha nd) (az (adm nd)) zr (node_y alpha nd) (arho (adm nd)) (airho (adm nd)))) : 'cV[F]_(ng (nm nd))) = row_Cd nd by [].
have cm : (@cmul E _ (arho (adm nd)) (vsub E (node_z alpha nd) (az (adm nd))) : 'cV[F]_(ng (nm nd)))
   = had (arho (adm nd)) ((node_z alpha nd : 'cV[F]_(ng (nm nd))) - az (adm nd)) by [].
case: heur; cbn [n_p n_d].
  move=> /ele_emax [h1 h2] /ele_emax [h3 h4]; split=> //; split; first exact: xlinf_smallW h2.
  exact: xlinf_smallW h4.
move=> /ele_emax [h1 h2] /ele_emax [/ele_emax [h3 h4] h5]; split=> //; split; first exact: xlinf_smallW h2.
by split; [exact: xlinf_smallW h4|exact: xlinf_smallW h5].
Qed.
Lemma tnode_test_of P D w (nd : tnode) : 0 <= D -> ele E (n_p (norms_tnode heur w (admm_tnode c nd))) (EFin P) ->
  ele E (n_d (norms_tnode heur w (admm_tnode c nd))) (EFin D) ->
  [/\ ele E (n_p w) (EFin P), ele E (n_d w) (EFin D) & tnode_test P D nd].
Proof.
move=> D0; case: (Nat.eqb_spec (tng (tm nd)) 0) => h0.
  have e : norms_tnode heur w (admm_tnode c nd) = w.
    rewrite /norms_tnode /admm_tnode; have /Nat.eqb_eq h1 := h0.
    by rewrite h1; cbn [tm]; rewrite h1.
  by rewrite e => h1 h2; split=> //; exact: row_test0.
have [zr ->] := admm_tnodeE c h0; rewrite /norms_tnode; cbn [tm tder taz tazp tarho].
case: Nat.eqb_spec => // _; rewrite /tnode_test /row_test.
case: heur; cbn [n_p n_d].
  move=> /ele_emax [h1 h2] /ele_emax [h3 h4]; split=> //; split; first exact: xlinf_smallW h2.
  exact: xlinf_smallW h4.
move=> /ele_emax [h1 h2] /ele_emax [h3 h4]; split=> //; split; first exact: xlinf_smallW h2.
by split; exact: xlinf_smallW h4.
Qed.
Lemma traj_test P D (t : traj M) : 0 <= D ->
  let w := norms_of heur (mkTraj (List.map (admm_node c) (run t)) (admm_tnode c (trm t))) in
  ele E (n_p w) (EFin P) -> ele E (n_d w) (EFin D) ->
  (forall nd, List.In nd (run t) -> node_test P D nd) /\ tnode_test P D (trm t).
Proof.
move=> D0; rewrite /norms_of; cbn [run trm] => /(tnode_test_of D0) h /h {h} [h1 h2 h3]; split=> //.
move: (norms_init E) h1 h2; elim: (run t) => [//|nd l ih] w; cbn [List.map List.fold_left] => h1 h2.
have [k1 k2] : ele E (n_p (norms_node heur w (admm_node c nd))) (EFin P) /\ ele E (n_d (norms_node heur w (admm_node c nd))) (EFin D).
  move: (norms_node heur w (admm_node c nd)) h1 h2 => w1 {ih}.
  elim: l w1 => [//|a l ih] w1; cbn [List.map List.fold_left] => h1 h2; have [g1 g2] := ih _ h1 h2.
  by have [] := node_test_of D0 g1 g2.
have [_ _ k3] := node_test_of D0 k1 k2.
by move=> nd' [<-|h]; [exact: k3|exact: (ih _ h1 h2)].
Qed.

(** ** the stationarity defect *)
Lemma mixedE m (lo hi : 'cV[option F]_m) (g Cd z y w irho : 'cV[F]_m) :
  let nz := new_z lo hi alpha g Cd z y irho in
  mixed_res lo hi alpha g Cd z y w irho = (1 - alpha) *: had w (Cd - nz) + (2%:R - alpha) *: had w (nz - z).
Proof.
rewrite /mixed_res /=; move: (new_z _ _ _ _ _ _ _ _) => nz; apply/matrixP => i j; rewrite !mxE.
move: (w i j) (Cd i j) (z i j) (nz i j) (alpha) => a b d e f.
by mcfold F; ring.
Qed.
Lemma small_add m (a b : F) (v w : 'cV[F]_m) : small a v -> small b w -> small (a + b) (v + w).
Proof. by move=> h1 h2 i; rewrite mxE; apply: (le_trans (ler_norm_add _ _)); exact: ler_add. Qed.
Lemma small_scale m (a b : F) (v : 'cV[F]_m) : small b v -> small (`|a| * b) (a *: v).
Proof. by move=> h i; rewrite mxE normrM; exact: ler_wpmul2l. Qed.
Lemma small_gain m q (G : 'M[F]_(m, q)) (w v : 'cV[F]_m) (K B : F) : (forall i, 0 <= w i 0) ->
  0 <= B -> small B v -> column_bound G w K -> small (K * B) (G^T *m had w v).
Proof. by move=> w0 b0 hv hk j; exact: (column_small w0 b0 hv hk). Qed.
Lemma small_jac m q (G : 'M[F]_(m, q)) (v : 'cV[F]_m) (L B : F) :
  0 <= B -> small B v -> (forall j, \sum_(i < m) `|G i j| <= L) -> small (L * B) (G^T *m v).
Proof.
move=> b0 hv hk j; rewrite mxE; apply: (le_trans (ler_norm_sum _ _ _)).
apply: (@le_trans _ _ ((\sum_(i < m) `|G i j|) * B)); last exact: ler_wpmul2r (hk j).
rewrite mulr_suml; apply: ler_sum => i _; rewrite !mxE normrM; exact: ler_wpmul2l.
Qed.
Definition gain (L : F) : F := if heur then L else 1.
Lemma defect_small m q r (lo hi : 'cV[option F]_m) (g Cd z y w irho : 'cV[F]_m) (G1 : 'M[F]_(m, q)) (G2 : 'M[F]_(m, r)) (K L P D : F) :
  0 <= P -> 0 <= D -> (forall i, 0 <= w i 0) ->
  row_test P D G1 G2 Cd (new_z lo hi alpha g Cd z y irho) z w ->
  column_bound G1 w K -> column_bound G2 w K ->
  (forall j, \sum_(i < m) `|G1 i j| <= L) -> (forall j, \sum_(i < m) `|G2 i j| <= L) ->
  let b := `|1 - alpha| * (K * P) + `|2%:R - alpha| * (gain L * D) in
  small b (G1^T *m mixed_res lo hi alpha g Cd z y w irho) /\ small b (G2^T *m mixed_res lo hi alpha g Cd z y w irho).
Proof.
move=> P0 D0 w0 [h1 h2] k1 k2 l1 l2; rewrite /= mixedE; move: (new_z _ _ _ _ _ _ _ _) h1 h2 => nz h1 h2.
have [d1 d2] : small (gain L * D) (G1^T *m had w (nz - z)) /\ small (gain L * D) (G2^T *m had w (nz - z)).
  rewrite /gain; case: heur h2 => [h2|[h2 h3]]; last by rewrite mul1r.
  by split; exact: small_jac.
by split; rewrite mulmxDr -!scalemxAr; apply: small_add; apply: small_scale => //; exact: small_gain.
Qed.

(** ** from the point to the exposed direction *)
Definition node_bounds (b eps : F) (nd : node) : Prop :=
  [/\ small b ((Gx (der nd) : 'M[F]_(ng (nm nd), n))^T *m node_res alpha nd),
      small b ((Gu (der nd) : 'M[F]_(ng (nm nd), nu (nm nd)))^T *m node_res alpha nd),
      small eps ((dxt (adm nd) : 'cV[F]_n) - dx (dir nd))
    & small eps ((dut (adm nd) : 'cV[F]_(nu (nm nd))) - du (dir nd))].
Definition tnode_bounds (b eps : F) (tn : tnode) : Prop :=
  small b ((tGx (tder tn) : 'M[F]_(tng (tm tn), n))^T *m tnode_res alpha tn) /\ small eps ((tdxt tn : 'cV[F]_n) - tdx tn).
Lemma small_opp m (b : F) (v : 'cV[F]_m) : small b v -> small b (- v).
Proof. by move=> h i; rewrite mxE normrN. Qed.
Lemma small_pert m (b eps : F) (p q : 'cV[F]_m) : 0 <= sigma -> small eps p -> small b q -> small (b + sigma * eps) (sigma *: p + q).
Proof.
move=> s0 h1 h2; rewrite [sigma *: p + q]addrC; apply: small_add => //.
by have := small_scale sigma h1; rewrite ger0_norm.
Qed.
Lemma small_le m (a b : F) (v : 'cV[F]_m) : a <= b -> small a v -> small b v.
Proof. by move=> h h1 i; apply: le_trans h. Qed.
Lemma drop_pert m (b : F) (A P B C D : 'cV[F]_m) : A + P + B + C + D = 0 -> small b P -> small b (A + B + C + D).
Proof.
move=> e h; have -> : A + B + C + D = - P; last exact: small_opp.
by apply/eqP; rewrite -addr_eq0; apply/eqP; rewrite -[RHS]e; vabel F.
Qed.
Lemma drop_pert_l m (b : F) (A P B C D L : 'cV[F]_m) : A + P + B + C + D = L -> small b P -> small b (A + B + C + D - L).
Proof. by move=> <- h; have := small_opp h; congr small; vabel F. Qed.
Lemma drop_pert_t m (b : F) (A P B L : 'cV[F]_m) : A + P + B = L -> small b P -> small b (A + B - L).
Proof. by move=> <- h; have := small_opp h; congr small; vabel F. Qed.
Lemma next_it (preg dreg : F) (tn tn' : tnode) : dual_tnode alpha tn tn' -> forall (l l' : seq node) first,
  List.Forall2 (@dual_node F sq M alpha) l l' ->
  next_l (con_stages preg dreg first (List.map (@lag_node E M) l') (lag_tnode tn')) (con_final preg (lag_tnode tn'))
  = next_l (it_stages alpha sigma preg dreg first l tn) (it_final alpha sigma preg tn).
Proof.
move=> [zp [zr [q [iq et]]]] l l' first h; case: h => [|nd nd' l1 l1' [zp' [zr' [q' [iq' e]]]] _] /=; first by rewrite et.
by rewrite e.
Qed.
Lemma near_stages (preg dreg b eps : F) (tn tn' : tnode) : 0 <= sigma -> 0 <= b -> 0 <= eps -> dual_tnode alpha tn tn' -> tnode_bounds b eps tn ->
  forall (l l' : seq node) first (d : 'cV[F]_n), List.Forall2 (@dual_node F sq M alpha) l l' ->
  (forall nd, List.In nd l -> node_bounds b eps nd) ->
  lq_kkt d (it_stages alpha sigma preg dreg first l tn) (it_final alpha sigma preg tn) ->
  lq_near (b + sigma * eps) d (con_stages preg dreg first (List.map (@lag_node E M) l') (lag_tnode tn')) (con_final preg (lag_tnode tn')).
Proof.
move=> s0 b0 e0 ht tb l l' first d h; elim: h first d => [|nd nd' l1 l1' hn h IH] first d hb.
  case: (ht) => [zp [zr [q [iq et]]]]; subst tn'; move=> /= [<- hk]; split=> //; case: tb => tb1 tb2.
  exact: (drop_pert_t hk (small_pert s0 tb2 tb1)).
have nx := next_it preg dreg ht false h.
case: (hn) => [zp [zr [q [iq en]]]].
have ef : hd_fs (List.map (@lag_node E M) l1') (lag_tnode tn') = hd_fs l1 tn.
  case: (h) => [|a b' l2 l2' [? [? [? [? ->]]]] _] //; case: ht => [? [? [? [? ->]]]] //.
subst nd'; cbn [List.map con_stages it_stages lq_kkt lq_near]; rewrite nx ef => -[k1 k2 k3 k4].
have [b1 b2 b3 b4] := hb nd (or_introl erefl).
split=> //.
- exact: (drop_pert k2 (small_pert s0 b4 b2)).
- apply: (drop_pert_l k3); apply: small_pert => //; rewrite /eGx; case: (first) => //.
  by rewrite trmx0 mul0mx => i; rewrite mxE normr0.
- by apply: IH => // x hx; apply: hb; right.
Qed.
End P.

Section T.
Variable F : realFieldType.
Variable sq : F -> F.
Add Field FfQT : (F_field_theory F).
Notation E := (ExactE sq).
Variable M : manifold E.
Notation n := (mndx M).
Notation node := (node M).
Notation tnode := (tnode M).
Variable c : ccfg E.
Variable timeout : nat -> bool.
Notation sigma := (cc_sigma c : F).
Notation alpha := (cc_alpha c : F).
Notation rmin := (cc_rhomin c : F).
Notation rmax := (cc_rhomax c : F).
Notation rbase := (cc_rhobase c : F).
Notation heur := (cc_heur c).
Notation interval := (cc_interval c).
Notation point si := (cforward (snd (cb_backward c (k_preg si) (k_dreg si) (k_tr si)))).

Lemma qp_step_stop i (si s2 p : csqp M) : qp_pass c i (set_k_log (EvQP E i :: k_log si) si) = (true, p) ->
  qp_step c i si = SStop s2 ->
  let w := norms_of heur (mkTraj (List.map (admm_node c) (run (cforward (k_tr p)))) (admm_tnode c (trm (cforward (k_tr p))))) in
  ele E (n_p w) (k_tolp s2) /\ ele E (n_d w) (k_told s2).
Proof.
move=> hp; rewrite /qp_step hp; cbn [fst snd].
case: (Nat.eqb _ _) => //; set u := update_lagrangian _ _ _.
have hn : k_norms (update_rho c true u) = norms_of heur (mkTraj (List.map (admm_node c) (run (cforward (k_tr p)))) (admm_tnode c (trm (cforward (k_tr p))))).
  by rewrite /update_rho; case: (_ && _).
rewrite -hn; move: (update_rho c true u) => q {hn u}.
case e: (qp_converged _) => // -[<-]; move: e; rewrite /qp_converged => /andP.
by have -> : k_norms (qp_tolerances c q) = k_norms q by rewrite /qp_tolerances; case: (rle _ _ _).
Qed.
Lemma compl_near (lo hi : option F) (g z y v tol : F) : complementary lo hi g z y -> `|v - z| <= tol -> near_row tol lo hi g v y.
Proof.
move=> [[hl hu] hp hn] ha; have := ha; rewrite ler_norml => /andP[h1 h2].
have hv1 : z - tol <= v by rewrite -(ler_add2r (- z)) addrAC subrr add0r.
have hv2 : v <= z + tol by move: h2; rewrite ler_subl_addl.
have ab b : g + v - b = v - (b - g) by mcfold F; ring.
split.
- move=> b /hl h; rewrite -ler_subl_addl; apply: le_trans hv1; by rewrite addrAC ler_add2r.
- move=> b /hu h; rewrite -ler_subr_addl; apply: (le_trans hv2); by rewrite addrAC ler_add2r.
- by move=> /hp [b [-> e]]; exists b => //; rewrite ab -e.
- by move=> /hn [b [-> e]]; exists b => //; rewrite ab -e.
Qed.

Variables (l : seq (slot M)) (t : tslot M) (resize : nat -> nat -> Prop).
Variables (k : nat) (s : csqp M) (fuel : nat) (x0 : mX M) (xs : seq (mX M)) (us : seq {m : nat & vec E m}).
Variables (maxiter : nat) (reg : option (R E)).
Notation reached s1 i si := (csqp_hist l t resize k s /\ solve_qp c timeout fuel x0 xs us maxiter reg s s1 i si).

Lemma dual_in (l1 l2 : seq node) nd2 : List.Forall2 (@dual_node F sq M alpha) l1 l2 -> List.In nd2 l2 ->
  exists2 nd, List.In nd l1 & dual_node alpha nd nd2.
Proof. by elim=> [//|a b la lb h _ ih] [<-|/ih [x hx hd]]; [exists a => //; left|exists x => //; right]. Qed.
Lemma primal_in (l1 l2 : seq node) nd2 : List.Forall2 (@primal_node F sq M) l1 l2 -> List.In nd2 l2 ->
  exists2 nd, List.In nd l1 & primal_node nd nd2.
Proof. by elim=> [//|a b la lb h _ ih] [<-|/ih [x hx hd]]; [exists a => //; left|exists x => //; right]. Qed.
Lemma near_small (eps : F) m (v w : 'cV[F]_m) : near_vec eps v w -> small eps (w - v).
Proof. by move=> h i; have := h i; rewrite !coordE !mxE distrC. Qed.
Lemma moved_small (eps : F) (l0 l1 l2 : seq node) : List.Forall2 (@primal_node F sq M) l0 l1 -> List.Forall2 (@dual_node F sq M alpha) l1 l2 ->
  List.Forall2 (fun nd nd' : node => @near_vec F eps n (dx (dir nd)) n (dx (dir nd')) /\
     @near_vec F eps (nu (nm nd)) (du (dir nd)) (nu (nm nd')) (du (dir nd'))) l0 l2 ->
  forall nd, List.In nd l1 -> small eps ((dxt (adm nd) : 'cV[F]_n) - dx (dir nd)) /\
     small eps ((dut (adm nd) : 'cV[F]_(nu (nm nd))) - du (dir nd)).
Proof.
move=> h; elim: h l2 => [//|a b la lb h1 _ ih] l2 h2; inversion h2 as [|b' d lb' ld h3 h4]; subst.
move=> h5; inversion h5 as [|a' d' la' ld' h6 h7]; subst.
move=> nd [<-|h8]; last exact: (ih _ h4 h7 _ h8).
case: h1 h3 h6 => [v [dd [u ->]]] [zp [zr [r [ir ->]]]] [h9 h10].
by split; exact: near_small.
Qed.

Lemma tbounds_of (rho eps K L P D : F) (tn tn' tn2 : tnode) : 0 < rmin -> 0 < rho -> 0 <= P -> 0 <= D ->
  primal_tnode tn tn' -> dual_tnode alpha tn' tn2 ->
  @near_vec F eps n (tdx tn) n (tdx tn2) -> tnode_test c P D tn' ->
  (forall i, ordered ((tlb (tm tn) : 'cV[option F]_(tng (tm tn))) i 0) ((tub (tm tn) : 'cV[option F]_(tng (tm tn))) i 0)) ->
  tnode_penalty rmin rho tn -> tnode_gain rmin rho false K tn ->
  (forall j, \sum_(i < tng (tm tn)) `|(tGx (tder tn) : 'M[F]_(tng (tm tn), n)) i j| <= L) ->
  tnode_bounds c (`|1 - alpha| * (K * P) + `|2%:R - alpha| * (gain c L * D)) eps tn'.
Proof.
move=> h0 hr p0 d0 [A [v [d ->]]] [zp [zr [r [ir ->]]]] m2 test o2 pn2 k1 j2.
have [ew _] := tpenalty_weights o2 pn2.
have w0 i' : 0 <= (tarho tn : 'cV[F]_(tng (tm tn))) i' 0 by rewrite ew ltW // tweights_pos.
rewrite /tnode_gain -ew in k1.
have [d1 d2] := defect_small p0 d0 w0 test k1 k1 j2 j2; split=> //.
exact: near_small.
Qed.
Lemma tnear_of (P D : F) (tn' tn2 : tnode) : dual_tnode alpha tn' tn2 -> tnode_test c P D tn' -> tnode_rows tn2 -> tnode_near P (lag_tnode tn2).
Proof.
move=> [zp [zr [r [ir ->]]]] [tst _] cr i' ho.
by apply: (compl_near (cr i' ho)); have := tst i'; rewrite mxE [(- _ : 'cV[F]_ _) _ _]mxE.
Qed.

(** C60.  When the termination test of the QP loop succeeds, with tolerances tolp
    and told for the primal and dual residual, the exposed direction and
    multipliers are an approximate KKT point of the subproblem: every linearised
    row is satisfied, and complementary, up to tolp; stationarity holds up to
       |1 - alpha| K tolp + |2 - alpha| L told + sigma eps
    where K bounds the penalty-weighted, L the plain absolute column sums of the
    row Jacobians (L enters only with update_rho_with_heuristic), and eps the
    change of the direction in the last iteration. *)
Theorem C60_termination_test s1 i si s2 (tolp told K L eps : F) : sane c -> reached s1 i si -> qp_step c i si = SStop s2 ->
  traj_sym (k_tr si) -> rows_ordered (k_tr si) ->
  ele E (k_tolp s2) (EFin tolp) -> ele E (k_told s2) (EFin told) -> 0 <= tolp -> 0 <= told ->
  dual_gain rmin (k_rho si) false K (k_tr si) -> jac_gain L (k_tr si) -> 0 <= K -> 0 <= L ->
  moved eps (k_tr si) (k_tr s2) -> 0 <= eps ->
  qp_near tolp (`|1 - alpha| * (K * tolp) + `|2%:R - alpha| * ((if heur then L else 1) * told) + sigma * eps)
    (k_preg s2) (k_dreg s2) (k_tr (csqp_checkKKT s2)).
Proof.
move=> hs hr hst hsy [o1 o2] hp hd p0 d0 [g1 g2] [j1 j2] K0 L0 [m1 m2] e0.
have [hk [h0 hm] hb [a0 a2] sg] := hs.
have hgo := or_intror hst : qp_step c i si = SGo s2 \/ qp_step c i si = SStop s2.
have [q1 q2 q3 _] := step_point hk hr hsy hgo.
have hcr := C27_complementary_rows hk h0 hm hb hr hgo.
have hpos := C29_positive h0 hm hb hr.
have [_ [pn1 pn2]] := C28_C29_C37_penalties hm hr.
case: (hr) => hh [s0 [hb' [hc ht]]].
have [hok [_ [ep ed]]] := step_tr hk ht hgo.
have [w1 w2] := qp_pass_cb hk ht.
have [P1 P2] : ele E (n_p (norms_of heur (mkTraj (List.map (admm_node c) (run (point si))) (admm_tnode c (trm (point si)))))) (EFin tolp)
   /\ ele E (n_d (norms_of heur (mkTraj (List.map (admm_node c) (run (point si))) (admm_tnode c (trm (point si)))))) (EFin told).
  set s9 := set_k_log (EvQP E i :: k_log si) si.
  have e1 : fst (qp_pass c i s9) = fst (qp_pass c i si) by rewrite /qp_pass; case: (qp_full c i).
  have e2 : k_tr (snd (qp_pass c i s9)) = k_tr (snd (qp_pass c i si)) by rewrite /qp_pass; case: (qp_full c i).
  have epp : qp_pass c i s9 = (true, snd (qp_pass c i s9)).
    by move: e1; rewrite w1 hok; case: (qp_pass c i s9) => b q /= ->.
  have [] := qp_step_stop epp hst; rewrite e2 w2 // => t1 t2.
  by split; [exact: ele_trans t1 hp|exact: ele_trans t2 hd].
have [nt tt] := traj_test d0 P1 P2.
move: (point si) q1 q2 q3 nt tt => t' [q1 q1'] [q2 q2'] q3 nt tt {P1 P2 w1 w2}.
set b := `|1 - alpha| * _ + _.
have b0 : 0 <= b.
  apply: addr_ge0; apply: mulr_ge0 => //; apply: mulr_ge0 => //; case: heur => //; exact: ler01.
have hnb : forall nd, List.In nd (run t') -> node_bounds c b eps nd.
  move=> nd hn; have [c1 c2] := moved_small q1 q2 m1 hn.
  have [n0 hn0 pn] := primal_in q1 hn.
  have test := nt nd hn; case: pn => v [d [u e]]; subst nd.
  have [ew _] := penalty_weights (o1 n0 hn0) (pn1 n0 hn0).
  have [k1 k2] := g1 n0 hn0; have [l1 l2] := j1 n0 hn0.
  have w0 i' : 0 <= (arho (adm n0) : 'cV[F]_(ng (nm n0))) i' 0 by rewrite ew ltW // weights_pos.
  rewrite -ew in k1 k2.
  by have [d1 d2] := defect_small p0 d0 w0 test k1 k2 l1 l2; split.
have htb : tnode_bounds c b eps (trm t').
  exact: (tbounds_of h0 hpos p0 d0 q1' q2' m2 tt o2 pn2 g2 j2).
case: hcr => hcr1 hcr2.
split.
- rewrite ep ed; exact: (near_stages sg b0 e0 q2' htb q2 hnb q3).
- move=> nd /List.in_map_iff [n2 [<- hn2]] i' ho.
  have [n1 hn1 dn] := dual_in q2 hn2; have [tst _] := nt n1 hn1.
  have cr := hcr1 n2 hn2; case: dn => zp [zr [r [ir e]]]; subst n2.
  apply: (compl_near (cr i' ho)); have := tst i'; by rewrite mxE [(- _ : 'cV[F]_ _) _ _]mxE.
- exact: (tnear_of q2' tt hcr2).
Qed.

(** ** What the test does not see: the proximal term *)
Definition no_rows (tr : traj M) : Prop := (forall nd, List.In nd (run tr) -> ng (nm nd) = 0%N) /\ tng (tm (trm tr)) = 0%N.
Lemma no_rows_norms (tr : traj M) : no_rows tr ->
  norms_of heur (mkTraj (List.map (admm_node c) (run tr)) (admm_tnode c (trm tr))) = norms_init E.
Proof.
move=> [h1 h2]; rewrite /norms_of; cbn [run trm].
have ht w : norms_tnode heur w (admm_tnode c (trm tr)) = w.
  rewrite /norms_tnode /admm_tnode; have /Nat.eqb_eq h3 := h2.
  by rewrite h3; cbn [tm]; rewrite h3.
rewrite ht; move: (norms_init E); elim: (run tr) h1 => [//|nd l' ih] h1 w; cbn [List.map List.fold_left].
have -> : norms_node heur w (admm_node c nd) = w; last by apply: ih => x hx; apply: h1; right.
rewrite /norms_node /admm_node; have /Nat.eqb_eq h3 := h1 nd (or_introl erefl).
by rewrite h3; cbn [nm set_dir set_adm]; rewrite h3.
Qed.
Lemma no_rows_point (t0 t1 : traj M) : primal_step t0 t1 -> no_rows t0 -> no_rows t1.
Proof.
move=> [q1 [A [v [d e]]]] [h1 h2]; split; last by rewrite e.
by move=> nd /(primal_in q1) [n0 hn0 [v' [d' [u ->]]]]; exact: (h1 n0 hn0).
Qed.
(** without constraint rows every test succeeds, whatever the direction is *)
Theorem C60_no_rows_test_succeeds s1 i si s2 : Peano.lt 0 interval -> 0 <= (cc_epsrel c : F) -> reached s1 i si ->
  traj_sym (k_tr si) -> no_rows (k_tr si) -> Nat.modulo i interval = 0%N -> qp_step c i si <> SGo s2.
Proof.
move=> hk er hr hsy hn hm hgo.
have [q1 _ _ q4] := step_point hk hr hsy (or_introl hgo).
have := q4 hm hgo; rewrite (no_rows_norms (no_rows_point q1 hn)).
by rewrite ok_settled //; left.
Qed.
Lemma pert0 m (A P B C D L : 'cV[F]_m) : A + P + B + C + D = L -> A + B + C + D = L -> P = 0.
Proof. by move=> <- e; apply/eqP; rewrite -oppr_eq0 -(subrr (A + B + C + D)) {2}e; apply/eqP; vabel F. Qed.
Lemma pert0_t m (A P B L : 'cV[F]_m) : A + P + B = L -> A + B = L -> P = 0.
Proof. by move=> <- e; apply/eqP; rewrite -oppr_eq0 -(subrr (A + B)) {2}e; apply/eqP; vabel F. Qed.
Lemma gt0row m q (e : m = 0%N) (G : 'M[F]_(m, q)) (v : 'cV[F]_m) : G^T *m v = 0.
Proof. by subst m; apply/matrixP => i j; rewrite !mxE big_ord0. Qed.
Lemma prox0 m (p q : 'cV[F]_m) : sigma != 0 -> q = 0 -> sigma *: p + q = 0 -> p = 0.
Proof. by move=> s0 ->; rewrite addr0 => /eqP; rewrite scalemx_eq0 (negbTE s0) => /eqP. Qed.
Lemma kkt_twice (preg dreg : F) (tn tn' : tnode) : sigma != 0 -> dual_tnode alpha tn tn' -> tng (tm tn) = 0%N ->
  forall (l1 l2 : seq node) first (d d' : 'cV[F]_n), List.Forall2 (@dual_node F sq M alpha) l1 l2 ->
  (forall nd, List.In nd l1 -> ng (nm nd) = 0%N) ->
  lq_kkt d (it_stages alpha sigma preg dreg first l1 tn) (it_final alpha sigma preg tn) ->
  lq_kkt d' (con_stages preg dreg first (List.map (@lag_node E M) l2) (lag_tnode tn')) (con_final preg (lag_tnode tn')) ->
  (forall nd, List.In nd l1 -> (dxt (adm nd) : 'cV[F]_n) - dx (dir nd) = 0 /\ (dut (adm nd) : 'cV[F]_(nu (nm nd))) - du (dir nd) = 0) /\
  (tdxt tn : 'cV[F]_n) - tdx tn = 0.
Proof.
move=> s0 ht hz l1 l2 first d d' h; elim: h first d d' => [|nd nd' la lb hn h IH] first d d' hnr.
  case: (ht) => [zp [zr [q [iq et]]]]; subst tn'; move=> /= [_ hk] [_ hk']; split=> //.
  by apply: (prox0 s0 (gt0row hz (tGx (tder tn)) (tnode_res alpha tn))); exact: (pert0_t hk hk').
have nx := next_it preg dreg ht false h.
case: (hn) => [zp [zr [q [iq en]]]].
subst nd'; cbn [List.map con_stages it_stages lq_kkt]; rewrite nx => -[k1 k2 k3 k4] [_ k2' k3' k4'].
have [IH1 IH2] := IH _ _ _ (fun x hx => hnr x (or_intror hx)) k4 k4'; split=> // x [<-|hx]; last exact: IH1.
have h0 := hnr nd (or_introl erefl); split.
- by apply: (prox0 s0 (gt0row h0 (eGx first nd) (node_res alpha nd))); exact: (pert0 k3 k3').
- by apply: (prox0 s0 (gt0row h0 (Gu (der nd)) (node_res alpha nd))); exact: (pert0 k2 k2').
Qed.
(** ... but, with a non-zero proximal weight, the direction solves the subproblem
    only if the iteration did not change it *)
Theorem C60_no_rows_solution_is_stationary s1 i si s2 : sane c -> reached s1 i si ->
  qp_step c i si = SGo s2 \/ qp_step c i si = SStop s2 ->
  traj_sym (k_tr si) -> no_rows (k_tr si) -> sigma != 0 ->
  qp_kkt (k_preg s2) (k_dreg s2) (k_tr (csqp_checkKKT s2)) -> moved 0 (k_tr si) (k_tr s2).
Proof.
move=> hs hr hgo hsy hn s0 [hq _ _].
have [hk _ _ _ _] := hs.
have [q1 q2 q3 _] := step_point hk hr hsy hgo.
case: (hr) => hh [s0' [hb' [hc ht]]].
have [hok [_ [ep ed]]] := step_tr hk ht hgo.
rewrite ep ed in hq.
have [hn1 hn2] := no_rows_point q1 hn.
move: (point si) q1 q2 q3 hn1 hn2 => t' [q1 q1'] [q2 q2'] q3 hn1 hn2.
have [r1 r2] := kkt_twice s0 q2' hn2 q2 hn1 q3 hq.
have nv m (v w : 'cV[F]_m) : w - v = 0 -> near_vec 0 v w.
  by move=> /eqP; rewrite subr_eq0 => /eqP -> j; rewrite subrr normr0.
split.
  move: q1 q2 r1 {hn hn1 hq q3 hsy hgo ht hok ep ed}; move: (run (k_tr si)) (run t') (run (k_tr s2)) => l0 l1 l2 h; elim: h l2 => [|a b la lb h1 _ ih] l2 h2 r1.
    by inversion h2; constructor.
  inversion h2 as [|b' d lb' ld h3 h4]; subst; constructor; last by apply: ih => // x hx; apply: r1; right.
  have [u1 u2] := r1 b (or_introl erefl).
  case: h1 h3 u1 u2 => [v [dd [u ->]]] [zp [zr [r [ir ->]]]] u1 u2.
  by split; exact: nv.
by case: q1' q2' r2 => [A [v [d ->]]] [zp [zr [r [ir ->]]]] r2; exact: nv.
Qed.
End T.

(** the bounds K ([gain_exists]), L and eps of C60 always exist *)
Section Bounds.
Variable F : realFieldType.
Variable sq : F -> F.
Notation E := (ExactE sq).
Variable M : manifold E.
Lemma jac_gain_exists (t : traj M) : exists2 L, 0 <= L & jac_gain L t.
Proof.
have cs m q (G : 'M[F]_(m, q)) : exists2 L, 0 <= L & forall L', L <= L' -> forall j, \sum_(i < m) `|G i j| <= L'.
  exists (\sum_(j < q) \sum_(i < m) `|G i j|); first by apply: sumr_ge0 => j _; apply: sumr_ge0.
  move=> L' h j; apply: le_trans h; rewrite [X in _ <= X](bigD1 j) //= ler_addl.
  by apply: sumr_ge0 => j' _; apply: sumr_ge0.
have [L1 l1 g1] := cs _ _ (tGx (tder (trm t)) : 'M[F]_(tng (tm (trm t)), mndx M)).
have hl (l : seq (node M)) : exists2 L, 0 <= L & forall L', L <= L' -> forall nd, List.In nd l ->
     (forall j, \sum_(i < ng (nm nd)) `|(Gx (der nd) : 'M[F]_(ng (nm nd), mndx M)) i j| <= L') /\
     (forall j, \sum_(i < ng (nm nd)) `|(Gu (der nd) : 'M[F]_(ng (nm nd), nu (nm nd))) i j| <= L').
  elim: l => [|nd l [L2 l2 g2]]; first by exists 0.
  have [L3 l3 g3] := cs _ _ (Gx (der nd) : 'M[F]_(ng (nm nd), mndx M)).
  have [L4 l4 g4] := cs _ _ (Gu (der nd) : 'M[F]_(ng (nm nd), nu (nm nd))).
  exists (L2 + L3 + L4); first by rewrite !addr_ge0.
  move=> L' h nd' [<-|hn]; last by apply: (g2 L' _ nd' hn); apply: le_trans h; rewrite -addrA ler_addl addr_ge0.
  by split; [apply: g3|apply: g4]; apply: le_trans h; [rewrite addrAC ler_addr addr_ge0|rewrite ler_addr addr_ge0].
have [L2 l2 g2] := hl (run t).
exists (L1 + L2); first exact: addr_ge0.
by split; [apply: g2|apply: g1]; rewrite ?ler_addl ?ler_addr.
Qed.
Lemma near_vec_exists m (v : 'cV[F]_m) k (w : 'cV[F]_k) : exists2 eps, 0 <= eps & forall eps', eps <= eps' -> near_vec eps' v w.
Proof.
have cb q (x : 'cV[F]_q) i : `|coord x i| <= \sum_(j < q) `|x j 0|.
  rewrite /coord; case: insubP => [j _ _|_]; last by rewrite normr0 sumr_ge0.
  by rewrite (bigD1 j) //= ler_addl sumr_ge0.
exists (\sum_(j < m) `|v j 0| + \sum_(j < k) `|w j 0|); first by rewrite addr_ge0 // sumr_ge0.
by move=> e' h i; apply: le_trans h; apply: (le_trans (ler_norm_sub _ _)); exact: ler_add.
Qed.
Lemma moved_exists (t t' : traj M) : cpassed_traj t t' -> exists2 eps, 0 <= eps & moved eps t t'.
Proof.
move=> [h1 _].
have [e1 p1 g1] := @near_vec_exists (mndx M) (tdx (trm t)) (mndx M) (tdx (trm t')).
have [e2 p2 g2] : exists2 eps, 0 <= eps & forall eps', eps <= eps' -> List.Forall2 (fun nd nd' : node M => @near_vec F eps' (mndx M) (dx (dir nd)) (mndx M) (dx (dir nd')) /\
     @near_vec F eps' (nu (nm nd)) (du (dir nd)) (nu (nm nd')) (du (dir nd'))) (run t) (run t').
  elim: h1 => [|a b la lb _ _ [e2 p2 g2]]; first by exists 0.
  have [e3 p3 g3] := @near_vec_exists (mndx M) (dx (dir a)) (mndx M) (dx (dir b)).
  have [e4 p4 g4] := @near_vec_exists (nu (nm a)) (du (dir a)) (nu (nm b)) (du (dir b)).
  exists (e2 + e3 + e4); first by rewrite !addr_ge0.
  move=> e' h; constructor; last by apply: g2; apply: le_trans h; rewrite -addrA ler_addl addr_ge0.
  by split; [apply: g3|apply: g4]; apply: le_trans h; [rewrite addrAC ler_addr addr_ge0|rewrite ler_addr addr_ge0].
exists (e1 + e2); first exact: addr_ge0.
by split; [apply: g2|apply: g1]; rewrite ?ler_addl ?ler_addr.
Qed.
End Bounds.
