(** * The hypotheses of C59 and C60 are met by concrete solves. *)
From Coq Require Import Ring Field ZArith PeanoNat.
Set Warnings "-notation-overridden,-ambiguous-paths".
From mathcomp Require Import all_ssreflect all_algebra.
From Verif Require Import FieldTac Eigen EigenExact EigenFloat ExactLemmas Problem DDP Filter SQP CSQP Init Models LQSpec SubQP Riccati PassExact
  TrialSpec TraceSpec SQPSpec CSQPSpec CSQPFrames CSQPLoop CSQPHist P_Direction
  QPSpec FastPass ADMMSpec ADMMExact ADMMIter CallSpec CallInv CallGood CallCover QPExact CSQPConvex EqGuess P_ADMM Witness ConvexQP AdmmWitness
  ConvSpec StopSpec ADMMConv ConvLoop P_Converge P_QPStop.

Set Implicit Arguments.
Unset Strict Implicit.
Unset Printing Implicit Defensive.

Import Order.TTheory GRing.Theory Num.Theory.
Local Open Scope ring_scope.

Section W.
Variable F : realFieldType.
Variable sq : F -> F.
Add Field FfCW : (F_field_theory F).
Notation E := (ExactE sq).
Notation M1 := (euclid E 1).

(** the subproblem of the problem of AdmmWitness.v has a solution, in closed form:
    du = max (- u, - (1 + u + preg f) / (1 + dreg + preg)) *)
Lemma vsol (t : traj M1) (preg dreg : F) : vtraj t -> 0 <= preg -> 0 <= dreg ->
  exists2 ts, cpassed_traj t ts & qp_kkt preg dreg ts.
Proof.
case: t => rn tn [nd [/= -> [p [m [x [u [f [v [d [a hn]]]]]]]] [x' [xt [y' [w [f' [A [v' [d' [la [dt [z [zp [zr [yy [r [ir ht]]]]]]]]]]]]]]]]]] p0 d0.
pose q : F := (u : 'cV[F]_1) 0 0 + 1.
pose ff : F := (f' : 'cV[F]_1) 0 0.
pose g : F := (snd m : 'cV[F]_1) 0 0.
pose G := q + preg * ff.
pose H : F := 1 + dreg + preg.
have H0 : 0 < H by rewrite /H -addrA; apply: ltr_spaddl; [exact: ltr01|exact: addr_ge0].
pose du0 : F := Num.max (- g) (- G / H).
pose y0 : F := - (G + H * du0).
pose l1 : F := preg * (du0 + ff).
pose ns := @mkNode E M1 (lq_model (vlq sq)) p m (adiff (lq_model (vlq sq)) m x u) f v
  (@mkDirs E M1 1 (0 : 'cV[F]_1) (const_mx du0 : 'cV[F]_1) (const_mx l1 : 'cV[F]_1))
  (@mkAdmm E M1 1 1 (dxt a) (dut a) (az a) (azp a) (azr a) (const_mx y0 : 'cV[F]_1) (arho a) (airho a)).
pose tns := @mkTnode E M1 (lq_tmodel (wtlq sq)) x' xt y' (tdiff (lq_tmodel (wtlq sq)) y' w) f' A v'
  (const_mx (du0 + ff) : 'cV[F]_1) (const_mx l1 : 'cV[F]_1) dt z zp zr yy r ir.
exists (mkTraj [:: ns] tns).
  split=> /=.
    by constructor=> //; rewrite hn; exists v, (dir ns), (adm ns).
  by rewrite ht; do 11 eexists; reflexivity.
split.
- split=> //=.
  + apply/matrixP => i j; rewrite !ord1; do ?rewrite ?mxE ?big_ord1 ?big_ord0.
    rewrite /y0 /G /H /q /l1 !eqxx !mulr1n; move: (du0) (ff) ((x : 'cV[F]_1) 0 0) ((u : 'cV[F]_1) 0 0) => b1 b2 b3 b4.
    by mcfold F; ring.
  + apply/matrixP => i j; rewrite !ord1; do ?rewrite ?mxE ?big_ord1 ?big_ord0.
    move: (du0) (y0) (l1) ((x : 'cV[F]_1) 0 0) ((u : 'cV[F]_1) 0 0) => b1 b2 b3 b4 b5; rewrite ?eqxx ?mulr1n; mcfold F; ring.
  + split; apply/matrixP => i j; rewrite !ord1; do ?rewrite ?mxE ?big_ord1 ?big_ord0.
      by rewrite /ff; move: ((f' : 'cV[F]_1) 0 0) (du0) => b1 b2; rewrite ?eqxx ?mulr1n; mcfold F; ring.
    rewrite /l1; move: (ff) (du0) ((w : 'cV[F]_1) 0 0) => b1 b2 b3; rewrite !eqxx !mulr1n; mcfold F; ring.
- move=> nd' [<-|//] i _.
  rewrite !ord1 /node_lin /=; do ?rewrite ?mxE ?big_ord1 ?big_ord0.
  rewrite !eqxx !mul0r !add0r !mul1r !addr0 -/g.
  have y_le : y0 <= 0.
    have h : - G / H <= du0 by rewrite /du0 le_maxr lexx orbT.
    by rewrite /y0 oppr_le0 -ler_subl_addl sub0r; move: h; rewrite ler_pdivr_mulr // mulrC.
  split.
  + split=> b; last by [].
    by move=> [<-]; rewrite sub0r -/g /du0 le_maxr lexx.
  + by move=> h; have := lt_le_trans h y_le; rewrite ltxx.
  + move=> h; exists 0; split=> //; rewrite sub0r.
    move: h; rewrite /y0 oppr_lt0 /du0 maxEle; case: ifP => // _.
    by rewrite mulrC mulfVK ?subrr ?ltxx // lt0r_neq0.
- by move=> [].
Qed.

(** default settings with adaptive_rho_tolerance = 10^5: the penalty is fixed *)
Definition uc : ccfg E :=
  @mkCcfg E (cc_ddp (vc sq)) (cc_mu (vc sq)) (cc_mucon (vc sq)) (cc_lagcoef (vc sq)) (cc_filter (vc sq)) (cc_fsize (vc sq)) (cc_extra (vc sq))
    (cc_sigma (vc sq)) (cc_alpha (vc sq)) (cc_maxqp (vc sq)) (cc_rhobase (vc sq)) (cc_rhomin (vc sq)) (cc_rhomax (vc sq)) (cc_interval (vc sq))
    (xlit F 100000 1) (cc_epsabs (vc sq)) (cc_epsrel (vc sq))
    (cc_eqguess (vc sq)) (cc_resety (vc sq)) (cc_resetrho (vc sq)) (cc_heur (vc sq)) (cc_removereg (vc sq)) (cc_mt (vc sq)).
Lemma two_lit : 2%:R = xlit F 2 1.
Proof. by rewrite /xlit divr1. Qed.
Lemma xlit_lt (p q p' q' : positive) : (p * q' <? p' * q)%positive -> xlit F (Zpos p) q < xlit F (Zpos p') q'.
Proof.
move=> /Pos.ltb_lt /Pos2Nat.inj_lt; rewrite !Pos2Nat.inj_mul => /ssrnat.ltP h.
rewrite /xlit /Zr !AdmmWitness.posrE.
have hp : forall r : positive, 0 < ((Pos.to_nat r)%:R : F).
  by move=> r; rewrite -AdmmWitness.posrE; exact: posr_gt0.
by rewrite ltr_pdivr_mulr // mulrAC ltr_pdivl_mulr // -!natrM ltr_nat.
Qed.
Lemma uc_alpha : 0 < (cc_alpha uc : F) < 2%:R.
Proof. by rewrite two_lit; apply/andP; split; [apply: xlit_gt0|apply: xlit_lt]. Qed.
Lemma uc_sane : sane uc.
Proof.
have /andP[a0 a2] := uc_alpha.
split; first by apply/ssrnat.leP.
- by split; [apply: xlit_gt0|apply: one_lit_le].
- by apply: xlit_gt0.
- by split; apply: ltW.
- by apply: ltW; apply: xlit_gt0.
Qed.
Lemma xlit_mul (a b d e : positive) : xlit F (Zpos a) b * xlit F (Zpos d) e = xlit F (Zpos (a * d)) (b * e).
Proof.
rewrite /xlit /Zr !AdmmWitness.posrE !Pos2Nat.inj_mul -![(_ * _)%coq_nat]/(_ * _)%nat !natrM.
by rewrite mulrACA invfM.
Qed.
Lemma xlit_inv (a b : positive) : (xlit F (Zpos a) b)^-1 = xlit F (Zpos b) a.
Proof. by rewrite /xlit invfM invrK mulrC. Qed.
Lemma uc_fixed : fixed_penalty uc.
Proof.
split.
- by rewrite /= xlit_mul; apply: xlit_le.
- by rewrite /= xlit_inv xlit_mul; apply: xlit_le.
Qed.
End W.
Section W2.
Variable F : archiFieldType.
Variable sq : F -> F.
Notation E := (ExactE sq).
Notation M1 := (euclid E 1).
Lemma ubegin : exists2 s0 : csqp M1, solve_begin (uc sq) (wx0 sq) [::] [::] 1 None (vs sq) = Some s0 &
  (exists nd tn, [/\ k_tr s0 = mkTraj [:: nd] tn, vnode nd & vterm tn]) /\ k_preg s0 = xlit F 1 1000000000 /\ k_dreg s0 = xlit F 1 1000000000.
Proof.
rewrite /solve_begin; case: (vtr_vs sq) => tr -> [nd [tn [e hn ht]]]; rewrite e.
eexists; first reflexivity.
split; last by split. by exists nd, tn; split.
Qed.
(** C59's hypotheses hold for the problem of AdmmWitness.v, which has one
    constraint row, and so does its conclusion *)
Theorem C59_hypotheses_met : exists s0 (ts : traj M1) nd,
  let s1 := main_start (uc sq) vtime s0 in
  [/\ csqp_hist [:: vslot sq] (wtslot sq) (fun _ _ => True) 1 (vs sq),
      solve_begin (uc sq) (wx0 sq) [::] [::] 1 None (vs sq) = Some s0,
      cpassed_traj (k_tr s1) ts /\ qp_kkt (k_preg s1) (k_dreg s1) ts,
      run (k_tr s1) = [:: nd] /\ ng (nm nd) = 1%nat
    & exists N0, forall N, (N0 <= N)%N ->
      exists2 s2, csqp_computeDirection (with_maxqp (uc sq) N) vtime s1 = QDone s2
       & stopped (with_maxqp (uc sq) N) vtime s1 s2].
Proof.
have [s0 hb [[nd [tn [e hn ht]]] [ep ed]]] := ubegin.
have hv : vtraj (k_tr (main_start (uc sq) vtime s0)).
  have hv := vtraj_calc e hn ht.
  case: (main_start_tr (uc sq) s0) => ->; first exact: hv.
  apply: vtraj_passed hv; exact: (proj1 (apply_rho_cstep _ _ _)).
have [ep1 ed1] := main_regs (uc sq) s0.
have g : 0 < xlit F 1 1000000000 by apply: xlit_gt0.
have g0 := ltW g.
have hp0 : 0 <= (k_preg (main_start (uc sq) vtime s0) : F) by rewrite ep1 ep.
have hd0 : 0 < (k_dreg (main_start (uc sq) vtime s0) : F) by rewrite ed1 ed.
have hh : csqp_hist [:: vslot sq] (wtslot sq) (fun _ _ => True) 1 (vs sq).
  exact: (@chist_new E M1 [:: vslot sq] (wtslot sq) _ (wx0 sq) 1 (xlit F 1 10)).
have htk : fst (tick vtime s0) = false by [].
have hm : Peano.lt 0 1 by apply/ssrnat.leP.
have [ts h1 h2] := vsol hv hp0 (ltW hd0).
have [m [em [p [mm [x [u [f [v [d [a hm']]]]]]]] _]] := hv.
have sg : 0 < (cc_sigma (uc sq) : F) by apply: xlit_gt0.
have ea : 0 < (cc_epsabs (uc sq) : F) by apply: xlit_gt0.
have er : 0 < (cc_epsrel (uc sq) : F) by apply: xlit_gt0.
have key := C59_some_budget_suffices (uc_sane sq) (uc_fixed sq) (uc_alpha sq) ea (ltW er) hh hb hm
  (vtraj_convex hv) hp0 (or_introl hd0) (addr_gt0 sg hd0) h1 h2 htk.
exists s0, ts, m; split=> //.
- by split=> //; rewrite hm'.
- case: key => N0 hN; exists N0 => N /hN [s2 h3 [[_ [q //]]|h4]].
  by exists s2.
Qed.

(** C60's hypotheses: a QP iteration of a solve stops by the termination test, and
    bounds K, L, eps exist *)
Theorem C60_hypotheses_met : exists N s1 i si s3 (K L eps : F),
  [/\ csqp_hist [:: vslot sq] (wtslot sq) (fun _ _ => True) 1 (vs sq) /\
      solve_qp (with_maxqp (uc sq) N) vtime 0 (wx0 sq) [::] [::] 1 None (vs sq) s1 i si,
      qp_step (with_maxqp (uc sq) N) i si = SStop s3,
      sane (with_maxqp (uc sq) N) /\ convex_qp (k_tr si),
      exists2 nd, run (k_tr si) = [:: nd] & ng (nm nd) = 1%nat
    & [/\ dual_gain (cc_rhomin (uc sq) : F) (k_rho si) false K (k_tr si), jac_gain L (k_tr si), 0 <= K, 0 <= L
        & moved eps (k_tr si) (k_tr s3)]].
Proof.
have [s0 [ts [nd h]]] := C59_hypotheses_met; cbv zeta in h; case: h => hh hb _ [hr hn] [N0 hN].
have [s2 hd [_ _ [si [s3 [ht hst _]]]]] := hN N0 (leqnn _).
have cvs : convex_qp (k_tr (main_start (uc sq) vtime s0)).
  have [s0' hb' [[nd' [tn [e hn' ht']]] _]] := ubegin; move: hb; rewrite hb' => -[<-].
  apply: vtraj_convex.
  have hv := vtraj_calc e hn' ht'.
  case: (main_start_tr (uc sq) s0') => ->; first exact: hv.
  apply: vtraj_passed hv; exact: (proj1 (apply_rho_cstep _ _ _)).
have cv := passed_convex (proj1 (top_cstep ht)) cvs.
have hs : sane (with_maxqp (uc sq) N0) by apply: sane_max; exact: uc_sane.
have hm : Peano.lt 0 1 by apply/ssrnat.leP.
have hq : solve_qp (with_maxqp (uc sq) N0) vtime 0 (wx0 sq) [::] [::] 1 None (vs sq) (main_start (uc sq) vtime s0) (k_qpit s2) si.
  exists s0; split; first by rewrite solve_begin_max; exact: hb.
  split=> //; rewrite -(main_start_max (uc sq) N0); exact: (call_main (head0 _ _ _ _) hm).
have h1 : exists2 nd', run (k_tr si) = [:: nd'] & ng (nm nd') = 1%nat.
  have [hp _] := top_cstep ht; case: hp; rewrite hr => hp _; inversion hp as [|a b la lb hab hl ea eb]; subst.
  exists b; first by inversion hl.
  by case: hab => v [d [a ->]].
have hp : cpassed_traj (k_tr si) (k_tr s3).
  by have := qp_step_dframe (with_maxqp (uc sq) N0) (k_qpit s2) si; rewrite hst => -[hf _]; case: (df_tr hf).
have [hk [h0 hrm] hrb _ _] := hs.
have rp : 0 < (k_rho si : F) := C29_positive h0 hrm hrb (conj hh hq).
have [K K0 hK] := gain_exists false (k_tr si) h0 rp.
have [L L0 hL] := jac_gain_exists (k_tr si).
have [eps _ he] := moved_exists hp.
exists N0, (main_start (uc sq) vtime s0), (k_qpit s2), si, s3, K, L, eps.
split; [exact (conj hh hq)|exact hst|exact (conj hs cv)|exact h1|].
split; [exact hK|exact hL|exact K0|exact L0|exact he].
Qed.
End W2.

(** ** A problem without constraint rows: the first test succeeds, and the direction
    of the subproblem reported solved is not a KKT point of it *)
Section W3.
Variable F : realFieldType.
Variable sq : F -> F.
Add Field FfCW3 : (F_field_theory F).
Notation E := (ExactE sq).
Notation M1 := (euclid E 1).
(** default settings with rho_update_interval = 1 and
    equality_qp_initial_guess = false *)
Definition rc : ccfg E :=
  @mkCcfg E (cc_ddp (vc sq)) (cc_mu (vc sq)) (cc_mucon (vc sq)) (cc_lagcoef (vc sq)) (cc_filter (vc sq)) (cc_fsize (vc sq)) (cc_extra (vc sq))
    (cc_sigma (vc sq)) (cc_alpha (vc sq)) (cc_maxqp (vc sq)) (cc_rhobase (vc sq)) (cc_rhomin (vc sq)) (cc_rhomax (vc sq)) 1
    (cc_adtol (vc sq)) (cc_epsabs (vc sq)) (cc_epsrel (vc sq))
    false (cc_resety (vc sq)) (cc_resetrho (vc sq)) (cc_heur (vc sq)) (cc_removereg (vc sq)) (cc_mt (vc sq)).
Definition rs : csqp M1 := new_csqp (wx0 sq) [:: wslot sq] (wtslot sq) 1 (xlit F 1 10).
Definition rnode (nd : node M1) : Prop := exists p m x u f v la a,
  nd = @mkNode E M1 (lq_model (wlq sq)) p m (adiff (lq_model (wlq sq)) m x u) f v (@mkDirs E M1 1 (0 : 'cV[F]_1) (0 : 'cV[F]_1) la) a.
Definition rterm (f : 'cV[F]_1) (tn : tnode M1) : Prop := exists x xt y w A v la dt z zp zr yy r ir,
  tn = @mkTnode E M1 (lq_tmodel (wtlq sq)) x xt y (tdiff (lq_tmodel (wtlq sq)) y w) f A v (0 : 'cV[F]_1) la dt z zp zr yy r ir.
Definition rtraj (t : traj M1) : Prop := exists nd, [/\ run t = [:: nd], rnode nd & rterm (const_mx 1) (trm t)].
Lemma rnode_convex nd : rnode nd -> [/\ node_sym nd, node_convex nd & node_ordered nd].
Proof.
move=> [p [m [x [u [f [v [d [a ->]]]]]]]]; split.
- by split; rewrite /is_sym /= ?trmx0 ?trmx1.
- move=> x' u'; rewrite /quad /dot /=.
  rewrite !(mulmx0, mul0mx) [X in X + _ + _]mxE [X in _ + 2%:R * X + _]mxE mulr0 !add0r mulmx1 mxE.
  by apply: sumr_ge0 => i _; rewrite !mxE -expr2 sqr_ge0.
- by move=> [].
Qed.
Lemma rtraj_convex t : rtraj t -> convex_qp t.
Proof.
move=> [nd [e hn [x [xt [y [w [A [v [la [dt [z [zp [zr [yy [r [ir ht]]]]]]]]]]]]]]]]; have [n1 n2 n3] := rnode_convex hn.
have /vterm_convex [t1 t2 t3] : vterm (trm t) by rewrite ht; do 16 eexists; reflexivity.
by split; split=> //; rewrite e => m [<-|].
Qed.
Lemma rtraj_calc (s : csqp M1) nd tn : k_tr s = mkTraj [:: nd] tn ->
  (exists p m x u f v la a, nd = @mkNode E M1 (lq_model (wlq sq)) p m (adiff (lq_model (wlq sq)) m x u) f v (@mkDirs E M1 1 (0 : 'cV[F]_1) (0 : 'cV[F]_1) la) a
     /\ exists xt ut, p = @mkPoint E M1 1 (0 : 'cV[F]_1) (0 : 'cV[F]_1) xt ut) ->
  (exists f, rterm f tn /\ tx tn = (0 : 'cV[F]_1)) -> rtraj (k_tr (csqp_calc s)).
Proof.
move=> e [p [m [x [u [f [v [la [a [hn [ht1 [ht2 ep]]]]]]]]]]] [f' [[x' [xt [y' [w [A [v' [la' [dt [z [zp [zr [yy [r [ir ht]]]]]]]]]]]]]] e3]].
rewrite /csqp_calc e hn ht; cbn [k_tr set_k_con set_k_gap set_k_cost set_k_tr].
exists (@mkNode E M1 (lq_model (wlq sq)) p (px p, pu p) (adiff (lq_model (wlq sq)) (px p, pu p) (px p) (pu p)) f v (@mkDirs E M1 1 (0 : 'cV[F]_1) (0 : 'cV[F]_1) la) a); split.
- by [].
- by do 8 eexists; reflexivity.
- rewrite ht /= in e3; rewrite e3.
  have ef : forall g : 'cV[F]_1, (1%:M *m (px p : 'cV[F]_1) + 1%:M *m (pu p : 'cV[F]_1) + g : 'cV[F]_1) - 0 = g.
    by move=> g; rewrite ep /= !mulmx0 !add0r subr0.
  rewrite -(ef (const_mx 1)).
  by do 14 eexists; reflexivity.
Qed.
Lemma rtraj_rho (c : ccfg E) rho t : rtraj t -> rtraj (apply_rho c rho t).
Proof.
case: t => rn tn [nd [/= -> [p [m [x [u [f [v [d [a ->]]]]]]]] [x' [xt [y [w [A [v' [la [dt [z [zp [zr [yy [r [ir ->]]]]]]]]]]]]]]]].
eexists; split; first reflexivity.
- by do 8 eexists; reflexivity.
- by do 14 eexists; reflexivity.
Qed.
Lemma rtraj_reset (c : ccfg E) (s : csqp M1) : rtraj (k_tr s) -> rtraj (k_tr (reset_params c s)).
Proof.
rewrite /reset_params; set s1 := (if _ then _ else _) => h.
have : rtraj (k_tr s1) by rewrite /s1; case: ifP => _ //; exact: rtraj_rho.
move: s1 => s1; cbn [k_tr set_k_tr]; case: (k_tr s1) => rn tn.
move=> [nd [/= -> [p [m [x [u [f [v [d [a ->]]]]]]]] [x' [xt [y [w [A [v' [la [dt [z [zp [zr [yy [r [ir ->]]]]]]]]]]]]]]]].
eexists; split; first reflexivity.
- by do 8 eexists; reflexivity.
- by do 14 eexists; reflexivity.
Qed.
Definition rnd0 : node M1 :=
  @mkNode E M1 (lq_model (wlq sq)) (@mkPoint E M1 1 (0 : 'cV[F]_1) (0 : 'cV[F]_1) (0 : 'cV[F]_1) (0 : 'cV[F]_1))
   ((0 : 'cV[F]_1), (0 : 'cV[F]_1)) (adiff (lq_model (wlq sq)) ((0 : 'cV[F]_1), (0 : 'cV[F]_1)) (0 : 'cV[F]_1) (0 : 'cV[F]_1))
   (0 : 'cV[F]_1) (val (new_node (wx0 sq) (wslot sq))) (@mkDirs E M1 1 (0 : 'cV[F]_1) (0 : 'cV[F]_1) (0 : 'cV[F]_1))
   (adm (new_node (wx0 sq) (wslot sq))).
Lemma rtr : exists2 tr, set_guess [::] [::] (k_tr rs) = Some tr &
  pin_xt0 (wx0 sq) (pin_x0 (wx0 sq) tr) = mkTraj [:: rnd0] (new_tnode (wtslot sq)).
Proof. by eexists; first reflexivity. Qed.
Lemma rnd0_form : exists p m x u f v la a, rnd0 = @mkNode E M1 (lq_model (wlq sq)) p m (adiff (lq_model (wlq sq)) m x u) f v (@mkDirs E M1 1 (0 : 'cV[F]_1) (0 : 'cV[F]_1) la) a
     /\ exists xt ut, p = @mkPoint E M1 1 (0 : 'cV[F]_1) (0 : 'cV[F]_1) xt ut.
Proof.
do 8 eexists; split; first reflexivity.
by do 2 eexists; reflexivity.
Qed.
Lemma rtn0_form : exists f, rterm f (new_tnode (wtslot sq)) /\ tx (new_tnode (wtslot sq)) = (0 : 'cV[F]_1).
Proof. by eexists; split; first (do 14 eexists; reflexivity). Qed.
Lemma rdyn (t1 t2 : traj M1) (pr dr : F) : rtraj t1 -> moved 0 t1 t2 -> cpassed_traj t1 t2 ->
  ~ lq_kkt 0 (con_stages pr dr true (List.map (@lag_node E M1) (run t2)) (lag_tnode (trm t2))) (con_final pr (lag_tnode (trm t2))).
Proof.
case: t1 t2 => r1 n1 [r2 n2] [a [/= e ha hb]]; subst r1; move=> [/= m1 m2] [/= hp1 hp2].
inversion hp1 as [|n3 n4 l3 l4 hc1 hc2]; subst; inversion hc2; subst.
inversion m1 as [|n5 n6 l5 l6 [c1 c2] _]; subst.
have hf : tdx n2 = 0 :> 'cV[F]_1 /\ tfs n2 = const_mx 1 :> 'cV[F]_1.
  case: hb hp2 m2 => [x' [xt [y [w [A [v' [la [dt [z [zp [zr [yy [rr [ir ->]]]]]]]]]]]]]] [A' [v1 [d1 [la1 [dt1 [z1 [zp1 [zr1 [y1 [r1' [ir1 ->]]]]]]]]]]] m2.
  split=> //; apply/matrixP => i j; rewrite !ord1; have := m2 0%N; rewrite -[0%N]/(nat_of_ord (0 : 'I_1)) !coordE /=.
  by rewrite mxE sub0r normrN normr_le0 => /eqP.
case: hf => hf1 hf2.
case: ha hc1 c1 c2 => [p [m [x [u [f [v [d [aa ->]]]]]]]] [v3 [d3 [a3 ->]]] c1 c2.
cbn [List.map con_stages lq_kkt] => -[k1 _ _ [k2 _]].
have h1 : (dx d3 : 'cV[F]_1) = 0 by exact: k1.
have h2 : (du d3 : 'cV[F]_1) = 0.
  apply/matrixP => i j; rewrite !ord1; have := c2 0%N; rewrite -[0%N]/(nat_of_ord (0 : 'I_1)) !coordE /=.
  by rewrite mxE sub0r normrN normr_le0 => /eqP.
have : tdx n2 = 1%:M *m (dx d3 : 'cV[F]_1) + 1%:M *m (du d3 : 'cV[F]_1) + tfs n2 :> 'cV[F]_1 by exact: k2.
rewrite h1 h2 hf1 hf2 !mulmx0 !add0r => /matrixP /(_ 0 0); rewrite !mxE => /eqP; by rewrite eq_sym oner_eq0.
Qed.
Lemma tick_tr (q : csqp M1) : k_tr (snd (tick vtime q)) = k_tr q. Proof. by []. Qed.
Lemma rbegin : exists2 s0, solve_begin rc (wx0 sq) [::] [::] 1 None rs = Some s0 &
  (exists nd tn, [/\ k_tr s0 = mkTraj [:: nd] tn,
    (exists p m x u f v la a, nd = @mkNode E M1 (lq_model (wlq sq)) p m (adiff (lq_model (wlq sq)) m x u) f v (@mkDirs E M1 1 (0 : 'cV[F]_1) (0 : 'cV[F]_1) la) a
     /\ exists xt ut, p = @mkPoint E M1 1 (0 : 'cV[F]_1) (0 : 'cV[F]_1) xt ut) & (exists f, rterm f tn /\ tx tn = (0 : 'cV[F]_1))]) /\
  k_preg s0 = xlit F 1 1000000000 /\ k_dreg s0 = xlit F 1 1000000000.
Proof.
rewrite /solve_begin; case: rtr => tr -> e; rewrite e.
eexists; first reflexivity.
split; last by split. by exists rnd0, (new_tnode (wtslot sq)); split; [|exact: rnd0_form|exact: rtn0_form].
Qed.
Theorem C60_no_rows_hypotheses_met : exists s1 si s2,
  [/\ csqp_hist [:: wslot sq] (wtslot sq) (fun _ _ => True) 1 rs /\ solve_qp rc vtime 0 (wx0 sq) [::] [::] 1 None rs s1 1 si,
      sane rc /\ traj_sym (k_tr si), no_rows (k_tr si), qp_step rc 1 si = SStop s2
    & [/\ (cc_sigma rc : F) != 0, 0 <= (cc_epsrel rc : F) & ~ qp_kkt (k_preg s2) (k_dreg s2) (k_tr (csqp_checkKKT s2))]].
Proof.
have [s0 hb [[nd [tn [e hn ht]]] [ep ed]]] := rbegin.
have hh : csqp_hist [:: wslot sq] (wtslot sq) (fun _ _ => True) 1 rs.
  exact: (@chist_new E M1 [:: wslot sq] (wtslot sq) _ (wx0 sq) 1 (xlit F 1 10)).
have hm : Peano.lt 0 1 by apply/ssrnat.leP.
have g : 0 < xlit F 1 1000000000 by apply: xlit_gt0.
have sg : 0 < (cc_sigma rc : F) by apply: xlit_gt0.
have er : 0 <= (cc_epsrel rc : F) by apply: ltW; apply: xlit_gt0.
have hs : sane rc.
  have /andP[a0 a2] := uc_alpha sq; split.
  - by apply/ssrnat.leP.
  - by split; [apply: xlit_gt0|apply: one_lit_le].
  - by apply: xlit_gt0.
  - by split; apply: ltW.
  - exact: ltW.
pose s1 := main_start rc vtime s0.
have htk : fst (tick vtime s0) = false by [].
have hc : called rc vtime 0 s0 1 s1 := call_main (head0 _ _ _ _) hm htk.
have hv : rtraj (k_tr s1).
  have hv := rtraj_calc e hn ht.
  case: (main_start_tr rc s0) => ->; first exact: hv.
  exact: rtraj_rho.
have [ep1 ed1] := main_regs rc s0.
have hqb : qp_begin rc s1 = Some (reset_params rc s1) by [].
have hmax : Peano.le 1 (cc_maxqp rc) by apply/ssrnat.leP.
have htop : qp_top rc vtime s1 1 (snd (tick vtime (reset_params rc s1))) := qp_top1 hqb hmax erefl.
have hv1 : rtraj (k_tr (snd (tick vtime (reset_params rc s1)))) by rewrite tick_tr; exact: (rtraj_reset rc hv).
have [ep2 ed2] := qp_top_regs htop.
rewrite /s1 ep1 ep in ep2; rewrite /s1 ed1 ed in ed2.
move: (snd _) htop hv1 ep2 ed2 => si htop hv1 ep2 ed2.
clearbody s1.
have hr : csqp_hist [:: wslot sq] (wtslot sq) (fun _ _ => True) 1 rs /\ solve_qp rc vtime 0 (wx0 sq) [::] [::] 1 None rs s1 1 si.
  by split=> //; exists s0.
have [sy cv ro] := rtraj_convex hv1.
have hnr : no_rows (k_tr si).
  have [nd1 [e1 [p [m [x [u [f [v [d [a hn1]]]]]]]] [x' [xt [y [w [A [v' [la [dt [z [zp [zr [yy [r [ir ht1]]]]]]]]]]]]]]]] := hv1.
  by split; [move=> q; rewrite e1 => -[<-|//]; rewrite hn1|rewrite ht1].
have [hk [h0 hrm] hrb _ _] := hs.
have hpos := C29_positive h0 hrm hrb hr.
have [_ hp] := C28_C29_C37_penalties hrm hr.
have hno : forall s2, qp_step rc 1 si <> SThrow s2.
  move=> s2; apply: (C53_convex_iteration_no_exception hk hr) => //; rewrite ?ep2 ?ed2 //; try exact: ltW.
  - apply: penalties_nonneg hp => //; exact: ltW.
  - exact: addr_gt0.
have hgo : forall s2, qp_step rc 1 si <> SGo s2.
  by move=> s2; apply: (C60_no_rows_test_succeeds hk er hr sy hnr).
case es: (qp_step rc 1 si) hno hgo => [s2|s2|s2] hno hgo; [by case: (hno s2)| |by case: (hgo s2)].
exists s1, si, s2; split=> //; split=> //; first exact: lt0r_neq0.
move=> hkkt; have s0n : (cc_sigma rc : F) != 0 by exact: lt0r_neq0.
have [m1 m2] := C60_no_rows_solution_is_stationary hs hr (or_intror es) sy hnr s0n hkkt.
have hpas : cpassed_traj (k_tr si) (k_tr s2).
  by have := qp_step_dframe rc 1 si; rewrite es => -[hf _]; case: (df_tr hf).
case: hkkt => hq _ _.
have hq' : lq_kkt 0 (con_stages (k_preg s2) (k_dreg s2) true (List.map (@lag_node E M1) (run (k_tr s2))) (lag_tnode (trm (k_tr s2))))
   (con_final (k_preg s2) (lag_tnode (trm (k_tr s2)))) := hq.
exact: (rdyn hv1 (conj m1 m2) hpas hq').
Qed.
End W3.
