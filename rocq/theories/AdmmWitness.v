(** * A concrete solve of a constrained LQ problem in exact arithmetic: the
    hypotheses of the theorems of P_ADMM.v and ConvexQP.v are met. *)
From Coq Require Import Ring Field ZArith PeanoNat.
Set Warnings "-notation-overridden,-ambiguous-paths".
From mathcomp Require Import all_ssreflect all_algebra.
From Verif Require Import FieldTac Eigen EigenExact EigenFloat ExactLemmas Problem DDP Filter SQP CSQP Init Models LQSpec SubQP Riccati PassExact
  TrialSpec TraceSpec SQPSpec CSQPSpec CSQPFrames CSQPLoop CSQPHist P_Direction
  QPSpec FastPass ADMMSpec ADMMExact ADMMIter CallSpec CallInv CallGood CallCover QPExact CSQPConvex EqGuess P_ADMM Witness ConvexQP.

Set Implicit Arguments.
Unset Strict Implicit.
Unset Printing Implicit Defensive.

Import Order.TTheory GRing.Theory Num.Theory.
Local Open Scope ring_scope.

Section W.
Variable F : realFieldType.
Variable sq : F -> F.
Notation E := (ExactE sq).
Notation M1 := (euclid E 1).

(** x+ = x + u + 1, running cost u^2/2 + u, row 0 <= u, no terminal cost *)
Definition vlq : lq E 1 1 1 :=
  @mkLq E 1 1 1 (1%:M : 'M[F]_1) (1%:M : 'M[F]_1) (const_mx 1 : 'cV[F]_1)
    (0 : 'M[F]_1) (0 : 'M[F]_1) (1%:M : 'M[F]_1) (0 : 'cV[F]_1) (const_mx 1 : 'cV[F]_1)
    (0 : 'M[F]_(1,1)) (1%:M : 'M[F]_(1,1)) (0 : 'cV[F]_1) (const_mx (Some 0) : 'cV[option F]_1) (const_mx None : 'cV[option F]_1).
Definition vslot : slot M1 :=
  @mkSlot E M1 (lq_model vlq) ((0 : 'cV[F]_1), (0 : 'cV[F]_1))
    (adiff (lq_model vlq) ((0 : 'cV[F]_1), (0 : 'cV[F]_1)) (0 : 'cV[F]_1) (0 : 'cV[F]_1)) (0 : 'cV[F]_1) (0 : 'cV[F]_1).
Definition vs : csqp M1 := new_csqp (wx0 sq) [:: vslot] (wtslot sq) 1 (xlit F 1 10).
Definition vc : ccfg E := default_ccfg E 0 false.
Definition vtime (i : nat) : bool := false.

Lemma main_start_tr (c : ccfg E) (s : csqp M1) :
  k_tr (main_start c vtime s) = k_tr (csqp_calc s) \/ k_tr (main_start c vtime s) = apply_rho c (cc_rhobase c) (k_tr (csqp_calc s)).
Proof. by rewrite /main_start /tick /reset_rho; case: ifP => _; [right|left]. Qed.
Lemma cpassed_refl_traj (t : traj M1) : cpassed_traj t t.
Proof. by case: (cstep_refl t). Qed.

(** the derivatives of the problem do not depend on the point *)
Definition vnode (nd : node M1) : Prop := exists p m x u f v d a,
  nd = @mkNode E M1 (lq_model vlq) p m (adiff (lq_model vlq) m x u) f v d a.
Definition vterm (tn : tnode M1) : Prop := exists x xt y w f A v d la dt z zp zr yy r ir,
  tn = @mkTnode E M1 (lq_tmodel (wtlq sq)) x xt y (tdiff (lq_tmodel (wtlq sq)) y w) f A v d la dt z zp zr yy r ir.
Lemma vnode_convex nd : vnode nd -> [/\ node_sym nd, node_convex nd & node_ordered nd].
Proof.
move=> [p [m [x [u [f [v [d [a ->]]]]]]]]; split.
- by split; rewrite /is_sym /= ?trmx0 ?trmx1.
- move=> x' u'; rewrite /quad /dot /=.
  rewrite !(mulmx0, mul0mx) [X in X + _ + _]mxE [X in _ + 2%:R * X + _]mxE mulr0 !add0r mulmx1 mxE.
  by apply: sumr_ge0 => i _; rewrite !mxE -expr2 sqr_ge0.
- by move=> i; rewrite /ordered /= !mxE.
Qed.
Lemma vterm_convex tn : vterm tn -> [/\ tnode_sym tn, forall x : 'cV[F]_1, 0 <= quad (tLxx (tder tn) : 'M[F]_1) x
  & (forall i, ordered ((tlb (tm tn) : 'cV[option F]_(tng (tm tn))) i 0) ((tub (tm tn) : 'cV[option F]_(tng (tm tn))) i 0))].
Proof.
move=> [x [xt [y [w [f [A [v [d [la [dt [z [zp [zr [yy [r [ir ->]]]]]]]]]]]]]]]]; split.
- by rewrite /tnode_sym /is_sym /= trmx0.
- by move=> x'; rewrite /quad /dot /= mulmx0 mul0mx mxE.
- by move=> [].
Qed.
Definition vtraj (t : traj M1) : Prop := exists nd, [/\ run t = [:: nd], vnode nd & vterm (trm t)].
Lemma vtraj_convex t : vtraj t -> convex_qp t.
Proof.
move=> [nd [e hn ht]]; have [n1 n2 n3] := vnode_convex hn; have [t1 t2 t3] := vterm_convex ht.
by split; split=> //; rewrite e => m [<-|].
Qed.
Lemma vtraj_regpos dreg t : 0 <= dreg -> vtraj t -> reg_positive dreg t.
Proof.
move=> d0 [nd [e [p [m [x [u [f [v [d [a hn]]]]]]]] _]]; right; split=> // nd'; rewrite e hn => -[<-|//] u' un0.
by have := @posdef_scalar F 1 1 ltr01 u' un0.
Qed.
Lemma vtraj_calc (s : csqp M1) nd tn : k_tr s = mkTraj [:: nd] tn -> vnode nd -> vterm tn -> vtraj (k_tr (csqp_calc s)).
Proof.
move=> e [p [m [x [u [f [v [d [a hn]]]]]]]] [x' [xt [y' [w [f' [A [v' [d' [la [dt [z [zp [zr [yy [r [ir ht]]]]]]]]]]]]]]]].
rewrite /csqp_calc e hn ht; cbn [k_tr set_k_con set_k_gap set_k_cost set_k_tr].
exists (@mkNode E M1 (lq_model vlq) p (px p, pu p) (adiff (lq_model vlq) (px p, pu p) (px p) (pu p)) f v d a); split.
- by [].
- by do 8 eexists; reflexivity.
- by do 16 eexists; reflexivity.
Qed.
Lemma vterm_passed tn tn' : tcpassed tn tn' -> vterm tn -> vterm tn'.
Proof.
move=> h [x' [xt [y' [w [f' [A [v' [d' [la [dt [z [zp [zr [yy [r [ir ht]]]]]]]]]]]]]]]]; subst tn.
case: h => A1 [v1 [d1 [la1 [dt1 [z1 [zp1 [zr1 [y1 [r1 [ir1 ->]]]]]]]]]].
by do 16 eexists; reflexivity.
Qed.
Lemma vtraj_passed t t' : cpassed_traj t t' -> vtraj t -> vtraj t'.
Proof.
move=> [h1 h2] [nd [e [p [m [x [u [f [v [d [a hn]]]]]]]] [x' [xt [y' [w [f' [A [v' [d' [la [dt [z [zp [zr [yy [r [ir ht]]]]]]]]]]]]]]]]]].
move: h1; rewrite e => h1; inversion h1 as [|n1 n2 l1 l2 h3 h4 h5 h6]; subst.
have e2 : run t' = [:: n2] by rewrite -h6; inversion h4.
exists n2; split=> //.
- by case: h3 => v1 [d1 [a1 ->]]; do 8 eexists; reflexivity.
- apply: (vterm_passed h2); rewrite ht; by do 16 eexists; reflexivity.
Qed.

Notation p0 := (xlit F 1 1000000000).
Lemma vtr_vs : exists2 tr, set_guess [::] [::] (k_tr vs) = Some tr &
  exists nd tn, [/\ pin_xt0 (wx0 sq) (pin_x0 (wx0 sq) tr) = mkTraj [:: nd] tn, vnode nd & vterm tn].
Proof.
eexists; first reflexivity.
do 2 eexists; split; first reflexivity.
- by do 8 eexists; reflexivity.
- by do 16 eexists; reflexivity.
Qed.
Lemma vbegin : exists2 s0, solve_begin vc (wx0 sq) [::] [::] 1 None vs = Some s0 &
  (exists nd tn, [/\ k_tr s0 = mkTraj [:: nd] tn, vnode nd & vterm tn]) /\ k_preg s0 = p0 /\ k_dreg s0 = p0.
Proof.
rewrite /solve_begin; case: vtr_vs => tr -> [nd [tn [e hn ht]]]; rewrite e.

eexists; first reflexivity.
split; last by split. by exists nd, tn; split.
Qed.
Lemma main_regs (c : ccfg E) (s : csqp M1) : k_preg (main_start c vtime s) = k_preg s /\ k_dreg (main_start c vtime s) = k_dreg s.
Proof. by rewrite /main_start; case: ifP. Qed.

(** the state in which the first direction of the solve is computed *)
Lemma vcalled : exists s0 s1, [/\ solve_begin vc (wx0 sq) [::] [::] 1 None vs = Some s0,
   called vc vtime 0 s0 1 s1, vtraj (k_tr s1) & k_preg s1 = p0 /\ k_dreg s1 = p0].
Proof.
have [s0 hb [[nd [tn [e hn ht]]] [ep ed]]] := vbegin.
exists s0, (main_start vc vtime s0); split=> //.
- exact: (call_main (head0 _ _ _ _) (Nat.lt_0_succ 0) erefl).
- have hv := vtraj_calc e hn ht.
  case: (main_start_tr vc s0) => ->; first exact: hv.
  apply: vtraj_passed hv; exact: (proj1 (apply_rho_cstep _ _ _)).
- by have [-> ->] := main_regs vc s0.
Qed.
Lemma p0_gt0 : 0 < p0. Proof. exact: xlit_gt0. Qed.
Lemma posrE p : posr F p = (Pos.to_nat p)%:R.
Proof.
elim: p => [p ih|p ih|].
- rewrite -[posr F p~1]/(posr F p + posr F p + 1) ih Pos2Nat.inj_xI -[(2 * _)%coq_nat]/(2 * Pos.to_nat p)%nat.
  by rewrite mulrSr natrM mulr2n mulrDl !mul1r.
- rewrite -[posr F p~0]/(posr F p + posr F p) ih Pos2Nat.inj_xO -[(2 * _)%coq_nat]/(2 * Pos.to_nat p)%nat.
  by rewrite natrM mulr2n mulrDl !mul1r.
- by [].
Qed.
Lemma xlit_le (p q p' q' : positive) : (p * q' <=? p' * q)%positive -> xlit F (Zpos p) q <= xlit F (Zpos p') q'.
Proof.
move=> /Pos.leb_le /Pos2Nat.inj_le; rewrite !Pos2Nat.inj_mul => /ssrnat.leP h.
rewrite /xlit /Zr !posrE.
have hp : forall r : positive, 0 < ((Pos.to_nat r)%:R : F).
  by move=> r; rewrite -posrE; exact: posr_gt0.
by rewrite ler_pdivr_mulr // mulrAC ler_pdivl_mulr // -!natrM ler_nat.
Qed.
Lemma one_lit_le : xlit F 1 1000000 <= xlit F 1000 1.
Proof. by apply: xlit_le. Qed.

(** C53's hypotheses hold, hence the first direction is computed *)
Theorem C53_hypotheses_met : exists s0 s1,
  [/\ csqp_hist [:: vslot] (wtslot sq) (fun _ _ => True) 1 vs, solve_begin vc (wx0 sq) [::] [::] 1 None vs = Some s0,
      called vc vtime 0 s0 1 s1, convex_qp (k_tr s1) &
      [/\ 0 <= (k_preg s1 : F), reg_positive (k_dreg s1) (k_tr s1), 0 <= (cc_sigma vc : F) & 0 < (cc_sigma vc : F) + (k_dreg s1 : F)]].
Proof.
have [s0 [s1 [hb hc hv [ep ed]]]] := vcalled; exists s0, s1; split=> //.
- exact: (@chist_new E M1 [:: vslot] (wtslot sq) _ (wx0 sq) 1 (xlit F 1 10)).
- exact: vtraj_convex.
- have g := p0_gt0; rewrite ep ed; split; try exact: ltW.
  + by left.
  + by apply: ltW; apply: xlit_gt0.
  + by apply: addr_gt0 => //; apply: xlit_gt0.
Qed.
(** ... and so do those of C23, C27-C29, C35: the first ADMM iteration is reached,
    continues, and there is a constraint row *)
Theorem admm_hypotheses_met : exists s1 si,
  [/\ csqp_hist [:: vslot] (wtslot sq) (fun _ _ => True) 1 vs,
      solve_qp vc vtime 0 (wx0 sq) [::] [::] 1 None vs s1 1 si,
      traj_sym (k_tr si) /\ convex_qp (k_tr si),
      exists s2, qp_step vc 1 si = SGo s2 \/ qp_step vc 1 si = SStop s2 &
      exists2 nd, run (k_tr si) = [:: nd] & ng (nm nd) = 1%nat].
Proof.
have [s0 [s1 [hb hc hv [ep ed]]]] := vcalled.
have hh : csqp_hist [:: vslot] (wtslot sq) (fun _ _ => True) 1 vs.
  exact: (@chist_new E M1 [:: vslot] (wtslot sq) _ (wx0 sq) 1 (xlit F 1 10)).
have g := p0_gt0; have gs : 0 < (cc_sigma vc : F) by apply: xlit_gt0.
have [sy cv ro] := vtraj_convex hv.
have hqb : qp_begin vc s1 <> None.
  by apply: C53_convex_guess_no_exception => //; rewrite ?ep ?ed; [apply: ltW|left].
case e: (qp_begin vc s1) hqb => [sb|//] _.
have hmax : Peano.le 1 (cc_maxqp vc) by apply/ssrnat.leP.
have ht : qp_top vc vtime s1 1 (snd (tick vtime sb)) := qp_top1 e hmax erefl.
move: (snd (tick vtime sb)) ht => si ht.
have hr : csqp_hist [:: vslot] (wtslot sq) (fun _ _ => True) 1 vs /\ solve_qp vc vtime 0 (wx0 sq) [::] [::] 1 None vs s1 1 si.
  by split=> //; exists s0.
have hv' := vtraj_passed (proj1 (top_cstep ht)) hv.
have [sy' cv' ro'] := vtraj_convex hv'.
exists s1, si; split=> //.
- by case: hr.
- have [ep' ed'] := qp_top_regs ht.
  have rm : (cc_rhomin vc : F) <= cc_rhomax vc := one_lit_le.
  have r0 : 0 < (cc_rhomin vc : F) by apply: xlit_gt0.
  have rb : 0 < (cc_rhobase vc : F) by apply: xlit_gt0.
  have hpos := C29_positive r0 rm rb hr.
  have [_ hp] := C28_C29_C37_penalties rm hr.
  have hk : Peano.lt 0 (cc_interval vc) by apply/ssrnat.leP.
  have hno : forall s2, qp_step vc 1 si <> SThrow s2.
    move=> s2; apply: (C53_convex_iteration_no_exception hk hr) => //; rewrite ?ep' ?ed' ?ep ?ed //; try exact: ltW.
    - apply: penalties_nonneg hp => //; exact: ltW.
    - exact: addr_gt0.
  case es: (qp_step vc 1 si) hno => [s2|s2|s2] hno; [by case: (hno s2)|by exists s2; right|by exists s2; left].
- by case: hv' => nd [e' [p [m [x [u [f [v [d [a hn]]]]]]]] _]; exists nd => //; rewrite hn.
Qed.
End W.
