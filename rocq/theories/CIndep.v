(** * Two runs of SolverCSQP::solve from objects with different pasts: the arrays. *)
From Coq Require Import ZArith List Bool Arith Lia ssreflect ssrbool.
From Verif Require Import Eigen Problem DDP Filter SQP CSQP Init.
Import ListNotations.
Set Implicit Arguments.
Unset Strict Implicit.
Set Asymmetric Patterns.

(** groups of solver arrays (FM ... FP) and of solver scalars (FC ... FK) *)
Inductive fld := FM | FD | FF | FR | FZ | FY | FX | FV | FQ | FH | FW | FT | FL | FP
  | FC | FN | FS | FI | FK | FJ.
Definition add (w : fld) (P : fld -> Prop) : fld -> Prop := fun f => f = w \/ P f.

Section CIndep.
Variable E : Eig.
Variable M : manifold E.
Notation R := (R E).
Notation vec := (vec E).
Notation node := (node M).
Notation tnode := (tnode M).
Notation X := (mX M).
Hypothesis vec0 : forall v w : vec 0, v = w.
(** conditions on the models, carried along *)
Variable S : amodel M -> Prop.
Variable TS : tmodel M -> Prop.

Lemma vec0' k (v w : vec k) : k =? 0 = true -> v = w.
Proof. move/Nat.eqb_eq => e. subst k. exact: vec0. Qed.

Definition agr (f : fld) (m : amodel M) (p1 p2 : point M (nu m)) (me1 me2 : amem m) (d1 d2 : derivs M (nu m) (ng m)) (f1 f2 : vec (mndx M))
    (v1 v2 : vals M (nu m)) (e1 e2 : dirs M (nu m)) (a1 a2 : admm M (nu m) (ng m)) : Prop :=
  match f with
  | FM => me1 = me2
  | FD => d1 = d2
  | FF => f1 = f2
  | FR => arho a1 = arho a2 /\ airho a1 = airho a2
  | FZ => az a1 = az a2 /\ azp a1 = azp a2
  | FY => ay a1 = ay a2
  | FX => dx e1 = dx e2 /\ du e1 = du e2
  | FV => Vxx v1 = Vxx v2 /\ Vx v1 = Vx v2 /\ (nu m =? 0 = false -> gK v1 = gK v2 /\ gk v1 = gk v2 /\ llt v1 = llt v2)
  | FQ => Qx v1 = Qx v2 /\ (nu m =? 0 = false -> Qu v1 = Qu v2)
  | FH => Qxx v1 = Qxx v2 /\ (nu m =? 0 = false -> Quu v1 = Quu v2 /\ Qxu v1 = Qxu v2)
  | FW => Vxxfs v1 = Vxxfs v2
  | FT => dxt a1 = dxt a2 /\ dut a1 = dut a2
  | FL => lam e1 = lam e2
  | FP => pxt p1 = pxt p2 /\ put p1 = put p2
  | _ => True
  end.
Inductive nrel (P : fld -> Prop) : node -> node -> Prop :=
  | Nrel m (p1 p2 : point M (nu m)) (me1 me2 : amem m) d1 d2 f1 f2 (v1 v2 : vals M (nu m))
      (e1 e2 : dirs M (nu m)) (a1 a2 : admm M (nu m) (ng m)) : S m ->
      px p1 = px p2 -> pu p1 = pu p2 -> (forall f, P f -> agr f p1 p2 me1 me2 d1 d2 f1 f2 v1 v2 e1 e2 a1 a2) ->
      nrel P (@mkNode E M m p1 me1 d1 f1 v1 e1 a1) (@mkNode E M m p2 me2 d2 f2 v2 e2 a2).
Definition tagr (f : fld) (m : tmodel M) (xt1 xt2 : X) (me1 me2 : tmem m) (d1 d2 : tderivs M (tng m)) (f1 f2 : vec (mndx M))
    (A1 A2 : mat E (mndx M) (mndx M)) (v1 v2 dx1 dx2 l1 l2 dt1 dt2 : vec (mndx M))
    (z1 z2 zp1 zp2 y1 y2 r1 r2 i1 i2 : vec (tng m)) : Prop :=
  match f with
  | FM => me1 = me2
  | FD => d1 = d2
  | FF => f1 = f2
  | FR => r1 = r2 /\ i1 = i2
  | FZ => z1 = z2 /\ zp1 = zp2
  | FY => y1 = y2
  | FX => dx1 = dx2
  | FV => A1 = A2 /\ v1 = v2
  | FT => dt1 = dt2
  | FL => l1 = l2
  | FP => xt1 = xt2
  | _ => True
  end.
Inductive trel (P : fld -> Prop) : tnode -> tnode -> Prop :=
  | Trel m x xt1 xt2 (me1 me2 : tmem m) d1 d2 f1 f2 A1 A2 v1 v2 dx1 dx2 l1 l2
      dt1 dt2 z1 z2 zp1 zp2 zr1 zr2 y1 y2 r1 r2 i1 i2 : TS m ->
      (forall f, P f -> tagr f xt1 xt2 me1 me2 d1 d2 f1 f2 A1 A2 v1 v2 dx1 dx2 l1 l2 dt1 dt2 z1 z2 zp1 zp2 y1 y2 r1 r2 i1 i2) ->
      trel P (@mkTnode E M m x xt1 me1 d1 f1 A1 v1 dx1 l1 dt1 z1 zp1 zr1 y1 r1 i1)
             (@mkTnode E M m x xt2 me2 d2 f2 A2 v2 dx2 l2 dt2 z2 zp2 zr2 y2 r2 i2).
Notation lrel P := (Forall2 (nrel P)).
Definition jrel (P : fld -> Prop) (t1 t2 : traj M) : Prop := lrel P (run t1) (run t2) /\ trel P (trm t1) (trm t2).

Ltac dn := case=> m [xx1 u1 xt1 ut1] [xx2 u2 xt2 ut2] me1 me2 dd1 dd2 ff1 ff2
  [Vxx1 Vx1 Qxx1 Qxu1 Quu1 Qx1 Qu1 gK1 gk1 Quuk1 llt1 W1] [Vxx2 Vx2 Qxx2 Qxu2 Quu2 Qx2 Qu2 gK2 gk2 Quuk2 llt2 W2]
  [dx1 du1 ll1] [dx2 du2 ll2] [dxt1 dut1 z1 zp1 zr1 y1 rr1 ii1] [dxt2 dut2 z2 zp2 zr2 y2 rr2 ii2] hS; cbn [px pu]; move=> hx hu h.
Ltac dt := case=> m x xt1 xt2 me1 me2 dd1 dd2 ff1 ff2 A1 A2 v1 v2 dx1 dx2 ll1 ll2
  dt1 dt2 z1 z2 zp1 zp2 zr1 zr2 y1 y2 rr1 rr2 ii1 ii2 hS h.
Tactic Notation "get" hyp(h) constr(p) := move: (h _ p);
  cbn [agr tagr px pu pxt put Vxx Vx Qxx Qxu Quu Qx Qu gK gk Quuk llt Vxxfs dx du lam dxt dut az azp azr ay arho airho].
(** the groups that an operation did not touch; leaves the others *)
Ltac fin h := let f := fresh "f" in let hf := fresh "hf" in move=> f hf; case: f hf => hf;
  try exact: I; try (case: hf => [hf|hf]; [discriminate hf|]); try exact: (h _ hf);
  cbn [agr tagr px pu pxt put Vxx Vx Qxx Qxu Quu Qx Qu gK gk Quuk llt Vxxfs dx du lam dxt dut az azp azr ay arho airho].

Lemma nrel_mono (P Q : fld -> Prop) n1 n2 : (forall f, Q f -> P f) -> nrel P n1 n2 -> nrel Q n1 n2.
Proof. move=> hq [m p1 p2 me1 me2 d1 d2 f1 f2 v1 v2 e1 e2 a1 a2 hS hx hu h]. constructor => // f /hq. exact: h. Qed.
Lemma trel_mono (P Q : fld -> Prop) n1 n2 : (forall f, Q f -> P f) -> trel P n1 n2 -> trel Q n1 n2.
Proof. move=> hq. dt. constructor => // f /hq. exact: h. Qed.
Lemma lrel_mono (P Q : fld -> Prop) l1 l2 : (forall f, Q f -> P f) -> lrel P l1 l2 -> lrel Q l1 l2.
Proof. move=> hq. elim=> [|n1 n2 ? ? hn _ ih]; constructor => //. exact: nrel_mono hn. Qed.
Lemma jrel_mono (P Q : fld -> Prop) t1 t2 : (forall f, Q f -> P f) -> jrel P t1 t2 -> jrel Q t1 t2.
Proof. move=> hq [h1 h2]. split; [exact: lrel_mono h1|exact: trel_mono h2]. Qed.
Lemma lrel_map (P Q : fld -> Prop) g l1 l2 : (forall n1 n2, nrel P n1 n2 -> nrel Q (g n1) (g n2)) ->
  lrel P l1 l2 -> lrel Q (map g l1) (map g l2).
Proof. move=> hg. elim=> [|n1 n2 ? ? hn _ ih] /=; constructor => //. exact: hg. Qed.
Lemma lrel_fold (P : fld -> Prop) A (g : A -> node -> A) l1 l2 a : (forall b n1 n2, nrel P n1 n2 -> g b n1 = g b n2) ->
  lrel P l1 l2 -> fold_left g l1 a = fold_left g l2 a.
Proof. move=> hg hl. elim: hl a => [|n1 n2 ? ? hn _ ih] a //=. by rewrite (hg _ _ _ hn) ih. Qed.

Section Ops.
Variable P : fld -> Prop.

Lemma hd_x_rel l1 l2 tn1 tn2 : lrel P l1 l2 -> trel P tn1 tn2 -> hd_x l1 tn1 = hd_x l2 tn2.
Proof. case=> [|n1 n2 ? ? hn _]; [by case|]. move=> _. by case: hn. Qed.
Lemma hd_fs_rel l1 l2 tn1 tn2 : P FF -> lrel P l1 l2 -> trel P tn1 tn2 -> hd_fs l1 tn1 = hd_fs l2 tn2.
Proof. move=> p [|n1 n2 ? ? hn _]; [dt; exact: (h _ p)|]. move=> _. move: hn; dn; exact: (h _ p). Qed.
Lemma hd_lam_rel l1 l2 tn1 tn2 : P FL -> lrel P l1 l2 -> trel P tn1 tn2 -> hd_lam l1 tn1 = hd_lam l2 tn2.
Proof. move=> p [|n1 n2 ? ? hn _]; [dt; exact: (h _ p)|]. move=> _. move: hn; dn; exact: (h _ p). Qed.
Lemma hd_xt_rel l1 l2 tn1 tn2 : P FP -> lrel P l1 l2 -> trel P tn1 tn2 -> hd_xt l1 tn1 = hd_xt l2 tn2.
Proof. move=> p [|n1 n2 ? ? hn _]; [dt; exact: (h _ p)|]. move=> _. move: hn; dn; exact: (proj1 (h _ p)). Qed.
Lemma hd_V_rel l1 l2 tn1 tn2 : P FV -> lrel P l1 l2 -> trel P tn1 tn2 ->
  hd_Vxx l1 tn1 = hd_Vxx l2 tn2 /\ hd_Vx l1 tn1 = hd_Vx l2 tn2.
Proof. move=> p [|n1 n2 ? ? hn _]; [dt; exact: (h _ p)|]. move=> _. move: hn; dn. by get h p => [[-> [-> _]]]. Qed.

End Ops.
Section Ops1.
Variable P : fld -> Prop.
(** ** evaluation *)
Lemma problem_calc_rel t1 t2 : jrel P t1 t2 -> jrel (add FM P) (problem_calc t1) (problem_calc t2).
Proof.
  move=> [h1 h2]. split; cbn [problem_calc run trm].
  - apply: lrel_map h1 => n1 n2. dn. subst xx2 u2. constructor => //=. by fin h.
  - move: h2; dt. constructor => //=. by fin h.
Qed.
Lemma stored_cost_rel t1 t2 : P FM -> jrel P t1 t2 -> stored_cost t1 = stored_cost t2.
Proof.
  move=> p [h1 h2]. rewrite /stored_cost. f_equal.
  - apply: lrel_fold h1 => b n1 n2. dn. by get h p => /= ->.
  - move: h2; dt. by get h p => /= ->.
Qed.
Lemma calcDiff_rel t1 t2 : P FM -> jrel P t1 t2 ->
  jrel (add FD P) (fst (problem_calcDiff t1)) (fst (problem_calcDiff t2)) /\
  snd (problem_calcDiff t1) = snd (problem_calcDiff t2).
Proof.
  move=> p hj. split; last exact: stored_cost_rel hj. case: hj => h1 h2. split; cbn [problem_calcDiff fst run trm].
  - apply: lrel_map h1 => n1 n2. dn. get h p => e. subst me2 xx2 u2. constructor => //=. by fin h.
  - move: h2; dt. get h p => e. subst me2. constructor => //=. by fin h.
Qed.
Lemma calc_nodes_rel l1 l2 tn1 tn2 : P FM -> lrel P l1 l2 -> trel P tn1 tn2 -> forall f gap con,
  (f = None -> hd_fs l1 tn1 = hd_fs l2 tn2) ->
  let r1 := calc_nodes f l1 tn1 gap con in let r2 := calc_nodes f l2 tn2 gap con in
  lrel (add FF P) (fst (fst r1)) (fst (fst r2)) /\ trel (add FF P) (snd (fst r1)) (snd (fst r2)) /\ snd r1 = snd r2.
Proof.
  move=> p hl ht. elim: hl => [|n1 n2 q1 q2 hn hq ih] f gap con hf; cbn [calc_nodes fst snd].
  - split; [constructor|]. split => //. case: f hf => [v _|/(_ (Logic.eq_refl _))].
    + move: ht; dt. constructor => //=. by fin h.
    + move: ht; dt => /= e. subst ff2. constructor => //=. by fin h.
  - rewrite -(hd_x_rel hq ht).
    have [e1 [e2 [e3 e4]]] : axnext (nm n1) (mem n1) = axnext (nm n2) (mem n2) /\
      vl1 E (viol_lb E (alb (nm n1)) (ag (nm n1) (mem n1))) = vl1 E (viol_lb E (alb (nm n2)) (ag (nm n2) (mem n2))) /\
      vl1 E (viol_ub E (aub (nm n1)) (ag (nm n1) (mem n1))) = vl1 E (viol_ub E (aub (nm n2)) (ag (nm n2) (mem n2))) /\
      nrel (add FF P) (match f with None => n1 | Some v => set_fs n1 v end) (match f with None => n2 | Some v => set_fs n2 v end).
    { move: hf; cbn [hd_fs]. move: hn; dn => hf. get h p => e. subst me2. do 3 split => //.
      case: f hf => [v _|/(_ (Logic.eq_refl _)) /= e]; last subst ff2; constructor => //=; by fin h. }
    rewrite -e1 -e2 -e3.
    have := ih (Some (diff M (hd_x q1 tn1) (axnext (nm n1) (mem n1)))) (radd E gap (vl1 E (diff M (hd_x q1 tn1) (axnext (nm n1) (mem n1)))))
      (radd E (radd E con (vl1 E (viol_lb E (alb (nm n1)) (ag (nm n1) (mem n1))))) (vl1 E (viol_ub E (aub (nm n1)) (ag (nm n1) (mem n1))))) ltac:(discriminate).
    cbv zeta. move=> [j1 [j2 j3]]. split; [by constructor|]. by split.
Qed.

(** ** penalties *)
Variable c : ccfg E.
Lemma rho_node_rel rho n1 n2 : P FR -> nrel P n1 n2 -> nrel P (rho_node c rho n1) (rho_node c rho n2).
Proof.
  move=> p. dn. get h p => [[e1 e2]]. subst rr2 ii2. constructor => //=. by fin h.
Qed.
Lemma rho_tnode_rel rho n1 n2 : P FR -> trel P n1 n2 -> trel P (rho_tnode c rho n1) (rho_tnode c rho n2).
Proof.
  move=> p. dt. get h p => [[e1 e2]]. subst rr2 ii2. constructor => //=. by fin h.
Qed.
Lemma apply_rho_rel rho t1 t2 : P FR -> jrel P t1 t2 -> jrel P (apply_rho c rho t1) (apply_rho c rho t2).
Proof.
  move=> p [h1 h2]. split; [|exact: rho_tnode_rel].
  by apply: lrel_map h1 => n1 n2; apply: rho_node_rel.
Qed.
(** every row of the bounds is written *)
Definition settled {k} (lb ub : bvec E k) : Prop :=
  forall rho a b a' b', rho_rows c rho lb ub a b = rho_rows c rho lb ub a' b'.
Hypothesis hset : forall m, S m -> settled (alb m) (aub m).
Hypothesis htset : forall m, TS m -> settled (tlb m) (tub m).
Lemma reset_rho_rel rho t1 t2 : jrel P t1 t2 -> jrel (add FR P) (apply_rho c rho t1) (apply_rho c rho t2).
Proof.
  move=> [h1 h2]. split; cbn [apply_rho run trm].
  - apply: lrel_map h1 => n1 n2. dn. constructor => //=. fin h. have e := hset hS rho rr1 ii1 rr2 ii2. split; [exact: (f_equal fst e)|exact: (f_equal snd e)].
  - move: h2; dt. constructor => //=. fin h. have e := htset hS rho rr1 ii1 rr2 ii2. split; [exact: (f_equal fst e)|exact: (f_equal snd e)].
Qed.
Lemma reset_rel t1 t2 : P FY \/ cc_resety c = true -> jrel P t1 t2 ->
  jrel (add FZ (add FY P)) (mkTraj (map (reset_node c) (run t1)) (reset_tnode c (trm t1)))
                           (mkTraj (map (reset_node c) (run t2)) (reset_tnode c (trm t2))).
Proof.
  move=> hy [h1 h2]. split; cbn [run trm].
  - apply: lrel_map h1 => n1 n2. dn. constructor => //=. fin h; try (by case: hf => // hf; exact: (h _ hf)); try by [].
    case: hy => [p| ->] //. by case: ifP => // _; exact: (h _ p).
  - move: h2; dt. constructor => //=. fin h; try (by case: hf => // hf; exact: (h _ hf)); try by [].
    case: hy => [p| ->] //. by case: ifP => // _; exact: (h _ p).
Qed.

(** ** backward passes *)
Lemma cb_tVx_rel sigma tn1 tn2 : P FD -> P FR -> P FZ -> P FY -> P FX -> trel P tn1 tn2 ->
  cb_tVx sigma tn1 = cb_tVx sigma tn2.
Proof.
  move=> pd pr pz py px. dt. get h pd => e. subst dd2. get h pr => [[? ?]]. get h pz => [[? ?]]. get h py => ?. get h px => ?. by subst.
Qed.
Lemma cb_term_rel preg tn1 tn2 : P FD -> P FR -> P FZ -> P FY -> P FX -> trel P tn1 tn2 ->
  trel (add FV P) (cb_term c preg tn1) (cb_term c preg tn2).
Proof.
  move=> pd pr pz py px hr. rewrite /cb_term (cb_tVx_rel (cc_sigma c) pd pr pz py px hr).
  move: (cb_tVx _ _) => v; move: hr. dt. get h pd => e. subst dd2. get h pr => [[e _]]. subst rr2. constructor => //=. by fin h.
Qed.
Lemma cw_term_rel preg tn1 tn2 : P FD -> trel P tn1 tn2 -> trel (add FV P) (cw_term preg tn1) (cw_term preg tn2).
Proof. move=> pd. dt. get h pd => e. subst dd2. constructor => //=. by fin h. Qed.
Lemma cf_term_rel tn1 tn2 : P FD -> P FR -> P FZ -> P FY -> P FX -> P FV -> trel P tn1 tn2 ->
  trel P (cf_term c tn1) (cf_term c tn2).
Proof.
  move=> pd pr pz py px pv hr. rewrite /cf_term (cb_tVx_rel (cc_sigma c) pd pr pz py px hr).
  move: (cb_tVx _ _) => v; move: hr. dt. get h pv => [[e _]]. subst A2. constructor => //=. by fin h.
Qed.

(** one node of a full pass: equal inputs, equal outputs *)
Lemma finish_rel symm preg m (p1 p2 : point M (nu m)) me1 me2 d1 d2 f1 f2 v1 v2 e1 e2 a1 a2 qx qxx (qu1 qu2 : vec (nu m)) (quu1 quu2 : mat E (nu m) (nu m)) (qxu1 qxu2 : mat E (mndx M) (nu m)) (vfs1 vfs2 : vec (mndx M)) (Q : fld -> Prop) :
  let n1 := @mkNode E M m p1 me1 d1 f1 v1 e1 a1 in let n2 := @mkNode E M m p2 me2 d2 f2 v2 e2 a2 in
  S m -> px p1 = px p2 -> pu p1 = pu p2 -> (forall f, P f -> agr f p1 p2 me1 me2 d1 d2 f1 f2 v1 v2 e1 e2 a1 a2) ->
  (nu m =? 0 = false -> qu1 = qu2 /\ quu1 = quu2 /\ qxu1 = qxu2) -> (P FW -> vfs1 = vfs2) ->
  (forall f, Q f -> f = FV \/ P f \/ (f = FW /\ vfs1 = vfs2)) ->
  let r1 := cb_finish symm preg n1 qx qxx qu1 quu1 qxu1 vfs1 in
  let r2 := cb_finish symm preg n2 qx qxx qu2 quu2 qxu2 vfs2 in
  fst r1 = fst r2 /\ nrel P (snd r1) (snd r2) /\ (fst r1 = true -> nrel Q (snd r1) (snd r2)).
Proof.
  cbv zeta. move=> hS hx hu h hq hw hQ. rewrite /cb_finish. cbn [nm val].
  case: v1 h => Vxx1 Vx1 Qxx1 Qxu1 Quu1 Qx1 Qu1 gK1 gk1 Quuk1 llt1 W1; case: v2 => Vxx2 Vx2 Qxx2 Qxu2 Quu2 Qx2 Qu2 gK2 gk2 Quuk2 llt2 W2 h.
  case e0: (nu m =? 0) hq; cbn [negb andb fst snd] => hq.
  - set w1 := mkVals _ _ _ _ _ _ _ _ _ _ _ vfs1. set w2 := mkVals _ _ _ _ _ _ _ _ _ _ _ vfs2.
    have hag : forall f, P f -> agr f p1 p2 me1 me2 d1 d2 f1 f2 w1 w2 e1 e2 a1 a2.
    { move=> f hf. case: f hf => hf; try exact: (h _ hf); try exact: I; cbn; try (by rewrite e0).
      exact: hw. }
    split => //. split; [by constructor|move=> _]. constructor => // f /hQ [->|[/hag //|[-> //]]].
    cbn. by rewrite e0.
  - have [? [? ?]] := hq (Logic.eq_refl _). subst qu2 quu2 qxu2.
    case: (llt_ok E quu1); cbn [negb fst snd].
    + set w1 := mkVals _ _ _ _ _ _ _ _ _ _ _ vfs1. set w2 := mkVals _ _ _ _ _ _ _ _ _ _ _ vfs2.
      have hag : forall f, P f -> agr f p1 p2 me1 me2 d1 d2 f1 f2 w1 w2 e1 e2 a1 a2.
      { move=> f hf. case: f hf => hf; try exact: (h _ hf); try exact: I; cbn => //. exact: hw. }
      split => //. split; [by constructor|move=> _]. by constructor => // f /hQ [->|[/hag //|[-> //]]].
    + split => //. split => //. constructor => // f hf.
      case: f hf => hf; try exact: (h _ hf); try exact: I; cbn => //.
      * get h hf => [[-> [-> g]]]. do 2 split => //. by move=> /g [-> [-> _]].
      * exact: hw.
Qed.

Notation PV := (add FV (add FW P)).
Lemma cb_node_rel preg dreg first n1 n2 A v f : P FD -> P FR -> P FZ -> P FY -> P FX -> nrel P n1 n2 ->
  let r1 := cb_node c preg dreg first n1 A v f in let r2 := cb_node c preg dreg first n2 A v f in
  fst r1 = fst r2 /\ nrel P (snd r1) (snd r2) /\ (fst r1 = true -> nrel PV (snd r1) (snd r2)).
Proof.
  move=> pd pr pz py px. dn. get h pd => ?. get h pr => [[? ?]]. get h pz => [[? ?]]. get h py => ?. get h px => [[? ?]].
  subst dd2 rr2 ii2 z2 zp2 y2 dx2 du2. cbv zeta. apply: finish_rel => //.
  - cbn [nm]. by move=> ->.
  - move=> g [->|[->|]]; auto.
Qed.
Lemma cb_nodes_rel preg dreg l1 l2 tn1 tn2 : P FD -> P FF -> P FR -> P FZ -> P FY -> P FX -> lrel P l1 l2 -> trel PV tn1 tn2 ->
  forall first, let r1 := cb_nodes c preg dreg first l1 tn1 in let r2 := cb_nodes c preg dreg first l2 tn2 in
  fst r1 = fst r2 /\ lrel P (snd r1) (snd r2) /\ (fst r1 = true -> lrel PV (snd r1) (snd r2)).
Proof.
  move=> pd pf pr pz py px hl ht. elim: hl => [|n1 n2 q1 q2 hn hq ih] first; cbn [cb_nodes].
  - split => //. by split; [|move=> _]; constructor.
  - have := ih false. cbv zeta. move=> [e1 [i2 i3]]. rewrite -e1. case e: (fst (cb_nodes c preg dreg false q1 tn1)); cbn [fst snd].
    + have i3' := i3 e.
      have [-> ->] := hd_V_rel (or_introl (Logic.eq_refl _) : PV FV) i3' ht.
      rewrite (hd_fs_rel (or_intror (or_intror pf) : PV FF) i3' ht).
      case: (cb_node_rel preg dreg first (hd_Vxx (snd (cb_nodes c preg dreg false q2 tn2)) tn2)
        (hd_Vx (snd (cb_nodes c preg dreg false q2 tn2)) tn2) (hd_fs (snd (cb_nodes c preg dreg false q2 tn2)) tn2) pd pr pz py px hn) => j1 [j2 j3].
      split => //. split; first by constructor.
      move=> hb. constructor; [exact: j3|exact: i3'].
    + split => //. split => //. by constructor.
Qed.
Lemma pv_sub f : P f -> PV f. Proof. by right; right. Qed.
Lemma cb_backward_rel preg dreg t1 t2 : P FD -> P FF -> P FR -> P FZ -> P FY -> P FX -> jrel P t1 t2 ->
  let r1 := cb_backward c preg dreg t1 in let r2 := cb_backward c preg dreg t2 in
  fst r1 = fst r2 /\ jrel P (snd r1) (snd r2) /\ (fst r1 = true -> jrel PV (snd r1) (snd r2)).
Proof.
  move=> pd pf pr pz py px [h1 h2]. have ht := cb_term_rel preg pd pr pz py px h2.
  have ht' : trel PV (cb_term c preg (trm t1)) (cb_term c preg (trm t2)).
  { move: ht. move: (cb_term _ _ _) (cb_term _ _ _) => q1 q2. dt. constructor => // f hf. case: f hf => hf; try exact: I; apply: h; case: hf => [hf|[hf|hf]]; try discriminate hf; by [left|right]. }
  have := cb_nodes_rel preg dreg pd pf pr pz py px h1 ht' true. cbv zeta. move=> [e [i1 i2]].
  split => //. split; [split => //|move=> /i2 hh; by split].
  apply: trel_mono ht' => f. exact: pv_sub.
Qed.

Lemma cw_node_rel preg dreg n1 n2 A v f : P FD -> nrel P n1 n2 ->
  let r1 := cw_node preg dreg n1 A v f in let r2 := cw_node preg dreg n2 A v f in
  fst r1 = fst r2 /\ nrel P (snd r1) (snd r2) /\ (fst r1 = true -> nrel (add FV P) (snd r1) (snd r2)).
Proof.
  move=> pd. dn. get h pd => ?.
  subst dd2. cbv zeta. apply: finish_rel => //.
  - cbn [nm]. by move=> ->.
  - cbn. move=> hf. exact: (h _ hf).
  - move=> g [->|]; auto.
Qed.
Lemma cw_nodes_rel preg dreg l1 l2 tn1 tn2 : P FD -> P FF -> lrel P l1 l2 -> trel (add FV P) tn1 tn2 ->
  let r1 := cw_nodes preg dreg l1 tn1 in let r2 := cw_nodes preg dreg l2 tn2 in
  fst r1 = fst r2 /\ lrel P (snd r1) (snd r2) /\ (fst r1 = true -> lrel (add FV P) (snd r1) (snd r2)).
Proof.
  move=> pd pf hl ht. elim: hl => [|n1 n2 q1 q2 hn hq [e1 [i2 i3]]]; cbn [cw_nodes].
  - split => //. by split; [|move=> _]; constructor.
  - cbv zeta. rewrite -e1. case e: (fst (cw_nodes preg dreg q1 tn1)); cbn [fst snd].
    + have i3' := i3 e.
      have [-> ->] := hd_V_rel (or_introl (Logic.eq_refl _) : add FV P FV) i3' ht.
      rewrite (hd_fs_rel (or_intror pf : add FV P FF) i3' ht).
      case: (cw_node_rel preg dreg (hd_Vxx (snd (cw_nodes preg dreg q2 tn2)) tn2)
        (hd_Vx (snd (cw_nodes preg dreg q2 tn2)) tn2) (hd_fs (snd (cw_nodes preg dreg q2 tn2)) tn2) pd hn) => j1 [j2 j3].
      split => //. split; first by constructor.
      move=> hb. constructor; [exact: j3|exact: i3'].
    + split => //. split => //. by constructor.
Qed.
Lemma cw_backward_rel preg dreg t1 t2 : P FD -> P FF -> jrel P t1 t2 ->
  let r1 := cw_backward preg dreg t1 in let r2 := cw_backward preg dreg t2 in
  fst r1 = fst r2 /\ jrel P (snd r1) (snd r2) /\ (fst r1 = true -> jrel (add FV P) (snd r1) (snd r2)).
Proof.
  move=> pd pf [h1 h2]. have ht := cw_term_rel preg pd h2.
  have := cw_nodes_rel preg dreg pd pf h1 ht. cbv zeta. move=> [e [i1 i2]].
  split => //. split; [split => //|move=> /i2 hh; by split].
  apply: trel_mono ht => f. by right.
Qed.

Lemma cm_init_rel dreg first n1 n2 : P FD -> P FR -> P FZ -> P FY -> P FX -> nrel P n1 n2 ->
  nrel (add FQ (add FH P)) (cm_init c dreg first n1) (cm_init c dreg first n2).
Proof.
  move=> pd pr pz py px. dn. get h pd => ?. get h pr => [[? ?]]. get h pz => [[? ?]]. get h py => ?. get h px => [[? ?]].
  subst dd2 rr2 ii2 z2 zp2 y2 dx2 du2. constructor => //. rewrite /cm_init. cbn [nm val].
  fin h; try (case: hf => [hf|hf]; [discriminate hf|exact: (h _ hf)]).
  - split => // e0. by rewrite e0.
  - split => // e0. by rewrite e0.
Qed.
Lemma cm_node_rel preg n1 n2 A v f : P FD -> P FQ -> P FH -> nrel P n1 n2 ->
  let r1 := cm_node preg n1 A v f in let r2 := cm_node preg n2 A v f in
  fst r1 = fst r2 /\ nrel P (snd r1) (snd r2) /\ (fst r1 = true -> nrel PV (snd r1) (snd r2)).
Proof.
  move=> pd pq ph. dn. get h pd => ?. get h pq => [[? g1]]. get h ph => [[? g2]]. subst dd2 Qx2 Qxx2. cbv zeta. apply: finish_rel => //.
  - cbn [nm val]. move=> e0. cbn [Quu Qu Qxu]. have [-> ->] := g2 e0. by rewrite (g1 e0).
  - move=> g [->|[->|]]; auto.
Qed.
Lemma cm_nodes_rel preg l1 l2 tn1 tn2 : P FD -> P FF -> P FQ -> P FH -> lrel P l1 l2 -> trel PV tn1 tn2 ->
  let r1 := cm_nodes preg l1 tn1 in let r2 := cm_nodes preg l2 tn2 in
  fst r1 = fst r2 /\ lrel P (snd r1) (snd r2) /\ (fst r1 = true -> lrel PV (snd r1) (snd r2)).
Proof.
  move=> pd pf pq ph hl ht. elim: hl => [|n1 n2 q1 q2 hn hq [e1 [i2 i3]]]; cbn [cm_nodes].
  - split => //. by split; [|move=> _]; constructor.
  - cbv zeta. rewrite -e1. case e: (fst (cm_nodes preg q1 tn1)); cbn [fst snd].
    + have i3' := i3 e.
      have [-> ->] := hd_V_rel (or_introl (Logic.eq_refl _) : PV FV) i3' ht.
      rewrite (hd_fs_rel (or_intror (or_intror pf) : PV FF) i3' ht).
      case: (cm_node_rel preg (hd_Vxx (snd (cm_nodes preg q2 tn2)) tn2)
        (hd_Vx (snd (cm_nodes preg q2 tn2)) tn2) (hd_fs (snd (cm_nodes preg q2 tn2)) tn2) pd pq ph hn) => j1 [j2 j3].
      split => //. split; first by constructor.
      move=> hb. constructor; [exact: j3|exact: i3'].
    + split => //. split => //. by constructor.
Qed.
Lemma lrel_map_first (Q : fld -> Prop) (g : bool -> node -> node) l1 l2 : (forall b n1 n2, nrel P n1 n2 -> nrel Q (g b n1) (g b n2)) ->
  lrel P l1 l2 -> lrel Q (map_first g l1) (map_first g l2).
Proof. move=> hg [|n1 n2 q1 q2 hn hq] /=; constructor; [exact: hg|]. by apply: lrel_map hq => a b; apply: hg. Qed.

(** fast passes *)
Lemma cf_node_rel first n1 n2 v : P FD -> P FR -> P FZ -> P FY -> P FX -> P FV -> P FW -> nrel P n1 n2 ->
  nrel P (cf_node c first n1 v) (cf_node c first n2 v).
Proof.
  move=> pd pr pz py px pv pw. dn. get h pd => ?. get h pr => [[? ?]]. get h pz => [[? ?]]. get h py => ?. get h px => [[? ?]].
  get h pv => [[? [? g]]]. get h pw => ?.
  subst dd2 rr2 ii2 z2 zp2 y2 dx2 du2 Vxx2 Vx2 W2. rewrite /cf_node. cbn [nm val der adm dir Qu]. constructor => //.
  case e0: (nu m =? 0) g; cbn [negb].
  - move=> _. fin h => //; by rewrite e0.
  - move=> /(_ (Logic.eq_refl _)) [? [? ?]]. subst gK2 gk2 llt2. by fin h.
Qed.
Lemma cf_nodes_rel l1 l2 tn1 tn2 : P FD -> P FR -> P FZ -> P FY -> P FX -> P FV -> P FW -> lrel P l1 l2 -> trel P tn1 tn2 ->
  forall first, lrel P (cf_nodes c first l1 tn1) (cf_nodes c first l2 tn2).
Proof.
  move=> pd pr pz py px pv pw hl ht. elim: hl => [|n1 n2 q1 q2 hn hq ih] first; cbn [cf_nodes]; constructor => //.
  rewrite (proj2 (hd_V_rel pv (ih false) ht)). exact: cf_node_rel.
Qed.
Lemma cf_backward_rel t1 t2 : P FD -> P FR -> P FZ -> P FY -> P FX -> P FV -> P FW -> jrel P t1 t2 ->
  jrel P (cf_backward c t1) (cf_backward c t2).
Proof.
  move=> pd pr pz py px pv pw [h1 h2]. have ht := cf_term_rel pd pr pz py px pv h2. split => //. exact: cf_nodes_rel.
Qed.
Lemma cfm_init_rel first n1 n2 : P FD -> P FR -> P FZ -> P FY -> P FX -> nrel P n1 n2 ->
  nrel (add FQ P) (cfm_init c first n1) (cfm_init c first n2).
Proof.
  move=> pd pr pz py px. dn. get h pd => ?. get h pr => [[? ?]]. get h pz => [[? ?]]. get h py => ?. get h px => [[? ?]].
  subst dd2 rr2 ii2 z2 zp2 y2 dx2 du2. rewrite /cfm_init. cbn [nm val der adm dir Qu]. constructor => //. fin h.
  split => // e0. by rewrite e0.
Qed.
Lemma cfm_sweep_rel n1 n2 v : P FD -> P FQ -> P FV -> P FW -> nrel P n1 n2 ->
  nrel P (cfm_sweep n1 v) (cfm_sweep n2 v).
Proof.
  move=> pd pq pv pw. dn. get h pd => ?. get h pq => [[? g1]]. get h pv => [[? [? g]]]. get h pw => ?.
  subst dd2 Vxx2 Vx2 W2 Qx2. rewrite /cfm_sweep. cbn [nm val der adm dir Qu Qx gK Vxxfs]. constructor => //.
  case e0: (nu m =? 0) g g1; cbn [negb].
  - move=> _ _. fin h => //; by rewrite e0.
  - move=> /(_ (Logic.eq_refl _)) [? [? ?]] /(_ (Logic.eq_refl _)) ?. subst gK2 gk2 llt2 Qu2. by fin h.
Qed.
Lemma cfm_nodes_rel l1 l2 tn1 tn2 : P FD -> P FQ -> P FV -> P FW -> lrel P l1 l2 -> trel P tn1 tn2 ->
  lrel P (cfm_nodes l1 tn1) (cfm_nodes l2 tn2).
Proof.
  move=> pd pq pv pw hl ht. elim: hl => [|n1 n2 q1 q2 hn hq ih]; cbn [cfm_nodes]; constructor => //.
  rewrite (proj2 (hd_V_rel pv ih ht)). exact: cfm_sweep_rel.
Qed.
Lemma cfm_gain_rel n1 n2 : P FQ -> P FV -> nrel P n1 n2 -> nrel P (cfm_gain n1) (cfm_gain n2).
Proof.
  move=> pq pv. dn. get h pq => [[? g1]]. get h pv => [[? [? g]]].
  subst Vxx2 Vx2 Qx2. rewrite /cfm_gain. cbn [nm val der adm dir Qu Qx gK Vxxfs llt]. constructor => //.
  fin h => //. do 2 split => //. move=> e0. have [-> [_ ->]] := g e0. by rewrite (g1 e0).
Qed.
End Ops1.

Section Ops2.
Variable P : fld -> Prop.
Variable c : ccfg E.
Notation PV := (add FV (add FW P)).
Lemma cm_backward_rel preg dreg t1 t2 : P FD -> P FF -> P FR -> P FZ -> P FY -> P FX -> jrel P t1 t2 ->
  let r1 := cm_backward c preg dreg t1 in let r2 := cm_backward c preg dreg t2 in
  fst r1 = fst r2 /\ jrel P (snd r1) (snd r2) /\ (fst r1 = true -> jrel PV (snd r1) (snd r2)).
Proof.
  move=> pd pf pr pz py px [h1 h2]. have ht := cb_term_rel c preg pd pr pz py px h2.
  set Q := add FQ (add FH P).
  have sQ f : P f -> Q f by right; right.
  have ht' : trel (add FV (add FW Q)) (cb_term c preg (trm t1)) (cb_term c preg (trm t2)).
  { move: ht. move: (cb_term _ _ _) (cb_term _ _ _) => q1 q2. dt. constructor => // f hf. case: f hf => hf; try exact: I; apply: h; case: hf => [hf|[hf|[hf|[hf|hf]]]]; try discriminate hf; by [left|right]. }
  have hl : lrel Q (map_first (cm_init c dreg) (run t1)) (map_first (cm_init c dreg) (run t2)).
  { apply: lrel_map_first h1 => b n1 n2 hn. exact: cm_init_rel. }
  have := cm_nodes_rel preg (sQ _ pd) (sQ _ pf) (or_introl (Logic.eq_refl _) : Q FQ) (or_intror (or_introl (Logic.eq_refl _)) : Q FH) hl ht'.
  cbv zeta. move=> [e [i1 i2]].
  split => //. split; [split => //|move=> /i2 hh; split].
  - exact: lrel_mono i1.
  - apply: trel_mono ht' => f hf. right; right. exact: sQ.
  - apply: lrel_mono hh => f [->|[->|hf]]; [by left|by right; left|right; right; exact: sQ].
  - apply: trel_mono ht' => f [->|[->|hf]]; [by left|by right; left|right; right; exact: sQ].
Qed.
Lemma cfm_backward_rel t1 t2 : P FD -> P FR -> P FZ -> P FY -> P FX -> P FV -> P FW -> jrel P t1 t2 ->
  jrel P (cfm_backward c t1) (cfm_backward c t2).
Proof.
  move=> pd pr pz py px pv pw [h1 h2]. have ht := cf_term_rel c pd pr pz py px pv h2. split => //.
  set Q := add FQ P. have sQ f : P f -> Q f by right.
  have q0 : Q FQ by left.
  have hl : lrel Q (map_first (cfm_init c) (run t1)) (map_first (cfm_init c) (run t2)).
  { apply: lrel_map_first h1 => b n1 n2 hn. exact: cfm_init_rel. }
  have ht' : trel Q (cf_term c (trm t1)) (cf_term c (trm t2)).
  { move: ht. move: (cf_term _ _) (cf_term _ _) => q1 q2. dt. constructor => // f hf. case: f hf => hf; try exact: I; apply: h; case: hf => [hf|hf]; try discriminate hf; exact: hf. }
  apply: (lrel_mono sQ). cbn [cfm_backward run]. 
  have hn := cfm_nodes_rel (sQ _ pd) q0 (sQ _ pv) (sQ _ pw) hl ht'.
  by apply: lrel_map hn => a b; apply: cfm_gain_rel => //; exact: sQ.
Qed.

(** ** forward passes *)
Lemma cfwd_u_rel n1 n2 d : P FV -> nrel P n1 n2 -> existT vec (nu (nm n1)) (cfwd_u n1 d) = existT vec (nu (nm n2)) (cfwd_u n2 d).
Proof.
  move=> pv. dn. get h pv => [[_ [_ g]]]. cbn [nm]. f_equal. rewrite /cfwd_u. cbn [nm val gk gK].
  case e0: (nu m =? 0); first exact: vec0'. by have [-> [-> _]] := g e0.
Qed.
Lemma cfwd_nodes_rel l1 l2 tn1 tn2 : P FV -> P FD -> P FF -> lrel P l1 l2 -> trel P tn1 tn2 -> forall d,
  lrel (add FT P) (fst (cfwd_nodes d l1 tn1)) (fst (cfwd_nodes d l2 tn2)) /\
  trel (add FT P) (snd (cfwd_nodes d l1 tn1)) (snd (cfwd_nodes d l2 tn2)).
Proof.
  move=> pv pd pf hl ht. elim: hl => [|n1 n2 q1 q2 hn hq ih] d; cbn [cfwd_nodes fst snd].
  - split; [constructor|]. move: ht; dt. constructor => //=. by fin h.
  - rewrite -(hd_fs_rel pf hq ht). move: (hd_fs q1 tn1) => f. move: hn; dn. get h pd => ?. subst dd2.
    set nn1 := mkNode _ _ _ _ _ _ _ _. set nn2 := @mkNode E M m _ me2 _ _ _ _ _.
    have eu : cfwd_u nn1 d = cfwd_u nn2 d.
    { rewrite /cfwd_u /nn1 /nn2. cbn [nm val gk gK]. get h pv => [[_ [_ g]]].
      case e0: (nu m =? 0); first exact: vec0'. by have [-> [-> _]] := g e0. }
    rewrite -eu. have ex : cfwd_x nn1 f d (cfwd_u nn1 d) = cfwd_x nn2 f d (cfwd_u nn1 d) by [].
    rewrite -ex. case: (ih (cfwd_x nn1 f d (cfwd_u nn1 d))) => j1 j2. split => //.
    constructor => //. move: (cfwd_u nn1 d) => u. constructor => //. by fin h.
Qed.
Lemma cforward_rel t1 t2 : P FV -> P FD -> P FF -> hd_dxt (run t1) (trm t1) = hd_dxt (run t2) (trm t2) -> jrel P t1 t2 ->
  jrel (add FT P) (cforward t1) (cforward t2).
Proof. move=> pv pd pf e [h1 h2]. rewrite /cforward -e. exact: cfwd_nodes_rel. Qed.
Lemma cwfwd_nodes_rel l1 l2 tn1 tn2 : P FV -> P FD -> P FF -> lrel P l1 l2 -> trel P tn1 tn2 -> forall d,
  lrel (add FX P) (fst (cwfwd_nodes d l1 tn1)) (fst (cwfwd_nodes d l2 tn2)) /\
  trel (add FX P) (snd (cwfwd_nodes d l1 tn1)) (snd (cwfwd_nodes d l2 tn2)).
Proof.
  move=> pv pd pf hl ht. elim: hl => [|n1 n2 q1 q2 hn hq ih] d; cbn [cwfwd_nodes fst snd].
  - split; [constructor|]. move: ht; dt. constructor => //=. by fin h.
  - rewrite -(hd_fs_rel pf hq ht). move: (hd_fs q1 tn1) => f. move: hn; dn. get h pd => ?. subst dd2.
    set nn1 := mkNode _ _ _ _ _ _ _ _. set nn2 := @mkNode E M m _ me2 _ _ _ _ _.
    have eu : cfwd_u nn1 d = cfwd_u nn2 d.
    { rewrite /cfwd_u /nn1 /nn2. cbn [nm val gk gK]. get h pv => [[_ [_ g]]].
      case e0: (nu m =? 0); first exact: vec0'. by have [-> [-> _]] := g e0. }
    rewrite -eu. have ex : cfwd_x nn1 f d (cfwd_u nn1 d) = cfwd_x nn2 f d (cfwd_u nn1 d) by [].
    rewrite -ex. case: (ih (cfwd_x nn1 f d (cfwd_u nn1 d))) => j1 j2. split => //.
    constructor => //. move: (cfwd_u nn1 d) => u. constructor => //. by fin h.
Qed.
Lemma cwforward_rel t1 t2 : P FV -> P FD -> P FF -> hd_dx (run t1) (trm t1) = hd_dx (run t2) (trm t2) -> jrel P t1 t2 ->
  jrel (add FX P) (cwforward t1) (cwforward t2).
Proof. move=> pv pd pf e [h1 h2]. rewrite /cwforward -e. exact: cwfwd_nodes_rel. Qed.

(** ** ADMM update *)
Lemma admm_node_rel n1 n2 : P FM -> P FD -> P FT -> P FZ -> P FY -> P FR -> nrel P n1 n2 ->
  nrel (add FX P) (admm_node c n1) (admm_node c n2).
Proof.
  move=> pm pd pt pz py pr. dn. get h pm => ?. get h pd => ?. get h pt => [[? ?]]. get h pz => [[? ?]]. get h py => ?. get h pr => [[? ?]].
  subst me2 dd2 dxt2 dut2 z2 zp2 y2 rr2 ii2. rewrite /admm_node. cbn [nm adm].
  case: (ng m =? 0); constructor => //; by fin h.
Qed.
Lemma admm_tnode_rel n1 n2 : P FM -> P FD -> P FT -> P FZ -> P FY -> P FR -> trel P n1 n2 ->
  trel (add FX P) (admm_tnode c n1) (admm_tnode c n2).
Proof.
  move=> pm pd pt pz py pr. dt. get h pm => ?. get h pd => ?. get h pt => ?. get h pz => [[? ?]]. get h py => ?. get h pr => [[? ?]].
  subst me2 dd2 dt2 z2 zp2 y2 rr2 ii2. rewrite /admm_tnode. cbn [tm].
  case: (tng m =? 0); constructor => //; by fin h.
Qed.
Lemma norms_rel heur t1 t2 : P FD -> P FT -> P FZ -> P FY -> P FR -> jrel P t1 t2 -> norms_of heur t1 = norms_of heur t2.
Proof.
  move=> pd pt pz py pr [h1 h2]. rewrite /norms_of.
  have -> : fold_left (norms_node heur) (run t1) (norms_init E) = fold_left (norms_node heur) (run t2) (norms_init E).
  { apply: lrel_fold h1 => w n1 n2. dn. get h pd => ?. get h pt => [[? ?]]. get h pz => [[? ?]]. get h py => ?. get h pr => [[? ?]].
    by subst dd2 dxt2 dut2 z2 zp2 y2 rr2 ii2. }
  move: h2 (fold_left _ _ _); dt => w. get h pd => ?. get h pt => ?. get h pz => [[? ?]]. get h py => ?. get h pr => [[? ?]].
  by subst dd2 dt2 z2 zp2 y2 rr2 ii2.
Qed.
Lemma admm_rel t1 t2 : P FM -> P FD -> P FT -> P FZ -> P FY -> P FR -> jrel P t1 t2 ->
  jrel (add FX P) (mkTraj (map (admm_node c) (run t1)) (admm_tnode c (trm t1)))
                  (mkTraj (map (admm_node c) (run t2)) (admm_tnode c (trm t2))).
Proof.
  move=> pm pd pt pz py pr [h1 h2]. split; [|exact: admm_tnode_rel].
  by apply: lrel_map h1 => n1 n2; apply: admm_node_rel.
Qed.

(** ** KKT check *)
Lemma lag_rel t1 t2 : P FV -> P FT -> jrel P t1 t2 ->
  jrel (add FL P) (mkTraj (map (@lag_node E M) (run t1)) (lag_tnode (trm t1)))
                  (mkTraj (map (@lag_node E M) (run t2)) (lag_tnode (trm t2))).
Proof.
  move=> pv pt [h1 h2]. split; cbn [run trm].
  - apply: lrel_map h1 => n1 n2. dn. get h pv => [[? [? _]]]. get h pt => [[? ?]]. subst Vxx2 Vx2 dxt2 dut2.
    constructor => //. by fin h.
  - move: h2; dt. get h pv => [[? ?]]. get h pt => ?. subst A2 v2 dt2. constructor => //. by fin h.
Qed.
Lemma ckkt_nodes_rel l1 l2 tn1 tn2 : P FD -> P FL -> P FY -> lrel P l1 l2 -> trel P tn1 tn2 -> forall first kk,
  ckkt_nodes first kk l1 tn1 = ckkt_nodes first kk l2 tn2.
Proof.
  move=> pd pl py hl ht. elim: hl => [|n1 n2 q1 q2 hn hq ih] first kk //=.
  rewrite -(hd_lam_rel pl hq ht) -ih. f_equal.
  move: hn; dn. get h pd => ?. get h pl => ?. get h py => ?. by subst dd2 ll2 y2.
Qed.
Lemma fs_flat_rel t1 t2 : P FF -> jrel P t1 t2 -> fs_flat_norm t1 = fs_flat_norm t2.
Proof.
  move=> pf [h1 h2]. rewrite /fs_flat_norm.
  have ef : forall n1 n2, nrel P n1 n2 -> fs n1 = fs n2 by move=> n1 n2; dn; exact: (h _ pf).
  have et : tfs (trm t1) = tfs (trm t2) by move: h2; dt; exact: (h _ pf).
  rewrite et. case: h1 => [|n1 n2 q1 q2 hn hq] //.
  rewrite (ef _ _ hn). f_equal. move: (vlinf E (fs n2)).
  elim: hq => [|m1 m2 ? ? hm _ ih] k //=. by rewrite (ef _ _ hm) ih.
Qed.
Lemma ckkt_rel con t1 t2 : P FD -> P FL -> P FY -> P FF -> jrel P t1 t2 -> ckkt_residual con t1 = ckkt_residual con t2.
Proof.
  move=> pd pl py pf hj. rewrite /ckkt_residual (fs_flat_rel pf hj). case: hj => h1 h2.
  rewrite (ckkt_nodes_rel pd pl py h1 h2). do 3 f_equal. move: h2; dt. get h pd => ?. get h pl => ?. get h py => ?. by subst dd2 ll2 y2.
Qed.
Lemma lag_inf_rel t1 t2 : P FL -> P FY -> jrel P t1 t2 -> lag_inf t1 = lag_inf t2.
Proof.
  move=> pl py [h1 h2]. rewrite /lag_inf.
  have -> : tlam (trm t1) = tlam (trm t2) by move: h2; dt; exact: (h _ pl).
  have -> : vlinf E (tay (trm t1)) = vlinf E (tay (trm t2)) by move: h2; dt; rewrite /= (h _ py).
  have e : forall k b, fold_left (fun m n => std_max m (vlinf E (lam (dir n)))) (run t1) k = fold_left (fun m n => std_max m (vlinf E (lam (dir n)))) (run t2) k /\
    fold_left (fun m n => std_max m (vlinf E (ay (adm n)))) (run t1) b = fold_left (fun m n => std_max m (vlinf E (ay (adm n)))) (run t2) b.
  { move=> k b. split; apply: lrel_fold h1 => w n1 n2; dn; [get h pl|get h py] => /= -> //. }
  by rewrite (proj1 (e _ (r0 E))) (proj2 (e (r0 E) _)).
Qed.

(** ** trials *)
Lemma ctrial_rel a t1 t2 : P FX -> jrel P t1 t2 -> jrel (add FP P) (ctrial a t1) (ctrial a t2).
Proof.
  move=> px [h1 h2]. split; cbn [ctrial run trm].
  - apply: lrel_map h1 => n1 n2. dn. get h px => [[? ?]]. subst dx2 du2 xx2 u2. rewrite /ctrial_node. constructor => //. fin h.
    split => //. cbn [nm pt Problem.put]. case e0: (nu m =? 0) => //. exact: vec0'.
  - move: h2; dt. get h px => ?. subst dx2. constructor => //. by fin h.
Qed.
Lemma ceval_nodes_rel l1 l2 tn1 tn2 : P FP -> P FM -> lrel P l1 l2 -> trel P tn1 tn2 -> forall cst gap con,
  let r1 := ceval_nodes l1 tn1 cst gap con in let r2 := ceval_nodes l2 tn2 cst gap con in
  fst (fst r1) = fst (fst r2) /\ snd r1 = snd r2 /\ lrel P (snd (fst r1)) (snd (fst r2)).
Proof.
  move=> pp pm hl ht. elim: hl => [|n1 n2 q1 q2 hn hq ih] cst gap con; cbn [ceval_nodes].
  - split => //. split => //. constructor.
  - have hn' : nrel P (ceval_node n1) (ceval_node n2).
    { move: hn; dn. get h pp => [[? ?]]. subst xt2 ut2. constructor => //. by fin h. }
    rewrite -(hd_xt_rel pp hq ht). move: (hd_xt q1 tn1) => y.
    move: (ceval_node n1) (ceval_node n2) hn' => w1 w2 hw.
    have [e1 [e2 [e3 e4]]] : acost (nm w1) (mem w1) = acost (nm w2) (mem w2) /\ axnext (nm w1) (mem w1) = axnext (nm w2) (mem w2) /\
      vl1 E (viol_lb E (alb (nm w1)) (ag (nm w1) (mem w1))) = vl1 E (viol_lb E (alb (nm w2)) (ag (nm w2) (mem w2))) /\
      vl1 E (viol_ub E (aub (nm w1)) (ag (nm w1) (mem w1))) = vl1 E (viol_ub E (aub (nm w2)) (ag (nm w2) (mem w2))).
    { move: hw; dn. get h pm => ?. by subst me2. }
    rewrite -e1 -e2 -e3 -e4. case: ifP => _; cbn [fst snd].
    + split => //. split => //. by constructor.
    + have := ih (radd E cst (acost (nm w1) (mem w1))) (radd E gap (vl1 E (diff M y (axnext (nm w1) (mem w1)))))
        (radd E (radd E con (vl1 E (viol_lb E (alb (nm w1)) (ag (nm w1) (mem w1))))) (vl1 E (viol_ub E (aub (nm w1)) (ag (nm w1) (mem w1))))).
      cbv zeta. move=> [j1 [j2 j3]]. split => //. split => //. by constructor.
Qed.
Lemma accept_rel t1 t2 : P FP -> jrel P t1 t2 -> jrel P (accept_try t1) (accept_try t2).
Proof.
  move=> pp [h1 h2]. split; cbn [accept_try run trm].
  - apply: lrel_map h1 => n1 n2. dn. get h pp => [[? ?]]. subst xt2 ut2. by constructor.
  - move: h2; dt. get h pp => ?. by subst xt2; constructor.
Qed.
Lemma get_rel t1 t2 : jrel P t1 t2 -> get_xs t1 = get_xs t2 /\ get_us t1 = get_us t2.
Proof.
  move=> [h1 h2]. rewrite /get_xs /get_us.
  have [e1 e2] : map (fun n : node => px (pt n)) (run t1) = map (fun n : node => px (pt n)) (run t2) /\
    map (fun n : node => existT vec (nu (nm n)) (pu (pt n))) (run t1) =
    map (fun n : node => existT vec (nu (nm n)) (pu (pt n))) (run t2).
  { elim: h1 => [|n1 n2 ? ? hn _ [i1 i2]] //=. rewrite i1 i2. case: hn => /= *; split; congruence. }
  rewrite e1 e2. by case: h2.
Qed.
Definition cmultipliers (t : traj M) : list (vec (mndx M)) * list {k : nat & vec k} :=
  (map (fun n => lam (dir n)) (run t) ++ [tlam (trm t)],
   map (fun n => existT vec (ng (nm n)) (ay (adm n))) (run t) ++ [existT vec (tng (tm (trm t))) (tay (trm t))]).
Lemma mult_rel t1 t2 : P FL -> P FY -> jrel P t1 t2 -> cmultipliers t1 = cmultipliers t2.
Proof.
  move=> pl py [h1 h2]. rewrite /cmultipliers.
  have e1 : map (fun n : node => lam (dir n)) (run t1) = map (fun n : node => lam (dir n)) (run t2).
  { elim: h1 => [|n1 n2 ? ? hn _ i1] //=. rewrite i1. f_equal. move: hn; dn. exact: (h _ pl). }
  have e2 : map (fun n : node => existT vec (ng (nm n)) (ay (adm n))) (run t1) = map (fun n : node => existT vec (ng (nm n)) (ay (adm n))) (run t2).
  { elim: h1 => [|n1 n2 ? ? hn _ i1] //=. rewrite i1. f_equal. move: hn; dn. cbn. by get h py => ->. }
  rewrite e1 e2. move: h2; dt. get h pl => ->. by get h py => /= ->.
Qed.
End Ops2.
End CIndep.
