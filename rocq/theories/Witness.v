(** * A concrete one-step LQ problem in exact arithmetic: witness that the
    hypotheses of the exact theorems are met by a non-trivial run. *)
From Coq Require Import ZArith PeanoNat.
Set Warnings "-notation-overridden,-ambiguous-paths".
From mathcomp Require Import all_ssreflect all_algebra.
From Verif Require Import Eigen EigenExact ExactLemmas Problem DDP Filter SQP CSQP Init Models LQSpec SubQP PassExact SQPDir.

Set Implicit Arguments.
Unset Strict Implicit.
Unset Printing Implicit Defensive.

Import Order.TTheory GRing.Theory Num.Theory.
Local Open Scope ring_scope.

Section W.
Variable F : realFieldType.
Variable sq : F -> F.
Notation E := (ExactE sq).
Notation M1 := (euclid E 1).

(** x+ = x + u + 1, running cost u^2/2 + u, no terminal cost *)
Definition wlq : lq E 1 1 0 :=
  @mkLq E 1 1 0 (1%:M : 'M[F]_1) (1%:M : 'M[F]_1) (const_mx 1 : 'cV[F]_1)
    (0 : 'M[F]_1) (0 : 'M[F]_1) (1%:M : 'M[F]_1) (0 : 'cV[F]_1) (const_mx 1 : 'cV[F]_1)
    (0 : 'M[F]_(0,1)) (0 : 'M[F]_(0,1)) (0 : 'cV[F]_0) (const_mx None : 'cV[option F]_0) (const_mx None : 'cV[option F]_0).
Definition wtlq : tlq E 1 0 :=
  @mkTlq E 1 0 (0 : 'M[F]_1) (0 : 'cV[F]_1) (0 : 'M[F]_(0,1)) (0 : 'cV[F]_0)
    (const_mx None : 'cV[option F]_0) (const_mx None : 'cV[option F]_0).
Definition wx0 : mX M1 := (0 : 'cV[F]_1).
Definition wslot : slot M1 :=
  @mkSlot E M1 (lq_model wlq) ((0 : 'cV[F]_1), (0 : 'cV[F]_1))
    (adiff (lq_model wlq) ((0 : 'cV[F]_1), (0 : 'cV[F]_1)) (0 : 'cV[F]_1) (0 : 'cV[F]_1)) (0 : 'cV[F]_0) (0 : 'cV[F]_0).
Definition wtslot : tslot M1 :=
  @mkTslot E M1 (lq_tmodel wtlq) (0 : 'cV[F]_1)
    (tdiff (lq_tmodel wtlq) (0 : 'cV[F]_1) (0 : 'cV[F]_1)) (0 : 'cV[F]_0) (0 : 'cV[F]_0).
Definition wsqp : sqp M1 := new_sqp wx0 [:: wslot] wtslot 1.
(** the same solver with the control guess u0 *)
Definition wsqp_at (u0 : 'cV[F]_1) : sqp M1 :=
  set_q_tr (mkTraj [:: @set_u E M1 (new_node wx0 wslot) u0] (new_tnode wtslot)) wsqp.
Definition wcfg : scfg E := default_scfg E 0.


Lemma big0 : (0 : F) < xlit F (10 ^ 30) 1.
Proof. exact: xlit_gt0. Qed.
Lemma chol_ok_id m : chol_ok (1%:M : 'M[F]_m).
Proof. by apply/chol_okP; [exact: sym_scalar | apply: posdef_scalar; exact: ltr01]. Qed.
Lemma xlinf0 m k : xlinf (0 : 'M[F]_(m, k)) = 0.
Proof.
have mx0 : forall x y : F, x = 0 -> y = 0 -> Num.max x y = 0 by move=> x y -> ->; rewrite maxxx.
rewrite /xlinf; apply: (big_ind (fun x => x = 0)) => // i _.
by apply: (big_ind (fun x => x = 0)) => // j _; rewrite mxE normr0.
Qed.


Lemma chol_solve_id m k (B : 'M[F]_(m, k)) : chol_solve 1%:M B = B.
Proof. by rewrite chol_solveE ?chol_ok_id ?invmx1 ?mul1mx //; exact: sym_scalar. Qed.
Local Arguments chol_solve : simpl never.
Local Arguments chol_ok : simpl never.
Local Arguments xlinf : simpl never.


(** derivatives of this problem at control u0 (b = u0 + 1) *)
Definition wder (b : 'cV[F]_1) : derivs M1 1 0 :=
  @mkDerivs E M1 1 0 (0 : 'cV[F]_1) b (0 : 'M[F]_1) (0 : 'M[F]_1)
       (1%:M : 'M[F]_1) (1%:M : 'M[F]_1) (1%:M : 'M[F]_1) (0 : 'M[F]_(0,1)) (0 : 'M[F]_(0,1)).
Definition wdir0 : dirs M1 1 := @mkDirs E M1 1 (0 : 'cV[F]_1) (0 : 'cV[F]_1) (0 : 'cV[F]_1).

(** the gains at this node: du = -b whatever the state *)
Lemma w_bwd p m b f v dd a :
  let nd := @mkNode E M1 (lq_model wlq) p m (wder b) f v dd a in
  exists2 v', bwd_node (r0 E) (r0 E) false nd (0 : 'M[F]_1) (0 : 'cV[F]_1) = (true, set_val nd v') &
    (gk v' : 'cV[F]_1) = b /\ (gK v' : 'M[F]_1) = 0.
Proof.
move=> nd; rewrite /bwd_node; cbn [nu nm nd lq_model Nat.eqb negb andb der Lx Lu Lxx Lxu Luu Fx Fu wder].
rewrite /add_reg /symmetrize /raiseIfNaN /=.
rewrite !(mulmx0, mul0mx, addr0, trmx1, mulmx1, mul1mx, trmx0) !raddf0 !addr0 chol_ok_id /=.
rewrite !chol_solve_id !(trmx0, mul0mx, addr0, scaler0, subr0) xlinf0 leNgt big0 /=.
by eexists; first reflexivity.
Qed.

Lemma dir_of_bwd (M : manifold E) (x0 : mX M) c recalc (s : sqp M) :
  let b := backwardPass (q_preg s) (q_dreg s) false (direction_base x0 recalc s) in
  fst b = true -> exists2 s', sqp_computeDirection x0 c recalc s = (true, s')
     & q_tr s' = fst (forwardPass (snd b)).
Proof.
rewrite /sqp_computeDirection /direction_base; case: recalc => /= -> /=.
  by eexists; first reflexivity.
by eexists; first reflexivity.
Qed.

Lemma mkNode_eq (A : amodel M1) p m d d' f f' v dd a : d = d' -> f = f' ->
  @mkNode E M1 A p m d f v dd a = @mkNode E M1 A p m d' f' v dd a.
Proof. by move=> -> ->. Qed.
Lemma w_base (u0 : 'cV[F]_1) : exists p m v a, run (direction_base wx0 true (wsqp_at u0)) =
    [:: @mkNode E M1 (lq_model wlq) p m (wder (u0 + const_mx 1)) (0 : 'cV[F]_1) v wdir0 a].
Proof.
pose nd := @set_u E M1 (new_node wx0 wslot) u0.
exists (pt nd), ((0 : 'cV[F]_1), u0), (val nd), (adm nd).
have -> : run (direction_base wx0 true (wsqp_at u0)) =
  [:: @mkNode E M1 (lq_model wlq) (pt nd) ((0 : 'cV[F]_1), u0)
     (adiff (lq_model wlq) ((0 : 'cV[F]_1), u0) (0 : 'cV[F]_1) u0)
     ((0 : 'cV[F]_1) - 0) (val nd) wdir0 (adm nd)] by reflexivity.
congr (_ :: _); apply: mkNode_eq; last exact: subr0.
rewrite /wder /adiff; cbn [lq_model]; rewrite /wlq; cbn [lQ lS lR lA lB lC lD lq_q lq_r].
by rewrite /= !mul0mx trmx0 mul0mx mul1mx !addr0 add0r.
Qed.
Lemma w_term (u0 : 'cV[F]_1) : let tn := bwd_term (r0 E) false (trm (direction_base wx0 true (wsqp_at u0))) in
  [/\ tVxx tn = (0 : 'M[F]_1), tVx tn = (0 : 'cV[F]_1), tfs tn = (u0 + const_mx 1 : 'cV[F]_1),
      tLx (tder tn) = (0 : 'cV[F]_1) & tLxx (tder tn) = (0 : 'M[F]_1)].
Proof.
move=> tn; split=> //.
- by rewrite /tn /= /add_reg /= raddf0 addr0.
- by rewrite /tn /= /add_reg /= !raddf0 add0r !(addr0, mul0mx, mulmx0).
- by rewrite /tn /= !mul1mx add0r subr0.
- by rewrite /tn /= mulmx0 addr0.
Qed.
Lemma w_fwd (b : 'cV[F]_1) p m (v' : vals M1 1) a (tn : tnode M1) : (gk v' : 'cV[F]_1) = b -> (gK v' : 'M[F]_1) = 0 -> (tfs tn : 'cV[F]_1) = b ->
  exists l tl, fst (forwardPass (mkTraj [:: @mkNode E M1 (lq_model wlq) p m (wder b) (0 : 'cV[F]_1) v' wdir0 a] tn))
   = mkTraj [:: @mkNode E M1 (lq_model wlq) p m (wder b) (0 : 'cV[F]_1) v'
                               (@mkDirs E M1 1 (0 : 'cV[F]_1) (- b) l) a] (set_tlam (set_tdx tn (0 : 'cV[F]_1)) tl).
Proof.
move=> ek eK ef; rewrite /forwardPass /=; do 2 eexists; congr mkTraj.
  congr (_ :: _); rewrite /set_dir /= /fwd_du /= eK ek mul0mx oppr0 sub0r; reflexivity.
congr set_tlam; congr set_tdx.
rewrite /fwd_du /= eK ek mul0mx oppr0 sub0r mulmx0 addr0 mul1mx ef subrr; reflexivity.
Qed.

Lemma w_tl (tn : tnode M1) (d tl b : 'cV[F]_1) :
  (tfs tn : 'cV[F]_1) = b -> (tLx (tder tn) : 'cV[F]_1) = 0 -> (tLxx (tder tn) : 'M[F]_1) = 0 ->
  let tn' := set_tlam (set_tdx tn d) tl in
  [/\ (tfs tn' : 'cV[F]_1) = b, (tLx (tder tn') : 'cV[F]_1) = 0, (tLxx (tder tn') : 'M[F]_1) = 0
     & (tdx tn' : 'cV[F]_1) = d].
Proof. by move=> e1 e2 e3; split. Qed.

(** the direction computed from the control guess u0, gap u0 + 1 *)
Lemma w_direction_c (c : scfg E) (u0 : 'cV[F]_1) : let b : 'cV[F]_1 := u0 + const_mx 1 in
  exists2 s', sqp_computeDirection wx0 c true (wsqp_at u0) = (true, s') &
  exists p m v l a tn, q_tr s' = mkTraj [:: @mkNode E M1 (lq_model wlq) p m (wder b) (0 : 'cV[F]_1) v
                               (@mkDirs E M1 1 (0 : 'cV[F]_1) (- b) l) a] tn
     /\ [/\ (tfs tn : 'cV[F]_1) = b, (tLx (tder tn) : 'cV[F]_1) = 0, (tLxx (tder tn) : 'M[F]_1) = 0
          & (tdx tn : 'cV[F]_1) = 0].
Proof.
move=> b.
have [p [m [v [a e]]]] := w_base u0.
have := w_term u0; cbv zeta.
set tr := direction_base wx0 true (wsqp_at u0) in e *.
set tn := bwd_term (r0 E) false (trm tr).
move=> [eV ev ef eL eLL].
have [v' e1 [ek eK]] := w_bwd p m b (0 : 'cV[F]_1) v wdir0 a.
have eb : backwardPass (q_preg (wsqp_at u0)) (q_dreg (wsqp_at u0)) false tr =
   (true, mkTraj [:: set_val (@mkNode E M1 (lq_model wlq) p m (wder b) (0 : 'cV[F]_1) v wdir0 a) v'] tn).
  rewrite /backwardPass e -/tn; cbn [bwd_nodes hd_Vxx hd_Vx fst snd]; rewrite eV ev.
  by rewrite e1.
have [|s' es et] := @dir_of_bwd M1 wx0 c true (wsqp_at u0); first by rewrite -/tr eb.
exists s'; first exact: es.
rewrite -/tr eb in et.
have [l [tl ff]] := w_fwd p m a ek eK ef.
exists p, m, v', l, a, (set_tlam (set_tdx tn (0 : 'cV[F]_1)) tl); split.
  by rewrite et; exact: ff.
by case: (@w_tl tn 0 tl b ef eL eLL).
Qed.
Definition w_direction := w_direction_c wcfg.
End W.
