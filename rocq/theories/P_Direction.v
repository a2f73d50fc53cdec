(** * Properties C01-C05: SolverSQP's search direction (exact arithmetic). *)
From Coq Require Import Ring Field ZArith PeanoNat.
Set Warnings "-notation-overridden,-ambiguous-paths".
From mathcomp Require Import all_ssreflect all_algebra.
From Verif Require Import FieldTac Eigen EigenExact ExactLemmas Problem DDP SQP LQSpec SubQP Riccati PassExact SQPDir Models Witness.

Set Implicit Arguments.
Unset Strict Implicit.
Unset Printing Implicit Defensive.

Import Order.TTheory GRing.Theory Num.Theory.
Local Open Scope ring_scope.

Section P.
Variable F : realFieldType.
Variable sq : F -> F.
Notation E := (ExactE sq).
Variable M : manifold E.
Notation n := (mndx M).
Notation node := (node M).
Notation tnode := (tnode M).
Variable x0 : mX M.
Variable c : scfg E.
Add Field Ff6 : (F_field_theory F).

Lemma traj_sym_frame (s s' : traj M) : traj_frame s s' -> traj_sym s <-> traj_sym s'.
Proof.
case=> H [A [v [d [l e]]]]; split=> -[Hr Ht]; (split; last by move: Ht; rewrite e).
  elim: {e Ht} H Hr => //= a b l1 l2 [w [e1 ->]] _ IH Hr nd [<-|h].
    by apply: (Hr a); left.
  by apply: IH h => m hm; apply: Hr; right.
elim: {e Ht} H Hr => //= a b l1 l2 [w [e1 ->]] _ IH Hr nd [<-|h].
  by apply: (Hr _ (or_introl erefl)).
by apply: IH h => m hm; apply: Hr; right.
Qed.

(** the facts shared by C01, C02, C04, C05 *)
Lemma sqp_direction_ric recalc (s s' : sqp M) :
  sqp_computeDirection x0 c recalc s = (true, s') -> traj_sym (q_tr s') ->
  let t := q_tr s' in
  let gsts := sqp_gsts false (q_preg s') (q_dreg s') (run t) (trm t) in
  let e := sqp_final (q_preg s') (trm t) in
  [/\ ric_ok gsts e, ric_pd gsts e, gsym gsts e
    & ric_sol (hd_dx (run (q_tr s)) (trm (q_tr s))) gsts e]
  /\ term_ok false (q_preg s') (trm t).
Proof.
move=> H Hs.
have hdx := sqp_direction_hd_dx x0 c recalc s.
move: hdx; rewrite H /= => hdx.
move: H hdx Hs; rewrite /sqp_computeDirection.
set s1 := if recalc then _ else s.
set s2 := set_q_merit _ _.
case eb: (backwardPass _ _ _ _) => [b tr].
case: b eb => // eb [<-] /= hdx Hs.
have fb := backwardPass_frame (q_preg s2) (q_dreg s2) false (q_tr s2).
rewrite eb /= in fb.
have ff := forwardPass_frame tr.
have symT : traj_sym tr by apply/(traj_sym_frame ff).
have symB : traj_sym (q_tr s2) by apply/(traj_sym_frame fb).
move: eb; rewrite /backwardPass; case=> eb1 etr.
set tn := bwd_term (q_preg s2) false (trm (q_tr s2)) in eb1 etr.
have Ht : term_ok false (q_preg s2) tn by exact: bwd_term_ok.
have el : bwd_nodes (q_preg s2) (q_dreg s2) false (run (q_tr s2)) tn = (true, run tr).
  by rewrite -etr /= -eb1; case: (bwd_nodes _ _ _ _ _).
have et : trm tr = tn by rewrite -etr.
have [ok pd sy _] := bwd_nodes_ok el symB.1 Ht symB.2.
have := fwd_nodes_ok (hd_dx (run tr) tn) (r0 E) (r0 E) Ht ok pd sy.
have [dT eT] := fwd_term (hd_dx (run tr) tn) (run tr) tn (r0 E) (r0 E).
rewrite /= -et in hdx eT *.
set r := fwd_nodes _ _ _ _ _ in hdx eT *.
have -> : hd_dx (run (q_tr s)) (trm (q_tr s)) = hd_dx (run tr) (trm tr).
  by rewrite -hdx; case: (fwd_hd (hd_dx (run tr) (trm tr)) (run tr) (trm tr) (r0 E) (r0 E)).
by move=> H; split=> //; rewrite eT et.
Qed.

(** C01.  Whenever SolverSQP computes a direction without raising, the stored
    direction and multipliers solve the KKT system of the regularised LQ
    subproblem built from the stored derivatives and gaps; and those stored data
    are the ones of the candidate on which the direction was requested. *)
Theorem C01_sqp_direction_kkt recalc (s s' : sqp M) :
  sqp_computeDirection x0 c recalc s = (true, s') ->
  traj_sym (q_tr s') ->
  (hd_dx (run (q_tr s)) (trm (q_tr s)) : 'cV[F]_n) = 0 ->
  lq_kkt 0 (sqp_stages false (q_preg s) (q_dreg s) (run (q_tr s')) (trm (q_tr s')))
           (sqp_final (q_preg s) (trm (q_tr s')))
  /\ traj_frame (direction_base x0 recalc s) (q_tr s').
Proof.
move=> H Hs d0.
have [[ok pd sy so] _] := sqp_direction_ric H Hs.
have := sqp_direction_reg x0 c recalc s; rewrite H /= => -[<- <-].
split; last by have := sqp_direction_frame x0 c recalc s; rewrite H.
by rewrite -map_sqp_gsts; apply: ric_kkt => //; rewrite -d0.
Qed.

(** C02.  The direction is the unique minimiser: every other control sequence has
    a strictly larger value of the regularised quadratic model along the
    linearised dynamics. *)
Theorem C02_sqp_direction_unique_minimiser recalc (s s' : sqp M) :
  sqp_computeDirection x0 c recalc s = (true, s') ->
  traj_sym (q_tr s') ->
  (hd_dx (run (q_tr s)) (trm (q_tr s)) : 'cV[F]_n) = 0 ->
  let stages := sqp_stages false (q_preg s) (q_dreg s) (run (q_tr s')) (trm (q_tr s')) in
  let e := sqp_final (q_preg s) (trm (q_tr s')) in
  forall v : controls stages, v <> own_controls stages ->
  lq_value 0 e (own_controls stages) < lq_value 0 e v.
Proof.
move=> H Hs d0 stages e.
have [[ok pd sy so] _] := sqp_direction_ric H Hs.
have := sqp_direction_reg x0 c recalc s; rewrite H /= => -[e1 e2].
rewrite {}/stages {}/e -e1 -e2 -map_sqp_gsts => v nv.
by apply: ric_optimal => //; rewrite -d0.
Qed.

(** C04 (SolverSQP part).  All value-function Hessians are symmetric, and the
    control Hessians Quu are positive definite whenever the pass succeeds. *)
Theorem C04_sqp_Vxx_symmetric recalc (s s' : sqp M) :
  sqp_computeDirection x0 c recalc s = (true, s') -> traj_sym (q_tr s') ->
  (forall nd, List.In nd (run (q_tr s')) -> is_sym (Vxx (val nd) : 'M[F]_n)) /\
  is_sym (tVxx (trm (q_tr s')) : 'M[F]_n).
Proof.
move=> H Hs; have [[ok pd sy _] Ht] := sqp_direction_ric H Hs.
split; last first.
  by have := sqp_direction_reg x0 c recalc s; case: Ht => -> _ _; apply: symD (sym_scalar _ _); case: Hs.
elim: (run (q_tr s')) ok sy => //= nd l IH [st ok] [sx su sy] m [<-|hm]; last exact: IH.
by apply: (gP_sym _ _ _ st) => //; apply: nP_sym.
Qed.

(** ** C05: zero direction and KKT points *)

(** [ms] are multipliers of the dynamics making every stationarity residual of
    the (unregularised) problem zero at the stored derivatives *)
Fixpoint kkt_multipliers (l : seq node) (tn : tnode) (ms : seq 'cV[F]_n) : Prop :=
  match l, ms with
  | [::], [:: m] => (tLx (tder tn) : 'cV[F]_n) = m
  | nd :: l', m :: ms' =>
      [/\ (Lx (der nd) : 'cV[F]_n) + (Fx (der nd) : 'M[F]_n)^T *m head 0 ms' = m,
          (Lu (der nd) : 'cV[F]_(nu (nm nd))) + (Fu (der nd) : 'M[F]_(n, nu (nm nd)))^T *m head 0 ms' = 0
        & kkt_multipliers l' tn ms']
  | _, _ => False
  end.
Definition zero_gaps (l : seq node) (tn : tnode) : Prop :=
  (forall nd, List.In nd l -> (fs nd : 'cV[F]_n) = 0) /\ (tfs tn : 'cV[F]_n) = 0.
Definition zero_direction (l : seq node) (tn : tnode) : Prop :=
  (forall nd, List.In nd l -> (dx (dir nd) : 'cV[F]_n) = 0 /\ (du (dir nd) : 'cV[F]_(nu (nm nd))) = 0)
  /\ (tdx tn : 'cV[F]_n) = 0.
Definition multipliers (l : seq node) (tn : tnode) : seq 'cV[F]_n :=
  [seq (lam (dir nd) : 'cV[F]_n) | nd : node <- l] ++ [:: (tlam tn : 'cV[F]_n)].

Lemma hd_fs0 l tn : zero_gaps l tn -> (hd_fs l tn : 'cV[F]_n) = 0.
Proof. by case: l => [|nd l] [H1 H2] //=; apply: H1; left. Qed.
Lemma zero_gaps_tl nd l tn : zero_gaps (nd :: l) tn -> zero_gaps l tn.
Proof. by move=> [H1 H2]; split=> // m hm; apply: H1; right. Qed.

Lemma pd_inj m (A : 'M[F]_m) (k : 'cV[F]_m) : posdef A -> A *m k = 0 -> k = 0.
Proof.
move=> pA Ak; apply/eqP; apply: contraT => kn0.
by have := pA k kn0; rewrite qfE Ak bf0r ltxx.
Qed.

Lemma kkt_values preg dreg l tn ms :
  term_ok false preg tn ->
  let gsts := sqp_gsts false preg dreg l tn in let e := sqp_final preg tn in
  ric_ok gsts e -> ric_pd gsts e -> zero_gaps l tn -> kkt_multipliers l tn ms ->
  np gsts e = head 0 ms /\
  (forall g, List.In g gsts -> hk g = 0).
Proof.
move=> Ht; elim: l ms => [|nd l IH] [|m ms] //=.
  by case: ms => // _ _ _ ->.
move=> [st ok] [pd pds] zg [Hx Hu Hm].
have zg' := zero_gaps_tl zg.
have [Hp Hk] := IH ms ok pds zg' Hm.
have f0 := hd_fs0 zg'.
have [HK Hkk _ Hpp] := st.
have qu0 : rqu (sqp_stage preg dreg nd (gap_of false (hd_fs l tn)))
  (nP (sqp_gsts false preg dreg l tn) (sqp_final preg tn))
  (np (sqp_gsts false preg dreg l tn) (sqp_final preg tn)) = 0.
  by rewrite /rqu /rqw /= /gap_of f0 mulmx0 add0r Hp.
have k0 := pd_inj pd (etrans Hkk qu0).
split.
  move: Hpp; rewrite /= => ->; rewrite /= in qu0; rewrite qu0 mulmx0 subr0.
  by rewrite /rqx /rqw /= /gap_of f0 mulmx0 add0r Hp.
by move=> g [<-|hg]; [exact: k0 | exact: Hk].
Qed.

Lemma kkt_zero_sol preg dreg l tn ms :
  term_ok false preg tn ->
  let gsts := sqp_gsts false preg dreg l tn in let e := sqp_final preg tn in
  ric_ok gsts e -> ric_pd gsts e -> zero_gaps l tn -> kkt_multipliers l tn ms ->
  ric_sol 0 gsts e -> zero_direction l tn /\ multipliers l tn = ms.
Proof.
move=> Ht; elim: l ms => [|nd l IH] [|m ms] //=.
  by case: ms => // _ _ _ -> [/= e1 e2]; split; [split | rewrite /multipliers /= e2 mulmx0 add0r].
move=> [st ok] [pd pds] zg [Hx Hu Hm] [Hdx Hdu Hdl Hrest].
have zg' := zero_gaps_tl zg.
have [Hp Hk] := @kkt_values preg dreg (nd :: l) tn (m :: ms) Ht (conj st ok) (conj pd pds) zg (And3 Hx Hu Hm).
have k0 := Hk _ (or_introl erefl).
have du0 : (du (dir nd) : 'cV[F]_(nu (nm nd))) = 0.
  by move: Hdu k0 => /= -> ->; rewrite mulmx0 oppr0 addr0.
have next0 : sA (sqp_stage preg dreg nd (gap_of false (hd_fs l tn))) *m (0 : 'cV[F]_n)
   + (Fu (der nd) : 'M[F]_(n, nu (nm nd))) *m (du (dir nd) : 'cV[F]_(nu (nm nd))) + gap_of false (hd_fs l tn) = 0.
  by rewrite /gap_of (hd_fs0 zg') du0 !mulmx0 !addr0.
have [[zd zt] zm] := IH ms ok pds zg' Hm (eq_ind _ (fun v => ric_sol v _ _) Hrest _ next0).
split.
  split=> // a [<-|ha]; [by split | exact: zd].
rewrite /multipliers /= -/(multipliers l tn) zm; congr cons.
by move: Hdl Hp => /= -> ->; rewrite mulmx0 add0r.
Qed.

(** C05a: at a KKT point with zero gaps the direction is zero, for every
    regularisation for which the pass succeeds, and the reported multipliers are
    the KKT multipliers. *)
Theorem C05_direction_zero_at_kkt recalc (s s' : sqp M) ms :
  sqp_computeDirection x0 c recalc s = (true, s') ->
  traj_sym (q_tr s') ->
  (hd_dx (run (q_tr s)) (trm (q_tr s)) : 'cV[F]_n) = 0 ->
  let l := run (q_tr s') in let tn := trm (q_tr s') in
  zero_gaps l tn -> kkt_multipliers l tn ms ->
  zero_direction l tn /\ multipliers l tn = ms.
Proof.
move=> H Hs d0 l tn zg km.
have [[ok pd sy so] Ht] := sqp_direction_ric H Hs.
by rewrite d0 in so; apply: (kkt_zero_sol Ht ok pd zg km so).
Qed.

(** C05b: conversely, a zero direction with zero gaps certifies a KKT point with
    the reported multipliers. *)
Theorem C05_kkt_at_zero_direction recalc (s s' : sqp M) :
  sqp_computeDirection x0 c recalc s = (true, s') ->
  traj_sym (q_tr s') ->
  (hd_dx (run (q_tr s)) (trm (q_tr s)) : 'cV[F]_n) = 0 ->
  let l := run (q_tr s') in let tn := trm (q_tr s') in
  zero_gaps l tn -> zero_direction l tn -> kkt_multipliers l tn (multipliers l tn).
Proof.
move=> H Hs d0 l tn.
have [K _] := C01_sqp_direction_kkt H Hs d0.
move: K; rewrite -/l -/tn; move: (0 : 'cV[F]_n); elim: l => [|nd l1 IH] d /=.
  by move=> [_ K] _ [_ zt]; rewrite -K zt mulmx0 addr0.
move=> [Hx Hu Hl K] zg zd.
have [zx zu] := zd.1 nd (or_introl erefl).
have hl : head 0 (multipliers l1 tn) = next_l (sqp_stages false (q_preg s) (q_dreg s) l1 tn) (sqp_final (q_preg s) tn).
  by case: (l1).
rewrite hl; split.
- by move: Hl; rewrite zx zu !mulmx0 !addr0.
- by move: Hu; rewrite zx zu !mulmx0 !addr0.
- apply: IH K _ _; first exact: zero_gaps_tl zg.
  by case: zd => zd zt; split=> // m hm; apply: zd; right.
Qed.

(** ** C03 / C04: convex subproblems *)

(** positive semidefinite stage and terminal Hessians *)
Definition node_convex (nd : node) : Prop :=
  forall (x : 'cV[F]_n) (u : 'cV[F]_(nu (nm nd))),
  0 <= quad (Lxx (der nd) : 'M[F]_n) x + 2%:R * dot x ((Lxu (der nd) : 'M[F]_(n, nu (nm nd))) *m u)
       + quad (Luu (der nd) : 'M[F]_(nu (nm nd))) u.
Definition traj_convex (s : traj M) : Prop :=
  (forall nd, List.In nd (run s) -> node_convex nd) /\
  (forall x : 'cV[F]_n, 0 <= quad (tLxx (tder (trm s)) : 'M[F]_n) x).
(** positive regularisation, or positive definite control Hessians *)
Definition reg_positive (dreg : F) (s : traj M) : Prop :=
  0 < dreg \/
  (0 <= dreg /\ forall nd, List.In nd (run s) ->
     forall u : 'cV[F]_(nu (nm nd)), u != 0 -> 0 < quad (Luu (der nd) : 'M[F]_(nu (nm nd))) u).

Definition big : F := xlit F (10 ^ 30) 1.

Lemma stage_psd_node preg dreg nd f : node_convex nd -> 0 <= preg -> 0 <= dreg ->
  stage_psd (sqp_stage preg dreg nd f).
Proof.
move=> H p0 d0 x u; have := H x u; rewrite /stage_quad !quadE /= !dotE => h.
rewrite !qfD !qf_scalar.
have -> : qf (Lxx (der nd)) x + preg * bf x x + 2%:R * bf x (Lxu (der nd) *m u) + (qf (Luu (der nd)) u + dreg * bf u u)
  = (qf (Lxx (der nd)) x + 2%:R * bf x (Lxu (der nd) *m u) + qf (Luu (der nd)) u) + (preg * bf x x + dreg * bf u u).
  by mcfold F; ring.
by rewrite addr_ge0 // addr_ge0 // mulr_ge0 // bf_ge0.
Qed.

Lemma Quu_pos preg dreg nd f (P' : 'M[F]_n) : node_convex nd -> possemidef P' ->
  (0 < dreg \/ (0 <= dreg /\ forall u : 'cV[F]_(nu (nm nd)), u != 0 -> 0 < quad (Luu (der nd) : 'M[F]_(nu (nm nd))) u)) ->
  posdef (rQuu (sqp_stage preg dreg nd f) P').
Proof.
move=> H pP hr; rewrite /rQuu /=.
have pL : possemidef (Luu (der nd) : 'M[F]_(nu (nm nd))).
  by move=> u; have := H 0 u; rewrite !quadE dotE qf0r bf0l mulr0 !add0r.
apply: posdefD; last exact: psd_congr.
case: hr => [d0|[d0 pd]].
  by rewrite addrC; apply: posdefD => //; apply: posdef_scalar.
by apply: posdefD; [move=> u /pd | exact: psd_scalar].
Qed.

Lemma bwd_node_fail feas (preg dreg : R E) (nd : node) (Vxxp : mat E n n) (Vxp : vec E n) nd' :
  bwd_node preg dreg feas nd Vxxp Vxp = (false, nd') ->
  (nu (nm nd) <> 0%N ->
   chol_ok ((Luu (der nd) : 'M[F]_(nu (nm nd))) + (Fu (der nd))^T *m (Vxxp : 'M[F]_n) *m Fu (der nd) + (dreg : F)%:M)) ->
  big <= vlinf E (Vx (val nd')) \/ big <= mlinf E (Vxx (val nd')).
Proof.
rewrite /bwd_node; case e: (Nat.eqb _ _); cbn [negb andb].
  move=> [H1 <-] _; apply/orP.
  by move: H1; rewrite /raiseIfNaN /= => /negbFE.
have nu0 : nu (nm nd) <> 0%N by apply/Nat.eqb_neq.
move=> H ok; have {}ok := ok nu0.
move: H; rewrite [llt_ok E _]ok; cbn [negb andb].
move=> [H1 <-]; apply/orP.
by move: H1; rewrite /raiseIfNaN /= => /negbFE.
Qed.

Lemma node_psd_stays feas (preg dreg : R E) (nd : node) Vxxp Vxp nd' :
  bwd_node preg dreg feas nd Vxxp Vxp = (true, nd') ->
  node_sym nd -> node_convex nd -> 0 <= preg -> 0 <= dreg ->
  sym (Vxxp : 'M[F]_n) -> possemidef (Vxxp : 'M[F]_n) ->
  sym (Vxx (val nd') : 'M[F]_n) /\ possemidef (Vxx (val nd') : 'M[F]_n).
Proof.
move=> H sy cv p0 d0 sP pP.
have [v ev _] := bwd_nodeP H.
have [st pd [sx su] _] := bwd_node_ok 0 H sy sP.
have sQ' : is_sym (sQ (sqp_stage preg dreg nd' 0)) by apply: symD (sym_scalar _ _).
have sR' : is_sym (sR (sqp_stage preg dreg nd' 0)) by apply: symD (sym_scalar _ _).
have cv' : stage_psd (sqp_stage preg dreg nd' 0) by rewrite ev; apply: stage_psd_node.
split; first exact: (@gP_sym F n (sqp_gst feas preg dreg nd' 0) _ _ sP sQ' sR' st).
exact: (@gP_psd F n (sqp_gst feas preg dreg nd' 0) _ _ sP sQ' sR' st cv' pP).
Qed.

Lemma bwd_nodes_convex feas (preg dreg : R E) (l : seq node) (tn : tnode) :
  (forall nd, List.In nd l -> node_sym nd) -> (forall nd, List.In nd l -> node_convex nd) ->
  0 <= preg -> 0 <= dreg ->
  (0 < dreg \/ (forall nd, List.In nd l -> forall u : 'cV[F]_(nu (nm nd)), u != 0 -> 0 < quad (Luu (der nd) : 'M[F]_(nu (nm nd))) u)) ->
  sym (tVxx tn : 'M[F]_n) -> possemidef (tVxx tn : 'M[F]_n) ->
  let r := bwd_nodes preg dreg feas l tn in
  if fst r then forall V : mat E n n, V = tVxx tn \/ (exists2 nd, List.In nd (snd r) & V = Vxx (val nd)) ->
       sym (V : 'M[F]_n) /\ possemidef (V : 'M[F]_n)
  else exists l1 nd l2, [/\ snd r = l1 ++ nd :: l2, l1 = take (size l1) l
                          & big <= vlinf E (Vx (val nd)) \/ big <= mlinf E (Vxx (val nd))].
Proof.
move=> Hs Hc p0 d0 Hr sT pT; elim: l Hs Hc Hr => [|nd l IH] Hs Hc Hr /=.
  by move=> V [->|[? []]].
have {}IH := IH (fun m h => Hs m (or_intror h)) (fun m h => Hc m (or_intror h)).
have {}IH := IH (match Hr with or_introl h => or_introl h | or_intror h => or_intror (fun m hm => h m (or_intror hm)) end).
case er: (bwd_nodes preg dreg feas l tn) IH => [b r] /=; case: b er => er IH /=; last first.
  have [l1 [m [l2 [e1 e2 h]]]] := IH.
  by exists (nd :: l1), m, l2; rewrite /= -e2 e1.
have [sP pP] : sym (hd_Vxx r tn : 'M[F]_n) /\ possemidef (hd_Vxx r tn : 'M[F]_n).
  apply: IH; case: (r) => [|m r'] /=; [by left | right; exists m => //; by left].
case e1: (bwd_node _ _ _ _ _ _) => [b1 nd'] /=; case: b1 e1 => e1; last first.
  exists [::], nd', r; split=> //; apply: (bwd_node_fail e1) => nu0.
  apply/chol_okP.
    apply: symD (sym_scalar _ _); apply: symD; first by have [] := Hs nd (or_introl erefl).
    exact: sym_congr.
  have := @Quu_pos preg dreg nd 0 _ (Hc nd (or_introl erefl)) pP.
  rewrite /rQuu /= -addrA [X in _ + X]addrC addrA; apply.
  by case: Hr => [h|h]; [left | right; split=> //; apply: h; left].
have := node_psd_stays e1 (Hs nd (or_introl erefl)) (Hc nd (or_introl erefl)) p0 d0 sP pP.
move=> HV V [->|[m /= [<-|hm] ->]] //.
by apply: IH; right; exists m.
Qed.

(** C03: on convex subproblems a failing backward pass means that a value
    function (of a node [nd] that was just computed: everything before it is
    untouched) reached the overflow guard 1e30; no factorisation fails. *)
Theorem C03_convex_backward_pass feas (preg dreg : R E) (s : traj M) :
  traj_sym s -> traj_convex s -> 0 <= preg -> reg_positive dreg s ->
  fst (backwardPass preg dreg feas s) = false ->
  exists l1 nd l2, [/\ run (snd (backwardPass preg dreg feas s)) = l1 ++ nd :: l2,
                       l1 = take (size l1) (run s)
                     & big <= vlinf E (Vx (val nd)) \/ big <= mlinf E (Vxx (val nd))].
Proof.
move=> [sy syT] [cv cvT] p0 hr /= H.
have d0 : 0 <= dreg by case: hr => [/ltW|[]].
have hr' : 0 < dreg \/ (forall nd, List.In nd (run s) -> forall u : 'cV[F]_(nu (nm nd)), u != 0 -> 0 < quad (Luu (der nd) : 'M[F]_(nu (nm nd))) u).
  by case: hr => [h|[_ h]]; [left | right].
have sT : sym (tVxx (bwd_term preg feas (trm s)) : 'M[F]_n) by apply: symD (sym_scalar _ _).
have pT : possemidef (tVxx (bwd_term preg feas (trm s)) : 'M[F]_n).
  by apply: psdD; [exact: cvT | exact: psd_scalar].
by have := @bwd_nodes_convex feas preg dreg _ _ sy cv p0 d0 hr' sT pT; cbv zeta; rewrite H.
Qed.

(** C04 (backwardPass of SolverDDP and SolverSQP, feasible or not): symmetric
    value-function Hessians, positive semidefinite for convex stages. *)
Theorem C04_backward_Vxx feas (preg dreg : R E) (s : traj M) :
  fst (backwardPass preg dreg feas s) = true -> traj_sym s ->
  let t := snd (backwardPass preg dreg feas s) in
  forall V : mat E n n, V = tVxx (trm t) \/ (exists2 nd, List.In nd (run t) & V = Vxx (val nd)) ->
  is_sym (V : 'M[F]_n) /\
  (traj_convex s -> 0 <= preg -> reg_positive dreg s -> forall x : 'cV[F]_n, 0 <= quad (V : 'M[F]_n) x).
Proof.
move=> /= H [sy syT] V HV; split.
  have Ht := bwd_term_ok feas preg (trm s).
  have el : bwd_nodes preg dreg feas (run s) (bwd_term preg feas (trm s)) = (true, snd (bwd_nodes preg dreg feas (run s) (bwd_term preg feas (trm s)))).
    by rewrite -H; case: (bwd_nodes _ _ _ _ _).
  have [ok pd gs _] := bwd_nodes_ok el sy Ht syT.
  move: HV ok gs => [->|[nd hnd ->]] ok gsy.
    by apply: symD (sym_scalar _ _).
  move: (snd (bwd_nodes _ _ _ _ _)) hnd ok gsy {el pd}; elim=> //= a l IH [->|hm] [st ok] [sx su gsy]; last exact: IH.
  by apply: (gP_sym _ _ _ st) => //; apply: nP_sym.
move=> [cv cvT] p0 hr.
have d0 : 0 <= dreg by case: hr => [/ltW|[]].
have hr' : 0 < dreg \/ (forall nd, List.In nd (run s) -> forall u : 'cV[F]_(nu (nm nd)), u != 0 -> 0 < quad (Luu (der nd) : 'M[F]_(nu (nm nd))) u).
  by case: hr => [h|[_ h]]; [left | right].
have sT : sym (tVxx (bwd_term preg feas (trm s)) : 'M[F]_n) by apply: symD (sym_scalar _ _).
have pT : possemidef (tVxx (bwd_term preg feas (trm s)) : 'M[F]_n).
  by apply: psdD; [exact: cvT | exact: psd_scalar].
have := @bwd_nodes_convex feas preg dreg _ _ sy cv p0 d0 hr' sT pT; cbv zeta; rewrite H => HH.
by have [] := HH V HV.
Qed.
End P.

(** ** Non-vacuity: the hypotheses hold on a concrete run (any field) *)
Section NonVacuous.
Variable F : realFieldType.
Variable sq : F -> F.
Notation E := (ExactE sq).
Notation M1 := (euclid E 1).

Lemma w_sym (u0 : 'cV[F]_1) s' : sqp_computeDirection (wx0 sq) (wcfg sq) true (wsqp_at sq u0) = (true, s') ->
  traj_sym (q_tr s').
Proof.
have [s1 -> [p [m [v [l [a [tn [e [e1 e2 e3 e4]]]]]]]]] := w_direction sq u0.
move=> [<-]; rewrite e; split=> [nd [<-|] //|].
  by split; rewrite /is_sym /= ?trmx0 ?trmx1.
by rewrite /tnode_sym /is_sym [X in X^T]e3 e3 trmx0.
Qed.

(** C01, C02, C04: from the zero guess the direction is du = -1 *)
Example C01_C02_C04_hypotheses_met :
  exists s', [/\ sqp_computeDirection (wx0 sq) (wcfg sq) true (wsqp_at sq 0) = (true, s'),
    traj_sym (q_tr s'),
    (hd_dx (run (q_tr (wsqp_at sq 0))) (trm (q_tr (wsqp_at sq 0))) : 'cV[F]_1) = 0
    & exists2 nd, List.In nd (run (q_tr s')) & (du (dir nd) : 'cV[F]_(nu (nm nd))) != 0].
Proof.
have [s' e [p [m [v [l [a [tn [et _]]]]]]]] := w_direction sq 0.
exists s'; split=> //; first exact: (@w_sym 0).
rewrite et; eexists; first by left; reflexivity.
rewrite /= oppr_eq0 add0r; apply/eqP => /matrixP /(_ 0 0); rewrite !mxE; apply/eqP; exact: oner_neq0.
Qed.

(** C03: convex, positively regularised *)
Example C03_hypotheses_met :
  traj_sym (q_tr (wsqp_at sq 0)) /\ traj_convex (q_tr (wsqp_at sq 0)) /\
  @reg_positive F sq M1 0 (q_tr (wsqp_at sq 0)).
Proof.
split; [|split].
- split=> [nd [<-|] //|]; last by rewrite /tnode_sym /is_sym /= trmx0.
  by split; rewrite /is_sym /= ?trmx0 ?trmx1.
- split=> [nd [<-|] // x u|x]; rewrite /quad /dot /=.
    rewrite !(mulmx0, mul0mx) [X in X + _ + _]mxE [X in _ + 2%:R * X + _]mxE mulr0 !add0r mulmx1 mxE.
    by apply: sumr_ge0 => i _; rewrite !mxE -expr2 sqr_ge0.
  by rewrite mulmx0 mul0mx mxE.
- right; split=> // nd [<-|] // u un0.
  by have := @posdef_scalar F 1 1 ltr01 u un0.
Qed.

(** C05: the guess u0 = -1 is a KKT point with zero gaps; there the direction
    exists (and is zero) *)
Example C05_hypotheses_met :
  exists s', [/\ sqp_computeDirection (wx0 sq) (wcfg sq) true (wsqp_at sq (- const_mx 1)) = (true, s'),
    traj_sym (q_tr s'), zero_gaps (run (q_tr s')) (trm (q_tr s')),
    kkt_multipliers (run (q_tr s')) (trm (q_tr s')) [:: 0; 0]
    & zero_direction (run (q_tr s')) (trm (q_tr s'))].
Proof.
have [s' e [p [m [v [l [a [tn [et [e1 e2 e3 e4]]]]]]]]] := w_direction sq (- const_mx 1).
rewrite addNr in e1 et.
exists s'; split=> //; first exact: w_sym e.
- by rewrite et; split=> [nd [<-|] //|]; exact: e1.
- by rewrite et /=; split=> //; [rewrite mulmx0 addr0 | rewrite /= mulmx0 addr0].
- rewrite et; split=> [nd [<-|] //|]; last exact: e4.
  by split=> //=; rewrite oppr0.
Qed.
End NonVacuous.

Print Assumptions C01_sqp_direction_kkt.
Print Assumptions C02_sqp_direction_unique_minimiser.
Print Assumptions C03_convex_backward_pass.
Print Assumptions C04_backward_Vxx.
Print Assumptions C05_direction_zero_at_kkt.
Print Assumptions C05_kkt_at_zero_direction.
