(** * SolverDDP in exact arithmetic: the expected decrease and the trial cost. *)
From Coq Require Import Ring Field ZArith PeanoNat List.
Set Warnings "-notation-overridden,-ambiguous-paths".
From mathcomp Require Import all_ssreflect all_algebra.
From Verif Require Import FieldTac Eigen EigenExact ExactLemmas Problem DDP SQP CSQP LQSpec Riccati SubQP PassExact RollSpec DDPSpec Models Affine AffineStep.

Set Implicit Arguments.
Unset Strict Implicit.
Unset Printing Implicit Defensive.

Import Order.TTheory GRing.Theory Num.Theory.
Local Open Scope ring_scope.

(** ** the policy of the trial in a Riccati recursion without gaps *)
Section Policy.
Variable F : realFieldType.
Variable n : nat.
Add Field FfDP : (F_field_theory F).
Notation gst := (gst F n).
Notation final := (final F n).
Fixpoint pol (a : F) (d : 'cV[F]_n) (l : seq gst) : controls [seq gs g | g <- l] :=
  match l return controls [seq gs g | g <- l] with
  | [::] => tt
  | g :: l' =>
      let u := - (a *: hk g) - hK g *m d in
      (u, pol a (sA (gs g) *m d + sB (gs g) *m u + sf (gs g)) l')
  end.
Fixpoint rslope (l : seq gst) (e : final) : F :=
  match l with
  | [::] => 0
  | g :: l' => bf (rqu (gs g) (nP l' e) (np l' e)) (hk g) + rslope l' e
  end.
Definition no_gaps (l : seq gst) : Prop := forall g, List.In g l -> sf (gs g) = 0.
Lemma consts_slope l e : no_gaps l -> ric_consts l e = - (rslope l e / 2%:R).
Proof.
elim: l => [|g l IH] h /=; first by rewrite mul0r oppr0.
rewrite IH; last by move=> k hk'; apply: h; right.
by rewrite /ric_const (h g (or_introl erefl)) qf0r bf0r mul0r !add0r mulrDl opprD.
Qed.
Lemma dev_slope a d l e : ric_ok l e -> ric_dev d e (pol a d l) = (1 - a) ^+ 2 * (rslope l e / 2%:R).
Proof.
elim: l d => [|g l IH] d /=; first by rewrite mul0r mulr0.
move=> [[_ hk _ _] hl]; rewrite IH //.
have -> : - (a *: Riccati.hk g) - hK g *m d + (hK g *m d + Riccati.hk g) = (1 - a) *: Riccati.hk g.
  by rewrite scalerBl scale1r; vabel F.
by rewrite qfZv qfE hk bfC [in RHS]mulrDl mulrDr !mulrA.
Qed.
Lemma pol_value a l e : ric_ok l e -> gsym l e -> no_gaps l ->
  lq_value 0 e (pol a 0 l) = - (a * (1 - a / 2%:R) * rslope l e).
Proof.
move=> h1 h2 h3; rewrite ric_value // qf0r bf0r mul0r !add0r consts_slope // dev_slope //.
have tw (x : F) : x = x / 2%:R + x / 2%:R by rewrite -mulr2n -mulr_natr divfK // pnatr_eq0.
rewrite [rslope l e in RHS]tw expr2; have := tw a.
by move: (rslope l e / 2%:R) (a / 2%:R) => D h ->; mcfold F; ring.
Qed.
End Policy.


Section Expected.
Variable F : realFieldType.
Variable sq : F -> F.
Notation E := (ExactE sq).
Variable M : manifold E.
Notation n := (mndx M).
Notation node := (node M).
Notation tnode := (tnode M).
Add Field FfDE : (F_field_theory F).

(** what a node holds about its feed-forward term after a successful backward pass *)
Definition ff_ok (nd : node) : Prop := nu (nm nd) <> 0%N ->
  [/\ posdef (Quu (val nd) : 'M[F]_(nu (nm nd))),
      (Quu (val nd) : 'M[F]_(nu (nm nd))) *m (gk (val nd) : 'cV[F]_(nu (nm nd))) = Qu (val nd)
    & (Quuk (val nd) : 'cV[F]_(nu (nm nd))) = (Quu (val nd) : 'M[F]_(nu (nm nd))) *m (gk (val nd) : 'cV[F]_(nu (nm nd)))].
Lemma bwd_ff feas (preg dreg : R E) (l : seq node) (tn : tnode) l' :
  bwd_nodes preg dreg feas l tn = (true, l') ->
  (forall nd, List.In nd l -> node_sym nd) -> term_ok feas preg tn -> tnode_sym tn ->
  forall nd, List.In nd l' -> ff_ok nd.
Proof.
move=> H Hs Ht st; elim: l l' H Hs => [|nd l IH] l' /=; first by move=> [<-].
case e: (bwd_nodes preg dreg feas l tn) => [b r]; case: b e => //= e.
case e1: (bwd_node _ _ _ _ _ _) => [b1 nd'] /= [e2 <-] Hs; rewrite {}e2 in e1.
have Hs' := fun m h => Hs m (or_intror h).
have [ok pd sy hf] := bwd_nodes_ok e Hs' Ht st.
have sP : sym (hd_Vxx r tn : 'M[F]_n) by rewrite -(hd_nP dreg r Ht); apply: nP_sym.
move=> k [<-|]; last exact: IH.
move/bwd_nodeP: e1 => [v -> [[fok _ _ fQ] _ _ hk _]] hn.
have {}hk := hk; move: hk; case: Nat.eqb_spec => [/hn //|_] hk.
have [[c1 _ c3 _] [q1 _ q3]] := (fok hn, fQ hn).
have [_ sU] := Hs nd (or_introl erefl).
have sQ : sym (Quu v : 'M[F]_(nu (nm nd))).
  rewrite q1; apply: symD (sym_scalar _ _); apply: symD => //; exact: sym_congr.
rewrite -q1 in c1 c3; split; last exact: hk.
  by apply/(chol_okP sQ).
by rewrite -[gk _]/(gk v) c3 chol_solveP // -[RHS]/(Qu v) q3.
Qed.

(** sum of Qu.k over the horizon *)
Definition slope (l : seq node) : F :=
  \sum_(nd <- l) dot (Qu (val nd) : 'cV[F]_(nu (nm nd))) (gk (val nd) : 'cV[F]_(nu (nm nd))).
Lemma dot_empty m (v w : 'cV[F]_m) : m = 0%N -> dot v w = 0.
Proof. by move=> e; rewrite /dot (inner0 e) mxE. Qed.
Lemma sum_qukE (acc : R E) (l : seq node) : (sum_quk acc l : F) = (acc : F) + slope l.
Proof.
elim: l acc => [|nd l IH] acc; first by rewrite /slope big_nil addr0.
cbn [sum_quk]; rewrite IH /slope big_cons addrA; congr (_ + _).
case: Nat.eqb_spec => [e|_] //; by rewrite dot_empty // addr0.
Qed.
Lemma sum_kquukE (acc : R E) (l : seq node) : (forall nd, List.In nd l -> ff_ok nd) ->
  (sum_kquuk acc l : F) = (acc : F) - slope l.
Proof.
elim: l acc => [|nd l IH] acc h; first by rewrite /slope big_nil subr0.
cbn [sum_kquuk]; rewrite IH; last by move=> m hm; apply: h; right.
rewrite /slope big_cons opprD addrA; congr (_ + _).
case: Nat.eqb_spec => [e|hn] //; first by rewrite dot_empty // subr0.
have [_ h2 h3] := h nd (or_introl erefl) hn.
rewrite -[rsub E _ _]/((acc : F) - dot (gk (val nd) : 'cV[F]_(nu (nm nd))) (Quuk (val nd))).
by rewrite h3 h2; congr (_ - _); rewrite !dotE bfC.
Qed.
Lemma slope_ge0 (l : seq node) : (forall nd, List.In nd l -> ff_ok nd) -> 0 <= slope l.
Proof.
elim: l => [|nd l IH] h; first by rewrite /slope big_nil.
rewrite /slope big_cons addr_ge0 //; last by apply: IH => m hm; apply: h; right.
case: (Nat.eqb_spec (nu (nm nd)) 0) => [e|hn]; first by rewrite dot_empty.
have [h1 h2 _] := h nd (or_introl erefl) hn.
by rewrite -h2 dotE bfC -qfE; exact: posdef_psd.
Qed.
Lemma slope0 (l : seq node) : (forall nd, List.In nd l -> ff_ok nd) -> 
  slope l = 0 <-> forall nd, List.In nd l -> nu (nm nd) <> 0%N -> (Qu (val nd) : 'cV[F]_(nu (nm nd))) = 0.
Proof.
elim: l => [|nd l IH] h; first by rewrite /slope big_nil; split.
have h' : forall m, List.In m l -> ff_ok m by move=> m hm; apply: h; right.
have g1 := slope_ge0 h'.
have g2 : 0 <= dot (Qu (val nd) : 'cV[F]_(nu (nm nd))) (gk (val nd) : 'cV[F]_(nu (nm nd))).
  case: (Nat.eqb_spec (nu (nm nd)) 0) => [e|hn]; first by rewrite dot_empty.
  have [h1 h2 _] := h nd (or_introl erefl) hn.
  by rewrite -h2 dotE bfC -qfE; exact: posdef_psd.
rewrite /slope big_cons -/(slope l); split.
  move/eqP; rewrite paddr_eq0 // => /andP [/eqP e1 /eqP e2] m [<-|hm] hn; last by apply: (proj1 (IH h') e2).
  have [h1 h2 _] := h nd (or_introl erefl) hn.
  rewrite -h2; have [->|k0] := eqVneq (gk (val nd) : 'cV[F]_(nu (nm nd))) 0; first by rewrite mulmx0.
  by have := h1 _ k0; rewrite qfE bfC h2 -dotE e1 ltxx.
move=> hq; rewrite (proj2 (IH h')); last by move=> m hm; apply: hq; right.
rewrite addr0; case: (Nat.eqb_spec (nu (nm nd)) 0) => [e|hn]; first by rewrite dot_empty.
by rewrite (hq nd (or_introl erefl) hn) dotE bf0l.
Qed.
Lemma expected_exact (a : R E) (l : seq node) : (forall nd, List.In nd l -> ff_ok nd) ->
  (expected_decrease a l : F) = (a : F) * (1 - (a : F) / 2%:R) * slope l.
Proof.
move=> h; rewrite /expected_decrease.
rewrite -[LHS]/((a : F) * ((sum_quk (r0 E) l : F) + xlit F 1 2 * (a : F) * (sum_kquuk (r0 E) l : F))).
rewrite sum_qukE sum_kquukE // xlit12; move: (slope l) (a : F) => D a'.
rewrite -[(r0 E : F)]/(0 : F) !add0r; mcfold F; ring.
Qed.

Lemma bwd_qu feas (preg dreg : R E) (l : seq node) (tn : tnode) l' :
  bwd_nodes preg dreg feas l tn = (true, l') ->
  forall p (nd : node) q, l' = p ++ nd :: q -> nu (nm nd) <> 0%N ->
    (Qu (val nd) : 'cV[F]_(nu (nm nd))) = (Lu (der nd) : 'cV[F]_(nu (nm nd))) + (Fu (der nd) : 'M[F]_(n, nu (nm nd)))^T *m (hd_Vx q tn : 'cV[F]_n).
Proof.
elim: l l' => [|nd l IH] l' /=; first by move=> [<-] [|? ?].
case e: (bwd_nodes preg dreg feas l tn) => [b r]; case: b e => //= e.
case e1: (bwd_node _ _ _ _ _ _) => [b1 nd'] /= [e2 <-]; rewrite {}e2 in e1.
move=> [|k p] m q /= []; last by move=> _; exact: IH.
move=> <- <-; move/bwd_nodeP: e1 => [v -> [[_ _ _ fQ] _ _ _ _]] hn.
by have [_ _] := fQ hn.
Qed.
Lemma bwd_slope (preg dreg : R E) (l : seq node) (tn : tnode) l' :
  bwd_nodes preg dreg true l tn = (true, l') -> term_ok true preg tn ->
  rslope (sqp_gsts true preg dreg l' tn) (SubQP.sqp_final preg tn) = slope l'.
Proof.
move/bwd_qu => h ht; elim: l' h => [|nd l' IH] h; first by rewrite /slope big_nil.
rewrite /slope big_cons; cbn [sqp_gsts rslope]; congr (_ + _); last first.
  by apply: IH => p m q e; apply: (h (nd :: p) m q); rewrite e.
case: (Nat.eqb_spec (nu (nm nd)) 0) => [e|hn].
  by rewrite -!dotE !dot_empty.
rewrite (h [::] nd l' erefl hn) hd_np // /gap_of mulmx0 subr0 dotE; congr (bf _ _).
by rewrite /rqu /rqw /= /gap_of mulmx0 add0r.
Qed.
Lemma gsts_no_gaps (preg dreg : F) (l : seq node) (tn : tnode) : no_gaps (sqp_gsts true preg dreg l tn).
Proof. by elim: l => [|nd l IH] g //= [<-|/IH]. Qed.
End Expected.

(** ** the cost of a trial on a linear-quadratic problem *)
Section LQTrial.
Variable F : realFieldType.
Variable sq : F -> F.
Notation E := (ExactE sq).
Variable n : nat.
Notation M := (euclid E n).
Notation node := (node M).
Notation tnode := (tnode M).
Add Field FfDL : (F_field_theory F).

(** calc(data, x) and calc(data, x, u) agree for models without controls *)
Definition calc_agree (m : amodel M) : Prop :=
  nu m = 0%N -> forall (x : mX M) (u : vec E (nu m)), acalc0 m x = acalc m x u.
(** the states of the candidate are the roll-out of its controls from xin *)
Fixpoint follows_dynamics (xin : 'cV[F]_n) (l : seq node) (tn : tnode) : Prop :=
  match l with
  | [::] => (tx tn : 'cV[F]_n) = xin
  | nd :: l' => (px (pt nd) : 'cV[F]_n) = xin /\ follows_dynamics (axnext (nm nd) (acalc (nm nd) (px (pt nd)) (pu (pt nd)))) l' tn
  end.
(** squared lengths of the motions of states and controls from the candidate to the trial *)
Definition control_motion (l : seq node) : F :=
  \sum_(nd <- l) dot ((put (pt nd) : 'cV[F]_(nu (nm nd))) - pu (pt nd)) ((put (pt nd) : 'cV[F]_(nu (nm nd))) - pu (pt nd)).
Definition state_motion (l : seq node) (tn : tnode) : F :=
  \sum_(nd <- l) dot ((pxt (pt nd) : 'cV[F]_n) - px (pt nd)) ((pxt (pt nd) : 'cV[F]_n) - px (pt nd))
  + dot ((txt tn : 'cV[F]_n) - tx tn) ((txt tn : 'cV[F]_n) - tx tn).

Lemma sub_rev (x y : 'cV[F]_n) : x - y = - (y - x). Proof. by rewrite opprB. Qed.
Lemma node_change (preg dreg : F) (nd : node) (e : amem (nm nd)) (d : 'cV[F]_n) (v : 'cV[F]_(nu (nm nd))) :
  lq_action (nm nd) -> der nd = adiff (nm nd) e (px (pt nd)) (pu (pt nd)) ->
  (acost (nm nd) (acalc (nm nd) ((px (pt nd) : 'cV[F]_n) + d) ((pu (pt nd) : 'cV[F]_(nu (nm nd))) + v)) : F) =
  acost (nm nd) (acalc (nm nd) (px (pt nd)) (pu (pt nd))) +
   (@stage_cost F n (@sqp_stage F sq M preg dreg nd (0 : 'cV[F]_n)) d v - preg * (dot d d / 2%:R) - dreg * (dot v v / 2%:R)).
Proof.
move=> [_ [Q [S [R0 [q [r [k [[sQ sR] hc hg hh]]]]]]]] hd.
rewrite !hc /stage_cost /= hd.
have [-> ->] := hg e (px (pt nd)) (pu (pt nd)).
have [-> [-> ->]] := hh e (px (pt nd)) (pu (pt nd)).
move: (px (pt nd) : 'cV[F]_n) (pu (pt nd) : 'cV[F]_(nu (nm nd))) => x u.
rewrite !quadE !dotE !qfD !qf_scalar !qf_addv // !mulmxDr !bfDl !bfDr.
have -> : bf (Q *m x) d = bf x (Q *m d) by rewrite bfMl sQ.
have -> : bf (R0 *m u) v = bf u (R0 *m v) by rewrite bfMl sR.
have -> : bf (S^T *m x) v = bf x (S *m v) by rewrite bfMl trmxK.
rewrite [bf (S *m u) d]bfC !half3 ![(_ + _) / 2%:R]mulrDl !mulrA.
rewrite -!mulrA.
move: (qf Q x / _) (bf x (Q *m d)) (qf Q d / _) (bf x (S *m u)) (bf x (S *m v)) (bf d (S *m u)) (bf d (S *m v))
  (qf R0 u / _) (bf u (R0 *m v)) (qf R0 v / _) (bf q x) (bf q d) (bf r u) (bf r v) (bf d d / _) (bf v v / _) => a1 a2 a3 a4 a5 a6 a7 a8 a9 b1 b2 b3 b4 b5 b6 b7.
by mcfold F; ring.
Qed.
Lemma tnode_change (preg : F) (tn : tnode) (e : tmem (tm tn)) (d : 'cV[F]_n) : lq_terminal (tm tn) ->
  tder tn = tdiff (tm tn) e (tx tn) ->
  (tcost (tm tn) (tcalc (tm tn) ((tx tn : 'cV[F]_n) + d)) : F) = tcost (tm tn) (tcalc (tm tn) (tx tn)) +
   (quad (tQ (SubQP.sqp_final preg tn)) d / 2%:R + dot (tq (SubQP.sqp_final preg tn)) d - preg * (dot d d / 2%:R)).
Proof.
move=> [Q [q [k [sQ hc hg hh]]]] hd.
rewrite !hc /= hd hg hh !quadE !dotE qfD qf_scalar qf_addv // !bfDl !bfDr half3.
have -> : bf (Q *m tx tn) d = bf (tx tn : 'cV[F]_n) (Q *m d) by rewrite bfMl sQ.
rewrite mulrDl -!mulrA.
move: (qf Q (tx tn) / _) (bf (tx tn) (Q *m d)) (qf Q d / _) (bf q (tx tn)) (bf q d) (bf d d / _) => a1 a2 a3 a4 a5 a6.
by mcfold F; ring.
Qed.
Lemma trial_putE (a : R E) (xt : 'cV[F]_n) (nd : node) :
  (put (pt (roll_node a (xt : mX M) nd)) : 'cV[F]_(nu (nm nd))) =
  (pu (pt nd) : 'cV[F]_(nu (nm nd))) + (- ((a : F) *: (gk (val nd) : 'cV[F]_(nu (nm nd)))) - (gK (val nd) : 'M[F]_(nu (nm nd), n)) *m (xt - (px (pt nd) : 'cV[F]_n))).
Proof.
rewrite /roll_node; cbn [put pt set_mem set_dir set_pt]; case: Nat.eqb_spec => [e|_] /=; first exact: rows0.
by rewrite addrA.
Qed.
Lemma trial_memE (a : R E) (xt : 'cV[F]_n) (nd : node) : calc_agree (nm nd) ->
  mem (roll_node a (xt : mX M) nd) = acalc (nm nd) (xt : mX M) (put (pt (roll_node a (xt : mX M) nd))).
Proof.
move=> h; rewrite /roll_node; cbn [put pt mem nm set_mem set_dir set_pt]; case: Nat.eqb_spec => [e|_] //=.
exact: h.
Qed.
Lemma evals_acalc (nd : node) (e : amem (nm nd)) : calc_agree (nm nd) -> evals e -> e = acalc (nm nd) (px (pt nd)) (pu (pt nd)).
Proof. by move=> h [//|[/Nat.eqb_eq e0 ->]]; exact: h. Qed.

Lemma roll_cost (preg dreg a : F) (l : seq node) (tn : tnode) (d xin : 'cV[F]_n) (acc cost c : R E) (ld : vec E n) l' (tn' : tnode) (c' : R E) :
  (forall nd, List.In nd l -> lq_action (nm nd) /\ calc_agree (nm nd)) -> lq_terminal (tm tn) ->
  @linearised E M true (xin : mX M) acc l tn cost -> follows_dynamics xin l tn ->
  roll_nodes (a : R E) (xin + d : mX M) ld l tn c = (true, l', tn', c') ->
  (c' : F) = c + ((cost : F) - acc) + (lq_value d (SubQP.sqp_final preg tn) (pol a d (sqp_gsts true preg dreg l tn))
     - preg * (state_motion l' tn' / 2%:R) - dreg * (control_motion l' / 2%:R)).
Proof.
elim: l d xin acc c ld l' tn' c' => [|nd l IH] d xin acc c ld l' tn' c' hm ht.
  cbn [linearised follows_dynamics roll_nodes] => -[_ [hd hc]] hx [_ <- <- <-].
  cbn [tm tme tx txt set_tme set_txt set_tlam].
  rewrite -hx in hc *.
  have := tnode_change preg d ht hd.
  rewrite /state_motion /control_motion !big_nil; cbn [tm tme tx txt set_tme set_txt set_tlam].
  have e0 : ((tx tn : 'cV[F]_n) + d) - tx tn = d by rewrite addrC addKr.
  rewrite e0 add0r mul0r mulr0 subr0.
  move=> h; have hc2 : (cost : F) = (acc : F) + (tcost (tm tn) (tcalc (tm tn) (tx tn)) : F) by exact: hc.
  rewrite hc2 h.
  rewrite -[lq_value _ _ _]/(quad (tQ (SubQP.sqp_final preg tn)) d / 2%:R + dot (tq (SubQP.sqp_final preg tn)) d).
  move: (c : F) (acc : F) (tcost (tm tn) (tcalc (tm tn) (tx tn)) : F) (quad _ _ / _) (dot _ d) (preg * _) => a1 a2 a3 a4 a5 a6.
  by mcfold F; ring.
cbn [linearised follows_dynamics roll_nodes] => -[_ [e [he [hd hl]]]] [hx hf].
case: (is_rollout_error _ _) => //; set nd' := roll_node _ _ nd.
set r := roll_nodes _ _ _ l tn _ => -[e1 e2 e3 e4].
have er : r = (true, snd (fst (fst r)), tn', c') by move: e1 e3 e4; case: (r) => [[[b k] t] z] /= -> -> ->.
have [h1 h2] := hm nd (or_introl erefl).
have eE := evals_acalc h2 he; subst e.
set v := - (a *: (gk (val nd) : 'cV[F]_(nu (nm nd)))) - (gK (val nd) : 'M[F]_(nu (nm nd), n)) *m d.
have eu : (put (pt nd') : 'cV[F]_(nu (nm nd))) = (pu (pt nd) : 'cV[F]_(nu (nm nd))) + v.
  rewrite /nd' trial_putE -hx /v; congr (_ + (_ - _ *m _)); by rewrite addrC addKr.
have em : mem nd' = acalc (nm nd) ((px (pt nd) : 'cV[F]_n) + d : mX M) ((pu (pt nd) : 'cV[F]_(nu (nm nd))) + v : vec E _).
  by rewrite -eu hx; exact: trial_memE.
set d' : 'cV[F]_n := (Fx (der nd) : 'M[F]_n) *m d + (Fu (der nd) : 'M[F]_(n, nu (nm nd))) *m v + 0.
have en : axnext (nm nd) (mem nd') = ((axnext (nm nd) (acalc (nm nd) (px (pt nd)) (pu (pt nd))) : 'cV[F]_n) + d' : mX M).
  have [A [B [b [f1 f2]]]] := proj1 h1.
  have [a1 a2] := f2 (acalc (nm nd) (px (pt nd)) (pu (pt nd))) (px (pt nd)) (pu (pt nd)).
  rewrite em !f1 /d' hd a1 a2 !mulmxDr; vabel F.
have hn := node_change preg dreg d v h1 hd.
have hm' : forall m, List.In m l -> lq_action (nm m) /\ calc_agree (nm m) by move=> m hin; apply: hm; right.
have hr : roll_nodes (a : R E) ((axnext (nm nd) (acalc (nm nd) (px (pt nd)) (pu (pt nd))) : 'cV[F]_n) + d' : mX M) (dx (dir nd')) l tn
    (radd E c (acost (nm nd) (mem nd'))) = (true, snd (fst (fst r)), tn', c') by rewrite -en; exact: er.
have h := IH d' _ _ _ _ _ _ _ hm' ht hl hf hr.
rewrite h -e2 {h hr}.
have s1 : state_motion (nd' :: snd (fst (fst r))) tn' = dot d d + state_motion (snd (fst (fst r))) tn'.
  rewrite /state_motion big_cons addrA.
  rewrite -[(pxt (pt nd') : 'cV[F]_n)]/(xin + d) -[(px (pt nd') : 'cV[F]_n)]/(px (pt nd) : 'cV[F]_n) hx.
  by have -> : xin + d - xin = d by rewrite addrC addKr.
have s2 : control_motion (nd' :: snd (fst (fst r))) = dot v v + control_motion (snd (fst (fst r))).
  rewrite /control_motion big_cons eu -[(pu (pt nd') : 'cV[F]_(nu (nm nd)))]/(pu (pt nd) : 'cV[F]_(nu (nm nd))).
  by have -> : pu (pt nd) + v - pu (pt nd) = v by rewrite addrC addKr.
rewrite s1 s2 {s1 s2}.
rewrite -[lq_value d _ _]/(@stage_cost F n (@sqp_stage F sq M preg dreg nd (0 : 'cV[F]_n)) d v + lq_value d' (SubQP.sqp_final preg tn) (pol a d' (sqp_gsts true preg dreg l tn))).
rewrite -[radd E c _]/((c : F) + (acost (nm nd) (mem nd') : F)) em hn.
rewrite -[radd E acc _]/((acc : F) + (acost (nm nd) (acalc (nm nd) (px (pt nd)) (pu (pt nd))) : F)).
move: (c : F) (acc : F) (cost : F) (acost (nm nd) (acalc (nm nd) (px (pt nd)) (pu (pt nd))) : F) (stage_cost _ _) (dot d d) (dot v v)
  (lq_value d' _ _) (state_motion _ _) (control_motion _) => b1 b2 b3 b4 b5 b6 b7 b8 b9 b10.
rewrite ![(_ + _) / 2%:R]mulrDl; move: (b6 / _) (b7 / _) (b9 / _) (b10 / _) => g1 g2 g3 g4.
by mcfold F; ring.
Qed.

(** the same for a trajectory given as lists: controls follow the policy of the nodes *)
Fixpoint pol_run (a : F) (l : seq node) (us : seq {k : nat & vec E k}) (xs : seq (mX M)) : Prop :=
  match l, us, xs with
  | nd :: l', u :: us', x :: xs' =>
      ((Nat.eqb (nu (nm nd)) 0) = false -> u = existT (vec E) (nu (nm nd)) (@policy E M (a : R E) nd x)) /\ pol_run a l' us' xs'
  | _, _, _ => True
  end.
Lemma follows_run (a : F) (l l' : seq node) (tn : tnode) : List.Forall2 (@follows E M (a : R E)) l l' ->
  pol_run a l (List.map (fun k : node => existT (vec E) (nu (nm k)) (pu (pt k))) l') (List.map (fun k : node => px (pt k)) l' ++ [:: tx tn]).
Proof. by elim=> [|k k' q q' h _ ih]. Qed.
Lemma half_sq m (v : 'cV[F]_m) : 0 <= dot v v / 2%:R.
Proof. by apply: divr_ge0; [rewrite dotE; exact: bf_ge0|exact: ler0n]. Qed.
Lemma roll_nil (x : mX M) acc us xs cr : @rollout E M [::] x acc us xs cr -> xs = [:: x] /\ cr = acc.
Proof. by move=> h; inversion h. Qed.
Lemma roll_cons (m : amodel M) ms (x : mX M) acc us xs cr : @rollout E M (m :: ms) x acc us xs cr ->
  exists (u : vec E (nu m)) us' xs', [/\ us = existT (vec E) (nu m) u :: us', xs = x :: xs'
    & @rollout E M ms (axnext m (aeval x u)) (radd E acc (acost m (aeval x u))) us' xs' cr].
Proof. by move=> h; inversion h as [|m' ms' x' acc' u us' xs' cost' hr e1 e2 e3 e4 e5]; subst; exists u, us', xs'. Qed.
Lemma run_cost (preg dreg a : F) (l : seq node) (tn : tnode) (d xin : 'cV[F]_n) (acc cost c : R E) us xs (cr c' : R E) :
  (forall nd, List.In nd l -> lq_action (nm nd) /\ calc_agree (nm nd)) -> lq_terminal (tm tn) ->
  @linearised E M true (xin : mX M) acc l tn cost -> follows_dynamics xin l tn ->
  @rollout E M (List.map (@nm E M) l) (xin + d : mX M) c us xs cr -> @rollout_cost E M (tm tn) cr xs c' -> pol_run a l us xs ->
  exists mx mu : F, [/\ 0 <= mx, 0 <= mu & (c' : F) = c + ((cost : F) - acc) + (lq_value d (SubQP.sqp_final preg tn) (pol a d (sqp_gsts true preg dreg l tn))
     - preg * mx - dreg * mu)].
Proof.
elim: l d xin acc c us xs => [|nd l IH] d xin acc c us xs hm ht.
  cbn [linearised follows_dynamics List.map] => -[_ [hd hc]] hx hr [x [hl ->]] _.
  have [ex ec] := roll_nil hr; subst xs cr; cbn [List.last] in hl; subst x xin.
  have := tnode_change preg d ht hd.
  move=> h; have hc2 : (cost : F) = (acc : F) + (tcost (tm tn) (tcalc (tm tn) (tx tn)) : F) by exact: hc.
  exists (dot d d / 2%:R), 0; split=> //; first exact: half_sq.
  rewrite -[radd E c _]/((c : F) + (tcost (tm tn) (tcalc (tm tn) ((tx tn : 'cV[F]_n) + d)) : F)) hc2 h.
  rewrite -[lq_value _ _ _]/(quad (tQ (SubQP.sqp_final preg tn)) d / 2%:R + dot (tq (SubQP.sqp_final preg tn)) d).
  move: (c : F) (acc : F) (tcost (tm tn) (tcalc (tm tn) (tx tn)) : F) (quad _ _ / _) (dot _ d) (preg * _) => a1 a2 a3 a4 a5 a6.
  by mcfold F; ring.
cbn [linearised follows_dynamics List.map] => -[_ [e [he [hd hl]]]] [hx hf] hr hc hp.
have [u [us' [xs' [eu ex hr']]]] := roll_cons hr; subst us xs; case: hp => hpu hp.
have [h1 h2] := hm nd (or_introl erefl).
have eE := evals_acalc h2 he; subst e.
set v := - (a *: (gk (val nd) : 'cV[F]_(nu (nm nd)))) - (gK (val nd) : 'M[F]_(nu (nm nd), n)) *m d.
have eu : (u : 'cV[F]_(nu (nm nd))) = (pu (pt nd) : 'cV[F]_(nu (nm nd))) + v.
  case: (Nat.eqb_spec (nu (nm nd)) 0) => [e0|e0]; first exact: rows0.
  have := hpu ltac:(by case: Nat.eqb_spec); move/(@Eqdep_dec.inj_pair2_eq_dec _ Nat.eq_dec _ _ _ _) => ->.
  rewrite /policy -[vsub E _ _]/((pu (pt nd) : 'cV[F]_(nu (nm nd))) - a *: (gk (val nd) : 'cV[F]_(nu (nm nd)))
     - (gK (val nd) : 'M[F]_(nu (nm nd), n)) *m (xin + d - (px (pt nd) : 'cV[F]_n))) hx /v.
  have -> : xin + d - xin = d by rewrite addrC addKr.
  by rewrite addrA.
have em : aeval (xin + d : mX M) u = acalc (nm nd) ((px (pt nd) : 'cV[F]_n) + d : mX M) ((pu (pt nd) : 'cV[F]_(nu (nm nd))) + v : vec E _).
  rewrite -eu hx /aeval; case: Nat.eqb_spec => [e0|e0] //; exact: h2.
set d' : 'cV[F]_n := (Fx (der nd) : 'M[F]_n) *m d + (Fu (der nd) : 'M[F]_(n, nu (nm nd))) *m v + 0.
have en : axnext (nm nd) (aeval (xin + d : mX M) u) = ((axnext (nm nd) (acalc (nm nd) (px (pt nd)) (pu (pt nd))) : 'cV[F]_n) + d' : mX M).
  have [A [B [b [f1 f2]]]] := proj1 h1.
  have [a1 a2] := f2 (acalc (nm nd) (px (pt nd)) (pu (pt nd))) (px (pt nd)) (pu (pt nd)).
  rewrite em !f1 /d' hd a1 a2 !mulmxDr; vabel F.
have hn := node_change preg dreg d v h1 hd.
have hm' : forall m, List.In m l -> lq_action (nm m) /\ calc_agree (nm m) by move=> m hin; apply: hm; right.
rewrite en in hr'.
have hc' : @rollout_cost E M (tm tn) cr xs' c'.
  case: hc => z [hz ->]; exists z; split=> //; rewrite -hz; case: (xs') hr' => // hr'.
  by inversion hr'.
have [mx [mu [g1 g2 g3]]] := IH d' _ _ _ _ _ hm' ht hl hf hr' hc' hp.
exists (dot d d / 2%:R + mx), (dot v v / 2%:R + mu); split.
- by apply: addr_ge0 => //; exact: half_sq.
- by apply: addr_ge0 => //; exact: half_sq.
rewrite g3.
rewrite -[lq_value d _ _]/(@stage_cost F n (@sqp_stage F sq M preg dreg nd (0 : 'cV[F]_n)) d v + lq_value d' (SubQP.sqp_final preg tn) (pol a d' (sqp_gsts true preg dreg l tn))).
rewrite -[radd E c _]/((c : F) + (acost (nm nd) (aeval (xin + d : mX M) u) : F)) em hn.
rewrite -[radd E acc _]/((acc : F) + (acost (nm nd) (acalc (nm nd) (px (pt nd)) (pu (pt nd))) : F)).
move: (c : F) (acc : F) (cost : F) (acost (nm nd) (acalc (nm nd) (px (pt nd)) (pu (pt nd))) : F) (stage_cost _ _) (dot d d / _) (dot v v / _)
  (lq_value d' _ _) => b1 b2 b3 b4 b5 b6 b7 b8.
by mcfold F; ring.
Qed.
End LQTrial.
