(** * Trial steps along a direction that satisfies the linearised dynamics
    (exact arithmetic). *)
From Coq Require Import Ring Field ZArith PeanoNat List.
Set Warnings "-notation-overridden,-ambiguous-paths".
From mathcomp Require Import all_ssreflect all_algebra.
From Verif Require Import FieldTac Eigen EigenExact ExactLemmas Problem DDP Filter SQP CSQP Init Models LQSpec Riccati TrialSpec TraceSpec
  SQPSpec SQPTrial SQPLoop SubQP PassExact P_Direction Affine.

Set Implicit Arguments.
Unset Strict Implicit.
Unset Printing Implicit Defensive.

Import Order.TTheory GRing.Theory Num.Theory.
Local Open Scope ring_scope.

Section A.
Variable F : realFieldType.
Variable sq : F -> F.
Notation E := (ExactE sq).
Variable n : nat.
Notation M := (euclid E n).
Notation node := (node M).
Notation tnode := (tnode M).
Add Field FfA : (F_field_theory F).

(** dx_(t+1) = Fx dx_t + Fu du_t + fs_(t+1) along the horizon *)
Fixpoint lin_dyn (l : list node) (tn : tnode) : Prop :=
  match l with
  | nil => True
  | nd :: l' =>
      (hd_dx l' tn : 'cV[F]_n) = (Fx (der nd) : 'M[F]_n) *m (dx (dir nd) : 'cV[F]_n)
         + (Fu (der nd) : 'M[F]_(n, nu (nm nd))) *m (du (dir nd) : 'cV[F]_(nu (nm nd))) + hd_fs l' tn
      /\ lin_dyn l' tn
  end.
Definition gaps (l : list node) (tn : tnode) : list 'cV[F]_n :=
  [seq (fs nd : 'cV[F]_n) | nd : node <- l] ++ [:: (tfs tn : 'cV[F]_n)].

Lemma trial_uE (a : R E) (nd : node) :
  (trial_u a nd : 'cV[F]_(nu (nm nd))) = (pu (pt nd) : 'cV[F]_(nu (nm nd))) + (a : F) *: (du (dir nd) : 'cV[F]_(nu (nm nd))).
Proof.
rewrite /trial_u; case e: (Nat.eqb _ _) => //.
apply: rows0; exact/Nat.eqb_eq.
Qed.

Lemma defects_cons (m : amodel M) ms (xin x : 'cV[F]_n) (u : vec E (nu m)) us xs ds :
  defects_of (m :: ms) xin (existT (vec E) (nu m) u :: us) (x :: xs) ds ->
  exists2 ds', ds = (xin - x) :: ds' & defects_of ms (axnext m (acalc m x u)) us xs ds'.
Proof.
move=> H; inversion H as [|m' ms' xi x' u' us' xs' ds' Hd e1 e2 e3 e4 e5]; subst.
have eu : u' = u by apply: (Eqdep_dec.inj_pair2_eq_dec _ Nat.eq_dec) e3.
by exists ds' => //; rewrite -eu.
Qed.
Lemma trial_defectsP (a : R E) (l : list node) (tn : tnode) (acc : R E) (ds : list 'cV[F]_n) (xin : 'cV[F]_n) :
  defects_of (List.map (@nm E M) l) xin (List.map (fun nd => existT (vec E) (nu (nm nd)) (trial_u a nd)) l)
     (List.map (trial_x a) l ++ [:: trial_tx a tn]) ds ->
  (trial_defects a l tn acc : F) = acc + total (behead ds).
Proof.
elim: l acc ds xin => [|nd l IH] acc ds xin /=.
  by move=> H; inversion H; rewrite /total big_nil /= addr0.
move=> H.
have [ds' -> Hd] := defects_cons H.
rewrite (IH _ _ _ Hd) /=.
have [ds1 eds] : exists ds1, ds' = (axnext (nm nd) (trial_eval a nd) - trial_next_x a l tn : 'cV[F]_n) :: ds1.
  by move: Hd; case: (l) => [|nd' l'] /= Hd; inversion Hd; subst; eexists.
by rewrite eds /= /total big_cons addrA.
Qed.

Lemma step_defects (a : R E) (l : list node) (tn : tnode) (xin : 'cV[F]_n) :
  (forall nd, List.In nd l -> affine_dynamics (nm nd)) ->
  List.Forall (@fresh_node E M) l -> List.Forall (@diffed_node E M) l ->
  (exists f, gaps_ok f l tn) -> lin_dyn l tn ->
  defects_of (List.map (@nm E M) l) xin (List.map (fun nd => existT (vec E) (nu (nm nd)) (trial_u a nd)) l)
     (List.map (trial_x a) l ++ [:: trial_tx a tn])
     ((xin - (trial_next_x a l tn : 'cV[F]_n)) :: [seq (1 - (a : F)) *: v | v <- behead (gaps l tn)]).
Proof.
elim: l xin => [|nd l IH] xin ha hf hd [f hg] hl.
  exact: defects_end.
have ha1 := ha nd (or_introl erefl).
have {}IH x := IH x (fun m h => ha m (or_intror h)) (List.Forall_inv_tail hf) (List.Forall_inv_tail hd) _ (proj2 hl).
case: hg => _ hg. have hf1 := List.Forall_inv hf. have hd1 := List.Forall_inv hd.
case: hl => hl _.
apply: defects_step.
have := IH (ex_intro _ _ hg) (axnext (nm nd) (trial_eval a nd)).
have -> : (axnext (nm nd) (trial_eval a nd) : 'cV[F]_n) - trial_next_x a l tn = (1 - a) *: (hd_fs l tn : 'cV[F]_n).
  have [A [B [b [h1 h2]]]] := ha1.
  have hfs : (hd_fs l tn : 'cV[F]_n) = (axnext (nm nd) (mem nd) : 'cV[F]_n) - hd_x l tn.
    by move: hg; case: (l) => [|nd' l'] /=; [move=> -> | case=> -> _].
  have [eA eB] : (Fx (der nd) : 'M[F]_n) = A /\ (Fu (der nd) : 'M[F]_(n, nu (nm nd))) = B by rewrite hd1; exact: h2.
  rewrite eA eB in hl.
  have ex : trial_next_x a l tn = (hd_x l tn : 'cV[F]_n) + (a : F) *: (hd_dx l tn : 'cV[F]_n) by case: (l).
  rewrite ex /trial_eval h1 trial_uE hl.
  have -> : (trial_x a nd : 'cV[F]_n) = (px (pt nd) : 'cV[F]_n) + (a : F) *: (dx (dir nd) : 'cV[F]_n) by [].
  have e1 : (hd_x l tn : 'cV[F]_n) = A *m (px (pt nd) : 'cV[F]_n) + B *m (pu (pt nd) : 'cV[F]_(nu (nm nd))) + b - hd_fs l tn.
    by rewrite -h1 -hf1 hfs opprB addrC subrK.
  rewrite e1 !mulmxDr -!scalemxAr !scalerDr scalerBl scale1r.
  move: (A *m _) (B *m _) (A *m _) (B *m _) (hd_fs l tn : 'cV[F]_n) => v1 v2 v3 v4 v5.
  apply/matrixP => i j; rewrite !mxE.
  move: (v1 i j) (v2 i j) (v3 i j) (v4 i j) (v5 i j) (b i j) => w1 w2 w3 w4 w5 w6.
  by rewrite -/(GRing.opp (_ : F)); move: (a : F) => a'; mcfold F; ring.
by rewrite /gaps; case: (l).
Qed.

(** ** The forward pass satisfies the linearised dynamics *)

Lemma fwd_lin (l : list node) (tn : tnode) (d : vec E (mndx M)) (xg ug : R E) :
  let r := fwd_nodes d l tn xg ug in lin_dyn (fst (fst r)) (snd (fst r)).
Proof.
elim: l d xg ug => [|nd l IH] d xg ug; first by [].
cbn [fwd_nodes]. set d' := vadd E _ (mmulv E (Fx (der nd)) d). cbv zeta.
cbn [fst snd lin_dyn].
have [h1 [h2 h3]] := fwd_nodesP l tn d' (radd E xg (vl1 E d)) (radd E ug (vl1 E (fwd_du nd d))).
split; last exact: IH.
rewrite h3 /d'.
have -> : hd_fs (fst (fst (fwd_nodes d' l tn (radd E xg (vl1 E d)) (radd E ug (vl1 E (fwd_du nd d))))))
   (snd (fst (fwd_nodes d' l tn (radd E xg (vl1 E d)) (radd E ug (vl1 E (fwd_du nd d)))))) = hd_fs l tn.
  by case: h1 h2 => [|n1 n2 l1 l2 [v [dd ->]] _] [A [v1 [d1 [la ->]]]].
rewrite /=.
by rewrite -addrA addrC [_ *m _ + _ in LHS]addrC.
Qed.
Lemma direction_lin x0 (c : scfg E) recalc (s s' : sqp M) :
  sqp_computeDirection x0 c recalc s = (true, s') -> lin_dyn (run (q_tr s')) (trm (q_tr s')).
Proof.
rewrite /sqp_computeDirection.
set s1 := if recalc then _ else s. cbv zeta.
set s2 := set_q_merit _ _.
case eb: (backwardPass _ _ _ _) => [b tr].
case: b eb => // eb [<-]. exact: fwd_lin.
Qed.

(** ** Re-evaluated trajectories: stored gaps and derivatives are those of the
    models *)
Notation get_u := (fun nd : node => existT (vec E) (nu (nm nd)) (pu (pt nd))).
Lemma fresh_defects (l : list node) (tn : tnode) (xin : 'cV[F]_n) :
  List.Forall (@fresh_node E M) l -> gaps_ok (xin - (hd_x l tn : 'cV[F]_n) : vec E (mndx M)) l tn ->
  defects_of (List.map (@nm E M) l) xin (List.map get_u l)
     (List.map (fun nd : node => px (pt nd)) l ++ [:: tx tn]) (gaps l tn).
Proof.
elim: l xin => [|nd l IH] xin hf; first by rewrite /gaps /= => ->; exact: defects_end.
move=> [h1 h2].
rewrite /gaps /= h1 /=. apply: defects_step.
have -> : acalc (nm nd) (px (pt nd)) (pu (pt nd)) = mem nd by rewrite (List.Forall_inv hf).
exact: IH (List.Forall_inv_tail hf) h2.
Qed.
Lemma defects_fun ms xin us xs ds ds' : @defects_of F sq n ms xin us xs ds -> defects_of ms xin us xs ds' -> ds = ds'.
Proof.
move=> h; elim: h ds' => [xi x|m ms' xi x u us' xs' ds1 _ IH] ds' h'.
  by inversion h'.
have [ds2 -> h2] := defects_cons h'.
by rewrite (IH _ h2).
Qed.
Lemma stationary_cons (m : amodel M) ms tm (x : 'cV[F]_n) (u : vec E (nu m)) us xs las :
  stationary (m :: ms) tm (existT (vec E) (nu m) u :: us) (x :: xs) las ->
  exists la las', [/\ las = la :: las', stationary ms tm us xs las',
      (Lx (adiff m (acalc m x u) x u) : 'cV[F]_n) + (Fx (adiff m (acalc m x u) x u) : 'M[F]_n)^T *m head 0 las' = la &
      (Lu (adiff m (acalc m x u) x u) : 'cV[F]_(nu m)) + (Fu (adiff m (acalc m x u) x u) : 'M[F]_(n, nu m))^T *m head 0 las' = 0].
Proof.
move=> H; inversion H as [|m' ms' tm' x' u' us' xs' la las' Hd e1 e2 e3 e4 e5 e6 e7]; subst.
have eu : u' = u by apply: (Eqdep_dec.inj_pair2_eq_dec _ Nat.eq_dec) e5.
by rewrite -eu; eexists _, las'.
Qed.
Lemma fresh_stationary (l : list node) (tn : tnode) (las : list 'cV[F]_n) :
  List.Forall (@fresh_node E M) l -> List.Forall (@diffed_node E M) l ->
  tme tn = tcalc (tm tn) (tx tn) -> tder tn = tdiff (tm tn) (tme tn) (tx tn) ->
  stationary (List.map (@nm E M) l) (tm tn) (List.map get_u l)
     (List.map (fun nd : node => px (pt nd)) l ++ [:: tx tn]) las ->
  kkt_multipliers l tn las.
Proof.
move=> hf hd ht1 ht2; elim: l las hf hd => [|nd l IH] las hf hd /= h.
  by inversion h; subst; rewrite /= ht2 ht1.
have [la [las' [e1 e2 e3 e4]]] := stationary_cons h.
have hf1 : mem nd = acalc (nm nd) (px (pt nd)) (pu (pt nd)) := List.Forall_inv hf.
have hd1 : der nd = adiff (nm nd) (mem nd) (px (pt nd)) (pu (pt nd)) := List.Forall_inv hd.
rewrite -hf1 -hd1 in e3 e4.
rewrite e1 /=; split=> //.
exact: IH (List.Forall_inv_tail hf) (List.Forall_inv_tail hd) e2.
Qed.

Lemma shuffle (V : zmodType) (p q r s t : V) : (p + q) + (r + s) + t = (p + r + t) + q + s.
Proof. by rewrite addrACA -addrA [q + s + t]addrC !addrA. Qed.
(** ** LQ problems: the unit step along the unregularised direction *)
Lemma trial_stationary (l : list node) (tn : tnode) (d : 'cV[F]_n) :
  (forall nd, List.In nd l -> lq_action (nm nd)) -> lq_terminal (tm tn) ->
  List.Forall (@diffed_node E M) l -> tder tn = tdiff (tm tn) (tme tn) (tx tn) ->
  lq_kkt d (sqp_stages (M := M) false 0 0 l tn) (sqp_final (M := M) 0 tn) ->
  stationary (List.map (@nm E M) l) (tm tn) (List.map (fun nd => existT (vec E) (nu (nm nd)) (trial_u (1 : R E) nd)) l)
     (List.map (trial_x (1 : R E)) l ++ [:: trial_tx (1 : R E) tn]) (multipliers l tn).
Proof.
move=> ha [Q [q [k [_ _ hg hh]]]] hd ht.
elim: l d ha hd => [|nd l IH] d ha hd /=.
  move=> [_ hk]. apply: stationary_end.
  rewrite hg -hk ht hg hh.
  rewrite scale1r raddf0 addr0 mulmxDr; by rewrite -addrA [_ + q]addrC addrA.
move=> [_ hu hx hk].
have [_ [Q1 [S1 [R1 [q1 [r1 [k1 [_ _ g1 h1]]]]]]]] := ha nd (or_introl erefl).
have hd1 : der nd = adiff (nm nd) (mem nd) (px (pt nd)) (pu (pt nd)) := List.Forall_inv hd.
have [A [B [b [_ ab]]]] := proj1 (ha nd (or_introl erefl)).
have hl : head 0 (multipliers l tn) = next_l (sqp_stages (M := M) false 0 0 l tn) (sqp_final (M := M) 0 tn).
  by case: (l).
rewrite /multipliers /=; apply: stationary_step.
- apply: (IH _ _ _ hk); [by move=> m hm; apply: ha; right|exact: List.Forall_inv_tail hd].
- rewrite -/(multipliers l tn) hl trial_uE -hx hd1.
  have [-> _] := ab (acalc (nm nd) (px (pt nd) + 1 *: dx (dir nd)) (pu (pt nd) + 1 *: du (dir nd))) (px (pt nd) + 1 *: dx (dir nd)) (pu (pt nd) + 1 *: du (dir nd)).
  have [-> _] := ab (mem nd) (px (pt nd)) (pu (pt nd)).
  have [-> _] := g1 (acalc (nm nd) (px (pt nd) + 1 *: dx (dir nd)) (pu (pt nd) + 1 *: du (dir nd))) (px (pt nd) + 1 *: dx (dir nd)) (pu (pt nd) + 1 *: du (dir nd)).
  have [-> _] := g1 (mem nd) (px (pt nd)) (pu (pt nd)).
  have [-> [-> _]] := h1 (mem nd) (px (pt nd)) (pu (pt nd)).
  rewrite !scale1r raddf0 addr0 !mulmxDr.
  by congr (_ + _); rewrite shuffle.
- rewrite -/(multipliers l tn) hl trial_uE; move: hu; rewrite hd1.
  have [_ ->] := ab (acalc (nm nd) (px (pt nd) + 1 *: dx (dir nd)) (pu (pt nd) + 1 *: du (dir nd))) (px (pt nd) + 1 *: dx (dir nd)) (pu (pt nd) + 1 *: du (dir nd)).
  have [_ ->] := ab (mem nd) (px (pt nd)) (pu (pt nd)).
  have [_ ->] := g1 (acalc (nm nd) (px (pt nd) + 1 *: dx (dir nd)) (pu (pt nd) + 1 *: du (dir nd))) (px (pt nd) + 1 *: dx (dir nd)) (pu (pt nd) + 1 *: du (dir nd)).
  have [_ ->] := g1 (mem nd) (px (pt nd)) (pu (pt nd)).
  have [_ [-> ->]] := h1 (mem nd) (px (pt nd)) (pu (pt nd)).
  rewrite !scale1r raddf0 addr0 !mulmxDr => <-.
  by congr (_ + _); rewrite shuffle addrAC.
Qed.

(** the cost of the unit trial is the current cost plus the value of the
    subproblem at the direction *)
Lemma half3 (p q r : F) : (p + 2%:R * q + r) / 2%:R = p / 2%:R + q + r / 2%:R.
Proof. by rewrite [2%:R * q]mulrC 2!mulrDl mulfK // pnatr_eq0. Qed.
Lemma cost_node (nd : node) : lq_action (nm nd) -> fresh_node nd -> diffed_node nd ->
  (acost (nm nd) (trial_eval (1 : R E) nd) : F) = acost (nm nd) (mem nd) +
   @stage_cost F n (@sqp_stage F sq M 0 0 nd (0 : 'cV[F]_n)) (dx (dir nd)) (du (dir nd)).
Proof.
move=> [_ [Q [S [R0 [q [r [k [[sQ sR] hc hg hh]]]]]]]] hf hd.
have ex : (trial_x (1 : R E) nd : 'cV[F]_n) = (px (pt nd) : 'cV[F]_n) + 1 *: (dx (dir nd) : 'cV[F]_n) by [].
rewrite /trial_eval hf !hc trial_uE ex /stage_cost /= hd !scale1r.
have [-> ->] := hg (mem nd) (px (pt nd)) (pu (pt nd)).
have [-> [-> ->]] := hh (mem nd) (px (pt nd)) (pu (pt nd)).
move: (px (pt nd) : 'cV[F]_n) (pu (pt nd) : 'cV[F]_(nu (nm nd))) (dx (dir nd) : 'cV[F]_n) (du (dir nd) : 'cV[F]_(nu (nm nd))) => x u d v.
rewrite !quadE !dotE !raddf0 !addr0 !qf_addv // !mulmxDr !bfDl !bfDr.
have -> : bf (Q *m x) d = bf x (Q *m d) by rewrite bfMl sQ.
have -> : bf (R0 *m u) v = bf u (R0 *m v) by rewrite bfMl sR.
have -> : bf (S^T *m x) v = bf x (S *m v) by rewrite bfMl trmxK.
rewrite [bf (S *m u) d]bfC !half3.
move: (qf Q x / _) (bf x (Q *m d)) (qf Q d / _) (bf x (S *m u)) (bf x (S *m v)) (bf d (S *m u)) (bf d (S *m v))
  (qf R0 u / _) (bf u (R0 *m v)) (qf R0 v / _) (bf q x) (bf q d) (bf r u) (bf r v) => a1 a2 a3 a4 a5 a6 a7 a8 a9 b1 b2 b3 b4 b5.
by mcfold F; ring.
Qed.
Lemma cost_tnode (tn : tnode) : lq_terminal (tm tn) -> tme tn = tcalc (tm tn) (tx tn) ->
  tder tn = tdiff (tm tn) (tme tn) (tx tn) ->
  (tcost (tm tn) (trial_teval (1 : R E) tn) : F) = tcost (tm tn) (tme tn) +
   (quad (tLxx (tder tn) : 'M[F]_n) (tdx tn : 'cV[F]_n) / 2%:R + dot (tLx (tder tn) : 'cV[F]_n) (tdx tn : 'cV[F]_n)).
Proof.
move=> [Q [q [k [sQ hc hg hh]]]] hf hd.
have ex : (trial_tx (1 : R E) tn : 'cV[F]_n) = (tx tn : 'cV[F]_n) + 1 *: (tdx tn : 'cV[F]_n) by [].
rewrite /trial_teval hf !hc ex hd hg hh scale1r !quadE !dotE qf_addv // !bfDl !bfDr half3.
have -> : bf (Q *m tx tn) (tdx tn) = bf (tx tn : 'cV[F]_n) (Q *m tdx tn) by rewrite bfMl sQ.
move: (qf Q (tx tn) / _) (bf (tx tn) (Q *m tdx tn)) (qf Q (tdx tn) / _) (bf q (tx tn)) (bf q (tdx tn)) => a1 a2 a3 a4 a5.
by mcfold F; ring.
Qed.
Lemma cost_step (l : list node) (tn : tnode) (a0 a1 : F) :
  (forall nd, List.In nd l -> lq_action (nm nd)) -> lq_terminal (tm tn) ->
  List.Forall (@fresh_node E M) l -> List.Forall (@diffed_node E M) l ->
  tme tn = tcalc (tm tn) (tx tn) -> tder tn = tdiff (tm tn) (tme tn) (tx tn) -> lin_dyn l tn ->
  (List.fold_left (fun c nd => radd E c (acost (nm nd) (trial_eval (1 : R E) nd))) l (a0 + a1) : F)
     + tcost (tm tn) (trial_teval (1 : R E) tn) =
  List.fold_left (fun c nd => radd E c (acost (nm nd) (mem nd))) l (a0 : R E) + tcost (tm tn) (tme tn)
   + (a1 + lq_value (hd_dx l tn : 'cV[F]_n) (sqp_final (M := M) 0 tn) (own_controls (sqp_stages (M := M) false 0 0 l tn))).
Proof.
move=> ha ht hf hd h1 h2; elim: l a0 a1 ha hf hd => [|nd l IH] a0 a1 ha hf hd hl.
  rewrite /= cost_tnode // quadE raddf0 addr0 -quadE.
  by rewrite -!addrA; congr (_ + _); rewrite addrCA.
have hn := cost_node (ha nd (or_introl erefl)) (List.Forall_inv hf) (List.Forall_inv hd).
case: hl => hl1 hl2.
have {}IH b0 b1 := IH b0 b1 (fun m h => ha m (or_intror h)) (List.Forall_inv_tail hf) (List.Forall_inv_tail hd) hl2.
set b := acost (nm nd) (mem nd) : F.
set k := @stage_cost F n (@sqp_stage F sq M 0 0 nd (0 : 'cV[F]_n)) (dx (dir nd)) (du (dir nd)).
have := IH (a0 + b) (a1 + k).
cbn [List.fold_left]. 
rewrite -[radd E (a0 + a1) _]/(a0 + a1 + (acost (nm nd) (trial_eval (1 : R E) nd) : F)) hn -/b -/k addrACA => ->.
cbn [sqp_stages own_controls lq_value fst snd].
rewrite hl1; congr (_ + _); rewrite -addrA; reflexivity.
Qed.
End A.
