(** * Exact arithmetic: lemmas on one ADMM iteration (ADMMSpec.v). *)
From Coq Require Import Ring Field ZArith PeanoNat.
Set Warnings "-notation-overridden,-ambiguous-paths".
From mathcomp Require Import all_ssreflect all_algebra.
From Verif Require Import FieldTac Eigen EigenExact ExactLemmas Problem DDP SQP CSQP LQSpec SubQP Riccati PassExact
  QPSpec FastPass CSQPFrames ADMMSpec ADMMExact.

Set Implicit Arguments.
Unset Strict Implicit.
Unset Printing Implicit Defensive.

Import Order.TTheory GRing.Theory Num.Theory.
Local Open Scope ring_scope.

Section Iter.
Variable F : realFieldType.
Variable sq : F -> F.
Notation E := (ExactE sq).
Variable M : manifold E.
Notation n := (mndx M).
Notation node := (node M).
Notation tnode := (tnode M).
Variable c : ccfg E.
Add Field Ff7 : (F_field_theory F).
Notation sigma := (cc_sigma c : F).
Notation alpha := (cc_alpha c : F).

(** ** primal step *)
Lemma cb_nodes_val (preg dreg : R E) tn : forall (l : seq node) first,
  List.Forall2 (fun nd nd' : node => exists v, nd' = set_val nd v) l (snd (cb_nodes c preg dreg first l tn)).
Proof.
elim=> [|nd l IH] first /=; first by constructor.
have := IH false; case: (cb_nodes c preg dreg false l tn) => [[] r] /= h.
- constructor=> //. rewrite cb_nodeE /=. by eexists.
- constructor=> //. exists (val nd). by destruct nd.
Qed.
Lemma cfwd_primal tn : forall (l l' : seq node) e,
  List.Forall2 (fun nd nd' : node => exists v, nd' = set_val nd v) l l' ->
  List.Forall2 (@primal_node F sq M) l (fst (cfwd_nodes e l' tn)).
Proof.
move=> l l' e h; elim: h e => [|nd nd' l1 l2 [v ->] _ IH] e /=; first by constructor.
constructor=> //. exists v; rewrite /set_dxtut /=; by eexists _, _.
Qed.
Lemma primal_tnode_V (tn : tnode) A v d : primal_tnode tn (set_tdxt (set_tV tn A v) d).
Proof. by exists A, v, d. Qed.
Lemma cb_primal (preg dreg : R E) (t : traj M) :
  primal_step t (cforward (snd (cb_backward c preg dreg t))).
Proof.
rewrite /primal_step /cforward /cb_backward /=; split.
- apply: cfwd_primal; exact: cb_nodes_val.
- have [_ _ _ [dT ->]] := cfwd_hd (hd_dxt (snd (cb_nodes c preg dreg true (run t) (cb_term c preg (trm t)))) (cb_term c preg (trm t)))
     (snd (cb_nodes c preg dreg true (run t) (cb_term c preg (trm t)))) (cb_term c preg (trm t)).
  exact: primal_tnode_V.
Qed.
Lemma traj_sym_primal (t t' : traj M) : primal_step t t' -> traj_sym t <-> traj_sym t'.
Proof.
case=> H [A [v [d e]]]; split=> -[Hr Ht]; (split; last by move: Ht; rewrite e).
  elim: {e Ht} H Hr => //= a b l1 l2 [w [x [u ->]]] _ IH Hr nd [<-|h].
    by apply: (Hr a); left.
  by apply: IH h => m hm; apply: Hr; right.
elim: {e Ht} H Hr => //= a b l1 l2 [w [x [u ->]]] _ IH Hr nd [<-|h].
  by apply: (Hr _ (or_introl erefl)).
by apply: IH h => m hm; apply: Hr; right.
Qed.
Lemma cb_hd_dxt (preg dreg : R E) (t : traj M) :
  hd_dxt (run (snd (cb_backward c preg dreg t))) (trm (snd (cb_backward c preg dreg t))) = hd_dxt (run t) (trm t).
Proof.
rewrite /cb_backward /=; have := cb_nodes_val preg dreg (cb_term c preg (trm t)) (run t) true.
case: (run t) => [|nd l] //.
move: (snd (cb_nodes _ _ _ _ _ _)) => l'; move: (cb_term _ _ _) => tn h; move El: (nd :: l) h => l0 h.
by case: h El => // a b l1 l2 [v ->] _ _.
Qed.

Lemma cb_direction (preg dreg : R E) (t : traj M) : fst (cb_backward c preg dreg t) -> traj_sym t ->
  let t' := cforward (snd (cb_backward c preg dreg t)) in
  let gs := aug_gsts c preg dreg true (run t') (trm t') in
  let e := aug_final sigma preg (trm t') in
  [/\ ric_ok gs e, ric_pd gs e, gsym gs e & ric_sol (hd_dxt (run t) (trm t)) gs e].
Proof.
move=> hok hs t'. set tb := snd (cb_backward c preg dreg t).
set tn := cb_term c preg (trm t).
have el : cb_nodes c preg dreg true (run t) tn = (true, run tb).
  by rewrite {}/tb; move: hok; rewrite /cb_backward /=; case: (cb_nodes _ _ _ _ _ _) => [b r] /= ->.
have Ht : aterm_ok c preg tn by exact: cb_term_ok.
have st : tnode_sym tn by case: hs.
have [ok pd sy _] := cb_nodes_ok Ht st el hs.1.
have := @cfwd_nodes_ok F sq M c preg dreg tn Ht (run tb) true (hd_dxt (run t) (trm t)) ok pd sy.
rewrite {}/t' /cforward -/tb (cb_hd_dxt preg dreg t).
by have -> : trm tb = tn by [].
Qed.

(** ** dual step *)
Lemma max_std (a b : F) : @std_max E a b = Num.max a b.
Proof. by rewrite /std_max /= maxEle; case: ltgtP. Qed.
Lemma min_std (a b : F) : @std_min E a b = Num.min a b.
Proof. by rewrite /std_min /= minEle; case: ltgtP. Qed.
Lemma clamp_project (l u : option F) (g z : F) : @clamp_row E l u g z = project l u g z.
Proof. by rewrite /clamp_row /project; case: l => [a|]; case: u => [b|]; rewrite ?max_std ?min_std. Qed.
Lemma admm_rowsE m (lb ub : bvec E m) (g cd z y rho irho : vec E m) :
  let r := @admm_rows E c m lb ub g cd z y rho irho in
  fst (fst r) = @relaxed F m alpha cd z /\
  snd (fst r) = @new_z F m lb ub alpha g cd z y irho /\
  snd r = @new_y F m lb ub alpha g cd z y rho irho.
Proof.
rewrite /admm_rows /=; split=> //.
have e : @clamp E m lb ub g (vadd E (vadd E (vscale E alpha cd) (vscale E (1 - alpha) z)) (@cmul E m y irho))
       = @new_z F m lb ub alpha g cd z y irho.
  rewrite /clamp /new_z /cmul /=; apply/matrixP => i j; rewrite !mxE clamp_project /=.
  by rewrite ?mxE.
rewrite -e; split=> //.
by rewrite /new_y -e /cmul /relaxed; congr (_ + _); apply/matrixP => i j; rewrite /had !mxE.
Qed.
Lemma admm_dual_node (nd : node) : dual_node alpha nd (admm_node c nd).
Proof.
rewrite /admm_node; case e: (Nat.eqb _ _).
- have k0 : ng (nm nd) = 0%N by apply/Nat.eqb_eq.
  exists (azp (adm nd)), (azr (adm nd)), (arho (adm nd)), (airho (adm nd)); rewrite /set_dir.
  have -> : node_z alpha nd = az (adm nd) by apply: rows0.
  have -> : node_y alpha nd = ay (adm nd) by apply: rows0.
  by case: (adm nd).
- have [h1 [h2 h3]] := @admm_rowsE (ng (nm nd)) (alb (nm nd)) (aub (nm nd)) (ag (nm nd) (mem nd)) (node_Cd nd)
    (az (adm nd)) (ay (adm nd)) (arho (adm nd)) (airho (adm nd)).
  rewrite h1 h2 h3. by eexists _, _, _, _.
Qed.
Lemma admm_dual_tnode (tn : tnode) : dual_tnode alpha tn (admm_tnode c tn).
Proof.
rewrite /admm_tnode; case e: (Nat.eqb _ _).
- have k0 : tng (tm tn) = 0%N by apply/Nat.eqb_eq.
  exists (tazp tn), (tazr tn), (tarho tn), (tairho tn); rewrite /set_tdx.
  have -> : tnode_z alpha tn = taz tn by apply: rows0.
  have -> : tnode_y alpha tn = tay tn by apply: rows0.
  by [].
- have [h1 [h2 h3]] := @admm_rowsE (tng (tm tn)) (tlb (tm tn)) (tub (tm tn)) (tg (tm tn) (tme tn)) (tnode_Cd tn)
    (taz tn) (tay tn) (tarho tn) (tairho tn).
  rewrite h1 h2 h3. by eexists _, _, _, _.
Qed.
Lemma admm_dual (t : traj M) :
  dual_step alpha t (mkTraj (List.map (admm_node c) (run t)) (admm_tnode c (trm t))).
Proof.
split; last exact: admm_dual_tnode.
elim: (run t) => [|nd l IH] /=; constructor=> //; exact: admm_dual_node.
Qed.
Lemma dual_rho r (t t' : traj M) : dual_step alpha t t' -> dual_step alpha t (apply_rho c r t').
Proof.
case=> h1 [zp [zr [q [iq e]]]]; split; last by rewrite /= /rho_tnode e; eexists zp, zr, _, _.
rewrite /=; elim: h1 => [|nd nd' l l' [zp' [zr' [q' [iq' ->]]]] _ IH] /=; constructor=> //.
by eexists zp', zr', _, _.
Qed.

(** ** the stationarity defect *)
Lemma hadD m (r v w : 'cV[F]_m) : had r (v + w) = had r v + had r w.
Proof. by apply/matrixP => i j; rewrite !mxE mulrDr. Qed.
Lemma hadN m (r v : 'cV[F]_m) : had r (- v) = - had r v.
Proof. by apply/matrixP => i j; rewrite !mxE mulrN. Qed.
Lemma hadZ m (r v : 'cV[F]_m) k : had r (k *: v) = k *: had r v.
Proof. by apply/matrixP => i j; rewrite !mxE mulrCA. Qed.
Lemma diag_had m (r v : 'cV[F]_m) : diag_mx r^T *m v = had r v.
Proof. by rewrite mul_diag_mx; apply/matrixP => i j; rewrite !mxE (ord1 j). Qed.
(** y + rho (Cd - z) = y' + residual *)
Lemma y_res m (lo hi : 'cV[option F]_m) (g Cd z y rho irho : 'cV[F]_m) :
  y - had rho z + had rho Cd = new_y lo hi alpha g Cd z y rho irho + mixed_res lo hi alpha g Cd z y rho irho.
Proof.
rewrite /new_y /mixed_res; move: (new_z _ _ _ _ _ _ _ _) => nz.
rewrite /relaxed; apply/matrixP => i j; rewrite !mxE; move: (y i j) (rho i j) (Cd i j) (z i j) (nz i j) (alpha) => y' r d z' w a.
by mcfold F; ring.
Qed.
Lemma gram_had m p q (r : 'cV[F]_m) (G1 : 'M[F]_(m, p)) (G2 : 'M[F]_(m, q)) (v : 'cV[F]_q) :
  gram r G1 G2 *m v = G1^T *m had r (G2 *m v).
Proof. by rewrite /gram -!mulmxA diag_had. Qed.
Lemma gramT m p q (r : 'cV[F]_m) (G1 : 'M[F]_(m, p)) (G2 : 'M[F]_(m, q)) : (gram r G1 G2)^T = gram r G2 G1.
Proof. by rewrite /gram !trmx_mul trmxK tr_diag_mx mulmxA. Qed.
Lemma it_sl (preg dreg : R E) first (l : seq node) (tn : tnode) :
  next_l (it_stages alpha sigma preg dreg first l tn) (it_final alpha sigma preg tn) =
  next_l (aug_stages sigma preg dreg first l tn) (aug_final sigma preg tn).
Proof. by case: l. Qed.
Lemma defect_u p q k (L B : 'cV[F]_p) (s0 dr : F) (du u : 'cV[F]_p) (x : 'cV[F]_q) (r w y' res : 'cV[F]_k)
    (Gx : 'M[F]_(k, q)) (Gu : 'M[F]_(k, p)) (H : 'M[F]_p) (S : 'M[F]_(q, p)) :
  w + had r (Gx *m x + Gu *m u) = y' + res ->
  L - s0 *: du + Gu^T *m w + (H + s0%:M + gram r Gu Gu + dr%:M) *m u + (S + gram r Gx Gu)^T *m x + B =
  L + Gu^T *m y' + (s0 *: (u - du) + Gu^T *m res) + (H + dr%:M) *m u + S^T *m x + B.
Proof.
move=> e; have {e} -> : w = y' + res - had r (Gx *m x) - had r (Gu *m u) by rewrite -e hadD -addrA -opprD addrK.
rewrite [(S + _)^T]linearD /= gramT !mulmxDl !gram_had !mul_scalar_mx scalerBr !(mulmxDr, mulmxN).
vabel F.
Qed.
Lemma defect_x p q k (L B : 'cV[F]_q) (s0 pr : F) (dx x : 'cV[F]_q) (u : 'cV[F]_p) (r w y' res : 'cV[F]_k)
    (Gx : 'M[F]_(k, q)) (Gu : 'M[F]_(k, p)) (H : 'M[F]_q) (S : 'M[F]_(q, p)) :
  Gx^T *m (w + had r (Gx *m x + Gu *m u)) = Gx^T *m (y' + res) ->
  L - s0 *: dx + Gx^T *m w + (H + s0%:M + gram r Gx Gx + pr%:M) *m x + (S + gram r Gx Gu) *m u + B =
  L + Gx^T *m y' + (s0 *: (x - dx) + Gx^T *m res) + (H + pr%:M) *m x + S *m u + B.
Proof.
rewrite hadD !mulmxDr => e; have {e} -> : Gx^T *m w = Gx^T *m y' + Gx^T *m res - Gx^T *m had r (Gx *m x) - Gx^T *m had r (Gu *m u).
  by rewrite -e -[_ - _ - _]addrA -opprD addrK.
rewrite !mulmxDl !gram_had !mul_scalar_mx scalerBr.
vabel F.
Qed.
Lemma it_kkt (preg dreg : R E) (tn : tnode) : forall (l : seq node) first (d : 'cV[F]_n),
  (first : bool) = false \/ d = 0 ->
  lq_kkt d (aug_stages sigma preg dreg first l tn) (aug_final sigma preg tn) ->
  lq_kkt d (it_stages alpha sigma preg dreg first l tn) (it_final alpha sigma preg tn).
Proof.
elim=> [|nd l IH] first d hd.
  case=> h1 h2; split; first exact: h1.
  rewrite -[RHS]h2 /=; symmetry.
  have e : (tay tn : 'cV[F]_(tng (tm tn))) - had (tarho tn) (taz tn) + had (tarho tn) (row_Cd_t tn)
     = tnode_y alpha tn + tnode_res alpha tn by exact: y_res.
  have := @defect_x 0 n (tng (tm tn)) (tLx (tder tn)) 0 sigma preg (tdx tn) (tdxt tn) 0 (tarho tn) _ _ _ (tGx (tder tn)) 0 (tLxx (tder tn)) 0.
  by move=> h; have := h _ _ _ (congr1 _ (etrans (congr1 _ (congr1 _ (etrans (congr1 _ (mul0mx _ _)) (addr0 _)))) e)); rewrite !mulmx0 !addr0.
case=> h1 h2 h3 h4.
have ex : (eGx first nd *m (dxt (adm nd) : 'cV[F]_n)) = (Gx (der nd) : 'M[F]_(_, n)) *m (dxt (adm nd) : 'cV[F]_n).
  by case: hd => [->|d0] //; move: h1 => /= ->; rewrite d0 !mulmx0.
have e : aug_w nd + had (arho (adm nd)) (eGx first nd *m (dxt (adm nd) : 'cV[F]_n) + (Gu (der nd) : 'M[F]_(_, nu (nm nd))) *m (dut (adm nd) : 'cV[F]_(nu (nm nd))))
   = node_y alpha nd + node_res alpha nd by rewrite ex; exact: y_res.
split.
- exact: h1.
- rewrite it_sl -[RHS]h2; symmetry; exact: defect_u e.
- rewrite it_sl -[RHS]h3; symmetry; apply: defect_x; by rewrite e.
- apply: IH; [by left|exact: h4].
Qed.

(** ** projection and complementarity *)
Lemma project_compl (lo hi : option F) (g v : F) : ordered lo hi ->
  [/\ in_box lo hi g (project lo hi g v),
      project lo hi g v < v -> exists b, hi = Some b /\ project lo hi g v = b - g
    & v < project lo hi g v -> exists b, lo = Some b /\ project lo hi g v = b - g].
Proof.
rewrite /ordered /project /in_box.
case: lo => [a|]; case: hi => [b|] /= hab.
- have hab' : a - g <= b - g by rewrite ler_sub.
  rewrite maxEle minEle; case: (leP v (a - g)) => h1.
  + rewrite hab'; split.
    * by split=> x [<-].
    * by rewrite ltNge h1.
    * by move=> _; exists a.
  + case: (leP v (b - g)) => h2.
    * split; rewrite ?ltxx //; split=> x [<-] //; exact: ltW.
    * split; [by split=> x [<-]|by move=> _; exists b|by rewrite ltNge (ltW h2)].
- rewrite maxEle; case: (leP v (a - g)) => h1.
  + split; [by split=> x // [<-]|by rewrite ltNge h1|by move=> _; exists a].
  + split; rewrite ?ltxx //; split=> x // [<-]; exact: ltW.
- rewrite minEle; case: (leP v (b - g)) => h1.
  + split; [by split=> [x|x [<-]]|by rewrite ltxx|by rewrite ltxx].
  + split; [by split=> x // [<-]|by move=> _; exists b|by rewrite ltNge (ltW h1)].
- by split; rewrite ?ltxx.
Qed.
Lemma rows_compl m (lo hi : 'cV[option F]_m) (g Cd z y rho irho : 'cV[F]_m) i :
  ordered (lo i 0) (hi i 0) -> 0 < rho i 0 -> irho i 0 = (rho i 0)^-1 ->
  complementary (lo i 0) (hi i 0) (g i 0) (new_z lo hi alpha g Cd z y irho i 0)
    (new_y lo hi alpha g Cd z y rho irho i 0).
Proof.
move=> ho r0 ir.
set v := relaxed alpha Cd z i 0 + y i 0 * irho i 0.
have ez : new_z lo hi alpha g Cd z y irho i 0 = project (lo i 0) (hi i 0) (g i 0) v by rewrite mxE.
have ey : new_y lo hi alpha g Cd z y rho irho i 0 = rho i 0 * (v - project (lo i 0) (hi i 0) (g i 0) v).
  have -> : new_y lo hi alpha g Cd z y rho irho i 0 =
     y i 0 + rho i 0 * (relaxed alpha Cd z i 0 - new_z lo hi alpha g Cd z y irho i 0) by rewrite !mxE.
  rewrite ez /v ir mulrBr mulrBr mulrDr mulrCA divff ?gt_eqF // mulr1.
  by rewrite addrA [y i 0 + _]addrC.
rewrite ez ey; have [h1 h2 h3] := project_compl (g i 0) v ho.
split=> //.
- by rewrite pmulr_rgt0 // subr_gt0.
- by rewrite pmulr_rlt0 // subr_lt0.
Qed.
End Iter.
