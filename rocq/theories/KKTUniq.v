(** * The matrix of SolverKKT is nonsingular on convex problems. *)
From Coq Require Import Ring Field ZArith List Arith.
Set Warnings "-notation-overridden,-ambiguous-paths".
From mathcomp Require Import all_ssreflect all_algebra.
From Verif Require Import FieldTac Eigen EigenExact ExactLemmas Problem LQSpec Riccati LQHom SsrLia Init Flat Models KKT KKTSpec KKTSys P_Direction.

Set Implicit Arguments.
Unset Strict Implicit.
Unset Printing Implicit Defensive.

Import Order.TTheory GRing.Theory Num.Theory.
Local Open Scope ring_scope.

Section N.
Variable F : realFieldType.
Variable sq : F -> F.
Notation E := (ExactE sq).
Variable M : manifold E.
Notation n := (mndx M).
Notation node := (node M).
Notation tnode := (tnode M).
Notation M' := (euclid E n).

(** the node with the same matrices and no affine data *)
Definition hmodel (m : amodel M) : amodel M' :=
  @mkAmodel E M' (nu m) (ng m) 0 unit (fun _ _ => tt) (fun _ => tt) (fun _ => 0) (fun _ => (0 : 'cV[F]_n)) (fun _ => vzero E)
    (fun _ _ _ => @mkDerivs E M' (nu m) (ng m) (vzero E) (vzero E) (mzero E) (mzero E) (mzero E) (mzero E) (mzero E) (mzero E) (mzero E))
    (alb m) (aub m).
Definition htmodel (m : tmodel M) : tmodel M' :=
  @mkTmodel E M' (tng m) 0 unit (fun _ => tt) (fun _ => 0) (fun _ => vzero E)
    (fun _ _ => @mkTderivs E M' (tng m) (vzero E) (mzero E) (mzero E)) (tlb m) (tub m).
Definition hnode (nd : node) : Problem.node M' :=
  @new_node E M' (0 : 'cV[F]_n) (@mkSlot E M' (hmodel (nm nd)) tt
    (@mkDerivs E M' (nu (nm nd)) (ng (nm nd)) (vzero E) (vzero E) (Lxx (der nd)) (Lxu (der nd)) (Luu (der nd)) (Fx (der nd)) (Fu (der nd)) (Gx (der nd)) (Gu (der nd)))
    (vzero E) (vzero E)).
Definition htnode (tn : tnode) : Problem.tnode M' :=
  @new_tnode E M' (@mkTslot E M' (htmodel (tm tn)) tt (@mkTderivs E M' (tng (tm tn)) (vzero E) (tLxx (tder tn)) (tGx (tder tn))) (vzero E) (vzero E)).

Lemma hsum l : sum_nu (map hnode l) = sum_nu l. Proof. by elim: l => //= a l ->. Qed.
Lemma hlen l : all_x (map hnode l) = all_x l. Proof. by rewrite /all_x /= List.map_length. Qed.
Lemma hdims l : dims (map hnode l) = dims l. Proof. by elim: l => //= a l ->. Qed.
Lemma hfill wX wU ix iu l tn K q q' :
  fst (kk_fill wX wU ix iu (map hnode l) (htnode tn) K q) = fst (kk_fill wX wU ix iu l tn K q').
Proof. by elim: l ix iu K q q' => //= nd l IH ix iu K q q'; exact: IH. Qed.
Lemma wrv0 i m (q : vbuf F) : (forall j, q j = 0) -> forall j, wrv i (0 : 'cV[F]_m) q j = 0.
Proof.
move=> h j; rewrite /wrv /wrs; case: (inr _ _ _) => //; rewrite /entv.
by case: insub => // o; rewrite mxE.
Qed.
Lemma hd0 l tn : hd_x (map hnode l) (htnode tn) = (0 : 'cV[F]_n).
Proof. by case: l. Qed.
Lemma hfill0 wX wU ix iu l tn K q : (forall j, q j = 0) -> forall j, snd (kk_fill wX wU ix iu (map hnode l) (htnode tn) K q) j = 0.
Proof.
elim: l ix iu K q => [|nd l IH] ix iu K q hq j /=; first exact: wrv0.
apply: IH => {}j; apply: (_ : forall v : 'cV[F]_n, v = 0 -> wrv _ v _ j = 0); last by rewrite hd0 /= subr0.
by move=> _ ->; apply: wrv0; apply: wrv0; apply: wrv0.
Qed.
(** the homogeneous stages *)
Lemma hom_stages wX wU ix iu p l tn :
  let e := kk_extract wX (wX + wU)%N ix iu p (map hnode l) (htnode tn) in
  lq_hom (kkt_stages e.1 e.2) (kkt_final e.2).
Proof.
elim: l ix iu => [|nd l IH] ix iu; [by []|cbv zeta; cbn [map kk_extract fst snd kkt_stages lq_hom]; split; [by []|by []| |exact: (IH (ix + n)%N (iu + nu (nm nd))%N)]].
by rewrite extract_hd_x hd0 /= subrr oppr0.
Qed.
Definition pos_Luu (l : seq node) : Prop := forall nd, List.In nd l ->
  forall u : 'cV[F]_(nu (nm nd)), u != 0 -> 0 < quad (Luu (der nd) : 'M[F]_(nu (nm nd))) u.
Lemma conv_stages wX w ix iu p l tn :
  traj_convex (mkTraj l tn) -> pos_Luu l ->
  let e := kk_extract wX w ix iu p (map hnode l) (htnode tn) in
  lq_convex (kkt_stages e.1 e.2) (kkt_final e.2).
Proof.
elim: l ix iu => [|nd l IH] ix iu [cv ct] pL //=; split.
- exact: (cv nd (or_introl erefl)).
- exact: (pL nd (or_introl erefl)).
- by apply: IH => [|m hm]; [split=> // m hm; apply: cv; right | apply: pL; right].
Qed.
Lemma zero_segs wX w ix iu (p : vbuf F) l tn : 
  let e := kk_extract wX w ix iu p (map hnode l) (htnode tn) in
  lq_zero (kkt_stages e.1 e.2) (kkt_final e.2) ->
  [/\ forall i, (ix <= i)%N && (i < ix + n * (size l).+1)%N -> p i = 0,
      forall i, (wX + iu <= i)%N && (i < wX + iu + sum_nu l)%N -> p i = 0
    & forall i, (w + ix <= i)%N && (i < w + ix + n * (size l).+1)%N -> p i = 0].
Proof.
have sg m a : seg m p a = 0 -> forall i, (a <= i)%N && (i < a + m)%N -> p i = 0.
  by move=> h; apply/range_ord => o; have := congr1 (fun v : 'cV[F]_m => v o 0) h; rewrite !mxE.
elim: l ix iu => [|nd l IH] ix iu /=.
  move=> [h1 h2]; rewrite muln1; split; [exact: sg h1 | by slia |].
  by apply: sg; apply/eqP; rewrite -oppr_eq0; apply/eqP.
move=> [hx hu hl /IH [i1 i2 i3]]; move/eqP: hl; rewrite oppr_eq0 => /eqP hl.
rewrite mulnS; split=> i hi.
- by case: (ltnP i (ix + n)) => h; [apply: (sg _ _ hx)|apply: i1]; slia.
- by case: (ltnP i (wX + iu + nu (nm nd))) => h; [apply: (sg _ _ hu)|apply: i2]; slia.
- by case: (ltnP i (w + ix + n)) => h; [apply: (sg _ _ hl)|apply: i3]; slia.
Qed.

Lemma kernel0 m (A : 'M[F]_m) : (forall v : 'cV[F]_m, A *m v = 0 -> v = 0) -> A \in unitmx.
Proof.
move=> h; rewrite -unitmx_tr -row_free_unit -kermx_eq0; apply/eqP/row_matrixP => i; rewrite row0.
apply: trmx_inj; rewrite trmx0; apply: h.
by apply: trmx_inj; rewrite trmx_mul trmxK trmx0 -row_mul mulmx_ker row0.
Qed.

Lemma convex_unit x0 l tn K q :
  traj_convex (mkTraj l tn) -> pos_Luu l -> kk_zeros M (dims l) (all_x l) K ->
  let r := kk_fill (all_x l) (sum_nu l) 0 0 l tn (kk_ident (all_p l) (all_x l) K) (wrv (all_x l + sum_nu l)%N (diff M x0 (hd_x l tn) : 'cV[F]_n) q) in
  as_mx (all_pd l) (kk_mirror (all_p l) (all_x l) r.1) \in unitmx.
Proof.
move=> cv pL hz; cbv zeta; set r := kk_fill _ _ _ _ _ _ _ _; apply: kernel0 => v hv.
pose p : vbuf F := entv v.
have ev : v = as_cv (all_pd l) p by apply/matrixP => i j; rewrite ord1 mxE /p entv_ord.
have hz' : kk_zeros M' (dims (map hnode l)) (all_x (map hnode l)) K by rewrite hdims hlen.
have := @system_iff F sq M' (0 : 'cV[F]_n) (map hnode l) (htnode tn) K (fun _ => 0) hz' p.
cbv zeta; rewrite hlen hsum.
set q1 := wrv _ _ _; set r' := kk_fill _ _ _ _ _ _ _ _.
have q10 j : q1 j = 0 by rewrite /q1 hd0 /= subrr; apply: wrv0.
have e1 : r'.1 = r.1 by exact: hfill.
have e2 : as_cv (all_p l + all_x l) r'.2 = 0 :> 'cV[F]_(all_p l + all_x l).
  by apply/matrixP => i j; rewrite !mxE; apply: hfill0.
rewrite e1 e2 oppr0 => -[h _].
have := h; rewrite -ev => /(_ hv); rewrite /direction_solves; cbn [run trm]; rewrite extract_hd_x hd0 /= subrr oppr0 => hk.
have := zero_segs (convex_zero (hom_stages _ _ _ _ _ _ _) (conv_stages _ _ _ _ _ cv pL) hk).
rewrite ev => -[h1 h2 h3]; apply/matrixP => i j; rewrite !mxE; have hi := ltn_ord i.
case: (ltnP i (all_x l)) => a1; first by apply: h1.
case: (ltnP i (all_p l)) => a2; first by apply: h2; rewrite /all_p in a2; slia.
have ex : all_x l = (n * (size l).+1)%N by [].
apply: h3; rewrite -ex; move: (nat_of_ord i) hi a1 a2 => i'; rewrite /all_pd /all_p; slia.
Qed.
End N.
