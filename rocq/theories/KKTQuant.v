(** * What expectedImprovement and stoppingCriteria of SolverKKT compute. *)
From Coq Require Import Ring Field ZArith List Arith.
Set Warnings "-notation-overridden,-ambiguous-paths".
From mathcomp Require Import all_ssreflect all_algebra.
From Verif Require Import FieldTac Eigen EigenExact ExactLemmas Problem SsrLia Init Flat Riccati KKT KKTSpec KKTSys KKTHist KKTRunSpec.

Set Implicit Arguments.
Unset Strict Implicit.
Unset Printing Implicit Defensive.

Import Order.TTheory GRing.Theory Num.Theory.
Local Open Scope ring_scope.

Section Q.
Variable F : realFieldType.
Variable sq : F -> F.
Notation E := (ExactE sq).
Variable M : manifold E.
Notation n := (mndx M).
Notation node := (node M).
Notation tnode := (tnode M).
Add Field FfKQ : (F_field_theory F).

Lemma xdotE m (u v : 'cV[F]_m) : xdot u v = dotp u v.
Proof. by rewrite /xdot mxE; apply: eq_bigr => i _; rewrite mxE. Qed.

Section Layout.
Variables (wX wU : nat).
Let w := (wX + wU)%N.
(** sum over the x-rows from ix and the u-rows from iu, node by node *)
Fixpoint blocks (g : nat -> F) (ix iu : nat) (l : seq node) : F :=
  match l with
  | [::] => \sum_(o < n) g (ix + o)%N
  | nd :: l' => \sum_(o < n) g (ix + o)%N + \sum_(o < nu (nm nd)) g (wX + iu + o)%N + blocks g (ix + n)%N (iu + nu (nm nd))%N l'
  end.
Lemma range_sum (g : nat -> F) a m : \sum_(a <= i < a + m) g i = \sum_(o < m) g (a + o)%N.
Proof. by rewrite -{1}[a]add0n big_addn addKn big_mkord; apply: eq_bigr => i _; rewrite addnC. Qed.
Lemma blocksP (g : nat -> F) ix iu l : (ix + n * (size l).+1)%N = wX -> (iu + sum_nu l)%N = wU ->
  \sum_(ix <= i < wX) g i + \sum_((wX + iu)%N <= i < w) g i = blocks g ix iu l.
Proof.
elim: l ix iu => [|nd l IH] ix iu h1 h2.
  rewrite /= addn0 in h2; rewrite /w h2 [X in _ + X]big_geq // addr0 /= -range_sum.
  by rewrite -{1}h1 muln1.
rewrite /= -(IH (ix + n)%N (iu + nu (nm nd))%N); [|by rewrite -h1 /= !mulnS; slia|by rewrite -h2 /=; slia].
have hX : (ix + n <= wX)%N by rewrite -h1 /= mulnS; slia.
have hU : (iu + nu (nm nd) <= wU)%N by rewrite -h2 /=; slia.
rewrite (big_cat_nat _ _ _ (leq_addr n ix) hX) /=.
rewrite (@big_cat_nat _ _ _ (wX + iu + nu (nm nd))%N (wX + iu)%N w) /=; [|slia|by rewrite /w; slia].
rewrite !range_sum !addnA.
by rewrite addrACA.
Qed.
Lemma total (g : nat -> F) : \sum_(i < w) g (i : nat) = \sum_(0 <= i < wX) g i + \sum_((wX + 0)%N <= i < w) g i.
Proof. by rewrite -(big_mkord xpredT g) (@big_cat_nat _ _ _ wX) ?addn0 //= /w; slia. Qed.

Variable p : vbuf F.
Lemma dot_seg m (v : 'cV[F]_m) a (g : nat -> F) : (forall o : 'I_m, g (a + o)%N = v o 0) ->
  \sum_(o < m) g (a + o)%N * p (a + o)%N = dotp v (seg m p a).
Proof. by move=> h; apply: eq_bigr => o _; rewrite h segE. Qed.

Lemma fill_quant ix iu (l : seq node) (tn : tnode) K q :
  (ix + n * (size l).+1)%N = wX -> (iu + sum_nu l)%N = wU -> clean M wX wU ix iu K ->
  let r := kk_fill wX wU ix iu l tn K q in
  let e := kk_extract wX w ix iu p l tn in
  blocks (fun i => r.2 i * p i) ix iu l = slope e.1 e.2 /\
  blocks (fun i => prow wX wU r.1 p i * p i) ix iu l = curvature e.1 e.2.
Proof.
elim: l ix iu K q => [|nd l IH] ix iu K q h1 h2 hc.
  have [hX hU hD] := hc; rewrite muln1 in h1; rewrite /= in h2; rewrite addn0 in h2.
  cbv zeta; rewrite /=; set K' := wrm _ _ _ _; set q' := wrv _ _ _.
  have row (o : 'I_n) : prow wX wU K' p (ix + o) = ((tLxx (tder tn) : 'M[F]_n) *m seg n p ix) o 0.
    rewrite mul_seg; apply: sum_one; first by slia.
    move=> c hcw; have ho := ltn_ord o; rewrite /K' /wrm wrb_row_in; last by slia.
    by case: (inr _ _ _) => //; rewrite hX //; slia.
  have qq (o : 'I_n) : q' (ix + o)%N = (tLx (tder tn) : 'cV[F]_n) o 0.
    by rewrite /q' /wrv wrs_in ?entv_ord //; have := ltn_ord o; slia.
  by split; apply: (dot_seg (g := _)).
set K1 := wrm (w + n + ix) (wX + iu) (- (Fu (der nd) : 'M[F]_(n, nu (nm nd))))
    (wrm (w + n + ix) ix (- (Fx (der nd) : 'M[F]_n))
      (wrm (wX + iu) (wX + iu) (Luu (der nd) : 'M[F]_(nu (nm nd)))
        (wrm (wX + iu) ix ((Lxu (der nd) : 'M[F]_(n, nu (nm nd)))^T)
          (wrm ix (wX + iu) (Lxu (der nd) : 'M[F]_(n, nu (nm nd))) (wrm ix ix (Lxx (der nd) : 'M[F]_n) K))))).
set k := nu (nm nd) in h2 *.
have h1' : (ix + n + n * (size l).+1)%N = wX by move: h1; rewrite mulnS /=; slia.
have h2' : (iu + k + sum_nu l)%N = wU by move: h2; rewrite /=; slia.
have hnn : (n <= n * (size l).+1)%N by rewrite mulnS; slia.
have hc1 : clean M wX wU (ix + n) (iu + k) K1 by apply: clean_step => //; slia.
have rX := @node_rowX F sq M wX wU nd l tn ix iu K q p h1 h2 hc.
have rU := @node_rowU F sq M wX wU nd l tn ix iu K q p h1 h2 hc.
cbv zeta.
set r := kk_fill wX wU ix iu (nd :: l) tn K q in rX rU *.
set q1 : vbuf F :=
  wrv (w + n + ix) (diff M (axnext (nm nd) (mem nd)) (hd_x l tn) : 'cV[F]_n)
    (wrv (wX + iu) (Lu (der nd) : 'cV[F]_k) (wrv ix (Lx (der nd) : 'cV[F]_n) q)).
have er : r = kk_fill wX wU (ix + n) (iu + k) l tn K1 q1 by [].
have [i1 i2] := IH (ix + n)%N (iu + k)%N K1 q1 h1' h2' hc1; rewrite -er in i1 i2.
cbn [blocks kk_extract fst snd slope curvature dir der dx du]; rewrite -/k i1 i2; split; congr (_ + _ + _).
- by apply: (@dot_seg _ _ ix r.2) => o; have [_ ->] := rX o.
- by apply: (@dot_seg _ _ (wX + iu)%N r.2) => o; have [_ ->] := rU o.
- by apply: (@dot_seg _ _ ix (prow wX wU r.1 p)) => o; have [-> _] := rX o; rewrite addmxE.
- by apply: (@dot_seg _ _ (wX + iu)%N (prow wX wU r.1 p)) => o; have [-> _] := rU o; rewrite addmxE.
Qed.

(** *** stoppingCriteria *)
Lemma dF_out ix iu (l : seq node) (tn : tnode) q i : (ix + n * (size l).+1 <= wX)%N ->
  (i < ix)%N \/ (wX <= i)%N && (i < wX + iu)%N -> kk_dF wX ix iu l tn q i = q i.
Proof.
elim: l ix iu q => [|nd l IH] ix iu q h hi /=.
  by rewrite /wrv wrs_out //; move: h; rewrite muln1; slia.
have h' : (ix + n + n * (size l).+1 <= wX)%N by move: h; rewrite /= mulnS; slia.
rewrite IH //; last by slia.
rewrite /wrv !wrs_out //; slia.
Qed.
Lemma sq_dot m (v : 'cV[F]_m) a (g : nat -> F) : (forall o : 'I_m, g (a + o)%N = v o 0) ->
  \sum_(o < m) g (a + o)%N * g (a + o)%N = dotp v v.
Proof. by move=> h; apply: eq_bigr => o _; rewrite h. Qed.
Lemma fill_lagr ix iu (l : seq node) (tn : tnode) K q q' :
  (ix + n * (size l).+1)%N = wX -> (iu + sum_nu l)%N = wU -> clean M wX wU ix iu K ->
  let r := kk_fill wX wU ix iu l tn K q in
  let e := kk_extract wX w ix iu p l tn in
  blocks (fun i => (r.2 i + kk_dF wX ix iu e.1 e.2 q' i) * (r.2 i + kk_dF wX ix iu e.1 e.2 q' i)) ix iu l = lagrangian_sq e.1 e.2.
Proof.
elim: l ix iu K q q' => [|nd l IH] ix iu K q q' h1 h2 hc.
  cbv zeta; rewrite /=; apply: (@sq_dot _ _ ix (fun i => wrv ix _ q i + wrv ix _ q' i)) => o.
  rewrite addmxE; have ho := ltn_ord o; congr (_ + _); by rewrite /wrv wrs_in ?entv_ord //; slia.
set K1 := wrm (w + n + ix) (wX + iu) (- (Fu (der nd) : 'M[F]_(n, nu (nm nd))))
    (wrm (w + n + ix) ix (- (Fx (der nd) : 'M[F]_n))
      (wrm (wX + iu) (wX + iu) (Luu (der nd) : 'M[F]_(nu (nm nd)))
        (wrm (wX + iu) ix ((Lxu (der nd) : 'M[F]_(n, nu (nm nd)))^T)
          (wrm ix (wX + iu) (Lxu (der nd) : 'M[F]_(n, nu (nm nd))) (wrm ix ix (Lxx (der nd) : 'M[F]_n) K))))).
set k := nu (nm nd) in h2 *.
have h1' : (ix + n + n * (size l).+1)%N = wX by move: h1; rewrite mulnS /=; slia.
have h2' : (iu + k + sum_nu l)%N = wU by move: h2; rewrite /=; slia.
have hnn : (n <= n * (size l).+1)%N by rewrite mulnS; slia.
have hc1 : clean M wX wU (ix + n) (iu + k) K1 by apply: clean_step => //; slia.
have rX := @node_rowX F sq M wX wU nd l tn ix iu K q p h1 h2 hc.
have rU := @node_rowU F sq M wX wU nd l tn ix iu K q p h1 h2 hc.
cbv zeta.
set r := kk_fill wX wU ix iu (nd :: l) tn K q in rX rU *.
set q1 : vbuf F :=
  wrv (w + n + ix) (diff M (axnext (nm nd) (mem nd)) (hd_x l tn) : 'cV[F]_n)
    (wrv (wX + iu) (Lu (der nd) : 'cV[F]_k) (wrv ix (Lx (der nd) : 'cV[F]_n) q)).
have er : r = kk_fill wX wU (ix + n) (iu + k) l tn K1 q1 by [].
have := IH (ix + n)%N (iu + k)%N K1 q1 _ h1' h2' hc1; rewrite -er => {}IH.
cbn [kk_extract fst snd].
set e := kk_extract wX w (ix + n) (iu + nu (nm nd)) p l tn.
have se : size e.1 = size l by rewrite /e; elim: (l) (ix + n)%N (iu + nu (nm nd))%N => //= a b ih *; rewrite ih.
cbn [kk_dF]; cbn [nm dir set_dir lam der]; rewrite -/k.
set q2 := wrv (wX + iu) _ _; set g := kk_dF _ _ _ _ _ q2.
have gX (o : 'I_n) : g (ix + o)%N = ((seg n p (w + ix) : 'cV[F]_n) - (Fx (der nd) : 'M[F]_n)^T *m hd_lam e.1 e.2) o 0.
  have ho := ltn_ord o; rewrite /g dF_out ?se; [|slia|left; slia].
  by rewrite /q2 /wrv wrs_out; [rewrite wrs_in ?entv_ord //; slia|slia].
have gU (o : 'I_k) : g (wX + iu + o)%N = (- ((Fu (der nd) : 'M[F]_(n, k))^T *m hd_lam e.1 e.2)) o 0.
  have ho := ltn_ord o; rewrite /g dF_out ?se; [|slia|right; slia].
  by rewrite /q2 /wrv wrs_in ?entv_ord //; slia.
cbn [blocks lagrangian_sq]; cbn [nm dir set_dir lam der]; rewrite -/k; congr (_ + _ + _); last exact: IH.
- by apply: (@sq_dot _ _ ix (fun i => r.2 i + g i)) => o; have [_ ->] := rX o; rewrite gX [RHS]addmxE.
- by apply: (@sq_dot _ _ (wX + iu)%N (fun i => r.2 i + g i)) => o; have [_ ->] := rU o; rewrite gU [RHS]addmxE.
Qed.
(** the defect rows *)
Lemma fill_defects ix iu (l : seq node) (tn : tnode) K q :
  (ix + n * (size l).+1)%N = wX -> (iu + sum_nu l)%N = wU -> clean M wX wU ix iu K ->
  (forall nd, List.In nd l -> mem nd = acalc (nm nd) (px (pt nd)) (pu (pt nd))) ->
  let r := kk_fill wX wU ix iu l tn K q in
  let e := kk_extract wX w ix iu p l tn in
  \sum_((n + ix)%N <= i < wX) r.2 (w + i)%N * r.2 (w + i)%N = defects_sq e.1 e.2.
Proof.
elim: l ix iu K q => [|nd l IH] ix iu K q h1 h2 hc hm.
  by cbv zeta; rewrite big_geq //; move: h1; rewrite muln1; slia.
set K1 := wrm (w + n + ix) (wX + iu) (- (Fu (der nd) : 'M[F]_(n, nu (nm nd))))
    (wrm (w + n + ix) ix (- (Fx (der nd) : 'M[F]_n))
      (wrm (wX + iu) (wX + iu) (Luu (der nd) : 'M[F]_(nu (nm nd)))
        (wrm (wX + iu) ix ((Lxu (der nd) : 'M[F]_(n, nu (nm nd)))^T)
          (wrm ix (wX + iu) (Lxu (der nd) : 'M[F]_(n, nu (nm nd))) (wrm ix ix (Lxx (der nd) : 'M[F]_n) K))))).
set k := nu (nm nd) in h2 *.
have h1' : (ix + n + n * (size l).+1)%N = wX by move: h1; rewrite mulnS /=; slia.
have h2' : (iu + k + sum_nu l)%N = wU by move: h2; rewrite /=; slia.
have hnn : (n <= n * (size l).+1)%N by rewrite mulnS; slia.
have hc1 : clean M wX wU (ix + n) (iu + k) K1 by apply: clean_step => //; slia.
have rD := @node_rowD F sq M wX wU nd l tn ix iu K q p h1 h2 hc.
cbv zeta.
set r := kk_fill wX wU ix iu (nd :: l) tn K q in rD *.
set q1 : vbuf F :=
  wrv (w + n + ix) (diff M (axnext (nm nd) (mem nd)) (hd_x l tn) : 'cV[F]_n)
    (wrv (wX + iu) (Lu (der nd) : 'cV[F]_k) (wrv ix (Lx (der nd) : 'cV[F]_n) q)).
have er : r = kk_fill wX wU (ix + n) (iu + k) l tn K1 q1 by [].
have := IH (ix + n)%N (iu + k)%N K1 q1 h1' h2' hc1 (fun m hm' => hm m (or_intror hm')); rewrite -er => {}IH.
rewrite (@big_cat_nat _ _ _ (n + ix + n)%N) /=; [|slia|slia].
rewrite extract_hd_x -(hm nd (or_introl erefl)); congr (_ + _); last by rewrite -IH; congr bigop; congr index_iota; slia.
rewrite (range_sum (fun i => r.2 (w + i)%N * r.2 (w + i)%N)).
apply: eq_bigr => o _; have [_ eo] := rD o; by rewrite !addnA eo.
Qed.
End Layout.

(** ** Directions of an object *)
Section Obj.
Variable x0 : mX M.
Variable lu : forall N : nat, 'M[F]_N -> 'cV[F]_N -> 'cV[F]_N.
Variable bad : seq (mX M) -> seq {k : nat & vec E k} -> bool.
Variable (l : seq (slot M)) (t : tslot M).

Lemma ext_dims a b c d p (k : seq node) (tn : tnode) :
  List.length (kk_extract a b c d p k tn).1 = List.length k /\ sum_nu (kk_extract a b c d p k tn).1 = sum_nu k.
Proof. by elim: k c d => //= y z ih c d; have [-> ->] := ih (c + n)%N (d + nu (nm y))%N. Qed.
Lemma direction_quant s s' : kk_hist x0 lu bad l t s -> kk_direction x0 lu bad true s = KDok s' ->
  let k := run (kk_tr s') in let tn := trm (kk_tr s') in
  let w := all_p k in
  [/\ xdot (as_cv w (kk_ref s')) (as_cv w (kk_pd s')) = slope k tn,
      xdot (as_mx w (kk_K s') *m as_cv w (kk_pd s')) (as_cv w (kk_pd s')) = curvature k tn,
      sqnorm (as_cv w (kk_ref s') + as_cv w (kk_dF (all_x k) 0 0 k tn (fun _ => 0))) = lagrangian_sq k tn
    & let d : 'cV[F]_n := diff M x0 (hd_x k tn) in
      sqnorm (seg (all_x k) (kk_ref s') w) = dotp d d + defects_sq k tn].
Proof.
move=> hh; rewrite /kk_direction; case: (bad _ _) => //; case ec: (kk_calcDiff x0 s) => [s1|] // [<-].
have := calcDiffP ec; set t1 := fst _; cbv zeta => -[et eK eR _ _].
have [_ _ hz] := hist_inv hh; have es := shape_calcDiff (kk_tr s); rewrite -/t1 in es.
have hz1 : kk_zeros M (dims (run t1)) (all_x (run t1)) (kk_K s) by have [-> ->] := shape_dims es.
have hmem nd : List.In nd (run t1) -> mem nd = acalc (nm nd) (px (pt nd)) (pu (pt nd)).
  by rewrite /t1 /=; elim: (run (kk_tr s)) => //= a k0 IH [<-|/IH].
cbn [kk_tr kk_ref kk_pd kk_K run trm].
set p := kk_solve_lu lu s1; rewrite et; set k0 := run t1; set e := kk_extract _ _ _ _ _ _ _.
have se : all_x e.1 = all_x k0 /\ sum_nu e.1 = sum_nu k0.
  by have [h1 h2] := ext_dims (all_x k0) (all_p k0) 0 0 p k0 (trm t1); rewrite /all_x h1.
have [sx su] := se; rewrite /all_p sx su; rewrite -/(all_p k0).
rewrite eR eK /mxE'; cbn [fst snd]; rewrite -/k0.
set wX := all_x k0; set wU := sum_nu k0; set w := all_p k0.
set q0 := wrv _ _ _.
have hwX : (0 + n * (size k0).+1)%N = wX by [].
have hwU : (0 + sum_nu k0)%N = wU by [].
have hc := @clean0 F sq M k0.
set Z := kk_ident _ _ _ in hc.
set r := kk_fill _ _ _ _ _ _ _ _.
pose r' := kk_fill wX wU 0 0 k0 (trm t1) Z q0.
have e2 : r.2 = r'.2 by exact: fill_ref.
have hf i c : UR w wX i c = false -> r.1 i c = r'.1 i c := @as_if_fresh F sq M x0 k0 (trm t1) (kk_K s) (kk_ref s) hz1 i c.
have [f1 f2] := @fill_quant wX wU p 0 0 k0 (trm t1) Z q0 hwX hwU hc.
have f3 := @fill_lagr wX wU p 0 0 k0 (trm t1) Z q0 (fun _ => 0) hwX hwU hc.
have f4 := @fill_defects wX wU p 0 0 k0 (trm t1) Z q0 hwX hwU hc hmem.
rewrite -/r' -/e in f1 f2 f3 f4.
have tot (g : nat -> F) : \sum_(i < w) g i = blocks wX g 0 0 k0.
  by rewrite -(@blocksP wX wU g 0 0 k0 hwX hwU) total.
split.
- rewrite xdotE -f1 -tot; apply: eq_bigr => i _; by rewrite !mxE e2.
- rewrite xdotE -f2 -tot; apply: eq_bigr => i _; rewrite !mxE; congr (_ * _).
  apply: eq_bigr => c _; rewrite !mxE; have hi := ltn_ord i; have hcc := ltn_ord c.
  rewrite /kk_mirror -/(UR w wX i c); have nU : UR w wX i c = false by rewrite /UR (_ : inr w wX c = false) ?andbF //; apply: inr_out; slia.
  by rewrite nU hf.
- rewrite /sqnorm xdotE -f3 -tot; apply: eq_bigr => i _; by rewrite !mxE e2.
- rewrite /sqnorm xdotE extract_hd_x.
  have -> : dotp (seg wX r.2 w) (seg wX r.2 w) = \sum_(0 <= i < wX) r'.2 (w + i)%N * r'.2 (w + i)%N.
    by rewrite big_mkord; apply: eq_bigr => i _; rewrite segE e2.
  rewrite (@big_cat_nat _ _ _ n) //=; last by rewrite -hwX mulnS; slia.
  rewrite -f4 addn0; congr (_ + _); rewrite big_mkord; apply: eq_bigr => o _.
  have ho := ltn_ord o.
  have [g1 _ _] := @fill_out F sq M wX wU 0 0 k0 (trm t1) Z q0 (eq_leq hwX) (eq_leq hwU).
  have [_ g2] : r'.1 (w + o)%N 0%N = Z (w + o)%N 0%N /\ r'.2 (w + o)%N = q0 (w + o)%N.
    by apply: g1; apply: Or33; rewrite /w /all_p -/wX -/wU; slia.
  by rewrite g2 /q0 /wrv wrs_in ?entv_ord //; slia.
Qed.
End Obj.
End Q.
