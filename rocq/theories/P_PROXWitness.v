(** * Concrete SolverPROXQP runs: the hypotheses of C40, C41, C58 are met; C40 fails when the
    control dimension varies; C41 fails for the exposed multipliers. *)
From Coq Require Import Ring Field ZArith List Arith.
Set Warnings "-notation-overridden,-ambiguous-paths".
From mathcomp Require Import all_ssreflect all_algebra.
From Verif Require Import FieldTac Eigen EigenExact ExactLemmas Problem LQSpec SsrLia DDP CSQP Init Models TrialSpec CSQPSpec KKTNorm Flat KKT KKTSys PROXQP PROXBlocks PROXSpec PROXSys PROXHist P_PROXQP P_PROXCert.

Set Implicit Arguments.
Unset Strict Implicit.
Unset Printing Implicit Defensive.

Import Order.TTheory GRing.Theory Num.Theory.
Local Open Scope ring_scope.

Section Backend.
Variable F : realFieldType.
(** a backend that solves the equality-constrained QP and answers if its solution happens to
    satisfy the inequality rows; it throws otherwise *)
Definition betweenb (lo hi : option F) (v : F) : bool :=
  (if lo is Some b then b <= v else true) && (if hi is Some b then v <= b else true).
Definition eq_backend (N Me Mi : nat) (P : 'M[F]_N) (q : 'cV[F]_N) (A : 'M[F]_(Me, N)) (b : 'cV[F]_Me)
    (C : 'M[F]_(Mi, N)) (lo hi : 'cV[option F]_Mi) : option ('cV[F]_N * 'cV[F]_Me * 'cV[F]_Mi) :=
  let K := block_mx P A^T A 0 in
  let w := ((col_mx (- q) b)^T *m pinvmx K^T)^T in
  let x := usubmx w in
  let y := dsubmx w in
  if [&& P *m x + q + A^T *m y == 0, A *m x == b & [forall i, betweenb (lo i 0) (hi i 0) ((C *m x) i 0)]]
  then Some (x, y, 0) else None.
Lemma betweenP lo hi v : betweenb lo hi v -> between lo hi v.
Proof.
move/andP => [h1 h2]; split=> b e; [move: h1|move: h2]; by rewrite e.
Qed.
Lemma eq_backend_exact : exact_backend eq_backend.
Proof.
move=> N Me Mi P q A b C lo hi x y z; rewrite /eq_backend; set w := (_ *m _)^T.
case: ifP => // /and3P [/eqP h1 /eqP h2 /forallP h3] [<- <- <-]; split=> // [|i].
  by rewrite mulmx0 addr0.
by split; [apply: betweenP|rewrite mxE ltxx|rewrite mxE ltxx].
Qed.
(** it answers whenever there are no inequality rows and the optimality system is solvable *)
Lemma eq_backend_answers (N Me Mi : nat) P q A b C lo hi (x : 'cV[F]_N) (y : 'cV[F]_Me) : Mi = 0%N ->
  P *m x + q + A^T *m y = 0 -> A *m x = b -> exists r, @eq_backend N Me Mi P q A b C lo hi = Some r.
Proof.
move=> h0 h1 h2; rewrite /eq_backend; set K := block_mx _ _ _ _; set w := (_ *m _)^T.
have hK : K *m col_mx x y = col_mx (- q) b.
  rewrite mul_block_col mul0mx addr0 h2; congr col_mx.
  by apply/eqP; rewrite -addr_eq0 addrAC h1.
have hw : K *m w = col_mx (- q) b.
  apply: trmx_inj; rewrite trmx_mul trmxK mulmxKpV //.
  by apply/submxP; exists (col_mx x y)^T; rewrite -trmx_mul hK.
have : K *m col_mx (usubmx w) (dsubmx w) = col_mx (- q) b by rewrite vsubmxK.
rewrite mul_block_col mul0mx addr0 => /eq_col_mx [e1 e2].
have -> : P *m usubmx w + q + A^T *m dsubmx w == 0.
  by rewrite addrAC e1 addNr.
rewrite e2 eqxx /=; case: ifP => [_|]; first by eexists.
by move/negbT/forallPn => [i _]; have := ltn_ord i; rewrite {2}h0.
Qed.
End Backend.

Section W.
Variable F : realFieldType.
Variable sq : F -> F.
Notation E := (ExactE sq).
Notation M1 := (euclid E 1).
Add Field FfPW : (F_field_theory F).
Notation v1 a := (const_mx a : 'cV[F]_1).
Notation m1 a := (const_mx a : 'M[F]_1).

(** ** C41: x1 = u, running cost u^2/2 + r u, terminal cost 3 x^2/2 + q x, x0 = 0 *)
Definition plq (r : F) : lq E 1 1 0 :=
  @mkLq E 1 1 0 (0 : 'M[F]_1) (1%:M : 'M[F]_1) (0 : 'cV[F]_1)
    (0 : 'M[F]_1) (0 : 'M[F]_1) (1%:M : 'M[F]_1) (0 : 'cV[F]_1) (v1 r)
    (0 : 'M[F]_(0,1)) (0 : 'M[F]_(0,1)) (0 : 'cV[F]_0) (const_mx None : 'cV[option F]_0) (const_mx None : 'cV[option F]_0).
Definition ptlq (q : F) : tlq E 1 0 :=
  @mkTlq E 1 0 (3%:R%:M : 'M[F]_1) (v1 q) (0 : 'M[F]_(0,1)) (0 : 'cV[F]_0)
    (const_mx None : 'cV[option F]_0) (const_mx None : 'cV[option F]_0).
Definition pslot (r : F) : slot M1 :=
  @mkSlot E M1 (lq_model (plq r)) ((0 : 'cV[F]_1), (0 : 'cV[F]_1))
    (adiff (lq_model (plq r)) ((0 : 'cV[F]_1), (0 : 'cV[F]_1)) (0 : 'cV[F]_1) (0 : 'cV[F]_1)) (0 : 'cV[F]_0) (0 : 'cV[F]_0).
Definition ptslot (q : F) : tslot M1 :=
  @mkTslot E M1 (lq_tmodel (ptlq q)) (0 : 'cV[F]_1)
    (tdiff (lq_tmodel (ptlq q)) (0 : 'cV[F]_1) (0 : 'cV[F]_1)) (0 : 'cV[F]_0) (0 : 'cV[F]_0).
Definition px0 : mX M1 := (0 : 'cV[F]_1).
Definition pobj (r q : F) (fsize : nat) : pqs M1 := new_pqs px0 [:: pslot r] (ptslot q) fsize.
Definition u0 : seq {k : nat & vec E k} := [:: existT (vec E) 1%N ((0 : 'cV[F]_1) : vec E 1)].
Definition xs0 : seq (mX M1) := [:: (0 : 'cV[F]_1) : mX M1; (0 : 'cV[F]_1) : mX M1].
(** the object when the loop of solve starts with this guess *)
Definition ptr r q : traj M1 :=
  match set_guess xs0 u0 (pq_tr (pobj r q 0)) with Some tr => pin_xt0 px0 (pin_x0 px0 tr) | None => pq_tr (pobj r q 0) end.
Definition pstart r q fsize p : pqs M1 := set_p_iter (set_p_reg (set_p_tr (pobj r q fsize) (ptr r q)) p p) 0.
Lemma pguess r q fsize : exists2 tr, set_guess xs0 u0 (pq_tr (pobj r q fsize)) = Some tr & pin_xt0 px0 (pin_x0 px0 tr) = ptr r q.
Proof. by rewrite /ptr; eexists; first (rewrite /set_guess /=; reflexivity). Qed.
Lemma pgood r q fsize p : good [:: pslot r] (ptslot q) (pstart r q fsize p).
Proof.
have hn : pq_hist px0 (@eq_backend F) [:: pslot r] (ptslot q) (pobj r q fsize) by exact: PH_new.
apply: (good_keeps _ (hist_good hn)); exact: keeps_same.
Qed.
Lemma pready c r q fsize p : ready (pq_calc c (pstart r q fsize p)).
Proof. by apply: (@good_ready F sq M1 _ _ c _ _ _ (pgood r q fsize p)) => //; apply: (layout_uniform (m := 1)) => nd [<-|//]. Qed.

(** the subproblem of this run *)
Lemma cv1_eq (a b : 'cV[F]_1) : a = b <-> a 0 0 = b 0 0.
Proof. by split=> [->//|h]; apply/colP => i; rewrite ord1. Qed.
Definition pmodels r q : seq (amodel M1) * tmodel M1 := ([:: lq_model (plq r)], lq_tmodel (ptlq q)).
Definition porigin : seq (mX M1 * {k : nat & 'cV[F]_k}) * mX M1 :=
  ([:: ((0 : 'cV[F]_1) : mX M1, existT (fun k => 'cV[F]_k) 1%N (0 : 'cV[F]_1))], (0 : 'cV[F]_1) : mX M1).
Lemma pform r q (tr : traj M1) : models tr = pmodels r q -> evaluated tr -> candidate tr = porigin ->
  exists (U X L : 'cV[F]_1),
  [/\ sub_kkt tr <-> [/\ r + U 0 0 + L 0 0 = 0, q + 3%:R * X 0 0 = L 0 0 & X 0 0 = U 0 0],
      forall tol, 0 <= tol -> kkt_within tol tr <-> `|r + L 0 0| <= tol /\ `|q - L 0 0| <= tol,
      L = tlam (trm tr), X = tdx (trm tr)
    & exists nd, run tr = [:: nd] /\ existT (fun k => 'cV[F]_k) 1%N U = existT (fun k => 'cV[F]_k) (nu (nm nd)) (du (dir nd))].
Proof.
case: tr => [[|nd [|nd2 k]] tn] //; rewrite /models /candidate /evaluated; cbn [run trm map].
destruct nd as [m p0 me d f v dd a]; cbn [nm pt mem der].
move=> -[e1 e2]; move: (e1); subst m => _.
destruct tn as [tm0 xx xxt tmm td tf tV tv tdx0 tl tdxt0 z1 z2 z3 ty z4 z5]; cbn in e2; subst tm0.
cbn [tm tx tme tder] => -[h1 h2 h3 [h4 _]] -[e3 e4 e5].
have {}e4 : (pu p0 : 'cV[F]_1) = 0 by exact: (Eqdep_dec.inj_pair2_eq_dec _ Nat.eq_dec _ _ _ _ e4).
have [hm hd] := h1 _ (or_introl Logic.eq_refl); cbn [nm pt mem der] in hm, hd; clear h1.
cbn in hm, hd, h2, h3, h4; subst me d tmm td.
have tf0 : (tf : 'cV[F]_1) = 0.
  by rewrite h4 e3 e4 e5 -[RHS]/((0 : 'cV[F]_1)) -[LHS]/(((0 : 'M[F]_1) *m (0 : 'cV[F]_1) + (1%:M : 'M[F]_1) *m (0 : 'cV[F]_1) + 0) - 0 : 'cV[F]_1) !mulmx0 subr0 !addr0.
clear h4; set U : 'cV[F]_1 := du dd; set D : 'cV[F]_1 := dx dd; set X : 'cV[F]_1 := tdx0; set L : 'cV[F]_1 := tl.
set Y : 'cV[F]_0 := ay a; set Y' : 'cV[F]_0 := ty.
exists U, X, L; rewrite e3 e4 e5; split=> //; last by eexists.
- pose su := (((0 : 'M[F]_1)^T *m (0 : 'cV[F]_1) + (1%:M : 'M[F]_1) *m (0 : 'cV[F]_1) + v1 r) + (1%:M : 'M[F]_1) *m U
    + (0 : 'M[F]_1)^T *m D + (1%:M : 'M[F]_1)^T *m L + (0 : 'M[F]_(0,1))^T *m Y) : 'cV[F]_1.
  pose sx := (((3%:R%:M : 'M[F]_1) *m (0 : 'cV[F]_1) + v1 q) + (3%:R%:M : 'M[F]_1) *m X + (0 : 'M[F]_(0,1))^T *m Y') : 'cV[F]_1.
  pose dy := ((0 : 'M[F]_1) *m D + (1%:M : 'M[F]_1) *m U + tf) : 'cV[F]_1.
  have eu : su = v1 r + U + L.
    by rewrite /su !trmx0 trmx1 !mul0mx mulmx0 !mul1mx !add0r !addr0.
  have ex : sx = v1 q + 3%:R *: X by rewrite /sx trmx0 mul0mx mulmx0 add0r addr0 mul_scalar_mx.
  have ed : dy = U by rewrite /dy tf0 mul0mx mul1mx add0r addr0.
  have eq3 : [/\ su = 0, sx = L & X = dy] <-> [/\ r + U 0 0 + L 0 0 = 0, q + 3%:R * X 0 0 = L 0 0 & X 0 0 = U 0 0].
    rewrite eu ex ed.
    have b1 : v1 r + U + L = 0 <-> r + U 0 0 + L 0 0 = 0 by rewrite cv1_eq !mxE.
    have b2 : v1 q + 3%:R *: X = L <-> q + 3%:R * X 0 0 = L 0 0 by rewrite cv1_eq !mxE.
    by split=> -[/b1 a1 /b2 a2 /cv1_eq a3].
  rewrite -eq3; split.
    by move=> [[a1 _ a2] [a3 _] _]; split; [exact: a1|exact: a2|exact: a3].
  move=> [a1 a2 a3]; split; [split; [exact: a1|discriminate|exact: a2]|split; [exact: a3|exact: I]|].
  by split; [move=> nd [<-|//] []|move=> []].
- move=> tol h0.
  pose su := (((0 : 'M[F]_1)^T *m (0 : 'cV[F]_1) + (1%:M : 'M[F]_1) *m (0 : 'cV[F]_1) + v1 r)
    + (1%:M : 'M[F]_1)^T *m L + (0 : 'M[F]_(0,1))^T *m Y) : 'cV[F]_1.
  pose sx := (((3%:R%:M : 'M[F]_1) *m (0 : 'cV[F]_1) + v1 q) - L + (0 : 'M[F]_(0,1))^T *m Y') : 'cV[F]_1.
  have eu : su = v1 r + L by rewrite /su !trmx0 trmx1 !mul0mx mulmx0 !mul1mx !add0r !addr0.
  have ex : sx = v1 q - L by rewrite /sx trmx0 mul0mx mulmx0 add0r addr0.
  have sm (w : 'cV[F]_1) : small tol w <-> `|w 0 0| <= tol by split=> [h|h i]; [exact: h|rewrite ord1].
  have eq2 : small tol su /\ small tol sx <-> `|r + L 0 0| <= tol /\ `|q - L 0 0| <= tol.
    by rewrite eu ex !sm !mxE.
  rewrite -eq2; split.
    by move=> [[_ a1 a2] _ _]; split; [exact: a1|exact: a2].
  move=> [a1 a2]; split; [split; [discriminate|exact: a1|exact: a2]| |].
    by split=> //; cbn [tfs trm]; rewrite tf0 => i; rewrite mxE normr0.
  by split; [move=> nd [<-|//] []|move=> []].
Qed.

Lemma start_facts c r q fsize p : let tr := pq_tr (pq_calc c (pstart r q fsize p)) in
  [/\ models tr = pmodels r q, evaluated tr, candidate tr = porigin & multipliers tr = multipliers (ptr r q)].
Proof.
move=> tr; have [h1 h2] := calc_mults c (pstart r q fsize p).
have [h3 h4] := calc_evaluated c (pstart r q fsize p).
by split.
Qed.
Lemma entv_const N (d : F) i : (i < N)%N -> entv (const_mx d : 'cV[F]_N) i = d.
Proof. by move=> h; rewrite -[i]/(nat_of_ord (Ordinal h)) entv_ord mxE. Qed.
Lemma run_one r q (tr : traj M1) : models tr = pmodels r q -> exists nd, run tr = [:: nd] /\ nm nd = lq_model (plq r).
Proof. by case: tr => [[|nd [|nd2 k]] tn] // [e1 _]; exists nd. Qed.
(** the backend answers *)
Lemma answers c r q fsize p : exists s', pq_direction (@eq_backend F) c true (pstart r q fsize p) = PDok s'.
Proof.
have hne : run (pq_tr (pstart r q fsize p)) <> [::] by [].
rewrite direction_recalc //; have [hm he hc _] := start_facts c r q fsize p.
have [hne1 ha _] := pready c r q fsize p.
move: (pq_calc c (pstart r q fsize p)) hm he hc hne1 ha => s1 hm he hc hne1 ha; clear hne.
have [nd [er en]] := run_one hm.
have ni : dimi s1 = 0%N by rewrite /dimi /nin er /= en; case: hm => _ ->.
have nx : dimx s1 = 2%N by rewrite /dimx /nvars /neq er /= en.
have ne : dime s1 = 1%N by rewrite /dime /neq er.
pose d := - (r + q) / 4%:R; pose lm := q + 3%:R * d.
pose x : 'cV[F]_(dimx s1) := const_mx d; pose y : 'cV[F]_(dime s1) := const_mx (- lm); pose z : 'cV[F]_(dimi s1) := const_mx 0.
have [_ _ hk] := ha x y z.
have [he2 hc2] := @extract_evaluated F sq M1 (neq (run (pq_tr s1))) (entv x) (entv y) (entv z) (pq_tr s1) hne1 he.
have hm2 := extract_models (neq (run (pq_tr s1))) (entv x) (entv y) (entv z) (pq_tr s1).
have [U [X [L [f1 _ eL eX [nd' [er' eU]]]]]] := pform (tr := unpacked x y z) (etrans hm2 hm) he2 (etrans hc2 hc).
have vL : L 0 0 = lm.
  rewrite eL /unpacked; cbn [trm]; rewrite er; cbn [pq_extract snd tlam set_tzy set_tlam set_tdx].
  by rewrite !mxE entv_const ?opprK ?ne.
have vX : X 0 0 = d.
  rewrite eX /unpacked; cbn [trm]; rewrite er; cbn [pq_extract snd tdx set_tzy set_tlam set_tdx].
  by rewrite !mxE entv_const ?nx.
have vU : U 0 0 = d.
  move: er' eU; rewrite /unpacked; cbn [run]; rewrite er; cbn [pq_extract fst] => -[<-].
  cbn [nm dir set_adm set_dir du]; rewrite en /neq; cbn [List.length] => h.
  have -> : U = seg 1 (entv x) 1 by exact: (Eqdep_dec.inj_pair2_eq_dec _ Nat.eq_dec _ _ _ _ h).
  by rewrite mxE entv_const // nx.
have hs : sub_kkt (unpacked x y z).
  apply/f1; rewrite vL vX vU /lm; split=> //.
  have hd : d * 4%:R = - (r + q) by rewrite /d mulfVK // pnatr_eq0.
  have t3 : (3%:R : F) = 1 + 1 + 1 by rewrite -[3%N]/(1 + 1 + 1)%N !natrD.
  have t4 : (4%:R : F) = 1 + 1 + 1 + 1 by rewrite -[4%N]/(1 + 1 + 1 + 1)%N !natrD.
  have -> : r + d + (q + 3%:R * d) = (r + q) + d * 4%:R by rewrite t3 t4; mcfold F; ring.
  by rewrite hd subrr.
have [g1 g2 _] := proj2 hk hs.
have gz : (QP_C s1)^T *m z = 0 by rewrite /z mulmx0.
rewrite gz addr0 in g1.
have [[[x' y'] z'] hr] := eq_backend_answers (QP_C s1) (QP_l s1) (QP_u s1) ni g1 g2.
rewrite /pq_direction; move: (hne1); case: {1 2}(run (pq_tr s1)) => [//|nd2 k2] _.
have -> : pq_ask (@eq_backend F) (set_p_KKT s1 (pq_check (pq_con s1) (pq_tr s1))) = Some (entv x', entv y', entv z').
  by rewrite /pq_ask; cbn [pq_tr set_p_KKT pq_P pq_q pq_A pq_b pq_C pq_l pq_u]; rewrite -[eq_backend _ _ _ _ _ _ _]/(eq_backend (QP_P s1) (QP_q s1) (QP_A s1) (QP_b s1) (QP_C s1) (QP_l s1) (QP_u s1)) hr.
by eexists.
Qed.
Lemma pcon r q (tr : traj M1) : models tr = pmodels r q -> (stored_con tr : F) = 0.
Proof.
case: tr => [[|nd [|nd2 k]] tn] //; rewrite /models; cbn [run trm map].
destruct nd as [m p0 me d f v dd a]; cbn [nm]; move=> -[e1 e2]; move: (e1); subst m => _.
destruct tn as [tm0 xx xxt tmm td tf tV tv tdx0 tl tdxt0 z1 z2 z3 ty z4 z5]; cbn in e2; subst tm0.
have z (w : 'cV[F]_0) : xl1 w = 0 by rewrite /xl1 big_ord0.
rewrite /stored_con /violation; cbn [run trm List.fold_left nm mem tm tme].
by rewrite -[LHS]/(0 + xl1 _ + xl1 _ + xl1 _ + xl1 _ : F) !z !addr0.
Qed.
Lemma loop_returns c fuel k i (s s' : pqs M1) : pq_direction (@eq_backend F) c true (set_p_iter s i) = PDok s' ->
  pq_KKT s' <= c_tol (pc_ddp c) -> pq_loop (@eq_backend F) c (S fuel) (S k) i s = PRet true s'.
Proof. by move=> h1 h2; cbn [pq_loop pq_retry]; rewrite h1 h2. Qed.

(** C41 (refutation): with gradients equal to the tolerance and zero multipliers, solve
    returns true; the direction it holds is the exact solution of the QP, and the residual
    at the returned candidate with the exposed multipliers is 3/2 of the tolerance. *)
Theorem C41_exposed_multipliers_uncertified (c : pcfg sq) (tol : F) fuel k reg fsize :
  c_tol (pc_ddp c) = tol -> 0 < tol ->
  exists s', pq_solve px0 (@eq_backend F) c (S fuel) xs0 u0 (S k) reg (pobj tol tol fsize) = PRet true s' /\
    [/\ exact_backend (@eq_backend F), sub_kkt (pq_tr s'), evaluated (pq_tr s') & ~ kkt_within tol (pq_tr s')].
Proof.
move=> ht h0; have h0' := ltW h0; set p : F := init_reg (pc_ddp c) reg.
have hne : run (pq_tr (pstart tol tol fsize p)) <> [::] by [].
have [s' hs'] := answers c tol tol fsize p; exists s'.
have hd := hs'; rewrite direction_recalc // in hd.
have [hk he hc] := direction_ready (@eq_backend_exact F) (pready c tol tol fsize p) hd.
have [fm fe fc fmu] := start_facts c tol tol fsize p.
have [hne1 _ _] := pready c tol tol fsize p.
have [hK _ hmo] := direction_cert hne1 fe hd.
have [U [X [L [f1 f2 eL _ _]]]] := pform (etrans hmo fm) he (etrans hc fc).
have hu : kkt_within tol (pq_tr (pq_calc c (pstart tol tol fsize p))).
  have [U0 [X0 [L0 [_ g2 eL0 _ _]]]] := pform fm fe fc; apply/(g2 _ h0').
  have -> : L0 = 0 by rewrite eL0.
  by rewrite mxE subr0 addr0 ger0_norm.
split; last (split; [exact: eq_backend_exact|exact: hk|exact: he|]).
  have [tr hg htr] := pguess tol tol fsize.
  rewrite /pq_solve hg htr; apply: loop_returns; first exact: hs'.
  rewrite hK ht; apply/(C41_kkt_norm _ h0' hne1); case: hu => u1 u2 u3; split=> //.
  by rewrite calc_con (pcon fm).
rewrite f2 // => -[_].
have [a1 a2 a3] := proj1 f1 hk.
move: a1 a2 a3; move: (U 0 0) (X 0 0) (L 0 0) => a b d a1 a2 a3; subst a d.
have t3 : (3%:R : F) = 1 + 1 + 1 by rewrite -[3%N]/(1 + 1 + 1)%N !natrD.
have e2 : tol = - b - b.
  have : 2%:R * (tol + b + b) = 0.
    by rewrite -[RHS]a1 t3 mulr_natl mulr2n; mcfold F; ring.
  by move/eqP; rewrite mulf_eq0 pnatr_eq0 /= -addrA addr_eq0 opprD => /eqP.
have -> : tol - (tol + 3%:R * b) = tol + (- b) by rewrite {3}e2 t3; mcfold F; ring.
move=> h; have := le_trans (ler_norm _) h; rewrite ger_addl oppr_le0 => hb.
by move: h0; rewrite e2 ltNge -opprD oppr_le0 addr_ge0.
Qed.

(** ** C40 (refutation): the control dimension drops from 2 to 1; the second node has the
    constraint u = 1.  All dynamics and costs are zero. *)
Definition alq (m p : nat) (G : 'M[F]_(p, m)) : lq E 1 m p :=
  @mkLq E 1 m p (0 : 'M[F]_1) (0 : 'M[F]_(1, m)) (0 : 'cV[F]_1)
    (0 : 'M[F]_1) (0 : 'M[F]_(1, m)) (0 : 'M[F]_m) (0 : 'cV[F]_1) (0 : 'cV[F]_m)
    (0 : 'M[F]_(p, 1)) G (0 : 'cV[F]_p) (const_mx (Some 1) : 'cV[option F]_p) (const_mx (Some 1) : 'cV[option F]_p).
Definition aslot (m p : nat) (G : 'M[F]_(p, m)) : slot M1 :=
  @mkSlot E M1 (lq_model (alq G)) ((0 : 'cV[F]_1), (0 : 'cV[F]_m))
    (adiff (lq_model (alq G)) ((0 : 'cV[F]_1), (0 : 'cV[F]_m)) (0 : 'cV[F]_1) (0 : 'cV[F]_m)) (0 : 'cV[F]_p) (0 : 'cV[F]_p).
Definition aslots : seq (slot M1) := [:: aslot (0 : 'M[F]_(0, 2)); aslot (1%:M : 'M[F]_1)].
Definition aobj (fsize : nat) : pqs M1 := new_pqs px0 aslots (ptslot 0) fsize.
(** (x1, x2, u0, u0', u1) with the second control of the FIRST node equal to 1 *)
Definition adir (N : nat) : 'cV[F]_N := \col_i ((nat_of_ord i == 3)%N)%:R.
Lemma calc_bufs c (s : pqs M1) : let s1 := pq_calc c s in let k := run (pq_tr s1) in let tn := trm (pq_tr s1) in
  [/\ pq_C s1 = wrl (cw (List.length k) 0 0 k tn) (pq_C s), pq_l s1 = wsl (lw false 0 k tn) (pq_l s) & pq_u s1 = wsl (lw true 0 k tn) (pq_u s)].
Proof. by split. Qed.
Lemma calc_hd c (s : pqs M1) : hd_dx (run (pq_tr (pq_calc c s))) (trm (pq_tr (pq_calc c s))) = hd_dx (run (pq_tr s)) (trm (pq_tr s)).
Proof. by have := calc_shape c s; rewrite /shape => -[]. Qed.
Lemma amod c fsize : models (pq_tr (pq_calc c (aobj fsize))) = ([:: lq_model (alq (0 : 'M[F]_(0, 2))); lq_model (alq (1%:M : 'M[F]_1))], lq_tmodel (ptlq 0)).
Proof. by have [_ ->] := calc_mults c (aobj fsize). Qed.
Definition acand : seq (mX M1 * {k : nat & 'cV[F]_k}) * mX M1 :=
  ([:: ((0 : 'cV[F]_1) : mX M1, existT (fun k => 'cV[F]_k) 2%N (0 : 'cV[F]_2));
       ((0 : 'cV[F]_1) : mX M1, existT (fun k => 'cV[F]_k) 1%N (0 : 'cV[F]_1))], (0 : 'cV[F]_1) : mX M1).
Definition amods : seq (amodel M1) * tmodel M1 :=
  ([:: lq_model (alq (0 : 'M[F]_(0, 2))); lq_model (alq (1%:M : 'M[F]_1))], lq_tmodel (ptlq 0)).
Lemma wsl1 (g : 'cV[F]_1) : g = 0 -> wsl [:: Sgm 0 1 (@shift F 1 (const_mx (Some 1)) g)] (fun _ => Some 0) 0%N = Some 1.
Proof.
move=> e; set S1 := Sgm 0 1 _.
by have := @wsl_at _ [:: S1] (fun _ => Some 0) S1 (ord0 : 'I_1) (conj (fun _ _ => erefl) I) (or_introl erefl); rewrite /= addn0 => ->; rewrite e /shift !mxE subr0.
Qed.
Lemma wrong_tr (tr : traj M1) (X Y Z : vbuf F) : models tr = amods -> evaluated tr -> candidate tr = acand ->
  (hd_dx (run tr) (trm tr) : 'cV[F]_1) = 0 ->
  (forall i, (i < 5)%N -> X i = (i == 3%N)%:R) ->
  let r := pq_extract (neq (run tr)) 0 0 0 X Y Z (run tr) (trm tr) in
  [/\ sub_dynamics r.1 r.2, ~ sub_bounds r.1 r.2,
      \sum_(j < 5) wrl (cw (List.length (run tr)) 0 0 (run tr) (trm tr)) (fun _ _ => 0) 0%N j * X j = 1,
      wsl (lw false 0 (run tr) (trm tr)) (fun _ => Some 0) 0%N = Some 1
    & wsl (lw true 0 (run tr) (trm tr)) (fun _ => Some 0) 0%N = Some 1].
Proof.
case: tr => [[|nd [|nd2 [|nd3 k]]] tn] //; rewrite /models /candidate /evaluated; cbn [run trm map].
destruct nd as [m p0 me d f v dd a]; destruct nd2 as [m' p0' me' d' f' v' dd' a']; cbn [nm pt mem der].
move=> -[e1 e2 e3]; move: (e1) (e2); subst m m' => _ _.
destruct tn as [tm0 xx xxt tmm td tf tV tv tdx0 tl tdxt0 z1 z2 z3 ty z4 z5]; cbn in e3; subst tm0.
cbn [tm tx tme tder] => -[h1 h2 h3 [h4 [h5 _]]] -[g1 g2 g3 g4 g5] hdx vx.
have {}g2 : (pu p0 : 'cV[F]_2) = 0 by exact: (Eqdep_dec.inj_pair2_eq_dec _ Nat.eq_dec _ _ _ _ g2).
have {}g4 : (pu p0' : 'cV[F]_1) = 0 by exact: (Eqdep_dec.inj_pair2_eq_dec _ Nat.eq_dec _ _ _ _ g4).
have [hm hd] := h1 _ (or_introl Logic.eq_refl); cbn [nm pt mem der] in hm, hd.
have [hm' hd'] := h1 _ (or_intror (or_introl Logic.eq_refl)); cbn [nm pt mem der] in hm', hd'; clear h1.
cbn in hm, hd, hm', hd', h2, h3, h4, h5, hdx; subst me d me' d' tmm td.
rewrite g1 g2 g3 g4 g5 in h4 h5 *; clear g1 g2 g3 g4 g5.
have e4 : (f' : 'cV[F]_1) = 0.
  by rewrite h4 -[LHS]/(((0 : 'M[F]_1) *m (0 : 'cV[F]_1) + (0 : 'M[F]_(1, 2)) *m (0 : 'cV[F]_2) + 0) - 0 : 'cV[F]_1) !mulmx0 subr0 !addr0.
have e5 : (tf : 'cV[F]_1) = 0.
  by rewrite h5 -[LHS]/(((0 : 'M[F]_1) *m (0 : 'cV[F]_1) + (0 : 'M[F]_(1, 1)) *m (0 : 'cV[F]_1) + 0) - 0 : 'cV[F]_1) !mulmx0 subr0 !addr0.
have s0 : seg 1 X 0 = 0 by apply/cv1_eq; rewrite !mxE vx.
have s1 : seg 1 X 1 = 0 by apply/cv1_eq; rewrite !mxE vx.
have s4 : seg 1 X 4 = 0 by apply/cv1_eq; rewrite !mxE vx.
have s3 : seg 1 X 3 = const_mx 1 by apply/cv1_eq; rewrite !mxE vx.
have g0 : (0 : 'M[F]_1) *m (0 : 'cV[F]_1) + (1%:M : 'M[F]_1) *m (0 : 'cV[F]_1) + 0 = 0 :> 'cV[F]_1 by rewrite !mulmx0 !addr0.
split.
- split; [|split=> //].
    by rewrite -[X in X = _]/(seg 1 X 0) -[RHS]/((0 : 'M[F]_1) *m (dx dd : 'cV[F]_1) + (0 : 'M[F]_(1, 2)) *m seg 2 X 2 + f' : 'cV[F]_1) s0 e4 !mul0mx !addr0.
  by rewrite -[X in X = _]/(seg 1 X 1) -[RHS]/((0 : 'M[F]_1) *m (seg 1 X 0) + (0 : 'M[F]_1) *m seg 1 X 4 + tf : 'cV[F]_1) s1 e5 !mul0mx !addr0.
- move=> [h _].
  have {}h : between (lin_bound ((const_mx (Some 1) : 'cV[option F]_1) 0 0) (((0 : 'M[F]_1) *m (0 : 'cV[F]_1) + (1%:M : 'M[F]_1) *m (0 : 'cV[F]_1) + 0 : 'cV[F]_1) 0 0))
     (lin_bound ((const_mx (Some 1) : 'cV[option F]_1) 0 0) (((0 : 'M[F]_1) *m (0 : 'cV[F]_1) + (1%:M : 'M[F]_1) *m (0 : 'cV[F]_1) + 0 : 'cV[F]_1) 0 0))
     (((0 : 'M[F]_1) *m seg 1 X 0 + (1%:M : 'M[F]_1) *m seg 1 X 4 : 'cV[F]_1) 0 0) by exact: (h _ (or_intror (or_introl Logic.eq_refl)) 0).
  rewrite g0 s0 s4 !mulmx0 addr0 !mxE /= in h.
  by have [/(_ _ erefl) h1 _] := h; move: h1; rewrite subr0 ler10.
- set K := wrl _ _.
  have eK : K = wrl [:: Blk 0 0 (0 : 'M[F]_1); Blk 0 3 (1%:M : 'M[F]_1)] (fun _ _ => 0) by [].
  have hb : bil 1 5 K (fun _ => 1) X = bsum [:: Blk 0 0 (0 : 'M[F]_1); Blk 0 3 (1%:M : 'M[F]_1)] (fun _ => 1) X.
    rewrite eK bil_filled //=; split=> // r c /andP [_ h2].
    by rewrite orbF /inb /=; apply/negbTE; move: h2; rewrite /inr /=; case: c => [|c] //; rewrite andbC.
  move: hb; rewrite bil_row big_ord1 mul1r => ->.
  rewrite /bsum !big_cons big_nil /bterm /= s3 s0 mul0mx mul1mx /dot mulmx0 addr0 !mxE big_ord1 !mxE add0r mulr1 //.
- by have := wsl1 g0.
- by have := wsl1 g0.
Qed.
Lemma adims (tr : traj M1) : models tr = amods -> nvars (run tr) = 5%N /\ nin (run tr) (trm tr) = 1%N.
Proof.
case: tr => [[|nd [|nd2 [|nd3 k]]] tn] //; rewrite /models; cbn [run trm map] => -[e1 e2 e3].
by rewrite /nvars /nin /neq /= e1 e2 e3.
Qed.
Lemma wrong_gen (s : pqs M1) : models (pq_tr s) = amods -> evaluated (pq_tr s) -> candidate (pq_tr s) = acand ->
  (hd_dx (run (pq_tr s)) (trm (pq_tr s)) : 'cV[F]_1) = 0 -> core s ->
  pq_C s = wrl (cw (List.length (run (pq_tr s))) 0 0 (run (pq_tr s)) (trm (pq_tr s))) (fun _ _ => 0) ->
  pq_l s = wsl (lw false 0 (run (pq_tr s)) (trm (pq_tr s))) (fun _ => Some 0) ->
  pq_u s = wsl (lw true 0 (run (pq_tr s)) (trm (pq_tr s))) (fun _ => Some 0) ->
  dense_feasible (QP_A s) (QP_b s) (QP_C s) (QP_l s) (QP_u s) (adir (dimx s)) /\
  forall y z, ~ sub_bounds (run (unpacked (adir (dimx s)) y z)) (trm (unpacked (adir (dimx s)) y z)).
Proof.
move=> hm he hc hd hcore eC el eu; have [d1 d2] := adims hm.
have hx i : (i < 5)%N -> entv (adir (dimx s)) i = (i == 3%N)%:R.
  move=> hi; have hi' : (i < dimx s)%N by rewrite /dimx d1.
  by rewrite -[i]/(nat_of_ord (Ordinal hi')) entv_ord mxE.
split=> [|y z]; last by have [_ h _ _ _] := wrong_tr (entv y) (entv z) hm he hc hd hx; exact: h.
have [h1 _ h3 h4 h5] := wrong_tr (entv (0 : 'cV[F]_(dime s))) (entv (0 : 'cV[F]_(dimi s))) hm he hc hd hx.
split; first by apply/(proj2 (hcore (adir (dimx s)) 0 0)); exact: h1.
move=> i; have hi : (nat_of_ord i = 0)%N by have := ltn_ord i; rewrite {2}/dimi d2; case: (nat_of_ord i).
have -> : (QP_C s *m adir (dimx s)) i 0 = 1.
  rewrite mxE -[RHS]h3 -eC.
  have gen N (K : buf F) (x : 'cV[F]_N) : N = 5%N -> \sum_(j < N) K 0%N j * x j 0 = \sum_(j < 5) K 0%N j * entv x j.
    by move=> e; subst N; apply: eq_bigr => j _; rewrite entv_ord.
  by rewrite -gen; [apply: eq_bigr => j _; rewrite mxE hi|rewrite /dimx d1].
by rewrite !mxE hi el eu h4 h5; split=> v [<-].
Qed.
(** C40 (refutation): a new solver; its QP accepts a direction that violates the linearised
    constraint of the second node, because C_ multiplies a control of the first node there. *)
Theorem C40_varying_controls_wrong c fsize :
  let s1 := pq_calc c (aobj fsize) in
  let x := adir (dimx s1) in
  [/\ pq_hist px0 (@eq_backend F) aslots (ptslot 0) (aobj fsize),
      dense_feasible (QP_A s1) (QP_b s1) (QP_C s1) (QP_l s1) (QP_u s1) x
    & forall y z, ~ sub_bounds (run (unpacked x y z)) (trm (unpacked x y z))].
Proof.
have hn : pq_hist px0 (@eq_backend F) aslots (ptslot 0) (aobj fsize) by exact: PH_new.
have hg := hist_good hn.
have hcore : core (pq_calc c (aobj fsize)) by apply: (@C40_objective_and_dynamics _ _ _ _ _ _ _ c _ hn); discriminate.
have [he hc] := calc_evaluated c (aobj fsize).
have [e1 e2 e3] := calc_bufs c (aobj fsize).
have hd : (hd_dx (run (pq_tr (pq_calc c (aobj fsize)))) (trm (pq_tr (pq_calc c (aobj fsize)))) : 'cV[F]_1) = 0.
  by rewrite calc_hd; case: hg.
have [h1 h2] := wrong_gen (amod c fsize) he hc hd hcore e1 e2 e3.
by split.
Qed.
End W.
Print Assumptions C41_exposed_multipliers_uncertified.
Print Assumptions C40_varying_controls_wrong.
