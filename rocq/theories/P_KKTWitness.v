(** * Concrete SolverKKT runs: the hypotheses of C42-C44 are met; C43, C44 as stated fail. *)
From Coq Require Import Ring Field ZArith List Arith.
Set Warnings "-notation-overridden,-ambiguous-paths".
From mathcomp Require Import all_ssreflect all_algebra.
From Verif Require Import FieldTac Eigen EigenExact ExactLemmas Problem LQSpec Riccati SubQP LQHom SsrLia Init Flat Models KKT KKTSpec KKTSys P_Direction KKTUniq KKTHist KKTNorm P_KKT.

Set Implicit Arguments.
Unset Strict Implicit.
Unset Printing Implicit Defensive.

Import Order.TTheory GRing.Theory Num.Theory.
Local Open Scope ring_scope.

Section W.
Variable F : realFieldType.
Variable sq : F -> F.
Notation E := (ExactE sq).
Notation M1 := (euclid E 1).
Add Field FfKW : (F_field_theory F).

(** x+ = x + u, running cost u^2/2 + r u, terminal cost q x *)
Definition klq (r : F) : lq E 1 1 0 :=
  @mkLq E 1 1 0 (1%:M : 'M[F]_1) (1%:M : 'M[F]_1) (0 : 'cV[F]_1)
    (0 : 'M[F]_1) (0 : 'M[F]_1) (1%:M : 'M[F]_1) (0 : 'cV[F]_1) (const_mx r : 'cV[F]_1)
    (0 : 'M[F]_(0,1)) (0 : 'M[F]_(0,1)) (0 : 'cV[F]_0) (const_mx None : 'cV[option F]_0) (const_mx None : 'cV[option F]_0).
Definition ktlq (q : F) : tlq E 1 0 :=
  @mkTlq E 1 0 (0 : 'M[F]_1) (const_mx q : 'cV[F]_1) (0 : 'M[F]_(0,1)) (0 : 'cV[F]_0)
    (const_mx None : 'cV[option F]_0) (const_mx None : 'cV[option F]_0).
Definition kslot (r : F) : slot M1 :=
  @mkSlot E M1 (lq_model (klq r)) ((0 : 'cV[F]_1), (0 : 'cV[F]_1))
    (adiff (lq_model (klq r)) ((0 : 'cV[F]_1), (0 : 'cV[F]_1)) (0 : 'cV[F]_1) (0 : 'cV[F]_1)) (0 : 'cV[F]_0) (0 : 'cV[F]_0).
Definition ktslot (q : F) : tslot M1 :=
  @mkTslot E M1 (lq_tmodel (ktlq q)) (0 : 'cV[F]_1)
    (tdiff (lq_tmodel (ktlq q)) (0 : 'cV[F]_1) (0 : 'cV[F]_1)) (0 : 'cV[F]_0) (0 : 'cV[F]_0).
Definition kx0 : mX M1 := (0 : 'cV[F]_1).
Definition kobj (r q : F) : kkts M1 := new_kkt kx0 [:: kslot r] (ktslot q).
Definition inv_lu (N : nat) (A : 'M[F]_N) (b : 'cV[F]_N) : 'cV[F]_N := invmx A *m b.
Lemma inv_exact : exact_lu inv_lu.
Proof. by move=> N A b hA; rewrite /inv_lu mulmxA mulmxV // mul1mx. Qed.
Variable bad : seq (mX M1) -> seq {k : nat & vec E k} -> bool.
Notation hist r q := (kk_hist kx0 inv_lu bad [:: kslot r] (ktslot q)).
Notation direction := (kk_direction kx0 inv_lu bad).

(** what any object built on this problem looks like once its derivatives are current *)
Lemma kform r q (s : kkts M1) : hist r q s -> current_derivatives (kk_tr s) ->
  exists p f v (dd : dirs M1 1) a (tn : tnode M1),
  kk_tr s = mkTraj [:: @mkNode E M1 (lq_model (klq r)) p (px p, pu p)
     (adiff (lq_model (klq r)) (px p, pu p) (px p) (pu p)) f v dd a] tn /\
  (tLxx (tder tn) : 'M[F]_1) = 0 /\ (tLx (tder tn) : 'cV[F]_1) = const_mx q.
Proof.
move=> /hist_inv [hs _ _] [hr ht]; have h1 := congr1 fst hs; have h2 := congr1 (fun z => fst (snd z)) hs.
case: (kk_tr s) h1 h2 hr ht => k tn h1 h2 hr ht; rewrite /= in h1 h2 hr ht.
case: k h1 hr => [|nd [|nd2 k]] //= [e1 _] hr.
have [hd hm] := hr nd (or_introl erefl); clear hr hs.
destruct nd as [m p me d f v dd a]; cbn in e1, hd, hm; subst m; cbn in hd, hm.
exists p, f, v, dd, a, tn; split; first by rewrite hd hm.
clear hd hm; destruct tn as [tm0 xx ? ? td0]; cbn in h2, ht; subst tm0; cbn in ht; cbn [tder].
rewrite ht; split=> //; exact: (etrans (congr1 (fun z : 'cV[F]_1 => z + const_mx q) (mul0mx _ (xx : 'cV[F]_1))) (add0r _)).
Qed.
Lemma kconvex r q (s : kkts M1) : hist r q s -> current_derivatives (kk_tr s) ->
  [/\ traj_sym (kk_tr s), traj_convex (kk_tr s) & pos_Luu (run (kk_tr s))].
Proof.
move=> hh hc; have [p [f [v [dd [a [tn [-> [e1 e2]]]]]]]] := kform hh hc.
split.
- split=> [nd|]; last by cbn [trm]; rewrite /tnode_sym /is_sym e1 trmx0.
  by case=> // <-; split; rewrite /is_sym /= ?trmx0 ?trmx1.
- split=> [nd|x]; last by cbn [trm]; rewrite e1 quadE qfE mul0mx bf0r.
  case=> // <- x u; rewrite /= !quadE dotE !qfE !mul0mx !bf0r mulr0 !add0r mul1mx; exact: bf_ge0.
- by move=> nd [<-|//] u hu; rewrite /= quadE qfE mul1mx; exact: bf_gt0.
Qed.
(** the residual of this problem, in closed form *)
Lemma kresidual r q s s' tol : hist r q s -> direction true s = KDok s' -> 0 <= tol ->
  exists2 u : 'cV[F]_1, get_us (kk_tr s) = [:: existT (vec E) 1%N u] &
  (kk_KKT s' <= tol <-> `|u 0 0 + r - q| <= tol /\ `|2%:R * q| <= tol).
Proof.
move=> hh hd h0.
have [hc [_ eus _ _]] := C42_system hh hd.
have hh' := KH_dir hh hd; have [sy cv pL] := kconvex hh' hc.
have [hu hs _] := C42_convex_unique_minimiser inv_exact hh hd sy cv pL.
have hr := C43_reported_residual inv_exact hh hd hu h0.
have [p [f [v [dd [a [tn [etr [e1 e2]]]]]]]] := kform hh' hc.
rewrite etr in hs hr eus; exists (pu p); first by rewrite -eus.
have [_ /= hU _ [_ hT]] := hs.
rewrite /= in hT; rewrite e1 e2 mul0mx addr0 in hT.
rewrite -hT trmx0 !mul0mx !mul1mx trmx1 mul1mx add0r addr0 in hU.
set U := (pu p : 'cV[F]_1) in hU *; set D := (du dd : 'cV[F]_1) in hU.
have hD : D 0 0 = - (U 0 0 + r + q).
  move: (congr1 (fun w : 'cV[F]_1 => w 0 0) hU); rewrite !mxE.
  move: (U 0 0) (D 0 0) => b c /eqP; rewrite addrAC addr_eq0 => /eqP h.
  by rewrite h opprK.
have one (w : 'cV[F]_1) : entries_le w tol <-> `|w 0 0| <= tol by split=> [h|h i]; [exact: h|rewrite ord1].
have redu : reported_le (mkTraj [:: @mkNode E M1 (lq_model (klq r)) p (px p, pu p) (adiff (lq_model (klq r)) (px p, pu p) (px p) (pu p)) f v dd a] tn) tol
   <-> `|U 0 0 + r - q| <= tol /\ `|2%:R * q| <= tol.
  have vu : (2%:R *: ((0 : 'M[F]_1)^T *m (px p : 'cV[F]_1) + (1%:M : 'M[F]_1) *m U + const_mx r) + (1%:M : 'M[F]_1) *m D + (0 : 'M[F]_1)^T *m (dx dd : 'cV[F]_1)) 0 0 = U 0 0 + r - q.
    rewrite trmx0 !mul0mx !mul1mx add0r addr0 !mxE hD; move: (U 0 0) => b.
    by rewrite mulrDr mulrC (mulrC _ r) !mulr_natr !mulr2n; mcfold F; ring.
  have vx : (2%:R *: ((0 : 'M[F]_1) *m (px p : 'cV[F]_1) + (0 : 'M[F]_1) *m U + 0) + (0 : 'M[F]_1) *m (dx dd : 'cV[F]_1) + (0 : 'M[F]_1) *m D) 0 0 = 0.
    by rewrite !mul0mx !addr0 scaler0 mxE.
  have vt : (2%:R *: (tLx (tder tn) : 'cV[F]_1) + (tLxx (tder tn) : 'M[F]_1) *m (tdx tn : 'cV[F]_1)) 0 0 = 2%:R * q.
    by rewrite e1 e2 mul0mx addr0 !mxE.
  split.
    move=> [h /one ht]; rewrite vt in ht; split=> //.
    by have [_ /one] := h _ (or_introl erefl); rewrite -[X in `|X|]/((2%:R *: ((0 : 'M[F]_1)^T *m (px p : 'cV[F]_1) + (1%:M : 'M[F]_1) *m U + const_mx r) + (1%:M : 'M[F]_1) *m D + (0 : 'M[F]_1)^T *m (dx dd : 'cV[F]_1)) 0 0) vu.
  move=> [h ht]; split; last by apply/one; rewrite vt.
  move=> nd [<-|//]; split; apply/one.
    by rewrite -[X in `|X|]/((2%:R *: ((0 : 'M[F]_1) *m (px p : 'cV[F]_1) + (0 : 'M[F]_1) *m U + 0) + (0 : 'M[F]_1) *m (dx dd : 'cV[F]_1) + (0 : 'M[F]_1) *m D) 0 0) vx normr0.
  by rewrite -[X in `|X|]/((2%:R *: ((0 : 'M[F]_1)^T *m (px p : 'cV[F]_1) + (1%:M : 'M[F]_1) *m U + const_mx r) + (1%:M : 'M[F]_1) *m D + (0 : 'M[F]_1)^T *m (dx dd : 'cV[F]_1)) 0 0) vu.
by split=> [/hr /redu //|/redu /hr].
Qed.
Definition uguess (u : 'cV[F]_1) : seq {k : nat & vec E k} := [:: existT (vec E) 1%N (u : vec E 1)].
Lemma guess_ok r q (s : kkts M1) (a b u : 'cV[F]_1) : hist r q s ->
  exists2 tr, set_guess [:: (a : mX M1); (b : mX M1)] (uguess u) (kk_tr s) = Some tr &
    get_xs tr = [:: (a : mX M1); (b : mX M1)] /\ get_us tr = uguess u.
Proof.
move=> hh; have [hs _ _] := hist_inv hh; case: (kk_tr s) hs => k tn hs.
have h1 := congr1 fst hs; rewrite /= in h1.
case: k h1 {hs} => [|nd [|nd2 k]] //= [e1 _]; destruct nd as [m p me d f v dd ad]; cbn in e1; subst m.
by eexists; first (rewrite /set_guess /=; reflexivity).
Qed.
Lemma dir_runs r q (s : kkts M1) : hist r q s -> bad (get_xs (kk_tr s)) (get_us (kk_tr s)) = false ->
  exists s', direction true s = KDok s'.
Proof.
move=> hh hb; rewrite /kk_direction hb /kk_calcDiff /problem_calcDiff /problem_calc.
have hz := hist_run hh; rewrite /= in hz; case e: (run (kk_tr s)) hz => [//|nd k] _.
cbn [run trm]; rewrite ?e; cbn [List.map]; eexists; reflexivity.
Qed.

(** C43 (refutation): whatever the states of the guess -- also if they violate the dynamics
    or the initial condition -- the call returns true at once with that guess. *)
Theorem C43_infeasible_candidate_certified c fuel maxiter feas (a b : 'cV[F]_1) :
  0 <= kc_tol c -> (0 < maxiter)%N -> bad [:: (a : mX M1); (b : mX M1)] (uguess 0) = false ->
  exists s1, kk_KKT s1 <= kc_tol c /\
    kk_solve kx0 inv_lu bad c (S fuel) [:: (a : mX M1); (b : mX M1)] (uguess 0) maxiter feas (kobj 0 0) = KRet true (kk_expected s1) /\
    (exists2 s, hist 0 0 s & direction true s = KDok s1) /\
    get_xs (kk_tr s1) = [:: (a : mX M1); (b : mX M1)].
Proof.
move=> h0; case: maxiter => [//|k] _ hb; have hn : hist 0 0 (kobj 0 0) by exact: KH_new.
have [tr hg [ex eu]] := guess_ok a b 0 hn.
have hh : hist 0 0 (set_k_iter (set_k_feas (set_k_tr (kobj 0 0) tr) feas) 0).
  by apply: KH_iter; apply: KH_candidate hg.
rewrite /kk_solve hg; set s0 := set_k_feas _ _ in hh *.
have [s1 hd] : exists s1, direction true (set_k_iter s0 0) = KDok s1.
  by apply: (dir_runs hh); rewrite -[kk_tr _]/tr ex eu.
have [u eu' hk] := kresidual hh hd h0.
have ht : kk_KKT s1 <= kc_tol c.
  apply/hk; move: eu'; rewrite -[kk_tr (set_k_iter s0 0)]/tr eu => -[e].
  have -> : u = 0 by rewrite -(Eqdep_dec.inj_pair2_eq_dec _ Nat.eq_dec _ _ _ _ e).
  by rewrite mxE addr0 subr0 mulr0 normr0.
exists s1; split=> //; split; last first.
  split; first by exists (set_k_iter s0 0).
  by have [_ [-> _ _ _]] := C42_system hh hd.
cbn [kk_loop kk_retry]; rewrite hd.
by rewrite -[kk_KKT (kk_expected s1)]/(kk_KKT s1) ht.
Qed.
(** C43 (refutation): at the solution of a problem with non-zero gradients the computed
    direction is zero and the defects vanish, but the residual is 2 *)
Theorem C43_optimum_not_certified :
  bad [:: (0 : mX M1); (0 : mX M1)] (uguess 0) = false ->
  exists s s1, [/\ hist 1 (-1) s, direction true s = KDok s1,
     get_xs (kk_tr s1) = [:: (0 : mX M1); (0 : mX M1)] /\ get_us (kk_tr s1) = uguess 0,
     zero_direction (run (kk_tr s1)) (trm (kk_tr s1))
   & forall tol, 0 <= tol -> kk_KKT s1 <= tol <-> 2%:R <= tol].
Proof.
move=> hb; have hn : hist 1 (-1) (kobj 1 (-1)) by exact: KH_new.
have [tr hg [ex eu]] := guess_ok 0 0 0 hn.
have hh : hist 1 (-1) (set_k_feas (set_k_tr (kobj 1 (-1)) tr) false) by exact: KH_candidate hg.
set s0 := set_k_feas _ _ in hh *.
have [s1 hd] : exists s1, direction true s0 = KDok s1.
  by apply: (dir_runs hh); rewrite -[kk_tr _]/tr ex eu.
exists s0, s1; have [hc [e1 e2 _ _]] := C42_system hh hd.
have hh' := KH_dir hh hd; have [sy cv pL] := kconvex hh' hc.
have [_ hs _] := C42_convex_unique_minimiser inv_exact hh hd sy cv pL.
rewrite -[kk_tr s0]/tr ex in e1; rewrite -[kk_tr s0]/tr eu in e2.
split=> //; last first.
  move=> tol h0; have [u eu' hk] := kresidual hh hd h0.
  move: eu'; rewrite -[kk_tr s0]/tr eu => -[e].
  have e0 : u = 0 by rewrite -(Eqdep_dec.inj_pair2_eq_dec _ Nat.eq_dec _ _ _ _ e).
  rewrite e0 mxE add0r opprK mulrN mulr1 normrN (ger0_norm (ler0n F 2)) in hk.
  by split=> [/hk []|h] //; apply/hk.
have [p [f [v [dd [a [tn [etr [f1 f2]]]]]]]] := kform hh' hc.
rewrite etr in hs e1 e2 *.
have ex1 : (px p : 'cV[F]_1) = 0 by case: e1.
have ex2 : (tx tn : 'cV[F]_1) = 0 by case: e1.
have eu1 : (pu p : 'cV[F]_1) = 0 by case: e2 => e; exact: (Eqdep_dec.inj_pair2_eq_dec _ Nat.eq_dec _ _ _ _ e).
have [/= hX hU _ [hT1 hT]] := hs.
rewrite /= f1 f2 mul0mx addr0 in hT; rewrite -hT trmx0 !mul0mx !mul1mx trmx1 mul1mx eu1 add0r !addr0 add0r in hU.
have d0 : (dx dd : 'cV[F]_1) = 0 by rewrite hX ex1 /= subrr oppr0.
have u0 : (du dd : 'cV[F]_1) = 0.
  by move: hU; rewrite addrAC -[const_mx 1 + _]/(const_mx 1 + const_mx (-1) : 'cV[F]_1) => <-; apply/matrixP => i j; rewrite !mxE subrr add0r.
split=> [nd [<-|//]|]; first by split.
by rewrite hT1 ex1 ex2 eu1 d0 u0 !mulmx0 ?addr0 ?subr0 ?oppr0.
Qed.
(** C44 (refutation): the models raise at the second guess, and the call returns true
    with that guess *)
Theorem C44_raising_guess_returned_as_solution c fuel feas (a b a2 b2 u2 : 'cV[F]_1) :
  0 <= kc_tol c -> kc_rmax c != 0 ->
  bad [:: (a : mX M1); (b : mX M1)] (uguess 0) = false ->
  bad [:: (a2 : mX M1); (b2 : mX M1)] (uguess u2) ->
  exists s1 s2,
    kk_solve kx0 inv_lu bad c (S (S fuel)) [:: (a : mX M1); (b : mX M1)] (uguess 0) 1 feas (kobj 0 0) = KRet true s1 /\
    kk_solve kx0 inv_lu bad c (S (S fuel)) [:: (a2 : mX M1); (b2 : mX M1)] (uguess u2) 1 feas s1 = KRet true s2 /\
    get_xs (kk_tr s2) = [:: (a2 : mX M1); (b2 : mX M1)].
Proof.
move=> h0 hm hb hb2.
have [s1 [ht [hsol [[s hh hd] ex]]]] := @C43_infeasible_candidate_certified c (S fuel) 1 feas a b h0 erefl hb.
have [tr hg [ex2 eu2]] := guess_ok a2 b2 u2 (KH_dir hh hd).
have hbt : bad (get_xs tr) (get_us tr) by rewrite ex2 eu2.
have [s2 h2 [e2 _]] := @C44_true_after_raise F sq M1 kx0 inv_lu bad [:: kslot 0] (ktslot 0) c fuel _ _ 1 feas s s1 tr hh hd ht hm hg hbt erefl.
by exists (kk_expected s1), s2; split=> //; split=> //; rewrite e2.
Qed.
(** the hypotheses of C42 are met *)
Example C42_hypotheses_met : bad [:: (0 : mX M1); (0 : mX M1)] (uguess 0) = false ->
  exists s s', [/\ exact_lu inv_lu, hist 1 (-1) s, direction true s = KDok s' &
    [/\ traj_sym (kk_tr s'), traj_convex (kk_tr s') & pos_Luu (run (kk_tr s'))]].
Proof.
move=> hb; have [s [s1 [hh hd _ _ _]]] := C43_optimum_not_certified hb; exists s, s1; split=> //; first exact: inv_exact.
by have [hc _] := C42_system hh hd; exact: kconvex (KH_dir hh hd) hc.
Qed.
End W.
Print Assumptions C43_infeasible_candidate_certified.
Print Assumptions C43_optimum_not_certified.
Print Assumptions C44_raising_guess_returned_as_solution.
Print Assumptions C42_convex_unique_minimiser.
