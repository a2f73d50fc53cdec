(** * C64: a run of SolverKKT::solve that takes a step and then certifies the result. *)
From Coq Require Import Ring Field ZArith List Arith.
Set Warnings "-notation-overridden,-ambiguous-paths".
From mathcomp Require Import all_ssreflect all_algebra.
From Verif Require Import FieldTac Eigen EigenExact ExactLemmas Problem LQSpec Riccati SubQP LQHom SsrLia Init Flat Models KKT KKTSpec KKTSys P_Direction KKTUniq KKTHist KKTNorm P_KKT P_KKTWitness KKTRunSpec KKTRun P_KKTSolve.

Set Implicit Arguments.
Unset Strict Implicit.
Unset Printing Implicit Defensive.

Import Order.TTheory GRing.Theory Num.Theory.
Local Open Scope ring_scope.

Section W.
Variable F : realFieldType.
Variable sq : F -> F.
Notation E := (ExactE sq).
Notation M1 := (euclid E 1).
Add Field FfKX : (F_field_theory F).
Definition never_bad (_ : seq (mX M1)) (_ : seq {k : nat & vec E k}) : bool := false.
Notation lu := (@inv_lu F).
Notation hist := (kk_hist (kx0 sq) lu never_bad [:: kslot sq 0] (ktslot sq 0)).
Notation direction := (kk_direction (kx0 sq) lu never_bad).
Definition wcfg : kcfg F := mkKcfg 0 1 0 0 [:: 1] 1.
Notation ug u := (@uguess F sq u).

Lemma ug_inj (u v : 'cV[F]_1) : ug u = ug v -> u = v.
Proof. by case=> e; exact: (Eqdep_dec.inj_pair2_eq_dec _ Nat.eq_dec _ _ _ _ e). Qed.
(** the residual of a direction at control u is at most 0 iff u = 0; the full step goes to u = 0 *)
Lemma wdir (s s1 : kkts M1) (u : 'cV[F]_1) : hist s -> direction true s = KDok s1 -> get_us (kk_tr s1) = ug u ->
  (kk_KKT s1 <= 0 <-> u = 0) /\ step_us 1 (kk_tr s1) = ug 0.
Proof.
move=> hh hd hu.
have [hc [_ eus _ _]] := C42_system hh hd.
split.
  have [v ev hk] := kresidual hh hd (lexx 0).
  have evu : v = u by apply: ug_inj; rewrite -hu eus ev.
  rewrite evu addr0 subr0 mulr0 normr0 lexx normr_le0 in hk; split.
    by move/hk => [/eqP e _]; apply/matrixP => i j; rewrite !ord1 e mxE.
  by move=> e; apply/hk; rewrite e mxE eqxx.
have hh' := KH_dir hh hd; have [sy cv pL] := kconvex hh' hc.
have [_ hs _] := C42_convex_unique_minimiser (@inv_exact F) hh hd sy cv pL.
have [p [f [v [dd [a [tn [etr [e1 e2]]]]]]]] := kform hh' hc.
rewrite etr in hs hu *.
have eu : (pu p : 'cV[F]_1) = u by apply: ug_inj; exact: hu.
have [_ /= hU _ [_ hT]] := hs.
rewrite /= in hT; rewrite e1 e2 mul0mx addr0 in hT.
rewrite -hT trmx0 !mul0mx !mul1mx trmx1 mul1mx add0r addr0 in hU.
have hD : (pu p : 'cV[F]_1) + (1 : F) *: (du dd : 'cV[F]_1) = 0.
  rewrite scale1r -[RHS]hU; apply/matrixP => i j; rewrite !mxE.
  by rewrite !addr0.
by rewrite /step_us /=; congr [:: existT _ _ _].
Qed.
Lemma loop_ret k : forall i rc (s : kkts M1), hist s -> exists b s', kk_loop (kx0 sq) lu never_bad wcfg 2 k i rc s = KRet b s'.
Proof.
elim: k => [|k IH] i rc s0 h0; first by exists false; eexists.
cbn [kk_loop kk_retry].
have hI : hist (set_k_iter s0 i) by exact: KH_iter.
have [s1 hd] : exists s1, direction rc (set_k_iter s0 i) = KDok s1.
  by case: rc; [exact: (dir_runs hI)|eexists; reflexivity].
rewrite hd; case: ifP => _; first by exists true; eexists.
case: ifP => _; first by exists true; eexists.
by apply: IH; apply: KH_stopping; apply: KH_search; apply: KH_expected; exact: KH_dir hd.
Qed.
Theorem C64_step_taken : exists s' : kkts M1,
  kk_solve (kx0 sq) lu never_bad wcfg 2 [:: (0 : mX M1); (0 : mX M1)] (ug (const_mx 1)) 2 false (kobj sq 0 0) = KRet true s' /\
  exists r, kk_run (kx0 sq) lu never_bad [:: kslot sq 0] (ktslot sq 0) wcfg [:: (0 : mX M1); (0 : mX M1)] (ug (const_mx 1)) 2 false (kobj sq 0 0) [:: r] true s' /\
    q_acc r = Some 1 /\ get_us (kk_tr s') = ug 0.
Proof.
have hn : hist (kobj sq 0 0) by exact: KH_new.
set xs := [:: (0 : mX M1); (0 : mX M1)].
have [tr hg [ex eu]] := guess_ok 0 0 (const_mx 1) hn.
have hrun := @C64_kkt_run F sq M1 (kx0 sq) lu never_bad [:: kslot sq 0] (ktslot sq 0) (kobj sq 0 0) wcfg 2 xs (ug (const_mx 1)) 2 false.
have [b [s' er]] : exists b s', kk_solve (kx0 sq) lu never_bad wcfg 2 xs (ug (const_mx 1)) 2 false (kobj sq 0 0) = KRet b s'.
  rewrite /kk_solve hg; apply: loop_ret; apply: (KH_candidate _ hn); exact: hg.
have [rs hr] := hrun b s' hn erefl er; have [kp kd ks kb kg kw kt kf] := hr.
have one0 : (const_mx 1 : 'cV[F]_1) <> 0.
  by move=> /(congr1 (fun v : 'cV[F]_1 => v 0 0)); rewrite !mxE => /eqP; rewrite oner_eq0.
case: rs hr kp kd ks kb kg kw kt kf => [|r rs] hr kp kd ks kb kg kw kt kf.
  exfalso; case: b er hr kt kf => er hr kt kf; last by have [] := kf erefl.
  case: (kt erefl) => [[_ [_ [hk [s1 [s2 [hh [hd ht hK _]]]]]]]|[[|? ?] [? [e]]]] //.
  have [_ eu' _] := kp; rewrite ht in eu'; have [hz _] := wdir hh hd eu'.
  by apply: one0; apply/hz; rewrite -hK.
have [kp1 kp2 kp3 kp4] := kp.
have [s1 [s2 [hh [hd ht hK _ hlt]]]] := kd r (or_introl erefl).
rewrite ht in kp2; have [hz hst] := wdir hh hd kp2.
have ea : q_acc r = Some 1.
  have hp : passes never_bad wcfg r 1 by split=> //; exact: Or32.
  have := ks r (or_introl erefl); rewrite /searched; case: (q_acc r) => [a|h]; last by case: (h 1 (or_introl erefl)).
  by move=> [[|? [|? ?]] [post [[]]]] // ->.
rewrite ea ht hst in kp4.
case: rs hr kp kd ks kb kg kw kt kf kp4 => [|r' rs] hr kp kd ks kb kg kw kt kf kp4.
  have [_ e2 _] := kp4.
  case: b er hr kt kf => er hr kt kf; last by have [] := kf erefl.
  by exists s'; split=> //; exists r.
exfalso; have [_ kq2 _ _] := kp4.
have [s3 [s4 [hh' [hd' ht' hK' _ hlt']]]] := kd r' (or_intror (or_introl erefl)).
rewrite ht' in kq2; have [hz' _] := wdir hh' hd' kq2.
by move: hlt'; rewrite hK' ltNge; have -> : kk_KKT s4 <= kc_tol wcfg by exact/hz'.
Qed.
End W.
