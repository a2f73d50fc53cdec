(** * C63: a run of SolverPROXQP::solve that takes a step. *)
From Coq Require Import Ring Field ZArith List Arith.
Set Warnings "-notation-overridden,-ambiguous-paths".
From mathcomp Require Import all_ssreflect all_algebra.
From Verif Require Import FieldTac Eigen EigenExact ExactLemmas Problem LQSpec SsrLia DDP Filter SQP CSQP Init Models TrialSpec TraceSpec
  Rounds SQPSpec CSQPSpec SQPTrial SQPLoop CSQPFrames CSQPTrial CSQPLoop KKTNorm Flat KKT KKTSys PROXQP PROXBlocks PROXSpec PROXSys PROXHist P_PROXQP P_PROXCert P_PROXWitness
  PROXRunSpec PROXRun P_PROXSolve.

Set Implicit Arguments.
Unset Strict Implicit.
Unset Printing Implicit Defensive.

Import Order.TTheory GRing.Theory Num.Theory.
Local Open Scope ring_scope.

Section W.
Variable F : realFieldType.
Variable sq : F -> F.
Notation E := (ExactE sq).
Notation M1 := (euclid E 1).
Add Field FfPR : (F_field_theory F).

Notation hf := (xlit F 1 2).
Lemma hfE : hf * 2%:R = 1.
Proof. by rewrite /xlit /Zr /posr div1r mulVf // -mulr2n pnatr_eq0. Qed.
Lemma two : (2%:R : F) = 1 + 1. Proof. by rewrite -[2%N]/(1 + 1)%N natrD. Qed.
Lemma vl1_1 (v : 'cV[F]_1) : xl1 v = `|v 0 0|.
Proof. by rewrite /xl1 big_ord1. Qed.
(** the trial with step length 1 along the exact solution of the subproblem *)
Lemma ptrial (tr : traj M1) : models tr = pmodels sq 1 1 -> evaluated tr -> candidate tr = porigin sq ->
  (hd_dx (run tr) (trm tr) : 'cV[F]_1) = 0 -> sub_kkt tr ->
  [/\ trial_ok (r1 E) tr, (trial_cost (r1 E) tr : F) < stored_cost tr, (trial_gap (r1 E) tr : F) = 0,
      (trial_con (r1 E) tr : F) = 0 & (stored_gap tr : F) = 0 /\ trial_us (r1 E) tr <> u0 sq].
Proof.
move=> hm he hc hdx hk; have [U [X [L [f1 _ _ eX [nd' [er' eU]]]]]] := pform hm he hc.
have [a1 a2 a3] := proj1 f1 hk; clear f1 hk.
have hU : U 0 0 = - hf.
  have : 2%:R * (1 + 2%:R * U 0 0) = 0.
    have gen (w : F) : 2%:R * (1 + 2%:R * w) = 1 + w + (1 + 3%:R * w) by rewrite -[3%N]/(1 + 2)%N natrD mulr1n two; mcfold F; ring.
    by rewrite -[RHS]a1 -a2 a3; exact: gen.
  move/eqP; rewrite mulf_eq0 pnatr_eq0 /= => /eqP h.
  have : (U 0 0 + hf) * 2%:R = 0 by rewrite mulrDl hfE -[RHS]h addrC mulrC.
  by move/eqP; rewrite mulf_eq0 pnatr_eq0 orbF addr_eq0 => /eqP.
clear a1 a2 L.
move: hm he hc hdx eX eU er'; case: tr => [[|nd [|nd2 k]] tn] //; rewrite /models /candidate /evaluated; cbn [run trm map].
destruct nd as [m p0 me d f v dd a]; cbn [nm pt mem der hd_dx dir].
move=> -[e1 e2]; move: (e1); subst m => _.
destruct tn as [tm0 xx xxt tmm td tf tV tv tdx0 tl tdxt0 z1 z2 z3 ty z4 z5]; cbn in e2; subst tm0.
cbn [tm tx tme tder tdx] => -[h1 h2 h3 [h4 _]] -[e3 e4 e5] hdx eX eU [en]; subst nd'.
cbn [nm dir] in eU.
have {}e4 : (pu p0 : 'cV[F]_1) = 0 by exact: (Eqdep_dec.inj_pair2_eq_dec _ Nat.eq_dec _ _ _ _ e4).
have {}eU : U = (du dd : 'cV[F]_1) by exact: (Eqdep_dec.inj_pair2_eq_dec _ Nat.eq_dec _ _ _ _ eU).
have [hm hd] := h1 _ (or_introl Logic.eq_refl); cbn [nm pt mem der] in hm, hd; clear h1.
cbn in hm, hd, h2, h3, h4; subst me d tmm td.
have tf0 : (tf : 'cV[F]_1) = 0.
  by rewrite h4 e3 e4 e5 -[RHS]/((0 : 'cV[F]_1)) -[LHS]/(((0 : 'M[F]_1) *m (0 : 'cV[F]_1) + (1%:M : 'M[F]_1) *m (0 : 'cV[F]_1) + 0) - 0 : 'cV[F]_1) !mulmx0 subr0 !addr0.
set tr := mkTraj _ _.
have xU : X = U by apply/cv1_eq.
pose u : 'cV[F]_1 := pu p0 + (1 : F) *: du dd.
pose x : 'cV[F]_1 := px p0 + (1 : F) *: dx dd.
pose xT : 'cV[F]_1 := xx + (1 : F) *: tdx0.
have eu : u = U by rewrite /u e4 add0r scale1r -eU.
have ex : x = 0 by rewrite /x e3 add0r scale1r hdx.
have exT : xT = U by rewrite /xT e5 add0r scale1r -xU eX.
have hc1 : (trial_rcost (r1 E) (run tr) : F) = 0 + lq_cost (plq sq 1) x u by [].

have hlq (w v0 : 'cV[F]_1) : (lq_cost (plq sq 1) w v0 : F) = hf * (v0 0 0 * v0 0 0) + v0 0 0.
  rewrite -[LHS]/(hf * dot w ((0 : 'M[F]_1) *m w) + dot w ((0 : 'M[F]_1) *m v0) + hf * dot v0 ((1%:M : 'M[F]_1) *m v0) + dot (0 : 'cV[F]_1) w + dot (const_mx 1 : 'cV[F]_1) v0).
  by rewrite !mul0mx mul1mx /dot !mxE !big_ord1; rewrite !mxE; rewrite ?(mulr0, mul0r, mul1r, add0r, addr0).
have hlt (w : 'cV[F]_1) : (tcost (lq_tmodel (ptlq sq 1)) w : F) = hf * (w 0 0 * (3%:R * w 0 0)) + w 0 0.
  rewrite -[LHS]/(hf * dot w ((3%:R%:M : 'M[F]_1) *m w) + dot (const_mx 1 : 'cV[F]_1) w).
  by rewrite mul_scalar_mx /dot !mxE !big_ord1 !mxE mul1r.
have c1 : (trial_rcost (r1 E) (run tr) : F) = hf * (hf * hf) - hf by rewrite hc1 hlq eu hU add0r mulrNN.
have c2 : (trial_cost (r1 E) tr : F) = - hf.
  rewrite -[LHS]/((trial_rcost (r1 E) (run tr) : F) + tcost (lq_tmodel (ptlq sq 1)) xT) c1 hlt exT hU.
  have h := hfE.
  have -> : hf * (hf * hf) - hf + (hf * (- hf * (3%:R * - hf)) - hf) = (hf * 2%:R) * (hf * 2%:R) * hf - hf * 2%:R.
    by rewrite -[3%N]/(1 + 2)%N natrD mulr1n two; mcfold F; ring.
  have h2 : hf + hf = 1 by rewrite -h two mulrDr mulr1.
  by rewrite h !mul1r -h2 opprD addrA subrr sub0r.
have cs : (stored_cost tr : F) = 0.
  rewrite -[LHS]/(0 + lq_cost (plq sq 1) (px p0) (pu p0) + tcost (lq_tmodel (ptlq sq 1)) xx) hlq hlt e4 e5 !mxE; mcfold F; ring.
have hpos : 0 < hf by exact: xlit_gt0.
have hbig (b : F) : b < 0 -> raiseIfNaN (E := E) b = false.
  move=> ha; rewrite /raiseIfNaN -[LHS]/(xlit F (10 ^ 30) 1 <= b).
  by apply/negbTE; rewrite -ltNge; apply: lt_trans ha _; exact: xlit_gt0.
have z (w : 'cV[F]_0) : xl1 w = 0 by rewrite /xl1 big_ord0.
split.
- have o1 : costs_ok (r1 E) (run tr) (r0 E) = ~~ raiseIfNaN (E := E) (trial_rcost (r1 E) (run tr)) by cbn [costs_ok tr run]; rewrite andbT.
  rewrite /trial_ok o1 c1 c2 !hbig ?oppr_lt0 //.
    have -> : step_in_range (r1 E) = true by rewrite /step_in_range /rgt -[rlt E _ _]/((1 : F) < 1) -[rlt E (r1 E) _]/((1 : F) < 0) ltxx ltr10.
    by [].
  have -> : hf * (hf * hf) - hf = - (hf * (1 - hf * hf)) by mcfold F; ring.
  rewrite oppr_lt0 mulr_gt0 // subr_gt0.
  have h1 : hf < 1 by rewrite -hfE ltr_pmulr // ltr1n.
  by apply: (lt_trans _ h1); rewrite -[X in _ < X]mulr1 (ltr_pmul2l hpos).
- by rewrite c2 cs oppr_lt0.
- rewrite -[LHS]/(0 + xl1 (((0 : 'M[F]_1) *m x + (1%:M : 'M[F]_1) *m u + 0) - xT : 'cV[F]_1)).
  by rewrite mul0mx mul1mx !add0r !addr0 eu exT subrr vl1_1 mxE normr0.
- by rewrite -[LHS]/(0 + xl1 _ + xl1 _ + xl1 _ + xl1 _ : F) !z !addr0.
- split; first by rewrite -[LHS]/(0 + xl1 (tf : 'cV[F]_1)) tf0 vl1_1 mxE normr0 addr0.
  rewrite -[trial_us _ _]/[:: existT (vec E) 1%N (u : vec E 1)] => -[h].
  have {}h : u = (0 : 'cV[F]_1) by exact: (Eqdep_dec.inj_pair2_eq_dec _ Nat.eq_dec _ _ _ _ h).
  by move: hpos; rewrite -oppr_lt0 -hU -eu h mxE ltxx.
Qed.

(** maxiter = 1, one step length, termination_tol below the residual at the guess: solve
    takes the unit step and returns false *)
Theorem C63_step_taken (c : pcfg sq) fuel reg fsize :
  c_alphas (pc_ddp c) = [:: r1 E] -> (c_tol (pc_ddp c) : F) < 1 -> 0 <= (c_tol (pc_ddp c) : F) -> pc_filter c = false -> (c_stepinc (pc_ddp c) : F) < 1 ->
  let s := pobj sq 1 1 fsize in
  exists s', [/\ pq_hist (px0 sq) (@eq_backend F) [:: pslot sq 1] (ptslot sq 1) s,
     pq_solve (px0 sq) (@eq_backend F) c (S fuel) (xs0 sq) (u0 sq) 1 reg s = PRet false s'
   & exists r a, pq_run (px0 sq) (@eq_backend F) [:: pslot sq 1] c (xs0 sq) (u0 sq) 1 reg s [:: r] false s' /\
       r_acc r = Some a /\ a_step a = 1].
Proof.
move=> hal ht1 ht0 hfl hinc s; set p : F := init_reg (pc_ddp c) reg.
have hne : run (pq_tr (pstart sq 1 1 fsize p)) <> [::] by [].
have [s1 hs1] := answers c (1 : F) 1 fsize p.
have hd := hs1; rewrite direction_recalc // in hd.
have [hk he hc] := direction_ready (@eq_backend_exact F) (pready c 1 1 fsize p) hd.
have [fm fe fc fmu] := start_facts c (1 : F) 1 fsize p.
have [hne1 _ _] := pready c (1 : F) 1 fsize p.
have [hK _ hmo] := direction_cert hne1 fe hd.
have hn : pq_hist (px0 sq) (@eq_backend F) [:: pslot sq 1] (ptslot sq 1) s by exact: PH_new.
have hfs : hd_fs (run (pq_tr (pstart sq 1 1 fsize p))) (trm (pq_tr (pstart sq 1 1 fsize p))) = vzero E by [].
have hdx0 : hd_dx (run (pq_tr (pstart sq 1 1 fsize p))) (trm (pq_tr (pstart sq 1 1 fsize p))) = vzero E by [].
have [t _ [_ [_ q2 q3 q4 q5] _]] := pdirP hfs hs1.
have hdx1 : (hd_dx (run (pq_tr s1)) (trm (pq_tr s1)) : 'cV[F]_1) = 0.
  have [hsh _] : keeps (pstart sq 1 1 fsize p) s1 by have := @keeps_direction F sq M1 (@eq_backend F) c true (pstart sq 1 1 fsize p); rewrite hs1.
  by move: hsh; rewrite /PROXHist.shape => -[_ _ -> _].
have [o1 o2 o3 o4 [o5 o6]] := ptrial (etrans hmo fm) he (etrans hc fc) hdx1 hk.
have hcon := pcon (etrans hmo fm).
have hp : ppasses c (pq_push s1) 1.
  rewrite /ppasses /pverdict hfl; apply/andP; split; first exact: o1.
  rewrite /pq_trial_merit -[pq_merit (pq_push s1)]/(pq_merit s1) q5 q2 q3 q4 -[pq_tr (pq_push s1)]/(pq_tr s1).
  rewrite /pq_merit_fun -[1]/(r1 E) o3 o4 o5 hcon !mulr0 !addr0; exact: o2.
have hko : (pq_KKT s1 <= (c_tol (pc_ddp c) : F)) = false.
  apply/negbTE/negP; rewrite hK => /(C41_kkt_norm _ ht0 hne1) [u1 u2 u3].
  have hu : kkt_within (c_tol (pc_ddp c)) (pq_tr (pq_calc c (pstart sq 1 1 fsize p))).
    split=> //; apply: con_rows; rewrite (pcon fm); exact: ht0.
  have [U0 [X0 [L0 [_ g2 eL0 _ _]]]] := pform fm fe fc; move/(g2 _ ht0): hu => [].
  have -> : L0 = 0 by rewrite eL0.
  by rewrite mxE addr0 normr1 leNgt ht1.
have [tr hg htr] := pguess sq (1 : F) 1 fsize.
have := psearchP c (c_alphas (pc_ddp c)) (pq_push s1).
case es: (pq_search _ _ _) => [s2|]; last first.
  rewrite hal => -[a [[<-|//] [_ h]]]; move: hp; rewrite /ppasses h andbF; by [].
rewrite {1}hal => hsd.
have [sx [t1 [e1 e2 e3 e4]]] : exists sx t1, [/\ s2 = set_p_tr sx (accept_try (pq_tr sx)), touched_traj (pq_tr s1) t1,
    pq_tr sx = trial_traj (r1 E) t1 & pq_step s2 = 1].
  case: hsd => [pre a post sx t1 ha _ _ _ h1 h2 h3 h4|h _ _].
    have ea : a = r1 E by case: pre ha => [[]|b [|]].
    by rewrite ea in h3 h4; exists sx, t1; split.
  by have := List.Forall_inv h; rewrite hp.
have husx : get_us (pq_tr s2) <> u0 sq.
  by rewrite e1; cbn [pq_tr set_p_tr]; rewrite e3 (get_us_accept (E := E)) (@trial_us_t E M1 (r1 E) _ _ e2).
pose s3 := if (c_stepdec (pc_ddp c) : F) < pq_step s2 then pq_dec c s2 else s2.
have [us3 st3] : get_us (pq_tr s3) = get_us (pq_tr s2) /\ pq_step s3 = 1 by rewrite /s3; case: ifP.
have hs' : pq_solve (px0 sq) (@eq_backend F) c (S fuel) (xs0 sq) (u0 sq) 1 reg s = PRet false (set_p_iter s3 1).
  rewrite /pq_solve hg htr; cbn [pq_loop pq_retry]; rewrite -/p -/(pstart sq 1 1 fsize p) hs1 hko es -/s3.
  by rewrite st3 leNgt hinc.
exists (set_p_iter s3 1); split=> //.
have [rs hr] := C63_proxqp_run hn hs'.
have hlen : List.length rs = 1%N.
  have [h1 _] := prun_budget hr; have := prun_iter hr; cbn [pq_iter set_p_iter]; case=> [//|[h2 _]].
  by rewrite -h2 in h1; slia.
case: rs hr hlen => [//|r [|//]] hr _; exists r.
have hsr := prun_searched hr (or_introl hfl).
have hit := prun_iterates hr.
case ea: (r_acc r) => [a|]; first (exists a; split=> //; split=> //).
  have := hsr 0%N r erefl; rewrite ea; cbn [ls_alphas pq_rule]; rewrite hal; cbn [List.find].
  by case: (admissible _ _ _ _) => // -[->].
case: hit => _ [h1 [_ h2]]; case: husx; rewrite -us3 -[get_us (pq_tr s3)]/(get_us (pq_tr (set_p_iter s3 1))).
by rewrite h2 /next_us ea h1.
Qed.
End W.
Print Assumptions C63_step_taken.
