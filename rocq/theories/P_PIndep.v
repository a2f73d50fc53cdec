(** * C65: how much of an object's past a call of SolverPROXQP::solve can see. *)
From Coq Require Import ZArith List Arith Lia.
Set Warnings "-notation-overridden,-ambiguous-paths".
From mathcomp Require Import all_ssreflect all_algebra.
From Verif Require Import Eigen EigenExact Problem DDP Filter FilterProofs SQP CSQP Init Models Flat KKT PROXQP PROXBlocks PROXSys PROXHist
  PROXRunSpec P_PROXSolve ADMMExact SsrLia CIndep P_CIndep PIndep PIndepLoop P_PROXWitness P_PROXRunWitness.
From Verif Require History.

Set Implicit Arguments.
Unset Strict Implicit.
Unset Printing Implicit Defensive.

Import Order.TTheory GRing.Theory Num.Theory.
Local Open Scope ring_scope.

Section Indep65.
Variable F : realFieldType.
Variable sq : F -> F.
Notation E := (ExactE sq).
Variable M : manifold E.
Notation X := (mX M).
Notation vec := (vec E).
Notation node := (node M).
Notation tnode := (tnode M).
Variable x0 : X.
Variable qp : forall N Me Mi : nat, 'M[F]_N -> 'cV[F]_N -> 'M[F]_(Me, N) -> 'cV[F]_Me ->
  'M[F]_(Mi, N) -> 'cV[option F]_Mi -> 'cV[option F]_Mi -> option ('cV[F]_N * 'cV[F]_Me * 'cV[F]_Mi).
Variables (l : seq (slot M)) (t : tslot M).

(** get_lag_mul(), get_y() *)
Definition multipliers (s : pqs M) : seq (vec (mndx M)) * seq {k : nat & vec k} :=
  ([seq lam (dir nd) | nd <- run (pq_tr s)] ++ [:: tlam (trm (pq_tr s))],
   [seq existT vec (ng (nm nd)) (ay (adm nd)) | nd <- run (pq_tr s)] ++ [:: existT vec (tng (tm (trm (pq_tr s)))) (tay (trm (pq_tr s)))]).
(** the filter buffers have the configured size *)
Definition sized (c : pcfg sq) (s : pqs M) : Prop :=
  pc_filter c = false \/ [/\ buf_of_size (pc_fsize c) (pq_costl s), buf_of_size (pc_fsize c) (pq_gapl s)
                           & buf_of_size (pc_fsize c) (pq_conl s)].
(** two calls that nobody can tell apart; [B] adds the step length *)
Definition same_call (B : Prop) (o1 o2 : pres M) : Prop :=
  match o1, o2 with
  | PRet b1 r1, PRet b2 r2 =>
      [/\ b1 = b2, get_xs (pq_tr r1) = get_xs (pq_tr r2), get_us (pq_tr r1) = get_us (pq_tr r2) & multipliers r1 = multipliers r2] /\
      [/\ pq_iter r1 = pq_iter r2, pq_preg r1 = pq_preg r2, pq_dreg r1 = pq_dreg r2 & B -> pq_step r1 = pq_step r2] /\
      (b1 = true -> [/\ pq_KKT r1 = pq_KKT r2, pq_cost r1 = pq_cost r2, pq_gap r1 = pq_gap r2, pq_con r1 = pq_con r2
                      & pq_merit r1 = pq_merit r2] /\ steps (pq_tr r1) = steps (pq_tr r2))
  | PThrow, PThrow | PUB, PUB | PFuel, PFuel => True
  | _, _ => False
  end.

Lemma inj2 k (v w : vec k) : existT vec k v = existT vec k w -> v = w.
Proof. exact: (Eqdep_dec.inj_pair2_eq_dec _ Nat.eq_dec). Qed.
Definition MP (f : fld) : Prop := f = FL \/ f = FY.
Notation S1 := (fun _ : amodel M => True).
Notation T1 := (fun _ : tmodel M => True).
Lemma mstart (t1 t2 : traj M) : [seq nm nd | nd <- run t1] = [seq nm nd | nd <- run t2] -> tm (trm t1) = tm (trm t2) ->
  cmultipliers t1 = cmultipliers t2 ->
  Forall2 (prel S1 MP false) (run t1) (run t2) /\ ptrel T1 MP (trm t1) (trm t2).
Proof.
case: t1 => l1 tn1; case: t2 => l2 tn2; rewrite /cmultipliers; cbn [run trm] => em et hc.
have [hl hl'] := List.app_inj_tail _ _ _ _ (f_equal fst hc).
have [hy hy'] := List.app_inj_tail _ _ _ _ (f_equal snd hc); clear hc.
split.
- clear et hl' hy'; elim: l1 l2 em hl hy => [|n1 l1 ih] [|n2 l2] //= [e1 e2] [hl1 hl2] hy.
  have hy1 := f_equal (List.hd (existT vec (ng (nm n2)) (ay (adm n2)))) hy.
  have hy2 := f_equal (@List.tl _) hy; cbn [List.hd List.tl] in hy1, hy2.
  constructor; last exact: ih.
  clear hy hy2 hl2 e2 ih; destruct n1 as [m1 p1 me1 d1 f1 v1 dd1 a1], n2 as [m2 p2 me2 d2 f2 v2 dd2 a2].
  cbn [nm adm dir] in *; subst m2; constructor => // f [->|->]; cbn [agr]; first by [].
  exact: inj2 hy1.
- clear em hl hy; destruct tn1 as [m1 x1 xt1 me1 d1 f1 A1 v1 dx1 ll1 dt1 z1 zp1 zr1 y1 r1 i1], tn2 as [m2 x2 xt2 me2 d2 f2 A2 v2 dx2 ll2 dt2 z2 zp2 zr2 y2 r2 i2].
  cbn [tm tay tlam] in *; subst m2; constructor => // f [->|->]; cbn [tagr]; first by [].
  exact: inj2 hy'.
Qed.
Lemma steps_rel (P : fld -> Prop) (t1 t2 : traj M) : P FX -> jrel S1 T1 P t1 t2 -> steps t1 = steps t2.
Proof.
move=> px [h1 h2]; rewrite /steps.
have -> : tdx (trm t1) = tdx (trm t2) by case: h2 => m x xt1 xt2 me1 me2 d1 d2 f1 f2 A1 A2 v1 v2 dx1 dx2 l1 l2 dt1 dt2 z1 z2 zp1 zp2 zr1 zr2 y1 y2 r1 r2 i1 i2 _ h; exact: (h _ px).
have [-> ->] : List.map (fun n : node => dx (dir n)) (run t1) = List.map (fun n : node => dx (dir n)) (run t2) /\
  List.map (fun n : node => existT vec (nu (nm n)) (du (dir n))) (run t1) = List.map (fun n : node => existT vec (nu (nm n)) (du (dir n))) (run t2).
  elim: h1 => [//|n1 n2 q1 q2 hn _ [i1 i2]] /=; rewrite i1 i2; move: hn {i1 i2}; dn.
  by cbn [dir nm dx du]; get h px => [[-> ->]].
by [].
Qed.
Lemma sized_holds c s : sized c s -> pc_filter c = true ->
  [/\ holds (pc_fsize c) [::] (pq_costl s), holds (pc_fsize c) [::] (pq_gapl s) & holds (pc_fsize c) [::] (pq_conl s)].
Proof.
have hh m (bb : cbuf F) : buf_of_size m bb -> holds m [::] bb by move=> [h1 h2]; split=> //; split=> // -[|k].
by case=> [->|[h1 h2 h3] _] //; split; exact: hh.
Qed.

(** SolverPROXQP::solve.  [s1] and [s2] are objects with the same models and any two
    histories of public calls; the backend is a function of the QP.  Of the past, only the
    multipliers lag_mul and y matter: given these, the outcomes agree and so do the
    candidate, the multipliers, the iteration count, the regularisation and, on success,
    the residual, the merit terms and the directions.  Every call that runs an iteration
    overwrites the step length, so that it agrees if it did before or if there is a step to try *)
Theorem C65_proxqp_solve_forgets_the_past c s1 s2 fuel xs us maxiter reg :
  pq_hist x0 qp l t s1 -> pq_hist x0 qp l t s2 -> sized c s1 -> sized c s2 -> multipliers s1 = multipliers s2 ->
  c_alphas (pc_ddp c) <> [::] \/ pq_step s1 = pq_step s2 ->
  same_call (pq_step s1 = pq_step s2) (pq_solve x0 qp c fuel xs us maxiter reg s1) (pq_solve x0 qp c fuel xs us maxiter reg s2).
Proof.
move=> h1 h2 z1 z2 hm hal.
have g1 := hist_good h1; have g2 := hist_good h2.
have f1 : hd0 (pq_tr s1) := hist_fs h1; have f2 : hd0 (pq_tr s2) := hist_fs h2.
have em : [seq nm nd | nd <- run (pq_tr s1)] = [seq nm nd | nd <- run (pq_tr s2)] by case: g1 => -> _ _ _; case: g2 => -> _ _ _.
have et : tm (trm (pq_tr s1)) = tm (trm (pq_tr s2)) by case: g1 => _ -> _ _; case: g2 => _ -> _ _.
have [p1 p2] := mstart em et hm.
have hgr := @set_guess_rel E M S1 T1 MP (pq_tr s1) (pq_tr s2) xs us p1 p2.
rewrite /pq_solve; case e1: (set_guess xs us (pq_tr s1)) hgr => [t1|]; case e2: (set_guess xs us (pq_tr s2)) => [t2|] // hj.
have {}hj := @pin_rel E M S1 T1 MP ltac:(by case) x0 _ _ hj.
have k1 : shape (pin_xt0 x0 (pin_x0 x0 t1)) = shape (pq_tr s1) by rewrite shape_pin; exact: shape_guess e1.
have k2 : shape (pin_xt0 x0 (pin_x0 x0 t2)) = shape (pq_tr s2) by rewrite shape_pin; exact: shape_guess e2.
move: (pin_xt0 x0 (pin_x0 x0 t1)) (pin_xt0 x0 (pin_x0 x0 t2)) hj k1 k2 => w1 w2 hj k1 k2.
move: (init_reg _ _) => p.
set B := pq_step s1 = pq_step s2.
pose P f := MP f \/ (f = FS /\ B).
have kk1 : keeps s1 (set_p_tr s1 w1) by exact: keeps_same.
have kk2 : keeps s2 (set_p_tr s2 w2) by exact: keeps_same.
have hB : c_alphas (pc_ddp c) = [::] -> B by case: hal.
have li (s : pqs M) : pq_loop qp c fuel maxiter 0 s = pq_loop qp c fuel maxiter 0 (set_p_iter s 0) by case: (maxiter).
rewrite !(li (set_p_reg _ _ _)) {li}.
have hP : prl l t c P 0 (set_p_iter (set_p_reg (set_p_tr s1 w1) p p) 0) (set_p_iter (set_p_reg (set_p_tr s2 w2) p p) 0).
  split=> //.
  - apply: (jrel_mono (P := add FS MP)); first by rewrite /P /add => f; tauto.
    exact: jrel_scal.
  - exact: good_keeps kk1 g1.
  - exact: good_keeps kk2 g2.
  - exact: hd0_keeps kk1 f1.
  - exact: hd0_keeps kk2 f2.
  - by move=> f [[->|->]|[-> //]].
  - move=> hf; have [a1 a2 a3] := sized_holds z1 hf; have [a4 a5 a6] := sized_holds z2 hf.
    by exists [::], [::], [::].
have := @loop_prl F sq M qp l t c B hB fuel maxiter P 0%N _ _ (or_introl (or_introl erefl)) (or_introl (or_intror erefl)) (fun b => or_intror (conj erefl b)) hP.
case: (pq_loop _ _ _ _ _ _) => [b1 r1|||]; case: (pq_loop _ _ _ _ _ _) => [b2 r2|||] // [e [Q [j [q1 ql qy qs qb]]]].
have [x1 x2] := get_rel (p_j q1).
split; first by split=> //; exact: mult_rel ql qy (p_j q1).
split; first by split; [exact: p_iter q1|exact: p_preg q1|exact: p_dreg q1|by move=> /qs qs'; exact: (p_s q1 qs')].
move=> /qb [qk qc qx]; split; last exact: steps_rel qx (p_j q1).
by have [? ? ? ?] := p_s q1 qc; split=> //; exact: (p_s q1 qk).
Qed.
End Indep65.

(** The theorem applies to the run of C63_step_taken: an object that was given another
    candidate and evaluated there before the call, and a fresh one *)
Theorem C65_used_object (F : realFieldType) (sq : F -> F) (c : pcfg sq) fuel reg fsize :
  c_alphas (pc_ddp c) = [:: r1 (ExactE sq)] -> (c_tol (pc_ddp c) : F) < 1 -> 0 <= (c_tol (pc_ddp c) : F) -> pc_filter c = false ->
  (c_stepinc (pc_ddp c) : F) < 1 ->
  let s1 := pobj sq 1 1 fsize in
  exists s2 r1 r2, [/\ pq_hist (px0 sq) (@eq_backend F) [:: pslot sq 1] (ptslot sq 1) s2, get_us (pq_tr s2) <> get_us (pq_tr s1),
    multipliers s1 = multipliers s2 & 
    [/\ pq_solve (px0 sq) (@eq_backend F) c (S fuel) (xs0 sq) (u0 sq) 1 reg s1 = PRet false r1,
        pq_solve (px0 sq) (@eq_backend F) c (S fuel) (xs0 sq) (u0 sq) 1 reg s2 = PRet false r2,
        get_us (pq_tr r1) = get_us (pq_tr r2) & pq_step r1 = pq_step r2]].
Proof.
move=> hal ht1 ht0 hfl hinc s1.
have [r [h1 hs1 [rr [a [hrun [ha ea]]]]]] := C63_step_taken fuel reg fsize hal ht1 ht0 hfl hinc.
pose us := [:: existT (vec (ExactE sq)) 1%N ((const_mx 1 : 'cV[F]_1) : vec (ExactE sq) 1)].
have [tr hg] : exists tr, set_guess (xs0 sq) us (pq_tr s1) = Some tr by eexists; first (rewrite /set_guess /=; reflexivity).
have hu : get_us tr = us by move: hg; rewrite /set_guess /= => -[<-].
have hmt : cmultipliers (pq_tr s1) = cmultipliers tr by move: hg; rewrite /set_guess /= => -[<-].
pose s2 := pq_calc c (set_p_tr s1 tr).
have h2 : pq_hist (px0 sq) (@eq_backend F) [:: pslot sq 1] (ptslot sq 1) s2 by apply: PH_calc; apply: PH_candidate hg; exact: h1.
have hu2 : get_us (pq_tr s2) = us by rewrite -hu; move: hg; rewrite /set_guess /= => -[<-].
have hm2 : multipliers s1 = multipliers s2.
  have -> : multipliers s1 = cmultipliers tr by exact: hmt.
  rewrite /s2; move: hg; rewrite /set_guess /= => -[<-]. reflexivity.
have hne : c_alphas (pc_ddp c) <> [::] by rewrite hal.
have := C65_proxqp_solve_forgets_the_past (S fuel) (xs0 sq) (u0 sq) 1 reg h1 h2 (or_introl hfl) (or_introl hfl) hm2 (or_introl hne).
rewrite hs1 /same_call; case e2: (pq_solve _ _ _ _ _ _ _ _ s2) => [b2 r2|||] // [[eb ex eu em] [[ei ep ed es] _]].
exists s2, r, r2; split=> //.
  rewrite hu2 => -[h]; have {}h := inj2 h.
  by have /eqP := congr1 (fun v : 'cV[F]_1 => v 0 0) h; rewrite !mxE oner_eq0.
rewrite eb; split=> //.
exact: es.
Qed.
Print Assumptions C65_proxqp_solve_forgets_the_past.
Print Assumptions C65_used_object.
