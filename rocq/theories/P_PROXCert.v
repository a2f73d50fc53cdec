(** * C41, C58: what a true result of SolverPROXQP::solve certifies; the retries.

    get_KKT() is evaluated in computeDirection before the QP is solved, hence with the
    multipliers the object held before that QP; afterwards the QP's multipliers replace
    them.  So a true result certifies the returned candidate with SOME multipliers
    (C41_certificate), not with the exposed ones (P_PROXWitness). *)
From Coq Require Import Ring Field ZArith List Arith.
Set Warnings "-notation-overridden,-ambiguous-paths".
From mathcomp Require Import all_ssreflect all_algebra.
From Verif Require Import FieldTac Eigen EigenExact Problem LQSpec SsrLia DDP CSQP Init TrialSpec CSQPSpec KKTNorm Flat KKT KKTSys PROXQP PROXBlocks PROXSpec PROXSys PROXHist P_PROXQP.

Set Implicit Arguments.
Unset Strict Implicit.
Unset Printing Implicit Defensive.

Import Order.TTheory GRing.Theory Num.Theory.
Local Open Scope ring_scope.

Section Spec.
Variable F : realFieldType.
Variable sq : F -> F.
Notation E := (ExactE sq).
Variable M : manifold E.
Notation n := (mndx M).
Notation node := (node M).
Notation tnode := (tnode M).
(** stationarity of the Lagrangian of the nonlinear problem in every control and in every
    state except the first (which is fixed), with the stored multipliers *)
Fixpoint pstat_small (first : bool) (tol : F) (l : seq node) (tn : tnode) : Prop :=
  match l with
  | [::] => small tol ((tLx (tder tn) : 'cV[F]_n) - (tlam tn : 'cV[F]_n) +
                       (tGx (tder tn) : 'M[F]_(tng (tm tn), n))^T *m (tay tn : 'cV[F]_(tng (tm tn))))
  | nd :: l' =>
      let d := der nd in
      let y := (ay (adm nd) : 'cV[F]_(ng (nm nd))) in
      [/\ first = false ->
            small tol ((Lx d : 'cV[F]_n) + (Fx d : 'M[F]_n)^T *m next_lam l' tn - (lam (dir nd) : 'cV[F]_n)
                       + (Gx d : 'M[F]_(ng (nm nd), n))^T *m y),
          small tol ((Lu d : 'cV[F]_(nu (nm nd))) + (Fu d : 'M[F]_(n, nu (nm nd)))^T *m next_lam l' tn
                     + (Gu d : 'M[F]_(ng (nm nd), nu (nm nd)))^T *m y)
        & pstat_small false tol l' tn]
  end.
(** the defects x_{t+1} (-) f(x_t, u_t), t = 0..T-1 *)
Definition defects_small (tol : F) (t : traj M) : Prop :=
  match run t with
  | [::] => True
  | _ :: l => (forall nd, List.In nd l -> small tol (fs nd : 'cV[F]_n)) /\ small tol (tfs (trm t) : 'cV[F]_n)
  end.
(** approximate KKT point, up to the signs of the row multipliers and complementarity *)
Definition kkt_within (tol : F) (t : traj M) : Prop :=
  [/\ pstat_small true tol (run t) (trm t), defects_small tol t & rows_feasible tol t].
(** the problem's models *)
Definition models (t : traj M) := ([seq nm nd | nd <- run t], tm (trm t)).
(** lag_mul_[t], t = 1..T, and y_[t] *)
Definition multipliers (t : traj M) : seq ('cV[F]_n) * seq {k : nat & 'cV[F]_k} :=
  (rcons [seq (lam (dir nd) : 'cV[F]_n) | nd : node <- behead (run t)] (tlam (trm t) : 'cV[F]_n),
   rcons [seq existT (fun k => 'cV[F]_k) (ng (nm nd)) (ay (adm nd) : 'cV[F]_(ng (nm nd))) | nd : node <- run t]
     (existT (fun k => 'cV[F]_k) (tng (tm (trm t))) (tay (trm t) : 'cV[F]_(tng (tm (trm t)))))).
End Spec.

Section P.
Variable F : realFieldType.
Variable sq : F -> F.
Notation E := (ExactE sq).
Variable M : manifold E.
Notation n := (mndx M).
Notation node := (node M).
Notation tnode := (tnode M).
Variable x0 : mX M.
Variable qp : forall N Me Mi : nat, 'M[F]_N -> 'cV[F]_N -> 'M[F]_(Me, N) -> 'cV[F]_Me ->
  'M[F]_(Mi, N) -> 'cV[option F]_Mi -> 'cV[option F]_Mi -> option ('cV[F]_N * 'cV[F]_Me * 'cV[F]_Mi).
Variable (l : seq (slot M)) (t : tslot M).

Lemma residualP (tol : F) (tn : tnode) : 0 <= tol -> forall (k : seq node) first acc,
  pq_residual first acc k tn <= tol <-> acc <= tol /\ pstat_small first tol k tn.
Proof.
move=> h0; elim=> [|nd k IH] first acc; cbn [pq_residual pstat_small].
  by rewrite smax_le xlinf_small.
rewrite IH smax_le xlinf_small // hd_lamE; case: first; split.
- by move=> [[h1 h2] h3]; split.
- by move=> [h1 [_ h2 h3]].
- by move=> [[/smax_le [h1 /(xlinf_small _ h0) h2] h3] h4]; split.
- by move=> [h1 [h2 h3 h4]]; split=> //; split=> //; apply/smax_le; split=> //; apply/(xlinf_small _ h0); exact: h2.
Qed.
Lemma defectsP (tol : F) (tr : traj M) : 0 <= tol -> run tr <> [::] -> pq_fs_norm tr <= tol <-> defects_small tol tr.
Proof.
move=> h0; rewrite /pq_fs_norm /defects_small; case: (run tr) => [//|nd k] _.
have gen (k' : seq node) (a : F) : List.fold_left (fun a (m : node) => Num.max a (xlinf (fs m : 'cV[F]_n))) k' a <= tol <->
    a <= tol /\ forall nd, List.In nd k' -> small tol (fs nd : 'cV[F]_n).
  elim: k' a => [|m k' IH] a /=; first by split=> [h|[]].
  rewrite IH le_maxl; split.
    by move=> [/andP [h1 /(xlinf_small _ h0) h2] h3]; split=> // nd' [<-|/h3].
  by move=> [h1 h2]; split; [rewrite h1; apply/(xlinf_small _ h0); apply: h2; left|move=> m' hm; apply: h2; right].
by rewrite gen xlinf_small //; split=> -[].
Qed.
Lemma calc_nodes_con f (k : seq node) tn gap (con : F) :
  (snd (snd (calc_nodes f k tn gap con)) : F) =
  List.fold_left (fun a (nd : node) => violation (E := E) (alb (nm nd)) (aub (nm nd)) (ag (nm nd) (mem nd)) a) k con.
Proof. by elim: k f gap con => [|nd k IH] f gap con //=; rewrite IH. Qed.
Lemma fold_con (k k' : seq node) (a : F) : List.Forall2 (fun a b : node => exists v, b = set_fs a v) k k' ->
  List.fold_left (fun a (nd : node) => violation (E := E) (alb (nm nd)) (aub (nm nd)) (ag (nm nd) (mem nd)) a) k' a =
  List.fold_left (fun a (nd : node) => violation (E := E) (alb (nm nd)) (aub (nm nd)) (ag (nm nd) (mem nd)) a) k a :> F.
Proof. by move=> h; elim: h a => //= x y k1 k2 [v ->] _ IH a; rewrite IH. Qed.
Lemma calc_con c (s : pqs M) : pq_con (pq_calc c s) = stored_con (pq_tr (pq_calc c s)).
Proof.
rewrite /pq_calc; cbn [pq_con pq_tr].
set tr := fst (problem_calcDiff (problem_calc (pq_tr s))); set r := calc_nodes _ _ _ _ _.
have := @calc_nodes_nodes F sq M None (run tr) (trm tr) 0 0; rewrite -/r => -[h1 [v h2] _].
rewrite /stored_con; cbn [run trm]; rewrite (fold_con _ h1) /r calc_nodes_con h2.
by rewrite /violation.
Qed.

(** C06 for SolverPROXQP: get_KKT() is at most tol exactly when every component is *)
Theorem C41_kkt_norm (tol con : F) (tr : traj M) : 0 <= tol -> run tr <> [::] ->
  pq_check con tr <= tol <-> [/\ pstat_small true tol (run tr) (trm tr), defects_small tol tr & con <= tol].
Proof.
move=> h0 hne; rewrite /pq_check smax_le smax_le residualP // defectsP //; split.
  by move=> [[[_ h1] h2] h3].
by move=> [h1 h2 h3].
Qed.

(** ** calc keeps models and multipliers *)
Lemma calc_mults c (s : pqs M) : multipliers (pq_tr (pq_calc c s)) = multipliers (pq_tr s) /\ models (pq_tr (pq_calc c s)) = models (pq_tr s).
Proof.
rewrite /pq_calc; cbn [pq_tr].
set tr := fst (problem_calcDiff (problem_calc (pq_tr s))); set r := calc_nodes _ _ _ _ _.
have := @calc_nodes_nodes F sq M None (run tr) (trm tr) 0 0; rewrite -/r => -[h1 [v h2] _].
have e0 (A : Type) (f : node -> A) : (forall nd, f (node_calcDiff (node_calc nd)) = f nd) -> [seq f nd | nd <- run tr] = [seq f nd | nd <- run (pq_tr s)].
  by move=> hf; rewrite /tr; cbn [problem_calcDiff problem_calc run fst]; elim: (run (pq_tr s)) => //= nd k ->; rewrite hf.
have e1 (A : Type) (f : node -> A) : (forall nd v, f (set_fs nd v) = f nd) -> [seq f nd | nd <- fst (fst r)] = [seq f nd | nd <- run tr].
  by move=> hf; elim: h1 => //= a b k k' [w ->] _ ->; rewrite hf.
rewrite /multipliers /models; cbn [run trm]; rewrite h2; split.
  by rewrite -!behead_map !e1 // !e0.
by rewrite e1 // e0.
Qed.
Lemma extract_models w x y z (tr : traj M) :
  let r := pq_extract w 0 0 0 x y z (run tr) (trm tr) in models (mkTraj r.1 r.2) = models tr.
Proof.
cbv zeta; rewrite /models; cbn [run trm].
have gen p iu cnt : ([seq nm nd | nd <- (pq_extract w p iu cnt x y z (run tr) (trm tr)).1], tm (pq_extract w p iu cnt x y z (run tr) (trm tr)).2)
  = ([seq nm nd | nd <- run tr], tm (trm tr)); last exact: gen.
elim: (run tr) p iu cnt => [//|nd k IH] p iu cnt; cbn [pq_extract].
have [e1 e2] := IH (S p) (iu + nu (nm nd))%N (cnt + ng (nm nd))%N.
by cbn [fst snd map]; rewrite -[LHS]/(_ :: _, _) e1 e2.
Qed.

(** ** Certificate *)
(** computeDirection, whatever the backend answers *)
Lemma direction_cert c (s s' : pqs M) : run (pq_tr s) <> [::] -> evaluated (pq_tr s) ->
  pq_direction qp c false s = PDok s' ->
  [/\ pq_KKT s' = pq_check (pq_con s) (pq_tr s), candidate (pq_tr s') = candidate (pq_tr s) & models (pq_tr s') = models (pq_tr s)].
Proof.
move=> hne he; rewrite /pq_direction; move: (hne); case: {1 2}(run (pq_tr s)) => [//|nd k] _.
set s2 := set_p_KKT _ _.
case: (pq_ask qp s2) => [[[x y] z]|] //; case=> <-; split=> //; cbn [pq_tr set_p_tr].
  by have [_ ->] := @extract_evaluated F sq M (neq (run (pq_tr s2))) x y z (pq_tr s2) hne he.
by rewrite extract_models.
Qed.
Lemma direction_throw c (s s' : pqs M) : pq_direction qp c false s = PDthrow s' -> pq_con s' = pq_con s /\ pq_tr s' = pq_tr s.
Proof. by rewrite /pq_direction; case: (run (pq_tr s)) => [//|nd k]; case: (pq_ask qp _) => [[[x y] z]|] // [<-]. Qed.
Lemma retry_cert c fuel (s s' : pqs M) : run (pq_tr s) <> [::] -> evaluated (pq_tr s) ->
  pq_retry qp c fuel false s = PRok s' ->
  [/\ pq_KKT s' = pq_check (pq_con s) (pq_tr s), candidate (pq_tr s') = candidate (pq_tr s) & models (pq_tr s') = models (pq_tr s)].
Proof.
elim: fuel s => [//|f IH] s hne he /=.
case ed: (pq_direction qp c false s) => [s1|s1|] //; first by case=> <-; exact: direction_cert ed.
have [h1 h2] := direction_throw ed; case: ifP => // _ /IH; cbn [pq_inc set_p_reg pq_tr pq_con]; rewrite h1 h2; exact.
Qed.
Lemma retry_calc c fuel (s : pqs M) : run (pq_tr s) <> [::] -> pq_retry qp c fuel true s = pq_retry qp c fuel false (pq_calc c s).
Proof. by case: fuel => [//|f] h /=; rewrite direction_recalc. Qed.
Lemma calc_ne c (s : pqs M) : run (pq_tr s) <> [::] -> run (pq_tr (pq_calc c s)) <> [::].
Proof. by move=> hne; have [h _] := shape_len (calc_shape c s); move=> e; move: h hne; rewrite e; case: (run (pq_tr s)). Qed.
(** the round of solve: get_KKT() is the residual at the candidate, with the derivatives
    there and the multipliers held before the QP *)
Theorem C41_round c fuel (s s' : pqs M) : run (pq_tr s) <> [::] -> pq_retry qp c fuel true s = PRok s' ->
  exists tr : traj M, [/\ pq_KKT s' = pq_check (stored_con tr) tr, evaluated tr, multipliers tr = multipliers (pq_tr s),
    candidate (pq_tr s) = candidate (pq_tr s') /\ candidate tr = candidate (pq_tr s')
    & models tr = models (pq_tr s')].
Proof.
move=> hne; rewrite retry_calc // => hr.
have [he hc] := calc_evaluated c s; have [hm hmo] := calc_mults c s.
have [h1 h2 h3] := retry_cert (@calc_ne c s hne) he hr.
exists (pq_tr (pq_calc c s)); split=> //; first by rewrite h1 calc_con.
by rewrite h2 hc.
Qed.
Lemma loop_true c fuel k i (s s' : pqs M) : run (pq_tr s) <> [::] -> pq_loop qp c fuel k i s = PRet true s' ->
  exists s1, [/\ run (pq_tr s1) <> [::], pq_retry qp c fuel true s1 = PRok s' & pq_KKT s' <= c_tol (pc_ddp c)].
Proof.
have ne s1 s2 : keeps s1 s2 -> run (pq_tr s1) <> [::] -> run (pq_tr s2) <> [::].
  by case=> h _ hne e; have [h2 _] := shape_len h; move: h2 hne; rewrite e; case: (run (pq_tr s1)).
elim: k i s => [|k IH] i s hne //=.
have := keeps_retry qp c fuel true (set_p_iter s i).
case er: (pq_retry qp c fuel true (set_p_iter s i)) => [s1|s1||] // h1.
case: ifP => hk; first by case=> <-; exists (set_p_iter s i).
case es: (pq_search _ _ _) => [s2|] //.
have h2 : keeps s s2.
  apply: keeps_trans (keeps_search es); exact: h1.
set s3 := (if _ then _ else s2); have h3 : keeps s s3.
  by rewrite /s3; case: ifP => _ //; apply: keeps_trans h2 _; exact: keeps_same.
case: ifP => _; last by move/IH; apply; exact: ne h3 hne.
have h4 : keeps s (pq_inc c s3) by apply: keeps_trans h3 _; exact: keeps_same.
by case: ifP => _ // /IH; apply; exact: ne h4 hne.
Qed.
(** C41: a true result means that the returned candidate is an approximate KKT point of the
    nonlinear problem for some multipliers: all derivatives, defects and constraint values
    are those at the returned xs and us.  Nothing is assumed of the QP backend. *)
Theorem C41_certificate c fuel xs us maxiter reg s s' : pq_hist x0 qp l t s -> l <> [::] ->
  0 <= (c_tol (pc_ddp c) : F) -> pq_solve x0 qp c fuel xs us maxiter reg s = PRet true s' ->
  exists tr : traj M, [/\ kkt_within (c_tol (pc_ddp c)) tr, evaluated tr, candidate tr = candidate (pq_tr s') & models tr = models (pq_tr s')].
Proof.
move=> hs hl h0; have [g1 _ _ _] := hist_good hs.
have hne : run (pq_tr s) <> [::] by move=> e; move: g1; rewrite e; case: (l) hl.
rewrite /pq_solve; case eg: (set_guess _ _ _) => [tr|] // hloop.
have hsh : shape (pin_xt0 x0 (pin_x0 x0 tr)) = shape (pq_tr s) by rewrite shape_pin (shape_guess eg).
have hne1 : run (pin_xt0 x0 (pin_x0 x0 tr)) <> [::].
  by have [h _] := shape_len hsh; move=> e; move: h hne; rewrite e; case: (run (pq_tr s)).
move: hloop; set s0 := set_p_reg _ _ _ => hloop.
have [s1 [n1 hr hk]] := loop_true (s := s0) hne1 hloop.
have [tr1 [a1 a2 a3 [_ a4] a5]] := C41_round n1 hr; exists tr1; split=> //.
have hne2 : run tr1 <> [::].
  move=> e; move: a4; rewrite /candidate e /= => -[h _].
  have := keeps_retry qp c fuel true s1; rewrite hr => -[/shape_len [h2 _] _].
  by move: h2 n1 h; case: (run (pq_tr s')); case: (run (pq_tr s1)).
have [b1 b2 b3] := proj1 (C41_kkt_norm (stored_con tr1) h0 hne2) (eq_ind _ (fun z => z <= _) hk _ a1).
by split=> //; exact: con_rows.
Qed.

(** ** C58: the regularisation never enters the QP *)
(** two objects that differ only in the regularisation ask the backend the same question *)
Theorem C58_question_ignores_regularisation c recalc (s : pqs M) p d :
  match pq_direction qp c recalc s, pq_direction qp c recalc (set_p_reg s p d) with
  | PDok a, PDok b => b = set_p_reg a p d
  | PDthrow a, PDthrow b => b = set_p_reg a p d
  | PDub, PDub => True
  | _, _ => False
  end.
Proof.
rewrite /pq_direction; cbn [pq_tr set_p_reg]; case: (run (pq_tr s)) => [//|nd k]; case: recalc.
  rewrite -[pq_calc c (set_p_reg s p d)]/(set_p_reg (pq_calc c s) p d).
  set s1 := pq_calc c s; rewrite -[pq_ask qp (set_p_KKT (set_p_reg s1 p d) _)]/(pq_ask qp (set_p_KKT s1 (pq_check (pq_con s1) (pq_tr s1)))).
  by case: (pq_ask qp _) => [[[x y] z]|].
rewrite -[pq_ask qp (set_p_KKT (set_p_reg s p d) _)]/(pq_ask qp (set_p_KKT s (pq_check (pq_con s) (pq_tr s)))).
by case: (pq_ask qp _) => [[[x y] z]|].
Qed.
(** so once the backend throws, no retry succeeds: only the regularisation grows, until
    solve gives up (or forever) *)
Theorem C58_retries_never_help c fuel (s s1 : pqs M) : run (pq_tr s) <> [::] -> pq_direction qp c true s = PDthrow s1 ->
  match pq_retry qp c fuel true s with
  | PRok _ | PRub => False
  | PRfalse s' => [/\ pq_preg s' = c_rmax (pc_ddp c) :> F, pq_tr s' = pq_tr s1 & pq_KKT s' = pq_KKT s1]
  | PRfuel => True
  end.
Proof.
move=> hne; rewrite retry_calc // direction_recalc //; move: (pq_calc c s) (@calc_ne c s hne) => {}s {}hne hd.
have gen (s2 : pqs M) : (exists p d, s2 = set_p_reg s1 p d) -> pq_direction qp c false s2 = PDthrow s2.
  move=> [p [d ->]]; have [h1 h2] := direction_throw hd.
  move: hd; rewrite /pq_direction; cbn [pq_tr set_p_reg]; rewrite h2.
  case: (run (pq_tr s)) hne => // nd k _.
  set q1 := set_p_KKT s _; case ea: (pq_ask qp q1) => [[[x y] z]|] // [<-].
  by rewrite -[pq_ask qp _]/(pq_ask qp q1) ea.
case: fuel => [//|f]; cbn [pq_retry]; rewrite hd.
have inc (s2 : pqs M) : (exists p d, s2 = set_p_reg s1 p d) -> exists p d, pq_inc c s2 = set_p_reg s1 p d.
  by move=> [p [d ->]]; eexists; eexists.
have : exists p d, pq_inc c s1 = set_p_reg s1 p d by apply: inc; exists (pq_preg s1), (pq_dreg s1); case: (s1).
move: (pq_inc c s1) => s2; elim: f s2 => [|f IH] s2 h2; cbn [pq_retry]; case: eqP => [e|_]; try by case: h2 e => p [d ->].
  by [].
rewrite (gen s2 h2); apply: IH; exact: inc.
Qed.
End P.
Print Assumptions C41_kkt_norm.
Print Assumptions C41_round.
Print Assumptions C41_certificate.
Print Assumptions C58_question_ignores_regularisation.
Print Assumptions C58_retries_never_help.
