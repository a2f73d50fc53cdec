(** * C06: get_KKT() is the max-norm of the optimality residuals, componentwise
    (exact arithmetic), for SolverDDP/SolverSQP and SolverCSQP; consequences for
    C08 and C09. *)
From Coq Require Import Ring Field ZArith PeanoNat.
Set Warnings "-notation-overridden,-ambiguous-paths".
From mathcomp Require Import all_ssreflect all_algebra.
From Verif Require Import Eigen EigenExact ExactLemmas Problem DDP Filter SQP CSQP Init
  TrialSpec TraceSpec SQPSpec CSQPSpec Rounds P_SQPSolve P_CSQPSolve.

Set Implicit Arguments.
Unset Strict Implicit.
Unset Printing Implicit Defensive.

Import Order.TTheory GRing.Theory Num.Theory.
Local Open Scope ring_scope.

(** ** Specification *)
Section Spec.
Variable F : realFieldType.
Variable sq : F -> F.
Notation E := (ExactE sq).
Variable M : manifold E.
Notation n := (mndx M).
Notation node := (node M).
Notation tnode := (tnode M).
Notation traj := (traj M).

(** every component is at most tol in absolute value *)
Definition small (tol : F) m (v : 'cV[F]_m) : Prop := forall i, `|v i 0| <= tol.

(** multiplier of the dynamics entering node t+1 *)
Definition next_lam (l : seq node) (tn : tnode) : 'cV[F]_n :=
  match l with [::] => (tlam tn : 'cV[F]_n) | nd :: _ => (lam (dir nd) : 'cV[F]_n) end.
(** stationarity in x_t and u_t of the Lagrangian of the unconstrained problem *)
Fixpoint stat_small (tol : F) (l : seq node) (tn : tnode) : Prop :=
  match l with
  | [::] => small tol ((tLx (tder tn) : 'cV[F]_n) - (tlam tn : 'cV[F]_n))
  | nd :: l' =>
      let d := der nd in
      [/\ small tol ((Lx d : 'cV[F]_n) + (Fx d : 'M[F]_n)^T *m next_lam l' tn - (lam (dir nd) : 'cV[F]_n)),
          small tol ((Lu d : 'cV[F]_(nu (nm nd))) + (Fu d : 'M[F]_(n, nu (nm nd)))^T *m next_lam l' tn)
        & stat_small tol l' tn]
  end.
(** ... with the inequality multipliers y; at the first node (x_0 is fixed) the
    row Jacobian Gx does not enter *)
Fixpoint cstat_small (first : bool) (tol : F) (l : seq node) (tn : tnode) : Prop :=
  match l with
  | [::] => small tol ((tLx (tder tn) : 'cV[F]_n) - (tlam tn : 'cV[F]_n) +
                       (tGx (tder tn) : 'M[F]_(tng (tm tn), n))^T *m (tay tn : 'cV[F]_(tng (tm tn))))
  | nd :: l' =>
      let d := der nd in
      let y := (ay (adm nd) : 'cV[F]_(ng (nm nd))) in
      [/\ small tol ((Lx d : 'cV[F]_n) + (Fx d : 'M[F]_n)^T *m next_lam l' tn - (lam (dir nd) : 'cV[F]_n)
                     + (if first then 0 else (Gx d : 'M[F]_(ng (nm nd), n))^T *m y)),
          small tol ((Lu d : 'cV[F]_(nu (nm nd))) + (Fu d : 'M[F]_(n, nu (nm nd)))^T *m next_lam l' tn
                     + (Gu d : 'M[F]_(ng (nm nd), nu (nm nd)))^T *m y)
        & cstat_small false tol l' tn]
  end.
Definition gaps_small (tol : F) (t : traj) : Prop :=
  (forall nd, List.In nd (run t) -> small tol (fs nd : 'cV[F]_n)) /\ small tol (tfs (trm t) : 'cV[F]_n).
(** lb - tol <= g <= ub + tol *)
Definition row_feasible (tol : F) (lo hi : option F) (g : F) : Prop :=
  (if lo is Some a then a - tol <= g else True) /\ (if hi is Some b then g <= b + tol else True).
Definition rows_feasible (tol : F) (t : traj) : Prop :=
  (forall nd, List.In nd (run t) -> forall i,
     row_feasible tol ((alb (nm nd) : 'cV[option F]_(ng (nm nd))) i 0) ((aub (nm nd) : 'cV[option F]_(ng (nm nd))) i 0)
       ((ag (nm nd) (mem nd) : 'cV[F]_(ng (nm nd))) i 0)) /\
  (forall i, row_feasible tol ((tlb (tm (trm t)) : 'cV[option F]_(tng (tm (trm t)))) i 0)
       ((tub (tm (trm t)) : 'cV[option F]_(tng (tm (trm t)))) i 0)
       ((tg (tm (trm t)) (tme (trm t)) : 'cV[F]_(tng (tm (trm t)))) i 0)).
End Spec.

(** ** Proofs *)
Section Norm.
Variable F : realFieldType.
Variable sq : F -> F.
Notation E := (ExactE sq).
Variable M : manifold E.
Notation n := (mndx M).
Notation node := (node M).
Notation tnode := (tnode M).
Notation traj := (traj M).

Lemma smaxE (a b : F) : @std_max E a b = Num.max a b.
Proof. by rewrite /std_max /=; case: ltP. Qed.
Lemma smax_le (a b tol : F) : @std_max E a b <= tol <-> a <= tol /\ b <= tol.
Proof. by rewrite smaxE le_maxl; split=> [/andP[]|[-> ->]]. Qed.
Lemma bigmax_le (I : finType) (f : I -> F) (tol : F) : 0 <= tol ->
  \big[Num.max/0]_i f i <= tol <-> forall i, f i <= tol.
Proof.
move=> h0; split=> [h i|h]; last by apply: (big_ind (fun x => x <= tol)) => // x y hx hy; rewrite le_maxl hx hy.
apply: le_trans h; move: (mem_index_enum i); elim: (index_enum I) => [//|j r ih].
rewrite in_cons big_cons le_maxr => /orP [/eqP->|/ih ->]; [by rewrite lexx|by rewrite orbT].
Qed.
Lemma xlinf_small (tol : F) m (v : 'cV[F]_m) : 0 <= tol -> xlinf v <= tol <-> small tol v.
Proof.
move=> h0; rewrite /xlinf bigmax_le //; split=> h i.
  by have := h i; rewrite bigmax_le // => /(_ 0).
by rewrite bigmax_le // => j; rewrite ord1.
Qed.
Lemma xlinf_ge0 m (v : 'cV[F]_m) : 0 <= xlinf v.
Proof.
rewrite /xlinf; apply: (big_ind (fun x => 0 <= x)) => // [x y hx hy|i _]; first by rewrite le_maxr hx.
by apply: (big_ind (fun x => 0 <= x)) => // x y hx hy; rewrite le_maxr hx.
Qed.
Lemma hd_lamE (l : seq node) tn : hd_lam l tn = next_lam l tn.
Proof. by case: l. Qed.

Lemma kkt_nodesP (tol : F) (tn : tnode) : 0 <= tol -> forall (l : seq node) (kk : F),
  @std_max E (kkt_nodes (E := E) kk l tn) (xlinf ((tLx (tder tn) : 'cV[F]_n) - (tlam tn : 'cV[F]_n))) <= tol <->
  kk <= tol /\ stat_small tol l tn.
Proof.
move=> h0; elim=> [|nd l ih] kk.
  by rewrite [kkt_nodes _ _ _]/= smax_le xlinf_small.
cbn [kkt_nodes stat_small]; rewrite ih !smax_le !xlinf_small // hd_lamE; split.
  by move=> [[[h1 h2] h3] h4]; split.
by move=> [h1 [h2 h3 h4]].
Qed.
Lemma gapsP (tol : F) (t : traj) : 0 <= tol -> fs_flat_norm t <= tol <-> gaps_small tol t.
Proof.
move=> h0; rewrite /fs_flat_norm /gaps_small.
have hf : forall (l : seq node) (a : F), List.fold_left (fun (a : F) (m : node) => @std_max E a (xlinf (fs m : 'cV[F]_n))) l a <= tol <->
   a <= tol /\ forall nd, List.In nd l -> small tol (fs nd : 'cV[F]_n).
  elim=> [|m l ih] a /=; first by split=> [h|[]]; [split|].
  rewrite ih smax_le xlinf_small //; split.
    by move=> [[h1 h2] h3]; split=> // nd [<-|/h3].
  by move=> [h1 h2]; split; [split=> //; apply: h2; left|move=> nd hn; apply: h2; right].
case: (run t) => [|nd l]; first by rewrite xlinf_small //; split=> [h|[]]; [split|].
rewrite smax_le hf !xlinf_small //; split.
  by move=> [[h1 h2] h3]; split=> // m [<-|/h2].
by move=> [h1 h2]; split=> //; split; [apply: h1; left|move=> m hm; apply: h1; right].
Qed.
Lemma kkt_nodes_ge0 (tn : tnode) : forall (l : seq node) (kk : F), 0 <= kk -> 0 <= (kkt_nodes (E := E) kk l tn : F).
Proof. by elim=> [//|nd l ih] kk h; cbn [kkt_nodes]; apply: ih; rewrite !smaxE !le_maxr h. Qed.

(** C06, SolverDDP and SolverSQP *)
Theorem C06_kkt_norm (tol : F) (t : traj) : 0 <= tol ->
  (kkt_residual t : F) <= tol <-> stat_small tol (run t) (trm t) /\ gaps_small tol t.
Proof.
move=> h0; rewrite /kkt_residual smax_le gapsP // kkt_nodesP //; split.
  by move=> [[_ h1] h2].
by move=> [h1 h2].
Qed.
Theorem C06_kkt_nonneg (t : traj) : 0 <= (kkt_residual t : F).
Proof. by rewrite /kkt_residual !smaxE !le_maxr kkt_nodes_ge0. Qed.

(** C06, SolverCSQP *)
Lemma ckkt_nodesP (tol : F) (tn : tnode) : 0 <= tol -> forall (l : seq node) (first : bool) (kk : F),
  @std_max E (ckkt_nodes (E := E) first kk l tn)
    (xlinf ((tLx (tder tn) : 'cV[F]_n) - (tlam tn : 'cV[F]_n) + (tGx (tder tn) : 'M[F]_(tng (tm tn), n))^T *m (tay tn : 'cV[F]_(tng (tm tn))))) <= tol <->
  kk <= tol /\ cstat_small first tol l tn.
Proof.
move=> h0; elim=> [|nd l ih] first kk.
  by rewrite [ckkt_nodes _ _ _ _]/= smax_le xlinf_small.
cbn [ckkt_nodes cstat_small]; rewrite ih !smax_le !xlinf_small // hd_lamE.
case: first; rewrite ?addr0; split.
- by move=> [[[h1 h2] h3] h4]; split.
- by move=> [h1 [h2 h3 h4]].
- by move=> [[[h1 h2] h3] h4]; split.
- by move=> [h1 [h2 h3 h4]].
Qed.
Lemma ckkt_nodes_ge0 (tn : tnode) : forall (l : seq node) first (kk : F), 0 <= kk -> 0 <= (ckkt_nodes (E := E) first kk l tn : F).
Proof. by elim=> [//|nd l ih] first kk h; cbn [ckkt_nodes]; apply: ih; rewrite !smaxE !le_maxr h. Qed.
Theorem C06_ckkt_norm (tol con : F) (t : traj) : 0 <= tol ->
  (ckkt_residual (E := E) con t : F) <= tol <-> [/\ cstat_small true tol (run t) (trm t), gaps_small tol t & con <= tol].
Proof.
move=> h0; rewrite /ckkt_residual smax_le smax_le gapsP // ckkt_nodesP //; split.
  by move=> [[[_ h1] h2] h3].
by move=> [h1 h2 h3].
Qed.
Theorem C06_ckkt_nonneg (con : F) (t : traj) : 0 <= (ckkt_residual (E := E) con t : F).
Proof. by rewrite /ckkt_residual !smaxE !le_maxr ckkt_nodes_ge0. Qed.

(** the total violation bounds every row *)
Lemma xl1_ge (m : nat) (v : 'cV[F]_m) i : `|v i 0| <= xl1 v.
Proof. by rewrite /xl1 (bigD1 i) //= ler_addl; apply: sumr_ge0 => j _; exact: normr_ge0. Qed.
Lemma xl1_ge0 (m : nat) (v : 'cV[F]_m) : 0 <= xl1 v.
Proof. by apply: sumr_ge0 => j _; exact: normr_ge0. Qed.
Lemma violation_ge (m : nat) (lb ub : bvec E m) (g : 'cV[F]_m) (acc : F) : acc <= violation (E := E) lb ub g acc.
Proof. by rewrite /violation /= -addrA ler_addl addr_ge0 // xl1_ge0. Qed.
Lemma violation_row (tol : F) (m : nat) (lb ub : bvec E m) (g : 'cV[F]_m) (acc : F) i : 0 <= acc ->
  violation (E := E) lb ub g acc <= tol ->
  row_feasible tol ((lb : 'cV[option F]_m) i 0) ((ub : 'cV[option F]_m) i 0) (g i 0).
Proof.
move=> ha h.
have h1 : xl1 (viol_lb E lb g : 'cV[F]_m) <= tol.
  by apply: le_trans (h); rewrite /violation /= -addrA addrCA ler_addl addr_ge0 // xl1_ge0.
have h2 : xl1 (viol_ub E ub g : 'cV[F]_m) <= tol.
  by apply: le_trans (h); rewrite /violation /= ler_addr addr_ge0 // xl1_ge0.
have {h1} := le_trans (xl1_ge _ i) h1; have {h2} := le_trans (xl1_ge _ i) h2.
rewrite /viol_lb /viol_ub /= !mxE /row_feasible => h2 h1; split.
  move: h1; case: ((lb : 'cV[option F]_m) i 0) => // a; rewrite smaxE => h1.
  have := le_trans (ler_norm _) h1; rewrite le_maxl => /andP[h5 _].
  by rewrite ler_subl_addr -ler_subl_addl.
move: h2; case: ((ub : 'cV[option F]_m) i 0) => // b; rewrite smaxE => h2.
have := le_trans (ler_norm _) h2; rewrite le_maxl => /andP[h5 _].
by rewrite -ler_subl_addl.
Qed.
Lemma con_rows (tol : F) (t : traj) : (stored_con t : F) <= tol -> rows_feasible tol t.
Proof.
rewrite /stored_con => h.
pose f := fun (a : F) (nd : node) => violation (E := E) (alb (nm nd)) (aub (nm nd)) (ag (nm nd) (mem nd)) a : F.
have ge : forall (l : seq node) (a : F), a <= List.fold_left f l a.
  by elim=> [//|nd l ih] a /=; apply: le_trans (ih _); exact: violation_ge.
have h' := le_trans (violation_ge _ _ _ _) h.
split=> [nd hn i|i]; last by apply: violation_row h; exact: (ge (run t) 0).
suff : forall (l : seq node) (a : F), 0 <= a -> List.fold_left f l a <= tol -> List.In nd l ->
  row_feasible tol ((alb (nm nd) : 'cV[option F]_(ng (nm nd))) i 0) ((aub (nm nd) : 'cV[option F]_(ng (nm nd))) i 0)
       ((ag (nm nd) (mem nd) : 'cV[F]_(ng (nm nd))) i 0).
  by move=> k; apply: (k (run t) 0).
elim=> [//|m l ih] a ha hle /= [e|]; last by apply: ih hle; apply: le_trans ha (violation_ge _ _ _ _).
subst m; apply: (violation_row _ ha); exact: le_trans (ge l _) hle.
Qed.

(** ** C09 componentwise: if SolverCSQP::solve returns true, then at the returned
    trajectory (re-evaluated from scratch) every stationarity component, every gap
    and every row violation is at most the tolerance. *)
Theorem C09_csqp_true_componentwise (l : list (slot M)) t resize k s x0 (c : ccfg E) timeout fuel xs us maxiter reg s' :
  csqp_hist l t resize k s -> csqp_solve c timeout x0 fuel xs us maxiter reg s = Ret true s' ->
  0 <= (c_tol (cc_ddp c) : F) ->
  let tr := creeval (k_tr s') in
  [/\ tr = k_tr s', cstat_small true (c_tol (cc_ddp c) : F) (run tr) (trm tr), gaps_small (c_tol (cc_ddp c) : F) tr
    & rows_feasible (c_tol (cc_ddp c) : F) tr].
Proof.
move=> hist call h0 tr.
have [h1 [h2 _]] := C09_csqp_true_means_small_residual hist call erefl.
have [h3 h4 h5] := proj1 (C06_ckkt_norm _ _ h0) h2.
by split=> //; exact: con_rows.
Qed.
(** C08 componentwise, when the last line search accepted *)
Theorem C08_sqp_true_componentwise (l : list (slot M)) t resize k s x0 (c : scfg E) fuel xs us maxiter reg s' :
  l <> nil -> sqp_hist l t resize k s -> sqp_solve x0 c fuel xs us maxiter reg s = Ret true s' ->
  0 <= (c_tol (sc_ddp c) : F) ->
  exists rs, sqp_run l x0 c xs us maxiter reg s rs true true s' /\
    (evaluated_at rs (length rs) ->
     let tr := reeval x0 (q_tr s') in
     [/\ tr = q_tr s', stat_small (c_tol (sc_ddp c) : F) (run tr) (trm tr) & gaps_small (c_tol (sc_ddp c) : F) tr]).
Proof.
move=> hl hist call h0; have [rs [h1 h2]] := C08_sqp_true_means_kkt hl hist call erefl.
exists rs; split=> // he tr; have [h3 h4] := h2 he.
by have [h5 h6] := proj1 (C06_kkt_norm _ h0) h4; split.
Qed.
(** the check itself: get_KKT() after checkKKTConditions *)
Theorem C06_sqp_check (c : scfg E) (s : sqp M) : q_kkt (sqp_check c s) = kkt_residual (q_tr (sqp_check c s)).
Proof. by []. Qed.
Theorem C06_csqp_check (s : csqp M) : k_kkt (csqp_checkKKT s) = ckkt_residual (k_con s) (k_tr (csqp_checkKKT s)).
Proof. by []. Qed.
End Norm.
Print Assumptions C06_kkt_norm.
Print Assumptions C06_ckkt_norm.
Print Assumptions C09_csqp_true_componentwise.
Print Assumptions C08_sqp_true_componentwise.
