(** * Property C12 for SolverCSQP (exact arithmetic, vector-space states). *)
From Coq Require Import Ring Field ZArith PeanoNat List Lia.
Set Warnings "-notation-overridden,-ambiguous-paths".
From mathcomp Require Import all_ssreflect all_algebra.
From Verif Require Import FieldTac Eigen EigenExact ExactLemmas Problem DDP Filter SQP CSQP Init Models LQSpec Riccati TrialSpec TraceSpec
  SQPSpec CSQPSpec CSQPFrames SQPTrial SQPLoop CSQPTrial CSQPLoop CSQPHist SubQP PassExact P_Direction Witness Affine AffineStep P_Affine P_AffineWitness AdmmWitness.

Set Implicit Arguments.
Unset Strict Implicit.
Unset Printing Implicit Defensive.

Import Order.TTheory GRing.Theory Num.Theory.
Local Open Scope ring_scope.

Section A.
Variable F : realFieldType.
Variable sq : F -> F.
Notation E := (ExactE sq).
Variable n : nat.
Notation M := (euclid E n).
Notation node := (node M).
Notation tnode := (tnode M).
Variable c : ccfg E.

(** ** The direction of an ADMM iteration satisfies the linearised dynamics *)
Lemma hd_admm (l : list node) (tn : tnode) : (forall d, hd_dx (List.map (admm_node c) (fst (cfwd_nodes d l tn)))
    (admm_tnode c (snd (cfwd_nodes d l tn))) = d) /\
  (forall d, hd_fs (List.map (admm_node c) (fst (cfwd_nodes d l tn))) (admm_tnode c (snd (cfwd_nodes d l tn))) = hd_fs l tn).
Proof.
by case: l => [|nd l]; split=> d /=; rewrite /admm_tnode /admm_node /=; case: (Nat.eqb _ _).
Qed.
Lemma admm_der (nd : node) d u :
  let m := admm_node c (set_dxtut nd d u) in
  exists e : nm m = nm nd, True.
Proof. by rewrite /admm_node /=; case: (Nat.eqb _ _); exists erefl. Qed.
Lemma cfwd_lin (l : list node) (tn : tnode) d :
  lin_dyn (List.map (admm_node c) (fst (cfwd_nodes d l tn))) (admm_tnode c (snd (cfwd_nodes d l tn))).
Proof.
elim: l d => [|nd l IH] d //.
cbn [cfwd_nodes fst snd List.map]; cbv zeta.
set d' := cfwd_x _ _ _ _.
have [h1 h2] := hd_admm l tn.
split; last exact: IH.
rewrite (h1 d') (h2 d') /admm_node /=; case: (Nat.eqb _ _) => /=; rewrite /d' /cfwd_x /=;
  by rewrite -!addrA addrC -addrA.
Qed.
Lemma lin_rho r (t : traj M) : lin_dyn (run t) (trm t) -> lin_dyn (run (apply_rho c r t)) (trm (apply_rho c r t)).
Proof.
case: t => l tn; cbn [run trm apply_rho].
elim: l => [|nd l IH] //= [h1 h2]; split; last exact: IH.
have -> : hd_dx (List.map (rho_node c r) l) (rho_tnode c r tn) = hd_dx l tn by case: (l).
have -> : hd_fs (List.map (rho_node c r) l) (rho_tnode c r tn) = hd_fs l tn by case: (l).
exact: h1.
Qed.
Notation lin s := (lin_dyn (run (k_tr s)) (trm (k_tr s))).
Lemma step_lin i (s : csqp M) :
  match qp_step c i s with SThrow _ => True | SStop s' | SGo s' => lin s' end.
Proof.
rewrite /qp_step; cbv zeta; move: (qp_pass _ _ _) => [[] p] //; cbn [fst snd].
have upd q : lin (update_rho c q (update_lagrangian c q (set_k_tr (cforward (k_tr p)) p))).
  have h : lin (update_lagrangian c q (set_k_tr (cforward (k_tr p)) p)) by exact: cfwd_lin.
  by rewrite /update_rho; case: (_ && _); [exact: lin_rho|exact: h].
case: (Nat.eqb _ _); last exact: upd.
have := upd true; move: (update_rho _ _ _) => q hq.
have e : k_tr (qp_tolerances c q) = k_tr q by rewrite /qp_tolerances; case: (rle _ _ _).
by rewrite -e in hq; move: (qp_tolerances c q) hq {e} => q' hq; case: (qp_converged q').
Qed.
Variable timeout : nat -> bool.
Lemma loop_lin r i (s s' : csqp M) : qp_loop c timeout r i s = QDone s' -> lin s -> lin s'.
Proof.
elim: r i s => [|r IH] i s; first by move=> [<-].
cbn [qp_loop]; case: (fst _); first by move=> [<-].
case: (Nat.eqb _ _) => // e _; have := step_lin i (snd (tick timeout s)).
case: (qp_step c i _) e => // s1; first by move=> [<-].
exact: IH.
Qed.
Lemma loop_lin1 r (s s' : csqp M) : qp_loop c timeout (S r) 1 s = QDone s' -> k_qpit s' <> 0%N -> lin s'.
Proof.
cbn [qp_loop]; case: (fst _); first by move=> [<-] /(_ erefl).
case: (Nat.eqb _ _) => // e _; have := step_lin 1 (snd (tick timeout s)).
case: (qp_step c 1 _) e => // s1; first by move=> [<-].
exact: loop_lin.
Qed.
Lemma lag_lin (s : csqp M) : lin s -> lin (csqp_checkKKT s).
Proof.
have -> : k_tr (csqp_checkKKT s) = mkTraj (List.map (@lag_node E M) (run (k_tr s))) (lag_tnode (trm (k_tr s))) by [].
case: (k_tr s) => l tn /=; elim: l => [|nd l IH] //= [h1 h2]; split; last exact: IH.
have -> : hd_dx (List.map (@lag_node E M) l) (lag_tnode tn) = hd_dx l tn by case: l {IH h1 h2}.
have -> : hd_fs (List.map (@lag_node E M) l) (lag_tnode tn) = hd_fs l tn by case: l {IH h1 h2}.
exact: h1.
Qed.
Lemma csqp_direction_lin (s s' : csqp M) : (0 < cc_maxqp c)%coq_nat ->
  csqp_computeDirection c timeout s = QDone s' -> k_qpit s' <> 0%N -> lin s'.
Proof.
case e: (cc_maxqp c) => [|r]; first by move=> h; inversion h.
move=> _; rewrite /csqp_computeDirection e.
case: (cc_eqguess c); last exact: loop_lin1.
by cbv zeta; case: (fst _) => //; exact: loop_lin1.
Qed.

(** ** Re-evaluated rounds *)
Lemma creeval_cons (x0 : mX M) (t : traj M) : creeval t = t -> hd_x (run t) (trm t) = x0 -> consistent x0 t.
Proof.
move=> e hx; apply: reeval_id; rewrite -{2}e /reeval /creeval /computeGaps; cbv zeta.
set t1 := fst (problem_calcDiff (problem_calc t)).
have hx1 : hd_x (run t1) (trm t1) = x0 by rewrite -hx /t1; case: (t) => [[|m l] tn].
suff -> : diff M (hd_x (run t1) (trm t1)) x0 = vzero E by [].
by rewrite hx1 /= subrr.
Qed.
Lemma stored_total (t : traj M) : (stored_gap t : F) = total (behead (gaps (run t) (trm t))).
Proof.
case: t => [[|nd l] tn] /=; first by rewrite /total big_nil.
rewrite /stored_gap /= /gaps /= total_cat {2}/total big_seq1; congr (_ + _).
suff gen : forall ls (acc : F), List.fold_left (fun a (nd : node) => radd E a (vl1 E (fs nd))) ls acc
   = acc + total [seq (fs nd : 'cV[F]_n) | nd : node <- ls] by rewrite gen add0r.
elim=> [|m ls IH] acc; first by rewrite /total big_nil /= addr0.
by rewrite /= IH /total big_cons addrA.
Qed.

Section Run.
Variables (l : list (slot M)) (t : tslot M).
Variable resize : nat -> nat -> Prop.
Notation ms := (List.map (@sl_m E M) l).

(** C12 (SolverCSQP).  On a problem with affine dynamics, in every call of solve
    on every object (with a clock that does not run backwards and at least one QP
    iteration allowed), for every line search: if ds are the defects of the
    iterate then the gap norm is their total 1-norm, and for every step length a
    the trial trajectory has exactly the defects (1-a) ds and the trial's gap norm
    is |1-a| times the iterate's. *)
Theorem C12_csqp_defects_scale k s x0 fuel xs us maxiter reg b s' :
  (forall sl, List.In sl l -> affine_dynamics (sl_m sl)) ->
  (forall i, timeout i = true -> timeout (S i) = true) -> (0 < cc_maxqp c)%coq_nat ->
  csqp_hist l t resize k s -> csqp_solve c timeout x0 fuel xs us maxiter reg s = Ret b s' ->
  exists rs last, csqp_run l x0 c timeout xs us maxiter s rs last b s' /\
    forall r, List.In r rs ->
    exists ds, defects_of ms x0 (get_us (r_tr r)) (get_xs (r_tr r)) ds /\ (r_gap r : F) = total ds /\
      forall a : F, defects_of ms x0 (trial_us (a : R E) (r_tr r)) (trial_xs (a : R E) (r_tr r)) [seq (1 - a) *: v | v <- ds] /\
        (trial_gap (a : R E) (r_tr r) : F) = `|1 - a| * r_gap r.
Proof.
move=> ha hc hq hh hs.
have [rs [last hr]] := csqp_solve_run hh hs.
exists rs, last; split=> // r hr0.
have hdx : forall r, List.In r rs -> hd_dx (run (r_tr r)) (trm (r_tr r)) = vzero E.
  by move=> r1 /(crun_models hr) [].
have hx := iter_head (crun_iterates hr) erefl hdx hr0.
have [hre [_ [hg _]]] := crun_values hr hr0.
have [hm _] := crun_models hr hr0.
have hcon := creeval_cons hre hx.
have [s1 [s2 [hd [hn etr]]]] := proj1 (crun_dir hr hc) r hr0.
have hl : lin_dyn (run (r_tr r)) (trm (r_tr r)).
  by rewrite etr; apply: lag_lin; exact: csqp_direction_lin hd hn.
have [[h1 h2] [[h3 h4] h5]] := hcon.
have [ds eds] : exists ds, gaps (run (r_tr r)) (trm (r_tr r)) = (0 : 'cV[F]_n) :: ds.
  move: h5; rewrite hx /gaps /= subrr.
  by case: (run _) => [|nd ls] /=; [move=> ->; exists nil|move=> [-> _]; eexists].
exists (gaps (run (r_tr r)) (trm (r_tr r))).
rewrite -hm; split; first by apply: fresh_defects.
have egap : (r_gap r : F) = total (gaps (run (r_tr r)) (trm (r_tr r))).
  by rewrite hg stored_total eds /= {2}/total big_cons norm10 add0r.
split=> // a.
have ha' nd : List.In nd (run (r_tr r)) -> affine_dynamics (nm nd).
  move=> hin; have := List.in_map (@nm E M) _ _ hin; rewrite hm => /List.in_map_iff [sl [<- hsl]].
  exact: ha.
have hgok : exists f, gaps_ok f (run (r_tr r)) (trm (r_tr r)) by eexists; exact: h5.
have hth : trial_next_x (a : R E) (run (r_tr r)) (trm (r_tr r)) = x0.
  by move: hx (hdx r hr0); case: (run _) => [|nd ls] /= -> e; rewrite ?/trial_tx ?/trial_x /= e scaler0 addr0.
have := step_defects (a : R E) x0 ha' h1 h3 hgok hl.
rewrite hth subrr eds /= => hdd.
have -> : (1 - a) *: (0 : 'cV[F]_n) = 0 by rewrite scaler0.
split; first exact: hdd.
rewrite /trial_gap (@trial_defectsP _ _ _ (a : R E) _ _ (r0 E) _ _ hdd) /= add0r egap eds {2}/total big_cons norm10 add0r.
exact: totalZ.
Qed.
End Run.
End A.

(** the constrained one-step problem of AdmmWitness.v with default parameters
    meets the hypotheses (a complete binary64 run of solve is crun1 of
    P_CSQPSolve.v) *)
Example C12_csqp_hypotheses_met (F : realFieldType) (sq : F -> F) :
  [/\ forall sl, List.In sl [:: vslot sq] -> affine_dynamics (sl_m sl),
      forall i, vtime i = true -> vtime (S i) = true, (0 < cc_maxqp (vc sq))%coq_nat
    & csqp_hist (M := euclid (ExactE sq) 1) [:: vslot sq] (wtslot sq) le 1 (vs sq)].
Proof.
split=> //; last exact: chist_new.
  move=> sl [<-|] //; by have [||//] := @lq_model_ok F sq 1 1 1 (vlq sq); rewrite /is_sym /= ?trmx0 ?trmx1.
exact: Nat.lt_0_succ.
Qed.

Print Assumptions C12_csqp_defects_scale.
