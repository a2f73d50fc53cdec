(** * Invariants on the penalties at every QP iteration of a solve (any arithmetic). *)
From Coq Require Import ZArith List Bool Arith Lia ssreflect.
From Verif Require Import Eigen Problem DDP Filter SQP CSQP Init TrialSpec TraceSpec SQPSpec CSQPSpec SQPTrial SQPLoop
  History CSQPFrames CSQPTrial CSQPLoop CSQPHist QPSpec CallSpec FastPass.
Import ListNotations.
Set Implicit Arguments.
Unset Strict Implicit.
Set Asymmetric Patterns.

Section Inv.
Variable E : Eig.
Variable M : manifold E.
Notation R := (R E).
Notation node := (node M).
Notation tnode := (tnode M).
Notation vec := (vec E).

(** same models and penalties *)
Definition psame_node (n n' : node) : Prop :=
  exists p m d f v di a, n' = @mkNode E M (nm n) p m d f v di a /\ arho a = arho (adm n) /\ airho a = airho (adm n).
Definition psame_tnode (tn tn' : tnode) : Prop :=
  exists x xt me de f A v d la dt z zp zr y,
    tn' = @mkTnode E M (tm tn) x xt me de f A v d la dt z zp zr y (tarho tn) (tairho tn).
Definition psame (t t' : traj M) : Prop :=
  Forall2 psame_node (run t) (run t') /\ psame_tnode (trm t) (trm t').
Lemma psn_refl n : psame_node n n.
Proof. destruct n. do 7 eexists. split; [reflexivity|by split]. Qed.
Lemma psn_trans n1 n2 n3 : psame_node n1 n2 -> psame_node n2 n3 -> psame_node n1 n3.
Proof.
  move=> [p [m [d [f [v [di [a [-> [h1 h2]]]]]]]]] [p' [m' [d' [f' [v' [di' [a' [-> [h1' h2']]]]]]]]].
  do 7 eexists. split; [reflexivity|]. by rewrite h1' h2'.
Qed.
Lemma pst_refl n : psame_tnode n n.
Proof. destruct n. do 14 eexists. reflexivity. Qed.
Lemma pst_trans n1 n2 n3 : psame_tnode n1 n2 -> psame_tnode n2 n3 -> psame_tnode n1 n3.
Proof.
  move=> [? [? [? [? [? [? [? [? [? [? [? [? [? [? ->]]]]]]]]]]]]]].
  move=> [? [? [? [? [? [? [? [? [? [? [? [? [? [? ->]]]]]]]]]]]]]]. do 14 eexists. reflexivity.
Qed.
Lemma ps_refl t : psame t t.
Proof. split; [apply: F2_refl; exact: psn_refl|exact: pst_refl]. Qed.
Lemma ps_trans t1 t2 t3 : psame t1 t2 -> psame t2 t3 -> psame t1 t3.
Proof. move=> [h1 h2] [k1 k2]. split; [exact: F2_trans psn_trans h1 k1|exact: pst_trans h2 k2]. Qed.
Lemma psn_val (n : node) v : psame_node n (set_val n v).
Proof. do 7 eexists. split; [reflexivity|by split]. Qed.
Lemma psn_adm (n : node) a : arho a = arho (adm n) -> airho a = airho (adm n) -> psame_node n (set_adm n a).
Proof. move=> h1 h2. do 7 eexists. split; [reflexivity|by split]. Qed.
Lemma pst_V tn A v : psame_tnode tn (set_tV tn A v).
Proof. do 14 eexists. reflexivity. Qed.

Variable c : ccfg E.
Lemma cb_finishP symm (preg : R) (n : node) qx qxx qu quu qxu vfs :
  psame_node n (snd (cb_finish symm preg n qx qxx qu quu qxu vfs)).
Proof. rewrite /cb_finish. case: (_ && _); exact: psn_val. Qed.
Lemma cb_nodesP (preg dreg : R) tn : forall l first, Forall2 psame_node l (snd (cb_nodes c preg dreg first l tn)).
Proof.
  elim=> [|n l ih] first /=; first by constructor.
  have := ih false. case: (cb_nodes c preg dreg false l tn) => [[] l'] /= h; constructor => //.
  - exact: cb_finishP.
  - exact: psn_refl.
Qed.
Lemma cb_ps (preg dreg : R) t : psame t (snd (cb_backward c preg dreg t)).
Proof. split; [exact: cb_nodesP | exact: pst_V]. Qed.
Lemma cw_nodesP (preg dreg : R) tn : forall l, Forall2 psame_node l (snd (cw_nodes preg dreg l tn)).
Proof.
  elim=> [|n l ih] /=; first by constructor.
  move: ih. case: (cw_nodes preg dreg l tn) => [[] l'] /= h; constructor => //.
  - exact: cb_finishP.
  - exact: psn_refl.
Qed.
Lemma cw_ps (preg dreg : R) t : psame t (snd (cw_backward preg dreg t)).
Proof. split; [exact: cw_nodesP | exact: pst_V]. Qed.
Lemma ps_map_first f (l : list node) : (forall b n, psame_node n (f b n)) -> Forall2 psame_node l (map_first f l).
Proof. move=> h. case: l => [|n l] /=; constructor => //. exact: F2_map. Qed.
Lemma cm_nodesP (preg : R) tn : forall l, Forall2 psame_node l (snd (cm_nodes preg l tn)).
Proof.
  elim=> [|n l ih] /=; first by constructor.
  move: ih. case: (cm_nodes preg l tn) => [[] l'] /= h; constructor => //.
  - exact: cb_finishP.
  - exact: psn_refl.
Qed.
Lemma cm_ps (preg dreg : R) t : psame t (snd (cm_backward c preg dreg t)).
Proof.
  split; [|exact: pst_V].
  apply: F2_trans psn_trans (ps_map_first (f := cm_init c dreg) _ _) (cm_nodesP _ _ _) => b n. exact: psn_val.
Qed.
Lemma cf_nodesP tn : forall l first, Forall2 psame_node l (cf_nodes c first l tn).
Proof. elim=> [|n l ih] first /=; constructor => //. exact: psn_val. Qed.
Lemma cf_ps t : psame t (cf_backward c t).
Proof. split; [exact: cf_nodesP | exact: pst_V]. Qed.
Lemma cfwd_nodesP' l (tn : tnode) : forall d,
  Forall2 psame_node l (fst (cfwd_nodes d l tn)) /\ psame_tnode tn (snd (cfwd_nodes d l tn)).
Proof.
  elim: l => [|n l ih] d /=.
  - split; [constructor|]. do 14 eexists. reflexivity.
  - case: (ih (cfwd_x n (hd_fs l tn) d (cfwd_u n d))) => h1 h2.
    split => //. constructor => //. exact: psn_adm.
Qed.
Lemma cforward_ps (t : traj M) : psame t (cforward t).
Proof. case: (cfwd_nodesP' (run t) (trm t) (hd_dxt (run t) (trm t))) => h1 h2. by split. Qed.
Lemma cwfwd_nodesP' l (tn : tnode) : forall d,
  Forall2 psame_node l (fst (cwfwd_nodes d l tn)) /\ psame_tnode tn (snd (cwfwd_nodes d l tn)).
Proof.
  elim: l => [|n l ih] d /=.
  - split; [constructor|]. do 14 eexists. reflexivity.
  - case: (ih (cfwd_x n (hd_fs l tn) d (cfwd_u n d))) => h1 h2.
    split => //. constructor => //. do 7 eexists. split; [reflexivity|by split].
Qed.
Lemma cwforward_ps (t : traj M) : psame t (cwforward t).
Proof. case: (cwfwd_nodesP' (run t) (trm t) (hd_dx (run t) (trm t))) => h1 h2. by split. Qed.
Lemma admm_ps t : psame t (mkTraj (map (admm_node c) (run t)) (admm_tnode c (trm t))).
Proof.
  split.
  - apply: F2_map => n. rewrite /admm_node. case: (_ =? 0); do 7 eexists; (split; [reflexivity|by split]).
  - rewrite /= /admm_tnode. case: (_ =? 0); do 14 eexists; reflexivity.
Qed.
Lemma lag_ps t : psame t (mkTraj (map (@lag_node E M) (run t)) (lag_tnode (trm t))).
Proof.
  split.
  - apply: F2_map => n. do 7 eexists; (split; [reflexivity|by split]).
  - do 14 eexists; reflexivity.
Qed.
Lemma reset_ps t : psame t (mkTraj (map (reset_node c) (run t)) (reset_tnode c (trm t))).
Proof.
  split.
  - apply: F2_map => n. do 7 eexists; (split; [reflexivity|by split]).
  - do 14 eexists; reflexivity.
Qed.
Lemma touched_ps t t' : touched_traj t t' -> psame t t'.
Proof.
  move=> [h [xt [m e]]]. split; last by rewrite e; do 14 eexists.
  elim: h => [|n n' l l' [xt' [ut [m' [_ ->]]]] _ ih]; constructor => //. do 7 eexists; (split; [reflexivity|by split]).
Qed.
Lemma accept_ps t : psame t (accept_try t).
Proof.
  split.
  - apply: F2_map => n. do 7 eexists; (split; [reflexivity|by split]).
  - do 14 eexists; reflexivity.
Qed.
Lemma calc_nodesP l (tn : tnode) : forall f gap con,
  Forall2 psame_node l (fst (fst (calc_nodes f l tn gap con))) /\
  psame_tnode tn (snd (fst (calc_nodes f l tn gap con))).
Proof.
  elim: l => [|n l ih] f gap con /=.
  - split; [constructor|]. case: f => [v|]; [do 14 eexists; reflexivity|exact: pst_refl].
  - set r := calc_nodes _ _ _ _ _. have : Forall2 psame_node l (fst (fst r)) /\ psame_tnode tn (snd (fst r)) by exact: ih.
    move=> [h1 h2]. split => //. constructor => //. case: f => [v|]; [|exact: psn_refl].
    do 7 eexists; (split; [reflexivity|by split]).
Qed.
Lemma calc_ps (s : csqp M) : psame (k_tr s) (k_tr (csqp_calc s)) /\ k_rho (csqp_calc s) = k_rho s.
Proof.
  split => //. rewrite /csqp_calc. cbn [k_tr set_k_con set_k_gap set_k_cost set_k_tr].
  set t1 := fst (problem_calcDiff _).
  have h1 : psame (k_tr s) t1.
  { split.
    - rewrite /t1 /= map_map. apply: F2_map => n. do 7 eexists; (split; [reflexivity|by split]).
    - do 14 eexists; reflexivity. }
  apply: ps_trans h1 _. case: (calc_nodesP (run t1) (trm t1) None (r0 E) (r0 E)) => k1 k2. by split.
Qed.
Lemma ptonly_ps (tr tr' : traj M) x : Forall2 (@ptonly E M) (run tr) (run tr') -> trm tr' = set_tx (trm tr) x -> psame tr tr'.
Proof.
  move=> h e. split; last by rewrite e; do 14 eexists.
  elim: h => [|n n' l l' [p ->] _ ih]; constructor => //. do 7 eexists; (split; [reflexivity|by split]).
Qed.

(** ** The invariant *)
Variable timeout : nat -> bool.
Variable Q : R -> Prop.
Variable P : R -> traj M -> Prop.
Hypothesis P_psame : forall r t t', psame t t' -> P r t -> P r t'.
Hypothesis Q_base : Q (cc_rhobase c).
Hypothesis Q_upd : forall w rho, Q rho ->
  elt E (efin E (rmul E rho (cc_adtol c))) (rho_estimate c w rho)
    || elt E (rho_estimate c w rho) (efin E (rdiv E rho (cc_adtol c))) = true ->
  Q (eto E (rho_estimate c w rho)).
Hypothesis P_apply : forall r t, Q r -> P r (apply_rho c r t).
Definition I (s : csqp M) : Prop := Q (k_rho s) /\ P (k_rho s) (k_tr s).
Lemma I_psame s s' : psame (k_tr s) (k_tr s') -> k_rho s' = k_rho s -> I s -> I s'.
Proof. move=> h e [h1 h2]. rewrite /I e. split => //. exact: P_psame h h2. Qed.
Lemma I_reset s : I (reset_rho c s).
Proof. split; [exact: Q_base|exact: P_apply]. Qed.
Lemma I_update b s : I s -> I (update_rho c b s).
Proof.
  rewrite /update_rho => h. case e: (_ && _).
  - have : elt E (efin E (rmul E (k_rho s) (cc_adtol c))) (rho_estimate c (k_norms s) (k_rho s))
      || elt E (rho_estimate c (k_norms s) (k_rho s)) (efin E (rdiv E (k_rho s) (cc_adtol c))) = true.
    { move/andb_true_iff: e => [_ h1]. exact: h1. }
    move=> h1. have q := Q_upd (proj1 h) h1. split; [exact: q|exact: P_apply].
  - exact: h.
Qed.
Lemma I_step i s : I s -> match qp_step c i s with SThrow s' | SStop s' | SGo s' => I s' end.
Proof.
  rewrite /qp_step => h. set s0 := set_k_log _ _.
  have h0 : I s0 by exact: h.
  have hp : I (snd (qp_pass c i s0)).
  { case: (qp_pass_tr c i s0) => e _. have er : k_rho (snd (qp_pass c i s0)) = k_rho s0 by rewrite /qp_pass; case: (qp_full c i).
    apply: I_psame _ er h0. rewrite e. case: (qp_full c i); [|exact: cf_ps].
    rewrite /full_pass. case: (cc_mt c); [exact: cm_ps|exact: cb_ps]. }
  move: (qp_pass c i s0) hp => [b p] /= hp. case: b => //.
  have hf : I (set_k_tr (cforward (k_tr p)) p) by apply: I_psame hp => //; exact: cforward_ps.
  move: (set_k_tr _ _) hf => s1 hf.
  have hl : forall a, I (update_lagrangian c a s1) by move=> a; apply: I_psame hf => //; exact: admm_ps.
  case: (_ =? 0).
  - have := I_update true (hl true). move: (update_rho _ _ _) => s2 h2.
    have ht : I (qp_tolerances c s2).
    { rewrite /qp_tolerances. case: (rle _ _ _); exact: I_psame (ps_refl _) _ h2. }
    move: (qp_tolerances c s2) ht => s3 h3. by case: (qp_converged _).
  - exact: I_update.
Qed.
Lemma I_tick s : I s -> I (snd (tick timeout s)).
Proof. exact: I_psame (ps_refl _) _. Qed.
Lemma I_params s : cc_resetrho c = true \/ I s -> I (reset_params c s).
Proof.
  rewrite /reset_params. case: (cc_resetrho c) => h.
  - apply: (I_psame (s := reset_rho c s)) => //; [exact: reset_ps|exact: I_reset].
  - case: h => // h. apply: (I_psame (s := s)) => //. exact: reset_ps.
Qed.
Lemma I_begin s s1 : cc_resetrho c = true \/ I s -> qp_begin c s = Some s1 -> I s1.
Proof.
  rewrite /qp_begin => /I_params h. move: (reset_params c s) h => s0 h.
  case: (cc_eqguess c); last by move=> [<-].
  case: (fst _) => // -[<-]. apply: I_psame h => //.
  apply: ps_trans (cwforward_ps _). exact: cw_ps.
Qed.
Lemma I_top s i si : cc_resetrho c = true \/ I s -> qp_top c timeout s i si -> I si.
Proof.
  move=> h0 h. elim: h => [s1 hb _ _|i' s1 s2 _ ih hs _ _].
  - apply: I_tick. exact: I_begin hb.
  - apply: I_tick. have := I_step i' ih. by rewrite hs.
Qed.
Lemma I_loop : forall r i s, I s ->
  match qp_loop c timeout r i s with QDone s' | QThrow s' => I s' | QUB => True end.
Proof.
  elim=> [|r ih] i s h; first by exact: I_psame (ps_refl _) _ h.
  cbn [qp_loop]. have ht := I_tick h. move: (tick timeout s) ht => [b s1] ht.
  cbn [fst snd] in *. case: b; first by exact: I_psame (ps_refl _) _ ht.
  case: (_ =? 0) => //. have := I_step i ht. case: (qp_step c i s1) => s2 h2.
  - exact: I_psame (ps_refl _) _ h2.
  - exact: I_psame (ps_refl _) _ h2.
  - exact: ih.
Qed.
Lemma I_dir s : cc_resetrho c = true \/ I s ->
  match csqp_computeDirection c timeout s with QDone s' | QThrow s' => I s' | QUB => True end.
Proof.
  rewrite /csqp_computeDirection => /I_params h. move: (reset_params c s) h => s1 h.
  case: (cc_eqguess c); last exact: I_loop.
  have hw : I (set_k_tr (snd (cw_backward (k_preg s1) (k_dreg s1) (k_tr s1))) s1).
  { apply: I_psame h => //. exact: cw_ps. }
  case: (fst _); last exact: hw.
  apply: I_loop. apply: I_psame hw => //. exact: cwforward_ps.
Qed.
(** invariant outside of computeDirection *)
Definition J (s : csqp M) : Prop := cc_resetrho c = true \/ I s.
Lemma J_psame s s' : psame (k_tr s) (k_tr s') -> k_rho s' = k_rho s -> J s -> J s'.
Proof. move=> h e [h1|h1]; [by left|right; exact: I_psame h e h1]. Qed.
Lemma J_retry watch : forall fuel s, J s ->
  match csqp_retry c timeout watch fuel s with
  | DirOk s' | DirFail s' | DirExc s' => J s'
  | _ => True end.
Proof.
  elim=> [|fuel ih] s h //=. case: (_ && _) => //.
  have := I_dir h. case: (csqp_computeDirection c timeout s) => // s1 h1; first by right.
  have h2 : J (csqp_inc c s1) by right; exact: I_psame (ps_refl _) _ h1.
  case: (rge _ _) => //. exact: ih.
Qed.
Lemma J_direction watch fuel s : J s ->
  match csqp_direction c timeout watch fuel s with
  | DirOk s' | DirFail s' | DirExc s' => J s'
  | _ => True end.
Proof.
  rewrite /csqp_direction => h. case: (cc_removereg c); last exact: J_retry.
  have := I_dir h. case: (csqp_computeDirection c timeout s) => // s1 h1; by right.
Qed.
Lemma main_startE s : k_iter s = 0 \/ J s -> J (main_start c timeout s).
Proof.
  rewrite /main_start. set s0 := set_k_log _ _.
  have hs : J s -> J (csqp_calc s0).
  { move=> h. case: (calc_ps s0) => h1 h2. apply: J_psame h1 h2 _. exact: J_psame (ps_refl _) _ h. }
  have hi : k_iter (csqp_calc s0) = k_iter s by [].
  rewrite hi. case e: (_ && _).
  - move=> _. right. exact: I_reset.
  - case=> [h|h]; [|exact: hs]. left. by move: e; rewrite h /=; case: (cc_resetrho c).
Qed.
Lemma J_check s : J s -> J (csqp_check c s).
Proof. apply: J_psame => //. exact: lag_ps. Qed.
Lemma J_search s : J s -> J (csqp_merit c (csqp_push s)).
Proof.
  move=> h. have : J (csqp_push s) by exact: J_psame (ps_refl _) _ h.
  move: (csqp_push s) => s1 h1. rewrite /csqp_merit. case: (_ || _); exact: J_psame (ps_refl _) _ h1.
Qed.
Lemma J_after s : J s -> match csqp_after c s with BNext s' => J s' | BBreak s' => J s' \/ k_reached s' = true | _ => True end.
Proof.
  rewrite /csqp_after => h. case: (cc_removereg c) => //. case: (rgt _ _).
  - have h1 : J (csqp_dec c s) by exact: J_psame (ps_refl _) _ h. exact: h1.
  - case: (rge _ _) => //.
Qed.
Lemma J_log a s : J s -> J (csqp_log_accept a s).
Proof. exact: J_psame (ps_refl _) _. Qed.
Lemma J_logr s : J s -> J (csqp_log_reject s).
Proof. exact: J_psame (ps_refl _) _. Qed.
Lemma J_ls s : J s ->
  match csqp_line_search c (c_alphas (cc_ddp c)) s with
  | CLSAccept a s' => J s' | CLSNone s' => J s' | _ => True end.
Proof.
  move=> h5. have := cline_searchP c (c_alphas (cc_ddp c)) s.
  case: (csqp_line_search _ _ _) => [a s6|s6|] //.
  - move=> [pre [post [_ [_ [_ [_ [_ [_ [_ [s1 [hf [-> _]]]]]]]]]]]].
    apply: J_psame h5; [|exact: lf_rho hf]. apply: ps_trans (touched_ps (lf_tr hf)) _. exact: accept_ps.
  - move=> [_ hf]. apply: J_psame h5; [exact: touched_ps (lf_tr hf)|exact: lf_rho hf].
Qed.
Definition body_rest (fuel : nat) (s2 : csqp M) : cbody M :=
  match csqp_direction c timeout true fuel s2 with
  | DirNoFuel => CB BNoFuel
  | DirUB => CB BUB
  | DirExc s3 => CExc s3
  | DirFail s3 => CB (BRet false s3)
  | DirOk s3 =>
      if k_qpit s3 =? 0 then CB (BRet false s3)
      else
        if rle E (k_kkt (csqp_check c s3)) (c_tol (cc_ddp c)) then CB (BRet true (csqp_check c s3))
        else
          match csqp_line_search c (c_alphas (cc_ddp c)) (csqp_merit c (csqp_push (csqp_check c s3))) with
          | CLSUB => CB BUB
          | CLSNone s5 => CB (BBreak (csqp_log_reject s5))
          | CLSAccept a s5 => CB (csqp_after c (csqp_log_accept a s5))
          end
  end.
Lemma bodyE fuel s : csqp_body c timeout fuel s =
  if fst (tick timeout s) then CB (BBreak (set_k_reached true (snd (tick timeout s))))
  else body_rest fuel (main_start c timeout s).
Proof. exact: Logic.eq_refl. Qed.
Lemma J_rest fuel s2 : J s2 ->
  match body_rest fuel s2 with
  | CB (BNext s') => J s'
  | CB (BBreak s') => J s' \/ k_reached s' = true
  | _ => True
  end.
Proof.
  move=> h2. rewrite /body_rest. have := J_direction true fuel h2.
  move: (csqp_direction _ _ _ _ _) => r. case: r => // s3 h3.
  case: (_ =? 0) => //. have h4 := J_check h3. move: (csqp_check c s3) h4 => s4 h4.
  case: (rle _ _ _) => //. have h5 := J_search h4. move: (csqp_merit _ _) h5 => s5 h5.
  have := J_ls h5. move: (csqp_line_search _ _ _) => r. case: r => [a s6|s6|] // h6.
  - have h7 := J_log a h6. move: (csqp_log_accept a s6) h7 => s7 h7. exact: J_after.
  - left. exact: J_logr.
Qed.
Lemma J_body fuel s : k_iter s = 0 \/ J s ->
  match csqp_body c timeout fuel s with
  | CB (BNext s') => J s'
  | CB (BBreak s') => J s' \/ k_reached s' = true
  | _ => True
  end.
Proof.
  move=> h. rewrite bodyE. case: (fst (tick timeout s)); first by right.
  exact: J_rest (main_startE h).
Qed.
Lemma J_head fuel s0 n s : k_iter s0 = 0 -> loop_head c timeout fuel s0 n s -> (n = 0 /\ s = s0) \/ J s.
Proof.
  move=> h0 h. elim: h => [|n' s1 s2 _ ih hb]; first by left.
  right. have := J_body fuel (s := s1). rewrite hb => H. apply: J_psame (ps_refl _) _ (H _) => //.
  case: ih => [[_ ->]|h]; [by left|by right].
Qed.
Lemma J_called fuel s0 maxiter s1 : k_iter s0 = 0 -> (maxiter = 0 -> J s0) ->
  called c timeout fuel s0 maxiter s1 -> J s1.
Proof.
  move=> h0 hz h. elim: h => [n s hh hn ht|s he _ hr|s s2 _ ih hrr hd _].
  - apply: main_startE. case: (J_head h0 hh) => [[_ ->]|h]; [by left|by right].
  - case: (calc_ps s) => k1 k2. apply: J_psame k1 k2 _. case: he => [hh|[n [s' [hh [hn hb]]]]].
    + case: (J_head h0 hh) => [[e1 e2]|//]. rewrite e2. exact: hz.
    + have h' : k_iter s' = 0 \/ J s' by case: (J_head h0 hh) => [[_ ->]|h]; [by left|by right].
      have := J_body fuel h'. rewrite hb. case=> // hr'. by rewrite hr' in hr.
  - right. have h1 := I_dir ih. rewrite hd in h1. apply: (@I_psame s2) h1 => //. exact: ps_refl.
Qed.
Lemma I_set s : I s -> I (set_k_iter 0 (set_k_reached false s)).
Proof. exact: I_psame (ps_refl _) _. Qed.
Theorem I_solve fuel x0 xs us maxiter reg s s1 i si :
  solve_qp c timeout fuel x0 xs us maxiter reg s s1 i si -> I si.
Proof.
  move=> [s0 [hb [hc ht]]]. apply: I_top ht. apply: J_called hc.
  - move: hb. rewrite /solve_begin. case: (set_guess _ _ _) => // t [<-]. by [].
  - move=> hm. move: hb. rewrite /solve_begin hm. case: (set_guess _ _ _) => // t.
    move: (set_k_dreg _ _) => s' [<-]. right. apply: I_set. exact: I_reset.
Qed.
End Inv.
