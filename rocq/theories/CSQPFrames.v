(** * What the passes, the ADMM updates and computeDirection of SolverCSQP leave
    alone (any arithmetic). *)
From Coq Require Import ZArith List Bool Arith Lia ssreflect.
From Verif Require Import Eigen Problem DDP Filter SQP CSQP TrialSpec TraceSpec.
Import ListNotations.
Set Implicit Arguments.
Unset Strict Implicit.
Set Asymmetric Patterns.

Section Frames.
Variable E : Eig.
Variable M : manifold E.
Notation R := (R E).
Notation node := (node M).
Notation tnode := (tnode M).
Notation vec := (vec E).

Definition cpassed (n n' : node) : Prop := exists v d a, n' = set_adm (set_dir (set_val n v) d) a.
Definition tcpassed (tn tn' : tnode) : Prop :=
  exists A v d la dt z zp zr y r ir,
    tn' = @mkTnode E M (tm tn) (tx tn) (txt tn) (tme tn) (tder tn) (tfs tn) A v d la dt z zp zr y r ir.
Definition cpassed_traj (t t' : traj M) : Prop :=
  Forall2 cpassed (run t) (run t') /\ tcpassed (trm t) (trm t').
Definition zeros (t : traj M) : Prop :=
  hd_dx (run t) (trm t) = vzero E /\ hd_dxt (run t) (trm t) = vzero E.
Definition cstep (t t' : traj M) : Prop := cpassed_traj t t' /\ (zeros t -> zeros t').

Lemma cpassed_refl n : cpassed n n.
Proof. destruct n. eexists _, _, _. reflexivity. Qed.
Lemma cpassed_trans n1 n2 n3 : cpassed n1 n2 -> cpassed n2 n3 -> cpassed n1 n3.
Proof. move=> [v [d [a ->]]] [v' [d' [a' ->]]]. by exists v', d', a'. Qed.
Lemma tcpassed_refl n : tcpassed n n.
Proof. destruct n. do 11 eexists. reflexivity. Qed.
Lemma tcpassed_trans n1 n2 n3 : tcpassed n1 n2 -> tcpassed n2 n3 -> tcpassed n1 n3.
Proof.
  move=> [? [? [? [? [? [? [? [? [? [? [? ->]]]]]]]]]]].
  move=> [? [? [? [? [? [? [? [? [? [? [? ->]]]]]]]]]]]. do 11 eexists. reflexivity.
Qed.
Lemma cpassed_dir (n : node) d : cpassed n (set_dir n d).
Proof. exists (val n), d, (adm n). by destruct n. Qed.
Lemma cpassed_adm (n : node) a : cpassed n (set_adm n a).
Proof. exists (val n), (dir n), a. by destruct n. Qed.
Lemma cpassed_list_refl l : Forall2 cpassed l l.
Proof. elim: l => [|n l ih]; constructor => //. exact: cpassed_refl. Qed.
Lemma cpassed_list_trans l1 l2 l3 :
  Forall2 cpassed l1 l2 -> Forall2 cpassed l2 l3 -> Forall2 cpassed l1 l3.
Proof.
  move=> h; elim: h l3 => [|n1 n2 l1' l2' h hl ih] l3 h3; inversion h3; subst; constructor.
  - exact: cpassed_trans h H1.
  - exact: ih.
Qed.
Lemma cpassed_traj_trans t1 t2 t3 : cpassed_traj t1 t2 -> cpassed_traj t2 t3 -> cpassed_traj t1 t3.
Proof. move=> [h1 h2] [h3 h4]. split; [exact: cpassed_list_trans h1 h3 | exact: tcpassed_trans h2 h4]. Qed.
Lemma cstep_refl t : cstep t t.
Proof. do 2 split => //; [exact: cpassed_list_refl | exact: tcpassed_refl]. Qed.
Lemma cstep_trans t1 t2 t3 : cstep t1 t2 -> cstep t2 t3 -> cstep t1 t3.
Proof. move=> [h1 h2] [h3 h4]. split; [exact: cpassed_traj_trans h1 h3 | move=> h; exact: h4 (h2 h)]. Qed.

(** nodes whose direction fields are kept as well *)
Definition ckept (n n' : node) : Prop :=
  cpassed n n' /\ dx (dir n') = dx (dir n) /\ dxt (adm n') = dxt (adm n).
Definition tckept (n n' : tnode) : Prop := tcpassed n n' /\ tdx n' = tdx n /\ tdxt n' = tdxt n.
Lemma kept_cstep l l' tn tn' : Forall2 ckept l l' -> tckept tn tn' -> cstep (mkTraj l tn) (mkTraj l' tn').
Proof.
  move=> hl [ht [hd hdt]]. split.
  - split => //=. elim: hl => [|n n' ? ? [h _] _ ih]; constructor => //.
  - rewrite /zeros /=. case: hl => [|n n' l1 l2 [_ [h1 h2]] _] /=; by rewrite ?h1 ?h2 ?hd ?hdt.
Qed.
Lemma kept_cstep' t l' tn' : Forall2 ckept (run t) l' -> tckept (trm t) tn' -> cstep t (mkTraj l' tn').
Proof. destruct t. exact: kept_cstep. Qed.
Lemma ckept_refl n : ckept n n.
Proof. by split; [exact: cpassed_refl|]. Qed.
Lemma ckept_list_refl l : Forall2 ckept l l.
Proof. elim: l => [|n l ih]; constructor => //. exact: ckept_refl. Qed.
Lemma tckept_refl n : tckept n n.
Proof. by split; [exact: tcpassed_refl|]. Qed.
Lemma tckept_V tn A v : tckept tn (set_tV tn A v).
Proof. split => //. do 11 eexists. reflexivity. Qed.
Lemma ckept_val (n : node) v : ckept n (set_val n v).
Proof. split => //. exists v, (dir n), (adm n). by destruct n. Qed.
Lemma ckept_map f l : (forall n, ckept n (f n)) -> Forall2 ckept l (map f l).
Proof. move=> h. elim: l => [|n l ih] /=; constructor => //. Qed.

Variable c : ccfg E.
Notation "a # b" := (ckept a b) (at level 70).

Lemma apply_rho_cstep r t : cstep t (apply_rho c r t).
Proof.
  apply: kept_cstep'.
  - apply: ckept_map => n. split => //. eexists (val n), (dir n), _. destruct n; reflexivity.
  - split => //. do 11 eexists. reflexivity.
Qed.
Lemma reset_cstep t : cstep t (mkTraj (map (reset_node c) (run t)) (reset_tnode c (trm t))).
Proof.
  apply: kept_cstep'.
  - apply: ckept_map => n. split => //. eexists (val n), (dir n), _. destruct n; reflexivity.
  - split => //. do 11 eexists. reflexivity.
Qed.

Lemma cb_finishV symm (preg : R) (n : node) qx qxx qu quu qxu vfs :
  ckept n (snd (cb_finish symm preg n qx qxx qu quu qxu vfs)).
Proof. rewrite /cb_finish. case: (_ && _); exact: ckept_val. Qed.
Lemma cb_nodesV (preg dreg : R) tn : forall l first, Forall2 ckept l (snd (cb_nodes c preg dreg first l tn)).
Proof.
  elim=> [|n l ih] first /=; first by constructor.
  have := ih false. case: (cb_nodes c preg dreg false l tn) => [[] l'] /= h; constructor => //.
  - exact: cb_finishV.
  - exact: ckept_refl.
Qed.
Lemma cb_backward_cstep (preg dreg : R) t : cstep t (snd (cb_backward c preg dreg t)).
Proof. apply: kept_cstep'; [exact: cb_nodesV | exact: tckept_V]. Qed.
Lemma cw_nodesV (preg dreg : R) tn : forall l, Forall2 ckept l (snd (cw_nodes preg dreg l tn)).
Proof.
  elim=> [|n l ih] /=; first by constructor.
  move: ih. case: (cw_nodes preg dreg l tn) => [[] l'] /= h; constructor => //.
  - exact: cb_finishV.
  - exact: ckept_refl.
Qed.
Lemma cw_backward_cstep (preg dreg : R) t : cstep t (snd (cw_backward preg dreg t)).
Proof. apply: kept_cstep'; [exact: cw_nodesV | exact: tckept_V]. Qed.
Lemma ckept_trans n1 n2 n3 : ckept n1 n2 -> ckept n2 n3 -> ckept n1 n3.
Proof. move=> [h1 [h2 h3]] [k1 [k2 k3]]. split; [exact: cpassed_trans h1 k1|]. by rewrite k2 k3. Qed.
Lemma ckept_list_trans l1 l2 l3 : Forall2 ckept l1 l2 -> Forall2 ckept l2 l3 -> Forall2 ckept l1 l3.
Proof.
  move=> h; elim: h l3 => [|n1 n2 l1' l2' h hl ih] l3 h3; inversion h3; subst; constructor.
  - exact: ckept_trans h H1.
  - exact: ih.
Qed.
Lemma ckept_map_first f (l : list node) : (forall b n, ckept n (f b n)) -> Forall2 ckept l (map_first f l).
Proof. move=> h. case: l => [|n l] /=; constructor => //. exact: ckept_map. Qed.
Lemma cm_nodesV (preg : R) tn : forall l, Forall2 ckept l (snd (cm_nodes preg l tn)).
Proof.
  elim=> [|n l ih] /=; first by constructor.
  move: ih. case: (cm_nodes preg l tn) => [[] l'] /= h; constructor => //.
  - exact: cb_finishV.
  - exact: ckept_refl.
Qed.
Lemma cm_backward_cstep (preg dreg : R) t : cstep t (snd (cm_backward c preg dreg t)).
Proof.
  apply: kept_cstep'; [|exact: tckept_V].
  apply: ckept_list_trans (cm_nodesV _ _ _). apply: ckept_map_first => b n. exact: ckept_val.
Qed.
Lemma cf_nodesV tn : forall l first, Forall2 ckept l (cf_nodes c first l tn).
Proof. elim=> [|n l ih] first /=; constructor => //. exact: ckept_val. Qed.
Lemma cf_backward_cstep t : cstep t (cf_backward c t).
Proof. apply: kept_cstep'; [exact: cf_nodesV | exact: tckept_V]. Qed.
Lemma cfm_nodesV tn : forall l, Forall2 ckept l (cfm_nodes l tn).
Proof. elim=> [|n l ih] /=; constructor => //. exact: ckept_val. Qed.
Lemma cfm_backward_cstep t : cstep t (cfm_backward c t).
Proof.
  apply: kept_cstep'; [|exact: tckept_V].
  apply: ckept_list_trans (ckept_map_first (f := cfm_init c) _ _) _ => [b n|]; first exact: ckept_val.
  apply: ckept_list_trans (cfm_nodesV _ _) _. apply: ckept_map => n. exact: ckept_val.
Qed.

(** forward passes *)
Lemma cfwd_nodesP l (tn : tnode) : forall d,
  Forall2 cpassed l (fst (cfwd_nodes d l tn)) /\ tcpassed tn (snd (cfwd_nodes d l tn)) /\
  hd_dxt (fst (cfwd_nodes d l tn)) (snd (cfwd_nodes d l tn)) = d /\
  hd_dx (fst (cfwd_nodes d l tn)) (snd (cfwd_nodes d l tn)) = hd_dx l tn.
Proof.
  elim: l => [|n l ih] d /=.
  - split; [constructor|]. split => //. do 11 eexists. reflexivity.
  - case: (ih (cfwd_x n (hd_fs l tn) d (cfwd_u n d))) => h1 [h2 _].
    split; [|by split]. constructor => //. eexists (val n), (dir n), _. destruct n; reflexivity.
Qed.
Lemma cforward_cstep (t : traj M) : cstep t (cforward t).
Proof.
  case: (cfwd_nodesP (run t) (trm t) (hd_dxt (run t) (trm t))) => h1 [h2 [h3 h4]].
  split; first by split. rewrite /zeros /=. by rewrite h3 h4.
Qed.
Lemma cwfwd_nodesP l (tn : tnode) : forall d,
  Forall2 cpassed l (fst (cwfwd_nodes d l tn)) /\ tcpassed tn (snd (cwfwd_nodes d l tn)) /\
  hd_dx (fst (cwfwd_nodes d l tn)) (snd (cwfwd_nodes d l tn)) = d /\
  hd_dxt (fst (cwfwd_nodes d l tn)) (snd (cwfwd_nodes d l tn)) = hd_dxt l tn.
Proof.
  elim: l => [|n l ih] d /=.
  - split; [constructor|]. split => //. do 11 eexists. reflexivity.
  - case: (ih (cfwd_x n (hd_fs l tn) d (cfwd_u n d))) => h1 [h2 _].
    split; [|by split]. constructor => //. exists (val n), (mkDirs d (cfwd_u n d) (lam (dir n))), (adm n). destruct n; reflexivity.
Qed.
Lemma cwforward_cstep (t : traj M) : cstep t (cwforward t).
Proof.
  case: (cwfwd_nodesP (run t) (trm t) (hd_dx (run t) (trm t))) => h1 [h2 [h3 h4]].
  split; first by split. rewrite /zeros /=. by rewrite h3 h4.
Qed.
Lemma cpassed_map f l : (forall n, cpassed n (f n)) -> Forall2 cpassed l (map f l).
Proof. move=> h. elim: l => [|n l ih] /=; constructor => //. Qed.
Lemma admm_cstep t : cstep t (mkTraj (map (admm_node c) (run t)) (admm_tnode c (trm t))).
Proof.
  have hn n : cpassed n (admm_node c n) /\ dx (dir (admm_node c n)) = dxt (adm n) /\ dxt (adm (admm_node c n)) = dxt (adm n).
  { rewrite /admm_node. case: (ng (nm n) =? 0) => /=.
    - split => //. exact: cpassed_dir.
    - split => //. apply: (@cpassed_trans n (set_dir n (mkDirs (dxt (adm n)) (dut (adm n)) (lam (dir n))))); [exact: cpassed_dir|exact: (@cpassed_adm (set_dir n _))]. }
  have ht tn : tcpassed tn (admm_tnode c tn) /\ tdx (admm_tnode c tn) = tdxt tn /\ tdxt (admm_tnode c tn) = tdxt tn.
  { rewrite /admm_tnode. case: (tng (tm tn) =? 0) => /=; split => //; do 11 eexists; reflexivity. }
  split.
  - split; last by case: (ht (trm t)). apply: cpassed_map => n. by case: (hn n).
  - rewrite /zeros /=. case: (run t) => [|n l] /= [_ h].
    + case: (ht (trm t)) => _ [-> ->]. by [].
    + case: (hn n) => _ [-> ->]. by [].
Qed.
Lemma lag_cstep t : cstep t (mkTraj (map (@lag_node E M) (run t)) (lag_tnode (trm t))).
Proof.
  apply: kept_cstep'.
  - apply: ckept_map => n. split => //. exact: cpassed_dir.
  - split => //. do 11 eexists. reflexivity.
Qed.

(** ** States *)
(** what computeDirection does not change *)
Record dframe (s s' : csqp M) : Prop := mkDframe {
  df_tr : cstep (k_tr s) (k_tr s');
  df_preg : k_preg s' = k_preg s; df_dreg : k_dreg s' = k_dreg s;
  df_cost : k_cost s' = k_cost s; df_gap : k_gap s' = k_gap s; df_con : k_con s' = k_con s;
  df_merit : k_merit s' = k_merit s; df_kkt : k_kkt s' = k_kkt s; df_lagn : k_lagn s' = k_lagn s;
  df_iter : k_iter s' = k_iter s; df_step : k_step s' = k_step s;
  df_costl : k_costl s' = k_costl s; df_gapl : k_gapl s' = k_gapl s; df_conl : k_conl s' = k_conl s;
  df_log : observed (k_log s') = observed (k_log s);
  df_clk : k_clk s <= k_clk s'
}.
Lemma dframe_refl s : dframe s s.
Proof. split => //. exact: cstep_refl. Qed.
Lemma dframe_trans s1 s2 s3 : dframe s1 s2 -> dframe s2 s3 -> dframe s1 s3.
Proof.
  move=> [h1 a1 a2 a3 a4 a5 a6 a7 a8 a9 a10 a11 a12 a13 a14 a15]
    [k1 b1 b2 b3 b4 b5 b6 b7 b8 b9 b10 b11 b12 b13 b14 b15].
  split; [exact: cstep_trans h1 k1| | | | | | | | | | | | | | |lia]; congruence.
Qed.
Lemma dframe_tr t s : cstep (k_tr s) t -> dframe s (set_k_tr t s).
Proof. by move=> h; split. Qed.
Variable timeout : nat -> bool.
Lemma observed_inv (e : event E) log : visible e = false -> observed (e :: log) = observed log.
Proof. move=> h. by rewrite /observed /= filter_app /= h app_nil_r. Qed.
Lemma tick_dframe s : dframe s (snd (tick timeout s)).
Proof. split => //=; try lia; [exact: cstep_refl|exact: observed_inv]. Qed.

Lemma qp_pass_dframe i s : dframe s (snd (qp_pass c i s)).
Proof.
  rewrite /qp_pass. case: (qp_full c i); case: (cc_mt c) => /=; apply: dframe_tr.
  - exact: cm_backward_cstep.
  - exact: cb_backward_cstep.
  - exact: cfm_backward_cstep.
  - exact: cf_backward_cstep.
Qed.
Lemma update_lagrangian_dframe b s : dframe s (update_lagrangian c b s).
Proof. split => //. exact: admm_cstep. Qed.
Lemma update_rho_dframe b s : dframe s (update_rho c b s).
Proof.
  rewrite /update_rho. case: (_ && _).
  - split => //. exact: apply_rho_cstep.
  - split => //. exact: cstep_refl.
Qed.
Lemma qp_tol_dframe s : dframe s (qp_tolerances c s).
Proof. rewrite /qp_tolerances. case: (rle _ _ _); split => //; exact: cstep_refl. Qed.
Lemma qp_step_dframe i s :
  match qp_step c i s with SThrow s' | SStop s' | SGo s' => dframe s s' /\ k_reached s' = k_reached s end.
Proof.
  rewrite /qp_step. set s1 := set_k_log _ _.
  have h1 : dframe s s1.
  { split => //; [exact: cstep_refl|exact: observed_inv]. }
  have hr : forall b, k_reached (update_rho c b (update_lagrangian c b (set_k_tr (cforward (k_tr (snd (qp_pass c i s1)))) (snd (qp_pass c i s1))))) = k_reached s.
  { move=> b. rewrite /update_rho. case: (_ && _) => /=; rewrite /qp_pass; by case: (qp_full c i); case: (cc_mt c). }
  have h2 := dframe_trans h1 (qp_pass_dframe i s1).
  case: (fst _).
  - set s2 := snd (qp_pass c i s1) in h2 hr *.
    have h3 := dframe_trans h2 (dframe_tr (cforward_cstep (k_tr s2))).
    set b := (_ =? 0). set s3 := set_k_tr _ _ in h3 hr *.
    have h4 := dframe_trans h3 (update_lagrangian_dframe b s3).
    have h5 := dframe_trans h4 (update_rho_dframe b (update_lagrangian c b s3)).
    have := hr b. case: b h4 h5 => h4 h5 h; last by split.
    have h6 := dframe_trans h5 (qp_tol_dframe (update_rho c true (update_lagrangian c true s3))).
    have h' : k_reached (qp_tolerances c (update_rho c true (update_lagrangian c true s3))) = k_reached s.
    { rewrite /qp_tolerances. by case: (rle _ _ _). }
    by case: (qp_converged _); split.
  - split => //. rewrite /qp_pass. by case: (qp_full c i); case: (cc_mt c).
Qed.

(** a direction computation: frame, and if it noticed the time limit the last
    clock check was positive *)
Lemma qp_loopP : forall r i s,
  match qp_loop c timeout r i s with
  | QDone s' => dframe s s' /\ (k_reached s = false -> k_reached s' = true ->
                   exists n, timeout n = true /\ k_clk s' = S n)
  | QThrow s' => dframe s s' /\ k_reached s' = k_reached s
  | QUB => cc_interval c = 0
  end.
Proof.
  elim=> [|r ih] i s.
  - cbn. split; last by move=> ->. split => //. exact: cstep_refl.
  - cbn [qp_loop]. have ht := tick_dframe s.
    have hr : k_reached (snd (tick timeout s)) = k_reached s by [].
    case e: (fst (tick timeout s)).
    + split.
      * move: ht. case=> *. by split.
      * move=> _ _. exists (k_clk s). by split.
    + case: (Nat.eqb_spec (cc_interval c) 0) => // _.
      have := qp_step_dframe i (snd (tick timeout s)).
      set s1 := snd (tick timeout s) in ht hr *.
      case: (qp_step c i s1) => s2 [h1 h2].
      * have h3 := dframe_trans ht h1. split; last by rewrite /= h2 hr.
        move: h3. case=> *. by split.
      * have h3 := dframe_trans ht h1. split; last by rewrite /= h2 hr => ->.
        move: h3. case=> *. by split.
      * have h3 := dframe_trans ht h1. have := ih (S i) s2.
        case: (qp_loop c timeout r (S i) s2) => // s3 [k1 k2].
        -- split; [exact: dframe_trans h3 k1|]. move=> h. apply: k2. by rewrite h2 hr.
        -- split; [exact: dframe_trans h3 k1|]. by rewrite k2 h2 hr.
Qed.
Lemma reset_params_dframe s : dframe s (reset_params c s).
Proof.
  rewrite /reset_params. case: (cc_resetrho c).
  - apply: (@dframe_trans _ (reset_rho c s)).
    + split => //. exact: apply_rho_cstep.
    + split => //. exact: reset_cstep.
  - split => //. exact: reset_cstep.
Qed.
Lemma computeDirectionP s :
  match csqp_computeDirection c timeout s with
  | QDone s' => dframe s s' /\ (k_reached s = false -> k_reached s' = true ->
                   exists n, timeout n = true /\ k_clk s' = S n)
  | QThrow s' => dframe s s' /\ k_reached s' = k_reached s
  | QUB => cc_interval c = 0
  end.
Proof.
  rewrite /csqp_computeDirection. have h1 := reset_params_dframe s.
  have hr1 : k_reached (reset_params c s) = k_reached s by rewrite /reset_params; case: (cc_resetrho c).
  set s1 := reset_params c s in h1 hr1 *.
  case: (cc_eqguess c).
  - have h2 := dframe_trans h1 (dframe_tr (cw_backward_cstep (k_preg s1) (k_dreg s1) (k_tr s1))).
    set s2 := set_k_tr _ _ in h2 *.
    have hr2 : k_reached s2 = k_reached s by rewrite -hr1.
    case: (fst _); last by split.
    have h3 := dframe_trans h2 (dframe_tr (cwforward_cstep (k_tr s2))).
    set s3 := set_k_tr _ _ in h3 *.
    have hr3 : k_reached s3 = k_reached s by rewrite -hr2.
    have := qp_loopP (cc_maxqp c) 1 s3. case: (qp_loop _ _ _ _ _) => // s4 [k1 k2].
    + split; [exact: dframe_trans h3 k1|]. by rewrite -hr3.
    + split; [exact: dframe_trans h3 k1|]. by rewrite k2.
  - have := qp_loopP (cc_maxqp c) 1 s1. case: (qp_loop _ _ _ _ _) => // s4 [k1 k2].
    + split; [exact: dframe_trans h1 k1|]. by rewrite -hr1.
    + split; [exact: dframe_trans h1 k1|]. by rewrite k2.
Qed.
End Frames.
