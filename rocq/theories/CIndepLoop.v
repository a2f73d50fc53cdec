(** * Two runs of SolverCSQP::solve from objects with different pasts: the states. *)
From Coq Require Import ZArith List Bool Arith Lia ssreflect ssrbool.
From Verif Require Import Eigen Problem DDP Filter FilterProofs SQP CSQP Init TrialSpec TraceSpec CSQPSpec CSQPFrames CSQPTrial CSQPLoop CIndep.
From Verif Require Indep.
Import ListNotations.
Set Implicit Arguments.
Unset Strict Implicit.
Set Asymmetric Patterns.

Section CLoop.
Variable E : Eig.
Variable M : manifold E.
Notation R := (R E).
Notation vec := (vec E).
Notation X := (mX M).
Notation csqp := (csqp M).
Hypothesis vec0 : forall v w : vec 0, v = w.
Variable c : ccfg E.
Notation dc := (cc_ddp c).
Variable S : amodel M -> Prop.
Variable TS : tmodel M -> Prop.
Hypothesis hset : forall m, S m -> settled c (alb m) (aub m).
Hypothesis htset : forall m, TS m -> settled c (tlb m) (tub m).
Notation jrel := (jrel S TS).
Variables to1 to2 : nat -> bool.

(** events that agree, except possibly on the merit shown by the callbacks of iteration 0 *)
Inductive evrel : event E -> event E -> Prop :=
  | Ev_same e : evrel e e
  | Ev_first i k cst m1 m2 st : evrel (EvCallback E i 0 k cst m1 st) (EvCallback E i 0 k cst m2 st).
Variables L1 L2 : list (event E).

(** [j] = (value of iter_, number of entries pushed into each filter buffer) *)
Record base (j : nat * nat) (a1 a2 : csqp) : Prop := mkBase {
  b_preg : k_preg a1 = k_preg a2;
  b_dreg : k_dreg a1 = k_dreg a2;
  b_iter : k_iter a1 = fst j /\ k_iter a2 = fst j;
  b_reached : k_reached a1 = k_reached a2;
  b_step : k_step a1 = k_step a2;
  b_clk : forall n, to1 (k_clk a1 + n) = to2 (k_clk a2 + n);
  b_log : exists w1 w2, k_log a1 = w1 ++ L1 /\ k_log a2 = w2 ++ L2 /\ Forall2 evrel w1 w2;
  b_buf : exists hc hg hk, length hc = snd j /\ length hg = snd j /\ length hk = snd j /\
     (holds (cc_fsize c) hc (k_costl a1) /\ holds (cc_fsize c) hc (k_costl a2)) /\
     (holds (cc_fsize c) hg (k_gapl a1) /\ holds (cc_fsize c) hg (k_gapl a2)) /\
     (holds (cc_fsize c) hk (k_conl a1) /\ holds (cc_fsize c) hk (k_conl a2))
}.
Definition sagr (f : fld) (a1 a2 : csqp) : Prop :=
  match f with
  | FR => k_rho a1 = k_rho a2
  | FC => k_cost a1 = k_cost a2 /\ k_gap a1 = k_gap a2 /\ k_con a1 = k_con a2
  | FN => k_norms a1 = k_norms a2
  | FS => k_merit a1 = k_merit a2 /\ (forall x y z, merit_of c (k_lagn a1) x y z = merit_of c (k_lagn a2) x y z)
  | FI => k_qpit a1 = k_qpit a2
  | FK => k_kkt a1 = k_kkt a2
  | FJ => k_costt a1 = k_costt a2 /\ k_gapt a1 = k_gapt a2 /\ k_cont a1 = k_cont a2 /\ k_meritt a1 = k_meritt a2
  | _ => True
  end.
Definition arr (f : fld) : Prop := match f with FR | FC | FN | FS | FI | FK | FJ => False | _ => True end.
Definition hz (t : traj M) : Prop := zeros t /\ hd_fs (run t) (trm t) = vzero E.
Record crel (P : fld -> Prop) (j : nat * nat) (a1 a2 : csqp) : Prop := mkCrel {
  c_base : base j a1 a2;
  c_hz1 : hz (k_tr a1); c_hz2 : hz (k_tr a2);
  c_j : jrel P (k_tr a1) (k_tr a2);
  c_s : forall f, P f -> sagr f a1 a2
}.
Ltac inP := rewrite /add; auto 30.
Definition scal (f : fld) : Prop := match f with FC | FN | FS | FI | FK | FJ => True | _ => False end.
Lemma jrel_scal w (P : fld -> Prop) (t1 t2 : traj M) : scal w -> jrel P t1 t2 -> jrel (add w P) t1 t2.
Proof.
  move=> hw [q1 q2]. split.
  - elim: q1 => [|n1 n2 ? ? hn _ ih]; constructor => //. case: hn => m p1 p2 me1 me2 d1 d2 f1 f2 v1 v2 e1 e2 b1 b2 h1 h2 h3 h4.
    constructor => // f [->|/h4 //]. by move: (w) hw; clear; case.
  - case: q2 => m x xt1 xt2 me1 me2 d1 d2 f1 f2 A1 A2 v1 v2 dx1 dx2 l1 l2 dt1 dt2 z1 z2 zp1 zp2 zr1 zr2 y1 y2 r1 r2 i1 i2 h1 h4.
    constructor => // f [->|/h4 //]. by move: (w) hw; clear; case.
Qed.
Lemma arr_sagr f a1 a2 : arr f -> sagr f a1 a2. Proof. by case: f. Qed.
Lemma hz_cstep t t' : cstep t t' -> hz t -> hz t'.
Proof. move=> [h1 h2] [h3 h4]. split; [exact: h2|]. by rewrite (cp_hd_fs (proj1 h1) (proj2 h1)). Qed.
Lemma hz_dx t1 t2 : hz t1 -> hz t2 -> hd_dx (run t1) (trm t1) = hd_dx (run t2) (trm t2).
Proof. by move=> [[-> _] _] [[-> _] _]. Qed.
Lemma hz_dxt t1 t2 : hz t1 -> hz t2 -> hd_dxt (run t1) (trm t1) = hd_dxt (run t2) (trm t2).
Proof. by move=> [[_ ->] _] [[_ ->] _]. Qed.
Lemma hz_fs t1 t2 : hz t1 -> hz t2 -> hd_fs (run t1) (trm t1) = hd_fs (run t2) (trm t2).
Proof. by move=> [_ ->] [_ ->]. Qed.
Lemma crel_mono (P Q : fld -> Prop) j a1 a2 : (forall f, Q f -> P f) -> crel P j a1 a2 -> crel Q j a1 a2.
Proof. move=> hq [h1 h2 h3 h4 h5]. split => //; [exact: jrel_mono h4|]. move=> f /hq. exact: h5. Qed.
Lemma crel_tr (P Q : fld -> Prop) j a1 a2 t1 t2 : crel P j a1 a2 -> jrel Q t1 t2 -> cstep (k_tr a1) t1 -> cstep (k_tr a2) t2 ->
  (forall f, Q f -> P f \/ arr f) -> crel Q j (set_k_tr t1 a1) (set_k_tr t2 a2).
Proof.
  move=> [h1 h2 h3 h4 h5] hj s1 s2 hq. split; [by case: h1 => *; split|exact: hz_cstep h2|exact: hz_cstep h3|exact: hj|].
  move=> f /hq [/h5|/arr_sagr]; [|by apply]. by [].
Qed.

(** ** penalties *)
Lemma reset_rho_crel (P : fld -> Prop) j a1 a2 : crel P j a1 a2 -> crel (add FR P) j (reset_rho c a1) (reset_rho c a2).
Proof.
  move=> [h1 h2 h3 h4 h5]. split.
  - by case: h1 => *; split.
  - apply: hz_cstep h2. exact: apply_rho_cstep.
  - apply: hz_cstep h3. exact: apply_rho_cstep.
  - exact: reset_rho_rel h4.
  - move=> f [->|/h5] //. by case: f.
Qed.
Lemma reset_params_crel (P : fld -> Prop) j a1 a2 : P FR \/ cc_resetrho c = true -> P FY \/ cc_resety c = true -> crel P j a1 a2 ->
  crel (add FZ (add FY (add FR P))) j (reset_params c a1) (reset_params c a2).
Proof.
  move=> hr hy h. rewrite /reset_params.
  have h' : crel (add FR P) j (if cc_resetrho c then reset_rho c a1 else a1) (if cc_resetrho c then reset_rho c a2 else a2).
  { case e: (cc_resetrho c); first exact: reset_rho_crel. case: hr => [p|]; last by rewrite e.
    apply: crel_mono h => f [->|] //. }
  move: (if _ then _ else a1) (if _ then _ else a2) h' => b1 b2 h'.
  apply: (crel_tr h').
  - apply: reset_rel; last exact: (c_j h'). case: hy => hy; [left; inP|by right].
  - exact: reset_cstep.
  - exact: reset_cstep.
  - move=> f [->|[->|]]; [by right|by right|by left].
Qed.
Lemma tick_crel (P : fld -> Prop) j a1 a2 : crel P j a1 a2 ->
  fst (tick to1 a1) = fst (tick to2 a2) /\ crel P j (snd (tick to1 a1)) (snd (tick to2 a2)).
Proof.
  move=> [h1 h2 h3 h4 h5]. have e : to1 (k_clk a1) = to2 (k_clk a2).
  { have := b_clk h1 0. by rewrite !Nat.add_0_r. }
  split; [exact: e|]. split => //.
  case: h1 => g1 g2 g3 g4 g5 g6 [w1 [w2 [g7 [g8 g9]]]] g10. split => //=.
  - move=> n. have := g6 (1 + n). by rewrite !Nat.add_assoc !Nat.add_1_r.
  - rewrite e g7 g8. eexists (_ :: w1), (_ :: w2). split; [reflexivity|]. split; [reflexivity|]. constructor => //. constructor.
Qed.
Lemma log_crel (P : fld -> Prop) j e a1 a2 : crel P j a1 a2 -> crel P j (set_k_log (e :: k_log a1) a1) (set_k_log (e :: k_log a2) a2).
Proof.
  move=> [h1 h2 h3 h4 h5]. split => //.
  case: h1 => g1 g2 g3 g4 g5 g6 [w1 [w2 [g7 [g8 g9]]]] g10. split => //=.
  rewrite g7 g8. eexists (_ :: w1), (_ :: w2). split; [reflexivity|]. split; [reflexivity|]. constructor => //. constructor.
Qed.

(** ** QP iterations *)
Lemma qp_pass_crel (P : fld -> Prop) j i a1 a2 : P FD -> P FF -> P FR -> P FZ -> P FY -> P FX ->
  qp_full c i = true \/ (P FV /\ P FW) -> crel P j a1 a2 ->
  fst (qp_pass c i a1) = fst (qp_pass c i a2) /\ crel P j (snd (qp_pass c i a1)) (snd (qp_pass c i a2)) /\
  (fst (qp_pass c i a1) = true -> crel (add FV (add FW P)) j (snd (qp_pass c i a1)) (snd (qp_pass c i a2))).
Proof.
  move=> pd pf pr pz py px hi h. have hj := c_j h. rewrite /qp_pass. case: (qp_full c i) hi => hi.
  - rewrite -(b_preg (c_base h)) -(b_dreg (c_base h)).
    set r1 := if cc_mt c then _ else _. set r2 := if cc_mt c then _ else _.
    have [e [k1 k2]] : fst r1 = fst r2 /\ jrel P (snd r1) (snd r2) /\ (fst r1 = true -> jrel (add FV (add FW P)) (snd r1) (snd r2)).
    { rewrite /r1 /r2. case: (cc_mt c); [exact: cm_backward_rel|exact: cb_backward_rel]. }
    have s1 : cstep (k_tr a1) (snd r1) by rewrite /r1; case: (cc_mt c); [exact: cm_backward_cstep|exact: cb_backward_cstep].
    have s2 : cstep (k_tr a2) (snd r2) by rewrite /r2; case: (cc_mt c); [exact: cm_backward_cstep|exact: cb_backward_cstep].
    split => //. split; [|move=> /k2 k3]; cbn [snd].
    + apply: (crel_tr h k1 s1 s2). by left.
    + apply: (crel_tr h k3 s1 s2) => f [->|[->|]]; [by right|by right|by left].
  - case: hi => // [[pv pw]]. split => //.
    have hc : crel P j (set_k_tr (if cc_mt c then cfm_backward c (k_tr a1) else cf_backward c (k_tr a1)) a1)
                       (set_k_tr (if cc_mt c then cfm_backward c (k_tr a2) else cf_backward c (k_tr a2)) a2).
    { apply: (crel_tr h); [| | |by left].
      - case: (cc_mt c); [exact: cfm_backward_rel|exact: cf_backward_rel].
      - case: (cc_mt c); [exact: cfm_backward_cstep|exact: cf_backward_cstep].
      - case: (cc_mt c); [exact: cfm_backward_cstep|exact: cf_backward_cstep]. }
    split => // _. apply: crel_mono hc => f [->|[->|]] //.
Qed.
Lemma update_crel (P : fld -> Prop) j b a1 a2 : P FM -> P FD -> P FT -> P FZ -> P FY -> P FR -> crel P j a1 a2 ->
  crel (add FX (add FN P)) j (update_rho c b (update_lagrangian c b a1)) (update_rho c b (update_lagrangian c b a2)).
Proof.
  move=> pm pd pt pz py pr h.
  have h1 : crel (add FX (add FN P)) j (update_lagrangian c b a1) (update_lagrangian c b a2).
  { case: h => [h1 h2 h3 h4 h5].
    have g4 := admm_rel c pm pd pt pz py pr h4.
    split.
    - by case: h1 => *; split.
    - apply: hz_cstep h2. exact: admm_cstep.
    - apply: hz_cstep h3. exact: admm_cstep.
    - apply: (jrel_mono (P := add FN (add FX P))); last exact: jrel_scal g4. move=> f; rewrite /add; tauto.
    - have en : k_norms (update_lagrangian c b a1) = k_norms (update_lagrangian c b a2).
      { cbn [update_lagrangian k_norms set_k_norms]. case: b => //.
        have g5 : norms_of (cc_heur c) (mkTraj (map (admm_node c) (run (k_tr a1))) (admm_tnode c (trm (k_tr a1)))) =
                norms_of (cc_heur c) (mkTraj (map (admm_node c) (run (k_tr a2))) (admm_tnode c (trm (k_tr a2)))).
        { apply: (norms_rel (P := add FX P)) g4; inP. }
        exact: g5. }
      move=> f [->|[->|/h5]] //. by case: f. }
  move: (update_lagrangian c b a1) (update_lagrangian c b a2) h1 => b1 b2 h1.
  have en : k_norms b1 = k_norms b2 by apply: (c_s h1 (f := FN)); inP.
  have er : k_rho b1 = k_rho b2 by apply: (c_s h1 (f := FR)); inP.
  rewrite /update_rho -en -er. set e := rho_estimate c (k_norms b1) (k_rho b1).
  have h2 : crel (add FX (add FN P)) j (set_k_rhoest e b1) (set_k_rhoest e b2).
  { case: h1 => [g1 g2 g3 g4 g5]. split => //; by case: g1 => *; split. }
  case: (_ && _) => //.
  case: h2 => [g1 g2 g3 g4 g5]. split.
  - by case: g1 => *; split.
  - apply: hz_cstep g2. exact: apply_rho_cstep.
  - apply: hz_cstep g3. exact: apply_rho_cstep.
  - apply: apply_rho_rel g4. inP.
  - move=> f /g5. by case: f.
Qed.
Lemma tol_crel (P : fld -> Prop) j a1 a2 : P FN -> crel P j a1 a2 ->
  crel P j (qp_tolerances c a1) (qp_tolerances c a2) /\ qp_converged (qp_tolerances c a1) = qp_converged (qp_tolerances c a2).
Proof.
  move=> pn h. have en : k_norms a1 = k_norms a2 by exact: (c_s h pn).
  rewrite /qp_tolerances /qp_converged. case: h => [g1 g2 g3 g4 g5].
  case: (rle _ _ _); (split; [|by cbn [k_norms k_tolp k_told set_k_told set_k_tolp]; rewrite en]).
  - split => //; by case: g1 => *; split.
  - rewrite en. split => //; by case: g1 => *; split.
Qed.
Lemma qp_step_crel (P : fld -> Prop) j i a1 a2 : P FM -> P FD -> P FF -> P FR -> P FZ -> P FY -> P FX ->
  qp_full c i = true \/ (P FV /\ P FW) -> crel P j a1 a2 ->
  match qp_step c i a1, qp_step c i a2 with
  | SThrow r1, SThrow r2 => crel P j r1 r2
  | SStop r1, SStop r2 | SGo r1, SGo r2 => crel (add FT (add FV (add FW P))) j r1 r2
  | _, _ => False
  end.
Proof.
  move=> pm pd pf pr pz py px hi h. rewrite /qp_step.
  have h1 := log_crel (EvQP E i) h.
  move: (set_k_log _ a1) (set_k_log _ a2) h1 => b1 b2 h1.
  have [e [h2 h3]] := qp_pass_crel pd pf pr pz py px hi h1. rewrite -e.
  case eb: (fst (qp_pass c i b1)) => //. have {h2} {h3} h3 := h3 eb.
  move: (snd (qp_pass c i b1)) (snd (qp_pass c i b2)) h3 => q1 q2 h3 {eb e h1 b1 b2}.
  set Q := add FT (add FV (add FW P)).
  have h4 : crel Q j (set_k_tr (cforward (k_tr q1)) q1) (set_k_tr (cforward (k_tr q2)) q2).
  { apply: (crel_tr h3).
    - apply: cforward_rel => //; try inP; [exact: hz_dxt (c_hz1 h3) (c_hz2 h3)|exact: (c_j h3)].
    - exact: cforward_cstep.
    - exact: cforward_cstep.
    - move=> f [->|]; [by right|by left]. }
  move: (i mod cc_interval c =? 0) (set_k_tr _ q1) (set_k_tr _ q2) h4 => b w1 w2 h4.
  have h5 : crel (add FX (add FN Q)) j (update_rho c b (update_lagrangian c b w1)) (update_rho c b (update_lagrangian c b w2)).
  { apply: update_crel h4; rewrite /Q; inP. }
  move: (update_rho _ _ _) (update_rho _ _ _) h5 => u1 u2 h5.
  have sub : forall f, Q f -> add FX (add FN Q) f by right; right.
  case: b; last exact: crel_mono h5.
  have [h6 e6] := tol_crel (or_intror (or_introl (Logic.eq_refl _)) : add FX (add FN Q) FN) h5. rewrite -e6.
  by case: (qp_converged _); exact: crel_mono h6.
Qed.
Lemma qpit_crel (P : fld -> Prop) j k a1 a2 : crel P j a1 a2 -> crel (add FI P) j (set_k_qpit k a1) (set_k_qpit k a2).
Proof.
  move=> [g1 g2 g3 g4 g5]. split => //; [by case: g1 => *; split| |by move=> f [->|/g5] //; case: f].
  exact: jrel_scal g4.
Qed.
Lemma reached_crel (P : fld -> Prop) j b a1 a2 : crel P j a1 a2 -> crel P j (set_k_reached b a1) (set_k_reached b a2).
Proof.
  move=> [g1 g2 g3 g4 g5]. split => //; by case: g1 => *; split.
Qed.

Notation PD P := (add FI (add FT (add FV (add FW P)))).
Lemma qp_loop_crel (P : fld -> Prop) j : P FM -> P FD -> P FF -> P FR -> P FZ -> P FY -> P FX -> P FV -> P FW ->
  forall r i a1 a2, crel P j a1 a2 ->
  match qp_loop c to1 r i a1, qp_loop c to2 r i a2 with
  | QDone r1, QDone r2 => crel (add FI P) j r1 r2
  | QThrow r1, QThrow r2 => crel P j r1 r2
  | QUB, QUB => True
  | _, _ => False
  end.
Proof.
  move=> pm pd pf pr pz py px pv pw. elim=> [|r ih] i a1 a2 h; cbn [qp_loop].
  - exact: qpit_crel.
  - have [e h1] := tick_crel h. rewrite -e. case: (fst (tick to1 a1)).
    + apply: reached_crel. exact: qpit_crel.
    + case: (cc_interval c =? 0) => //.
      have := qp_step_crel pm pd pf pr pz py px (or_intror (conj pv pw)) h1.
      move=> /(_ i). case: (qp_step c i _) => r1; case: (qp_step c i _) => r2 // h2.
      * apply: crel_mono (qpit_crel i h2) => f hf. by right.
      * apply: crel_mono (qpit_crel i h2) => f [->|hf]; [by left|inP].
      * apply: ih. apply: crel_mono h2. rewrite /add; tauto.
Qed.
Lemma qp_start_crel (P : fld -> Prop) j a1 a2 : P FM -> P FD -> P FF -> P FR -> P FZ -> P FY -> P FX -> 1 <= cc_maxqp c ->
  crel P j a1 a2 ->
  match qp_loop c to1 (cc_maxqp c) 1 a1, qp_loop c to2 (cc_maxqp c) 1 a2 with
  | QDone r1, QDone r2 => crel (add FI P) j r1 r2 /\
      (k_qpit r1 <> 0 \/ (forall n, to1 n = false) -> crel (PD P) j r1 r2)
  | QThrow r1, QThrow r2 => crel P j r1 r2
  | QUB, QUB => True
  | _, _ => False
  end.
Proof.
  move=> pm pd pf pr pz py px hq h. case: (cc_maxqp c) hq => [|r _]; first by lia. cbn [qp_loop].
  have [e h1] := tick_crel h. have et : fst (tick to1 a1) = to1 (k_clk a1) by []. rewrite -e.
  case: (fst (tick to1 a1)) et => et.
  - split; [exact: reached_crel (qpit_crel 0 h1)|]. case=> [|hn]; [by []|]. by rewrite hn in et.
  - case: (Nat.eqb_spec (cc_interval c) 0) => // hi.
    have hf : qp_full c 1 = true.
    { rewrite /qp_full. case: (Nat.eqb_spec (cc_interval c) 1) => h1i; first by rewrite orb_true_r.
      rewrite Nat.mod_small //. lia. }
    have := qp_step_crel pm pd pf pr pz py px (or_introl hf) h1.
    case: (qp_step c 1 _) => r1; case: (qp_step c 1 _) => r2 // h2.
    + apply: crel_mono (qpit_crel 1 h2) => f hf'. by right.
    + have h3 := qpit_crel 1 h2. split; [|by move=> _]. apply: crel_mono h3. rewrite /add; tauto.
    + have := @qp_loop_crel (add FT (add FV (add FW P))) j. 
      move=> /(_ (or_intror (or_intror (or_intror pm))) (or_intror (or_intror (or_intror pd))) (or_intror (or_intror (or_intror pf)))).
      move=> /(_ (or_intror (or_intror (or_intror pr))) (or_intror (or_intror (or_intror pz))) (or_intror (or_intror (or_intror py)))).
      move=> /(_ (or_intror (or_intror (or_intror px))) ltac:(inP) ltac:(inP) r 2 r1 r2 h2).
      case: (qp_loop c to1 r 2 r1) => [q1|q1|]; case: (qp_loop c to2 r 2 r2) => [q2|q2|] // h3.
      * split; [|by move=> _]. apply: crel_mono h3. rewrite /add; tauto.
      * apply: crel_mono h3. rewrite /add; tauto.
Qed.

Notation PF P := (add FR (add FZ (add FY (add FX (add FV (add FW (add FT (add FI P)))))))).
Hypothesis hqp : 1 <= cc_maxqp c.
Lemma dir_crel (P : fld -> Prop) j a1 a2 : P FM -> P FD -> P FF -> P FR \/ cc_resetrho c = true -> P FY \/ cc_resety c = true ->
  P FX \/ cc_eqguess c = true -> crel P j a1 a2 ->
  match csqp_computeDirection c to1 a1, csqp_computeDirection c to2 a2 with
  | QDone r1, QDone r2 => crel (add FI P) j r1 r2 /\
      (k_qpit r1 <> 0 \/ (forall n, to1 n = false) -> crel (PF P) j r1 r2)
  | QThrow r1, QThrow r2 => crel P j r1 r2 /\ k_reached r1 = k_reached a1
  | QUB, QUB => True
  | _, _ => False
  end.
Proof.
  move=> pm pd pf hr hy hx h.
  have hk := computeDirectionP c to1 a1. move: hk. rewrite /csqp_computeDirection.
  have h1 := reset_params_crel hr hy h.
  move: (reset_params c a1) (reset_params c a2) h1 => b1 b2 h1.
  set Q := add FZ (add FY (add FR P)) in h1.
  have qm : Q FM by rewrite /Q; inP. have qd : Q FD by rewrite /Q; inP. have qf : Q FF by rewrite /Q; inP.
  have fin : forall (u1 u2 : csqp), crel (add FX Q) j u1 u2 ->
    match qp_loop c to1 (cc_maxqp c) 1 u1 with
    | QDone s' => dframe a1 s' /\ (k_reached a1 = false -> k_reached s' = true -> exists n, to1 n = true /\ k_clk s' = Datatypes.S n)
    | QThrow s' => dframe a1 s' /\ k_reached s' = k_reached a1
    | QUB => cc_interval c = 0
    end ->
    match qp_loop c to1 (cc_maxqp c) 1 u1, qp_loop c to2 (cc_maxqp c) 1 u2 with
    | QDone r1, QDone r2 => crel (add FI P) j r1 r2 /\ (k_qpit r1 <> 0 \/ (forall n, to1 n = false) -> crel (PF P) j r1 r2)
    | QThrow r1, QThrow r2 => crel P j r1 r2 /\ k_reached r1 = k_reached a1
    | QUB, QUB => True
    | _, _ => False
    end.
  { move=> u1 u2 hu.
    have := @qp_start_crel (add FX Q) j u1 u2 ltac:(by right) ltac:(by right) ltac:(by right) ltac:(rewrite /Q; inP) ltac:(rewrite /Q; inP) ltac:(rewrite /Q; inP) ltac:(by left) hqp hu.
    case: (qp_loop c to1 _ 1 u1) => [q1|q1|]; case: (qp_loop c to2 _ 1 u2) => [q2|q2|] //.
    - move=> [k1 k2] _. split.
      + apply: crel_mono k1. rewrite /Q /add; tauto.
      + move=> /k2 k3. apply: crel_mono k3. rewrite /Q /add; tauto.
    - move=> k1 [_ k2]. split => //. apply: crel_mono k1. rewrite /Q /add; tauto. }
  case: (cc_eqguess c) hx => hx.
  - have hj := c_j h1. rewrite -(b_preg (c_base h1)) -(b_dreg (c_base h1)).
    have := cw_backward_rel (k_preg b1) (k_dreg b1) qd qf hj. cbv zeta.
    have s1 := cw_backward_cstep (k_preg b1) (k_dreg b1) (k_tr b1).
    have s2 := cw_backward_cstep (k_preg b1) (k_dreg b1) (k_tr b2).
    move: (cw_backward _ _ (k_tr b1)) (cw_backward _ _ (k_tr b2)) s1 s2 => r1 r2 s1 s2 [e [k1 k2]]. rewrite -e.
    case e1: (fst r1).
    + apply: fin.
      have h2 : crel (add FV Q) j (set_k_tr (snd r1) b1) (set_k_tr (snd r2) b2).
      { apply: (crel_tr h1 (k2 e1) s1 s2) => f [->|]; [by right|by left]. }
      move: (set_k_tr (snd r1) b1) (set_k_tr (snd r2) b2) h2 => w1 w2 h2.
      have h3 : crel (add FX (add FV Q)) j (set_k_tr (cwforward (k_tr w1)) w1) (set_k_tr (cwforward (k_tr w2)) w2).
      { apply: (crel_tr h2).
        - apply: cwforward_rel => //; try inP; [exact: hz_dx (c_hz1 h2) (c_hz2 h2)|exact: (c_j h2)].
        - exact: cwforward_cstep.
        - exact: cwforward_cstep.
        - move=> f [->|]; [by right|by left]. }
      apply: crel_mono h3. rewrite /add; tauto.
    + move=> [_ k3]. split => //. apply: (crel_tr h1 _ s1 s2).
      * apply: jrel_mono k1. rewrite /Q /add; tauto.
      * move=> f hf. left. rewrite /Q /add; tauto.
  - apply: fin. case: hx => // hx. apply: crel_mono h1 => f [->|] //. rewrite /Q; inP.
Qed.

Lemma inc_crel (P : fld -> Prop) j a1 a2 : crel P j a1 a2 -> crel P j (csqp_inc c a1) (csqp_inc c a2).
Proof.
  move=> [g1 g2 g3 g4 g5]. split => //. have e := b_preg g1. case: g1 => *; split => //=; by rewrite e.
Qed.
Lemma dec_crel (P : fld -> Prop) j a1 a2 : crel P j a1 a2 -> crel P j (csqp_dec c a1) (csqp_dec c a2).
Proof.
  move=> [g1 g2 g3 g4 g5]. split => //. have e := b_preg g1. case: g1 => *; split => //=; by rewrite e.
Qed.
(** the outcome of a direction computation *)
Definition dir_ok (P : fld -> Prop) j (o1 o2 : dirres csqp) : Prop :=
  match o1, o2 with
  | DirOk r1, DirOk r2 => crel (add FI P) j r1 r2 /\ (k_qpit r1 <> 0 \/ (forall n, to1 n = false) -> crel (PF P) j r1 r2)
  | DirFail r1, DirFail r2 | DirExc r1, DirExc r2 => crel P j r1 r2
  | DirUB, DirUB | DirNoFuel, DirNoFuel => True
  | _, _ => False
  end.
Section Dir.
Variable P : fld -> Prop.
Hypothesis pm : P FM. Hypothesis pd : P FD. Hypothesis pf : P FF.
Hypothesis hr : P FR \/ cc_resetrho c = true.
Hypothesis hy : P FY \/ cc_resety c = true.
Hypothesis hx : P FX \/ cc_eqguess c = true.
Lemma retry_crel j watch : forall fuel a1 a2, (watch = true -> k_reached a1 = true -> forall f, PF P f -> P f) ->
  crel P j a1 a2 -> dir_ok P j (csqp_retry c to1 watch fuel a1) (csqp_retry c to2 watch fuel a2).
Proof.
  elim=> [|fuel ih] a1 a2 hw h; cbn [csqp_retry] => //.
  rewrite -(b_reached (c_base h)). case e: (watch && k_reached a1).
  - move/andb_true_iff: e => [e1 e2]. have hs := hw e1 e2. split; [|move=> _]; apply: crel_mono h => f hf.
    + apply: hs. case: hf => [->|hf]; inP.
    + exact: hs.
  - have := dir_crel pm pd pf hr hy hx h.
    case: (csqp_computeDirection c to1 a1) => [r1|r1|]; case: (csqp_computeDirection c to2 a2) => [r2|r2|] //.
    move=> [k1 k2]. have k3 := inc_crel k1. rewrite -(b_preg (c_base k3)). case: (rge _ _) => //.
    apply: ih k3. move=> e1 e2. apply: (hw e1). by rewrite -k2.
Qed.
Lemma direction_crel j watch fuel a1 a2 : (watch = true -> k_reached a1 = true -> forall f, PF P f -> P f) ->
  crel P j a1 a2 -> dir_ok P j (csqp_direction c to1 watch fuel a1) (csqp_direction c to2 watch fuel a2).
Proof.
  move=> hw h. rewrite /csqp_direction. case: (cc_removereg c); last exact: retry_crel.
  have := dir_crel pm pd pf hr hy hx h.
  case: (csqp_computeDirection c to1 a1) => [r1|r1|]; case: (csqp_computeDirection c to2 a2) => [r2|r2|] //.
  by case.
Qed.
End Dir.

(** ** evaluation, checks *)
Lemma hz_calc (a : csqp) : hz (k_tr a) -> hz (k_tr (csqp_calc a)).
Proof. rewrite /csqp_calc /hz /zeros. cbn [k_tr set_k_con set_k_gap set_k_cost set_k_tr]. by case: (k_tr a) => [[|n l] tn]. Qed.
Lemma calc_crel (P : fld -> Prop) j a1 a2 : crel P j a1 a2 ->
  crel (add FM (add FD (add FF (add FC P)))) j (csqp_calc a1) (csqp_calc a2).
Proof.
  move=> [g1 g2 g3 g4 g5].
  have m1 := problem_calc_rel g4.
  have [m2 ec] := calcDiff_rel (or_introl (Logic.eq_refl _) : add FM P FM) m1.
  have hf : hd_fs (run (fst (problem_calcDiff (problem_calc (k_tr a1))))) (trm (fst (problem_calcDiff (problem_calc (k_tr a1))))) =
            hd_fs (run (fst (problem_calcDiff (problem_calc (k_tr a2))))) (trm (fst (problem_calcDiff (problem_calc (k_tr a2))))).
  { have e : forall t : traj M, hd_fs (run (fst (problem_calcDiff (problem_calc t)))) (trm (fst (problem_calcDiff (problem_calc t)))) = hd_fs (run t) (trm t).
    { by case=> [[|n l] tn]. }
    rewrite !e. exact: hz_fs g2 g3. }
  have h1 := hz_calc g2. have h2 := hz_calc g3. move: h1 h2 ec m2 hf. rewrite /csqp_calc.
  move: (problem_calcDiff _) (problem_calcDiff _) => r1 r2 h1 h2 ec m2 hf.
  have [n1 [n2 n3]] := @calc_nodes_rel E M S TS (add FD (add FM P)) _ _ _ _ ltac:(inP) (proj1 m2) (proj2 m2) None (r0 E) (r0 E) (fun _ => hf).
  move: h1 h2 n1 n2 n3. move: (calc_nodes _ _ _ _ _) (calc_nodes _ _ _ _ _) => v1 v2 h1 h2 n1 n2 n3.
  have [e1 e2] : vl1 E (viol_lb E (tlb (tm (snd (fst v1)))) (tg (tm (snd (fst v1))) (tme (snd (fst v1))))) =
                 vl1 E (viol_lb E (tlb (tm (snd (fst v2)))) (tg (tm (snd (fst v2))) (tme (snd (fst v2))))) /\
                 vl1 E (viol_ub E (tub (tm (snd (fst v1)))) (tg (tm (snd (fst v1))) (tme (snd (fst v1))))) =
                 vl1 E (viol_ub E (tub (tm (snd (fst v2)))) (tg (tm (snd (fst v2))) (tme (snd (fst v2))))).
  { move: n2. clear. case=> m x xt1 xt2 me1 me2 d1 d2 f1 f2 A1 A2 w1 w2 dx1 dx2 l1 l2 dt1 dt2 z1 z2 zp1 zp2 zr1 zr2 y1 y2 r1 r2 i1 i2 _ h.
    have e : me1 = me2 by apply: (h FM); inP. by subst me2. }
  split => //.
  - by case: g1 => *; split.
  - apply: (jrel_mono (P := add FC (add FF (add FD (add FM P))))); [rewrite /add; tauto|].
    by apply: jrel_scal; last split.
  - move=> f pf. case: f pf => pf; try exact: I; try (case: pf => [pf|[pf|[pf|[pf|pf]]]]; try discriminate pf; exact: (g5 _ pf)).
    split; [exact: ec|]. split; [exact: (f_equal fst n3)|]. cbn [k_con set_k_con]. by rewrite n3 e1 e2.
Qed.
Lemma cbs_rel n iter kkt cst (m1 m2 : R) st w1 w2 k1 k2 : (iter = 0 \/ m1 = m2) ->
  Forall2 evrel w1 w2 -> k1 = w1 ++ L1 -> k2 = w2 ++ L2 ->
  exists w1' w2', run_callbacks n iter kkt cst m1 st k1 = w1' ++ L1 /\
    run_callbacks n iter kkt cst m2 st k2 = w2' ++ L2 /\ Forall2 evrel w1' w2'.
Proof.
  rewrite /run_callbacks => hs. elim: (seq 0 n) w1 w2 k1 k2 => [|i q ih] w1 w2 k1 k2 hw e1 e2 /=.
  - by exists w1, w2.
  - apply: (ih (EvCallback E i iter kkt cst m1 st :: w1) (EvCallback E i iter kkt cst m2 st :: w2)).
    + constructor => //. case: hs => ->; constructor.
    + by rewrite e1.
    + by rewrite e2.
Qed.
Lemma check_crel (P : fld -> Prop) j a1 a2 : P FD -> P FF -> P FV -> P FT -> P FY -> P FC -> fst j = 0 \/ P FS ->
  crel P j a1 a2 -> crel (add FL (add FK P)) j (csqp_check c a1) (csqp_check c a2).
Proof.
  move=> pd pf pv pt py pc hs [g1 g2 g3 g4 g5].
  have m1 := lag_rel pv pt g4.
  have [ec [eg en]] := g5 _ pc. cbn [sagr] in ec, eg, en.
  have ek : k_kkt (csqp_checkKKT a1) = k_kkt (csqp_checkKKT a2).
  { cbn [csqp_checkKKT k_kkt set_k_ug set_k_xg set_k_kkt]. rewrite en. apply: ckkt_rel m1; inP. }
  split.
  - case: g1 => q1 q2 [q3 q3'] q4 q5 q6 [w1 [w2 [q7 [q8 q9]]]] q10. split => //.
    rewrite /csqp_check /csqp_callbacks. cbn [k_log set_k_log].
    move: ek. cbn [csqp_checkKKT k_iter k_kkt k_cost k_merit k_step k_log set_k_ug set_k_xg set_k_kkt set_k_tr] => ek.
    rewrite -ek q3 q3' ec q5. apply: (cbs_rel _ _ _ _ _ q9 q7 q8). case: hs => [->|/g5 [hs _]]; [by left|by right].
  - apply: hz_cstep g2. exact: lag_cstep.
  - apply: hz_cstep g3. exact: lag_cstep.
  - apply: (jrel_mono (P := add FK (add FL P))); [rewrite /add; tauto|]. exact: jrel_scal m1.
  - move=> f [->|[->|/g5]] //. by case: f.
Qed.

(** ** line search *)
Lemma push_crel (P : fld -> Prop) j a1 a2 : P FC -> crel P j a1 a2 -> crel P (fst j, Datatypes.S (snd j)) (csqp_push a1) (csqp_push a2).
Proof.
  move=> pc [g1 g2 g3 g4 g5]. have [ec [eg en]] := g5 _ pc. cbn [sagr] in ec, eg, en.
  split => //. case: g1 => q1 q2 q3 q4 q5 q6 q7 [hc [hg [hk [b1 [b2 [b3 [[b4 b5] [[b6 b7] [b8 b9]]]]]]]]].
  split => //. exists (k_cost a1 :: hc), (k_gap a1 :: hg), (k_con a1 :: hk).
  rewrite /= b1 b2 b3. do 3 split => //. rewrite -ec -eg -en.
  split; [split; exact: holds_push|]. split; split; exact: holds_push.
Qed.
Lemma merit_crel (P : fld -> Prop) j a1 a2 : P FC -> P FL -> P FY -> crel P j a1 a2 ->
  crel (add FS P) j (csqp_merit c a1) (csqp_merit c a2).
Proof.
  move=> pc pl py [g1 g2 g3 g4 g5]. have [ec [eg en]] := g5 _ pc. cbn [sagr] in ec, eg, en.
  have el := lag_inf_rel pl py g4.
  have em : k_merit (csqp_merit c a1) = k_merit (csqp_merit c a2) /\ (forall x y z, merit_of c (k_lagn (csqp_merit c a1)) x y z = merit_of c (k_lagn (csqp_merit c a2)) x y z).
  { rewrite /csqp_merit. case e: (_ || _); cbn [k_merit k_lagn set_k_log set_k_merit set_k_lagn k_cost k_gap k_con];
      rewrite ?el ec eg en; split => // *; rewrite /merit_of e //. }
  move: em. rewrite /csqp_merit => em. split.
  - case: g1 => q1 q2 [q3 q3'] q4 q5 q6 [w1 [w2 [q7 [q8 q9]]]] q10.
    split; try (by case: (_ || _)).
    exists (EvLineSearch E (fst j) (k_cost a1) (k_gap a1) (k_con a1) (k_merit (csqp_merit c a1)) :: w1),
           (EvLineSearch E (fst j) (k_cost a1) (k_gap a1) (k_con a1) (k_merit (csqp_merit c a1)) :: w2).
    split; [|split; [|constructor => //; constructor]].
    + rewrite /csqp_merit. by case: (_ || _); cbn; rewrite q7 q3.
    + rewrite /csqp_merit. move: em. case: (_ || _); cbn; move=> [em _]; by rewrite em q8 q3' ec eg en.
  - by case: (_ || _).
  - by case: (_ || _).
  - apply: jrel_scal => //. by case: (_ || _).
  - move=> f [->|/g5] //. move: em. case: f => //; by case: (_ || _).
Qed.

(** what a trial step does not write *)
Record tfr (s s' : csqp) : Prop := mkTfr {
  t1_ : k_preg s' = k_preg s; t2_ : k_dreg s' = k_dreg s; t3_ : k_iter s' = k_iter s; t4_ : k_reached s' = k_reached s;
  t5_ : k_step s' = k_step s; t6_ : k_clk s' = k_clk s; t7_ : k_log s' = k_log s; t8_ : k_costl s' = k_costl s;
  t9_ : k_gapl s' = k_gapl s; t10_ : k_conl s' = k_conl s; t11_ : k_rho s' = k_rho s; t12_ : k_cost s' = k_cost s;
  t13_ : k_gap s' = k_gap s; t14_ : k_con s' = k_con s; t15_ : k_norms s' = k_norms s; t16_ : k_merit s' = k_merit s;
  t17_ : k_lagn s' = k_lagn s; t18_ : k_qpit s' = k_qpit s; t19_ : k_kkt s' = k_kkt s }.
Lemma tfr_crel (P Q : fld -> Prop) j a1 a2 b1 b2 : crel P j a1 a2 -> tfr a1 b1 -> tfr a2 b2 -> jrel Q (k_tr b1) (k_tr b2) ->
  hz (k_tr b1) -> hz (k_tr b2) -> sagr FJ b1 b2 -> (forall f, Q f -> P f \/ f = FP \/ f = FJ) -> crel Q j b1 b2.
Proof.
  move=> [g1 g2 g3 g4 g5] f1 f2 hj h1 h2 hJ hQ. split => //.
  - case: g1 => q1 q2 q3 q4 q5 q6 q7 q8. split.
    + by rewrite (t1_ f1) (t1_ f2).
    + by rewrite (t2_ f1) (t2_ f2).
    + by rewrite (t3_ f1) (t3_ f2).
    + by rewrite (t4_ f1) (t4_ f2).
    + by rewrite (t5_ f1) (t5_ f2).
    + by rewrite (t6_ f1) (t6_ f2).
    + by rewrite (t7_ f1) (t7_ f2).
    + by rewrite (t8_ f1) (t8_ f2) (t9_ f1) (t9_ f2) (t10_ f1) (t10_ f2).
  - move=> f /hQ [/g5|[->|->]] //. case: f => //; cbn [sagr]; rewrite ?(t11_ f1) ?(t11_ f2) ?(t12_ f1) ?(t12_ f2) ?(t13_ f1) ?(t13_ f2)
      ?(t14_ f1) ?(t14_ f2) ?(t15_ f1) ?(t15_ f2) ?(t16_ f1) ?(t16_ f2) ?(t17_ f1) ?(t17_ f2) ?(t18_ f1) ?(t18_ f2) ?(t19_ f1) ?(t19_ f2) //.
Qed.
Lemma hz_trial a (t : traj M) x y z : hz t -> let r := ceval_nodes (run (ctrial a t)) (trm (ctrial a t)) x y z in
  forall tn, tdx tn = tdx (trm t) -> tdxt tn = tdxt (trm t) -> tfs tn = tfs (trm t) -> hz (mkTraj (snd (fst r)) tn).
Proof.
  cbv zeta. rewrite /hz /zeros. case: t => [[|n l] tn] /=; first by move=> h u -> -> ->.
  by case: (raiseIfNaN _).
Qed.
Lemma try_crel (P : fld -> Prop) j a a1 a2 : P FX -> P FM -> P FS -> crel P j a1 a2 ->
  fst (csqp_tryStep c a a1) = fst (csqp_tryStep c a a2) /\ crel P j (snd (csqp_tryStep c a a1)) (snd (csqp_tryStep c a a2)) /\
  (fst (csqp_tryStep c a a1) = true -> crel (add FP (add FJ P)) j (snd (csqp_tryStep c a a1)) (snd (csqp_tryStep c a a2))).
Proof.
  move=> px pm ps h. rewrite /csqp_tryStep. case: (_ || _) => //.
  have m1 := ctrial_rel vec0 a px (c_j h). case: (m1) => l1 l2.
  have := @ceval_nodes_rel E M S TS (add FP P) _ _ _ _ (or_introl (Logic.eq_refl _)) (or_intror pm) l1 l2 (r0 E) (r0 E) (r0 E).
  have z1 := @hz_trial a (k_tr a1) (r0 E) (r0 E) (r0 E) (c_hz1 h). have z2 := @hz_trial a (k_tr a2) (r0 E) (r0 E) (r0 E) (c_hz2 h).
  move: z1 z2. cbv zeta.
  have [d1 [d2 d3]] : tdx (trm (ctrial a (k_tr a1))) = tdx (trm (k_tr a1)) /\ tdxt (trm (ctrial a (k_tr a1))) = tdxt (trm (k_tr a1)) /\ tfs (trm (ctrial a (k_tr a1))) = tfs (trm (k_tr a1)) by [].
  have [d1' [d2' d3']] : tdx (trm (ctrial a (k_tr a2))) = tdx (trm (k_tr a2)) /\ tdxt (trm (ctrial a (k_tr a2))) = tdxt (trm (k_tr a2)) /\ tfs (trm (ctrial a (k_tr a2))) = tfs (trm (k_tr a2)) by [].
  move: (ctrial a (k_tr a1)) (ctrial a (k_tr a2)) m1 l1 l2 d1 d2 d3 d1' d2' d3' => t1 t2 m1 l1 l2 d1 d2 d3 d1' d2' d3'.
  move: (ceval_nodes (run t1) _ _ _ _) (ceval_nodes (run t2) _ _ _ _) => r1 r2 z1 z2 [e1 [e2 e3]].
  rewrite -e1 -e2. move: (snd r1) => v {e2}.
  set s1 := set_k_cont _ (set_k_gapt _ (set_k_costt _ (set_k_meritt _ (set_k_tr _ a1)))).
  set s2 := set_k_cont _ (set_k_gapt _ (set_k_costt _ (set_k_meritt _ (set_k_tr _ a2)))).
  have hs : crel P j s1 s2.
  { apply: (tfr_crel h); [by []|by []| |exact: z1 d1 d2 d3|exact: z2 d1' d2' d3'|by []|by left].
    split; [apply: lrel_mono e3|apply: trel_mono l2]; by right. }
  case: (fst (fst r1)); cbn [negb fst snd]; last by split.
  set tn1 := set_tme (trm t1) _. set tn2 := set_tme (trm t2) _.
  have [k1 k2] : trel TS (add FP P) tn1 tn2 /\ 
    (tcost (tm tn1) (tme tn1) = tcost (tm tn2) (tme tn2) /\
     vl1 E (viol_lb E (tlb (tm tn1)) (tg (tm tn1) (tme tn1))) = vl1 E (viol_lb E (tlb (tm tn2)) (tg (tm tn2) (tme tn2))) /\
     vl1 E (viol_ub E (tub (tm tn1)) (tg (tm tn1) (tme tn1))) = vl1 E (viol_ub E (tub (tm tn2)) (tg (tm tn2) (tme tn2)))).
  { rewrite /tn1 /tn2. move: l2. clear. case=> m x xt1 xt2 me1 me2 f1 f2 g1 g2 A1 A2 w1 w2 dx1 dx2 ll1 ll2 dt1 dt2 z1 z2 zp1 zp2 zr1 zr2 y1 y2 r1 r2 i1 i2 hS hh.
    have e : xt1 = xt2 by apply: (hh FP); left. subst xt2. split; last by [].
    constructor => // f hf. case: f hf => hf; try exact: (hh _ hf). by []. }
  case: k2 => k2 [k3 k4].
  have z3 : hz (mkTraj (snd (fst r1)) tn1) by apply: z1.
  have z4 : hz (mkTraj (snd (fst r2)) tn2) by apply: z2.
  rewrite -k2 -k3 -k4. move: (tcost (tm tn1) _) (vl1 E (viol_lb E (tlb (tm tn1)) _)) (vl1 E (viol_ub E (tub (tm tn1)) _)) => x y z.
  have hm : forall u w q, merit_of c (k_lagn s1) u w q = merit_of c (k_lagn s2) u w q by exact: (proj2 (c_s h ps)).
  rewrite -hm.
  set b1 := set_k_meritt _ (set_k_cont _ (set_k_costt _ (set_k_tr _ s1))).
  set b2 := set_k_meritt _ (set_k_cont _ (set_k_costt _ (set_k_tr _ s2))).
  split => //.
  have hb : crel (add FP (add FJ P)) j b1 b2.
  { apply: (tfr_crel hs); [by []|by []| |exact: z3|exact: z4|by []|rewrite /add; tauto].
    apply: (jrel_mono (P := add FJ (add FP P))); [rewrite /add; tauto|]. by apply: jrel_scal; last split. }
  split => //. apply: crel_mono hb. rewrite /add; tauto.
Qed.
Lemma acc_crel (P : fld -> Prop) j a1 a2 : P FS -> P FJ -> snd j = Datatypes.S (fst j) -> crel P j a1 a2 ->
  csqp_accept c a1 = csqp_accept c a2.
Proof.
  move=> ps pj hj [g1 g2 g3 g4 g5]. have [em _] := g5 _ ps. have [j1 [j2 [j3 j4]]] := g5 _ pj.
  rewrite /csqp_accept -em -j4. case: (cc_filter c) => //.
  case: g1 => _ _ [i1 i2] _ _ _ _ [hc [hg [hk [b1 [b2 [b3 [[b4 b4'] [[b5 b5'] [b6 b6']]]]]]]]].
  rewrite i1 i2 (@Indep.filter_worse_agree _ (csqp_dominated a2)) // => k hk' hi.
  rewrite /csqp_dominated /cb_get -j1 -j2 -j3.
  have ex : forall (w : list R), length w = snd j -> exists x, nth_error w k = Some x.
  { move=> w ew. case e: (nth_error w k) => [x|]; first by exists x. move/nth_error_None: e. lia. }
  have [x hx] := ex _ b1. have [y hy] := ex _ b2. have [z hz'] := ex _ b3.
  case: b4 => _ [_ b4]. case: b4' => _ [_ b4']. case: b5 => _ [_ b5]. case: b5' => _ [_ b5']. case: b6 => _ [_ b6]. case: b6' => _ [_ b6'].
  by rewrite (b4 _ _ hk' hx) (b4' _ _ hk' hx) (b5 _ _ hk' hy) (b5' _ _ hk' hy) (b6 _ _ hk' hz') (b6' _ _ hk' hz').
Qed.
Lemma hz_accept (t : traj M) : hz t -> hz (accept_try t).
Proof. by case: t => [[|n l] tn]. Qed.
Lemma ls_crel (P : fld -> Prop) j : P FX -> P FM -> P FS -> snd j = Datatypes.S (fst j) -> forall als a1 a2, crel P j a1 a2 ->
  match csqp_line_search c als a1, csqp_line_search c als a2 with
  | CLSAccept x1 r1, CLSAccept x2 r2 => x1 = x2 /\ crel (add FP (add FJ P)) j r1 r2
  | CLSNone r1, CLSNone r2 => crel P j r1 r2
  | CLSUB, CLSUB => True
  | _, _ => False
  end.
Proof.
  move=> px pm ps hj. elim=> [|a als ih] a1 a2 h; cbn [csqp_line_search] => //.
  have [e [h1 h2]] := try_crel a px pm ps h. rewrite -e. case eb: (fst (csqp_tryStep c a a1)); last exact: ih.
  have h3 := h2 eb. rewrite -(acc_crel (or_intror (or_intror ps) : add FP (add FJ P) FS) ltac:(inP) hj h3).
  case: (csqp_accept c _) => [[]|] //; last exact: ih.
  split => //. case: h3 => [g1 g2 g3 g4 g5]. split => //; try exact: hz_accept.
  - by case: g1 => *; split.
  - apply: accept_rel g4. by left.
Qed.

(** ** the main loop *)
Definition Full (f : fld) : Prop := match f with FQ | FH | FP | FN | FJ => False | _ => True end.
Lemma after_crel (P : fld -> Prop) j a1 a2 : crel P j a1 a2 ->
  match csqp_after c a1, csqp_after c a2 with
  | BRet b1 r1, BRet b2 r2 => b1 = false /\ b2 = false /\ crel P j r1 r2
  | BNext r1, BNext r2 => crel P j r1 r2
  | _, _ => False
  end.
Proof.
  move=> h. rewrite /csqp_after -(b_step (c_base h)). case: (cc_removereg c) => //. case: (rgt _ _); first exact: dec_crel.
  have h1 := inc_crel h. rewrite -(b_preg (c_base h1)). by case: (rge _ _).
Qed.
Lemma lacc_crel (P : fld -> Prop) j a a1 a2 : P FJ -> crel P j a1 a2 -> crel P j (csqp_log_accept a a1) (csqp_log_accept a a2).
Proof.
  move=> pj h. have [e1 [e2 [e3 e4]]] := c_s h pj. have [i1 i2] := b_iter (c_base h).
  rewrite /csqp_log_accept -e1 -e2 -e3 -e4 i1 i2. exact: log_crel.
Qed.
Lemma lrej_crel (P : fld -> Prop) j a1 a2 : crel P j a1 a2 -> crel P j (csqp_log_reject a1) (csqp_log_reject a2).
Proof. move=> h. have [i1 i2] := b_iter (c_base h). rewrite /csqp_log_reject i1 i2. exact: log_crel. Qed.

(** what a call returns *)
Definition ret_ok (b1 b2 : bool) (r1 r2 : csqp) : Prop :=
  b1 = b2 /\ exists (P : fld -> Prop) j, crel P j r1 r2 /\ (b1 = true -> P FK /\ P FC /\ P FL /\ P FY).
Definition same_iter (i : nat) (P : fld -> Prop) a1 a2 : Prop := exists j, fst j = i /\ snd j = Datatypes.S i /\ crel P j a1 a2.
Lemma body_crel (P : fld -> Prop) i fuel a1 a2 : i = 0 \/ P FR \/ cc_resetrho c = true -> P FY \/ cc_resety c = true ->
  P FX \/ cc_eqguess c = true -> i = 0 \/ P FS -> (k_reached a1 = true -> forall f, Full f -> P f) -> crel P (i, i) a1 a2 ->
  match csqp_body c to1 fuel a1, csqp_body c to2 fuel a2 with
  | CExc r1, CExc r2 => exists j, crel P j r1 r2
  | CB (BRet b1 r1), CB (BRet b2 r2) => ret_ok b1 b2 r1 r2
  | CB (BNext r1), CB (BNext r2) => same_iter i Full r1 r2
  | CB (BBreak r1), CB (BBreak r2) => (k_reached r1 = true /\ k_reached r2 = true /\ exists j, crel P j r1 r2) \/ same_iter i Full r1 r2
  | CB BUB, CB BUB | CB BNoFuel, CB BNoFuel => True
  | _, _ => False
  end.
Proof.
  move=> hr hy hx hs hw h. rewrite /csqp_body.
  have [e h1] := tick_crel h. rewrite -e. case: (fst (tick to1 a1)).
  { left. do 2 split => //. exists (i, i). exact: reached_crel. }
  have er : k_reached (snd (tick to1 a1)) = k_reached a1 by [].
  have [i1 i2] := b_iter (c_base h). cbn [fst] in i1, i2. rewrite i1 i2.
  move: (snd (tick to1 a1)) (snd (tick to2 a2)) er h1 => b1 b2 er h1.
  have h2 := calc_crel (log_crel (EvIter E i) h1).
  have er2 : k_reached (csqp_calc (set_k_log (EvIter E i :: k_log b1) b1)) = k_reached a1 by rewrite -er.
  move: (csqp_calc (set_k_log _ b1)) (csqp_calc (set_k_log _ b2)) h2 er2 => d1 d2 h2 er2.
  have [i3 i4] := b_iter (c_base h2). cbn [fst] in i3, i4. rewrite i3 i4.
  set Q := add FM (add FD (add FF (add FC P))) in h2.
  have [Q' [hQ [hQR h3]]] : exists Q' : fld -> Prop, (forall f, Q f -> Q' f) /\ (Q' FR \/ cc_resetrho c = true) /\
     crel Q' (i, i) (if (i =? 0) && negb (cc_resetrho c) then reset_rho c d1 else d1) (if (i =? 0) && negb (cc_resetrho c) then reset_rho c d2 else d2).
  { case: (Nat.eqb_spec i 0) => hi; case ec: (cc_resetrho c); cbn [andb negb].
    - exists Q. split => //. by split; [right|].
    - exists (add FR Q). split; [by right|]. split; [left; by left|]. exact: reset_rho_crel.
    - exists Q. split => //. by split; [right|].
    - exists Q. split => //. split => //. case: hr => // [[hr|]]; [|by rewrite ec]. left. rewrite /Q; inP. }
  have er3 : k_reached (if (i =? 0) && negb (cc_resetrho c) then reset_rho c d1 else d1) = k_reached a1 by rewrite -er2; case: (_ && _).
  move: (if _ then reset_rho c d1 else d1) (if _ then reset_rho c d2 else d2) h3 er3 => f1 f2 h3 er3.
  have qp f : P f -> Q' f by move=> hf; apply: hQ; rewrite /Q; inP.
  have qm : Q' FM by apply: hQ; rewrite /Q; inP.
  have qd : Q' FD by apply: hQ; rewrite /Q; inP.
  have qf : Q' FF by apply: hQ; rewrite /Q; inP.
  have qc : Q' FC by apply: hQ; rewrite /Q; inP.
  have hy' : Q' FY \/ cc_resety c = true by case: hy => [/qp|]; auto.
  have hx' : Q' FX \/ cc_eqguess c = true by case: hx => [/qp|]; auto.
  have hw' : true = true -> k_reached f1 = true -> forall f, PF Q' f -> Q' f.
  { rewrite er3 => _ /hw hF f hf. repeat (case: hf => [->|hf]; first by apply: qp; exact: hF). exact: hf. }
  have hP : forall j r1 r2, crel Q' j r1 r2 -> exists j, crel P j r1 r2 by move=> j r1 r2 hh; exists j; exact: crel_mono hh.
  have := direction_crel qm qd qf hQR hy' hx' fuel hw' h3. rewrite /dir_ok.
  case: (csqp_direction c to1 true fuel f1) => [r1|r1|r1||]; case: (csqp_direction c to2 true fuel f2) => [r2|r2|r2||] //.
  2: { move=> k. split => //. exists Q', (i, i). by split. }
  2: { exact: hP. }
  move=> [k1 k2]. have eq : k_qpit r1 = k_qpit r2 by apply: (c_s k1 (f := FI)); left.
  rewrite -eq. case: (Nat.eqb_spec (k_qpit r1) 0) => hq.
  { split => //. exists (add FI Q'), (i, i). by split. }
  have k3 := k2 (or_introl hq).
  have hs' : fst (i, i) = 0 \/ PF Q' FS by case: hs => [|hs]; [by left|right; do 8 right; exact: qp].
  have k4 := @check_crel (PF Q') (i, i) r1 r2 ltac:(inP) ltac:(inP) ltac:(inP) ltac:(inP) ltac:(inP) ltac:(inP) hs' k3.
  move: (csqp_check c r1) (csqp_check c r2) k4 => u1 u2 k4.
  set G := add FL (add FK (PF Q')) in k4.
  have gk : G FK by rewrite /G; inP.
  rewrite -(c_s k4 gk). case: (rle _ _ _).
  { split => //. exists G, (i, i). split => // _. by rewrite /G; repeat split; inP. }
  have gc : G FC by rewrite /G; inP. 
  have k5 := merit_crel (P := G) gc ltac:(rewrite /G; inP) ltac:(rewrite /G; inP) (push_crel gc k4). cbn [fst snd] in k5.
  have sub : forall f, Full f -> add FS G f.
  { case=> // _; rewrite /G; inP. }
  have := @ls_crel (add FS G) (i, Datatypes.S i) (sub FX I) (sub FM I) (sub FS I) (Logic.eq_refl _) (c_alphas dc) _ _ k5.
  case: (csqp_line_search c _ _) => [x1 w1|w1|]; case: (csqp_line_search c _ _) => [x2 w2|w2|] //.
  - move=> [ex k6]. subst x2. have k7 := lacc_crel x1 (or_intror (or_introl (Logic.eq_refl _)) : add FP (add FJ (add FS G)) FJ) k6.
    have := after_crel k7. case: (csqp_after c _) => [b1' v1|v1|v1||]; case: (csqp_after c _) => [b2' v2|v2|v2||] //.
    + move=> [-> [-> k8]]. split => //. eexists; eexists; split; [exact: k8|]. by [].
    + move=> k8. exists (i, Datatypes.S i). do 2 split => //. apply: crel_mono k8 => f /sub hf. by right; right.
  - move=> k6. right. exists (i, Datatypes.S i). do 2 split => //. apply: crel_mono (lrej_crel k6). exact: sub.
Qed.
Lemma final_crel (P : fld -> Prop) j fuel a1 a2 : P FR \/ cc_resetrho c = true -> P FY \/ cc_resety c = true ->
  P FX \/ cc_eqguess c = true -> fst j = 0 \/ P FS -> (forall f, Full f -> P f) \/ (forall n, to1 n = false) -> crel P j a1 a2 ->
  match csqp_final c to1 fuel a1, csqp_final c to2 fuel a2 with
  | Ret b1 r1, Ret b2 r2 => ret_ok b1 b2 r1 r2
  | Exc r1, Exc r2 => exists (P : fld -> Prop) j, crel P j r1 r2
  | UB, UB | NoFuel, NoFuel => True
  | _, _ => False
  end.
Proof.
  move=> hr hy hx hs hf h. rewrite /csqp_final -(b_reached (c_base h)).
  case: (cc_extra c && _); last by split => //; exists P, j.
  have h1 := calc_crel h. move: (csqp_calc a1) (csqp_calc a2) h1 => b1 b2 h1.
  set Q := add FM (add FD (add FF (add FC P))) in h1.
  have qp f : P f -> Q f by rewrite /Q; inP.
  have hr' : Q FR \/ cc_resetrho c = true by case: hr => [/qp|]; auto.
  have hy' : Q FY \/ cc_resety c = true by case: hy => [/qp|]; auto.
  have hx' : Q FX \/ cc_eqguess c = true by case: hx => [/qp|]; auto.
  have hw : false = true -> k_reached b1 = true -> forall f, PF Q f -> Q f by [].
  have := direction_crel (P := Q) ltac:(rewrite /Q; inP) ltac:(rewrite /Q; inP) ltac:(rewrite /Q; inP) hr' hy' hx' fuel hw h1. rewrite /dir_ok.
  case: (csqp_direction c to1 false fuel b1) => [r1|r1|r1||]; case: (csqp_direction c to2 false fuel b2) => [r2|r2|r2||] //.
  2: { move=> k. split => //. exists Q, j. by split. }
  2: { move=> k. by exists Q, j. }
  move=> [k1 k2].
  have k3 : crel (PF Q) j r1 r2.
  { case: hf => [hf|hf]; [|exact: k2 (or_intror hf)]. apply: crel_mono k1 => f pf. 
    have hh : forall g, Full g -> add FI Q g by move=> g hg; right; apply: qp; exact: hf.
    case: f pf => pf; try (by apply: hh); right; do 8 (case: pf => [pf|pf]; [discriminate pf|]); exact: pf. }
  have hs' : fst j = 0 \/ PF Q FS by case: hs => [|hs]; [by left|right; do 8 right; exact: qp].
  have k4 := @check_crel (PF Q) j r1 r2 ltac:(rewrite /Q; inP) ltac:(rewrite /Q; inP) ltac:(inP) ltac:(inP) ltac:(inP) ltac:(rewrite /Q; inP) hs' k3.
  have gk : add FL (add FK (PF Q)) FK by inP.
  rewrite -(c_s k4 gk). split => //. exists (add FL (add FK (PF Q))), j. split => // _. rewrite /Q. repeat split; inP.
Qed.
Lemma loop_crel fuel : forall k (P : fld -> Prop) i a1 a2, (k = 0 -> P FR \/ cc_resetrho c = true) -> i = 0 \/ P FR \/ cc_resetrho c = true -> P FY \/ cc_resety c = true ->
  P FX \/ cc_eqguess c = true -> i = 0 \/ P FS -> (k_reached a1 = true -> forall f, Full f -> P f) ->
  (k = 0 -> (forall f, Full f -> P f) \/ (forall n, to1 n = false)) -> crel P (i, i) a1 a2 ->
  match csqp_loop c to1 fuel k a1, csqp_loop c to2 fuel k a2 with
  | Ret b1 r1, Ret b2 r2 => ret_ok b1 b2 r1 r2
  | Exc r1, Exc r2 => exists (P : fld -> Prop) j, crel P j r1 r2
  | UB, UB | NoFuel, NoFuel => True
  | _, _ => False
  end.
Proof.
  elim=> [|k ih] P i a1 a2 hr0 hr hy hx hs hw hf h; cbn [csqp_loop].
  - have := @final_crel P (i, i) fuel a1 a2 (hr0 (Logic.eq_refl _)) hy hx hs (hf (Logic.eq_refl _)) h. by [].
  - have := body_crel fuel hr hy hx hs hw h.
    case: (csqp_body c to1 fuel a1) => [[b1 r1|r1|r1||]|r1]; case: (csqp_body c to2 fuel a2) => [[b2 r2|r2|r2||]|r2] //.
    + move=> [j [h1 [h2 h3]]]. case: j h1 h2 h3 => x y; cbn [fst snd] => h1 h2 h3. subst x y.
      have [i1 i2] := b_iter (c_base h3). cbn [fst] in i1, i2. rewrite i1 i2.
      apply: (ih Full (Datatypes.S i)).
      * move=> _. by left.
      * right. by left.
      * by left.
      * by left.
      * by right.
      * by [].
      * move=> _. by left.
      * case: h3 => [g1 g2 g3 g4 g5]. split => //. by case: g1 => *; split.
    + case=> [[e1 [e2 [j hj]]]|[j [h1 [h2 h3]]]].
      * rewrite /csqp_final e1 e2 !andb_false_r. split => //. by exists P, j.
      * have := @final_crel Full j fuel r1 r2 (or_introl (I : Full FR)) (or_introl (I : Full FY)) (or_introl (I : Full FX)) (or_intror (I : Full FS)) (or_introl (fun f h => h)) h3. by [].
    + move=> [j hj]. by exists P, j.
Qed.
End CLoop.
