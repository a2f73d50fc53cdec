(** * Two runs of SolverSQP::solve from objects with different pasts: simulation. *)
From Coq Require Import ZArith List Bool Arith Lia ssreflect ssrbool.
From Verif Require Import Eigen Problem DDP Filter FilterProofs SQP Init TrialSpec TraceSpec SQPSpec SQPTrial SQPLoop History.
Import ListNotations.
Set Implicit Arguments.
Unset Strict Implicit.
Set Asymmetric Patterns.

Section Indep.
Variable E : Eig.
Variable M : manifold E.
Notation R := (R E).
Notation vec := (vec E).
Notation node := (node M).
Notation tnode := (tnode M).
Notation X := (mX M).
Hypothesis vec0 : forall v w : vec 0, v = w.

Lemma vec0' k (v w : vec k) : k =? 0 = true -> v = w.
Proof. move/Nat.eqb_eq => e. subst k. exact: vec0. Qed.

(** how much two nodes have in common: 0 states and controls, 1 also the data of
    the last calc, 2 also derivatives, 3 also gaps, 4 also value function and gains,
    5 also direction and multipliers, 6 also the trial point *)
Inductive nrel (k : nat) : node -> node -> Prop :=
  | Nrel m (p1 p2 : point M (nu m)) (me1 me2 : amem m) d1 d2 f1 f2 (v1 v2 : vals M (nu m))
      (e1 e2 : dirs M (nu m)) (a1 a2 : admm M (nu m) (ng m)) :
      px p1 = px p2 -> pu p1 = pu p2 -> (1 <= k -> me1 = me2) -> (2 <= k -> d1 = d2) ->
      (3 <= k -> f1 = f2) ->
      (4 <= k -> Vxx v1 = Vxx v2 /\ Vx v1 = Vx v2 /\ (nu m =? 0 = false -> gK v1 = gK v2 /\ gk v1 = gk v2)) ->
      (5 <= k -> e1 = e2) -> (6 <= k -> p1 = p2) ->
      nrel k (@mkNode E M m p1 me1 d1 f1 v1 e1 a1) (@mkNode E M m p2 me2 d2 f2 v2 e2 a2).
Inductive trel (k : nat) : tnode -> tnode -> Prop :=
  | Trel m x xt1 xt2 (me1 me2 : tmem m) d1 d2 f1 f2 A1 A2 v1 v2 dx1 dx2 l1 l2
      dt1 dt2 z1 z2 zp1 zp2 zr1 zr2 y1 y2 r1 r2 i1 i2 :
      (1 <= k -> me1 = me2) -> (2 <= k -> d1 = d2) -> (3 <= k -> f1 = f2) ->
      (4 <= k -> A1 = A2 /\ v1 = v2) -> (5 <= k -> dx1 = dx2 /\ l1 = l2) -> (6 <= k -> xt1 = xt2) ->
      trel k (@mkTnode E M m x xt1 me1 d1 f1 A1 v1 dx1 l1 dt1 z1 zp1 zr1 y1 r1 i1)
             (@mkTnode E M m x xt2 me2 d2 f2 A2 v2 dx2 l2 dt2 z2 zp2 zr2 y2 r2 i2).
Notation lrel k := (Forall2 (nrel k)).

Lemma nrel_le j k n1 n2 : j <= k -> nrel k n1 n2 -> nrel j n1 n2.
Proof. move=> h [m p1 p2 me1 me2 d1 d2 f1 f2 v1 v2 e1 e2 a1 a2 h1 h2 h3 h4 h5 h6 h7 h8].
  apply: Nrel => // hk; [apply: h3|apply: h4|apply: h5|apply: h6|apply: h7|apply: h8]; lia. Qed.
Lemma trel_le j k n1 n2 : j <= k -> trel k n1 n2 -> trel j n1 n2.
Proof. move=> h [m x xt1 xt2 me1 me2 d1 d2 f1 f2 A1 A2 v1 v2 dx1 dx2 l1 l2
  dt1 dt2 z1 z2 zp1 zp2 zr1 zr2 y1 y2 r1 r2 i1 i2 h1 h2 h3 h4 h5 h6].
  apply: Trel => hk; [apply: h1|apply: h2|apply: h3|apply: h4|apply: h5|apply: h6]; lia. Qed.
Lemma lrel_le j k l1 l2 : j <= k -> lrel k l1 l2 -> lrel j l1 l2.
Proof. move=> h. elim=> [|n1 n2 q1 q2 hn _ ih]; constructor => //. exact: nrel_le hn. Qed.

(** ** heads *)
Lemma hd_x_rel k l1 l2 tn1 tn2 : lrel k l1 l2 -> trel k tn1 tn2 -> hd_x l1 tn1 = hd_x l2 tn2.
Proof. case=> [|n1 n2 ? ? hn _] ht; [by case: ht | by case: hn => /=]. Qed.
Lemma hd_fs_rel l1 l2 tn1 tn2 : lrel 3 l1 l2 -> trel 3 tn1 tn2 -> hd_fs l1 tn1 = hd_fs l2 tn2.
Proof.
  case=> [|n1 n2 ? ? hn _] ht.
  - case: ht => m x xt1 xt2 me1 me2 d1 d2 f1 f2 A1 A2 v1 v2 dx1 dx2 l1' l2' dt1 dt2 z1 z2 zp1 zp2 zr1 zr2 y1 y2 r1 r2 i1 i2 h1 h2 h3 *.
    exact: h3.
  - case: hn => m p1 p2 me1 me2 d1 d2 f1 f2 v1 v2 e1 e2 a1 a2 h1 h2 h3 h4 h5 *. exact: h5.
Qed.
Lemma hd_V_rel l1 l2 tn1 tn2 : lrel 4 l1 l2 -> trel 4 tn1 tn2 ->
  hd_Vxx l1 tn1 = hd_Vxx l2 tn2 /\ hd_Vx l1 tn1 = hd_Vx l2 tn2.
Proof.
  case=> [|n1 n2 ? ? hn _] ht.
  - case: ht => m x xt1 xt2 me1 me2 d1 d2 f1 f2 A1 A2 v1 v2 dx1 dx2 l1' l2' dt1 dt2 z1 z2 zp1 zp2 zr1 zr2 y1 y2 r1 r2 i1 i2 h1 h2 h3 h4 *.
    exact: h4.
  - case: hn => m p1 p2 me1 me2 d1 d2 f1 f2 v1 v2 e1 e2 a1 a2 h1 h2 h3 h4 h5 h6 *.
    by case: (h6 (le_n 4)) => /= -> [-> _].
Qed.
Lemma hd_lam_rel l1 l2 tn1 tn2 : lrel 5 l1 l2 -> trel 5 tn1 tn2 -> hd_lam l1 tn1 = hd_lam l2 tn2.
Proof.
  case=> [|n1 n2 ? ? hn _] ht.
  - case: ht => m x xt1 xt2 me1 me2 d1 d2 f1 f2 A1 A2 v1 v2 dx1 dx2 l1' l2' dt1 dt2 z1 z2 zp1 zp2 zr1 zr2 y1 y2 r1 r2 i1 i2 h1 h2 h3 h4 h5 *.
    by case: (h5 (le_n 5)).
  - case: hn => m p1 p2 me1 me2 d1 d2 f1 f2 v1 v2 e1 e2 a1 a2 h1 h2 h3 h4 h5 h6 h7 *.
    by rewrite /= (h7 (le_n 5)).
Qed.

(** ** trajectories; dx_[0] is compared at every level *)
Definition jrel (k : nat) (t1 t2 : traj M) : Prop :=
  lrel k (run t1) (run t2) /\ trel k (trm t1) (trm t2) /\
  hd_dx (run t1) (trm t1) = hd_dx (run t2) (trm t2).
Lemma jrel_le j k t1 t2 : j <= k -> jrel k t1 t2 -> jrel j t1 t2.
Proof. move=> h [h1 [h2 h3]]. split; [exact: lrel_le h1|split => //; exact: trel_le h2]. Qed.

Lemma get_rel k t1 t2 : jrel k t1 t2 -> get_xs t1 = get_xs t2 /\ get_us t1 = get_us t2.
Proof.
  move=> [h1 [h2 _]]. rewrite /get_xs /get_us.
  have [e1 e2] : map (fun n : node => px (pt n)) (run t1) = map (fun n : node => px (pt n)) (run t2) /\
    map (fun n : node => existT vec (nu (nm n)) (pu (pt n))) (run t1) =
    map (fun n : node => existT vec (nu (nm n)) (pu (pt n))) (run t2).
  { elim: h1 => [|n1 n2 ? ? hn _ [i1 i2]] //=. rewrite i1 i2. case: hn => /= *; split; congruence. }
  rewrite e1 e2. by case: h2.
Qed.

Ltac dn := case=> m p1 p2 me1 me2 d1 d2 f1 f2 v1 v2 e1 e2 a1 a2 h1 h2 h3 h4 h5 h6 h7 h8.
Ltac dt := case=> m x xt1 xt2 me1 me2 d1 d2 f1 f2 A1 A2 v1 v2 dx1 dx2 l1 l2
  dt1 dt2 z1 z2 zp1 zp2 zr1 zr2 y1 y2 r1 r2 i1 i2 h1 h2 h3 h4 h5 h6.

Lemma problem_calc_rel k t1 t2 : jrel k t1 t2 -> jrel 1 (problem_calc t1) (problem_calc t2).
Proof.
  move=> [h1 [h2 h3]]. split; [|split].
  - rewrite /=. elim: h1 => [|n1 n2 ? ? hn _ ih]; constructor => //.
    case: hn => m p1 p2 me1 me2 d1 d2 f1 f2 v1 v2 e1 e2 a1 a2 q1 q2 *.
    rewrite /node_calc /=. apply: Nrel => //= hk; try lia. by rewrite q1 q2.
  - move: h2; clear; rewrite /=. dt. rewrite /tnode_calc /=. by apply: Trel => //= hk; lia.
  - move: h3; rewrite /=. by case: h1.
Qed.
Lemma stored_cost_rel t1 t2 : jrel 1 t1 t2 -> stored_cost t1 = stored_cost t2.
Proof.
  move=> [h1 [h2 _]]. rewrite /stored_cost. congr radd.
  - move: (r0 E). elim: h1 => [|n1 n2 ? ? hn _ ih] c //=.
    rewrite -ih. congr fold_left. case: hn => m p1 p2 me1 me2 d1 d2 f1 f2 v1 v2 e1 e2 a1 a2 q1 q2 q3 *.
    by rewrite /= q3.
  - move: h2; clear; dt. by rewrite /= h1.
Qed.
Lemma calcDiff_rel t1 t2 : jrel 1 t1 t2 ->
  jrel 2 (fst (problem_calcDiff t1)) (fst (problem_calcDiff t2)).
Proof.
  move=> [h1 [h2 h3]]. split; [|split].
  - rewrite /=. elim: h1 => [|n1 n2 ? ? hn _ ih]; constructor => //.
    case: hn => m p1 p2 me1 me2 d1 d2 f1 f2 v1 v2 e1 e2 a1 a2 q1 q2 q3 *.
    rewrite /node_calcDiff /=. apply: Nrel => //= hk; try lia; [exact: q3 | by rewrite q1 q2 q3].
  - move: h2. rewrite /=. case=> m x xt1 xt2 me1 me2 d1 d2 f1 f2 A1 A2 v1 v2 dx1 dx2 l1 l2
      dt1 dt2 z1 z2 zp1 zp2 zr1 zr2 y1 y2 r1 r2 i1 i2 q1 q2 q3 q4 q5 q6.
    rewrite /tnode_calcDiff /=. apply: Trel => //= hk; try lia; [exact: q1 | by rewrite q1].
  - move: h3; rewrite /=. by case: h1.
Qed.
Lemma gaps_from_rel f l1 l2 tn1 tn2 : lrel 2 l1 l2 -> trel 2 tn1 tn2 ->
  lrel 3 (fst (gaps_from f l1 tn1)) (fst (gaps_from f l2 tn2)) /\
  trel 3 (snd (gaps_from f l1 tn1)) (snd (gaps_from f l2 tn2)) /\
  (hd_dx l1 tn1 = hd_dx l2 tn2 ->
   hd_dx (fst (gaps_from f l1 tn1)) (snd (gaps_from f l1 tn1)) =
   hd_dx (fst (gaps_from f l2 tn2)) (snd (gaps_from f l2 tn2))).
Proof.
  move=> h ht. elim: h f => [|n1 n2 q1 q2 hn hq ih] f /=.
  - split; [constructor|]. split => //.
    case: ht => m x xt1 xt2 me1 me2 d1 d2 f1 f2 A1 A2 v1 v2 dx1 dx2 l1' l2'
      dt1 dt2 z1 z2 zp1 zp2 zr1 zr2 y1 y2 r1 r2 i1 i2 k1 k2 k3 k4 k5 k6.
    rewrite /set_tfs /=. apply: Trel => //= hk; try lia; [apply: k1|apply: k2]; lia.
  - rewrite -(hd_x_rel hq ht).
    have -> : axnext (nm n1) (mem n1) = axnext (nm n2) (mem n2).
    { case: hn => m p1 p2 me1 me2 d1 d2 f1 f2 v1 v2 e1 e2 a1 a2 k1 k2 k3 *. rewrite /= k3 //. lia. }
    case: (ih (diff M (hd_x q1 tn1) (axnext (nm n2) (mem n2)))) => j1 [j2 _].
    split; [constructor => //|split => //].
    case: hn => m p1 p2 me1 me2 d1 d2 f1 f2 v1 v2 e1 e2 a1 a2 k1 k2 k3 k4 *.
    rewrite /set_fs /=. apply: Nrel => //= hk; try lia; [apply: k3|apply: k4]; lia.
Qed.
Lemma computeGaps_rel x0 t1 t2 : jrel 2 t1 t2 -> jrel 3 (computeGaps x0 t1) (computeGaps x0 t2).
Proof.
  move=> [h1 [h2 h3]]. rewrite /computeGaps (hd_x_rel h1 h2).
  case: (gaps_from_rel (diff M (hd_x (run t2) (trm t2)) x0) h1 h2) => j1 [j2 j3].
  split => //. split => //. exact: j3.
Qed.
Lemma gap_l1_rel t1 t2 : jrel 3 t1 t2 -> gap_l1 t1 = gap_l1 t2.
Proof.
  move=> [h1 [h2 _]]. rewrite /gap_l1. congr radd.
  - move: (r0 E). elim: h1 => [|n1 n2 ? ? hn _ ih] c //=.
    rewrite -ih. congr fold_left. move: hn; clear; dn. by rewrite /= (h5 (le_n 3)).
  - move: h2; clear; dt. by rewrite /= (h3 (le_n 3)).
Qed.

(** ** backward pass *)
Lemma bwd_term_rel preg feas tn1 tn2 : trel 3 tn1 tn2 -> trel 4 (bwd_term preg feas tn1) (bwd_term preg feas tn2).
Proof.
  dt. have eD := h2 (le_S _ _ (le_n 2)). have eF := h3 (le_n 3). subst d2 f2.
  apply: Trel => //= hk; try lia. by apply: h1; lia.
Qed.
Lemma bwd_node_rel preg dreg feas n1 n2 A v : nrel 3 n1 n2 ->
  fst (bwd_node preg dreg feas n1 A v) = fst (bwd_node preg dreg feas n2 A v) /\
  nrel 3 (snd (bwd_node preg dreg feas n1 A v)) (snd (bwd_node preg dreg feas n2 A v)) /\
  (fst (bwd_node preg dreg feas n1 A v) = true ->
   nrel 4 (snd (bwd_node preg dreg feas n1 A v)) (snd (bwd_node preg dreg feas n2 A v))).
Proof.
  dn. have eD := h4 (le_S _ _ (le_n 2)). have eF := h5 (le_n 3). subst d2 f2.
  rewrite /bwd_node. cbn [nm der val fs set_val].
  case e0: (nu m =? 0); cbn [negb andb].
  - cbn [fst snd]. split => //. split; [|move=> _]; apply: Nrel => //= hk; try lia; try (by apply: h3; lia).
    do 2 split => //. by rewrite e0.
  - case: (llt_ok E _); cbn [negb fst snd].
    + split => //. split; [|move=> _]; apply: Nrel => //= hk; try lia; try (by apply: h3; lia).
    + by split.
Qed.
Lemma bwd_nodes_rel preg dreg feas l1 l2 tn1 tn2 : lrel 3 l1 l2 -> trel 4 tn1 tn2 ->
  fst (bwd_nodes preg dreg feas l1 tn1) = fst (bwd_nodes preg dreg feas l2 tn2) /\
  lrel 3 (snd (bwd_nodes preg dreg feas l1 tn1)) (snd (bwd_nodes preg dreg feas l2 tn2)) /\
  (fst (bwd_nodes preg dreg feas l1 tn1) = true ->
   lrel 4 (snd (bwd_nodes preg dreg feas l1 tn1)) (snd (bwd_nodes preg dreg feas l2 tn2))).
Proof.
  move=> h ht. elim: h => [|n1 n2 q1 q2 hn hq [i1 [i2 i3]]]; cbn [bwd_nodes].
  - split => //. by split; [|move=> _]; constructor.
  - rewrite -i1. case e: (fst (bwd_nodes preg dreg feas q1 tn1)); cbn [fst snd].
    + have i3' := i3 e. case: (hd_V_rel i3' ht) => -> ->.
      case: (bwd_node_rel preg dreg feas (hd_Vxx (snd (bwd_nodes preg dreg feas q2 tn2)) tn2)
        (hd_Vx (snd (bwd_nodes preg dreg feas q2 tn2)) tn2) hn) => j1 [j2 j3].
      split => //. split; first by constructor.
      move=> hb. constructor; [exact: j3|exact: i3'].
    + split => //. split => //. by constructor.
Qed.
Lemma backwardPass_rel preg dreg feas t1 t2 : jrel 3 t1 t2 ->
  fst (backwardPass preg dreg feas t1) = fst (backwardPass preg dreg feas t2) /\
  jrel (if fst (backwardPass preg dreg feas t1) then 4 else 3)
    (snd (backwardPass preg dreg feas t1)) (snd (backwardPass preg dreg feas t2)).
Proof.
  move=> [h1 [h2 h3]]. have ht := bwd_term_rel preg feas h2.
  case: (bwd_nodes_rel preg dreg feas h1 ht) => i1 [i2 i3].
  split => //. split; [|split].
  - rewrite /=. by case: ifP => // /i3.
  - rewrite /=. case: ifP => // _. apply: trel_le ht; lia.
  - by rewrite !backward_dx.
Qed.

(** ** forward pass *)
Lemma fwd_nodes_rel d l1 l2 tn1 tn2 : lrel 4 l1 l2 -> trel 4 tn1 tn2 -> forall xg ug,
  lrel 5 (fst (fst (fwd_nodes d l1 tn1 xg ug))) (fst (fst (fwd_nodes d l2 tn2 xg ug))) /\
  trel 5 (snd (fst (fwd_nodes d l1 tn1 xg ug))) (snd (fst (fwd_nodes d l2 tn2 xg ug))).
Proof.
  move=> h ht. elim: h d => [|n1 n2 q1 q2 hn hq ih] d xg ug; cbn [fwd_nodes fst snd].
  - split; [constructor|]. move: ht; clear; dt.
    have eF := h3 ltac:(lia). have [eA eV] := h4 (le_n 4). subst f2 A2 v2.
    apply: Trel => //= hk; try lia; [apply: h1|apply: h2]; lia.
  - have hq3 : lrel 3 q1 q2 by apply: lrel_le hq; lia.
    have ht3 : trel 3 tn1 tn2 by apply: trel_le ht; lia.
    rewrite -(hd_fs_rel hq3 ht3).
    case: hn => m p1 p2 me1 me2 d1 d2 f1 f2 v1 v2 e1 e2 a1 a2 h1 h2 h3 h4 h5 h6 h7 h8. have eM := h3 ltac:(lia). have eD := h4 ltac:(lia). have eF := h5 ltac:(lia).
    have [eA [eV eG]] := h6 (le_n 4). subst me2 d2 f2.
    cbn [nm der val fs dir]. set nn1 := mkNode _ p1 _ _ _ _ _ _. set nn2 := mkNode _ p2 _ _ _ _ _ _.
    have eu : fwd_du nn1 d = fwd_du nn2 d.
    { rewrite /fwd_du /=. case e0: (nu m =? 0); first exact: vec0'. by case: (eG e0) => -> ->. }
    rewrite -eu. case: (ih (vadd E (vadd E (hd_fs q1 tn1) (mmulv E (Fu d1) (fwd_du nn1 d))) (mmulv E (Fx d1) d))
       (radd E xg (vl1 E d)) (radd E ug (vl1 E (fwd_du nn1 d)))) => j1 j2.
    split => //. constructor => //. apply: Nrel => //= hk; try lia.
    rewrite /fwd_lam /=. by rewrite eA eV.
Qed.
Lemma forwardPass_rel t1 t2 : jrel 4 t1 t2 -> jrel 5 (fst (forwardPass t1)) (fst (forwardPass t2)).
Proof.
  move=> [h1 [h2 h3]]. have [_ k1] := forward_passed t1. have [_ k2] := forward_passed t2.
  case: (fwd_nodes_rel (hd_dx (run t1) (trm t1)) h1 h2 (r0 E) (r0 E)) => j1 j2.
  split; [|split].
  - by rewrite /forwardPass -h3.
  - by rewrite /forwardPass -h3.
  - by rewrite k1 k2.
Qed.

(** ** KKT residual *)
Lemma kkt_nodes_rel l1 l2 tn1 tn2 : lrel 5 l1 l2 -> trel 5 tn1 tn2 -> forall kk,
  kkt_nodes kk l1 tn1 = kkt_nodes kk l2 tn2.
Proof.
  move=> h ht. elim: h => [|n1 n2 q1 q2 hn hq ih] kk //=.
  rewrite -(hd_lam_rel hq ht) -ih. congr kkt_nodes.
  move: hn; clear; dn. have eD := h4 ltac:(lia). have eE := h7 (le_n 5). by subst d2 e2.
Qed.
Lemma kkt_residual_rel t1 t2 : jrel 5 t1 t2 -> kkt_residual t1 = kkt_residual t2.
Proof.
  move=> [h1 [h2 _]]. rewrite /kkt_residual (kkt_nodes_rel h1 h2).
  have -> : fs_flat_norm t1 = fs_flat_norm t2.
  { rewrite /fs_flat_norm.
    have ef : forall n1 n2, nrel 5 n1 n2 -> fs n1 = fs n2.
    { move=> n1 n2; clear; dn. apply: h5; lia. }
    have et : tfs (trm t1) = tfs (trm t2). { move: h2; clear; dt. apply: h3; lia. }
    rewrite et. case: h1 => [|n1 n2 q1 q2 hn hq] //.
    rewrite (ef _ _ hn). congr std_max. move: (vlinf E (fs n2)).
    elim: hq => [|m1 m2 ? ? hm _ ih] c //=. by rewrite (ef _ _ hm) ih. }
  have -> : vsub E (tLx (tder (trm t1))) (tlam (trm t1)) = vsub E (tLx (tder (trm t2))) (tlam (trm t2)).
  { move: h2; clear; dt. have [_ eL] := h5 (le_n 5). by rewrite /= (h2 ltac:(lia)) eL. }
  by [].
Qed.

(** ** trial steps *)
Lemma try_node_rel a n1 n2 : nrel 5 n1 n2 -> nrel 6 (try_node a n1) (try_node a n2).
Proof.
  dn. have eE := h7 (le_n 5). subst e2. rewrite /try_node /=.
  have ep : (if negb (nu m =? 0) then vadd E (pu p1) (vscale E a (du e1)) else put p1) =
            (if negb (nu m =? 0) then vadd E (pu p2) (vscale E a (du e1)) else put p2).
  { case e0: (nu m =? 0) => /=; [exact: vec0' | by rewrite h2]. }
  rewrite -ep -h1. apply: Nrel => //= hk; try lia; try (by rewrite h2);
    [apply: h4|apply: h5|apply: h6]; lia.
Qed.
Lemma try_term_rel a tn1 tn2 : trel 5 tn1 tn2 -> trel 6 (try_term a tn1) (try_term a tn2).
Proof.
  dt. have [eX eL] := h5 (le_n 5). subst dx2 l2. rewrite /try_term /=.
  apply: Trel => //= hk; try lia; [apply: h2|apply: h3|apply: h4]; lia.
Qed.
Lemma try_nodes_rel a l1 l2 : lrel 5 l1 l2 -> forall prev cst gap,
  let r1 := try_nodes a prev l1 cst gap in let r2 := try_nodes a prev l2 cst gap in
  fst (fst (fst r1)) = fst (fst (fst r2)) /\ snd (fst r1) = snd (fst r2) /\ snd r1 = snd r2 /\
  lrel (if fst (fst (fst r1)) then 6 else 5) (snd (fst (fst r1))) (snd (fst (fst r2))) /\
  (forall tn1 tn2, hd_dx (snd (fst (fst r1))) tn1 = hd_dx l1 tn1 /\ hd_dx (snd (fst (fst r2))) tn2 = hd_dx l2 tn2).
Proof.
  elim=> [|n1 n2 q1 q2 hn hq ih] prev cst gap; cbn [try_nodes].
  - do 3 split => //. split => //=; constructor.
  - have hn' := try_node_rel a hn. set n1' := try_node a n1 in hn' *. set n2' := try_node a n2 in hn' *.
    have [ec [ex em]] : acost (nm n1') (mem n1') = acost (nm n2') (mem n2') /\
       pxt (pt n1') = pxt (pt n2') /\ axnext (nm n1') (mem n1') = axnext (nm n2') (mem n2').
    { clearbody n1' n2'. case: hn' => m p1 p2 me1 me2 d1 d2 f1 f2 v1 v2 e1 e2 a1 a2 g1 g2 g3 g4 g5 g6 g7 g8.
      by rewrite /= (g3 ltac:(lia)) (g8 (le_n 6)). }
    have hdn : forall tn1 tn2 w1 w2, hd_dx (n1' :: w1) tn1 = hd_dx (n1 :: q1) tn1 /\
                        hd_dx (n2' :: w2) tn2 = hd_dx (n2 :: q2) tn2 by [].
    rewrite -ec -ex -em. case: ifP => _; cbn [fst snd].
    + do 3 split => //. split => //. constructor => //. apply: nrel_le hn'; lia.
    + case: (ih (Some (axnext (nm n1') (mem n1'))) (radd E cst (acost (nm n1') (mem n1')))
        (match prev with None => gap | Some xn => radd E gap (vl1 E (diff M (pxt (pt n1')) xn)) end))
        => j1 [j2 [j3 [j4 _]]].
      split => //. split => //. split => //. split => //.
      constructor => //. case: ifP => _ //. apply: nrel_le hn'; lia.
Qed.
Lemma accept_rel t1 t2 : jrel 6 t1 t2 -> jrel 1 (accept_try t1) (accept_try t2).
Proof.
  move=> [h1 [h2 h3]]. split; [|split].
  - rewrite /=. elim: h1 => [|n1 n2 ? ? hn _ ih]; constructor => //. move: hn; clear; dn.
    have eP := h8 (le_n 6). subst p2. rewrite /node_accept /=. apply: Nrel => //= hk; try lia. apply: h3; lia.
  - rewrite /=. move: h2; clear; dt. have eX := h6 (le_n 6). subst xt2. rewrite /set_tx /=.
    apply: Trel => //= hk; try lia. apply: h1; lia.
  - rewrite /=. by case: h1 h3.
Qed.

(** ** control state *)
Variable x0 : X.
Variable c : scfg E.
Notation dc := (sc_ddp c).

(** events that agree except possibly on the step length shown by the callbacks of
    iteration 0 *)
Inductive evrel : event E -> event E -> Prop :=
  | Ev_same e : evrel e e
  | Ev_first i k cst m st1 st2 : evrel (EvCallback E i 0 k cst m st1) (EvCallback E i 0 k cst m st2).

Variables L1 L2 : list (event E).
(** [j] pushes into the filter memory so far in this solve *)
Record ctl (j : nat) (s1 s2 : sqp M) : Prop := mkCtl {
  ct_preg : q_preg s1 = q_preg s2;
  ct_dreg : q_dreg s1 = q_dreg s2;
  ct_iter : q_iter s1 = q_iter s2;
  ct_step : q_iter s1 = 0 \/ q_step s1 = q_step s2;
  ct_log : exists w1 w2, q_log s1 = w1 ++ L1 /\ q_log s2 = w2 ++ L2 /\ Forall2 evrel w1 w2;
  ct_buf : exists hc hg, length hc = j /\ length hg = j /\
     holds (sc_fsize c) hc (q_costl s1) /\ holds (sc_fsize c) hc (q_costl s2) /\
     holds (sc_fsize c) hg (q_gapl s1) /\ holds (sc_fsize c) hg (q_gapl s2)
}.
Definition vals_eq (s1 s2 : sqp M) : Prop :=
  q_cost s1 = q_cost s2 /\ q_merit s1 = q_merit s2 /\ q_gap s1 = q_gap s2.

Lemma computeDirection_rel j k recalc s1 s2 : ctl j s1 s2 -> jrel k (q_tr s1) (q_tr s2) ->
  (recalc = true -> 1 <= k \/ q_iter s1 = 0) ->
  (recalc = false -> 3 <= k /\ vals_eq s1 s2) ->
  let r1 := sqp_computeDirection x0 c recalc s1 in
  let r2 := sqp_computeDirection x0 c recalc s2 in
  fst r1 = fst r2 /\ ctl j (snd r1) (snd r2) /\ vals_eq (snd r1) (snd r2) /\
  jrel (if fst r1 then 5 else 3) (q_tr (snd r1)) (q_tr (snd r2)).
Proof.
  move=> hc hj hr hn. rewrite /sqp_computeDirection.
  set b1 := if recalc then _ else s1. set b2 := if recalc then _ else s2.
  have [g1 [g2 [g3 g4]]] : ctl j b1 b2 /\ jrel 3 (q_tr b1) (q_tr b2) /\ q_cost b1 = q_cost b2 /\
     (q_preg b1 = q_preg b2 /\ q_dreg b1 = q_dreg b2).
  { rewrite /b1 /b2. case: recalc hr hn {b1 b2} => hr hn.
    - have hk := hr (Logic.eq_refl _). rewrite /calcDiff -(ct_iter hc).
      have h1 : jrel 1 (if q_iter s1 =? 0 then problem_calc (q_tr s1) else q_tr s1)
                       (if q_iter s1 =? 0 then problem_calc (q_tr s2) else q_tr s2).
      { case: (Nat.eqb_spec (q_iter s1) 0) => hi; first exact: problem_calc_rel hj.
        case: hk => // hk. exact: jrel_le hj. }
      split; first by case: hc. split; first exact: computeGaps_rel (calcDiff_rel h1).
      split; first exact: stored_cost_rel h1. by case: hc.
    - case: (hn (Logic.eq_refl _)) => hk [he _]. split => //. split; first exact: jrel_le hj.
      split => //. by case: hc. }
  clearbody b1 b2. clear hc hj hr hn.
  have eg := gap_l1_rel g2. case: g4 => ep ed.
  cbn [q_tr q_preg q_dreg set_q_merit set_q_gap set_q_tr q_gap q_cost].
  rewrite -eg -g3 -ep -ed.
  case: (backwardPass_rel (q_preg b1) (q_dreg b1) false g2) => e1 j1.
  rewrite -e1. case eb: (fst (backwardPass (q_preg b1) (q_dreg b1) false (q_tr b1))) j1 => j1; cbn [fst snd].
  - split => //. split; first by case: g1. split; first by split.
    exact: forwardPass_rel.
  - split => //. split; first by case: g1. split; first by split. exact: j1.
Qed.

Lemma inc_rel j s1 s2 : ctl j s1 s2 -> ctl j (sqp_inc c s1) (sqp_inc c s2).
Proof. case=> h1 h2 h3 h4 h5 h6. by split => //=; rewrite h1. Qed.
Lemma dec_rel j s1 s2 : ctl j s1 s2 -> ctl j (sqp_dec c s1) (sqp_dec c s2).
Proof. case=> h1 h2 h3 h4 h5 h6. by split => //=; rewrite h1. Qed.

Lemma retry_rel j fuel : forall k recalc s1 s2, ctl j s1 s2 -> jrel k (q_tr s1) (q_tr s2) ->
  (recalc = true -> 1 <= k \/ q_iter s1 = 0) ->
  (recalc = false -> 3 <= k /\ vals_eq s1 s2) ->
  match sqp_retry x0 c fuel recalc s1, sqp_retry x0 c fuel recalc s2 with
  | DirOk r1, DirOk r2 => ctl j r1 r2 /\ vals_eq r1 r2 /\ jrel 5 (q_tr r1) (q_tr r2)
  | DirFail r1, DirFail r2 => ctl j r1 r2 /\ jrel 0 (q_tr r1) (q_tr r2)
  | DirNoFuel, DirNoFuel => True
  | _, _ => False
  end.
Proof.
  elim: fuel => [|fuel ih] k recalc s1 s2 hc hj hr hn; cbn [sqp_retry] => //.
  case: (computeDirection_rel hc hj hr hn) => e1 [g1 [g2 g3]].
  rewrite -e1. case eb: (fst (sqp_computeDirection x0 c recalc s1)) g3 => g3 //.
  have g1' := inc_rel g1. rewrite -(ct_preg g1').
  case: ifP => _.
  - split => //. apply: jrel_le g3. lia.
  - apply: (ih 3 false) => //.
Qed.

Lemma callbacks_rel n iter kkt cst mer st1 st2 w1 w2 k1 k2 : (iter = 0 \/ st1 = st2) ->
  Forall2 evrel w1 w2 -> k1 = w1 ++ L1 -> k2 = w2 ++ L2 ->
  exists w1' w2', run_callbacks n iter kkt cst mer st1 k1 = w1' ++ L1 /\
    run_callbacks n iter kkt cst mer st2 k2 = w2' ++ L2 /\ Forall2 evrel w1' w2'.
Proof.
  rewrite /run_callbacks => hs. elim: (seq 0 n) w1 w2 k1 k2 => [|i q ih] w1 w2 k1 k2 hw e1 e2 /=.
  - by exists w1, w2.
  - apply: (ih (EvCallback E i iter kkt cst mer st1 :: w1) (EvCallback E i iter kkt cst mer st2 :: w2)).
    + constructor => //. case: hs => ->; constructor.
    + by rewrite e1.
    + by rewrite e2.
Qed.
Lemma check_rel j s1 s2 : ctl j s1 s2 -> vals_eq s1 s2 -> jrel 5 (q_tr s1) (q_tr s2) ->
  ctl j (sqp_check c s1) (sqp_check c s2) /\ vals_eq (sqp_check c s1) (sqp_check c s2) /\
  jrel 5 (q_tr (sqp_check c s1)) (q_tr (sqp_check c s2)) /\
  q_kkt (sqp_check c s1) = q_kkt (sqp_check c s2).
Proof.
  move=> [h1 h2 h3 h4 [w1 [w2 [h5 [h6 h7]]]] h8] [v1 [v2 v3]] hj.
  have ek := kkt_residual_rel hj.
  split; [|by split; [split|split]]. split => //.
  rewrite /sqp_check. cbn [q_log set_q_log set_q_kkt q_iter q_kkt q_cost q_merit q_step].
  rewrite -ek -h3 -v1 -v2. exact: (callbacks_rel _ _ _ _ h4 h7 h5 h6).
Qed.
Lemma push_rel j s1 s2 : ctl j s1 s2 -> vals_eq s1 s2 -> ctl (S j) (sqp_push s1) (sqp_push s2).
Proof.
  move=> [h1 h2 h3 h4 [w1 [w2 [h5 [h6 h7]]]] [hc [hg [b1 [b2 [b3 [b4 [b5 b6]]]]]]]] [v1 [v2 v3]].
  split => //.
  - rewrite /sqp_push. cbn [q_log set_q_log set_q_costl set_q_gapl].
    exists (EvLineSearch E (q_iter s1) (q_cost s1) (q_gap s1) (r0 E) (q_merit s1) :: w1),
           (EvLineSearch E (q_iter s1) (q_cost s1) (q_gap s1) (r0 E) (q_merit s1) :: w2).
    rewrite h5 h6 h3 v1 v2 v3. split => //. split => //. constructor => //. constructor.
  - rewrite /sqp_push. cbn [q_log q_costl q_gapl set_q_log set_q_costl set_q_gapl].
    exists (q_cost s1 :: hc), (q_gap s1 :: hg). rewrite /= b1 b2. do 2 split => //.
    rewrite -v1 -v3. by split; [|split; [|split]]; apply: holds_push.
Qed.

(** ** line search *)
Lemma filter_worse_agree test test' n iter :
  (forall k, k < n -> k <= iter -> test (n - 1 - k) = test' (n - 1 - k)) ->
  filter_worse test n iter = filter_worse test' n iter.
Proof.
  rewrite /filter_worse => h.
  suff H : forall fuel count, fuel + count = n ->
    filter_loop test n iter fuel count = filter_loop test' n iter fuel count by apply: H; lia.
  elim=> [|f ih] count e //=.
  case hle: (count <=? iter) => //. move/Nat.leb_le: hle => hle.
  rewrite h; [lia|exact: hle|]. case: (test' _) => [[]|] //. apply: ih. lia.
Qed.
Lemma accept_test_rel j s1 s2 : ctl j s1 s2 -> j = S (q_iter s1) -> q_merit s1 = q_merit s2 ->
  q_costt s1 = q_costt s2 -> q_gapt s1 = q_gapt s2 -> q_meritt s1 = q_meritt s2 ->
  sqp_accept c s1 = sqp_accept c s2.
Proof.
  move=> [h1 h2 h3 h4 _ [hc [hg [b1 [b2 [b3 [b4 [b5 b6]]]]]]]] hj e1 e2 e3 e4.
  rewrite /sqp_accept -e1 -e4. case: (sc_filter c) => //.
  rewrite -h3. rewrite (@filter_worse_agree _ (sqp_dominated s2)) //.
  move=> k hk hi. rewrite /sqp_dominated /cb_get -e2 -e3.
  have [x hx] : exists x, nth_error hc k = Some x.
  { case e: (nth_error hc k) => [x|]; first by exists x. move/nth_error_None: e. lia. }
  have [y hy] : exists y, nth_error hg k = Some y.
  { case e: (nth_error hg k) => [y|]; first by exists y. move/nth_error_None: e. lia. }
  case: b3 => _ [_ b3]. case: b4 => _ [_ b4]. case: b5 => _ [_ b5]. case: b6 => _ [_ b6].
  by rewrite (b3 _ _ hk hx) (b4 _ _ hk hx) (b5 _ _ hk hy) (b6 _ _ hk hy).
Qed.

(** [ctl] does not read the fields written by trials *)
Definition same_ctl (s s' : sqp M) : Prop :=
  [/\ q_preg s' = q_preg s, q_dreg s' = q_dreg s, q_iter s' = q_iter s, q_step s' = q_step s &
   [/\ q_log s' = q_log s, q_costl s' = q_costl s, q_gapl s' = q_gapl s & vals_eq s' s]].
Lemma ctl_same j s1 s2 s1' s2' : ctl j s1 s2 -> same_ctl s1 s1' -> same_ctl s2 s2' -> ctl j s1' s2'.
Proof.
  move=> [h1 h2 h3 h4 h5 h6] [e1 e2 e3 e4 [e5 e6 e7 _]] [g1 g2 g3 g4 [g5 g6 g7 _]].
  split; [by rewrite e1 g1|by rewrite e2 g2|by rewrite e3 g3|by rewrite e3 e4 g4|by rewrite e5 g5|by rewrite e6 g6 e7 g7].
Qed.
Lemma vals_same s1 s2 s1' s2' : vals_eq s1 s2 -> same_ctl s1 s1' -> same_ctl s2 s2' -> vals_eq s1' s2'.
Proof.
  move=> [h1 [h2 h3]] [_ _ _ _ [_ _ _ [e1 [e2 e3]]]] [_ _ _ _ [_ _ _ [g1 [g2 g3]]]].
  by split; [rewrite e1 g1|split; [rewrite e2 g2|rewrite e3 g3]].
Qed.
Lemma tryStep_rel a s1 s2 : jrel 5 (q_tr s1) (q_tr s2) ->
  match sqp_tryStep c a s1, sqp_tryStep c a s2 with
  | TOk r1, TOk r2 => [/\ same_ctl s1 r1, same_ctl s2 r2, jrel 6 (q_tr r1) (q_tr r2) &
                       [/\ q_costt r1 = q_costt r2, q_gapt r1 = q_gapt r2 & q_meritt r1 = q_meritt r2]]
  | TThrow r1, TThrow r2 => [/\ same_ctl s1 r1, same_ctl s2 r2 & jrel 5 (q_tr r1) (q_tr r2)]
  | TUB, TUB => True
  | _, _ => False
  end.
Proof.
  move=> [h1 [h2 h3]]. rewrite /sqp_tryStep.
  case: (_ || _); first by split.
  have := try_nodes_rel a h1 None (r0 E) (r0 E). cbv zeta.
  set q1 := try_nodes a None (run (q_tr s1)) (r0 E) (r0 E).
  set q2 := try_nodes a None (run (q_tr s2)) (r0 E) (r0 E). clearbody q1 q2.
  move=> [e1 [e2 [e3 [e4 e5]]]]. rewrite -e1 -e2 -e3.
  case eb: (fst (fst (fst q1))) e4 => e4; cbn [negb]; last first.
  { split => //. split => //=. split => //. case: (e5 (trm (q_tr s1)) (trm (q_tr s2))) => -> ->. exact: h3. }
  case: (snd q1) => [xn|] //.
  have ht := try_term_rel a h2.
  set t1 := try_term a (trm (q_tr s1)) in ht *. set t2 := try_term a (trm (q_tr s2)) in ht *.
  have [ec ex] : tcost (tm t1) (tme t1) = tcost (tm t2) (tme t2) /\ txt t1 = txt t2.
  { clearbody t1 t2. move: ht; clear; dt. by rewrite /= (h1 ltac:(lia)) (h6 (le_n 6)). }
  rewrite -ec -ex.
  have hj : jrel 6 (mkTraj (snd (fst (fst q1))) t1) (mkTraj (snd (fst (fst q2))) t2).
  { split => //=. split => //. case: (e5 t1 t2) => -> ->.
    have : hd_dx (run (q_tr s1)) t1 = hd_dx (run (q_tr s1)) (trm (q_tr s1)) by case: (run (q_tr s1)).
    have : hd_dx (run (q_tr s2)) t2 = hd_dx (run (q_tr s2)) (trm (q_tr s2)) by case: (run (q_tr s2)).
    by move=> -> ->. }
  case: (raiseIfNaN _).
  - split => //. apply: jrel_le hj. lia.
  - by split.
Qed.
Lemma line_search_rel j als : forall s1 s2, ctl j s1 s2 -> vals_eq s1 s2 -> j = S (q_iter s1) ->
  jrel 5 (q_tr s1) (q_tr s2) -> (als <> [] \/ q_step s1 = q_step s2) ->
  match sqp_line_search c als s1, sqp_line_search c als s2 with
  | LSAccept r1, LSAccept r2 =>
      [/\ ctl j r1 r2, jrel 1 (q_tr r1) (q_tr r2), q_step r1 = q_step r2 & 
       [/\ q_costt r1 = q_costt r2, q_gapt r1 = q_gapt r2 & q_meritt r1 = q_meritt r2]]
  | LSNone r1, LSNone r2 => [/\ ctl j r1 r2, jrel 1 (q_tr r1) (q_tr r2) & q_step r1 = q_step r2]
  | LSUB, LSUB => True
  | _, _ => False
  end.
Proof.
  elim: als => [|a als ih] s1 s2 hc hv hj hr hs; cbn [sqp_line_search].
  - split => //; [apply: jrel_le hr; lia|]. by case: hs.
  - have hc' : ctl j (set_q_step a s1) (set_q_step a s2).
    { case: hc => *. split => //=. by right. }
    have hv' : vals_eq (set_q_step a s1) (set_q_step a s2) by [].
    have hst : q_step (set_q_step a s1) = q_step (set_q_step a s2) by [].
    have hi : q_iter (set_q_step a s1) = q_iter s1 by [].
    have := @tryStep_rel a (set_q_step a s1) (set_q_step a s2) hr.
    move: (set_q_step a s1) (set_q_step a s2) hc' hv' hst hi => w1 w2 hc' hv' hst hi.
    case: (sqp_tryStep c a w1) => [r1|r1|]; case: (sqp_tryStep c a w2) => [r2|r2|] //.
    + move=> [k1 k2 k3 [k4 k5 k6]].
      have gc := ctl_same hc' k1 k2. have gv := vals_same hv' k1 k2.
      have ei : q_iter r1 = q_iter s1 by case: k1 => _ _ ->.
      have es : q_step r1 = q_step r2 by case: k1 => _ _ _ -> _; case: k2 => _ _ _ -> _.
      have em : q_merit r1 = q_merit r2 by case: gv => _ [].
      rewrite -(@accept_test_rel j r1 r2) //; first by rewrite ei.
      case: (sqp_accept c r1) => [[]|] //.
      * split => //; [by case: gc => *; split|exact: accept_rel].
      * apply: ih => //; [by rewrite ei|apply: jrel_le k3; lia|by right].
    + move=> [k1 k2 k3].
      apply: ih => //; [exact: ctl_same hc' k1 k2|exact: vals_same hv' k1 k2| |].
      * by case: k1 => _ _ ->; rewrite hi.
      * right. by case: k1 => _ _ _ -> _; case: k2 => _ _ _ -> _.
Qed.

(** ** body, loop *)
Lemma after_rel j s1 s2 : ctl j s1 s2 -> jrel 1 (q_tr s1) (q_tr s2) -> q_step s1 = q_step s2 ->
  match sqp_after c s1, sqp_after c s2 with
  | BRet b1 r1, BRet b2 r2 => b1 = false /\ b2 = false /\ ctl j r1 r2 /\ jrel 1 (q_tr r1) (q_tr r2)
  | BNext r1, BNext r2 => ctl j r1 r2 /\ jrel 1 (q_tr r1) (q_tr r2) /\ q_step r1 = q_step r2
  | _, _ => False
  end.
Proof.
  move=> hc hr hs. rewrite /sqp_after -hs.
  set b1 := if _ then sqp_dec c s1 else s1. set b2 := if _ then sqp_dec c s2 else s2.
  have [g1 [g2 [g3 g4]]] : ctl j b1 b2 /\ jrel 1 (q_tr b1) (q_tr b2) /\ q_step b1 = q_step b2 /\ q_step b1 = q_step s1.
  { rewrite /b1 /b2. case: (rgt _ _) => //. split; first exact: dec_rel. by []. }
  clearbody b1 b2. rewrite -g3.
  case: (rle _ _ _) => //.
  have g1' := inc_rel g1. rewrite -(ct_preg g1'). by case: (req _ _ _).
Qed.

Lemma log_accept_rel j s1 s2 : ctl j s1 s2 -> q_step s1 = q_step s2 ->
  q_costt s1 = q_costt s2 -> q_gapt s1 = q_gapt s2 -> q_meritt s1 = q_meritt s2 ->
  ctl j (sqp_log_accept s1) (sqp_log_accept s2).
Proof.
  move=> [h1 h2 h3 h4 [w1 [w2 [h5 [h6 h7]]]] h8] e1 e2 e3 e4. split => //=.
  rewrite h5 h6 h3 e1 e2 e3 e4. eexists (_ :: w1), (_ :: w2). split; [reflexivity|]. split; [reflexivity|].
  constructor => //. constructor.
Qed.
Lemma log_reject_rel j s1 s2 : ctl j s1 s2 -> ctl j (sqp_log_reject s1) (sqp_log_reject s2).
Proof.
  move=> [h1 h2 h3 h4 [w1 [w2 [h5 [h6 h7]]]] h8]. split => //=.
  rewrite h5 h6 h3. eexists (_ :: w1), (_ :: w2). split; [reflexivity|]. split; [reflexivity|].
  constructor => //. constructor.
Qed.

(** what two finished runs have in common *)
Definition done_rel (b1 : bool) (r1 : sqp M) (b2 : bool) (r2 : sqp M) : Prop :=
  b1 = b2 /\ (exists j, ctl j r1 r2) /\ jrel 0 (q_tr r1) (q_tr r2) /\
  (b1 = true -> jrel 5 (q_tr r1) (q_tr r2) /\ q_kkt r1 = q_kkt r2 /\ q_cost r1 = q_cost r2).
Hypothesis alphas_ne : c_alphas dc <> [].

Lemma retry_iter fuel recalc : forall (s : sqp M),
  match sqp_retry x0 c fuel recalc s with DirOk r => q_iter r = q_iter s | _ => True end.
Proof.
  elim: fuel recalc => [|fuel ih] recalc s //. cbn [sqp_retry].
  have := SQPLoop.computeDirectionP x0 c recalc s. cbv zeta.
  move=> [_ [_ [_ [_ [_ [_ [_ [hi _]]]]]]]].
  case: (sqp_computeDirection x0 c recalc s) hi => b s' hi. cbn [fst snd] in hi |- *.
  case: b => //. case: (req _ _ _) => //.
  have := ih false (sqp_inc c s'). by case: (sqp_retry _ _ _ _ _) => // r ->.
Qed.
Lemma try_iter a (s : sqp M) :
  match sqp_tryStep c a s with TOk r | TThrow r => q_iter r = q_iter s | TUB => True end.
Proof.
  rewrite /sqp_tryStep. case: (_ || _) => //. case: (fst (fst (fst _))) => //=.
  case: (snd _) => [xn|] //. by case: (raiseIfNaN _).
Qed.
Lemma ls_iter als : forall (s : sqp M),
  match sqp_line_search c als s with LSAccept r | LSNone r => q_iter r = q_iter s | LSUB => True end.
Proof.
  elim: als => [|a als ih] s //. cbn [sqp_line_search].
  have := try_iter a (set_q_step a s). case: (sqp_tryStep c a (set_q_step a s)) => [r|r|] // hr.
  - case: (sqp_accept c r) => [[]|] //. have := ih r. by case: (sqp_line_search c als r) => // ? ->.
  - have := ih r. by case: (sqp_line_search c als r) => // ? ->.
Qed.
Lemma after_iter (s : sqp M) :
  match sqp_after c s with BNext r => q_iter r = q_iter s | _ => True end.
Proof. rewrite /sqp_after. case: (rgt _ _); case: (rle _ _ _) => //; case: (req _ _ _) => //. Qed.

Lemma body_rel fuel s1 s2 : ctl (q_iter s1) s1 s2 ->
  jrel (if q_iter s1 =? 0 then 0 else 1) (q_tr s1) (q_tr s2) ->
  match sqp_body x0 c fuel s1, sqp_body x0 c fuel s2 with
  | BRet b1 r1, BRet b2 r2 => done_rel b1 r1 b2 r2
  | BNext r1, BNext r2 => [/\ ctl (S (q_iter s1)) r1 r2, jrel 1 (q_tr r1) (q_tr r2), q_step r1 = q_step r2 &
                              q_iter r1 = q_iter s1]
  | BUB, BUB | BNoFuel, BNoFuel => True
  | _, _ => False
  end.
Proof.
  move=> hc hj. rewrite /sqp_body.
  have hr : true = true -> 1 <= (if q_iter s1 =? 0 then 0 else 1) \/ q_iter s1 = 0.
  { move=> _. case: (Nat.eqb_spec (q_iter s1) 0) => h; [by right|left; lia]. }
  have hn : true = false -> 3 <= (if q_iter s1 =? 0 then 0 else 1) /\ vals_eq s1 s2 by [].
  have := retry_rel fuel hc hj hr hn.
  have hi := retry_iter fuel true s1.
  case e1: (sqp_retry x0 c fuel true s1) hi => [r1|r1|r1||] hi; case e2: (sqp_retry x0 c fuel true s2) => [r2|r2|r2||] //.
  - move=> [k1 [k2 k3]].
    case: (check_rel k1 k2 k3) => g1 [g2 [g3 g4]].
    have gi : q_iter (sqp_check c r1) = q_iter s1 by exact: hi.
    move: (sqp_check c r1) (sqp_check c r2) g1 g2 g3 g4 gi => w1 w2 g1 g2 g3 g4 gi.
    rewrite -g4. case: (rle E _ _).
    + split => //. split; first by exists (q_iter s1). split; [apply: jrel_le g3; lia|move=> _].
      split => //. split => //. by case: g2.
    + have p1 := push_rel g1 g2.
      have pv : vals_eq (sqp_push w1) (sqp_push w2) by exact: g2.
      have pj : jrel 5 (q_tr (sqp_push w1)) (q_tr (sqp_push w2)) by exact: g3.
      have pi : S (q_iter s1) = S (q_iter (sqp_push w1)) by rewrite -gi.
      have := line_search_rel p1 pv pi pj (or_introl alphas_ne).
      have hls := ls_iter (c_alphas dc) (sqp_push w1).
      case: (sqp_line_search c _ (sqp_push w1)) hls => [y1|y1|] hls; case: (sqp_line_search c _ (sqp_push w2)) => [y2|y2|] //.
      * move=> [n1 n2 n3 [n4 n5 n6]].
        have := after_rel (log_accept_rel n1 n3 n4 n5 n6) n2 n3.
        have hal := after_iter (sqp_log_accept y1).
        case: (sqp_after c (sqp_log_accept y1)) hal => [b1 z1|z1|z1||] hal; case: (sqp_after c (sqp_log_accept y2)) => [b2 z2|z2|z2||] //.
        -- move=> [-> [-> [h1 h2]]]. split => //. split; first by exists (S (q_iter s1)). split => //. apply: jrel_le h2; lia.
        -- move=> [h1 [h2 h3]]. split => //. rewrite hal -gi. exact: hls.
      * move=> [n1 n2 n3].
        have := after_rel (log_reject_rel n1) n2 n3.
        have hal := after_iter (sqp_log_reject y1).
        case: (sqp_after c (sqp_log_reject y1)) hal => [b1 z1|z1|z1||] hal; case: (sqp_after c (sqp_log_reject y2)) => [b2 z2|z2|z2||] //.
        -- move=> [-> [-> [h1 h2]]]. split => //. split; first by exists (S (q_iter s1)). split => //. apply: jrel_le h2; lia.
        -- move=> [h1 [h2 h3]]. split => //. rewrite hal -gi. exact: hls.
  - move=> [k1 k2]. split => //. split; first by exists (q_iter s1). by split.
Qed.

Lemma final_rel fuel j k s1 s2 : ctl j s1 s2 -> jrel k (q_tr s1) (q_tr s2) -> 1 <= k \/ q_iter s1 = 0 ->
  match sqp_final x0 c fuel s1, sqp_final x0 c fuel s2 with
  | Ret b1 r1, Ret b2 r2 => done_rel b1 r1 b2 r2
  | NoFuel, NoFuel => True
  | _, _ => False
  end.
Proof.
  move=> hc hj hk. rewrite /sqp_final. case: (sc_extra c).
  - have hn : true = false -> 3 <= k /\ vals_eq s1 s2 by [].
    have := retry_rel fuel hc hj (fun _ => hk) hn.
    case: (sqp_retry x0 c fuel true s1) => [r1|r1|r1||]; case: (sqp_retry x0 c fuel true s2) => [r2|r2|r2||] //.
    + move=> [k1 [k2 k3]]. case: (check_rel k1 k2 k3) => g1 [g2 [g3 g4]]. rewrite -g4.
      split => //. split; first by exists j. split; [apply: jrel_le g3; lia|move=> _].
      split => //. split => //. by case: g2.
    + move=> [k1 k2]. split => //. split; first by exists j. by split.
  - split => //. split; first by exists j. split => //. apply: jrel_le hj. lia.
Qed.

Lemma loop_rel fuel : forall k s1 s2, ctl (q_iter s1) s1 s2 ->
  jrel (if q_iter s1 =? 0 then 0 else 1) (q_tr s1) (q_tr s2) ->
  match sqp_loop x0 c fuel k s1, sqp_loop x0 c fuel k s2 with
  | Ret b1 r1, Ret b2 r2 => done_rel b1 r1 b2 r2
  | NoFuel, NoFuel | UB, UB => True
  | _, _ => False
  end.
Proof.
  elim=> [|k ih] s1 s2 hc hj; cbn [sqp_loop].
  - have := final_rel fuel hc hj.
    have hk : 1 <= (if q_iter s1 =? 0 then 0 else 1) \/ q_iter s1 = 0.
    { case: (Nat.eqb_spec (q_iter s1) 0) => h; [by right|left; lia]. }
    move=> /(_ hk). by case: (sqp_final x0 c fuel s1); case: (sqp_final x0 c fuel s2).
  - have := body_rel fuel hc hj.
    case: (sqp_body x0 c fuel s1) => [b1 r1|r1|r1||]; case: (sqp_body x0 c fuel s2) => [b2 r2|r2|r2||] //.
    move=> [h1 h2 h3 h4]. apply: ih.
    + cbn [q_iter set_q_iter]. rewrite h4. case: h1 => g1 g2 g3 g4 g5 g6. split => //=; [by rewrite -g3 h4|by right].
    + exact: h2.
Qed.

(** ** the guess and the start of solve *)
Inductive mrel : node -> node -> Prop :=
  | Mrel m (p1 p2 : point M (nu m)) (me1 me2 : amem m) d1 d2 f1 f2 (v1 v2 : vals M (nu m))
      (e1 e2 : dirs M (nu m)) (a1 a2 : admm M (nu m) (ng m)) : px p1 = px p2 ->
      mrel (@mkNode E M m p1 me1 d1 f1 v1 e1 a1) (@mkNode E M m p2 me2 d2 f2 v2 e2 a2).
Lemma mrel_of (n1 n2 : node) x : nm n1 = nm n2 -> mrel (set_x n1 x) (set_x n2 x).
Proof. move=> e. destruct n1 as [m1 ? ? ? ? ? ? ?], n2 as [m2 ? ? ? ? ? ? ?]. cbn [nm] in e. subst m2. by apply: Mrel. Qed.
Lemma trel_of (n1 n2 : tnode) x : tm n1 = tm n2 -> trel 0 (set_tx n1 x) (set_tx n2 x).
Proof. move=> e. destruct n1, n2. simpl in e. subst. apply: Trel; lia. Qed.
Lemma guess_xs_rel l1 : forall l2 (tn1 tn2 : tnode) xs, map (@nm E M) l1 = map (@nm E M) l2 -> tm tn1 = tm tn2 ->
  match guess_xs l1 tn1 xs, guess_xs l2 tn2 xs with
  | Some r1, Some r2 => Forall2 mrel (fst r1) (fst r2) /\ trel 0 (snd r1) (snd r2)
  | None, None => True
  | _, _ => False
  end.
Proof.
  elim: l1 => [|n1 l1 ih] [|n2 l2] tn1 tn2 [|x xs] //= e et.
  - case: xs => //=. split; [constructor|exact: trel_of].
  - case: e => e1 e2. have := ih l2 tn1 tn2 xs e2 et.
    case: (guess_xs l1 tn1 xs) => [r1|]; case: (guess_xs l2 tn2 xs) => [r2|] // [h1 h2].
    split => //=. constructor => //. exact: mrel_of.
Qed.
Lemma guess_us_rel (l1 l2 : list node) : Forall2 mrel l1 l2 -> forall us,
  match guess_us l1 us, guess_us l2 us with
  | Some r1, Some r2 => lrel 0 r1 r2
  | None, None => True
  | _, _ => False
  end.
Proof.
  elim=> [|n1 n2 q1 q2 hn hq ih] [|u us] //=.
  have := ih us. case: hn => m p1 p2 me1 me2 d1 d2 f1 f2 v1 v2 e1 e2 a1 a2 h1 /=.
    case: (@cast_vec _ _ _ _) => [v|]; last by case: (guess_us q1 us); case: (guess_us q2 us).
    case: (guess_us q1 us) => [r1|]; case: (guess_us q2 us) => [r2|] // hr.
    constructor => //. rewrite /set_u /=. apply: Nrel => //=; lia.
Qed.
Lemma pin_rel y t1 t2 : jrel 0 t1 t2 -> jrel 0 (pin_xt0 y (pin_x0 y t1)) (pin_xt0 y (pin_x0 y t2)).
Proof.
  case: t1 => l1 tn1; case: t2 => l2 tn2 [/= h1 [h2 h3]]. rewrite /pin_xt0 /pin_x0 /=.
  case: h1 h3 => [|n1 n2 q1 q2 hn hq] h3 /=.
  - split; [constructor|]. split => //=. move: h2; clear; dt. rewrite /set_txt /set_tx /=. apply: Trel; lia.
  - split; [|by split]. constructor => //. move: hn; clear; dn. rewrite /set_xt /set_x /set_pt /=. apply: Nrel => //=; lia.
Qed.
Lemma set_guess_rel (t1 t2 : traj M) xs us : map (@nm E M) (run t1) = map (@nm E M) (run t2) -> tm (trm t1) = tm (trm t2) ->
  hd_dx (run t1) (trm t1) = hd_dx (run t2) (trm t2) ->
  match set_guess xs us t1, set_guess xs us t2 with
  | Some t1', Some t2' => jrel 0 t1' t2'
  | None, None => True
  | _, _ => False
  end.
Proof.
  move=> e1 e2 e3.
  case g1: (set_guess xs us t1) => [t1'|]; case g2: (set_guess xs us t2) => [t2'|] //.
  1: case: (set_guessP g1) => k1 [[x1 k2] _]; case: (set_guessP g2) => m1 [[x2 m2] _].
  1: have d1 := ptonly_dx k1 k2; have d2 := ptonly_dx m1 m2.
  all: move: g1 g2; rewrite /set_guess.
  all: have el : length (run t1) = length (run t2) by rewrite -(map_length (@nm E M)) e1 map_length.
  all: have eu : map (fun n : node => existT vec (nu (nm n)) (vzero E)) (run t1) =
             map (fun n : node => existT vec (nu (nm n)) (vzero E)) (run t2)
    by (rewrite -(map_map (@nm E M) (fun m => existT vec (nu m) (vzero E))) e1 map_map).
  all: rewrite -el -eu; move: (match us with [] => _ | _ => us end) => us'.
  all: move: (match xs with [] => _ | _ => xs end) => xs'.
  all: have := guess_xs_rel xs' e1 e2;
    case: (guess_xs _ _ _) => [[r1 q1]|]; case: (guess_xs _ _ _) => [[r2 q2]|] //=.
  all: move=> [h1 h2]; have := guess_us_rel h1 us';
    case: (guess_us r1 us') => [w1|]; case: (guess_us r2 us') => [w2|] // hw [e4] [e5].
  subst t1' t2'. split => //. split => //. by rewrite d1 d2.
Qed.
End Indep.
