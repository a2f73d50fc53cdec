(** * SolverSQP's search direction in exact arithmetic (C01-C05). *)
From Coq Require Import Ring Field ZArith PeanoNat.
Set Warnings "-notation-overridden,-ambiguous-paths".
From mathcomp Require Import all_ssreflect all_algebra.
From Verif Require Import FieldTac Eigen EigenExact ExactLemmas Problem DDP SQP LQSpec SubQP Riccati PassExact.

Set Implicit Arguments.
Unset Strict Implicit.
Unset Printing Implicit Defensive.

Import Order.TTheory GRing.Theory Num.Theory.
Local Open Scope ring_scope.

(** ** Frame: which arrays a direction computation leaves alone *)
Section Frame.
Variable E : Eig.
Variable M : manifold E.
Notation node := (node M).
Notation tnode := (tnode M).

(** [b] is [a] with another value function / gains and direction: same model,
    candidate, problem data (calc and calcDiff), gaps, and ADMM arrays *)
Definition node_frame (a b : node) : Prop :=
  exists v e, b = set_dir (set_val a v) e.
Definition tnode_frame (a b : tnode) : Prop :=
  exists V v d l, b = set_tlam (set_tdx (set_tV a V v) d) l.
Definition traj_frame (s s' : traj M) : Prop :=
  List.Forall2 node_frame (run s) (run s') /\ tnode_frame (trm s) (trm s').

Lemma node_frame_refl a : node_frame a a.
Proof. by exists (val a), (dir a); case: a. Qed.
Lemma node_frame_trans a b c : node_frame a b -> node_frame b c -> node_frame a c.
Proof. by move=> [v [e ->]] [v' [e' ->]]; exists v', e'. Qed.
Lemma tnode_frame_refl a : tnode_frame a a.
Proof. by exists (tVxx a), (tVx a), (tdx a), (tlam a); case: a. Qed.
Lemma tnode_frame_trans a b c : tnode_frame a b -> tnode_frame b c -> tnode_frame a c.
Proof. by move=> [A [v [d [l ->]]]] [A' [v' [d' [l' ->]]]]; exists A', v', d', l'. Qed.
Lemma F2_refl (T : Type) (P : T -> T -> Prop) l : (forall a, P a a) -> List.Forall2 P l l.
Proof. by move=> H; elim: l => //= a l IH; constructor. Qed.
Lemma F2_trans (T : Type) (P : T -> T -> Prop) : (forall a b c, P a b -> P b c -> P a c) ->
  forall l1 l2 l3, List.Forall2 P l1 l2 -> List.Forall2 P l2 l3 -> List.Forall2 P l1 l3.
Proof.
move=> tr l1 l2 l3 H; elim: H l3 => [|a b l l' ab _ IH] l3 H3; inversion H3; subst; constructor.
  exact: tr ab _.
exact: IH.
Qed.
Lemma traj_frame_refl s : traj_frame s s.
Proof. by split; [apply: F2_refl; exact: node_frame_refl | exact: tnode_frame_refl]. Qed.
Lemma traj_frame_trans s1 s2 s3 : traj_frame s1 s2 -> traj_frame s2 s3 -> traj_frame s1 s3.
Proof.
move=> [a b] [c d]; split; [exact: F2_trans node_frame_trans _ _ _ a c | exact: tnode_frame_trans b d].
Qed.

Lemma bwd_node_frame preg dreg feas (a : node) V v : node_frame a (snd (bwd_node preg dreg feas a V v)).
Proof.
rewrite /bwd_node; case: ifP => _ /=; set w := mkVals _ _ _ _ _ _ _ _ _ _ _ _;
  by exists w, (dir a); case: a w.
Qed.
Lemma bwd_nodes_frame preg dreg feas (l : seq node) tn :
  List.Forall2 node_frame l (snd (bwd_nodes preg dreg feas l tn)).
Proof.
elim: l => //= a l IH; case: ifP => _ /=; constructor=> //.
  exact: bwd_node_frame.
exact: node_frame_refl.
Qed.
Lemma backwardPass_frame preg dreg feas (s : traj M) : traj_frame s (snd (backwardPass preg dreg feas s)).
Proof.
split; first exact: bwd_nodes_frame.
rewrite /= /bwd_term; set A := add_reg _ _ _; set v := if _ then _ else _.
by exists A, v, (tdx (trm s)), (tlam (trm s)); case: (trm s) A v.
Qed.
Lemma fwd_nodes_frame d (l : seq node) tn xg ug :
  let r := fwd_nodes d l tn xg ug in
  List.Forall2 node_frame l (fst (fst r)) /\ tnode_frame tn (snd (fst r)).
Proof.
elim: l d xg ug => [|a l IH] d xg ug.
  split; first by constructor.
  exists (tVxx tn), (tVx tn), d, (vadd E (tVx tn) (mmulv E (tVxx tn) (vsub E d (tfs tn)))).
  by case: tn.
cbn [fwd_nodes]; set d' := vadd E _ _; set xg' := radd E _ _; set ug' := radd E _ _.
have [H1 H2] := IH d' xg' ug'.
split=> //=; constructor=> //.
by exists (val a), (mkDirs d (fwd_du a d) (fwd_lam a d)); case: a {d' ug' H1 H2}.
Qed.
Lemma forwardPass_frame (s : traj M) : traj_frame s (fst (forwardPass s)).
Proof. exact: fwd_nodes_frame. Qed.

Lemma frame_hd_fs (l l' : seq node) tn tn' : List.Forall2 node_frame l l' -> tnode_frame tn tn' ->
  hd_fs l' tn' = hd_fs l tn.
Proof. by case=> [[A [v [d [y ->]]]]|a b {}l {}l' [v [e ->]] _]. Qed.

Variable x0 : mX M.
Variable c : scfg E.
(** the traj on which the subproblem is built *)
Definition direction_base (recalc : bool) (s : sqp M) : traj M :=
  if recalc then fst (calcDiff x0 (q_iter s) (q_tr s)) else q_tr s.
Lemma sqp_direction_frame recalc (s : sqp M) :
  traj_frame (direction_base recalc s) (q_tr (snd (sqp_computeDirection x0 c recalc s))).
Proof.
rewrite /sqp_computeDirection /direction_base.
set s1 := if recalc then _ else s.
have -> : (if recalc then (calcDiff x0 (q_iter s) (q_tr s)).1 else q_tr s) = q_tr s1.
  by rewrite /s1; case: (recalc).
case: ifP => _ /=; last exact: backwardPass_frame.
exact: traj_frame_trans (backwardPass_frame _ _ _ _) (forwardPass_frame _).
Qed.
Lemma sqp_direction_reg recalc (s : sqp M) :
  let s' := snd (sqp_computeDirection x0 c recalc s) in q_preg s' = q_preg s /\ q_dreg s' = q_dreg s.
Proof. by rewrite /sqp_computeDirection; case: recalc; case: ifP. Qed.

(** calcDiff keeps the direction arrays *)
Lemma calcDiff_hd_dx iter (s : traj M) :
  hd_dx (run (fst (calcDiff x0 iter s))) (trm (fst (calcDiff x0 iter s))) = hd_dx (run s) (trm s).
Proof. by rewrite /calcDiff; case: ifP => _ /=; case: s => [[|a l] tn]. Qed.
Lemma sqp_direction_hd_dx recalc (s : sqp M) :
  let t := q_tr (snd (sqp_computeDirection x0 c recalc s)) in
  hd_dx (run t) (trm t) = hd_dx (run (q_tr s)) (trm (q_tr s)).
Proof.
rewrite /sqp_computeDirection.
set s1 := if recalc then _ else s.
have <- : hd_dx (run (q_tr s1)) (trm (q_tr s1)) = hd_dx (run (q_tr s)) (trm (q_tr s)).
  by rewrite /s1; case: (recalc) => //=; rewrite calcDiff_hd_dx.
have B (p d : R E) feas (t : traj M) : hd_dx (run (snd (backwardPass p d feas t))) (trm (snd (backwardPass p d feas t)))
   = hd_dx (run t) (trm t).
  case: t => [[|a l] tn] //=; case: ifP => _ //=.
  by rewrite /bwd_node; case: ifP.
case: ifP => _ /=; last exact: B.
have Fw (t : traj M) : hd_dx (run (fst (forwardPass t))) (trm (fst (forwardPass t))) = hd_dx (run t) (trm t).
  by case: t => [[|a l] tn].
rewrite -[RHS](B (q_preg s1) (q_dreg s1) false (q_tr s1)); exact: (Fw (snd (backwardPass _ _ _ _))).
Qed.
End Frame.
