(** * Specification: distance of an ADMM state of SolverCSQP to a solution of the
    subproblem, and the progress of one iteration.

    A reference solution is a trajectory [ts] with the same problem data whose
    exposed direction and multipliers satisfy the KKT conditions ([qp_kkt]).
    Everything is written coordinate by coordinate. *)
From Coq Require Import ZArith.
Set Warnings "-notation-overridden,-ambiguous-paths".
From mathcomp Require Import all_ssreflect all_algebra.
From Verif Require Import Eigen EigenExact Problem LQSpec SubQP ADMMSpec.

Set Implicit Arguments.
Unset Strict Implicit.
Unset Printing Implicit Defensive.

Import GRing.Theory Num.Theory.
Local Open Scope ring_scope.

Section Spec.
Variable F : realFieldType.
Variable sq : F -> F.
Notation E := (ExactE sq).
Variable M : manifold E.
Notation n := (mndx M).
Notation node := (node M).
Notation tnode := (tnode M).

(** coordinate i of a vector, 0 outside its range *)
Definition coord m (v : 'cV[F]_m) (i : nat) : F := if insub i is Some j then v j 0 else 0.
Definition sq_dist m (v : 'cV[F]_m) k (w : 'cV[F]_k) : F := \sum_(i < m) (coord v i - coord w i) ^+ 2.
(** for rows with penalties w: sum of w_i (z_i - c_i + (y_i - y'_i) / w_i)^2 *)
Definition rows_dist m (w z y : 'cV[F]_m) k (c y' : 'cV[F]_k) : F :=
  \sum_(i < m) coord w i * (coord z i - coord c i + (coord y i - coord y' i) / coord w i) ^+ 2.
(** sum of w_i (c_i - z_i)^2 *)
Definition rows_gap m (w z : 'cV[F]_m) k (c : 'cV[F]_k) : F :=
  \sum_(i < m) coord w i * (coord c i - coord z i) ^+ 2.

Variables (rmin rho alpha sigma : F).
Definition weights (nd : node) : 'cV[F]_(ng (nm nd)) :=
  \matrix_(i, j) penalty rmin rho ((alb (nm nd) : 'cV[option F]_(ng (nm nd))) i j) ((aub (nm nd) : 'cV[option F]_(ng (nm nd))) i j).
Definition tweights (tn : tnode) : 'cV[F]_(tng (tm tn)) :=
  \matrix_(i, j) penalty rmin rho ((tlb (tm tn) : 'cV[option F]_(tng (tm tn))) i j) ((tub (tm tn) : 'cV[option F]_(tng (tm tn))) i j).

(** distance of the state [t] (z, y, dx, du) to the reference [ts] (G dx + G du,
    y, dx, du) *)
Definition node_distance (nd ns : node) : F :=
  @rows_dist (ng (nm nd)) (weights nd) (az (adm nd)) (ay (adm nd)) (ng (nm ns)) (node_lin ns) (ay (adm ns))
  + alpha * sigma * (@sq_dist n (dx (dir nd)) n (dx (dir ns)) + @sq_dist (nu (nm nd)) (du (dir nd)) (nu (nm ns)) (du (dir ns))).
Definition tnode_distance (tn ts : tnode) : F :=
  @rows_dist (tng (tm tn)) (tweights tn) (taz tn) (tay tn) (tng (tm ts)) (tnode_lin ts) (tay ts)
  + alpha * sigma * @sq_dist n (tdx tn) n (tdx ts).
Fixpoint sum2 (f : node -> node -> F) (l l' : seq node) : F :=
  match l, l' with nd :: l1, nd' :: l1' => f nd nd' + sum2 f l1 l1' | _, _ => 0 end.
Definition distance (t ts : traj M) : F :=
  sum2 node_distance (run t) (run ts) + tnode_distance (trm t) (trm ts).

(** progress from the state [t] to the state [t'] after one iteration: the new
    direction against the old z, and the change of the direction *)
Definition node_progress (nd nd' : node) : F :=
  alpha * (2%:R - alpha) * @rows_gap (ng (nm nd)) (weights nd) (az (adm nd)) (ng (nm nd')) (node_lin nd')
  + alpha * sigma * (@sq_dist n (dx (dir nd)) n (dx (dir nd')) + @sq_dist (nu (nm nd)) (du (dir nd)) (nu (nm nd')) (du (dir nd'))).
Definition tnode_progress (tn tn' : tnode) : F :=
  alpha * (2%:R - alpha) * @rows_gap (tng (tm tn)) (tweights tn) (taz tn) (tng (tm tn')) (tnode_lin tn')
  + alpha * sigma * @sq_dist n (tdx tn) n (tdx tn').
Definition progress (t t' : traj M) : F :=
  sum2 node_progress (run t) (run t') + tnode_progress (trm t) (trm t').

(** ** Sensitivity of the dual residual.  [K] bounds how much the dual residual the
    solver reports for the rows of a node can exceed the largest change of z: with
    update_rho_with_heuristic the residual is rho (z - z_prev), without it G' of
    that. *)
Definition column_bound m k (G : 'M[F]_(m, k)) (w : 'cV[F]_m) (K : F) : Prop :=
  forall j, \sum_(i < m) `|G i j| * w i 0 <= K.
Definition node_gain (heur : bool) (K : F) (nd : node) : Prop :=
  if heur then forall i, weights nd i 0 <= K
  else column_bound (Gx (der nd) : 'M[F]_(ng (nm nd), n)) (weights nd) K /\
       column_bound (Gu (der nd) : 'M[F]_(ng (nm nd), nu (nm nd))) (weights nd) K.
Definition tnode_gain (heur : bool) (K : F) (tn : tnode) : Prop :=
  if heur then forall i, tweights tn i 0 <= K
  else column_bound (tGx (tder tn) : 'M[F]_(tng (tm tn), n)) (tweights tn) K.
Definition dual_gain (heur : bool) (K : F) (t : traj M) : Prop :=
  (forall nd, List.In nd (run t) -> node_gain heur K nd) /\ tnode_gain heur K (trm t).
End Spec.
