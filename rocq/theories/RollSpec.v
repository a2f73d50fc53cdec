(** * Specification for the roll-out solvers SolverDDP and SolverFDDP.

    Everything here refers to the problem's models and to plain lists of states and
    controls; nothing refers to the solvers' trial arrays or passes. *)
From Coq Require Import ZArith List Bool Arith.
From Verif Require Import Eigen Problem.
Import ListNotations.
Set Implicit Arguments.
Unset Strict Implicit.

Section Roll.
Variable E : Eig.
Variable M : manifold E.
Notation R := (R E).
Notation vec := (vec E).
Notation X := (mX M).
Notation node := (node M).
Notation tnode := (tnode M).

(** the evaluation of one node in a roll-out: calc(data, x, u), or calc(data, x) for a
    model without controls *)
Definition aeval (m : amodel M) (x : X) (u : vec (nu m)) : amem m :=
  if nu m =? 0 then acalc0 m x else acalc m x u.

(** [rollout ms x acc us xs cost]: applying the controls [us] from [x] through the
    dynamics of [ms] visits exactly the states [xs] (first one [x]), and the running
    costs add up, in order and starting from [acc], to [cost]. *)
Inductive rollout : list (amodel M) -> X -> R -> list {k : nat & vec k} -> list X -> R -> Prop :=
  | roll_end x acc : rollout [] x acc [] [x] acc
  | roll_step m ms x acc u us xs cost :
      rollout ms (axnext m (aeval x u)) (radd E acc (acost m (aeval x u))) us xs cost ->
      rollout (m :: ms) x acc (existT vec (nu m) u :: us) (x :: xs) cost.
(** total cost of a roll-out that ends at [xs]'s last state *)
Definition rollout_cost (tmod : tmodel M) (running : R) (xs : list X) (cost : R) : Prop :=
  exists x, last xs (xzero M) = x /\ cost = radd E running (tcost tmod (tcalc tmod x)).

(** [finite_run tmod ms acc us xs]: with the states [xs] and controls [us], no running cost
    accumulated from [acc], no successor state and not the total cost is NaN, infinite or
    beyond 1e30 (crocoddyl's raiseIfNaN; for a state, on its largest coordinate [xnorm]). *)
Inductive finite_run (tmod : tmodel M) : list (amodel M) -> R -> list {k : nat & vec k} -> list X -> Prop :=
  | finite_end acc x :
      raiseIfNaN (radd E acc (tcost tmod (tcalc tmod x))) = false -> finite_run tmod [] acc [] [x]
  | finite_step m ms acc x u us xs :
      raiseIfNaN (radd E acc (acost m (aeval x u))) = false ->
      raiseIfNaN (xnorm M (axnext m (aeval x u))) = false ->
      finite_run tmod ms (radd E acc (acost m (aeval x u))) us xs ->
      finite_run tmod (m :: ms) acc (existT vec (nu m) u :: us) (x :: xs).

(** the data of a node is an evaluation of its model at its current (x, u).  (The
    shooting problem evaluates a model without controls through calc(data, x, u), a
    roll-out through calc(data, x).) *)
Definition evals (n : node) (e : amem (nm n)) : Prop :=
  e = acalc (nm n) (px (pt n)) (pu (pt n)) \/ (nu (nm n) =? 0) = true /\ e = acalc0 (nm n) (px (pt n)).

(** defect of a node whose predecessor leads to [xin]; a candidate declared feasible
    has its defects set to zero *)
Definition defect (feas : bool) (x xin : X) : vec (mndx M) := if feas then vzero E else diff M x xin.

(** [linearised feas xin acc l tn cost]: the derivatives stored in the nodes are those of
    the models at the current candidate (xs, us), the stored gaps are its defects, and its
    costs add up to [cost]; [xin] is the state the first node should have. *)
Fixpoint linearised (feas : bool) (xin : X) (acc : R) (l : list node) (tn : tnode) (cost : R) : Prop :=
  match l with
  | [] => tfs tn = defect feas (tx tn) xin /\ tder tn = tdiff (tm tn) (tcalc (tm tn) (tx tn)) (tx tn) /\
          cost = radd E acc (tcost (tm tn) (tcalc (tm tn) (tx tn)))
  | n :: l' => fs n = defect feas (px (pt n)) xin /\
      exists e, evals e /\ der n = adiff (nm n) e (px (pt n)) (pu (pt n)) /\
                linearised feas (axnext (nm n) e) (radd E acc (acost (nm n) e)) l' tn cost
  end.

(** the control applied at node [n] when the roll-out arrives at [x]: the candidate's
    control, [a] times the feed-forward term and the feedback on the deviation *)
Definition policy (a : R) (n : node) (x : X) : vec (nu (nm n)) :=
  vsub E (vsub E (pu (pt n)) (vscale E a (gk (val n)))) (mmulv E (gK (val n)) (diff M (px (pt n)) x)).
(** [n'] is [n] moved by the policy *)
Definition follows (a : R) (n n' : node) : Prop :=
  (nu (nm n) =? 0) = false ->
  existT vec (nu (nm n')) (pu (pt n')) = existT vec (nu (nm n)) (policy a n (px (pt n'))).
End Roll.
