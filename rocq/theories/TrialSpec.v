(** * Specification: trial points of the line searches.

    What evaluating a step length [a] means, as a function of the current
    candidate (xs, us) and direction (dx, du) only; nothing here refers to the
    solver's trial arrays, except that a node without controls keeps its empty
    control vector. *)
From Coq Require Import ZArith List Bool Arith.
From Verif Require Import Eigen Problem CSQP.
Import ListNotations.
Set Implicit Arguments.
Unset Strict Implicit.

Section Trial.
Variable E : Eig.
Variable M : manifold E.
Notation R := (R E).
Notation vec := (vec E).
Notation node := (node M).
Notation tnode := (tnode M).

(** x_t (+) a dx_t and u_t + a du_t *)
Definition trial_x (a : R) (nd : node) : mX M := integrate M (px (pt nd)) (vscale E a (dx (dir nd))).
Definition trial_u (a : R) (nd : node) : vec (nu (nm nd)) :=
  if nu (nm nd) =? 0 then put (pt nd) else vadd E (pu (pt nd)) (vscale E a (du (dir nd))).
Definition trial_tx (a : R) (tn : tnode) : mX M := integrate M (tx tn) (vscale E a (tdx tn)).
(** model evaluation there *)
Definition trial_eval (a : R) (nd : node) : amem (nm nd) := acalc (nm nd) (trial_x a nd) (trial_u a nd).
Definition trial_teval (a : R) (tn : tnode) : tmem (tm tn) := tcalc (tm tn) (trial_tx a tn).

(** the trial trajectory *)
Definition trial_xs (a : R) (t : traj M) : list (mX M) :=
  map (trial_x a) (run t) ++ [trial_tx a (trm t)].
Definition trial_us (a : R) (t : traj M) : list {k : nat & vec k} :=
  map (fun nd => existT vec (nu (nm nd)) (trial_u a nd)) (run t).

(** running costs summed in node order, then the terminal cost *)
Definition trial_rcost (a : R) (l : list node) : R :=
  fold_left (fun c nd => radd E c (acost (nm nd) (trial_eval a nd))) l (r0 E).
Definition trial_cost (a : R) (t : traj M) : R :=
  radd E (trial_rcost a (run t)) (tcost (tm (trm t)) (trial_teval a (trm t))).
(** defects x_{t+1}' (-) f(x_t', u_t') in 1-norm, summed in node order *)
Definition trial_next_x (a : R) (l : list node) (tn : tnode) : mX M :=
  match l with [] => trial_tx a tn | nd :: _ => trial_x a nd end.
Fixpoint trial_defects (a : R) (l : list node) (tn : tnode) (acc : R) : R :=
  match l with
  | [] => acc
  | nd :: l' =>
      trial_defects a l' tn
        (radd E acc (vl1 E (diff M (trial_next_x a l' tn) (axnext (nm nd) (trial_eval a nd)))))
  end.
Definition trial_gap (a : R) (t : traj M) : R := trial_defects a (run t) (trm t) (r0 E).
(** violation of lb <= g <= ub in 1-norm, summed in node order *)
Definition violation {n} (lb ub : bvec E n) (g : vec n) (acc : R) : R :=
  radd E (radd E acc (vl1 E (viol_lb E lb g))) (vl1 E (viol_ub E ub g)).
Definition trial_con (a : R) (t : traj M) : R :=
  let tn := trm t in
  violation (tlb (tm tn)) (tub (tm tn)) (tg (tm tn) (trial_teval a tn))
    (fold_left (fun c nd => violation (alb (nm nd)) (aub (nm nd)) (ag (nm nd) (trial_eval a nd)) c)
       (run t) (r0 E)).

(** the trial is evaluated without raising: step length in [0,1] and no partial
    sum of the cost is NaN, infinite or >= 1e30 *)
Fixpoint costs_ok (a : R) (l : list node) (c : R) : bool :=
  match l with
  | [] => true
  | nd :: l' =>
      let c' := radd E c (acost (nm nd) (trial_eval a nd)) in
      negb (raiseIfNaN c') && costs_ok a l' c'
  end.
Definition step_in_range (a : R) : bool := negb (rgt a (r1 E) || rlt E a (r0 E)).
Definition trial_ok (a : R) (t : traj M) : bool :=
  step_in_range a && costs_ok a (run t) (r0 E) && negb (raiseIfNaN (trial_cost a t)).

(** ** Hypothesis on the state space and the initial state: adding a multiple
    (by a step length of the list) of the zero displacement to x0 gives x0, and
    x0 (-) x0 has norm 0.  Holds for every x0 of a Euclidean
    state space in exact arithmetic and e.g. for every finite x0 without
    negative zeros in binary64 when no step length is NaN. *)
Definition zero_ok (als : list R) (x0 : mX M) : Prop :=
  (forall a, In a als -> step_in_range a = true -> integrate M x0 (vscale E a (vzero E)) = x0) /\
  radd E (r0 E) (vl1 E (diff M x0 x0)) = r0 E.

(** ** Values of a candidate evaluated from scratch (fresh calls of calc) *)
Definition fresh_mem (nd : node) : amem (nm nd) := acalc (nm nd) (px (pt nd)) (pu (pt nd)).
Definition fresh_tmem (tn : tnode) : tmem (tm tn) := tcalc (tm tn) (tx tn).
End Trial.
