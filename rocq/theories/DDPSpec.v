(** * Specification of a call of SolverDDP::solve as a sequence of accepted steps. *)
From Coq Require Import ZArith List Bool Arith.
From Verif Require Import Eigen Problem DDP RollSpec.
Import ListNotations.
Set Implicit Arguments.
Unset Strict Implicit.

Section Spec.
Variable E : Eig.
Variable M : manifold E.
Notation R := (R E).
Notation vec := (vec E).
Notation X := (mX M).

(** one accepted step *)
Record accepted := mkAccepted {
  a_from : traj M;     (* candidate, its linearisation and the gains, when the step is tried *)
  a_cost : R;          (* its cost *)
  a_feas : bool;       (* is it marked feasible *)
  a_reg : R * R;       (* preg_, dreg_ of the backward pass *)
  a_step : R;          (* step length *)
  a_to : traj M;       (* the new candidate *)
  a_cost' : R          (* its cost *)
}.

(** the two coefficients of the expected decrease: sum of Qu.k and minus sum of k.(Quu k)
    over the nodes with controls *)
Fixpoint sum_quk (acc : R) (l : list (node M)) : R :=
  match l with
  | [] => acc
  | n :: l' => sum_quk (if nu (nm n) =? 0 then acc else radd E acc (vdot E (Qu (val n)) (gk (val n)))) l'
  end.
Fixpoint sum_kquuk (acc : R) (l : list (node M)) : R :=
  match l with
  | [] => acc
  | n :: l' => sum_kquuk (if nu (nm n) =? 0 then acc else rsub E acc (vdot E (gk (val n)) (Quuk (val n)))) l'
  end.
(** a (d0 + 0.5 a d1) *)
Definition expected_decrease (a : R) (l : list (node M)) : R :=
  rmul E a (radd E (sum_quk (r0 E) l) (rmul E (rmul E (rlit E 1 2) a) (sum_kquuk (r0 E) l))).

Variables (ms : list (amodel M)) (tmod : tmodel M) (x0 : X) (c : cfg E).

(** SolverDDP's acceptance rule (documented for solve): the expected decrease is not
    negative, and the gradient term is below th_grad, or the candidate is infeasible, or
    the achieved decrease exceeds th_acceptstep times the expected one *)
Definition accept_rule (r : accepted) : Prop :=
  rge (expected_decrease (a_step r) (run (a_from r))) (r0 E) = true /\
  (rlt E (sum_quk (r0 E) (run (a_from r))) (c_grad c) = true \/ a_feas r = false \/
   rgt (rsub E (a_cost r) (a_cost' r)) (rmul E (c_accept c) (expected_decrease (a_step r) (run (a_from r)))) = true).

Record accepted_ok (r : accepted) : Prop := mkAcceptedOk {
  ao_alpha : In (a_step r) (c_alphas c);
  ao_range : rgt (a_step r) (r1 E) || rlt E (a_step r) (r0 E) = false;
  (** the candidate belongs to the problem *)
  ao_models : map (@nm E M) (run (a_from r)) = ms;
  ao_term : tm (trm (a_from r)) = tmod;
  (** the linearisation the step is based on is that of the candidate *)
  ao_lin : linearised (a_feas r) x0 (r0 E) (run (a_from r)) (trm (a_from r)) (a_cost r);
  (** the gains come from a successful backward pass *)
  ao_bwd : exists t, backwardPass (fst (a_reg r)) (snd (a_reg r)) (a_feas r) t = (true, a_from r);
  (** the new candidate follows the policy and is the roll-out of its controls *)
  ao_policy : Forall2 (follows (a_step r)) (run (a_from r)) (run (a_to r));
  ao_rollout : exists cr, rollout ms x0 (r0 E) (get_us (a_to r)) (get_xs (a_to r)) cr /\
                          rollout_cost tmod cr (get_xs (a_to r)) (a_cost' r);
  (** along which nothing is NaN or overflows *)
  ao_finite : finite_run tmod ms (r0 E) (get_us (a_to r)) (get_xs (a_to r));
  ao_rule : accept_rule r
}.

(** consecutive candidates: from the guess through all accepted steps *)
Fixpoint steps_from (xs : list X) (us : list {k : nat & vec k}) (feas : bool) (cost : option R)
    (rs : list accepted) : list X * list {k : nat & vec k} * bool * option R :=
  match rs with
  | [] => (xs, us, feas, cost)
  | r :: rs' => steps_from (get_xs (a_to r)) (get_us (a_to r)) true (Some (a_cost' r)) rs'
  end.
Fixpoint chained (xs : list X) (us : list {k : nat & vec k}) (feas : bool) (cost : option R)
    (rs : list accepted) : Prop :=
  match rs with
  | [] => True
  | r :: rs' => get_xs (a_from r) = xs /\ get_us (a_from r) = us /\ a_feas r = feas /\
      (forall v, cost = Some v -> a_cost r = v) /\
      chained (get_xs (a_to r)) (get_us (a_to r)) true (Some (a_cost' r)) rs'
  end.
End Spec.
