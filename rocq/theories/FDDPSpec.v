(** * Specification of a call of SolverFDDP::solve as a sequence of accepted steps. *)
From Coq Require Import ZArith List Bool Arith.
From Verif Require Import Eigen Problem DDP SQP RollSpec.
Import ListNotations.
Set Implicit Arguments.
Unset Strict Implicit.

Section Spec.
Variable E : Eig.
Variable M : manifold E.
Notation R := (R E).
Notation vec := (vec E).
Notation X := (mX M).
Notation node := (node M).
Notation tnode := (tnode M).

(** the state of a node whose predecessor leads to [xin] and whose present gap is [f]:
    a full step closes the gap, a shorter one keeps the fraction 1 - a of it *)
Definition arrive (full : bool) (a : R) (xin : X) (f : vec (mndx M)) : X :=
  if full then xin else integrate M xin (vscale E (rsub E a (r1 E)) f).

(** [shoot full a l f xin acc g us xs cost dist]: from the incoming state [xin], the
    controls [us] lead through the models of [l] to the states [xs], each obtained by
    [arrive] from the image of its predecessor and the present gap of its node ([f] is the
    terminal gap).  [cost] adds the running costs to [acc] and [dist] adds
    |xnext_t - x_t|_1 to [g]. *)
Inductive shoot (full : bool) (a : R) : list node -> vec (mndx M) -> X -> R -> R ->
    list {k : nat & vec k} -> list X -> R -> R -> Prop :=
  | shoot_end f xin acc g : shoot full a [] f xin acc g [] [arrive full a xin f] acc g
  | shoot_step n l f xin acc g (u : vec (nu (nm n))) us xs cost dist :
      shoot full a l f (axnext (nm n) (aeval (arrive full a xin (fs n)) u))
        (radd E acc (acost (nm n) (aeval (arrive full a xin (fs n)) u)))
        (radd E g (vl1 E (diff M (arrive full a xin (fs n))
                                 (axnext (nm n) (aeval (arrive full a xin (fs n)) u)))))
        us xs cost dist ->
      shoot full a (n :: l) f xin acc g (existT vec (nu (nm n)) u :: us) (arrive full a xin (fs n) :: xs) cost dist.

(** one accepted step *)
Record faccepted := mkFaccepted {
  fa_from : traj M; fa_cost : R; fa_feas : bool; fa_reg : R * R;  (* the candidate left *)
  fa_hist : list (R * R);   (* (cost, gap norm) at every iteration of this call so far, latest first *)
  fa_step : R;
  fa_to : traj M; fa_cost' : R; fa_dist : R   (* the candidate reached *)
}.
(** is the roll-out closed (a "full" step)? *)
Definition fa_full (r : faccepted) : bool := fa_feas r || req E (fa_step r) (r1 E).

(** expected change of the cost, a (d0 + a d1 / 2), from the value function at the old
    candidate and the trial states; the gaps enter only when the candidate is infeasible *)
Fixpoint sum_dg (feas : bool) (acc : R) (l : list node) : R :=
  match l with
  | [] => acc
  | n :: l' =>
      let b := if nu (nm n) =? 0 then acc else radd E acc (vdot E (Qu (val n)) (gk (val n))) in
      sum_dg feas (if feas then b else rsub E b (vdot E (Vx (val n)) (fs n))) l'
  end.
Fixpoint sum_dq (feas : bool) (acc : R) (l : list node) : R :=
  match l with
  | [] => acc
  | n :: l' =>
      let b := if nu (nm n) =? 0 then acc else rsub E acc (vdot E (gk (val n)) (Quuk (val n))) in
      sum_dq feas (if feas then b else radd E b (vdot E (fs n) (mmulv E (Vxx (val n)) (fs n)))) l'
  end.
Fixpoint sum_dv (acc : R) (l : list node) (xs : list X) : R :=
  match l, xs with
  | n :: l', x :: xs' =>
      sum_dv (rsub E acc (vdot E (fs n) (mmulv E (Vxx (val n)) (diff M x (px (pt n)))))) l' xs'
  | _, _ => acc
  end.
Definition coef_dg (feas : bool) (t : traj M) : R :=
  sum_dg feas (if feas then r0 E else rsub E (r0 E) (vdot E (tVx (trm t)) (tfs (trm t)))) (run t).
Definition coef_dq (feas : bool) (t : traj M) : R :=
  sum_dq feas (if feas then r0 E else radd E (r0 E) (vdot E (tfs (trm t)) (mmulv E (tVxx (trm t)) (tfs (trm t))))) (run t).
(** [xs] are the trial states, the last one belongs to the terminal node *)
Definition coef_dv (feas : bool) (t : traj M) (xs : list X) : R :=
  if feas then r0 E
  else sum_dv (rsub E (r0 E) (vdot E (tfs (trm t)) (mmulv E (tVxx (trm t)) (diff M (last xs (xzero M)) (tx (trm t))))))
         (run t) xs.
Definition coef_d0 (r : faccepted) : R :=
  radd E (coef_dg (fa_feas r) (fa_from r)) (coef_dv (fa_feas r) (fa_from r) (get_xs (fa_to r))).
Definition coef_d1 (r : faccepted) : R :=
  rsub E (coef_dq (fa_feas r) (fa_from r))
    (rmul E (rlit E 2 1) (coef_dv (fa_feas r) (fa_from r) (get_xs (fa_to r)))).
Definition fexpected (r : faccepted) : R :=
  rmul E (fa_step r) (radd E (coef_d0 r) (rmul E (rmul E (rlit E 1 2) (fa_step r)) (coef_d1 r))).

Variables (ms : list (amodel M)) (tmod : tmodel M) (x0 : X) (dc : cfg E) (filter : bool) (fsize : nat) (neg : R).

(** the acceptance tests *)
Definition filter_rule (r : faccepted) : Prop :=
  forall p, In p (firstn fsize (fa_hist r)) ->
    rle E (fst p) (fa_cost' r) && rle E (snd p) (fa_dist r) = false.
Definition expect_rule (r : faccepted) : Prop :=
  if rge (fexpected r) (r0 E)
  then rlt E (coef_d0 r) (c_grad dc) = true \/
       rgt (rsub E (fa_cost r) (fa_cost' r)) (rmul E (c_accept dc) (fexpected r)) = true
  else rgt (rsub E (fa_cost r) (fa_cost' r)) (rmul E neg (fexpected r)) = true.

Record faccepted_ok (r : faccepted) : Prop := mkFacceptedOk {
  fo_alpha : In (fa_step r) (c_alphas dc);
  fo_range : rgt (fa_step r) (r1 E) || rlt E (fa_step r) (r0 E) = false;
  fo_lin : linearised (fa_feas r) x0 (r0 E) (run (fa_from r)) (trm (fa_from r)) (fa_cost r);
  fo_bwd : exists t, backwardPass (fst (fa_reg r)) (snd (fa_reg r)) (fa_feas r) t = (true, fa_from r);
  fo_policy : Forall2 (follows (fa_step r)) (run (fa_from r)) (run (fa_to r));
  fo_shoot : map (@nm E M) (run (fa_from r)) = ms /\
    exists cr, shoot (fa_full r) (fa_step r) (run (fa_from r)) (tfs (trm (fa_from r))) x0 (r0 E) (r0 E)
                  (get_us (fa_to r)) (get_xs (fa_to r)) cr (fa_dist r) /\
               rollout_cost tmod cr (get_xs (fa_to r)) (fa_cost' r);
  fo_finite : finite_run tmod ms (r0 E) (get_us (fa_to r)) (get_xs (fa_to r));
  fo_rule : if filter then filter_rule r else expect_rule r
}.

(** feasibility mark of the candidate reached *)
Definition fa_feas' (r : faccepted) : bool := if filter then false else fa_full r.

(** consecutive candidates: states, controls, mark, cost, recorded history *)
Record fcand := mkFcand {
  cd_xs : list X; cd_us : list {k : nat & vec k}; cd_feas : bool; cd_cost : option R; cd_hist : list (R * R)
}.
Definition fcand_after (r : faccepted) : fcand :=
  mkFcand (get_xs (fa_to r)) (get_us (fa_to r)) (fa_feas' r) (Some (fa_cost' r)) (fa_hist r).
Fixpoint fsteps_from (z : fcand) (rs : list faccepted) : fcand :=
  match rs with [] => z | r :: rs' => fsteps_from (fcand_after r) rs' end.
(** the step starts from candidate [z]; since then, one or more iterations recorded its
    cost and the 1-norm of its gaps *)
Definition starts_at (z : fcand) (r : faccepted) : Prop :=
  get_xs (fa_from r) = cd_xs z /\ get_us (fa_from r) = cd_us z /\ fa_feas r = cd_feas z /\
  (forall v, cd_cost z = Some v -> fa_cost r = v) /\
  exists m, fa_hist r = repeat (fa_cost r, gap_l1 (fa_from r)) (S m) ++ cd_hist z.
Fixpoint fchained (z : fcand) (rs : list faccepted) : Prop :=
  match rs with [] => True | r :: rs' => starts_at z r /\ fchained (fcand_after r) rs' end.
End Spec.
