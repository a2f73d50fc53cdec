(** * Specification: what a run of solve looks like from outside.

    A run is a sequence of rounds.  Round i computes a direction at the current
    iterate, calls every registered callback in order with iteration number i,
    then searches along the direction: the first step length of the list that
    satisfies the acceptance rule is taken, or none. *)
From Coq Require Import List Bool Arith.
From Verif Require Import Eigen Problem DDP CSQP TrialSpec.
Import ListNotations.
Set Implicit Arguments.
Unset Strict Implicit.
Set Asymmetric Patterns.

(** Regularisation values reachable from [p] by increaseRegularization and
    decreaseRegularization *)
Inductive reg_reach E (c : cfg E) (p : R E) : R E -> Prop :=
  | reach_start : reg_reach c p p
  | reach_inc q : reg_reach c p q -> reg_reach c p (inc_reg c q)
  | reach_dec q : reg_reach c p q -> reg_reach c p (dec_reg c q).

Section Trace.
Variable E : Eig.
Notation R := (R E).

(** an accepted trial: step length, cost, gap norm, constraint norm, merit *)
Record accepted := mkAccepted { a_step : R; a_cost : R; a_gap : R; a_con : R; a_merit : R }.

Variable M : manifold E.
(** one round: the iterate with its derivatives and direction, the values shown
    to the callbacks, the values of the iterate the line search starts from, and
    its result *)
Record round := mkRound {
  r_tr : traj M;
  r_kkt : R; r_cbmerit : R; r_step : R;
  r_cost : R; r_gap : R; r_con : R; r_merit : R;
  r_acc : option accepted
}.

(** the events a user observes; clock checks and the start of SQP and QP
    iterations of SolverCSQP are left out *)
Definition visible (e : event E) : bool :=
  match e with EvClock _ | EvIter _ | EvQP _ => false | _ => true end.
Definition observed (log : list (event E)) : list (event E) := filter visible (rev log).

(** every callback 0..ncb-1 once, in order *)
Definition callback_trace (ncb i : nat) (kkt cost merit step : R) : list (event E) :=
  map (fun j => EvCallback E j i kkt cost merit step) (seq 0 ncb).
Definition round_trace (ncb i : nat) (r : round) : list (event E) :=
  callback_trace ncb i (r_kkt r) (r_cost r) (r_cbmerit r) (r_step r) ++
  [EvLineSearch E i (r_cost r) (r_gap r) (r_con r) (r_merit r);
   match r_acc r with
   | Some a => EvAccept E i (a_step a) (a_cost a) (a_gap a) (a_con a) (a_merit a)
   | None => EvReject E i
   end].
(** rounds numbered i, i+1, ... *)
Fixpoint rounds_trace (ncb i : nat) (rs : list round) : list (event E) :=
  match rs with
  | [] => []
  | r :: rs' => round_trace ncb i r ++ rounds_trace ncb (S i) rs'
  end.

(** ** Line searches *)
(** the parameters of a line search: step lengths in order, filter or merit rule,
    filter size, whether constraints take part (SolverCSQP), merit function of
    (cost, gap norm, constraint norm), whose weights may depend on the iterate's
    multipliers *)
Record lsrule := mkRule {
  ls_alphas : list R; ls_filter : bool; ls_size : nat; ls_usecon : bool;
  ls_merit : traj M -> R -> R -> R -> R
}.
(** the trial of step length [a] from iterate/direction [t] *)
Definition trial_of (p : lsrule) (t : traj M) (a : R) : accepted :=
  let con := if ls_usecon p then trial_con a t else r0 E in
  mkAccepted a (trial_cost a t) (trial_gap a t) con (ls_merit p t (trial_cost a t) (trial_gap a t) con).
(** the iterate of round [r] is at least as good as the trial in every respect *)
Definition dominates (p : lsrule) (v : accepted) (r : round) : bool :=
  rle E (r_cost r) (a_cost v) && rle E (r_gap r) (a_gap v)
    && (negb (ls_usecon p) || rle E (r_con r) (a_con v)).
(** the last [n] elements of a list, most recent first *)
Definition recent {A} (n : nat) (l : list A) : list A := firstn n (rev l).
(** acceptance of step length [a] in round [r], after the rounds [prev]: the
    trial can be evaluated; filter rule: it is not dominated by any of the
    [ls_size] most recent iterates of this solve (the current one included);
    merit rule: its merit is strictly smaller than the current one *)
Definition admissible (p : lsrule) (prev : list round) (r : round) (a : R) : bool :=
  let v := trial_of p (r_tr r) a in
  trial_ok a (r_tr r) &&
  (if ls_filter p
   then negb (existsb (dominates p v) (recent (ls_size p) (prev ++ [r])))
   else rlt E (a_merit v) (r_merit r)).
(** every line search takes the first admissible step length, if there is one *)
Definition rounds_searched (p : lsrule) (rs : list round) : Prop :=
  forall i r, nth_error rs i = Some r ->
    r_acc r = option_map (trial_of p (r_tr r)) (find (admissible p (firstn i rs) r) (ls_alphas p)).

(** the models of a trajectory *)
Definition models (t : traj M) : list (amodel M) * tmodel M := (map (@nm E M) (run t), tm (trm t)).

(** ** Iterates *)
Definition next_xs (r : round) : list (mX M) :=
  match r_acc r with Some a => trial_xs (a_step a) (r_tr r) | None => get_xs (r_tr r) end.
Definition next_us (r : round) : list {k : nat & vec E k} :=
  match r_acc r with Some a => trial_us (a_step a) (r_tr r) | None => get_us (r_tr r) end.
(** starting from (xs, us), the rounds lead to (xs', us') *)
Fixpoint iterates (xs : list (mX M)) (us : list {k : nat & vec E k}) (rs : list round)
    (xs' : list (mX M)) (us' : list {k : nat & vec E k}) : Prop :=
  match rs with
  | [] => xs' = xs /\ us' = us
  | r :: rs' => get_xs (r_tr r) = xs /\ get_us (r_tr r) = us /\
                iterates (next_xs r) (next_us r) rs' xs' us'
  end.
(** the iterate of round i+1 has the values of the trial accepted by round i *)
Definition values_carried (rs : list round) : Prop :=
  forall i r r' a, nth_error rs i = Some r -> nth_error rs (S i) = Some r' -> r_acc r = Some a ->
    r_cost r' = a_cost a /\ r_gap r' = a_gap a /\ r_con r' = a_con a.

(** ** Re-evaluation of the problem at the current xs, us from fresh calls of
    calc and calcDiff, and the gaps there *)
Definition reeval (x0 : mX M) (t : traj M) : traj M :=
  computeGaps x0 (fst (problem_calcDiff (problem_calc t))).
(** round i starts from data evaluated at its iterate: it is the first one or
    the previous round accepted a trial *)
Definition evaluated_at (rs : list round) (i : nat) : Prop :=
  i = 0 \/ exists r a, nth_error rs (i - 1) = Some r /\ r_acc r = Some a.
(** then its derivatives and gaps are those of a re-evaluation, and its cost is
    the sum of the costs there *)
Definition rounds_evaluated (x0 : mX M) (rs : list round) : Prop :=
  forall i r, nth_error rs i = Some r -> evaluated_at rs i ->
    reeval x0 (r_tr r) = r_tr r /\ r_cost r = stored_cost (reeval x0 (r_tr r)).
End Trace.
