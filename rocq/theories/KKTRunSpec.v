(** * Specification: a run of SolverKKT::solve (exact arithmetic).

    Everything is read from the models, the candidate and the direction of the nodes;
    nothing here refers to the dense system. *)
From Coq Require Import ZArith List Arith.
Set Warnings "-notation-overridden,-ambiguous-paths".
From mathcomp Require Import all_ssreflect all_algebra.
From Verif Require Import Eigen EigenExact Problem Init KKT KKTSpec KKTHist.

Set Implicit Arguments.
Unset Strict Implicit.
Unset Printing Implicit Defensive.
Import GRing.Theory Num.Theory.
Local Open Scope ring_scope.

Section Spec.
Variable F : realFieldType.
Variable sq : F -> F.
Notation E := (ExactE sq).
Variable M : manifold E.
Notation n := (mndx M).
Notation X := (mX M).
Notation U := {k : nat & vec E k}.
Notation node := (node M).
Notation tnode := (tnode M).

Definition dotp (m : nat) (u v : 'cV[F]_m) : F := \sum_(i < m) u i 0 * v i 0.

(** slope and curvature of the quadratic cost model along the stored direction *)
Fixpoint slope (l : seq node) (tn : tnode) : F :=
  match l with
  | [::] => dotp (tLx (tder tn) : 'cV[F]_n) (tdx tn : 'cV[F]_n)
  | nd :: l' =>
      dotp (Lx (der nd) : 'cV[F]_n) (dx (dir nd) : 'cV[F]_n)
      + dotp (Lu (der nd) : 'cV[F]_(nu (nm nd))) (du (dir nd) : 'cV[F]_(nu (nm nd))) + slope l' tn
  end.
Fixpoint curvature (l : seq node) (tn : tnode) : F :=
  match l with
  | [::] => dotp ((tLxx (tder tn) : 'M[F]_n) *m (tdx tn : 'cV[F]_n)) (tdx tn : 'cV[F]_n)
  | nd :: l' =>
      let k := nu (nm nd) in
      let x : 'cV[F]_n := dx (dir nd) in let u : 'cV[F]_k := du (dir nd) in
      dotp ((Lxx (der nd) : 'M[F]_n) *m x + (Lxu (der nd) : 'M[F]_(n, k)) *m u) x
      + dotp ((Lxu (der nd) : 'M[F]_(n, k))^T *m x + (Luu (der nd) : 'M[F]_k) *m u) u + curvature l' tn
  end.
(** squared norm of the gradient of the Lagrangian with the stored multipliers
    (rows x+ - f(x,u), first row x - x0) *)
Fixpoint lagrangian_sq (l : seq node) (tn : tnode) : F :=
  match l with
  | [::] => let v := (tLx (tder tn) : 'cV[F]_n) + (tlam tn : 'cV[F]_n) in dotp v v
  | nd :: l' =>
      let k := nu (nm nd) in
      let ln : 'cV[F]_n := hd_lam l' tn in
      let v := (Lx (der nd) : 'cV[F]_n) + ((lam (dir nd) : 'cV[F]_n) - (Fx (der nd) : 'M[F]_n)^T *m ln) in
      let w := (Lu (der nd) : 'cV[F]_k) - (Fu (der nd) : 'M[F]_(n, k))^T *m ln in
      dotp v v + dotp w w + lagrangian_sq l' tn
  end.
(** squared norm of the defects of the candidate *)
Fixpoint defects_sq (l : seq node) (tn : tnode) : F :=
  match l with
  | [::] => 0
  | nd :: l' => let d : 'cV[F]_n := diff M (axnext (nm nd) (acalc (nm nd) (px (pt nd)) (pu (pt nd)))) (hd_x l' tn) in
      dotp d d + defects_sq l' tn
  end.
Definition stop_value (x0 : X) (t : traj M) : F :=
  let d : 'cV[F]_n := diff M x0 (hd_x (run t) (trm t)) in
  lagrangian_sq (run t) (trm t) + (dotp d d + defects_sq (run t) (trm t)).

(** the trial of step length [a]: x_i (+) a dx_i, u_i + a du_i, and the total cost there *)
Definition step_x (a : F) (nd : node) : X := integrate M (px (pt nd)) (a *: (dx (dir nd) : 'cV[F]_n)).
Definition step_u (a : F) (nd : node) : vec E (nu (nm nd)) :=
  (pu (pt nd) : 'cV[F]_(nu (nm nd))) + a *: (du (dir nd) : 'cV[F]_(nu (nm nd))).
Definition step_tx (a : F) (tn : tnode) : X := integrate M (tx tn) (a *: (tdx tn : 'cV[F]_n)).
Definition step_xs (a : F) (t : traj M) : seq X := [seq step_x a nd | nd <- run t] ++ [:: step_tx a (trm t)].
Definition step_us (a : F) (t : traj M) : seq U := [seq existT (vec E) (nu (nm nd)) (step_u a nd) | nd <- run t].
Definition step_cost (a : F) (t : traj M) : F :=
  \sum_(nd <- run t) (acost (nm nd) (acalc (nm nd) (step_x a nd) (step_u a nd)) : F)
  + (tcost (tm (trm t)) (tcalc (tm (trm t)) (step_tx a (trm t))) : F).
(** total cost at the candidate *)
Definition own_cost (t : traj M) : F :=
  \sum_(nd <- run t) (acost (nm nd) (acalc (nm nd) (px (pt nd)) (pu (pt nd))) : F)
  + (tcost (tm (trm t)) (tcalc (tm (trm t)) (tx (trm t))) : F).

(** one iteration: candidate with its derivatives and direction, reported residual, the
    is_feasible flag, and the accepted step length, if any *)
Record kround := mkKround { q_tr : traj M; q_kkt : F; q_feas : bool; q_acc : option F }.

(** step length [a] passes the line search of round [r] *)
Definition passes (bad : seq X -> seq U -> bool) (c : kcfg F) (r : kround) (a : F) : Prop :=
  let t := q_tr r in
  let d0 := - slope (run t) (trm t) in
  let d1 := - curvature (run t) (trm t) in
  bad (step_xs a t) (step_us a t) = false /\
  [\/ d0 < kc_grad c, q_feas r = false
    | kc_accept c * (a * d0 + a ^+ 2 / 2%:R * d1) < own_cost t - step_cost a t].
(** the first step length that passes is taken; no step if none does *)
Definition searched (bad : seq X -> seq U -> bool) (c : kcfg F) (r : kround) : Prop :=
  match q_acc r with
  | None => forall a, List.In a (kc_alphas c) -> ~ passes bad c r a
  | Some a => exists pre post, [/\ kc_alphas c = pre ++ a :: post, passes bad c r a
        & forall a', List.In a' pre -> ~ passes bad c r a']
  end.
(** the rounds lead from (xs, us, feas) to (xs', us', feas'); a step sets is_feasible *)
Fixpoint kpath (xs : seq X) (us : seq U) (feas : bool) (rs : seq kround) (xs' : seq X) (us' : seq U) (feas' : bool) : Prop :=
  match rs with
  | [::] => [/\ xs' = xs, us' = us & feas' = feas]
  | r :: rs' =>
      [/\ get_xs (q_tr r) = xs, get_us (q_tr r) = us, q_feas r = feas
        & match q_acc r with
          | None => kpath xs us feas rs' xs' us' feas'
          | Some a => kpath (step_xs a (q_tr r)) (step_us a (q_tr r)) true rs' xs' us' feas'
          end]
  end.
(** was_feasible_: the is_feasible flag before the last accepted step *)
Definition was_feasible (w : bool) (rs : seq kround) : bool :=
  List.fold_left (fun w r => if q_acc r is Some _ then q_feas r else w) rs w.
(** the stopping test at the end of the last of the rounds [rs] *)
Definition stops (x0 : X) (c : kcfg F) (w : bool) (rs : seq kround) (r : kround) : Prop :=
  was_feasible w rs = true /\ stop_value x0 (q_tr r) < kc_stop c.

Record kk_run (x0 : X) (lu : forall N : nat, 'M[F]_N -> 'cV[F]_N -> 'cV[F]_N) (bad : seq X -> seq U -> bool)
    (l : seq (slot M)) (t : tslot M) (c : kcfg F) (xs : seq X) (us : seq U) (maxiter : nat) (feas : bool)
    (s : kkts M) (rs : seq kround) (b : bool) (s' : kkts M) : Prop := mkKrun {
  krun_path : kpath xs us feas rs (get_xs (kk_tr s')) (get_us (kk_tr s')) (kk_feas s');
  (** every round evaluates the models at its candidate, computes the direction there, and
      goes on because the residual is above the tolerance *)
  krun_direction : forall r, List.In r rs -> exists s1 s2 : kkts M, kk_hist x0 lu bad l t s1 /\
      [/\ kk_direction x0 lu bad true s1 = KDok s2, q_tr r = kk_tr s2, q_kkt r = kk_KKT s2,
          current_derivatives (q_tr r) & kc_tol c < q_kkt r];
  krun_searched : forall r, List.In r rs -> searched bad c r;
  krun_budget : (List.length rs <= maxiter)%coq_nat;
  (** no round but the last passes the stopping test *)
  krun_go : forall i r, List.nth_error rs i = Some r -> (S i < List.length rs)%coq_nat ->
      ~ stops x0 c (kk_wasfeas s) (List.firstn (S i) rs) r;
  krun_wasfeas : kk_wasfeas s' = was_feasible (kk_wasfeas s) rs;
  (** true: either a direction was computed at the returned candidate and its residual is
      at most the tolerance, or the last round passed the stopping test *)
  krun_true : b = true ->
      ((List.length rs < maxiter)%coq_nat /\ kk_iter s' = List.length rs /\ kk_KKT s' <= kc_tol c /\
       exists s1 s2 : kkts M, kk_hist x0 lu bad l t s1 /\ [/\ kk_direction x0 lu bad true s1 = KDok s2, kk_tr s' = kk_tr s2, kk_KKT s' = kk_KKT s2
         & current_derivatives (kk_tr s')]) \/
      (exists rs1 r, [/\ rs = rs1 ++ [:: r], stops x0 c (kk_wasfeas s) rs r, kk_iter s' = List.length rs1,
         kk_stop s' = stop_value x0 (q_tr r) & kc_tol c < kk_KKT s']);
  (** false: all iterations were used and the last one does not pass the stopping test *)
  krun_false : b = false -> [/\ List.length rs = maxiter, kk_iter s' = maxiter
     & forall rs1 r, rs = rs1 ++ [:: r] -> ~ stops x0 c (kk_wasfeas s) rs r]
}.
End Spec.
