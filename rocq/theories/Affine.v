(** * Specification: affine dynamics, linear-quadratic problems and dynamics
    defects (exact arithmetic, vector-space states).

    Nothing here refers to the solvers. *)
Set Warnings "-notation-overridden,-ambiguous-paths".
From mathcomp Require Import all_ssreflect all_algebra.
From Verif Require Import Eigen EigenExact Problem Models LQSpec.

Set Implicit Arguments.
Unset Strict Implicit.
Unset Printing Implicit Defensive.

Import GRing.Theory Num.Theory.
Local Open Scope ring_scope.

Section A.
Variable F : realFieldType.
Variable sq : F -> F.
Notation E := (ExactE sq).
Variable n : nat.
Notation M := (euclid E n).

(** f(x,u) = A x + B u + b with derivatives A and B everywhere *)
Definition affine_dynamics (m : amodel M) : Prop :=
  exists (A : 'M[F]_n) (B : 'M[F]_(n, nu m)) (b : 'cV[F]_n),
    (forall (x : 'cV[F]_n) (u : 'cV[F]_(nu m)), axnext m (acalc m x u) = A *m x + B *m u + b :> 'cV[F]_n) /\
    (forall e x u, (Fx (adiff m e x u) : 'M[F]_n) = A /\ (Fu (adiff m e x u) : 'M[F]_(n, nu m)) = B).

(** in addition the cost is the quadratic function
      1/2 x'Qx + x'Su + 1/2 u'Ru + q'x + r'u + k   (Q, R symmetric)
    and the derivatives are those of that function *)
Record quadratic_cost (m : amodel M) (Q : 'M[F]_n) (S : 'M[F]_(n, nu m)) (R : 'M[F]_(nu m))
    (q : 'cV[F]_n) (r : 'cV[F]_(nu m)) (k : F) : Prop := mkQcost {
  qc_sym : is_sym Q /\ is_sym R;
  qc_cost : forall (x : 'cV[F]_n) (u : 'cV[F]_(nu m)), (acost m (acalc m x u) : F) =
    quad Q x / 2%:R + dot x (S *m u) + quad R u / 2%:R + dot q x + dot r u + k;
  qc_grad : forall e (x : 'cV[F]_n) (u : 'cV[F]_(nu m)),
    (Lx (adiff m e x u) : 'cV[F]_n) = Q *m x + S *m u + q /\
    (Lu (adiff m e x u) : 'cV[F]_(nu m)) = S^T *m x + R *m u + r;
  qc_hess : forall e x u, (Lxx (adiff m e x u) : 'M[F]_n) = Q /\ (Lxu (adiff m e x u) : 'M[F]_(n, nu m)) = S /\
    (Luu (adiff m e x u) : 'M[F]_(nu m)) = R
}.
Definition lq_action (m : amodel M) : Prop :=
  affine_dynamics m /\ exists Q S R q r k, @quadratic_cost m Q S R q r k.
Record quadratic_tcost (m : tmodel M) (Q : 'M[F]_n) (q : 'cV[F]_n) (k : F) : Prop := mkQtcost {
  qt_sym : is_sym Q;
  qt_cost : forall x : 'cV[F]_n, (tcost m (tcalc m x) : F) = quad Q x / 2%:R + dot q x + k;
  qt_grad : forall e (x : 'cV[F]_n), (tLx (tdiff m e x) : 'cV[F]_n) = Q *m x + q;
  qt_hess : forall e x, (tLxx (tdiff m e x) : 'M[F]_n) = Q
}.
Definition lq_terminal (m : tmodel M) : Prop := exists Q q k, @quadratic_tcost m Q q k.

(** the dynamics defects of a trajectory (xs, us) with initial state [xin]:
    xin - xs_0, then f(xs_t, us_t) - xs_(t+1); one per state *)
Inductive defects_of : list (amodel M) -> 'cV[F]_n -> list {k : nat & vec E k} -> list 'cV[F]_n -> list 'cV[F]_n -> Prop :=
  | defects_end xin x : defects_of nil xin nil [:: x] [:: xin - x]
  | defects_step (m : amodel M) ms xin (x : 'cV[F]_n) (u : vec E (nu m)) us xs ds :
      defects_of ms (axnext m (acalc m x u)) us xs ds ->
      defects_of (m :: ms) xin (existT (vec E) (nu m) u :: us) (x :: xs) ((xin - x) :: ds).
(** [lams] are multipliers of the dynamics with which the trajectory (xs, us) is a
    stationary point of the optimal control problem: with the derivatives of each
    model evaluated at (xs_t, us_t),
      lx_t + fx_t' lam_(t+1) = lam_t,  lu_t + fu_t' lam_(t+1) = 0,  lx_T = lam_T *)
Inductive stationary : list (amodel M) -> tmodel M -> list {k : nat & vec E k} -> list 'cV[F]_n -> list 'cV[F]_n -> Prop :=
  | stationary_end (tm : tmodel M) (x la : 'cV[F]_n) : (tLx (tdiff tm (tcalc tm x) x) : 'cV[F]_n) = la ->
      stationary nil tm nil [:: x] [:: la]
  | stationary_step (m : amodel M) ms tm (x : 'cV[F]_n) (u : vec E (nu m)) us xs la las :
      stationary ms tm us xs las ->
      (Lx (adiff m (acalc m x u) x u) : 'cV[F]_n) + (Fx (adiff m (acalc m x u) x u) : 'M[F]_n)^T *m head 0 las = la ->
      (Lu (adiff m (acalc m x u) x u) : 'cV[F]_(nu m)) + (Fu (adiff m (acalc m x u) x u) : 'M[F]_(n, nu m))^T *m head 0 las = 0 ->
      stationary (m :: ms) tm (existT (vec E) (nu m) u :: us) (x :: xs) (la :: las).
(** sum of the 1-norms of a list of vectors *)
Definition norm1 k (v : 'cV[F]_k) : F := \sum_i `|v i 0|.
Definition total (ds : list 'cV[F]_n) : F := \sum_(v <- ds) norm1 v.
End A.
