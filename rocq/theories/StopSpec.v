(** * Specification: approximate solutions of the QP subproblem of SolverCSQP. *)
From Coq Require Import ZArith.
Set Warnings "-notation-overridden,-ambiguous-paths".
From mathcomp Require Import all_ssreflect all_algebra.
From Verif Require Import Eigen EigenExact Problem LQSpec SubQP ADMMSpec KKTNorm ConvSpec.

Set Implicit Arguments.
Unset Strict Implicit.
Unset Printing Implicit Defensive.

Import GRing.Theory Num.Theory.
Local Open Scope ring_scope.

Section Spec.
Variable F : realFieldType.
Variable sq : F -> F.
Notation E := (ExactE sq).
Variable M : manifold E.
Notation n := (mndx M).
Notation node := (node M).
Notation tnode := (tnode M).

(** the KKT system of an LQ problem up to a residual of at most [b] in every
    component of the stationarity conditions; the dynamics hold exactly *)
Fixpoint lq_near m (b : F) (d : 'cV[F]_m) (l : seq (stage F m)) (e : final F m) : Prop :=
  match l with
  | [::] => tsx e = d /\ small b (tq e + tQ e *m tsx e - tsl e)
  | s :: l' =>
      [/\ sx s = d,
          small b (sr s + sR s *m su s + (sS s)^T *m sx s + (sB s)^T *m next_l l' e),
          small b (LQSpec.sq s + sQ s *m sx s + sS s *m su s + (sA s)^T *m next_l l' e - sl s)
        & lq_near b (sA s *m sx s + sB s *m su s + sf s) l' e]
  end.
(** value g + v of a linearised row within tol of its bounds, and within tol of the
    active bound when the multiplier y is not zero *)
Definition near_row (tol : F) (lo hi : option F) (g v y : F) : Prop :=
  [/\ forall b, lo = Some b -> b - tol <= g + v,
      forall b, hi = Some b -> g + v <= b + tol,
      0 < y -> exists2 b, hi = Some b & `|g + v - b| <= tol
    & y < 0 -> exists2 b, lo = Some b & `|g + v - b| <= tol].
Definition node_near (tol : F) (nd : node) : Prop :=
  forall i, ordered ((alb (nm nd) : 'cV[option F]_(ng (nm nd))) i 0) ((aub (nm nd) : 'cV[option F]_(ng (nm nd))) i 0) ->
  near_row tol ((alb (nm nd) : 'cV[option F]_(ng (nm nd))) i 0) ((aub (nm nd) : 'cV[option F]_(ng (nm nd))) i 0)
    ((ag (nm nd) (mem nd) : 'cV[F]_(ng (nm nd))) i 0) (node_lin nd i 0) ((ay (adm nd) : 'cV[F]_(ng (nm nd))) i 0).
Definition tnode_near (tol : F) (tn : tnode) : Prop :=
  forall i, ordered ((tlb (tm tn) : 'cV[option F]_(tng (tm tn))) i 0) ((tub (tm tn) : 'cV[option F]_(tng (tm tn))) i 0) ->
  near_row tol ((tlb (tm tn) : 'cV[option F]_(tng (tm tn))) i 0) ((tub (tm tn) : 'cV[option F]_(tng (tm tn))) i 0)
    ((tg (tm tn) (tme tn) : 'cV[F]_(tng (tm tn))) i 0) (tnode_lin tn i 0) ((tay tn : 'cV[F]_(tng (tm tn))) i 0).
(** the KKT conditions of the subproblem ([qp_kkt]) up to [tol] in the rows and
    [b] in the stationarity conditions *)
Definition qp_near (tol b preg dreg : F) (t : traj M) : Prop :=
  [/\ lq_near b 0 (con_stages preg dreg true (run t) (trm t)) (con_final preg (trm t)),
      (forall nd, List.In nd (run t) -> node_near tol nd) & tnode_near tol (trm t)].

(** no component of the direction changed by more than eps *)
Definition near_vec (eps : F) m (v : 'cV[F]_m) k (w : 'cV[F]_k) : Prop := forall i, `|coord v i - coord w i| <= eps.
Definition moved (eps : F) (t t' : traj M) : Prop :=
  List.Forall2 (fun nd nd' : node => @near_vec eps n (dx (dir nd)) n (dx (dir nd')) /\
     @near_vec eps (nu (nm nd)) (du (dir nd)) (nu (nm nd')) (du (dir nd'))) (run t) (run t') /\
  @near_vec eps n (tdx (trm t)) n (tdx (trm t')).
(** the absolute column sums of the row Jacobians are at most L *)
Definition jac_gain (L : F) (t : traj M) : Prop :=
  (forall nd, List.In nd (run t) ->
     (forall j, \sum_(i < ng (nm nd)) `|(Gx (der nd) : 'M[F]_(ng (nm nd), n)) i j| <= L) /\
     (forall j, \sum_(i < ng (nm nd)) `|(Gu (der nd) : 'M[F]_(ng (nm nd), nu (nm nd))) i j| <= L)) /\
  (forall j, \sum_(i < tng (tm (trm t))) `|(tGx (tder (trm t)) : 'M[F]_(tng (tm (trm t)), n)) i j| <= L).
End Spec.
