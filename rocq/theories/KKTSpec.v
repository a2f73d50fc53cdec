(** * Specification: the LQ problem SolverKKT claims to solve.

    Reads the derivatives, the candidate and the direction stored in the nodes; nothing
    here refers to the dense matrix.  The defects are recomputed from the candidate. *)
Set Warnings "-notation-overridden,-ambiguous-paths".
From mathcomp Require Import all_ssreflect all_algebra.
From Verif Require Import Eigen EigenExact Problem LQSpec.

Set Implicit Arguments.
Unset Strict Implicit.
Unset Printing Implicit Defensive.

Import GRing.Theory Num.Theory.
Local Open Scope ring_scope.

Section S.
Variable F : realFieldType.
Variable sq : F -> F.
Notation E := (ExactE sq).
Variable M : manifold E.
Notation n := (mndx M).
Notation node := (node M).
Notation tnode := (tnode M).
(** stage with the direction (dx, du) of the node; the multiplier of the solver enters
    with a minus sign (its constraint rows read x+ - f(x,u)); the affine term is the
    difference from the next candidate state x' to the dynamics' result *)
Definition kkt_stage (nd : node) (x' : mX M) : stage F n :=
  @mkStage F n (nu (nm nd)) (Fx (der nd)) (Fu (der nd)) (Lx (der nd)) (Lu (der nd))
    (Lxx (der nd)) (Lxu (der nd)) (Luu (der nd))
    (- (diff M (axnext (nm nd) (mem nd)) x' : 'cV[F]_n))
    (dx (dir nd)) (du (dir nd)) (- (lam (dir nd) : 'cV[F]_n)).
Definition kkt_final (tn : tnode) : final F n :=
  mkFinal (tLxx (tder tn)) (tLx (tder tn)) (tdx tn) (- (tlam tn : 'cV[F]_n)).
Fixpoint kkt_stages (l : seq node) (tn : tnode) : seq (stage F n) :=
  match l with [::] => [::] | nd :: l' => kkt_stage nd (hd_x l' tn) :: kkt_stages l' tn end.
(** the stored direction solves the KKT system of that problem, the first state being
    corrected to x0 *)
Definition direction_solves (x0 : mX M) (t : traj M) : Prop :=
  lq_kkt (- (diff M x0 (hd_x (run t) (trm t)) : 'cV[F]_n)) (kkt_stages (run t) (trm t)) (kkt_final (trm t)).

(** [t'] is [t] up to the stored direction and multipliers *)
Definition only_direction (t t' : traj M) : Prop :=
  List.Forall2 (fun a b : node => exists d, b = set_dir a d) (run t) (run t') /\
  exists d l, trm t' = set_tlam (set_tdx (trm t) d) l.
(** the derivatives of every node are those of the current candidate *)
Definition current_derivatives (t : traj M) : Prop :=
  (forall nd, List.In nd (run t) ->
     der nd = adiff (nm nd) (acalc (nm nd) (px (pt nd)) (pu (pt nd))) (px (pt nd)) (pu (pt nd)) /\
     mem nd = acalc (nm nd) (px (pt nd)) (pu (pt nd))) /\
  tder (trm t) = tdiff (tm (trm t)) (tcalc (tm (trm t)) (tx (trm t))) (tx (trm t)).
(** largest absolute entry of the vectors of a list is at most [tol] *)
Definition entries_le (m : nat) (v : 'cV[F]_m) (tol : F) : Prop := forall i, `|v i 0| <= tol.
(** what checkKKTConditions bounds: twice the gradient plus the Hessian times the
    direction, at every node *)
Definition reported_le (t : traj M) (tol : F) : Prop :=
  (forall nd, List.In nd (run t) ->
     entries_le (2%:R *: (Lx (der nd) : 'cV[F]_n) + (Lxx (der nd) : 'M[F]_n) *m (dx (dir nd) : 'cV[F]_n)
                 + (Lxu (der nd) : 'M[F]_(n, nu (nm nd))) *m (du (dir nd) : 'cV[F]_(nu (nm nd)))) tol /\
     entries_le (2%:R *: (Lu (der nd) : 'cV[F]_(nu (nm nd))) + (Luu (der nd) : 'M[F]_(nu (nm nd))) *m (du (dir nd) : 'cV[F]_(nu (nm nd)))
                 + (Lxu (der nd) : 'M[F]_(n, nu (nm nd)))^T *m (dx (dir nd) : 'cV[F]_n)) tol) /\
  entries_le (2%:R *: (tLx (tder (trm t)) : 'cV[F]_n) + (tLxx (tder (trm t)) : 'M[F]_n) *m (tdx (trm t) : 'cV[F]_n)) tol.
End S.
