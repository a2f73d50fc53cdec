(** * Specification: dense quadratic programs and the linearised subproblem that
    SolverPROXQP claims to hand to its QP backend.  Nothing here refers to the buffers. *)
Set Warnings "-notation-overridden,-ambiguous-paths".
From mathcomp Require Import all_ssreflect all_algebra.
From Verif Require Import Eigen EigenExact Problem LQSpec.

Set Implicit Arguments.
Unset Strict Implicit.
Unset Printing Implicit Defensive.

Import Order.TTheory GRing.Theory Num.Theory.
Local Open Scope ring_scope.

Section Dense.
Variable F : realFieldType.
(** a row value between its bounds (None: no bound) *)
Definition between (lo hi : option F) (v : F) : Prop :=
  (forall b, lo = Some b -> b <= v) /\ (forall b, hi = Some b -> v <= b).
(** optimality of a row: positive multipliers on the upper, negative ones on the lower bound *)
Definition row_kkt (lo hi : option F) (v y : F) : Prop :=
  [/\ between lo hi v, 0 < y -> hi = Some v & y < 0 -> lo = Some v].
(** min 1/2 x'Px + q'x  s.t.  Ax = b, l <= Cx <= u *)
Section QP.
Variables (N Me Mi : nat) (P : 'M[F]_N) (q : 'cV[F]_N) (A : 'M[F]_(Me, N)) (b : 'cV[F]_Me)
  (C : 'M[F]_(Mi, N)) (l u : 'cV[option F]_Mi).
Definition dense_cost (x : 'cV[F]_N) : F := quad P x / 2%:R + dot q x.
Definition dense_feasible (x : 'cV[F]_N) : Prop :=
  A *m x = b /\ forall i, between (l i 0) (u i 0) ((C *m x) i 0).
Definition dense_kkt (x : 'cV[F]_N) (y : 'cV[F]_Me) (z : 'cV[F]_Mi) : Prop :=
  [/\ P *m x + q + A^T *m y + C^T *m z = 0, A *m x = b
    & forall i, row_kkt (l i 0) (u i 0) ((C *m x) i 0) (z i 0)].
End QP.
End Dense.

Section Sub.
Variable F : realFieldType.
Variable sq : F -> F.
Notation E := (ExactE sq).
Variable M : manifold E.
Notation n := (mndx M).
Notation node := (node M).
Notation tnode := (tnode M).
(** bound minus the current constraint value *)
Definition lin_bound (b : option F) (g : F) : option F := if b is Some v then Some (v - g) else None.
(** value of the linearised constraint rows along the stored direction *)
Definition rows_of (nd : node) : 'cV[F]_(ng (nm nd)) :=
  (Gx (der nd) : 'M[F]_(ng (nm nd), n)) *m (dx (dir nd) : 'cV[F]_n)
  + (Gu (der nd) : 'M[F]_(ng (nm nd), nu (nm nd))) *m (du (dir nd) : 'cV[F]_(nu (nm nd))).
Definition trows_of (tn : tnode) : 'cV[F]_(tng (tm tn)) :=
  (tGx (tder tn) : 'M[F]_(tng (tm tn), n)) *m (tdx tn : 'cV[F]_n).
Definition lo_of (nd : node) (i : 'I_(ng (nm nd))) : option F :=
  lin_bound ((alb (nm nd) : 'cV[option F]_(ng (nm nd))) i 0) ((ag (nm nd) (mem nd) : 'cV[F]_(ng (nm nd))) i 0).
Definition hi_of (nd : node) (i : 'I_(ng (nm nd))) : option F :=
  lin_bound ((aub (nm nd) : 'cV[option F]_(ng (nm nd))) i 0) ((ag (nm nd) (mem nd) : 'cV[F]_(ng (nm nd))) i 0).
Definition tlo_of (tn : tnode) (i : 'I_(tng (tm tn))) : option F :=
  lin_bound ((tlb (tm tn) : 'cV[option F]_(tng (tm tn))) i 0) ((tg (tm tn) (tme tn) : 'cV[F]_(tng (tm tn))) i 0).
Definition thi_of (tn : tnode) (i : 'I_(tng (tm tn))) : option F :=
  lin_bound ((tub (tm tn) : 'cV[option F]_(tng (tm tn))) i 0) ((tg (tm tn) (tme tn) : 'cV[F]_(tng (tm tn))) i 0).

(** ** the linearised subproblem, at the direction (dx, du) stored in the nodes *)
Fixpoint sub_cost (l : seq node) (tn : tnode) : F :=
  match l with
  | [::] => quad (tLxx (tder tn) : 'M[F]_n) (tdx tn) / 2%:R + dot (tLx (tder tn) : 'cV[F]_n) (tdx tn)
  | nd :: l' =>
      let x : 'cV[F]_n := dx (dir nd) in
      let u : 'cV[F]_(nu (nm nd)) := du (dir nd) in
      quad (Lxx (der nd) : 'M[F]_n) x / 2%:R + dot (Lx (der nd) : 'cV[F]_n) x
      + dot x ((Lxu (der nd) : 'M[F]_(n, nu (nm nd))) *m u)
      + quad (Luu (der nd) : 'M[F]_(nu (nm nd))) u / 2%:R + dot (Lu (der nd) : 'cV[F]_(nu (nm nd))) u
      + sub_cost l' tn
  end.
(** dx+ = Fx dx + Fu du + f at every node *)
Fixpoint sub_dynamics (l : seq node) (tn : tnode) : Prop :=
  match l with
  | [::] => True
  | nd :: l' =>
      (hd_dx l' tn : 'cV[F]_n) = (Fx (der nd) : 'M[F]_n) *m (dx (dir nd) : 'cV[F]_n)
        + (Fu (der nd) : 'M[F]_(n, nu (nm nd))) *m (du (dir nd) : 'cV[F]_(nu (nm nd))) + hd_fs l' tn
      /\ sub_dynamics l' tn
  end.
Definition sub_bounds (l : seq node) (tn : tnode) : Prop :=
  (forall nd, List.In nd l -> forall i, between (@lo_of nd i) (@hi_of nd i) (rows_of nd i 0))
  /\ forall i, between (@tlo_of tn i) (@thi_of tn i) (trows_of tn i 0).
(** stationarity with the stored multipliers lam (dynamics) and y (constraint rows); the
    state of the first node is fixed: no condition there *)
Fixpoint sub_stationary (first : bool) (l : seq node) (tn : tnode) : Prop :=
  match l with
  | [::] =>
      (tLx (tder tn) : 'cV[F]_n) + (tLxx (tder tn) : 'M[F]_n) *m (tdx tn : 'cV[F]_n)
      + (tGx (tder tn) : 'M[F]_(tng (tm tn), n))^T *m (tay tn : 'cV[F]_(tng (tm tn))) = tlam tn
  | nd :: l' =>
      let x : 'cV[F]_n := dx (dir nd) in
      let u : 'cV[F]_(nu (nm nd)) := du (dir nd) in
      let y : 'cV[F]_(ng (nm nd)) := ay (adm nd) in
      let ln : 'cV[F]_n := hd_lam l' tn in
      [/\ (Lu (der nd) : 'cV[F]_(nu (nm nd))) + (Luu (der nd) : 'M[F]_(nu (nm nd))) *m u
            + (Lxu (der nd) : 'M[F]_(n, nu (nm nd)))^T *m x + (Fu (der nd) : 'M[F]_(n, nu (nm nd)))^T *m ln
            + (Gu (der nd) : 'M[F]_(ng (nm nd), nu (nm nd)))^T *m y = 0,
          first = false ->
          (Lx (der nd) : 'cV[F]_n) + (Lxx (der nd) : 'M[F]_n) *m x + (Lxu (der nd) : 'M[F]_(n, nu (nm nd))) *m u
            + (Fx (der nd) : 'M[F]_n)^T *m ln + (Gx (der nd) : 'M[F]_(ng (nm nd), n))^T *m y = lam (dir nd)
        & sub_stationary false l' tn]
  end.
Definition sub_rows (l : seq node) (tn : tnode) : Prop :=
  (forall nd, List.In nd l -> forall i,
     row_kkt (@lo_of nd i) (@hi_of nd i) (rows_of nd i 0) ((ay (adm nd) : 'cV[F]_(ng (nm nd))) i 0))
  /\ forall i, row_kkt (@tlo_of tn i) (@thi_of tn i) (trows_of tn i 0) ((tay tn : 'cV[F]_(tng (tm tn))) i 0).
(** the stored direction and multipliers solve the subproblem *)
Definition sub_kkt (t : traj M) : Prop :=
  [/\ sub_stationary true (run t) (trm t), sub_dynamics (run t) (trm t) & sub_rows (run t) (trm t)].

(** the stored direction of the first node is zero, and the layout condition of the
    constraint matrix: a node with constraints at index t has t * nu controls before it
    (for instance: all control dimensions equal, or no constraints) *)
Definition first_fixed (t : traj M) : Prop := (hd_dx (run t) (trm t) : 'cV[F]_n) = 0.
Fixpoint layout_ok (t iu : nat) (l : seq node) : Prop :=
  match l with
  | [::] => True
  | nd :: l' => (ng (nm nd) <> 0%N -> (t * nu (nm nd))%N = iu) /\ layout_ok (S t) (iu + nu (nm nd)) l'
  end.

(** the candidate a user reads: xs_[0..T-1], us_, and xs_[T] *)
Definition candidate (t : traj M) : seq (mX M * {k : nat & 'cV[F]_k}) * mX M :=
  ([seq (px (pt nd), existT (fun k => 'cV[F]_k) (nu (nm nd)) (pu (pt nd))) | nd : node <- run t], tx (trm t)).
(** the defect stored at every node is the difference from its candidate state to the
    result of the dynamics of the node before *)
Fixpoint current_defects (l : seq node) (tn : tnode) : Prop :=
  match l with
  | [::] => True
  | nd :: l' => hd_fs l' tn = diff M (hd_x l' tn) (axnext (nm nd) (mem nd)) /\ current_defects l' tn
  end.
(** values, derivatives and defects are those of the candidate *)
Definition evaluated (t : traj M) : Prop :=
  [/\ forall nd, List.In nd (run t) ->
        mem nd = acalc (nm nd) (px (pt nd)) (pu (pt nd)) /\ der nd = adiff (nm nd) (mem nd) (px (pt nd)) (pu (pt nd)),
      tme (trm t) = tcalc (tm (trm t)) (tx (trm t)), tder (trm t) = tdiff (tm (trm t)) (tme (trm t)) (tx (trm t))
    & current_defects (run t) (trm t)].
End Sub.
