(** * Specification: the quadratic subproblems of the solvers, read off the
    solver's data.

    [LQSpec.v] says what a linear-quadratic problem and its KKT system are; this
    file only says which matrices the solvers claim to use.  Nothing here refers
    to backward or forward passes, gains or value functions, with one exception
    stated below: SolverCSQP does not store the costates of its inner QP, they
    are V_x + V_xx dx~ (which is what it later reports as lag_mul). *)
Set Warnings "-notation-overridden,-ambiguous-paths".
From mathcomp Require Import all_ssreflect all_algebra.
From Verif Require Import Eigen EigenExact Problem LQSpec.

Set Implicit Arguments.
Unset Strict Implicit.
Unset Printing Implicit Defensive.

Import GRing.Theory Num.Theory.
Local Open Scope ring_scope.

Section Sub.
Variable F : realFieldType.
Variable sq : F -> F.
Notation E := (ExactE sq).
Variable M : manifold E.
Notation n := (mndx M).
Notation node := (node M).
Notation tnode := (tnode M).

(** ** SolverSQP: stage t of the regularised subproblem with the direction and
    multiplier currently stored at that node; [f] is the gap fs_[t+1].  When the
    candidate is marked feasible ([feas], SolverDDP only) gaps count as zero. *)
Definition sqp_stage (preg dreg : F) (nd : node) (f : 'cV[F]_n) : stage F n :=
  @mkStage F n (nu (nm nd))
    (Fx (der nd)) (Fu (der nd)) (Lx (der nd)) (Lu (der nd))
    ((Lxx (der nd) : 'M[F]_n) + preg%:M) (Lxu (der nd)) ((Luu (der nd) : 'M[F]_(nu (nm nd))) + dreg%:M)
    f
    (dx (dir nd)) (du (dir nd)) (lam (dir nd)).
Definition sqp_final (preg : F) (tn : tnode) : final F n :=
  mkFinal ((tLxx (tder tn) : 'M[F]_n) + preg%:M) (tLx (tder tn)) (tdx tn) (tlam tn).
Definition gap_of (feas : bool) (f : 'cV[F]_n) : 'cV[F]_n := if feas then 0 else f.
Fixpoint sqp_stages (feas : bool) (preg dreg : F) (l : seq node) (tn : tnode) : seq (stage F n) :=
  match l with
  | [::] => [::]
  | nd :: l' => sqp_stage preg dreg nd (gap_of feas (hd_fs l' tn)) :: sqp_stages feas preg dreg l' tn
  end.

(** ** SolverCSQP: stage of the augmented (ADMM) subproblem
      1/2 |.|^2_H + g'(.) + sigma/2 |(dx~,du~) - (dx,du)|^2
        + rho/2 |C(dx~,du~) - z + y/rho|^2
    where the x-part of the constraint rows is absent at the first node (the
    initial state is fixed). *)
Definition gram ng p q (r : 'cV[F]_ng) (G1 : 'M[F]_(ng, p)) (G2 : 'M[F]_(ng, q)) : 'M[F]_(p, q) :=
  G1^T *m (diag_mx r^T *m G2).
Definition had ng (v w : 'cV[F]_ng) : 'cV[F]_ng := \matrix_(i, j) (v i j * w i j).
(** Jacobian of the constraint rows with respect to the state *)
Definition eGx (first : bool) (nd : node) : 'M[F]_(ng (nm nd), n) :=
  if first then 0 else Gx (der nd).
Definition aug_w (nd : node) : 'cV[F]_(ng (nm nd)) :=
  (ay (adm nd) : 'cV[F]_(ng (nm nd))) - had (arho (adm nd)) (az (adm nd)).
Definition aug_stage (sigma preg dreg : F) (first : bool) (nd : node) (f : 'cV[F]_n) : stage F n :=
  let r : 'cV[F]_(ng (nm nd)) := arho (adm nd) in
  let Gu' : 'M[F]_(ng (nm nd), nu (nm nd)) := Gu (der nd) in
  @mkStage F n (nu (nm nd))
    (Fx (der nd)) (Fu (der nd))
    ((Lx (der nd) : 'cV[F]_n) - sigma *: (dx (dir nd) : 'cV[F]_n) + (eGx first nd)^T *m aug_w nd)
    ((Lu (der nd) : 'cV[F]_(nu (nm nd))) - sigma *: (du (dir nd) : 'cV[F]_(nu (nm nd))) + Gu'^T *m aug_w nd)
    ((Lxx (der nd) : 'M[F]_n) + sigma%:M + gram r (eGx first nd) (eGx first nd) + preg%:M)
    ((Lxu (der nd) : 'M[F]_(n, nu (nm nd))) + gram r (eGx first nd) Gu')
    ((Luu (der nd) : 'M[F]_(nu (nm nd))) + sigma%:M + gram r Gu' Gu' + dreg%:M)
    f
    (dxt (adm nd)) (dut (adm nd))
    ((Vx (val nd) : 'cV[F]_n) + (Vxx (val nd) : 'M[F]_n) *m (dxt (adm nd) : 'cV[F]_n)).
Definition aug_final (sigma preg : F) (tn : tnode) : final F n :=
  let r : 'cV[F]_(tng (tm tn)) := tarho tn in
  let G : 'M[F]_(tng (tm tn), n) := tGx (tder tn) in
  let w : 'cV[F]_(tng (tm tn)) := (tay tn : 'cV[F]_(tng (tm tn))) - had r (taz tn) in
  mkFinal ((tLxx (tder tn) : 'M[F]_n) + sigma%:M + gram r G G + preg%:M)
          ((tLx (tder tn) : 'cV[F]_n) - sigma *: (tdx tn : 'cV[F]_n) + G^T *m w)
          (tdxt tn)
          ((tVx tn : 'cV[F]_n) + (tVxx tn : 'M[F]_n) *m (tdxt tn : 'cV[F]_n)).
Fixpoint aug_stages (sigma preg dreg : F) (first : bool) (l : seq node) (tn : tnode) : seq (stage F n) :=
  match l with
  | [::] => [::]
  | nd :: l' => aug_stage sigma preg dreg first nd (hd_fs l' tn) :: aug_stages sigma preg dreg false l' tn
  end.

(** symmetric stage Hessians *)
Definition node_sym (nd : node) : Prop :=
  is_sym (Lxx (der nd) : 'M[F]_n) /\ is_sym (Luu (der nd) : 'M[F]_(nu (nm nd))).
Definition tnode_sym (tn : tnode) : Prop := is_sym (tLxx (tder tn) : 'M[F]_n).
Definition traj_sym (s : traj M) : Prop :=
  (forall nd, List.In nd (run s) -> node_sym nd) /\ tnode_sym (trm s).
End Sub.
