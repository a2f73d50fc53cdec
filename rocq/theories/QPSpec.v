(** * Specification: the iterations of one QP (ADMM) solve of SolverCSQP. *)
From Coq Require Import ZArith List Bool Arith.
From Verif Require Import Eigen Problem DDP Filter SQP CSQP.
Import ListNotations.
Set Implicit Arguments.
Unset Strict Implicit.
Set Asymmetric Patterns.

Section QPSpec.
Variable E : Eig.
Variable M : manifold E.
Notation R := (R E).
Notation node := (node M).
Notation tnode := (tnode M).
Notation csqp := (csqp M).
Variable c : ccfg E.
Variable timeout : nat -> bool.

(** the state in which the QP loop of computeDirection (csqp.cpp:454-470) starts,
    if the initial guess could be computed *)
Definition qp_begin (s : csqp) : option csqp :=
  let s1 := reset_params c s in
  if cc_eqguess c then
    let r := cw_backward (k_preg s1) (k_dreg s1) (k_tr s1) in
    if fst r then Some (set_k_tr (cwforward (snd r)) (set_k_tr (snd r) s1)) else None
  else Some s1.

(** [qp_top s i s']: in computeDirection started in [s], the [i]-th QP iteration
    begins, after its clock check, in [s'] *)
Inductive qp_top (s : csqp) : nat -> csqp -> Prop :=
  | qp_top1 s1 : qp_begin s = Some s1 -> 1 <= cc_maxqp c -> fst (tick timeout s1) = false ->
      qp_top s 1 (snd (tick timeout s1))
  | qp_topS i s1 s2 : qp_top s i s1 -> qp_step c i s1 = SGo s2 -> i < cc_maxqp c ->
      fst (tick timeout s2) = false -> qp_top s (S i) (snd (tick timeout s2)).

(** the data a factorisation depends on *)
Definition same_data_node (n n' : node) : Prop :=
  exists v d a, n' = set_adm (set_dir (set_val n v) d) a /\ arho a = arho (adm n).
Definition same_data_tnode (tn tn' : tnode) : Prop :=
  exists A v d la dt z zp zr y ir,
    tn' = @mkTnode E M (tm tn) (tx tn) (txt tn) (tme tn) (tder tn) (tfs tn) A v d la dt z zp zr y (tarho tn) ir.
Definition same_data (t t' : traj M) : Prop :=
  Forall2 same_data_node (run t) (run t') /\ same_data_tnode (trm t) (trm t').

(** ... and, on top of that, the same matrices of the factorisation: value
    Hessians, quadratic coefficients, gains, Cholesky factor, Vxx fs *)
Definition same_mats {m} (v w : vals M m) : Prop :=
  Vxx w = Vxx v /\ Qxx w = Qxx v /\ Qxu w = Qxu v /\ Quu w = Quu v /\ gK w = gK v /\
  llt w = llt v /\ Vxxfs w = Vxxfs v /\ Quuk w = Quuk v.
Definition same_factor_node (n n' : node) : Prop :=
  exists v d a, n' = set_adm (set_dir (set_val n v) d) a /\ arho a = arho (adm n) /\
    same_mats (val n) v.
Definition same_factor_tnode (tn tn' : tnode) : Prop :=
  exists v d la dt z zp zr y ir,
    tn' = @mkTnode E M (tm tn) (tx tn) (txt tn) (tme tn) (tder tn) (tfs tn) (tVxx tn) v d la dt z zp zr y (tarho tn) ir.
Definition same_factor (t t' : traj M) : Prop :=
  Forall2 same_factor_node (run t) (run t') /\ same_factor_tnode (trm t) (trm t').
End QPSpec.
