(** * Specification: the states in which SolverCSQP::solve asks for a direction.

    [solve_begin] is the state in which the loop of solve starts, [loop_head] the
    states at the head of its iterations, [called] the states in which
    computeDirection is called (a superset: it ignores that the retry loop is
    skipped when the time limit was noticed). *)
From Coq Require Import ZArith List Bool Arith.
From Verif Require Import Eigen Problem DDP Filter SQP CSQP QPSpec.
Import ListNotations.
Set Implicit Arguments.
Unset Strict Implicit.
Set Asymmetric Patterns.

Section CallSpec.
Variable E : Eig.
Variable M : manifold E.
Notation csqp := (csqp M).
Variable c : ccfg E.
Variable timeout : nat -> bool.
Variable fuel : nat.

Definition solve_begin (x0 : mX M) (xs : list (mX M)) (us : list {k : nat & vec E k})
    (maxiter : nat) (reg : option (R E)) (s : csqp) : option csqp :=
  match set_guess xs us (k_tr s) with
  | None => None
  | Some t =>
      let p := if cc_removereg c then r0 E else init_reg (cc_ddp c) reg in
      let s1 := set_k_dreg p (set_k_preg p (set_k_tr (pin_xt0 x0 (pin_x0 x0 t)) s)) in
      let s2 := if maxiter =? 0 then reset_rho c (csqp_calc s1) else s1 in
      Some (set_k_iter 0 (set_k_reached false s2))
  end.
Inductive loop_head (s0 : csqp) : nat -> csqp -> Prop :=
  | head0 : loop_head s0 0 s0
  | headS n s s' : loop_head s0 n s -> csqp_body c timeout fuel s = CB (BNext s') ->
      loop_head s0 (S n) (set_k_iter (S (k_iter s')) s').
Definition loop_end (s0 : csqp) (maxiter : nat) (s : csqp) : Prop :=
  loop_head s0 maxiter s \/
  exists n s', loop_head s0 n s' /\ n < maxiter /\ csqp_body c timeout fuel s' = CB (BBreak s).
(** the state in which an iteration of the main loop asks for a direction *)
Definition main_start (s : csqp) : csqp :=
  let b := tick timeout s in
  let s1 := csqp_calc (set_k_log (EvIter E (k_iter s) :: k_log (snd b)) (snd b)) in
  if (k_iter s1 =? 0) && negb (cc_resetrho c) then reset_rho c s1 else s1.
Inductive called (s0 : csqp) (maxiter : nat) : csqp -> Prop :=
  | call_main n s : loop_head s0 n s -> n < maxiter -> fst (tick timeout s) = false ->
      called s0 maxiter (main_start s)
  | call_extra s : loop_end s0 maxiter s -> cc_extra c = true -> k_reached s = false ->
      called s0 maxiter (csqp_calc s)
  | call_retry s s1 : called s0 maxiter s -> cc_removereg c = false ->
      csqp_computeDirection c timeout s = QThrow s1 ->
      rge (k_preg (csqp_inc c s1)) (c_rmax (cc_ddp c)) = false ->
      called s0 maxiter (csqp_inc c s1).
(** a QP (ADMM) iteration executed by a call of solve: iteration [i] of the QP
    started in [s1] begins in [si] *)
Definition solve_qp (x0 : mX M) (xs : list (mX M)) (us : list {k : nat & vec E k})
    (maxiter : nat) (reg : option (R E)) (s s1 : csqp) (i : nat) (si : csqp) : Prop :=
  exists s0, solve_begin x0 xs us maxiter reg s = Some s0 /\ called s0 maxiter s1 /\
    qp_top c timeout s1 i si.
End CallSpec.
