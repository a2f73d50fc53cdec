(** * C61: control flow of SolverDDP::solve and SolverFDDP::solve: callbacks, iteration
    budget, meaning of the returned boolean, regularisation, retries. *)
From Coq Require Import Ring Field ZArith PeanoNat List.
Set Warnings "-notation-overridden,-ambiguous-paths".
From mathcomp Require Import all_ssreflect all_algebra.
From Verif Require Import FieldTac Eigen EigenExact EigenFloat ExactLemmas Problem DDP Filter SQP CSQP FDDP Init FDDPInit
  Models FloatWitness TraceSpec Retry P_SQPRounds P_Retry DDPTrace DDPCtl P_DDPFloat P_FDDPFloat.
Set Implicit Arguments.
Unset Strict Implicit.
Unset Printing Implicit Defensive.
Import Order.TTheory GRing.Theory Num.Theory.

Section Any.
Variable E : Eig.
Variable M : manifold E.

(** C61 (SolverDDP, any arithmetic).  Every call that returns runs the callbacks of
    iterations 0, 1, ..., one round per finished iteration (each callback once, in order),
    with a residual above the tolerance and a step length of the list; get_iter() is their
    number and at most maxiter; true means residual within tolerance, before the budget is
    used up; false means budget used up or regularisation at its maximum.  See
    [DDPTrace.controlled].  An exception escapes only for a guess of the wrong size, and
    (T > 0) there is no undefined behaviour. *)
Theorem C61_ddp_control x0 (c : cfg E) fuel xs us maxiter feas reg (s : ddp M) :
  match ddp_solve x0 c fuel xs us maxiter feas reg s with
  | Ret b s' => exists l, controlled c maxiter reg b s s' l
  | Exc _ => set_guess xs us (pin_xt0 x0 (d_tr s)) = None
  | UB => False
  | NoFuel => True
  end.
Proof. exact: ddp_controlled. Qed.
(** C61 (SolverFDDP); only its filter (fddp.cpp:115-133) can read outside its buffer, see C55 *)
Theorem C61_fddp_control x0 (c : fcfg E) fuel xs us maxiter feas reg (s : fddp M) :
  match fddp_solve x0 c fuel xs us maxiter feas reg s with
  | Ret b s' => exists l, controlled (fc_ddp c) maxiter reg b (f_d s) (f_d s') l
  | Exc _ => set_guess xs us (pin_xt0 x0 (d_tr (f_d s))) = None
  | UB => fc_filter c = true
  | NoFuel => True
  end.
Proof. exact: fddp_controlled. Qed.
End Any.

Section Exact.
Local Open Scope ring_scope.
Variable F : archiFieldType.
Variable sq : F -> F.
Notation E := (ExactE sq).
Variable M : manifold E.

(** the regularisation of every direction computed by the solve, and the one left behind,
    is in [reg_min, reg_max], primal = dual *)
Definition reg_ok (c : cfg E) (s : ddp M) : Prop :=
  d_dreg s = d_preg s /\ (c_rmin c : F) <= d_preg s <= c_rmax c.
Theorem C61_ddp_regularisation_range x0 (c : cfg E) fuel xs us maxiter feas reg (s : ddp M) :
  reg_params c -> (c_rmin c : F) <= init_reg c reg <= c_rmax c ->
  (forall b s', ddp_solve x0 c fuel xs us maxiter feas reg s = Ret b s' -> reg_ok c s') /\
  (forall s0 rc s1, ddp_begin x0 c xs us feas reg s = Some s0 -> ddp_called x0 c fuel s0 maxiter rc s1 -> reg_ok c s1).
Proof.
move=> hp hi; split=> [b s' call|s0 rc s1 h0 h1].
  have := C61_ddp_control x0 c fuel xs us maxiter feas reg s; rewrite call => -[l [_ _ _ _ _ _ [h1 h2]]].
  by split=> //; exact: reg_reach_range h2.
by have [h2 h3] := ddp_called_regs h0 h1; split=> //; exact: reg_reach_range h3.
Qed.
Theorem C61_fddp_regularisation_range x0 (c : fcfg E) fuel xs us maxiter feas reg (s : fddp M) :
  reg_params (fc_ddp c) -> (c_rmin (fc_ddp c) : F) <= init_reg (fc_ddp c) reg <= c_rmax (fc_ddp c) ->
  (forall b s', fddp_solve x0 c fuel xs us maxiter feas reg s = Ret b s' -> reg_ok (fc_ddp c) (f_d s')) /\
  (forall s0 rc s1, fddp_begin x0 c xs us feas reg s = Some s0 -> fddp_called x0 c fuel s0 maxiter rc s1 ->
     reg_ok (fc_ddp c) (f_d s1)).
Proof.
move=> hp hi; split=> [b s' call|s0 rc s1 h0 h1].
  have := C61_fddp_control x0 c fuel xs us maxiter feas reg s; rewrite call => -[l [_ _ _ _ _ _ [h1 h2]]].
  by split=> //; exact: reg_reach_range h2.
by have [h2 h3] := fddp_called_regs h0 h1; split=> //; exact: reg_reach_range h3.
Qed.

(** a number of retries that no iteration of any solve with these parameters exceeds *)
Theorem C61_ddp_retries_bounded (c : cfg E) (reg : option F) :
  growing_reg c -> 0 < (init_reg c reg : F) ->
  exists N, forall fuel, (N <= fuel)%N -> forall x0 xs us maxiter feas (s : ddp M),
    ddp_solve x0 c fuel xs us maxiter feas reg s <> NoFuel.
Proof.
move=> hd p0; have [hi [h0 h1]] := hd; set m := min3 (init_reg c reg) (c_rmin c) (c_rmax c).
have m0 : 0 < m by exact: min3_gt0.
have [N hN] := retries_bound hd m0.
have [m1 m2 m3] := min3_le (init_reg c reg) (c_rmin c) (c_rmax c).
exists N => fuel hf x0 xs us k feas s.
apply: (ddp_solve_fuel _ (above_closed hd m0 m2 m3)) => // rc s1 h1'.
have [j hj ej] := hN _ h1'; apply: (@ddp_retry_bound _ _ x0 c j) => //.
  by apply/ssrnat.ltP; apply: leq_trans hj hf.
by rewrite -[req _ _ _]/((raised c j.+1 (d_preg s1) : F) == (c_rmax c : F)) ej eqxx.
Qed.
Theorem C61_fddp_retries_bounded (d : cfg E) (reg : option F) :
  growing_reg d -> 0 < (init_reg d reg : F) ->
  exists N, forall fuel, (N <= fuel)%N -> forall x0 (c : fcfg E), fc_ddp c = d -> forall xs us maxiter feas (s : fddp M),
    fddp_solve x0 c fuel xs us maxiter feas reg s <> NoFuel.
Proof.
move=> hd p0; have [hi [h0 h1]] := hd; set m := min3 (init_reg d reg) (c_rmin d) (c_rmax d).
have m0 : 0 < m by exact: min3_gt0.
have [N hN] := retries_bound hd m0.
have [m1 m2 m3] := min3_le (init_reg d reg) (c_rmin d) (c_rmax d).
exists N => fuel hf x0 c ec xs us k feas s; move: hd m0 m1 m2 m3 hN; rewrite {}/m -ec => hd m0 m1 m2 m3 hN.
apply: (fddp_solve_fuel _ (above_closed hd m0 m2 m3)) => // rc s1 h1'.
have [j hj ej] := hN _ h1'; apply: (@fddp_retry_bound _ _ x0 c j) => //.
  by apply/ssrnat.ltP; apply: leq_trans hj hf.
by rewrite -[req _ _ _]/((raised (fc_ddp c) j.+1 (d_preg (f_d s1)) : F) == (c_rmax (fc_ddp c) : F)) ej eqxx.
Qed.
(** the parameters are met by the ones of [C16_parameters_met] with reg_min as initial value *)
Theorem C61_parameters_met : exists c : cfg E, growing_reg c /\ 0 < (init_reg c None : F) /\ reg_params c.
Proof.
exists (@mkCfg E (1 + 1 : F) (1 + 1 : F) (1 : F) (1 + 1 + 1 : F) nil 0 0 0 0 0 0).
split; [exact: C16_parameters_met|split; [exact: ltr01|]].
by rewrite /reg_params /= ler_addl ler01 ler_addr addr_ge0 ?ler01.
Qed.
End Exact.

(** Concrete runs: three finished iterations (one callback registered) before the success,
    in binary64 with the default parameters; and SolverFDDP. *)
Definition numbers_of (l : list (event FloatE)) : list nat :=
  List.map (fun e => match e with EvCallback _ i _ _ _ _ => i | _ => 99 end) (List.rev l).
Theorem C61_runs : exists s1 s2,
  cold_run = Ret true s1 /\ d_iter s1 = 3 /\ numbers_of (d_log s1) = [:: 0; 1; 2] /\
  expect_run = Ret true s2 /\ numbers_of (d_log (f_d s2)) = List.seq 0 (d_iter (f_d s2)) /\ d_iter (f_d s2) <> 0.
Proof.
exists (state ddp1 cold_run), (state fddp1 expect_run).
split; [apply (@result_state _ ddp1 cold_run); vm_compute; reflexivity|].
split; [vm_compute; reflexivity|].
split; [vm_compute; reflexivity|].
split; [apply (@result_state _ fddp1 expect_run); vm_compute; reflexivity|].
split; [vm_compute; reflexivity|].
by vm_compute.
Qed.
Print Assumptions C61_ddp_control.
Print Assumptions C61_fddp_control.
