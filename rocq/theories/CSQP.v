(** * SolverCSQP (src/csqp.cpp, include/mim_solvers/csqp.hpp). *)
From Coq Require Import ZArith List Bool Arith.
From Verif Require Import Eigen Problem DDP Filter SQP.
Import ListNotations.
Set Implicit Arguments.
Set Asymmetric Patterns.

(** Parameters (csqp.hpp:286-360). *)
Record ccfg (E : Eig) := mkCcfg {
  cc_ddp : cfg E;
  cc_mu : R E;               (* mu_dynamic_ *)
  cc_mucon : R E;            (* mu_constraint_ *)
  cc_lagcoef : R E;          (* lag_mul_inf_norm_coef_ *)
  cc_filter : bool;          (* use_filter_line_search_ *)
  cc_fsize : nat;            (* filter_size_ *)
  cc_extra : bool;           (* extra_iteration_for_last_kkt_ *)
  cc_sigma : R E;            (* sigma_ *)
  cc_alpha : R E;            (* alpha_ *)
  cc_maxqp : nat;            (* iterations allowed by qp_iters_ < max_qp_iters_ + 1 *)
  cc_rhobase : R E;          (* rho_sparse_base_ *)
  cc_rhomin : R E;           (* rho_min_ *)
  cc_rhomax : R E;           (* rho_max_ *)
  cc_interval : nat;         (* rho_update_interval_ *)
  cc_adtol : R E;            (* adaptive_rho_tolerance_ *)
  cc_epsabs : R E;           (* eps_abs_ *)
  cc_epsrel : R E;           (* eps_rel_ *)
  cc_eqguess : bool;         (* equality_qp_initial_guess_ *)
  cc_resety : bool;          (* reset_y_ *)
  cc_resetrho : bool;        (* reset_rho_ *)
  cc_heur : bool;            (* update_rho_with_heuristic_ *)
  cc_removereg : bool;       (* remove_reg_ *)
  cc_mt : bool               (* problem_->get_nthreads() > 1 *)
}.

(** set_max_qp_iters(int) stores into a size_t (64 bits); the QP loop compares
    with max_qp_iters_ + 1, computed modulo 2^64 (csqp.hpp:243, csqp.cpp:470). *)
Definition qp_budget (iters : Z) : nat :=
  Z.to_nat (((iters mod 2 ^ 64 + 1) mod 2 ^ 64) - 1).

(** residual norms of the ADMM, csqp.cpp:1201-1204 *)
Record norms (E : Eig) := mkNorms { n_p : ext E; n_d : ext E; n_pr : ext E; n_dr : ext E }.

Section CSQP.
Variable E : Eig.
Variable M : manifold E.
Notation R := (R E).
Notation vec := (vec E).
Notation mat := (mat E).
Notation X := (mX M).
Notation ndx := (mndx M).
Notation node := (node M).
Notation tnode := (tnode M).

Record csqp := mkCsqp {
  k_tr : traj M;   (* xs_, us_, xs_try_, us_try_, fs_, Vxx_, ..., dx_, du_, lag_mul_, z_, y_, rho_vec_, problem datas *)
  k_preg : R;   (* preg_ *)
  k_dreg : R;   (* dreg_ *)
  k_cost : R;   (* cost_ *)
  k_costt : R;   (* cost_try_ *)
  k_merit : R;   (* merit_ *)
  k_meritt : R;   (* merit_try_ *)
  k_gap : R;   (* gap_norm_ *)
  k_gapt : R;   (* gap_norm_try_ *)
  k_con : R;   (* constraint_norm_ *)
  k_cont : R;   (* constraint_norm_try_ *)
  k_xg : R;   (* x_grad_norm_ *)
  k_ug : R;   (* u_grad_norm_ *)
  k_kkt : R;   (* KKT_ *)
  k_lagn : R;   (* lag_mul_inf_norm_ *)
  k_iter : nat;   (* iter_ *)
  k_step : R;   (* steplength_ (the base class member) *)
  k_costl : cbuf R;   (* cost_list_ *)
  k_gapl : cbuf R;   (* gap_list_ *)
  k_conl : cbuf R;   (* constraint_list_ *)
  k_rho : R;   (* rho_sparse_ *)
  k_rhoest : ext E;   (* rho_estimate_sparse_ *)
  k_norms : norms E;   (* norm_primal_, norm_dual_, norm_primal_rel_, norm_dual_rel_ *)
  k_tolp : ext E;   (* norm_primal_tolerance_ *)
  k_told : ext E;   (* norm_dual_tolerance_ *)
  k_qpit : nat;   (* qp_iters_ *)
  k_reached : bool;   (* max_solve_time_reached_ *)
  k_clk : nat;   (* number of clock checks so far (ghost) *)
  k_log : list (event E)   (* observable/ghost events, most recent first *)
}.
Definition set_k_tr (v : traj M) (s : csqp) : csqp :=
  mkCsqp v (k_preg s) (k_dreg s) (k_cost s) (k_costt s) (k_merit s) (k_meritt s) (k_gap s) (k_gapt s) (k_con s) (k_cont s) (k_xg s) (k_ug s) (k_kkt s) (k_lagn s) (k_iter s) (k_step s) (k_costl s) (k_gapl s) (k_conl s) (k_rho s) (k_rhoest s) (k_norms s) (k_tolp s) (k_told s) (k_qpit s) (k_reached s) (k_clk s) (k_log s).
Definition set_k_preg (v : R) (s : csqp) : csqp :=
  mkCsqp (k_tr s) v (k_dreg s) (k_cost s) (k_costt s) (k_merit s) (k_meritt s) (k_gap s) (k_gapt s) (k_con s) (k_cont s) (k_xg s) (k_ug s) (k_kkt s) (k_lagn s) (k_iter s) (k_step s) (k_costl s) (k_gapl s) (k_conl s) (k_rho s) (k_rhoest s) (k_norms s) (k_tolp s) (k_told s) (k_qpit s) (k_reached s) (k_clk s) (k_log s).
Definition set_k_dreg (v : R) (s : csqp) : csqp :=
  mkCsqp (k_tr s) (k_preg s) v (k_cost s) (k_costt s) (k_merit s) (k_meritt s) (k_gap s) (k_gapt s) (k_con s) (k_cont s) (k_xg s) (k_ug s) (k_kkt s) (k_lagn s) (k_iter s) (k_step s) (k_costl s) (k_gapl s) (k_conl s) (k_rho s) (k_rhoest s) (k_norms s) (k_tolp s) (k_told s) (k_qpit s) (k_reached s) (k_clk s) (k_log s).
Definition set_k_cost (v : R) (s : csqp) : csqp :=
  mkCsqp (k_tr s) (k_preg s) (k_dreg s) v (k_costt s) (k_merit s) (k_meritt s) (k_gap s) (k_gapt s) (k_con s) (k_cont s) (k_xg s) (k_ug s) (k_kkt s) (k_lagn s) (k_iter s) (k_step s) (k_costl s) (k_gapl s) (k_conl s) (k_rho s) (k_rhoest s) (k_norms s) (k_tolp s) (k_told s) (k_qpit s) (k_reached s) (k_clk s) (k_log s).
Definition set_k_costt (v : R) (s : csqp) : csqp :=
  mkCsqp (k_tr s) (k_preg s) (k_dreg s) (k_cost s) v (k_merit s) (k_meritt s) (k_gap s) (k_gapt s) (k_con s) (k_cont s) (k_xg s) (k_ug s) (k_kkt s) (k_lagn s) (k_iter s) (k_step s) (k_costl s) (k_gapl s) (k_conl s) (k_rho s) (k_rhoest s) (k_norms s) (k_tolp s) (k_told s) (k_qpit s) (k_reached s) (k_clk s) (k_log s).
Definition set_k_merit (v : R) (s : csqp) : csqp :=
  mkCsqp (k_tr s) (k_preg s) (k_dreg s) (k_cost s) (k_costt s) v (k_meritt s) (k_gap s) (k_gapt s) (k_con s) (k_cont s) (k_xg s) (k_ug s) (k_kkt s) (k_lagn s) (k_iter s) (k_step s) (k_costl s) (k_gapl s) (k_conl s) (k_rho s) (k_rhoest s) (k_norms s) (k_tolp s) (k_told s) (k_qpit s) (k_reached s) (k_clk s) (k_log s).
Definition set_k_meritt (v : R) (s : csqp) : csqp :=
  mkCsqp (k_tr s) (k_preg s) (k_dreg s) (k_cost s) (k_costt s) (k_merit s) v (k_gap s) (k_gapt s) (k_con s) (k_cont s) (k_xg s) (k_ug s) (k_kkt s) (k_lagn s) (k_iter s) (k_step s) (k_costl s) (k_gapl s) (k_conl s) (k_rho s) (k_rhoest s) (k_norms s) (k_tolp s) (k_told s) (k_qpit s) (k_reached s) (k_clk s) (k_log s).
Definition set_k_gap (v : R) (s : csqp) : csqp :=
  mkCsqp (k_tr s) (k_preg s) (k_dreg s) (k_cost s) (k_costt s) (k_merit s) (k_meritt s) v (k_gapt s) (k_con s) (k_cont s) (k_xg s) (k_ug s) (k_kkt s) (k_lagn s) (k_iter s) (k_step s) (k_costl s) (k_gapl s) (k_conl s) (k_rho s) (k_rhoest s) (k_norms s) (k_tolp s) (k_told s) (k_qpit s) (k_reached s) (k_clk s) (k_log s).
Definition set_k_gapt (v : R) (s : csqp) : csqp :=
  mkCsqp (k_tr s) (k_preg s) (k_dreg s) (k_cost s) (k_costt s) (k_merit s) (k_meritt s) (k_gap s) v (k_con s) (k_cont s) (k_xg s) (k_ug s) (k_kkt s) (k_lagn s) (k_iter s) (k_step s) (k_costl s) (k_gapl s) (k_conl s) (k_rho s) (k_rhoest s) (k_norms s) (k_tolp s) (k_told s) (k_qpit s) (k_reached s) (k_clk s) (k_log s).
Definition set_k_con (v : R) (s : csqp) : csqp :=
  mkCsqp (k_tr s) (k_preg s) (k_dreg s) (k_cost s) (k_costt s) (k_merit s) (k_meritt s) (k_gap s) (k_gapt s) v (k_cont s) (k_xg s) (k_ug s) (k_kkt s) (k_lagn s) (k_iter s) (k_step s) (k_costl s) (k_gapl s) (k_conl s) (k_rho s) (k_rhoest s) (k_norms s) (k_tolp s) (k_told s) (k_qpit s) (k_reached s) (k_clk s) (k_log s).
Definition set_k_cont (v : R) (s : csqp) : csqp :=
  mkCsqp (k_tr s) (k_preg s) (k_dreg s) (k_cost s) (k_costt s) (k_merit s) (k_meritt s) (k_gap s) (k_gapt s) (k_con s) v (k_xg s) (k_ug s) (k_kkt s) (k_lagn s) (k_iter s) (k_step s) (k_costl s) (k_gapl s) (k_conl s) (k_rho s) (k_rhoest s) (k_norms s) (k_tolp s) (k_told s) (k_qpit s) (k_reached s) (k_clk s) (k_log s).
Definition set_k_xg (v : R) (s : csqp) : csqp :=
  mkCsqp (k_tr s) (k_preg s) (k_dreg s) (k_cost s) (k_costt s) (k_merit s) (k_meritt s) (k_gap s) (k_gapt s) (k_con s) (k_cont s) v (k_ug s) (k_kkt s) (k_lagn s) (k_iter s) (k_step s) (k_costl s) (k_gapl s) (k_conl s) (k_rho s) (k_rhoest s) (k_norms s) (k_tolp s) (k_told s) (k_qpit s) (k_reached s) (k_clk s) (k_log s).
Definition set_k_ug (v : R) (s : csqp) : csqp :=
  mkCsqp (k_tr s) (k_preg s) (k_dreg s) (k_cost s) (k_costt s) (k_merit s) (k_meritt s) (k_gap s) (k_gapt s) (k_con s) (k_cont s) (k_xg s) v (k_kkt s) (k_lagn s) (k_iter s) (k_step s) (k_costl s) (k_gapl s) (k_conl s) (k_rho s) (k_rhoest s) (k_norms s) (k_tolp s) (k_told s) (k_qpit s) (k_reached s) (k_clk s) (k_log s).
Definition set_k_kkt (v : R) (s : csqp) : csqp :=
  mkCsqp (k_tr s) (k_preg s) (k_dreg s) (k_cost s) (k_costt s) (k_merit s) (k_meritt s) (k_gap s) (k_gapt s) (k_con s) (k_cont s) (k_xg s) (k_ug s) v (k_lagn s) (k_iter s) (k_step s) (k_costl s) (k_gapl s) (k_conl s) (k_rho s) (k_rhoest s) (k_norms s) (k_tolp s) (k_told s) (k_qpit s) (k_reached s) (k_clk s) (k_log s).
Definition set_k_lagn (v : R) (s : csqp) : csqp :=
  mkCsqp (k_tr s) (k_preg s) (k_dreg s) (k_cost s) (k_costt s) (k_merit s) (k_meritt s) (k_gap s) (k_gapt s) (k_con s) (k_cont s) (k_xg s) (k_ug s) (k_kkt s) v (k_iter s) (k_step s) (k_costl s) (k_gapl s) (k_conl s) (k_rho s) (k_rhoest s) (k_norms s) (k_tolp s) (k_told s) (k_qpit s) (k_reached s) (k_clk s) (k_log s).
Definition set_k_iter (v : nat) (s : csqp) : csqp :=
  mkCsqp (k_tr s) (k_preg s) (k_dreg s) (k_cost s) (k_costt s) (k_merit s) (k_meritt s) (k_gap s) (k_gapt s) (k_con s) (k_cont s) (k_xg s) (k_ug s) (k_kkt s) (k_lagn s) v (k_step s) (k_costl s) (k_gapl s) (k_conl s) (k_rho s) (k_rhoest s) (k_norms s) (k_tolp s) (k_told s) (k_qpit s) (k_reached s) (k_clk s) (k_log s).
Definition set_k_step (v : R) (s : csqp) : csqp :=
  mkCsqp (k_tr s) (k_preg s) (k_dreg s) (k_cost s) (k_costt s) (k_merit s) (k_meritt s) (k_gap s) (k_gapt s) (k_con s) (k_cont s) (k_xg s) (k_ug s) (k_kkt s) (k_lagn s) (k_iter s) v (k_costl s) (k_gapl s) (k_conl s) (k_rho s) (k_rhoest s) (k_norms s) (k_tolp s) (k_told s) (k_qpit s) (k_reached s) (k_clk s) (k_log s).
Definition set_k_costl (v : cbuf R) (s : csqp) : csqp :=
  mkCsqp (k_tr s) (k_preg s) (k_dreg s) (k_cost s) (k_costt s) (k_merit s) (k_meritt s) (k_gap s) (k_gapt s) (k_con s) (k_cont s) (k_xg s) (k_ug s) (k_kkt s) (k_lagn s) (k_iter s) (k_step s) v (k_gapl s) (k_conl s) (k_rho s) (k_rhoest s) (k_norms s) (k_tolp s) (k_told s) (k_qpit s) (k_reached s) (k_clk s) (k_log s).
Definition set_k_gapl (v : cbuf R) (s : csqp) : csqp :=
  mkCsqp (k_tr s) (k_preg s) (k_dreg s) (k_cost s) (k_costt s) (k_merit s) (k_meritt s) (k_gap s) (k_gapt s) (k_con s) (k_cont s) (k_xg s) (k_ug s) (k_kkt s) (k_lagn s) (k_iter s) (k_step s) (k_costl s) v (k_conl s) (k_rho s) (k_rhoest s) (k_norms s) (k_tolp s) (k_told s) (k_qpit s) (k_reached s) (k_clk s) (k_log s).
Definition set_k_conl (v : cbuf R) (s : csqp) : csqp :=
  mkCsqp (k_tr s) (k_preg s) (k_dreg s) (k_cost s) (k_costt s) (k_merit s) (k_meritt s) (k_gap s) (k_gapt s) (k_con s) (k_cont s) (k_xg s) (k_ug s) (k_kkt s) (k_lagn s) (k_iter s) (k_step s) (k_costl s) (k_gapl s) v (k_rho s) (k_rhoest s) (k_norms s) (k_tolp s) (k_told s) (k_qpit s) (k_reached s) (k_clk s) (k_log s).
Definition set_k_rho (v : R) (s : csqp) : csqp :=
  mkCsqp (k_tr s) (k_preg s) (k_dreg s) (k_cost s) (k_costt s) (k_merit s) (k_meritt s) (k_gap s) (k_gapt s) (k_con s) (k_cont s) (k_xg s) (k_ug s) (k_kkt s) (k_lagn s) (k_iter s) (k_step s) (k_costl s) (k_gapl s) (k_conl s) v (k_rhoest s) (k_norms s) (k_tolp s) (k_told s) (k_qpit s) (k_reached s) (k_clk s) (k_log s).
Definition set_k_rhoest (v : ext E) (s : csqp) : csqp :=
  mkCsqp (k_tr s) (k_preg s) (k_dreg s) (k_cost s) (k_costt s) (k_merit s) (k_meritt s) (k_gap s) (k_gapt s) (k_con s) (k_cont s) (k_xg s) (k_ug s) (k_kkt s) (k_lagn s) (k_iter s) (k_step s) (k_costl s) (k_gapl s) (k_conl s) (k_rho s) v (k_norms s) (k_tolp s) (k_told s) (k_qpit s) (k_reached s) (k_clk s) (k_log s).
Definition set_k_norms (v : norms E) (s : csqp) : csqp :=
  mkCsqp (k_tr s) (k_preg s) (k_dreg s) (k_cost s) (k_costt s) (k_merit s) (k_meritt s) (k_gap s) (k_gapt s) (k_con s) (k_cont s) (k_xg s) (k_ug s) (k_kkt s) (k_lagn s) (k_iter s) (k_step s) (k_costl s) (k_gapl s) (k_conl s) (k_rho s) (k_rhoest s) v (k_tolp s) (k_told s) (k_qpit s) (k_reached s) (k_clk s) (k_log s).
Definition set_k_tolp (v : ext E) (s : csqp) : csqp :=
  mkCsqp (k_tr s) (k_preg s) (k_dreg s) (k_cost s) (k_costt s) (k_merit s) (k_meritt s) (k_gap s) (k_gapt s) (k_con s) (k_cont s) (k_xg s) (k_ug s) (k_kkt s) (k_lagn s) (k_iter s) (k_step s) (k_costl s) (k_gapl s) (k_conl s) (k_rho s) (k_rhoest s) (k_norms s) v (k_told s) (k_qpit s) (k_reached s) (k_clk s) (k_log s).
Definition set_k_told (v : ext E) (s : csqp) : csqp :=
  mkCsqp (k_tr s) (k_preg s) (k_dreg s) (k_cost s) (k_costt s) (k_merit s) (k_meritt s) (k_gap s) (k_gapt s) (k_con s) (k_cont s) (k_xg s) (k_ug s) (k_kkt s) (k_lagn s) (k_iter s) (k_step s) (k_costl s) (k_gapl s) (k_conl s) (k_rho s) (k_rhoest s) (k_norms s) (k_tolp s) v (k_qpit s) (k_reached s) (k_clk s) (k_log s).
Definition set_k_qpit (v : nat) (s : csqp) : csqp :=
  mkCsqp (k_tr s) (k_preg s) (k_dreg s) (k_cost s) (k_costt s) (k_merit s) (k_meritt s) (k_gap s) (k_gapt s) (k_con s) (k_cont s) (k_xg s) (k_ug s) (k_kkt s) (k_lagn s) (k_iter s) (k_step s) (k_costl s) (k_gapl s) (k_conl s) (k_rho s) (k_rhoest s) (k_norms s) (k_tolp s) (k_told s) v (k_reached s) (k_clk s) (k_log s).
Definition set_k_reached (v : bool) (s : csqp) : csqp :=
  mkCsqp (k_tr s) (k_preg s) (k_dreg s) (k_cost s) (k_costt s) (k_merit s) (k_meritt s) (k_gap s) (k_gapt s) (k_con s) (k_cont s) (k_xg s) (k_ug s) (k_kkt s) (k_lagn s) (k_iter s) (k_step s) (k_costl s) (k_gapl s) (k_conl s) (k_rho s) (k_rhoest s) (k_norms s) (k_tolp s) (k_told s) (k_qpit s) v (k_clk s) (k_log s).
Definition set_k_clk (v : nat) (s : csqp) : csqp :=
  mkCsqp (k_tr s) (k_preg s) (k_dreg s) (k_cost s) (k_costt s) (k_merit s) (k_meritt s) (k_gap s) (k_gapt s) (k_con s) (k_cont s) (k_xg s) (k_ug s) (k_kkt s) (k_lagn s) (k_iter s) (k_step s) (k_costl s) (k_gapl s) (k_conl s) (k_rho s) (k_rhoest s) (k_norms s) (k_tolp s) (k_told s) (k_qpit s) (k_reached s) v (k_log s).
Definition set_k_log (v : list (event E)) (s : csqp) : csqp :=
  mkCsqp (k_tr s) (k_preg s) (k_dreg s) (k_cost s) (k_costt s) (k_merit s) (k_meritt s) (k_gap s) (k_gapt s) (k_con s) (k_cont s) (k_xg s) (k_ug s) (k_kkt s) (k_lagn s) (k_iter s) (k_step s) (k_costl s) (k_gapl s) (k_conl s) (k_rho s) (k_rhoest s) (k_norms s) (k_tolp s) (k_told s) (k_qpit s) (k_reached s) (k_clk s) v.

Definition cmul {n} (v w : vec n) : vec n := czip E (rmul E) v w.

(** ** Evaluation, csqp.cpp:411-452 *)

(** (lb - g).cwiseMax(0) and (g - ub).cwiseMax(0), with infinite sides None *)
Definition viol_lb {n} (lb : bvec E n) (g : vec n) : vec n :=
  czip E (fun b x => match b with None => r0 E | Some l => std_max (rsub E l x) (r0 E) end) lb g.
Definition viol_ub {n} (ub : bvec E n) (g : vec n) : vec n :=
  czip E (fun b x => match b with None => r0 E | Some u => std_max (rsub E x u) (r0 E) end) ub g.

(** csqp.cpp:427-440: gaps fs_[t+1], gap_norm_, constraint_norm_.  fs_[0] is not
    written.  [f] is the new value of fs_[t] ([None] at t = 0). *)
Fixpoint calc_nodes (f : option (vec ndx)) (l : list node) (tn : tnode) (gap con : R)
  : list node * tnode * (R * R) :=
  match l with
  | [] =>
      let tn' := match f with None => tn | Some v => set_tfs tn v end in
      ([], tn', (gap, con))
  | n :: l' =>
      let n' := match f with None => n | Some v => set_fs n v end in
      let f' := diff M (hd_x l' tn) (axnext (nm n) (mem n)) in
      let g := ag (nm n) (mem n) in
      let con1 := radd E con (vl1 E (viol_lb (alb (nm n)) g)) in
      let con2 := radd E con1 (vl1 E (viol_ub (aub (nm n)) g)) in
      let r := calc_nodes (Some f') l' tn (radd E gap (vl1 E f')) con2 in
      (n' :: fst (fst r), snd (fst r), snd r)
  end.
(** SolverCSQP::calc(true) *)
Definition csqp_calc (s : csqp) : csqp :=
  let r := problem_calcDiff (problem_calc (k_tr s)) in
  let t := fst r in
  let v := calc_nodes None (run t) (trm t) (r0 E) (r0 E) in
  let tn := snd (fst v) in
  let g := tg (tm tn) (tme tn) in
  let con1 := radd E (snd (snd v)) (vl1 E (viol_lb (tlb (tm tn)) g)) in
  let con2 := radd E con1 (vl1 E (viol_ub (tub (tm tn)) g)) in
  set_k_con con2 (set_k_gap (fst (snd v)) (set_k_cost (snd r)
    (set_k_tr (mkTraj (fst (fst v)) tn) s))).

(** ** Penalties *)
Variable c : ccfg E.
Notation dc := (cc_ddp c).

(** one row of apply_rho_update, csqp.cpp:551-560: new (rho, 1/rho), or None when
    no branch writes the row.  A bound is finite or infinite on its own side. *)
Definition rho_row (rho : R) (lb ub : option R) : option (R * R) :=
  match lb, ub with
  | None, None => Some (cc_rhomin c, rdiv E (r1 E) (cc_rhomin c))
  | Some l, Some u =>
      if rle E (rabs E (rsub E l u)) (rlit E 1 1000000)
      then Some (rmul E (rlit E 1000 1) rho, rdiv E (r1 E) (rmul E (rlit E 1000 1) rho))
      else if rlt E l u then Some (rho, rdiv E (r1 E) rho)
      else None
  | _, _ => Some (rho, rdiv E (r1 E) rho)
  end.
Definition rho_rows {n} (rho : R) (lb ub : bvec E n) (old oldi : vec n) : vec n * vec n :=
  let w := czip E (rho_row rho) lb ub in
  (czip E (fun (o : option (R * R)) r => match o with None => r | Some p => fst p end) w old,
   czip E (fun (o : option (R * R)) r => match o with None => r | Some p => snd p end) w oldi).
Definition rho_node (rho : R) (n : node) : node :=
  let a := adm n in
  let r := rho_rows rho (alb (nm n)) (aub (nm n)) (arho a) (airho a) in
  set_adm n (mkAdmm (dxt a) (dut a) (az a) (azp a) (azr a) (ay a) (fst r) (snd r)).
Definition rho_tnode (rho : R) (tn : tnode) : tnode :=
  let r := rho_rows rho (tlb (tm tn)) (tub (tm tn)) (tarho tn) (tairho tn) in
  set_trho tn (fst r) (snd r).
(** apply_rho_update, csqp.cpp:539-582 *)
Definition apply_rho (rho : R) (t : traj M) : traj M :=
  mkTraj (map (rho_node rho) (run t)) (rho_tnode rho (trm t)).
(** reset_rho_vec, csqp.cpp:534-537 *)
Definition reset_rho (s : csqp) : csqp :=
  set_k_tr (apply_rho (cc_rhobase c) (k_tr s)) (set_k_rho (cc_rhobase c) s).

(** reset_params, csqp.cpp:170-193 *)
Definition reset_node (n : node) : node :=
  let a := adm n in
  set_adm n (mkAdmm (dxt a) (dut a) (vzero E) (vzero E) (vzero E)
               (if cc_resety c then vzero E else ay a) (arho a) (airho a)).
Definition reset_tnode (tn : tnode) : tnode :=
  set_tzy tn (vzero E) (vzero E) (vzero E) (if cc_resety c then vzero E else tay tn).
Definition reset_params (s : csqp) : csqp :=
  let s1 := if cc_resetrho c then reset_rho s else s in
  set_k_tr (mkTraj (map reset_node (run (k_tr s1))) (reset_tnode (trm (k_tr s1)))) s1.

(** ** Backward passes *)

(** y - rho .* z *)
Definition dual_cwise {nu ng} (a : admm M nu ng) : vec ng := vsub E (ay a) (cmul (arho a) (az a)).
(** G1' * (rho .asDiagonal() * G2) *)
Definition rho_gram {ng p q} (r : vec ng) (G1 : mat ng p) (G2 : mat ng q) : mat p q :=
  mmul E (mtr E G1) (mdiagmul E r G2).

(** terminal values of backwardPass, csqp.cpp:695-712 *)
Definition cb_tVx (sigma : R) (tn : tnode) : vec ndx :=
  let d := tder tn in
  let v := vsub E (tLx d) (vscale E sigma (tdx tn)) in
  if negb (tng (tm tn) =? 0)
  then vadd E v (mmulv E (mtr E (tGx d)) (vsub E (tay tn) (cmul (tarho tn) (taz tn))))
  else v.
Definition cb_term (preg : R) (tn : tnode) : tnode :=
  let sigma := cc_sigma c in
  let d := tder tn in
  let A := madddiag E (tLxx d) sigma in
  let A1 := if negb (tng (tm tn) =? 0) then madd E A (rho_gram (tarho tn) (tGx d) (tGx d)) else A in
  set_tV tn (add_reg E A1 preg) (cb_tVx sigma tn).

(** computeGains and the value function update common to all full passes,
    ddp.cpp:401-429 and csqp.cpp:779-799; [symm] is the symmetrisation used. *)
Definition cb_finish (symm : mat ndx ndx -> mat ndx ndx) (preg : R) (n : node)
    (qx : vec ndx) (qxx : mat ndx ndx) (qu : vec (nu (nm n))) (quu : mat (nu (nm n)) (nu (nm n)))
    (qxu : mat ndx (nu (nm n))) (vfs : vec ndx) : bool * node :=
  let v := val n in
  let hasu := negb (nu (nm n) =? 0) in
  let fact := if hasu then quu else llt v in
  if hasu && negb (llt_ok E quu)
  then (false, set_val n (mkVals (Vxx v) (Vx v) qxx qxu quu qx qu (gK v) (gk v) (Quuk v) fact vfs))
  else
    let K := if hasu then llt_solvem E quu (mtr E qxu) else gK v in
    let k := if hasu then llt_solvev E quu qu else gk v in
    let vx := if hasu then vsub E qx (mmulv E (mtr E K) qu) else qx in
    let vxx0 := if hasu then msub E qxx (mmul E qxu K) else qxx in
    (true, set_val n (mkVals (add_reg E (symm vxx0) preg) vx qxx qxu quu qx qu K k (Quuk v) fact vfs)).

(** one node of backwardPass, csqp.cpp:721-799; [first] = (t == 0),
    [Vxxp] = Vxx_[t+1], [Vxp] = Vx_[t+1], [fsp] = fs_[t+1] *)
Definition cb_node (preg dreg : R) (first : bool) (n : node)
    (Vxxp : mat ndx ndx) (Vxp fsp : vec ndx) : bool * node :=
  let sigma := cc_sigma c in
  let d := der n in
  let v := val n in
  let a := adm n in
  let hasu := negb (nu (nm n) =? 0) in
  let hasc := negb (ng (nm n) =? 0) in
  let vfs := mmulv E Vxxp fsp in
  let tV := vadd E vfs Vxp in
  let FxTV := mmul E (mtr E (Fx d)) Vxxp in
  let w := dual_cwise a in
  let qx0 := vsub E (Lx d) (vscale E sigma (dx (dir n))) in
  let qx1 := if hasc && negb first then vadd E qx0 (mmulv E (mtr E (Gx d)) w) else qx0 in
  let qx := vadd E qx1 (mmulv E (mtr E (Fx d)) tV) in
  let qxx0 := madddiag E (Lxx d) sigma in
  let qxx1 := if negb first && hasc then madd E qxx0 (rho_gram (arho a) (Gx d) (Gx d)) else qxx0 in
  let qxx := madd E qxx1 (mmul E FxTV (Fx d)) in
  let qu0 := vsub E (Lu d) (vscale E sigma (du (dir n))) in
  let qu1 := if hasc then vadd E qu0 (mmulv E (mtr E (Gu d)) w) else qu0 in
  let qu := if hasu then vadd E qu1 (mmulv E (mtr E (Fu d)) tV) else Qu v in
  let quu0 := madd E (madddiag E (Luu d) sigma) (mmul E (mmul E (mtr E (Fu d)) Vxxp) (Fu d)) in
  let quu1 := if hasc then madd E quu0 (rho_gram (arho a) (Gu d) (Gu d)) else quu0 in
  let quu := if hasu then add_reg E quu1 dreg else Quu v in
  let qxu0 := if negb first && hasc then madd E (Lxu d) (rho_gram (arho a) (Gx d) (Gu d)) else Lxu d in
  let qxu := if hasu then madd E qxu0 (mmul E FxTV (Fu d)) else Qxu v in
  cb_finish (symmetrize E) preg n qx qxx qu quu qxu vfs.

Fixpoint cb_nodes (preg dreg : R) (first : bool) (l : list node) (tn : tnode) : bool * list node :=
  match l with
  | [] => (true, [])
  | n :: l' =>
      let r := cb_nodes preg dreg false l' tn in
      if fst r then
        let r1 := cb_node preg dreg first n (hd_Vxx (snd r) tn) (hd_Vx (snd r) tn) (hd_fs (snd r) tn) in
        (fst r1, snd r1 :: snd r)
      else (false, n :: snd r)
  end.
(** SolverCSQP::backwardPass, csqp.cpp:671-802 *)
Definition cb_backward (preg dreg : R) (s : traj M) : bool * traj M :=
  let tn := cb_term preg (trm s) in
  let r := cb_nodes preg dreg true (run s) tn in
  (fst r, mkTraj (snd r) tn).

(** backwardPass_without_constraints, csqp.cpp:804-898.  Vxx_fs_ is not written. *)
Definition cw_term (preg : R) (tn : tnode) : tnode :=
  set_tV tn (add_reg E (tLxx (tder tn)) preg) (tLx (tder tn)).
Definition cw_node (preg dreg : R) (n : node) (Vxxp : mat ndx ndx) (Vxp fsp : vec ndx) : bool * node :=
  let d := der n in
  let v := val n in
  let hasu := negb (nu (nm n) =? 0) in
  let tV := vadd E (mmulv E Vxxp fsp) Vxp in
  let FxTV := mmul E (mtr E (Fx d)) Vxxp in
  let qx := vadd E (Lx d) (mmulv E (mtr E (Fx d)) tV) in
  let qxx := madd E (Lxx d) (mmul E FxTV (Fx d)) in
  let qu := if hasu then vadd E (Lu d) (mmulv E (mtr E (Fu d)) tV) else Qu v in
  let quu := if hasu
             then add_reg E (madd E (Luu d) (mmul E (mmul E (mtr E (Fu d)) Vxxp) (Fu d))) dreg
             else Quu v in
  let qxu := if hasu then madd E (Lxu d) (mmul E FxTV (Fu d)) else Qxu v in
  cb_finish (symmetrize E) preg n qx qxx qu quu qxu (Vxxfs v).
Fixpoint cw_nodes (preg dreg : R) (l : list node) (tn : tnode) : bool * list node :=
  match l with
  | [] => (true, [])
  | n :: l' =>
      let r := cw_nodes preg dreg l' tn in
      if fst r then
        let r1 := cw_node preg dreg n (hd_Vxx (snd r) tn) (hd_Vx (snd r) tn) (hd_fs (snd r) tn) in
        (fst r1, snd r1 :: snd r)
      else (false, n :: snd r)
  end.
Definition cw_backward (preg dreg : R) (s : traj M) : bool * traj M :=
  let tn := cw_term preg (trm s) in
  let r := cw_nodes preg dreg (run s) tn in
  (fst r, mkTraj (snd r) tn).

(** backwardPass_mt, csqp.cpp:900-1023.  Parallel phase (lines 939-983) for one
    node: fills Qx, Qxx, Qu, Quu, Qxu without the value function of the
    successor.  It touches only slot t (see Parallel.v for arbitrary schedules). *)
Definition cm_init (dreg : R) (first : bool) (n : node) : node :=
  let sigma := cc_sigma c in
  let d := der n in
  let v := val n in
  let a := adm n in
  let hasu := negb (nu (nm n) =? 0) in
  let hasc := negb (ng (nm n) =? 0) in
  let w := dual_cwise a in
  let qx0 := vsub E (Lx d) (vscale E sigma (dx (dir n))) in
  let qx := if hasc && negb first then vadd E qx0 (mmulv E (mtr E (Gx d)) w) else qx0 in
  let qxx0 := madddiag E (Lxx d) sigma in
  let qxx := if negb first && hasc then madd E qxx0 (rho_gram (arho a) (Gx d) (Gx d)) else qxx0 in
  let qu0 := vsub E (Lu d) (vscale E sigma (du (dir n))) in
  let qu := if hasu then (if hasc then vadd E qu0 (mmulv E (mtr E (Gu d)) w) else qu0) else Qu v in
  let quu0 := madddiag E (Luu d) sigma in
  let quu1 := if hasc then madd E quu0 (rho_gram (arho a) (Gu d) (Gu d)) else quu0 in
  let quu := if hasu then add_reg E quu1 dreg else Quu v in
  let qxu := if hasu then (if negb first && hasc then madd E (Lxu d) (rho_gram (arho a) (Gx d) (Gu d)) else Lxu d)
             else Qxu v in
  set_val n (mkVals (Vxx v) (Vx v) qxx qxu quu qx qu (gK v) (gk v) (Quuk v) (llt v) (Vxxfs v)).
(** sequential phase (lines 986-1020) *)
Definition cm_node (preg : R) (n : node) (Vxxp : mat ndx ndx) (Vxp fsp : vec ndx) : bool * node :=
  let d := der n in
  let v := val n in
  let hasu := negb (nu (nm n) =? 0) in
  let FxTV := mmul E (mtr E (Fx d)) Vxxp in
  let qxx := madd E (Qxx v) (mmul E FxTV (Fx d)) in
  let vfs := mmulv E Vxxp fsp in
  let tV := vadd E vfs Vxp in
  let qx := vadd E (Qx v) (mmulv E (mtr E (Fx d)) tV) in
  let quu := if hasu then madd E (Quu v) (mmul E (mmul E (mtr E (Fu d)) Vxxp) (Fu d)) else Quu v in
  let qu := if hasu then vadd E (Qu v) (mmulv E (mtr E (Fu d)) tV) else Qu v in
  let qxu := if hasu then madd E (Qxu v) (mmul E FxTV (Fu d)) else Qxu v in
  cb_finish (fun A => mupper E (symmetrize E A)) preg n qx qxx qu quu qxu vfs.
Fixpoint cm_nodes (preg : R) (l : list node) (tn : tnode) : bool * list node :=
  match l with
  | [] => (true, [])
  | n :: l' =>
      let r := cm_nodes preg l' tn in
      if fst r then
        let r1 := cm_node preg n (hd_Vxx (snd r) tn) (hd_Vx (snd r) tn) (hd_fs (snd r) tn) in
        (fst r1, snd r1 :: snd r)
      else (false, n :: snd r)
  end.
(** the parallel loop of the multithreaded passes, here in index order *)
Definition map_first (f : bool -> node -> node) (l : list node) : list node :=
  match l with [] => [] | n :: l' => f true n :: map (f false) l' end.
Definition cm_backward (preg dreg : R) (s : traj M) : bool * traj M :=
  let tn := cb_term preg (trm s) in
  let l := map_first (cm_init dreg) (run s) in
  let r := cm_nodes preg l tn in
  (fst r, mkTraj (snd r) tn).

(** backwardPass_without_rho_update, csqp.cpp:1025-1108 *)
Definition cf_term (tn : tnode) : tnode := set_tV tn (tVxx tn) (cb_tVx (cc_sigma c) tn).
Definition cf_node (first : bool) (n : node) (Vxp : vec ndx) : node :=
  let sigma := cc_sigma c in
  let d := der n in
  let v := val n in
  let a := adm n in
  let hasu := negb (nu (nm n) =? 0) in
  let hasc := negb (ng (nm n) =? 0) in
  let tV := vadd E (Vxxfs v) Vxp in
  let w := dual_cwise a in
  let qx0 := vsub E (Lx d) (vscale E sigma (dx (dir n))) in
  let qx1 := if hasc && negb first then vadd E qx0 (mmulv E (mtr E (Gx d)) w) else qx0 in
  let qx := vadd E qx1 (mmulv E (mtr E (Fx d)) tV) in
  let qu0 := vsub E (Lu d) (vscale E sigma (du (dir n))) in
  let qu1 := if hasc then vadd E qu0 (mmulv E (mtr E (Gu d)) w) else qu0 in
  let qu := if hasu then vadd E qu1 (mmulv E (mtr E (Fu d)) tV) else Qu v in
  let k := llt_solvev E (llt v) qu in
  let vx := if hasu then vsub E qx (mmulv E (mtr E (gK v)) qu) else qx in
  set_val n (mkVals (Vxx v) vx (Qxx v) (Qxu v) (Quu v) qx qu (gK v) k (Quuk v) (llt v) (Vxxfs v)).
Fixpoint cf_nodes (first : bool) (l : list node) (tn : tnode) : list node :=
  match l with
  | [] => []
  | n :: l' => let r := cf_nodes false l' tn in cf_node first n (hd_Vx r tn) :: r
  end.
Definition cf_backward (s : traj M) : traj M :=
  let tn := cf_term (trm s) in
  mkTraj (cf_nodes true (run s) tn) tn.

(** backwardPass_without_rho_update_mt, csqp.cpp:1110-1194: parallel phase 1
    (1146-1170), sequential sweep (1173-1186), parallel phase 2 (1189-1192) *)
Definition cfm_init (first : bool) (n : node) : node :=
  let sigma := cc_sigma c in
  let d := der n in
  let v := val n in
  let a := adm n in
  let hasu := negb (nu (nm n) =? 0) in
  let hasc := negb (ng (nm n) =? 0) in
  let w := dual_cwise a in
  let qx0 := vsub E (Lx d) (vscale E sigma (dx (dir n))) in
  let qx := if hasc && negb first then vadd E qx0 (mmulv E (mtr E (Gx d)) w) else qx0 in
  let qu0 := vsub E (Lu d) (vscale E sigma (du (dir n))) in
  let qu := if hasu then (if hasc then vadd E qu0 (mmulv E (mtr E (Gu d)) w) else qu0) else Qu v in
  set_val n (mkVals (Vxx v) (Vx v) (Qxx v) (Qxu v) (Quu v) qx qu (gK v) (gk v) (Quuk v) (llt v) (Vxxfs v)).
Definition cfm_sweep (n : node) (Vxp : vec ndx) : node :=
  let d := der n in
  let v := val n in
  let hasu := negb (nu (nm n) =? 0) in
  let tV := vadd E (Vxxfs v) Vxp in
  let qx := vadd E (Qx v) (mmulv E (mtr E (Fx d)) tV) in
  let qu := if hasu then vadd E (Qu v) (mmulv E (mtr E (Fu d)) tV) else Qu v in
  let vx := if hasu then vsub E qx (mmulv E (mtr E (gK v)) qu) else qx in
  set_val n (mkVals (Vxx v) vx (Qxx v) (Qxu v) (Quu v) qx qu (gK v) (gk v) (Quuk v) (llt v) (Vxxfs v)).
Fixpoint cfm_nodes (l : list node) (tn : tnode) : list node :=
  match l with
  | [] => []
  | n :: l' => let r := cfm_nodes l' tn in cfm_sweep n (hd_Vx r tn) :: r
  end.
Definition cfm_gain (n : node) : node :=
  let v := val n in
  set_val n (mkVals (Vxx v) (Vx v) (Qxx v) (Qxu v) (Quu v) (Qx v) (Qu v) (gK v)
               (llt_solvev E (llt v) (Qu v)) (Quuk v) (llt v) (Vxxfs v)).
Definition cfm_backward (s : traj M) : traj M :=
  let tn := cf_term (trm s) in
  mkTraj (map cfm_gain (cfm_nodes (map_first cfm_init (run s)) tn)) tn.

(** ** Forward passes *)

(** forwardPass, csqp.cpp:630-647: writes dutilde_[t], dxtilde_[t+1] *)
Definition set_dxtut (n : node) (d : vec ndx) (u : vec (nu (nm n))) : node :=
  let a := adm n in
  set_adm n (mkAdmm d u (az a) (azp a) (azr a) (ay a) (arho a) (airho a)).
Definition cfwd_u (n : node) (d : vec ndx) : vec (nu (nm n)) :=
  vsub E (vopp E (gk (val n))) (mmulv E (gK (val n)) d).
Definition cfwd_x (n : node) (fsp d : vec ndx) (u : vec (nu (nm n))) : vec ndx :=
  vadd E (vadd E fsp (mmulv E (Fx (der n)) d)) (mmulv E (Fu (der n)) u).
Fixpoint cfwd_nodes (d : vec ndx) (l : list node) (tn : tnode) : list node * tnode :=
  match l with
  | [] => ([], set_tdxt tn d)
  | n :: l' =>
      let u := cfwd_u n d in
      let r := cfwd_nodes (cfwd_x n (hd_fs l' tn) d u) l' tn in
      (set_dxtut n d u :: fst r, snd r)
  end.
Definition cforward (s : traj M) : traj M :=
  let r := cfwd_nodes (hd_dxt (run s) (trm s)) (run s) (trm s) in
  mkTraj (fst r) (snd r).
(** forwardPass_without_constraints, csqp.cpp:649-669: the same into dx_, du_ *)
Fixpoint cwfwd_nodes (d : vec ndx) (l : list node) (tn : tnode) : list node * tnode :=
  match l with
  | [] => ([], set_tdx tn d)
  | n :: l' =>
      let u := cfwd_u n d in
      let r := cwfwd_nodes (cfwd_x n (hd_fs l' tn) d u) l' tn in
      (set_dir n (mkDirs d u (lam (dir n))) :: fst r, snd r)
  end.
Definition cwforward (s : traj M) : traj M :=
  let r := cwfwd_nodes (hd_dx (run s) (trm s)) (run s) (trm s) in
  mkTraj (fst r) (snd r).

(** ** ADMM update, csqp.cpp:1196-1340 *)

(** z.cwiseMax(lb - g).cwiseMin(ub - g) *)
Definition clamp_row (l u : option R) (g z : R) : R :=
  let z1 := match l with None => z | Some b => std_max z (rsub E b g) end in
  match u with None => z1 | Some b => std_min z1 (rsub E b g) end.
Definition clamp {n} (lb ub : bvec E n) (g z : vec n) : vec n :=
  czip E (fun (p : option R * option R) (q : R * R) => clamp_row (fst p) (snd p) (fst q) (snd q))
    (czip E pair lb ub) (czip E pair g z).

(** the row-wise update of z_relaxed_, z_ and y_ (1228-1239); result (zr, z, y) *)
Definition admm_rows {n} (lb ub : bvec E n) (g cd z y rho irho : vec n) : vec n * vec n * vec n :=
  let zr := vadd E (vscale E (cc_alpha c) cd) (vscale E (rsub E (r1 E) (cc_alpha c)) z) in
  let z' := clamp lb ub g (vadd E zr (cmul y irho)) in
  let y' := vadd E y (cmul rho (vsub E zr z')) in
  (zr, z', y').
Definition node_Cd (n : node) : vec (ng (nm n)) :=
  vadd E (mmulv E (Gx (der n)) (dxt (adm n))) (mmulv E (Gu (der n)) (dut (adm n))).
Definition admm_node (n : node) : node :=
  let a := adm n in
  let n1 := set_dir n (mkDirs (dxt a) (dut a) (lam (dir n))) in
  if ng (nm n) =? 0 then n1
  else
    let r := admm_rows (alb (nm n)) (aub (nm n)) (ag (nm n) (mem n)) (node_Cd n) (az a) (ay a)
               (arho a) (airho a) in
    set_adm n1 (mkAdmm (dxt a) (dut a) (snd (fst r)) (az a) (fst (fst r)) (snd r) (arho a) (airho a)).
Definition tnode_Cd (tn : tnode) : vec (tng (tm tn)) := mmulv E (tGx (tder tn)) (tdxt tn).
Definition admm_tnode (tn : tnode) : tnode :=
  let n1 := set_tdx tn (tdxt tn) in
  if tng (tm tn) =? 0 then n1
  else
    let r := admm_rows (tlb (tm tn)) (tub (tm tn)) (tg (tm tn) (tme tn)) (tnode_Cd tn) (taz tn) (tay tn)
               (tarho tn) (tairho tn) in
    set_tzy n1 (snd (fst r)) (taz tn) (fst (fst r)) (snd r).

(** residual norms after the update, csqp.cpp:1244-1280 and 1303-1337; [n] is
    the updated node (z_prev_ holds the previous z_) *)
Definition emax (a : ext E) (b : R) : ext E := estd_max a (efin E b).
Definition norms_node (heur : bool) (w : norms E) (n : node) : norms E :=
  if ng (nm n) =? 0 then w
  else
    let a := adm n in
    let d := der n in
    let cd := node_Cd n in
    let tdual := cmul (arho a) (vsub E (az a) (azp a)) in
    let np := emax (n_p w) (vlinf E (vsub E cd (az a))) in
    let npr := emax (emax (n_pr w) (vlinf E cd)) (vlinf E (az a)) in
    if heur
    then mkNorms E np (emax (n_d w) (vlinf E tdual)) npr (emax (n_dr w) (vlinf E (ay a)))
    else mkNorms E np
           (emax (emax (n_d w) (vlinf E (mmulv E (mtr E (Gx d)) tdual))) (vlinf E (mmulv E (mtr E (Gu d)) tdual)))
           npr
           (emax (emax (n_dr w) (vlinf E (mmulv E (mtr E (Gx d)) (ay a)))) (vlinf E (mmulv E (mtr E (Gu d)) (ay a)))).
Definition norms_tnode (heur : bool) (w : norms E) (tn : tnode) : norms E :=
  if tng (tm tn) =? 0 then w
  else
    let d := tder tn in
    let cd := tnode_Cd tn in
    let tdual := cmul (tarho tn) (vsub E (taz tn) (tazp tn)) in
    let np := emax (n_p w) (vlinf E (vsub E cd (taz tn))) in
    let npr := emax (emax (n_pr w) (vlinf E cd)) (vlinf E (taz tn)) in
    if heur
    then mkNorms E np (emax (n_d w) (vlinf E tdual)) npr (emax (n_dr w) (vlinf E (tay tn)))
    else mkNorms E np (emax (n_d w) (vlinf E (mmulv E (mtr E (tGx d)) tdual))) npr
           (emax (n_dr w) (vlinf E (mmulv E (mtr E (tGx d)) (tay tn)))).
Definition norms_init : norms E := mkNorms E (eninf E) (eninf E) (eninf E) (eninf E).
Definition norms_of (heur : bool) (t : traj M) : norms E :=
  norms_tnode heur (fold_left (norms_node heur) (run t) norms_init) (trm t).
(** [atint] = (iter % rho_update_interval_ == 0) *)
Definition update_lagrangian (atint : bool) (s : csqp) : csqp :=
  let t := mkTraj (map admm_node (run (k_tr s))) (admm_tnode (trm (k_tr s))) in
  set_k_norms (if atint then norms_of (cc_heur c) t else norms_init) (set_k_tr t s).

(** update_rho_vec, csqp.cpp:519-532 *)
Definition rho_estimate (w : norms E) (rho : R) : ext E :=
  let scale := esqrt E (ediv E (emul E (n_p w) (n_dr w)) (emul E (n_d w) (n_pr w))) in
  estd_min (estd_max (emul E scale (efin E rho)) (efin E (cc_rhomin c))) (efin E (cc_rhomax c)).
Definition update_rho (atint : bool) (s : csqp) : csqp :=
  let e := rho_estimate (k_norms s) (k_rho s) in
  let s1 := set_k_rhoest e s in
  if atint && (elt E (efin E (rmul E (k_rho s) (cc_adtol c))) e
               || elt E e (efin E (rdiv E (k_rho s) (cc_adtol c))))
  then set_k_tr (apply_rho (eto E e) (k_tr s1)) (set_k_rho (eto E e) s1)
  else s1.

(** tolerances and QP termination test, csqp.cpp:497-512 *)
Definition qp_tolerances (s : csqp) : csqp :=
  if rle E (rabs E (cc_epsrel c)) (rlit E 1 (2 ^ 52))
  then set_k_told (efin E (cc_epsabs c)) (set_k_tolp (efin E (cc_epsabs c)) s)
  else set_k_told (eadd E (efin E (cc_epsabs c)) (emul E (efin E (cc_epsrel c)) (n_dr (k_norms s))))
         (set_k_tolp (eadd E (efin E (cc_epsabs c)) (emul E (efin E (cc_epsrel c)) (n_pr (k_norms s)))) s).
Definition qp_converged (s : csqp) : bool :=
  ele E (n_p (k_norms s)) (k_tolp s) && ele E (n_d (k_norms s)) (k_told s).

(** clock: [timeout n] says whether elapsed >= max_solve_time_ at the n-th check *)
Variable timeout : nat -> bool.
Definition tick (s : csqp) : bool * csqp :=
  let b := timeout (k_clk s) in
  (b, set_k_log (EvClock E b :: k_log s) (set_k_clk (S (k_clk s)) s)).

(** the pass chosen at QP iteration [i], csqp.cpp:477-491 *)
Definition qp_full (i : nat) : bool :=
  (i mod cc_interval c =? 1) || (cc_interval c =? 1).
Definition qp_pass (i : nat) (s : csqp) : bool * csqp :=
  if qp_full i then
    let r := if cc_mt c then cm_backward (k_preg s) (k_dreg s) (k_tr s)
             else cb_backward (k_preg s) (k_dreg s) (k_tr s) in
    (fst r, set_k_tr (snd r) s)
  else (true, set_k_tr (if cc_mt c then cfm_backward (k_tr s) else cf_backward (k_tr s)) s).

Inductive qpres :=
  | QDone (s : csqp)
  | QThrow (s : csqp)
  | QUB.

(** body of one QP iteration after the clock check, csqp.cpp:477-512 *)
Inductive stepres :=
  | SThrow (s : csqp)      (* backwardPass threw *)
  | SStop (s : csqp)       (* QP converged: break *)
  | SGo (s : csqp).
Definition qp_step (i : nat) (s : csqp) : stepres :=
  let p := qp_pass i (set_k_log (EvQP E i :: k_log s) s) in
  if fst p then
    let atint := i mod cc_interval c =? 0 in
    let s1 := set_k_tr (cforward (k_tr (snd p))) (snd p) in
    let s2 := update_rho atint (update_lagrangian atint s1) in
    if atint then
      let s3 := qp_tolerances s2 in if qp_converged s3 then SStop s3 else SGo s3
    else SGo s2
  else SThrow (snd p).
(** loop csqp.cpp:470-513; [r] = iterations left, [i] = qp_iters_.  An interval of
    0 makes the modulo undefined. *)
Fixpoint qp_loop (r i : nat) (s : csqp) : qpres :=
  match r with
  | O => QDone (set_k_qpit i s)
  | S r' =>
      let b := tick s in
      if fst b then QDone (set_k_reached true (set_k_qpit (i - 1) (snd b)))
      else if cc_interval c =? 0 then QUB
      else
        match qp_step i (snd b) with
        | SThrow s1 => QThrow (set_k_qpit i s1)
        | SStop s1 => QDone (set_k_qpit i s1)
        | SGo s1 => qp_loop r' (S i) s1
        end
  end.

(** SolverCSQP::computeDirection, csqp.cpp:454-517 *)
Definition csqp_computeDirection (s : csqp) : qpres :=
  let s1 := reset_params s in
  if cc_eqguess c then
    let r := cw_backward (k_preg s1) (k_dreg s1) (k_tr s1) in
    let s2 := set_k_tr (snd r) s1 in
    if fst r then qp_loop (cc_maxqp c) 1 (set_k_tr (cwforward (k_tr s2)) s2)
    else QThrow s2
  else qp_loop (cc_maxqp c) 1 s1.

(** ** KKT check, csqp.cpp:584-628 *)
Definition lag_node (n : node) : node :=
  let v := val n in
  set_dir n (mkDirs (dx (dir n)) (du (dir n)) (vadd E (Vx v) (mmulv E (Vxx v) (dxt (adm n))))).
Definition lag_tnode (tn : tnode) : tnode :=
  set_tlam tn (vadd E (tVx tn) (mmulv E (tVxx tn) (tdxt tn))).
Fixpoint ckkt_nodes (first : bool) (kk : R) (l : list node) (tn : tnode) : R :=
  match l with
  | [] => kk
  | n :: l' =>
      let d := der n in
      let lp := hd_lam l' tn in
      let rx0 := vsub E (vadd E (Lx d) (mmulv E (mtr E (Fx d)) lp)) (lam (dir n)) in
      let rx := if first then rx0 else vadd E rx0 (mmulv E (mtr E (Gx d)) (ay (adm n))) in
      let ru := vadd E (vadd E (Lu d) (mmulv E (mtr E (Fu d)) lp)) (mmulv E (mtr E (Gu d)) (ay (adm n))) in
      ckkt_nodes false (std_max (std_max kk (vlinf E rx)) (vlinf E ru)) l' tn
  end.
Definition ckkt_residual (con : R) (s : traj M) : R :=
  let tn := trm s in
  let k1 := ckkt_nodes true (r0 E) (run s) tn in
  let rt := vadd E (vsub E (tLx (tder tn)) (tlam tn)) (mmulv E (mtr E (tGx (tder tn))) (tay tn)) in
  std_max (std_max (std_max k1 (vlinf E rt)) (fs_flat_norm s)) con.
Definition csqp_checkKKT (s : csqp) : csqp :=
  let t := mkTraj (map lag_node (run (k_tr s))) (lag_tnode (trm (k_tr s))) in
  let T := length (run t) in
  let xg := radd E (fold_left (fun a n => radd E a (vl1 E (dxt (adm n)))) (run t) (r0 E)) (vl1 E (tdxt (trm t))) in
  let ug := fold_left (fun a n => radd E a (vl1 E (dut (adm n)))) (run t) (r0 E) in
  set_k_ug (rdiv E ug (rlit E (Z.of_nat T) 1))
    (set_k_xg (rdiv E xg (rlit E (Z.of_nat (T + 1)) 1))
      (set_k_kkt (ckkt_residual (k_con s) t) (set_k_tr t s))).
Definition csqp_callbacks (s : csqp) : csqp :=
  set_k_log (run_callbacks (c_ncb dc) (k_iter s) (k_kkt s) (k_cost s) (k_merit s) (k_step s) (k_log s)) s.
Definition csqp_check (s : csqp) : csqp := csqp_callbacks (csqp_checkKKT s).

(** ** Line search *)

(** csqp.cpp:290-292 *)
Definition csqp_push (s : csqp) : csqp :=
  let s1 := set_k_conl (cb_push (k_con s) (k_conl s)) s in
  let s2 := set_k_gapl (cb_push (k_gap s) (k_gapl s)) s1 in
  set_k_costl (cb_push (k_cost s) (k_costl s)) s2.
(** merit function of a (cost, gap, constraint) triple, csqp.cpp:294-310 and
    1418-1425 *)
Definition merit_of (lagn cst gap con : R) : R :=
  if rlt E (cc_mu c) (r0 E) || rlt E (cc_mucon c) (r0 E)
  then radd E cst (rmul E (rmul E (cc_lagcoef c) lagn) (radd E gap con))
  else radd E (radd E cst (rmul E (cc_mu c) gap)) (rmul E (cc_mucon c) con).
Definition lag_inf (t : traj M) : R :=
  let a := fold_left (fun m n => std_max m (vlinf E (lam (dir n)))) (run t) (r0 E) in
  let b := std_max a (vlinf E (tlam (trm t))) in
  let d := fold_left (fun m n => std_max m (vlinf E (ay (adm n)))) (run t) b in
  std_max d (vlinf E (tay (trm t))).
Definition csqp_merit (s : csqp) : csqp :=
  let s1 := if rlt E (cc_mu c) (r0 E) || rlt E (cc_mucon c) (r0 E)
            then set_k_lagn (lag_inf (k_tr s)) s else s in
  let s2 := set_k_merit (merit_of (k_lagn s1) (k_cost s1) (k_gap s1) (k_con s1)) s1 in
  set_k_log (EvLineSearch E (k_iter s2) (k_cost s2) (k_gap s2) (k_con s2) (k_merit s2) :: k_log s2) s2.

(** tryStep, csqp.cpp:1342-1435 (sequential execution of the loop).  First the
    whole trial trajectory is formed (1362-1378), then evaluated (1384-1430). *)
Definition ctrial_node (a : R) (n : node) : node :=
  let p := pt n in
  set_pt n (mkPoint (px p) (pu p) (integrate M (px p) (vscale E a (dx (dir n))))
              (if negb (nu (nm n) =? 0) then vadd E (pu p) (vscale E a (du (dir n))) else put p)).
Definition ctrial (a : R) (t : traj M) : traj M :=
  mkTraj (map (ctrial_node a) (run t))
    (set_txt (trm t) (integrate M (tx (trm t)) (vscale E a (tdx (trm t))))).
Definition ceval_node (n : node) : node := set_mem n (acalc (nm n) (pxt (pt n)) (put (pt n))).
Fixpoint ceval_nodes (l : list node) (tn : tnode) (cst gap con : R) : bool * list node * (R * R * R) :=
  match l with
  | [] => (true, [], (cst, gap, con))
  | n :: l' =>
      let n' := ceval_node n in
      let cst' := radd E cst (acost (nm n') (mem n')) in
      let gap' := radd E gap (vl1 E (diff M (hd_xt l' tn) (axnext (nm n') (mem n')))) in
      let g := ag (nm n') (mem n') in
      let con1 := radd E con (vl1 E (viol_lb (alb (nm n')) g)) in
      let con2 := radd E con1 (vl1 E (viol_ub (aub (nm n')) g)) in
      if raiseIfNaN cst' then (false, n' :: l', (cst', gap', con2))
      else
        let r := ceval_nodes l' tn cst' gap' con2 in
        (fst (fst r), n' :: snd (fst r), snd r)
  end.
Definition csqp_tryStep (a : R) (s : csqp) : bool * csqp :=
  if rgt a (r1 E) || rlt E a (r0 E) then (false, s)
  else
    let t := ctrial a (k_tr s) in
    let r := ceval_nodes (run t) (trm t) (r0 E) (r0 E) (r0 E) in
    let v := snd r in
    let s1 := set_k_cont (snd v) (set_k_gapt (snd (fst v)) (set_k_costt (fst (fst v))
                (set_k_meritt (r0 E) (set_k_tr (mkTraj (snd (fst r)) (trm t)) s)))) in
    if negb (fst (fst r)) then (false, s1)
    else
      let tn := set_tme (trm t) (tcalc (tm (trm t)) (txt (trm t))) in
      let cst := radd E (fst (fst v)) (tcost (tm tn) (tme tn)) in
      let g := tg (tm tn) (tme tn) in
      let con1 := radd E (snd v) (vl1 E (viol_lb (tlb (tm tn)) g)) in
      let con2 := radd E con1 (vl1 E (viol_ub (tub (tm tn)) g)) in
      let m := merit_of (k_lagn s1) cst (snd (fst v)) con2 in
      let s2 := set_k_meritt m (set_k_cont con2 (set_k_costt cst
                  (set_k_tr (mkTraj (snd (fst r)) tn) s1))) in
      (negb (raiseIfNaN cst), s2).

(** csqp.cpp:326-333 *)
Definition csqp_dominated (s : csqp) (i : nat) : option bool :=
  match cb_get (k_costl s) i, cb_get (k_gapl s) i, cb_get (k_conl s) i with
  | Some ci, Some gi, Some hi =>
      Some (rle E ci (k_costt s) && rle E gi (k_gapt s) && rle E hi (k_cont s))
  | _, _, _ => None
  end.
(** csqp.cpp:315 and 322-347; count < max_count = min(filter_size_, iter_ + 1) *)
Definition csqp_accept (s : csqp) : option bool :=
  if cc_filter c then
    match filter_worse (csqp_dominated s) (cc_fsize c) (k_iter s) with
    | None => None
    | Some w => Some (negb w)
    end
  else Some (rgt (k_merit s) (k_meritt s)).
Inductive clsres :=
  | CLSAccept (a : R) (s : csqp)     (* found = true with step length [a] *)
  | CLSNone (s : csqp)
  | CLSUB.
(** csqp.cpp:316-348.  The loop variable is a local that shadows the member
    steplength_, which therefore keeps its value. *)
Fixpoint csqp_line_search (als : list R) (s : csqp) : clsres :=
  match als with
  | [] => CLSNone s
  | a :: r =>
      let t := csqp_tryStep a s in
      if fst t then
        match csqp_accept (snd t) with
        | None => CLSUB
        | Some true => CLSAccept a (set_k_tr (accept_try (k_tr (snd t))) (snd t))
        | Some false => csqp_line_search r (snd t)
        end
      else csqp_line_search r (snd t)
  end.

Definition csqp_inc (s : csqp) : csqp :=
  let p := inc_reg dc (k_preg s) in set_k_dreg p (set_k_preg p s).
Definition csqp_dec (s : csqp) : csqp :=
  let p := dec_reg dc (k_preg s) in set_k_dreg p (set_k_preg p s).

(** csqp.cpp:252-270: one direction, with regularisation retries unless
    remove_reg_; [watch] says whether the loop is while(!max_solve_time_reached_)
    (main loop) or while(true) (extra iteration, 373-391) *)
Fixpoint csqp_retry (watch : bool) (fuel : nat) (s : csqp) : dirres csqp :=
  match fuel with
  | O => DirNoFuel
  | S fuel' =>
      if watch && k_reached s then DirOk s
      else
        match csqp_computeDirection s with
        | QUB => DirUB
        | QDone s1 => DirOk s1
        | QThrow s1 =>
            let s2 := csqp_inc s1 in
            if rge (k_preg s2) (c_rmax dc) then DirFail s2 else csqp_retry watch fuel' s2
        end
  end.
Definition csqp_direction (watch : bool) (fuel : nat) (s : csqp) : dirres csqp :=
  if cc_removereg c then
    match csqp_computeDirection s with
    | QUB => DirUB
    | QDone s1 => DirOk s1
    | QThrow s1 => DirExc s1
    end
  else csqp_retry watch fuel s.

(** ghost events at the end of a line search *)
Definition csqp_log_accept (a : R) (s : csqp) : csqp :=
  set_k_log (EvAccept E (k_iter s) a (k_costt s) (k_gapt s) (k_cont s) (k_meritt s) :: k_log s) s.
Definition csqp_log_reject (s : csqp) : csqp := set_k_log (EvReject E (k_iter s) :: k_log s) s.

(** csqp.cpp:353-365 *)
Definition csqp_after (s : csqp) : body csqp :=
  if cc_removereg c then BNext s
  else if rgt (k_step s) (c_stepdec dc) then BNext (csqp_dec s)
  else
    let s1 := csqp_inc s in
    if rge (k_preg s1) (c_rmax dc) then BRet false s1 else BNext s1.

(** result of the loop body with an escaping exception *)
Inductive cbody :=
  | CB (b : body csqp)
  | CExc (s : csqp).

(** loop body, csqp.cpp:238-366 *)
Definition csqp_body (fuel : nat) (s : csqp) : cbody :=
  let b := tick s in
  if fst b then CB (BBreak (set_k_reached true (snd b)))
  else
    let s1 := csqp_calc (set_k_log (EvIter E (k_iter s) :: k_log (snd b)) (snd b)) in
    let s2 := if (k_iter s1 =? 0) && negb (cc_resetrho c) then reset_rho s1 else s1 in
    match csqp_direction true fuel s2 with
    | DirNoFuel => CB BNoFuel
    | DirUB => CB BUB
    | DirExc s3 => CExc s3
    | DirFail s3 => CB (BRet false s3)
    | DirOk s3 =>
        if k_qpit s3 =? 0 then CB (BRet false s3)
        else
          let s4 := csqp_check s3 in
          if rle E (k_kkt s4) (c_tol dc) then CB (BRet true s4)
          else
            match csqp_line_search (c_alphas dc) (csqp_merit (csqp_push s4)) with
            | CLSUB => CB BUB
            | CLSNone s5 => CB (BBreak (csqp_log_reject s5))
            | CLSAccept a s5 => CB (csqp_after (csqp_log_accept a s5))
            end
    end.

(** csqp.cpp:368-408 *)
Definition csqp_final (fuel : nat) (s : csqp) : outcome csqp :=
  if cc_extra c && negb (k_reached s) then
    match csqp_direction false fuel (csqp_calc s) with
    | DirNoFuel => NoFuel
    | DirUB => UB
    | DirExc s1 => Exc s1
    | DirFail s1 => Ret false s1
    | DirOk s1 => let s2 := csqp_check s1 in Ret (rle E (k_kkt s2) (c_tol dc)) s2
    end
  else Ret false s.

Fixpoint csqp_loop (fuel k : nat) (s : csqp) : outcome csqp :=
  match k with
  | O => csqp_final fuel s
  | S k' =>
      match csqp_body fuel s with
      | CExc s' => Exc s'
      | CB (BRet b s') => Ret b s'
      | CB (BNext s') => csqp_loop fuel k' (set_k_iter (S (k_iter s')) s')
      | CB (BBreak s') => csqp_final fuel s'
      | CB BUB => UB
      | CB BNoFuel => NoFuel
      end
  end.

Variable x0 : X.

(** SolverCSQP::solve, csqp.cpp:197-409 *)
Definition csqp_solve (fuel : nat) (xs : list X) (us : list {k : nat & vec k})
    (maxiter : nat) (reg : option R) (s : csqp) : outcome csqp :=
  match set_guess xs us (k_tr s) with
  | None => Exc s
  | Some t =>
      let p := if cc_removereg c then r0 E else init_reg dc reg in
      let s1 := set_k_dreg p (set_k_preg p (set_k_tr (pin_xt0 x0 (pin_x0 x0 t)) s)) in
      let s2 := if maxiter =? 0 then reset_rho (csqp_calc s1) else s1 in
      csqp_loop fuel maxiter (set_k_iter 0 (set_k_reached false s2))
  end.

(** set_filter_size, csqp.hpp:231-236 (the buffers; the size itself is cc_fsize) *)
Definition csqp_set_filter_size (n : nat) (s : csqp) : csqp :=
  set_k_costl (cb_resize n (r0 E) (k_costl s)) (set_k_conl (cb_resize n (r0 E) (k_conl s))
    (set_k_gapl (cb_resize n (r0 E) (k_gapl s)) s)).
(** set_rho_sparse, csqp.hpp:239 *)
Definition csqp_set_rho_sparse (r : R) (s : csqp) : csqp := set_k_rho r s.

End CSQP.

(** Constructor check, csqp.cpp:62-120 (accumulation) and 145-155: construction
    raises iff the sum of nh over running and terminal models is non-zero. *)
Definition csqp_ctor_ok {E} {M : manifold E} (ms : list (amodel M)) (tmod : tmodel M) : bool :=
  (fold_left (fun acc m => acc + nh m) ms 0 + tnh tmod) =? 0.
