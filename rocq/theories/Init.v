(** * Construction of the solvers: SolverDDP / SolverSQP / SolverCSQP
    constructors and the setters that resize the filter. *)
From Coq Require Import ZArith List Bool Arith.
From Verif Require Import Eigen Problem DDP Filter SQP CSQP.
Import ListNotations.
Set Implicit Arguments.
Unset Strict Implicit.
Set Asymmetric Patterns.

Section Init.
Variable E : Eig.
Variable M : manifold E.
Notation R := (R E).
Notation vec := (vec E).
Notation X := (mX M).
Notation ndx := (mndx M).

(** A running model together with what its data object holds before any call of
    calc/calcDiff, and with the memory that rho_vec_[t].resize(nc) leaves
    uninitialised (csqp.cpp:108-109). *)
Record slot := mkSlot {
  sl_m : amodel M; sl_mem : amem sl_m; sl_der : derivs M (nu sl_m) (ng sl_m);
  sl_rho : vec (ng sl_m); sl_irho : vec (ng sl_m)
}.
Record tslot := mkTslot {
  ts_m : tmodel M; ts_mem : tmem ts_m; ts_der : tderivs M (tng ts_m);
  ts_rho : vec (tng ts_m); ts_irho : vec (tng ts_m)
}.

(** ddp.cpp:447-502, sqp.cpp:23-71, csqp.cpp:62-134: everything is zero; xs_try_
    gets [xt] at node t.  SolverAbstract's constructor zeroes xs_, us_ and fs_. *)
Definition new_node (xt : X) (s : slot) : node M :=
  @mkNode E M (sl_m s)
    (mkPoint (xzero M) (vzero E) xt (vzero E)) (sl_mem s) (sl_der s) (vzero E)
    (mkVals (mzero E) (vzero E) (mzero E) (mzero E) (mzero E) (vzero E) (vzero E)
       (mzero E) (vzero E) (vzero E) (mzero E) (vzero E))
    (mkDirs (vzero E) (vzero E) (vzero E))
    (mkAdmm (vzero E) (vzero E) (vzero E) (vzero E) (vzero E) (vzero E) (sl_rho s) (sl_irho s)).
Definition new_tnode (s : tslot) : tnode M :=
  @mkTnode E M (ts_m s) (xzero M) (xzero M) (ts_mem s) (ts_der s) (vzero E)
    (mzero E) (vzero E) (vzero E) (vzero E) (vzero E)
    (vzero E) (vzero E) (vzero E) (vzero E) (ts_rho s) (ts_irho s).
(** ddp.cpp:479-483: xs_try_[0] = x0; csqp.cpp:71 overwrites it by zero() (the
    solve call pins it again) *)
Definition new_traj (x0 : X) (l : list slot) (t : tslot) : traj M :=
  mkTraj (match l with [] => [] | s :: l' => new_node x0 s :: map (new_node (xzero M)) l' end)
         (new_tnode t).

(** boost::circular_buffer::resize from the empty buffer (sqp.cpp:36-37) *)
Definition new_buf (n : nat) : cbuf R := cb_resize n (r0 E) (cb_empty R).

(** SolverSQP::SolverSQP; [fsize] = filter_size_ = 1 *)
Definition new_sqp (x0 : X) (l : list slot) (t : tslot) (fsize : nat) : sqp M :=
  @mkSqp E M (new_traj x0 l t) (r0 E) (r0 E) (r0 E) (r0 E) (r0 E) (r0 E) (r0 E) (r0 E) (r0 E)
    (r0 E) (r0 E) 0 (r1 E) (new_buf fsize) (new_buf fsize) [].

(** SolverDDP::SolverDDP, ddp.cpp:20-58 *)
Definition new_ddp (x0 : X) (l : list slot) (t : tslot) : ddp M :=
  @mkDdp E M (new_traj x0 l t) (r0 E) (r0 E) (r0 E) (r0 E) false false (r0 E) (r0 E) (r0 E) (r0 E)
    (r0 E) (r0 E) 0 (r1 E) [].

(** SolverCSQP::SolverCSQP; rho_sparse_ = rho_sparse_base_ *)
Definition new_csqp (x0 : X) (l : list slot) (t : tslot) (fsize : nat) (rho : R) : csqp M :=
  @mkCsqp E M (new_traj x0 l t) (r0 E) (r0 E) (r0 E) (r0 E) (r0 E) (r0 E) (r0 E) (r0 E) (r0 E)
    (r0 E) (r0 E) (r0 E) (r0 E) (r0 E) 0 (r1 E) (new_buf fsize) (new_buf fsize) (new_buf fsize)
    rho (efin E (r0 E)) (mkNorms E (efin E (r0 E)) (efin E (r0 E)) (efin E (r0 E)) (efin E (r0 E)))
    (efin E (r0 E)) (efin E (r0 E)) 0 false 0 [].
End Init.

Section Defaults.
Variable E : Eig.
Notation lit := (rlit E).
(** alphas_[n] = 1 / pow(2, n), n < 10; ddp.cpp:36-40, sqp.cpp:59-63 *)
Definition alphas10 : list (R E) :=
  [lit 1 1; lit 1 2; lit 1 4; lit 1 8; lit 1 16; lit 1 32; lit 1 64; lit 1 128; lit 1 256; lit 1 512].
(** ddp.cpp:22-31, ddp.hpp (th_acceptstep_ = 0.1), termination_tol_ = 1e-6 *)
Definition default_cfg (ncb : nat) : cfg E :=
  mkCfg E (lit 10 1) (lit 10 1) (lit 1 1000000000) (lit 1000000000 1) alphas10
        (lit 1 2) (lit 1 100) (lit 1 1000000000000) (lit 1 10) (lit 1 1000000) ncb.
(** sqp.hpp:162-187 *)
Definition default_scfg (ncb : nat) : scfg E := mkScfg (default_cfg ncb) (lit 1 1) true 1 false.
(** csqp.hpp:286-360 *)
Definition default_ccfg (ncb : nat) (mt : bool) : ccfg E :=
  mkCcfg (default_cfg ncb) (lit 10 1) (lit 10 1) (lit 10 1) true 1 false
    (lit 1 1000000) (lit 16 10) 1000 (lit 1 10) (lit 1 1000000) (lit 1000 1) 25 (lit 5 1)
    (lit 1 10000) (lit 1 10000) true false false false false mt.
End Defaults.
