(** * Construction of SolverFDDP and its filter setter. *)
From Coq Require Import ZArith List Bool Arith.
From Verif Require Import Eigen Problem DDP Filter SQP CSQP FDDP Init.
Import ListNotations.
Set Implicit Arguments.
Unset Strict Implicit.

Section FInit.
Variable E : Eig.
Variable M : manifold E.
(** SolverFDDP::SolverFDDP, fddp.cpp:27-53; [fsize] = filter_size_ = 1 *)
Definition new_fddp (x0 : mX M) (l : list (slot M)) (t : tslot M) (fsize : nat) : fddp M :=
  mkFddp (new_ddp x0 l t) (r0 E) (r0 E) (r0 E) (r0 E) (new_buf E fsize) (new_buf E fsize).
(** set_filter_size, fddp.hpp:137-141: both lists are resized; filter_size_ is a
    parameter of the model's configuration *)
Definition fddp_set_filter_size (n : nat) (s : fddp M) : fddp M :=
  set_f_lists (cb_resize n (r0 E) (f_costl s)) (cb_resize n (r0 E) (f_gapl s)) s.
(** fddp.cpp:28 (th_acceptnegstep_ = 2), fddp.hpp:149-151 *)
Definition default_fcfg (ncb : nat) (filter : bool) : fcfg E :=
  mkFcfg (default_cfg E ncb) filter 1 (rlit E 2 1).
End FInit.
