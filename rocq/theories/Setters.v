(** * Parameter setters of SolverDDP (inherited by every solver) and SolverFDDP. *)
From Coq Require Import ZArith List Bool.
From Verif Require Import Eigen Problem DDP FDDP.
Import ListNotations.
Set Implicit Arguments.
Unset Strict Implicit.
Set Asymmetric Patterns.

Section Setters.
Variable E : Eig.
Notation R := (R E).
Notation fcfg := (fcfg E).
Notation cfg := (cfg E).

(** the parameters of an object after a call that returns / that throws
    (throw_pretty); undefined behaviour *)
Inductive setres := SetDone (c : fcfg) | SetRaise (c : fcfg) | SetUB.

(** assignment to one member *)
Definition base (f : cfg -> cfg) (c : fcfg) : fcfg := @mkFcfg E (f (fc_ddp c)) (fc_filter c) (fc_fsize c) (fc_neg c).
Definition put_inc (v : R) (c : cfg) : cfg := @mkCfg E v (c_dec c) (c_rmin c) (c_rmax c) (c_alphas c) (c_stepdec c) (c_stepinc c) (c_grad c) (c_accept c) (c_tol c) (c_ncb c).
Definition put_dec (v : R) (c : cfg) : cfg := @mkCfg E (c_inc c) v (c_rmin c) (c_rmax c) (c_alphas c) (c_stepdec c) (c_stepinc c) (c_grad c) (c_accept c) (c_tol c) (c_ncb c).
Definition put_rmin (v : R) (c : cfg) : cfg := @mkCfg E (c_inc c) (c_dec c) v (c_rmax c) (c_alphas c) (c_stepdec c) (c_stepinc c) (c_grad c) (c_accept c) (c_tol c) (c_ncb c).
Definition put_rmax (v : R) (c : cfg) : cfg := @mkCfg E (c_inc c) (c_dec c) (c_rmin c) v (c_alphas c) (c_stepdec c) (c_stepinc c) (c_grad c) (c_accept c) (c_tol c) (c_ncb c).
Definition put_alphas (v : list R) (c : cfg) : cfg := @mkCfg E (c_inc c) (c_dec c) (c_rmin c) (c_rmax c) v (c_stepdec c) (c_stepinc c) (c_grad c) (c_accept c) (c_tol c) (c_ncb c).
Definition put_stepdec (v : R) (c : cfg) : cfg := @mkCfg E (c_inc c) (c_dec c) (c_rmin c) (c_rmax c) (c_alphas c) v (c_stepinc c) (c_grad c) (c_accept c) (c_tol c) (c_ncb c).
Definition put_stepinc (v : R) (c : cfg) : cfg := @mkCfg E (c_inc c) (c_dec c) (c_rmin c) (c_rmax c) (c_alphas c) (c_stepdec c) v (c_grad c) (c_accept c) (c_tol c) (c_ncb c).
Definition put_grad (v : R) (c : cfg) : cfg := @mkCfg E (c_inc c) (c_dec c) (c_rmin c) (c_rmax c) (c_alphas c) (c_stepdec c) (c_stepinc c) v (c_accept c) (c_tol c) (c_ncb c).
Definition put_tol (v : R) (c : cfg) : cfg := @mkCfg E (c_inc c) (c_dec c) (c_rmin c) (c_rmax c) (c_alphas c) (c_stepdec c) (c_stepinc c) (c_grad c) (c_accept c) v (c_ncb c).

(** set_reg_incfactor, ddp.cpp:547-553; set_reg_decfactor, 555-561 *)
Definition set_reg_incfactor (v : R) (c : fcfg) : setres :=
  if rle E v (r1 E) then SetRaise c else SetDone (base (put_inc v) c).
Definition set_reg_decfactor (v : R) (c : fcfg) : setres :=
  if rle E v (r1 E) then SetRaise c else SetDone (base (put_dec v) c).
(** set_regfactor, ddp.cpp:563-569: its own check, then the two setters *)
Definition set_regfactor (v : R) (c : fcfg) : setres :=
  if rle E v (r1 E) then SetRaise c
  else match set_reg_incfactor v c with
       | SetDone c1 => set_reg_decfactor v c1
       | r => r
       end.
(** set_reg_min / set_regmin, ddp.cpp:571-583 *)
Definition set_reg_min (v : R) (c : fcfg) : setres :=
  if rgt (r0 E) v then SetRaise c else SetDone (base (put_rmin v) c).
(** set_reg_max / set_regmax, ddp.cpp:585-597 *)
Definition set_reg_max (v : R) (c : fcfg) : setres :=
  if rgt (r0 E) v then SetRaise c else SetDone (base (put_rmax v) c).
(** set_alphas, ddp.cpp:599-616; alphas[0] of an empty vector is undefined; the
    warning on std::cerr is not modelled.  [alphas_ok prev l]: the loop over the
    remaining entries does not throw. *)
Fixpoint alphas_ok (prev : R) (l : list R) : bool :=
  match l with
  | [] => true
  | a :: l' => if rge (r0 E) a then false else if rge a prev then false else alphas_ok a l'
  end.
Definition set_alphas (al : list R) (c : fcfg) : setres :=
  match al with
  | [] => SetUB
  | a :: l => if alphas_ok a l then SetDone (base (put_alphas al) c) else SetRaise c
  end.
(** set_th_stepdec, ddp.cpp:618-624; set_th_stepinc, 626-632; set_th_grad, 634-639 *)
Definition set_th_stepdec (v : R) (c : fcfg) : setres :=
  if rge (r0 E) v || rgt v (r1 E) then SetRaise c else SetDone (base (put_stepdec v) c).
Definition set_th_stepinc (v : R) (c : fcfg) : setres :=
  if rge (r0 E) v || rgt v (r1 E) then SetRaise c else SetDone (base (put_stepinc v) c).
Definition set_th_grad (v : R) (c : fcfg) : setres :=
  if rgt (r0 E) v then SetRaise c else SetDone (base (put_grad v) c).
(** SolverFDDP::set_th_acceptnegstep, fddp.cpp:387-393 *)
Definition set_th_acceptnegstep (v : R) (c : fcfg) : setres :=
  if rgt (r0 E) v then SetRaise c else SetDone (@mkFcfg E (fc_ddp c) (fc_filter c) (fc_fsize c) v).
(** set_termination_tolerance, ddp.hpp:358 (fddp.hpp:128, sqp.hpp:136, csqp.hpp:224): no check *)
Definition set_termination_tolerance (v : R) (c : fcfg) : setres := SetDone (base (put_tol v) c).

(** a call of one of these setters *)
Inductive call :=
  | CallIncfactor (v : R) | CallDecfactor (v : R) | CallRegfactor (v : R)
  | CallRegMin (v : R) | CallRegMax (v : R) | CallAlphas (l : list R)
  | CallStepdec (v : R) | CallStepinc (v : R) | CallGrad (v : R) | CallNegstep (v : R)
  | CallTolerance (v : R).
Definition exec (k : call) : fcfg -> setres :=
  match k with
  | CallIncfactor v => set_reg_incfactor v | CallDecfactor v => set_reg_decfactor v
  | CallRegfactor v => set_regfactor v
  | CallRegMin v => set_reg_min v | CallRegMax v => set_reg_max v
  | CallAlphas l => set_alphas l
  | CallStepdec v => set_th_stepdec v | CallStepinc v => set_th_stepinc v
  | CallGrad v => set_th_grad v | CallNegstep v => set_th_acceptnegstep v
  | CallTolerance v => set_termination_tolerance v
  end.
End Setters.
