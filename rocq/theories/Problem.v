(** * Shooting problems and the per-node data of the solvers.

    Models the parts of crocoddyl's ShootingProblem / ActionModelAbstract /
    ActionDataAbstract / SolverAbstract that mim_solvers uses, and the per-node
    arrays of the solver classes.  An array [a_[0..T]] of the C++ classes is
    represented by one field in each of the T running nodes and one field in the
    terminal node, so that a whole solver is a list of nodes plus a terminal
    node.

    Simplifications: all action models share one state manifold (crocoddyl
    requires equal nx/ndx); models are pure functions of (x,u) apart from the
    data object, which [calc] overwrites and [calcDiff] reads; the dimensions
    never change after construction (so [resizeData], ddp.cpp:230-251, is not
    modelled). *)
From Coq Require Import ZArith List Bool.
From Verif Require Import Eigen.
Import ListNotations.
Set Implicit Arguments.
Unset Strict Implicit.
Set Asymmetric Patterns.

Section Problem.
Variable E : Eig.
Notation R := (R E).
Notation vec := (vec E).
Notation bvec := (bvec E).
Notation mat := (mat E).

Unset Implicit Arguments.
(** crocoddyl::StateAbstract.  [xnorm] is lpNorm<Infinity> of the coordinate
    vector of a state (used by raiseIfNaN in ddp.cpp:382). *)
Record manifold := mkManifold {
  mX : Type;
  mndx : nat;
  integrate : mX -> vec mndx -> mX;    (* integrate(x, dx) *)
  diff : mX -> mX -> vec mndx;         (* diff(x0, x1) = x1 (-) x0 *)
  xzero : mX;                          (* zero() *)
  xnorm : mX -> R
}.

Variable M : manifold.
Notation X := (mX M).
Notation ndx := (mndx M).

Set Implicit Arguments.
Unset Strict Implicit.
(** derivatives stored in ActionDataAbstract by calcDiff *)
Record derivs (nu ng : nat) := mkDerivs {
  Lx : vec ndx; Lu : vec nu;
  Lxx : mat ndx ndx; Lxu : mat ndx nu; Luu : mat nu nu;
  Fx : mat ndx ndx; Fu : mat ndx nu;
  Gx : mat ng ndx; Gu : mat ng nu
}.
Record tderivs (ng : nat) := mkTderivs {
  tLx : vec ndx; tLxx : mat ndx ndx; tGx : mat ng ndx
}.

Unset Implicit Arguments.
(** crocoddyl::ActionModelAbstract of a running node.  [amem] is the content
    that [calc] leaves in the data object. *)
Record amodel := mkAmodel {
  nu : nat; ng : nat; nh : nat;
  amem : Type;
  acalc : X -> vec nu -> amem;         (* calc(data, x, u) *)
  acalc0 : X -> amem;                  (* calc(data, x) *)
  acost : amem -> R;                   (* data->cost *)
  axnext : amem -> X;                  (* data->xnext *)
  ag : amem -> vec ng;                 (* data->g *)
  adiff : amem -> X -> vec nu -> derivs nu ng;   (* calcDiff(data, x, u) *)
  alb : bvec ng; aub : bvec ng         (* get_g_lb(), get_g_ub() *)
}.
(** the terminal action model: calc(data, x), calcDiff(data, x) *)
Record tmodel := mkTmodel {
  tng : nat; tnh : nat;
  tmem : Type;
  tcalc : X -> tmem;
  tcost : tmem -> R;
  tg : tmem -> vec tng;
  tdiff : tmem -> X -> tderivs tng;
  tlb : bvec tng; tub : bvec tng
}.

Set Implicit Arguments.
Unset Strict Implicit.
(** ** Per-node solver arrays *)

(** xs_, us_, xs_try_, us_try_ (solver-base.hpp, ddp.hpp:373-376) *)
Record point (nu : nat) := mkPoint { px : X; pu : vec nu; pxt : X; put : vec nu }.

(** Vxx_ ... Quuk_, Quu_llt_ (ddp.hpp:381-412); [llt] is the matrix last passed
    to Quu_llt_[t].compute.  [Vxxfs] is csqp.hpp's Vxx_fs_. *)
Record vals (nu : nat) := mkVals {
  Vxx : mat ndx ndx; Vx : vec ndx;
  Qxx : mat ndx ndx; Qxu : mat ndx nu; Quu : mat nu nu; Qx : vec ndx; Qu : vec nu;
  gK : mat nu ndx; gk : vec nu; Quuk : vec nu; llt : mat nu nu; Vxxfs : vec ndx
}.

(** dx_, du_, lag_mul_ (sqp.hpp:155-158, csqp.hpp) *)
Record dirs (nu : nat) := mkDirs { dx : vec ndx; du : vec nu; lam : vec ndx }.

(** ADMM variables of SolverCSQP (csqp.hpp): dxtilde_, dutilde_, z_, z_prev_,
    z_relaxed_, y_, rho_vec_, inv_rho_vec_ *)
Record admm (nu ng : nat) := mkAdmm {
  dxt : vec ndx; dut : vec nu;
  az : vec ng; azp : vec ng; azr : vec ng; ay : vec ng;
  arho : vec ng; airho : vec ng
}.

Record node := mkNode {
  nm : amodel;
  pt : point (nu nm);
  mem : amem nm;                       (* running data, calc part *)
  der : derivs (nu nm) (ng nm);        (* running data, calcDiff part *)
  fs : vec ndx;                        (* fs_[t] *)
  val : vals (nu nm);
  dir : dirs (nu nm);
  adm : admm (nu nm) (ng nm)
}.
Record tnode := mkTnode {
  tm : tmodel;
  tx : X; txt : X;
  tme : tmem tm;
  tder : tderivs (tng tm);
  tfs : vec ndx;                       (* fs_.back() *)
  tVxx : mat ndx ndx; tVx : vec ndx;
  tdx : vec ndx; tlam : vec ndx;
  tdxt : vec ndx;
  taz : vec (tng tm); tazp : vec (tng tm); tazr : vec (tng tm); tay : vec (tng tm);
  tarho : vec (tng tm); tairho : vec (tng tm)
}.

Record traj := mkTraj { run : list node; trm : tnode }.

Set Strict Implicit.
(** field updates *)
Definition set_pt (n : node) (p : point (nu (nm n))) : node :=
  @mkNode (nm n) p (mem n) (der n) (fs n) (val n) (dir n) (adm n).
Definition set_mem (n : node) (m : amem (nm n)) : node :=
  @mkNode (nm n) (pt n) m (der n) (fs n) (val n) (dir n) (adm n).
Definition set_der (n : node) (d : derivs (nu (nm n)) (ng (nm n))) : node :=
  @mkNode (nm n) (pt n) (mem n) d (fs n) (val n) (dir n) (adm n).
Definition set_fs (n : node) (f : vec ndx) : node :=
  @mkNode (nm n) (pt n) (mem n) (der n) f (val n) (dir n) (adm n).
Definition set_val (n : node) (v : vals (nu (nm n))) : node :=
  @mkNode (nm n) (pt n) (mem n) (der n) (fs n) v (dir n) (adm n).
Definition set_dir (n : node) (d : dirs (nu (nm n))) : node :=
  @mkNode (nm n) (pt n) (mem n) (der n) (fs n) (val n) d (adm n).
Definition set_adm (n : node) (a : admm (nu (nm n)) (ng (nm n))) : node :=
  @mkNode (nm n) (pt n) (mem n) (der n) (fs n) (val n) (dir n) a.

Definition set_x (n : node) (x : X) : node :=
  set_pt n (mkPoint x (pu (pt n)) (pxt (pt n)) (put (pt n))).
Definition set_xt (n : node) (x : X) : node :=
  set_pt n (mkPoint (px (pt n)) (pu (pt n)) x (put (pt n))).

Definition set_tx (n : tnode) (x : X) : tnode :=
  @mkTnode (tm n) x (txt n) (tme n) (tder n) (tfs n) (tVxx n) (tVx n) (tdx n) (tlam n)
           (tdxt n) (taz n) (tazp n) (tazr n) (tay n) (tarho n) (tairho n).
Definition set_txt (n : tnode) (x : X) : tnode :=
  @mkTnode (tm n) (tx n) x (tme n) (tder n) (tfs n) (tVxx n) (tVx n) (tdx n) (tlam n)
           (tdxt n) (taz n) (tazp n) (tazr n) (tay n) (tarho n) (tairho n).
Definition set_tme (n : tnode) (m : tmem (tm n)) : tnode :=
  @mkTnode (tm n) (tx n) (txt n) m (tder n) (tfs n) (tVxx n) (tVx n) (tdx n) (tlam n)
           (tdxt n) (taz n) (tazp n) (tazr n) (tay n) (tarho n) (tairho n).
Definition set_tder (n : tnode) (d : tderivs (tng (tm n))) : tnode :=
  @mkTnode (tm n) (tx n) (txt n) (tme n) d (tfs n) (tVxx n) (tVx n) (tdx n) (tlam n)
           (tdxt n) (taz n) (tazp n) (tazr n) (tay n) (tarho n) (tairho n).
Definition set_tfs (n : tnode) (f : vec ndx) : tnode :=
  @mkTnode (tm n) (tx n) (txt n) (tme n) (tder n) f (tVxx n) (tVx n) (tdx n) (tlam n)
           (tdxt n) (taz n) (tazp n) (tazr n) (tay n) (tarho n) (tairho n).
Definition set_tV (n : tnode) (A : mat ndx ndx) (v : vec ndx) : tnode :=
  @mkTnode (tm n) (tx n) (txt n) (tme n) (tder n) (tfs n) A v (tdx n) (tlam n)
           (tdxt n) (taz n) (tazp n) (tazr n) (tay n) (tarho n) (tairho n).
Definition set_tdx (n : tnode) (d : vec ndx) : tnode :=
  @mkTnode (tm n) (tx n) (txt n) (tme n) (tder n) (tfs n) (tVxx n) (tVx n) d (tlam n)
           (tdxt n) (taz n) (tazp n) (tazr n) (tay n) (tarho n) (tairho n).
Definition set_tlam (n : tnode) (l : vec ndx) : tnode :=
  @mkTnode (tm n) (tx n) (txt n) (tme n) (tder n) (tfs n) (tVxx n) (tVx n) (tdx n) l
           (tdxt n) (taz n) (tazp n) (tazr n) (tay n) (tarho n) (tairho n).
Definition set_tdxt (n : tnode) (d : vec ndx) : tnode :=
  @mkTnode (tm n) (tx n) (txt n) (tme n) (tder n) (tfs n) (tVxx n) (tVx n) (tdx n) (tlam n)
           d (taz n) (tazp n) (tazr n) (tay n) (tarho n) (tairho n).
Definition set_tzy (n : tnode) (z zp zr y : vec (tng (tm n))) : tnode :=
  @mkTnode (tm n) (tx n) (txt n) (tme n) (tder n) (tfs n) (tVxx n) (tVx n) (tdx n) (tlam n)
           (tdxt n) z zp zr y (tarho n) (tairho n).
Definition set_trho (n : tnode) (r ir : vec (tng (tm n))) : tnode :=
  @mkTnode (tm n) (tx n) (txt n) (tme n) (tder n) (tfs n) (tVxx n) (tVx n) (tdx n) (tlam n)
           (tdxt n) (taz n) (tazp n) (tazr n) (tay n) r ir.

(** heads of the arrays of a suffix of the horizon *)
Definition hd_x (l : list node) (tn : tnode) : X :=
  match l with [] => tx tn | n :: _ => px (pt n) end.
Definition hd_xt (l : list node) (tn : tnode) : X :=
  match l with [] => txt tn | n :: _ => pxt (pt n) end.
Definition hd_fs (l : list node) (tn : tnode) : vec ndx :=
  match l with [] => tfs tn | n :: _ => fs n end.
Definition hd_Vxx (l : list node) (tn : tnode) : mat ndx ndx :=
  match l with [] => tVxx tn | n :: _ => Vxx (val n) end.
Definition hd_Vx (l : list node) (tn : tnode) : vec ndx :=
  match l with [] => tVx tn | n :: _ => Vx (val n) end.
Definition hd_lam (l : list node) (tn : tnode) : vec ndx :=
  match l with [] => tlam tn | n :: _ => lam (dir n) end.
Definition hd_dx (l : list node) (tn : tnode) : vec ndx :=
  match l with [] => tdx tn | n :: _ => dx (dir n) end.
Definition hd_dxt (l : list node) (tn : tnode) : vec ndx :=
  match l with [] => tdxt tn | n :: _ => dxt (adm n) end.

(** the trajectories a user reads: xs, us *)
Definition get_xs (s : traj) : list X := map (fun n => px (pt n)) (run s) ++ [tx (trm s)].
Definition get_us (s : traj) : list {k : nat & vec k} :=
  map (fun n => existT vec (nu (nm n)) (pu (pt n))) (run s).

(** ** crocoddyl functions *)

(** ShootingProblem::calc(xs, us): calc at every node (the returned cost is not
    used by the callers modelled here). *)
Definition node_calc (n : node) : node := set_mem n (acalc (nm n) (px (pt n)) (pu (pt n))).
Definition tnode_calc (n : tnode) : tnode := set_tme n (tcalc (tm n) (tx n)).
Definition problem_calc (s : traj) : traj :=
  mkTraj (map node_calc (run s)) (tnode_calc (trm s)).

(** ShootingProblem::calcDiff(xs, us): derivatives at every node; returns the
    sum of the costs held in the data objects (from the last calc). *)
Definition node_calcDiff (n : node) : node :=
  set_der n (adiff (nm n) (mem n) (px (pt n)) (pu (pt n))).
Definition tnode_calcDiff (n : tnode) : tnode := set_tder n (tdiff (tm n) (tme n) (tx n)).
Definition stored_cost (s : traj) : R :=
  radd E (fold_left (fun c n => radd E c (acost (nm n) (mem n))) (run s) (r0 E))
         (tcost (tm (trm s)) (tme (trm s))).
Definition problem_calcDiff (s : traj) : traj * R :=
  (mkTraj (map node_calcDiff (run s)) (tnode_calcDiff (trm s)), stored_cost s).

(** SolverAbstract::computeDynamicFeasibility: fs_[0] = diff(xs_[0], x0),
    fs_[t+1] = diff(xs_[t+1], xnext_t).  (crocoddyl only recomputes the gaps when
    the candidate is not marked feasible; SQP never marks it feasible.) *)
Fixpoint gaps_from (f : vec ndx) (l : list node) (tn : tnode) : list node * tnode :=
  match l with
  | [] => ([], set_tfs tn f)
  | n :: l' =>
      let f' := diff M (hd_x l' tn) (axnext (nm n) (mem n)) in
      let r := gaps_from f' l' tn in
      (set_fs n f :: fst r, snd r)
  end.
Definition computeGaps (x0 : X) (s : traj) : traj :=
  let r := gaps_from (diff M (hd_x (run s) (trm s)) x0) (run s) (trm s) in
  mkTraj (fst r) (snd r).

(** SolverAbstract::setCandidate(xs_try_, us_try_, _): copy the trial *)
Definition node_accept (n : node) : node :=
  set_pt n (mkPoint (pxt (pt n)) (put (pt n)) (pxt (pt n)) (put (pt n))).
Definition accept_try (s : traj) : traj :=
  mkTraj (map node_accept (run s)) (set_tx (trm s) (txt (trm s))).

(** SolverAbstract::setCandidate(init_xs, init_us, _) of a user guess: an empty
    list means zero states / zero controls; wrong sizes throw ([None]). *)
Definition cast_vec (k n : nat) (v : vec k) : option (vec n) :=
  match Nat.eq_dec k n with
  | left e => Some (eq_rect k vec v n e)
  | right _ => None
  end.
Definition set_u (n : node) (u : vec (nu (nm n))) : node :=
  set_pt n (mkPoint (px (pt n)) u (pxt (pt n)) (put (pt n))).
Fixpoint guess_us (l : list node) (us : list {k : nat & vec k}) : option (list node) :=
  match l, us with
  | [], [] => Some []
  | n :: l', u :: us' =>
      match @cast_vec (projT1 u) (nu (nm n)) (projT2 u), guess_us l' us' with
      | Some v, Some r => Some (set_u n v :: r)
      | _, _ => None
      end
  | _, _ => None
  end.
Fixpoint guess_xs (l : list node) (tn : tnode) (xs : list X) : option (list node * tnode) :=
  match l, xs with
  | [], [x] => Some ([], set_tx tn x)
  | n :: l', x :: xs' =>
      match guess_xs l' tn xs' with
      | Some r => Some (set_x n x :: fst r, snd r)
      | None => None
      end
  | _, _ => None
  end.
Definition set_guess (xs : list X) (us : list {k : nat & vec k}) (s : traj) : option traj :=
  let xs' := match xs with [] => repeat (xzero M) (S (length (run s))) | _ => xs end in
  let us' := match us with
             | [] => map (fun n => existT vec (nu (nm n)) (vzero E)) (run s)
             | _ => us end in
  match guess_xs (run s) (trm s) xs' with
  | Some (l, tn) =>
      match guess_us l us' with
      | Some l' => Some (mkTraj l' tn)
      | None => None
      end
  | None => None
  end.

(** xs_[0] = problem_->get_x0(); xs_try_[0] = problem_->get_x0() *)
Definition pin_x0 (x0 : X) (s : traj) : traj :=
  match run s with
  | [] => mkTraj [] (set_tx (trm s) x0)
  | n :: l => mkTraj (set_x n x0 :: l) (trm s)
  end.
Definition pin_xt0 (x0 : X) (s : traj) : traj :=
  match run s with
  | [] => mkTraj [] (set_txt (trm s) x0)
  | n :: l => mkTraj (set_xt n x0 :: l) (trm s)
  end.

End Problem.


Arguments mkManifold {E}.
Arguments mX {E}. Arguments mndx {E}. Arguments integrate {E}. Arguments diff {E}.
Arguments xzero {E}. Arguments xnorm {E}.
Arguments amodel {E}. Arguments tmodel {E}.
Arguments mkAmodel {E M}. Arguments mkTmodel {E M}.
Arguments nu {E M}. Arguments ng {E M}. Arguments nh {E M}. Arguments amem {E M}.
Arguments acalc {E M}. Arguments acalc0 {E M}. Arguments acost {E M}. Arguments axnext {E M}.
Arguments ag {E M}. Arguments adiff {E M}. Arguments alb {E M}. Arguments aub {E M}.
Arguments tng {E M}. Arguments tnh {E M}. Arguments tmem {E M}. Arguments tcalc {E M}.
Arguments tcost {E M}. Arguments tg {E M}. Arguments tdiff {E M}. Arguments tlb {E M}. Arguments tub {E M}.
Arguments mkNode {E M}. Arguments mkTnode {E M}. Arguments mkTraj {E M}.
