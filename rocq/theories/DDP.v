(** * SolverDDP (src/ddp.cpp): regularisation, backward pass, roll-out, solve. *)
From Coq Require Import ZArith List Bool Arith.
From Verif Require Import Eigen Problem.
Import ListNotations.
Set Implicit Arguments.
Set Asymmetric Patterns.

(** Result of a call: returns normally, lets an exception escape, executes
    undefined behaviour, or exhausts the fuel given to the regularisation retry
    loop (a run that needs more retries than the fuel). *)
Inductive outcome (S : Type) :=
  | Ret (b : bool) (s : S)
  | Exc (s : S)
  | UB
  | NoFuel.
Arguments UB {S}. Arguments NoFuel {S}.

(** Result of one pass through the body of a solve loop. *)
Inductive body (S : Type) :=
  | BRet (b : bool) (s : S)      (* return b *)
  | BNext (s : S)                (* next iteration *)
  | BBreak (s : S)               (* break *)
  | BUB
  | BNoFuel.
Arguments BUB {S}. Arguments BNoFuel {S}.

(** Result of the regularisation retry loop. *)
Inductive dirres (S : Type) :=
  | DirOk (s : S)                (* a direction was computed *)
  | DirFail (s : S)              (* return false *)
  | DirExc (s : S)               (* an exception escapes *)
  | DirUB
  | DirNoFuel.
Arguments DirUB {S}. Arguments DirNoFuel {S}.

(** A trace of what a solver does: callback invocations, line searches and their
    outcome and (SolverCSQP) clock checks and iterations.  The trace is ghost
    state: nothing in the model reads it. *)
Inductive event (E : Eig) :=
  | EvCallback (index : nat) (iter : nat) (kkt cost merit step : R E)
  | EvLineSearch (iter : nat) (cost gap con merit : R E)  (* a line search starts from an iterate with these values *)
  | EvAccept (iter : nat) (step cost gap con merit : R E) (* a trial with these values becomes the candidate *)
  | EvReject (iter : nat)                                 (* no step length accepted *)
  | EvClock (timeout : bool)           (* a solve-time check and its verdict *)
  | EvIter (iter : nat)                (* an SQP iteration of SolverCSQP starts *)
  | EvQP (i : nat).                    (* a QP (ADMM) iteration starts *)

(** Parameters of SolverDDP (ddp.hpp:360-440); [c_ncb] = callbacks_.size(). *)
Record cfg (E : Eig) := mkCfg {
  c_inc : R E; c_dec : R E;            (* reg_incfactor_, reg_decfactor_ *)
  c_rmin : R E; c_rmax : R E;          (* reg_min_, reg_max_ *)
  c_alphas : list (R E);               (* alphas_ *)
  c_stepdec : R E; c_stepinc : R E;    (* th_stepdec_, th_stepinc_ *)
  c_grad : R E;                        (* th_grad_ *)
  c_accept : R E;                      (* th_acceptstep_ *)
  c_tol : R E;                         (* termination_tol_ *)
  c_ncb : nat
}.

Section Reg.
Variable E : Eig.
Variable c : cfg E.
(** SolverDDP::increaseRegularization, ddp.cpp:431-437 (value of preg_ = dreg_) *)
Definition inc_reg (p : R E) : R E :=
  let q := rmul E p (c_inc c) in if rgt q (c_rmax c) then c_rmax c else q.
(** SolverDDP::decreaseRegularization, ddp.cpp:439-445 *)
Definition dec_reg (p : R E) : R E :=
  let q := rdiv E p (c_dec c) in if rlt E q (c_rmin c) then c_rmin c else q.
(** initial regularisation of solve, ddp.cpp:74-80 (None = NAN argument) *)
Definition init_reg (r : option (R E)) : R E :=
  match r with None => c_rmin c | Some x => x end.
End Reg.

(** callbacks, e.g. sqp.cpp:120-125: each registered callback once, in order *)
Definition run_callbacks E (n iter : nat) (kkt cost merit step : R E) (log : list (event E)) :=
  fold_left (fun lg i => EvCallback E i iter kkt cost merit step :: lg) (seq 0 n) log.

Section DDP.
Variable E : Eig.
Variable M : manifold E.
Notation R := (R E).
Notation vec := (vec E).
Notation mat := (mat E).
Notation X := (mX M).
Notation ndx := (mndx M).
Notation node := (node M).
Notation tnode := (tnode M).

(** ** Backward pass, ddp.cpp:265-348 *)

Definition add_reg {n} (A : mat n n) (r : R) : mat n n :=
  if risnan E r then A else madddiag E A r.

(** ddp.cpp:267-276: terminal value function *)
Definition bwd_term (preg : R) (feas : bool) (tn : tnode) : tnode :=
  let A := add_reg (tLxx (tder tn)) preg in
  let v := tLx (tder tn) in
  set_tV tn A (if feas then v else vadd E v (mmulv E A (tfs tn))).

(** 0.5 * (A + A^T), ddp.cpp:323 *)
Definition symmetrize {n} (A : mat n n) : mat n n :=
  mscale E (rlit E 1 2) (madd E A (mtr E A)).

(** ddp.cpp:281-346 for one node, together with computeGains (401-429).
    Returns false where the code throws; then the node keeps the updates made
    before the throw. *)
Definition bwd_node (preg dreg : R) (feas : bool) (n : node)
    (Vxxp : mat ndx ndx) (Vxp : vec ndx) : bool * node :=
  let d := der n in
  let v := val n in
  let hasu := negb (nu (nm n) =? 0) in
  let FxTV := mmul E (mtr E (Fx d)) Vxxp in
  let qx := vadd E (Lx d) (mmulv E (mtr E (Fx d)) Vxp) in
  let qxx := madd E (Lxx d) (mmul E FxTV (Fx d)) in
  let qu := if hasu then vadd E (Lu d) (mmulv E (mtr E (Fu d)) Vxp) else Qu v in
  let quu := if hasu
             then add_reg (madd E (Luu d) (mmul E (mmul E (mtr E (Fu d)) Vxxp) (Fu d))) dreg
             else Quu v in
  let qxu := if hasu then madd E (Lxu d) (mmul E FxTV (Fu d)) else Qxu v in
  let fact := if hasu then quu else llt v in
  if hasu && negb (llt_ok E quu)
  then (false, set_val n (mkVals (Vxx v) (Vx v) qxx qxu quu qx qu (gK v) (gk v) (Quuk v) fact (Vxxfs v)))
  else
    let K := if hasu then llt_solvem E quu (mtr E qxu) else gK v in
    let k := if hasu then llt_solvev E quu qu else gk v in
    let quuk := if hasu then mmulv E quu k else Quuk v in
    let vx0 := if hasu then vsub E qx (mmulv E (mtr E K) qu) else qx in
    let vxx0 := if hasu then msub E qxx (mmul E qxu K) else qxx in
    let vxx := add_reg (symmetrize vxx0) preg in
    let vx := if feas then vx0 else vadd E vx0 (mmulv E vxx (fs n)) in
    (negb (raiseIfNaN (vlinf E vx) || raiseIfNaN (mlinf E vxx)),
     set_val n (mkVals vxx vx qxx qxu quu qx qu K k quuk fact (Vxxfs v))).

(** ddp.cpp:281: for t = T-1 .. 0 *)
Fixpoint bwd_nodes (preg dreg : R) (feas : bool) (l : list node) (tn : tnode) : bool * list node :=
  match l with
  | [] => (true, [])
  | n :: l' =>
      let r := bwd_nodes preg dreg feas l' tn in
      if fst r then
        let r1 := bwd_node preg dreg feas n (hd_Vxx (snd r) tn) (hd_Vx (snd r) tn) in
        (fst r1, snd r1 :: snd r)
      else (false, n :: snd r)
  end.

Definition backwardPass (preg dreg : R) (feas : bool) (s : traj M) : bool * traj M :=
  let tn := bwd_term preg feas (trm s) in
  let r := bwd_nodes preg dreg feas (run s) tn in
  (fst r, mkTraj (snd r) tn).

(** ** KKT residual, ddp.cpp:177-198 and sqp.cpp:244-268 (same formula).
    [fs_flat_] is the concatenation of the gaps; its max-norm is taken here as
    the maximum of the max-norms of the segments. *)
Fixpoint kkt_nodes (kk : R) (l : list node) (tn : tnode) : R :=
  match l with
  | [] => kk
  | n :: l' =>
      let d := der n in
      let lp := hd_lam l' tn in
      let rx := vsub E (vadd E (Lx d) (mmulv E (mtr E (Fx d)) lp)) (lam (dir n)) in
      let ru := vadd E (Lu d) (mmulv E (mtr E (Fu d)) lp) in
      kkt_nodes (std_max (std_max kk (vlinf E rx)) (vlinf E ru)) l' tn
  end.
Definition fs_flat_norm (s : traj M) : R :=
  match run s with
  | [] => vlinf E (tfs (trm s))
  | n :: l => std_max (fold_left (fun a m => std_max a (vlinf E (fs m))) l (vlinf E (fs n)))
                      (vlinf E (tfs (trm s)))
  end.
Definition kkt_residual (s : traj M) : R :=
  let tn := trm s in
  let k1 := kkt_nodes (r0 E) (run s) tn in
  let k2 := std_max k1 (vlinf E (vsub E (tLx (tder tn)) (tlam tn))) in
  std_max k2 (fs_flat_norm s).

(** ** SolverDDP state *)
Record ddp := mkDdp {
  d_tr : traj M;   (* xs_, us_, xs_try_, us_try_, fs_, Vxx_, ..., lag_mul_, problem datas *)
  d_preg : R;   (* preg_ *)
  d_dreg : R;   (* dreg_ *)
  d_cost : R;   (* cost_ *)
  d_costt : R;   (* cost_try_ *)
  d_feas : bool;   (* is_feasible_ *)
  d_wasfeas : bool;   (* was_feasible_ *)
  d_d0 : R;   (* d_[0] *)
  d_d1 : R;   (* d_[1] *)
  d_dV : R;   (* dV_ *)
  d_dVexp : R;   (* dVexp_ *)
  d_stop : R;   (* stop_ *)
  d_kkt : R;   (* KKT_ *)
  d_iter : nat;   (* iter_ *)
  d_step : R;   (* steplength_ *)
  d_log : list (event E)   (* callbacks performed (ghost), most recent first *)
}.
Definition set_d_tr (v : traj M) (s : ddp) : ddp :=
  mkDdp v (d_preg s) (d_dreg s) (d_cost s) (d_costt s) (d_feas s) (d_wasfeas s) (d_d0 s) (d_d1 s) (d_dV s) (d_dVexp s) (d_stop s) (d_kkt s) (d_iter s) (d_step s) (d_log s).
Definition set_d_preg (v : R) (s : ddp) : ddp :=
  mkDdp (d_tr s) v (d_dreg s) (d_cost s) (d_costt s) (d_feas s) (d_wasfeas s) (d_d0 s) (d_d1 s) (d_dV s) (d_dVexp s) (d_stop s) (d_kkt s) (d_iter s) (d_step s) (d_log s).
Definition set_d_dreg (v : R) (s : ddp) : ddp :=
  mkDdp (d_tr s) (d_preg s) v (d_cost s) (d_costt s) (d_feas s) (d_wasfeas s) (d_d0 s) (d_d1 s) (d_dV s) (d_dVexp s) (d_stop s) (d_kkt s) (d_iter s) (d_step s) (d_log s).
Definition set_d_cost (v : R) (s : ddp) : ddp :=
  mkDdp (d_tr s) (d_preg s) (d_dreg s) v (d_costt s) (d_feas s) (d_wasfeas s) (d_d0 s) (d_d1 s) (d_dV s) (d_dVexp s) (d_stop s) (d_kkt s) (d_iter s) (d_step s) (d_log s).
Definition set_d_costt (v : R) (s : ddp) : ddp :=
  mkDdp (d_tr s) (d_preg s) (d_dreg s) (d_cost s) v (d_feas s) (d_wasfeas s) (d_d0 s) (d_d1 s) (d_dV s) (d_dVexp s) (d_stop s) (d_kkt s) (d_iter s) (d_step s) (d_log s).
Definition set_d_feas (v : bool) (s : ddp) : ddp :=
  mkDdp (d_tr s) (d_preg s) (d_dreg s) (d_cost s) (d_costt s) v (d_wasfeas s) (d_d0 s) (d_d1 s) (d_dV s) (d_dVexp s) (d_stop s) (d_kkt s) (d_iter s) (d_step s) (d_log s).
Definition set_d_wasfeas (v : bool) (s : ddp) : ddp :=
  mkDdp (d_tr s) (d_preg s) (d_dreg s) (d_cost s) (d_costt s) (d_feas s) v (d_d0 s) (d_d1 s) (d_dV s) (d_dVexp s) (d_stop s) (d_kkt s) (d_iter s) (d_step s) (d_log s).
Definition set_d_d0 (v : R) (s : ddp) : ddp :=
  mkDdp (d_tr s) (d_preg s) (d_dreg s) (d_cost s) (d_costt s) (d_feas s) (d_wasfeas s) v (d_d1 s) (d_dV s) (d_dVexp s) (d_stop s) (d_kkt s) (d_iter s) (d_step s) (d_log s).
Definition set_d_d1 (v : R) (s : ddp) : ddp :=
  mkDdp (d_tr s) (d_preg s) (d_dreg s) (d_cost s) (d_costt s) (d_feas s) (d_wasfeas s) (d_d0 s) v (d_dV s) (d_dVexp s) (d_stop s) (d_kkt s) (d_iter s) (d_step s) (d_log s).
Definition set_d_dV (v : R) (s : ddp) : ddp :=
  mkDdp (d_tr s) (d_preg s) (d_dreg s) (d_cost s) (d_costt s) (d_feas s) (d_wasfeas s) (d_d0 s) (d_d1 s) v (d_dVexp s) (d_stop s) (d_kkt s) (d_iter s) (d_step s) (d_log s).
Definition set_d_dVexp (v : R) (s : ddp) : ddp :=
  mkDdp (d_tr s) (d_preg s) (d_dreg s) (d_cost s) (d_costt s) (d_feas s) (d_wasfeas s) (d_d0 s) (d_d1 s) (d_dV s) v (d_stop s) (d_kkt s) (d_iter s) (d_step s) (d_log s).
Definition set_d_stop (v : R) (s : ddp) : ddp :=
  mkDdp (d_tr s) (d_preg s) (d_dreg s) (d_cost s) (d_costt s) (d_feas s) (d_wasfeas s) (d_d0 s) (d_d1 s) (d_dV s) (d_dVexp s) v (d_kkt s) (d_iter s) (d_step s) (d_log s).
Definition set_d_kkt (v : R) (s : ddp) : ddp :=
  mkDdp (d_tr s) (d_preg s) (d_dreg s) (d_cost s) (d_costt s) (d_feas s) (d_wasfeas s) (d_d0 s) (d_d1 s) (d_dV s) (d_dVexp s) (d_stop s) v (d_iter s) (d_step s) (d_log s).
Definition set_d_iter (v : nat) (s : ddp) : ddp :=
  mkDdp (d_tr s) (d_preg s) (d_dreg s) (d_cost s) (d_costt s) (d_feas s) (d_wasfeas s) (d_d0 s) (d_d1 s) (d_dV s) (d_dVexp s) (d_stop s) (d_kkt s) v (d_step s) (d_log s).
Definition set_d_step (v : R) (s : ddp) : ddp :=
  mkDdp (d_tr s) (d_preg s) (d_dreg s) (d_cost s) (d_costt s) (d_feas s) (d_wasfeas s) (d_d0 s) (d_d1 s) (d_dV s) (d_dVexp s) (d_stop s) (d_kkt s) (d_iter s) v (d_log s).
Definition set_d_log (v : list (event E)) (s : ddp) : ddp :=
  mkDdp (d_tr s) (d_preg s) (d_dreg s) (d_cost s) (d_costt s) (d_feas s) (d_wasfeas s) (d_d0 s) (d_d1 s) (d_dV s) (d_dVexp s) (d_stop s) (d_kkt s) (d_iter s) (d_step s) v.

Variable x0 : X.                       (* problem_->get_x0() *)

(** SolverDDP::calcDiff, ddp.cpp:253-263 (inherited by SolverSQP): the datas are
    re-evaluated only when iter_ == 0. *)
Definition calcDiff (iter : nat) (s : traj M) : traj M * R :=
  let s1 := if iter =? 0 then problem_calc s else s in
  let r := problem_calcDiff s1 in
  (computeGaps x0 (fst r), snd r).

(** SolverDDP::calcDiff on an object whose candidate may be marked feasible:
    crocoddyl's computeDynamicFeasibility then sets every gap to zero instead of
    computing it (solver-base.cpp; [calcDiff] above is the is_feasible_ = false
    case, the only one in SolverSQP::solve). *)
Definition zeroGaps (s : traj M) : traj M :=
  mkTraj (map (fun n => set_fs n (vzero E)) (run s)) (set_tfs (trm s) (vzero E)).
Definition ddp_calcDiff (feas : bool) (iter : nat) (s : traj M) : traj M * R :=
  let r := problem_calcDiff (if iter =? 0 then problem_calc s else s) in
  (if feas then zeroGaps (fst r) else computeGaps x0 (fst r), snd r).

(** SolverDDP::computeDirection, ddp.cpp:161-168 *)
Definition ddp_computeDirection (recalc : bool) (s : ddp) : bool * ddp :=
  let s1 := if recalc
            then let r := ddp_calcDiff (d_feas s) (d_iter s) (d_tr s) in
                 set_d_cost (snd r) (set_d_tr (fst r) s)
            else s in
  let r := backwardPass (d_preg s1) (d_dreg s1) (d_feas s1) (d_tr s1) in
  (fst r, set_d_tr (snd r) s1).

(** SolverDDP::forwardPass, ddp.cpp:350-399.  [dx_] has size T here (ddp.cpp:461)
    and dx_.back() is the entry of the last running node; lag_mul_[t] uses the
    dx_[t] left by the previous call.  [xt] is the value of xs_try_[t]; [ld] is
    dx_.back() (for T = 0 the code reads an empty vector; the model uses 0 and the
    theorems assume T > 0).  Result: success, nodes, terminal node, cost_try_. *)
Definition is_rollout_error (c : R) (x : X) : bool :=
  raiseIfNaN c || raiseIfNaN (xnorm M x).
Definition roll_node (a : R) (xt : X) (n : node) : node :=
  let p := pt n in
  let e := dir n in
  let l := vadd E (mmulv E (Vxx (val n)) (dx e)) (Vx (val n)) in
  let dd := diff M (px p) xt in
  let hasu := negb (nu (nm n) =? 0) in
  let ut := if hasu
            then vsub E (vsub E (pu p) (vscale E a (gk (val n)))) (mmulv E (gK (val n)) dd)
            else put p in
  let m := if hasu then acalc (nm n) xt ut else acalc0 (nm n) xt in
  set_mem (set_dir (set_pt n (mkPoint (px p) (pu p) xt ut)) (mkDirs dd (du e) l)) m.
Fixpoint roll_nodes (a : R) (xt : X) (ld : vec ndx) (l : list node) (tn : tnode) (c : R)
  : bool * list node * tnode * R :=
  match l with
  | [] =>
      let tn1 := set_tlam tn (vadd E (mmulv E (tVxx tn) ld) (tVx tn)) in
      let tn2 := set_tme (set_txt tn1 xt) (tcalc (tm tn1) xt) in
      let c' := radd E c (tcost (tm tn2) (tme tn2)) in
      (negb (raiseIfNaN c'), [], tn2, c')
  | n :: l' =>
      let n' := roll_node a xt n in
      let c' := radd E c (acost (nm n') (mem n')) in
      let xn := axnext (nm n') (mem n') in
      if is_rollout_error c' xn
      then (false, n' :: match l' with
                         | [] => [] | m :: q => set_xt m xn :: q end,
            match l' with [] => set_txt tn xn | _ => tn end, c')
      else
        let r := roll_nodes a xn (dx (dir n')) l' tn c' in
        (fst (fst (fst r)), n' :: snd (fst (fst r)), snd (fst r), snd r)
  end.
Definition ddp_tryStep (a : R) (s : ddp) : bool * ddp :=
  if rgt a (r1 E) || rlt E a (r0 E) then (false, s)
  else
    let t := d_tr s in
    let r := roll_nodes a (hd_xt (run t) (trm t)) (vzero E) (run t) (trm t) (r0 E) in
    (fst (fst (fst r)),
     set_d_costt (snd r) (set_d_tr (mkTraj (snd (fst (fst r))) (snd (fst r))) s)).

(** SolverDDP::expectedImprovement, ddp.cpp:215-228 *)
Definition ddp_expected (l : list node) : R * R :=
  fold_left (fun (d : R * R) n =>
      if negb (nu (nm n) =? 0)
      then (radd E (fst d) (vdot E (Qu (val n)) (gk (val n))),
            rsub E (snd d) (vdot E (gk (val n)) (Quuk (val n))))
      else d) l (r0 E, r0 E).

(** SolverDDP::stoppingCriteria, ddp.cpp:200-213 *)
Definition ddp_stopping (l : list node) : R :=
  fold_left (fun a n => if negb (nu (nm n) =? 0)
                        then radd E a (vdot E (Qu (val n)) (Qu (val n))) else a) l (r0 E).

Variable c : cfg E.

Definition ddp_inc (s : ddp) : ddp :=
  let p := inc_reg c (d_preg s) in set_d_dreg p (set_d_preg p s).
Definition ddp_dec (s : ddp) : ddp :=
  let p := dec_reg c (d_preg s) in set_d_dreg p (set_d_preg p s).

(** ddp.cpp:87-100: while (true) { try computeDirection ... }.  Returns the
    final value of recalcDiff too (it becomes false after a failure, but the
    caller overwrites it). *)
Fixpoint ddp_retry (fuel : nat) (recalc : bool) (s : ddp) : dirres ddp :=
  match fuel with
  | O => DirNoFuel
  | S fuel' =>
      let r := ddp_computeDirection recalc s in
      if fst r then DirOk (snd r)
      else
        let s' := ddp_inc (snd r) in
        if req E (d_preg s') (c_rmax c) then DirFail s' else ddp_retry fuel' false s'
  end.

(** ddp.cpp:112-134: line search; the boolean is recalcDiff *)
Fixpoint ddp_line_search (als : list R) (s : ddp) : bool * ddp :=
  match als with
  | [] => (false, s)
  | a :: r =>
      let t := ddp_tryStep a (set_d_step a s) in
      if fst t then
        let s1 := set_d_dV (rsub E (d_cost (snd t)) (d_costt (snd t))) (snd t) in
        let s2 := set_d_dVexp (rmul E a (radd E (d_d0 s1) (rmul E (rmul E (rlit E 1 2) a) (d_d1 s1)))) s1 in
        if rge (d_dVexp s2) (r0 E)
           && (rlt E (d_d0 s2) (c_grad c) || negb (d_feas s2)
               || rgt (d_dV s2) (rmul E (c_accept c) (d_dVexp s2)))
        then (true, set_d_cost (d_costt s2)
                      (set_d_feas true (set_d_tr (accept_try (d_tr s2))
                        (set_d_wasfeas (d_feas s2) s2))))
        else ddp_line_search r s2
      else ddp_line_search r (snd t)
  end.

(** body of the loop ddp.cpp:86-153; the boolean of BNext is passed through
    the pair (recalcDiff, state) *)
Definition ddp_body (fuel : nat) (recalc : bool) (s : ddp) : body (bool * ddp) :=
  match ddp_retry fuel recalc s with
  | DirNoFuel => BNoFuel
  | DirUB => BUB
  | DirExc s1 => BRet false (recalc, s1)
  | DirFail s1 => BRet false (recalc, s1)
  | DirOk s1 =>
      let d := ddp_expected (run (d_tr s1)) in
      let s2 := set_d_d1 (snd d) (set_d_d0 (fst d) s1) in
      let s3 := set_d_kkt (kkt_residual (d_tr s2)) s2 in
      if rle E (d_kkt s3) (c_tol c) then BRet true (recalc, s3)
      else
        let ls := ddp_line_search (c_alphas c) s3 in
        let s4 := snd ls in
        let s5 := if rgt (d_step s4) (c_stepdec c) then ddp_dec s4 else s4 in
        let up := rle E (d_step s5) (c_stepinc c) in
        let s6 := if up then ddp_inc s5 else s5 in
        if up && req E (d_preg s6) (c_rmax c) then BRet false (fst ls, s6)
        else
          let s7 := set_d_stop (ddp_stopping (run (d_tr s6))) s6 in
          let s8 := set_d_log (run_callbacks (c_ncb c) (d_iter s7) (d_kkt s7) (d_cost s7) (r0 E)
                                 (d_step s7) (d_log s7)) s7 in
          BNext (fst ls, s8)
  end.

Fixpoint ddp_loop (fuel k : nat) (recalc : bool) (s : ddp) : outcome ddp :=
  match k with
  | O => Ret false s
  | S k' =>
      match ddp_body fuel recalc s with
      | BRet b s' => Ret b (snd s')
      | BNext s' | BBreak s' => ddp_loop fuel k' (fst s') (set_d_iter (S (d_iter (snd s'))) (snd s'))
      | BUB => UB
      | BNoFuel => NoFuel
      end
  end.

(** SolverDDP::solve, ddp.cpp:62-159 *)
Definition ddp_solve (fuel : nat) (xs : list X) (us : list {k : nat & vec k})
    (maxiter : nat) (feas : bool) (reg : option R) (s : ddp) : outcome ddp :=
  let s0 := set_d_tr (pin_xt0 x0 (d_tr s)) s in
  match set_guess xs us (d_tr s0) with
  | None => Exc s0
  | Some t =>
      let p := init_reg c reg in
      let s1 := set_d_wasfeas false (set_d_dreg p (set_d_preg p (set_d_feas feas (set_d_tr t s0)))) in
      ddp_loop fuel maxiter true (set_d_iter 0 s1)
  end.

End DDP.
