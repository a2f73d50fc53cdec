(** * SolverSQP (src/sqp.cpp, include/mim_solvers/sqp.hpp). *)
From Coq Require Import ZArith List Bool Arith.
From Verif Require Import Eigen Problem DDP Filter.
Import ListNotations.
Set Implicit Arguments.
Set Asymmetric Patterns.

(** Parameters: those of SolverDDP plus sqp.hpp:173-187.  They are constant
    during a solve (callbacks are assumed not to change them). *)
Record scfg (E : Eig) := mkScfg {
  sc_ddp : cfg E;
  sc_mu : R E;               (* mu_dynamic_ *)
  sc_filter : bool;          (* use_filter_line_search_ *)
  sc_fsize : nat;            (* filter_size_ *)
  sc_extra : bool            (* extra_iteration_for_last_kkt_ *)
}.

Section SQP.
Variable E : Eig.
Variable M : manifold E.
Notation R := (R E).
Notation vec := (vec E).
Notation mat := (mat E).
Notation X := (mX M).
Notation ndx := (mndx M).
Notation node := (node M).
Notation tnode := (tnode M).

Record sqp := mkSqp {
  q_tr : traj M;   (* xs_, us_, xs_try_, us_try_, fs_, Vxx_, ..., dx_, du_, lag_mul_, problem datas *)
  q_preg : R;   (* preg_ *)
  q_dreg : R;   (* dreg_ *)
  q_cost : R;   (* cost_ *)
  q_costt : R;   (* cost_try_ *)
  q_merit : R;   (* merit_ *)
  q_meritt : R;   (* merit_try_ *)
  q_gap : R;   (* gap_norm_ *)
  q_gapt : R;   (* gap_norm_try_ *)
  q_xg : R;   (* x_grad_norm_ *)
  q_ug : R;   (* u_grad_norm_ *)
  q_kkt : R;   (* KKT_ *)
  q_iter : nat;   (* iter_ *)
  q_step : R;   (* steplength_ *)
  q_costl : cbuf R;   (* cost_list_ *)
  q_gapl : cbuf R;   (* gap_list_ *)
  q_log : list (event E)   (* trace (ghost), most recent first *)
}.
Definition set_q_tr (v : traj M) (s : sqp) : sqp :=
  mkSqp v (q_preg s) (q_dreg s) (q_cost s) (q_costt s) (q_merit s) (q_meritt s) (q_gap s) (q_gapt s) (q_xg s) (q_ug s) (q_kkt s) (q_iter s) (q_step s) (q_costl s) (q_gapl s) (q_log s).
Definition set_q_preg (v : R) (s : sqp) : sqp :=
  mkSqp (q_tr s) v (q_dreg s) (q_cost s) (q_costt s) (q_merit s) (q_meritt s) (q_gap s) (q_gapt s) (q_xg s) (q_ug s) (q_kkt s) (q_iter s) (q_step s) (q_costl s) (q_gapl s) (q_log s).
Definition set_q_dreg (v : R) (s : sqp) : sqp :=
  mkSqp (q_tr s) (q_preg s) v (q_cost s) (q_costt s) (q_merit s) (q_meritt s) (q_gap s) (q_gapt s) (q_xg s) (q_ug s) (q_kkt s) (q_iter s) (q_step s) (q_costl s) (q_gapl s) (q_log s).
Definition set_q_cost (v : R) (s : sqp) : sqp :=
  mkSqp (q_tr s) (q_preg s) (q_dreg s) v (q_costt s) (q_merit s) (q_meritt s) (q_gap s) (q_gapt s) (q_xg s) (q_ug s) (q_kkt s) (q_iter s) (q_step s) (q_costl s) (q_gapl s) (q_log s).
Definition set_q_costt (v : R) (s : sqp) : sqp :=
  mkSqp (q_tr s) (q_preg s) (q_dreg s) (q_cost s) v (q_merit s) (q_meritt s) (q_gap s) (q_gapt s) (q_xg s) (q_ug s) (q_kkt s) (q_iter s) (q_step s) (q_costl s) (q_gapl s) (q_log s).
Definition set_q_merit (v : R) (s : sqp) : sqp :=
  mkSqp (q_tr s) (q_preg s) (q_dreg s) (q_cost s) (q_costt s) v (q_meritt s) (q_gap s) (q_gapt s) (q_xg s) (q_ug s) (q_kkt s) (q_iter s) (q_step s) (q_costl s) (q_gapl s) (q_log s).
Definition set_q_meritt (v : R) (s : sqp) : sqp :=
  mkSqp (q_tr s) (q_preg s) (q_dreg s) (q_cost s) (q_costt s) (q_merit s) v (q_gap s) (q_gapt s) (q_xg s) (q_ug s) (q_kkt s) (q_iter s) (q_step s) (q_costl s) (q_gapl s) (q_log s).
Definition set_q_gap (v : R) (s : sqp) : sqp :=
  mkSqp (q_tr s) (q_preg s) (q_dreg s) (q_cost s) (q_costt s) (q_merit s) (q_meritt s) v (q_gapt s) (q_xg s) (q_ug s) (q_kkt s) (q_iter s) (q_step s) (q_costl s) (q_gapl s) (q_log s).
Definition set_q_gapt (v : R) (s : sqp) : sqp :=
  mkSqp (q_tr s) (q_preg s) (q_dreg s) (q_cost s) (q_costt s) (q_merit s) (q_meritt s) (q_gap s) v (q_xg s) (q_ug s) (q_kkt s) (q_iter s) (q_step s) (q_costl s) (q_gapl s) (q_log s).
Definition set_q_xg (v : R) (s : sqp) : sqp :=
  mkSqp (q_tr s) (q_preg s) (q_dreg s) (q_cost s) (q_costt s) (q_merit s) (q_meritt s) (q_gap s) (q_gapt s) v (q_ug s) (q_kkt s) (q_iter s) (q_step s) (q_costl s) (q_gapl s) (q_log s).
Definition set_q_ug (v : R) (s : sqp) : sqp :=
  mkSqp (q_tr s) (q_preg s) (q_dreg s) (q_cost s) (q_costt s) (q_merit s) (q_meritt s) (q_gap s) (q_gapt s) (q_xg s) v (q_kkt s) (q_iter s) (q_step s) (q_costl s) (q_gapl s) (q_log s).
Definition set_q_kkt (v : R) (s : sqp) : sqp :=
  mkSqp (q_tr s) (q_preg s) (q_dreg s) (q_cost s) (q_costt s) (q_merit s) (q_meritt s) (q_gap s) (q_gapt s) (q_xg s) (q_ug s) v (q_iter s) (q_step s) (q_costl s) (q_gapl s) (q_log s).
Definition set_q_iter (v : nat) (s : sqp) : sqp :=
  mkSqp (q_tr s) (q_preg s) (q_dreg s) (q_cost s) (q_costt s) (q_merit s) (q_meritt s) (q_gap s) (q_gapt s) (q_xg s) (q_ug s) (q_kkt s) v (q_step s) (q_costl s) (q_gapl s) (q_log s).
Definition set_q_step (v : R) (s : sqp) : sqp :=
  mkSqp (q_tr s) (q_preg s) (q_dreg s) (q_cost s) (q_costt s) (q_merit s) (q_meritt s) (q_gap s) (q_gapt s) (q_xg s) (q_ug s) (q_kkt s) (q_iter s) v (q_costl s) (q_gapl s) (q_log s).
Definition set_q_costl (v : cbuf R) (s : sqp) : sqp :=
  mkSqp (q_tr s) (q_preg s) (q_dreg s) (q_cost s) (q_costt s) (q_merit s) (q_meritt s) (q_gap s) (q_gapt s) (q_xg s) (q_ug s) (q_kkt s) (q_iter s) (q_step s) v (q_gapl s) (q_log s).
Definition set_q_gapl (v : cbuf R) (s : sqp) : sqp :=
  mkSqp (q_tr s) (q_preg s) (q_dreg s) (q_cost s) (q_costt s) (q_merit s) (q_meritt s) (q_gap s) (q_gapt s) (q_xg s) (q_ug s) (q_kkt s) (q_iter s) (q_step s) (q_costl s) v (q_log s).
Definition set_q_log (v : list (event E)) (s : sqp) : sqp :=
  mkSqp (q_tr s) (q_preg s) (q_dreg s) (q_cost s) (q_costt s) (q_merit s) (q_meritt s) (q_gap s) (q_gapt s) (q_xg s) (q_ug s) (q_kkt s) (q_iter s) (q_step s) (q_costl s) (q_gapl s) v.

(** ** Forward pass, sqp.cpp:270-305.  [d] is dx_[t]; dx_[0] is never written.
    (-K*dx is modelled as -(K*dx).)  Result: nodes, terminal node, accumulated
    x_grad_norm_, u_grad_norm_. *)
Definition fwd_du (n : node) (d : vec ndx) : vec (nu (nm n)) :=
  vsub E (vopp E (mmulv E (gK (val n)) d)) (gk (val n)).
Definition fwd_lam (n : node) (d : vec ndx) : vec ndx :=
  vadd E (mmulv E (Vxx (val n)) (vsub E d (fs n))) (Vx (val n)).
Fixpoint fwd_nodes (d : vec ndx) (l : list node) (tn : tnode) (xg ug : R)
  : list node * tnode * (R * R) :=
  match l with
  | [] =>
      let tl := vadd E (tVx tn) (mmulv E (tVxx tn) (vsub E d (tfs tn))) in
      ([], set_tlam (set_tdx tn d) tl, (radd E xg (vl1 E d), ug))
  | n :: l' =>
      let u := fwd_du n d in
      let n' := set_dir n (mkDirs d u (fwd_lam n d)) in
      let d' := vadd E (vadd E (hd_fs l' tn) (mmulv E (Fu (der n)) u)) (mmulv E (Fx (der n)) d) in
      let r := fwd_nodes d' l' tn (radd E xg (vl1 E d)) (radd E ug (vl1 E u)) in
      (n' :: fst (fst r), snd (fst r), snd r)
  end.
Definition forwardPass (s : traj M) : traj M * (R * R) :=
  let r := fwd_nodes (hd_dx (run s) (trm s)) (run s) (trm s) (r0 E) (r0 E) in
  let T := length (run s) in
  (mkTraj (fst (fst r)) (snd (fst r)),
   (rdiv E (fst (snd r)) (rlit E (Z.of_nat (T + 1)) 1),
    rdiv E (snd (snd r)) (rlit E (Z.of_nat T) 1))).

(** gap_norm_, sqp.cpp:229-234 *)
Definition gap_l1 (s : traj M) : R :=
  radd E (fold_left (fun a n => radd E a (vl1 E (fs n))) (run s) (r0 E)) (vl1 E (tfs (trm s))).

Variable x0 : X.
Variable c : scfg E.
Notation dc := (sc_ddp c).

(** SolverSQP::computeDirection, sqp.cpp:224-242.  false = an exception (from
    backwardPass). setCandidate(..,false) keeps is_feasible_ false, so the
    backward pass always adds the gap terms. *)
Definition sqp_computeDirection (recalc : bool) (s : sqp) : bool * sqp :=
  let s1 := if recalc
            then let r := calcDiff x0 (q_iter s) (q_tr s) in set_q_cost (snd r) (set_q_tr (fst r) s)
            else s in
  let g := gap_l1 (q_tr s1) in
  let s2 := set_q_merit (radd E (q_cost s1) (rmul E (sc_mu c) g)) (set_q_gap g s1) in
  let b := backwardPass (q_preg s2) (q_dreg s2) false (q_tr s2) in
  let s3 := set_q_tr (snd b) s2 in
  if fst b then
    let f := forwardPass (q_tr s3) in
    (true, set_q_ug (snd (snd f)) (set_q_xg (fst (snd f)) (set_q_tr (fst f) s3)))
  else (false, s3).

(** ** SolverSQP::tryStep, sqp.cpp:307-374 *)
Definition try_node (a : R) (n : node) : node :=
  let p := pt n in
  let xt := integrate M (px p) (vscale E a (dx (dir n))) in
  let ut := if negb (nu (nm n) =? 0) then vadd E (pu p) (vscale E a (du (dir n))) else put p in
  set_mem (set_pt n (mkPoint (px p) (pu p) xt ut)) (acalc (nm n) xt ut).
(** loop sqp.cpp:323-346; [prev] is datas[t-1]->xnext.  Result: success, nodes,
    cost_try_, gap_norm_try_, last xnext. *)
Fixpoint try_nodes (a : R) (prev : option X) (l : list node) (cst gap : R)
  : bool * list node * (R * R) * option X :=
  match l with
  | [] => (true, [], (cst, gap), prev)
  | n :: l' =>
      let n' := try_node a n in
      let cst' := radd E cst (acost (nm n') (mem n')) in
      let gap' := match prev with
                  | None => gap
                  | Some xn => radd E gap (vl1 E (diff M (pxt (pt n')) xn))
                  end in
      if raiseIfNaN cst' then (false, n' :: l', (cst', gap'), prev)
      else
        let r := try_nodes a (Some (axnext (nm n') (mem n'))) l' cst' gap' in
        (fst (fst (fst r)), n' :: snd (fst (fst r)), snd (fst r), snd r)
  end.
Definition try_term (a : R) (tn : tnode) : tnode :=
  let xt := integrate M (tx tn) (vscale E a (tdx tn)) in
  set_tme (set_txt tn xt) (tcalc (tm tn) xt).

Inductive tryres :=
  | TOk (s : sqp)          (* returned merit_try_, stored in the state *)
  | TThrow (s : sqp)
  | TUB.

Definition sqp_tryStep (a : R) (s : sqp) : tryres :=
  if rgt a (r1 E) || rlt E a (r0 E) then TThrow s
  else
    let t := q_tr s in
    let r := try_nodes a None (run t) (r0 E) (r0 E) in
    let cst := fst (snd (fst r)) in
    let gap := snd (snd (fst r)) in
    let s1 := set_q_gapt gap (set_q_costt cst (set_q_meritt (r0 E)
                (set_q_tr (mkTraj (snd (fst (fst r))) (trm t)) s))) in
    if negb (fst (fst (fst r))) then TThrow s1
    else
      match snd r with
      | None => TUB                      (* T = 0: models[T - 1], sqp.cpp:358 *)
      | Some xn =>
          let tn := try_term a (trm t) in
          let cst' := radd E cst (tcost (tm tn) (tme tn)) in
          let gap' := radd E gap (vl1 E (diff M (txt tn) xn)) in
          let m := radd E cst' (rmul E (sc_mu c) gap') in
          let s2 := set_q_meritt m (set_q_gapt gap' (set_q_costt cst'
                      (set_q_tr (mkTraj (snd (fst (fst r))) tn) s1))) in
          if raiseIfNaN cst' then TThrow s2 else TOk s2
      end.

(** ** Line search, sqp.cpp:134-173 *)

(** sqp.cpp:151-156: cost_list_[i] <= cost_try_ && gap_list_[i] <= gap_norm_try_ *)
Definition sqp_dominated (s : sqp) (i : nat) : option bool :=
  match cb_get (q_costl s) i, cb_get (q_gapl s) i with
  | Some ci, Some gi => Some (rle E ci (q_costt s) && rle E gi (q_gapt s))
  | _, _ => None
  end.
(** acceptance test of a trial that did not throw: sqp.cpp:146-162 (filter) and
    164-169 (merit); None = out-of-range access *)
Definition sqp_accept (s : sqp) : option bool :=
  if sc_filter c then
    match filter_worse (sqp_dominated s) (sc_fsize c) (q_iter s) with
    | None => None
    | Some w => Some (negb w)
    end
  else Some (rgt (q_merit s) (q_meritt s)).

Inductive lsres :=
  | LSAccept (s : sqp)     (* setCandidate(xs_try_, us_try_, false); break *)
  | LSNone (s : sqp)       (* no step length accepted *)
  | LSUB.
Fixpoint sqp_line_search (als : list R) (s : sqp) : lsres :=
  match als with
  | [] => LSNone s
  | a :: r =>
      match sqp_tryStep a (set_q_step a s) with
      | TUB => LSUB
      | TThrow s1 => sqp_line_search r s1
      | TOk s1 =>
          match sqp_accept s1 with
          | None => LSUB
          | Some true => LSAccept (set_q_tr (accept_try (q_tr s1)) s1)
          | Some false => sqp_line_search r s1
          end
      end
  end.

Definition sqp_inc (s : sqp) : sqp :=
  let p := inc_reg dc (q_preg s) in set_q_dreg p (set_q_preg p s).
Definition sqp_dec (s : sqp) : sqp :=
  let p := dec_reg dc (q_preg s) in set_q_dreg p (set_q_preg p s).

(** retry loop, sqp.cpp:102-116 and 191-205 *)
Fixpoint sqp_retry (fuel : nat) (recalc : bool) (s : sqp) : dirres sqp :=
  match fuel with
  | O => DirNoFuel
  | S fuel' =>
      let r := sqp_computeDirection recalc s in
      if fst r then DirOk (snd r)
      else
        let s' := sqp_inc (snd r) in
        if req E (q_preg s') (c_rmax dc) then DirFail s' else sqp_retry fuel' false s'
  end.

(** checkKKTConditions (sqp.cpp:244-268), then the callbacks (120-125) *)
Definition sqp_check (s : sqp) : sqp :=
  let s1 := set_q_kkt (kkt_residual (q_tr s)) s in
  set_q_log (run_callbacks (c_ncb dc) (q_iter s1) (q_kkt s1) (q_cost s1) (q_merit s1)
               (q_step s1) (q_log s1)) s1.

(** sqp.cpp:132-133: gap_list_.push_back, cost_list_.push_back *)
Definition sqp_push (s : sqp) : sqp :=
  let s1 := set_q_gapl (cb_push (q_gap s) (q_gapl s)) s in
  let s2 := set_q_costl (cb_push (q_cost s) (q_costl s)) s1 in
  set_q_log (EvLineSearch E (q_iter s) (q_cost s) (q_gap s) (r0 E) (q_merit s) :: q_log s2) s2.
(** ghost events at the end of a line search *)
Definition sqp_log_accept (s : sqp) : sqp :=
  set_q_log (EvAccept E (q_iter s) (q_step s) (q_costt s) (q_gapt s) (r0 E) (q_meritt s) :: q_log s) s.
Definition sqp_log_reject (s : sqp) : sqp := set_q_log (EvReject E (q_iter s) :: q_log s) s.

(** regularisation update after the line search, sqp.cpp:175-184 *)
Definition sqp_after (s : sqp) : body sqp :=
  let s5 := if rgt (q_step s) (c_stepdec dc) then sqp_dec s else s in
  if rle E (q_step s5) (c_stepinc dc) then
    let s6 := sqp_inc s5 in
    if req E (q_preg s6) (c_rmax dc) then BRet false s6 else BNext s6
  else BNext s5.

(** loop body, sqp.cpp:99-185 *)
Definition sqp_body (fuel : nat) (s : sqp) : body sqp :=
  match sqp_retry fuel true s with
  | DirNoFuel => BNoFuel
  | DirUB => BUB
  | DirExc s1 => BRet false s1         (* never produced by sqp_retry *)
  | DirFail s1 => BRet false s1
  | DirOk s1 =>
      let s2 := sqp_check s1 in
      if rle E (q_kkt s2) (c_tol dc) then BRet true s2
      else
        match sqp_line_search (c_alphas dc) (sqp_push s2) with
        | LSUB => BUB
        | LSAccept s3 => sqp_after (sqp_log_accept s3)
        | LSNone s3 => sqp_after (sqp_log_reject s3)
        end
  end.

(** after the loop, sqp.cpp:188-221 *)
Definition sqp_final (fuel : nat) (s : sqp) : outcome sqp :=
  if sc_extra c then
    match sqp_retry fuel true s with
    | DirNoFuel => NoFuel
    | DirUB => UB
    | DirExc s1 => Exc s1
    | DirFail s1 => Ret false s1
    | DirOk s1 => let s2 := sqp_check s1 in Ret (rle E (q_kkt s2) (c_tol dc)) s2
    end
  else Ret false s.

(** [k] = maxiter - iter_ *)
Fixpoint sqp_loop (fuel k : nat) (s : sqp) : outcome sqp :=
  match k with
  | O => sqp_final fuel s
  | S k' =>
      match sqp_body fuel s with
      | BRet b s' => Ret b s'
      | BNext s' | BBreak s' => sqp_loop fuel k' (set_q_iter (S (q_iter s')) s')
      | BUB => UB
      | BNoFuel => NoFuel
      end
  end.

(** SolverSQP::solve, sqp.cpp:75-222; [fuel] bounds the retries of one
    iteration (see C16 for when a bound exists). *)
Definition sqp_solve (fuel : nat) (xs : list X) (us : list {k : nat & vec k})
    (maxiter : nat) (reg : option R) (s : sqp) : outcome sqp :=
  match set_guess xs us (q_tr s) with
  | None => Exc s
  | Some t =>
      let p := init_reg dc reg in
      let s1 := set_q_dreg p (set_q_preg p
                  (set_q_tr (pin_xt0 x0 (pin_x0 x0 t)) s)) in
      sqp_loop fuel maxiter (set_q_iter 0 s1)
  end.

(** set_filter_size, sqp.hpp:143-147 (the buffers; the size itself is sc_fsize) *)
Definition sqp_set_filter_size (n : nat) (s : sqp) : sqp :=
  set_q_costl (cb_resize n (r0 E) (q_costl s)) (set_q_gapl (cb_resize n (r0 E) (q_gapl s)) s).

End SQP.
