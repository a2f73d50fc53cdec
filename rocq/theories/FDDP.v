(** * SolverFDDP (src/fddp.cpp, include/mim_solvers/fddp.hpp).

    SolverFDDP redeclares KKT_, lag_mul_, fs_flat_ and termination_tol_ of its base
    class SolverDDP (fddp.hpp:155-171); every function it runs uses its own copies
    (SolverDDP::backwardPass and calcDiff read neither), so one copy is modelled.
    fs_try_ is only used for its 1-norm and is not kept.  For T = 0 the code reads
    dx_.back() of an empty vector; the theorems assume T > 0. *)
From Coq Require Import ZArith List Bool Arith.
From Verif Require Import Eigen Problem DDP Filter SQP.
Import ListNotations.
Set Implicit Arguments.
Set Asymmetric Patterns.

(** parameters: those of SolverDDP, use_filter_line_search_, filter_size_ and
    th_acceptnegstep_ (fddp.hpp:145-175) *)
Record fcfg (E : Eig) := mkFcfg {
  fc_ddp : cfg E; fc_filter : bool; fc_fsize : nat; fc_neg : R E
}.

Section FDDP.
Variable E : Eig.
Variable M : manifold E.
Notation R := (R E).
Notation vec := (vec E).
Notation mat := (mat E).
Notation X := (mX M).
Notation ndx := (mndx M).
Notation node := (node M).
Notation tnode := (tnode M).

Record fddp := mkFddp {
  f_d : ddp M;                 (* the members of SolverDDP *)
  f_gap : R; f_gapt : R;       (* gap_norm_, gap_norm_try_ *)
  f_dg : R; f_dq : R;          (* dg_, dq_ *)
  f_costl : cbuf R; f_gapl : cbuf R   (* cost_list_, gap_list_ *)
}.
Definition upd (g : ddp M -> ddp M) (s : fddp) : fddp :=
  mkFddp (g (f_d s)) (f_gap s) (f_gapt s) (f_dg s) (f_dq s) (f_costl s) (f_gapl s).
Definition set_f_gap (v : R) (s : fddp) : fddp :=
  mkFddp (f_d s) v (f_gapt s) (f_dg s) (f_dq s) (f_costl s) (f_gapl s).
Definition set_f_gapt (v : R) (s : fddp) : fddp :=
  mkFddp (f_d s) (f_gap s) v (f_dg s) (f_dq s) (f_costl s) (f_gapl s).
Definition set_f_exp (dg dq : R) (s : fddp) : fddp :=
  mkFddp (f_d s) (f_gap s) (f_gapt s) dg dq (f_costl s) (f_gapl s).
Definition set_f_lists (cl gl : cbuf R) (s : fddp) : fddp :=
  mkFddp (f_d s) (f_gap s) (f_gapt s) (f_dg s) (f_dq s) cl gl.

Variable x0 : X.
Variable c : fcfg E.
Notation dc := (fc_ddp c).

(** SolverFDDP::computeDirection, fddp.cpp:189-205: SolverDDP::calcDiff, the 1-norm
    of the gaps, SolverDDP::backwardPass *)
Definition fddp_computeDirection (recalc : bool) (s : fddp) : bool * fddp :=
  let s1 := if recalc
            then let r := ddp_calcDiff x0 (d_feas (f_d s)) (d_iter (f_d s)) (d_tr (f_d s)) in
                 upd (fun d => set_d_cost (snd r) (set_d_tr (fst r) d)) s
            else s in
  let s2 := set_f_gap (gap_l1 (d_tr (f_d s1))) s1 in
  let d := f_d s2 in
  let r := backwardPass (d_preg d) (d_dreg d) (d_feas d) (d_tr d) in
  (fst r, upd (set_d_tr (snd r)) s2).

(** SolverFDDP::updateExpectedImprovement, fddp.cpp:263-288: (dg_, dq_) *)
Definition fddp_update_expected (feas : bool) (t : traj M) : R * R :=
  let tn := trm t in
  let z := (r0 E, r0 E) in
  let init := if feas then z
              else (rsub E (fst z) (vdot E (tVx tn) (tfs tn)),
                    radd E (snd z) (vdot E (tfs tn) (mmulv E (tVxx tn) (tfs tn)))) in
  fold_left (fun (d : R * R) n =>
      let d1 := if negb (nu (nm n) =? 0)
                then (radd E (fst d) (vdot E (Qu (val n)) (gk (val n))),
                      rsub E (snd d) (vdot E (gk (val n)) (Quuk (val n))))
                else d in
      if feas then d1
      else (rsub E (fst d1) (vdot E (Vx (val n)) (fs n)),
            radd E (snd d1) (vdot E (fs n) (mmulv E (Vxx (val n)) (fs n)))))
    (run t) init.

(** SolverFDDP::expectedImprovement, fddp.cpp:233-261: dv_ and the dx_ it leaves
    behind (only when the candidate is not feasible); d_ = (dg_ + dv_, dq_ - 2 dv_) *)
Definition fddp_dv (t : traj M) : R :=
  let tn := trm t in
  fold_left (fun dv n => rsub E dv (vdot E (fs n)
               (mmulv E (Vxx (val n)) (diff M (pxt (pt n)) (px (pt n))))))
    (run t)
    (rsub E (r0 E) (vdot E (tfs tn) (mmulv E (tVxx tn) (diff M (txt tn) (tx tn))))).
Definition set_back_dx (n : node) : node :=
  set_dir n (mkDirs (diff M (pxt (pt n)) (px (pt n))) (du (dir n)) (lam (dir n))).
Definition fddp_expected (s : fddp) : fddp :=
  let d := f_d s in
  let dv := if d_feas d then r0 E else fddp_dv (d_tr d) in
  let t := if d_feas d then d_tr d
           else mkTraj (map set_back_dx (run (d_tr d))) (trm (d_tr d)) in
  upd (fun d => set_d_d1 (rsub E (f_dq s) (rmul E (rlit E 2 1) dv))
                  (set_d_d0 (radd E (f_dg s) dv) (set_d_tr t d))) s.

(** SolverFDDP::forwardPass, fddp.cpp:281-385.  [full] is is_feasible_ or
    steplength == 1; [xn] is xnext_; [ld] is dx_.back().  Result: success, nodes,
    terminal node, (cost_try_, gap_norm_try_). *)
Definition froll_x (full : bool) (a : R) (xn : X) (f : vec ndx) : X :=
  if full then xn else integrate M xn (vscale E (rsub E a (r1 E)) f).
Definition froll_node (full : bool) (a : R) (xn : X) (n : node) : node :=
  let p := pt n in
  let e := dir n in
  let l := vadd E (mmulv E (Vxx (val n)) (if full then dx e else vsub E (dx e) (fs n))) (Vx (val n)) in
  let xt := froll_x full a xn (fs n) in
  let dd := diff M (px p) xt in
  let hasu := negb (nu (nm n) =? 0) in
  let ut := if hasu
            then vsub E (vsub E (pu p) (vscale E a (gk (val n)))) (mmulv E (gK (val n)) dd)
            else put p in
  let m := if hasu then acalc (nm n) xt ut else acalc0 (nm n) xt in
  set_mem (set_dir (set_pt n (mkPoint (px p) (pu p) xt ut)) (mkDirs dd (du e) l)) m.
Fixpoint froll_nodes (full : bool) (a : R) (xn : X) (ld : vec ndx) (l : list node) (tn : tnode)
    (cst gap : R) : bool * list node * tnode * (R * R) :=
  match l with
  | [] =>
      let tn1 := set_tlam tn (vadd E (mmulv E (tVxx tn)
                   (if full then ld else vsub E ld (tfs tn))) (tVx tn)) in
      let xt := froll_x full a xn (tfs tn) in
      let tn2 := set_tme (set_txt tn1 xt) (tcalc (tm tn1) xt) in
      let c' := radd E cst (tcost (tm tn2) (tme tn2)) in
      (negb (raiseIfNaN c'), [], tn2, (c', gap))
  | n :: l' =>
      let n' := froll_node full a xn n in
      let xn' := axnext (nm n') (mem n') in
      let c' := radd E cst (acost (nm n') (mem n')) in
      let g' := radd E gap (vl1 E (diff M (pxt (pt n')) xn')) in
      if is_rollout_error M c' xn' then (false, n' :: l', tn, (c', g'))
      else
        let r := froll_nodes full a xn' (dx (dir n')) l' tn c' g' in
        (fst (fst (fst r)), n' :: snd (fst (fst r)), snd (fst r), snd r)
  end.
(** SolverDDP::tryStep with the overriding forwardPass *)
Definition fddp_tryStep (a : R) (s : fddp) : bool * fddp :=
  if rgt a (r1 E) || rlt E a (r0 E) then (false, s)
  else
    let d := f_d s in
    let t := d_tr d in
    let r := froll_nodes (d_feas d || req E a (r1 E)) a x0 (vzero E) (run t) (trm t) (r0 E) (r0 E) in
    (fst (fst (fst r)),
     set_f_gapt (snd (snd r)) (upd (fun d => set_d_costt (fst (snd r))
        (set_d_tr (mkTraj (snd (fst (fst r))) (snd (fst r))) d)) s)).

(** fddp.cpp:115-133: the filter test, entries read at filter_size_ - 1 - count *)
Definition fddp_dominated (s : fddp) (i : nat) : option bool :=
  match cb_get (f_costl s) i, cb_get (f_gapl s) i with
  | Some ci, Some gi => Some (rle E ci (d_costt (f_d s)) && rle E gi (f_gapt s))
  | _, _ => None
  end.
(** fddp.cpp:137-160: the acceptance test of the expectation model *)
Definition fddp_expect_ok (d : ddp M) : bool :=
  if rge (d_dVexp d) (r0 E)
  then rlt E (d_d0 d) (c_grad dc) || rgt (d_dV d) (rmul E (c_accept dc) (d_dVexp d))
  else rgt (d_dV d) (rmul E (fc_neg c) (d_dVexp d)).
Definition fddp_set_dVexp (a : R) (d : ddp M) : ddp M :=
  set_d_dVexp (rmul E a (radd E (d_d0 d) (rmul E (rmul E (rlit E 1 2) a) (d_d1 d)))) d.

Inductive flsres :=
  | FLSDone (recalc : bool) (s : fddp)
  | FLSUB.
(** fddp.cpp:101-163 *)
Fixpoint fddp_line_search (als : list R) (s : fddp) : flsres :=
  match als with
  | [] => FLSDone false s
  | a :: r =>
      let t := fddp_tryStep a (upd (set_d_step a) s) in
      if fst t then
        let s1 := upd (fun d => set_d_dV (rsub E (d_cost d) (d_costt d)) d) (snd t) in
        if fc_filter c then
          match filter_worse (fddp_dominated s1) (fc_fsize c) (d_iter (f_d s1)) with
          | None => FLSUB
          | Some true => fddp_line_search r s1
          | Some false =>
              FLSDone true (upd (fun d => set_d_feas false (set_d_tr (accept_try (d_tr d)) d)) s1)
          end
        else
          let s2 := upd (fddp_set_dVexp a) (fddp_expected s1) in
          if fddp_expect_ok (f_d s2)
          then FLSDone true (upd (fun d => set_d_cost (d_costt d)
                 (set_d_feas (d_feas d || req E a (r1 E))
                   (set_d_tr (accept_try (d_tr d)) (set_d_wasfeas (d_feas d) d)))) s2)
          else fddp_line_search r s2
      else fddp_line_search r (snd t)
  end.

(** fddp.cpp:76-90 *)
Fixpoint fddp_retry (fuel : nat) (recalc : bool) (s : fddp) : dirres fddp :=
  match fuel with
  | O => DirNoFuel
  | S fuel' =>
      let r := fddp_computeDirection recalc s in
      if fst r then DirOk (snd r)
      else
        let s' := upd (ddp_inc dc) (snd r) in
        if req E (d_preg (f_d s')) (c_rmax dc) then DirFail s' else fddp_retry fuel' false s'
  end.

(** fddp.cpp:164-183, on the members of SolverDDP *)
Definition fddp_after (d4 : ddp M) : body (ddp M) :=
  let d5 := if rgt (d_step d4) (c_stepdec dc) then ddp_dec dc d4 else d4 in
  let up := rle E (d_step d5) (c_stepinc dc) in
  let d6 := if up then ddp_inc dc d5 else d5 in
  if up && req E (d_preg d6) (c_rmax dc) then BRet false d6
  else
    let d7 := set_d_stop (ddp_stopping (run (d_tr d6))) d6 in
    BNext (set_d_log (run_callbacks (c_ncb dc) (d_iter d7) (d_kkt d7) (d_cost d7) (r0 E)
                        (d_step d7) (d_log d7)) d7).

(** body of the loop, fddp.cpp:75-186; the KKT residual (fddp.cpp:207-231) has the
    same formula as SolverDDP's *)
Definition fddp_body (fuel : nat) (recalc : bool) (s : fddp) : body (bool * fddp) :=
  match fddp_retry fuel recalc s with
  | DirNoFuel => BNoFuel
  | DirUB => BUB
  | DirExc s1 => BRet false (recalc, s1)
  | DirFail s1 => BRet false (recalc, s1)
  | DirOk s1 =>
      let e := fddp_update_expected (d_feas (f_d s1)) (d_tr (f_d s1)) in
      let s2 := set_f_exp (fst e) (snd e) s1 in
      let s3 := upd (fun d => set_d_kkt (kkt_residual (d_tr d)) d) s2 in
      if rle E (d_kkt (f_d s3)) (c_tol dc) then BRet true (recalc, s3)
      else
        let s4 := set_f_lists (cb_push (d_cost (f_d s3)) (f_costl s3)) (cb_push (f_gap s3) (f_gapl s3)) s3 in
        match fddp_line_search (c_alphas dc) s4 with
        | FLSUB => BUB
        | FLSDone rc s5 =>
            match fddp_after (f_d s5) with
            | BRet b d => BRet b (rc, upd (fun _ => d) s5)
            | BNext d | BBreak d => BNext (rc, upd (fun _ => d) s5)
            | BUB => BUB
            | BNoFuel => BNoFuel
            end
        end
  end.

Fixpoint fddp_loop (fuel k : nat) (recalc : bool) (s : fddp) : outcome fddp :=
  match k with
  | O => Ret false s
  | S k' =>
      match fddp_body fuel recalc s with
      | BRet b s' => Ret b (snd s')
      | BNext s' | BBreak s' =>
          fddp_loop fuel k' (fst s') (upd (fun d => set_d_iter (S (d_iter d)) d) (snd s'))
      | BUB => UB
      | BNoFuel => NoFuel
      end
  end.

(** SolverFDDP::solve, fddp.cpp:57-187 *)
Definition fddp_solve (fuel : nat) (xs : list X) (us : list {k : nat & vec k})
    (maxiter : nat) (feas : bool) (reg : option R) (s : fddp) : outcome fddp :=
  let s0 := upd (fun d => set_d_tr (pin_xt0 x0 (d_tr d)) d) s in
  match set_guess xs us (d_tr (f_d s0)) with
  | None => Exc s0
  | Some t =>
      let p := init_reg dc reg in
      fddp_loop fuel maxiter true
        (upd (fun d => set_d_iter 0 (set_d_wasfeas false (set_d_dreg p (set_d_preg p
            (set_d_feas feas (set_d_tr t d)))))) s0)
  end.
End FDDP.
