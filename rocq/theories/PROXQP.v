(** * SolverPROXQP, src/csqp_proxqp.cpp (exact arithmetic).

    Matrices P_, A_, C_ and vectors q_, b_, l_, u_ are buffers addressed by the same
    offsets as in the C++ code; the assignments of one call of calc are listed as blocks
    in program order, one list per buffer (the C++ loop interleaves assignments to
    different buffers, which commute).  The sparse copies Asp_, Csp_, Psp_ hold the same
    coefficients and are not modelled.  The code takes get_nx() as the block size; the
    model has nx = ndx, the only case in which the assignments have matching sizes.  The
    QP backend (proxsuite) is a parameter [qp] which may throw (None); its statistics
    (iterations, residuals) are only printed and not modelled, nor is printing.  It is a
    function of the QP because computeDirection constructs a fresh proxsuite object at each
    call; its settings (eps_abs, max_qp_iters) are part of the parameter.  resizeData,
    x_grad_norm_ and u_grad_norm_ (only exposed by getters) are not modelled.  Members
    named as in SolverCSQP are the fields of the nodes: dx_, du_, lag_mul_ in [dir],
    y_ in [ay]; fs_ in [fs]. *)
From Coq Require Import ZArith List Arith.
Set Warnings "-notation-overridden,-ambiguous-paths".
From mathcomp Require Import all_ssreflect all_algebra.
From Verif Require Import Eigen EigenExact Problem DDP Filter SQP CSQP Init Flat KKT.

Set Implicit Arguments.
Unset Strict Implicit.
Unset Printing Implicit Defensive.

Import Order.TTheory GRing.Theory Num.Theory.
Local Open Scope ring_scope.

Section Blocks.
Variable F : realFieldType.
(** X.middleCols(bj, bk).middleRows(bi, bm) = bA *)
Record blk := Blk { bi : nat; bj : nat; bm : nat; bk : nat; bA : 'M[F]_(bm, bk) }.
Definition wr (K : buf F) (b : blk) : buf F := wrm (bi b) (bj b) (bA b) K.
Definition wrl (bs : seq blk) (K : buf F) : buf F := foldl wr K bs.
(** v.segment(si, sn) = sv, with entries in T *)
Variable T : Type.
Record sgm := Sgm { si : nat; sn : nat; sv : 'I_sn -> T }.
Definition wsg (q : vbuf T) (s : sgm) : vbuf T :=
  fun r => if insub (r - si s)%N is Some i then (if Nat.leb (si s) r then @sv s i else q r) else q r.
Definition wsl (l : seq sgm) (q : vbuf T) : vbuf T := foldl wsg q l.
End Blocks.
Arguments Sgm {T}.

Section PROXQP.
Variable F : realFieldType.
Variable sq : F -> F.
Notation E := (ExactE sq).
Variable M : manifold E.
Notation n := (mndx M).
Notation X := (mX M).
Notation node := (node M).
Notation tnode := (tnode M).
Variable x0 : X.
(** ProxQP on min 1/2 x'Px + q'x, Ax = b, l <= Cx <= u: primal x, multipliers y, z *)
Variable qp : forall N Me Mi : nat, 'M[F]_N -> 'cV[F]_N -> 'M[F]_(Me, N) -> 'cV[F]_Me ->
  'M[F]_(Mi, N) -> 'cV[option F]_Mi -> 'cV[option F]_Mi -> option ('cV[F]_N * 'cV[F]_Me * 'cV[F]_Mi).

(** parameters: those of SolverDDP (regularisation, alphas_, thresholds, termination_tol_),
    mu_dynamic_, mu_constraint_, use_filter_line_search_, filter_size_ *)
Record pcfg := mkPcfg { pc_ddp : cfg E; pc_mu : F; pc_mucon : F; pc_filter : bool; pc_fsize : nat }.

Record pqs := mkPqs {
  pq_tr : traj M;
  pq_P : buf F; pq_A : buf F; pq_C : buf F;
  pq_q : vbuf F; pq_b : vbuf F; pq_l : vbuf (option F); pq_u : vbuf (option F);
  pq_cost : F; pq_gap : F; pq_con : F; pq_merit : F;
  pq_costt : F; pq_gapt : F; pq_cont : F; pq_meritt : F;
  pq_KKT : F; pq_preg : F; pq_dreg : F; pq_iter : nat; pq_step : F;
  pq_costl : cbuf F; pq_gapl : cbuf F; pq_conl : cbuf F
}.

(** sizes, csqp_proxqp.cpp:48-62, 90-96 and 104-122 *)
Definition neq (l : seq node) : nat := (List.length l * n)%N.
Definition nvars (l : seq node) : nat := (neq l + sum_nu l)%N.
Fixpoint sum_ng (l : seq node) : nat := match l with [::] => 0 | nd :: l' => (ng (nm nd) + sum_ng l')%N end.
Definition nin (l : seq node) (tn : tnode) : nat := (sum_ng l + tng (tm tn))%N.

(** ** calc, csqp_proxqp.cpp:260-357: the block assignments.  [w] = n_eq, [t] the index of
    the first node of the suffix, [iu] the controls before it (index_u = w + iu), [cnt] =
    nin_count, [T] the horizon. *)

(** P_ (302-305, 320, 341) *)
Fixpoint pw (w t iu : nat) (l : seq node) (tn : tnode) : seq (blk F) :=
  match l with
  | [::] => [:: Blk ((t - 1) * n) ((t - 1) * n) (tLxx (tder tn) : 'M[F]_n)]
  | nd :: l' =>
      let d := der nd in
      let k := nu (nm nd) in
      let ix := ((t - 1) * n)%N in
      (if Nat.eqb t 0 then [::]
       else [:: Blk ix ix (Lxx d : 'M[F]_n); Blk ix (w + iu) (Lxu d : 'M[F]_(n, k));
                Blk (w + iu) ix ((Lxu d : 'M[F]_(n, k))^T)])
      ++ Blk (w + iu) (w + iu) (Luu d : 'M[F]_k) :: pw w (S t) (iu + k) l' tn
  end.
(** q_ (306, 321, 342) *)
Fixpoint qw (w t iu : nat) (l : seq node) (tn : tnode) : seq (sgm F) :=
  match l with
  | [::] => [:: Sgm ((t - 1) * n) n (fun i => (tLx (tder tn) : 'cV[F]_n) i 0)]
  | nd :: l' =>
      let d := der nd in
      let k := nu (nm nd) in
      (if Nat.eqb t 0 then [::] else [:: Sgm ((t - 1) * n) n (fun i => (Lx d : 'cV[F]_n) i 0)])
      ++ Sgm (w + iu) k (fun i => (Lu d : 'cV[F]_k) i 0) :: qw w (S t) (iu + k) l' tn
  end.
(** A_ (308, 323, 325-326) *)
Fixpoint aw (w t iu : nat) (l : seq node) : seq (blk F) :=
  match l with
  | [::] => [::]
  | nd :: l' =>
      let d := der nd in
      let k := nu (nm nd) in
      (if Nat.eqb t 0 then [::] else [:: Blk (t * n) ((t - 1) * n) (- (Fx d : 'M[F]_n))])
      ++ Blk (t * n) (w + iu) (- (Fu d : 'M[F]_(n, k))) :: Blk (t * n) (t * n) (1%:M : 'M[F]_n)
      :: aw w (S t) (iu + k) l'
  end.
(** b_ (327): fs_[t+1] *)
Fixpoint bw (t : nat) (l : seq node) (tn : tnode) : seq (sgm F) :=
  match l with
  | [::] => [::]
  | nd :: l' => Sgm (t * n) n (fun i => (hd_fs l' tn : 'cV[F]_n) i 0) :: bw (S t) l' tn
  end.
(** C_ (310-312, 314-315, 344-345); the columns of Gu start at T * nx + t * nu *)
Fixpoint cw (T t cnt : nat) (l : seq node) (tn : tnode) : seq (blk F) :=
  match l with
  | [::] => if Nat.eqb (tng (tm tn)) 0 then [::]
            else [:: Blk cnt ((t - 1) * n) (tGx (tder tn) : 'M[F]_(tng (tm tn), n))]
  | nd :: l' =>
      let d := der nd in
      let k := nu (nm nd) in
      let m := ng (nm nd) in
      (if Nat.eqb m 0 then [::]
       else (if Nat.eqb t 0 then [::] else [:: Blk cnt ((t - 1) * n) (Gx d : 'M[F]_(m, n))])
            ++ [:: Blk cnt (T * n + t * k) (Gu d : 'M[F]_(m, k))])
      ++ cw T (S t) (cnt + m) l' tn
  end.
(** l_ and u_ (316-317, 346-347): bound - g, infinite bounds stay infinite *)
Definition shift (m : nat) (b : 'cV[option F]_m) (g : 'cV[F]_m) (i : 'I_m) : option F :=
  if b i 0 is Some v then Some (v - g i 0) else None.
Fixpoint lw (upper : bool) (cnt : nat) (l : seq node) (tn : tnode) : seq (sgm (option F)) :=
  match l with
  | [::] =>
      let m := tng (tm tn) in
      if Nat.eqb m 0 then [::]
      else [:: Sgm cnt m (@shift m (if upper then tub (tm tn) else tlb (tm tn)) (tg (tm tn) (tme tn)))]
  | nd :: l' =>
      let m := ng (nm nd) in
      (if Nat.eqb m 0 then [::]
       else [:: Sgm cnt m (@shift m (if upper then aub (nm nd) else alb (nm nd)) (ag (nm nd) (mem nd)))])
      ++ lw upper (cnt + m) l' tn
  end.

(** cost, gaps, constraint violation as in SolverCSQP::calc (csqp_proxqp.cpp:261-299 and
    349-354 are the statements of csqp.cpp:411-452), merit_ (354) *)
Definition pq_calc (c : pcfg) (s : pqs) : pqs :=
  let r := problem_calcDiff (problem_calc (pq_tr s)) in
  let t1 := fst r in
  let v := calc_nodes None (run t1) (trm t1) (0 : F) (0 : F) in
  let tn := snd (fst v) in
  let g := tg (tm tn) (tme tn) in
  let gap : F := fst (snd v) in
  let con1 : F := (snd (snd v) : F) + xl1 (viol_lb E (tlb (tm tn)) g) in
  let con : F := con1 + xl1 (viol_ub E (tub (tm tn)) g) in
  let cost : F := snd r in
  let l := fst (fst v) in
  let w := neq l in
  mkPqs (mkTraj l tn)
    (wrl (pw w 0 0 l tn) (pq_P s)) (wrl (aw w 0 0 l) (pq_A s)) (wrl (cw (List.length l) 0 0 l tn) (pq_C s))
    (wsl (qw w 0 0 l tn) (pq_q s)) (wsl (bw 0 l tn) (pq_b s))
    (wsl (lw false 0 l tn) (pq_l s)) (wsl (lw true 0 l tn) (pq_u s))
    cost gap con (cost + pc_mu c * gap + pc_mucon c * con)
    (pq_costt s) (pq_gapt s) (pq_cont s) (pq_meritt s)
    (pq_KKT s) (pq_preg s) (pq_dreg s) (pq_iter s) (pq_step s) (pq_costl s) (pq_gapl s) (pq_conl s).

(** checkKKTConditions, csqp_proxqp.cpp:421-451; no state equation at t = 0; fs_flat_ holds
    fs_[1..T] *)
Fixpoint pq_residual (first : bool) (acc : F) (l : seq node) (tn : tnode) : F :=
  match l with
  | [::] => std_max (E := E) acc (xlinf ((tLx (tder tn) : 'cV[F]_n) - (tlam tn : 'cV[F]_n)
              + (tGx (tder tn) : 'M[F]_(tng (tm tn), n))^T *m (tay tn : 'cV[F]_(tng (tm tn)))))
  | nd :: l' =>
      let d := der nd in
      let k := nu (nm nd) in
      let m := ng (nm nd) in
      let ln : 'cV[F]_n := hd_lam l' tn in
      let y : 'cV[F]_m := ay (adm nd) in
      let a1 := if first then acc
                else std_max (E := E) acc (xlinf ((Lx d : 'cV[F]_n) + (Fx d : 'M[F]_n)^T *m ln
                       - (lam (dir nd) : 'cV[F]_n) + (Gx d : 'M[F]_(m, n))^T *m y)) in
      let a2 := std_max (E := E) a1 (xlinf ((Lu d : 'cV[F]_k) + (Fu d : 'M[F]_(n, k))^T *m ln
                       + (Gu d : 'M[F]_(m, k))^T *m y)) in
      pq_residual false a2 l' tn
  end.
Definition pq_fs_norm (t : traj M) : F :=
  match run t with
  | [::] => 0
  | _ :: l => List.fold_left (fun a (m : node) => Num.max a (xlinf (fs m : 'cV[F]_n))) l (xlinf (tfs (trm t) : 'cV[F]_n))
  end.
Definition pq_check (con : F) (t : traj M) : F :=
  std_max (E := E) (std_max (E := E) (pq_residual true 0 (run t) (trm t)) (pq_fs_norm t)) con.

(** copying of the QP results, csqp_proxqp.cpp:389-414: dx_[t+1], du_[t], lag_mul_[t+1],
    y_[t]; entry 0 of dx_ and lag_mul_ is not written *)
Fixpoint pq_extract (w t iu cnt : nat) (x y z : vbuf F) (l : seq node) (tn : tnode) : seq node * tnode :=
  match l with
  | [::] =>
      ([::], set_tzy (set_tlam (set_tdx tn (seg n x ((t - 1) * n))) (- seg n y ((t - 1) * n)))
               (taz tn) (tazp tn) (tazr tn) (seg (tng (tm tn)) z cnt))
  | nd :: l' =>
      let k := nu (nm nd) in
      let m := ng (nm nd) in
      let a := adm nd in
      let r := pq_extract w (S t) (iu + k) (cnt + m) x y z l' tn in
      let e := @mkDirs E M k (if Nat.eqb t 0 then dx (dir nd) else seg n x ((t - 1) * n)) (seg k x (w + iu))
                 (if Nat.eqb t 0 then lam (dir nd) else - seg n y ((t - 1) * n)) in
      let nd1 := set_dir nd e in
      (@set_adm E M nd1 (mkAdmm (dxt a) (dut a) (az a) (azp a) (azr a) (seg m z cnt : vec E m) (arho a) (airho a))
       :: fst r, snd r)
  end.

Definition set_p_tr (s : pqs) (t : traj M) : pqs :=
  mkPqs t (pq_P s) (pq_A s) (pq_C s) (pq_q s) (pq_b s) (pq_l s) (pq_u s)
    (pq_cost s) (pq_gap s) (pq_con s) (pq_merit s) (pq_costt s) (pq_gapt s) (pq_cont s) (pq_meritt s)
    (pq_KKT s) (pq_preg s) (pq_dreg s) (pq_iter s) (pq_step s) (pq_costl s) (pq_gapl s) (pq_conl s).
Definition set_p_KKT (s : pqs) (v : F) : pqs :=
  mkPqs (pq_tr s) (pq_P s) (pq_A s) (pq_C s) (pq_q s) (pq_b s) (pq_l s) (pq_u s)
    (pq_cost s) (pq_gap s) (pq_con s) (pq_merit s) (pq_costt s) (pq_gapt s) (pq_cont s) (pq_meritt s)
    v (pq_preg s) (pq_dreg s) (pq_iter s) (pq_step s) (pq_costl s) (pq_gapl s) (pq_conl s).
Definition set_p_reg (s : pqs) (p d : F) : pqs :=
  mkPqs (pq_tr s) (pq_P s) (pq_A s) (pq_C s) (pq_q s) (pq_b s) (pq_l s) (pq_u s)
    (pq_cost s) (pq_gap s) (pq_con s) (pq_merit s) (pq_costt s) (pq_gapt s) (pq_cont s) (pq_meritt s)
    (pq_KKT s) p d (pq_iter s) (pq_step s) (pq_costl s) (pq_gapl s) (pq_conl s).
Definition set_p_iter (s : pqs) (i : nat) : pqs :=
  mkPqs (pq_tr s) (pq_P s) (pq_A s) (pq_C s) (pq_q s) (pq_b s) (pq_l s) (pq_u s)
    (pq_cost s) (pq_gap s) (pq_con s) (pq_merit s) (pq_costt s) (pq_gapt s) (pq_cont s) (pq_meritt s)
    (pq_KKT s) (pq_preg s) (pq_dreg s) i (pq_step s) (pq_costl s) (pq_gapl s) (pq_conl s).
Definition set_p_step (s : pqs) (a : F) : pqs :=
  mkPqs (pq_tr s) (pq_P s) (pq_A s) (pq_C s) (pq_q s) (pq_b s) (pq_l s) (pq_u s)
    (pq_cost s) (pq_gap s) (pq_con s) (pq_merit s) (pq_costt s) (pq_gapt s) (pq_cont s) (pq_meritt s)
    (pq_KKT s) (pq_preg s) (pq_dreg s) (pq_iter s) a (pq_costl s) (pq_gapl s) (pq_conl s).
Definition set_p_lists (s : pqs) (a b d : cbuf F) : pqs :=
  mkPqs (pq_tr s) (pq_P s) (pq_A s) (pq_C s) (pq_q s) (pq_b s) (pq_l s) (pq_u s)
    (pq_cost s) (pq_gap s) (pq_con s) (pq_merit s) (pq_costt s) (pq_gapt s) (pq_cont s) (pq_meritt s)
    (pq_KKT s) (pq_preg s) (pq_dreg s) (pq_iter s) (pq_step s) a b d.
Definition set_p_try (s : pqs) (c g h m : F) : pqs :=
  mkPqs (pq_tr s) (pq_P s) (pq_A s) (pq_C s) (pq_q s) (pq_b s) (pq_l s) (pq_u s)
    (pq_cost s) (pq_gap s) (pq_con s) (pq_merit s) c g h m
    (pq_KKT s) (pq_preg s) (pq_dreg s) (pq_iter s) (pq_step s) (pq_costl s) (pq_gapl s) (pq_conl s).

Inductive pdir := PDok (s : pqs) | PDthrow (s : pqs) | PDub.
(** the data handed to the backend *)
Definition mxof (N K : nat) (B : buf F) : 'M[F]_(N, K) := \matrix_(i, j) B i j.
Definition pq_ask (s : pqs) : option (vbuf F * vbuf F * vbuf F) :=
  let l := run (pq_tr s) in
  let N := nvars l in
  let Me := neq l in
  let Mi := nin l (trm (pq_tr s)) in
  match @qp N Me Mi (mxof N N (pq_P s)) (as_cv N (pq_q s)) (mxof Me N (pq_A s)) (as_cv Me (pq_b s))
          (mxof Mi N (pq_C s)) (\col_i pq_l s i) (\col_i pq_u s i) with
  | Some (x, y, z) => Some (entv x, entv y, entv z)
  | None => None
  end.
(** computeDirection, csqp_proxqp.cpp:359-419: the residual is evaluated before the QP is
    solved.  An empty horizon is undefined ((T - 1) * nx underflows). *)
Definition pq_direction (c : pcfg) (recalc : bool) (s : pqs) : pdir :=
  match run (pq_tr s) with
  | [::] => PDub
  | _ =>
      let s1 := if recalc then pq_calc c s else s in
      let s2 := set_p_KKT s1 (pq_check (pq_con s1) (pq_tr s1)) in
      match pq_ask s2 with
      | None => PDthrow s2
      | Some (x, y, z) =>
          let l := run (pq_tr s2) in
          let r := pq_extract (neq l) 0 0 0 x y z l (trm (pq_tr s2)) in
          PDok (set_p_tr s2 (mkTraj (fst r) (snd r)))
      end
  end.

(** tryStep, csqp_proxqp.cpp:453-540 (the statements of csqp.cpp:1342-1435): it throws (false)
    on an invalid step length (454-457) and when raiseIfNaN(cost_try_) holds after a running
    node (504-507) or at the end (529-532); in exact arithmetic that is cost_try_ >= 1e30 *)
Definition pq_tryStep (c : pcfg) (a : F) (s : pqs) : bool * pqs :=
  if (1 < a) || (a < 0) then (false, s)
  else
    let t := @ctrial E M a (pq_tr s) in
    let r := ceval_nodes (run t) (trm t) (0 : F) (0 : F) (0 : F) in
    let v := snd r in
    if ~~ fst (fst r) then
      (false, set_p_try (set_p_tr s (mkTraj (snd (fst r)) (trm t))) (fst (fst v)) (snd (fst v)) (snd v) 0)
    else
    let tn := set_tme (trm t) (tcalc (tm (trm t)) (txt (trm t))) in
    let cst : F := (fst (fst v) : F) + (tcost (tm tn) (tme tn) : F) in
    let g := tg (tm tn) (tme tn) in
    let con1 : F := (snd v : F) + xl1 (viol_lb E (tlb (tm tn)) g) in
    let con : F := con1 + xl1 (viol_ub E (tub (tm tn)) g) in
    let gap : F := snd (fst v) in
    (~~ raiseIfNaN (E := E) cst,
     set_p_try (set_p_tr s (mkTraj (snd (fst r)) tn)) cst gap con (cst + pc_mu c * gap + pc_mucon c * con)).

(** the filter test and the line search, csqp_proxqp.cpp:203-241; an out-of-range filter
    entry is undefined (None) *)
Definition pq_dominated (s : pqs) (i : nat) : option bool :=
  match cb_get (pq_costl s) i, cb_get (pq_gapl s) i, cb_get (pq_conl s) i with
  | Some ci, Some gi, Some hi => Some ((ci <= pq_costt s) && (gi <= pq_gapt s) && (hi <= pq_cont s))
  | _, _, _ => None
  end.
Definition pq_accept (c : pcfg) (s : pqs) : option bool :=
  if pc_filter c then
    match filter_worse (pq_dominated s) (pc_fsize c) (pq_iter s) with
    | None => None
    | Some b => Some (~~ b)
    end
  else Some (pq_meritt s < pq_merit s).
Fixpoint pq_search (c : pcfg) (al : seq F) (s : pqs) : option pqs :=
  match al with
  | [::] => Some s
  | a :: al' =>
      match pq_tryStep c a (set_p_step s a) with
      | (false, s1) => pq_search c al' s1
      | (true, s1) =>
          match pq_accept c s1 with
          | None => None
          | Some true => Some (set_p_tr s1 (accept_try (pq_tr s1)))
          | Some false => pq_search c al' s1
          end
      end
  end.
Definition pq_push (s : pqs) : pqs :=
  set_p_lists s (cb_push (pq_cost s) (pq_costl s)) (cb_push (pq_gap s) (pq_gapl s)) (cb_push (pq_con s) (pq_conl s)).
Definition pq_inc (c : pcfg) (s : pqs) : pqs :=
  let p := inc_reg (pc_ddp c) (pq_preg s) in set_p_reg s p p.
Definition pq_dec (c : pcfg) (s : pqs) : pqs :=
  let p := dec_reg (pc_ddp c) (pq_preg s) in set_p_reg s p p.
(** the retry loop, csqp_proxqp.cpp:174-188 *)
Inductive pretry := PRok (s : pqs) | PRfalse (s : pqs) | PRub | PRfuel.
Fixpoint pq_retry (c : pcfg) (fuel : nat) (recalc : bool) (s : pqs) : pretry :=
  match fuel with
  | O => PRfuel
  | S f =>
      match pq_direction c recalc s with
      | PDok s1 => PRok s1
      | PDub => PRub
      | PDthrow s1 =>
          let s2 := pq_inc c s1 in
          if (pq_preg s2 == c_rmax (pc_ddp c) :> F) then PRfalse s2 else pq_retry c f false s2
      end
  end.
Inductive pres := PRet (b : bool) (s : pqs) | PThrow | PUB | PFuel.
(** the loop of solve, csqp_proxqp.cpp:170-257, [k] iterations left *)
Fixpoint pq_loop (c : pcfg) (fuel : nat) (k i : nat) (s : pqs) : pres :=
  match k with
  | O => PRet false (set_p_iter s i)
  | S k' =>
      match pq_retry c fuel true (set_p_iter s i) with
      | PRfalse s1 => PRet false s1
      | PRub => PUB
      | PRfuel => PFuel
      | PRok s1 =>
          if pq_KKT s1 <= c_tol (pc_ddp c) then PRet true s1
          else
            match pq_search c (c_alphas (pc_ddp c)) (pq_push s1) with
            | None => PUB
            | Some s2 =>
                let s3 := if (c_stepdec (pc_ddp c) : F) < pq_step s2 then pq_dec c s2 else s2 in
                if pq_step s3 <= (c_stepinc (pc_ddp c) : F) then
                  let s4 := pq_inc c s3 in
                  if (pq_preg s4 == c_rmax (pc_ddp c) :> F) then PRet false s4 else pq_loop c fuel k' (S i) s4
                else pq_loop c fuel k' (S i) s3
            end
      end
  end.
(** SolverPROXQP::solve, csqp_proxqp.cpp:145-258 ([reg] None is NaN) *)
Definition pq_solve (c : pcfg) (fuel : nat) (xs : seq X) (us : seq {k : nat & vec E k}) (maxiter : nat) (reg : option F)
    (s : pqs) : pres :=
  match set_guess xs us (pq_tr s) with
  | None => PThrow
  | Some t =>
      let p : F := init_reg (pc_ddp c) reg in
      pq_loop c fuel maxiter 0 (set_p_reg (set_p_tr s (pin_xt0 x0 (pin_x0 x0 t))) p p)
  end.
End PROXQP.

(** constructor, csqp_proxqp.cpp:25-141: zero buffers *)
Definition new_pqs (F : realFieldType) (sq : F -> F) (M : manifold (ExactE sq)) (x0 : mX M)
    (l : seq (slot M)) (t : tslot M) (fsize : nat) : pqs M :=
  @mkPqs F sq M (new_traj x0 l t) (fun _ _ => 0) (fun _ _ => 0) (fun _ _ => 0)
    (fun _ => 0) (fun _ => 0) (fun _ => Some 0) (fun _ => Some 0)
    0 0 0 0 0 0 0 0 0 0 0 0 1 (mkCbuf fsize (nseq fsize 0)) (mkCbuf fsize (nseq fsize 0)) (mkCbuf fsize (nseq fsize 0)).
