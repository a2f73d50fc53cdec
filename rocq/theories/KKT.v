(** * SolverKKT, src/kkt.cpp (exact arithmetic).

    The dense matrix kkt_ and the vectors kktref_, primaldual_ are buffers addressed by
    the same offsets as in the C++ code.  The LU solver (Eigen::PartialPivLU) is a
    parameter [lu]; the theorems say what they assume of it.  Model evaluation may raise:
    [bad xs us] says that ShootingProblem::calc/calcDiff throws at that trajectory
    (simplification: it throws before changing any data object).  dxs_, dus_, lambdas_ are
    the [dir] fields of the nodes, fs_ (zeroed by SolverAbstract, never assigned by
    kkt.cpp) their [fs] fields.  Callbacks are not modelled. *)
From Coq Require Import ZArith List Arith.
Set Warnings "-notation-overridden,-ambiguous-paths".
From mathcomp Require Import all_ssreflect all_algebra.
From Verif Require Import Eigen EigenExact Problem Init Flat.

Set Implicit Arguments.
Unset Strict Implicit.
Unset Printing Implicit Defensive.

Import Order.TTheory GRing.Theory Num.Theory.
Local Open Scope ring_scope.

Section Ent.
Variable F : realFieldType.
(** coefficient (r, c) of a matrix, coefficient r of a vector *)
Definition ent (m k : nat) (A : 'M[F]_(m, k)) (r c : nat) : F :=
  match insub r, insub c with Some i, Some j => A i j | _, _ => 0 end.
Definition entv (m : nat) (v : 'cV[F]_m) (r : nat) : F :=
  match insub r with Some i => v i 0 | None => 0 end.
(** p.segment(a, m) *)
Definition seg (m : nat) (p : vbuf F) (a : nat) : 'cV[F]_m := \col_(i < m) p (a + i)%N.
(** the buffer as a matrix of the allocated size *)
Definition as_mx (N : nat) (K : buf F) : 'M[F]_N := \matrix_(i, j) K i j.
Definition as_cv (N : nat) (p : vbuf F) : 'cV[F]_N := \col_i p i.
Definition wrm (i j m k : nat) (A : 'M[F]_(m, k)) (K : buf F) : buf F := wrb i j m k (ent A) K.
Definition wrv (i m : nat) (v : 'cV[F]_m) (q : vbuf F) : vbuf F := wrs i m (entv v) q.
End Ent.

Section KKT.
Variable F : realFieldType.
Variable sq : F -> F.
Notation E := (ExactE sq).
Variable M : manifold E.
Notation n := (mndx M).
Notation X := (mX M).
Notation node := (node M).
Notation tnode := (tnode M).
Variable x0 : X.
Variable lu : forall N : nat, 'M[F]_N -> 'cV[F]_N -> 'cV[F]_N.
Variable bad : seq X -> seq {k : nat & vec E k} -> bool.

(** parameters: th_grad_, th_acceptstep_, th_stop_, termination_tol_, alphas_, reg_max_ *)
Record kcfg := mkKcfg {
  kc_grad : F; kc_accept : F; kc_stop : F; kc_tol : F; kc_alphas : seq F; kc_rmax : F
}.

(** members; preg_ is 0 from the constructor on (nothing changes it) *)
Record kkts := mkKkts {
  kk_tr : traj M; kk_K : buf F; kk_ref : vbuf F; kk_pd : vbuf F;
  kk_cost : F; kk_costt : F; kk_feas : bool; kk_wasfeas : bool;
  kk_d0 : F; kk_d1 : F; kk_dV : F; kk_dVexp : F; kk_stop : F; kk_KKT : F;
  kk_iter : nat; kk_step : F; kk_preg : F
}.

(** allocateData, kkt.cpp:313-368: sums of the dimensions *)
Fixpoint sum_nu (l : seq node) : nat := match l with [::] => 0 | nd :: l' => (nu (nm nd) + sum_nu l')%N end.
Definition all_x (l : seq node) : nat := (n * S (List.length l))%N.
Definition all_p (l : seq node) : nat := (all_x l + sum_nu l)%N.
Definition all_pd (l : seq node) : nat := (all_p l + all_x l)%N.

(** the loop of calcDiff, kkt.cpp:244-284, from the node at offsets ix, iu on; wX = ndx_
    and wU = nu_ are the totals, cx0 = ndx *)
Fixpoint kk_fill (wX wU ix iu : nat) (l : seq node) (tn : tnode) (K : buf F) (q : vbuf F) : buf F * vbuf F :=
  match l with
  | [::] => (wrm ix ix (tLxx (tder tn) : 'M[F]_n) K, wrv ix (tLx (tder tn) : 'cV[F]_n) q)
  | nd :: l' =>
      let d := der nd in
      let k := nu (nm nd) in
      let e := (wX + wU + n + ix)%N in
      let K1 := wrm ix ix (Lxx d : 'M[F]_n) K in
      let K2 := wrm ix (wX + iu)%N (Lxu d : 'M[F]_(n, k)) K1 in
      let K3 := wrm (wX + iu)%N ix ((Lxu d : 'M[F]_(n, k))^T) K2 in
      let K4 := wrm (wX + iu)%N (wX + iu)%N (Luu d : 'M[F]_k) K3 in
      let K5 := wrm e ix (- (Fx d : 'M[F]_n)) K4 in
      let K6 := wrm e (wX + iu)%N (- (Fu d : 'M[F]_(n, k))) K5 in
      let q1 := wrv ix (Lx d : 'cV[F]_n) q in
      let q2 := wrv (wX + iu)%N (Lu d : 'cV[F]_k) q1 in
      let q3 := wrv e (diff M (axnext (nm nd) (mem nd)) (hd_x l' tn) : 'cV[F]_n) q2 in
      kk_fill wX wU (ix + n)%N (iu + k)%N l' tn K6 q3
  end.
(** kkt_.block(ndx_ + nu_, 0, ndx_, ndx_).setIdentity(), kkt.cpp:246 *)
Definition kk_ident (w wX : nat) (K : buf F) : buf F :=
  wrb w 0 wX wX (fun r c => if Nat.eqb r c then 1 else 0) K.
(** kkt_.block(0, ndx_ + nu_, ndx_ + nu_, ndx_) = (...).transpose(), kkt.cpp:282-283 *)
Definition kk_mirror (w wX : nat) (K : buf F) : buf F :=
  fun r c => if inr 0 w r && inr w wX c then K c r else K r c.

(** calcDiff, kkt.cpp:235-287 (None: models[0] of an empty horizon is undefined) *)
Definition kk_calcDiff (s : kkts) : option kkts :=
  let t := problem_calc (kk_tr s) in
  let (t1, cost) := problem_calcDiff t in
  match run t1 with
  | [::] => None
  | nd :: _ =>
      let l := run t1 in
      let wX := all_x l in
      let wU := sum_nu l in
      let K0 := kk_ident (all_p l) wX (kk_K s) in
      let q0 := wrv (wX + wU)%N (diff M x0 (px (pt nd)) : 'cV[F]_n) (kk_ref s) in
      let r := kk_fill wX wU 0 0 l (trm t1) K0 q0 in
      Some (mkKkts t1 (kk_mirror (all_p l) wX (fst r)) (snd r) (kk_pd s) cost (kk_costt s) (kk_feas s) (kk_wasfeas s)
              (kk_d0 s) (kk_d1 s) (kk_dV s) (kk_dVexp s) (kk_stop s) (kk_KKT s) (kk_iter s) (kk_step s) (kk_preg s))
  end.

(** computePrimalDual, kkt.cpp:289-293 *)
Definition kk_solve_lu (s : kkts) : vbuf F :=
  let N := all_pd (run (kk_tr s)) in
  entv (lu (as_mx N (kk_K s)) (- as_cv N (kk_ref s))).

(** extraction of dxs_, dus_, lambdas_, kkt.cpp:109-130 *)
Fixpoint kk_extract (wX w ix iu : nat) (p : vbuf F) (l : seq node) (tn : tnode) : seq node * tnode :=
  match l with
  | [::] => ([::], set_tlam (set_tdx tn (seg n p ix)) (seg n p (w + ix)%N))
  | nd :: l' =>
      let k := nu (nm nd) in
      let r := kk_extract wX w (ix + n)%N (iu + k)%N p l' tn in
      (set_dir nd (@mkDirs E M k (seg n p ix) (seg k p (wX + iu)%N) (seg n p (w + ix)%N)) :: fst r, snd r)
  end.

(** checkKKTConditions, kkt.cpp:155-176; the gaps read are fs_ *)
Fixpoint kk_residual (acc : F) (l : seq node) (tn : tnode) : F :=
  match l with
  | [::] => std_max (E := E) acc (xlinf ((tLx (tder tn) : 'cV[F]_n) - (tlam tn : 'cV[F]_n)))
  | nd :: l' =>
      let d := der nd in
      let ln : 'cV[F]_n := hd_lam l' tn in
      let a1 := std_max (E := E) acc (xlinf ((Lx d : 'cV[F]_n) + (Fx d : 'M[F]_n)^T *m ln - (lam (dir nd) : 'cV[F]_n))) in
      let a2 := std_max (E := E) a1 (xlinf ((Lu d : 'cV[F]_(nu (nm nd))) + (Fu d : 'M[F]_(n, nu (nm nd)))^T *m ln)) in
      kk_residual a2 l' tn
  end.
Fixpoint kk_fs_norm (l : seq node) (tn : tnode) : F :=
  match l with
  | [::] => xlinf (tfs tn : 'cV[F]_n)
  | nd :: l' => Num.max (xlinf (fs nd : 'cV[F]_n)) (kk_fs_norm l' tn)
  end.
Definition kk_check (t : traj M) : F :=
  std_max (E := E) (kk_residual 0 (run t) (trm t)) (kk_fs_norm (run t) (trm t)).

Inductive kdir := KDok (s : kkts) | KDthrow (s : kkts) | KDub.
(** computeDirection, kkt.cpp:103-133 *)
Definition kk_direction (recalc : bool) (s : kkts) : kdir :=
  let s1 := if recalc then
              if bad (get_xs (kk_tr s)) (get_us (kk_tr s)) then KDthrow s
              else match kk_calcDiff s with Some s' => KDok s' | None => KDub end
            else KDok s in
  match s1 with
  | KDok s2 =>
      let l := run (kk_tr s2) in
      let p := kk_solve_lu s2 in
      let r := kk_extract (all_x l) (all_p l) 0 0 p l (trm (kk_tr s2)) in
      let t := mkTraj (fst r) (snd r) in
      KDok (mkKkts t (kk_K s2) (kk_ref s2) p (kk_cost s2) (kk_costt s2) (kk_feas s2) (kk_wasfeas s2)
              (kk_d0 s2) (kk_d1 s2) (kk_dV s2) (kk_dVexp s2) (kk_stop s2) (kk_check t) (kk_iter s2) (kk_step s2) (kk_preg s2))
  | r => r
  end.

(** expectedImprovement, kkt.cpp:205-213 *)
Definition kk_expected (s : kkts) : kkts :=
  let w := all_p (run (kk_tr s)) in
  let p : 'cV[F]_w := as_cv w (kk_pd s) in
  let d0 := - xdot (as_cv w (kk_ref s)) p in
  let d1 := - xdot (as_mx w (kk_K s) *m p) p in
  mkKkts (kk_tr s) (kk_K s) (kk_ref s) (kk_pd s) (kk_cost s) (kk_costt s) (kk_feas s) (kk_wasfeas s)
    d0 d1 (kk_dV s) (kk_dVexp s) (kk_stop s) (kk_KKT s) (kk_iter s) (kk_step s) (kk_preg s).

(** tryStep, kkt.cpp:135-153: integrate every node, then ShootingProblem::calc at the
    trial; None: calc raises *)
Definition kk_try_node (a : F) (nd : node) : node :=
  let p := pt nd in
  set_pt nd (mkPoint (px p) (pu p) (integrate M (px p) (a *: (dx (dir nd) : 'cV[F]_n)))
    ((pu p : 'cV[F]_(nu (nm nd))) + a *: (du (dir nd) : 'cV[F]_(nu (nm nd))))).
Definition kk_try_tnode (a : F) (tn : tnode) : tnode :=
  set_txt tn (integrate M (tx tn) (a *: (tdx tn : 'cV[F]_n))).
Definition calc_try_node (nd : node) : node := set_mem nd (acalc (nm nd) (pxt (pt nd)) (put (pt nd))).
Definition calc_try_tnode (tn : tnode) : tnode := set_tme tn (tcalc (tm tn) (txt tn)).
Definition get_xst (t : traj M) : seq X := List.map (fun nd => pxt (pt nd)) (run t) ++ [:: txt (trm t)].
Definition get_ust (t : traj M) : seq {k : nat & vec E k} :=
  List.map (fun nd => existT (vec E) (nu (nm nd)) (put (pt nd))) (run t).
Definition set_k_tr (s : kkts) (t : traj M) : kkts :=
  mkKkts t (kk_K s) (kk_ref s) (kk_pd s) (kk_cost s) (kk_costt s) (kk_feas s) (kk_wasfeas s)
    (kk_d0 s) (kk_d1 s) (kk_dV s) (kk_dVexp s) (kk_stop s) (kk_KKT s) (kk_iter s) (kk_step s) (kk_preg s).
Definition kk_tryStep (a : F) (s : kkts) : bool * kkts :=
  let t := mkTraj (List.map (kk_try_node a) (run (kk_tr s))) (kk_try_tnode a (trm (kk_tr s))) in
  if bad (get_xst t) (get_ust t) then (false, set_k_tr s t)
  else
    let t1 := mkTraj (List.map calc_try_node (run t)) (calc_try_tnode (trm t)) in
    let ct : F := stored_cost t1 in
    (true, mkKkts t1 (kk_K s) (kk_ref s) (kk_pd s) (kk_cost s) ct (kk_feas s) (kk_wasfeas s)
       (kk_d0 s) (kk_d1 s) (kk_cost s - ct) (kk_dVexp s) (kk_stop s) (kk_KKT s) (kk_iter s) (kk_step s) (kk_preg s)).

(** the line search of solve, kkt.cpp:73-88 *)
Definition set_k_step (s : kkts) (a : F) : kkts :=
  mkKkts (kk_tr s) (kk_K s) (kk_ref s) (kk_pd s) (kk_cost s) (kk_costt s) (kk_feas s) (kk_wasfeas s)
    (kk_d0 s) (kk_d1 s) (kk_dV s) (kk_dVexp s) (kk_stop s) (kk_KKT s) (kk_iter s) a (kk_preg s).
Definition set_k_dVexp (s : kkts) (v : F) : kkts :=
  mkKkts (kk_tr s) (kk_K s) (kk_ref s) (kk_pd s) (kk_cost s) (kk_costt s) (kk_feas s) (kk_wasfeas s)
    (kk_d0 s) (kk_d1 s) (kk_dV s) v (kk_stop s) (kk_KKT s) (kk_iter s) (kk_step s) (kk_preg s).
Definition kk_accept (s : kkts) : kkts :=
  mkKkts (accept_try (kk_tr s)) (kk_K s) (kk_ref s) (kk_pd s) (kk_costt s) (kk_costt s) true (kk_feas s)
    (kk_d0 s) (kk_d1 s) (kk_dV s) (kk_dVexp s) (kk_stop s) (kk_KKT s) (kk_iter s) (kk_step s) (kk_preg s).
Fixpoint kk_search (c : kcfg) (al : seq F) (s : kkts) : kkts :=
  match al with
  | [::] => s
  | a :: al' =>
      match kk_tryStep a (set_k_step s a) with
      | (false, s1) => kk_search c al' s1
      | (true, s1) =>
          let e := a * kk_d0 s1 + xlit F 1 2 * a * a * kk_d1 s1 in
          let s2 := set_k_dVexp s1 e in
          if (kk_d0 s2 < kc_grad c) || ~~ kk_feas s2 || (kc_accept c * e < kk_dV s2) then kk_accept s2
          else kk_search c al' s2
      end
  end.

(** stoppingCriteria, kkt.cpp:178-203 *)
Fixpoint kk_dF (wX ix iu : nat) (l : seq node) (tn : tnode) (q : vbuf F) : vbuf F :=
  match l with
  | [::] => wrv ix (tlam tn : 'cV[F]_n) q
  | nd :: l' =>
      let d := der nd in
      let ln : 'cV[F]_n := hd_lam l' tn in
      let q1 := wrv ix ((lam (dir nd) : 'cV[F]_n) - (Fx d : 'M[F]_n)^T *m ln) q in
      let q2 := wrv (wX + iu)%N (- ((Fu d : 'M[F]_(n, nu (nm nd)))^T *m ln)) q1 in
      kk_dF wX (ix + n)%N (iu + nu (nm nd))%N l' tn q2
  end.
Definition sqnorm (m : nat) (v : 'cV[F]_m) : F := xdot v v.
Definition kk_stopping (s : kkts) : kkts :=
  let l := run (kk_tr s) in
  let w := all_p l in
  let dF := kk_dF (all_x l) 0 0 l (trm (kk_tr s)) (fun _ => 0) in
  let st := sqnorm (as_cv w (kk_ref s) + as_cv w dF) + sqnorm (seg (all_x l) (kk_ref s) w) in
  mkKkts (kk_tr s) (kk_K s) (kk_ref s) (kk_pd s) (kk_cost s) (kk_costt s) (kk_feas s) (kk_wasfeas s)
    (kk_d0 s) (kk_d1 s) (kk_dV s) (kk_dVexp s) st (kk_KKT s) (kk_iter s) (kk_step s) (kk_preg s).

(** the retry loop of solve, kkt.cpp:53-65; the pair carries [recalc].  KRfuel: the
    model's fuel, not the code *)
Inductive kretry := KRok (recalc : bool) (s : kkts) | KRfalse (s : kkts) | KRub | KRfuel.
Fixpoint kk_retry (c : kcfg) (fuel : nat) (recalc : bool) (s : kkts) : kretry :=
  match fuel with
  | O => KRfuel
  | S f =>
      match kk_direction recalc s with
      | KDok s1 => KRok recalc s1
      | KDthrow s1 => if kk_preg s1 == kc_rmax c then KRfalse s1 else kk_retry c f false s1
      | KDub => KRub
      end
  end.
Inductive kres := KRet (b : bool) (s : kkts) | KThrow | KUB | KFuel.
Definition set_k_iter (s : kkts) (i : nat) : kkts :=
  mkKkts (kk_tr s) (kk_K s) (kk_ref s) (kk_pd s) (kk_cost s) (kk_costt s) (kk_feas s) (kk_wasfeas s)
    (kk_d0 s) (kk_d1 s) (kk_dV s) (kk_dVexp s) (kk_stop s) (kk_KKT s) i (kk_step s) (kk_preg s).
(** the loop of solve, kkt.cpp:52-101, [k] iterations left *)
Fixpoint kk_loop (c : kcfg) (fuel : nat) (k i : nat) (recalc : bool) (s : kkts) : kres :=
  match k with
  | O => KRet false (set_k_iter s i)
  | S k' =>
      match kk_retry c fuel recalc (set_k_iter s i) with
      | KRok recalc1 s1 =>
          let s2 := kk_expected s1 in
          if kk_KKT s2 <= kc_tol c then KRet true s2
          else
            let s3 := kk_stopping (kk_search c (kc_alphas c) s2) in
            if kk_wasfeas s3 && (kk_stop s3 < kc_stop c) then KRet true s3
            else kk_loop c fuel k' (S i) recalc1 s3
      | KRfalse s1 => KRet false s1
      | KRub => KUB
      | KRfuel => KFuel
      end
  end.
Definition set_k_feas (s : kkts) (b : bool) : kkts :=
  mkKkts (kk_tr s) (kk_K s) (kk_ref s) (kk_pd s) (kk_cost s) (kk_costt s) b (kk_wasfeas s)
    (kk_d0 s) (kk_d1 s) (kk_dV s) (kk_dVexp s) (kk_stop s) (kk_KKT s) (kk_iter s) (kk_step s) (kk_preg s).
(** SolverKKT::solve, kkt.cpp:44-101 *)
Definition kk_solve (c : kcfg) (fuel : nat) (xs : seq X) (us : seq {k : nat & vec E k}) (maxiter : nat) (feas : bool)
    (s : kkts) : kres :=
  match set_guess xs us (kk_tr s) with
  | None => KThrow
  | Some t => kk_loop c fuel maxiter 0 true (set_k_feas (set_k_tr s t) feas)
  end.
End KKT.

(** SolverKKT::SolverKKT, kkt.cpp:19-40 and 313-368: everything zero (KKT_ starts at
    infinity; the exact model stores 0, no theorem reads it before computeDirection) *)
Definition new_kkt (F : realFieldType) (sq : F -> F) (M : manifold (ExactE sq)) (x0 : mX M)
    (l : seq (slot M)) (t : tslot M) : kkts M :=
  @mkKkts F sq M (new_traj x0 l t) (fun _ _ => 0) (fun _ => 0) (fun _ => 0) 0 0 false false 0 0 0 0 0 0 0 1 0.
