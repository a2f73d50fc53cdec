(** * C63: accepted steps and control flow of SolverPROXQP::solve. *)
From Coq Require Import ZArith List Arith Lia.
Set Warnings "-notation-overridden,-ambiguous-paths".
From mathcomp Require Import all_ssreflect all_algebra.
From Verif Require Import Eigen EigenExact Problem DDP Filter FilterProofs SQP CSQP Init TrialSpec TraceSpec Rounds
  SQPSpec CSQPSpec SQPTrial SQPLoop CSQPFrames CSQPTrial CSQPLoop PROXQP PROXSpec PROXSys PROXHist PROXRunSpec SsrLia PROXRun.
From Verif Require History CSQPHist.

Set Implicit Arguments.
Unset Strict Implicit.
Unset Printing Implicit Defensive.

Import Order.TTheory GRing.Theory Num.Theory.
Local Open Scope ring_scope.

Section Loop.
Variable F : realFieldType.
Variable sq : F -> F.
Notation E := (ExactE sq).
Variable M : manifold E.
Variable x0 : mX M.
Variable qp : forall N Me Mi : nat, 'M[F]_N -> 'cV[F]_N -> 'M[F]_(Me, N) -> 'cV[F]_Me ->
  'M[F]_(Mi, N) -> 'cV[option F]_Mi -> 'cV[option F]_Mi -> option ('cV[F]_N * 'cV[F]_Me * 'cV[F]_Mi).
Variable c : pcfg sq.
Notation dc := (pc_ddp c).
Variables (s0 : pqs M) (p0 : F).
Notation pinv := (@pinv F sq M x0 qp c s0 p0).
Hypothesis fs0 : hd_fs (run (pq_tr s0)) (trm (pq_tr s0)) = vzero E.
Hypothesis dx0 : hd_dx (run (pq_tr s0)) (trm (pq_tr s0)) = vzero E.

Lemma pinv_iter rs s i : pinv rs s -> pinv rs (set_p_iter s i).
Proof. by case. Qed.
Lemma searched_reg (s s' : pqs M) : searched c (c_alphas dc) s s' ->
  [/\ pq_preg s' = pq_preg s, pq_dreg s' = pq_dreg s & pq_iter s' = pq_iter s].
Proof.
case=> [pre a post s1 t1 _ _ _ hf -> _ _ _|_ hf _]; first by rewrite /= (pf_preg hf) (pf_dreg hf) (pf_iter hf).
by rewrite (pf_preg hf) (pf_dreg hf) (pf_iter hf).
Qed.
Lemma set_reg_id (s : pqs M) : pq_dreg s = pq_preg s -> set_p_reg s (pq_preg s) (pq_preg s) = s.
Proof. by case: s => *; rewrite /set_p_reg /=; congr mkPqs. Qed.

(** how the loop ends *)
Record pfin (rs : seq (round M)) (b : bool) (s' : pqs M) : Prop := mkPfin {
  n_inv : exists s, pinv rs s /\
    [/\ get_xs (pq_tr s') = get_xs (pq_tr s), get_us (pq_tr s') = get_us (pq_tr s)
      & hd_x (run (pq_tr s')) (trm (pq_tr s')) = hd_x (run (pq_tr s)) (trm (pq_tr s))];
  n_true : b = true -> [/\ pq_KKT s' <= (c_tol dc : F), pq_evaluated c s' & exists s1 : pqs M, pq_direction qp c true s1 = PDok s'];
  n_iter : pq_iter s' = List.length rs \/ (S (pq_iter s') = List.length rs /\ pq_preg s' = c_rmax dc :> F);
  n_reg : pq_dreg s' = pq_preg s' /\ ((pq_preg s', pq_step s') = reg_path c p0 (pq_step s0) rs \/
       [/\ b = false, pq_preg s' = c_rmax dc :> F & pq_ask qp s' = None])
}.
Lemma loop_run fuel k : forall rs s b s', pinv rs s -> (rs = [::] \/ go_ok c (pq_preg s, pq_step s)) ->
  pq_loop qp c fuel k (List.length rs) s = PRet b s' ->
  exists2 rs', pfin (rs ++ rs')%list b s' &
   [/\ (List.length rs' <= k)%coq_nat, b = true -> (List.length rs' < k)%coq_nat
     & b = false -> List.length rs' = k \/ pq_preg s' = c_rmax dc :> F].
Proof.
elim: k => [|k IH] rs s b s' hi hgo.
  case=> <- <-; exists [::]; last by split=> //; left.
  rewrite List.app_nil_r; split=> //.
  - by exists s; split.
  - by left.
  - by split; [exact: i_dreg hi|left; exact: i_reg hi].
cbn [pq_loop]; set sI := set_p_iter s _; have hI : pinv rs sI by exact: pinv_iter.
have eI : pq_iter sI = List.length rs by [].
have := pretryP qp c fuel sI; case: (pq_retry _ _ _ _ _) => // s1; last first.
  move=> [h1 h2 h3 h4 h5] [<- <-]; exists [::]; last by split=> //= *; solve [slia|by left|by right].
  have [ev ep et] := pcalcP c (shape_fs fs0 (i_shape hI)).
  rewrite List.app_nil_r; split=> //.
  - by exists sI; split=> //; rewrite h1 (ep_xs ep) (ep_us ep) (ep_x ep).
  - by left; rewrite h5.
  - by split=> //; right.
move=> hd; have [ev [r1 r2 r3 r4 _] hsh [gx gu hx _]] := body_facts fs0 hI hd.
case: ifP => htol.
  case=> <- <-; exists [::]; last by split=> //= *; solve [slia|by left|by right].
  rewrite List.app_nil_r; split=> //.
  - by exists sI; split.
  - by move=> _; split=> //; exists sI.
  - by left; rewrite r3.
  - by rewrite r1 r2; split; [exact: i_dreg hI|left; rewrite r4; exact: i_reg hI].
have {}htol : (c_tol dc : F) < pq_KKT s1 by rewrite ltNge htol.
have := psearchP c (c_alphas dc) (pq_push s1); case: (pq_search _ _ _) => // s2 hs.
have [q1 q2 q3] := searched_reg hs.
have hd2 : pq_dreg s2 = pq_preg s2 by rewrite q1 q2 /= r1 r2; exact: i_dreg hI.
set s3 := (if _ then _ else s2).
have [e3 st3 dr3 it3] : [/\ s3 = set_p_reg s2 (pq_preg s3) (pq_preg s3), pq_step s3 = pq_step s2, pq_dreg s3 = pq_preg s3 & pq_iter s3 = pq_iter s2].
  by rewrite /s3; case: ifP => _; split=> //; rewrite set_reg_id.
have ep3 : pq_preg s3 = (if (c_stepdec dc : F) < pq_step s2 then dec_reg dc (pq_preg s2) else pq_preg s2) :> F.
  by rewrite /s3; case: ifP.
have body p := @body_inv F sq M x0 qp c s0 p0 fs0 dx0 rs sI s1 hI eI hd htol s2 p hs.
have hgo' : rs = [::] \/ go_ok c (pq_preg sI, pq_step sI) by [].
have it2 : pq_iter s2 = List.length rs by rewrite q3 /= r3.
case: ifP => hinc.
  set s4 := pq_inc c s3.
  have e4 : s4 = set_p_reg s2 (inc_reg dc (pq_preg s3)) (inc_reg dc (pq_preg s3)) by rewrite /s4 /pq_inc e3.
  have ep4 : inc_reg dc (pq_preg s3) = reg_after c (pq_step s2) (pq_preg s2) :> F.
    by rewrite /reg_after -ep3 -st3 hinc.
  have [r hr] := body _ hgo' ep4; rewrite -e4 in hr.
  case: eqP => hm.
    case=> <- <-; exists [:: r]; last by split=> //= *; solve [slia|by left|by right].
    split=> //.
    - by exists s4; split.
    - by right; split=> //; rewrite List.app_length e4 /= it2; slia.
    - by split; [exact: i_dreg hr|left; exact: i_reg hr].
  have hlen : (List.length rs).+1 = List.length (rs ++ [:: r])%list by rewrite List.app_length /=; slia.
  rewrite hlen; case/(IH _ _ _ _ hr) => [|rs' hf [h1 h2 h3]]; first by right.
  exists (r :: rs')%list; first by move: hf; rewrite -List.app_assoc.
  split=> /=; [slia|by move/h2; slia|by move/h3 => [->|]; [left|right]].
have ep4 : pq_preg s3 = reg_after c (pq_step s2) (pq_preg s2) :> F.
  by rewrite /reg_after -ep3 -st3 hinc.
have [r hr] := body _ hgo' ep4; rewrite -e3 in hr.
have hlen : (List.length rs).+1 = List.length (rs ++ [:: r])%list by rewrite List.app_length /=; slia.
rewrite hlen; case/(IH _ _ _ _ hr) => [|rs' hf [h1 h2 h3]].
  by right; rewrite /go_ok /= => h; rewrite h in hinc.
exists (r :: rs')%list; first by move: hf; rewrite -List.app_assoc.
split=> /=; [slia|by move/h2; slia|by move/h3 => [->|]; [left|right]].
Qed.
End Loop.

Section Solve.
Variable F : realFieldType.
Variable sq : F -> F.
Notation E := (ExactE sq).
Variable M : manifold E.
Variable x0 : mX M.
Variable qp : forall N Me Mi : nat, 'M[F]_N -> 'cV[F]_N -> 'M[F]_(Me, N) -> 'cV[F]_Me ->
  'M[F]_(Mi, N) -> 'cV[option F]_Mi -> 'cV[option F]_Mi -> option ('cV[F]_N * 'cV[F]_Me * 'cV[F]_Mi).
Variables (l : seq (slot M)) (t : tslot M).

Lemma hist_fs s : pq_hist x0 qp l t s -> hd_fs (run (pq_tr s)) (trm (pq_tr s)) = vzero E.
Proof.
suff h s' : pq_hist x0 qp l t s' -> forall s, keeps s' s -> hd_fs (run (pq_tr s)) (trm (pq_tr s)) = vzero E by move=> /h; apply; exact: keeps_refl.
elim=> {s s'}.
- move=> fz s [[_ _ _ ->] _]; rewrite /new_pqs /new_traj; cbn [pq_tr run trm]; by case: (l).
- by move=> c s _ ih s' h; apply: ih; apply: keeps_trans h; exact: keeps_calc.
- by move=> c rc s s1 _ ih e s' h; apply: ih; apply: keeps_trans h; have := @keeps_direction F sq M qp c rc s; rewrite e.
- by move=> c rc s s1 _ ih e s' h; apply: ih; apply: keeps_trans h; have := @keeps_direction F sq M qp c rc s; rewrite e.
- by move=> xs us s tr _ ih e s' h; apply: ih; apply: keeps_trans h; apply: keeps_same => //; exact: shape_guess e.
- by move=> c a s _ ih s' h; apply: ih; apply: keeps_trans h; exact: keeps_try.
- by move=> c fuel xs us mi reg s b s1 _ ih e s' h; apply: ih; apply: keeps_trans h; exact: keeps_solve e.
Qed.

(** C63 *)
Theorem C63_proxqp_run s c fuel xs us maxiter reg b s' :
  pq_hist x0 qp l t s -> pq_solve x0 qp c fuel xs us maxiter reg s = PRet b s' ->
  exists rs, pq_run x0 qp l c xs us maxiter reg s rs b s'.
Proof.
move=> hh; rewrite /pq_solve; case eg: (set_guess xs us (pq_tr s)) => [tr|] // hl.
set s0 := set_p_reg _ _ _ in hl.
have [g1 g2 g3 _] := hist_good hh.
have esh : PROXHist.shape (pq_tr s0) = PROXHist.shape (pq_tr s).
  by rewrite /s0; cbn [pq_tr set_p_reg set_p_tr]; rewrite shape_pin; exact: shape_guess eg.
have [en et ed ef] : [/\ [seq nm nd | nd <- run (pq_tr s0)] = [seq sl_m a | a <- l], tm (trm (pq_tr s0)) = ts_m t,
   hd_dx (run (pq_tr s0)) (trm (pq_tr s0)) = vzero E & hd_fs (run (pq_tr s0)) (trm (pq_tr s0)) = vzero E].
  case: esh => -> -> -> ->; rewrite g1 g2 (hist_fs hh); split=> //; exact: g3.
have i0 : pinv x0 qp c s0 (init_reg (pc_ddp c) reg) [::] s0.
  split=> //; try (by move=> [|i]); try (by move=> _ [|i]); try (by move=> [|i] r).
  by move=> _; exact: CSQPHist.pin_hd.
have [rs hf [h1 h2 h3]] := loop_run ef ed i0 (or_introl erefl) hl; rewrite List.app_nil_l in hf.
case: hf => [[sl [hi [gx gu hx]]] hT hI hR].
exists rs; split=> //.
- have [k1 [_ [k2 k3]]] := History.set_guessP eg.
  have lenl : List.length (run (pq_tr s)) = List.length l by have := congr1 size g1; rewrite !size_map.
  have -> : pinned_guess x0 (List.length l) xs = get_xs (pq_tr s0).
    rewrite /s0; cbn [pq_tr set_p_reg set_p_tr]; rewrite History.get_xs_pin k2 lenl.
    by [].
  have -> : control_guess l us = get_us (pq_tr s0).
    rewrite /s0; cbn [pq_tr set_p_reg set_p_tr]; rewrite History.get_us_pin k3 /control_guess.
    case: (us) => //.
    have e (k : seq (node M)) : List.map (fun n0 => existT (vec E) (nu (nm n0)) (vzero E)) k =
      List.map (fun m => existT (vec E) (nu m) (vzero E)) (List.map (@nm E M) k) by rewrite List.map_map.
    by rewrite e -[List.map (@nm E M) _]/([seq nm nd | nd <- run (pq_tr s)]) g1 List.map_map.
  by rewrite gx gu; exact: i_cand hi.
- by move=> hz; rewrite History.hd_x_get hx (i_x hi hz).
- move=> r hr; move/List.Forall_forall: (i_wf hi) => /(_ r hr) [[v1 v2 v3 v4 v5] _].
  by split=> //; exact: ccons_id.
- by move=> r hr; move/List.Forall_forall: (i_wf hi) => /(_ r hr) [_ []].
- move=> r hr; move/List.Forall_forall: (i_wf hi) => /(_ r hr) [_ [_ e]].
  by case: e => e1 _ e2 _; rewrite e2; split; [rewrite -[LHS]/([seq nm nd | nd <- run (r_tr r)]) e1|].
- exact: i_carried hi.
- move=> hb; apply: (i_searched hi) => hfl; case: hb => [hb|]; first by rewrite hfl in hb.
  have hh' m (bb : cbuf F) : buf_of_size m bb -> holds m [::] bb.
    by move=> [e1 e2]; split=> //; split=> // -[|j].
  by move=> [/hh' ? /hh' ? /hh' ?]; split.
- by move=> /hT [? [v1 v2 v3 v4 _] _]; split=> //; exact: ccons_id.
- by move=> /hT [].
- by move=> i r hr hlt; have := i_go hi hr hlt.
Qed.
End Solve.
