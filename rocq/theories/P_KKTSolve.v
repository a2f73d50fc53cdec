(** * C64: accepted steps and control flow of SolverKKT::solve. *)
From Coq Require Import Ring Field ZArith List Arith Lia.
Set Warnings "-notation-overridden,-ambiguous-paths".
From mathcomp Require Import all_ssreflect all_algebra.
From Verif Require Import FieldTac Eigen EigenExact ExactLemmas Problem SsrLia Init Flat Riccati PassExact KKT KKTSpec KKTSys KKTHist KKTRunSpec KKTQuant P_KKT KKTRun.
From Verif Require History.

Set Implicit Arguments.
Unset Strict Implicit.
Unset Printing Implicit Defensive.

Import Order.TTheory GRing.Theory Num.Theory.
Local Open Scope ring_scope.

Section R.
Variable F : realFieldType.
Variable sq : F -> F.
Notation E := (ExactE sq).
Variable M : manifold E.
Notation n := (mndx M).
Add Field FfKS : (F_field_theory F).
Variable x0 : mX M.
Variable lu : forall N : nat, 'M[F]_N -> 'cV[F]_N -> 'cV[F]_N.
Variable bad : seq (mX M) -> seq {k : nat & vec E k} -> bool.
Variables (l : seq (slot M)) (t : tslot M).
Notation hist := (kk_hist x0 lu bad l t).

Lemma half_eq (a b : F) : xlit F 1 2 * a * a * b = a ^+ 2 / 2%:R * b.
Proof. by rewrite xlit12 expr2; congr (_ * b); rewrite -mulrA mulrC. Qed.

(** what one evaluation of the direction leaves *)
Lemma direction_facts s s1 : hist s -> kk_direction x0 lu bad true s = KDok s1 ->
  [/\ get_xs (kk_tr s1) = get_xs (kk_tr s), get_us (kk_tr s1) = get_us (kk_tr s), current_derivatives (kk_tr s1),
      kk_cost s1 = own_cost (kk_tr s1)
    & [/\ kk_feas s1 = kk_feas s, kk_wasfeas s1 = kk_wasfeas s & kk_iter s1 = kk_iter s]].
Proof.
move=> hh hd; have [hc [hx hu _ _]] := C42_system hh hd.
have [s2 ec [_ _ eo _ _]] := directionP hd.
have [ec1 ef1 ew1 ei1] : [/\ kk_cost s2 = stored_cost (problem_calc (kk_tr s)), kk_feas s2 = kk_feas s, kk_wasfeas s2 = kk_wasfeas s & kk_iter s2 = kk_iter s].
  move: ec; rewrite /kk_calcDiff /problem_calcDiff; case: (run (mkTraj _ _)) => // nd k [<-].
  by [].
have [etr _ _ _ _] := calcDiffP ec.
move: hd; rewrite /kk_direction; case: (bad _ _) => //; rewrite ec => -[e1].
split=> //; last by rewrite -e1.
have -> : kk_cost s1 = kk_cost s2 by rewrite -e1.
rewrite ec1 stored_sum /own_cost; move: eo; rewrite etr => -[h [d [l' ->]]].
congr (_ + _); move: h; cbn [run problem_calcDiff problem_calc fst]; rewrite List.map_map => h.
have {}h : List.Forall2 (fun a b : node M => exists dd, b = set_dir (node_calcDiff (node_calc a)) dd) (run (kk_tr s)) (run (kk_tr s1)).
  by elim: (run (kk_tr s)) (run (kk_tr s1)) h => [|y z ih] k' h; inversion h; subst; constructor=> //; exact: ih.
elim: h => [|y z k k' [dd ->] _ ih] /=; first by rewrite !big_nil.
by rewrite !big_cons ih.
Qed.

(** the search rule of the specification is that of the code *)
Lemma passP c r a (hh : exists s s1, [/\ hist s, kk_direction x0 lu bad true s = KDok s1 & q_tr r = kk_tr s1]) :
  pass bad c (q_tr r) (own_cost (q_tr r)) (- slope (run (q_tr r)) (trm (q_tr r))) (- curvature (run (q_tr r)) (trm (q_tr r))) (q_feas r) a <->
  passes bad c r a.
Proof.
rewrite /pass /passes half_eq; split.
- move=> /andP [/negbTE h1 h2]; split=> //; case/or3P: h2 => h; [exact: Or31|by apply: Or32; exact: negbTE|exact: Or33].
- move=> [-> h] /=; apply/or3P; case: h => h; [exact: Or31|by apply: Or32; rewrite h|exact: Or33].
Qed.

(** the run from iteration [i] on *)
Record krec (c : kcfg F) (i k : nat) (s : kkts M) (rs : seq (kround M)) (b : bool) (s' : kkts M) : Prop := mkKrec {
  kr_path : kpath (get_xs (kk_tr s)) (get_us (kk_tr s)) (kk_feas s) rs (get_xs (kk_tr s')) (get_us (kk_tr s')) (kk_feas s');
  kr_direction : forall r, List.In r rs -> exists s1 s2 : kkts M, hist s1 /\
      [/\ kk_direction x0 lu bad true s1 = KDok s2, q_tr r = kk_tr s2, q_kkt r = kk_KKT s2,
          current_derivatives (q_tr r) & kc_tol c < q_kkt r];
  kr_searched : forall r, List.In r rs -> searched bad c r;
  kr_budget : (List.length rs <= k)%coq_nat;
  kr_go : forall j r, List.nth_error rs j = Some r -> (S j < List.length rs)%coq_nat ->
      ~ stops x0 c (kk_wasfeas s) (List.firstn (S j) rs) r;
  kr_wasfeas : kk_wasfeas s' = was_feasible (kk_wasfeas s) rs;
  kr_true : b = true ->
      ((List.length rs < k)%coq_nat /\ kk_iter s' = (i + List.length rs)%N /\ kk_KKT s' <= kc_tol c /\
       exists s1 s2 : kkts M, hist s1 /\ [/\ kk_direction x0 lu bad true s1 = KDok s2, kk_tr s' = kk_tr s2, kk_KKT s' = kk_KKT s2
         & current_derivatives (kk_tr s')]) \/
      (exists rs1 r, [/\ rs = rs1 ++ [:: r], stops x0 c (kk_wasfeas s) rs r, kk_iter s' = (i + List.length rs1)%N,
         kk_stop s' = stop_value x0 (q_tr r) & kc_tol c < kk_KKT s']);
  kr_false : b = false -> [/\ List.length rs = k, kk_iter s' = (i + k)%N
     & forall rs1 r, rs = rs1 ++ [:: r] -> ~ stops x0 c (kk_wasfeas s) rs r]
}.

(** one round *)
Lemma round_facts c s s1 : hist s -> bad (get_xs (kk_tr s)) (get_us (kk_tr s)) = false ->
  kk_direction x0 lu bad true s = KDok s1 -> kc_tol c < kk_KKT s1 ->
  let s3 := kk_stopping (kk_search bad c (kc_alphas c) (kk_expected s1)) in
  exists acc, let r := mkKround (kk_tr s1) (kk_KKT s1) (kk_feas s1) acc in
  [/\ searched bad c r,
      match acc with
      | Some a => [/\ get_xs (kk_tr s3) = step_xs a (kk_tr s1), get_us (kk_tr s3) = step_us a (kk_tr s1), kk_feas s3 = true & kk_wasfeas s3 = kk_feas s]
      | None => [/\ get_xs (kk_tr s3) = get_xs (kk_tr s), get_us (kk_tr s3) = get_us (kk_tr s), kk_feas s3 = kk_feas s & kk_wasfeas s3 = kk_wasfeas s]
      end,
      kk_stop s3 = stop_value x0 (kk_tr s1),
      kk_KKT s3 = kk_KKT s1 /\ kk_iter s3 = kk_iter s
    & hist s3 /\ bad (get_xs (kk_tr s3)) (get_us (kk_tr s3)) = false].
Proof.
move=> hh hb hd htol s3.
have [fx fu hcd fc [ff fw fi]] := direction_facts hh hd.
have [q1 q2 q3 q4] := direction_quant hh hd.
set s2 := kk_expected s1 in s3 *.
have ed0 : kk_d0 s2 = - slope (run (kk_tr s1)) (trm (kk_tr s1)) by rewrite -q1.
have ed1 : kk_d1 s2 = - curvature (run (kk_tr s1)) (trm (kk_tr s1)) by rewrite -q2.
have h3 : hist s3 by apply: KH_stopping; apply: KH_search; apply: KH_expected; exact: KH_dir hd.
have := searchP bad c (kc_alphas c) s2; set s2' := kk_search _ _ _ _ in s3 h3 * => -[[g1 g2 g3 g4] hs].
have estop : kk_stop s3 = stop_value x0 (kk_tr s1).
  have [d1 d2 d3] := der_same g4; rewrite /s3; cbn [kk_stop kk_stopping].
  rewrite /all_p d1 d2 d3 g1; rewrite -[kk_tr s2]/(kk_tr s1) -[kk_ref s2]/(kk_ref s1).
  by rewrite /stop_value -q3 -q4.
have hP acc a : pass bad c (kk_tr s2) (kk_cost s2) (kk_d0 s2) (kk_d1 s2) (kk_feas s2) a <-> passes bad c (mkKround (kk_tr s1) (kk_KKT s1) (kk_feas s1) acc) a.
  rewrite ed0 ed1 -[kk_tr s2]/(kk_tr s1) -[kk_cost s2]/(kk_cost s1) -[kk_feas s2]/(kk_feas s1) fc.
  by apply: (@passP c (mkKround (kk_tr s1) (kk_KKT s1) (kk_feas s1) acc)); exists s, s1.
case: hs => [[pre [a [post [e1 e2 e3 [e4 e4'] [e5 e6]]]]]|[e1 [e2 e3] e4]].
- exists (Some a); split=> //.
  + exists pre, post; split=> //; first by apply/(hP (Some a)).
    by move=> a' ha' /(hP (Some a)) hp; have := e3 a' ha'; rewrite hp.
  + by split=> //; rewrite -ff.
  + by split; [exact: g2|rewrite -fi; exact: g3].
  + split=> //; rewrite -[kk_tr s3]/(kk_tr s2') e5 e6.
    by move/(hP (Some a)): e2 => [].
- have [t1 t2 t3 t4 t5] := step_try 0 e4.
  have eX : get_xs (kk_tr s3) = get_xs (kk_tr s) /\ get_us (kk_tr s3) = get_us (kk_tr s).
    by rewrite -[kk_tr s3]/(kk_tr s2') t4 t5 -[kk_tr s2]/(kk_tr s1) fx fu.
  exists None; split=> //.
  + by move=> a ha /(hP None) hp; have := e1 a ha; rewrite hp.
  + by case: eX => -> ->; split=> //; [rewrite -ff|rewrite -fw].
  + by split; [exact: g2|rewrite -fi; exact: g3].
  + by case: eX => -> ->.
Qed.

Lemma loop_run c fuel k : forall i s b s', hist s -> bad (get_xs (kk_tr s)) (get_us (kk_tr s)) = false ->
  kk_loop x0 lu bad c fuel k i true s = KRet b s' -> exists rs, krec c i k s rs b s'.
Proof.
elim: k => [|k IH] i s b s' hh hb.
  case=> <- <-; exists [::]; split=> //; [by move=> [|j]|by move=> _; split; [|rewrite addn0|move=> [|r0 rs1] r]].
cbn [kk_loop]; set sI := set_k_iter s i; have hI : hist sI by exact: KH_iter.
have hbI : bad (get_xs (kk_tr sI)) (get_us (kk_tr sI)) = false by [].
case: fuel IH => [//|f] IH; cbn [kk_retry].
case hd: (kk_direction x0 lu bad true sI) => [s1|s1|] //; last by have [_ [_]] := direction_raise hd; rewrite hbI.
have [fx fu hcd fc [ff fw fi]] := direction_facts hI hd.
case: ifP => htol.
  case=> <- <-; exists [::]; split=> //.
  - exact: Nat.le_0_l.
  - by move=> j r; case: j.
  move=> _; left; split; first exact: Nat.lt_0_succ.
  split; first by rewrite addn0 -[kk_iter (kk_expected s1)]/(kk_iter s1) fi.
  by split=> //; exists sI, s1.
have {}htol : kc_tol c < kk_KKT s1 by rewrite ltNge; apply: negbT; exact: htol.
have := round_facts hI hbI hd htol; cbv zeta; set s3 := kk_stopping _ => -[acc [hs hm est [ekk eit] [h3 hb3]]].
set r := mkKround _ _ _ _ in hs.
have ew : kk_wasfeas s3 = was_feasible (kk_wasfeas s) [:: r] by rewrite /was_feasible /r /= ff; case: (acc) hm => [a|] [_ _ _ ->].
have hstop : (kk_wasfeas s3 && (kk_stop s3 < kc_stop c)) <-> stops x0 c (kk_wasfeas s) [:: r] r.
  by rewrite /stops -ew -est; split; [move/andP|move=> [-> ->]].
have path rs' xs' us' feas' : kpath (get_xs (kk_tr s3)) (get_us (kk_tr s3)) (kk_feas s3) rs' xs' us' feas' ->
   kpath (get_xs (kk_tr s)) (get_us (kk_tr s)) (kk_feas s) (r :: rs') xs' us' feas'.
  move=> hp; split=> //.
  by rewrite /r /=; case: (acc) hm hp => [a|] [-> -> -> _].
have dir0 : exists sa sb : kkts M, hist sa /\ [/\ kk_direction x0 lu bad true sa = KDok sb, q_tr r = kk_tr sb, q_kkt r = kk_KKT sb,
          current_derivatives (q_tr r) & kc_tol c < q_kkt r] by exists sI, s1.
case: ifP => hst.
  case=> <- <-; exists [:: r]; split=> //.
  - exact: path.
  - by move=> q [<-|].
  - by move=> q [<-|].
  - exact: le_n_S (Nat.le_0_l k).
  - move=> [|j] q hq hlt; first by case: (Nat.lt_irrefl _ hlt).
    by case: (Nat.nlt_0_r _ (le_S_n _ _ hlt)).
  - move=> _; right; exists [::], r; split=> //; first exact/hstop.
    by rewrite addn0 eit.
  by rewrite ekk.
move/IH => /(_ h3 hb3) [rs [k1 k2 k3 k4 k5 k6 k7 k8]].
have wf q : was_feasible (kk_wasfeas s) (r :: q) = was_feasible (kk_wasfeas s3) q by rewrite ew.
have wfs q z : stops x0 c (kk_wasfeas s) (r :: q) z <-> stops x0 c (kk_wasfeas s3) q z by rewrite /stops wf.
exists (r :: rs); split.
- exact: path.
- by move=> q [<-|/k2].
- by move=> q [<-|/k3].
- exact: le_n_S k4.
- move=> [|j] q.
    by case=> <- _ /hstop; rewrite hst.
  rewrite [List.nth_error _ _]/= => hq hlt; rewrite -[List.firstn _ _]/(r :: List.firstn (S j) rs) wfs; apply: k5 => //.
  exact: le_S_n hlt.
- by rewrite wf.
- move=> /k7 [[h1 [h2 [h4 h5]]]|[rs1 [q [h1 h2 h4 h5 h6]]]]; [left|right].
    split; first exact: le_n_S h1.
    by split=> //; rewrite h2 addSnnS.
  exists (r :: rs1), q; split=> //; [by rewrite h1|by apply/wfs|by rewrite h4 addSnnS].
- move=> /k8 [h1 h2 h4]; split; [by rewrite /= h1|by rewrite h2 addSnnS|].
  move=> [|r' rs1] q; first by case=> <- -> /hstop; rewrite hst.
  by case=> _ e /wfs; exact: h4 e.
Qed.

(** C64.  The guess: zeros where a list is empty. *)
Definition start_xs (xs : seq (mX M)) : seq (mX M) := if xs is [::] then List.repeat (xzero M) (S (List.length l)) else xs.
Definition start_us (us : seq {k : nat & vec E k}) : seq {k : nat & vec E k} :=
  if us is [::] then [seq existT (vec E) (nu (sl_m a)) (vzero E) | a <- l] else us.
Theorem C64_kkt_run s c fuel xs us maxiter feas b s' :
  hist s -> bad (start_xs xs) (start_us us) = false ->
  kk_solve x0 lu bad c fuel xs us maxiter feas s = KRet b s' ->
  exists rs, kk_run x0 lu bad l t c (start_xs xs) (start_us us) maxiter feas s rs b s'.
Proof.
move=> hh hb; rewrite /kk_solve; case hg: (set_guess xs us (kk_tr s)) => [tr|] //.
have [ex eu] : get_xs tr = start_xs xs /\ get_us tr = start_us us.
  have [_ [_ [-> ->]]] := History.set_guessP hg.
  rewrite /start_xs /start_us -[List.length (run (kk_tr s))]/(size (run (kk_tr s))) (hist_run hh); split=> //.
  case: (us) => //; have [hs _ _] := hist_inv hh.
  have e := congr1 (fun z => [seq existT (vec E) (nu (fst a)) (vzero E) | a <- fst z]) hs.
  rewrite /shape /slots in e; cbn [fst] in e; rewrite -!map_comp in e; exact: e.
rewrite -ex -eu in hb *; move=> /loop_run.
have h1 : hist (set_k_feas (set_k_tr s tr) feas) by apply: (KH_candidate _ hh); exact: hg.
by move=> /(_ h1 hb) [rs [k1 k2 k3 k4 k5 k6 k7 k8]]; exists rs; split.
Qed.
End R.
