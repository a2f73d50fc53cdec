(** * Parallel execution of SolverCSQP's loops: C25, C38.

    OMP.v: executions of a parallel loop (any number of threads, assignment of
    iterations, interleaving of statements, order of combination).
    ParLoops.v: the loops of csqp.cpp in that form; [cm_backward_par],
    [cfm_backward_par], [lag_par] and [tryStep_par] relate a state to every
    outcome some execution can have. *)
From Coq Require Import Ring Field ZArith PeanoNat.
Set Warnings "-notation-overridden,-ambiguous-paths".
From mathcomp Require Import all_ssreflect all_algebra.
From Coq Require Import List Permutation.
From Verif Require Import FieldTac Eigen EigenExact EigenFloat ExactLemmas Problem DDP Filter SQP CSQP
  FastPass ADMMExact OMP ParLoops.

Set Implicit Arguments.
Unset Strict Implicit.
Unset Printing Implicit Defensive.

Import Order.TTheory GRing.Theory Num.Theory.
Local Open Scope ring_scope.

Section AnyE.
Variable E : Eig.
Variable M : manifold E.
Variable c : ccfg E.
(** C25, fast pass: whatever the schedule, the multithreaded fast pass returns
    exactly what the sequential one returns, in every arithmetic (bit for bit). *)
Theorem C25_fast_pass_any_schedule (s r : traj M) : cfm_backward_par c s r <-> r = cf_backward c s.
Proof. by rewrite cfm_par_iff cfm_cf. Qed.
(** C25, full pass: the result does not depend on the schedule, in any arithmetic. *)
Theorem C25_full_pass_deterministic preg dreg (s : traj M) r r' :
  cm_backward_par c preg dreg s r -> cm_backward_par c preg dreg s r' -> r = r'.
Proof. by rewrite !cm_par_iff => -> ->. Qed.
End AnyE.

Section Exact.
Variable F : realFieldType.
Variable sq : F -> F.
Notation E := (ExactE sq).
Variable M : manifold E.
Variable c : ccfg E.
Add Field FfP : (F_field_theory F).

(** C25, full pass, exact arithmetic: every execution raises exactly when the
    sequential pass does, and otherwise leaves the same state. *)
Theorem C25_full_pass_any_schedule preg dreg (s : traj M) r : cm_backward_par c preg dreg s r ->
  fst r = fst (cb_backward c preg dreg s) /\
  (fst (cb_backward c preg dreg s) = true -> r = cb_backward c preg dreg s).
Proof. move/cm_par_iff => ->; exact: cm_cb. Qed.

(** ** update_lagrangian_parameters *)
Definition exok (x : extF F) : bool := match x with ENaN => false | _ => true end.
Notation emx := (@estd_max E).
Lemma emx_ok (x y : extF F) : exok x -> exok y -> exok (emx x y).
Proof. by rewrite /estd_max; case: (elt E x y). Qed.
Lemma emxC (x y : extF F) : exok x -> exok y -> emx x y = emx y x.
Proof.
rewrite /estd_max; case: x => [a| | |] //; case: y => [b| | |] //= _ _.
by case: (ltgtP a b) => // ->.
Qed.
Lemma emxA (x y z : extF F) : exok x -> exok y -> exok z -> emx x (emx y z) = emx (emx x y) z.
Proof.
rewrite /estd_max; case: x => [a| | |] //; case: y => [b| | |] //; case: z => [d| | |] //= _ _ _; rewrite ?ltxx //.
- case: (ltP b d) => hbd; case: (ltP a b) => hab /=; rewrite ?hbd ?hab //.
  + by rewrite (lt_trans hab hbd).
  + by rewrite ltNge hbd.
  + by rewrite ltNge (le_trans hbd hab).
all: by case: (ltP _ _).
Qed.
Lemma emx0 (x : extF F) : exok x -> emx (eninf E) x = x.
Proof. by rewrite /estd_max; case: x. Qed.
Definition nok (w : norms E) : Prop := [/\ exok (n_p w), exok (n_d w), exok (n_pr w) & exok (n_dr w)].
Lemma nmax_ok v w : nok v -> nok w -> nok (norms_max v w).
Proof. by move=> [? ? ? ?] [? ? ? ?]; split; apply: emx_ok. Qed.
Lemma nmaxA u v w : nok u -> nok v -> nok w -> norms_max u (norms_max v w) = norms_max (norms_max u v) w.
Proof. by move=> [? ? ? ?] [? ? ? ?] [? ? ? ?]; rewrite /norms_max /= !emxA. Qed.
Lemma nmaxC v w : nok v -> nok w -> norms_max v w = norms_max w v.
Proof. by move=> [a1 a2 a3 a4] [b1 b2 b3 b4]; rewrite /norms_max (emxC a1 b1) (emxC a2 b2) (emxC a3 b3) (emxC a4 b4). Qed.
Lemma nmax0 w : nok w -> norms_max (norms_init E) w = w.
Proof. by case: w => [? ? ? ?] [/= ? ? ? ?]; rewrite /norms_max /= !emx0. Qed.
Lemma init_nok : nok (norms_init E). Proof. by []. Qed.
Lemma emax1 (x : extF F) (a : F) : exok x -> emax E x a = emx x (emax E (eninf E) a).
Proof. by case: x. Qed.
Lemma emax2 (x : extF F) (a b : F) : exok x -> emax E (emax E x a) b = emx x (emax E (emax E (eninf E) a) b).
Proof. by move=> h; rewrite /emax -(@emxA x) ?emx0. Qed.
Lemma emax_ok (x : extF F) (a : F) : exok x -> exok (emax E x a).
Proof. by move=> h; apply: emx_ok. Qed.
Lemma norms_node_add heur w (n : node M) : nok w ->
  norms_node heur w n = norms_max w (norms_node heur (norms_init E) n) /\ nok (norms_node heur (norms_init E) n).
Proof.
move=> hw; have [h1 h2 h3 h4] := hw; rewrite /norms_node.
case: (Nat.eqb _ _); first by rewrite nmaxC // nmax0.
rewrite /norms_init; cbv zeta; cbn [n_p n_d n_pr n_dr].
case: heur; split; rewrite /norms_max /nok; cbn [n_p n_d n_pr n_dr].
- by apply: f_equal4; [exact: emax1|exact: emax1|exact: emax2|exact: emax1].
- by split; do ?apply: emax_ok.
- by apply: f_equal4; [exact: emax1|exact: emax2|exact: emax2|exact: emax2].
- by split; do ?apply: emax_ok.
Qed.
(** The norms computed by any execution of the parallel loop of
    update_lagrangian_parameters are those of the sequential loop, and so are the
    updated nodes. *)
Theorem C25_dual_update_any_schedule b (l l' : list (node M)) w : lag_par c b l l' w ->
  l' = List.map (admm_node c) l /\
  w = if b then fold_left (norms_node (cc_heur c)) l' (norms_init E) else norms_init E.
Proof.
move=> h; have el := lag_par_nodes h; split=> //.
move: h => [m [chunks [m' [ths [h1 h2 h3 h4 [_ h5]]]]]].
pose g (t : nat) (s : pslot M) := if b then norms_node (cc_heur c) (norms_init E) (admm_node c (sn s)) else norms_init E.
have Pg t s : nok (g t s) by rewrite /g; case: (b) => //; apply: (norms_node_add _ _ init_nok).2.
have adds t s a a' : nok a -> iter (lag_body M c b t) s a = Some a' -> a' = norms_max a (g t s).
  move=> ha; rewrite lag_iter /g => - [<-]; case: (b); last by rewrite nmaxC // nmax0.
  by case: (norms_node_add (cc_heur c) (admm_node c (sn s)) ha).
rewrite (omp_reduce h2 nmax_ok nmaxA nmaxC init_nok nmax0 Pg adds h3 h4 h5) el -h1 /contribs_from.
have gen i a : nok a -> fold_left (@norms_max E) (List.map (fun p => g p.1 p.2) (List.combine (List.seq i (length m)) m)) a
  = if b then fold_left (norms_node (cc_heur c)) (List.map (admm_node c) (List.map (@sn E M) m)) a else a.
  elim: m i a {h1 h2 h3 h5} => [|s m IH] i a ha /=; first by case: (b).
  rewrite IH; last by apply: nmax_ok.
  rewrite /g; case: (b); last by rewrite nmaxC // nmax0.
  by have [<- _] := norms_node_add (cc_heur c) (admm_node c (sn s)) ha.
by rewrite gen.
Qed.

(** ** tryStep *)
Implicit Types (n : node M) (l : list (node M)).
Definition trial_cost n : F := acost (nm n) (acalc (nm n) (pxt (pt n)) (put (pt n))).
Definition trial_gap (xt : nat -> mX M) t n : F :=
  vl1 E (diff M (xt t.+1) (axnext (nm n) (acalc (nm n) (pxt (pt n)) (put (pt n))))).
Definition trial_con n : F :=
  let g := ag (nm n) (acalc (nm n) (pxt (pt n)) (put (pt n))) in
  (vl1 E (viol_lb E (alb (nm n)) g) : F) + vl1 E (viol_ub E (aub (nm n)) g).
Definition part xt t n : sums E := (trial_cost n, trial_gap xt t n, trial_con n).
Lemma addA (u v w : sums E) : sums_add u (sums_add v w) = sums_add (sums_add u v) w.
Proof. by case: u v w => [[? ?] ?] [[? ?] ?] [[? ?] ?]; rewrite /sums_add /= -!/(GRing.add _ _) !addrA. Qed.
Lemma addC (u v : sums E) : sums_add u v = sums_add v u.
Proof. by case: u v => [[? ?] ?] [[? ?] ?]; rewrite /sums_add /=; congr (_, _, _); apply: addrC. Qed.
Lemma add0 (u : sums E) : sums_add (sums0 E) u = u.
Proof. by case: u => [[? ?] ?]; rewrite /sums_add /=; congr (_, _, _); apply: add0r. Qed.
Lemma try_iter xt t n (v : sums E) : iter (try_body xt t) n v =
  (if raiseIfNaN (radd E (fst (fst v)) (trial_cost n)) then None else Some (sums_add v (part xt t n))).
Proof.
case: v => [[u1 u2] u3]; rewrite /= /trial_cost; case: (raiseIfNaN _) => //.
by rewrite /part /sums_add /trial_con /=; congr (Some (_, _, _)); apply: (esym (addrA _ _ _)).
Qed.
Lemma seq_sums xt tn l i (u1 u2 u3 : F) :
  (forall j, (j <= length l)%N -> xt (i + j)%N = nth j (List.map (fun n => pxt (pt n)) l ++ [:: txt tn]) (txt tn)) ->
  let r := ceval_nodes l tn u1 u2 u3 in
  fst (fst r) = true -> snd (fst r) = List.map (fun n => ceval_node n) l /\
    snd r = fold_left (@sums_add E) (List.map (fun p => part xt p.1 p.2) (List.combine (List.seq i (length l)) l)) (u1, u2, u3).
Proof.
elim: l i u1 u2 u3 => [|n l IH] i u1 u2 u3 hx //=.
case e: (raiseIfNaN _) => //= h.
have hx' j : (j <= length l)%N -> xt (i.+1 + j)%N = nth j (List.map (fun n => pxt (pt n)) l ++ [:: txt tn]) (txt tn).
  by move=> hj; rewrite addSnnS hx.
have [h1 h2] := IH i.+1 _ _ _ hx' h; split; first by rewrite h1.
rewrite h2; congr (fold_left _ _ _); rewrite /sums_add /part /trial_con /trial_gap /=.
have -> : xt i.+1 = hd_xt l tn by have := hx' 0%N (leq0n _); rewrite addn0 => ->; case: (l).
by congr (_, _, _); apply: (esym (addrA _ _ _)).
Qed.
Lemma fold_parts xt l i (u : sums E) :
  fold_left (@sums_add E) (List.map (fun p => part xt p.1 p.2) (List.combine (List.seq i (length l)) l)) u
  = (fst (fst u) + \sum_(n <- l) trial_cost n, snd (fst u) + \sum_(p <- zip (iota i (size l)) l) trial_gap xt p.1 p.2,
     snd u + \sum_(n <- l) trial_con n).
Proof.
elim: l i u => [|n k IH] i [[u1 u2] u3] /=; first by rewrite !big_nil !addr0.
by rewrite IH !big_cons /=; congr (_, _, _); apply: (esym (addrA _ _ _)).
Qed.
(** All the ways in which the parallel loop can complete give the same trial
    values: the sums over the horizon. *)
Theorem C38_exact_trial_values xt chunks l l' (v : sums E) : try_region xt chunks l (Some (l', v)) ->
  l' = List.map (fun n => ceval_node n) l /\
  v = (\sum_(n <- l) trial_cost n, \sum_(p <- zip (iota 0 (size l)) l) trial_gap xt p.1 p.2, \sum_(n <- l) trial_con n).
Proof.
move=> [hp [ths [h1 h2 h3]]]; split.
  have [-> _] := omp_run hp h1 h2.
  have gen i : slots_from (try_body xt) i l = List.map (fun n => ceval_node n) l.
    by elim: (l) i => [|n k IH] i //=; rewrite IH.
  exact: gen.
have adds t n (a a' : sums E) : True -> iter (try_body xt t) n a = Some a' -> a' = sums_add a (part xt t n).
  by move=> _; rewrite try_iter; case: (raiseIfNaN _) => // - [<-].
rewrite (@omp_reduce _ _ _ _ _ _ hp (@sums_add E) (fun _ => True) (part xt) (fun _ _ _ _ => I)
  (fun a b d _ _ _ => addA a b d) (fun a b _ _ => addC a b) I (fun a _ => add0 a) (fun _ _ => I) adds _ _ _ h1 h2 h3).
rewrite /contribs_from.
by rewrite fold_parts; congr (_, _, _); apply: add0r.
Qed.

Definition big : F := xlit F (10 ^ 30) 1.
Lemma raiseE (x : F) : raiseIfNaN (x : R E) = (big <= x). Proof. by []. Qed.
Lemma big_pos : 0 < big.
Proof. exact: xlit_gt0. Qed.

Section NonNeg.
Variables (xt : nat -> mX M) (l : list (node M)).
Hypothesis nonneg : List.Forall (fun n => 0 <= trial_cost n) l.
Lemma acc_none ch (u : sums E) : 0 <= (fst (fst u) : F) -> (forall t, List.In t ch -> (t < length l)%coq_nat) ->
  accum (try_body xt) l ch u = None ->
  big <= (fst (fst u) : F) + \sum_(t <- ch) (match List.nth_error l t with Some n => trial_cost n | None => 0 end).
Proof.
have nn t : 0 <= (match List.nth_error l t with Some n => trial_cost n | None => 0 end : F).
  case e: (nth_error l t) => [n|] //. move/List.Forall_forall: nonneg; apply. exact: (List.nth_error_In _ _ e).
elim: ch u => [|t ch IH] u hu hl //; cbn [accum]; rewrite big_cons.
have := nn t; move/nth_error_Some: (hl t (or_introl (erefl _))); case: (List.nth_error l t) => [n|] // _ hn.
rewrite try_iter raiseE; case: ifP => [hb _|_ h].
  rewrite addrA; apply: (le_trans hb); rewrite ler_addl; exact: sumr_ge0.
have := IH (sums_add u (part xt t n)); rewrite /= => /(_ _ _ h); rewrite -addrA; apply.
- exact: addr_ge0.
- by move=> i hi; apply: hl; right.
Qed.
Lemma sum_perm (f : nat -> F) (l1 l2 : list nat) : Permutation l1 l2 -> \sum_(t <- l1) f t = \sum_(t <- l2) f t.
Proof.
elim=> [|x k k' _ IH|x y k|k k' k'' _ -> _ ->] //; first by rewrite !big_cons IH.
by rewrite !big_cons addrCA.
Qed.
Lemma sum_app (f : nat -> F) (l1 l2 : list nat) : \sum_(t <- (l1 ++ l2)%list) f t = \sum_(t <- l1) f t + \sum_(t <- l2) f t.
Proof. by elim: l1 => [|x k IH] /=; rewrite ?big_nil ?add0r // !big_cons IH addrA. Qed.
Lemma sum_seq (f : node M -> F) (k : list (node M)) i (g : nat -> F) :
  (forall j, (j < size k)%N -> g (i + j)%N = match List.nth_error k j with Some n => f n | None => 0 end) ->
  \sum_(t <- List.seq i (length k)) g t = \sum_(n <- k) f n.
Proof.
elim: k i => [|n k IH] i h /=; first by rewrite !big_nil.
rewrite !big_cons -{1}[i]addn0 h //= IH // => j hj.
by rewrite addSnnS h.
Qed.
Lemma chunk_cost chunks ch : partition (length l) chunks -> List.In ch chunks ->
  \sum_(t <- ch) (match List.nth_error l t with Some n => trial_cost n | None => 0 end) <= \sum_(n <- l) trial_cost n.
Proof.
move=> hp hc; pose g t : F := if List.nth_error l t is Some n then trial_cost n else 0.
have nn t : 0 <= g t.
  rewrite /g; case e: (List.nth_error l t) => [n|] //. move/List.Forall_forall: nonneg; apply. exact: (List.nth_error_In _ _ e).
rewrite -[X in X <= _]/(\sum_(t <- ch) g t) -(@sum_seq trial_cost l 0%N g) //.
rewrite -(sum_perm g hp); have [p [q ->]] := in_split _ _ hc.
rewrite concat_app /= !sum_app addrCA ler_addl.
by apply: addr_ge0; apply: sumr_ge0.
Qed.
Lemma seq_none tn (u1 u2 u3 : F) : 0 <= u1 ->
  fst (fst (ceval_nodes l tn u1 u2 u3)) = false -> big <= u1 + \sum_(n <- l) trial_cost n.
Proof.
elim: l nonneg u1 u2 u3 => [|n k IH] hk u1 u2 u3 hu //=.
move/Forall_cons_iff: hk => [hn hk]; rewrite raiseE big_cons addrA.
case: ifP => [hb _|_ /= h].
  apply: (le_trans hb); rewrite ler_addl; elim: hk => [|m r hm _ ih]; rewrite ?big_nil // big_cons; exact: addr_ge0.
apply: IH h => //; exact: addr_ge0.
Qed.
Lemma seq_ok tn (u1 u2 u3 : F) : u1 < big ->
  fst (fst (ceval_nodes l tn u1 u2 u3)) = true -> u1 + \sum_(n <- l) trial_cost n < big.
Proof.
elim: l u1 u2 u3 => [|n k IH] u1 u2 u3 hu /=; first by rewrite big_nil addr0.
rewrite raiseE big_cons addrA; case: ifP => // hb /= h; apply: IH h; by rewrite ltNge; apply/negbT.
Qed.
End NonNeg.

(** C38, exact arithmetic, trial with non-negative costs: any execution of
    tryStep whose sequential counterpart returns a merit value returns the same
    values; otherwise it raises too, or kills the process. *)
Theorem C38_exact_nonneg_trial (a : R E) chunks (s : csqp M) r :
  List.Forall (fun n => 0 <= trial_cost n) (run (ctrial a (k_tr s))) ->
  0 <= (let tn := trm (ctrial a (k_tr s)) in tcost (tm tn) (tcalc (tm tn) (txt tn)) : F) ->
  tryStep_par c a chunks s r ->
  if fst (csqp_tryStep c a s) then r = Some (csqp_tryStep c a s)
  else r = None \/ exists s', r = Some (false, s').
Proof.
move=> hn ht; rewrite /tryStep_par tryStep_seq; case: (_ || _); first by move=> ->; right; exists s.
cbv zeta; set t := ctrial a (k_tr s).
set q := ceval_nodes _ _ _ _ _.
have hxt j : (j <= length (run t))%N -> trial_states t (0 + j)%N
   = nth j (List.map (fun n => pxt (pt n)) (run t) ++ [:: txt (trm t)]) (txt (trm t)) by [].
case: r => [r'|]; last first.
  case=> hp /(omp_dead hp) [ch [hch hno]].
  case e: (fst (fst q)); last by left.
  have hl i : List.In i ch -> (i < length (run t))%coq_nat by apply: (part_lt hp hch).
  have h1 := @acc_none (trial_states t) (run t) hn ch (sums0 E) (lexx 0) hl hno.
  have h2 := seq_ok big_pos e.
  have h3 := chunk_cost hn hp hch.
  rewrite -[(sums0 E).1.1]/(0 : F) add0r in h1; rewrite add0r in h2.
  by move: (le_lt_trans (le_trans h1 h3) h2); rewrite ltxx.
move=> [l' [v [hreg er]]].
have [el ev] := C38_exact_trial_values hreg.
case e: (fst (fst q)).
- have [e1 e2] := @seq_sums (trial_states t) (trm t) (run t) 0%N 0 0 0 hxt e.
  have ev2 : v = snd q.
    by rewrite e2 ev fold_parts; congr (_, _, _); rewrite add0r.
  rewrite er ev2 el -e1; case: (try_end _ _ _ _ _) => [[] s'] //=.
  by right; exists s'.
- right; exists (snd (try_end c s t l' v)); rewrite er; case e3: (try_end c s t l' v) => [b s'] /=.
  congr (Some (_, _)); have -> : b = fst (try_end c s t l' v) by rewrite e3.
  rewrite /try_end; cbn [fst]; rewrite ev raiseE.
  have hs := seq_none hn (lexx 0) e; rewrite add0r in hs.
  by apply/negbF; apply: (le_trans hs); rewrite ler_addl.
Qed.
End Exact.

Print Assumptions C25_fast_pass_any_schedule.
Print Assumptions C25_full_pass_deterministic.
Print Assumptions C25_full_pass_any_schedule.
Print Assumptions C25_dual_update_any_schedule.
Print Assumptions C38_exact_trial_values.
Print Assumptions C38_exact_nonneg_trial.
