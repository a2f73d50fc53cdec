(** * Invariants of SolverKKT objects over any sequence of calls. *)
From Coq Require Import Ring Field ZArith List Arith.
Set Warnings "-notation-overridden,-ambiguous-paths".
From mathcomp Require Import all_ssreflect all_algebra.
From Verif Require Import FieldTac Eigen EigenExact ExactLemmas Problem LQSpec Riccati LQHom SsrLia Init Flat KKT KKTSpec KKTSys P_Direction KKTUniq.
From Verif Require History.

Set Implicit Arguments.
Unset Strict Implicit.
Unset Printing Implicit Defensive.

Import Order.TTheory GRing.Theory Num.Theory.
Local Open Scope ring_scope.

Section H.
Variable F : realFieldType.
Variable sq : F -> F.
Notation E := (ExactE sq).
Variable M : manifold E.
Notation n := (mndx M).
Notation node := (node M).
Notation tnode := (tnode M).
Variable x0 : mX M.
Variable lu : forall N : nat, 'M[F]_N -> 'cV[F]_N -> 'cV[F]_N.
Variable bad : seq (mX M) -> seq {k : nat & vec E k} -> bool.
Variable (l : seq (slot M)) (t : tslot M).

(** a SolverKKT object after its construction and any sequence of calls; the settings
    may differ from call to call *)
Inductive kk_hist : kkts M -> Prop :=
| KH_new : kk_hist (new_kkt x0 l t)
| KH_dir recalc s s' : kk_hist s -> kk_direction x0 lu bad recalc s = KDok s' -> kk_hist s'
| KH_dir_raise recalc s s' : kk_hist s -> kk_direction x0 lu bad recalc s = KDthrow s' -> kk_hist s'
| KH_candidate xs us feas s tr : kk_hist s -> set_guess xs us (kk_tr s) = Some tr -> kk_hist (set_k_feas (set_k_tr s tr) feas)
| KH_try a s : kk_hist s -> kk_hist (snd (kk_tryStep bad a s))
| KH_expected s : kk_hist s -> kk_hist (kk_expected s)
| KH_stopping s : kk_hist s -> kk_hist (kk_stopping s)
| KH_iter i s : kk_hist s -> kk_hist (set_k_iter s i)               (* loop counter of solve *)
| KH_search c s : kk_hist s -> kk_hist (kk_search bad c (kc_alphas c) s)   (* line search of solve *)
| KH_solve c fuel xs us maxiter feas s b s' :
    kk_hist s -> kk_solve x0 lu bad c fuel xs us maxiter feas s = KRet b s' -> kk_hist s'.

Definition shape (tr : traj M) := ([seq (nm nd, fs nd) | nd <- run tr], (tm (trm tr), tfs (trm tr))).
Definition keeps (s s' : kkts M) : Prop :=
  shape (kk_tr s') = shape (kk_tr s) /\ kk_preg s' = kk_preg s /\
  (kk_zeros M (dims (run (kk_tr s))) (all_x (run (kk_tr s))) (kk_K s) ->
   kk_zeros M (dims (run (kk_tr s'))) (all_x (run (kk_tr s'))) (kk_K s')).
Lemma shape_dims (a b : traj M) : shape a = shape b -> dims (run a) = dims (run b) /\ all_x (run a) = all_x (run b).
Proof.
case=> h _; have d : dims (run a) = dims (run b).
  by have := congr1 (map (fun p : amodel M * vec E n => nu (fst p))) h; rewrite -!map_comp.
split=> //; have := congr1 size d; rewrite /dims !size_map /all_x => e.
by rewrite -[List.length (run a)]/(size (run a)) -[List.length (run b)]/(size (run b)) e.
Qed.
Lemma keeps_refl s : keeps s s. Proof. by []. Qed.
Lemma keeps_trans s1 s2 s3 : keeps s1 s2 -> keeps s2 s3 -> keeps s1 s3.
Proof. by move=> [a [b c]] [a' [b' c']]; split; [rewrite a'|split; [rewrite b'|move/c/c']]. Qed.
(** same matrix *)
Lemma keeps_same s s' : shape (kk_tr s') = shape (kk_tr s) -> kk_preg s' = kk_preg s -> kk_K s' = kk_K s -> keeps s s'.
Proof. by move=> h1 h2 h3; split=> //; split=> //; have [-> ->] := shape_dims h1; rewrite h3. Qed.

Lemma shape_guess xs us (a b : traj M) : set_guess xs us a = Some b -> shape b = shape a.
Proof.
move=> /History.set_guessP [h [[x e] _]]; rewrite /shape e; congr (_, _).
by elim: h => //= nd nd' k k' [p ->] _ ->.
Qed.
Lemma shape_calcDiff (a : traj M) : shape (fst (problem_calcDiff (problem_calc a))) = shape a.
Proof. by rewrite /shape /=; congr (_, _); elim: (run a) => //= nd k ->. Qed.
Lemma shape_map (f : node -> node) (a : traj M) tn : (forall nd, nm (f nd) = nm nd /\ fs (f nd) = fs nd) ->
  tm tn = tm (trm a) -> tfs tn = tfs (trm a) -> shape (mkTraj (List.map f (run a)) tn) = shape a.
Proof. by move=> h h1 h2; rewrite /shape /= h1 h2; congr (_, _); elim: (run a) => //= nd k ->; have [-> ->] := h nd. Qed.
Lemma extract_only wX w ix iu p (k : seq node) tn :
  List.Forall2 (fun a b : node => exists d, b = set_dir a d) k (kk_extract wX w ix iu p k tn).1 /\
  exists d l', (kk_extract wX w ix iu p k tn).2 = set_tlam (set_tdx tn d) l'.
Proof.
elim: k ix iu => [|nd k IH] ix iu /=; first by split; [constructor|eexists; eexists].
by have [h1 h2] := IH (ix + n)%N (iu + nu (nm nd))%N; split=> //; constructor=> //; eexists.
Qed.
Lemma only_shape (a b : traj M) : only_direction a b -> shape b = shape a.
Proof. by move=> [h [d [l' e]]]; rewrite /shape e; congr (_, _); elim: h => //= x y k k' [v ->] _ ->. Qed.
Lemma extract_shape wX w p (a : traj M) : let r := kk_extract wX w 0 0 p (run a) (trm a) in shape (mkTraj r.1 r.2) = shape a.
Proof. by apply: only_shape; exact: extract_only. Qed.

(** the state after calcDiff *)
Definition mxE' (t1 : traj M) (K : buf F) (q : vbuf F) : buf F * vbuf F :=
  let k := run t1 in
  let r := kk_fill (all_x k) (sum_nu k) 0 0 k (trm t1) (kk_ident (all_p k) (all_x k) K)
             (wrv (all_x k + sum_nu k)%N (diff M x0 (hd_x k (trm t1)) : 'cV[F]_n) q) in
  (kk_mirror (all_p k) (all_x k) (fst r), snd r).
Lemma calcDiffP s s' : kk_calcDiff x0 s = Some s' ->
  let t1 := fst (problem_calcDiff (problem_calc (kk_tr s))) in
  [/\ kk_tr s' = t1, kk_K s' = fst (mxE' t1 (kk_K s) (kk_ref s)), kk_ref s' = snd (mxE' t1 (kk_K s) (kk_ref s)),
      kk_preg s' = kk_preg s & run t1 <> [::]].
Proof.
rewrite /kk_calcDiff; case e: (problem_calcDiff _) => [t1 cost]; cbv zeta; rewrite [fst _]/=.
move: (erefl (run t1)); case: {2 3}(run t1) => [//|nd k] er [<-].
have ex : px (pt nd) = hd_x (run t1) (trm t1) by rewrite er.
by split; cbn [kk_tr kk_K kk_ref kk_preg]; rewrite ?ex // er.
Qed.
Lemma keeps_calcDiff s s' : kk_calcDiff x0 s = Some s' -> keeps s s'.
Proof.
move=> /calcDiffP; set t1 := fst _; cbv zeta => -[e1 e2 _ e4 _].
have es := shape_calcDiff (kk_tr s); rewrite -/t1 in es.
split; [by rewrite e1|split=> // hz]; rewrite e1 e2.
have hz1 : kk_zeros M (dims (run t1)) (all_x (run t1)) (kk_K s) by have [-> ->] := shape_dims es.
exact: (@zeros_kept F sq M x0 (run t1) (trm t1) (kk_K s) (kk_ref s) hz1).
Qed.
Lemma keeps_direction recalc s s' : kk_direction x0 lu bad recalc s = KDok s' -> keeps s s'.
Proof.
rewrite /kk_direction; set r := (if recalc then _ else _).
have hr s2 : r = KDok s2 -> keeps s s2.
  rewrite {}/r; case: (recalc) => [|[<-] //]; case: (bad _ _) => //.
  by case ec: (kk_calcDiff x0 s) => [s3|] // [<-]; exact: keeps_calcDiff ec.
case: r hr => // s2 /(_ _ erefl) h [<-]; apply: keeps_trans h _; apply: keeps_same => //; exact: extract_shape.
Qed.
Lemma direction_raise recalc s s' : kk_direction x0 lu bad recalc s = KDthrow s' -> s' = s /\ recalc = true /\ bad (get_xs (kk_tr s)) (get_us (kk_tr s)).
Proof.
rewrite /kk_direction; case: recalc => //; case eb: (bad _ _); first by case=> <-.
by case: (kk_calcDiff x0 s).
Qed.
Lemma keeps_try a s : keeps s (snd (kk_tryStep bad a s)).
Proof.
rewrite /kk_tryStep; set t1 := mkTraj _ _; have e1 : shape t1 = shape (kk_tr s) by exact: shape_map.
case: (bad _ _); apply: keeps_same => //; rewrite -e1; exact: (@shape_map _ t1).
Qed.
Lemma keeps_search c al s : keeps s (kk_search bad c al s).
Proof.
elim: al s => [|a al IH] s /=; first exact: keeps_refl.
have := keeps_try a (set_k_step s a); case: (kk_tryStep bad a (set_k_step s a)) => [[] s1] /= h.
  case: ifP => _.
    apply: keeps_trans h _; apply: keeps_same => //; exact: (@shape_map _ (kk_tr s1)).
  by apply: keeps_trans (IH _); exact: h.
by apply: keeps_trans (IH _); exact: h.
Qed.
Lemma keeps_expected s : keeps s (kk_expected s). Proof. exact: keeps_same. Qed.
Lemma keeps_stopping s : keeps s (kk_stopping s). Proof. exact: keeps_same. Qed.
Lemma keeps_retry c fuel recalc s :
  match kk_retry x0 lu bad c fuel recalc s with KRok _ s' | KRfalse s' => keeps s s' | _ => True end.
Proof.
elim: fuel recalc s => [//|f IH] recalc s /=; case ed: (kk_direction x0 lu bad recalc s) => [s1|s1|] //.
  exact: keeps_direction ed.
have [-> _] := direction_raise ed; case: ifP => // _; exact: IH.
Qed.
Lemma keeps_loop c fuel k i recalc s b s' : kk_loop x0 lu bad c fuel k i recalc s = KRet b s' -> keeps s s'.
Proof.
elim: k i recalc s => [|k IH] i recalc s /=; first by case=> _ <-; exact: keeps_same.
have := keeps_retry c fuel recalc (set_k_iter s i); case: (kk_retry _ _ _ _ _ _ _) => // [rc s1|s1] h; last first.
  by case=> _ <-; exact: h.
case: ifP => _; first by case=> _ <-; apply: keeps_trans (keeps_expected _); exact: h.
set s3 := kk_stopping _; have h3 : keeps s s3.
  apply: keeps_trans (keeps_stopping _); apply: keeps_trans (keeps_search _ _ _); apply: keeps_trans (keeps_expected _); exact: h.
case: ifP => _; first by case=> _ <-.
by move/IH; exact: keeps_trans.
Qed.
Lemma keeps_candidate xs us feas s tr : set_guess xs us (kk_tr s) = Some tr -> keeps s (set_k_feas (set_k_tr s tr) feas).
Proof. by move=> h; apply: keeps_same => //; exact: shape_guess h. Qed.
Lemma keeps_solve c fuel xs us maxiter feas s b s' : kk_solve x0 lu bad c fuel xs us maxiter feas s = KRet b s' -> keeps s s'.
Proof.
rewrite /kk_solve; case e: (set_guess _ _ _) => [tr|] // /keeps_loop.
by apply: keeps_trans; exact: keeps_candidate e.
Qed.

Definition slots : seq (amodel M * vec E n) := [seq (sl_m s, vzero E) | s <- l].
Lemma hist_inv s : kk_hist s ->
  [/\ shape (kk_tr s) = (slots, (ts_m t, vzero E)), kk_preg s = 0 &
   kk_zeros M (dims (run (kk_tr s))) (all_x (run (kk_tr s))) (kk_K s)].
Proof.
have k s1 s2 : keeps s1 s2 -> [/\ shape (kk_tr s1) = (slots, (ts_m t, vzero E)), kk_preg s1 = 0 &
   kk_zeros M (dims (run (kk_tr s1))) (all_x (run (kk_tr s1))) (kk_K s1)] ->
  [/\ shape (kk_tr s2) = (slots, (ts_m t, vzero E)), kk_preg s2 = 0 &
   kk_zeros M (dims (run (kk_tr s2))) (all_x (run (kk_tr s2))) (kk_K s2)].
  by move=> [h1 [h2 h3]] [e1 e2 e3]; split; [rewrite h1|rewrite h2|exact: h3].
elim=> {s}.
- split=> //=; rewrite /shape /slots /=; congr (_, _).
  by case: (l) => //= a l'; congr cons; elim: l' => //= b l'' ->.
- by move=> recalc s s' _ ih hd; apply: k ih; exact: keeps_direction hd.
- by move=> recalc s s' _ ih hd; have [-> _] := direction_raise hd.
- by move=> xs us feas s tr _ ih hg; apply: k ih; exact: keeps_candidate hg.
- by move=> a s _ ih; apply: k ih; exact: keeps_try.
- by move=> s _ ih; apply: k ih; exact: keeps_expected.
- by move=> s _ ih; apply: k ih; exact: keeps_stopping.
- by [].
- by move=> c s _ ih; apply: k ih; exact: keeps_search.
- by move=> c fuel xs us mi feas s b s' _ ih hs; apply: k ih; exact: keeps_solve hs.
Qed.
Lemma hist_run s : kk_hist s -> size (run (kk_tr s)) = size l.
Proof. by move/hist_inv => [h _ _]; have := congr1 (fun x => size (fst x)) h; rewrite /shape /slots /= !size_map. Qed.
Lemma hist_fs s : kk_hist s -> (forall nd, List.In nd (run (kk_tr s)) -> (fs nd : 'cV[F]_n) = 0) /\ (tfs (trm (kk_tr s)) : 'cV[F]_n) = 0.
Proof.
move/hist_inv => [h _ _]; have h1 := congr1 fst h; have h2 := congr1 (fun x => snd (snd x)) h; rewrite /shape /= in h1 h2.
split; last by rewrite h2.
move: h1; rewrite /slots; elim: (run (kk_tr s)) (l) => [|nd k IH] [|b l'] //= [_ e er] m [<-|hm].
  by rewrite e.
exact: (IH l').
Qed.
End H.
