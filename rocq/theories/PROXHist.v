(** * Invariants of SolverPROXQP objects over any sequence of calls. *)
From Coq Require Import Ring Field ZArith List Arith.
Set Warnings "-notation-overridden,-ambiguous-paths".
From mathcomp Require Import all_ssreflect all_algebra.
From Verif Require Import FieldTac Eigen EigenExact Problem LQSpec SsrLia CSQP Init Flat KKT KKTSys PROXQP PROXBlocks PROXSpec PROXSys.
From Verif Require History.

Set Implicit Arguments.
Unset Strict Implicit.
Unset Printing Implicit Defensive.

Import Order.TTheory GRing.Theory Num.Theory.
Local Open Scope ring_scope.

Section H.
Variable F : realFieldType.
Variable sq : F -> F.
Notation E := (ExactE sq).
Variable M : manifold E.
Notation n := (mndx M).
Notation node := (node M).
Notation tnode := (tnode M).
Variable x0 : mX M.
Variable qp : forall N Me Mi : nat, 'M[F]_N -> 'cV[F]_N -> 'M[F]_(Me, N) -> 'cV[F]_Me ->
  'M[F]_(Mi, N) -> 'cV[option F]_Mi -> 'cV[option F]_Mi -> option ('cV[F]_N * 'cV[F]_Me * 'cV[F]_Mi).
Variable (l : seq (slot M)) (t : tslot M).

(** a SolverPROXQP object after its construction and any sequence of calls; the settings
    may differ from call to call *)
Inductive pq_hist : pqs M -> Prop :=
| PH_new fsize : pq_hist (new_pqs x0 l t fsize)
| PH_calc c s : pq_hist s -> pq_hist (pq_calc c s)
| PH_dir c recalc s s' : pq_hist s -> pq_direction qp c recalc s = PDok s' -> pq_hist s'
| PH_dir_raise c recalc s s' : pq_hist s -> pq_direction qp c recalc s = PDthrow s' -> pq_hist s'
| PH_candidate xs us s tr : pq_hist s -> set_guess xs us (pq_tr s) = Some tr -> pq_hist (set_p_tr s tr)
| PH_try c a s : pq_hist s -> pq_hist (snd (pq_tryStep c a s))
| PH_solve c fuel xs us maxiter reg s b s' :
    pq_hist s -> pq_solve x0 qp c fuel xs us maxiter reg s = PRet b s' -> pq_hist s'.

Definition shape (tr : traj M) := ([seq nm nd | nd <- run tr], (tm (trm tr), (hd_dx (run tr) (trm tr), hd_fs (run tr) (trm tr)))).
(** never-written entries are zero *)
Definition zeros (tr : traj M) (s : pqs M) : Prop :=
  let k := run tr in
  let tn := trm tr in
  let w := neq k in
  [/\ forall r c, cover (pw w 0 0 k tn) r c = false -> pq_P s r c = 0,
      forall r c, cover (aw w 0 0 k) r c = false -> pq_A s r c = 0,
      forall r c, cover (cw (List.length k) 0 0 k tn) r c = false -> pq_C s r c = 0,
      forall r, scover (qw w 0 0 k tn) r = false -> pq_q s r = 0
    & forall r, scover (bw 0 k tn) r = false -> pq_b s r = 0].

Section Pos.
Variables (tn tn' : tnode).
Lemma pw_pos w p iu (k k' : seq node) : [seq nm nd | nd <- k] = [seq nm nd | nd <- k'] ->
  map (@pos F) (pw w p iu k tn) = map (@pos F) (pw w p iu k' tn').
Proof. by elim: k k' p iu => [|a k IH] [|b k'] p iu //= [e /IH h]; rewrite !map_cat /= h; case: (Nat.eqb p 0); rewrite /pos ?/spos /= e. Qed.
Lemma aw_pos w p iu (k k' : seq node) : [seq nm nd | nd <- k] = [seq nm nd | nd <- k'] ->
  map (@pos F) (aw w p iu k) = map (@pos F) (aw w p iu k').
Proof. by elim: k k' p iu => [|a k IH] [|b k'] p iu //= [e /IH h]; rewrite !map_cat /= h; case: (Nat.eqb p 0); rewrite /pos ?/spos /= e. Qed.
Lemma cw_pos T p cnt (k k' : seq node) : tm tn = tm tn' -> [seq nm nd | nd <- k] = [seq nm nd | nd <- k'] ->
  map (@pos F) (cw T p cnt k tn) = map (@pos F) (cw T p cnt k' tn').
Proof.
move=> et; elim: k k' p cnt => [|a k IH] [|b k'] p cnt //=; first by move=> _; case: (Nat.eqb _ 0) (congr1 (fun m => Nat.eqb (tng m) 0) et) => <- //; rewrite /pos /= et.
case=> e /IH h; rewrite !map_cat h; have en := congr1 (fun m => Nat.eqb (ng m) 0) e; rewrite /= in en.
by rewrite en; case: (Nat.eqb (ng (nm b)) 0); [rewrite /= e|case: (Nat.eqb p 0); rewrite /pos /= e].
Qed.
Lemma qw_pos w p iu (k k' : seq node) : [seq nm nd | nd <- k] = [seq nm nd | nd <- k'] ->
  map (@spos F) (qw w p iu k tn) = map (@spos F) (qw w p iu k' tn').
Proof. by elim: k k' p iu => [|a k IH] [|b k'] p iu //= [e /IH h]; rewrite !map_cat /= h; case: (Nat.eqb p 0); rewrite /pos ?/spos /= e. Qed.
Lemma bw_pos p (k k' : seq node) : [seq nm nd | nd <- k] = [seq nm nd | nd <- k'] ->
  map (@spos F) (bw p k tn) = map (@spos F) (bw p k' tn').
Proof. by elim: k k' p => [|a k IH] [|b k'] p //= [e /IH h]; rewrite h. Qed.
End Pos.
Lemma shape_len (a b : traj M) : shape a = shape b -> List.length (run a) = List.length (run b) /\ neq (run a) = neq (run b).
Proof.
case=> h _ _ _; have : List.length (run a) = List.length (run b).
  by have := congr1 size h; rewrite !size_map.
by rewrite /neq => ->.
Qed.
Lemma zeros_shape (a b : traj M) s : shape a = shape b -> zeros a s -> zeros b s.
Proof.
move=> es; have [h1 h2] := shape_len es; case: es => e1 e2 _ _; rewrite /zeros h1 h2 => -[z1 z2 z3 z4 z5].
split.
- by move=> r c h; apply: z1; rewrite (cover_pos _ _ (pw_pos _ (trm b) _ _ _ e1)).
- by move=> r c h; apply: z2; rewrite (cover_pos _ _ (aw_pos _ _ _ e1)).
- by move=> r c h; apply: z3; rewrite (cover_pos _ _ (cw_pos _ _ _ e2 e1)).
- by move=> r h; apply: z4; rewrite (scover_pos _ (qw_pos _ (trm b) _ _ _ e1)).
- by move=> r h; apply: z5; rewrite (scover_pos _ (bw_pos _ (trm b) _ e1)).
Qed.

Definition keeps (s s' : pqs M) : Prop := shape (pq_tr s') = shape (pq_tr s) /\ (zeros (pq_tr s) s -> zeros (pq_tr s') s').
Lemma keeps_refl s : keeps s s. Proof. by []. Qed.
Lemma keeps_trans s1 s2 s3 : keeps s1 s2 -> keeps s2 s3 -> keeps s1 s3.
Proof. by move=> [a c] [a' c']; split; [rewrite a'|move/c/c']. Qed.
Definition same_bufs (s s' : pqs M) : Prop :=
  [/\ pq_P s' = pq_P s, pq_A s' = pq_A s, pq_C s' = pq_C s, pq_q s' = pq_q s & pq_b s' = pq_b s].
Lemma keeps_same s s' : shape (pq_tr s') = shape (pq_tr s) -> same_bufs s s' -> keeps s s'.
Proof.
move=> h [e1 e2 e3 e4 e5]; split=> // hz.
have := zeros_shape (esym h) hz; rewrite /zeros e1 e2 e3 e4 e5; exact.
Qed.
Lemma shape_guess xs us (a b : traj M) : set_guess xs us a = Some b -> shape b = shape a.
Proof.
move=> /History.set_guessP [h [[x e] _]]; rewrite /shape e; congr (_, (_, (_, _))).
- by elim: h => //= nd nd' k k' [p ->] _ ->.
- by case: h => //= nd nd' k k' [p ->] _.
- by case: h => //= nd nd' k k' [p ->] _.
Qed.
Lemma shape_calcDiff (a : traj M) : shape (fst (problem_calcDiff (problem_calc a))) = shape a.
Proof. by rewrite /shape /=; congr (_, (_, (_, _))); [elim: (run a) => //= nd k ->|case: (run a)|case: (run a)]. Qed.
Lemma shape_calc_nodes (k : seq node) tn gap con :
  shape (mkTraj (fst (fst (calc_nodes None k tn gap con))) (snd (fst (calc_nodes None k tn gap con)))) = shape (mkTraj k tn).
Proof.
suff h f : let r := calc_nodes f k tn gap con in
  [/\ [seq nm nd | nd <- fst (fst r)] = [seq nm nd | nd <- k], tm (snd (fst r)) = tm tn,
      hd_dx (fst (fst r)) (snd (fst r)) = hd_dx k tn & f = None -> hd_fs (fst (fst r)) (snd (fst r)) = hd_fs k tn].
  by case: (h None) => h1 h2 h3 h4; rewrite /shape; cbn [run trm]; rewrite h1 h2 h3 h4.
elim: k f gap con => [|nd k IH] f gap con ; first by case: f.
cbn [calc_nodes]; cbv zeta; set r := calc_nodes _ _ _ _ _; have := IH (Some (diff M (hd_x k tn) (axnext (nm nd) (mem nd)))) (radd E gap (vl1 E (diff M (hd_x k tn) (axnext (nm nd) (mem nd)))))
  (radd E (radd E con (vl1 E (viol_lb E (alb (nm nd)) (ag (nm nd) (mem nd))))) (vl1 E (viol_ub E (aub (nm nd)) (ag (nm nd) (mem nd))))).
cbv zeta; rewrite -/r => -[h1 h2 _ _]; cbn [fst snd map]; rewrite h2; split=> //.
- by rewrite -[LHS]/(_ :: _) h1; case: f.
- by case: f.
- by move=> ->.
Qed.
Lemma calc_shape c s : shape (pq_tr (pq_calc c s)) = shape (pq_tr s).
Proof. by rewrite /pq_calc; cbn [pq_tr]; rewrite shape_calc_nodes -[RHS]shape_calcDiff. Qed.
Lemma keeps_calc c s : keeps s (pq_calc c s).
Proof.
have es := calc_shape c s; split=> // hz.
have := zeros_shape (esym es) hz; rewrite /zeros.
set k := run (pq_tr (pq_calc c s)); set tn := trm (pq_tr (pq_calc c s)) => -[z1 z2 z3 z4 z5].
split=> r.
- by move=> i h; rewrite -(z1 r i h); exact: (wrl_out _ h).
- by move=> i h; rewrite -(z2 r i h); exact: (wrl_out _ h).
- by move=> i h; rewrite -(z3 r i h); exact: (wrl_out _ h).
- by move=> h; rewrite -(z4 r h); exact: (wsl_out _ h).
- by move=> h; rewrite -(z5 r h); exact: (wsl_out _ h).
Qed.
Lemma extract_shape w x y z (a : traj M) : run a <> [::] ->
  let r := pq_extract w 0 0 0 x y z (run a) (trm a) in shape (mkTraj r.1 r.2) = shape a.
Proof.
move=> h; rewrite /shape /=; congr (_, (_, (_, _))); try by case: (run a) h.
  by move: 0%N {2}0%N {2}0%N; elim: (run a) => //= nd k IH p iu cnt; rewrite IH.
by move: 0%N {2}0%N {2}0%N; elim: (run a) => //= nd k IH p iu cnt; rewrite IH.
Qed.
Lemma keeps_direction c recalc s :
  match pq_direction qp c recalc s with PDok s' | PDthrow s' => keeps s s' | PDub => True end.
Proof.
rewrite /pq_direction; case er: (run (pq_tr s)) => [//|nd k]; set s1 := (if recalc then _ else s).
have h1 : keeps s s1 by rewrite /s1; case: (recalc) => //; exact: keeps_calc.
case: (pq_ask _ _) => [[[x y] z]|]; apply: (keeps_trans h1); apply: keeps_same => //.
apply: extract_shape; cbn [pq_tr set_p_KKT] => e.
have [h _] := h1; have [+ _] := shape_len h; by rewrite e er.
Qed.
Lemma shape_map (f : node -> node) (a : traj M) tn : (forall nd, [/\ nm (f nd) = nm nd, dx (dir (f nd)) = dx (dir nd) & fs (f nd) = fs nd]) ->
  tm tn = tm (trm a) -> tdx tn = tdx (trm a) -> tfs tn = tfs (trm a) -> shape (mkTraj (List.map f (run a)) tn) = shape a.
Proof.
move=> h h1 h2 h3; rewrite /shape /= h1; congr (_, (_, (_, _))).
- by elim: (run a) => //= nd k ->; congr cons; case: (h nd).
- by case: (run a) => //= nd k; case: (h nd).
- by case: (run a) => //= nd k; case: (h nd).
Qed.
Lemma shape_eval (k : seq node) tn tn' cst gap con :
  shape (mkTraj (snd (fst (ceval_nodes k tn' cst gap con))) tn) = shape (mkTraj k tn).
Proof.
have e : [seq nm nd | nd <- snd (fst (ceval_nodes k tn' cst gap con))] = [seq nm nd | nd <- k].
  elim: k cst gap con => [|nd k IH] cst gap con //; cbn [ceval_nodes].
  by case: (raiseIfNaN _) => //; cbn [fst snd map]; rewrite -[LHS]/(_ :: _) IH.
rewrite /shape; cbn [run trm]; rewrite e; congr (_, (_, (_, _))).
- by case: (k) => //= nd k'; case: (raiseIfNaN _).
- by case: (k) => //= nd k'; case: (raiseIfNaN _).
Qed.
Lemma keeps_try c a s : keeps s (snd (pq_tryStep c a s)).
Proof.
rewrite /pq_tryStep; case: (_ || _); first exact: keeps_refl.
cbv zeta; case: (fst (fst _)); apply: keeps_same => //; cbn [snd pq_tr set_p_try set_p_tr negb];
  rewrite shape_eval /ctrial; cbn [run]; exact: shape_map.
Qed.
Lemma keeps_search c al s s' : pq_search c al s = Some s' -> keeps s s'.
Proof.
elim: al s => [|a al IH] s /=; first by case=> <-.
have := keeps_try c a (set_p_step s a); case: (pq_tryStep c a (set_p_step s a)) => [[] s1] /= h; last first.
  by move/IH; apply: keeps_trans; exact: h.
case: (pq_accept c s1) => [[]|] //; last by move/IH; apply: keeps_trans; exact: h.
case=> <-; apply: keeps_trans h _; apply: keeps_same => //; exact: (@shape_map _ (pq_tr s1)).
Qed.
Lemma keeps_retry c fuel recalc s :
  match pq_retry qp c fuel recalc s with PRok s' | PRfalse s' => keeps s s' | _ => True end.
Proof.
elim: fuel recalc s => [//|f IH] recalc s /=; have := keeps_direction c recalc s.
case ed: (pq_direction qp c recalc s) => [s1|s1|] // h.
have h2 : keeps s (pq_inc c s1) by apply: keeps_trans h _; exact: keeps_same.
case: ifP => // _; have := IH false (pq_inc c s1); case: (pq_retry _ _ _ _ _) => // s'; exact: keeps_trans.
Qed.
Lemma keeps_loop c fuel k i s b s' : pq_loop qp c fuel k i s = PRet b s' -> keeps s s'.
Proof.
elim: k i s => [|k IH] i s /=; first by case=> _ <-; exact: keeps_same.
have := keeps_retry c fuel true (set_p_iter s i); case: (pq_retry _ _ _ _ _) => // [s1|s1] h; last first.
  by case=> _ <-; exact: h.
case: ifP => _; first by case=> _ <-; exact: h.
case es: (pq_search _ _ _) => [s2|] //.
have h2 : keeps s s2.
  apply: keeps_trans (keeps_search es); exact: h.
set s3 := (if _ then _ else s2); have h3 : keeps s s3.
  by rewrite /s3; case: ifP => _ //; apply: keeps_trans h2 _; exact: keeps_same.
case: ifP => _; last by move/IH; exact: keeps_trans.
have h4 : keeps s (pq_inc c s3) by apply: keeps_trans h3 _; exact: keeps_same.
by case: ifP => _; [case=> _ <-|move/IH; exact: keeps_trans].
Qed.
Lemma shape_pin (a : traj M) : shape (pin_xt0 x0 (pin_x0 x0 a)) = shape a.
Proof. by case: a => [[|nd k] tn]. Qed.
Lemma keeps_solve c fuel xs us maxiter reg s b s' : pq_solve x0 qp c fuel xs us maxiter reg s = PRet b s' -> keeps s s'.
Proof.
rewrite /pq_solve; case e: (set_guess _ _ _) => [tr|] // /keeps_loop.
by apply: keeps_trans; apply: keeps_same => //; cbn [pq_tr set_p_reg set_p_tr]; rewrite shape_pin; exact: shape_guess e.
Qed.

Definition good (s : pqs M) : Prop :=
  [/\ [seq nm nd | nd <- run (pq_tr s)] = [seq sl_m a | a <- l], tm (trm (pq_tr s)) = ts_m t,
      (hd_dx (run (pq_tr s)) (trm (pq_tr s)) : 'cV[F]_n) = 0 & zeros (pq_tr s) s].
Lemma good_keeps s s' : keeps s s' -> good s -> good s'.
Proof. by move=> [[h1 h2 h3 _] hz] [e1 e2 e3 /hz e4]; split; rewrite ?h1 ?h2 ?h3. Qed.
Lemma hist_good s : pq_hist s -> good s.
Proof.
elim=> {s}.
- move=> fsz; split.
  + rewrite /new_pqs /new_traj; cbn [pq_tr run]; case: (l) => //= a l'; congr cons; by elim: l' => //= b l'' ->.
  + by [].
  + by rewrite /new_pqs /new_traj; cbn [pq_tr run trm]; case: (l).
  + by split.
- by move=> c s _; apply: good_keeps; exact: keeps_calc.
- by move=> c rc s s' _ ih e; have := keeps_direction c rc s; rewrite e => h; exact: good_keeps h ih.
- by move=> c rc s s' _ ih e; have := keeps_direction c rc s; rewrite e => h; exact: good_keeps h ih.
- move=> xs us s tr _ ih e; apply: good_keeps ih; apply: keeps_same => //; exact: shape_guess e.
- by move=> c a s _; apply: good_keeps; exact: keeps_try.
- by move=> c fuel xs us mi reg s b s' _ ih /keeps_solve h; exact: good_keeps h ih.
Qed.
End H.
