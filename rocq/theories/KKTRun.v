(** * The loop of SolverKKT::solve. *)
From Coq Require Import Ring Field ZArith List Arith Lia.
Set Warnings "-notation-overridden,-ambiguous-paths".
From mathcomp Require Import all_ssreflect all_algebra.
From Verif Require Import FieldTac Eigen EigenExact ExactLemmas Problem SsrLia Init Flat Riccati KKT KKTSpec KKTSys KKTHist KKTRunSpec KKTQuant P_KKT.

Set Implicit Arguments.
Unset Strict Implicit.
Unset Printing Implicit Defensive.

Import Order.TTheory GRing.Theory Num.Theory.
Local Open Scope ring_scope.

Section R.
Variable F : realFieldType.
Variable sq : F -> F.
Notation E := (ExactE sq).
Variable M : manifold E.
Notation n := (mndx M).
Notation node := (node M).
Notation tnode := (tnode M).
Add Field FfKR : (F_field_theory F).
Variable x0 : mX M.
Variable lu : forall N : nat, 'M[F]_N -> 'cV[F]_N -> 'cV[F]_N.
Variable bad : seq (mX M) -> seq {k : nat & vec E k} -> bool.

(** ** trials *)
Definition ntry (nd nd' : node) : Prop := exists xt ut me, nd' = set_mem (set_pt nd (mkPoint (px (pt nd)) (pu (pt nd)) xt ut)) me.
Definition ttry (tn tn' : tnode) : Prop := exists xt me, tn' = set_tme (set_txt tn xt) me.
Definition tryrel (a b : traj M) : Prop := List.Forall2 ntry (run a) (run b) /\ ttry (trm a) (trm b).
Definition nder (nd nd' : node) : Prop := exists p me, nd' = set_mem (set_pt nd p) me.
Definition tders (tn tn' : tnode) : Prop := exists x xt me, tn' = set_tme (set_txt (set_tx tn x) xt) me.
Definition derrel (a b : traj M) : Prop := List.Forall2 nder (run a) (run b) /\ tders (trm a) (trm b).

Lemma f2_refl T (P : T -> T -> Prop) (l : seq T) : (forall x, P x x) -> List.Forall2 P l l.
Proof. by move=> h; elim: l => [|a l ih]; constructor. Qed.
Lemma f2_trans T (P : T -> T -> Prop) (a b c : seq T) : (forall x y z, P x y -> P y z -> P x z) ->
  List.Forall2 P a b -> List.Forall2 P b c -> List.Forall2 P a c.
Proof.
move=> ht h; elim: h c => [|x y l l' hxy _ ih] c h; inversion h; subst; constructor; [exact: ht hxy _|exact: ih].
Qed.
Lemma f2_map T (P : T -> T -> Prop) f (l : seq T) : (forall x, P x (f x)) -> List.Forall2 P l (List.map f l).
Proof. by move=> h; elim: l => [|a l ih] /=; constructor. Qed.
Lemma ntry_refl nd : ntry nd nd.
Proof. by exists (pxt (pt nd)), (put (pt nd)), (mem nd); case: nd => m [x u xt ut]. Qed.
Lemma ntry_trans a b c : ntry a b -> ntry b c -> ntry a c.
Proof. by move=> [xt [ut [me ->]]] [xt' [ut' [me' ->]]]; exists xt', ut', me'. Qed.
Lemma ttry_refl tn : ttry tn tn. Proof. by exists (txt tn), (tme tn); case: tn. Qed.
Lemma ttry_trans a b c : ttry a b -> ttry b c -> ttry a c.
Proof. by move=> [xt [me ->]] [xt' [me' ->]]; exists xt', me'. Qed.
Lemma tryrel_refl a : tryrel a a.
Proof. by split; [apply: f2_refl; exact: ntry_refl|exact: ttry_refl]. Qed.
Lemma tryrel_trans a b c : tryrel a b -> tryrel b c -> tryrel a c.
Proof. by move=> [h1 h2] [h3 h4]; split; [apply: f2_trans h1 h3; exact: ntry_trans|exact: ttry_trans h2 h4]. Qed.
Lemma try_der a b : tryrel a b -> derrel a b.
Proof.
move=> [h [xt [me e]]]; split; last by exists (tx (trm a)), xt, me; rewrite e.
by elim: h => [|x y l l' [xt' [ut' [me' ->]]] _ ih]; constructor=> //; eexists; eexists.
Qed.

Lemma step_try a (t t' : traj M) : tryrel t t' ->
  [/\ step_xs a t' = step_xs a t, step_us a t' = step_us a t, step_cost a t' = step_cost a t,
      get_xs t' = get_xs t & get_us t' = get_us t].
Proof.
move=> [h [xt [me e]]]; rewrite /step_xs /step_us /step_cost /get_xs /get_us e.
elim: h => [|x y l l' [xt' [ut' [me' ->]]] _ [i1 i2 i3 i4 i5]] //; cbn [List.map map tx tm set_tme set_txt step_tx].
move: i1 i2 i3 i4 i5; cbn [List.map map tx tm set_tme set_txt step_tx List.app cat].
rewrite !big_cons => i1 i2 i3 i4 i5; split.
- by rewrite -[LHS]/(step_x a x :: _) i1.
- by rewrite -[LHS]/(existT (vec E) (nu (nm x)) (step_u a x) :: _) i2.
- by rewrite -!addrA; congr (_ + _).
- by rewrite -[LHS]/(px (pt x) :: _) i4.
- by rewrite -[LHS]/(existT (vec E) (nu (nm x)) (pu (pt x)) :: _) i5.
Qed.
Lemma der_same (t t' : traj M) : derrel t t' ->
  [/\ all_x (run t') = all_x (run t), sum_nu (run t') = sum_nu (run t) &
      forall wX q, kk_dF wX 0 0 (run t') (trm t') q = kk_dF wX 0 0 (run t) (trm t) q].
Proof.
move=> [h [x [xt [me e]]]]; rewrite e.
have hl : List.length (run t') = List.length (run t) by elim: h => //= *; congr S.
split; first by rewrite /all_x hl.
- by elim: h => //= y z l l' [p [me' ->]] _ ->.
- move=> wX q; have gen a b : kk_dF wX a b (run t') (set_tme (set_txt (set_tx (trm t) x) xt) me) q = kk_dF wX a b (run t) (trm t) q; last exact: gen.
  elim: h a b q {e hl} => // y z l l' [p [me' ->]] hl' ih a b q; cbn [kk_dF]; rewrite -ih.
  have -> : hd_lam l' (set_tme (set_txt (set_tx (trm t) x) xt) me) = hd_lam l (trm t) by case: hl' => // ? ? ? ? [? [? ->]].
  by [].
Qed.

Lemma foldl_sum (l : seq node) (z : F) :
  List.fold_left (fun c n0 => radd E c (acost (nm n0) (mem n0))) l z = z + \sum_(nd <- l) (acost (nm nd) (mem nd) : F).
Proof. by elim: l z => [|a l ih] z /=; [rewrite big_nil addr0|rewrite ih big_cons addrA]. Qed.
Lemma stored_sum (t : traj M) : stored_cost t = \sum_(nd <- run t) (acost (nm nd) (mem nd) : F) + (tcost (tm (trm t)) (tme (trm t)) : F).
Proof. by rewrite /stored_cost foldl_sum add0r. Qed.

(** one trial *)
Definition trial (a : F) (s : kkts M) : traj M := mkTraj (List.map (@kk_try_node F sq M a) (run (kk_tr s))) (kk_try_tnode a (trm (kk_tr s))).
Lemma trial_xs a s : get_xst (trial a s) = step_xs a (kk_tr s) /\ get_ust (trial a s) = step_us a (kk_tr s).
Proof. by rewrite /get_xst /get_ust /step_xs /step_us /trial /= !List.map_map. Qed.
Lemma trial_rel a s : tryrel (kk_tr s) (trial a s).
Proof.
split; last by exists (step_tx a (trm (kk_tr s))), (tme (trm (kk_tr s))); rewrite /trial /=; case: (trm _).
by apply: f2_map => nd; exists (step_x a nd), (step_u a nd), (mem nd); case: nd => m [].
Qed.
Definition evalt (t : traj M) : traj M := mkTraj (List.map (@calc_try_node F sq M) (run t)) (calc_try_tnode (trm t)).
Lemma evalt_rel t : tryrel t (evalt t).
Proof.
split; last by exists (txt (trm t)), (tcalc (tm (trm t)) (txt (trm t))); rewrite /evalt /=; case: (trm _).
by apply: f2_map => nd; exists (pxt (pt nd)), (put (pt nd)), (acalc (nm nd) (pxt (pt nd)) (put (pt nd))); case: nd => m [].
Qed.
Lemma evalt_cost a s : stored_cost (evalt (trial a s)) = step_cost a (kk_tr s).
Proof. by rewrite stored_sum /step_cost /evalt /trial /= !big_map. Qed.
Lemma evalt_xs a s : get_xs (accept_try (evalt (trial a s))) = step_xs a (kk_tr s) /\ get_us (accept_try (evalt (trial a s))) = step_us a (kk_tr s).
Proof. by rewrite /get_xs /get_us /step_xs /step_us /evalt /trial /= !List.map_map. Qed.
Lemma accept_der t : derrel t (accept_try t).
Proof.
split; last by exists (txt (trm t)), (txt (trm t)), (tme (trm t)); rewrite /accept_try /=; case: (trm _).
apply: f2_map => nd; exists (mkPoint (pxt (pt nd)) (put (pt nd)) (pxt (pt nd)) (put (pt nd))), (mem nd).
by case: nd => m [].
Qed.
Lemma der_trans a b c : derrel a b -> derrel b c -> derrel a c.
Proof.
move=> [h1 ht1] [h2 ht2]; split; last by case: ht1 ht2 => x [xt [me ->]] [x' [xt' [me' ->]]]; exists x', xt', me'.
by apply: f2_trans h1 h2 => p q r [a1 [b1 ->]] [a2 [b2 ->]]; exists a2, b2.
Qed.
Lemma tryE a s : kk_tryStep bad a s =
  if bad (step_xs a (kk_tr s)) (step_us a (kk_tr s)) then (false, set_k_tr s (trial a s))
  else (true, mkKkts (evalt (trial a s)) (kk_K s) (kk_ref s) (kk_pd s) (kk_cost s) (step_cost a (kk_tr s)) (kk_feas s) (kk_wasfeas s)
       (kk_d0 s) (kk_d1 s) (kk_cost s - step_cost a (kk_tr s)) (kk_dVexp s) (kk_stop s) (kk_KKT s) (kk_iter s) (kk_step s) (kk_preg s)).
Proof.
rewrite /kk_tryStep -/(trial a s); have [-> ->] := trial_xs a s; case: (bad _ _) => //.
by rewrite -/(evalt (trial a s)) -evalt_cost.
Qed.

(** ** the line search *)
Definition pass (c : kcfg F) (t : traj M) (cost d0 d1 : F) (feas : bool) (a : F) : bool :=
  ~~ bad (step_xs a t) (step_us a t) &&
  [|| d0 < kc_grad c, ~~ feas | kc_accept c * (a * d0 + xlit F 1 2 * a * a * d1) < cost - step_cost a t].
Record kframe (s s' : kkts M) : Prop := mkKframe {
  kf_ref : kk_ref s' = kk_ref s; kf_kkt : kk_KKT s' = kk_KKT s; kf_iter : kk_iter s' = kk_iter s;
  kf_der : derrel (kk_tr s) (kk_tr s') }.
Definition sres (c : kcfg F) (al : seq F) (s s' : kkts M) : Prop :=
  kframe s s' /\
  ((exists pre a post, [/\ al = pre ++ a :: post, pass c (kk_tr s) (kk_cost s) (kk_d0 s) (kk_d1 s) (kk_feas s) a,
      forall a', List.In a' pre -> ~~ pass c (kk_tr s) (kk_cost s) (kk_d0 s) (kk_d1 s) (kk_feas s) a',
      kk_feas s' = true /\ kk_wasfeas s' = kk_feas s
    & get_xs (kk_tr s') = step_xs a (kk_tr s) /\ get_us (kk_tr s') = step_us a (kk_tr s)]) \/
   [/\ forall a', List.In a' al -> ~~ pass c (kk_tr s) (kk_cost s) (kk_d0 s) (kk_d1 s) (kk_feas s) a',
      kk_feas s' = kk_feas s /\ kk_wasfeas s' = kk_wasfeas s & tryrel (kk_tr s) (kk_tr s')]).
(** a rejected trial, then the rest *)
Lemma sres_cons c al a (s s1 s' : kkts M) :
  tryrel (kk_tr s) (kk_tr s1) -> [/\ kk_ref s1 = kk_ref s, kk_KKT s1 = kk_KKT s & kk_iter s1 = kk_iter s] ->
  [/\ kk_cost s1 = kk_cost s, kk_d0 s1 = kk_d0 s, kk_d1 s1 = kk_d1 s, kk_feas s1 = kk_feas s & kk_wasfeas s1 = kk_wasfeas s] ->
  ~~ pass c (kk_tr s) (kk_cost s) (kk_d0 s) (kk_d1 s) (kk_feas s) a ->
  sres c al s1 s' -> sres c (a :: al) s s'.
Proof.
move=> ht [e1 e2 e3] [f1 f2 f3 f4 f5] hn [[g1 g2 g3 g4] h].
have ep a' : pass c (kk_tr s1) (kk_cost s1) (kk_d0 s1) (kk_d1 s1) (kk_feas s1) a' = pass c (kk_tr s) (kk_cost s) (kk_d0 s) (kk_d1 s) (kk_feas s) a'.
  by rewrite /pass f1 f2 f3 f4; have [-> -> -> _ _] := step_try a' ht.
split; first by split; [rewrite g1|rewrite g2|rewrite g3|exact: der_trans (try_der ht) g4].
case: h => [[pre [b [post [h1 h2 h3 [h4 h4'] [h5 h6]]]]]|[h1 [h2 h3] h4]]; [left|right].
- exists (a :: pre), b, post; split; first by rewrite h1.
  + by rewrite -ep.
  + by move=> a' [<-|hi] //; rewrite -ep; exact: h3.
  + by rewrite h4' f4.
  + by have [i1 i2 _ _ _] := step_try b ht; rewrite h5 h6 i1 i2.
- split; last exact: tryrel_trans ht h4.
  + by move=> a' [<-|hi] //; rewrite -ep; exact: h1.
  + by rewrite h2 h3.
Qed.
Lemma searchP c al s : sres c al s (kk_search bad c al s).
Proof.
elim: al s => [|a al IH] s.
  split; first by split=> //; apply: try_der; exact: tryrel_refl.
  by right; split=> //; exact: tryrel_refl.
cbn [kk_search]; rewrite tryE.
rewrite -[kk_tr (set_k_step s a)]/(kk_tr s) -[kk_cost (set_k_step s a)]/(kk_cost s).
have et : trial a (set_k_step s a) = trial a s by [].
have r1 : tryrel (kk_tr s) (trial a s) := trial_rel a s.
have r2 : tryrel (kk_tr s) (evalt (trial a s)) := tryrel_trans r1 (evalt_rel _).
case hb: (bad _ _).
  apply: sres_cons (IH _); rewrite ?et //.
  by rewrite /pass hb.
cbn [kk_d0 kk_d1 kk_feas kk_dV set_k_dVexp]; rewrite et.
case: ifP => hp; last first.
  apply: sres_cons (IH _) => //.
  rewrite /pass hb /=; move: hp; cbn [kk_d0 kk_d1 kk_feas kk_dV set_k_dVexp set_k_step].
  by rewrite -orbA => ->.
split.
  by split=> //; apply: der_trans (try_der r2) _; exact: accept_der.
left; exists [::], a, al; split=> //.
- by rewrite /pass hb /=; move: hp; cbn [kk_d0 kk_d1 kk_feas kk_dV set_k_dVexp set_k_step]; rewrite -orbA.
- exact: evalt_xs.
Qed.
End R.
