(** * C25 for binary64: the residual norms of the dual update do not depend on the
    schedule, the partition or the order of the max-reductions, bit for bit. *)
From Coq Require Import ZArith List Bool Arith Permutation SpecFloat Lia ssreflect ssrbool.
From Verif Require Import Eigen EigenFloat Problem DDP Filter SQP CSQP OMP ParLoops.
Import ListNotations.
Set Implicit Arguments.
Unset Strict Implicit.
Set Asymmetric Patterns.
Local Open Scope Z_scope.

(** -infinity, +0, positive numbers, +infinity *)
Definition fok (x : f64) : Prop :=
  match x with S754_nan | S754_zero true | S754_finite true _ _ => False | _ => True end.
(** what a max-norm can be *)
Definition fnorm (x : f64) : Prop :=
  match x with S754_nan | S754_zero false | S754_finite false _ _ | S754_infinity false => True | _ => False end.
Notation fmx := (@estd_max FloatE).

Lemma fin_lt m1 e1 m2 e2 : SFltb (S754_finite false m1 e1) (S754_finite false m2 e2) = true <->
  e1 < e2 \/ (e1 = e2 /\ Z.pos m1 < Z.pos m2).
Proof.
  rewrite /SFltb /=. case: (Z.compare_spec e1 e2) => h; [|split => //; left; lia|split => //; lia].
  have -> : Pos.compare_cont Eq m1 m2 = Pos.compare m1 m2 by [].
  case: (Pos.compare_spec m1 m2) => h'; split => //; lia.
Qed.
Lemma fin_ltF m1 e1 m2 e2 : SFltb (S754_finite false m1 e1) (S754_finite false m2 e2) = false ->
  e2 < e1 \/ (e1 = e2 /\ Z.pos m2 <= Z.pos m1).
Proof.
  move=> h. have h' : ~ (e1 < e2 \/ (e1 = e2 /\ Z.pos m1 < Z.pos m2)) by move=> /fin_lt; rewrite h. lia.
Qed.
Lemma fin_eq m1 e1 m2 e2 : Z.pos m1 = Z.pos m2 -> e1 = e2 -> S754_finite false m1 e1 = S754_finite false m2 e2.
Proof. by move=> [->] ->. Qed.
Lemma fmx_ok x y : fok x -> fok y -> fok (fmx x y).
Proof. rewrite /estd_max. by case: (elt _ _ _). Qed.
Lemma fmxC x y : fok x -> fok y -> fmx x y = fmx y x.
Proof.
  rewrite /estd_max /=. case: x => [[]|[]||[] m e] //; case: y => [[]|[]||[] m' e'] // _ _.
  case h: (SFltb _ _); case h': (SFltb (S754_finite false m' e') _) => //.
  - move/fin_lt: h => h; move/fin_lt: h' => h'. apply: fin_eq; lia.
  - move/fin_ltF: h => h; move/fin_ltF: h' => h'. apply: fin_eq; lia.
Qed.
Lemma fmxA x y z : fok x -> fok y -> fok z -> fmx x (fmx y z) = fmx (fmx x y) z.
Proof.
  rewrite /estd_max /=. case: x => [[]|[]||[] m e] //; case: y => [[]|[]||[] m' e'] //; case: z => [[]|[]||[] m'' e''] // _ _ _;
  try (by case: (SFltb (S754_finite _ _ _) (S754_finite _ _ _))).
  case h1: (SFltb (S754_finite false m' e') (S754_finite false m'' e''));
  case h2: (SFltb (S754_finite false m e) (S754_finite false m' e')); rewrite ?h1 ?h2 //.
  - move/fin_lt: h1 => h1; move/fin_lt: h2 => h2.
    have -> : SFltb (S754_finite false m e) (S754_finite false m'' e'') = true by apply/fin_lt; lia. by [].
  - move/fin_ltF: h1 => h1; move/fin_ltF: h2 => h2.
    case h3: (SFltb _ _) => //. move/fin_lt: h3 => h3. lia.
Qed.
Lemma fmx0 x : fok x -> fmx fninf x = x.
Proof. by rewrite /estd_max /=; case: x => [[]|[]||[] m e]. Qed.
Lemma fmx_norm x a : fok x -> fnorm a -> fok (fmx x a).
Proof.
  move=> hx ha. case: a ha => [[]|[]||[] m e] // _; try exact: (fmx_ok hx).
  rewrite /estd_max /=. by case: x hx => [[]|[]||[] m e].
Qed.
Lemma fmx1 x a : fok x -> fnorm a -> fmx x a = fmx x (fmx fninf a).
Proof.
  move=> hx. case: a => [[]|[]||[] m e] // _; rewrite ?(@fmx0 _ I) //.
  rewrite /estd_max /=. by case: x hx => [[]|[]||[] m e].
Qed.
Lemma fmx2 x a b : fok x -> fnorm a -> fnorm b -> fmx (fmx x a) b = fmx x (fmx (fmx fninf a) b).
Proof.
  move=> hx ha hb. have h0 : fok fninf by [].
  have ka := fmx_norm h0 ha. have kb := fmx_norm h0 hb.
  transitivity (fmx (fmx x (fmx fninf a)) (fmx fninf b)).
  - rewrite (fmx1 hx ha). exact: fmx1 (fmx_ok hx ka) hb.
  - rewrite -(fmxA hx ka kb). by rewrite -(fmx1 ka hb).
Qed.
(** max-norms of binary64 vectors *)
Lemma flinf_norm n (v : fvec n) : fnorm (flinf v).
Proof.
  rewrite /flinf /fmaxc /freduce. case: n v => [|n] //= [a v] /=.
  have : fnorm (SFabs a) by case: a => [[]|[]||[] m e].
  move: (SFabs a) => b. elim: n b v => [|n IH] b //= [d v] hb /=. apply: IH.
  case: (SFltb _ _) => //. by case: d => [[]|[]||[] m e].
Qed.

Section Norms.
Variable M : manifold FloatE.
Variable c : ccfg FloatE.
Notation E := FloatE.
Definition nok (w : norms E) : Prop := fok (n_p w) /\ fok (n_d w) /\ fok (n_pr w) /\ fok (n_dr w).
Lemma nmax_ok v w : nok v -> nok w -> nok (norms_max v w).
Proof. move=> [? [? [? ?]]] [? [? [? ?]]]. by do 3 (split; first exact: fmx_ok); exact: fmx_ok. Qed.
Lemma nmaxA u v w : nok u -> nok v -> nok w -> norms_max u (norms_max v w) = norms_max (norms_max u v) w.
Proof. move=> [? [? [? ?]]] [? [? [? ?]]] [? [? [? ?]]]. by rewrite /norms_max /= !fmxA. Qed.
Lemma nmaxC v w : nok v -> nok w -> norms_max v w = norms_max w v.
Proof. move=> [a1 [a2 [a3 a4]]] [b1 [b2 [b3 b4]]]. by rewrite /norms_max (fmxC a1 b1) (fmxC a2 b2) (fmxC a3 b3) (fmxC a4 b4). Qed.
Lemma nmax0 w : nok w -> norms_max (norms_init E) w = w.
Proof. case: w => [a b d e] [/= h1 [h2 [h3 h4]]]. by rewrite /norms_max /= !fmx0. Qed.
Lemma init_nok : nok (norms_init E). Proof. by []. Qed.
Lemma norms_node_add heur w (n : node M) : nok w ->
  norms_node heur w n = norms_max w (norms_node heur (norms_init E) n) /\ nok (norms_node heur (norms_init E) n).
Proof.
  move=> hw. have [h1 [h2 [h3 h4]]] := hw. rewrite /norms_node.
  case: (_ =? _)%nat; first by rewrite nmaxC // nmax0.
  rewrite /norms_init. cbv zeta. cbn [n_p n_d n_pr n_dr].
  have h0 : fok fninf by [].
  have k1 : forall x n0 (a : vec E n0), fok x -> emax E x (vlinf E a) = fmx x (emax E (eninf E) (vlinf E a))
    by move=> x n0 a hx; apply: fmx1 hx (flinf_norm a).
  have k2 : forall x n0 n1 (a : vec E n0) (b : vec E n1), fok x ->
     emax E (emax E x (vlinf E a)) (vlinf E b) = fmx x (emax E (emax E (eninf E) (vlinf E a)) (vlinf E b))
    by move=> x n0 n1 a b hx; apply: fmx2 hx (flinf_norm a) (flinf_norm b).
  have k3 : forall x n0 (a : vec E n0), fok x -> fok (emax E x (vlinf E a)) by move=> x n0 a hx; apply: fmx_norm hx (flinf_norm a).
  case: heur; split; rewrite /norms_max /nok; cbn [n_p n_d n_pr n_dr].
  - apply: f_equal4; [exact: k1|exact: k1|exact: k2|exact: k1].
  - do 3 (split; first by repeat apply k3; exact h0). by repeat apply k3; exact h0.
  - apply: f_equal4; [exact: k1|exact: k2|exact: k2|exact: k2].
  - do 3 (split; first by repeat apply k3; exact h0). by repeat apply k3; exact h0.
Qed.
(** Every execution of the parallel loop of update_lagrangian_parameters in binary64
    leaves the nodes and the norms of the sequential loop, NaNs in the data or not. *)
Theorem C25_dual_update_any_schedule_binary64 b (l l' : list (node M)) w : lag_par c b l l' w ->
  l' = map (admm_node c) l /\
  w = if b then fold_left (norms_node (cc_heur c)) l' (norms_init E) else norms_init E.
Proof.
  move=> h. have el := lag_par_nodes h. split => //.
  case: h => [m [chunks [m' [ths [h1 h2 h3 h4 [_ h5]]]]]].
  pose g (t : nat) (s : pslot M) := if b then norms_node (cc_heur c) (norms_init E) (admm_node c (sn s)) else norms_init E.
  have Pg t s : nok (g t s) by rewrite /g; case: (b) => //; exact: (proj2 (norms_node_add _ _ init_nok)).
  have adds t s a a' : nok a -> iter (lag_body M c b t) s a = Some a' -> a' = norms_max a (g t s).
  { move=> ha. rewrite lag_iter /g => - [<-]. case: (b); last by rewrite nmaxC // nmax0.
    by case: (norms_node_add (cc_heur c) (admm_node c (sn s)) ha). }
  rewrite (omp_reduce h2 nmax_ok nmaxA nmaxC init_nok nmax0 Pg adds h3 h4 h5) el -h1 /contribs_from.
  have gen i a : nok a -> fold_left (@norms_max E) (map (fun p => g (fst p) (snd p)) (combine (seq i (length m)) m)) a
    = if b then fold_left (norms_node (cc_heur c)) (map (admm_node c) (map (@sn E M) m)) a else a.
  { elim: m i a {h1 h2 h3 h5} => [|s m IH] i a ha /=; first by case: (b).
    rewrite IH; first by apply: nmax_ok.
    rewrite /g. case: (b); last by rewrite nmaxC // nmax0.
    by have [<- _] := norms_node_add (cc_heur c) (admm_node c (sn s)) ha. }
  by rewrite gen.
Qed.
End Norms.
Print Assumptions C25_dual_update_any_schedule_binary64.
