(** * C16: when the regularisation retry loop of solve comes to an end. *)
From Coq Require Import Ring Field ZArith PeanoNat.
Set Warnings "-notation-overridden,-ambiguous-paths".
From mathcomp Require Import all_ssreflect all_algebra.
From Verif Require Import FieldTac Eigen EigenExact ExactLemmas Problem DDP Filter SQP CSQP Init
  Models TraceSpec Retry.
Set Implicit Arguments.
Unset Strict Implicit.
Unset Printing Implicit Defensive.
Import Order.TTheory GRing.Theory Num.Theory.
Local Open Scope ring_scope.

Section Exact.
Variable F : archiFieldType.
Variable sq : F -> F.
Notation E := (ExactE sq).

(** parameters: growth factor > 1 (enforced by the setter), positive bounds *)
Definition growing_reg (c : cfg E) : Prop :=
  1 < (c_inc c : F) /\ 0 < (c_rmin c : F) /\ 0 < (c_rmax c : F).

Lemma inc_regE (c : cfg E) (p : F) :
  inc_reg c p = if (c_rmax c : F) < p * c_inc c then (c_rmax c : F) else p * c_inc c.
Proof. by []. Qed.
Lemma dec_regE (c : cfg E) (p : F) :
  dec_reg c p = if p / c_dec c < (c_rmin c : F) then (c_rmin c : F) else p / c_dec c.
Proof. by []. Qed.

(** a positive lower bound of all regularisation values of a solve *)
Lemma above_closed (c : cfg E) (m : F) : growing_reg c -> 0 < m -> m <= (c_rmin c : F) -> m <= (c_rmax c : F) ->
  reg_closed c (fun p : R E => m <= (p : F)).
Proof.
move=> [hi [h0 h1]] m0 m1 m2 p hp; split; last by rewrite dec_regE; case: ltP => // h; exact: le_trans m1 h.
rewrite inc_regE; case: ltP => // _; apply: (le_trans (hp)); rewrite -[X in (X <= _)%R]mulr1.
apply: ler_wpmul2l (ltW hi); exact: le_trans (ltW m0) hp.
Qed.

Lemma bernoulli (x : F) k : 0 <= x -> 1 + x *+ k <= (1 + x) ^+ k.
Proof.
move=> x0; elim: k => [|k IH]; first by rewrite mulr0n addr0 expr0.
rewrite exprS; apply: (@le_trans _ _ ((1 + x) * (1 + x *+ k))); last first.
  by apply: ler_wpmul2l IH; rewrite addr_ge0 // ler01.
rewrite mulrDl mul1r mulrDr mulr1 mulrSr -!addrA !ler_add2l ler_addl.
by apply: mulr_ge0 => //; apply: mulrn_wge0.
Qed.
Lemma powers_unbounded (q m b : F) : 1 < q -> 0 < m -> exists k, b < m * q ^+ k.
Proof.
move=> hq hm; have d0 : 0 < q - 1 by rewrite subr_gt0.
pose k := Num.bound `|b / (m * (q - 1))|.
have h : b / (m * (q - 1)) < k%:R.
  by apply: le_lt_trans (ler_norm _) (archi_boundP (normr_ge0 _)).
exists k; have md0 : 0 < m * (q - 1) by apply: mulr_gt0.
apply: (@lt_le_trans _ _ (m * (1 + (q - 1) *+ k))); last first.
  apply: ler_wpmul2l (ltW hm) _ _ _.
  by have := bernoulli k (ltW d0); rewrite [1 + (q - 1)]addrC subrK.
move: h; rewrite ltr_pdivr_mulr // => h; apply: lt_le_trans h _.
by rewrite mulr_natl mulrDr mulr1 mulrnAr ler_addr ltW.
Qed.

(** after [k] increases the value is reg_max, unless [k] factors still fit below *)
Lemma raised_max (c : cfg E) k (p : F) : growing_reg c -> 0 < p ->
  (exists2 j, (0 < j <= k)%N & raised c j p = (c_rmax c : F)) \/ raised c k p = p * c_inc c ^+ k.
Proof.
move=> [hi [h0 h1]] p0; elim: k => [|k [[j hj ej]|IH]].
- by right; rewrite mulr1.
- by left; exists j => //; case/andP: hj => -> /leqW ->.
- rewrite -[raised c k.+1 p]/(inc_reg c (raised c k p)) IH inc_regE.
  case: ltP => h; last by right; rewrite exprSr mulrA.
  left; exists k.+1; rewrite ?leqnn //.
  by rewrite /raised /= -/(raised c k p) IH inc_regE h.
Qed.
Lemma retries_bound (c : cfg E) (m : F) : growing_reg c -> 0 < m ->
  exists N, forall p : F, m <= p -> exists2 j, (j < N)%N & raised c j.+1 p = (c_rmax c : F).
Proof.
move=> hc m0; have [hi [h0 h1]] := hc.
have [N hN] := powers_unbounded (c_rmax c : F) hi m0.
exists N.+1 => p hp; have p0 := lt_le_trans m0 hp.
case: (raised_max N.+1 hc p0) => [[[|j] //= hj ej]|e]; first by exists j.
exists N => //; rewrite -[raised c N.+1 p]/(inc_reg c (raised c N p)).
case: (raised_max N hc p0) => [[j hj ej]|eN].
  exfalso; have : raised c N.+1 p <= (c_rmax c : F).
    by rewrite -[raised c N.+1 p]/(inc_reg c (raised c N p)) inc_regE; case: ltP.
  rewrite e exprSr mulrA => h.
  have h2 : (c_rmax c : F) < p * (c_inc c : F) ^+ N.
    by apply: lt_le_trans hN _; apply: ler_wpmul2r hp; apply: exprn_ge0; apply: ltW; apply: lt_trans hi; exact: ltr01.
  have h3 : p * (c_inc c : F) ^+ N < p * (c_inc c : F) ^+ N * c_inc c.
    by rewrite -[X in (X < _)%R]mulr1 ltr_pmul2l //; apply: lt_trans h1 h2.
  by move: (lt_trans h2 h3); rewrite ltNge h.
rewrite eN inc_regE; case: ltP => // h; exfalso.
have h2 : (c_rmax c : F) < p * (c_inc c : F) ^+ N.
  by apply: lt_le_trans hN _; apply: ler_wpmul2r hp; apply: exprn_ge0; apply: ltW; apply: lt_trans hi; exact: ltr01.
have h3 : p * (c_inc c : F) ^+ N < p * (c_inc c : F) ^+ N * c_inc c.
  by rewrite -[X in (X < _)%R]mulr1 ltr_pmul2l //; apply: lt_trans h1 h2.
by move: (lt_trans h2 h3); rewrite ltNge h.
Qed.

Definition min3 (a b c : F) : F := Num.min a (Num.min b c).
Lemma min3_gt0 a b c : 0 < a -> 0 < b -> 0 < c -> 0 < min3 a b c.
Proof. by move=> h1 h2 h3; rewrite /min3 !lt_minr h1 h2 h3. Qed.
Lemma min3_le a b c : [/\ min3 a b c <= a, min3 a b c <= b & min3 a b c <= c].
Proof. by rewrite /min3; split; rewrite ?le_minl ?lexx ?orbT. Qed.

(** the hypothesis is met, e.g. by factor 2, reg_min 1, reg_max 3 *)
Example C16_parameters_met : growing_reg (@mkCfg E (1 + 1 : F) (1 + 1 : F) (1 : F) (1 + 1 + 1 : F) nil 0 0 0 0 0 0).
Proof. by split; [|split]; rewrite /= ?ltr_addl ?addr_gt0 // ltr01. Qed.

Variable M : manifold E.

(** C16 (SolverSQP).  With a positive initial regularisation, reg_min, reg_max and a
    growth factor above one, there is a number of retries, depending on these
    parameters only, that no iteration of any solve exceeds: for every problem,
    history, guess and maxiter the retry loop ends. *)
Theorem C16_sqp_retries_bounded (d : cfg E) (reg : option F) :
  growing_reg d -> 0 < (init_reg d reg : F) ->
  exists N, forall fuel, (N <= fuel)%N ->
    forall x0 (c : scfg E), sc_ddp c = d -> forall xs us maxiter (s : sqp M),
      sqp_solve x0 c fuel xs us maxiter reg s <> NoFuel.
Proof.
move=> hd p0; have [hi [h0 h1]] := hd; set m := min3 (init_reg d reg) (c_rmin d) (c_rmax d).
have m0 : 0 < m by exact: min3_gt0.
have [N hN] := retries_bound hd m0.
have [m1 m2 m3] := min3_le (init_reg d reg) (c_rmin d) (c_rmax d).
exists N => fuel hf x0 c ec xs us k s; move: hd m0 m1 m2 m3 hN; rewrite {}/m -ec => hd m0 m1 m2 m3 hN.
apply: (sqp_solve_fuel (above_closed hd m0 m2 m3)) => // s1 h1'.
have [j hj ej] := hN _ h1'; apply: (@sqp_retry_bound _ _ x0 c j) => //.
  by apply/ssrnat.ltP; apply: leq_trans hj hf.
by rewrite -[req _ _ _]/((raised (sc_ddp c) j.+1 (q_preg s1) : F) == (c_rmax (sc_ddp c) : F)) ej eqxx.
Qed.
(** C16 (SolverCSQP), whatever the clock does *)
Theorem C16_csqp_retries_bounded (d : cfg E) (reg : option F) :
  growing_reg d -> 0 < (init_reg d reg : F) ->
  exists N, forall fuel, (N <= fuel)%N ->
    forall x0 (c : ccfg E) timeout, cc_ddp c = d -> cc_removereg c = false ->
    forall xs us maxiter (s : csqp M),
      csqp_solve c timeout x0 fuel xs us maxiter reg s <> NoFuel.
Proof.
move=> hd p0; have [hi [h0 h1]] := hd; set m := min3 (init_reg d reg) (c_rmin d) (c_rmax d).
have m0 : 0 < m by exact: min3_gt0.
have [N hN] := retries_bound hd m0.
have [m1 m2 m3] := min3_le (init_reg d reg) (c_rmin d) (c_rmax d).
exists N => fuel hf x0 c to ec er xs us k s; move: hd m0 m1 m2 m3 hN; rewrite {}/m -ec => hd m0 m1 m2 m3 hN.
apply: (csqp_solve_fuel (above_closed hd m0 m2 m3)); last by rewrite er.
move=> w s1 h1'; have [j hj ej] := hN _ h1'; apply: (@csqp_retry_bound _ _ c to j) => //.
  by apply/ssrnat.ltP; apply: leq_trans hj hf.
by rewrite -[rge _ _]/((c_rmax (cc_ddp c) : F) <= raised (cc_ddp c) j.+1 (k_preg s1)) ej lexx.
Qed.
(** without regularisation (remove_reg) nothing is ever retried *)
Theorem C16_csqp_no_retry_without_regularisation fuel x0 (c : ccfg E) timeout xs us maxiter reg (s : csqp M) :
  cc_removereg c = true -> csqp_solve c timeout x0 fuel xs us maxiter reg s <> NoFuel.
Proof.
move=> er.
have hb (s1 : csqp M) : csqp_body c timeout fuel s1 <> CB BNoFuel.
  rewrite /csqp_body; cbv zeta; case: (fst (tick _ _)) => //; move: (if _ && _ then _ else _) => s2.
  rewrite /csqp_direction er; case: (csqp_computeDirection c timeout s2) => // s3.
  case: (Nat.eqb _ _) => //; move: (csqp_check c s3) => s4; case: (rle _ _) => //.
  by case: (csqp_line_search c _ _) => // a s5; rewrite /csqp_after er.
have hf (s1 : csqp M) : csqp_final c timeout fuel s1 <> NoFuel.
  rewrite /csqp_final; case: (_ && _) => //; rewrite /csqp_direction er.
  by case: (csqp_computeDirection c timeout _).
rewrite /csqp_solve; case: (set_guess _ _ _) => // tr; cbv zeta; move: (set_k_iter _ _) => s1.
elim: maxiter s1 => [|k IH] s1; cbn [csqp_loop]; first exact: hf.
by have := hb s1; case: (csqp_body c timeout fuel s1) => // -[].
Qed.
End Exact.

Print Assumptions C16_sqp_retries_bounded.
Print Assumptions C16_csqp_retries_bounded.
Print Assumptions C16_csqp_no_retry_without_regularisation.
