(** * C55, C46: what a SolverFDDP step does to the dynamics gaps (exact arithmetic). *)
From Coq Require Import Ring Field ZArith PeanoNat List.
Set Warnings "-notation-overridden,-ambiguous-paths".
From mathcomp Require Import all_ssreflect all_algebra.
From Verif Require Import FieldTac Eigen EigenExact ExactLemmas Problem DDP SQP RollSpec FDDPSpec Models.

Set Implicit Arguments.
Unset Strict Implicit.
Unset Printing Implicit Defensive.

Import Order.TTheory GRing.Theory Num.Theory.
Local Open Scope ring_scope.

Section P.
Variable F : realFieldType.
Variable sq : F -> F.
Notation E := (ExactE sq).
Variable M : manifold E.
Notation n := (mndx M).
Notation node := (node M).
Notation tnode := (tnode M).

(** the dynamics defects of a trajectory (xs, us) with initial state [x0]:
    x0 - xs_0, then f(xs_t, us_t) - xs_(t+1); one per state *)
Inductive defects : list (amodel M) -> mX M -> list {k : nat & vec E k} -> list (mX M) -> list 'cV[F]_n -> Prop :=
  | defects_end xin x : defects nil xin nil (x :: nil) (diff M x xin :: nil)
  | defects_step m ms xin x (u : vec E (nu m)) us xs ds (e : amem m) :
      (e = acalc m x u \/ (nu m =? 0)%nat = true /\ e = acalc0 m x) ->
      defects ms (axnext m e) us xs ds ->
      defects (m :: ms) xin (existT (vec E) (nu m) u :: us) (x :: xs) (diff M x xin :: ds).

(** a retraction whose inverse is [diff]; true of vector spaces
    (euclid_retraction); on a Lie group it holds for tangents within the injectivity radius *)
Definition retraction : Prop :=
  (forall x, diff M x x = vzero E) /\ (forall x v, diff M (integrate M x v) x = - v :> 'cV[F]_n).

(** gaps stored in a trajectory *)
Definition gaps (t : traj M) : list 'cV[F]_n := List.map (@fs E M) (run t) ++ tfs (trm t) :: nil.

Lemma linearised_defects feas l (tn : tnode) : feas = false -> forall xin acc cost,
  linearised feas xin acc l tn cost ->
  defects (List.map (@nm E M) l) xin (List.map (fun k => existT (vec E) (nu (nm k)) (pu (pt k))) l)
    (List.map (fun k => px (pt k)) l ++ tx tn :: nil) (List.map (@fs E M) l ++ tfs tn :: nil).
Proof.
move=> ->; elim: l => [|k l ih] xin acc cost /=.
  by case=> -> _; exact: defects_end.
case=> -> [e [he [_ h]]]. apply: (@defects_step _ _ xin _ _ _ _ _ e); first exact: he.
exact: ih h.
Qed.

Hypothesis hM : retraction.
Lemma shoot_defects full a l f xin acc g us xs cost dist :
  @shoot E M full a l f xin acc g us xs cost dist ->
  defects (List.map (@nm E M) l) xin us xs
    (List.map (fun v : 'cV[F]_n => if full then 0 else (1 - a) *: v) (List.map (@fs E M) l ++ f :: nil)).
Proof.
have arr xi v : diff M (arrive full a xi v) xi = (if full then 0 else (1 - a) *: v) :> 'cV[F]_n.
  case: hM => h1 h2. rewrite /arrive; case: full; first exact: h1.
  by rewrite h2 /= -scaleNr opprB.
elim=> [f' xi acc' g'|k l' f' xi acc' g' u us' xs' cost' dist' _ ih] /=.
  rewrite -(arr xi); exact: defects_end.
rewrite -(arr xi). apply: defects_step ih. rewrite /aeval.
by case: (nu (nm k) =? 0)%nat; [right|left].
Qed.

(** C55: an accepted step of SolverFDDP with step length a multiplies every dynamics gap by
    exactly 1 - a; a full step (a = 1, or from a candidate marked feasible) closes all of
    them. *)
Theorem C55_fddp_step_contracts_gaps ms tmod x0 dc filter fsize neg (r : faccepted M) :
  faccepted_ok ms tmod x0 dc filter fsize neg r ->
  defects ms x0 (get_us (fa_to r)) (get_xs (fa_to r))
    (List.map (fun v : 'cV[F]_n => if fa_full r then 0 else (1 - fa_step r) *: v) (gaps (fa_from r))) /\
  (fa_feas r = false -> defects ms x0 (get_us (fa_from r)) (get_xs (fa_from r)) (gaps (fa_from r))).
Proof.
move=> [_ _ hl _ _ [e [cr [hs _]]] _]. rewrite -e. split; first exact: shoot_defects hs.
move=> hf. exact: linearised_defects hf _ _ _ hl.
Qed.
End P.

(** vector spaces satisfy the hypothesis *)
Lemma euclid_retraction (F : realFieldType) (sq : F -> F) k : retraction (euclid (ExactE sq) k).
Proof.
split=> [x|x v] /=; first by rewrite /vsub /= subrr.
by rewrite /= opprD addrA subrr add0r.
Qed.
Print Assumptions C55_fddp_step_contracts_gaps.
