(** * C62: in exact arithmetic the rows a call of solve settles are those with ordered bounds. *)
From Coq Require Import Ring Field ZArith PeanoNat List.
Set Warnings "-notation-overridden,-ambiguous-paths".
From mathcomp Require Import all_ssreflect all_algebra.
From Verif Require Import Eigen EigenExact ExactLemmas Problem DDP SQP CSQP PassExact ADMMSpec CIndep.
Set Implicit Arguments.
Unset Strict Implicit.
Unset Printing Implicit Defensive.
Import GRing.Theory Num.Theory Order.TTheory.
Local Open Scope ring_scope.

Section Settled.
Variable F : realFieldType.
Variable sq : F -> F.
Notation E := (ExactE sq).
Variable c : ccfg E.
Notation lit6 := (rlit E 1 1000000 : F).
(** a row whose bounds are not crossed by more than 1e-6 *)
Definition nearly_ordered (lo hi : option F) : Prop :=
  match lo, hi with Some a, Some b => a <= b + lit6 | _, _ => True end.

Lemma row_written (rho : F) lo hi : rho_row c rho lo hi <> None <-> nearly_ordered lo hi.
Proof.
case: lo => [a|]; case: hi => [b|] //=.
have h6 : 0 < lit6 :> F by exact: xlit_gt0.
move: h6; rewrite /=; move: (xlit F 1 1000000) => e h6; rewrite ler_norml.
case: (boolP (_ && _)) => [/andP[_ h]|]; first by split => // _; rewrite -ler_subl_addl.
rewrite negb_and -!ltNge; case: ifP => hab.
  by split => // _; apply: le_trans (ltW hab) _; rewrite ler_addl ltW.
move/negbT: hab; rewrite -leNgt => hab /orP[h|h]; split => // h'.
  by move: h; rewrite ltNge (le_trans _ (_ : 0 <= a - b)) ?subr_ge0 // oppr_le0 ltW.
by move: h; rewrite ltNge ler_subl_addl h'.
Qed.
(** CIndep.settled, row by row *)
Theorem C62_settled_rows k (lb ub : 'cV[option F]_k) :
  settled (E := E) c (lb : bvec E k) (ub : bvec E k) <-> forall i, nearly_ordered (lb i 0) (ub i 0).
Proof.
split=> [h i|h rho a b a' b'].
  have /(f_equal fst)/matrixP/(_ i 0) := h 0 (const_mx 0) (const_mx 0) (const_mx 1) (const_mx 1).
  rewrite /rho_rows /= !mxE; case e: (rho_row _ _ _ _) => [p|] // h01.
    by apply/(row_written 0); rewrite e.
  by have := @oner_neq0 F; rewrite -h01 eqxx.
rewrite /rho_rows /=; congr pair; apply/matrixP => i j; rewrite !ord1 !mxE.
  by have /(row_written rho) := h i; case: (rho_row _ _ _ _).
by have /(row_written rho) := h i; case: (rho_row _ _ _ _).
Qed.
(** in particular every row with lower bound at most upper bound *)
Corollary C62_ordered_rows_settled k (lb ub : 'cV[option F]_k) :
  (forall i, ordered (lb i 0) (ub i 0)) -> settled (E := E) c (lb : bvec E k) (ub : bvec E k).
Proof.
move=> h; apply/C62_settled_rows => i; have := h i.
case: (lb i 0) => [a|]; case: (ub i 0) => [b|] //= hab; apply: le_trans hab _.
by rewrite ler_addl; exact: ltW (xlit_gt0 _ _ _).
Qed.
End Settled.
Print Assumptions C62_settled_rows.
