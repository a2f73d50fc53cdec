(** * Facts about the exact interpretation: quadratic forms, the Cholesky
    contract, norms. *)
From Coq Require Import ZArith Ring Field.
Set Warnings "-notation-overridden,-ambiguous-paths".
From mathcomp Require Import all_ssreflect all_algebra.
From Verif Require Import FieldTac Eigen EigenExact.

Set Implicit Arguments.
Unset Strict Implicit.
Unset Printing Implicit Defensive.

Import Order.TTheory GRing.Theory Num.Theory.
Local Open Scope ring_scope.

Section QF.
Variable F : realFieldType.
Add Field Ff : (F_field_theory F).
Implicit Types (m n p : nat).

Definition qf n (A : 'M[F]_n) (x : 'cV[F]_n) : F := (x^T *m A *m x) 0 0.
Definition bf n (x y : 'cV[F]_n) : F := (x^T *m y) 0 0.
Definition sym n (A : 'M[F]_n) : Prop := A^T = A.
Definition posdef n (A : 'M[F]_n) : Prop := forall x : 'cV[F]_n, x != 0 -> 0 < qf A x.
Definition possemidef n (A : 'M[F]_n) : Prop := forall x : 'cV[F]_n, 0 <= qf A x.

Lemma mx11E (A : 'M[F]_1) : A = (A 0 0)%:M.
Proof. exact: mx11_scalar. Qed.

Lemma tr11 (A : 'M[F]_1) : A^T = A.
Proof. by rewrite [A]mx11E tr_scalar_mx. Qed.

Lemma tr11E (A : 'M[F]_1) : A^T 0 0 = A 0 0.
Proof. by rewrite mxE. Qed.

Lemma add11 (A B : 'M[F]_1) : (A + B) 0 0 = A 0 0 + B 0 0.
Proof. by rewrite mxE. Qed.
Lemma scale11 c (A : 'M[F]_1) : (c *: A) 0 0 = c * A 0 0.
Proof. by rewrite mxE. Qed.
Lemma scal11 (c : F) : (c%:M : 'M[F]_1) 0 0 = c.
Proof. by rewrite mxE eqxx mulr1n. Qed.

Lemma bfC n (x y : 'cV[F]_n) : bf x y = bf y x.
Proof. by rewrite /bf -tr11E trmx_mul trmxK. Qed.

Lemma bfDr n (x y z : 'cV[F]_n) : bf x (y + z) = bf x y + bf x z.
Proof. by rewrite /bf mulmxDr mxE. Qed.
Lemma bfDl n (x y z : 'cV[F]_n) : bf (x + y) z = bf x z + bf y z.
Proof. by rewrite bfC bfDr !(bfC z). Qed.
Lemma bfNr n (x y : 'cV[F]_n) : bf x (- y) = - bf x y.
Proof. by rewrite /bf mulmxN mxE. Qed.
Lemma bfNl n (x y : 'cV[F]_n) : bf (- x) y = - bf x y.
Proof. by rewrite bfC bfNr bfC. Qed.
Lemma bfBr n (x y z : 'cV[F]_n) : bf x (y - z) = bf x y - bf x z.
Proof. by rewrite bfDr bfNr. Qed.
Lemma bfBl n (x y z : 'cV[F]_n) : bf (x - y) z = bf x z - bf y z.
Proof. by rewrite bfDl bfNl. Qed.
Lemma bfZr n a (x y : 'cV[F]_n) : bf x (a *: y) = a * bf x y.
Proof. by rewrite /bf -scalemxAr mxE. Qed.
Lemma bfZl n a (x y : 'cV[F]_n) : bf (a *: x) y = a * bf x y.
Proof. by rewrite bfC bfZr bfC. Qed.
Lemma bf0r n (x : 'cV[F]_n) : bf x 0 = 0.
Proof. by rewrite /bf mulmx0 mxE. Qed.
Lemma bf0l n (x : 'cV[F]_n) : bf 0 x = 0.
Proof. by rewrite bfC bf0r. Qed.
Lemma bfM n p (A : 'M[F]_(n, p)) x y : bf x (A *m y) = bf (A^T *m x) y.
Proof. by rewrite /bf trmx_mul trmxK mulmxA. Qed.
Lemma bfMl n p (A : 'M[F]_(n, p)) x y : bf (A *m x) y = bf x (A^T *m y).
Proof. by rewrite bfM trmxK. Qed.

Lemma bfE n (x y : 'cV[F]_n) : bf x y = \sum_i x i 0 * y i 0.
Proof. by rewrite /bf mxE; apply: eq_bigr => i _; rewrite mxE. Qed.

Lemma qfE n (A : 'M[F]_n) x : qf A x = bf x (A *m x).
Proof. by rewrite /qf /bf mulmxA. Qed.

Lemma bf_ge0 n (x : 'cV[F]_n) : 0 <= bf x x.
Proof. by rewrite bfE; apply: sumr_ge0 => i _; rewrite -expr2 sqr_ge0. Qed.

Lemma bf_gt0 n (x : 'cV[F]_n) : x != 0 -> 0 < bf x x.
Proof.
move=> xn0; rewrite lt_neqAle bf_ge0 andbT eq_sym; apply: contra xn0 => /eqP H.
apply/eqP/matrixP => i j; rewrite ord1 mxE.
have := H; rewrite bfE => /eqP; rewrite psumr_eq0; last by move=> k _; rewrite -expr2 sqr_ge0.
by move/allP => /(_ i); rewrite mem_index_enum => /(_ isT) /=; rewrite mulf_eq0 orbb => /eqP.
Qed.

Lemma qfD n (A B : 'M[F]_n) x : qf (A + B) x = qf A x + qf B x.
Proof. by rewrite !qfE mulmxDl bfDr. Qed.
Lemma qfN n (A : 'M[F]_n) x : qf (- A) x = - qf A x.
Proof. by rewrite !qfE mulNmx bfNr. Qed.
Lemma qf_scalar n (c : F) (x : 'cV[F]_n) : qf c%:M x = c * bf x x.
Proof. by rewrite qfE mul_scalar_mx bfZr. Qed.
Lemma qf0r n (A : 'M[F]_n) : qf A 0 = 0.
Proof. by rewrite qfE bf0l. Qed.
Lemma qf_congr n p (A : 'M[F]_n) (B : 'M[F]_(n, p)) x : qf (B^T *m A *m B) x = qf A (B *m x).
Proof. by rewrite !qfE -!mulmxA bfM trmxK. Qed.
Lemma qfT n (A : 'M[F]_n) x : qf A^T x = qf A x.
Proof. by rewrite !qfE bfM trmxK bfC. Qed.
Lemma qf_addv n (A : 'M[F]_n) x y : sym A -> qf A (x + y) = qf A x + 2%:R * bf x (A *m y) + qf A y.
Proof.
move=> sA; rewrite !qfE mulmxDr bfDl !bfDr (bfM A y x) sA (bfC (A *m y) x).
by rewrite mulr_natl mulr2n !addrA.
Qed.
Lemma qfZv n (A : 'M[F]_n) c x : qf A (c *: x) = c ^+ 2 * qf A x.
Proof. by rewrite !qfE -scalemxAr bfZr bfZl mulrA expr2. Qed.
Lemma qfNv n (A : 'M[F]_n) x : qf A (- x) = qf A x.
Proof. by rewrite -scaleN1r qfZv sqrrN expr1n mul1r. Qed.

Lemma posdef_psd n (A : 'M[F]_n) : posdef A -> possemidef A.
Proof.
by move=> pA x; have [->|xn0] := eqVneq x 0; [rewrite qf0r | apply/ltW/pA].
Qed.
Lemma posdefD n (A B : 'M[F]_n) : posdef A -> possemidef B -> posdef (A + B).
Proof. by move=> pA pB x xn0; rewrite qfD ltr_paddr // pA. Qed.
Lemma psdD n (A B : 'M[F]_n) : possemidef A -> possemidef B -> possemidef (A + B).
Proof. by move=> pA pB x; rewrite qfD addr_ge0. Qed.
Lemma psd_scalar n (c : F) : 0 <= c -> @possemidef n c%:M.
Proof. by move=> c0 x; rewrite qf_scalar mulr_ge0 // bf_ge0. Qed.
Lemma posdef_scalar n (c : F) : 0 < c -> @posdef n c%:M.
Proof. by move=> c0 x xn0; rewrite qf_scalar mulr_gt0 // bf_gt0. Qed.
Lemma psd_congr n p (A : 'M[F]_n) (B : 'M[F]_(n, p)) : possemidef A -> possemidef (B^T *m A *m B).
Proof. by move=> pA x; rewrite qf_congr. Qed.
Lemma sym_congr n p (A : 'M[F]_n) (B : 'M[F]_(n, p)) : sym A -> sym (B^T *m A *m B).
Proof. by move=> sA; rewrite /sym !trmx_mul trmxK sA mulmxA. Qed.
Lemma symD n (A B : 'M[F]_n) : sym A -> sym B -> sym (A + B).
Proof. by move=> sA sB; rewrite /sym linearD /= sA sB. Qed.
Lemma sym_scalar n (c : F) : @sym n c%:M.
Proof. by rewrite /sym tr_scalar_mx. Qed.

Lemma posdef_unit n (A : 'M[F]_n) : posdef A -> A \in unitmx.
Proof.
move=> pA; rewrite -row_free_unit -kermx_eq0; apply/eqP.
apply/row_matrixP => i; rewrite row0; apply/eqP; apply: contraT => rn0.
have H : row i (kermx A) *m A = 0 by apply/eqP; rewrite -sub_kermx row_sub.
have : 0 < qf A (row i (kermx A))^T.
  by apply: pA; rewrite -(inj_eq (can_inj (@trmxK _ _ _))) trmxK trmx0.
by rewrite /qf trmxK H mul0mx mxE ltxx.
Qed.

(** ** Cholesky *)
Section Block.
Variable n : nat.
Variable A : 'M[F]_(1 + n).
Hypothesis sA : sym A.
Let a := A 0 0.
Let v := dlsubmx A.

Lemma ul_eq : ulsubmx A = a%:M.
Proof.
rewrite [ulsubmx A]mx11E; congr (_%:M); rewrite !mxE /a; congr (A _ _); exact: val_inj.
Qed.
Lemma ur_eq : ursubmx A = v^T.
Proof. by rewrite /v trmx_dlsub sA. Qed.
Lemma dr_sym : sym (drsubmx A).
Proof. by rewrite /sym trmx_drsub sA. Qed.
Lemma schur_sym : sym (schur A).
Proof.
rewrite /schur -/a -/v /sym linearB /= linearZ /= trmx_mul trmxK.
by rewrite dr_sym.
Qed.

Lemma blockE : A = block_mx a%:M v^T v (drsubmx A).
Proof. by rewrite -ul_eq -ur_eq /v submxK. Qed.

Lemma qf_block (c : F) (y : 'cV[F]_n) : a != 0 ->
  qf A (col_mx c%:M y) = a * (c + a^-1 * bf v y) ^+ 2 + qf (schur A) y.
Proof.
move=> an0.
rewrite {1}blockE /qf -mulmxA.
rewrite mul_block_col tr_col_mx mul_row_col tr_scalar_mx.
rewrite !mul_scalar_mx mulmxDr scale_scalar_mx.
rewrite !add11 scale11 add11 scal11 -/(bf v y) -/(qf (schur A) y).
have -> : (y^T *m (v *m c%:M)) 0 0 = c * bf v y.
  by rewrite mul_mx_scalar -scalemxAr mxE -/(bf y v) bfC.
have -> : (y^T *m (drsubmx A *m y)) 0 0 = qf (schur A) y + a^-1 * bf v y ^+ 2.
  rewrite mulmxA -/(qf _ y) /schur -/a -/v qfD qfN !qfE -scalemxAl bfZr.
  rewrite -mulmxA.
  have -> : bf y (v *m (v^T *m y)) = bf v y ^+ 2.
    by rewrite bfM bfE big_ord1 -expr2.
  by rewrite subrK.
mcfold F; field; exact/eqP.
Qed.

Lemma posdef_block : posdef A <-> 0 < a /\ posdef (schur A).
Proof.
split=> [pA|[a0 pS] x xn0].
- have a0 : 0 < a.
    have /pA : (delta_mx 0 0 : 'cV[F]_(1 + n)) != 0.
      by apply/eqP => /matrixP /(_ 0 0) /eqP; rewrite !mxE !eqxx oner_eq0.
    rewrite /qf.
    have -> : (delta_mx 0 0 : 'cV[F]_(1 + n))^T *m A = row 0 A by rewrite trmx_delta -rowE.
    by rewrite -colE !mxE.
  split=> // y yn0.
  have : col_mx (- (a^-1 * bf v y))%:M y != 0.
    apply: contra yn0; rewrite -[0]vsubmxK => /eqP /eq_col_mx [_ ->].
    by rewrite linear0.
  by move/pA; rewrite qf_block ?gt_eqF // addNr expr0n /= mulr0 add0r.
- have an0 : a != 0 by rewrite gt_eqF.
  rewrite -[x]vsubmxK [usubmx x]mx11E qf_block //.
  have [y0|yn0] := eqVneq (dsubmx x) 0; last first.
    by apply: ltr_paddl; [apply: mulr_ge0; [exact: ltW | exact: sqr_ge0] | exact: pS].
  rewrite y0 qf0r bf0r mulr0 !addr0 mulr_gt0 // exprn_even_gt0 //=.
  apply: contra xn0 => /eqP c0.
  by rewrite -[x]vsubmxK y0 [usubmx x]mx11E c0 -scalemx1 scale0r col_mx0.
Qed.

Lemma solve_block p (B : 'M[F]_(1 + n, p)) (x : 'M[F]_(n, p)) : a != 0 ->
  schur A *m x = dsubmx B - a^-1 *: (v *m usubmx B) ->
  A *m col_mx (a^-1 *: (usubmx B - v^T *m x)) x = B.
Proof.
move=> an0 Hx.
rewrite {1}blockE mul_block_col -[RHS]vsubmxK; congr col_mx.
- by rewrite mul_scalar_mx scalerA divff // scale1r subrK.
- have -> : drsubmx A = schur A + a^-1 *: (v *m v^T) by rewrite /schur -/a -/v subrK.
  rewrite mulmxDl Hx -scalemxAr -scalemxAl mulmxBr scalerBr !mulmxA.
  by rewrite -addrA [- _ + _]addrC addrK addrC subrK.
Qed.
End Block.

Lemma chol_okP n (A : 'M[F]_n) : sym A -> (chol_ok A <-> posdef A).
Proof.
elim: n A => [|n IH] A sA.
  by split=> // _ x; rewrite [x]flatmx0 eqxx.
rewrite posdef_block //=.
have /IH E := schur_sym sA.
by split=> [/andP[-> /E]|[-> /E]].
Qed.

Lemma chol_solveP n p (A : 'M[F]_n) (B : 'M[F]_(n, p)) :
  sym A -> chol_ok A -> A *m chol_solve A B = B.
Proof.
elim: n p A B => [|n IH] p A B sA; first by move=> _; rewrite [B]flatmx0; apply: flatmx0.
move=> /= /andP[a0 Hok].
apply: solve_block => //; first by rewrite gt_eqF.
by apply: IH => //; apply: schur_sym.
Qed.

Lemma chol_solveE n p (A : 'M[F]_n) (B : 'M[F]_(n, p)) :
  sym A -> chol_ok A -> chol_solve A B = invmx A *m B.
Proof.
move=> sA ok; have pA := (chol_okP sA).1 ok.
by rewrite -{2}(chol_solveP B sA ok) mulmxA mulVmx ?posdef_unit // mul1mx.
Qed.


(** literals *)
Lemma posr_gt0 (p : positive) : 0 < posr F p.
Proof.
elim: p => [p IH|p IH|]; rewrite /posr -/posr; last exact: ltr01.
- by rewrite !addr_gt0 // ltr01.
- by rewrite addr_gt0.
Qed.
Lemma xlit_gt0 (p q : positive) : 0 < xlit F (Zpos p) q.
Proof. by rewrite /xlit /Zr divr_gt0 // posr_gt0. Qed.
End QF.
