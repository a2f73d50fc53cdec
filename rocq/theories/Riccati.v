(** * Riccati recursion: generic algebra behind all backward/forward passes. *)
From Coq Require Import Ring Field.
Set Warnings "-notation-overridden,-ambiguous-paths".
From mathcomp Require Import all_ssreflect all_algebra.
From Verif Require Import FieldTac Eigen EigenExact ExactLemmas LQSpec.

Set Implicit Arguments.
Unset Strict Implicit.
Unset Printing Implicit Defensive.

Import Order.TTheory GRing.Theory Num.Theory.
Local Open Scope ring_scope.

Section MxE.
Variable F : realFieldType.
Lemma addmxE m n (A B : 'M[F]_(m, n)) i j : (A + B) i j = A i j + B i j.
Proof. by rewrite mxE. Qed.
Lemma oppmxE m n (A : 'M[F]_(m, n)) i j : (- A) i j = - A i j.
Proof. by rewrite mxE. Qed.
Lemma scalemxE m n c (A : 'M[F]_(m, n)) i j : (c *: A) i j = c * A i j.
Proof. by rewrite mxE. Qed.
Lemma zeromxE m n i j : (0 : 'M[F]_(m, n)) i j = 0.
Proof. by rewrite mxE. Qed.
End MxE.

(** solve equations in the abelian group of matrices; also use hypotheses by
    first rewriting them into the goal *)
Ltac vabel F :=
  apply/matrixP => ? ?; rewrite ?(addmxE, oppmxE, scalemxE, zeromxE); mcfold F; ring.

Section Ric.
Variable F : realFieldType.
Variable n : nat.
Add Field Ff2 : (F_field_theory F).
Notation stage := (stage F n).
Notation final := (final F n).

(** gains and value function of a stage *)
Record gst := mkGst {
  gs : stage;
  hK : 'M[F]_(sm gs, n); hk : 'cV[F]_(sm gs);
  hP : 'M[F]_n; hp : 'cV[F]_n
}.
Definition nP (l : seq gst) (e : final) : 'M[F]_n := if l is s :: _ then hP s else tQ e.
Definition np (l : seq gst) (e : final) : 'cV[F]_n := if l is s :: _ then hp s else tq e.

Section Step.
Variables (s : stage) (P' : 'M[F]_n) (p' : 'cV[F]_n).
Definition rQxx := sQ s + (sA s)^T *m P' *m sA s.
Definition rQxu := sS s + (sA s)^T *m P' *m sB s.
Definition rQuu := sR s + (sB s)^T *m P' *m sB s.
Definition rqw := P' *m sf s + p'.
Definition rqx := sq s + (sA s)^T *m rqw.
Definition rqu := sr s + (sB s)^T *m rqw.
End Step.

Definition ric_step (g : gst) (P' : 'M[F]_n) (p' : 'cV[F]_n) : Prop :=
  [/\ rQuu (gs g) P' *m hK g = (rQxu (gs g) P')^T,
      rQuu (gs g) P' *m hk g = rqu (gs g) P' p',
      hP g = rQxx (gs g) P' - rQxu (gs g) P' *m hK g &
      hp g = rqx (gs g) P' p' - (hK g)^T *m rqu (gs g) P' p'].

Fixpoint ric_ok (l : seq gst) (e : final) : Prop :=
  match l with
  | [::] => True
  | g :: l' => ric_step g (nP l' e) (np l' e) /\ ric_ok l' e
  end.
Fixpoint ric_pd (l : seq gst) (e : final) : Prop :=
  match l with
  | [::] => True
  | g :: l' => posdef (rQuu (gs g) (nP l' e)) /\ ric_pd l' e
  end.
Definition gsym (l : seq gst) (e : final) := lq_symmetric [seq gs g | g <- l] e.

Lemma Quu_sym s P' : sym P' -> sym (sR s) -> sym (rQuu s P').
Proof. by move=> sP sRs; apply: symD => //; exact: sym_congr. Qed.
Lemma Qxx_sym s P' : sym P' -> sym (sQ s) -> sym (rQxx s P').
Proof. by move=> sP sQs; apply: symD => //; exact: sym_congr. Qed.

Lemma QxuK g P' p' : sym (rQuu (gs g) P') -> ric_step g P' p' ->
  rQxu (gs g) P' *m hK g = (hK g)^T *m rQuu (gs g) P' *m hK g.
Proof.
move=> sQ [HK _ _ _]; rewrite -[rQxu _ _]trmxK -HK trmx_mul.
by rewrite sQ.
Qed.

Lemma gP_sym g P' p' : sym P' -> is_sym (sQ (gs g)) -> is_sym (sR (gs g)) ->
  ric_step g P' p' -> sym (hP g).
Proof.
move=> sP hQ hR H; have sQ := Quu_sym sP hR.
have [_ _ -> _] := H; rewrite (QxuK sQ H).
rewrite /sym linearB /= (Qxx_sym sP hQ); congr (_ - _).
by rewrite !trmx_mul trmxK sQ mulmxA.
Qed.

Lemma nP_sym l e : ric_ok l e -> gsym l e -> sym (nP l e).
Proof.
elim: l => [|g l IH] //= [Hs Hl] [hQ hR hl].
by apply: (gP_sym _ hQ hR Hs); apply: IH.
Qed.

(** ** The solution read by the forward pass solves the KKT system *)
Fixpoint ric_sol (d : 'cV[F]_n) (l : seq gst) (e : final) : Prop :=
  match l with
  | [::] => tsx e = d /\ tsl e = tQ e *m d + tq e
  | g :: l' =>
      [/\ sx (gs g) = d, su (gs g) = - (hK g *m d) - hk g, sl (gs g) = hP g *m d + hp g
        & ric_sol (sA (gs g) *m d + sB (gs g) *m su (gs g) + sf (gs g)) l' e]
  end.

Lemma ric_sol_l d l e : ric_sol d l e -> next_l [seq gs g | g <- l] e = nP l e *m d + np l e.
Proof. by case: l => [|g l] /= []. Qed.

Lemma stat_u s P' p' x u :
  sr s + sR s *m u + (sS s)^T *m x + (sB s)^T *m (P' *m (sA s *m x + sB s *m u + sf s) + p')
  = rqu s P' p' + rQuu s P' *m u + ((sS s)^T + (sB s)^T *m P' *m sA s) *m x.
Proof.
rewrite /rqu /rqw /rQuu !(mulmxDr, mulmxDl) !mulmxA.
vabel F.
Qed.
Lemma QxuT s P' : sym P' -> (rQxu s P')^T = (sS s)^T + (sB s)^T *m P' *m sA s.
Proof. by move=> sP; rewrite /rQxu linearD /= !trmx_mul trmxK sP mulmxA. Qed.

Lemma stat_x s P' p' x u :
  sq s + sQ s *m x + sS s *m u + (sA s)^T *m (P' *m (sA s *m x + sB s *m u + sf s) + p')
  = rqx s P' p' + rQxx s P' *m x + rQxu s P' *m u.
Proof.
rewrite /rqx /rqw /rQxx /rQxu !(mulmxDr, mulmxDl) !mulmxA.
vabel F.
Qed.

Lemma ric_kkt d l e : ric_ok l e -> gsym l e -> ric_sol d l e ->
  lq_kkt d [seq gs g | g <- l] e.
Proof.
elim: l d => [|g l IH] d /=.
  by move=> _ _ [-> ->]; rewrite addrC.
move=> [Hs Hl] [hQ hR hl] [Hx Hu Hlam Hrest].
have sP := nP_sym Hl hl.
have sQ := Quu_sym sP hR.
rewrite (ric_sol_l Hrest) Hx.
split=> //; last by apply: IH.
- rewrite stat_u -QxuT //; case: Hs => HK Hk _ _.
  rewrite Hu mulmxDr !mulmxN Hk mulmxA HK; vabel F.
- rewrite stat_x Hlam Hu mulmxDr !mulmxN mulmxA.
  have [HK Hk -> ->] := Hs.
  have -> : rQxu (gs g) (nP l e) *m hk g = (hK g)^T *m rqu (gs g) (nP l e) (np l e).
    by rewrite -[rQxu _ _]trmxK -HK trmx_mul sQ -mulmxA Hk.
  rewrite mulmxBl; vabel F.
Qed.

(** ** Completing the square *)
Lemma dotE m (v w : 'cV[F]_m) : dot v w = bf v w. Proof. by []. Qed.
Lemma quadE m (A : 'M[F]_m) v : quad A v = qf A v. Proof. by []. Qed.

Definition ric_const (g : gst) (P' : 'M[F]_n) (p' : 'cV[F]_n) : F :=
  qf P' (sf (gs g)) / 2%:R + bf p' (sf (gs g)) - bf (rqu (gs g) P' p') (hk g) / 2%:R.

Lemma two_neq0 : (2%:R : F) != 0. Proof. by rewrite pnatr_eq0. Qed.

Lemma ric_square (g : gst) P' p' x u :
  sym P' -> is_sym (sQ (gs g)) -> is_sym (sR (gs g)) -> ric_step g P' p' ->
  let s := gs g in
  let x' := sA s *m x + sB s *m u + sf s in
  stage_cost x u + (qf P' x' / 2%:R + bf p' x')
  = (qf (hP g) x / 2%:R + bf (hp g) x) + ric_const g P' p'
    + qf (rQuu s P') (u + (hK g *m x + hk g)) / 2%:R.
Proof.
move=> sP hQ hR H s x'; subst x' s.
have sQ : sym (rQuu (gs g) P') := Quu_sym sP hR.
have [HK Hk HP Hp] := H.
have QK := QxuK sQ H.
have two0 := two_neq0.
rewrite /stage_cost !quadE !dotE.
(* expand the right-hand side *)
rewrite [qf (rQuu (gs g) P') (u + _)]qf_addv // [qf (rQuu (gs g) P') (hK g *m x + hk g)]qf_addv //.
rewrite [rQuu (gs g) P' *m (_ + _)]mulmxDr [bf u (_ + _)]bfDr Hk.
have -> : bf u (rQuu (gs g) P' *m (hK g *m x)) = bf x (rQxu (gs g) P' *m u).
  by rewrite mulmxA HK bfC bfMl trmxK.
have -> : bf (hK g *m x) (rqu (gs g) P' p') = bf x ((hK g)^T *m rqu (gs g) P' p').
  by rewrite bfMl.
have -> : qf (rQuu (gs g) P') (hk g) = bf (rqu (gs g) P' p') (hk g) by rewrite qfE Hk bfC.
have -> : qf (hP g) x = qf (rQxx (gs g) P') x - qf (rQuu (gs g) P') (hK g *m x).
  by rewrite HP QK qfD qfN qf_congr.
have -> : bf (hp g) x = bf (rqx (gs g) P' p') x - bf x ((hK g)^T *m rqu (gs g) P' p').
  by rewrite Hp bfBl (bfC _ x) (bfC _ x).
(* now both sides are polynomial in the data *)
rewrite [qf P' (_ + sf (gs g))]qf_addv // [qf P' (_ + _)]qf_addv //.
rewrite /ric_const /rqx /rqu /rqw /rQxx /rQxu /rQuu.
rewrite !qfD !qf_congr.
rewrite !(mulmxDr, mulmxDl) !(bfDr, bfDl).
have E1 : bf (sA (gs g) *m x) (P' *m (sB (gs g) *m u)) = bf x ((sA (gs g))^T *m P' *m sB (gs g) *m u).
  by rewrite bfMl !mulmxA.
have E2 : bf (sA (gs g) *m x) (P' *m sf (gs g)) = bf ((sA (gs g))^T *m (P' *m sf (gs g))) x.
  by rewrite bfMl bfC.
have E3 : bf (sB (gs g) *m u) (P' *m sf (gs g)) = bf u ((sB (gs g))^T *m (P' *m sf (gs g))).
  by rewrite bfMl.
have E4 : bf p' (sA (gs g) *m x) = bf ((sA (gs g))^T *m p') x by rewrite bfM.
have E5 : bf p' (sB (gs g) *m u) = bf u ((sB (gs g))^T *m p') by rewrite bfM bfC.
have E6 : bf (sr (gs g)) u = bf u (sr (gs g)) by rewrite bfC.
rewrite E1 E2 E3 E4 E5 E6.
mcfold F; field.
by move/eqP: two0; rewrite /Fadd /Fone /Fzero mulr2n.
Qed.

(** sum of the squares of the control deviations from the policy *)
Fixpoint ric_dev (d : 'cV[F]_n) (l : seq gst) (e : final)
    : controls [seq gs g | g <- l] -> F :=
  match l return controls [seq gs g | g <- l] -> F with
  | [::] => fun _ => 0
  | g :: l' => fun u =>
      qf (rQuu (gs g) (nP l' e)) (fst u + (hK g *m d + hk g)) / 2%:R
      + @ric_dev (sA (gs g) *m d + sB (gs g) *m fst u + sf (gs g)) l' e (snd u)
  end.
Fixpoint ric_consts (l : seq gst) (e : final) : F :=
  match l with
  | [::] => 0
  | g :: l' => ric_const g (nP l' e) (np l' e) + ric_consts l' e
  end.

Lemma ric_value d l e (u : controls [seq gs g | g <- l]) :
  ric_ok l e -> gsym l e ->
  lq_value d e u = qf (nP l e) d / 2%:R + bf (np l e) d + ric_consts l e + ric_dev d e u.
Proof.
elim: l d u => [|g l IH] d u /=; first by rewrite !addr0.
move=> [Hs Hl] [hQ hR hl].
rewrite IH //.
have sP := nP_sym Hl hl.
have E := ric_square d (fst u) sP hQ hR Hs.
have r4 (a b c' d' e' : F) : a + (b + c' + d' + e') = (a + (b + c')) + d' + e' by rewrite !addrA.
rewrite r4 E.
have r5 (a b c' d' e' f' : F) : a + b + c' + d' + e' + f' = a + b + (c' + e') + (d' + f').
  by mcfold F; ring.
exact: r5.
Qed.

Lemma ric_dev_ge0 d l e (u : controls [seq gs g | g <- l]) : ric_pd l e -> 0 <= ric_dev d e u.
Proof.
elim: l d u => [|g l IH] d u //= [pd pl].
by apply: addr_ge0; [apply: divr_ge0; [exact: posdef_psd | exact: ler0n] | exact: IH].
Qed.

Lemma ric_dev_own d l e : ric_sol d l e -> ric_dev d e (own_controls [seq gs g | g <- l]) = 0.
Proof.
elim: l d => [|g l IH] d //= [Hx Hu Hlam Hrest].
rewrite IH // Hu.
have -> : - (hK g *m d) - hk g + (hK g *m d + hk g) = 0 by vabel F.
by rewrite qf0r mul0r addr0.
Qed.

Lemma ric_dev_eq0 d l e (u : controls [seq gs g | g <- l]) : ric_pd l e -> ric_sol d l e ->
  ric_dev d e u = 0 -> u = own_controls [seq gs g | g <- l].
Proof.
elim: l d u => [|g l IH] d u /=; first by case: u.
move=> [pd pl] [Hx Hu Hlam Hrest] H.
case: u H => u0 u1 /= H.
have h1 : 0 <= qf (rQuu (gs g) (nP l e)) (u0 + (hK g *m d + hk g)) / 2%:R.
  by apply: divr_ge0; [exact: posdef_psd | exact: ler0n].
have h2 := ric_dev_ge0 (sA (gs g) *m d + sB (gs g) *m u0 + sf (gs g)) u1 pl.
move/eqP: H; rewrite paddr_eq0 // => /andP[/eqP H1 /eqP H2].
have v0 : u0 + (hK g *m d + hk g) = 0.
  apply/eqP; apply: contraT => vn0.
  by have := pd _ vn0; move/eqP: H1; rewrite mulf_eq0 invr_eq0 (negbTE two_neq0) orbF => /eqP ->; rewrite ltxx.
have e0 : u0 = su (gs g) by rewrite Hu -[u0](addrK (hK g *m d + hk g)) v0 sub0r opprD.
rewrite e0 in H2 *; congr pair.
exact: (IH _ _ pl Hrest H2).
Qed.

(** the own controls are the strict minimiser *)
Lemma ric_optimal d l e (u : controls [seq gs g | g <- l]) :
  ric_ok l e -> gsym l e -> ric_pd l e -> ric_sol d l e ->
  u <> own_controls [seq gs g | g <- l] ->
  lq_value d e (own_controls [seq gs g | g <- l]) < lq_value d e u.
Proof.
move=> ok sy pd so ne; rewrite !ric_value //.
rewrite ltr_add2l ric_dev_own // lt_neqAle ric_dev_ge0 // andbT eq_sym.
by apply/eqP => H; apply: ne; apply: (ric_dev_eq0 pd so H).
Qed.

(** ** Convexity: the recursion never meets an indefinite rQuu *)
Definition stage_psd (s : stage) : Prop :=
  forall (x : 'cV[F]_n) (u : 'cV[F]_(sm s)), 0 <= stage_quad x u.

Lemma Quu_psd s P' : stage_psd s -> possemidef P' -> possemidef (rQuu s P').
Proof.
move=> H pP u; rewrite qfD qf_congr addr_ge0 //.
have := H 0 u; rewrite /stage_quad !quadE dotE qf0r bf0l mulr0 !add0r //.
Qed.

Lemma gP_psd g P' p' : sym P' -> is_sym (sQ (gs g)) -> is_sym (sR (gs g)) ->
  ric_step g P' p' -> stage_psd (gs g) -> possemidef P' -> possemidef (hP g).
Proof.
move=> sP hQ hR H pS pP x.
have symQ := Quu_sym sP hR.
have [HK _ HP _] := H.
have := pS x (- (hK g *m x)); rewrite /stage_quad !quadE !dotE => h1.
have h2 := pP (sA (gs g) *m x + sB (gs g) *m (- (hK g *m x))).
suff -> : qf (hP g) x =
   (qf (sQ (gs g)) x + 2%:R * bf x (sS (gs g) *m - (hK g *m x)) + qf (sR (gs g)) (- (hK g *m x)))
   + qf P' (sA (gs g) *m x + sB (gs g) *m (- (hK g *m x))) by exact: addr_ge0.
rewrite [qf P' (_ + _)]qf_addv //.
have -> : qf (hP g) x = qf (rQxx (gs g) P') x - 2%:R * bf x (rQxu (gs g) P' *m (hK g *m x)) + qf (rQuu (gs g) P') (hK g *m x).
  rewrite HP qfD qfN mulmxA -qfE.
  have -> : qf (rQuu (gs g) P') (hK g *m x) = qf (rQxu (gs g) P' *m hK g) x.
    by rewrite (QxuK symQ H) qf_congr.
  by mcfold F; ring.
rewrite /rQxx /rQxu /rQuu !qfD !qf_congr !mulmxN bfNr -!mulmxN.
rewrite !mulmxN bfNr !qfNv !mulmxDl bfDr.
have -> : bf (sA (gs g) *m x) (P' *m (sB (gs g) *m (hK g *m x))) = bf x ((sA (gs g))^T *m P' *m sB (gs g) *m (hK g *m x)).
  by rewrite bfMl !mulmxA.
by mcfold F; ring.
Qed.

End Ric.
