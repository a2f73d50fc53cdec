(** * Uniqueness of KKT points of convex LQ problems (energy argument). *)
From Coq Require Import Ring Field ZArith.
Set Warnings "-notation-overridden,-ambiguous-paths".
From mathcomp Require Import all_ssreflect all_algebra.
From Verif Require Import FieldTac Eigen EigenExact ExactLemmas LQSpec Riccati.

Set Implicit Arguments.
Unset Strict Implicit.
Unset Printing Implicit Defensive.

Import Order.TTheory GRing.Theory Num.Theory.
Local Open Scope ring_scope.

Section H.
Variable F : realFieldType.
Variable n : nat.
Notation stage := (stage F n).
Notation final := (final F n).
Add Field FfH : (F_field_theory F).

(** no affine data *)
Fixpoint lq_hom (l : seq stage) (e : final) : Prop :=
  match l with
  | [::] => tq e = 0
  | s :: l' => [/\ sq s = 0, sr s = 0, sf s = 0 & lq_hom l' e]
  end.
Fixpoint lq_convex (l : seq stage) (e : final) : Prop :=
  match l with
  | [::] => forall x : 'cV[F]_n, 0 <= quad (tQ e) x
  | s :: l' => [/\ forall x u, 0 <= @stage_quad F n s x u,
                   forall u : 'cV[F]_(sm s), u != 0 -> 0 < quad (sR s) u & lq_convex l' e]
  end.
Fixpoint lq_energy (l : seq stage) (e : final) : F :=
  match l with
  | [::] => quad (tQ e) (tsx e)
  | s :: l' => @stage_quad F n s (sx s) (su s) + lq_energy l' e
  end.
(** the stored point is zero *)
Fixpoint lq_zero (l : seq stage) (e : final) : Prop :=
  match l with
  | [::] => tsx e = 0 /\ tsl e = 0
  | s :: l' => [/\ sx s = 0, su s = 0, sl s = 0 & lq_zero l' e]
  end.
Lemma energy_ge0 l e : lq_convex l e -> 0 <= lq_energy l e.
Proof. by elim: l => [|s l IH] /= => [h|[h1 _ h3]]; [exact: h|rewrite addr_ge0 // ?h1 // IH]. Qed.
Lemma ring1 (a b c d e f : F) : c + b + f = 0 -> d + f = e -> a + b + d = a + 2%:R * b + c + e.
Proof. move=> h1 <-; have -> : c = - b - f by apply/eqP; rewrite -subr_eq0; apply/eqP; rewrite -h1; mcfold F; ring. mcfold F; ring. Qed.
Lemma energyE d l e : lq_hom l e -> lq_kkt d l e -> dot d (next_l l e) = lq_energy l e.
Proof.
elim: l d => [|s l IH] d /=.
  by move=> -> [<- <-]; rewrite add0r quadE dotE qfE.
move=> [q0 r0 f0 hl] [<- hu hx hk]; move: hu hx; rewrite q0 r0 !add0r => hu <-.
have {}IH := IH _ hl hk; rewrite f0 addr0 in IH.
rewrite /stage_quad.
have eu := congr1 (dot (su s)) hu.
rewrite !dotE in IH eu *; rewrite !quadE !qfE.
rewrite bf0r !bfDr (bfM (sS s)^T) (bfM (sB s)^T) !trmxK (bfC (sS s *m su s)) in eu.
rewrite bfDl in IH; rewrite !bfDr (bfM (sA s)^T) trmxK.
exact: (ring1 _ eu IH).
Qed.

Lemma convex_zero l e : lq_hom l e -> lq_convex l e -> lq_kkt 0 l e -> lq_zero l e.
Proof.
elim: l => [|s l IH] /=.
  by move=> q0 _ [x0 <-]; rewrite q0 x0 mulmx0 addr0.
move=> [q0 r0 f0 hl] [hp hR hc] hk.
have := @energyE 0 (s :: l) e (And4 q0 r0 f0 hl) hk; rewrite dotE bf0l /=.
have [x0 _ hx hk'] := hk.
have := energy_ge0 hc; set en := lq_energy l e; rewrite x0 /stage_quad quadE qf0r dotE bf0l mulr0 !add0r quadE => e0 h.
have u0 : su s = 0.
  apply/eqP; apply: contraT => un; have := hR _ un; rewrite quadE => hh.
  by have := ltr_paddr e0 hh; rewrite -h ltxx.
have z : lq_zero l e by apply: IH => //; move: hk'; rewrite x0 u0 f0 !mulmx0 !addr0.
have nl : next_l l e = 0 by case: (l) z => [|s' l'] /= [].
by split=> //; rewrite -hx q0 x0 u0 nl !mulmx0 !addr0.
Qed.

(** ** The KKT point is the strict minimiser *)
Fixpoint lq_dev (d : 'cV[F]_n) (l : seq stage) (e : final) : controls l -> F :=
  match l return controls l -> F with
  | [::] => fun _ => quad (tQ e) d
  | s :: l' => fun v => @stage_quad F n s d (fst v - su s) + @lq_dev (sA s *m d + sB s *m (fst v - su s)) l' e (snd v)
  end.
Lemma two0 : (2%:R : F) != 0. Proof. by rewrite pnatr_eq0. Qed.
Lemma half_ring (a b q0 q1 q2 : F) : q0 = q1 + 2%:R * a + q2 -> b = q0 / 2%:R -> b = q1 / 2%:R + a + q2 / 2%:R.
Proof. by move=> -> ->; rewrite mulrDl mulrDl (mulrC 2%:R) mulfK ?two0 // . Qed.
Lemma stage_dev (s : stage) (x dx : 'cV[F]_n) (u w : 'cV[F]_(sm s)) :
  is_sym (sQ s) -> is_sym (sR s) ->
  @stage_cost F n s (x + dx) (u + w) = @stage_cost F n s x u
    + dot dx (sq s + sQ s *m x + sS s *m u) + dot w (sr s + sR s *m u + (sS s)^T *m x)
    + @stage_quad F n s dx w / 2%:R.
Proof.
move=> sQ_ sR_; rewrite /stage_cost /stage_quad !quadE !dotE.
rewrite (qf_addv x dx sQ_) (qf_addv u w sR_) mulmxDr !bfDl !bfDr.
rewrite (bfM (sS s)^T w x) trmxK (bfC (sS s *m w) x) (bfC dx (sq s)) (bfC w (sr s)).
rewrite (bfC dx (sQ s *m x)) (bfC w (sR s *m u)) (bfM (sQ s) x dx) sQ_ (bfM (sR s) u w) sR_.
move: (qf (sQ s) x) (qf (sQ s) dx) (qf (sR s) u) (qf (sR s) w) (bf (sQ s *m x) dx) (bf (sR s *m u) w)
 (bf (sq s) x) (bf (sq s) dx) (bf (sr s) u) (bf (sr s) w) (bf x (sS s *m u)) (bf dx (sS s *m u)) (bf x (sS s *m w)) (bf dx (sS s *m w)) => a1 a2 a3 a4 a5 a6 a7 a8 a9 a10 a11 a12 a13 a14.
have e2 := two0; move: (2%:R : F) e2 => t e2.
by mcfold F; field; exact/eqP.
Qed.
Lemma value_gap d d' l e (v : controls l) : lq_symmetric l e -> lq_kkt d l e ->
  lq_value d' e v = lq_value d e (own_controls l) + dot (d' - d) (next_l l e) + lq_dev (d' - d) e v / 2%:R.
Proof.
elim: l d d' v => [|s l IH] d d' v /=.
  move=> sQ_ [<- <-]; set x := tsx e; 
  have [dx [edx ->]] : exists dx, d' - x = dx /\ d' = x + dx by exists (d' - x); rewrite (addrC x) subrK.
  rewrite [x + dx - x]addrAC subrr add0r.
  rewrite !quadE !dotE (qf_addv x dx sQ_) !bfDr.
  rewrite (bfC dx (tq e)) (bfM (tQ e) x dx) sQ_ (bfC dx).
  move: (qf (tQ e) x) (qf (tQ e) dx) (bf (tQ e *m x) dx) (bf (tq e) x) (bf (tq e) dx) => a1 a2 a3 a4 a5.
  have e2 := two0; move: (2%:R : F) e2 => t e2.
  by mcfold F; field; exact/eqP.
case: v => v1 v2 [sQ_ sR_ sy] [<- hu hx hk]; rewrite /=.
set x := sx s in hx hk hu *; set u := su s in hx hk hu *; 
have [dx [_ ->]] : exists dx, d' - x = dx /\ d' = x + dx by exists (d' - x); rewrite (addrC x) subrK.
have [w [_ ->]] : exists w, v1 - u = w /\ v1 = u + w by exists (v1 - u); rewrite (addrC u) subrK.
rewrite [x + dx - x]addrAC subrr add0r [u + w - u]addrAC subrr add0r.
rewrite (IH _ (sA s *m (x + dx) + sB s *m (u + w) + sf s) v2 sy hk) stage_dev //.
have -> : sA s *m (x + dx) + sB s *m (u + w) + sf s - (sA s *m x + sB s *m u + sf s) = sA s *m dx + sB s *m w.
  by rewrite !mulmxDr; vabel F.
have := bf0r w; rewrite -{1}hu !bfDr (bfM (sB s)^T) trmxK => hw.
rewrite -hx !dotE !bfDr (bfM (sA s)^T) trmxK bfDl.
set ld := lq_dev _ _ _; set lv := lq_value _ _ _; set lc := stage_cost _ _; set lq' := stage_quad _ _.
move: (bf dx (sq s)) (bf dx (sQ s *m x)) (bf dx (sS s *m u)) (bf w (sr s)) (bf w (sR s *m u)) (bf w ((sS s)^T *m x))
  (bf (sA s *m dx) (next_l l e)) (bf (sB s *m w) (next_l l e)) hw => a1 a2 a3 a4 a5 a6 a7 a8 hw.
have -> : a8 = - (a4 + a5 + a6) by apply/eqP; rewrite -addr_eq0 addrC hw.
move: ld lv lc lq' => b1 b2 b3 b4; rewrite mulrDl; move: (b4 / _) (b1 / _) => c1 c2.
by mcfold F; ring.
Qed.
Lemma dev_ge0 d l e (v : controls l) : lq_convex l e -> 0 <= lq_dev d e v.
Proof. by elim: l d v => [|s l IH] d v /= => [h|[h1 _ h3]]; [exact: h|rewrite addr_ge0 // ?h1 // IH]. Qed.
Lemma dev_gt0 l e (v : controls l) : lq_convex l e -> v <> own_controls l -> 0 < lq_dev 0 e v.
Proof.
elim: l v => [|s l IH] v /= => [_|[h1 hR h3]]; first by case: v.
case: v => v1 v2 /= hv; rewrite mulmx0 add0r.
case: (v1 =P su s) => e1.
  rewrite e1 subrr mulmx0 /stage_quad !quadE dotE !qf0r bf0l mulr0 !add0r.
  by apply: IH => // e2; apply: hv; rewrite e1 e2.
apply: ltr_paddr; first exact: dev_ge0.
rewrite /stage_quad quadE qf0r dotE bf0l mulr0 !add0r; apply: hR.
by rewrite subr_eq0; apply/eqP.
Qed.
Lemma kkt_strict_min d l e (v : controls l) : lq_symmetric l e -> lq_convex l e -> lq_kkt d l e -> v <> own_controls l ->
  lq_value d e (own_controls l) < lq_value d e v.
Proof.
move=> sy cv hk hv; rewrite (value_gap d v sy hk) subrr dotE bf0l addr0 ltr_addl divr_gt0 ?ltr0n //.
exact: dev_gt0.
Qed.
End H.
