(** * Proofs: every ADMM iteration moves towards every solution of the subproblem. *)
From Coq Require Import Ring Field ZArith PeanoNat.
Set Warnings "-notation-overridden,-ambiguous-paths".
From mathcomp Require Import all_ssreflect all_algebra.
From Verif Require Import FieldTac Eigen EigenExact ExactLemmas Problem DDP SQP CSQP LQSpec SubQP Riccati PassExact P_Direction
  CSQPFrames QPSpec FastPass ADMMSpec ADMMExact ADMMIter CallSpec CallInv CallGood CallCover QPExact CSQPConvex EqGuess P_ADMM ConvexQP ConvSpec PROXSys.

Set Implicit Arguments.
Unset Strict Implicit.
Unset Printing Implicit Defensive.

Import Order.TTheory GRing.Theory Num.Theory.
Local Open Scope ring_scope.

Section LQMono.
Variable F : realFieldType.
Add Field FfLM : (F_field_theory F).
Variable n : nat.
Notation stage := (stage F n).

(** two candidate solutions of problems that differ in their gradients only; the
    number is the sum of <q - q', x - x'> + <r - r', u - u'> *)
Inductive twins : seq stage -> seq stage -> F -> Prop :=
  | twins0 : twins [::] [::] 0
  | twinsS m A B q r Q S R f x u l q' r' x' u' l' ss ss' k : twins ss ss' k ->
      (forall (dx : 'cV[F]_n) (du : 'cV[F]_m), 0 <= quad Q dx + 2%:R * dot dx (S *m du) + quad R du) ->
      twins (@mkStage F n m A B q r Q S R f x u l :: ss) (@mkStage F n m A B q' r' Q S R f x' u' l' :: ss')
        (dot (q - q') (x - x') + dot (r - r') (u - u') + k).

Lemma dot_addl m (a b v : 'cV[F]_m) : dot (a + b) v = dot a v + dot b v.
Proof. by rewrite dot_sym dot_add dot_sym [X in _ + X]dot_sym. Qed.
Lemma dot_oppl m (a v : 'cV[F]_m) : dot (- a) v = - dot a v.
Proof. by rewrite dot_sym dot_opp dot_sym. Qed.

Lemma stage_mono m (A : 'M[F]_n) (B : 'M[F]_(n, m)) (Q : 'M[F]_n) (S : 'M[F]_(n, m)) (R : 'M[F]_m)
    (q x l lp : 'cV[F]_n) (r u : 'cV[F]_m) :
  r + R *m u + S^T *m x + B^T *m lp = 0 -> q + Q *m x + S *m u + A^T *m lp = l ->
  dot q x + dot r u + (quad Q x + 2%:R * dot x (S *m u) + quad R u) + dot lp (A *m x + B *m u) = dot l x.
Proof.
move=> h1 <-.
have {}h1 : dot r u = - (dot (R *m u) u + dot (S^T *m x) u + dot (B^T *m lp) u).
  have : dot (r + R *m u + S^T *m x + B^T *m lp) u = 0 by rewrite h1 dot_sym dot_zero.
  rewrite !dot_addl; move: (dot r u) (dot (R *m u) u) (dot (S^T *m x) u) (dot (B^T *m lp) u) => a b c d h.
  have -> : a = (a + b + c + d) - (b + c + d) by mcfold F; ring.
  by rewrite h sub0r.
rewrite h1 !dot_addl !quad_dot dot_add.
have e1 : dot (R *m u) u = dot u (R *m u) by rewrite dot_sym.
have e2 : dot (S^T *m x) u = dot x (S *m u) by rewrite dot_sym dot_tr.
have e3 : dot (B^T *m lp) u = dot lp (B *m u) by rewrite dot_sym dot_tr.
have e4 : dot (A^T *m lp) x = dot lp (A *m x) by rewrite dot_sym dot_tr.
have e5 : dot (Q *m x) x = dot x (Q *m x) by rewrite dot_sym.
have e6 : dot (S *m u) x = dot x (S *m u) by rewrite dot_sym.
rewrite e1 e2 e3 e4 e5 e6.
move: (dot q x) (dot u (R *m u)) (dot x (S *m u)) (dot lp (B *m u)) (dot lp (A *m x)) (dot x (Q *m x)) => a b c d e f.
by mcfold F; ring.
Qed.

Lemma twins_mono (e e' : final F n) : tQ e = tQ e' -> (forall x : 'cV[F]_n, 0 <= quad (tQ e) x) ->
  forall l l' k, twins l l' k -> forall d d', lq_kkt d l e -> lq_kkt d' l' e' ->
  k + dot (tq e - tq e') (tsx e - tsx e') <= dot (next_l l e - next_l l' e') (d - d').
Proof.
move=> eQ psd l l' k; elim=> [|m A B q r Q S R f x u lm q' r' x' u' lm' ss ss' {}k _ IH hp] d d'.
  move=> [<- h2] [<- h2']; rewrite add0r /= -h2 -h2' eQ.
  have -> : tq e + tQ e' *m tsx e - (tq e' + tQ e' *m tsx e') = (tq e - tq e') + tQ e' *m (tsx e - tsx e').
    by rewrite mulmxBr; vabel F.
  move: (tq e - _) => q; rewrite dot_addl ler_addl dot_sym -quad_dot -eQ; exact: psd.
move=> [/= ex h2 h3 h4] [/= ex' h2' h3' h4'].
subst d d'.
have {}IH := IH _ _ h4 h4'.
have hr : (r - r') + R *m (u - u') + S^T *m (x - x') + B^T *m (next_l ss e - next_l ss' e') = 0.
  have : (r + R *m u + S^T *m x + B^T *m next_l ss e) - (r' + R *m u' + S^T *m x' + B^T *m next_l ss' e') = 0 by rewrite h2 h2' subrr.
  by move=> <-; rewrite !mulmxBr; vabel F.
have hq : (q - q') + Q *m (x - x') + S *m (u - u') + A^T *m (next_l ss e - next_l ss' e') = lm - lm'.
  by rewrite -h3 -h3' !mulmxBr; vabel F.
have := stage_mono hr hq.
have ed : A *m x + B *m u + f - (A *m x' + B *m u' + f) = A *m (x - x') + B *m (u - u').
  by rewrite !mulmxBr; vabel F.
rewrite ed in IH.
have := hp (x - x') (u - u').
move: IH; set p := dot _ (A *m _ + _); set a := dot (q - q') _; set b := dot (r - r') _.
set w := dot (tq e - _) _; set h := _ + quad R _.
move=> h5 h6 <-.
have -> : a + b + k + w = a + b + (k + w) by rewrite addrA.
by rewrite -[a + b + h + p]addrA ler_add2l; apply: (le_trans h5); rewrite ler_addr.
Qed.
End LQMono.

Section Rows.
Variable F : realFieldType.
Add Field FfRw : (F_field_theory F).

Lemma coordE m (v : 'cV[F]_m) (i : 'I_m) : coord v i = v i 0.
Proof. by rewrite /coord valK. Qed.

(** complementary pairs form a monotone relation *)
Lemma compl_mono (lo hi : option F) (g z y z' y' : F) :
  complementary lo hi g z y -> complementary lo hi g z' y' -> 0 <= (y - y') * (z - z').
Proof.
have half (z1 y1 z2 : F) : complementary lo hi g z1 y1 -> in_box lo hi g z2 -> 0 <= y1 * (z1 - z2).
  case=> _ hp hn [hl hu]; case: (ltrgt0P y1) => hy.
  - have [b [eb ->]] := hp hy; apply: mulr_ge0; first exact: ltW.
    by rewrite subr_ge0; exact: hu.
  - have [b [eb ->]] := hn hy; rewrite -mulrNN; apply: mulr_ge0; first by rewrite oppr_ge0 ltW.
    by rewrite opprB subr_ge0; exact: hl.
  - by rewrite hy mul0r.
move=> h h'; have b : in_box lo hi g z by case: h.
have b' : in_box lo hi g z' by case: h'.
have h1 := half _ _ _ h b'; have h2 := half _ _ _ h' b.
have -> : (y - y') * (z - z') = y * (z - z') + y' * (z' - z) by rewrite mulrBl -mulrN opprB.
exact: addr_ge0.
Qed.

(** one row *)
Lemma row_core (al r z y cd cs ys z2 y2 : F) : 0 < r -> 0 <= al ->
  y2 = y + r * (al * cd + (1 - al) * z - z2) -> 0 <= (y - ys) * (z - cs) ->
  r * (z2 - cs + (y2 - ys) / r) ^+ 2 + al * (2%:R - al) * (r * (cd - z) ^+ 2) <=
  r * (z - cs + (y - ys) / r) ^+ 2 + al * (2%:R * ((y + r * (cd - z) - ys) * (cd - cs))).
Proof.
move=> r0 a0 -> hm.
have rn : r != 0 by rewrite gt_eqF.
have -> : z2 - cs + (y + r * (al * cd + (1 - al) * z - z2) - ys) / r = (z - cs + (y - ys) / r) + al * (cd - z).
  have -> : y + r * (al * cd + (1 - al) * z - z2) - ys = (y - ys) + (al * cd + (1 - al) * z - z2) * r by mcfold F; ring.
  rewrite [(_ + _ * r) / r]mulrDl mulfK //; move: ((y - ys) / r) => p; by mcfold F; ring.
have ey : y - ys = r * ((y - ys) / r) by rewrite mulrC divfK.
have -> : y + r * (cd - z) - ys = r * ((y - ys) / r) + r * (cd - z) by rewrite -ey; mcfold F; ring.
rewrite {}ey in hm; move: ((y - ys) / r) hm => p hm.
rewrite -subr_ge0.
have -> : r * (z - cs + p) ^+ 2 + al * (2%:R * ((r * p + r * (cd - z)) * (cd - cs)))
  - (r * (z - cs + p + al * (cd - z)) ^+ 2 + al * (2%:R - al) * (r * (cd - z) ^+ 2))
  = al * (2%:R * (r * p * (z - cs))).
  rewrite !expr2; mcfold F; ring.
by rewrite mulr_ge0 // mulr_ge0 // ler0n.
Qed.

Lemma sq_distE m (v w : 'cV[F]_m) : sq_dist v w = dot (v - w) (v - w).
Proof. by rewrite dotS; apply: eq_bigr => i _; rewrite !coordE expr2 !mxE. Qed.
Lemma sq_dist3 m (a b c : 'cV[F]_m) :
  sq_dist b c + sq_dist a b = sq_dist a c + 2%:R * dot (b - a) (b - c).
Proof.
rewrite !sq_distE !dotS mulr_sumr -!big_split; apply: eq_bigr => i _; rewrite /= !mxE.
move: (a i 0) (b i 0) (c i 0) => x y z; by mcfold F; ring.
Qed.

(** the rows of a node *)
Lemma rows_core m (lo hi : 'cV[option F]_m) (al : F) (g Cd z y w irho cs ys : 'cV[F]_m) : 0 <= al ->
  (forall i, 0 < w i 0) -> (forall i, irho i 0 = (w i 0)^-1) ->
  (forall i, complementary (lo i 0) (hi i 0) (g i 0) (z i 0) (y i 0)) ->
  (forall i, complementary (lo i 0) (hi i 0) (g i 0) (cs i 0) (ys i 0)) ->
  rows_dist w (new_z lo hi al g Cd z y irho) (new_y lo hi al g Cd z y w irho) cs ys
  + al * (2%:R - al) * rows_gap w z Cd <=
  rows_dist w z y cs ys + al * (2%:R * dot (y + had w (Cd - z) - ys) (Cd - cs)).
Proof.
move=> a0 hw hi' h1 h2; rewrite /rows_dist /rows_gap dotS !mulr_sumr -!big_split /=.
apply: ler_sum => i _; rewrite !coordE.
rewrite [X in _ <= _ + X](_ : _ = al * (2%:R * ((y i 0 + w i 0 * (Cd i 0 - z i 0) - ys i 0) * (Cd i 0 - cs i 0)))); last first.
  by rewrite !mxE.
apply: row_core => //.
- by rewrite /new_y /relaxed; move: (new_z _ _ _ _ _ _ _ _) => nz; rewrite !mxE.
- exact: (compl_mono (h1 i) (h2 i)).
Qed.

(** a node: rows, states and controls *)
Lemma node_core m n p (lo hi : 'cV[option F]_m) (al si : F) (g Cd z y w irho cs ys : 'cV[F]_m)
    (x1 x2 xs : 'cV[F]_n) (u1 u2 us : 'cV[F]_p) (k : F) : 0 <= al ->
  (forall i, 0 < w i 0) -> (forall i, irho i 0 = (w i 0)^-1) ->
  (forall i, complementary (lo i 0) (hi i 0) (g i 0) (z i 0) (y i 0)) ->
  (forall i, complementary (lo i 0) (hi i 0) (g i 0) (cs i 0) (ys i 0)) ->
  k = dot (y + had w (Cd - z) - ys) (Cd - cs) + si * (dot (x2 - x1) (x2 - xs) + dot (u2 - u1) (u2 - us)) ->
  rows_dist w (new_z lo hi al g Cd z y irho) (new_y lo hi al g Cd z y w irho) cs ys
    + al * si * (sq_dist x2 xs + sq_dist u2 us)
  + (al * (2%:R - al) * rows_gap w z Cd + al * si * (sq_dist x1 x2 + sq_dist u1 u2)) <=
  rows_dist w z y cs ys + al * si * (sq_dist x1 xs + sq_dist u1 us) + al * (2%:R * k).
Proof.
move=> a0 h1 h2 h3 h4 ->.
have h := rows_core Cd a0 h1 h2 h3 h4.
have := sq_dist3 x1 x2 xs; have := sq_dist3 u1 u2 us.
move: (sq_dist x2 xs) (sq_dist u2 us) (sq_dist x1 x2) (sq_dist u1 u2) (sq_dist x1 xs) (sq_dist u1 us) => a b c d e f.
move: (dot (u2 - u1) _) (dot (x2 - x1) _) => du dx hu hx.
move: h; move: (rows_dist _ _ _ _ _) (rows_gap _ _ _) (rows_dist _ _ _ _ _) (dot _ _) => R1 G R2 D h.
have -> : R2 + al * si * (a + b) + (al * (2%:R - al) * G + al * si * (c + d)) =
  R2 + al * (2%:R - al) * G + al * si * ((a + c) + (b + d)) by mcfold F; ring.
rewrite hx hu.
have -> : R1 + al * si * (e + f) + al * (2%:R * (D + si * (dx + du))) =
  R1 + al * (2%:R * D) + al * si * (e + 2%:R * dx + (f + 2%:R * du)) by mcfold F; ring.
by rewrite ler_add2r.
Qed.
End Rows.

Section Nodes.
Variable F : realFieldType.
Variable sq : F -> F.
Add Field FfNo : (F_field_theory F).
Notation E := (ExactE sq).
Variable M : manifold E.
Notation n := (mndx M).
Notation node := (node M).
Notation tnode := (tnode M).
Variables (rmin rho alpha sigma preg dreg : F).
Hypothesis rmin0 : 0 < rmin.
Hypothesis rho0 : 0 < rho.
Hypothesis al0 : 0 <= alpha.
Hypothesis preg0 : 0 <= preg.
Hypothesis dreg0 : 0 <= dreg.

Lemma penalty_gt0 lo hi : 0 < penalty rmin rho lo hi.
Proof.
rewrite /penalty; case: lo => [a|]; case: hi => [b|] //.
by case: ifP => _ //; apply: mulr_gt0 => //; apply: xlit_gt0.
Qed.
Lemma weights_pos (nd : node) i : 0 < weights rmin rho nd i 0.
Proof. by rewrite mxE; exact: penalty_gt0. Qed.
Lemma tweights_pos (nd : tnode) i : 0 < tweights rmin rho nd i 0.
Proof. by rewrite mxE; exact: penalty_gt0. Qed.
Lemma penalty_weights (nd : node) : node_ordered nd -> node_penalty rmin rho nd ->
  (arho (adm nd) : 'cV[F]_(ng (nm nd))) = weights rmin rho nd /\
  forall i, (airho (adm nd) : 'cV[F]_(ng (nm nd))) i 0 = (weights rmin rho nd i 0)^-1.
Proof.
move=> ho hp; split=> [|i]; last by have [h1 h2] := hp i (ho i); rewrite h2 h1 mxE.
by apply/matrixP => i j; rewrite (ord1 j) mxE; have [] := hp i (ho i).
Qed.
Lemma tpenalty_weights (nd : tnode) :
  (forall i, ordered ((tlb (tm nd) : 'cV[option F]_(tng (tm nd))) i 0) ((tub (tm nd) : 'cV[option F]_(tng (tm nd))) i 0)) ->
  tnode_penalty rmin rho nd ->
  (tarho nd : 'cV[F]_(tng (tm nd))) = tweights rmin rho nd /\
  forall i, (tairho nd : 'cV[F]_(tng (tm nd))) i 0 = (tweights rmin rho nd i 0)^-1.
Proof.
move=> ho hp; split=> [|i]; last by have [h1 h2] := hp i (ho i); rewrite h2 h1 mxE.
by apply/matrixP => i j; rewrite (ord1 j) mxE; have [] := hp i (ho i).
Qed.

(** the inner product of the gradient difference of a node *)
Lemma node_inner m p q (L : 'cV[F]_q) (L' : 'cV[F]_p) (Ge : 'M[F]_(m, q)) (Gu : 'M[F]_(m, p)) (Gx : 'M[F]_(m, q))
    (y' res yh ys : 'cV[F]_m) (x1 x2 xs : 'cV[F]_q) (u1 u2 us : 'cV[F]_p) :
  y' + res = yh -> Ge *m (x2 - xs) = Gx *m (x2 - xs) ->
  dot (L + Ge^T *m y' + (sigma *: (x2 - x1) + Ge^T *m res) - (L + Ge^T *m ys)) (x2 - xs)
  + dot (L' + Gu^T *m y' + (sigma *: (u2 - u1) + Gu^T *m res) - (L' + Gu^T *m ys)) (u2 - us) =
  dot (yh - ys) ((Gx *m x2 + Gu *m u2) - (Gx *m xs + Gu *m us))
  + sigma * (dot (x2 - x1) (x2 - xs) + dot (u2 - u1) (u2 - us)).
Proof.
move=> <- eG.
have e k (G : 'M[F]_(m, k)) (l a b : 'cV[F]_k) :
   dot (l + G^T *m y' + (sigma *: a + G^T *m res) - (l + G^T *m ys)) b = dot (y' + res - ys) (G *m b) + sigma * dot a b.
  have -> : l + G^T *m y' + (sigma *: a + G^T *m res) - (l + G^T *m ys) = G^T *m (y' + res - ys) + sigma *: a.
    by rewrite mulmxBr mulmxDr; vabel F.
  move: (y' + res - ys) => w0; rewrite dot_addl; congr (_ + _); first by rewrite dot_sym dot_tr.
  by rewrite !dotS mulr_sumr; apply: eq_bigr => i _; rewrite mxE mulrA.
rewrite !e // eG.
have -> : Gx *m x2 + Gu *m u2 - (Gx *m xs + Gu *m us) = Gx *m (x2 - xs) + Gu *m (u2 - us) by rewrite !mulmxBr; vabel F.
move: (y' + res - ys) (Gx *m (x2 - xs)) (Gu *m (u2 - us)) (dot (x2 - x1) _) (dot (u2 - u1) _) => w0 a b d0 d1.
rewrite dot_add; move: (dot w0 a) (dot w0 b) => e0 e1; by mcfold F; ring.
Qed.

Lemma reg_psd m (A : 'M[F]_m) (r : F) (x : 'cV[F]_m) : 0 <= r -> quad A x <= quad (A + r%:M) x.
Proof.
move=> r0; rewrite !quad_dot mulmxDl dot_add mul_scalar_mx ler_addl dotS.
apply: sumr_ge0 => i _; rewrite mxE mulrCA; apply: mulr_ge0 => //; rewrite -expr2; exact: sqr_ge0.
Qed.

Lemma y_res' m (lo hi : 'cV[option F]_m) (g Cd z y w irho : 'cV[F]_m) :
  new_y lo hi alpha g Cd z y w irho + mixed_res lo hi alpha g Cd z y w irho = y + had w (Cd - z).
Proof.
rewrite /new_y /mixed_res; move: (new_z _ _ _ _ _ _ _ _) => nz.
rewrite /relaxed; apply/matrixP => i j; rewrite !mxE; move: (y i j) (w i j) (Cd i j) (z i j) (nz i j) (alpha) => y' r d z' w' a.
by mcfold F; ring.
Qed.
Definition good_node (nd : node) : Prop :=
  [/\ node_convex nd, node_ordered nd, node_penalty rmin rho nd & node_rows nd].

Lemma node_iter first (nd nd' nd2 ns : node) (f : 'cV[F]_n) : good_node nd -> node_lin_rows ns ->
  primal_node nd nd' -> dual_node alpha nd' nd2 -> cpassed nd ns ->
  (first = true -> (dxt (adm nd') : 'cV[F]_n) = 0 /\ (dx (dir ns) : 'cV[F]_n) = 0) ->
  exists k, (forall ss ss' k', twins ss ss' k' ->
     twins (it_stage alpha sigma preg dreg first nd' f :: ss) (con_stage preg dreg first ns f :: ss') (k + k')) /\
   node_distance rmin rho alpha sigma nd2 ns + node_progress rmin rho alpha sigma nd nd2
   <= node_distance rmin rho alpha sigma nd ns + alpha * (2%:R * k).
Proof.
move=> [hcv ho hp hr] hs h1 h2 h3 hf.
move: h1 h2 h3 hs hf => [v [x2 [u2 ->]]] [zp [zr [r [ir ->]]]] [v' [d' [a ->]]] hs hf.
have [hw hi] := penalty_weights ho hp.
set n1 := mkNode _ _ _ _ _ _ _ (mkAdmm x2 u2 _ _ _ _ _ _) in hf *.
set n3 := set_adm _ _ in hs hf *.
pose S1 := it_stage alpha sigma preg dreg first n1 f.
pose S2 := con_stage preg dreg first n3 f.
exists (dot (LQSpec.sq S1 - LQSpec.sq S2) (sx S1 - sx S2) + dot (sr S1 - (sr S2 : 'cV[F]_(nu (nm nd)))) (su S1 - (su S2 : 'cV[F]_(nu (nm nd))))).
split.
  move=> ss ss' k' ht.
  apply: (@twinsS F n (nu (nm nd)) (sA S1) (sB S1) (LQSpec.sq S1) (sr S1) (LQSpec.sQ S1) (sS S1) (sR S1) f (sx S1) (su S1) (sl S1)
    (LQSpec.sq S2) (sr S2) (sx S2) (su S2) (sl S2) ss ss' k' ht).
  move=> ex eu; apply: (le_trans (hcv ex eu)).
  apply: ler_add; first apply: ler_add; [exact: reg_psd|exact: lexx|exact: reg_psd].
have eG : eGx first n1 *m ((x2 : 'cV[F]_n) - dx d') = (Gx (der nd) : 'M[F]_(ng (nm nd), n)) *m ((x2 : 'cV[F]_n) - dx d').
  case: (first) hf => // /(_ erefl) [e1 e2].
  have -> : (x2 : 'cV[F]_n) - dx d' = 0 by move: e1 e2 => /= -> ->; rewrite subrr.
  by rewrite !mulmx0.
pose Cd : 'cV[F]_(ng (nm nd)) := row_Cd n1.
pose z : 'cV[F]_(ng (nm nd)) := az (adm nd).
pose y : 'cV[F]_(ng (nm nd)) := ay (adm nd).
pose w : 'cV[F]_(ng (nm nd)) := arho (adm nd).
have ey : node_y alpha n1 + node_res alpha n1 = y + had w (Cd - z) by exact: y_res'.
have ek := @node_inner (ng (nm nd)) (nu (nm nd)) n (Lx (der nd)) (Lu (der nd)) (eGx first n1) (Gu (der nd)) (Gx (der nd))
   (node_y alpha n1) (node_res alpha n1) _ (ay a) (dx (dir nd)) x2 (dx d') (du (dir nd)) u2 (du d') ey eG.
have hr' (i : 'I_(ng (nm nd))) := hr i (ho i).
have hs' (i : 'I_(ng (nm nd))) := hs i (ho i).
have hwp i : 0 < w i 0 by rewrite /w hw; exact: weights_pos.
have hwi i : (airho (adm nd) : 'cV[F]_(ng (nm nd))) i 0 = (w i 0)^-1 by rewrite /w hw; exact: hi.
have key := @node_core F (ng (nm nd)) n (nu (nm nd)) (alb (nm nd)) (aub (nm nd)) alpha sigma (ag (nm nd) (mem nd)) Cd z y w
  (airho (adm nd)) (node_lin n3) (ay a) (dx (dir nd)) x2 (dx d') (du (dir nd)) u2 (du d') _ al0 hwp hwi hr' hs' ek.
move: key; rewrite {1 3 4}/w hw => key.
exact: key.
Qed.

Definition good_tnode (tn : tnode) : Prop :=
  [/\ forall x : 'cV[F]_n, 0 <= quad (tLxx (tder tn) : 'M[F]_n) x,
      forall i, ordered ((tlb (tm tn) : 'cV[option F]_(tng (tm tn))) i 0) ((tub (tm tn) : 'cV[option F]_(tng (tm tn))) i 0),
      tnode_penalty rmin rho tn & tnode_rows tn].
Lemma sq_dist_nil (v w : 'cV[F]_0) : sq_dist v w = 0.
Proof. by rewrite /sq_dist big_ord0. Qed.
Lemma tnode_iter (tn tn' tn2 ts : tnode) : good_tnode tn -> tnode_lin_rows ts ->
  primal_tnode tn tn' -> dual_tnode alpha tn' tn2 -> tcpassed tn ts ->
  let e := it_final alpha sigma preg tn' in let e' := con_final preg ts in
  [/\ tQ e = tQ e', (forall x : 'cV[F]_n, 0 <= quad (tQ e) x) &
   tnode_distance rmin rho alpha sigma tn2 ts + tnode_progress rmin rho alpha sigma tn tn2
   <= tnode_distance rmin rho alpha sigma tn ts + alpha * (2%:R * dot (tq e - tq e') (tsx e - tsx e'))].
Proof.
move=> [hcv ho hp hr] hs h1 h2 h3 /=.
move: h1 h2 h3 hs => [A [v [x2 ->]]] [zp [zr [r [ir ->]]]] [A' [v' [xs [la [dt [z' [zp' [zr' [ys [r' [ir' ->]]]]]]]]]]] hs.
have [hw hi] := tpenalty_weights ho hp.
set n1 := mkTnode _ _ _ _ _ _ _ _ _ _ x2 _ _ _ _ _ _.
set n3 := mkTnode _ _ _ _ _ _ _ _ _ _ _ _ _ _ _ _ _ in hs *.
split=> //; first by move=> x; apply: (le_trans (hcv x)); exact: reg_psd.
pose m := tng (tm tn).
pose Cd : 'cV[F]_m := row_Cd_t n1.
pose z : 'cV[F]_m := taz tn.
pose y : 'cV[F]_m := tay tn.
pose w : 'cV[F]_m := tarho tn.
have ey : tnode_y alpha n1 + tnode_res alpha n1 = y + had w (Cd - z) by exact: y_res'.
have ek := @node_inner m 0 n (tLx (tder tn)) 0 (tGx (tder tn)) 0 (tGx (tder tn))
   (tnode_y alpha n1) (tnode_res alpha n1) _ ys (tdx tn) x2 xs 0 0 0 ey erefl.
rewrite !mul0mx !addr0 in ek.
have d0 (a b : 'cV[F]_0) : dot a b = 0 by rewrite dotS big_ord0.
rewrite [X in _ + X = _]d0 addr0 in ek.
have hr' (i : 'I_m) := hr i (ho i).
have hs' (i : 'I_m) := hs i (ho i).
have hwp i : 0 < w i 0 by rewrite /w hw; exact: tweights_pos.
have hwi i : (tairho tn : 'cV[F]_m) i 0 = (w i 0)^-1 by rewrite /w hw; exact: hi.
have key := @node_core F m n 0 (tlb (tm tn)) (tub (tm tn)) alpha sigma (tg (tm tn) (tme tn)) Cd z y w
  (tairho tn) (tnode_lin n3) ys (tdx tn) x2 xs 0 0 0 _ al0 hwp hwi hr' hs' ek.
move: key; rewrite !sq_dist_nil !addr0 {1 3 4}/w hw => key.
exact: key.
Qed.

Lemma hd_fs_same (tn tn' ts : tnode) : primal_tnode tn tn' -> tcpassed tn ts ->
  forall l l' ls : seq node, List.Forall2 (@primal_node F sq M) l l' -> List.Forall2 (@cpassed E M) l ls ->
  hd_fs l' tn' = hd_fs ls ts.
Proof.
move=> [A [v [x2 ->]]] [A' [v' [xs [la [dt [z' [zp' [zr' [ys [r' [ir' ->]]]]]]]]]]] l l' ls h1.
elim: h1 ls => [|nd nd' l1 l1' [v1 [d1 [u1 ->]]] _ _] ls h2; inversion h2 => //.
by match goal with h : cpassed _ _ |- _ => case: h => [? [? [? ->]]] end.
Qed.
Lemma add4 (a b d A B D k0 k1 : F) : a + b <= d + alpha * (2%:R * k0) -> A + B <= D + alpha * (2%:R * k1) ->
  a + A + (b + B) <= d + D + alpha * (2%:R * (k0 + k1)).
Proof.
move=> h h'; have := ler_add h h'.
have -> : a + b + (A + B) = a + A + (b + B) by mcfold F; ring.
by have -> : d + alpha * (2%:R * k0) + (D + alpha * (2%:R * k1)) = d + D + alpha * (2%:R * (k0 + k1)) by mcfold F; ring.
Qed.
Lemma nodes_iter (tn tn' ts : tnode) : primal_tnode tn tn' -> tcpassed tn ts ->
  forall (l l' l2 ls : seq node) first, (forall nd, List.In nd l -> good_node nd) -> (forall nd, List.In nd ls -> node_lin_rows nd) ->
  List.Forall2 (@primal_node F sq M) l l' -> List.Forall2 (@dual_node F sq M alpha) l' l2 -> List.Forall2 (@cpassed E M) l ls ->
  (first = true -> (hd_dxt l' tn' : 'cV[F]_n) = 0 /\ (hd_dx ls ts : 'cV[F]_n) = 0) ->
  exists k, twins (it_stages alpha sigma preg dreg first l' tn') (con_stages preg dreg first ls ts) k /\
   sum2 (node_distance rmin rho alpha sigma) l2 ls + sum2 (node_progress rmin rho alpha sigma) l l2
   <= sum2 (node_distance rmin rho alpha sigma) l ls + alpha * (2%:R * k).
Proof.
move=> ht hts; elim=> [|nd l IH] l' l2 ls first hg hl h1 h2 h3 hf.
  inversion h1; subst; inversion h2; subst; inversion h3; subst.
  by exists 0; split; [exact: twins0|rewrite /= !mulr0 addr0].
inversion h1 as [|? nd' ? l1 hn1 hl1]; subst; inversion h2 as [|? nd2 ? l3 hn2 hl2]; subst; inversion h3 as [|? ns ? ls1 hn3 hl3]; subst.
have efs := hd_fs_same ht hts hl1 hl3.
have [k0 [t0 i0]] := node_iter (first := first) (hd_fs l1 tn') (hg _ (or_introl erefl)) (hl _ (or_introl erefl)) hn1 hn2 hn3 hf.
have hf' : false = true -> (hd_dxt l1 tn' : 'cV[F]_n) = 0 /\ (hd_dx ls1 ts : 'cV[F]_n) = 0 by [].
have [k1 [t1 i1]] := IH l1 l3 ls1 false (fun x h => hg x (or_intror h)) (fun x h => hl x (or_intror h)) hl1 hl2 hl3 hf'.
exists (k0 + k1); split.
  by rewrite /= -efs; exact: t0.
exact: add4 i0 i1.
Qed.

Definition good_traj (t : traj M) : Prop := (forall nd, List.In nd (run t) -> good_node nd) /\ good_tnode (trm t).
(** one iteration *)
Lemma traj_iter (t t' t2 ts : traj M) : good_traj t -> primal_step t t' -> dual_step alpha t' t2 -> cpassed_traj t ts ->
  lq_kkt 0 (it_stages alpha sigma preg dreg true (run t') (trm t')) (it_final alpha sigma preg (trm t')) ->
  qp_kkt preg dreg ts ->
  distance rmin rho alpha sigma t2 ts + progress rmin rho alpha sigma t t2 <= distance rmin rho alpha sigma t ts.
Proof.
move=> [g1 g2] [p1 p2] [d1 d2] [c1 c2] k1 [k2 l1 l2].
have hf : true = true -> (hd_dxt (run t') (trm t') : 'cV[F]_n) = 0 /\ (hd_dx (run ts) (trm ts) : 'cV[F]_n) = 0.
  move=> _; split; first by move: k1; case: (run t') => [|nd l] [].
  by move: k2; case: (run ts) => [|nd l] [].
have [k [tw i1]] := nodes_iter p2 c2 g1 l1 p1 d1 c1 hf.
have [eQ psd i2] := tnode_iter g2 l2 p2 d2 c2.
have mono := twins_mono eQ psd tw k1 k2.
rewrite subrr dot_zero in mono.
have := add4 i1 i2; rewrite -/(distance _ _ _ _ _ _) => h; apply: le_trans h _.
rewrite ger_addl; apply: mulr_ge0_le0 => //; apply: mulr_ge0_le0 => //; exact: ler0n.
Qed.
End Nodes.
