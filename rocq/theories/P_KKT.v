(** * C42, C43, C44: SolverKKT. *)
From Coq Require Import Ring Field ZArith List Arith.
Set Warnings "-notation-overridden,-ambiguous-paths".
From mathcomp Require Import all_ssreflect all_algebra.
From Verif Require Import FieldTac Eigen EigenExact ExactLemmas Problem LQSpec Riccati SubQP LQHom SsrLia Init Flat KKT KKTSpec KKTSys P_Direction KKTUniq KKTHist KKTNorm.
From Verif Require History.

Set Implicit Arguments.
Unset Strict Implicit.
Unset Printing Implicit Defensive.

Import Order.TTheory GRing.Theory Num.Theory.
Local Open Scope ring_scope.

(** ** Symmetry *)
Section Sym.
Variable F : realFieldType.
Definition symw (w : nat) (K : buf F) : Prop := forall r c, (r < w)%N -> (c < w)%N -> K r c = K c r.
Lemma symw_diag w a m (A : 'M[F]_m) K : A^T = A -> symw w K -> symw w (wrm a a A K).
Proof.
move=> sA hK r c hr hc; rewrite /wrm /wrb andbC; case: (inr a m c && inr a m r); last exact: hK.
rewrite /ent; case: insub => [i|]; case: insub => [j|] //.
by rewrite -[in LHS]sA mxE.
Qed.
Lemma symw_out w i j m k (A : 'M[F]_(m, k)) K : (w <= i)%N -> symw w K -> symw w (wrm i j A K).
Proof. by move=> h hK r c hr hc; rewrite /wrm !wrb_row_out; [exact: hK|slia|slia]. Qed.
Lemma symw_pair w i j m k (A : 'M[F]_(m, k)) K : (i + m <= j)%N -> symw w K -> symw w (wrm j i A^T (wrm i j A K)).
Proof.
move=> h hK r c hr hc; rewrite /wrm /wrb.
have e (x y : nat) : ent A^T x y = ent A y x by rewrite /ent; case: insub => [a|]; case: insub => [b|] //; rewrite mxE.
case: (inrP j k r) => h1; case: (inrP i m c) => h2; case: (inrP j k c) => h3; case: (inrP i m r) => h4;
  rewrite /= ?e //; try (exfalso; slia); exact: hK.
Qed.
End Sym.

Section P.
Variable F : realFieldType.
Variable sq : F -> F.
Notation E := (ExactE sq).
Variable M : manifold E.
Notation n := (mndx M).
Notation node := (node M).
Notation tnode := (tnode M).
Add Field FfKP : (F_field_theory F).
Variable x0 : mX M.
Variable lu : forall N : nat, 'M[F]_N -> 'cV[F]_N -> 'cV[F]_N.
Variable bad : seq (mX M) -> seq {k : nat & vec E k} -> bool.
Variable (l : seq (slot M)) (t : tslot M).

(** what is assumed of the linear solver: exact on nonsingular systems *)
Definition exact_lu : Prop := forall N (A : 'M[F]_N) (b : 'cV[F]_N), A \in unitmx -> A *m lu A b = b.

(** the matrix and right-hand side held by the object *)
Definition system_matrix (s : kkts M) : 'M[F]_(all_pd (run (kk_tr s))) := as_mx _ (kk_K s).
Definition system_vector (s : kkts M) : 'cV[F]_(all_pd (run (kk_tr s))) := as_cv _ (kk_ref s).
(** the direction and multipliers a vector of that size stands for *)
Definition unpacked (s : kkts M) (v : 'cV[F]_(all_pd (run (kk_tr s)))) : traj M :=
  let k := run (kk_tr s) in
  let r := kk_extract (all_x k) (all_p k) 0 0 (entv v) k (trm (kk_tr s)) in mkTraj r.1 r.2.

Lemma directionP s s' : kk_direction x0 lu bad true s = KDok s' ->
  exists2 s1, kk_calcDiff x0 s = Some s1 &
  [/\ kk_K s' = kk_K s1, kk_ref s' = kk_ref s1, only_direction (kk_tr s1) (kk_tr s'),
      kk_tr s' = unpacked (lu (system_matrix s1) (- system_vector s1)) & kk_KKT s' = kk_check (kk_tr s')].
Proof.
rewrite /kk_direction; case: (bad _ _) => //; case ec: (kk_calcDiff x0 s) => [s1|] // [<-]; exists s1 => //.
by split=> //; exact: extract_only.
Qed.
Lemma only_run (a b : traj M) : only_direction a b ->
  [/\ all_x (run b) = all_x (run a), sum_nu (run b) = sum_nu (run a) & all_pd (run b) = all_pd (run a)].
Proof.
move=> /only_shape /shape_dims [hd hx].
have hs : sum_nu (run b) = sum_nu (run a) by rewrite !sum_nu_dims hd.
by split=> //; rewrite /all_pd /all_p hx hs.
Qed.
Lemma only_extract wX w ix iu p (a b : traj M) : only_direction a b ->
  kk_extract wX w ix iu p (run b) (trm b) = kk_extract wX w ix iu p (run a) (trm a).
Proof.
move=> [h [d [l' ->]]]; elim: h ix iu => [|x y k k' [v ->] _ ih] ix iu //=.
by rewrite ih.
Qed.
Lemma only_conv (a b : traj M) : only_direction a b -> (traj_convex b -> traj_convex a) /\ (pos_Luu (run b) -> pos_Luu (run a))
   /\ (traj_sym b -> traj_sym a).
Proof.
move=> [h [d [l' e]]]; rewrite /traj_convex /traj_sym e /=; split; [|split].
- move=> [hb ht]; split=> //; elim: h hb => //= x y k k' [v ->] _ ih hb nd [<-|hn]; first exact: (hb _ (or_introl erefl)).
  by apply: ih => // m hm; apply: hb; right.
- rewrite /pos_Luu; elim: h => //= x y k k' [v ->] _ ih hb nd [<-|hn]; first exact: (hb _ (or_introl erefl)).
  by apply: ih => // m hm; apply: hb; right.
- move=> [hb ht]; split=> //; elim: h hb => //= x y k k' [v ->] _ ih hb nd [<-|hn]; first exact: (hb _ (or_introl erefl)).
  by apply: ih => // m hm; apply: hb; right.
Qed.
Lemma current s s' : kk_calcDiff x0 s = Some s' -> current_derivatives (kk_tr s').
Proof.
move=> /calcDiffP [-> _ _ _ _]; split=> //= nd; elim: (run (kk_tr s)) => //= a k IH [<-|/IH] //.
Qed.
Lemma only_current (a b : traj M) : only_direction a b -> current_derivatives a -> current_derivatives b.
Proof.
move=> [h [d [l' e]]] [hb ht]; split; last by rewrite e.
elim: h hb {ht e} => //= x y k k' [v ->] _ ih hb nd [<-|hn]; first exact: (hb _ (or_introl erefl)).
by apply: ih => // m hm; apply: hb; right.
Qed.
Lemma fill_sym wX wU ix iu (k : seq node) (tn : tnode) K q :
  (ix + n * (size k).+1 <= wX)%N -> (forall nd, List.In nd k -> node_sym nd) -> is_sym (tLxx (tder tn) : 'M[F]_n) ->
  symw (wX + wU) K -> symw (wX + wU) (fst (kk_fill wX wU ix iu k tn K q)).
Proof.
elim: k ix iu K q => [|nd k IH] ix iu K q hx hs ht hK /=; first exact: symw_diag.
have [sx su] := hs nd (or_introl erefl).
rewrite mulnS in hx.
apply: IH => //; [by rewrite /= in hx; slia|by move=> m hm; apply: hs; right|].
apply: symw_out; first by slia.
apply: symw_out; first by slia.
apply: symw_diag => //; apply: symw_pair; first by slia.
exact: symw_diag.
Qed.

(** C42.  For any object history: the stored matrix and vector are those of the KKT system
    of the LQ problem at the current candidate (any vector solves the system iff the
    direction and multipliers it stands for satisfy the LQ problem's optimality
    conditions), and the matrix is symmetric. *)
Theorem C42_system s s' :
  kk_hist x0 lu bad l t s -> kk_direction x0 lu bad true s = KDok s' ->
  current_derivatives (kk_tr s') /\
  [/\ get_xs (kk_tr s') = get_xs (kk_tr s), get_us (kk_tr s') = get_us (kk_tr s),
      traj_sym (kk_tr s') -> is_sym (system_matrix s')
    & forall v, system_matrix s' *m v = - system_vector s' <-> direction_solves x0 (unpacked v)].
Proof.
move=> hh hd; have [s1 ec [eK eR eo etr eKKT]] := directionP hd.
have := calcDiffP ec; set t1 := fst _; cbv zeta => -[et eK1 eR1 _ _].
have [_ _ hz] := hist_inv hh.
have es := shape_calcDiff (kk_tr s); rewrite -/t1 in es.
have hz1 : kk_zeros M (dims (run t1)) (all_x (run t1)) (kk_K s) by have [-> ->] := shape_dims es.
split; first exact: (only_current eo (current ec)).
have [hx1 hx2] : get_xs (kk_tr s') = get_xs (kk_tr s) /\ get_us (kk_tr s') = get_us (kk_tr s).
  move: eo; rewrite et => -[h [d [l' e]]]; rewrite /get_xs /get_us e /t1 /=; rewrite /t1 /= in h.
  have [-> ->] : List.map (fun nd : node => px (pt nd)) (run (kk_tr s')) = List.map (fun nd : node => px (pt nd)) (run (kk_tr s))
    /\ List.map (fun nd : node => existT (vec E) (nu (nm nd)) (pu (pt nd))) (run (kk_tr s')) = List.map (fun nd : node => existT (vec E) (nu (nm nd)) (pu (pt nd))) (run (kk_tr s)).
    elim: (run (kk_tr s)) (run (kk_tr s')) h => [|x k IH] k' h; inversion h; subst => //=.
    by case: H1 => v ->; have [-> ->] := IH _ H3.
  by [].
have [ax as_ ap] := only_run eo; rewrite et in ax as_ ap.
split=> // [sy|v].
- have [_ [_ sy1]] := only_conv eo; have [sr st] := sy1 sy; rewrite et in sr st.
  have core a b : (a < all_pd (run t1))%N -> (b < all_pd (run t1))%N -> kk_K s' a b = kk_K s' b a.
    rewrite eK eK1 /mxE'; cbn [fst snd]; rewrite /kk_mirror.
    set k := run t1 in sr hz1 *; set w := all_p k; set wX := all_x k; set r := kk_fill _ _ _ _ _ _ _ _.
    move=> ha hb; have hww : all_pd k = (w + wX)%N by [].
    have hw : (0 + n * (size k).+1)%N = wX by [].
    have hu : (0 + sum_nu k)%N = sum_nu k by [].
    have hf i c : UR w wX i c = false -> r.1 i c = _ := @as_if_fresh F sq M x0 k (trm t1) (kk_K s) (kk_ref s) hz1 i c.
    set r' := kk_fill _ _ _ _ _ _ _ _ in hf.
    have sy0 : symw w r'.1.
      apply: (@fill_sym wX (sum_nu k) 0 0 k (trm t1)) => //.
      by move=> i c hi hc; rewrite /kk_ident !wrb_row_out //; rewrite -/w; slia.
    have lo i c : (w <= i)%N -> (w <= c)%N -> r'.1 i c = 0.
      move=> hi hc; have [_ _ f3] := @fill_out F sq M wX (sum_nu k) 0 0 k (trm t1) (kk_ident w wX (fun _ _ => 0)) (wrv w (diff M x0 (hd_x k (trm t1)) : 'cV[F]_n) (kk_ref s)) (eq_leq hw) (eq_leq hu).
      rewrite [LHS]f3 //; rewrite /kk_ident wrb_col_out //; rewrite -/w; move: hc; rewrite /w /all_p -/wX; slia.
    have U1 i c : (w <= i)%N -> UR w wX i c = false by move=> hi; rewrite /UR inr_out //; slia.
    have U2 i c : (c < w)%N -> UR w wX i c = false by move=> hi; rewrite /UR andbC inr_out //; slia.
    rewrite -/(UR w wX a b) -/(UR w wX b a).
    case: (ltnP a w) => hA; case: (ltnP b w) => hB.
    + by rewrite !U2 // !hf ?U2 // sy0.
    + rewrite (U2 b a) //.
      have -> : UR w wX a b = true by rewrite /UR; apply/andP; split; apply/inrP; slia.
      by [].
    + rewrite (U2 a b) //.
      have -> : UR w wX b a = true by rewrite /UR; apply/andP; split; apply/inrP; slia.
      by [].
    + by rewrite !U1 // !hf ?U1 // !lo.
  by apply/matrixP => i j; rewrite !mxE core // -ap.
- have gen N (u : 'cV[F]_N) : N = all_pd (run t1) -> as_mx N (kk_K s') *m u = - as_cv N (kk_ref s') <->
      direction_solves x0 (mkTraj (kk_extract (all_x (run t1)) (all_p (run t1)) 0 0 (entv u) (run t1) (trm t1)).1
                                  (kk_extract (all_x (run t1)) (all_p (run t1)) 0 0 (entv u) (run t1) (trm t1)).2).
    move=> eN; subst N; have := @system_iff F sq M x0 (run t1) (trm t1) (kk_K s) (kk_ref s) hz1 (entv u).
    have -> : u = as_cv (all_pd (run t1)) (entv u) by apply/matrixP => i j; rewrite ord1 mxE entv_ord.
    cbv zeta; rewrite eK eR eK1 eR1 /mxE'; cbn [fst snd].
    by have -> : entv (as_cv (all_pd (run t1)) (entv u)) = entv u by congr entv; apply/matrixP => i j; rewrite ord1 mxE entv_ord.
  have := gen _ v ap; rewrite /system_matrix /system_vector /unpacked; rewrite et in eo.
  by rewrite /all_p ax as_ (only_extract _ _ _ _ _ eo).
Qed.

(** the stored direction is the unpacked solution of the linear solver *)
Lemma stored_direction s s' : kk_direction x0 lu bad true s = KDok s' ->
  exists2 v, v = lu (system_matrix s') (- system_vector s') & kk_tr s' = unpacked v.
Proof.
move=> hd; have [s1 ec [eK eR eo etr _]] := directionP hd; exists (lu (system_matrix s') (- system_vector s')) => //.
rewrite [LHS]etr /unpacked /system_matrix /system_vector eK eR; have [ax as_ ap] := only_run eo.
by rewrite ap /all_p ax as_ (only_extract _ _ _ _ _ eo).
Qed.
(** C42.  When the matrix is nonsingular (and the linear solver exact), the stored
    direction and multipliers solve the LQ problem's KKT system. *)
Theorem C42_direction_solves_lq s s' : exact_lu ->
  kk_hist x0 lu bad l t s -> kk_direction x0 lu bad true s = KDok s' ->
  system_matrix s' \in unitmx -> direction_solves x0 (kk_tr s').
Proof.
move=> hlu hh hd hu; have [v ev ->] := stored_direction hd.
have [_ [_ _ _ hs]] := C42_system hh hd; apply/hs; rewrite ev; exact: hlu.
Qed.
Lemma conv_kkt (tr : traj M) : traj_convex tr -> pos_Luu (run tr) ->
  lq_convex (kkt_stages (run tr) (trm tr)) (kkt_final (trm tr)).
Proof.
case: tr => k tn []; rewrite /= => cv ct pL; elim: k cv pL => [|nd k IH] cv pL //=; split.
- exact: (cv nd (or_introl erefl)).
- exact: (pL nd (or_introl erefl)).
- by apply: IH => m hm; [apply: cv; right|apply: pL; right].
Qed.
Lemma sym_kkt (tr : traj M) : traj_sym tr -> lq_symmetric (kkt_stages (run tr) (trm tr)) (kkt_final (trm tr)).
Proof.
case: tr => k tn []; rewrite /= => sr st; elim: k sr => [|nd k IH] sr //=.
by have [sx su] := sr nd (or_introl erefl); split=> //; apply: IH => m hm; apply: sr; right.
Qed.
(** C42.  On convex problems with positive definite control Hessians the matrix is
    nonsingular, and the stored controls are the unique minimiser of the LQ problem. *)
Theorem C42_convex_unique_minimiser s s' : exact_lu ->
  kk_hist x0 lu bad l t s -> kk_direction x0 lu bad true s = KDok s' ->
  traj_sym (kk_tr s') -> traj_convex (kk_tr s') -> pos_Luu (run (kk_tr s')) ->
  [/\ system_matrix s' \in unitmx, direction_solves x0 (kk_tr s')
    & let stages := kkt_stages (run (kk_tr s')) (trm (kk_tr s')) in
      let e := kkt_final (trm (kk_tr s')) in
      let d := - (diff M x0 (hd_x (run (kk_tr s')) (trm (kk_tr s'))) : 'cV[F]_n) in
      forall v : controls stages, v <> own_controls stages -> lq_value d e (own_controls stages) < lq_value d e v].
Proof.
move=> hlu hh hd sy cv pL.
have hu : system_matrix s' \in unitmx.
  have [s1 ec [eK eR eo etr _]] := directionP hd.
  have := calcDiffP ec; set t1 := fst _; cbv zeta => -[et eK1 eR1 _ _].
  have [_ _ hz] := hist_inv hh; have es := shape_calcDiff (kk_tr s); rewrite -/t1 in es.
  have hz1 : kk_zeros M (dims (run t1)) (all_x (run t1)) (kk_K s) by have [-> ->] := shape_dims es.
  have [ax as_ ap] := only_run eo; have [c1 [c2 _]] := only_conv eo; rewrite et in ap c1 c2.
  rewrite /system_matrix ap eK eK1; apply: convex_unit => //; [|exact: c2].
  by have := c1 cv; case: (t1).
have hs := C42_direction_solves_lq hlu hh hd hu; split=> //.
by move=> stages e d v hv; apply: kkt_strict_min => //; [exact: sym_kkt|exact: conv_kkt].
Qed.

(** ** C43 *)
Lemma fs_norm_le (k : seq node) (tn : tnode) tol : 0 <= tol ->
  (forall nd, List.In nd k -> (fs nd : 'cV[F]_n) = 0) -> (tfs tn : 'cV[F]_n) = 0 -> kk_fs_norm k tn <= tol.
Proof.
move=> h0 hk ht; have z : xlinf (0 : 'cV[F]_n) <= tol by apply/xlinf_small => // i; rewrite mxE normr0.
elim: k hk => [|nd k IH] hk /=; first by rewrite ht.
by rewrite le_maxl (hk nd (or_introl erefl)) z IH // => m hm; apply: hk; right.
Qed.
Lemma opp_flip m (a b c : 'cV[F]_m) : a + - b = - c -> b - c = a.
Proof.
move=> h; apply/matrixP => i j; move: (congr1 (fun v : 'cV[F]_m => v i j) h); rewrite !mxE.
move: (a i j) (b i j) (c i j) => x y z e; have -> : z = y - x by apply: oppr_inj; rewrite -e opprB addrC.
by mcfold F; ring.
Qed.
Lemma opp_flip0 m (a b : 'cV[F]_m) : a + - b = 0 -> b = a.
Proof. by move=> /eqP; rewrite subr_eq0 => /eqP ->. Qed.
Definition reported_node (nd : node) (tol : F) : Prop :=
     entries_le (2%:R *: (Lx (der nd) : 'cV[F]_n) + (Lxx (der nd) : 'M[F]_n) *m (dx (dir nd) : 'cV[F]_n)
                 + (Lxu (der nd) : 'M[F]_(n, nu (nm nd))) *m (du (dir nd) : 'cV[F]_(nu (nm nd)))) tol /\
     entries_le (2%:R *: (Lu (der nd) : 'cV[F]_(nu (nm nd))) + (Luu (der nd) : 'M[F]_(nu (nm nd))) *m (du (dir nd) : 'cV[F]_(nu (nm nd)))
                 + (Lxu (der nd) : 'M[F]_(n, nu (nm nd)))^T *m (dx (dir nd) : 'cV[F]_n)) tol.
Lemma residual_le (k : seq node) (tn : tnode) d acc tol : 0 <= tol ->
  lq_kkt d (kkt_stages k tn) (kkt_final tn) ->
  kk_residual acc k tn <= tol <->
  [/\ acc <= tol, forall nd, List.In nd k -> reported_node nd tol
    & entries_le (2%:R *: (tLx (tder tn) : 'cV[F]_n) + (tLxx (tder tn) : 'M[F]_n) *m (tdx tn : 'cV[F]_n)) tol].
Proof.
move=> h0; elim: k d acc => [|nd k IH] d acc.
  move=> [_ h]; rewrite /= smax_le xlinf_small //.
  have <- : (tLx (tder tn) : 'cV[F]_n) - (tlam tn : 'cV[F]_n) = 2%:R *: (tLx (tder tn) : 'cV[F]_n) + (tLxx (tder tn) : 'M[F]_n) *m (tdx tn : 'cV[F]_n).
    by move: h => /= <-; rewrite scaler_nat mulr2n addrA.
  by split=> [[h1 h2]|[h1 _ h2]].
cbn [kkt_stages lq_kkt]; rewrite next_l_lam => -[_ hu hx hk]; cbn [kk_residual].
rewrite /= in hu hx; rewrite !mulmxN in hu hx.
have ex := opp_flip hx; have eu := opp_flip0 hu.
set vx := (Lx (der nd) : 'cV[F]_n) + _ - _; set vu := (Lu (der nd) : 'cV[F]_(nu (nm nd))) + _.
have rn : reported_node nd tol <-> xlinf vx <= tol /\ xlinf vu <= tol.
  have e1 : vx = 2%:R *: (Lx (der nd) : 'cV[F]_n) + (Lxx (der nd) : 'M[F]_n) *m (dx (dir nd) : 'cV[F]_n)
                 + (Lxu (der nd) : 'M[F]_(n, nu (nm nd))) *m (du (dir nd) : 'cV[F]_(nu (nm nd))).
    by rewrite /vx -addrA ex scaler_nat mulr2n !addrA.
  have e2 : vu = 2%:R *: (Lu (der nd) : 'cV[F]_(nu (nm nd))) + (Luu (der nd) : 'M[F]_(nu (nm nd))) *m (du (dir nd) : 'cV[F]_(nu (nm nd)))
                 + (Lxu (der nd) : 'M[F]_(n, nu (nm nd)))^T *m (dx (dir nd) : 'cV[F]_n).
    by rewrite /vu eu scaler_nat mulr2n !addrA.
  by rewrite e1 e2 !xlinf_small.
split.
- move=> /(IH _ _ hk) [/smax_le [/smax_le [h1 h2] h3] h4 h5]; split=> // m [<-|hm]; [by apply/rn|exact: h4].
- move=> [h1 h2 h3]; apply/(IH _ _ hk); have /rn [r1 r2] := h2 nd (or_introl erefl); split=> //.
    by apply/smax_le; split=> //; apply/smax_le.
  by move=> m hm; apply: h2; right.
Qed.

(** C43 (what the code does).  After computing a direction from a nonsingular system, the
    residual SolverKKT compares with the tolerance bounds, at every node, twice the
    gradient plus the Hessian times the direction; the defects do not enter. *)
Theorem C43_reported_residual s s' tol : exact_lu ->
  kk_hist x0 lu bad l t s -> kk_direction x0 lu bad true s = KDok s' ->
  system_matrix s' \in unitmx -> 0 <= tol ->
  kk_KKT s' <= tol <-> reported_le (kk_tr s') tol.
Proof.
move=> hlu hh hd hu h0; have hs := C42_direction_solves_lq hlu hh hd hu.
have [s1 _ [_ _ _ _ ->]] := directionP hd.
have [hf ht] := hist_fs (KH_dir hh hd).
have hfs := fs_norm_le h0 hf ht; have := residual_le 0 h0 hs; rewrite /kk_check => hr.
split; first by move/smax_le => [/hr [_ h1 h2] _].
by move=> [h1 h2]; apply/smax_le; split=> //; apply/hr.
Qed.
(** every gradient entry of every node is at most [b] in absolute value *)
Definition gradients_le (tr : traj M) (b : F) : Prop :=
  (forall nd, List.In nd (run tr) -> entries_le (Lx (der nd) : 'cV[F]_n) b /\ entries_le (Lu (der nd) : 'cV[F]_(nu (nm nd))) b) /\
  entries_le (tLx (tder (trm tr)) : 'cV[F]_n) b.
Lemma two_le m (v : 'cV[F]_m) b : entries_le (2%:R *: v) (2%:R * b) <-> entries_le v b.
Proof. by split=> h i; have := h i; rewrite mxE normrM (ger0_norm (ler0n F 2)) ler_pmul2l ?ltr0n. Qed.
(** C43 (refutation, general form).  Where the computed direction is zero -- in particular
    at a solution -- the residual is twice the largest gradient entry, not zero. *)
Theorem C43_zero_direction_residual s s' b : exact_lu ->
  kk_hist x0 lu bad l t s -> kk_direction x0 lu bad true s = KDok s' ->
  system_matrix s' \in unitmx -> 0 <= b -> zero_direction (run (kk_tr s')) (trm (kk_tr s')) ->
  kk_KKT s' <= 2%:R * b <-> gradients_le (kk_tr s') b.
Proof.
move=> hlu hh hd hu h0 [zd zt]; have h2 : 0 <= 2%:R * b by rewrite mulr_ge0 ?ler0n.
have hr := C43_reported_residual hlu hh hd hu h2.
have red : reported_le (kk_tr s') (2%:R * b) <-> gradients_le (kk_tr s') b.
  rewrite /reported_le /gradients_le zt mulmx0 addr0 two_le.
  split=> -[h ht]; split=> // nd hin; have [z1 z2] := zd nd hin; have := h nd hin;
    by rewrite z1 z2 !mulmx0 !addr0 !two_le.
by split=> [/hr /red //|/red /hr].
Qed.

(** ** C44 *)
(** C44 (termination): the retry loop of an iteration runs at most twice *)
Lemma retry_two c fuel recalc s : kk_retry x0 lu bad c (S (S fuel)) recalc s <> KRfuel M.
Proof.
rewrite /=; case e1: (kk_direction x0 lu bad recalc s) => [s1|s1|] //.
case: ifP => // _; case e2: (kk_direction x0 lu bad false s1) => [s2|s2|] //.
Qed.
Theorem C44_solve_ends c fuel xs us maxiter feas s : kk_solve x0 lu bad c (S (S fuel)) xs us maxiter feas s <> KFuel M.
Proof.
rewrite /kk_solve; case: (set_guess _ _ _) => [tr|] //.
move: (set_k_feas _ _) true 0%N => s1 rc i; elim: maxiter i rc s1 => [//|k IH] i rc s1.
cbn [kk_loop]; have := @retry_two c fuel rc (set_k_iter s1 i).
case: (kk_retry _ _ _ _ _ _ _) => [rc1 s2|s2||] // _.
case: ifP => // _; case: ifP => // _; exact: IH.
Qed.
(** once the direction has raised, the rest of the call works with the matrix and
    right-hand side it started from *)
Lemma stale_direction s : exists2 s', kk_direction x0 lu bad false s = KDok s' & kk_K s' = kk_K s /\ kk_ref s' = kk_ref s.
Proof. by eexists; first reflexivity. Qed.
Lemma search_stale c al s : kk_K (kk_search bad c al s) = kk_K s /\ kk_ref (kk_search bad c al s) = kk_ref s.
Proof.
elim: al s => [|a al IH] s //=.
have [h1 h2] : kk_K (snd (kk_tryStep bad a (set_k_step s a))) = kk_K s /\ kk_ref (snd (kk_tryStep bad a (set_k_step s a))) = kk_ref s.
  by rewrite /kk_tryStep; case: (bad _ _).
case: (kk_tryStep _ _ _) h1 h2 => [[] s1] /= h1 h2; last by have [-> ->] := IH s1.
by case: ifP => // _; set s2 := set_k_dVexp _ _; have [-> ->] := IH s2.
Qed.
Lemma loop_stale c fuel k i s b s' : kk_loop x0 lu bad c (S (S fuel)) k i false s = KRet b s' -> kk_K s' = kk_K s /\ kk_ref s' = kk_ref s.
Proof.
elim: k i s => [|k IH] i s; first by case=> _ <-.
cbn [kk_loop kk_retry]; have [s1 -> [e1 e2]] := stale_direction (set_k_iter s i).
case: ifP => _; first by case=> _ <-.
set s3 := kk_stopping _; have [e3 e4] : kk_K s3 = kk_K s /\ kk_ref s3 = kk_ref s.
  by have [a1 a2] := search_stale c (kc_alphas c) (kk_expected s1); split; [rewrite -[LHS]/(kk_K (kk_search _ _ _ _)) a1|rewrite -[LHS]/(kk_ref (kk_search _ _ _ _)) a2].
case: ifP => _; first by case=> _ <-.
by move/IH; rewrite e3 e4.
Qed.
(** C44 (what the code does).  If evaluating the models at the guess raises, the call does
    not report it: it goes on, and every direction of the call comes from the linear
    system left by the previous call. *)
Theorem C44_raise_keeps_old_system c fuel xs us maxiter feas s tr :
  kk_hist x0 lu bad l t s -> kc_rmax c != 0 ->
  set_guess xs us (kk_tr s) = Some tr -> bad (get_xs tr) (get_us tr) -> (0 < maxiter)%N ->
  exists b s', kk_solve x0 lu bad c (S (S fuel)) xs us maxiter feas s = KRet b s' /\
    kk_K s' = kk_K s /\ kk_ref s' = kk_ref s.
Proof.
move=> hh hm hg hb; case: maxiter => [//|k] _; have hp : kk_preg s = 0 by have [] := hist_inv hh.
rewrite /kk_solve hg; set s0 := set_k_feas _ _; set s1 := set_k_iter s0 0.
have d1 : kk_direction x0 lu bad true s1 = KDthrow s1.
  by rewrite /kk_direction -[get_xs (kk_tr s1)]/(get_xs tr) -[get_us (kk_tr s1)]/(get_us tr) hb.
have er : kk_retry x0 lu bad c (S (S fuel)) true s1 = kk_retry x0 lu bad c (S fuel) false s1.
  rewrite -[LHS]/(match kk_direction x0 lu bad true s1 with KDok z => KRok true z | KDthrow z => if kk_preg z == kc_rmax c then KRfalse z else kk_retry x0 lu bad c (S fuel) false z | KDub => KRub M end) d1.
  by rewrite -[kk_preg s1]/(kk_preg s) hp eq_sym (negbTE hm).
have el : kk_loop x0 lu bad c (S (S fuel)) (S k) 0 true s0 = kk_loop x0 lu bad c (S (S fuel)) (S k) 0 false s0.
  cbn [kk_loop]; rewrite -/s1 er; cbn [kk_retry]; by have [s2 -> _] := stale_direction s1.
rewrite el.
suff : exists b s', kk_loop x0 lu bad c (S (S fuel)) (S k) 0 false s0 = KRet b s'.
  by move=> [b [s' e]]; exists b, s'; split=> //; have := loop_stale e.
move: (S k) 0%N s0 {d1 er el s1}; elim=> [|m IH] i z; first by exists false, (set_k_iter z i).
cbn [kk_loop kk_retry]; have [z1 -> _] := stale_direction (set_k_iter z i).
by case: ifP => _; [eexists; eexists|case: ifP => _; [eexists; eexists|exact: IH]].
Qed.
(** C44 (refutation).  After a call that ended with the residual below the tolerance, a call
    whose guess makes the models raise returns true at once, with that guess as candidate. *)
Lemma check_pt wX w ix iu p (k k' : seq node) (tn tn' : tnode) : List.Forall2 (@History.ptonly E M) k k' ->
  (exists x, tn' = set_tx tn x) ->
  let e := kk_extract wX w ix iu p k tn in let e' := kk_extract wX w ix iu p k' tn' in
  [/\ forall acc, kk_residual acc e'.1 e'.2 = kk_residual acc e.1 e.2, kk_fs_norm e'.1 e'.2 = kk_fs_norm e.1 e.2
    & hd_lam e'.1 e'.2 = hd_lam e.1 e.2].
Proof.
move=> h [x ->]; elim: h ix iu => [|a b k1 k2 [q ->] _ ih] ix iu //=.
have [h1 h2 h3] := ih (ix + n)%N (iu + nu (nm a))%N.
by split; [move=> acc; rewrite h3 h1|rewrite h2|].
Qed.
Theorem C44_true_after_raise c fuel xs us maxiter feas s s1 tr :
  kk_hist x0 lu bad l t s -> kk_direction x0 lu bad true s = KDok s1 ->
  kk_KKT s1 <= kc_tol c -> kc_rmax c != 0 ->
  set_guess xs us (kk_tr s1) = Some tr -> bad (get_xs tr) (get_us tr) -> (0 < maxiter)%N ->
  exists2 s', kk_solve x0 lu bad c (S (S fuel)) xs us maxiter feas (kk_expected s1) = KRet true s' &
    get_xs (kk_tr s') = get_xs tr /\ get_us (kk_tr s') = get_us tr.
Proof.
move=> hh hd htol hm hg hb; case: maxiter => [//|k] _; have hp : kk_preg s1 = 0 by have [] := hist_inv (KH_dir hh hd).
rewrite /kk_solve -[kk_tr (kk_expected s1)]/(kk_tr s1) hg; set s0 := set_k_feas _ _; set s2 := set_k_iter s0 0.
have d1 : kk_direction x0 lu bad true s2 = KDthrow s2.
  by rewrite /kk_direction -[get_xs (kk_tr s2)]/(get_xs tr) -[get_us (kk_tr s2)]/(get_us tr) hb.
have er : kk_retry x0 lu bad c (S (S fuel)) true s2 = kk_retry x0 lu bad c (S fuel) false s2.
  rewrite -[LHS]/(match kk_direction x0 lu bad true s2 with KDok z => KRok true z | KDthrow z => if kk_preg z == kc_rmax c then KRfalse z else kk_retry x0 lu bad c (S fuel) false z | KDub => KRub M end) d1.
  by rewrite -[kk_preg s2]/(kk_preg s1) hp eq_sym (negbTE hm).
have hsh : shape tr = shape (kk_tr s1) := shape_guess hg.
have /History.set_guessP [hp1 [hp2 _]] := hg.
have [s3 e3 [etr eK]] : exists2 s3, kk_direction x0 lu bad false s2 = KDok s3 & only_direction tr (kk_tr s3) /\ kk_KKT s3 = kk_KKT s1.
  eexists; first reflexivity.
  split; first exact: extract_only.
  have [v ev et] := stored_direction hd.
  have [sa _ [_ _ _ _ ->]] := directionP hd.
  have [hdm hx] := shape_dims hsh.
  have hsn : sum_nu (run tr) = sum_nu (run (kk_tr s1)) by rewrite !sum_nu_dims hdm.
  rewrite [RHS](_ : _ = kk_check (unpacked v)); last by rewrite -et.
  cbn [kk_KKT kk_tr]; rewrite /unpacked ev /system_matrix /system_vector /kk_solve_lu.
  rewrite -[kk_tr s2]/tr -[kk_K s2]/(kk_K s1) -[kk_ref s2]/(kk_ref s1) /all_pd /all_p hx hsn.
  set p := entv _; rewrite /kk_check; cbn [run trm].
  by have [h1 h2 _] := check_pt (all_x (run (kk_tr s1))) (all_x (run (kk_tr s1)) + sum_nu (run (kk_tr s1)))%N 0 0 p hp1 hp2; rewrite h1 h2.
exists (kk_expected s3); last first.
  move: etr => [h [d [l' e]]]; rewrite -[kk_tr (kk_expected s3)]/(kk_tr s3) /get_xs /get_us e /=.
  have [-> ->] : List.map (fun nd : node => px (pt nd)) (run (kk_tr s3)) = List.map (fun nd : node => px (pt nd)) (run tr)
    /\ List.map (fun nd : node => existT (vec E) (nu (nm nd)) (pu (pt nd))) (run (kk_tr s3)) = List.map (fun nd : node => existT (vec E) (nu (nm nd)) (pu (pt nd))) (run tr).
    by elim: h => //= a b k1 k2 [w ->] _ [-> ->].
  by [].
cbn [kk_loop]; rewrite -/s2 er; cbn [kk_retry]; rewrite e3.
by rewrite -[kk_KKT (kk_expected s3)]/(kk_KKT s3) eK htol.
Qed.
End P.
