(** * C40: the QP that SolverPROXQP hands to its backend. *)
From Coq Require Import Ring Field ZArith List Arith.
Set Warnings "-notation-overridden,-ambiguous-paths".
From mathcomp Require Import all_ssreflect all_algebra.
From Verif Require Import FieldTac Eigen EigenExact Problem LQSpec SsrLia CSQP Init Flat KKT KKTSpec KKTSys PROXQP PROXBlocks PROXSpec PROXSys PROXHist.

Set Implicit Arguments.
Unset Strict Implicit.
Unset Printing Implicit Defensive.

Import Order.TTheory GRing.Theory Num.Theory.
Local Open Scope ring_scope.

Section P.
Variable F : realFieldType.
Variable sq : F -> F.
Notation E := (ExactE sq).
Variable M : manifold E.
Notation n := (mndx M).
Notation node := (node M).
Notation tnode := (tnode M).
Variable x0 : mX M.
Variable qp : forall N Me Mi : nat, 'M[F]_N -> 'cV[F]_N -> 'M[F]_(Me, N) -> 'cV[F]_Me ->
  'M[F]_(Mi, N) -> 'cV[option F]_Mi -> 'cV[option F]_Mi -> option ('cV[F]_N * 'cV[F]_Me * 'cV[F]_Mi).
Variable (l : seq (slot M)) (t : tslot M).

(** ** The data of the QP held by the object (what is passed to qp_.init) *)
Section Data.
Variable s : pqs M.
Definition dimx := nvars (run (pq_tr s)).
Definition dime := neq (run (pq_tr s)).
Definition dimi := nin (run (pq_tr s)) (trm (pq_tr s)).
Definition QP_P : 'M[F]_dimx := mxof _ _ (pq_P s).
Definition QP_q : 'cV[F]_dimx := as_cv _ (pq_q s).
Definition QP_A : 'M[F]_(dime, dimx) := mxof _ _ (pq_A s).
Definition QP_b : 'cV[F]_dime := as_cv _ (pq_b s).
Definition QP_C : 'M[F]_(dimi, dimx) := mxof _ _ (pq_C s).
Definition QP_l : 'cV[option F]_dimi := \col_i pq_l s i.
Definition QP_u : 'cV[option F]_dimi := \col_i pq_u s i.
(** the direction and multipliers that a solution of the QP stands for *)
Definition unpacked (x : 'cV[F]_dimx) (y : 'cV[F]_dime) (z : 'cV[F]_dimi) : traj M :=
  let k := run (pq_tr s) in
  let r := pq_extract (neq k) 0 0 0 (entv x) (entv y) (entv z) k (trm (pq_tr s)) in mkTraj r.1 r.2.
End Data.
(** what is assumed of the backend: its answers satisfy the optimality conditions *)
Definition exact_backend : Prop := forall N Me Mi P q A b C lo hi x y z,
  @qp N Me Mi P q A b C lo hi = Some (x, y, z) -> dense_kkt P q A b C lo hi x y z.
Lemma addcE N (a b : 'cV[F]_N) i : (a + b) i 0 = a i 0 + b i 0.
Proof. by rewrite mxE. Qed.
Lemma as_cv_entv N (x : 'cV[F]_N) : as_cv N (entv x) = x.
Proof. by apply/colP => i; rewrite mxE entv_ord. Qed.

(** the object's buffers describe the subproblem at its own trajectory *)
Definition assembled (s : pqs M) : Prop := forall (x : 'cV[F]_(dimx s)) y z,
  [/\ dense_cost (QP_P s) (QP_q s) x = sub_cost (run (unpacked x y z)) (trm (unpacked x y z)),
      dense_feasible (QP_A s) (QP_b s) (QP_C s) (QP_l s) (QP_u s) x <->
        sub_dynamics (run (unpacked x y z)) (trm (unpacked x y z)) /\ sub_bounds (run (unpacked x y z)) (trm (unpacked x y z))
    & dense_kkt (QP_P s) (QP_q s) (QP_A s) (QP_b s) (QP_C s) (QP_l s) (QP_u s) x y z <-> sub_kkt (unpacked x y z)].

Lemma nm_sums (k k' : seq node) : [seq nm nd | nd <- k] = [seq nm nd | nd <- k'] ->
  [/\ List.length k = List.length k', sum_nu k = sum_nu k', sum_ng k = sum_ng k' & forall p iu, layout_ok p iu k -> layout_ok p iu k'].
Proof.
elim: k k' => [|a k IH] [|b k'] //= [e /IH [h1 h2 h3 h4]]; rewrite h1 h2 h3 e; split=> // p iu [g1 g2].
by split=> //; exact: h4.
Qed.
Lemma scope (k : seq node) (tn : tnode) : k <> [::] ->
  [/\ (List.length k * n)%N = neq k, ((0 + size k) * n)%N = neq k, (neq k + 0 + sum_nu k)%N = nvars k
    & (0 + sum_ng k + tng (tm tn))%N = nin k tn].
Proof. by move=> h; split=> //; rewrite ?addn0. Qed.

(** objective and dynamics, whatever the control dimensions *)
Definition core (s : pqs M) : Prop := forall (x : 'cV[F]_(dimx s)) y z,
  dense_cost (QP_P s) (QP_q s) x = sub_cost (run (unpacked x y z)) (trm (unpacked x y z)) /\
  (QP_A s *m x = QP_b s <-> sub_dynamics (run (unpacked x y z)) (trm (unpacked x y z))).
Lemma calc_core c (s : pqs M) : run (pq_tr s) <> [::] ->
  (hd_dx (run (pq_tr s)) (trm (pq_tr s)) : 'cV[F]_n) = 0 -> zeros (pq_tr s) s -> core (pq_calc c s).
Proof.
move=> hne hdx hz x y z; have es := calc_shape c s.
have [z1 z2 z3 z4 z5] := zeros_shape (esym es) hz.
set s1 := pq_calc c s in es *; set k := run (pq_tr s1) in z1 z2 z3 z4 z5 *; set tn := trm (pq_tr s1) in z1 z2 z3 z4 z5 *.
have e1 : [seq nm nd | nd <- k] = [seq nm nd | nd <- run (pq_tr s)] by case: es.
have e3 : hd_dx k tn = hd_dx (run (pq_tr s)) (trm (pq_tr s)) by case: es.
clear es.
have [el enu eng elay] := nm_sums (esym e1).
have hne' : k <> [::] by move=> h; move: el; rewrite h; case: (run (pq_tr s)) hne.
have hdx' : (hd_dx k tn : 'cV[F]_n) = 0 by rewrite -hdx e3.
have [d1 d2 d3 d4] := scope tn hne'.
have h0 : k <> [::] \/ 0%N <> 0%N by left.
have hd0 : 0%N = 0%N -> (hd_dx k tn : 'cV[F]_n) = 0 by [].
set X := entv x; set Y := entv y; set Z := entv z.
have [pw1 pw2 _] := pw_geo tn h0 d2 d3.
have [aw1 aw2 _] := aw_geo d2 d3.
have [qw1 qw2 _] := qw_geo tn h0 d2 d3.
have [bw1 bw2 _] := @bw_geo F sq M (neq k) 0 k tn d2.
have bilP (d : nat -> F) : bil (dimx s1) (dimx s1) (pq_P s1) d X = bsum (pw (neq k) 0 0 k tn) d X by exact: bil_filled.
have bilA u v : bil (dime s1) (dimx s1) (pq_A s1) u v = bsum (aw (neq k) 0 0 k) u v by exact: bil_filled.
have vq (d : nat -> F) : \sum_(r < dimx s1) d r * pq_q s1 r = ssum (qw (neq k) 0 0 k tn) d by exact: vsum_filled.
have vb (d : nat -> F) : \sum_(r < dime s1) d r * pq_b s1 r = ssum (bw 0 k tn) d by exact: vsum_filled.
have eX : as_cv (dimx s1) X = x by exact: as_cv_entv.
have eY : as_cv (dime s1) Y = y by exact: as_cv_entv.
have eZ : as_cv (dimi s1) Z = z by exact: as_cv_entv.
have eu : unpacked x y z = mkTraj (pq_extract (neq k) 0 0 0 X Y Z k tn).1 (pq_extract (neq k) 0 0 0 X Y Z k tn).2 by [].
(* dynamics *)
have dynOK : QP_A s1 *m x = QP_b s1 <-> sub_dynamics (run (unpacked x y z)) (trm (unpacked x y z)).
  rewrite eu; cbn [run trm].
  rewrite -(@dyn_ok F sq M (neq k) X Y Z 0 0 0 k tn hd0).
  pose f r := \sum_(j < dimx s1) pq_A s1 r j * X j - pq_b s1 r.
  have hf (d : nat -> F) : \sum_(r < dime s1) d r * f r = ssum (dyn (neq k) X 0 0 k tn) d.
    rewrite -dyn_sum -bilA -vb bil_row -sumrB; apply: eq_bigr => r _; by rewrite mulrBr.
  have hp := dyn_pos (neq k) X 0 0 k tn.
  rewrite -(func_zero hf); [|exact: sdisj_pos (esym hp) bw2|by rewrite (swithin_pos _ hp)].
  have ef (r : 'I_(dime s1)) : f r = (QP_A s1 *m x) r 0 - QP_b s1 r 0.
    rewrite /f !mxE; congr (_ - _); apply: eq_bigr => j _; rewrite !mxE -eX mxE; by [].
  split=> [h r hr|h].
    by have := ef (Ordinal hr); rewrite h subrr.
  by apply/colP => r; apply/eqP; rewrite -subr_eq0 -ef h.
split=> //.
  rewrite eu; cbn [run trm]; rewrite -(@cost_ok F sq M (neq k) X Y Z 0 0 0 k tn h0 hd0) -bilP -vq /dense_cost quad_dot bil_mul eX; congr (_ / _ + _).
  by rewrite dotS; apply: eq_bigr => r _; rewrite -[in x r 0]eX mxE.
by rewrite dot_sym dotS; apply: eq_bigr => r _; rewrite -[in x r 0]eX !mxE.
Qed.
Lemma calc_assembled c (s : pqs M) : run (pq_tr s) <> [::] -> layout_ok 0 0 (run (pq_tr s)) ->
  (hd_dx (run (pq_tr s)) (trm (pq_tr s)) : 'cV[F]_n) = 0 -> zeros (pq_tr s) s -> assembled (pq_calc c s).
Proof.
move=> hne hlay hdx hz x y z; have es := calc_shape c s.
have [z1 z2 z3 z4 z5] := zeros_shape (esym es) hz.
have [costOK dynOK] := @calc_core c s hne hdx hz x y z.
set s1 := pq_calc c s in es costOK dynOK *; set k := run (pq_tr s1) in z1 z2 z3 z4 z5 *; set tn := trm (pq_tr s1) in z1 z2 z3 z4 z5 *.
have e1 : [seq nm nd | nd <- k] = [seq nm nd | nd <- run (pq_tr s)] by case: es.
have e3 : hd_dx k tn = hd_dx (run (pq_tr s)) (trm (pq_tr s)) by case: es.
clear es.
have [el enu eng elay] := nm_sums (esym e1).
have hne' : k <> [::] by move=> h; move: el; rewrite h; case: (run (pq_tr s)) hne.
have hlay' := elay _ _ hlay.
have hdx' : (hd_dx k tn : 'cV[F]_n) = 0 by rewrite -hdx e3.
have [d1 d2 d3 d4] := scope tn hne'.
have h0 : k <> [::] \/ 0%N <> 0%N by left.
have hd0 : 0%N = 0%N -> (hd_dx k tn : 'cV[F]_n) = 0 by [].
set X := entv x; set Y := entv y; set Z := entv z.
have [pw1 pw2 _] := pw_geo tn h0 d2 d3.
have [aw1 aw2 _] := aw_geo d2 d3.
have [cw1 cw2 _] := cw_geo d1 h0 d2 d3 d4 hlay'.
have [qw1 qw2 _] := qw_geo tn h0 d2 d3.
have [bw1 bw2 _] := @bw_geo F sq M (neq k) 0 k tn d2.
have bilP (d : nat -> F) : bil (dimx s1) (dimx s1) (pq_P s1) d X = bsum (pw (neq k) 0 0 k tn) d X by exact: bil_filled.
have bilA u v : bil (dime s1) (dimx s1) (pq_A s1) u v = bsum (aw (neq k) 0 0 k) u v by exact: bil_filled.
have bilC u v : bil (dimi s1) (dimx s1) (pq_C s1) u v = bsum (cw (List.length k) 0 0 k tn) u v by exact: bil_filled.
have vq (d : nat -> F) : \sum_(r < dimx s1) d r * pq_q s1 r = ssum (qw (neq k) 0 0 k tn) d by exact: vsum_filled.
have vb (d : nat -> F) : \sum_(r < dime s1) d r * pq_b s1 r = ssum (bw 0 k tn) d by exact: vsum_filled.
have eX : as_cv (dimx s1) X = x by exact: as_cv_entv.
have eY : as_cv (dime s1) Y = y by exact: as_cv_entv.
have eZ : as_cv (dimi s1) Z = z by exact: as_cv_entv.
have eu : unpacked x y z = mkTraj (pq_extract (neq k) 0 0 0 X Y Z k tn).1 (pq_extract (neq k) 0 0 0 X Y Z k tn).2 by [].
(* constraint rows *)
have rowsOK (Q : option F -> option F -> F -> F -> Prop) :
    (forall i, Q (QP_l s1 i 0) (QP_u s1 i 0) ((QP_C s1 *m x) i 0) (z i 0)) <->
    rows_prop Q (run (unpacked x y z)) (trm (unpacked x y z)).
  rewrite eu; cbn [run trm].
  pose f r := \sum_(j < dimx s1) pq_C s1 r j * X j.
  have hf (d : nat -> F) : \sum_(r < dimi s1) d r * f r = ssum (crow (neq k) X 0 0 0 k tn) d.
    by rewrite -(@crow_sum F sq M (neq k) X (List.length k) 0 0 0 k tn d d1 h0 hlay') -bilC bil_row.
  have [g1 g2 _] := @crow_geo F sq M (neq k) X 0 0 0 (nin k tn) k tn d4.
  have [lf _] := @lw_geo F sq M false 0 (nin k tn) k tn d4.
  have [lt_ _] := @lw_geo F sq M true 0 (nin k tn) k tn d4.
  rewrite -(@rows_ok F sq M (neq k) X Y Z Q f (pq_l s1) (pq_u s1) 0 0 0 (nin k tn) k tn d4 h0 hd0).
  - have ei (i : 'I_(dimi s1)) : Q (QP_l s1 i 0) (QP_u s1 i 0) ((QP_C s1 *m x) i 0) (z i 0) = Q (pq_l s1 i) (pq_u s1 i) (f i) (Z i).
      rewrite ![QP_l _ _ _]mxE ![QP_u _ _ _]mxE /Z entv_ord; congr (Q _ _ _ _); rewrite mxE; apply: eq_bigr => j _.
      by rewrite mxE -eX mxE.
    split=> [h r /andP [_ hr]|h i]; last by rewrite ei; apply: h; rewrite leq0n ltn_ord.
    by have := h (Ordinal hr); rewrite ei.
  - by move=> sg i hs; exact: (func_at hf).
  - by move=> sg i hs; exact: (@wsl_at _ (lw false 0 k tn) (pq_l s) sg i lf hs).
  - by move=> sg i hs; exact: (@wsl_at _ (lw true 0 k tn) (pq_u s) sg i lt_ hs).
split.
- exact: costOK.
- rewrite /dense_feasible dynOK.
  have := rowsOK (fun a b v _ => between a b v); rewrite /rows_prop => h.
  by split=> -[h1 h2]; split=> //; apply/h.
- have stat : QP_P s1 *m x + QP_q s1 + (QP_A s1)^T *m y + (QP_C s1)^T *m z = 0 <-> sub_stationary true (run (unpacked x y z)) (trm (unpacked x y z)).
    rewrite eu; cbn [run trm]; rewrite -[true]/(Nat.eqb 0 0).
    rewrite -(@res_stat F sq M (neq k) X Y Z 0 0 0 k tn h0 hd0).
    set v := _ + _ *m z; pose f r := entv v r.
    have hf (d : nat -> F) : \sum_(r < dimx s1) d r * f r = ssum (res (neq k) X Y Z 0 0 0 k tn) d.
      rewrite -(@res_sum F sq M (neq k) (List.length k) X Y Z d1 0 0 0 k tn d h0 hlay').
      rewrite /blkx /= dot_zero addr0 -bilP -vq -bilA -bilC bil_mul bil_tmul bil_tmul eX eY eZ -!big_split /=.
      apply: eq_bigr => r _; rewrite /f entv_ord /v !addcE !mulrDr; congr (_ + _ * _ + _ + _).
      by rewrite mxE.
    have [r1 r2] := @res_geo F sq M (neq k) (nvars k) X Y Z 0 0 0 k tn h0 d2 d3.
    rewrite -(func_zero hf r2 r1); split=> [h r hr|h].
      by rewrite /f h -[r]/(nat_of_ord (Ordinal hr)) entv_ord mxE.
    by apply/colP => r; rewrite -entv_ord [in RHS]mxE; apply: h.
  rewrite /dense_kkt /sub_kkt; have := rowsOK (@row_kkt F) => h.
  by split=> -[/stat h1 /dynOK h2 /h h3].
Qed.

(** ** evaluation at the candidate *)
Lemma calc_nodes_nodes f (k : seq node) tn gap con :
  let r := calc_nodes f k tn gap con in
  [/\ List.Forall2 (fun a b : node => exists v, b = set_fs a v) k (fst (fst r)), exists v, snd (fst r) = set_tfs tn v
    & forall v, f = Some v -> hd_fs (fst (fst r)) (snd (fst r)) = v].
Proof.
elim: k f gap con => [|nd k IH] f gap con /=.
  by case: f => [v|]; split=> //; [exists v|move=> ? [->]|exists (tfs tn); case: (tn)].
set r := calc_nodes _ _ _ _ _; have [h1 h2 _] : let r := r in
  [/\ List.Forall2 (fun a b : node => exists v, b = set_fs a v) k (fst (fst r)), exists v, snd (fst r) = set_tfs tn v
    & forall v, Some (diff M (hd_x k tn) (axnext (nm nd) (mem nd))) = Some v -> hd_fs (fst (fst r)) (snd (fst r)) = v] by exact: IH.
split=> //.
  by constructor=> //; case: f => [v|]; [exists v|exists (fs nd); case: (nd)].
by move=> v ->.
Qed.
Lemma calc_nodes_defects f (k : seq node) tn gap con :
  let r := calc_nodes f k tn gap con in current_defects (fst (fst r)) (snd (fst r)).
Proof.
elim: k f gap con => [|nd k IH] f gap con //=.
set d := diff M (hd_x k tn) _; set r := calc_nodes (Some d) _ _ _ _.
have [h1 [v h2] h3] : let r := r in
  [/\ List.Forall2 (fun a b : node => exists v, b = set_fs a v) k (fst (fst r)), exists v, snd (fst r) = set_tfs tn v
    & forall v, Some d = Some v -> hd_fs (fst (fst r)) (snd (fst r)) = v] by exact: calc_nodes_nodes.
split; last exact: IH.
rewrite (h3 d) // /d; have -> : hd_x r.1.1 r.1.2 = hd_x k tn.
  rewrite h2; case: h1 => //= a b ? ? [w ->] _; by [].
by case: f.
Qed.
Lemma calc_evaluated c (s : pqs M) : evaluated (pq_tr (pq_calc c s)) /\ candidate (pq_tr (pq_calc c s)) = candidate (pq_tr s).
Proof.
rewrite /pq_calc; cbn [pq_tr].
set tr := fst (problem_calcDiff (problem_calc (pq_tr s))); set r := calc_nodes _ _ _ _ _.
have := @calc_nodes_nodes None (run tr) (trm tr) 0 0; rewrite -/r => -[h1 [v h2] _].
have := @calc_nodes_defects None (run tr) (trm tr) 0 0; rewrite -/r => h3.
split.
  split=> //; cbn [run trm]; rewrite ?h2 //.
  move=> nd hin; have hall : forall a : node, List.In a (run tr) -> mem a = acalc (nm a) (px (pt a)) (pu (pt a)) /\ der a = adiff (nm a) (mem a) (px (pt a)) (pu (pt a)).
    rewrite /tr; cbn [problem_calcDiff problem_calc run fst]; move=> a /List.in_map_iff [b [<- /List.in_map_iff [b' [<- _]]]] //.
  elim: h1 hall hin => [//|a b k k' [w ->] _ IH] hall /= [<-|hin].
    by have := hall a (or_introl Logic.eq_refl).
  by apply: IH => // a' ha'; apply: hall; right.
rewrite /candidate; cbn [run trm]; rewrite h2; congr pair.
have -> : [seq (px (pt nd), existT (fun k : nat => 'cV[F]_k) (nu (nm nd)) (pu (pt nd))) | nd : node <- fst (fst r)] =
          [seq (px (pt nd), existT (fun k : nat => 'cV[F]_k) (nu (nm nd)) (pu (pt nd))) | nd : node <- run tr].
  by elim: h1 => //= a b k k' [w ->] _ ->.
rewrite /tr; cbn [problem_calcDiff problem_calc run fst]; elim: (run (pq_tr s)) => [//|nd k IH]; cbn [List.map map]; by congr cons.
Qed.
Lemma extract_evaluated w x y z (tr : traj M) : run tr <> [::] -> evaluated tr ->
  let r := pq_extract w 0 0 0 x y z (run tr) (trm tr) in
  evaluated (mkTraj r.1 r.2) /\ candidate (mkTraj r.1 r.2) = candidate tr.
Proof.
move=> _ [h1 h2 h3 h4]; cbv zeta.
have gen p iu cnt : let r := pq_extract w p iu cnt x y z (run tr) (trm tr) in
   evaluated (mkTraj r.1 r.2) /\ candidate (mkTraj r.1 r.2) = candidate tr; last exact: gen.
case: tr h1 h2 h3 h4 => k tn; cbn [run trm]; elim: k p iu cnt => [|nd k IH] p iu cnt h1 h2 h3 h4.
  by split.
case: h4 => h4 h5.
have [[i1 i2 i3 i4] i5] := IH (S p) (iu + nu (nm nd))%N (cnt + ng (nm nd))%N (fun a ha => h1 a (or_intror ha)) h2 h3 h5.
move: i1 i2 i3 i4 i5; cbn [pq_extract]; set r := pq_extract _ _ _ _ _ _ _ _ _; cbn [run trm fst snd] => i1 i2 i3 i4 i5.
split.
  split=> //; cbn [run trm].
    by move=> a /= [<-|/i1 //]; have := h1 nd (or_introl Logic.eq_refl).
  split=> //; cbn [nm mem].
  have -> : hd_fs r.1 r.2 = hd_fs k tn by rewrite /r; case: (k).
  have -> : hd_x r.1 r.2 = hd_x k tn by rewrite /r; case: (k).
  exact: h4.
by case: i5 => e1 e2; rewrite /candidate /= e1 e2.
Qed.

(** ** The property *)
(** the object's QP is the subproblem at its own trajectory and everything stored is current *)
Definition ready (s : pqs M) : Prop := [/\ run (pq_tr s) <> [::], assembled s & evaluated (pq_tr s)].
Lemma good_ready c s : run (pq_tr s) <> [::] -> layout_ok 0 0 (run (pq_tr s)) -> good l t s -> ready (pq_calc c s).
Proof.
move=> hne hlay [g1 g2 g3 g4]; split; [|exact: calc_assembled|exact: (proj1 (calc_evaluated c s))].
have [h _] := shape_len (calc_shape c s); by move=> e; move: h hne; rewrite e; case: (run (pq_tr s)).
Qed.
(** the QP handed to the backend after calc is the linearised subproblem at the candidate *)
Theorem C40_qp_is_subproblem c s : pq_hist x0 qp l t s -> l <> [::] -> layout_ok 0 0 (run (pq_tr s)) ->
  let s1 := pq_calc c s in
  [/\ assembled s1, evaluated (pq_tr s1) & candidate (pq_tr s1) = candidate (pq_tr s)].
Proof.
move=> hs hl hlay s1; have hg := hist_good hs.
have hne : run (pq_tr s) <> [::].
  by case: hg => h _ _ _ e; move: h; rewrite e; case: (l) hl.
have [_ a b] := good_ready c hne hlay hg; have [_ d] := calc_evaluated c s.
by split.
Qed.
(** objective and linearised dynamics are right for every sequence of control dimensions *)
Theorem C40_objective_and_dynamics c s : pq_hist x0 qp l t s -> l <> [::] -> core (pq_calc c s).
Proof.
move=> hs hl; have hg := hist_good hs.
have hne : run (pq_tr s) <> [::].
  by case: hg => h _ _ _ e; move: h; rewrite e; case: (l) hl.
by case: hg => _ _ g3 g4; exact: calc_core.
Qed.
Lemma direction_ready c s s' : exact_backend -> ready s -> pq_direction qp c false s = PDok s' ->
  [/\ sub_kkt (pq_tr s'), evaluated (pq_tr s') & candidate (pq_tr s') = candidate (pq_tr s)].
Proof.
move=> hb [hne ha he]; rewrite /pq_direction; move: (hne); case: {1 2}(run (pq_tr s)) => [//|nd k] _.
set s2 := set_p_KKT _ _.
rewrite /pq_ask; case eq: (qp _ _ _ _ _ _ _) => [[[x y] z]|] //.
case=> <-; cbn [pq_tr set_p_tr].
have [_ _ hk] := ha x y z.
have [e1 e2] := @extract_evaluated (neq (run (pq_tr s))) (entv x) (entv y) (entv z) (pq_tr s) hne he.
split=> //; exact: (proj1 hk (hb _ _ _ _ _ _ _ _ _ _ _ _ _ eq)).
Qed.
Lemma throw_ready c s s' : ready s -> pq_direction qp c false s = PDthrow s' -> ready s' /\ candidate (pq_tr s') = candidate (pq_tr s).
Proof.
move=> hr; rewrite /pq_direction; case er: (run (pq_tr s)) => [//|nd k].
by case: (pq_ask _ _) => [[[x y] z]|] // [<-].
Qed.
Lemma direction_recalc c (s : pqs M) : run (pq_tr s) <> [::] -> pq_direction qp c true s = pq_direction qp c false (pq_calc c s).
Proof.
rewrite /pq_direction => h; have [e _] := shape_len (calc_shape c s).
by case: (run (pq_tr s)) h e => // nd k _; case: (run (pq_tr (pq_calc c s))).
Qed.
Lemma ready_inc c (s : pqs M) : ready s -> ready (pq_inc c s).
Proof. by []. Qed.
Lemma retry_ready c fuel s s' : exact_backend -> ready s -> pq_retry qp c fuel false s = PRok s' ->
  [/\ sub_kkt (pq_tr s'), evaluated (pq_tr s') & candidate (pq_tr s') = candidate (pq_tr s)].
Proof.
move=> hb; elim: fuel s => [//|f IH] s hr /=.
case ed: (pq_direction qp c false s) => [s1|s1|] //; first by case=> <-; exact: direction_ready ed.
have [h1 h2] := throw_ready hr ed.
by case: ifP => // _ /(IH _ (ready_inc c h1)) [a b d]; split=> //; rewrite d -h2.
Qed.
(** with an exact backend, every direction the solver computes, including the retries after
    a backend exception, is a KKT point of the linearised subproblem at the candidate *)
Theorem C40_direction_solves c fuel s s' : exact_backend -> pq_hist x0 qp l t s -> l <> [::] -> layout_ok 0 0 (run (pq_tr s)) ->
  pq_direction qp c true s = PDok s' \/ pq_retry qp c fuel true s = PRok s' ->
  [/\ sub_kkt (pq_tr s'), evaluated (pq_tr s') & candidate (pq_tr s') = candidate (pq_tr s)].
Proof.
move=> hb hs hl hlay; have hg := hist_good hs.
have hne : run (pq_tr s) <> [::].
  by case: hg => h _ _ _ e; move: h; rewrite e; case: (l) hl.
have hr := good_ready c hne hlay hg; have [_ hc] := calc_evaluated c s.
case.
  by rewrite direction_recalc // => /(direction_ready hb hr) [a b d]; split=> //; rewrite d.
case: fuel => [//|f] /=; rewrite direction_recalc //.
case ed: (pq_direction qp c false _) => [s1|s1|] //.
  by case=> <-; have [a b d] := direction_ready hb hr ed; split=> //; rewrite d.
have [h1 h2] := throw_ready hr ed.
by case: ifP => // _ /(retry_ready hb (ready_inc c h1)) [a b d]; split=> //; rewrite d -hc -h2.
Qed.
End P.

(** the layout condition holds when the control dimension does not vary, and when there are
    no constraints on the running nodes *)
Lemma layout_uniform (F : realFieldType) (sq : F -> F) (M : manifold (ExactE sq)) (m : nat) (k : seq (node M)) :
  (forall nd, List.In nd k -> nu (nm nd) = m) -> layout_ok 0 0 k.
Proof.
have gen p : (forall nd : node M, List.In nd k -> nu (nm nd) = m) -> layout_ok p (p * m) k.
  elim: k p => [//|nd k IH] p h; split; first by move=> _; rewrite (h nd) //; left.
  by rewrite (h nd (or_introl Logic.eq_refl)) addnC -mulSn; apply: IH => a ha; apply: h; right.
by move/(gen 0%N).
Qed.
Lemma layout_unconstrained (F : realFieldType) (sq : F -> F) (M : manifold (ExactE sq)) (k : seq (node M)) :
  (forall nd, List.In nd k -> ng (nm nd) = 0%N) -> forall p iu, layout_ok p iu k.
Proof.
elim: k => [//|nd k IH] h p iu; split; first by rewrite (h nd) //; left.
by apply: IH => a ha; apply: h; right.
Qed.
Print Assumptions C40_qp_is_subproblem.
Print Assumptions C40_objective_and_dynamics.
Print Assumptions C40_direction_solves.
