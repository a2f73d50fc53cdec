(** * The dense QP assembled by SolverPROXQP is the linearised subproblem. *)
From Coq Require Import Ring Field ZArith List Arith.
Set Warnings "-notation-overridden,-ambiguous-paths".
From mathcomp Require Import all_ssreflect all_algebra.
From Verif Require Import FieldTac Eigen EigenExact Problem LQSpec Riccati SsrLia Flat KKT KKTSys PROXQP PROXBlocks PROXSpec.

Set Implicit Arguments.
Unset Strict Implicit.
Unset Printing Implicit Defensive.

Import Order.TTheory GRing.Theory Num.Theory.
Local Open Scope ring_scope.

Section Dots.
Variable F : realFieldType.
Lemma dotS m (v w : 'cV[F]_m) : dot v w = \sum_i v i 0 * w i 0.
Proof. by rewrite /dot mxE; apply: eq_bigr => i _; rewrite mxE. Qed.
Lemma dot_sym m (v w : 'cV[F]_m) : dot v w = dot w v.
Proof. by rewrite !dotS; apply: eq_bigr => i _; rewrite mulrC. Qed.
Lemma dot_add m (a v w : 'cV[F]_m) : dot a (v + w) = dot a v + dot a w.
Proof. by rewrite /dot mulmxDr mxE. Qed.
Lemma dot_opp m (a v : 'cV[F]_m) : dot a (- v) = - dot a v.
Proof. by rewrite /dot mulmxN mxE. Qed.
Lemma dot_zero m (a : 'cV[F]_m) : dot a 0 = 0.
Proof. by rewrite /dot mulmx0 mxE. Qed.
Lemma dot_adj m k (A : 'M[F]_(m, k)) a b : dot a (A *m b) = dot b (A^T *m a).
Proof. by rewrite dot_sym /dot trmx_mul -mulmxA. Qed.
Lemma dot_tr m k (A : 'M[F]_(m, k)) a b : dot a (A^T *m b) = dot b (A *m a).
Proof. by rewrite dot_adj trmxK. Qed.
Lemma dot_ntr m k (A : 'M[F]_(m, k)) a b : dot a (- A *m b) = - dot a (A *m b).
Proof. by rewrite mulNmx dot_opp. Qed.
Lemma quad_dot m (A : 'M[F]_m) v : quad A v = dot v (A *m v).
Proof. by rewrite /quad /dot mulmxA. Qed.
End Dots.

Section Sys.
Variable F : realFieldType.
Variable sq : F -> F.
Notation E := (ExactE sq).
Variable M : manifold E.
Notation n := (mndx M).
Notation node := (node M).
Notation tnode := (tnode M).
Add Field FfX : (F_field_theory F).

Section Res.
Variables (w T : nat) (x y z : vbuf F).
Hypothesis hw : (T * n)%N = w.
Definition blkx (v : vbuf F) (t : nat) : 'cV[F]_n := if Nat.eqb t 0 then 0 else seg n v ((t - 1) * n).
Fixpoint res (t iu cnt : nat) (l : seq node) (tn : tnode) : seq (sgm F) :=
  match l with
  | [::] =>
      let m := tng (tm tn) in
      [:: Sgm ((t - 1) * n) n (fun i =>
         ((tLx (tder tn) : 'cV[F]_n) + (tLxx (tder tn) : 'M[F]_n) *m blkx x t
          + (tGx (tder tn) : 'M[F]_(m, n))^T *m seg m z cnt + blkx y t) i 0)]
  | nd :: l' =>
      let d := der nd in
      let k := nu (nm nd) in
      let m := ng (nm nd) in
      let U := seg k x (w + iu) in
      let Y := seg n y (t * n) in
      let Zc := seg m z cnt in
      (if Nat.eqb t 0 then [::] else
        [:: Sgm ((t - 1) * n) n (fun i =>
          ((Lx d : 'cV[F]_n) + (Lxx d : 'M[F]_n) *m blkx x t + (Lxu d : 'M[F]_(n, k)) *m U
           - (Fx d : 'M[F]_n)^T *m Y + (Gx d : 'M[F]_(m, n))^T *m Zc + blkx y t) i 0)])
      ++ Sgm (w + iu) k (fun i =>
          ((Lu d : 'cV[F]_k) + (Luu d : 'M[F]_k) *m U + (Lxu d : 'M[F]_(n, k))^T *m blkx x t
           - (Fu d : 'M[F]_(n, k))^T *m Y + (Gu d : 'M[F]_(m, k))^T *m Zc) i 0)
      :: res (S t) (iu + k) (cnt + m) l' tn
  end.
Lemma blkx_succ v t : blkx v (S t) = seg n v (t * n).
Proof. by rewrite /blkx /= subn1. Qed.
Lemma dot_nil m (a b : 'cV[F]_m) : m = 0%N -> dot a b = 0.
Proof. by move=> e; rewrite dotS big1 // => i _; have := ltn_ord i; rewrite [X in (_ < X)%N]e ltn0. Qed.

Lemma res_sum t iu cnt (l : seq node) (tn : tnode) d : l <> [::] \/ t <> 0%N -> layout_ok t iu l ->
  bsum (pw w t iu l tn) d x + ssum (qw w t iu l tn) d + bsum (aw w t iu l) y d + bsum (cw T t cnt l tn) z d
  + dot (blkx d t) (blkx y t) = ssum (res t iu cnt l tn) d.
Proof.
elim: l t iu cnt => [|nd l IH] t iu cnt hne hl.
  have ht : Nat.eqb t 0 = false by case: hne => // ht; apply/Nat.eqb_neq.
  cbn [pw qw aw cw res]; rewrite bsum_cons bsum_nil !ssum_cons !ssum_nil bsum_nil !sterm_dot /bterm; cbn [bi bj bm bk bA].
  rewrite !dot_add !dot_tr /blkx ht.
  have -> : bsum (if Nat.eqb (tng (tm tn)) 0 then [::] else [:: Blk cnt ((t - 1) * n) (tGx (tder tn) : 'M[F]_(tng (tm tn), n))]) z d
    = dot (seg (tng (tm tn)) z cnt) ((tGx (tder tn) : 'M[F]_(tng (tm tn), n)) *m seg n d ((t - 1) * n)).
    case: (Nat.eqb_spec (tng (tm tn)) 0) => e0; first by rewrite bsum_nil dot_nil.
    by rewrite bsum_cons bsum_nil addr0.
  mcfold F; ring.
have ihn : l <> [::] \/ S t <> 0%N by right.
case: hl => hl0 /(IH (S t) (iu + nu (nm nd))%N (cnt + ng (nm nd))%N ihn) {}IH.
set k := nu (nm nd); set m := ng (nm nd).
have eC : bsum (if Nat.eqb m 0 then [::]
       else (if Nat.eqb t 0 then [::] else [:: Blk cnt ((t - 1) * n) (Gx (der nd) : 'M[F]_(m, n))])
            ++ [:: Blk cnt (T * n + t * k) (Gu (der nd) : 'M[F]_(m, k))]) z d =
  dot (seg m z cnt) ((Gx (der nd) : 'M[F]_(m, n)) *m blkx d t) + dot (seg m z cnt) ((Gu (der nd) : 'M[F]_(m, k)) *m seg k d (w + iu)).
  case: (Nat.eqb_spec m 0) => e0; first by rewrite bsum_nil !(@dot_nil m) ?addr0.
  rewrite bsum_cat bsum_cons bsum_nil addr0 /blkx [bterm _ _ _]/bterm; cbn [bi bj bm bk bA]; rewrite hw (hl0 e0); congr (_ + _).
  case: (Nat.eqb t 0); first by rewrite bsum_nil mulmx0 dot_zero.
  by rewrite bsum_cons bsum_nil addr0.
cbn [pw qw aw cw res]; rewrite -/k -/m; rewrite !(bsum_cat, bsum_cons, ssum_cat, ssum_cons) eC -IH !blkx_succ !sterm_dot -/k -/m.
rewrite /bterm; cbn [bi bj bm bk bA]; rewrite /blkx.
case: (Nat.eqb t 0).
  rewrite !bsum_nil !ssum_nil !(dot_add, dot_opp) !(dot_tr, dot_ntr) !mulmx0 !dot_zero mul1mx.
  rewrite (dot_sym (seg n y (t * n)) (seg n d (t * n))); rewrite (dot_sym 0) dot_zero; mcfold F; ring.
rewrite !(bsum_cons, ssum_cons, bsum_nil, ssum_nil) !sterm_dot /bterm; cbn [bi bj bm bk bA].
rewrite !(dot_add, dot_opp) !(dot_tr, dot_ntr) mul1mx (dot_sym (seg n y (t * n)) (seg n d (t * n))); mcfold F; ring.
Qed.
End Res.

(** ** Positions *)
Section Geo.
Variables (w N : nat).
Definition late (t iu r : nat) : bool :=
  (((t - 1) * n <= r) && (r < w))%N || ((w + iu <= r) && (r < N))%N.
Ltac geo := rewrite ?/cover ?/scover /= /late /within /swithin /inb /ins /inr /=; slia.
Lemma disj_cat (bs bs' : seq (blk F)) : disj bs -> disj bs' -> (forall r c, cover bs r c -> cover bs' r c = false) -> disj (bs ++ bs').
Proof.
elim: bs => //= b bs IH [h1 h2] h3 h; split; last by apply: IH => // r c hr; apply: h; rewrite hr orbT.
by move=> r c hr; rewrite cover_cat h1 //=; apply: h; rewrite hr.
Qed.
Lemma sdisj_cat T (bs bs' : seq (sgm T)) : sdisj bs -> sdisj bs' -> (forall r, scover bs r -> scover bs' r = false) -> sdisj (bs ++ bs').
Proof.
elim: bs => //= b bs IH [h1 h2] h3 h; split; last by apply: IH => // r hr; apply: h; rewrite hr orbT.
by move=> r hr; rewrite /scover has_cat -!/(scover _ _) h1 //=; apply: h; rewrite hr.
Qed.
Lemma stepn t : ((S t - 1) * n = t * n)%N. Proof. by rewrite subn1. Qed.
Lemma prevn t : t <> 0%N -> (t * n = (t - 1) * n + n)%N.
Proof. by case: t => // t _; rewrite subn1 mulSn addnC. Qed.
Lemma horizon t (l : seq node) nd : ((t + size (nd :: l)) * n)%N = w -> ((S t + size l) * n)%N = w /\ (t * n + n <= w)%N.
Proof. by rewrite /= addnS -addSn => <-; split=> //; rewrite mulnDl mulSn; slia. Qed.

Lemma pw_geo t iu (l : seq node) tn : l <> [::] \/ t <> 0%N -> ((t + size l) * n)%N = w -> (w + iu + sum_nu l)%N = N ->
  [/\ all (within N N) (pw w t iu l tn), disj (pw w t iu l tn)
    & forall r c, cover (pw w t iu l tn) r c -> late t iu r && late t iu c].
Proof.
elim: l t iu => [|nd l IH] t iu h0 h1 h2.
  have ht : t <> 0%N by case: h0.
  move: h1; rewrite /= addn0 (prevn ht) /late => h1; move: ((t - 1) * n)%N h1 => p h1.
  split=> [||r c]; [geo| by split |geo].
have [h1' hle] := horizon h1.
have [a1 a2 a3] := IH (S t) (iu + nu (nm nd))%N (or_intror (@Nat.neq_succ_0 t)) h1' ltac:(move: h2; rewrite /=; slia).
move: h2; cbn [pw sum_nu]; move: (nu (nm nd)) (Lxx (der nd) : 'M[F]_n) (Lxu (der nd) : 'M[F]_(n, nu (nm nd))) (Luu (der nd) : 'M[F]_(nu (nm nd))) a1 a2 a3 => k Q S0 R0.
set ps := pw _ _ _ _ _; rewrite /late stepn => a1 a2 a3 h2.
have gU r c : inr (w + iu) k r -> cover ps r c = false.
  by move=> hr; apply/negP => /a3; move: hr; geo.
case: (Nat.eqb_spec t 0) => ht.
  split=> /=; first by rewrite a1 andbT; geo.
    by split=> // r c; rewrite /inb => /andP [hr _]; exact: gU.
  move=> r c; rewrite -/(cover ps r c) => /orP [|/a3]; first by subst t; geo.
  by subst t; geo.
have e := prevn ht; move: ((t - 1) * n)%N (t * n)%N e a3 hle => p p' e a3 hle.
split=> /=; first by rewrite a1 andbT; geo.
  have gX r c : inr p n r -> cover ps r c = false.
    by move=> hr; apply/negP => /a3; move: hr; geo.
  rewrite -/(cover ps _ _); repeat split=> //.
  - by move=> r c; rewrite -/(cover ps r c) => hr; rewrite (gX r c) ?orbF; move: hr; geo.
  - by move=> r c; rewrite -/(cover ps r c) => hr; rewrite (gX r c) ?orbF; move: hr; geo.
  - by move=> r c; rewrite -/(cover ps r c) => hr; rewrite (gU r c) ?orbF; move: hr; geo.
  - by move=> r c; rewrite /inb => /andP [hr _]; exact: gU.
move=> r c; rewrite -/(cover ps r c) => /or4P [| | |/orP[|/a3]]; geo.
Qed.

Lemma aw_geo t iu (l : seq node) : ((t + size l) * n)%N = w -> (w + iu + sum_nu l)%N = N ->
  [/\ all (within w N) (aw w t iu l), disj (aw w t iu l)
    & forall r c, cover (aw w t iu l) r c -> (t * n <= r)%N && (r < w)%N].
Proof.
elim: l t iu => [|nd l IH] t iu h1 h2 //.
have [h1' hle] := horizon h1.
have [a1 a2 a3] := IH (S t) (iu + nu (nm nd))%N h1' ltac:(move: h2; rewrite /=; slia).
move: h2; cbn [aw sum_nu]; move: (nu (nm nd)) (Fx (der nd) : 'M[F]_n) (Fu (der nd) : 'M[F]_(n, nu (nm nd))) a1 a2 a3 => k A0 B0.
set ps := aw _ _ _ _ => a1 a2 a3 h2.
rewrite mulSn in a3.
have gX r c : inr (t * n) n r -> cover ps r c = false.
  by move=> hr; apply/negP => /a3; move: hr; geo.
case: (Nat.eqb_spec t 0) => ht.
  split=> /=; first by rewrite a1 andbT; geo.
    rewrite -/(cover ps _ _); split; last split=> //.
      by move=> r c; rewrite -/(cover ps r c) => hr; rewrite (gX r c) ?orbF; move: hr hle; rewrite ht /inb /inr /=; slia.
    by move=> r c; rewrite /inb => /andP [hr _]; exact: gX.
  by move=> r c; rewrite -/(cover ps r c) => /or3P [| |/a3]; geo.
have e := prevn ht; move: ((t - 1) * n)%N (t * n)%N e a3 hle gX => p p' e a3 hle gX.
split=> /=; first by rewrite a1 andbT; geo.
  repeat split=> //.
  - by move=> r c; rewrite -/(cover ps r c) => hr; rewrite (gX r c) ?orbF; move: hr; geo.
  - by move=> r c; rewrite -/(cover ps r c) => hr; rewrite (gX r c) ?orbF; move: hr; geo.
  - by move=> r c; rewrite /inb => /andP [hr _]; exact: gX.
by move=> r c; rewrite -/(cover ps r c) => /or4P [| | |/a3]; geo.
Qed.

Lemma cw_geo T t iu cnt Mi (l : seq node) tn : (T * n)%N = w -> l <> [::] \/ t <> 0%N -> ((t + size l) * n)%N = w ->
  (w + iu + sum_nu l)%N = N -> (cnt + sum_ng l + tng (tm tn))%N = Mi -> layout_ok t iu l ->
  [/\ all (within Mi N) (cw T t cnt l tn), disj (cw T t cnt l tn)
    & forall r c, cover (cw T t cnt l tn) r c -> (cnt <= r)%N && (r < Mi)%N].
Proof.
move=> hT; elim: l t iu cnt => [|nd l IH] t iu cnt h0 h1 h2 h3 hl.
  have ht : t <> 0%N by case: h0.
  move: h1 h2 h3; rewrite /= !addn0 (prevn ht); move: ((t - 1) * n)%N (tng (tm tn)) (tGx (tder tn) : 'M[F]_(tng (tm tn), n)) => p m G h1 h2 h3.
  by case: (Nat.eqb_spec m 0) => hm //; split=> [||r c]; [geo|split|geo].
have [h1' hle] := horizon h1; case: hl => hl0 hl.
have [a1 a2 a3] := IH (S t) (iu + nu (nm nd))%N (cnt + ng (nm nd))%N (or_intror (@Nat.neq_succ_0 t)) h1'
  ltac:(move: h2; rewrite /=; slia) ltac:(move: h3; rewrite /=; slia) hl.
move: h2 h3; cbn [cw sum_nu sum_ng].
move: (nu (nm nd)) (ng (nm nd)) hl0 (Gx (der nd) : 'M[F]_(ng (nm nd), n)) (Gu (der nd) : 'M[F]_(ng (nm nd), nu (nm nd))) a1 a2 a3 => k m hl0 A0 B0.
set ps := cw _ _ _ _ _ => a1 a2 a3 h2 h3.
case: (Nat.eqb_spec m 0) => hm.
  split=> // r c /a3; geo.
rewrite hT (hl0 hm).
have gX r c : inr cnt m r -> cover ps r c = false.
  by move=> hr; apply/negP => /a3; move: hr; geo.
case: (Nat.eqb_spec t 0) => ht.
  split=> /=; first by rewrite a1 andbT; geo.
    by split=> // r c; rewrite /inb => /andP [hr _]; exact: gX.
  by move=> r c; rewrite -/(cover ps r c) => /orP [|/a3]; geo.
have e := prevn ht; move: ((t - 1) * n)%N (t * n)%N e a3 hle gX => p p' e a3 hle gX.
split=> /=; first by rewrite a1 andbT; geo.
  repeat split=> //.
  - by move=> r c; rewrite -/(cover ps r c) => hr; rewrite (gX r c) ?orbF; move: hr; geo.
  - by move=> r c; rewrite /inb => /andP [hr _]; exact: gX.
by move=> r c; rewrite -/(cover ps r c) => /or3P [| |/a3]; geo.
Qed.

Lemma sdisj_pos T (S S' : seq (sgm T)) : map (@spos T) S = map (@spos T) S' -> sdisj S -> sdisj S'.
Proof.
elim: S S' => [|s S IH] [|s' S'] //= [e1 e2 e3] [h1 h2]; split; last exact: IH.
by move=> r; rewrite /ins -e1 -e2 -(scover_pos _ e3) => /h1.
Qed.
Lemma swithin_pos (S S' : seq (sgm F)) : map (@spos F) S = map (@spos F) S' -> all (swithin N) S = all (swithin N) S'.
Proof. by elim: S S' => [|s S IH] [|s' S'] //= [e1 e2 /IH ->]; rewrite /swithin e1 e2. Qed.

Lemma qw_geo t iu (l : seq node) tn : l <> [::] \/ t <> 0%N -> ((t + size l) * n)%N = w -> (w + iu + sum_nu l)%N = N ->
  [/\ all (swithin N) (qw w t iu l tn), sdisj (qw w t iu l tn)
    & forall r, scover (qw w t iu l tn) r -> late t iu r].
Proof.
elim: l t iu => [|nd l IH] t iu h0 h1 h2.
  have ht : t <> 0%N by case: h0.
  move: h1; rewrite /= addn0 (prevn ht) /late => h1; move: ((t - 1) * n)%N h1 => p h1.
  split=> [||r]; [geo| by split |geo].
have [h1' hle] := horizon h1.
have [a1 a2 a3] := IH (S t) (iu + nu (nm nd))%N (or_intror (@Nat.neq_succ_0 t)) h1' ltac:(move: h2; rewrite /=; slia).
move: h2; cbn [qw sum_nu]; move: (nu (nm nd)) (Lu (der nd) : 'cV[F]_(nu (nm nd))) (Lx (der nd) : 'cV[F]_n) a1 a2 a3 => k R0 Q0.
set ps := qw _ _ _ _ _; rewrite /late stepn => a1 a2 a3 h2.
have gU r : inr (w + iu) k r -> scover ps r = false.
  by move=> hr; apply/negP => /a3; move: hr; geo.
case: (Nat.eqb_spec t 0) => ht.
  split=> /=; first by rewrite a1 andbT; geo.
    by split=> // r; exact: gU.
  by move=> r; rewrite -/(scover ps r) => /orP [|/a3]; subst t; geo.
have e := prevn ht; move: ((t - 1) * n)%N (t * n)%N e a3 hle => p p' e a3 hle.
split=> /=; first by rewrite a1 andbT; geo.
  have gX r : inr p n r -> scover ps r = false.
    by move=> hr; apply/negP => /a3; move: hr; geo.
  repeat split=> //.
  - by move=> r; rewrite -/(scover ps r) => hr; rewrite (gX r) ?orbF; move: hr; geo.
by move=> r; rewrite -/(scover ps r) => /or3P [| |/a3]; geo.
Qed.
Lemma bw_geo t (l : seq node) tn : ((t + size l) * n)%N = w ->
  [/\ all (swithin w) (bw t l tn), sdisj (bw t l tn) & forall r, scover (bw t l tn) r -> (t * n <= r)%N && (r < w)%N].
Proof.
elim: l t => [|nd l IH] t h1 //.
have [h1' hle] := horizon h1; have [a1 a2 a3] := IH (S t) h1'.
rewrite mulSn in a3; cbn [bw]; split=> /=; first by rewrite a1 andbT; geo.
  split=> // r hr; apply/negP => /a3; move: hr; geo.
by move=> r; rewrite -/(scover _ r) => /orP [|/a3]; geo.
Qed.
Lemma lw_geo up cnt Mi (l : seq node) tn : (cnt + sum_ng l + tng (tm tn))%N = Mi ->
  sdisj (lw up cnt l tn) /\ forall r, scover (lw up cnt l tn) r -> (cnt <= r)%N && (r < Mi)%N.
Proof.
elim: l cnt => [|nd l IH] cnt h.
  move: h; cbn [lw sum_ng]; case: (Nat.eqb_spec (tng (tm tn)) 0) => hm h; split=> // r; geo.
have [a2 a3] := IH (cnt + ng (nm nd))%N ltac:(move: h; rewrite /=; slia).
move: h; cbn [lw sum_ng]; case: (Nat.eqb_spec (ng (nm nd)) 0) => hm h; first by split=> // r /a3; geo.
split=> /=; first by split=> // r hr; apply/negP => /a3; move: hr; geo.
by move=> r; rewrite -/(scover _ r) => /orP [|/a3]; geo.
Qed.
Lemma res_pos x y z t iu cnt (l : seq node) tn : map (@spos F) (res w x y z t iu cnt l tn) = map (@spos F) (qw w t iu l tn).
Proof. by elim: l t iu cnt => //= nd l IH t iu cnt; rewrite !map_cat /= IH; case: (Nat.eqb t 0). Qed.
Lemma res_geo x y z t iu cnt (l : seq node) tn : l <> [::] \/ t <> 0%N -> ((t + size l) * n)%N = w -> (w + iu + sum_nu l)%N = N ->
  all (swithin N) (res w x y z t iu cnt l tn) /\ sdisj (res w x y z t iu cnt l tn).
Proof.
move=> h0 h1 h2; have [a b _] := qw_geo tn h0 h1 h2; have e := res_pos x y z t iu cnt l tn.
by rewrite (swithin_pos e); split=> //; exact: sdisj_pos (esym e) b.
Qed.
End Geo.

(** ** The extracted trajectory *)
Section Match.
Variables (w : nat) (x y z : vbuf F).
Notation ext := (pq_extract w).
Lemma ext_dx t iu cnt (l : seq node) tn : t <> 0%N -> (hd_dx (ext t iu cnt x y z l tn).1 (ext t iu cnt x y z l tn).2 : 'cV[F]_n) = blkx x t.
Proof. by rewrite /blkx => ht; case: l => [|nd l] /=; case: (Nat.eqb_spec t 0). Qed.
Lemma ext_lam t iu cnt (l : seq node) tn : t <> 0%N -> (hd_lam (ext t iu cnt x y z l tn).1 (ext t iu cnt x y z l tn).2 : 'cV[F]_n) = - blkx y t.
Proof. by rewrite /blkx => ht; case: l => [|nd l] /=; case: (Nat.eqb_spec t 0). Qed.
Lemma ext_fs t iu cnt (l : seq node) tn : hd_fs (ext t iu cnt x y z l tn).1 (ext t iu cnt x y z l tn).2 = hd_fs l tn.
Proof. by case: l. Qed.

Lemma cv0 m (v : 'cV[F]_m) : (forall i, v i 0 = 0) <-> v = 0.
Proof. by split=> [h|-> i]; [apply/colP => i|]; rewrite ?h mxE. Qed.
Lemma sub_zero m (a b c : 'cV[F]_m) : a = b + c -> (a = 0 <-> b = - c).
Proof. by move=> ->; split=> [/eqP|->]; [rewrite addr_eq0 => /eqP|rewrite addNr]. Qed.

Lemma res_stat t iu cnt (l : seq node) tn : l <> [::] \/ t <> 0%N ->
  (t = 0%N -> (hd_dx l tn : 'cV[F]_n) = 0) ->
  (forall s, List.In s (res w x y z t iu cnt l tn) -> forall i, @sv F s i = 0) <->
  sub_stationary (Nat.eqb t 0) (ext t iu cnt x y z l tn).1 (ext t iu cnt x y z l tn).2.
Proof.
elim: l t iu cnt => [|nd l IH] t iu cnt h0 hd0.
  have ht : t <> 0%N by case: h0.
  cbn [res pq_extract sub_stationary fst snd]; rewrite -[tder (set_tzy _ _ _ _ _)]/(tder tn).
  have := @ext_dx t 0 cnt [::] tn ht; have := @ext_lam t 0 cnt [::] tn ht; cbn [pq_extract fst snd hd_dx hd_lam] => -> ->.
  rewrite -[tay _]/(seg (tng (tm tn)) z cnt).
  rewrite -(sub_zero (erefl _)) -cv0; split.
    by move=> h i; exact: (h _ (or_introl erefl) i).
  by move=> h s [<-|[]].
have {}IH := IH (S t) (iu + nu (nm nd))%N (cnt + ng (nm nd))%N (or_intror (@Nat.neq_succ_0 t)) (fun e => match Nat.neq_succ_0 t e with end).
set k := nu (nm nd); set m := ng (nm nd).
set x1 : 'cV[F]_n := if Nat.eqb t 0 then dx (dir nd) else seg n x ((t - 1) * n).
set l1 : 'cV[F]_n := if Nat.eqb t 0 then lam (dir nd) else - seg n y ((t - 1) * n).
have ex : x1 = blkx x t by rewrite /x1 /blkx; case: (Nat.eqb_spec t 0) => // ht; exact: hd0.
set e' := ext (S t) _ _ _ _ _ l tn in IH *.
have el : (hd_lam e'.1 e'.2 : 'cV[F]_n) = - seg n y (t * n) by rewrite ext_lam // blkx_succ.
have -> : sub_stationary (Nat.eqb t 0) (ext t iu cnt x y z (nd :: l) tn).1 (ext t iu cnt x y z (nd :: l) tn).2 =
  [/\ (Lu (der nd) : 'cV[F]_k) + (Luu (der nd) : 'M[F]_k) *m seg k x (w + iu)
        + (Lxu (der nd) : 'M[F]_(n, k))^T *m x1 + (Fu (der nd) : 'M[F]_(n, k))^T *m (hd_lam e'.1 e'.2 : 'cV[F]_n)
        + (Gu (der nd) : 'M[F]_(m, k))^T *m seg m z cnt = 0,
      Nat.eqb t 0 = false ->
      (Lx (der nd) : 'cV[F]_n) + (Lxx (der nd) : 'M[F]_n) *m x1 + (Lxu (der nd) : 'M[F]_(n, k)) *m seg k x (w + iu)
        + (Fx (der nd) : 'M[F]_n)^T *m (hd_lam e'.1 e'.2 : 'cV[F]_n) + (Gx (der nd) : 'M[F]_(m, n))^T *m seg m z cnt = l1
    & sub_stationary false e'.1 e'.2] by [].
rewrite el ex !mulmxN -[sub_stationary false _ _]/(sub_stationary (Nat.eqb (S t) 0) e'.1 e'.2).
cbn [res]; rewrite -/k -/m /l1; case: (Nat.eqb_spec t 0) => ht.
  split.
    move=> h; split=> //; last by apply/IH => s hs; apply: h; right.
    by apply/cv0 => i; exact: (h _ (or_introl erefl) i).
  move=> [/cv0 h1 _ /IH h2] s [<-|hs]; [exact: h1|exact: h2].
have eb : blkx y t = seg n y ((t - 1) * n) by rewrite /blkx; case: (Nat.eqb_spec t 0).
rewrite -eb; split.
  move=> h; split=> [|_|]; last by apply/IH => s hs; apply: h; right; right.
    by apply/cv0 => i; exact: (h _ (or_intror (or_introl erefl)) i).
  apply/(sub_zero (erefl _))/cv0 => i; exact: (h _ (or_introl erefl) i).
move=> [/cv0 h1 /(_ erefl) h2 /IH h3] s [<-|[<-|hs]]; [|exact: h1|exact: h3].
by apply/cv0; apply/(sub_zero (erefl _)).
Qed.

(** ** Dynamics rows *)
Fixpoint dyn (t iu : nat) (l : seq node) (tn : tnode) : seq (sgm F) :=
  match l with
  | [::] => [::]
  | nd :: l' =>
      let k := nu (nm nd) in
      Sgm (t * n) n (fun i => (seg n x (t * n) - (Fx (der nd) : 'M[F]_n) *m blkx x t
        - (Fu (der nd) : 'M[F]_(n, k)) *m seg k x (w + iu) - (hd_fs l' tn : 'cV[F]_n)) i 0)
      :: dyn (S t) (iu + k) l' tn
  end.
Lemma dyn_sum t iu (l : seq node) tn d :
  bsum (aw w t iu l) d x - ssum (bw t l tn) d = ssum (dyn t iu l tn) d.
Proof.
elim: l t iu => [|nd l IH] t iu; first by rewrite /= bsum_nil !ssum_nil subr0.
cbn [aw bw dyn]; rewrite !(bsum_cat, bsum_cons, ssum_cons) -IH !sterm_dot /bterm; cbn [bi bj bm bk bA].
rewrite !(dot_add, dot_opp) !dot_ntr mul1mx /blkx.
case: (Nat.eqb t 0); first by rewrite bsum_nil mulmx0 dot_zero; mcfold F; ring.
by rewrite bsum_cons bsum_nil /bterm; cbn [bi bj bm bk bA]; rewrite dot_ntr; mcfold F; ring.
Qed.
Lemma dyn_pos t iu (l : seq node) tn : map (@spos F) (dyn t iu l tn) = map (@spos F) (bw t l tn).
Proof. by elim: l t iu => //= nd l IH t iu; rewrite IH. Qed.
Lemma sub_zero4 m (a b c e : 'cV[F]_m) : a - b - c - e = 0 <-> a = b + c + e.
Proof.
have -> : a - b - c - e = a - (b + c + e) by rewrite !opprD !addrA.
by split=> [/eqP|->]; [rewrite subr_eq0 => /eqP|rewrite subrr].
Qed.
Lemma dyn_ok t iu cnt (l : seq node) tn : (t = 0%N -> (hd_dx l tn : 'cV[F]_n) = 0) ->
  (forall s, List.In s (dyn t iu l tn) -> forall i, @sv F s i = 0) <->
  sub_dynamics (ext t iu cnt x y z l tn).1 (ext t iu cnt x y z l tn).2.
Proof.
elim: l t iu cnt => [|nd l IH] t iu cnt hd0 //.
have {}IH := IH (S t) (iu + nu (nm nd))%N (cnt + ng (nm nd))%N (fun e => match Nat.neq_succ_0 t e with end).
set k := nu (nm nd).
set x1 : 'cV[F]_n := if Nat.eqb t 0 then dx (dir nd) else seg n x ((t - 1) * n).
have ex : x1 = blkx x t by rewrite /x1 /blkx; case: (Nat.eqb_spec t 0) => // ht; exact: hd0.
set e' := ext (S t) _ _ _ _ _ l tn in IH *.
have -> : sub_dynamics (ext t iu cnt x y z (nd :: l) tn).1 (ext t iu cnt x y z (nd :: l) tn).2 =
  ((hd_dx e'.1 e'.2 : 'cV[F]_n) = (Fx (der nd) : 'M[F]_n) *m x1
        + (Fu (der nd) : 'M[F]_(n, k)) *m seg k x (w + iu) + hd_fs e'.1 e'.2
      /\ sub_dynamics e'.1 e'.2) by [].
rewrite ext_fs ext_dx // blkx_succ ex; cbn [dyn]; rewrite -/k; split.
  move=> h; split; last by apply/IH => s hs; apply: h; right.
  by apply/sub_zero4/cv0 => i; exact: (h _ (or_introl erefl) i).
move=> [/sub_zero4/cv0 h1 /IH h2] s [<-|hs]; [exact: h1|exact: h2].
Qed.

(** ** Constraint rows *)
Fixpoint crow (t iu cnt : nat) (l : seq node) (tn : tnode) : seq (sgm F) :=
  match l with
  | [::] => [:: Sgm cnt (tng (tm tn)) (fun i => ((tGx (tder tn) : 'M[F]_(tng (tm tn), n)) *m blkx x t) i 0)]
  | nd :: l' =>
      let k := nu (nm nd) in
      let m := ng (nm nd) in
      Sgm cnt m (fun i => ((Gx (der nd) : 'M[F]_(m, n)) *m blkx x t + (Gu (der nd) : 'M[F]_(m, k)) *m seg k x (w + iu)) i 0)
      :: crow (S t) (iu + k) (cnt + m) l' tn
  end.
Lemma crow_sum T t iu cnt (l : seq node) tn d : (T * n)%N = w -> l <> [::] \/ t <> 0%N -> layout_ok t iu l ->
  bsum (cw T t cnt l tn) d x = ssum (crow t iu cnt l tn) d.
Proof.
move=> hT; elim: l t iu cnt => [|nd l IH] t iu cnt h0 hl.
  have ht : Nat.eqb t 0 = false by case: h0 => // ht; apply/Nat.eqb_neq.
  cbn [cw crow]; rewrite ssum_cons ssum_nil sterm_dot /blkx ht addr0.
  case: (Nat.eqb_spec (tng (tm tn)) 0) => e0; first by rewrite bsum_nil dot_nil.
  by rewrite bsum_cons bsum_nil addr0.
case: hl => hl0 hl; cbn [cw crow]; rewrite ssum_cons sterm_dot bsum_cat (IH _ (iu + nu (nm nd))%N) //; last by right.
congr (_ + _); case: (Nat.eqb_spec (ng (nm nd)) 0) => e0; first by rewrite bsum_nil dot_nil.
rewrite dot_add bsum_cat bsum_cons bsum_nil addr0 /bterm; cbn [bi bj bm bk bA]; rewrite hT (hl0 e0); congr (_ + _).
rewrite /blkx; case: (Nat.eqb t 0); first by rewrite bsum_nil mulmx0 dot_zero.
by rewrite bsum_cons bsum_nil addr0.
Qed.
Lemma crow_geo t iu cnt Mi (l : seq node) tn : (cnt + sum_ng l + tng (tm tn))%N = Mi ->
  [/\ all (swithin Mi) (crow t iu cnt l tn), sdisj (crow t iu cnt l tn)
    & forall r, scover (crow t iu cnt l tn) r -> (cnt <= r)%N].
Proof.
elim: l t iu cnt => [|nd l IH] t iu cnt h.
  move: h; cbn [crow sum_ng] => h; split=> [||r]; rewrite /scover /= /swithin /ins /inr /=; [slia|by split|slia].
have [a1 a2 a3] := IH (S t) (iu + nu (nm nd))%N (cnt + ng (nm nd))%N ltac:(move: h; rewrite /=; slia).
move: h; cbn [crow sum_ng] => h; split=> /=; first by rewrite a1 andbT /swithin /=; slia.
  by split=> // r hr; apply/negP => /a3; move: hr; rewrite /ins /inr /=; slia.
by move=> r; rewrite -/(scover _ r) => /orP [|/a3]; rewrite /ins /inr /=; slia.
Qed.

Definition rows_prop (Q : option F -> option F -> F -> F -> Prop) (l : seq node) (tn : tnode) : Prop :=
  (forall nd, List.In nd l -> forall i,
     Q (@lo_of _ _ _ nd i) (@hi_of _ _ _ nd i) (rows_of nd i 0) ((ay (adm nd) : 'cV[F]_(ng (nm nd))) i 0))
  /\ forall i, Q (@tlo_of _ _ _ tn i) (@thi_of _ _ _ tn i) (trows_of tn i 0) ((tay tn : 'cV[F]_(tng (tm tn))) i 0).
Lemma rows_ok (Q : option F -> option F -> F -> F -> Prop) (f : nat -> F) (lo hi : vbuf (option F)) t iu cnt Mi (l : seq node) tn :
  (cnt + sum_ng l + tng (tm tn))%N = Mi -> l <> [::] \/ t <> 0%N -> (t = 0%N -> (hd_dx l tn : 'cV[F]_n) = 0) ->
  (forall s (i : 'I_(sn s)), List.In s (crow t iu cnt l tn) -> f (si s + i)%N = @sv F s i) ->
  (forall s (i : 'I_(sn s)), List.In s (lw false cnt l tn) -> lo (si s + i)%N = @sv _ s i) ->
  (forall s (i : 'I_(sn s)), List.In s (lw true cnt l tn) -> hi (si s + i)%N = @sv _ s i) ->
  (forall r, (cnt <= r)%N && (r < Mi)%N -> Q (lo r) (hi r) (f r) (z r)) <->
  rows_prop Q (ext t iu cnt x y z l tn).1 (ext t iu cnt x y z l tn).2.
Proof.
elim: l t iu cnt => [|nd l IH] t iu cnt hM h0 hd0 hf hlo hhi.
  have ht : t <> 0%N by case: h0.
  move: hM; rewrite /= addn0 => <-; rewrite range_ord.
  have edx : (tdx (ext t iu cnt x y z [::] tn).2 : 'cV[F]_n) = blkx x t by exact: (@ext_dx t iu cnt [::] tn ht).
  have main (o : 'I_(tng (tm tn))) : Q (lo (cnt + o)%N) (hi (cnt + o)%N) (f (cnt + o)%N) (z (cnt + o)%N) =
     Q (@tlo_of _ _ _ tn o) (@thi_of _ _ _ tn o) (((tGx (tder tn) : 'M[F]_(tng (tm tn), n)) *m blkx x t) o 0) (seg (tng (tm tn)) z cnt o 0).
    have nz : Nat.eqb (tng (tm tn)) 0 = false by apply/Nat.eqb_neq => e; have := ltn_ord o; rewrite [X in (_ < X)%N]e.
    move: hlo hhi; cbn [lw]; rewrite nz => hlo hhi.
    have -> := hlo (Sgm cnt (tng (tm tn)) (shift (tlb (tm tn)) (tg (tm tn) (tme tn)))) o (or_introl erefl).
    have -> := hhi (Sgm cnt (tng (tm tn)) (shift (tub (tm tn)) (tg (tm tn) (tme tn)))) o (or_introl erefl).
    have -> := hf (Sgm cnt (tng (tm tn)) (fun i => ((tGx (tder tn) : 'M[F]_(tng (tm tn), n)) *m blkx x t) i 0)) o (or_introl erefl).
    by rewrite segE.
  split=> [h|[_ h] o]; last by rewrite main -edx; exact: h.
  by split=> // o; have := h o; rewrite main -edx.
have {}IH := IH (S t) (iu + nu (nm nd))%N (cnt + ng (nm nd))%N ltac:(move: hM; rewrite /=; slia) (or_intror (@Nat.neq_succ_0 t)) (fun e => match Nat.neq_succ_0 t e with end).
set k := nu (nm nd) in IH *; set m := ng (nm nd) in IH *.
set x1 : 'cV[F]_n := if Nat.eqb t 0 then dx (dir nd) else seg n x ((t - 1) * n).
have ex : x1 = blkx x t by rewrite /x1 /blkx; case: (Nat.eqb_spec t 0) => // ht; exact: hd0.
set e' := ext (S t) _ _ _ _ _ l tn in IH *.
have {}IH := IH _ _ _.
rewrite (@range_split cnt (cnt + m) Mi); last by move: hM; rewrite /= -/m; slia.
rewrite range_ord IH; first last.
- by move=> s i hs; apply: hhi; cbn [lw]; apply: in_or_app; right.
- by move=> s i hs; apply: hlo; cbn [lw]; apply: in_or_app; right.
- by move=> s i hs; apply: hf; right.
have main (o : 'I_m) : Q (lo (cnt + o)%N) (hi (cnt + o)%N) (f (cnt + o)%N) (z (cnt + o)%N) =
   Q (@lo_of _ _ _ nd o) (@hi_of _ _ _ nd o)
     (((Gx (der nd) : 'M[F]_(m, n)) *m x1 + (Gu (der nd) : 'M[F]_(m, k)) *m seg k x (w + iu)) o 0) (seg m z cnt o 0).
  have nz : Nat.eqb m 0 = false by apply/Nat.eqb_neq => e; have := ltn_ord o; rewrite [X in (_ < X)%N]e.
  move: hlo hhi; cbn [lw]; rewrite -/m nz => hlo hhi.
  have -> := hlo (Sgm cnt m (shift (alb (nm nd)) (ag (nm nd) (mem nd)))) o (or_introl erefl).
  have -> := hhi (Sgm cnt m (shift (aub (nm nd)) (ag (nm nd) (mem nd)))) o (or_introl erefl).
  have -> := hf (Sgm cnt m (fun i => ((Gx (der nd) : 'M[F]_(m, n)) *m blkx x t + (Gu (der nd) : 'M[F]_(m, k)) *m seg k x (w + iu)) i 0)) o (or_introl erefl).
  by rewrite segE ex.
split.
  move=> [h1 [h2 h3]]; split=> // nd' [<-|] o; last exact: h2.
  by have := h1 o; rewrite main.
move=> [h1 h2]; split; last by split=> // nd' hn; apply: h1; right.
by move=> o; rewrite main; exact: (h1 _ (or_introl erefl) o).
Qed.

(** ** Objective *)
Lemma cost_ok t iu cnt (l : seq node) tn : l <> [::] \/ t <> 0%N -> (t = 0%N -> (hd_dx l tn : 'cV[F]_n) = 0) ->
  bsum (pw w t iu l tn) x x / 2%:R + ssum (qw w t iu l tn) x = sub_cost (ext t iu cnt x y z l tn).1 (ext t iu cnt x y z l tn).2.
Proof.
have two : 2%:R != 0 :> F by rewrite pnatr_eq0.
elim: l t iu cnt => [|nd l IH] t iu cnt h0 hd0.
  by cbn [pw qw pq_extract sub_cost fst snd]; rewrite bsum_cons bsum_nil ssum_cons ssum_nil sterm_dot /bterm quad_dot !addr0 [dot (tLx (tder tn) : 'cV[F]_n) _]dot_sym.
have {}IH := IH (S t) (iu + nu (nm nd))%N (cnt + ng (nm nd))%N (or_intror (@Nat.neq_succ_0 t)) (fun e => match Nat.neq_succ_0 t e with end).
set k := nu (nm nd) in IH *; set m := ng (nm nd) in IH *.
set x1 : 'cV[F]_n := if Nat.eqb t 0 then dx (dir nd) else seg n x ((t - 1) * n).
have ex : x1 = blkx x t by rewrite /x1 /blkx; case: (Nat.eqb_spec t 0) => // ht; exact: hd0.
set e' := ext (S t) _ _ _ _ _ l tn in IH *.
have -> : sub_cost (ext t iu cnt x y z (nd :: l) tn).1 (ext t iu cnt x y z (nd :: l) tn).2 =
      quad (Lxx (der nd) : 'M[F]_n) x1 / 2%:R + dot (Lx (der nd) : 'cV[F]_n) x1
      + dot x1 ((Lxu (der nd) : 'M[F]_(n, k)) *m seg k x (w + iu))
      + quad (Luu (der nd) : 'M[F]_k) (seg k x (w + iu)) / 2%:R + dot (Lu (der nd) : 'cV[F]_k) (seg k x (w + iu))
      + sub_cost e'.1 e'.2 by [].
rewrite -IH ex /blkx; cbn [pw qw]; rewrite -/k !(bsum_cat, bsum_cons, ssum_cat, ssum_cons) !sterm_dot /bterm; cbn [bi bj bm bk bA].
have e2 : 2%:R = 1 + 1 :> F by rewrite mulr2n.
rewrite !e2 in two *; rewrite !quad_dot.
rewrite ?[dot (Lx (der nd) : 'cV[F]_n) _]dot_sym ?[dot (Lu (der nd) : 'cV[F]_(nu (nm nd))) _]dot_sym.
case: (Nat.eqb t 0).
  by rewrite bsum_nil ssum_nil mulmx0 !(dot_sym 0) !dot_zero /k; mcfold F; field; exact/eqP.
rewrite !(bsum_cons, bsum_nil, ssum_cons, ssum_nil) sterm_dot /bterm; cbn [bi bj bm bk bA]; rewrite dot_tr /k.
set b1 := bsum _ _ _; set b2 := ssum _ _; by mcfold F; field; exact/eqP.
Qed.
End Match.
End Sys.
