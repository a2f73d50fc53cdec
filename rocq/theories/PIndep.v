(** * Two runs of SolverPROXQP::solve from objects with different pasts: the arrays. *)
From Coq Require Import ZArith List Arith.
Set Warnings "-notation-overridden,-ambiguous-paths".
From mathcomp Require Import all_ssreflect all_algebra.
From Verif Require Import Eigen EigenExact Problem DDP Filter SQP CSQP Init Flat KKT PROXQP PROXBlocks PROXSys PROXHist ADMMExact SsrLia CIndep.

Set Implicit Arguments.
Unset Strict Implicit.
Unset Printing Implicit Defensive.

Import Order.TTheory GRing.Theory Num.Theory.
Local Open Scope ring_scope.

Ltac dn := case=> m [xx1 u1 xt1 ut1] [xx2 u2 xt2 ut2] me1 me2 dd1 dd2 ff1 ff2
  [Vxx1 Vx1 Qxx1 Qxu1 Quu1 Qx1 Qu1 gK1 gk1 Quuk1 llt1 W1] [Vxx2 Vx2 Qxx2 Qxu2 Quu2 Qx2 Qu2 gK2 gk2 Quuk2 llt2 W2]
  [dx1 du1 ll1] [dx2 du2 ll2] [dxt1 dut1 z1 zp1 zr1 y1 rr1 ii1] [dxt2 dut2 z2 zp2 zr2 y2 rr2 ii2] hS; cbn [px pu]; move=> hx hu h.
Ltac dt := case=> m x xt1 xt2 me1 me2 dd1 dd2 ff1 ff2 A1 A2 v1 v2 dx1 dx2 ll1 ll2
  dt1 dt2 z1 z2 zp1 zp2 zr1 zr2 y1 y2 rr1 rr2 ii1 ii2 hS h.
Tactic Notation "get" hyp(h) constr(p) := move: (h _ p);
  cbn [agr tagr px pu pxt put Vxx Vx Qxx Qxu Quu Qx Qu gK gk Quuk llt Vxxfs dx du lam dxt dut az azp azr ay arho airho].
Ltac fin h := let f := fresh "f" in let hf := fresh "hf" in move=> f hf; case: f hf => hf;
  try exact: I; try (case: hf => [hf|hf]; [discriminate hf|]); try exact: (h _ hf);
  cbn [agr tagr px pu pxt put Vxx Vx Qxx Qxu Quu Qx Qu gK gk Quuk llt Vxxfs dx du lam dxt dut az azp azr ay arho airho].

Section PIndep.
Variable F : realFieldType.
Variable sq : F -> F.
Notation E := (ExactE sq).
Variable M : manifold E.
Notation n := (mndx M).
Notation node := (node M).
Notation tnode := (tnode M).
Notation S1 := (fun _ : amodel M => True).
Notation T1 := (fun _ : tmodel M => True).
Notation nrel := (nrel S1).
Notation trel := (trel T1).
Notation lrel P := (Forall2 (nrel P)).
Notation jrel := (jrel S1 T1).

Variable P : fld -> Prop.
Section Lists.
Variables (l1 l2 : seq node) (tn1 tn2 : tnode).
Hypothesis hl : lrel P l1 l2.
Hypothesis ht : trel P tn1 tn2.
Lemma nm_rel : [seq nm nd | nd <- l1] = [seq nm nd | nd <- l2].
Proof. by elim: hl => //= n1 n2 q1 q2 hn _ ->; case: hn. Qed.
Lemma tm_rel : tm tn1 = tm tn2.
Proof. by case: ht. Qed.
Lemma len_rel : List.length l1 = List.length l2.
Proof. by elim: hl => //= n1 n2 q1 q2 hn _ ->. Qed.
Lemma sumnu_rel : sum_nu l1 = sum_nu l2.
Proof. by elim: hl => //= n1 n2 q1 q2 hn _ ->; case: hn. Qed.
Lemma sumng_rel : sum_ng l1 = sum_ng l2.
Proof. by elim: hl => //= n1 n2 q1 q2 hn _ ->; case: hn. Qed.
Hypothesis pd : P FD.
Lemma pw_rel w p iu : pw w p iu l1 tn1 = pw w p iu l2 tn2.
Proof.
elim: hl p iu => [|n1 n2 q1 q2 hn _ ih] p iu; cbn [pw].
  by move: ht; dt; get h pd => ->.
rewrite ih; move: hn; dn; get h pd => e; cbn [der nm]; by rewrite e.
Qed.
Lemma qw_rel w p iu : qw w p iu l1 tn1 = qw w p iu l2 tn2.
Proof.
elim: hl p iu => [|n1 n2 q1 q2 hn _ ih] p iu; cbn [qw].
  by move: ht; dt; get h pd => ->.
rewrite ih; move: hn; dn; get h pd => e; cbn [der nm]; by rewrite e.
Qed.
Lemma aw_rel w p iu : aw w p iu l1 = aw w p iu l2.
Proof.
elim: hl p iu => [|n1 n2 q1 q2 hn _ ih] p iu; cbn [aw] => //.
rewrite ih; move: hn; dn; get h pd => e; cbn [der nm]; by rewrite e.
Qed.
Lemma cw_rel T p cnt : cw T p cnt l1 tn1 = cw T p cnt l2 tn2.
Proof.
elim: hl p cnt => [|n1 n2 q1 q2 hn _ ih] p cnt; cbn [cw].
  by move: ht; dt; get h pd => e; cbn [tder tm]; rewrite e.
rewrite ih; move: hn; dn; get h pd => e; cbn [der nm]; by rewrite e.
Qed.
Hypothesis pf : P FF.
Lemma bw_rel p : bw p l1 tn1 = bw p l2 tn2.
Proof.
elim: hl p => [|n1 n2 q1 q2 hn hq ih] p; cbn [bw] => //.
by rewrite ih (hd_fs_rel pf hq ht).
Qed.
Hypothesis pm : P FM.
Lemma lw_rel up cnt : lw up cnt l1 tn1 = lw up cnt l2 tn2.
Proof.
elim: hl cnt => [|n1 n2 q1 q2 hn _ ih] cnt; cbn [lw].
  by move: ht; dt; get h pm => e; cbn [tme tm]; rewrite e.
rewrite ih; move: hn; dn; get h pm => e; cbn [mem nm]; by rewrite e.
Qed.
End Lists.

(** rows below the number of constraints are written *)
Lemma lw_cover up cnt (l : seq node) tn r : (cnt <= r)%N -> (r < cnt + sum_ng l + tng (tm tn))%N -> scover (lw up cnt l tn) r.
Proof.
elim: l cnt => [|nd l IH] cnt h1; cbn [lw sum_ng] => h2.
  case: Nat.eqb_spec => hm; first by slia.
  by rewrite /= /ins orbF; apply/inrP; cbn [si sn]; slia.
rewrite /scover has_cat; case: (ltnP r (cnt + ng (nm nd))) => h; last by apply/orP; right; apply: IH; slia.
apply/orP; left; case: Nat.eqb_spec => hm; first by slia.
by rewrite /= /ins orbF; apply/inrP; cbn [si sn]; slia.
Qed.
Lemma wsl_cov T (S : seq (sgm T)) q q' r : scover S r -> wsl S q r = wsl S q' r.
Proof.
elim: S q q' => [|s S IH] q q' //= h; rewrite /wsl /= -!/(wsl S _).
case e: (scover S r); first exact: IH.
rewrite !wsl_out //; move: h; rewrite -/(scover S r) e orbF /ins => /inrP h'.
have hl : (r - si s < sn s)%N by slia.
by rewrite (_ : r = (si s + (Ordinal hl : 'I_(sn s)))%N) ?wsg_in //=; slia.
Qed.

(** ** KKT residual *)
Lemma residual_rel l1 l2 tn1 tn2 : P FD -> P FL -> P FY -> lrel P l1 l2 -> trel P tn1 tn2 -> forall first acc,
  pq_residual first acc l1 tn1 = pq_residual first acc l2 tn2.
Proof.
move=> pd pl py hl ht; elim: hl => [|n1 n2 q1 q2 hn hq ih] first acc; cbn [pq_residual].
  by move: ht; dt; get h pd => ?; get h pl => ?; get h py => ?; subst dd2 ll2 y2.
rewrite -(hd_lam_rel pl hq ht) -ih; congr (pq_residual _ _ _ _).
by move: hn; dn; get h pd => ?; get h pl => ?; get h py => ?; subst dd2 ll2 y2.
Qed.
Lemma fsnorm_rel (t1 t2 : traj M) : P FF -> jrel P t1 t2 -> pq_fs_norm t1 = pq_fs_norm t2.
Proof.
move=> pf [h1 h2]; rewrite /pq_fs_norm.
have ef : forall n1 n2, nrel P n1 n2 -> fs n1 = fs n2 by move=> n1 n2; dn; exact: (h _ pf).
have -> : tfs (trm t1) = tfs (trm t2) by move: h2; dt; exact: (h _ pf).
case: h1 => [|n1 n2 q1 q2 hn hq] //; move: (xlinf _) => k.
elim: hq k => [|m1 m2 ? ? hm _ ih] k //=. by rewrite (ef _ _ hm) ih.
Qed.
Lemma check_rel con (t1 t2 : traj M) : P FD -> P FL -> P FY -> P FF -> jrel P t1 t2 -> pq_check con t1 = pq_check con t2.
Proof.
move=> pd pl py pf hj; rewrite /pq_check (fsnorm_rel pf hj); case: hj => h1 h2; by rewrite (residual_rel pd pl py h1 h2).
Qed.

(** ** copying of the QP solution *)
Notation PX := (add FX (add FL (add FY P))).
Lemma extract_rel w bx by_ bz l1 l2 tn1 tn2 : P FL -> lrel P l1 l2 -> trel P tn1 tn2 -> forall p iu cnt,
  (p = 0%N -> hd_dx l1 tn1 = hd_dx l2 tn2) ->
  let r1 := pq_extract w p iu cnt bx by_ bz l1 tn1 in let r2 := pq_extract w p iu cnt bx by_ bz l2 tn2 in
  lrel PX r1.1 r2.1 /\ trel PX r1.2 r2.2.
Proof.
move=> pl hl ht; elim: hl => [|n1 n2 q1 q2 hn hq ih] p iu cnt hd; cbn [pq_extract fst snd].
  split; first by constructor.
  move: ht; dt; constructor => //; move=> f hf; case: f hf => hf; try exact: I; try reflexivity;
    do 3 (case: hf => [hf|hf]; [discriminate hf|]); exact: (h _ hf).
have := ih p.+1 (iu + nu (nm n1))%N (cnt + ng (nm n1))%N ltac:(by []).
have -> : pq_extract w p.+1 (iu + nu (nm n2)) (cnt + ng (nm n2)) bx by_ bz q2 tn2 =
          pq_extract w p.+1 (iu + nu (nm n1)) (cnt + ng (nm n1)) bx by_ bz q2 tn2 by case: hn.
move=> [j1 j2]; split=> //; constructor => //; move: hd; cbn [hd_dx]; move: hn; dn; cbn [dir dx] => hd.
constructor => //; move=> f hf; case: f hf => hf; try exact: I; try reflexivity;
  try (do 3 (case: hf => [hf|hf]; [discriminate hf|]); exact: (h _ hf)); cbn.
- split=> //; case: p hd {ih j1 j2} => [/(_ erefl) //|p _ /=]; reflexivity.
- case: p {hd ih j1 j2} => [|p] //=. exact: (h _ pl).
Qed.
End PIndep.
