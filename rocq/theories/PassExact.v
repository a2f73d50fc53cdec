(** * Exact arithmetic: the backward/forward passes implement the Riccati recursion. *)
From Coq Require Import Ring Field ZArith PeanoNat.
Set Warnings "-notation-overridden,-ambiguous-paths".
From mathcomp Require Import all_ssreflect all_algebra.
From Verif Require Import FieldTac Eigen EigenExact ExactLemmas Problem DDP SQP CSQP LQSpec SubQP Riccati.

Set Implicit Arguments.
Unset Strict Implicit.
Unset Printing Implicit Defensive.

Import Order.TTheory GRing.Theory Num.Theory.
Local Open Scope ring_scope.

Section Gen.
Variable F : realFieldType.
Add Field Ff3 : (F_field_theory F).

Lemma inner0 m (m0 : m = 0%N) p q (A : 'M[F]_(p, m)) (B : 'M[F]_(m, q)) : A *m B = 0.
Proof. by move: A B; rewrite m0 => A B; rewrite [A]thinmx0 mul0mx. Qed.
Lemma rows0 m (m0 : m = 0%N) q (A B : 'M[F]_(m, q)) : A = B.
Proof. by move: A B; rewrite m0 => A B; rewrite [A]flatmx0 [B]flatmx0. Qed.
Lemma posdef0 m (m0 : m = 0%N) (A : 'M[F]_m) : posdef A.
Proof. by move=> x; rewrite (rows0 m0 x 0) eqxx. Qed.
Lemma half2 m n (A : 'M[F]_(m, n)) : 2%:R^-1 *: (A + A) = A.
Proof.
by rewrite -mulr2n -scaler_nat scalerA mulVf ?scale1r //; exact: two_neq0.
Qed.
Lemma xlit12 : xlit F 1 2 = 2%:R^-1.
Proof. by rewrite /xlit /Zr /posr mulr2n mul1r. Qed.

Variable n : nat.

(** the gains stored by computeGains form a Riccati step *)
Lemma ric_step_intro (g : gst F n) (P' : 'M[F]_n) (p' : 'cV[F]_n) (preg : F) (Q0 : 'M[F]_n) :
  let s := gs g in
  sym P' -> sQ s = Q0 + preg%:M -> is_sym Q0 -> is_sym (sR s) ->
  (sm s <> 0%N -> [/\ chol_ok (rQuu s P'), hK g = chol_solve (rQuu s P') (rQxu s P')^T
                    & hk g = chol_solve (rQuu s P') (rqu s P' p')]) ->
  (let A := Q0 + (sA s)^T *m P' *m sA s - rQxu s P' *m hK g in
   hP g = 2%:R^-1 *: (A + A^T) + preg%:M) ->
  hp g = rqx s P' p' - (hK g)^T *m rqu s P' p' ->
  ric_step g P' p' /\ posdef (rQuu s P').
Proof.
move=> s sP HQ sQ0 sR0 HK HP Hp.
have symU := Quu_sym sP sR0.
have sQs : is_sym (sQ s) by rewrite HQ; apply: symD; [exact: sQ0 | exact: sym_scalar].
have [HKe Hke pd] : [/\ rQuu s P' *m hK g = (rQxu s P')^T,
   rQuu s P' *m hk g = rqu s P' p' & posdef (rQuu s P')].
  have [m0|/eqP mn0] := eqVneq (sm s) 0%N.
    by split; [exact: rows0 | exact: rows0 | exact: posdef0].
  have [ok -> ->] := HK mn0.
  by split; [exact: chol_solveP | exact: chol_solveP | apply/chol_okP].
split=> //; split=> //.
rewrite HP; set A := (X in _ *: (X + X^T)).
have -> : A^T = A.
  rewrite /A linearB /= linearD /= sQ0; congr (_ - _).
    by congr (_ + _); rewrite !trmx_mul trmxK sP mulmxA.
  have -> : rQxu s P' *m hK g = (hK g)^T *m rQuu s P' *m hK g.
    by rewrite -[rQxu _ _]trmxK -HKe trmx_mul symU.
  by rewrite !trmx_mul trmxK symU mulmxA.
rewrite half2 /A /rQxx -/s HQ; vabel F.
Qed.
End Gen.

Section SQPPass.
Variable F : realFieldType.
Variable sq : F -> F.
Notation E := (ExactE sq).
Variable M : manifold E.
Notation n := (mndx M).
Notation node := (node M).
Notation tnode := (tnode M).
Add Field Ff4 : (F_field_theory F).

Definition sqp_gst (feas : bool) (preg dreg : F) (nd : node) (f : 'cV[F]_n) : gst F n :=
  @mkGst F n (sqp_stage preg dreg nd f) (gK (val nd)) (gk (val nd)) (Vxx (val nd))
    ((Vx (val nd) : 'cV[F]_n) - (Vxx (val nd) : 'M[F]_n) *m gap_of feas (fs nd : 'cV[F]_n)).
Fixpoint sqp_gsts (feas : bool) (preg dreg : F) (l : seq node) (tn : tnode) : seq (gst F n) :=
  match l with
  | [::] => [::]
  | nd :: l' => sqp_gst feas preg dreg nd (gap_of feas (hd_fs l' tn)) :: sqp_gsts feas preg dreg l' tn
  end.
Lemma map_sqp_gsts feas preg dreg l tn : [seq gs g | g <- sqp_gsts feas preg dreg l tn] = sqp_stages feas preg dreg l tn.
Proof. by elim: l => //= nd l ->. Qed.

(** what a terminal node must hold after the backward pass *)
Definition term_ok (feas : bool) (preg : F) (tn : tnode) : Prop :=
  (tVxx tn : 'M[F]_n) = (tLxx (tder tn) : 'M[F]_n) + preg%:M /\
  (tVx tn : 'cV[F]_n) = (tLx (tder tn) : 'cV[F]_n) + (tVxx tn : 'M[F]_n) *m gap_of feas (tfs tn : 'cV[F]_n).
Lemma bwd_term_ok feas (preg : R E) (tn : tnode) : term_ok feas preg (bwd_term preg feas tn).
Proof. by split=> //; case: feas => //=; rewrite mulmx0 addr0. Qed.

Lemma hd_nP feas preg dreg l tn : term_ok feas preg tn ->
  nP (sqp_gsts feas preg dreg l tn) (sqp_final preg tn) = hd_Vxx l tn.
Proof. by case: l => [|nd l] //= [-> _]. Qed.
Lemma hd_np feas preg dreg l tn : term_ok feas preg tn ->
  np (sqp_gsts feas preg dreg l tn) (sqp_final preg tn)
  = (hd_Vx l tn : 'cV[F]_n) - (hd_Vxx l tn : 'M[F]_n) *m gap_of feas (hd_fs l tn : 'cV[F]_n).
Proof. by case: l => [|nd l] //= [_ ->]; rewrite addrK. Qed.

Lemma eqb0 k : (Nat.eqb k 0) = (k == 0%N).
Proof. by case: k. Qed.


(** what computeGains and the value update leave in a node, in terms of the
    quadratic coefficients *)
Record fin (m : nat) (preg : F) (qxx : 'M[F]_n) (qu : 'cV[F]_m) (quu : 'M[F]_m)
    (qxu : 'M[F]_(n, m)) (v : vals M m) : Prop := mkFin {
  f_ok : m <> 0%N -> [/\ chol_ok quu, (gK v : 'M[F]_(m, n)) = chol_solve quu qxu^T,
                         (gk v : 'cV[F]_m) = chol_solve quu qu & (llt v : 'M[F]_m) = quu];
  f_P : let A := qxx - qxu *m (gK v : 'M[F]_(m, n)) in
        (Vxx v : 'M[F]_n) = 2%:R^-1 *: (A + A^T) + preg%:M;
  f_Qxx : (Qxx v : 'M[F]_n) = qxx;
  f_Q : m <> 0%N -> [/\ (Quu v : 'M[F]_m) = quu, (Qxu v : 'M[F]_(n, m)) = qxu
                       & (Qu v : 'cV[F]_m) = qu]
}.

Lemma bwd_nodeP feas (preg dreg : R E) (nd : node) (Vxxp : mat E n n) (Vxp : vec E n) nd' :
  bwd_node preg dreg feas nd Vxxp Vxp = (true, nd') ->
  let d := der nd in
  let P' : 'M[F]_n := Vxxp in
  let A : 'M[F]_n := Fx d in
  let B : 'M[F]_(n, nu (nm nd)) := Fu d in
  let qx := (Lx d : 'cV[F]_n) + A^T *m (Vxp : 'cV[F]_n) in
  let qu := (Lu d : 'cV[F]_(nu (nm nd))) + B^T *m (Vxp : 'cV[F]_n) in
  exists2 v, nd' = set_val nd v &
   [/\ fin preg ((Lxx d : 'M[F]_n) + A^T *m P' *m A) qu
         ((Luu d : 'M[F]_(nu (nm nd))) + B^T *m P' *m B + (dreg : F)%:M)
         ((Lxu d : 'M[F]_(n, nu (nm nd))) + A^T *m P' *m B) v,
      (Vx v : 'cV[F]_n) = qx - (gK v : 'M[F]_(nu (nm nd), n))^T *m qu
                          + (Vxx v : 'M[F]_n) *m gap_of feas (fs nd : 'cV[F]_n),
      (Qx v : 'cV[F]_n) = qx,
      Quuk v = (if nu (nm nd) =? 0 then Quuk (val nd) else mmulv E (Quu v) (gk v))%nat &
      (vlinf E (Vx v) < xlit F (10 ^ 30) 1) && (mlinf E (Vxx v) < xlit F (10 ^ 30) 1)].
Proof.
move=> H d P' A B qx qu.
move: H; rewrite /bwd_node; case e: (Nat.eqb _ _); cbn [negb andb].
- have nu0 : nu (nm nd) = 0%N by apply/Nat.eqb_eq.
  set v := mkVals _ _ _ _ _ _ _ _ _ _ _ _.
  move=> [H1 <-]; exists v => //; split=> //.
  + by split=> //=; rewrite /add_reg /= xlit12 (inner0 nu0) subr0.
  + rewrite /= (inner0 nu0) subr0; case: (feas) => //=; by rewrite mulmx0 addr0.
  + by move: H1; rewrite /raiseIfNaN /= negb_or -!ltNge.
- have nu0 : nu (nm nd) <> 0%N by apply/Nat.eqb_neq.
  case ok: (llt_ok E _); cbn [negb andb]; last by [].
  set v := mkVals _ _ _ _ _ _ _ _ _ _ _ _.
  move=> [H1 <-]; exists v => //; split=> //.
  + by split=> //=; rewrite /add_reg /= xlit12.
  + by rewrite /=; case: (feas) => //=; rewrite mulmx0 addr0.
  + by move: H1; rewrite /raiseIfNaN /= negb_or -!ltNge.
Qed.

Lemma bwd_node_ok feas (preg dreg : R E) (nd : node) (Vxxp : mat E n n) (Vxp : vec E n) (f : 'cV[F]_n) nd' :
  bwd_node preg dreg feas nd Vxxp Vxp = (true, nd') ->
  node_sym nd -> sym (Vxxp : 'M[F]_n) ->
  let P' : 'M[F]_n := Vxxp in
  let p' : 'cV[F]_n := (Vxp : 'cV[F]_n) - P' *m f in
  let g := sqp_gst feas preg dreg nd' f in
  [/\ ric_step g P' p', posdef (rQuu (gs g) P'), node_sym nd' & fs nd' = fs nd].
Proof.
move/bwd_nodeP => [v -> [[fok fP _ _] HVx _ _ _]] [sx su] sP P' p' g.
suff [] : ric_step g P' p' /\ posdef (rQuu (gs g) P') by split.
have EU : rQuu (gs g) P' = (Luu (der nd) : 'M[F]_(nu (nm nd))) + (Fu (der nd))^T *m P' *m Fu (der nd) + (dreg : F)%:M.
  rewrite /rQuu /=; vabel F.
have Eu : rqu (gs g) P' p' = (Lu (der nd) : 'cV[F]_(nu (nm nd))) + (Fu (der nd))^T *m (Vxp : 'cV[F]_n).
  by rewrite /rqu /rqw /= /p' addrCA subrr addr0.
apply: (ric_step_intro (preg := preg) (Q0 := Lxx (der nd))) => //.
- exact: symD (sym_scalar _ _).
- by rewrite EU Eu => /fok [].
- rewrite /= HVx addrK Eu; congr (_ - _).
  by rewrite /rqx /rqw /= /p' addrCA subrr addr0.
Qed.

Lemma bwd_nodes_ok feas (preg dreg : R E) (l : seq node) (tn : tnode) l' :
  bwd_nodes preg dreg feas l tn = (true, l') ->
  (forall nd, List.In nd l -> node_sym nd) -> term_ok feas preg tn -> tnode_sym tn ->
  [/\ ric_ok (sqp_gsts feas preg dreg l' tn) (sqp_final preg tn),
      ric_pd (sqp_gsts feas preg dreg l' tn) (sqp_final preg tn),
      gsym (sqp_gsts feas preg dreg l' tn) (sqp_final preg tn)
    & hd_fs l' tn = hd_fs l tn].
Proof.
move=> H Hs Ht st; elim: l l' H Hs => [|nd l IH] l' /=.
  by move=> [<-] _; split=> //; apply: symD (sym_scalar _ _).
case e: (bwd_nodes preg dreg feas l tn) => [b r]; case: b e => //= e.
case e1: (bwd_node _ _ _ _ _ _) => [b1 nd'] /= [e2 <-] Hs; rewrite {}e2 in e1.
have [ok pd sy hf] := IH r e (fun nd h => Hs nd (or_intror h)).
have sP : sym (hd_Vxx r tn : 'M[F]_n) by rewrite -(hd_nP dreg r Ht); apply: nP_sym.
have [st1 pd1 [sx su] f1] := bwd_node_ok (gap_of feas (hd_fs r tn)) e1 (Hs nd (or_introl erefl)) sP.
split=> //=.
- by rewrite hd_nP // hd_np.
- by rewrite hd_nP.
- by split=> //; apply: symD (sym_scalar _ _).
Qed.
End SQPPass.

(** ** forward pass *)
Section SQPFwd.
Variable F : realFieldType.
Variable sq : F -> F.
Notation E := (ExactE sq).
Variable M : manifold E.
Notation n := (mndx M).
Notation node := (node M).
Notation tnode := (tnode M).
Add Field Ff5 : (F_field_theory F).

(** data read by the subproblem and gains: unchanged by the forward pass *)
Lemma fwd_hd (d : vec E n) (l : seq node) (tn : tnode) (xg ug : R E) :
  let r := fwd_nodes d l tn xg ug in
  [/\ hd_Vxx (fst (fst r)) (snd (fst r)) = hd_Vxx l tn,
      hd_Vx (fst (fst r)) (snd (fst r)) = hd_Vx l tn,
      hd_fs (fst (fst r)) (snd (fst r)) = hd_fs l tn &
      hd_dx (fst (fst r)) (snd (fst r)) = d].
Proof. by case: l. Qed.

Lemma fwd_term (d : vec E n) (l : seq node) (tn : tnode) (xg ug : R E) :
  exists dT : vec E n, snd (fst (fwd_nodes d l tn xg ug)) =
   set_tlam (set_tdx tn dT) (vadd E (tVx tn) (mmulv E (tVxx tn) (vsub E dT (tfs tn)))).
Proof. by elim: l d xg ug => [|nd l IH] d xg ug //=; exists d. Qed.

Lemma fwd_nodes_ok (preg dreg : R E) (d : vec E n) (l : seq node) (tn : tnode) (xg ug : R E) :
  term_ok false preg tn ->
  ric_ok (sqp_gsts false preg dreg l tn) (sqp_final preg tn) ->
  ric_pd (sqp_gsts false preg dreg l tn) (sqp_final preg tn) ->
  gsym (sqp_gsts false preg dreg l tn) (sqp_final preg tn) ->
  let r := fwd_nodes d l tn xg ug in
  let l' := fst (fst r) in let tn' := snd (fst r) in
  [/\ ric_ok (sqp_gsts false preg dreg l' tn') (sqp_final preg tn'),
      ric_pd (sqp_gsts false preg dreg l' tn') (sqp_final preg tn'),
      gsym (sqp_gsts false preg dreg l' tn') (sqp_final preg tn')
    & ric_sol d (sqp_gsts false preg dreg l' tn') (sqp_final preg tn')].
Proof.
move=> Ht; elim: l d xg ug => [|nd l IH] d xg ug.
  move=> _ _ sy; split=> //; split=> //; case: Ht => e1 e2.
  by rewrite /= e2 e1 mulmxBr /gap_of; vabel F.
move=> [st ok] [pd pds] [sx su sy]; cbn [fwd_nodes].
set d' : vec E n := vadd E _ _.
have [ok' pd' sy' so'] := IH d' (radd E xg (vl1 E d)) (radd E ug (vl1 E (fwd_du nd d))) ok pds sy.
have [hV hv hf _] := fwd_hd d' l tn (radd E xg (vl1 E d)) (radd E ug (vl1 E (fwd_du nd d))).
have [dT eT] := fwd_term d' l tn (radd E xg (vl1 E d)) (radd E ug (vl1 E (fwd_du nd d))).
set r := fwd_nodes _ _ _ _ _ in ok' pd' sy' so' hV hv hf eT *.
have Ht' : term_ok false preg (snd (fst r)) by rewrite eT.
have EP : nP (sqp_gsts false preg dreg (fst (fst r)) (snd (fst r))) (sqp_final preg (snd (fst r)))
        = nP (sqp_gsts false preg dreg l tn) (sqp_final preg tn) by rewrite !hd_nP.
have Ep : np (sqp_gsts false preg dreg (fst (fst r)) (snd (fst r))) (sqp_final preg (snd (fst r)))
        = np (sqp_gsts false preg dreg l tn) (sqp_final preg tn) by rewrite !hd_np // hV hv hf.
split=> //=.
- by rewrite EP Ep hf.
- by rewrite EP hf.
- split=> //.
  + by rewrite /= /fwd_lam /gap_of /= mulmxBr; vabel F.
  + rewrite /gap_of hf; move: so'; congr (ric_sol _ _ _).
    by rewrite /d' /=; vabel F.
Qed.
End SQPFwd.
