(** * Exact arithmetic: on convex subproblems no backward pass of SolverCSQP raises. *)
From Coq Require Import Ring Field ZArith PeanoNat.
Set Warnings "-notation-overridden,-ambiguous-paths".
From mathcomp Require Import all_ssreflect all_algebra.
From Verif Require Import FieldTac Eigen EigenExact ExactLemmas Problem DDP SQP CSQP LQSpec SubQP Riccati PassExact
  P_Direction QPSpec FastPass ADMMSpec ADMMExact ADMMIter.

Set Implicit Arguments.
Unset Strict Implicit.
Unset Printing Implicit Defensive.

Import Order.TTheory GRing.Theory Num.Theory.
Local Open Scope ring_scope.

Section Conv.
Variable F : realFieldType.
Variable sq : F -> F.
Notation E := (ExactE sq).
Variable M : manifold E.
Notation n := (mndx M).
Notation node := (node M).
Notation tnode := (tnode M).
Variable c : ccfg E.
Notation sigma := (cc_sigma c : F).
Add Field Ff8 : (F_field_theory F).

(** non-negative penalties *)
Definition rho_nonneg (t : traj M) : Prop :=
  (forall nd, List.In nd (run t) -> forall i, 0 <= (arho (adm nd) : 'cV[F]_(ng (nm nd))) i 0) /\
  (forall i, 0 <= (tarho (trm t) : 'cV[F]_(tng (tm (trm t)))) i 0).

Lemma had_ge0 k (r w : 'cV[F]_k) : (forall i, 0 <= r i 0) -> 0 <= bf w (had r w).
Proof.
move=> h; rewrite bfE; apply: sumr_ge0 => i _; rewrite !mxE mulrCA mulr_ge0 //.
by rewrite -expr2 sqr_ge0.
Qed.
Lemma gram_quad k p q (r : 'cV[F]_k) (G1 : 'M[F]_(k, p)) (G2 : 'M[F]_(k, q)) x u :
  qf (gram r G1 G1) x + 2%:R * bf x (gram r G1 G2 *m u) + qf (gram r G2 G2) u
  = bf (G1 *m x + G2 *m u) (had r (G1 *m x + G2 *m u)).
Proof.
have hadC (v w : 'cV[F]_k) : bf v (had r w) = bf w (had r v).
  by rewrite !bfE; apply: eq_bigr => i _; rewrite !mxE; mcfold F; ring.
rewrite !qfE !gram_had !bfM !trmxK hadD bfDr !bfDl [bf (G2 *m u) (had r (G1 *m x))]hadC.
by mcfold F; ring.
Qed.
Lemma gram_psd k p (r : 'cV[F]_k) (G : 'M[F]_(k, p)) : (forall i, 0 <= r i 0) -> possemidef (gram r G G).
Proof. by move=> h x; rewrite qfE gram_had bfM trmxK; exact: had_ge0. Qed.

Lemma aug_psd (preg dreg : F) first (nd : node) f : node_convex nd -> 0 <= sigma -> 0 <= preg -> 0 <= dreg ->
  (forall i, 0 <= (arho (adm nd) : 'cV[F]_(ng (nm nd))) i 0) ->
  stage_psd (aug_stage sigma preg dreg first nd f).
Proof.
move=> H s0 p0 d0 hr x u; have := H x u; rewrite /stage_quad !quadE /= !dotE => h.
have hg := gram_quad (arho (adm nd)) (eGx first nd) (Gu (der nd)) x u.
have h0 := had_ge0 (eGx first nd *m x + (Gu (der nd) : 'M[F]_(ng (nm nd), nu (nm nd))) *m u) hr.
rewrite -hg in h0.
rewrite mulmxDl bfDr !qfD !qf_scalar.
set a := qf (gram _ _ _) x in h0 *; set b := bf x (gram _ _ _ *m u) in h0 *; set d := qf (gram _ _ _) u in h0 *.
have -> : qf (Lxx (der nd)) x + sigma * bf x x + a + preg * bf x x + 2%:R * (bf x (Lxu (der nd) *m u) + b)
   + (qf (Luu (der nd)) u + sigma * bf u u + d + dreg * bf u u)
  = (qf (Lxx (der nd)) x + 2%:R * bf x (Lxu (der nd) *m u) + qf (Luu (der nd)) u) + (a + 2%:R * b + d)
    + (sigma * bf x x + preg * bf x x + (sigma * bf u u + dreg * bf u u)).
  by mcfold F; ring.
apply: addr_ge0; first exact: addr_ge0.
by apply: addr_ge0; apply: addr_ge0; apply: mulr_ge0 => //; exact: bf_ge0.
Qed.
(** the strictly convex part of Quu *)
Lemma aug_Quu_pos (preg dreg : F) first (nd : node) f (P' : 'M[F]_n) : node_convex nd -> possemidef P' ->
  (forall i, 0 <= (arho (adm nd) : 'cV[F]_(ng (nm nd))) i 0) -> 0 <= sigma -> 0 <= dreg -> 0 < sigma + dreg ->
  posdef (rQuu (aug_stage sigma preg dreg first nd f) P').
Proof.
move=> H pP hr s0 d0 sd; rewrite /rQuu /=.
apply: posdefD; last exact: psd_congr.
have pL : possemidef (Luu (der nd) : 'M[F]_(nu (nm nd))).
  by move=> u; have := H 0 u; rewrite !quadE dotE qf0r bf0l mulr0 !add0r.
have pG := gram_psd (Gu (der nd) : 'M[F]_(ng (nm nd), nu (nm nd))) hr.
move=> u u0; rewrite !qfD !qf_scalar.
have := pL u; have := pG u; have := bf_gt0 u0.
set a := qf _ u; set b := qf _ u; set d := bf u u => hd hb ha.
have -> : b + sigma * d + a + dreg * d = (b + a) + (sigma + dreg) * d by mcfold F; ring.
by apply: ltr_paddl; [exact: addr_ge0|exact: mulr_gt0].
Qed.

Lemma cb_nodes_convex (preg dreg : R E) (tn : tnode) :
  0 <= sigma -> 0 <= (preg : F) -> 0 <= (dreg : F) -> 0 < sigma + dreg ->
  aterm_ok c preg tn -> tnode_sym tn -> sym (tVxx tn : 'M[F]_n) -> possemidef (tVxx tn : 'M[F]_n) ->
  forall (l : seq node) first,
  (forall nd, List.In nd l -> [/\ node_sym nd, node_convex nd & forall i, 0 <= (arho (adm nd) : 'cV[F]_(ng (nm nd))) i 0]) ->
  let r := cb_nodes c preg dreg first l tn in
  fst r /\ sym (hd_Vxx (snd r) tn : 'M[F]_n) /\ possemidef (hd_Vxx (snd r) tn : 'M[F]_n) /\
  (forall nd, List.In nd (snd r) -> sym (Vxx (val nd) : 'M[F]_n) /\ possemidef (Vxx (val nd) : 'M[F]_n)).
Proof.
move=> s0 p0 d0 sd Ht st sT pT; elim=> [|nd l IH] first H /=; first by [].
have [h1 [h2 [h3 h4]]] := IH false (fun m h => H m (or_intror h)).
rewrite h1 cb_nodeE /=; set V := hd_Vxx _ tn in h2 h3 *.
set v := hd_Vx _ _; set f := hd_fs _ _.
have [sy cv hr] := H nd (or_introl erefl).
have ok : fin_ok (c_quu c dreg nd V).
  rewrite /fin_ok; case e: (Nat.eqb _ _) => //=; rewrite negbK.
  have m0 : nu (nm nd) <> 0%N by apply/Nat.eqb_neq.
  rewrite (@c_quuE F sq M c preg dreg first nd V f m0).
  apply/chol_okP.
    apply: symD; last exact: sym_congr.
    by apply: symD (sym_scalar _ _); apply: symD; [apply: symD; [by case: sy|exact: sym_scalar]|exact: gram_sym].
  by apply: aug_Quu_pos.
rewrite ok; split=> //.
have [st1 _] := @c_val_gst F sq M c preg dreg first nd V v f _ sy h2 ok erefl.
have sQ' : is_sym (sQ (aug_stage sigma preg dreg first nd f)).
  by apply: symD (sym_scalar _ _); apply: symD; [apply: symD; [by case: sy|exact: sym_scalar]|exact: gram_sym].
have sR' : is_sym (sR (aug_stage sigma preg dreg first nd f)).
  by apply: symD (sym_scalar _ _); apply: symD; [apply: symD; [by case: sy|exact: sym_scalar]|exact: gram_sym].
have hs := @gP_sym F n (aug_gst c preg dreg first (set_val nd (c_val c preg dreg first nd V v f)) f) _ _ h2 sQ' sR' st1.
have hp := @gP_psd F n (aug_gst c preg dreg first (set_val nd (c_val c preg dreg first nd V v f)) f) _ _ h2 sQ' sR' st1 (@aug_psd preg dreg first nd f cv s0 p0 d0 hr) h3.
by split=> //; split=> // m [<-|hm] //; apply: h4.
Qed.

Lemma cb_term_psd (preg : R E) (tn : tnode) : 0 <= sigma -> 0 <= (preg : F) -> tnode_sym tn ->
  (forall x : 'cV[F]_n, 0 <= quad (tLxx (tder tn) : 'M[F]_n) x) ->
  (forall i, 0 <= (tarho tn : 'cV[F]_(tng (tm tn))) i 0) ->
  sym (tVxx (cb_term c preg tn) : 'M[F]_n) /\ possemidef (tVxx (cb_term c preg tn) : 'M[F]_n).
Proof.
move=> s0 p0 st cv hr; have [-> _] := cb_term_ok c preg tn; rewrite /aug_final /=; split.
- by apply: symD (sym_scalar _ _); apply: symD; [apply: symD; [exact: st|exact: sym_scalar]|exact: gram_sym].
- apply: psdD; last exact: psd_scalar.
  by apply: psdD; [apply: psdD; [exact: cv|exact: psd_scalar]|exact: gram_psd].
Qed.

(** the full pass succeeds *)
Lemma cb_convex (preg dreg : R E) (t : traj M) :
  traj_sym t -> traj_convex t -> rho_nonneg t ->
  0 <= sigma -> 0 <= (preg : F) -> 0 <= (dreg : F) -> 0 < sigma + dreg ->
  fst (cb_backward c preg dreg t) /\
  forall V : mat E n n, V = tVxx (trm (snd (cb_backward c preg dreg t))) \/
      (exists2 nd, List.In nd (run (snd (cb_backward c preg dreg t))) & V = Vxx (val nd)) ->
    sym (V : 'M[F]_n) /\ possemidef (V : 'M[F]_n).
Proof.
move=> [sy syT] [cv cvT] [hr hrT] s0 p0 d0 sd; rewrite /cb_backward /=.
have [sT pT] := cb_term_psd s0 p0 syT cvT hrT.
have [h1 [_ [_ h4]]] := @cb_nodes_convex preg dreg (cb_term c preg (trm t)) s0 p0 d0 sd (cb_term_ok c preg (trm t)) syT sT pT (run t) true
  (fun nd h => And3 (sy nd h) (cv nd h) (hr nd h)).
split=> // V [->|[nd hnd ->]] //; exact: h4.
Qed.
(** value-function Hessians of a successful full pass are symmetric *)
Lemma cb_sym (preg dreg : R E) (t : traj M) : fst (cb_backward c preg dreg t) -> traj_sym t ->
  forall V : mat E n n, V = tVxx (trm (snd (cb_backward c preg dreg t))) \/
      (exists2 nd, List.In nd (run (snd (cb_backward c preg dreg t))) & V = Vxx (val nd)) ->
    sym (V : 'M[F]_n).
Proof.
rewrite /cb_backward /= => hok [sy syT] V hV.
set tn := cb_term c preg (trm t) in hok hV.
have Ht : aterm_ok c preg tn by exact: cb_term_ok.
have syT' : tnode_sym tn by exact: syT.
have el : cb_nodes c preg dreg true (run t) tn = (true, snd (cb_nodes c preg dreg true (run t) tn)).
  by move: hok; case: (cb_nodes _ _ _ _ _ _) => [[] r].
have [ok pd gsy _] := cb_nodes_ok Ht syT' el sy.
case: hV => [hV|[nd hnd ->]].
  have {hV} -> : V = tVxx tn by rewrite hV.
  have [-> _] := Ht; rewrite /aug_final /=.
  by apply: symD (sym_scalar _ _); apply: symD; [apply: symD; [exact: syT|exact: sym_scalar]|exact: gram_sym].
move: (snd (cb_nodes _ _ _ _ _ _)) hnd ok gsy {el pd} => l; move: {hok} true => first.
elim: l first => //= a l IH first [->|hm] [st ok] [sx su gsy].
- by apply: (gP_sym _ _ _ st) => //; apply: nP_sym.
- exact: (IH false hm ok gsy).
Qed.
End Conv.
