(** * Exact arithmetic: the equality-constrained initial guess of SolverCSQP's QP
    (backwardPass_without_constraints / forwardPass_without_constraints). *)
From Coq Require Import Ring Field ZArith PeanoNat.
Set Warnings "-notation-overridden,-ambiguous-paths".
From mathcomp Require Import all_ssreflect all_algebra.
From Verif Require Import FieldTac Eigen EigenExact ExactLemmas Problem DDP SQP CSQP LQSpec SubQP Riccati PassExact
  P_Direction QPSpec FastPass.

Set Implicit Arguments.
Unset Strict Implicit.
Unset Printing Implicit Defensive.

Import Order.TTheory GRing.Theory Num.Theory.
Local Open Scope ring_scope.

Section Guess.
Variable F : realFieldType.
Variable sq : F -> F.
Notation E := (ExactE sq).
Variable M : manifold E.
Notation n := (mndx M).
Notation node := (node M).
Notation tnode := (tnode M).
Add Field Ff9 : (F_field_theory F).

(** specification: the subproblem without constraint rows, at the exposed
    direction dx_, du_, with costates V_x + V_xx dx (they are not stored) *)
Definition guess_stage (preg dreg : F) (nd : node) (f : 'cV[F]_n) : stage F n :=
  @mkStage F n (nu (nm nd))
    (Fx (der nd)) (Fu (der nd)) (Lx (der nd)) (Lu (der nd))
    ((Lxx (der nd) : 'M[F]_n) + preg%:M) (Lxu (der nd)) ((Luu (der nd) : 'M[F]_(nu (nm nd))) + dreg%:M)
    f (dx (dir nd)) (du (dir nd))
    ((Vx (val nd) : 'cV[F]_n) + (Vxx (val nd) : 'M[F]_n) *m (dx (dir nd) : 'cV[F]_n)).
Definition guess_final (preg : F) (tn : tnode) : final F n :=
  mkFinal ((tLxx (tder tn) : 'M[F]_n) + preg%:M) (tLx (tder tn)) (tdx tn)
    ((tVx tn : 'cV[F]_n) + (tVxx tn : 'M[F]_n) *m (tdx tn : 'cV[F]_n)).
Fixpoint guess_stages (preg dreg : F) (l : seq node) (tn : tnode) : seq (stage F n) :=
  match l with
  | [::] => [::]
  | nd :: l' => guess_stage preg dreg nd (hd_fs l' tn) :: guess_stages preg dreg l' tn
  end.

Definition g_gst (preg dreg : F) (nd : node) (f : 'cV[F]_n) : gst F n :=
  @mkGst F n (guess_stage preg dreg nd f) (gK (val nd)) (gk (val nd)) (Vxx (val nd)) (Vx (val nd)).
Fixpoint g_gsts (preg dreg : F) (l : seq node) (tn : tnode) : seq (gst F n) :=
  match l with
  | [::] => [::]
  | nd :: l' => g_gst preg dreg nd (hd_fs l' tn) :: g_gsts preg dreg l' tn
  end.
Lemma map_g_gsts preg dreg l tn : [seq gs g | g <- g_gsts preg dreg l tn] = guess_stages preg dreg l tn.
Proof. by elim: l => //= nd l ->. Qed.
Definition gterm_ok (preg : F) (tn : tnode) : Prop :=
  (tVxx tn : 'M[F]_n) = tQ (guess_final preg tn) /\ (tVx tn : 'cV[F]_n) = tq (guess_final preg tn).
Lemma cw_term_ok (preg : R E) (tn : tnode) : gterm_ok preg (cw_term preg tn).
Proof. by []. Qed.
Lemma ghd_nP preg dreg l tn : gterm_ok preg tn -> nP (g_gsts preg dreg l tn) (guess_final preg tn) = hd_Vxx l tn.
Proof. by case: l => [|nd l] //= [-> _]. Qed.
Lemma ghd_np preg dreg l tn : gterm_ok preg tn -> np (g_gsts preg dreg l tn) (guess_final preg tn) = hd_Vx l tn.
Proof. by case: l => [|nd l] //= [_ ->]. Qed.

Section Store.
Variables (preg dreg : R E) (nd : node) (V : mat E n n) (v f : vec E n).
Let m := nu (nm nd).
Let d := der nd.
Let g := guess_stage preg dreg nd f.
Let P' : 'M[F]_n := V.
Let hasu := negb (Nat.eqb m 0).
Definition w_qx : vec E n := vadd E (Lx d) (mmulv E (mtr E (Fx d)) (vadd E (mmulv E V f) v)).
Definition w_qxx : mat E n n := madd E (Lxx d) (mmul E (mmul E (mtr E (Fx d)) V) (Fx d)).
Definition w_qu : vec E m := if hasu then vadd E (Lu d) (mmulv E (mtr E (Fu d)) (vadd E (mmulv E V f) v)) else Qu (val nd).
Definition w_quu : mat E m m :=
  if hasu then add_reg E (madd E (Luu d) (mmul E (mmul E (mtr E (Fu d)) V) (Fu d))) dreg else Quu (val nd).
Definition w_qxu : mat E n m := if hasu then madd E (Lxu d) (mmul E (mmul E (mtr E (Fx d)) V) (Fu d)) else Qxu (val nd).
Definition w_val : vals M m := fin_val (symmetrize E) preg w_qx w_qxx w_qu w_quu w_qxu (Vxxfs (val nd)).
Lemma cw_nodeE : cw_node preg dreg nd V v f = (fin_ok w_quu, set_val nd w_val).
Proof. exact: cb_finishE. Qed.
Lemma w_quuE : m <> 0%N -> w_quu = rQuu g P' :> 'M[F]_m.
Proof.
move=> /Nat.eqb_neq m0; rewrite /w_quu /hasu m0 /rQuu /g /= /add_reg /= /P'.
by rewrite -addrA [X in _ + X]addrC addrA.
Qed.
Lemma w_qxuE : m <> 0%N -> w_qxu = rQxu g P' :> 'M[F]_(n, m).
Proof. by move=> /Nat.eqb_neq m0; rewrite /w_qxu /hasu m0. Qed.
Lemma w_quE : m <> 0%N -> w_qu = rqu g P' v :> 'cV[F]_m.
Proof. by move=> /Nat.eqb_neq m0; rewrite /w_qu /hasu m0. Qed.
Lemma w_val_gst : node_sym nd -> sym P' -> fin_ok w_quu ->
  ric_step (g_gst preg dreg (set_val nd w_val) f) P' v /\ posdef (rQuu g P').
Proof.
move=> [sx su] sP ok.
apply: (@ric_step_intro F n (g_gst preg dreg (set_val nd _) f) P' v preg (Lxx d)) => //.
- by apply: symD (sym_scalar _ _).
- move=> m0; cbn [g_gst gs hK hk].
  rewrite -[rQuu _ _](w_quuE m0) -[rQxu _ _](w_qxuE m0) -[rqu _ _ _](w_quE m0).
  move: ok; rewrite /w_val /fin_val /fin_ok; move/Nat.eqb_neq: (m0) => ->; cbn [negb andb].
  by case e: (llt_ok E _) => // _; split=> //; exact: e.
- cbn [g_gst gs hK hP].
  have [m0|/eqP m0] := eqVneq m 0%N.
    rewrite [rQxu _ _ *m _](inner0 m0) subr0.
    rewrite /w_val /fin_val; move/Nat.eqb_eq: (m0) => ->.
    by rewrite /= /add_reg /= xlit12.
  have ok' : chol_ok w_quu by move: ok; rewrite /fin_ok; move/Nat.eqb_neq: (m0) => ->; rewrite /= negbK.
  rewrite -[rQxu _ _](w_qxuE m0).
  rewrite /w_val /fin_val; move/Nat.eqb_neq: (m0) => ->; cbn [negb andb].
  by rewrite /= ok' /= /add_reg /= xlit12.
- cbn [g_gst gs hK hp].
  have [m0|/eqP m0] := eqVneq m 0%N.
    by rewrite (inner0 m0) subr0 /w_val /fin_val; move/Nat.eqb_eq: (m0) => ->.
  have ok' : chol_ok w_quu by move: ok; rewrite /fin_ok; move/Nat.eqb_neq: (m0) => ->; rewrite /= negbK.
  rewrite -[rqu _ _ _](w_quE m0).
  rewrite /w_val /fin_val; move/Nat.eqb_neq: (m0) => ->; cbn [negb andb].
  by rewrite /= ok'.
Qed.
End Store.

Lemma cw_nodes_ok (preg dreg : R E) (tn : tnode) : gterm_ok preg tn -> tnode_sym tn ->
  forall (l l' : seq node), cw_nodes preg dreg l tn = (true, l') ->
  (forall nd, List.In nd l -> node_sym nd) ->
  [/\ ric_ok (g_gsts preg dreg l' tn) (guess_final preg tn),
      ric_pd (g_gsts preg dreg l' tn) (guess_final preg tn),
      gsym (g_gsts preg dreg l' tn) (guess_final preg tn)
    & hd_fs l' tn = hd_fs l tn].
Proof.
move=> Ht st; elim=> [|nd l IH] l' /=.
  by move=> [<-] _; split=> //; apply: symD (sym_scalar _ _).
have := IH _; case: (cw_nodes preg dreg l tn) => [b r] {}IH; case: b IH => //= IH.
rewrite cw_nodeE /= => -[e <-] Hs.
have [ok pd sy hf] := IH r erefl (fun nd h => Hs nd (or_intror h)).
have sP : sym (hd_Vxx r tn : 'M[F]_n) by rewrite -(ghd_nP dreg r Ht); apply: nP_sym.
have [st1 pd1] := @w_val_gst preg dreg nd (hd_Vxx r tn) (hd_Vx r tn) (hd_fs r tn) (Hs nd (or_introl erefl)) sP e.
have [sx su] := Hs nd (or_introl erefl).
split=> //=.
- by rewrite ghd_nP // ghd_np.
- by rewrite ghd_nP.
- by split=> //; apply: symD (sym_scalar _ _).
Qed.

Lemma cwfwd_hd (d : vec E n) (l : seq node) (tn : tnode) :
  let r := cwfwd_nodes d l tn in
  [/\ hd_Vxx (fst r) (snd r) = hd_Vxx l tn, hd_Vx (fst r) (snd r) = hd_Vx l tn,
      hd_fs (fst r) (snd r) = hd_fs l tn & exists dT : vec E n, snd r = set_tdx tn dT].
Proof.
split; try by case: l.
by elim: l d => [|nd l IH] d /=; [exists d|].
Qed.
Lemma cwfwd_nodes_ok (preg dreg : R E) (tn : tnode) : gterm_ok preg tn ->
  forall (l : seq node) (d : vec E n),
  ric_ok (g_gsts preg dreg l tn) (guess_final preg tn) ->
  ric_pd (g_gsts preg dreg l tn) (guess_final preg tn) ->
  gsym (g_gsts preg dreg l tn) (guess_final preg tn) ->
  let r := cwfwd_nodes d l tn in
  let l' := fst r in let tn' := snd r in
  [/\ ric_ok (g_gsts preg dreg l' tn') (guess_final preg tn'),
      ric_pd (g_gsts preg dreg l' tn') (guess_final preg tn'),
      gsym (g_gsts preg dreg l' tn') (guess_final preg tn')
    & ric_sol d (g_gsts preg dreg l' tn') (guess_final preg tn')].
Proof.
move=> Ht; elim=> [|nd l IH] d.
  move=> _ _ sy; split=> //; split=> //; case: Ht => e1 e2.
  by rewrite /= e2 e1 addrC.
move=> [st ok] [pd pds] [sx su sy]; cbn [cwfwd_nodes].
set d' := cfwd_x _ _ _ _.
have [ok' pd' sy' so'] := IH d' ok pds sy.
have [hV hv hf [dT eT]] := cwfwd_hd d' l tn.
set r := cwfwd_nodes _ _ _ in ok' pd' sy' so' hV hv hf eT *.
have Ht' : gterm_ok preg (snd r) by rewrite eT.
have EP : nP (g_gsts preg dreg (fst r) (snd r)) (guess_final preg (snd r))
        = nP (g_gsts preg dreg l tn) (guess_final preg tn) by rewrite !ghd_nP.
have Ep : np (g_gsts preg dreg (fst r) (snd r)) (guess_final preg (snd r))
        = np (g_gsts preg dreg l tn) (guess_final preg tn) by rewrite !ghd_np.
split=> //=.
- by rewrite EP Ep hf.
- by rewrite EP hf.
- split=> //.
  + by rewrite /= /cfwd_u /= addrC.
  + by rewrite /= addrC.
  + rewrite hf; move: so'; congr (ric_sol _ _ _).
    by rewrite /d' /cfwd_x /=; vabel F.
Qed.

Lemma cw_hd_dx (preg dreg : R E) (t : traj M) :
  hd_dx (run (snd (cw_backward preg dreg t))) (trm (snd (cw_backward preg dreg t))) = hd_dx (run t) (trm t).
Proof.
rewrite /cw_backward /=; case: (run t) => [|nd l] //=.
by case: (fst _) => //=; rewrite cw_nodeE.
Qed.

(** the guess solves the unconstrained LQ problem, uniquely *)
Lemma cw_direction (preg dreg : R E) (t : traj M) :
  fst (cw_backward preg dreg t) -> traj_sym t ->
  let t' := cwforward (snd (cw_backward preg dreg t)) in
  let gs := g_gsts preg dreg (run t') (trm t') in
  let e := guess_final preg (trm t') in
  [/\ ric_ok gs e, ric_pd gs e, gsym gs e & ric_sol (hd_dx (run t) (trm t)) gs e].
Proof.
move=> hok hs t'. set tb := snd (cw_backward preg dreg t).
set tn := cw_term preg (trm t).
have el : cw_nodes preg dreg (run t) tn = (true, run tb).
  by rewrite {}/tb; move: hok; rewrite /cw_backward /=; case: (cw_nodes _ _ _ _) => [b r] /= ->.
have Ht : gterm_ok preg tn by exact: cw_term_ok.
have st : tnode_sym tn by case: hs.
have [ok pd sy _] := cw_nodes_ok Ht st el hs.1.
have := @cwfwd_nodes_ok preg dreg tn Ht (run tb) (hd_dx (run t) (trm t)) ok pd sy.
rewrite {}/t' /cwforward -/tb (cw_hd_dx preg dreg t).
by have -> : trm tb = tn by [].
Qed.

(** on convex subproblems the pass succeeds *)
Lemma cw_nodes_convex (preg dreg : R E) (tn : tnode) :
  0 <= (preg : F) -> 0 <= (dreg : F) ->
  sym (tVxx tn : 'M[F]_n) -> possemidef (tVxx tn : 'M[F]_n) ->
  forall (l : seq node),
  (forall nd, List.In nd l -> [/\ node_sym nd, node_convex nd &
     0 < (dreg : F) \/ (forall u : 'cV[F]_(nu (nm nd)), u != 0 -> 0 < quad (Luu (der nd) : 'M[F]_(nu (nm nd))) u)]) ->
  let r := cw_nodes preg dreg l tn in
  fst r /\ sym (hd_Vxx (snd r) tn : 'M[F]_n) /\ possemidef (hd_Vxx (snd r) tn : 'M[F]_n) /\
  (forall nd, List.In nd (snd r) -> sym (Vxx (val nd) : 'M[F]_n) /\ possemidef (Vxx (val nd) : 'M[F]_n)).
Proof.
move=> p0 d0 sT pT; elim=> [|nd l IH] H /=; first by [].
have [h1 [h2 [h3 h4]]] := IH (fun m h => H m (or_intror h)).
rewrite h1 cw_nodeE /=; set V := hd_Vxx _ tn in h2 h3 *.
set v := hd_Vx _ _; set f := hd_fs _ _.
have [sy cv hr] := H nd (or_introl erefl).
have sQ' : is_sym (sQ (guess_stage preg dreg nd f)) by apply: symD (sym_scalar _ _); case: sy.
have sR' : is_sym (sR (guess_stage preg dreg nd f)) by apply: symD (sym_scalar _ _); case: sy.
have ok : fin_ok (w_quu dreg nd V).
  rewrite /fin_ok; case e: (Nat.eqb _ _) => //=; rewrite negbK.
  have m0 : nu (nm nd) <> 0%N by apply/Nat.eqb_neq.
  rewrite (@w_quuE preg dreg nd V f m0).
  apply/chol_okP; first by apply: symD sR' _; exact: sym_congr.
  apply: (@Quu_pos F sq M preg dreg nd f _ cv h3).
  by case: hr => h; [left|right].
rewrite ok; split=> //.
have [st1 _] := @w_val_gst preg dreg nd V v f sy h2 ok.
have hs := @gP_sym F n (g_gst preg dreg (set_val nd (w_val preg dreg nd V v f)) f) _ _ h2 sQ' sR' st1.
have hp := @gP_psd F n (g_gst preg dreg (set_val nd (w_val preg dreg nd V v f)) f) _ _ h2 sQ' sR' st1
  (@stage_psd_node F sq M preg dreg nd f cv p0 d0) h3.
by split=> //; split=> // m [<-|hm] //; apply: h4.
Qed.
Lemma cw_convex (preg dreg : R E) (t : traj M) :
  traj_sym t -> traj_convex t -> 0 <= (preg : F) -> reg_positive dreg t ->
  fst (cw_backward preg dreg t).
Proof.
move=> [sy syT] [cv cvT] p0 hr; rewrite /cw_backward /=.
have d0 : 0 <= (dreg : F) by case: hr => [/ltW|[]].
have sT : sym (tVxx (cw_term preg (trm t)) : 'M[F]_n) by apply: symD (sym_scalar _ _).
have pT : possemidef (tVxx (cw_term preg (trm t)) : 'M[F]_n) by apply: psdD; [exact: cvT|exact: psd_scalar].
have [] := @cw_nodes_convex preg dreg _ p0 d0 sT pT (run t) => //.
by move=> nd h; split; [exact: sy|exact: cv|case: hr => [h0|[_ h0]]; [left|right; exact: h0]].
Qed.
End Guess.
