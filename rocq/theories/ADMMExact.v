(** * Exact arithmetic: the passes of SolverCSQP implement the Riccati recursion
    of the augmented subproblem; multithreaded passes equal sequential ones. *)
From Coq Require Import Ring Field ZArith PeanoNat.
Set Warnings "-notation-overridden,-ambiguous-paths".
From mathcomp Require Import all_ssreflect all_algebra.
From Verif Require Import FieldTac Eigen EigenExact ExactLemmas Problem DDP SQP CSQP LQSpec SubQP Riccati PassExact QPSpec FastPass.

Set Implicit Arguments.
Unset Strict Implicit.
Unset Printing Implicit Defensive.

Import Order.TTheory GRing.Theory Num.Theory.
Local Open Scope ring_scope.

Section ADMM.
Variable F : realFieldType.
Variable sq : F -> F.
Notation E := (ExactE sq).
Variable M : manifold E.
Notation n := (mndx M).
Notation node := (node M).
Notation tnode := (tnode M).
Variable c : ccfg E.
Add Field Ff6 : (F_field_theory F).
Let sigma : F := cc_sigma c.

Lemma vec0_exact : vec0_unique E.
Proof. by move=> k v w k0; apply: rows0. Qed.

(** ** multithreaded full pass = sequential full pass *)
Lemma xupper_sym k (A : 'M[F]_k) : A^T = A -> xupper A = A.
Proof. by move=> h; apply/matrixP => i j; rewrite mxE; case: ifP => // _; rewrite -[in RHS]h mxE. Qed.
Lemma symmetrizeE k (A : mat E k k) : symmetrize E A = 2%:R^-1 *: ((A : 'M[F]_k) + (A : 'M[F]_k)^T) :> 'M[F]_k.
Proof. by rewrite /symmetrize /= xlit12. Qed.
Lemma mupper_symm k (A : mat E k k) : mupper E (symmetrize E A) = symmetrize E A.
Proof.
apply: (@xupper_sym k (symmetrize E A : 'M[F]_k)).
by rewrite symmetrizeE linearZ /= linearD /= trmxK addrC.
Qed.

Lemma cm_node_cb (preg dreg : R E) first (nd : node) (V : mat E n n) (v f : vec E n) :
  cm_node preg (cm_init c dreg first nd) V v f = cb_node c preg dreg first nd V v f.
Proof.
have ext symm1 symm2 qx qxx qu quu quu' qxu vfs : quu = quu' -> symm1 =1 symm2 ->
  cb_finish symm1 preg nd qx qxx qu quu qxu vfs = cb_finish symm2 preg nd qx qxx qu quu' qxu vfs.
  by move=> -> h; rewrite /cb_finish !h.
rewrite [RHS](ext _ (fun A => mupper E (symmetrize E A)) _ _ _ _ (
   if negb (Nat.eqb (nu (nm nd)) 0) then
     madd E (add_reg E (if negb (Nat.eqb (ng (nm nd)) 0) then madd E (madddiag E (Luu (der nd)) (cc_sigma c))
                        (@rho_gram E _ _ _ (arho (adm nd)) (Gu (der nd)) (Gu (der nd)))
                        else madddiag E (Luu (der nd)) (cc_sigma c)) dreg)
       (mmul E (mmul E (mtr E (Fu (der nd))) V) (Fu (der nd))) else Quu (val nd))).
- rewrite /cm_node /cm_init /cb_finish /=.
  by case: (Nat.eqb (nu _) 0); case: (Nat.eqb (ng _) 0); case: (first).
- case: (Nat.eqb (nu _) 0) => //=; case: (Nat.eqb (ng _) 0) => //=; rewrite /add_reg /=; vabel F.
- by move=> A; rewrite mupper_symm.
Qed.
Lemma hd_map_first l0 first (l : seq node) (dreg : R E) :
  l0 = (if first : bool then map_first (cm_init c dreg) l else List.map (cm_init c dreg false) l) ->
  forall tn : tnode, [/\ hd_fs l0 tn = hd_fs l tn & True].
Proof. by move=> -> tn; case: l; case: first. Qed.
Lemma cm_nodes_cb (preg dreg : R E) (tn : tnode) : forall (l : seq node) l0 first,
  l0 = (if first : bool then map_first (cm_init c dreg) l else List.map (cm_init c dreg false) l) ->
  fst (cm_nodes preg l0 tn) = fst (cb_nodes c preg dreg first l tn) /\
  (fst (cb_nodes c preg dreg first l tn) -> snd (cm_nodes preg l0 tn) = snd (cb_nodes c preg dreg first l tn)).
Proof.
elim=> [|nd l IH] l0 first -> /=; first by case: first.
have -> : (if first then cm_init c dreg true nd :: List.map (cm_init c dreg false) l
  else cm_init c dreg false nd :: List.map (cm_init c dreg false) l)
  = cm_init c dreg first nd :: List.map (cm_init c dreg false) l by case: first.
have [h1 h2] := IH _ false erefl.
cbn [cm_nodes]; rewrite h1; case: (fst (cb_nodes c preg dreg false l tn)) h2 => // h2.
rewrite (h2 isT) cm_node_cb; by case: (cb_node _ _ _ _ _ _ _ _).
Qed.
Lemma cm_cb (preg dreg : R E) (t : traj M) :
  fst (cm_backward c preg dreg t) = fst (cb_backward c preg dreg t) /\
  (fst (cb_backward c preg dreg t) -> cm_backward c preg dreg t = cb_backward c preg dreg t).
Proof.
rewrite /cm_backward /cb_backward /=.
have [h1 h2] := @cm_nodes_cb preg dreg (cb_term c preg (trm t)) (run t) _ true erefl.
by split=> // h; rewrite h1 (h2 h).
Qed.

(** ** the augmented subproblem *)
Definition aug_gst (preg dreg : F) (first : bool) (nd : node) (f : 'cV[F]_n) : gst F n :=
  @mkGst F n (aug_stage sigma preg dreg first nd f) (gK (val nd)) (gk (val nd)) (Vxx (val nd)) (Vx (val nd)).
Fixpoint aug_gsts (preg dreg : F) (first : bool) (l : seq node) (tn : tnode) : seq (gst F n) :=
  match l with
  | [::] => [::]
  | nd :: l' => aug_gst preg dreg first nd (hd_fs l' tn) :: aug_gsts preg dreg false l' tn
  end.
Lemma map_aug_gsts preg dreg l tn : forall first,
  [seq gs g | g <- aug_gsts preg dreg first l tn] = aug_stages sigma preg dreg first l tn.
Proof. by elim: l => //= nd l IH first; rewrite IH. Qed.

Definition aterm_ok (preg : F) (tn : tnode) : Prop :=
  (tVxx tn : 'M[F]_n) = tQ (aug_final sigma preg tn) /\ (tVx tn : 'cV[F]_n) = tq (aug_final sigma preg tn).
Lemma gram0 k (k0 : k = 0%N) p q (r : 'cV[F]_k) (G1 : 'M[F]_(k, p)) (G2 : 'M[F]_(k, q)) : gram r G1 G2 = 0.
Proof. by rewrite /gram (inner0 k0). Qed.
Lemma gram_0l k p q (r : 'cV[F]_k) (G2 : 'M[F]_(k, q)) : gram r (0 : 'M[F]_(k, p)) G2 = 0.
Proof. by rewrite /gram trmx0 mul0mx. Qed.
Lemma gram_sym k p (r : 'cV[F]_k) (G : 'M[F]_(k, p)) : is_sym (gram r G G).
Proof. by rewrite /is_sym /gram !trmx_mul trmxK tr_diag_mx mulmxA. Qed.
Lemma cb_term_ok (preg : R E) (tn : tnode) : aterm_ok preg (cb_term c preg tn).
Proof.
rewrite /aterm_ok /cb_term /cb_tVx /aug_final /=.
case e: (Nat.eqb _ _) => //=.
have k0 : tng (tm tn) = 0%N by apply/Nat.eqb_eq.
by rewrite /add_reg /= (gram0 k0) addr0 (inner0 k0) addr0.
Qed.
Lemma ahd_nP preg dreg first l tn : aterm_ok preg tn ->
  nP (aug_gsts preg dreg first l tn) (aug_final sigma preg tn) = hd_Vxx l tn.
Proof. by case: l => [|nd l] //= [-> _]. Qed.
Lemma ahd_np preg dreg first l tn : aterm_ok preg tn ->
  np (aug_gsts preg dreg first l tn) (aug_final sigma preg tn) = hd_Vx l tn.
Proof. by case: l => [|nd l] //= [_ ->]. Qed.

(** what the full pass stores, in the notation of PassExact *)
Section Store.
Variables (preg dreg : R E) (first : bool) (nd : node) (V : mat E n n) (v f : vec E n).
Let m := nu (nm nd).
Let d := der nd.
Let r : 'cV[F]_(ng (nm nd)) := arho (adm nd).
Let g := aug_stage sigma preg dreg first nd f.
Let P' : 'M[F]_n := V.
Let A : 'M[F]_n := Fx d.
Let B : 'M[F]_(n, m) := Fu d.
Let Q0 : 'M[F]_n := (Lxx d : 'M[F]_n) + sigma%:M + gram r (eGx first nd) (eGx first nd).
Let Gu' : 'M[F]_(ng (nm nd), m) := Gu d.
Lemma c_qxxE : c_qxx c first nd V = Q0 + A^T *m P' *m A :> 'M[F]_n.
Proof.
rewrite /c_qxx /Q0 /eGx; case: (first) => /=; first by rewrite gram_0l addr0.
case e: (Nat.eqb _ _) => //=.
have k0 : ng (nm nd) = 0%N by apply/Nat.eqb_eq.
by rewrite (gram0 k0) addr0.
Qed.
Lemma c_quuE : m <> 0%N -> c_quu c dreg nd V = rQuu g P' :> 'M[F]_m.
Proof.
move=> /Nat.eqb_neq m0; rewrite /c_quu m0 /rQuu /g /= /add_reg /= /P' /sigma.
case e: (Nat.eqb _ _) => /=; last by rewrite /rho_gram /gram /=; vabel F.
have k0 : ng (nm nd) = 0%N by apply/Nat.eqb_eq.
by rewrite (gram0 k0) addr0; vabel F.
Qed.
Lemma c_qxuE : m <> 0%N -> c_qxu first nd V = rQxu g P' :> 'M[F]_(n, m).
Proof.
move=> /Nat.eqb_neq m0; rewrite /c_qxu m0 /rQxu /g /= /eGx.
case: (first) => /=; first by rewrite gram_0l addr0.
case e: (Nat.eqb _ _) => //=.
have k0 : ng (nm nd) = 0%N by apply/Nat.eqb_eq.
by rewrite (gram0 k0) addr0.
Qed.
Lemma c_quE : m <> 0%N -> c_qu c nd V v f = rqu g P' v :> 'cV[F]_m.
Proof.
move=> /Nat.eqb_neq m0; rewrite /c_qu m0 /rqu /g /= /rqw /=.
case e: (Nat.eqb _ _) => //=.
have k0 : ng (nm nd) = 0%N by apply/Nat.eqb_eq.
by rewrite (inner0 k0) addr0.
Qed.
Lemma c_qxE : c_qx c first nd V v f = rqx g P' v :> 'cV[F]_n.
Proof.
rewrite /c_qx /rqx /g /= /rqw /= /eGx.
case: (first) => /=; first by rewrite andbF trmx0 mul0mx addr0.
case e: (Nat.eqb _ _) => //=.
have k0 : ng (nm nd) = 0%N by apply/Nat.eqb_eq.
by rewrite (inner0 k0) addr0.
Qed.
Lemma c_val_gst (w : vals M m) : node_sym nd -> sym P' ->
  fin_ok (c_quu c dreg nd V) -> w = c_val c preg dreg first nd V v f ->
  ric_step (aug_gst preg dreg first (set_val nd w) f) P' v /\ posdef (rQuu g P').
Proof.
move=> [sx su] sP ok ->.
apply: (@ric_step_intro F n (aug_gst preg dreg first (set_val nd _) f) P' v preg Q0) => //.
- by apply: symD; [apply: symD; [exact: sx|exact: sym_scalar]|exact: gram_sym].
- by apply: symD (sym_scalar _ _); apply: symD; [apply: symD; [exact: su|exact: sym_scalar]|exact: gram_sym].
- move=> m0; cbn [aug_gst gs hK hk].
  rewrite -[rQuu _ _](c_quuE m0) -[rQxu _ _](c_qxuE m0) -[rqu _ _ _](c_quE m0).
  move: ok; rewrite /c_val /fin_val /fin_ok; move/Nat.eqb_neq: (m0) => ->; cbn [negb andb].
  by case e: (llt_ok E _) => // _; split=> //; exact: e.
- cbn [aug_gst gs hK hP].
  rewrite -[_ + _ *m _ *m _]c_qxxE.
  have [m0|/eqP m0] := eqVneq m 0%N.
    rewrite [rQxu _ _ *m _](inner0 m0) subr0.
    rewrite /c_val /fin_val; move/Nat.eqb_eq: (m0) => ->.
    by rewrite /= /add_reg /= xlit12.
  have ok' : chol_ok (c_quu c dreg nd V) by move: ok; rewrite /fin_ok; move/Nat.eqb_neq: (m0) => ->; rewrite /= negbK.
  rewrite -[rQxu _ _](c_qxuE m0).
  rewrite /c_val /fin_val; move/Nat.eqb_neq: (m0) => ->; cbn [negb andb].
  by rewrite /= ok' /= /add_reg /= xlit12.
- cbn [aug_gst gs hK hp].
  rewrite -[rqx _ _ _]c_qxE.
  have [m0|/eqP m0] := eqVneq m 0%N.
    by rewrite (inner0 m0) subr0 /c_val /fin_val; move/Nat.eqb_eq: (m0) => ->.
  have ok' : chol_ok (c_quu c dreg nd V) by move: ok; rewrite /fin_ok; move/Nat.eqb_neq: (m0) => ->; rewrite /= negbK.
  rewrite -[rqu _ _ _](c_quE m0).
  rewrite /c_val /fin_val; move/Nat.eqb_neq: (m0) => ->; cbn [negb andb].
  by rewrite /= ok'.
Qed.
End Store.

Lemma cb_nodes_ok (preg dreg : R E) (tn : tnode) : aterm_ok preg tn -> tnode_sym tn ->
  forall (l l' : seq node) first, cb_nodes c preg dreg first l tn = (true, l') ->
  (forall nd, List.In nd l -> node_sym nd) ->
  [/\ ric_ok (aug_gsts preg dreg first l' tn) (aug_final sigma preg tn),
      ric_pd (aug_gsts preg dreg first l' tn) (aug_final sigma preg tn),
      gsym (aug_gsts preg dreg first l' tn) (aug_final sigma preg tn)
    & hd_fs l' tn = hd_fs l tn].
Proof.
move=> Ht st; elim=> [|nd l IH] l' first /=.
  move=> [<-] _; split=> //; apply: symD (sym_scalar _ _).
  by apply: symD; [apply: symD; [exact: st|exact: sym_scalar]|exact: gram_sym].
have := IH _ false; case: (cb_nodes c preg dreg false l tn) => [b r] {}IH; case: b IH => //= IH.
rewrite cb_nodeE /= => -[e <-] Hs.
have [ok pd sy hf] := IH r erefl (fun nd h => Hs nd (or_intror h)).
have sP : sym (hd_Vxx r tn : 'M[F]_n) by rewrite -(ahd_nP dreg false r Ht); apply: nP_sym.
have [st1 pd1] := @c_val_gst preg dreg first nd (hd_Vxx r tn) (hd_Vx r tn) (hd_fs r tn) _ (Hs nd (or_introl erefl)) sP e erefl.
have [sx su] := Hs nd (or_introl erefl).
split=> //=.
- by rewrite ahd_nP // ahd_np.
- by rewrite ahd_nP.
- split=> //.
  + by apply: symD (sym_scalar _ _); apply: symD; [apply: symD; [exact: sx|exact: sym_scalar]|exact: gram_sym].
  + by apply: symD (sym_scalar _ _); apply: symD; [apply: symD; [exact: su|exact: sym_scalar]|exact: gram_sym].
Qed.

(** ** forward pass *)
Lemma cfwd_hd (d : vec E n) (l : seq node) (tn : tnode) :
  let r := cfwd_nodes d l tn in
  [/\ hd_Vxx (fst r) (snd r) = hd_Vxx l tn, hd_Vx (fst r) (snd r) = hd_Vx l tn,
      hd_fs (fst r) (snd r) = hd_fs l tn & exists dT : vec E n, snd r = set_tdxt tn dT].
Proof.
split; try by case: l.
by elim: l d => [|nd l IH] d /=; [exists d|].
Qed.
Lemma cfwd_nodes_ok (preg dreg : R E) (tn : tnode) : aterm_ok preg tn ->
  forall (l : seq node) first (d : vec E n),
  ric_ok (aug_gsts preg dreg first l tn) (aug_final sigma preg tn) ->
  ric_pd (aug_gsts preg dreg first l tn) (aug_final sigma preg tn) ->
  gsym (aug_gsts preg dreg first l tn) (aug_final sigma preg tn) ->
  let r := cfwd_nodes d l tn in
  let l' := fst r in let tn' := snd r in
  [/\ ric_ok (aug_gsts preg dreg first l' tn') (aug_final sigma preg tn'),
      ric_pd (aug_gsts preg dreg first l' tn') (aug_final sigma preg tn'),
      gsym (aug_gsts preg dreg first l' tn') (aug_final sigma preg tn')
    & ric_sol d (aug_gsts preg dreg first l' tn') (aug_final sigma preg tn')].
Proof.
move=> Ht; elim=> [|nd l IH] first d.
  move=> _ _ sy; split=> //; split=> //; case: Ht => e1 e2.
  by rewrite /= e2 e1 addrC.
move=> [st ok] [pd pds] [sx su sy]; cbn [cfwd_nodes].
set d' := cfwd_x _ _ _ _.
have [ok' pd' sy' so'] := IH false d' ok pds sy.
have [hV hv hf [dT eT]] := cfwd_hd d' l tn.
set r := cfwd_nodes _ _ _ in ok' pd' sy' so' hV hv hf eT *.
have Ht' : aterm_ok preg (snd r) by rewrite eT.
have EP : nP (aug_gsts preg dreg false (fst r) (snd r)) (aug_final sigma preg (snd r))
        = nP (aug_gsts preg dreg false l tn) (aug_final sigma preg tn) by rewrite !ahd_nP.
have Ep : np (aug_gsts preg dreg false (fst r) (snd r)) (aug_final sigma preg (snd r))
        = np (aug_gsts preg dreg false l tn) (aug_final sigma preg tn) by rewrite !ahd_np.
split=> //=.
- by rewrite EP Ep hf.
- by rewrite EP hf.
- split=> //.
  + by rewrite /= /cfwd_u /= addrC.
  + by rewrite /= addrC.
  + rewrite hf; move: so'; congr (ric_sol _ _ _).
    by rewrite /d' /cfwd_x /=; vabel F.
Qed.
End ADMM.
