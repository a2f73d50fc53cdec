(** * The fast backward pass of SolverCSQP and the QP loop (any arithmetic). *)
From Coq Require Import ZArith List Bool Arith Lia ssreflect.
From Verif Require Import Eigen Problem DDP Filter SQP CSQP TrialSpec TraceSpec CSQPFrames QPSpec.
Import ListNotations.
Set Implicit Arguments.
Unset Strict Implicit.
Set Asymmetric Patterns.

Section Fast.
Variable E : Eig.
Variable M : manifold E.
Notation R := (R E).
Notation node := (node M).
Notation tnode := (tnode M).
Notation vec := (vec E).
Notation ndx := (mndx M).
Notation mat := (mat E).
Variable c : ccfg E.

(** ** same_factor is a preorder kept by everything but full passes and penalty changes *)
Lemma sm_refl m (v : vals M m) : same_mats v v.
Proof. by repeat split. Qed.
Lemma sm_trans m (u v w : vals M m) : same_mats u v -> same_mats v w -> same_mats u w.
Proof.
  move=> [a1 [a2 [a3 [a4 [a5 [a6 [a7 a8]]]]]]] [b1 [b2 [b3 [b4 [b5 [b6 [b7 b8]]]]]]].
  by rewrite /same_mats b1 b2 b3 b4 b5 b6 b7 b8.
Qed.
Lemma sfn_refl (n : node) : same_factor_node n n.
Proof. exists (val n), (dir n), (adm n). by destruct n. Qed.
Lemma sfn_trans (n1 n2 n3 : node) : same_factor_node n1 n2 -> same_factor_node n2 n3 -> same_factor_node n1 n3.
Proof.
  move=> [v [d [a [-> [h1 h2]]]]] [v' [d' [a' [-> [k1 k2]]]]].
  exists v', d', a'. split => //. split; [by rewrite k1|exact: sm_trans h2 k2].
Qed.
Lemma F2_refl {A} (P : A -> A -> Prop) l : (forall x, P x x) -> Forall2 P l l.
Proof. by move=> h; elim: l => [|x l ih]; constructor. Qed.
Lemma F2_trans {A} (P : A -> A -> Prop) l1 l2 l3 : (forall x y z, P x y -> P y z -> P x z) ->
  Forall2 P l1 l2 -> Forall2 P l2 l3 -> Forall2 P l1 l3.
Proof.
  move=> ht h; elim: h l3 => [|n1 n2 l1' l2' h' hl ih] l3 h3; inversion h3; subst; constructor.
  - exact: ht h' H1.
  - exact: ih.
Qed.
Lemma F2_map {A} (P : A -> A -> Prop) f l : (forall x, P x (f x)) -> Forall2 P l (map f l).
Proof. by move=> h; elim: l => [|x l ih]; constructor. Qed.
Lemma sft_refl (tn : tnode) : same_factor_tnode tn tn.
Proof. destruct tn. do 9 eexists. reflexivity. Qed.
Lemma sft_trans (n1 n2 n3 : tnode) : same_factor_tnode n1 n2 -> same_factor_tnode n2 n3 -> same_factor_tnode n1 n3.
Proof.
  move=> [v [d [la [dt [z [zp [zr [y [ir ->]]]]]]]]] [v' [d' [la' [dt' [z' [zp' [zr' [y' [ir' ->]]]]]]]]].
  do 9 eexists. reflexivity.
Qed.
Lemma sdt_trans (n1 n2 n3 : tnode) : same_data_tnode n1 n2 -> same_data_tnode n2 n3 -> same_data_tnode n1 n3.
Proof.
  move=> [A [v [d [la [dt [z [zp [zr [y [ir ->]]]]]]]]]] [A' [v' [d' [la' [dt' [z' [zp' [zr' [y' [ir' ->]]]]]]]]]].
  do 10 eexists. reflexivity.
Qed.
Lemma sf_refl (t : traj M) : same_factor t t.
Proof. split; [apply: F2_refl; exact: sfn_refl|exact: sft_refl]. Qed.
Lemma sf_trans (t1 t2 t3 : traj M) : same_factor t1 t2 -> same_factor t2 t3 -> same_factor t1 t3.
Proof.
  move=> [h1 e] [k1 e']. split; first exact: (F2_trans (@sfn_trans) h1 k1). exact: sft_trans e e'.
Qed.
Lemma sf_sd (t t' : traj M) : same_factor t t' -> same_data t t'.
Proof.
  move=> [h1 [v [d [la [dt [z [zp [zr [y [ir e]]]]]]]]]]. split.
  - elim: h1 => [|n n' l l' [v' [d' [a' [h [h' _]]]]] _ ih]; constructor => //. by exists v', d', a'.
  - move: e. rewrite /same_data_tnode => ->. do 10 eexists. reflexivity.
Qed.
Lemma sd_refl (t : traj M) : same_data t t.
Proof. exact: sf_sd (sf_refl t). Qed.
Lemma sdn_trans (n1 n2 n3 : node) : same_data_node n1 n2 -> same_data_node n2 n3 -> same_data_node n1 n3.
Proof.
  move=> [v [d [a [-> h1]]]] [v' [d' [a' [-> k1]]]].
  exists v', d', a'. split => //. by rewrite k1.
Qed.
Lemma sd_trans (t1 t2 t3 : traj M) : same_data t1 t2 -> same_data t2 t3 -> same_data t1 t3.
Proof.
  move=> [h1 e] [k1 e']. split; first exact: (F2_trans (@sdn_trans) h1 k1). exact: sdt_trans e e'.
Qed.

Lemma sfn_val (n : node) v : same_mats (val n) v -> same_factor_node n (set_val n v).
Proof. move=> h. exists v, (dir n), (adm n). by destruct n. Qed.
Lemma sfn_adm (n : node) a : arho a = arho (adm n) -> same_factor_node n (set_adm n a).
Proof. move=> h. exists (val n), (dir n), a. by destruct n. Qed.
Lemma sfn_dir (n : node) d : same_factor_node n (set_dir n d).
Proof. exists (val n), d, (adm n). by destruct n. Qed.

Lemma cf_sf (t : traj M) : same_factor t (cf_backward c t).
Proof.
  split; last by do 9 eexists; reflexivity.
  rewrite /cf_backward /=. move: (cf_term _ _) true => tn.
  elim: (run t) => [|n l ih] b /=; constructor => //.
  apply: sfn_val. by repeat split.
Qed.
Lemma cfwd_sf (l : list node) (tn : tnode) : forall d, Forall2 (@same_factor_node E M) l (fst (cfwd_nodes d l tn)) /\
  exists d', snd (cfwd_nodes d l tn) = set_tdxt tn d'.
Proof.
  elim: l => [|n l ih] d /=; first by split => //; exists d.
  case: (ih (cfwd_x n (hd_fs l tn) d (cfwd_u n d))) => h1 h2. split => //.
  constructor => //. exact: sfn_adm.
Qed.
Lemma cforward_sf (t : traj M) : same_factor t (cforward t).
Proof.
  rewrite /cforward. case: (cfwd_sf (run t) (trm t) (hd_dxt (run t) (trm t))) => h1 [d h2].
  split => //=. rewrite h2. do 9 eexists. reflexivity.
Qed.
Lemma admm_sf (t : traj M) : same_factor t (mkTraj (map (admm_node c) (run t)) (admm_tnode c (trm t))).
Proof.
  split => /=.
  - apply: F2_map => n. rewrite /admm_node. case: (_ =? 0); first exact: sfn_dir.
    eexists (val n), _, _. split; [reflexivity|by split].
  - rewrite /admm_tnode. case: (_ =? 0); do 9 eexists; reflexivity.
Qed.

(** ** The multithreaded fast pass computes the same values as the sequential
    one: the operations and their order agree (any arithmetic). *)
Lemma cfm_nodes_cf tn : forall l (l0 : list node) first,
  l0 = (if first : bool then map_first (cfm_init c) l else map (cfm_init c false) l) ->
  map (@cfm_gain E M) (cfm_nodes l0 tn) = cf_nodes c first l tn /\
  hd_Vx (cfm_nodes l0 tn) tn = hd_Vx (cf_nodes c first l tn) tn.
Proof.
  elim=> [|n l ih] l0 first ->; first by case: first.
  have h : (if first then map_first (cfm_init c) (n :: l) else map (cfm_init c false) (n :: l))
     = cfm_init c first n :: map (cfm_init c false) l by case: first.
  rewrite h. cbn [cfm_nodes cf_nodes map].
  have [h1 h2] := ih _ false Logic.eq_refl.
  rewrite h1 h2.
  have -> : cfm_gain (cfm_sweep (cfm_init c first n) (hd_Vx (cf_nodes c false l tn) tn))
     = cf_node c first n (hd_Vx (cf_nodes c false l tn) tn).
  { rewrite /cfm_gain /cfm_sweep /cf_node /cfm_init /=. by case: (nu (nm n) =? 0). }
  split => //. cbn [hd_Vx]. rewrite /cfm_sweep /cf_node /cfm_init /=. by case: (nu (nm n) =? 0).
Qed.
Lemma cfm_cf (t : traj M) : cfm_backward c t = cf_backward c t.
Proof.
  rewrite /cfm_backward /cf_backward.
  by have [-> _] := @cfm_nodes_cf (cf_term c (trm t)) (run t) _ true Logic.eq_refl.
Qed.
Lemma cfm_sf (t : traj M) : same_factor t (cfm_backward c t).
Proof. rewrite cfm_cf. exact: cf_sf. Qed.

(** ** Full passes leave the data alone *)
Lemma sdn_refl (n : node) : same_data_node n n.
Proof. exists (val n), (dir n), (adm n). by destruct n. Qed.
Lemma sdn_val (n : node) v : same_data_node n (set_val n v).
Proof. exists v, (dir n), (adm n). by destruct n. Qed.
Lemma cb_sd preg dreg (t : traj M) : same_data t (snd (cb_backward c preg dreg t)).
Proof.
  split; last by do 10 eexists; reflexivity.
  rewrite /cb_backward /=. move: (cb_term _ _ _) true => tn.
  elim: (run t) => [|n l ih] b /=; first by constructor.
  have := ih false. case: (cb_nodes c preg dreg false l tn) => [[] l'] /= h; constructor => //.
  - rewrite /cb_node /cb_finish. case: (_ && _); exact: sdn_val.
  - exact: sdn_refl.
Qed.
Lemma cm_nodes_sd preg tn : forall l : list node, Forall2 (@same_data_node E M) l (snd (cm_nodes preg l tn)).
Proof.
  elim=> [|n l ih] /=; first by constructor.
  move: ih. case: (cm_nodes preg l tn) => [[] l'] /= h; constructor => //.
  - rewrite /cm_node /cb_finish. case: (_ && _); exact: sdn_val.
  - exact: sdn_refl.
Qed.
Lemma cm_sd preg dreg (t : traj M) : same_data t (snd (cm_backward c preg dreg t)).
Proof.
  split; last by do 10 eexists; reflexivity.
  rewrite /cm_backward /=. apply: (F2_trans (@sdn_trans) _ (cm_nodes_sd _ _ _)).
  case: (run t) => [|n l] /=; constructor; first exact: sdn_val.
  apply: F2_map => n'. exact: sdn_val.
Qed.

(** ** C24: on a factored state the fast pass is the full pass *)
(** what a full pass writes into a node, as a success flag and a new [vals] *)
Definition fin_val (symm : mat ndx ndx -> mat ndx ndx) (preg : R) (n : node)
    (qx : vec ndx) (qxx : mat ndx ndx) (qu : vec (nu (nm n))) (quu : mat (nu (nm n)) (nu (nm n)))
    (qxu : mat ndx (nu (nm n))) (vfs : vec ndx) : vals M (nu (nm n)) :=
  let v := val n in
  let hasu := negb (nu (nm n) =? 0) in
  let fact := if hasu then quu else llt v in
  if hasu && negb (llt_ok E quu)
  then mkVals (Vxx v) (Vx v) qxx qxu quu qx qu (gK v) (gk v) (Quuk v) fact vfs
  else
    let K := if hasu then llt_solvem E quu (mtr E qxu) else gK v in
    let k := if hasu then llt_solvev E quu qu else gk v in
    let vx := if hasu then vsub E qx (mmulv E (mtr E K) qu) else qx in
    let vxx0 := if hasu then msub E qxx (mmul E qxu K) else qxx in
    mkVals (add_reg E (symm vxx0) preg) vx qxx qxu quu qx qu K k (Quuk v) fact vfs.
Definition fin_ok (n : node) (quu : mat (nu (nm n)) (nu (nm n))) : bool :=
  negb (negb (nu (nm n) =? 0) && negb (llt_ok E quu)).
Lemma cb_finishE symm preg (n : node) qx qxx qu quu qxu vfs :
  cb_finish symm preg n qx qxx qu quu qxu vfs = (fin_ok quu, set_val n (fin_val symm preg qx qxx qu quu qxu vfs)).
Proof. rewrite /cb_finish /fin_ok /fin_val. by case: (_ && _). Qed.

(** the quadratic coefficients of a node of the full pass *)
Section Coef.
Variables (dreg : R) (first : bool) (n : node) (Vxxp : mat ndx ndx) (Vxp fsp : vec ndx).
Let sigma := cc_sigma c.
Let d := der n.
Let v := val n.
Let a := adm n.
Let hasu := negb (nu (nm n) =? 0).
Let hasc := negb (ng (nm n) =? 0).
Definition c_qx : vec ndx :=
  let qx0 := vsub E (Lx d) (vscale E sigma (dx (dir n))) in
  let qx1 := if hasc && negb first then vadd E qx0 (mmulv E (mtr E (Gx d)) (dual_cwise a)) else qx0 in
  vadd E qx1 (mmulv E (mtr E (Fx d)) (vadd E (mmulv E Vxxp fsp) Vxp)).
Definition c_qxx : mat ndx ndx :=
  let qxx0 := madddiag E (Lxx d) sigma in
  let qxx1 := if negb first && hasc then madd E qxx0 (@rho_gram E _ _ _ (arho a) (Gx d) (Gx d)) else qxx0 in
  madd E qxx1 (mmul E (mmul E (mtr E (Fx d)) Vxxp) (Fx d)).
Definition c_qu : vec (nu (nm n)) :=
  let qu0 := vsub E (Lu d) (vscale E sigma (du (dir n))) in
  let qu1 := if hasc then vadd E qu0 (mmulv E (mtr E (Gu d)) (dual_cwise a)) else qu0 in
  if hasu then vadd E qu1 (mmulv E (mtr E (Fu d)) (vadd E (mmulv E Vxxp fsp) Vxp)) else Qu v.
Definition c_quu : mat (nu (nm n)) (nu (nm n)) :=
  let quu0 := madd E (madddiag E (Luu d) sigma) (mmul E (mmul E (mtr E (Fu d)) Vxxp) (Fu d)) in
  let quu1 := if hasc then madd E quu0 (@rho_gram E _ _ _ (arho a) (Gu d) (Gu d)) else quu0 in
  if hasu then add_reg E quu1 dreg else Quu v.
Definition c_qxu : mat ndx (nu (nm n)) :=
  let qxu0 := if negb first && hasc then madd E (Lxu d) (@rho_gram E _ _ _ (arho a) (Gx d) (Gu d)) else Lxu d in
  if hasu then madd E qxu0 (mmul E (mmul E (mtr E (Fx d)) Vxxp) (Fu d)) else Qxu v.
End Coef.
Definition c_val (preg dreg : R) first (n : node) Vxxp Vxp fsp : vals M (nu (nm n)) :=
  fin_val (symmetrize E) preg (c_qx first n Vxxp Vxp fsp) (c_qxx first n Vxxp) (c_qu n Vxxp Vxp fsp)
    (c_quu dreg n Vxxp) (c_qxu first n Vxxp) (mmulv E Vxxp fsp).
Lemma cb_nodeE preg dreg first (n : node) Vxxp Vxp fsp :
  cb_node c preg dreg first n Vxxp Vxp fsp
  = (fin_ok (c_quu dreg n Vxxp), set_val n (c_val preg dreg first n Vxxp Vxp fsp)).
Proof. exact: cb_finishE. Qed.

(** the matrices of the node are what the full pass computes *)
Definition fitted (preg dreg : R) (first : bool) (n : node) (Vxxp : mat ndx ndx) (fsp : vec ndx) : Prop :=
  fin_ok (c_quu dreg n Vxxp) = true /\
  forall Vxp, same_mats (val n) (c_val preg dreg first n Vxxp Vxp fsp).
Fixpoint fitted_nodes (preg dreg : R) (first : bool) (l : list node) (tn : tnode) : Prop :=
  match l with
  | [] => True
  | n :: l' => fitted preg dreg first n (hd_Vxx l' tn) (hd_fs l' tn) /\ fitted_nodes preg dreg false l' tn
  end.
Definition fitted_traj (preg dreg : R) (t : traj M) : Prop :=
  fitted_nodes preg dreg true (run t) (trm t) /\ tVxx (trm t) = tVxx (cb_term c preg (trm t)).

Lemma cb_node_fitted preg dreg first (n n' : node) Vxxp Vxp fsp :
  cb_node c preg dreg first n Vxxp Vxp fsp = (true, n') ->
  fitted preg dreg first n' Vxxp fsp.
Proof.
  rewrite cb_nodeE => -[hok <-]. rewrite /fitted /c_val /fin_val /fin_ok /c_quu /c_qxu /=.
  move: hok. rewrite /fin_ok /c_quu.
  case: (nu (nm n) =? 0) => //= h.
  rewrite h /=. case: (llt_ok E _) h => // _. 
Qed.
(** fitted only depends on the data and the matrices *)
Lemma fitted_sf preg dreg first (n n' : node) Vxxp fsp :
  same_factor_node n n' -> fitted preg dreg first n Vxxp fsp -> fitted preg dreg first n' Vxxp fsp.
Proof.
  move=> [v [d [a [-> [hr hm]]]]] [hok H].
  have hok' : fin_ok (c_quu dreg (set_adm (set_dir (set_val n v) d) a) Vxxp) = true.
  { move: hok. rewrite /fin_ok /c_quu /= hr. by case: (_ =? 0). }
  split => // Vxp. have := H Vxp. case: hm => a1 [a2 [a3 [a4 [a5 [a6 [a7 a8]]]]]].
  move: hok hok'. rewrite /fin_ok /same_mats /c_val /fin_val /c_quu /c_qxu /c_qxx /= hr ?a3 ?a4.
  case: (nu (nm n) =? 0) => /=; first by rewrite ?a1 ?a2 ?a3 ?a4 ?a5 ?a6 ?a7 ?a8.
  case: (llt_ok E _) => //=. by rewrite ?a1 ?a2 ?a3 ?a4 ?a5 ?a6 ?a7 ?a8.
Qed.
Lemma sf_hd l l' (tn tn' : tnode) : Forall2 (@same_factor_node E M) l l' -> tVxx tn' = tVxx tn -> tfs tn' = tfs tn ->
  hd_Vxx l' tn' = hd_Vxx l tn /\ hd_fs l' tn' = hd_fs l tn.
Proof.
  case=> [|n n' l1 l1' [v [d [a [-> [_ hm]]]]] _] //= h1 h2.
  case: hm => a1 _. by rewrite a1.
Qed.
Lemma fitted_nodes_sf preg dreg l l' (tn tn' : tnode) : forall first,
  Forall2 (@same_factor_node E M) l l' -> tVxx tn' = tVxx tn -> tfs tn' = tfs tn ->
  fitted_nodes preg dreg first l tn -> fitted_nodes preg dreg first l' tn'.
Proof.
  move=> first h hV hf; elim: h first => [|n n' l1 l1' h1 h ih] first //= [k1 k2].
  case: (sf_hd h hV hf) => -> ->. split; [exact: fitted_sf h1 k1|exact: ih].
Qed.
Lemma fitted_traj_sf preg dreg (t t' : traj M) : same_factor t t' -> fitted_traj preg dreg t -> fitted_traj preg dreg t'.
Proof.
  move=> [h [v [d [la [dt [z [zp [zr [y [ir e]]]]]]]]]] [k1 k2]. split.
  - apply: fitted_nodes_sf h _ _ k1; by rewrite e.
  - by rewrite e.
Qed.
Lemma cb_nodes_fitted preg dreg tn : forall (l : list node) first,
  fst (cb_nodes c preg dreg first l tn) = true ->
  fitted_nodes preg dreg first (snd (cb_nodes c preg dreg first l tn)) tn.
Proof.
  elim=> [|n l ih] first //=.
  have := ih false. case: (cb_nodes c preg dreg false l tn) => [[] r] //= h.
  move: (hd_Vxx r tn) (hd_Vx r tn) (hd_fs r tn) => A v f hok. split; last exact: h.
  apply: (@cb_node_fitted _ _ _ n _ _ v). rewrite -hok. by case: (cb_node _ _ _ _ _ _ _ _).
Qed.
Lemma cb_fitted preg dreg (t : traj M) : fst (cb_backward c preg dreg t) = true ->
  fitted_traj preg dreg (snd (cb_backward c preg dreg t)).
Proof. move=> h. split; last by []. exact: cb_nodes_fitted. Qed.

(** on a fitted state the fast pass agrees with the full pass; vectors with no
    entries are unique in both interpretations of the arithmetic *)
Definition vec0_unique : Prop := forall (n : nat) (v w : vec n), n = 0 -> v = w.
Hypothesis u0 : vec0_unique.

Lemma vals_ext m (v w : vals M m) : same_mats w v -> Vx v = Vx w -> Qx v = Qx w -> Qu v = Qu w ->
  gk v = gk w -> v = w.
Proof.
  destruct v, w. rewrite /same_mats /=. move=> [-> [-> [-> [-> [-> [-> [-> ->]]]]]]]. by move=> -> -> -> ->.
Qed.
Lemma cf_nodeE preg dreg first (n : node) Vxxp Vxp fsp : fitted preg dreg first n Vxxp fsp ->
  cf_node c first n Vxp = set_val n (c_val preg dreg first n Vxxp Vxp fsp).
Proof.
  move=> [hok H]. have hm := H Vxp. rewrite /cf_node. 
  match goal with |- set_val n ?v = set_val n ?w => suff -> : v = w by [] end.
  have h7 : Vxxfs (val n) = mmulv E Vxxp fsp.
  { case: hm => _ [_ [_ [_ [_ [_ [<- _]]]]]]. rewrite /c_val /fin_val. by case: (_ && _). }
  have h6 : nu (nm n) <> 0 -> llt (val n) = c_quu dreg n Vxxp.
  { move/Nat.eqb_neq => h. case: hm => _ [_ [_ [_ [_ [<- _]]]]]. rewrite /c_val /fin_val h.
    by case: (_ && _). }
  have h5 : nu (nm n) <> 0 -> gK (val n) = llt_solvem E (c_quu dreg n Vxxp) (mtr E (c_qxu first n Vxxp)).
  { move/Nat.eqb_neq => h. case: hm => _ [_ [_ [_ [<- _]]]]. move: hok. rewrite /c_val /fin_val /fin_ok h /=.
    by case: (llt_ok E _). }
  apply: vals_ext.
  - move: hm. by rewrite /same_mats /= => -[-> [-> [-> [-> [-> [-> [-> ->]]]]]]].
  - move: hok h5. rewrite /c_val /fin_val /fin_ok /c_qx /c_qu /= h7. case: (Nat.eqb_spec (nu (nm n)) 0) => // h /=.
    case: (llt_ok E _) => //= _ h5. by rewrite -h5.
  - move: hok. rewrite /c_val /fin_val /fin_ok /c_qx /= h7. by case: (_ && _).
  - move: hok. rewrite /c_val /fin_val /fin_ok /c_qu /= h7. case: (nu (nm n) =? 0) => //=. by case: (llt_ok E _).
  - cbn [gk]. case: (Nat.eq_dec (nu (nm n)) 0) => h; first exact: u0.
    rewrite h6 // h7. move: hok. rewrite /c_val /fin_val /fin_ok. move/Nat.eqb_neq: (h) => h'.
    rewrite h' /=. rewrite /c_qu h' /=. by case: (llt_ok E _).
Qed.
Lemma cf_nodes_cb preg dreg (tn : tnode) : forall (l : list node) first, fitted_nodes preg dreg first l tn ->
  cb_nodes c preg dreg first l (cf_term c tn) = (true, cf_nodes c first l (cf_term c tn)) /\
  hd_Vxx (cf_nodes c first l (cf_term c tn)) (cf_term c tn) = hd_Vxx l tn.
Proof.
  elim=> [|n l ih] first //= [h1 h2]. case: (ih _ h2) => -> h3. cbn [fst snd].
  have hf : hd_fs (cf_nodes c false l (cf_term c tn)) (cf_term c tn) = hd_fs l tn by case: (l).
  rewrite h3 hf. rewrite cb_nodeE. rewrite (cf_nodeE _ h1). case: h1 => -> h. split => //=.
Qed.
Lemma cf_cb preg dreg (t : traj M) : fitted_traj preg dreg t ->
  cb_backward c preg dreg t = (true, cf_backward c t).
Proof.
  move=> [h1 h2]. rewrite /cb_backward /cf_backward.
  have -> : cb_term c preg (trm t) = cf_term c (trm t) by rewrite /cf_term h2.
  by case: (cf_nodes_cb h1) => -> _.
Qed.

(** ** The QP loop *)
Definition full_pass (preg dreg : R) (t : traj M) : bool * traj M :=
  if cc_mt c then cm_backward c preg dreg t else cb_backward c preg dreg t.
Lemma full_sd preg dreg (t : traj M) : same_data t (snd (full_pass preg dreg t)).
Proof. rewrite /full_pass. case: (cc_mt c); [exact: cm_sd|exact: cb_sd]. Qed.

Lemma qp_pass_tr i (s : csqp M) :
  k_tr (snd (qp_pass c i s)) = (if qp_full c i then snd (full_pass (k_preg s) (k_dreg s) (k_tr s))
                                else cf_backward c (k_tr s)) /\
  fst (qp_pass c i s) = (if qp_full c i then fst (full_pass (k_preg s) (k_dreg s) (k_tr s)) else true) /\
  k_preg (snd (qp_pass c i s)) = k_preg s /\ k_dreg (snd (qp_pass c i s)) = k_dreg s.
Proof.
  rewrite /qp_pass /full_pass. case: (qp_full c i); case: (cc_mt c) => //=. by rewrite cfm_cf.
Qed.
Lemma update_rho_false (s : csqp M) : k_tr (update_rho c false s) = k_tr s.
Proof. by []. Qed.
Lemma qp_step_tr i (s s2 : csqp M) : qp_step c i s = SGo s2 ->
  (qp_full c i = true -> fst (full_pass (k_preg s) (k_dreg s) (k_tr s)) = true) /\
  k_preg s2 = k_preg s /\ k_dreg s2 = k_dreg s /\
  (i mod cc_interval c <> 0 ->
    same_factor (if qp_full c i then snd (full_pass (k_preg s) (k_dreg s) (k_tr s)) else k_tr s) (k_tr s2)).
Proof.
  rewrite /qp_step. set s0 := set_k_log _ _.
  have [h1 [h2 [h3 h4]]] := qp_pass_tr i s0.
  have e1 : k_tr s0 = k_tr s by []. have e2 : k_preg s0 = k_preg s by []. have e3 : k_dreg s0 = k_dreg s by [].
  rewrite e1 e2 e3 in h1 h2 h3 h4. move: (qp_pass c i s0) h1 h2 h3 h4 => [b p] /= h1 h2 h3 h4.
  case: b h2 => // h2 H.
  have hreg : forall a q, k_preg (update_rho c a q) = k_preg (q : csqp M) /\ k_dreg (update_rho c a q) = k_dreg q.
  { move=> a q. rewrite /update_rho. by case: (_ && _). }
  have hreg2 : forall q, k_preg (qp_tolerances c q) = k_preg (q : csqp M) /\ k_dreg (qp_tolerances c q) = k_dreg q.
  { move=> q. rewrite /qp_tolerances. by case: (rle _ _ _). }
  split; first by move=> h; rewrite h in h2.
  move: H. case: (Nat.eqb_spec (i mod cc_interval c) 0) => hi.
  - set q := update_lagrangian _ _ _.
    case: (hreg true q) => r1 r2. case: (hreg2 (update_rho c true q)) => r3 r4.
    case: (qp_converged _) => // -[<-].
    by rewrite r3 r4 r1 r2 -h3 -h4.
  - move=> [<-]. split; [exact: h3|]. split; [exact: h4|]. move=> _.
    rewrite update_rho_false /update_lagrangian. cbn [k_tr set_k_tr set_k_norms].
    apply: sf_trans (admm_sf _). apply: sf_trans (cforward_sf _). rewrite h1.
    case: (qp_full c i); [exact: sf_refl|exact: cf_sf].
Qed.
Lemma full_next i : 0 < cc_interval c -> qp_full c (S i) = false -> i mod cc_interval c <> 0.
Proof.
  rewrite /qp_full => hk /orb_false_iff [/Nat.eqb_neq h1 /Nat.eqb_neq h2] h3. apply: h1.
  have h := Nat.div_mod_eq i (cc_interval c).
  have h4 := Nat.mod_small 1 (cc_interval c) ltac:(lia).
  have h5 := Nat.mod_add 1 (i / cc_interval c) (cc_interval c) ltac:(lia).
  transitivity (1 mod cc_interval c); [rewrite -h5; f_equal; lia|exact: h4].
Qed.
Lemma full_first : 0 < cc_interval c -> qp_full c 1 = true.
Proof.
  rewrite /qp_full => hk. case: (Nat.eqb_spec (cc_interval c) 1) => h; first by rewrite orb_true_r.
  rewrite Nat.mod_small //. lia.
Qed.

Variable timeout : nat -> bool.
Lemma qp_top_fast (s : csqp M) i si : 0 < cc_interval c -> qp_top c timeout s i si -> qp_full c i = false ->
  exists j sj, j < i /\ qp_top c timeout s j sj /\ qp_full c j = true /\
    fst (full_pass (k_preg sj) (k_dreg sj) (k_tr sj)) = true /\
    same_data (k_tr sj) (k_tr si) /\
    same_factor (snd (full_pass (k_preg sj) (k_dreg sj) (k_tr sj))) (k_tr si) /\
    k_preg si = k_preg sj /\ k_dreg si = k_dreg sj.
Proof.
  move=> hk h. elim: h => [s1 hb _ _|i' s1 s2 ht ih hs _ _].
  - by rewrite full_first.
  - move=> hfull. have hi := full_next hk hfull.
    have [k1 [k2 [k3 k4]]] := qp_step_tr hs. have {}k4 := k4 hi.
    case e: (qp_full c i') k1 k4 ih => k1 k4 ih.
    + exists i', s1. split; [lia|]. split => //. split => //. split; [exact: k1|].
      split; last by [].
      exact: sd_trans (full_sd _ _ _) (sf_sd k4).
    + case: (ih Logic.eq_refl) => j [sj [h1 [h2 [h3 [h4 [h5 [h6 [h7 h8]]]]]]]].
      exists j, sj. split; [lia|]. do 3 (split => //).
      split; [exact: sd_trans h5 (sf_sd k4)|]. split; [exact: sf_trans h6 k4|].
      cbn [tick snd k_preg k_dreg set_k_log set_k_clk]. by rewrite k2 k3.
Qed.
(** every pass of a QP solve is, in effect, a full pass *)
Lemma qp_top_cb (s : csqp M) i si : cc_mt c = false -> 0 < cc_interval c -> qp_top c timeout s i si ->
  fst (qp_pass c i si) = fst (cb_backward c (k_preg si) (k_dreg si) (k_tr si)) /\
  k_tr (snd (qp_pass c i si)) = snd (cb_backward c (k_preg si) (k_dreg si) (k_tr si)).
Proof.
  move=> hmt hk h. have [h1 [h2 _]] := qp_pass_tr i si. rewrite h1 h2 /full_pass hmt.
  case e: (qp_full c i) => //.
  have [j [sj [_ [_ [_ [k1 [_ [k2 [k3 k4]]]]]]]]] := qp_top_fast hk h e.
  move: k1 k2. rewrite /full_pass hmt => k1 k2.
  have hf : fitted_traj (k_preg si) (k_dreg si) (k_tr si).
  { apply: fitted_traj_sf k2 _. rewrite k3 k4. exact: cb_fitted. }
  by rewrite (cf_cb hf).
Qed.

(** ** Counting QP iterations *)
Definition is_qp (e : event E) : bool := match e with EvQP _ => true | _ => false end.
Definition qp_events (log : list (event E)) : list (event E) := filter is_qp log.
Lemma qp_step_log i (s : csqp M) :
  match qp_step c i s with SThrow s' | SStop s' | SGo s' => k_log s' = EvQP E i :: k_log s end.
Proof.
  rewrite /qp_step. set s0 := set_k_log _ _.
  have hp : k_log (snd (qp_pass c i s0)) = EvQP E i :: k_log s.
  { rewrite /qp_pass. by case: (qp_full c i). }
  move: (qp_pass c i s0) hp => [b p] /= hp. case: b => //.
  have hreg : forall a q, k_log (update_rho c a q) = k_log (q : csqp M).
  { move=> a q. rewrite /update_rho. by case: (_ && _). }
  have hreg2 : forall q, k_log (qp_tolerances c q) = k_log (q : csqp M).
  { move=> q. rewrite /qp_tolerances. by case: (rle _ _ _). }
  case: (_ =? 0).
  - set q := update_rho _ _ _. have : k_log (qp_tolerances c q) = EvQP E i :: k_log s.
    { by rewrite hreg2 hreg. }
    move: (qp_tolerances c q) => q' h. by case: (qp_converged _).
  - by rewrite hreg.
Qed.
(** the QP events added by the loop started at iteration [i]: i, i+1, ..., i+n-1 *)
Lemma qp_loop_count : forall r i (s : csqp M),
  match qp_loop c timeout r i s with
  | QDone s' => exists n, n <= r /\
      qp_events (k_log s') = map (EvQP E) (rev (seq i n)) ++ qp_events (k_log s) /\
      ((n = r /\ k_qpit s' = i + r /\ (k_reached s = false -> k_reached s' = false)) \/
       (k_qpit s' = i + n - 1 /\ (0 < n \/ k_reached s' = true)))
  | QThrow s' => exists n, 0 < n <= r /\
      qp_events (k_log s') = map (EvQP E) (rev (seq i n)) ++ qp_events (k_log s) /\
      k_qpit s' = i + n - 1
  | QUB => cc_interval c = 0
  end.
Proof.
  elim=> [|r ih] i s.
  - exists 0. split => //. split => //. left. split => //=.
  - cbn [qp_loop]. case: (fst (tick timeout s)).
    + exists 0. split; first lia. split => //. right. cbn. split; [lia|by right].
    + case: (Nat.eqb_spec (cc_interval c) 0) => // hk.
      have := qp_step_log i (snd (tick timeout s)).
      have hq : qp_events (k_log (snd (tick timeout s))) = qp_events (k_log s) by [].
      have hr : forall s1, qp_step c i (snd (tick timeout s)) = SGo s1 -> k_reached s1 = k_reached s.
      { move=> s1 e. have := qp_step_dframe c i (snd (tick timeout s)). by rewrite e => -[_ ->]. }
      move: (snd (tick timeout s)) hq hr => s1 hq hr.
      case e: (qp_step c i s1) => [s2|s2|s2] h.
      * exists 1. split; first lia. have hq2 : qp_events (k_log s2) = EvQP E i :: qp_events (k_log s) by rewrite h -hq.
        split; [exact: hq2|]. cbn [k_qpit set_k_qpit]. lia.
      * exists 1. split; first lia. have hq2 : qp_events (k_log s2) = EvQP E i :: qp_events (k_log s) by rewrite h -hq.
        split; [exact: hq2|]. cbn [k_qpit set_k_qpit]. right. split; [lia|left; lia].
      * have := ih (S i) s2. have hr2 := hr _ e.
        have hq2 : qp_events (k_log s2) = EvQP E i :: qp_events (k_log s) by rewrite h -hq.
        case: (qp_loop c timeout r (S i) s2) => // s3.
        -- move=> [n [k1 [k2 k3]]]. exists (S n). split; [lia|]. split.
           ++ by rewrite k2 hq2 /= map_app -app_assoc /=.
           ++ case: k3 => [[k3 [k4 k5]]|[k3 k4]]; [left|right].
              ** split; [lia|]. split; [lia|]. by rewrite -hr2.
              ** split; [lia|]. left. lia.
        -- move=> [n [k1 [k2 k3]]]. exists (S n). split; [lia|]. split; [|lia].
           by rewrite k2 hq2 /= map_app -app_assoc /=.
Qed.
End Fast.
