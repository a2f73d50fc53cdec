(** * The parallel loops of SolverCSQP, statement by statement (src/csqp.cpp).

    A slot holds everything the arrays contain at one index, including the
    scratch arrays tmp_dual_cwise_, tmp_Cdx_Cdu_, tmp_rhoGx_mat_ and
    tmp_rhoGu_mat_ (csqp.hpp), which only these loops use.  Each C++ statement is
    one [mop] of OMP.v. *)
From Coq Require Import ZArith List Bool Arith Lia Permutation ssreflect ssrbool.
From Verif Require Import Eigen Problem DDP Filter SQP CSQP OMP.
Import ListNotations.
Set Implicit Arguments.
Unset Strict Implicit.
Set Asymmetric Patterns.

Section Par.
Variable E : Eig.
Variable M : manifold E.
Notation R := (R E).
Notation vec := (vec E).
Notation mat := (mat E).
Notation ndx := (mndx M).
Notation node := (node M).
Variable c : ccfg E.

Record pslot := mkPslot {
  sn : node;
  s_w : vec (ng (nm sn));            (* tmp_dual_cwise_[t] *)
  s_cd : vec (ng (nm sn));           (* tmp_Cdx_Cdu_[t] *)
  s_gx : mat (ng (nm sn)) ndx;       (* tmp_rhoGx_mat_[t] *)
  s_gu : mat (ng (nm sn)) (nu (nm sn))   (* tmp_rhoGu_mat_[t] *)
}.
Definition put_val (s : pslot) (v : vals M (nu (nm (sn s)))) : pslot :=
  @mkPslot (set_val (sn s) v) (s_w s) (s_cd s) (s_gx s) (s_gu s).
Definition put_adm (s : pslot) (a : admm M (nu (nm (sn s))) (ng (nm (sn s)))) : pslot :=
  @mkPslot (set_adm (sn s) a) (s_w s) (s_cd s) (s_gx s) (s_gu s).
Definition put_dir (s : pslot) (d : dirs M (nu (nm (sn s)))) : pslot :=
  @mkPslot (set_dir (sn s) d) (s_w s) (s_cd s) (s_gx s) (s_gu s).
Definition put_w (s : pslot) (w : vec (ng (nm (sn s)))) : pslot := @mkPslot (sn s) w (s_cd s) (s_gx s) (s_gu s).
Definition put_cd (s : pslot) (w : vec (ng (nm (sn s)))) : pslot := @mkPslot (sn s) (s_w s) w (s_gx s) (s_gu s).
Definition put_gx (s : pslot) (g : mat (ng (nm (sn s))) ndx) : pslot := @mkPslot (sn s) (s_w s) (s_cd s) g (s_gu s).
Definition put_gu (s : pslot) (g : mat (ng (nm (sn s))) (nu (nm (sn s)))) : pslot :=
  @mkPslot (sn s) (s_w s) (s_cd s) (s_gx s) g.
Definition put_Qx (s : pslot) (q : vec ndx) : pslot :=
  let v := val (sn s) in
  put_val (mkVals (Vxx v) (Vx v) (Qxx v) (Qxu v) (Quu v) q (Qu v) (gK v) (gk v) (Quuk v) (llt v) (Vxxfs v)).
Definition put_Qxx (s : pslot) (q : mat ndx ndx) : pslot :=
  let v := val (sn s) in
  put_val (mkVals (Vxx v) (Vx v) q (Qxu v) (Quu v) (Qx v) (Qu v) (gK v) (gk v) (Quuk v) (llt v) (Vxxfs v)).
Definition put_Qu (s : pslot) (q : vec (nu (nm (sn s)))) : pslot :=
  let v := val (sn s) in
  put_val (mkVals (Vxx v) (Vx v) (Qxx v) (Qxu v) (Quu v) (Qx v) q (gK v) (gk v) (Quuk v) (llt v) (Vxxfs v)).
Definition put_Quu (s : pslot) (q : mat (nu (nm (sn s))) (nu (nm (sn s)))) : pslot :=
  let v := val (sn s) in
  put_val (mkVals (Vxx v) (Vx v) (Qxx v) (Qxu v) q (Qx v) (Qu v) (gK v) (gk v) (Quuk v) (llt v) (Vxxfs v)).
Definition put_Qxu (s : pslot) (q : mat ndx (nu (nm (sn s)))) : pslot :=
  let v := val (sn s) in
  put_val (mkVals (Vxx v) (Vx v) (Qxx v) q (Quu v) (Qx v) (Qu v) (gK v) (gk v) (Quuk v) (llt v) (Vxxfs v)).
Definition put_k (s : pslot) (k : vec (nu (nm (sn s)))) : pslot :=
  let v := val (sn s) in
  put_val (mkVals (Vxx v) (Vx v) (Qxx v) (Qxu v) (Quu v) (Qx v) (Qu v) (gK v) k (Quuk v) (llt v) (Vxxfs v)).
Definition put_z (s : pslot) (z : vec (ng (nm (sn s)))) : pslot :=
  let a := adm (sn s) in put_adm (mkAdmm (dxt a) (dut a) z (azp a) (azr a) (ay a) (arho a) (airho a)).
Definition put_zp (s : pslot) (z : vec (ng (nm (sn s)))) : pslot :=
  let a := adm (sn s) in put_adm (mkAdmm (dxt a) (dut a) (az a) z (azr a) (ay a) (arho a) (airho a)).
Definition put_zr (s : pslot) (z : vec (ng (nm (sn s)))) : pslot :=
  let a := adm (sn s) in put_adm (mkAdmm (dxt a) (dut a) (az a) (azp a) z (ay a) (arho a) (airho a)).
Definition put_y (s : pslot) (y : vec (ng (nm (sn s)))) : pslot :=
  let a := adm (sn s) in put_adm (mkAdmm (dxt a) (dut a) (az a) (azp a) (azr a) y (arho a) (airho a)).
Definition put_dx (s : pslot) (d : vec ndx) : pslot :=
  put_dir (mkDirs d (du (dir (sn s))) (lam (dir (sn s)))).
Definition put_du (s : pslot) (d : vec (nu (nm (sn s)))) : pslot :=
  put_dir (mkDirs (dx (dir (sn s))) d (lam (dir (sn s)))).

Definition hasu (s : pslot) : bool := negb (nu (nm (sn s)) =? 0).
Definition hasc (s : pslot) : bool := negb (ng (nm (sn s)) =? 0).
Definition sA (s : pslot) := adm (sn s).
Definition sD (s : pslot) := der (sn s).
Definition sV (s : pslot) := val (sn s).

Section Bodies.
Variable A : Type.
Notation mop := (mop pslot A).
(** if (cond) statement; *)
Definition mif (cond : pslot -> bool) (f : pslot -> pslot) : mop := MW A (fun s => if cond s then f s else s).
Definition mdo (f : pslot -> pslot) : mop := MW A f.

(** backwardPass_mt, csqp.cpp:939-979 *)
Definition init_body (dreg : R) (t : nat) : list mop :=
  let pos := negb (t =? 0) in
  let sigma := cc_sigma c in
  [ mdo (fun s => put_Qx s (Lx (sD s)));
    mdo (fun s => put_Qx s (vsub E (Qx (sV s)) (vscale E sigma (dx (dir (sn s))))));
    mif (fun s => hasc s && (pos || hasu s)) (fun s => @put_w s (ay (sA s)));
    mif (fun s => hasc s && (pos || hasu s)) (fun s => @put_w s (vsub E (s_w s) (cmul E (arho (sA s)) (az (sA s)))));
    mif (fun s => hasc s && pos) (fun s => put_Qx s (vadd E (Qx (sV s)) (mmulv E (mtr E (Gx (sD s))) (s_w s))));
    mdo (fun s => put_Qxx s (Lxx (sD s)));
    mdo (fun s => put_Qxx s (madddiag E (Qxx (sV s)) sigma));
    mif (fun s => pos && hasc s) (fun s => @put_gx s (mdiagmul E (arho (sA s)) (Gx (sD s))));
    mif (fun s => pos && hasc s) (fun s => put_Qxx s (madd E (Qxx (sV s)) (mmul E (mtr E (Gx (sD s))) (s_gx s))));
    mif hasu (fun s => @put_Qu s (vsub E (Lu (sD s)) (vscale E sigma (du (dir (sn s))))));
    mif (fun s => hasu s && hasc s) (fun s => @put_Qu s (vadd E (Qu (sV s)) (mmulv E (mtr E (Gu (sD s))) (s_w s))));
    mif hasu (fun s => @put_Quu s (Luu (sD s)));
    mif hasu (fun s => @put_Quu s (madddiag E (Quu (sV s)) sigma));
    mif (fun s => hasu s && hasc s) (fun s => @put_gu s (mdiagmul E (arho (sA s)) (Gu (sD s))));
    mif (fun s => hasu s && hasc s) (fun s => @put_Quu s (madd E (Quu (sV s)) (mmul E (mtr E (Gu (sD s))) (s_gu s))));
    mif (fun s => hasu s && negb (risnan E dreg)) (fun s => @put_Quu s (madddiag E (Quu (sV s)) dreg));
    mif hasu (fun s => @put_Qxu s (Lxu (sD s)));
    mif (fun s => hasu s && (pos && hasc s)) (fun s => @put_Qxu s (madd E (Qxu (sV s)) (mmul E (mtr E (Gx (sD s))) (s_gu s)))) ].

(** backwardPass_without_rho_update_mt, first loop, csqp.cpp:1148-1165 *)
Definition finit_body (t : nat) : list mop :=
  let pos := negb (t =? 0) in
  let sigma := cc_sigma c in
  [ mdo (fun s => put_Qx s (vsub E (Lx (sD s)) (vscale E sigma (dx (dir (sn s))))));
    mif (fun s => hasc s && (pos || hasu s)) (fun s => @put_w s (vsub E (ay (sA s)) (cmul E (arho (sA s)) (az (sA s)))));
    mif (fun s => hasc s && pos) (fun s => put_Qx s (vadd E (Qx (sV s)) (mmulv E (mtr E (Gx (sD s))) (s_w s))));
    mif hasu (fun s => @put_Qu s (vsub E (Lu (sD s)) (vscale E sigma (du (dir (sn s))))));
    mif (fun s => hasu s && hasc s) (fun s => @put_Qu s (vadd E (Qu (sV s)) (mmulv E (mtr E (Gu (sD s))) (s_w s)))) ].
(** last loop, csqp.cpp:1187-1190 *)
Definition gain_body (t : nat) : list mop :=
  [ mdo (fun s => @put_k s (Qu (sV s)));
    mdo (fun s => @put_k s (llt_solvev E (llt (sV s)) (gk (sV s)))) ].
End Bodies.

(** update_lagrangian_parameters, csqp.cpp:1216-1289; the reduction variables are
    norm_primal_, norm_dual_, norm_primal_rel_, norm_dual_rel_ *)
Definition red_p (v : pslot -> R) : pslot -> norms E -> norms E :=
  fun s w => mkNorms E (emax E (n_p w) (v s)) (n_d w) (n_pr w) (n_dr w).
Definition red_d (v : pslot -> R) : pslot -> norms E -> norms E :=
  fun s w => mkNorms E (n_p w) (emax E (n_d w) (v s)) (n_pr w) (n_dr w).
Definition red_pr (v : pslot -> R) : pslot -> norms E -> norms E :=
  fun s w => mkNorms E (n_p w) (n_d w) (emax E (n_pr w) (v s)) (n_dr w).
Definition red_dr (v : pslot -> R) : pslot -> norms E -> norms E :=
  fun s w => mkNorms E (n_p w) (n_d w) (n_pr w) (emax E (n_dr w) (v s)).
Definition rif (cond : pslot -> bool) (g : pslot -> norms E -> norms E) : mop pslot (norms E) :=
  MR (fun s w => if cond s then g s w else w).
Definition lag_body (atint : bool) (t : nat) : list (mop pslot (norms E)) :=
  let heur := cc_heur c in
  let at_h s := hasc s && (atint && heur) in
  let at_n s := hasc s && (atint && negb heur) in
  let at_ s := hasc s && atint in
  [ mif (norms E) (fun s => negb (hasc s)) (fun s => put_dx s (dxt (sA s)));
    mif (norms E) (fun s => negb (hasc s)) (fun s => @put_du s (dut (sA s)));     (* continue *)
    mif (norms E) hasc (fun s => @put_zp s (az (sA s)));
    mif (norms E) hasc (fun s => @put_cd s (mmulv E (Gx (sD s)) (dxt (sA s))));
    mif (norms E) hasc (fun s => @put_cd s (vadd E (s_cd s) (mmulv E (Gu (sD s)) (dut (sA s)))));
    mif (norms E) hasc (fun s => @put_zr s (vscale E (cc_alpha c) (s_cd s)));
    mif (norms E) hasc (fun s => @put_zr s (vadd E (azr (sA s)) (vscale E (rsub E (r1 E) (cc_alpha c)) (az (sA s)))));
    mif (norms E) hasc (fun s => @put_w s (cmul E (ay (sA s)) (airho (sA s))));
    mif (norms E) hasc (fun s => @put_z s (vadd E (azr (sA s)) (s_w s)));
    mif (norms E) hasc (fun s => @put_z s (clamp E (alb (nm (sn s))) (aub (nm (sn s))) (ag (nm (sn s)) (mem (sn s))) (az (sA s))));
    mif (norms E) hasc (fun s => @put_y s (vadd E (ay (sA s)) (cmul E (arho (sA s)) (vsub E (azr (sA s)) (az (sA s))))));
    mif (norms E) hasc (fun s => put_dx s (dxt (sA s)));
    mif (norms E) hasc (fun s => @put_du s (dut (sA s)));
    mif (norms E) at_ (fun s => @put_w s (cmul E (arho (sA s)) (vsub E (az (sA s)) (azp (sA s)))));
    rif at_h (red_d (fun s => vlinf E (s_w s)));
    rif at_n (red_d (fun s => vlinf E (mmulv E (mtr E (Gx (sD s))) (s_w s))));
    rif at_n (red_d (fun s => vlinf E (mmulv E (mtr E (Gu (sD s))) (s_w s))));
    rif at_ (red_p (fun s => vlinf E (vsub E (s_cd s) (az (sA s)))));
    rif at_ (red_pr (fun s => vlinf E (s_cd s)));
    rif at_ (red_pr (fun s => vlinf E (az (sA s))));
    rif at_h (red_dr (fun s => vlinf E (ay (sA s))));
    rif at_n (red_dr (fun s => vlinf E (mmulv E (mtr E (Gx (sD s))) (ay (sA s)))));
    rif at_n (red_dr (fun s => vlinf E (mmulv E (mtr E (Gu (sD s))) (ay (sA s))))) ].
(** the combination of private copies of a [reduction(max : ...)] list *)
Definition norms_max (v w : norms E) : norms E :=
  mkNorms E (estd_max (n_p v) (n_p w)) (estd_max (n_d v) (n_d w)) (estd_max (n_pr v) (n_pr w)) (estd_max (n_dr v) (n_dr w)).

(** tryStep, csqp.cpp:1385-1404.  The trial states [xt] are only read; fs_try_
    (never read) is not modelled.  Reduction variables: cost_try_, gap_norm_try_,
    constraint_norm_try_. *)
Definition sums := (R * R * R)%type.
Definition try_body (xt : nat -> mX M) (t : nat) : list (mop node sums) :=
  [ MW sums (fun n => @ceval_node E M n);
    MR (fun n v => (radd E (fst (fst v)) (acost (nm n) (mem n)), snd (fst v), snd v));
    MR (fun n v => (fst (fst v), radd E (snd (fst v)) (vl1 E (diff M (xt (S t)) (axnext (nm n) (mem n)))), snd v));
    MR (fun n v => (fst v, radd E (snd v) (vl1 E (viol_lb E (alb (nm n)) (ag (nm n) (mem n))))));
    MR (fun n v => (fst v, radd E (snd v) (vl1 E (viol_ub E (aub (nm n)) (ag (nm n) (mem n))))));
    MT node (fun v => raiseIfNaN (fst (fst v))) ].
Definition sums0 : sums := (r0 E, r0 E, r0 E).
Definition sums_add (v w : sums) : sums :=
  (radd E (fst (fst v)) (fst (fst w)), radd E (snd (fst v)) (snd (fst w)), radd E (snd v) (snd w)).

(** ** The passes with any execution of their parallel loops *)
Definition slots_for (m : list pslot) (l : list node) : Prop := map sn m = l.
(** [loop body l l']: some parallel execution of the loop over the nodes [l]
    (any number of threads, any assignment, any interleaving, any scratch
    contents) leaves the nodes [l'] *)
Definition loop (body : nat -> list (mop pslot unit)) (l l' : list node) : Prop :=
  exists m chunks m' ths, [/\ slots_for m l, partition (length m) chunks,
    psteps (fork body tt chunks m) (Run m' ths), finished ths & slots_for m' l'].
Definition cm_backward_par (preg dreg : R) (s : traj M) (r : bool * traj M) : Prop :=
  exists l, loop (init_body unit dreg) (run s) l /\
    r = (fst (cm_nodes preg l (cb_term c preg (trm s))),
         mkTraj (snd (cm_nodes preg l (cb_term c preg (trm s)))) (cb_term c preg (trm s))).
Definition cfm_backward_par (s r : traj M) : Prop :=
  exists l1 l2, [/\ loop (finit_body unit) (run s) l1,
    loop (gain_body unit) (cfm_nodes l1 (cf_term c (trm s))) l2 & r = mkTraj l2 (cf_term c (trm s))].
(** update_lagrangian_parameters: the nodes and the reduced norms before the
    terminal node; the original variables hold -infinity *)
Definition lag_par (atint : bool) (l l' : list node) (w : norms E) : Prop :=
  exists m chunks m' ths, [/\ slots_for m l, partition (length m) chunks,
    psteps (fork (lag_body atint) (norms_init E) chunks m) (Run m' ths), finished ths
    & slots_for m' l' /\ combined norms_max (norms_init E :: map (@th_acc _ _) ths) w].
(** tryStep's loop over the nodes [l]; [None] = the process was terminated *)
Definition try_region (xt : nat -> mX M) (chunks : list (list nat)) (l : list node) (r : option (list node * sums)) : Prop :=
  partition (length l) chunks /\
  match r with
  | None => psteps (fork (try_body xt) sums0 chunks l) (Dead _ _)
  | Some (l', v) => exists ths, [/\ psteps (fork (try_body xt) sums0 chunks l) (Run l' ths), finished ths
      & combined sums_add (sums0 :: map (@th_acc _ _) ths) v]
  end.

(** ** Bodies run alone *)
Lemma init_alone dreg t (s : pslot) : sn (slot_of (init_body unit dreg t) s) = cm_init c dreg (t =? 0) (sn s).
Proof.
rewrite /slot_of /cm_init /init_body /mif /mdo /add_reg.
case: (risnan E dreg).
all: case: t => [|t].
all: destruct s as [[[[|k] [|g] nh am ac ac0 aco ax ag ad lb ub] p me d f v di a] w cd gx gu].
all: lazy; reflexivity.
Qed.
Ltac dims s := destruct s as [[[[|?] [|?] ? ? ? ? ? ? ? ? ? ?] ? ? ? ? ? ? ?] ? ? ? ?].
Lemma finit_alone t (s : pslot) : sn (slot_of (finit_body unit t) s) = cfm_init c (t =? 0) (sn s).
Proof.
rewrite /slot_of /cfm_init /finit_body /mif /mdo; case: t => [|t]; dims s; lazy; reflexivity.
Qed.
Lemma gain_alone t (s : pslot) : sn (slot_of (gain_body unit t) s) = cfm_gain (sn s).
Proof. by []. Qed.
Lemma lag_alone b t (s : pslot) : sn (slot_of (lag_body b t) s) = admm_node c (sn s).
Proof.
rewrite /slot_of /admm_node /lag_body /mif /rif; case: b; dims s; lazy; reflexivity.
Qed.
Lemma lag_iter b t (s : pslot) w : iter (lag_body b t) s w
  = Some (if b then norms_node (cc_heur c) w (admm_node c (sn s)) else w).
Proof.
rewrite /admm_node /norms_node /lag_body /mif /rif; case: w => w1 w2 w3 w4.
case: b; case: (cc_heur c); dims s; lazy; reflexivity.
Qed.
Lemma try_alone xt t n : slot_of (try_body xt t) n = ceval_node n.
Proof. by []. Qed.

(** ** Results for every arithmetic *)
Lemma slots_map (A : Type) (f : nat -> node -> node) (body : nat -> list (mop pslot A)) :
  (forall t s, sn (slot_of (body t) s) = f t (sn s)) ->
  forall m i, map sn (slots_from body i m) = map (fun p => f (fst p) (snd p)) (combine (seq i (length m)) (map sn m)).
Proof. by move=> h; elim=> [|s m IH] i //=; rewrite h IH. Qed.
Lemma combine_const (f : bool -> node -> node) : forall l i, 0 < i ->
  map (fun p => f (fst p =? 0) (snd p)) (combine (seq i (length l)) l) = map (f false) l.
Proof. elim=> [|n l IH] [|i] //= hi; first by inversion hi. by rewrite IH //; apply: Nat.lt_0_succ. Qed.
Lemma combine_first (f : bool -> node -> node) l :
  map (fun p => f (fst p =? 0) (snd p)) (combine (seq 0 (length l)) l) = map_first f l.
Proof. case: l => [|n l] //=. by rewrite combine_const //; apply: Nat.lt_0_succ. Qed.
Lemma combine_map (f : node -> node) : forall l i, map (fun p => f (snd p)) (combine (seq i (length l)) l) = map f l.
Proof. by elim=> [|n l IH] i //=; rewrite IH. Qed.

Lemma loop_first f body l l' : (forall t s, sn (slot_of (body t) s) = f (t =? 0) (sn s)) ->
  loop body l l' -> l' = map_first f l.
Proof.
move=> h [m [chunks [m' [ths [h1 h2 h3 h4 h5]]]]]; have [e _] := omp_run h2 h3 h4.
rewrite -h5 e (slots_map (f := fun t n => f (t =? 0) n) h) -h1.
have -> : length m = length (map sn m) by rewrite map_length.
exact: combine_first.
Qed.
Lemma loop_all f body l l' : (forall t s, sn (slot_of (body t) s) = f (sn s)) ->
  loop body l l' -> l' = map f l.
Proof.
move=> h [m [chunks [m' [ths [h1 h2 h3 h4 h5]]]]]; have [e _] := omp_run h2 h3 h4.
rewrite -h5 e (slots_map (f := fun t n => f n) h) -h1.
have -> : length m = length (map sn m) by rewrite map_length.
exact: combine_map.
Qed.

(** the two parallel passes give what the sequential order of their loops gives *)
Theorem cm_par_seq preg dreg s r : cm_backward_par preg dreg s r -> r = cm_backward c preg dreg s.
Proof. by move=> [l [h ->]]; rewrite (loop_first (init_alone dreg) h). Qed.
Theorem cfm_par_seq s r : cfm_backward_par s r -> r = cfm_backward c s.
Proof.
move=> [l1 [l2 [h1 h2 ->]]]; rewrite /cfm_backward.
by rewrite (loop_all gain_alone h2) (loop_first finit_alone h1).
Qed.

(** without MT statements the region cannot die, so it always completes *)
Definition no_throw (A : Type) (ops : list (mop pslot A)) : Prop :=
  forall s a, iter ops s a <> None.
Lemma accum_some (A : Type) (body : nat -> list (mop pslot A)) m ch a :
  (forall t, no_throw (body t)) -> (forall t, In t ch -> t < length m) -> accum body m ch a <> None.
Proof.
move=> hn; elim: ch a => [|t ch IH] a hl //=.
have := hl t (or_introl _ (eq_refl _)); move/nth_error_Some; case: (nth_error m t) => [s|] // _.
case e: (iter _ _ _) => [a'|]; last by case: (hn t s a).
by apply: IH => i hi; apply: hl; right.
Qed.
Definition fresh_slot (n : node) : pslot := @mkPslot n (vzero E) (vzero E) (mzero E) (mzero E).
Lemma fresh_slots l : map sn (map fresh_slot l) = l.
Proof. by elim: l => //= n l ->. Qed.
Lemma part_lt n chunks ch : partition n chunks -> In ch chunks -> forall t, In t ch -> t < n.
Proof.
move=> hp hc t ht; have : In t (concat chunks) by apply/in_concat; exists ch.
by move/(Permutation_in _ hp)/in_seq => [_].
Qed.
Lemma part_one n : partition n [seq 0 n].
Proof. by rewrite /partition /= app_nil_r. Qed.

(** every execution of these loops completes, whatever was scheduled so far *)
Theorem loop_never_stuck (A : Type) (body : nat -> list (mop pslot A)) a0 m chunks y :
  (forall t, no_throw (body t)) -> partition (length m) chunks ->
  psteps (fork body a0 chunks m) y -> exists m' ths, psteps y (Run m' ths) /\ finished ths.
Proof.
move=> hn hp; apply: omp_completes => // ch hc; apply: accum_some => //; exact: part_lt hp hc.
Qed.
Lemma loop_exists body l : (forall t, no_throw (body t)) -> exists l', loop body l l'.
Proof.
move=> hn; pose m := map fresh_slot l.
have [m' [ths [h1 h2]]] := @loop_never_stuck unit body tt m [seq 0 (length m)] _ hn (part_one _) (pss_refl _).
exists (map sn m'), m, [seq 0 (length m)], m', ths; split=> //; [exact: fresh_slots|exact: part_one].
Qed.
Lemma init_nt dreg t : no_throw (init_body unit dreg t). Proof. by []. Qed.
Lemma finit_nt t : no_throw (finit_body unit t). Proof. by []. Qed.
Lemma gain_nt t : no_throw (gain_body unit t). Proof. by []. Qed.
Lemma lag_nt b t : no_throw (lag_body b t). Proof. by move=> s a; rewrite lag_iter. Qed.

Theorem cm_par_iff preg dreg s r : cm_backward_par preg dreg s r <-> r = cm_backward c preg dreg s.
Proof.
split=> [|->]; first exact: cm_par_seq.
have [l hl] := loop_exists (run s) (fun t => @init_nt dreg t).
by exists l; split=> //; rewrite (loop_first (init_alone dreg) hl).
Qed.
Theorem cfm_par_iff s r : cfm_backward_par s r <-> r = cfm_backward c s.
Proof.
split=> [|->]; first exact: cfm_par_seq.
have [l1 h1] := loop_exists (run s) (fun t => @finit_nt t).
have [l2 h2] := loop_exists (cfm_nodes l1 (cf_term c (trm s))) (fun t => @gain_nt t).
exists l1, l2; split=> //; rewrite /cfm_backward.
by rewrite (loop_all gain_alone h2) (loop_first finit_alone h1).
Qed.
Lemma lag_par_nodes b l l' w : lag_par b l l' w -> l' = map (admm_node c) l.
Proof.
move=> [m [chunks [m' [ths [h1 h2 h3 h4 [h5 _]]]]]]; have [e _] := omp_run h2 h3 h4.
rewrite -h5 e (slots_map (f := fun _ n => admm_node c n) (lag_alone b)) -h1.
have -> : length m = length (map sn m) by rewrite map_length.
exact: combine_map.
Qed.

(** tryStep with the loop 1381-1405 executed in any way; [None]: the process was
    terminated by the exception thrown inside the parallel region.  The code after
    the loop is csqp.cpp:1407-1434. *)
Definition try_end (s : csqp M) (t : traj M) (l' : list node) (v : sums) : bool * csqp M :=
  let s1 := set_k_cont (snd v) (set_k_gapt (snd (fst v)) (set_k_costt (fst (fst v))
              (set_k_meritt (r0 E) (set_k_tr (mkTraj l' (trm t)) s)))) in
  let tn := set_tme (trm t) (tcalc (tm (trm t)) (txt (trm t))) in
  let cst := radd E (fst (fst v)) (tcost (tm tn) (tme tn)) in
  let g := tg (tm tn) (tme tn) in
  let con1 := radd E (snd v) (vl1 E (viol_lb E (tlb (tm tn)) g)) in
  let con2 := radd E con1 (vl1 E (viol_ub E (tub (tm tn)) g)) in
  let m := merit_of c (k_lagn s1) cst (snd (fst v)) con2 in
  let s2 := set_k_meritt m (set_k_cont con2 (set_k_costt cst (set_k_tr (mkTraj l' tn) s1))) in
  (negb (raiseIfNaN cst), s2).
Definition trial_states (t : traj M) (i : nat) : mX M :=
  nth i (map (fun n => pxt (pt n)) (run t) ++ [txt (trm t)]) (txt (trm t)).
Definition tryStep_par (a : R) (chunks : list (list nat)) (s : csqp M) (r : option (bool * csqp M)) : Prop :=
  if rgt a (r1 E) || rlt E a (r0 E) then r = Some (false, s)
  else let t := ctrial a (k_tr s) in
    match r with
    | None => try_region (trial_states t) chunks (run t) None
    | Some r' => exists l' v, try_region (trial_states t) chunks (run t) (Some (l', v)) /\ r' = try_end s t l' v
    end.
Lemma tryStep_seq a s : csqp_tryStep c a s =
  if rgt a (r1 E) || rlt E a (r0 E) then (false, s)
  else let t := ctrial a (k_tr s) in
    let r := ceval_nodes (run t) (trm t) (r0 E) (r0 E) (r0 E) in
    if fst (fst r) then try_end s t (snd (fst r)) (snd r)
    else (false, set_k_cont (snd (snd r)) (set_k_gapt (snd (fst (snd r))) (set_k_costt (fst (fst (snd r)))
              (set_k_meritt (r0 E) (set_k_tr (mkTraj (snd (fst r)) (trm t)) s))))).
Proof.
rewrite /csqp_tryStep; case: (_ || _) => //; cbv zeta.
by case: (ceval_nodes _ _ _ _ _) => [[[] l] v].
Qed.
End Par.
