(** * Every call of SolverPROXQP::solve is a run in the sense of PROXRunSpec. *)
From Coq Require Import ZArith List Arith Lia.
Set Warnings "-notation-overridden,-ambiguous-paths".
From mathcomp Require Import all_ssreflect all_algebra.
From Verif Require Import Eigen EigenExact Problem DDP Filter FilterProofs SQP CSQP Init TrialSpec TraceSpec Rounds
  SQPSpec CSQPSpec SQPTrial SQPLoop CSQPFrames CSQPTrial CSQPLoop PROXQP PROXSpec PROXSys PROXHist PROXRunSpec SsrLia.
From Verif Require History CSQPHist.

Set Implicit Arguments.
Unset Strict Implicit.
Unset Printing Implicit Defensive.

Import Order.TTheory GRing.Theory Num.Theory.
Local Open Scope ring_scope.

Section Run.
Variable F : realFieldType.
Variable sq : F -> F.
Notation E := (ExactE sq).
Variable M : manifold E.
Notation n := (mndx M).
Notation node := (node M).
Notation tnode := (tnode M).
Variable x0 : mX M.
Variable qp : forall N Me Mi : nat, 'M[F]_N -> 'cV[F]_N -> 'M[F]_(Me, N) -> 'cV[F]_Me ->
  'M[F]_(Mi, N) -> 'cV[option F]_Mi -> 'cV[option F]_Mi -> option ('cV[F]_N * 'cV[F]_Me * 'cV[F]_Mi).
Variable c : pcfg sq.
Notation dc := (pc_ddp c).
Notation pq_rule := (pq_rule M c).
Notation keeps := (@PROXHist.keeps F sq M).
Notation shape := (@PROXHist.shape F sq M).

(** ** calc *)
Definition pq_evaluated (s : pqs M) : Prop :=
  [/\ ccons (pq_tr s), pq_cost s = stored_cost (pq_tr s), pq_gap s = stored_gap (pq_tr s),
      pq_con s = stored_con (pq_tr s) & pq_merit s = pq_merit_fun c (pq_cost s) (pq_gap s) (pq_con s)].
Definition dummy (tr : traj M) : csqp M :=
  @mkCsqp E M tr (r0 E) (r0 E) (r0 E) (r0 E) (r0 E) (r0 E) (r0 E) (r0 E) (r0 E)
    (r0 E) (r0 E) (r0 E) (r0 E) (r0 E) 0 (r1 E) (new_buf E 0) (new_buf E 0) (new_buf E 0)
    (r0 E) (efin E (r0 E)) (mkNorms E (efin E (r0 E)) (efin E (r0 E)) (efin E (r0 E)) (efin E (r0 E)))
    (efin E (r0 E)) (efin E (r0 E)) 0 false 0 [::].
Lemma pcalcP (s : pqs M) : hd_fs (run (pq_tr s)) (trm (pq_tr s)) = vzero E ->
  [/\ pq_evaluated (pq_calc c s), epts (pq_tr s) (pq_tr (pq_calc c s)) & pq_tr (pq_calc c s) = creeval (pq_tr s)].
Proof.
move=> h; have [[e1 [e2 [e3 e4]]] [e5 [_ e6]]] := @calcP E M (dummy (pq_tr s)) h.
by split=> //; split.
Qed.
(** ** The results of the QP *)
Lemma extract_cp w p iu cnt x y z (k : seq node) tn :
  cpassed_traj (mkTraj k tn) (mkTraj (fst (pq_extract w p iu cnt x y z k tn)) (snd (pq_extract w p iu cnt x y z k tn))).
Proof.
elim: k p iu cnt => [|nd k IH] p iu cnt.
  by split; [constructor|do 11 eexists; reflexivity].
have [h1 h2] := IH p.+1 (iu + nu (nm nd))%N (cnt + ng (nm nd))%N.
split; last exact: h2.
constructor; last exact: h1.
apply: (@cpassed_trans E M nd (set_dir nd _)); [exact: cpassed_dir|exact: cpassed_adm].
Qed.
Definition rest_eq (s s' : pqs M) : Prop :=
  [/\ pq_preg s' = pq_preg s, pq_dreg s' = pq_dreg s, pq_iter s' = pq_iter s, pq_step s' = pq_step s
    & [/\ pq_costl s' = pq_costl s, pq_gapl s' = pq_gapl s & pq_conl s' = pq_conl s]].
(** computeDirection(true) *)
Lemma pdirP (s s' : pqs M) : hd_fs (run (pq_tr s)) (trm (pq_tr s)) = vzero E ->
  pq_direction qp c true s = PDok s' ->
  exists2 t : traj M, epts (pq_tr s) t /\ t = creeval (pq_tr s) & [/\ cpassed_traj t (pq_tr s'), pq_evaluated s' & rest_eq s s'].
Proof.
move=> hf; have [ev ep et] := pcalcP hf; rewrite /pq_direction.
case: (run (pq_tr s)) => // _ _; set s2 := set_p_KKT _ _.
case: (pq_ask qp s2) => [[[x y] z]|] // [<-].
exists (pq_tr (pq_calc c s)) => //.
have hcp : cpassed_traj (pq_tr (pq_calc c s)) (mkTraj (fst (pq_extract (neq (run (pq_tr s2))) 0 0 0 x y z (run (pq_tr s2)) (trm (pq_tr s2))))
   (snd (pq_extract (neq (run (pq_tr s2))) 0 0 0 x y z (run (pq_tr s2)) (trm (pq_tr s2))))).
  have := extract_cp (neq (run (pq_tr s2))) 0 0 0 x y z (run (pq_tr s2)) (trm (pq_tr s2)).
  by rewrite -[pq_tr (pq_calc c s)]/(pq_tr s2); case: (pq_tr s2).
case: ev => v1 v2 v3 v4 v5.
split=> //; split.
- refine (cp_cons hcp v1).
- by cbn [pq_tr set_p_tr]; rewrite (cp_cost hcp).
- by cbn [pq_tr set_p_tr]; rewrite (cp_gap hcp).
- by cbn [pq_tr set_p_tr]; rewrite (cp_con hcp).
- exact: v5.
Qed.
(** a failing backend keeps failing *)
Lemma pdir_throw (s s' : pqs M) : pq_direction qp c true s = PDthrow s' ->
  [/\ pq_ask qp s' = None, rest_eq s s', run (pq_tr s') <> [::] & pq_tr s' = pq_tr (pq_calc c s)].
Proof.
rewrite /pq_direction; case er: (run (pq_tr s)) => [//|nd k].
case ea: (pq_ask qp _) => [[[x y] z]|] // [<-]; split=> //.
have [+ _] := @shape_len F sq M _ _ (@calc_shape F sq M c s).
by rewrite er; cbn [pq_tr set_p_KKT]; case: (run (pq_tr (pq_calc c s))).
Qed.
Lemma retry_throw fuel (s : pqs M) : pq_ask qp s = None -> run (pq_tr s) <> [::] ->
  match pq_retry qp c fuel false s with
  | PRfalse s' => [/\ pq_tr s' = pq_tr s, pq_ask qp s' = None, pq_preg s' = c_rmax dc :> F, pq_dreg s' = pq_preg s'
                    & pq_iter s' = pq_iter s]
  | PRfuel => True
  | _ => False
  end.
Proof.
elim: fuel s => [//|f IH] s ha hr; cbn [pq_retry]; rewrite /pq_direction.
case er: (run (pq_tr s)) hr => [//|nd k] _; cbv zeta.
have -> : pq_ask qp (set_p_KKT s (pq_check (pq_con s) (pq_tr s))) = None by [].
case: eqP => [e|_]; first by [].
have := IH (pq_inc c (set_p_KKT s (pq_check (pq_con s) (pq_tr s)))); cbn [pq_tr pq_inc set_p_reg set_p_KKT].
move=> h; have := h ha; rewrite er => /(_ ltac:(by [])).
by case: (pq_retry _ _ _ _ _).
Qed.
Lemma pretryP fuel (s : pqs M) :
  match pq_retry qp c fuel true s with
  | PRok s' => pq_direction qp c true s = PDok s'
  | PRfalse s' => [/\ pq_tr s' = pq_tr (pq_calc c s), pq_ask qp s' = None, pq_preg s' = c_rmax dc :> F, pq_dreg s' = pq_preg s'
                    & pq_iter s' = pq_iter s]
  | PRub => run (pq_tr s) = [::]
  | PRfuel => True
  end.
Proof.
case: fuel => [//|f]; cbn [pq_retry]; case ed: (pq_direction qp c true s) => [s1|s1|] //.
  have [h1 [h2 h3 h4 h5 _] h6 h7] := pdir_throw ed.
  case: eqP => [e|_]; first by split=> //.
  have := @retry_throw f (pq_inc c s1) h1 h6; case: (pq_retry _ _ _ _ _) => // s' [-> ? ? ? ->].
  by split.
by move: ed; rewrite /pq_direction; case: (run (pq_tr s)) => // nd k; case: (pq_ask _ _) => [[[? ?] ?]|].
Qed.

(** ** The line search *)
Record pframe (s s' : pqs M) : Prop := mkPframe {
  pf_tr : touched_traj (pq_tr s) (pq_tr s');
  pf_preg : pq_preg s' = pq_preg s; pf_dreg : pq_dreg s' = pq_dreg s;
  pf_cost : pq_cost s' = pq_cost s; pf_gap : pq_gap s' = pq_gap s; pf_con : pq_con s' = pq_con s;
  pf_merit : pq_merit s' = pq_merit s; pf_KKT : pq_KKT s' = pq_KKT s; pf_iter : pq_iter s' = pq_iter s;
  pf_costl : pq_costl s' = pq_costl s; pf_gapl : pq_gapl s' = pq_gapl s; pf_conl : pq_conl s' = pq_conl s }.
Lemma pframe_refl s : pframe s s. Proof. split=> //; exact: touched_traj_refl. Qed.
Lemma pframe_trans s1 s2 s3 : pframe s1 s2 -> pframe s2 s3 -> pframe s1 s3.
Proof.
move=> [h1 a1 a2 a3 a4 a5 a6 a7 a8 a9 a10 a11] [k1 b1 b2 b3 b4 b5 b6 b7 b8 b9 b10 b11].
split; [exact: touched_traj_trans h1 k1| | | | | | | | | | |]; congruence.
Qed.
Notation trial_cost := (@trial_cost E M). Notation trial_gap := (@trial_gap E M). Notation trial_con := (@trial_con E M).
Notation trial_ok := (@trial_ok E M).
Notation trial_traj := (@trial_traj E M).
Definition pq_trial_merit (s : pqs M) (a : F) : F :=
  pq_merit_fun c (trial_cost a (pq_tr s)) (trial_gap a (pq_tr s)) (trial_con a (pq_tr s)).
Lemma ptryStepP a (s : pqs M) :
  let r := pq_tryStep c a s in
  [/\ fst r = trial_ok a (pq_tr s), pframe s (snd r), pq_step (snd r) = pq_step s
    & fst r = true -> [/\ pq_tr (snd r) = trial_traj a (pq_tr s), pq_costt (snd r) = trial_cost a (pq_tr s),
       pq_gapt (snd r) = trial_gap a (pq_tr s), pq_cont (snd r) = trial_con a (pq_tr s)
     & pq_meritt (snd r) = pq_trial_merit s a]].
Proof.
rewrite /pq_tryStep /TrialSpec.trial_ok /step_in_range.
have -> : (rgt (E := E) a (r1 E) || rlt E a (r0 E)) = (1 < a) || (a < 0) by [].
case: (_ || _).
  by split=> //; exact: pframe_refl.
have := @ceval_nodesP E M a (run (pq_tr s)) (trm (pq_tr s)) (r0 E) (r0 E) (r0 E).
rewrite -[List.map (@ctrial_node E M a) (run (pq_tr s))]/(run (@ctrial E M a (pq_tr s))).
rewrite -[@ctx E M a (trm (pq_tr s))]/(trm (@ctrial E M a (pq_tr s))).
set r := ceval_nodes _ _ _ _ _; cbv zeta => -[h1 [h2 h3]].
rewrite -h2; cbn [negb andb].
have ht tn : ttouched (trm (pq_tr s)) tn -> touched_traj (pq_tr s) (mkTraj (snd (fst r)) tn) by move=> ?; split.
case hok: (fst (fst r)); cbn [negb andb fst snd].
- have [hm [hc [hg hk]]] := h3 hok.
  set tn := set_tme _ _.
  have etn : tn = @trial_tnode E M a (trm (pq_tr s)) by [].
  have {}ht := ht _ (@ttouched_trial E M a (trm (pq_tr s))).
  rewrite -etn in ht; rewrite hc hg hk.
  split=> //.
  by move=> _; split=> //; cbn [pq_tr set_p_try set_p_tr]; rewrite etn hm.
- split=> //; split=> //; apply: ht.
  by exists (@trial_tx E M a (trm (pq_tr s))), (tme (trm (pq_tr s))); rewrite /ctrial /= /trial_tx; case: (trm (pq_tr s)).
Qed.

(** verdict of the acceptance test on the trial of step length [a] *)
Definition pverdict (s : pqs M) (a : F) : option bool :=
  if pc_filter c then
    match filter_worse (fun i => match cb_get (pq_costl s) i, cb_get (pq_gapl s) i, cb_get (pq_conl s) i with
                                 | Some ci, Some gi, Some hi =>
                                     Some ((ci <= trial_cost a (pq_tr s)) && (gi <= trial_gap a (pq_tr s)) && (hi <= trial_con a (pq_tr s)))
                                 | _, _, _ => None
                                 end) (pc_fsize c) (pq_iter s) with
    | None => None
    | Some w => Some (~~ w)
    end
  else Some (pq_trial_merit s a < pq_merit s).
Definition ppasses (s : pqs M) (a : F) : bool :=
  trial_ok a (pq_tr s) && match pverdict s a with Some b => b | None => false end.
Lemma pmerit_frame s s' a : pframe s s' -> pq_trial_merit s' a = pq_trial_merit s a.
Proof. by move=> h; have ht := pf_tr h; rewrite /pq_trial_merit (@trial_cost_t E M a _ _ ht) (@trial_gap_t E M a _ _ ht) (@trial_con_t E M a _ _ ht). Qed.
Lemma pverdict_frame s s' a : pframe s s' -> pverdict s' a = pverdict s a.
Proof.
move=> h; have ht := pf_tr h.
by rewrite /pverdict (pmerit_frame a h) (@trial_cost_t E M a _ _ ht) (@trial_gap_t E M a _ _ ht) (@trial_con_t E M a _ _ ht)
  (pf_costl h) (pf_gapl h) (pf_conl h) (pf_iter h) (pf_merit h).
Qed.
Lemma ppasses_frame s s' a : pframe s s' -> ppasses s' a = ppasses s a.
Proof. by move=> h; rewrite /ppasses (pverdict_frame a h) (@trial_ok_t E M a _ _ (pf_tr h)). Qed.
Lemma pframe_step s a : pframe s (set_p_step s a).
Proof. split=> //; exact: touched_traj_refl. Qed.

(** the outcome of the search from [s] *)
Inductive searched (al : seq F) (s s' : pqs M) : Prop :=
| S_acc pre a post s1 t1 : al = (pre ++ a :: post)%list -> List.Forall (fun b => ppasses s b = false) pre ->
    ppasses s a = true -> pframe s s1 -> s' = set_p_tr s1 (accept_try (pq_tr s1)) ->
    touched_traj (pq_tr s) t1 -> pq_tr s1 = trial_traj a t1 -> pq_step s' = a -> searched al s s'
| S_none : List.Forall (fun b => ppasses s b = false) al -> pframe s s' -> pq_step s' = List.last al (pq_step s) ->
    searched al s s'.
Lemma psearchP al : forall s,
  match pq_search c al s with
  | Some s' => searched al s s'
  | None => exists a, List.In a al /\ trial_ok a (pq_tr s) = true /\ pverdict s a = None
  end.
Proof.
elim: al => [|a al IH] s; first by apply: S_none => //; exact: pframe_refl.
cbn [pq_search]; have := ptryStepP a (set_p_step s a).
set r := pq_tryStep c a (set_p_step s a); cbv zeta.
case er: r => [ok s1]; cbn [fst snd] => -[hok hf hst hv].
have hf1 : pframe s s1 by apply: pframe_trans hf; exact: pframe_step.
have rec : ppasses s a = false ->
  match pq_search c al s1 with
  | Some s' => searched (a :: al) s s'
  | None => exists b, List.In b (a :: al) /\ trial_ok b (pq_tr s) = true /\ pverdict s b = None
  end.
  move=> hp; have := IH s1; case: (pq_search c al s1) => [s'|].
  - case=> [pre b post s2 t2 e1 e2 e3 e4 e5 e6 e7 e8|e1 e2 e3].
    + apply: (@S_acc _ _ _ (a :: pre) b post s2 t2) => //.
      * by rewrite e1.
      * by constructor=> //; apply: List.Forall_impl e2 => d; rewrite (ppasses_frame _ hf1).
      * by rewrite -(ppasses_frame _ hf1).
      * exact: pframe_trans hf1 e4.
      * exact: touched_traj_trans (pf_tr hf1) e6.
    + apply: S_none.
      * by constructor=> //; apply: List.Forall_impl e1 => d; rewrite (ppasses_frame _ hf1).
      * exact: pframe_trans hf1 e2.
      * by rewrite e3 hst last_cons.
  - move=> [b [h1 [h2 h3]]]; exists b; split; first by right.
    by rewrite -(@trial_ok_t E M b _ _ (pf_tr hf1)) -(pverdict_frame b hf1).
case: ok er hok hv => er hok hv; last by apply: rec; rewrite /ppasses -[pq_tr s]/(pq_tr (set_p_step s a)) -hok.
have [htr hc hg hk hm] := hv erefl.
have hacc : pq_accept c s1 = pverdict s a.
  rewrite -(pverdict_frame a hf1) /pq_accept /pverdict /pq_dominated hc hg hk hm.
  have -> : pq_trial_merit (set_p_step s a) a = pq_trial_merit s a by [].
  by rewrite (pmerit_frame a hf1) (@trial_cost_t E M a _ _ (pf_tr hf1)) (@trial_gap_t E M a _ _ (pf_tr hf1)) (@trial_con_t E M a _ _ (pf_tr hf1)).
rewrite hacc; case ha: (pverdict s a) => [[]|].
- apply: (@S_acc _ _ _ [::] a al s1 (pq_tr s)) => //.
  + by rewrite /ppasses -[pq_tr s]/(pq_tr (set_p_step s a)) -hok ha.
  + exact: touched_traj_refl.
- by apply: rec; rewrite /ppasses ha andbF.
- by exists a; split; [left|split].
Qed.

(** ** The invariant of the loop; [s0] is the state solve starts the loop from *)
Variables (s0 : pqs M) (p0 : F).
Notation zok := (zero_ok (c_alphas dc) x0).
Notation pround := (round M).
Definition pbufs : Prop :=
  [/\ holds (pc_fsize c) [::] (pq_costl s0), holds (pc_fsize c) [::] (pq_gapl s0) & holds (pc_fsize c) [::] (pq_conl s0)].
Definition pround_wf (r : pround) : Prop :=
  [/\ ccons (r_tr r), r_cost r = stored_cost (r_tr r), r_gap r = stored_gap (r_tr r), r_con r = stored_con (r_tr r)
    & r_merit r = pq_merit_fun c (r_cost r) (r_gap r) (r_con r)] /\
  (exists s1 s2 : pqs M, [/\ pq_direction qp c true s1 = PDok s2, r_tr r = pq_tr s2, r_kkt r = pq_KKT s2
        & (c_tol dc : F) < r_kkt r]) /\
  shape (r_tr r) = shape (pq_tr s0).
Definition go_ok (q : F * F) : Prop := snd q <= (c_stepinc dc : F) -> fst q <> (c_rmax dc : F).
Record pinv (rs : seq pround) (s : pqs M) : Prop := mkPinv {
  i_shape : shape (pq_tr s) = shape (pq_tr s0);
  i_x : zok -> hd_x (run (pq_tr s)) (trm (pq_tr s)) = x0;
  i_buf : pbufs -> [/\ holds (pc_fsize c) (List.rev (List.map (@r_cost E M) rs)) (pq_costl s),
                       holds (pc_fsize c) (List.rev (List.map (@r_gap E M) rs)) (pq_gapl s)
                     & holds (pc_fsize c) (List.rev (List.map (@r_con E M) rs)) (pq_conl s)];
  i_searched : (pc_filter c = true -> pbufs) -> rounds_searched pq_rule rs;
  i_carried : values_carried rs;
  i_wf : List.Forall pround_wf rs;
  i_cand : iterates (get_xs (pq_tr s0)) (get_us (pq_tr s0)) rs (get_xs (pq_tr s)) (get_us (pq_tr s));
  i_reg : (pq_preg s, pq_step s) = reg_path c p0 (pq_step s0) rs;
  i_dreg : pq_dreg s = pq_preg s;
  i_go : forall i r, List.nth_error rs i = Some r -> (S i < List.length rs)%coq_nat ->
      go_ok (reg_path c p0 (pq_step s0) (List.firstn (S i) rs));
  i_last : forall a, last_acc rs = Some a -> exists t : traj M,
     [/\ pq_tr s = accept_try (trial_traj (a_step a) t), a_cost a = trial_cost (a_step a) t,
         a_gap a = trial_gap (a_step a) t & a_con a = trial_con (a_step a) t]
}.
Hypothesis fs0 : hd_fs (run (pq_tr s0)) (trm (pq_tr s0)) = vzero E.
Hypothesis dx0 : hd_dx (run (pq_tr s0)) (trm (pq_tr s0)) = vzero E.
Lemma shape_fs (t : traj M) : shape t = shape (pq_tr s0) -> hd_fs (run t) (trm t) = vzero E.
Proof. by case=> _ _ _ ->. Qed.
Lemma shape_dx (t : traj M) : shape t = shape (pq_tr s0) -> hd_dx (run t) (trm t) = vzero E.
Proof. by case=> _ _ -> _. Qed.

Lemma reg_path_snoc p st (rs : seq pround) r : let q := reg_path c p st rs in
  reg_path c p st (rs ++ [:: r])%list = (reg_after c (step_after c (snd q) r) (fst q), step_after c (snd q) r).
Proof. by elim: rs p st => //= r' rs IH p st; rewrite IH. Qed.
Lemma shape_touched (t t' : traj M) : touched_traj t t' -> shape t' = shape t.
Proof.
move=> [h [xt [m e]]]; rewrite /PROXHist.shape e; congr (_, (_, (_, _))).
- by elim: h => //= nd nd' k k' [? [? [? [_ ->]]]] _ ->.
- by case: h => //= nd nd' k k' [? [? [? [_ ->]]]] _.
- by case: h => //= nd nd' k k' [? [? [? [_ ->]]]] _.
Qed.
Lemma shape_accept (t : traj M) : shape (accept_try t) = shape t.
Proof. exact: (@shape_map F sq M _ t). Qed.

Section Body.
Variables (rs : seq pround) (s s1 : pqs M).
Hypothesis hi : pinv rs s.
Hypothesis ei : pq_iter s = List.length rs.
Hypothesis hd : pq_direction qp c true s = PDok s1.
Hypothesis htol : (c_tol dc : F) < pq_KKT s1.
Notation sp := (pq_push s1).
Definition p_round (acc : option (accepted E)) : pround :=
  @mkRound E M (pq_tr s1) (pq_KKT s1) (pq_merit s1) (pq_step s1) (pq_cost s1) (pq_gap s1) (pq_con s1) (pq_merit s1) acc.
Lemma body_facts : [/\ pq_evaluated s1, rest_eq s s1, shape (pq_tr s1) = shape (pq_tr s0)
  & [/\ get_xs (pq_tr s1) = get_xs (pq_tr s), get_us (pq_tr s1) = get_us (pq_tr s),
        hd_x (run (pq_tr s1)) (trm (pq_tr s1)) = hd_x (run (pq_tr s)) (trm (pq_tr s))
      & forall a, last_acc rs = Some a -> [/\ pq_cost s1 = a_cost a, pq_gap s1 = a_gap a & pq_con s1 = a_con a]]].
Proof.
have hf := shape_fs (i_shape hi).
have [t [ep et] [cp ev re]] := pdirP hf hd.
have [x1 u1] := cp_xs cp.
have [hk _] : keeps s s1 by have := @keeps_direction F sq M qp c true s; rewrite hd.
split=> //; first by rewrite hk (i_shape hi).
split.
- by rewrite x1 (ep_xs ep).
- by rewrite u1 (ep_us ep).
- by rewrite (cp_hd_x (proj1 cp) (proj2 cp)) (ep_x ep).
- move=> a ha; have [t' [e1 e2 e3 e4]] := i_last hi ha.
  have [_ v1 v2 v3 _] := ev; rewrite v1 v2 v3 (cp_cost cp) (cp_gap cp) (cp_con cp) et e1.
  by have [-> [-> ->]] := @carried_values E M (a_step a) t'; rewrite e2 e3 e4.
Qed.
Lemma bufs_push' acc : pbufs ->
  [/\ holds (pc_fsize c) (List.rev (List.map (@r_cost E M) (rs ++ [:: p_round acc])%list)) (pq_costl sp),
      holds (pc_fsize c) (List.rev (List.map (@r_gap E M) (rs ++ [:: p_round acc])%list)) (pq_gapl sp)
    & holds (pc_fsize c) (List.rev (List.map (@r_con E M) (rs ++ [:: p_round acc])%list)) (pq_conl sp)].
Proof.
move=> hb; have [h1 h2 h3] := i_buf hi hb; have [_ [_ _ _ _ [e1 e2 e3]] _ _] := body_facts.
rewrite !List.map_app !List.rev_app_distr /pq_push; cbn [List.map List.rev List.app pq_costl pq_gapl pq_conl set_p_lists].
by rewrite e1 e2 e3; split; apply: holds_push.
Qed.
Lemma iter_push : pq_iter sp = List.length rs.
Proof. by have [_ [_ _ e _ _] _ _] := body_facts; rewrite -ei -e. Qed.
Lemma pverdictE acc a : (pc_filter c = true -> pbufs) ->
  pverdict sp a = Some (if pc_filter c
        then ~~ (List.existsb (dominates pq_rule (trial_of pq_rule (pq_tr s1) a)) (recent (pc_fsize c) (rs ++ [:: p_round acc])%list))
        else rlt E (a_merit (trial_of pq_rule (pq_tr s1) a)) (pq_merit s1)).
Proof.
move=> hb; rewrite /pverdict; case hf: (pc_filter c) => //.
set test := fun i : nat => _; have [b1 b2 b3] := bufs_push' acc (hb hf).
have -> : filter_worse test (pc_fsize c) (pq_iter sp) =
    Some (List.existsb (dominates pq_rule (trial_of pq_rule (pq_tr s1) a)) (recent (pc_fsize c) (rs ++ [:: p_round acc])%list)).
  apply: (@accept_spec E M pq_rule rs (p_round acc)); first by rewrite iter_push.
  move=> k rk hk hr; rewrite /test (holds_recent b1 hk hr) (holds_recent b2 hk hr) (holds_recent b3 hk hr).
  by rewrite /dominates.
by [].
Qed.
Lemma ppassesE acc a : (pc_filter c = true -> pbufs) -> ppasses sp a = admissible pq_rule rs (p_round acc) a.
Proof. by move=> hb; rewrite /ppasses (pverdictE acc a hb). Qed.
Lemma wf_round acc : pround_wf (p_round acc).
Proof.
have [[v1 v2 v3 v4 v5] _ hsh _] := body_facts; split; first by split.
by split; [exists s, s1; split|].
Qed.
(** the round ends with [s2], up to the regularisation *)
Lemma body_inv s2 p : searched (c_alphas dc) sp s2 -> (rs = [::] \/ go_ok (pq_preg s, pq_step s)) ->
  p = reg_after c (pq_step s2) (pq_preg s2) -> 
  exists r, pinv (rs ++ [:: r])%list (set_p_reg s2 p p).
Proof.
have [ev [r1 r2 r3 r4 [r5 r6 r7]] hsh [gx gu hx hl]] := body_facts.
move=> hs hgo ep.
suff [acc [t1 [e1 e2 e3]]] : exists acc, exists t1 : traj M,
   [/\ touched_traj (pq_tr s1) t1,
       [/\ pq_tr s2 = (if acc is Some a then accept_try (trial_traj (a_step a) t1) else t1),
           (pc_filter c = true -> pbufs) -> acc = option_map (trial_of pq_rule (pq_tr s1)) (List.find (admissible pq_rule rs (p_round acc)) (c_alphas dc)),
           pq_step s2 = step_after c (pq_step s) (p_round acc)
         & (if acc is Some a then List.In (a_step a) (c_alphas dc) /\ step_in_range (E := E) (a_step a) = true /\ a = trial_of pq_rule (pq_tr s1) (a_step a) else True)]
     & [/\ pq_preg s2 = pq_preg s & [/\ pq_costl s2 = pq_costl sp, pq_gapl s2 = pq_gapl sp & pq_conl s2 = pq_conl sp]]].
  case: e2 => etr hfind hst hacc; case: e3 => epr [f1 f2 f3].
  exists (p_round acc).
  have htrs : shape (pq_tr s2) = shape (pq_tr s0).
    rewrite -hsh -(shape_touched e1) etr; case: (acc) => [a|] //.
    by rewrite shape_accept (shape_touched (@touched_trial_traj E M (a_step a) t1)).
  split; cbn [pq_tr pq_costl pq_gapl pq_conl pq_preg pq_dreg pq_step set_p_reg] => //.
  - move=> hz; rewrite etr; move: hacc; case: (acc) => [a [hin [hr _]]|_]; last by rewrite (hd_x_t e1) hx (i_x hi hz).
    have hdx : hd_dx (run t1) (trm t1) = vzero E by rewrite (hd_dx_t e1); apply: shape_dx hsh.
    have hxx : hd_x (run t1) (trm t1) = x0 by rewrite (hd_x_t e1) hx (i_x hi hz).
    have hz1 := proj1 hz _ hin hr.
    by move: hdx hxx; cbn [accept_try trial_traj run trm]; case: (run t1) => [|nd k] /= hdx hxx; rewrite /trial_tx /trial_x hdx hxx hz1.
  - by move=> hb; rewrite f1 f2 f3; exact: bufs_push'.
  - move=> hb; apply: searched_snoc; first exact: (i_searched hi).
    exact: hfind.
  - apply: carried_snoc; first exact: i_carried hi.
    by move=> a /hl [].
  - apply/List.Forall_app; split; first exact: i_wf hi.
    by constructor=> //; exact: wf_round.
  - have := @iterates_snoc E M rs (p_round acc) (get_xs (pq_tr s0)) (get_us (pq_tr s0)).
    rewrite /next_xs /next_us /p_round; cbn [r_acc r_tr]; rewrite gx gu => h.
    have {}h := h (i_cand hi); rewrite etr; move: h; case: (acc) => [a|].
      by rewrite (get_xs_accept (E := E)) (get_us_accept (E := E)) (@trial_xs_t E M (a_step a) _ _ e1) (@trial_us_t E M (a_step a) _ _ e1).
    by rewrite (get_xs_t e1) (get_us_t e1) gx gu.
  - rewrite reg_path_snoc -(i_reg hi); cbn [fst snd].
    by rewrite -hst ep epr.
  - move=> i r hin; rewrite List.app_length; cbn [List.length] => hlt.
    rewrite firstn_snoc; last by slia.
    have hi' : (S i <= List.length rs)%coq_nat by slia.
    case: (Nat.eq_dec (S i) (List.length rs)) => e.
      rewrite e List.firstn_all -(i_reg hi); case: hgo => // hrs.
      by rewrite hrs in e.
    have hlt' : (S i < List.length rs)%coq_nat by slia.
    have [r' hr'] : exists r', List.nth_error rs i = Some r'.
      case en: (List.nth_error rs i) => [r'|]; first by exists r'.
      by move/List.nth_error_None: en => ?; slia.
    exact: (i_go hi hr' hlt').
  - move=> a; rewrite last_acc_snoc; cbn [p_round r_acc] => ea.
    move: etr hacc; rewrite ea => etr [_ [_ ha]]; exists t1; split=> //.
    + by rewrite (@trial_cost_t E M (a_step a) _ _ e1) {1}ha.
    + by rewrite (@trial_gap_t E M (a_step a) _ _ e1) {1}ha.
    + by rewrite (@trial_con_t E M (a_step a) _ _ e1) {1}ha.
case: hs => [pre a post s2' t1 hal hpre hpass hf hs2 ht1 htr hst|hal hf hst].
- exists (Some (trial_of pq_rule (pq_tr s1) a)), t1; split.
  + exact: ht1.
  + split.
    * by rewrite hs2; cbn [pq_tr set_p_tr]; rewrite htr.
    * move=> hb; rewrite hal (@find_first _ _ pre a post) //.
        by apply: List.Forall_impl hpre => b; rewrite (@ppassesE (Some (trial_of pq_rule (pq_tr s1) a))).
      by rewrite -(@ppassesE (Some (trial_of pq_rule (pq_tr s1) a))).
    * by rewrite hst.
    * split; first by rewrite hal; apply: List.in_or_app; right; left.
      split=> //; move: hpass; rewrite /ppasses /TrialSpec.trial_ok; cbn [a_step trial_of].
      by case: (step_in_range _).
  + rewrite hs2; cbn [pq_preg pq_costl pq_gapl pq_conl set_p_tr].
    by rewrite (pf_preg hf) (pf_costl hf) (pf_gapl hf) (pf_conl hf).
- exists None, (pq_tr s2); split.
  + exact: (pf_tr hf).
  + split=> //.
    * move=> hb; rewrite find_none' //.
      by apply: List.Forall_impl hal => b; rewrite (@ppassesE None).
    * by rewrite hst; cbn [step_after p_round r_acc pq_step pq_push set_p_lists]; rewrite r4.
  + by rewrite (pf_preg hf) (pf_costl hf) (pf_gapl hf) (pf_conl hf).
Qed.
End Body.
End Run.
