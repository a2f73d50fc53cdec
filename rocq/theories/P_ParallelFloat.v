(** * What the parallel loop of SolverCSQP::tryStep can do in binary64: C38
    (negative results).  See P_Parallel.v for the exact results. *)
From Coq Require Import ZArith List Bool Arith Permutation SpecFloat Lia.
From Verif Require Import Eigen EigenFloat Problem DDP Filter SQP CSQP Init Models FloatWitness OMP ParLoops.
Import ListNotations.
Set Implicit Arguments.
Set Asymmetric Patterns.

Section AnyE.
Variable E : Eig.
Variable M : manifold E.
Variable c : ccfg E.

(** an execution that completes exists when no thread throws; the private sums
    are those of the threads *)
Lemma region_exists (xt : nat -> mX M) chunks l accs v : partition (length l) chunks ->
  map (fun ch => accum (try_body xt) l ch (sums0 E)) chunks = map (@Some _) accs ->
  combined (@sums_add E) (sums0 E :: accs) v ->
  try_region xt chunks l (Some (map (fun n => ceval_node n) l, v)).
Proof.
  intros hp he hv. split; [exact hp|].
  assert (hn : forall ch, In ch chunks -> accum (try_body xt) l ch (sums0 E) <> None).
  { intros ch hc hno. assert (hi := in_map (fun ch => accum (try_body xt) l ch (sums0 E)) _ _ hc).
    rewrite he, hno in hi. apply in_map_iff in hi. destruct hi as [x [hx _]]. discriminate. }
  destruct (omp_completes hp hn (pss_refl _)) as [m [ths [h1 h2]]].
  destruct (omp_run hp h1 h2) as [em ea].
  assert (gen : forall i k, slots_from (try_body xt) i k = map (fun n => ceval_node n) k).
  { intros i k. revert i. induction k as [|n k IH]; intros i; cbn [slots_from map]; [reflexivity|]. rewrite IH. reflexivity. }
  rewrite gen in em. subst m. exists ths. repeat split; try assumption.
  rewrite he in ea.
  assert (e2 : map (@th_acc _ _) ths = accs).
  { clear -ea. revert accs ea. induction ths as [|th ths IH]; intros [|a accs] h; try discriminate; [reflexivity|].
    cbn in h. injection h as h1 h2. cbn. rewrite h1. f_equal. apply IH. exact h2. }
  rewrite e2. exact hv.
Qed.

(** every schedule has an outcome (so the statements about [tryStep_par] are
    about something) *)
Lemma combined_exists (A : Type) (op : A -> A -> A) a (l : list A) : exists v, combined op (a :: l) v.
Proof.
  induction l as [|b l [v IH]] using rev_ind; [exists a; constructor|].
  exists (op v b). apply (co_two (l1 := a :: l) (l2 := [b])); [exact IH|constructor|apply Permutation_refl].
Qed.
Theorem C38_every_schedule_has_an_outcome (a : R E) chunks (s : csqp M) :
  partition (length (run (ctrial a (k_tr s)))) chunks -> exists r, tryStep_par c a chunks s r.
Proof.
  intros hp. unfold tryStep_par. destruct (_ || _); [exists (Some (false, s)); reflexivity|]. cbv zeta.
  set (t := ctrial a (k_tr s)) in *.
  assert (hd : (exists ch, In ch chunks /\ accum (try_body (trial_states t)) (run t) ch (sums0 E) = None) \/
               (exists accs, map (fun ch => accum (try_body (trial_states t)) (run t) ch (sums0 E)) chunks = map (@Some _) accs)).
  { clear hp. induction chunks as [|ch chs IH]; [right; exists []; reflexivity|].
    destruct IH as [[ch' [h1 h2]]|[accs h]]; [left; exists ch'; split; [right; exact h1|exact h2]|].
    destruct (accum (try_body (trial_states t)) (run t) ch (sums0 E)) as [u|] eqn:e.
    - right. exists (u :: accs). cbn [map]. rewrite e, h. reflexivity.
    - left. exists ch. split; [left; reflexivity|exact e]. }
  destruct hd as [[ch [h1 h2]]|[accs h]].
  - exists None. split; [exact hp|]. exact (omp_dies hp h1 h2 (pss_refl _)).
  - destruct (combined_exists (@sums_add E) (sums0 E) accs) as [v hv].
    exists (Some (try_end c s t (map (fun n => ceval_node n) (run t)) v)).
    exists (map (fun n => ceval_node n) (run t)), v. split; [|reflexivity].
    exact (@region_exists (trial_states t) chunks (run t) accs v hp h hv).
Qed.

(** C38, negative result in every arithmetic: when the cost of some node of the
    trial is such that adding it to anything raises (NaN in binary64), no
    execution of the parallel tryStep returns: the exception is thrown inside the
    parallel region and terminates the process.  (The sequential loop returns to
    the line search, which rejects the trial: [csqp_tryStep].) *)
Theorem C38_nan_trial_kills_process (a : R E) chunks (s : csqp M) r (n : node M) :
  rgt a (r1 E) || rlt E a (r0 E) = false ->
  In n (run (ctrial a (k_tr s))) ->
  (forall x, raiseIfNaN (radd E x (acost (nm n) (acalc (nm n) (pxt (pt n)) (put (pt n))))) = true) ->
  tryStep_par c a chunks s r -> r = None.
Proof.
  intros ha hin hbad. unfold tryStep_par. rewrite ha. cbv zeta.
  set (t := ctrial a (k_tr s)) in *.
  destruct r as [r'|]; [|reflexivity]. intros [l' [v [hreg _]]].
  destruct hreg as [hp [ths [h1 h2 _]]]. exfalso.
  apply In_nth_error in hin. destruct hin as [i hi].
  assert (hic : In i (concat chunks)).
  { apply (Permutation_in _ (Permutation_sym hp)). apply in_seq. split; [lia|].
    apply nth_error_Some. congruence. }
  apply in_concat in hic. destruct hic as [ch [hch hic]].
  refine (omp_throws hp hch _ h1 h2).
  assert (gen : forall u, accum (try_body (trial_states t)) (run t) ch u = None); [|apply gen].
  clear hch. induction ch as [|j ch IH]; intros u; [destruct hic|]. cbn [accum].
  destruct hic as [->|hic].
  - rewrite hi. cbn [iter try_body]. cbn [fst snd].
    change (mem (ceval_node n)) with (acalc (nm n) (pxt (pt n)) (put (pt n))).
    change (nm (ceval_node n)) with (nm n). rewrite hbad. reflexivity.
  - destruct (nth_error (run t) j) as [x|]; [|reflexivity].
    destruct (iter _ _ _); [apply IH; exact hic|reflexivity].
Qed.
End AnyE.

(** a node without controls and constraints whose cost is the constant [k] *)
Definition cmodel (k : f64) : amodel F1 :=
  @mkAmodel FloatE F1 0 0 0 unit (fun _ _ => tt) (fun _ => tt) (fun _ => k) (fun _ => v1 f0) (fun _ => tt)
    (fun _ _ _ => @mkDerivs FloatE F1 0 0 (v1 f0) tt (m1 f0) (tt, tt) tt (m1 f0) (tt, tt) tt tt) tt tt.
Definition ctm : tmodel F1 :=
  @mkTmodel FloatE F1 0 0 unit (fun _ => tt) (fun _ => f0) (fun _ => tt)
    (fun _ _ => @mkTderivs FloatE F1 0 (v1 f0) (m1 f0) tt) tt tt.
Definition cslot (k : f64) : slot F1 := @mkSlot FloatE F1 (cmodel k) tt (adiff (cmodel k) tt (v1 f0) tt) tt tt.
Definition ctslot : tslot F1 := @mkTslot FloatE F1 ctm tt (tdiff ctm tt (v1 f0)) tt tt.
Definition big16 : f64 := z (10 ^ 16).
Definition s3 : csqp F1 :=
  set_k_merit (rlit FloatE 1 2) (new_csqp (M := F1) (v1 f0) [cslot (z 1); cslot big16; cslot (SFopp big16)] ctslot 1 f1).
(** default parameters, merit-function line search *)
Definition merit_cfg : ccfg FloatE :=
  let d := default_ccfg FloatE 0 true in
  mkCcfg (cc_ddp d) (cc_mu d) (cc_mucon d) (cc_lagcoef d) false (cc_fsize d) (cc_extra d) (cc_sigma d) (cc_alpha d)
    (cc_maxqp d) (cc_rhobase d) (cc_rhomin d) (cc_rhomax d) (cc_interval d) (cc_adtol d) (cc_epsabs d) (cc_epsrel d)
    (cc_eqguess d) (cc_resety d) (cc_resetrho d) (cc_heur d) (cc_removereg d) (cc_mt d).
Lemma part3 : partition 3 [[0]; [1]; [2]]. Proof. apply Permutation_refl. Qed.
Definition t3 : traj F1 := ctrial (M := F1) f1 (k_tr s3).
Definition acc3 (k : f64) : sums FloatE := (k, f0, f0).
Lemma accs3 : map (fun ch => accum (try_body (trial_states t3)) (run t3) ch (sums0 FloatE)) [[0]; [1]; [2]]
  = map (@Some _) [acc3 (z 1); acc3 big16; acc3 (SFopp big16)].
Proof. vm_compute. reflexivity. Qed.
(** two orders of combining the three private sums *)
Lemma comb_left : combined (@sums_add FloatE) (sums0 FloatE :: [acc3 (z 1); acc3 big16; acc3 (SFopp big16)]) (acc3 f0).
Proof.
  replace (acc3 f0) with (sums_add (E := FloatE) (sums_add (E := FloatE) (sums_add (E := FloatE) (sums0 FloatE) (acc3 (z 1))) (acc3 big16)) (acc3 (SFopp big16)))
    by (vm_compute; reflexivity).
  apply (co_two (l1 := [sums0 FloatE; acc3 (z 1); acc3 big16]) (l2 := [acc3 (SFopp big16)])); [|constructor|apply Permutation_refl].
  apply (co_two (l1 := [sums0 FloatE; acc3 (z 1)]) (l2 := [acc3 big16])); [|constructor|apply Permutation_refl].
  apply (co_two (l1 := [sums0 FloatE]) (l2 := [acc3 (z 1)])); [constructor|constructor|apply Permutation_refl].
Qed.
Lemma comb_right : combined (@sums_add FloatE) (sums0 FloatE :: [acc3 (z 1); acc3 big16; acc3 (SFopp big16)]) (acc3 (z 1)).
Proof.
  replace (acc3 (z 1)) with (sums_add (E := FloatE) (sums_add (E := FloatE) (sums_add (E := FloatE) (sums0 FloatE) (acc3 big16)) (acc3 (SFopp big16))) (acc3 (z 1)))
    by (vm_compute; reflexivity).
  apply (co_two (l1 := [sums0 FloatE; acc3 big16; acc3 (SFopp big16)]) (l2 := [acc3 (z 1)])); [|constructor|].
  - apply (co_two (l1 := [sums0 FloatE; acc3 big16]) (l2 := [acc3 (SFopp big16)])); [|constructor|apply Permutation_refl].
    apply (co_two (l1 := [sums0 FloatE]) (l2 := [acc3 big16])); [constructor|constructor|apply Permutation_refl].
  - apply perm_skip. apply (Permutation_cons_append [acc3 big16; acc3 (SFopp big16)]).
Qed.
(** C38, negative result (binary64): the same trial of the same solver with the
    same three threads is accepted by the merit line search in one execution and
    rejected in another. *)
Theorem C38_rounding_depends_on_schedule :
  exists r1 r2, tryStep_par (M := F1) merit_cfg f1 [[0]; [1]; [2]] s3 (Some (true, r1)) /\
    tryStep_par (M := F1) merit_cfg f1 [[0]; [1]; [2]] s3 (Some (true, r2)) /\
    k_costt r1 = f0 /\ k_costt r2 = z 1 /\
    csqp_accept merit_cfg r1 = Some true /\ csqp_accept merit_cfg r2 = Some false.
Proof.
  exists (snd (try_end (M := F1) merit_cfg s3 t3 (map (fun n => ceval_node n) (run t3)) (acc3 f0))),
         (snd (try_end (M := F1) merit_cfg s3 t3 (map (fun n => ceval_node n) (run t3)) (acc3 (z 1)))).
  split; [|split].
  - exists (map (fun n => ceval_node n) (run t3)), (acc3 f0). split; [|].
    + exact (@region_exists _ F1 (trial_states t3) [[0]; [1]; [2]] (run t3) _ _ part3 accs3 comb_left).
    + apply (injective_projections (_, _)); [vm_compute; reflexivity|reflexivity].
  - exists (map (fun n => ceval_node n) (run t3)), (acc3 (z 1)). split; [|].
    + exact (@region_exists _ F1 (trial_states t3) [[0]; [1]; [2]] (run t3) _ _ part3 accs3 comb_right).
    + apply (injective_projections (_, _)); [vm_compute; reflexivity|reflexivity].
  - repeat split; vm_compute; reflexivity.
Qed.

(** C38, negative result: the number of threads decides whether tryStep returns.
    Costs -2e30 and 2e30: with one thread every execution returns; with one
    thread per node none does. *)
Definition huge : f64 := z (2 * 10 ^ 30).
Definition s2 : csqp F1 := new_csqp (M := F1) (v1 f0) [cslot (SFopp huge); cslot huge] ctslot 1 f1.
Theorem C38_thread_count_decides_termination :
  (exists s', tryStep_par (M := F1) merit_cfg f1 [[0; 1]] s2 (Some (true, s'))) /\
  ~ tryStep_par (M := F1) merit_cfg f1 [[0; 1]] s2 None /\
  tryStep_par (M := F1) merit_cfg f1 [[0]; [1]] s2 None /\
  (forall r, tryStep_par (M := F1) merit_cfg f1 [[0]; [1]] s2 r -> r = None).
Proof.
  set (t2 := ctrial (M := F1) f1 (k_tr s2)).
  split; [|split].
  - exists (snd (try_end (M := F1) merit_cfg s2 t2 (map (fun n => ceval_node n) (run t2)) (acc3 f0))).
    exists (map (fun n => ceval_node n) (run t2)), (acc3 f0). split.
    + refine (@region_exists _ F1 (trial_states t2) [[0; 1]] (run t2) [acc3 f0] _ _ _ _).
      * apply Permutation_refl.
      * vm_compute; reflexivity.
      * replace (acc3 f0) with (sums_add (E := FloatE) (sums0 FloatE) (acc3 f0)) at 2 by (vm_compute; reflexivity).
        apply (co_two (l1 := [sums0 FloatE]) (l2 := [acc3 f0])); [constructor|constructor|apply Permutation_refl].
    + apply (injective_projections (_, _)); [vm_compute; reflexivity|reflexivity].
  - intros [hp hd]. destruct (omp_dead hp hd) as [ch [[<-|[]] hno]]. vm_compute in hno. discriminate.
  - split.
    + split; [apply Permutation_refl|].
      refine (omp_dies (chunks := [[0]; [1]]) (c := [1]) _ _ _ (pss_refl _)).
      * apply Permutation_refl.
      * right; left; reflexivity.
      * vm_compute. reflexivity.
    + intros [r|] h; [exfalso|reflexivity]. destruct h as [l' [v [hreg _]]].
      destruct hreg as [hp [ths [h1 h2 _]]].
      refine (omp_throws (c := [1]) hp _ _ h1 h2); [right; left; reflexivity|vm_compute; reflexivity].
Qed.
(** NaN costs meet the hypothesis of C38_nan_trial_kills_process *)
Example C38_nan_met : forall x : R FloatE, raiseIfNaN (radd FloatE x fnan) = true.
Proof. intros [s| s| |s m e]; reflexivity. Qed.
Print Assumptions C38_nan_trial_kills_process.
Print Assumptions C38_rounding_depends_on_schedule.
Print Assumptions C38_thread_count_decides_termination.
