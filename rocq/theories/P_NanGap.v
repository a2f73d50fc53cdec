(** * A dynamics gap (or constraint violation) that is NaN: the filter test lets it pass,
    the merit test does not.

    raiseIfNaN in tryStep looks at the cost only (sqp.cpp:342, 366; csqp.cpp:1399, 1427), and
    every comparison with NaN is false.  The dominance test of the filter (sqp.cpp:153-155,
    csqp.cpp:327-331, fddp.cpp:121-123) asks whether a stored pair is <= the trial's pair, so a NaN
    gap is dominated by nothing; the merit test asks merit_ > merit_try_, which is false. *)
From Coq Require Import ZArith List Bool Lia SpecFloat.
From Verif Require Import Eigen EigenFloat Problem DDP Filter SQP CSQP FDDP Init Models FloatWitness SQPSpec.
Import ListNotations.
Set Implicit Arguments.
Set Asymmetric Patterns.

Lemma fadd_nan_r (x : f64) : fadd x fnan = fnan. Proof. now destruct x. Qed.
Lemma fadd_nan_l (x : f64) : fadd fnan x = fnan. Proof. now destruct x. Qed.
Lemma fmul_nan_r (x : f64) : fmul x fnan = fnan. Proof. now destruct x. Qed.
Lemma fle_nan (x : f64) : SFleb x fnan = false. Proof. now destruct x. Qed.
Lemma flt_nan (x : f64) : SFltb fnan x = false. Proof. now destruct x. Qed.

(** a filter memory of the configured size none of whose entries dominates *)
Lemma never_worse (test : nat -> option bool) fsize iter :
  (forall i, i < fsize -> test i = Some false) -> filter_worse test fsize iter = Some false.
Proof.
  intros H. unfold filter_worse. assert (G : forall f count, count + f <= fsize ->
    filter_loop test fsize iter f count = Some false).
  { induction f as [|f IH]; intros count hc; [reflexivity|]. cbn [filter_loop].
    destruct (count <=? iter)%nat; [|reflexivity]. rewrite H by lia. apply IH. lia. }
  apply G. lia.
Qed.
Lemma get_some A (b : cbuf A) i : i < length (items b) -> exists x, cb_get b i = Some x.
Proof.
  intros h. unfold cb_get. destruct (nth_error (items b) i) eqn:e; [eauto|].
  apply nth_error_None in e. lia.
Qed.

Section NanGap.
Variable M : manifold FloatE.
Notation f64 := (R FloatE).

(** ** SolverSQP *)
(** the filter accepts the first trial step with a finite cost and a NaN gap, whatever the filter
    memory (of the configured size) contains *)
Theorem C66_sqp_filter_accepts_nan_gap (c : scfg FloatE) (a : f64) (al : list f64) (s s1 : sqp M) :
  sc_filter c = true ->
  sqp_tryStep c a (set_q_step a s) = TOk s1 -> q_gapt s1 = fnan ->
  sc_fsize c <= length (items (q_costl s1)) -> sc_fsize c <= length (items (q_gapl s1)) ->
  exists s', sqp_line_search c (a :: al) s = LSAccept s' /\ q_gapt s' = fnan /\ q_step s' = q_step s1 /\
    get_xs (q_tr s') = get_xs (accept_try (q_tr s1)) /\ get_us (q_tr s') = get_us (accept_try (q_tr s1)).
Proof.
  intros hf ht hg hc hl. exists (set_q_tr (accept_try (q_tr s1)) s1).
  split; [|now repeat split].
  cbn [sqp_line_search]. rewrite ht. unfold sqp_accept. rewrite hf.
  rewrite never_worse; [reflexivity|].
  intros i hi. unfold sqp_dominated.
  destruct (@get_some _ (q_costl s1) i ltac:(lia)) as [ci ->].
  destruct (@get_some _ (q_gapl s1) i ltac:(lia)) as [gi ->].
  rewrite hg. change (rle FloatE gi fnan) with (SFleb gi fnan). now rewrite fle_nan, andb_false_r.
Qed.
(** the merit test never accepts it *)
Theorem C66_sqp_merit_rejects_nan_gap (c : scfg FloatE) (a : f64) (al : list f64) (s s1 : sqp M) :
  sc_filter c = false ->
  sqp_tryStep c a (set_q_step a s) = TOk s1 -> q_gapt s1 = fnan ->
  sqp_line_search c (a :: al) s = sqp_line_search c al s1.
Proof.
  intros hf ht hg.
  assert (hm : q_meritt s1 = fnan).
  { revert ht hg. unfold sqp_tryStep.
    destruct (_ || _); [discriminate|].
    destruct (try_nodes _ _ _ _ _) as [[[ok l] [cst gap]] prev]. cbn [fst snd].
    destruct (negb ok); [discriminate|]. destruct prev as [xn|]; [|discriminate]. cbv zeta.
    destruct (raiseIfNaN _); [discriminate|]. intros ht hg. injection ht as <-.
    cbn in hg |- *. rewrite hg, fmul_nan_r. now apply fadd_nan_r. }
  cbn [sqp_line_search]. rewrite ht. unfold sqp_accept. rewrite hf, hm.
  unfold rgt. change (rlt FloatE fnan (q_merit s1)) with (SFltb fnan (q_merit s1)).
  now rewrite flt_nan.
Qed.

(** ** SolverCSQP *)
Theorem C66_csqp_filter_accepts_nan (c : ccfg FloatE) (a : f64) (al : list f64) (s s1 : csqp M) :
  cc_filter c = true ->
  csqp_tryStep c a s = (true, s1) -> k_gapt s1 = fnan \/ k_cont s1 = fnan ->
  cc_fsize c <= length (items (k_costl s1)) -> cc_fsize c <= length (items (k_gapl s1)) ->
  cc_fsize c <= length (items (k_conl s1)) ->
  exists s', csqp_line_search c (a :: al) s = CLSAccept a s' /\ k_gapt s' = k_gapt s1 /\ k_cont s' = k_cont s1 /\
    get_xs (k_tr s') = get_xs (accept_try (k_tr s1)) /\ get_us (k_tr s') = get_us (accept_try (k_tr s1)).
Proof.
  intros hf ht hg hc hl hh. exists (set_k_tr (accept_try (k_tr s1)) s1).
  split; [|now repeat split].
  cbn [csqp_line_search]. rewrite ht. cbn [fst snd]. unfold csqp_accept. rewrite hf.
  rewrite never_worse; [reflexivity|].
  intros i hi. unfold csqp_dominated.
  destruct (@get_some _ (k_costl s1) i ltac:(lia)) as [ci ->].
  destruct (@get_some _ (k_gapl s1) i ltac:(lia)) as [gi ->].
  destruct (@get_some _ (k_conl s1) i ltac:(lia)) as [hi' ->].
  f_equal. destruct hg as [-> | ->].
  - change (rle FloatE gi fnan) with (SFleb gi fnan). now rewrite fle_nan, andb_false_r.
  - change (rle FloatE hi' fnan) with (SFleb hi' fnan). now rewrite fle_nan, andb_false_r.
Qed.
Lemma merit_nan (c : ccfg FloatE) lagn cst gap con : gap = fnan \/ con = fnan -> merit_of c lagn cst gap con = fnan.
Proof.
  unfold merit_of. intros h.
  assert (hs : radd FloatE gap con = fnan).
  { destruct h as [-> | ->]; [apply fadd_nan_l|apply fadd_nan_r]. }
  destruct (_ || _).
  - rewrite hs. change (fadd cst (fmul (fmul (cc_lagcoef c) lagn) fnan) = fnan). now rewrite fmul_nan_r, fadd_nan_r.
  - destruct h as [-> | ->].
    + change (fadd (fadd cst (fmul (cc_mu c) fnan)) (fmul (cc_mucon c) con) = fnan).
      now rewrite fmul_nan_r, fadd_nan_r, fadd_nan_l.
    + change (fadd (fadd cst (fmul (cc_mu c) gap)) (fmul (cc_mucon c) fnan) = fnan).
      now rewrite fmul_nan_r, fadd_nan_r.
Qed.
Theorem C66_csqp_merit_rejects_nan (c : ccfg FloatE) (a : f64) (al : list f64) (s s1 : csqp M) :
  cc_filter c = false ->
  csqp_tryStep c a s = (true, s1) -> k_gapt s1 = fnan \/ k_cont s1 = fnan ->
  csqp_line_search c (a :: al) s = csqp_line_search c al s1.
Proof.
  intros hf ht hg.
  assert (hm : k_meritt s1 = fnan).
  { revert ht hg. unfold csqp_tryStep.
    destruct (_ || _); [discriminate|]. cbv zeta.
    match goal with |- context [negb (fst (fst ?r))] => destruct (negb (fst (fst r))) end; [discriminate|].
    intros ht hg. injection ht as _ <-. cbn in hg |- *. now apply merit_nan. }
  cbn [csqp_line_search]. rewrite ht. cbn [fst snd]. unfold csqp_accept. rewrite hf, hm.
  unfold rgt. change (rlt FloatE fnan (k_merit s1)) with (SFltb fnan (k_merit s1)).
  now rewrite flt_nan.
Qed.
End NanGap.

(** ** A run: x+ = sqrt u, cost (u + 1)^2 / 2 + x+^2 / 2, guess u = 1, x+ = 1 *)
Definition sqrt_model : amodel F1 :=
  @mkAmodel FloatE F1 1 0 0 (vec FloatE 1 * vec FloatE 1)%type
    (fun x u => (x, u)) (fun x => (x, vzero FloatE))
    (fun w => fmul (flit 1 2) (fmul (fadd (fst (snd w)) f1) (fadd (fst (snd w)) f1)))
    (fun w => v1 (fsqrt (fst (snd w))))
    (fun w => tt)
    (fun _ x u => @mkDerivs FloatE F1 1 0 (v1 f0) (v1 (fadd (fst u) f1)) (m1 f0) (m1 f0) (m1 f1)
       (m1 f0) (m1 (fdiv f1 (fmul (z 2) (fsqrt (fst u))))) tt tt)
    tt tt.
Definition sqrt_slot : slot F1 :=
  @mkSlot FloatE F1 sqrt_model (v1 f0, v1 f0)
    (adiff sqrt_model (v1 f0, v1 f0) (v1 f0) (v1 f0)) (lconst fnan) (lconst fnan).
Definition sqrt0 : sqp F1 := new_sqp (M := F1) (v1 f0) [sqrt_slot] (tslot_of fterm) 1.
Definition uvec (x : f64) : {k : nat & vec FloatE k} := existT (vec FloatE) 1 (v1 x).
(** default parameters except, for the second run, use_filter_line_search = false *)
Definition cf (filt : bool) : scfg FloatE := mkScfg (default_cfg FloatE 1) (flit 1 1) filt 1 false.
Notation sqrt_run b k := (sqp_solve (M := F1) (v1 f0) (cf b) 20 [v1 f0; v1 f1] [uvec f1] k None sqrt0).
(** the first control of a trajectory is negative: the dynamics is sqrt of a negative number *)
Definition neg_control (s : sqp F1) : bool :=
  match snd (sol s) with u :: _ => SFltb u f0 | [] => false end.

(** With the filter (the default) SolverSQP moves, at its first iteration, to a control at which the
    dynamics is NaN, and every later iteration budget leaves it there: no direction can be computed
    any more.  With the merit rule the same problem keeps its dynamics defined. *)
Theorem C66_sqp_stuck_at_nan :
  exists s1 s6 m6,
    sqrt_run true 1 = Ret false s1 /\ q_gapt s1 = fnan /\ neg_control s1 = true /\
    sqrt_run true 6 = Ret false s6 /\ q_gap s6 = fnan /\ q_iter s6 = 1 /\ neg_control s6 = true /\ sol s6 = sol s1 /\
    sqrt_run false 6 = Ret false m6 /\ neg_control m6 = false /\ SFltb (q_gap m6) f1 = true.
Proof.
  exists (state sqrt0 (sqrt_run true 1)), (state sqrt0 (sqrt_run true 6)), (state sqrt0 (sqrt_run false 6)).
  split; [apply (@result_state _ sqrt0 (sqrt_run true 1)); vm_compute; reflexivity|].
  split; [vm_compute; reflexivity|].
  split; [vm_compute; reflexivity|].
  split; [apply (@result_state _ sqrt0 (sqrt_run true 6)); vm_compute; reflexivity|].
  split; [vm_compute; reflexivity|].
  split; [vm_compute; reflexivity|].
  split; [vm_compute; reflexivity|].
  split; [vm_compute; reflexivity|].
  split; [apply (@result_state _ sqrt0 (sqrt_run false 6)); vm_compute; reflexivity|].
  split; vm_compute; reflexivity.
Qed.

(** The same problem and guess for SolverCSQP with its default parameters (the filter): it moves to
    the same kind of point and, at the next iteration, returns true with get_KKT() = 0, because every
    residual there is NaN and std::max drops it. *)
Definition csqrt0 : csqp F1 := new_csqp (M := F1) (v1 f0) [sqrt_slot] (tslot_of fterm) 1 (flit 1 10).
Definition never : nat -> bool := fun _ => false.
Notation csqrt_run k := (csqp_solve (M := F1) (default_ccfg FloatE 1 false) never (v1 f0) 20
  [v1 f0; v1 f1] [uvec f1] k None csqrt0).
Definition cneg_control (s : csqp F1) : bool :=
  match get_us (k_tr s) with
  | existT k u :: _ => match k return vec FloatE k -> bool with O => fun _ => false | S _ => fun u => SFltb (fst u) f0 end u
  | [] => false
  end.
Theorem C66_csqp_converges_at_nan :
  exists s1 s2,
    csqrt_run 1 = Ret false s1 /\ k_gapt s1 = fnan /\ cneg_control s1 = true /\
    csqrt_run 6 = Ret true s2 /\ k_kkt s2 = f0 /\ k_gap s2 = fnan /\ k_iter s2 = 1 /\ cneg_control s2 = true /\
    get_us (k_tr s2) = get_us (k_tr s1).
Proof.
  exists (state csqrt0 (csqrt_run 1)), (state csqrt0 (csqrt_run 6)).
  split; [apply (@result_state _ csqrt0 (csqrt_run 1)); vm_compute; reflexivity|].
  split; [vm_compute; reflexivity|].
  split; [vm_compute; reflexivity|].
  split; [apply (@result_state _ csqrt0 (csqrt_run 6)); vm_compute; reflexivity|].
  split; [vm_compute; reflexivity|].
  split; [vm_compute; reflexivity|].
  split; [vm_compute; reflexivity|].
  split; [vm_compute; reflexivity|].
  vm_compute; reflexivity.
Qed.

(** the hypotheses of the theorems above are met: a trial at u = -1 *)
Definition tok (o : tryres F1) : bool := match o with TOk _ => true | _ => false end.
Definition tst (d : sqp F1) (o : tryres F1) : sqp F1 := match o with TOk s | TThrow s => s | TUB => d end.
Lemma tok_state d o : tok o = true -> o = TOk (tst d o).
Proof. destruct o; try discriminate. reflexivity. Qed.
Definition at_neg : sqp F1 :=
  match set_guess (M := F1) [v1 f0; v1 f0] [uvec (z (-1))] (q_tr sqrt0) with
  | Some t => set_q_tr t sqrt0 | None => sqrt0 end.
Notation trial b := (sqp_tryStep (M := F1) (cf b) f1 (@set_q_step FloatE F1 f1 at_neg)).
Example C66_sqp_hyps b : exists s1 : sqp F1,
  trial b = TOk s1 /\ q_gapt s1 = fnan /\
  sc_fsize (cf b) <= length (items (q_costl s1)) /\ sc_fsize (cf b) <= length (items (q_gapl s1)).
Proof.
  exists (tst at_neg (trial b)). destruct b.
  - split; [apply tok_state; vm_compute; reflexivity|]. split; [vm_compute; reflexivity|].
    split; apply PeanoNat.Nat.leb_le; vm_compute; reflexivity.
  - split; [apply tok_state; vm_compute; reflexivity|]. split; [vm_compute; reflexivity|].
    split; apply PeanoNat.Nat.leb_le; vm_compute; reflexivity.
Qed.
Definition cat_neg : csqp F1 :=
  match set_guess (M := F1) [v1 f0; v1 f0] [uvec (z (-1))] (k_tr csqrt0) with
  | Some t => set_k_tr t csqrt0 | None => csqrt0 end.
Definition mcfg (filt : bool) : ccfg FloatE :=
  mkCcfg (default_cfg FloatE 1) (flit 10 1) (flit 10 1) (flit 10 1) filt 1 false
    (flit 1 1000000) (flit 16 10) 1000 (flit 1 10) (flit 1 1000000) (flit 1000 1) 25 (flit 5 1)
    (flit 1 10000) (flit 1 10000) true false false false false false.
Notation ctrial b := (csqp_tryStep (M := F1) (mcfg b) f1 cat_neg).
Example C66_csqp_hyps b : exists s1 : csqp F1,
  ctrial b = (true, s1) /\ (k_gapt s1 = fnan \/ k_cont s1 = fnan) /\
  cc_fsize (mcfg b) <= length (items (k_costl s1)) /\ cc_fsize (mcfg b) <= length (items (k_gapl s1)) /\
  cc_fsize (mcfg b) <= length (items (k_conl s1)).
Proof.
  exists (snd (ctrial b)).
  assert (h : forall p : bool * csqp F1, fst p = true -> p = (true, snd p)) by (intros [x y] e; cbn in *; now subst).
  destruct b.
  - split; [apply h; vm_compute; reflexivity|]. split; [left; vm_compute; reflexivity|].
    split; [|split]; apply PeanoNat.Nat.leb_le; vm_compute; reflexivity.
  - split; [apply h; vm_compute; reflexivity|]. split; [left; vm_compute; reflexivity|].
    split; [|split]; apply PeanoNat.Nat.leb_le; vm_compute; reflexivity.
Qed.
Print Assumptions C66_sqp_filter_accepts_nan_gap.
Print Assumptions C66_csqp_converges_at_nan.
