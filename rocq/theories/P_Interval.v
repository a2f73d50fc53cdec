(** * set_rho_update_interval(0) (csqp.hpp:203-205, no check) and the next solve: the QP loop
    computes qp_iters_ % rho_update_interval_ (csqp.cpp:477), a division by zero. *)
From Coq Require Import ZArith List Bool Lia.
From Verif Require Import Eigen EigenFloat Problem DDP Filter SQP CSQP Init Models FloatWitness P_NanGap.
Import ListNotations.
Set Implicit Arguments.
Set Asymmetric Patterns.

Section Interval.
Variable E : Eig.
Variable M : manifold E.
Variable c : ccfg E.
Variable to : nat -> bool.
Variable x0 : mX M.
Hypothesis hz : cc_interval c = 0.
Hypothesis hq : 0 < cc_maxqp c.
Hypothesis ht : forall n, to n = false.

Lemma loop_ub r i (s : csqp M) : 0 < r -> qp_loop c to r i s = QUB M.
Proof.
  destruct r as [|r]; [lia|]. intros _. cbn [qp_loop]. unfold tick. rewrite ht. cbn [fst snd].
  now rewrite hz.
Qed.
(** a direction is never delivered *)
Lemma computeDirection_cases (s : csqp M) :
  csqp_computeDirection c to s = QUB M \/ (cc_eqguess c = true /\ exists s1, csqp_computeDirection c to s = QThrow s1).
Proof.
  unfold csqp_computeDirection. destruct (cc_eqguess c).
  - cbv zeta. destruct (fst (cw_backward _ _ _)).
    + left. now apply loop_ub.
    + right. split; [reflexivity|]. eexists; reflexivity.
  - left. now apply loop_ub.
Qed.
Definition no_direction (r : dirres (csqp M)) : Prop :=
  match r with DirOk _ => False | DirUB => True | _ => cc_eqguess c = true end.
Lemma eqguess_reached (s s1 : csqp M) : csqp_computeDirection c to s = QThrow s1 -> k_reached s1 = k_reached s.
Proof.
  unfold csqp_computeDirection. destruct (cc_eqguess c).
  - cbv zeta. destruct (fst (cw_backward _ _ _)).
    + rewrite loop_ub; [discriminate|assumption].
    + intros h. injection h as <-. unfold reset_params. cbv zeta.
      repeat match goal with |- context [if ?b then _ else _] => destruct b end; reflexivity.
  - rewrite loop_ub; [discriminate|assumption].
Qed.
Lemma retry_none watch fuel (s : csqp M) : 0 < fuel -> (watch = true -> k_reached s = false) ->
  no_direction (csqp_retry c to watch fuel s) \/ csqp_retry c to watch fuel s = DirNoFuel.
Proof.
  revert s. induction fuel as [|f IH]; intros s hf hr; [lia|]. cbn [csqp_retry].
  assert (hw : watch && k_reached s = false) by (destruct watch; [now rewrite hr|reflexivity]).
  rewrite hw. destruct (computeDirection_cases s) as [-> | [he [s1 h1]]]; [now left|].
  pose proof (@eqguess_reached _ _ h1) as hk.
  rewrite h1. cbv zeta. destruct (rge _ _); [left; exact he|].
  destruct f as [|f]; [now right|]. apply IH; [lia|]. intros w.
  change (k_reached s1 = false). rewrite hk. now apply hr.
Qed.
Lemma direction_none watch fuel (s : csqp M) : 0 < fuel -> (watch = true -> k_reached s = false) ->
  no_direction (csqp_direction c to watch fuel s) \/
  (cc_eqguess c = true /\ csqp_direction c to watch fuel s = DirNoFuel).
Proof.
  intros hf hr. unfold csqp_direction. destruct (cc_removereg c).
  - left. destruct (computeDirection_cases s) as [-> | [he [s1 ->]]]; [exact I|exact he].
  - destruct (computeDirection_cases s) as [h | [he [s1 h]]].
    + left. destruct fuel as [|f]; [lia|]. cbn [csqp_retry].
      assert (hw : watch && k_reached s = false) by (destruct watch; [now rewrite hr|reflexivity]).
      rewrite hw, h. exact I.
    + destruct (@retry_none watch fuel s hf hr) as [h1|h1]; [now left|]. right. now split.
Qed.

(** what a call of solve can still do: crash, or give up before the QP when the equality-constrained
    starting pass raises; it never returns true *)
Definition crashed (o : outcome (csqp M)) : Prop :=
  match o with
  | UB => True
  | Ret true _ => False
  | _ => cc_eqguess c = true
  end.
Lemma final_crashed fuel (s : csqp M) : 0 < fuel -> cc_extra c = true -> k_reached s = false ->
  crashed (csqp_final c to fuel s).
Proof.
  intros hf he hr. unfold csqp_final. rewrite he, hr. cbn [andb negb].
  destruct (@direction_none false fuel (csqp_calc s) hf ltac:(discriminate)) as [h|[h ->]]; [|exact h].
  destruct (csqp_direction _ _ _ _ _); try exact h; destruct h.
Qed.
Lemma body_crashed fuel (s : csqp M) : 0 < fuel -> k_reached s = false ->
  match csqp_body c to fuel s with
  | CB BUB => True
  | CB (BRet false _) | CB BNoFuel | CExc _ => cc_eqguess c = true
  | _ => False
  end.
Proof.
  intros hf hr. unfold csqp_body, tick. rewrite ht. cbv zeta. cbn [fst snd].
  match goal with |- context [csqp_direction c to true fuel ?s2] => set (S2 := s2) end.
  assert (h2 : k_reached S2 = false).
  { unfold S2. destruct (_ && _); exact hr. }
  destruct (@direction_none true fuel S2 hf (fun _ => h2)) as [h|[h ->]]; [|exact h].
  destruct (csqp_direction c to true fuel S2); try exact h; destruct h.
Qed.
(** C67: with rho_update_interval 0, max_qp_iters >= 1 and no time limit, a call of solve that
    iterates (maxiter >= 1, or extra_iteration_for_last_kkt) from a well-formed guess crashes; only
    the exceptions of the equality-constrained starting pass can come first *)
Theorem C67_interval_zero_crashes fuel xs us maxiter reg (s : csqp M) :
  0 < fuel -> 0 < maxiter \/ cc_extra c = true -> set_guess xs us (k_tr s) <> None ->
  crashed (csqp_solve c to x0 fuel xs us maxiter reg s).
Proof.
  intros hf hm hg. unfold csqp_solve. destruct (set_guess xs us (k_tr s)) as [t|]; [|now elim hg].
  cbv zeta.
  match goal with |- context [csqp_loop c to fuel maxiter ?s2] => set (S2 := s2) end.
  assert (h2 : k_reached S2 = false) by reflexivity. clearbody S2.
  destruct maxiter as [|k].
  - cbn [csqp_loop]. apply final_crashed; [exact hf| |exact h2]. destruct hm; [lia|assumption].
  - cbn [csqp_loop]. generalize (@body_crashed fuel S2 hf h2).
    destruct (csqp_body c to fuel S2) as [b|s']; [|tauto].
    destruct b as [[|] s'|s'|s'| |]; tauto.
Qed.
Corollary C67_interval_zero_undefined fuel xs us maxiter reg (s : csqp M) :
  cc_eqguess c = false ->
  0 < fuel -> 0 < maxiter \/ cc_extra c = true -> set_guess xs us (k_tr s) <> None ->
  csqp_solve c to x0 fuel xs us maxiter reg s = UB.
Proof.
  intros he hf hm hg. generalize (@C67_interval_zero_crashes fuel xs us maxiter reg s hf hm hg). unfold crashed. rewrite he.
  destruct (csqp_solve c to x0 fuel xs us maxiter reg s) as [[|] ?|?| |]; try discriminate; tauto.
Qed.
End Interval.

(** met by SolverCSQP with its default parameters (equality-constrained start on) and interval 0 *)
Definition zero_ccfg : ccfg FloatE :=
  mkCcfg (default_cfg FloatE 1) (flit 10 1) (flit 10 1) (flit 10 1) true 1 false
    (flit 1 1000000) (flit 16 10) 1000 (flit 1 10) (flit 1 1000000) (flit 1000 1) 0 (flit 5 1)
    (flit 1 10000) (flit 1 10000) true false false false false false.
Definition cfresh : csqp F1 := new_csqp (M := F1) (v1 (z 1)) [slot_of fstage; slot_of fstage] (tslot_of fterm) 1 (flit 1 10).
Definition is_ub {S} (o : outcome S) : bool := match o with UB => true | _ => false end.
Example C67_met : cc_interval zero_ccfg = 0 /\ (cc_maxqp zero_ccfg =? 0)%nat = false /\
  is_ub (csqp_solve (M := F1) zero_ccfg never (v1 (z 1)) 3 [] [] 5 None cfresh) = true /\
  set_guess [] [] (k_tr cfresh) <> None.
Proof.
  split; [reflexivity|]. split; [vm_compute; reflexivity|]. split; [vm_compute; reflexivity|].
  discriminate.
Qed.
Print Assumptions C67_interval_zero_crashes.
