(** * Properties C48, C49: CallbackVerbose. *)
From Coq Require Import ZArith List Bool String Ascii Lia.
From Verif Require Import Eigen EigenFloat Problem DDP FDDP FloatWitness P_DDPFloat P_FDDPFloat Callbacks.
Import ListNotations.
Set Implicit Arguments.
Unset Strict Implicit.
Local Open Scope Z_scope.

(** ** C49: widths *)
Lemma len_app s t : slen (s ++ t)%string = slen s + slen t.
Proof. unfold slen. induction s; cbn [append String.length]; lia. Qed.
Lemma len_spaces n : slen (spaces n) = Z.of_nat n.
Proof. unfold slen. induction n; cbn [spaces String.length]; lia. Qed.

(** C49.  A label that fits is centred in exactly the column width; a longer one
    is left as it is, except for one spurious blank when it is longer by an odd
    number of characters. *)
Theorem C49_column_width (label : string) (w : Z) :
  slen (center_string label w) = Z.max w (slen label) + (if (w <? slen label) && Z.odd (slen label - w) then 1 else 0).
Proof.
  unfold center_string. set (n := slen label). rewrite !len_app, !len_spaces. fold n.
  assert (hn : 0 <= n) by (unfold n, slen; lia).
  destruct (0 <? w - n) eqn:e1; rewrite ?Z.ltb_lt, ?Z.ltb_ge in e1.
  - replace (w <? n) with false by (symmetry; rewrite Z.ltb_ge; lia). simpl andb.
    rewrite Z.quot_div_nonneg, Z.rem_mod_nonneg by lia.
    assert (hm := Z.div_mod (w - n) 2). assert (hb := Z.mod_pos_bound (w - n) 2).
    assert (hd : 0 <= (w - n) / 2) by (apply Z.div_pos; lia).
    destruct ((w - n) mod 2 =? 0) eqn:e2; rewrite ?Z.eqb_eq, ?Z.eqb_neq in e2; simpl negb; cbv iota;
      rewrite !Z2Nat.id by lia; lia.
  - assert (ho : (Z.rem (w - n) 2 =? 0) = negb (Z.odd (n - w))).
    { replace (w - n) with (- (n - w)) by lia. rewrite Z.rem_opp_l' , Z.rem_mod_nonneg by lia.
      rewrite Zmod_odd. destruct (Z.odd (n - w)); reflexivity. }
    rewrite ho, negb_involutive. change (Z.of_nat (Z.to_nat 0)) with 0.
    assert (hz : forall b : bool, Z.of_nat (Z.to_nat (if b then 0 + 1 else 0)) = if b then 1 else 0) by (now intros []).
    rewrite hz.
    destruct (w <? n) eqn:e3; rewrite ?Z.ltb_lt, ?Z.ltb_ge in e3.
    + change (true && Z.odd (n - w)) with (Z.odd (n - w)). destruct (Z.odd (n - w)); lia.
    + replace (n - w) with 0 by lia. change (Z.odd 0) with false. cbv [andb]. lia.
Qed.
Corollary C49_fitting_label (label : string) (w : Z) : slen label <= w -> slen (center_string label w) = w.
Proof.
  intro h. rewrite C49_column_width. replace (w <? slen label) with false by (symmetry; rewrite Z.ltb_ge; lia).
  simpl. lia.
Qed.
(** the label itself is kept, surrounded by blanks *)
Theorem C49_label_kept (label : string) (w : Z) : exists a b, center_string label w = (spaces a ++ label ++ spaces b)%string.
Proof. eexists _, _. reflexivity. Qed.

(** With a precision of at least 8 (and below INT_MAX - 5) every column of both
    headers has the width 6 + precision of a number in scientific format, and the
    header is "iter" and the columns, separated by two blanks. *)
Definition sqp_labels : list string := ["merit"; "cost"; "||gaps||"; "step"; "KKT criteria"]%string.
Definition csqp_labels : list string :=
  ["merit"; "cost"; "||gaps||"; "||Constraint||"; "||(dx,du)||"; "step"; "KKT criteria"; "QP iters"]%string.
Definition columns_of (labels cols : list string) (w : Z) : Prop :=
  Forall2 (fun l col => slen col = w /\ exists a b, col = (spaces a ++ l ++ spaces b)%string) labels cols.
Definition joined (cols : list string) : string := String.concat separator cols.
Theorem C49_wide_headers (p : Z) : 8 <= p <= int_max - 6 ->
  (exists cols, columns_of sqp_labels cols (6 + p) /\
     update_header p "SQP" = HText (joined ("iter"%string :: cols) ++ separator)%string) /\
  (exists cols, columns_of csqp_labels cols (6 + p) /\
     update_header p "CSQP" = HText (joined ("iter"%string :: cols))).
Proof.
  intros [h1 h2]. assert (hc : forall l, slen l <= 14 -> slen (center_string l (6 + p)) = 6 + p /\
     exists a b, center_string l (6 + p) = (spaces a ++ l ++ spaces b)%string).
  { intros l hl. split; [apply C49_fitting_label; lia | apply C49_label_kept]. }
  assert (hb : (int_max <? 6 + p) = false) by (rewrite Z.ltb_ge; lia).
  assert (assoc : forall a b c : string, ((a ++ b) ++ c)%string = (a ++ (b ++ c))%string).
  { induction a as [|x a IH]; intros b c; simpl; [reflexivity|]. now rewrite IH. }
  split.
  - exists (map (fun l => center_string l (6 + p)) sqp_labels). split.
    + repeat constructor; apply hc; vm_compute; discriminate.
    + unfold update_header. rewrite hb. cbn [String.eqb Ascii.eqb Bool.eqb].
      unfold joined, sqp_labels. cbn [map String.concat]. rewrite !assoc. reflexivity.
  - exists (map (fun l => center_string l (6 + p)) csqp_labels). split.
    + repeat constructor; apply hc; vm_compute; discriminate.
    + unfold update_header. rewrite hb. reflexivity.
Qed.
(** with the default precision 3 the columns are ragged: 9, 9, 9, 15, 11, 9, 13, 9 *)
Theorem C49_default_header_ragged :
  map (fun l => slen (center_string l (6 + 3))) csqp_labels = [9; 9; 9; 15; 11; 9; 13; 9].
Proof. vm_compute. reflexivity. Qed.
(** near INT_MAX the header is undefined although the precision was accepted *)
Theorem C49_precision (p old : Z) :
  (fst (set_precision p old) = false <-> p < 0) /\ (p < 0 -> snd (set_precision p old) = old) /\
  (0 <= p -> snd (set_precision p old) = p).
Proof. unfold set_precision. destruct (p <? 0) eqn:e; rewrite ?Z.ltb_lt, ?Z.ltb_ge in e; simpl; repeat split; intros; try lia; congruence. Qed.
Theorem C49_overflow (p : Z) (ty : string) : int_max - 6 < p -> update_header p ty = HUB.
Proof. intro h. unfold update_header. replace (int_max <? 6 + p) with true; [reflexivity|]. symmetry. rewrite Z.ltb_lt. lia. Qed.

(** ** C48: the object handed to CallbackVerbose *)
Section C48.
Variable E : Eig.
(** [cb_ok k]: whatever the object shows, and for every precision whose column width is an
    int, the call a solver of class k makes prints one line and returns *)
Definition cb_ok (k : kind) : Prop :=
  forall (p : Z) (o : shown E), 0 <= p <= int_max - 6 -> exists l, verbose p k (tag k) o = COut l.
(** [cb_undefined k]: every such call is undefined behaviour *)
Definition cb_undefined (k : kind) : Prop :=
  forall (p : Z) (o : shown E), verbose p k (tag k) o = CUB E.

(** C48, holds for SolverSQP and SolverCSQP *)
Theorem C48_safe_partial : cb_ok KSQP /\ cb_ok KCSQP.
Proof.
  assert (hb : forall p, 0 <= p <= int_max - 6 -> (int_max <? 6 + p) = false) by (intros p h; rewrite Z.ltb_ge; lia).
  split; intros p o hp; unfold verbose, update_header; rewrite (hb p hp);
    destruct (Nat.modulo (sh_iter o) 10 =? 0)%nat; cbn;
    destruct (rlt E (sh_kkt o) (sh_tol o)); eexists; reflexivity.
Qed.
(** C48, fails for SolverDDP and SolverFDDP: both pass the tag "SQP", and the callback then
    views the object as a SolverSQP, which it is not *)
Theorem C48_ddp_fddp_undefined : cb_undefined KDDP /\ cb_undefined KFDDP.
Proof.
  split; intros p o; unfold verbose, update_header;
    destruct (int_max <? 6 + p);
    destruct (Nat.modulo (sh_iter o) 10 =? 0)%nat; reflexivity.
Qed.
(** what a line contains when the solver has not converged: iteration, merit, cost, gap,
    step length and KKT residual of the object *)
Definition numbers (l : list (item E)) : list (R E) :=
  flat_map (fun i => match i with Sci _ x | Fixed _ x => [x] | _ => [] end) l.
Definition ints (l : list (item E)) : list nat :=
  flat_map (fun i => match i with Int _ n => [n] | _ => [] end) l.
Theorem C48_sqp_line (p : Z) (o : shown E) l : verbose p KSQP (tag KSQP) o = COut l ->
  ints l = [sh_iter o] /\
  numbers l = [sh_merit o; sh_cost o; sh_gap o] ++ (if rlt E (sh_kkt o) (sh_tol o) then [] else [sh_step o]) ++ [sh_kkt o].
Proof.
  unfold verbose, update_header.
  destruct (int_max <? 6 + p); destruct (Nat.modulo (sh_iter o) 10 =? 0)%nat; try discriminate; cbn;
    destruct (rlt E (sh_kkt o) (sh_tol o)); intro h; inversion h; split; reflexivity.
Qed.
Theorem C48_csqp_line (p : Z) (o : shown E) l : verbose p KCSQP (tag KCSQP) o = COut l ->
  let fin := rlt E (sh_kkt o) (sh_tol o) in
  ints l = sh_iter o :: (if fin then [] else [sh_qpit o]) /\
  numbers l = [sh_merit o; sh_cost o; sh_gap o; sh_con o] ++
    (if fin then [] else [rdiv E (radd E (sh_xg o) (sh_ug o)) (rlit E 2 1); sh_step o]) ++ [sh_kkt o].
Proof.
  unfold verbose, update_header.
  destruct (int_max <? 6 + p); destruct (Nat.modulo (sh_iter o) 10 =? 0)%nat; try discriminate; cbn;
    destruct (rlt E (sh_kkt o) (sh_tol o)); intro h; inversion h; split; reflexivity.
Qed.
End C48.

(** a solve with one callback does call it (binary64 runs of P_DDPFloat.v and
    P_FDDPFloat.v, default parameters), so with a CallbackVerbose installed those runs are
    undefined *)
Definition called {F : Eig} (lg : list (event F)) : bool :=
  existsb (fun e => match e with EvCallback _ _ _ _ _ _ _ => true | _ => false end) lg.
Theorem C48_ddp_calls :
  (exists s', cold_run = Ret true s' /\ called (d_log s') = true) /\
  (exists s', two_iters = Ret true s' /\ called (d_log (f_d s')) = true).
Proof.
  split.
  - exists (state ddp1 cold_run).
    split; [apply (@result_state _ ddp1 cold_run); vm_compute; reflexivity|vm_compute; reflexivity].
  - exists (state fddp2 two_iters).
    split; [apply (@result_state _ fddp2 two_iters); vm_compute; reflexivity|vm_compute; reflexivity].
Qed.
Print Assumptions C48_safe_partial.
Print Assumptions C48_ddp_fddp_undefined.
Print Assumptions C48_sqp_line.
Print Assumptions C48_csqp_line.
Print Assumptions C48_ddp_calls.
Print Assumptions C49_column_width.
Print Assumptions C49_wide_headers.
