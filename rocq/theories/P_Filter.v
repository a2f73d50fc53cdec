(** * C15: set_filter_size over histories of sizes. *)
From Coq Require Import ZArith List Bool Arith Lia ssreflect SpecFloat.
From Verif Require Import Eigen EigenFloat Problem DDP Filter FilterProofs SQP CSQP Init Models TraceSpec SQPSpec FloatWitness.
Import ListNotations.
Set Implicit Arguments.
Unset Strict Implicit.
Set Asymmetric Patterns.

Section Buf.
Variable A : Type.
Variable d : A.

(** Operations on one of the filter memories: set_filter_size(n), and the record of
    an iterate at the start of a line search. *)
Inductive fop := FSize (n : nat) | FRecord (x : A).
Definition fexec (b : cbuf A) (o : fop) : cbuf A :=
  match o with FSize n => cb_resize n d b | FRecord x => cb_push x b end.
(** constructor with size [n0] (resize of an empty buffer), then operations *)
Definition fbuffer (n0 : nat) (ops : list fop) : cbuf A := fold_left fexec ops (cb_resize n0 d (cb_empty A)).
(** the current filter size, and the iterates recorded since it was last set, most
    recent first *)
Definition fstate (n0 : nat) (ops : list fop) : nat * list A :=
  fold_left (fun s o => match o with FSize n => (n, []) | FRecord x => (fst s, x :: snd s) end) ops (n0, []).
Fixpoint growing (n : nat) (ops : list fop) : Prop :=
  match ops with
  | [] => True
  | FSize m :: r => n <= m /\ growing m r
  | FRecord _ :: r => growing n r
  end.

(** C15, positive part.  If the size never shrinks, the entry at distance k from the
    end of a filter of size n is the k-th most recent iterate (of those recorded since
    the size was set), for every k < n; and the filter loop of iteration [iter] reads
    exactly the min(n, iter + 1) most recent iterates and never outside the buffer. *)
Theorem C15_filter_entries n0 ops : growing n0 ops ->
  let n := fst (fstate n0 ops) in
  let h := snd (fstate n0 ops) in
  forall k x, k < n -> nth_error h k = Some x -> cb_get (fbuffer n0 ops) (n - 1 - k) = Some x.
Proof.
  rewrite /fstate /fbuffer.
  suff H : forall ops n h b, holds n h b -> growing n ops ->
    let s := fold_left (fun s o => match o with FSize n => (n, []) | FRecord x => (fst s, x :: snd s) end) ops (n, h) in
    holds (fst s) (snd s) (fold_left fexec ops b).
  { move=> hg k x hk hx. case: (H ops n0 [] _ (holds_new n0 d) hg) => _ [_ h3]. exact: h3 hk hx. }
  elim=> [|[m|x] r ih] n h b hb //=.
  - move=> [hn hg]. apply: ih => //. apply: (@holds_grow _ n m) => //. exact: holds_forget hb.
  - move=> hg. apply: ih => //. exact: holds_push.
Qed.
Theorem C15_filter_reads n0 ops (P : A -> bool) iter : growing n0 ops ->
  let n := fst (fstate n0 ops) in
  let h := snd (fstate n0 ops) in
  iter < length h ->
  filter_worse (fun i => option_map P (cb_get (fbuffer n0 ops) i)) n iter
    = Some (existsb P (firstn (min n (S iter)) h)).
Proof.
  move=> hg n h hi. have he := C15_filter_entries hg. cbv zeta in he. rewrite -/n -/h in he.
  have := @filter_recent A (firstn (S iter) h) P (fun i => option_map P (cb_get (fbuffer n0 ops) i)) n iter.
  rewrite firstn_length firstn_firstn. have -> : Nat.min (S iter) (length h) = S iter by lia.
  apply=> // k x hk hx. rewrite (he k x hk) //.
  have hlt : k < S iter.
  { have : k < length (firstn (S iter) h) by apply/nth_error_Some; rewrite hx. rewrite firstn_length. lia. }
  rewrite -hx. move: hlt. clear. move: (S iter) => m. elim: m k h => [|m ih] [|k] [|y h] //= hk; [lia|lia|apply: ih; lia].
Qed.

(** C15, negative part.  A size reduced from m to n < m reads wrong entries for ever:
    once m iterates have been recorded, the entry meant to be the k-th most recent
    iterate is the one recorded m - n iterations earlier. *)
Lemma fold_record h (b : cbuf A) :
  fold_left fexec (map FRecord h) b = fold_left (fun b x => cb_push x b) h b.
Proof. elim: h b => [|x h ih] b //=. Qed.
(** content of a buffer of capacity m after pushes *)
Definition lastn (m : nat) (l : list A) : list A := skipn (length l - m) l.
Lemma lastn_all m l : length l <= m -> lastn m l = l.
Proof. move=> h. rewrite /lastn. by have -> : length l - m = 0 by lia. Qed.
Lemma push_lastn m (l : list A) x : 0 < m ->
  cb_push x (mkCbuf m (lastn m l)) = mkCbuf m (lastn m (l ++ [x])).
Proof.
  move=> hm. rewrite /cb_push /=. case: (Nat.eqb_spec m 0) => [|_]; first lia.
  rewrite /lastn skipn_length app_length /=.
  case: (Nat.eqb_spec (length l - (length l - m)) m) => h.
  - congr mkCbuf. have hl : m <= length l by lia.
    have -> : length l + 1 - m = S (length l - m) by lia.
    have e1 : forall k (q : list A), tl (skipn k q) = skipn (S k) q.
    { elim=> [|k ih] [|y q] //=. rewrite ih. by case: q. }
    rewrite e1 skipn_app. have -> : S (length l - m) - length l = 0 by lia. by [].
  - congr mkCbuf. have hl : length l < m by lia.
    have -> : length l - m = 0 by lia. have -> : length l + 1 - m = 0 by lia. by [].
Qed.
Lemma pushes_lastn m (h l : list A) : 0 < m ->
  fold_left (fun b x => cb_push x b) h (mkCbuf m (lastn m l)) = mkCbuf m (lastn m (l ++ h)).
Proof.
  move=> hm. elim: h l => [|x h ih] l /=; first by rewrite app_nil_r.
  by rewrite push_lastn // ih -app_assoc.
Qed.
Lemma nth_error_lastn m (l : list A) i : m <= length l -> nth_error (lastn m l) i = nth_error l (length l - m + i).
Proof.
  move=> hm. rewrite /lastn. move: (length l - m) => k {hm}. elim: k l => [|k ih] [|y l] //=.
  by case: (i).
Qed.
Theorem C15_shrunk_filter_reads_older_iterates m n (recorded : list A) : 0 < n < m -> m <= length recorded ->
  (* constructor with size m, set_filter_size(n), then the iterates, oldest first *)
  let b := fbuffer m (FSize n :: map FRecord recorded) in
  forall k, k < n -> cb_get b (n - 1 - k) = nth_error (rev recorded) (k + (m - n)).
Proof.
  move=> hn hl b k hk. rewrite /b /fbuffer /=.
  have -> : cb_resize m d (cb_empty A) = mkCbuf m (repeat d m).
  { rewrite /cb_resize /cb_empty /=. case: (Nat.ltb_spec 0 m) => [_|]; last lia. by rewrite Nat.sub_0_r. }
  rewrite /cb_resize. cbn [items cap]. rewrite repeat_length.
  case: (Nat.ltb_spec m n) => [|_]; first lia.
  rewrite fold_record // -(@lastn_all m (firstn n (repeat d m))); first by rewrite firstn_length repeat_length; lia.
  rewrite pushes_lastn; first lia.
  set p := firstn n (repeat d m). have hp : length p = n by rewrite /p firstn_length repeat_length; lia.
  rewrite /cb_get /= nth_error_lastn app_length hp; first lia.
  rewrite nth_error_app2; first by rewrite hp; lia.
  rewrite hp. have e : forall (q : list A) j, j < length q -> nth_error (rev q) j = nth_error q (length q - 1 - j).
  { move=> q j hj. rewrite (nth_error_nth' (rev q) d); first by rewrite rev_length.
    rewrite rev_nth // (nth_error_nth' q d); first lia. congr (Some (nth _ _ _)). lia. }
  rewrite e; first lia. congr (nth_error _ _). lia.
Qed.
End Buf.

(** ** Effect on a solve *)
Notation shrunk s := (sqp_set_filter_size 1 (sqp_set_filter_size 2 s)).
Notation quad_obj := (new_sqp (M := F1) (v1 (z 1)) [slot_of fstage; slot_of fstage] (tslot_of fterm) 1).
Notation fresh_run := (sqp_solve (M := F1) (v1 (z 1)) (default_scfg FloatE 1) 3 [] [] 2 None quad_obj).
Notation shrunk_run := (sqp_solve (M := F1) (v1 (z 1)) (default_scfg FloatE 1) 3 [] [] 2 None (shrunk quad_obj)).
Definition fresh_state : sqp F1 := state (new_sqp (M := F1) (v1 f0) [] (tslot_of fterm) 1) fresh_run.
Definition shrunk_state : sqp F1 := state (new_sqp (M := F1) (v1 f0) [] (tslot_of fterm) 1) shrunk_run.
(** On a convex quadratic problem SolverSQP converges within two iterations; after set_filter_size(2);
    set_filter_size(1), which restores the configured size, the same call fails. *)
Theorem C15_resizing_back_breaks_solve :
  exists (l : list (slot F1)) (t : tslot F1) (s1 s2 : sqp F1),
    sqp_solve (M := F1) (v1 (z 1)) (default_scfg FloatE 1) 3 [] [] 2 None
      (new_sqp (M := F1) (v1 (z 1)) l t 1) = Ret true s1 /\
    sqp_solve (M := F1) (v1 (z 1)) (default_scfg FloatE 1) 3 [] [] 2 None
      (sqp_set_filter_size 1 (sqp_set_filter_size 2 (new_sqp (M := F1) (v1 (z 1)) l t 1))) = Ret false s2.
Proof.
  exists [slot_of fstage; slot_of fstage], (tslot_of fterm), fresh_state, shrunk_state. split.
  - apply: (@result_state _ (new_sqp (M := F1) (v1 f0) [] (tslot_of fterm) 1) fresh_run); vm_compute; reflexivity.
  - apply: (@result_state _ (new_sqp (M := F1) (v1 f0) [] (tslot_of fterm) 1) shrunk_run); vm_compute; reflexivity.
Qed.
Print Assumptions C15_filter_entries.
Print Assumptions C15_filter_reads.
Print Assumptions C15_shrunk_filter_reads_older_iterates.
Print Assumptions C15_resizing_back_breaks_solve.
