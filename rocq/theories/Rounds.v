(** * Lemmas about rounds (TraceSpec) used by the solver invariants. *)
From Coq Require Import ZArith List Bool Arith Lia ssreflect.
From Verif Require Import Eigen Problem DDP Filter FilterProofs CSQP TrialSpec TraceSpec.
Import ListNotations.
Set Implicit Arguments.
Unset Strict Implicit.
Set Asymmetric Patterns.

Section Traces.
Variable E : Eig.
Variable M : manifold E.
Lemma run_callbacksE n i k co m st (log : list (event E)) :
  run_callbacks n i k co m st log = rev (callback_trace n i k co m st) ++ log.
Proof.
  rewrite /run_callbacks /callback_trace. move: (seq 0 n) log.
  elim=> [|j l ih] log //=. by rewrite ih -app_assoc.
Qed.
Lemma rounds_trace_snoc ncb (rs : list (round M)) r : forall i,
  rounds_trace ncb i (rs ++ [r]) = rounds_trace ncb i rs ++ round_trace ncb (i + length rs) r.
Proof.
  elim: rs => [|r0 rs ih] i /=.
  - by rewrite app_nil_r Nat.add_0_r.
  - by rewrite ih app_assoc Nat.add_succ_r.
Qed.
Lemma nth_snoc A (l : list A) x i y : nth_error (l ++ [x]) i = Some y ->
  (i < length l /\ nth_error l i = Some y) \/ (i = length l /\ y = x).
Proof.
  move=> h. case: (Nat.lt_ge_cases i (length l)) => hi.
  - left. by rewrite nth_error_app1 in h.
  - right. rewrite nth_error_app2 // in h.
    case e: (i - length l) h => [|k] /= h; [|by case: k {e} h].
    split; [lia | by case: h].
Qed.
Lemma firstn_snoc A (l : list A) x i : i <= length l -> firstn i (l ++ [x]) = firstn i l.
Proof. move=> h. rewrite firstn_app. replace (i - length l) with 0 by lia. by rewrite app_nil_r. Qed.

Lemma find_first A (f : A -> bool) pre a post :
  Forall (fun b => f b = false) pre -> f a = true -> find f (pre ++ a :: post) = Some a.
Proof. elim=> [|b l hb _ ih] ha /=; by [rewrite ha | rewrite hb ih]. Qed.
Lemma find_none' A (f : A -> bool) l : Forall (fun b => f b = false) l -> find f l = None.
Proof. elim=> [|b l' hb _ ih] //=. by rewrite hb. Qed.

Lemma searched_snoc p (rs : list (round M)) r : rounds_searched p rs ->
  r_acc r = option_map (trial_of p (r_tr r)) (find (admissible p rs r) (ls_alphas p)) ->
  rounds_searched p (rs ++ [r]).
Proof.
  move=> h hr i r' hi. case: (nth_snoc hi) => [[hl hi']|[-> ->]].
  - rewrite firstn_snoc; first lia. exact: h.
  - by rewrite firstn_snoc // firstn_all.
Qed.
Lemma iterates_snoc (rs : list (round M)) r : forall xs us,
  iterates xs us rs (get_xs (r_tr r)) (get_us (r_tr r)) ->
  iterates xs us (rs ++ [r]) (next_xs r) (next_us r).
Proof.
  elim: rs => [|r0 rs ih] xs us /=.
  - by move=> [<- <-].
  - move=> [-> [-> h]]. do 2 split => //. exact: ih.
Qed.

(** last acceptance *)
Definition last_acc (rs : list (round M)) : option (accepted E) :=
  match nth_error rs (length rs - 1) with Some r => r_acc r | None => None end.
Lemma last_acc_snoc rs r : last_acc (rs ++ [r]) = r_acc r.
Proof.
  rewrite /last_acc app_length /= nth_error_app2; first lia.
  by replace (length rs + 1 - 1 - length rs) with 0 by lia.
Qed.
Lemma evaluated_last (rs : list (round M)) : evaluated_at rs (length rs) ->
  rs = [] \/ exists a, last_acc rs = Some a.
Proof.
  case=> [h|[r [a [h1 h2]]]].
  - left. by case: rs h.
  - right. exists a. by rewrite /last_acc h1.
Qed.
Lemma last_evaluated (rs : list (round M)) a : last_acc rs = Some a -> evaluated_at rs (length rs).
Proof.
  rewrite /last_acc. case e: (nth_error _ _) => [r|] // h. right. by exists r, a.
Qed.
Lemma evaluated_snoc (rs : list (round M)) r i : i <= length rs ->
  evaluated_at (rs ++ [r]) i -> evaluated_at rs i.
Proof.
  move=> hi [->|[r' [a [h1 h2]]]]; [by left|].
  case: i hi h1 => [|i] hi h1; [by left|].
  right. exists r', a. split => //. rewrite nth_error_app1 in h1 => //. lia.
Qed.
Lemma evaluated_rounds_snoc x0 (rs : list (round M)) r : rounds_evaluated x0 rs ->
  (evaluated_at rs (length rs) -> reeval x0 (r_tr r) = r_tr r /\ r_cost r = stored_cost (reeval x0 (r_tr r))) ->
  rounds_evaluated x0 (rs ++ [r]).
Proof.
  move=> h hr i r' hi he. case: (nth_snoc hi) => [[hl hi']|[ei er]].
  - apply: h hi' _. apply: evaluated_snoc he. lia.
  - subst. apply: hr. exact: evaluated_snoc he.
Qed.
Lemma carried_snoc (rs : list (round M)) r : values_carried rs ->
  (forall a, last_acc rs = Some a -> r_cost r = a_cost a /\ r_gap r = a_gap a /\ r_con r = a_con a) ->
  values_carried (rs ++ [r]).
Proof.
  move=> h hl i r1 r2 a hi hi' ha.
  case: (nth_snoc hi') => [[hlt hi'']|[ei er]].
  - have hi0 : nth_error rs i = Some r1 by rewrite nth_error_app1 in hi => //; lia.
    exact: h hi0 hi'' ha.
  - have hi0 : nth_error rs i = Some r1 by rewrite nth_error_app1 in hi => //; lia.
    subst r2. apply: hl. rewrite /last_acc. replace (length rs - 1) with i by lia. by rewrite hi0.
Qed.

Lemma nth_rev' A (l : list A) j x : nth_error l j = Some x -> nth_error (rev l) (length l - 1 - j) = Some x.
Proof.
  elim: l j => [|y l ih] j /=; first by case: j.
  case: j => [|j] /= h.
  - case: h => ->. rewrite nth_error_app2; rewrite rev_length; first lia.
    by replace (length l - 0 - 0 - length l) with 0 by lia.
  - have hl : j < length l by apply/nth_error_Some; rewrite h.
    rewrite nth_error_app1; first (rewrite rev_length; lia).
    rewrite -(ih j h). congr nth_error. lia.
Qed.
(** the filter test of the code against the specification *)
Lemma nth_map A B (f : A -> B) l k x : nth_error l k = Some x -> nth_error (map f l) k = Some (f x).
Proof. by elim: l k => [|y l ih] [|k] //=; [move=> [<-]|apply: ih]. Qed.
Lemma holds_recent A n (f : round M -> A) (rs : list (round M)) b k r :
  holds n (rev (map f rs)) b -> k < n -> nth_error (rev rs) k = Some r ->
  cb_get b (n - 1 - k) = Some (f r).
Proof. move=> [_ [_ h]] hk hr. apply: (h k) => //. rewrite -map_rev. exact: nth_map. Qed.
Lemma accept_spec p (rs : list (round M)) r test iter a :
  length rs = iter ->
  (forall k rk, k < ls_size p -> nth_error (rev (rs ++ [r])) k = Some rk ->
     test (ls_size p - 1 - k) = Some (dominates p (trial_of p (r_tr r) a) rk)) ->
  filter_worse test (ls_size p) iter =
  Some (existsb (dominates p (trial_of p (r_tr r) a)) (recent (ls_size p) (rs ++ [r]))).
Proof. move=> hl ht. apply: filter_recent => //. rewrite rev_length app_length /=. lia. Qed.
(** the [n] most recent of the rounds up to round i *)
Lemma recent_iff A n (rs : list A) i r rj : nth_error rs i = Some r ->
  (In rj (recent n (firstn i rs ++ [r])) <-> exists j, nth_error rs j = Some rj /\ j <= i < j + n).
Proof.
  move=> hi. have hil : i < length rs by apply/nth_error_Some; rewrite hi.
  have hpre : firstn i rs ++ [r] = firstn (S i) rs.
  { move: hi {hil}. elim: rs i => [|r1 rs ih] [|i] //=; [by move=> [->]|]. move=> /ih. by rewrite /= => ->. }
  have hlen : length (firstn (S i) rs) = S i by rewrite firstn_length; lia.
  rewrite hpre /recent. split.
  - move=> hin. case: (In_nth_error _ _ hin) => k hk.
    have hk1 : k < length (firstn n (rev (firstn (S i) rs))) by apply/nth_error_Some; rewrite hk.
    rewrite firstn_length rev_length hlen in hk1.
    have h3 : nth_error (rev (firstn (S i) rs)) k = Some rj.
    { rewrite -(firstn_skipn n (rev (firstn (S i) rs))) nth_error_app1 //.
      rewrite firstn_length rev_length hlen. lia. }
    exists (i - k). split; [|lia].
    have := nth_rev' h3. rewrite rev_involutive rev_length hlen.
    replace (S i - 1 - k) with (i - k) by lia. move=> h4.
    rewrite -(firstn_skipn (S i) rs) nth_error_app1 //. rewrite hlen. lia.
  - move=> [j [hj hji]].
    have hj' : nth_error (firstn (S i) rs) j = Some rj.
    { have : nth_error (firstn (S i) rs ++ skipn (S i) rs) j = Some rj by rewrite firstn_skipn.
      rewrite nth_error_app1 //. lia. }
    apply: (@nth_error_In _ _ (i - j)).
    have := nth_rev' hj'. rewrite hlen. move=> hr.
    have : nth_error (firstn n (rev (firstn (S i) rs)) ++ skipn n (rev (firstn (S i) rs))) (i - j) = Some rj.
    { rewrite firstn_skipn -hr. congr nth_error. lia. }
    rewrite nth_error_app1 //. rewrite firstn_length rev_length hlen. lia.
Qed.
Lemma find_split A (f : A -> bool) l a : find f l = Some a ->
  f a = true /\ exists pre post, l = pre ++ a :: post /\ forall d, In d pre -> f d = false.
Proof.
  elim: l => [|d l ih] //=. case ed: (f d).
  - move=> [<-]. split => //. by exists [], l.
  - move=> /ih [h1 [pre [post [-> hp]]]]. split => //. exists (d :: pre), post. split => //.
    by move=> d' [<-|/hp].
Qed.
End Traces.
