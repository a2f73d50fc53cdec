(** * The circular buffers and the filter loop. *)
From Coq Require Import ZArith List Bool Arith Lia ssreflect.
From Verif Require Import Eigen Filter.
Import ListNotations.
Set Implicit Arguments.
Unset Strict Implicit.
Set Asymmetric Patterns.

Lemma filter_loopP test fsize iter : forall fuel count, fuel + count = fsize ->
  match filter_loop test fsize iter fuel count with
  | None => exists k, count <= k < fsize /\ k <= iter /\ test (fsize - 1 - k) = None
  | Some true => exists k, count <= k < fsize /\ k <= iter /\ test (fsize - 1 - k) = Some true
  | Some false => forall k, count <= k < fsize -> k <= iter -> test (fsize - 1 - k) = Some false
  end.
Proof.
  elim=> [|f ih] count h /=.
  - move=> k hk; lia.
  - case hle: (count <=? iter).
    + move/Nat.leb_le: hle => hle.
      case ht: (test _) => [[]|].
      * exists count. split; [lia|]. by split.
      * have := ih (S count) ltac:(lia).
        case: (filter_loop _ _ _ _ _) => [[]|].
        -- move=> [k [h1 [h2 h3]]]. exists k. split; [lia|]. by split.
        -- move=> h1 k hk hi. case: (Nat.eq_dec k count) => [->|hne]; first exact: ht.
           apply: h1; lia.
        -- move=> [k [h1 [h2 h3]]]. exists k. split; [lia|]. by split.
      * exists count. split; [lia|]. by split.
    + move/Nat.leb_gt: hle => hle k hk hi. lia.
Qed.
Lemma filter_worseP test fsize iter :
  match filter_worse test fsize iter with
  | None => exists k, k < fsize /\ k <= iter /\ test (fsize - 1 - k) = None
  | Some true => exists k, k < fsize /\ k <= iter /\ test (fsize - 1 - k) = Some true
  | Some false => forall k, k < fsize -> k <= iter -> test (fsize - 1 - k) = Some false
  end.
Proof.
  rewrite /filter_worse. have := @filter_loopP test fsize iter fsize 0 (Nat.add_0_r _).
  case: (filter_loop _ _ _ _ _) => [[]|].
  - move=> [k [h1 [h2 h3]]]. exists k. split; [lia|]. by split.
  - move=> h k h1 h2. apply: h; lia.
  - move=> [k [h1 [h2 h3]]]. exists k. split; [lia|]. by split.
Qed.
Lemma filter_loop_ext test test' fsize iter : (forall i, test i = test' i) ->
  forall fuel count, filter_loop test fsize iter fuel count = filter_loop test' fsize iter fuel count.
Proof. move=> h; elim=> [|f ih] count //=. rewrite h. case: (_ <=? _) => //. case: (test' _) => [[]|] //. Qed.
Lemma filter_worse_ext test test' fsize iter : (forall i, test i = test' i) ->
  filter_worse test fsize iter = filter_worse test' fsize iter.
Proof. move=> h. exact: filter_loop_ext. Qed.

(** ** Buffers filled to capacity [n] that contain the last pushes *)
Section Buf.
Variable A : Type.
(** the buffer has exactly [n] slots, all occupied, and its last slots hold the
    values pushed so far, most recent first in [h] *)
Definition holds (n : nat) (h : list A) (b : cbuf A) : Prop :=
  cap b = n /\ length (items b) = n /\
  forall k x, k < n -> nth_error h k = Some x -> nth_error (items b) (n - 1 - k) = Some x.

Lemma holds_push n h b x : holds n h b -> holds n (x :: h) (cb_push x b).
Proof.
  move=> [hc [hl hh]]. rewrite /cb_push /holds hc.
  case: (Nat.eqb_spec n 0) => [e|hn].
  - split; [done|]. split; [done|]. move=> k y hk; lia.
  - rewrite hl Nat.eqb_refl /=.
    case: (items b) hl hh => [|y0 l] /= hl hh; first lia.
    split; [done|]. split; [rewrite app_length /=; lia|].
    move=> [|k] y hk /=.
    + move=> [<-]. rewrite nth_error_app2; first lia.
      replace (n - 1 - 0 - length l) with 0 by lia. done.
    + move=> hy. rewrite nth_error_app1; first lia.
      move: (hh k y ltac:(lia) hy).
      by replace (n - 1 - k) with (S (n - 1 - S k)) by lia.
Qed.
Lemma holds_new n (d : A) : holds n [] (cb_resize n d (cb_empty A)).
Proof.
  rewrite /cb_resize /cb_empty /=. case: n => [|n] /=.
  - split => //. split => // k x hk. lia.
  - split => //. split; [by rewrite /= repeat_length|]. move=> k x _. by case: k.
Qed.
Lemma holds_forget n h b : holds n h b -> holds n [] b.
Proof. move=> [h1 [h2 h3]]. split => //. split => // k x _. by case: k. Qed.
(** growing (or keeping) the size keeps the buffer usable; old entries are no
    longer at the end *)
Lemma holds_grow n n' (d : A) b : n <= n' -> holds n [] b -> holds n' [] (cb_resize n' d b).
Proof.
  move=> hn [h1 [h2 _]]. rewrite /cb_resize /holds h2.
  case: (Nat.ltb_spec n n') => hlt /=.
  - rewrite h1 app_length repeat_length h2. split; [lia|]. split; [lia|]. move=> k x _; by case: k.
  - have e : n = n' by lia. subst n'. rewrite firstn_all2; first lia.
    split => //. split => //. move=> k x _; by case: k.
Qed.
End Buf.

(** the filter loop examines exactly the most recent entries *)
Lemma filter_recent A (h : list A) (P : A -> bool) test n iter : length h = S iter ->
  (forall k x, k < n -> nth_error h k = Some x -> test (n - 1 - k) = Some (P x)) ->
  filter_worse test n iter = Some (existsb P (firstn n h)).
Proof.
  move=> hl ht. have := filter_worseP test n iter.
  have some k : k <= iter -> exists x, nth_error h k = Some x.
  { move=> hk. case e: (nth_error h k) => [x|]; first by exists x.
    move/nth_error_None: e => e. lia. }
  have inf k x : k < n -> nth_error h k = Some x -> In x (firstn n h).
  { move=> hk hx. apply: (@nth_error_In _ _ k). move: hx; clear -hk; elim: n k h hk => [|n ih] [|k] [|y h] //=; [lia|lia|move=> hk; apply: ih; lia]. }
  case: (filter_worse _ _ _) => [[]|].
  - move=> [k [h1 [h2 h3]]]. case: (some k h2) => x hx. rewrite (ht k x h1 hx) in h3. case: h3 => h3.
    congr Some. symmetry. apply/existsb_exists. exists x. split => //. exact: inf hx.
  - move=> hf. congr Some. symmetry. case e: (existsb _ _) => //. move/existsb_exists: e => [x [hin hx]].
    case: (In_nth_error _ _ hin) => k hk.
    have [hkn hk'] : k < n /\ nth_error h k = Some x.
    { move: hk. clear. elim: n k h => [|n ih] [|k] [|y h] //=.
      - move=> ->. split; [lia|done].
      - move=> hk. case: (ih _ _ hk) => h1 h2. split; [lia|done]. }
    have hki : k <= iter. { have : k < length h by apply/nth_error_Some; rewrite hk'. lia. }
    have := hf k hkn hki. rewrite (ht k x hkn hk') hx. by [].
  - move=> [k [h1 [h2 h3]]]. case: (some k h2) => x hx. by rewrite (ht k x h1 hx) in h3.
Qed.
