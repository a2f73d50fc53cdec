(** * Dense buffers with block writes: Eigen::MatrixXd / VectorXd addressed through
    block(i,j,m,k), segment(i,m), middleRows/middleCols.

    A buffer is a function of the row and column numbers; only positions below the
    allocated size are ever read.  Out-of-range blocks (which Eigen would assert on) are
    not represented: a write past the end is simply never read. *)
From Coq Require Import Arith Bool Lia.

Set Implicit Arguments.

Definition inr (a m r : nat) : bool := (a <=? r) && (r <? a + m).

Section Buf.
Variable A : Type.
Definition buf := nat -> nat -> A.
Definition vbuf := nat -> A.
(** K.block(i, j, m, k) = B *)
Definition wrb (i j m k : nat) (B : nat -> nat -> A) (K : buf) : buf :=
  fun r c => if inr i m r && inr j k c then B (r - i) (c - j) else K r c.
(** q.segment(i, m) = v *)
Definition wrs (i m : nat) (v : nat -> A) (q : vbuf) : vbuf :=
  fun r => if inr i m r then v (r - i) else q r.
End Buf.

Lemma inrP a m r : reflect (a <= r < a + m) (inr a m r).
Proof.
  unfold inr. destruct (a <=? r) eqn:e1; destruct (r <? a + m) eqn:e2; constructor;
    rewrite ?Nat.leb_le, ?Nat.leb_gt, ?Nat.ltb_lt, ?Nat.ltb_ge in *; lia.
Qed.
Lemma inr_in a m i : i < m -> inr a m (a + i) = true.
Proof. intro h. destruct (inrP a m (a + i)); [reflexivity | lia]. Qed.
Lemma inr_out a m r : r < a \/ a + m <= r -> inr a m r = false.
Proof. intro h. destruct (inrP a m r); [lia | reflexivity]. Qed.

Section Facts.
Variable A : Type.
Implicit Types (B : nat -> nat -> A) (K : buf A) (q : vbuf A) (v : nat -> A).
Lemma wrb_row_out i j m k B K r c : r < i \/ i + m <= r -> wrb i j m k B K r c = K r c.
Proof. intro h. unfold wrb. now rewrite inr_out. Qed.
Lemma wrb_col_out i j m k B K r c : c < j \/ j + k <= c -> wrb i j m k B K r c = K r c.
Proof. intro h. unfold wrb. rewrite (@inr_out j k c) by exact h. now rewrite andb_false_r. Qed.
Lemma wrb_row_in i j m k B K r c : r < m -> wrb i j m k B K (i + r) c = if inr j k c then B r (c - j) else K (i + r) c.
Proof. intro h. unfold wrb. rewrite inr_in by exact h. now rewrite Nat.add_comm, Nat.add_sub. Qed.
Lemma wrb_col_in i j m k B K r c : c < k -> wrb i j m k B K r (j + c) = if inr i m r then B (r - i) c else K r (j + c).
Proof. intro h. unfold wrb. rewrite (@inr_in j k c) by exact h. rewrite andb_true_r. now rewrite (Nat.add_comm j c), Nat.add_sub. Qed.
Lemma wrs_out i m v q r : r < i \/ i + m <= r -> wrs i m v q r = q r.
Proof. intro h. unfold wrs. now rewrite inr_out. Qed.
Lemma wrs_in i m v q r : r < m -> wrs i m v q (i + r) = v r.
Proof. intro h. unfold wrs. rewrite inr_in by exact h. now rewrite Nat.add_comm, Nat.add_sub. Qed.

(** [over W f]: f overwrites exactly the positions W, with values that do not depend on
    the old content *)
Definition over (W : nat -> nat -> bool) (f : buf A -> buf A) : Prop :=
  exists V : buf A, forall K r c, f K r c = if W r c then V r c else K r c.
Definition Wb (i j m k : nat) (r c : nat) : bool := inr i m r && inr j k c.
Definition Wor (W1 W2 : nat -> nat -> bool) (r c : nat) : bool := W1 r c || W2 r c.
Lemma over_wrb i j m k B : over (Wb i j m k) (wrb i j m k B).
Proof. exists (fun r c => B (r - i) (c - j)). reflexivity. Qed.
Lemma over_comp W1 W2 f1 f2 : over W1 f1 -> over W2 f2 -> over (Wor W1 W2) (fun K => f2 (f1 K)).
Proof.
  intros [V1 h1] [V2 h2]. exists (fun r c => if W2 r c then V2 r c else V1 r c). intros K r c.
  rewrite h2, h1. unfold Wor. destruct (W1 r c), (W2 r c); reflexivity.
Qed.
Lemma over_ext W f g : (forall K r c, f K r c = g K r c) -> over W f -> over W g.
Proof. intros h [V e]. exists V. intros. now rewrite <- h, e. Qed.
(** two contents that agree outside W give the same result *)
Lemma over_same W f K1 K2 : over W f -> (forall r c, W r c = false -> K1 r c = K2 r c) -> forall r c, f K1 r c = f K2 r c.
Proof. intros [V e] h r c. rewrite !e. specialize (h r c). destruct (W r c); auto. Qed.
Lemma over_out W f K r c : over W f -> W r c = false -> f K r c = K r c.
Proof. intros [V e] h. now rewrite e, h. Qed.
End Facts.
