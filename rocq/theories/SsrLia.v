(** [lia] on mathcomp's natural number operations (instances for Coq's own zify). *)
From Coq Require Import ZArith ZifyClasses ZifyInst ZifyBool Lia.
Set Warnings "-notation-overridden,-ambiguous-paths".
From mathcomp Require Import ssreflect ssrbool ssrnat.

#[global] Instance Op_addn : BinOp addn := @mkbop nat nat nat Z Z Z addn _ _ _ Z.add Nat2Z.inj_add.
Add Zify BinOp Op_addn.
#[global] Instance Op_muln : BinOp muln := @mkbop nat nat nat Z Z Z muln _ _ _ Z.mul Nat2Z.inj_mul.
Add Zify BinOp Op_muln.
#[global] Instance Op_subn : BinOp subn := @mkbop nat nat nat Z Z Z subn _ _ _ (fun a b => Z.max 0 (a - b)) Nat2Z.inj_sub_max.
Add Zify BinOp Op_subn.
Lemma leqZ (a b : nat) : leq a b = Z.leb (Z.of_nat a) (Z.of_nat b).
Proof. by apply/idP/idP => [/leP|] h; [apply/Z.leb_le|apply/leP; move/Z.leb_le: h]; lia. Qed.
#[global] Instance Op_leq : BinOp leq := @mkbop nat nat bool Z Z bool leq _ _ _ Z.leb leqZ.
Add Zify BinOp Op_leq.
Ltac slia := unfold is_true in *; lia.

Goal forall a m w i : nat, a + m <= w -> i < m -> a + i < w /\ (w = a + (m + (w - a - m)))%nat.
Proof. intros. split; slia. Qed.
