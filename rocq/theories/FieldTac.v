(** stdlib [ring]/[field] for an abstract mathcomp field (no plugins beyond
    Coq's own setoid_ring). *)
From Coq Require Import Ring Field.
Set Warnings "-notation-overridden,-ambiguous-paths".
From mathcomp Require Import all_ssreflect all_algebra.
Import GRing.Theory Num.Theory.
Local Open Scope ring_scope.

Section RT.
Variable F : realFieldType.
Definition Fzero : F := 0.
Definition Fone : F := 1.
Definition Fadd (x y : F) : F := x + y.
Definition Fmul (x y : F) : F := x * y.
Definition Fopp (x : F) : F := - x.
Definition Fsub (x y : F) : F := x - y.
Definition Fdiv (x y : F) : F := x / y.
Definition Finv (x : F) : F := x^-1.

Lemma F_ring_theory : ring_theory Fzero Fone Fadd Fmul Fsub Fopp (@eq F).
Proof.
constructor; rewrite /Fzero /Fone /Fadd /Fmul /Fsub /Fopp.
- exact: add0r.
- exact: addrC.
- exact: addrA.
- exact: mul1r.
- exact: mulrC.
- exact: mulrA.
- exact: mulrDl.
- by [].
- exact: subrr.
Qed.

Lemma F_field_theory : field_theory Fzero Fone Fadd Fmul Fsub Fopp Fdiv Finv (@eq F).
Proof.
constructor.
- exact: F_ring_theory.
- by apply/eqP; rewrite oner_eq0.
- by [].
- by move=> p /eqP pn0; rewrite /Fmul /Finv mulVf.
Qed.
End RT.


(** rewrite the goal (an equation in [F]) with the named operations, so that
    [ring] and [field] (declared with [Add Field ... : (F_field_theory F)])
    recognise it *)
Ltac mcfold F :=
  rewrite ?mulr2n ?expr2 ?(@expr0n F) ?expr1;
  repeat match goal with
  | |- context [@GRing.add ?V ?x ?y] => change (@GRing.add V x y) with (Fadd F x y)
  | |- context [@GRing.opp ?V ?x] => change (@GRing.opp V x) with (Fopp F x)
  | |- context [@GRing.mul ?V ?x ?y] => change (@GRing.mul V x y) with (Fmul F x y)
  | |- context [@GRing.inv ?V ?x] => change (@GRing.inv V x) with (Finv F x)
  | |- context [GRing.zero ?V] => change (GRing.zero V) with (Fzero F)
  | |- context [GRing.one ?V] => change (GRing.one V) with (Fone F)
  end;
  match goal with
  | |- @eq _ ?a ?b => change (@eq (Num.RealField.sort F) a b)
  | _ => idtac
  end.
