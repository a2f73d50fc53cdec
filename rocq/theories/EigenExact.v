(** * Exact interpretation of the numerical interface.

    Scalars are an arbitrary [realFieldType] (ordered field) [F]; vectors and
    matrices are mathcomp matrices; there are no NaN/infinite scalars, except for
    the extended scalars used by the ADMM residual norms.  [sq] stands for
    [std::sqrt], of which nothing is assumed.  The Cholesky solver is the
    textbook recursion on Schur complements (only the lower triangle is read);
    that it succeeds exactly on positive definite matrices and then solves the
    system is proved in ExactLemmas.v, not assumed. *)
From Coq Require Import ZArith.
Set Warnings "-notation-overridden,-ambiguous-paths".
From mathcomp Require Import all_ssreflect all_algebra.
From Verif Require Import Eigen.

Set Implicit Arguments.
Unset Strict Implicit.
Unset Printing Implicit Defensive.

Import Order.TTheory GRing.Theory Num.Theory.
Local Open Scope ring_scope.

Section Exact.
Variable F : realFieldType.
Variable sq : F -> F.

(** literals *)
Fixpoint posr (p : positive) : F :=
  match p with
  | xH => 1
  | xO q => posr q + posr q
  | xI q => posr q + posr q + 1
  end.
Definition Zr (z : Z) : F :=
  match z with Z0 => 0 | Zpos p => posr p | Zneg p => - posr p end.
Definition xlit (n : Z) (d : positive) : F := Zr n / posr d.

(** extended scalars, IEEE rules without signed zeros *)
Inductive extF := EFin of F | EPInf | ENInf | ENaN.
Definition xeto (x : extF) : F := if x is EFin a then a else 0.
Definition xeadd (x y : extF) : extF :=
  match x, y with
  | ENaN, _ | _, ENaN => ENaN
  | EFin a, EFin b => EFin (a + b)
  | EPInf, ENInf | ENInf, EPInf => ENaN
  | EPInf, _ | _, EPInf => EPInf
  | ENInf, _ | _, ENInf => ENInf
  end.
Definition xsgn_inf (pos : bool) : extF := if pos then EPInf else ENInf.
Definition xemul (x y : extF) : extF :=
  match x, y with
  | ENaN, _ | _, ENaN => ENaN
  | EFin a, EFin b => EFin (a * b)
  | EFin a, EPInf | EPInf, EFin a => if a == 0 then ENaN else xsgn_inf (0 < a)
  | EFin a, ENInf | ENInf, EFin a => if a == 0 then ENaN else xsgn_inf (a < 0)
  | EPInf, EPInf | ENInf, ENInf => EPInf
  | EPInf, ENInf | ENInf, EPInf => ENInf
  end.
Definition xediv (x y : extF) : extF :=
  match x, y with
  | ENaN, _ | _, ENaN => ENaN
  | EFin a, EFin b =>
      if b == 0 then (if a == 0 then ENaN else xsgn_inf (0 < a)) else EFin (a / b)
  | EFin _, _ => EFin 0
  | EPInf, EFin b => xsgn_inf (0 <= b)
  | ENInf, EFin b => xsgn_inf (b < 0)
  | _, _ => ENaN
  end.
Definition xesqrt (x : extF) : extF :=
  match x with
  | EFin a => if a < 0 then ENaN else EFin (sq a)
  | EPInf => EPInf
  | _ => ENaN
  end.
Definition xelt (x y : extF) : bool :=
  match x, y with
  | ENaN, _ | _, ENaN => false
  | EFin a, EFin b => a < b
  | ENInf, ENInf | EPInf, EPInf => false
  | ENInf, _ => true
  | _, ENInf => false
  | _, EPInf => true
  | EPInf, _ => false
  end.
Definition xele (x y : extF) : bool :=
  match x, y with
  | ENaN, _ | _, ENaN => false
  | EFin a, EFin b => a <= b
  | ENInf, _ => true
  | _, ENInf => false
  | _, EPInf => true
  | EPInf, _ => false
  end.

Definition xvec (A : Type) (n : nat) : Type := 'cV[A]_n.
Definition xconst (A : Type) (n : nat) (a : A) : 'cV[A]_n := \matrix_(i, j) a.
Definition xmap (A B : Type) (n : nat) (f : A -> B) (v : 'cV[A]_n) : 'cV[B]_n :=
  \matrix_(i, j) f (v i j).
Definition xzip (A B C : Type) (n : nat) (f : A -> B -> C) (v : 'cV[A]_n) (w : 'cV[B]_n) : 'cV[C]_n :=
  \matrix_(i, j) f (v i j) (w i j).
Definition xdot (n : nat) (v w : 'cV[F]_n) : F := (v^T *m w) 0 0.
Definition xl1 (n : nat) (v : 'cV[F]_n) : F := \sum_i `|v i 0|.
Definition xlinf (m n : nat) (v : 'M[F]_(m, n)) : F :=
  \big[Num.max/0]_i \big[Num.max/0]_j `|v i j|.
Definition xupper (n : nat) (A : 'M[F]_n) : 'M[F]_n :=
  \matrix_(i, j) (if (i <= j)%N then A i j else A j i).

(** Cholesky success test: positive pivots of the successive Schur complements *)
Definition schur (n : nat) (A : 'M[F]_(1 + n)) : 'M[F]_n :=
  drsubmx A - (A 0 0)^-1 *: (dlsubmx A *m (dlsubmx A)^T).
Fixpoint chol_ok (n : nat) : 'M[F]_n -> bool :=
  match n return 'M[F]_n -> bool with
  | O => fun _ => true
  | n'.+1 => fun A : 'M[F]_(1 + n') => (0 < A 0 0) && chol_ok (schur A)
  end.
(** forward and backward substitution *)
Fixpoint chol_solve (n p : nat) : 'M[F]_n -> 'M[F]_(n, p) -> 'M[F]_(n, p) :=
  match n return 'M[F]_n -> 'M[F]_(n, p) -> 'M[F]_(n, p) with
  | O => fun _ B => B
  | n'.+1 => fun (A : 'M[F]_(1 + n')) (B : 'M[F]_(1 + n', p)) =>
      let a := A 0 0 in
      let v := dlsubmx A in
      let x := @chol_solve n' p (schur A) (dsubmx B - a^-1 *: (v *m usubmx B)) in
      col_mx (a^-1 *: (usubmx B - v^T *m x)) x
  end.

Definition ExactE : Eig := {|
  R := F; r0 := 0; r1 := 1; rlit := xlit;
  radd := fun a b => a + b; rsub := fun a b => a - b; rmul := fun a b => a * b;
  rdiv := fun a b => a / b; ropp := fun a => - a; rabs := fun a => `|a|;
  rlt := fun a b => a < b; rle := fun a b => a <= b; req := fun a b => a == b;
  risnan := fun _ => false; risinf := fun _ => false;
  ext := extF; eninf := ENInf; efin := EFin; eto := xeto;
  eadd := xeadd; emul := xemul; ediv := xediv; esqrt := xesqrt; elt := xelt; ele := xele;
  cvec := xvec; cconst := xconst; cmap := xmap; czip := xzip;
  vzero := fun n => 0;
  vadd := fun n v w => v + w; vsub := fun n v w => v - w; vopp := fun n v => - v;
  vscale := fun n c v => c *: v; vdot := xdot; vl1 := xl1; vlinf := fun n v => xlinf v;
  mat := fun m n => 'M[F]_(m, n); mzero := fun m n => 0;
  madd := fun m n A B => A + B; msub := fun m n A B => A - B;
  mscale := fun m n c A => c *: A; mmul := fun m n p A B => A *m B;
  mmulv := fun m n A v => A *m v; mtr := fun m n A => A^T;
  madddiag := fun n A c => A + c%:M; mdiagmul := fun m n v A => diag_mx v^T *m A;
  mupper := xupper; mlinf := xlinf;
  llt_ok := chol_ok; llt_solvev := fun n A b => chol_solve A b;
  llt_solvem := fun n p A B => chol_solve A B
|}.

End Exact.
Arguments xlit : simpl never.
Arguments Zr : simpl never.
Arguments posr : simpl never.
