(** * The numerical interface used by mim_solvers: doubles + Eigen.

    Every model function of this development is written against the record
    [Eig] below, which collects the scalar operations, the dense vector/matrix
    operations of Eigen and the Cholesky solver [Eigen::LLT] that the C++ code
    calls.  Two interpretations are given: exact arithmetic over an arbitrary
    ordered field (EigenExact.v) and IEEE-754 binary64 (EigenFloat.v).

    Vectors and matrices are dimension-indexed: run-time size errors of Eigen
    are therefore not part of the model. *)
From Coq Require Import ZArith List Bool.

Set Implicit Arguments.
Set Asymmetric Patterns.

Record Eig := mkEig {
  (** scalars: [double] *)
  R : Type;
  r0 : R;
  r1 : R;
  rlit : Z -> positive -> R;           (* decimal literal  n/d, correctly rounded *)
  radd : R -> R -> R;
  rsub : R -> R -> R;
  rmul : R -> R -> R;
  rdiv : R -> R -> R;
  ropp : R -> R;
  rabs : R -> R;
  rlt : R -> R -> bool;                (* a <  b *)
  rle : R -> R -> bool;                (* a <= b *)
  req : R -> R -> bool;                (* a == b *)
  risnan : R -> bool;                  (* std::isnan *)
  risinf : R -> bool;                  (* std::isinf *)

  (** doubles that may be infinite even in exact arithmetic: the ADMM residual
      norms of SolverCSQP start at -infinity (csqp.cpp:1201-1204). *)
  ext : Type;
  eninf : ext;                         (* -numeric_limits<double>::infinity() *)
  efin : R -> ext;
  eto : ext -> R;                      (* read back a finite value *)
  eadd : ext -> ext -> ext;
  emul : ext -> ext -> ext;
  ediv : ext -> ext -> ext;
  esqrt : ext -> ext;
  elt : ext -> ext -> bool;
  ele : ext -> ext -> bool;

  (** Eigen::VectorXd; [cvec A n] holds n entries of type A *)
  cvec : Type -> nat -> Type;
  cconst : forall {A n}, A -> cvec A n;
  cmap : forall {A B n}, (A -> B) -> cvec A n -> cvec B n;
  czip : forall {A B C n}, (A -> B -> C) -> cvec A n -> cvec B n -> cvec C n;
  vzero : forall {n}, cvec R n;
  vadd : forall {n}, cvec R n -> cvec R n -> cvec R n;
  vsub : forall {n}, cvec R n -> cvec R n -> cvec R n;
  vopp : forall {n}, cvec R n -> cvec R n;
  vscale : forall {n}, R -> cvec R n -> cvec R n;
  vdot : forall {n}, cvec R n -> cvec R n -> R;
  vl1 : forall {n}, cvec R n -> R;       (* lpNorm<1>() *)
  vlinf : forall {n}, cvec R n -> R;     (* lpNorm<Eigen::Infinity>() *)

  (** Eigen::MatrixXd, m rows and n columns *)
  mat : nat -> nat -> Type;
  mzero : forall {m n}, mat m n;
  madd : forall {m n}, mat m n -> mat m n -> mat m n;
  msub : forall {m n}, mat m n -> mat m n -> mat m n;
  mscale : forall {m n}, R -> mat m n -> mat m n;
  mmul : forall {m n p}, mat m n -> mat n p -> mat m p;
  mmulv : forall {m n}, mat m n -> cvec R n -> cvec R m;
  mtr : forall {m n}, mat m n -> mat n m;
  madddiag : forall {n}, mat n n -> R -> mat n n;        (* diagonal().array() += c *)
  mdiagmul : forall {m n}, cvec R m -> mat m n -> mat m n; (* v.asDiagonal() * M *)
  mupper : forall {n}, mat n n -> mat n n;  (* triangularView<Upper> then selfadjointView<Upper> *)
  mlinf : forall {m n}, mat m n -> R;      (* lpNorm<Eigen::Infinity>() *)

  (** Eigen::LLT *)
  llt_ok : forall {n}, mat n n -> bool;     (* compute(A); info() == Success *)
  llt_solvev : forall {n}, mat n n -> cvec R n -> cvec R n;       (* solveInPlace *)
  llt_solvem : forall {n p}, mat n n -> mat n p -> mat n p
}.

Section Derived.
Variable E : Eig.
Implicit Types a b : R E.

Definition vec (n : nat) : Type := cvec E (R E) n.
(** a bound vector: [None] is the infinite side (-inf for lower, +inf for upper) *)
Definition bvec (n : nat) : Type := cvec E (option (R E)) n.

Definition rgt a b : bool := rlt E b a.
Definition rge a b : bool := rle E b a.

(** std::max(a,b) = (a < b) ? b : a;  std::min(a,b) = (b < a) ? b : a *)
Definition std_max a b : R E := if rlt E a b then b else a.
Definition std_min a b : R E := if rlt E b a then b else a.
Definition estd_max (a b : ext E) : ext E := if elt E a b then b else a.
Definition estd_min (a b : ext E) : ext E := if elt E b a then b else a.

(** crocoddyl::raiseIfNaN (crocoddyl/core/utils/exception.hpp):
    isnan(value) || isinf(value) || value >= 1e30 *)
Definition raiseIfNaN a : bool :=
  orb (risnan E a) (orb (risinf E a) (rle E (rlit E (10 ^ 30)%Z 1) a)).

End Derived.

Arguments vec : clear implicits.
Arguments bvec : clear implicits.
Arguments rgt {E}. Arguments rge {E}. Arguments std_max {E}. Arguments std_min {E}.
Arguments estd_max {E}. Arguments estd_min {E}. Arguments raiseIfNaN {E}.
