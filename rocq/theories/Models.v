(** * Concrete shooting problems: Euclidean states and linear-quadratic action
    models, for any interpretation of the arithmetic.

    They are instances of the problem interface of Problem.v (not part of
    mim_solvers): the LQR problems of the test-suite
    (crocoddyl::ActionModelLQR, tests/factory/...), with inequality rows added.
    They serve as the "affine dynamics / quadratic cost" class of C11, C12 and as
    witnesses that hypotheses are satisfiable. *)
From Coq Require Import ZArith List Bool.
From Verif Require Import Eigen Problem.
Import ListNotations.
Set Implicit Arguments.
Unset Strict Implicit.

Section Models.
Variable E : Eig.
Variable n : nat.
Notation R := (R E).
Notation vec := (vec E).
Notation mat := (mat E).

(** crocoddyl::StateVector *)
Definition euclid : manifold E :=
  mkManifold (vec n) n (fun x d => vadd E x d) (fun a b => vsub E b a) (vzero E) (fun x => vlinf E x).

(** cost 1/2 x'Qx + x'Su + 1/2 u'Ru + q'x + r'u, dynamics Ax + Bu + f,
    constraint rows  lb <= Cx + Du + h <= ub *)
Record lq (m p : nat) := mkLq {
  lA : mat n n; lB : mat n m; lf : vec n;
  lQ : mat n n; lS : mat n m; lR : mat m m; lq_q : vec n; lq_r : vec m;
  lC : mat p n; lD : mat p m; lh : vec p; l_lb : bvec E p; l_ub : bvec E p
}.
Definition half (a : R) : R := rmul E (rlit E 1 2) a.
Definition lq_cost m p (d : lq m p) (x : vec n) (u : vec m) : R :=
  radd E (radd E (radd E (radd E (half (vdot E x (mmulv E (lQ d) x))) (vdot E x (mmulv E (lS d) u)))
    (half (vdot E u (mmulv E (lR d) u)))) (vdot E (lq_q d) x)) (vdot E (lq_r d) u).
Definition lq_next m p (d : lq m p) (x : vec n) (u : vec m) : vec n :=
  vadd E (vadd E (mmulv E (lA d) x) (mmulv E (lB d) u)) (lf d).
Definition lq_g m p (d : lq m p) (x : vec n) (u : vec m) : vec p :=
  vadd E (vadd E (mmulv E (lC d) x) (mmulv E (lD d) u)) (lh d).
(** the data object remembers the point of the last calc *)
Definition lq_model m p (d : lq m p) : amodel euclid :=
  @mkAmodel E euclid m p 0 (vec n * vec m)%type
    (fun x u => (x, u)) (fun x => (x, vzero E))
    (fun w => lq_cost d (fst w) (snd w)) (fun w => lq_next d (fst w) (snd w))
    (fun w => lq_g d (fst w) (snd w))
    (fun _ x u => @mkDerivs E euclid m p
       (vadd E (vadd E (mmulv E (lQ d) x) (mmulv E (lS d) u)) (lq_q d))
       (vadd E (vadd E (mmulv E (mtr E (lS d)) x) (mmulv E (lR d) u)) (lq_r d))
       (lQ d) (lS d) (lR d) (lA d) (lB d) (lC d) (lD d))
    (l_lb d) (l_ub d).

Record tlq (p : nat) := mkTlq {
  ltQ : mat n n; ltq : vec n; ltC : mat p n; lth : vec p; lt_lb : bvec E p; lt_ub : bvec E p
}.
Definition lq_tmodel p (d : tlq p) : tmodel euclid :=
  @mkTmodel E euclid p 0 (vec n)
    (fun x => x)
    (fun x => radd E (half (vdot E x (mmulv E (ltQ d) x))) (vdot E (ltq d) x))
    (fun x => vadd E (mmulv E (ltC d) x) (lth d))
    (fun _ x => @mkTderivs E euclid p (vadd E (mmulv E (ltQ d) x) (ltq d)) (ltQ d) (ltC d))
    (lt_lb d) (lt_ub d).
End Models.
