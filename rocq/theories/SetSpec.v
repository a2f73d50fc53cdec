(** * Specification of the parameter setters: documented ranges, what a call
    assigns and what the getters return (exact arithmetic). *)
From Coq Require Import List.
Set Warnings "-notation-overridden,-ambiguous-paths".
From mathcomp Require Import all_ssreflect all_algebra.
From Verif Require Import Eigen EigenExact Problem DDP FDDP Setters.

Set Implicit Arguments.
Unset Strict Implicit.
Unset Printing Implicit Defensive.

Import GRing.Theory Num.Theory.
Local Open Scope ring_scope.

Section S.
Variable F : realFieldType.
Variable sq : F -> F.
Notation E := (ExactE sq).

(** the documented range: factors above 1, bounds and gradient / negative-step
    thresholds not negative, step thresholds in (0,1], step lengths after the
    first positive and strictly decreasing; the tolerance is unrestricted *)
Fixpoint decreasing (prev : F) (l : list F) : Prop :=
  match l with nil => True | a :: l' => (0 < a /\ a < prev) /\ decreasing a l' end.
Definition documented (k : call E) : Prop :=
  match k with
  | CallIncfactor v | CallDecfactor v | CallRegfactor v => 1 < (v : F)
  | CallRegMin v | CallRegMax v | CallGrad v | CallNegstep v => 0 <= (v : F)
  | CallStepdec v | CallStepinc v => 0 < (v : F) /\ (v : F) <= 1
  | CallAlphas l => exists a l', l = a :: l' /\ decreasing a l'
  | CallTolerance _ => True
  end.

(** the parameters, as returned by their getters (a scalar as a one-element list) *)
Inductive param := Incfactor | Decfactor | RegMin | RegMax | Alphas | Stepdec | Stepinc | Grad | Negstep | Tolerance.
Definition param_eqb (p q : param) : bool :=
  match p, q with
  | Incfactor, Incfactor | Decfactor, Decfactor | RegMin, RegMin | RegMax, RegMax | Alphas, Alphas
  | Stepdec, Stepdec | Stepinc, Stepinc | Grad, Grad | Negstep, Negstep | Tolerance, Tolerance => true
  | _, _ => false end.
Definition get (p : param) (c : fcfg E) : list F :=
  match p with
  | Incfactor => [:: c_inc (fc_ddp c)] | Decfactor => [:: c_dec (fc_ddp c)]
  | RegMin => [:: c_rmin (fc_ddp c)] | RegMax => [:: c_rmax (fc_ddp c)]
  | Alphas => c_alphas (fc_ddp c)
  | Stepdec => [:: c_stepdec (fc_ddp c)] | Stepinc => [:: c_stepinc (fc_ddp c)]
  | Grad => [:: c_grad (fc_ddp c)] | Negstep => [:: fc_neg c] | Tolerance => [:: c_tol (fc_ddp c)]
  end.
(** members without a setter here *)
Definition others (c : fcfg E) := (c_accept (fc_ddp c), c_ncb (fc_ddp c), fc_filter c, fc_fsize c).

(** what a call assigns to parameter [p], if anything *)
Definition assigns (k : call E) (p : param) : option (list F) :=
  match k, p with
  | CallIncfactor v, Incfactor | CallDecfactor v, Decfactor
  | CallRegfactor v, Incfactor | CallRegfactor v, Decfactor
  | CallRegMin v, RegMin | CallRegMax v, RegMax | CallStepdec v, Stepdec | CallStepinc v, Stepinc
  | CallGrad v, Grad | CallNegstep v, Negstep | CallTolerance v, Tolerance => Some [:: v]
  | CallAlphas l, Alphas => Some l
  | _, _ => None
  end.

(** a client that makes the calls [ks] one after the other, catching exceptions *)
Inductive client : list (call E) -> fcfg E -> fcfg E -> Prop :=
  | client_nil c : client nil c c
  | client_cons k ks c c1 c2 : exec k c = SetDone c1 \/ exec k c = SetRaise c1 ->
      client ks c1 c2 -> client (k :: ks) c c2.
(** [holds ks p v0 v]: v is the value given by the last call of [ks] that is in its
    documented range and assigns [p], or v0 if there is none *)
Inductive holds : list (call E) -> param -> list F -> list F -> Prop :=
  | holds_nil p v : holds nil p v v
  | holds_other k ks p v0 v : (documented k -> assigns k p = None) -> holds ks p v0 v -> holds (k :: ks) p v0 v
  | holds_set k ks p v0 v1 v : documented k -> assigns k p = Some v1 -> holds ks p v1 v -> holds (k :: ks) p v0 v.
(** all parameters in their ranges *)
Definition in_range (c : fcfg E) : Prop :=
  [/\ 1 < (c_inc (fc_ddp c) : F), 1 < (c_dec (fc_ddp c) : F), 0 <= (c_rmin (fc_ddp c) : F) &
      [/\ 0 <= (c_rmax (fc_ddp c) : F), 0 < (c_stepdec (fc_ddp c) : F) /\ (c_stepdec (fc_ddp c) : F) <= 1,
          0 < (c_stepinc (fc_ddp c) : F) /\ (c_stepinc (fc_ddp c) : F) <= 1 &
          [/\ 0 <= (c_grad (fc_ddp c) : F), 0 <= (fc_neg c : F) &
              exists a l, c_alphas (fc_ddp c) = a :: l /\ decreasing a l]]].
End S.
