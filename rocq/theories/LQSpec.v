(** * Specification: linear-quadratic subproblems on plain matrices.

    This file does not mention the solvers.  An LQ problem over n-dimensional
    states is a list of stages; stage t has
      cost   1/2 x'Qx + q'x + x'Su + 1/2 u'Ru + r'u
      next   x+ = A x + B u + f
    and the terminal cost is 1/2 x'QT x + qT'x. *)
Set Warnings "-notation-overridden,-ambiguous-paths".
From mathcomp Require Import all_ssreflect all_algebra.

Set Implicit Arguments.
Unset Strict Implicit.
Unset Printing Implicit Defensive.

Import GRing.Theory Num.Theory.
Local Open Scope ring_scope.

Section LQ.
Variable F : realFieldType.
Variable n : nat.

(** One stage together with a candidate solution: state x, control u and
    multiplier (costate) l of that stage. *)
Record stage := mkStage {
  sm : nat;
  sA : 'M[F]_n; sB : 'M[F]_(n, sm);
  sq : 'cV[F]_n; sr : 'cV[F]_sm;
  sQ : 'M[F]_n; sS : 'M[F]_(n, sm); sR : 'M[F]_sm;
  sf : 'cV[F]_n;
  sx : 'cV[F]_n; su : 'cV[F]_sm; sl : 'cV[F]_n
}.
Record final := mkFinal {
  tQ : 'M[F]_n; tq : 'cV[F]_n;
  tsx : 'cV[F]_n; tsl : 'cV[F]_n
}.

(** multiplier of the first stage of a suffix *)
Definition next_l (l : seq stage) (e : final) : 'cV[F]_n :=
  if l is s :: _ then sl s else tsl e.

(** The first-order optimality (KKT) system, with the first state fixed to d. *)
Fixpoint lq_kkt (d : 'cV[F]_n) (l : seq stage) (e : final) : Prop :=
  match l with
  | [::] => tsx e = d /\ tq e + tQ e *m tsx e = tsl e
  | s :: l' =>
      [/\ sx s = d,
          sr s + sR s *m su s + (sS s)^T *m sx s + (sB s)^T *m next_l l' e = 0,
          sq s + sQ s *m sx s + sS s *m su s + (sA s)^T *m next_l l' e = sl s
        & lq_kkt (sA s *m sx s + sB s *m su s + sf s) l' e]
  end.

(** Control sequences for a list of stages, and the value of the problem for the
    state sequence they generate from the first state d. *)
Fixpoint controls (l : seq stage) : Type :=
  match l with [::] => unit | s :: l' => ('cV[F]_(sm s) * controls l')%type end.
Definition dot m (v w : 'cV[F]_m) : F := (v^T *m w) 0 0.
Definition quad m (A : 'M[F]_m) (v : 'cV[F]_m) : F := (v^T *m A *m v) 0 0.
Definition stage_cost (s : stage) (x : 'cV[F]_n) (u : 'cV[F]_(sm s)) : F :=
  quad (sQ s) x / 2%:R + dot (sq s) x + dot x (sS s *m u) + quad (sR s) u / 2%:R + dot (sr s) u.
Fixpoint lq_value (d : 'cV[F]_n) (l : seq stage) (e : final) : controls l -> F :=
  match l return controls l -> F with
  | [::] => fun _ => quad (tQ e) d / 2%:R + dot (tq e) d
  | s :: l' => fun u =>
      @stage_cost s d (fst u) + @lq_value (sA s *m d + sB s *m fst u + sf s) l' e (snd u)
  end.
(** the controls stored in the stages *)
Fixpoint own_controls (l : seq stage) : controls l :=
  match l with [::] => tt | s :: l' => (su s, own_controls l') end.

(** Symmetric Hessians / convexity of the problem data. *)
Definition is_sym m (A : 'M[F]_m) : Prop := A^T = A.
Fixpoint lq_symmetric (l : seq stage) (e : final) : Prop :=
  match l with
  | [::] => is_sym (tQ e)
  | s :: l' => [/\ is_sym (sQ s), is_sym (sR s) & lq_symmetric l' e]
  end.
Definition stage_quad (s : stage) (x : 'cV[F]_n) (u : 'cV[F]_(sm s)) : F :=
  quad (sQ s) x + 2%:R * dot x (sS s *m u) + quad (sR s) u.
End LQ.
Arguments mkFinal {F n}.
