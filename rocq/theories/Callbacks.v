(** * CallbackVerbose, src/utils/callbacks.cpp. *)
From Coq Require Import ZArith List Bool String Ascii.
From Verif Require Import Eigen.
Import ListNotations.
Set Implicit Arguments.
Unset Strict Implicit.
Local Open Scope Z_scope.

(** ** Header *)

(** largest int; int arithmetic above it is undefined *)
Definition int_max : Z := 2147483647.
Definition slen (s : string) : Z := Z.of_nat (String.length s).
Fixpoint spaces (n : nat) : string :=
  match n with O => EmptyString | S n' => String " " (spaces n') end.

(** center_string, callbacks.cpp:33-48 ([right_padding] is always its default
    true); int division and remainder truncate *)
Definition center_string (str : string) (width : Z) : string :=
  let padding_size := width - slen str in
  let padding_left := if 0 <? padding_size then Z.quot padding_size 2 else 0 in
  let padding_right := if negb (Z.rem padding_size 2 =? 0) then padding_left + 1 else padding_left in
  (spaces (Z.to_nat padding_left) ++ str ++ spaces (Z.to_nat padding_right))%string.

Definition separator : string := "  ".

(** update_header, callbacks.cpp:32-72.  None: 6 + precision_ overflows *)
Inductive headres := HText (s : string) | HRaise | HUB.
Definition update_header (precision : Z) (solver_type : string) : headres :=
  let columnwidth := 6 + precision in
  if int_max <? columnwidth then HUB
  else
    let col l := center_string l columnwidth in
    if (solver_type =? "CSQP")%string then
      HText ("iter" ++ separator ++ col "merit" ++ separator ++ col "cost" ++ separator ++
             col "||gaps||" ++ separator ++ col "||Constraint||" ++ separator ++
             col "||(dx,du)||" ++ separator ++ col "step" ++ separator ++
             col "KKT criteria" ++ separator ++ col "QP iters")%string
    else if (solver_type =? "SQP")%string then
      HText ("iter" ++ separator ++ col "merit" ++ separator ++ col "cost" ++ separator ++
             col "||gaps||" ++ separator ++ col "step" ++ separator ++ col "KKT criteria" ++ separator)%string
    else HRaise.

(** set_precision, callbacks.cpp:28-31, on precision_; the constructor (19-22)
    calls it *)
Definition set_precision (p old : Z) : bool * Z := if p <? 0 then (false, old) else (true, p).

(** ** The call operator *)

(** classes of solver objects that invoke mim_solvers callbacks, and the tag
    their solve passes: ddp.cpp:149, fddp.cpp:180, sqp.cpp:125 and 211, csqp.cpp:281
    and 398 *)
Inductive kind := KDDP | KFDDP | KSQP | KCSQP.
Definition tag (k : kind) : string :=
  match k with KDDP | KFDDP | KSQP => "SQP" | KCSQP => "CSQP" end.
(** class hierarchy (ddp.hpp, fddp.hpp, sqp.hpp, csqp.hpp): SolverFDDP, SolverSQP
    and SolverCSQP derive from SolverDDP; [is_a k target]: an object of dynamic type
    k may be viewed as target *)
Definition is_a (k target : kind) : bool :=
  match k, target with
  | KDDP, KDDP | KFDDP, KFDDP | KSQP, KSQP | KCSQP, KCSQP => true
  | KFDDP, KDDP | KSQP, KDDP | KCSQP, KDDP => true
  | _, _ => false
  end.

Section Op.
Variable E : Eig.
(** what the getters of the object return when the callback runs *)
Record shown := mkShown {
  sh_iter : nat; sh_merit : R E; sh_cost : R E; sh_gap : R E; sh_con : R E;
  sh_xg : R E; sh_ug : R E; sh_step : R E; sh_kkt : R E; sh_tol : R E; sh_qpit : nat
}.
(** items written to std::cout; numbers with their format and precision *)
Inductive item := Text (s : string) | Sci (p : Z) (x : R E) | Fixed (p : Z) (x : R E) | Int (n : nat) | EndLine.
Inductive cbres := COut (l : list item) | CRaise (l : list item) | CUB.
Definition sep : item := Text separator.
Definition sep1 : item := Text " ".

(** operator()(solver, solver_type), callbacks.cpp:79-166 on an object of
    dynamic type [k]; static_cast to another class is undefined *)
Definition verbose (p : Z) (k : kind) (solver_type : string) (o : shown) : cbres :=
  let head := if (Nat.modulo (sh_iter o) 10 =? 0)%nat then
                match update_header p solver_type with
                | HText h => COut [Text h; EndLine]
                | HRaise => CRaise []
                | HUB => CUB
                end
              else COut [] in
  match head with
  | COut hl =>
      let start := hl ++ [Int (sh_iter o); sep] in
      let converged := rlt E (sh_kkt o) (sh_tol o) in
      if (solver_type =? "CSQP")%string then
        if negb (is_a k KCSQP) then CUB
        else if converged then
          COut (start ++ [Sci p (sh_merit o); sep; Sci p (sh_cost o); sep; Sci p (sh_gap o); sep; sep;
                Sci p (sh_con o); sep; Text "       ---- "; sep; Text "     ---- "; sep; sep;
                Sci p (sh_kkt o); sep; sep1; Text "    -----"; sep; EndLine])
        else
          COut (start ++ [Sci p (sh_merit o); sep; Sci p (sh_cost o); sep; Sci p (sh_gap o); sep; sep;
                Sci p (sh_con o); sep; sep; sep;
                Sci p (rdiv E (radd E (sh_xg o) (sh_ug o)) (rlit E 2 1)); sep; sep; sep;
                Fixed p (sh_step o); sep; sep; Sci p (sh_kkt o); sep; sep; sep1; sep1; Int (sh_qpit o); sep; EndLine])
      else if (solver_type =? "SQP")%string then
        if negb (is_a k KSQP) then CUB
        else if converged then
          COut (start ++ [Sci p (sh_merit o); sep; Sci p (sh_cost o); sep; Sci p (sh_gap o); sep; sep;
                Text "     ---- "; sep; sep; Sci p (sh_kkt o); sep; sep; EndLine])
        else
          COut (start ++ [Sci p (sh_merit o); sep; Sci p (sh_cost o); sep; Sci p (sh_gap o); sep; sep;
                Sci p (sh_step o); sep; Sci p (sh_kkt o); sep; sep; sep1; EndLine])
      else COut (start ++ [EndLine])
  | r => r
  end.
(** operator()(solver), callbacks.cpp:74-77: always throws *)
Definition verbose_untyped : cbres := CRaise [].
End Op.
