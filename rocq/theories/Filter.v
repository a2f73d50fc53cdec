(** * The filter memory: boost::circular_buffer<double> as used by the solvers,
    set_filter_size and the filter test of the line searches. *)
From Coq Require Import ZArith List Bool Arith.
From Verif Require Import Eigen.
Import ListNotations.
Set Implicit Arguments.
Set Asymmetric Patterns.

Section CB.
Variable A : Type.

(** boost::circular_buffer: capacity and contents, oldest first *)
Record cbuf := mkCbuf { cap : nat; items : list A }.

(** default construction: capacity 0 *)
Definition cb_empty : cbuf := mkCbuf 0 [].

(** push_back: overwrites the oldest element when full; no-op at capacity 0 *)
Definition cb_push (x : A) (b : cbuf) : cbuf :=
  if cap b =? 0 then b
  else if length (items b) =? cap b then mkCbuf (cap b) (tl (items b) ++ [x])
  else mkCbuf (cap b) (items b ++ [x]).

(** resize(n, d): when growing, the capacity is raised to n if needed and
    default elements are appended at the back; when shrinking, elements are
    erased at the back and the capacity is unchanged
    (boost/circular_buffer/base.hpp). *)
Definition cb_resize (n : nat) (d : A) (b : cbuf) : cbuf :=
  if length (items b) <? n
  then mkCbuf (Nat.max (cap b) n) (items b ++ repeat d (n - length (items b)))
  else mkCbuf (cap b) (firstn n (items b)).

(** operator[]: out of range is undefined behaviour (None) *)
Definition cb_get (b : cbuf) (i : nat) : option A := nth_error (items b) i.
End CB.

(** The filter loop common to sqp.cpp:149-157, csqp.cpp:332-343, fddp.cpp and
    csqp_proxqp.cpp:
      is_worse = false; count = 0;
      while (count < filter_size_ && !is_worse && count <= iter_) {
        is_worse = dominated by entry [filter_size_ - 1 - count]; count++; }
    [test i] is the verdict of entry i (None: out of range).  [fuel] is the
    number of iterations left, filter_size_ - count. *)
Fixpoint filter_loop (test : nat -> option bool) (fsize iter fuel count : nat) : option bool :=
  match fuel with
  | O => Some false
  | S f =>
      if count <=? iter then
        match test (fsize - 1 - count) with
        | None => None
        | Some true => Some true
        | Some false => filter_loop test fsize iter f (S count)
        end
      else Some false
  end.
Definition filter_worse (test : nat -> option bool) (fsize iter : nat) : option bool :=
  filter_loop test fsize iter fsize 0.
