(** Specification of memory obtained from parent heaps, independent of the model. *)
From Coq Require Import List NArith Bool Permutation.
Import ListNotations.

(** What the parent heaps see: heap [i] hands out [n] bytes at [a], or gets them back. *)
Inductive pevent : Type := PGot (i : nat) (a n : N) | PGave (i : nat) (a n : N).

(** Every block given back was handed out by the same heap, at this address, with this size,
    and has not been given back before.  [out] are the blocks handed out. *)
Inductive matched : list (nat * N * N) -> list pevent -> list (nat * N * N) -> Prop :=
| m_nil out : matched out [] out
| m_got i a n out h out' : matched ((i, a, n) :: out) h out' -> matched out (PGot i a n :: h) out'
| m_gave i a n out h out1 out' : Permutation out ((i, a, n) :: out1) ->
    matched out1 h out' -> matched out (PGave i a n :: h) out'.

(** Two blocks of memory do not overlap. *)
Definition apart_from (p n q m : N) : Prop := (p + n <= q \/ q + m <= p)%N.
