(** What the bit tricks are supposed to compute; independent of Bits.v. *)
From Coq Require Import List NArith.
Import ListNotations.
Local Open Scope N_scope.

(** The specification of a population count: how many indices below [n] are set. *)
Definition count_set (n : nat) (x : N) : nat :=
  length (filter (fun i => N.testbit x (N.of_nat i)) (seq 0 n)).

(** Indices of the set bits below [n], in increasing order. *)
Definition bit_indices (n : nat) (x : N) : list nat :=
  filter (fun i => N.testbit x (N.of_nat i)) (seq 0 n).
