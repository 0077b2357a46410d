(** What it means that parts of an object lie soundly in a block of memory (C65). *)
From Coq Require Import List NArith.
Import ListNotations.
Local Open Scope N_scope.

(** A part: offset, size and the logarithm of its alignment. *)
Record place := mkPlace { p_off : N; p_size : N; p_alog : N }.
Definition apart (p q : place) : Prop := p_off p + p_size p <= p_off q \/ p_off q + p_size q <= p_off p.
(** In a block of [size] bytes at address [base] the parts are inside, aligned, and do not overlap. *)
Definition sound (base size : N) (ps : list place) : Prop :=
  Forall (fun p => p_off p + p_size p <= size /\ N.divide (2 ^ p_alog p) (base + p_off p)) ps /\
  ForallOrdPairs apart ps.
