(** Specification of an allocator of blocks of one size, independent of the model: a history
    of blocks returned by allocate and given to deallocate. *)
From Coq Require Import List Arith.
Import ListNotations.

Inductive fevent : Type := Got (t a : nat) | Gave (t a : nat).

(** [used] are the blocks in use.  No block is returned while it is in use. *)
Fixpoint once (used : list nat) (h : list fevent) : Prop :=
  match h with
  | [] => True
  | Got _ a :: h' => ~ In a used /\ once (a :: used) h'
  | Gave _ a :: h' => once (remove Nat.eq_dec a used) h'
  end.
