(** What filling a new node must do to the elements in memory. *)
From Coq Require Import List Arith Bool.
From Verif Require Import Common RcHeap RcExn Lifetime.
Import ListNotations.

(** A block with room for [k + r] elements of which the first [k] live. *)
Definition block (k r : nat) : option (cell (list bool)) :=
  Some (mkCell 1 (repeat true k ++ repeat false r) []).
(** [src] holds [n] elements. *)
Definition has_elements (h : heap (list bool)) (src n : nat) : Prop :=
  exists r, nth_error h src = Some (block n r).

(** Whatever throws, [m] is defined; when it returns, the memory is as before but for what
    [Q] says; when it throws, the memory is as before but for blocks it allocated and gave
    back (with no element in them: otherwise [deallocate] is undefined). *)
Definition all_or_nothing {A} (m : X (list bool) A) (h : heap (list bool))
  (Q : A -> heap (list bool) -> Prop) : Prop :=
  forall f, match m f h with
            | Ok (Ret a, _, h') => Q a h'
            | Ok (Exn, _, h') => exists k, h' = h ++ repeat None k
            | UB => False
            end.
(** One new block. *)
Definition makes_block (h : heap (list bool)) (k r : nat) (a : nat) (h' : heap (list bool)) : Prop :=
  a = length h /\ h' = h ++ [block k r].
(** A new inner node, with a block of [nv] values if there are any. *)
Definition makes_inner (h : heap (list bool)) (nv : nat) (p : nat * option nat) (h' : heap (list bool)) : Prop :=
  fst p = length h /\
  match nv with
  | O => snd p = None /\ h' = h ++ [block 0 0]
  | S _ => snd p = Some (S (length h)) /\ h' = h ++ [block 0 0; block nv 0]
  end.
