(** What array programs should do, on lists, without reference to the model: a variable
    is a list or dead; every operation changes at most the variables it names. *)
From Coq Require Import List NArith Arith Bool.
From Verif Require Import Common NList RrbSpec Array.
Import ListNotations.
Local Open Scope N_scope.

Section ArraySpec.
Context {T : Type}.

Definition vals := list (option (list T)).
Definition val (vs : vals) (i : nat) : list T :=
  match nth_error vs i with Some (Some xs) => xs | _ => [] end.
(** [alive]: usable as a source; variable 0 stands for the empty array itself and is
    only read. *)
Definition alive (vs : vals) (i : nat) : Prop := exists xs, nth_error vs i = Some (Some xs).
Definition mutable (vs : vals) (i : nat) : Prop := alive vs i /\ i <> O.

Definition spec (vs : vals) (o : op T) : vals :=
  match o with
  | New => vs ++ [Some []]
  | FromList xs => vs ++ [Some xs]
  | Fill n x => vs ++ [Some (repeat x (N.to_nat n))]
  | Copy i => vs ++ [Some (val vs i)]
  | Move i => update_at i (Some []) vs ++ [Some (val vs i)]
  | Assign i j => update_at i (Some (val vs j)) vs
  | MoveAssign i j => update_at j (Some (val vs i)) (update_at i (Some (val vs j)) vs)
  | Destroy i => update_at i None vs
  | PushBack i x => vs ++ [Some (val vs i ++ [x])]
  | PushBackMut i x => update_at i (Some (val vs i ++ [x])) vs
  | Update i k f => vs ++ [Some (list_set (val vs i) (N.to_nat k) f)]
  | UpdateMut i k f => update_at i (Some (list_set (val vs i) (N.to_nat k) f)) vs
  | Take i n => vs ++ [Some (firstn (N.to_nat n) (val vs i))]
  | TakeMut i n => update_at i (Some (firstn (N.to_nat n) (val vs i))) vs
  end.

(** Preconditions of the operations (documented in array.hpp / array_transient.hpp,
    except that take also asserts that the count is within the size). *)
Definition valid (vs : vals) (o : op T) : Prop :=
  match o with
  | New | FromList _ | Fill _ _ => True
  | Copy i | PushBack i _ => alive vs i
  | Move i | Destroy i | PushBackMut i _ => mutable vs i
  | Assign i j => mutable vs i /\ alive vs j
  | MoveAssign i j => mutable vs i /\ mutable vs j
  | Update i k _ => alive vs i /\ k < lenN (val vs i)
  | UpdateMut i k _ => mutable vs i /\ k < lenN (val vs i)
  | Take i n => alive vs i /\ n <= lenN (val vs i)
  | TakeMut i n => mutable vs i /\ n <= lenN (val vs i)
  end.

End ArraySpec.
Arguments vals T : clear implicits.
