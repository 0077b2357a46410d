(** The iterators of map, set and table as forward iterators, several at a time.

    Source: immer/detail/hamts/champ_iterator.hpp, immer/detail/iterator_facade.hpp (Facade).  The
    moves are those of Champ. *)
From Coq Require Import List Arith NArith ZArith Bool.
From Verif Require Import Common Champ FacadeSpec Facade.
Import ListNotations.

Section Fwd.
Variable B : N.
Context {T : Type}.
Notation iter := (@Champ.iter T).
(** == of the addresses of two elements. *)
Variable cell : iter -> iter -> bool.
(** The end, champ_iterator.hpp:48-54. *)
Definition ch_end (c : @champ T) : iter := Champ.mkIter [] [([root c], 0)].
(** equal, 146: cur_ is null at the end. *)
Definition ch_equal (a b : iter) : bool :=
  match Champ.it_rem a, Champ.it_rem b with
  | [], [] => true
  | _ :: _, _ :: _ => cell a b
  | _, _ => false
  end.
(** [it0] is begin(); forward iterators have no other moves than ++. *)
Definition champ_prims (fuel : nat) (c : @champ T) (it0 : iter) : prims iter T :=
  mkPrims _ _ it0 (ch_end c) (Champ.it_next B fuel) (fun _ => UB) (fun _ _ => UB)
    (fun it => v <- Champ.it_deref it ;; Ok (v, it)) ch_equal (fun _ _ => UB).
End Fwd.
