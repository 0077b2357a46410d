(** Memory with reference counts, shared by the models of boxes, vectors and maps.

    A cell is a heap block: its count (refcount/refcount_policy.hpp:23-41, inside the node
    or holder), its contents and the pointers it owns.  Reading, writing or freeing a cell
    that was freed is [UB].  Freed addresses are never used again, so that a dangling pointer
    is always caught.  Allocation does not fail here; one thread runs. *)
From Coq Require Import List Arith Bool.
From Verif Require Import Common.
Import ListNotations.

Record cell (B : Type) : Type := mkCell { c_rc : nat; c_body : B; c_kids : list nat }.
Arguments mkCell {B} _ _ _.
Arguments c_rc {B} _.
Arguments c_body {B} _.
Arguments c_kids {B} _.

(** Position [a] is the block at address [a], [None] once it is freed. *)
Definition heap (B : Type) : Type := list (option (cell B)).

(** Programs over such a memory. *)
Definition M (B A : Type) : Type := heap B -> res (A * heap B).
Definition mret {B A} (a : A) : M B A := fun h => Ok (a, h).
Definition mbind {B A C} (m : M B A) (k : A -> M B C) : M B C :=
  fun h => match m h with Ok (a, h') => k a h' | UB => UB end.
Definition mlift {B A} (r : res A) : M B A :=
  fun h => match r with Ok a => Ok (a, h) | UB => UB end.
Definition mub {B A} : M B A := fun _ => UB.
Notation "x <~ m ;; k" := (mbind m (fun x => k))
  (at level 61, m at next level, right associativity).
Notation "' p <~ m ;; k" := (mbind m (fun x => match x with p => k end))
  (at level 61, p pattern, m at next level, right associativity).

Section Ops.
Context {B : Type}.

(** Dereference. *)
Definition load (a : nat) : M B (cell B) :=
  fun h => match nth_error h a with Some (Some c) => Ok (c, h) | _ => UB end.
(** Overwrite a block that is allocated. *)
Definition store (a : nat) (c : cell B) : M B unit :=
  fun h => match nth_error h a with
           | Some (Some _) => Ok (tt, update_at a (Some c) h)
           | _ => UB
           end.
(** A new block, with the count the constructor gives it: refcount_policy.hpp:27-28. *)
Definition new (b : B) (ks : list nat) : M B nat :=
  fun h => Ok (length h, h ++ [Some (mkCell 1 b ks)]).
(** Heap::deallocate. *)
Definition free (a : nat) : M B unit :=
  fun h => match nth_error h a with
           | Some (Some _) => Ok (tt, update_at a None h)
           | _ => UB
           end.

(** refcount_policy.hpp:33. *)
Definition inc (a : nat) : M B unit :=
  c <~ load a ;; store a (mkCell (S (c_rc c)) (c_body c) (c_kids c)).
(** refcount_policy.hpp:35: true when this was the last reference.  A count below zero is
    [UB]. *)
Definition dec (a : nat) : M B bool :=
  c <~ load a ;;
  match c_rc c with
  | O => mub
  | S n => _ <~ store a (mkCell n (c_body c) (c_kids c)) ;; mret (n =? 0)
  end.
(** refcount_policy.hpp:37. *)
Definition unique (a : nat) : M B bool := c <~ load a ;; mret (c_rc c =? 1).

(** Loops over ranges of pointers. *)
Fixpoint each_of {A} (f : A -> M B unit) (l : list A) : M B unit :=
  match l with
  | [] => mret tt
  | x :: l' => _ <~ f x ;; each_of f l'
  end.
End Ops.
