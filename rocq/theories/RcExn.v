(** Exceptions over the counted memory of RcHeap.

    An operation that may throw takes its outcome from a list of booleans, so that every
    choice of throwing points is covered; when the list is used up nothing throws.
    Source: IMMER_TRY / IMMER_CATCH / IMMER_RETHROW, immer/config.hpp:13-27. *)
From Coq Require Import List Arith Bool.
From Verif Require Import Common RcHeap.
Import ListNotations.

Inductive out (A : Type) : Type := Ret (a : A) | Exn.
Arguments Ret {A} _.
Arguments Exn {A}.

Definition X (B A : Type) : Type := list bool -> heap B -> res (out A * list bool * heap B).
Definition xret {B A} (a : A) : X B A := fun f h => Ok (Ret a, f, h).
Definition xbind {B A C} (m : X B A) (k : A -> X B C) : X B C :=
  fun f h => match m f h with
             | Ok (Ret a, f', h') => k a f' h'
             | Ok (Exn, f', h') => Ok (Exn, f', h')
             | UB => UB
             end.
(** A step that cannot throw. *)
Definition xm {B A} (m : M B A) : X B A :=
  fun f h => match m h with Ok (a, h') => Ok (Ret a, f, h') | UB => UB end.
(** A point where an exception can leave: an allocation, a copy, a call of user code. *)
Definition may_throw {B} : X B unit :=
  fun f h => match f with
             | true :: f' => Ok (Exn, f', h)
             | false :: f' => Ok (Ret tt, f', h)
             | [] => Ok (Ret tt, [], h)
             end.
(** IMMER_TRY { m } IMMER_CATCH (...) { handler; IMMER_RETHROW; } *)
Definition xtry {B A} (m : X B A) (handler : M B unit) : X B A :=
  fun f h => match m f h with
             | Ok (Exn, f', h') =>
                 match handler h' with Ok (_, h'') => Ok (Exn, f', h'') | UB => UB end
             | r => r
             end.
Notation "x <- m ;;; k" := (xbind m (fun x => k))
  (at level 61, m at next level, right associativity).
Notation "' p <- m ;;; k" := (xbind m (fun x => match x with p => k end))
  (at level 61, p pattern, m at next level, right associativity).
