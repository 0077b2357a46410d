(** Threads over counted memory: every step of a thread is one access to the memory, and the
    steps of the threads interleave in any order.

    Source: the accesses of immer/detail/hamts/node.hpp and champ.hpp to nodes that threads
    share, with the counts of immer/refcount/refcount_policy.hpp:23-41.  Simplification: the
    accesses are sequentially consistent; [ConcOrder] has the same threads with the orders that
    the code asks for (increments are relaxed, decrements are acquire-release, 33-37). *)
From Coq Require Import List Arith Bool.
From Verif Require Import Common RcHeap.
Import ListNotations.

(** One access.  [PSet] writes the contents of a block and leaves its count alone. *)
Inductive prim (B : Type) : Type -> Type :=
| PLoad (a : nat) : prim B (cell B)
| PSet (a : nat) (b : B) (ks : list nat) : prim B unit
| PNew (b : B) (ks : list nat) : prim B nat
| PFree (a : nat) : prim B unit
| PInc (a : nat) : prim B unit
| PDec (a : nat) : prim B bool
| PUniq (a : nat) : prim B bool.
Arguments PLoad {B}. Arguments PSet {B}. Arguments PNew {B}. Arguments PFree {B}.
Arguments PInc {B}. Arguments PDec {B}. Arguments PUniq {B}.

(** What the access does: RcHeap. *)
Definition exec {B C} (q : prim B C) : M B C :=
  match q with
  | PLoad a => load a
  | PSet a b ks => c <~ load a ;; store a (mkCell (c_rc c) b ks)
  | PNew b ks => new b ks
  | PFree a => free a
  | PInc a => inc a
  | PDec a => dec a
  | PUniq a => unique a
  end.

(** The block it accesses, and whether it changes or frees its contents: the counts are atomic
    (refcount_policy.hpp:23), the contents are not. *)
Definition target {B C} (q : prim B C) : option nat :=
  match q with
  | PLoad a | PSet a _ _ | PFree a | PInc a | PDec a | PUniq a => Some a
  | PNew _ _ => None
  end.
Definition writes {B C} (q : prim B C) : bool :=
  match q with PSet _ _ _ | PFree _ => true | _ => false end.

(** What a thread still has to do. *)
Inductive prog (B A : Type) : Type :=
| Done (a : A)
| Fail
| Act (C : Type) (q : prim B C) (k : C -> prog B A).
Arguments Done {B A}. Arguments Fail {B A}. Arguments Act {B A C}.

Section Progs.
Context {B : Type}.

Fixpoint pbind {A C} (p : prog B A) (k : A -> prog B C) : prog B C :=
  match p with
  | Done a => k a
  | Fail => Fail
  | Act q k' => Act q (fun x => pbind (k' x) k)
  end.
Definition plift {A} (r : res A) : prog B A := match r with Ok a => Done a | UB => Fail end.

(** A step of a thread; one that has finished does nothing. *)
Definition tstep {A} (p : prog B A) : M B (prog B A) :=
  match p with
  | Done a => mret (Done a)
  | Fail => mub
  | Act q k => x <~ exec q ;; mret (k x)
  end.
(** The threads [ps] scheduled in the order [sched]. *)
Fixpoint interleave {A} (sched : list nat) (ps : list (prog B A)) : M B (list (prog B A)) :=
  match sched with
  | [] => mret ps
  | i :: sched' =>
      match nth_error ps i with
      | Some p => p' <~ tstep p ;; interleave sched' (update_at i p' ps)
      | None => interleave sched' ps
      end
  end.
(** Two threads are about to access the same block, and one of them to change it. *)
Definition race {A} (ps : list (prog B A)) : Prop :=
  exists i j C1 C2 (q1 : prim B C1) k1 (q2 : prim B C2) k2 a, i <> j /\
    nth_error ps i = Some (Act q1 k1) /\ nth_error ps j = Some (Act q2 k2) /\
    target q1 = Some a /\ target q2 = Some a /\ writes q1 = true.
(** A thread on its own. *)
Fixpoint alone {A} (p : prog B A) : M B A :=
  match p with
  | Done a => mret a
  | Fail => mub
  | Act q k => x <~ exec q ;; alone (k x)
  end.
End Progs.
Notation "x <-- m ;; k" := (pbind m (fun x => k))
  (at level 61, m at next level, right associativity).
Notation "' p <-- m ;; k" := (pbind m (fun x => match x with p => k end))
  (at level 61, p pattern, m at next level, right associativity).

Section Steps.
Context {B : Type}.
Definition ld (a : nat) : prog B (cell B) := Act (PLoad a) Done.
Definition wr (a : nat) (b : B) (ks : list nat) : prog B unit := Act (PSet a b ks) Done.
Definition mk (b : B) (ks : list nat) : prog B nat := Act (PNew b ks) Done.
Definition fr (a : nat) : prog B unit := Act (PFree a) Done.
Definition up (a : nat) : prog B unit := Act (PInc a) Done.
Definition dn (a : nat) : prog B bool := Act (PDec a) Done.
Definition uq (a : nat) : prog B bool := Act (PUniq a) Done.
Fixpoint each {A} (f : A -> prog B unit) (l : list A) : prog B unit :=
  match l with
  | [] => Done tt
  | x :: l' => _ <-- f x ;; each f l'
  end.
End Steps.
