(** Executions of several threads that share data and one flag, as C++ defines them: which events are
    ordered (happen-before), which writes a read may see, what a data race is.  Independent of the
    model. *)
From Coq Require Import List Arith Relations.
Import ListNotations.

Section Spec.
Context {L V : Type}.
(** Events on the flag: test_and_set (acquire) that saw [b], and clear (release); and accesses to
    ordinary, not atomic, data. *)
Inductive ev : Type :=
| Tas (b : bool)
| Clear
| Rd (l : L) (v : V)
| Wr (l : L) (v : V).
(** An execution: events with their threads, listed in an order that agrees with the order within each
    thread and with the flag's modification order.  Such an order exists in every execution, since all
    events on the flag write it.  The order in which data are listed beyond this means nothing. *)
Definition execution : Type := list (nat * ev).
Definition on_flag (e : ev) : Prop := match e with Tas _ | Clear => True | _ => False end.
Definition on_data (e : ev) : Prop := match e with Rd _ _ | Wr _ _ => True | _ => False end.
Definition at_ (x : execution) (i : nat) (t : nat) (e : ev) : Prop := nth_error x i = Some (t, e).

(** Sequenced before. *)
Definition po (x : execution) (i j : nat) : Prop := i < j /\ exists t e e', at_ x i t e /\ at_ x j t e'.
(** Synchronizes with: the test_and_set sees what the clear wrote. *)
Definition sync (x : execution) (i j : nat) : Prop :=
  i < j /\ (exists t, at_ x i t Clear) /\ (exists t, at_ x j t (Tas false)) /\
  forall k t e, i < k < j -> at_ x k t e -> ~ on_flag e.
Definition hb (x : execution) : nat -> nat -> Prop := clos_trans nat (fun i j => po x i j \/ sync x i j).

(** A read sees a write that does not happen after it and that no other write hides, or the value
    [init] from before the threads began. *)
Definition reads_ok (init : L -> V) (x : execution) : Prop :=
  forall j t l v, at_ x j t (Rd l v) ->
    (v = init l /\ forall k t' v', at_ x k t' (Wr l v') -> ~ hb x k j) \/
    (exists i t', at_ x i t' (Wr l v) /\ ~ hb x j i /\
      forall k t'' v', at_ x k t'' (Wr l v') -> ~ (hb x i k /\ hb x k j)).

(** No data race: accesses of one location, not both reads, are ordered. *)
Definition conflict (e e' : ev) : Prop :=
  match e, e' with
  | Wr l _, Wr l' _ | Wr l _, Rd l' _ | Rd l _, Wr l' _ => l = l'
  | _, _ => False
  end.
Definition race_free (x : execution) : Prop :=
  forall i j t t' e e', at_ x i t e -> at_ x j t' e' -> i <> j -> conflict e e' -> hb x i j \/ hb x j i.
(** Every read sees the last write before it in the list. *)
Definition in_order (init : L -> V) (x : execution) : Prop :=
  forall j t l v, at_ x j t (Rd l v) ->
    (v = init l /\ forall k t' v', k < j -> ~ at_ x k t' (Wr l v')) \/
    (exists i t', i < j /\ at_ x i t' (Wr l v) /\ forall k t'' v', i < k < j -> ~ at_ x k t'' (Wr l v')).
(** From the test_and_set that takes the flag to the thread's clear, no other thread takes it, clears
    it, or accesses data. *)
Definition exclusive (x : execution) : Prop :=
  forall a j t t' e, at_ x a t (Tas false) -> a < j -> at_ x j t' e -> t <> t' ->
    (e = Tas false \/ e = Clear \/ on_data e) -> exists c, a < c < j /\ at_ x c t Clear.
End Spec.
Arguments ev L V : clear implicits.
Arguments execution L V : clear implicits.

(** *** Atoms *)
Section AtomSpec.
Context {P R : Type}.
(** Any program of one thread with an atom that holds a [P]; what it does next may depend on the
    results, and it ends with [r].  An update is given up after [n] attempts, [new i p] is what attempt
    [i] makes of [p]. *)
Inductive aprog : Type :=
| AEnd (r : R)
| ALoad (k : P -> aprog)
| AStore (b : P) (k : aprog)
| AExchange (b : P) (k : P -> aprog)
| AUpdate (n : nat) (new : nat -> P -> P) (k : P -> aprog).
(** What an operation does at one instant. *)
Inductive aeffect : P -> aprog -> P -> aprog -> Prop :=
| ae_load p k : aeffect p (ALoad k) p (k p)
| ae_store p b k : aeffect p (AStore b k) b k
| ae_exchange p b k : aeffect p (AExchange b k) b (k p)
| ae_update p n new k i : i < n -> aeffect p (AUpdate n new k) (new i p) (k (new i p)).
(** The operations of the threads [ps0], one after the other, each at an access of its thread in [x]
    before position [n], lead to [ps] and the value [p]. *)
Inductive serial (x : execution unit P) (p0 : P) (ps0 : nat -> aprog) : nat -> (nat -> aprog) -> P -> Prop :=
| serial_start : serial x p0 ps0 0 ps0 p0
| serial_skip n ps p : serial x p0 ps0 n ps p -> serial x p0 ps0 (S n) ps p
| serial_op n ps p t e a p' : serial x p0 ps0 n ps p -> at_ x n t e -> on_data e -> aeffect p (ps t) p' a ->
    serial x p0 ps0 (S n) (fun u => if u =? t then a else ps u) p'.
End AtomSpec.
Arguments aprog P R : clear implicits.
