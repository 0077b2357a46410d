(** Specification of concurrent atoms, independent of the model: histories of calls and
    returns, the sequential atom, linearizability, and mutual exclusion of a lock. *)
From Coq Require Import List Arith.
Import ListNotations.

Section Spec.
Context {V : Type}.

(** The operations of an atom and what they return. *)
Inductive opn : Type :=
| OLoad | OStore (v : V) | OExchange (v : V) | OUpdate (f : V -> V).
Inductive result : Type := RUnit | RVal (v : V).

(** The sequential atom: new contents and result of an operation. *)
Definition apply (v : V) (o : opn) : V * result :=
  match o with
  | OLoad => (v, RVal v)
  | OStore w => (w, RUnit)
  | OExchange w => (w, RVal v)
  | OUpdate f => (f v, RVal (f v))
  end.

(** What can be observed of an execution: thread [t] calls and returns, takes and gives
    back the lock. *)
Inductive event : Type :=
| Call (t : nat) (o : opn) | Return (t : nat) (r : result)
| Acquire (t : nat) | Release (t : nat).

Definition is_call (e : event) : bool :=
  match e with Call _ _ | Return _ _ => true | _ => false end.

(** A history is linearizable if an instant [Lin t o r] can be placed between each call
    and its return (a call that has not returned may have one or none) so that the
    operations at these instants, one after the other, are a sequential execution. *)
Inductive xevent : Type := Obs (e : event) | Lin (t : nat) (o : opn) (r : result).

Fixpoint observed (xs : list xevent) : list event :=
  match xs with
  | [] => []
  | Obs e :: xs' => e :: observed xs'
  | Lin _ _ _ :: xs' => observed xs'
  end.

Fixpoint legal (v : V) (xs : list xevent) : Prop :=
  match xs with
  | [] => True
  | Obs _ :: xs' => legal v xs'
  | Lin _ o r :: xs' => snd (apply v o) = r /\ legal (fst (apply v o)) xs'
  end.

(** The contents of the atom after the instants of [xs]. *)
Fixpoint contents (v : V) (xs : list xevent) : V :=
  match xs with
  | [] => v
  | Obs _ :: xs' => contents v xs'
  | Lin _ o _ :: xs' => contents (fst (apply v o)) xs'
  end.

(** The life of one thread: idle, called, linearized, idle again. *)
Inductive phase : Type := QIdle | QCalled (o : opn) | QDone (r : result).

Fixpoint follows (t : nat) (q : phase) (xs : list xevent) : Prop :=
  match xs with
  | [] => True
  | Obs (Call t' o) :: xs' =>
      if t' =? t then q = QIdle /\ follows t (QCalled o) xs' else follows t q xs'
  | Lin t' o r :: xs' =>
      if t' =? t then q = QCalled o /\ follows t (QDone r) xs' else follows t q xs'
  | Obs (Return t' r) :: xs' =>
      if t' =? t then q = QDone r /\ follows t QIdle xs' else follows t q xs'
  | Obs _ :: xs' => follows t q xs'
  end.

(** [v] is what the atom holds at the end. *)
Definition linearizable (v0 : V) (h : list event) (v : V) : Prop :=
  exists xs, observed xs = filter is_call h /\
    (forall t, follows t QIdle xs) /\ legal v0 xs /\ contents v0 xs = v.

(** Mutual exclusion: the lock is taken only when nobody has it, and is given back only
    by the thread that has it. *)
Fixpoint exclusive (holder : option nat) (h : list event) : Prop :=
  match h with
  | [] => True
  | Acquire t :: h' => holder = None /\ exclusive (Some t) h'
  | Release t :: h' => holder = Some t /\ exclusive None h'
  | _ :: h' => exclusive holder h'
  end.
End Spec.
Arguments opn : clear implicits.
Arguments result : clear implicits.
Arguments event : clear implicits.
Arguments xevent : clear implicits.
Arguments phase : clear implicits.
