(** immer::spinlock_policy, and refcount_atom_impl over it, with the memory orders in the code.

    Source: immer/lock/spinlock_policy.hpp, immer/atom.hpp, immer/box.hpp.  Simplifications: the pauses
    between attempts (spinlock_policy.hpp:37-44) have no effect; the counts of the boxes are left out
    (they are atomic, C53 and C54); what a thread does outside the lock with its own data is left
    out. *)
From Coq Require Import List Arith.
From Verif Require Import LockOrderSpec.
Import ListNotations.

Section Model.
Context {L V R : Type}.
(** What a thread does next; the continuation of a read gets the value. *)
Inductive code : Type :=
| Stop (r : option R)   (* ended with a result, or gave up *)
| Lock (c : code)
| Unlock (c : code)
| Read (l : L) (k : V -> code)
| Write (l : L) (v : V) (c : code).

(** One event of a thread that finds the flag at [f]: the code and the flag after it.
    - lock, spinlock_policy.hpp:34-46: try_lock (32) until it answers true; test_and_set sees and sets
      the flag.
    - unlock, 48.
    - A read gets any value; which ones C++ allows is [reads_ok]. *)
Inductive step : code -> bool -> ev L V -> code -> bool -> Prop :=
| step_spin c : step (Lock c) true (Tas true) (Lock c) true
| step_lock c : step (Lock c) false (Tas false) c true
| step_unlock c f : step (Unlock c) f Clear c false
| step_read l k v f : step (Read l k) f (Rd l v) (k v) f
| step_write l v c f : step (Write l v c) f (Wr l v) c f.
Definition set_thread (th : nat -> code) (t : nat) (c : code) : nat -> code := fun u => if u =? t then c else th u.
(** Threads started with [th0] can give the execution; the flag is clear at first (line 30). *)
Inductive gives (th0 : nat -> code) : execution L V -> (nat -> code) -> bool -> Prop :=
| gives_start : gives th0 [] th0 false
| gives_step x th f t e c f' : gives th0 x th f -> step (th t) f e c f' ->
    gives th0 (x ++ [(t, e)]) (set_thread th t c) f'.
End Model.
Arguments code L V R : clear implicits.

(** *** atom.hpp: the pointer impl_ is the only data *)
Section Atom.
Context {P R : Type}.
(** == of pointers. *)
Variable peq : P -> P -> bool.
Notation acode := (code unit P R).
(** load, 39-43; the box's copy constructor reads the pointer. *)
Definition aload (k : P -> acode) : acode := Lock (Read tt (fun p => Unlock (k p))).
(** store, 45-49; move assignment of boxes is a swap (box.hpp:92-96, 104-108). *)
Definition astore (b : P) (k : acode) : acode := Lock (Read tt (fun _ => Write tt b (Unlock k))).
(** exchange, 51-58. *)
Definition aexchange (b : P) (k : P -> acode) : acode := Lock (Read tt (fun p => Write tt b (Unlock (k p)))).
(** update, 60-74, at most [n] attempts; [new i p] is the box that [oldv.update(fn)] makes in attempt
    [i].  The copy assignment in 69
    is a swap too (box.hpp:109-114); the return inside the scope unlocks. *)
Fixpoint aupdate (n : nat) (new : nat -> P -> P) (k : P -> acode) : acode :=
  match n with
  | 0 => Stop None
  | S n' =>
    aload (fun old =>
      let b := new n' old in
      Lock (Read tt (fun p =>
        if peq old p then Read tt (fun _ => Write tt b (Unlock (k b))) else Unlock (aupdate n' new k))))
  end.
(** The programs of [LockOrderSpec]. *)
Fixpoint acompile (p : aprog P R) : acode :=
  match p with
  | AEnd r => Stop (Some r)
  | ALoad k => aload (fun v => acompile (k v))
  | AStore b k => astore b (acompile k)
  | AExchange b k => aexchange b (fun v => acompile (k v))
  | AUpdate n new k => aupdate n new (fun v => acompile (k v))
  end.
End Atom.
