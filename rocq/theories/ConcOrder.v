(** Threads over counted memory when counts are ordered only as far as the code says.

    Source: immer/refcount/refcount_policy.hpp:33-40.  [inc] is relaxed, [dec] releases and
    acquires, and [unique] is a load that acquires; nothing else orders the accesses of
    different threads.  In the order of C++ two accesses of different threads are ordered only
    by program order and by a [dec] of a block that a later [dec] or [unique] of the same block
    reads from (every operation that changes a count reads the newest one, so it continues the
    sequence that an earlier release heads).  A [unique] may see a count that is not the newest
    one, as long as the thread does not know of a newer one.

    Simplification: the steps of an execution are listed in an order that agrees with program
    order and with the order in which each count changes.  Addresses are not used again. *)
From Coq Require Import List Arith Bool.
From Verif Require Import Common RcHeap Conc.
Import ListNotations.

(** ** Events *)
Inductive kind := EGet | ESet | ENew | EFree | EUp | EDown | EAsk.
(** The thread, the block, the count of the block afterwards (for what changes it), and for
    what reads a count the time of the count that it reads. *)
Record event := mkEv { e_thread : nat; e_kind : kind; e_block : nat; e_count : nat; e_seen : nat }.

(** inc 33: memory_order_relaxed; dec 35: memory_order_acq_rel; unique 37: the default. *)
Definition releases (k : kind) : bool := match k with EDown => true | _ => false end.
Definition acquires (k : kind) : bool := match k with EDown | EAsk => true | _ => false end.
(** What changes a count, and what changes or frees contents. *)
Definition counts (k : kind) : bool := match k with ENew | EUp | EDown => true | _ => false end.
Definition changes (k : kind) : bool := match k with ESet | ENew | EFree => true | _ => false end.

(** The [i]-th event happens before the [j]-th. *)
Inductive hb (tr : list event) : nat -> nat -> Prop :=
| hb_thread i j e f : nth_error tr i = Some e -> nth_error tr j = Some f -> i < j ->
    e_thread e = e_thread f -> hb tr i j
| hb_count i j e f : nth_error tr i = Some e -> nth_error tr j = Some f -> i < j ->
    e_block e = e_block f -> releases (e_kind e) = true -> acquires (e_kind f) = true ->
    i < e_seen f -> hb tr i j
| hb_trans i j k : hb tr i j -> hb tr j k -> hb tr i k.
(** Thread [i] knows of the event [m]. *)
Definition known (tr : list event) (i m : nat) : Prop :=
  exists j f, nth_error tr j = Some f /\ e_thread f = i /\ (m = j \/ hb tr m j).
(** Accesses to the same block by different threads, one of which changes or frees it, are
    ordered. *)
Definition ordered (tr : list event) : Prop := forall i j e f,
  nth_error tr i = Some e -> nth_error tr j = Some f -> i < j -> e_thread e <> e_thread f ->
  e_block e = e_block f -> changes (e_kind e) || changes (e_kind f) = true -> hb tr i j.

(** ** Executions *)
Section Weak.
Context {B A : Type}.
Notation heap := (heap B).

Definition kind_of {C} (q : prim B C) : kind :=
  match q with
  | PLoad _ => EGet | PSet _ _ _ => ESet | PNew _ _ => ENew | PFree _ => EFree
  | PInc _ => EUp | PDec _ => EDown | PUniq _ => EAsk
  end.
Definition block_of {C} (q : prim B C) : C -> nat :=
  match q with
  | PLoad a | PSet a _ _ | PFree a | PInc a | PDec a | PUniq a => fun _ => a
  | PNew _ _ => fun x => x
  end.
Definition count_in (h : heap) (a : nat) : nat :=
  match nth_error h a with Some (Some c) => c_rc c | _ => 0 end.
(** The count of [a] at time [t] of an execution that started in [h0]. *)
Definition count_at (h0 : heap) (tr : list event) (a t : nat) : nat :=
  fold_left (fun n e => if (e_block e =? a) && counts (e_kind e) then e_count e else n)
    (firstn t tr) (count_in h0 a).

(** A step of a thread, on the newest counts or, for [unique], on the count of time [t]. *)
Inductive wstep (h0 : heap) :
  list (prog B A) * heap * list event -> list (prog B A) * heap * list event -> Prop :=
| w_new ps h tr i C (q : prim B C) k x h' :
    nth_error ps i = Some (Act q k) -> exec q h = Ok (x, h') ->
    wstep h0 (ps, h, tr)
      (update_at i (k x) ps, h',
       tr ++ [mkEv i (kind_of q) (block_of q x) (count_in h' (block_of q x)) (length tr)])
| w_old ps h tr i a k t :
    nth_error ps i = Some (Act (PUniq a) k) -> t <= length tr ->
    (forall m e, t <= m -> nth_error tr m = Some e -> e_block e = a -> counts (e_kind e) = true ->
       ~ known tr i m) ->
    wstep h0 (ps, h, tr)
      (update_at i (k (count_at h0 tr a t =? 1)) ps, h, tr ++ [mkEv i EAsk a 0 t]).
Inductive wsteps (h0 : heap) (s : list (prog B A) * heap * list event) :
  list (prog B A) * heap * list event -> Prop :=
| ws_none : wsteps h0 s s
| ws_step s1 s2 : wsteps h0 s s1 -> wstep h0 s1 s2 -> wsteps h0 s s2.
(** A thread is about to do something undefined. *)
Definition stuck (ps : list (prog B A)) (h : heap) : Prop :=
  exists i, nth_error ps i = Some Fail \/
  exists C (q : prim B C) k, nth_error ps i = Some (Act q k) /\ exec q h = UB.
End Weak.
