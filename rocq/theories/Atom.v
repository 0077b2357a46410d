(** Model of immer::box and immer::atom shared by any number of threads, with reference
    counting (refcount_policy, spinlock_policy): atom.hpp:24-79, box.hpp:30-163,
    refcount/refcount_policy.hpp:25-38, lock/spinlock_policy.hpp:28-66.

    An execution is an interleaving of the steps below, each of which is one access to
    shared memory: test_and_set and clear of the lock's flag, fetch_add and fetch_sub of a
    count, the test of unique(), a read or write of the atom's pointer, a read or write of
    a boxed value, an allocation, a deallocation.  Memory is sequentially consistent (the
    acquire/release orderings of the flag and the counts are not modelled separately).
    Counts do not overflow [int].  The function given to update() is pure. *)
From Coq Require Import List Arith Bool.
From Verif Require Import Common AtomSpec.
Import ListNotations.

(** Addresses. *)
Notation addr := nat (only parsing).

Section Model.
Context {V : Type}.

(** box::holder (box.hpp:35-44): the count and the value. *)
Record cell : Type := mkCell { rc : nat; val : V }.

(** What a thread is about to do.  [Dec a k] and [Free a k] are the two steps of ~box
    (box.hpp:115-121), followed by [k]. *)
Inductive pc : Type :=
| Idle
| RetU                                    (* return from store *)
| RetH (a : addr)                         (* return of a box *)
| PutH (a : addr)                         (* end of an operation on a box only *)
| Dec (a : addr) (k : pc)                 (* impl_->dec() *)
| Free (a : addr) (k : pc)                (* ~holder(), deallocate *)
(* load, atom.hpp:39-43; [u] is the function if called from update *)
| LoadLock (u : option (V -> V))          (* scoped_lock *)
| LoadRead (u : option (V -> V))          (* box(const box&): impl_(other.impl_) *)
| LoadInc (u : option (V -> V)) (a : addr)(* impl_->inc() *)
| LoadUnlock (u : option (V -> V)) (a : addr)
(* store and exchange, atom.hpp:45-58; [ex] for exchange *)
| SwapLock (b : addr) (ex : bool)
| SwapRead (b : addr) (ex : bool)         (* std::swap: tmp = impl_ *)
| SwapWrite (b : addr) (ex : bool) (t : addr)  (* impl_ = b; b = tmp *)
| SwapUnlock (ex : bool) (t : addr)
(* update, atom.hpp:60-74 *)
| UpdCall (f : V -> V) (o : addr)         (* newv = oldv.update(fn) *)
| CasLock (f : V -> V) (o n : addr)
| CasCmp (f : V -> V) (o n : addr)        (* oldv.impl_ == impl_.impl_ *)
| CasInc (f : V -> V) (o n : addr)        (* operator=(const box&): aux = other *)
| CasRead (f : V -> V) (o n : addr)       (* swap( *this, aux): tmp = impl_ *)
| CasWrite (f : V -> V) (o n t : addr)    (* impl_ = aux.impl_; aux.impl_ = tmp *)
| CasInc2 (o n : addr)                    (* return {newv} *)
| CasUnlock (o n : addr)
| FailUnlock (f : V -> V) (o n : addr)
(* box::update &&, box.hpp:154-162 *)
| RvTest (a : addr) (f : V -> V)          (* impl_->unique() *)
| RvWrite (a : addr) (f : V -> V)         (* impl_->value = fn(move(impl_->value)) *)
| RvNew (a : addr) (f : V -> V).          (* *this = fn(impl_->value) *)

(** A thread: where it is, and the boxes it has. *)
Record thread : Type := mkT { at_ : pc; handles : list addr }.
(** The flag of the lock, the atom's pointer, the memory, the threads. *)
Record state : Type := mkS
  { flag : bool; cur : addr; heap : addr -> option cell; ths : list thread }.

(** What an idle thread may start, and [Go a]: continue the operation it is in; [a] is the
    address the allocator picks, if the step allocates. *)
Inductive choice : Type :=
| CLoad | CStore (i : nat) | CExchange (i : nat) | CUpdate (f : V -> V)
| CNew (v : V) (a : addr)                 (* box{v} *)
| CCopy (i : nat) | CDrop (i : nat)
| CRvUpdate (i : nat) (f : V -> V)        (* std::move(b).update(f) *)
| CSend (i t' : nat)                      (* hand a box to another thread *)
| Go (a : addr).

Definition upd (h : addr -> option cell) (a : addr) (c : option cell) : addr -> option cell :=
  fun x => if x =? a then c else h x.
Definition rcell (s : state) (a : addr) : res cell :=
  match heap s a with Some c => Ok c | None => UB end.
Definition set_heap (s : state) (h : addr -> option cell) : state :=
  mkS (flag s) (cur s) h (ths s).
Definition set_cur (s : state) (a : addr) : state := mkS (flag s) a (heap s) (ths s).
Definition set_flag (s : state) (b : bool) : state := mkS b (cur s) (heap s) (ths s).
Definition set_th (s : state) (t : nat) (th : thread) : state :=
  mkS (flag s) (cur s) (heap s) (update_at t th (ths s)).

(** refcount_policy::inc (refcount_policy.hpp:33). *)
Definition inc (s : state) (a : addr) : res state :=
  c <- rcell s a ;; Ok (set_heap s (upd (heap s) a (Some (mkCell (S (rc c)) (val c))))).
(** refcount_policy::dec (refcount_policy.hpp:35): fetch_sub, and whether it was 1. *)
Definition dec (s : state) (a : addr) : res (state * bool) :=
  c <- rcell s a ;;
  match rc c with
  | O => UB
  | S n => Ok (set_heap s (upd (heap s) a (Some (mkCell n (val c)))), n =? 0)
  end.
(** The allocator returns any address not in use (None: the choice is not possible). *)
Definition alloc (s : state) (a : addr) (v : V) : option state :=
  match heap s a with
  | Some _ => None
  | None => Some (set_heap s (upd (heap s) a (Some (mkCell 1 v))))
  end.

Definition move (s : state) (t : nat) (th : thread) (p : pc) : state :=
  set_th s t (mkT p (handles th)).

(** One step of thread [t]: [Ok None] if the choice does not apply. *)
Definition step (s : state) (t : nat) (c : choice) : res (option (state * list (event V))) :=
  match nth_error (ths s) t with
  | None => Ok None
  | Some th =>
    let hs := handles th in
    match at_ th, c with
    | Idle, CLoad => Ok (Some (move s t th (LoadLock None), [Call t OLoad]))
    | Idle, CStore i =>
        match nth_error hs i with
        | None => Ok None
        | Some b =>
            cb <- rcell s b ;;
            Ok (Some (set_th s t (mkT (SwapLock b false) (remove_at i hs)),
                      [Call t (OStore (val cb))]))
        end
    | Idle, CExchange i =>
        match nth_error hs i with
        | None => Ok None
        | Some b =>
            cb <- rcell s b ;;
            Ok (Some (set_th s t (mkT (SwapLock b true) (remove_at i hs)),
                      [Call t (OExchange (val cb))]))
        end
    | Idle, CUpdate f =>
        Ok (Some (move s t th (LoadLock (Some f)), [Call t (OUpdate f)]))
    | Idle, CNew v a =>
        match alloc s a v with
        | None => Ok None
        | Some s' => Ok (Some (set_th s' t (mkT Idle (hs ++ [a])), []))
        end
    | Idle, CCopy i =>                       (* box.hpp:99-103 *)
        match nth_error hs i with
        | None => Ok None
        | Some a => s' <- inc s a ;; Ok (Some (set_th s' t (mkT Idle (hs ++ [a])), []))
        end
    | Idle, CDrop i =>
        match nth_error hs i with
        | None => Ok None
        | Some a => Ok (Some (set_th s t (mkT (Dec a Idle) (remove_at i hs)), []))
        end
    | Idle, CRvUpdate i f =>
        match nth_error hs i with
        | None => Ok None
        | Some a => Ok (Some (set_th s t (mkT (RvTest a f) (remove_at i hs)), []))
        end
    | Idle, CSend i t' =>
        match nth_error hs i, nth_error (ths s) t' with
        | Some a, Some th' =>
            if t' =? t then Ok None
            else Ok (Some (set_th (set_th s t (mkT Idle (remove_at i hs)))
                                  t' (mkT (at_ th') (handles th' ++ [a])), []))
        | _, _ => Ok None
        end
    | Idle, Go _ => Ok None
    | RetU, Go _ => Ok (Some (move s t th Idle, [Return t RUnit]))
    | RetH a, Go _ =>
        ca <- rcell s a ;;
        Ok (Some (set_th s t (mkT Idle (hs ++ [a])), [Return t (RVal (val ca))]))
    | PutH a, Go _ => Ok (Some (set_th s t (mkT Idle (hs ++ [a])), []))
    | Dec a k, Go _ =>
        ' (s', last) <- dec s a ;;
        Ok (Some (move s' t th (if last : bool then Free a k else k), []))
    | Free a k, Go _ =>
        _ <- rcell s a ;;
        Ok (Some (move (set_heap s (upd (heap s) a None)) t th k, []))
    | LoadLock u, Go _ =>
        if flag s then Ok (Some (s, []))     (* spin *)
        else Ok (Some (move (set_flag s true) t th (LoadRead u), [Acquire t]))
    | LoadRead u, Go _ => Ok (Some (move s t th (LoadInc u (cur s)), []))
    | LoadInc u a, Go _ => s' <- inc s a ;; Ok (Some (move s' t th (LoadUnlock u a), []))
    | LoadUnlock u a, Go _ =>
        Ok (Some (move (set_flag s false) t th
                    (match u with None => RetH a | Some f => UpdCall f a end), [Release t]))
    | SwapLock b ex, Go _ =>
        if flag s then Ok (Some (s, []))
        else Ok (Some (move (set_flag s true) t th (SwapRead b ex), [Acquire t]))
    | SwapRead b ex, Go _ => Ok (Some (move s t th (SwapWrite b ex (cur s)), []))
    | SwapWrite b ex x, Go _ => Ok (Some (move (set_cur s b) t th (SwapUnlock ex x), []))
    | SwapUnlock ex x, Go _ =>
        Ok (Some (move (set_flag s false) t th (if ex then RetH x else Dec x RetU),
                  [Release t]))
    | UpdCall f o, Go a =>                   (* box.hpp:149-153 *)
        co <- rcell s o ;;
        match alloc s a (f (val co)) with
        | None => Ok None
        | Some s' => Ok (Some (move s' t th (CasLock f o a), []))
        end
    | CasLock f o n, Go _ =>
        if flag s then Ok (Some (s, []))
        else Ok (Some (move (set_flag s true) t th (CasCmp f o n), [Acquire t]))
    | CasCmp f o n, Go _ =>
        Ok (Some (move s t th (if o =? cur s then CasInc f o n else FailUnlock f o n), []))
    | CasInc f o n, Go _ => s' <- inc s n ;; Ok (Some (move s' t th (CasRead f o n), []))
    | CasRead f o n, Go _ => Ok (Some (move s t th (CasWrite f o n (cur s)), []))
    | CasWrite f o n x, Go _ =>
        Ok (Some (move (set_cur s n) t th (Dec x (CasInc2 o n)), []))
    | CasInc2 o n, Go _ => s' <- inc s n ;; Ok (Some (move s' t th (CasUnlock o n), []))
    | CasUnlock o n, Go _ =>
        Ok (Some (move (set_flag s false) t th (Dec n (Dec o (RetH n))), [Release t]))
    | FailUnlock f o n, Go _ =>
        Ok (Some (move (set_flag s false) t th (Dec n (Dec o (LoadLock (Some f)))),
                  [Release t]))
    | RvTest a f, Go _ =>
        ca <- rcell s a ;;
        Ok (Some (move s t th (if rc ca =? 1 then RvWrite a f else RvNew a f), []))
    | RvWrite a f, Go _ =>
        ca <- rcell s a ;;
        Ok (Some (move (set_heap s (upd (heap s) a (Some (mkCell (rc ca) (f (val ca))))))
                    t th (PutH a), []))
    | RvNew a f, Go n =>
        ca <- rcell s a ;;
        match alloc s n (f (val ca)) with
        | None => Ok None
        | Some s' => Ok (Some (move s' t th (Dec a (PutH n)), []))
        end
    | _, _ => Ok None
    end
  end.

(** The start: an atom holding [v0], [n] threads without boxes. *)
Definition init (n : nat) (v0 : V) : state :=
  mkS false 0 (upd (fun _ => None) 0 (Some (mkCell 1 v0))) (repeat (mkT Idle []) n).

(** A schedule names the thread and its choice; choices that do not apply are skipped. *)
Fixpoint run (s : state) (sched : list (nat * choice)) : res (state * list (event V)) :=
  match sched with
  | [] => Ok (s, [])
  | (t, c) :: sched' =>
      o <- step s t c ;;
      match o with
      | None => run s sched'
      | Some (s', es) => ' (s'', es') <- run s' sched' ;; Ok (s'', es ++ es')
      end
  end.
End Model.
Arguments pc : clear implicits.
Arguments thread : clear implicits.
Arguments state : clear implicits.
Arguments choice : clear implicits.
Arguments cell : clear implicits.
