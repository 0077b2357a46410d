(** Model of the thread-safe free list, heap/free_list_heap.hpp:28-82, used by any number of
    threads.

    An execution is an interleaving of the accesses to the shared memory: the head pointer,
    the counter, the [next] field of a block and the parent heap.  Memory is sequentially
    consistent.  The compare-exchange is weak: it may fail without reason.  The parent heap
    hands out any block that it has not handed out yet and not got back. *)
From Coq Require Import List Arith Bool NArith.
From Verif Require Import Common FreeListSpec.
Import ListNotations.

(** std::size_t. *)
Definition szmod (n : N) : N := N.modulo n (2 ^ 64).

(** What a thread is about to do. *)
Inductive fpc : Type :=
| FIdle
| FLoad                                (* n = head().data, free_list_heap.hpp:41 *)
| FParent                              (* base_t::allocate, :43 *)
| FNext (n : nat)                      (* n->next, :46 *)
| FCas (n : nat) (m : option nat)      (* compare_exchange_weak(n, n->next), :46 *)
| FSub (n : nat)                       (* count.fetch_sub, :47 *)
| FCount (n : nat)                     (* count.load() >= Limit, :59 *)
| FFree (n : nat)                      (* base_t::deallocate, :60 *)
| FLink (n : nat)                      (* n->next = head().data, :64 *)
| FPush (n : nat)                      (* compare_exchange_weak(n->next, n), :65 *)
| FAdd.                                (* count.fetch_add, :66 *)

(** A thread and the blocks it has. *)
Record fthread : Type := mkFT { fat : fpc; fhas : list nat }.
(** [fmem a] is [None] if the parent heap has block [a], otherwise the block's [next] field. *)
Record fstate : Type := mkFS
  { fhead : option nat; fcount : N; fmem : nat -> option (option nat); fths : list fthread }.

Inductive fchoice : Type :=
| FAllocate                            (* call allocate *)
| FDeallocate (i : nat)                (* call deallocate with its i-th block *)
| FWrite (i : nat) (m : option nat)    (* write the first word of its i-th block *)
| FSend (i t' : nat)                   (* give its i-th block to another thread *)
| FGo (a : nat) (spurious : bool).     (* go on; [a] is what the parent heap would return *)

Definition onat_eqb (x y : option nat) : bool :=
  match x, y with Some a, Some b => a =? b | None, None => true | _, _ => false end.

(** Reading and writing [next]: the block must not be back in the parent heap. *)
Definition fread (s : fstate) (a : nat) : res (option nat) :=
  match fmem s a with Some m => Ok m | None => UB end.
Definition fwrite (s : fstate) (a : nat) (m : option nat) : res fstate :=
  match fmem s a with
  | Some _ => Ok (mkFS (fhead s) (fcount s) (fun x => if x =? a then Some m else fmem s x) (fths s))
  | None => UB
  end.
Definition fset (s : fstate) (t : nat) (th : fthread) : fstate :=
  mkFS (fhead s) (fcount s) (fmem s) (update_at t th (fths s)).
Definition fput (s : fstate) (h : option nat) : fstate :=
  mkFS h (fcount s) (fmem s) (fths s).
Definition ftally (s : fstate) (c : N) : fstate :=
  mkFS (fhead s) c (fmem s) (fths s).

Section Model.
Variable limit : N.

(** One step of thread [t]; [None] if it cannot take it. *)
Definition fstep (s : fstate) (t : nat) (c : fchoice)
  : res (option (fstate * list fevent)) :=
  match nth_error (fths s) t with
  | None => Ok None
  | Some th =>
    let has := fhas th in
    match fat th, c with
    | FIdle, FAllocate => Ok (Some (fset s t (mkFT FLoad has), []))
    | FIdle, FDeallocate i =>
        match nth_error has i with
        | None => Ok None
        | Some a => Ok (Some (fset s t (mkFT (FCount a) (remove_at i has)), [Gave t a]))
        end
    | FIdle, FWrite i m =>
        match nth_error has i with
        | None => Ok None
        | Some a => s' <- fwrite s a m ;; Ok (Some (s', []))
        end
    | FIdle, FSend i t' =>
        match nth_error has i, nth_error (fths s) t' with
        | Some a, Some th' =>
            if t' =? t then Ok None
            else Ok (Some (fset (fset s t (mkFT FIdle (remove_at i has))) t'
                             (mkFT (fat th') (fhas th' ++ [a])), []))
        | _, _ => Ok None
        end
    | FLoad, FGo _ _ =>
        match fhead s with
        | None => Ok (Some (fset s t (mkFT FParent has), []))
        | Some n => Ok (Some (fset s t (mkFT (FNext n) has), []))
        end
    | FParent, FGo a _ =>
        match fmem s a with
        | Some _ => Ok None
        | None =>
            let s' := mkFS (fhead s) (fcount s)
                        (fun x => if x =? a then Some None else fmem s x) (fths s) in
            Ok (Some (fset s' t (mkFT FIdle (has ++ [a])), [Got t a]))
        end
    | FNext n, FGo _ _ => m <- fread s n ;; Ok (Some (fset s t (mkFT (FCas n m) has), []))
    | FCas n m, FGo _ spurious =>
        if negb spurious && onat_eqb (fhead s) (Some n)
        then Ok (Some (fset (fput s m) t (mkFT (FSub n) has), []))
        else Ok (Some (fset s t (mkFT FLoad has), []))
    | FSub n, FGo _ _ =>
        Ok (Some (fset (ftally s (szmod (fcount s + (2 ^ 64 - 1)))) t
                    (mkFT FIdle (has ++ [n])), [Got t n]))
    | FCount n, FGo _ _ =>
        if (limit <=? fcount s)%N
        then Ok (Some (fset s t (mkFT (FFree n) has), []))
        else Ok (Some (fset s t (mkFT (FLink n) has), []))
    | FFree n, FGo _ _ =>
        match fmem s n with
        | None => UB
        | Some _ =>
            let s' := mkFS (fhead s) (fcount s)
                        (fun x => if x =? n then None else fmem s x) (fths s) in
            Ok (Some (fset s' t (mkFT FIdle has), []))
        end
    | FLink n, FGo _ _ =>
        s' <- fwrite s n (fhead s) ;; Ok (Some (fset s' t (mkFT (FPush n) has), []))
    | FPush n, FGo _ spurious =>
        m <- fread s n ;;
        if negb spurious && onat_eqb (fhead s) m
        then Ok (Some (fset (fput s (Some n)) t (mkFT FAdd has), []))
        else s' <- fwrite s n (fhead s) ;; Ok (Some (fset s' t (mkFT (FLink n) has), []))
    | FAdd, FGo _ _ =>
        Ok (Some (fset (ftally s (szmod (fcount s + 1))) t (mkFT FIdle has), []))
    | _, _ => Ok None
    end
  end.

(** head_t head_{{nullptr}, {0}}, free_list_heap.hpp:79, and [n] threads. *)
Definition finit (n : nat) : fstate :=
  mkFS None 0 (fun _ => None) (repeat (mkFT FIdle []) n).

(** A schedule; a step that is not possible is skipped. *)
Fixpoint frun (s : fstate) (sched : list (nat * fchoice)) : res (fstate * list fevent) :=
  match sched with
  | [] => Ok (s, [])
  | (t, c) :: sched' =>
      o <- fstep s t c ;;
      match o with
      | None => frun s sched'
      | Some (s', es) => ' (s'', es') <- frun s' sched' ;; Ok (s'', es ++ es')
      end
  end.
End Model.
