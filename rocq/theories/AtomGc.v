(** Model of immer::atom under garbage collection: gc_atom_impl (atom.hpp:81-120) over
    no_refcount_policy boxes (box.hpp, refcount/no_refcount_policy.hpp:21-29).

    An execution is an interleaving of the steps below; the atomic pointer has the default
    sequentially consistent ordering.  The collector is modelled by what it may do: the
    allocator hands out any address that nothing refers to any more.  Boxes are never
    written after construction, because unique() is false (no_refcount_policy.hpp:28,
    box.hpp:154-162). *)
From Coq Require Import List Arith Bool.
From Verif Require Import Common AtomSpec.
Import ListNotations.

Section Model.
Context {V : Type}.

(** What a thread is about to do. *)
Inductive gpc : Type :=
| GIdle
| GRetU | GRet (a : nat)
| GLoad                                   (* impl_.load(), atom.hpp:101 *)
| GStore (b : nat)                        (* impl_.store(b.impl_), atom.hpp:103 *)
| GExchange (b : nat)                     (* impl_.exchange(b.impl_), atom.hpp:105 *)
| GUpdLoad (f : V -> V)                   (* oldv = impl_.load(), atom.hpp:110 *)
| GUpdCall (f : V -> V) (o : nat)         (* newv = oldv.update(fn), atom.hpp:111 *)
| GCas (f : V -> V) (o n : nat).          (* compare_exchange_weak, atom.hpp:112 *)
Record gthread : Type := mkGT { gat : gpc; ghs : list nat }.
Record gstate : Type := mkGS { gcur : nat; gheap : nat -> option V; gths : list gthread }.

Inductive gchoice : Type :=
| GCLoad | GCStore (i : nat) | GCExchange (i : nat) | GCUpdate (f : V -> V)
| GCNew (v : V) (a : nat) | GCCopy (i : nat) | GCDrop (i : nat) | GCSend (i t' : nat)
| GGo (a : nat) (spurious : bool).

(** The references of a thread. *)
Definition groots_pc (p : gpc) : list nat :=
  match p with
  | GRet a | GStore a | GExchange a | GUpdCall _ a => [a]
  | GCas _ o n => [o; n]
  | _ => []
  end.
Definition groots (th : gthread) : list nat := ghs th ++ groots_pc (gat th).
Definition gin (a : nat) (l : list nat) : bool := existsb (Nat.eqb a) l.
(** Something refers to [a]: the atom, a variable or an operation in progress.  A conservative
    collector keeps at least these objects. *)
Definition grooted (s : gstate) (a : nat) : bool :=
  (gcur s =? a) || existsb (fun th => gin a (groots th)) (gths s).

(** Dereferencing a box. *)
Definition gread (s : gstate) (a : nat) : res V :=
  match gheap s a with Some v => Ok v | None => UB end.
(** Thread [t] is now [th]; the atomic pointer is now [a]. *)
Definition gset (s : gstate) (t : nat) (th : gthread) : gstate :=
  mkGS (gcur s) (gheap s) (update_at t th (gths s)).
Definition gput (s : gstate) (a : nat) : gstate := mkGS a (gheap s) (gths s).
(** Allocation (make<heap, holder>) at an address that is free or has been collected. *)
Definition galloc (s : gstate) (a : nat) (v : V) : option gstate :=
  if grooted s a then None
  else Some (mkGS (gcur s) (fun x => if x =? a then Some v else gheap s x) (gths s)).

(** One step of thread [t]: a call (atom.hpp:101-116, box.hpp), a copy or destruction of a
    variable, or the next step of the operation it is in. *)
Definition gstep (s : gstate) (t : nat) (c : gchoice)
  : res (option (gstate * list (event V))) :=
  match nth_error (gths s) t with
  | None => Ok None
  | Some th =>
    let hs := ghs th in
    match gat th, c with
    | GIdle, GCLoad => Ok (Some (gset s t (mkGT GLoad hs), [Call t OLoad]))
    | GIdle, GCStore i =>
        match nth_error hs i with
        | None => Ok None
        | Some b => v <- gread s b ;;
            Ok (Some (gset s t (mkGT (GStore b) hs), [Call t (OStore v)]))
        end
    | GIdle, GCExchange i =>
        match nth_error hs i with
        | None => Ok None
        | Some b => v <- gread s b ;;
            Ok (Some (gset s t (mkGT (GExchange b) hs), [Call t (OExchange v)]))
        end
    | GIdle, GCUpdate f => Ok (Some (gset s t (mkGT (GUpdLoad f) hs), [Call t (OUpdate f)]))
    | GIdle, GCNew v a =>
        match galloc s a v with
        | None => Ok None
        | Some s' => Ok (Some (gset s' t (mkGT GIdle (hs ++ [a])), []))
        end
    | GIdle, GCCopy i =>
        match nth_error hs i with
        | None => Ok None
        | Some a => Ok (Some (gset s t (mkGT GIdle (hs ++ [a])), []))
        end
    | GIdle, GCDrop i => Ok (Some (gset s t (mkGT GIdle (remove_at i hs)), []))
    | GIdle, GCSend i t' =>
        match nth_error hs i, nth_error (gths s) t' with
        | Some a, Some th' => Ok (Some (gset s t' (mkGT (gat th') (ghs th' ++ [a])), []))
        | _, _ => Ok None
        end
    | GRetU, GGo _ _ => Ok (Some (gset s t (mkGT GIdle hs), [Return t RUnit]))
    | GRet a, GGo _ _ =>
        v <- gread s a ;; Ok (Some (gset s t (mkGT GIdle (hs ++ [a])), [Return t (RVal v)]))
    | GLoad, GGo _ _ => Ok (Some (gset s t (mkGT (GRet (gcur s)) hs), []))
    | GStore b, GGo _ _ => Ok (Some (gset (gput s b) t (mkGT GRetU hs), []))
    | GExchange b, GGo _ _ => Ok (Some (gset (gput s b) t (mkGT (GRet (gcur s)) hs), []))
    | GUpdLoad f, GGo _ _ => Ok (Some (gset s t (mkGT (GUpdCall f (gcur s)) hs), []))
    | GUpdCall f o, GGo a _ =>
        v <- gread s o ;;
        match galloc s a (f v) with
        | None => Ok None
        | Some s' => Ok (Some (gset s' t (mkGT (GCas f o a) hs), []))
        end
    | GCas f o n, GGo _ spurious =>
        if negb spurious && (gcur s =? o)
        then Ok (Some (gset (gput s n) t (mkGT (GRet n) hs), []))
        else Ok (Some (gset s t (mkGT (GUpdLoad f) hs), []))
    | _, _ => Ok None
    end
  end.

(** [n] threads and the atom's constructor, atom.hpp:97-99. *)
Definition ginit (n : nat) (v0 : V) : gstate :=
  mkGS 0 (fun x => if x =? 0 then Some v0 else None) (repeat (mkGT GIdle []) n).

(** A schedule: at each moment any thread runs; a step that is not possible is skipped. *)
Fixpoint grun (s : gstate) (sched : list (nat * gchoice)) : res (gstate * list (event V)) :=
  match sched with
  | [] => Ok (s, [])
  | (t, c) :: sched' =>
      o <- gstep s t c ;;
      match o with
      | None => grun s sched'
      | Some (s', es) => ' (s'', es') <- grun s' sched' ;; Ok (s'', es ++ es')
      end
  end.
End Model.
Arguments gpc : clear implicits.
Arguments gthread : clear implicits.
Arguments gstate : clear implicits.
Arguments gchoice : clear implicits.
