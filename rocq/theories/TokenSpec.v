(** What is expected of tokens, in terms of what can be reached from a container, and which
    programs leave moved-from transients alone. *)
From Coq Require Import List Arith Bool.
From Verif Require Import Common Token.
Import ListNotations.

Section Spec.
Context {V : Type}.

(** Node [b] can be reached from node [a]. *)
Inductive reach (h : list (tnode V)) (a : nat) : nat -> Prop :=
| reach_here : reach h a a
| reach_kid x n b : reach h a x -> nth_error h x = Some n -> In b (nkids n) -> reach h a b.

Definition root_of (c : cont) : option nat :=
  match c with Dead => None | Pers r | Trans _ r => r end.

(** The transients a program has moved from and not assigned to since: [uses mv o] are the
    moved-from transients after [o], and [None] if [o] uses a moved-from one otherwise than
    to destroy it or to assign to it. *)
Definition unless (b : bool) (mv : list nat) : option (list nat) := if b then None else Some mv.
Definition mem (i : nat) (mv : list nat) : bool := existsb (Nat.eqb i) mv.
Definition without (i : nat) (mv : list nat) : list nat := filter (fun j => negb (i =? j)) mv.
Fixpoint passes (mv : list nat) (args : list targ) : option (list nat) :=
  match args with
  | [] => Some mv
  | APers j :: args' => passes mv args'
  | ALvalue j :: args' => if mem j mv then None else passes mv args'
  | ARvalue j :: args' => if mem j mv then None else passes (j :: mv) args'
  end.
Definition uses (mv : list nat) (o : top V) : option (list nat) :=
  match o with
  | TBuild _ _ | TTransient _ | TDrop _ => Some mv
  | TCopy i | TPersistent i => unless (mem i mv) mv
  | TMove i | TPersistentRv i _ => unless (mem i mv) (i :: mv)
  | TAssign i j => unless (mem j mv) (without i mv)
  | TMoveAssign i j => unless (mem j mv) (j :: without i mv)
  | TEdit i args _ =>
      match passes mv args with Some mv' => unless (mem i mv') mv' | None => None end
  end.
Fixpoint all_uses (mv : list nat) (os : list (top V)) : option (list nat) :=
  match os with
  | [] => Some mv
  | o :: os' => match uses mv o with Some mv' => all_uses mv' os' | None => None end
  end.

(** The containers an operation is meant to change. *)
Fixpoint rvalues (args : list targ) : list nat :=
  match args with
  | [] => []
  | ARvalue j :: args' => j :: rvalues args'
  | _ :: args' => rvalues args'
  end.
Definition changes (o : top V) : list nat :=
  match o with
  | TBuild _ _ | TTransient _ | TCopy _ | TPersistent _ => []
  | TMove i | TPersistentRv i _ | TAssign i _ | TDrop i => [i]
  | TMoveAssign i j => [i; j]
  | TEdit i args _ => i :: rvalues args
  end.
End Spec.
