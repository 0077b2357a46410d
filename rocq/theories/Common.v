(** Shared conventions.

    [res A] is the outcome of a modelled C++ expression: [Ok a] is a defined
    result and [UB] is undefined behaviour (out of bounds read, wrong node kind,
    IMMER_UNREACHABLE, null dereference). *)
From Coq Require Import List NArith Arith Lia.
Import ListNotations.

Inductive res (A : Type) : Type :=
| Ok (a : A)
| UB.
Arguments Ok {A} a.
Arguments UB {A}.

Definition rbind {A C} (m : res A) (k : A -> res C) : res C :=
  match m with Ok a => k a | UB => UB end.

Notation "x <- m ;; k" := (rbind m (fun x => k))
  (at level 61, m at next level, right associativity).
Notation "' p <- m ;; k" := (rbind m (fun x => match x with p => k end))
  (at level 61, p pattern, m at next level, right associativity).

(** Array access [p[i]]: out of bounds is undefined behaviour. *)
Definition rnth {A} (l : list A) (i : nat) : res A :=
  match nth_error l i with Some a => Ok a | None => UB end.

Lemma rbind_ok {A C} (m : res A) (k : A -> res C) c :
  rbind m k = Ok c -> exists a, m = Ok a /\ k a = Ok c.
Proof. destruct m as [a|]; simpl; [eauto | discriminate]. Qed.

Lemma rnth_ok {A} (l : list A) i a :
  rnth l i = Ok a <-> nth_error l i = Some a.
Proof. unfold rnth. destruct (nth_error l i); split; congruence. Qed.

(** List surgery used for node buffers: insert before, remove at, overwrite at. *)
Fixpoint insert_at {A} (i : nat) (a : A) (l : list A) : list A :=
  match i, l with
  | O, _ => a :: l
  | S i', x :: l' => x :: insert_at i' a l'
  | S _, [] => [a]
  end.

Fixpoint remove_at {A} (i : nat) (l : list A) : list A :=
  match i, l with
  | _, [] => []
  | O, _ :: l' => l'
  | S i', x :: l' => x :: remove_at i' l'
  end.

Fixpoint update_at {A} (i : nat) (a : A) (l : list A) : list A :=
  match i, l with
  | _, [] => []
  | O, _ :: l' => a :: l'
  | S i', x :: l' => x :: update_at i' a l'
  end.

(** Position of the first element satisfying [p]. *)
Fixpoint find_index {A} (p : A -> bool) (l : list A) : option nat :=
  match l with
  | [] => None
  | x :: l' => if p x then Some O
               else match find_index p l' with Some i => Some (S i) | None => None end
  end.
