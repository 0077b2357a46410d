(** The sizes with which vector nodes are allocated and deallocated.

    Source: immer/detail/rbts/node.hpp.  Tables of sizes are blocks of their own (embed_relaxed is
    false) or part of the node. *)
From Coq Require Import List NArith Bool.
From Verif Require Import Layout.
Import ListNotations.
Local Open Scope N_scope.

Inductive kind := KInner | KInnerR | KTable | KLeaf.
(** How a block is made: for [n] ([make_.._n]), or for an edit ([make_.._e], and the tables of
    ensure_mutable_relaxed). *)
Inductive made := ForN (n : nat) | ForEdit.
(** How it is deleted: [delete_..] with a count and whether the ownee is owned; [delete_.._e]; or,
    for tables, by ensure_mutable_relaxed. *)
Inductive freed := ByN (owned : bool) (n : nat) | ByEdit | ByEnsure (n : nat).

Section Free.
Variables T refs ownee : ty.
Variables tagged embed : bool.
Variables width lwidth : nat.
(** sizeof_[..]_n, max_sizeof_[..]: 120-152. *)
Definition size_n (k : kind) (n : nat) : N :=
  match k with
  | KInner => sizeof_inner_n T refs ownee tagged width n
  | KInnerR => sizeof_inner_r_n T refs ownee tagged embed width n
  | KTable => sizeof_relaxed_n refs ownee embed width n
  | KLeaf => sizeof_leaf_n T refs ownee tagged lwidth n
  end.
Definition size_max (k : kind) : N :=
  match k with
  | KInner => packed_inner T refs ownee tagged width
  | KInnerR => packed_inner_r T refs ownee tagged embed width width
  | KTable => packed_relaxed refs ownee embed width width
  | KLeaf => packed_leaf T refs ownee tagged lwidth
  end.
(** 213-345, 876-877, 903-904, 929-930. *)
Definition allocated (k : kind) (m : made) : N := match m with ForN n => size_n k n | ForEdit => size_max k end.
(** 797-857; ensure_mutable_relaxed, 883, 910, 935: sizeof_inner_r_n. *)
Definition deallocated (k : kind) (f : freed) : N :=
  match f with
  | ByN owned n => if owned then size_max k else size_n k n
  | ByEdit => size_max k
  | ByEnsure n => size_n KInnerR n
  end.
End Free.
(** Only tables that are blocks of their own are deleted by ensure_mutable_relaxed. *)
Definition deletes (embed : bool) (k : kind) (f : freed) : Prop :=
  match f with ByEnsure _ => k = KTable /\ embed = false | _ => True end.
