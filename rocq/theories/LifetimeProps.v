(** Property C43 at the level of elements: filling a node is all or nothing, whatever throws. *)
From Coq Require Import List Arith Bool Lia.
From Verif Require Import Common RcHeap RcExn Lifetime LifetimeSpec LifetimeProofs.
Import ListNotations.

(** The functions of util.hpp, hamts/node.hpp and rbts/node.hpp that fill new nodes, but for
    copy_collision_replace: for every memory, number of elements, position and choice of
    throwing constructors and allocations. *)
Theorem C43_nodes_partial h src n :
  has_elements h src n ->
  (* leaves *)
  (forall alloc, 1 <= alloc -> all_or_nothing (make_leaf alloc) h (makes_block h 1 (alloc - 1))) /\
  (forall alloc idx m, idx + m <= n -> m <= alloc ->
     all_or_nothing (copy_leaf alloc src idx m) h (makes_block h m (alloc - m))) /\
  (forall alloc src2 n1 n2 N2, has_elements h src2 N2 -> n1 <= n -> n2 <= N2 -> n1 + n2 <= alloc ->
     all_or_nothing (copy_leaf_2 alloc src n1 src2 n2) h (makes_block h (n1 + n2) (alloc - (n1 + n2)))) /\
  (forall m, m <= n -> all_or_nothing (copy_leaf_emplace src m) h (makes_block h (m + 1) 0)) /\
  (* collision nodes *)
  all_or_nothing make_collision h (makes_block h 2 0) /\
  all_or_nothing (copy_collision_insert src n) h (makes_block h (n + 1) 0) /\
  (forall v, v < n -> all_or_nothing (copy_collision_remove src n v) h (makes_block h (n - 1) 0)) /\
  all_or_nothing (move_collision_insert src n) h
    (fun a h' => a = length h /\ h' = update_at src None h ++ [block (n + 1) 0]) /\
  (forall v, v < n -> all_or_nothing (move_collision_remove src n v) h
    (fun a h' => a = length h /\ h' = update_at src None h ++ [block (n - 1) 0])) /\
  (* inner nodes *)
  all_or_nothing make_inner_1 h (makes_inner h 1) /\
  all_or_nothing make_inner_2 h (makes_inner h 2) /\
  all_or_nothing (ensure_mutable_values src n) h (makes_block h n 0) /\
  (1 <= n -> all_or_nothing (copy_inner_replace_value src n) h (makes_inner h n)) /\
  (forall v, v < n -> all_or_nothing (copy_inner_without src n v) h (makes_inner h (n - 1))) /\
  (forall v, v <= n -> all_or_nothing (copy_inner_with src n v) h (makes_inner h (n + 1))).
Proof.
  intros S.
  repeat match goal with |- _ /\ _ => split end; intros.
  - now apply make_leaf_ok.
  - now apply copy_leaf_ok with (N := n).
  - now apply copy_leaf_2_ok with (N1 := n) (N2 := N2).
  - now apply copy_leaf_emplace_ok with (N := n).
  - apply make_collision_ok.
  - now apply copy_collision_insert_ok.
  - now apply copy_collision_remove_ok.
  - now apply move_collision_insert_ok.
  - now apply move_collision_remove_ok.
  - apply make_inner_1_ok.
  - apply make_inner_2_ok.
  - now apply ensure_mutable_values_ok.
  - now apply copy_inner_replace_value_ok.
  - now apply copy_inner_without_ok.
  - apply copy_inner_with_ok; auto.
Qed.
Print Assumptions C43_nodes_partial.

(** copy_collision_replace(src, pos, v): when a copy of an element behind [pos] throws, the
    first element of the new node is destroyed a second time. *)
Theorem C43_copy_collision_replace_refuted : exists h src n pos,
  has_elements h src n /\ pos < n /\
  ~ all_or_nothing (copy_collision_replace src n pos) h (makes_block h n 0).
Proof.
  exists [block 2 0], 0, 2, 0. split; [exists 0; reflexivity|]. split; [lia|].
  intros H. specialize (H [false; false; true]). exact H.
Qed.
Print Assumptions C43_copy_collision_replace_refuted.

(** An insertion into a collision node of three elements of which the second copy throws, and
    one where nothing does. *)
Example C43_nodes_nonvacuous :
  has_elements [None; block 3 0] 1 3 /\
  copy_collision_insert 1 3 [false; false; false; true] [None; block 3 0] =
    Ok (Exn, [], [None; block 3 0; None]) /\
  copy_collision_insert 1 3 [] [None; block 3 0] = Ok (Ret 2, [], [None; block 3 0; block 4 0]).
Proof. split; [exists 0; reflexivity|]. split; reflexivity. Qed.
Example C43_inner_example :
  copy_inner_with 1 3 1 [false; false; false; false; true] [None; block 3 0] =
    Ok (Exn, [], [None; block 3 0; None; None]) /\
  copy_inner_with 1 3 1 [] [None; block 3 0] =
    Ok (Ret (2, Some 3), [], [None; block 3 0; block 0 0; block 4 0]).
Proof. split; reflexivity. Qed.
