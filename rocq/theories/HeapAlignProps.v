(** C68: blocks of the free lists are aligned as the elements need. *)
From Coq Require Import List NArith Bool Lia.
From Verif Require Import LayoutSpec Layout LayoutProps HeapAlign.
Import ListNotations.
Local Open Scope N_scope.
Set Default Goal Selector "!".

Lemma optimized_8 debug limit size p : N.divide 16 p -> N.divide 8 (returned (optimized debug limit) size p).
Proof.
  intros [k ->]. unfold optimized, debug_heap. destruct debug; cbn; destruct (size <=? limit).
  - exists (2 * k + 3). lia.
  - exists (2 * k + 2). lia.
  - exists (2 * k + 1). lia.
  - exists (2 * k). lia.
Qed.

(** Leaves, inner nodes and tables, with elements, counts and ownees of alignment 8 at most. *)
Theorem C68_alignment_partial : forall debug T refs ownee tagged embed width lwidth n p,
  ty_wf T -> t_alog T <= 3 -> t_alog refs <= 3 -> t_alog ownee <= 3 -> (1 <= width)%nat -> N.divide 16 p ->
  let h := vec_heap debug T refs ownee tagged width in
  let leaf := sizeof_leaf_n T refs ownee tagged lwidth n in
  let inner := sizeof_inner_n T refs ownee tagged width n in
  let inner_r := sizeof_inner_r_n T refs ownee tagged embed width n in
  let table := sizeof_relaxed_n refs ownee embed width n in
  sound (returned h leaf p) leaf (leaf_places T refs ownee tagged lwidth n) /\
  sound (returned h inner p) inner (inner_places T refs ownee tagged width n) /\
  sound (returned h inner_r p) inner_r (inner_r_places T refs ownee tagged embed width n) /\
  sound (returned h table p) table (relaxed_places refs ownee embed width n).
Proof.
  intros debug T refs ownee tagged embed width lwidth n p HT AT Ar Ao Hw Hp h leaf inner inner_r table.
  assert (D : forall size, N.divide (2 ^ 3) (returned h size p)) by (intros; now apply optimized_8).
  pose proof (fun size => C65_vector T refs ownee tagged embed width lwidth 3 _ n HT AT Ar Ao (N.le_refl 3) Hw (D size)) as C.
  split; [apply (C leaf)|]. split; [apply (C inner)|]. split; [apply (C inner_r)|apply (C table)].
Qed.
Print Assumptions C68_alignment_partial.

(** Elements of size and alignment 16, as long double, B = 5 and BL = 4: no leaf is aligned. *)
Theorem C68_alignment_refuted : exists T refs ownee, ty_wf T /\ t_alog T = 4 /\
  forall debug n p, N.divide 16 p ->
  let leaf := sizeof_leaf_n T refs ownee false 16 n in
  ~ sound (returned (vec_heap debug T refs ownee false 32) leaf p) leaf (leaf_places T refs ownee false 16 n).
Proof.
  exists (mkTy 16 4 false), (mkTy 4 2 false), (mkTy 1 0 true). split; [exists 1; reflexivity|]. split; [reflexivity|].
  intros debug n p [k ->]. cbn zeta. change (sizeof_leaf_n _ _ _ _ _ n) with 272.
  intros [H _]. rewrite Forall_forall in H.
  assert (I : In (mkPlace 16 16 4) (leaf_places (mkTy 16 4 false) (mkTy 4 2 false) (mkTy 1 0 true) false 16 n)) by (vm_compute; auto).
  destruct (H _ I) as [_ [q Hq]]. cbn [p_alog p_off] in Hq. change (2 ^ 4) with 16 in Hq.
  assert (E : returned (vec_heap debug (mkTy 16 4 false) (mkTy 4 2 false) (mkTy 1 0 true) false 32) 272 (k * 16) =
    k * 16 + (if debug then 24 else 8)).
  { unfold vec_heap. change (packed_inner _ _ _ _ _) with 280. unfold optimized, debug_heap. destruct debug; cbn; lia. }
  rewrite E in Hq. destruct debug; lia.
Qed.
Print Assumptions C68_alignment_refuted.

Example C68_nonvacuous :
  let T := mkTy 4 2 false in let refs := mkTy 4 2 false in let ownee := mkTy 1 0 true in
  sizeof_leaf_n T refs ownee false 64 7 = 264 /\ returned (vec_heap false T refs ownee false 32) 264 160 = 168 /\
  returned (vec_heap true T refs ownee false 32) 264 160 = 184.
Proof. repeat split. Qed.
