(** C67: vector nodes are deallocated with the size they were allocated with. *)
From Coq Require Import List NArith Bool Lia.
From Verif Require Import LayoutSpec Layout LayoutProps LayoutFree.
Import ListNotations.
Local Open Scope N_scope.
Set Default Goal Selector "!".

Lemma size_headroom T refs ownee tagged embed width lwidth k n : t_empty refs = false ->
  size_n T refs ownee tagged embed width lwidth k n = size_max T refs ownee tagged embed width lwidth k.
Proof.
  intros H. assert (Hh : headroom refs = true) by (unfold headroom; rewrite H; reflexivity).
  destruct k; cbn; unfold sizeof_inner_n, sizeof_inner_r_n, sizeof_relaxed_n, sizeof_leaf_n; rewrite Hh; reflexivity.
Qed.
Lemma d_off_alog t t' ts : t_empty t = false -> t_empty t' = false -> t_alog t = t_alog t' -> d_off (t :: ts) = d_off (t' :: ts).
Proof.
  intros H1 H2 H3. unfold d_off. cbn [combine]. destruct (combine ts) as [nx offs]. rewrite H1, H2, H3.
  destruct (t_empty nx); reflexivity.
Qed.
Lemma rel_alog w : (1 <= w)%nat -> t_alog (rel_data w) = 3.
Proof.
  intros Hw. unfold rel_data, struct_t. cbn [t_alog alog_of]. destruct w as [|w]; [lia|]. cbn [repeat alog_of].
  assert (E : alog_of (repeat word_t w) <= 3) by (clear; induction w; cbn; lia). cbn [word_t count_t t_alog]. lia.
Qed.

(** With reference counting; the tables deleted by ensure_mutable_relaxed only for nodes without tags
    and elements of alignment 8 at most. *)
Theorem C67_sizes_partial : forall T refs ownee tagged embed width lwidth k m f,
  t_empty refs = false -> (1 <= width)%nat -> deletes embed k f ->
  match f with ByEnsure _ => tagged = false /\ t_alog T <= 3 | _ => True end ->
  allocated T refs ownee tagged embed width lwidth k m = deallocated T refs ownee tagged embed width lwidth k f.
Proof.
  intros T refs ownee tagged embed width lwidth k m f Hr Hw Hk Hf.
  assert (E : allocated T refs ownee tagged embed width lwidth k m = size_max T refs ownee tagged embed width lwidth k)
    by (destruct m; cbn; [now apply size_headroom|reflexivity]).
  rewrite E. destruct f as [owned n| |n]; cbn [deallocated].
  - destruct owned; [reflexivity|]. now rewrite size_headroom.
  - reflexivity.
  - destruct Hk as [-> ->]. destruct Hf as [-> HT]. rewrite size_headroom by exact Hr. cbn [size_max].
    unfold packed_relaxed, packed_inner_r, packed_inner, rel_off, buf_off, data_off, impl_t. cbn [rel_t tag_t app].
    rewrite (d_off_alog (rel_data width) (struct_t [rb_data T])); [| reflexivity | reflexivity |].
    + assert (E1 : after_off [count_t] word_t = 8) by reflexivity. assert (E2 : after_off rb_inner ptr_t = 8) by reflexivity.
      assert (E3 : after_off [] (rb_data T) = 0).
      { unfold after_off, up. cbn [lay_end]. pose proof (pow_pos (t_alog (rb_data T))). rewrite N.div_small by lia. reflexivity. }
      rewrite E1, E2, E3. lia.
    + rewrite rel_alog by exact Hw. cbn. lia.
Qed.
Print Assumptions C67_sizes_partial.

(** B = 5, elements of alignment 16, or of type int in nodes with tags (as in debug builds): a table of
    272 bytes is deallocated as 280 bytes. *)
Theorem C67_sizes_refuted : forall tagged, exists T refs ownee width lwidth m f, ty_wf T /\ t_empty refs = false /\
  (1 <= width)%nat /\ deletes false KTable f /\ (tagged = true -> T = mkTy 4 2 false) /\
  allocated T refs ownee tagged false width lwidth KTable m = 272 /\
  deallocated T refs ownee tagged false width lwidth KTable f = 280.
Proof.
  intros tagged.
  exists (if tagged then mkTy 4 2 false else mkTy 16 4 false), (mkTy 4 2 false), (mkTy 1 0 true), 32%nat, 4%nat, (ForN 3), (ByEnsure 3).
  destruct tagged.
  all: split; [exists 1; reflexivity|]; split; [reflexivity|]; split; [repeat constructor|]; split; [split; reflexivity|].
  all: split; [intros H; try discriminate H; reflexivity|]; split; vm_compute; reflexivity.
Qed.
Print Assumptions C67_sizes_refuted.

Example C67_nonvacuous :
  let T := mkTy 8 3 false in let refs := mkTy 4 2 false in let ownee := mkTy 1 0 true in
  allocated T refs ownee false false 32 32 KTable (ForN 3) = 272 /\
  deallocated T refs ownee false false 32 32 KTable (ByEnsure 5) = 272 /\
  allocated T refs ownee false true 32 32 KInnerR ForEdit = 536 /\
  deallocated T refs ownee false true 32 32 KInnerR (ByN false 7) = 536.
Proof. repeat split. Qed.
