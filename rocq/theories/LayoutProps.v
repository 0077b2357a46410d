(** C65: the parts of nodes lie inside the allocated block, aligned, without overlap. *)
From Coq Require Import List NArith Bool Lia.
From Verif Require Import LayoutSpec Layout.
Import ListNotations.
Local Open Scope N_scope.
Set Default Goal Selector "!".

Definition ty_wf (t : ty) : Prop := N.divide (2 ^ t_alog t) (t_size t).

Lemma pow_pos a : 0 < 2 ^ a.
Proof. apply N.neq_0_lt_0, N.pow_nonzero. discriminate. Qed.
Lemma pow_div a b : a <= b -> N.divide (2 ^ a) (2 ^ b).
Proof. intros H. exists (2 ^ (b - a)). rewrite <- N.pow_add_r. f_equal. lia. Qed.
Lemma div_le a b x : a <= b -> N.divide (2 ^ b) x -> N.divide (2 ^ a) x.
Proof. intros H D. eapply N.divide_trans; [apply pow_div, H|exact D]. Qed.
Lemma up_ge a x : x <= up a x.
Proof.
  unfold up. pose proof (pow_pos a). pose proof (N.div_mod (x + (2 ^ a - 1)) (2 ^ a) ltac:(lia)).
  pose proof (N.mod_lt (x + (2 ^ a - 1)) (2 ^ a) ltac:(lia)). lia.
Qed.
Lemma up_div a x : N.divide (2 ^ a) (up a x).
Proof. unfold up. exists ((x + (2 ^ a - 1)) / 2 ^ a). reflexivity. Qed.

Definition fits (A lo hi : N) (ps : list place) : Prop :=
  Forall (fun p => lo <= p_off p /\ p_off p + p_size p <= hi /\ p_alog p <= A /\ N.divide (2 ^ p_alog p) (p_off p)) ps /\
  ForallOrdPairs apart ps.
Lemma fits_nil A lo hi : fits A lo hi [].
Proof. split; constructor. Qed.
Lemma fits_weaken A lo hi ps A' lo' hi' : A <= A' -> lo' <= lo -> hi <= hi' -> fits A lo hi ps -> fits A' lo' hi' ps.
Proof.
  intros HA Hl Hh [H1 H2]. split; [|exact H2]. eapply Forall_impl; [|exact H1]. cbn. intros p (? & ? & ? & ?).
  repeat split; auto; lia.
Qed.
Lemma fop_app (ps qs : list place) : ForallOrdPairs apart ps -> ForallOrdPairs apart qs ->
  (forall p q, In p ps -> In q qs -> apart p q) -> ForallOrdPairs apart (ps ++ qs).
Proof.
  induction 1 as [|p ps H _ IH]; intros Hq Hx; cbn; [exact Hq|]. constructor.
  - apply Forall_app. split; [exact H|]. apply Forall_forall. intros q Iq. apply Hx; cbn; auto.
  - apply IH; [exact Hq|]. intros p' q Ip Iq. apply Hx; cbn; auto.
Qed.
Lemma fits_app A lo mid hi ps qs : lo <= mid -> mid <= hi -> fits A lo mid ps -> fits A mid hi qs -> fits A lo hi (ps ++ qs).
Proof.
  intros L1 L2 [P1 P2] [Q1 Q2]. split.
  - apply Forall_app. split; eapply Forall_impl; try exact P1; try exact Q1; cbn; intros p (? & ? & ? & ?);
      repeat split; auto; lia.
  - apply fop_app; auto. rewrite Forall_forall in P1, Q1. intros p q Ip Iq. specialize (P1 p Ip). specialize (Q1 q Iq).
    left. lia.
Qed.
Lemma fits_app' A lo mid hi ps qs : lo <= mid -> mid <= hi -> fits A mid hi ps -> fits A lo mid qs -> fits A lo hi (ps ++ qs).
Proof.
  intros L1 L2 [P1 P2] [Q1 Q2]. split.
  - apply Forall_app. split; eapply Forall_impl; try exact P1; try exact Q1; cbn; intros p (? & ? & ? & ?);
      repeat split; auto; lia.
  - apply fop_app; auto. rewrite Forall_forall in P1, Q1. intros p q Ip Iq. specialize (P1 p Ip). specialize (Q1 q Iq).
    right. lia.
Qed.
Lemma fits_one A lo hi o s a : lo <= o -> o + s <= hi -> a <= A -> N.divide (2 ^ a) o -> fits A lo hi [mkPlace o s a].
Proof. intros. split; repeat constructor; auto. Qed.
Lemma fits_shift A k lo hi ps : N.divide (2 ^ A) k -> fits A lo hi ps -> fits A (k + lo) (k + hi) (shift k ps).
Proof.
  intros D [H1 H2]. split.
  - unfold shift. apply Forall_map. eapply Forall_impl; [|exact H1]. cbn. intros p (? & ? & ? & ?).
    repeat split; try lia. apply N.divide_add_r; auto. eapply div_le; eauto.
  - clear H1. induction H2 as [|p ps H _ IH]; cbn; constructor; auto. unfold shift. apply Forall_map.
    eapply Forall_impl; [|exact H]. unfold apart. cbn. intros q [L|L]; [left|right]; lia.
Qed.
Lemma lay_end_ge ts : forall lo, lo <= lay_end lo ts.
Proof.
  induction ts as [|t ts IH]; intros lo; cbn; [lia|]. pose proof (IH (up (t_alog t) lo + t_size t)).
  pose proof (up_ge (t_alog t) lo). lia.
Qed.
Lemma fits_lay ts : forall lo, fits (alog_of ts) lo (lay_end lo ts) (lay lo ts).
Proof.
  induction ts as [|t ts IH]; intros lo; cbn; [apply fits_nil|].
  pose proof (up_ge (t_alog t) lo). pose proof (lay_end_ge ts (up (t_alog t) lo + t_size t)).
  apply (fits_app _ lo (up (t_alog t) lo + t_size t) _ [_]); [lia|lia| |].
  - apply fits_one; try lia. apply up_div.
  - eapply fits_weaken; [| | |apply IH]; lia.
Qed.
Lemma fits_cells A t n : forall o, t_alog t <= A -> ty_wf t -> N.divide (2 ^ t_alog t) o ->
  fits A o (o + t_size t * N.of_nat n) (cells o t n).
Proof.
  induction n as [|n IH]; intros o HA W D; cbn [cells]; [apply fits_nil|].
  apply (fits_app _ o (o + t_size t) _ [_]); [lia|rewrite Nnat.Nat2N.inj_succ; lia| |].
  - apply fits_one; auto; lia.
  - eapply fits_weaken; [| | |apply (IH (o + t_size t))]; auto; try lia.
    apply N.divide_add_r; auto.
Qed.

(** The size of the parts: none if all are empty. *)
Definition filled (c : ty) : N := if t_empty c then 0 else t_size c.
Lemma combine_alog ts : t_alog (fst (combine ts)) = alog_of ts.
Proof.
  induction ts as [|t ts IH]; [reflexivity|]. cbn [combine alog_of]. destruct (combine ts) as [nx offs]. cbn in IH.
  rewrite <- IH. destruct (t_empty t), (t_empty nx); reflexivity.
Qed.
Lemma fits_parts ts : fits (alog_of ts) 0 (filled (fst (combine ts))) (parts ts (snd (combine ts))).
Proof.
  induction ts as [|t ts IH]; [apply fits_nil|]. cbn [combine alog_of].
  destruct (combine ts) as [nx offs] eqn:E. cbn [fst snd] in IH. unfold filled in *.
  destruct (t_empty t) eqn:Et.
  - cbn. rewrite Et. cbn. eapply fits_weaken; [| | |exact IH]; try lia. destruct (t_empty nx); [lia|apply up_ge].
  - destruct (t_empty nx) eqn:En; cbn; rewrite Et.
    + apply (fits_app' _ 0 0 _ [_]); try lia.
      * apply fits_one; try lia; [apply up_ge|]. apply N.divide_0_r.
      * eapply fits_weaken; [| | |exact IH]; lia.
    + pose proof (up_ge (t_alog t) (t_size nx)).
      pose proof (up_ge (N.max (t_alog t) (t_alog nx)) (up (t_alog t) (t_size nx) + t_size t)).
      apply (fits_app' _ 0 (up (t_alog t) (t_size nx)) _ [_]); try lia.
      * apply fits_one; try lia. apply up_div.
      * eapply fits_weaken; [| | |exact IH]; lia.
Qed.
Lemma fits_metas t ts : t_empty t = false ->
  fits (alog_of ts) 0 (d_off (t :: ts)) (metas (t :: ts)) /\ N.divide (2 ^ t_alog t) (d_off (t :: ts)).
Proof.
  intros Et. pose proof (fits_parts ts) as H. unfold d_off, metas. cbn [combine].
  destruct (combine ts) as [nx offs]. cbn [fst snd] in H. unfold filled in H. rewrite Et.
  destruct (t_empty nx); cbn; (split; [|]).
  - exact H.
  - apply N.divide_0_r.
  - eapply fits_weaken; [| | |exact H]; try lia. apply up_ge.
  - apply up_div.
Qed.
Lemma d_off_size t ts : t_empty t = false -> d_off (t :: ts) + t_size t <= t_size (fst (combine (t :: ts))).
Proof.
  intros Et. unfold d_off. cbn [combine]. destruct (combine ts) as [nx offs]. rewrite Et.
  destruct (t_empty nx); cbn; [apply up_ge|]. apply up_ge.
Qed.
Lemma alog_app a b : alog_of (a ++ b) = N.max (alog_of a) (alog_of b).
Proof. induction a as [|t a IH]; cbn; lia. Qed.

Lemma fits_sound A hi ps base size : fits A 0 hi ps -> hi <= size -> N.divide (2 ^ A) base -> sound base size ps.
Proof.
  intros [H1 H2] Hs D. split; [|exact H2]. eapply Forall_impl; [|exact H1]. cbn. intros p (? & ? & ? & ?).
  split; [lia|]. apply N.divide_add_r; auto. eapply div_le; eauto.
Qed.

Section Node.
Variables T refs ownee : ty.
Variable tagged : bool.
Variable A : N.
Hypothesis HT : ty_wf T.
Hypothesis AT : t_alog T <= A.
Hypothesis Ar : t_alog refs <= A.
Hypothesis Ao : t_alog ownee <= A.
Hypothesis A3 : 3 <= A.
Lemma tag_alog : alog_of (tag_t tagged) <= 2.
Proof. unfold tag_t. destruct tagged; cbn; lia. Qed.
Lemma fits_body data ms t n : t_alog data <= A -> alog_of ms <= t_alog data -> t_alog t <= t_alog data -> ty_wf t ->
  fits A 0 (buf_off refs ownee tagged data ms t + t_size t * N.of_nat n) (body refs ownee tagged data ms t n) /\
  N.divide (2 ^ t_alog t) (buf_off refs ownee tagged data ms t).
Proof.
  intros Hd Hm Ht Wt. pose proof tag_alog as Hta.
  destruct (fits_metas (struct_t (tag_t tagged ++ [data])) [refs; ownee] eq_refl) as [M D]. fold (impl_t refs ownee tagged data) in M, D.
  cbn [struct_t t_alog] in D. rewrite alog_app in D.
  assert (D1 : N.divide (2 ^ alog_of (tag_t tagged)) (d_off (impl_t refs ownee tagged data))) by (eapply div_le; [|exact D]; lia).
  assert (D2 : N.divide (2 ^ t_alog data) (d_off (impl_t refs ownee tagged data))) by (eapply div_le; [|exact D]; cbn; lia).
  assert (D3 : N.divide (2 ^ t_alog data) (data_off refs ownee tagged data)).
  { unfold data_off. apply N.divide_add_r; [exact D2|]. apply up_div. }
  assert (Db : N.divide (2 ^ t_alog t) (buf_off refs ownee tagged data ms t)).
  { unfold buf_off. apply N.divide_add_r; [eapply div_le; eauto|]. apply up_div. }
  split; [|exact Db].
  unfold body, head.
  assert (L1 : d_off (impl_t refs ownee tagged data) + lay_end 0 (tag_t tagged) <= data_off refs ownee tagged data).
  { unfold data_off, after_off. pose proof (up_ge (t_alog data) (lay_end 0 (tag_t tagged))). lia. }
  assert (L2 : data_off refs ownee tagged data + lay_end 0 ms <= buf_off refs ownee tagged data ms t).
  { unfold buf_off, after_off. pose proof (up_ge (t_alog t) (lay_end 0 ms)). lia. }
  apply (fits_app _ 0 (data_off refs ownee tagged data)); [lia|lia| |].
  - apply (fits_app _ 0 (d_off (impl_t refs ownee tagged data))); [lia|lia| |].
    + eapply fits_weaken; [| | |exact M]; cbn; lia.
    + eapply fits_weaken; [| | |apply fits_shift; [exact D1|apply fits_lay]]; lia.
  - apply (fits_app _ _ (buf_off refs ownee tagged data ms t)); [lia|lia| |].
    + eapply fits_weaken; [| | |apply fits_shift; [eapply div_le; [exact Hm|exact D3]|apply fits_lay]]; lia.
    + apply fits_cells; auto. lia.
Qed.
Lemma fits_vals n : fits A 0 (sizeof_values_n T refs ownee n) (vals_places T refs ownee n).
Proof.
  destruct (fits_metas (struct_t [storage T]) [refs; ownee] eq_refl) as [M D]. fold (vals_t T refs ownee) in M, D.
  cbn [struct_t t_alog alog_of storage] in D. unfold vals_places, sizeof_values_n.
  apply (fits_app _ 0 (d_off (vals_t T refs ownee))); [lia|lia| |].
  - eapply fits_weaken; [| | |exact M]; cbn; lia.
  - eapply fits_weaken; [| | |apply (fits_cells A (storage T) n)]; cbn; auto; try lia. eapply div_le; [|exact D]. lia.
Qed.
End Node.

(** The address is as aligned as all parts together need. *)
Theorem C65_champ : forall T refs ownee tagged bitmap A base n,
  ty_wf T -> t_alog T <= A -> t_alog refs <= A -> t_alog ownee <= A -> t_alog bitmap <= A -> 3 <= A ->
  N.divide (2 ^ A) base ->
  sound base (ch_sizeof_inner_n T refs ownee tagged bitmap n) (ch_inner_places T refs ownee tagged bitmap n) /\
  sound base (ch_sizeof_collision_n T refs ownee tagged bitmap n) (ch_coll_places T refs ownee tagged bitmap n) /\
  sound base (sizeof_values_n T refs ownee n) (vals_places T refs ownee n).
Proof.
  intros T refs ownee tagged bitmap A base n HT AT Ar Ao Ab A3 D.
  assert (Hd : t_alog (ch_data T bitmap) <= A) by (cbn; lia).
  split; [|split].
  - eapply fits_sound; [|apply N.le_refl|exact D].
    apply (fits_body T refs ownee tagged A AT Ar Ao A3 (ch_data T bitmap) (ch_inner bitmap) ptr_t n Hd); cbn; try lia.
    exists 1. reflexivity.
  - eapply fits_sound; [|apply N.le_refl|exact D].
    apply (fits_body T refs ownee tagged A AT Ar Ao A3 (ch_data T bitmap) ch_coll (storage T) n Hd); cbn; try lia. exact HT.
  - eapply fits_sound; [|apply N.le_refl|exact D]. now apply fits_vals.
Qed.
Print Assumptions C65_champ.

(** arrays/node.hpp:34-48 is values_t. *)
Theorem C65_vector : forall T refs ownee tagged embed width lwidth A base n,
  ty_wf T -> t_alog T <= A -> t_alog refs <= A -> t_alog ownee <= A -> 3 <= A -> (1 <= width)%nat ->
  N.divide (2 ^ A) base ->
  sound base (sizeof_leaf_n T refs ownee tagged lwidth n) (leaf_places T refs ownee tagged lwidth n) /\
  sound base (sizeof_inner_n T refs ownee tagged width n) (inner_places T refs ownee tagged width n) /\
  sound base (sizeof_inner_r_n T refs ownee tagged embed width n) (inner_r_places T refs ownee tagged embed width n) /\
  sound base (sizeof_relaxed_n refs ownee embed width n) (relaxed_places refs ownee embed width n).
Proof.
  intros T refs ownee tagged embed width lwidth A base n HT AT Ar Ao A3 Hw D.
  assert (Hd : t_alog (rb_data T) <= A) by (cbn; lia).
  assert (Wp : ty_wf ptr_t) by (exists 1; reflexivity).
  destruct (fits_body T refs ownee tagged A AT Ar Ao A3 (rb_data T) rb_inner ptr_t (room refs width n) Hd
    ltac:(cbn; lia) ltac:(cbn; lia) Wp) as [Fi Di].
  assert (Si : sizeof_inner_n T refs ownee tagged width n =
    buf_off refs ownee tagged (rb_data T) rb_inner ptr_t + t_size ptr_t * N.of_nat (room refs width n)).
  { unfold sizeof_inner_n, room, packed_inner. destruct (headroom refs); reflexivity. }
  assert (Sr : sizeof_relaxed_n refs ownee embed width n = rel_off refs ownee embed width + t_size word_t * N.of_nat (room refs width n)).
  { unfold sizeof_relaxed_n, room, packed_relaxed. destruct (headroom refs); reflexivity. }
  assert (Hwd : t_alog (rel_data width) = 3).
  { unfold rel_data, struct_t. cbn [t_alog alog_of]. destruct width as [|w]; [lia|]. cbn [repeat alog_of].
    assert (E : alog_of (repeat word_t w) <= 3) by (clear; induction w; cbn; lia). cbn [word_t count_t t_alog]. lia. }
  assert (Fr : fits (if embed then 3 else A) 0 (sizeof_relaxed_n refs ownee embed width n) (relaxed_places refs ownee embed width n)).
  { rewrite Sr. unfold relaxed_places.
    assert (M : fits (if embed then 3 else A) 0 (d_off (rel_t refs ownee embed width)) (metas (rel_t refs ownee embed width)) /\
      N.divide (2 ^ 3) (d_off (rel_t refs ownee embed width))).
    { rewrite <- Hwd. unfold rel_t. destruct embed.
      - destruct (fits_metas (rel_data width) [] eq_refl) as [M1 M2]. split; [|exact M2].
        eapply fits_weaken; [| | |exact M1]; cbn; lia.
      - destruct (fits_metas (rel_data width) [refs; ownee] eq_refl) as [M1 M2]. split; [|exact M2].
        eapply fits_weaken; [| | |exact M1]; cbn; lia. }
    destruct M as [M1 M2]. assert (A3' : 3 <= (if embed then 3 else A)) by (destruct embed; lia).
    pose proof (up_ge 3 (lay_end 0 [count_t])) as U.
    assert (L : d_off (rel_t refs ownee embed width) + lay_end 0 [count_t] <= rel_off refs ownee embed width)
      by (unfold rel_off, after_off; cbn [word_t t_alog]; lia).
    apply (fits_app _ 0 (d_off (rel_t refs ownee embed width))); [lia|lia|exact M1|].
    apply (fits_app _ _ (rel_off refs ownee embed width)); [lia|lia| |].
    - eapply fits_weaken; [| | |apply fits_shift; [|apply fits_lay]].
      + cbn. lia.
      + lia.
      + exact L.
      + eapply div_le; [|exact M2]. cbn. lia.
    - apply fits_cells; [exact A3'|exists 1; reflexivity|].
      unfold rel_off. apply N.divide_add_r; [exact M2|]. apply up_div. }
  split; [|split; [|split]].
  - assert (S : sizeof_leaf_n T refs ownee tagged lwidth n =
      buf_off refs ownee tagged (rb_data T) [] (storage T) + t_size (storage T) * N.of_nat (room refs lwidth n)).
    { unfold sizeof_leaf_n, room, packed_leaf. destruct (headroom refs); reflexivity. }
    rewrite S. eapply fits_sound; [|apply N.le_refl|exact D].
    apply (fits_body T refs ownee tagged A AT Ar Ao A3 (rb_data T) [] (storage T) (room refs lwidth n) Hd); cbn; try lia. exact HT.
  - rewrite Si. eapply fits_sound; [exact Fi|apply N.le_refl|exact D].
  - assert (S : sizeof_inner_r_n T refs ownee tagged embed width n =
      if embed then sizeof_inner_n T refs ownee tagged width n + sizeof_relaxed_n refs ownee embed width n
      else sizeof_inner_n T refs ownee tagged width n).
    { unfold sizeof_inner_r_n, sizeof_inner_n, sizeof_relaxed_n, packed_inner_r. destruct (headroom refs), embed; reflexivity. }
    rewrite S. unfold inner_r_places, inner_places. destruct embed.
    + eapply fits_sound; [|apply N.le_refl|exact D].
      apply (fits_app _ 0 (sizeof_inner_n T refs ownee tagged width n)); [lia|lia|rewrite Si; exact Fi|].
      eapply fits_weaken; [| | |apply fits_shift; [|exact Fr]]; try lia.
      rewrite Si. apply N.divide_add_r; [exact Di|]. exists (N.of_nat (room refs width n)). cbn [ptr_t t_size]. change (2 ^ 3) with 8. lia.
    + rewrite app_nil_r, Si. eapply fits_sound; [exact Fi|apply N.le_refl|exact D].
  - eapply fits_sound; [|apply N.le_refl|exact D]. eapply fits_weaken; [| | |exact Fr]; try lia. destruct embed; lia.
Qed.
Print Assumptions C65_vector.

(** Elements of 24 bytes, a count of 4 bytes, no ownee, B = 5: a collision of three; the same with an
    ownee of 8 bytes, 16-byte elements of alignment 16 and an embedded table. *)
Example C65_champ_nonvacuous :
  let T := mkTy 24 3 false in let refs := mkTy 4 2 false in let ownee := mkTy 1 0 true in
  ch_sizeof_collision_n T refs ownee false count_t 3 = 88 /\
  map p_off (ch_coll_places T refs ownee false count_t 3) = [0; 8; 16; 40; 64] /\
  map p_off (ch_inner_places T refs ownee true count_t 2) = [0; 8; 16; 20; 24; 32; 40].
Proof. repeat split. Qed.
Example C65_vector_nonvacuous :
  let T := mkTy 16 4 false in let refs := mkTy 1 0 true in let ownee := mkTy 8 3 false in
  ty_wf T /\ map p_off (leaf_places T refs ownee false 4 2) = [0; 16; 32] /\
  map p_off (inner_r_places T refs ownee false true 4 2) = [0; 16; 24; 32; 40; 48; 56] /\
  sizeof_inner_r_n T refs ownee false true 4 2 = 64.
Proof. cbn zeta. split; [exists 1; reflexivity|]. repeat split. Qed.

(** The objects themselves: values_t and the node of an array fit the block they are made in. *)
Theorem C66_objects_fit_partial : forall T refs ownee n,
  t_size (fst (combine (vals_t T refs ownee))) <= sizeof_values_n T refs ownee n.
Proof. intros. unfold sizeof_values_n. lia. Qed.
Print Assumptions C66_objects_fit_partial.
(** The nodes of champ and of vectors need not: a collision of two chars gets 14 bytes for a node of
    32, and an inner node of a vector of elements of 1000 bytes 272 bytes for a node of 1008. *)
Theorem C66_objects_fit_refuted :
  (exists T refs ownee n, ty_wf T /\ (2 <= n)%nat /\
    ch_sizeof_collision_n T refs ownee false count_t n < ch_sizeof_node T refs ownee false count_t) /\
  (exists T refs ownee n, ty_wf T /\ (1 <= n <= 32)%nat /\
    sizeof_inner_n T refs ownee false 32 n < rb_sizeof_node T refs ownee false).
Proof.
  split.
  - exists (mkTy 1 0 false), (mkTy 4 2 false), (mkTy 1 0 true), 2%nat. split; [exists 1; reflexivity|]. split; [repeat constructor|reflexivity].
  - exists (mkTy 1000 3 false), (mkTy 4 2 false), (mkTy 1 0 true), 32%nat. split; [exists 125; reflexivity|].
    split; [split; repeat constructor|reflexivity].
Qed.
Print Assumptions C66_objects_fit_refuted.
