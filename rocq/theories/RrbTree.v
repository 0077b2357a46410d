(** The operations of rbtree and rrbtree on whole trees, except concatenation. *)
From Coq Require Import List NArith Arith Bool Lia ZifyN ZifyNat ZifyBool.
From Verif Require Import Common NList Rrb RrbInv RrbPos RrbOps RrbSlice.
Import ListNotations.
Local Open Scope N_scope.

Set Default Goal Selector "!".

Section Tree.
Context {T : Type}.
Variables B BL : N.
Hypothesis HB : 1 <= B.

Notation sh := (sh B BL).
Notation width := (width B).
Notation lwidth := (lwidth BL).
Notation span := (span B BL).
Notation full := (@full T B BL).
Notation reg := (@reg T B BL).
Notation wf := (@wf T B BL).
Notation inv := (@inv T B BL).
Notation vinv := (@vinv T B BL).

Lemma width_2 : 2 <= width.
Proof.
  unfold Rrb.width. assert (2 ^ 1 <= 2 ^ B) by (apply N.pow_le_mono_r; lia).
  change (2 ^ 1) with 2 in *. lia.
Qed.

(** A root of level [S l]. *)
Definition root_ok (l : nat) (r : node T) : Prop :=
  r = Inner None [] /\ l = O \/ wf (S l) r.

Lemma inv_intro sz l r xs :
  root_ok l r -> sz = nsize r + lenN xs -> lenN xs <= lwidth -> (0 < sz -> 0 < lenN xs) ->
  inv (mkTree sz l r (Leaf xs)).
Proof. intros. exists xs. auto. Qed.

Lemma inv_empty : inv (@empty T).
Proof.
  apply inv_intro; [left; auto|reflexivity| |easy]. change (lenN (@nil T)) with 0. lia.
Qed.
Lemma to_list_empty : to_list (@empty T) = [].
Proof. reflexivity. Qed.

Lemma nsize_empty_root : nsize (@Inner T None []) = 0.
Proof. reflexivity. Qed.

Lemma root_pos l r : root_ok l r -> 0 < nsize r -> wf (S l) r.
Proof. intros [[-> _]|H] Hp; [rewrite nsize_empty_root in Hp; lia|exact H]. Qed.

Lemma nonrel_offset l r (xs : list T) : root_ok l r -> is_rel r = false ->
  lenN xs <= lwidth -> (0 < nsize r + lenN xs -> 0 < lenN xs) ->
  (if nsize r + lenN xs =? 0 then 0 else N.ldiff (nsize r + lenN xs - 1) (lmask BL)) = nsize r.
Proof.
  intros Hr Hn Hle Hpos. destruct (N.eqb_spec (nsize r + @lenN T xs) 0); [lia|].
  unfold lmask, Rrb.lwidth. rewrite ldiff_mask. fold lwidth.
  assert (nsize r mod lwidth = 0) as Hd.
  { destruct Hr as [[-> _]|Hw].
    - rewrite nsize_empty_root. apply N.mod_0_l. pose proof (lwidth_pos BL). lia.
    - eapply reg_dvd. eapply wf_nonrel_reg; eauto. }
  pose proof (lwidth_pos BL). apply N.mod_divide in Hd; [|lia]. destruct Hd as [k Hk].
  replace ((nsize r + lenN xs - 1) / lwidth) with k; [lia|].
  symmetry. apply (div_unique' _ _ _ (lenN xs - 1)); lia.
Qed.

Lemma tail_offset_ok t : inv t -> tail_offset BL t = Ok (nsize (root t)).
Proof.
  intros (xs & Et & Hs & Hle & Hpos & Hr). fold (root_ok (lv t) (root t)) in Hr.
  unfold tail_offset. destruct (root t) as [|[sz|] cs] eqn:Er.
  - destruct Hr as [[? _]|Hw]; easy.
  - destruct Hr as [[? _]|Hw]; [easy|]. eapply rel_last; eauto.
  - rewrite Hs in *. rewrite (nonrel_offset (lv t)); auto.
Qed.

Lemma vtail_offset_ok t : inv t -> is_rel (root t) = false ->
  vtail_offset BL t = nsize (root t).
Proof.
  intros Hi Hn. pose proof (tail_offset_ok t Hi) as H. unfold tail_offset in H.
  unfold vtail_offset. destruct (root t) as [|[]]; try easy. now injection H.
Qed.

Lemma push_tail_ok l rt tl ts :
  root_ok l rt -> full O tl -> (is_rel rt = true -> ts = lwidth) ->
  exists l' r, push_tail B BL rt l (nsize rt) tl ts = Ok (l', r) /\
    wf (S l') r /\ elems r = elems rt ++ elems tl /\
    (is_rel rt = false -> is_rel r = false /\
       (l' = l /\ lenN (kids rt) <= lenN (kids r) \/ 2 <= lenN (kids r))).
Proof.
  intros Hr Htl Hts. pose proof width_2 as W2.
  pose proof (full_size _ _ _ _ Htl) as Hst. rewrite span_0 in Hst.
  destruct (make_path_ok B BL (S l) tl Htl) as [Hpr Hpe].
  assert (nsize (make_path (S l) tl) = nsize tl) as Hps by (unfold nsize; now rewrite Hpe).
  destruct rt as [|[sz|] cs].
  - destruct Hr as [[? _]|Hw]; easy.
  - destruct Hr as [[? _]|Hw]; [easy|]. cbn [push_tail]. specialize (Hts eq_refl). subst ts.
    destruct (push_relaxed_ok B BL l _ sz tl lwidth Hw eq_refl Htl eq_refl) as (r & Er & Hres).
    rewrite Er. cbn [rbind]. destruct r as [n|].
    + destruct (Hres n eq_refl) as (H1 & H2 & H3). exists l, n. split; [auto|]. split; [auto|]. split; [auto|easy].
    + pose proof (wf_size _ _ _ _ Hw) as Hsz. pose proof (lwidth_pos BL).
      destruct (N.ltb_spec 0 (nsize (Inner (Some sz) cs))); [|lia].
      destruct (N.ltb_spec 0 lwidth); [|lia]. cbn [andb].
      exists (S l). eexists. split; [reflexivity|]. split.
      * change [nsize (Inner (Some sz) cs); nsize (Inner (Some sz) cs) + lwidth] with
          (let s := nsize (Inner (Some sz) cs) in [s; s + lwidth]).
        replace (let s := nsize (Inner (Some sz) cs) in [s; s + lwidth])
          with (sums 0 (map nsize [Inner (Some sz) cs; make_path (S l) tl]))
          by (cbn [map sums]; rewrite Hps, Hst, N.add_0_l; reflexivity).
        apply rel_wf_intro; [cbn; lia|]. constructor; [auto|]. constructor; [|constructor].
        now apply reg_wf.
      * split; [|easy]. rewrite elems_inner. cbn [flat_map]. now rewrite Hpe, app_nil_r.
  - cbn [push_tail]. rewrite shiftl_width.
    destruct (N.eqb_spec (nsize (Inner None cs)) (span (S l))) as [E|E].
    + assert (wf (S l) (Inner None cs)) as Hw
        by (eapply root_pos; [eauto|]; rewrite E; apply span_pos).
      exists (S l). eexists. split; [reflexivity|]. split.
      * exists [Inner None cs], (make_path (S l) tl). split; [reflexivity|].
        split; [constructor; [|constructor]; apply reg_full; auto|].
        split; [auto|]. cbn. lia.
      * split; [rewrite elems_inner; cbn [flat_map]; now rewrite Hpe, app_nil_r|].
        intros _. split; [reflexivity|]. right. cbn. lia.
    + destruct (N.ltb_spec 0 (nsize (Inner None cs))) as [Hp|Hp].
      * assert (wf (S l) (Inner None cs)) as Hw by (eapply root_pos; eauto).
        rewrite mk_sub_ok by auto. cbn [rbind].
        destruct (push_regular_ok B BL l (PSub (Inner None cs) (nsize (Inner None cs)))
                    (Inner None cs) tl ts) as (n' & En & Hrn & Hen & Hk); auto.
        { now constructor. }
        { pose proof (wf_size _ _ _ _ Hw). lia. }
        rewrite En. cbn [rbind]. exists l, n'. split; [reflexivity|].
        split; [now apply reg_wf|]. split; [auto|]. intros _.
        split; [eapply reg_not_rel; eauto|]. left. auto.
      * exists l, (make_path (S l) tl). split; [reflexivity|]. split; [now apply reg_wf|].
        destruct Hr as [[E' ->]|Hw]; [|pose proof (wf_size _ _ _ _ Hw); lia].
        injection E' as ->. split; [now rewrite Hpe|]. intros _. split; [reflexivity|].
        left. split; [auto|]. cbn. lia.
Qed.

Lemma push_back_ok t x : inv t ->
  exists t', push_back B BL t x = Ok t' /\ inv t' /\ to_list t' = to_list t ++ [x].
Proof.
  intros Hi. pose proof Hi as (xs & Et & Hs & Hle & Hpos & Hr).
  unfold push_back. rewrite (tail_offset_ok t Hi). cbn [rbind].
  replace (size t - nsize (root t)) with (lenN xs) by lia.
  rewrite Et. destruct (N.ltb_spec (lenN xs) lwidth) as [Hlt|Hge].
  - unfold copy_leaf_emplace. cbn [leaf_of rbind]. rewrite rtakeN_all by reflexivity.
    cbn [rbind]. eexists. split; [reflexivity|]. split.
    + apply inv_intro; auto; rewrite lenN_snoc; lia.
    + unfold to_list. cbn [root tail elems]. rewrite Et. now rewrite app_assoc.
  - assert (full O (Leaf xs)) as Hf by (cbn; lia).
    destruct (push_tail_ok (lv t) (root t) (Leaf xs) (lenN xs)) as (l' & r & E & Hw & He & _);
      auto.
    rewrite E. cbn [rbind]. eexists. split; [reflexivity|]. split.
    + apply inv_intro; [now right| | |].
      * unfold nsize at 1. rewrite He, lenN_app, lenN_one. fold (nsize (root t)). cbn [elems]. lia.
      * rewrite lenN_one. pose proof (lwidth_pos BL). lia.
      * rewrite lenN_one. lia.
    + unfold to_list. cbn [root tail elems]. rewrite Et, He. reflexivity.
Qed.

Lemma get_ok t i : inv t -> (lv t < 6)%nat -> i < size t ->
  get B BL t i = rnthN (to_list t) i.
Proof.
  intros Hi Hlv Hlt. pose proof Hi as (xs & Et & Hs & Hle & Hpos & Hr).
  unfold get. rewrite (tail_offset_ok t Hi). cbn [rbind]. unfold to_list. rewrite Et.
  destruct (N.leb_spec (nsize (root t)) i) as [H|H].
  - rewrite rnthN_app2 by exact H. fold (nsize (root t)).
    apply (get_regular_ok B BL 0); [cbn; lia|reflexivity| |rewrite nsize_leaf; unfold nsize in *; lia].
    rewrite N.mod_small; [reflexivity|]. rewrite span_0. unfold nsize in *. lia.
  - rewrite rnthN_app1 by exact H. unfold descend.
    destruct (Nat.ltb_spec (lv t) 6); [|lia].
    assert (wf (S (lv t)) (root t)) as Hw by (eapply root_pos; eauto; lia).
    pose proof (wf_size _ _ _ _ Hw).
    destruct (root t) as [|[sz|] cs] eqn:Er; [easy| |].
    + now apply get_relaxed_ok.
    + apply get_regular_ok; auto. apply N.mod_small. lia.
Qed.

Lemma to_list_split t A x Z i : inv t -> to_list t = A ++ x :: Z -> lenN A = i ->
  (i < nsize (root t) /\ exists Z', elems (root t) = A ++ x :: Z' /\ Z = Z' ++ elems (tail t)) \/
  (nsize (root t) <= i /\ exists A', elems (tail t) = A' ++ x :: Z /\
     A = elems (root t) ++ A' /\ lenN A' = i - nsize (root t)).
Proof.
  intros Hi E HA. unfold to_list in E. destruct (N.ltb_spec i (nsize (root t))) as [H|H].
  - left. split; [auto|]. destruct (splitN i (elems (root t))) as (A' & x' & Z' & Er & HA'); [exact H|].
    rewrite Er in *. rewrite <- app_assoc in E. cbn [app] in E.
    apply app_inj_len in E as [-> E]; [|lia]. injection E as -> <-. eauto.
  - right. split; [auto|].
    destruct (splitN (i - nsize (root t)) (elems (tail t))) as (A' & x' & Z' & Er & HA').
    { assert (lenN (elems (root t) ++ elems (tail t)) = lenN (A ++ x :: Z)) as HL by now rewrite E.
      rewrite !lenN_app, lenN_cons in HL. unfold nsize in *. lia. }
    rewrite Er in *. rewrite app_assoc in E.
    apply app_inj_len in E as [<- E]; [|rewrite lenN_app; unfold nsize in *; lia].
    injection E as -> ->. eauto.
Qed.

Lemma update_ok t fn i A x Z : inv t -> to_list t = A ++ x :: Z -> lenN A = i ->
  exists t', update B BL t i fn = Ok t' /\ inv t' /\ to_list t' = A ++ fn x :: Z /\
    size t' = size t /\ lv t' = lv t /\ is_rel (root t') = is_rel (root t) /\
    lenN (kids (root t')) = lenN (kids (root t)).
Proof.
  intros Hi E HA. pose proof Hi as (xs & Et & Hs & Hle & Hpos & Hr).
  unfold update. rewrite (tail_offset_ok t Hi). cbn [rbind].
  destruct (to_list_split t A x Z i Hi E HA) as [[H (Z' & Er & ->)]|[H (A' & Er & -> & HA')]].
  - destruct (N.leb_spec (nsize (root t)) i); [lia|].
    assert (wf (S (lv t)) (root t)) as Hw by (eapply root_pos; eauto; lia).
    destruct (maybe_relaxed_ok B BL (lv t) (root t) Hw) as (q & Eq & Hq & _).
    rewrite Eq. cbn [rbind].
    destruct (update_node_ok B BL fn (S (lv t)) q (root t) i i A x Z') as
      (n' & En & He & Hw' & Hrel & Hk & _); auto.
    { eapply addr_refl; eauto. }
    rewrite En. cbn [rbind]. eexists. split; [reflexivity|]. cbn [size lv root tail].
    assert (nsize n' = nsize (root t)) as Hsz.
    { unfold nsize. rewrite He, Er, !lenN_app, !lenN_cons. reflexivity. }
    split.
    + rewrite Et. apply inv_intro; [now right|lia|lia|lia].
    + split; [unfold to_list; cbn [root tail]; rewrite He, <- app_assoc; reflexivity|]. auto.
  - destruct (N.leb_spec (nsize (root t)) i); [|lia].
    rewrite Et in Er. cbn [elems] in Er. rewrite Et.
    replace (size t - nsize (root t)) with (nsize (Leaf xs)) by (rewrite nsize_leaf; lia).
    assert (0 < lenN xs) as Hx by (rewrite Er, lenN_app, lenN_cons; lia).
    assert (wf O (Leaf xs)) as Hwx by (cbn; lia).
    rewrite (mk_sub_ok B BL 0) by auto. cbn [rbind].
    destruct (update_node_ok B BL fn 0 (PSub (Leaf xs) (nsize (Leaf xs))) (Leaf xs)
                (i - nsize (root t)) (i - nsize (root t)) A' x Z)
      as (n' & En & He & Hw' & _); auto.
    { now constructor. }
    { eapply addr_refl; [now constructor|]. rewrite nsize_leaf, Er, lenN_app, lenN_cons. lia. }
    { rewrite nsize_leaf, Er, lenN_app, lenN_cons. lia. }
    rewrite En. cbn [rbind]. eexists. split; [reflexivity|]. cbn [size lv root tail].
    destruct (wf_leaf _ _ _ Hw') as (ys & -> & Hy). cbn [elems] in He. subst ys.
    assert (lenN (A' ++ fn x :: Z) = lenN xs) as HL
      by (rewrite Er, !lenN_app, !lenN_cons; reflexivity).
    split; [apply inv_intro; auto; lia|].
    split; [unfold to_list; cbn [root tail elems]; now rewrite app_assoc|]. auto.
Qed.

Lemma elems_tail_take t k : inv t -> nsize (root t) <= k ->
  takeN k (to_list t) = elems (root t) ++ takeN (k - nsize (root t)) (elems (tail t)).
Proof. intros Hi H. unfold to_list. now rewrite takeN_app_ge by exact H. Qed.

Lemma take_ok t n : inv t ->
  exists t', take B BL t n = Ok t' /\ inv t' /\ to_list t' = takeN n (to_list t) /\
    (is_rel (root t) = false -> (lv t = O \/ 2 <= lenN (kids (root t))) ->
     is_rel (root t') = false /\ (lv t' = O \/ 2 <= lenN (kids (root t')))) /\
    (lv t' <= lv t)%nat.
Proof.
  intros Hi. pose proof Hi as (xs & Et & Hs & Hle & Hpos & Hr).
  unfold take. rewrite (tail_offset_ok t Hi). cbn [rbind].
  destruct (N.eqb_spec n 0) as [->|Hn].
  { exists empty. split; [reflexivity|]. split; [apply inv_empty|]. split; [reflexivity|].
    split; [intros; cbn; auto|cbn; lia]. }
  destruct (N.leb_spec (size t) n) as [H|H].
  { exists t. split; [reflexivity|]. split; [auto|]. split; [|auto].
    rewrite takeN_all; [reflexivity|]. rewrite <- (inv_size B BL) by auto. exact H. }
  destruct (N.ltb_spec (nsize (root t)) n) as [H1|H1].
  - rewrite Et. unfold copy_leaf. cbn [leaf_of rbind]. rewrite rtakeN_ok by lia. cbn [rbind].
    eexists. split; [reflexivity|]. cbn [lv root]. split.
    + apply inv_intro; auto; rewrite lenN_takeN; lia.
    + split; [|auto]. rewrite elems_tail_take by (auto; lia). rewrite Et. reflexivity.
  - assert (wf (S (lv t)) (root t)) as Hw by (eapply root_pos; eauto; lia).
    destruct (maybe_relaxed_ok B BL (lv t) (root t) Hw) as (q & Eq & Hq & _).
    rewrite Eq. cbn [rbind].
    destruct (slice_right_ok B BL true (S (lv t)) q (root t) (n - 1) (n - 1) HB Hq) as
      (nr & ys & Es & Hy & Htk & Hnr).
    { eapply addr_refl; eauto. lia. } { lia. }
    rewrite Es. cbn [rbind]. replace (n - 1 + 1) with n in Htk by lia.
    assert (takeN n (to_list t) = takeN n (elems (root t))) as HT
      by (unfold to_list; apply takeN_app_le; exact H1).
    assert (lenN (takeN n (elems (root t))) = n) as HL
      by (rewrite lenN_takeN, lenN_elems; lia).
    rewrite Htk, lenN_app in HL.
    destruct nr as [[[|w] r]|].
    + destruct Hnr as (_ & ? & _). lia.
    + destruct Hnr as (Hwr & Hwl & _ & Hrel). eexists. split; [reflexivity|]. cbn [lv root].
      split; [apply inv_intro; [now right|unfold nsize; lia|lia|lia]|].
      split; [unfold to_list at 1; cbn [root tail elems]; rewrite HT, Htk; reflexivity|].
      split; [|lia]. intros Hnrel _. destruct (Hrel Hnrel) as [Ha Hb]. split; [auto|].
      destruct (Hb eq_refl); [left; lia|auto].
    + eexists. split; [reflexivity|]. cbn [lv root].
      split; [apply inv_intro; [left; auto|rewrite nsize_empty_root; cbn in HL; lia|lia|lia]|].
      split; [unfold to_list at 1; cbn [root tail elems]; rewrite HT, Htk; reflexivity|].
      split; [intros; auto|lia].
Qed.

Lemma drop_ok t n : inv t -> sh (lv t) < 32 -> nsize (root t) <= 2 ^ 32 ->
  exists t', drop B BL t n = Ok t' /\ inv t' /\ to_list t' = dropN n (to_list t) /\
    (lv t' <= lv t)%nat.
Proof.
  intros Hi Hsh H32. pose proof Hi as (xs & Et & Hs & Hle & Hpos & Hr).
  unfold drop. destruct (N.eqb_spec n 0) as [->|Hn].
  { exists t. rewrite dropN_0. auto. }
  destruct (N.leb_spec (size t) n) as [H|H].
  { exists empty. split; [reflexivity|]. split; [apply inv_empty|].
    rewrite dropN_all; [|rewrite <- (inv_size B BL) by auto; exact H].
    split; [reflexivity|cbn; lia]. }
  rewrite (tail_offset_ok t Hi). cbn [rbind].
  destruct (N.eqb_spec n (nsize (root t))) as [->|Hne].
  { eexists. split; [reflexivity|]. split.
    - rewrite Et. apply inv_intro; [left; auto|rewrite nsize_empty_root; lia|lia|lia].
    - cbn [lv]. split; [|lia]. unfold to_list. cbn [root tail]. unfold nsize.
      now rewrite dropN_app. }
  destruct (N.ltb_spec (nsize (root t)) n) as [H1|H1].
  - rewrite Et. unfold copy_leaf_range. cbn [leaf_of rbind].
    assert (rsliceN (n - nsize (root t)) (size t - nsize (root t)) xs
            = Ok (dropN (n - nsize (root t)) xs)) as ->.
    { rewrite <- (takeN_dropN (n - nsize (root t)) xs) at 1.
      rewrite rsliceN_app_r; [reflexivity|rewrite lenN_takeN; lia|rewrite lenN_dropN; lia]. }
    cbn [rbind].
    eexists. split; [reflexivity|]. cbn [lv]. split.
    + apply inv_intro; [left; auto|rewrite nsize_empty_root, lenN_dropN; lia|
        rewrite lenN_dropN; lia|rewrite lenN_dropN; lia].
    + split; [|lia]. unfold to_list. cbn [root tail elems]. rewrite Et.
      rewrite dropN_app_ge by (rewrite lenN_elems; lia). reflexivity.
  - assert (wf (S (lv t)) (root t)) as Hw by (eapply root_pos; eauto; lia).
    destruct (maybe_relaxed_ok B BL (lv t) (root t) Hw) as (q & Eq & Hq & Hsq).
    rewrite Eq. cbn [rbind].
    destruct (slice_left_ok B BL true (S (lv t)) q (root t) n) as
      (w & r & Es & Hwr & He & Hwl & _ & Hw1); auto; [lia|].
    rewrite Es. cbn [rbind]. destruct w as [|l]; [lia|].
    eexists. split; [reflexivity|]. cbn [lv]. split.
    + rewrite Et. apply inv_intro; [now right| |lia|lia].
      unfold nsize. rewrite He, lenN_dropN, lenN_elems. lia.
    + split; [|lia]. unfold to_list. cbn [root tail]. rewrite He.
      rewrite dropN_app_le by (rewrite lenN_elems; lia). reflexivity.
Qed.

(** ** vector *)

Lemma vinv_empty : vinv (@empty T).
Proof. split; [apply inv_empty|]. cbn. auto. Qed.

Lemma vpush_back_ok t x : vinv t ->
  exists t', vpush_back B BL t x = Ok t' /\ vinv t' /\ to_list t' = to_list t ++ [x].
Proof.
  intros (Hi & Hrel & Hlv). pose proof Hi as (xs & Et & Hs & Hle & Hpos & Hr).
  unfold vpush_back. rewrite (vtail_offset_ok t Hi Hrel).
  replace (size t - nsize (root t)) with (lenN xs) by lia.
  rewrite Et. destruct (N.ltb_spec (lenN xs) lwidth) as [Hlt|Hge].
  - unfold copy_leaf_emplace. cbn [leaf_of rbind]. rewrite rtakeN_all by reflexivity.
    cbn [rbind]. eexists. split; [reflexivity|]. split.
    + split; [apply inv_intro; auto; rewrite lenN_snoc; lia|]. auto.
    + unfold to_list. cbn [root tail elems]. rewrite Et. now rewrite app_assoc.
  - assert (full O (Leaf xs)) as Hf by (cbn; lia).
    destruct (push_tail_ok (lv t) (root t) (Leaf xs) 0) as (l' & r & E & Hw & He & Hk);
      auto; [rewrite Hrel; easy|].
    destruct (Hk Hrel) as [Hrr Hkk].
    match goal with |- exists t', ?e = _ /\ _ =>
      assert (e = Ok (mkTree (size t + 1) l' r (Leaf [x]))) as -> end.
    { unfold push_tail in E. destruct (root t) as [|[]] eqn:Er; try easy.
      destruct (nsize (Inner None cs) =? N.shiftl width (sh (lv t))); [now injection E as <- <-|].
      destruct (0 <? nsize (Inner None cs)); [|now injection E as <- <-].
      destruct (mk_sub B BL (S (lv t)) (Inner None cs) (nsize (Inner None cs))); [|easy].
      cbn [rbind] in *.
      destruct (push_tail_node B BL (S (lv t)) a (Leaf xs) 0) as [[]|]; cbn [rbind] in *; try easy.
      now injection E as <- <-. }
    eexists. split; [reflexivity|]. split.
    + split; [|cbn [lv root]; split; [auto|]].
      * apply inv_intro; [now right| | |].
        -- unfold nsize at 1. rewrite He, lenN_app, lenN_one. fold (nsize (root t)). cbn [elems]. lia.
        -- rewrite lenN_one. pose proof (lwidth_pos BL). lia.
        -- rewrite lenN_one. lia.
      * destruct Hkk as [[-> Hkk]|Hkk]; [|auto]. destruct Hlv; [auto|right; lia].
    + unfold to_list. cbn [root tail elems]. rewrite Et, He. reflexivity.
Qed.

(** A vector of at most [2^(BL+6B)] elements has at most seven levels. *)
Lemma vinv_depth t : vinv t -> size t <= 2 ^ (BL + 6 * B) -> (lv t < 6)%nat.
Proof.
  intros (Hi & Hrel & Hlv) Hsz. pose proof Hi as (xs & Et & Hs & Hle & Hpos & Hr).
  destruct Hlv as [->|Hk]; [lia|].
  destruct Hr as [[E0 _]|Hw]; [rewrite E0 in Hk; cbn in Hk; lia|].
  destruct (nonrel_inv _ _ _ _ Hw Hrel) as (init & la & E & Hf & Hrl & Hl & Hn & Hb).
  rewrite E in Hk. cbn [kids] in Hk. rewrite lenN_snoc in Hk.
  destruct (Nat.ltb_spec (lv t) 6) as [|H6]; [auto|].
  assert (2 ^ (BL + 6 * B) <= span (lv t)).
  { unfold RrbInv.span, Rrb.sh. apply N.pow_le_mono_r; nia. }
  pose proof (span_pos B BL (lv t)). nia.
Qed.

Lemma vget_ok t i : vinv t -> (lv t < 6)%nat -> i < size t ->
  vget B BL t i = rnthN (to_list t) i.
Proof.
  intros (Hi & Hrel & _) Hlv Hlt. rewrite <- get_ok by auto.
  pose proof Hi as (xs & Et & Hs & Hle & Hpos & Hr).
  unfold vget, get. rewrite (vtail_offset_ok t Hi Hrel), (tail_offset_ok t Hi). cbn [rbind].
  destruct (N.leb_spec (nsize (root t)) i) as [H|H].
  - cbn [get_regular]. rewrite !(land_leaf B). destruct (leaf_of (tail t)); [|reflexivity].
    cbn [rbind]. f_equal. rewrite span_0.
    assert (nsize (root t) mod lwidth = 0) as Hd.
    { destruct Hr as [[-> _]|Hw].
      - rewrite nsize_empty_root. apply N.mod_0_l. pose proof (lwidth_pos BL). lia.
      - eapply reg_dvd. eapply wf_nonrel_reg; eauto. }
    pose proof (lwidth_pos BL). apply N.mod_divide in Hd; [|lia]. destruct Hd as [k Hk].
    replace i with (i - nsize (root t) + k * lwidth) at 1 by lia. apply N.mod_add. lia.
  - unfold descend. destruct (Nat.ltb_spec (lv t) 6); [|lia].
    destruct (root t) as [|[]]; try easy.
Qed.

Lemma vupdate_eq t i fn : inv t -> is_rel (root t) = false ->
  vupdate B BL t i fn = update B BL t i fn.
Proof.
  intros Hi Hrel. unfold vupdate, update.
  rewrite (vtail_offset_ok t Hi Hrel), (tail_offset_ok t Hi). cbn [rbind].
  destruct (root t) as [|[]] eqn:E; try easy.
  destruct Hi as (? & _ & _ & _ & _ & [[H _]|H]); rewrite E in H; easy.
Qed.

Lemma vupdate_ok t fn i A x Z : vinv t -> to_list t = A ++ x :: Z -> lenN A = i ->
  exists t', vupdate B BL t i fn = Ok t' /\ vinv t' /\ to_list t' = A ++ fn x :: Z /\
    size t' = size t.
Proof.
  intros (Hi & Hrel & Hlv) E HA. rewrite vupdate_eq by auto.
  destruct (update_ok t fn i A x Z Hi E HA) as (t' & Eu & Hi' & El & Hsz & Hl & Hr & Hk).
  exists t'. split; [auto|]. split; [|auto]. split; [auto|]. rewrite Hl, Hr, Hk. auto.
Qed.

Lemma vtake_ok t n : vinv t ->
  exists t', vtake B BL t n = Ok t' /\ vinv t' /\ to_list t' = takeN n (to_list t).
Proof.
  intros (Hi & Hrel & Hlv).
  assert (vtake B BL t n = take B BL t n) as ->.
  { unfold vtake, take. rewrite (vtail_offset_ok t Hi Hrel), (tail_offset_ok t Hi).
    cbn [rbind]. destruct (root t) as [|[]] eqn:E; try easy.
    destruct Hi as (? & _ & _ & _ & _ & [[H _]|H]); rewrite E in H; easy. }
  destruct (take_ok t n Hi) as (t' & E & Hi' & El & Hv & _).
  exists t'. split; [auto|]. split; [|auto]. split; auto.
Qed.

End Tree.
