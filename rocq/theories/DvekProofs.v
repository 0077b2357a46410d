(** dvektor: reads through the display find the elements. *)
From Coq Require Import List Arith Bool Lia.
From Verif Require Import Common DvekSpec Dvek.
Import ListNotations.
Set Default Goal Selector "!".

Section Proofs.
Context {T : Type}.
Variables B maxd : nat.
Variable dflt : T.
Hypothesis HB : 0 < B.
Notation heap := (dheap T).
Notation digit := (digit B).
Notation walk := (walk B).
Notation level x y := (level B (Nat.lxor x y)).

(** *** Digits *)
Definition agree (k x y : nat) : Prop := x / 2 ^ (B * k) = y / 2 ^ (B * k).
Lemma pow_pos n : 2 ^ n <> 0.
Proof. apply Nat.pow_nonzero. lia. Qed.
Lemma pow_S k : 2 ^ (B * S k) = 2 ^ (B * k) * 2 ^ B.
Proof. rewrite <- Nat.pow_add_r. f_equal. lia. Qed.
Lemma div_S x k : x / 2 ^ (B * S k) = x / 2 ^ (B * k) / 2 ^ B.
Proof. rewrite pow_S. symmetry. apply Nat.div_div; apply pow_pos. Qed.
Lemma digit_lt k x : digit k x < 2 ^ B.
Proof. unfold Dvek.digit. apply Nat.mod_upper_bound, pow_pos. Qed.
Lemma agree_refl k x : agree k x x.
Proof. reflexivity. Qed.
Lemma agree_sym k x y : agree k x y -> agree k y x.
Proof. unfold agree. congruence. Qed.
Lemma agree_trans k x y z : agree k x y -> agree k y z -> agree k x z.
Proof. unfold agree. congruence. Qed.
Lemma agree_S k x y : agree k x y <-> agree (S k) x y /\ digit k x = digit k y.
Proof.
  unfold agree. rewrite !div_S. unfold Dvek.digit. set (a := x / 2 ^ (B * k)). set (b := y / 2 ^ (B * k)). split.
  - intros ->. auto.
  - intros [E1 E2]. rewrite (Nat.div_mod a (2 ^ B)), (Nat.div_mod b (2 ^ B)) by apply pow_pos. now rewrite E1, E2.
Qed.
Lemma agree_mono k k' x y : k <= k' -> agree k x y -> agree k' x y.
Proof. induction 1 as [|k' _ IH]; [auto|]. intros H. apply IH in H. apply agree_S in H. apply H. Qed.
Lemma lxor_lt x y n : Nat.lxor x y < 2 ^ n <-> x / 2 ^ n = y / 2 ^ n.
Proof.
  rewrite <- !Nat.shiftr_div_pow2, <- Nat.lxor_eq_0_iff, <- Nat.shiftr_lxor, Nat.shiftr_div_pow2.
  rewrite Nat.div_small_iff by apply pow_pos. reflexivity.
Qed.
Lemma level_spec x y : agree (S (level x y)) x y /\ (level x y = 0 \/ ~ agree (level x y) x y).
Proof.
  unfold agree. rewrite <- !lxor_lt. set (z := Nat.lxor x y). unfold Dvek.level.
  destruct (Nat.eq_dec z 0) as [->|Hz].
  - split; [apply Nat.neq_0_lt_0, pow_pos|]. left. rewrite Nat.log2_nonpos by lia. apply Nat.div_0_l. lia.
  - destruct (Nat.log2_spec z) as [H1 H2]; [lia|]. set (l := Nat.log2 z) in *.
    pose proof (Nat.div_mod l B ltac:(lia)) as E. pose proof (Nat.mod_upper_bound l B ltac:(lia)) as Hm. split.
    + eapply Nat.lt_le_trans; [exact H2|]. apply Nat.pow_le_mono_r; [lia|]. rewrite Nat.mul_succ_r. lia.
    + right. intros H3. assert (2 ^ (B * (l / B)) <= 2 ^ l) by (apply Nat.pow_le_mono_r; [lia|rewrite E at 2; lia]). lia.
Qed.
Lemma level_is x y k : agree (S k) x y -> k = 0 \/ ~ agree k x y -> level x y = k.
Proof.
  intros H1 H2. destruct (level_spec x y) as [H3 H4].
  destruct (Nat.lt_trichotomy (level x y) k) as [Hl|[E|Hl]]; [|exact E|].
  - destruct H2 as [->|H2]; [lia|]. exfalso. apply H2. eapply agree_mono; [|exact H3]. lia.
  - destruct H4 as [E|H4]; [lia|]. exfalso. apply H4. eapply agree_mono; [|exact H1]. lia.
Qed.
Lemma level_le x y k : agree (S k) x y -> level x y <= k.
Proof.
  intros H. destruct (level_spec x y) as [_ [E|H4]]; [lia|].
  destruct (le_lt_dec (level x y) k) as [Hl|Hl]; [exact Hl|]. exfalso. apply H4. eapply agree_mono; [|exact H]. lia.
Qed.
Lemma level_gt x y k : ~ agree (S k) x y -> k < level x y.
Proof.
  intros H. destruct (level_spec x y) as [H3 _]. destruct (le_lt_dec (level x y) k) as [Hl|Hl]; [|exact Hl].
  exfalso. apply H. eapply agree_mono; [|exact H3]. lia.
Qed.
Lemma agree_dec k x y : {agree k x y} + {~ agree k x y}.
Proof. apply Nat.eq_dec. Qed.
Lemma level_other x y z k : agree k y z -> ~ agree k x y -> level x z = level x y.
Proof.
  intros H1 H2. destruct (level_spec x y) as [H3 H4].
  assert (Hk : k <= level x y).
  { destruct (le_lt_dec k (level x y)) as [Hl|Hl]; [exact Hl|]. exfalso. apply H2. eapply agree_mono; [|exact H3]. lia. }
  apply level_is.
  - eapply agree_trans; [exact H3|]. eapply agree_mono; [|exact H1]. lia.
  - destruct H4 as [E|H4]; [now left|right]. intros H. apply H4. eapply agree_trans; [exact H|].
    apply agree_sym. eapply agree_mono; [|exact H1]. lia.
Qed.

(** *** Lists *)
Lemma nth_old {A} (l t : list A) i x : nth_error l i = Some x -> nth_error (l ++ t) i = Some x.
Proof. intros H. rewrite nth_error_app1; [exact H|]. apply nth_error_Some. congruence. Qed.
Lemma nth_last {A} (l : list A) x : nth_error (l ++ [x]) (length l) = Some x.
Proof. now rewrite nth_error_app2, Nat.sub_diag by lia. Qed.
Lemma upd_last {A} (l : list A) x y : update_at (length l) y (l ++ [x]) = l ++ [y].
Proof. induction l as [|a l IH]; cbn; congruence. Qed.
Lemma upd_len {A} (l : list A) y : forall i, length (update_at i y l) = length l.
Proof. induction l as [|a l IH]; intros [|i]; cbn; auto. Qed.
Lemma nth_upd {A} (l : list A) y : forall i j,
  nth_error (update_at i y l) j = if (j =? i) && (j <? length l) then Some y else nth_error l j.
Proof.
  induction l as [|a l IH]; intros i j.
  - cbn [length]. rewrite andb_false_r. now destruct i.
  - destruct i as [|i], j as [|j]; cbn [update_at nth_error]; try reflexivity. now rewrite IH.
Qed.
Lemma nth_same {A} (l : list A) y i : i < length l -> nth_error (update_at i y l) i = Some y.
Proof. intros H. rewrite nth_upd, Nat.eqb_refl. apply Nat.ltb_lt in H. now rewrite H. Qed.
Lemma nth_other {A} (l : list A) y i j : j <> i -> nth_error (update_at i y l) j = nth_error l j.
Proof. intros H. rewrite nth_upd. apply Nat.eqb_neq in H. now rewrite H. Qed.
Lemma rnth_some {A} (l : list A) i x : nth_error l i = Some x -> rnth l i = Ok x.
Proof. intros H. unfold rnth. now rewrite H. Qed.
Lemma dset_ok (d : display) i o : i < length d -> dset d i o = Ok (update_at i o d).
Proof. intros H. unfold dset. apply Nat.ltb_lt in H. now rewrite H. Qed.

(** *** Nodes *)
Fixpoint typed (h : heap) (k p : nat) : Prop :=
  match k with
  | O => exists xs, nth_error h p = Some (Leaf xs) /\ length xs = 2 ^ B
  | S k' => exists cs, nth_error h p = Some (Inner cs) /\ length cs = 2 ^ B /\
              forall j c, nth_error cs j = Some (Some c) -> typed h k' c
  end.
Lemma typed_ext h t k : forall p, typed h k p -> typed (h ++ t) k p.
Proof.
  induction k as [|k IH]; intros p; cbn.
  - intros (xs & H & Hl). exists xs. split; [now apply nth_old|exact Hl].
  - intros (cs & H & Hl & Hk). exists cs. split; [now apply nth_old|]. split; [exact Hl|]. eauto.
Qed.
Lemma inner_is (h : heap) p cs : nth_error h p = Some (Inner cs) -> inner h p = Ok cs.
Proof. intros H. unfold inner. now rewrite H. Qed.
Lemma leaf_is (h : heap) p xs : nth_error h p = Some (Leaf xs) -> leaf h p = Ok xs.
Proof. intros H. unfold leaf. now rewrite H. Qed.
Lemma walk_leaf (h : heap) p i x : walk h 0 p i = Ok x -> exists xs, nth_error h p = Some (Leaf xs) /\ nth_error xs (digit 0 i) = Some x.
Proof.
  cbn [Dvek.walk]. unfold leaf. destruct (nth_error h p) as [[xs|]|] eqn:E; cbn; try discriminate. intros H.
  apply rnth_ok in H. eauto.
Qed.
Lemma walk_inner (h : heap) k p i x : walk h (S k) p i = Ok x -> exists cs c, nth_error h p = Some (Inner cs) /\
  nth_error cs (digit (S k) i) = Some (Some c) /\ walk h k c i = Ok x.
Proof.
  cbn [Dvek.walk]. unfold inner. destruct (nth_error h p) as [[|cs]|] eqn:E; cbn [rbind]; try discriminate. intros H.
  apply rbind_ok in H as (o & Ho & H). apply rnth_ok in Ho. destruct o as [c|]; cbn in H; [|discriminate]. eauto 6.
Qed.
Lemma walk_to (h : heap) k p i x cs c : nth_error h p = Some (Inner cs) -> nth_error cs (digit (S k) i) = Some (Some c) ->
  walk h k c i = Ok x -> walk h (S k) p i = Ok x.
Proof.
  intros H1 H2 H3. cbn [Dvek.walk]. rewrite (inner_is _ _ _ H1). cbn [rbind]. rewrite (rnth_some _ _ _ H2). exact H3.
Qed.
Lemma walk_at (h : heap) p i x xs : nth_error h p = Some (Leaf xs) -> nth_error xs (digit 0 i) = Some x -> walk h 0 p i = Ok x.
Proof. intros H1 H2. cbn [Dvek.walk]. rewrite (leaf_is _ _ _ H1). cbn [rbind]. now apply rnth_some. Qed.
Lemma walk_ext (h t : heap) i x k : forall p, walk h k p i = Ok x -> walk (h ++ t) k p i = Ok x.
Proof.
  induction k as [|k IH]; intros p H.
  - apply walk_leaf in H as (xs & H1 & H2). eapply walk_at; [apply nth_old; exact H1|exact H2].
  - apply walk_inner in H as (cs & c & H1 & H2 & H3). eapply walk_to; [apply nth_old; exact H1|exact H2|auto].
Qed.

(** [d] leads to a node of level [j]. *)
Definition has (h : heap) (d : display) (j : nat) : Prop := exists p, nth_error d j = Some (Some p) /\ typed h j p.
Lemma has_ext h t d j : has h d j -> has (h ++ t) d j.
Proof. intros (p & H1 & H2). exists p. split; [exact H1|now apply typed_ext]. Qed.
Lemma has_lt h d j : has h d j -> j < length d.
Proof. intros (p & H & _). apply nth_error_Some. congruence. Qed.

Section Elements.
Variable xs : list T.
Notation elem i x := (nth_error xs i = Some x).
(** Element [i] is found with focus [f]. *)
Definition reads (h : heap) (d : display) (f i : nat) (x : T) : Prop :=
  exists p, nth_error d (level i f) = Some (Some p) /\ walk h (level i f) p i = Ok x.
(** The node of level [k] leads to all elements below it. *)
Definition below (h : heap) (d : display) (f k : nat) : Prop := forall i x, agree (S k) i f -> elem i x ->
  exists p, nth_error d k = Some (Some p) /\ walk h k p i = Ok x.
Definition kids (h : heap) (cs : list (option nat)) (f k : nat) : Prop :=
  length cs = 2 ^ B /\ (forall j c, nth_error cs j = Some (Some c) -> typed h k c) /\
  forall i x, agree (S (S k)) i f -> elem i x ->
    exists c, nth_error cs (digit (S k) i) = Some (Some c) /\ walk h k c i = Ok x.
Lemma reads_ext h t d f i x : reads h d f i x -> reads (h ++ t) d f i x.
Proof. intros (p & H1 & H2). exists p. split; [exact H1|now apply walk_ext]. Qed.
Lemma below_ext h t d f k : below h d f k -> below (h ++ t) d f k.
Proof. intros H i x Ha He. destruct (H i x Ha He) as (p & H1 & H2). exists p. split; [exact H1|now apply walk_ext]. Qed.

Lemma kids_typed h cs f k : kids h cs f k -> typed (h ++ [Inner cs]) (S k) (length h).
Proof.
  intros (Hl & Ht & _). cbn. exists cs. split; [apply nth_last|]. split; [exact Hl|].
  intros j c E. apply typed_ext. eauto.
Qed.
Lemma kids_below h cs f k (d : display) : kids h cs f k -> nth_error d (S k) = Some (Some (length h)) ->
  below (h ++ [Inner cs]) d f (S k).
Proof.
  intros (Hl & Ht & Hk) Ed i x Ha He. exists (length h). split; [exact Ed|].
  destruct (Hk i x Ha He) as (c & Ec & Hw). eapply walk_to; [apply nth_last|exact Ec|now apply walk_ext].
Qed.

(** *** Linking *)
Lemma set_last (h : heap) cs k o : k < length cs ->
  set_slot (h ++ [Inner cs]) (length h) k o = Ok (h ++ [Inner (update_at k o cs)]).
Proof.
  intros H. unfold set_slot, inner. rewrite nth_last. cbn [rbind]. apply Nat.ltb_lt in H. rewrite H. now rewrite upd_last.
Qed.
Lemma link_step f n i d h : has h d i -> has h d (S i) -> below h d f i ->
  (forall k x, elem k x -> level k f = S i -> reads h d f k x) ->
  exists cs, kids h cs f i /\
    link B f (S n) (S i) d h = link B f n (S (S i)) (update_at (S i) (Some (length h)) d) (h ++ [Inner cs]).
Proof.
  intros (p & Ep & Hp) (q & Eq & cs & Ec & Hl & Ht) Hb Hr.
  exists (update_at (digit (S i) f) (Some p) cs). split.
  - split; [now rewrite upd_len|]. split.
    + intros j c. rewrite nth_upd. destruct (_ && _); [|apply Ht]. intros E. injection E as <-. exact Hp.
    + intros k x Ha He. destruct (Nat.eq_dec (digit (S i) k) (digit (S i) f)) as [E|E].
      * assert (Ha' : agree (S i) k f) by now apply agree_S.
        destruct (Hb k x Ha' He) as (p' & Ep' & Hw). exists p. rewrite Ep in Ep'. injection Ep' as <-.
        split; [|exact Hw]. rewrite E. apply nth_same. rewrite Hl. apply digit_lt.
      * assert (El : level k f = S i).
        { apply level_is; [exact Ha|]. right. intros Hn. apply agree_S in Hn. tauto. }
        destruct (Hr k x He El) as (q' & Eq' & Hw). rewrite El in Eq', Hw. rewrite Eq in Eq'. injection Eq' as <-.
        apply walk_inner in Hw as (cs' & c & Ec' & Hc & Hw). rewrite Ec in Ec'. injection Ec' as <-.
        exists c. split; [|exact Hw]. now rewrite nth_other.
  - assert (Hlt : S i < length d) by (apply nth_error_Some; congruence).
    cbn [link]. unfold dget. rewrite (rnth_some _ _ _ Eq). cbn [rbind]. unfold copy_of_inner. cbn [deref rbind].
    rewrite (inner_is _ _ _ Ec). cbn [rbind make_node]. rewrite dset_ok by exact Hlt. cbn [rbind Nat.sub].
    rewrite Nat.sub_0_r. rewrite (rnth_some _ i (Some p)) by (rewrite nth_other by lia; exact Ep). cbn [rbind].
    rewrite set_last by (rewrite Hl; apply digit_lt). reflexivity.
Qed.
Lemma link_ok f n : forall i d h,
  (forall j, j <= i + n -> has h d j) -> below h d f i ->
  (forall k x, elem k x -> i < level k f -> reads h d f k x) ->
  exists d' t, link B f n (S i) d h = Ok (d', h ++ t) /\ length d' = length d /\
    (forall j, j <= i \/ i + n < j -> nth_error d' j = nth_error d j) /\
    (forall j, j <= i + n -> has (h ++ t) d' j) /\
    (forall k, i <= k <= i + n -> below (h ++ t) d' f k) /\
    (0 < n -> exists t' cs, t = t' ++ [Inner cs] /\ nth_error d' (i + n) = Some (Some (length (h ++ t'))) /\
       kids (h ++ t') cs f (i + n - 1)).
Proof.
  induction n as [|n IH]; intros i d h Hh Hb Hr.
  - exists d, []. rewrite app_nil_r. split; [reflexivity|]. split; [reflexivity|]. split; [reflexivity|].
    split; [exact Hh|]. split; [|lia]. intros k Hk. now replace k with i by lia.
  - destruct (link_step f n i d h) as (cs & Hk & ->); [apply Hh; lia|apply Hh; lia|exact Hb| |].
    { intros k x He El. apply Hr; [exact He|lia]. }
    set (d1 := update_at (S i) (Some (length h)) d).
    assert (Hlt : S i < length d) by (apply (has_lt h); apply Hh; lia).
    assert (E1 : nth_error d1 (S i) = Some (Some (length h))) by now apply nth_same.
    assert (E2 : forall j, j <> S i -> nth_error d1 j = nth_error d j) by (intros j Hj; now apply nth_other).
    assert (Hh1 : forall j, j <= S i + n -> has (h ++ [Inner cs]) d1 j).
    { intros j Hj. destruct (Nat.eq_dec j (S i)) as [->|Hne].
      - exists (length h). split; [exact E1|]. exact (kids_typed _ _ _ _ Hk).
      - destruct (Hh j) as (p & Ep & Hp); [lia|]. exists p. rewrite E2 by exact Hne. split; [exact Ep|now apply typed_ext]. }
    assert (Hb1 : below (h ++ [Inner cs]) d1 f (S i)) by (apply kids_below; assumption).
    destruct (IH (S i) d1 (h ++ [Inner cs])) as (d' & t & El & Hl & Ho & Hh' & Hb' & Ht); [exact Hh1|exact Hb1| |].
    { intros k x He Hlv. destruct (Hr k x He) as (p & Ep & Hw); [lia|]. exists p.
      rewrite E2 by lia. split; [exact Ep|now apply walk_ext]. }
    rewrite <- app_assoc in El, Hh', Hb'. exists d', ([Inner cs] ++ t). split; [exact El|].
    split; [rewrite Hl; apply upd_len|]. split.
    { intros j Hj. rewrite Ho by lia. apply E2. lia. }
    split; [intros j Hj; apply Hh'; lia|]. split.
    { intros k Hlk. destruct (Nat.eq_dec k i) as [->|Hne]; [|apply Hb'; lia].
      intros j x Ha He. destruct (Hb j x Ha He) as (p & Ep & Hw). exists p. rewrite Ho by lia. rewrite E2 by lia.
      split; [exact Ep|]. now apply walk_ext. }
    intros _. destruct n as [|n].
    + exists [], cs. cbn in El. injection El as Ed Et. subst d'. rewrite app_nil_r.
      replace (i + 1) with (S i) by lia. replace (S i - 1) with i by lia. split; [|auto].
      apply (f_equal (skipn (length h))) in Et. rewrite !skipn_app, !skipn_all, Nat.sub_diag in Et. cbn in Et. symmetry. exact Et.
    + destruct Ht as (t' & cs' & -> & Ed & Hk'); [lia|]. exists ([Inner cs] ++ t'), cs'. rewrite !app_assoc in *.
      replace (i + S (S n)) with (S i + S n) by lia. auto.
Qed.

(** *** Going down *)
(** The display is at [new]; the leaf [ys] was made last. *)
Definition placed (h : heap) (ys : list T) (d : display) (n new : nat) : Prop :=
  nth_error d 0 = Some (Some (length h)) /\ length ys = 2 ^ B /\
  (forall j, 1 <= j < n -> has h d j) /\
  forall i x, elem i x -> if agree_dec 1 i new then nth_error ys (digit 0 i) = Some x
                          else reads h d new i x.
Definition to_leaf (new : nat) (d : display) (h : heap) : res (display * heap) :=
  o <- dget d 1 ;; ' (q, h1) <- null_slot_and_copy_leaf h o (digit 1 new) ;;
  d1 <- dset d 0 (Some q) ;; Ok (d1, h1).
Lemma descend_ok new : forall i d h cs xn, S i < length d -> nth_error d (S i) = Some (Some (length h)) ->
  kids h cs new i -> elem new xn ->
  exists d' t ys, (' (d2, h2) <- descend B new i d (h ++ [Inner cs]) ;; to_leaf new d2 h2) = Ok (d', (h ++ t) ++ [Leaf ys]) /\
    length d' = length d /\ (forall j, S i <= j -> nth_error d' j = nth_error d j) /\
    nth_error d' 0 = Some (Some (length (h ++ t))) /\ length ys = 2 ^ B /\
    (forall j, 1 <= j <= S i -> has (h ++ t) d' j) /\
    forall k x, elem k x -> agree (S (S i)) k new ->
      if agree_dec 1 k new then nth_error ys (digit 0 k) = Some x else reads (h ++ t) d' new k x.
Proof.
  induction i as [|i IH]; intros d h cs xn Hlt Ed (Hl & Ht & Hk) Hn.
  all: destruct (Hk new xn (agree_refl _ _) Hn) as (c & Ec & Hw).
  - set (cs' := update_at (digit 1 new) None cs). apply walk_leaf in Hw as (ys & Ey & _).
    pose proof (Ht _ _ Ec) as (ys' & Ey' & Hly). rewrite Ey in Ey'. injection Ey' as <-.
    assert (Hc : nth_error (h ++ [Inner cs']) c = Some (Leaf ys)) by now apply nth_old.
    exists (update_at 0 (Some (length (h ++ [Inner cs']))) d), [Inner cs'], ys. split.
    { cbn [descend rbind]. unfold to_leaf, dget. rewrite (rnth_some _ _ _ Ed). cbn [rbind].
      unfold null_slot_and_copy_leaf. cbn [deref rbind]. rewrite (inner_is _ _ _ (nth_last _ _)). cbn [rbind].
      rewrite (rnth_some _ _ _ Ec). cbn [rbind]. rewrite set_last by (rewrite Hl; apply digit_lt). cbn [rbind].
      fold cs'. unfold copy_of_leaf. cbn [deref rbind]. rewrite (leaf_is _ _ _ Hc). cbn [rbind make_node].
      rewrite dset_ok by lia. reflexivity. }
    split; [apply upd_len|]. split; [intros j Hj; apply nth_other; lia|]. split; [apply nth_same; lia|].
    split; [exact Hly|]. split.
    + intros j Hj. replace j with 1 by lia. exists (length h). rewrite nth_other by lia. split; [exact Ed|].
      exists cs'. split; [apply nth_last|]. split; [unfold cs'; now rewrite upd_len|]. intros j' c'. unfold cs'.
      rewrite nth_upd. destruct (_ && _); [discriminate|]. intros E. apply typed_ext. exact (Ht _ _ E).
    + intros k x He Ha. destruct (Hk k x Ha He) as (c1 & Ec1 & Hw1). destruct (agree_dec 1 k new) as [Hag|Hag].
      * apply agree_S in Hag as [_ Edg]. rewrite Edg, Ec in Ec1. injection Ec1 as <-.
        apply walk_leaf in Hw1 as (ys' & Ey' & Hx). rewrite Ey in Ey'. injection Ey' as <-. exact Hx.
      * assert (Hdg : digit 1 k <> digit 1 new) by (intros E; apply Hag, agree_S; auto).
        exists (length h). rewrite (level_is k new 1) by auto. rewrite nth_other by lia. split; [exact Ed|].
        eapply walk_to; [apply nth_last|unfold cs'; rewrite nth_other by exact Hdg; exact Ec1|now apply walk_ext].
  - set (cs' := update_at (digit (S (S i)) new) None cs). apply walk_inner in Hw as (cs1 & c0 & Ey & _).
    pose proof (Ht _ _ Ec) as (cs2 & Ey' & Hly & Hty). rewrite Ey in Ey'. injection Ey' as <-.
    assert (Hc : nth_error (h ++ [Inner cs']) c = Some (Inner cs1)) by now apply nth_old.
    set (d1 := update_at (S i) (Some (length (h ++ [Inner cs']))) d).
    destruct (IH d1 (h ++ [Inner cs']) cs1 xn) as (d' & t & ys & Er & Hl' & Ho & E0 & Hys & Hh & Hrd).
    { unfold d1. rewrite upd_len. lia. }
    { unfold d1. apply nth_same. lia. }
    { split; [exact Hly|]. split; [intros j c1 E; apply typed_ext; exact (Hty _ _ E)|]. intros k x Ha He.
      destruct (Hk k x) as (c1 & Ec1 & Hw1); [eapply agree_mono; [|exact Ha]; lia|exact He|].
      apply agree_S in Ha as Ha'. 
      assert (Edg : digit (S (S i)) k = digit (S (S i)) new) by apply Ha'. rewrite Edg, Ec in Ec1. injection Ec1 as <-.
      apply walk_inner in Hw1 as (cs2 & c2 & Ey2 & Ec2 & Hw2). rewrite Ey in Ey2. injection Ey2 as <-.
      exists c2. split; [exact Ec2|now apply walk_ext]. }
    { exact Hn. }
    rewrite <- app_assoc in E0, Hh.
    exists d', ([Inner cs'] ++ t), ys. split.
    { cbn [descend]. unfold dget at 1. rewrite (rnth_some _ _ _ Ed). cbn [rbind].
      unfold null_slot_and_copy_inner. cbn [deref rbind]. rewrite (inner_is _ _ _ (nth_last _ _)). cbn [rbind].
      rewrite (rnth_some _ _ _ Ec). cbn [rbind]. rewrite set_last by (rewrite Hl; apply digit_lt). cbn [rbind].
      fold cs'. unfold copy_of_inner. cbn [deref rbind]. rewrite (inner_is _ _ _ Hc). cbn [rbind make_node].
      rewrite dset_ok by lia. cbn [rbind]. fold d1. etransitivity; [exact Er|]. now rewrite <- !app_assoc. }
    assert (Ed' : nth_error d' (S (S i)) = Some (Some (length h))).
    { rewrite Ho by lia. unfold d1. rewrite nth_other by lia. exact Ed. }
    split; [rewrite Hl'; apply upd_len|]. split.
    { intros j Hj. rewrite Ho by lia. unfold d1. apply nth_other. lia. }
    split; [exact E0|]. split; [exact Hys|]. split.
    + intros j Hj. destruct (Nat.eq_dec j (S (S i))) as [->|Hne]; [|apply Hh; lia].
      exists (length h). split; [exact Ed'|]. exists cs'. rewrite app_assoc. split; [apply nth_old, nth_last|].
      split; [unfold cs'; now rewrite upd_len|]. intros j' c'. unfold cs'.
      rewrite nth_upd. destruct (_ && _); [discriminate|]. intros E. rewrite <- app_assoc. apply typed_ext. exact (Ht _ _ E).
    + intros k x He Ha. destruct (agree_dec (S (S i)) k new) as [Hag|Hag].
      * pose proof (Hrd k x He Hag) as Hx. destruct (agree_dec 1 k new); [exact Hx|]. now rewrite app_assoc.
      * destruct (agree_dec 1 k new) as [H1|H1]; [exfalso; apply Hag; eapply agree_mono; [|exact H1]; lia|].
        destruct (Hk k x Ha He) as (c1 & Ec1 & Hw1).
        assert (Hdg : digit (S (S i)) k <> digit (S (S i)) new) by (intros E; apply Hag, agree_S; auto).
        exists (length h). rewrite (level_is k new (S (S i))) by auto. split; [exact Ed'|]. rewrite app_assoc.
        eapply walk_to; [apply nth_old, nth_last|unfold cs'; rewrite nth_other by exact Hdg; exact Ec1|].
        rewrite <- app_assoc. now apply walk_ext.
Qed.

Lemma below_0 h d f : (forall i x, elem i x -> reads h d f i x) -> below h d f 0.
Proof.
  intros Hr i x Ha He. destruct (Hr i x He) as (p & Ep & Hw). apply level_le in Ha.
  replace (level i f) with 0 in * by lia. eauto.
Qed.
Lemma copy_ok h d n old new : agree 1 old new -> (forall j, j < n -> has h d j) -> 0 < n ->
  (forall i x, elem i x -> reads h d old i x) ->
  exists d' ys, (o <- dget d 0 ;; ' (q, h1) <- copy_of_leaf h o ;; d1 <- dset d 0 (Some q) ;; Ok (d1, h1)) = Ok (d', h ++ [Leaf ys]) /\
    length d' = length d /\ placed h ys d' n new.
Proof.
  intros Ha Hh Hn Hr. destruct (Hh 0 Hn) as (p & Ep & ys & Ey & Hl). pose proof (has_lt _ _ _ (Hh 0 Hn)) as Hlt.
  exists (update_at 0 (Some (length h)) d), ys. split.
  { unfold dget. rewrite (rnth_some _ _ _ Ep). cbn [rbind]. unfold copy_of_leaf. cbn [deref rbind].
    rewrite (leaf_is _ _ _ Ey). cbn [rbind make_node]. now rewrite dset_ok. }
  split; [apply upd_len|]. split; [now apply nth_same|]. split; [exact Hl|]. split.
  { intros j Hj. destruct (Hh j) as (q & Eq & Hq); [lia|]. exists q. now rewrite nth_other by lia. }
  intros i x He. destruct (agree_dec 1 i new) as [H|H].
  - destruct (below_0 h d old Hr i x) as (q & Eq & Hw); [|exact He|].
    + eapply agree_trans; [exact H|]. now apply agree_sym.
    + rewrite Ep in Eq. injection Eq as <-. apply walk_leaf in Hw as (ys' & Ey' & Hx). congruence.
  - destruct (Hr i x He) as (q & Eq & Hw). exists q.
    assert (H2 : ~ agree 1 i old) by (intros H2; apply H; eapply agree_trans; eassumption).
    rewrite (level_other i old new 1 Ha H2). split; [|exact Hw].
    rewrite nth_other; [exact Eq|]. pose proof (level_gt _ _ _ H2). lia.
Qed.
Lemma goto_dirty_ok h d n old new xn : (forall j, j < n -> has h d j) -> level old new < n ->
  (forall i x, elem i x -> reads h d old i x) -> elem new xn ->
  exists d' t ys, goto_pos_writable_from_dirty B old new (Nat.lxor old new) d h = Ok (d', (h ++ t) ++ [Leaf ys]) /\
    length d' = length d /\ placed (h ++ t) ys d' n new.
Proof.
  intros Hh Hlv Hr Hn. unfold goto_pos_writable_from_dirty. destruct (_ <? _) eqn:Ex.
  - apply Nat.ltb_lt in Ex. apply lxor_lt in Ex.
    destruct (copy_ok h d n old new) as (d' & ys & Er & Hl & Hp); [unfold agree; now rewrite Nat.mul_1_r|exact Hh|lia|exact Hr|].
    exists d', [], ys. rewrite app_nil_r. auto.
  - apply Nat.ltb_ge in Ex. assert (Hna : ~ agree 1 old new).
    { unfold agree. rewrite Nat.mul_1_r, <- lxor_lt. lia. }
    pose proof (level_gt _ _ _ Hna) as Hpos. set (D := level old new) in *.
    destruct (level_spec old new) as [Ha _]. fold D in Ha.
    destruct (link_ok old D 0 d h) as (d1 & t & El & Hl1 & Ho1 & Hh1 & _ & Ht); [intros j Hj; apply Hh; lia|now apply below_0|auto|].
    destruct Ht as (t' & cs & -> & Ed1 & Hk); [exact Hpos|].
    cbn [Nat.add] in *. destruct D as [|D']; [lia|]. replace (S D' - 1) with D' in * by lia.
    assert (Hk' : kids (h ++ t') cs new D').
    { destruct Hk as (H1 & H2 & H3). split; [exact H1|]. split; [exact H2|]. intros i x Hi. apply H3.
      eapply agree_trans; [exact Hi|]. now apply agree_sym. }
    destruct (descend_ok new D' d1 (h ++ t') cs xn) as (d' & t & ys & Er & Hl & Ho & E0 & Hys & Hhd & Hrd).
    { rewrite Hl1. exact (has_lt _ _ _ (Hh _ Hlv)). }
    { exact Ed1. } { exact Hk'. } { exact Hn. }
    exists d', (t' ++ t), ys. split.
    { rewrite El. cbn [rbind]. rewrite !app_assoc. exact Er. }
    split; [congruence|]. rewrite app_assoc. split; [exact E0|]. split; [exact Hys|]. split.
    { intros j Hj. destruct (le_lt_dec j (S D')) as [Hle|Hgt]; [apply Hhd; lia|].
      destruct (Hh j) as (p & Ep & Hp); [lia|]. exists p. rewrite Ho, Ho1 by lia. split; [exact Ep|].
      rewrite <- app_assoc. now apply typed_ext. }
    intros i x He. destruct (agree_dec (S (S D')) i new) as [Hag|Hag]; [exact (Hrd i x He Hag)|].
    destruct (agree_dec 1 i new) as [H1|H1]; [exfalso; apply Hag; eapply agree_mono; [|exact H1]; lia|].
    destruct (Hr i x He) as (p & Ep & Hw).
    assert (H2 : ~ agree (S (S D')) i old) by (intros H2; apply Hag; eapply agree_trans; eassumption).
    pose proof (level_gt _ _ _ H2) as Hgt.
    exists p. rewrite (level_other i old new _ Ha H2). rewrite Ho, Ho1 by lia. split; [exact Ep|].
    rewrite <- app_assoc. now apply walk_ext.
Qed.

(** *** A new block *)
Lemma fresh_ok slot : slot < 2 ^ B -> forall i d h, has h d (S i) ->
  exists d' t, fresh_path B slot i d h = Ok (d', h ++ t) /\ length d' = length d /\
    (forall j, j = 0 \/ i < j -> nth_error d' j = nth_error d j) /\
    (forall j, 1 <= j <= i -> has (h ++ t) d' j) /\
    (i = 1 -> forall p cs c, nth_error d 2 = Some (Some p) -> nth_error h p = Some (Inner cs) ->
       nth_error cs slot = Some (Some c) -> nth_error d' 1 = Some (Some c)).
Proof.
  intros Hs. induction i as [|i IH]; intros d h (p & Ep & Hp).
  - exists d, []. rewrite app_nil_r. split; [reflexivity|]. split; [reflexivity|]. split; [auto|]. split; [lia|lia].
  - destruct Hp as (cs & Ec & Hl & Ht). fold typed in Ht.
    assert (Hlt : S (S i) < length d) by (apply nth_error_Some; congruence).
    destruct (nth_error cs slot) as [x|] eqn:Ex; [|apply nth_error_None in Ex; lia].
    assert (Hq : exists q t, match x with Some x => Ok (x, h) | None => Ok (make_node h (Inner (repeat None (2 ^ B)))) end = Ok (q, h ++ t)
      /\ typed (h ++ t) (S i) q /\ (forall c, x = Some c -> q = c)).
    { destruct x as [c|].
      - exists c, []. rewrite app_nil_r. split; [reflexivity|]. split; [exact (Ht _ _ Ex)|congruence].
      - exists (length h), [Inner (repeat None (2 ^ B))]. split; [reflexivity|]. split; [|discriminate].
        exists (repeat None (2 ^ B)). split; [apply nth_last|]. split; [apply repeat_length|].
        intros j c E. apply nth_error_In in E. apply repeat_spec in E. discriminate. }
    destruct Hq as (q & t & Eq & Hq & Hc).
    set (d1 := update_at (S i) (Some q) d).
    assert (E1 : nth_error d1 (S i) = Some (Some q)) by (apply nth_same; lia).
    destruct (IH d1 (h ++ t)) as (d' & t2 & Er & Hl' & Ho & Hh & _); [exists q; auto|].
    exists d', (t ++ t2). rewrite app_assoc. split.
    { cbn [fresh_path]. unfold dget. rewrite (rnth_some _ _ _ Ep). cbn [rbind deref]. rewrite (inner_is _ _ _ Ec). cbn [rbind].
      rewrite (rnth_some _ _ _ Ex). cbn [rbind]. rewrite Eq. cbn [rbind]. rewrite dset_ok by lia. exact Er. }
    split; [rewrite Hl'; apply upd_len|]. split.
    { intros j Hj. rewrite Ho by lia. apply nth_other. lia. }
    split.
    { intros j Hj. destruct (Nat.eq_dec j (S i)) as [->|Hne]; [|apply Hh; lia].
      exists q. rewrite Ho by lia. split; [exact E1|now apply typed_ext]. }
    intros Ei p' cs' c Ep' Ec' Es. assert (i = 0) by lia. subst i. rewrite Ho by lia. rewrite E1.
    rewrite Ep in Ep'. injection Ep' as <-. rewrite Ec in Ec'. injection Ec' as <-. rewrite Ex in Es. injection Es as ->.
    now rewrite (Hc c).
Qed.
Lemma agree_small n x y : x < 2 ^ (B * n) -> y < 2 ^ (B * n) -> agree n x y.
Proof. intros H1 H2. unfold agree. now rewrite !Nat.div_small. Qed.
Lemma pow_lt n : 2 ^ (B * n) < 2 ^ (B * S n).
Proof. apply Nat.pow_lt_mono_r; lia. Qed.
Lemma elem_lt i x : elem i x -> i < length xs.
Proof. intros H. apply nth_error_Some. congruence. Qed.
Lemma agree_multiple k i m : m mod 2 ^ (B * k) = 0 -> agree k i m -> m <= i.
Proof.
  intros Hm Ha. unfold agree in Ha. rewrite (Nat.div_mod m (2 ^ (B * k))), (Nat.div_mod i (2 ^ (B * k))) by apply pow_pos.
  rewrite Ha, Hm. lia.
Qed.
Lemma fresh_clean_ok h d n old new : new = length xs -> old < new -> new <= 2 ^ (B * n) -> new mod 2 ^ B = 0 -> 0 < n ->
  (forall j, j < n -> has h d j) -> (forall k, k < n -> below h d old k) -> (level old new = n -> n < length d) ->
  level old new <= 2 \/ new mod 2 ^ (B * level old new) = 0 ->
  exists n' d' t, goto_fresh_pos_writable_from_clean B dflt old new (Nat.lxor old new) n d h =
      Ok (n', d', (h ++ t) ++ [Leaf (repeat dflt (2 ^ B))]) /\
    length d' = length d /\ placed (h ++ t) (repeat dflt (2 ^ B)) d' n' new /\
    n' = (if level old new =? n then S n else n).
Proof.
  intros En Hlt Hle Hm Hn Hh Hb Hroom Hc.
  assert (Hna : ~ agree 1 old new).
  { intros Ha. apply (agree_multiple 1) in Ha; [lia|]. now rewrite Nat.mul_1_r. }
  pose proof (level_gt _ _ _ Hna) as Hpos. destruct (level_spec old new) as [Ha Hna'].
  set (D := level old new) in *. unfold goto_fresh_pos_writable_from_clean. fold D.
  assert (HDn : D <= n).
  { apply level_le. pose proof (pow_lt n). apply agree_small; lia. }
  assert (Hroot : exists d1 t, (if D =? n then let ' (q, h1) := make_node h (Inner (repeat None (2 ^ B))) in
         d1 <- dset d D (Some q) ;; below <- dget d1 (D - 1) ;;
         h2 <- set_slot h1 q (digit D old) below ;; Ok (S n, d1, h2) else Ok (n, d, h)) =
       Ok (if D =? n then S n else n, d1, h ++ t) /\ length d1 = length d /\
       (forall j, j < (if D =? n then S n else n) -> has (h ++ t) d1 j) /\
       (forall k, k < (if D =? n then S n else n) -> below (h ++ t) d1 old k)).
  { destruct (D =? n) eqn:E.
    - apply Nat.eqb_eq in E. specialize (Hroom E). destruct n as [|n]; [lia|].
      destruct (Hh n) as (p & Ep & Hp); [lia|]. rewrite E in *.
      set (cs := update_at (digit (S n) old) (Some p) (repeat (@None nat) (2 ^ B))).
      assert (Hk : kids h cs old n).
      { split; [unfold cs; now rewrite upd_len, repeat_length|]. split.
        - intros j c. unfold cs. rewrite nth_upd. destruct (_ && _); [intros E'; now injection E' as <-|].
          intros E'. apply nth_error_In in E'. apply repeat_spec in E'. discriminate.
        - intros i x _ He. assert (Hi : agree (S n) i old) by (apply elem_lt in He; apply agree_small; lia).
          destruct (Hb n (Nat.lt_succ_diag_r n) i x Hi He) as (q & Eq & Hw). rewrite Ep in Eq. injection Eq as <-.
          exists p. split; [|exact Hw]. assert (Hi2 : agree (S (S n)) i old /\ digit (S n) i = digit (S n) old) by now apply agree_S.
          destruct Hi2 as [_ ->]. unfold cs. apply nth_same. rewrite repeat_length. apply digit_lt. }
      set (d1 := update_at (S n) (Some (length h)) d).
      assert (E1 : nth_error d1 (S n) = Some (Some (length h))) by now apply nth_same.
      assert (E2 : forall j, j <> S n -> nth_error d1 j = nth_error d j) by (intros; now apply nth_other).
      exists d1, [Inner cs]. split.
      { cbn [make_node]. rewrite dset_ok by exact Hroom. cbn [rbind]. fold d1. replace (S n - 1) with n by lia. unfold dget.
        rewrite (rnth_some d1 n (Some p)) by (rewrite E2 by lia; exact Ep). cbn [rbind].
        rewrite set_last by (rewrite repeat_length; apply digit_lt). reflexivity. }
      split; [apply upd_len|]. split.
      + intros j Hj. destruct (Nat.eq_dec j (S n)) as [->|Hne].
        * exists (length h). split; [exact E1|]. exact (kids_typed _ _ _ _ Hk).
        * destruct (Hh j) as (q & Eq & Hq); [lia|]. exists q. rewrite E2 by exact Hne. split; [exact Eq|now apply typed_ext].
      + intros k Hkk. destruct (Nat.eq_dec k (S n)) as [->|Hne]; [apply kids_below; assumption|].
        intros i x Hi He. destruct (Hb k) with (i := i) (x := x) as (q & Eq & Hw); [lia|exact Hi|exact He|].
        exists q. rewrite E2 by exact Hne. split; [exact Eq|now apply walk_ext].
    - exists d, []. rewrite app_nil_r. auto. }
  destruct Hroot as (d1 & t1 & Er & Hl1 & Hh1 & Hb1). set (n' := if D =? n then S n else n) in *.
  assert (HDn' : D < n') by (unfold n'; destruct (D =? n) eqn:E; [apply Nat.eqb_eq in E; lia|apply Nat.eqb_neq in E; lia]).
  destruct (fresh_ok (digit D new) (digit_lt _ _) (D - 1) d1 (h ++ t1)) as (d2 & t2 & Ef & Hl2 & Ho2 & Hh2 & Hs2).
  { replace (S (D - 1)) with D by lia. now apply Hh1. }
  assert (H0 : 0 < length d2) by (rewrite Hl2; pose proof (has_lt _ _ _ (Hh1 0 ltac:(lia))); lia).
  set (h2 := (h ++ t1) ++ t2) in *.
  set (d3 := update_at 0 (Some (length h2)) d2).
  assert (E3 : forall j, j <> 0 -> nth_error d3 j = nth_error d2 j) by (intros; now apply nth_other).
  exists n', d3, (t1 ++ t2). rewrite app_assoc. fold h2.
  assert (Hposb : (0 <? D) = true) by (now apply Nat.ltb_lt). rewrite Hposb. split.
  { rewrite Er. cbn [rbind]. rewrite Ef. cbn [rbind make_node]. rewrite dset_ok by exact H0. reflexivity. }
  split; [unfold d3; rewrite upd_len; congruence|]. split; [|reflexivity]. split; [now apply nth_same|].
  split; [apply repeat_length|]. split.
  { intros j Hj. destruct (le_lt_dec j (D - 1)) as [Hj2|Hj2].
    - destruct (Hh2 j) as (p & Ep & Hp); [lia|]. exists p. rewrite E3 by lia. auto.
    - destruct (Hh1 j) as (p & Ep & Hp); [lia|]. exists p. rewrite E3, Ho2 by lia. split; [exact Ep|now apply typed_ext]. }
  intros i x He. pose proof (elem_lt i x He) as Hi. destruct (agree_dec 1 i new) as [Hag|Hag].
  { apply (agree_multiple 1) in Hag; [lia|]. now rewrite Nat.mul_1_r. }
  set (j := level i new). pose proof (level_gt _ _ _ Hag) as Hj1. fold j in Hj1.
  destruct (level_spec i new) as [Hj _]. fold j in Hj.
  destruct (le_lt_dec D j) as [HDj|HDj].
  - assert (Hio : agree (S j) i old).
    { eapply agree_trans; [exact Hj|]. apply agree_sym. eapply agree_mono; [|exact Ha]. lia. }
    assert (Hjn : j < n').
    { destruct (Nat.eq_dec j D) as [->|]; [exact HDn'|]. unfold n'. destruct (D =? n) eqn:E.
      - apply Nat.eqb_eq in E. unfold j. apply Nat.lt_succ_r, level_le. pose proof (pow_lt n). apply agree_small; lia.
      - apply Nat.eqb_neq in E. assert (Hnew : new < 2 ^ (B * n)).
        { assert (Hag2 : agree n old new) by (eapply agree_mono; [|exact Ha]; lia). unfold agree in Hag2.
          rewrite (Nat.div_small old) in Hag2 by lia. symmetry in Hag2. now apply Nat.div_small_iff in Hag2; [|apply pow_pos]. }
        assert (Hjl : j <= n - 1); [|lia]. unfold j. apply level_le. replace (S (n - 1)) with n by lia. apply agree_small; lia. }
    destruct (Hb1 j Hjn i x Hio He) as (p & Ep & Hw). exists p. fold j. rewrite E3, Ho2 by lia. split; [exact Ep|now apply walk_ext].
  - destruct Hc as [Hc|Hc].
    + assert (HD2 : D = 2) by lia. assert (Ej : j = 1) by lia. clearbody D. subst D.
      assert (Hio : agree 3 i old).
      { eapply agree_trans; [eapply agree_mono; [|exact Hj]; lia|]. now apply agree_sym. }
      destruct (Hb1 2 HDn' i x Hio He) as (p & Ep & Hw). apply walk_inner in Hw as (cs & c & Ec & Es & Hw).
      rewrite Ej in Hj. apply agree_S in Hj as Hj'. assert (Edg : digit 2 i = digit 2 new) by apply Hj'. rewrite Edg in Es.
      exists c. fold j. rewrite Ej. rewrite E3 by lia. split; [exact (Hs2 eq_refl p cs c Ep Ec Es)|now apply walk_ext].
    + exfalso. apply (agree_multiple D i) in Hc; [lia|]. eapply agree_mono; [|exact Hj]. lia.
Qed.
End Elements.

(** *** Versions *)
Record dfull (h : heap) (s : impl) (xs : list T) (f : nat) : Prop := {
  df_focus : focus s < length xs;
  df_block : focus s / 2 ^ B = f / 2 ^ B;
  df_depth : 0 < depth s <= maxd;
  df_len : length (disp s) = maxd;
  df_size : length xs <= 2 ^ (B * depth s);
  df_clean : dirty s = false -> depth s = 1 /\ length xs = 1;
  df_has : forall j, j < depth s -> has h (disp s) j;
  df_reads : forall i x, nth_error xs i = Some x -> reads h (disp s) (focus s) i x }.
Definition dinv (h : heap) (s : impl) (v : version T) : Prop :=
  size s = length (fst v) /\ (fst v = [] \/ dfull h s (fst v) (snd v)).
Lemma dinv_ext h t s v : dinv h s v -> dinv (h ++ t) s v.
Proof.
  intros [H1 [H2|H2]]; split; auto. right. destruct H2. constructor; auto; intros; [apply has_ext|apply reads_ext]; auto.
Qed.
Lemma digit_0 i : digit 0 i = i mod 2 ^ B.
Proof. unfold Dvek.digit. now rewrite Nat.mul_0_r, Nat.div_1_r. Qed.
Lemma agree_0 x y : agree 0 x y <-> x = y.
Proof. unfold agree. now rewrite Nat.mul_0_r, !Nat.div_1_r. Qed.
Lemma agree_1 x y : agree 1 x y <-> x / 2 ^ B = y / 2 ^ B.
Proof. unfold agree. now rewrite Nat.mul_1_r. Qed.

(** Writing element [e] of the block at [new]. *)
Lemma write_ok xs xs' h ys s n new e g y v : placed xs h ys (disp s) n new -> agree 1 e new ->
  nth_error ys (e mod 2 ^ B) = Some y -> g y = v -> 0 < n ->
  (forall i x, nth_error xs' i = Some x -> i = e /\ x = v \/ i <> e /\ nth_error xs i = Some x) ->
  exists ys', write s (e mod 2 ^ B) g (h ++ [Leaf ys]) = Ok (s, h ++ [Leaf ys']) /\
    (forall j, j < n -> has (h ++ [Leaf ys']) (disp s) j) /\
    forall i x, nth_error xs' i = Some x -> reads (h ++ [Leaf ys']) (disp s) new i x.
Proof.
  intros (E0 & Hl & Hh & Hr) Ha Ey Eg Hn Hx. set (k := e mod 2 ^ B) in *.
  exists (update_at k v ys). split; [|split].
  - unfold write, dget. rewrite (rnth_some _ _ _ E0). cbn [rbind deref]. unfold set_elem.
    rewrite (leaf_is _ _ _ (nth_last _ _)). cbn [rbind]. rewrite (rnth_some _ _ _ Ey). cbn [rbind].
    now rewrite upd_last, Eg.
  - intros j Hj. destruct j as [|j].
    + exists (length h). split; [exact E0|]. cbn. exists (update_at k v ys). split; [apply nth_last|]. now rewrite upd_len.
    + apply has_ext, Hh. lia.
  - intros i x Hi. assert (Hk : k < length ys) by (apply nth_error_Some; congruence).
    destruct (agree_dec 1 i new) as [Hag|Hag].
    + exists (length h). assert (El : level i new = 0) by (apply level_is; auto). rewrite El. split; [exact E0|].
      eapply walk_at; [apply nth_last|]. rewrite digit_0. destruct (Hx i x Hi) as [[-> ->]|[Hne Hi']]; [now apply nth_same|].
      rewrite nth_other.
      * specialize (Hr i x Hi'). rewrite <- digit_0. destruct (agree_dec 1 i new); [exact Hr|contradiction].
      * unfold k. rewrite <- !digit_0. intros Ed. apply Hne. apply agree_0, agree_S. split; [|exact Ed].
        eapply agree_trans; [exact Hag|now apply agree_sym].
    + destruct (Hx i x Hi) as [[-> _]|[_ Hi']]; [contradiction|]. specialize (Hr i x Hi').
      destruct (agree_dec 1 i new); [contradiction|]. now apply reads_ext.
Qed.
Lemma level_lt_depth n x y : 0 < n -> x < 2 ^ (B * n) -> y < 2 ^ (B * n) -> level x y < n.
Proof.
  intros Hn Hx Hy. assert (level x y <= n - 1); [|lia]. apply level_le. replace (S (n - 1)) with n by lia. now apply agree_small.
Qed.
Lemma goto_ok h s xs f sz fo new xn : dfull h s xs f -> nth_error xs new = Some xn ->
  exists d' t ys, goto_pos_writable B (mkImpl sz fo (dirty s) (depth s) (disp s)) (focus s) new (Nat.lxor (focus s) new) h
      = Ok (mkImpl sz fo true (depth s) d', (h ++ t) ++ [Leaf ys]) /\
    length d' = length (disp s) /\ placed xs (h ++ t) ys d' (depth s) new.
Proof.
  intros I Hn. destruct I. pose proof (elem_lt _ _ _ Hn) as Hlt. unfold goto_pos_writable. cbn [dirty size focus depth disp].
  destruct (dirty s) eqn:Ed.
  - destruct (goto_dirty_ok xs h (disp s) (depth s) (focus s) new xn) as (d' & t & ys & -> & Hl & Hp); auto.
    { apply level_lt_depth; lia. }
    exists d', t, ys. auto.
  - destruct (df_clean0 eq_refl) as [E1 E2]. unfold goto_pos_writable_from_clean. rewrite E1. cbn [Nat.eqb].
    destruct (copy_ok xs h (disp s) 1 (focus s) new) as (d' & ys & -> & Hl & Hp).
    { replace (focus s) with 0 by lia. replace new with 0 by lia. apply agree_refl. }
    { intros j Hj. apply df_has0. lia. } { lia. } { exact df_reads0. }
    exists d', [], ys. rewrite app_nil_r. auto.
Qed.
Lemma nth_list_upd (xs : list T) i g j : nth_error (list_upd xs i g) j =
  if j =? i then option_map g (nth_error xs i) else nth_error xs j.
Proof.
  unfold list_upd. destruct (nth_error xs i) as [x|] eqn:E.
  - assert (Hi : i < length xs) by (apply nth_error_Some; congruence).
    assert (Hf : length (firstn i xs) = i) by (rewrite firstn_length; lia).
    destruct (j =? i) eqn:Ej.
    + apply Nat.eqb_eq in Ej as ->. rewrite nth_error_app2 by lia. now rewrite Hf, Nat.sub_diag.
    + apply Nat.eqb_neq in Ej. rewrite <- (firstn_skipn i xs) at 3. destruct (le_lt_dec i j) as [Hij|Hij].
      * rewrite !nth_error_app2 by lia. rewrite Hf. replace (skipn i xs) with (x :: skipn (S i) xs).
        -- destruct (j - i) as [|m] eqn:Em; [lia|reflexivity].
        -- clear - E. revert i E. induction xs as [|a xs IH]; intros [|i] E; cbn in *; try discriminate; [congruence|auto].
      * now rewrite !nth_error_app1 by lia.
  - destruct (j =? i) eqn:Ej; [|reflexivity]. apply Nat.eqb_eq in Ej as ->. exact E.
Qed.
Lemma len_list_upd (xs : list T) i g : length (list_upd xs i g) = length xs.
Proof.
  unfold list_upd. destruct (nth_error xs i) as [x|] eqn:E; [|reflexivity].
  assert (i < length xs) by (apply nth_error_Some; congruence). rewrite app_length. cbn [length].
  rewrite firstn_length, skipn_length. lia.
Qed.
Lemma update_ok h s xs f i g : dinv h s (xs, f) -> i < length xs ->
  exists s' t, update B s i g h = Ok (s', h ++ t) /\ dinv (h ++ t) s' (list_upd xs i g, i).
Proof.
  intros [Hsz HI] Hi. cbn [fst snd] in *. destruct HI as [->|I]; [cbn in Hi; lia|].
  destruct (nth_error xs i) as [x|] eqn:Ex; [|apply nth_error_None in Ex; lia].
  unfold update. destruct (goto_ok h s xs f (size s) i i x I Ex) as (d' & t & ys & -> & Hl & Hp). cbn [rbind].
  destruct I.
  assert (Ey : nth_error ys (i mod 2 ^ B) = Some x).
  { destruct Hp as (_ & _ & _ & Hr). specialize (Hr i x Ex). destruct (agree_dec 1 i i) as [_|H]; [|now destruct H].
    now rewrite <- digit_0. }
  destruct (write_ok xs (list_upd xs i g) (h ++ t) ys (mkImpl (size s) i true (depth s) d') (depth s) i i g x (g x))
    as (ys' & -> & Hh & Hr); auto; [apply agree_refl|lia| |].
  { intros j z. rewrite nth_list_upd. destruct (j =? i) eqn:Ej.
    - apply Nat.eqb_eq in Ej. rewrite Ex. cbn. intros E. injection E as <-. auto.
    - apply Nat.eqb_neq in Ej. auto. }
  exists (mkImpl (size s) i true (depth s) d'), (t ++ [Leaf ys']). rewrite app_assoc. split; [reflexivity|].
  split; cbn [fst snd size]; [now rewrite len_list_upd|]. right.
  constructor; cbn [focus depth disp dirty]; rewrite ?len_list_upd; auto; [congruence|discriminate].
Qed.
Lemma adjacent old new : new mod 2 ^ B = 0 -> 0 < new -> old / 2 ^ B = new / 2 ^ B - 1 ->
  new mod 2 ^ (B * level old new) = 0.
Proof.
  intros Hm Hpos Ho. destruct (level_spec old new) as [_ Hn]. set (D := level old new) in *.
  destruct Hn as [E|Hn]; [rewrite E, Nat.mul_0_r; apply Nat.mod_1_r|]. destruct D as [|D']; [rewrite Nat.mul_0_r; apply Nat.mod_1_r|].
  set (w := new / 2 ^ B) in *. set (o := old / 2 ^ B) in *. set (Q := 2 ^ (B * D')).
  assert (HQ : Q <> 0) by apply pow_pos. assert (HP : 2 ^ B <> 0) by apply pow_pos.
  assert (En : new = 2 ^ B * w) by (rewrite (Nat.div_mod new (2 ^ B)), Hm; [unfold w; lia|exact HP]).
  assert (EP : 2 ^ (B * S D') = 2 ^ B * Q) by (rewrite pow_S; unfold Q; lia).
  rewrite EP, En, Nat.mul_mod_distr_l by assumption.
  destruct (Nat.eq_dec (w mod Q) 0) as [E|E]; [rewrite E; lia|]. exfalso. apply Hn. unfold agree. rewrite EP.
  rewrite <- !Nat.div_div by assumption. fold w o. rewrite Ho.
  pose proof (Nat.div_mod w Q HQ) as Ew. pose proof (Nat.mod_upper_bound w Q HQ).
  symmetry. apply (Nat.div_unique _ _ _ (w mod Q - 1)); lia.
Qed.
Lemma block_agree n : agree 1 n (n / 2 ^ B * 2 ^ B).
Proof. apply agree_1. symmetry. apply Nat.div_mul, pow_pos. Qed.
Lemma nth_snoc (xs : list T) x i z : nth_error (xs ++ [x]) i = Some z -> i = length xs /\ z = x \/ i <> length xs /\ nth_error xs i = Some z.
Proof.
  intros H. destruct (Nat.lt_trichotomy i (length xs)) as [Hl|[->|Hl]].
  - rewrite nth_error_app1 in H by exact Hl. right. split; [lia|exact H].
  - rewrite nth_last in H. injection H as <-. auto.
  - assert (i < length (xs ++ [x])) by (apply nth_error_Some; congruence). rewrite app_length in *. cbn in *. lia.
Qed.
Lemma nth_repeat_lt (x : T) n i : i < n -> nth_error (repeat x n) i = Some x.
Proof. revert i. induction n as [|n IH]; intros [|i] H; cbn; [lia|lia|reflexivity|apply IH; lia]. Qed.
Lemma push_ok h s xs f x : 0 < maxd -> dinv h s (xs, f) -> length xs < 2 ^ (B * maxd) ->
  (length xs mod 2 ^ B = 0 -> 2 ^ (B * 3) < length xs -> f / 2 ^ B = length xs / 2 ^ B - 1) ->
  exists s' t, push_back B maxd dflt s x h = Ok (s', h ++ t) /\ dinv (h ++ t) s' (xs ++ [x], length xs).
Proof.
  intros Hmax [Hsz HI] Hroom Hcalm. cbn [fst snd] in *. unfold push_back. rewrite Hsz.
  destruct (length xs =? 0) eqn:E0.
  - apply Nat.eqb_eq in E0. destruct xs; [|discriminate]. cbn [make_node]. rewrite dset_ok by now rewrite repeat_length.
    exists (mkImpl 1 0 false 1 (update_at 0 (Some (length h)) (repeat None maxd))), [Leaf (x :: repeat dflt (2 ^ B - 1))].
    split; [reflexivity|]. split; [reflexivity|]. right. cbn [fst snd app length].
    assert (Ed : nth_error (update_at 0 (Some (length h)) (repeat None maxd)) 0 = Some (Some (length h)))
      by (apply nth_same; now rewrite repeat_length).
    constructor; cbn [focus depth disp dirty length]; auto; try lia.
    + now rewrite upd_len, repeat_length.
    + pose proof (pow_pos (B * 1)). lia.
    + intros j Hj. replace j with 0 by lia. exists (length h). split; [exact Ed|]. eexists. split; [apply nth_last|].
      cbn [length]. rewrite repeat_length. pose proof (pow_pos B). lia.
    + intros i z Hi. destruct i as [|[|i]]; [|discriminate|discriminate]. injection Hi as <-. exists (length h).
      rewrite (level_is 0 0 0) by (auto; apply agree_refl). split; [exact Ed|].
      eapply walk_at; [apply nth_last|]. rewrite digit_0, Nat.mod_0_l by apply pow_pos. reflexivity.
  - apply Nat.eqb_neq in E0. destruct HI as [->|I]; [cbn in E0; lia|].
    set (n := length xs) in *. set (bl := n / 2 ^ B * 2 ^ B).
    pose proof (Nat.div_mod n (2 ^ B) (pow_pos B)) as Edm. pose proof (Nat.mod_upper_bound n (2 ^ B) (pow_pos B)) as Hmod.
    assert (Hbl : bl <= n) by (unfold bl; lia).
    assert (Hsnoc : length (xs ++ [x]) = S n) by (rewrite app_length; cbn; unfold n; lia).
    assert (Hfin : forall dp d' t ys y, length d' = maxd -> placed xs (h ++ t) ys d' dp bl -> 0 < dp <= maxd -> n < 2 ^ (B * dp) ->
       nth_error ys (n mod 2 ^ B) = Some y ->
       exists s' t0, write (mkImpl (n + 1) bl true dp d') (n mod 2 ^ B) (fun _ => x) ((h ++ t) ++ [Leaf ys]) = Ok (s', h ++ t0) /\
         dinv (h ++ t0) s' (xs ++ [x], n)).
    { intros dp d' t ys y Hl Hp Hdp Hcap Ey.
      destruct (write_ok xs (xs ++ [x]) (h ++ t) ys (mkImpl (n + 1) bl true dp d') dp bl n (fun _ => x) y x)
        as (ys' & -> & Hh & Hr); auto; [apply block_agree|lia|apply nth_snoc|].
      exists (mkImpl (n + 1) bl true dp d'), (t ++ [Leaf ys']). rewrite app_assoc. split; [reflexivity|].
      split; cbn [fst snd size]; [lia|]. right. constructor; cbn [focus depth disp dirty]; auto; try lia; try discriminate.
      symmetry. apply agree_1, block_agree. }
    destruct (n =? bl) eqn:Eb.
    + apply Nat.eqb_eq in Eb. assert (Hm : n mod 2 ^ B = 0) by (unfold bl in Eb; lia).
      unfold goto_fresh_pos_writable. cbn [dirty size focus depth disp]. destruct I as [If Ib Id Il Is Ic Ih Ir].
      destruct (dirty s) eqn:Edt.
      2:{ exfalso. destruct (Ic eq_refl) as [_ E1]. fold n in E1. rewrite E1 in Hm.
          rewrite Nat.mod_small in Hm; [lia|]. pose proof (Nat.pow_gt_lin_r 2 B ltac:(lia)). lia. }
      unfold goto_fresh_pos_writable_from_dirty, stabilize.
      destruct (link_ok xs (focus s) (depth s - 1) 0 (disp s) h) as (d1 & t1 & -> & Hl1 & _ & Hh1 & Hb1 & _);
        [intros j Hj; apply Ih; lia|now apply below_0|auto|]. cbn [rbind Nat.add] in *.
      assert (Hcond : level (focus s) bl <= 2 \/ bl mod 2 ^ (B * level (focus s) bl) = 0).
      { rewrite <- Eb. destruct (le_lt_dec n (2 ^ (B * 3))) as [Hle|Hgt].
        - destruct (Nat.eq_dec n (2 ^ (B * 3))) as [E|E].
          + assert (Hlv : level (focus s) n <= 3).
            { apply level_le. pose proof (pow_lt 3). apply agree_small; lia. }
            destruct (Nat.eq_dec (level (focus s) n) 3) as [->|]; [right; rewrite E; apply Nat.mod_same, pow_pos|left; lia].
          + left. apply level_le. apply agree_small; lia.
        - right. apply adjacent; [exact Hm|lia|]. rewrite Ib. auto. }
      assert (HDn : level (focus s) bl <= depth s).
      { apply level_le. pose proof (pow_lt (depth s)). apply agree_small; lia. }
      assert (HDr : level (focus s) bl = depth s -> depth s < maxd).
      { intros E. destruct (level_spec (focus s) bl) as [_ [E1|H1]]; [lia|]. rewrite E in H1.
        destruct (le_lt_dec (2 ^ (B * depth s)) bl) as [Hge|Hlt]; [|exfalso; apply H1; apply agree_small; lia].
        assert (Hpw : 2 ^ (B * depth s) < 2 ^ (B * maxd)) by lia. apply Nat.pow_lt_mono_r_iff in Hpw; [|lia].
        apply Nat.mul_lt_mono_pos_l in Hpw; [exact Hpw|exact HB]. }
      destruct (fresh_clean_ok xs (h ++ t1) d1 (depth s) (focus s) bl) as (n' & d' & t & -> & Hl & Hp & En'); auto; try lia.
      { rewrite <- Eb. exact Hm. }
      { intros j Hj. apply Hh1. lia. }
      { intros k Hk. apply Hb1. lia. }
      cbn [rbind]. rewrite <- (app_assoc h) in Hp |- *. eapply Hfin with (y := dflt); [lia|exact Hp| | |].
      * rewrite En'. destruct (Nat.eqb_spec (level (focus s) bl) (depth s)); lia.
      * rewrite En'. destruct (Nat.eqb_spec (level (focus s) bl) (depth s)) as [E|E].
        -- pose proof (pow_lt (depth s)). lia.
        -- destruct (level_spec (focus s) bl) as [Ha _].
           assert (Ha2 : agree (depth s) (focus s) bl) by (eapply agree_mono; [|exact Ha]; lia).
           unfold agree in Ha2. rewrite (Nat.div_small (focus s)) in Ha2 by lia. symmetry in Ha2.
           apply Nat.div_small_iff in Ha2; [lia|apply pow_pos].
      * apply nth_repeat_lt. exact Hmod.
    + apply Nat.eqb_neq in Eb. assert (Hblx : exists z, nth_error xs bl = Some z).
      { destruct (nth_error xs bl) as [z|] eqn:Ez; [eauto|]. apply nth_error_None in Ez. fold n in Ez. lia. }
      destruct Hblx as (z & Ez). destruct (goto_ok h s xs f (n + 1) bl bl z I Ez) as (d' & t & ys & -> & Hl & Hp). cbn [rbind].
      destruct I as [If Ib Id Il Is Ic Ih Ir].
      assert (Hy : exists y, nth_error ys (n mod 2 ^ B) = Some y).
      { destruct Hp as (_ & Hly & _). destruct (nth_error ys (n mod 2 ^ B)) as [y|] eqn:Ey; [eauto|]. apply nth_error_None in Ey. lia. }
      destruct Hy as (y & Ey). eapply Hfin; [congruence|exact Hp|exact Id| |exact Ey].
      destruct (Nat.eq_dec n (2 ^ (B * depth s))) as [E|E]; [|fold n in Is; lia]. exfalso. apply Eb.
      destruct (depth s) as [|dd]; [lia|]. unfold bl. rewrite E, pow_S, Nat.div_mul by apply pow_pos. reflexivity.
Qed.

(** *** Programs *)
Lemma get_reads h s i x : reads h (disp s) (focus s) i x -> get B s i h = Ok x.
Proof. intros (p & Ep & Hw). unfold get, get_elem, dget. rewrite (rnth_some _ _ _ Ep). exact Hw. Qed.
Definition dinvs (h : heap) (ss : list impl) (vs : list (version T)) : Prop :=
  length ss = length vs /\ forall v s, nth_error ss v = Some s -> dinv h s (ver vs v).
Lemma dinvs_add h t ss vs s v : dinvs h ss vs -> dinv (h ++ t) s v -> dinvs (h ++ t) (ss ++ [s]) (vs ++ [v]).
Proof.
  intros [Hl H] Hs. split; [rewrite !app_length; cbn; lia|]. intros k r Hk.
  destruct (Nat.lt_trichotomy k (length ss)) as [Hlt|[->|Hgt]].
  - rewrite nth_error_app1 in Hk by exact Hlt. unfold ver. rewrite app_nth1 by lia. apply dinv_ext, H, Hk.
  - rewrite nth_last in Hk. injection Hk as <-. unfold ver. rewrite Hl, app_nth2, Nat.sub_diag by lia. exact Hs.
  - assert (k < length (ss ++ [s])) by (apply nth_error_Some; congruence). rewrite app_length in *. cbn in *. lia.
Qed.
Lemma dstep_ok o h ss vs : 0 < maxd -> dinvs h ss vs -> dvalid B maxd vs o -> calm B vs o ->
  exists ss' t, dstep B maxd dflt ss o h = Ok (ss', h ++ t) /\ dinvs (h ++ t) ss' (dspec vs o).
Proof.
  intros Hm Hi Hv Hc. destruct o as [v x|v i g]; cbn [dvalid calm dspec dstep] in *; destruct Hv as [Hv Hp];
    pose proof Hi as [Hl H]; (destruct (nth_error ss v) as [s|] eqn:Es; [|apply nth_error_None in Es; lia]);
    rewrite (rnth_some _ _ _ Es); cbn [rbind]; specialize (H v s Es); destruct (ver vs v) as [xs f] eqn:Ev; cbn [fst snd] in *.
  - destruct (push_ok h s xs f x Hm H Hp Hc) as (s' & t & -> & Hs). cbn [rbind]. exists (ss ++ [s']), t. split; [reflexivity|].
    now apply dinvs_add.
  - destruct (update_ok h s xs f i g H Hp) as (s' & t & -> & Hs). cbn [rbind]. exists (ss ++ [s']), t. split; [reflexivity|].
    now apply dinvs_add.
Qed.
Lemma drun_ok os : forall h ss vs, 0 < maxd -> dinvs h ss vs -> dvalids B maxd vs os -> calms B vs os ->
  exists ss' t, drun B maxd dflt ss os h = Ok (ss', h ++ t) /\ dinvs (h ++ t) ss' (dspecs vs os).
Proof.
  induction os as [|o os IH]; intros h ss vs Hm Hi Hv Hc; cbn [dvalids calms dspecs drun] in *.
  - exists ss, []. now rewrite app_nil_r.
  - destruct Hv as [Hv Hvs], Hc as [Hc Hcs]. destruct (dstep_ok o h ss vs Hm Hi Hv Hc) as (ss1 & t1 & -> & Hi1). cbn [rbind].
    destruct (IH _ _ _ Hm Hi1 Hvs Hcs) as (ss2 & t2 & -> & Hi2). exists ss2, (t1 ++ t2). rewrite app_assoc. auto.
Qed.
Lemma dinvs_0 : dinvs [] [empty maxd] [([], 0)].
Proof.
  split; [reflexivity|]. intros [|[|v]] s Hs; try discriminate. injection Hs as <-. split; [reflexivity|now left].
Qed.

(** *** Iterators *)
Section Iter.
Variable xs : list T.
Notation elem i x := (nth_error xs i = Some x).
(** All nodes of the display lead to the elements below them. *)
Definition linked (h : heap) (d : display) (n f : nat) : Prop :=
  (forall k, k < n -> below xs h d f k) /\ forall j, j < n -> has h d j.
Lemma linked_ext h t d n f : linked h d n f -> linked (h ++ t) d n f.
Proof. intros [H1 H2]. split; intros k Hk; [apply below_ext|apply has_ext]; auto. Qed.
Lemma goto_pos_down h index xi : elem index xi -> forall k d, below xs h d index k -> has h d k ->
  exists d', goto_pos B index k d h = Ok d' /\ (forall j, k <= j -> nth_error d' j = nth_error d j) /\
    forall j, j <= k -> below xs h d' index j /\ has h d' j.
Proof.
  intros He. induction k as [|k IH]; intros d Hb Hh.
  - exists d. split; [reflexivity|]. split; [auto|]. intros j Hj. now replace j with 0 by lia.
  - destruct Hh as (p & Ep & Hp). destruct Hp as (cs & Ec & Hl & Ht). fold typed in Ht.
    assert (Hlt : S k < length d) by (apply nth_error_Some; congruence).
    destruct (Hb index xi (agree_refl _ _) He) as (p' & Ep' & Hw). rewrite Ep in Ep'. injection Ep' as <-.
    apply walk_inner in Hw as (cs' & c & Ec' & Es & Hw). rewrite Ec in Ec'. injection Ec' as <-.
    set (d1 := update_at k (Some c) d).
    assert (E1 : nth_error d1 k = Some (Some c)) by (apply nth_same; lia).
    destruct (IH d1) as (d' & Er & Ho & Hd).
    { intros i x Hi Hx. exists c. split; [exact E1|]. assert (Hi2 : agree (S (S k)) i index /\ digit (S k) i = digit (S k) index) by now apply agree_S.
      destruct Hi2 as [Hi2 Edg]. destruct (Hb i x Hi2 Hx) as (p' & Ep' & Hw'). rewrite Ep in Ep'. injection Ep' as <-.
      apply walk_inner in Hw' as (cs' & c' & Ec' & Es' & Hw'). rewrite Ec in Ec'. injection Ec' as <-.
      rewrite Edg, Es in Es'. injection Es' as <-. exact Hw'. }
    { exists c. split; [exact E1|]. exact (Ht _ _ Es). }
    exists d'. assert (Ho' : forall j, S k <= j -> nth_error d' j = nth_error d j).
    { intros j Hj. rewrite Ho by lia. apply nth_other. lia. }
    split; [|split; [exact Ho'|]].
    + cbn [goto_pos]. unfold dget. rewrite (rnth_some _ _ _ Ep). cbn [rbind deref]. rewrite (inner_is _ _ _ Ec). cbn [rbind].
      rewrite (rnth_some _ _ _ Es). cbn [rbind]. rewrite dset_ok by lia. exact Er.
    + intros j Hj. destruct (Nat.eq_dec j (S k)) as [->|Hne]; [|apply Hd; lia]. split.
      * intros i x Hi Hx. destruct (Hb i x Hi Hx) as (p' & Ep' & Hw'). exists p'. rewrite Ho' by lia. auto.
      * exists p. rewrite Ho' by lia. split; [exact Ep|]. exists cs. auto.
Qed.
Lemma goto_pos_ok h d n old new xn : linked h d n old -> elem new xn -> level old new < n ->
  exists d', goto_pos B new (level old new) d h = Ok d' /\ linked h d' n new.
Proof.
  intros [Hb Hh] He Hlv. destruct (level_spec old new) as [Ha _]. set (D := level old new) in *.
  assert (Hb' : forall k, D <= k < n -> below xs h d new k).
  { intros k Hk i x Hi. apply Hb; [lia|]. eapply agree_trans; [exact Hi|]. apply agree_sym. eapply agree_mono; [|exact Ha]. lia. }
  destruct (goto_pos_down h new xn He D d) as (d' & Er & Ho & Hd); [apply Hb'; lia|apply Hh; lia|].
  exists d'. split; [exact Er|]. split; intros k Hk; (destruct (le_lt_dec k D) as [Hle|Hgt]; [now apply Hd|]).
  - intros i x Hi Hx. destruct (Hb' k) with (i := i) (x := x) as (p & Ep & Hw); auto; [lia|]. exists p. rewrite Ho by lia. auto.
  - destruct (Hh k Hk) as (p & Ep & Hp). exists p. rewrite Ho by lia. auto.
Qed.
Lemma first_path_is new (h : heap) : forall k d, (forall j, 1 <= j <= k -> digit j new = 0) ->
  first_path k d h = goto_pos B new k d h.
Proof.
  induction k as [|k IH]; intros d Hz; [reflexivity|]. cbn [first_path goto_pos]. rewrite (Hz (S k)) by lia.
  unfold rbind. destruct (dget d (S k)) as [o|]; [|reflexivity]. destruct (deref o) as [p|]; [|reflexivity].
  destruct (inner h p) as [cs|]; [|reflexivity]. destruct (rnth cs 0) as [x|]; [|reflexivity].
  destruct (dset d k x) as [d1|]; [|reflexivity]. apply IH. intros j Hj. apply Hz. lia.
Qed.
Lemma next_block_is (h : heap) d base : base mod 2 ^ B = 0 ->
  goto_next_block_start B (base + 2 ^ B) (Nat.lxor base (base + 2 ^ B)) d h =
  goto_pos B (base + 2 ^ B) (level base (base + 2 ^ B)) d h.
Proof.
  intros Hm. set (nb := base + 2 ^ B). unfold goto_next_block_start. destruct (level base nb) as [|D] eqn:ED; [reflexivity|].
  assert (HP : 2 ^ B <> 0) by apply pow_pos.
  assert (Hz : nb mod 2 ^ (B * S D) = 0).
  { rewrite <- ED. apply adjacent.
    - unfold nb. rewrite <- (Nat.mul_1_l (2 ^ B)) at 1. now rewrite Nat.mod_add.
    - unfold nb. lia.
    - unfold nb. rewrite <- (Nat.mul_1_l (2 ^ B)) at 2. rewrite Nat.div_add by exact HP. lia. }
  cbn [goto_pos]. unfold rbind. destruct (dget d (S D)) as [o|]; [|reflexivity]. destruct (deref o) as [p|]; [|reflexivity].
  destruct (inner h p) as [cs|]; [|reflexivity]. destruct (rnth cs _) as [x|]; [|reflexivity].
  destruct (dset d D x) as [d1|]; [|reflexivity]. apply first_path_is. intros j Hj. unfold Dvek.digit.
  apply Nat.mod_divides in Hz as [q Eq]; [|apply pow_pos]. rewrite Eq.
  replace (2 ^ (B * S D)) with (2 ^ (B * j) * (2 ^ B * 2 ^ (B * (D - j)))).
  - rewrite <- !Nat.mul_assoc, Nat.mul_comm, Nat.div_mul by apply pow_pos. rewrite (Nat.mul_comm (2 ^ B)). now apply Nat.mod_mul.
  - rewrite <- !Nat.pow_add_r. f_equal. rewrite <- (Nat.mul_1_r B) at 2. rewrite <- !Nat.mul_add_distr_l. f_equal. lia.
Qed.

(** The iterator is at position [i]. *)
Record itinv (h : heap) (n : nat) (t : iter) (i : nat) : Prop := {
  ii_i : it_i t = i;
  ii_le : i <= length xs;
  ii_block : it_base t mod 2 ^ B = 0;
  ii_base : it_base t < length xs;
  ii_in : it_base t <= i <= it_base t + 2 ^ B;
  ii_end : i < it_base t + 2 ^ B \/ i = length xs;
  ii_curr : it_curr t = i - it_base t;
  ii_linked : linked h (it_disp t) n (it_base t) }.
Lemma elem_of i : i < length xs -> exists x, elem i x.
Proof. intros H. destruct (nth_error xs i) as [x|] eqn:E; [eauto|]. apply nth_error_None in E. lia. Qed.
Lemma at_leaf_ok h d n f : 0 < n -> linked h d n f -> at_leaf d h = Ok tt.
Proof.
  intros Hn [_ Hh]. destruct (Hh 0 Hn) as (p & Ep & ys & Ey & _). unfold at_leaf, dget. rewrite (rnth_some _ _ _ Ep).
  cbn [rbind deref]. now rewrite (leaf_is _ _ _ Ey).
Qed.
Lemma multiple_block m : m mod 2 ^ B = 0 -> m / 2 ^ B * 2 ^ B = m.
Proof. intros H. rewrite (Nat.div_mod m (2 ^ B)) at 2 by apply pow_pos. rewrite H. lia. Qed.
Lemma in_block base i : base mod 2 ^ B = 0 -> base <= i < base + 2 ^ B -> agree 1 i base /\ i mod 2 ^ B = i - base.
Proof.
  intros Hm Hi. assert (E : i = 2 ^ B * (base / 2 ^ B) + (i - base)).
  { rewrite (Nat.mul_comm (2 ^ B)), multiple_block by exact Hm. lia. }
  split.
  - apply agree_1. symmetry. apply (Nat.div_unique _ _ _ (i - base)); [lia|exact E].
  - symmetry. apply (Nat.mod_unique _ _ (base / 2 ^ B)); [lia|exact E].
Qed.
Lemma deref_ok h n t i x : 0 < n -> itinv h n t i -> elem i x -> deref_it t h = Ok x.
Proof.
  intros Hn I He. destruct I as [Ii Il Ib Iba Iin Ie Ic [Hb _]]. apply elem_lt in He as Hlt.
  destruct (in_block (it_base t) i Ib) as [Ha Em]; [lia|].
  destruct (Hb 0 Hn i x Ha He) as (p & Ep & Hw). apply walk_leaf in Hw as (ys & Ey & Hx).
  unfold deref_it, dget. rewrite (rnth_some _ _ _ Ep). cbn [rbind deref]. rewrite (leaf_is _ _ _ Ey). cbn [rbind].
  apply rnth_some. rewrite Ic, <- Em, <- digit_0. exact Hx.
Qed.
Hypothesis Hsome : 0 < length xs.
Lemma move_ok h n t i m j : 0 < n -> length xs <= 2 ^ (B * n) -> itinv h n t i -> ipos1 (length xs) i m = Some j ->
  shy1 B (length xs) i m -> exists t', move1 B t m h = Ok t' /\ itinv h n t' j.
Proof.
  intros Hn Hcap I Hp Hs. pose proof I as [Ii Il Ib Iba Iin Ie Ic Ik].
  assert (HP : 2 ^ B <> 0) by apply pow_pos.
  assert (Hgo : forall nb, nb < length xs -> exists d', goto_pos B nb (level (it_base t) nb) (it_disp t) h = Ok d' /\ linked h d' n nb).
  { intros nb Hnb. destruct (elem_of nb Hnb) as (x & Hx). apply (goto_pos_ok h (it_disp t) n (it_base t) nb x Ik Hx).
    apply level_lt_depth; lia. }
  destruct m as [| |k]; cbn [ipos1 shy1 move1] in *.
  - destruct (i <? length xs) eqn:El; [|discriminate]. apply Nat.ltb_lt in El. injection Hp as <-.
    unfold increment. rewrite Ii, Nat.add_1_r. destruct (Nat.ltb_spec (S i - it_base t) (2 ^ B)) as [Hc|Hc].
    + eexists. split; [reflexivity|]. constructor; cbn [it_i it_base it_curr it_disp]; auto; lia.
    + assert (En : S i = it_base t + 2 ^ B) by lia. set (nb := it_base t + 2 ^ B) in *.
      assert (Hm : nb mod 2 ^ B = 0).
      { unfold nb. rewrite <- (Nat.mul_1_l (2 ^ B)) at 1. now rewrite Nat.mod_add. }
      assert (Hnb : nb < length xs).
      { destruct (Nat.eq_dec (S i) (length xs)) as [E|E]; [|lia]. exfalso. rewrite <- E in Hs. apply (Hs eq_refl). now rewrite En. }
      destruct (Hgo nb Hnb) as (d' & Er & Hd). unfold nb in Er |- * at 1 2. rewrite next_block_is by exact Ib. rewrite Er. cbn [rbind].
      rewrite (at_leaf_ok h d' n _ Hn Hd). cbn [rbind]. eexists. split; [reflexivity|].
      constructor; cbn [it_i it_base it_curr it_disp]; auto; lia.
  - destruct (i =? 0) eqn:E0; [discriminate|]. injection Hp as <-. apply Nat.eqb_neq in E0. unfold decrement. rewrite Ii.
    replace (i =? 0) with false by (symmetry; now apply Nat.eqb_neq).
    destruct (Nat.leb_spec (it_base t) (i - 1)) as [Hc|Hc].
    + eexists. split; [reflexivity|]. constructor; cbn [it_i it_base it_curr it_disp]; auto; lia.
    + assert (Ei : i = it_base t) by lia. pose proof (multiple_block _ Ib) as Emb.
      assert (Hq : 1 <= it_base t / 2 ^ B) by (destruct (it_base t / 2 ^ B); lia).
      assert (Hge : 2 ^ B <= it_base t) by nia.
      set (nb := it_base t - 2 ^ B) in *.
      assert (Hm : nb mod 2 ^ B = 0).
      { rewrite <- (Nat.mod_add nb 1) by exact HP. rewrite Nat.mul_1_l. unfold nb. now rewrite Nat.sub_add. }
      destruct (Hgo nb) as (d' & Er & Hd); [lia|]. fold nb. rewrite Er. cbn [rbind].
      rewrite (at_leaf_ok h d' n _ Hn Hd). cbn [rbind]. eexists. split; [reflexivity|].
      constructor; cbn [it_i it_base it_curr it_disp]; auto; lia.
  - destruct (k <=? length xs) eqn:El; [|discriminate]. apply Nat.leb_le in El. injection Hp as ->.
    unfold advance. destruct (Nat.eqb_spec j (it_base t)) as [E|E].
    + eexists. split; [reflexivity|]. constructor; cbn [it_i it_base it_curr it_disp]; auto; lia.
    + pose proof (Nat.div_mod j (2 ^ B) HP) as Edm. pose proof (Nat.mod_upper_bound j (2 ^ B) HP).
      set (nb := j / 2 ^ B * 2 ^ B). assert (Enb : j = nb + j mod 2 ^ B) by (unfold nb; lia).
      assert (Hm : nb mod 2 ^ B = 0) by (unfold nb; now apply Nat.mod_mul).
      assert (Hnb : nb < length xs).
      { destruct (Nat.eq_dec j (length xs)) as [Ej|Ej]; [|lia]. subst j. specialize (Hs eq_refl). lia. }
      destruct (Hgo nb Hnb) as (d' & Er & Hd). fold nb. rewrite Er. cbn [rbind].
      rewrite (at_leaf_ok h d' n _ Hn Hd). cbn [rbind]. eexists. split; [reflexivity|].
      constructor; cbn [it_i it_base it_curr it_disp]; auto; lia.
Qed.
Lemma moves_ok h n ms : 0 < n -> length xs <= 2 ^ (B * n) -> forall t i j, itinv h n t i -> ipos (length xs) i ms = Some j ->
  shy B (length xs) i ms -> exists t', moves B t ms h = Ok t' /\ itinv h n t' j.
Proof.
  intros Hn Hcap. induction ms as [|m ms IH]; intros t i j I Hp Hs; cbn [ipos shy moves] in *.
  - injection Hp as <-. eauto.
  - destruct Hs as [Hs Hss]. destruct (ipos1 (length xs) i m) as [k|] eqn:E; [|discriminate].
    destruct (move_ok h n t i m k Hn Hcap I E Hs) as (t1 & -> & I1). cbn [rbind]. exact (IH t1 k j I1 Hp Hss).
Qed.
Lemma stable_ok h s f : dfull h s xs f -> exists d t, stable B s h = Ok (d, h ++ t) /\ linked (h ++ t) d (depth s) (focus s).
Proof.
  intros [If Ib Id Il Is Ic Ih Ir]. unfold stable. destruct (dirty s) eqn:Ed.
  - unfold stabilize. destruct (link_ok xs (focus s) (depth s - 1) 0 (disp s) h) as (d1 & t1 & -> & Hl1 & _ & Hh1 & Hb1 & _);
      [intros j Hj; apply Ih; lia|now apply below_0|auto|]. cbn [Nat.add] in *.
    exists d1, t1. split; [reflexivity|]. split; intros k Hk; [apply Hb1|apply Hh1]; lia.
  - destruct (Ic eq_refl) as [E1 _]. exists (disp s), []. rewrite app_nil_r. split; [reflexivity|].
    split; [|exact Ih]. intros k Hk. replace k with 0 by lia. now apply below_0.
Qed.
Lemma level_sym x y : level x y = level y x.
Proof. now rewrite Nat.lxor_comm. Qed.
Lemma begin_ok h s f : dfull h s xs f -> exists t0 t, begin B s h = Ok (t0, h ++ t) /\ itinv (h ++ t) (depth s) t0 0.
Proof.
  intros I. destruct (stable_ok h s f I) as (d & t & Es & Hk). destruct I as [If Ib Id Il Is Ic Ih Ir].
  destruct (elem_of 0 Hsome) as (x & Hx). destruct (goto_pos_ok (h ++ t) d (depth s) (focus s) 0 x Hk Hx) as (d' & Er & Hd).
  { apply level_lt_depth; lia. }
  unfold begin. rewrite Es. cbn [rbind]. rewrite level_sym, Er. cbn [rbind]. rewrite (at_leaf_ok _ d' (depth s) 0) by (exact Hd || lia).
  cbn [rbind]. do 2 eexists. split; [reflexivity|].
  pose proof (pow_pos B). constructor; cbn [it_i it_base it_curr it_disp]; auto; try lia. now apply Nat.mod_0_l.
Qed.
Lemma end_ok h s f : size s = length xs -> dfull h s xs f ->
  exists t0 t, end_ B s h = Ok (t0, h ++ t) /\ itinv (h ++ t) (depth s) t0 (length xs).
Proof.
  intros Hsz I. destruct (stable_ok h s f I) as (d & t & Es & Hk). destruct I as [If Ib Id Il Is Ic Ih Ir].
  unfold end_. rewrite Hsz. replace (length xs =? 0) with false by (symmetry; apply Nat.eqb_neq; lia).
  set (b := (length xs - 1) / 2 ^ B * 2 ^ B).
  assert (HP : 2 ^ B <> 0) by apply pow_pos.
  pose proof (Nat.div_mod (length xs - 1) (2 ^ B) HP) as Edm. pose proof (Nat.mod_upper_bound (length xs - 1) (2 ^ B) HP).
  assert (Hb : b <= length xs - 1 < b + 2 ^ B) by (unfold b; lia).
  destruct (elem_of b ltac:(lia)) as (x & Hx). destruct (goto_pos_ok (h ++ t) d (depth s) (focus s) b x Hk Hx) as (d' & Er & Hd).
  { apply level_lt_depth; lia. }
  rewrite Es. cbn [rbind]. rewrite level_sym, Er. cbn [rbind]. rewrite (at_leaf_ok _ d' (depth s) b) by (exact Hd || lia).
  cbn [rbind]. do 2 eexists. split; [reflexivity|].
  constructor; cbn [it_i it_base it_curr it_disp]; auto; try lia. unfold b. now apply Nat.mod_mul.
Qed.
Lemma itinv_ext h t n it i : itinv h n it i -> itinv (h ++ t) n it i.
Proof. intros []. constructor; auto. now apply linked_ext. Qed.
Lemma visit_ok h n m : 0 < n -> length xs <= 2 ^ (B * n) -> length xs mod 2 ^ B <> 0 ->
  forall t i, itinv h n t i -> i + m = length xs -> visit B m (length xs) t h = Ok (skipn i xs).
Proof.
  intros Hn Hcap Hm. induction m as [|m IH]; intros t i I Hi; cbn [visit].
  - rewrite (ii_i _ _ _ _ I). replace i with (length xs) by lia. now rewrite Nat.eqb_refl, skipn_all.
  - rewrite (ii_i _ _ _ _ I). replace (i =? length xs) with false by (symmetry; apply Nat.eqb_neq; lia).
    destruct (elem_of i ltac:(lia)) as (x & Hx). rewrite (deref_ok h n t i x Hn I Hx). cbn [rbind].
    destruct (move_ok h n t i Fwd (S i) Hn Hcap I) as (t' & Er & I'); cbn [ipos1 shy1].
    { replace (i <? length xs) with true by (symmetry; apply Nat.ltb_lt; lia). reflexivity. }
    { auto. }
    cbn [move1] in Er. rewrite Er. cbn [rbind]. rewrite (IH t' (S i) I') by lia. cbn [rbind]. f_equal.
    clear - Hx. revert i Hx. induction xs as [|a l IHl]; intros [|i] Hx; cbn in *; try discriminate; [congruence|auto].
Qed.
Lemma elements_ok h s f : size s = length xs -> dfull h s xs f -> length xs mod 2 ^ B <> 0 -> elements B s h = Ok xs.
Proof.
  intros Hsz I Hm. destruct (begin_ok h s f I) as (b & t1 & Eb & Ib).
  assert (I1 : dfull (h ++ t1) s xs f) by (destruct I; constructor; auto; intros; [apply has_ext|apply reads_ext]; auto).
  destruct (end_ok (h ++ t1) s f Hsz I1) as (e & t2 & Ee & Ie). unfold elements. rewrite Eb. cbn [rbind]. rewrite Ee. cbn [rbind].
  rewrite (ii_i _ _ _ _ Ie), Hsz. destruct I as [If Ibl Id Il Is Ic Ih Ir].
  rewrite (visit_ok ((h ++ t1) ++ t2) (depth s) (length xs)) with (i := 0); auto; [lia|now apply itinv_ext].
Qed.
End Iter.
End Proofs.
