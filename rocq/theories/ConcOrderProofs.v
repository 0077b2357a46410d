(** Relaxed increments, acquire-release decrements and acquiring loads of the counts order all
    accesses that have to be ordered, and old counts do not matter. *)
From Coq Require Import List Arith Bool Lia Permutation.
From Verif Require Import Common AtomProofs RcHeap RcProofs Conc ConcProofs ConcPool ConcOrder.
Import ListNotations.
Set Default Goal Selector "!".

(** ** Orders *)
Section Orders.
Implicit Types (tr : list event) (e f : event).

Lemma nth_snoc {A} (l : list A) x m y : nth_error (l ++ [x]) m = Some y ->
  m < length l /\ nth_error l m = Some y \/ m = length l /\ y = x.
Proof.
  intros H. destruct (Nat.lt_ge_cases m (length l)) as [Hl|Hl].
  - left. split; [exact Hl|]. now rewrite nth_error_app1 in H.
  - right. rewrite nth_error_app2 in H by exact Hl. destruct (m - length l) as [|d] eqn:Ed.
    + injection H as <-. split; [lia|reflexivity].
    + destruct d; discriminate.
Qed.
Lemma nth_old {A} (l : list A) x m y : nth_error l m = Some y -> nth_error (l ++ [x]) m = Some y.
Proof. intros H. rewrite nth_error_app1; [exact H|]. apply nth_error_Some. congruence. Qed.
Lemma nth_last {A} (l : list A) x : nth_error (l ++ [x]) (length l) = Some x.
Proof. rewrite nth_error_app2 by lia. now rewrite Nat.sub_diag. Qed.

Lemma hb_old tr v i j : hb tr i j -> hb (tr ++ [v]) i j.
Proof.
  induction 1 as [i j e f Hi Hj Hl Ht|i j e f Hi Hj Hl Hb Hr Ha Hs|i j k _ IH1 _ IH2].
  - eapply hb_thread; eauto using nth_old.
  - eapply hb_count; eauto using nth_old.
  - eapply hb_trans; eauto.
Qed.
Lemma hb_lt tr i j : hb tr i j -> i < j.
Proof. induction 1; lia. Qed.
Lemma known_old tr v i m : known tr i m -> known (tr ++ [v]) i m.
Proof.
  intros (j & f & Hj & Ht & H). exists j, f. split; [now apply nth_old|]. split; [exact Ht|].
  destruct H as [H|H]; [now left|right; now apply hb_old].
Qed.
Lemma known_last tr v : known (tr ++ [v]) (e_thread v) (length tr).
Proof. exists (length tr), v. split; [apply nth_last|]. auto. Qed.
(** What a thread knows happens before what it does next. *)
Lemma known_hb tr v m : known tr (e_thread v) m -> hb (tr ++ [v]) m (length tr).
Proof.
  intros (j & f & Hj & Ht & H).
  assert (H1 : hb (tr ++ [v]) j (length tr)).
  { eapply hb_thread; [apply nth_old; exact Hj|apply nth_last| |exact Ht]. apply nth_error_Some. congruence. }
  destruct H as [->|H]; [exact H1|]. eapply hb_trans; [apply hb_old; exact H|exact H1].
Qed.
(** Known through a reference to [y] that was given up. *)
Definition released tr (y m : nat) : Prop :=
  exists d f, nth_error tr d = Some f /\ e_kind f = EDown /\ e_block f = y /\ (m = d \/ hb tr m d).
Lemma released_old tr v y m : released tr y m -> released (tr ++ [v]) y m.
Proof.
  intros (d & f & Hd & Hk & Hb & H). exists d, f. split; [now apply nth_old|]. split; [exact Hk|]. split; [exact Hb|].
  destruct H as [H|H]; [now left|right; now apply hb_old].
Qed.
Lemma released_last tr v m : e_kind v = EDown -> m = length tr \/ known tr (e_thread v) m ->
  released (tr ++ [v]) (e_block v) m.
Proof.
  intros Hk H. exists (length tr), v. split; [apply nth_last|]. split; [exact Hk|]. split; [reflexivity|].
  destruct H as [H|H]; [now left|right; now apply known_hb].
Qed.
Lemma acquire tr v m : acquires (e_kind v) = true -> e_seen v = length tr \/
  (forall d f, nth_error tr d = Some f -> e_kind f = EDown -> e_block f = e_block v -> d < e_seen v) ->
  released tr (e_block v) m -> known (tr ++ [v]) (e_thread v) m.
Proof.
  intros Ha Hs (d & f & Hd & Hk & Hb & H). exists (length tr), v. split; [apply nth_last|]. split; [reflexivity|]. right.
  assert (Hl : d < length tr) by (apply nth_error_Some; congruence).
  assert (H1 : hb (tr ++ [v]) d (length tr)).
  { eapply hb_count; [apply nth_old; exact Hd|apply nth_last|exact Hl|exact Hb|now rewrite Hk|exact Ha|].
    destruct Hs as [->|Hs]; [exact Hl|eapply Hs; eauto]. }
  destruct H as [->|H]; [exact H1|]. eapply hb_trans; [apply hb_old; exact H|exact H1].
Qed.
End Orders.

Section Order.
Context {B A : Type}.
Notation heap := (heap B).
Variable G : list nat.
Variable F : nat -> A -> list nat -> list nat -> heap -> Prop.
Notation ghost := (list nat * list nat)%type.
Notation pool_ok := (pool_ok G F).
Notation cov := (cov G).
Implicit Types (h : heap) (gs : list ghost) (g : ghost) (tr : list event).

(** ** What an access changes *)
Record facts {C} (q : prim B C) h (x : C) h' : Prop := mkFacts {
  f_keep : forall z c, cell_at h z c -> writes q = true /\ target q = Some z \/
             exists c', cell_at h' z c' /\ c_kids c' = c_kids c;
  f_back : forall z c', cell_at h' z c' -> (exists c, cell_at h z c) \/ made q x z;
  f_dead : forall z, nth_error h z = Some None -> nth_error h' z = Some None;
  f_len : length h <= length h';
  f_made : forall z, made q x z -> z = length h;
  f_free : match q with PFree a => nth_error h' a = Some None | _ => True end;
  f_blk : block_of q x < length h';
  f_live : forall a, target q = Some a -> exists c, cell_at h a c;
  f_cnt : forall z c', cell_at h' z c' -> z <> block_of q x \/ counts (kind_of q) = false ->
            exists c, cell_at h z c /\ c_rc c = c_rc c';
  f_val : match kind_of q with
          | ENew => True
          | EUp => exists c, cell_at h (block_of q x) c /\ count_in h' (block_of q x) = S (c_rc c)
          | EDown => exists c, cell_at h (block_of q x) c /\ S (count_in h' (block_of q x)) = c_rc c
          | _ => True
          end;
  f_dec : kind_of q = EDown -> count_in h' (block_of q x) = 0 -> taken q x (block_of q x) }.

Lemma update_cell h a c0 c z c' : cell_at h a c0 -> cell_at (update_at a (Some c) h) z c' ->
  z = a /\ c' = c \/ z <> a /\ cell_at h z c'.
Proof.
  intros Ha H. destruct (Nat.eq_dec z a) as [->|Hn].
  - left. unfold cell_at in *. rewrite nth_upd_same in H by (eapply nth_lt; exact Ha). injection H as <-. auto.
  - right. unfold cell_at in *. rewrite nth_upd in H by exact Hn. auto.
Qed.
Lemma update_keep h a c0 c z c1 : cell_at h a c0 -> c_kids c = c_kids c0 -> cell_at h z c1 ->
  exists c', cell_at (update_at a (Some c) h) z c' /\ c_kids c' = c_kids c1.
Proof.
  intros Ha E Hz. unfold cell_at in *. destruct (Nat.eq_dec z a) as [->|Hn].
  - rewrite Ha in Hz. injection Hz as <-. exists c. rewrite nth_upd_same by (eapply nth_lt; exact Ha). auto.
  - exists c1. rewrite nth_upd by exact Hn. auto.
Qed.
Lemma update_dead h a c0 o z : cell_at h a c0 -> nth_error h z = Some None -> nth_error (update_at a o h) z = Some None.
Proof. intros Ha Hz. rewrite nth_upd; [exact Hz|]. intros ->. unfold cell_at in Ha. congruence. Qed.

Lemma exec_facts {C} (q : prim B C) h x h' : exec q h = Ok (x, h') -> facts q h x h'.
Proof.
  destruct q as [a|a b ks|b ks|a|a|a|a]; cbn; intros E.
  - unfold load in E. destruct (nth_error h a) as [[c|]|] eqn:Ea; try discriminate. injection E as <- <-.
    split; cbn; eauto; try discriminate; try (now intros ? []).
    + eapply nth_lt; exact Ea.
    + intros a0 E0. injection E0 as <-. now exists c.
  - unfold mbind, load, store in E. destruct (nth_error h a) as [[c|]|] eqn:Ea; try discriminate.
    rewrite Ea in E. injection E as <- <-.
    assert (Hl : a < length h) by (eapply nth_lt; exact Ea).
    split; cbn; try discriminate; try (now intros ? []); auto.
    + intros z c1 Hz. destruct (Nat.eq_dec z a) as [->|Hn]; [now left|right].
      exists c1. unfold cell_at. rewrite nth_upd by exact Hn. auto.
    + intros z c' Hz. left. destruct (update_cell _ _ _ _ _ _ Ea Hz) as [[-> _]|[_ Hz']]; eauto.
    + intros z Hz. eapply update_dead; eauto.
    + rewrite length_upd. lia.
    + rewrite length_upd. exact Hl.
    + intros a0 E0. injection E0 as <-. now exists c.
    + intros z c' Hz _. destruct (update_cell _ _ _ _ _ _ Ea Hz) as [[-> ->]|[_ Hz']]; [exists c; auto|eauto].
  - unfold new in E. injection E as <- <-. split; cbn; try discriminate; auto.
    + intros z c1 Hz. right. exists c1. split; [|reflexivity]. unfold cell_at. rewrite nth_error_app1; [exact Hz|eapply nth_lt; exact Hz].
    + intros z c' Hz. destruct (nth_snoc _ _ _ _ Hz) as [[_ H]|[-> _]]; [left; now exists c'|right; reflexivity].
    + intros z Hz. now apply nth_old.
    + rewrite app_length. cbn. lia.
    + rewrite app_length. cbn. lia.
    + intros z c' Hz [Hn|Hn]; [|discriminate]. destruct (nth_snoc _ _ _ _ Hz) as [[_ H]|[-> _]]; [now exists c'|now destruct Hn].
  - unfold free in E. destruct (nth_error h a) as [[c|]|] eqn:Ea; try discriminate. injection E as <- <-.
    assert (Hl : a < length h) by (eapply nth_lt; exact Ea).
    assert (Hu : forall z c', cell_at (update_at a None h) z c' -> cell_at h z c').
    { intros z c' Hz. unfold cell_at in *. destruct (Nat.eq_dec z a) as [->|Hn].
      - rewrite nth_upd_same in Hz by exact Hl. discriminate.
      - now rewrite nth_upd in Hz by exact Hn. }
    split; cbn; try discriminate; try (now intros ? []); auto.
    + intros z c1 Hz. destruct (Nat.eq_dec z a) as [->|Hn]; [now left|right].
      exists c1. unfold cell_at. rewrite nth_upd by exact Hn. auto.
    + intros z c' Hz. left. exists c'. now apply Hu.
    + intros z Hz. eapply update_dead; eauto.
    + rewrite length_upd. lia.
    + now apply nth_upd_same.
    + rewrite length_upd. exact Hl.
    + intros a0 E0. injection E0 as <-. now exists c.
    + intros z c' Hz _. exists c'. split; [now apply Hu|reflexivity].
  - unfold inc, mbind, load, store in E. destruct (nth_error h a) as [[c|]|] eqn:Ea; try discriminate.
    rewrite Ea in E. injection E as <- <-.
    assert (Hl : a < length h) by (eapply nth_lt; exact Ea).
    split; cbn; try discriminate; try (now intros ? []); auto.
    + intros z c1 Hz. right. eapply update_keep; eauto.
    + intros z c' Hz. left. destruct (update_cell _ _ _ _ _ _ Ea Hz) as [[-> _]|[_ Hz']]; eauto.
    + intros z Hz. eapply update_dead; eauto.
    + rewrite length_upd. lia.
    + rewrite length_upd. exact Hl.
    + intros a0 E0. injection E0 as <-. now exists c.
    + intros z c' Hz [Hn|Hn]; [|discriminate]. destruct (update_cell _ _ _ _ _ _ Ea Hz) as [[-> ->]|[_ Hz']]; [now destruct Hn|eauto].
    + exists c. split; [exact Ea|]. unfold count_in. now rewrite nth_upd_same.
  - unfold dec, mbind, load in E. destruct (nth_error h a) as [[c|]|] eqn:Ea; try discriminate.
    destruct (c_rc c) as [|n] eqn:Ec; [discriminate|]. unfold store in E. rewrite Ea in E. injection E as <- <-.
    assert (Hl : a < length h) by (eapply nth_lt; exact Ea).
    assert (Hc : count_in (update_at a (Some (mkCell n (c_body c) (c_kids c))) h) a = n) by (unfold count_in; now rewrite nth_upd_same).
    split; cbn; try discriminate; try (now intros ? []); auto.
    + intros z c1 Hz. right. eapply update_keep; eauto.
    + intros z c' Hz. left. destruct (update_cell _ _ _ _ _ _ Ea Hz) as [[-> _]|[_ Hz']]; eauto.
    + intros z Hz. eapply update_dead; eauto.
    + rewrite length_upd. lia.
    + rewrite length_upd. exact Hl.
    + intros a0 E0. injection E0 as <-. now exists c.
    + intros z c' Hz [Hn|Hn]; [|discriminate]. destruct (update_cell _ _ _ _ _ _ Ea Hz) as [[-> ->]|[_ Hz']]; [now destruct Hn|eauto].
    + exists c. split; [exact Ea|]. rewrite Hc, Ec. reflexivity.
    + intros _ Hz. rewrite Hc in Hz. subst n. auto.
  - unfold unique, mbind, load in E. destruct (nth_error h a) as [[c|]|] eqn:Ea; try discriminate. injection E as <- <-.
    split; cbn; eauto; try discriminate; try (now intros ? []).
    + eapply nth_lt; exact Ea.
    + intros a0 E0. injection E0 as <-. now exists c.
Qed.

(** ** Who gets at what *)
Lemma in_Ls gs y : In y (Ls gs) <-> exists k g, nth_error gs k = Some g /\ In y (fst g).
Proof.
  unfold Ls. rewrite in_flat_map. split.
  - intros (g & Hg & Hy). apply In_nth_error in Hg as (k & Hk). eauto.
  - intros (k & g & Hk & Hy). exists g. split; [eapply nth_error_In; exact Hk|exact Hy].
Qed.
Lemma incl_Rs gs k g : nth_error gs k = Some g -> incl (G ++ snd g) (G ++ Rs gs).
Proof.
  intros Hk y Hy. apply in_app_or in Hy as [Hy|Hy]; apply in_or_app; [now left|right].
  apply in_flat_map. exists g. split; [eapply nth_error_In; exact Hk|exact Hy].
Qed.
Lemma cov_live gs h k g y : st (Ls gs) h (G ++ Rs gs) -> nth_error gs k = Some g -> cov (fst g) (snd g) h y ->
  exists c, cell_at h y c.
Proof.
  intros S Hk [Hy|Hy].
  - destruct S as (_ & Fl & _). rewrite Forall_forall in Fl. apply Fl, in_Ls. eauto.
  - eapply st_from_live; [exact S|]. eapply from_incl; [eapply incl_Rs; exact Hk|exact Hy].
Qed.
Lemma from_out gs h k g y : st (Ls gs) h (G ++ Rs gs) -> nth_error gs k = Some g -> from (G ++ snd g) h y -> ~ In y (Ls gs).
Proof. intros S Hk Hy. eapply st_from_out; [exact S|]. eapply from_incl; [eapply incl_Rs; exact Hk|exact Hy]. Qed.
Lemma local_only gs h i gi k gk y : st (Ls gs) h (G ++ Rs gs) -> nth_error gs i = Some gi -> nth_error gs k = Some gk ->
  In y (fst gi) -> cov (fst gk) (snd gk) h y -> k = i.
Proof.
  intros S Hi Hk Hy [Hy'|Hy'].
  - destruct (Nat.eq_dec k i) as [E|Hn]; [exact E|exfalso].
    pose proof (st_mine G gs i gi h Hi S) as (_ & _ & N).
    destruct (incl_without i k gs gk Hk) as [I _]; [auto|]. apply I in Hy'.
    apply in_split in Hy as (u & w & E). rewrite E in N. rewrite <- app_assoc in N. cbn in N.
    apply NoDup_remove_2 in N. apply N. rewrite !in_app_iff. auto.
  - exfalso. apply (from_out _ _ _ _ _ S Hk Hy'). apply in_Ls. eauto.
Qed.
Lemma reach_out gs h y c x : st (Ls gs) h (G ++ Rs gs) -> ~ In y (Ls gs) -> cell_at h y c -> reaches h y x ->
  ~ In x (Ls gs) /\ exists c', cell_at h x c'.
Proof.
  intros (Gd & _) Hy Hc Hp. assert (H : exists c', cell_at (wipe (Ls gs) h) x c').
  { induction Hp as [|z cz b Hp IH Hz Hb]; [exists c; unfold cell_at; now rewrite wipe_out|].
    destruct IH as (c1 & H1). destruct (wipe_cell _ _ _ _ H1) as [_ H2]. unfold cell_at in H2, Hz. rewrite Hz in H2. injection H2 as <-.
    eapply good_live; [exact Gd|]. eapply refs_kid; [exact H1|exact Hb]. }
  destruct H as (c' & H). destruct (wipe_cell _ _ _ _ H). eauto.
Qed.

(** ** The invariant *)
(** The event [m] is known to a thread that still gets at [x], or was released with a
    reference through which others do. *)
Definition wit gs h tr (m x : nat) : Prop :=
  (exists k g, nth_error gs k = Some g /\ cov (fst g) (snd g) h x /\ known tr k m) \/
  (exists y c, ~ In y (Ls gs) /\ cell_at h y c /\ reaches h y x /\ released tr y m).
(** Events after which no other thread gets at the block; increments from one. *)
Definition owning (e : event) : bool :=
  changes (e_kind e) || match e_kind e with EDown => e_count e =? 0 | _ => false end.
Definition splits (e : event) : bool := match e_kind e with EUp => e_count e =? 2 | _ => false end.
(** An event that changes the count of [a], not before [s]. *)
Definition newer tr (s a : nat) (P : nat -> Prop) : Prop :=
  exists s' e', s <= s' /\ nth_error tr s' = Some e' /\ e_block e' = a /\ counts (e_kind e') = true /\ P s'.

Record oinv (h0 : heap) gs h tr : Prop := mkOinv {
  o_len : forall m e, nth_error tr m = Some e -> e_block e < length h;
  o_wit : forall m e, nth_error tr m = Some e -> wit gs h tr m (e_block e) \/ nth_error h (e_block e) = Some None;
  o_own : forall m e k g, nth_error tr m = Some e -> owning e = true -> k <> e_thread e -> nth_error gs k = Some g ->
            ~ cov (fst g) (snd g) h (e_block e);
  o_tok : forall s e k g, nth_error tr s = Some e -> splits e = true -> nth_error gs k = Some g ->
            In (e_block e) (snd g) -> newer tr s (e_block e) (known tr k);
  o_kid : forall s e y c, nth_error tr s = Some e -> splits e = true -> ~ In y (Ls gs) -> cell_at h y c ->
            In (e_block e) (c_kids c) -> newer tr s (e_block e) (fun s' => wit gs h tr s' y);
  o_cnt : forall a c, cell_at h a c -> c_rc c = count_at h0 tr a (length tr);
  o_new : forall a, length h <= a -> count_at h0 tr a (length tr) = 0;
  o_val : forall m e, nth_error tr m = Some e ->
            match e_kind e with
            | ENew => count_at h0 tr (e_block e) m = 0
            | EUp => e_count e = S (count_at h0 tr (e_block e) m)
            | EDown => S (e_count e) = count_at h0 tr (e_block e) m
            | _ => True
            end;
  o_ord : ordered tr }.

Lemma local_wit gs h tr i g m x : st (Ls gs) h (G ++ Rs gs) -> nth_error gs i = Some g -> In x (fst g) ->
  wit gs h tr m x -> known tr i m.
Proof.
  intros S Hi Hx [(k & gk & Hk & Hc & Hm)|(y & c & Hy & Hc & Hp & _)].
  - rewrite <- (local_only _ _ _ _ _ _ _ S Hi Hk Hx Hc). exact Hm.
  - exfalso. destruct (reach_out _ _ _ _ _ S Hy Hc Hp) as [Hn _]. apply Hn, in_Ls. eauto.
Qed.
(** Nobody else gets at a block with one reference when that is a thread's own. *)
Lemma sole_token gs h i gi k gk a c : st (Ls gs) h (G ++ Rs gs) -> nth_error gs i = Some gi -> nth_error gs k = Some gk ->
  cell_at h a c -> c_rc c = 1 -> In a (snd gk) -> cov (fst gi) (snd gi) h a -> i = k.
Proof.
  intros S Hi Hk Hc E Ha Hv. destruct (Nat.eq_dec i k) as [Ei|Hn]; [exact Ei|exfalso].
  destruct Hv as [Hv|Hv].
  { pose proof (local_only _ _ _ _ _ _ _ S Hi Hk Hv (or_intror (from_R G _ h _ Ha))). congruence. }
  pose proof (from_out _ _ _ _ _ S Hk (from_R G _ h _ Ha)) as Ho.
  assert (Hw : cell_at (wipe (Ls gs) h) a c) by (unfold cell_at; now rewrite wipe_out).
  pose proof S as ((Gd & _) & _). specialize (Gd a). unfold cell_at in Hw. rewrite Hw in Gd. destruct Gd as [Gd _].
  rewrite E in Gd. unfold refs in Gd. rewrite occ_app in Gd.
  pose proof (Rs_split gs k gk gk a Hk) as Er. rewrite (upd_same _ _ _ Hk) in Er.
  apply occ_in in Ha. destruct Hv as (r & Hr & Hp). inversion Hp as [|z cz b Hz Hcz Hb]; subst.
  - apply in_app_or in Hr as [Hr|Hr]; [apply occ_in in Hr; lia|].
    destruct (incl_without k i gs gi Hi) as [_ I]; [auto|]. apply I in Hr. apply occ_in in Hr. lia.
  - assert (Hzo : ~ In z (Ls gs)) by (eapply (from_out gs h i gi); [exact S|exact Hi|exists r; auto]).
    assert (Hzw : cell_at (wipe (Ls gs) h) z cz) by (unfold cell_at; now rewrite wipe_out).
    pose proof (total_nth (okids a) _ _ _ Hzw) as Ht. cbn in Ht. apply occ_in in Hb. lia.
Qed.
Lemma sole_parent gs h i gi a c y cy : st (Ls gs) h (G ++ Rs gs) -> nth_error gs i = Some gi ->
  cell_at h a c -> c_rc c = 1 -> ~ In y (Ls gs) -> cell_at h y cy -> In a (c_kids cy) ->
  cov (fst gi) (snd gi) h a -> cov (fst gi) (snd gi) h y.
Proof.
  intros S Hi Hc E Hy Hcy Ha Hv.
  assert (Hao : ~ In a (Ls gs)).
  { apply (reach_out gs h y cy a S Hy Hcy). eapply reaches_kid; [constructor|exact Hcy|exact Ha]. }
  destruct Hv as [Hv|Hv]; [exfalso; apply Hao, in_Ls; eauto|].
  assert (Hw : cell_at (wipe (Ls gs) h) a c) by (unfold cell_at; now rewrite wipe_out).
  pose proof S as ((Gd & _) & _). specialize (Gd a). unfold cell_at in Hw. rewrite Hw in Gd. destruct Gd as [Gd _].
  rewrite E in Gd. unfold refs in Gd. rewrite occ_app in Gd.
  assert (Hyw : cell_at (wipe (Ls gs) h) y cy) by (unfold cell_at; now rewrite wipe_out).
  apply occ_in in Ha. destruct Hv as (r & Hr & Hp). inversion Hp as [|z cz b Hz Hcz Hb]; subst.
  - exfalso. pose proof (total_nth (okids a) _ _ _ Hyw) as Ht. cbn in Ht.
    apply (incl_Rs gs i gi Hi) in Hr. apply occ_in in Hr. rewrite occ_app in Hr. lia.
  - assert (Hzo : ~ In z (Ls gs)) by (eapply (from_out gs h i gi); [exact S|exact Hi|exists r; auto]).
    assert (Hzw : cell_at (wipe (Ls gs) h) z cz) by (unfold cell_at; now rewrite wipe_out).
    destruct (Nat.eq_dec z y) as [<-|Hn]; [right; exists r; auto|exfalso].
    pose proof (total_nth2 (okids a) _ _ _ _ _ Hn Hzw Hyw) as Ht. cbn in Ht. apply occ_in in Hb. lia.
Qed.

(** ** One step *)
Section Step.
Variables (gs : list ghost) (h : heap) (tr : list event) (i : nat) (C : Type) (q : prim B C) (x : C) (h' : heap).
Variables (g : ghost) (L1 R1 L' R' : list nat) (v : event).
Hypothesis S : st (Ls gs) h (G ++ Rs gs).
Hypothesis Eg : nth_error gs i = Some g.
Hypothesis S1 : st (Ls (update_at i (L1, R1) gs)) h (G ++ Rs (update_at i (L1, R1) gs)).
Hypothesis Sh : shift G (fst g) (snd g) h L1 R1.
Hypothesis Ac : acc G q L1 R1 h.
Hypothesis Lg : legal G q x (fst g) (snd g) h L' R' h'.
Hypothesis Rl : rely (Ls (without i gs)) (G ++ Rs (without i gs)) h h'.
Hypothesis S' : st (Ls (update_at i (L', R') gs)) h' (G ++ Rs (update_at i (L', R') gs)).
Hypothesis Fx : facts q h x h'.
Hypothesis Vt : e_thread v = i.
Hypothesis Vk : e_kind v = kind_of q.
Hypothesis Vb : e_block v = block_of q x.
Hypothesis Vc : counts (kind_of q) = true -> e_count v = count_in h' (block_of q x).
Hypothesis Vs : forall a, taken q x a -> e_seen v = length tr \/
  (forall d f, nth_error tr d = Some f -> e_kind f = EDown -> e_block f = a -> d < e_seen v).
Notation gs' := (update_at i (L', R') gs).
Notation tr' := (tr ++ [v]).

Lemma len_i : i < length gs.
Proof. eapply nth_lt; exact Eg. Qed.
Lemma new_i : nth_error gs' i = Some (L', R').
Proof. apply nth_upd_same, len_i. Qed.
Lemma one_i : nth_error (update_at i (L1, R1) gs) i = Some (L1, R1).
Proof. apply nth_upd_same, len_i. Qed.
Lemma new_k k : k <> i -> nth_error gs' k = nth_error gs k.
Proof. intros H. now rewrite nth_upd. Qed.
Lemma out_i y : ~ In y (Ls gs') <-> ~ In y L' /\ ~ In y (Ls (without i gs)).
Proof.
  pose proof (Ls_split gs i g (L', R') Eg) as P. cbn [fst] in P. split.
  - intros H. split; intros Hy; apply H; eapply Permutation_in; try (symmetry; exact P); apply in_or_app; auto.
  - intros [H1 H2] Hy. apply (Permutation_in _ P) in Hy. apply in_app_or in Hy as [Hy|Hy]; auto.
Qed.
Lemma out_old y : ~ In y (Ls gs) <-> ~ In y (fst g) /\ ~ In y (Ls (without i gs)).
Proof.
  pose proof (Ls_split gs i g g Eg) as P. rewrite (upd_same _ _ _ Eg) in P. split.
  - intros H. split; intros Hy; apply H; eapply Permutation_in; try (symmetry; exact P); apply in_or_app; auto.
  - intros [H1 H2] Hy. apply (Permutation_in _ P) in Hy. apply in_app_or in Hy as [Hy|Hy]; auto.
Qed.
Lemma other_cov k gk y : k <> i -> nth_error gs k = Some gk ->
  (cov (fst gk) (snd gk) h y <-> cov (fst gk) (snd gk) h' y).
Proof.
  intros Hn Hk. destruct (incl_without i k gs gk Hk) as [_ I]; [auto|].
  eapply (cov_rely G (fst gk) (Ls (without k gs)) (snd gk) (G ++ Rs (without k gs))).
  - apply incl_appl, incl_refl.
  - now apply st_mine.
  - eapply rely_incl; [apply incl_refl| |exact Rl]. intros z Hz. apply in_app_or in Hz as [Hz|Hz]; apply in_or_app; auto.
Qed.
(** The block that is accessed. *)
Lemma target_cov a : target q = Some a -> cov (fst g) (snd g) h a.
Proof.
  intros Ht. apply (s_cov _ _ _ _ _ _ Sh). pose proof (proj1 Ac a Ht) as H. destruct (writes q); [now left|exact H].
Qed.
Lemma write_local a : writes q = true -> target q = Some a -> In a (fst g).
Proof. intros Hw Ht. apply (s_loc _ _ _ _ _ _ Sh). pose proof (proj1 Ac a Ht) as H. now rewrite Hw in H. Qed.
Lemma target_block a : target q = Some a -> block_of q x = a.
Proof. destruct q; cbn; try discriminate; intros E; now injection E. Qed.
(** Blocks outside keep their contents. *)
Lemma out_keep y c : ~ In y (Ls gs) -> cell_at h y c -> exists c', cell_at h' y c' /\ c_kids c' = c_kids c.
Proof.
  intros Hy Hc. destruct (f_keep _ _ _ _ Fx _ _ Hc) as [[Hw Ht]|H]; [exfalso|exact H].
  apply Hy, in_Ls. exists i, g. split; [exact Eg|]. now apply write_local.
Qed.
Lemma out_reaches y c z : ~ In y (Ls gs) -> cell_at h y c -> reaches h y z -> reaches h' y z.
Proof.
  intros Hy Hc Hp. induction Hp as [|w cw b Hp IH Hw Hb]; [constructor|].
  destruct (reach_out _ _ _ _ _ S Hy Hc Hp) as [Hwo _]. destruct (out_keep _ _ Hwo Hw) as (c' & Hc' & E).
  eapply reaches_kid; [exact IH|exact Hc'|now rewrite E].
Qed.
Lemma cov_reaches L R (H : heap) y z : ~ In y L -> cov L R H y -> reaches H y z -> cov L R H z.
Proof.
  intros Hn [Hy|Hy] Hp; [contradiction|]. right. destruct Hy as (r & Hr & Hp'). exists r. split; [exact Hr|]. eapply reaches_trans; eauto.
Qed.
Lemma keep_reaches a z : writes q = false -> reaches h a z -> reaches h' a z.
Proof.
  intros Hw Hp. induction Hp as [|w cw b Hp IH Hc Hb]; [constructor|].
  destruct (f_keep _ _ _ _ Fx _ _ Hc) as [[Hw' _]|(c' & Hc' & E)]; [congruence|].
  eapply reaches_kid; [exact IH|exact Hc'|now rewrite E].
Qed.
(** What the thread no longer gets at after it gave a reference up. *)
Lemma lost_wit m z : lost q h x z -> known tr i m \/ m = length tr ->
  wit gs' h' tr' m z \/ nth_error h' z = Some None.
Proof.
  intros Hl Hm. pose proof (f_free _ _ _ _ Fx) as Ff.
  assert (Hd : q = q -> (exists a, let_go q x a /\ reaches h a z) -> wit gs' h' tr' m z \/ nth_error h' z = Some None).
  { intros _ (a & Ha & Hp). left. right.
    assert (Hq : kind_of q = EDown /\ target q = Some a /\ writes q = false /\ block_of q x = a /\ asks q a).
    { clear - Ha. destruct q; cbn in *; try contradiction. destruct Ha as [_ ->]. auto. }
    destruct Hq as (Hk & Ht & Hw & Hb & Hq).
    destruct (f_live _ _ _ _ Fx _ Ht) as (c & Hc).
    destruct (f_keep _ _ _ _ Fx _ _ Hc) as [[Hw' _]|(c' & Hc' & _)]; [congruence|].
    exists a, c'. split; [|split; [exact Hc'|split; [now apply keep_reaches|]]].
    - apply out_i. split; [exact (l_out _ _ _ _ _ _ _ _ _ Lg a Ha)|].
      intros Hi. pose proof (proj2 Ac a Hq) as HR.
      pose proof (from_out _ _ _ _ _ S1 one_i (from_R G _ h a HR)) as Ho. apply Ho.
      eapply Permutation_in; [symmetry; exact (Ls_split gs i g (L1, R1) Eg)|]. apply in_or_app. now right.
    - rewrite <- Hb, <- Vb. apply released_last; [congruence|]. rewrite Vt. tauto. }
  unfold lost in Hl. clear - Hl Ff Hd. destruct q; try (apply Hd; [reflexivity|exact Hl]). subst z. now right.
Qed.
Lemma step_wit m z : wit gs h tr m z -> wit gs' h' tr' m z \/ nth_error h' z = Some None.
Proof.
  intros [(k & gk & Hk & Hc & Hm)|(y & c & Hy & Hc & Hp & Hr)].
  - destruct (Nat.eq_dec k i) as [->|Hn].
    + rewrite Eg in Hk. injection Hk as <-. destruct (l_cov _ _ _ _ _ _ _ _ _ Lg z Hc) as [Hc'|Hl].
      * left. left. exists i, (L', R'). split; [exact new_i|]. split; [exact Hc'|]. now apply known_old.
      * apply lost_wit; auto.
    + left. left. exists k, gk. split; [now rewrite new_k|]. split; [now apply (other_cov k)|now apply known_old].
  - destruct (in_dec Nat.eq_dec y L') as [Hi|Hi].
    + left. left. exists i, (L', R'). split; [exact new_i|]. cbn [fst snd].
      destruct (l_loc _ _ _ _ _ _ _ _ _ Lg y Hi) as [Hy'|[Ht|Hmd]].
      * exfalso. apply Hy, in_Ls. eauto.
      * assert (Hq : target q = Some y /\ block_of q x = y /\ acquires (kind_of q) = true /\ forall w, ~ lost q h x w).
        { clear - Ht. destruct q; cbn in *; try contradiction; destruct Ht as [-> ->]; (split; [reflexivity|]); (split; [reflexivity|]); (split; [reflexivity|]).
          - intros w (b & [Hf _] & _). discriminate.
          - intros w (b & [] & _). }
        destruct Hq as (Hq & Hb & Ha & Hnl). split.
        -- assert (Hcy : cov (fst g) (snd g) h y) by now apply target_cov.
           assert (Hcz : cov (fst g) (snd g) h z).
           { eapply cov_reaches; [|exact Hcy|exact Hp]. intros Hi'. apply Hy, in_Ls. eauto. }
           destruct (l_cov _ _ _ _ _ _ _ _ _ Lg z Hcz) as [H|H]; [exact H|now apply Hnl in H].
        -- rewrite <- Vt. apply acquire; [now rewrite Vk| |].
           ++ rewrite Vb, Hb. exact (Vs y Ht).
           ++ rewrite Vb, Hb. exact Hr.
      * exfalso. apply (f_made _ _ _ _ Fx) in Hmd. subst y. apply nth_lt in Hc. lia.
    + left. right. destruct (out_keep _ _ Hy Hc) as (c' & Hc' & _). exists y, c'.
      split; [apply out_i; split; [exact Hi|]; now apply out_old|]. split; [exact Hc'|].
      split; [eapply out_reaches; eauto|now apply released_old].
Qed.

(** *** Counts *)
Lemma count_at_old h0 a t : t <= length tr -> count_at h0 tr' a t = count_at h0 tr a t.
Proof. intros H. unfold count_at. rewrite firstn_app. replace (t - length tr) with 0 by lia. cbn. now rewrite app_nil_r. Qed.
Lemma count_at_last h0 a : count_at h0 tr' a (length tr') =
  if (e_block v =? a) && counts (e_kind v) then e_count v else count_at h0 tr a (length tr).
Proof. unfold count_at. rewrite !firstn_all, fold_left_app. reflexivity. Qed.

Lemma made_block : made q x (block_of q x) \/ target q = Some (block_of q x).
Proof. destruct q; cbn; auto. Qed.
Lemma newer_old s a (P Q : nat -> Prop) : newer tr s a P -> (forall m, P m -> Q m) -> newer tr' s a Q.
Proof.
  intros (s' & e' & H1 & H2 & H3 & H4 & H5) H. exists s', e'. split; [exact H1|]. split; [now apply nth_old|]. auto.
Qed.
Lemma newer_last a (Q : nat -> Prop) : counts (e_kind v) = true -> e_block v = a -> Q (length tr) -> newer tr' (length tr) a Q.
Proof. intros Hc Hb HQ. exists (length tr), v. split; [lia|]. split; [apply nth_last|]. auto. Qed.

Variable h0 : heap.
Hypothesis O : oinv h0 gs h tr.

Lemma local_known m e : nth_error tr m = Some e -> In (e_block e) (fst g) -> known tr i m.
Proof.
  intros Hm Hi. destruct (o_wit _ _ _ _ O _ _ Hm) as [W|D].
  - exact (local_wit gs h tr i g m _ S Eg Hi W).
  - exfalso. destruct (cov_live _ _ _ _ (e_block e) S Eg (or_introl Hi)) as (c & Hc). unfold cell_at in Hc. congruence.
Qed.
Lemma tok_known s e : nth_error tr s = Some e -> splits e = true -> In (e_block e) (snd g) \/ In (e_block e) (fst g) ->
  newer tr s (e_block e) (known tr i).
Proof.
  intros Hs Hp [Hi|Hi]; [eapply o_tok; eauto|].
  exists s, e. split; [lia|]. split; [exact Hs|]. split; [reflexivity|]. split.
  - unfold splits in Hp. destruct (e_kind e); try discriminate. reflexivity.
  - eapply local_known; eauto.
Qed.
Lemma fresh_event m e : nth_error tr m = Some e -> ~ made q x (e_block e).
Proof. intros Hm Hd. apply (f_made _ _ _ _ Fx) in Hd. apply (o_len _ _ _ _ O) in Hm. lia. Qed.
Lemma live_dead (H : heap) y c : cell_at H y c -> nth_error H y = Some None -> False.
Proof. unfold cell_at. congruence. Qed.

Lemma step_inv : oinv h0 gs' h' tr'.
Proof.
  split.
  - intros m e Hm. destruct (nth_snoc _ _ _ _ Hm) as [[_ H]|[_ ->]].
    + apply (o_len _ _ _ _ O) in H. pose proof (f_len _ _ _ _ Fx). lia.
    + rewrite Vb. apply (f_blk _ _ _ _ Fx).
  - intros m e Hm. destruct (nth_snoc _ _ _ _ Hm) as [[_ H]|[-> ->]].
    + destruct (o_wit _ _ _ _ O _ _ H) as [W|D]; [now apply step_wit|right; now apply (f_dead _ _ _ _ Fx)].
    + rewrite Vb. assert (Hk : known tr' i (length tr)) by (rewrite <- Vt; apply known_last).
      destruct made_block as [Hd|Ht].
      * left. left. exists i, (L', R'). split; [exact new_i|]. split; [exact (l_mine _ _ _ _ _ _ _ _ _ Lg _ Hd)|exact Hk].
      * apply target_cov in Ht. destruct (l_cov _ _ _ _ _ _ _ _ _ Lg _ Ht) as [H|H].
        -- left. left. exists i, (L', R'). auto using new_i.
        -- apply lost_wit; auto.
  - intros m e k gk Hm Hw Hk Egk Hc. destruct (nth_snoc _ _ _ _ Hm) as [[_ H]|[-> ->]].
    + destruct (Nat.eq_dec k i) as [->|Hn].
      * rewrite new_i in Egk. injection Egk as <-. cbn [fst snd] in Hc.
        destruct (l_new _ _ _ _ _ _ _ _ _ Lg _ Hc) as [Hc'|Hd]; [|exact (fresh_event _ _ H Hd)].
        exact (o_own _ _ _ _ O _ _ _ _ H Hw Hk Eg Hc').
      * rewrite new_k in Egk by exact Hn. apply (other_cov k gk) in Hc; [|exact Hn|exact Egk].
        exact (o_own _ _ _ _ O _ _ _ _ H Hw Hk Egk Hc).
    + rewrite Vt in Hk. pose proof Egk as Egk'. rewrite new_k in Egk by exact Hk.
      rewrite Vb in Hc. unfold owning in Hw. rewrite Vk in Hw.
      assert (Hloc : In (block_of q x) L' -> False).
      { intros Hi. apply Hk. eapply (local_only gs' h' i (L', R') k gk); [exact S'|exact new_i|exact Egk'|exact Hi|exact Hc]. }
      pose proof (cov_live _ _ _ _ _ S' Egk' Hc) as (c' & Hc').
      pose proof (l_set _ _ _ _ _ _ _ _ _ Lg) as Ls'. pose proof (f_free _ _ _ _ Fx) as Ff.
      pose proof (f_dec _ _ _ _ Fx) as Fd. pose proof (f_made _ _ _ _ Fx) as Fm.
      apply (other_cov k gk) in Hc; [|exact Hk|exact Egk].
      pose proof (cov_live _ _ _ _ _ S Egk Hc) as (c & Hcc).
      clear - Hw Hloc Hcc Hc' Ls' Ff Fd Fm Vc Lg.
      destruct q; cbn in *; try discriminate.
      * exact (Hloc Ls').
      * rewrite (Fm x eq_refl) in Hcc. apply nth_lt in Hcc. lia.
      * exact (live_dead _ _ _ Hc' Ff).
      * apply Nat.eqb_eq in Hw. rewrite Vc in Hw by reflexivity. apply Hloc, (l_take _ _ _ _ _ _ _ _ _ Lg). cbn.
        now apply Fd.
  - intros s e k gk Hs Hp Egk Hi. destruct (nth_snoc _ _ _ _ Hs) as [[_ H]|[-> ->]].
    + destruct (Nat.eq_dec k i) as [->|Hn].
      * rewrite new_i in Egk. injection Egk as <-. cbn [snd] in Hi.
        assert (Hold : In (e_block e) (snd g) \/ In (e_block e) (fst g) -> newer tr' s (e_block e) (known tr' i)).
        { intros Ho. eapply newer_old; [exact (tok_known _ _ H Hp Ho)|]. intros m. apply known_old. }
        destruct (l_tok _ _ _ _ _ _ _ _ _ Lg _ Hi) as [Ho|[Ho|[Hb|[Hd|(y & c & Ht & Hc & Hkid)]]]].
        -- auto.
        -- auto.
        -- exists (length tr), v. assert (Hq : counts (kind_of q) = true /\ block_of q x = e_block e).
           { clear - Hb. destruct q; cbn in *; try contradiction. auto. }
           split; [|split; [apply nth_last|split; [now rewrite Vb|split; [now rewrite Vk|rewrite <- Vt; apply known_last]]]].
           apply Nat.lt_le_incl, nth_error_Some. congruence.
        -- now apply fresh_event in H.
        -- pose proof (l_take _ _ _ _ _ _ _ _ _ Lg _ Ht) as Hy'.
           assert (Hq : asks q y) by (clear - Ht; destruct q; cbn in *; try contradiction; now destruct Ht).
           pose proof (proj2 Ac y Hq) as HR.
           pose proof (from_out _ _ _ _ _ S1 one_i (from_R G _ h y HR)) as Hyo.
           destruct (in_dec Nat.eq_dec y (fst g)) as [Hyg|Hyg].
           ++ apply Hold. eapply (s_put _ _ _ _ _ _ Sh y c); [exact Hyg| |exact Hc|exact Hkid].
              intros Hy1. apply Hyo, in_Ls. exists i, (L1, R1). split; [exact one_i|exact Hy1].
           ++ assert (Hyo' : ~ In y (Ls gs)).
              { apply out_old. split; [exact Hyg|]. intros Hi'. apply Hyo.
                eapply Permutation_in; [symmetry; exact (Ls_split gs i g (L1, R1) Eg)|]. apply in_or_app. now right. }
              eapply newer_old; [exact (o_kid _ _ _ _ O _ _ _ _ H Hp Hyo' Hc Hkid)|].
              intros m W. apply step_wit in W as [W|D].
              ** eapply local_wit; [exact S'|exact new_i|exact Hy'|exact W].
              ** exfalso. destruct (cov_live _ _ _ _ y S' new_i (or_introl Hy')) as (c' & Hc'). exact (live_dead _ _ _ Hc' D).
      * rewrite new_k in Egk by exact Hn. eapply newer_old; [exact (o_tok _ _ _ _ O _ _ _ _ H Hp Egk Hi)|].
        intros m. apply known_old.
    + unfold splits in Hp. rewrite Vk in Hp.
      assert (Hcn : counts (e_kind v) = true) by (rewrite Vk; destruct (kind_of q); try discriminate; reflexivity).
      apply newer_last; [exact Hcn|reflexivity|].
      destruct (Nat.eq_dec k i) as [->|Hn]; [rewrite <- Vt; apply known_last|exfalso].
      rewrite new_k in Egk by exact Hn. rewrite Vb in Hi.
      pose proof (f_val _ _ _ _ Fx) as Fv. destruct (kind_of q) eqn:Eq; try discriminate.
      destruct Fv as (c & Hc & Hv). rewrite Vc in Hp by reflexivity. apply Nat.eqb_eq in Hp.
      apply Hn. symmetry. eapply (sole_token (update_at i (L1, R1) gs) h i (L1, R1) k gk _ c).
      * exact S1.
      * exact one_i.
      * rewrite nth_upd; auto.
      * exact Hc.
      * lia.
      * exact Hi.
      * apply (s_cov _ _ _ _ _ _ Sh). apply target_cov. clear - Eq. destruct q; cbn in *; try discriminate. reflexivity.
  - intros s e y c' Hs Hp Hyo Hc' Hkid. apply out_i in Hyo as [Hy1 Hy2]. destruct (nth_snoc _ _ _ _ Hs) as [[_ H]|[-> ->]].
    + assert (Hold : In (e_block e) (snd g) \/ In (e_block e) (fst g) ->
         (forall m, known tr i m -> wit gs' h' tr' m y) -> newer tr' s (e_block e) (fun s' => wit gs' h' tr' s' y)).
      { intros Ho Hw. eapply newer_old; [exact (tok_known _ _ H Hp Ho)|exact Hw]. }
      destruct (f_back _ _ _ _ Fx _ _ Hc') as [(c & Hc)|Hd].
      * destruct (in_dec Nat.eq_dec y (fst g)) as [Hyg|Hyg].
        -- assert (Ek : c_kids c' = c_kids c).
           { destruct (f_keep _ _ _ _ Fx _ _ Hc) as [[Hw Ht]|(c1 & Hc1 & E1)].
             - exfalso. pose proof (l_set _ _ _ _ _ _ _ _ _ Lg) as Ls'. pose proof (f_free _ _ _ _ Fx) as Ff.
               clear - Hw Ht Ls' Ff Hy1 Hc'. destruct q; cbn in *; try discriminate; injection Ht as <-; [contradiction|].
               exact (live_dead _ _ _ Hc' Ff).
             - unfold cell_at in Hc', Hc1. rewrite Hc' in Hc1. injection Hc1 as <-. exact E1. }
           rewrite Ek in Hkid. apply Hold.
           ++ eapply (l_put _ _ _ _ _ _ _ _ _ Lg); eauto.
           ++ intros m Hm. destruct (l_cov _ _ _ _ _ _ _ _ _ Lg y (or_introl Hyg)) as [Hv|Hl].
              ** left. exists i, (L', R'). split; [exact new_i|]. split; [exact Hv|now apply known_old].
              ** destruct (lost_wit m y Hl (or_introl Hm)) as [W|D]; [exact W|]. exfalso. exact (live_dead _ _ _ Hc' D).
        -- assert (Hyo : ~ In y (Ls gs)) by (apply out_old; auto).
           destruct (out_keep _ _ Hyo Hc) as (c1 & Hc1 & E1). unfold cell_at in Hc1. pose proof Hc' as Hc2. unfold cell_at in Hc2.
           rewrite Hc1 in Hc2. injection Hc2 as ->. rewrite E1 in Hkid.
           eapply newer_old; [exact (o_kid _ _ _ _ O _ _ _ _ H Hp Hyo Hc Hkid)|].
           intros m W. apply step_wit in W as [W|D]; [exact W|]. exfalso. exact (live_dead _ _ _ Hc' D).
      * apply Hold; [eapply (l_made _ _ _ _ _ _ _ _ _ Lg); eauto|].
        intros m Hm. left. exists i, (L', R'). split; [exact new_i|]. split; [exact (l_mine _ _ _ _ _ _ _ _ _ Lg _ Hd)|now apply known_old].
    + unfold splits in Hp. rewrite Vk in Hp.
      assert (Hcn : counts (e_kind v) = true) by (rewrite Vk; destruct (kind_of q); try discriminate; reflexivity).
      apply newer_last; [exact Hcn|reflexivity|]. rewrite Vb in Hkid.
      assert (Hq : kind_of q = EUp) by (destruct (kind_of q); try discriminate; reflexivity).
      assert (Hq' : target q = Some (block_of q x) /\ writes q = false /\ (forall w, ~ made q x w) /\ forall w, ~ lost q h x w).
      { clear - Hq. destruct q; cbn in *; try discriminate. split; [reflexivity|]. split; [reflexivity|]. split; [intros w []|].
        intros w (b & [] & _). }
      destruct Hq' as (Ht & Hw & Hnm & Hnl).
      pose proof (f_val _ _ _ _ Fx) as Fv. rewrite Hq in *. destruct Fv as (c & Hc & Hv).
      rewrite Vc in Hp by reflexivity. apply Nat.eqb_eq in Hp.
      destruct (f_back _ _ _ _ Fx _ _ Hc') as [(cy & Hcy)|Hd]; [|now apply Hnm in Hd].
      destruct (f_keep _ _ _ _ Fx _ _ Hcy) as [[Hw' _]|(c1 & Hc1 & E1)]; [congruence|].
      assert (c1 = c') as -> by (unfold cell_at in Hc1, Hc'; congruence). rewrite E1 in Hkid.
      left. exists i, (L', R'). split; [exact new_i|]. split; [|rewrite <- Vt; apply known_last].
      assert (Hcov : cov (fst g) (snd g) h y).
      { destruct (in_dec Nat.eq_dec y (fst g)) as [Hyg|Hyg]; [now left|].
        apply (s_cov _ _ _ _ _ _ Sh).
        eapply (sole_parent (update_at i (L1, R1) gs) h i (L1, R1) (block_of q x) c y cy).
        - exact S1.
        - exact one_i.
        - exact Hc.
        - lia.
        - intros Hi. apply (Permutation_in _ (Ls_split gs i g (L1, R1) Eg)) in Hi. apply in_app_or in Hi as [Hi|Hi]; [|contradiction].
          apply Hyg, (s_loc _ _ _ _ _ _ Sh), Hi.
        - exact Hcy.
        - exact Hkid.
        - apply (s_cov _ _ _ _ _ _ Sh). now apply target_cov. }
      destruct (l_cov _ _ _ _ _ _ _ _ _ Lg y Hcov) as [H|H]; [exact H|now apply Hnl in H].
  - intros a c' Hc'. rewrite count_at_last, Vb, Vk.
    destruct (Nat.eqb_spec (block_of q x) a) as [E|E]; destruct (counts (kind_of q)) eqn:Ec; cbn [andb].
    + rewrite Vc by reflexivity. rewrite E. unfold count_in. unfold cell_at in Hc'. now rewrite Hc'.
    + destruct (f_cnt _ _ _ _ Fx _ _ Hc') as (c & Hc & E1); [now right|]. rewrite <- E1. eapply o_cnt; eauto.
    + destruct (f_cnt _ _ _ _ Fx _ _ Hc') as (c & Hc & E1); [left; auto|]. rewrite <- E1. eapply o_cnt; eauto.
    + destruct (f_cnt _ _ _ _ Fx _ _ Hc') as (c & Hc & E1); [left; auto|]. rewrite <- E1. eapply o_cnt; eauto.
  - intros a Ha. rewrite count_at_last, Vb. pose proof (f_blk _ _ _ _ Fx). pose proof (f_len _ _ _ _ Fx).
    destruct (Nat.eqb_spec (block_of q x) a) as [E|E]; [lia|]. cbn [andb]. apply (o_new _ _ _ _ O). lia.
  - intros m e Hm. destruct (nth_snoc _ _ _ _ Hm) as [[Hl H]|[-> ->]].
    + rewrite count_at_old by lia. exact (o_val _ _ _ _ O _ _ H).
    + rewrite count_at_old, Vb, Vk by lia. pose proof (f_val _ _ _ _ Fx) as Fv. destruct (kind_of q) eqn:Eq; try exact I.
      * apply (o_new _ _ _ _ O). assert (Hd : made q x (block_of q x)) by (clear - Eq; destruct q; cbn in *; try discriminate; reflexivity).
        apply (f_made _ _ _ _ Fx) in Hd. lia.
      * destruct Fv as (c & Hc & Hv). rewrite Vc by reflexivity. rewrite Hv. f_equal. eapply o_cnt; eauto.
      * destruct Fv as (c & Hc & Hv). rewrite Vc by reflexivity. rewrite Hv. eapply o_cnt; eauto.
  - intros m j e f Hm Hj Hl Hn Hb Hc. destruct (nth_snoc _ _ _ _ Hj) as [[_ Hj']|[-> ->]].
    + destruct (nth_snoc _ _ _ _ Hm) as [[_ Hm']|[-> _]]; [|apply nth_error_Some in Hm || idtac].
      * apply hb_old. exact (o_ord _ _ _ _ O _ _ _ _ Hm' Hj' Hl Hn Hb Hc).
      * assert (j < length tr) by (apply nth_error_Some; congruence). lia.
    + destruct (nth_snoc _ _ _ _ Hm) as [[_ Hm']|[-> _]]; [|lia].
      apply known_hb. rewrite Vt in *. rewrite Vb in Hb.
      destruct made_block as [Hd|Ht]; [exfalso; rewrite <- Hb in Hd; exact (fresh_event _ _ Hm' Hd)|].
      destruct (changes (e_kind e)) eqn:Ece.
      * exfalso. apply (o_own _ _ _ _ O m e i g Hm').
        -- unfold owning. now rewrite Ece.
        -- auto.
        -- exact Eg.
        -- rewrite Hb. now apply target_cov.
      * cbn in Hc. apply (local_known m e); [exact Hm'|]. rewrite Hb. apply write_local; [|exact Ht].
        rewrite Vk in Hc. clear - Hc Ht. destruct q; cbn in *; try discriminate; reflexivity.
Qed.
End Step.

(** ** Executions *)
Lemma uniq_facts h a c (b : bool) : cell_at h a c -> facts (PUniq a) h b h.
Proof.
  intros Hc. split; cbn; eauto; try discriminate; try (now intros ? []).
  - eapply nth_lt; exact Hc.
  - intros a0 E0. injection E0 as <-. now exists c.
Qed.
(** A count stays the same as long as nothing changes it. *)
Lemma count_at_quiet h0 tr a t : forall m, t <= m -> m <= length tr ->
  (forall j e, t <= j -> j < m -> nth_error tr j = Some e -> e_block e = a -> counts (e_kind e) = true -> False) ->
  count_at h0 tr a m = count_at h0 tr a t.
Proof.
  induction m as [|m IH]; intros H1 H2 H; [now replace t with 0 by lia|].
  destruct (Nat.eq_dec t (S m)) as [->|Hn]; [reflexivity|].
  rewrite <- IH; [|lia|lia|intros j e Hj1 Hj2; apply H; lia].
  destruct (nth_error tr m) as [e|] eqn:Em; [|apply nth_error_None in Em; lia].
  unfold count_at.
  assert (E : firstn (S m) tr = firstn m tr ++ [e]).
  { clear - Em. revert m Em. induction tr as [|y tr IH]; intros [|m] Em; cbn in *; try discriminate.
    - now injection Em as ->.
    - f_equal. now apply IH. }
  rewrite E, fold_left_app. cbn. destruct (Nat.eqb_spec (e_block e) a) as [Eb|Eb]; cbn [andb]; [|reflexivity].
  destruct (counts (e_kind e)) eqn:Ec; [exfalso|reflexivity]. eapply (H m e); eauto; lia.
Qed.
(** A thread with a reference that reads a count of one reads the newest count. *)
Lemma read_one h0 gs h tr i g a t : st (Ls gs) h (G ++ Rs gs) -> oinv h0 gs h tr -> nth_error gs i = Some g ->
  In a (snd g) \/ In a (fst g) -> t <= length tr ->
  (forall m e, t <= m -> nth_error tr m = Some e -> e_block e = a -> counts (e_kind e) = true -> ~ known tr i m) ->
  count_at h0 tr a t = 1 ->
  forall m e, t <= m -> nth_error tr m = Some e -> e_block e = a -> counts (e_kind e) = true -> False.
Proof.
  intros S O Eg Ha Ht Hr Hv m. induction m as [m IH] using (well_founded_induction lt_wf). intros e Hm He Hb Hc.
  assert (Hl : m < length tr) by (eapply nth_lt; exact He).
  assert (E : count_at h0 tr a m = 1).
  { rewrite <- Hv. apply count_at_quiet; [exact Hm|lia|]. intros j f H1 H2. now apply IH. }
  pose proof (o_val _ _ _ _ O _ _ He) as V. rewrite Hb, E in V.
  destruct (e_kind e) eqn:Ek; cbn in Hc; try discriminate.
  - destruct (Nat.eq_dec i (e_thread e)) as [Hi|Hi].
    + apply (Hr m e Hm He Hb); [now rewrite Ek|]. exists m, e. auto.
    + assert (Hp : splits e = true) by (unfold splits; rewrite Ek, V; reflexivity).
      assert (N : newer tr m a (known tr i)).
      { destruct Ha as [Ha|Ha].
        - rewrite <- Hb in *. eapply o_tok; eauto.
        - exists m, e. split; [lia|]. split; [exact He|]. split; [exact Hb|]. split; [now rewrite Ek|].
          rewrite <- Hb in Ha. destruct (o_wit _ _ _ _ O _ _ He) as [W|D]; [exact (local_wit gs h tr i g m _ S Eg Ha W)|].
          exfalso. destruct (cov_live _ _ _ _ (e_block e) S Eg (or_introl Ha)) as (c & Hcc). unfold cell_at in Hcc. congruence. }
      destruct N as (s' & e' & H1 & H2 & H3 & H4 & H5). eapply (Hr s' e'); [lia|exact H2|exact H3|exact H4|exact H5].
  - destruct (Nat.eq_dec i (e_thread e)) as [Hi|Hi].
    + apply (Hr m e Hm He Hb); [now rewrite Ek|]. exists m, e. auto.
    + eapply (o_own _ _ _ _ O m e i g He); [unfold owning; rewrite Ek; cbn; apply Nat.eqb_eq; lia|exact Hi|exact Eg|].
      rewrite Hb. destruct Ha as [Ha|Ha]; [right; now apply from_R|now left].
Qed.

Lemma wstep_ok h0 ps gs h tr s' : pool_ok ps gs h -> oinv h0 gs h tr -> wstep h0 (ps, h, tr) s' ->
  exists ps' h' tr' gs', s' = (ps', h', tr') /\ pool_ok ps' gs' h' /\ oinv h0 gs' h' tr' /\ rely [] G h h'.
Proof.
  intros P O W. inversion W as [ps1 h1 tr1 i C q k x h' Hp E E1 E2|ps1 h1 tr1 i a k t Hp Ht Hr E1 E2]; subst.
  - destruct (nth_error gs i) as [g|] eqn:Eg.
    2:{ apply nth_error_None in Eg. apply nth_lt in Hp. rewrite (p_len _ _ _ _ _ P) in Eg. lia. }
    destruct (pool_can _ _ _ _ _ _ _ _ _ _ P Hp Eg) as ((L1 & R1 & S1 & Sh & Ac) & _ & Cn).
    destruct (Cn x h' (or_introl E)) as (L' & R' & Lg & Rl & P').
    eexists _, _, _, (update_at i (L', R') gs). split; [reflexivity|]. split; [exact P'|]. split.
    + eapply step_inv; [exact (p_st _ _ _ _ _ P)|exact Eg|exact S1|exact Sh|exact Ac|exact Lg|exact Rl|exact (p_st _ _ _ _ _ P')| | | | | | |exact O];
        cbn; auto. now apply exec_facts.
    + eapply rely_incl; [apply incl_nil_l|apply incl_appl, incl_refl|exact Rl].
  - destruct (nth_error gs i) as [g|] eqn:Eg.
    2:{ apply nth_error_None in Eg. apply nth_lt in Hp. rewrite (p_len _ _ _ _ _ P) in Eg. lia. }
    destruct (pool_can _ _ _ _ _ _ _ _ _ _ P Hp Eg) as ((L1 & R1 & S1 & Sh & Ac) & _ & Cn).
    assert (Ha : In a (snd g) \/ In a (fst g)) by (apply (s_tok _ _ _ _ _ _ Sh), (proj2 Ac); reflexivity).
    assert (Hv : cov (fst g) (snd g) h a) by (destruct Ha as [Ha|Ha]; [right; now apply from_R|now left]).
    destruct (cov_live _ _ _ _ _ (p_st _ _ _ _ _ P) Eg Hv) as (c & Hc).
    assert (X : can (PUniq a) h (count_at h0 tr a t =? 1) h /\
      forall y, taken (PUniq (B := B) a) (count_at h0 tr a t =? 1) y -> forall d f, nth_error tr d = Some f -> e_kind f = EDown -> e_block f = y -> d < t).
    { destruct (Nat.eqb_spec (count_at h0 tr a t) 1) as [E|E].
      - pose proof (read_one _ _ _ _ _ _ _ _ (p_st _ _ _ _ _ P) O Eg Ha Ht Hr E) as Hq. split.
        + left. cbn. unfold unique, mbind, load. unfold cell_at in Hc. rewrite Hc. cbn.
          rewrite (o_cnt _ _ _ _ O _ _ Hc), (count_at_quiet h0 tr a t (length tr) Ht (le_n _)), E; [reflexivity|].
          intros j e Hj _. now apply Hq.
        + intros y [_ ->] d f Hd Hk Hb. destruct (Nat.lt_ge_cases d t) as [Hl|Hl]; [exact Hl|exfalso].
          eapply (Hq d f); eauto. now rewrite Hk.
      - split; [right; split; reflexivity|]. intros y [Hy _]. discriminate. }
    destruct X as [X1 X2].
    destruct (Cn _ h X1) as (L' & R' & Lg & Rl & P').
    eexists _, _, _, (update_at i (L', R') gs). split; [reflexivity|]. split; [exact P'|]. split.
    + eapply step_inv; [exact (p_st _ _ _ _ _ P)|exact Eg|exact S1|exact Sh|exact Ac|exact Lg|exact Rl|exact (p_st _ _ _ _ _ P')| | | | | | |exact O];
        cbn; auto; [eapply uniq_facts; exact Hc|discriminate|]. intros y Hy. right. exact (X2 y Hy).
    + apply rely_refl.
Qed.

Lemma start_inv gs h : oinv h gs h [].
Proof.
  split; try (intros [|m]; discriminate).
  - intros a c Hc. unfold count_at, count_in. cbn. unfold cell_at in Hc. now rewrite Hc.
  - intros a Ha. unfold count_at, count_in. cbn. now rewrite (proj2 (nth_error_None h a) Ha).
Qed.
Lemma wsteps_ok ps gs h ps' h' tr : pool_ok ps gs h -> wsteps h (ps, h, []) (ps', h', tr) ->
  exists gs', pool_ok ps' gs' h' /\ oinv h gs' h' tr /\ rely [] G h h' /\ length ps' = length ps.
Proof.
  intros P W. remember (ps', h', tr) as s' eqn:E. revert ps' h' tr E. induction W as [|s1 s2 W IH W1]; intros ps' h' tr E.
  - injection E as <- <- <-. exists gs. split; [exact P|]. split; [apply start_inv|]. split; [apply rely_refl|reflexivity].
  - destruct s1 as [[ps1 h1] tr1]. destruct (IH _ _ _ eq_refl) as (gs1 & P1 & O1 & R1 & Hl). rewrite E in W1.
    destruct (wstep_ok _ _ _ _ _ _ P1 O1 W1) as (ps2 & h2 & tr2 & gs2 & E2 & P2 & O2 & R2). injection E2 as <- <- <-.
    exists gs2. split; [exact P2|]. split; [exact O2|]. split; [eapply rely_trans; [exact R1|exact R2]|].
    inversion W1; subst; now rewrite length_upd.
Qed.
(** No thread is ever about to do something undefined. *)
Lemma pool_stuck ps gs h : pool_ok ps gs h -> ~ stuck ps h.
Proof.
  intros P (i & [Hp|(C & q & k & Hp & E)]).
  - exact (pool_fail _ _ _ _ _ _ P Hp).
  - destruct (nth_error gs i) as [g|] eqn:Eg.
    2:{ apply nth_error_None in Eg. apply nth_lt in Hp. rewrite (p_len _ _ _ _ _ P) in Eg. lia. }
    destruct (pool_can _ _ _ _ _ _ _ _ _ _ P Hp Eg) as (_ & (x & h1 & E1) & _). congruence.
Qed.
(** While a thread has not ended there is a next step. *)
Lemma pool_next h0 ps gs h tr : pool_ok ps gs h -> (exists outs, ps = map Done outs) \/ exists s', wstep h0 (ps, h, tr) s'.
Proof.
  intros P.
  assert (X : forall qs, (forall p, In p qs -> In p ps) -> (exists outs, qs = map Done outs) \/ exists C (q : prim B C) k, In (Act q k) ps).
  { induction qs as [|p qs IH]; intros H; [left; now exists []|].
    destruct p as [a| |C q k].
    - destruct IH as [(outs & ->)|H']; [intros p Hp; apply H; now right| |now right]. left. now exists (a :: outs).
    - exfalso. destruct (In_nth_error ps Fail (H _ (or_introl eq_refl))) as (i & Hi). exact (pool_fail _ _ _ _ _ _ P Hi).
    - right. exists C, q, k. apply H. now left. }
  destruct (X ps) as [H|(C & q & k & H)]; [auto|now left|right].
  apply In_nth_error in H as (i & Hp).
  destruct (nth_error gs i) as [g|] eqn:Eg.
  2:{ apply nth_error_None in Eg. apply nth_lt in Hp. rewrite (p_len _ _ _ _ _ P) in Eg. lia. }
  destruct (pool_can _ _ _ _ _ _ _ _ _ _ P Hp Eg) as (_ & (x & h1 & E1) & _).
  eexists. eapply w_new; eauto.
Qed.
End Order.

(** ** Every execution ends *)
Section Ends.
Context {B A : Type}.
Definition next (p p' : prog B A) : Prop := match p with Act q k => exists x, p' = k x | _ => False end.
Definition moves (ps' ps : list (prog B A)) : Prop :=
  exists i p p', nth_error ps i = Some p /\ next p p' /\ ps' = update_at i p' ps.
Lemma moves_acc ps : Acc moves ps.
Proof.
  induction ps as [|p ps IH].
  - constructor. intros y (i & p & p' & H & _). destruct i; discriminate.
  - revert ps IH. induction p as [a| |C q k IHk]; intros ps H; induction H as [ps H IH]; constructor;
      intros y ([|i] & r & r' & Hr & Hn & ->); cbn in *.
    + injection Hr as <-. contradiction.
    + apply IH. exists i, r, r'. auto.
    + injection Hr as <-. contradiction.
    + apply IH. exists i, r, r'. auto.
    + assert (Hx : next (Act q k) r') by (injection Hr as Hr; now rewrite Hr). destruct Hx as (x & ->). apply IHk. now constructor.
    + apply IH. exists i, r, r'. auto.
Qed.
Lemma wstep_moves (h0 : heap B) ps h tr ps' h' tr' : wstep h0 (ps, h, tr) (ps', h', tr') -> moves ps' ps.
Proof. intros W. inversion W; subst; eexists i, _, _; (split; [eassumption|]); cbn; eauto. Qed.
Lemma wstep_ends (h0 : heap B) (f : nat -> list (prog B A) * heap B * list event) : ~ forall n, wstep h0 (f n) (f (S n)).
Proof.
  intros H. assert (X : forall ps, Acc moves ps -> forall n, fst (fst (f n)) = ps -> False).
  { intros ps Hp. induction Hp as [ps _ IH]. intros n E. apply (IH (fst (fst (f (S n))))) with (n := S n); [|reflexivity].
    specialize (H n). destruct (f n) as [[p1 h1] t1], (f (S n)) as [[p2 h2] t2]. cbn in *. subst p1. eapply wstep_moves; exact H. }
  exact (X _ (moves_acc _) 0 eq_refl).
Qed.
End Ends.
