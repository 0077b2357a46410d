(** The parents of the merger of the in-place concatenation: adding a child to the last one, and
    taking a node of the right operand as the next one. *)
From Coq Require Import List NArith Arith Bool Lia ZifyN ZifyNat ZifyBool.
From Verif Require Import Common NList Rrb RrbInv RrbPos RrbOps RrbSlice RrbMerge GcConcat GcPlan GcRep.
Import ListNotations.
Local Open Scope N_scope.

Set Default Goal Selector "!".

Ltac run E := rewrite (gbind_ok _ _ _ _ _ E); cbn beta.

Section Add.
Variables B BL : N.
Context {T : Type}.
Variable mine : token -> bool.
Notation width := (width B).
Notation lwidth := (lwidth BL).
Notation heap := (gheap T).
Notation rep := (@rep B BL T mine).
Notation ow := (ow mine).
Notation own1 := (own1 mine).
Notation chg := (@chg T mine).
Notation wf := (@wf T B BL).

(** An inner node with a table that is being filled: addresses of node and table, children by
    address and by value, and the blocks below each child that may be overwritten. *)
Record pdesc : Type := mkP { pa : nat; pr : nat; pks : list nat; pns : list (node T); pF : list (list nat) }.
Definition pfp (q : pdesc) : list nat := pa q :: pr q :: List.concat (pF q).
Lemma occ_pfp x q : occ x (pfp q) = (dl x (pa q) + dl x (pr q) + occ x (List.concat (pF q)))%nat.
Proof. clear mine. unfold pfp. rewrite !occ_cons. lia. Qed.
Definition psz (q : pdesc) : list N := sums 0 (map nsize (pns q)).
Definition pat (h : heap) (l : nat) (q : pdesc) (n : option N) : Prop :=
  exists o1 o2 ks sl,
    at_ h (pa q) o1 (GInner (Some (pr q)) ks) /\ ow o1 = true /\ lenN ks = width /\ pre (pks q) ks /\
    at_ h (pr q) o2 (GTable n sl) /\ ow o2 = true /\ lenN sl = width /\ pre (psz q) sl /\
    all3 (rep h l) (pks q) (pns q) (pF q).
Definition padd (q : pdesc) (c : nat) (n : node T) (F : list nat) : pdesc :=
  mkP (pa q) (pr q) (pks q ++ [c]) (pns q ++ [n]) (pF q ++ [F]).

(** Entries from [j] on of an array of children, and of sizes with their count, do not change. *)
Definition ktl (h h' : heap) (a : nat) (j : N) : Prop := forall o r ks, at_ h a o (GInner r ks) ->
  exists o' r' ks', at_ h' a o' (GInner r' ks') /\ tails j ks ks'.
Definition ttl (h h' : heap) (r : nat) (j : N) : Prop := forall o n sl, at_ h r o (GTable n sl) ->
  exists o' sl', at_ h' r o' (GTable n sl') /\ tails j sl sl'.
Lemma ktl_refl h a j : ktl h h a j.
Proof. intros o r ks H. exists o, r, ks. split; [auto|apply tails_refl]. Qed.
Lemma ttl_refl h a j : ttl h h a j.
Proof. intros o r ks H. exists o, ks. split; [auto|apply tails_refl]. Qed.
Lemma ktl_chg h h' W a j : chg h h' W -> ~ In a W -> ktl h h' a j.
Proof. intros Hc Hn o r ks H. exists o, r, ks. split; [eapply chg_at; eauto|apply tails_refl]. Qed.
Lemma ttl_chg h h' W a j : chg h h' W -> ~ In a W -> ttl h h' a j.
Proof. intros Hc Hn o r ks H. exists o, ks. split; [eapply chg_at; eauto|apply tails_refl]. Qed.
Lemma ktl_trans h h1 h2 a j : ktl h h1 a j -> ktl h1 h2 a j -> ktl h h2 a j.
Proof.
  intros H1 H2 o r ks H. destruct (H1 _ _ _ H) as (o' & r' & ks' & H' & T1).
  destruct (H2 _ _ _ H') as (o2 & r2 & ks2 & H3 & T2). exists o2, r2, ks2. split; [auto|].
  eapply tails_trans; eauto.
Qed.
Lemma ttl_trans h h1 h2 a j : ttl h h1 a j -> ttl h1 h2 a j -> ttl h h2 a j.
Proof.
  intros H1 H2 o r ks H. destruct (H1 _ _ _ H) as (o' & ks' & H' & T1).
  destruct (H2 _ _ _ H') as (o2 & ks2 & H3 & T2). exists o2, ks2. split; [auto|].
  eapply tails_trans; eauto.
Qed.
Lemma ktl_le h h' a j k : ktl h h' a j -> j <= k -> ktl h h' a k.
Proof.
  intros H1 Hk o r ks H. destruct (H1 _ _ _ H) as (o' & r' & ks' & H' & T1). exists o', r', ks'.
  split; [auto|]. eapply tails_le; eauto.
Qed.
Lemma ttl_le h h' a j k : ttl h h' a j -> j <= k -> ttl h h' a k.
Proof.
  intros H1 Hk o r ks H. destruct (H1 _ _ _ H) as (o' & ks' & H' & T1). exists o', ks'.
  split; [auto|]. eapply tails_le; eauto.
Qed.

Lemma pat_chg h h' W l q n : pat h l q n -> chg h h' W -> (forall x, In x (pfp q) -> ~ In x W) -> pat h' l q n.
Proof.
  intros (o1 & o2 & ks & sl & H1 & H2 & H3 & H4 & H5 & H6 & H7 & H8 & H9) Hc Hn.
  exists o1, o2, ks, sl. split; [eapply chg_at; eauto; apply Hn; now left|]. split; [auto|].
  split; [auto|]. split; [auto|].
  split; [eapply chg_at; eauto; apply Hn; right; now left|]. split; [auto|]. split; [auto|]. split; [auto|].
  eapply reps_chg; eauto. intros x Hx. apply Hn. right. now right.
Qed.
Lemma pat_rep h l q : pat h l q (Some (lenN (pns q))) ->
  rep h (S l) (pa q) (Inner (Some (psz q)) (pns q)) (pfp q).
Proof.
  intros (o1 & o2 & ks & sl & H1 & H2 & H3 & H4 & H5 & H6 & H7 & H8 & H9). cbn [GcRep.rep].
  exists o1, (Some (pr q)), ks, (pks q), [pr q], (pF q). split; [auto|]. split; [auto|].
  split; [auto|]. split.
  { cbn. exists o2, sl. unfold psz at 1. rewrite lenN_sums, lenN_map. split; [auto|]. split; [auto|].
    split; [auto|]. unfold GcRep.own1. now rewrite H6. }
  split; [auto|]. unfold GcRep.own1. rewrite H2. reflexivity.
Qed.
Lemma pat_count h l q n : pat h l q n -> lenN (pks q) = lenN (pns q) /\ lenN (pns q) <= width.
Proof.
  intros (o1 & o2 & ks & sl & H1 & H2 & H3 & H4 & H5 & H6 & H7 & H8 & H9).
  pose proof (all3_len _ _ _ _ H9) as [E _]. apply pre_len in H4. lia.
Qed.
Lemma pat_owned h l q n : pat h l q n -> owned mine h (pa q) /\ owned mine h (pr q).
Proof.
  intros (o1 & o2 & ks & sl & H1 & H2 & H3 & H4 & H5 & H6 & H7 & H8 & H9). split; eexists; split; eauto.
Qed.

(** Setting the count. *)
Lemma count_pat h l q n k : pat h l q n -> sep (length h) (pfp q) ->
  exists h', gset_count (pr q) k h = Ok (tt, h') /\ length h' = length h /\ chg h h' [pr q] /\ pat h' l q (Some k).
Proof.
  intros (o1 & o2 & ks & sl & H1 & H2 & H3 & H4 & H5 & H6 & H7 & H8 & H9) Hs.
  eexists. split; [eapply gset_count_ok; eauto|]. split; [apply upd_len|].
  assert (chg h (update_at (pr q) (mkG o2 (GTable (Some k) sl)) h) [pr q]) as Hc by (eapply chg_upd; eauto).
  split; [exact Hc|]. exists o1, o2, ks, sl.
  assert (forall x, In x (pa q :: List.concat (pF q)) -> ~ In x [pr q]) as Hd.
  { eapply sep_dis; [exact Hs|]. intros x. unfold pfp. occs. lia. }
  split; [eapply chg_at; eauto; apply Hd; now left|]. split; [auto|]. split; [auto|]. split; [auto|].
  split; [eapply at_upd; eauto|]. split; [auto|]. split; [auto|]. split; [auto|].
  eapply reps_chg; eauto. intros x Hx. apply Hd. now right.
Qed.

Lemma psz_add q c n F : psz (padd q c n F) = psz q ++ [csize (pns q) + nsize n].
Proof. unfold psz, padd. cbn. rewrite map_app, sums_app. cbn. unfold csize. reflexivity. Qed.
Lemma last_psz q sl k : pre (psz q) sl -> k = lenN (pns q) ->
  (if k =? 0 then @gret T N 0 else gsize (pr q) (k - 1)) = (if k =? 0 then gret 0 else gsize (pr q) (k - 1)) ->
  k <> 0 -> entry sl (k - 1) = Ok (csize (pns q)).
Proof.
  intros Hp -> _ Hk. destruct (pns q) as [|x ns _] eqn:E using rev_ind; [cbn in Hk; lia|].
  unfold psz in Hp. rewrite E, map_app, sums_app in Hp. cbn [map sums] in Hp.
  rewrite csize_snoc. unfold csize. rewrite <- (N.add_0_l (sumN (map nsize ns))).
  eapply pre_at; [exact Hp|]. rewrite lenN_sums, lenN_map, lenN_snoc. lia.
Qed.

(** relaxed->d.sizes[idx] = ..., parent->inner()[idx] = p. *)
Lemma push_pat {A} (k : G T A) h l q n c nd F :
  pat h l q n -> lenN (pns q) < width -> rep h l c nd F ->
  sep (length h) (pfp q ++ F) ->
  exists h',
    (prev <~ (if lenN (pns q) =? 0 then gret 0 else gsize (pr q) (lenN (pns q) - 1)) ;;
     _ <~ gset_size (pr q) (lenN (pns q)) (nsize nd + prev) ;;
     _ <~ gset_kid (pa q) (lenN (pns q)) c ;; k) h = k h' /\
    length h' = length h /\ chg h h' [pa q; pr q] /\ pat h' l (padd q c nd F) n /\
    ktl h h' (pa q) (lenN (pns q) + 1) /\ ttl h h' (pr q) (lenN (pns q) + 1).
Proof.
  intros Hp Hlt Hr Hs. pose proof (pat_count _ _ _ _ Hp) as [Ekn _].
  destruct Hp as (o1 & o2 & ks & sl & H1 & H2 & H3 & H4 & H5 & H6 & H7 & H8 & H9).
  assert ((if lenN (pns q) =? 0 then gret 0 else gsize (pr q) (lenN (pns q) - 1)) h = Ok (csize (pns q), h)) as E1.
  { destruct (N.eqb_spec (lenN (pns q)) 0) as [Z|Z].
    - apply lenN_0 in Z. rewrite Z. reflexivity.
    - eapply gsize_ok; [exact H5|]. eapply last_psz; eauto. }
  run E1.
  destruct (write_pre (psz q) [nsize nd + csize (pns q)] sl (lenN (pns q))) as (sl' & Ew & Hp' & Hl' & Hd'); auto.
  { unfold psz. now rewrite lenN_sums, lenN_map. } { cbn. lia. }
  cbn [map] in Ew. run (gset_size_ok _ _ _ _ _ _ _ _ H5 Ew).
  set (h1 := update_at (pr q) (mkG o2 (GTable n sl')) h).
  assert (chg h h1 [pr q]) as C1 by (eapply chg_upd; eauto).
  assert (pa q <> pr q) as Hne.
  { intros E. pose proof (Hs (pa q)) as Hx. unfold pfp in Hx. occs. rewrite <- E, dl_same in Hx.
    pose proof (lt1_1 (pa q) (length h)). lia. }
  assert (at_ h1 (pa q) o1 (GInner (Some (pr q)) ks)) as H1' by (apply at_upd_ne; auto).
  destruct (write_pre (pks q) [c] ks (lenN (pns q))) as (ks' & Ek & Hpk & Hlk & Hdk); auto.
  { cbn. lia. }
  cbn [map] in Ek. run (gset_kid_ok _ _ _ _ _ _ _ _ H1' Ek).
  set (h2 := update_at (pa q) (mkG o1 (GInner (Some (pr q)) ks')) h1).
  assert (chg h1 h2 [pa q]) as C2 by (eapply chg_upd; eauto).
  exists h2. split; [reflexivity|]. split; [unfold h2, h1; now rewrite !upd_len|].
  assert (chg h h2 [pa q; pr q]) as C.
  { eapply chg_sub; [eapply chg_trans; [exact C1|exact C2]| |].
    - cbn. intuition.
    - intros x _ Hx. destruct Hx as [<-|[<-|[]]]; eexists; split; eauto. }
  split; [exact C|].
  assert (forall x, In x (List.concat (pF q) ++ F) -> ~ In x [pa q; pr q]) as Hd.
  { eapply sep_dis; [exact Hs|]. intros x. unfold pfp. occs. lia. }
  assert (at_ h1 (pr q) o2 (GTable n sl')) as H5' by (eapply at_upd; eauto).
  split; [|split].
  - exists o1, o2, ks', sl'. cbn [padd pa pr pks pns pF].
    split; [eapply at_upd; eauto|]. split; [auto|]. split; [lia|]. split; [auto|].
    split; [apply at_upd_ne; auto|]. split; [auto|]. split; [lia|].
    split; [rewrite psz_add, (N.add_comm (csize _)); auto|].
    apply all3_app.
    + eapply reps_chg; eauto. intros x Hx. apply Hd, in_or_app. auto.
    + apply all3_one. eapply rep_chg; eauto. intros x Hx. apply Hd, in_or_app. auto.
  - intros o r k' Ha. assert (k' = ks) as -> by (unfold at_ in *; congruence).
    exists o1, (Some (pr q)), ks'. split; [eapply at_upd; eauto|]. apply drop_tails. intros i Hi.
    apply Hdk. cbn. lia.
  - intros o r k' Ha. assert (k' = sl /\ r = n) as [-> ->] by (unfold at_ in *; split; congruence).
    exists o2, sl'. split; [apply at_upd_ne; auto|]. apply drop_tails. intros i Hi. apply Hd'. cbn. lia.
Qed.

(** ** A node whose children are reused as they are read *)
Definition tab_ok (h : heap) (e : token) (ro : option nat) (CF : list nat) : Prop :=
  match ro with
  | None => CF = []
  | Some r => exists o ys sl, at_ h r o (GTable (Some (lenN ys)) sl) /\ pre ys sl /\ lenN ys <= width /\
      (ow o = true -> lenN sl = width) /\ CF = own1 o r
  end.
(** ensure_mutable_relaxed_e. *)
Lemma ensure_ok h a o ro ks e ec CF :
  at_ h a o (GInner ro ks) -> ow o = true -> mine e = true -> mine ec = true -> tab_ok h e ro CF ->
  ~ In a CF ->
  exists r h', gensure_relaxed B a e ec h = Ok (r, h') /\ chg h h' (a :: CF) /\
    at_ h' a o (GInner (Some r) ks) /\
    (exists n sl, at_ h' r (Some ec) (GTable n sl) /\ lenN sl = width /\
       forall ys sl0 r0 o0, ro = Some r0 -> at_ h r0 o0 (GTable (Some (lenN ys)) sl0) -> pre ys sl0 ->
         pre ys sl /\ n = Some (lenN ys)) /\
    (ro = Some r /\ CF = [r] /\ length h' = length h /\ ttl h h' r 0 \/
     r = length h /\ length h' = S (length h) /\ chg h h' [a]) /\
    (forall r0 o0 k0 sl0, ro = Some r0 -> at_ h r0 o0 (GTable k0 sl0) ->
       exists o1, at_ h' r0 o1 (GTable k0 sl0)).
Proof.
  intros Ha Ho He Hec Ht Hn. unfold gensure_relaxed. run (ginner_ok _ _ _ _ _ Ha).
  destruct ro as [r|]; cbn [tab_ok] in Ht.
  - destruct Ht as (o2 & ys & sl & Hr & Hp & Hl & Hw & EC).
    run (gcan_mutate_ok _ _ _ _ e Hr).
    destruct (owned_by (mkG o2 (GTable (Some (lenN ys)) sl)) e) eqn:Eb.
    + destruct (owned_by_ow mine _ _ _ He Eb) as [-> Hoe].
      assert (CF = [r]) as E by (rewrite EC; unfold GcRep.own1; now rewrite Hoe).
      assert (a <> r) as Hne by (intros ->; apply Hn; rewrite E; now left).
      run (gset_owner_ok _ _ _ _ ec Hr). exists r. eexists. split; [reflexivity|].
      assert (chg h (update_at r (mkG (Some ec) (GTable (Some (lenN ys)) sl)) h) [r]) as C
        by (eapply chg_upd; eauto).
      split.
      { eapply chg_sub; [exact C| |].
        - intros x _ Hx. right. now rewrite E.
        - rewrite E. intros x _ [<-|[<-|[]]]; eexists; split; eauto. }
      split; [apply at_upd_ne; auto|]. split.
      { exists (Some (lenN ys)), sl. split; [eapply at_upd; eauto|]. split; [auto|].
        intros ys' sl0 r0 o0 [= <-] H0 P0. unfold at_ in H0, Hr. rewrite Hr in H0.
        injection H0 as _ E0 <-. split; [exact P0|now f_equal]. }
      split.
      { left. split; [reflexivity|]. split; [auto|]. split; [apply upd_len|].
        intros o' n' sl0 H0. unfold at_ in H0, Hr. rewrite Hr in H0. injection H0 as _ <- <-.
        exists (Some ec), sl. split; [eapply at_upd; eauto|apply tails_refl]. }
      intros r0 o0 k0 sl0 [= <-] H0. exists (Some ec). assert (k0 = Some (lenN ys) /\ sl0 = sl) as [-> ->].
      { unfold at_ in H0, Hr. rewrite Hr in H0. injection H0 as _ <- <-. auto. }
      eapply at_upd; eauto.
    + run (gcount_ok _ _ _ _ _ Hr). run (gtable_ok _ _ _ _ _ Hr).
      run (glift_ok _ _ h (pre_all ys sl (lenN ys) Hp eq_refl)).
      destruct (write_pre [] ys (blank N width) 0) as (sl' & Ew & Hp' & Hl' & _);
        [apply pre_nil|reflexivity|rewrite blank_len; lia|].
      rewrite blank_len in Hl'. cbn [app] in Hp'. run (glift_ok _ _ h Ew).
      rewrite (gbind_ok (gnew (mkG (Some ec) (GTable (Some (lenN ys)) sl'))) _ h (length h) _ eq_refl).
      assert (at_ (h ++ [mkG (Some ec) (GTable (Some (lenN ys)) sl')]) a o (GInner (Some r) ks)) as Ha'
        by now apply at_app.
      run (gput_inner_ok _ _ _ _ _ (Some (length h)) ks Ha').
      exists (length h). eexists. split; [reflexivity|].
      set (h1 := h ++ [mkG (Some ec) (GTable (Some (lenN ys)) sl')]) in *.
      assert (chg h1 (update_at a (mkG o (GInner (Some (length h)) ks)) h1) [a]) as C
        by (eapply chg_upd; eauto).
      split.
      { eapply chg_sub; [eapply chg_trans; [apply chg_new|exact C]| |].
        - intros x _ [<-|[]]. now left.
        - intros x _ [<-|Hx]; [eexists; split; eauto|].
          rewrite EC in Hx. eapply own1_owned; eauto. }
      split; [eapply at_upd; eauto|]. split.
      { exists (Some (lenN ys)), sl'. split.
        - apply at_upd_ne; [apply at_new|]. pose proof (at_lt _ _ _ _ Ha). lia.
        - split; [auto|]. intros ys' sl0 r0 o0 [= <-] H0 P0. unfold at_ in H0, Hr. rewrite Hr in H0.
          injection H0 as _ E0 <-. apply Nnat.N2Nat.inj_iff in E0.
          assert (ys' = ys) as ->.
          { destruct P0 as (r1 & ->), Hp as (r2 & E2). apply (f_equal (firstn (length (map Some ys)))) in E2.
            unfold lenN in E0.
            rewrite (firstn_app (length (map Some ys)) (map Some ys)), firstn_all, Nat.sub_diag, app_nil_r in E2.
            assert (length (map Some ys) = length (map Some ys')) as El by (rewrite !map_length; lia).
            rewrite El, firstn_app, firstn_all, Nat.sub_diag, app_nil_r in E2.
            clear - E2. revert ys E2. induction ys' as [|y l IH]; intros [|z m] E; try easy.
            cbn in E. injection E as -> E. f_equal. auto. }
          auto. }
      split.
    { right. split; [reflexivity|]. split; [rewrite upd_len; unfold h1; rewrite app_length; cbn; lia|].
      exact (chg_trans mine _ _ _ [] [a] (chg_new mine _ _) C). }
      intros r0 o0 k0 sl0 [= <-] H0. exists o0. apply at_upd_ne; [now apply at_app|].
      intros ->. unfold at_ in Ha, H0. congruence.
  - rewrite (gbind_ok (gnew (mkG (Some ec) (GTable None (blank N width)))) _ h (length h) _ eq_refl).
    assert (at_ (h ++ [mkG (Some ec) (GTable None (blank N width))]) a o (GInner None ks)) as Ha'
      by now apply at_app.
    run (gput_inner_ok _ _ _ _ _ (Some (length h)) ks Ha').
    exists (length h). eexists. split; [reflexivity|].
    set (h1 := h ++ [mkG (Some ec) (GTable None (blank N width))]) in *.
    assert (chg h1 (update_at a (mkG o (GInner (Some (length h)) ks)) h1) [a]) as C
      by (eapply chg_upd; eauto).
    split.
    { eapply chg_sub; [eapply chg_trans; [apply chg_new|exact C]| |].
      - intros x _ [<-|[]]. now left.
      - rewrite Ht. intros x _ [<-|[]]. eexists; split; eauto. }
    split; [eapply at_upd; eauto|]. split.
    { exists None, (blank N width). split.
      - apply at_upd_ne; [apply at_new|]. pose proof (at_lt _ _ _ _ Ha). lia.
      - split; [apply blank_len|]. easy. }
    split.
    { right. split; [reflexivity|]. split; [rewrite upd_len; unfold h1; rewrite app_length; cbn; lia|].
      exact (chg_trans mine _ _ _ [] [a] (chg_new mine _ _) C). }
    easy.
Qed.

(** make_inner_r_e. *)
Lemma make_inner_ok h ec l : mine ec = true ->
  exists h', gmake_inner_r B ec h = Ok (S (length h), h') /\ chg h h' [] /\ length h' = S (S (length h)) /\
    pat h' l (mkP (S (length h)) (length h) [] [] []) (Some 0).
Proof.
  intros Hec. unfold gmake_inner_r.
  set (c1 := mkG (Some ec) (GTable (Some 0) (blank N width)) : gcell T).
  set (c2 := mkG (Some ec) (GInner (Some (length h)) (blank nat width)) : gcell T).
  exists ((h ++ [c1]) ++ [c2]). split.
  { rewrite (gbind_ok (gnew c1) _ h (length h) (h ++ [c1]) eq_refl). unfold gnew. rewrite app_length. cbn [length].
    fold c2. do 2 f_equal. lia. }
  split; [apply (chg_trans mine h (h ++ [c1]) ((h ++ [c1]) ++ [c2]) [] []); apply chg_new|].
  split; [rewrite !app_length; cbn; lia|].
  exists (Some ec), (Some ec), (blank nat width), (blank N width). cbn [pa pr pks pns pF].
  replace (S (length h)) with (length (h ++ [c1])) by (rewrite app_length; cbn; lia).
  split; [apply at_new|]. split; [auto|]. split; [apply blank_len|]. split; [apply pre_nil|].
  split; [apply at_app, at_new|]. split; [auto|]. split; [apply blank_len|]. split; [apply pre_nil|constructor].
Qed.

(** The candidate.  Without one [CF] has blocks that are not used any more. *)
Definition cand_ok (h : heap) (cand : option (token * nat)) (CF : list nat) : Prop :=
  match cand with
  | None => forall x, In x CF -> owned mine h x
  | Some (e, a) => exists ks ro F, mine e = true /\ at_ h a (Some e) (GInner ro ks) /\ lenN ks = width /\
      tab_ok h e ro F /\ CF = a :: F
  end.
Lemma tab_chg h h' W e ro F : tab_ok h e ro F -> chg h h' W -> (forall x, In x F -> ~ In x W) -> tab_ok h' e ro F.
Proof.
  destruct ro as [r|]; cbn; [|auto]. intros (o & ys & sl & H1 & H2 & H3 & H4 & ->) Hc Hn.
  exists o, ys, sl. split; [eapply chg_at_own; eauto|auto].
Qed.
Lemma cand_chg h h' W cand CF : cand_ok h cand CF -> chg h h' W -> (forall x, In x CF -> ~ In x W) ->
  cand_ok h' cand CF.
Proof.
  destruct cand as [[e a]|]; cbn.
  2: { intros H Hc Hn x Hx. destruct (H x Hx) as (c & Ha & Ho). exists c. split; [|auto].
       destruct Hc as (_ & K & _). apply K; auto. }
  intros (ks & ro & F & H1 & H2 & H3 & H4 & ->) Hc Hn.
  exists ks, ro, F. split; [auto|]. split; [eapply chg_at; eauto; apply Hn; now left|]. split; [auto|].
  split; [|auto]. eapply tab_chg; eauto. intros x Hx. apply Hn. now right.
Qed.
Lemma tab_owned h e ro F x : tab_ok h e ro F -> In x F -> owned mine h x.
Proof.
  destruct ro as [r|]; cbn; [|now intros ->]. intros (o & ys & sl & H1 & _ & _ & _ & ->). eapply own1_owned; eauto.
Qed.
Lemma cand_owned h cand CF x : cand_ok h cand CF -> In x CF -> owned mine h x.
Proof.
  destruct cand as [[e a]|]; cbn; [|auto]. intros (ks & ro & F & H1 & H2 & H3 & H4 & ->) [<-|Hx].
  - eexists. split; [exact H2|auto].
  - eapply tab_owned; eauto.
Qed.
(** The blocks of [L] do not change. *)
Definition kept (h h' : heap) (L : list nat) : Prop := forall x o b, In x L -> at_ h x o b -> at_ h' x o b.
Lemma kept_refl h L : kept h h L.
Proof. easy. Qed.
Lemma kept_chg h h' W L : chg h h' W -> (forall x, In x L -> ~ In x W) -> kept h h' L.
Proof. intros Hc Hn x o b Hx Ha. eapply chg_at; eauto. Qed.
Lemma kept_trans h h1 h2 L : kept h h1 L -> kept h1 h2 L -> kept h h2 L.
Proof. intros H1 H2 x o b Hx Ha. apply H2; auto. Qed.
(** Where the next parent comes from, and what is left of the blocks of the candidate. *)
Definition taken (h : heap) (cand : option (token * nat)) (CF : list nat) (q : pdesc) (CF' : list nat) : Prop :=
  match cand with
  | Some (_, a) => pa q = a /\ (CF = [a; pr q] /\ CF' = [] \/ CF = a :: CF' /\ (length h <= pr q)%nat)
  | None => CF' = CF /\ (length h <= pa q)%nat /\ (length h <= pr q)%nat
  end.
Lemma taken_in h cand CF q CF' : taken h cand CF q CF' ->
  (In (pa q) CF \/ (length h <= pa q)%nat) /\ (In (pr q) CF \/ (length h <= pr q)%nat) /\
  (forall x, In x CF' -> In x CF).
Proof.
  destruct cand as [[e a]|]; cbn.
  - intros (-> & [(-> & ->)|(-> & H)]).
    + split; [left; now left|]. split; [left; right; now left|easy].
    + split; [left; now left|]. split; [auto|]. intros x Hx. now right.
  - intros (-> & H1 & H2). auto.
Qed.
(** The candidate, or a new node, as the next parent. *)
Lemma next_parent h l cand CF ec : cand_ok h cand CF -> mine ec = true -> sep (length h) CF ->
  exists q n CF' h',
    match cand with
    | Some (e, a) => _ <~ gensure_relaxed B a e ec ;; gret a
    | None => gmake_inner_r B ec
    end h = Ok (pa q, h') /\
    chg h h' CF /\ pat h' l q n /\ pns q = [] /\ pF q = [] /\ pks q = [] /\
    (forall L, sep (length h) (CF ++ L) -> sep (length h') (pfp q ++ CF' ++ L)) /\
    taken h cand CF q CF' /\ kept h h' CF' /\
    ktl h h' (pa q) 0 /\ ttl h h' (pr q) 0.
Proof.
  intros Hc Hec Hs. destruct cand as [[e a]|]; cbn [cand_ok] in Hc.
  - destruct Hc as (ks & ro & F & H1 & H2 & H3 & H4 & ->).
    assert (~ In a F) as Hn.
    { intros Hi. apply occ_in in Hi. pose proof (Hs a) as Hx. occs. rewrite dl_same in Hx.
      pose proof (lt1_1 a (length h)). lia. }
    destruct (ensure_ok h a (Some e) ro ks e ec F H2 H1 H1 Hec H4 Hn) as
      (r & h' & E & C & Ha & (n & sl & Hr & Hl & _) & Hcase & _).
    assert (exists CF', (F = [r] /\ CF' = [] /\ length h' = length h /\ ttl h h' r 0 \/
       F = CF' /\ r = length h /\ length h' = S (length h)) /\ kept h h' CF') as (CF' & Hcs & Hk).
    { destruct Hcase as [(_ & -> & L & Ht)|(-> & L & C')].
      - exists []. split; [left; auto|easy].
      - exists F. split; [right; auto|]. eapply kept_chg; [exact C'|]. intros x Hx [<-|[]]. easy. }
    exists (mkP a r [] [] []), n, CF', h'. cbn [pa pr pks pns pF]. split; [run E; reflexivity|].
    split; [exact C|]. split.
    { exists (Some e), (Some ec), ks, sl. cbn [pa pr pks pns pF]. split; [auto|]. split; [auto|].
      split; [auto|]. split; [apply pre_nil|]. split; [auto|]. split; [auto|]. split; [auto|].
      split; [apply pre_nil|constructor]. }
    split; [reflexivity|]. split; [reflexivity|]. split; [reflexivity|]. split.
    { intros L HL. unfold pfp. cbn [pa pr pF List.concat]. destruct Hcs as [(-> & -> & -> & _)|(-> & -> & ->)].
      - intros x. specialize (HL x). occs. lia.
      - intros x. specialize (HL x). rewrite lt1_S. occs. lia. }
    split.
    { cbn. split; [auto|]. destruct Hcs as [(-> & -> & _)|(-> & -> & _)]; [left; auto|right; auto]. }
    split; [exact Hk|]. split.
    { intros o r0 k' H0. unfold at_ in H0, H2. rewrite H2 in H0. injection H0 as _ _ <-.
      exists (Some e), (Some r), ks. split; [auto|apply tails_refl]. }
    destruct Hcs as [(_ & _ & _ & Ht)|(_ & -> & _)]; [exact Ht|].
    intros o n' s' H0. pose proof (at_lt _ _ _ _ H0). lia.
  - destruct (make_inner_ok h ec l Hec) as (h' & E & C & L & P).
    exists (mkP (S (length h)) (length h) [] [] []), (Some 0), CF, h'. cbn [pa pr pks pns pF].
    split; [exact E|]. split.
    { eapply chg_sub; [exact C|easy|]. intros x _ Hx. auto. }
    split; [exact P|]. split; [reflexivity|]. split; [reflexivity|].
    split; [reflexivity|]. split.
    { intros L' HL x. specialize (HL x). rewrite L, !lt1_S. unfold pfp. cbn [pa pr pF]. occs. lia. }
    split; [cbn; split; [auto|]; split; lia|]. split; [eapply kept_chg; [exact C|auto]|].
    split; intros o n' s' H0; pose proof (at_lt _ _ _ _ H0); lia.
Qed.

(** ** Adding a child *)
Definition fps (ps : list pdesc) (q : pdesc) : list nat := List.concat (map pfp ps) ++ pfp q.
Record core (cl : nat) (plan : list N) (m : @merger T) (prod : list (node T)) (M : gmerger)
    (ps : list pdesc) (q : pdesc) (CF : list nat) (h : heap) : Prop := {
  co_minv : minv B BL cl plan m prod;
  co_curr : gm_curr M = m_curr m;
  co_nodes : gm_nodes M = pa q :: map pa (rev ps);
  co_sz : gm_sizes M = m_sizes m;
  co_cnt : gm_cnt M = lenN (pns q);
  co_par : p_kids (m_par m) = pns q;
  co_done : map p_kids (m_done m) = map pns ps;
  co_pat : exists n, pat h cl q n;
  co_ps : Forall (fun q => pat h cl q (Some (lenN (pns q)))) ps;
  co_cand : cand_ok h (gm_cand M) CF }.

Ltac ofs := unfold fps in *; occs; rewrite ?occ_pfp in *; occs.

Lemma ps_chg h h' W cl ps : Forall (fun q => pat h cl q (Some (lenN (pns q)))) ps -> chg h h' W ->
  (forall x, In x (List.concat (map pfp ps)) -> ~ In x W) ->
  Forall (fun q => pat h' cl q (Some (lenN (pns q)))) ps.
Proof.
  induction 1 as [|q ps Hq H IH]; intros Hc Hn; constructor.
  - eapply pat_chg; eauto. intros x Hx. apply Hn. cbn [map List.concat]. apply in_or_app. auto.
  - apply IH; auto. intros x Hx. apply Hn. cbn [map List.concat]. apply in_or_app. auto.
Qed.
Lemma core_chg cl plan m prod M ps q CF h h' W : core cl plan m prod M ps q CF h -> chg h h' W ->
  (forall x, In x (fps ps q ++ CF) -> ~ In x W) -> core cl plan m prod M ps q CF h'.
Proof.
  intros [] Hc Hn. constructor; auto.
  - destruct co_pat0 as (n & Hp). exists n. eapply pat_chg; eauto. intros x Hx. apply Hn.
    unfold fps. rewrite !in_app_iff. auto.
  - eapply ps_chg; eauto. intros x Hx. apply Hn. unfold fps. rewrite !in_app_iff. auto.
  - eapply cand_chg; eauto. intros x Hx. apply Hn. rewrite !in_app_iff. auto.
Qed.
Lemma core_to cl plan m prod M ps q CF h to off ts mt : core cl plan m prod M ps q CF h ->
  core cl plan (mkMerger (m_curr m) (m_n m) (m_done m) (m_par m) (m_sizes m) mt) prod (set_to M to off ts) ps q CF h.
Proof. intros []. constructor; auto. now apply minv_set_to. Qed.
Lemma core_toM cl plan m prod M ps q CF h to off ts : core cl plan m prod M ps q CF h ->
  core cl plan m prod (set_to M to off ts) ps q CF h.
Proof. intros []. constructor; auto. Qed.

(** The parents after adding [nd]. *)
Definition grew (h h' : heap) (M : gmerger) (ps : list pdesc) (q : pdesc) (CF : list nat) (nd : node T)
  (M' : gmerger) (ps' : list pdesc) (q' : pdesc) (CF' : list nat) : Prop :=
  kept h h' CF' /\
  (pa q' = pa q /\ pr q' = pr q /\ ps' = ps /\ CF' = CF /\ pns q' = pns q ++ [nd] /\
     gm_cand M' = gm_cand M \/
   lenN (pns q) = width /\ pns q' = [nd] /\ gm_cand M' = None /\ ps' = ps ++ [q] /\
     taken h (gm_cand M) CF q' CF').

Lemma sim_add cl plan m prod M ps q CF h ec c nd Fc R k curr :
  core cl plan m prod M ps q CF h -> m_curr m = k :: curr -> ncount nd = k -> wf cl nd ->
  lenN plan <= 3 * width -> mine ec = true -> rep h cl c nd Fc ->
  sep (length h) (fps ps q ++ CF ++ Fc ++ R) ->
  exists m' M' ps' q' CF' h',
    gadd_child B ec c (nsize nd) M h = Ok (M', h') /\
    add_child B m nd (nsize nd) = Ok m' /\
    core cl plan m' (prod ++ [nd]) M' ps' q' CF' h' /\ m_curr m' = curr /\ m_to m' = None /\
    gm_to M' = gm_to M /\ gm_off M' = gm_off M /\ gm_tosize M' = gm_tosize M /\
    chg h h' (pa q :: pr q :: CF) /\ sep (length h') (fps ps' q' ++ CF' ++ R) /\
    ktl h h' (pa q') (lenN (pns q')) /\ ttl h h' (pr q') (lenN (pns q')) /\
    grew h h' M ps q CF nd M' ps' q' CF'.
Proof.
  intros [Hm Hcu Hno Hsz Hcn Hpa Hdo (n & Hp) Hps Hca] Hcurr Hk Hw H3 Hec Hr Hs.
  destruct (add_child_ok B BL cl plan m prod nd k curr Hm Hcurr Hk Hw H3) as (m' & Em & Hm' & Hc' & Ht').
  pose proof (wf_size _ _ _ _ Hw) as Hns.
  pose proof Em as Em'. unfold add_child in Em'.
  unfold gadd_child. destruct (N.eqb_spec (nsize nd) 0) as [Hz|Hz]; [lia|].
  rewrite Hcurr in Em'. rewrite Hcu, Hcurr, Hno, Hsz.
  destruct (m_sizes m) as [|s0 ss] eqn:Ess; [easy|].
  assert (exists n', at_ h (pa q) n' (GInner (Some (pr q)) (match nth_error h (pa q) with Some (mkG _ (GInner _ ks)) => ks | _ => [] end))) as (o1 & Hat).
  { destruct Hp as (o1 & o2 & ks & sl & H1 & _). exists o1. unfold at_ in *. now rewrite H1. }
  run (grelaxed_ok _ _ _ _ _ Hat). rewrite Hcn. rewrite Hpa in Em'.
  destruct (N.eqb_spec (lenN (pns q)) width) as [Ef|Ef].
  - destruct ((lenN (m_done m) + 1 <? 3) && (width <=? m_n m)) eqn:Eb; [|easy]. cbn [rbind] in Em'.
    apply andb_prop in Eb as [Eb _].
    assert (lenN (m_done m) = lenN ps) as El by (rewrite <- (lenN_map p_kids), Hdo; apply lenN_map).
    destruct (count_pat h cl q n (lenN (pns q)) Hp) as (h1 & E1 & L1 & C1 & P1).
    { intros x. specialize (Hs x). ofs. lia. }
    assert (lenN (pa q :: map pa (rev ps)) <? 3 = true) as Hl3.
    { rewrite lenN_cons, lenN_map. unfold lenN at 1. rewrite rev_length. fold (lenN ps). lia. }
    assert (forall x, In x CF -> ~ In x [pr q]) as D1.
    { eapply sep_dis; [exact Hs|]. intros x. ofs. lia. }
    assert (cand_ok h1 (gm_cand M) CF) as Hca1 by (eapply cand_chg; eauto).
    destruct (next_parent h1 cl (gm_cand M) CF ec Hca1 Hec) as
      (q0 & nq & CF' & h2 & E2 & C2 & P2 & N2 & F2 & K2 & S2 & Htk & Hkp & T2 & U2).
    { rewrite L1. intros x. specialize (Hs x). occs. lia. }
    destruct (taken_in _ _ _ _ _ Htk) as (A2 & R2 & I2).
    assert (exists o2 ks2, at_ h2 (pa q0) o2 (GInner (Some (pr q0)) ks2)) as (o2 & ks2 & Hat2).
    { destruct P2 as (o2 & ? & ks2 & ? & H1 & _). eauto. }
    assert (sep (length h2) (pfp q0 ++ CF' ++ List.concat (map pfp ps) ++ pfp q ++ Fc ++ R)) as Hs2.
    { apply S2. rewrite L1. intros x. specialize (Hs x). ofs. lia. }
    assert (rep h2 cl c nd Fc) as Hr2.
    { eapply rep_chg; [exact C2| |].
      - eapply rep_chg; [exact C1|exact Hr|]. eapply sep_dis; [exact Hs|]. intros x. ofs. lia.
      - eapply sep_dis; [exact Hs|]. intros x. ofs. lia. }
    destruct (push_pat (gret (mkGM curr (pa q0 :: pa q :: map pa (rev ps)) (s0 + nsize nd :: s0 :: ss) (0 + 1)
       None (gm_to M) (gm_off M) (gm_tosize M))) h2 cl q0 nq c nd Fc P2) as (h3' & E3 & L3' & C3' & P3' & T3' & U3').
    { rewrite N2. change (lenN (@nil (node T))) with 0. apply width_pos. }
    { exact Hr2. }
    { intros x. specialize (Hs2 x). occs. lia. }
    rewrite N2 in E3. change (lenN (@nil (node T))) with 0 in E3.
    assert (chg h h3' (pa q :: pr q :: CF)) as C.
    { eapply chg_sub; [eapply chg_trans; [exact C1|eapply chg_trans; [exact C2|exact C3']]| |].
      - intros x Hx Hi. cbn in Hi. destruct Hi as [<-|Hi]; [right; now left|].
        apply in_app_or in Hi as [Hi|Hi]; [right; now right|].
        destruct Hi as [<-|[<-|[]]].
        + destruct A2; [right; now right|lia].
        + destruct R2; [right; now right|lia].
      - destruct (pat_owned _ _ _ _ Hp). intros x _ [<-|[<-|Hx]]; auto. eapply cand_owned; eauto. }
    assert (kept h h3' CF') as Hkept.
    { eapply kept_trans; [eapply kept_chg; [exact C1|]|eapply kept_trans; [exact Hkp|eapply kept_chg; [exact C3'|]]].
      - intros x Hx. apply D1. auto.
      - eapply sep_dis; [exact Hs2|]. intros x. unfold pfp. occs. lia. }
    eexists m', _, (ps ++ [q]), (padd q0 c nd Fc), CF', h3'.
    split.
    { unfold gbind at 1. run E1. rewrite Hl3. run E2. run (grelaxed_ok _ _ _ _ _ Hat2). cbn [gret]. cbn [hd tl].
      exact E3. }
    split; [exact Em|]. split.
    { constructor; cbn [gm_curr gm_nodes gm_sizes gm_cnt gm_cand].
      - exact Hm'.
      - now rewrite Hc'.
      - rewrite rev_app_distr. reflexivity.
      - change (lenN (@nil (node T))) with 0 in Em'. cbn [p_kids p_cap] in Em'.
        change (lenN (@nil (node T))) with 0 in Em'.
        destruct (0 <? _); [|easy]. cbn [N.eqb rbind] in Em'. injection Em' as <-. reflexivity.
      - cbn [padd pns]. rewrite N2. reflexivity.
      - cbn [p_kids p_cap] in Em'. change (lenN (@nil (node T))) with 0 in Em'.
        destruct (0 <? _); [|easy]. cbn [N.eqb rbind] in Em'. injection Em' as <-. cbn [m_par p_kids padd pns].
        now rewrite N2.
      - cbn [p_kids p_cap] in Em'. change (lenN (@nil (node T))) with 0 in Em'.
        destruct (0 <? _); [|easy]. cbn [N.eqb rbind] in Em'. injection Em' as <-. cbn [m_done].
        rewrite !map_app, Hdo. cbn [map]. now rewrite Hpa.
      - eauto.
      - apply Forall_app. split.
        + eapply ps_chg; [|exact C|].
          * exact Hps.
          * eapply sep_dis; [exact Hs|]. intros x. ofs. lia.
        + constructor; [|constructor].
          eapply pat_chg; [eapply pat_chg; [exact P1|exact C2|]|exact C3'|].
          * eapply sep_dis; [exact Hs|]. intros x. ofs. lia.
          * eapply sep_dis; [exact Hs2|]. intros x. unfold pfp at 2. occs. lia.
      - intros x Hx. destruct (cand_owned _ _ _ x Hca (I2 x Hx)) as (cx & Hax & Hox).
        exists cx. split; [|auto]. destruct cx as [ox bx]. apply Hkept; auto. }
    split; [auto|]. split; [auto|]. split; [reflexivity|]. split; [reflexivity|]. split; [reflexivity|].
    split; [exact C|]. split.
    { intros x. specialize (Hs2 x). rewrite L3'. unfold fps, pfp, padd in *. cbn [pa pr pF]. rewrite F2 in *. occs. lia. }
    cbn [padd pa pr pns]. rewrite N2 in T3', U3' |- *. change (lenN (@nil (node T)) + 1) with 1 in *.
    change (lenN ([] ++ [nd])) with 1.
    assert (forall x, x = pa q0 \/ x = pr q0 -> ~ In x [pr q]) as D2.
    { intros x Hx. eapply sep_dis with (A := [pa q0; pr q0]); [exact Hs2| |destruct Hx; subst; cbn; auto].
      intros y. ofs. lia. }
    split.
    { eapply ktl_trans; [eapply ktl_chg; [exact C1|auto]|]. eapply ktl_trans; [eapply ktl_le; [exact T2|lia]|exact T3']. }
    split.
    { eapply ttl_trans; [eapply ttl_chg; [exact C1|auto]|]. eapply ttl_trans; [eapply ttl_le; [exact U2|lia]|exact U3']. }
    split; [exact Hkept|].
    right. split; [auto|]. split; [cbn [padd pns]; now rewrite N2|]. split; [reflexivity|].
    split; [reflexivity|]. unfold taken in *. rewrite L1 in Htk. exact Htk.
  - cbn [rbind] in Em'.
    assert (lenN (pns q) < width) as Hlt by (pose proof (pat_count _ _ _ _ Hp); lia).
    destruct (push_pat (gret (mkGM curr (pa q :: map pa (rev ps)) (s0 + nsize nd :: ss) (lenN (pns q) + 1)
       (gm_cand M) (gm_to M) (gm_off M) (gm_tosize M))) h cl q n c nd Fc Hp Hlt Hr) as (h' & E3 & L3 & C3 & P3 & T3 & U3).
    { intros x. specialize (Hs x). ofs. lia. }
    assert (chg h h' (pa q :: pr q :: CF)) as C.
    { eapply chg_sub; [exact C3| |].
      - intros x _ [<-|[<-|[]]]; [now left|right; now left].
      - destruct (pat_owned _ _ _ _ Hp). intros x _ [<-|[<-|Hx]]; auto. eapply cand_owned; eauto. }
    eexists m', _, ps, (padd q c nd Fc), CF, h'. split.
    { unfold gbind at 1. cbn [gret hd tl]. exact E3. }
    split; [exact Em|].
    destruct (lenN (p_kids (m_par m)) <? p_cap (m_par m)); [|easy].
    destruct (if lenN (p_kids (m_par m)) =? 0 then _ else _) as [prev|]; [|easy]. cbn [rbind] in Em'.
    injection Em' as <-. cbn [m_curr m_to] in *.
    split.
    { constructor; cbn [gm_curr gm_nodes gm_sizes gm_cnt gm_cand m_sizes m_par m_done p_kids m_curr].
      - exact Hm'.
      - reflexivity.
      - reflexivity.
      - reflexivity.
      - cbn [padd pns]. rewrite lenN_snoc. reflexivity.
      - cbn [padd pns]. now rewrite Hpa.
      - auto.
      - eauto.
      - eapply ps_chg; [exact Hps|exact C3|]. eapply sep_dis; [exact Hs|]. intros x. ofs. lia.
      - eapply cand_chg; [exact Hca|exact C3|]. eapply sep_dis; [exact Hs|]. intros x. ofs. lia. }
    split; [auto|]. split; [auto|]. split; [reflexivity|]. split; [reflexivity|]. split; [reflexivity|].
    split; [exact C|]. split.
    { intros x. specialize (Hs x). rewrite L3. unfold fps, pfp, padd in *. cbn [pa pr pF]. occs. lia. }
    cbn [padd pa pr pns]. rewrite lenN_snoc. split; [exact T3|]. split; [exact U3|].
    split; [eapply kept_chg; [exact C3|]; eapply sep_dis; [exact Hs|]; intros x; ofs; lia|].
    left. repeat split.
Qed.

(** ** One source *)
(** The node being filled. *)
Inductive tdesc : Type := TN | TL (a : nat) (xs : list T) | TI (q : pdesc).
Definition tfp (t : tdesc) : list nat := match t with TN => [] | TL a _ => [a] | TI q => pfp q end.
Definition toff (t : tdesc) : N := match t with TN => 0 | TL _ xs => lenN xs | TI q => lenN (pns q) end.
Definition tat (h : heap) (cl : nat) (M : gmerger) (m : @merger T) (t : tdesc) : Prop :=
  match t with
  | TN => gm_to M = None /\ m_to m = None
  | TL a xs => cl = O /\ gm_to M = Some a /\ gm_off M = lenN xs /\ m_to m = Some (Leaf xs) /\ xs <> [] /\
      lenN xs < hd 0 (m_curr m) /\
      exists o sl, at_ h a o (GLeaf sl) /\ ow o = true /\ lenN sl = lwidth /\ pre xs sl
  | TI q => exists l n, cl = S l /\ gm_to M = Some (pa q) /\ gm_off M = lenN (pns q) /\
      gm_tosize M = csize (pns q) /\ m_to m = Some (Inner (Some (psz q)) (pns q)) /\
      pns q <> [] /\ lenN (pns q) < hd 0 (m_curr m) /\ Forall (wf l) (pns q) /\ pat h l q n
  end.
Definition br (cl : nat) : N := match cl with O => lwidth | S _ => width end.

(** What a step does to the parents. *)
Definition eff (h h' : heap) (M : gmerger) (ps : list pdesc) (q : pdesc) (CF : list nat) (t : tdesc) (n : node T)
  (M' : gmerger) (ps' : list pdesc) (q' : pdesc) (CF' : list nat) (t' : tdesc) : Prop :=
  ktl h h' (pa q') (lenN (pns q')) /\ ttl h h' (pr q') (lenN (pns q')) /\
  kept h h' CF' /\
  (pa q' = pa q /\ pr q' = pr q /\ ps' = ps /\ CF' = CF /\ gm_cand M' = gm_cand M /\
     (pns q' = pns q \/ exists x, pns q' = pns q ++ [x] /\ (t = TN -> x = n /\ t' = TN)) \/
   lenN (pns q) = width /\ lenN (pns q') = 1 /\ gm_cand M' = None /\ ps' = ps ++ [q] /\
     taken h (gm_cand M) CF q' CF').

Record step (cl : nat) (plan : list N) (m : @merger T) (prod : list (node T)) (M : gmerger)
    (ps : list pdesc) (q : pdesc) (CF : list nat) (t : tdesc) (h : heap)
    (n : node T) (F R : list nat) (cs : list N)
    (m' : @merger T) (prod' : list (node T)) (M' : gmerger)
    (ps' : list pdesc) (q' : pdesc) (CF' : list nat) (t' : tdesc) (h' : heap) : Prop := {
  st_core : core cl plan m' prod' M' ps' q' CF' h';
  st_tat : tat h' cl M' m' t';
  st_flow : flow (toff t') (m_curr m') cs;
  st_bnd : Forall (fun c => 1 <= c <= br cl) (m_curr m');
  st_chg : chg h h' (pa q :: pr q :: CF ++ tfp t ++ F);
  st_sep : sep (length h') (fps ps' q' ++ CF' ++ tfp t' ++ R);
  st_eff : eff h h' M ps q CF t n M' ps' q' CF' t' }.

(** Adding a child after a change of other blocks. *)
Lemma add_after cl plan m prod M ps q CF h h1 W ec c nd Fc R k curr :
  core cl plan m prod M ps q CF h1 -> chg h h1 W -> length h1 = length h ->
  (forall x, In x W -> (x < length h)%nat /\ ~ In x (fps ps q ++ CF)) ->
  m_curr m = k :: curr -> ncount nd = k -> wf cl nd ->
  lenN plan <= 3 * width -> mine ec = true -> rep h1 cl c nd Fc ->
  sep (length h1) (fps ps q ++ CF ++ Fc ++ R) ->
  exists m' M' ps' q' CF' h',
    gadd_child B ec c (nsize nd) M h1 = Ok (M', h') /\
    add_child B m nd (nsize nd) = Ok m' /\
    core cl plan m' (prod ++ [nd]) M' ps' q' CF' h' /\ m_curr m' = curr /\ m_to m' = None /\
    gm_to M' = gm_to M /\ gm_off M' = gm_off M /\ gm_tosize M' = gm_tosize M /\
    chg h1 h' (pa q :: pr q :: CF) /\
    chg h h' (pa q :: pr q :: CF ++ W) /\ sep (length h') (fps ps' q' ++ CF' ++ R) /\
    ktl h h' (pa q') (lenN (pns q')) /\ ttl h h' (pr q') (lenN (pns q')) /\
    grew h h' M ps q CF nd M' ps' q' CF'.
Proof.
  intros Hco Hc Hl HW Hcu Hk Hw H3 Hec Hr Hs.
  destruct (sim_add cl plan m prod M ps q CF h1 ec c nd Fc R k curr Hco Hcu Hk Hw H3 Hec Hr Hs) as
    (m' & M' & ps' & q' & CF' & h' & E1 & E2 & H1 & H2 & H4 & H5 & H6 & H7 & H8 & H9 & H10 & H11 & H12).
  exists m', M', ps', q', CF', h'. split; [exact E1|]. split; [exact E2|]. split; [exact H1|].
  split; [exact H2|]. split; [exact H4|]. split; [exact H5|]. split; [exact H6|]. split; [exact H7|].
  split; [exact H8|].
  assert (forall x, In x (fps ps q ++ CF) \/ (length h <= x)%nat -> ~ In x W) as Hd.
  { intros x Hx Hi. destruct (HW x Hi) as [L N]. destruct Hx; [easy|lia]. }
  assert (~ In (pa q') W /\ ~ In (pr q') W) as [D1 D2].
  { assert (In (pa q) (fps ps q ++ CF) /\ In (pr q) (fps ps q ++ CF)) as [I1 I2].
    { unfold fps, pfp. rewrite !in_app_iff. cbn [In]. tauto. }
    destruct H12 as (_ & [(-> & -> & _)|(_ & _ & _ & _ & A)]).
    - split; apply Hd; auto.
    - destruct (taken_in _ _ _ _ _ A) as (A1 & A2 & _). clear - A1 A2 Hd Hl. rewrite Hl in *.
      split; apply Hd; rewrite in_app_iff; tauto. }
  split.
  { destruct Hc as (L0 & K0 & O0), H8 as (L1 & K1 & O1). split; [lia|]. split.
    - intros a b Ha Hn. apply K1; [apply K0; auto|].
      + intros Hi. apply Hn. right. right. apply in_or_app. auto.
      + intros [<-|[<-|Hi]]; apply Hn; [now left|right; now left|right; right; apply in_or_app; auto].
    - intros a b Ha Hi. destruct (in_dec Nat.eq_dec a W) as [Hy|Hy]; [eapply O0; eauto|].
      apply (O1 a b); [apply K0; auto|]. destruct Hi as [<-|[<-|Hi]]; [now left|right; now left|].
      apply in_app_or in Hi as [Hi|Hi]; [right; now right|easy]. }
  split; [exact H9|].
  split; [eapply ktl_trans; [eapply ktl_chg; eauto|auto]|].
  split; [eapply ttl_trans; [eapply ttl_chg; eauto|auto]|].
  unfold grew, taken in *. rewrite Hl in H12. destruct H12 as [Hkp Hcs]. split; [|exact Hcs].
  eapply kept_trans; [eapply kept_chg; [exact Hc|]|exact Hkp]. intros x Hx. apply Hd. left.
  assert (In x CF); [|rewrite in_app_iff; auto].
  destruct Hcs as [(_ & _ & _ & -> & _)|(_ & _ & _ & _ & A)]; [auto|].
  destruct (taken_in h _ _ _ _ A) as (_ & _ & I). auto.
Qed.
Lemma eff_grew h h1 h' M ps q CF t n nd M1 M' ps' q' CF' t' : grew h h1 M ps q CF nd M1 ps' q' CF' ->
  kept h1 h' CF' -> gm_cand M' = gm_cand M1 -> (t = TN -> nd = n /\ t' = TN) ->
  ktl h h' (pa q') (lenN (pns q')) -> ttl h h' (pr q') (lenN (pns q')) ->
  eff h h' M ps q CF t n M' ps' q' CF' t'.
Proof.
  intros [Hk H] Hk' E Ht K1 K2. split; [exact K1|]. split; [exact K2|]. split; [eapply kept_trans; eauto|].
  destruct H as [(A1 & A2 & A3 & A4 & A5 & A6)|(A1 & A2 & A3 & A4 & A5)].
  - left. repeat split; auto; [congruence|]. right. exists nd. auto.
  - right. rewrite A2. repeat split; auto; congruence.
Qed.
End Add.
Ltac ofs := unfold fps in *; occs; rewrite ?occ_pfp in *; occs.
