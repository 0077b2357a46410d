(** Trees in the memory of GcConcat: pushing and concatenating with the programs of GcVec, in
    place and not, gives the trees that the functions of Rrb compute. *)
From Coq Require Import List NArith Arith Bool Lia ZifyN ZifyNat ZifyBool.
From Verif Require Import Common NList Rrb RrbInv RrbPos RrbOps RrbSlice RrbTree RrbStrict GcConcat GcRep GcAdd GcVisit GcTree
  GcVec GcVecRun.
From Verif Require VecPush RrbConcat.
Import ListNotations.
Local Open Scope N_scope.

Set Default Goal Selector "!".

Section Tree.
Variables B BL : N.
Context {T : Type}.
Variable mine : token -> bool.
Notation sh := (sh B BL).
Notation span := (span B BL).
Notation width := (width B).
Notation lwidth := (lwidth BL).
Notation heap := (gheap T).
Notation rep := (@rep B BL T mine).
Notation ow := (ow mine).
Notation own1 := (own1 mine).
Notation chg := (@chg T mine).
Notation still := (@still T mine).
Notation wf := (@wf T B BL).
Notation full := (@full T B BL).
Notation pos_ok := (@pos_ok T B BL).
Notation gtrep := (@gtrep B BL T mine).
Notation al_ok := (al_ok mine).
Notation occ_own1 := (occ_own1 mine).
Notation spn := (@spn T B BL).
Hypothesis HB : 2 <= B.

Lemma HB1 : 1 <= B.
Proof. lia. Qed.

Lemma upd_upd (h : heap) a c c' : update_at a c (update_at a c' h) = update_at a c h.
Proof. revert a. induction h as [|y h IH]; intros [|a]; cbn; try reflexivity. now rewrite IH. Qed.
Lemma still_new h h' R : chg h h' [] -> still h h' R.
Proof. intros C. exists []. auto. Qed.
Lemma root_zero l (r : node T) : root_ok B BL l r -> nsize r = 0 -> r = Inner None [] /\ l = O.
Proof. intros [H|Hw] E; [exact H|]. pose proof (wf_size _ _ _ _ Hw). lia. Qed.

(** ** A new root *)
Lemma two_run (h : heap) b al ro k p0 p1 : at_ h b al (GInner ro (blank nat k)) -> 2 <= k ->
  exists ks, pre [p0; p1] ks /\ lenN ks = k /\
    gset_kid b 0 p0 h = Ok (tt, update_at b (mkG al (GInner ro (Some p0 :: blank nat (k - 1)))) h) /\
    gset_kid b 1 p1 (update_at b (mkG al (GInner ro (Some p0 :: blank nat (k - 1)))) h) =
      Ok (tt, update_at b (mkG al (GInner ro ks)) h).
Proof.
  intros Hb Hk.
  assert (blank nat k = None :: None :: blank nat (k - 2)) as E.
  { unfold blank. replace (N.to_nat k) with (S (S (N.to_nat (k - 2)))) by lia. reflexivity. }
  assert (blank nat (k - 1) = None :: blank nat (k - 2)) as E1.
  { unfold blank. replace (N.to_nat (k - 1)) with (S (N.to_nat (k - 2))) by lia. reflexivity. }
  exists (Some p0 :: Some p1 :: blank nat (k - 2)). split; [exists (blank nat (k - 2)); reflexivity|].
  split; [rewrite !lenN_cons, blank_len; lia|]. split.
  - eapply gset_kid_ok; [exact Hb|]. unfold write. rewrite blank_len. change (lenN [Some p0]) with 1.
    destruct (N.leb_spec (0 + 1) k); [|lia]. rewrite E1, E. reflexivity.
  - erewrite gset_kid_ok; [|eapply at_upd; exact Hb|].
    + rewrite upd_upd. reflexivity.
    + unfold write. change (lenN [Some p1]) with 1. rewrite lenN_cons, blank_len.
      destruct (N.leb_spec (1 + 1) (k - 1 + 1)); [|lia]. rewrite E1. reflexivity.
Qed.
Lemma grow_run al h l a r Fr tl tn Ft R : al_ok al -> rep h (S l) a r Fr -> wf (S l) r ->
  rep h O tl tn Ft -> full O tn -> sep (length h) (Fr ++ Ft ++ R) ->
  exists n h' F', (n <~ gmk_inner B al 2 ;;
          p <~ gmake_path B al (S l) tl ;;
          _ <~ gset_kid n 0 a ;;
          _ <~ gset_kid n 1 p ;;
          gret (S l, n)) h = Ok ((S l, n), h') /\ rep h' (S (S l)) n (Inner None [r; make_path (S l) tn]) F' /\
    sep (length h') (F' ++ R) /\ chg h h' [].
Proof.
  intros Hal Hr Hw Htl Hf HS. pose proof (width_2 B HB1) as W2.
  destruct (cap_ok mine al width 2 Hal W2) as (k & Ek & Hk & Hkw). set (b := length h).
  set (h1 := h ++ [mkG al (GInner None (blank nat k))]).
  assert (gmk_inner B (T := T) al 2 h = Ok (b, h1)) as E0.
  { unfold gmk_inner. run (glift_ok _ _ h Ek). reflexivity. }
  run E0. assert (chg h h1 []) as C0 by apply chg_new.
  assert (length h1 = S b) as L1 by (unfold h1; rewrite app_length; cbn; unfold b; lia).
  destruct (path_run B BL mine al Hal (S l) h1 tl tn Ft) as (p & h2 & Fp & E1 & Hp & C1 & S1); auto.
  { eapply rep_chg; [exact C0|exact Htl|easy]. }
  assert (chg h h2 []) as C2 by (apply (chg_nil_trans mine h h1 h2); assumption).
  run E1. assert (at_ h2 b al (GInner None (blank nat k))) as Hb2 by (eapply chg_at; [exact C1|apply at_new|easy]).
  destruct (two_run h2 b al None k a p Hb2 Hk) as (ks & Pk & Lk & E2 & E3). run E2. run E3.
  assert (unused h2 b) as Hun. { eexists _, _. split; [exact Hb2|]. intros y m. apply blank_head. }
  eexists b, _, (own1 al b ++ [] ++ List.concat [Fr; Fp]). split; [reflexivity|]. split; [|split].
  - cbn [GcRep.rep]. exists al, None, ks, [a; p], [], [Fr; Fp]. split; [eapply at_upd; exact Hb2|]. split; [exact Pk|].
    split; [rewrite Lk; exact Hkw|]. split; [reflexivity|]. split; [|reflexivity].
    constructor; [|apply all3_one].
    + eapply (rep_unused B BL mine _ _ _ Hun (S l)); [|exact Hw]. eapply rep_chg; [exact C2|exact Hr|easy].
    + eapply (rep_unused B BL mine _ _ _ Hun (S l)); [exact Hp|]. apply reg_wf, make_path_ok, Hf.
  - rewrite upd_len. assert (sep (length h2) (Fp ++ own1 al b ++ Fr ++ R)) as S2.
    { apply S1. rewrite L1. intros y. specialize (HS y). fold b in HS. rewrite lt1_S. pose proof (occ_own1 y al b). occs. la. }
    intros y. specialize (S2 y). occs. la.
  - apply chg_fresh; [exact C2|unfold b; lia].
Qed.
Lemma grow_r_run al h l a r Fr tl tn Ft R off ts : al_ok al -> rep h (S l) a r Fr -> wf (S l) r ->
  rep h O tl tn Ft -> full O tn -> sep (length h) (Fr ++ Ft ++ R) -> 0 < off -> 0 < ts ->
  exists n h' F', (n <~ gmk_inner_r B al 2 ;;
            p <~ gmake_path B al (S l) tl ;;
            _ <~ gset_kid n 0 a ;;
            _ <~ gset_kid n 1 p ;;
            nr <~ grelaxed n ;;
            _ <~ gset_size nr 0 off ;;
            _ <~ gset_size nr 1 (off + ts) ;;
            if (0 <? off) && (0 <? ts) then _ <~ gset_count nr 2 ;; gret (S l, n) else gub) h = Ok ((S l, n), h') /\
    rep h' (S (S l)) n (Inner (Some [off; off + ts]) [r; make_path (S l) tn]) F' /\
    sep (length h') (F' ++ R) /\ chg h h' [].
Proof.
  intros Hal Hr Hw Htl Hf HS Ho Hts. pose proof (width_2 B HB1) as W2.
  destruct (mk_inner_r_run B mine al h 2 Hal W2) as (k & E0 & Hk & Hkw & C0 & Hb & Hd & L1). cbv zeta in *.
  set (d := length h) in *. set (b := S d) in *. set (h1 := (h ++ _) ++ _) in *. run E0.
  destruct (path_run B BL mine al Hal (S l) h1 tl tn Ft) as (p & h2 & Fp & E1 & Hp & C1 & S1); auto.
  { eapply rep_chg; [exact C0|exact Htl|easy]. }
  assert (chg h h2 []) as C2 by (apply (chg_nil_trans mine h h1 h2); assumption).
  run E1. assert (at_ h2 b al (GInner (Some d) (blank nat k))) as Hb2 by (eapply chg_at; [exact C1|exact Hb|easy]).
  assert (at_ h2 d al (GTable (Some 0) (blank N k))) as Hd2 by (eapply chg_at; [exact C1|exact Hd|easy]).
  destruct (two_run h2 b al (Some d) k a p Hb2 Hk) as (ks & Pk & Lk & E2 & E3). run E2. run E3.
  set (h3 := update_at b _ h2).
  assert (at_ h3 b al (GInner (Some d) ks)) as Hb3 by (eapply at_upd; exact Hb2).
  assert (at_ h3 d al (GTable (Some 0) (blank N k))) as Hd3 by (apply at_upd_ne; [exact Hd2|unfold b; lia]).
  run (grelaxed_ok _ _ _ _ _ Hb3).
  destruct (write_pre [] [off] (blank N k) 0 (pre_nil _) eq_refl) as (z1 & Ew1 & P1 & Z1 & _); [rewrite blank_len; cbn; lia|].
  rewrite blank_len in Z1. cbn [map] in Ew1. run (gset_size_ok _ _ _ _ _ _ _ _ Hd3 Ew1).
  set (h4 := update_at d _ h3). assert (at_ h4 d al (GTable (Some 0) z1)) as Hd4 by (eapply at_upd; exact Hd3).
  destruct (write_pre [off] [off + ts] z1 1 P1 eq_refl) as (z2 & Ew2 & P2 & Z2 & _); [cbn; lia|].
  cbn [map] in Ew2. run (gset_size_ok _ _ _ _ _ _ _ _ Hd4 Ew2). set (h5 := update_at d _ h4).
  assert (at_ h5 d al (GTable (Some 0) z2)) as Hd5 by (eapply at_upd; exact Hd4).
  destruct (N.ltb_spec 0 off); [|lia]. destruct (N.ltb_spec 0 ts); [|lia]. cbn [andb].
  run (gset_count_ok _ _ _ _ _ 2 Hd5). set (h6 := update_at d _ h5).
  assert (h6 = update_at d (mkG al (GTable (Some 2) z2)) h3) as E6 by (unfold h6, h5, h4; now rewrite !upd_upd).
  assert (unused h2 b) as Hun. { eexists _, _. split; [exact Hb2|]. intros y m. apply blank_head. }
  assert (unused h3 d) as Hun'. { eexists _, _. split; [exact Hd3|reflexivity]. }
  eexists b, h6, (own1 al b ++ own1 al d ++ List.concat [Fr; Fp]). split; [reflexivity|]. split; [|split].
  - assert (forall y m G, rep h2 (S l) y m G -> wf (S l) m -> rep h6 (S l) y m G) as K.
    { intros y m G Hy Hm. rewrite E6. eapply rep_unused; [exact Hun'| |exact Hm]. eapply rep_unused; [exact Hun|exact Hy|exact Hm]. }
    cbn [GcRep.rep]. exists al, (Some d), ks, [a; p], (own1 al d), [Fr; Fp]. split.
    { rewrite E6. apply at_upd_ne; [exact Hb3|unfold b; lia]. }
    split; [exact Pk|]. split; [rewrite Lk; exact Hkw|]. split.
    { cbn. exists al, z2. split; [eapply at_upd; exact Hd5|]. split; [exact P2|]. split; [rewrite Z2, Z1; exact Hkw|reflexivity]. }
    split; [|reflexivity]. constructor; [|apply all3_one].
    + apply (K a r Fr); [|exact Hw]. eapply rep_chg; [exact C2|exact Hr|easy].
    + apply (K p _ Fp); [exact Hp|]. apply reg_wf, make_path_ok, Hf.
  - rewrite E6. unfold h3. rewrite !upd_len. assert (sep (length h2) (Fp ++ own1 al b ++ own1 al d ++ Fr ++ R)) as S2.
    { apply S1. rewrite L1. intros y. specialize (HS y). fold d in HS. rewrite lt1_S. change (lt1 y b) with (lt1 y (S d)). rewrite lt1_S.
      pose proof (occ_own1 y al b). pose proof (occ_own1 y al d). occs. la. }
    intros y. specialize (S2 y). occs. la.
  - rewrite E6. unfold h3. do 2 (apply chg_fresh; [|unfold b, d; lia]). exact C2.
Qed.

(** ** push_tail *)
Lemma push_tail_run al mu h x r Fr tl tn Ft R : al_ok al -> rep h (S (gt_lv x)) (gt_root x) r Fr ->
  root_ok B BL (gt_lv x) r -> rep h O tl tn Ft -> full O tn -> sep (length h) (Fr ++ Ft ++ R) ->
  exists l b h' r' F' W, gpush_tail B BL al mu x (nsize r) tl lwidth h = Ok ((l, b), h') /\
    push_tail B BL r (gt_lv x) (nsize r) tn lwidth = Ok (l, r') /\ rep h' (S l) b r' F' /\
    sep (length h') (F' ++ R) /\ chg h h' W /\ (forall y, In y W -> In y Fr).
Proof.
  intros Hal Hr Hok Htl Hf HS. unfold gpush_tail, push_tail. set (l := gt_lv x) in *. set (a := gt_root x) in *.
  pose proof (lwidth_pos BL) as Hlw. pose proof Hr as Hr0. destruct r as [xs|szo ns]; [easy|]. cbn [GcRep.rep] in Hr0.
  destruct Hr0 as (o & ro & ks & cs & Fr0 & Fs & Ha & Hpk & Lk & Htr & H3 & EF).
  run (ginner_ok _ _ _ _ _ Ha).
  destruct szo as [sz|]; destruct ro as [rt|]; try easy.
  - (* relaxed *)
    destruct Hok as [[? _]|Hw]; [discriminate|]. pose proof (wf_size _ _ _ _ Hw) as Hsz.
    destruct (push_relaxed_ok B BL l _ sz tn lwidth Hw eq_refl Hf eq_refl) as (q & Eq & Hres).
    destruct (push_run B BL mine al Hal (S l) mu (GRel a rt) (PRel (Inner (Some sz) ns) sz) (Inner (Some sz) ns) Fr tl tn Ft lwidth q h R)
      as (oc & h1 & E1 & Hc); auto.
    { exists a. split; [reflexivity|]. split; [exact Hr|]. split; [now constructor|]. eauto. }
    { intros X; discriminate X. }
    run E1. rewrite Eq. cbn [rbind]. destruct oc as [b|], q as [n'|]; try easy.
    + destruct Hc as (F' & W & Hb & S1 & C1 & HW). exists l, b, h1, n', F', W. auto 10.
    + subst h1.
      destruct (grow_r_run al h l a (Inner (Some sz) ns) Fr tl tn Ft R (nsize (Inner (Some sz) ns)) lwidth) as (n & h' & F' & E & Hn & S1 & C1); auto; try lia.
      rewrite E. destruct (N.ltb_spec 0 (nsize (Inner (Some sz) ns))); [|lia]. destruct (N.ltb_spec 0 lwidth); [|lia]. cbn [andb].
      eexists (S l), n, h', _, F', []. split; [reflexivity|]. split; [reflexivity|]. split; [exact Hn|]. split; [exact S1|]. split; [exact C1|easy].
  - rewrite shiftl_width. destruct (N.eqb_spec (nsize (Inner None ns)) (span (S l))) as [E|E].
    + assert (wf (S l) (Inner None ns)) as Hw by (eapply (RrbTree.root_pos B BL HB1); [exact Hok|rewrite E; apply span_pos]).
      destruct (grow_run al h l a (Inner None ns) Fr tl tn Ft R) as (n & h' & F' & E1 & Hn & S1 & C1); auto.
      rewrite E1. eexists (S l), n, h', _, F', []. split; [reflexivity|]. split; [reflexivity|]. split; [exact Hn|]. split; [exact S1|]. split; [exact C1|easy].
    + destruct (N.ltb_spec 0 (nsize (Inner None ns))) as [Hp|Hp].
      * pose proof (RrbTree.root_pos B BL HB1 _ _ Hok Hp) as Hw. pose proof (wf_size _ _ _ _ Hw) as Hsz.
        destruct (gp_sub B BL mine h (S l) a (Inner None ns) Fr Hr Hw eq_refl) as [Eg _]. run Eg.
        rewrite (mk_sub_ok B BL _ _ Hw eq_refl). cbn [rbind].
        destruct (push_regular_ok B BL l (PSub (Inner None ns) (nsize (Inner None ns))) (Inner None ns) tn lwidth) as (n' & En & Hrn & Hen & Hk);
          auto; [now constructor|lia|].
        destruct (push_run B BL mine al Hal (S l) mu (GSub a (nsize (Inner None ns))) (PSub (Inner None ns) (nsize (Inner None ns))) (Inner None ns) Fr tl tn Ft lwidth (Some n') h R)
          as (oc & h1 & E1 & Hc); auto.
        { exists a. split; [reflexivity|]. split; [exact Hr|]. split; [now constructor|reflexivity]. }
        { intros _. split; [discriminate|lia]. }
        run E1. rewrite En. cbn [rbind]. destruct oc as [b|]; [|easy].
        destruct Hc as (F' & W & Hb & S1 & C1 & HW). exists l, b, h1, n', F', W. auto 10.
      * destruct (path_run B BL mine al Hal (S l) h tl tn Ft Htl Hf) as (p & h1 & Fp & E1 & Hpp & C1 & S1). run E1.
        eexists l, p, h1, _, Fp, []. split; [reflexivity|]. split; [reflexivity|]. split; [exact Hpp|]. split; [|split; [exact C1|easy]].
        apply S1. intros y. specialize (HS y). occs. la.
Qed.

(** ** Leaves *)
(** A leaf with the elements [xs]. *)
Definition leafn (h : heap) (a : nat) (o : option token) (xs : list T) : Prop :=
  exists sl, at_ h a o (GLeaf sl) /\ pre xs sl /\ (ow o = true -> lenN sl = lwidth).
Lemma leafn_rep h a o xs : leafn h a o xs -> rep h O a (Leaf xs) (own1 o a).
Proof. intros (sl & H1 & H2 & H3). exists o, sl. auto. Qed.
Lemma rep_leafn h a xs F : rep h O a (Leaf xs) F -> exists o, leafn h a o xs /\ F = own1 o a.
Proof. intros (o & sl & H1 & H2 & H3 & E). exists o. split; [exists sl|]; auto. Qed.
Lemma leafn_chg h h' W a o xs : chg h h' W -> leafn h a o xs -> (forall x, In x (own1 o a) -> ~ In x W) -> leafn h' a o xs.
Proof. intros C (sl & H1 & H2 & H3) Hn. exists sl. split; [eapply chg_at_own; eauto|auto]. Qed.
Lemma leafn_app h a o u w : leafn h a o (u ++ w) -> leafn h a o u.
Proof. intros (sl & H1 & H2 & H3). exists sl. split; [auto|]. split; [eapply pre_app; eauto|auto]. Qed.
Lemma sep_new (h : heap) al L : sep (length h) L -> sep (S (length h)) (own1 al (length h) ++ L).
Proof. intros H x. specialize (H x). rewrite lt1_S. pose proof (occ_own1 x al (length h)). occs. la. Qed.

Lemma mk_leaf_run al h n : al_ok al -> n <= lwidth ->
  exists k, gmk_leaf BL al n h = Ok (length h, h ++ [mkG al (GLeaf (blank T k))]) /\ n <= k /\ (ow al = true -> k = lwidth).
Proof.
  intros Hal Hn. destruct (cap_ok mine al lwidth n Hal Hn) as (k & Ek & Hk & Hkw). exists k. split; [|auto].
  unfold gmk_leaf. run (glift_ok _ _ h Ek). reflexivity.
Qed.
Lemma put_elem_run (h : heap) a o sl xs i x : at_ h a o (GLeaf sl) -> pre xs sl -> lenN xs = i -> i < lenN sl ->
  exists sl', gput_elem a i x h = Ok (tt, update_at a (mkG o (GLeaf sl')) h) /\ pre (xs ++ [x]) sl' /\ lenN sl' = lenN sl.
Proof.
  intros Ha Hp Hl Hi. destruct (write_pre xs [x] sl i Hp Hl) as (sl' & E & P & L & _); [change (lenN [x]) with 1; lia|].
  exists sl'. split; [|auto]. unfold gput_elem. run (gleaf_ok _ _ _ _ Ha). cbn [map] in E. run (glift_ok _ _ h E).
  eapply gput_leaf_ok; eauto.
Qed.
Lemma copy_entries_run (h : heap) src o sl i j m dst o' dl xs k : at_ h src o (GLeaf sl) -> entries sl i j = Ok m ->
  at_ h dst o' (GLeaf dl) -> pre xs dl -> lenN xs = k -> k + lenN m <= lenN dl ->
  exists dl', gcopy_elems src i j dst k h = Ok (tt, update_at dst (mkG o' (GLeaf dl')) h) /\ pre (xs ++ m) dl' /\ lenN dl' = lenN dl.
Proof.
  intros Hs Hps Hd Hp Hk Hle.
  destruct (write_pre xs m dl k Hp Hk Hle) as (dl' & E & P & L & _). exists dl'. split; [|auto].
  unfold gcopy_elems. run (gleaf_ok _ _ _ _ Hs). run (glift_ok _ _ h Hps).
  run (gleaf_ok _ _ _ _ Hd). run (glift_ok _ _ h E). eapply gput_leaf_ok; eauto.
Qed.
Lemma copy_elems_run (h : heap) src o u m w i j dst o' dl xs k : leafn h src o (u ++ m ++ w) -> lenN u = i -> j = i + lenN m ->
  at_ h dst o' (GLeaf dl) -> pre xs dl -> lenN xs = k -> k + lenN m <= lenN dl ->
  exists dl', gcopy_elems src i j dst k h = Ok (tt, update_at dst (mkG o' (GLeaf dl')) h) /\ pre (xs ++ m) dl' /\ lenN dl' = lenN dl.
Proof.
  intros (sl & Hs & Hps & _) Hi Hj. eapply copy_entries_run; [exact Hs|]. eapply pre_slice; eauto.
Qed.
Lemma copy_range_run al h src o sl m i j : al_ok al -> at_ h src o (GLeaf sl) -> entries sl i j = Ok m -> j = i + lenN m -> lenN m <= lwidth ->
  exists h', gcopy_leaf BL al src i j h = Ok (length h, h') /\ leafn h' (length h) al m /\ chg h h' [] /\ length h' = S (length h).
Proof.
  intros Hal Hs Hi Hj Hm. destruct (mk_leaf_run al h (j - i) Hal) as (k & E0 & Hk & Hkw); [lia|].
  unfold gcopy_leaf. run E0. set (h1 := h ++ _). assert (chg h h1 []) as C1 by apply chg_new.
  assert (at_ h1 (length h) al (GLeaf (blank T k))) as Ha by apply at_new.
  destruct (copy_entries_run h1 src o sl i j m (length h) al (blank T k) [] 0) as (dl' & E & P & L); auto.
  { eapply chg_at; eauto. }
  { apply pre_nil. } { rewrite blank_len. lia. }
  run E. eexists. split; [reflexivity|]. split; [|split].
  - exists dl'. split; [eapply at_upd; exact Ha|]. split; [exact P|]. rewrite L, blank_len. exact Hkw.
  - apply chg_fresh; auto.
  - rewrite upd_len. unfold h1. rewrite app_length. cbn. lia.
Qed.
Lemma copy_leaf_run al h src o u m w i j : al_ok al -> leafn h src o (u ++ m ++ w) -> lenN u = i -> j = i + lenN m -> lenN m <= lwidth ->
  exists h', gcopy_leaf BL al src i j h = Ok (length h, h') /\ leafn h' (length h) al m /\ chg h h' [] /\ length h' = S (length h).
Proof.
  intros Hal (sl & Hs & Hps & _) Hi Hj. eapply copy_range_run; [exact Hal|exact Hs|eapply pre_slice; eauto|exact Hj].
Qed.
Lemma copy_leaf2_run al h s1 o1 a1 w1 s2 o2 a2 w2 n1 n2 : al_ok al -> leafn h s1 o1 (a1 ++ w1) -> leafn h s2 o2 (a2 ++ w2) ->
  n1 = lenN a1 -> n2 = lenN a2 -> n1 + n2 <= lwidth ->
  exists h', gcopy_leaf2 BL al s1 n1 s2 n2 h = Ok (length h, h') /\ leafn h' (length h) al (a1 ++ a2) /\ chg h h' [] /\ length h' = S (length h).
Proof.
  intros Hal H1 H2 E1 E2 Hle. destruct (mk_leaf_run al h (n1 + n2) Hal Hle) as (k & E0 & Hk & Hkw).
  unfold gcopy_leaf2. run E0. set (h1 := h ++ _). assert (chg h h1 []) as C1 by apply chg_new.
  assert (at_ h1 (length h) al (GLeaf (blank T k))) as Ha by apply at_new.
  destruct (copy_elems_run h1 s1 o1 [] a1 w1 0 n1 (length h) al (blank T k) [] 0) as (d1 & F1 & P1 & L1); auto.
  { eapply leafn_chg; eauto. }
  { apply pre_nil. } { rewrite blank_len. lia. }
  rewrite blank_len in L1. run F1. set (h2 := update_at _ _ h1). assert (chg h h2 []) as C2 by (apply chg_fresh; auto).
  assert (at_ h2 (length h) al (GLeaf d1)) as Ha2 by (eapply at_upd; exact Ha).
  destruct (copy_elems_run h2 s2 o2 [] a2 w2 0 n2 (length h) al d1 a1 n1) as (d2 & F2 & P2 & L2); auto.
  { eapply leafn_chg; eauto. } { lia. }
  run F2. eexists. split; [reflexivity|]. split; [|split].
  - exists d2. split; [eapply at_upd; exact Ha2|]. split; [exact P2|]. rewrite L2, L1. exact Hkw.
  - apply chg_fresh; auto.
  - unfold h2. rewrite !upd_len. unfold h1. rewrite app_length. cbn. lia.
Qed.
Lemma leaf_with_run al h x : al_ok al ->
  exists h', gleaf_with BL al x h = Ok (length h, h') /\ leafn h' (length h) al [x] /\ chg h h' [] /\ length h' = S (length h).
Proof.
  intros Hal. pose proof (lwidth_pos BL). destruct (mk_leaf_run al h 1 Hal) as (k & E0 & Hk & Hkw); [lia|].
  unfold gleaf_with. run E0. set (h1 := h ++ _). assert (chg h h1 []) as C1 by apply chg_new.
  assert (at_ h1 (length h) al (GLeaf (blank T k))) as Ha by apply at_new.
  destruct (put_elem_run h1 (length h) al (blank T k) [] 0 x Ha (pre_nil _) eq_refl) as (d1 & F1 & P1 & L1); [rewrite blank_len; lia|].
  run F1. eexists. split; [reflexivity|]. split; [|split].
  - exists d1. split; [eapply at_upd; exact Ha|]. split; [exact P1|]. rewrite L1, blank_len. exact Hkw.
  - apply chg_fresh; auto.
  - rewrite upd_len. unfold h1. rewrite app_length. cbn. lia.
Qed.
Lemma copy_emplace_run h src o a w n x : leafn h src o (a ++ w) -> n = lenN a -> n + 1 <= lwidth ->
  exists h', gcopy_emplace BL src n x h = Ok (length h, h') /\ leafn h' (length h) None (a ++ [x]) /\ chg h h' [] /\ length h' = S (length h).
Proof.
  intros Hs E Hle. destruct (mk_leaf_run None h (n + 1)) as (k & E0 & Hk & Hkw); [discriminate|auto|].
  unfold gcopy_emplace. run E0. set (h1 := h ++ _). assert (chg h h1 []) as C1 by apply chg_new.
  assert (at_ h1 (length h) None (GLeaf (blank T k))) as Ha by apply at_new.
  destruct (copy_elems_run h1 src o [] a w 0 n (length h) None (blank T k) [] 0) as (d1 & F1 & P1 & L1); auto.
  { eapply leafn_chg; eauto. }
  { apply pre_nil. } { rewrite blank_len. lia. }
  rewrite blank_len in L1. run F1. set (h2 := update_at _ _ h1).
  assert (at_ h2 (length h) None (GLeaf d1)) as Ha2 by (eapply at_upd; exact Ha).
  destruct (put_elem_run h2 (length h) None d1 a n x Ha2 P1 (eq_sym E)) as (d2 & F2 & P2 & L2); [lia|].
  run F2. eexists. split; [reflexivity|]. split; [|split].
  - exists d2. split; [eapply at_upd; exact Ha2|]. split; [exact P2|]. discriminate.
  - apply chg_fresh; [|auto]. apply chg_fresh; auto.
  - unfold h2. rewrite !upd_len. unfold h1. rewrite app_length. cbn. lia.
Qed.

(** ** push_back *)
(** What a function on trees leaves: the tree [z] for [t'], apart from the blocks [R], which are
    as they were. *)
Definition tpost (h h' : heap) (z : gtree) (t' : tree T) (R : list nat) : Prop :=
  exists F, gtrep h' z t' F /\ sep (length h') (F ++ R) /\ still h h' R.

(** The tail, after which it can be overwritten. *)
Lemma ensure_tail_run e h x xs Ft n : mine e = true -> rep h O (gt_tail x) (Leaf xs) Ft -> n = lenN xs -> n <= lwidth ->
  exists tl h' Ft', gensure_tail BL e x n h = Ok (mkGT (gt_size x) (gt_lv x) (gt_root x) tl, h') /\ leafn h' tl (Some e) xs /\
    Ft' = own1 (Some e) tl /\ chg h h' [] /\ (forall R, sep (length h) (Ft ++ R) -> sep (length h') (Ft' ++ R)).
Proof.
  intros He Ht En Hn. apply rep_leafn in Ht as (o & Ho & ->). pose proof Ho as (sl & Ha & _ & _).
  unfold gensure_tail. run (gcan_mutate_ok _ _ _ _ e Ha).
  destruct (owned_by (mkG o (GLeaf sl)) e) eqn:Eo.
  - destruct (owned_by_ow mine o (GLeaf sl) e He Eo) as [-> _]. exists (gt_tail x), h, (own1 (Some e) (gt_tail x)).
    split; [destruct x; reflexivity|]. split; [exact Ho|]. split; [reflexivity|]. split; [apply chg_refl|auto].
  - destruct (copy_leaf_run (Some e) h (gt_tail x) o [] xs [] 0 n) as (h1 & E1 & H1 & C1 & L1); auto.
    { intros e' [= <-]. exact He. } { cbn. now rewrite app_nil_r. } { lia. }
    run E1. exists (length h), h1, (own1 (Some e) (length h)). split; [reflexivity|]. split; [exact H1|]. split; [reflexivity|]. split; [exact C1|].
    intros R HS. rewrite L1. apply sep_new. intros y. specialize (HS y). occs. la.
Qed.

Lemma al_some e : mine e = true -> al_ok (Some e).
Proof. intros H e' [= <-]. exact H. Qed.
Lemma al_none : al_ok None.
Proof. discriminate. Qed.
Lemma own1_mine e a : mine e = true -> own1 (Some e) a = [a].
Proof. intros H. unfold GcRep.own1, GcRep.ow. now rewrite H. Qed.

Lemma push_back_mut_run e h x t F R v : mine e = true -> gtrep h x t F -> inv B BL t -> sep (length h) (F ++ R) ->
  exists z h' t', gpush_back_mut B BL e x v h = Ok (z, h') /\ push_back B BL t v = Ok t' /\ tpost h h' z t' R.
Proof.
  intros He Hx Ht HS. pose proof (gtail_offset_ok B BL mine HB _ _ _ _ Hx Ht) as Gx.
  pose proof (tail_offset_ok B BL HB1 t Ht) as Eto. pose proof Ht as (xs & Et & Hs & Hle & Hpos & Hr).
  fold (root_ok B BL (lv t) (root t)) in Hr. destruct Hx as (X1 & X2 & Fr & Ft & X3 & X4 & ->). rewrite Et in X4.
  unfold gpush_back_mut, push_back. run Gx. rewrite Eto. cbn [rbind]. rewrite X1.
  replace (size t - nsize (root t)) with (lenN xs) by lia. rewrite Et.
  destruct (N.ltb_spec (lenN xs) lwidth) as [Hlt|Hge].
  - destruct (ensure_tail_run e h x xs Ft (lenN xs) He X4 eq_refl Hle) as (tl & h1 & Ft' & E1 & Htl & -> & C1 & S1). run E1.
    destruct Htl as (sl & Ha & Hp & Hl).
    assert (sep (length h1) (own1 (Some e) tl ++ Fr ++ R)) as HS1. { apply S1. intros y. specialize (HS y). occs. la. }
    rewrite (own1_mine e tl He) in HS1.
    destruct (put_elem_run h1 tl (Some e) sl xs (lenN xs) v Ha Hp eq_refl) as (sl' & E2 & P2 & L2); [rewrite Hl by exact He; exact Hlt|].
    cbn [gt_tail gt_lv gt_root]. run E2. unfold copy_leaf_emplace. cbn [leaf_of rbind]. rewrite rtakeN_all by reflexivity. cbn [rbind].
    assert (chg h1 (update_at tl (mkG (Some e) (GLeaf sl')) h1) [tl]) as C2 by (eapply chg_upd; [exact Ha|exact He]).
    assert (forall y, In y (Fr ++ R) -> ~ In y [tl]) as D.
    { intros y Hy Hi. revert y Hi Hy. eapply sep_dis; [exact HS1|]. intros y. occs. la. }
    eexists _, _, _. split; [reflexivity|]. split; [reflexivity|]. exists (Fr ++ [tl]). split; [|split].
    + split; [reflexivity|]. split; [exact X2|]. exists Fr, [tl]. split; [|split; [|reflexivity]]; cbn [gt_lv gt_root gt_tail lv root tail].
      * eapply rep_chg; [exact C2|eapply rep_chg; [exact C1|exact X3|easy]|]. intros y Hy. apply D. apply in_or_app. auto.
      * rewrite <- (own1_mine e tl He). apply leafn_rep. exists sl'. split; [eapply at_upd; exact Ha|]. split; [exact P2|].
        intros _. rewrite L2. exact (Hl He).
    + rewrite upd_len. intros y. specialize (HS1 y). occs. la.
    + eapply still_trans; [apply still_new; exact C1|]. eapply still_chg; [exact C2|]. intros y Hy. apply D. apply in_or_app. auto.
  - assert (lenN xs = lwidth) as Ef by lia. assert (full O (Leaf xs)) as Hf by exact Ef. rewrite Ef.
    destruct (leaf_with_run (Some e) h v (al_some e He)) as (h1 & E1 & Htl & C1 & L1). run E1.
    destruct (push_tail_run (Some e) true h1 x (root t) Fr (gt_tail x) (Leaf xs) Ft (own1 (Some e) (length h) ++ R))
      as (l & b & h2 & r' & F' & W & E2 & Ep & Hb & S2 & C2 & HW); auto.
    { apply al_some, He. }
    { rewrite X2. eapply rep_chg; [exact C1|exact X3|easy]. } { now rewrite X2. }
    { eapply rep_chg; [exact C1|exact X4|easy]. }
    { rewrite L1. pose proof (sep_new h (Some e) _ HS) as S1. intros y. specialize (S1 y). occs. la. }
    run E2. rewrite X2 in Ep. rewrite Ep. cbn [rbind].
    assert (forall y, In y (own1 (Some e) (length h) ++ R) -> ~ In y W) as D.
    { intros y Hy Hi. apply HW in Hi. revert y Hy Hi. pose proof (sep_new h (Some e) _ HS) as S1.
      eapply sep_dis; [exact S1|]. intros y. occs. la. }
    eexists _, _, _. split; [reflexivity|]. split; [reflexivity|]. exists (F' ++ own1 (Some e) (length h)). split; [|split].
    + split; [reflexivity|]. split; [reflexivity|]. exists F', (own1 (Some e) (length h)). split; [exact Hb|]. split; [|reflexivity].
      cbn [gt_tail tail]. apply leafn_rep. eapply leafn_chg; [exact C2|exact Htl|]. intros y Hy. apply D. apply in_or_app. auto.
    + intros y. specialize (S2 y). occs. la.
    + eapply still_trans; [apply still_new; exact C1|]. eapply still_chg; [exact C2|]. intros y Hy. apply D. apply in_or_app. auto.
Qed.
Lemma push_back_run h x t F R v : gtrep h x t F -> inv B BL t -> sep (length h) (F ++ R) ->
  exists z h' t', gpush_back B BL x v h = Ok (z, h') /\ push_back B BL t v = Ok t' /\ tpost h h' z t' R.
Proof.
  intros Hx Ht HS. pose proof (gtail_offset_ok B BL mine HB _ _ _ _ Hx Ht) as Gx.
  pose proof (tail_offset_ok B BL HB1 t Ht) as Eto. pose proof Ht as (xs & Et & Hs & Hle & Hpos & Hr).
  fold (root_ok B BL (lv t) (root t)) in Hr. destruct Hx as (X1 & X2 & Fr & Ft & X3 & X4 & ->). rewrite Et in X4.
  unfold gpush_back, push_back. run Gx. rewrite Eto. cbn [rbind]. rewrite X1.
  replace (size t - nsize (root t)) with (lenN xs) by lia. rewrite Et.
  destruct (N.ltb_spec (lenN xs) lwidth) as [Hlt|Hge].
  - destruct (rep_leafn _ _ _ _ X4) as (o & Ho & EFt).
    destruct (copy_emplace_run h (gt_tail x) o xs [] (lenN xs) v) as (h1 & E1 & Htl & C1 & L1); auto; [now rewrite app_nil_r|lia|].
    run E1. unfold copy_leaf_emplace. cbn [leaf_of rbind]. rewrite rtakeN_all by reflexivity. cbn [rbind].
    eexists _, _, _. split; [reflexivity|]. split; [reflexivity|]. exists (Fr ++ own1 None (length h)). split; [|split].
    + split; [reflexivity|]. split; [exact X2|]. exists Fr, (own1 None (length h)). split; [|split; [|reflexivity]].
      * eapply rep_chg; [exact C1|exact X3|easy].
      * apply leafn_rep, Htl.
    + rewrite L1. intros y. specialize (HS y). rewrite lt1_S. unfold GcRep.own1. cbn [GcRep.ow]. occs. la.
    + apply still_new, C1.
  - assert (lenN xs = lwidth) as Ef by lia. assert (full O (Leaf xs)) as Hf by exact Ef. rewrite Ef.
    destruct (leaf_with_run None h v al_none) as (h1 & E1 & Htl & C1 & L1). run E1.
    destruct (push_tail_run None false h1 x (root t) Fr (gt_tail x) (Leaf xs) Ft R)
      as (l & b & h2 & r' & F' & W & E2 & Ep & Hb & S2 & C2 & HW); auto.
    { exact al_none. }
    { rewrite X2. eapply rep_chg; [exact C1|exact X3|easy]. } { now rewrite X2. }
    { eapply rep_chg; [exact C1|exact X4|easy]. }
    { rewrite L1. intros y. specialize (HS y). rewrite lt1_S. occs. la. }
    run E2. rewrite X2 in Ep. rewrite Ep. cbn [rbind].
    assert (forall y, In y R -> ~ In y W) as D.
    { intros y Hy Hi. apply HW in Hi. revert y Hy Hi. eapply sep_dis; [exact HS|]. intros y. occs. la. }
    eexists _, _, _. split; [reflexivity|]. split; [reflexivity|]. exists (F' ++ own1 None (length h)). split; [|split].
    + split; [reflexivity|]. split; [reflexivity|]. exists F', (own1 None (length h)). split; [exact Hb|]. split; [|reflexivity].
      cbn [gt_tail tail]. apply leafn_rep. eapply leafn_chg; [exact C2|exact Htl|]. easy.
    + intros y. specialize (S2 y). unfold GcRep.own1. cbn [GcRep.ow]. occs. la.
    + eapply still_trans; [apply still_new; exact C1|]. eapply still_chg; [exact C2|]. exact D.
Qed.

(** ** Concatenation *)
Lemma fill_run mv h e tl xs x y oy m w n : mine e = true -> gt_tail x = tl -> leafn h tl (Some e) xs ->
  leafn h (gt_tail y) oy (m ++ w) -> n = lenN m -> lenN xs + n <= lwidth ->
  (forall er, mv = Some er -> mine er = true) -> sep (length h) (own1 (Some e) tl ++ own1 oy (gt_tail y)) ->
  exists h' sl, gfill_tail mv x y (lenN xs) n h = Ok (tt, h') /\ leafn h' tl (Some e) (xs ++ m) /\ length h' = length h /\
    chg h h' (tl :: own1 oy (gt_tail y)) /\ at_ h' (gt_tail y) oy (GLeaf sl) /\ entries sl n (n + lenN w) = Ok w.
Proof.
  intros He Ex (dl & Hd & Pd & Ld) Hy En Hle Hmv HS. pose proof Hy as (sl & Ha & Hp & Hl). rewrite (own1_mine e tl He) in HS.
  assert (tl <> gt_tail y) as Ne.
  { intros E. rewrite E in Hd. unfold at_ in Hd, Ha. rewrite Hd in Ha. injection Ha as <- _. rewrite own1_mine in HS by exact He.
    specialize (HS tl). rewrite E in HS. occs. rewrite dl_same in HS. pose proof (lt1_1 (gt_tail y) (length h)). la. }
  unfold gfill_tail. rewrite Ex.
  destruct (copy_elems_run h (gt_tail y) oy [] m w 0 n tl (Some e) dl xs (lenN xs)) as (dl' & E1 & P1 & L1); auto.
  { rewrite Ld by exact He. lia. }
  assert (at_ (update_at tl (mkG (Some e) (GLeaf dl')) h) (gt_tail y) oy (GLeaf sl)) as Ha1 by (apply at_upd_ne; auto).
  assert (leafn (update_at tl (mkG (Some e) (GLeaf dl')) h) tl (Some e) (xs ++ m)) as Hd1.
  { exists dl'. split; [eapply at_upd; exact Hd|]. split; [exact P1|]. intros _. rewrite L1. exact (Ld He). }
  assert (chg h (update_at tl (mkG (Some e) (GLeaf dl')) h) [tl]) as C1 by (eapply chg_upd; [exact Hd|exact He]).
  assert (entries sl n (n + lenN w) = Ok w) as Ew by (eapply pre_slice; [rewrite app_nil_r; exact Hp|auto|auto]).
  assert (exists u, match mv with Some er => gcan_mutate (gt_tail y) er | None => gret false end h = Ok (u, h) /\
            (u = true -> ow oy = true)) as (u & Eu & Hu).
  { destruct mv as [er|]; [|exists false; split; [reflexivity|discriminate]]. eexists. split; [eapply gcan_mutate_ok; exact Ha|].
    intros Eo. destruct (owned_by_ow mine oy (GLeaf sl) er (Hmv er eq_refl) Eo). auto. }
  run Eu. run E1. destruct u.
  - run (gleaf_ok _ _ _ _ Ha1). destruct Hp as (rest & ->). rewrite map_app, <- app_assoc in *.
    assert (write (map Some m ++ map Some w ++ rest) 0 (blank T n) = Ok (blank T n ++ map Some w ++ rest)) as E2.
    { unfold write. rewrite blank_len, !lenN_app, !lenN_map. destruct (N.leb_spec (0 + n) (lenN m + (lenN w + lenN rest))); [|lia].
      rewrite dropN_app_ge by (rewrite lenN_map; lia). rewrite lenN_map. replace (0 + n - lenN m) with 0 by lia. reflexivity. }
    run (glift_ok _ _ (update_at tl (mkG (Some e) (GLeaf dl')) h) E2). rewrite (gput_leaf_ok _ _ _ _ _ Ha1).
    eexists _, _. split; [reflexivity|]. split; [|split; [|split; [|split]]].
    + destruct Hd1 as (d2 & A2 & B2 & D2). exists d2. split; [apply at_upd_ne; auto|auto].
    + now rewrite !upd_len.
    + change (tl :: own1 oy (gt_tail y)) with ([tl] ++ own1 oy (gt_tail y)). eapply chg_trans; [exact C1|].
      unfold GcRep.own1. rewrite (Hu eq_refl). eapply chg_upd; [exact Ha1|auto].
    + eapply at_upd. exact Ha1.
    + unfold entries. rewrite (rsliceN_app n (n + lenN w) (blank T n) (map Some w) rest) by (rewrite ?blank_len, ?lenN_map; lia).
      cbn [rbind]. apply rmap_got.
  - eexists _, sl. split; [reflexivity|]. split; [exact Hd1|]. split; [apply upd_len|]. split; [|split; [exact Ha1|exact Ew]].
    eapply chg_sub; [exact C1| |].
    + intros z _ [->|[]]. now left.
    + intros z _ [<-|Hz]; [exists (mkG (Some e) (GLeaf dl)); split; [exact Hd|exact He]|].
      eapply own1_owned; [exact Ha|exact Hz].
Qed.

Lemma gtrep_chg h h' W x t F : chg h h' W -> gtrep h x t F -> (forall y, In y F -> ~ In y W) -> gtrep h' x t F.
Proof.
  intros C (X1 & X2 & Fr & Ft & X3 & X4 & ->) D. split; [auto|]. split; [auto|]. exists Fr, Ft.
  split; [|split; [|reflexivity]]; (eapply rep_chg; [exact C|eassumption|]); intros y Hy; apply D, in_or_app; auto.
Qed.
Lemma empty_eq (t r : tree T) : inv B BL t -> inv B BL r -> size t = 0 -> size r = 0 -> t = r.
Proof.
  assert (forall u : tree T, inv B BL u -> size u = 0 -> u = mkTree 0 O (Inner None []) (Leaf [])) as K.
  { intros u (xs & Et & Hs & _ & _ & Hr) E. fold (root_ok B BL (lv u) (root u)) in Hr.
    destruct (root_zero _ _ Hr ltac:(lia)) as [E1 E2]. assert (xs = []) as -> by (apply lenN_0; lia).
    destruct u as [a b c d]. cbn in *. now subst. }
  intros H1 H2 E1 E2. rewrite (K t), (K r); auto.
Qed.

Lemma append_run noone el mv h x y t r F1 F2 R : mine noone = true -> mine el = true -> (forall er, mv = Some er -> mine er = true) ->
  gtrep h x t F1 -> gtrep h y r F2 -> inv B BL t -> inv B BL r ->
  spn (S (lv t)) (root t) -> spn (S (lv r)) (root r) -> sh (lv r) < 32 -> nsize (root r) <= 2 ^ 32 ->
  sep (length h) (F1 ++ F2 ++ R) ->
  exists z h' t', gappend B BL noone el mv x y h = Ok (z, h') /\ Rrb.concat B BL t r = Ok t' /\ tpost h h' z t' R.
Proof.
  intros Hno Hel Hmv Hx Hy Ht Hr Sp1 Sp2 Hsh H32 HS.
  pose proof (gtail_offset_ok B BL mine HB _ _ _ _ Hx Ht) as Gx. pose proof (gtail_offset_ok B BL mine HB _ _ _ _ Hy Hr) as Gy.
  pose proof (tail_offset_ok B BL HB1 t Ht) as Eto. pose proof (tail_offset_ok B BL HB1 r Hr) as Ero.
  pose proof Ht as (xs & Et & Hts & Htle & Htpos & Htr). fold (root_ok B BL (lv t) (root t)) in Htr.
  pose proof Hr as (ys & Er & Hrs & Hrle & Hrpos & Hrr). fold (root_ok B BL (lv r) (root r)) in Hrr.
  pose proof Hx as (X1 & X2 & Fr1 & Ft1 & X3 & X4 & EF1). pose proof Hy as (Y1 & Y2 & Fr2 & Ft2 & Y3 & Y4 & EF2).
  unfold gappend. rewrite X1, Y1.
  destruct (N.eqb_spec (size t) 0) as [Zt|Zt].
  { exists y, h, r. split; [reflexivity|]. split; [unfold Rrb.concat; now rewrite (proj2 (N.eqb_eq _ _) Zt)|].
    exists F2. split; [exact Hy|]. split; [|apply still_refl]. intros z. specialize (HS z). occs. la. }
  destruct (N.eqb_spec (size r) 0) as [Zr|Zr].
  { exists x, h, t. split; [reflexivity|]. split; [unfold Rrb.concat; now rewrite (proj2 (N.eqb_neq _ _) Zt), (proj2 (N.eqb_eq _ _) Zr)|].
    exists F1. split; [exact Hx|]. split; [|apply still_refl]. intros z. specialize (HS z). occs. la. }
  run Gy. destruct (N.eqb_spec (nsize (root r)) 0) as [Zro|Zro].
  2: { destruct (mut_run B BL mine HB el el (match mv with Some er => er | None => noone end) h x y t r F1 F2 R)
         as (z & h' & t' & F & E1 & E2 & Hz & S' & St); auto; try lia.
       { destruct mv as [er|]; auto. }
       exists z, h', t'. split; [exact E1|]. split; [exact E2|]. exists F. auto. }
  run Gx. unfold Rrb.concat. rewrite (proj2 (N.eqb_neq _ _) Zt), (proj2 (N.eqb_neq _ _) Zr), Ero, Eto. cbn [rbind].
  rewrite Zro, N.eqb_refl. replace (size t - nsize (root t)) with (lenN xs) by lia.
  assert (size r = lenN ys) as Sry by lia. rewrite Et, Er. rewrite Et in X4. rewrite Er in Y4. subst F1 F2.
  destruct (N.eqb_spec (lenN xs) lwidth) as [Fx|Fx].
  - destruct (push_tail_run (Some el) true h x (root t) Fr1 (gt_tail x) (Leaf xs) Ft1 (Ft2 ++ R))
      as (l & b & h2 & r' & F' & W & E2 & Ep & Hb & S2 & C2 & HW); auto.
    { apply al_some, Hel. } { now rewrite X2. } { now rewrite X2. } { intros z. specialize (HS z). occs. la. }
    rewrite Fx. run E2. rewrite X2 in Ep. rewrite Ep. cbn [rbind].
    assert (forall z, In z (Ft2 ++ R) -> ~ In z W) as D.
    { intros z Hz Hi. apply HW in Hi. revert z Hz Hi. eapply sep_dis; [exact HS|]. intros z. occs. la. }
    eexists _, _, _. split; [reflexivity|]. split; [reflexivity|]. exists (F' ++ Ft2). split; [|split].
    + split; [reflexivity|]. split; [reflexivity|]. exists F', Ft2. split; [exact Hb|]. split; [|reflexivity].
      cbn [gt_tail tail]. eapply rep_chg; [exact C2|exact Y4|]. intros z Hz. apply D, in_or_app. auto.
    + intros z. specialize (S2 z). occs. la.
    + eapply still_chg; [exact C2|]. intros z Hz. apply D, in_or_app. auto.
  - destruct (ensure_tail_run el h x xs Ft1 (lenN xs) Hel X4 eq_refl Htle) as (tl & h1 & Ft' & E1 & Htl & -> & C1 & S1).
    destruct (rep_leafn _ _ _ _ Y4) as (oy & Hoy & EFt). subst Ft2.
    assert (sep (length h1) (own1 (Some el) tl ++ Fr1 ++ own1 oy (gt_tail y) ++ R)) as HS1.
    { apply S1. intros z. specialize (HS z). occs. la. }
    assert (leafn h1 (gt_tail y) oy ys) as Hoy1 by (eapply leafn_chg; [exact C1|exact Hoy|easy]).
    assert (rep h1 (S (lv t)) (gt_root x) (root t) Fr1) as X3' by (eapply rep_chg; [exact C1|exact X3|easy]).
    set (x' := mkGT (gt_size x) (gt_lv x) (gt_root x) tl) in *. rewrite Sry.
    destruct (N.leb_spec (lenN xs + lenN ys) lwidth) as [Hfit|Hfit].
    + run E1. destruct (fill_run mv h1 el tl xs x' y oy ys [] (lenN ys)) as (h2 & sl & E2 & Hd2 & L2 & C2 & _ & _); auto.
      { now rewrite app_nil_r. } { intros z. specialize (HS1 z). occs. la. }
      run E2. unfold copy_leaf2. cbn [leaf_of rbind]. rewrite rtakeN_all by reflexivity. cbn [rbind].
      rewrite rtakeN_all by reflexivity. cbn [rbind].
      assert (forall z, In z (Fr1 ++ R) -> ~ In z (tl :: own1 oy (gt_tail y))) as D.
      { eapply sep_dis; [exact HS1|]. intros z. rewrite (own1_mine el tl Hel). occs. la. }
      eexists _, _, _. split; [reflexivity|]. split; [reflexivity|]. exists (Fr1 ++ own1 (Some el) tl). split; [|split].
      * split; [reflexivity|]. split; [exact X2|]. exists Fr1, (own1 (Some el) tl). split; [|split; [|reflexivity]].
        -- eapply rep_chg; [exact C2|exact X3'|]. intros z Hz. apply D, in_or_app. auto.
        -- apply leafn_rep, Hd2.
      * rewrite L2. intros z. specialize (HS1 z). occs. la.
      * eapply still_trans; [apply still_new; exact C1|]. eapply still_chg; [exact C2|]. intros z Hz. apply D, in_or_app. auto.
    + set (rem := lwidth - lenN xs). run E1.
      assert (lenN (takeN rem ys) = rem) as Hrem by (rewrite lenN_takeN; unfold rem; lia).
      assert (takeN rem ys ++ dropN rem ys = ys) as Hsplit by apply takeN_dropN.
      assert (lenN (dropN rem ys) = lenN ys - rem) as Hdr by (rewrite lenN_dropN; reflexivity).
      destruct (fill_run mv h1 el tl xs x' y oy (takeN rem ys) (dropN rem ys) rem) as (h2 & sl & E2 & Hd2 & L2 & C2 & Hy2 & Ey2); auto.
      { now rewrite Hsplit. } { unfold rem. lia. } { intros z. specialize (HS1 z). occs. la. }
      run E2. assert (rem + lenN (dropN rem ys) = lenN ys) as Esum by (unfold rem in *; lia). rewrite Esum in Ey2.
      destruct (copy_range_run (Some el) h2 (gt_tail y) oy sl (dropN rem ys) rem (lenN ys)) as (h3 & E3 & Hn3 & C3 & L3); auto; try lia.
      { apply al_some, Hel. }
      run E3. set (tn := Leaf (xs ++ takeN rem ys)).
      assert (full O tn) as Hf by (cbn; rewrite lenN_app, Hrem; unfold rem; lia).
      assert (forall z, In z (Fr1 ++ R) -> ~ In z (tl :: own1 oy (gt_tail y))) as D.
      { eapply sep_dis; [exact HS1|]. intros z. rewrite (own1_mine el tl Hel). occs. la. }
      assert (sep (length h3) (Fr1 ++ own1 (Some el) tl ++ own1 (Some el) (length h2) ++ R)) as HS3.
      { rewrite L3. intros z. specialize (HS1 z). rewrite <- L2 in HS1. rewrite lt1_S. pose proof (occ_own1 z (Some el) (length h2)). occs. la. }
      destruct (push_tail_run (Some el) true h3 x' (root t) Fr1 tl tn (own1 (Some el) tl) (own1 (Some el) (length h2) ++ R))
        as (l & b & h4 & r' & F' & W & E4 & Ep & Hb & S4 & C4 & HW); auto.
      { apply al_some, Hel. }
      { cbn [x' gt_lv gt_root]. rewrite X2. eapply rep_chg; [exact C3| |easy]. eapply rep_chg; [exact C2|exact X3'|].
        intros z Hz. apply D, in_or_app. auto. }
      { cbn [x' gt_lv]. now rewrite X2. }
      { eapply rep_chg; [exact C3|apply leafn_rep, Hd2|easy]. }
      cbn [x' gt_tail] in *. run E4. unfold copy_leaf2, copy_leaf_range. cbn [leaf_of rbind]. rewrite rtakeN_all by reflexivity.
      cbn [rbind]. rewrite rtakeN_ok by (unfold rem; lia). cbn [rbind].
      assert (rsliceN rem (lenN ys) ys = Ok (dropN rem ys)) as ->.
      { rewrite <- Hsplit at 2. apply rsliceN_app_r; [exact Hrem|]. lia. }
      cbn [rbind]. fold tn. change (gt_lv x') with (gt_lv x) in Ep. rewrite X2 in Ep. rewrite Ep. cbn [rbind].
      assert (forall z, In z (own1 (Some el) (length h2) ++ R) -> ~ In z W) as D4.
      { intros z Hz Hi. apply HW in Hi. revert z Hz Hi. eapply sep_dis; [exact HS3|]. intros z. occs. la. }
      eexists _, _, _. split; [reflexivity|]. split; [reflexivity|]. exists (F' ++ own1 (Some el) (length h2)). split; [|split].
      * split; [reflexivity|]. split; [reflexivity|]. exists F', (own1 (Some el) (length h2)). split; [exact Hb|]. split; [|reflexivity].
        apply leafn_rep. eapply leafn_chg; [exact C4|exact Hn3|]. intros z Hz. apply D4, in_or_app. auto.
      * intros z. specialize (S4 z). occs. la.
      * eapply still_trans; [apply still_new; exact C1|]. eapply still_trans.
        { eapply still_chg; [exact C2|]. intros z Hz. apply D, in_or_app. auto. }
        eapply still_trans; [apply still_new; exact C3|]. eapply still_chg; [exact C4|]. intros z Hz. apply D4, in_or_app. auto.
Qed.

Lemma prepend_run noone er mv h x y t r F1 F2 R : mine noone = true -> mine er = true -> (forall el, mv = Some el -> mine el = true) ->
  gtrep h x t F1 -> gtrep h y r F2 -> inv B BL t -> inv B BL r ->
  spn (S (lv t)) (root t) -> spn (S (lv r)) (root r) -> sh (lv r) < 32 -> nsize (root r) <= 2 ^ 32 ->
  sep (length h) (F1 ++ F2 ++ R) ->
  exists z h' t', gprepend B BL noone er mv x y h = Ok (z, h') /\ Rrb.concat B BL t r = Ok t' /\ tpost h h' z t' R.
Proof.
  intros Hno Her Hmv Hx Hy Ht Hr Sp1 Sp2 Hsh H32 HS.
  pose proof (gtail_offset_ok B BL mine HB _ _ _ _ Hx Ht) as Gx. pose proof (gtail_offset_ok B BL mine HB _ _ _ _ Hy Hr) as Gy.
  pose proof (tail_offset_ok B BL HB1 t Ht) as Eto. pose proof (tail_offset_ok B BL HB1 r Hr) as Ero.
  pose proof Ht as (xs & Et & Hts & Htle & Htpos & Htr). fold (root_ok B BL (lv t) (root t)) in Htr.
  pose proof Hr as (ys & Er & Hrs & Hrle & Hrpos & Hrr). fold (root_ok B BL (lv r) (root r)) in Hrr.
  pose proof Hx as (X1 & X2 & Fr1 & Ft1 & X3 & X4 & EF1). pose proof Hy as (Y1 & Y2 & Fr2 & Ft2 & Y3 & Y4 & EF2).
  unfold gprepend. rewrite X1, Y1.
  destruct (N.eqb_spec (size r) 0) as [Zr|Zr].
  { exists x, h, t. split; [reflexivity|]. split.
    { unfold Rrb.concat. destruct (N.eqb_spec (size t) 0) as [Zt|Zt].
      - now rewrite (empty_eq t r).
      - now rewrite (proj2 (N.eqb_eq _ _) Zr). }
    exists F1. split; [exact Hx|]. split; [|apply still_refl]. intros z. specialize (HS z). occs. la. }
  destruct (N.eqb_spec (size t) 0) as [Zt|Zt].
  { exists y, h, r. split; [reflexivity|]. split; [unfold Rrb.concat; now rewrite (proj2 (N.eqb_eq _ _) Zt)|].
    exists F2. split; [exact Hy|]. split; [|apply still_refl]. intros z. specialize (HS z). occs. la. }
  run Gy. destruct (N.eqb_spec (nsize (root r)) 0) as [Zro|Zro].
  2: { destruct (mut_run B BL mine HB er (match mv with Some el => el | None => noone end) er h x y t r F1 F2 R)
         as (z & h' & t' & F & E1 & E2 & Hz & S' & St); auto; try lia.
       { destruct mv as [el|]; auto. }
       exists z, h', t'. split; [exact E1|]. split; [exact E2|]. exists F. auto. }
  run Gx. unfold Rrb.concat. rewrite (proj2 (N.eqb_neq _ _) Zt), (proj2 (N.eqb_neq _ _) Zr), Ero, Eto. cbn [rbind].
  rewrite Zro, N.eqb_refl. replace (size t - nsize (root t)) with (lenN xs) by lia.
  assert (size r = lenN ys) as Sry by lia. rewrite Et, Er. rewrite Et in X4. rewrite Er in Y4. subst F1 F2.
  destruct (N.eqb_spec (lenN xs) lwidth) as [Fx|Fx].
  - destruct (push_tail_run None false h x (root t) Fr1 (gt_tail x) (Leaf xs) Ft1 (Ft2 ++ R))
      as (l & b & h2 & r' & F' & W & E2 & Ep & Hb & S2 & C2 & HW); auto.
    { exact al_none. } { now rewrite X2. } { now rewrite X2. } { intros z. specialize (HS z). occs. la. }
    rewrite Fx. run E2. rewrite X2 in Ep. rewrite Ep. cbn [rbind].
    assert (forall z, In z (Ft2 ++ R) -> ~ In z W) as D.
    { intros z Hz Hi. apply HW in Hi. revert z Hz Hi. eapply sep_dis; [exact HS|]. intros z. occs. la. }
    eexists _, _, _. split; [reflexivity|]. split; [reflexivity|]. exists (F' ++ Ft2). split; [|split].
    + split; [reflexivity|]. split; [reflexivity|]. exists F', Ft2. split; [exact Hb|]. split; [|reflexivity].
      cbn [gt_tail tail]. eapply rep_chg; [exact C2|exact Y4|]. intros z Hz. apply D, in_or_app. auto.
    + intros z. specialize (S2 z). occs. la.
    + eapply still_chg; [exact C2|]. intros z Hz. apply D, in_or_app. auto.
  - destruct (rep_leafn _ _ _ _ Y4) as (oy & Hoy & EFt2). destruct (rep_leafn _ _ _ _ X4) as (ox & Hox & EFt1). subst Ft1 Ft2.
    rewrite Sry. destruct (N.leb_spec (lenN xs + lenN ys) lwidth) as [Hfit|Hfit].
    + destruct (copy_leaf2_run None h (gt_tail x) ox xs [] (gt_tail y) oy ys [] (lenN xs) (lenN ys)) as (h1 & E1 & H1 & C1 & L1); auto.
      { exact al_none. } { now rewrite app_nil_r. } { now rewrite app_nil_r. }
      run E1. unfold copy_leaf2. cbn [leaf_of rbind]. rewrite rtakeN_all by reflexivity. cbn [rbind].
      rewrite rtakeN_all by reflexivity. cbn [rbind].
      eexists _, _, _. split; [reflexivity|]. split; [reflexivity|]. exists (Fr1 ++ own1 None (length h)). split; [|split].
      * split; [reflexivity|]. split; [exact X2|]. exists Fr1, (own1 None (length h)). split; [|split; [|reflexivity]].
        -- eapply rep_chg; [exact C1|exact X3|easy].
        -- apply leafn_rep, H1.
      * rewrite L1. intros z. specialize (HS z). rewrite lt1_S. unfold GcRep.own1 at 1. cbn [GcRep.ow]. occs. la.
      * apply still_new, C1.
    + set (rem := lwidth - lenN xs).
      assert (lenN (takeN rem ys) = rem) as Hrem by (rewrite lenN_takeN; unfold rem; lia).
      assert (takeN rem ys ++ dropN rem ys = ys) as Hsplit by apply takeN_dropN.
      assert (lenN (dropN rem ys) = lenN ys - rem) as Hdr by (rewrite lenN_dropN; reflexivity).
      destruct (copy_leaf2_run (Some er) h (gt_tail x) ox xs [] (gt_tail y) oy (takeN rem ys) (dropN rem ys) (lenN xs) rem) as (h1 & E1 & H1 & C1 & L1); auto.
      { apply al_some, Her. } { now rewrite app_nil_r. } { now rewrite Hsplit. } { unfold rem. lia. }
      run E1.
      destruct (copy_leaf_run (Some er) h1 (gt_tail y) oy (takeN rem ys) (dropN rem ys) [] rem (lenN ys)) as (h2 & E2 & H2 & C2 & L2); auto; try lia.
      { apply al_some, Her. } { rewrite app_nil_r, Hsplit. eapply leafn_chg; [exact C1|exact Hoy|easy]. }
      run E2. set (tn := Leaf (xs ++ takeN rem ys)).
      assert (full O tn) as Hf by (cbn; rewrite lenN_app, Hrem; unfold rem; lia).
      assert (sep (length h2) (Fr1 ++ own1 (Some er) (length h) ++ own1 (Some er) (length h1) ++ R)) as HS2.
      { rewrite L2, L1. intros z. specialize (HS z). rewrite !lt1_S. pose proof (occ_own1 z (Some er) (length h)).
        pose proof (occ_own1 z (Some er) (S (length h))). occs. la. }
      destruct (push_tail_run None false h2 x (root t) Fr1 (length h) tn (own1 (Some er) (length h)) (own1 (Some er) (length h1) ++ R))
        as (l & b & h4 & r' & F' & W & E4 & Ep & Hb & S4 & C4 & HW); auto.
      { exact al_none. }
      { rewrite X2. eapply rep_chg; [exact C2| |easy]. eapply rep_chg; [exact C1|exact X3|easy]. }
      { now rewrite X2. }
      { eapply rep_chg; [exact C2|apply leafn_rep, H1|easy]. }
      run E4. unfold copy_leaf2, copy_leaf_range. cbn [leaf_of rbind]. rewrite rtakeN_all by reflexivity.
      cbn [rbind]. rewrite rtakeN_ok by (unfold rem; lia). cbn [rbind].
      assert (rsliceN rem (lenN ys) ys = Ok (dropN rem ys)) as ->.
      { rewrite <- Hsplit at 2. apply rsliceN_app_r; [exact Hrem|]. lia. }
      cbn [rbind]. fold tn. rewrite X2 in Ep. rewrite Ep. cbn [rbind].
      assert (forall z, In z (own1 (Some er) (length h1) ++ R) -> ~ In z W) as D4.
      { intros z Hz Hi. apply HW in Hi. revert z Hz Hi. eapply sep_dis; [exact HS2|]. intros z. occs. la. }
      eexists _, _, _. split; [reflexivity|]. split; [reflexivity|]. exists (F' ++ own1 (Some er) (length h1)). split; [|split].
      * split; [reflexivity|]. split; [reflexivity|]. exists F', (own1 (Some er) (length h1)). split; [exact Hb|]. split; [|reflexivity].
        apply leafn_rep. eapply leafn_chg; [exact C4|exact H2|]. intros z Hz. apply D4, in_or_app. auto.
      * intros z. specialize (S4 z). occs. la.
      * eapply still_trans; [apply still_new; exact C1|]. eapply still_trans; [apply still_new; exact C2|].
        eapply still_chg; [exact C4|]. intros z Hz. apply D4, in_or_app. auto.
Qed.
End Tree.
