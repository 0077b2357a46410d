(** Pushing a leaf into a tree in the memory of GcConcat: the programs of GcVec build the trees
    that the functions of Rrb compute. *)
From Coq Require Import List NArith Arith Bool Lia ZifyN ZifyNat ZifyBool.
From Verif Require Import Common NList Rrb RrbInv RrbPos RrbOps RrbTree GcConcat GcRep GcAdd GcVisit GcTree GcVec.
From Verif Require VecPush RrbConcat.
Import ListNotations.
Local Open Scope N_scope.

Set Default Goal Selector "!".

Section Run.
Variables B BL : N.
Context {T : Type}.
Variable mine : token -> bool.
Notation sh := (sh B BL).
Notation span := (span B BL).
Notation width := (width B).
Notation lwidth := (lwidth BL).
Notation heap := (gheap T).
Notation rep := (@rep B BL T mine).
Notation ow := (ow mine).
Notation own1 := (own1 mine).
Notation chg := (@chg T mine).
Notation wf := (@wf T B BL).
Notation reg := (@reg T B BL).
Notation full := (@full T B BL).
Notation pos_ok := (@pos_ok T B BL).
Notation room := (@VecPush.room T B BL).

(** A token that blocks are made with is one of the caller's. *)
Definition al_ok (al : option token) : Prop := forall e, al = Some e -> mine e = true.

Lemma occ_own1 x o a : (occ x (own1 o a) <= dl x a)%nat.
Proof. unfold GcRep.own1. destruct (ow o); occs; lia. Qed.
Lemma chg_more h h1 W c : chg h h1 W -> chg h (h1 ++ [c]) W.
Proof. intros H. rewrite <- (app_nil_r W). eapply chg_trans; [exact H|apply chg_new]. Qed.
(** Writing to a block that is not of [h]. *)
Lemma chg_fresh h h1 W a c : chg h h1 W -> (length h <= a)%nat -> chg h (update_at a c h1) W.
Proof.
  intros (L & K & O1) Ha. split; [now rewrite upd_len|]. split; [|auto].
  intros x d Hx Hn. rewrite upd_ne; [auto|]. intros <-.
  assert (nth_error h a <> None) as Hs by congruence. apply nth_error_Some in Hs. lia.
Qed.
Lemma chg_nil_trans h h1 h2 W : chg h h1 [] -> chg h1 h2 W -> chg h h2 W.
Proof. intros H1 H2. change W with ([] ++ W). eapply chg_trans; eauto. Qed.

(** Blocks of a tree have a first entry. *)
Definition unused (h : heap) (x : nat) : Prop := exists o b, at_ h x o b /\
  match b with GLeaf _ => False | GInner _ ks => forall c l, ks <> Some c :: l | GTable n _ => n = Some 0 end.
Lemma blank_head A k (c : A) l : blank A k <> Some c :: l.
Proof. unfold blank. now destruct (N.to_nat k). Qed.
Lemma rep_unused h x c : unused h x -> forall v a n F, rep h v a n F -> wf v n -> rep (update_at x c h) v a n F.
Proof.
  intros (o & b & Hx & Hb). unfold at_ in Hx.
  assert (forall a o' b', at_ h a o' b' -> b <> b' -> at_ (update_at x c h) a o' b') as K.
  { intros a o' b' Ha N. apply at_upd_ne; [exact Ha|]. intros <-. unfold at_ in Ha. congruence. }
  induction v as [|l IH]; intros a n F H Hw; destruct n as [xs|sz ns]; cbn [GcRep.rep] in H |- *; try easy.
  - destruct H as (o' & sl & Ha & Hp & Hl & ->). exists o', sl. split; [|auto]. apply K; [exact Ha|].
    intros ->. exact Hb.
  - destruct H as (o' & r & ks & cs & Fr & Fs & Ha & Hp & Hl & Ht & Hk & ->).
    pose proof (wf_kids B BL l _ Hw) as Hwk. cbn [kids] in Hwk.
    assert (0 < lenN ns) as Hns by exact (wf_count_pos _ _ _ _ Hw).
    exists o', r, ks, cs, Fr, Fs. split.
    { apply K; [exact Ha|]. intros ->. destruct Hp as (rest & ->). destruct (all3_len _ _ _ _ Hk) as [El _].
      destruct cs as [|y cs]; [rewrite <- El in Hns; cbn in Hns; lia|]. now apply (Hb y (map Some cs ++ rest)). }
    split; [auto|]. split; [auto|]. split.
    { destruct r as [r|], sz as [sz|]; cbn in Ht |- *; try easy. destruct Ht as (o2 & sl & Hr & Hp2 & Hl2 & ->).
      exists o2, sl. split; [|auto]. apply K; [exact Hr|]. intros ->. injection Hb as Hb.
      destruct Hw as (_ & _ & ->). rewrite lenN_sums, lenN_map in Hb. lia. }
    split; [|auto]. clear - IH Hk Hwk. induction Hk as [|y m G la lc ld Hr Hk IHk]; [constructor|].
    inversion Hwk; subst. constructor; auto.
Qed.
Lemma reps_unused h x c v : unused h x -> forall a n F, all3 (rep h v) a n F -> Forall (wf v) n -> all3 (rep (update_at x c h) v) a n F.
Proof.
  intros Hu a n F H. induction H as [|y m G la lc ld Hr Hk IHk]; intros Hw; [constructor|].
  inversion Hw; subst. constructor; [|auto]. eapply rep_unused; eauto.
Qed.

Lemma cap_ok al w n : al_ok al -> n <= w -> exists k, gcap al w n = Ok k /\ n <= k /\ (ow al = true -> k = w).
Proof.
  intros Ha Hn. destruct al as [e|]; cbn.
  - exists w. auto.
  - destruct (N.leb_spec n w); [|lia]. exists n. split; [auto|]. split; [lia|easy].
Qed.

Lemma all3_single {A C D} (R : A -> C -> D -> Prop) la x ld : all3 R la [x] ld -> exists a d, la = [a] /\ ld = [d] /\ R a x d.
Proof. intros H. inversion H as [|a ? d ? ? ? Hr H']; subst. inversion H'; subst. eauto. Qed.

(** ** make_path *)
Lemma path_run al : al_ok al -> forall l h tl tn Ft, rep h O tl tn Ft -> full O tn ->
  exists a h' F', gmake_path B al l tl h = Ok (a, h') /\ rep h' l a (make_path l tn) F' /\ chg h h' [] /\
    (forall R, sep (length h) (Ft ++ R) -> sep (length h') (F' ++ R)).
Proof.
  intros Hal. induction l as [|l IH]; intros h tl tn Ft Htl Hf.
  - exists tl, h, Ft. split; [reflexivity|]. split; [exact Htl|]. split; [apply chg_refl|auto].
  - cbn [gmake_path make_path]. destruct (cap_ok al width 1 Hal) as (k & Ek & Hk1 & Hk2).
    { pose proof (width_pos B). lia. }
    set (n := length h). set (h1 := h ++ [mkG al (GInner None (blank nat k))]).
    assert (gmk_inner B (T := T) al 1 h = Ok (n, h1)) as E1.
    { unfold gmk_inner. run (glift_ok _ _ h Ek). reflexivity. }
    run E1. assert (chg h h1 []) as C1 by apply chg_new.
    assert (rep h1 O tl tn Ft) as Htl1 by (eapply rep_chg; eauto).
    destruct (IH h1 tl tn Ft Htl1 Hf) as (c & h2 & Fc & E2 & Hc & C2 & S2). run E2.
    assert (at_ h2 n al (GInner None (blank nat k))) as Hn by (eapply chg_at; [exact C2|apply at_new|easy]).
    destruct (write_pre [] [c] (blank nat k) 0 (pre_nil _) eq_refl) as (ks & Ew & Hp & Hl & _).
    { rewrite blank_len. cbn. lia. }
    cbn [map] in Ew. run (gset_kid_ok _ _ _ _ _ _ _ _ Hn Ew).
    eexists n, _, _. split; [reflexivity|]. rewrite blank_len in Hl.
    assert (unused h2 n) as Hu. { eexists _, _. split; [exact Hn|]. intros y m. apply blank_head. }
    split; [|split].
    + cbn [GcRep.rep]. exists al, None, ks, [c], [], [Fc]. split; [eapply at_upd; exact Hn|]. split; [exact Hp|].
      split; [rewrite Hl; exact Hk2|]. split; [reflexivity|]. split; [|reflexivity]. apply all3_one.
      eapply rep_unused; [exact Hu|exact Hc|]. apply reg_wf, make_path_ok, Hf.
    + apply chg_fresh; [|unfold n; lia]. eapply chg_nil_trans; eauto.
    + intros R HR. rewrite upd_len. assert (sep (length h2) (Fc ++ own1 al n ++ R)) as S3.
      { apply S2. unfold h1. rewrite app_length. cbn [length]. rewrite Nat.add_1_r. intros x. specialize (HR x).
        pose proof (occ_own1 x al n). rewrite lt1_S. occs. fold n in HR |- *. la. }
      intros x. specialize (S3 x). occs. la.
Qed.

(** ** The new child of a relaxed node *)
Lemma mk_inner_r_run al h n : al_ok al -> n <= width ->
  exists k, let r := length h in let b := S r in
    let h1 := (h ++ [mkG al (GTable (Some 0) (blank N k))]) ++ [mkG al (GInner (Some r) (blank nat k))] in
    gmk_inner_r B al n h = Ok (b, h1) /\ n <= k /\ (ow al = true -> k = width) /\ chg h h1 [] /\
    at_ h1 b al (GInner (Some r) (blank nat k)) /\ at_ h1 r al (GTable (Some 0) (blank N k)) /\ length h1 = S (S r).
Proof.
  intros Hal Hn. destruct (cap_ok al width n Hal Hn) as (k & Ek & Hk1 & Hk2). exists k. cbv zeta.
  set (h0 := h ++ [mkG al (GTable (Some 0) (blank N k))]). assert (length h0 = S (length h)) as E0 by (unfold h0; rewrite app_length; cbn; lia).
  split.
  { unfold gmk_inner_r. run (glift_ok _ _ h Ek). unfold gbind at 1. cbn [gnew]. fold h0. unfold gnew. rewrite E0. reflexivity. }
  split; [auto|]. split; [auto|]. split; [apply chg_more, chg_new|]. split; [rewrite <- E0; apply at_new|].
  split; [apply at_app, at_new|]. rewrite app_length, E0. cbn. lia.
Qed.

Lemma finish_copy_run al l h a o r ks c1 c2 o2 sl z0 s z1 z2 n1 F1 c cn Fc i ts :
  al_ok al -> at_ h a o (GInner (Some r) ks) -> pre (c1 ++ c2) ks ->
  at_ h r o2 (GTable (Some (lenN (z0 ++ [s]))) sl) -> pre (z0 ++ [s]) sl -> z0 ++ [s] = z1 ++ z2 ->
  lenN c1 = i -> lenN z1 = i -> i + 1 <= width -> 0 < s + ts ->
  all3 (rep h l) c1 n1 F1 -> rep h l c cn Fc ->
  exists b h' F', gfinish_copy B al a r i c ts h = Ok (Some b, h') /\
    rep h' (S l) b (Inner (Some (z1 ++ [s + ts])) (n1 ++ [cn])) F' /\ chg h h' [] /\
    (forall R, sep (length h) (List.concat F1 ++ Fc ++ R) -> sep (length h') (F' ++ R)).
Proof.
  intros Hal Ha Hpk Hr Hpz Ez Hi1 Hi2 Hw Hs H3 Hc.
  destruct (mk_inner_r_run al h (i + 1) Hal Hw) as (k & E1 & Hk & Hkw & C1 & Hb & Hd & L1). cbv zeta in *.
  set (d := length h) in *. set (b := S d) in *.
  set (h1 := (h ++ _) ++ _) in *. unfold gfinish_copy. run E1.
  assert (a < d)%nat as La by (unfold d; eapply at_lt; eauto).
  assert (r < d)%nat as Lr by (unfold d; eapply at_lt; eauto).
  assert (at_ h1 a o (GInner (Some r) ks)) as Ha1 by (eapply chg_at; [exact C1|exact Ha|easy]).
  assert (at_ h1 r o2 (GTable (Some (lenN (z0 ++ [s]))) sl)) as Hr1 by (eapply chg_at; [exact C1|exact Hr|easy]).
  (* copying *)
  destruct (write_pre [] c1 (blank nat k) 0 (pre_nil _) eq_refl) as (kb & Ew1 & Pb & Lb & _); [rewrite blank_len; lia|].
  destruct (write_pre [] z1 (blank N k) 0 (pre_nil _) eq_refl) as (zb & Ew2 & Pz & Lz & _); [rewrite blank_len; lia|].
  cbn [app] in Pb, Pz. rewrite blank_len in Lb, Lz.
  assert (entries ks 0 i = Ok c1) as Ee1 by (apply (pre_all c1); [eapply pre_app; exact Hpk|auto]).
  assert (entries sl 0 i = Ok z1) as Ee2 by (rewrite Ez in Hpz; apply (pre_all z1); [eapply pre_app; exact Hpz|auto]).
  set (h2 := update_at b (mkG al (GInner (Some d) kb)) h1).
  assert (at_ h2 b al (GInner (Some d) kb)) as Hb2 by (eapply at_upd; exact Hb).
  assert (at_ h2 d al (GTable (Some 0) (blank N k))) as Hd2 by (apply at_upd_ne; [exact Hd|unfold b; lia]).
  assert (at_ h2 r o2 (GTable (Some (lenN (z0 ++ [s]))) sl)) as Hr2 by (apply at_upd_ne; [exact Hr1|unfold b; lia]).
  set (h3 := update_at d (mkG al (GTable (Some i) zb)) h2).
  assert (gcopy_kids_r b a i h1 = Ok (tt, h3)) as E2.
  { unfold gcopy_kids_r. run (grelaxed_ok _ _ _ _ _ Ha1). run (grelaxed_ok _ _ _ _ _ Hb).
    assert (gcopy_kids b a i h1 = Ok (tt, h2)) as E.
    { unfold gcopy_kids. run (ginner_ok _ _ _ _ _ Ha1). run (glift_ok _ _ h1 Ee1). run (ginner_ok _ _ _ _ _ Hb).
      run (glift_ok _ _ h1 Ew1). eapply gput_inner_ok; exact Hb. }
    run E. run (gtable_ok _ _ _ _ _ Hr2). run (glift_ok _ _ h2 Ee2). run (gtable_ok _ _ _ _ _ Hd2).
    run (glift_ok _ _ h2 Ew2). eapply gput_table_ok; exact Hd2. }
  run E2.
  assert (at_ h3 b al (GInner (Some d) kb)) as Hb3 by (apply at_upd_ne; [exact Hb2|unfold b; lia]).
  assert (at_ h3 d al (GTable (Some i) zb)) as Hd3 by (eapply at_upd; exact Hd2).
  assert (at_ h3 r o2 (GTable (Some (lenN (z0 ++ [s]))) sl)) as Hr3 by (apply at_upd_ne; [exact Hr2|lia]).
  run (grelaxed_ok _ _ _ _ _ Hb3).
  destruct (write_pre c1 [c] kb i Pb Hi1) as (kb' & Ew3 & Pb' & Lb' & _); [rewrite Lb; cbn; lia|].
  cbn [map] in Ew3. run (gset_kid_ok _ _ _ _ _ _ _ _ Hb3 Ew3).
  set (h4 := update_at b _ h3).
  assert (at_ h4 b al (GInner (Some d) kb')) as Hb4 by (eapply at_upd; exact Hb3).
  assert (at_ h4 d al (GTable (Some i) zb)) as Hd4 by (apply at_upd_ne; [exact Hd3|unfold b; lia]).
  assert (at_ h4 r o2 (GTable (Some (lenN (z0 ++ [s]))) sl)) as Hr4 by (apply at_upd_ne; [exact Hr3|unfold b; lia]).
  assert (gtotal r h4 = Ok (s, h4)) as Et.
  { unfold gtotal. run (gcount_ok _ _ _ _ _ Hr4). rewrite lenN_snoc. destruct (N.eqb_spec (lenN z0 + 1) 0); [lia|].
    eapply gsize_ok; [exact Hr4|]. replace (lenN z0 + 1 - 1) with (lenN z0) by lia. eapply pre_at; [exact Hpz|reflexivity]. }
  run Et.
  destruct (write_pre z1 [s + ts] zb i Pz Hi2) as (zb' & Ew4 & Pz' & Lz' & _); [rewrite Lz; cbn; lia|].
  cbn [map] in Ew4. run (gset_size_ok _ _ _ _ _ _ _ _ Hd4 Ew4).
  set (h5 := update_at d _ h4).
  assert (at_ h5 d al (GTable (Some i) zb')) as Hd5 by (eapply at_upd; exact Hd4).
  run (gset_count_ok _ _ _ _ _ (i + 1) Hd5).
  set (h6 := update_at d _ h5).
  assert (at_ h6 d al (GTable (Some (i + 1)) zb')) as Hd6 by (eapply at_upd; exact Hd5).
  assert (at_ h6 b al (GInner (Some d) kb')) as Hb6.
  { apply at_upd_ne; [|unfold b; lia]. apply at_upd_ne; [exact Hb4|unfold b; lia]. }
  destruct (N.eqb_spec (s + ts) 0); [lia|].
  assert (chg h h6 []) as C6.
  { unfold h6, h5, h4, h3, h2. repeat (apply chg_fresh; [|unfold b, d; lia]). exact C1. }
  eexists b, h6, _. split; [reflexivity|]. split; [|split; [exact C6|]].
  - cbn [GcRep.rep]. exists al, (Some d), kb', (c1 ++ [c]), (own1 al d), (F1 ++ [Fc]).
    split; [exact Hb6|]. split; [exact Pb'|]. split; [rewrite Lb', Lb; exact Hkw|]. split.
    { cbn. exists al, zb'. rewrite lenN_snoc, Hi2. split; [exact Hd6|]. split; [exact Pz'|].
      split; [rewrite Lz', Lz; exact Hkw|reflexivity]. }
    split; [|reflexivity]. apply all3_app; [|apply all3_one].
    + eapply reps_chg; [exact C6|exact H3|easy].
    + eapply rep_chg; [exact C6|exact Hc|easy].
  - intros R HR x. specialize (HR x). pose proof (occ_own1 x al b). pose proof (occ_own1 x al d).
    assert (length h6 = S (S d)) as -> by (unfold h6, h5, h4, h3, h2; rewrite !upd_len; exact L1).
    fold d in HR. rewrite !lt1_S. fold b. occs. la.
Qed.

Lemma finish_mut_run e l h a o r ks c1 c2 o2 sl z0 s z1 z2 n1 F1 c cn Fc i ts R :
  mine e = true -> at_ h a o (GInner (Some r) ks) -> ow o = true -> pre (c1 ++ c2) ks -> lenN ks = width ->
  at_ h r o2 (GTable (Some (lenN (z0 ++ [s]))) sl) -> pre (z0 ++ [s]) sl -> (ow o2 = true -> lenN sl = width) ->
  z0 ++ [s] = z1 ++ z2 ->
  lenN c1 = i -> lenN z1 = i -> i + 1 <= width -> 0 < s + ts -> (i = lenN z0 + 1 \/ i = lenN z0) ->
  all3 (rep h l) c1 n1 F1 -> rep h l c cn Fc ->
  sep (length h) (a :: own1 o2 r ++ List.concat F1 ++ Fc ++ R) ->
  exists h' F', gfinish_mut B e a r i c ts h = Ok (Some a, h') /\
    rep h' (S l) a (Inner (Some (z1 ++ [s + ts])) (n1 ++ [cn])) F' /\ chg h h' (a :: own1 o2 r) /\
    sep (length h') (F' ++ R).
Proof.
  intros He Ha Ho Hpk Lk Hr Hpz Hz2 Ez Hi1 Hi2 Hw Hs Hi3 H3 Hc HS.
  unfold gfinish_mut.
  assert (a <> r) as Nar by (intros ->; unfold at_ in *; congruence).
  assert (exists r' h1 sl', gensure_relaxed_n B a e i h = Ok (r', h1) /\
    at_ h1 a o (GInner (Some r') ks) /\ at_ h1 r' (Some e) (GTable (Some (if Nat.eq_dec r' r then lenN (z0 ++ [s]) else i)) sl') /\
    pre z1 sl' /\ lenN sl' = width /\ at_ h1 r o2 (GTable (Some (lenN (z0 ++ [s]))) sl) /\
    chg h h1 (a :: own1 o2 r) /\ (r' = r /\ h1 = h /\ ow o2 = true /\ sl' = sl \/ r' = length h /\ length h1 = S (length h)))
    as (r' & h1 & sl' & E1 & Ha1 & Hr' & Pz & Lz & Hr1 & C1 & Hcase).
  { unfold gensure_relaxed_n. run (grelaxed_ok _ _ _ _ _ Ha). run (gcan_mutate_ok _ _ _ _ e Hr).
    destruct (owned_by (mkG o2 (GTable (Some (lenN (z0 ++ [s]))) sl)) e) eqn:Eo.
    - destruct (owned_by_ow mine _ _ _ He Eo) as [-> Ho2]. exists r, h, sl. split; [reflexivity|].
      destruct (Nat.eq_dec r r); [|easy]. split; [auto|]. split; [auto|].
      split; [rewrite Ez in Hpz; eapply pre_app; exact Hpz|]. split; [auto|]. split; [auto|]. split; [|left; auto].
      eapply chg_sub; [apply chg_refl|easy|]. intros x _ [<-|Hx]; [exists (mkG o (GInner (Some r) ks)); auto|].
      eapply own1_owned; [exact Hr|exact Hx].
    - assert (entries sl 0 i = Ok z1) as Ee by (rewrite Ez in Hpz; apply (pre_all z1); [eapply pre_app; exact Hpz|auto]).
      destruct (write_pre [] z1 (blank N width) 0 (pre_nil _) eq_refl) as (zb & Ew & Pb & Lb & _); [rewrite blank_len; lia|].
      run (gtable_ok _ _ _ _ _ Hr). run (glift_ok _ _ h Ee). run (glift_ok _ _ h Ew).
      unfold gbind at 1. unfold gnew. set (h1 := h ++ _).
      assert (at_ h1 a o (GInner (Some r) ks)) as Ha1 by (apply at_app; exact Ha).
      run (ginner_ok _ _ _ _ _ Ha1). run (gput_inner_ok _ _ _ _ _ (Some (length h)) ks Ha1).
      assert (a < length h)%nat as La by (eapply at_lt; eauto).
      assert (r < length h)%nat as Lr by (eapply at_lt; eauto).
      eexists _, _, zb. split; [reflexivity|]. split; [eapply at_upd; exact Ha1|]. destruct (Nat.eq_dec (length h) r); [lia|].
      split; [apply at_upd_ne; [apply at_new|lia]|]. split; [exact Pb|]. rewrite blank_len in Lb. split; [exact Lb|].
      split; [apply at_upd_ne; [apply at_app; exact Hr|auto]|]. split.
      + eapply chg_sub; [eapply chg_nil_trans; [apply chg_new|eapply chg_upd; [exact Ha1|exact Ho]]| |].
        * intros x _ [<-|[]]. now left.
        * intros x _ [<-|Hx]; [exists (mkG o (GInner (Some r) ks)); auto|]. eapply own1_owned; [exact Hr|exact Hx].
      + right. split; [reflexivity|]. rewrite upd_len. unfold h1. rewrite app_length. cbn. lia. }
  run E1.
  assert (a <> r') as Nar' by (intros <-; unfold at_ in *; congruence).
  destruct (write_pre c1 [c] ks i) as (ks' & Ew3 & Pk' & Lk' & _); [eapply pre_app; exact Hpk|auto|cbn; lia|].
  cbn [map] in Ew3. run (gset_kid_ok _ _ _ _ _ _ _ _ Ha1 Ew3). set (h2 := update_at a _ h1).
  assert (at_ h2 a o (GInner (Some r') ks')) as Ha2 by (eapply at_upd; exact Ha1).
  assert (at_ h2 r o2 (GTable (Some (lenN (z0 ++ [s]))) sl)) as Hr2 by (apply at_upd_ne; auto).
  pose proof (at_upd_ne h1 a (mkG o (GInner (Some r') ks')) _ _ _ Hr' Nar') as Hr2'. fold h2 in Hr2'.
  assert (gtotal r h2 = Ok (s, h2)) as Et.
  { unfold gtotal. run (gcount_ok _ _ _ _ _ Hr2). rewrite lenN_snoc. destruct (N.eqb_spec (lenN z0 + 1) 0); [lia|].
    eapply gsize_ok; [exact Hr2|]. replace (lenN z0 + 1 - 1) with (lenN z0) by lia. eapply pre_at; [exact Hpz|reflexivity]. }
  run Et.
  destruct (write_pre z1 [s + ts] sl' i Pz Hi2) as (zb' & Ew4 & Pz' & Lz' & _); [rewrite Lz; cbn; lia|].
  cbn [map] in Ew4. run (gset_size_ok _ _ _ _ _ _ _ _ Hr2' Ew4).
  set (h3 := update_at r' _ h2).
  assert (at_ h3 r' (Some e) (GTable (Some (if Nat.eq_dec r' r then lenN (z0 ++ [s]) else i)) zb')) as Hr3 by (eapply at_upd; exact Hr2').
  run (gset_count_ok _ _ _ _ _ (i + 1) Hr3).
  set (h4 := update_at r' _ h3).
  assert (at_ h4 r' (Some e) (GTable (Some (i + 1)) zb')) as Hr4 by (eapply at_upd; exact Hr3).
  assert (at_ h4 a o (GInner (Some r') ks')) as Ha4 by (do 2 (apply at_upd_ne; [|auto]); exact Ha2).
  destruct (N.eqb_spec (s + ts) 0); [lia|].
  assert (ow (Some e) = true) as Hoe by exact He.
  assert (chg h1 h4 [a; r']) as C2.
  { eapply chg_sub with (W := [a] ++ [r'] ++ [r']).
    - eapply chg_trans; [eapply chg_upd; [exact Ha1|exact Ho]|]. eapply chg_trans; [eapply chg_upd; [exact Hr2'|exact Hoe]|].
      eapply chg_upd; [exact Hr3|exact Hoe].
    - intros x _. cbn. tauto.
    - intros x _ [<-|[<-|[]]]; [exists (mkG o (GInner (Some r') ks)); auto|]. eexists. split; [exact Hr'|exact Hoe]. }
  assert (chg h h4 (a :: own1 o2 r)) as C4.
  { eapply chg_sub; [eapply chg_trans; [exact C1|exact C2]| |].
    - intros x Lx Hx. apply in_app_or in Hx as [Hx|[<-|[<-|[]]]]; [exact Hx|now left|].
      destruct Hcase as [(-> & _ & Ho2 & _)|(-> & _)]; [|lia]. right. unfold GcRep.own1. rewrite Ho2. now left.
    - intros x _ [<-|Hx]; [exists (mkG o (GInner (Some r) ks)); auto|]. eapply own1_owned; [exact Hr|exact Hx]. }
  exists h4, (own1 o a ++ own1 (Some e) r' ++ List.concat (F1 ++ [Fc])). split; [reflexivity|]. split; [|split; [exact C4|]].
  - cbn [GcRep.rep]. exists o, (Some r'), ks', (c1 ++ [c]), (own1 (Some e) r'), (F1 ++ [Fc]).
    split; [exact Ha4|]. split; [exact Pk'|]. split; [intros _; lia|]. split.
    { cbn. exists (Some e), zb'. rewrite lenN_snoc, Hi2. split; [exact Hr4|]. split; [exact Pz'|].
      split; [intros _; lia|reflexivity]. }
    split; [|reflexivity]. apply all3_app; [|apply all3_one].
    + eapply reps_chg; [exact C4|exact H3|]. eapply sep_dis; [exact HS|]. intros x. occs. la.
    + eapply rep_chg; [exact C4|exact Hc|]. eapply sep_dis; [exact HS|]. intros x. occs. la.
  - intros x. specialize (HS x). unfold GcRep.own1. rewrite Ho, Hoe. unfold h4, h3, h2. rewrite !upd_len.
    destruct Hcase as [(-> & -> & Ho2 & _)|(-> & ->)].
    + unfold GcRep.own1 in HS. rewrite Ho2 in HS. occs. la.
    + rewrite lt1_S. occs. la.
Qed.

(** In place or in a copy. *)
Definition mt_ok (al : option token) (mt : bool) (o : option token) : Prop :=
  mt = true -> exists e, al = Some e /\ mine e = true /\ ow o = true.
Lemma mutate_run al mu (h : heap) a o b : al_ok al -> at_ h a o b ->
  exists mt, gmutate al mu a h = Ok (mt, h) /\ mt_ok al mt o.
Proof.
  intros Hal Ha. unfold gmutate. destruct al as [e|]; [|exists false; split; [reflexivity|easy]].
  destruct mu; [|exists false; split; [reflexivity|easy]].
  exists (owned_by (mkG o b) e). split; [eapply gcan_mutate_ok; exact Ha|].
  intros E. exists e. specialize (Hal e eq_refl). destruct (owned_by_ow mine _ _ _ Hal E). auto.
Qed.
Lemma finish_run al mt l h a o r ks c1 c2 o2 sl z0 s z1 z2 n1 F1 c cn Fc i ts R :
  al_ok al -> mt_ok al mt o -> at_ h a o (GInner (Some r) ks) -> pre (c1 ++ c2) ks -> (ow o = true -> lenN ks = width) ->
  at_ h r o2 (GTable (Some (lenN (z0 ++ [s]))) sl) -> pre (z0 ++ [s]) sl -> (ow o2 = true -> lenN sl = width) ->
  z0 ++ [s] = z1 ++ z2 ->
  lenN c1 = i -> lenN z1 = i -> i + 1 <= width -> 0 < s + ts -> (i = lenN z0 + 1 \/ i = lenN z0) ->
  all3 (rep h l) c1 n1 F1 -> rep h l c cn Fc ->
  sep (length h) (own1 o a ++ own1 o2 r ++ List.concat F1 ++ Fc ++ R) ->
  exists b h' F' W, gfinish_push B al mt a r i c ts h = Ok (Some b, h') /\
    rep h' (S l) b (Inner (Some (z1 ++ [s + ts])) (n1 ++ [cn])) F' /\ chg h h' W /\
    (forall x, In x W -> In x (own1 o a ++ own1 o2 r)) /\ sep (length h') (F' ++ R).
Proof.
  intros Hal Hmt Ha Hpk Lk Hr Hpz Hz2 Ez Hi1 Hi2 Hw Hs Hi3 H3 Hc HS.
  assert (exists b h' F' W, gfinish_copy B al a r i c ts h = Ok (Some b, h') /\
    rep h' (S l) b (Inner (Some (z1 ++ [s + ts])) (n1 ++ [cn])) F' /\ chg h h' W /\
    (forall x, In x W -> In x (own1 o a ++ own1 o2 r)) /\ sep (length h') (F' ++ R)) as Hcopy.
  { destruct (finish_copy_run al l h a o r ks c1 c2 o2 sl z0 s z1 z2 n1 F1 c cn Fc i ts) as (b & h' & F' & E & Hb & C & S'); auto.
    exists b, h', F', []. split; [exact E|]. split; [exact Hb|]. split; [exact C|]. split; [easy|].
    apply S'. intros x. specialize (HS x). occs. la. }
  destruct mt.
  - destruct (Hmt eq_refl) as (e & -> & He & Ho). cbn [gfinish_push].
    unfold GcRep.own1 in HS at 1. rewrite Ho in HS. cbn [app] in HS.
    destruct (finish_mut_run e l h a o r ks c1 c2 o2 sl z0 s z1 z2 n1 F1 c cn Fc i ts R) as (h' & F' & E & Hb & C & S'); auto.
    exists a, h', F', (a :: own1 o2 r). split; [exact E|]. split; [exact Hb|]. split; [exact C|]. split; [|exact S'].
    intros x Hx. unfold GcRep.own1 at 1. rewrite Ho. exact Hx.
  - assert (gfinish_push B al false a r i c ts = gfinish_copy B al a r i c ts) as -> by (destruct al; reflexivity). exact Hcopy.
Qed.

(** ** Positions *)
Definition gpr (h : heap) (v : nat) (g : gpos) (p : pos T) (n : node T) (F : list nat) : Prop :=
  exists a, gaddr g = Ok a /\ rep h v a n F /\ pos_ok v p n /\
    match g, p with
    | GFull _, PFull _ => True
    | GReg _ s, PReg _ s' => s = s'
    | GSub _ s, PSub _ s' => s = s'
    | GRel _ r, PRel _ _ => exists o ks, at_ h a o (GInner (Some r) ks)
    | _, _ => False
    end.
Lemma gpr_child h l c x Fx : rep h l c x Fx -> wf l x ->
  exists g q, gchild B BL l c (nsize x) h = Ok (g, h) /\ child_pos B BL l x (nsize x) = Ok q /\ gpr h l g q x Fx.
Proof.
  intros Hr Hw. destruct (gp_child B BL mine h l c x Fx Hr Hw) as (g & E1 & (a & Hra & _ & Hg) & Hnf).
  destruct (child_pos_ok B BL l x Hw) as (q & E2 & Hq & Hsub). exists g, q. split; [exact E1|]. split; [exact E2|].
  pose proof (RrbConcat.child_not_full _ _ _ _ _ _ E2) as Nf.
  exists a. destruct g as [y|y z|y z|y r|y z|]; try easy.
  - destruct Hg as (-> & -> & Hn). split; [reflexivity|]. split; [exact Hra|]. split; [exact Hq|].
    inversion Hq; subst; try easy; try (now elim Nf).
  - destruct Hg as (-> & Hn & o & ks & Ha). split; [reflexivity|]. split; [exact Hra|]. split; [exact Hq|].
    inversion Hq; subst; try congruence; [|eauto]. now elim Nf.
Qed.
Lemma gpr_chg h h' v g p n F : gpr h v g p n F -> chg h h' [] -> gpr h' v g p n F.
Proof.
  intros (a & Ea & Hr & Hp & Hg) C. exists a. split; [exact Ea|]. split; [eapply rep_chg; eauto|]. split; [exact Hp|].
  destruct g, p; try easy. destruct Hg as (o & ks & Ha). exists o, ks. eapply chg_at; eauto.
Qed.

(** ** push_tail_visitor and push_tail_mut_visitor *)
Lemma push_run al : al_ok al -> forall v mu g p n F tl tn Ft ts r h R,
  gpr h v g p n F -> rep h O tl tn Ft -> full O tn -> room v p n -> (is_rel n = true -> ts = lwidth) ->
  sep (length h) (F ++ Ft ++ R) -> push_tail_node B BL v p tn ts = Ok r ->
  exists o h', gpush B BL al mu v g tl ts h = Ok (o, h') /\
    match o, r with
    | Some b, Some n' => exists F' W, rep h' v b n' F' /\ sep (length h') (F' ++ R) /\ chg h h' W /\
        (forall x, In x W -> In x F)
    | None, None => h' = h
    | _, _ => False
    end.
Proof.
  intros Hal. induction v as [|l IH]; intros mu g p n F tl tn Ft ts r h R Hg Htl Hf Hroom Hts HS Hu;
    cbn [gpush push_tail_node] in *; [discriminate|].
  destruct Hg as (a & Ea & Hr & Hok & Hgp). pose proof (pos_ok_wf _ _ _ _ _ Hok) as Hw.
  pose proof Hr as Hr0.
  destruct n as [xs|szo ns]; [easy|]. cbn [GcRep.rep] in Hr.
  destruct Hr as (o & ro & ks & cs & Fr & Fs & Ha & Hpk & Lk & Htr & H3 & ->).
  destruct (make_path_ok B BL l tn Hf) as [Hpr Hpe].
  pose proof (full_size _ _ _ _ Hf) as Hfs. rewrite span_0 in Hfs.
  pose proof (lwidth_pos BL) as Hlw.
  destruct (is_rel (Inner szo ns)) eqn:Hrel.
  - (* relaxed *)
    destruct szo as [sz|]; [|discriminate]. specialize (Hts eq_refl).
    assert (p = PRel (Inner (Some sz) ns) sz) as ->.
    { inversion Hok; subst; try reflexivity; try discriminate. }
    destruct g as [y|y z|y z|y rt|y z|]; try easy. injection Ea as ->.
    destruct Hgp as (og & kg & Hag). assert (ro = Some rt) as -> by (unfold at_ in *; congruence). clear og kg Hag.
    cbn [trep] in Htr. destruct Htr as (o2 & sl & Hrt & Hpz & Hz2 & ->).
    destruct ns as [|x ini _] using rev_ind; [destruct Hw as (Hw & _); cbn in Hw; lia|].
    destruct (all3_split _ _ _ _ _ H3) as (ca & c2 & Fa & F2 & -> & -> & A1 & A2).
    destruct (all3_single _ _ _ _ A2) as (c & Fx & -> & -> & Hrx). clear A2.
    assert (lenN ca = lenN ini) as Elc by (now destruct (all3_len _ _ _ _ A1)).
    pose proof (rel_last _ _ _ _ _ Hw) as Hlast.
    assert (lenN sz = lenN ini + 1) as Hlsz.
    { destruct Hw as (_ & _ & Hz). rewrite Hz, lenN_sums, lenN_map, lenN_snoc. reflexivity. }
    destruct sz as [|s z0 _] using rev_ind; [cbn in Hlsz; lia|]. rewrite lenN_snoc in Hlsz.
    assert (lenN z0 = lenN ini) as Elz by lia.
    assert (s = csize ini + nsize x) as Es.
    { pose proof (rel_at _ _ _ _ _ _ _ Hw) as E. rewrite <- Elz in E. rewrite rnthN_app in E by reflexivity. congruence. }
    pose proof (wf_kids _ _ _ _ Hw) as Hwk. cbn [kids] in Hwk. apply Forall_app in Hwk. destruct Hwk as [Hwi Hwx].
    apply Forall_inv in Hwx. pose proof (wf_size _ _ _ _ Hwx) as Hxb.
    assert (lenN ini + 1 <= width) as Hiw by (destruct Hw as ([_ Hl] & _); rewrite lenN_snoc in Hl; lia).
    assert (Hsa : size_at B BL (S l) (PRel (Inner (Some (z0 ++ [s])) (ini ++ [x])) (z0 ++ [s])) (lenN ini) = Ok (nsize x)).
    { unfold size_at, size_before. rewrite (rel_before _ _ _ _ _ _ Hw). cbn [rbind size_sbh].
      rewrite (rel_at _ _ _ _ _ _ _ Hw). cbn [rbind]. f_equal. lia. }
    assert (nsize (Inner (Some (z0 ++ [s])) (ini ++ [x])) = s) as Ens.
    { rewrite nsize_inner. fold (csize (ini ++ [x])). rewrite csize_snoc. lia. }
    rewrite Ens in Hlast. rewrite lenN_snoc, Elz in Hu. replace (lenN ini + 1 - 1) with (lenN ini) in Hu by lia.
    rewrite Hsa, Hlast in Hu. cbn [rbind inner_of] in Hu.
    (* the memory side up to the test *)
    run (gcount_ok _ _ _ _ _ Hrt). rewrite lenN_snoc, Elz. destruct (N.eqb_spec (lenN ini + 1) 0); [lia|].
    replace (lenN ini + 1 - 1) with (lenN ini) by lia.
    assert (gsize_at rt (lenN ini) h = Ok (nsize x, h)) as Egs.
    { unfold gsize_at. assert (gsize rt (lenN ini) h = Ok (s, h)) as E1 by (eapply gsize_ok; [exact Hrt|eapply pre_at; [exact Hpz|exact Elz]]).
      run E1. assert ((if lenN ini =? 0 then gret 0 else gsize rt (lenN ini - 1)) h = Ok (csize ini, h)) as E2.
      { pose proof (rel_before _ _ _ _ _ _ Hw) as E. destruct (N.eqb_spec (lenN ini) 0) as [Z|Z]; [injection E as <-; reflexivity|].
        eapply gsize_ok; [exact Hrt|]. rewrite <- Elz in E |- *.
        destruct z0 as [|w z0 _] using rev_ind; [cbn in Elz; lia|]. rewrite lenN_snoc in E |- *.
        replace (lenN z0 + 1 - 1) with (lenN z0) in E |- * by lia. rewrite <- app_assoc in E, Hpz. cbn [app] in E, Hpz.
        rewrite rnthN_app in E by reflexivity. injection E as <-. eapply pre_at; [exact Hpz|reflexivity]. }
      run E2. unfold gret. do 3 f_equal. lia. }
    run Egs. destruct (mutate_run al mu h a o _ Hal Ha) as (mt & Em & Hmt). run Em.
    pose proof Ha as Ha'.
    (* a new path *)
    assert (P : lenN ini + 1 < width ->
      exists b h', gbind (gmake_path B al l tl) (fun c => gfinish_push B al mt a rt (lenN ini + 1) c ts) h = Ok (Some b, h') /\
      exists F' W, rep h' (S l) b (Inner (Some ((z0 ++ [s]) ++ [s + ts])) ((ini ++ [x]) ++ [make_path l tn])) F' /\
        sep (length h') (F' ++ R) /\ chg h h' W /\
        (forall y, In y W -> In y (own1 o a ++ own1 o2 rt ++ List.concat (Fa ++ [Fx])))).
    { intros Hlt. destruct (path_run al Hal l h tl tn Ft Htl Hf) as (c' & h1 & Fp & E1 & Hc' & C1 & S1). run E1.
      destruct (finish_run al mt l h1 a o rt ks (ca ++ [c]) [] o2 sl z0 s (z0 ++ [s]) [] (ini ++ [x]) (Fa ++ [Fx]) c' (make_path l tn) Fp (lenN ini + 1) ts R)
        as (b & h2 & F' & W & E2 & Hb & C2 & HW & S2); auto; rewrite ?app_nil_r, ?lenN_snoc in *; try lia.
      - eapply chg_at; [exact C1|exact Ha|easy].
      - exact Hpk.
      - eapply chg_at; [exact C1|exact Hrt|easy].
      - reflexivity.
      - eapply reps_chg; [exact C1|exact H3|easy].
      - assert (sep (length h1) (Fp ++ own1 o a ++ own1 o2 rt ++ List.concat (Fa ++ [Fx]) ++ R)) as S3.
        { apply S1. intros y. specialize (HS y). occs. la. }
        intros y. specialize (S3 y). occs. la.
      - exists b, h2. split; [exact E2|]. exists F', W. split; [exact Hb|]. split; [exact S2|].
        split; [eapply chg_nil_trans; eauto|]. intros y Hy. rewrite app_assoc. apply in_or_app. left. auto. }
    rewrite shiftl_span in *.
    assert (V1 : forall cc, (cs' <- rtakeN (lenN ini + 1) (ini ++ [x]) ;; sz' <- rtakeN (lenN ini + 1) (z0 ++ [s]) ;;
              Ok (Some (Inner (Some (sz' ++ [s + ts])) (cs' ++ [cc])))) =
            Ok (Some (Inner (Some ((z0 ++ [s]) ++ [s + ts])) ((ini ++ [x]) ++ [cc])))).
    { intros cc. rewrite !rtakeN_all by (rewrite lenN_snoc; lia). reflexivity. }
    rewrite !V1 in Hu. clear V1.
    destruct ((nsize x =? span l) || match l with O => true | _ => false end) eqn:E1.
    { destruct (N.leb_spec width (lenN ini + 1)) as [E2|E2].
      - injection Hu as <-. exists None, h. split; reflexivity.
      - injection Hu as <-. destruct (P E2) as (b & h' & E & HH). exists (Some b), h'. split; [exact E|exact HH]. }
    destruct (N.leb_spec width (lenN ini)) as [E2|E2]; [lia|].
    apply orb_false_elim in E1. destruct E1 as [E1 El0]. apply N.eqb_neq in E1.
    rewrite rnthN_app in Hu by reflexivity. cbn [rbind] in Hu.
    assert (gkid a (lenN ini) h = Ok (c, h)) as Ek by (eapply gkid_ok; [exact Ha|eapply pre_at; [exact Hpk|exact Elc]]).
    run Ek. destruct (gpr_child h l c x Fx Hrx Hwx) as (q & qv & Eq & Eqv & Hq). run Eq.
    rewrite Eqv in Hu. cbn [rbind] in Hu. apply rbind_ok in Hu. destruct Hu as (rx & Hrxx & Hu).
    pose proof Hq as (_ & _ & _ & Hqok & _).
    assert (room l qv x) as Hrm.
    { intros _. split; [intros m' ->; exact (RrbConcat.child_not_full _ _ _ _ _ _ Eqv)|]. lia. }
    destruct (IH mt q qv x Fx tl tn Ft ts rx h (own1 o a ++ own1 o2 rt ++ List.concat Fa ++ R)) as (oc & h1 & Ec & Hc); auto.
    { intros y. specialize (HS y). occs. la. }
    run Ec. destruct oc as [c'|], rx as [cn|]; try easy.
    + destruct Hc as (Fc & W1 & Hc' & S1 & C1 & HW1).
      rewrite rtakeN_app in Hu by reflexivity. cbn [rbind] in Hu. rewrite <- Elz in Hu at 1. rewrite rtakeN_app in Hu by reflexivity.
      cbn [rbind] in Hu. injection Hu as <-.
      destruct (finish_run al mt l h1 a o rt ks ca [c] o2 sl z0 s z0 [s] ini Fa c' cn Fc (lenN ini) ts R)
        as (b & h2 & F' & W & E3 & Hb & C2 & HW & S2); auto; try lia.
      * eapply chg_at_own; [exact C1|exact Ha|]. intros y Hy Hw1. apply HW1 in Hw1. revert y Hy Hw1.
        eapply sep_dis; [exact HS|]. intros y. occs. la.
      * eapply chg_at_own; [exact C1|exact Hrt|]. intros y Hy Hw1. apply HW1 in Hw1. revert y Hy Hw1.
        eapply sep_dis; [exact HS|]. intros y. occs. la.
      * eapply reps_chg; [exact C1|exact A1|]. intros y Hy Hw1. apply HW1 in Hw1. revert y Hy Hw1.
        eapply sep_dis; [exact HS|]. intros y. occs. la.
      * intros y. specialize (S1 y). occs. la.
      * exists (Some b), h2. split; [exact E3|]. exists F', (W1 ++ W). split; [exact Hb|]. split; [exact S2|].
        split; [eapply chg_trans; eauto|]. intros y Hy. apply in_app_or in Hy as [Hy|Hy].
        -- apply in_or_app. right. apply in_or_app. right. rewrite concat_app. apply in_or_app. right. cbn. rewrite app_nil_r. auto.
        -- rewrite app_assoc. apply in_or_app. left. auto.
    + subst h1. destruct (N.ltb_spec (lenN ini + 1) width) as [E3|E3].
      * injection Hu as <-. destruct (P E3) as (b & h' & E & HH). exists (Some b), h'. split; [exact E|exact HH].
      * injection Hu as <-. exists None, h. split; reflexivity.
  - (* regular *)
    destruct szo as [sz|]; [discriminate|]. cbn [trep] in Htr. destruct ro as [ro|]; [easy|]. cbn in Htr. subst Fr. cbn [app] in *.
    destruct (Hroom Hrel) as [Hnf Hlt].
    destruct (push_regular_ok B BL l p _ tn ts Hok) as (n' & En' & Hrn' & _ & _); auto.
    { destruct p; try reflexivity. now elim (Hnf n). }
    change (push_tail_node B BL (S l) p tn ts = Ok r) in Hu. rewrite Hu in En'. injection En' as ->.
    cbn [push_tail_node] in Hu.
    destruct (VecPush.push_reg_step _ _ _ _ _ Hok Hrel Hnf Hlt) as (s & ini & x & Ep & En & Eland & Eidx & Enew).
    injection En as ->.
    destruct (all3_split _ _ _ _ _ H3) as (ca & c2 & Fa & F2 & -> & -> & A1 & A2).
    destruct (all3_single _ _ _ _ A2) as (c & Fx & -> & -> & Hrx). clear A2.
    assert (lenN ca = lenN ini) as Elc by (now destruct (all3_len _ _ _ _ A1)).
    assert (exists ni, index B BL (S l) p (s + lwidth - 1) = Ok ni /\
      (c <- (if (lenN ini =? ni) then
                    q <- mk_reg x s ;; r <- push_tail_node B BL l q tn ts ;; match r with Some c => Ok c | None => UB end
                  else Ok (make_path l tn)) ;;
            cs' <- rtakeN ni (ini ++ [x]) ;;
            Ok (Some (Inner None (cs' ++ [c])))) = Ok (Some n')) as (ni & Eni & Hu').
    { assert (exists i, index B BL (S l) p (s + lwidth - 1) = Ok i) as [i Ei] by (destruct Enew as [(E & _)|E]; eauto).
      exists i. split; [exact Ei|]. destruct Ep as [-> | ->]; rewrite Eland in Hu; cbn [negb N.eqb inner_of rbind last_oh] in Hu;
          rewrite Eidx, Ei in Hu; cbn [rbind] in Hu; rewrite rnthN_app in Hu by reflexivity; exact Hu. }
    clear Hu.
    set (child := fun mt : bool => (if lenN ini =? ni then
                  x <~ gkid a (lenN ini) ;;
                  if s =? 0 then gub
                  else
                    o <~ gpush B BL al mt l (GReg x s) tl ts ;;
                    match o with Some c => gret c | None => gub end
                else gmake_path B al l tl) : G T nat).
    assert (exists k1 k2 n1 F1 cn, ca ++ [c] = k1 ++ k2 /\ lenN k1 = ni /\ n' = Inner None (n1 ++ [cn]) /\ all3 (rep h l) k1 n1 F1 /\
      forall mt h1, chg h h1 [] -> forall R', sep (length h1) (List.concat (Fa ++ [Fx]) ++ Ft ++ R') ->
        exists c' h2 Fc W, child mt h1 = Ok (c', h2) /\ rep h2 l c' cn Fc /\ chg h1 h2 W /\
          (forall y, In y W -> In y (List.concat (Fa ++ [Fx]))) /\ all3 (rep h2 l) k1 n1 F1 /\
          sep (length h2) (Fc ++ List.concat F1 ++ R')) as (k1 & k2 & n1 & F1 & cn & Ecs & Eni1 & -> & HA & CH).
    { destruct Enew as [(Ei & Hpx & Hs0 & Hrelx & Hlx)|Ei]; rewrite Ei in Eni; injection Eni as <-.
      - rewrite N.eqb_refl in Hu'. unfold mk_reg in Hu'. destruct (N.eqb_spec s 0) as [|_]; [easy|]. cbn [rbind] in Hu'.
        apply rbind_ok in Hu'. destruct Hu' as (cn & Hcn & Hu'). apply rbind_ok in Hcn. destruct Hcn as (rx & Hrxx & Hcn).
        destruct rx as [cn'|]; [|discriminate]. injection Hcn as ->. rewrite rtakeN_app in Hu' by reflexivity.
        cbn [rbind] in Hu'. injection Hu' as <-.
        exists ca, [c], ini, Fa, cn. split; [auto|]. split; [auto|]. split; [auto|]. split; [auto|].
        intros mt h1 C1 R' HS1. unfold child. rewrite N.eqb_refl.
        assert (gkid a (lenN ini) h1 = Ok (c, h1)) as Ek.
        { eapply gkid_ok; [eapply chg_at; [exact C1|exact Ha|easy]|eapply pre_at; [exact Hpk|exact Elc]]. }
        run Ek. destruct (N.eqb_spec s 0) as [|_]; [easy|].
        destruct (IH mt (GReg c s) (PReg x s) x Fx tl tn Ft ts (Some cn) h1 (List.concat Fa ++ R')) as (oc & h2 & Ec & Hc); auto.
        { exists c. split; [reflexivity|]. split; [eapply rep_chg; [exact C1|exact Hrx|easy]|]. auto. }
        { eapply rep_chg; [exact C1|exact Htl|easy]. }
        { intros _. split; [discriminate|exact Hlx]. }
        { congruence. }
        { intros y. specialize (HS1 y). occs. la. }
        run Ec. destruct oc as [c'|]; [|easy]. destruct Hc as (Fc & W & Hc' & S1 & C2 & HW).
        exists c', h2, Fc, W. split; [reflexivity|]. split; [exact Hc'|]. split; [exact C2|]. split; [|split].
        + intros y Hy. rewrite concat_app. apply in_or_app. right. cbn. rewrite app_nil_r. auto.
        + eapply reps_chg; [exact C2|eapply reps_chg; [exact C1|exact A1|easy]|]. intros y Hy Hw1. apply HW in Hw1. revert y Hy Hw1.
          eapply sep_dis; [exact HS1|]. intros y. occs. la.
        + exact S1.
      - destruct (N.eqb_spec (lenN ini) (lenN ini + 1)); [lia|]. cbn [rbind] in Hu'.
        rewrite rtakeN_all in Hu' by (rewrite lenN_snoc; lia). cbn [rbind] in Hu'. injection Hu' as <-.
        exists (ca ++ [c]), [], (ini ++ [x]), (Fa ++ [Fx]), (make_path l tn). rewrite app_nil_r. split; [auto|]. split; [rewrite lenN_snoc; lia|].
        split; [auto|]. split; [auto|].
        intros mt h1 C1 R' HS1. unfold child. destruct (N.eqb_spec (lenN ini) (lenN ini + 1)); [lia|].
        destruct (path_run al Hal l h1 tl tn Ft) as (c' & h2 & Fp & E1 & Hc' & C2 & S1); auto.
        { eapply rep_chg; [exact C1|exact Htl|easy]. }
        exists c', h2, Fp, []. split; [exact E1|]. split; [exact Hc'|]. split; [exact C2|]. split; [easy|]. split.
        + eapply reps_chg; [exact C2|eapply reps_chg; [exact C1|exact H3|easy]|easy].
        + apply S1. intros y. specialize (HS1 y). occs. la. }
    assert (wf (S l) (Inner None (n1 ++ [cn]))) as Hwn by exact Hrn'.
    pose proof (wf_kids _ _ _ _ Hwn) as Hwk. cbn [kids] in Hwk. apply Forall_app in Hwk. destruct Hwk as [Hw1 Hwc]. apply Forall_inv in Hwc.
    assert (ni + 1 <= width) as Hnw.
    { destruct Hrn' as (i0 & x0 & _ & _ & _ & Hl). rewrite lenN_snoc in Hl. destruct (all3_len _ _ _ _ HA). lia. }
    destruct (mutate_run al mu h a o _ Hal Ha) as (mt & Em & Hmt).
    assert (gpush B BL al mu (S l) g tl ts h =
      (if mt then c <~ child mt ;; _ <~ gset_kid a ni c ;; gret (Some a)
       else b <~ gmk_inner B al (ni + 1) ;; c <~ child mt ;; _ <~ gset_kid b ni c ;; _ <~ gcopy_kids b a ni ;; gret (Some b)) h) as Eg.
    { assert ((forall q, p = PReg q s -> index B BL (S l) (PReg (Leaf [] : node T) s) (s - 1) = Ok (lenN ini) /\
                 index B BL (S l) (PReg (Leaf [] : node T) s) (s + lwidth - 1) = Ok ni) /\
              (forall q, p = PSub q s -> index B BL (S l) (PSub (Leaf [] : node T) s) (s - 1) = Ok (lenN ini) /\
                 index B BL (S l) (PSub (Leaf [] : node T) s) (s + lwidth - 1) = Ok ni)) as [I1 I2].
      { split; intros q ->; split; [exact Eidx|exact Eni|exact Eidx|exact Eni]. }
      destruct Ep as [-> | ->].
      - destruct g as [y|y z|y z|y rt|y z|]; try easy. injection Ea as ->. subst z. destruct (I1 _ eq_refl) as [J1 J2].
        cbn [gpush gview]. unfold gbind at 1. cbn [gret]. unfold gret at 1. rewrite Eland. cbn [negb N.eqb].
        run (glift_ok _ _ h J1). run (glift_ok _ _ h J2). run Em. reflexivity.
      - destruct g as [y|y z|y z|y rt|y z|]; try easy. injection Ea as ->. subst z. destruct (I2 _ eq_refl) as [J1 J2].
        cbn [gpush gview]. unfold gbind at 1. cbn [gret]. unfold gret at 1. rewrite Eland. cbn [negb N.eqb].
        run (glift_ok _ _ h J1). run (glift_ok _ _ h J2). run Em. reflexivity. }
    change (exists o0 h', gpush B BL al mu (S l) g tl ts h = Ok (o0, h') /\
      match o0 with
      | Some b => exists F' W, rep h' (S l) b (Inner None (n1 ++ [cn])) F' /\ sep (length h') (F' ++ R) /\ chg h h' W /\
           (forall x0, In x0 W -> In x0 (own1 o a ++ List.concat (Fa ++ [Fx])))
      | None => False end).
    rewrite Eg. clear Eg. destruct mt.
    + destruct (Hmt eq_refl) as (e & _ & _ & Ho). specialize (Lk Ho).
      destruct (CH true h (chg_refl mine h) (own1 o a ++ R)) as (c' & h2 & Fc & W & E1 & Hc' & C1 & HW & H31 & S1).
      { intros y. specialize (HS y). occs. la. }
      run E1. assert (at_ h2 a o (GInner None ks)) as Ha2.
      { eapply chg_at_own; [exact C1|exact Ha|]. intros y Hy Hw1'. apply HW in Hw1'. revert y Hy Hw1'.
        eapply sep_dis; [exact HS|]. intros y. occs. la. }
      rewrite Ecs in Hpk. destruct (write_pre k1 [c'] ks ni) as (ks' & Ew & Pk' & Lk' & _); [eapply pre_app; exact Hpk|auto|cbn; lia|].
      cbn [map] in Ew. run (gset_kid_ok _ _ _ _ _ _ _ _ Ha2 Ew).
      assert (chg h2 (update_at a (mkG o (GInner None ks')) h2) [a]) as C2 by (eapply chg_upd; [exact Ha2|exact Ho]).
      unfold GcRep.own1 in S1. rewrite Ho in S1. cbn [app] in S1.
      eexists (Some a), _. split; [reflexivity|]. exists (own1 o a ++ [] ++ List.concat (F1 ++ [Fc])), (W ++ [a]). split; [|split; [|split]].
      * cbn [GcRep.rep]. exists o, None, ks', (k1 ++ [c']), [], (F1 ++ [Fc]). split; [eapply at_upd; exact Ha2|].
        split; [exact Pk'|]. split; [intros _; lia|]. split; [reflexivity|]. split; [|reflexivity].
        apply all3_app; [|apply all3_one].
        -- eapply reps_chg; [exact C2|exact H31|]. eapply sep_dis; [exact S1|]. intros y. occs. la.
        -- eapply rep_chg; [exact C2|exact Hc'|]. eapply sep_dis; [exact S1|]. intros y. occs. la.
      * rewrite upd_len. intros y. specialize (S1 y). unfold GcRep.own1. rewrite Ho. occs. la.
      * eapply chg_trans; eauto.
      * intros y Hy. apply in_app_or in Hy as [Hy|[<-|[]]]; [apply in_or_app; right; auto|].
        apply in_or_app. left. unfold GcRep.own1. rewrite Ho. now left.
    + destruct (cap_ok al width (ni + 1) Hal Hnw) as (k & Ek & Hk & Hkw). set (b := length h).
      set (h1 := h ++ [mkG al (GInner None (blank nat k))]).
      assert (gmk_inner B (T := T) al (ni + 1) h = Ok (b, h1)) as E0.
      { unfold gmk_inner. run (glift_ok _ _ h Ek). reflexivity. }
      run E0. assert (chg h h1 []) as C0 by apply chg_new.
      assert (length h1 = S b) as L1 by (unfold h1; rewrite app_length; cbn; unfold b; lia).
      destruct (CH false h1 C0 (own1 al b ++ own1 o a ++ R)) as (c' & h2 & Fc & W & E1 & Hc' & C1 & HW & H31 & S1).
      { rewrite L1. intros y. specialize (HS y). fold b in HS. rewrite lt1_S. pose proof (occ_own1 y al b). occs. la. }
      run E1. assert (at_ h2 b al (GInner None (blank nat k))) as Hb2.
      { eapply chg_at; [exact C1|apply at_new|]. intros Hi. apply HW in Hi. apply (reps_owned B BL mine h l _ _ _ H3) in Hi.
        apply owned_lt in Hi. unfold b in Hi. lia. }
      destruct (write_pre [] [c'] (blank nat k) 0 (pre_nil _) eq_refl) as (k0 & _); [rewrite blank_len; cbn; lia|]. clear k0.
      assert (exists ks0, write (blank nat k) ni [Some c'] = Ok ks0 /\ lenN ks0 = k /\ entry ks0 ni = Ok c' /\
        forall ys ks1, lenN ys = ni -> write ks0 0 (map Some ys) = Ok ks1 -> pre (ys ++ [c']) ks1) as (ks0 & Ew0 & L0 & _ & Hks).
      { unfold write. cbn [lenN length]. change (lenN [Some c']) with 1. rewrite blank_len. destruct (N.leb_spec (ni + 1) k); [|lia].
        assert (lenN (takeN ni (blank nat k)) = ni) as Lt by (rewrite lenN_takeN, blank_len; lia).
        eexists. split; [reflexivity|]. split; [rewrite !lenN_app, Lt, lenN_dropN, blank_len; change (lenN [Some c']) with 1; lia|].
        split; [unfold entry; cbn [app]; rewrite rnthN_app by exact Lt; reflexivity|].
        intros ys ks1 Ly. rewrite lenN_map, Ly, N.add_0_l. destruct (_ <=? _); [|discriminate]. intros E. injection E as <-.
        generalize dependent (takeN ni (blank nat k)). intros tk Lt. rewrite <- Lt at 1. rewrite dropN_app.
        unfold pre. rewrite map_app. eexists. rewrite <- app_assoc. reflexivity. }
      run (gset_kid_ok _ _ _ _ _ _ _ _ Hb2 Ew0). set (h3 := update_at b _ h2).
      assert (at_ h3 b al (GInner None ks0)) as Hb3 by (eapply at_upd; exact Hb2).
      assert (a < b)%nat as Lab by (unfold b; eapply at_lt; eauto).
      assert (at_ h3 a o (GInner None ks)) as Ha3.
      { apply at_upd_ne; [|lia]. eapply chg_at_own; [exact C1|eapply chg_at; [exact C0|exact Ha|easy]|]. intros y Hy Hw1'. apply HW in Hw1'. revert y Hy Hw1'.
        eapply sep_dis; [exact HS|]. intros y. occs. la. }
      assert (entries ks 0 ni = Ok k1) as Ee by (rewrite Ecs in Hpk; apply (pre_all k1); [eapply pre_app; exact Hpk|auto]).
      assert (exists ks1, write ks0 0 (map Some k1) = Ok ks1 /\ lenN ks1 = k) as (ks1 & Ew1 & L1').
      { destruct (write_pre [] k1 ks0 0 (pre_nil _) eq_refl) as (ks1 & Ew1 & _ & L1' & _); [lia|]. exists ks1. split; [exact Ew1|lia]. }
      assert (gcopy_kids b a ni h3 = Ok (tt, update_at b (mkG al (GInner None ks1)) h3)) as E2.
      { unfold gcopy_kids. run (ginner_ok _ _ _ _ _ Ha3). run (glift_ok _ _ h3 Ee). run (ginner_ok _ _ _ _ _ Hb3).
        run (glift_ok _ _ h3 Ew1). eapply gput_inner_ok; exact Hb3. }
      run E2. assert (unused h2 b) as Hun. { eexists _, _. split; [exact Hb2|]. intros y m. apply blank_head. }
      set (h4 := update_at b _ h3).
      assert (h4 = update_at b (mkG al (GInner None ks1)) h2) as E4.
      { unfold h4, h3. generalize b. clear. induction h2 as [|y h2 IHh]; intros [|b]; cbn; try reflexivity. now rewrite IHh. }
      exists (Some b), h4. split; [reflexivity|]. exists (own1 al b ++ [] ++ List.concat (F1 ++ [Fc])), W. split; [|split; [|split]].
      * cbn [GcRep.rep]. exists al, None, ks1, (k1 ++ [c']), [], (F1 ++ [Fc]). split; [eapply at_upd; exact Hb3|].
        split; [apply (Hks k1); auto|]. split; [rewrite L1'; exact Hkw|]. split; [reflexivity|]. split; [|reflexivity].
        rewrite E4. apply all3_app; [|apply all3_one].
        -- eapply reps_unused; [exact Hun|exact H31|exact Hw1].
        -- eapply rep_unused; [exact Hun|exact Hc'|exact Hwc].
      * rewrite E4, upd_len. intros y. specialize (S1 y). occs. la.
      * rewrite E4. apply chg_fresh; [eapply chg_nil_trans; eauto|unfold b; lia].
      * intros y Hy. apply in_or_app. right. auto.
Qed.
End Run.
