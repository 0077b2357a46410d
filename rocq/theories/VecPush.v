(** push_tail_visitor and push_tail_mut_visitor on counted memory. *)
From Coq Require Import List NArith Arith Bool Lia ZifyN ZifyNat ZifyBool.
From Verif Require Import Common NList Rrb RrbInv RrbPos RrbOps RrbSlice RrbViewOk RrbConcat AtomProofs
  RcHeap RcProofs RcExn RcExnProofs RcMove VecHeap VecPlan VecNodes VecMake VecGetMut.
Import ListNotations.
Local Open Scope N_scope.
Set Default Goal Selector "!".

Section Push.
Context {T : Type}.
Variables B BL : N.
Notation body := (vbody T).
Notation heap := (heap body). Notation cell := (cell body).
Notation pos_ok := (@pos_ok T B BL).
Notation wf := (@wf T B BL).
Notation full := (@full T B BL).
Notation span := (span B BL).
Notation lwidth := (lwidth BL).
Implicit Types (h : heap) (L R : list nat).

(** What the caller of an operation that consumes the node [a] when [m] is set owns. *)
Definition own (m : bool) (a : nat) : list nat := if m then [a] else [].
Definition keep (m : bool) R : option (list nat) := if m then Some R else None.

Lemma mv_keep m R L0 L L' h h' : mv (keep m R) L0 L L' h h' -> mv (Some R) L0 L L' h h'.
Proof. destruct m; [auto|apply mv_all]. Qed.
Lemma wp_when_dec m v hp p n a L h R (Q : unit -> heap -> Prop) : haddr hp = Ok a -> st L h (own m a ++ R) ->
  prel L h hp p -> pos_ok v p n -> (forall h', st L h' R -> mv (keep m R) L L L h h' -> Q tt h') ->
  wp (mwhen m (hdec B BL v hp)) h Q.
Proof.
  intros Ea S Hp Hok K. destruct m; cbn [mwhen own keep app] in *.
  - eapply wp_hdec; [exact Ea|exact S|exact Hp|exact Hok|]. intros h' (S' & M & _). now apply K.
  - apply wp_ret. apply K; [exact S|apply mv_refl].
Qed.

(** The index arithmetic of a regular push. *)
Lemma push_reg_step l p n : pos_ok (S l) p n -> is_rel n = false -> (forall m, p <> PFull m) -> nsize n < span (S l) ->
  exists s init last, (p = PReg n s \/ p = PSub n s) /\ n = Inner None (init ++ [last]) /\ N.land s (lmask BL) = 0 /\
    index B BL (S l) p (s - 1) = Ok (lenN init) /\
    ((index B BL (S l) p (s + lwidth - 1) = Ok (lenN init) /\ pos_ok l (PReg last s) last /\ s <> 0 /\
      is_rel last = false /\ nsize last < span l) \/
     index B BL (S l) p (s + lwidth - 1) = Ok (lenN init + 1)).
Proof.
  intros Hp Hr Hnf Hlt. pose proof (pos_ok_wf _ _ _ _ _ Hp) as Hw.
  destruct (nonrel_inv _ _ _ _ Hw Hr) as (init & last & En & Hf & Hrl & Hl & Hn & Hb).
  pose proof (lwidth_pos BL) as Hlw.
  assert (nsize n mod lwidth = 0) as Hd by (eapply (reg_dvd B BL); destruct n as [|[]]; try easy; exact Hw).
  assert (nsize n + lwidth <= span (S l)) as Hle by (apply dvd_step; auto using span_dvd).
  assert (exists s, (p = PReg n s \/ p = PSub n s) /\ 0 < s /\ (s - 1) mod span (S l) + 1 = nsize n) as (s & Ep & Hs & Es).
  { inversion Hp; subst; try (exfalso; eapply Hnf; reflexivity); try easy; eexists; (split; [eauto|]); split; auto; [lia|].
    rewrite N.mod_small; lia. }
  destruct (push_index _ _ _ _ _ Hs Es Hd Hle) as (E1 & E2 & E3).
  assert (Ei : forall i, index B BL (S l) p i = Ok (N.land (N.shiftr i (sh B BL l)) (mask B))) by (intros i; destruct Ep as [-> | ->]; reflexivity).
  exists s, init, last. split; [exact Ep|]. split; [exact En|]. split; [exact E1|].
  assert (nsize last mod lwidth = 0) as Hdl by (eapply reg_dvd; eauto).
  assert ((nsize n - 1) / span l = lenN init) as D1 by (rewrite Hn; apply last_div; lia).
  rewrite !Ei, E2, E3, D1. split; [reflexivity|].
  destruct (N.eq_dec (nsize last) (span l)) as [Efull|Efull].
  - right. f_equal. rewrite Hn, Efull. apply (div_unique' _ _ _ (lwidth - 1)); [|clear - Hlw; lia].
    assert (0 < span l) by apply span_pos.
    assert (0 + lwidth <= span l) as Hls by (apply dvd_step; auto using span_dvd). clear - Hls Hlw. lia.
  - left.
    assert (nsize last + lwidth <= span l) as Hll by (apply dvd_step; auto using span_dvd; lia).
    split; [|split; [|split; [lia|split; [eapply reg_not_rel; eauto|lia]]]].
    + f_equal. rewrite Hn. apply (div_unique' _ _ _ (nsize last + lwidth - 1)); clear - Hll Hlw Hb; lia.
    + constructor; [now apply reg_wf|eapply reg_not_rel; eauto|auto|]. rewrite <- mod_span_S.
      replace ((s - 1) mod span (S l)) with (lenN init * span l + nsize last - 1) by (clear - Es Hn; lia).
      rewrite last_mod by exact Hb. clear - Hb. lia.
Qed.

Variable t : bool.
(** ensure_mutable_relaxed_n: the table of a local node becomes local too. *)
Lemma xwp_ensure_relaxed L h R a rc r cs tv sz n sz0 (Q : nat -> heap -> Prop) (E : heap -> Prop) :
  st (a :: L) h (r :: R) -> cell_at h a (icell rc (Some r) cs) -> trep (a :: L) h r tv sz ->
  match n with Some n => rtakeN n sz | None => Ok sz end = Ok sz0 ->
  (forall d h' sz1, st (d :: a :: L) h' R -> cell_at h' a (icell rc (Some d) cs) ->
     cell_at h' d (mkCell 1 (VTable tv sz1) []) -> sz1 = sz \/ sz1 = sz0 ->
     (exists rc', cell_at h' r (mkCell rc' (VTable tv (if Nat.eqb r d then sz1 else sz)) [])) ->
     (r = d -> sz1 = sz) ->
     mv (Some R) L (a :: L) (d :: a :: L) h h' -> Q d h') ->
  (t = true -> E h) -> xwp t (ensure_relaxed a n) h Q E.
Proof.
  intros S Hc Ht En K KE. unfold ensure_relaxed. apply xwp_bind. apply xwp_m. eapply wp_load_inner; [exact Hc|].
  destruct (trep_inv _ _ _ _ _ Ht) as [rr Hr]. apply xwp_bind. apply xwp_m. eapply wv_unique; [exact S|exact Hr| |].
  - cbn [c_rc]. intros ->. apply xwp_ret.
    destruct (sv_take _ _ _ _ _ S Hr eq_refl) as (S1 & Hn1 & Hc1 & M1). cbn [c_kids app] in S1, M1.
    apply (K r h sz); [exact S1|exact Hc|exact Hc1|auto| |auto|eapply mv_tail; exact M1].
    exists 1%nat. rewrite Nat.eqb_refl. exact Hc1.
  - cbn [c_rc]. intros Hgt. apply xwp_bind. apply xwp_throw; [|exact KE]. apply xwp_m. apply wp_bind.
    eapply wp_load_table; [apply (at_wipe _ _ _ _ Hr)|]. apply wp_bind. eapply wp_lift; [exact En|].
    apply wp_bind. eapply wp_table_level; [apply (at_wipe _ _ _ _ Hr)|].
    apply wp_bind. apply wv_new_exact with (L := a :: L) (R := r :: R); [exact S|]. intros d h1 S1 Hn1 Hc1 M1 X1.
    destruct (wipe_cell _ _ _ _ Hr) as [Hnr Hr0]. destruct (X1 _ _ Hr0) as [Hr1 Hrd]. destruct (X1 _ _ Hc) as [Hca Had].
    assert (Hr2 : cell_at (wipe (d :: a :: L) h1) r (mkCell rr (VTable tv sz) [])).
    { apply wipe_at; [|exact Hr1]. intros [Hx|Hx]; [now apply Hrd|now apply Hnr]. }
    assert (Hna : ~ In a L). { destruct S as (_ & _ & ND). now inversion ND. }
    apply wp_bind. apply wv_dec with (L := d :: a :: L) (R := R); [exact S1| |].
    + intros h2 S2 M2 _. apply wp_bind. apply wp_ret. apply wp_bind.
      assert (Hd2 : cell_at h2 d (mkCell 1 (VTable tv sz0) [])) by (eapply mv_local; [exact M2|now left|exact Hc1]).
      assert (Ha2 : cell_at h2 a (icell rc (Some r) cs)) by (eapply mv_local; [exact M2|right; now left|exact Hca]).
      eapply wp_put_inner; [exact S2|right; now left|exact Ha2|]. intros h3 (S3 & Hc3 & F3 & M3). apply wp_ret.
      apply (K d h3 sz0); [exact S3|exact Hc3| |auto| |intros ->; now elim Hrd|].
      * unfold cell_at. rewrite F3; [exact Hd2|]. intros ->. now apply Had.
      * destruct (mv_cell _ _ _ _ _ _ _ _ M2 I Hr2) as ([rc2 b2 k2] & H2 & E1 & E2). cbn in E1, E2. subst.
        exists rc2. destruct (Nat.eqb_spec r d) as [->|_]; [now elim Hrd|].
        unfold cell_at. rewrite F3; [exact (at_wipe _ _ _ _ H2)|]. intros ->. apply Hnr. now left.
      * apply mv_all. eapply mv_trans; [eapply mv_tail; exact M1|].
        eapply mv_trans; [eapply mv_tail, mv_tail; exact M2|apply M3; exact Hna].
    + intros c h2 Hc2 Erc _ _ _ _ _. exfalso. pose proof (cell_fun _ _ _ _ Hr2 Hc2) as <-. cbn in Erc. lia.
Qed.

(** The relaxed node [a], taken, gets a new child and a new size after its first [i]. *)
Lemma xwp_finish_mut v L h R a r cs tv sz ns i c cn s s' (E : heap -> Prop) :
  st (a :: L) h (r :: takeN i cs ++ c :: R) -> cell_at h a (icell 1 (Some r) cs) -> trep (a :: L) h r tv sz -> tv = lv1 (takeN i ns ++ [cn]) ->
  i <= lenN cs -> i <= lenN sz -> Forall2 (nrep (a :: L) h) (takeN i cs) (takeN i ns) -> nrep (a :: L) h c cn ->
  last_of sz = Ok s -> (t = true -> E h) ->
  xwp t (d <- ensure_relaxed a (Some i) ;;;
         xm (p' <~ view (HRel a r) ;; s <~ mlift (psize B BL v p') ;; _ <~ put_last a i c ;;
             _ <~ put_size d i (s + s') ;; mret (Some a))) h
    (fun o h' => o = Some a /\ st L h' (a :: R) /\ mv (Some R) L (a :: L) L h h' /\
       nrep L h' a (Inner (Some (takeN i sz ++ [s + s'])) (takeN i ns ++ [cn]))) E.
Proof.
  intros S Hc Ht Etv Hi1 Hi2 Hk Hcn Hs KE. apply xwp_bind.
  eapply xwp_ensure_relaxed; [exact S|exact Hc|exact Ht|cbn; apply rtakeN_len; exact Hi2| |exact KE].
  intros d h1 sz1 S1 Hc1 Hd1 Ez Hr1 Erd M1. destruct Hr1 as [rc' Hr1].
  replace (if Nat.eqb r d then sz1 else sz) with sz in Hr1.
  2:{ destruct (Nat.eqb_spec r d) as [->|_]; [symmetry; now apply Erd|reflexivity]. }
  apply xwp_m. apply wp_bind. cbn [view]. apply wp_bind. eapply wp_load_table; [exact Hr1|]. apply wp_ret.
  apply wp_bind. eapply wp_lift; [cbn [psize]; exact Hs|]. apply wp_bind.
  pose proof S1 as (_ & _ & ND). inversion ND as [|? ? Hn1 ND1]; subst. inversion ND1 as [|? ? Hn2 _]; subst.
  assert (Hda : d <> a) by (intros ->; apply Hn1; now left).
  assert (HdL : ~ In d L) by (intros Hx; apply Hn1; now right).
  eapply wp_put_last; [exact S1|right; now left|exact Hc1|apply rtakeN_len; exact Hi1|].
  intros h2 (S2 & Hc2 & F2 & M2). apply wp_bind.
  assert (Hd2 : cell_at h2 d (mkCell 1 (VTable (lv1 (takeN i ns ++ [cn])) sz1) [])) by (unfold cell_at; rewrite F2; auto).
  assert (Ht1 : rtakeN i sz1 = Ok (takeN i sz)).
  { destruct Ez as [->| ->]; [now apply rtakeN_len|]. apply rtakeN_all. rewrite lenN_takeN. lia. }
  eapply wp_put_size; [exact S2|now left|exact Hd2|exact Ht1|]. intros h3 (S3 & Hd3 & F3 & M3). apply wp_ret.
  assert (M13 : mv (Some (takeN i cs ++ c :: R)) L (a :: L) (d :: a :: L) h h3).
  { eapply mv_trans; [exact M1|]. apply mv_all. eapply mv_trans; [apply M2; exact Hn2|apply M3; exact HdL]. }
  destruct (pub_rel L h3 R a d (takeN i cs ++ [c]) (lv1 (takeN i ns ++ [cn])) (takeN i sz ++ [s + s']) (takeN i ns ++ [cn])) as (S4 & M4 & Hn4).
  - eapply st_eqv; [|exact S3]. intros y. rewrite <- app_assoc. reflexivity.
  - unfold cell_at. rewrite F3; [exact Hc2|]. auto.
  - exact Hd3.
  - reflexivity.
  - apply Forall2_app; [|constructor; [|constructor]].
    + eapply mv_nreps; [exact M13| |exact Hk]. intros y Hy. apply in_or_app. now left.
    + eapply mv_nrep; [exact M13| |exact Hcn]. apply in_or_app. right. now left.
  - split; [reflexivity|]. split; [exact S4|]. split; [|exact Hn4].
    eapply mv_trans; [eapply mv_sub; [exact M13|]|apply mv_all; exact M4].
    intros y Hy. apply in_or_app. right. now right.
Qed.

Lemma F2_take {A C} (P : A -> C -> Prop) k u w : Forall2 P u w -> Forall2 P (takeN k u) (takeN k w).
Proof.
  assert (forall j (u : list A) (w : list C), Forall2 P u w -> Forall2 P (firstn j u) (firstn j w)) as X.
  { induction j as [|j IH]; intros u' w' H; [constructor|]. destruct H; cbn; constructor; auto. }
  apply X.
Qed.
(** The same on a new copy of the relaxed node; on an exception the new child is released. *)
Lemma xwp_finish_copy l m L h R a r sz ns i c cn s ts tl tn sc :
  st L h (c :: own m a ++ R) -> prel L h (HRel a r) (PRel (Inner (Some sz) ns) sz) ->
  pos_ok (S l) (PRel (Inner (Some sz) ns) sz) (Inner (Some sz) ns) ->
  nrep L h tl tn -> nrep L h c cn -> wf l cn -> (l = O -> c = tl) -> (l <> O -> sc = nsize cn) ->
  i <= lenN ns -> last_of sz = Ok s ->
  xwp t (xtry (n <- make_inner_r (S l) ;;;
               xm (p' <~ view (HRel a r) ;; s <~ mlift (psize B BL (S l) p') ;;
                   _ <~ do_copy_inner_r n a i [c] [s + ts] ;;
                   _ <~ mwhen m (hdec B BL (S l) (HRel a r)) ;; mret (Some n)))
          match l with O => mret tt | S _ => _ <~ inc tl ;; dec_inner B BL l c sc end) h
    (fun o h' => exists b, o = Some b /\ st L h' (b :: R) /\ mv (keep m R) L L L h h' /\
       nrep L h' b (Inner (Some (takeN i sz ++ [s + ts])) (takeN i ns ++ [cn])))
    (back L h (tl :: own m a ++ R)).
Proof.
  intros S Hp Hok Htl Hcn Hwc Hl0 Hsc Hi Hs. apply xwp_try. apply xwp_bind.
  pose proof (pos_ok_wf _ _ _ _ _ Hok) as Hw.
  assert (Hlz : lenN sz = lenN ns). { destruct Hw as (_ & _ & Hz). rewrite Hz, lenN_sums, lenN_map. reflexivity. }
  eapply xwp_make_inner_r; [exact S| |].
  - intros b d h1 S1 Hb1 Hd1 M1. apply xwp_m. apply wp_bind.
    assert (Hp1 : prel (d :: b :: L) h1 (HRel a r) (PRel (Inner (Some sz) ns) sz)).
    { eapply mv_prel; [exact M1|reflexivity|exact I|exact Hp]. }
    eapply wp_view; [exact Hp1|]. apply wp_bind. eapply wp_lift; [rewrite psize_blank; exact Hs|]. apply wp_bind.
    inversion Hp1 as [| | |? ? rc cs ? ? Hc1 Ht1 Hk1]; subst.
    pose proof (F2_len _ _ _ Hk1) as El.
    eapply wp_do_copy_inner_r; [exact S1|exact Hb1|exact Hd1|exact Hc1|exact Ht1|eapply nreps_live; exact Hk1
      |apply rtakeN_len; lia|apply rtakeN_len; lia|].
    intros h2 S2 Hb2 Hd2 M2. apply wp_bind.
    eapply wp_when_dec with (R := takeN i cs ++ c :: R) (L := d :: b :: L); [reflexivity| | |exact Hok|].
    + eapply st_eqv; [|exact S2]. intros y. rewrite !occ_app. cbn. rewrite !occ_app. lia.
    + assert (M2' : mv None L (d :: b :: L) (d :: b :: L) h1 h2) by exact M2.
      eapply mv_prel; [exact M2|reflexivity|exact I|exact Hp1].
    + intros h3 S3 M3. apply wp_ret. exists b. split; [reflexivity|].
      assert (Hk2 : Forall2 (nrep (d :: b :: L) h2) (takeN i cs) (takeN i ns)).
      { eapply mv_nreps; [exact M2|intros; exact I|]. now apply F2_take. }
      assert (Hc2 : nrep (d :: b :: L) h2 c cn).
      { eapply mv_nrep; [exact M2|exact I|]. eapply mv_nrep; [exact M1|exact I|exact Hcn]. }
      destruct (pub_rel L h3 R b d (takeN i cs ++ [c]) (Datatypes.S l) (takeN i sz ++ [s + ts]) (takeN i ns ++ [cn])) as (S4 & M4 & Hn4).
      * eapply st_eqv; [|exact S3]. intros y. rewrite <- app_assoc. reflexivity.
      * eapply mv_local; [exact M3|right; now left|exact Hb2].
      * eapply mv_local; [exact M3|now left|exact Hd2].
      * symmetry. apply (lv1_cut B BL); [exact (wf_kids _ _ _ _ Hw)|exact Hwc].
      * apply Forall2_app; [|constructor; [|constructor]].
        -- eapply mv_nreps; [exact (mv_keep _ _ _ _ _ _ _ M3)| |exact Hk2]. intros y Hy. apply in_or_app. now left.
        -- eapply mv_nrep; [exact (mv_keep _ _ _ _ _ _ _ M3)| |exact Hc2]. apply in_or_app. right. now left.
      * split; [exact S4|]. split; [|exact Hn4].
        assert (M12 : mv None L L (d :: b :: L) h h2) by (eapply mv_trans; eauto).
        destruct m; cbn [keep] in *.
        -- eapply mv_trans; [apply mv_all; exact M12|]. eapply mv_trans; [|apply mv_all; exact M4].
           eapply mv_tail, mv_tail, mv_sub; [exact M3|]. intros y Hy. apply in_or_app. right. now right.
        -- eapply mv_trans; [exact M12|]. eapply mv_trans; [|exact M4]. eapply mv_tail, mv_tail; exact M3.
  - intros h1 _ S1 M1. destruct l as [|l].
    + apply wp_ret. rewrite (Hl0 eq_refl) in *. split; [exact S1|now apply mv_all].
    + rewrite Hsc by discriminate. apply wp_bind.
      apply wv_inc with (L := L) (R := c :: own m a ++ R); [exact S1|eapply srep_live, mv_nrep; [exact M1|exact I|exact Htl]|].
      intros h2 S2 M2. eapply wp_dec_inner with (R := tl :: own m a ++ R); [| |exact Hwc|].
      * eapply st_eqv; [|exact S2]. intros y. cbn. lia.
      * eapply mv_nrep; [exact M2|exact I|]. eapply mv_nrep; [exact M1|exact I|exact Hcn].
      * intros h3 (S3 & M3 & _). split; [exact S3|]. eapply mv_trans; [apply mv_all; exact M1|].
        eapply mv_trans; [apply mv_all; exact M2|exact M3].
Qed.

Lemma push_grows l q x tn ts c' : pos_ok (S l) q x -> (is_rel x = false -> (forall m, q <> PFull m) /\ nsize x < span (S l)) ->
  full O tn -> ts = lwidth -> push_tail_node B BL (S l) q tn ts = Ok (Some c') -> wf (S l) c' /\ nsize c' = nsize x + ts.
Proof.
  intros Hok Hr Hf Hts Hu.
  assert (exists r, push_tail_node B BL (S l) q tn ts = Ok r /\ forall n', r = Some n' -> wf (S l) n' /\ elems n' = elems x ++ elems tn) as (r & Er & H).
  { destruct (is_rel x) eqn:Ex.
    - pose proof (pos_ok_wf _ _ _ _ _ Hok) as Hw. destruct x as [|[sz|] ns]; try discriminate.
      assert (q = PRel (Inner (Some sz) ns) sz) as ->.
      { inversion Hok; subst; try reflexivity; try discriminate. }
      destruct (push_relaxed_ok _ _ _ _ _ tn ts Hw eq_refl Hf Hts) as (r & Er & H). exists r. split; [exact Er|].
      intros n' En. destruct (H n' En) as (H1 & _ & H2). auto.
    - destruct (Hr eq_refl) as [Hnf Hlt].
      destruct (push_regular_ok _ _ l q x tn ts Hok) as (n' & En & Hrg & He & _); auto.
      { destruct q; try reflexivity. now elim (Hnf n). }
      exists (Some n'). split; [exact En|]. intros n2 E2. injection E2 as <-. split; [now apply reg_wf|exact He]. }
  rewrite Er in Hu. injection Hu as ->. destruct (H c' eq_refl) as [H1 H2]. split; [exact H1|].
  unfold nsize. rewrite H2, lenN_app. f_equal. pose proof (full_size _ _ _ _ Hf) as Hs. rewrite span_0 in Hs. unfold nsize in Hs. congruence.
Qed.

Lemma back_eqv L h R R' h' : (forall y, occ y R' = occ y R) -> back L h R h' -> back L h R' h'.
Proof.
  intros E (S & M). split; [eapply st_eqv; [|exact S]; intros y; symmetry; apply E|]. eapply mv_sub; [exact M|].
  intros y Hy. apply occ_in. rewrite <- E. now apply occ_in.
Qed.
(** The node [a] was taken and what its child and the rest refer to is as before. *)
Lemma back_kid L h R a r ca c cb o na x nb h1 : st L h (a :: R) -> cell_at (wipe L h) a (icell 1 r (ca ++ c :: cb)) ->
  lenN ca = lenN na -> nrep L h a (Inner o (na ++ x :: nb)) -> back (a :: L) h (c :: split_ptrs r ca cb R) h1 ->
  back L h (a :: R) h1.
Proof.
  intros S Hc El Hn (S2 & M2).
  destruct (take_kid _ _ _ _ _ _ _ _ _ _ _ _ S Hc El Hn) as (S1 & Ha & Hc1 & M1 & Hx & Hca & Hcb & Ho1).
  destruct (put_kid_back L h1 R a r ca c cb o na x nb) as (S4 & M4 & Hn4 & Hc4).
  - exact S2.
  - eapply mv_local; [exact M2|now left|exact Hc1].
  - eapply mv_nrep; [exact M2|now left|exact Hx].
  - eapply mv_nreps; [exact M2| |exact Hca]. intros y Hy. right. apply split_kids. auto.
  - eapply mv_nreps; [exact M2| |exact Hcb]. intros y Hy. right. apply split_kids. auto.
  - eapply mv_orep; [exact M2| |exact Ho1]. intros y Hy. right. now apply split_tab.
  - split; [exact S4|]. eapply mv_close; [|exact Hc|exact Hc4|reflexivity|reflexivity]. cbn [c_kids icell].
    assert (M12 : mv (Some (c :: split_ptrs r ca cb R)) L L L h h1).
    { eapply mv_trans; [exact M1|]. eapply mv_trans; [eapply mv_tail; exact M2|now apply mv_all]. }
    eapply mv_sub; [exact M12|]. intros y Hy. apply split_in in Hy. destruct Hy as [->|Hy]; [now left|now right].
Qed.
Lemma occ_split_cons r ca cb R x y : occ y (split_ptrs r ca cb (x :: R)) = occ y (x :: split_ptrs r ca cb R).
Proof. unfold split_ptrs. cbn [occ]. rewrite !occ_app. cbn. lia. Qed.

Definition room (v : nat) (p : pos T) (n : node T) : Prop :=
  is_rel n = false -> (forall m, p <> PFull m) /\ nsize n < span v.

Lemma hpush_ok v : forall m hp p n a tl tn ts r L h R,
  haddr hp = Ok a -> st L h (own m a ++ tl :: R) -> prel L h hp p -> nrep L h tl tn -> pos_ok v p n -> full O tn ->
  room v p n -> (is_rel n = true -> ts = lwidth) -> (m = true -> is_rel n = true -> t = false) ->
  push_tail_node B BL v p tn ts = Ok r ->
  xwp t (hpush B BL m v hp tl ts) h
    (fun o h' => match o, r with
       | Some b, Some n' => st L h' (b :: R) /\ mv (keep m R) L L L h h' /\ nrep L h' b n'
       | None, None => h' = h
       | _, _ => False end)
    (back L h (own m a ++ tl :: R)).
Proof.
  induction v as [|l IH]; intros m hp p n a tl tn ts r L h R Ea S Hp Htl Hok Hf Hroom Hts Hm Hu;
    cbn [VecHeap.hpush push_tail_node] in *; [discriminate|].
  pose proof (pos_ok_wf _ _ _ _ _ Hok) as Hw.
  destruct (prel_cases _ _ _ _ _ _ _ _ _ Hp Ea Hok) as (rc & rr & cs & o & ns & -> & Hc & Ho & Hcs & El & Hcase).
  pose proof (prel_nrep _ _ _ _ _ _ Hp Ea (pos_ok_node _ _ _ _ _ Hok)) as Hn.
  apply xwp_bind. apply xwp_m. eapply wp_lift; [exact Ea|]. apply xwp_bind. apply xwp_m. eapply wp_view; [exact Hp|].
  apply xwp_bind. apply xwp_m. eapply wp_load_inner; [apply (at_wipe _ _ _ _ Hc)|].
  destruct (make_path_ok B BL l tn Hf) as [Hpr Hpe].
  assert (Hpn : nsize (make_path l tn) = lwidth).
  { unfold nsize. rewrite Hpe. pose proof (full_size _ _ _ _ Hf) as Hs. rewrite span_0 in Hs. exact Hs. }
  destruct Hcase as [(rt & sz & -> & -> & -> & ->)|(-> & -> & Hh & Hpp & Hrel)].
  - (* relaxed *)
    cbn [is_rel] in *. specialize (Hts eq_refl). specialize (Hm). cbn [blank].
    assert (exists ini x, ns = ini ++ [x]) as (ini & x & ->).
    { destruct ns as [|x ini] using rev_ind; [destruct Hw as (Hw & _); cbn in Hw; lia|eauto]. }
    assert (exists ca c, cs = ca ++ [c]) as (ca & c & ->).
    { destruct cs as [|c ca] using rev_ind; [rewrite lenN_app in El; cbn in El; lia|eauto]. }
    assert (Elc : lenN ca = lenN ini) by (rewrite !lenN_snoc in El; lia).
    assert (Hlsz : lenN sz = lenN ini + 1).
    { destruct Hw as (_ & _ & Hz). rewrite Hz, lenN_sums, lenN_map, lenN_snoc. reflexivity. }
    pose proof (rel_last _ _ _ _ _ Hw) as Hlast.
    assert (Hsa : size_at B BL (Datatypes.S l) (PRel (Inner (Some sz) (ini ++ [x])) sz) (lenN ini) = Ok (nsize x)).
    { unfold size_at, size_before. rewrite (rel_before _ _ _ _ _ _ Hw). cbn [rbind size_sbh].
      rewrite (rel_at _ _ _ _ _ _ _ Hw). cbn [rbind]. f_equal. lia. }
    rewrite Hlsz in *. replace (lenN ini + 1 - 1) with (lenN ini) in * by lia.
    rewrite Hsa, Hlast in Hu. cbn [rbind inner_of] in Hu.
    destruct (F2_mid _ _ _ _ _ _ _ Elc Hcs) as (Hca & Hcx & _).
    pose proof (wf_kids _ _ _ _ Hw) as Hwk. cbn [kids] in Hwk. apply Forall_app in Hwk. destruct Hwk as [Hwi Hwx].
    apply Forall_inv in Hwx.
    assert (Etk : forall A (u : list A) y, lenN u = lenN ini -> takeN (lenN ini) (u ++ [y]) = u) by (intros A u y <-; apply takeN_app).
    assert (Etk1 : forall A (u : list A) y, lenN u = lenN ini -> takeN (lenN ini + 1) (u ++ [y]) = u ++ [y])
      by (intros A u y E; apply takeN_all; rewrite lenN_snoc; lia).
    assert (Etz : takeN (lenN ini + 1) sz = sz) by (apply takeN_all; lia).
    set (s := nsize (Inner (Some sz) (ini ++ [x]))) in *.
    (* the values produced *)
    assert (V1 : (cs' <- rtakeN (lenN ini + 1) (ini ++ [x]) ;; sz' <- rtakeN (lenN ini + 1) sz ;;
              Ok (Some (Inner (Some (sz' ++ [s + ts])) (cs' ++ [make_path l tn])))) =
            Ok (Some (Inner (Some (takeN (lenN ini + 1) sz ++ [s + ts])) (takeN (lenN ini + 1) (ini ++ [x]) ++ [make_path l tn])))).
    { rewrite !rtakeN_len by (rewrite ?lenN_snoc; lia). reflexivity. }
    assert (V2 : forall c', (cs' <- rtakeN (lenN ini) (ini ++ [x]) ;; sz' <- rtakeN (lenN ini) sz ;;
              Ok (Some (Inner (Some (sz' ++ [s + ts])) (cs' ++ [c'])))) =
            Ok (Some (Inner (Some (takeN (lenN ini) sz ++ [s + ts])) (takeN (lenN ini) (ini ++ [x]) ++ [c'])))).
    { intros c'. rewrite !rtakeN_len by (rewrite ?lenN_snoc; lia). reflexivity. }
    assert (Hcp : exists q, child_pos B BL l x (nsize x) = Ok q /\ pos_ok l q x /\ is_sub q = true) by (now apply child_pos_ok).
    destruct Hcp as (q & Eq & Hq & Hsub).
    set (Q := fun (o : option nat) h' => match o, r with
       | Some b, Some n' => st L h' (b :: R) /\ mv (keep m R) L L L h h' /\ nrep L h' b n'
       | None, None => h' = h
       | _, _ => False end).
    (* a new path in a copy of the node *)
    assert (PC : Ok (Some (Inner (Some (takeN (lenN ini + 1) sz ++ [s + ts])) (takeN (lenN ini + 1) (ini ++ [x]) ++ [make_path l tn]))) = Ok r ->
       xwp t (c <- hmake_path l tl ;;;
         xtry (n <- make_inner_r (Datatypes.S l) ;;;
               xm (p' <~ view (HRel a rt) ;; s <~ mlift (psize B BL (Datatypes.S l) p') ;;
                   _ <~ do_copy_inner_r n a (lenN ini + 1) [c] [s + ts] ;;
                   _ <~ mwhen m (hdec B BL (Datatypes.S l) (HRel a rt)) ;; mret (Some n)))
          match l with O => mret tt | Datatypes.S _ => _ <~ inc tl ;; dec_inner B BL l c (if lenN ini + 1 =? lenN ini then nsize x + ts else ts) end) h
         Q (back L h (own m a ++ tl :: R))).
    { intros Er. injection Er as Er. apply xwp_bind.
      assert (S0 : st L h (tl :: own m a ++ R)) by (eapply st_eqv; [|exact S]; intros y; cbn; rewrite !occ_app; cbn; lia).
      eapply xwp_hmake_path; [exact S0|exact Htl| |].
      - intros c' h1 S1 M1 Hc1 Hc0.
        assert (E01 : lenN ini + 1 =? lenN ini = false) by (apply N.eqb_neq; lia). rewrite E01.
        eapply xwp_mono; [eapply xwp_finish_copy with (cn := make_path l tn) (tn := tn) (ns := ini ++ [x]) (sz := sz) (s := s);
          [exact S1| |exact Hok| |exact Hc1|now apply reg_wf| | |rewrite lenN_snoc; lia|exact Hlast]| |].
        + eapply mv_prel; [exact M1|exact Ea|exact I|exact Hp].
        + eapply mv_nrep; [exact M1|exact I|exact Htl].
        + exact Hc0.
        + intros _. congruence.
        + intros o h2 (b & -> & S2 & M2 & Hn2). unfold Q. rewrite <- Er. split; [exact S2|]. split; [|exact Hn2].
          eapply mv_trans; [|exact M2]. destruct m; [now apply mv_all|exact M1].
        + intros h2 (S2 & M2). split.
          * eapply st_eqv; [|exact S2]. intros y. cbn. rewrite !occ_app. cbn. lia.
          * eapply mv_trans; [apply mv_all; exact M1|]. eapply mv_sub; [exact M2|]. intros y. rewrite in_app_iff. cbn. rewrite in_app_iff. tauto.
      - intros h1 _ S1 M1. split; [|now apply mv_all]. eapply st_eqv; [|exact S1]. intros y. cbn. rewrite !occ_app. cbn. lia. }
    (* the common test *)
    assert (Hsh : N.shiftl 1 (sh B BL l) = span l) by apply shiftl_span.
    rewrite Hsh in *.
    assert (Hroomx : nsize x <> span l -> room l q x).
    { intros Hne _. split; [intros m' ->; exact (RrbConcat.child_not_full _ _ _ _ _ _ Eq)|]. pose proof (wf_size _ _ _ _ Hwx). lia. }
    match goal with |- xwp t (xbind _ ?k) _ _ _ =>
      assert (CP : forall u, m && u = false -> xwp t (k u) h Q (back L h (own m a ++ tl :: R))) end.
    { intros u ->. apply xwp_bind. apply xwp_m. eapply wp_lift; [rewrite <- Hsa; apply (size_at_blank _ _ _ (PRel (Inner (Some sz) (ini ++ [x])) sz))|].
      destruct ((nsize x =? span l) || match l with O => true | Datatypes.S _ => false end) eqn:E1.
      * destruct (width B <=? lenN ini + 1) eqn:E2.
        -- injection Hu as <-. apply xwp_ret. reflexivity.
        -- apply PC. rewrite <- Hu. symmetry. exact V1.
      * apply orb_false_elim in E1. destruct E1 as [E1 El0]. apply N.eqb_neq in E1. specialize (Hroomx E1).
        destruct (width B <=? lenN ini) eqn:E2; [injection Hu as <-; apply xwp_ret; reflexivity|].
        rewrite rnthN_app in Hu by reflexivity. cbn [rbind] in Hu. rewrite Eq in Hu. cbn [rbind] in Hu.
        apply rbind_ok in Hu. destruct Hu as (rx & Hrx & Hu).
        apply xwp_bind. apply xwp_m. eapply wp_lift; [apply rnthN_app; exact Elc|].
        apply xwp_bind. apply xwp_m. eapply wp_open with (k := KMaybe c (nsize x)); [exact Hcx|exact Eq|]. intros hq Ehq Hhq.
        apply xwp_bind. eapply xwp_mono; [eapply IH with (m := false) (R := own m a ++ R) (n := x); [exact Ehq| |exact Hhq|exact Htl|exact Hq|exact Hf|exact Hroomx|intros _; exact Hts|discriminate|exact Hrx]| |].
        -- eapply st_eqv; [|exact S]. intros y. cbn. rewrite !occ_app. cbn. lia.
        -- intros [c'|] h1 HQ.
           ++ destruct rx as [cn|]; [|easy]. destruct HQ as (S1 & M1 & Hn1). cbn [keep] in M1.
              rewrite N.eqb_refl. rewrite V2 in Hu. injection Hu as <-.
              assert (l <> O) as Hl0 by (destruct l; [discriminate|discriminate]).
              assert (wf l cn /\ nsize cn = nsize x + ts) as [Hwcn Hscn].
              { destruct l as [|l']; [now elim Hl0|]. eapply push_grows; eauto. }
              eapply xwp_mono; [eapply xwp_finish_copy with (cn := cn) (tn := tn) (ns := ini ++ [x]) (sz := sz) (s := s);
                [exact S1| |exact Hok| |exact Hn1|exact Hwcn|intros E; now elim Hl0| |rewrite lenN_snoc; lia|exact Hlast]| |].
              ** eapply mv_prel; [exact M1|exact Ea|exact I|exact Hp].
              ** eapply mv_nrep; [exact M1|exact I|exact Htl].
              ** intros _. congruence.
              ** intros o h2 (b & -> & S2 & M2 & Hn2). split; [exact S2|]. split; [|exact Hn2].
                 eapply mv_trans; [|exact M2]. destruct m; [now apply mv_all|exact M1].
              ** intros h2 (S2 & M2). eapply back_eqv; [|split; [exact S2|eapply mv_trans; [apply mv_all; exact M1|exact M2]]].
                 intros y. cbn. rewrite !occ_app. cbn. lia.
           ++ destruct rx as [cn|]; [easy|]. subst h1.
              destruct (lenN ini + 1 <? width B) eqn:E3.
              ** apply PC. rewrite <- Hu. symmetry. exact V1.
              ** injection Hu as <-. apply xwp_ret. reflexivity.
        -- intros h1 Hb. eapply back_eqv; [|exact Hb]. intros y. cbn. rewrite !occ_app. cbn. lia. }
    apply xwp_bind. apply xwp_m. eapply wv_unique; [exact S|exact Hc| |]; cbn [c_rc icell].
    2:{ intros _. apply CP. apply andb_false_r. }
    intros ->. destruct m; [|apply CP; reflexivity]. clear CP PC. specialize (Hm eq_refl eq_refl).
    cbn [own app andb keep] in *.
    destruct (take_kid _ _ _ _ _ _ _ _ _ _ _ _ S Hc Elc Hn) as (S1 & Ha & Hc1 & M1 & Hx & Hca1 & _ & Ho1). cbn [orep] in Ho1.
    assert (PM : Ok (Some (Inner (Some (takeN (lenN ini + 1) sz ++ [s + ts])) (takeN (lenN ini + 1) (ini ++ [x]) ++ [make_path l tn]))) = Ok r ->
       xwp t (c <- hmake_path l tl ;;;
         d <- ensure_relaxed a (Some (lenN ini + 1)) ;;;
         xm (p' <~ view (HRel a rt) ;; s <~ mlift (psize B BL (Datatypes.S l) p') ;; _ <~ put_last a (lenN ini + 1) c ;;
             _ <~ put_size d (lenN ini + 1) (s + ts) ;; mret (Some a))) h Q (back L h (a :: tl :: R))).
    { intros Er. injection Er as Er. apply xwp_bind.
      eapply xwp_hmake_path with (L := a :: L) (R := c :: split_ptrs (Some rt) ca [] R).
      - eapply st_eqv; [|exact S1]. intros y. cbn [occ]. rewrite occ_split_cons. cbn [occ]. lia.
      - eapply mv_nrep; [exact M1| |exact Htl]. right. apply split_incl. now left.
      - intros c' h1 S2 M2 Hc2 _.
        eapply xwp_mono; [eapply xwp_finish_mut with (R := R) (sz := sz) (ns := ini ++ [x]) (cn := make_path l tn) (s := s) (r := rt)
          (cs := ca ++ [c]) (E := fun _ => False)| |].
        + eapply st_eqv; [|exact S2]. intros y. rewrite Etk1 by exact Elc. unfold split_ptrs. cbn. rewrite app_nil_r, !occ_app. cbn. lia.
        + eapply mv_local; [exact M2|now left|exact Hc1].
        + eapply mv_trep; [exact M2|exact I|exact Ho1].
        + rewrite (lv1_wf B BL _ _ _ Hw). symmetry. apply (lv1_cut B BL); [exact (wf_kids _ _ _ _ Hw)|now apply reg_wf].
        + rewrite lenN_snoc. lia.
        + lia.
        + rewrite !Etk1 by auto. apply Forall2_app; [|constructor; [|constructor]].
          * eapply mv_nreps; [exact M2|intros; exact I|exact Hca1].
          * eapply mv_nrep; [exact M2|exact I|exact Hx].
        + exact Hc2.
        + exact Hlast.
        + congruence.
        + intros o h3 (-> & S3 & M3 & Hn3). unfold Q. rewrite <- Er. split; [exact S3|]. split; [|exact Hn3].
          eapply mv_trans; [eapply mv_sub; [exact M1|]; intros y Hy; right; apply split_incl; now right|].
          eapply mv_trans; [apply mv_all; eapply mv_tail; exact M2|exact M3].
        + intros h3 [].
      - congruence. }
    apply xwp_bind. apply xwp_m. eapply wp_lift; [rewrite <- Hsa; apply (size_at_blank _ _ _ (PRel (Inner (Some sz) (ini ++ [x])) sz))|].
    destruct ((nsize x =? span l) || match l with O => true | Datatypes.S _ => false end) eqn:E1.
    + destruct (width B <=? lenN ini + 1) eqn:E2.
      * injection Hu as <-. apply xwp_ret. reflexivity.
      * apply PM. rewrite <- Hu. symmetry. exact V1.
    + apply orb_false_elim in E1. destruct E1 as [E1 El0]. apply N.eqb_neq in E1. specialize (Hroomx E1).
      destruct (width B <=? lenN ini) eqn:E2; [injection Hu as <-; apply xwp_ret; reflexivity|].
      rewrite rnthN_app in Hu by reflexivity. cbn [rbind] in Hu. rewrite Eq in Hu. cbn [rbind] in Hu.
      apply rbind_ok in Hu. destruct Hu as (rx & Hrx & Hu).
      apply xwp_bind. apply xwp_m. eapply wp_lift; [apply rnthN_app; exact Elc|].
      apply xwp_bind. apply xwp_m. eapply wp_open with (k := KMaybe c (nsize x)); [exact Hx|exact Eq|]. intros hq Ehq Hhq.
      apply xwp_bind. eapply xwp_mono; [eapply IH with (m := true) (R := split_ptrs (Some rt) ca [] R) (n := x);
        [exact Ehq| |exact Hhq| |exact Hq|exact Hf|exact Hroomx|intros _; exact Hts|intros _ _; exact Hm|exact Hrx]| |].
      * cbn [own app]. eapply st_eqv; [|exact S1]. intros y. cbn [occ]. rewrite occ_split_cons. cbn [occ]. reflexivity.
      * eapply mv_nrep; [exact M1| |exact Htl]. right. apply split_incl. now left.
      * intros [c'|] h1 HQ.
        -- destruct rx as [cn|]; [|easy]. destruct HQ as (S2 & M2 & Hn2). cbn [keep] in M2.
           rewrite V2 in Hu. injection Hu as <-.
           eapply xwp_mono; [eapply xwp_finish_mut with (R := R) (sz := sz) (ns := ini ++ [x]) (cn := cn) (s := s) (r := rt)
             (cs := ca ++ [c]) (E := fun _ => False)| |].
           ++ eapply st_eqv; [|exact S2]. intros y. rewrite Etk by exact Elc. unfold split_ptrs. cbn. rewrite app_nil_r, !occ_app. cbn. lia.
           ++ eapply mv_local; [exact M2|now left|exact Hc1].
           ++ eapply mv_trep; [exact M2| |exact Ho1]. now apply split_tab.
           ++ rewrite (lv1_wf B BL _ _ _ Hw). symmetry. apply (lv1_cut B BL); [exact (wf_kids _ _ _ _ Hw)|].
              destruct l as [|l0]; [discriminate|]. exact (proj1 (push_grows _ _ _ _ _ _ Hq Hroomx Hf Hts Hrx)).
           ++ rewrite lenN_snoc. lia.
           ++ lia.
           ++ rewrite !Etk by auto. eapply mv_nreps; [exact M2| |exact Hca1]. intros y Hy. apply split_kids. auto.
           ++ exact Hn2.
           ++ exact Hlast.
           ++ congruence.
           ++ intros o h3 (-> & S3 & M3 & Hn3). split; [exact S3|]. split; [|exact Hn3].
              eapply mv_trans; [eapply mv_sub; [exact M1|]; intros y Hy; right; apply split_incl; now right|].
              eapply mv_trans; [eapply mv_tail, mv_sub; [exact M2|]; apply split_incl|exact M3].
           ++ intros h3 [].
        -- destruct rx as [cn|]; [easy|]. subst h1.
           destruct (lenN ini + 1 <? width B) eqn:E3.
           ++ apply PM. rewrite <- Hu. symmetry. exact V1.
           ++ injection Hu as <-. apply xwp_ret. reflexivity.
      * intros h1 Hb. eapply back_kid; [exact S|exact Hc|exact Elc|exact Hn|]. eapply back_eqv; [|exact Hb].
        intros y. cbn [own app occ kaddr]. rewrite occ_split_cons. cbn [occ]. lia.
  - (* regular *)
    destruct (push_reg_step _ _ _ Hok Hrel) as (s & ini & x & Ep & En & Eland & Eidx & Enew).
    { apply (proj1 (Hroom Hrel)). } { apply (proj2 (Hroom Hrel)). }
    injection En as ->.
    assert (exists ca c, cs = ca ++ [c]) as (ca & c & ->).
    { destruct cs as [|c ca] using rev_ind; [rewrite lenN_app in El; cbn in El; lia|eauto]. }
    assert (Elc : lenN ca = lenN ini) by (rewrite !lenN_snoc in El; lia).
    destruct (F2_mid _ _ _ _ _ _ _ Elc Hcs) as (Hca & Hcx & _).
    set (Q := fun (o : option nat) h' => match o, r with
       | Some b, Some n' => st L h' (b :: R) /\ mv (keep m R) L L L h h' /\ nrep L h' b n'
       | None, None => h' = h
       | _, _ => False end).
    set (p0 := blank p).
    (* what the value operation does *)
    assert (exists ni cn, index B BL (Datatypes.S l) p (s + lwidth - 1) = Ok ni /\
       r = Some (Inner None (takeN ni (ini ++ [x]) ++ [cn])) /\ ni <= lenN (ini ++ [x]) /\
       ((ni = lenN ini /\ pos_ok l (PReg x s) x /\ s <> 0 /\ room l (PReg x s) x /\ is_rel x = false /\
         push_tail_node B BL l (PReg x s) tn ts = Ok (Some cn)) \/
        (ni = lenN ini + 1 /\ cn = make_path l tn))) as (ni & cn & Eni & -> & Hni & Hkind).
    { assert (Hu' : (c <- (if (lenN ini =? match index B BL (Datatypes.S l) p (s + lwidth - 1) with Ok i => i | UB => 0 end) then
                    q <- mk_reg x s ;; r <- push_tail_node B BL l q tn ts ;; match r with Some c => Ok c | None => UB end
                  else Ok (make_path l tn)) ;;
            cs' <- rtakeN (match index B BL (Datatypes.S l) p (s + lwidth - 1) with Ok i => i | UB => 0 end) (ini ++ [x]) ;;
            Ok (Some (Inner None (cs' ++ [c])))) = Ok r).
      { assert (exists i, index B BL (Datatypes.S l) p (s + lwidth - 1) = Ok i) as [i Ei] by (destruct Enew as [(E & _)|E]; eauto).
        rewrite Ei. destruct Ep as [-> | ->]; rewrite Eland in Hu; cbn [negb N.eqb inner_of rbind last_oh] in Hu;
          rewrite Eidx, Ei in Hu; cbn [rbind] in Hu; rewrite rnthN_app in Hu by reflexivity; exact Hu. }
      clear Hu. destruct Enew as [(Ei & Hpx & Hs0 & Hrx & Hlx)|Ei]; rewrite Ei in Hu'.
      - rewrite N.eqb_refl in Hu'. unfold mk_reg in Hu'. destruct (N.eqb_spec s 0) as [|_]; [easy|]. cbn [rbind] in Hu'.
        apply rbind_ok in Hu'. destruct Hu' as (cn & Hcn & Hu'). apply rbind_ok in Hcn. destruct Hcn as (rx & Hrxx & Hcn).
        destruct rx as [cn'|]; [|discriminate]. injection Hcn as ->. apply rbind_ok in Hu'. destruct Hu' as (cs' & Hcs' & Hu').
        injection Hu' as <-. apply rtakeN_inv in Hcs'. destruct Hcs' as [Hle ->].
        exists (lenN ini), cn. split; [exact Ei|]. split; [reflexivity|]. split; [exact Hle|]. left.
        split; [reflexivity|]. split; [exact Hpx|]. split; [exact Hs0|]. split; [|auto]. intros _. split; [discriminate|exact Hlx].
      - destruct (N.eqb_spec (lenN ini) (lenN ini + 1)); [lia|]. cbn [rbind] in Hu'.
        apply rbind_ok in Hu'. destruct Hu' as (cs' & Hcs' & Hu').
        injection Hu' as <-. apply rtakeN_inv in Hcs'. destruct Hcs' as [Hle ->].
        exists (lenN ini + 1), (make_path l tn). split; [exact Ei|]. split; [reflexivity|]. split; [exact Hle|]. now right. }
    (* getting the new child *)
    assert (CH : forall m' L' h' R', st L' h' (own m' c ++ tl :: R') -> nrep L' h' c x -> nrep L' h' tl tn ->
      xwp t (if lenN ini =? ni then
               x <- xm (mlift (rnthN (ca ++ [c]) (lenN ini))) ;;;
               q <- xm (open B BL l (KReg x s)) ;;;
               r <- hpush B BL m' l q tl ts ;;;
               match r with Some c => xret c | None => xm mub end
             else hmake_path l tl) h'
        (fun c' h2 => if ni =? lenN ini then st L' h2 (c' :: R') /\ mv (keep m' R') L' L' L' h' h2 /\ nrep L' h2 c' cn
           else st L' h2 (c' :: own m' c ++ R') /\ mv None L' L' L' h' h2 /\ nrep L' h2 c' cn)
        (back L' h' (own m' c ++ tl :: R'))).
    { intros m' L' h' R' S' Hx' Htl'. destruct Hkind as [(-> & Hpx & Hs0 & Hrx & Hrelx & Hpu)|(-> & ->)].
      - rewrite N.eqb_refl. apply xwp_bind. apply xwp_m. eapply wp_lift; [apply rnthN_app; exact Elc|].
        apply xwp_bind. apply xwp_m. eapply wp_open with (k := KReg c s) (p := PReg x s); [exact Hx'| |].
        { cbn. unfold mk_reg. destruct (N.eqb_spec s 0); [easy|reflexivity]. }
        intros hq Ehq Hhq. apply xwp_bind.
        eapply xwp_mono; [eapply IH with (n := x) (m := m') (R := R') (L := L'); [exact Ehq|exact S'|exact Hhq|exact Htl'|exact Hpx|exact Hf|exact Hrx| | |exact Hpu]| |].
        + congruence.
        + congruence.
        + intros [c'|] h2 HQ; [|easy]. apply xwp_ret. exact HQ.
        + intros h2 Hb. exact Hb.
      - destruct (N.eqb_spec (lenN ini) (lenN ini + 1)); [lia|]. destruct (N.eqb_spec (lenN ini + 1) (lenN ini)); [lia|].
        eapply xwp_hmake_path with (R := own m' c ++ R'); [|exact Htl'| |].
        + eapply st_eqv; [|exact S']. intros y. cbn. rewrite !occ_app. cbn. lia.
        + intros c' h2 S2 M2 Hc2 _. auto.
        + intros h2 _ S2 M2. split; [|now apply mv_all]. eapply st_eqv; [|exact S2]. intros y. cbn. rewrite !occ_app. cbn. lia. }
    set (child := fun mu : bool => (if lenN ini =? ni then
               x <- xm (mlift (rnthN (ca ++ [c]) (lenN ini))) ;;;
               q <- xm (open B BL l (KReg x s)) ;;;
               r <- hpush B BL mu l q tl ts ;;;
               match r with Some c => xret c | None => xm mub end
             else hmake_path l tl) : X body nat) in *.
    match goal with |- xwp t (xbind _ ?k) _ _ _ =>
      assert (RED : forall u Q' E',
        xwp t (if m && u then c0 <- child (m && u) ;;; _ <- xm (put_last a ni c0) ;;; xret (Some a)
             else n0 <- make_inner ;;;
                  _ <- xtry (c0 <- child (m && u) ;;;
                             xm (_ <~ do_copy_inner n0 a ni [c0] ;; mwhen m (hdec B BL (Datatypes.S l) hp)))
                            (delete_inner n0) ;;; xret (Some n0)) h Q' E' -> xwp t (k u) h Q' E') end.
    { intros u Q' E' W. unfold p0, child in *. clear p0 child.
      rewrite <- (index_blank B BL) in Eidx, Eni.
      destruct Ep as [-> | ->]; cbn [blank] in *; rewrite Eland; cbn [negb N.eqb];
        (apply xwp_bind; apply xwp_m; eapply wp_lift; [exact Eidx|]);
        (apply xwp_bind; apply xwp_m; eapply wp_lift; [exact Eni|]); exact W. }
    assert (CP : forall u, m && u = false ->
       xwp t (n0 <- make_inner ;;;
                  _ <- xtry (c0 <- child false ;;;
                             xm (_ <~ do_copy_inner n0 a ni [c0] ;; mwhen m (hdec B BL (Datatypes.S l) hp)))
                            (delete_inner n0) ;;; xret (Some n0)) h Q (back L h (own m a ++ tl :: R))).
    { intros u _. apply xwp_bind. eapply xwp_make_inner; [exact S| |intros _; split; [exact S|apply mv_refl]].
      intros b h1 S1 Hb Hc1 M1. apply xwp_bind. apply xwp_try. apply xwp_bind.
      eapply xwp_mono; [apply (CH false (b :: L) h1 (own m a ++ R))| |].
      - eapply st_eqv; [|exact S1]. intros y. cbn. rewrite !occ_app. cbn. lia.
      - eapply mv_nrep; [exact M1|exact I|exact Hcx].
      - eapply mv_nrep; [exact M1|exact I|exact Htl].
      - intros c' h2 HQ.
        assert (st (b :: L) h2 (c' :: own m a ++ R) /\ mv None (b :: L) (b :: L) (b :: L) h1 h2 /\ nrep (b :: L) h2 c' cn) as (S2 & M2 & Hn2)
          by (destruct (ni =? lenN ini); exact HQ). clear HQ.
        assert (M12 : mv None L L (b :: L) h h2) by (eapply mv_trans; [exact M1|eapply mv_tail; exact M2]).
        destruct (mv_cell _ _ _ _ _ _ _ _ M12 I Hc) as ([rc1 b1 ks1] & Ha1 & Eb1 & Ek1). cbn in Eb1, Ek1. subst b1 ks1.
        change (cell_at (wipe (b :: L) h2) a (icell rc1 None (ca ++ [c]))) in Ha1.
        assert (Hcs2 : Forall2 (nrep (b :: L) h2) (ca ++ [c]) (ini ++ [x])).
        { eapply mv_nreps; [exact M12|intros; exact I|exact Hcs]. }
        apply xwp_m. apply wp_bind.
        eapply wp_do_copy_inner; [exact S2|now left|eapply mv_local; [exact M2|now left|exact Hc1]|exact Ha1
          |eapply nreps_live; exact Hcs2|apply rtakeN_len; lia|].
        intros h3 S3 Hc3 M3'.
        assert (M3 : mv None L (b :: L) (b :: L) h2 h3) by (apply M3'; [exact Hb|intros y Hy; now right]). clear M3'.
        assert (M13 : mv None L L (b :: L) h h3) by (eapply mv_trans; eauto).
        eapply wp_when_dec with (R := (takeN ni (ca ++ [c]) ++ [c']) ++ R) (L := b :: L); [exact Ea| | |exact Hok|].
        + eapply st_eqv; [|exact S3]. intros y. rewrite !occ_app. cbn. rewrite !occ_app. lia.
        + eapply mv_prel; [exact M13|exact Ea|exact I|exact Hp].
        + intros h4 S4 M4. apply xwp_ret. unfold Q. pose proof (mv_keep _ _ _ _ _ _ _ M4) as M4k.
          destruct (pub_inner L h4 R b None (takeN ni (ca ++ [c]) ++ [c']) None (takeN ni (ini ++ [x]) ++ [cn])) as (S5 & M5 & Hn5 & _).
          * exact S4.
          * eapply mv_local; [exact M4|now left|exact Hc3].
          * exact I.
          * eapply mv_nreps; [exact M4k| |].
            -- intros y Hy. apply in_or_app. now left.
            -- eapply mv_nreps; [exact M3|intros; exact I|]. apply Forall2_app; [|constructor; [exact Hn2|constructor]].
               now apply F2_take.
          * split; [exact S5|]. split; [|exact Hn5]. destruct m; cbn [keep] in *.
            -- eapply mv_trans; [apply mv_all; exact M13|]. eapply mv_trans; [|apply mv_all; exact M5].
               eapply mv_tail, mv_sub; [exact M4|]. intros y Hy. apply in_or_app. now right.
            -- eapply mv_trans; [exact M13|]. eapply mv_trans; [eapply mv_tail; exact M4|exact M5].
      - intros h2 (S2 & M2). eapply wp_delete_inner; [exact S2|eapply mv_local; [exact M2|now left|exact Hc1]|].
        intros h3 S3 M3 _. eapply back_eqv; [|split; [exact S3|]].
        + intros y. cbn. rewrite !occ_app. cbn. lia.
        + eapply mv_trans; [apply mv_all; exact M1|]. eapply mv_trans; [eapply mv_tail; exact M2|apply mv_all; exact M3]. }
    apply xwp_bind. apply xwp_m. eapply wv_unique; [exact S|exact Hc| |]; cbn [c_rc icell].
    2:{ intros _. apply RED. rewrite andb_false_r. apply (CP false). apply andb_false_r. }
    intros ->. apply RED. destruct m; [|apply (CP false); reflexivity]. clear CP RED.
    cbn [own app andb keep] in *.
    destruct (take_kid _ _ _ _ _ _ _ _ _ _ _ _ S Hc Elc Hn) as (S1 & Ha & Hc1 & M1 & Hx & Hca1 & _ & _).
    assert (Htl1 : nrep (a :: L) h tl tn).
    { eapply mv_nrep; [exact M1| |exact Htl]. right. apply split_incl. now left. }
    apply xwp_bind. eapply xwp_mono; [apply (CH true (a :: L) h (split_ptrs None ca [] R))| |].
    + cbn [own app]. eapply st_eqv; [|exact S1]. intros y. cbn [occ]. rewrite occ_split_cons. cbn [occ]. reflexivity.
    + exact Hx.
    + exact Htl1.
    + intros c' h1 HQ.
      assert (st (a :: L) h1 (takeN ni (ca ++ [c]) ++ c' :: R) /\ mv (Some (takeN ni (ca ++ [c]) ++ R)) (a :: L) (a :: L) (a :: L) h h1 /\
              nrep (a :: L) h1 c' cn) as (S2 & M2 & Hn2).
      { destruct Hkind as [(-> & _)|(-> & _)].
        - rewrite N.eqb_refl in HQ. destruct HQ as (S2 & M2 & Hn2). cbn [keep] in M2. rewrite <- Elc, takeN_app.
          unfold split_ptrs in *. cbn [ptrs] in *. rewrite app_nil_r in *.
          split; [|split; [exact M2|exact Hn2]]. eapply st_eqv; [|exact S2]. intros y. cbn. rewrite !occ_app. cbn. lia.
        - destruct (N.eqb_spec (lenN ini + 1) (lenN ini)); [lia|]. destruct HQ as (S2 & M2 & Hn2).
          rewrite takeN_all by (rewrite lenN_snoc; lia). split; [|split; [now apply mv_all|exact Hn2]].
          eapply st_eqv; [|exact S2]. intros y. unfold split_ptrs. cbn. rewrite app_nil_r, !occ_app. cbn. lia. }
      clear HQ. apply xwp_bind. apply xwp_m.
      eapply wp_put_last; [exact S2|now left|eapply mv_local; [exact M2|now left|exact Hc1]|apply rtakeN_len; lia|].
      intros h3 (S3 & Hc3 & F3 & M3'). apply xwp_ret. unfold Q.
      assert (M3 : mv None L (a :: L) (a :: L) h1 h3) by (apply M3'; exact Ha).
      assert (Hcs1 : Forall2 (nrep (a :: L) h) (ca ++ [c]) (ini ++ [x])).
      { apply Forall2_app; [exact Hca1|constructor; [exact Hx|constructor]]. }
      destruct (pub_inner L h3 R a None (takeN ni (ca ++ [c]) ++ [c']) None (takeN ni (ini ++ [x]) ++ [cn])) as (S5 & M5 & Hn5 & _).
      * eapply st_eqv; [|exact S3]. intros y. cbn [ptrs]. rewrite <- app_assoc. reflexivity.
      * exact Hc3.
      * exact I.
      * eapply mv_nreps; [exact M3|intros; exact I|]. apply Forall2_app; [|constructor; [exact Hn2|constructor]].
        eapply mv_nreps; [exact M2| |apply F2_take; exact Hcs1]. intros y Hy. apply in_or_app. now left.
      * split; [exact S5|]. split; [|exact Hn5].
        eapply mv_trans; [eapply mv_sub; [exact M1|]; intros y Hy; right; apply split_incl; now right|].
        eapply mv_trans; [eapply mv_tail, mv_sub; [exact M2|]; intros y Hy; apply in_or_app; now right|].
        apply mv_all. eapply mv_trans; [exact M3|exact M5].
    + intros h1 Hb. eapply back_kid; [exact S|exact Hc|exact Elc|exact Hn|]. eapply back_eqv; [|exact Hb].
      intros y. cbn [own app occ]. rewrite occ_split_cons. cbn [occ]. lia.
Qed.
End Push.
