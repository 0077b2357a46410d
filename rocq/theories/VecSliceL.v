(** slice_left_visitor and slice_left_mut_visitor on counted memory. *)
From Coq Require Import List NArith Arith Bool Lia ZifyN ZifyNat ZifyBool.
From Verif Require Import Common NList Rrb RrbInv RrbPos RrbOps RrbSlice RrbViewOk RrbConcat AtomProofs
  RcHeap RcProofs RcExn RcExnProofs RcMove VecHeap VecPlan VecNodes VecMake VecGetMut VecPush VecSliceR.
Import ListNotations.
Local Open Scope N_scope.
Set Default Goal Selector "!".

Section SliceL.
Context {T : Type}.
Variables B BL : N.
Notation body := (vbody T).
Notation heap := (heap body). Notation cell := (cell body).
Notation pos_ok := (@pos_ok T B BL).
Notation wf := (@wf T B BL).
Notation full := (@full T B BL).
Notation span := (span B BL).
Notation lwidth := (lwidth BL).
Implicit Types (h : heap) (L R : list nat).

(** ** The child to go to *)
Lemma htowards_sub_ok l p n cs idx off q idx' : pos_ok (S l) p n -> lenN cs = lenN (kids n) ->
  towards_sub B BL l p idx off = Ok (q, idx') -> (forall x, rnthN (kids n) off = Ok x -> pos_ok l q x) ->
  exists k, htowards_sub B BL l (blank p) cs idx off = Ok (k, idx') /\ picks B BL l cs (kids n) off k q.
Proof.
  intros Hok E H Hq. pose proof (pos_ok_wf _ _ _ _ _ Hok) as Hw.
  pose proof (pos_ok_node _ _ _ _ _ Hok) as Hn.
  destruct (wf_inner _ _ _ _ Hw) as (o & ns & ->). cbn [kids] in *.
  assert (G : forall s, p = PReg (Inner o ns) s \/ p = PSub (Inner o ns) s ->
    exists k, (c <- rnthN cs off ;; lsize <- shl32 off (sh B BL l) ;; s <- this_size B BL l (blank p) ;;
        Ok (if N.shiftl 1 (sh B BL l) <=? s - lsize then KFull c else KSub c (s - lsize), idx - lsize)) = Ok (k, idx') /\
      picks B BL l cs ns off k q).
  { intros s Hp.
    assert (H0 : (c <- rnthN ns off ;; lsize <- shl32 off (sh B BL l) ;; s <- this_size B BL l p ;;
       if N.shiftl 1 (sh B BL l) <=? s - lsize then Ok (PFull c, idx - lsize)
       else q <- mk_sub B BL l c (s - lsize) ;; Ok (q, idx - lsize)) = Ok (q, idx')) by (destruct Hp as [-> | ->]; exact H).
    apply rbind_ok in H0. destruct H0 as (x & Hx & H0). apply rbind_ok in H0. destruct H0 as (ls & Hls & H0).
    apply rbind_ok in H0. destruct H0 as (s' & Hs & H0).
    pose proof (rnthN_lt _ _ _ Hx) as Hlt. destruct (rnthN_len cs off) as [c Hc]; [lia|].
    rewrite Hc, this_size_blank, Hs. cbn [rbind]. rewrite Hls. cbn [rbind]. specialize (Hq _ Hx).
    destruct (N.shiftl 1 (sh B BL l) <=? s' - ls).
    - injection H0 as <- <-. eexists. split; [reflexivity|]. eapply pick; [exact E|exact Hc|exact Hx|reflexivity|reflexivity|exact Hq].
    - apply rbind_ok in H0. destruct H0 as (q' & Hq' & H0). injection H0 as <- <-. eexists. split; [reflexivity|].
      eapply pick; [exact E|exact Hc|exact Hx|reflexivity|exact Hq'|exact Hq]. }
  destruct p as [m|m s|m s|m sz|m s|]; cbn [pnode] in Hn; try discriminate; injection Hn as ->; cbn [blank htowards_sub] in *;
    try (eapply G; eauto; fail).
  - cbn [towards_sub] in H. cbn [inner_of rbind] in H. apply rbind_ok in H. destruct H as (x & Hx & H). injection H as <- <-.
    pose proof (rnthN_lt _ _ _ Hx) as Hlt. destruct (rnthN_len cs off) as [c Hc]; [lia|]. rewrite Hc. cbn [rbind].
    eexists. split; [reflexivity|]. eapply pick; [exact E|exact Hc|exact Hx|reflexivity|reflexivity|now apply Hq].
  - exact (htowards_ok B BL l (PRel (Inner o ns) sz) (Inner o ns) cs idx off q idx' Hok E H).
Qed.

(** ** A table belongs to its level *)
Lemma tag_below l : forall x L h c y rc tv sz ks, wf l x -> nrep L h c x -> reaches (wipe L h) c y ->
  cell_at (wipe L h) y (mkCell rc (VTable tv sz) ks) -> (tv <= l)%nat.
Proof.
  induction l as [|l IH]; intros x L h c y rc tv sz ks Hw Hn Hr Hy.
  - destruct (wf_leaf _ _ _ Hw) as (xs & -> & _). destruct (nrep_leaf_inv _ _ _ _ Hn) as [rc' Hc].
    destruct (reaches_head _ _ _ Hr) as [->|(d & k & Hd & Hk & _)].
    + pose proof (cell_fun _ _ _ _ Hc Hy). discriminate.
    + pose proof (cell_fun _ _ _ _ Hc Hd). subst d. easy.
  - destruct (wf_inner _ _ _ _ Hw) as (o & ns & ->). pose proof (wf_kids _ _ _ _ Hw) as Hf. cbn [kids] in Hf.
    destruct (nrep_inner_inv _ _ _ _ _ Hn) as (rc' & r & cs & Hc & Ho & Hk).
    destruct (reaches_head _ _ _ Hr) as [->|(d & k & Hd & Hki & Hr')].
    + pose proof (cell_fun _ _ _ _ Hc Hy). destruct r; discriminate.
    + pose proof (cell_fun _ _ _ _ Hc Hd). subst d.
      assert (Hkc : r = Some k \/ In k cs) by (destruct r as [rr|]; cbn in Hki; [destruct Hki as [->|]|]; auto).
      destruct Hkc as [-> | Hkc].
      * destruct o as [sz'|]; [|easy]. cbn [orep] in Ho. rewrite (lv1_wf B BL _ _ _ Hw) in Ho.
        destruct (trep_inv _ _ _ _ _ Ho) as [rc2 Hk2].
        destruct (reaches_head _ _ _ Hr') as [->|(d & k' & Hd' & Hki' & _)].
        -- pose proof (cell_fun _ _ _ _ Hk2 Hy) as E. injection E as _ <- _ _. lia.
        -- pose proof (cell_fun _ _ _ _ Hk2 Hd'). subst d. easy.
      * assert (Hx : exists x, In x ns /\ nrep L h k x).
        { clear - Hk Hkc. induction Hk as [|c0 x0 cs ns H0 _ IH]; [easy|]. destruct Hkc as [->|Hkc].
          - exists x0. split; [now left|exact H0].
          - destruct (IH Hkc) as (x & Hx & H). exists x. split; [now right|exact H]. }
        destruct Hx as (x & Hx & Hnx). rewrite Forall_forall in Hf.
        specialize (IH x L h k y rc tv sz ks (Hf _ Hx) Hnx Hr' Hy). lia.
Qed.
(** So a table made for the level above is reached from elsewhere. *)
Lemma table_out l L h cs ns R y rc sz ks : st L h (cs ++ R) -> Forall2 (nrep L h) cs ns -> Forall (wf l) ns ->
  cell_at (wipe L h) y (mkCell rc (VTable (S l) sz) ks) -> rch L h R y.
Proof.
  intros (G & _) Hk Hf Hy. destruct (good_reach _ _ G _ _ Hy) as (r & Hr & Hry). apply in_app_or in Hr.
  destruct Hr as [Hr|Hr]; [|exists r; auto]. exfalso.
  induction Hk as [|c x cs ns H0 Hk IH]; [easy|]. inversion Hf as [|? ? Hx Hf']; subst.
  destruct Hr as [->|Hr]; [|].
  - pose proof (tag_below _ _ _ _ _ _ _ _ _ _ Hx H0 Hry Hy). lia.
  - clear IH. rewrite Forall_forall in Hf'.
    assert (Hx2 : exists x2, In x2 ns /\ nrep L h r x2).
    { clear - Hk Hr. induction Hk as [|c0 x0 cs ns H0 _ IH]; [easy|]. destruct Hr as [->|Hr].
      - exists x0. split; [now left|exact H0].
      - destruct (IH Hr) as (x & Hx & H). exists x. split; [now right|exact H]. }
    destruct Hx2 as (x2 & Hi & Hn2). pose proof (tag_below _ _ _ _ _ _ _ _ _ _ (Hf' _ Hi) Hn2 Hry Hy). lia.
Qed.

(** ** dec_left *)
Lemma heach_left_taken l p o na x nb ca c cb : pos_ok (S l) p (Inner o (na ++ x :: nb)) -> lenN ca = lenN na ->
  lenN (ca ++ c :: cb) = lenN (na ++ x :: nb) ->
  exists ks, heach_left B BL l (blank p) (ca ++ c :: cb) (lenN na) = Ok ks /\ map kaddr ks = ca /\ Forall2 (kok B BL l) ks na.
Proof.
  intros Hok El Elen. destruct (heach_left_ok B BL l p _ (ca ++ c :: cb) na x nb Hok Elen eq_refl) as (ks & H1 & H2 & H3).
  exists ks. split; [exact H1|]. split; [|exact H3]. rewrite H2, <- El. apply takeN_app.
Qed.
Lemma wp_dec_left_taken L0 h0 l hp p o na x nb a r ca c cb L h R (Q : unit -> heap -> Prop) :
  haddr hp = Ok a -> prel L0 h0 hp p -> pos_ok (S l) p (Inner o (na ++ x :: nb)) ->
  (forall b rr, hp = HRel b rr -> r = Some rr) -> (forall rr, r = Some rr -> hp = HRel a rr) ->
  lenN ca = lenN na -> lenN cb = lenN nb -> st (a :: L) h (ptrs r ca ++ R) ->
  cell_at h a (icell 1 r (ca ++ c :: cb)) ->
  orep (a :: L) h r (lv1 (na ++ x :: nb)) o -> Forall2 (nrep (a :: L) h) ca na ->
  (forall h', st L h' R -> mv (Some R) L (a :: L) L h h' -> Q tt h') ->
  wp (dec_left B BL l hp (lenN na)) h Q.
Proof.
  intros Ea Hp Hok Hhr Hrh Ela Elb S Hc Ho Hca K.
  unfold dec_left. apply wp_bind. eapply wp_lift; [exact Ea|]. apply wp_bind.
  eapply wp_dec_local; [exact S|exact Hc|reflexivity|]. intros h1 (S1 & Hc1 & F1 & M1).
  assert (Hna : ~ In a L). { destruct S as (_ & _ & ND). now inversion ND. }
  specialize (M1 L Hna).
  assert (Ho1 : orep (a :: L) h1 r (lv1 (na ++ x :: nb)) o).
  { eapply mv_orep; [exact M1|intros; exact I|exact Ho]. }
  assert (Hca1 : Forall2 (nrep (a :: L) h1) ca na) by (eapply mv_nreps; [exact M1|intros; exact I|exact Hca]).
  cbn match. apply wp_bind. eapply wp_view_old; [exact Hp| |].
  { intros b rr n sz Eh Ep. specialize (Hhr _ _ Eh). subst r. destruct o as [sz'|]; [|easy]. cbn in Ho1.
    destruct (trep_inv _ _ _ _ _ Ho1) as [rc Hr]. exists rc. eexists.
    subst p. inversion Hok; subst. exact (at_wipe _ _ _ _ Hr). }
  apply wp_bind. eapply wp_load_inner; [exact Hc1|].
  destruct (heach_left_taken l p o na x nb ca c cb Hok Ela) as (ks & Hks & Ek & Hkk).
  { rewrite !lenN_app, !lenN_cons. lia. }
  apply wp_bind. eapply wp_lift; [exact Hks|]. apply wp_bind.
  eapply wp_hdecs with (L := a :: L) (R := ptrs r [] ++ R); [exact Hkk|rewrite Ek; exact Hca1| |].
  { rewrite Ek. eapply st_eqv; [|exact S1]. intros y. destruct r; cbn; rewrite !occ_app; cbn; lia. }
  intros h2 (S2 & M2 & _).
  assert (Hc2 : cell_at h2 a (icell 0 r (ca ++ c :: cb))) by (eapply mv_local; [exact M2|now left|exact Hc1]).
  assert (M12 : mv (Some (ptrs r [] ++ R)) L (a :: L) (a :: L) h h2).
  { eapply mv_trans; [apply mv_all; exact M1|eapply mv_tail; exact M2]. }
  destruct r as [rr|]; cbn [ptrs app] in *.
  - rewrite (Hrh rr eq_refl). destruct o as [sz|]; [|easy]. cbn in Ho1.
    eapply wp_delete_inner_r; [exact S2|exact Hc2|eapply mv_trep; [exact M2|now left|exact Ho1]|].
    intros h3 S3 M3 _. apply K; [exact S3|]. eapply mv_trans; [|exact M3].
    eapply mv_sub; [exact M12|]. intros y Hy. now right.
  - assert (W : wp (delete_inner a) h2 Q).
    { eapply wp_delete_inner; [exact S2|exact Hc2|]. intros h3 S3 M3 _. apply K; [exact S3|].
      eapply mv_trans; [exact M12|now apply mv_all]. }
    destruct hp; try exact W. specialize (Hhr _ _ eq_refl). discriminate.
Qed.

(** ** Filling in the node *)
Lemma wp_left_copy l m L h R hp p a o na x nb b d rc r ca c cb c' cn k s0 szs :
  haddr hp = Ok a -> prel (d :: b :: L) h hp p -> pos_ok (S l) p (Inner o (na ++ x :: nb)) ->
  lenN ca = lenN na -> lenN cb = lenN nb -> st (d :: b :: L) h (c' :: own m a ++ R) ->
  cell_at (wipe (d :: b :: L) h) a (icell rc r (ca ++ c :: cb)) ->
  cell_at h b (icell 1 (Some d) []) -> cell_at h d (mkCell 1 (VTable (S l) []) []) ->
  Forall2 (nrep (d :: b :: L) h) cb nb -> nrep (d :: b :: L) h c' cn -> lvl cn = l ->
  k = lenN (na ++ x :: nb) -> copy_sizes B BL (S l) p (lenN na + 1) (k - lenN na - 1) s0 = Ok szs ->
  wp (p' <~ view hp ;;
      sz' <~ mlift (copy_sizes B BL (S l) p' (lenN na + 1) (k - lenN na - 1) s0) ;;
      cs' <~ mlift (rsliceN (lenN na + 1) k (ca ++ c :: cb)) ;;
      ' (r, _) <~ load_inner b ;;
      _ <~ match r with
           | Some r => put_table r (s0 :: sz')
           | None => mub
           end ;;
      _ <~ put_inner b r (c' :: cs') ;;
      _ <~ each_of inc cs' ;; mwhen m (hdec B BL (S l) hp)) h
    (fun _ h' => st L h' (b :: R) /\ mv (keep m R) L (d :: b :: L) L h h' /\
       nrep L h' b (Inner (Some (s0 :: szs)) (cn :: nb))).
Proof.
  intros Ea Hp Hok Ela Elb S Ha Hb Hd Hcb Hc' Hl -> Hsz.
  assert (HND : d <> b /\ ~ In d L /\ ~ In b L).
  { destruct S as (_ & _ & ND). inversion ND as [|? ? Hn1 ND1]; subst. inversion ND1; subst.
    split; [intros ->; apply Hn1; now left|]. split; [intros H; apply Hn1; now right|assumption]. }
  destruct HND as (Hdb & HdL & HbL).
  apply wp_bind. eapply wp_view; [exact Hp|]. apply wp_bind. eapply wp_lift; [rewrite copy_sizes_blank; exact Hsz|].
  apply wp_bind. eapply wp_lift.
  { replace (lenN na + 1) with (lenN (ca ++ [c])) by (rewrite lenN_snoc; lia).
    replace (ca ++ c :: cb) with ((ca ++ [c]) ++ cb ++ []) by (rewrite app_nil_r, <- app_assoc; reflexivity).
    apply rsliceN_app; [reflexivity|]. rewrite lenN_snoc, lenN_app, lenN_cons. lia. }
  apply wp_bind. eapply wp_load_inner; [exact Hb|]. apply wp_bind.
  eapply wp_put_table; [exact S|now left|exact Hd|]. intros h1 (S1 & Hd1 & F1 & M1). apply wp_bind.
  eapply wp_put_inner; [exact S1|right; now left|unfold cell_at; rewrite F1 by auto; exact Hb|].
  intros h2 (S2 & Hb2 & F2 & M2). apply wp_bind.
  assert (M12 : mv None L (d :: b :: L) (d :: b :: L) h h2).
  { eapply mv_trans; [apply M1; exact HdL|apply M2; exact HbL]. }
  assert (Hcb2 : Forall2 (nrep (d :: b :: L) h2) cb nb) by (eapply mv_nreps; [exact M12|intros; exact I|exact Hcb]).
  eapply wv_incs; [exact S2|eapply nreps_live; exact Hcb2|]. intros h3 S3 M3.
  assert (M13 : mv None L (d :: b :: L) (d :: b :: L) h h3).
  { eapply mv_trans; [exact M12|eapply mv_tail, mv_tail; exact M3]. }
  eapply wp_when_dec with (R := (c' :: cb) ++ R) (L := d :: b :: L); [exact Ea| | |exact Hok|].
  - eapply st_eqv; [|exact S3]. intros y. cbn [app occ]. rewrite ?occ_app. cbn [occ]. rewrite ?occ_app. lia.
  - eapply mv_prel; [exact M13|exact Ea|exact I|exact Hp].
  - intros h4 S4 M4.
    destruct (pub_rel L h4 R b d (c' :: cb) (Datatypes.S l) (s0 :: szs) (cn :: nb)) as (S5 & M5 & Hn5).
    + exact S4.
    + eapply mv_local; [exact M4|right; now left|]. eapply mv_local; [exact M3|right; now left|exact Hb2].
    + eapply mv_local; [exact M4|now left|]. eapply mv_local; [exact M3|now left|].
      unfold cell_at. rewrite F2 by auto. exact Hd1.
    + unfold lv1. now rewrite Hl.
    + pose proof (mv_keep _ _ _ _ _ _ _ M4) as M4'. eapply mv_nreps; [exact M4'| |].
      * intros y Hy. apply in_or_app. now left.
      * eapply mv_nreps; [exact M13|intros; exact I|]. constructor; assumption.
    + split; [exact S5|]. split; [|exact Hn5]. destruct m; cbn [keep] in *.
      * eapply mv_trans; [apply mv_all; exact M13|]. eapply mv_trans; [|apply mv_all; exact M5].
        eapply mv_tail, mv_tail, mv_sub; [exact M4|]. intros y Hy. apply in_or_app. now right.
      * eapply mv_trans; [exact M13|]. eapply mv_trans; [|exact M5]. eapply mv_tail, mv_tail; exact M4.
Qed.
Lemma wp_left_mut L0 h0 l hp p o na x nb a d szd ca c cb c' cn k s0 szs L h R :
  haddr hp = Ok a -> prel L0 h0 hp p -> pos_ok (S l) p (Inner o (na ++ x :: nb)) ->
  lenN ca = lenN na -> lenN cb = lenN nb -> st (d :: a :: L) h (c' :: ca ++ cb ++ R) ->
  cell_at h a (icell 1 (Some d) (ca ++ c :: cb)) -> cell_at h d (mkCell 1 (VTable (S l) szd) []) ->
  Forall2 (nrep (d :: a :: L) h) ca na -> Forall2 (nrep (d :: a :: L) h) cb nb -> nrep (d :: a :: L) h c' cn -> lvl cn = l ->
  (forall b r n sz, hp = HRel b r -> p = PRel n sz -> (r = d /\ szd = sz) \/
     exists rc v, cell_at (wipe (d :: a :: L) h) r (mkCell rc (VTable v sz) []) /\ rch (d :: a :: L) h R r) ->
  k = lenN (na ++ x :: nb) -> copy_sizes B BL (S l) p (lenN na + 1) (k - lenN na - 1) s0 = Ok szs ->
  wp (_ <~ mwhen true (p' <~ view hp ;;
                       ks <~ mlift (heach_left B BL l p' (ca ++ c :: cb) (lenN na)) ;;
                       hdecs B BL l ks) ;;
      p' <~ view hp ;;
      sz' <~ mlift (copy_sizes B BL (S l) p' (lenN na + 1) (k - lenN na - 1) s0) ;;
      cs' <~ mlift (rsliceN (lenN na + 1) k (ca ++ c :: cb)) ;;
      ' (r, _) <~ load_inner a ;;
      _ <~ match r with
           | Some r => put_table r (s0 :: sz')
           | None => mub
           end ;;
      _ <~ put_inner a r (c' :: cs') ;;
      mret tt) h
    (fun _ h' => st L h' (a :: R) /\ mv (Some R) L (d :: a :: L) L h h' /\
       nrep L h' a (Inner (Some (s0 :: szs)) (cn :: nb))).
Proof.
  intros Ea Hp Hok Ela Elb S Ha Hd Hca Hcb Hc' Hl Htab -> Hsz.
  assert (HND : d <> a /\ ~ In d L /\ ~ In a L).
  { destruct S as (_ & _ & ND). inversion ND as [|? ? Hn1 ND1]; subst. inversion ND1; subst.
    split; [intros ->; apply Hn1; now left|]. split; [intros H; apply Hn1; now right|assumption]. }
  destruct HND as (Hda & HdL & HaL).
  destruct (heach_left_taken l p o na x nb ca c cb Hok Ela) as (ks & Hks & Ek & Hkk).
  { rewrite !lenN_app, !lenN_cons. lia. }
  apply wp_bind. cbn [mwhen]. apply wp_bind. eapply wp_view_old; [exact Hp| |].
  { intros b r n sz Eh Ep. destruct (Htab _ _ _ _ Eh Ep) as [(-> & <-)|(rc & v & Hr & _)]; [eauto|].
    exists rc, v. exact (at_wipe _ _ _ _ Hr). }
  apply wp_bind. eapply wp_lift; [exact Hks|].
  eapply wp_hdecs with (L := d :: a :: L) (R := c' :: cb ++ R); [exact Hkk|rewrite Ek; exact Hca| |].
  { rewrite Ek. eapply st_eqv; [|exact S]. intros y. cbn. rewrite !occ_app. cbn. rewrite ?occ_app. lia. }
  intros h1 (S1 & M1 & _). apply wp_bind.
  assert (Ha1 : cell_at h1 a (icell 1 (Some d) (ca ++ c :: cb))) by (eapply mv_local; [exact M1|right; now left|exact Ha]).
  assert (Hd1 : cell_at h1 d (mkCell 1 (VTable (Datatypes.S l) szd) [])) by (eapply mv_local; [exact M1|now left|exact Hd]).
  eapply wp_view_old; [exact Hp| |].
  { intros b r n sz Eh Ep. destruct (Htab _ _ _ _ Eh Ep) as [(-> & <-)|(rc & v & Hr & Hrr)]; [eauto|].
    pose proof M1 as (_ & P & _). assert (Hrr' : within (Some (c' :: cb ++ R)) (d :: a :: L) h r).
    { destruct Hrr as (y & Hy & Hyr). exists y. split; [|exact Hyr]. right. apply in_or_app. now right. }
    destruct (P r _ Hrr' Hr) as ([rc2 b2 k2] & Hr2 & Eb & Ek2).
    cbn in Eb, Ek2. subst b2 k2. exists rc2, v. exact (at_wipe _ _ _ _ Hr2). }
  apply wp_bind. eapply wp_lift; [rewrite copy_sizes_blank; exact Hsz|].
  apply wp_bind. eapply wp_lift.
  { replace (lenN na + 1) with (lenN (ca ++ [c])) by (rewrite lenN_snoc; lia).
    replace (ca ++ c :: cb) with ((ca ++ [c]) ++ cb ++ []) by (rewrite app_nil_r, <- app_assoc; reflexivity).
    apply rsliceN_app; [reflexivity|]. rewrite lenN_snoc, lenN_app, lenN_cons. lia. }
  apply wp_bind. eapply wp_load_inner; [exact Ha1|]. apply wp_bind.
  eapply wp_put_table; [exact S1|now left|exact Hd1|]. intros h2 (S2 & Hd2 & F2 & M2). apply wp_bind.
  eapply wp_put_inner; [exact S2|right; now left|unfold cell_at; rewrite F2 by auto; exact Ha1|].
  intros h3 (S3 & Ha3 & F3 & M3). apply wp_ret.
  assert (M13 : mv (Some (c' :: cb ++ R)) L (d :: a :: L) (d :: a :: L) h h3).
  { eapply mv_trans; [eapply mv_tail, mv_tail; exact M1|]. apply mv_all.
    eapply mv_trans; [apply M2; exact HdL|apply M3; exact HaL]. }
  destruct (pub_rel L h3 R a d (c' :: cb) (Datatypes.S l) (s0 :: szs) (cn :: nb)) as (S5 & M5 & Hn5).
  - exact S3.
  - exact Ha3.
  - unfold cell_at. rewrite F3 by auto. exact Hd2.
  - unfold lv1. now rewrite Hl.
  - eapply mv_nreps; [exact M13| |].
    + intros y [->|Hy]; [now left|]. right. apply in_or_app. now left.
    + constructor; assumption.
  - split; [exact S5|]. split; [|exact Hn5]. eapply mv_trans; [|apply mv_all; exact M5].
    eapply mv_sub; [exact M13|]. intros y Hy. right. apply in_or_app. now right.
Qed.

Variable t : bool.
Variable nm : bool.
Definition lpost m R L h w (r : node T) (q : nat * nat) h' : Prop :=
  fst q = w /\ st L h' (snd q :: R) /\ mv (keep m R) L L L h h' /\ nrep L h' (snd q) r.
Definition lback m a n R L h h' : Prop :=
  st L h' (own m a ++ R) /\ mv (Some R) L L L h h' /\ (m = true -> nrep L h' a n).
(** An exception in the copying version. *)
Lemma lback_copy m a n x c R L h h1 : lback false c x (own m a ++ R) L h h1 -> (m = true -> nrep L h a n) -> lback m a n R L h h1.
Proof.
  intros (S & M & _) Hn. split; [exact S|]. split.
  - eapply mv_sub; [exact M|]. intros y Hy. apply in_or_app. now right.
  - intros E. eapply mv_nrep; [exact M| |now apply Hn]. subst m. now left.
Qed.

Theorem hslice_left_ok : forall v col m hp p n a first w r L h R,
  haddr hp = Ok a -> st L h (own m a ++ R) -> prel L h hp p -> pos_ok v p n -> is_sub p = true -> first < nsize n ->
  sh B BL (pred v) < 32 -> nsize n <= 2 ^ 32 -> slice_left B BL col v p first = Ok (w, r) ->
  xwp t (hslice_left B BL nm col m v hp first) h (lpost m R L h w r) (lback m a n R L h).
Proof.
  induction v as [|l IH]; intros col m hp p n a first w r L h R Ea S Hp Hok Hs Hi Hsh H32 Hu.
  - (* leaf *)
    pose proof (addr_refl _ _ _ _ _ _ Hok Hi) as Had.
    destruct (leaf_index _ _ _ _ _ _ Hok Had Hi) as (xs & -> & Hidx & Hlt).
    cbn [VecHeap.hslice_left slice_left] in *.
    pose proof (prel_nrep _ _ _ _ _ _ Hp Ea (pos_ok_node _ _ _ _ _ Hok)) as Hn.
    destruct (nrep_leaf_inv _ _ _ _ Hn) as [rc Hc].
    rewrite (pos_ok_node _ _ _ _ _ Hok), (count_ok _ _ _ _ _ Hok), Hidx in Hu. cbn [rbind ncount] in Hu.
    unfold copy_leaf_range in Hu. cbn [leaf_of rbind] in Hu. apply rbind_ok in Hu. destruct Hu as (tn & Htn & Hu).
    apply rbind_ok in Htn. destruct Htn as (ys & Hys & Htn). injection Htn as <-. injection Hu as <- <-.
    apply xwp_bind. apply xwp_m. eapply wp_lift; [exact Ea|]. apply xwp_bind. apply xwp_m. eapply wp_view; [exact Hp|].
    match goal with |- xwp t (xbind _ ?k) _ _ _ =>
      assert (CP : forall u, m && u && nm = false -> xwp t (k u) h (lpost m R L h O (Leaf ys)) (lback m a (Leaf xs) R L h)) end.
    { intros u Hcase. apply xwp_bind. apply xwp_m. eapply wp_lift; [rewrite count_blank; apply (count_ok _ _ _ _ _ Hok)|].
      apply xwp_bind. apply xwp_m. eapply wp_lift; [rewrite index_blank; exact Hidx|]. cbn [ncount]. rewrite Hcase.
      apply xwp_bind. eapply xwp_copy_range; [exact S|exact Hn|exact Hys| |].
      - intros b h1 S1 Hb Hb1 M1. apply xwp_bind. apply xwp_m.
        destruct (pub_leaf _ _ _ _ _ S1 Hb1) as (S2 & M2 & Hn2).
        assert (M12 : mv None L L L h h1) by (eapply mv_trans; eauto).
        eapply wp_when_dec with (R := b :: R) (L := L); [exact Ea| |eapply mv_prel; [exact M12|exact Ea|exact I|exact Hp]|exact Hok|].
        + eapply st_eqv; [|exact S2]. intros y. cbn. rewrite ?occ_app. cbn. lia.
        + intros h3 S3 M3. apply xwp_ret. split; [reflexivity|]. split; [exact S3|]. split.
          * destruct m; cbn [keep] in *.
            -- eapply mv_trans; [apply mv_all; exact M12|]. eapply mv_sub; [exact M3|]. intros y Hy. now right.
            -- eapply mv_trans; [exact M12|exact M3].
          * eapply mv_nrep; [exact (mv_keep _ _ _ _ _ _ _ M3)|now left|exact Hn2].
      - intros h1 _ S1 M1. split; [exact S1|]. split; [now apply mv_all|]. intros _. eapply mv_nrep; [exact M1|exact I|exact Hn]. }
    apply xwp_bind. apply xwp_m. eapply wv_unique; [exact S|exact Hc| |]; cbn [c_rc].
    2:{ intros _. apply CP. now rewrite andb_false_r. }
    intros ->. assert (Hb : m = true /\ nm = true \/ m && true && nm = false) by (clear; destruct m, nm; auto).
    destruct Hb as [[-> Enm]|Hb]; [|exact (CP true Hb)]. clear CP.
    apply xwp_bind. apply xwp_m. eapply wp_lift; [rewrite count_blank; apply (count_ok _ _ _ _ _ Hok)|].
    apply xwp_bind. apply xwp_m. eapply wp_lift; [rewrite index_blank; exact Hidx|]. rewrite Enm. cbn [ncount andb own app keep] in *.
    destruct (sv_take _ _ _ _ _ S Hc eq_refl) as (S1 & Ha & Hc1 & M1). cbn [c_kids app] in S1, M1.
    apply xwp_m. apply wp_bind. eapply wp_load_leaf; [exact Hc1|].
    rewrite N.eqb_refl. apply wp_bind. eapply wp_lift; [exact Hys|]. apply wp_bind.
    eapply wp_put_leaf; [exact S1|now left|exact Hc1|]. intros h2 (S2 & Hc2 & F2 & M2). apply wp_ret.
    destruct (pub_leaf _ _ _ _ _ S2 Hc2) as (S3 & M3 & Hn3).
    split; [reflexivity|]. split; [exact S3|]. split; [|exact Hn3].
    eapply mv_trans; [exact M1|]. apply mv_all. eapply mv_trans; [apply M2; exact Ha|exact M3].
  - (* inner *)
    cbn [VecHeap.hslice_left slice_left] in *.
    pose proof (pos_ok_wf _ _ _ _ _ Hok) as Hw.
    destruct (prel_cases _ _ _ _ _ _ _ _ _ Hp Ea Hok) as (rc & r0 & cs & o & ns & -> & Hc & Ho & Hcs & El & Hcase).
    pose proof (prel_nrep _ _ _ _ _ _ Hp Ea (pos_ok_node _ _ _ _ _ Hok)) as Hn.
    pose proof Hi as Hi'. rewrite nsize_inner in Hi'. fold (csize ns) in Hi'.
    destruct (find_child ns first Hi') as (na & x & nb & j & -> & Ei & Hj). subst first.
    assert (kids (Inner o (na ++ x :: nb)) = na ++ x :: nb) as Ek by reflexivity.
    pose proof (wf_kids _ _ _ _ Hw) as Hk. rewrite Ek in Hk.
    pose proof Hk as Hk'. apply Forall_app in Hk' as [Hka Hkc]. inversion Hkc as [|? ? Hwx Hkb]; subst x0 l0.
    assert (Hx32 : nsize x <= 2 ^ 32).
    { rewrite nsize_inner in H32. fold (csize (na ++ x :: nb)) in H32. rewrite csize_app, csize_cons in H32.
      clear - H32. lia. }
    assert (sh B BL (pred l) < 32) as Hsh' by (unfold Rrb.sh in *; cbn [pred] in Hsh; lia).
    destruct (towards_sub_ok B BL l p _ na x nb j Hok Hs Ek Hj Hsh H32) as (q & Et & Hq & Hsq).
    rewrite (subindex_ok B BL _ _ _ _ _ _ _ Hok Hs Ek Hj), (count_ok _ _ _ _ _ Hok) in Hu. cbn [rbind ncount] in Hu.
    rewrite (size_before_ok B BL _ _ _ _ _ _ Hok Hs Ek) in Hu. cbn [rbind] in Hu.
    rewrite (size_sbh_ok B BL _ _ _ _ _ _ Hok Hs Ek) in Hu. cbn [rbind] in Hu. rewrite Et in Hu. cbn [rbind] in Hu.
    destruct (htowards_sub_ok l p _ cs (csize na + j) (lenN na) q j Hok El Et) as (kd & Hkd & Hpick).
    { intros x' Hx'. rewrite Ek, rnthN_app in Hx' by reflexivity. injection Hx' as <-. exact Hq. }
    destruct Hpick as (ca & c & cb & na' & x' & nb' & -> & En & Eca & Ena & Eaddr & Ekp & _).
    cbn [kids] in En. apply app_same in En; [|now symmetry]. destruct En as (<- & <- & <-).
    assert (Ecb : lenN cb = lenN nb) by (rewrite !lenN_app, !lenN_cons in El; lia).
    assert (Hhr : forall b rr, hp = HRel b rr -> r0 = Some rr).
    { intros b rr ->. destruct Hcase as [(r1 & sz & -> & _ & E & _)|(_ & _ & Hh & _)]; [congruence|].
      specialize (Hh _ (fun _ => true) false). discriminate. }
    assert (Hrh : forall rr, r0 = Some rr -> hp = HRel a rr).
    { intros rr ->. destruct Hcase as [(r1 & sz & E & _ & -> & _)|(E & _)]; [congruence|discriminate]. }
    assert (Ein : pinner p = Ok (na ++ x :: nb)) by (unfold pinner; rewrite (pos_ok_node _ _ _ _ _ Hok); reflexivity).
    destruct (F2_mid _ _ _ _ _ _ _ Eca Hcs) as (Hca & Hcx & Hcb).
    set (s0 := nsize x - (csize na + j - csize na)) in *.
    set (k := lenN (na ++ x :: nb)) in *.
    set (cond := col && match l with O => false | _ => true end && (lenN na + 1 =? k)) in *.
    assert (HV : if cond then slice_left B BL true l q j = Ok (w, r)
                 else exists cn szs, slice_left B BL false l q j = Ok (l, cn) /\ lvl cn = l /\
                   copy_sizes B BL (Datatypes.S l) p (lenN na + 1) (k - lenN na - 1) s0 = Ok szs /\
                   w = Datatypes.S l /\ r = Inner (Some (s0 :: szs)) (cn :: nb)).
    { destruct cond; [exact Hu|].
      destruct (slice_left_ok B BL false l q x j Hq Hsq Hj Hsh' Hx32) as (w1 & cn & E & Hwr & _ & _ & Hwe & _).
      rewrite (Hwe eq_refl) in *. rewrite E in Hu. cbn [rbind] in Hu. rewrite Ein in Hu. cbn [rbind] in Hu.
      apply rbind_ok in Hu. destruct Hu as (szs & Hszs & Hu). apply rbind_ok in Hu. destruct Hu as (cs' & Hcs' & Hu).
      replace (lenN na + 1) with (lenN (na ++ [x])) in Hcs' by apply lenN_snoc.
      replace (na ++ x :: nb) with ((na ++ [x]) ++ nb ++ []) in Hcs' by (rewrite app_nil_r, <- app_assoc; reflexivity).
      rewrite rsliceN_app in Hcs'; [|reflexivity|unfold k; rewrite lenN_snoc, lenN_app, lenN_cons; lia].
      injection Hcs' as <-. injection Hu as <- <-. exists cn, szs. split; [exact E|].
      split; [exact (wf_lvl B BL _ _ Hwr)|]. auto. }
    clear Hu.
    apply xwp_bind. apply xwp_m. eapply wp_lift; [exact Ea|]. apply xwp_bind. apply xwp_m. eapply wp_view; [exact Hp|].
    match goal with |- xwp t (xbind _ ?k) _ _ _ =>
      assert (CP : forall u, m && u = false -> xwp t (k u) h (lpost m R L h w r) (lback m a (Inner o (na ++ x :: nb)) R L h)) end.
    { intros u Hmu. apply xwp_bind. apply xwp_m. eapply wp_lift; [rewrite count_blank; apply (count_ok _ _ _ _ _ Hok)|].
      apply xwp_bind. apply xwp_m. eapply wp_lift; [rewrite subindex_blank; apply (subindex_ok B BL _ _ _ _ _ _ _ Hok Hs Ek Hj)|].
      apply xwp_bind. apply xwp_m. eapply wp_lift; [rewrite size_before_blank; apply (size_before_ok B BL _ _ _ _ _ _ Hok Hs Ek)|].
      apply xwp_bind. apply xwp_m. eapply wp_lift; [rewrite size_sbh_blank; apply (size_sbh_ok B BL _ _ _ _ _ _ Hok Hs Ek)|].
      apply xwp_bind. apply xwp_m. eapply wp_load_inner; [apply (at_wipe _ _ _ _ Hc)|].
      apply xwp_bind. apply xwp_m. eapply wp_lift; [exact Hkd|]. cbn [ncount]. fold k. fold s0. fold cond. rewrite Hmu.
      destruct cond eqn:Econd.
      - apply xwp_bind. apply xwp_m. eapply wp_open with (k := kd); [rewrite Eaddr; exact Hcx|exact Ekp|]. intros hq Ehq Hhq.
        apply xwp_bind. eapply xwp_mono; [eapply IH with (m := false) (R := own m a ++ R) (n := x);
          [exact Ehq|exact S|exact Hhq|exact Hq|exact Hsq|exact Hj|exact Hsh'|exact Hx32|exact HV]| |].
        + intros [w1 b1] h1 (E1 & S1 & M1 & Hn1). cbn [fst snd keep] in *. subst w1. apply xwp_bind. apply xwp_m.
          eapply wp_when_dec with (R := b1 :: R) (L := L); [exact Ea| |eapply mv_prel; [exact M1|exact Ea|exact I|exact Hp]|exact Hok|].
          * eapply st_eqv; [|exact S1]. intros y. cbn. rewrite ?occ_app. cbn. lia.
          * intros h3 S3 M3. apply xwp_ret. split; [reflexivity|]. split; [exact S3|]. split.
            -- destruct m; cbn [keep] in *.
               ++ eapply mv_trans; [apply mv_all; exact M1|]. eapply mv_sub; [exact M3|]. intros y Hy. now right.
               ++ eapply mv_trans; [exact M1|exact M3].
            -- eapply mv_nrep; [exact (mv_keep _ _ _ _ _ _ _ M3)|now left|exact Hn1].
        + intros h1 Hb. eapply lback_copy; [exact Hb|auto].
      - destruct HV as (cn & szs & EV & Hlv & Hsz & -> & ->). apply xwp_bind.
        eapply xwp_make_inner_r; [exact S| |].
        2:{ intros h1 _ S1 M1. split; [exact S1|]. split; [now apply mv_all|]. intros _. eapply mv_nrep; [exact M1|exact I|exact Hn]. }
        intros b d h1 S1 Hb1 Hd1 M1. apply xwp_bind. apply xwp_try. apply xwp_bind. apply xwp_m.
        eapply wp_open with (k := kd); [rewrite Eaddr; eapply mv_nrep; [exact M1|exact I|exact Hcx]|exact Ekp|]. intros hq Ehq Hhq.
        apply xwp_bind. eapply xwp_mono; [eapply IH with (m := false) (R := own m a ++ R) (n := x);
          [exact Ehq|exact S1|exact Hhq|exact Hq|exact Hsq|exact Hj|exact Hsh'|exact Hx32|exact EV]| |].
        + intros [w1 b1] h2 (E1 & S2 & M2 & Hn2). cbn [fst snd keep] in *. apply xwp_m. cbn [mwhen].
          assert (M12 : mv None L L (d :: b :: L) h h2) by (eapply mv_trans; [exact M1|eapply mv_tail, mv_tail; exact M2]).
          destruct (mv_cell _ _ _ _ _ _ _ _ M12 I Hc) as ([rc1 bb1 ks1] & Ha1 & Eb1 & Ek1). cbn in Eb1, Ek1. subst bb1 ks1.
          change (cell_at (wipe (d :: b :: L) h2) a (icell rc1 r0 (ca ++ c :: cb))) in Ha1.
          apply wp_bind. apply wp_ret.
          eapply wp_mono; [eapply wp_left_copy with (o := o) (cn := cn) (nb := nb) (x := x) (na := na) (d := d) (szs := szs) (R := R);
            [exact Ea|eapply mv_prel; [exact M12|exact Ea|exact I|exact Hp]|exact Hok|exact Eca|exact Ecb|exact S2|exact Ha1
            |eapply mv_local; [exact M2|right; now left|exact Hb1]|eapply mv_local; [exact M2|now left|exact Hd1]
            |eapply mv_nreps; [exact M12|intros; exact I|exact Hcb]|exact Hn2|exact Hlv|reflexivity|exact Hsz]|].
          intros [] h3 (S3 & M3 & Hn3). apply xwp_ret. split; [reflexivity|]. split; [exact S3|]. split; [|exact Hn3].
          destruct m; cbn [keep] in *; (eapply mv_trans; [apply mv_all; exact M12|exact M3]).
        + intros h2 (S2 & M2 & _).
          assert (Hd2 : cell_at h2 d (mkCell 1 (VTable (Datatypes.S l) []) [])) by (eapply mv_local; [exact M2|now left|exact Hd1]).
          assert (Hb2 : cell_at h2 b (icell 1 (Some d) [])) by (eapply mv_local; [exact M2|right; now left|exact Hb1]).
          cbn [own app] in S2.
          destruct (sv_put (b :: L) h2 (own m a ++ R) d (mkCell 1 (VTable (Datatypes.S l) []) []) S2 Hd2 eq_refl) as (S3 & M3 & Hd3).
          eapply wp_delete_inner_r; [exact S3|exact Hb2|eapply trep_intro; exact Hd3|]. intros h3 S4 M4 _.
          assert (M : mv (Some (own m a ++ R)) L L L h h3).
          { eapply mv_trans; [apply mv_all; exact M1|]. eapply mv_trans; [eapply mv_tail, mv_tail; exact M2|].
            eapply mv_trans; [apply mv_all; eapply mv_tail; exact M3|exact M4]. }
          split; [exact S4|]. split; [eapply mv_sub; [exact M|]; intros y Hy; apply in_or_app; now right|].
          intros E. eapply mv_nrep; [exact M|subst m; now left|exact Hn]. }
    apply xwp_bind. apply xwp_m. eapply wv_unique; [exact S|exact Hc| |]; cbn [c_rc icell].
    2:{ intros _. apply CP. now rewrite andb_false_r. }
    intros Hrc. replace (c_rc (icell rc r0 (ca ++ c :: cb) : cell)) with rc in Hrc by (destruct r0; reflexivity). subst rc.
    destruct m; [|now apply CP]. clear CP. cbn [own app keep andb] in *.
    apply xwp_bind. apply xwp_m. eapply wp_lift; [rewrite count_blank; apply (count_ok _ _ _ _ _ Hok)|].
    apply xwp_bind. apply xwp_m. eapply wp_lift; [rewrite subindex_blank; apply (subindex_ok B BL _ _ _ _ _ _ _ Hok Hs Ek Hj)|].
    apply xwp_bind. apply xwp_m. eapply wp_lift; [rewrite size_before_blank; apply (size_before_ok B BL _ _ _ _ _ _ Hok Hs Ek)|].
    apply xwp_bind. apply xwp_m. eapply wp_lift; [rewrite size_sbh_blank; apply (size_sbh_ok B BL _ _ _ _ _ _ Hok Hs Ek)|].
    apply xwp_bind. apply xwp_m. eapply wp_load_inner; [apply (at_wipe _ _ _ _ Hc)|].
    apply xwp_bind. apply xwp_m. eapply wp_lift; [exact Hkd|]. cbn [ncount]. fold k. fold s0. fold cond.
    destruct (take_kid _ _ _ _ _ _ _ _ _ _ _ _ S Hc Eca Hn) as (S1 & Ha & Hc1 & M1 & Hx1 & Hca1 & Hcb1 & Ho1).
    assert (M1R : mv (Some R) L L (a :: L) h h).
    { eapply mv_sub; [exact M1|]. intros y Hy. right. now apply split_incl. }
    destruct cond eqn:Econd.
    + (* the node goes away *)
      apply andb_true_iff in Econd as [_ Elast]. apply N.eqb_eq in Elast.
      assert (nb = []) as -> by (apply lenN_0; unfold k in Elast; rewrite lenN_app, lenN_cons in Elast; lia).
      apply lenN_0 in Ecb. subst cb.
      apply xwp_bind. apply xwp_m. eapply wp_open with (k := kd) (L := a :: L); [rewrite Eaddr; exact Hx1|exact Ekp|]. intros hq Ehq Hhq.
      apply xwp_bind. eapply xwp_mono; [eapply IH with (m := true) (R := split_ptrs r0 ca [] R) (n := x) (a := c) (L := a :: L);
        [rewrite <- Eaddr; exact Ehq|exact S1|exact Hhq|exact Hq|exact Hsq|exact Hj|exact Hsh'|exact Hx32|exact HV]| |].
      * intros [w1 b1] h1 (E1 & S2 & M2 & Hn2). cbn [fst snd keep] in *. subst w1. apply xwp_bind. apply xwp_m.
        eapply wp_dec_left_taken with (r := r0) (ca := ca) (c := c) (cb := []) (R := b1 :: R) (L := L);
          [exact Ea|exact Hp|exact Hok|exact Hhr|exact Hrh|exact Eca|reflexivity| |eapply mv_local; [exact M2|now left|exact Hc1]
          |eapply mv_orep; [exact M2| |exact Ho1]|eapply mv_nreps; [exact M2| |exact Hca1]|].
        -- eapply st_eqv; [|exact S2]. intros y. unfold split_ptrs. destruct r0; cbn [occ ptrs app]; rewrite ?occ_app; cbn [occ]; lia.
        -- intros y Ey. now apply split_tab.
        -- intros y Hy. apply split_kids. now left.
        -- intros h3 S3 M3. apply xwp_ret. split; [reflexivity|]. split; [exact S3|]. split.
           ++ eapply mv_trans; [exact M1R|]. eapply mv_trans; [eapply mv_tail, mv_sub; [exact M2|]|].
              ** apply split_incl.
              ** eapply mv_sub; [exact M3|]. intros y Hy. now right.
           ++ eapply mv_nrep; [exact M3|now left|exact Hn2].
      * intros h1 (S2 & M2 & Hx2). cbn [own app] in S2. specialize (Hx2 eq_refl).
        destruct (put_kid_back L h1 R a r0 ca c [] o na x []) as (S3 & M3 & Hn3 & _).
        -- exact S2.
        -- eapply mv_local; [exact M2|now left|exact Hc1].
        -- exact Hx2.
        -- eapply mv_nreps; [exact M2| |exact Hca1]. intros y Hy. apply split_kids. now left.
        -- constructor.
        -- eapply mv_orep; [exact M2| |exact Ho1]. intros y Ey. now apply split_tab.
        -- split; [exact S3|]. split; [|auto]. eapply mv_trans; [exact M1R|]. eapply mv_trans; [eapply mv_tail, mv_sub; [exact M2|]|apply mv_all; exact M3].
           apply split_incl.
    + destruct HV as (cn & szs & EV & Hlv & Hsz & -> & ->).
      assert (Hlv1 : lv1 (na ++ x :: nb) = Datatypes.S l) by (exact (lv1_wf B BL _ _ _ Hw)).
      (* what is left to do once the node has a table of its own *)
      assert (GO : forall d szd h1, st (d :: a :: L) h1 (c :: ca ++ cb ++ R) ->
          cell_at h1 a (icell 1 (Some d) (ca ++ c :: cb)) -> cell_at h1 d (mkCell 1 (VTable (Datatypes.S l) szd) []) ->
          mv (Some (c :: ca ++ cb ++ R)) L (a :: L) (d :: a :: L) h h1 ->
          (forall b rr n sz, hp = HRel b rr -> p = PRel n sz -> (rr = d /\ szd = sz) \/
             exists rc v, cell_at (wipe (d :: a :: L) h1) rr (mkCell rc (VTable v sz) []) /\ rch (d :: a :: L) h1 R rr) ->
          (forall rr, r0 = Some rr -> exists sz, o = Some sz /\ szd = sz) ->
          xwp t (_ <- xtry
                 (q <- xm (open B BL l kd) ;;;
                  ' (_, c') <- VecHeap.hslice_left B BL nm false true l q j ;;;
                  xm (_ <~ mwhen true (p' <~ view hp ;;
                                         ks <~ mlift (heach_left B BL l p' (ca ++ c :: cb) (lenN na)) ;;
                                         hdecs B BL l ks) ;;
                      p' <~ view hp ;;
                      sz' <~ mlift (copy_sizes B BL (Datatypes.S l) p' (lenN na + 1) (k - lenN na - 1) s0) ;;
                      cs' <~ mlift (rsliceN (lenN na + 1) k (ca ++ c :: cb)) ;;
                      ' (r, _) <~ load_inner a ;;
                      _ <~ match r with
                           | Some r => put_table r (s0 :: sz')
                           | None => mub
                           end ;;
                      _ <~ put_inner a r (c' :: cs') ;;
                      mret tt))
                 (match hp with
                    | HRel _ _ => mret tt
                    | _ => ' (r, cs) <~ load_inner a ;;
                           match r with
                           | Some r => _ <~ free r ;; put_inner a None cs
                           | None => mub
                           end
                    end) ;;;
                 xret (Datatypes.S l, a)) h1
            (lpost true R L h (Datatypes.S l) (Inner (Some (s0 :: szs)) (cn :: nb))) (lback true a (Inner o (na ++ x :: nb)) R L h)).
      { intros d szd h1 S2 Ha2 Hd2 M2 Htab Hszd.
        assert (Hin : forall y, In y ca \/ In y cb \/ In y R -> In y (ca ++ cb ++ R)).
        { intros y. rewrite !in_app_iff. tauto. }
        apply xwp_bind. apply xwp_try. apply xwp_bind. apply xwp_m.
        eapply wp_open with (k := kd) (L := d :: a :: L); [rewrite Eaddr; eapply mv_nrep; [exact M2|now left|exact Hx1]|exact Ekp|].
        intros hq Ehq Hhq. rewrite Eaddr in Ehq.
        assert (M2R : mv (Some (ca ++ cb ++ R)) L (a :: L) (d :: a :: L) h h1) by (eapply mv_sub; [exact M2|]; intros y Hy; now right).
        apply xwp_bind. eapply xwp_mono; [eapply IH with (m := true) (R := ca ++ cb ++ R) (n := x) (a := c) (L := d :: a :: L);
          [exact Ehq|exact S2|exact Hhq|exact Hq|exact Hsq|exact Hj|exact Hsh'|exact Hx32|exact EV]| |].
        - intros [w1 c'] h2 (_ & S3 & M3 & Hn3). cbn [fst snd keep] in *. apply xwp_m.
          assert (M23 : mv (Some (ca ++ cb ++ R)) L (a :: L) (d :: a :: L) h h2).
          { eapply mv_trans; [exact M2R|eapply mv_tail, mv_tail; exact M3]. }
          eapply wp_mono; [eapply wp_left_mut with (o := o) (cn := cn) (nb := nb) (x := x) (na := na) (d := d) (szd := szd) (szs := szs) (R := R) (L := L);
            [exact Ea|exact Hp|exact Hok|exact Eca|exact Ecb|exact S3|eapply mv_local; [exact M3|right; now left|exact Ha2]
            |eapply mv_local; [exact M3|now left|exact Hd2]
            |eapply mv_nreps; [exact M23| |exact Hca1]; intros y Hy; apply Hin; auto
            |eapply mv_nreps; [exact M23| |exact Hcb1]; intros y Hy; apply Hin; auto|exact Hn3|exact Hlv| |reflexivity|exact Hsz]|].
          + intros b rr n sz Eh Ep. destruct (Htab _ _ _ _ Eh Ep) as [Hl|(rc & v & Hr & Hrr)]; [now left|right].
            assert (M3R : mv (Some R) (d :: a :: L) (d :: a :: L) (d :: a :: L) h1 h2).
            { eapply mv_sub; [exact M3|]. intros y Hy. apply Hin. auto. }
            pose proof M3R as (_ & P & _). destruct (P rr _ Hrr Hr) as ([rc2 b2 k2] & Hr2 & Eb & Ek2).
            cbn in Eb, Ek2. subst b2 k2. exists rc2, v. split; [exact Hr2|]. exact (mv_reach _ _ _ _ _ _ M3R _ Hrr).
          + intros [] h3 (S4 & M4 & Hn4). apply xwp_ret. split; [reflexivity|]. split; [exact S4|]. split; [|exact Hn4].
            eapply mv_trans; [exact M1R|]. eapply mv_trans; [|exact M4]. eapply mv_sub; [exact M23|]. intros y Hy. apply Hin. auto.
        - intros h2 (S3 & M3 & Hx3). cbn [own app] in S3. specialize (Hx3 eq_refl).
          assert (M23 : mv (Some (ca ++ cb ++ R)) L (a :: L) (d :: a :: L) h h2).
          { eapply mv_trans; [exact M2R|eapply mv_tail, mv_tail; exact M3]. }
          assert (Ha3 : cell_at h2 a (icell 1 (Some d) (ca ++ c :: cb))) by (eapply mv_local; [exact M3|right; now left|exact Ha2]).
          assert (Hca3 : Forall2 (nrep (d :: a :: L) h2) ca na) by (eapply mv_nreps; [exact M23| |exact Hca1]; intros y Hy; apply Hin; auto).
          assert (Hcb3 : Forall2 (nrep (d :: a :: L) h2) cb nb) by (eapply mv_nreps; [exact M23| |exact Hcb1]; intros y Hy; apply Hin; auto).
          assert (M23R : mv (Some R) L L (d :: a :: L) h h2).
          { eapply mv_trans; [exact M1R|]. eapply mv_sub; [exact M23|]. intros y Hy. apply Hin. auto. }
          destruct Hcase as [(rr & sz & Er & Eo & Eh & Ep)|(Er & Eo & Hh & _ & _)].
          + rewrite Eh. destruct (Hszd _ Er) as (sz' & Eo' & Esz). apply wp_ret.
            destruct (pub_rel L h2 R a d (ca ++ c :: cb) (Datatypes.S l) szd (na ++ x :: nb)) as (S4 & M4 & Hn4).
            * eapply st_eqv; [|exact S3]. intros y. cbn [occ]. rewrite ?occ_app. cbn [occ]. rewrite ?occ_app. lia.
            * exact Ha3.
            * eapply mv_local; [exact M3|now left|exact Hd2].
            * symmetry. exact Hlv1.
            * apply Forall2_app; [exact Hca3|]. constructor; [exact Hx3|exact Hcb3].
            * split; [exact S4|]. split; [eapply mv_trans; [exact M23R|now apply mv_all]|]. intros _. rewrite Eo', <- Esz. exact Hn4.
          + rewrite (Hh (M body unit) (fun _ => _)). subst r0 o.
            apply wp_bind. eapply wp_load_inner; [exact Ha3|]. apply wp_bind.
            eapply wv_free; [exact S3|]. intros h3 S4 M4 _.
            assert (HaL : ~ In a L) by exact Ha.
            eapply wp_put_inner; [exact S4|now left|eapply mv_local; [exact M4|now left|exact Ha3]|].
            intros h4 (S5 & Ha5 & F5 & M5). specialize (M5 L HaL).
            assert (M45 : mv None L (d :: a :: L) (a :: L) h2 h4) by (eapply mv_trans; [eapply mv_tail; exact M4|exact M5]).
            destruct (put_kid_back L h4 R a None ca c cb None na x nb) as (S6 & M6 & Hn6 & _).
            * eapply st_eqv; [|exact S5]. intros y. unfold split_ptrs. cbn [occ ptrs]. rewrite ?occ_app. lia.
            * exact Ha5.
            * eapply mv_nrep; [exact M45|exact I|exact Hx3].
            * eapply mv_nreps; [exact M45|intros; exact I|exact Hca3].
            * eapply mv_nreps; [exact M45|intros; exact I|exact Hcb3].
            * exact I.
            * split; [exact S6|]. split; [|auto]. eapply mv_trans; [exact M23R|]. apply mv_all. eapply mv_trans; [exact M45|exact M6]. }
      apply xwp_bind. apply xwp_bind.
      destruct Hcase as [(rr & sz & Er & Eo & Eh & Ep)|(Er & Eo & Hh & _ & _)].
      * rewrite Eh. subst r0 o. cbn [orep] in Ho1. rewrite Hlv1 in Ho1.
        eapply xwp_ensure_relaxed with (R := c :: ca ++ cb ++ R); [|exact Hc1|exact Ho1|reflexivity| |].
        -- eapply st_eqv; [|exact S1]. intros y. unfold split_ptrs. cbn [occ ptrs app]. rewrite ?occ_app. lia.
        -- intros d h1 sz1 S2 Ha2 Hd2 Ez [rc' Hr2] Erd M2. apply xwp_ret. rewrite Eh in GO. apply (GO d sz1 h1).
           ++ exact S2.
           ++ exact Ha2.
           ++ exact Hd2.
           ++ exact M2.
           ++ intros b r1 n sz' E1 E2. injection E1 as <- <-. rewrite Ep in E2. injection E2 as _ <-.
              destruct (Nat.eqb_spec rr d) as [->|Hne]; [left; split; [reflexivity|now apply Erd]|right].
              exists rc', (Datatypes.S l). 
              assert (Hr3 : cell_at (wipe (d :: a :: L) h1) rr (mkCell rc' (VTable (Datatypes.S l) sz) [])).
              { apply wipe_at; [|exact Hr2]. destruct (trep_inv _ _ _ _ _ Ho1) as [rc2 Hr0]. apply wipe_cell in Hr0.
                destruct Hr0 as [Hni _]. intros [E|Hin]; [now apply Hne|now apply Hni]. }
              split; [exact Hr3|]. eapply (table_out l) with (cs := c :: ca ++ cb) (ns := x :: na ++ nb) (4 := Hr3).
              ** cbn [app]. rewrite <- app_assoc. exact S2.
              ** assert (Hin : forall y, In y ca \/ In y cb \/ y = c -> In y (c :: ca ++ cb ++ R)).
                 { intros y. cbn. rewrite !in_app_iff. intros [Hy|[Hy| ->]]; auto. }
                 constructor; [eapply mv_nrep; [exact M2|now left|exact Hx1]|].
                 apply Forall2_app; (eapply mv_nreps; [exact M2| |eassumption]); intros y Hy; apply Hin; auto.
              ** constructor; [exact Hwx|]. apply Forall_app. auto.
           ++ intros r1 E1. exists sz. split; [reflexivity|]. destruct Ez; auto.
        -- intros _. split; [exact S|]. split; [apply mv_refl|auto].
      * rewrite (Hh (X body nat) (fun _ => _)). subst r0 o. apply xwp_bind.
        apply xwp_throw; [|intros _; split; [exact S|]; split; [apply mv_refl|auto]].
        apply xwp_m. apply wp_bind. apply wv_new_local with (L := a :: L) (R := c :: ca ++ cb ++ R).
        { eapply st_eqv; [|exact S1]. intros y. unfold split_ptrs. cbn [occ ptrs app]. rewrite ?occ_app. lia. }
        intros d h1 S2 Hd Hd1 M2. apply wp_bind.
        assert (Hda : a <> d) by (intros ->; apply Hd; now left).
        eapply wp_put_inner; [exact S2|right; now left|eapply mv_local; [exact M2|now left|exact Hc1]|].
        intros h2 (S3 & Ha3 & F3 & M3). specialize (M3 L Ha). apply wp_ret. apply xwp_ret. apply (GO d [] h2).
        -- exact S3.
        -- exact Ha3.
        -- unfold cell_at. rewrite F3 by auto. exact Hd1.
        -- apply mv_all. eapply mv_trans; [eapply mv_tail; exact M2|exact M3].
        -- intros b r1 n sz' E1 E2. specialize (Hhr _ _ E1). discriminate.
        -- discriminate.
Qed.
End SliceL.
