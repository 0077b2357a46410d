(** slice_right_visitor and slice_right_mut_visitor on counted memory. *)
From Coq Require Import List NArith Arith Bool Lia ZifyN ZifyNat ZifyBool.
From Verif Require Import Common NList Rrb RrbInv RrbPos RrbOps RrbSlice RrbViewOk RrbConcat AtomProofs
  RcHeap RcProofs RcExn RcExnProofs RcMove VecHeap VecPlan VecNodes VecMake VecGetMut VecPush.
Import ListNotations.
Local Open Scope N_scope.
Set Default Goal Selector "!".

Section SliceR.
Context {T : Type}.
Variables B BL : N.
Notation body := (vbody T).
Notation heap := (heap body). Notation cell := (cell body).
Notation pos_ok := (@pos_ok T B BL).
Notation wf := (@wf T B BL).
Notation full := (@full T B BL).
Notation span := (span B BL).
Notation lwidth := (lwidth BL).
Implicit Types (h : heap) (L R : list nat).

(** ** Counts only grow when nothing is released *)
Lemma total_le (f : option cell -> nat) (f' : option cell -> nat) : forall g g' : heap,
  (length g <= length g')%nat ->
  (forall x o, nth_error g x = Some o -> exists o', nth_error g' x = Some o' /\ (f o <= f' o')%nat) ->
  (total f g <= total f' g')%nat.
Proof.
  induction g as [|o g IH]; intros g' Hl H; cbn; [lia|].
  destruct g' as [|o' g']; cbn in *; [lia|].
  destruct (H O o eq_refl) as (o2 & E2 & Hle). cbn in E2. injection E2 as <-.
  assert (total f g <= total f' g')%nat; [|lia]. apply IH; [lia|]. intros x o3 E. exact (H (S x) o3 E).
Qed.
Lemma mv_count L h R L0 L' h' R' a c c' : st L h R -> st L' h' R' -> mv None L0 L L' h h' ->
  (forall y, (occ y R <= occ y R')%nat) -> cell_at (wipe L h) a c -> cell_at (wipe L' h') a c' ->
  (c_rc c <= c_rc c')%nat.
Proof.
  intros (G & _) (G' & _) (_ & M & Hlen) Ho Hc Hc'.
  pose proof (proj1 G a) as H. pose proof (proj1 G' a) as H'. unfold cell_at in *. rewrite Hc in H. rewrite Hc' in H'.
  destruct H as [-> _]. destruct H' as [-> _]. unfold refs. specialize (Ho a).
  assert (total (okids a) (wipe L h) <= total (okids a) (wipe L' h'))%nat; [|lia].
  apply total_le; [rewrite !length_wipe; exact Hlen|]. intros x o E. destruct o as [d|].
  - destruct (M x d I E) as (d' & Ed & _ & Ek). exists (Some d'). split; [exact Ed|]. cbn. rewrite Ek. lia.
  - assert (x < length (wipe L h))%nat by (apply nth_error_Some; congruence).
    destruct (nth_error (wipe L' h') x) as [o'|] eqn:E'; [exists o'; split; [reflexivity|cbn; lia]|].
    apply nth_error_None in E'. rewrite !length_wipe in *. lia.
Qed.

(** ** dec_right *)
Lemma wp_dec_right_shared L h R hp a c l idx (Q : unit -> heap -> Prop) : haddr hp = Ok a -> st L h (a :: R) ->
  cell_at (wipe L h) a c -> (1 < c_rc c)%nat ->
  (forall h', st L h' R -> mv None L L L h h' -> Q tt h') -> wp (dec_right B BL l hp idx) h Q.
Proof.
  intros Ea S Hc Hrc K. unfold dec_right. apply wp_bind. eapply wp_lift; [exact Ea|]. apply wp_bind.
  apply wv_dec with (L := L) (R := R); [exact S| |].
  - intros h' S' M _. apply wp_ret. now apply K.
  - intros c' h' Hc' E _ _ _ _ _. pose proof (cell_fun _ _ _ _ Hc Hc'). subst. lia.
Qed.
Lemma wp_dec_left_shared L h R hp a c l idx (Q : unit -> heap -> Prop) : haddr hp = Ok a -> st L h (a :: R) ->
  cell_at (wipe L h) a c -> (1 < c_rc c)%nat ->
  (forall h', st L h' R -> mv None L L L h h' -> Q tt h') -> wp (dec_left B BL l hp idx) h Q.
Proof.
  intros Ea S Hc Hrc K. unfold dec_left. apply wp_bind. eapply wp_lift; [exact Ea|]. apply wp_bind.
  apply wv_dec with (L := L) (R := R); [exact S| |].
  - intros h' S' M _. apply wp_ret. now apply K.
  - intros c' h' Hc' E _ _ _ _ _. pose proof (cell_fun _ _ _ _ Hc Hc'). subst. lia.
Qed.
(** What a position sees depends only on the table. *)
Lemma wp_view_old L0 h0 h hp p (Q : pos T -> heap -> Prop) : prel L0 h0 hp p ->
  (forall a r n sz, hp = HRel a r -> p = PRel n sz -> exists rc v, cell_at h r (mkCell rc (VTable v sz) [])) ->
  Q (blank p) h -> wp (view hp) h Q.
Proof.
  intros Hp Ht HQ. destruct Hp as [b n H|b n s H|b n s H|b r rc cs sz ns Hc Htr Hcs]; cbn [view blank] in *; try (apply wp_ret; exact HQ).
  destruct (Ht _ _ _ _ eq_refl eq_refl) as (rc' & v & Hr).
  apply wp_bind. eapply wp_load_table; [exact Hr|]. apply wp_ret. exact HQ.
Qed.
(** The last reference to a node of which this operation holds the block. *)
Lemma wp_dec_local L h R a rc r cs (Q : bool -> heap -> Prop) : st (a :: L) h R -> cell_at h a (icell 1 r cs) -> rc = 1%nat ->
  (forall h', wrote (a :: L) h R a (icell 0 r cs) h' -> Q true h') -> wp (dec a) h Q.
Proof.
  intros S Hc -> K. unfold dec. apply wp_bind. eapply wp_load; [exact Hc|]. cbn [c_rc icell]. apply wp_bind.
  apply wv_store with (L := a :: L) (R := R); [exact S|now left|]. intros h' S' Hc' F M. apply wp_ret. cbn [Nat.eqb].
  apply K. exact (conj S' (conj Hc' (conj F M))).
Qed.
Lemma heach_right_taken l p o na x nb ca c cb : pos_ok (S l) p (Inner o (na ++ x :: nb)) -> lenN ca = lenN na ->
  lenN (ca ++ c :: cb) = lenN (na ++ x :: nb) ->
  exists ks, heach_right B BL l (blank p) (ca ++ c :: cb) (lenN na + 1) = Ok ks /\ map kaddr ks = cb /\ Forall2 (kok B BL l) ks nb.
Proof.
  intros Hok El Elen. destruct (heach_right_ok B BL l p _ (ca ++ c :: cb) na x nb Hok Elen eq_refl) as (ks & H1 & H2 & H3).
  exists ks. split; [exact H1|]. split; [|exact H3]. rewrite H2, <- El.
  replace (lenN ca + 1) with (lenN (ca ++ [c])) by apply lenN_snoc.
  replace (ca ++ c :: cb) with ((ca ++ [c]) ++ cb) by (now rewrite <- app_assoc). apply dropN_app.
Qed.
Lemma wp_dec_right_taken L0 h0 l hp p o na x nb a r ca c cb L h R (Q : unit -> heap -> Prop) :
  haddr hp = Ok a -> prel L0 h0 hp p -> pos_ok (S l) p (Inner o (na ++ x :: nb)) ->
  (forall b rr, hp = HRel b rr -> r = Some rr) -> (forall rr, r = Some rr -> hp = HRel a rr) ->
  lenN ca = lenN na -> lenN cb = lenN nb -> st (a :: L) h (ptrs r cb ++ R) ->
  cell_at h a (icell 1 r (ca ++ c :: cb)) ->
  orep (a :: L) h r (lv1 (na ++ x :: nb)) o -> Forall2 (nrep (a :: L) h) cb nb ->
  (forall h', st L h' R -> mv (Some R) L (a :: L) L h h' -> Q tt h') ->
  wp (dec_right B BL l hp (lenN na + 1)) h Q.
Proof.
  intros Ea Hp Hok Hhr Hrh Ela Elb S Hc Ho Hcb K.
  unfold dec_right. apply wp_bind. eapply wp_lift; [exact Ea|]. apply wp_bind.
  eapply wp_dec_local; [exact S|exact Hc|reflexivity|]. intros h1 (S1 & Hc1 & F1 & M1).
  assert (Hna : ~ In a L). { destruct S as (_ & _ & ND). now inversion ND. }
  specialize (M1 L Hna).
  assert (Ho1 : orep (a :: L) h1 r (lv1 (na ++ x :: nb)) o).
  { eapply mv_orep; [exact M1|intros; exact I|exact Ho]. }
  assert (Hcb1 : Forall2 (nrep (a :: L) h1) cb nb) by (eapply mv_nreps; [exact M1|intros; exact I|exact Hcb]).
  cbn match. apply wp_bind. eapply wp_view_old; [exact Hp| |].
  { intros b rr n sz Eh Ep. specialize (Hhr _ _ Eh). subst r. destruct o as [sz'|]; [|easy]. cbn in Ho1.
    destruct (trep_inv _ _ _ _ _ Ho1) as [rc Hr]. exists rc. eexists.
    subst p. inversion Hok; subst. exact (at_wipe _ _ _ _ Hr). }
  apply wp_bind. eapply wp_load_inner; [exact Hc1|].
  destruct (heach_right_taken l p o na x nb ca c cb Hok Ela) as (ks & Hks & Ek & Hkk).
  { rewrite !lenN_app, !lenN_cons. lia. }
  apply wp_bind. eapply wp_lift; [exact Hks|]. apply wp_bind.
  eapply wp_hdecs with (L := a :: L) (R := ptrs r [] ++ R); [exact Hkk|rewrite Ek; exact Hcb1| |].
  { rewrite Ek. eapply st_eqv; [|exact S1]. intros y. destruct r; cbn; rewrite !occ_app; cbn; lia. }
  intros h2 (S2 & M2 & _).
  assert (Hc2 : cell_at h2 a (icell 0 r (ca ++ c :: cb))) by (eapply mv_local; [exact M2|now left|exact Hc1]).
  assert (M12 : mv (Some (ptrs r [] ++ R)) L (a :: L) (a :: L) h h2).
  { eapply mv_trans; [apply mv_all; exact M1|eapply mv_tail; exact M2]. }
  destruct r as [rr|]; cbn [ptrs app] in *.
  - rewrite (Hrh rr eq_refl). destruct o as [sz|]; [|easy]. cbn in Ho1.
    eapply wp_delete_inner_r; [exact S2|exact Hc2|eapply mv_trep; [exact M2|now left|exact Ho1]|].
    intros h3 S3 M3 _. apply K; [exact S3|]. eapply mv_trans; [|exact M3].
    eapply mv_sub; [exact M12|]. intros y Hy. now right.
  - assert (W : wp (delete_inner a) h2 Q).
    { eapply wp_delete_inner; [exact S2|exact Hc2|]. intros h3 S3 M3 _. apply K; [exact S3|].
      eapply mv_trans; [exact M12|now apply mv_all]. }
    destruct hp; try exact W. specialize (Hhr _ _ eq_refl). discriminate.
Qed.

Variable t : bool.
(** The first [i] children of a node, and more, in a new node. *)
Lemma xwp_copy_rel l m L h R a r sz ns i more mns msz {A} (out : nat -> A) :
  st L h (more ++ own m a ++ R) -> prel L h (HRel a r) (PRel (Inner (Some sz) ns) sz) ->
  pos_ok (S l) (PRel (Inner (Some sz) ns) sz) (Inner (Some sz) ns) -> Forall2 (nrep L h) more mns -> lv1 (takeN i ns ++ mns) = S l -> i <= lenN ns ->
  xwp t (n <- make_inner_r (S l) ;;;
         xm (_ <~ do_copy_inner_r n a i more msz ;;
             _ <~ mwhen m (hdec B BL (S l) (HRel a r)) ;;
             mret (out n))) h
    (fun o h' => exists b, o = out b /\ st L h' (b :: R) /\ mv (keep m R) L L L h h' /\
       nrep L h' b (Inner (Some (takeN i sz ++ msz)) (takeN i ns ++ mns)))
    (fun h' => st L h' (more ++ own m a ++ R) /\ mv None L L L h h').
Proof.
  intros S Hp Hok Hm Hv Hi. apply xwp_bind.
  pose proof (pos_ok_wf _ _ _ _ _ Hok) as Hw.
  assert (Hlz : lenN sz = lenN ns). { destruct Hw as (_ & _ & Hz). rewrite Hz, lenN_sums, lenN_map. reflexivity. }
  eapply xwp_make_inner_r; [exact S| |intros h1 _ S1 M1; auto].
  intros b d h1 S1 Hb1 Hd1 M1. apply xwp_m. apply wp_bind.
  assert (Hp1 : prel (d :: b :: L) h1 (HRel a r) (PRel (Inner (Some sz) ns) sz)).
  { eapply mv_prel; [exact M1|reflexivity|exact I|exact Hp]. }
  inversion Hp1 as [| | |? ? rc cs ? ? Hc1 Ht1 Hk1]; subst.
  pose proof (F2_len _ _ _ Hk1) as El.
  eapply wp_do_copy_inner_r; [exact S1|exact Hb1|exact Hd1|exact Hc1|exact Ht1|eapply nreps_live; exact Hk1
    |apply rtakeN_len; lia|apply rtakeN_len; lia|].
  intros h2 S2 Hb2 Hd2 M2. apply wp_bind.
  eapply wp_when_dec with (R := (takeN i cs ++ more) ++ R) (L := d :: b :: L); [reflexivity| | |exact Hok|].
  - eapply st_eqv; [|exact S2]. intros y. rewrite !occ_app. lia.
  - eapply mv_prel; [exact M2|reflexivity|exact I|exact Hp1].
  - intros h3 S3 M3. apply wp_ret. exists b. split; [reflexivity|].
    assert (Hk2 : Forall2 (nrep (d :: b :: L) h2) (takeN i cs ++ more) (takeN i ns ++ mns)).
    { eapply mv_nreps; [exact M2|intros; exact I|]. apply Forall2_app; [now apply F2_take|].
      eapply mv_nreps; [exact M1|intros; exact I|exact Hm]. }
    destruct (pub_rel L h3 R b d (takeN i cs ++ more) (Datatypes.S l) (takeN i sz ++ msz) (takeN i ns ++ mns)) as (S4 & M4 & Hn4).
    * exact S3.
    * eapply mv_local; [exact M3|right; now left|exact Hb2].
    * eapply mv_local; [exact M3|now left|exact Hd2].
    * symmetry. exact Hv.
    * eapply mv_nreps; [exact (mv_keep _ _ _ _ _ _ _ M3)| |exact Hk2]. intros y Hy. apply in_or_app. now left.
    * split; [exact S4|]. split; [|exact Hn4].
      assert (M12 : mv None L L (d :: b :: L) h h2) by (eapply mv_trans; eauto).
      destruct m; cbn [keep] in *.
      -- eapply mv_trans; [apply mv_all; exact M12|]. eapply mv_trans; [|apply mv_all; exact M4].
         eapply mv_tail, mv_tail, mv_sub; [exact M3|]. intros y Hy. apply in_or_app. now right.
      -- eapply mv_trans; [exact M12|]. eapply mv_trans; [|exact M4]. eapply mv_tail, mv_tail; exact M3.
Qed.
Lemma xwp_copy_reg l m L h R hp p a rc cs ns i more mns {A} (out : nat -> A) :
  haddr hp = Ok a -> st L h (more ++ own m a ++ R) -> prel L h hp p -> pos_ok (S l) p (Inner None ns) ->
  cell_at (wipe L h) a (icell rc None cs) -> Forall2 (nrep L h) cs ns ->
  Forall2 (nrep L h) more mns -> i <= lenN ns ->
  xwp t (n <- make_inner ;;;
         xm (_ <~ do_copy_inner n a i more ;;
             _ <~ mwhen m (hdec B BL (S l) hp) ;;
             mret (out n))) h
    (fun o h' => exists b, o = out b /\ st L h' (b :: R) /\ mv (keep m R) L L L h h' /\
       nrep L h' b (Inner None (takeN i ns ++ mns)))
    (fun h' => st L h' (more ++ own m a ++ R) /\ mv None L L L h h').
Proof.
  intros Ea S Hp Hok Hc Hk Hm Hi. apply xwp_bind. pose proof (F2_len _ _ _ Hk) as El.
  eapply xwp_make_inner; [exact S| |intros _; split; [exact S|apply mv_refl]].
  intros b h1 S1 Hb Hb1 M1. apply xwp_m. apply wp_bind.
  destruct (mv_cell _ _ _ _ _ _ _ _ M1 I Hc) as ([rc1 b1 ks1] & Ha1 & Eb1 & Ek1). cbn in Eb1, Ek1. subst b1 ks1.
  change (cell_at (wipe (b :: L) h1) a (icell rc1 None cs)) in Ha1.
  assert (Hk1 : Forall2 (nrep (b :: L) h1) cs ns) by (eapply mv_nreps; [exact M1|intros; exact I|exact Hk]).
  eapply wp_do_copy_inner; [exact S1|now left|exact Hb1|exact Ha1|eapply nreps_live; exact Hk1|apply rtakeN_len; lia|].
  intros h2 S2 Hb2 M2'.
  assert (M2 : mv None L (b :: L) (b :: L) h1 h2) by (apply M2'; [exact Hb|intros y Hy; now right]). clear M2'.
  apply wp_bind. eapply wp_when_dec with (R := (takeN i cs ++ more) ++ R) (L := b :: L); [exact Ea| | |exact Hok|].
  - eapply st_eqv; [|exact S2]. intros y. rewrite !occ_app. lia.
  - eapply mv_prel; [exact M2|exact Ea|exact I|]. eapply mv_prel; [exact M1|exact Ea|exact I|exact Hp].
  - intros h3 S3 M3. apply wp_ret. exists b. split; [reflexivity|].
    assert (Hk2 : Forall2 (nrep (b :: L) h2) (takeN i cs ++ more) (takeN i ns ++ mns)).
    { eapply mv_nreps; [exact M2|intros; exact I|]. apply Forall2_app; [now apply F2_take|].
      eapply mv_nreps; [exact M1|intros; exact I|exact Hm]. }
    destruct (pub_inner L h3 R b None (takeN i cs ++ more) None (takeN i ns ++ mns)) as (S4 & M4 & Hn4 & _).
    * exact S3.
    * eapply mv_local; [exact M3|now left|exact Hb2].
    * exact I.
    * eapply mv_nreps; [exact (mv_keep _ _ _ _ _ _ _ M3)| |exact Hk2]. intros y Hy. apply in_or_app. now left.
    * split; [exact S4|]. split; [|exact Hn4].
      assert (M12 : mv None L L (b :: L) h h2) by (eapply mv_trans; eauto).
      destruct m; cbn [keep] in *.
      -- eapply mv_trans; [apply mv_all; exact M12|]. eapply mv_trans; [|apply mv_all; exact M4].
         eapply mv_tail, mv_sub; [exact M3|]. intros y Hy. apply in_or_app. now right.
      -- eapply mv_trans; [exact M12|]. eapply mv_trans; [|exact M4]. eapply mv_tail; exact M3.
Qed.

(** ** The result of a slice *)
Definition oroot (o : option (nat * nat)) : list nat := match o with Some (_, b) => [b] | None => [] end.
Definition orel L h (o : option (nat * nat)) (nr : option (nat * node T)) : Prop :=
  match o, nr with
  | Some (w, b), Some (w', n) => w = w' /\ nrep L h b n
  | None, None => True
  | _, _ => False
  end.
Definition spost m R L h nr ts (tn : node T) (r : option (nat * nat) * N * nat) h' : Prop :=
  let '(o, ts', tl) := r in
  ts' = ts /\ st L h' (tl :: oroot o ++ R) /\ mv (keep m R) L L L h h' /\ nrep L h' tl tn /\ orel L h' o nr.

Lemma slice_reg_size l last w i j nc ts q : last mod (w * span l) = i -> i = q * span l + j -> nc + ts = j + 1 ->
  0 < nc <= span l -> 0 < last + 1 - ts /\ (last + 1 - ts - 1) mod span l + 1 = nc.
Proof.
  intros Hm Hi Hn Hb.
  assert (Hl : exists z, last = (z * w + q) * span l + j).
  { exists (last / (w * span l)). pose proof (N.div_mod' last (w * span l)) as D. rewrite Hm, Hi in D. lia. }
  destruct Hl as [z ->]. split; [lia|].
  replace ((z * w + q) * span l + j + 1 - ts - 1) with (nc - 1 + (z * w + q) * span l) by lia.
  rewrite N.mod_add by lia. rewrite N.mod_small by lia. lia.
Qed.

Definition ocut (o : option (list N)) (i : N) (more : list N) : option (list N) :=
  match o with Some sz => Some (takeN i sz ++ more) | None => None end.
Lemma xwp_copy_node l m L h R hp p a o ns i more mns msz {A} (out : nat -> A) :
  haddr hp = Ok a -> st L h (more ++ own m a ++ R) -> prel L h hp p -> pos_ok (S l) p (Inner o ns) ->
  Forall2 (nrep L h) more mns -> lv1 (takeN i ns ++ mns) = S l -> i <= lenN ns ->
  xwp t (match hp with
         | HRel _ _ =>
             n <- make_inner_r (S l) ;;;
             xm (_ <~ do_copy_inner_r n a i more msz ;;
                 _ <~ mwhen m (hdec B BL (S l) hp) ;;
                 mret (out n))
         | _ =>
             n <- make_inner ;;;
             xm (_ <~ do_copy_inner n a i more ;;
                 _ <~ mwhen m (hdec B BL (S l) hp) ;;
                 mret (out n))
         end) h
    (fun r h' => exists b, r = out b /\ st L h' (b :: R) /\ mv (keep m R) L L L h h' /\
       nrep L h' b (Inner (ocut o i msz) (takeN i ns ++ mns)))
    (fun h' => st L h' (more ++ own m a ++ R) /\ mv None L L L h h').
Proof.
  intros Ea S Hp Hok Hm Hv Hi.
  destruct (prel_cases _ _ _ _ _ _ _ _ _ Hp Ea Hok) as (rc & rr & cs & o' & ns' & E & Hc & Ho & Hcs & El & Hcase).
  injection E as <- <-. destruct Hcase as [(rt & sz & -> & -> & -> & ->)|(-> & -> & Hh & _ & _)].
  - cbn [ocut]. eapply xwp_copy_rel; eauto.
  - rewrite (Hh (X body A) (fun _ => _)). cbn [ocut]. eapply xwp_copy_reg; eauto.
Qed.

Section Held.
Variables (L0 : list nat) (h0 : heap) (l : nat) (hp : hpos) (p : pos T) (o : option (list N)).
Variables (na : list (node T)) (x : node T) (nb : list (node T)).
Variables (a : nat) (r : option nat) (ca : list nat) (c : nat) (cb : list nat).
Hypothesis (Ea : haddr hp = Ok a) (Hp : prel L0 h0 hp p) (Hok : pos_ok (S l) p (Inner o (na ++ x :: nb))).
Hypothesis (Hhr : forall b rr, hp = HRel b rr -> r = Some rr) (Hrh : forall rr, r = Some rr -> hp = HRel a rr).
Hypothesis (Ela : lenN ca = lenN na) (Elb : lenN cb = lenN nb) (Ht : is_rel (Inner o (na ++ x :: nb)) = true -> t = false).
Notation cs := (ca ++ c :: cb).
Notation idx := (lenN na).

Lemma held_table sz : o = Some sz -> lenN sz = lenN na + 1 + lenN nb.
Proof.
  intros ->. pose proof (pos_ok_wf _ _ _ _ _ Hok) as (_ & _ & Hz).
  rewrite Hz, lenN_sums, lenN_map, lenN_app, lenN_cons. lia.
Qed.
Lemma held_pos rr sz : r = Some rr -> o = Some sz -> p = PRel (Inner o (na ++ x :: nb)) sz.
Proof.
  intros Er Eo. specialize (Hrh _ Er). subst hp o. clear Ht.
  inversion Hp as [| | |? ? ? ? sz' ns' _ _ _ E1 E2]. subst p. inversion Hok. reflexivity.
Qed.

Lemma xwp_held_some {A} (out : A) s c' cn L h R :
  st (a :: L) h (c' :: split_ptrs r ca cb R) -> cell_at h a (icell 1 r cs) -> orep (a :: L) h r (lv1 (na ++ x :: nb)) o ->
  Forall2 (nrep (a :: L) h) ca na -> Forall2 (nrep (a :: L) h) cb nb -> nrep (a :: L) h c' cn ->
  lv1 (na ++ [cn]) = lv1 (na ++ x :: nb) ->
  xwp t (match hp with
         | HRel _ _ =>
             d <- ensure_relaxed a (Some idx) ;;;
             xm (p' <~ view hp ;;
                 ks <~ mlift (heach_right B BL l p' cs (idx + 1)) ;;
                 _ <~ hdecs B BL l ks ;;
                 _ <~ put_last a idx c' ;;
                 _ <~ put_size d idx s ;;
                 mret out)
         | _ =>
             xm (ks <~ mlift (heach_right B BL l (blank p) cs (idx + 1)) ;;
                 _ <~ hdecs B BL l ks ;;
                 _ <~ put_last a idx c' ;;
                 mret out)
         end) h
    (fun q h' => q = out /\ st L h' (a :: R) /\ mv (Some R) L (a :: L) L h h' /\
       nrep L h' a (Inner (ocut o idx [s]) (na ++ [cn])))
    (fun _ => False).
Proof.
  intros S Hc Ho Hca Hcb Hcn Hv.
  destruct (heach_right_taken l p o na x nb ca c cb Hok Ela) as (ks & Hks & Ek & Hkk).
  { rewrite !lenN_app, !lenN_cons. lia. }
  assert (Hna : ~ In a L). { destruct S as (_ & _ & ND). now inversion ND. }
  assert (Etk : rtakeN idx (ca ++ c :: cb) = Ok ca) by (rewrite <- Ela; apply rtakeN_app; reflexivity).
  pose proof held_table as Hlz. pose proof held_pos as Ep.
  destruct r as [rr|]; [|destruct o as [sz|]; [easy|]].
  - specialize (Hrh rr eq_refl). destruct o as [sz|] eqn:Eo; [|easy]. cbn in Ho. specialize (Ht eq_refl).
    specialize (Hlz sz eq_refl). specialize (Ep rr sz eq_refl eq_refl).
    rewrite Hrh. apply xwp_bind.
    eapply xwp_ensure_relaxed; [|exact Hc|exact Ho|cbn; apply rtakeN_len; lia| |congruence].
    { eapply st_eqv with (R := c' :: split_ptrs (Some rr) ca cb R); [|exact S]. intros y. unfold split_ptrs. cbn [ptrs occ app].
      instantiate (1 := cb ++ ca ++ c' :: R). cbn. rewrite !occ_app. cbn. lia. }
    intros d h1 sz1 S1 Hc1 Hd1 Ez Hr1 Erd M1. destruct Hr1 as [rc' Hr1].
    replace (if Nat.eqb rr d then sz1 else sz) with sz in Hr1.
    2:{ destruct (Nat.eqb_spec rr d) as [->|_]; [symmetry; now apply Erd|reflexivity]. }
    assert (HdL : ~ In d L /\ d <> a).
    { destruct S1 as (_ & _ & ND). inversion ND as [|? ? Hn1 ND1]; subst. split; intros H; apply Hn1; [now right|now left]. }
    destruct HdL as [HdL Hda].
    apply xwp_m. apply wp_bind. cbn [view]. apply wp_bind. eapply wp_load_table; [exact Hr1|]. apply wp_ret.
    apply wp_bind. eapply wp_lift; [rewrite Ep in Hks; exact Hks|]. apply wp_bind.
    eapply wp_hdecs with (L := d :: a :: L) (R := ca ++ c' :: R); [exact Hkk| | |].
    { rewrite Ek. eapply mv_nreps; [exact M1| |exact Hcb]. intros y Hy. apply in_or_app. now left. }
    { rewrite Ek. exact S1. }
    intros h2 (S2 & M2 & _). apply wp_bind.
    eapply wp_put_last; [exact S2|right; now left|eapply mv_local; [exact M2|right; now left|exact Hc1]|exact Etk|].
    intros h3 (S3 & Hc3 & F3 & M3). apply wp_bind.
    assert (Hd3 : cell_at h3 d (mkCell 1 (VTable (lv1 (na ++ x :: nb)) sz1) [])).
    { unfold cell_at. rewrite F3 by auto. eapply mv_local; [exact M2|now left|exact Hd1]. }
    assert (Ht1 : rtakeN idx sz1 = Ok (takeN idx sz)).
    { destruct Ez as [->| ->]; [apply rtakeN_len; lia|]. apply rtakeN_all. rewrite lenN_takeN. lia. }
    eapply wp_put_size; [exact S3|now left|exact Hd3|exact Ht1|]. intros h4 (S4 & Hd4 & F4 & M4). apply wp_ret.
    assert (M14 : mv (Some (ca ++ c' :: R)) L (a :: L) (d :: a :: L) h h4).
    { eapply mv_trans; [eapply mv_sub; [exact M1|intros y Hy; apply in_or_app; now right]|].
      eapply mv_trans; [eapply mv_tail, mv_tail; exact M2|]. apply mv_all.
      eapply mv_trans; [apply M3; exact Hna|apply M4; exact HdL]. }
    destruct (pub_rel L h4 R a d (ca ++ [c']) (lv1 (na ++ x :: nb)) (takeN idx sz ++ [s]) (na ++ [cn])) as (S5 & M5 & Hn5).
    + eapply st_eqv; [|exact S4]. intros y. rewrite <- app_assoc. reflexivity.
    + unfold cell_at. rewrite F4; [exact Hc3|auto].
    + exact Hd4.
    + symmetry. exact Hv.
    + apply Forall2_app; [|constructor; [|constructor]].
      * eapply mv_nreps; [exact M14| |exact Hca]. intros y Hy. apply in_or_app. now left.
      * eapply mv_nrep; [exact M14| |exact Hcn]. apply in_or_app. right. now left.
    + split; [reflexivity|]. split; [exact S5|]. split; [|exact Hn5].
      eapply mv_trans; [eapply mv_sub; [exact M14|]; intros y Hy; apply in_or_app; right; now right|now apply mv_all].
  - match goal with |- xwp _ ?q _ ?P ?E => assert (W : forall q', q' = xm (ks <~ mlift (heach_right B BL l (blank p) cs (idx + 1)) ;;
                 _ <~ hdecs B BL l ks ;; _ <~ put_last a idx c' ;; mret out) -> xwp t q' h P E) end.
    { intros q' ->. apply xwp_m. apply wp_bind. eapply wp_lift; [exact Hks|]. apply wp_bind.
      eapply wp_hdecs with (L := a :: L) (R := ca ++ c' :: R); [exact Hkk|rewrite Ek; exact Hcb| |].
      { rewrite Ek. eapply st_eqv; [|exact S]. intros y. unfold split_ptrs. cbn. rewrite !occ_app. cbn. lia. }
      intros h2 (S2 & M2 & _). apply wp_bind.
      eapply wp_put_last; [exact S2|now left|eapply mv_local; [exact M2|now left|exact Hc]|exact Etk|].
      intros h3 (S3 & Hc3 & F3 & M3). apply wp_ret.
      assert (M23 : mv (Some (ca ++ c' :: R)) L (a :: L) (a :: L) h h3).
      { eapply mv_trans; [eapply mv_tail; exact M2|]. apply mv_all. apply M3. exact Hna. }
      destruct (pub_inner L h3 R a None (ca ++ [c']) None (na ++ [cn])) as (S4 & M4 & Hn4 & _).
      + eapply st_eqv; [|exact S3]. intros y. cbn [ptrs]. rewrite <- app_assoc. reflexivity.
      + exact Hc3.
      + exact I.
      + apply Forall2_app; [|constructor; [|constructor]].
        * eapply mv_nreps; [exact M23| |exact Hca]. intros y Hy. apply in_or_app. now left.
        * eapply mv_nrep; [exact M23| |exact Hcn]. apply in_or_app. right. now left.
      + split; [reflexivity|]. split; [exact S4|]. split; [|exact Hn4].
        eapply mv_trans; [eapply mv_sub; [exact M23|]; intros y Hy; apply in_or_app; right; now right|now apply mv_all]. }
    apply W. destruct hp; try reflexivity. specialize (Hhr _ _ eq_refl). discriminate.
Qed.
Lemma xwp_held_none {A} (out : A) L h R :
  st (a :: L) h (split_ptrs r ca cb R) -> cell_at h a (icell 1 r cs) -> orep (a :: L) h r (lv1 (na ++ x :: nb)) o ->
  Forall2 (nrep (a :: L) h) ca na -> Forall2 (nrep (a :: L) h) cb nb -> lv1 na = lv1 (na ++ x :: nb) ->
  xwp t (match hp with
         | HRel _ _ =>
             _ <- xm (p' <~ view hp ;;
                      ks <~ mlift (heach_right B BL l p' cs (idx + 1)) ;;
                      hdecs B BL l ks) ;;;
             d <- ensure_relaxed a (Some idx) ;;;
             xm (_ <~ cut_sizes d idx ;; _ <~ cut_kids a idx ;; mret out)
         | _ =>
             xm (ks <~ mlift (heach_right B BL l (blank p) cs (idx + 1)) ;;
                 _ <~ hdecs B BL l ks ;;
                 _ <~ cut_kids a idx ;;
                 mret out)
         end) h
    (fun q h' => q = out /\ st L h' (a :: R) /\ mv (Some R) L (a :: L) L h h' /\
       nrep L h' a (Inner (ocut o idx []) na))
    (fun _ => False).
Proof.
  intros S Hc Ho Hca Hcb Hv.
  destruct (heach_right_taken l p o na x nb ca c cb Hok Ela) as (ks & Hks & Ek & Hkk).
  { rewrite !lenN_app, !lenN_cons. lia. }
  assert (Hna : ~ In a L). { destruct S as (_ & _ & ND). now inversion ND. }
  assert (Etk : rtakeN idx (ca ++ c :: cb) = Ok ca) by (rewrite <- Ela; apply rtakeN_app; reflexivity).
  pose proof held_table as Hlz. pose proof held_pos as Ep.
  destruct r as [rr|]; [|destruct o as [sz|]; [easy|]].
  - specialize (Hrh rr eq_refl). destruct o as [sz|] eqn:Eo; [|easy]. cbn in Ho. specialize (Ht eq_refl).
    specialize (Hlz sz eq_refl). specialize (Ep rr sz eq_refl eq_refl).
    destruct (trep_inv _ _ _ _ _ Ho) as [rc Hr].
    rewrite Hrh. apply xwp_bind. apply xwp_m. apply wp_bind. cbn [view]. apply wp_bind.
    eapply wp_load_table; [exact (at_wipe _ _ _ _ Hr)|]. apply wp_ret.
    apply wp_bind. eapply wp_lift; [rewrite Ep in Hks; exact Hks|].
    eapply wp_hdecs with (L := a :: L) (R := rr :: ca ++ R); [exact Hkk|rewrite Ek; exact Hcb| |].
    { rewrite Ek. eapply st_eqv; [|exact S]. intros y. unfold split_ptrs. cbn. rewrite !occ_app. cbn. rewrite !occ_app. lia. }
    intros h2 (S2 & M2 & _). apply xwp_bind.
    eapply xwp_ensure_relaxed; [exact S2|eapply mv_local; [exact M2|now left|exact Hc]|eapply mv_trep; [exact M2|now left|exact Ho]
      |cbn; apply rtakeN_len; lia| |congruence].
    intros d h1 sz1 S1 Hc1 Hd1 Ez _ _ M1.
    assert (HdL : ~ In d L /\ d <> a).
    { destruct S1 as (_ & _ & ND). inversion ND as [|? ? Hn1 ND1]; subst. split; intros H; apply Hn1; [now right|now left]. }
    destruct HdL as [HdL Hda]. apply xwp_m. apply wp_bind.
    assert (Ht1 : rtakeN idx sz1 = Ok (takeN idx sz)).
    { destruct Ez as [->| ->]; [apply rtakeN_len; lia|]. apply rtakeN_all. rewrite lenN_takeN. lia. }
    eapply wp_cut_sizes; [exact S1|now left|exact Hd1|exact Ht1|]. intros h3 (S3 & Hd3 & F3 & M3). apply wp_bind.
    eapply wp_cut_kids; [exact S3|right; now left| |exact Etk|].
    { unfold cell_at. rewrite F3 by auto. exact Hc1. }
    intros h4 (S4 & Hc4 & F4 & M4). apply wp_ret.
    assert (M14 : mv (Some (ca ++ R)) L (a :: L) (d :: a :: L) h h4).
    { eapply mv_trans; [eapply mv_tail, mv_sub; [exact M2|intros y Hy; now right]|].
      eapply mv_trans; [exact M1|]. apply mv_all.
      eapply mv_trans; [apply M3; exact HdL|apply M4; exact Hna]. }
    destruct (pub_rel L h4 R a d ca (lv1 (na ++ x :: nb)) (takeN idx sz) na) as (S5 & M5 & Hn5).
    + exact S4.
    + exact Hc4.
    + unfold cell_at. rewrite F4; [exact Hd3|auto].
    + symmetry. exact Hv.
    + eapply mv_nreps; [exact M14| |exact Hca]. intros y Hy. apply in_or_app. now left.
    + cbn [ocut]. rewrite app_nil_r. split; [reflexivity|]. split; [exact S5|]. split; [|exact Hn5].
      eapply mv_trans; [eapply mv_sub; [exact M14|]; intros y Hy; apply in_or_app; now right|now apply mv_all].
  - match goal with |- xwp _ ?q _ ?P ?E => assert (W : forall q', q' = xm (ks <~ mlift (heach_right B BL l (blank p) cs (idx + 1)) ;;
                 _ <~ hdecs B BL l ks ;; _ <~ cut_kids a idx ;; mret out) -> xwp t q' h P E) end.
    { intros q' ->. apply xwp_m. apply wp_bind. eapply wp_lift; [exact Hks|]. apply wp_bind.
      eapply wp_hdecs with (L := a :: L) (R := ca ++ R); [exact Hkk|rewrite Ek; exact Hcb| |].
      { rewrite Ek. eapply st_eqv; [|exact S]. intros y. unfold split_ptrs. cbn. rewrite !occ_app. cbn. lia. }
      intros h2 (S2 & M2 & _). apply wp_bind.
      eapply wp_cut_kids; [exact S2|now left|eapply mv_local; [exact M2|now left|exact Hc]|exact Etk|].
      intros h3 (S3 & Hc3 & F3 & M3). apply wp_ret.
      assert (M23 : mv (Some (ca ++ R)) L (a :: L) (a :: L) h h3).
      { eapply mv_trans; [eapply mv_tail; exact M2|]. apply mv_all. apply M3. exact Hna. }
      destruct (pub_inner L h3 R a None ca None na) as (S4 & M4 & Hn4 & _).
      + exact S3.
      + exact Hc3.
      + exact I.
      + eapply mv_nreps; [exact M23| |exact Hca]. intros y Hy. apply in_or_app. now left.
      + split; [reflexivity|]. split; [exact S4|]. split; [|exact Hn4].
        eapply mv_trans; [eapply mv_sub; [exact M23|]; intros y Hy; apply in_or_app; now right|now apply mv_all]. }
    apply W. destruct hp; try reflexivity. specialize (Hhr _ _ eq_refl). discriminate.
Qed.
End Held.

Lemma app_same {A} (u u' : list A) y y' w w' : lenN u = lenN u' -> u ++ y :: w = u' ++ y' :: w' -> u = u' /\ y = y' /\ w = w'.
Proof.
  intros El E. apply lenN_eq in El. revert u' El E. induction u as [|z u IH]; intros [|z' u'] El E; cbn in *; try discriminate.
  - injection E as -> ->. auto.
  - injection E as -> E. injection El as El. destruct (IH _ El E) as (-> & -> & ->). auto.
Qed.

(** Undoing the result of the child when the copy of the node could not be made. *)
Lemma wp_slice_undo l hp p o na x nb a L h R nx nr last i j ts xs :
  haddr hp = Ok a -> prel L h hp p -> pos_ok (S l) p (Inner o (na ++ x :: nb)) -> addr B BL (S l) p last i -> i = csize na + j ->
  (is_rel (Inner o (na ++ x :: nb)) = false -> csize na = lenN na * span l) ->
  st L h (ts :: oroot nx ++ R) -> nrep L h ts (Leaf xs) -> 0 < lenN xs <= lwidth -> orel L h nx nr ->
  match nr with Some (w, cn) => wf l cn /\ (1 <= l)%nat /\ nsize cn + lenN xs = j + 1 /\
       (is_rel (Inner o (na ++ x :: nb)) = false -> is_rel cn = false) | None => True end ->
  wp (_ <~ match nx with
           | Some (_, c) =>
               match l with
               | O => mub
               | S _ =>
                   match hp with
                   | HRel _ _ =>
                       p' <~ view hp ;;
                       sb <~ mlift (size_before B BL (S l) p' (lenN na)) ;;
                       dec_inner B BL l c (last + 1 - lenN xs - sb)
                   | _ => dec_regular B BL l c (last + 1 - lenN xs)
                   end
               end
           | None => mret tt
           end ;;
      dec_leaf B BL ts (lenN xs)) h (fun _ h' => st L h' R /\ mv (Some R) L L L h h').
Proof.
  intros Ea Hp Hok Had Ei Hcz S Htl Hx Hor Hnr. apply wp_bind.
  assert (G : forall h1, st L h1 (ts :: R) -> mv (Some (ts :: R)) L L L h h1 ->
     wp (dec_leaf B BL ts (lenN xs)) h1 (fun _ h' => st L h' R /\ mv (Some R) L L L h h')).
  { intros h1 S1 M1. eapply wp_dec_leaf; [exact S1|eapply mv_nrep; [exact M1|now left|exact Htl]|exact Hx|].
    intros h2 (S2 & M2 & _). split; [exact S2|]. eapply mv_trans; [eapply mv_sub; [exact M1|intros y Hy; now right]|exact M2]. }
  destruct nx as [[w c]|], nr as [[w' cn]|]; try easy; cbn [oroot app] in *.
  2:{ apply wp_ret. apply G; [exact S|apply mv_refl]. }
  destruct Hor as [_ Hcn]. destruct Hnr as (Hwc & Hl & Hsz & Hrel). destruct l as [|l']; [lia|].
  destruct (prel_cases _ _ _ _ _ _ _ _ _ Hp Ea Hok) as (rc & rr & cs & o' & ns' & E & Hc & Ho & Hcs & El & Hcase).
  injection E as <- <-. destruct Hcase as [(rt & sz & -> & -> & -> & ->)|(-> & -> & Hh & _ & Hnrel)].
  - cbn in Had. subst last. apply wp_bind. eapply wp_view; [exact Hp|]. apply wp_bind. eapply wp_lift.
    { rewrite size_before_blank. apply (size_before_ok B BL _ _ _ na x nb Hok); reflexivity. }
    replace (i + 1 - lenN xs - csize na) with (nsize cn) by lia.
    eapply wp_dec_inner with (R := ts :: R); [eapply st_eqv; [|exact S]; intros y; cbn; lia|exact Hcn|exact Hwc|].
    intros h1 (S1 & M1 & _). now apply G.
  - match goal with |- wp ?q _ ?P => assert (W : wp (dec_regular B BL (Datatypes.S l') c (last + 1 - lenN xs)) h P) end.
    { specialize (Hrel Hnrel). specialize (Hcz Hnrel).
      assert (Had' : last mod span (Datatypes.S (Datatypes.S l')) = i).
      { inversion Hok; subst; cbn in Had; try exact Had. }
      rewrite span_S in Had'. pose proof (wf_size _ _ _ _ Hwc) as Hb.
      destruct (slice_reg_size (Datatypes.S l') last _ i j (nsize cn) (lenN xs) (lenN na) Had') as [H1 H2]; [lia|exact Hsz|lia|].
      eapply wp_hdec_kid with (R := ts :: R) (n := cn); [eapply st_eqv; [|exact S]; intros y; cbn; lia|exact Hcn| |].
      - exists (PReg cn (last + 1 - lenN xs)). split; [|now constructor]. cbn. unfold mk_reg.
        destruct (N.eqb_spec (last + 1 - lenN xs) 0); [lia|reflexivity].
      - intros h1 (S1 & M1 & _). now apply G. }
    destruct hp; try exact W. inversion Hp; subst. inversion Hok; subst; discriminate.
Qed.

Theorem hslice_right_ok : 1 <= B -> forall v col m hp p n a last i nr ts tn L h R,
  haddr hp = Ok a -> st L h (own m a ++ R) -> prel L h hp p -> pos_ok v p n -> addr B BL v p last i -> i < nsize n ->
  (m = true -> is_rel n = true -> t = false) -> slice_right B BL col v p last = Ok (nr, ts, tn) ->
  xwp t (hslice_right B BL col m v hp last) h (spost m R L h nr ts tn) (back L h (own m a ++ R)).
Proof.
  intros HB. induction v as [|l IH]; intros col m hp p n a last i nr ts tn L h R Ea S Hp Hok Had Hi Hm Hu.
  - (* leaf *)
    destruct (leaf_index _ _ _ _ _ _ Hok Had Hi) as (xs & -> & Hidx & Hlt).
    cbn [VecHeap.hslice_right slice_right] in *.
    pose proof (prel_nrep _ _ _ _ _ _ Hp Ea (pos_ok_node _ _ _ _ _ Hok)) as Hn.
    destruct (nrep_leaf_inv _ _ _ _ Hn) as [rc Hc].
    rewrite (pos_ok_node _ _ _ _ _ Hok), (count_ok _ _ _ _ _ Hok), Hidx in Hu. cbn [rbind ncount] in Hu.
    apply xwp_bind. apply xwp_m. eapply wp_lift; [exact Ea|]. apply xwp_bind. apply xwp_m. eapply wp_view; [exact Hp|].
    match goal with |- xwp t (xbind _ ?k) _ _ _ =>
      assert (CP : forall u, (i + 1 =? lenN xs = true \/ m && u = false) -> xwp t (k u) h (spost m R L h nr ts tn) (back L h (own m a ++ R))) end.
    { intros u Hcase. apply xwp_bind. apply xwp_m. eapply wp_lift; [rewrite count_blank; apply (count_ok _ _ _ _ _ Hok)|].
      apply xwp_bind. apply xwp_m. eapply wp_lift; [rewrite index_blank; exact Hidx|]. cbn [ncount].
      destruct (i + 1 =? lenN xs) eqn:E.
      - injection Hu as <- <- <-. apply xwp_bind. apply xwp_m. destruct m; cbn [negb mwhen own app] in *.
        + apply wp_ret. apply xwp_ret. split; [reflexivity|]. split; [exact S|]. split; [apply mv_refl|]. split; [exact Hn|exact I].
        + apply wv_inc with (L := L) (R := R); [exact S|eexists; exact Hc|]. intros h1 S1 M1. apply xwp_ret.
          split; [reflexivity|]. split; [exact S1|]. split; [exact M1|]. split; [|exact I].
          eapply mv_nrep; [exact M1|exact I|exact Hn].
      - destruct Hcase as [Hcase|Hcase]; [discriminate|]. rewrite Hcase.
        unfold copy_leaf in Hu. cbn [leaf_of rbind] in Hu. apply N.eqb_neq in E.
        rewrite rtakeN_len in Hu by lia. cbn [rbind] in Hu. injection Hu as <- <- <-.
        apply xwp_bind. eapply xwp_copy_leaf; [exact S|exact Hn|apply rtakeN_len; lia| |].
        + intros b h1 S1 Hb Hb1 M1. apply xwp_bind. apply xwp_m.
          destruct (pub_leaf _ _ _ _ _ S1 Hb1) as (S2 & M2 & Hn2).
          assert (M12 : mv None L L L h h1) by (eapply mv_trans; eauto).
          eapply wp_when_dec with (R := b :: R) (L := L); [exact Ea| |eapply mv_prel; [exact M12|exact Ea|exact I|exact Hp]|exact Hok|].
          * eapply st_eqv; [|exact S2]. intros y. cbn. rewrite ?occ_app. cbn. lia.
          * intros h3 S3 M3. apply xwp_ret. split; [reflexivity|]. split; [exact S3|]. split; [|split; [|exact I]].
            -- destruct m; cbn [keep] in *.
               ++ eapply mv_trans; [apply mv_all; exact M12|]. eapply mv_sub; [exact M3|]. intros y Hy. now right.
               ++ eapply mv_trans; [exact M12|exact M3].
            -- eapply mv_nrep; [exact (mv_keep _ _ _ _ _ _ _ M3)|now left|exact Hn2].
        + intros h1 _ S1 M1. split; [exact S1|now apply mv_all]. }
    apply xwp_bind. apply xwp_m. eapply wv_unique; [exact S|exact Hc| |]; cbn [c_rc].
    2:{ intros _. apply CP. right. apply andb_false_r. }
    intros ->. destruct (i + 1 =? lenN xs) eqn:E; [apply CP; now left|]. destruct m; [|apply CP; now right]. clear CP.
    apply xwp_bind. apply xwp_m. eapply wp_lift; [rewrite count_blank; apply (count_ok _ _ _ _ _ Hok)|].
    apply xwp_bind. apply xwp_m. eapply wp_lift; [rewrite index_blank; exact Hidx|]. cbn [ncount]. rewrite E.
    unfold copy_leaf in Hu. cbn [leaf_of rbind] in Hu. apply N.eqb_neq in E.
    rewrite rtakeN_len in Hu by lia. cbn [rbind] in Hu. injection Hu as <- <- <-. cbn [andb own app keep] in *.
    destruct (sv_take _ _ _ _ _ S Hc eq_refl) as (S1 & Ha & Hc1 & M1). cbn [c_kids app] in S1, M1.
    apply xwp_bind. apply xwp_m. unfold destroy_right. apply wp_bind. eapply wp_load_leaf; [exact Hc1|].
    rewrite N.eqb_refl. apply wp_bind. eapply wp_lift; [apply rtakeN_len; lia|].
    eapply wp_put_leaf; [exact S1|now left|exact Hc1|]. intros h2 (S2 & Hc2 & F2 & M2). apply xwp_ret.
    destruct (pub_leaf _ _ _ _ _ S2 Hc2) as (S3 & M3 & Hn3).
    split; [reflexivity|]. split; [exact S3|]. split; [|split; [exact Hn3|exact I]].
    eapply mv_trans; [exact M1|]. apply mv_all. eapply mv_trans; [apply M2; exact Ha|exact M3].
  - (* inner *)
    cbn [VecHeap.hslice_right slice_right] in *.
    pose proof (pos_ok_wf _ _ _ _ _ Hok) as Hw.
    destruct (prel_cases _ _ _ _ _ _ _ _ _ Hp Ea Hok) as (rc & r & cs & o & ns & -> & Hc & Ho & Hcs & El & Hcase).
    pose proof (prel_nrep _ _ _ _ _ _ Hp Ea (pos_ok_node _ _ _ _ _ Hok)) as Hn.
    destruct (towards_ok B BL l p _ last i Hok Had Hi)
      as (na & x & nb & j & Ek & Ei & Hj & Hwx & Hidx & (q & last' & Et & Hq & Haq) & Hnr).
    cbn [kids] in Ek. subst ns.
    destruct (htowards_ok B BL l p _ cs last (lenN na) q last' Hok El Et) as (kd & Hkd & Hpick).
    destruct Hpick as (ca & c & cb & na' & x' & nb' & -> & En & Eca & Ena & Eaddr & Ekp & _).
    cbn [kids] in En. apply app_same in En; [|now symmetry]. destruct En as (<- & <- & <-).
    assert (Ecb : lenN cb = lenN nb) by (rewrite !lenN_app, !lenN_cons in El; lia).
    assert (Hhr : forall b rr, hp = HRel b rr -> r = Some rr).
    { intros b rr ->. destruct Hcase as [(r0 & sz & -> & _ & E & _)|(_ & _ & Hh & _)]; [congruence|].
      specialize (Hh _ (fun _ => true) false). discriminate. }
    assert (Hrh : forall rr, r = Some rr -> hp = HRel a rr).
    { intros rr ->. destruct Hcase as [(r0 & sz & E & _ & -> & _)|(E & _)]; [congruence|discriminate]. }
    assert (Ein : pinner p = Ok (na ++ x :: nb)) by (unfold pinner; rewrite (pos_ok_node _ _ _ _ _ Hok); reflexivity).
    destruct (F2_mid _ _ _ _ _ _ _ Eca Hcs) as (Hca & Hcx & Hcb).
    rewrite Hidx in Hu. cbn [rbind] in Hu. rewrite Et in Hu. cbn [rbind] in Hu.
    assert (Hmx : m = true -> is_rel x = true -> t = false).
    { intros E1 E2. destruct (is_rel (Inner o (na ++ x :: nb))) eqn:E3; [now apply Hm|].
      rewrite (nonrel_child _ _ _ _ na x nb Hw E3 eq_refl) in E2. discriminate. }
    assert (Hcz : is_rel (Inner o (na ++ x :: nb)) = false -> csize na = lenN na * span l) by (intros E; apply (Hnr E)).
    (* the value of the child's slice *)
    set (mine := fun (nx : option (nat * node T)) (tsx : N) (tlx : node T) =>
       match nx with
       | Some (_, cn) => (nr, ts, tn) = (Some (Datatypes.S l, Inner (ocut o (lenN na) [last + 1 - tsx]) (na ++ [cn])), tsx, tlx)
       | None => if lenN na =? 0 then (nr, ts, tn) = (None, tsx, tlx)
                 else if col && (lenN na =? 1) && match l with O => false | _ => true end then
                   exists x0, na = [x0] /\ (nr, ts, tn) = (Some (l, x0), tsx, tlx)
                 else (nr, ts, tn) = (Some (Datatypes.S l, Inner (ocut o (lenN na) []) na), tsx, tlx)
       end).
    assert (HV : if col && (lenN na =? 0) then slice_right B BL true l q last' = Ok (nr, ts, tn)
                 else exists nx xs, slice_right B BL false l q last' = Ok (nx, lenN xs, Leaf xs) /\ 0 < lenN xs <= lwidth /\
                   match nx with Some (w, cn) => w = l /\ wf l cn /\ (1 <= l)%nat /\ nsize cn + lenN xs = j + 1 /\
                      (is_rel (Inner o (na ++ x :: nb)) = false -> is_rel cn = false) | None => True end /\
                   mine nx (lenN xs) (Leaf xs)).
    { destruct (col && (lenN na =? 0)) eqn:E0; [exact Hu|].
      destruct (slice_right_ok B BL false l q x last' j HB Hq Haq Hj) as (nx & xs & E & Hxs & Htk & Hnx).
      exists nx, xs. split; [exact E|]. split; [exact Hxs|]. rewrite E in Hu. cbn [rbind] in Hu. rewrite Ein in Hu. cbn [rbind] in Hu.
      assert (Etk : forall (A : list (node T)), rtakeN (lenN na) (na ++ A) = Ok na) by (intros A; apply rtakeN_app; reflexivity).
      assert (Hsz : forall sz, o = Some sz -> rtakeN (lenN na) sz = Ok (takeN (lenN na) sz)).
      { intros sz ->. apply rtakeN_len. destruct Hw as (_ & _ & Hz). rewrite Hz, lenN_sums, lenN_map, lenN_app. lia. }
      assert (Hp2 : (exists sz nn, p = PRel nn sz /\ o = Some sz) \/ (o = None /\ forall A (f : list N -> A) y, match p with PRel _ sz => f sz | _ => y end = y)).
      { destruct Hcase as [(r0 & sz & _ & -> & _ & ->)|(_ & -> & _ & Hpp & _)]; [left; eauto|right; auto]. }
      destruct nx as [[w cn]|].
      - destruct Hnx as (Hwc & Hwl & Hwe & Hrc). specialize (Hwe eq_refl). subst w. split.
        { split; [reflexivity|]. split; [exact Hwc|]. split; [lia|]. split.
          - assert (lenN (takeN (j + 1) (elems x)) = j + 1) as Hlt by (rewrite lenN_takeN, lenN_elems; lia).
            rewrite Htk, lenN_app, lenN_elems in Hlt. exact Hlt.
          - intros Hrl. apply Hrc. exact (nonrel_child _ _ _ _ na x nb Hw Hrl eq_refl). }
        unfold mine. rewrite Etk in Hu. cbn [rbind] in Hu. destruct Hp2 as [(sz & nn & -> & ->)|(-> & Hpp)].
        + rewrite (Hsz _ eq_refl) in Hu. cbn [rbind] in Hu. injection Hu as <- <- <-. reflexivity.
        + rewrite Hpp in Hu. injection Hu as <- <- <-. reflexivity.
      - split; [exact I|]. unfold mine. destruct (lenN na =? 0) eqn:E1; [injection Hu as <- <- <-; reflexivity|].
        destruct (col && (lenN na =? 1) && match l with O => false | _ => true end) eqn:E2.
        + apply andb_true_iff in E2 as [E2 _]. apply andb_true_iff in E2 as [_ E2]. apply N.eqb_eq in E2.
          destruct na as [|x0 [|? ?]]; [discriminate| |rewrite !lenN_cons in E2; lia].
          cbn [app] in Hu. change (rnthN (x0 :: x :: nb) 0) with (Ok x0) in Hu. cbn [rbind] in Hu. injection Hu as <- <- <-. eauto.
        + rewrite Etk in Hu. cbn [rbind] in Hu. destruct Hp2 as [(sz & nn & -> & ->)|(-> & Hpp)].
          * rewrite (Hsz _ eq_refl) in Hu. cbn [rbind] in Hu. injection Hu as <- <- <-. cbn [ocut]. rewrite app_nil_r. reflexivity.
          * rewrite Hpp in Hu. injection Hu as <- <- <-. reflexivity. }
    clear Hu.
    apply xwp_bind. apply xwp_m. eapply wp_lift; [exact Ea|]. apply xwp_bind. apply xwp_m. eapply wp_view; [exact Hp|].
    match goal with |- xwp t (xbind _ ?k) _ _ _ =>
      assert (CP : forall u, m && u = false -> (m = true -> 1 < rc)%nat -> xwp t (k u) h (spost m R L h nr ts tn) (back L h (own m a ++ R))) end.
    { intros u -> Hrc. apply xwp_bind. apply xwp_m. eapply wp_lift; [rewrite index_blank; exact Hidx|].
      apply xwp_bind. apply xwp_m. eapply wp_load_inner; [apply (at_wipe _ _ _ _ Hc)|].
      apply xwp_bind. apply xwp_m. eapply wp_lift; [exact Hkd|].
      apply xwp_bind. apply xwp_m. eapply wp_open with (k := kd); [rewrite Eaddr; exact Hcx|exact Ekp|]. intros hq Ehq Hhq.
      (* releasing the node, which others refer to *)
      assert (DS : forall k R0 h1 (Q : unit -> heap -> Prop), st L h1 (own m a ++ R0) -> mv None L L L h h1 -> (forall y, (occ y R <= occ y R0)%nat) ->
         (forall h2, st L h2 R0 -> mv None L L L h1 h2 -> Q tt h2) -> wp (mwhen m (dec_right B BL l hp k)) h1 Q).
      { intros k R0 h1 Q S1 M1 Ho1 K. destruct m; cbn [mwhen own app] in *; [|apply wp_ret; apply K; [exact S1|apply mv_refl]].
        destruct (mv_cell _ _ _ _ _ _ _ _ M1 I Hc) as (c1 & Hc1 & _).
        eapply wp_dec_right_shared; [exact Ea|exact S1|exact Hc1| |exact K].
        specialize (Hrc eq_refl). assert (c_rc (icell rc r (ca ++ c :: cb) : cell) <= c_rc c1)%nat as Hle; [|cbn in Hle; lia].
        eapply mv_count; [exact S|exact S1|exact M1| |exact Hc|exact Hc1]. intros y. cbn. specialize (Ho1 y). lia. }
      destruct (col && (lenN na =? 0)) eqn:E0.
      - apply xwp_bind. eapply xwp_mono; [eapply IH with (m := false) (R := own m a ++ R) (n := x);
          [exact Ehq|exact S|exact Hhq|exact Hq|exact Haq|exact Hj|discriminate|exact HV]| |].
        + intros [[nx tsx] tlx] h1 (-> & S1 & M1 & Htl & Hor). cbn [keep] in M1. apply xwp_bind. apply xwp_m.
          eapply DS with (R0 := tlx :: oroot nx ++ R); [|exact M1|intros y; cbn; rewrite occ_app; lia|].
          * eapply st_eqv; [|exact S1]. intros y. cbn [occ]. rewrite ?occ_app. cbn [occ]. rewrite ?occ_app. lia.
          * intros h2 S2 M2. apply xwp_ret. split; [reflexivity|]. split; [exact S2|].
            split; [|split].
            -- destruct m; [apply mv_all|]; (eapply mv_trans; [exact M1|exact M2]).
            -- eapply mv_nrep; [exact M2|exact I|exact Htl].
            -- destruct nx as [[w b]|], nr as [[w' n']|]; cbn in Hor |- *; try easy.
               destruct Hor as [-> Hb]. split; [reflexivity|]. eapply mv_nrep; [exact M2|exact I|exact Hb].
        + intros h1 Hb. exact Hb.
      - destruct HV as (nx & xs & EV & Hxs & Hnx & Hmine). apply xwp_bind.
        eapply xwp_mono; [eapply IH with (m := false) (R := own m a ++ R) (n := x);
          [exact Ehq|exact S|exact Hhq|exact Hq|exact Haq|exact Hj|discriminate|exact EV]| |].
        2:{ intros h1 Hb. exact Hb. }
        intros [[o1 ts1] tl1] h1 (-> & S1 & M1 & Htl & Hor). cbn [keep] in M1. apply xwp_try.
        assert (Hp1 : prel L h1 hp p) by (eapply mv_prel; [exact M1|exact Ea|exact I|exact Hp]).
        assert (UN : forall h2, st L h2 (oroot o1 ++ own m a ++ tl1 :: R) -> mv None L L L h1 h2 ->
          wp (_ <~ match o1 with
           | Some (_, c) =>
               match l with
               | O => mub
               | Datatypes.S _ =>
                   match hp with
                   | HRel _ _ =>
                       p' <~ view hp ;;
                       sb <~ mlift (size_before B BL (Datatypes.S l) p' (lenN na)) ;;
                       dec_inner B BL l c (last + 1 - lenN xs - sb)
                   | _ => dec_regular B BL l c (last + 1 - lenN xs)
                   end
               end
           | None => mret tt
           end ;;
           dec_leaf B BL tl1 (lenN xs)) h2 (fun _ h' => back L h (own m a ++ R) h')).
        { intros h2 S2 M2.
          assert (Hw1 : wp (_ <~ match o1 with
           | Some (_, c) =>
               match l with
               | O => mub
               | Datatypes.S _ =>
                   match hp with
                   | HRel _ _ =>
                       p' <~ view hp ;;
                       sb <~ mlift (size_before B BL (Datatypes.S l) p' (lenN na)) ;;
                       dec_inner B BL l c (last + 1 - lenN xs - sb)
                   | _ => dec_regular B BL l c (last + 1 - lenN xs)
                   end
               end
           | None => mret tt
           end ;;
           dec_leaf B BL tl1 (lenN xs)) h2 (fun _ h' => st L h' (own m a ++ R) /\ mv (Some (own m a ++ R)) L L L h2 h')).
          { eapply wp_slice_undo with (nr := nx); [exact Ea| |exact Hok|exact Had|exact Ei|exact Hcz| | |exact Hxs| |].
            - eapply mv_prel; [exact M2|exact Ea|exact I|exact Hp1].
            - eapply st_eqv; [|exact S2]. intros y. cbn [occ]. rewrite ?occ_app. cbn [occ]. rewrite ?occ_app. lia.
            - eapply mv_nrep; [exact M2|exact I|exact Htl].
            - destruct o1 as [[w b]|], nx as [[w' n']|]; cbn in Hor |- *; try easy.
              destruct Hor as [-> Hb]. split; [reflexivity|]. eapply mv_nrep; [exact M2|exact I|exact Hb].
            - destruct nx as [[w n']|]; [|exact I]. destruct Hnx as (_ & H1 & H2 & H3 & H4). auto. }
          eapply wp_mono; [exact Hw1|]. intros _ h3 (S3 & M3). split; [exact S3|].
          eapply mv_trans; [apply mv_all; exact M1|]. eapply mv_trans; [apply mv_all; exact M2|exact M3]. }
        assert (Epost : forall o2 tl2 h2, spost m (tl2 :: R) L h1 nr ts tn (o2, lenN xs, tl2) h2 -> True) by auto. clear Epost.
        destruct o1 as [[w b]|], nx as [[w' cn]|]; try easy; cbn [orel oroot app] in *.
        + (* a child *)
          destruct Hor as [-> Hb]. unfold mine in Hmine. injection Hmine as -> -> ->.
          eapply xwp_mono; [eapply (xwp_copy_node l m L h1 (tl1 :: R) hp p a o (na ++ x :: nb) (lenN na) [b] [cn] [last + 1 - lenN xs]
            (fun n => (Some (Datatypes.S l, n), lenN xs, tl1)));
            [exact Ea| |exact Hp1|exact Hok|constructor; [exact Hb|constructor]|apply (lv1_cut B BL); [exact (wf_kids _ _ _ _ Hw)|apply Hnx]|rewrite lenN_app; lia]| |].
          * eapply st_eqv; [|exact S1]. intros y. cbn [occ app]. rewrite ?occ_app. cbn [occ]. rewrite ?occ_app. lia.
          * intros res h2 (b2 & -> & S2 & M2 & Hn2). rewrite takeN_app in Hn2.
            split; [reflexivity|]. split; [eapply st_eqv; [|exact S2]; intros y; cbn; lia|]. split; [|split; [|split; [reflexivity|exact Hn2]]].
            -- destruct m; cbn [keep] in *.
               ++ eapply mv_trans; [apply mv_all; exact M1|]. eapply mv_sub; [exact M2|]. intros y Hy. now right.
               ++ eapply mv_trans; [exact M1|exact M2].
            -- eapply mv_nrep; [exact (mv_keep _ _ _ _ _ _ _ M2)|now left|exact Htl].
          * intros h2 (S2 & M2). apply UN; [exact S2|exact M2].
        + (* no child *)
          unfold mine in Hmine. destruct (lenN na =? 0) eqn:E1.
          { injection Hmine as -> -> ->. apply xwp_m. apply wp_bind.
            eapply DS with (R0 := tl1 :: R); [|exact M1|intros y; cbn; lia|].
            - eapply st_eqv; [|exact S1]. intros y. cbn [occ]. rewrite ?occ_app. cbn [occ]. lia.
            - intros h2 S2 M2. apply wp_ret. split; [reflexivity|]. split; [exact S2|]. split; [|split; [|exact I]].
              + destruct m; [apply mv_all|]; (eapply mv_trans; [exact M1|exact M2]).
              + eapply mv_nrep; [exact M2|exact I|exact Htl]. }
          destruct (col && (lenN na =? 1) && match l with O => false | _ => true end) eqn:E2.
          { destruct Hmine as (x0 & -> & Hmine). injection Hmine as -> -> ->.
            destruct ca as [|c0 [|? ?]]; try (rewrite ?lenN_cons in Eca; cbn in Eca; lia). cbn [app] in *.
            destruct (mv_cell _ _ _ _ _ _ _ _ M1 I Hc) as ([rc1 b1 ks1] & Hc1 & Eb1 & Ek1). cbn in Eb1, Ek1. subst b1 ks1.
            change (cell_at (wipe L h1) a (icell rc1 r (c0 :: c :: cb))) in Hc1.
            inversion Hca as [|? ? ? ? Hc0 _]; subst.
            apply xwp_m. apply wp_bind. eapply wp_load_inner; [apply (at_wipe _ _ _ _ Hc1)|].
            apply wp_bind. eapply wp_lift; [reflexivity|]. apply wp_bind. cbn [negb mwhen].
            assert (Hc01 : nrep L h1 c0 x0) by (eapply mv_nrep; [exact M1|exact I|exact Hc0]).
            eapply wv_inc; [exact S1|eapply srep_live; exact Hc01|]. intros h2 S2 M2. apply wp_bind.
            assert (M12 : mv None L L L h h2) by (eapply mv_trans; eauto).
            eapply DS with (R0 := tl1 :: c0 :: R); [|exact M12|intros y; cbn; lia|].
            - eapply st_eqv; [|exact S2]. intros y. cbn [occ]. rewrite ?occ_app. cbn [occ]. lia.
            - intros h3 S3 M3. apply wp_ret. split; [reflexivity|]. split; [exact S3|]. split; [|split; [|split; [reflexivity|]]].
              + destruct m; [apply mv_all|]; (eapply mv_trans; [exact M12|exact M3]).
              + eapply mv_nrep; [exact M3|exact I|]. eapply mv_nrep; [exact M2|exact I|exact Htl].
              + eapply mv_nrep; [exact M3|exact I|]. eapply mv_nrep; [exact M2|exact I|exact Hc01]. }
          injection Hmine as -> -> ->.
          eapply xwp_mono; [eapply (xwp_copy_node l m L h1 (tl1 :: R) hp p a o (na ++ x :: nb) (lenN na) [] [] []
            (fun n => (Some (Datatypes.S l, n), lenN xs, tl1)));
            [exact Ea| |exact Hp1|exact Hok|constructor| |rewrite lenN_app; lia]| |].
          * eapply st_eqv; [|exact S1]. intros y. cbn [occ app]. rewrite ?occ_app. cbn [occ]. lia.
          * rewrite app_nil_r. apply (lv1_take B BL); [exact (wf_kids _ _ _ _ Hw)|apply N.eqb_neq in E1; lia|rewrite lenN_app, lenN_cons; lia].
          * intros res h2 (b2 & -> & S2 & M2 & Hn2). rewrite takeN_app, app_nil_r in Hn2.
            split; [reflexivity|]. split; [eapply st_eqv; [|exact S2]; intros y; cbn; lia|]. split; [|split; [|split; [reflexivity|exact Hn2]]].
            -- destruct m; cbn [keep] in *.
               ++ eapply mv_trans; [apply mv_all; exact M1|]. eapply mv_sub; [exact M2|]. intros y Hy. now right.
               ++ eapply mv_trans; [exact M1|exact M2].
            -- eapply mv_nrep; [exact (mv_keep _ _ _ _ _ _ _ M2)|now left|exact Htl].
          * intros h2 (S2 & M2). apply UN; [exact S2|exact M2]. }
    apply xwp_bind. apply xwp_m. eapply wv_unique; [exact S|exact Hc| |]; cbn [c_rc icell].
    2:{ intros Hrc. apply CP; [apply andb_false_r|auto]. }
    intros ->. destruct m; [|apply CP; [reflexivity|discriminate]]. clear CP.
    cbn [own app andb keep] in *.
    destruct (take_kid _ _ _ _ _ _ _ _ _ _ _ _ S Hc Eca Hn) as (S1 & Ha & Hc1 & M1 & Hx & Hca1 & Hcb1 & Ho1).
    apply xwp_bind. apply xwp_m. eapply wp_lift; [rewrite index_blank; exact Hidx|].
    apply xwp_bind. apply xwp_m. eapply wp_load_inner; [apply (at_wipe _ _ _ _ Hc)|].
    apply xwp_bind. apply xwp_m. eapply wp_lift; [exact Hkd|].
    apply xwp_bind. apply xwp_m. eapply wp_open with (k := kd) (L := a :: L); [rewrite Eaddr; exact Hx|exact Ekp|]. intros hq Ehq Hhq.
    rewrite Eaddr in Ehq.
    assert (BK : forall h1, back (a :: L) h (own true c ++ split_ptrs r ca cb R) h1 -> back L h (a :: R) h1).
    { intros h1 Hb. eapply back_kid; [exact S|exact Hc|exact Eca|exact Hn|exact Hb]. }
    assert (M1R : mv (Some R) L L (a :: L) h h).
    { eapply mv_sub; [exact M1|]. intros y Hy. right. now apply split_incl. }
    (* releasing the node itself *)
    assert (DT : forall k R0 h1 (Q : unit -> heap -> Prop), k = lenN na + 1 -> st (a :: L) h1 (ptrs r cb ++ R0) -> incl R R0 ->
       mv (Some (split_ptrs r ca cb R)) (a :: L) (a :: L) (a :: L) h h1 ->
       (forall h2, st L h2 R0 -> mv (Some R0) L (a :: L) L h1 h2 -> Q tt h2) -> wp (dec_right B BL l hp k) h1 Q).
    { intros k R0 h1 Q -> S2 HR M2 K.
      eapply wp_dec_right_taken with (o := o) (x := x) (nb := nb) (ca := ca) (cb := cb) (r := r) (c := c); [exact Ea|exact Hp|exact Hok|exact Hhr|exact Hrh|exact Eca|exact Ecb|exact S2| | | |exact K].
      - eapply mv_local; [exact M2|now left|exact Hc1].
      - eapply mv_orep; [exact M2| |exact Ho1]. intros y Hy. now apply split_tab.
      - eapply mv_nreps; [exact M2| |exact Hcb1]. intros y Hy. apply split_kids. auto. }
    destruct (col && (lenN na =? 0)) eqn:E0.
    + apply andb_true_iff in E0 as [-> E0]. apply N.eqb_eq in E0. rewrite E0 in *. apply lenN_0 in E0. apply lenN_0 in Eca. subst na ca.
      apply xwp_bind. eapply xwp_mono; [eapply IH with (m := true) (R := split_ptrs r [] cb R) (n := x) (L := a :: L);
          [exact Ehq|exact S1|exact Hhq|exact Hq|exact Haq|exact Hj|exact Hmx|exact HV]| |exact BK].
      intros [[nx tsx] tlx] h1 (-> & S2 & M2 & Htl & Hor). cbn [keep] in M2. apply xwp_bind. apply xwp_m. cbn [mwhen].
      eapply DT with (R0 := tlx :: oroot nx ++ R); [reflexivity| |intros y Hy; right; apply in_or_app; now right|exact M2|].
      * eapply st_eqv; [|exact S2]. intros y. unfold split_ptrs. cbn [occ app]. rewrite ?occ_app. cbn [occ]. rewrite ?occ_app. lia.
      * intros h2 S3 M3. apply xwp_ret. split; [reflexivity|]. split; [exact S3|]. split; [|split].
        -- eapply mv_trans; [exact M1R|]. eapply mv_trans; [eapply mv_tail, mv_sub; [exact M2|apply split_incl]|].
           eapply mv_sub; [exact M3|]. intros y Hy. right. apply in_or_app. now right.
        -- eapply mv_nrep; [exact M3|now left|exact Htl].
        -- destruct nx as [[w b]|], nr as [[w' n']|]; cbn in Hor |- *; try easy.
           destruct Hor as [-> Hb]. split; [reflexivity|]. eapply mv_nrep; [exact M3|right; now left|exact Hb].
    + destruct HV as (nx & xs & EV & Hxs & Hnx & Hmine). apply xwp_bind.
      eapply xwp_mono; [eapply IH with (m := true) (R := split_ptrs r ca cb R) (n := x) (L := a :: L);
          [exact Ehq|exact S1|exact Hhq|exact Hq|exact Haq|exact Hj|exact Hmx|exact EV]| |exact BK].
      intros [[o1 ts1] tl1] h1 (-> & S2 & M2 & Htl & Hor). cbn [keep] in M2. apply xwp_try.
      assert (Hc2 : cell_at h1 a (icell 1 r (ca ++ c :: cb))) by (eapply mv_local; [exact M2|now left|exact Hc1]).
      assert (Ho2 : orep (a :: L) h1 r (lv1 (na ++ x :: nb)) o) by (eapply mv_orep; [exact M2| |exact Ho1]; intros y Hy; now apply split_tab).
      assert (Hca2 : Forall2 (nrep (a :: L) h1) ca na) by (eapply mv_nreps; [exact M2| |exact Hca1]; intros y Hy; apply split_kids; auto).
      assert (Hcb2 : Forall2 (nrep (a :: L) h1) cb nb) by (eapply mv_nreps; [exact M2| |exact Hcb1]; intros y Hy; apply split_kids; auto).
      assert (M12 : mv (Some R) L L (a :: L) h h1).
      { eapply mv_trans; [exact M1R|]. eapply mv_tail, mv_sub; [exact M2|apply split_incl]. }
      destruct o1 as [[w b]|], nx as [[w' cn]|]; try easy; cbn [orel oroot app] in *.
      * destruct Hor as [-> Hb]. unfold mine in Hmine. injection Hmine as -> -> ->.
        eapply xwp_mono; [eapply (xwp_held_some L h l hp p o na x nb a r ca c cb Ea Hp Hok Hhr Hrh Eca Ecb (Hm eq_refl)
             (Some (Datatypes.S l, a), lenN xs, tl1) (last + 1 - lenN xs) b cn L h1 (tl1 :: R)); auto| |intros ? []].
        -- eapply st_eqv; [|exact S2]. intros y. cbn [occ]. rewrite occ_split_cons. cbn [occ]. lia.
        -- apply lv1_mid. rewrite (wf_lvl B BL l cn), (wf_lvl B BL l x); [reflexivity| |apply Hnx]. exact (pos_ok_wf _ _ _ _ _ Hq).
        -- intros res h2 (-> & S3 & M3 & Hn3). split; [reflexivity|]. split; [eapply st_eqv; [|exact S3]; intros y; cbn; lia|].
           split; [|split; [|split; [reflexivity|exact Hn3]]].
           ++ eapply mv_trans; [exact M12|]. eapply mv_sub; [exact M3|]. intros y Hy. now right.
           ++ eapply mv_nrep; [exact M3|now left|exact Htl].
      * unfold mine in Hmine. destruct (lenN na =? 0) eqn:E1.
        { injection Hmine as -> -> ->. apply N.eqb_eq in E1. rewrite E1 in *. apply lenN_0 in E1. apply lenN_0 in Eca. subst na ca.
          apply xwp_m. apply wp_bind. cbn [mwhen].
          eapply DT with (R0 := tl1 :: R); [reflexivity| |intros y Hy; now right|exact M2|].
          - eapply st_eqv; [|exact S2]. intros y. unfold split_ptrs. cbn [occ app]. rewrite ?occ_app. cbn [occ]. lia.
          - intros h2 S3 M3. apply wp_ret. split; [reflexivity|]. split; [exact S3|]. split; [|split; [|exact I]].
            + eapply mv_trans; [exact M12|]. eapply mv_sub; [exact M3|]. intros y Hy. now right.
            + eapply mv_nrep; [exact M3|now left|exact Htl]. }
        destruct (col && (lenN na =? 1) && match l with O => false | _ => true end) eqn:E2.
        { destruct Hmine as (x0 & -> & Hmine). injection Hmine as -> -> ->.
          destruct ca as [|c0 [|? ?]]; try (rewrite ?lenN_cons in Eca; cbn in Eca; lia). cbn [app] in *.
          inversion Hca2 as [|? ? ? ? Hc0 _]; subst.
          apply xwp_m. apply wp_bind. eapply wp_load_inner; [exact Hc2|].
          apply wp_bind. eapply wp_lift; [reflexivity|]. apply wp_bind. cbn [negb mwhen]. apply wp_ret. apply wp_bind.
          eapply DT with (R0 := tl1 :: c0 :: R); [reflexivity| |intros y Hy; right; now right|exact M2|].
          - eapply st_eqv; [|exact S2]. intros y. unfold split_ptrs. destruct r; cbn [occ app ptrs]; rewrite ?occ_app; cbn [occ]; lia.
          - intros h3 S3 M3. apply wp_ret. split; [reflexivity|]. split; [exact S3|]. split; [|split; [|split; [reflexivity|]]].
            + eapply mv_trans; [exact M12|]. eapply mv_sub; [exact M3|]. intros y Hy. right. now right.
            + eapply mv_nrep; [exact M3|now left|exact Htl].
            + eapply mv_nrep; [exact M3|right; now left|exact Hc0]. }
        injection Hmine as -> -> ->.
        eapply xwp_mono; [eapply (xwp_held_none L h l hp p o na x nb a r ca c cb Ea Hp Hok Hhr Hrh Eca Ecb (Hm eq_refl)
             (Some (Datatypes.S l, a), lenN xs, tl1) L h1 (tl1 :: R)); auto| |intros ? []].
        -- eapply st_eqv; [|exact S2]. intros y. rewrite occ_split_cons. cbn [occ]. lia.
        -- symmetry. apply lv1_app. intros ->. discriminate.
        -- intros res h2 (-> & S3 & M3 & Hn3). split; [reflexivity|]. split; [eapply st_eqv; [|exact S3]; intros y; cbn; lia|].
           split; [|split; [|split; [reflexivity|exact Hn3]]].
           ++ eapply mv_trans; [exact M12|]. eapply mv_sub; [exact M3|]. intros y Hy. now right.
           ++ eapply mv_nrep; [exact M3|now left|exact Htl].
Qed.
End SliceR.
