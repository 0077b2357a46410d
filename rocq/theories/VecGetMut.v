(** get_mut_visitor: the element found is in nodes no one else refers to. *)
From Coq Require Import List NArith Arith Bool Lia ZifyN ZifyNat ZifyBool.
From Verif Require Import Common NList Rrb RrbInv RrbPos RrbOps RrbSlice RrbViewOk AtomProofs
  RcHeap RcProofs RcExn RcExnProofs RcMove VecHeap VecPlan VecNodes VecMake.
Import ListNotations.
Local Open Scope N_scope.
Set Default Goal Selector "!".

Section GetMut.
Context {T : Type}.
Variables B BL : N.
Notation body := (vbody T).
Notation heap := (heap body). Notation cell := (cell body).
Notation pos_ok := (@pos_ok T B BL).
Notation wf := (@wf T B BL).
Implicit Types (h : heap) (L R : list nat).

(** From [a] down to the leaf [lf] every node is referred to once; applying [fn] to the element
    [off] of that leaf turns the node [n] into [n']. *)
Inductive upath (fn : T -> T) L h : nat -> nat -> nat -> N -> node T -> node T -> Prop :=
| up_leaf a xs i x : cell_at (wipe L h) a (mkCell 1 (VLeaf xs) []) -> rnthN xs i = Ok x ->
    upath fn L h O a a i (Leaf xs) (Leaf (updN i (fn x) xs))
| up_inner l a r ca c cb o na x x' nb lf off : cell_at (wipe L h) a (icell 1 r (ca ++ c :: cb)) ->
    lenN ca = lenN na -> upath fn L h l c lf off x x' ->
    upath fn L h (S l) a lf off (Inner o (na ++ x :: nb)) (Inner o (na ++ x' :: nb)).

Lemma upath_same fn L L' h h' v a lf off n n' :
  (forall x c, cell_at (wipe L h) x c -> cell_at (wipe L' h') x c) ->
  upath fn L h v a lf off n n' -> upath fn L' h' v a lf off n n'.
Proof. intros H. induction 1; econstructor; eauto. Qed.
Lemma upath_shr fn L0 L L' h h' R R' : shr L L' h h' -> mv (Some R) L0 L L' h h' -> st L' h' R' ->
  forall v a lf off n n', upath fn L h v a lf off n n' -> rch L h R a -> upath fn L' h' v a lf off n n'.
Proof.
  intros Sh M S. pose proof S as ((G & _) & _).
  assert (C : forall x c, rch L h R x -> cell_at (wipe L h) x c -> c_rc c = 1%nat -> cell_at (wipe L' h') x c).
  { intros x c Hr Hc E. pose proof M as (_ & M2 & _). destruct (M2 x c Hr Hc) as (c' & Hc' & Eb & Ek).
    destruct (Sh _ _ Hc') as (c2 & Hc2 & Hle & _). pose proof (cell_fun _ _ _ _ Hc Hc2) as <-.
    specialize (G x). unfold cell_at in Hc'. rewrite Hc' in G. destruct c as [r1 b1 k1], c' as [r2 b2 k2]; cbn in *.
    subst. replace r2 with 1%nat in Hc' by lia. exact Hc'. }
  induction 1 as [a xs i x Hc Hx|l a r ca c cb o na x x' nb lf off Hc El Hp IH]; intros Hr.
  - constructor; [|exact Hx]. now apply C.
  - econstructor; [apply C; [exact Hr|exact Hc|reflexivity]|exact El|]. apply IH.
    destruct Hr as (q & Hq & Hr). exists q. split; [exact Hq|]. eapply reaches_kid; [exact Hr|exact Hc|].
    cbn. destruct r; cbn; [right|]; apply in_or_app; right; now left.
Qed.
Lemma shr_take L h a : shr L (a :: L) h h.
Proof.
  intros x c Hc. destruct (wipe_cell _ _ _ _ Hc) as [Hn Hc']. exists c. split; [|auto].
  apply wipe_at; [|exact Hc']. intros Hi. apply Hn. now right.
Qed.
Lemma F2_mid {A C} (P : A -> C -> Prop) ca c cb na x nb : lenN ca = lenN na ->
  Forall2 P (ca ++ c :: cb) (na ++ x :: nb) -> Forall2 P ca na /\ P c x /\ Forall2 P cb nb.
Proof.
  intros E. apply lenN_eq in E. revert na E. induction ca as [|y ca IH]; intros [|z na] E H; cbn in *; try discriminate.
  - inversion H; auto.
  - inversion H as [|? ? ? ? H1 H2]; subst. destruct (IH na) as (A1 & A2 & A3); [congruence|exact H2|]. auto.
Qed.

(** Writing the element. *)
Definition split_ptrs (r : option nat) (ca cb : list nat) (R : list nat) : list nat := ptrs r (ca ++ cb) ++ R.
Lemma occ_split r ca c cb R x : occ x (ptrs r (ca ++ c :: cb) ++ R) = occ x (c :: split_ptrs r ca cb R).
Proof. unfold split_ptrs. destruct r; cbn; rewrite !occ_app; cbn; rewrite ?occ_app; lia. Qed.
Lemma split_in r ca c cb R x : In x (ptrs r (ca ++ c :: cb) ++ R) <-> x = c \/ In x (split_ptrs r ca cb R).
Proof. unfold split_ptrs. destruct r; cbn; rewrite !in_app_iff; cbn; rewrite ?in_app_iff; intuition. Qed.
Lemma split_incl r ca cb R : incl R (split_ptrs r ca cb R).
Proof. intros x Hx. apply in_or_app. now right. Qed.
Lemma split_kids r ca cb R x : In x ca \/ In x cb -> In x (split_ptrs r ca cb R).
Proof.
  intros H. apply in_or_app. left. destruct r; cbn; [right|]; apply in_or_app; exact H.
Qed.

(** A node taken and put back with one child replaced. *)
Lemma take_kid L h R a r ca c cb o na x nb : st L h (a :: R) -> cell_at (wipe L h) a (icell 1 r (ca ++ c :: cb)) ->
  lenN ca = lenN na -> nrep L h a (Inner o (na ++ x :: nb)) ->
  st (a :: L) h (c :: split_ptrs r ca cb R) /\ ~ In a L /\ cell_at h a (icell 1 r (ca ++ c :: cb)) /\
  mv (Some (c :: split_ptrs r ca cb R)) L L (a :: L) h h /\ nrep (a :: L) h c x /\
  Forall2 (nrep (a :: L) h) ca na /\ Forall2 (nrep (a :: L) h) cb nb /\ orep (a :: L) h r (lv1 (na ++ x :: nb)) o.
Proof.
  intros S Hc El Hn. destruct (sv_take _ _ _ _ _ S Hc eq_refl) as (S' & Ha & Hc' & M). cbn [c_kids icell] in S', M.
  assert (M' : mv (Some (c :: split_ptrs r ca cb R)) L L (a :: L) h h).
  { eapply mv_sub; [exact M|]. intros y Hy. apply split_in. destruct Hy; auto. }
  destruct (nrep_inner_inv _ _ _ _ _ Hn) as (rc & r' & cs & Hc2 & Ho & Hk).
  pose proof (cell_fun _ _ _ _ Hc Hc2) as E.
  assert (r' = r /\ cs = ca ++ c :: cb) as [-> ->].
  { destruct r, r'; cbn in E; injection E; intros; try discriminate; subst; auto. }
  destruct (F2_mid _ _ _ _ _ _ _ El Hk) as (H1 & H2 & H3).
  split; [eapply st_eqv; [|exact S']; intros y; apply occ_split|].
  split; [exact Ha|]. split; [exact Hc'|]. split; [exact M'|]. split.
  { eapply mv_nrep; [exact M'|now left|exact H2]. }
  split; [eapply mv_nreps; [exact M'| |exact H1]; intros y Hy; right; apply split_kids; auto|].
  split; [eapply mv_nreps; [exact M'| |exact H3]; intros y Hy; right; apply split_kids; auto|].
  destruct r, o; cbn [orep] in *; try easy. eapply mv_trep; [exact M'| |exact Ho]. cbn. right. now left.
Qed.
Lemma put_kid_back L h R a r ca c cb o na x nb : st (a :: L) h (c :: split_ptrs r ca cb R) ->
  cell_at h a (icell 1 r (ca ++ c :: cb)) -> nrep (a :: L) h c x ->
  Forall2 (nrep (a :: L) h) ca na -> Forall2 (nrep (a :: L) h) cb nb -> orep (a :: L) h r (lv1 (na ++ x :: nb)) o ->
  st L h (a :: R) /\ mv None L (a :: L) L h h /\ nrep L h a (Inner o (na ++ x :: nb)) /\
  cell_at (wipe L h) a (icell 1 r (ca ++ c :: cb)).
Proof.
  intros S Hc Hx Ha Hb Ho. apply pub_inner.
  - eapply st_eqv; [|exact S]. intros y. symmetry. apply occ_split.
  - exact Hc.
  - exact Ho.
  - apply Forall2_app; [exact Ha|]. constructor; assumption.
Qed.
Lemma mv_orep K L0 L L' h h' r v o : mv K L0 L L' h h' -> (forall x, r = Some x -> kept K x) -> orep L h r v o -> orep L' h' r v o.
Proof. intros M Hk H. destruct r, o; cbn [orep] in *; try easy. eapply mv_trep; [exact M|now apply Hk|exact H]. Qed.
Lemma upath_lvl fn L h v a lf off n n' : upath fn L h v a lf off n n' -> lvl n' = lvl n.
Proof. induction 1; [reflexivity|]. now apply (lv1_mid na x' x nb nb). Qed.
Lemma split_tab r ca cb R x : r = Some x -> In x (split_ptrs r ca cb R).
Proof. intros ->. cbn. now left. Qed.

Lemma wp_write fn v : forall L h b lf off n n' R (Q : unit -> heap -> Prop),
  upath fn L h v b lf off n n' -> st L h (b :: R) -> nrep L h b n ->
  (forall h', st L h' (b :: R) -> mv (Some R) L L L h h' -> nrep L h' b n' -> Q tt h') ->
  wp (xs <~ load_leaf lf ;; x <~ mlift (rnthN xs off) ;; put_leaf lf (updN off (fn x) xs)) h Q.
Proof.
  induction v as [|l IH]; intros L h b lf off n n' R Q Hp S Hn K.
  - inversion Hp as [a xs i x Hc Hx|]; subst.
    destruct (sv_take _ _ _ _ _ S Hc eq_refl) as (S' & Ha & Hc' & M). cbn [c_kids app] in S', M.
    apply wp_bind. eapply wp_load_leaf; [exact Hc'|]. apply wp_bind. eapply wp_lift; [exact Hx|].
    eapply wp_put_leaf; [exact S'|now left|exact Hc'|]. intros h1 (S1 & Hc1 & F1 & M1).
    destruct (pub_leaf _ _ _ _ _ S1 Hc1) as (S2 & M2 & Hn2). apply K; [exact S2| |exact Hn2].
    eapply mv_trans; [exact M|]. apply mv_all. eapply mv_trans; [apply M1; exact Ha|exact M2].
  - inversion Hp as [|l' a r ca c cb o na x x' nb lf' off' Hc El Hpc]; subst.
    destruct (take_kid _ _ _ _ _ _ _ _ _ _ _ _ S Hc El Hn) as (S1 & Ha & Hc1 & M1 & Hx & Hca & Hcb & Ho).
    eapply IH with (L := b :: L) (R := split_ptrs r ca cb R); [|exact S1|exact Hx|].
    + eapply upath_shr; [apply shr_take|exact M1|exact S1|exact Hpc|]. apply rch_root. now left.
    + intros h2 S2 M2 Hx2.
      destruct (put_kid_back L h2 R b r ca c cb o na x' nb) as (S3 & M3 & Hn3 & _).
      * exact S2.
      * eapply mv_local; [exact M2|now left|exact Hc1].
      * exact Hx2.
      * eapply mv_nreps; [exact M2| |exact Hca]. intros y Hy. apply split_kids. auto.
      * eapply mv_nreps; [exact M2| |exact Hcb]. intros y Hy. apply split_kids. auto.
      * rewrite (lv1_mid na x' x nb nb) by (eapply upath_lvl; exact Hpc).
        eapply mv_orep; [exact M2| |exact Ho]. intros y Hy. now apply split_tab.
      * apply K; [exact S3| |exact Hn3].
        eapply mv_trans; [eapply mv_sub; [exact M1|]; intros y Hy; right; now apply split_incl|].
        eapply mv_trans; [eapply mv_tail, mv_sub; [exact M2|]; apply split_incl|]. now apply mv_all.
Qed.

Variable t : bool.
Lemma kreg_ok v p n s b : pos_ok v p n -> is_rel n = false -> psize B BL v p = Ok s -> kok B BL v (KReg b s) n.
Proof.
  intros Hok Hr Hs. pose proof (pos_ok_wf _ _ _ _ _ Hok) as Hw. pose proof (wf_size _ _ _ _ Hw) as Hb.
  assert (0 < s /\ (s - 1) mod span B BL v + 1 = nsize n) as [H1 H2].
  { inversion Hok; subst; cbn [psize] in Hs; try discriminate.
    - injection Hs as Hs. pose proof (full_size _ _ _ _ H) as Hf.
      assert (s = span B BL v) as ->. { rewrite <- Hs. destruct v; [now rewrite span_0|]. now rewrite shiftl_width. }
      rewrite N.mod_small by lia. lia.
    - injection Hs as <-. auto.
    - injection Hs as <-. rewrite N.mod_small by lia. lia. }
  exists (PReg n s). split; [|now constructor]. cbn. unfold mk_reg. destruct (N.eqb_spec s 0); [lia|reflexivity].
Qed.
Lemma hget_mut_ok fn v : forall hp p n n' a idx L h R,
  haddr hp = Ok a -> st L h (a :: R) -> prel L h hp p -> pos_ok v p n -> update_node B BL v p idx fn = Ok n' ->
  xwp t (hget_mut B BL v hp idx) h
    (fun be h' => st L h' (fst be :: R) /\ mv (Some R) L L L h h' /\ nrep L h' (fst be) n /\
       upath fn L h' v (fst be) (fst (snd be)) (snd (snd be)) n n') (back L h (a :: R)).
Proof.
  induction v as [|l IH]; intros hp p n n' a idx L h R Ea S Hp Hok Hu; cbn [VecHeap.hget_mut update_node] in *.
  - apply rbind_ok in Hu. destruct Hu as (off & Hoff & Hu). apply rbind_ok in Hu. destruct Hu as (k & Hk & Hu).
    apply rbind_ok in Hu. destruct Hu as (nd & Hnd & Hu). apply rbind_ok in Hu. destruct Hu as (xs & Hxs & Hu).
    apply rbind_ok in Hu. destruct Hu as (ys & Hys & Hu). apply rbind_ok in Hu. destruct Hu as (x & Hx & Hu).
    injection Hu as <-. destruct nd as [xs'|]; [|discriminate]. injection Hxs as ->.
    rewrite (pos_ok_node _ _ _ _ _ Hok) in Hnd. injection Hnd as ->.
    assert (ys = xs) as ->.
    { pose proof (count_ok _ _ _ _ _ Hok) as Hk'. rewrite Hk in Hk'. injection Hk' as ->. cbn [ncount] in Hys.
      apply rtakeN_inv in Hys. destruct Hys as [_ ->]. apply takeN_all. lia. }
    pose proof (prel_nrep _ _ _ _ _ _ Hp Ea (pos_ok_node _ _ _ _ _ Hok)) as Hn.
    destruct (nrep_leaf_inv _ _ _ _ Hn) as [rc Hc].
    apply xwp_bind. apply xwp_m. eapply wp_lift; [exact Ea|]. apply xwp_bind. apply xwp_m. eapply wp_view; [exact Hp|].
    apply xwp_bind. apply xwp_m. eapply wp_lift; [rewrite index_blank; exact Hoff|].
    apply xwp_bind. apply xwp_m. eapply wp_lift; [rewrite count_blank; exact Hk|].
    apply xwp_bind. apply xwp_m. eapply wv_unique; [exact S|exact Hc| |].
    + cbn [c_rc]. intros ->. apply xwp_ret. cbn [fst snd]. split; [exact S|]. split; [apply mv_refl|].
      split; [exact Hn|]. now constructor.
    + intros _. apply xwp_bind. eapply xwp_copy_leaf; [exact S|exact Hn|exact Hys| |].
      * intros q h1 S1 Hq Hc1 M1. destruct (pub_leaf _ _ _ _ _ S1 Hc1) as (S2 & M2 & Hn2).
        assert (M12 : mv None L L L h h1) by (eapply mv_trans; eauto).
        apply xwp_bind. apply xwp_m. eapply wp_hdec with (R := q :: R); [exact Ea| | |exact Hok|].
        -- eapply st_eqv; [|exact S2]. intros y. cbn. lia.
        -- eapply mv_prel; [exact M12|exact Ea|exact I|exact Hp].
        -- intros h3 (S3 & M3 & Sh3). apply xwp_ret. cbn [fst snd]. split; [exact S3|].
           split; [|split].
           ++ eapply mv_trans; [apply mv_all; exact M12|]. eapply mv_sub; [exact M3|]. intros y Hy. now right.
           ++ eapply mv_nrep; [exact M3|now left|exact Hn2].
           ++ eapply upath_shr; [exact Sh3|exact M3|exact S3| |apply rch_root; now left].
              constructor; [|exact Hx]. apply wipe_at; [exact Hq|exact Hc1].
      * intros h1 _ S1 M1. split; [exact S1|now apply mv_all].
  - apply rbind_ok in Hu. destruct Hu as (off & Hoff & Hu). apply rbind_ok in Hu. destruct Hu as (k & Hk & Hu).
    apply rbind_ok in Hu. destruct Hu as (ns0 & Hns0 & Hu). apply rbind_ok in Hu. destruct Hu as ([q idx'] & Htw & Hu).
    apply rbind_ok in Hu. destruct Hu as (cn & Hcn & Hu). apply rbind_ok in Hu. destruct Hu as (ns' & Hns' & Hu).
    injection Hu as <-.
    pose proof (count_ok _ _ _ _ _ Hok) as Hk'. rewrite Hk in Hk'. injection Hk' as ->.
    destruct (prel_cases _ _ _ _ _ _ _ _ _ Hp Ea Hok) as (rc & r & cs & o & ns & -> & Hc & Ho & Hcs & El & Hcase).
    unfold pinner in Hns0. rewrite (pos_ok_node _ _ _ _ _ Hok) in Hns0. cbn in Hns0. injection Hns0 as <-.
    cbn [ncount] in *.
    assert (ns' = ns) as ->.
    { apply rtakeN_inv in Hns'. destruct Hns' as [_ ->]. apply takeN_all. lia. } clear Hns'.
    pose proof (prel_nrep _ _ _ _ _ _ Hp Ea (pos_ok_node _ _ _ _ _ Hok)) as Hn.
    destruct (htowards_ok _ _ _ _ _ cs _ _ _ _ Hok El Htw) as (kd & Hkd & ca & c & cb & na & x & nb & -> & En & Eca & Ena & Eaddr & Ekp & Hqok).
    cbn [kids] in En. subst ns. rewrite updN_app by exact Ena.
    assert (Ex : match p with PRel _ sz => Some sz | _ => None end = o).
    { destruct Hcase as [(rr & sz & _ & -> & _ & ->)|(_ & -> & _ & Hpp & _)]; [reflexivity|apply Hpp]. }
    rewrite Ex. clear Ex.
    assert (Ecn : lenN ca = lenN na) by congruence.
    apply xwp_bind. apply xwp_m. eapply wp_lift; [exact Ea|]. apply xwp_bind. apply xwp_m. eapply wp_view; [exact Hp|].
    apply xwp_bind. apply xwp_m. eapply wp_lift; [rewrite index_blank; exact Hoff|].
    apply xwp_bind. apply xwp_m. eapply wp_lift; [rewrite count_blank; exact Hk|].
    apply xwp_bind. apply xwp_m.
    assert (Htow : forall (Q : hkid * N -> heap -> Prop), Q (kd, idx') h ->
       wp (' (_, cs) <~ load_inner a;; mlift (htowards B BL l (blank p) cs idx off)) h Q).
    { intros Q HQ. apply wp_bind. eapply wp_load_inner; [apply (at_wipe _ _ _ _ Hc)|]. eapply wp_lift; [exact Hkd|exact HQ]. }
    eapply wv_unique; [exact S|exact Hc| |]; cbn [c_rc icell].
    + (* in place *)
      intros ->. apply xwp_bind. apply xwp_m. apply Htow.
      destruct (take_kid _ _ _ _ _ _ _ _ _ _ _ _ S Hc Ecn Hn) as (S1 & Ha & Hc1 & M1 & Hx & Hca & Hcb & Ho1).
      rewrite <- Eaddr in S1, Hc1, M1, Hx, Hc.
      apply xwp_bind. apply xwp_m. eapply wp_open; [exact Hx|exact Ekp|]. intros hq Eq Hq.
      apply xwp_bind. eapply xwp_mono; [eapply IH; [exact Eq|exact S1|exact Hq|exact Hqok|exact Hcn]| |].
      * intros [c' [lf o']] h2 (S2 & M2 & Hn2 & Hp2). cbn [fst snd] in *.
        assert (Hc2 : cell_at h2 a (icell 1 r (ca ++ kaddr kd :: cb))) by (eapply mv_local; [exact M2|now left|exact Hc1]).
        apply xwp_bind. apply xwp_m. eapply wp_put_kid; [exact S2|now left|exact Hc2|apply rnthN_app; exact Eca|].
        intros h3 (S3 & Hc3 & F3 & M3). rewrite updN_app in Hc3 by exact Eca. apply xwp_ret. cbn [fst snd].
        assert (M3' : mv None L (a :: L) (a :: L) h2 h3) by (apply M3; exact Ha).
        destruct (put_kid_back L h3 R a r ca c' cb o na x nb) as (S4 & M4 & Hn4 & Hc4).
        -- exact S3.
        -- exact Hc3.
        -- eapply mv_nrep; [exact M3'|exact I|exact Hn2].
        -- eapply mv_nreps; [exact M3'|intros; exact I|]. eapply mv_nreps; [exact M2| |exact Hca]. intros y Hy. apply split_kids. auto.
        -- eapply mv_nreps; [exact M3'|intros; exact I|]. eapply mv_nreps; [exact M2| |exact Hcb]. intros y Hy. apply split_kids. auto.
        -- eapply mv_orep; [exact M3'|intros; exact I|]. eapply mv_orep; [exact M2| |exact Ho1]. intros y Hy. now apply split_tab.
        -- split; [exact S4|]. split; [|split; [exact Hn4|]].
           ++ eapply mv_trans; [eapply mv_sub; [exact M1|]; intros y Hy; right; now apply split_incl|].
              eapply mv_trans; [eapply mv_tail, mv_sub; [exact M2|]; apply split_incl|].
              apply mv_all. eapply mv_trans; [exact M3'|exact M4].
           ++ econstructor; [exact Hc4|exact Ecn|]. eapply upath_same; [|exact Hp2].
              intros y d Hd. destruct (wipe_cell _ _ _ _ Hd) as [Hy1 Hy2].
              apply wipe_at; [intros Hi; apply Hy1; now right|]. unfold cell_at. rewrite F3; [exact Hy2|].
              intros ->. apply Hy1. now left.
      * intros h2 (S2 & M2).
        destruct (put_kid_back L h2 R a r ca (kaddr kd) cb o na x nb) as (S4 & M4 & Hn4 & Hc4).
        -- exact S2.
        -- eapply mv_local; [exact M2|now left|exact Hc1].
        -- eapply mv_nrep; [exact M2|now left|exact Hx].
        -- eapply mv_nreps; [exact M2| |exact Hca]. intros y Hy. right. apply split_kids. auto.
        -- eapply mv_nreps; [exact M2| |exact Hcb]. intros y Hy. right. apply split_kids. auto.
        -- eapply mv_orep; [exact M2| |exact Ho1]. intros y Hy. right. now apply split_tab.
        -- split; [exact S4|]. eapply mv_close; [|exact Hc|exact Hc4|reflexivity|reflexivity].
           cbn [c_kids icell].
           assert (M12 : mv (Some (kaddr kd :: split_ptrs r ca cb R)) L L L h h2).
           { eapply mv_trans; [exact M1|]. eapply mv_trans; [eapply mv_tail; exact M2|now apply mv_all]. }
           eapply mv_sub; [exact M12|]. intros y Hy. apply split_in in Hy. destruct Hy as [->|Hy]; [now left|now right].
    + (* copy *)
      intros _. apply xwp_bind. apply xwp_m. apply Htow. clear Htow.
      set (Rr := match r with Some r => r :: a :: R | None => a :: R end).
      assert (G : forall b h1, st (b :: L) h1 Rr -> ~ In b L -> cell_at h1 b (icell 1 r []) -> mv None L L (b :: L) h h1 ->
         xwp t (_ <- xm (do_copy_inner b a (lenN (na ++ x :: nb)) []) ;;;
          e <- xtry (q <- xm (open B BL l kd) ;;;
                     ' (c, e) <- hget_mut B BL l q idx' ;;;
                     _ <- xm (put_kid b off c) ;;;
                     _ <- xm (hdec B BL (Datatypes.S l) hp) ;;;
                     xret e)
                    match hp with
                    | HRel _ _ => dec_relaxed B BL (Datatypes.S l) b
                    | _ => p <~ view hp ;; s <~ mlift (psize B BL (Datatypes.S l) p) ;; dec_regular B BL (Datatypes.S l) b s
                    end ;;;
          xret (b, e)) h1
          (fun be h' => st L h' (fst be :: R) /\ mv (Some R) L L L h h' /\ nrep L h' (fst be) (Inner o (na ++ x :: nb)) /\
             upath fn L h' (Datatypes.S l) (fst be) (fst (snd be)) (snd (snd be)) (Inner o (na ++ x :: nb)) (Inner o (na ++ cn :: nb)))
          (back L h (a :: R))).
      { intros b h1 S1 Hb Hc1 M1.
        destruct (mv_cell _ _ _ _ _ _ _ _ M1 I Hc) as ([rc1 b1 ks1] & Ha1 & Eb1 & Ek1). cbn in Eb1, Ek1. subst b1 ks1.
        change (cell_at (wipe (b :: L) h1) a (icell rc1 r (ca ++ c :: cb))) in Ha1.
        assert (Hcs1 : Forall2 (nrep (b :: L) h1) (ca ++ c :: cb) (na ++ x :: nb)).
        { eapply mv_nreps; [exact M1|intros; exact I|exact Hcs]. }
        apply xwp_bind. apply xwp_m.
        eapply wp_do_copy_inner; [exact S1|now left|exact Hc1|exact Ha1|eapply nreps_live; exact Hcs1|apply rtakeN_len; lia|].
        rewrite takeN_all by lia. rewrite app_nil_r. intros h2 S2 Hc2 M2'.
        assert (M2 : mv None L (b :: L) (b :: L) h1 h2) by (apply M2'; [exact Hb|intros y Hy; now right]). clear M2'.
        assert (M12 : mv None L L (b :: L) h h2) by (eapply mv_trans; eauto).
        set (R2 := split_ptrs r ca cb (a :: R)).
        assert (S2' : st (b :: L) h2 (c :: R2)).
        { eapply st_eqv; [|exact S2]. intros y. unfold R2, split_ptrs, Rr. destruct r; cbn; rewrite !occ_app; cbn; rewrite ?occ_app; cbn; lia. }
        assert (HaR : In a R2) by (apply split_incl; now left).
        assert (Hcs2 : Forall2 (nrep (b :: L) h2) (ca ++ c :: cb) (na ++ x :: nb)).
        { eapply mv_nreps; [exact M2|intros; exact I|exact Hcs1]. }
        destruct (F2_mid _ _ _ _ _ _ _ Ecn Hcs2) as (Hca & Hx & Hcb).
        assert (Ho2 : orep (b :: L) h2 r (lv1 (na ++ x :: nb)) o) by (eapply mv_orep; [exact M12|intros; exact I|exact Ho]).
        rewrite <- Eaddr in S2', Hx, Hc2.
        apply xwp_bind. apply xwp_try. apply xwp_bind. apply xwp_m. eapply wp_open; [exact Hx|exact Ekp|]. intros hq Eq Hq.
        apply xwp_bind. eapply xwp_mono; [eapply IH; [exact Eq|exact S2'|exact Hq|exact Hqok|exact Hcn]| |].
        - intros [c' [lf o']] h3 (S3 & M3 & Hn3 & Hp3). cbn [fst snd] in *.
          assert (Hc3 : cell_at h3 b (icell 1 r (ca ++ kaddr kd :: cb))) by (eapply mv_local; [exact M3|now left|exact Hc2]).
          apply xwp_bind. apply xwp_m. eapply wp_put_kid; [exact S3|now left|exact Hc3|apply rnthN_app; exact Eca|].
          intros h4 (S4 & Hc4 & F4 & M4'). rewrite updN_app in Hc4 by exact Eca.
          assert (M4 : mv None L (b :: L) (b :: L) h3 h4) by (apply M4'; exact Hb). clear M4'.
          assert (Hp4 : prel (b :: L) h4 hp p).
          { eapply mv_prel; [exact M4|exact Ea|exact I|]. eapply mv_prel; [exact M3|exact Ea|exact HaR|].
            eapply mv_prel; [exact M12|exact Ea|exact I|exact Hp]. }
          assert (Hp4' : upath fn (b :: L) h4 l c' lf o' x cn).
          { eapply upath_same; [|exact Hp3]. intros y d Hd. destruct (wipe_cell _ _ _ _ Hd) as [Hy1 Hy2].
            apply wipe_at; [exact Hy1|]. unfold cell_at. rewrite F4; [exact Hy2|]. intros ->. apply Hy1. now left. }
          apply xwp_bind. apply xwp_m. eapply wp_hdec with (R := c' :: split_ptrs r ca cb R) (L := b :: L); [exact Ea| |exact Hp4|exact Hok|].
          { eapply st_eqv; [|exact S4]. intros y. unfold R2, split_ptrs. destruct r; cbn; rewrite !occ_app; cbn; lia. }
          intros h5 (S5 & M5 & Sh5). apply xwp_ret. apply xwp_ret. cbn [fst snd].
          assert (Hin : incl (split_ptrs r ca cb R) R2).
          { intros y. unfold R2, split_ptrs. rewrite !in_app_iff. cbn. tauto. }
          assert (M35 : mv (Some (split_ptrs r ca cb R)) L (b :: L) (b :: L) h2 h5).
          { eapply mv_trans; [eapply mv_tail, mv_sub; [exact M3|exact Hin]|].
            eapply mv_trans; [apply mv_all; exact M4|]. eapply mv_tail, mv_sub; [exact M5|]. intros y Hy. now right. }
          destruct (put_kid_back L h5 R b r ca c' cb o na x nb) as (S6 & M6 & Hn6 & Hc6).
          + exact S5.
          + eapply mv_local; [exact M5|now left|exact Hc4].
          + eapply mv_nrep; [exact M5|now left|]. eapply mv_nrep; [exact M4|exact I|exact Hn3].
          + eapply mv_nreps; [exact M35| |exact Hca]. intros y Hy. apply split_kids. auto.
          + eapply mv_nreps; [exact M35| |exact Hcb]. intros y Hy. apply split_kids. auto.
          + eapply mv_orep; [exact M35| |exact Ho2]. intros y Hy. now apply split_tab.
          + split; [exact S6|]. split; [|split; [exact Hn6|]].
            * eapply mv_trans; [apply mv_all; exact M12|].
              eapply mv_trans; [eapply mv_sub; [exact M35|apply split_incl]|apply mv_all; exact M6].
            * econstructor; [exact Hc6|exact Ecn|].
              assert (upath fn (b :: L) h5 l c' lf o' x cn) as Hp5.
              { eapply upath_shr; [exact Sh5|exact M5|exact S5|exact Hp4'|apply rch_root; now left]. }
              eapply upath_same; [|exact Hp5]. intros y d Hd. destruct (wipe_cell _ _ _ _ Hd) as [Hy1 Hy2].
              apply wipe_at; [|exact Hy2]. intros Hi. apply Hy1. now right.
        - intros h3 (S3 & M3).
          destruct (put_kid_back L h3 (a :: R) b r ca (kaddr kd) cb o na x nb) as (S4 & M4 & Hn4 & Hc4).
          + exact S3.
          + eapply mv_local; [exact M3|now left|exact Hc2].
          + eapply mv_nrep; [exact M3|now left|exact Hx].
          + eapply mv_nreps; [exact M3| |exact Hca]. intros y Hy. right. apply split_kids. auto.
          + eapply mv_nreps; [exact M3| |exact Hcb]. intros y Hy. right. apply split_kids. auto.
          + eapply mv_orep; [exact M3| |exact Ho2]. intros y Hy. right. now apply split_tab.
          + assert (M04 : mv (Some (a :: R)) L L L h h3).
            { eapply mv_trans; [apply mv_all; exact M12|].
              eapply mv_trans; [eapply mv_tail, mv_sub; [exact M3|]|apply mv_all; exact M4].
              intros y Hy. right. now apply split_incl. }
            destruct Hcase as [(rr & sz & -> & -> & -> & ->)|(-> & -> & Hh & _ & Hrel)].
            * apply wp_bind. eapply wp_load_inner; [apply (at_wipe _ _ _ _ Hc4)|].
              assert (prel L h3 (HRel b rr) (PRel (Inner (Some sz) (na ++ x :: nb)) sz)) as Hpb.
              { destruct (nrep_inner_inv _ _ _ _ _ Hn4) as (rc5 & r5 & cs5 & Hc5 & Ho5 & Hk5).
                pose proof (cell_fun _ _ _ _ Hc4 Hc5) as E. destruct r5 as [r5|]; [|easy]. injection E as <- <- <-.
                econstructor; [exact Hc5|exact Ho5|exact Hk5]. }
              eapply wp_hdec with (R := a :: R); [reflexivity|exact S4|exact Hpb|exact Hok|].
              intros h5 (S5 & M5 & _). split; [exact S5|]. eapply mv_trans; [exact M04|exact M5].
            * rewrite Hh. apply wp_bind. eapply wp_view.
              { eapply mv_prel; [exact M04|exact Ea|now left|exact Hp]. }
              assert (exists s, psize B BL (Datatypes.S l) p = Ok s) as [s Hs].
              { inversion Hok; subst; cbn [psize]; eauto. }
              apply wp_bind. eapply wp_lift; [rewrite psize_blank; exact Hs|].
              eapply wp_hdec_kid with (R := a :: R); [exact S4|exact Hn4|eapply kreg_ok; eauto|].
              intros h5 (S5 & M5 & _). split; [exact S5|]. eapply mv_trans; [exact M04|exact M5]. }
      destruct Hcase as [(rr & sz & -> & -> & -> & ->)|(-> & -> & Hh & Hpp & _)].
      * apply xwp_bind. eapply xwp_make_inner_sr; [exact S|eapply srep_live; exact Ho| |].
        -- intros b h1 S1 Hb Hc1 M1. apply G; assumption.
        -- intros _. split; [exact S|apply mv_refl].
      * rewrite Hh. apply xwp_bind. eapply xwp_make_inner; [exact S| |intros _; split; [exact S|apply mv_refl]].
        intros b h1 S1 Hb Hc1 M1. apply G; assumption.
Qed.
End GetMut.
