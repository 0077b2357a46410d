(** Concatenation of trees in counted memory computes what it computes on values and gives back
    everything when it throws. *)
From Coq Require Import List NArith Arith Bool Lia ZifyN ZifyNat ZifyBool Permutation.
From Verif Require Import Common NList Rrb RrbInv RrbPos RrbOps RrbSlice RrbTree RrbMerge RrbShuffle RrbConcat RrbViewOk AtomProofs
  RcHeap RcProofs RcExn RcExnProofs RcMove VecHeap VecPlan VecNodes VecMake VecPush VecConcat VecCenter VecMerge.
Import ListNotations.
Local Open Scope N_scope.
Set Default Goal Selector "!".

Section Concat.
Context {T : Type}.
Variables B BL : N.
Variable t : bool.
Notation body := (vbody T).
Notation heap := (heap body). Notation cell := (cell body).
Notation pos_ok := (@pos_ok T B BL).
Notation wf := (@wf T B BL).
Notation crel := (@crel T B BL).
Notation merger := (@merger T).
Notation width := (width B).
Notation lwidth := (lwidth BL).
Notation xwp := (@xwp body t _).
Notation chas := (@chas T).
Notation center_ok := (@center_ok T B BL).
Notation parat := (@parat T B BL).
Notation hpar := (@hpar T).
Notation mst := (@mst T B BL).
Implicit Types (h : heap) (L R : list nat) (s : hmerger).

(** ** The result of a merge *)
Lemma pub_pars cl (ps : list hpar) : forall L h R, st (plocs ps ++ L) h (flat_map q_k ps ++ R) ->
  Forall (parat cl [] [] (plocs ps ++ L) h) ps -> Forall (fun q => lv1 (q_n q) = S cl) ps ->
  st L h (map q_a ps ++ R) /\ mv None L (plocs ps ++ L) L h h /\
  Forall2 (nrep L h) (map q_a ps) (map (fun q => Inner (Some (sums 0 (map nsize (q_n q)))) (q_n q)) ps).
Proof.
  induction ps as [|q ps IH]; intros L h R S Hp Hl; cbn [plocs flat_map map app] in *.
  - split; [exact S|]. split; [apply mv_refl|constructor].
  - fold (plocs ps) in *. rewrite <- app_assoc in S. inversion Hp as [|? ? (A1 & A2 & A3 & A4) Hps]; subst.
    inversion Hl as [|? ? Hl1 Hl2]; subst. rewrite app_nil_r in A1, A2.
    destruct (pub_rel _ _ _ _ _ _ _ _ _ S A1 A2 (eq_sym Hl1) A3) as (S1 & M1 & N1).
    destruct (IH L h (q_a q :: R)) as (S2 & M2 & N2).
    + eapply st_eqv; [|exact S1]. intros z. cbn [occ]. rewrite occ_mid. reflexivity.
    + eapply parats_mv; [exact M1| |exact Hps]. intros z Hz. apply in_or_app. now left.
    + exact Hl2.
    + split; [eapply st_eqv; [|exact S2]; intros z; rewrite occ_mid; reflexivity|]. split.
      * eapply mv_trans; [eapply mv_weak; [exact M1|]|exact M2]. intros z Hz. apply in_or_app. now right.
      * constructor; [|exact N2]. exact (mv_nrep _ _ _ _ _ _ _ _ M2 Logic.I N1).
Qed.
(** The same nodes given up. *)
Lemma wp_dec_pars cl (ps : list hpar) : forall L h R (Q : unit -> heap -> Prop), st (plocs ps ++ L) h (flat_map q_k ps ++ R) ->
  Forall (parat cl [] [] (plocs ps ++ L) h) ps ->
  (forall h', st L h' R -> mv (Some R) L (plocs ps ++ L) L h h' -> Q tt h') ->
  wp (dec_subs B BL (S cl) (map CRel (map q_a ps))) h Q.
Proof.
  induction ps as [|q ps IH]; intros L h R Q S Hp K; cbn [plocs flat_map map app dec_subs each_of] in *.
  - apply wp_ret. apply K; [exact S|apply mv_refl].
  - fold (plocs ps) in *. rewrite <- app_assoc in S. inversion Hp as [|? ? (A1 & A2 & A3 & A4) Hps]; subst.
    rewrite app_nil_r in A1, A2. apply wp_bind. apply wp_bind. cbn [copen]. apply wp_bind.
    eapply wp_load_inner; [exact A1|]. apply wp_ret.
    eapply wp_hdec_local; [exact S|exact A1|exact A2|exact A3|exact A4|reflexivity|].
    intros h1 S1 M1. apply (IH L h1 R); [exact S1| |].
    + assert (forall q, In q ps -> incl (q_k q) (flat_map q_k ps ++ R)) as Hin.
      { intros q' Hq z Hz. apply in_or_app. left. apply in_flat_map. eauto. }
      rewrite Forall_forall in *. intros q' Hq. destruct (plocs_in _ _ Hq) as [I1 I2].
      destruct (Hps q' Hq) as (B1 & B2 & B3 & B4).
      split; [eapply mv_local; [exact M1|apply in_or_app; now left|exact B1]|].
      split; [eapply mv_local; [exact M1|apply in_or_app; now left|exact B2]|]. split; [|exact B4].
      eapply mv_nreps; [exact M1| |exact B3]. intros z Hz. cbn. now apply (Hin q').
    + intros h2 S2 M2. apply K; [exact S2|]. eapply mv_trans; [|exact M2].
      eapply mv_weak; [eapply mv_sub; [exact M1|]|].
      * intros z Hz. apply in_or_app. now right.
      * intros z Hz. apply in_or_app. now right.
Qed.

(** abort. *)
Lemma perm_flat {A} (f : A -> list nat) l l' : Permutation l l' -> Permutation (flat_map f l) (flat_map f l').
Proof.
  induction 1; cbn; auto.
  - now apply Permutation_app_head.
  - rewrite !app_assoc. apply Permutation_app_tail. apply Permutation_app_comm.
  - etransitivity; eauto.
Qed.
Lemma occ_perm l l' : Permutation l l' -> forall x : nat, occ x l = occ x l'.
Proof. induction 1; intros z; cbn; auto; rewrite ?IHPermutation; try lia. rewrite IHPermutation1. apply IHPermutation2. Qed.
Lemma pars_forall cl L h (ps : list hpar) : pars B BL cl [] [] L h ps -> Forall (parat cl [] [] L h) ps.
Proof. destruct ps; [easy|]. intros [H1 H2]. now constructor. Qed.
Lemma parats_perm cl L L' h (ps : list hpar) : Permutation L L' -> Forall (parat cl [] [] L h) ps -> Forall (parat cl [] [] L' h) ps.
Proof.
  intros P H. eapply Forall_impl; [|exact H]. intros q (A1 & A2 & A3 & A4). split; [exact A1|]. split; [exact A2|].
  split; [|exact A4]. eapply nreps_perm; eauto.
Qed.
Lemma wp_abort_to cl s d ps L h0 R h (Q : unit -> heap -> Prop) : mst cl [] [] s d ps L h0 R h ->
  (forall h', st (plocs ps ++ L) h' (flat_map q_k ps ++ R) -> Forall (parat cl [] [] (plocs ps ++ L) h') ps ->
     mv (Some R) L L (plocs ps ++ L) h0 h' -> Q tt h') ->
  wp (match hm_to s with
      | None => mret tt
      | Some to =>
          match cl with
          | O => delete_leaf to (hm_off s)
          | S _ =>
              ' (r, _) <~ load_inner to ;;
              match r with
              | None => mub
              | Some r =>
                  tab <~ mlift (rtakeN (hm_off s) (hm_tosz s)) ;;
                  _ <~ put_table r tab ;; dec_relaxed B BL cl to
              end
          end
      end) h Q.
Proof.
  intros [H1 H2 H3 H4 H5] K. apply pars_forall in H2. unfold Lm in *. destruct d as [|a xs|a r ks ns]; cbn [tlocs tkids app] in *.
  - rewrite H3. apply wp_ret. apply K; [exact H4|exact H2|now apply mv_all].
  - destruct H3 as (-> & G2 & G3 & G4). rewrite G2. eapply wp_delete_leaf; [exact H4|exact G4|now symmetry|].
    intros h' S' M'. apply K; [exact S'| |].
    + eapply parats_mv; [exact M'| |exact H2]. intros z Hz. apply in_or_app. now left.
    + apply mv_all. eapply mv_trans; [exact H5|]. eapply mv_weak; [exact M'|]. intros z Hz. apply in_or_app. now right.
  - destruct H3 as ((l & -> & Gw) & G2 & G3 & G4 & G5 & [sz G6] & G7). rewrite G2.
    pose proof H4 as (_ & _ & ND). inversion ND as [|? ? N1 ND1]; subst.
    assert (r <> a) as Nra by (intros ->; apply N1; now left).
    apply wp_bind. eapply wp_load_inner; [exact G5|]. apply wp_bind.
    eapply wp_lift; [apply rtakeN_all; rewrite G3, G4, lenN_sums, lenN_map; reflexivity|]. apply wp_bind.
    eapply wp_put_table; [exact H4|now left|exact G6|]. intros h1 (S1 & C1 & F1 & M1). specialize (M1 _ N1). rewrite G4 in C1.
    assert (cell_at h1 a (icell 1 (Some r) ks)) as C1a by (eapply mv_local; [exact M1|now left|exact G5]).
    unfold dec_relaxed. apply wp_bind. eapply wp_load_inner; [exact C1a|].
    assert (Forall2 (nrep (r :: a :: plocs ps ++ L) h1) ks ns) as G7' by (eapply mv_nreps; [exact M1|intros; exact I|exact G7]).
    assert (Forall (parat (S l) [] [] (r :: a :: plocs ps ++ L) h1) ps) as H2'.
    { eapply parats_mv; [exact M1| |exact H2]. intros z Hz. right. apply in_or_app. now left. }
    eapply wp_hdec_local; [exact S1|exact C1a|exact C1|exact G7'|exact Gw|reflexivity|]. intros h2 S2 M2.
    apply K; [exact S2| |].
    + rewrite Forall_forall in *. intros q Hq. destruct (plocs_in _ _ Hq) as [I1 I2].
      destruct (H2' q Hq) as (B1 & B2 & B3 & B4).
      split; [eapply mv_local; [exact M2|apply in_or_app; now left|exact B1]|].
      split; [eapply mv_local; [exact M2|apply in_or_app; now left|exact B2]|]. split; [|exact B4].
      eapply mv_nreps; [exact M2| |exact B3]. intros z Hz. cbn. apply in_or_app. left. apply in_flat_map. eauto.
    + eapply mv_trans with (L2 := r :: a :: plocs ps ++ L) (h2 := h1).
      * apply mv_all. eapply mv_trans; [exact H5|]. eapply mv_weak; [exact M1|]. intros z Hz. right. apply in_or_app. now right.
      * eapply mv_weak; [eapply mv_sub; [exact M2|]|]; intros z Hz; apply in_or_app; now right.
Qed.
Lemma wp_habort cl s d ps L h0 R h (Q : unit -> heap -> Prop) : mst cl [] [] s d ps L h0 R h ->
  (forall h', st L h' R -> mv (Some R) L L L h0 h' -> Q tt h') -> wp (habort B BL cl s) h Q.
Proof.
  intros Hm K. apply wp_bind. eapply wp_abort_to; [exact Hm|]. intros h1 S1 H1 M1.
  unfold center_dec, center_subs, result_of. cbn [hc_lv hc_nodes]. rewrite (ms_nodes _ _ _ _ _ _ _ _ _ _ _ _ Hm), <- map_rev.
  assert (Permutation (plocs ps ++ L) (plocs (rev ps) ++ L)) as P.
  { apply Permutation_app_tail. apply perm_flat. apply Permutation_rev. }
  eapply wp_dec_pars with (L := L) (R := R).
  - eapply st_perm; [exact P|]. eapply st_eqv; [|exact S1]. intros z. rewrite !occ_app. f_equal. apply occ_perm.
    apply perm_flat. apply Permutation_rev.
  - eapply parats_perm; [exact P|]. rewrite Forall_forall in *. intros q Hq. apply H1. now apply in_rev.
  - intros h2 S2 M2. apply K; [exact S2|]. eapply mv_trans; [exact M1|]. eapply mv_perm_l; [apply Permutation_sym; exact P|exact M2].
Qed.

(** ** merge *)
Lemma F2_rev {C D} (P : C -> D -> Prop) u w : Forall2 P u w -> Forall2 P (rev u) (rev w).
Proof. induction 1; cbn; [constructor|]. apply Forall2_app; auto. Qed.
Lemma lim_eq v : lim B BL v = match v with O => lwidth | S _ => width end.
Proof. reflexivity. Qed.

Lemma hmerge_ok v hc c els ks ps plan m c' els' L h R : st L h (hc_nodes hc ++ R) -> chas v L h hc c -> center_ok v c els ->
  Forall2 (crel v L h) ks ps -> Forall (fun n => 1 <= n <= lim B BL v) plan ->
  merge_all B BL v (merger_init B plan) ps = Ok m -> merger_finish v m = Ok c' -> center_ok (S v) c' els' ->
  xwp (hmerge B BL hc ks plan) h
    (fun hc' h' => st L h' (hc_nodes hc' ++ R) /\ mv (Some R) L L L h h' /\ chas (S v) L h' hc' c')
    (fun h' => st L h' (hc_nodes hc ++ R) /\ mv (Some (hc_nodes hc ++ R)) L L L h h').
Proof.
  intros S0 Hh Hc Hk Hpl Em Ef Hc'. unfold hmerge. rewrite (ch_lv _ _ _ _ _ Hh).
  apply xwp_bind. unfold hmerger_init. apply xwp_bind. eapply xwp_make_inner_r; [exact S0| |].
  2: { intros h' _ S' M'. split; [exact S'|now apply mv_all]. }
  intros a r h1 S1 Ha Hr M1. apply xwp_ret.
  set (s0 := mkHM plan (lenN plan) [a] (N.min (lenN plan) width) [0] None 0 []).
  assert (mgood B BL v L h (hc_nodes hc ++ R) (merger_init B plan) s0 h1) as Hg.
  { exists TNone, [mkHP a r [] []]. split; [|split; [|reflexivity]].
    - constructor; unfold Lm; cbn [tlocs plocs flat_map app tkids q_a q_r q_k]; auto.
      + split; [|constructor]. split; [exact Ha|]. split; [exact Hr|]. split; constructor.
      + reflexivity.
    - constructor; try reflexivity.
      + constructor; [|constructor]. split; reflexivity.
      + exact Hpl. }
  apply xwp_bind. pose proof (hmerge_all_ok B BL t v ks ps _ _ _ _ _ _ _ Hg Hk Em) as W.
  eapply xwp_mono; [exact W| |easy]. intros [[[]|] s] h2.
  - intros (d & qs & Hm & Hy & Ht). apply xwp_m. unfold merger_finish in Ef.
    destruct (m_to m) as [n|] eqn:Eto; [discriminate|]. injection Ef as <-.
    destruct d as [|? ?|? ? ? ?]; [|discriminate|discriminate].
    destruct Hm as [N1 N2 N3 N4 N5]. unfold Lm in *. cbn [tlocs tkids app] in *. apply pars_forall in N2.
    destruct Hy as [Y1 Y2 Y3 Y4 Y5 Y6]. destruct Hc' as [C1 C2 C3 C4 C5 C6]. cbn [c_nodes c_sizes] in *.
    assert (Forall (fun q => lv1 (q_n q) = S v) qs) as Hlv.
    { assert (Forall (fun q => wf (S v) (Inner (Some (p_sizes q)) (p_kids q))) (m_par m :: rev (m_done m))) as Hw.
      { rewrite Forall_map in C3. apply Forall_app in C3. destruct C3 as [C3 C3']. inversion C3'; subst.
        constructor; [assumption|]. now apply Forall_rev. }
      clear - Y5 Hw. revert Hw. induction Y5 as [|q w qs ws [E1 E2] _ IH]; intros Hw; constructor; inversion Hw; subst; auto.
      rewrite E1. eapply lv1_wf; eassumption. }
    destruct (pub_pars _ _ _ _ _ N4 N2 Hlv) as (S2 & M2 & Hn2).
    assert (mv None L L L h h2) as M12 by (eapply mv_trans; [exact N5|exact M2]).
    apply wp_bind. eapply wp_center_dec with (R := map q_a qs ++ R); [eapply mv_chas; [exact M12|intros; exact I|exact Hh]|exact Hc| |].
    { eapply st_eqv; [|exact S2]. intros z. rewrite !occ_app. lia. }
    intros h3 (S3 & M3 & _). unfold hfinish. rewrite (N3 : hm_to s = None). apply wp_ret.
    unfold result_of. cbn [hc_nodes]. rewrite N1. split; [|split].
    + eapply st_eqv; [|exact S3]. intros z. rewrite !occ_app. f_equal. apply occ_perm. apply Permutation_rev.
    + eapply mv_trans; [apply mv_all; exact M12|]. eapply mv_sub; [exact M3|]. intros z Hz. apply in_or_app. now right.
    + constructor; cbn [hc_lv hc_sizes hc_nodes c_nodes c_sizes]; [reflexivity|now rewrite Y3|].
      replace (m_done m ++ [m_par m]) with (rev (m_par m :: rev (m_done m))) by (cbn; now rewrite rev_involutive).
      rewrite map_rev. apply F2_rev.
      replace (map (fun q => Inner (Some (p_sizes q)) (p_kids q)) (m_par m :: rev (m_done m)))
        with (map (fun q : hpar => Inner (Some (sums 0 (map nsize (q_n q)))) (q_n q)) qs).
      * eapply mv_nreps; [exact M3| |exact Hn2]. intros z Hz. cbn. apply in_or_app. now left.
      * clear - Y5. induction Y5 as [|q w qs ws [E1 E2] _ IH]; [reflexivity|]. cbn [map]. rewrite IH, E2, E1. reflexivity.
  - intros [Htt (d & qs & Hm)]. apply xwp_bind. apply xwp_m. eapply wp_habort; [exact Hm|]. intros h3 S3 M3.
    intros f Hf. split; [exact Htt|]. split; assumption.
Qed.

(** ** concat_rebalance *)
Definition reads (m : M body (list hkid)) v L h ls : Prop :=
  forall Q : list hkid -> heap -> Prop, (forall ks, Forall2 (crel v L h) (map CKid ks) ls -> Q ks h) -> wp m h Q.
Lemma hrebalance_ok v lp rp hlp hrp hc c els a b L h R :
  st L h (hc_nodes hc ++ R) -> chas v L h hc c -> center_ok v c els ->
  side_ok B BL (each_left_sub B BL) v lp a -> side_ok B BL (each_right_sub B BL) v rp b ->
  (forall ls, match lp with Some q => each_left_sub B BL v q | None => Ok [] end = Ok ls -> posl B BL v ls a -> reads (lefts B BL v hlp) v L h ls) ->
  (forall rs, match rp with Some q => each_right_sub B BL v q | None => Ok [] end = Ok rs -> posl B BL v rs b -> reads (rights B BL v hrp) v L h rs) ->
  xwp (hrebalance B BL hlp hc hrp) h
    (fun hc' h' => exists c', concat_rebalance B BL lp c rp = Ok c' /\
       center_ok (S v) c' (flat_map elems a ++ els ++ flat_map elems b) /\
       st L h' (hc_nodes hc' ++ R) /\ mv (Some R) L L L h h' /\ chas (S v) L h' hc' c')
    (back L h R).
Proof.
  intros S0 Hh Hc Hl Hr Rl Rr. destruct (concat_rebalance_ok B BL v lp c rp a els b Hc Hl Hr) as (c' & Er & Hc').
  destruct Hl as (ls & El & Hls & _). destruct Hr as (rs & Err & Hrs & _).
  pose proof Hc as [Hlv _ _ _ _ _]. pose proof Er as Er0. unfold concat_rebalance in Er. rewrite Hlv, El in Er. cbn [rbind] in Er.
  apply rbind_ok in Er. destruct Er as (ms & Ems & Er). rewrite Err in Er. cbn [rbind] in Er.
  apply rbind_ok in Er. destruct Er as (counts & Ecn & Er).
  destruct (2 * width + 1 <? lenN counts) eqn:Eb; [discriminate|].
  apply rbind_ok in Er. destruct Er as (plan & Epl & Er). apply rbind_ok in Er. destruct Er as (m & Em & Ef).
  destruct (center_subs_ok B BL _ _ _ _ _ _ _ Hh Hc Ems) as [_ Hsub].
  unfold hrebalance. rewrite (ch_lv _ _ _ _ _ Hh).
  apply xwp_bind. apply xwp_m. apply (Rl ls El Hls). intros kl Hkl.
  apply xwp_bind. apply xwp_m. apply (Rr rs Err Hrs). intros kr Hkr.
  assert (Forall2 (crel v L h) (map CKid kl ++ center_subs hc ++ map CKid kr) (ls ++ ms ++ rs)) as Hk.
  { apply Forall2_app; [exact Hkl|]. apply Forall2_app; [exact Hsub|exact Hkr]. }
  apply xwp_bind. apply xwp_m. eapply wp_hcounts; [exact Hk|exact Ecn|]. rewrite Eb.
  apply xwp_bind. apply xwp_m. eapply wp_lift; [exact Epl|]. apply xwp_try.
  assert (Forall (fun n => 1 <= n <= lim B BL v) plan) as Hpl.
  { destruct (center_each_ok _ _ _ _ _ Hc) as (ms' & Ems' & Hms). rewrite Ems in Ems'. injection Ems' as <-.
    assert (posl B BL v (ls ++ ms ++ rs) (a ++ c_nodes c ++ b)) as Hall by (repeat apply posl_app; auto).
    rewrite (counts_ok _ _ _ _ _ Hall) in Ecn. injection Ecn as <-.
    pose proof (counts_bound _ _ _ _ (posl_wf _ _ _ _ _ Hall)) as Hcb.
    destruct (shuffle_ok B BL v (map ncount (a ++ c_nodes c ++ b))) as (plan' & Ep & Hpb & _).
    { apply lenN_pos. rewrite lenN_map, !lenN_app. pose proof (co_len _ _ _ _ _ Hc). lia. }
    { exact Hcb. }
    rewrite Epl in Ep. injection Ep as <-. exact Hpb. }
  eapply xwp_mono; [eapply hmerge_ok; [exact S0|exact Hh|exact Hc|exact Hk|exact Hpl|exact Em|exact Ef|exact Hc']| |].
  - intros hc' h' (S1 & M1 & Hh'). exists c'. auto.
  - intros h1 (S1 & M1). eapply wp_center_dec; [|exact Hc|exact S1|].
    + eapply mv_chas; [exact M1| |exact Hh]. intros z Hz. cbn. apply in_or_app. now left.
    + intros h2 (S2 & M2 & _). split; [exact S2|]. eapply mv_trans; [|exact M2]. eapply mv_sub; [exact M1|].
      intros z Hz. apply in_or_app. now right.
Qed.

(** ** concat_leafs, concat_inners *)
(** A position in memory that stands for a position, its node reached from [R]. *)
Inductive psat R L h : hpos -> pos T -> Prop :=
| psat_none : psat R L h HNone PNone
| psat_one a xs c : nrep L h a (Leaf xs) -> rch L h R a -> psat R L h (HSingle a c) (PSingle (Leaf xs) c)
| psat_pos hp p a : prel L h hp p -> haddr hp = Ok a -> rch L h R a -> psat R L h hp p.
Lemma mv_from R L0 L L' h h' a : mv (Some R) L0 L L' h h' -> rch L h R a -> mv (Some [a]) L0 L L' h h'.
Proof.
  intros (A & C & D) (r & Hr & Ha). split; [exact A|]. split; [|exact D]. intros x c (b & Hb & Hx). apply C.
  exists r. split; [exact Hr|]. destruct Hb as [<-|[]]. eapply reaches_trans; eauto.
Qed.
Lemma mv_psat R L0 L L' h h' hp p : mv (Some R) L0 L L' h h' -> psat R L h hp p -> psat R L' h' hp p.
Proof.
  intros M H. destruct H as [|a xs c H1 H2|hp p a H1 H2 H3].
  - constructor.
  - constructor; [|exact (mv_reach _ _ _ _ _ _ M _ H2)].
    eapply mv_nrep; [exact (mv_from _ _ _ _ _ _ _ M H2)|now left|exact H1].
  - econstructor 3; [|exact H2|exact (mv_reach _ _ _ _ _ _ M _ H3)].
    eapply mv_prel; [exact (mv_from _ _ _ _ _ _ _ M H3)|exact H2|now left|exact H1].
Qed.
Lemma psat_sub R R' L h hp p : incl R R' -> psat R L h hp p -> psat R' L h hp p.
Proof.
  intros Hi H. assert (forall a, rch L h R a -> rch L h R' a) as W by (intros a (r & Hr & Ha); exists r; auto).
  destruct H; [constructor|constructor; auto|econstructor 3; eauto].
Qed.
Lemma rch_step L h R a b : rch L h R a -> reaches (wipe L h) a b -> rch L h R b.
Proof. intros (r & Hr & Ha) Hb. exists r. split; [exact Hr|]. eapply reaches_trans; eauto. Qed.

Lemma hleft_ok l lp els hlp : lp_ok B BL (S l) lp els ->
  exists a q x, side_ok B BL (each_left_sub B BL) l (Some lp) a /\ last_sub B BL l lp = Ok q /\
    pos_ok l q x /\ is_sub q = true /\ not_full q /\ els = flat_map elems a ++ elems x /\
    forall R L h, psat R L h hlp lp ->
      (forall ls, each_left_sub B BL l lp = Ok ls -> posl B BL l ls a -> reads (lefts B BL l hlp) l L h ls) /\
      (forall Q : hpos -> heap -> Prop, (forall hq, psat R L h hq q -> (exists b, haddr hq = Ok b) -> Q hq h) ->
         wp (k <~ last_kid B BL l hlp ;; open B BL l k) h Q).
Proof.
  intros [(E & -> & Hl)|(n & Hp & Hs & Hnf & <-)].
  - injection E as ->. exists [], (PSub (Leaf els) (lenN els)), (Leaf els).
    split.
    { exists []. split; [reflexivity|]. split; [constructor|].
      change (lenN (@nil (node T))) with 0. pose proof (width_pos B). lia. }
    cbn [last_sub]. rewrite <- (nsize_leaf els), mk_sub_ok by auto.
    split; [reflexivity|]. split; [now constructor|]. split; [reflexivity|]. split; [exact I|]. split; [reflexivity|].
    intros R L h H. inversion H as [|a xs c H1 H2|? ? ? Hx]; [|inversion Hx]. subst. split.
    + intros ls [= <-] _ Q K. apply wp_ret. apply K. constructor.
    + intros Q K. apply wp_bind. apply wp_ret. cbn [VecHeap.open]. apply wp_bind.
      pose proof (mk_sub_ok B BL O (Leaf els) Hl eq_refl) as Em. apply mk_sub_inv in Em. destruct Em as [_ Em].
      eapply wp_lift; [exact Em|]. apply wp_ret. apply K; [|cbn; eauto].
      econstructor 3; [constructor; exact H1|reflexivity|exact H2].
  - pose proof (pos_ok_wf _ _ _ _ _ Hp) as Hw.
    destruct (kids_last _ _ _ _ Hw) as (a & x & Ek).
    destruct (each_left_sub_ok B BL l lp n a x Hp Hs Hnf Ek) as (ps & E & Hps).
    destruct (last_sub_ok B BL l lp n a x Hp Hs Hnf Ek) as (q & Eq & Hq & Hsq & Hnq).
    exists a, q, x. split.
    { exists ps. split; [exact E|]. split; [auto|].
      pose proof (wf_count_le _ _ _ _ Hw) as Hc. rewrite Ek, lenN_snoc in Hc. exact Hc. }
    split; [exact Eq|]. split; [auto|]. split; [auto|]. split; [auto|].
    split; [rewrite (elems_kids _ _ _ _ Hw), Ek; apply flat_snoc|].
    intros R L h H. assert (exists b, prel L h hlp lp /\ haddr hlp = Ok b /\ rch L h R b) as (b & H1 & H2 & H3).
    { destruct H as [| |hp p b H1 H2 H3]; [discriminate|discriminate|eauto]. }
    split.
    + intros ls El Hls Q K. eapply wp_lefts; eauto.
    + intros Q K. apply wp_bind. eapply wp_last_kid; eauto. intros k Hk Hkp Hr.
      eapply wp_open; [exact Hk|exact Hkp|]. intros hq Ea Hh. apply K; [|eauto].
      econstructor 3; [exact Hh|exact Ea|]. eapply rch_step; eauto.
Qed.

Lemma hright_ok l rp n hrp : pos_ok (S l) rp n -> is_sub rp = true -> sh B BL l < 32 -> nsize n <= 2 ^ 32 ->
  exists b q x, side_ok B BL (each_right_sub B BL) l (Some rp) b /\ first_sub B BL l rp = Ok q /\
    pos_ok l q x /\ is_sub q = true /\ elems n = elems x ++ flat_map elems b /\ nsize x <= nsize n /\
    forall R L h, psat R L h hrp rp ->
      (forall rs, each_right_sub B BL l rp = Ok rs -> posl B BL l rs b -> reads (rights B BL l hrp) l L h rs) /\
      (forall Q : hpos -> heap -> Prop, (forall hq, psat R L h hq q -> (exists b, haddr hq = Ok b) -> Q hq h) ->
         wp (k <~ first_kid B BL l hrp ;; open B BL l k) h Q).
Proof.
  intros Hp Hs Hsh H32. pose proof (pos_ok_wf _ _ _ _ _ Hp) as Hw.
  destruct (kids_first _ _ _ _ Hw) as (x & b & Ek).
  destruct (each_right_sub_ok B BL l rp n x b Hp Hs Ek Hsh H32) as (ps & E & Hps).
  destruct (first_sub_ok B BL l rp n x b Hp Hs Ek) as (q & Eq & Hq & Hsq).
  exists b, q, x. split.
  { exists ps. split; [exact E|]. split; [auto|].
    pose proof (wf_count_le _ _ _ _ Hw) as Hc. rewrite Ek, lenN_cons in Hc. exact Hc. }
  split; [exact Eq|]. split; [auto|]. split; [auto|].
  assert (elems n = elems x ++ flat_map elems b) as Ee by now rewrite (elems_kids _ _ _ _ Hw), Ek.
  split; [exact Ee|]. split; [unfold nsize; rewrite Ee, lenN_app; lia|].
  intros R L h H. assert (exists b, prel L h hrp rp /\ haddr hrp = Ok b /\ rch L h R b) as (c & H1 & H2 & H3).
  { destruct H as [| |hp p c H1 H2 H3]; [discriminate|inversion Hp|eauto]. }
  split.
  - intros ls El Hls Q K. eapply wp_rights; eauto.
  - intros Q K. apply wp_bind. eapply wp_first_kid; eauto. intros k Hk Hkp Hr.
    eapply wp_open; [exact Hk|exact Hkp|]. intros hq Ea Hh. apply K; [|eauto].
    econstructor 3; [exact Hh|exact Ea|]. eapply rch_step; eauto.
Qed.

Definition joined v L h R c hc h' : Prop := st L h' (hc_nodes hc ++ R) /\ mv (Some R) L L L h h' /\ chas v L h' hc c.

Lemma psat_prel R L h hp p n v : psat R L h hp p -> pos_ok v p n -> exists a, prel L h hp p /\ haddr hp = Ok a /\ nrep L h a n.
Proof.
  intros H Hp. pose proof (pos_ok_node _ _ _ _ _ Hp) as En.
  destruct H as [| |hp p a H1 H2 H3]; [discriminate|inversion Hp|].
  exists a. split; [exact H1|]. split; [exact H2|]. eapply prel_nrep; eauto.
Qed.
Lemma hconcat_leafs_ok lp tp rp ln tels rn hlp htp hrp L h R (Q : hcenter -> heap -> Prop) :
  pos_ok O lp ln -> pos_ok O rp rn -> tp_ok BL tp tels -> psat R L h hlp lp -> psat R L h htp tp -> psat R L h hrp rp ->
  st L h R ->
  (forall hc h' c, concat_leafs B BL lp tp rp = Ok c -> center_ok O c (elems ln ++ tels ++ elems rn) ->
     joined O L h R c hc h' -> Q hc h') ->
  wp (hconcat_leafs B BL hlp htp hrp) h Q.
Proof.
  intros Hl Hr Ht Sl Stt Sr S0 K. destruct (concat_leafs_ok B BL lp tp rp ln tels rn Hl Hr Ht) as (c & Ec & Hc).
  pose proof Ec as Ec0. unfold concat_leafs in Ec.
  rewrite (pos_ok_node _ _ _ _ _ Hl) in Ec. cbn [rbind] in Ec. rewrite (count_ok _ _ _ _ _ Hl) in Ec. cbn [rbind] in Ec.
  rewrite (pos_ok_node _ _ _ _ _ Hr) in Ec. cbn [rbind] in Ec. rewrite (count_ok _ _ _ _ _ Hr) in Ec. cbn [rbind] in Ec.
  destruct (psat_prel _ _ _ _ _ _ _ Sl Hl) as (la & Pl & El & Nl). destruct (psat_prel _ _ _ _ _ _ _ Sr Hr) as (ra & Pr & Er & Nr).
  unfold hconcat_leafs. apply wp_bind. eapply wp_lift; [exact El|]. apply wp_bind. eapply wp_view; [exact Pl|].
  apply wp_bind. eapply wp_lift; [rewrite count_blank; apply (count_ok _ _ _ _ _ Hl)|].
  apply wp_bind. eapply wp_lift; [exact Er|]. apply wp_bind. eapply wp_view; [exact Pr|].
  apply wp_bind. eapply wp_lift; [rewrite count_blank; apply (count_ok _ _ _ _ _ Hr)|].
  destruct Ht as [[-> ->]|[-> Htl]].
  - inversion Stt as [| |? ? ? Hx]; [|inversion Hx]; subst. cbn [count rbind] in Ec. change (0 <? 0) with false in Ec. cbn iota in Ec.
    injection Ec as <-. apply wp_bind. apply wp_ret. apply wp_bind. eapply wp_lift; [reflexivity|].
    change (0 <? 0) with false. cbn iota.
    apply wp_bind. eapply wv_inc; [exact S0|eapply srep_live; exact Nl|]. intros h1 S1 M1.
    assert (nrep L h1 ra rn) as Nr1 by (eapply mv_nrep; [exact M1|exact I|exact Nr]).
    apply wp_bind. eapply wv_inc; [exact S1|eapply srep_live; exact Nr1|]. intros h2 S2 M2. apply wp_ret.
    assert (mv None L L L h h2) as M by (eapply mv_trans; eauto).
    eapply K; [exact Ec0|exact Hc|]. split; [|split; [now apply mv_all|]].
    + eapply st_eqv; [|exact S2]. intros z. cbn. lia.
    + constructor; [reflexivity|reflexivity|]. cbn. constructor; [eapply mv_nrep; [exact M|exact I|exact Nl]|].
      constructor; [eapply mv_nrep; [exact M|exact I|exact Nr]|constructor].
  - assert (pos_ok O (PReg (Leaf tels) (lenN tels)) (Leaf tels)) as Hp.
    { constructor; [exact Htl|reflexivity|lia|]. rewrite span_0, nsize_leaf, N.mod_small by lia. lia. }
    rewrite (count_ok _ _ _ _ _ Hp) in Ec. cbn [rbind ncount pnode] in Ec.
    destruct (psat_prel _ _ _ _ _ _ _ Stt Hp) as (ta & Pt & Et & Nt).
    apply wp_bind. eapply wp_view; [exact Pt|]. apply wp_bind. eapply wp_lift; [rewrite count_blank; apply (count_ok _ _ _ _ _ Hp)|].
    cbn [ncount]. destruct (N.ltb_spec 0 (lenN tels)); [|lia]. injection Ec as <-.
    apply wp_bind. eapply wp_lift; [exact Et|].
    apply wp_bind. eapply wv_inc; [exact S0|eapply srep_live; exact Nl|]. intros h1 S1 M1.
    assert (nrep L h1 ta (Leaf tels)) as Nt1 by (eapply mv_nrep; [exact M1|exact I|exact Nt]).
    apply wp_bind. eapply wv_inc; [exact S1|eapply srep_live; exact Nt1|]. intros h2 S2 M2.
    assert (mv None L L L h h2) as M12 by (eapply mv_trans; eauto).
    assert (nrep L h2 ra rn) as Nr1 by (eapply mv_nrep; [exact M12|exact I|exact Nr]).
    apply wp_bind. eapply wv_inc; [exact S2|eapply srep_live; exact Nr1|]. intros h3 S3 M3. apply wp_ret.
    assert (mv None L L L h h3) as M by (eapply mv_trans; eauto).
    eapply K; [exact Ec0|exact Hc|]. split; [|split; [now apply mv_all|]].
    + eapply st_eqv; [|exact S3]. intros z. cbn. lia.
    + constructor; [reflexivity|reflexivity|]. cbn. constructor; [eapply mv_nrep; [exact M|exact I|exact Nl]|].
      constructor; [eapply mv_nrep; [exact M|exact I|exact Nt]|].
      constructor; [eapply mv_nrep; [exact M|exact I|exact Nr]|constructor].
Qed.

Lemma no_reads_l v L h : forall ls, Ok [] = Ok ls -> posl B BL v ls [] -> reads (lefts B BL v HNone) v L h ls.
Proof. intros ls [= <-] _ Q K. apply wp_ret. apply K. constructor. Qed.
Lemma no_reads_r v L h : forall ls, Ok [] = Ok ls -> posl B BL v ls [] -> reads (rights B BL v HNone) v L h ls.
Proof. intros ls [= <-] _ Q K. apply wp_ret. apply K. constructor. Qed.
Lemma xwp_two {A C D} (m : M body A) (k : A -> M body C) (f : C -> X body D) h (Q : D -> heap -> Prop) (E : heap -> Prop) :
  wp (x <~ m ;; k x) h (fun y h' => xwp (f y) h' Q E) -> xwp (x <- xm m ;;; y <- xm (k x) ;;; f y) h Q E.
Proof.
  intros W. apply xwp_bind. apply xwp_m. unfold wp, mbind in *. destruct (m h) as [[x h1]|]; [|easy].
  apply xwp_bind. apply xwp_m. exact W.
Qed.

Lemma hconcat_inners_ok fuel tp tels htp L R : tp_ok BL tp tels -> forall l r lp rp lels rn hlp hrp h,
  (S l + S r <= fuel)%nat -> lp_ok B BL (S l) lp lels -> pos_ok (S r) rp rn -> is_sub rp = true ->
  sh B BL r < 32 -> nsize rn <= 2 ^ 32 ->
  psat R L h hlp lp -> psat R L h htp tp -> psat R L h hrp rp -> st L h R ->
  xwp (hconcat_inners B BL fuel (S l) (S r) hlp htp hrp) h
    (fun hc h' => exists c, concat_inners B BL fuel (S l) (S r) lp tp rp = Ok c /\
       center_ok (Nat.max (S l) (S r)) c (lels ++ tels ++ elems rn) /\ joined (Nat.max (S l) (S r)) L h R c hc h')
    (back L h R).
Proof.
  intros Ht. induction fuel as [|f IH];
    intros l r lp rp lels rn hlp hrp h Hf Hl Hr Hsr Hsh H32 Sl Stt Sr S0; [lia|].
  cbn [concat_inners hconcat_inners].
  assert (forall h1 h2, mv (Some R) L L L h h1 -> back L h1 R h2 -> back L h R h2) as Hback.
  { intros h1 h2 M [S' M']. split; [exact S'|]. eapply mv_trans; eauto. }
  destruct (Nat.ltb_spec r l) as [H1|H1].
  - destruct (hleft_ok _ _ _ hlp Hl) as (a & q & x & Hside & Eq & Hq & Hsq & Hnq & -> & Hh).
    rewrite Eq. cbn [rbind]. destruct l as [|l]; [lia|].
    apply xwp_two. apply (proj2 (Hh _ _ _ Sl)). intros hq Pq _. apply xwp_bind.
    eapply xwp_mono; [apply (IH l r q rp (elems x) rn hq hrp h); auto; [lia|right; eauto]| |tauto].
    intros hc h1 (c & Ec & Hc & S1 & M1 & C1).
    rewrite Ec. cbn [rbind].
    replace (Nat.max (S (S l)) (S r)) with (S (Nat.max (S l) (S r))) by lia.
    replace (Nat.max (S l) (S r)) with (S l) in * by lia.
    pose proof (mv_psat _ _ _ _ _ _ _ _ M1 Sl) as Sl1.
    eapply xwp_mono; [eapply (hrebalance_ok (S l) (Some lp) None hlp HNone); [exact S1|exact C1|exact Hc|exact Hside|apply no_side|apply (proj1 (Hh _ _ _ Sl1))|apply no_reads_r]| |].
    + intros hc' h2 (c' & E' & Hc' & S2 & M2 & C2). exists c'. split; [exact E'|]. split.
      * cbn [flat_map] in Hc'. rewrite app_nil_r, !app_assoc in Hc'. rewrite !app_assoc. exact Hc'.
      * split; [exact S2|]. split; [eapply mv_trans; eauto|exact C2].
    + intros h2. now apply Hback.
  - destruct (hright_ok _ _ _ hrp Hr Hsr Hsh H32) as (b & qr & xr & Hrside & Eqr & Hqr & Hsqr & -> & Hxr & Hhr).
    destruct (Nat.ltb_spec l r) as [H2|H2].
    + rewrite Eqr. cbn [rbind]. destruct r as [|r]; [lia|].
      assert (sh B BL r < 32) by (unfold Rrb.sh in *; lia).
      apply xwp_two. apply (proj2 (Hhr _ _ _ Sr)). intros hq Pq _. apply xwp_bind.
      eapply xwp_mono; [apply (IH l r lp qr lels xr hlp hq h); auto; [lia|lia]| |tauto].
      intros hc h1 (c & Ec & Hc & S1 & M1 & C1).
      rewrite Ec. cbn [rbind].
      replace (Nat.max (S l) (S (S r))) with (S (S r)) by lia.
      replace (Nat.max (S l) (S r)) with (S r) in * by lia.
      pose proof (mv_psat _ _ _ _ _ _ _ _ M1 Sr) as Sr1.
      eapply xwp_mono; [eapply (hrebalance_ok (S r) None (Some rp) HNone hrp); [exact S1|exact C1|exact Hc|apply no_side|exact Hrside|apply no_reads_l|apply (proj1 (Hhr _ _ _ Sr1))]| |].
      * intros hc' h2 (c' & E' & Hc' & S2 & M2 & C2). exists c'. split; [exact E'|]. split.
        -- cbn [flat_map app] in Hc'. rewrite <- !app_assoc in Hc'. exact Hc'.
        -- split; [exact S2|]. split; [eapply mv_trans; eauto|exact C2].
      * intros h2. now apply Hback.
    + assert (r = l) as -> by lia.
      destruct (hleft_ok _ _ _ hlp Hl) as (a & q & x & Hside & Eq & Hq & Hsq & Hnq & -> & Hh).
      rewrite Eq. cbn [rbind]. rewrite Eqr. cbn [rbind]. rewrite Nat.max_id.
      apply xwp_two. apply (proj2 (Hh _ _ _ Sl)). intros hq Pq _.
      apply xwp_two. apply (proj2 (Hhr _ _ _ Sr)). intros hqr Pqr _. apply xwp_bind.
      assert (xwp match l with O => xm (hconcat_leafs B BL hq htp hqr) | S _ => hconcat_inners B BL f l l hq htp hqr end h
        (fun hc h' => exists c, match l with O => concat_leafs B BL q tp qr
                        | S _ => concat_inners B BL f l l q tp qr end = Ok c /\
                center_ok l c (elems x ++ tels ++ elems xr) /\ joined l L h R c hc h') (back L h R)) as W.
      { destruct l as [|l].
        - apply xwp_m. eapply hconcat_leafs_ok; [exact Hq|exact Hqr|exact Ht|exact Pq|exact Stt|exact Pqr|exact S0|].
          intros hc h' c Ec Hc J. exists c. auto.
        - eapply xwp_mono; [apply (IH l l q qr (elems x) xr hq hqr h); auto; [lia|right; eauto| |lia]| |auto].
          + unfold Rrb.sh in *; lia.
          + intros hc h'. rewrite Nat.max_id. auto. }
      eapply xwp_mono; [exact W| |tauto]. intros hc h1 (c & Ec & Hc & S1 & M1 & C1).
      rewrite Ec. cbn [rbind].
      pose proof (mv_psat _ _ _ _ _ _ _ _ M1 Sr) as Sr1. pose proof (mv_psat _ _ _ _ _ _ _ _ M1 Sl) as Sl1.
      eapply xwp_mono; [eapply (hrebalance_ok l (Some lp) (Some rp) hlp hrp); [exact S1|exact C1|exact Hc|exact Hside|exact Hrside|apply (proj1 (Hh _ _ _ Sl1))|apply (proj1 (Hhr _ _ _ Sr1))]| |].
      * intros hc' h2 (c' & E' & Hc' & S2 & M2 & C2). exists c'. split; [exact E'|]. split.
        -- rewrite <- !app_assoc in *. exact Hc'.
        -- split; [exact S2|]. split; [eapply mv_trans; eauto|exact C2].
      * intros h2. now apply Hback.
Qed.

(** ** realize, concat_trees *)
Lemma hrealize_ok v hc c els L h R : chas (S v) L h hc c -> center_ok (S v) c els -> st L h (hc_nodes hc ++ R) ->
  xwp (hrealize B BL hc) h
    (fun '(l, a) h' => exists n, realize c = Ok (l, n) /\ nrep L h' a n /\ st L h' (a :: R) /\ mv (Some R) L L L h h')
    (back L h R).
Proof.
  intros Hh Hc S0. pose proof Hc as [Hlv Hlen Hwf Hsz Hel Hrel]. pose proof Hh as [Dl Ds Dn].
  pose proof (F2_len _ _ _ Dn) as El. unfold hrealize, realize. rewrite Dl, Hlv, El.
  destruct (N.ltb_spec 1 (lenN (c_nodes c))).
  - apply xwp_bind. apply xwp_try. eapply xwp_make_inner_r; [exact S0| |].
    + intros a r h1 S1 Ha Hr M1. pose proof S1 as (_ & _ & ND). inversion ND as [|? ? N1 _]; subst.
      assert (r <> a) as Nra by (intros ->; apply N1; now left).
      apply xwp_bind. apply xwp_m. apply wp_bind. eapply wp_load_inner; [exact Ha|].
      apply wp_bind. eapply wp_put_inner; [exact S1|right; now left|exact Ha|]. intros h2 (S2 & C2 & F2 & M2).
      assert (cell_at h2 r (mkCell 1 (VTable (S (S v)) []) [])) as Hr2 by (unfold cell_at; rewrite F2 by congruence; exact Hr).
      eapply wp_put_table; [exact S2|now left|exact Hr2|]. intros h3 (S3 & C3 & F3 & M3). apply xwp_ret.
      assert (cell_at h3 a (icell 1 (Some r) (hc_nodes hc))) as C2' by (unfold cell_at; rewrite F3 by congruence; exact C2).
      assert (mv None L L (r :: a :: L) h h3) as M.
      { destruct S1 as (_ & _ & ND1). inversion ND1 as [|? ? G1 G2]; subst. inversion G2 as [|? ? G3 _]; subst.
        eapply mv_trans; [exact M1|]. eapply mv_trans; [apply M2; exact G3|apply M3]. intros Hi. apply G1. now right. }
      destruct (pub_rel _ _ _ _ _ _ _ _ (c_nodes c) S3 C2' C3) as (S4 & M4 & N4).
      { symmetry. apply lv1_all with (B := B) (BL := BL); [exact Hwf|lia]. }
      { eapply mv_nreps; [exact M|intros; exact I|exact Dn]. }
      eexists. split; [reflexivity|]. rewrite <- Ds. split; [exact N4|]. split; [exact S4|].
      apply mv_all. eapply mv_trans; eauto.
    + intros h1 _ S1 M1. eapply wp_center_dec; [eapply mv_chas; [exact M1|intros; exact I|exact Hh]|exact Hc|exact S1|].
      intros h2 (S2 & M2 & _). split; [exact S2|]. eapply mv_trans; [apply mv_all; exact M1|exact M2].
  - destruct (c_nodes c) as [|n ns] eqn:En; [change (lenN (@nil (node T))) with 0 in Hlen; lia|].
    assert (ns = []) as -> by (apply lenN_0; rewrite lenN_cons in *; lia).
    specialize (Hrel ltac:(easy)). inversion Hrel as [|? ? R1 R2]; subst.
    destruct n as [|[sz|] cs]; cbn in R1; try easy.
    inversion Dn as [|a ? ? ? Dn1 Dn2 Ea]; subst. inversion Dn2; subst. rewrite <- Ea in S0. cbn [app] in S0.
    destruct (nrep_inner_inv _ _ _ _ _ Dn1) as (rc & r & ks & Hcell & Ho & _). destruct r as [r|]; [|easy].
    apply xwp_bind. apply xwp_m. apply wp_bind. eapply wp_load_inner; [apply (at_wipe _ _ _ _ Hcell)|]. apply wp_ret.
    apply xwp_ret. eexists. split; [reflexivity|]. split; [exact Dn1|]. split; [exact S0|apply mv_refl].
Qed.

Lemma hconcat_trees_ok lp l tp lels tels rroot rl hlp htp ra L h R :
  lp_ok B BL (S l) lp lels -> tp_ok BL tp tels -> wf (S rl) rroot -> sh B BL rl < 32 -> nsize rroot <= 2 ^ 32 ->
  psat R L h hlp lp -> psat R L h htp tp -> nrep L h ra rroot -> rch L h R ra -> st L h R ->
  xwp (hconcat_trees B BL hlp (S l) htp ra (S rl) (nsize rroot)) h
    (fun '(v, a) h' => exists n, concat_trees B BL lp (S l) tp rroot (S rl) (nsize rroot) = Ok (v, n) /\
       nrep L h' a n /\ st L h' (a :: R) /\ mv (Some R) L L L h h')
    (back L h R).
Proof.
  intros Hl Ht Hw Hsh H32 Sl Stt Nr Hrr S0. unfold hconcat_trees, concat_trees.
  destruct (maybe_relaxed_ok B BL rl rroot Hw) as (q & Eq & Hq & Hsq). rewrite Eq. cbn [rbind].
  apply xwp_bind. apply xwp_m. eapply wp_hmaybe; [exact Nr|exact Eq|]. intros hq Ea Hh.
  apply xwp_bind. eapply xwp_mono.
  - apply (hconcat_inners_ok (S l + S rl) tp tels htp L R Ht l rl lp q lels rroot hlp hq h); auto.
    econstructor 3; eauto.
  - intros hc h1 (c & Ec & Hc & S1 & M1 & C1). rewrite Ec. cbn [rbind].
    change (Nat.max (S l) (S rl)) with (S (Nat.max l rl)) in *.
    eapply xwp_mono; [eapply hrealize_ok; eauto| |].
    + intros [v a] h2 (n & En & N2 & S2 & M2). exists n. split; [exact En|]. split; [exact N2|]. split; [exact S2|].
      eapply mv_trans; eauto.
    + intros h2 [S2 M2]. split; [exact S2|]. eapply mv_trans; eauto.
  - tauto.
Qed.
End Concat.
