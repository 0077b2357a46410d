(** Programs over map variables on counted memory see what the specification says. *)
From Coq Require Import List NArith Arith Lia Bool Permutation ZArith ZifyBool ZifyNat ZifyN.
From Verif Require Import Common Bits BitsProofs Slots Champ ChampSpec ChampProofs ChampMap ChampShape
  AtomProofs RcHeap RcProofs RcExn RcExnProofs ChampHeap ChampHeapProofs ProgVars ChampProgSpec ChampProg.
Import ListNotations.
Set Default Goal Selector "!".

Section Prog.
Variable B : N.
Context {T K V : Type}.
Variable key : T -> K.
Variable khash : K -> N.
Variable keq : K -> K -> bool.
Variable project : T -> V.
Variable combine : K -> V -> T.
Variable ct : bool.
Variable gone : T -> T.
Variable e0 : nat.
Hypothesis HB : (1 <= B)%N.
Hypothesis Hkeys : keys_ok keq khash.
Hypothesis Hcomb : forall k x, keq (key (combine k x)) k = true.

Notation heap := (heap (cbody T)).
Notation nd := (node T).
Notation max_depth := (max_depth B).
Notation holds := (holds B key khash keq).
Notation op := (@op T K V).

Lemma Hhash k : (khash k < 2 ^ 64)%N.
Proof. apply Hkeys. Qed.
Lemma top : level B max_depth 0.
Proof. apply level_top. exact HB. Qed.

(** ** Reading *)
Section Get.
Variable t : bool.
Lemma get_loop_h_ok k : forall d n a h L hp r, shaped d n -> srep L hp a (enc n) ->
  get_loop B key keq d n h k = Ok r ->
  xwp t (get_loop_h B key keq d a h k) hp (fun v hp' => v = r /\ hp' = hp) (fun hp' => hp' = hp).
Proof.
  induction d as [|d IH]; intros n a h L hp r Hsh Hr E.
  - destruct n as [|vs]; [easy|]. destruct (srep_coll _ _ _ _ Hr) as (c & Hc & Eb & _). apply cell_out in Hc.
    cbn [get_loop get_loop_h] in *. apply xwp_bind, xwp_m. eapply wp_load_coll; [exact Hc|exact Eb|].
    apply xwp_bind, xwp_throw; [|reflexivity]. apply xwp_ret. split; congruence.
  - destruct n as [nm dm vs cs|]; [|easy].
    destruct (inner_view _ _ _ _ _ _ _ _ Hsh Hr) as (c & vp & ks & Hc & Hi).
    cbn [get_loop get_loop_h] in *. cbn zeta in *.
    apply xwp_bind, xwp_m.
    eapply wp_load_inner; [exact (cell_out _ _ _ _ Hc)|exact (ia_ic _ _ _ _ _ _ _ _ _ _ Hi)|exact (ia_lk _ _ _ _ _ _ _ _ _ _ Hi)|].
    cbn beta iota.
    set (bit := N.shiftl 1 (N.land h (mask B))) in *.
    destruct (has nm bit) eqn:En.
    + destruct (rnth cs (count_below nm bit)) as [n1|] eqn:Ec; [|discriminate]. cbn [rbind] in E.
      destruct (inner_kid _ _ _ _ _ _ _ _ _ _ _ _ Hi Ec) as (x & Ex & Hx).
      apply xwp_bind, xwp_m. eapply wp_lift; [exact Ex|].
      apply (IH n1 x (N.shiftr h B) L); [|exact Hx|exact E].
      destruct Hsh as (_ & _ & _ & Hf). rewrite Forall_forall in Hf. apply Hf.
      apply rnth_nth in Ec. eapply nth_error_In; exact Ec.
    + destruct (has dm bit) eqn:Ed.
      * destruct (rnth vs (count_below dm bit)) as [v|] eqn:Ev; [|discriminate]. cbn [rbind] in E.
        destruct Hsh as (Hlv & _).
        apply xwp_bind, xwp_m. eapply wp_load_vals; [exact (ia_v _ _ _ _ _ _ _ _ _ _ Hi)| |exact Hlv|].
        { intros ->. destruct (count_below dm bit); discriminate. }
        apply xwp_bind, xwp_m. eapply wp_lift; [exact Ev|]. apply xwp_bind, xwp_throw; [|reflexivity].
        apply xwp_ret. split; congruence.
      * apply xwp_ret. split; congruence.
Qed.
End Get.

(** ** Operations on one container *)
(** The three operations that put an element, as one. *)
Definition as_upd (o : op) : option (K * (T -> T) * option T * bool) :=
  match o with
  | OpInsert v => Some (key v, fun _ => v, Some v, false)
  | OpUpdate k fn d =>
      Some (k, fun w => combine k (fn (project w)), Some (combine k (fn d)), true)
  | OpUpdateIfExists k fn => Some (k, fun w => combine k (fn (project w)), None, true)
  | OpErase _ => None
  end.
Notation astep := (astep key keq project combine).
Lemma upd_facts o k found absent calls n sz m : as_upd o = Some (k, found, absent, calls) ->
  holds (mkChamp n sz) m ->
  exists r, upd B key khash keq k found absent max_depth n (khash k) 0 = Ok r /\
    match r with
    | Some (n', b) => holds (mkChamp n' (sz + (if b : bool then 1 else 0))%N) (astep o m)
    | None => holds (mkChamp n sz) (astep o m)
    end.
Proof.
  intros E H. destruct o as [v|k' fn d|k' fn|k']; cbn [as_upd] in E; try discriminate; injection E as <- <- <- <-.
  - destruct (add_holds B key khash keq HB Hkeys _ _ v H) as (c' & Ec & Hc').
    unfold add, thash in Ec. cbn [root size] in Ec.
    destruct (do_add B key khash keq max_depth n v (khash (key v)) 0) as [[n' b]|] eqn:Ed; [|discriminate].
    injection Ec as <-. eexists. split; [apply add_upd; exact Ed|]. exact Hc'.
  - destruct (update_holds B key khash keq HB Hkeys project combine _ _ k' fn d (Hcomb k') H) as (c' & Ec & Hc').
    unfold update in Ec. cbn [root size] in Ec.
    destruct (do_update B key khash keq project combine max_depth n k' fn d (khash k') 0) as [[n' b]|] eqn:Ed; [|discriminate].
    injection Ec as <-. eexists. split; [apply update_upd; exact Ed|]. exact Hc'.
  - destruct (update_if_exists_holds B key khash keq HB Hkeys project combine _ _ k' fn (Hcomb k') H) as (c' & Ec & Hc').
    unfold update_if_exists in Ec. cbn [root size] in Ec.
    destruct (do_update_if_exists B key keq project combine max_depth n k' fn (khash k') 0) as [r|] eqn:Ed; [|discriminate].
    injection Ec as <-. eexists. split; [apply uie_upd; exact Ed|].
    destruct r as [n'|]; [|exact Hc']. cbn [size] in Hc'. rewrite N.add_0_r. exact Hc'.
Qed.
Lemma sub_facts k n sz m : holds (mkChamp n sz) m ->
  exists r, do_sub B key keq max_depth n k (khash k) 0 = Ok r /\
    match r with
    | SubNothing => holds (mkChamp n sz) (adel keq k m)
    | SubTree n' => holds (mkChamp n' (sz - 1)%N) (adel keq k m)
    | SubSingleton _ => False
    end.
Proof.
  intros H. destruct (sub_holds B key khash keq HB Hkeys _ _ k H) as (c' & Ec & Hc').
  unfold sub in Ec. cbn [root size] in Ec.
  destruct (do_sub B key keq max_depth n k (khash k) 0) as [r|]; [|discriminate].
  exists r. split; [reflexivity|]. cbn [rbind] in Ec. destruct r; [|discriminate|]; injection Ec as <-; exact Hc'.
Qed.
Lemma holds_shaped n sz m : holds (mkChamp n sz) m -> shaped max_depth n.
Proof. intros (W & _). eapply wf_shaped. exact W. Qed.
Lemma holds_nsim n n' sz m : nsim n n' -> holds (mkChamp n sz) m -> holds (mkChamp n' sz) m.
Proof.
  intros S (W & E & H). cbn [root size] in *. pose proof (nsim_elems _ _ S) as P. split; [|split].
  - cbn [root]. eapply nsim_wf; eauto.
  - cbn [root size]. rewrite <- (Permutation_length P). exact E.
  - intros k. cbn [root]. specialize (H k). unfold lookup_ok in *. destruct (m k) as [v|].
    + destruct H as [Hi He]. split; [|exact He]. eapply Permutation_in; [exact P|exact Hi].
    + intros v Hv. apply H. eapply Permutation_in; [symmetry; exact P|exact Hv].
Qed.

(** What a container stands for. *)
Definition has_map (h : heap) (c : hchamp) (m : amap) : Prop :=
  exists n, srep [] h (h_root c) (enc n) /\ holds (mkChamp n (h_size c)) m.
Definition has_tree (h : heap) (c : hchamp) : Prop :=
  exists n, shaped max_depth n /\ srep [] h (h_root c) (enc n).
Lemma has_map_tree h c m : has_map h c m -> has_tree h c.
Proof. intros (n & S & H). exists n. split; [eapply holds_shaped; exact H|exact S]. Qed.
Lemma has_map_frame P h h' c m : frame [] P h h' -> P (h_root c) -> has_map h c m -> has_map h' c m.
Proof. intros F HP (n & S & H). exists n. split; [eapply frame_rep; eauto|exact H]. Qed.
Lemma has_tree_frame P h h' c : frame [] P h h' -> P (h_root c) -> has_tree h c -> has_tree h' c.
Proof. intros F HP (n & S & H). exists n. split; [exact S|eapply frame_rep; eauto]. Qed.

Lemma wp_copy (h : heap) R c (Q : hchamp -> heap -> Prop) : st [] h R -> has_tree h c ->
  (forall h', st [] h' (h_root c :: R) -> frame [] all h h' -> Q c h') -> wp (copy_h c) h Q.
Proof.
  intros T0 (n & _ & S) HQ. unfold copy_h. apply wp_bind. apply wp_inc with (S := []) (R := R); [exact T0| |].
  - apply srep_live in S. exact S.
  - intros h' T' F. apply wp_ret. now apply HQ.
Qed.
Lemma wp_destroy (h : heap) R c (Q : unit -> heap -> Prop) : st [] h (h_root c :: R) -> has_tree h c ->
  (forall h', st [] h' R -> frame [] (inr R) h h' -> Q tt h') -> wp (destroy_h B c) h Q.
Proof. intros T0 (n & Hs & S) HQ. eapply (wp_drop B HB max_depth n); eauto. Qed.
Lemma wp_empty (h : heap) R (Q : hchamp -> heap -> Prop) : st [] h R -> srep [] h e0 (enc empty_node) ->
  (forall c h', st [] h' (h_root c :: R) -> frame [] all h h' -> has_map h' c aempty -> Q c h') ->
  wp (empty_h e0) h Q.
Proof.
  intros T0 S HQ. unfold empty_h. apply wp_bind. apply wp_inc with (S := []) (R := R); [exact T0| |].
  - apply srep_live in S. exact S.
  - intros h' T' F. apply wp_ret. apply HQ; [exact T'|exact F|]. exists empty_node. split.
    + eapply frame_rep; [exact F|exact I|exact S].
    + apply (holds_empty B key khash keq HB).
Qed.

(** When exceptions are harmless to the tree. *)
Definition throws_ok (t : bool) : Prop :=
  t = false \/ ct = false \/ forall a b, khash a = khash b -> keq a b = true.
Lemma wf_nocoll : (forall a b, khash a = khash b -> keq a b = true) ->
  forall d s p n, level B d s -> wf B key khash keq d s p n -> nocoll n.
Proof.
  intros Hinj. induction d as [|d IH]; intros s p [nm dm vs cs|vs] L H; cbn [wf] in H; try easy.
  - exfalso. destruct H as (H1 & H2 & H3). destruct vs as [|v [|w vs]]; cbn in H1; try lia.
    inversion H3 as [|? ? Hf _]; subst. inversion Hf as [|? ? Hvw _]; subst.
    rewrite (Hinj (key v) (key w)) in Hvw; [discriminate|].
    apply (level_O B HB) in L. subst s. pose proof (max_shift_64 B HB) as Hm.
    pose proof (H2 v (or_introl eq_refl)) as Ev. pose proof (H2 w (or_intror (or_introl eq_refl))) as Ew.
    unfold thash in *. rewrite <- Ew in Ev.
    rewrite !N.mod_small in Ev; [exact Ev| |]; (eapply N.lt_le_trans; [apply Hhash|apply N.pow_le_mono_r; [lia|exact Hm]]).
  - apply nocoll_intro. intros c Hc. destruct H as (H1 & H2 & H3 & H4 & H5 & H6 & H7).
    apply In_nth_error in Hc as [j Hj]. destruct (rank_surj nm j) as (i & Hi & Hr).
    { rewrite <- H5. eapply nth_error_lt; eauto. }
    destruct (H7 i c) as [Hw _]; [unfold slot; now rewrite Hi, Hr|].
    eapply IH; [|exact Hw]. apply (level_S B HB) in L. apply L.
Qed.
Lemma holds_safe t n sz m : throws_ok t -> holds (mkChamp n sz) m -> safe_throw ct t n.
Proof.
  intros [H|[H|H]] (W & _); [now left|right; now left|]. right; right. eapply wf_nocoll; [exact H|apply top|exact W].
Qed.

Section Ops.
Variable t : bool.
Lemma upd_h_ok o k found absent calls (h : heap) R c m : as_upd o = Some (k, found, absent, calls) ->
  throws_ok t -> st [] h R -> has_map h c m ->
  xwp t (upd_h B key khash keq ct k found absent calls c) h
    (fun c' h' => st [] h' (h_root c' :: R) /\ frame [] all h h' /\ has_map h' c' (astep o m))
    (undone [] h R).
Proof.
  intros Eo Ht T0 (n & S & H). destruct (upd_facts _ _ _ _ _ _ _ _ Eo H) as (r & Er & Hr).
  unfold upd_h. apply xwp_bind, xwp_throw; [|intros _; now apply undone_refl]. apply xwp_bind.
  eapply xwp_mono; [apply (do_upd_h_ok B key khash keq ct gone HB Hhash t k found absent calls
    max_depth n (h_root c) (khash k) 0 [] h R r); auto using top, Hhash| |auto].
  - eapply holds_shaped. exact H.
  - eapply holds_safe; eauto.
  - intros [[a' b']|] h' Hp; destruct r as [[n' b]|]; cbn in Hp; try easy.
    + destruct Hp as (-> & M1 & M2 & M3 & _). apply xwp_ret. cbn [h_root h_size].
      split; [exact M1|]. split; [exact M2|]. exists n'. split; [exact M3|exact Hr].
    + subst h'. apply xwp_m. apply wp_copy with (R := R); [exact T0| |].
      * apply has_map_tree with (m := m). exists n. now split.
      * intros h' T' F. split; [exact T'|]. split; [exact F|]. exists n.
        split; [eapply frame_rep; [exact F|exact I|exact S]|exact Hr].
Qed.
Lemma upd_mut_ok o k found absent calls (h : heap) R c m : as_upd o = Some (k, found, absent, calls) ->
  throws_ok t -> st [] h (h_root c :: R) -> has_map h c m ->
  xwp t (upd_mut B key khash keq ct gone k found absent calls c) h
    (fun c' h' => st [] h' (h_root c' :: R) /\ frame [] (inr R) h h' /\ has_map h' c' (astep o m))
    (fun h' => st [] h' (h_root c :: R) /\ frame [] (inr R) h h' /\ has_tree h' c).
Proof.
  intros Eo Ht T0 (n & S & H). destruct (upd_facts _ _ _ _ _ _ _ _ Eo H) as (r & Er & Hr).
  unfold upd_mut. apply xwp_bind, xwp_throw.
  2:{ intros _. split; [exact T0|]. split; [apply frame_refl|]. apply has_map_tree with (m := m). exists n. now split. }
  apply xwp_bind.
  eapply xwp_mono; [apply (do_upd_mut_ok B key khash keq ct gone HB Hhash t k found absent calls
    max_depth n (h_root c) (khash k) 0 [] h R r); auto using top, Hhash| |].
  - eapply holds_shaped. exact H.
  - eapply holds_safe; eauto.
  - intros [[[a' b'] mm]|] h' Hp; destruct r as [[n' b]|]; cbn in Hp; try easy.
    + destruct Hp as (-> & Hp). destruct mm.
      * destruct Hp as (n'' & Hs & M1 & M2 & M3). apply xwp_bind, xwp_ret, xwp_ret. cbn [h_root h_size].
        split; [exact M1|]. split; [exact M3|]. exists n''. split; [exact M2|].
        eapply holds_nsim; [exact Hs|exact Hr].
      * destruct Hp as (M1 & M2 & M3 & _). apply xwp_bind, xwp_m.
        apply wp_destroy with (R := a' :: R).
        -- eapply st_eqv; [|exact M1]. intros x. cbn. lia.
        -- apply has_tree_frame with (P := all) (h := h); [exact M2|exact I|].
           apply has_map_tree with (m := m). exists n. now split.
        -- intros h2 T2 F2. apply xwp_ret. cbn [h_root h_size]. split; [exact T2|]. split.
           ++ eapply frame_trans; [apply frame_all; exact M2|]. eapply frame_weak; [|exact F2].
              intros x Hx. now right.
           ++ exists n'. split; [|exact Hr]. eapply frame_rep; [exact F2|now left|exact M3].
    + subst h'. apply xwp_ret. split; [exact T0|]. split; [apply frame_refl|]. exists n. now split.
  - intros h' (n'' & Hs & M1 & M2 & M3). split; [exact M1|]. split; [exact M3|]. exists n''. now split.
Qed.
Lemma sub_h_ok k (h : heap) R c m : st [] h R -> srep [] h e0 (enc empty_node) -> has_map h c m ->
  xwp t (sub_h B key khash keq ct e0 k c) h
    (fun c' h' => st [] h' (h_root c' :: R) /\ frame [] all h h' /\ has_map h' c' (adel keq k m))
    (undone [] h R).
Proof.
  intros T0 S0 (n & S & H). destruct (sub_facts k _ _ _ H) as (r & Er & Hr).
  unfold sub_h. apply xwp_bind, xwp_throw; [|intros _; now apply undone_refl]. apply xwp_bind.
  eapply xwp_mono; [apply (do_sub_h_ok B key khash keq ct gone e0 HB Hhash t k
    max_depth n (h_root c) (khash k) 0 [] h R r); auto using top| |auto].
  - eapply holds_shaped. exact H.
  - intros o h' Hp. destruct r as [|v|n'], o as [|p i|a']; cbn in Hp; try easy.
    + subst h'. apply xwp_m. apply wp_copy with (R := R); [exact T0| |].
      * apply has_map_tree with (m := m). exists n. now split.
      * intros h' T' F. split; [exact T'|]. split; [exact F|]. exists n.
        split; [eapply frame_rep; [exact F|exact I|exact S]|exact Hr].
    + destruct Hp as (M1 & M2 & M3 & _). apply xwp_ret. cbn [h_root h_size].
      split; [exact M1|]. split; [exact M2|]. exists n'. split; [exact M3|exact Hr].
Qed.
Lemma sub_mut_ok k (h : heap) R c m : t = false -> st [] h (h_root c :: R) -> In e0 R ->
  srep [] h e0 (enc empty_node) -> has_map h c m ->
  xwp t (sub_mut B key khash keq ct gone e0 k c) h
    (fun c' h' => st [] h' (h_root c' :: R) /\ frame [] (inr R) h h' /\ has_map h' c' (adel keq k m))
    (fun _ => False).
Proof.
  intros Et T0 He S0 (n & S & H). destruct (sub_facts k _ _ _ H) as (r & Er & Hr).
  unfold sub_mut. apply xwp_bind, xwp_throw; [|congruence]. apply xwp_bind.
  eapply xwp_mono; [apply (do_sub_mut_ok B key khash keq ct gone e0 HB Hhash t k Et
    max_depth n (h_root c) (khash k) 0 [] h R r); auto using top| |auto].
  - eapply holds_shaped. exact H.
  - intros o h' Hp. destruct r as [|v|n'], o as [|s b|a' b]; cbn in Hp; try easy.
    + subst h'. apply xwp_ret. split; [exact T0|]. split; [apply frame_refl|]. exists n. now split.
    + destruct b.
      * destruct Hp as (M1 & M2 & M3). apply xwp_bind, xwp_ret, xwp_ret. cbn [h_root h_size].
        split; [exact M1|]. split; [exact M3|]. exists n'. now split.
      * destruct Hp as (M1 & M2 & M3). apply xwp_bind, xwp_m.
        apply wp_destroy with (R := a' :: R).
        -- eapply st_eqv; [|exact M1]. intros x. cbn. lia.
        -- apply has_tree_frame with (P := all) (h := h); [exact M3|exact I|].
           apply has_map_tree with (m := m). exists n. now split.
        -- intros h2 T2 F2. apply xwp_ret. cbn [h_root h_size]. split; [exact T2|]. split.
           ++ eapply frame_trans; [apply frame_all; exact M3|]. eapply frame_weak; [|exact F2].
              intros x Hx. now right.
           ++ exists n'. split; [|exact Hr]. eapply frame_rep; [exact F2|now left|exact M2].
Qed.
Notation apply_h := (apply_h B key khash keq project combine ct e0).
Notation mutate_h := (mutate_h B key khash keq project combine ct gone e0).
Lemma apply_ok o (h : heap) R c m : throws_ok t -> st [] h R -> srep [] h e0 (enc empty_node) ->
  has_map h c m ->
  xwp t (apply_h o c) h
    (fun c' h' => st [] h' (h_root c' :: R) /\ frame [] all h h' /\ has_map h' c' (astep o m))
    (undone [] h R).
Proof.
  intros Ht T0 S0 H. destruct o as [v|k fn d|k fn|k]; cbn [ChampProg.apply_h].
  1-3: eapply upd_h_ok; [reflexivity|exact Ht|exact T0|exact H].
  apply sub_h_ok; assumption.
Qed.
Lemma mutate_ok o (h : heap) R c m : throws_ok t -> (t = false \/ forall k, o <> OpErase k) ->
  st [] h (h_root c :: R) -> In e0 R -> srep [] h e0 (enc empty_node) -> has_map h c m ->
  xwp t (mutate_h o c) h
    (fun c' h' => st [] h' (h_root c' :: R) /\ frame [] (inr R) h h' /\ has_map h' c' (astep o m))
    (fun h' => st [] h' (h_root c :: R) /\ frame [] (inr R) h h' /\ has_tree h' c).
Proof.
  intros Ht Ho T0 He S0 H. destruct o as [v|k fn d|k fn|k]; cbn [ChampProg.mutate_h].
  1-3: eapply upd_mut_ok; [reflexivity|exact Ht|exact T0|exact H].
  destruct Ho as [Ho|Ho]; [|now destruct (Ho k)].
  eapply xwp_mono; [apply sub_mut_ok; eassumption|auto|easy].
Qed.
Lemma get_ok k (h : heap) c m : has_map h c m ->
  xwp t (get_h B key khash keq c k) h (fun v h' => v = m k /\ h' = h) (fun h' => h' = h).
Proof.
  intros (n & S & H). unfold get_h. apply xwp_bind, xwp_throw; [|reflexivity].
  eapply get_loop_h_ok; [eapply holds_shaped; exact H|exact S|].
  pose proof (holds_get B key khash keq HB Hkeys _ _ k H) as E. exact E.
Qed.
End Ops.

(** ** Programs *)
Definition vptr (x : mvar) : list nat :=
  match x with VGone => [] | VSpoilt c | VHas c => [h_root c] end.
Definition vrel (h : heap) (x : mvar) (y : avar T K) : Prop :=
  match x, y with
  | VGone, AGone => True
  | VSpoilt c, AAny => has_tree h c
  | VHas c, AHas m => has_map h c m
  | _, _ => False
  end.
Lemma vrel_frame1 P h h' x y : frame [] P h h' -> (forall a, In a (vptr x) -> P a) ->
  vrel h x y -> vrel h' x y.
Proof.
  intros F HP. destruct x as [|c|c], y as [| |m]; cbn; try easy.
  - apply has_tree_frame with (P := P); [exact F|]. apply HP. now left.
  - apply has_map_frame with (P := P); [exact F|]. apply HP. now left.
Qed.
Notation minv := (vinv vptr vrel [e0] [enc empty_node]).
Notation rest := (rest vptr VGone).
Notation roots := (roots vptr).

(** Whether something in the operation throws. *)
Definition throwing (f : list bool) : bool := match f with [] => false | _ => true end.
Definition mok (o : mop T K V) : Prop :=
  throws_ok (throwing (mfates o)) /\ (erases_in_place o = true -> mfates o = []).

Lemma wp_catch {A} f (m : X (cbody T) A) (h : heap) (Q : A -> heap -> Prop) (E : heap -> Prop)
  (Q' : option A -> heap -> Prop) : xwp (throwing f) m h Q E ->
  (forall a h', Q a h' -> Q' (Some a) h') -> (forall h', f <> [] -> E h' -> Q' None h') ->
  wp (catch f m) h Q'.
Proof.
  intros H HQ HE. specialize (H f). unfold wp, catch.
  assert (throwing f = false -> f = []) as Hf by now destruct f.
  specialize (H Hf). destruct (m f h) as [[[[a|] f'] h']|]; [| |exact H].
  - apply HQ. apply H.
  - destruct H as [Ht H]. apply HE; [|exact H]. intros ->. discriminate.
Qed.
Lemma vrel_at l s h i : minv l s h -> vrel h (mvar_at l i) (avar_at s i).
Proof. intros I. apply (rel_nth VGone AGone (vrel h) l s i); [exact (v_rel _ _ _ _ _ _ _ I)|exact Logic.I]. Qed.
Lemma mvar_nth l i x : mvar_at l i = x -> x <> VGone -> nth_error l i = Some x.
Proof. apply at_nth. Qed.
Lemma base_e0 l s h : minv l s h -> srep [] h e0 (enc empty_node).
Proof. intros I. pose proof (v_base _ _ _ _ _ _ _ I) as H. now inversion H. Qed.
Lemma vrel_champ h x y c : vrel h x y -> champ_of x = Some c -> has_tree h c.
Proof.
  destruct x as [|c'|c'], y as [| |m]; cbn; try easy; intros H E; injection E as <-; [exact H|].
  eapply has_map_tree. exact H.
Qed.
Lemma champ_ptr x c : champ_of x = Some c -> vptr x = [h_root c].
Proof. destruct x; cbn; intros E; now inversion E. Qed.
Lemma champ_none h x y : vrel h x y -> champ_of x = None -> x = VGone /\ y = AGone.
Proof. destruct x, y; cbn; try easy. Qed.
Lemma with_same x c : champ_of x = Some c -> with_champ x c = x.
Proof. destruct x; cbn; intros E; now inversion E. Qed.
Lemma add_gone l s h : minv l s h -> minv (l ++ [VGone]) (s ++ [AGone]) h.
Proof.
  intros I. apply vinv_add with (h := h); [exact vrel_frame1|exact I|apply frame_refl| |exact Logic.I].
  cbn [vptr app]. exact (v_st _ _ _ _ _ _ _ I).
Qed.
Lemma upd_none {A} (l : list A) i d : nth i l d = d -> update_at i d l = l.
Proof. revert i. induction l as [|x l IH]; intros [|i] E; cbn in *; congruence || (f_equal; auto). Qed.

Notation mstep := (mstep B key khash keq project combine ct gone e0).
Notation mspec := (mspec key keq project combine).
Notation msees := (msees key keq).
Lemma mstep_ok l s h o : minv l s h -> mok o ->
  wp (mstep l o) h (fun r h' => msees s o (snd r) /\ minv (fst r) (mspec s o (is_throw (snd r))) h').
Proof.
  intros I Ho. pose proof (v_st _ _ _ _ _ _ _ I) as T0. pose proof (base_e0 _ _ _ I) as S0.
  destruct o as [|i|i|i j|i j|i|i o f|i o f|i k f|i]; cbn [ChampProg.mstep].
  - apply wp_bind. apply wp_empty with (R := [e0] ++ roots l); [exact T0|exact S0|].
    intros c h' T' F H. apply wp_ret. split; [exact Logic.I|].
    apply vinv_add with (h := h); [exact vrel_frame1|exact I|apply frame_all; exact F|exact T'|exact H].
  - pose proof (vrel_at _ _ _ i I) as Hv. destruct (champ_of (mvar_at l i)) as [c|] eqn:Ec.
    + pose proof (vrel_champ _ _ _ _ Hv Ec) as Ht. apply wp_bind.
      apply wp_copy with (R := [e0] ++ roots l); [exact T0|exact Ht|]. intros h' T' F. apply wp_ret.
      split; [exact Logic.I|]. cbn [fst snd is_throw ChampProgSpec.mspec]. rewrite (with_same _ _ Ec).
      apply vinv_add with (h := h); [exact vrel_frame1|exact I|apply frame_all; exact F| |].
      * rewrite (champ_ptr _ _ Ec). exact T'.
      * eapply vrel_frame1; [exact F|intros; exact Logic.I|exact Hv].
    + destruct (champ_none _ _ _ Hv Ec) as [_ E]. apply wp_ret. split; [exact Logic.I|]. cbn. rewrite E.
      now apply add_gone.
  - pose proof (vrel_at _ _ _ i I) as Hv. destruct (champ_of (mvar_at l i)) as [c|] eqn:Ec.
    + assert (mvar_at l i <> VGone) as Hn by (intros E; rewrite E in Ec; discriminate).
      pose proof (mvar_nth _ _ _ eq_refl Hn) as En.
      apply wp_bind. apply wp_empty with (R := [e0] ++ roots l); [exact T0|exact S0|].
      intros c' h' T' F H. apply wp_ret. split; [exact Logic.I|]. cbn [fst snd is_throw ChampProgSpec.mspec].
      assert (minv (update_at i (VHas c') l ++ [mvar_at l i])
                   (update_at i (AHas aempty) s ++ [avar_at s i]) h') as G.
      { assert (minv (l ++ [VHas c']) (s ++ [AHas aempty]) h') as J.
        { apply vinv_add with (h := h); [exact vrel_frame1|exact I|apply frame_all; exact F|exact T'|exact H]. }
        assert (length l = length s) as El by (eapply F2_length; exact (v_rel _ _ _ _ _ _ _ I)).
        assert (i < length l) as Hi by (apply nth_error_Some; rewrite En; discriminate).
        pose proof (vinv_swap vptr vrel [e0] [enc empty_node] _ _ _ i (length l) (mvar_at l i) (VHas c')
                      (avar_at s i) (AHas aempty) J) as W.
        assert (U : forall {A} (l : list A) i n x y z, i < length l -> n = length l ->
                  update_at i x (update_at n y (l ++ [z])) = update_at i x l ++ [y]).
        { clear. intros A l. induction l as [|w l IH]; intros [|i] n x y z Hi ->; cbn in *; try lia.
          - f_equal. clear. induction l; cbn; [reflexivity|]. now f_equal.
          - f_equal. apply IH; lia. }
        rewrite (U _ l) in W by (auto; lia). rewrite (U _ s) in W by (auto; lia). apply W.
        - rewrite nth_error_app1; [exact En|exact Hi].
        - rewrite nth_error_app2, Nat.sub_diag; [reflexivity|lia].
        - eapply vrel_frame1; [exact F|intros; exact Logic.I|exact Hv].
        - exact H. }
      destruct (avar_at s i) eqn:Ea; [|exact G..].
      destruct (mvar_at l i); cbn in Hv, Ec; easy.
    + destruct (champ_none _ _ _ Hv Ec) as [_ E]. apply wp_ret. split; [exact Logic.I|]. cbn. rewrite E.
      now apply add_gone.
  - pose proof (vrel_at _ _ _ i I) as Hv. pose proof (vrel_at _ _ _ j I) as Hw.
    destruct (champ_of (mvar_at l i)) as [c|] eqn:Ec.
    + destruct (champ_of (mvar_at l j)) as [d|] eqn:Ed.
      * assert (mvar_at l i <> VGone) as Hn by (intros E; rewrite E in Ec; discriminate).
        pose proof (mvar_nth _ _ _ eq_refl Hn) as En.
        pose proof (vrel_champ _ _ _ _ Hv Ec) as Hc. pose proof (vrel_champ _ _ _ _ Hw Ed) as Hd.
        apply wp_bind. apply wp_copy with (R := [e0] ++ roots l); [exact T0|exact Hd|]. intros h1 T1 F1.
        apply wp_bind. apply wp_destroy with (R := h_root d :: [e0] ++ rest i l).
        -- eapply st_eqv; [|exact T1]. intros x. cbn [occ app].
           rewrite (roots_rest vptr VGone eq_refl _ _ _ En), (champ_ptr _ _ Ec). cbn. lia.
        -- eapply has_tree_frame; [exact F1|exact Logic.I|exact Hc].
        -- intros h2 T2 F2. apply wp_ret. split; [exact Logic.I|].
           cbn [fst snd is_throw ChampProgSpec.mspec]. rewrite (with_same _ _ Ed).
           assert (minv (update_at i (mvar_at l j) l) (update_at i (avar_at s j) s) h2) as G.
           { apply vinv_set with (h := h) (x0 := mvar_at l i) (none := VGone) (anone := AGone);
               [reflexivity|intros; exact Logic.I|exact vrel_frame1|exact I|exact En| | |].
             - eapply frame_trans; [apply frame_all; exact F1|]. eapply frame_weak; [|exact F2].
               intros x Hx. now right.
             - rewrite (champ_ptr _ _ Ed). exact T2.
             - eapply vrel_frame1; [exact F2| |].
               + intros x. rewrite (champ_ptr _ _ Ed). intros [<-|[]]. now left.
               + eapply vrel_frame1; [exact F1|intros; exact Logic.I|exact Hw]. }
           destruct (avar_at s i); [destruct (mvar_at l i); cbn in Hv, Ec; easy|..];
             (destruct (avar_at s j); [destruct (mvar_at l j); cbn in Hw, Ed; easy|exact G..]).
      * destruct (champ_none _ _ _ Hw Ed) as [_ E]. apply wp_ret. split; [exact Logic.I|]. cbn. rewrite E.
        destruct (avar_at s i); exact I.
    + destruct (champ_none _ _ _ Hv Ec) as [_ E]. apply wp_ret. split; [exact Logic.I|]. cbn. rewrite E. exact I.
  - pose proof (vrel_at _ _ _ i I) as Hv. pose proof (vrel_at _ _ _ j I) as Hw.
    destruct (champ_of (mvar_at l i)) as [c|] eqn:Ec.
    + destruct (champ_of (mvar_at l j)) as [d|] eqn:Ed.
      * assert (mvar_at l i <> VGone) as Hn by (intros E; rewrite E in Ec; discriminate).
        assert (mvar_at l j <> VGone) as Hm by (intros E; rewrite E in Ed; discriminate).
        apply wp_ret. split; [exact Logic.I|]. cbn [fst snd is_throw ChampProgSpec.mspec].
        pose proof (vinv_swap vptr vrel [e0] [enc empty_node] _ _ _ i j (mvar_at l i) (mvar_at l j)
                      (avar_at s i) (avar_at s j) I (mvar_nth _ _ _ eq_refl Hn) (mvar_nth _ _ _ eq_refl Hm) Hv Hw) as G.
        destruct (avar_at s i); [destruct (mvar_at l i); cbn in Hv, Ec; easy|..];
          (destruct (avar_at s j); [destruct (mvar_at l j); cbn in Hw, Ed; easy|exact G..]).
      * destruct (champ_none _ _ _ Hw Ed) as [_ E]. apply wp_ret. split; [exact Logic.I|]. cbn. rewrite E.
        destruct (avar_at s i); exact I.
    + destruct (champ_none _ _ _ Hv Ec) as [_ E]. apply wp_ret. split; [exact Logic.I|]. cbn. rewrite E. exact I.
  - pose proof (vrel_at _ _ _ i I) as Hv. destruct (champ_of (mvar_at l i)) as [c|] eqn:Ec.
    + assert (mvar_at l i <> VGone) as Hn by (intros E; rewrite E in Ec; discriminate).
      pose proof (mvar_nth _ _ _ eq_refl Hn) as En.
      apply wp_bind. apply wp_destroy with (R := [e0] ++ rest i l).
      * pose proof (vinv_take vptr VGone vrel eq_refl _ _ _ _ _ _ _ I En) as W.
        rewrite (champ_ptr _ _ Ec) in W. exact W.
      * eapply vrel_champ; [exact Hv|exact Ec].
      * intros h' T' F. apply wp_ret. split; [exact Logic.I|]. cbn [fst snd is_throw ChampProgSpec.mspec].
        apply vinv_set with (h := h) (x0 := mvar_at l i) (none := VGone) (anone := AGone);
          [reflexivity|intros; exact Logic.I|exact vrel_frame1|exact I|exact En|exact F|exact T'|exact Logic.I].
    + destruct (champ_none _ _ _ Hv Ec) as [_ E]. apply wp_ret. split; [exact Logic.I|].
      cbn [fst snd is_throw ChampProgSpec.mspec]. rewrite upd_none; [exact I|exact E].
  - pose proof (vrel_at _ _ _ i I) as Hv. destruct (mvar_at l i) as [|c|c] eqn:Ec;
      destruct (avar_at s i) as [| |m] eqn:Ea; cbn in Hv; try easy.
    1-2: apply wp_ret; split; [exact Logic.I|]; cbn [fst snd is_throw ChampProgSpec.mspec]; rewrite Ea; now apply add_gone.
    destruct Ho as [Ho _]. cbn [mfates] in Ho. apply wp_bind.
    eapply wp_catch; [apply apply_ok with (R := [e0] ++ roots l) (m := m); [exact Ho|exact T0|exact S0|exact Hv]| |].
    + intros c' h' (T' & F & H). apply wp_ret. split; [exact Logic.I|]. cbn [fst snd is_throw ChampProgSpec.mspec]. rewrite Ea.
      apply vinv_add with (h := h); [exact vrel_frame1|exact I|apply frame_all; exact F|exact T'|exact H].
    + intros h' Hf (T' & F). apply wp_ret. split; [exact Hf|]. cbn [fst snd is_throw ChampProgSpec.mspec]. rewrite Ea.
      apply vinv_add with (h := h); [exact vrel_frame1|exact I|exact F|exact T'|exact Logic.I].
  - pose proof (vrel_at _ _ _ i I) as Hv. destruct (mvar_at l i) as [|c|c] eqn:Ec;
      destruct (avar_at s i) as [| |m] eqn:Ea; cbn in Hv; try easy.
    1-2: apply wp_ret; split; [exact Logic.I|]; cbn [fst snd is_throw ChampProgSpec.mspec]; rewrite Ea; exact I.
    pose proof (mvar_nth _ _ _ Ec ltac:(discriminate)) as En.
    pose proof (vinv_take vptr VGone vrel eq_refl _ _ _ _ _ _ _ I En) as W. cbn [vptr app] in W.
    destruct Ho as [Ho He]. cbn [mfates erases_in_place] in Ho, He. apply wp_bind.
    eapply wp_catch; [apply mutate_ok with (R := [e0] ++ rest i l) (m := m)|..].
    + exact Ho.
    + destruct o; try (right; intros k' E; discriminate). left. now rewrite He.
    + exact W.
    + now left.
    + exact S0.
    + exact Hv.
    + intros c' h' (T' & F & H). apply wp_ret. split; [exact Logic.I|]. cbn [fst snd is_throw ChampProgSpec.mspec]. rewrite Ea.
      apply vinv_set with (h := h) (x0 := VHas c) (none := VGone) (anone := AGone);
        [reflexivity|intros; exact Logic.I|exact vrel_frame1|exact I|exact En|exact F|exact T'|exact H].
    + intros h' Hf (T' & F & H). apply wp_ret. split; [exact Hf|]. cbn [fst snd is_throw ChampProgSpec.mspec]. rewrite Ea.
      apply vinv_set with (h := h) (x0 := VHas c) (none := VGone) (anone := AGone);
        [reflexivity|intros; exact Logic.I|exact vrel_frame1|exact I|exact En|exact F|exact T'|exact H].
  - pose proof (vrel_at _ _ _ i I) as Hv. destruct (mvar_at l i) as [|c|c] eqn:Ec;
      destruct (avar_at s i) as [| |m] eqn:Ea; cbn in Hv; try easy.
    1-2: apply wp_ret; split; [|exact I]; cbn; intros m; rewrite Ea; discriminate.
    apply wp_bind. eapply wp_catch; [apply get_ok with (m := m); exact Hv| |].
    + intros v h' [-> ->]. apply wp_ret. split; [|exact I]. exists m. now split.
    + intros h' Hf ->. apply wp_ret. split; [exact Hf|exact I].
  - pose proof (vrel_at _ _ _ i I) as Hv. destruct (mvar_at l i) as [|c|c] eqn:Ec;
      destruct (avar_at s i) as [| |m] eqn:Ea; cbn in Hv; try easy.
    1-2: apply wp_ret; split; [|exact I]; cbn; intros m; rewrite Ea; discriminate.
    apply wp_ret. split; [|exact I]. destruct Hv as (n & S & H). cbn.
    exists m, (elems n). split; [exact Ea|].
    split; [exact (holds_lists B key khash keq HB Hkeys _ _ H)|]. exact (proj1 (proj2 H)).
Qed.

Notation mrun := (mrun B key khash keq project combine ct gone e0).
Notation mspecs := (mspecs key keq project combine).
Lemma mrun_ok os : forall l s h, minv l s h -> Forall mok os ->
  wp (mrun l os) h (fun r h' => exists s', mspecs s os (snd r) s' /\ minv (fst r) s' h').
Proof.
  induction os as [|o os IH]; intros l s h I Ho; cbn [ChampProg.mrun].
  - apply wp_ret. exists s. now split.
  - inversion Ho as [|? ? Ho1 Ho2]; subst. apply wp_bind.
    eapply wp_mono; [apply mstep_ok; [exact I|exact Ho1]|].
    intros [l1 x] h1 [Hx I1]. cbn [fst snd] in *. apply wp_bind.
    eapply wp_mono; [apply IH; [exact I1|exact Ho2]|].
    intros [l2 xs] h2 (s' & Hs & I2). cbn [fst snd] in *. apply wp_ret. exists s'. now split.
Qed.
End Prog.

Section Start.
Context {T K : Type}.
Lemma start_ok (rel : heap (cbody T) -> mvar -> avar T K -> Prop) :
  vinv vptr rel [0] [enc empty_node] [] [] (@start T).
Proof.
  assert (rep (@start T) 0 (enc empty_node)) as R0.
  { apply (rep_kids_in (@start T) 0 (mkCell 1 (BInner 0 0 false) []) []); [reflexivity|constructor]. }
  split; [|constructor; [exact R0|constructor]|constructor].
  split; [|split; constructor]. split.
  - intros [|[|a]]; cbn; auto.
  - intros [|[|a]] c H; try discriminate. exists (enc empty_node). exact R0.
Qed.
End Start.
