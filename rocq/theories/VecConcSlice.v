(** slice_right_visitor and slice_left_visitor in the memory of several threads. *)
From Coq Require Import List NArith Arith Bool Lia Permutation ZifyN ZifyNat ZifyBool.
From Verif Require Import Common NList Rrb RrbInv RrbPos RrbOps RrbSlice RrbViewOk RrbConcat AtomProofs
  RcHeap RcProofs Conc ConcProofs VecPush VecSliceR VecSliceL ChampConcProofs VecHeap VecPlan VecNodes VecMake VecGetMut VecTree VecProgSpec VecProg
  VecConc VecConcProofs VecConcGetMut VecConcPush.
Import ListNotations.
Local Open Scope N_scope.
Set Default Goal Selector "!".

Section VCS.
Context {T : Type}.
Variables B BL : N.
Variable nm : bool.
Variable G : list nat.
Notation body := (vbody T).
Notation heap := (heap body). Notation cell := (cell body).
Notation nd := (node T).
Notation pos_ok := (@pos_ok T B BL).
Notation wf := (@wf T B BL).
Notation full := (@full T B BL).
Notation span := (span B BL).
Notation lwidth := (lwidth BL).
Notation cwp := (cwp G).
Notation own := (own G).
Notation vis := (vis G).
Notation iv := (iv G).
Notation ot := (ot G).
Notation nvis := (nvis G).
Notation prel := (prel G).
Notation post A := (A -> list nat -> list nat -> heap -> Prop).
Notation enc := (@enc T).
Implicit Types (h : heap).

(** An optional level and node. *)
Definition oown R h (o : option (nat * nat)) (nr : option (nat * nd)) : Prop :=
  match o, nr with
  | None, None => True
  | Some (w, b), Some (w', n) => w = w' /\ own R h b (enc n)
  | _, _ => False
  end.
Lemma oown_rely L R h h' o nr : rely L (G ++ R) h h' -> oown R h o nr -> oown R h' o nr.
Proof. intros Rl H. destruct o as [[w b]|], nr as [[w' n]|]; cbn in *; try easy. destruct H as [-> H]. split; [reflexivity|]. eapply own_rely; eauto. Qed.
Lemma oown_incl R R' h o nr : incl R R' -> oown R h o nr -> oown R' h o nr.
Proof. intros Hi H. destruct o as [[w b]|], nr as [[w' n]|]; cbn in *; try easy. destruct H as [-> H]. split; [reflexivity|]. eapply own_incl; eauto. Qed.

(** A copy of the first [i] children of a node, with more after them. *)
Lemma cwp_cut_copy l hp p a o ns i mc mn msz {A} (k : nat -> A) (F : post A) L R h :
  haddr hp = Ok a -> prel L R h hp p -> pos_ok (S l) p (Inner o ns) -> i <= lenN ns ->
  Forall2 (own (mc ++ R) h) mc (map enc mn) -> lv1 (takeN i ns ++ mn) = S l ->
  (forall b h', rely L (G ++ R) h h' -> own (b :: R) h' b (enc (Inner (ocut o i msz) (takeN i ns ++ mn))) -> F (k b) L (b :: R) h') ->
  cwp (match hp with
       | HRel _ _ => n <-- t_make_inner_r (S l) ;; _ <-- t_copy_inner_r n a i mc msz ;;
                     _ <-- when false (t_dec B BL (S l) hp) ;; Done (k n)
       | _ => n <-- t_make_inner ;; _ <-- t_copy_inner n a i mc ;;
              _ <-- when false (t_dec B BL (S l) hp) ;; Done (k n)
       end) F L (mc ++ R) h.
Proof.
  intros Ea Hp Hok Hi Hmc Hlv K. pose proof (pos_ok_wf _ _ _ _ _ Hok) as Hw.
  destruct (prel_cases _ _ _ _ _ _ _ _ _ _ _ Hp Ea Hok) as (r & cs & o' & ns' & E & Hv & El & Hcase). injection E as <- <-.
  assert (Hks : forall h', rely L (G ++ R) h h' -> Forall2 (own R h') (takeN i cs) (map enc (takeN i ns))).
  { intros h' Rl. eapply owns_rely; [exact Rl|]. unfold takeN. rewrite <- firstn_map. apply F2_take. exact (iv_ks _ _ _ _ _ _ _ _ _ Hv). }
  destruct Hcase as [(rt & sz & -> & -> & -> & ->)|(-> & -> & Hh & _ & _)].
  - cbn [ocut] in *.
    assert (Hlz : lenN sz = lenN ns). { destruct Hw as (_ & _ & Hz). rewrite Hz, lenN_sums, lenN_map. reflexivity. }
    apply cwp_bind. apply cwp_make_inner_r. intros b d h1 R1 Hb1 Hd1.
    eapply iv_rely with (h' := h1) in Hv; [|rl]. eapply owns_rely in Hmc; [|exact R1].
    eapply iv_incl with (L' := L) (R' := mc ++ R) in Hv; [|inc|inc].
    apply cwp_bind. eapply cwp_copy_inner_r with (sr := rt) (cs := cs) (sz := sz);
      [exact Hb1|exact Hd1|exact (iv_vis _ _ _ _ _ _ _ _ _ Hv)|exact (iv_ot _ _ _ _ _ _ _ _ _ Hv)
      |eapply owns_from; exact (iv_ks _ _ _ _ _ _ _ _ _ Hv)|apply rtakeN_len; lia|apply rtakeN_len; lia|].
    intros h2 R2 Hb2 Hd2. cbn [when pbind].
    eapply cwp_pub_rel with (R := R) (ns := takeN i ns ++ mn); [exact Hb2|exact Hd2|now symmetry|oc| |].
    + rewrite map_app. apply Forall2_app.
      * apply owns_incl with (R := R); [inc|]. apply Hks. rl.
      * apply owns_incl with (R := mc ++ R); [inc|]. eapply owns_rely; [exact R2|exact Hmc].
    + intros Hn. apply cwp_done. apply K; [rl|exact Hn].
  - rewrite (Hh (prog body A) (fun _ _ => _)). cbn [ocut] in *.
    apply cwp_bind. apply cwp_make_inner. intros b h1 R1 Hb1.
    eapply iv_rely with (h' := h1) in Hv; [|rl]. eapply owns_rely in Hmc; [|exact R1].
    eapply iv_incl with (L' := L) (R' := mc ++ R) in Hv; [|inc|inc].
    apply cwp_bind. eapply cwp_copy_inner with (sr := None) (cs := cs);
      [exact Hb1|exact (iv_vis _ _ _ _ _ _ _ _ _ Hv)|eapply owns_from; exact (iv_ks _ _ _ _ _ _ _ _ _ Hv)|apply rtakeN_len; lia|].
    intros h2 R2 Hb2. cbn [when pbind].
    eapply cwp_pub_inner with (R := R) (o := None) (ns := takeN i ns ++ mn); [exact Hb2|oc|exact I| |].
    + rewrite map_app. apply Forall2_app.
      * apply owns_incl with (R := R); [inc|]. apply Hks. rl.
      * apply owns_incl with (R := mc ++ R); [inc|]. eapply owns_rely; [exact R2|exact Hmc].
    + intros Hn. apply cwp_done. apply K; [rl|exact Hn].
Qed.

Theorem t_slice_right_ok : 1 <= B -> forall v col hp p n a last i nr ts tn (F : post (option (nat * nat) * N * nat)) L R h,
  haddr hp = Ok a -> prel L R h hp p -> own R h a (enc n) -> pos_ok v p n -> addr B BL v p last i -> i < nsize n ->
  slice_right B BL col v p last = Ok (nr, ts, tn) ->
  (forall o tl h', rely L (G ++ R) h h' -> own (tl :: oroot o ++ R) h' tl (enc tn) -> oown (tl :: oroot o ++ R) h' o nr ->
     F (o, ts, tl) L (tl :: oroot o ++ R) h') ->
  cwp (t_slice_right B BL col false v hp last) F L R h.
Proof.
  intros HB. induction v as [|l IH]; intros col hp p n a last i nr ts tn F L R h Ea Hp Ho Hok Had Hi Hu K.
  - (* leaf *)
    destruct (leaf_index _ _ _ _ _ _ Hok Had Hi) as (xs & -> & Hidx & Hlt).
    cbn [t_slice_right slice_right] in *.
    rewrite (pos_ok_node _ _ _ _ _ Hok), (count_ok _ _ _ _ _ Hok), Hidx in Hu. cbn [rbind ncount] in Hu.
    apply cwp_bind. eapply cwp_lift; [exact Ea|]. apply cwp_bind. eapply cwp_view; [exact Hp|]. intros h1 R1.
    eapply own_rely in Ho; [|exact R1].
    apply cwp_bind. eapply cwp_lift; [rewrite count_blank; apply (count_ok _ _ _ _ _ Hok)|].
    apply cwp_bind. eapply cwp_lift; [rewrite index_blank; exact Hidx|]. cbn [t_mine pbind ncount].
    destruct (i + 1 =? lenN xs) eqn:E.
    + injection Hu as <- <- <-. apply cwp_bind. cbn [negb when]. apply cwp_up; [apply Ho|]. intros h2 R2.
      apply cwp_done. apply (K None a); [rl| |exact I]. cbn [oroot app].
      eapply own_incl; [|eapply own_rely; [exact R2|exact Ho]]. inc.
    + unfold copy_leaf in Hu. cbn [leaf_of rbind] in Hu. apply N.eqb_neq in E.
      rewrite rtakeN_len in Hu by lia. cbn [rbind] in Hu. injection Hu as <- <- <-.
      apply cwp_bind. eapply cwp_copy_leaf; [apply own_leaf; exact Ho|apply rtakeN_len; lia|].
      intros b h2 R2 Hb. cbn [when pbind]. eapply cwp_pub_leaf; [exact Hb|]. intros Hn. apply cwp_done.
      apply (K None b); [rl|exact Hn|exact I].
  - (* inner *)
    cbn [t_slice_right slice_right] in *.
    pose proof (pos_ok_wf _ _ _ _ _ Hok) as Hw.
    destruct (towards_ok B BL l p _ last i Hok Had Hi)
      as (na & x & nb & j & Ek & Ei & Hj & Hwx & Hidx & (q & last' & Et & Hq & Haq) & Hnr).
    apply cwp_bind. eapply cwp_lift; [exact Ea|]. apply cwp_bind. eapply cwp_view; [exact Hp|]. intros h1 R1.
    eapply own_rely in Ho; [|exact R1]. eapply prel_rely in Hp; [|exact R1].
    apply cwp_bind. eapply cwp_lift; [rewrite index_blank; exact Hidx|]. cbn [t_mine pbind].
    destruct (wf_inner _ _ _ _ Hw) as (o & ns & ->). cbn [kids] in Ek. subst ns.
    destruct (own_iv _ L _ _ _ _ _ Ho) as (r & cs & Hv). pose proof (iv_len _ _ _ _ _ _ _ _ _ Hv) as El.
    destruct (htowards_ok B BL l p _ cs last (lenN na) q last' Hok El Et) as (kd & Hkd & Hpick).
    destruct Hpick as (ca & c & cb & na' & x' & nb' & -> & En & Eca & Ena & Eaddr & Ekp & _).
    cbn [kids] in En. apply app_same in En; [|now symmetry]. destruct En as (<- & <- & <-).
    apply cwp_bind. eapply cwp_inner; [exact (iv_vis _ _ _ _ _ _ _ _ _ Hv)|]. intros h2 R2.
    eapply own_rely in Ho; [|exact R2]. eapply prel_rely in Hp; [|exact R2]. eapply iv_rely in Hv; [|exact R2].
    apply cwp_bind. eapply cwp_lift; [exact Hkd|].
    pose proof (iv_ks _ _ _ _ _ _ _ _ _ Hv) as Hks. rewrite map_app in Hks. cbn [map] in Hks.
    assert (Elen : lenN ca = lenN (map enc na)) by (rewrite lenN_map; lia).
    destruct (F2_mid _ _ _ _ _ _ _ Elen Hks) as (Hk1 & Hkx & Hk2).
    apply cwp_bind. eapply cwp_open with (k := kd); [rewrite Eaddr; apply own_nvis; exact Hkx|exact Ekp|].
    intros hq h3 R3 Ehq Hhq.
    eapply own_rely in Ho; [|exact R3]. eapply prel_rely in Hp; [|exact R3]. eapply iv_rely in Hv; [|exact R3].
    eapply own_rely in Hkx; [|exact R3]. eapply owns_rely in Hk1; [|exact R3].
    assert (R03 : rely L (G ++ R) h h3) by rl. clear Hk2 Hks. rewrite Eaddr in *.
    assert (K' : forall o tl h', rely L (G ++ R) h3 h' -> own (tl :: oroot o ++ R) h' tl (enc tn) -> oown (tl :: oroot o ++ R) h' o nr ->
     F (o, ts, tl) L (tl :: oroot o ++ R) h') by (intros; apply K; [rl|assumption|assumption]).
    clear K R03 R3 R2 R1 h1 h2. rename h into h00, h3 into h, K' into K.
    rewrite Hidx in Hu. cbn [rbind] in Hu. rewrite Et in Hu. cbn [rbind] in Hu.
    destruct (col && (lenN na =? 0)) eqn:E0.
    + apply cwp_bind. eapply IH; [exact Ehq|exact Hhq|exact Hkx|exact Hq|exact Haq|exact Hj|exact Hu|].
      intros o1 tl1 h1 R1 Htl Hoo. cbn [when pbind]. apply cwp_done. apply K; assumption.
    + assert (Ein : pinner p = Ok (na ++ x :: nb)) by (unfold pinner; rewrite (pos_ok_node _ _ _ _ _ Hok); reflexivity).
      destruct (slice_right_ok B BL false l q x last' j HB Hq Haq Hj) as (nx & xs & E & Hxs & Htk & Hnx).
      rewrite E in Hu. cbn [rbind] in Hu. rewrite Ein in Hu. cbn [rbind] in Hu.
      assert (Etk : forall (A : list nd), rtakeN (lenN na) (na ++ A) = Ok na) by (intros A; apply rtakeN_app; reflexivity).
      assert (Hsz : forall sz, o = Some sz -> rtakeN (lenN na) sz = Ok (takeN (lenN na) sz)).
      { intros sz ->. apply rtakeN_len. destruct Hw as (_ & _ & Hz). rewrite Hz, lenN_sums, lenN_map, lenN_app. lia. }
      assert (Hp2 : (exists sz nn, p = PRel nn sz /\ o = Some sz) \/ (o = None /\ forall A (f : list N -> A) y, match p with PRel _ sz => f sz | _ => y end = y)).
      { destruct (prel_cases _ _ _ _ _ _ _ _ _ _ _ Hp Ea Hok) as (r' & cs' & o' & ns' & E' & _ & _ & Hcase). injection E' as <- <-.
        destruct Hcase as [(r0 & sz & _ & -> & _ & ->)|(_ & -> & _ & Hpp & _)]; [left; eauto|right; auto]. }
      apply cwp_bind. eapply IH; [exact Ehq|exact Hhq|exact Hkx|exact Hq|exact Haq|exact Hj|exact E|].
      intros o1 tl1 h1 R1 Htl Hoo. cbv iota beta.
      eapply prel_rely in Hp; [|exact R1]. eapply iv_rely in Hv; [|exact R1]. eapply owns_rely in Hk1; [|exact R1].
      destruct nx as [[w cn]|], o1 as [[w' b]|]; cbn [oown oroot app] in Hoo; try easy.
      * destruct Hoo as [-> Hb]. destruct Hnx as (Hwc & Hwl & Hwe & Hrc). specialize (Hwe eq_refl). subst w.
        assert ((nr, ts, tn) = (Some (S l, Inner (ocut o (lenN na) [last + 1 - lenN xs]) (na ++ [cn])), lenN xs, Leaf xs)) as Emine.
        { rewrite Etk in Hu. cbn [rbind] in Hu. destruct Hp2 as [(sz & nn & -> & ->)|(-> & Hpp)].
          - rewrite (Hsz _ eq_refl) in Hu. cbn [rbind] in Hu. injection Hu as <- <- <-. reflexivity.
          - rewrite Hpp in Hu. injection Hu as <- <- <-. reflexivity. }
        injection Emine as -> -> ->. cbn [oroot app] in *.
        apply cwp_roots with (R' := [b] ++ tl1 :: R); [oc|].
        apply cwp_post. eapply cwp_cut_copy with (k := fun n => (Some (S l, n), lenN xs, tl1)) (ns := na ++ x :: nb) (mn := [cn]) (o := o) (p := p);
          [exact Ea| |exact Hok|rewrite lenN_app; lia| |apply (lv1_cut B BL); [exact (wf_kids _ _ _ _ Hw)|exact Hwc]|].
        -- eapply prel_incl; [| |exact Hp]; inc.
        -- constructor; [|constructor]. eapply own_incl; [|exact Hb]. inc.
        -- intros b2 h2 R2 Hb2. rewrite takeN_app in Hb2. cbv beta. exists L, (tl1 :: b2 :: R). split; [reflexivity|]. 
           split; [oc|].
           apply (K (Some (S l, b2)) tl1 h2); cbn [oroot app].
           ++ rl.
           ++ apply own_incl with (R := tl1 :: R); [inc|]. eapply own_rely with (L := L) (h := h1); [rl|].
              apply own_root; [now left|apply Htl].
           ++ split; [reflexivity|]. eapply own_incl; [|exact Hb2]. inc.
      * cbn [oroot app] in *. destruct (lenN na =? 0) eqn:E1.
        { injection Hu as <- <- <-. cbn [when pbind]. apply cwp_done. apply (K None tl1 h1 R1 Htl I). }
        destruct (col && (lenN na =? 1) && match l with O => false | _ => true end) eqn:E2.
        { apply andb_true_iff in E2 as [E2 _]. apply andb_true_iff in E2 as [_ E2]. apply N.eqb_eq in E2.
          destruct na as [|x0 [|? ?]]; [discriminate| |rewrite !lenN_cons in E2; lia].
          cbn [app] in Hu. change (rnthN (x0 :: x :: nb) 0) with (Ok x0) in Hu. cbn [rbind] in Hu. injection Hu as <- <- <-.
          destruct ca as [|c0 [|? ?]]; try (rewrite ?lenN_cons in Eca; cbn in Eca; lia). cbn [app] in *.
          apply cwp_bind. eapply cwp_inner; [eapply vis_incl with (L := L) (R := R); [| |exact (iv_vis _ _ _ _ _ _ _ _ _ Hv)]; inc|].
          intros h2 R2. apply cwp_bind. eapply cwp_lift; [reflexivity|]. cbn [negb when].
          assert (Hc0 : own R h2 c0 (enc x0)).
          { eapply own_rely with (L := L) (h := h1); [rl|]. now inversion Hk1. }
          apply cwp_bind. apply cwp_up; [assert (H0 : own (tl1 :: R) h2 c0 (enc x0)) by (eapply own_incl; [|exact Hc0]; inc); apply H0|]. intros h3 R3. cbn [pbind].
          apply cwp_post, cwp_done. exists L, (tl1 :: c0 :: R). split; [reflexivity|]. split; [oc|].
          apply (K (Some (l, c0)) tl1 h3); cbn [oroot app].
          - rl.
          - apply own_incl with (R := tl1 :: R); [inc|]. eapply own_rely with (L := L) (h := h1); [rl|exact Htl].
          - split; [reflexivity|]. apply own_incl with (R := R); [inc|]. eapply own_rely with (L := L) (h := h2); [rl|exact Hc0]. }
        assert ((nr, ts, tn) = (Some (S l, Inner (ocut o (lenN na) []) na), lenN xs, Leaf xs)) as Emine.
        { rewrite Etk in Hu. cbn [rbind] in Hu. destruct Hp2 as [(sz & nn & -> & ->)|(-> & Hpp)].
          - rewrite (Hsz _ eq_refl) in Hu. cbn [rbind] in Hu. injection Hu as <- <- <-. cbn [ocut]. rewrite app_nil_r. reflexivity.
          - rewrite Hpp in Hu. injection Hu as <- <- <-. reflexivity. }
        injection Emine as -> -> ->.
        change (tl1 :: R) with ([] ++ tl1 :: R).
        apply cwp_post. eapply cwp_cut_copy with (k := fun n => (Some (S l, n), lenN xs, tl1)) (ns := na ++ x :: nb) (mn := []) (o := o) (p := p);
          [exact Ea| |exact Hok|rewrite lenN_app; lia|constructor| |].
        -- eapply prel_incl; [| |exact Hp]; inc.
        -- rewrite app_nil_r. apply (lv1_take B BL); [exact (wf_kids _ _ _ _ Hw)|apply N.eqb_neq in E1; lia|rewrite lenN_app, lenN_cons; lia].
        -- intros b2 h2 R2 Hb2. rewrite takeN_app, app_nil_r in Hb2. cbv beta. exists L, (tl1 :: b2 :: R). split; [reflexivity|].
           split; [oc|].
           apply (K (Some (S l, b2)) tl1 h2); cbn [oroot app].
           ++ rl.
           ++ apply own_incl with (R := tl1 :: R); [inc|]. eapply own_rely with (L := L) (h := h1); [rl|exact Htl].
           ++ split; [reflexivity|]. eapply own_incl; [|exact Hb2]. inc.
Qed.

Theorem t_slice_left_ok : forall v col hp p n a first w r (F : post (nat * nat)) L R h,
  haddr hp = Ok a -> prel L R h hp p -> own R h a (enc n) -> pos_ok v p n -> is_sub p = true -> first < nsize n ->
  sh B BL (pred v) < 32 -> nsize n <= 2 ^ 32 -> slice_left B BL col v p first = Ok (w, r) ->
  (forall b h', rely L (G ++ R) h h' -> own (b :: R) h' b (enc r) -> F (w, b) L (b :: R) h') ->
  cwp (t_slice_left B BL nm col false v hp first) F L R h.
Proof.
  induction v as [|l IH]; intros col hp p n a first w r F L R h Ea Hp Ho Hok Hs Hi Hsh H32 Hu K.
  - (* leaf *)
    pose proof (addr_refl _ _ _ _ _ _ Hok Hi) as Had.
    destruct (leaf_index _ _ _ _ _ _ Hok Had Hi) as (xs & -> & Hidx & Hlt).
    cbn [t_slice_left slice_left] in *.
    rewrite (pos_ok_node _ _ _ _ _ Hok), (count_ok _ _ _ _ _ Hok), Hidx in Hu. cbn [rbind ncount] in Hu.
    unfold copy_leaf_range in Hu. cbn [leaf_of rbind] in Hu. apply rbind_ok in Hu. destruct Hu as (tn & Htn & Hu).
    apply rbind_ok in Htn. destruct Htn as (ys & Hys & Htn). injection Htn as <-. injection Hu as <- <-.
    apply cwp_bind. eapply cwp_lift; [exact Ea|]. apply cwp_bind. eapply cwp_view; [exact Hp|]. intros h1 R1.
    eapply own_rely in Ho; [|exact R1].
    apply cwp_bind. eapply cwp_lift; [rewrite count_blank; apply (count_ok _ _ _ _ _ Hok)|].
    apply cwp_bind. eapply cwp_lift; [rewrite index_blank; exact Hidx|]. cbn [t_mine pbind ncount andb].
    apply cwp_bind. eapply cwp_copy_range; [apply own_leaf; exact Ho|exact Hys|].
    intros b h2 R2 Hb. cbn [when pbind]. eapply cwp_pub_leaf; [exact Hb|]. intros Hn. apply cwp_done. apply K; [rl|exact Hn].
  - (* inner *)
    cbn [t_slice_left slice_left] in *.
    pose proof (pos_ok_wf _ _ _ _ _ Hok) as Hw.
    apply cwp_bind. eapply cwp_lift; [exact Ea|]. apply cwp_bind. eapply cwp_view; [exact Hp|]. intros h1 R1.
    eapply own_rely in Ho; [|exact R1]. eapply prel_rely in Hp; [|exact R1].
    destruct (wf_inner _ _ _ _ Hw) as (o & ns & ->).
    pose proof Hi as Hi'. rewrite nsize_inner in Hi'. fold (csize ns) in Hi'.
    destruct (find_child ns first Hi') as (na & x & nb & j & -> & Ei & Hj). subst first.
    assert (kids (Inner o (na ++ x :: nb)) = na ++ x :: nb) as Ek by reflexivity.
    pose proof (wf_kids _ _ _ _ Hw) as Hk. rewrite Ek in Hk.
    assert (Hx32 : nsize x <= 2 ^ 32).
    { rewrite nsize_inner in H32. fold (csize (na ++ x :: nb)) in H32. rewrite csize_app, csize_cons in H32.
      clear - H32. lia. }
    assert (sh B BL (pred l) < 32) as Hsh' by (unfold Rrb.sh in *; cbn [pred] in Hsh; lia).
    destruct (towards_sub_ok B BL l p _ na x nb j Hok Hs Ek Hj Hsh H32) as (q & Et & Hq & Hsq).
    pose proof (subindex_ok B BL _ _ _ _ _ _ _ Hok Hs Ek Hj) as Esi.
    pose proof (size_before_ok B BL _ _ _ _ _ _ Hok Hs Ek) as Esb. pose proof (size_sbh_ok B BL _ _ _ _ _ _ Hok Hs Ek) as Ess.
    rewrite Esi, (count_ok _ _ _ _ _ Hok) in Hu. cbn [rbind ncount] in Hu.
    rewrite Esb in Hu. cbn [rbind] in Hu. rewrite Ess in Hu. cbn [rbind] in Hu. rewrite Et in Hu. cbn [rbind] in Hu.
    destruct (own_iv _ L _ _ _ _ _ Ho) as (r0 & cs & Hv). pose proof (iv_len _ _ _ _ _ _ _ _ _ Hv) as El.
    destruct (htowards_sub_ok B BL l p _ cs (csize na + j) (lenN na) q j Hok El Et) as (kd & Hkd & Hpick).
    { intros x' Hx'. rewrite Ek, rnthN_app in Hx' by reflexivity. injection Hx' as <-. exact Hq. }
    destruct Hpick as (ca & c & cb & na' & x' & nb' & -> & En & Eca & Ena & Eaddr & Ekp & _).
    cbn [kids] in En. apply app_same in En; [|now symmetry]. destruct En as (<- & <- & <-).
    assert (Ecb : lenN cb = lenN nb) by (rewrite !lenN_app, !lenN_cons in El; lia).
    apply cwp_bind. eapply cwp_lift; [rewrite count_blank; apply (count_ok _ _ _ _ _ Hok)|].
    apply cwp_bind. eapply cwp_lift; [rewrite subindex_blank; exact Esi|].
    apply cwp_bind. eapply cwp_lift; [rewrite size_before_blank; exact Esb|].
    apply cwp_bind. eapply cwp_lift; [rewrite size_sbh_blank; exact Ess|]. cbn [t_mine pbind].
    apply cwp_bind. eapply cwp_inner; [exact (iv_vis _ _ _ _ _ _ _ _ _ Hv)|]. intros h2 R2.
    apply cwp_bind. eapply cwp_lift; [exact Hkd|].
    eapply own_rely in Ho; [|exact R2]. eapply prel_rely in Hp; [|exact R2]. eapply iv_rely in Hv; [|exact R2].
    assert (K' : forall b h', rely L (G ++ R) h2 h' -> own (b :: R) h' b (enc r) -> F (w, b) L (b :: R) h')
      by (intros; apply K; [rl|assumption]).
    clear K R2 R1 h1. rename h into h00, h2 into h, K' into K.
    pose proof (iv_ks _ _ _ _ _ _ _ _ _ Hv) as Hks. rewrite map_app in Hks. cbn [map] in Hks.
    assert (Elen : lenN ca = lenN (map enc na)) by (rewrite lenN_map; lia).
    destruct (F2_mid _ _ _ _ _ _ _ Elen Hks) as (Hk1 & Hkx & Hk2). clear Hks.
    set (s0 := nsize x - (csize na + j - csize na)) in *. cbn [ncount] in *.
    set (k := lenN (na ++ x :: nb)) in *.
    destruct (col && match l with O => false | _ => true end && (lenN na + 1 =? k)) eqn:Econd.
    + apply cwp_bind. eapply cwp_open with (k := kd); [rewrite Eaddr; apply own_nvis; exact Hkx|exact Ekp|]. intros hq h1 R1 Ehq Hhq.
      rewrite Eaddr in Ehq. apply cwp_bind. eapply IH; [exact Ehq|exact Hhq|eapply own_rely; [exact R1|exact Hkx]|exact Hq|exact Hsq|exact Hj|exact Hsh'|exact Hx32|exact Hu|].
      intros b h2 R2 Hb. cbn [when pbind]. apply cwp_done. apply K; [rl|exact Hb].
    + destruct (slice_left_ok B BL false l q x j Hq Hsq Hj Hsh' Hx32) as (w1 & cn & E & Hwr & _ & _ & Hwe & _).
      rewrite (Hwe eq_refl) in *. rewrite E in Hu. cbn [rbind] in Hu. unfold pinner in Hu. rewrite (pos_ok_node _ _ _ _ _ Hok) in Hu.
      cbn [rbind inner_of] in Hu.
      apply rbind_ok in Hu. destruct Hu as (szs & Hszs & Hu). apply rbind_ok in Hu. destruct Hu as (cs' & Hcs' & Hu).
      replace (lenN na + 1) with (lenN (na ++ [x])) in Hcs' by apply lenN_snoc.
      replace (na ++ x :: nb) with ((na ++ [x]) ++ nb ++ []) in Hcs' by (rewrite app_nil_r, <- app_assoc; reflexivity).
      rewrite rsliceN_app in Hcs'; [|reflexivity|unfold k; rewrite lenN_snoc, lenN_app, lenN_cons; lia].
      injection Hcs' as <-. injection Hu as <- <-.
      apply cwp_bind. apply cwp_make_inner_r. intros b d h1 R1 Hb Hd.
      assert (R1' : rely L (G ++ R) h h1) by exact R1.
      apply cwp_bind. eapply cwp_open with (k := kd) (n := x); [rewrite Eaddr; apply own_nvis; eapply own_rely; [exact R1|exact Hkx]|exact Ekp|].
      intros hq h2 R2 Ehq Hhq. rewrite Eaddr in Ehq.
      apply cwp_bind. eapply IH with (n := x); [exact Ehq|exact Hhq|eapply own_rely with (L := L) (h := h); [rl|exact Hkx]|exact Hq|exact Hsq|exact Hj|exact Hsh'|exact Hx32|exact E|].
      intros c' h3 R3 Hc'. cbn [when pbind].
      assert (Hb3 : cell_at h3 b (icell 1 (Some d) [])).
      { eapply rely_local; [exact R3|right; now left|]. eapply rely_local; [exact R2|right; now left|exact Hb]. }
      assert (Hd3 : cell_at h3 d (mkCell 1 (VTable (S l) []) [])).
      { eapply rely_local; [exact R3|now left|]. eapply rely_local; [exact R2|now left|exact Hd]. }
      apply cwp_bind. eapply cwp_view with (p := p).
      { apply prel_incl with (L := L) (R := R); [inc|inc|]. eapply prel_rely with (h := h); [rl|exact Hp]. }
      intros h4 R4. apply cwp_bind. eapply cwp_lift; [rewrite copy_sizes_blank; exact Hszs|].
      apply cwp_bind. eapply cwp_lift.
      { replace (lenN na + 1) with (lenN (ca ++ [c])) by (rewrite lenN_snoc; lia).
        replace (ca ++ c :: cb) with ((ca ++ [c]) ++ cb ++ []) by (rewrite app_nil_r, <- app_assoc; reflexivity).
        apply rsliceN_app; [reflexivity|]. unfold k. rewrite lenN_snoc, lenN_app, lenN_cons. lia. }
      assert (Hb4 : cell_at h4 b (icell 1 (Some d) [])) by (eapply rely_local; [exact R4|right; now left|exact Hb3]).
      apply cwp_bind. eapply (cwp_inner G b (Some d) []); [eapply loc_vis; [apply perm_swap|exact Hb4]|]. intros h5 R5.
      apply cwp_bind. eapply cwp_put_table; [reflexivity| |].
      { eapply rely_local; [exact R5|now left|]. eapply rely_local; [exact R4|now left|exact Hd3]. }
      intros h6 R6 Hd6. apply cwp_bind.
      eapply cwp_put_inner with (L' := d :: L); [apply perm_swap| |].
      { eapply rely_local; [exact R6|now left|]. eapply rely_local; [exact R5|right; now left|exact Hb4]. }
      intros h7 R7 Hb7. apply cwp_bind. apply cwp_bind. apply cwp_ups.
      { apply froms_incl with (R := R); [inc|]. eapply from_rely with (L := L) (h := h); [rl|]. eapply owns_from. exact Hk2. }
      intros h8 R8. cbn [when pbind].
      eapply cwp_pub_rel with (R := R) (ns := cn :: nb).
      * eapply rely_local; [exact R8|right; now left|exact Hb7].
      * eapply rely_local; [exact R8|now left|]. eapply rely_local; [exact R7|now left|exact Hd6].
      * unfold lv1. now rewrite (wf_lvl B BL _ _ Hwr).
      * oc.
      * cbn [map]. constructor.
        -- apply own_incl with (R := c' :: R); [inc|]. eapply own_rely with (L := L) (h := h3); [rl|exact Hc'].
        -- apply owns_incl with (R := R); [inc|]. eapply owns_rely with (L := L) (h := h); [rl|exact Hk2].
      * intros Hn. apply cwp_done. apply cwp_done. apply K; [rl|exact Hn].
Qed.

End VCS.
