(** The operations of vectors and flex_vectors in the memory of several threads. *)
From Coq Require Import List NArith Arith Bool Lia Permutation ZifyN ZifyNat ZifyBool.
From Verif Require Import Common NList Rrb RrbInv RrbPos RrbOps RrbSlice RrbTree RrbViewOk RrbConcat AtomProofs
  RcHeap RcProofs Conc ConcProofs VecPush VecSliceR VecSliceL VecTreeProofs ChampConcProofs VecHeap VecPlan VecNodes VecMake
  VecGetMut VecTree VecProgSpec VecProg VecConc VecConcProofs VecConcGetMut VecConcPush VecConcSlice.
Import ListNotations.
Local Open Scope N_scope.
Set Default Goal Selector "!".

Section VCT.
Context {T : Type}.
Variables B BL : N.
Variables nm rx : bool.
Variables er et : nat.
Variable G : list nat.
Hypothesis HB : 1 <= B.
Notation body := (vbody T).
Notation heap := (heap body). Notation cell := (cell body).
Notation nd := (node T).
Notation pos_ok := (@pos_ok T B BL).
Notation wf := (@wf T B BL).
Notation full := (@full T B BL).
Notation span := (span B BL).
Notation lwidth := (lwidth BL).
Notation root_ok := (@root_ok T B BL).
Notation cwp := (cwp G).
Notation own := (own G).
Notation vis := (vis G).
Notation iv := (iv G).
Notation ot := (ot G).
Notation nvis := (nvis G).
Notation prel := (prel G).
Notation post A := (A -> list nat -> list nat -> heap -> Prop).
Notation enc := (@enc T).
Notation ow := VecPush.own.
Notation vrel := (@vrel T B BL rx []).
Notation vec := (@vec T B BL rx []).
Notation shape := (@shape T rx).
Notation statics := (@statics T er et []).
Implicit Types (h : heap) (x y : htree).

(** ** What a container stands for *)
Definition tv R h x (r : nd) (xs : list T) : Prop :=
  vrel h x r xs /\ own R h (ht_root x) (enc r) /\ own R h (ht_tail x) (enc (Leaf xs)).
Lemma tv_rely L R h h' x r xs : rely L (G ++ R) h h' -> tv R h x r xs -> tv R h' x r xs.
Proof.
  intros Rl ((E1 & E2 & E3 & E4 & E5 & _ & _) & H1 & H2).
  pose proof (own_rely _ _ _ _ _ _ _ Rl H1) as H1'. pose proof (own_rely _ _ _ _ _ _ _ Rl H2) as H2'.
  split; [|auto]. repeat (split; [assumption|]). split; [apply H1'|apply H2'].
Qed.
Lemma tv_incl R R' h x r xs : incl R R' -> tv R h x r xs -> tv R' h x r xs.
Proof. intros Hi (H & H1 & H2). split; [exact H|]. split; eapply own_incl; eauto. Qed.
Lemma tv_root R h x r xs : vrel h x r xs -> incl (hptr x) R -> tv R h x r xs.
Proof.
  intros H Hi. split; [exact H|]. destruct H as (_ & _ & _ & _ & _ & N1 & N2).
  split; apply own_root; [apply Hi; now left|exact N1|apply Hi; right; now left|exact N2].
Qed.
Lemma vec_tv R h x l : vec h x l -> incl (hptr x) R -> exists r xs, tv R h x r xs /\ l = elems r ++ xs.
Proof. intros (r & xs & H & E) Hi. exists r, xs. split; [now apply tv_root|exact E]. Qed.
Lemma tv_vec R h x r xs : tv R h x r xs -> vec h x (elems r ++ xs).
Proof. intros (H & _). exists r, xs. auto. Qed.
Lemma vec_rely L R h h' x l : rely L (G ++ R) h h' -> incl (hptr x) R -> vec h x l -> vec h' x l.
Proof.
  intros Rl Hi Hv. destruct (vec_tv _ _ _ _ Hv Hi) as (r & xs & H & ->). eapply tv_vec. eapply tv_rely; eauto.
Qed.
Lemma stat_rely L R h h' : rely L (G ++ R) h h' -> statics h G -> statics h' G.
Proof.
  intros Rl (I1 & I2 & N1 & N2).
  split; [exact I1|]. split; [exact I2|].
  split; (eapply rely_rep; [exact Rl|apply from_root, in_or_app; now left|assumption]).
Qed.
Lemma stat_own R h : statics h G -> own R h er (enc (Inner None [])) /\ own R h et (enc (Leaf [])).
Proof.
  intros (I1 & I2 & N1 & N2).
  split; (split; [apply from_root, in_or_app; now left|assumption]).
Qed.
(** A new container. *)
Lemma vec_new R R' h sz lv a b r xs l : root_ok lv r -> shape lv r -> own R h a (enc r) -> own R' h b (enc (Leaf xs)) ->
  sz = nsize r + lenN xs -> lenN xs <= lwidth -> (0 < sz -> 0 < lenN xs) -> l = elems r ++ xs ->
  vec h (mkHT sz lv a b) l.
Proof. intros ? ? [_ ?] [_ ?] ? ? ? ?. eapply vec_intro; eauto. Qed.

(** ** Steps *)
Lemma cwp_tail_offset x r xs (F : post N) L R h : tv R h x r xs ->
  (forall h', rely L (G ++ R) h h' -> F (nsize r) L R h') -> cwp (t_tail_offset BL rx x) F L R h.
Proof.
  intros ((E1 & E2 & E3 & E4 & E5 & _) & O1 & O2) K. unfold t_tail_offset.
  assert (Hn : is_rel r = false ->
    (if ht_size x =? 0 then 0 else N.ldiff (ht_size x - 1) (lmask BL)) = nsize r).
  { intros Hr. rewrite E1 in *. eapply nonrel_offset; eauto. }
  destruct rx eqn:Er.
  - destruct (root_inner _ _ _ _ E4) as (o & ns & ->). destruct (own_iv G L _ _ _ _ _ O1) as (rr & cs & Hi). apply cwp_bind.
    eapply cwp_inner; [exact (iv_vis _ _ _ _ _ _ _ _ _ Hi)|]. intros h1 R1.
    pose proof (iv_ot _ _ _ _ _ _ _ _ _ Hi) as Ho. destruct rr as [rr|], o as [sz|]; try easy.
    + apply cwp_bind. eapply cwp_otable; [eapply own_rely; [exact R1|exact Ho]|]. intros h2 R2.
      destruct E4 as [[? _]|Hw]; [easy|]. eapply cwp_lift; [apply (rel_last _ _ _ _ _ Hw)|]. apply K. rl.
    + apply cwp_done. rewrite Hn by reflexivity. apply K. exact R1.
  - apply cwp_done. rewrite Hn; [apply K, rely_refl|]. now apply E5.
Qed.
Lemma cwp_maybe_root x r xs (F : post hpos) L R h : tv R h x r xs -> 0 < nsize r ->
  (forall q p h', rely L (G ++ R) h h' -> haddr q = Ok (ht_root x) -> prel L R h' q p -> pos_ok (S (ht_lv x)) p r ->
     is_sub p = true -> F q L R h') ->
  cwp (t_maybe B BL (T := T) (S (ht_lv x)) (ht_root x) (nsize r)) F L R h.
Proof.
  intros ((E1 & E2 & E3 & E4 & E5 & _) & O1 & O2) Hp K. pose proof (RrbTree.root_pos B BL HB _ _ E4 Hp) as Hw.
  destruct (maybe_relaxed_ok _ _ _ _ Hw) as (p & Ep & Hok & Hs). eapply cwp_maybe; [apply own_nvis; exact O1|exact Ep|].
  intros q h1 R1 Eq Hq. eapply K; eauto.
Qed.
Lemma cwp_root_pos x r xs (F : post hpos) L R h : tv R h x r xs -> 0 < nsize r ->
  (forall q p h', rely L (G ++ R) h h' -> haddr q = Ok (ht_root x) -> prel L R h' q p -> pos_ok (S (ht_lv x)) p r ->
     is_sub p = true -> F q L R h') ->
  cwp (t_root_pos B BL rx (T := T) x (nsize r)) F L R h.
Proof.
  intros H Hp K. unfold t_root_pos. destruct rx eqn:Er; [eapply cwp_maybe_root; subst; eauto|].
  destruct H as ((E1 & E2 & E3 & E4 & E5 & _) & O1 & O2). pose proof (RrbTree.root_pos B BL HB _ _ E4 Hp) as Hw.
  destruct (E5 Er) as [Hr _]. pose proof (mk_sub_ok B BL _ _ Hw Hr) as Em. apply mk_sub_inv in Em.
  destruct Em as [_ Em]. apply cwp_bind. eapply cwp_lift; [exact Em|]. apply cwp_done.
  eapply K; [apply rely_refl|reflexivity|constructor; apply own_nvis; exact O1|now constructor|reflexivity].
Qed.
Lemma cwp_dec_empty a (F : post unit) L R h : own (a :: R) h a (enc (Inner None [])) ->
  (forall h', rely L (G ++ R) h h' -> F tt L R h') -> cwp (t_dec_empty a) F L (a :: R) h.
Proof.
  intros Ho K. apply cwp_bind. eapply cwp_dn; [reflexivity| |].
  - intros h1 R1. apply cwp_done. now apply K.
  - intros c h1 Hc R1 Hc1. destruct (own_iv G L _ _ _ _ _ Ho) as (rr & cs & Hi).
    destruct (vis_cell _ _ _ _ _ _ _ _ (iv_vis _ _ _ _ _ _ _ _ _ Hi) Hc) as [Eb Ek].
    pose proof (iv_ks _ _ _ _ _ _ _ _ _ Hi) as Hk. pose proof (iv_ot _ _ _ _ _ _ _ _ _ Hi) as Hot.
    inversion Hk; subst. destruct rr; [easy|]. rewrite Eb, Ek in *. cbn [ptrs app ibody] in *.
    eapply (cwp_delete_inner) with (cs := []); [exact Hc1|]. intros h2 R2. apply K. rl.
Qed.
Lemma cwp_drop_leaf a xs (F : post unit) L R h : own (a :: R) h a (enc (Leaf xs)) -> lenN xs <= lwidth ->
  (forall h', rely L (G ++ R) h h' -> F tt L R h') -> cwp (t_dec_leaf B BL (T := T) a (lenN xs)) F L (a :: R) h.
Proof.
  intros Ho Hx K. unfold t_dec_leaf, t_dec_kid. cbn [t_open t_dec].
  apply cwp_bind. apply cwp_bind. eapply cwp_lift.
  { cbn [mk_sub]. destruct (N.leb_spec (lenN xs) lwidth); [reflexivity|lia]. }
  apply cwp_done. apply cwp_bind. eapply cwp_lift; [reflexivity|]. apply cwp_bind. eapply cwp_dn; [reflexivity| |].
  - intros h1 R1. apply cwp_done. now apply K.
  - intros c h1 Hc R1 Hc1. destruct (vis_cell _ _ _ _ _ _ _ _ (own_leaf G L _ _ _ _ Ho) Hc) as [Eb Ek]. rewrite Eb, Ek in *.
    cbn [app t_view pbind] in *. apply cwp_bind. eapply cwp_lift; [reflexivity|]. apply cwp_bind.
    eapply cwp_leaf; [eapply loc_vis; [reflexivity|exact Hc1]|]. intros h2 R2.
    rewrite N.eqb_refl. eapply cwp_fr; [reflexivity|]. intros h3 R3. apply K. rl.
Qed.

(** ** Construction, copy, destruction *)
Lemma cwp_empty (F : post htree) L R h : statics h G ->
  (forall y h', rely L (G ++ R) h h' -> vec h' y [] -> F y L (hptr y ++ R) h') -> cwp (t_empty (T := T) er et) F L R h.
Proof.
  intros Hs K. apply cwp_bind. destruct (stat_own R _ Hs) as [O1 _]. apply cwp_up; [apply O1|]. intros h1 R1.
  apply cwp_bind. pose proof (stat_rely _ _ _ _ R1 Hs) as Hs1. destruct (stat_own (er :: R) _ Hs1) as [_ O2].
  apply cwp_up; [apply O2|]. intros h2 R2. apply cwp_post, cwp_done. eexists L, (hptr (mkHT 0 0 er et) ++ R).
  split; [reflexivity|]. split; [unfold hptr; cbn [ht_root ht_tail]; oc|].
  pose proof (stat_rely _ _ _ _ R2 Hs1) as Hs2. destruct (stat_own R _ Hs2) as [P1 P2]. apply K; [rl|].
  eapply vec_new; [left; split; reflexivity|now apply shape_nil|exact P1|exact P2|reflexivity| | |reflexivity].
  - change (lenN (@nil T)) with 0. lia.
  - lia.
Qed.
Lemma cwp_copy x l (F : post htree) L R h : vec h x l -> incl (hptr x) R ->
  (forall h', rely L (G ++ R) h h' -> vec h' x l -> F x L (hptr x ++ R) h') -> cwp (t_copy (T := T) x) F L R h.
Proof.
  intros Hv Hi K. destruct (vec_tv _ _ _ _ Hv Hi) as (r & xs & Ht & ->).
  apply cwp_bind. apply cwp_up; [apply Ht|]. intros h1 R1. eapply tv_rely in Ht; [|exact R1].
  apply cwp_bind. apply cwp_up.
  { assert (O : own (ht_root x :: R) h1 (ht_tail x) (enc (Leaf xs))) by (eapply own_incl; [|apply Ht]; inc). apply O. }
  intros h2 R2. apply cwp_post, cwp_done. exists L, (hptr x ++ R).
  split; [reflexivity|]. split; [unfold hptr; oc|]. apply K; [rl|]. eapply tv_vec, tv_rely with (L := L); [|exact Ht]. rl.
Qed.
Lemma cwp_destroy x l (F : post unit) L R h : vec h x l ->
  (forall h', rely L (G ++ R) h h' -> F tt L R h') -> cwp (t_destroy B BL rx (T := T) x) F L (hptr x ++ R) h.
Proof.
  intros Hv K. destruct (vec_tv (hptr x ++ R) _ _ _ Hv) as (r & xs & Ht & ->); [inc|]. unfold t_destroy.
  apply cwp_bind. eapply cwp_tail_offset; [exact Ht|]. intros h1 R1. eapply tv_rely in Ht; [|exact R1].
  pose proof Ht as ((E1 & E2 & E3 & E4 & E5 & N1 & N2) & O1 & O2). replace (ht_size x - nsize r) with (lenN xs) by lia.
  assert (W : forall h2, rely L (G ++ ht_tail x :: R) h1 h2 -> cwp (t_dec_leaf B BL (ht_tail x) (lenN xs)) F L (ht_tail x :: R) h2).
  { intros h2 R2. eapply cwp_drop_leaf; [|exact E2|].
    - eapply own_rely; [exact R2|]. apply own_root; [now left|exact N2].
    - unfold hptr in *. intros h3 R3. apply K. rl. }
  apply cwp_bind. unfold hptr in *. cbn [app] in *. destruct (N.ltb_spec 0 (nsize r)) as [Hp|Hp].
  - apply cwp_bind. eapply cwp_root_pos; [exact Ht|exact Hp|]. intros q p h2 R2 Eq Hq Hok _.
    eapply t_dec_ok; [exact Eq|exact Hq|exact Hok|]. intros h3 R3. apply W. rl.
  - destruct (root_zero B BL HB _ _ E4) as [-> _]; [lia|]. eapply cwp_dec_empty; [exact O1|exact W].
Qed.

(** ** Pushing the tail *)
Lemma cwp_grow m rl x r tl tn off ts (F : post (nat * nat)) L R h :
  own (ow m (ht_root x) ++ R) h (ht_root x) (enc r) -> own (tl :: R) h tl (enc tn) -> wf (S (ht_lv x)) r ->
  0 < off -> (rl = true -> 0 < ts) ->
  (forall n h', rely L (G ++ R) h h' ->
     own (n :: R) h' n (enc (Inner (if rl then Some [off; off + ts] else None) [r; make_path (S (ht_lv x)) tn])) ->
     carries h' n tl tn -> F (S (ht_lv x), n) L (n :: R) h') ->
  cwp (t_grow m rl x off tl ts) F L (ow m (ht_root x) ++ tl :: R) h.
Proof.
  intros Hr Ht Hw Ho Hts K. unfold t_grow. apply cwp_bind.
  (* what remains after the node is made *)
  assert (W : forall LN h1 (F' : post (nat * nat)) (k : nat -> prog body (nat * nat)),
    rely L (G ++ ow m (ht_root x) ++ tl :: R) h h1 ->
    (forall c h2, rely LN (G ++ R) h1 h2 ->
       Forall2 (own ([ht_root x; c] ++ R) h2) [ht_root x; c] (map enc [r; make_path (S (ht_lv x)) tn]) ->
       carries h2 c tl tn -> cwp (k c) F' LN ([ht_root x; c] ++ R) h2) ->
    cwp (c <-- t_make_path (S (ht_lv x)) tl ;; _ <-- when (negb m) (up (ht_root x)) ;; k c) F' LN (ow m (ht_root x) ++ tl :: R) h1).
  { intros LN h1 F' k R1 KW. apply cwp_bind. apply cwp_roots with (R' := tl :: ow m (ht_root x) ++ R); [oc|].
    assert (Hr1 : own (ow m (ht_root x) ++ R) h1 (ht_root x) (enc r)) by (eapply own_rely with (L := L) (h := h); [rl|exact Hr]).
    eapply cwp_make_path.
    { apply own_incl with (R := tl :: R); [inc|]. eapply own_rely with (L := L) (h := h); [rl|exact Ht]. }
    intros c h2 R2 Hc2 Hcar. assert (Hr2 : own (ow m (ht_root x) ++ R) h2 (ht_root x) (enc r)) by (eapply own_rely; [exact R2|exact Hr1]).
    apply cwp_bind. destruct m; cbn [negb when VecPush.own app] in *.
    - apply cwp_done. apply cwp_roots with (R' := [ht_root x; c] ++ R); [oc|]. apply KW; [rl| |exact Hcar].
      constructor; [eapply own_incl; [|exact Hr2]; inc|]. constructor; [eapply own_incl; [|exact Hc2]; inc|constructor].
    - apply cwp_up; [assert (O : own (c :: R) h2 (ht_root x) (enc r)) by (eapply own_incl; [|exact Hr2]; inc); apply O|].
      intros h3 R3. apply KW; [rl| |eapply carries_rely; [exact R3|apply in_or_app; right; now left|exact Hcar]].
      constructor; [apply own_incl with (R := R); [inc|]; eapply own_rely with (L := LN) (h := h2); [rl|exact Hr2]|].
      constructor; [|constructor]. apply own_incl with (R := c :: R); [inc|]. eapply own_rely; [exact R3|exact Hc2]. }
  destruct rl.
  - apply cwp_make_inner_r. intros a d h1 R1 Ha1 Hd1. apply W; [exact R1|].
    intros c h2 R2 Hk2 Hcar. destruct (N.ltb_spec 0 off); [|lia]. specialize (Hts eq_refl). destruct (N.ltb_spec 0 ts); [|lia]. cbn [andb].
    assert (Ha2 : cell_at h2 a (icell 1 (Some d) [])) by (eapply rely_local; [exact R2|right; now left|exact Ha1]).
    assert (Hd2 : cell_at h2 d (mkCell 1 (VTable (S (S (ht_lv x))) []) [])) by (eapply rely_local; [exact R2|now left|exact Hd1]).
    apply cwp_bind. apply cwp_bind. eapply (cwp_inner G a (Some d) []).
    { eapply loc_vis with (L' := d :: L); [apply perm_swap|exact Ha2]. }
    intros h3 R3. assert (Ha3 : cell_at h3 a (icell 1 (Some d) [])) by (eapply rely_local; [exact R3|right; now left|exact Ha2]).
    assert (Hd3 : cell_at h3 d (mkCell 1 (VTable (S (S (ht_lv x))) []) [])) by (eapply rely_local; [exact R3|now left|exact Hd2]).
    apply cwp_bind. eapply cwp_put_table; [reflexivity|exact Hd3|]. intros h4 R4 Hd4.
    assert (Ha4 : cell_at h4 a (icell 1 (Some d) [])) by (eapply rely_local; [exact R4|now left|exact Ha3]).
    eapply cwp_put_inner; [apply perm_swap|exact Ha4|]. intros h5 R5 Ha5.
    assert (Hd5 : cell_at h5 d (mkCell 1 (VTable (S (S (ht_lv x))) [off; off + ts]) [])) by (eapply rely_local; [exact R5|now left|exact Hd4]).
    assert (R25 : rely L (G ++ [ht_root x; c] ++ R) h2 h5) by rl.
    eapply cwp_pub_rel with (R := R) (ns := [r; make_path (S (ht_lv x)) tn]); [exact Ha5|exact Hd5| |oc| |].
    + unfold lv1. f_equal. symmetry. eapply wf_lvl. exact Hw.
    + eapply owns_rely; [exact R25|exact Hk2].
    + intros Hn. apply cwp_done. apply K; [rl|exact Hn|]. eapply carries_in; [exact Ha5|right; right; now left|].
      eapply carries_rely; [exact R25| |exact Hcar]. apply in_or_app. right. right. now left.
  - apply cwp_make_inner. intros a h1 R1 Ha1. apply W; [exact R1|]. intros c h2 R2 Hk2 Hcar.
    assert (Ha2 : cell_at h2 a (icell 1 None [])) by (eapply rely_local; [exact R2|now left|exact Ha1]).
    apply cwp_bind. eapply cwp_put_inner; [reflexivity|exact Ha2|]. intros h3 R3 Ha3.
    eapply cwp_pub_inner with (R := R) (o := None) (ns := [r; make_path (S (ht_lv x)) tn]); [exact Ha3|oc|exact I| |].
    + eapply owns_rely; [exact R3|exact Hk2].
    + intros Hn. apply cwp_done. apply K; [rl|exact Hn|]. eapply carries_in; [exact Ha3|right; now left|].
      eapply carries_rely; [exact R3| |exact Hcar]. apply in_or_app. right. right. now left.
Qed.

Lemma cwp_push_tail m x r tl tn (F : post (nat * nat)) L R h :
  own (ow m (ht_root x) ++ R) h (ht_root x) (enc r) -> own (tl :: R) h tl (enc tn) ->
  root_ok (ht_lv x) r -> shape (ht_lv x) r -> full O tn -> (m = true -> rx = false) ->
  (forall l b r' h', rely L (G ++ R) h h' -> wf (S l) r' -> shape l r' -> elems r' = elems r ++ elems tn ->
     own (b :: R) h' b (enc r') -> carries h' b tl tn -> F (l, b) L (b :: R) h') ->
  cwp (t_push_tail B BL rx m x (nsize r) tl lwidth) F L (ow m (ht_root x) ++ tl :: R) h.
Proof.
  intros Or Ot Hr Hs Hf Hm K. unfold t_push_tail. pose proof (width_2 B HB) as W2. pose proof (lwidth_pos BL) as Hlw.
  pose proof (full_size _ _ _ _ Hf) as Hst. rewrite span_0 in Hst.
  destruct (make_path_ok B BL (S (ht_lv x)) tn Hf) as [Hpr Hpe].
  assert (Hps : nsize (make_path (S (ht_lv x)) tn) = nsize tn) by (unfold nsize; now rewrite Hpe).
  assert (Hg : forall rl ts h1, rely L (G ++ ow m (ht_root x) ++ tl :: R) h h1 -> wf (S (ht_lv x)) r -> (rl = true -> 0 < ts) ->
    wf (S (S (ht_lv x))) (Inner (if rl then Some [nsize r; nsize r + ts] else None) [r; make_path (S (ht_lv x)) tn]) ->
    (rx = false -> rl = false) ->
    cwp (t_grow m rl x (nsize r) tl ts) F L (ow m (ht_root x) ++ tl :: R) h1).
  { intros rl ts h1 R1 Hw Hts Hw' Hrl. pose proof (wf_size _ _ _ _ Hw) as Hsz.
    eapply cwp_grow with (r := r) (tn := tn); [| |exact Hw|lia|exact Hts|].
    - eapply own_rely with (L := L) (h := h); [rl|exact Or].
    - eapply own_rely with (L := L) (h := h); [rl|exact Ot].
    - intros n h2 R2 Hn Hcar. eapply K; [rl|exact Hw'| | |exact Hn|exact Hcar].
      + intros Erx. rewrite (Hrl Erx). split; [reflexivity|]. right. cbn. lia.
      + rewrite elems_inner. cbn [flat_map]. now rewrite Hpe, app_nil_r. }
  assert (Hp : forall v q p ts h1 (F' : post (option nat)), rely L (G ++ ow m (ht_root x) ++ tl :: R) h h1 ->
    v = S (ht_lv x) -> haddr q = Ok (ht_root x) -> prel L (ow m (ht_root x) ++ R) h1 q p -> pos_ok v p r -> room B BL v p r ->
    (is_rel r = true -> ts = lwidth) -> forall o, push_tail_node B BL v p tn ts = Ok o ->
    (forall n', o = Some n' -> wf v n' /\ shape (ht_lv x) n' /\ elems n' = elems r ++ elems tn) ->
    (rx = false -> is_rel r = false) ->
    (forall b h2, F (ht_lv x, b) L (b :: R) h2 -> F' (Some b) L (b :: R) h2) ->
    (forall h2, o = None -> rely L (G ++ ow m (ht_root x) ++ tl :: R) h h2 -> F' None L (ow m (ht_root x) ++ tl :: R) h2) ->
    cwp (t_push B BL m v q tl ts) F' L (ow m (ht_root x) ++ tl :: R) h1).
  { intros v q p ts h1 F' R1 -> Eq Hq Hok Hroom Hts o Eo Ho Hrx K1 K2.
    eapply t_push_ok with (r := o); [exact Eq|exact Hq| |exact Hok|exact Hf|exact Hroom|exact Hts| |exact Eo| |].
    - apply own_incl with (R := tl :: R); [inc|]. eapply own_rely with (L := L) (h := h); [rl|exact Ot].
    - intros Em. apply Hrx, Hm, Em.
    - intros b n' h2 E R2 Hb Hcar. destruct (Ho n' E) as (H1 & H2 & H3). apply K1. eapply K; [rl|exact H1|exact H2|exact H3|exact Hb|exact Hcar].
    - intros h2 E R2. apply K2; [exact E|rl]. }
  apply cwp_bind.
  assert (Kreg : forall h1, rely L (G ++ ow m (ht_root x) ++ tl :: R) h h1 -> is_rel r = false ->
    cwp (if nsize r =? N.shiftl (width B) (sh B BL (ht_lv x)) then t_grow m false x (nsize r) tl lwidth
        else if 0 <? nsize r then
          _ <-- plift (mk_sub B BL (S (ht_lv x)) (Leaf [] : nd) (nsize r)) ;;
          o <-- t_push B BL m (S (ht_lv x)) (HSub (ht_root x) (nsize r)) tl 0 ;;
          match o with Some n => Done (ht_lv x, n) | None => Fail end
        else
          n <-- t_make_path (S (ht_lv x)) tl ;;
          _ <-- when m (t_dec_empty (ht_root x)) ;;
          Done (ht_lv x, n)) F L (ow m (ht_root x) ++ tl :: R) h1).
  { intros h1 R1 Hnr. rewrite shiftl_width. destruct (N.eqb_spec (nsize r) (span (S (ht_lv x)))) as [E|E].
    - assert (Hw : wf (S (ht_lv x)) r) by (eapply (RrbTree.root_pos B BL HB); [exact Hr|rewrite E; apply span_pos]).
      apply Hg; [exact R1|exact Hw|discriminate| |reflexivity].
      exists [r], (make_path (S (ht_lv x)) tn). split; [reflexivity|].
      split; [constructor; [|constructor]; apply reg_full; [|exact E]; eapply wf_nonrel_reg; eauto|].
      split; [auto|]. cbn. lia.
    - destruct (N.ltb_spec 0 (nsize r)) as [Hp0|Hp0].
      + pose proof (RrbTree.root_pos B BL HB _ _ Hr Hp0) as Hw. pose proof (wf_size _ _ _ _ Hw) as Hsz.
        pose proof (mk_sub_ok B BL _ _ Hw Hnr) as Em. apply mk_sub_inv in Em. destruct Em as [_ Em].
        apply cwp_bind. eapply cwp_lift; [exact Em|]. apply cwp_bind.
        destruct (push_regular_ok B BL (ht_lv x) (PSub r (nsize r)) r tn 0) as (n' & En & Hrn & Hen & Hk); auto; [now constructor|lia|].
        eapply (Hp _ (HSub (ht_root x) (nsize r)) (PSub r (nsize r)) 0 h1 _ R1 eq_refl); [reflexivity| |now constructor| | |exact En| | | |].
        * constructor. apply own_nvis. eapply own_rely with (L := L) (h := h); [rl|exact Or].
        * intros _. split; [discriminate|]. lia.
        * congruence.
        * intros n2 E2. injection E2 as <-. split; [now apply reg_wf|]. split; [|exact Hen].
          intros Erx. destruct (Hs Erx) as [_ Hl]. split; [eapply reg_not_rel; exact Hrn|]. destruct Hl; [now left|right; lia].
        * auto.
        * intros b h2 HF. apply cwp_done. exact HF.
        * discriminate.
      + destruct (root_zero B BL HB _ _ Hr) as [-> El]; [lia|]. apply cwp_bind.
        apply cwp_roots with (R' := tl :: ow m (ht_root x) ++ R); [oc|].
        eapply cwp_make_path with (n := tn).
        { apply own_incl with (R := tl :: R); [inc|]. eapply own_rely with (L := L) (h := h); [rl|exact Ot]. }
        intros c h2 R2 Hc2 Hcar. apply cwp_bind.
        assert (Or2 : own (ow m (ht_root x) ++ R) h2 (ht_root x) (enc (Inner None []))).
        { eapply own_rely; [exact R2|]. eapply own_rely with (L := L) (h := h); [rl|exact Or]. }
        assert (W : forall h3, rely L (G ++ c :: R) h2 h3 -> cwp (Done (ht_lv x, c)) F L (c :: R) h3).
        { intros h3 R3. apply cwp_done. eapply K with (r' := make_path (S (ht_lv x)) tn); [rl|now apply reg_wf| |now rewrite Hpe| |].
          - intros _. split; [eapply reg_not_rel; exact Hpr|now left].
          - eapply own_rely; [exact R3|]. apply own_root; [now left|apply Hc2].
          - eapply carries_rely; [exact R3| |exact Hcar]. apply in_or_app. right. now left. }
        destruct m; cbn [when VecPush.own app] in *.
        * apply cwp_roots with (R' := ht_root x :: c :: R); [oc|]. eapply cwp_dec_empty; [|exact W].
          eapply own_incl; [|exact Or2]. inc.
        * apply cwp_done. apply W, rely_refl. }
  destruct rx eqn:Erx.
  - destruct (root_inner _ _ _ _ Hr) as (o & ns & ->).
    assert (Or' : own (ow m (ht_root x) ++ tl :: R) h (ht_root x) (enc (Inner o ns))) by (eapply own_incl; [|exact Or]; inc).
    destruct (own_iv G L _ _ _ _ _ Or) as (rr & cs & Hi).
    eapply cwp_inner; [apply vis_incl with (L := L) (R := ow m (ht_root x) ++ R); [inc|inc|exact (iv_vis _ _ _ _ _ _ _ _ _ Hi)]|]. intros h1 R1.
    pose proof (iv_ot _ _ _ _ _ _ _ _ _ Hi) as Ho. destruct rr as [rr|], o as [sz|]; try easy; [|now apply Kreg].
    destruct Hr as [[? _]|Hw]; [discriminate|]. apply cwp_bind.
    destruct (push_relaxed_ok B BL (ht_lv x) _ sz tn lwidth Hw eq_refl Hf eq_refl) as (o & Eo & Hres).
    eapply (Hp _ (HRel (ht_root x) rr) (PRel (Inner (Some sz) ns) sz) lwidth h1 _ R1 eq_refl); [reflexivity| |now constructor| | |exact Eo| | | |].
    + econstructor. eapply iv_rely with (h := h); [rl|exact Hi].
    + intros X; discriminate X.
    + reflexivity.
    + intros n' En. destruct (Hres n' En) as (H1 & _ & H2). split; [exact H1|]. split; [|exact H2]. intros X; discriminate X.
    + discriminate.
    + intros b h2 HF. apply cwp_done. exact HF.
    + intros h2 -> R2. apply Hg; [exact R2|exact Hw|auto| |discriminate].
      replace [nsize (Inner (Some sz) ns); nsize (Inner (Some sz) ns) + lwidth]
          with (sums 0 (map nsize [Inner (Some sz) ns; make_path (S (ht_lv x)) tn]))
          by (cbn [map sums]; rewrite Hps, Hst, N.add_0_l; reflexivity).
      apply rel_wf_intro; [cbn; lia|]. constructor; [auto|]. constructor; [|constructor]. now apply reg_wf.
  - apply cwp_done. apply Kreg; [apply rely_refl|]. now apply Hs.
Qed.

(** ** push_back *)
Lemma rely_leaf L R h h' a (xs : list T) : rely L (G ++ R) h h' -> rep h a (enc (Leaf xs)) -> rep h' a (enc (Leaf xs)) ->
  rely L (G ++ a :: R) h h'.
Proof.
  intros [H1 H2] N1 N2. split; [exact H1|]. intros b c (q & Hq & Hp) Hb.
  assert (In q (G ++ R) \/ q = a) as [Hq' | ->].
  { apply in_app_or in Hq as [Hq|[ -> |Hq]]; [left; apply in_or_app; now left|now right|left; apply in_or_app; now right]. }
  { apply H2; [now exists q|exact Hb]. }
  destruct (rep_inv _ _ _ N1) as (c1 & ts1 & Hc1 & Hk1 & E1). destruct (rep_inv _ _ _ N2) as (c2 & ts2 & Hc2 & Hk2 & E2).
  injection E1 as Eb1 <-. injection E2 as Eb2 <-. inversion Hk1 as [Hn1|]; subst. inversion Hk2 as [Hn2|]; subst.
  assert (b = a) as ->.
  { clear - Hp Hc1 Hn1. induction Hp as [|y z cy Hp IH Hy Hz]; [reflexivity|]. subst.
    unfold cell_at in *. rewrite Hc1 in Hy. injection Hy as <-. rewrite <- Hn1 in Hz. destruct Hz. }
  exists c2. split; [exact Hc2|]. unfold cell_at in *. rewrite Hc1 in Hb. injection Hb as <-. split; congruence.
Qed.

Lemma cwp_push_back x l v (F : post htree) L R h : vec h x l ->
  (forall y h', rely L (G ++ hptr x ++ R) h h' -> vec h' y (l ++ [v]) -> F y L (hptr y ++ hptr x ++ R) h') ->
  cwp (t_push_back B BL rx x v) F L (hptr x ++ R) h.
Proof.
  intros Hv K. destruct (vec_tv (hptr x ++ R) _ _ _ Hv) as (r & xs & Ht & ->); [inc|]. unfold t_push_back.
  apply cwp_bind. eapply cwp_tail_offset; [exact Ht|]. intros h1 R1. cbv zeta. eapply tv_rely in Ht; [|exact R1].
  pose proof Ht as ((E1 & E2 & E3 & E4 & E5 & N1 & N2) & O1 & O2).
  replace (ht_size x - nsize r) with (lenN xs) by lia. destruct (N.ltb_spec (lenN xs) lwidth) as [Hlt|Hge].
  - apply cwp_bind. eapply cwp_copy_emplace; [exact (own_leaf G L _ _ _ _ O2)|apply rtakeN_all; reflexivity|].
    intros p h2 R2 Hc2. eapply cwp_pub_leaf; [exact Hc2|]. intros Hp2.
    assert (Ht2 : tv (hptr x ++ R) h2 x r xs) by (eapply tv_rely; [exact R2|exact Ht]).
    apply cwp_bind. apply cwp_up.
    { assert (O : own (p :: hptr x ++ R) h2 (ht_root x) (enc r)) by (eapply own_incl; [|apply Ht2]; inc). apply O. }
    intros h3 R3. apply cwp_done.
    assert (Ht3 : tv (hptr x ++ R) h3 x r xs) by (eapply tv_rely with (L := L) (h := h2); [rl|exact Ht2]).
    apply (K (mkHT (ht_size x + 1) (ht_lv x) (ht_root x) p)); [rl|].
    eapply vec_new; [exact E4|exact E5|apply Ht3|eapply own_rely; [exact R3|exact Hp2]| | | |]; rewrite ?lenN_snoc; try lia.
    now rewrite app_assoc.
  - assert (Ex : lenN xs = lwidth) by lia. rewrite Ex. pose proof (lwidth_pos BL) as Hlw.
    apply cwp_bind. apply cwp_mkl. intros nt h2 R2 Hc2.
    assert (Ht2 : tv (hptr x ++ R) h2 x r xs) by (eapply tv_rely; [exact R2|exact Ht]). apply cwp_bind.
    unfold hptr in *. cbn [app] in *.
    apply cwp_roots with (R' := ht_tail x :: ht_root x :: R); [oc|].
    apply (cwp_push_tail false) with (tn := Leaf xs).
    + apply own_root; [now left|]. apply Ht2.
    + apply own_root; [now left|]. apply Ht2.
    + exact E4.
    + exact E5.
    + cbn. exact Ex.
    + discriminate.
    + intros l' b r' h3 R3 Hw Hsh He Hb Hcar. apply cwp_bind.
      assert (Ht3 : tv (ht_root x :: ht_tail x :: R) h3 x r xs).
      { apply tv_root; [|unfold hptr; inc]. repeat (split; [assumption|]). split; [|apply Hcar].
        assert (O : own (ht_root x :: R) h3 (ht_root x) (enc r)); [|apply O].
        eapply own_rely; [exact R3|]. apply own_root; [now left|]. apply Ht2. }
      apply cwp_up; [exists b; split; [apply in_or_app; right; now left|apply Hcar]|]. intros h4 R4.
      assert (Hc4 : cell_at h4 nt (mkCell 1 (VLeaf [v]) [])).
      { eapply rely_local; [exact R4|now left|]. eapply rely_local; [exact R3|now left|exact Hc2]. }
      eapply cwp_pub_leaf; [exact Hc4|]. intros Hn4. apply cwp_post, cwp_done.
      exists L, (hptr (mkHT (ht_size x + 1) l' b nt) ++ ht_root x :: ht_tail x :: R).
      split; [reflexivity|]. split; [unfold hptr; cbn [ht_root ht_tail]; oc|].
      assert (Hb4 : own (b :: ht_root x :: R) h4 b (enc r')) by (eapply own_rely; [exact R4|exact Hb]).
      assert (Hcar4 : carries h4 b (ht_tail x) (Leaf xs)).
      { eapply carries_rely; [exact R4|apply in_or_app; right; now left|exact Hcar]. }
      apply (K (mkHT (ht_size x + 1) l' b nt)).
      * assert (R24 : rely L (G ++ ht_tail x :: ht_root x :: R) h2 h4).
        { apply rely_leaf with (xs := xs); [rl|apply Ht2|apply Hcar4]. }
        rl.
      * eapply vec_new; [right; exact Hw|exact Hsh| | | | | |].
        -- exact Hb4.
        -- exact Hn4.
        -- unfold nsize. rewrite He, lenN_app, lenN_one. cbn [elems]. unfold nsize in E1. lia.
        -- rewrite lenN_one. lia.
        -- rewrite lenN_one. lia.
        -- rewrite He. reflexivity.
Qed.

(** The tail belongs to the thread alone afterwards. *)
Lemma cwp_ensure_tail x xs (F : post nat) L R h : own (ht_tail x :: R) h (ht_tail x) (enc (Leaf xs)) -> lenN xs <= lwidth ->
  (forall b h', rely L (G ++ R) h h' -> cell_at h' b (mkCell 1 (VLeaf xs) []) -> F b (b :: L) R h') ->
  cwp (t_ensure_tail B BL x (lenN xs)) F L (ht_tail x :: R) h.
Proof.
  intros Ho Hx K. unfold t_ensure_tail. apply cwp_bind. eapply cwp_uq_leaf; [exact (own_leaf G L _ _ _ _ Ho)| |].
  - intros h1 R1. eapply own_rely in Ho; [|exact R1]. apply cwp_bind.
    eapply cwp_copy_leaf; [exact (own_leaf G L _ _ _ _ Ho)|apply rtakeN_all; reflexivity|]. intros p h2 R2 Hc2.
    apply cwp_bind. eapply cwp_drop_leaf; [eapply own_rely; [exact R2|exact Ho]|exact Hx|]. intros h3 R3. apply cwp_done.
    apply K; [rl|]. eapply rely_local; [exact R3|now left|exact Hc2].
  - intros h1 R1 Hc1. apply cwp_done. apply K; [exact R1|exact Hc1].
Qed.

Lemma cwp_push_back_mut x l v (F : post htree) L R h : rx = false -> vec h x l ->
  (forall y h', rely L (G ++ R) h h' -> vec h' y (l ++ [v]) -> F y L (hptr y ++ R) h') ->
  cwp (t_push_back_mut B BL rx x v) F L (hptr x ++ R) h.
Proof.
  intros Hrx Hv K. destruct (vec_tv (hptr x ++ R) _ _ _ Hv) as (r & xs & Ht & ->); [inc|]. unfold t_push_back_mut.
  apply cwp_bind. eapply cwp_tail_offset; [exact Ht|]. intros h1 R1. cbv zeta. eapply tv_rely in Ht; [|exact R1].
  pose proof Ht as ((E1 & E2 & E3 & E4 & E5 & N1 & N2) & O1 & O2). unfold hptr in *. cbn [app] in *.
  replace (ht_size x - nsize r) with (lenN xs) by lia. destruct (N.ltb_spec (lenN xs) lwidth) as [Hlt|Hge].
  - apply cwp_bind. apply cwp_roots with (R' := ht_tail x :: ht_root x :: R); [oc|].
    eapply cwp_ensure_tail; [eapply own_incl; [|exact O2]; inc|exact E2|]. intros b h2 R2 Hc2.
    apply cwp_bind. eapply cwp_leaf; [eapply loc_vis; [reflexivity|exact Hc2]|]. intros h3 R3. rewrite N.eqb_refl.
    assert (Hc3 : cell_at h3 b (mkCell 1 (VLeaf xs) [])) by (eapply rely_local; [exact R3|now left|exact Hc2]).
    apply cwp_bind. eapply cwp_put_leaf; [reflexivity|exact Hc3|]. intros h4 R4 Hc4.
    eapply cwp_pub_leaf; [exact Hc4|]. intros Hn4. apply cwp_post, cwp_done.
    exists L, (hptr (mkHT (ht_size x + 1) (ht_lv x) (ht_root x) b) ++ R).
    split; [reflexivity|]. split; [unfold hptr; cbn [ht_root ht_tail]; oc|].
    apply (K (mkHT (ht_size x + 1) (ht_lv x) (ht_root x) b)); [rl|].
    eapply vec_new; [exact E4|exact E5| |exact Hn4| | | |].
    + eapply own_rely with (R := ht_root x :: R) (L := L) (h := h1); [rl|]. apply own_root; [now left|exact N1].
    + rewrite lenN_snoc. lia.
    + rewrite lenN_snoc. lia.
    + rewrite lenN_snoc. lia.
    + now rewrite app_assoc.
  - assert (Ex : lenN xs = lwidth) by lia. rewrite Ex. pose proof (lwidth_pos BL) as Hlw.
    apply cwp_bind. apply cwp_mkl. intros nt h2 R2 Hc2.
    assert (Ht2 : tv (ht_root x :: ht_tail x :: R) h2 x r xs) by (eapply tv_rely; [exact R2|exact Ht]). apply cwp_bind.
    apply (cwp_push_tail true) with (tn := Leaf xs).
    + apply own_root; [now left|]. apply Ht2.
    + apply own_root; [now left|]. apply Ht2.
    + exact E4.
    + exact E5.
    + cbn. exact Ex.
    + auto.
    + intros l' b r' h3 R3 Hw Hsh He Hb Hcar.
      assert (Hc3 : cell_at h3 nt (mkCell 1 (VLeaf [v]) [])) by (eapply rely_local; [exact R3|now left|exact Hc2]).
      eapply cwp_pub_leaf; [exact Hc3|]. intros Hn3. apply cwp_post, cwp_done.
      exists L, (hptr (mkHT (ht_size x + 1) l' b nt) ++ R).
      split; [reflexivity|]. split; [unfold hptr; cbn [ht_root ht_tail]; oc|].
      apply (K (mkHT (ht_size x + 1) l' b nt)); [rl|].
      eapply vec_new; [right; exact Hw|exact Hsh| |exact Hn3| | | |].
      * exact Hb.
      * unfold nsize. rewrite He, lenN_app, lenN_one. cbn [elems]. unfold nsize in E1. lia.
      * rewrite lenN_one. lia.
      * rewrite lenN_one. lia.
      * rewrite He. reflexivity.
Qed.

(** ** get *)
Lemma cwp_get_regular v : forall a n idx e (F : post T) L R h, own R h a (enc n) ->
  get_regular B BL v n idx = Ok e -> (forall h', rely L (G ++ R) h h' -> F e L R h') -> cwp (t_get_regular B BL v a idx) F L R h.
Proof.
  induction v as [|v IH]; intros a n idx e F L R h Hn Hg K; cbn [t_get_regular get_regular] in *;
    apply rbind_ok in Hg; destruct Hg as (xs & Hx & Hg).
  - destruct n as [ys|]; [|discriminate]. injection Hx as ->.
    apply cwp_bind. eapply cwp_leaf; [exact (own_leaf G L _ _ _ _ Hn)|]. intros h1 R1. eapply cwp_lift; [exact Hg|]. apply K; exact R1.
  - destruct n as [|o ns]; [discriminate|]. injection Hx as ->. apply rbind_ok in Hg. destruct Hg as (c & Hcc & Hg).
    destruct (own_iv G L _ _ _ _ _ Hn) as (r & cs & Hi).
    apply cwp_bind. eapply cwp_inner; [exact (iv_vis _ _ _ _ _ _ _ _ _ Hi)|]. intros h1 R1.
    pose proof (iv_ks _ _ _ _ _ _ _ _ _ Hi) as Hk.
    assert (Hcc' : rnthN (map enc xs) (N.land (N.shiftr idx (sh B BL v)) (mask B)) = Ok (enc c)).
    { unfold rnthN, rnth in *. rewrite nth_error_map. destruct (nth_error xs _); [|discriminate]. injection Hcc as ->. reflexivity. }
    destruct (F2_nth _ _ _ _ _ Hk Hcc') as (b & Eb & Hb). apply cwp_bind. eapply cwp_lift; [exact Eb|].
    eapply IH; [eapply own_rely; [exact R1|exact Hb]|exact Hg|]. intros h2 R2. apply K. rl.
Qed.
Lemma cwp_get_relaxed v : forall a n idx e (F : post T) L R h, own R h a (enc n) ->
  get_relaxed B BL v n idx = Ok e -> (forall h', rely L (G ++ R) h h' -> F e L R h') -> cwp (t_get_relaxed B BL v a idx) F L R h.
Proof.
  induction v as [|v IH]; intros a n idx e F L R h Hn Hg K; [discriminate|]. cbn [t_get_relaxed get_relaxed] in *.
  destruct n as [|[sz|] ns]; try discriminate. cbv zeta in *.
  apply rbind_ok in Hg. destruct Hg as (off & Hoff & Hg). apply rbind_ok in Hg. destruct Hg as (c & Hcc & Hg).
  apply rbind_ok in Hg. destruct Hg as (left & Hle & Hg).
  destruct (own_iv G L _ _ _ _ _ Hn) as (r & cs & Hi). pose proof (iv_ot _ _ _ _ _ _ _ _ _ Hi) as Ho. destruct r as [r|]; [|easy].
  apply cwp_bind. eapply cwp_inner; [exact (iv_vis _ _ _ _ _ _ _ _ _ Hi)|]. intros h1 R1.
  apply cwp_bind. eapply cwp_otable; [eapply own_rely; [exact R1|exact Ho]|]. intros h2 R2.
  apply cwp_bind. eapply cwp_lift; [exact Hoff|].
  pose proof (iv_ks _ _ _ _ _ _ _ _ _ Hi) as Hk.
  assert (Hcc' : rnthN (map enc ns) off = Ok (enc c)).
  { unfold rnthN, rnth in *. rewrite nth_error_map. destruct (nth_error ns _); [|discriminate]. injection Hcc as ->. reflexivity. }
  destruct (F2_nth _ _ _ _ _ Hk Hcc') as (b & Eb & Hb). apply cwp_bind. eapply cwp_lift; [exact Eb|].
  apply cwp_bind. eapply cwp_lift; [exact Hle|].
  assert (Hb2 : own R h2 b (enc c)) by (eapply own_rely with (L := L) (h := h); [rl|exact Hb]). destruct v as [|v].
  - eapply cwp_get_regular; [exact Hb2|exact Hg|]. intros h3 R3. apply K. rl.
  - destruct c as [|o' ns']; [discriminate|]. destruct (own_iv G L _ _ _ _ _ Hb2) as (r1 & cs1 & Hi1).
    apply cwp_bind. eapply cwp_inner; [exact (iv_vis _ _ _ _ _ _ _ _ _ Hi1)|]. intros h3 R3.
    pose proof (iv_ot _ _ _ _ _ _ _ _ _ Hi1) as Ho1. destruct r1 as [r1|], o' as [sz'|]; try easy.
    + eapply IH; [eapply own_rely; [exact R3|exact Hb2]|exact Hg|]. intros h4 R4. apply K. rl.
    + eapply cwp_get_regular; [eapply own_rely; [exact R3|exact Hb2]|exact Hg|]. intros h4 R4. apply K. rl.
Qed.
Lemma cwp_get x l i e (F : post T) L R h : vec h x l -> incl (hptr x) R -> (ht_lv x < 6)%nat -> rnthN l i = Ok e ->
  (forall h', rely L (G ++ R) h h' -> F e L R h') -> cwp (t_get B BL rx x i) F L R h.
Proof.
  intros Hv Hin Hlv He K. destruct (vec_tv R _ _ _ Hv Hin) as (r & xs & Ht & ->). unfold t_get.
  pose proof (rnthN_lt B HB _ _ _ He) as Hlt. rewrite lenN_app in Hlt. fold (nsize r) in Hlt.
  apply cwp_bind. eapply cwp_tail_offset; [exact Ht|]. intros h1 R1. eapply tv_rely in Ht; [|exact R1].
  pose proof Ht as (Hr & O1 & O2). pose proof Hr as (E1 & E2 & E3 & E4 & E5 & N1 & N2).
  destruct (N.leb_spec (nsize r) i) as [H|H].
  - rewrite rnthN_app2 in He by exact H. fold (nsize r) in He.
    eapply cwp_get_regular; [exact O2| |intros h2 R2; apply K; rl].
    cbn [get_regular leaf_of rbind]. now rewrite (tail_index B BL rx HB _ _ _ _ _ _ Hr H Hlt).
  - rewrite rnthN_app1 in He by exact H. destruct (Nat.ltb_spec (ht_lv x) 6); [|lia].
    assert (wf (S (ht_lv x)) r) as Hw by (eapply (RrbTree.root_pos B BL HB); eauto; lia).
    pose proof (wf_size _ _ _ _ Hw) as Hsz.
    assert (Kreg : forall h2, rely L (G ++ R) h1 h2 -> is_rel r = false -> cwp (t_get_regular B BL (S (ht_lv x)) (ht_root x) i) F L R h2).
    { intros h2 R2 Hnr. eapply cwp_get_regular; [eapply own_rely; [exact R2|exact O1]| |intros h3 R3; apply K; rl].
      rewrite get_regular_ok with (i := i); auto. apply N.mod_small. lia. }
    apply cwp_bind. destruct rx eqn:Erx.
    + destruct (wf_inner _ _ _ _ Hw) as (o & ns & ->). destruct (own_iv G L _ _ _ _ _ O1) as (rr & cs & Hi).
      eapply cwp_inner; [exact (iv_vis _ _ _ _ _ _ _ _ _ Hi)|]. intros h2 R2.
      pose proof (iv_ot _ _ _ _ _ _ _ _ _ Hi) as Ho. destruct rr as [rr|], o as [sz|]; try easy; [|now apply Kreg].
      eapply cwp_get_relaxed; [eapply own_rely; [exact R2|exact O1]| |intros h3 R3; apply K; rl]. now rewrite get_relaxed_ok.
    + apply cwp_done. apply Kreg; [apply rely_refl|]. now apply E5.
Qed.

(** ** update *)
Lemma cwp_update_tree x A e Z fn (F : post htree) L R h : vec h x (A ++ e :: Z) -> incl (hptr x) R ->
  (forall y h', rely L (G ++ R) h h' -> vec h' y (A ++ fn e :: Z) -> F y L (hptr y ++ R) h') ->
  cwp (t_update_tree B BL rx x (lenN A) fn) F L R h.
Proof.
  intros Hv Hin K. destruct (vec_tv R _ _ _ Hv Hin) as (r & xs & Ht & El). unfold t_update_tree.
  symmetry in El. apply (split_app B fn HB) in El. fold (nsize r) in El.
  apply cwp_bind. eapply cwp_tail_offset; [exact Ht|]. intros h1 R1. eapply tv_rely in Ht; [|exact R1].
  pose proof Ht as (Hr & O1 & O2). pose proof Hr as (E1 & E2 & E3 & E4 & E5 & N1 & N2).
  replace (ht_size x - nsize r) with (lenN xs) by lia.
  destruct El as [(Hlt & Z' & Er & ->)|(Hle & A' & Ex & ->)].
  - destruct (N.leb_spec (nsize r) (lenN A)); [lia|]. apply cwp_bind.
    eapply cwp_root_pos; [exact Ht|lia|]. intros q p h2 R2 Eq Hq Hok _. eapply tv_rely in Ht; [|exact R2].
    destruct (update_node_ok B BL fn (S (ht_lv x)) p r (lenN A) (lenN A) A e Z') as
      (n' & En & He & Hw' & Hrel & Hk & _); auto; [eapply addr_refl; eauto|].
    apply cwp_bind. eapply t_update_ok; [exact Eq|exact Hq|exact Hok|exact En|].
    intros b h3 R3 Hb. eapply tv_rely in Ht; [|exact R3]. apply cwp_bind. apply cwp_up.
    { assert (O : own (b :: R) h3 (ht_tail x) (enc (Leaf xs))) by (eapply own_incl; [|apply Ht]; inc). apply O. }
    intros h4 R4. apply cwp_post, cwp_done. exists L, (hptr (mkHT (ht_size x) (ht_lv x) b (ht_tail x)) ++ R).
    split; [reflexivity|]. split; [unfold hptr; cbn [ht_root ht_tail]; oc|].
    assert (nsize n' = nsize r) as Hsz by (unfold nsize; rewrite He, Er, !lenN_app, !lenN_cons; reflexivity).
    apply (K (mkHT (ht_size x) (ht_lv x) b (ht_tail x))); [rl|].
    eapply tv_rely with (L := L) (h' := h4) in Ht; [|rl].
    eapply vec_new; [right; exact Hw'| |eapply own_rely; [exact R4|exact Hb]|apply Ht| |exact E2|exact E3|].
    + intros Erx. rewrite Hrel, Hk. now apply E5.
    + lia.
    + rewrite He, <- app_assoc. reflexivity.
  - rewrite lenN_app. fold (nsize r). replace (nsize r + lenN A' - nsize r) with (lenN A') by lia.
    destruct (N.leb_spec (nsize r) (nsize r + lenN A')); [|lia].
    assert (0 < lenN xs) as Hx by (rewrite Ex, lenN_app, lenN_cons; lia).
    destruct (leaf_pos B BL HB xs Hx E2) as [Hok Hmk]. apply cwp_bind. eapply cwp_lift; [exact Hmk|].
    destruct (update_node_ok B BL fn O (PSub (Leaf xs) (lenN xs)) (Leaf xs) (lenN A') (lenN A') A' e Z) as
      (n' & En & He & Hw' & _); auto.
    { eapply addr_refl; [exact Hok|]. rewrite nsize_leaf, Ex, lenN_app, lenN_cons. lia. }
    { rewrite nsize_leaf, Ex, lenN_app, lenN_cons. lia. }
    apply cwp_bind. eapply t_update_ok with (hp := HSub (ht_tail x) (lenN xs)); [reflexivity|constructor; apply own_nvis; exact O2|exact Hok|exact En|].
    intros b h2 R2 Hb. eapply tv_rely in Ht; [|exact R2]. apply cwp_bind. apply cwp_up.
    { assert (O : own (b :: R) h2 (ht_root x) (enc r)) by (eapply own_incl; [|apply Ht]; inc). apply O. }
    intros h3 R3. apply cwp_done. eapply tv_rely with (L := L) (h' := h3) in Ht; [|rl].
    eapply own_rely in Hb; [|exact R3].
    destruct (wf_leaf _ _ _ Hw') as (ys & -> & Hy). cbn [elems] in He. subst ys.
    assert (lenN (A' ++ fn e :: Z) = lenN xs) as HL by (rewrite Ex, !lenN_app, !lenN_cons; reflexivity).
    apply (K (mkHT (ht_size x) (ht_lv x) (ht_root x) b)); [rl|].
    eapply vec_new; [exact E4|exact E5|apply Ht|exact Hb|lia|lia|lia|now rewrite app_assoc].
Qed.
Lemma cwp_update_mut x A e Z fn (F : post htree) L R h : vec h x (A ++ e :: Z) ->
  (forall y h', rely L (G ++ R) h h' -> vec h' y (A ++ fn e :: Z) -> F y L (hptr y ++ R) h') ->
  cwp (t_update_mut B BL rx x (lenN A) fn) F L (hptr x ++ R) h.
Proof.
  intros Hv K. destruct (vec_tv (hptr x ++ R) _ _ _ Hv) as (r & xs & Ht & El); [inc|]. unfold t_update_mut, t_get_mut_tree.
  symmetry in El. apply (split_app B fn HB) in El. fold (nsize r) in El.
  apply cwp_bind. apply cwp_bind. eapply cwp_tail_offset; [exact Ht|]. intros h1 R1. eapply tv_rely in Ht; [|exact R1].
  pose proof Ht as (Hr & O1 & O2). pose proof Hr as (E1 & E2 & E3 & E4 & E5 & N1 & N2). unfold hptr in *. cbn [app] in *.
  replace (ht_size x - nsize r) with (lenN xs) by lia.
  (* what remains after the place is found *)
  assert (W : forall y lf i b P Q n' h2 R0, (forall z, occ z (b :: R0) = occ z (hptr y ++ R)) ->
    opath G fn h2 b P Q lf i n' ->
    (forall h3, rely L (G ++ R0) h2 h3 -> own (b :: R0) h3 b (enc n') -> rely L (G ++ R) h h3 /\ vec h3 y (A ++ fn e :: Z)) ->
    cwp (xs <-- t_leaf lf ;; z <-- plift (rnthN xs i) ;; _ <-- t_put_leaf lf (updN i (fn z) xs) ;; Done y) F (P ++ L) (Q ++ R0) h2).
  { intros y lf i b P Q n' h2 R0 HR Ho KW. pose proof (cwp_write G fn _ _ _ _ _ _ _ Ho) as CW.
    assert (C : cwp (_ <-- (xs <-- t_leaf lf ;; z <-- plift (rnthN xs i) ;; t_put_leaf lf (updN i (fn z) xs)) ;; Done y) F (P ++ L) (Q ++ R0) h2).
    { apply cwp_bind. apply CW. intros h3 R3 Hb. apply cwp_post, cwp_done. exists L, (hptr y ++ R).
      split; [reflexivity|]. split; [exact HR|]. destruct (KW h3 R3 Hb). now apply K. }
    apply cwp_unbind in C. apply cwp_unbind in C. apply cwp_bind. eapply cwp_mono; [|exact C]. cbn beta. clear - G. intros ys L1 R1 h1 C.
    apply cwp_unbind in C. apply cwp_bind. eapply cwp_mono; [|exact C]. cbn beta. intros z L2 R2 h2 C2.
    apply cwp_bind. exact C2. }
  destruct El as [(Hlt & Z' & Er & ->)|(Hle & A' & Ex & ->)].
  - destruct (N.leb_spec (nsize r) (lenN A)); [lia|]. apply cwp_bind.
    eapply cwp_root_pos; [exact Ht|lia|]. intros q p h2 R2 Eq Hq Hok _. eapply tv_rely in Ht; [|exact R2].
    destruct (update_node_ok B BL fn (S (ht_lv x)) p r (lenN A) (lenN A) A e Z') as
      (n' & En & He & Hw' & Hrel & Hk & _); auto; [eapply addr_refl; eauto|].
    apply cwp_bind. eapply (t_get_mut_ok B BL G fn) with (R := ht_tail x :: R); [exact Eq|exact Hq|exact Hok|exact En|].
    intros b lf i P Q h3 R3 Ho. apply cwp_done.
    assert (nsize n' = nsize r) as Hsz by (unfold nsize; rewrite He, Er, !lenN_app, !lenN_cons; reflexivity).
    eapply (W (mkHT (ht_size x) (ht_lv x) b (ht_tail x))); [intros z; reflexivity|exact Ho|]. intros h4 R4 Hb.
    split; [rl|].
    assert (O2' : own (ht_tail x :: R) h4 (ht_tail x) (enc (Leaf xs))).
    { eapply own_rely with (L := L) (h := h2); [rl|]. apply own_root; [now left|]. apply Ht. }
    eapply vec_new; [right; exact Hw'| |exact Hb|exact O2'| |exact E2|exact E3|].
    + intros Erx. rewrite Hrel, Hk. now apply E5.
    + lia.
    + rewrite He, <- app_assoc. reflexivity.
  - assert (Hix : lenN (elems r ++ A') = nsize r + lenN A') by (rewrite lenN_app; reflexivity).
    assert (Hxl : lenN xs = lenN A' + 1 + lenN Z) by (rewrite Ex, lenN_app, lenN_cons; lia).
    rewrite Hix. destruct (N.leb_spec (nsize r) (nsize r + lenN A')); [|lia].
    rewrite (tail_index B BL rx HB _ _ _ _ _ (nsize r + lenN A') Hr) by lia. replace (nsize r + lenN A' - nsize r) with (lenN A') by lia.
    apply cwp_bind. apply cwp_roots with (R' := ht_tail x :: ht_root x :: R); [oc|].
    eapply cwp_ensure_tail; [eapply own_incl; [|exact O2]; inc|exact E2|]. intros b h2 R2 Hc2. apply cwp_done.
    eapply (W (mkHT (ht_size x) (ht_lv x) (ht_root x) b) b (lenN A') b [b] [] (Leaf (A' ++ fn e :: Z)) h2 (ht_root x :: R)).
    + unfold hptr. cbn [ht_root ht_tail]. oc.
    + rewrite <- (updN_app A' Z e (fn e) (lenN A') eq_refl), <- Ex. constructor; [exact Hc2|]. rewrite Ex. now apply rnthN_app.
    + intros h3 R3 Hb. split; [rl|].
      assert (O1' : own (ht_root x :: R) h3 (ht_root x) (enc r)).
      { eapply own_rely with (L := L) (h := h1); [rl|]. apply own_root; [now left|exact N1]. }
      eapply vec_new; [exact E4|exact E5|exact O1'|exact Hb| | | |].
      * rewrite lenN_app, lenN_cons. lia.
      * rewrite lenN_app, lenN_cons. lia.
      * rewrite lenN_app, lenN_cons. lia.
      * now rewrite app_assoc.
Qed.

(** ** take *)
Lemma cwp_take x l n (F : post htree) L R h : vec h x l -> incl (hptr x) R -> statics h G ->
  (forall y h', rely L (G ++ R) h h' -> vec h' y (takeN n l) -> F y L (hptr y ++ R) h') ->
  cwp (t_take B BL rx er et x n) F L R h.
Proof.
  intros Hv Hin Hst K. pose proof (vec_size _ _ _ _ _ _ _ Hv) as Hsz.
  destruct (vec_tv R _ _ _ Hv Hin) as (r & xs & Ht & El). unfold t_take.
  apply cwp_bind. eapply cwp_tail_offset; [exact Ht|]. intros h1 R1. eapply tv_rely in Ht; [|exact R1].
  pose proof Ht as (Hr & O1 & O2). pose proof Hr as (E1 & E2 & E3 & E4 & E5 & N1 & N2).
  pose proof (stat_rely _ _ _ _ R1 Hst) as Hst1.
  destruct (N.eqb_spec n 0) as [->|Hn].
  { apply cwp_empty; [exact Hst1|]. intros y h2 R2 Hy. apply K; [rl|exact Hy]. }
  destruct (N.leb_spec (ht_size x) n) as [H|H].
  { eapply cwp_copy; [eapply vec_rely; [exact R1|exact Hin|exact Hv]|exact Hin|]. intros h2 R2 Hy.
    apply K; [rl|]. rewrite takeN_all by lia. exact Hy. }
  subst l. destruct (N.ltb_spec (nsize r) n) as [H1|H1].
  - apply cwp_bind. eapply cwp_copy_leaf; [exact (own_leaf G L _ _ _ _ O2)|apply rtakeN_ok; lia|].
    intros p h2 R2 Hc2. eapply cwp_pub_leaf; [exact Hc2|]. intros Hp2.
    eapply tv_rely in Ht; [|exact R2]. apply cwp_bind. apply cwp_up.
    { assert (O : own (p :: R) h2 (ht_root x) (enc r)) by (eapply own_incl; [|apply Ht]; inc). apply O. }
    intros h3 R3. apply cwp_done. eapply tv_rely with (L := L) (h' := h3) in Ht; [|rl].
    apply (K (mkHT n (ht_lv x) (ht_root x) p)); [rl|].
    eapply vec_new; [exact E4|exact E5|apply Ht|eapply own_rely; [exact R3|exact Hp2]| | | |].
    + rewrite lenN_takeN. lia.
    + rewrite lenN_takeN. lia.
    + rewrite lenN_takeN. lia.
    + rewrite takeN_app_ge by (fold (nsize r); lia). reflexivity.
  - apply cwp_bind. eapply cwp_root_pos; [exact Ht|lia|]. intros q p h2 R2 Eq Hq Hok _.
    destruct (slice_right_ok B BL true (S (ht_lv x)) p r (n - 1) (n - 1) HB Hok) as (nr & ys & Es & Hy & Htk & Hnr).
    { eapply addr_refl; eauto. lia. } { lia. }
    replace (n - 1 + 1) with n in Htk by lia.
    assert (lenN (takeN n (elems r)) = n) as HL by (rewrite lenN_takeN; fold (nsize r); lia). rewrite Htk, lenN_app in HL.
    assert (Ht2 : takeN n (elems r ++ xs) = takeN n (elems r)) by (apply takeN_app_le; exact H1).
    apply cwp_bind. eapply (t_slice_right_ok B BL G HB) with (n := r); [exact Eq|exact Hq| |exact Hok| | |exact Es|].
    { eapply own_rely; [exact R2|exact O1]. } { eapply addr_refl; eauto. lia. } { lia. }
    intros o tl h3 R3 Htl Ho. destruct o as [[w b]|], nr as [[w' r']|]; cbn [oown] in Ho; try easy.
    + destruct Ho as [-> Hb]. destruct Hnr as (Hwr & Hwl & _ & Hrel). destruct w' as [|l]; [lia|]. cbn [t_cut_root oroot app] in *.
      apply cwp_bind, cwp_done. apply cwp_post, cwp_done. exists L, (hptr (mkHT n l b tl) ++ R).
      split; [reflexivity|]. split; [unfold hptr; cbn [ht_root ht_tail]; oc|].
      apply (K (mkHT n l b tl)); [rl|].
      eapply vec_new; [right; exact Hwr| |exact Hb|exact Htl| | | |].
      * intros Erx. destruct (E5 Erx) as [Ha _]. destruct (Hrel Ha) as [Hc Hd]. split; [exact Hc|].
        destruct (Hd eq_refl); [left; lia|auto].
      * unfold nsize. lia.
      * lia.
      * lia.
      * now rewrite Ht2.
    + cbn [t_cut_root oroot app] in *. apply cwp_bind. apply cwp_bind.
      assert (Hst3 : statics h3 G) by (eapply stat_rely with (L := L) (R := R) (h := h1); [rl|exact Hst1]).
      destruct (stat_own (tl :: R) _ Hst3) as [P1 _]. apply cwp_up; [apply P1|]. intros h4 R4. apply cwp_done, cwp_done.
      eapply own_rely in P1; [|exact R4]. eapply own_rely in Htl; [|exact R4].
      apply (K (mkHT n 0 er tl)); [rl|].
      eapply vec_new; [left; split; reflexivity|now apply shape_nil|exact P1|exact Htl| | | |].
      * symmetry. exact HL.
      * lia.
      * lia.
      * rewrite Ht2, Htk. reflexivity.
Qed.

(** ** drop *)
Lemma cwp_drop x l n (F : post htree) L R h : rx = true -> vec h x l -> incl (hptr x) R -> statics h G ->
  sh B BL (ht_lv x) < 32 -> ht_size x <= 2 ^ 32 ->
  (forall y h', rely L (G ++ R) h h' -> vec h' y (dropN n l) -> F y L (hptr y ++ R) h') ->
  cwp (t_drop B BL nm rx er et x n) F L R h.
Proof.
  intros Hrx Hv Hin Hst Hsh H32 K. pose proof (vec_size _ _ _ _ _ _ _ Hv) as Hsz.
  unfold t_drop. destruct (N.eqb_spec n 0) as [->|Hn].
  { eapply cwp_copy; [exact Hv|exact Hin|]. rewrite dropN_0 in K. intros h1 R1 Hy. apply K; [exact R1|exact Hy]. }
  destruct (N.leb_spec (ht_size x) n) as [H|H].
  { apply cwp_empty; [exact Hst|]. intros y h1 R1 Hy. apply K; [exact R1|]. rewrite dropN_all by lia. exact Hy. }
  destruct (vec_tv R _ _ _ Hv Hin) as (r & xs & Ht & ->).
  apply cwp_bind. eapply cwp_tail_offset; [exact Ht|]. intros h1 R1. eapply tv_rely in Ht; [|exact R1].
  pose proof Ht as (Hr & O1 & O2). pose proof Hr as (E1 & E2 & E3 & E4 & E5 & N1 & N2).
  pose proof (stat_rely _ _ _ _ R1 Hst) as Hst1.
  destruct (N.eqb_spec n (nsize r)) as [->|Hne].
  { apply cwp_bind. destruct (stat_own R _ Hst1) as [P1 _]. apply cwp_up; [apply P1|]. intros h2 R2.
    pose proof (stat_rely _ _ _ _ R2 Hst1) as Hst2. eapply tv_rely in Ht; [|exact R2].
    apply cwp_bind. apply cwp_up.
    { assert (O : own (er :: R) h2 (ht_tail x) (enc (Leaf xs))) by (eapply own_incl; [|apply Ht]; inc). apply O. }
    intros h3 R3. apply cwp_post, cwp_done. exists L, (hptr (mkHT (ht_size x - nsize r) O er (ht_tail x)) ++ R).
    split; [reflexivity|]. split; [unfold hptr; cbn [ht_root ht_tail]; oc|].
    apply (K (mkHT (ht_size x - nsize r) O er (ht_tail x))); [rl|].
    pose proof (stat_rely _ _ _ _ R3 Hst2) as Hst3. destruct (stat_own R _ Hst3) as [P3 _].
    eapply tv_rely with (L := L) (h' := h3) in Ht; [|rl].
    eapply vec_new; [left; split; reflexivity|now apply shape_rx|exact P3|apply Ht| |exact E2| |].
    - rewrite (RrbTree.nsize_empty_root (T := T)). lia.
    - lia.
    - unfold nsize. now rewrite dropN_app. }
  replace (ht_size x - nsize r) with (lenN xs) by lia.
  destruct (N.ltb_spec (nsize r) n) as [H1|H1].
  - assert (Ez : rsliceN (n - nsize r) (lenN xs) xs = Ok (dropN (n - nsize r) xs)).
    { rewrite <- (takeN_dropN (n - nsize r) xs) at 2.
      rewrite rsliceN_app_r; [reflexivity|rewrite lenN_takeN; lia|rewrite lenN_dropN; lia]. }
    apply cwp_bind. eapply cwp_copy_range; [exact (own_leaf G L _ _ _ _ O2)|exact Ez|].
    intros p h2 R2 Hc2. eapply cwp_pub_leaf; [exact Hc2|]. intros Hp2.
    pose proof (stat_rely _ _ _ _ R2 Hst1) as Hst2. destruct (stat_own (p :: R) _ Hst2) as [P2 _].
    apply cwp_bind. apply cwp_up; [apply P2|]. intros h3 R3. apply cwp_done.
    eapply own_rely in P2; [|exact R3]. eapply own_rely in Hp2; [|exact R3].
    apply (K (mkHT (ht_size x - n) O er p)); [rl|].
    eapply vec_new; [left; split; reflexivity|now apply shape_rx|exact P2|exact Hp2| | | |].
    + rewrite (RrbTree.nsize_empty_root (T := T)), lenN_dropN. lia.
    + rewrite lenN_dropN. lia.
    + rewrite lenN_dropN. lia.
    + rewrite dropN_app_ge by (fold (nsize r); lia). reflexivity.
  - apply cwp_bind. eapply cwp_maybe_root; [exact Ht|lia|]. intros q p h2 R2 Eq Hq Hok Hs.
    eapply tv_rely in Ht; [|exact R2].
    destruct (slice_left_ok B BL true (S (ht_lv x)) p r n) as (w & r' & Es & Hwr & He & Hwl & _ & Hw1); auto; [lia|lia|].
    apply cwp_bind. eapply (t_slice_left_ok B BL nm G) with (n := r); [exact Eq|exact Hq|apply Ht|exact Hok|exact Hs|lia|exact Hsh|lia|exact Es|].
    intros b h3 R3 Hb. eapply tv_rely in Ht; [|exact R3]. apply cwp_bind. apply cwp_up.
    { assert (O : own (b :: R) h3 (ht_tail x) (enc (Leaf xs))) by (eapply own_incl; [|apply Ht]; inc). apply O. }
    intros h4 R4. destruct w as [|lv]; [lia|]. apply cwp_post, cwp_done.
    exists L, (hptr (mkHT (ht_size x - n) lv b (ht_tail x)) ++ R).
    split; [reflexivity|]. split; [unfold hptr; cbn [ht_root ht_tail]; oc|].
    apply (K (mkHT (ht_size x - n) lv b (ht_tail x))); [rl|].
    eapply tv_rely with (L := L) (h' := h4) in Ht; [|rl]. eapply own_rely in Hb; [|exact R4].
    eapply vec_new; [right; exact Hwr|now apply shape_rx|exact Hb|apply Ht| |exact E2|lia|].
    + unfold nsize. rewrite He, lenN_dropN. fold (nsize r). lia.
    + rewrite He. apply dropN_app_le. fold (nsize r). lia.
Qed.
End VCT.
