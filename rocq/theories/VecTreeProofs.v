(** The handles of VecTree represent sequences: every operation, persistent or in place. *)
From Coq Require Import List NArith Arith Bool Lia ZifyN ZifyNat ZifyBool.
From Verif Require Import Common NList Rrb RrbInv RrbPos RrbOps RrbSlice RrbTree RrbViewOk RrbConcat AtomProofs
  RcHeap RcProofs RcExn RcExnProofs RcMove VecHeap VecPlan VecNodes VecMake VecGetMut VecPush VecSliceR
  VecSliceL VecTree.
Import ListNotations.
Local Open Scope N_scope.
Set Default Goal Selector "!".

Section Proofs.
Context {T : Type}.
Variables B BL : N.
Variable gone : T -> T.
Variables nm rx : bool.
Variables er et : nat.
Variable t : bool.
Hypothesis HB : 1 <= B.
Notation body := (vbody T).
Notation heap := (heap body). Notation cell := (cell body).
Notation pos_ok := (@pos_ok T B BL).
Notation wf := (@wf T B BL).
Notation full := (@full T B BL).
Notation span := (span B BL).
Notation lwidth := (lwidth BL).
Notation root_ok := (@root_ok T B BL).
Implicit Types (h : heap) (L R : list nat) (x y : htree).

(** ** Representation *)
Definition shape (l : nat) (r : node T) : Prop :=
  rx = false -> is_rel r = false /\ (l = O \/ 2 <= lenN (kids r)).
Definition vrel L h x (r : node T) (xs : list T) : Prop :=
  ht_size x = nsize r + lenN xs /\ lenN xs <= lwidth /\ (0 < ht_size x -> 0 < lenN xs) /\
  root_ok (ht_lv x) r /\ shape (ht_lv x) r /\
  nrep L h (ht_root x) r /\ nrep L h (ht_tail x) (Leaf xs).
Definition vec L h x (l : list T) : Prop := exists r xs, vrel L h x r xs /\ l = elems r ++ xs.
Definition hptr x : list nat := [ht_root x; ht_tail x].
Definition statics L h R : Prop :=
  In er R /\ In et R /\ nrep L h er (Inner None []) /\ nrep L h et (Leaf []).
(** What an operation that makes a handle guarantees. *)
Definition made K L h R (l : list T) (y : htree) h' : Prop :=
  st L h' (hptr y ++ R) /\ mv K L L L h h' /\ vec L h' y l.

Lemma mv_vec K L0 L L' h h' x l : mv K L0 L L' h h' -> kept K (ht_root x) -> kept K (ht_tail x) ->
  vec L h x l -> vec L' h' x l.
Proof.
  intros M K1 K2 (r & xs & (E1 & E2 & E3 & E4 & E5 & N1 & N2) & E). exists r, xs. split; [|exact E].
  repeat (split; [assumption|]). split; eapply mv_nrep; eauto.
Qed.
Lemma mv_statics R0 L0 L L' h h' R : mv (Some R0) L0 L L' h h' -> incl R R0 -> statics L h R -> statics L' h' R.
Proof.
  intros M Hi (I1 & I2 & N1 & N2). split; [exact I1|]. split; [exact I2|].
  split; eapply mv_nrep; eauto; cbn; auto.
Qed.
Lemma statics_in L h R R' : incl R R' -> statics L h R -> statics L h R'.
Proof. intros Hi (I1 & I2 & N1 & N2). unfold statics. auto. Qed.
Lemma vec_size L h x l : vec L h x l -> ht_size x = lenN l.
Proof. intros (r & xs & (E & _) & ->). rewrite lenN_app. exact E. Qed.
Lemma root_zero l r : root_ok l r -> nsize r = 0 -> r = Inner None [] /\ l = O.
Proof. intros [H|Hw] E; [exact H|]. pose proof (wf_size _ _ _ _ Hw). lia. Qed.
Lemma root_inner l r : root_ok l r -> exists o ns, r = Inner o ns.
Proof. intros [[-> _]|Hw]; [eauto|]. destruct (wf_inner _ _ _ _ Hw) as (o & ns & ->). eauto. Qed.
Lemma vrel_live L h x r xs : vrel L h x r xs -> live L h (ht_root x) /\ live L h (ht_tail x).
Proof. intros (_ & _ & _ & _ & _ & N1 & N2). split; eapply srep_live; eauto. Qed.
Lemma shape_nil l : l = O -> shape l (Inner None []).
Proof. intros ->. split; auto. Qed.

(** ** Steps *)
Lemma xwp_fate h (Q : bool -> heap -> Prop) E : Q false h -> (t = true -> Q true h) -> xwp t xfate h Q E.
Proof.
  intros Q1 Q2 f Hf. unfold xfate. destruct f as [|[|] f]; auto.
  - destruct t; [split; [discriminate|auto]|]. now specialize (Hf eq_refl).
  - split; auto. intros Et. specialize (Hf Et). discriminate.
Qed.
Lemma wp_tail_offset L h x r xs (Q : N -> heap -> Prop) : vrel L h x r xs -> Q (nsize r) h ->
  wp (htail_offset BL rx x) h Q.
Proof.
  intros (E1 & E2 & E3 & E4 & E5 & N1 & N2) HQ. unfold htail_offset.
  assert (Hn : is_rel r = false ->
    (if ht_size x =? 0 then 0 else N.ldiff (ht_size x - 1) (lmask BL)) = nsize r).
  { intros Hr. rewrite E1 in *. eapply nonrel_offset; eauto. }
  destruct rx eqn:Er.
  - destruct (root_inner _ _ E4) as (o & ns & ->).
    destruct (nrep_inner_inv _ _ _ _ _ N1) as (rc & rr & cs & Hc & Ho & Hk). apply wp_bind.
    eapply wp_load_inner; [apply (at_wipe _ _ _ _ Hc)|]. destruct rr as [rr|], o as [sz|]; try easy.
    + destruct (trep_inv _ _ _ _ _ Ho) as [rc' Hr]. apply wp_bind. eapply wp_load_table; [apply (at_wipe _ _ _ _ Hr)|].
      destruct E4 as [[? _]|Hw]; [easy|]. eapply wp_lift; [apply (rel_last _ _ _ _ _ Hw)|exact HQ].
    + apply wp_ret. rewrite Hn by reflexivity. exact HQ.
  - apply wp_ret. rewrite Hn; [exact HQ|]. now apply E5.
Qed.
Lemma wp_root_pos L h x r xs (Q : hpos -> heap -> Prop) : vrel L h x r xs -> 0 < nsize r ->
  (forall q p, haddr q = Ok (ht_root x) -> prel L h q p -> pos_ok (S (ht_lv x)) p r -> is_sub p = true -> Q q h) ->
  wp (hroot_pos B BL rx (T := T) x (nsize r)) h Q.
Proof.
  intros (E1 & E2 & E3 & E4 & E5 & N1 & N2) Hp K. pose proof (RrbTree.root_pos B BL HB _ _ E4 Hp) as Hw. unfold hroot_pos.
  destruct rx eqn:Er.
  - destruct (maybe_relaxed_ok _ _ _ _ Hw) as (p & Ep & Hok & Hs). eapply wp_hmaybe; [exact N1|exact Ep|].
    intros q Eq Hq. eapply K; eauto.
  - destruct (E5 Er) as [Hr _]. pose proof (mk_sub_ok B BL _ _ Hw Hr) as Em. apply mk_sub_inv in Em.
    destruct Em as [_ Em]. apply wp_bind. eapply wp_lift; [exact Em|]. apply wp_ret.
    eapply K; [reflexivity|constructor; exact N1|now constructor|reflexivity].
Qed.
Lemma wp_maybe_root L h x r xs (Q : hpos -> heap -> Prop) : vrel L h x r xs -> 0 < nsize r ->
  (forall q p, haddr q = Ok (ht_root x) -> prel L h q p -> pos_ok (S (ht_lv x)) p r -> is_sub p = true -> Q q h) ->
  wp (hmaybe B BL (T := T) (S (ht_lv x)) (ht_root x) (nsize r)) h Q.
Proof.
  intros (E1 & E2 & E3 & E4 & E5 & N1 & N2) Hp K. pose proof (RrbTree.root_pos B BL HB _ _ E4 Hp) as Hw.
  destruct (maybe_relaxed_ok _ _ _ _ Hw) as (p & Ep & Hok & Hs). eapply wp_hmaybe; [exact N1|exact Ep|].
  intros q Eq Hq. eapply K; eauto.
Qed.
Lemma wp_dec_empty L h R a (Q : unit -> heap -> Prop) : st L h (a :: R) -> nrep L h a (Inner None []) ->
  (forall h', dropped L h R h' -> Q tt h') -> wp (dec_empty (T := T) a) h Q.
Proof.
  intros S Hn K. apply wp_bind. apply wv_dec with (L := L) (R := R); [exact S| |].
  - intros h' S' M Sh. apply wp_ret. apply K. split; [exact S'|]. split; [now apply mv_all|exact Sh].
  - intros c h' Hc Erc Hi S' Hc' M Sh. destruct (nrep_inner_inv _ _ _ _ _ Hn) as (rc & r & cs & Hc0 & Ho & Hk).
    destruct r; [easy|]. inversion Hk; subst. pose proof (cell_fun _ _ _ _ Hc Hc0) as ->. cbn [c_kids icell ptrs app c_body] in *.
    eapply wp_delete_inner with (L := L) (R := R) (cs := []); [exact S'|exact Hc'|]. intros h2 S2 M2 Sh2. apply K.
    split; [exact S2|]. split; [eapply mv_trans; [exact M|now apply mv_all]|eapply shr_trans; eauto].
Qed.
Lemma wp_drop_leaf L h R a xs (Q : unit -> heap -> Prop) : st L h (a :: R) -> nrep L h a (Leaf xs) ->
  lenN xs <= lwidth -> (forall h', dropped L h R h' -> Q tt h') -> wp (dec_leaf B BL (T := T) a (lenN xs)) h Q.
Proof.
  intros S Hn Hx K. unfold dec_leaf, hdec_kid. cbn [VecHeap.open VecHeap.hdec].
  apply wp_bind. apply wp_bind. eapply wp_lift.
  { cbn [mk_sub]. destruct (N.leb_spec (lenN xs) lwidth); [reflexivity|lia]. }
  apply wp_ret. apply wp_bind. eapply wp_lift; [reflexivity|]. apply wp_bind. apply wv_dec with (L := L) (R := R); [exact S| |].
  - intros h' S' M Sh. apply wp_ret. apply K. split; [exact S'|]. split; [now apply mv_all|exact Sh].
  - intros c h' Hc Erc Hi S' Hc' M Sh. destruct (nrep_leaf_inv _ _ _ _ Hn) as [rc Hc0].
    pose proof (cell_fun _ _ _ _ Hc Hc0) as ->. cbn [c_kids c_body app] in *.
    apply wp_bind. apply wp_ret. apply wp_bind. eapply wp_lift; [reflexivity|]. apply wp_bind.
    eapply wp_load_leaf; [exact Hc'|]. rewrite N.eqb_refl. apply wv_free with (L := L) (R := R); [exact S'|].
    intros h2 S2 M2 Sh2. apply K. split; [exact S2|].
    split; [eapply mv_trans; [exact M|now apply mv_all]|eapply shr_trans; eauto].
Qed.

(** ** Construction, copy, destruction *)
Lemma wp_hempty L h R (Q : htree -> heap -> Prop) : st L h R -> statics L h R ->
  (forall y h', made None L h R [] y h' -> Q y h') -> wp (hempty (T := T) er et) h Q.
Proof.
  intros S (I1 & I2 & N1 & N2) K. apply wp_bind.
  apply wv_inc with (L := L) (R := R); [exact S|eapply srep_live; exact N1|]. intros h1 S1 M1. apply wp_bind.
  apply wv_inc with (L := L) (R := er :: R); [exact S1|eapply mv_live; [exact M1|exact I|eapply srep_live; exact N2]|].
  intros h2 S2 M2. apply wp_ret. pose proof (mv_trans _ _ _ _ _ _ _ _ M1 M2) as M. apply K. split; [|split; [exact M|]].
  - eapply st_eqv; [|exact S2]. intros a. cbn. lia.
  - exists (Inner None []), []. split; [|reflexivity]. split; [reflexivity|]. split; [change (lenN (@nil T)) with 0; lia|].
    split; [cbn [ht_size]; lia|]. split; [left; auto|]. split; [now apply shape_nil|].
    split; eapply mv_nrep; [exact M|exact I|exact N1|exact M|exact I|exact N2].
Qed.
Lemma wp_hcopy L h R x l (Q : htree -> heap -> Prop) : st L h R -> vec L h x l ->
  (forall h', made None L h R l x h' -> Q x h') -> wp (hcopy (T := T) x) h Q.
Proof.
  intros S Hv K. pose proof Hv as (r & xs & Hr & _). destruct (vrel_live _ _ _ _ _ Hr) as [L1 L2]. apply wp_bind.
  apply wv_inc with (L := L) (R := R); [exact S|exact L1|]. intros h1 S1 M1. apply wp_bind.
  apply wv_inc with (L := L) (R := ht_root x :: R); [exact S1|eapply mv_live; [exact M1|exact I|exact L2]|].
  intros h2 S2 M2. apply wp_ret. pose proof (mv_trans _ _ _ _ _ _ _ _ M1 M2) as M. apply K. split; [|split; [exact M|]].
  - eapply st_eqv; [|exact S2]. intros a. cbn. lia.
  - eapply mv_vec; [exact M|exact I|exact I|exact Hv].
Qed.
Lemma wp_hdestroy L h R x l (Q : unit -> heap -> Prop) : st L h (hptr x ++ R) -> vec L h x l ->
  (forall h', st L h' R -> mv (Some R) L L L h h' -> Q tt h') -> wp (hdestroy B BL rx (T := T) x) h Q.
Proof.
  intros S (r & xs & Hr & _) K. pose proof Hr as (E1 & E2 & E3 & E4 & E5 & N1 & N2). unfold hdestroy.
  apply wp_bind. eapply wp_tail_offset; [exact Hr|]. replace (ht_size x - nsize r) with (lenN xs) by lia.
  assert (W : forall h1, dropped L h (ht_tail x :: R) h1 -> wp (dec_leaf B BL (ht_tail x) (lenN xs)) h1 Q).
  { intros h1 (S1 & M1 & _). eapply wp_drop_leaf; [exact S1| |exact E2|].
    - eapply mv_nrep; [exact M1|now left|exact N2].
    - intros h2 (S2 & M2 & _). apply K; [exact S2|].
      eapply mv_trans; [eapply mv_sub; [exact M1|]; intros z Hz; now right|exact M2]. }
  apply wp_bind. destruct (N.ltb_spec 0 (nsize r)) as [Hp|Hp].
  - apply wp_bind. eapply wp_root_pos; [exact Hr|exact Hp|]. intros q p Eq Hq Hok _.
    eapply wp_hdec; [exact Eq|exact S|exact Hq|exact Hok|exact W].
  - destruct (root_zero _ _ E4) as [-> _]; [lia|]. eapply wp_dec_empty; [exact S|exact N1|exact W].
Qed.
Lemma wp_hclear L h R x l (Q : htree -> heap -> Prop) : st L h (hptr x ++ R) -> vec L h x l -> statics L h R ->
  (forall y h', made (Some R) L h R [] y h' -> Q y h') -> wp (hclear B BL rx (T := T) er et x) h Q.
Proof.
  intros S Hv Hs K. apply wp_bind. eapply wp_hempty; [exact S| |].
  - eapply statics_in; [|exact Hs]. intros a Ha. cbn. auto.
  - intros y h1 (S1 & M1 & V1). apply wp_bind. eapply wp_hdestroy with (R := hptr y ++ R) (L := L).
    + eapply st_eqv; [|exact S1]. intros a. rewrite !occ_app. lia.
    + eapply mv_vec; [exact M1|exact I|exact I|exact Hv].
    + intros h2 S2 M2. apply wp_ret. apply K. split; [exact S2|]. split.
      * eapply mv_trans; [apply mv_all; exact M1|]. eapply mv_sub; [exact M2|]. intros a Ha. cbn. auto.
      * eapply mv_vec; [exact M2|cbn; auto|cbn; auto|exact V1].
Qed.

(** ** Pushing the tail *)
Lemma wp_delete_new_r L h R a d v sz cs (Q : unit -> heap -> Prop) : st (d :: a :: L) h R ->
  cell_at h a (icell 1 (Some d) cs) -> cell_at h d (mkCell 1 (VTable v sz) []) ->
  (forall h', st L h' R -> mv (Some R) L (d :: a :: L) L h h' -> Q tt h') -> wp (delete_inner_r (T := T) a) h Q.
Proof.
  intros S Ha Hd K. destruct (sv_put (a :: L) h R d (mkCell 1 (VTable v sz) []) S Hd eq_refl) as (S' & M & Hd').
  eapply wp_delete_inner_r; [exact S'|exact Ha|eapply trep_intro; exact Hd'|]. intros h' S2 M2 _. apply K; [exact S2|].
  eapply mv_trans; [apply mv_all, (mv_tail _ _ _ _ _ _ _ M)|exact M2].
Qed.
Lemma hgrow_ok m rl L h R x r tl tn off ts :
  st L h (own m (ht_root x) ++ tl :: R) -> nrep L h (ht_root x) r -> nrep L h tl tn -> wf (S (ht_lv x)) r ->
  0 < off -> (rl = true -> 0 < ts) ->
  xwp t (hgrow m rl x off tl ts) h
    (fun lr h' => fst lr = S (ht_lv x) /\ st L h' (snd lr :: R) /\ mv None L L L h h' /\
       nrep L h' (snd lr) (Inner (if rl then Some [off; off + ts] else None) [r; make_path (S (ht_lv x)) tn]))
    (back L h (own m (ht_root x) ++ tl :: R)).
Proof.
  intros S Hr Ht Hw Ho Hts. unfold hgrow. apply xwp_bind.
  (* what remains after the node is made *)
  assert (W : forall LN (a : nat) h1 (Q : nat -> heap -> Prop) (E : heap -> Prop) (kont : nat -> M body unit),
    st LN h1 (own m (ht_root x) ++ tl :: R) -> mv None L L LN h h1 ->
    (forall c h2, st LN h2 ([ht_root x; c] ++ R) -> mv None LN LN LN h1 h2 ->
       Forall2 (nrep LN h2) [ht_root x; c] [r; make_path (Datatypes.S (ht_lv x)) tn] ->
       wp (kont c) h2 (fun _ h' => Q a h')) ->
    (forall h2, t = true -> st LN h2 (own m (ht_root x) ++ tl :: R) -> mv None LN LN LN h1 h2 -> E h2) ->
    xwp t (c <- hmake_path (Datatypes.S (ht_lv x)) tl ;;;
           xm (_ <~ mwhen (negb m) (inc (ht_root x)) ;; kont c)) h1 (fun _ h' => Q a h') E).
  { intros LN a h1 Q E kont S1 M1 K KE. apply xwp_bind.
    assert (S1' : st LN h1 (tl :: own m (ht_root x) ++ R)).
    { eapply st_eqv; [|exact S1]. intros y. rewrite occ_app. cbn [occ]. rewrite occ_app. lia. }
    eapply xwp_hmake_path; [exact S1'|eapply mv_nrep; [exact M1|exact I|exact Ht]| |].
    - intros c h2 S2 M2 Hc2 _. apply xwp_m. apply wp_bind.
      assert (Hr2 : nrep LN h2 (ht_root x) r).
      { eapply mv_nrep; [exact M2|exact I|]. eapply mv_nrep; [exact M1|exact I|exact Hr]. }
      destruct m; cbn [negb mwhen own app] in *.
      + apply wp_ret. apply K; [|exact M2|constructor; [exact Hr2|constructor; [exact Hc2|constructor]]].
        eapply st_eqv; [|exact S2]. intros y. cbn [occ app]. lia.
      + apply wv_inc with (L := LN) (R := c :: R); [exact S2|eapply srep_live; exact Hr2|]. intros h3 S3 M3.
        apply K; [exact S3|eapply mv_trans; eauto|].
        eapply mv_nreps; [exact M3|intros; exact I|constructor; [exact Hr2|constructor; [exact Hc2|constructor]]].
    - intros h2 Et S2 M2. apply KE; [exact Et| |exact M2].
      eapply st_eqv; [|exact S2]. intros y. rewrite occ_app. cbn [occ]. rewrite occ_app. lia. }
  destruct rl.
  - eapply xwp_make_inner_r; [exact S| |intros h1 _ S1 M1; split; [exact S1|now apply mv_all]].
    intros a d h1 S1 Ha1 Hd1 M1. apply xwp_bind. apply xwp_try.
    eapply (W (d :: a :: L) a h1 (fun _ h2 => xwp t (xret (Datatypes.S (ht_lv x), a)) h2 _ _));
      [exact S1|exact M1| |].
    + intros c h2 S2 M2 Hk2.
      assert (Ha2 : cell_at h2 a (icell 1 (Some d) [])) by (eapply mv_local; [exact M2|right; now left|exact Ha1]).
      assert (Hd2 : cell_at h2 d (mkCell 1 (VTable (Datatypes.S (Datatypes.S (ht_lv x))) []) [])) by (eapply mv_local; [exact M2|now left|exact Hd1]).
      destruct (N.ltb_spec 0 off); [|lia]. specialize (Hts eq_refl). destruct (N.ltb_spec 0 ts); [|lia]. cbn [andb].
      apply wp_bind. eapply wp_load_inner; [exact Ha2|]. apply wp_bind.
      assert (Nad : a <> d) by (destruct S2 as (_ & _ & ND); inversion ND as [|? ? Hn _]; subst; intros ->; apply Hn; now left).
      assert (Nd : ~ In d L /\ ~ In a L).
      { destruct S2 as (_ & _ & ND). inversion ND as [|? ? Hn ND']; subst. inversion ND'; subst. split; auto. intros Hi. apply Hn. now right. }
      eapply wp_put_table; [exact S2|now left|exact Hd2|]. intros h3 (S3 & Hd3 & F3 & M3).
      eapply wp_put_inner; [exact S3|right; now left|unfold cell_at; rewrite F3 by exact Nad; exact Ha2|].
      intros h4 (S4 & Ha4 & F4 & M4). apply xwp_ret. cbn [fst snd]. split; [reflexivity|].
      destruct (pub_rel L h4 R a d [ht_root x; c] (Datatypes.S (Datatypes.S (ht_lv x))) [off; off + ts] [r; make_path (Datatypes.S (ht_lv x)) tn]) as (S5 & M5 & Hn5).
      * exact S4.
      * exact Ha4.
      * unfold cell_at. rewrite F4 by congruence. exact Hd3.
      * unfold lv1. f_equal. symmetry. eapply wf_lvl. exact Hw.
      * eapply mv_nreps; [apply (M4 []); auto|intros; exact I|].
        eapply mv_nreps; [apply (M3 []); auto|intros; exact I|exact Hk2].
      * split; [exact S5|]. split; [|exact Hn5]. eapply mv_trans; [exact M1|].
        eapply mv_trans; [eapply mv_tail, mv_tail; exact M2|]. eapply mv_trans; [apply (M3 L); apply Nd|].
        eapply mv_trans; [apply (M4 L); apply Nd|exact M5].
    + intros h2 _ S2 M2. eapply wp_delete_new_r; [exact S2|eapply mv_local; [exact M2|right; now left|exact Ha1]
        |eapply mv_local; [exact M2|now left|exact Hd1]|]. intros h3 S3 M3. split; [exact S3|].
      eapply mv_trans; [apply mv_all; exact M1|]. eapply mv_trans; [apply mv_all; eapply mv_tail, mv_tail; exact M2|exact M3].
  - eapply xwp_make_inner; [exact S| |intros _; split; [exact S|apply mv_refl]].
    intros a h1 S1 Na Ha1 M1. apply xwp_bind. apply xwp_try.
    eapply (W (a :: L) a h1 (fun _ h2 => xwp t (xret (Datatypes.S (ht_lv x), a)) h2 _ _));
      [exact S1|exact M1| |].
    + intros c h2 S2 M2 Hk2.
      assert (Ha2 : cell_at h2 a (icell 1 None [])) by (eapply mv_local; [exact M2|now left|exact Ha1]).
      eapply wp_put_inner; [exact S2|now left|exact Ha2|].
      intros h4 (S4 & Ha4 & F4 & M4). apply xwp_ret. cbn [fst snd]. split; [reflexivity|].
      destruct (pub_inner L h4 R a None [ht_root x; c] None [r; make_path (Datatypes.S (ht_lv x)) tn]) as (S5 & M5 & Hn5 & _).
      * exact S4.
      * exact Ha4.
      * exact I.
      * eapply mv_nreps; [apply (M4 []); auto|intros; exact I|exact Hk2].
      * split; [exact S5|]. split; [|exact Hn5]. eapply mv_trans; [exact M1|].
        eapply mv_trans; [eapply mv_tail; exact M2|]. eapply mv_trans; [apply (M4 L); exact Na|exact M5].
    + intros h2 _ S2 M2. eapply wp_delete_inner; [exact S2|eapply mv_local; [exact M2|now left|exact Ha1]|].
      intros h3 S3 M3 _. split; [exact S3|]. apply mv_all.
      eapply mv_trans; [exact M1|]. eapply mv_trans; [eapply mv_tail; exact M2|exact M3].
Qed.

Definition pushed m R L h (r tn : node T) (lr : nat * nat) h' : Prop :=
  exists r', wf (S (fst lr)) r' /\ shape (fst lr) r' /\ elems r' = elems r ++ elems tn /\
    st L h' (snd lr :: R) /\ mv (keep m R) L L L h h' /\ nrep L h' (snd lr) r'.
Lemma hpush_tail_ok m L h R x r tl tn :
  st L h (own m (ht_root x) ++ tl :: R) -> root_ok (ht_lv x) r -> shape (ht_lv x) r ->
  nrep L h (ht_root x) r -> nrep L h tl tn -> full O tn -> (m = true -> rx = true -> t = false) ->
  xwp t (hpush_tail B BL rx m x (nsize r) tl lwidth) h (pushed m R L h r tn)
    (back L h (own m (ht_root x) ++ tl :: R)).
Proof.
  intros S Hr Hs Nr Nt Hf Hm. unfold hpush_tail. pose proof (width_2 B HB) as W2. pose proof (lwidth_pos BL) as Hlw.
  pose proof (full_size _ _ _ _ Hf) as Hst. rewrite span_0 in Hst.
  destruct (make_path_ok B BL (Datatypes.S (ht_lv x)) tn Hf) as [Hpr Hpe].
  assert (Hps : nsize (make_path (Datatypes.S (ht_lv x)) tn) = nsize tn) by (unfold nsize; now rewrite Hpe).
  assert (Hg : forall rl ts, wf (Datatypes.S (ht_lv x)) r -> (rl = true -> 0 < ts) -> 
    wf (Datatypes.S (Datatypes.S (ht_lv x))) (Inner (if rl then Some [nsize r; nsize r + ts] else None) [r; make_path (Datatypes.S (ht_lv x)) tn]) ->
    (rx = false -> rl = false) ->
    xwp t (hgrow m rl x (nsize r) tl ts) h (pushed m R L h r tn) (back L h (own m (ht_root x) ++ tl :: R))).
  { intros rl ts Hw Hts Hw' Hrl. pose proof (wf_size _ _ _ _ Hw) as Hsz. eapply xwp_mono.
    - eapply hgrow_ok with (r := r) (tn := tn); [exact S|exact Nr|exact Nt|exact Hw|lia|exact Hts].
    - intros [l n] h' (E & S' & M & Hn). cbn [fst snd] in *. subst l. eexists. split; [exact Hw'|]. cbn [fst snd].
      split; [|split; [|split; [exact S'|split; [destruct m; [now apply mv_all|exact M]|exact Hn]]]].
      + intros Erx. rewrite (Hrl Erx). split; [reflexivity|]. right. cbn. lia.
      + rewrite elems_inner. cbn [flat_map]. now rewrite Hpe, app_nil_r.
    - auto. }
  assert (Hp : forall v q p ts, v = Datatypes.S (ht_lv x) -> haddr q = Ok (ht_root x) -> prel L h q p -> pos_ok v p r -> room B BL v p r ->
    (is_rel r = true -> ts = lwidth) -> forall o, push_tail_node B BL v p tn ts = Ok o ->
    (forall n', o = Some n' -> wf v n' /\ shape (ht_lv x) n' /\ elems n' = elems r ++ elems tn) ->
    (rx = false -> is_rel r = false) ->
    xwp t (hpush B BL m v q tl ts) h
      (fun o' h' => match o' with
         | Some b => pushed m R L h r tn (ht_lv x, b) h'
         | None => h' = h /\ o = None end) (back L h (own m (ht_root x) ++ tl :: R))).
  { intros v q p ts -> Eq Hq Hok Hroom Hts o Eo Ho Hrx. eapply xwp_mono.
    - eapply hpush_ok with (r := o); [exact Eq|exact S|exact Hq|exact Nt|exact Hok|exact Hf|exact Hroom|exact Hts| |exact Eo].
      intros Em Er. apply Hm; [exact Em|]. destruct rx; [reflexivity|]. rewrite Hrx in Er by reflexivity. discriminate.
    - intros [b|] h' HH.
      + destruct o as [n'|]; [|easy]. destruct HH as (S' & M & Hn). destruct (Ho n' eq_refl) as (H1 & H2 & H3).
        exists n'. cbn [fst snd]. repeat (split; [assumption|]). exact Hn.
      + destruct o; [easy|]. auto.
    - auto. }
  apply xwp_bind.
  assert (Kreg : is_rel r = false ->
    xwp t (if nsize r =? N.shiftl (width B) (sh B BL (ht_lv x)) then hgrow m false x (nsize r) tl lwidth
        else if 0 <? nsize r then
          _ <- xm (mlift (mk_sub B BL (Datatypes.S (ht_lv x)) (Leaf [] : node T) (nsize r))) ;;;
          o <- hpush B BL m (Datatypes.S (ht_lv x)) (HSub (ht_root x) (nsize r)) tl 0 ;;;
          match o with Some n => xret (ht_lv x, n) | None => xm mub end
        else
          n <- hmake_path (Datatypes.S (ht_lv x)) tl ;;;
          _ <- xm (mwhen m (dec_empty (ht_root x))) ;;;
          xret (ht_lv x, n)) h (pushed m R L h r tn) (back L h (own m (ht_root x) ++ tl :: R))).
  { intros Hnr. rewrite shiftl_width. destruct (N.eqb_spec (nsize r) (span (Datatypes.S (ht_lv x)))) as [E|E].
    - assert (Hw : wf (Datatypes.S (ht_lv x)) r) by (eapply (RrbTree.root_pos B BL HB); [exact Hr|rewrite E; apply span_pos]).
      apply Hg; [exact Hw|discriminate| |reflexivity].
      exists [r], (make_path (Datatypes.S (ht_lv x)) tn). split; [reflexivity|].
      split; [constructor; [|constructor]; apply reg_full; [|exact E]; eapply wf_nonrel_reg; eauto|].
      split; [auto|]. cbn. lia.
    - destruct (N.ltb_spec 0 (nsize r)) as [Hp0|Hp0].
      + pose proof (RrbTree.root_pos B BL HB _ _ Hr Hp0) as Hw. pose proof (wf_size _ _ _ _ Hw) as Hsz.
        pose proof (mk_sub_ok B BL _ _ Hw Hnr) as Em. apply mk_sub_inv in Em. destruct Em as [_ Em].
        apply xwp_bind. apply xwp_m. eapply wp_lift; [exact Em|]. apply xwp_bind.
        destruct (push_regular_ok B BL (ht_lv x) (PSub r (nsize r)) r tn 0) as (n' & En & Hrn & Hen & Hk); auto; [now constructor|lia|].
        eapply xwp_mono; [eapply (Hp _ (HSub (ht_root x) (nsize r)) (PSub r (nsize r)) 0 eq_refl); [reflexivity|now constructor|now constructor| | |exact En| |]| |].
        * intros _. split; [discriminate|]. lia.
        * congruence.
        * intros n2 E2. injection E2 as <-. split; [now apply reg_wf|]. split; [|exact Hen].
          intros Erx. destruct (Hs Erx) as [_ Hl]. split; [eapply reg_not_rel; exact Hrn|]. destruct Hl; [now left|right; lia].
        * auto.
        * intros [b|] h' HH; [apply xwp_ret; exact HH|]. destruct HH as [_ HH]; discriminate.
        * auto.
      + destruct (root_zero _ _ Hr) as [-> El]; [lia|]. apply xwp_bind.
        assert (S1' : st L h (tl :: own m (ht_root x) ++ R)).
        { eapply st_eqv; [|exact S]. intros y. rewrite occ_app. cbn [occ]. rewrite occ_app. lia. }
        eapply xwp_hmake_path; [exact S1'|exact Nt| |].
        * intros c h2 S2 M2 Hc2 _. apply xwp_bind. apply xwp_m.
          assert (W : forall h3, st L h3 (c :: R) -> mv (keep m (c :: R)) L L L h2 h3 ->
            xwp t (xret (ht_lv x, c)) h3 (pushed m R L h (Inner None []) tn) (back L h (own m (ht_root x) ++ tl :: R))).
          { intros h3 S3 M3. apply xwp_ret. exists (make_path (Datatypes.S (ht_lv x)) tn). cbn [fst snd].
            split; [now apply reg_wf|]. split; [intros _; split; [eapply reg_not_rel; exact Hpr|now left]|].
            split; [now rewrite Hpe|]. split; [exact S3|].
            assert (K1 : kept (keep m (c :: R)) c) by (destruct m; cbn; auto).
            split; [|eapply mv_nrep; [exact M3|exact K1|exact Hc2]].
            destruct m; cbn [keep] in *; [|eapply mv_trans; eauto].
            eapply mv_trans; [apply mv_all; exact M2|]. eapply mv_sub; [exact M3|]. intros y Hy. now right. }
          destruct m; cbn [mwhen own app keep] in *.
          -- eapply wp_dec_empty with (R := c :: R); [|eapply mv_nrep; [exact M2|exact I|exact Nr]|].
             ++ eapply st_eqv; [|exact S2]. intros y. cbn [occ]. lia.
             ++ intros h3 (S3 & M3 & _). apply W; [exact S3|exact M3].
          -- apply wp_ret. apply W; [exact S2|apply mv_refl].
        * intros h1 _ S1 M1. eapply back_eqv; [|split; [exact S1|now apply mv_all]].
          intros y. cbn [occ app]. rewrite !occ_app. cbn [occ]. lia. }
  destruct rx eqn:Erx.
  - destruct (root_inner _ _ Hr) as (o & ns & ->). pose proof Nr as Nr0.
    destruct (nrep_inner_inv _ _ _ _ _ Nr) as (rc & rr & cs & Hc & Ho & Hk). apply xwp_m.
    eapply wp_load_inner; [apply (at_wipe _ _ _ _ Hc)|]. destruct rr as [rr|], o as [sz|]; try easy; [|now apply Kreg].
    destruct Hr as [[? _]|Hw]; [discriminate|]. apply xwp_bind.
    destruct (push_relaxed_ok B BL (ht_lv x) _ sz tn lwidth Hw eq_refl Hf eq_refl) as (o & Eo & Hres).
    eapply xwp_mono; [eapply (Hp _ (HRel (ht_root x) rr) (PRel (Inner (Some sz) ns) sz) lwidth eq_refl); [reflexivity| |now constructor| | |exact Eo| |]| |].
    + econstructor; eauto.
    + intros X; discriminate X.
    + reflexivity.
    + intros n' En. destruct (Hres n' En) as (H1 & _ & H2). split; [exact H1|]. split; [|exact H2]. intros X; rewrite Erx in X; discriminate X.
    + discriminate.
    + intros [b|] h' HH; [apply xwp_ret; exact HH|]. destruct HH as [-> ->]. apply Hg; [exact Hw|auto| |discriminate].
      replace [nsize (Inner (Some sz) ns); nsize (Inner (Some sz) ns) + lwidth]
          with (sums 0 (map nsize [Inner (Some sz) ns; make_path (Datatypes.S (ht_lv x)) tn]))
          by (cbn [map sums]; rewrite Hps, Hst, N.add_0_l; reflexivity).
      apply rel_wf_intro; [cbn; lia|]. constructor; [auto|]. constructor; [|constructor]. now apply reg_wf.
    + auto.
  - apply xwp_ret. apply Kreg. now apply Hs.
Qed.

(** ** push_back *)
Lemma in_take a R : In a R -> exists R0, (forall (y : nat), occ y R = occ y (a :: R0)) /\ incl R0 R.
Proof.
  intros H. apply in_split in H. destruct H as (u & w & ->). exists (u ++ w). split; [intros y; apply occ_mid|].
  intros y. rewrite !in_app_iff. cbn. tauto.
Qed.
Lemma vec_intro L h sz lv a b r xs l : root_ok lv r -> shape lv r -> nrep L h a r -> nrep L h b (Leaf xs) ->
  sz = nsize r + lenN xs -> lenN xs <= lwidth -> (0 < sz -> 0 < lenN xs) -> l = elems r ++ xs ->
  vec L h (mkHT sz lv a b) l.
Proof. intros. exists r, xs. split; [|assumption]. repeat (split; [assumption|]). assumption. Qed.
Lemma xwp_make_leaf v L h R (Q : nat -> heap -> Prop) (E : heap -> Prop) : st L h R ->
  (forall a h', st (a :: L) h' R -> ~ In a L -> cell_at h' a (mkCell 1 (VLeaf [v]) []) ->
     mv None L L (a :: L) h h' -> Q a h') ->
  (t = true -> E h) -> xwp t (make_leaf v) h Q E.
Proof.
  intros S K KE. apply xwp_bind. apply xwp_throw; [|exact KE]. apply xwp_m.
  apply wv_new_local with (L := L) (R := R); [exact S|exact K].
Qed.

Lemma hpush_back_ok L h R x l v : st L h R -> vec L h x l -> In (ht_tail x) R ->
  xwp t (hpush_back B BL rx x v) h (made None L h R (l ++ [v])) (back L h R).
Proof.
  intros S (r & xs & Hr & ->) Hin. pose proof Hr as (E1 & E2 & E3 & E4 & E5 & N1 & N2). unfold hpush_back.
  apply xwp_bind. apply xwp_m. eapply wp_tail_offset; [exact Hr|]. cbv zeta.
  replace (ht_size x - nsize r) with (lenN xs) by lia. destruct (N.ltb_spec (lenN xs) lwidth) as [Hlt|Hge].
  - apply xwp_bind. eapply xwp_copy_emplace; [exact S|exact N2|apply rtakeN_all; reflexivity| |].
    + intros p h1 S1 Hp Hc1 M1. destruct (pub_leaf _ _ _ _ _ S1 Hc1) as (S2 & M2 & Hn2).
      pose proof (mv_trans _ _ _ _ _ _ _ _ M1 M2) as M12.
      apply xwp_bind. apply xwp_m. apply wv_inc with (L := L) (R := p :: R); [exact S2| |].
      * eapply mv_live; [exact M12|exact I|]. eapply srep_live; exact N1.
      * intros h3 S3 M3. apply xwp_ret. pose proof (mv_trans _ _ _ _ _ _ _ _ M12 M3) as M.
        split; [exact S3|]. split; [exact M|].
        eapply vec_intro; [exact E4|exact E5| | | | | |].
        -- eapply mv_nrep; [exact M|exact I|exact N1].
        -- eapply mv_nrep; [exact M3|exact I|exact Hn2].
        -- rewrite lenN_snoc. lia.
        -- rewrite lenN_snoc. lia.
        -- rewrite lenN_snoc. lia.
        -- now rewrite app_assoc.
    + intros h1 _ S1 M1. split; [exact S1|now apply mv_all].
  - assert (Ex : lenN xs = lwidth) by lia. rewrite Ex. pose proof (lwidth_pos BL) as Hlw.
    apply xwp_bind. eapply xwp_make_leaf; [exact S| |intros _; split; [exact S|apply mv_refl]].
    intros nt h1 S1 Hnt Hc1 M1. apply xwp_bind. apply xwp_try. apply xwp_bind.
    destruct (in_take _ _ Hin) as (R0 & HR & HR0).
    eapply xwp_mono.
    + eapply hpush_tail_ok with (m := false) (r := r) (tn := Leaf xs) (R := R0) (L := nt :: L).
      * cbn [own app]. eapply st_eqv; [|exact S1]. exact HR.
      * exact E4.
      * exact E5.
      * eapply mv_nrep; [exact M1|exact I|exact N1].
      * eapply mv_nrep; [exact M1|exact I|exact N2].
      * cbn. exact Ex.
      * discriminate.
    + intros [l' b] h2 (r' & Hw & Hsh & He & S2 & M2 & Hn2). cbn [fst snd keep] in *.
      apply xwp_bind. apply xwp_m. apply wv_inc with (L := nt :: L) (R := b :: R0); [exact S2| |].
      * eapply mv_live; [exact M2|exact I|]. eapply mv_live; [exact M1|exact I|]. eapply srep_live; exact N2.
      * intros h3 S3 M3. apply xwp_ret. apply xwp_ret.
        assert (Hc3 : cell_at h3 nt (mkCell 1 (VLeaf [v]) [])).
        { eapply mv_local; [exact M3|now left|]. eapply mv_local; [exact M2|now left|exact Hc1]. }
        destruct (pub_leaf _ _ _ _ _ S3 Hc3) as (S4 & M4 & Hn4).
        pose proof (mv_trans _ _ _ _ _ _ _ _ (mv_tail _ _ _ _ _ _ _ M3) M4) as M34.
        split; [|split].
        -- cbn [hptr ht_root ht_tail app]. eapply st_eqv; [|exact S4]. intros y. specialize (HR y). cbn [occ] in *. lia.
        -- eapply mv_trans; [exact M1|]. eapply mv_trans; [eapply mv_tail; exact M2|exact M34].
        -- eapply vec_intro; [right; exact Hw|exact Hsh| |exact Hn4| | | |].
           ++ eapply mv_nrep; [exact M34|exact I|exact Hn2].
           ++ unfold nsize. rewrite He, lenN_app, lenN_one. cbn [elems]. unfold nsize in E1. lia.
           ++ rewrite lenN_one. lia.
           ++ rewrite lenN_one. lia.
           ++ rewrite He. reflexivity.
    + intros h2 (S2 & M2). cbn [own app] in *. 
      assert (Hc2 : cell_at h2 nt (mkCell 1 (VLeaf [v]) [])) by (eapply mv_local; [exact M2|now left|exact Hc1]).
      eapply wp_delete_leaf; [exact S2|exact Hc2|reflexivity|]. intros h3 S3 M3.
      eapply back_eqv with (R := ht_tail x :: R0); [exact HR|]. split; [exact S3|].
      eapply mv_trans; [apply mv_all; exact M1|]. eapply mv_trans; [eapply mv_tail; exact M2|apply mv_all; exact M3].
Qed.

Lemma hensure_tail_ok L h R x xs : st L h (ht_tail x :: R) -> nrep L h (ht_tail x) (Leaf xs) -> lenN xs <= lwidth ->
  xwp t (hensure_tail B BL x (lenN xs)) h
    (fun b h' => st L h' (b :: R) /\ mv (Some R) L L L h h' /\ nrep L h' b (Leaf xs) /\
       cell_at (wipe L h') b (mkCell 1 (VLeaf xs) [])) (back L h (ht_tail x :: R)).
Proof.
  intros S Hn Hx. unfold hensure_tail. apply xwp_bind. apply xwp_m.
  destruct (nrep_leaf_inv _ _ _ _ Hn) as [rc Hc]. eapply wv_unique; [exact S|exact Hc| |].
  - cbn [c_rc]. intros ->. apply xwp_ret. split; [exact S|]. split; [apply mv_refl|]. split; [exact Hn|exact Hc].
  - cbn [c_rc]. intros Hrc. apply xwp_bind. eapply xwp_copy_leaf; [exact S|exact Hn|apply rtakeN_all; reflexivity| |].
    + intros p h1 S1 Hp Hc1 M1. destruct (pub_leaf _ _ _ _ _ S1 Hc1) as (S2 & M2 & Hn2).
      pose proof (mv_trans _ _ _ _ _ _ _ _ M1 M2) as M12. apply xwp_bind. apply xwp_m.
      eapply wp_drop_leaf with (R := p :: R); [|eapply mv_nrep; [exact M12|exact I|exact Hn]|exact Hx|].
      * eapply st_eqv; [|exact S2]. intros y. cbn [occ]. lia.
      * intros h3 (S3 & M3 & Sh3). apply xwp_ret. split; [exact S3|]. split; [|split].
        -- eapply mv_trans; [apply mv_all; exact M12|]. eapply mv_sub; [exact M3|]. intros y Hy. now right.
        -- eapply mv_nrep; [exact M3|now left|exact Hn2].
        -- destruct (mv_cell _ _ _ _ _ _ p (mkCell 1 (VLeaf xs) []) M3) as ([rc' b' k'] & Hc3 & Eb & Ek); [now left| |].
           { apply wipe_at; [exact Hp|exact Hc1]. }
           cbn in Eb, Ek. subst. destruct (Sh3 _ _ Hc3) as (c2 & Hc2 & Hle & _ & _).
           pose proof (wipe_at L h1 p _ Hp Hc1) as Hw. pose proof (cell_fun _ _ _ _ Hc2 Hw) as ->. cbn in Hle.
           pose proof S3 as ((G & _) & _). specialize (G p). unfold cell_at in Hc3. rewrite Hc3 in G. cbn in G.
           assert (rc' = 1%nat) as -> by lia. exact Hc3.
    + intros h1 _ S1 M1. split; [exact S1|now apply mv_all].
Qed.

Lemma hpush_back_mut_ok L h R x l v : st L h (hptr x ++ R) -> vec L h x l -> (rx = true -> t = false) ->
  xwp t (hpush_back_mut B BL rx x v) h (made (Some R) L h R (l ++ [v])) (back L h (hptr x ++ R)).
Proof.
  intros S (r & xs & Hr & ->) Ht. pose proof Hr as (E1 & E2 & E3 & E4 & E5 & N1 & N2). unfold hpush_back_mut.
  apply xwp_bind. apply xwp_m. eapply wp_tail_offset; [exact Hr|]. cbv zeta.
  replace (ht_size x - nsize r) with (lenN xs) by lia. destruct (N.ltb_spec (lenN xs) lwidth) as [Hlt|Hge].
  - apply xwp_bind. eapply xwp_mono; [eapply hensure_tail_ok with (R := ht_root x :: R); [|exact N2|lia]| |].
    + eapply st_eqv; [|exact S]. intros y. cbn [occ hptr app]. lia.
    + intros b h1 (S1 & M1 & Hn1 & Hc1).
      destruct (sv_take _ _ _ _ _ S1 Hc1 eq_refl) as (S2 & Hb & Hc2 & M2). cbn [c_kids app] in S2, M2.
      apply xwp_bind. apply xwp_m. apply wp_bind. eapply wp_load_leaf; [exact Hc2|]. rewrite N.eqb_refl.
      eapply wp_put_leaf; [exact S2|now left|exact Hc2|]. intros h2 (S3 & Hc3 & F3 & M3).
      destruct (pub_leaf _ _ _ _ _ S3 Hc3) as (S4 & M4 & Hn4). apply xwp_ret.
      assert (M : mv (Some (ht_root x :: R)) L L L h h2).
      { eapply mv_trans; [exact M1|]. eapply mv_trans; [exact M2|]. apply mv_all.
        eapply mv_trans; [apply (M3 L); exact Hb|exact M4]. }
      split; [|split].
      * unfold hptr. cbn [ht_root ht_tail app]. eapply st_eqv; [|exact S4]. intros y. cbn [occ]. lia.
      * eapply mv_sub; [exact M|]. intros y Hy. now right.
      * eapply vec_intro; [exact E4|exact E5| |exact Hn4| | | |].
        -- eapply mv_nrep; [exact M|now left|exact N1].
        -- rewrite lenN_snoc. lia.
        -- rewrite lenN_snoc. lia.
        -- rewrite lenN_snoc. lia.
        -- now rewrite app_assoc.
    + intros h1 B1. eapply back_eqv; [|exact B1]. intros y. cbn [occ hptr app]. lia.
  - assert (Ex : lenN xs = lwidth) by lia. rewrite Ex. pose proof (lwidth_pos BL) as Hlw.
    apply xwp_bind. eapply xwp_make_leaf; [exact S| |intros _; split; [exact S|apply mv_refl]].
    intros nt h1 S1 Hnt Hc1 M1. apply xwp_bind. apply xwp_try.
    eapply xwp_mono.
    + eapply hpush_tail_ok with (m := true) (r := r) (tn := Leaf xs) (R := R) (L := nt :: L).
      * exact S1.
      * exact E4.
      * exact E5.
      * eapply mv_nrep; [exact M1|exact I|exact N1].
      * eapply mv_nrep; [exact M1|exact I|exact N2].
      * cbn. exact Ex.
      * intros _. exact Ht.
    + intros [l' b] h2 (r' & Hw & Hsh & He & S2 & M2 & Hn2). cbn [fst snd keep] in *. apply xwp_ret.
      assert (Hc2 : cell_at h2 nt (mkCell 1 (VLeaf [v]) [])) by (eapply mv_local; [exact M2|now left|exact Hc1]).
      destruct (pub_leaf _ _ _ _ _ S2 Hc2) as (S4 & M4 & Hn4).
      split; [|split].
      * cbn [hptr ht_root ht_tail app]. eapply st_eqv; [|exact S4]. intros y. cbn [occ] in *. lia.
      * eapply mv_trans; [apply mv_all; exact M1|]. eapply mv_trans; [eapply mv_tail; exact M2|apply mv_all; exact M4].
      * eapply vec_intro; [right; exact Hw|exact Hsh| |exact Hn4| | | |].
        -- eapply mv_nrep; [exact M4|exact I|exact Hn2].
        -- unfold nsize. rewrite He, lenN_app, lenN_one. cbn [elems]. unfold nsize in E1. lia.
        -- rewrite lenN_one. lia.
        -- rewrite lenN_one. lia.
        -- rewrite He. reflexivity.
    + intros h2 (S2 & M2). 
      assert (Hc2 : cell_at h2 nt (mkCell 1 (VLeaf [v]) [])) by (eapply mv_local; [exact M2|now left|exact Hc1]).
      eapply wp_delete_leaf; [exact S2|exact Hc2|reflexivity|]. intros h3 S3 M3.
      split; [exact S3|].
      eapply mv_trans; [apply mv_all; exact M1|]. eapply mv_trans; [eapply mv_tail; exact M2|apply mv_all; exact M3].
Qed.

(** ** get *)
Lemma F2_nth {C D} (P : C -> D -> Prop) cs ns i (x : D) : Forall2 P cs ns -> rnthN ns i = Ok x -> exists c, rnthN cs i = Ok c /\ P c x.
Proof.
  intros F. unfold rnthN, rnth. generalize (N.to_nat i) as k. induction F as [|c n cs ns Hc F IH]; intros k E.
  - destruct k; discriminate.
  - destruct k as [|k]; cbn [nth_error] in *; [injection E as ->; eauto|now apply IH].
Qed.
Lemma wp_hget_regular v : forall L h a n idx e (Q : T -> heap -> Prop), nrep L h a n ->
  get_regular B BL v n idx = Ok e -> Q e h -> wp (hget_regular B BL v a idx) h Q.
Proof.
  induction v as [|v IH]; intros L h a n idx e Q Hn Hg HQ; cbn [hget_regular get_regular] in *;
    apply rbind_ok in Hg; destruct Hg as (xs & Hx & Hg).
  - destruct n as [ys|]; [|discriminate]. injection Hx as ->. destruct (nrep_leaf_inv _ _ _ _ Hn) as [rc Hc].
    apply wp_bind. eapply wp_load_leaf; [apply (at_wipe _ _ _ _ Hc)|]. eapply wp_lift; eauto.
  - destruct n as [|o ns]; [discriminate|]. injection Hx as ->. apply rbind_ok in Hg. destruct Hg as (c & Hcc & Hg).
    destruct (nrep_inner_inv _ _ _ _ _ Hn) as (rc & r & cs & Hc & Ho & Hk).
    apply wp_bind. eapply wp_load_inner; [apply (at_wipe _ _ _ _ Hc)|].
    destruct (F2_nth _ _ _ _ _ Hk Hcc) as (b & Eb & Hb). apply wp_bind. eapply wp_lift; [exact Eb|].
    eapply IH; eauto.
Qed.
Lemma wp_hget_relaxed v : forall L h a n idx e (Q : T -> heap -> Prop), nrep L h a n ->
  get_relaxed B BL v n idx = Ok e -> Q e h -> wp (hget_relaxed B BL v a idx) h Q.
Proof.
  induction v as [|v IH]; intros L h a n idx e Q Hn Hg HQ; [discriminate|]. cbn [hget_relaxed get_relaxed] in *.
  destruct n as [|[sz|] ns]; try discriminate. cbv zeta in *.
  apply rbind_ok in Hg. destruct Hg as (off & Hoff & Hg). apply rbind_ok in Hg. destruct Hg as (c & Hcc & Hg).
  apply rbind_ok in Hg. destruct Hg as (left & Hle & Hg).
  destruct (nrep_inner_inv _ _ _ _ _ Hn) as (rc & r & cs & Hc & Ho & Hk). destruct r as [r|]; [|easy].
  destruct (trep_inv _ _ _ _ _ Ho) as [rc' Hr].
  apply wp_bind. eapply wp_load_inner; [apply (at_wipe _ _ _ _ Hc)|].
  apply wp_bind. eapply wp_load_table; [apply (at_wipe _ _ _ _ Hr)|].
  apply wp_bind. eapply wp_lift; [exact Hoff|].
  destruct (F2_nth _ _ _ _ _ Hk Hcc) as (b & Eb & Hb). apply wp_bind. eapply wp_lift; [exact Eb|].
  apply wp_bind. eapply wp_lift; [exact Hle|]. destruct v as [|v].
  - eapply wp_hget_regular; eauto.
  - destruct c as [|o' ns']; [discriminate|].
    destruct (nrep_inner_inv _ _ _ _ _ Hb) as (rc1 & r1 & cs1 & Hc1 & Ho1 & Hk1).
    apply wp_bind. eapply wp_load_inner; [apply (at_wipe _ _ _ _ Hc1)|]. destruct r1 as [r1|], o' as [sz'|]; try easy.
    + eapply IH; eauto.
    + eapply wp_hget_regular; eauto.
Qed.
Lemma tail_index L h x r xs i : vrel L h x r xs -> nsize r <= i -> i < nsize r + lenN xs ->
  N.land (if rx then i - nsize r else i) (lmask BL) = i - nsize r.
Proof.
  intros (E1 & E2 & E3 & E4 & E5 & N1 & N2) H1 H2. rewrite (land_leaf B), span_0. pose proof (lwidth_pos BL).
  destruct rx eqn:Erx; [apply N.mod_small; lia|]. destruct (E5 Erx) as [Hr _].
  assert (nsize r mod lwidth = 0) as Hd.
  { destruct E4 as [[-> _]|Hw]; [apply N.mod_0_l; lia|]. eapply reg_dvd. eapply wf_nonrel_reg; eauto. }
  apply N.mod_divide in Hd; [|lia]. destruct Hd as [k Hk].
  replace i with (i - nsize r + k * lwidth) at 1 by lia. rewrite N.mod_add by lia. apply N.mod_small. lia.
Qed.
Lemma rnthN_lt {A} (l : list A) i e : rnthN l i = Ok e -> i < lenN l.
Proof.
  unfold rnthN, rnth, lenN. destruct (nth_error l (N.to_nat i)) eqn:E; [|discriminate]. intros _.
  assert (N.to_nat i < length l)%nat by (apply nth_error_Some; congruence). lia.
Qed.
Lemma wp_hget L h x l i e (Q : T -> heap -> Prop) : vec L h x l -> (ht_lv x < 6)%nat -> rnthN l i = Ok e -> Q e h ->
  wp (hget B BL rx x i) h Q.
Proof.
  intros (r & xs & Hr & ->) Hlv He HQ. pose proof Hr as (E1 & E2 & E3 & E4 & E5 & N1 & N2). unfold hget.
  pose proof (rnthN_lt _ _ _ He) as Hlt. rewrite lenN_app in Hlt. fold (nsize r) in Hlt.
  apply wp_bind. eapply wp_tail_offset; [exact Hr|]. destruct (N.leb_spec (nsize r) i) as [H|H].
  - rewrite rnthN_app2 in He by exact H. fold (nsize r) in He. eapply wp_hget_regular; [exact N2| |exact HQ].
    cbn [get_regular leaf_of rbind]. now rewrite (tail_index _ _ _ _ _ _ Hr H Hlt).
  - rewrite rnthN_app1 in He by exact H. destruct (Nat.ltb_spec (ht_lv x) 6); [|lia].
    assert (wf (S (ht_lv x)) r) as Hw by (eapply (RrbTree.root_pos B BL HB); eauto; lia).
    pose proof (wf_size _ _ _ _ Hw) as Hsz.
    assert (Kreg : is_rel r = false -> wp (hget_regular B BL (S (ht_lv x)) (ht_root x) i) h Q).
    { intros Hnr. eapply wp_hget_regular; [exact N1| |exact HQ]. rewrite get_regular_ok with (i := i); auto. apply N.mod_small. lia. }
    apply wp_bind. destruct rx eqn:Erx.
    + destruct (wf_inner _ _ _ _ Hw) as (o & ns & ->). pose proof N1 as N1'.
      destruct (nrep_inner_inv _ _ _ _ _ N1) as (rc & rr & cs & Hc & Ho & Hk).
      eapply wp_load_inner; [apply (at_wipe _ _ _ _ Hc)|]. destruct rr as [rr|], o as [sz|]; try easy; [|now apply Kreg].
      eapply wp_hget_relaxed; [exact N1'| |exact HQ]. now rewrite get_relaxed_ok.
    + apply wp_ret. apply Kreg. now apply E5.
Qed.

(** ** update *)
Lemma split_app (u w A Z : list T) e : u ++ w = A ++ e :: Z ->
  (lenN A < lenN u /\ exists Z', u = A ++ e :: Z' /\ Z = Z' ++ w) \/
  (lenN u <= lenN A /\ exists A', w = A' ++ e :: Z /\ A = u ++ A').
Proof.
  revert A. induction u as [|x u IH]; intros A E.
  - right. split; [unfold lenN; cbn; lia|]. exists A. auto.
  - destruct A as [|a A]; cbn [app] in E.
    + injection E as -> E. left. split; [unfold lenN; cbn; lia|]. exists u. auto.
    + injection E as -> E. destruct (IH _ E) as [(H & Z' & -> & ->)|(H & A' & -> & ->)]; [left|right];
        (split; [unfold lenN in *; cbn [length] in *; lia|]); [exists Z'|exists A']; split; reflexivity.
Qed.
Lemma leaf_pos xs : 0 < lenN xs -> lenN xs <= lwidth -> pos_ok O (PSub (Leaf xs) (lenN xs)) (Leaf xs) /\
  mk_sub B BL O (Leaf [] : node T) (lenN xs) = Ok (PSub (Leaf []) (lenN xs)).
Proof.
  intros H1 H2. split; [constructor; [cbn; lia|reflexivity|reflexivity]|]. cbn. destruct (N.leb_spec (lenN xs) lwidth); [reflexivity|lia].
Qed.

Lemma hupdate_tree_ok L h R x A e Z fn : st L h R -> vec L h x (A ++ e :: Z) ->
  xwp t (hupdate_tree B BL rx x (lenN A) fn) h (made None L h R (A ++ fn e :: Z)) (back L h R).
Proof.
  intros S (r & xs & Hr & El). pose proof Hr as (E1 & E2 & E3 & E4 & E5 & N1 & N2). unfold hupdate_tree.
  symmetry in El. apply split_app in El. fold (nsize r) in El.
  apply xwp_bind. apply xwp_m. eapply wp_tail_offset; [exact Hr|].
  replace (ht_size x - nsize r) with (lenN xs) by lia.
  destruct El as [(Hlt & Z' & Er & ->)|(Hle & A' & Ex & ->)].
  - destruct (N.leb_spec (nsize r) (lenN A)); [lia|]. apply xwp_bind. apply xwp_m.
    eapply wp_root_pos; [exact Hr|lia|]. intros q p Eq Hq Hok _.
    destruct (update_node_ok B BL fn (Datatypes.S (ht_lv x)) p r (lenN A) (lenN A) A e Z') as
      (n' & En & He & Hw' & Hrel & Hk & _); auto; [eapply addr_refl; eauto|].
    apply xwp_bind. eapply xwp_mono; [eapply hupdate_ok; [exact Eq|exact S|exact Hq|exact Hok|exact En]| |auto].
    intros b h1 (S1 & M1 & Hn1). apply xwp_bind. apply xwp_m.
    apply wv_inc with (L := L) (R := b :: R); [exact S1|eapply mv_live; [exact M1|exact I|eapply srep_live; exact N2]|].
    intros h2 S2 M2. apply xwp_ret. pose proof (mv_trans _ _ _ _ _ _ _ _ M1 M2) as M.
    assert (nsize n' = nsize r) as Hsz by (unfold nsize; rewrite He, Er, !lenN_app, !lenN_cons; reflexivity).
    split; [|split; [exact M|]].
    + unfold hptr. cbn [ht_root ht_tail app]. eapply st_eqv; [|exact S2]. intros y. cbn [occ]. lia.
    + eapply vec_intro; [right; exact Hw'| | | | |exact E2|exact E3|].
      * intros Erx. rewrite Hrel, Hk. now apply E5.
      * eapply mv_nrep; [exact M2|exact I|exact Hn1].
      * eapply mv_nrep; [exact M|exact I|exact N2].
      * lia.
      * rewrite He, <- app_assoc. reflexivity.
  - rewrite lenN_app. fold (nsize r). replace (nsize r + lenN A' - nsize r) with (lenN A') by lia.
    destruct (N.leb_spec (nsize r) (nsize r + lenN A')); [|lia].
    assert (0 < lenN xs) as Hx by (rewrite Ex, lenN_app, lenN_cons; lia).
    destruct (leaf_pos xs Hx E2) as [Hok Hmk]. apply xwp_bind. apply xwp_m. eapply wp_lift; [exact Hmk|].
    destruct (update_node_ok B BL fn O (PSub (Leaf xs) (lenN xs)) (Leaf xs) (lenN A') (lenN A') A' e Z) as
      (n' & En & He & Hw' & _); auto.
    { eapply addr_refl; [exact Hok|]. rewrite nsize_leaf, Ex, lenN_app, lenN_cons. lia. }
    { rewrite nsize_leaf, Ex, lenN_app, lenN_cons. lia. }
    apply xwp_bind. eapply xwp_mono; [eapply hupdate_ok with (hp := HSub (ht_tail x) (lenN xs)); [reflexivity|exact S|constructor; exact N2|exact Hok|exact En]| |auto].
    intros b h1 (S1 & M1 & Hn1). apply xwp_bind. apply xwp_m.
    apply wv_inc with (L := L) (R := b :: R); [exact S1|eapply mv_live; [exact M1|exact I|eapply srep_live; exact N1]|].
    intros h2 S2 M2. apply xwp_ret. pose proof (mv_trans _ _ _ _ _ _ _ _ M1 M2) as M.
    destruct (wf_leaf _ _ _ Hw') as (ys & -> & Hy). cbn [elems] in He. subst ys.
    assert (lenN (A' ++ fn e :: Z) = lenN xs) as HL by (rewrite Ex, !lenN_app, !lenN_cons; reflexivity).
    split; [|split; [exact M|]].
    + exact S2.
    + eapply vec_intro; [exact E4|exact E5| | | | | |].
      * eapply mv_nrep; [exact M|exact I|exact N1].
      * eapply mv_nrep; [exact M2|exact I|exact Hn1].
      * lia.
      * lia.
      * lia.
      * now rewrite app_assoc.
Qed.

Lemma xwp_conj {C} (m : X body C) h (Q1 Q2 : C -> heap -> Prop) (E1 E2 : heap -> Prop) :
  xwp t m h Q1 E1 -> xwp t m h Q2 E2 -> xwp t m h (fun a h' => Q1 a h' /\ Q2 a h') (fun h' => E1 h' /\ E2 h').
Proof.
  intros H1 H2 f Hf. specialize (H1 f Hf). specialize (H2 f Hf).
  destruct (m f h) as [[[[a|] f'] h']|]; intuition.
Qed.

(** The handle after get_mut, and what writing through the pointer makes of it. *)
Definition writable (fn : T -> T) L h R x (e : nat * N) (l : list T) : Prop :=
  forall (Q : unit -> heap -> Prop), (forall h', made (Some R) L h R l x h' -> Q tt h') ->
  wp (xs <~ load_leaf (fst e) ;; z <~ mlift (rnthN xs (snd e)) ;; put_leaf (fst e) (updN (snd e) (fn z) xs)) h Q.
Lemma hget_mut_tree_ok L h R x A e Z : st L h (hptr x ++ R) -> vec L h x (A ++ e :: Z) ->
  xwp t (hget_mut_tree B BL rx x (lenN A)) h
    (fun ye h' => made (Some R) L h R (A ++ e :: Z) (fst ye) h' /\
       writable gone L h' R (fst ye) (snd ye) (A ++ gone e :: Z)) (back L h (hptr x ++ R)) /\
  forall fn, xwp t (hget_mut_tree B BL rx x (lenN A)) h
    (fun ye h' => made (Some R) L h R (A ++ e :: Z) (fst ye) h' /\
       writable fn L h' R (fst ye) (snd ye) (A ++ fn e :: Z)) (back L h (hptr x ++ R)).
Proof.
  intros S Hv.
  assert (G : forall fn, xwp t (hget_mut_tree B BL rx x (lenN A)) h
    (fun ye h' => made (Some R) L h R (A ++ e :: Z) (fst ye) h' /\
       writable fn L h' R (fst ye) (snd ye) (A ++ fn e :: Z)) (back L h (hptr x ++ R))).
  2: { split; apply G. }
  intros fn. destruct Hv as (r & xs & Hr & El). pose proof Hr as (E1 & E2 & E3 & E4 & E5 & N1 & N2). unfold hget_mut_tree.
  symmetry in El. apply split_app in El. fold (nsize r) in El.
  apply xwp_bind. apply xwp_m. eapply wp_tail_offset; [exact Hr|].
  replace (ht_size x - nsize r) with (lenN xs) by lia.
  destruct El as [(Hlt & Z' & Er & ->)|(Hle & A' & Ex & ->)].
  - destruct (N.leb_spec (nsize r) (lenN A)); [lia|]. apply xwp_bind. apply xwp_m.
    eapply wp_root_pos; [exact Hr|lia|]. intros q p Eq Hq Hok _.
    destruct (update_node_ok B BL fn (Datatypes.S (ht_lv x)) p r (lenN A) (lenN A) A e Z') as
      (n' & En & He & Hw' & Hrel & Hk & _); auto; [eapply addr_refl; eauto|].
    apply xwp_bind. eapply xwp_mono; [eapply hget_mut_ok with (R := ht_tail x :: R); [exact Eq|exact S|exact Hq|exact Hok|exact En]| |].
    2: { intros h1 B1. exact B1. }
    intros [b [lf i]] h1 (S1 & M1 & Hn1 & U1). cbn [fst snd] in *. apply xwp_ret. cbn [fst snd].
    assert (nsize n' = nsize r) as Hsz by (unfold nsize; rewrite He, Er, !lenN_app, !lenN_cons; reflexivity).
    assert (N2' : nrep L h1 (ht_tail x) (Leaf xs)) by (eapply mv_nrep; [exact M1|now left|exact N2]).
    split; [split; [exact S1|split]|].
    + eapply mv_sub; [exact M1|]. intros y Hy. now right.
    + eapply vec_intro; [exact E4|exact E5|exact Hn1|exact N2'|exact E1|exact E2|exact E3|].
      rewrite Er, <- app_assoc. reflexivity.
    + intros Q K. eapply wp_write; [exact U1|exact S1|exact Hn1|]. intros h2 S2 M2 Hn2. apply K.
      split; [exact S2|]. split; [eapply mv_sub; [exact M2|]; intros y Hy; now right|].
      eapply vec_intro; [right; exact Hw'| |exact Hn2| | |exact E2|exact E3|].
      * intros Erx. rewrite Hrel, Hk. now apply E5.
      * eapply mv_nrep; [exact M2|now left|exact N2'].
      * lia.
      * rewrite He, <- app_assoc. reflexivity.
  - assert (Hix : lenN (elems r ++ A') = nsize r + lenN A') by (rewrite lenN_app; reflexivity).
    assert (Hxl : lenN xs = lenN A' + 1 + lenN Z) by (rewrite Ex, lenN_app, lenN_cons; lia).
    rewrite Hix. destruct (N.leb_spec (nsize r) (nsize r + lenN A')); [|lia].
    rewrite (tail_index _ _ _ _ _ (nsize r + lenN A') Hr) by lia. replace (nsize r + lenN A' - nsize r) with (lenN A') by lia.
    apply xwp_bind. eapply xwp_mono; [eapply hensure_tail_ok with (R := ht_root x :: R); [|exact N2|lia]| |].
    + eapply st_eqv; [|exact S]. intros y. cbn [occ hptr app]. lia.
    + intros b h1 (S1 & M1 & Hn1 & Hc1). apply xwp_ret. cbn [fst snd].
      assert (N1' : nrep L h1 (ht_root x) r) by (eapply mv_nrep; [exact M1|now left|exact N1]).
      split; [split; [|split]|].
      * unfold hptr. cbn [ht_root ht_tail app]. eapply st_eqv; [|exact S1]. intros y. cbn [occ]. lia.
      * eapply mv_sub; [exact M1|]. intros y Hy. now right.
      * eapply vec_intro; [exact E4|exact E5|exact N1'|exact Hn1|exact E1|exact E2|exact E3|].
        rewrite Ex, <- app_assoc. reflexivity.
      * intros Q K. cbn [fst snd]. eapply wp_write with (v := O) (n := Leaf xs) (n' := Leaf (A' ++ fn e :: Z)); [|exact S1|exact Hn1|].
        { rewrite <- (updN_app A' Z e (fn e) (lenN A') eq_refl), <- Ex. constructor; [exact Hc1|]. rewrite Ex. now apply rnthN_app. }
        intros h2 S2 M2 Hn2. apply K. split; [|split; [eapply mv_sub; [exact M2|]; intros y Hy; now right|]].
        -- unfold hptr. cbn [ht_root ht_tail app]. eapply st_eqv; [|exact S2]. intros y. cbn [occ]. lia.
        -- eapply vec_intro; [exact E4|exact E5| |exact Hn2| | | |].
           ++ eapply mv_nrep; [exact M2|now left|exact N1'].
           ++ rewrite lenN_app, lenN_cons. lia.
           ++ rewrite lenN_app, lenN_cons. lia.
           ++ rewrite lenN_app, lenN_cons. lia.
           ++ now rewrite app_assoc.
    + intros h1 B1. eapply back_eqv; [|exact B1]. intros y. cbn [occ hptr app]. lia.
Qed.
Lemma hupdate_mut_ok L h R x A e Z fn : st L h (hptr x ++ R) -> vec L h x (A ++ e :: Z) ->
  xwp t (hupdate_mut B BL gone rx x (lenN A) fn) h
    (fun yb h' => made (Some R) L h R (A ++ (if snd yb then gone else fn) e :: Z) (fst yb) h' /\ (snd yb = true -> t = true))
    (back L h (hptr x ++ R)).
Proof.
  intros S Hv. destruct (hget_mut_tree_ok _ _ _ _ _ _ _ S Hv) as [G1 G2]. specialize (G2 fn). unfold hupdate_mut.
  apply xwp_bind. eapply xwp_mono; [exact (xwp_conj _ _ _ _ _ _ G1 G2)| |].
  - intros [y [lf i]] h1 [[Mk W1] [_ W2]]. cbn [fst snd] in *.
    assert (G : forall b : bool, (b = true -> t = true) -> xwp t (_ <- xm (xs <~ load_leaf lf ;; z <~ mlift (rnthN xs i) ;;
             put_leaf lf (updN i ((if b then gone else fn) z) xs)) ;;;
       xret (y, b)) h1 (fun yb h' => made (Some R) L h R (A ++ (if snd yb then gone else fn) e :: Z) (fst yb) h' /\ (snd yb = true -> t = true))
       (back L h (hptr x ++ R))).
    { intros b Hb. apply xwp_bind. apply xwp_m. destruct b; [apply W1|apply W2]; intros h2 (S2 & M2 & V2);
        apply xwp_ret; cbn [fst snd]; (split; [|exact Hb]); (split; [exact S2|split; [|exact V2]]); destruct Mk as (_ & M1 & _); eapply mv_trans; eauto. }
    apply xwp_bind. apply xwp_fate; [apply (G false); discriminate|intros Et; apply (G true); intros _; exact Et].
  - intros h1 [B1 _]. exact B1.
Qed.

(** ** take *)
Definition cutto L h (n : N) (r : node T) (l b tl : nat) : Prop := exists r' ys, root_ok l r' /\ shape l r' /\ nrep L h b r' /\
  nrep L h tl (Leaf ys) /\ nsize r' + lenN ys = n /\ 0 < lenN ys <= lwidth /\ takeN n (elems r) = elems r' ++ ys.
Lemma kept_in m R (a : nat) : In a R -> kept (keep m R) a.
Proof. destruct m; cbn; auto. Qed.
Lemma cut_ok {C} m L h R x r xs n (k : nat -> nat -> nat -> X body C) (Q : C -> heap -> Prop) (E : heap -> Prop) :
  st L h (own m (ht_root x) ++ R) -> vrel L h x r xs -> 0 < n -> n <= nsize r -> statics L h R ->
  (m = true -> rx = true -> t = false) ->
  (forall l b tl h', st L h' (b :: tl :: R) -> mv (keep m R) L L L h h' -> cutto L h' n r l b tl -> xwp t (k l b tl) h' Q E) ->
  (forall h', back L h (own m (ht_root x) ++ R) h' -> E h') ->
  xwp t (q <- xm (hroot_pos B BL rx x (nsize r)) ;;;
         ' (o, _, tl) <- hslice_right B BL true m (S (ht_lv x)) q (n - 1) ;;;
         ' (l, b) <- xm (hcut_root er o) ;;;
         k l b tl) h Q E.
Proof.
  intros S Hr Hn Hle Hst Ht K KE. pose proof Hr as (E1 & E2 & E3 & E4 & E5 & N1 & N2).
  apply xwp_bind. apply xwp_m. eapply wp_root_pos; [exact Hr|lia|]. intros q p Eq Hq Hok _.
  destruct (slice_right_ok B BL true (Datatypes.S (ht_lv x)) p r (n - 1) (n - 1) HB Hok) as (nr & ys & Es & Hy & Htk & Hnr).
  { eapply addr_refl; eauto. lia. } { lia. }
  replace (n - 1 + 1) with n in Htk by lia.
  assert (lenN (takeN n (elems r)) = n) as HL by (rewrite lenN_takeN; fold (nsize r); lia). rewrite Htk, lenN_app in HL.
  apply xwp_bind. eapply xwp_mono; [eapply hslice_right_ok with (R := R); [exact HB|exact Eq|exact S|exact Hq|exact Hok| | | |exact Es]| |].
  { eapply addr_refl; eauto. lia. } { lia. }
  { intros Em Hrel. apply Ht; [exact Em|]. destruct rx eqn:Erx; [reflexivity|]. destruct (E5 Erx). congruence. }
  2: { exact KE. }
  intros [[o ts] tl] h1 (-> & S1 & M1 & Hn1 & Ho). destruct o as [[w b]|], nr as [[w' r']|]; try easy.
  - destruct Ho as [-> Hb]. destruct Hnr as (Hwr & Hwl & _ & Hrel). destruct w' as [|l]; [lia|].
    apply xwp_bind. apply xwp_m. apply wp_ret. apply K; [|exact M1|].
    + eapply st_eqv; [|exact S1]. intros y. cbn [occ oroot app]. lia.
    + exists r', ys. split; [now right|]. split.
      { intros Erx. destruct (E5 Erx) as [Ha _]. destruct (Hrel Ha) as [Hc Hd]. split; [exact Hc|].
        destruct (Hd eq_refl); [left; lia|auto]. }
      split; [exact Hb|]. split; [exact Hn1|]. unfold nsize. auto.
  - apply xwp_bind. apply xwp_m. cbn [hcut_root]. apply wp_bind. destruct Hst as (I1 & I2 & P1 & P2).
    assert (P1' : nrep L h1 er (Inner None [])) by (eapply mv_nrep; [exact M1|now apply kept_in|exact P1]).
    apply wv_inc with (L := L) (R := tl :: R); [exact S1|eapply srep_live; exact P1'|].
    intros h2 S2 M2. apply wp_ret. apply K; [exact S2| |].
    + eapply mv_trans; [exact M1|]. destruct m; [now apply mv_all|exact M2].
    + exists (Inner None []), ys. split; [left; auto|]. split; [now apply shape_nil|].
      split; [eapply mv_nrep; [exact M2|exact I|exact P1']|]. split; [eapply mv_nrep; [exact M2|exact I|exact Hn1]|].
      split; [exact HL|]. split; [exact Hy|exact Htk].
Qed.
Lemma take_all {A} n (l : list A) : lenN l <= n -> takeN n l = l.
Proof. apply takeN_all. Qed.
Lemma htake_ok L h R x l n : st L h R -> vec L h x l -> statics L h R ->
  xwp t (htake B BL rx er et x n) h (made None L h R (takeN n l)) (back L h R).
Proof.
  intros S Hv Hst. pose proof (vec_size _ _ _ _ Hv) as Hsz. pose proof Hv as (r & xs & Hr & El).
  pose proof Hr as (E1 & E2 & E3 & E4 & E5 & N1 & N2). unfold htake.
  apply xwp_bind. apply xwp_m. eapply wp_tail_offset; [exact Hr|].
  destruct (N.eqb_spec n 0) as [->|Hn].
  { apply xwp_m. apply wp_hempty with (L := L) (R := R); [exact S|exact Hst|auto]. }
  destruct (N.leb_spec (ht_size x) n) as [H|H].
  { apply xwp_m. apply wp_hcopy with (L := L) (R := R) (l := l); [exact S|exact Hv|]. rewrite takeN_all by lia. auto. }
  subst l. destruct (N.ltb_spec (nsize r) n) as [H1|H1].
  - apply xwp_bind. eapply xwp_copy_leaf; [exact S|exact N2|apply rtakeN_ok; lia| |].
    + intros p h1 S1 Hp Hc1 M1. destruct (pub_leaf _ _ _ _ _ S1 Hc1) as (S2 & M2 & Hn2).
      pose proof (mv_trans _ _ _ _ _ _ _ _ M1 M2) as M12. apply xwp_bind. apply xwp_m.
      apply wv_inc with (L := L) (R := p :: R); [exact S2|eapply mv_live; [exact M12|exact I|eapply srep_live; exact N1]|].
      intros h2 S3 M3. apply xwp_ret. pose proof (mv_trans _ _ _ _ _ _ _ _ M12 M3) as M.
      split; [exact S3|]. split; [exact M|]. eapply vec_intro; [exact E4|exact E5| | | | | |].
      * eapply mv_nrep; [exact M|exact I|exact N1].
      * eapply mv_nrep; [exact M3|exact I|exact Hn2].
      * rewrite lenN_takeN. lia.
      * rewrite lenN_takeN. lia.
      * rewrite lenN_takeN. lia.
      * rewrite takeN_app_ge by (fold (nsize r); lia). reflexivity.
    + intros h1 _ S1 M1. split; [exact S1|now apply mv_all].
  - eapply cut_ok with (m := false) (R := R); [exact S|exact Hr|lia|exact H1|exact Hst|discriminate| |auto].
    intros lv b tl h1 S1 M1 (r' & ys & G1 & G2 & G3 & G4 & G5 & G6 & G7). apply xwp_ret. split; [exact S1|].
    split; [exact M1|]. eapply vec_intro; [exact G1|exact G2|exact G3|exact G4|lia|lia|lia|].
    rewrite takeN_app_le by exact H1. exact G7.
Qed.
Lemma xwp_assoc {A C D} (m : X body A) (f : A -> X body C) (k : C -> X body D) h (Q : D -> heap -> Prop) (E : heap -> Prop) :
  xwp t (xbind (xbind m f) k) h Q E -> xwp t (xbind m (fun a => xbind (f a) k)) h Q E.
Proof.
  intros H g Hg. specialize (H g Hg). unfold xbind in *. destruct (m g h) as [[[[a|] g'] h']|]; auto.
Qed.
Lemma htake_mut_ok L h R x l n : st L h (hptr x ++ R) -> vec L h x l -> statics L h R -> (rx = true -> t = false) ->
  xwp t (htake_mut B BL rx er et x n) h (made (Some R) L h R (takeN n l)) (back L h (hptr x ++ R)).
Proof.
  intros S Hv Hst Ht. pose proof (vec_size _ _ _ _ Hv) as Hsz. pose proof Hv as (r & xs & Hr & El).
  pose proof Hr as (E1 & E2 & E3 & E4 & E5 & N1 & N2). unfold htake_mut.
  apply xwp_bind. apply xwp_m. eapply wp_tail_offset; [exact Hr|].
  destruct (N.eqb_spec n 0) as [->|Hn].
  { apply xwp_m. apply wp_hclear with (L := L) (R := R) (l := l); [exact S|exact Hv|exact Hst|auto]. }
  destruct (N.leb_spec (ht_size x) n) as [H|H].
  { apply xwp_ret. rewrite takeN_all by lia. split; [exact S|]. split; [apply mv_refl|exact Hv]. }
  subst l. cbv zeta. replace (ht_size x - nsize r) with (lenN xs) by lia. destruct (N.ltb_spec (nsize r) n) as [H1|H1].
  - set (j := n - nsize r).
    assert (Sx : st L h (ht_tail x :: ht_root x :: R)) by (eapply st_eqv; [|exact S]; intros y; cbn [occ hptr app]; lia).
    assert (G : xwp t (u <- xm (unique (ht_tail x)) ;;;
        if u then _ <- xm (destroy_right (ht_tail x) j (lenN xs)) ;;; xret (ht_tail x)
        else nt <- hcopy_leaf (ht_tail x) j ;;; _ <- xm (dec_leaf B BL (ht_tail x) (lenN xs)) ;;; xret nt) h
      (fun b h' => st L h' (b :: ht_root x :: R) /\ mv (Some (ht_root x :: R)) L L L h h' /\ nrep L h' b (Leaf (takeN j xs)))
      (back L h (hptr x ++ R))).
    { apply xwp_bind. apply xwp_m. destruct (nrep_leaf_inv _ _ _ _ N2) as [rc Hc]. eapply wv_unique; [exact Sx|exact Hc| |].
      - cbn [c_rc]. intros ->. destruct (sv_take _ _ _ _ _ Sx Hc eq_refl) as (S2 & Hb & Hc2 & M2). cbn [c_kids app] in S2, M2.
        apply xwp_bind. apply xwp_m. apply wp_bind. eapply wp_load_leaf; [exact Hc2|]. rewrite N.eqb_refl.
        apply wp_bind. eapply wp_lift; [apply rtakeN_ok; lia|].
        eapply wp_put_leaf; [exact S2|now left|exact Hc2|]. intros h2 (S3 & Hc3 & F3 & M3).
        destruct (pub_leaf _ _ _ _ _ S3 Hc3) as (S4 & M4 & Hn4). apply xwp_ret. split; [exact S4|]. split; [|exact Hn4].
        eapply mv_trans; [exact M2|]. apply mv_all. eapply mv_trans; [apply (M3 L); exact Hb|exact M4].
      - intros _. apply xwp_bind. eapply xwp_copy_leaf; [exact Sx|exact N2|apply rtakeN_ok; lia| |].
        + intros p h1 S1 Hp Hc1 M1. destruct (pub_leaf _ _ _ _ _ S1 Hc1) as (S2 & M2 & Hn2).
          pose proof (mv_trans _ _ _ _ _ _ _ _ M1 M2) as M12. apply xwp_bind. apply xwp_m.
          eapply wp_drop_leaf with (R := p :: ht_root x :: R); [|eapply mv_nrep; [exact M12|exact I|exact N2]|exact E2|].
          * eapply st_eqv; [|exact S2]. intros y. cbn [occ]. lia.
          * intros h3 (S3 & M3 & Sh3). apply xwp_ret. split; [exact S3|]. split.
            -- eapply mv_trans; [apply mv_all; exact M12|]. eapply mv_sub; [exact M3|]. intros y Hy. now right.
            -- eapply mv_nrep; [exact M3|now left|exact Hn2].
        + intros h1 _ S1 M1. eapply back_eqv; [|split; [exact S1|now apply mv_all]]. intros y. cbn [occ hptr app]. lia. }
    apply xwp_assoc. apply xwp_bind. eapply xwp_mono; [exact G| |auto]. clear G. intros b h1 (S1 & M1 & Hn1). apply xwp_ret.
    split; [|split].
    + unfold hptr. cbn [ht_root ht_tail app]. eapply st_eqv; [|exact S1]. intros y. cbn [occ]. lia.
    + eapply mv_sub; [exact M1|]. intros y Hy. now right.
    + eapply vec_intro; [exact E4|exact E5| |exact Hn1| | | |].
      * eapply mv_nrep; [exact M1|now left|exact N1].
      * rewrite lenN_takeN. lia.
      * rewrite lenN_takeN. lia.
      * rewrite lenN_takeN. lia.
      * rewrite takeN_app_ge by (fold (nsize r); lia). reflexivity.
  - eapply cut_ok with (m := true) (R := ht_tail x :: R); [exact S|exact Hr|lia|exact H1| |auto| |auto].
    { eapply statics_in; [|exact Hst]. intros y Hy. now right. }
    intros lv b tl h1 S1 M1 (r' & ys & G1 & G2 & G3 & G4 & G5 & G6 & G7). cbn [keep] in M1. apply xwp_bind. apply xwp_m.
    eapply wp_drop_leaf with (R := b :: tl :: R); [|eapply mv_nrep; [exact M1|now left|exact N2]|exact E2|].
    + eapply st_eqv; [|exact S1]. intros y. cbn [occ]. lia.
    + intros h2 (S2 & M2 & _). apply xwp_ret. split; [exact S2|]. split.
      * eapply mv_trans; [eapply mv_sub; [exact M1|]; intros y Hy; now right|].
        eapply mv_sub; [exact M2|]. intros y Hy. right. now right.
      * eapply vec_intro with (r := r') (xs := ys); [exact G1|exact G2| | |lia|lia|lia|].
        -- eapply mv_nrep; [exact M2|now left|exact G3].
        -- eapply mv_nrep; [exact M2|right; now left|exact G4].
        -- rewrite takeN_app_le by exact H1. exact G7.
Qed.

(** ** drop *)
Hypothesis Hrx : rx = true.
Lemma shape_rx l r : shape l r.
Proof. intros E. congruence. Qed.
Lemma hdrop_ok L h R x l n : st L h R -> vec L h x l -> statics L h R -> sh B BL (ht_lv x) < 32 -> ht_size x <= 2 ^ 32 ->
  xwp t (hdrop B BL nm rx er et x n) h (made None L h R (dropN n l)) (back L h R).
Proof.
  intros S Hv Hst Hsh H32. pose proof (vec_size _ _ _ _ Hv) as Hsz. pose proof Hv as (r & xs & Hr & El).
  pose proof Hr as (E1 & E2 & E3 & E4 & E5 & N1 & N2). unfold hdrop.
  destruct (N.eqb_spec n 0) as [->|Hn].
  { apply xwp_m. apply wp_hcopy with (L := L) (R := R) (l := l); [exact S|exact Hv|]. rewrite dropN_0. auto. }
  destruct (N.leb_spec (ht_size x) n) as [H|H].
  { apply xwp_m. rewrite dropN_all by lia. apply wp_hempty with (L := L) (R := R); [exact S|exact Hst|auto]. }
  pose proof Hst as (I1 & I2 & P1 & P2).
  apply xwp_bind. apply xwp_m. eapply wp_tail_offset; [exact Hr|]. subst l.
  destruct (N.eqb_spec n (nsize r)) as [->|Hne].
  { apply xwp_m. apply wp_bind. apply wv_inc with (L := L) (R := R); [exact S|eapply srep_live; exact P1|]. intros h1 S1 M1.
    apply wp_bind. apply wv_inc with (L := L) (R := er :: R); [exact S1|eapply mv_live; [exact M1|exact I|eapply srep_live; exact N2]|].
    intros h2 S2 M2. apply wp_ret. pose proof (mv_trans _ _ _ _ _ _ _ _ M1 M2) as M. split; [|split; [exact M|]].
    - unfold hptr. cbn [ht_root ht_tail app]. eapply st_eqv; [|exact S2]. intros y. cbn [occ]. lia.
    - eapply vec_intro; [left; split; reflexivity|apply shape_rx| | | |exact E2| |].
      + eapply mv_nrep; [exact M|exact I|exact P1].
      + eapply mv_nrep; [exact M|exact I|exact N2].
      + rewrite (RrbTree.nsize_empty_root (T := T)). lia.
      + lia.
      + unfold nsize. now rewrite dropN_app. }
  replace (ht_size x - nsize r) with (lenN xs) by lia.
  destruct (N.ltb_spec (nsize r) n) as [H1|H1].
  - assert (Ez : rsliceN (n - nsize r) (lenN xs) xs = Ok (dropN (n - nsize r) xs)).
    { rewrite <- (takeN_dropN (n - nsize r) xs) at 2.
      rewrite rsliceN_app_r; [reflexivity|rewrite lenN_takeN; lia|rewrite lenN_dropN; lia]. }
    apply xwp_bind. eapply xwp_copy_range; [exact S|exact N2|exact Ez| |].
    + intros p h1 S1 Hp Hc1 M1. destruct (pub_leaf _ _ _ _ _ S1 Hc1) as (S2 & M2 & Hn2).
      pose proof (mv_trans _ _ _ _ _ _ _ _ M1 M2) as M12. apply xwp_bind. apply xwp_m.
      apply wv_inc with (L := L) (R := p :: R); [exact S2|eapply mv_live; [exact M12|exact I|eapply srep_live; exact P1]|].
      intros h2 S3 M3. apply xwp_ret. pose proof (mv_trans _ _ _ _ _ _ _ _ M12 M3) as M.
      split; [exact S3|]. split; [exact M|]. eapply vec_intro; [left; split; reflexivity|apply shape_rx| | | | | |].
      * eapply mv_nrep; [exact M|exact I|exact P1].
      * eapply mv_nrep; [exact M3|exact I|exact Hn2].
      * rewrite (RrbTree.nsize_empty_root (T := T)), lenN_dropN. lia.
      * rewrite lenN_dropN. lia.
      * rewrite lenN_dropN. lia.
      * rewrite dropN_app_ge by (fold (nsize r); lia). reflexivity.
    + intros h1 _ S1 M1. split; [exact S1|now apply mv_all].
  - apply xwp_bind. apply xwp_m. eapply wp_maybe_root; [exact Hr|lia|]. intros q p Eq Hq Hok Hs.
    destruct (slice_left_ok B BL true (Datatypes.S (ht_lv x)) p r n) as (w & r' & Es & Hwr & He & Hwl & _ & Hw1); auto; [lia|lia|].
    apply xwp_bind. eapply xwp_mono; [eapply hslice_left_ok with (m := false) (R := R); [exact Eq|exact S|exact Hq|exact Hok|exact Hs|lia|exact Hsh|lia|exact Es]| |].
    2: { intros h1 (S1 & M1 & _). split; [exact S1|exact M1]. }
    intros [w' b] h1 (Ew & S1 & M1 & Hn1). cbn [fst snd keep] in *. subst w'. apply xwp_bind. apply xwp_m.
    apply wv_inc with (L := L) (R := b :: R); [exact S1|eapply mv_live; [exact M1|exact I|eapply srep_live; exact N2]|].
    intros h2 S2 M2. pose proof (mv_trans _ _ _ _ _ _ _ _ M1 M2) as M. destruct w as [|lv]; [lia|]. apply xwp_ret.
    split; [|split; [exact M|]].
    + unfold hptr. cbn [ht_root ht_tail app]. eapply st_eqv; [|exact S2]. intros y. cbn [occ]. lia.
    + eapply vec_intro; [right; exact Hwr|apply shape_rx| | | |exact E2|lia|].
      * eapply mv_nrep; [exact M2|exact I|exact Hn1].
      * eapply mv_nrep; [exact M|exact I|exact N2].
      * unfold nsize. rewrite He, lenN_dropN. fold (nsize r). lia.
      * rewrite He. apply dropN_app_le. fold (nsize r). lia.
Qed.

(** What an exception in drop_mut leaves: the handle holds what it held. *)
Definition kept_back L h R x (l : list T) h' : Prop := st L h' (hptr x ++ R) /\ mv (Some R) L L L h h' /\ vec L h' x l.
Lemma hdrop_mut_ok L h R x l n : st L h (hptr x ++ R) -> vec L h x l -> statics L h R ->
  sh B BL (ht_lv x) < 32 -> ht_size x <= 2 ^ 32 ->
  xwp t (hdrop_mut B BL nm rx er et x n) h (made (Some R) L h R (dropN n l)) (kept_back L h R x l).
Proof.
  intros S Hv Hst Hsh H32. pose proof (vec_size _ _ _ _ Hv) as Hsz. pose proof Hv as (r & xs & Hr & El).
  pose proof Hr as (E1 & E2 & E3 & E4 & E5 & N1 & N2). unfold hdrop_mut.
  apply xwp_bind. apply xwp_m. eapply wp_tail_offset; [exact Hr|].
  destruct (N.eqb_spec n 0) as [->|Hn].
  { apply xwp_ret. rewrite dropN_0. split; [exact S|]. split; [apply mv_refl|exact Hv]. }
  destruct (N.leb_spec (ht_size x) n) as [H|H].
  { apply xwp_m. rewrite dropN_all by lia. apply wp_hclear with (L := L) (R := R) (l := l); [exact S|exact Hv|exact Hst|auto]. }
  pose proof Hst as (I1 & I2 & P1 & P2).
  (* dropping the root and putting the empty one in its place *)
  assert (G : forall hh tl ys sz, 0 < nsize r -> st L hh (ht_root x :: tl :: R) -> mv (Some (ht_root x :: R)) L L L h hh -> nrep L hh tl (Leaf ys) ->
    sz = lenN ys -> 0 < lenN ys -> lenN ys <= lwidth -> ys = dropN n l ->
    wp (_ <~ dec_inner B BL (Datatypes.S (ht_lv x)) (ht_root x) (nsize r) ;; _ <~ inc er ;; mret (mkHT sz O er tl)) hh
      (made (Some R) L h R (dropN n l))).
  { intros hh tl ys sz Hpos Sh Mh Hn0 -> Hy1 Hy2 <-. pose proof (RrbTree.root_pos B BL HB _ _ E4 Hpos) as Hw.
    apply wp_bind. eapply wp_dec_inner with (R := tl :: R); [exact Sh|eapply mv_nrep; [exact Mh|now left|exact N1]|exact Hw|].
    intros h1 (S1 & M1 & Sh1). apply wp_bind.
    assert (Mh1 : mv (Some R) L L L h h1).
    { eapply mv_trans; [eapply mv_sub; [exact Mh|]; intros y Hy; now right|]. eapply mv_sub; [exact M1|]. intros y Hy. now right. }
    apply wv_inc with (L := L) (R := tl :: R); [exact S1|eapply mv_live; [exact Mh1|exact I1|eapply srep_live; exact P1]|].
    intros h2 S2 M2. apply wp_ret. split; [exact S2|]. split; [eapply mv_trans; [exact Mh1|now apply mv_all]|].
    eapply vec_intro with (r := Inner None []); [left; split; reflexivity|apply shape_rx| | | |exact Hy2|auto|reflexivity].
    - eapply mv_nrep; [exact M2|exact I|]. eapply mv_nrep; [exact Mh1|exact I1|exact P1].
    - eapply mv_nrep; [exact M2|exact I|]. eapply mv_nrep; [exact M1|now left|exact Hn0].
    - rewrite (RrbTree.nsize_empty_root (T := T)). lia. }
  destruct (N.eqb_spec n (nsize r)) as [->|Hne].
  { apply xwp_m. apply G with (ys := xs); [lia|exact S|apply mv_refl|exact N2|lia|lia|exact E2|].
    subst l. unfold nsize. now rewrite dropN_app. }
  replace (ht_size x - nsize r) with (lenN xs) by lia.
  destruct (N.ltb_spec (nsize r) n) as [H1|H1].
  - destruct (leaf_pos xs ltac:(lia) E2) as [Hok Hmk]. apply xwp_bind. apply xwp_m. eapply wp_lift; [exact Hmk|].
    assert (Hs0 : sh B BL (pred 0) < 32).
    { cbn [pred]. eapply N.le_lt_trans; [|exact Hsh]. unfold sh. cbn [N.of_nat]. nia. }
    destruct (slice_left_ok B BL true O (PSub (Leaf xs) (lenN xs)) (Leaf xs) (n - nsize r)) as (w & r' & Es & Hwr & He & Hwl & _ & Hw1); auto.
    { rewrite nsize_leaf. lia. } { rewrite nsize_leaf. lia. }
    apply xwp_bind. eapply xwp_mono.
    { eapply hslice_left_ok with (m := true) (hp := HSub (ht_tail x) (lenN xs)) (R := ht_root x :: R) (L := L) (h := h);
        [reflexivity| |constructor; exact N2|exact Hok|reflexivity|rewrite nsize_leaf; lia|exact Hs0|rewrite nsize_leaf; lia|exact Es].
      eapply st_eqv; [|exact S]. intros y. cbn [occ hptr own app]. lia. }
    2: { intros h1 (S1 & M1 & Hk). split; [|split].
      - eapply st_eqv; [|exact S1]. intros y. cbn [occ hptr own app]. lia.
      - eapply mv_sub; [exact M1|]. intros y Hy. now right.
      - exists r, xs. split; [|exact El]. split; [exact E1|]. split; [exact E2|]. split; [exact E3|]. split; [exact E4|].
        split; [exact E5|]. split; [eapply mv_nrep; [exact M1|now left|exact N1]|now apply Hk]. }
    intros [w' b] h1 (Ew & S1 & M1 & Hn1). cbn [fst snd keep] in *. subst w'.
    assert (w = O) as -> by lia. destruct (wf_leaf _ _ _ Hwr) as (ys & -> & Hy). cbn [elems] in He.
    assert (Hyl : lenN ys = ht_size x - n) by (rewrite He, lenN_dropN; lia).
    assert (Ey : ys = dropN n l).
    { rewrite He, El, dropN_app_ge by (fold (nsize r); lia). reflexivity. }
    destruct (N.ltb_spec 0 (nsize r)) as [Hp|Hp].
    + apply xwp_m. apply G with (ys := ys); [exact Hp| |exact M1|exact Hn1|lia|lia|lia|exact Ey].
      eapply st_eqv; [|exact S1]. intros y. cbn [occ]. lia.
    + apply xwp_ret. destruct (root_zero _ _ E4 ltac:(lia)) as [Er0 El0]. split; [|split].
      * unfold hptr. cbn [ht_root ht_tail app]. eapply st_eqv; [|exact S1]. intros y. cbn [occ]. lia.
      * eapply mv_sub; [exact M1|]. intros y Hz. now right.
      * eapply vec_intro with (r := r); [exact E4|exact E5| |exact Hn1|lia|lia|lia|].
        -- eapply mv_nrep; [exact M1|now left|exact N1].
        -- rewrite Er0, <- Ey. reflexivity.
  - apply xwp_bind. apply xwp_m. eapply wp_maybe_root; [exact Hr|lia|]. intros q p Eq Hq Hok Hs.
    destruct (slice_left_ok B BL true (Datatypes.S (ht_lv x)) p r n) as (w & r' & Es & Hwr & He & Hwl & _ & Hw1); auto; [lia|lia|].
    apply xwp_bind. eapply xwp_mono; [eapply hslice_left_ok with (m := true) (R := ht_tail x :: R); [exact Eq|exact S|exact Hq|exact Hok|exact Hs|lia|exact Hsh|lia|exact Es]| |].
    2: { intros h1 (S1 & M1 & Hk). split; [exact S1|]. split.
      - eapply mv_sub; [exact M1|]. intros y Hy. now right.
      - exists r, xs. split; [|exact El]. split; [exact E1|]. split; [exact E2|]. split; [exact E3|]. split; [exact E4|].
        split; [exact E5|]. split; [now apply Hk|eapply mv_nrep; [exact M1|now left|exact N2]]. }
    intros [w' b] h1 (Ew & S1 & M1 & Hn1). cbn [fst snd keep] in *. subst w'. destruct w as [|lv]; [lia|]. apply xwp_ret.
    split; [exact S1|split; [eapply mv_sub; [exact M1|]; intros y Hy; now right|]].
    eapply vec_intro; [right; exact Hwr|apply shape_rx|exact Hn1| | |exact E2|lia|].
    + eapply mv_nrep; [exact M1|now left|exact N2].
    + unfold nsize. rewrite He, lenN_dropN. fold (nsize r). lia.
    + rewrite He, El. apply dropN_app_le. fold (nsize r). lia.
Qed.
End Proofs.
