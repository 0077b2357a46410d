(** Making and copying nodes in VecHeap, paths, update and get_mut. *)
From Coq Require Import List NArith Arith Bool Lia ZifyN ZifyNat ZifyBool.
From Verif Require Import Common NList Rrb RrbInv RrbPos RrbOps RrbSlice RrbViewOk AtomProofs
  RcHeap RcProofs RcExn RcExnProofs RcMove VecHeap VecPlan VecNodes.
Import ListNotations.
Local Open Scope N_scope.
Set Default Goal Selector "!".

Section Make.
Context {T : Type}.
Variables B BL : N.
Notation body := (vbody T).
Notation heap := (heap body). Notation cell := (cell body).
Notation pos_ok := (@pos_ok T B BL).
Notation wf := (@wf T B BL).
Implicit Types (h : heap) (L R : list nat).
Variable t : bool.

(** After an exception: what is referred to is as before. *)
Definition back L h R h' : Prop := st L h' R /\ mv (Some R) L L L h h'.
Lemma dropped_back L h R h' : dropped L h R h' -> back L h R h'.
Proof. intros (S & M & _). now split. Qed.

Lemma xwp_make_inner L h R (Q : nat -> heap -> Prop) (E : heap -> Prop) : st L h R ->
  (forall a h', st (a :: L) h' R -> ~ In a L -> cell_at h' a (icell 1 None []) ->
     mv None L L (a :: L) h h' -> Q a h') ->
  (t = true -> E h) -> xwp t make_inner h Q E.
Proof.
  intros S K KE. apply xwp_bind. apply xwp_throw; [|exact KE]. apply xwp_m.
  apply wv_new_local with (L := L) (R := R); [exact S|]. intros a h' S' Hn Hc M. now apply K.
Qed.
Lemma xwp_make_inner_r v L h R (Q : nat -> heap -> Prop) (E : heap -> Prop) : st L h R ->
  (forall a r h', st (r :: a :: L) h' R -> cell_at h' a (icell 1 (Some r) []) ->
     cell_at h' r (mkCell 1 (VTable v []) []) -> mv None L L (r :: a :: L) h h' -> Q a h') ->
  (forall h', t = true -> st L h' R -> mv None L L L h h' -> E h') -> xwp t (make_inner_r v) h Q E.
Proof.
  intros S K KE. apply xwp_bind. apply xwp_throw; [|intros Ht; apply KE; [exact Ht|exact S|apply mv_refl]].
  apply xwp_bind. apply xwp_m. apply wv_new_local with (L := L) (R := R); [exact S|]. intros a h1 S1 Hn1 Hc1 M1.
  apply xwp_bind. apply xwp_try. apply xwp_throw.
  - apply xwp_m. apply wp_bind. apply wv_new_local with (L := a :: L) (R := R); [exact S1|].
    intros r h2 S2 Hn2 Hc2 M2. apply wp_bind.
    assert (cell_at h2 a (icell 1 None [])) as Ha by (eapply mv_local; [exact M2|now left|exact Hc1]).
    eapply wp_put_inner; [exact S2|right; now left|exact Ha|]. intros h3 (S3 & Hc3 & F3 & M3). apply wp_ret.
    apply (K a r h3); [exact S3|exact Hc3| |].
    + unfold cell_at. rewrite F3; [exact Hc2|]. intros ->. apply Hn2. now left.
    + eapply mv_trans; [exact M1|]. eapply mv_trans; [eapply mv_tail; exact M2|]. apply M3. exact Hn1.
  - intros Ht. apply wv_free with (L := L) (R := R); [exact S1|]. intros h2 S2 M2 _.
    apply KE; [exact Ht|exact S2|]. eapply mv_trans; eauto.
Qed.
Lemma xwp_make_inner_sr L h R r (Q : nat -> heap -> Prop) (E : heap -> Prop) : st L h R -> live L h r ->
  (forall a h', st (a :: L) h' (r :: R) -> ~ In a L -> cell_at h' a (icell 1 (Some r) []) ->
     mv None L L (a :: L) h h' -> Q a h') ->
  (t = true -> E h) -> xwp t (make_inner_sr r) h Q E.
Proof.
  intros S Hl K KE. apply xwp_bind. apply xwp_throw; [|exact KE]. apply xwp_m. apply wp_bind.
  apply wv_inc with (L := L) (R := R); [exact S|exact Hl|]. intros h1 S1 M1.
  apply wv_new_local with (L := L) (R := r :: R); [exact S1|]. intros a h' S' Hn Hc M.
  apply K; [exact S'|exact Hn|exact Hc|]. eapply mv_trans; eauto.
Qed.
Lemma xwp_make_inner_sr_n L h R n r v sz (Q : nat -> heap -> Prop) (E : heap -> Prop) : st L h R -> trep L h r v sz ->
  n <= lenN sz ->
  (forall a h', st (a :: L) h' (r :: R) -> ~ In a L -> cell_at h' a (icell 1 (Some r) []) ->
     mv None L L (a :: L) h h' -> Q a h') ->
  (t = true -> E h) -> xwp t (make_inner_sr_n n r) h Q E.
Proof.
  intros S Ht Hle K KE. apply xwp_bind. apply xwp_throw; [|exact KE]. apply xwp_m. apply wp_bind.
  destruct (trep_inv _ _ _ _ _ Ht) as [rc Hr]. eapply wp_load_table; [apply (at_wipe _ _ _ _ Hr)|].
  destruct (N.leb_spec n (lenN sz)); [|lia]. apply wp_bind.
  apply wv_inc with (L := L) (R := R); [exact S|eexists; exact Hr|]. intros h1 S1 M1.
  apply wv_new_local with (L := L) (R := r :: R); [exact S1|]. intros a h' S' Hn Hc M.
  apply K; [exact S'|exact Hn|exact Hc|]. eapply mv_trans; eauto.
Qed.
Lemma xwp_fill_leaf L h R ys zs (Q : nat -> heap -> Prop) (E : heap -> Prop) : st L h R -> ys = Ok zs ->
  (forall a h', st (a :: L) h' R -> ~ In a L -> cell_at h' a (mkCell 1 (VLeaf zs) []) ->
     mv None L L (a :: L) h h' -> Q a h') ->
  (forall h', t = true -> st L h' R -> mv None L L L h h' -> E h') -> xwp t (fill_leaf ys) h Q E.
Proof.
  intros S -> K KE. apply xwp_bind. apply xwp_throw; [|intros Ht; apply KE; [exact Ht|exact S|apply mv_refl]].
  apply xwp_bind. apply xwp_m. apply wv_new_local with (L := L) (R := R); [exact S|]. intros a h1 S1 Hn1 Hc1 M1.
  apply xwp_bind. apply xwp_try. apply xwp_throw.
  - apply xwp_bind. apply xwp_m. apply wp_bind. eapply wp_lift; [reflexivity|].
    eapply wp_put_leaf; [exact S1|now left|exact Hc1|]. intros h2 (S2 & Hc2 & F2 & M2). apply xwp_ret.
    apply K; [exact S2|exact Hn1|exact Hc2|]. eapply mv_trans; [exact M1|now apply M2].
  - intros Ht. apply wp_bind. eapply wp_load_leaf; [exact Hc1|].
    apply wv_free with (L := L) (R := R); [exact S1|]. intros h2 S2 M2 _.
    apply KE; [exact Ht|exact S2|]. eapply mv_trans; eauto.
Qed.
Lemma xwp_copy_leaf L h R a xs n zs (Q : nat -> heap -> Prop) (E : heap -> Prop) : st L h R -> nrep L h a (Leaf xs) ->
  rtakeN n xs = Ok zs ->
  (forall p h', st (p :: L) h' R -> ~ In p L -> cell_at h' p (mkCell 1 (VLeaf zs) []) ->
     mv None L L (p :: L) h h' -> Q p h') ->
  (forall h', t = true -> st L h' R -> mv None L L L h h' -> E h') -> xwp t (hcopy_leaf a n) h Q E.
Proof.
  intros S Hn Hz K KE. destruct (nrep_leaf_inv _ _ _ _ Hn) as [rc Hc]. apply xwp_bind. apply xwp_m.
  eapply wp_load_leaf; [apply (at_wipe _ _ _ _ Hc)|]. eapply xwp_fill_leaf; eauto.
Qed.
Lemma xwp_copy_range L h R a xs i j zs (Q : nat -> heap -> Prop) (E : heap -> Prop) : st L h R -> nrep L h a (Leaf xs) ->
  rsliceN i j xs = Ok zs ->
  (forall p h', st (p :: L) h' R -> ~ In p L -> cell_at h' p (mkCell 1 (VLeaf zs) []) ->
     mv None L L (p :: L) h h' -> Q p h') ->
  (forall h', t = true -> st L h' R -> mv None L L L h h' -> E h') -> xwp t (hcopy_range a i j) h Q E.
Proof.
  intros S Hn Hz K KE. destruct (nrep_leaf_inv _ _ _ _ Hn) as [rc Hc]. apply xwp_bind. apply xwp_m.
  eapply wp_load_leaf; [apply (at_wipe _ _ _ _ Hc)|]. eapply xwp_fill_leaf; eauto.
Qed.
Lemma wp_delete_leaf L h R a rc xs n (Q : unit -> heap -> Prop) : st (a :: L) h R ->
  cell_at h a (mkCell rc (VLeaf xs) []) -> lenN xs = n ->
  (forall h', st L h' R -> mv None L (a :: L) L h h' -> Q tt h') -> wp (delete_leaf a n) h Q.
Proof.
  intros S Hc En K. apply wp_bind. eapply wp_load_leaf; [exact Hc|]. rewrite En, N.eqb_refl.
  apply wv_free with (L := L) (R := R); [exact S|]. intros h' S' M _. now apply K.
Qed.
Lemma xwp_copy_emplace L h R a xs n zs x (Q : nat -> heap -> Prop) (E : heap -> Prop) : st L h R -> nrep L h a (Leaf xs) ->
  rtakeN n xs = Ok zs ->
  (forall p h', st (p :: L) h' R -> ~ In p L -> cell_at h' p (mkCell 1 (VLeaf (zs ++ [x])) []) ->
     mv None L L (p :: L) h h' -> Q p h') ->
  (forall h', t = true -> st L h' R -> mv None L L L h h' -> E h') -> xwp t (hcopy_emplace a n x) h Q E.
Proof.
  intros S Hn Hz K KE. apply xwp_bind. eapply xwp_copy_leaf; [exact S|exact Hn|exact Hz| |exact KE].
  intros p h1 S1 Hn1 Hc1 M1. apply xwp_bind. apply xwp_try. apply xwp_throw.
  - apply xwp_bind. apply xwp_m. apply wp_bind. eapply wp_load_leaf; [exact Hc1|].
    eapply wp_put_leaf; [exact S1|now left|exact Hc1|]. intros h2 (S2 & Hc2 & F2 & M2). apply xwp_ret.
    apply K; [exact S2|exact Hn1|exact Hc2|]. eapply mv_trans; [exact M1|now apply M2].
  - intros Ht. pose proof (rtakeN_inv _ _ _ Hz) as [Hle ->].
    eapply wp_delete_leaf; [exact S1|exact Hc1|rewrite lenN_takeN; lia|]. intros h2 S2 M2.
    apply KE; [exact Ht|exact S2|]. eapply mv_trans; eauto.
Qed.
Lemma xwp_copy_leaf2 L h R a xs n zs a2 xs2 n2 zs2 (Q : nat -> heap -> Prop) (E : heap -> Prop) :
  st L h R -> nrep L h a (Leaf xs) -> rtakeN n xs = Ok zs -> nrep L h a2 (Leaf xs2) -> rtakeN n2 xs2 = Ok zs2 ->
  (forall p h', st (p :: L) h' R -> ~ In p L -> cell_at h' p (mkCell 1 (VLeaf (zs ++ zs2)) []) ->
     mv None L L (p :: L) h h' -> Q p h') ->
  (forall h', t = true -> st L h' R -> mv None L L L h h' -> E h') -> xwp t (hcopy_leaf2 a n a2 n2) h Q E.
Proof.
  intros S Hn Hz Hn2 Hz2 K KE. apply xwp_bind. eapply xwp_copy_leaf; [exact S|exact Hn|exact Hz| |exact KE].
  intros p h1 S1 Hn1 Hc1 M1. apply xwp_bind. apply xwp_try. apply xwp_throw.
  - apply xwp_bind. apply xwp_m. apply wp_bind. eapply wp_load_leaf; [exact Hc1|]. apply wp_bind.
    assert (nrep (p :: L) h1 a2 (Leaf xs2)) as Hn2' by (eapply mv_nrep; [exact M1|exact I|exact Hn2]).
    destruct (nrep_leaf_inv _ _ _ _ Hn2') as [rc2 Hc2]. eapply wp_load_leaf; [apply (at_wipe _ _ _ _ Hc2)|].
    apply wp_bind. eapply wp_lift; [exact Hz2|].
    eapply wp_put_leaf; [exact S1|now left|exact Hc1|]. intros h2 (S2 & Hc3 & F2 & M2). apply xwp_ret.
    apply K; [exact S2|exact Hn1|exact Hc3|]. eapply mv_trans; [exact M1|now apply M2].
  - intros Ht. pose proof (rtakeN_inv _ _ _ Hz) as [Hle ->].
    eapply wp_delete_leaf; [exact S1|exact Hc1|rewrite lenN_takeN; lia|]. intros h2 S2 M2.
    apply KE; [exact Ht|exact S2|]. eapply mv_trans; eauto.
Qed.

(** ** Publishing nodes *)
Lemma pub_leaf L h R a xs : st (a :: L) h R -> cell_at h a (mkCell 1 (VLeaf xs) []) ->
  st L h (a :: R) /\ mv None L (a :: L) L h h /\ nrep L h a (Leaf xs).
Proof.
  intros S Hc. destruct (sv_put L h R a (mkCell 1 (VLeaf xs) []) S Hc eq_refl) as (S' & M & Hc').
  split; [exact S'|]. split; [exact M|]. eapply nrep_leaf; exact Hc'.
Qed.
Lemma pub_inner L h R a r cs o ns : st (a :: L) h (ptrs r cs ++ R) -> cell_at h a (icell 1 r cs) ->
  orep (a :: L) h r (lv1 ns) o -> Forall2 (nrep (a :: L) h) cs ns ->
  st L h (a :: R) /\ mv None L (a :: L) L h h /\ nrep L h a (Inner o ns) /\ cell_at (wipe L h) a (icell 1 r cs).
Proof.
  intros S Hc Ho Hk. destruct (sv_put L h R a (icell 1 r cs) S Hc eq_refl) as (S' & M & Hc').
  split; [exact S'|]. split; [exact M|]. split; [|exact Hc']. eapply nrep_inner; [exact Hc'| |].
  - destruct r, o; cbn in *; try easy. eapply mv_trep; [exact M|exact I|exact Ho].
  - eapply mv_nreps; [exact M|intros; exact I|exact Hk].
Qed.
Lemma pub_rel L h R a r cs v sz ns : st (r :: a :: L) h (cs ++ R) -> cell_at h a (icell 1 (Some r) cs) ->
  cell_at h r (mkCell 1 (VTable v sz) []) -> v = lv1 ns -> Forall2 (nrep (r :: a :: L) h) cs ns ->
  st L h (a :: R) /\ mv None L (r :: a :: L) L h h /\ nrep L h a (Inner (Some sz) ns).
Proof.
  intros S Hc Hr -> Hk. destruct (sv_put (a :: L) h (cs ++ R) r (mkCell 1 (VTable (lv1 ns) sz) []) S Hr eq_refl) as (S' & M & Hr').
  destruct (pub_inner L h R a (Some r) cs (Some sz) ns) as (S2 & M2 & Hn & _).
  - exact S'.
  - exact Hc.
  - eapply trep_intro; exact Hr'.
  - eapply mv_nreps; [exact M|intros; exact I|exact Hk].
  - split; [exact S2|]. split; [|exact Hn]. eapply mv_trans; [eapply mv_tail; exact M|exact M2].
Qed.

(** ** Paths *)
Lemma xwp_hmake_path v : forall tl n L h R (Q : nat -> heap -> Prop) (E : heap -> Prop),
  st L h (tl :: R) -> nrep L h tl n ->
  (forall a h', st L h' (a :: R) -> mv None L L L h h' -> nrep L h' a (make_path v n) -> (v = O -> a = tl) -> Q a h') ->
  (forall h', t = true -> st L h' (tl :: R) -> mv None L L L h h' -> E h') -> xwp t (hmake_path v tl) h Q E.
Proof.
  induction v as [|v IH]; intros tl n L h R Q E S Hn K KE; cbn [hmake_path make_path] in *.
  - apply xwp_ret. apply K; [exact S|apply mv_refl|exact Hn|reflexivity].
  - apply xwp_bind. eapply xwp_make_inner; [exact S| |intros Ht; apply KE; [exact Ht|exact S|apply mv_refl]].
    intros a h1 S1 Hn1 Hc1 M1. apply xwp_bind. apply xwp_try. apply xwp_bind.
    eapply IH with (L := a :: L) (R := R); [exact S1|eapply mv_nrep; [exact M1|exact I|exact Hn]| |].
    + intros c h2 S2 M2 Hc2 _. apply xwp_m.
      eapply wp_put_inner; [exact S2|now left|eapply mv_local; [exact M2|now left|exact Hc1]|].
      intros h3 (S3 & Hc3 & F3 & M3). apply xwp_ret.
      destruct (pub_inner L h3 R a None [c] None [make_path v n]) as (S4 & M4 & Hn4 & _).
      * exact S3.
      * exact Hc3.
      * exact I.
      * constructor; [|constructor]. eapply mv_nrep; [apply (M3 L); exact Hn1|exact I|exact Hc2].
      * apply K; [exact S4| |exact Hn4|discriminate].
        eapply mv_trans; [exact M1|]. eapply mv_trans; [eapply mv_tail; exact M2|].
        eapply mv_trans; [apply (M3 L); exact Hn1|exact M4].
    + intros h2 Ht S2 M2. apply wv_free with (L := L) (R := tl :: R); [exact S2|]. intros h3 S3 M3 _.
      apply KE; [exact Ht|exact S3|]. eapply mv_trans; [exact M1|]. eapply mv_trans; [eapply mv_tail; exact M2|exact M3].
Qed.

(** ** Copies of inner nodes *)
Lemma wp_do_copy_inner L h R dst src rc r src_rc sr cs cs' n more (Q : unit -> heap -> Prop) :
  st L h R -> In dst L -> cell_at h dst (icell rc r []) -> cell_at (wipe L h) src (icell src_rc sr cs) ->
  Forall (live L h) cs -> rtakeN n cs = Ok cs' ->
  (forall h', st L h' (cs' ++ R) -> cell_at h' dst (icell rc r (cs' ++ more)) ->
     (forall L0, ~ In dst L0 -> incl L0 L -> mv None L0 L L h h') -> Q tt h') ->
  wp (do_copy_inner dst src n more) h Q.
Proof.
  intros S Hi Hd Hs Hl E K. apply wp_bind. eapply wp_load_inner; [apply (at_wipe _ _ _ _ Hs)|].
  apply wp_bind. eapply wp_lift; [exact E|]. apply rtakeN_inv in E. destruct E as [_ ->].
  apply wp_bind. eapply wv_incs; [exact S| |].
  { rewrite <- (takeN_dropN n cs) in Hl. apply Forall_app in Hl. apply Hl. }
  intros h1 S1 M1. apply wp_bind.
  assert (Hd1 : cell_at h1 dst (icell rc r [])) by (eapply mv_local; [exact M1|exact Hi|exact Hd]).
  eapply wp_load_inner; [exact Hd1|].
  eapply wp_put_inner; [exact S1|exact Hi|exact Hd1|]. intros h2 (S2 & Hc2 & F2 & M2).
  apply K; [exact S2|exact Hc2|]. intros L0 H0 Hincl. eapply mv_trans; [|apply M2; exact H0].
  eapply mv_weak; [exact M1|exact Hincl].
Qed.
Lemma wp_do_copy_inner_replace L h R dst src rc r src_rc sr cs ca cx cb c (Q : unit -> heap -> Prop) :
  st L h R -> In dst L -> cell_at h dst (icell rc r []) -> cell_at (wipe L h) src (icell src_rc sr cs) ->
  Forall (live L h) cs -> cs = ca ++ cx :: cb ->
  (forall h', st L h' (ca ++ cb ++ R) -> cell_at h' dst (icell rc r (ca ++ c :: cb)) ->
     (forall L0, ~ In dst L0 -> incl L0 L -> mv None L0 L L h h') -> Q tt h') ->
  wp (do_copy_inner_replace dst src (lenN cs) (lenN ca) c) h Q.
Proof.
  intros S Hi Hd Hs Hl -> K. apply Forall_app in Hl. destruct Hl as [Hl1 Hl2]. inversion Hl2 as [|? ? _ Hl3]; subst.
  apply wp_bind. eapply wp_load_inner; [apply (at_wipe _ _ _ _ Hs)|].
  apply wp_bind. eapply wp_lift.
  { apply rtakeN_len. rewrite lenN_app. lia. }
  rewrite takeN_app. apply wp_bind. eapply wp_lift.
  { apply rsliceN_len. rewrite lenN_app, lenN_cons. lia. }
  replace (takeN (lenN (ca ++ cx :: cb) - (lenN ca + 1)) (dropN (lenN ca + 1) (ca ++ cx :: cb))) with cb.
  2: { rewrite dropN_app_ge by lia. replace (lenN ca + 1 - lenN ca) with 1 by lia.
       change (dropN 1 (cx :: cb)) with cb. symmetry. apply takeN_all. rewrite lenN_app, lenN_cons. lia. }
  apply wp_bind. eapply wv_incs; [exact S|exact Hl1|]. intros h1 S1 M1.
  apply wp_bind. eapply wv_incs; [exact S1| |].
  { eapply Forall_impl; [|exact Hl3]. intros x Hx. eapply mv_live; [exact M1|exact I|exact Hx]. }
  intros h2 S2 M2. apply wp_bind.
  assert (Hd2 : cell_at h2 dst (icell rc r [])).
  { eapply mv_local; [exact M2|exact Hi|]. eapply mv_local; [exact M1|exact Hi|exact Hd]. }
  eapply wp_load_inner; [exact Hd2|].
  eapply wp_put_inner; [exact S2|exact Hi|exact Hd2|]. intros h3 (S3 & Hc3 & F3 & M3).
  apply K; [|exact Hc3|].
  - eapply st_eqv; [|exact S3]. intros x. rewrite !occ_app. lia.
  - intros L0 H0 Hincl. eapply mv_trans; [eapply mv_weak; [exact M1|exact Hincl]|].
    eapply mv_trans; [eapply mv_weak; [exact M2|exact Hincl]|]. now apply M3.
Qed.
Lemma wp_do_copy_inner_r L h R dst dr src rc src_rc sr cs cs' v w sz sz' n more msz (Q : unit -> heap -> Prop) :
  st (dr :: dst :: L) h R -> cell_at h dst (icell rc (Some dr) []) -> cell_at h dr (mkCell 1 (VTable v []) []) ->
  cell_at (wipe (dr :: dst :: L) h) src (icell src_rc (Some sr) cs) -> trep (dr :: dst :: L) h sr w sz ->
  Forall (live (dr :: dst :: L) h) cs -> rtakeN n cs = Ok cs' -> rtakeN n sz = Ok sz' ->
  (forall h', st (dr :: dst :: L) h' (cs' ++ R) -> cell_at h' dst (icell rc (Some dr) (cs' ++ more)) ->
     cell_at h' dr (mkCell 1 (VTable v (sz' ++ msz)) []) ->
     mv None L (dr :: dst :: L) (dr :: dst :: L) h h' -> Q tt h') ->
  wp (do_copy_inner_r dst src n more msz) h Q.
Proof.
  intros S Hd Hdr Hs Ht Hl E Ez K. pose proof S as (_ & _ & ND).
  inversion ND as [|? ? Hn1 ND1]; subst. inversion ND1 as [|? ? Hn2 _]; subst.
  assert (Hne : dr <> dst) by (intros ->; apply Hn1; now left).
  assert (Hn3 : ~ In dr L) by (intros Hi; apply Hn1; now right).
  apply wp_bind. eapply wp_load_inner; [apply (at_wipe _ _ _ _ Hs)|].
  apply wp_bind. eapply wp_load_inner; [exact Hd|].
  apply wp_bind. eapply wp_lift; [exact E|]. apply rtakeN_inv in E. destruct E as [_ ->].
  apply wp_bind. eapply wv_incs; [exact S| |].
  { rewrite <- (takeN_dropN n cs) in Hl. apply Forall_app in Hl. apply Hl. }
  intros h1 S1 M1. apply wp_bind.
  eapply wp_put_inner; [exact S1|right; now left|eapply mv_local; [exact M1|right; now left|exact Hd]|].
  intros h2 (S2 & Hc2 & F2 & M2). apply wp_bind.
  assert (Ht2 : trep (dr :: dst :: L) h2 sr w sz).
  { eapply mv_trep; [apply (M2 L Hn2)|exact I|]. eapply mv_trep; [exact M1|exact I|exact Ht]. }
  destruct (trep_inv _ _ _ _ _ Ht2) as [rct Hrt]. eapply wp_load_table; [apply (at_wipe _ _ _ _ Hrt)|].
  apply wp_bind. eapply wp_lift; [exact Ez|].
  assert (Hdr2 : cell_at h2 dr (mkCell 1 (VTable v []) [])).
  { unfold cell_at. rewrite F2 by exact Hne. eapply mv_local; [exact M1|now left|exact Hdr]. }
  eapply wp_put_table; [exact S2|now left|exact Hdr2|]. intros h3 (S3 & Hc3 & F3 & M3).
  apply K; [exact S3| |exact Hc3|].
  - unfold cell_at. rewrite F3 by auto. exact Hc2.
  - eapply mv_trans; [eapply mv_weak; [exact M1|intros x Hx; right; now right]|].
    eapply mv_trans; [apply M2; exact Hn2|apply M3; exact Hn3].
Qed.

(** ** update_visitor *)
Lemma prel_inner L h hp p a o ns : prel L h hp p -> haddr hp = Ok a -> pnode p = Ok (Inner o ns) ->
  exists rc r cs, cell_at (wipe L h) a (icell rc r cs) /\ orep L h r (lv1 ns) o /\ Forall2 (nrep L h) cs ns.
Proof. intros H Ea Ep. apply nrep_inner_inv. eapply prel_nrep; eauto. Qed.
Lemma prel_cases l L h hp p n a : prel L h hp p -> haddr hp = Ok a -> pos_ok (S l) p n ->
  exists rc r cs o ns, n = Inner o ns /\ cell_at (wipe L h) a (icell rc r cs) /\ orep L h r (lv1 ns) o /\
    Forall2 (nrep L h) cs ns /\ lenN cs = lenN ns /\
    ((exists rr sz, r = Some rr /\ o = Some sz /\ hp = HRel a rr /\ p = PRel n sz) \/
     (r = None /\ o = None /\ (forall A (x : nat -> A) y, match hp with HRel _ r => x r | _ => y end = y) /\
      (forall A (x : list N -> A) y, match p with PRel _ sz => x sz | _ => y end = y) /\ is_rel n = false)).
Proof.
  intros Hp Ea Hok. pose proof (pos_ok_wf _ _ _ _ _ Hok) as Hw. pose proof (pos_ok_node _ _ _ _ _ Hok) as Hn.
  destruct (wf_inner _ _ _ _ Hw) as (o & ns & ->).
  destruct (prel_inner _ _ _ _ _ _ _ Hp Ea Hn) as (rc & r & cs & Hc & Ho & Hk).
  exists rc, r, cs, o, ns. split; [reflexivity|]. split; [exact Hc|]. split; [exact Ho|]. split; [exact Hk|].
  split; [eapply F2_len; exact Hk|].
  destruct Hp as [b m Hb|b m s Hb|b m s Hb|b r' rc' cs' sz ns' Hb1 Hb2 Hb3]; injection Ea as ->; inversion Hn; subst.
  1-3: right; inversion Hok; subst;
    (assert (is_rel (Inner o ns) = false) as Hr by (auto; eapply full_not_rel; eauto));
    destruct o; [discriminate|]; destruct r; [easy|]; auto.
  left. pose proof (cell_fun _ _ _ _ Hb1 Hc) as E. destruct r as [r|]; [|discriminate].
  injection E as _ -> _. exists r, sz. auto.
Qed.
Lemma update_lvl v : forall p n n' idx fn, pos_ok v p n -> update_node B BL v p idx fn = Ok n' -> lvl n' = lvl n.
Proof.
  induction v as [|l IH]; intros p n n' idx fn Hok Hu; cbn [update_node] in *.
  - apply rbind_ok in Hu. destruct Hu as (off & Hoff & Hu). apply rbind_ok in Hu. destruct Hu as (k & Hk & Hu).
    apply rbind_ok in Hu. destruct Hu as (nd & Hnd & Hu). apply rbind_ok in Hu. destruct Hu as (xs & Hxs & Hu).
    apply rbind_ok in Hu. destruct Hu as (ys & Hys & Hu). apply rbind_ok in Hu. destruct Hu as (x & Hx & Hu).
    injection Hu as <-. destruct (wf_leaf _ _ _ (pos_ok_wf _ _ _ _ _ Hok)) as (zs & -> & _). reflexivity.
  - apply rbind_ok in Hu. destruct Hu as (off & Hoff & Hu). apply rbind_ok in Hu. destruct Hu as (k & Hk & Hu).
    apply rbind_ok in Hu. destruct Hu as (ns0 & Hns0 & Hu). apply rbind_ok in Hu. destruct Hu as ([q idx'] & Htw & Hu).
    apply rbind_ok in Hu. destruct Hu as (cn & Hcn & Hu). apply rbind_ok in Hu. destruct Hu as (ns' & Hns' & Hu).
    injection Hu as <-.
    pose proof (count_ok _ _ _ _ _ Hok) as Hk'. rewrite Hk in Hk'. injection Hk' as ->.
    destruct (wf_inner _ _ _ _ (pos_ok_wf _ _ _ _ _ Hok)) as (o & ns & ->).
    unfold pinner in Hns0. rewrite (pos_ok_node _ _ _ _ _ Hok) in Hns0. cbn in Hns0. injection Hns0 as <-.
    cbn [ncount] in *. apply rtakeN_inv in Hns'. destruct Hns' as [_ ->]. rewrite takeN_all by lia.
    assert (El : lenN (repeat O (length ns)) = lenN (kids (Inner o ns))).
    { cbn [kids]. unfold lenN. now rewrite repeat_length. }
    destruct (htowards_ok _ _ _ _ _ _ _ _ _ _ Hok El Htw) as (kd & Hkd & ca & c & cb & na & x & nb & _ & En & Eca & Ena & Eaddr & Ekp & Hqok).
    cbn [kids] in En. subst ns. rewrite updN_app by exact Ena. apply (lv1_mid na cn x nb nb). eapply IH; eauto.
Qed.
Lemma hupdate_ok v : forall hp p n n' a idx fn L h R,
  haddr hp = Ok a -> st L h R -> prel L h hp p -> pos_ok v p n -> update_node B BL v p idx fn = Ok n' ->
  xwp t (hupdate B BL v hp idx fn) h
    (fun b h' => st L h' (b :: R) /\ mv None L L L h h' /\ nrep L h' b n') (back L h R).
Proof.
  induction v as [|l IH]; intros hp p n n' a idx fn L h R Ea S Hp Hok Hu; cbn [VecHeap.hupdate update_node] in *.
  - apply rbind_ok in Hu. destruct Hu as (off & Hoff & Hu). apply rbind_ok in Hu. destruct Hu as (k & Hk & Hu).
    apply rbind_ok in Hu. destruct Hu as (nd & Hnd & Hu). apply rbind_ok in Hu. destruct Hu as (xs & Hxs & Hu).
    apply rbind_ok in Hu. destruct Hu as (ys & Hys & Hu). apply rbind_ok in Hu. destruct Hu as (x & Hx & Hu).
    injection Hu as <-. destruct nd as [xs'|]; [|discriminate]. injection Hxs as ->.
    pose proof (prel_nrep _ _ _ _ _ _ Hp Ea Hnd) as Hn.
    apply xwp_bind. apply xwp_m. eapply wp_lift; [exact Ea|]. apply xwp_bind. apply xwp_m. eapply wp_view; [exact Hp|].
    apply xwp_bind. apply xwp_m. eapply wp_lift; [rewrite index_blank; exact Hoff|].
    apply xwp_bind. apply xwp_m. eapply wp_lift; [rewrite count_blank; exact Hk|].
    apply xwp_bind. eapply xwp_copy_leaf; [exact S|exact Hn|exact Hys| |].
    + intros q h1 S1 Hn1 Hc1 M1. apply xwp_bind. apply xwp_try. apply xwp_bind. apply xwp_throw.
      * apply xwp_m. apply wp_bind. eapply wp_load_leaf; [exact Hc1|]. apply wp_bind. eapply wp_lift; [exact Hx|].
        eapply wp_put_leaf; [exact S1|now left|exact Hc1|]. intros h2 (S2 & Hc2 & F2 & M2). apply xwp_ret.
        destruct (pub_leaf _ _ _ _ _ S2 Hc2) as (S3 & M3 & Hn3). split; [exact S3|]. split; [|exact Hn3].
        eapply mv_trans; [exact M1|]. eapply mv_trans; [apply M2; exact Hn1|exact M3].
      * intros _. apply rtakeN_inv in Hys. destruct Hys as [Hle ->].
        eapply wp_delete_leaf; [exact S1|exact Hc1|rewrite lenN_takeN; lia|]. intros h2 S2 M2.
        split; [exact S2|]. apply mv_all. eapply mv_trans; eauto.
    + intros h1 _ S1 M1. split; [exact S1|now apply mv_all].
  - apply rbind_ok in Hu. destruct Hu as (off & Hoff & Hu). apply rbind_ok in Hu. destruct Hu as (k & Hk & Hu).
    apply rbind_ok in Hu. destruct Hu as (ns0 & Hns0 & Hu). apply rbind_ok in Hu. destruct Hu as ([q idx'] & Htw & Hu).
    apply rbind_ok in Hu. destruct Hu as (cn & Hcn & Hu). apply rbind_ok in Hu. destruct Hu as (ns' & Hns' & Hu).
    injection Hu as <-.
    pose proof (count_ok _ _ _ _ _ Hok) as Hk'. rewrite Hk in Hk'. injection Hk' as ->.
    destruct (prel_cases _ _ _ _ _ _ _ Hp Ea Hok) as (rc & r & cs & o & ns & -> & Hc & Ho & Hcs & El & Hcase).
    unfold pinner in Hns0. rewrite (pos_ok_node _ _ _ _ _ Hok) in Hns0. cbn in Hns0. injection Hns0 as <-.
    cbn [ncount] in *.
    assert (ns' = ns) as ->.
    { apply rtakeN_inv in Hns'. destruct Hns' as [_ ->]. apply takeN_all. lia. } clear Hns'.
    destruct (htowards_ok _ _ _ _ _ cs _ _ _ _ Hok El Htw) as (kd & Hkd & ca & c & cb & na & x & nb & -> & En & Eca & Ena & Eaddr & Ekp & Hqok).
    cbn [kids] in En. subst ns.
    apply xwp_bind. apply xwp_m. eapply wp_lift; [exact Ea|]. apply xwp_bind. apply xwp_m. eapply wp_view; [exact Hp|].
    apply xwp_bind. apply xwp_m. eapply wp_lift; [rewrite index_blank; exact Hoff|].
    apply xwp_bind. apply xwp_m. eapply wp_lift; [rewrite count_blank; exact Hk|].
    apply Forall2_app_inv_l in Hcs as HH. destruct HH as (na' & nb' & Hca & Hcb & E').
    apply F2_len in Hca as Hlen. assert (na' = na /\ nb' = x :: nb) as [-> ->].
    { assert (length na' = length na) as Hl by (unfold lenN in *; lia).
      clear - E' Hl. revert na' Hl E'. induction na as [|y na IH]; intros [|y' na'] Hl E; cbn in *; try discriminate; [auto|].
      injection E as -> E. injection Hl as Hl. destruct (IH _ Hl E) as [-> ->]. auto. }
    inversion Hcb as [|? ? ? ? Hcx Hcb']; subst.
    assert (Elen : lenN (na ++ x :: nb) = lenN (ca ++ kaddr kd :: cb)) by (symmetry; exact El).
    (* the common part: a new node whose table, if any, is [r'], one reference to it owned *)
    assert (G : forall b h1, st (b :: L) h1 (match r with Some r => r :: R | None => R end) -> ~ In b L ->
        cell_at h1 b (icell 1 r []) -> mv None L L (b :: L) h h1 ->
        xwp t (_ <- xtry (' (kd, idx') <- xm (' (_, cs) <~ load_inner a ;; mlift (htowards B BL l (blank p) cs idx (lenN ca))) ;;;
                   q <- xm (open B BL l kd) ;;;
                   c <- hupdate B BL l q idx' fn ;;;
                   xm (do_copy_inner_replace b a (lenN (na ++ x :: nb)) (lenN ca) c))
                  match r with Some _ => delete_inner_r b | _ => delete_inner b end ;;;
               xret b) h1 (fun b h' => st L h' (b :: R) /\ mv None L L L h h' /\
                 nrep L h' b (Inner o (updN (lenN ca) cn (na ++ x :: nb)))) (back L h R)).
    { intros b h1 S1 Hb1 Hc1 M1. apply xwp_bind. apply xwp_try.
      destruct (mv_cell _ _ _ _ _ _ _ _ M1 I Hc) as ([rc1 b1 ks1] & Ha1 & Eb1 & Ek1). cbn in Eb1, Ek1. subst b1 ks1.
      change (cell_at (wipe (b :: L) h1) a (icell rc1 r (ca ++ kaddr kd :: cb))) in Ha1.
      apply xwp_bind. apply xwp_m. apply wp_bind. eapply wp_load_inner; [apply (at_wipe _ _ _ _ Ha1)|].
      eapply wp_lift; [exact Hkd|].
      assert (Hx1 : nrep (b :: L) h1 (kaddr kd) x) by (eapply mv_nrep; [exact M1|exact I|exact Hcx]).
      apply xwp_bind. apply xwp_m. eapply wp_open; [exact Hx1|exact Ekp|]. intros hq Eq Hq.
      apply xwp_bind. eapply xwp_mono; [eapply IH; [exact Eq|exact S1|exact Hq|exact Hqok|exact Hcn]| |].
      - intros c h2 (S2 & M2 & Hn2). apply xwp_m.
        assert (Hcs2 : Forall2 (nrep (b :: L) h2) (ca ++ kaddr kd :: cb) (na ++ x :: nb)).
        { eapply mv_nreps; [exact M2|intros; exact I|]. eapply mv_nreps; [exact M1|intros; exact I|exact Hcs]. }
        destruct (mv_cell _ _ _ _ _ _ _ _ M2 I Ha1) as ([rc2 b2 ks2] & Ha2 & Eb2 & Ek2). cbn in Eb2, Ek2. subst b2 ks2.
        change (cell_at (wipe (b :: L) h2) a (icell rc2 r (ca ++ kaddr kd :: cb))) in Ha2.
        rewrite Elen. eapply wp_do_copy_inner_replace; [exact S2|now left| |exact Ha2|eapply nreps_live; exact Hcs2|reflexivity|].
        { eapply mv_local; [exact M2|now left|exact Hc1]. }
        intros h3 S3 Hc3 M3. apply xwp_ret.
        assert (Mb : mv None L (b :: L) (b :: L) h2 h3) by (apply M3; [exact Hb1|intros y Hy; now right]).
        destruct (pub_inner L h3 R b r (ca ++ c :: cb) o (na ++ cn :: nb)) as (S4 & M4 & Hn4 & _).
        + eapply st_eqv; [|exact S3]. intros y. destruct r; cbn [ptrs]; cbn; rewrite !occ_app; cbn; rewrite ?occ_app; cbn; lia.
        + exact Hc3.
        + rewrite (lv1_mid na cn x nb nb) by (eapply update_lvl; [exact Hqok|exact Hcn]).
          destruct r, o; cbn [orep] in *; try easy. eapply mv_trep; [exact Mb|exact I|]. eapply mv_trep; [exact M2|exact I|].
          eapply mv_trep; [exact M1|exact I|exact Ho].
        + eapply mv_nreps; [exact Mb|intros; exact I|]. apply Forall2_app_inv_l in Hcs2.
          apply Forall2_app.
          * eapply mv_nreps; [exact M2|intros; exact I|]. eapply mv_nreps; [exact M1|intros; exact I|exact Hca].
          * constructor; [exact Hn2|].
            eapply mv_nreps; [exact M2|intros; exact I|]. eapply mv_nreps; [exact M1|intros; exact I|exact Hcb'].
        + split; [exact S4|]. split.
          * eapply mv_trans; [exact M1|]. eapply mv_trans; [eapply mv_tail; exact M2|]. eapply mv_trans; [exact Mb|exact M4].
          * rewrite updN_app by exact Ena. exact Hn4.
      - intros h2 (S2 & M2).
        destruct r as [r|], o as [sz|]; try easy.
        + eapply wp_delete_inner_r; [exact S2|eapply mv_local; [exact M2|now left|exact Hc1]| |].
          * eapply mv_trep; [exact M2|now left|]. eapply mv_trep; [exact M1|exact I|exact Ho].
          * intros h3 S3 M3 _. split; [exact S3|]. eapply mv_trans; [apply mv_all; exact M1|].
            eapply mv_trans; [|exact M3]. eapply mv_tail. eapply mv_sub; [exact M2|]. intros y Hy. now right.
        + eapply wp_delete_inner; [exact S2|eapply mv_local; [exact M2|now left|exact Hc1]|].
          intros h3 S3 M3 _. split; [exact S3|]. eapply mv_trans; [apply mv_all; exact M1|].
          eapply mv_trans; [eapply mv_tail; exact M2|apply mv_all; exact M3]. }
    destruct Hcase as [(rr & sz & -> & -> & -> & ->)|(-> & -> & Hh & Hpp & _)].
    + apply xwp_bind. eapply xwp_make_inner_sr_n with (sz := sz); [exact S|exact Ho| | |].
      * cbn [count] in Hk. injection Hk as Hk. lia.
      * intros b h1 S1 Hb Hc1 M1. apply G; assumption.
      * intros _. split; [exact S|apply mv_refl].
    + rewrite Hpp, !Hh. apply xwp_bind. eapply xwp_make_inner; [exact S| |intros _; split; [exact S|apply mv_refl]].
      intros b h1 S1 Hb Hc1 M1. rewrite Hh. apply G; assumption.
Qed.
End Make.
