(** Concatenation of handles refines the concatenation of the sequences they stand for. *)
From Coq Require Import List NArith Arith Bool Lia ZifyN ZifyNat ZifyBool.
From Verif Require Import Common NList Rrb RrbInv RrbPos RrbOps RrbSlice RrbTree RrbViewOk RrbConcat AtomProofs
  RcHeap RcProofs RcExn RcExnProofs RcMove VecHeap VecPlan VecNodes VecMake VecGetMut VecPush VecSliceR
  VecSliceL VecTree VecTreeProofs VecConcat VecCenter VecMerge VecConcatProofs VecConcatTree.
Import ListNotations.
Local Open Scope N_scope.
Set Default Goal Selector "!".

Section Proofs.
Context {T : Type}.
Variables B BL : N.
Variable gone : T -> T.
Variable t : bool.
Hypothesis HB : 2 <= B.
Notation body := (vbody T).
Notation heap := (heap body). Notation cell := (cell body).
Notation pos_ok := (@pos_ok T B BL).
Notation wf := (@wf T B BL).
Notation full := (@full T B BL).
Notation lwidth := (lwidth BL).
Notation root_ok := (@root_ok T B BL).
Notation vrel := (@vrel T B BL true).
Notation vec := (@vec T B BL true).
Notation made := (@made T B BL true).
Implicit Types (h : heap) (L R : list nat) (x y : htree).

Lemma HB1 : 1 <= B. Proof. lia. Qed.

(** A block with one reference still has one after an operation that put everything back. *)
Lemma back_sole L h R a c h' : st L h (a :: R) -> cell_at (wipe L h) a c -> c_rc c = 1%nat -> back L h (a :: R) h' ->
  cell_at (wipe L h') a c.
Proof.
  intros (G & _) Hc E ((G' & _) & (_ & M & _)).
  destruct (M a c) as (c' & Hc' & Eb & Ek); [apply rch_root; now left|exact Hc|].
  destruct (sole _ _ _ _ G Hc E) as [Ni Nk].
  assert (Rc : forall y : nat, rch L h' (a :: R) y -> rch L h (a :: R) y).
  { intros y (r & Hr & Hy). exists r. split; [exact Hr|]. induction Hy as [|y d b Hy IH Hd Hb]; [constructor|].
    assert (exists d0, cell_at (wipe L h) y d0) as [d0 Hd0].
    { destruct IH as [|z e y Hz He Hin].
      - eapply good_root; [exact G|exact Hr].
      - eapply good_live; [exact G|]. eapply refs_kid; [exact He|exact Hin]. }
    destruct (M y d0) as (d1 & Hd1 & _ & Ek1); [exists r; auto|exact Hd0|].
    unfold cell_at in Hd, Hd1. rewrite Hd in Hd1. injection Hd1 as <-. eapply reaches_kid; [exact IH|exact Hd0|]. now rewrite <- Ek1. }
  assert (c_rc c' = 1%nat) as E'.
  { pose proof (proj1 G' a) as H. unfold cell_at in Hc'. rewrite Hc' in H. destruct H as [H _]. rewrite H.
    unfold refs. cbn [occ]. rewrite Nat.eqb_refl.
    assert (occ a R = 0%nat) as ->. { destruct (occ a R) eqn:Eo; [reflexivity|]. exfalso. apply Ni. apply occ_in. lia. }
    destruct (total (okids a) (wipe L h')) eqn:Et; [reflexivity|]. exfalso.
    destruct (total_pos (okids a) (wipe L h') ltac:(lia)) as (y & o & Ho & Hp). destruct o as [d|]; cbn in Hp; [|lia].
    apply occ_in in Hp. destruct (good_reach _ _ G' _ _ Ho) as (r & Hr & Hy).
    assert (rch L h (a :: R) y) as Hy0 by (apply Rc; exists r; auto).
    assert (exists d0, cell_at (wipe L h) y d0) as [d0 Hd0].
    { destruct Hy0 as (r0 & Hr0 & [|z e y' Hz He Hin]).
      - eapply good_root; [exact G|exact Hr0].
      - eapply good_live; [exact G|]. eapply refs_kid; [exact He|exact Hin]. }
    destruct (M y d0) as (d1 & Hd1 & _ & Ek1); [exact Hy0|exact Hd0|]. unfold cell_at in Hd1. rewrite Ho in Hd1. injection Hd1 as <-.
    apply (Nk _ _ Hd0). now rewrite <- Ek1. }
  destruct c as [rc b ks], c' as [rc' b' ks']. cbn in *. subst. exact Hc'.
Qed.

(** ** The persistent concatenation *)
Definition bounded (y : htree) : Prop := sh B BL (ht_lv y) < 32 /\ ht_size y <= 2 ^ 32.

Lemma hjoin_ok L h R x y lx ly ry ys : st L h R -> vec L h x lx -> vrel L h y ry ys -> ly = elems ry ++ ys ->
  0 < ht_size x -> 0 < nsize ry -> incl (hptr x) R -> incl (hptr y) R -> bounded y ->
  xwp t (hjoin B BL x y (nsize ry)) h (made (Some R) L h R (lx ++ ly)) (back L h R).
Proof.
  intros S0 (rx & xs & Hx & El) Hy El2 Px Py Ix Iy [Hsh H32]. unfold hjoin.
  pose proof Hx as (E1 & E2 & E3 & E4 & _ & N1 & N2). pose proof Hy as (F1 & F2 & F3 & F4 & _ & P1 & P2).
  assert (Hwy : wf (S (ht_lv y)) ry) by (eapply root_pos; [exact HB1|exact F4|exact Py]).
  assert (Rtx : rch L h R (ht_tail x)) by (apply rch_root, Ix; cbn; auto).
  assert (Rry : rch L h R (ht_root y)) by (apply rch_root, Iy; cbn; auto).
  apply xwp_bind. apply xwp_m. eapply wp_tail_offset; [exact HB1|exact Hx|]. cbv zeta.
  replace (ht_size x - nsize rx) with (lenN xs) by lia.
  assert (W : forall v a h1, (exists l n, v = S l /\ wf (S l) n /\ elems n = elems rx ++ xs ++ elems ry /\
      nrep L h1 a n /\ st L h1 (a :: R) /\ mv (Some R) L L L h h1) ->
    xwp t (match v with S l => _ <- xm (inc (ht_tail y)) ;;; xret (mkHT (ht_size x + ht_size y) l a (ht_tail y)) | O => xm mub end) h1
      (made (Some R) L h R (lx ++ ly)) (back L h R)).
  { intros v a h1 (l & n & -> & Hw & He & Nn & S1 & M1). apply xwp_bind. apply xwp_m.
    eapply wv_inc; [exact S1| |].
    - eapply mv_live; [exact M1|cbn; apply Iy; cbn; auto|eapply srep_live; exact P2].
    - intros h2 S2 M2. apply xwp_ret. split; [|split].
      + cbn [hptr ht_root ht_tail app]. eapply st_eqv; [|exact S2]. intros z. cbn [occ]. lia.
      + eapply mv_trans; [exact M1|apply mv_all; exact M2].
      + eapply vec_intro with (r := n) (xs := ys); [right; exact Hw|intros [=]| | | |exact F2| |].
        * eapply mv_nrep; [exact M2|exact I|exact Nn].
        * eapply mv_nrep; [exact M2|exact I|]. eapply mv_nrep; [exact M1|apply Iy; cbn; auto|exact P2].
        * unfold nsize at 1. rewrite He, !lenN_app. fold (nsize rx). fold (nsize ry). lia.
        * lia.
        * subst. rewrite He, <- !app_assoc. reflexivity. }
  destruct (N.eqb_spec (nsize rx) 0) as [Z|Z].
  - assert (elems rx = []) as Ee by (apply lenN_0; exact Z). rewrite Ee in *. cbn [app] in *.
    assert (Hlp : lp_ok B BL 1 (PSingle (Leaf xs) (lenN xs)) xs).
    { left. split; [reflexivity|]. split; [reflexivity|]. lia. }
    assert (Htp : tp_ok BL (T := T) PNone []) by now left.
    apply xwp_bind. eapply xwp_mono.
    + eapply (hconcat_trees_ok B BL t) with (lp := PSingle (Leaf xs) (lenN xs)) (l := O) (tp := PNone); [exact Hlp|exact Htp|exact Hwy|exact Hsh|lia| | |exact P1|exact Rry|exact S0].
      * constructor; assumption.
      * constructor.
    + intros [v a] h1 (n & Ec & Nn & S1 & M1).
      destruct (concat_trees_ok B BL HB _ O _ _ _ _ _ Hlp Htp Hwy Hsh ltac:(lia)) as (l & n' & Ec' & Hw & He & _).
      rewrite Ec in Ec'. injection Ec' as -> <-. apply (W (S l)). exists l, n. cbn [app] in He. auto 10.
    + auto.
  - apply xwp_bind. apply xwp_bind. apply xwp_m.
    assert (Hwx : wf (S (ht_lv x)) rx) by (eapply root_pos; [exact HB1|exact E4|lia]).
    destruct (maybe_relaxed_ok B BL _ _ Hwx) as (p & Ep & Hok & Hs). eapply wp_hmaybe; [exact N1|exact Ep|].
    intros q Eq Hq. apply xwp_bind. apply xwp_m.
    eapply wp_lift; [unfold mk_reg; destruct (N.eqb_spec (lenN xs) 0); [lia|reflexivity]|].
    assert (Hlp : lp_ok B BL (S (ht_lv x)) p (elems rx)).
    { right. exists rx. split; [exact Hok|]. split; [exact Hs|]. split; [|reflexivity]. eapply (child_not_full B BL (S (ht_lv x)) rx (nsize rx)). exact Ep. }
    assert (Htp : tp_ok BL (T := T) (PReg (Leaf xs) (lenN xs)) xs) by (right; split; [reflexivity|lia]).
    eapply xwp_mono.
    + eapply (hconcat_trees_ok B BL t) with (lp := p) (tp := PReg (Leaf xs) (lenN xs)); [exact Hlp|exact Htp|exact Hwy|exact Hsh|lia| | |exact P1|exact Rry|exact S0].
      * econstructor 3; [exact Hq|exact Eq|]. apply rch_root, Ix. cbn; auto.
      * econstructor 3; [constructor; exact N2|reflexivity|exact Rtx].
    + intros [v a] h1 (n & Ec & Nn & S1 & M1).
      destruct (concat_trees_ok B BL HB _ _ _ _ _ _ _ Hlp Htp Hwy Hsh ltac:(lia)) as (l & n' & Ec' & Hw & He & _).
      rewrite Ec in Ec'. injection Ec' as -> <-. apply (W (S l)). exists l, n. auto 10.
    + auto.
Qed.

(** Giving up a leaf that was made and not used. *)
Lemma wp_give_up L h0 h R a xs n h' : st L h (a :: R) -> mv None L L L h0 h -> cell_at (wipe L h) a (mkCell 1 (VLeaf xs) []) ->
  lenN xs = n -> back L h (a :: R) h' -> wp (delete_leaf (T := T) a n) h' (fun _ h'' => back L h0 R h'').
Proof.
  intros S0 M0 Hc E Bk. pose proof (back_sole _ _ _ _ _ _ S0 Hc eq_refl Bk) as Hc'. destruct Bk as [S1 M1].
  destruct (sv_take _ _ _ _ _ S1 Hc' eq_refl) as (S2 & Ha & Hc2 & M2). cbn [c_kids app] in S2, M2.
  eapply wp_delete_leaf; [exact S2|exact Hc2|exact E|]. intros h2 S3 M3. split; [exact S3|].
  eapply mv_trans; [apply mv_all; exact M0|]. eapply mv_trans; [eapply mv_sub; [exact M1|intros z Hz; now right]|].
  eapply mv_trans; [exact M2|apply mv_all; exact M3].
Qed.

Lemma hjoin_tail_ok kp L h R x y rx xs ry ys : st L h R -> vrel L h x rx xs -> vrel L h y ry ys ->
  0 < ht_size x -> 0 < ht_size y -> nsize ry = 0 -> incl (hptr x) R -> incl (hptr y) R -> (kp = true \/ lenN xs <> lwidth) ->
  xwp t (hjoin_tail B BL kp x y) h (made None L h R ((elems rx ++ xs) ++ elems ry ++ ys)) (back L h R).
Proof.
  intros S0 Hx Hy Px Py Zy Ix Iy Hk. unfold hjoin_tail.
  pose proof Hx as (E1 & E2 & E3 & E4 & E5 & N1 & N2). pose proof Hy as (F1 & F2 & F3 & F4 & _ & P1 & P2).
  assert (elems ry = []) as -> by (apply lenN_0; exact Zy). cbn [app].
  assert (Ey : ht_size y = lenN ys) by lia. rewrite Ey in *.
  apply xwp_bind. apply xwp_m. eapply wp_tail_offset; [exact HB1|exact Hx|]. cbv zeta.
  replace (ht_size x - nsize rx) with (lenN xs) by lia.
  destruct (N.eqb_spec (lenN xs) lwidth) as [Ex|Ex].
  - assert (kp = true) as -> by tauto. rewrite Ex.
    destruct (in_take (ht_tail x) R) as (R0 & HR & HR0); [apply Ix; cbn; auto|].
    apply xwp_bind. eapply xwp_mono.
    + eapply (hpush_tail_ok B BL true t HB1) with (m := false) (r := rx) (tn := Leaf xs) (R := R0) (L := L).
      * cbn [own app]. eapply st_eqv; [|exact S0]. exact HR.
      * exact E4.
      * exact E5.
      * exact N1.
      * exact N2.
      * cbn. exact Ex.
      * discriminate.
    + intros [l' b] h1 (r' & Hw & Hsh & He & S1 & M1 & Hn1). cbn [fst snd keep] in *.
      apply xwp_bind. apply xwp_m. eapply wv_inc; [exact S1| |].
      { eapply mv_live; [exact M1|exact I|]. eapply srep_live; exact N2. }
      intros h2 S2 M2. apply xwp_bind. apply xwp_m. eapply wv_inc; [exact S2| |].
      { eapply mv_live; [exact M2|exact I|]. eapply mv_live; [exact M1|exact I|]. eapply srep_live; exact P2. }
      intros h3 S3 M3. apply xwp_ret. pose proof (mv_trans _ _ _ _ _ _ _ _ M2 M3) as M23. split; [|split].
      * cbn [hptr ht_root ht_tail app]. eapply st_eqv; [|exact S3]. intros z. specialize (HR z). cbn [occ] in *. lia.
      * eapply mv_trans; [exact M1|exact M23].
      * eapply vec_intro with (xs := ys); [right; exact Hw|exact Hsh| | | |exact F2| |].
        -- eapply mv_nrep; [exact M23|exact I|exact Hn1].
        -- eapply mv_nrep; [exact M23|exact I|]. eapply mv_nrep; [exact M1|exact I|exact P2].
        -- unfold nsize. rewrite He, lenN_app. cbn [elems]. unfold nsize in E1. lia.
        -- lia.
        -- rewrite He. reflexivity.
    + intros h1 Bk. cbn [own app] in Bk. eapply back_eqv; [exact HR|exact Bk].
  - destruct (N.leb_spec (lenN xs + lenN ys) lwidth) as [Hfit|Hfit].
    + apply xwp_bind. eapply xwp_copy_leaf2; [exact S0|exact N2|apply rtakeN_all; reflexivity|exact P2|apply rtakeN_all; reflexivity| |].
      * intros p h1 S1 Hp Hc1 M1. destruct (pub_leaf _ _ _ _ _ S1 Hc1) as (S2 & M2 & Hn2).
        pose proof (mv_trans _ _ _ _ _ _ _ _ M1 M2) as M12.
        apply xwp_bind. apply xwp_m. eapply wv_inc; [exact S2| |].
        { eapply mv_live; [exact M12|exact I|]. eapply srep_live; exact N1. }
        intros h3 S3 M3. apply xwp_ret. pose proof (mv_trans _ _ _ _ _ _ _ _ M12 M3) as M.
        split; [exact S3|]. split; [exact M|].
        eapply vec_intro; [exact E4|exact E5| | | | | |].
        -- eapply mv_nrep; [exact M|exact I|exact N1].
        -- eapply mv_nrep; [exact M3|exact I|exact Hn2].
        -- rewrite lenN_app. lia.
        -- rewrite lenN_app. lia.
        -- rewrite lenN_app. lia.
        -- now rewrite app_assoc.
      * intros h1 _ S1 M1. split; [exact S1|now apply mv_all].
    + set (rem := lwidth - lenN xs).
      assert (Hrem : lenN (takeN rem ys) = rem) by (rewrite lenN_takeN; unfold rem; lia).
      assert (Hsplit : takeN rem ys ++ dropN rem ys = ys) by apply takeN_dropN.
      assert (Hsl : rsliceN rem (lenN ys) ys = Ok (dropN rem ys)).
      { rewrite <- Hsplit at 2. apply rsliceN_app_r; [exact Hrem|]. rewrite lenN_dropN. unfold rem. lia. }
      assert (Hld : lenN (dropN rem ys) = lenN ys - rem) by (rewrite lenN_dropN; reflexivity).
      assert (Hfull : lenN (xs ++ takeN rem ys) = lwidth) by (rewrite lenN_app, Hrem; unfold rem; lia).
      apply xwp_bind. eapply xwp_copy_leaf2; [exact S0|exact N2|apply rtakeN_all; reflexivity|exact P2|apply rtakeN_ok; unfold rem; lia| |].
      * intros p h1 S1 Hp Hc1 M1. destruct (sv_put L h1 R p (mkCell 1 (VLeaf (xs ++ takeN rem ys)) []) S1 Hc1 eq_refl) as (S2 & M2 & Hc2).
        cbn [c_kids app] in *. assert (Hn2 : nrep L h1 p (Leaf (xs ++ takeN rem ys))) by (eapply nrep_leaf; exact Hc2).
        pose proof (mv_trans _ _ _ _ _ _ _ _ M1 M2) as M12.
        apply xwp_try. eapply xwp_mono with (E := back L h1 (p :: R)); [|intros z h' Hz; exact Hz|].
        -- apply xwp_bind. eapply xwp_copy_range; [exact S2|eapply mv_nrep; [exact M12|exact I|exact P2]|exact Hsl| |].
           ++ intros nt h2 S3 Hnt Hc3 M3. apply xwp_try. apply xwp_bind. eapply xwp_mono.
              ** eapply (hpush_tail_ok B BL true t HB1) with (m := false) (r := rx) (tn := Leaf (xs ++ takeN rem ys)) (R := R) (L := nt :: L).
                 --- exact S3.
                 --- exact E4.
                 --- exact E5.
                 --- eapply mv_nrep; [exact M3|exact I|]. eapply mv_nrep; [exact M12|exact I|exact N1].
                 --- eapply mv_nrep; [exact M3|exact I|exact Hn2].
                 --- exact Hfull.
                 --- discriminate.
              ** intros [l' b] h3 (r' & Hw & Hsh & He & S4 & M4 & Hn4). cbn [fst snd keep] in *. apply xwp_ret.
                 assert (Hc4 : cell_at h3 nt (mkCell 1 (VLeaf (dropN rem ys)) [])) by (eapply mv_local; [exact M4|now left|exact Hc3]).
                 destruct (pub_leaf _ _ _ _ _ S4 Hc4) as (S5 & M5 & Hn5). split; [|split].
                 --- cbn [hptr ht_root ht_tail app]. eapply st_eqv; [|exact S5]. intros z. cbn [occ] in *. lia.
                 --- eapply mv_trans; [exact M12|]. eapply mv_trans; [exact M3|]. eapply mv_trans; [eapply mv_tail; exact M4|exact M5].
                 --- eapply vec_intro; [right; exact Hw|exact Hsh| |exact Hn5| | | |].
                     +++ eapply mv_nrep; [exact M5|exact I|exact Hn4].
                     +++ unfold nsize. rewrite He, lenN_app. cbn [elems]. rewrite Hfull, Hld. unfold nsize in E1. unfold rem. lia.
                     +++ rewrite Hld. lia.
                     +++ rewrite Hld. unfold rem. lia.
                     +++ rewrite He. cbn [elems]. rewrite <- !app_assoc. now rewrite Hsplit.
              ** intros h3 (S4 & M4). cbn [own app] in *.
                 assert (Hc4 : cell_at h3 nt (mkCell 1 (VLeaf (dropN rem ys)) [])) by (eapply mv_local; [exact M4|now left|exact Hc3]).
                 eapply wp_delete_leaf; [exact S4|exact Hc4|exact Hld|]. intros h4 S5 M5. split; [exact S5|].
                 eapply mv_trans; [apply mv_all; exact M3|]. eapply mv_trans; [eapply mv_tail; exact M4|apply mv_all; exact M5].
           ++ intros h2 _ S3 M3. split; [exact S3|now apply mv_all].
        -- intros h' Bk. eapply wp_give_up; [exact S2|exact M12|exact Hc2|exact Hfull|exact Bk].
      * intros h1 _ S1 M1. split; [exact S1|now apply mv_all].
Qed.

Lemma made_all K L h R l y h' : made None L h R l y h' -> made K L h R l y h'.
Proof. intros (A & M & C). split; [exact A|]. split; [now apply mv_all|exact C]. Qed.

(** How many elements the tail leaf has, read from memory. *)
Definition tail_len h x : N :=
  match nth_error h (ht_tail x) with
  | Some (Some (mkCell _ (VLeaf xs) _)) => lenN xs
  | _ => 0
  end.
(** The tail of [x] is not a full leaf, or [y] has more than a tail. *)
Definition not_trap h x y : Prop := tail_len h x <> lwidth \/ tail_len h y <> ht_size y.
Lemma vrel_tail L h x r xs : vrel L h x r xs -> tail_len h x = lenN xs.
Proof.
  intros (_ & _ & _ & _ & _ & _ & N2). destruct (nrep_leaf_inv _ _ _ _ N2) as [rc Hc].
  destruct (wipe_cell _ _ _ _ Hc) as [_ Hc']. unfold tail_len. unfold cell_at in Hc'. now rewrite Hc'.
Qed.

Lemma hconcat_new_ok kp L h R x y lx ly : st L h R -> vec L h x lx -> vec L h y ly ->
  0 < ht_size x -> 0 < ht_size y -> incl (hptr x) R -> incl (hptr y) R -> bounded y -> (kp = true \/ not_trap h x y) ->
  xwp t (hconcat_new B BL kp x y) h (made (Some R) L h R (lx ++ ly)) (back L h R).
Proof.
  intros S0 Vx Vy Px Py Ix Iy Hb Hk. unfold hconcat_new. pose proof Vy as (ry & ys & Hy & El).
  apply xwp_bind. apply xwp_m. eapply wp_tail_offset; [exact HB1|exact Hy|].
  destruct (N.eqb_spec (nsize ry) 0) as [Z|Z].
  - destruct Vx as (rx & xs & Hx & ->). subst ly.
    eapply xwp_mono; [eapply hjoin_tail_ok; [exact S0|exact Hx|exact Hy|exact Px|exact Py|exact Z|exact Ix|exact Iy|]| |auto].
    + destruct Hk as [Hk|Hk]; [now left|right]. unfold not_trap in Hk.
      rewrite (vrel_tail _ _ _ _ _ Hx), (vrel_tail _ _ _ _ _ Hy) in Hk. destruct Hy as (F1 & _). destruct Hk; [assumption|lia].
    + intros z h1 Hm. now apply made_all.
  - eapply hjoin_ok; [exact S0|exact Vx|exact Hy|exact El|exact Px|lia|exact Ix|exact Iy|exact Hb].
Qed.
Lemma vec_zero L h x l : vec L h x l -> ht_size x = 0 -> l = [].
Proof. intros V E. apply lenN_0. rewrite <- E. symmetry. eapply vec_size; exact V. Qed.

Lemma hconcat_ok L h R x y lx ly : st L h R -> vec L h x lx -> vec L h y ly ->
  incl (hptr x) R -> incl (hptr y) R -> bounded y ->
  xwp t (hconcat B BL x y) h (made (Some R) L h R (lx ++ ly)) (back L h R).
Proof.
  intros S0 Vx Vy Ix Iy Hb. unfold hconcat. destruct (N.eqb_spec (ht_size x) 0) as [Zx|Zx].
  - rewrite (vec_zero _ _ _ _ Vx Zx). cbn [app]. apply xwp_m. eapply (wp_hcopy B BL true HB1); [exact S0|exact Vy|].
    intros h1 Hm. now apply made_all.
  - destruct (N.eqb_spec (ht_size y) 0) as [Zy|Zy].
    + rewrite (vec_zero _ _ _ _ Vy Zy), app_nil_r. apply xwp_m. eapply (wp_hcopy B BL true HB1); [exact S0|exact Vx|].
      intros h1 Hm. now apply made_all.
    + apply hconcat_new_ok; auto; lia.
Qed.

(** ** prepend *)
Lemma wp_replace L h R y ly l z h1 : made (Some (hptr y ++ R)) L h (hptr y ++ R) l z h1 -> vec L h y ly ->
  wp (hdestroy B BL true (T := T) y) h1 (fun _ h2 => made (Some R) L h R l z h2).
Proof.
  intros (S1 & M1 & V1) Vy. eapply (wp_hdestroy B BL true HB1) with (R := hptr z ++ R).
  - eapply st_eqv; [|exact S1]. intros w. rewrite ?occ_app. lia.
  - eapply mv_vec; [exact M1| | |exact Vy]; cbn; auto.
  - intros h2 S2 M2. split; [exact S2|]. split.
    + eapply mv_trans; [eapply mv_sub; [exact M1|]|eapply mv_sub; [exact M2|]]; intros w Hw; apply in_or_app; now right.
    + eapply mv_vec; [exact M2| | |exact V1]; cbn; auto.
Qed.
Lemma hprepend_ok kp L h R x y lx ly : st L h (hptr y ++ R) -> vec L h x lx -> vec L h y ly ->
  incl (hptr x) R -> bounded y -> (kp = true \/ ht_size x = 0 \/ ht_size y = 0 \/ not_trap h x y) ->
  xwp t (hprepend B BL kp x y) h (made (Some R) L h R (lx ++ ly)) (back L h (hptr y ++ R)).
Proof.
  intros S0 Vx Vy Ix Hb Hk. unfold hprepend. destruct (N.eqb_spec (ht_size y) 0) as [Zy|Zy].
  - rewrite (vec_zero _ _ _ _ Vy Zy), app_nil_r. apply xwp_bind. apply xwp_m.
    eapply (wp_hcopy B BL true HB1); [exact S0|exact Vx|]. intros h1 Hm. apply xwp_bind. apply xwp_m.
    eapply wp_mono; [eapply wp_replace; [apply made_all; exact Hm|exact Vy]|].
    intros u h2 H2. apply xwp_ret. exact H2.
  - destruct (N.eqb_spec (ht_size x) 0) as [Zx|Zx].
    + rewrite (vec_zero _ _ _ _ Vx Zx). apply xwp_ret. split; [exact S0|]. split; [apply mv_refl|exact Vy].
    + apply xwp_bind. eapply xwp_mono; [eapply hconcat_new_ok with (R := hptr y ++ R) (lx := lx) (ly := ly)| |].
      * exact S0.
      * exact Vx.
      * exact Vy.
      * lia.
      * lia.
      * intros w Hw. apply in_or_app. right. now apply Ix.
      * intros w Hw. apply in_or_app. now left.
      * exact Hb.
      * destruct Hk as [H|[H|[H|H]]]; [now left|lia|lia|now right].
      * intros z h1 Hm. apply xwp_bind. apply xwp_m. eapply wp_mono; [eapply wp_replace; [exact Hm|exact Vy]|].
        intros u h2 H2. apply xwp_ret. exact H2.
      * auto.
Qed.
(** The other case: the result holds the tail of the left operand by the reference of that
    operand. *)
Lemma hprepend_trapped L h R x y lx ly : st L h (hptr y ++ ht_tail x :: R) -> vec L h x lx -> vec L h y ly ->
  0 < ht_size x -> 0 < ht_size y -> tail_len h x = lwidth -> tail_len h y = ht_size y ->
  xwp t (hprepend B BL false x y) h (made (Some R) L h R (lx ++ ly)) (back L h (hptr y ++ ht_tail x :: R)).
Proof.
  intros S0 (rx & xs & Hx & Elx) Vy Px Py Tx Ty. unfold hprepend.
  destruct (N.eqb_spec (ht_size y) 0) as [Zy|_]; [lia|]. destruct (N.eqb_spec (ht_size x) 0) as [Zx|_]; [lia|].
  pose proof Vy as (ry & ys & Hy & Ely). rewrite (vrel_tail _ _ _ _ _ Hx) in Tx. rewrite (vrel_tail _ _ _ _ _ Hy) in Ty.
  pose proof Hx as (E1 & E2 & E3 & E4 & E5 & N1 & N2). pose proof Hy as (F1 & F2 & F3 & F4 & _ & P1 & P2).
  assert (Zy : nsize ry = 0) by lia. assert (elems ry = []) as Ee by (apply lenN_0; exact Zy). rewrite Ee in Ely. cbn [app] in Ely.
  apply xwp_bind. unfold hconcat_new. apply xwp_bind. apply xwp_m. eapply wp_tail_offset; [exact HB1|exact Hy|].
  rewrite Zy. cbn [N.eqb]. unfold hjoin_tail.
  apply xwp_bind. apply xwp_m. eapply wp_tail_offset; [exact HB1|exact Hx|]. cbv zeta.
  replace (ht_size x - nsize rx) with (lenN xs) by lia. rewrite Tx, N.eqb_refl.
  apply xwp_bind. eapply xwp_mono.
  - eapply (hpush_tail_ok B BL true t HB1) with (m := false) (r := rx) (tn := Leaf xs) (R := hptr y ++ R) (L := L).
    + cbn [own app]. eapply st_eqv; [|exact S0]. intros a. rewrite ?occ_app. cbn [hptr occ app]. lia.
    + exact E4.
    + exact E5.
    + exact N1.
    + exact N2.
    + cbn. exact Tx.
    + discriminate.
  - intros [l' b] h1 (r' & Hw & Hsh & He & S1 & M1 & Hn1). cbn [fst snd keep] in *.
    apply xwp_bind. apply xwp_m. apply wp_ret. apply xwp_bind. apply xwp_m. eapply wv_inc; [exact S1| |].
    { eapply mv_live; [exact M1|exact I|]. eapply srep_live; exact P2. }
    intros h2 S2 M2. apply xwp_ret. apply xwp_bind. apply xwp_m.
    assert (Hm : made (Some (hptr y ++ R)) L h (hptr y ++ R) (lx ++ ly) (mkHT (ht_size x + ht_size y) l' b (ht_tail y)) h2).
    { split; [|split].
      - cbn [hptr ht_root ht_tail app]. eapply st_eqv; [|exact S2]. intros z. cbn [hptr occ app]. lia.
      - apply mv_all. eapply mv_trans; [exact M1|exact M2].
      - eapply vec_intro with (xs := ys); [right; exact Hw|exact Hsh| | | |exact F2| |].
        + eapply mv_nrep; [exact M2|exact I|exact Hn1].
        + eapply mv_nrep; [exact M2|exact I|]. eapply mv_nrep; [exact M1|exact I|exact P2].
        + unfold nsize. rewrite He, lenN_app. cbn [elems]. unfold nsize in E1. lia.
        + lia.
        + subst. rewrite He. reflexivity. }
    eapply wp_mono; [eapply wp_replace; [exact Hm|exact Vy]|]. intros u h3 H3. apply xwp_ret. exact H3.
  - intros h1 Bk. cbn [own app] in Bk. eapply back_eqv; [|exact Bk]. intros a. rewrite ?occ_app. cbn [hptr occ app]. lia.
Qed.

(** ** append *)
Lemma xwp_catch {A} (m : X body A) h (Q : option A -> heap -> Prop) (E : heap -> Prop) :
  xwp t m h (fun a h' => Q (Some a) h') (fun h' => Q None h') -> xwp t (xcatch m) h Q E.
Proof.
  intros H f Hf. specialize (H f Hf). unfold xcatch. destruct (m f h) as [[[[a|] f'] h']|]; [exact H| |exact H].
  destruct H as [H1 H2]. split; [congruence|exact H2].
Qed.
Lemma xwp_quiet {A} (m : X body A) h (Q : A -> heap -> Prop) (E E' : heap -> Prop) : t = false -> xwp t m h Q E -> xwp t m h Q E'.
Proof.
  intros Et H f Hf. specialize (H f Hf). destruct (m f h) as [[[[a|] f'] h']|]; [exact H| |exact H].
  destruct H as [H1 H2]. congruence.
Qed.

Definition stolen (u : bool) (n : N) (ys : list T) : list T := if u then map gone (takeN n ys) ++ dropN n ys else ys.
Lemma hextend_ok steal L h R tl xs a ys n : st L h (tl :: a :: R) -> cell_at (wipe L h) tl (mkCell 1 (VLeaf xs) []) ->
  nrep L h a (Leaf ys) -> n <= lenN ys ->
  xwp t (hextend gone steal tl (lenN xs) a n) h
    (fun '(u, threw) h' =>
       if (threw : bool) then t = true /\ u = false /\ h' = h
       else (u = true -> steal = true) /\ st L h' (tl :: a :: R) /\ mv (Some R) L L L h h' /\
            (u = false -> mv (Some (a :: R)) L L L h h') /\
            nrep L h' tl (Leaf (xs ++ takeN n ys)) /\ nrep L h' a (Leaf (stolen u n ys)))
    (fun _ => False).
Proof.
  intros S0 Htl Na Hn. unfold hextend.
  destruct (sv_take _ _ _ _ _ S0 Htl eq_refl) as (S1 & Hb & Hc & M1). cbn [c_kids app] in S1, M1.
  assert (Na1 : nrep (tl :: L) h a (Leaf ys)) by (eapply mv_nrep; [exact M1|now left|exact Na]).
  destruct (nrep_leaf_inv _ _ _ _ Na1) as [rc Ha]. destruct (wipe_cell _ _ _ _ Ha) as [Hna Ha'].
  assert (G : xwp t (_ <- xm (xs0 <~ load_leaf tl ;; ys0 <~ load_leaf a ;; zs <~ mlift (rtakeN n ys0) ;;
               if lenN xs0 =? lenN xs then
                 _ <~ put_leaf tl (xs0 ++ zs) ;; if false then put_leaf a (map gone zs ++ dropN n ys0) else mret tt
               else mub) ;;; xret (false, false)) h (fun '(u, threw) h' =>
       if (threw : bool) then t = true /\ u = false /\ h' = h
       else (u = true -> steal = true) /\ st L h' (tl :: a :: R) /\ mv (Some R) L L L h h' /\
            (u = false -> mv (Some (a :: R)) L L L h h') /\
            nrep L h' tl (Leaf (xs ++ takeN n ys)) /\ nrep L h' a (Leaf (stolen u n ys)))
    (fun _ => False)).
  { apply xwp_bind. apply xwp_m. apply wp_bind. eapply wp_load_leaf; [exact Hc|]. apply wp_bind. eapply wp_load_leaf; [exact Ha'|].
    apply wp_bind. eapply wp_lift; [apply rtakeN_ok; exact Hn|]. rewrite N.eqb_refl. apply wp_bind.
    eapply wp_put_leaf; [exact S1|now left|exact Hc|]. intros h2 (S3 & Hc3 & F3 & M3). apply wp_ret. apply xwp_ret.
    destruct (pub_leaf _ _ _ _ _ S3 Hc3) as (S4 & M4 & Hn4).
    assert (M : mv (Some (a :: R)) L L L h h2).
    { eapply mv_trans; [exact M1|]. apply mv_all. eapply mv_trans; [apply (M3 L); exact Hb|exact M4]. }
    split; [discriminate|]. split; [exact S4|]. split; [eapply mv_sub; [exact M|intros z Hz; now right]|]. split; [intros _; exact M|].
    split; [exact Hn4|]. eapply mv_nrep; [exact M|now left|exact Na]. }
  assert (G' : xwp t (threw <- xfate ;;; if threw then xret (false, true) else
       _ <- xm (xs0 <~ load_leaf tl ;; ys0 <~ load_leaf a ;; zs <~ mlift (rtakeN n ys0) ;;
               if lenN xs0 =? lenN xs then
                 _ <~ put_leaf tl (xs0 ++ zs) ;; if false then put_leaf a (map gone zs ++ dropN n ys0) else mret tt
               else mub) ;;; xret (false, false)) h (fun '(u, threw) h' =>
       if (threw : bool) then t = true /\ u = false /\ h' = h
       else (u = true -> steal = true) /\ st L h' (tl :: a :: R) /\ mv (Some R) L L L h h' /\
            (u = false -> mv (Some (a :: R)) L L L h h') /\
            nrep L h' tl (Leaf (xs ++ takeN n ys)) /\ nrep L h' a (Leaf (stolen u n ys)))
    (fun _ => False)).
  { apply xwp_bind. apply xwp_fate; [exact G|]. intros Et. apply xwp_ret. auto. }
  apply xwp_bind. destruct steal; [|apply xwp_ret; exact G'].
  apply xwp_m. destruct (nrep_leaf_inv _ _ _ _ Na) as [rc' Ha0].
  assert (rc' = rc) as ->. { apply at_wipe in Ha0. unfold cell_at in Ha0, Ha'. rewrite Ha' in Ha0. congruence. }
  eapply wv_unique; [exact S0|exact Ha0| |intros _; exact G'].
  cbn [c_rc]. intros ->. apply xwp_bind. apply xwp_ret. clear G G'.
  destruct (sv_take _ _ _ _ _ S1 Ha eq_refl) as (S2 & Hna2 & Hca & M2). cbn [c_kids app] in S2, M2.
  apply xwp_bind. apply xwp_m. apply wp_bind. eapply wp_load_leaf; [exact Hc|]. apply wp_bind. eapply wp_load_leaf; [exact Ha'|].
  apply wp_bind. eapply wp_lift; [apply rtakeN_ok; exact Hn|]. rewrite N.eqb_refl. apply wp_bind.
  eapply wp_put_leaf; [exact S2|right; now left|exact Hc|]. intros h2 (S3 & Hc3 & F3 & M3).
  assert (Hne : a <> tl) by (intros ->; apply Hna; now left).
  assert (Hca2 : cell_at h2 a (mkCell 1 (VLeaf ys) [])) by (unfold cell_at; rewrite (F3 a Hne); exact Hca).
  eapply wp_put_leaf; [exact S3|now left|exact Hca2|]. intros h3 (S4 & Hc4 & F4 & M4).
  assert (Hc3' : cell_at h3 tl (mkCell 1 (VLeaf (xs ++ takeN n ys)) [])) by (unfold cell_at; rewrite (F4 tl); [exact Hc3|congruence]).
  destruct (pub_leaf _ _ _ _ _ S4 Hc4) as (S5 & M5 & Hn5). destruct (pub_leaf _ _ _ _ _ S5 Hc3') as (S6 & M6 & Hn6).
  apply xwp_ret.
  assert (Ha_ : ~ In a L) by (intros Hi; apply Hna; now right).
  split; [reflexivity|]. split; [exact S6|]. split; [|split; [discriminate|split; [exact Hn6|]]].
  - eapply mv_trans; [eapply mv_sub; [exact M1|intros z Hz; now right]|].
    eapply mv_trans; [eapply mv_tail; exact M2|]. apply mv_all.
    eapply mv_trans; [apply (M3 L); exact Hb|]. eapply mv_trans; [apply (M4 L); exact Ha_|].
    eapply mv_trans; [eapply mv_tail; exact M5|exact M6].
  - eapply mv_nrep; [exact M6|exact I|exact Hn5].
Qed.

(** What append guarantees; [k] elements of the right operand have been moved from. *)
Definition appended (steal : bool) L h R lx y ly (r : htree * N * bool) h' : Prop :=
  let '(z, k, threw) := r in
  st L h' (hptr z ++ hptr y ++ R) /\ mv (Some R) L L L h h' /\
  vec L h' z (if threw then lx else lx ++ ly) /\ vec L h' y (map gone (takeN k ly) ++ dropN k ly) /\
  k <= lenN ly /\ (steal = false -> k = 0) /\ (threw = true -> t = true /\ k = 0).
Lemma appended_zero steal L h R lx y ly z (threw : bool) h' : vec L h y ly -> st L h' (hptr z ++ hptr y ++ R) -> mv (Some (hptr y ++ R)) L L L h h' ->
  vec L h' z (if threw then lx else lx ++ ly) -> (threw = true -> t = true) -> appended steal L h R lx y ly (z, 0, threw) h'.
Proof.
  intros Vy S1 M1 V1 Ht. split; [exact S1|]. split; [eapply mv_sub; [exact M1|intros w Hw; apply in_or_app; now right]|].
  split; [exact V1|]. split; [|split; [lia|auto]]. rewrite takeN_0, dropN_0. cbn [map app].
  eapply mv_vec; [exact M1| | |exact Vy]; cbn; auto.
Qed.
Lemma made_appended steal L h R lx y ly z h' : vec L h y ly -> made (Some (hptr y ++ R)) L h (hptr y ++ R) (lx ++ ly) z h' ->
  appended steal L h R lx y ly (z, 0, false) h'.
Proof. intros Vy (S1 & M1 & V1). apply appended_zero; auto. discriminate. Qed.

Lemma hconcat_mut_l_ok steal L h R x y lx ly : st L h (hptr x ++ hptr y ++ R) -> vec L h x lx -> vec L h y ly -> bounded y ->
  (t = false \/ tail_len h y <> ht_size y \/ tail_len h x + ht_size y <= lwidth) ->
  xwp t (hconcat_mut_l B BL gone steal x y) h (appended steal L h R lx y ly) (back L h (hptr x ++ hptr y ++ R)).
Proof.
  intros S0 Vx Vy Hb Ht. unfold hconcat_mut_l. destruct (N.eqb_spec (ht_size x) 0) as [Zx|Zx].
  { rewrite (vec_zero _ _ _ _ Vx Zx). apply xwp_bind. apply xwp_m.
    eapply (wp_hcopy B BL true HB1); [exact S0|exact Vy|]. intros h1 Hm. apply xwp_bind. apply xwp_m.
    eapply wp_mono; [eapply wp_replace; [apply made_all; exact Hm|exact Vx]|].
    intros u h2 H2. apply xwp_ret. now apply made_appended. }
  destruct (N.eqb_spec (ht_size y) 0) as [Zy|Zy].
  { apply xwp_ret. apply made_appended; [exact Vy|]. rewrite (vec_zero _ _ _ _ Vy Zy), app_nil_r.
    split; [exact S0|]. split; [apply mv_refl|exact Vx]. }
  pose proof Vy as (ry & ys & Hy & Ely). pose proof Vx as (rx & xs & Hx & Elx).
  pose proof Hx as (E1 & E2 & E3 & E4 & E5 & N1 & N2). pose proof Hy as (F1 & F2 & F3 & F4 & F5 & P1 & P2).
  rewrite (vrel_tail _ _ _ _ _ Hy), (vrel_tail _ _ _ _ _ Hx) in Ht.
  apply xwp_bind. apply xwp_m. eapply wp_tail_offset; [exact HB1|exact Hy|].
  destruct (N.eqb_spec (nsize ry) 0) as [Z|Z].
  2: { apply xwp_bind. eapply xwp_mono; [eapply hjoin_ok; [exact S0|exact Vx|exact Hy|exact Ely|lia|lia| | |exact Hb]| |auto].
    - intros w Hw. apply in_or_app. now left.
    - intros w Hw. apply in_or_app. right. apply in_or_app. now left.
    - intros z h1 Hm. apply xwp_bind. apply xwp_m. eapply wp_mono; [eapply wp_replace; [exact Hm|exact Vx]|].
      intros u h2 H2. apply xwp_ret. now apply made_appended. }
  assert (elems ry = []) as Ee by (apply lenN_0; exact Z). rewrite Ee in Ely. cbn [app] in Ely. subst ly.
  assert (Ey : ht_size y = lenN ys) by lia. rewrite Ey in *.
  apply xwp_bind. apply xwp_m. eapply wp_tail_offset; [exact HB1|exact Hx|]. cbv zeta.
  replace (ht_size x - nsize rx) with (lenN xs) by lia.
  destruct (N.eqb_spec (lenN xs) lwidth) as [Ex|Ex].
  { assert (t = false) as Et. { destruct Ht as [H|[H|H]]; [exact H|lia|lia]. }
    rewrite Ex. apply xwp_bind. eapply xwp_mono.
    - eapply (hpush_tail_ok B BL true t HB1) with (m := true) (r := rx) (tn := Leaf xs) (R := hptr y ++ R) (L := L).
      + exact S0.
      + exact E4.
      + exact E5.
      + exact N1.
      + exact N2.
      + cbn. exact Ex.
      + intros _ _. exact Et.
    - intros [l' b] h1 (r' & Hw & Hsh & He & S1 & M1 & Hn1). cbn [fst snd keep] in *.
      assert (P2' : nrep L h1 (ht_tail y) (Leaf ys)) by (eapply mv_nrep; [exact M1|cbn; auto|exact P2]).
      apply xwp_bind. apply xwp_m. eapply wv_inc; [exact S1|eapply srep_live; exact P2'|].
      intros h2 S2 M2. apply xwp_ret. apply made_appended; [exact Vy|]. split; [|split].
      + cbn [hptr ht_root ht_tail app] in *. eapply st_eqv; [|exact S2]. intros z. cbn [occ] in *. lia.
      + eapply mv_trans; [exact M1|apply mv_all; exact M2].
      + eapply vec_intro with (xs := ys); [right; exact Hw|exact Hsh| | | |exact F2| |].
        * eapply mv_nrep; [exact M2|exact I|exact Hn1].
        * eapply mv_nrep; [exact M2|exact I|exact P2'].
        * unfold nsize. rewrite He, lenN_app. cbn [elems]. unfold nsize in E1. lia.
        * lia.
        * subst lx. rewrite He. reflexivity.
    - intros h1 Bk. exact Bk. }
  assert (Sx : st L h (ht_tail x :: ht_root x :: hptr y ++ R)).
  { eapply st_eqv; [|exact S0]. intros z. cbn [occ hptr app]. lia. }
  destruct (N.leb_spec (lenN xs + lenN ys) lwidth) as [Hfit|Hfit].
  { apply xwp_bind. eapply xwp_mono; [eapply (hensure_tail_ok B BL t HB1); [exact Sx|exact N2|exact E2]| |].
    - intros tl h1 (S1 & M1 & Hn1 & Hc1). apply xwp_bind.
      assert (P2' : nrep L h1 (ht_tail y) (Leaf ys)) by (eapply mv_nrep; [exact M1|cbn; auto|exact P2]).
      assert (N1' : nrep L h1 (ht_root x) rx) by (eapply mv_nrep; [exact M1|cbn; auto|exact N1]).
      assert (P1' : nrep L h1 (ht_root y) ry) by (eapply mv_nrep; [exact M1|cbn; auto|exact P1]).
      eapply xwp_mono; [eapply hextend_ok with (R := ht_root x :: ht_root y :: R); [|exact Hc1|exact P2'|reflexivity]| |tauto].
      { eapply st_eqv; [|exact S1]. intros z. cbn [occ hptr app]. lia. }
      intros [u threw] h2. destruct threw.
      + intros (Et & -> & ->). apply xwp_ret. apply appended_zero; [exact Vy| | | |auto].
        * cbn [hptr ht_root ht_tail app] in *. eapply st_eqv; [|exact S1]. intros z. cbn [occ]. lia.
        * eapply mv_sub; [exact M1|intros w Hw; now right].
        * eapply vec_intro; [exact E4|exact E5|exact N1'|exact Hn1|lia|exact E2|lia|exact Elx].
      + intros (Hu & S2 & M2 & M2' & Nt & Ny). apply xwp_ret.
        rewrite takeN_all in Nt by lia.
        assert (V2 : vec L h2 (mkHT (ht_size x + lenN ys) (ht_lv x) (ht_root x) tl) (lx ++ ys)).
        { eapply vec_intro; [exact E4|exact E5| |exact Nt| | | |].
          - eapply mv_nrep; [exact M2|now left|exact N1'].
          - rewrite lenN_app. lia.
          - rewrite lenN_app. lia.
          - rewrite lenN_app. lia.
          - subst lx. now rewrite app_assoc. }
        assert (S3 : st L h2 (hptr (mkHT (ht_size x + lenN ys) (ht_lv x) (ht_root x) tl) ++ hptr y ++ R)).
        { eapply st_eqv; [|exact S2]. intros z. cbn [occ hptr app ht_root ht_tail]. lia. }
        destruct u.
        * split; [exact S3|]. split; [|split; [exact V2|split; [|split; [lia|split; [|discriminate]]]]].
          -- eapply mv_trans; [eapply mv_sub; [exact M1|]|eapply mv_sub; [exact M2|]]; intros w Hw; cbn; auto.
          -- cbn [stolen] in Ny. exists ry, (map gone (takeN (lenN ys) ys) ++ dropN (lenN ys) ys). split; [|rewrite Ee; reflexivity].
             assert (Hl : lenN (map gone (takeN (lenN ys) ys) ++ dropN (lenN ys) ys) = lenN ys).
             { rewrite lenN_app, lenN_map, lenN_takeN, lenN_dropN. lia. }
             split; [lia|]. split; [lia|]. split; [lia|]. split; [exact F4|]. split; [exact F5|]. split; [|exact Ny].
             eapply mv_nrep; [exact M2|right; now left|exact P1'].
          -- intros E0. rewrite (Hu eq_refl) in E0. discriminate.
        * apply appended_zero; [exact Vy|exact S3| |exact V2|discriminate].
          eapply mv_trans; [eapply mv_sub; [exact M1|]|eapply mv_sub; [exact (M2' eq_refl)|]]; intros w Hw; cbn in *; tauto.
    - intros h1 B1. eapply back_eqv; [|exact B1]. intros z. cbn [occ hptr app]. lia. }
  assert (t = false) as Et. { destruct Ht as [H|[H|H]]; [exact H|lia|lia]. }
  set (rem := lwidth - lenN xs).
  assert (Hrem : lenN (takeN rem ys) = rem) by (rewrite lenN_takeN; unfold rem; lia).
  assert (Hsplit : takeN rem ys ++ dropN rem ys = ys) by apply takeN_dropN.
  assert (Hld : lenN (dropN rem ys) = lenN ys - rem) by (rewrite lenN_dropN; reflexivity).
  assert (Hst : forall u, lenN (stolen u rem ys) = lenN ys).
  { intros [|]; cbn [stolen]; [|reflexivity]. rewrite lenN_app, lenN_map, Hrem, Hld. unfold rem. lia. }
  assert (Hsl : forall u, rsliceN rem (lenN ys) (stolen u rem ys) = Ok (dropN rem ys)).
  { intros [|]; cbn [stolen].
    - apply rsliceN_app_r; [rewrite lenN_map; exact Hrem|]. rewrite Hld. unfold rem. lia.
    - rewrite <- Hsplit at 2. apply rsliceN_app_r; [exact Hrem|]. rewrite Hld. unfold rem. lia. }
  assert (Hfull : lenN (xs ++ takeN rem ys) = lwidth) by (rewrite lenN_app, Hrem; unfold rem; lia).
  apply xwp_bind. eapply xwp_mono; [eapply (hensure_tail_ok B BL t HB1); [exact Sx|exact N2|exact E2]| |].
  2: { intros h1 B1. eapply back_eqv; [|exact B1]. intros z. cbn [occ hptr app]. lia. }
  intros tl h1 (S1 & M1 & Hn1 & Hc1). apply xwp_bind.
  assert (P2' : nrep L h1 (ht_tail y) (Leaf ys)) by (eapply mv_nrep; [exact M1|cbn; auto|exact P2]).
  assert (N1' : nrep L h1 (ht_root x) rx) by (eapply mv_nrep; [exact M1|cbn; auto|exact N1]).
  assert (P1' : nrep L h1 (ht_root y) ry) by (eapply mv_nrep; [exact M1|cbn; auto|exact P1]).
  eapply xwp_mono; [eapply hextend_ok with (R := ht_root x :: ht_root y :: R) (n := rem); [|exact Hc1|exact P2'|unfold rem; lia]| |tauto].
  { eapply st_eqv; [|exact S1]. intros z. cbn [occ hptr app]. lia. }
  intros [u threw] h2. destruct threw; [intros (Et' & _); congruence|]. intros (Hu & S2 & M2 & M2' & Nt & Ny).
  apply xwp_bind. apply xwp_catch. eapply xwp_quiet with (E := fun _ => True); [exact Et|]. apply xwp_bind.
  eapply xwp_copy_range; [exact S2|exact Ny|apply Hsl| |auto].
  intros nt h3 S3 Hnt Hc3 M3. apply xwp_try. eapply xwp_quiet with (E := fun _ => True); [exact Et|]. apply xwp_bind.
  eapply xwp_mono; [eapply (hpush_tail_ok B BL true t HB1) with (m := true) (r := rx) (tn := Leaf (xs ++ takeN rem ys)) (R := hptr y ++ R) (L := nt :: L)| |auto].
  - cbn [own ht_root app]. eapply st_eqv; [|exact S3]. intros z. cbn [occ hptr app]. lia.
  - exact E4.
  - exact E5.
  - cbn [ht_root]. eapply mv_nrep; [exact M3|exact I|]. eapply mv_nrep; [exact M2|now left|exact N1'].
  - eapply mv_nrep; [exact M3|exact I|exact Nt].
  - exact Hfull.
  - intros _ _. exact Et.
  - intros [l' b] h4 (r' & Hw & Hsh & He & S4 & M4 & Hn4). cbn [fst snd keep] in *. apply xwp_ret. apply xwp_ret.
    assert (Hc4 : cell_at h4 nt (mkCell 1 (VLeaf (dropN rem ys)) [])) by (eapply mv_local; [exact M4|now left|exact Hc3]).
    destruct (pub_leaf _ _ _ _ _ S4 Hc4) as (S5 & M5 & Hn5).
    set (z := mkHT (ht_size x + lenN ys) l' b nt).
    assert (S6 : st L h4 (hptr z ++ hptr y ++ R)).
    { unfold z. cbn [hptr ht_root ht_tail app] in *. eapply st_eqv; [|exact S5]. intros w. cbn [occ] in *. lia. }
    assert (V6 : vec L h4 z (lx ++ ys)).
    { eapply vec_intro; [right; exact Hw|exact Hsh| |exact Hn5| | | |].
      - eapply mv_nrep; [exact M5|exact I|exact Hn4].
      - unfold nsize. rewrite He, lenN_app. cbn [elems]. rewrite Hfull, Hld. unfold nsize in E1. unfold rem. lia.
      - rewrite Hld. lia.
      - rewrite Hld. unfold rem. lia.
      - subst lx. rewrite He. cbn [elems]. rewrite <- !app_assoc. now rewrite Hsplit. }
    assert (M46 : mv (Some (hptr y ++ R)) L L L h2 h4).
    { eapply mv_trans; [apply mv_all; exact M3|]. eapply mv_trans; [eapply mv_tail; exact M4|apply mv_all; exact M5]. }
    destruct u.
    + split; [exact S6|]. split; [|split; [exact V6|split; [|split; [unfold rem; lia|split; [|discriminate]]]]].
      * eapply mv_trans; [eapply mv_sub; [exact M1|]|eapply mv_trans; [eapply mv_sub; [exact M2|]|eapply mv_sub; [exact M46|]]];
          intros w Hw'; cbn; auto.
      * exists ry, (stolen true rem ys). split; [|rewrite Ee; reflexivity]. specialize (Hst true).
        unfold VecTreeProofs.vrel. split; [lia|]. split; [lia|]. split; [lia|]. split; [exact F4|]. split; [exact F5|]. split.
        -- eapply mv_nrep; [exact M46|now left|]. eapply mv_nrep; [exact M2|right; now left|exact P1'].
        -- eapply mv_nrep; [exact M46|right; now left|exact Ny].
      * intros E0. rewrite (Hu eq_refl) in E0. discriminate.
    + apply appended_zero; [exact Vy|exact S6| |exact V6|discriminate].
      eapply mv_trans; [eapply mv_sub; [exact M1|]|eapply mv_trans; [eapply mv_sub; [exact (M2' eq_refl)|]|exact M46]];
        intros w Hw'; cbn in *; tauto.
Qed.
End Proofs.
