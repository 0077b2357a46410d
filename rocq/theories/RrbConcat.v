(** Concatenation of trees. *)
From Coq Require Import List NArith Arith Bool Lia ZifyN ZifyNat ZifyBool.
From Verif Require Import Common NList Rrb RrbInv RrbPos RrbOps RrbSlice RrbTree RrbShuffle RrbMerge.
Import ListNotations.
Local Open Scope N_scope.

Set Default Goal Selector "!".

Section Concat.
Context {T : Type}.
Variables B BL : N.

Notation sh := (sh B BL).
Notation width := (width B).
Notation lwidth := (lwidth BL).
Notation span := (span B BL).
Notation full := (@full T B BL).
Notation reg := (@reg T B BL).
Notation wf := (@wf T B BL).
Notation inv := (@inv T B BL).
Notation pos_ok := (@pos_ok T B BL).
Notation posl := (@posl T B BL).
Notation center_ok := (@center_ok T B BL).

Lemma posl_app l p1 n1 p2 n2 : posl l p1 n1 -> posl l p2 n2 -> posl l (p1 ++ p2) (n1 ++ n2).
Proof. apply Forall2_app. Qed.

Lemma posl_full l cs : Forall (full l) cs -> posl l (map PFull cs) cs.
Proof.
  induction 1 as [|c cs Hc H IH]; cbn [map]; constructor; auto.
  split; [now constructor|reflexivity].
Qed.

Lemma rel_go_ok v cs s : Forall (wf v) cs ->
  exists ps, rel_go B BL v cs (sums s (map nsize cs)) s = Ok ps /\ posl v ps cs.
Proof.
  intros H. revert s. induction H as [|c cs Hc H IH]; intros s; cbn [map sums rel_go].
  - exists []. split; [reflexivity|constructor].
  - destruct (child_pos_ok B BL v c Hc) as (q & Eq & Hq & Hs).
    replace (s + nsize c - s) with (nsize c) by lia. rewrite Eq. cbn [rbind].
    destruct (IH (s + nsize c)) as (ps & E & Hps). rewrite E. cbn [rbind].
    exists (q :: ps). split; [reflexivity|]. constructor; auto.
Qed.

Lemma rel_range_ok l sz cs a m b : wf (S l) (Inner (Some sz) cs) -> cs = a ++ m ++ b ->
  exists ps, rel_range B BL l (Inner (Some sz) cs) sz (lenN a) (lenN a + lenN m) = Ok ps /\
    posl l ps m.
Proof.
  intros Hw ->. unfold rel_range. cbn [inner_of rbind].
  destruct (N.leb_spec (lenN a + lenN m) (lenN a)) as [Hm|Hm].
  - assert (m = []) as -> by (apply lenN_0; lia). exists []. split; [reflexivity|constructor].
  - pose proof Hw as (_ & Hk & ->).
    assert ((if lenN a =? 0 then Ok 0 else rnthN (sums 0 (map nsize (a ++ m ++ b))) (lenN a - 1))
            = Ok (csize a)) as ->.
    { destruct m as [|x m]; [change (lenN (@nil (node T))) with 0 in Hm; lia|].
      eapply (rel_before B BL l); exact Hw. }
    cbn [rbind]. rewrite rsliceN_app; [|reflexivity|reflexivity]. cbn [rbind].
    rewrite !map_app, !sums_app.
    rewrite rsliceN_app; [|now rewrite lenN_sums, lenN_map|now rewrite lenN_sums, lenN_map].
    cbn [rbind]. rewrite N.add_0_l. fold (csize a). apply rel_go_ok.
    apply Forall_app in Hk as [_ Hk]. now apply Forall_app in Hk.
Qed.

Definition not_full (p : pos T) : Prop := match p with PFull _ => False | _ => True end.

Lemma child_not_full v n s q : child_pos B BL v n s = Ok q -> not_full q.
Proof.
  unfold child_pos, maybe_relaxed, mk_sub. destruct v as [|l].
  - destruct (s <=? lwidth); [|easy]. now intros [= <-].
  - destruct n as [|[sz|] cs]; [easy| |].
    + destruct (last_of sz) as [t|]; [|easy]. cbn [rbind]. destruct (t =? s); [|easy].
      now intros [= <-].
    + destruct (_ && _); [|easy]. now intros [= <-].
Qed.

Lemma each_left_sub_ok l p n a x :
  pos_ok (S l) p n -> is_sub p = true -> not_full p -> kids n = a ++ [x] ->
  exists ps, each_left_sub B BL l p = Ok ps /\ posl l ps a.
Proof.
  intros Hp Hs Hnf Ek. pose proof (count_ok _ _ _ _ _ Hp) as Hc.
  destruct Hp as [n Hf|n s Hw Hr Hp E|n s Hw Hr E|cs sz Hw]; try easy; cbn [each_left_sub].
  - rewrite Hc. cbn [rbind each_left]. rewrite Hc. cbn [rbind].
    destruct (nonrel_split B BL l n a x [] Hw Hr Ek) as (Hfa & _).
    assert (ncount n = lenN a + 1) as Hn.
    { destruct n as [|r cs]; [easy|]. cbn in Ek |- *. now rewrite Ek, lenN_snoc. }
    rewrite Hn. replace (lenN a + 1 - 1) with (lenN a) by lia.
    destruct (N.ltb_spec (lenN a) (lenN a + 1)); [|lia].
    destruct n as [|r cs]; [easy|]. cbn [kids] in Ek. subst cs. cbn [inner_of rbind].
    rewrite rtakeN_app by reflexivity. cbn [rbind].
    eexists. split; [reflexivity|]. now apply posl_full.
  - rewrite Hc. cbn [rbind each_left ncount]. cbn [kids] in Ek.
    assert (lenN cs - 1 = lenN (@nil (node T)) + lenN a) as ->.
    { rewrite Ek, lenN_snoc. change (lenN (@nil (node T))) with 0. lia. }
    apply (rel_range_ok l sz cs [] a [x] Hw). exact Ek.
Qed.

Lemma last_sub_ok l p n a x :
  pos_ok (S l) p n -> is_sub p = true -> not_full p -> kids n = a ++ [x] ->
  exists q, last_sub B BL l p = Ok q /\ pos_ok l q x /\ is_sub q = true /\ not_full q.
Proof.
  intros Hp Hs Hnf Ek. pose proof (count_ok _ _ _ _ _ Hp) as Hc.
  pose proof (size_at_ok B BL l p n a x [] Hp Hs Ek) as Hsz.
  destruct Hp as [n Hf|n s Hw Hr Hp E|n s Hw Hr E|cs sz Hw]; try easy; cbn [last_sub].
  - destruct (nonrel_split B BL l n a x [] Hw Hr Ek) as (Hfa & Hrx & _ & _ & Hca & Hn & _).
    assert (ncount n = lenN a + 1) as Hnc.
    { destruct n as [|r cs]; [easy|]. cbn in Ek |- *. now rewrite Ek, lenN_snoc. }
    destruct n as [|r cs]; [easy|]. cbn [kids] in Ek. cbn [inner_of rbind]. rewrite Hc. cbn [rbind].
    rewrite Hnc. replace (lenN a + 1 - 1) with (lenN a) by lia.
    assert (rnthN cs (lenN a) = Ok x) as -> by (rewrite Ek; now apply rnthN_app). cbn [rbind].
    rewrite shiftl_span_mul, <- Hca, E, Hn, (@csize_nil T).
    replace (csize a + nsize x + 0 - csize a) with (nsize x) by lia.
    assert (wf l x) by now apply reg_wf. assert (is_rel x = false) by (eapply reg_not_rel; eauto).
    rewrite mk_sub_ok by auto. eexists. split; [reflexivity|].
    split; [now constructor|]. split; [reflexivity|exact I].
  - cbn [kids] in Ek. cbn [inner_of rbind].
    assert (lenN sz - 1 = lenN a) as Hl.
    { destruct Hw as (_ & _ & ->). rewrite lenN_sums, lenN_map, Ek, lenN_snoc. lia. }
    rewrite Hl. assert (rnthN cs (lenN a) = Ok x) as -> by (rewrite Ek; now apply rnthN_app). cbn [rbind].
    rewrite Hsz. cbn [rbind].
    assert (wf l x) as Hwx.
    { destruct Hw as (_ & Hk & _). rewrite Ek in Hk. apply Forall_app in Hk as [_ Hk]. now inversion Hk. }
    destruct (child_pos_ok B BL l x Hwx) as (q & Eq & Hq & Hsq). rewrite Eq.
    exists q. split; [reflexivity|]. split; [auto|]. split; [auto|].
    eapply child_not_full; eauto.
Qed.

Lemma first_sub_ok l p n x b :
  pos_ok (S l) p n -> is_sub p = true -> kids n = x :: b ->
  exists q, first_sub B BL l p = Ok q /\ pos_ok l q x /\ is_sub q = true.
Proof.
  intros Hp Hs Ek.
  destruct Hp as [n Hf|n s Hw Hr Hp E|n s Hw Hr E|cs sz Hw]; try easy; cbn [first_sub].
  - destruct n as [|[] cs]; cbn in Hf; try easy. cbn [kids] in Ek. subst cs. cbn [inner_of rbind].
    rewrite (rnthN_app [] b x) by reflexivity. cbn [rbind].
    destruct Hf as [_ Hf]. inversion Hf; subst.
    exists (PFull x). split; [reflexivity|]. split; [now constructor|reflexivity].
  - destruct (nonrel_split B BL l n [] x b Hw Hr Ek) as (_ & Hrx & Hfx & _ & _ & Hn & _).
    pose proof (reg_size_bounds _ _ _ _ Hrx) as Hbx.
    destruct n as [|r cs]; [easy|]. cbn [kids] in Ek. subst cs. cbn [inner_of rbind].
    rewrite (rnthN_app [] b x) by reflexivity. cbn [rbind].
    rewrite shiftl_span. rewrite (@csize_nil T) in Hn.
    destruct (N.leb_spec (span l) s).
    + exists (PFull x). split; [reflexivity|]. split; [|reflexivity]. constructor.
      destruct b as [|y b].
      * apply reg_full; auto. rewrite (@csize_nil T) in Hn. lia.
      * now apply Hfx.
    + assert (b = []) as ->.
      { destruct b as [|y b]; [reflexivity|]. assert (full l x) as Hf by now apply Hfx.
        rewrite (full_size _ _ _ _ Hf) in Hn. lia. }
      rewrite (@csize_nil T) in Hn. replace s with (nsize x) by lia.
      assert (is_rel x = false) by (eapply reg_not_rel; eauto).
      assert (wf l x) by now apply reg_wf.
      rewrite mk_sub_ok by auto. eexists. split; [reflexivity|]. split; [now constructor|reflexivity].
  - cbn [kids] in Ek. subst cs. cbn [inner_of rbind].
    rewrite (rnthN_app [] b x) by reflexivity. cbn [rbind].
    pose proof (rel_at B BL l _ [] x b Hw) as Hat. change (lenN (@nil (node T))) with 0 in Hat.
    rewrite Hat. cbn [rbind]. rewrite (@csize_nil T), N.add_0_l.
    destruct Hw as (_ & Hk & _). inversion Hk; subst.
    apply child_pos_ok. auto.
Qed.

Lemma each_right_sub_ok l p n x b :
  pos_ok (S l) p n -> is_sub p = true -> kids n = x :: b ->
  sh l < 32 -> nsize n <= 2 ^ 32 ->
  exists ps, each_right_sub B BL l p = Ok ps /\ posl l ps b.
Proof.
  intros Hp Hs Ek Hsh H32. pose proof (count_ok _ _ _ _ _ Hp) as Hc.
  assert (ncount n = 1 + lenN b) as Hnc.
  { destruct n as [|r cs]; [easy|]. cbn [kids ncount] in Ek |- *. rewrite Ek, lenN_cons. lia. }
  destruct Hp as [n Hf|n s Hw Hr Hp E|n s Hw Hr E|cs sz Hw]; try easy; cbn [each_right_sub].
  - destruct n as [|[] cs]; cbn in Hf; try easy. cbn [kids] in Ek. subst cs. cbn [each_i inner_of rbind].
    destruct Hf as [Hl Hf]. rewrite <- Hl. inversion Hf; subst.
    rewrite (rsliceN_app_r 1 _ [x] b); [|reflexivity|rewrite lenN_cons; lia]. cbn [rbind].
    eexists. split; [reflexivity|]. now apply posl_full.
  - rewrite Hc. cbn [rbind]. rewrite Hnc.
    destruct (N.ltb_spec 1 (1 + lenN b)) as [Hb|Hb].
    + destruct b as [|y b] using rev_ind; [change (lenN (@nil (node T))) with 0 in Hb; lia|]. clear IHb.
      destruct (nonrel_split B BL l n (x :: b) y [] Hw Hr Ek) as (Hfa & Hry & _ & _ & Hca & Hn & _).
      pose proof (reg_size_bounds _ _ _ _ Hry) as Hby.
      rewrite (@csize_nil T) in Hn.
      unfold each_right_sub_. rewrite Hc, Hnc, lenN_snoc.
      destruct n as [|r cs]; [easy|]. cbn [kids] in Ek. cbn [inner_of rbind].
      replace (1 + (lenN b + 1) - 1) with (lenN (x :: b)) by (rewrite lenN_cons; lia).
      rewrite shl32_ok; [|auto|].
      2:{ fold (span l). rewrite <- Hca. lia. }
      fold (span l). cbn [rbind]. rewrite Ek.
      rewrite (rsliceN_app 1 _ [x] b [y]); [|reflexivity|rewrite lenN_cons; lia]. cbn [rbind].
      change (x :: b ++ [y]) with ((x :: b) ++ [y]). rewrite rnthN_app by reflexivity. cbn [rbind].
      rewrite <- Hca. replace (s - csize (x :: b)) with (nsize y) by lia.
      assert (is_rel y = false) by (eapply reg_not_rel; eauto).
      assert (wf l y) by now apply reg_wf.
      rewrite mk_sub_ok by auto. cbn [rbind]. eexists. split; [reflexivity|].
      inversion Hfa; subst.
      apply posl_app; [now apply posl_full|]. constructor; [|constructor].
      split; [now constructor|reflexivity].
    + assert (b = []) as -> by (apply lenN_0; lia). exists []. split; [reflexivity|constructor].
  - cbn [each_right]. cbn [ncount] in Hnc. cbn [kids] in Ek.
    assert (lenN sz = 1 + lenN b) as Hl.
    { destruct Hw as (_ & _ & ->). now rewrite lenN_sums, lenN_map. }
    rewrite Hl. destruct (N.ltb_spec 0 1); [|lia].
    destruct (N.leb_spec 1 (1 + lenN b)); [|lia]. cbn [andb].
    apply (rel_range_ok l sz cs [x] b [] Hw). rewrite app_nil_r. exact Ek.
Qed.

Lemma center_each_ok v c els : center_ok v c els ->
  exists ps, center_each B BL c = Ok ps /\ posl v ps (c_nodes c).
Proof.
  intros [Hlv Hlen Hwf Hsz Hel Hrel]. unfold center_each. rewrite Hlv, Hsz. destruct v as [|l].
  - apply rel_go_ok. exact Hwf.
  - specialize (Hrel ltac:(easy)). clear Hlen Hsz Hel. clear Hlv.
    induction (c_nodes c) as [|n ns IH]; [exists []; split; [reflexivity|constructor]|].
    inversion Hwf as [|? ? Hn Hns]; subst. inversion Hrel as [|? ? Rn Rns]; subst.
    destruct (IH Hns Rns) as (ps & E & Hps). cbn [rmap].
    destruct n as [|[sz|] cs]; cbn in Rn; try easy. cbn [rbind]. rewrite E. cbn [rbind].
    eexists. split; [reflexivity|]. constructor; [|exact Hps]. split; [now constructor|reflexivity].
Qed.

Lemma counts_ok v ps ns : posl v ps ns -> rmap (count B BL v) ps = Ok (map ncount ns).
Proof.
  induction 1 as [|p n ps ns [Hp _] H IH]; [reflexivity|].
  cbn [rmap map]. rewrite (count_ok _ _ _ _ _ Hp). cbn [rbind]. rewrite IH. reflexivity.
Qed.

Lemma posl_wf v ps ns : posl v ps ns -> Forall (wf v) ns.
Proof.
  induction 1 as [|p n ps ns [Hp _] H IH]; constructor; auto. eapply pos_ok_wf; eauto.
Qed.

Lemma counts_bound v ns : Forall (wf v) ns ->
  Forall (fun c => 1 <= c <= match v with O => lwidth | S _ => width end) (map ncount ns).
Proof.
  induction 1 as [|n ns Hn H IH]; cbn [map]; constructor; auto.
  pose proof (wf_count_pos _ _ _ _ Hn). destruct v.
  - destruct (wf_leaf _ _ _ Hn) as (xs & -> & Hx). cbn in *. lia.
  - pose proof (wf_count_le _ _ _ _ Hn). destruct n; cbn in *; [easy|lia].
Qed.

Definition side_ok (f : nat -> pos T -> res (list (pos T))) (v : nat) (p : option (pos T))
    (a : list (node T)) : Prop :=
  exists ps, match p with Some q => f v q | None => Ok [] end = Ok ps /\
    posl v ps a /\ lenN a + 1 <= width.

Lemma concat_rebalance_ok v lp c rp a els b :
  center_ok v c els ->
  side_ok (each_left_sub B BL) v lp a -> side_ok (each_right_sub B BL) v rp b ->
  exists c', concat_rebalance B BL lp c rp = Ok c' /\
    center_ok (S v) c' (flat_map elems a ++ els ++ flat_map elems b).
Proof.
  intros Hc (ls & El & Hls & Hla) (rs & Er & Hrs & Hrb).
  destruct (center_each_ok _ _ _ Hc) as (ms & Em & Hms).
  destruct Hc as [Hlv Hlen Hwf Hsz Hel Hrel].
  unfold concat_rebalance. rewrite Hlv, El. cbn [rbind]. rewrite Em. cbn [rbind]. rewrite Er.
  cbn [rbind].
  assert (posl v (ls ++ ms ++ rs) (a ++ c_nodes c ++ b)) as Hall by (repeat apply posl_app; auto).
  rewrite (counts_ok _ _ _ Hall). cbn [rbind].
  set (ns := a ++ c_nodes c ++ b) in *.
  assert (1 <= lenN ns <= 2 * width + 1) as Hns by (unfold ns; rewrite !lenN_app; lia).
  rewrite lenN_map. destruct (N.ltb_spec (2 * width + 1) (lenN ns)); [lia|].
  pose proof (counts_bound _ _ (posl_wf _ _ _ Hall)) as Hcb.
  destruct (shuffle_ok B BL v (map ncount ns)) as (plan & Ep & Hpb & Hps & Hpl & _).
  { apply lenN_pos. rewrite lenN_map. lia. }
  { exact Hcb. }
  rewrite Ep. cbn [rbind]. rewrite lenN_map in Hpl.
  destruct (merge_ok B BL v (ls ++ ms ++ rs) ns plan Hall) as (m & c' & E1 & E2 & Hc'); auto.
  { intros ->. change (sumN []) with 0 in Hps.
    assert (0 < sumN (map ncount ns)); [|lia].
    destruct ns as [|n0 ns0]; [change (lenN (@nil (node T))) with 0 in Hns; lia|].
    inversion Hcb; subst. cbn [map]. rewrite sumN_cons. lia. }
  { pose proof (width_pos B). lia. }
  rewrite E1. cbn [rbind]. exists c'. split; [exact E2|].
  replace (flat_map elems a ++ els ++ flat_map elems b) with (flat_map elems ns); [exact Hc'|].
  unfold ns. rewrite !flat_map_app, Hel. reflexivity.
Qed.

Definition lp_ok (ll : nat) (lp : pos T) (els : list T) : Prop :=
  ll = 1%nat /\ lp = PSingle (Leaf els) (lenN els) /\ 0 < lenN els <= lwidth \/
  exists n, pos_ok ll lp n /\ is_sub lp = true /\ not_full lp /\ elems n = els.
Definition tp_ok (tp : pos T) (els : list T) : Prop :=
  tp = PNone /\ els = [] \/
  tp = PReg (Leaf els) (lenN els) /\ 0 < lenN els <= lwidth.

Lemma concat_leafs_ok lp tp rp ln tels rn :
  pos_ok O lp ln -> pos_ok O rp rn -> tp_ok tp tels ->
  exists c, concat_leafs B BL lp tp rp = Ok c /\ center_ok O c (elems ln ++ tels ++ elems rn).
Proof.
  intros Hl Hr Ht. unfold concat_leafs.
  rewrite (pos_ok_node _ _ _ _ _ Hl). cbn [rbind]. rewrite (count_ok _ _ _ _ _ Hl). cbn [rbind].
  rewrite (pos_ok_node _ _ _ _ _ Hr). cbn [rbind]. rewrite (count_ok _ _ _ _ _ Hr). cbn [rbind].
  pose proof (pos_ok_wf _ _ _ _ _ Hl) as Hwl. pose proof (pos_ok_wf _ _ _ _ _ Hr) as Hwr.
  destruct (wf_leaf _ _ _ Hwl) as (xs & -> & Hx). destruct (wf_leaf _ _ _ Hwr) as (ys & -> & Hy).
  cbn [ncount elems].
  destruct Ht as [[-> ->]|[-> Htl]].
  - cbn [count rbind]. change (0 <? 0) with false. cbn iota.
    eexists. split; [reflexivity|]. constructor; cbn [c_lv c_nodes c_sizes].
    + reflexivity.
    + cbn. lia.
    + repeat (apply Forall_cons; [assumption|]). apply Forall_nil.
    + cbn [map sums]. rewrite !nsize_leaf. reflexivity.
    + cbn. now rewrite app_nil_r.
    + easy.
  - assert (pos_ok O (PReg (Leaf tels) (lenN tels)) (Leaf tels)) as Hp.
    { constructor; [exact Htl|reflexivity|lia|]. rewrite span_0, nsize_leaf, N.mod_small by lia. lia. }
    rewrite (count_ok _ _ _ _ _ Hp). cbn [rbind ncount pnode].
    destruct (N.ltb_spec 0 (lenN tels)); [|lia].
    eexists. split; [reflexivity|]. constructor; cbn [c_lv c_nodes c_sizes].
    + reflexivity.
    + cbn. lia.
    + repeat (apply Forall_cons; [assumption|]). apply Forall_nil.
    + cbn [map sums]. rewrite !nsize_leaf. reflexivity.
    + cbn. now rewrite app_nil_r.
    + easy.
Qed.

Lemma kids_first l n : wf (S l) n -> exists x b, kids n = x :: b.
Proof.
  intros H. pose proof (wf_count_pos _ _ _ _ H). destruct n as [|r [|x b]]; cbn in *; try easy; eauto.
Qed.
Lemma kids_last l n : wf (S l) n -> exists a x, kids n = a ++ [x].
Proof.
  intros H. destruct (kids_first _ _ H) as (x & b & E).
  destruct (kids n) as [|y k] using rev_ind; [easy|]. eauto.
Qed.
Lemma elems_kids l n : wf (S l) n -> elems n = flat_map elems (kids n).
Proof. destruct n; cbn; easy. Qed.

(** The side facts for a left position of level [S l] and its last child. *)
Lemma left_ok l lp els : lp_ok (S l) lp els ->
  exists a q x, side_ok (each_left_sub B BL) l (Some lp) a /\ last_sub B BL l lp = Ok q /\
    pos_ok l q x /\ is_sub q = true /\ not_full q /\ els = flat_map elems a ++ elems x.
Proof.
  intros [(E & -> & Hl)|(n & Hp & Hs & Hnf & <-)].
  - injection E as ->. exists [], (PSub (Leaf els) (lenN els)), (Leaf els).
    split.
    { exists []. split; [reflexivity|]. split; [constructor|].
      change (lenN (@nil (node T))) with 0. pose proof (width_pos B). lia. }
    cbn [last_sub]. rewrite <- (nsize_leaf els), mk_sub_ok by auto.
    split; [reflexivity|]. split; [now constructor|]. split; [reflexivity|]. split; [exact I|reflexivity].
  - pose proof (pos_ok_wf _ _ _ _ _ Hp) as Hw.
    destruct (kids_last _ _ Hw) as (a & x & Ek).
    destruct (each_left_sub_ok l lp n a x Hp Hs Hnf Ek) as (ps & E & Hps).
    destruct (last_sub_ok l lp n a x Hp Hs Hnf Ek) as (q & Eq & Hq & Hsq & Hnq).
    exists a, q, x. split.
    { exists ps. split; [exact E|]. split; [auto|].
      pose proof (wf_count_le _ _ _ _ Hw) as Hc. rewrite Ek, lenN_snoc in Hc. exact Hc. }
    split; [exact Eq|]. split; [auto|]. split; [auto|]. split; [auto|].
    rewrite (elems_kids _ _ Hw), Ek. apply flat_snoc.
Qed.

Lemma right_ok l rp n : pos_ok (S l) rp n -> is_sub rp = true -> sh l < 32 -> nsize n <= 2 ^ 32 ->
  exists b q x, side_ok (each_right_sub B BL) l (Some rp) b /\ first_sub B BL l rp = Ok q /\
    pos_ok l q x /\ is_sub q = true /\ elems n = elems x ++ flat_map elems b /\ nsize x <= nsize n.
Proof.
  intros Hp Hs Hsh H32. pose proof (pos_ok_wf _ _ _ _ _ Hp) as Hw.
  destruct (kids_first _ _ Hw) as (x & b & Ek).
  destruct (each_right_sub_ok l rp n x b Hp Hs Ek Hsh H32) as (ps & E & Hps).
  destruct (first_sub_ok l rp n x b Hp Hs Ek) as (q & Eq & Hq & Hsq).
  exists b, q, x. split.
  { exists ps. split; [exact E|]. split; [auto|].
    pose proof (wf_count_le _ _ _ _ Hw) as Hc. rewrite Ek, lenN_cons in Hc. exact Hc. }
  split; [exact Eq|]. split; [auto|]. split; [auto|].
  assert (elems n = elems x ++ flat_map elems b) as Ee by now rewrite (elems_kids _ _ Hw), Ek.
  split; [exact Ee|]. unfold nsize. rewrite Ee, lenN_app. lia.
Qed.

Lemma no_side f v : side_ok f v None [].
Proof.
  exists []. split; [reflexivity|]. split; [constructor|].
  change (lenN (@nil (node T))) with 0. pose proof (width_pos B). lia.
Qed.

Lemma concat_inners_ok fuel l r lp tp rp lels tels rn :
  (S l + S r <= fuel)%nat ->
  lp_ok (S l) lp lels -> tp_ok tp tels -> pos_ok (S r) rp rn -> is_sub rp = true ->
  sh r < 32 -> nsize rn <= 2 ^ 32 ->
  exists c, concat_inners B BL fuel (S l) (S r) lp tp rp = Ok c /\
    center_ok (Nat.max (S l) (S r)) c (lels ++ tels ++ elems rn).
Proof.
  revert l r lp rp lels rn. induction fuel as [|f IH];
    intros l r lp rp lels rn Hf Hl Ht Hr Hsr Hsh H32; [lia|].
  cbn [concat_inners].
  destruct (Nat.ltb_spec r l) as [H1|H1].
  - destruct (left_ok _ _ _ Hl) as (a & q & x & Hside & Eq & Hq & Hsq & Hnq & ->).
    rewrite Eq. cbn [rbind]. destruct l as [|l]; [lia|].
    destruct (IH l r q rp (elems x) rn) as (c & Ec & Hc); auto; [lia|right; eauto|].
    rewrite Ec. cbn [rbind].
    replace (Nat.max (S (S l)) (S r)) with (S (Nat.max (S l) (S r))) by lia.
    replace (Nat.max (S l) (S r)) with (S l) in * by lia.
    destruct (concat_rebalance_ok _ (Some lp) c None a _ [] Hc Hside (no_side _ _)) as (c' & E' & Hc').
    exists c'. split; [exact E'|]. cbn [flat_map] in Hc'. rewrite app_nil_r, !app_assoc in Hc'.
    rewrite !app_assoc. exact Hc'.
  - destruct (right_ok _ _ _ Hr Hsr Hsh H32) as (b & qr & xr & Hrside & Eqr & Hqr & Hsqr & -> & Hxr).
    destruct (Nat.ltb_spec l r) as [H2|H2].
    + rewrite Eqr. cbn [rbind]. destruct r as [|r]; [lia|].
      assert (sh r < 32) by (unfold Rrb.sh in *; lia).
      destruct (IH l r lp qr lels xr) as (c & Ec & Hc); auto; [lia|lia|].
      rewrite Ec. cbn [rbind].
      replace (Nat.max (S l) (S (S r))) with (S (S r)) by lia.
      replace (Nat.max (S l) (S r)) with (S r) in * by lia.
      destruct (concat_rebalance_ok _ None c (Some rp) [] _ b Hc (no_side _ _) Hrside) as (c' & E' & Hc').
      exists c'. split; [exact E'|]. cbn [flat_map app] in Hc'. rewrite <- !app_assoc in Hc'. exact Hc'.
    + assert (r = l) as -> by lia.
      destruct (left_ok _ _ _ Hl) as (a & q & x & Hside & Eq & Hq & Hsq & Hnq & ->).
      rewrite Eq. cbn [rbind]. rewrite Eqr. cbn [rbind].
      rewrite Nat.max_id.
      assert (exists c, match l with O => concat_leafs B BL q tp qr
                        | S _ => concat_inners B BL f l l q tp qr end = Ok c /\
                center_ok l c (elems x ++ tels ++ elems xr)) as (c & Ec & Hc).
      { destruct l as [|l].
        - apply concat_leafs_ok; auto.
        - destruct (IH l l q qr (elems x) xr) as (c & Ec & Hc); auto; [lia|right; eauto| |lia|].
          + unfold Rrb.sh in *; lia.
          + rewrite Nat.max_id in Hc. eauto. }
      rewrite Ec. cbn [rbind].
      destruct (concat_rebalance_ok _ (Some lp) c (Some rp) a _ b Hc Hside Hrside) as (c' & E' & Hc').
      exists c'. split; [exact E'|]. rewrite <- !app_assoc in *. exact Hc'.
Qed.

Hypothesis HB : 2 <= B.

Lemma realize_ok v c els : center_ok (S v) c els ->
  exists l r, realize c = Ok (S l, r) /\ wf (S l) r /\ elems r = els /\ (l = v \/ l = S v).
Proof.
  intros [Hlv Hlen Hwf Hsz Hel Hrel]. unfold realize.
  destruct (N.ltb_spec 1 (lenN (c_nodes c))).
  - rewrite Hlv, Hsz. exists (S v), (Inner (Some (sums 0 (map nsize (c_nodes c)))) (c_nodes c)).
    split; [reflexivity|]. split; [|split; [exact Hel|auto]].
    apply rel_wf_intro; [|exact Hwf].
    assert (2 ^ 2 <= 2 ^ B) by (apply N.pow_le_mono_r; lia). change (2 ^ 2) with 4 in *.
    fold width in *. lia.
  - rewrite Hlv. destruct (c_nodes c) as [|n ns] eqn:En; [change (lenN (@nil (node T))) with 0 in Hlen; lia|].
    assert (ns = []) as -> by (apply lenN_0; rewrite lenN_cons in *; lia).
    specialize (Hrel ltac:(easy)). inversion Hrel as [|? ? R1 R2]; subst. inversion Hwf; subst.
    destruct n as [|[sz|] cs]; cbn in R1; try easy.
    exists v, (Inner (Some sz) cs). split; [reflexivity|]. split; [auto|].
    split; [cbn; now rewrite app_nil_r|auto].
Qed.

Lemma concat_trees_ok lp l tp lels tels rroot rl :
  lp_ok (S l) lp lels -> tp_ok tp tels -> wf (S rl) rroot ->
  sh rl < 32 -> nsize rroot <= 2 ^ 32 ->
  exists h r, concat_trees B BL lp (S l) tp rroot (S rl) (nsize rroot) = Ok (S h, r) /\
    wf (S h) r /\ elems r = lels ++ tels ++ elems rroot /\ (h <= S (Nat.max l rl))%nat.
Proof.
  intros Hl Ht Hw Hsh H32. unfold concat_trees.
  destruct (maybe_relaxed_ok B BL rl rroot Hw) as (q & Eq & Hq & Hsq). rewrite Eq. cbn [rbind].
  destruct (concat_inners_ok (S l + S rl) l rl lp tp q lels tels rroot) as (c & Ec & Hc); auto.
  rewrite Ec. cbn [rbind].
  change (Nat.max (S l) (S rl)) with (S (Nat.max l rl)) in Hc.
  destruct (realize_ok _ _ _ Hc) as (h & r & Er & Hwr & Hel & Hh).
  exists h, r. split; [exact Er|]. split; [auto|]. split; [auto|]. lia.
Qed.

Lemma push_tail_level rt l sz (tl : node T) ts l' r :
  push_tail B BL rt l sz tl ts = Ok (l', r) -> (l <= l' <= S l)%nat.
Proof.
  unfold push_tail. destruct rt as [|[rs|] cs]; [easy| |].
  - destruct (push_tail_node _ _ _ _ _ _) as [[n|]|]; cbn [rbind]; [| |easy].
    + intros [= <- <-]. lia.
    + destruct (_ && _); [|easy]. intros [= <- <-]. lia.
  - destruct (_ =? _); [intros [= <- <-]; lia|]. destruct (0 <? sz); [|intros [= <- <-]; lia].
    destruct (mk_sub _ _ _ _ _) as [p|]; cbn [rbind]; [|easy].
    destruct (push_tail_node _ _ _ _ _ _) as [[n|]|]; cbn [rbind]; [|easy|easy].
    intros [= <- <-]. lia.
Qed.

Lemma concat_ok t r : inv t -> inv r -> sh (lv r) < 32 -> nsize (root r) <= 2 ^ 32 ->
  exists t', concat B BL t r = Ok t' /\ inv t' /\ to_list t' = to_list t ++ to_list r /\
    (lv t' <= S (Nat.max (lv t) (lv r)))%nat.
Proof.
  intros Ht Hr Hsh H32. assert (1 <= B) as HB1 by lia.
  pose proof (tail_offset_ok B BL HB1 t Ht) as Eto. pose proof (tail_offset_ok B BL HB1 r Hr) as Ero.
  pose proof (inv_size _ _ _ Ht) as St. pose proof (inv_size _ _ _ Hr) as Sr.
  unfold concat.
  destruct (N.eqb_spec (size t) 0) as [Zt|Zt].
  { exists r. split; [reflexivity|]. split; [auto|]. split; [|lia].
    rewrite St in Zt. apply lenN_0 in Zt. now rewrite Zt. }
  destruct (N.eqb_spec (size r) 0) as [Zr|Zr].
  { exists t. split; [reflexivity|]. split; [auto|]. split; [|lia].
    rewrite Sr in Zr. apply lenN_0 in Zr. now rewrite Zr, app_nil_r. }
  rewrite Ero. cbn [rbind]. rewrite Eto. cbn [rbind].
  pose proof Ht as (xs & Et & Hts & Htle & Htpos & Htr). fold (root_ok B BL (lv t) (root t)) in Htr.
  pose proof Hr as (ys & Er & Hrs & Hrle & Hrpos & Hrr). fold (root_ok B BL (lv r) (root r)) in Hrr.
  replace (size t - nsize (root t)) with (lenN xs) by lia.
  assert (to_list t = elems (root t) ++ xs) as Lt by (unfold to_list; now rewrite Et).
  assert (to_list r = elems (root r) ++ ys) as Lr by (unfold to_list; now rewrite Er).
  destruct (N.eqb_spec (nsize (root r)) 0) as [Zro|Zro].
  - assert (elems (root r) = []) as Ee by (apply lenN_0; exact Zro).
    rewrite Ee in Lr. cbn [app] in Lr.
    assert (size r = lenN ys) as Sry by lia. rewrite Sry in *.
    destruct (N.eqb_spec (lenN xs) lwidth) as [Fx|Fx].
    + destruct (push_tail_ok B BL HB1 (lv t) (root t) (tail t) (lenN xs)) as (l' & rt & Ep & Hw & Hel & _); auto.
      { rewrite Et. exact Fx. }
      rewrite Ep. cbn [rbind]. apply push_tail_level in Ep.
      rewrite Et in Hel. cbn [elems] in Hel.
      eexists. split; [reflexivity|]. split.
      * rewrite Er. apply inv_intro; [now right| |auto|lia].
        unfold nsize at 1. rewrite Hel, lenN_app. fold (nsize (root t)). lia.
      * split; [|cbn [lv]; lia]. rewrite Lt, Lr. unfold to_list. cbn [root tail]. now rewrite Er, Hel.
    + destruct (N.leb_spec (lenN xs + lenN ys) lwidth) as [Hfit|Hfit].
      * unfold copy_leaf2. rewrite Et, Er. cbn [leaf_of rbind].
        rewrite rtakeN_all by reflexivity. cbn [rbind]. rewrite rtakeN_all by reflexivity. cbn [rbind].
        eexists. split; [reflexivity|]. split.
        -- apply inv_intro; auto; rewrite lenN_app; lia.
        -- split; [|cbn [lv]; lia]. rewrite Lt, Lr. unfold to_list. cbn [root tail elems].
           now rewrite app_assoc.
      * unfold copy_leaf2, copy_leaf_range. rewrite Et, Er. cbn [leaf_of rbind].
        rewrite rtakeN_all by reflexivity. cbn [rbind].
        set (rem := lwidth - lenN xs). rewrite rtakeN_ok by (unfold rem; lia). cbn [rbind].
        assert (lenN (takeN rem ys) = rem) as Hrem by (rewrite lenN_takeN; unfold rem; lia).
        assert (takeN rem ys ++ dropN rem ys = ys) as Hsplit by apply takeN_dropN.
        assert (rsliceN rem (lenN ys) ys = Ok (dropN rem ys)) as ->.
        { rewrite <- Hsplit at 2. apply rsliceN_app_r; [exact Hrem|].
          rewrite lenN_dropN. unfold rem. lia. }
        cbn [rbind].
        destruct (push_tail_ok B BL HB1 (lv t) (root t) (Leaf (xs ++ takeN rem ys)) lwidth)
          as (l' & rt & Ep & Hw & Hel & _); auto.
        { cbn. rewrite lenN_app, Hrem. unfold rem. lia. }
        rewrite Ep. cbn [rbind]. apply push_tail_level in Ep. cbn [elems] in Hel.
        eexists. split; [reflexivity|]. split.
        -- apply inv_intro; [now right| | |].
           ++ unfold nsize at 1. rewrite Hel, !lenN_app, Hrem, lenN_dropN. fold (nsize (root t)).
              unfold rem. lia.
           ++ rewrite lenN_dropN. lia.
           ++ rewrite lenN_dropN. unfold rem. lia.
        -- split; [|cbn [lv]; lia]. rewrite Lt, Lr. unfold to_list. cbn [root tail elems].
           rewrite Hel, <- !app_assoc, Hsplit. reflexivity.
  - assert (wf (S (lv r)) (root r)) as Hwr by (eapply root_pos; eauto; lia).
    destruct (N.eqb_spec (nsize (root t)) 0) as [Zto|Zto].
    + assert (elems (root t) = []) as Ee by (apply lenN_0; exact Zto).
      rewrite Ee in Lt. cbn [app] in Lt.
      destruct (concat_trees_ok (PSingle (tail t) (lenN xs)) O PNone xs [] (root r) (lv r))
        as (h & rt & Ec & Hw & Hel & Hh); auto.
      { left. rewrite Et. split; [reflexivity|]. split; [reflexivity|]. lia. }
      { now left. }
      change (S O) with 1%nat in Ec. rewrite Ec. cbn [rbind]. cbn [app] in Hel.
      eexists. split; [reflexivity|]. split.
      * rewrite Er. apply inv_intro; [now right| |auto|lia].
        unfold nsize at 1. rewrite Hel, lenN_app. fold (nsize (root r)). lia.
      * split; [|cbn [lv]; lia]. rewrite Lt, Lr. unfold to_list. cbn [root tail].
        rewrite Er, Hel, <- app_assoc. reflexivity.
    + assert (wf (S (lv t)) (root t)) as Hwt by (eapply root_pos; eauto; lia).
      destruct (maybe_relaxed_ok B BL (lv t) (root t) Hwt) as (q & Eq & Hq & Hsq). rewrite Eq.
      cbn [rbind]. unfold mk_reg. destruct (N.eqb_spec (lenN xs) 0); [lia|]. cbn [rbind].
      destruct (concat_trees_ok q (lv t) (PReg (tail t) (lenN xs)) (elems (root t)) xs (root r) (lv r))
        as (h & rt & Ec & Hw & Hel & Hh); auto.
      { right. exists (root t). split; [auto|]. split; [auto|]. split; [|reflexivity].
        apply (child_not_full (S (lv t)) (root t) (nsize (root t))). exact Eq. }
      { right. rewrite Et. split; [reflexivity|]. lia. }
      rewrite Ec. cbn [rbind].
      eexists. split; [reflexivity|]. split.
      * rewrite Er. apply inv_intro; [now right| |auto|lia].
        unfold nsize at 1. rewrite Hel, !lenN_app. fold (nsize (root r)). fold (nsize (root t)). lia.
      * split; [|cbn [lv]; lia]. rewrite Lt, Lr. unfold to_list. cbn [root tail].
        rewrite Er, Hel, <- !app_assoc. reflexivity.
Qed.

End Concat.
