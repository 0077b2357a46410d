(** Traversals, regions and iterators see the elements of the tree. *)
From Coq Require Import List NArith ZArith Arith Bool Lia ZifyN ZifyNat ZifyBool.
From Verif Require Import Common NList Rrb RrbInv RrbPos RrbOps RrbSlice RrbTree RrbMerge RrbConcat
  RrbView RrbSpec.
Import ListNotations.
Local Open Scope N_scope.

Set Default Goal Selector "!".

Section ViewOk.
Context {T : Type}.
Variables B BL : N.

Notation sh := (sh B BL).
Notation width := (width B).
Notation lwidth := (lwidth BL).
Notation span := (span B BL).
Notation full := (@full T B BL).
Notation reg := (@reg T B BL).
Notation wf := (@wf T B BL).
Notation pos_ok := (@pos_ok T B BL).
Notation addr := (@addr T B BL).
Notation inv := (@inv T B BL).
Notation vinv := (@vinv T B BL).

(** ** Children of a position *)

Definition posw (l : nat) (ps : list (pos T)) (ns : list (node T)) : Prop :=
  Forall2 (pos_ok l) ps ns.

Lemma posl_posw l ps ns : posl B BL l ps ns -> posw l ps ns.
Proof. induction 1 as [|p n ps ns [Hp _] H IH]; constructor; auto. Qed.
Lemma posw_full l cs : Forall (full l) cs -> posw l (map PFull cs) cs.
Proof. intros H. apply posl_posw. now apply posl_full. Qed.

Lemma kids_count l n : wf (S l) n -> ncount n = lenN (kids n).
Proof. destruct n; [easy|reflexivity]. Qed.

(** The last child of a regular position is viewed with the size of the position. *)
Lemma reg_last l n s p a x : p = PReg n s \/ p = PSub n s ->
  pos_ok (S l) p n -> kids n = a ++ [x] ->
  mk_reg x s = Ok (PReg x s) /\ pos_ok l (PReg x s) x.
Proof.
  intros Hp Hok Ek. pose proof (wf_size _ _ _ _ (pos_ok_wf _ _ _ _ _ Hok)) as Hsz.
  pose proof (pos_ok_wf _ _ _ _ _ Hok) as Hw.
  assert (is_rel n = false) as Hr.
  { destruct Hp as [-> | ->]; inversion Hok; auto. }
  destruct (nonrel_split B BL l n a x [] Hw Hr Ek) as (Hfa & Hrx & _ & _ & Hca & Hn & _).
  pose proof (reg_size_bounds _ _ _ _ Hrx) as Hbx. rewrite (@csize_nil T) in Hn.
  assert (0 < s /\ (s - 1) mod span l + 1 = nsize x) as [Hs E].
  { destruct Hp as [-> | ->]; inversion Hok as [| | |]; subst.
    - split; [auto|]. rewrite <- mod_span_S.
      replace ((s - 1) mod span (S l)) with (lenN a * span l + nsize x - 1) by lia.
      rewrite last_mod by lia. lia.
    - split; [lia|]. replace (nsize n) with (lenN a * span l + nsize x) by lia.
      rewrite last_mod by lia. lia. }
  unfold mk_reg. destruct (N.eqb_spec s 0); [lia|]. split; [reflexivity|].
  constructor; auto; [now apply reg_wf|]. eapply reg_not_rel; eauto.
Qed.

Lemma regular_right_ok l n s p a m x : p = PReg n s \/ p = PSub n s ->
  pos_ok (S l) p n -> kids n = a ++ m ++ [x] ->
  exists ps, regular_right p (kids n) s (lenN a) (lenN a + lenN m) = Ok ps /\ posw l ps (m ++ [x]).
Proof.
  intros Hp Hok Ek. pose proof (pos_ok_wf _ _ _ _ _ Hok) as Hw.
  assert (is_rel n = false) as Hr.
  { destruct Hp as [-> | ->]; inversion Hok; auto. }
  assert (kids n = (a ++ m) ++ [x]) as Ek' by (now rewrite <- app_assoc).
  destruct (reg_last l n s p (a ++ m) x Hp Hok Ek') as [E1 E2].
  destruct (nonrel_split B BL l n (a ++ m) x [] Hw Hr Ek') as (Hfa & _).
  assert (rsliceN (lenN a) (lenN a + lenN m) (kids n) = Ok m) as Es
    by (rewrite Ek; now apply rsliceN_app).
  assert (rnthN (kids n) (lenN a + lenN m) = Ok x) as En
    by (rewrite Ek'; apply rnthN_app; now rewrite lenN_app).
  unfold regular_right. rewrite Es. cbn [rbind]. rewrite En. cbn [rbind]. rewrite E1. cbn [rbind].
  eexists. split; [reflexivity|]. apply Forall2_app.
  - apply posw_full. now apply Forall_app in Hfa as [_ ?].
  - constructor; [auto|constructor].
Qed.

Lemma kids_snoc l n : wf (S l) n -> exists a x, kids n = a ++ [x].
Proof. apply kids_last. Qed.

Lemma each_ok l p n : pos_ok (S l) p n ->
  exists ps, each B BL l p = Ok ps /\ posw l ps (kids n).
Proof.
  intros Hok. pose proof (count_ok _ _ _ _ _ Hok) as Hc.
  pose proof (pos_ok_wf _ _ _ _ _ Hok) as Hw.
  destruct (kids_snoc l n Hw) as (a & x & Ek).
  rewrite (kids_count l n Hw), Ek, lenN_snoc in Hc.
  assert (lenN a + 1 - 1 = lenN (@nil (node T)) + lenN a) as Hl by (cbn; lia).
  inversion Hok; subst; cbn [each].
  - destruct n as [|[] cs]; cbn in H; try easy. cbn [inner_of rbind].
    rewrite rtakeN_all by easy. cbn [rbind]. eexists. split; [reflexivity|].
    now apply posw_full.
  - destruct n as [|r cs]; [easy|]. cbn [inner_of rbind]. rewrite Hc. cbn [rbind].
    rewrite Hl. change 0 with (lenN (@nil (node T))) at 1.
    destruct (regular_right_ok l (Inner r cs) s (PReg (Inner r cs) s) [] a x) as (ps & E & Hps);
      auto.
    cbn [kids] in *. rewrite E. eexists. split; [reflexivity|]. now rewrite Ek.
  - destruct n as [|r cs]; [easy|]. cbn [inner_of rbind]. rewrite Hc. cbn [rbind].
    rewrite Hl. change 0 with (lenN (@nil (node T))) at 1.
    destruct (regular_right_ok l (Inner r cs) (nsize (Inner r cs))
      (PSub (Inner r cs) (nsize (Inner r cs))) [] a x) as (ps & E & Hps); auto.
    cbn [kids] in *. rewrite E. eexists. split; [reflexivity|]. now rewrite Ek.
  - destruct (rel_range_ok B BL l sz cs [] cs [] Hw) as (ps & E & Hps);
      [now rewrite app_nil_r|].
    assert (lenN sz = lenN (@nil (node T)) + lenN cs) as ->.
    { destruct Hw as (_ & _ & ->). rewrite lenN_sums, lenN_map. cbn; lia. }
    exists ps. split; [exact E|]. now apply posl_posw.
Qed.

Lemma each_left_ok l p n a x b : pos_ok (S l) p n -> kids n = a ++ x :: b ->
  exists ps, each_left B BL l p (lenN a) = Ok ps /\ posw l ps a.
Proof.
  intros Hok Ek. pose proof (count_ok _ _ _ _ _ Hok) as Hc.
  pose proof (pos_ok_wf _ _ _ _ _ Hok) as Hw.
  rewrite (kids_count l n Hw), Ek, lenN_app, lenN_cons in Hc.
  inversion Hok; subst; cbn [each_left].
  - destruct n as [|[] cs]; cbn in H; try easy. cbn [kids] in Ek. subst cs. cbn [inner_of rbind].
    rewrite rtakeN_app by reflexivity. cbn [rbind]. eexists. split; [reflexivity|].
    apply posw_full. destruct H as [_ H]. now apply Forall_app in H.
  - rewrite Hc. cbn [rbind]. destruct (N.ltb_spec (lenN a) (lenN a + (lenN b + 1))); [|lia].
    destruct (nonrel_split B BL l n a x b Hw H0 Ek) as (Hfa & _).
    destruct n as [|r cs]; [easy|]. cbn [kids] in Ek. subst cs. cbn [inner_of rbind].
    rewrite rtakeN_app by reflexivity. cbn [rbind]. eexists. split; [reflexivity|].
    now apply posw_full.
  - rewrite Hc. cbn [rbind]. destruct (N.ltb_spec (lenN a) (lenN a + (lenN b + 1))); [|lia].
    destruct (nonrel_split B BL l n a x b Hw H0 Ek) as (Hfa & _).
    destruct n as [|r cs]; [easy|]. cbn [kids] in Ek. subst cs. cbn [inner_of rbind].
    rewrite rtakeN_app by reflexivity. cbn [rbind]. eexists. split; [reflexivity|].
    now apply posw_full.
  - cbn [kids] in Ek. destruct (rel_range_ok B BL l sz cs [] a (x :: b) Hw) as (ps & E & Hps);
      [exact Ek|].
    exists ps. split; [exact E|]. now apply posl_posw.
Qed.

Lemma each_right_ok l p n a x b : pos_ok (S l) p n -> kids n = a ++ x :: b ->
  exists ps, each_right B BL l p (lenN a + 1) = Ok ps /\ posw l ps b.
Proof.
  intros Hok Ek. pose proof (count_ok _ _ _ _ _ Hok) as Hc.
  pose proof (pos_ok_wf _ _ _ _ _ Hok) as Hw.
  rewrite (kids_count l n Hw), Ek, lenN_app, lenN_cons in Hc.
  assert (kids n = (a ++ [x]) ++ b) as Ek' by (now rewrite <- app_assoc).
  inversion Hok; subst; cbn [each_right].
  - destruct n as [|[] cs]; cbn in H; try easy. cbn [kids] in Ek, Ek'. cbn [inner_of rbind].
    destruct H as [H1 H]. rewrite Ek'. rewrite rsliceN_app_r.
    2:{ apply lenN_snoc. }
    2:{ rewrite <- H1, Ek', lenN_app, lenN_snoc. reflexivity. }
    cbn [rbind]. eexists. split; [reflexivity|].
    apply posw_full. rewrite Ek' in H. now apply Forall_app in H.
  - destruct n as [|r cs]; [easy|]. cbn [inner_of rbind]. rewrite Hc. cbn [rbind].
    destruct b as [|y b _] using rev_ind.
    + destruct (N.leb_spec (lenN a + 1) (lenN a + (lenN (@nil (node T)) + 1) - 1)) as [H3|H3].
      1:{ cbn in H3; lia. }
      exists []. split; [reflexivity|constructor].
    + destruct (N.leb_spec (lenN a + 1) (lenN a + (lenN (b ++ [y]) + 1) - 1)) as [H3|H3].
      2:{ rewrite lenN_snoc in H3; lia. }
      destruct (regular_right_ok l (Inner r cs) s (PReg (Inner r cs) s) (a ++ [x]) b y)
        as (ps & E & Hps); auto.
      rewrite lenN_snoc in E. cbn [kids] in E.
      replace (lenN a + (lenN (b ++ [y]) + 1) - 1) with (lenN a + 1 + lenN b)
        by (rewrite lenN_snoc; lia). eauto.
  - destruct n as [|r cs]; [easy|]. cbn [inner_of rbind]. rewrite Hc. cbn [rbind].
    destruct b as [|y b _] using rev_ind.
    + destruct (N.leb_spec (lenN a + 1) (lenN a + (lenN (@nil (node T)) + 1) - 1)) as [H3|H3].
      1:{ cbn in H3; lia. }
      exists []. split; [reflexivity|constructor].
    + destruct (N.leb_spec (lenN a + 1) (lenN a + (lenN (b ++ [y]) + 1) - 1)) as [H3|H3].
      2:{ rewrite lenN_snoc in H3; lia. }
      destruct (regular_right_ok l (Inner r cs) (nsize (Inner r cs))
        (PSub (Inner r cs) (nsize (Inner r cs))) (a ++ [x]) b y) as (ps & E & Hps); auto.
      rewrite lenN_snoc in E. cbn [kids] in E.
      replace (lenN a + (lenN (b ++ [y]) + 1) - 1) with (lenN a + 1 + lenN b)
        by (rewrite lenN_snoc; lia). eauto.
  - cbn [kids] in Ek, Ek'.
    assert (lenN sz = lenN (a ++ [x]) + lenN b) as Hl.
    { destruct Hw as (_ & _ & ->). rewrite lenN_sums, lenN_map, Ek', lenN_app. reflexivity. }
    rewrite Hl. rewrite <- lenN_snoc with (x := x).
    destruct (N.ltb_spec 0 (lenN (a ++ [x]))); [|rewrite lenN_snoc in *; lia].
    destruct (N.leb_spec (lenN (a ++ [x])) (lenN (a ++ [x]) + lenN b)); [|lia]. cbn [andb].
    destruct (rel_range_ok B BL l sz cs (a ++ [x]) b [] Hw) as (ps & E & Hps).
    { now rewrite app_nil_r. }
    exists ps. split; [exact E|]. now apply posl_posw.
Qed.

Lemma each_i_ok l p n a m x b : pos_ok (S l) p n -> kids n = a ++ m ++ x :: b ->
  exists ps, each_i B BL l p (lenN a) (lenN a + lenN m) = Ok ps /\ posw l ps m.
Proof.
  intros Hok Ek. pose proof (count_ok _ _ _ _ _ Hok) as Hc.
  pose proof (pos_ok_wf _ _ _ _ _ Hok) as Hw.
  rewrite (kids_count l n Hw), Ek, !lenN_app, lenN_cons in Hc.
  assert (kids n = (a ++ m) ++ x :: b) as Ek' by (now rewrite <- app_assoc).
  inversion Hok; subst; cbn [each_i].
  - destruct n as [|[] cs]; cbn in H; try easy. cbn [kids] in Ek, Ek'. cbn [inner_of rbind].
    destruct H as [H1 H]. rewrite Ek. rewrite rsliceN_app by reflexivity.
    cbn [rbind]. eexists. split; [reflexivity|].
    apply posw_full. rewrite Ek in H. apply Forall_app in H as [_ H]. now apply Forall_app in H.
  - destruct (nonrel_split B BL l n (a ++ m) x b Hw H0 Ek') as (Hfa & _).
    destruct n as [|r cs]; [easy|]. cbn [inner_of rbind]. rewrite Hc. cbn [rbind kids] in *.
    destruct (N.ltb_spec (lenN a) (lenN a + lenN m)) as [H3|H3].
    + destruct (N.ltb_spec (lenN a + lenN m) (lenN a + (lenN m + (lenN b + 1)))); [|lia].
      rewrite Ek, rsliceN_app by reflexivity. cbn [rbind].
      eexists. split; [reflexivity|]. apply posw_full. now apply Forall_app in Hfa.
    + assert (m = []) as -> by (apply lenN_0; lia). exists []. split; [reflexivity|constructor].
  - destruct (nonrel_split B BL l n (a ++ m) x b Hw H0 Ek') as (Hfa & _).
    destruct n as [|r cs]; [easy|]. cbn [inner_of rbind]. rewrite Hc. cbn [rbind kids] in *.
    destruct (N.ltb_spec (lenN a) (lenN a + lenN m)) as [H3|H3].
    + destruct (N.ltb_spec (lenN a + lenN m) (lenN a + (lenN m + (lenN b + 1)))); [|lia].
      rewrite Ek, rsliceN_app by reflexivity. cbn [rbind].
      eexists. split; [reflexivity|]. apply posw_full. now apply Forall_app in Hfa.
    + assert (m = []) as -> by (apply lenN_0; lia). exists []. split; [reflexivity|constructor].
  - cbn [kids] in Ek. destruct (rel_range_ok B BL l sz cs a m (x :: b) Hw Ek) as (ps & E & Hps).
    exists ps. split; [exact E|]. now apply posl_posw.
Qed.

(** ** Chunks *)

Notation chunks := (@chunks T B BL).
Notation chunks_left := (@chunks_left T B BL).
Notation chunks_right := (@chunks_right T B BL).
Notation chunks_i := (@chunks_i T B BL).

Lemma leaf_pos p n : pos_ok O p n -> exists xs,
  pnode p = Ok (Leaf xs) /\ n = Leaf xs /\ count B BL O p = Ok (lenN xs).
Proof.
  intros H. destruct (wf_leaf _ _ _ (pos_ok_wf _ _ _ _ _ H)) as (xs & -> & Hx).
  exists xs. split; [eapply pos_ok_node; eauto|]. split; [auto|].
  now rewrite (count_ok _ _ _ _ _ H).
Qed.

Lemma chunks_list l ps ns : posw l ps ns ->
  (forall p n, pos_ok l p n -> exists cs, chunks l p = Ok cs /\ List.concat cs = elems n) ->
  exists css, rmap (chunks l) ps = Ok css /\ List.concat (List.concat css) = flat_map elems ns.
Proof.
  intros H IH. induction H as [|p n ps ns Hp H IHl]; [exists []; auto|].
  destruct (IH p n Hp) as (cs & E & Ec). destruct IHl as (css & E' & Ec').
  exists (cs :: css). cbn [rmap flat_map List.concat]. rewrite E. cbn [rbind]. rewrite E'. cbn [rbind].
  split; [reflexivity|]. now rewrite concat_app, Ec, Ec'.
Qed.

Lemma chunks_ok v : forall p n, pos_ok v p n ->
  exists cs, chunks v p = Ok cs /\ List.concat cs = elems n.
Proof.
  induction v as [|l IH]; intros p n Hp; cbn [RrbView.chunks].
  - destruct (leaf_pos p n Hp) as (xs & -> & -> & Hc). cbn [rbind leaf_of]. rewrite Hc. cbn [rbind].
    rewrite rtakeN_all by reflexivity. cbn [rbind]. eexists. split; [reflexivity|].
    cbn. now rewrite app_nil_r.
  - destruct (each_ok l p n Hp) as (ps & -> & Hps). cbn [rbind].
    destruct (chunks_list l ps (kids n) Hps IH) as (css & -> & E). cbn [rbind].
    eexists. split; [reflexivity|]. rewrite E. symmetry.
    eapply elems_kids. eapply pos_ok_wf; eauto.
Qed.

Lemma chunks_listw l ps ns : posw l ps ns ->
  exists css, rmap (chunks l) ps = Ok css /\ List.concat (List.concat css) = flat_map elems ns.
Proof. intros H. apply chunks_list; [auto|]. apply chunks_ok. Qed.

Lemma chunks_left_ok v : forall p n last i, pos_ok v p n -> addr v p last i -> i < nsize n ->
  exists cs, chunks_left v p last = Ok cs /\ List.concat cs = takeN (i + 1) (elems n).
Proof.
  induction v as [|l IH]; intros p n last i Hp Ha Hi; cbn [RrbView.chunks_left].
  - destruct (leaf_index _ _ _ _ _ _ Hp Ha Hi) as (xs & -> & -> & Hx).
    rewrite (pos_ok_node _ _ _ _ _ Hp). cbn [rbind leaf_of].
    rewrite rtakeN_ok by lia. cbn [rbind]. eexists. split; [reflexivity|].
    cbn. now rewrite app_nil_r.
  - destruct (towards_ok _ _ _ _ _ _ _ Hp Ha Hi)
      as (a & c & b & j & Ek & Ei & Hj & Hwc & -> & (q & idx' & Et & Hq & Haq) & _).
    cbn [rbind]. destruct (each_left_ok l p n a c b Hp Ek) as (ps & -> & Hps). cbn [rbind].
    destruct (chunks_listw l ps a Hps) as (css & -> & E). cbn [rbind]. rewrite Et. cbn [rbind].
    destruct (IH q c idx' j Hq Haq Hj) as (ds & -> & Ed). cbn [rbind].
    eexists. split; [reflexivity|]. rewrite concat_app, E, Ed.
    rewrite (elems_kids B BL l n) by (eapply pos_ok_wf; eauto). rewrite Ek, Ei.
    replace (csize a + j + 1) with (csize a + (j + 1)) by lia. rewrite take_flat by lia. reflexivity.
Qed.

Lemma chunks_right_ok v : forall p n first i, pos_ok v p n -> addr v p first i -> i < nsize n ->
  exists cs, chunks_right v p first = Ok cs /\ List.concat cs = dropN i (elems n).
Proof.
  induction v as [|l IH]; intros p n first i Hp Ha Hi; cbn [RrbView.chunks_right].
  - destruct (leaf_index _ _ _ _ _ _ Hp Ha Hi) as (xs & -> & -> & Hx).
    rewrite (pos_ok_node _ _ _ _ _ Hp), (count_ok _ _ _ _ _ Hp). cbn [rbind leaf_of ncount].
    unfold rsliceN. destruct (N.leb_spec i (lenN xs)); [|lia].
    destruct (N.leb_spec (lenN xs) (lenN xs)); [|lia]. cbn [andb rbind].
    eexists. split; [reflexivity|]. cbn. rewrite app_nil_r. apply takeN_all.
    rewrite lenN_dropN. lia.
  - destruct (towards_ok _ _ _ _ _ _ _ Hp Ha Hi)
      as (a & c & b & j & Ek & Ei & Hj & Hwc & -> & (q & idx' & Et & Hq & Haq) & _).
    cbn [rbind]. rewrite Et. cbn [rbind].
    destruct (IH q c idx' j Hq Haq Hj) as (ds & -> & Ed). cbn [rbind].
    destruct (each_right_ok l p n a c b Hp Ek) as (ps & -> & Hps). cbn [rbind].
    destruct (chunks_listw l ps b Hps) as (css & -> & E). cbn [rbind].
    eexists. split; [reflexivity|]. rewrite concat_app, E, Ed.
    rewrite (elems_kids B BL l n) by (eapply pos_ok_wf; eauto). rewrite Ek, Ei.
    rewrite drop_flat by lia. reflexivity.
Qed.

(** The index handed to the child of a fixed offset moves with the index. *)
Lemma towards_move l p n idx a c b q idx' : pos_ok (S l) p n -> kids n = a ++ c :: b ->
  towards B BL l p idx (lenN a) = Ok (q, idx') ->
  match p with
  | PRel _ _ => idx' = idx - csize a /\ size_before B BL (S l) p (lenN a) = Ok (csize a) /\
      forall idx2, towards B BL l p idx2 (lenN a) = Ok (q, idx2 - csize a)
  | _ => idx' = idx /\ forall idx2, towards B BL l p idx2 (lenN a) = Ok (q, idx2)
  end.
Proof.
  intros Hp Ek Et. inversion Hp; subst; cbn [towards] in *.
  - destruct (inner_of n); [|easy]. cbn [rbind] in *. destruct (rnthN _ _); [|easy].
    cbn [rbind] in *. injection Et as <- <-. auto.
  - destruct (inner_of n); [|easy]. cbn [rbind] in *. destruct (rnthN _ _); [|easy].
    cbn [rbind] in *. destruct (count _ _ _ _); [|easy]. cbn [rbind] in *.
    destruct (_ =? _).
    + destruct (mk_reg _ _); [|easy]. cbn [rbind] in *. injection Et as <- <-. auto.
    + injection Et as <- <-. auto.
  - destruct (inner_of n); [|easy]. cbn [rbind] in *. destruct (rnthN _ _); [|easy].
    cbn [rbind] in *. destruct (count _ _ _ _); [|easy]. cbn [rbind] in *.
    destruct (_ =? _).
    + destruct (mk_reg _ _); [|easy]. cbn [rbind] in *. injection Et as <- <-. auto.
    + injection Et as <- <-. auto.
  - cbn [kids] in Ek. pose proof (size_before_ok B BL l _ _ a c b Hp eq_refl Ek) as Hsb.
    rewrite Hsb. cbn [size_before] in Hsb. rewrite Hsb in *. cbn [rbind] in *.
    destruct (inner_of _); [|easy]. cbn [rbind] in *. destruct (rnthN _ _); [|easy].
    cbn [rbind] in *. destruct (rnthN _ _); [|easy]. cbn [rbind] in *.
    destruct (child_pos _ _ _ _ _); [|easy]. cbn [rbind] in *. injection Et as <- <-. auto.
Qed.

Lemma split_order (a b a' b' : list (node T)) c c' i j :
  a ++ c :: b = a' ++ c' :: b' -> j < nsize c' -> csize a + i <= csize a' + j ->
  lenN a <= lenN a'.
Proof.
  intros E Hj Hle. destruct (N.le_gt_cases (lenN a) (lenN a')) as [|Hgt]; [auto|exfalso].
  assert (exists m, a = (a' ++ [c']) ++ m) as [m ->].
  { exists (dropN (lenN a' + 1) a). rewrite <- (takeN_dropN (lenN a' + 1) a) at 1. f_equal.
    rewrite <- (takeN_app_le _ a (c :: b)) by lia. rewrite E.
    replace (a' ++ c' :: b') with ((a' ++ [c']) ++ b') by (now rewrite <- app_assoc).
    rewrite <- (lenN_snoc a' c'). apply takeN_app. }
  rewrite !csize_app, csize_cons in Hle. lia.
Qed.

Lemma flat_slice (a m b : list (node T)) c c' i j : i <= nsize c -> j <= nsize c' ->
  takeN (csize a + nsize c + csize m + j - (csize a + i))
    (dropN (csize a + i) (flat_map elems (a ++ c :: m ++ c' :: b))) =
  dropN i (elems c) ++ flat_map elems m ++ takeN j (elems c').
Proof.
  intros Hi Hj. rewrite drop_flat by auto. rewrite takeN_app_ge.
  2:{ rewrite lenN_dropN. fold (nsize c). lia. }
  f_equal. rewrite lenN_dropN. fold (nsize c).
  replace (csize a + nsize c + csize m + j - (csize a + i) - (nsize c - i)) with (csize m + j)
    by lia.
  now rewrite take_flat.
Qed.

Lemma chunks_i_ok v : forall p n first last i j, pos_ok v p n ->
  addr v p first i -> addr v p (last - 1) j -> first < last -> i <= j -> j < nsize n ->
  exists cs, chunks_i v p first last = Ok cs /\
    List.concat cs = takeN (j + 1 - i) (dropN i (elems n)).
Proof.
  induction v as [|l IH]; intros p n first last i j Hp Ha Hb Hfl Hij Hj;
    cbn [RrbView.chunks_i].
  - destruct (leaf_index _ _ _ _ _ _ Hp Ha ltac:(lia)) as (xs & -> & -> & _).
    destruct (leaf_index _ _ _ _ _ _ Hp Hb Hj) as (xs' & [= <-] & -> & Hx).
    rewrite (pos_ok_node _ _ _ _ _ Hp). cbn [rbind leaf_of].
    destruct (N.ltb_spec first last); [|lia].
    unfold rsliceN. destruct (N.leb_spec i (j + 1)); [|lia].
    destruct (N.leb_spec (j + 1) (lenN xs)); [|lia]. cbn [andb rbind].
    eexists. split; [reflexivity|]. cbn. now rewrite app_nil_r.
  - destruct (N.ltb_spec first last); [|lia].
    pose proof (elems_kids B BL l n (pos_ok_wf _ _ _ _ _ Hp)) as Hel.
    destruct (towards_ok _ _ _ _ _ _ _ Hp Ha ltac:(lia))
      as (a & c & b & i' & Ek & Ei & Hi' & Hwc & -> & (q & idx' & Et & Hq & Haq) & _).
    destruct (towards_ok _ _ _ _ _ _ _ Hp Hb Hj)
      as (a2 & c2 & b2 & j' & Ek2 & Ej & Hj' & Hwc2 & -> & (q2 & idx2 & Et2 & Hq2 & Haq2) & _).
    cbn [rbind].
    assert (lenN a <= lenN a2) as Hle.
    { eapply split_order with (i := i') (j := j'); [rewrite <- Ek; exact Ek2|lia|lia]. }
    destruct (N.eqb_spec (lenN a) (lenN a2)) as [Hl|Hl].
    + assert (a = a2 /\ c :: b = c2 :: b2) as [<- [= <- <-]].
      { apply app_inj_len; [congruence|auto]. }
      rewrite Et. cbn [rbind].
      pose proof (towards_move _ _ _ _ _ _ _ _ _ Hp Ek Et) as Hm.
      assert (exists last', match p with
          | PRel _ _ => ' sbh <- size_before B BL (S l) p (lenN a) ;; chunks_i l q idx' (last - sbh)
          | _ => chunks_i l q idx' last end = chunks_i l q idx' last' /\
        addr l q (last' - 1) j' /\ idx' < last') as (last' & -> & Hal & Hlt).
      { assert (match p with PRel _ _ => first = i /\ last - 1 = j | _ => True end) as Hrel.
        { destruct p; auto. }
        destruct p; try (destruct Hm as [-> Hm]; rewrite Hm in Et2; injection Et2 as <- <-;
          exists last; split; [reflexivity|]; split; [auto|lia]).
        destruct Hm as (-> & -> & Hm). cbn [rbind]. exists (last - csize a).
        rewrite Hm in Et2. injection Et2 as <- <-.
        split; [reflexivity|]. destruct Hrel as [-> Hrel].
        split; [|lia]. replace (last - csize a - 1) with (last - 1 - csize a) by lia. auto. }
      destruct (IH q c idx' last' i' j' Hq Haq Hal Hlt ltac:(lia) Hj') as (cs & -> & E).
      eexists. split; [reflexivity|]. rewrite E, Hel, Ek, Ei, Ej. rewrite drop_flat by lia.
      rewrite takeN_app_le.
      * f_equal. lia.
      * rewrite lenN_dropN. fold (nsize c). lia.
    + destruct (N.ltb_spec (lenN a) (lenN a2)); [|lia].
      assert (exists m, a2 = (a ++ [c]) ++ m /\ b = m ++ c2 :: b2) as (m & -> & ->).
      { exists (dropN (lenN a + 1) a2).
        assert (takeN (lenN a + 1) a2 = a ++ [c]) as E1.
        { rewrite <- (takeN_app_le _ a2 (c2 :: b2)) by lia. rewrite <- Ek2, Ek.
          replace (a ++ c :: b) with ((a ++ [c]) ++ b) by (now rewrite <- app_assoc).
          rewrite <- (lenN_snoc a c). apply takeN_app. }
        split; [rewrite <- E1; symmetry; apply takeN_dropN|].
        rewrite <- (takeN_dropN (lenN a + 1) a2), E1, Ek, <- !app_assoc in Ek2.
        apply app_inv_head in Ek2. now injection Ek2. }
      clear Ek2.
      rewrite Et. cbn [rbind].
      destruct (chunks_right_ok l q c idx' i' Hq Haq Hi') as (cs1 & -> & E1). cbn [rbind].
      assert (kids n = (a ++ [c]) ++ m ++ c2 :: b2) as Ek3 by (rewrite Ek, <- app_assoc; reflexivity).
      destruct (each_i_ok l p n _ m c2 b2 Hp Ek3) as (ps & Eps & Hps).
      rewrite lenN_app. rewrite <- (lenN_snoc a c). rewrite Eps. cbn [rbind].
      destruct (chunks_listw l ps m Hps) as (css & -> & E). cbn [rbind].
      rewrite <- lenN_app, Et2. cbn [rbind].
      destruct (chunks_left_ok l q2 c2 idx2 j' Hq2 Haq2 Hj') as (cs2 & -> & E2). cbn [rbind].
      eexists. split; [reflexivity|]. rewrite !concat_app, E1, E, E2, Hel, Ek, Ei, Ej.
      rewrite !csize_app, csize_cons, (@csize_nil T).
      replace (csize a + (nsize c + 0) + csize m + j' + 1 - (csize a + i')) with
        (csize a + nsize c + csize m + (j' + 1) - (csize a + i')) by lia.
      symmetry. apply flat_slice; lia.
Qed.

(** ** Predicate traversal *)
Section PredOk.
Context {St : Type}.
Variable fn : St -> list T -> St * bool.

Lemma all_pos_ok l : forall ps css s,
  (forall s p cs, chunks l p = Ok cs -> chunks_p B BL fn l s p = Ok (run_until fn s cs)) ->
  rmap (chunks l) ps = Ok css ->
  all_pos (chunks_p B BL fn l) s ps = Ok (run_until fn s (List.concat css)).
Proof.
  induction ps as [|p ps IH]; intros css s H E; cbn [rmap all_pos] in *.
  - injection E as <-. reflexivity.
  - destruct (chunks l p) as [cs|] eqn:Ec; [|easy]. cbn [rbind] in E.
    destruct (rmap (chunks l) ps) as [css'|]; [|easy]. cbn [rbind] in E. injection E as <-.
    rewrite (H s p cs Ec). cbn [rbind List.concat]. rewrite run_until_app.
    destruct (run_until fn s cs) as [s' []]; [|reflexivity]. now apply IH.
Qed.
Lemma chunks_p_ok v : forall s p cs, chunks v p = Ok cs ->
  chunks_p B BL fn v s p = Ok (run_until fn s cs).
Proof.
  induction v as [|l IH]; intros s p cs E; cbn [RrbView.chunks RrbView.chunks_p] in *.
  - destruct (pnode p) as [n|]; [|easy]. cbn [rbind] in *.
    destruct (leaf_of n) as [xs|]; [|easy]. cbn [rbind] in *.
    destruct (count _ _ _ _) as [k|]; [|easy]. cbn [rbind] in *.
    destruct (rtakeN k xs) as [ys|]; [|easy]. cbn [rbind] in *. injection E as <-.
    cbn [run_until]. destruct (fn s ys) as [? []]; reflexivity.
  - destruct (each _ _ _ _) as [ps|]; [|easy]. cbn [rbind] in *.
    destruct (rmap (chunks l) ps) as [css|] eqn:Er; [|easy]. cbn [rbind] in E. injection E as <-.
    now apply all_pos_ok.
Qed.
Lemma chunks_p_left_ok v : forall s p last cs, chunks_left v p last = Ok cs ->
  chunks_p_left B BL fn v s p last = Ok (run_until fn s cs).
Proof.
  induction v as [|l IH]; intros s p last cs E; cbn [RrbView.chunks_left RrbView.chunks_p_left] in *.
  - destruct (pnode p) as [n|]; [|easy]. cbn [rbind] in *.
    destruct (leaf_of n) as [xs|]; [|easy]. cbn [rbind] in *.
    destruct (index _ _ _ _ _) as [k|]; [|easy]. cbn [rbind] in *.
    destruct (rtakeN _ xs) as [ys|]; [|easy]. cbn [rbind] in *. injection E as <-.
    cbn [run_until]. destruct (fn s ys) as [? []]; reflexivity.
  - destruct (index _ _ _ _ _) as [k|]; [|easy]. cbn [rbind] in *.
    destruct (each_left _ _ _ _ _) as [ps|]; [|easy]. cbn [rbind] in *.
    destruct (rmap (chunks l) ps) as [css|] eqn:Er; [|easy]. cbn [rbind] in E.
    destruct (towards _ _ _ _ _ _) as [[q last']|]; [|easy]. cbn [rbind] in *.
    destruct (chunks_left l q last') as [ds|] eqn:Ed; [|easy]. cbn [rbind] in E. injection E as <-.
    rewrite (all_pos_ok l ps css s (chunks_p_ok l) Er). unfold and_then. cbn [rbind].
    rewrite run_until_app. destruct (run_until fn s _) as [s' []]; [|reflexivity]. now apply IH.
Qed.
Lemma chunks_p_right_ok v : forall s p first cs, chunks_right v p first = Ok cs ->
  chunks_p_right B BL fn v s p first = Ok (run_until fn s cs).
Proof.
  induction v as [|l IH]; intros s p first cs E;
    cbn [RrbView.chunks_right RrbView.chunks_p_right] in *.
  - destruct (pnode p) as [n|]; [|easy]. cbn [rbind] in *.
    destruct (leaf_of n) as [xs|]; [|easy]. cbn [rbind] in *.
    destruct (index _ _ _ _ _) as [i|]; [|easy]. cbn [rbind] in *.
    destruct (count _ _ _ _) as [k|]; [|easy]. cbn [rbind] in *.
    destruct (rsliceN _ _ xs) as [ys|]; [|easy]. cbn [rbind] in *. injection E as <-.
    cbn [run_until]. destruct (fn s ys) as [? []]; reflexivity.
  - destruct (index _ _ _ _ _) as [k|]; [|easy]. cbn [rbind] in *.
    destruct (towards _ _ _ _ _ _) as [[q first']|]; [|easy]. cbn [rbind] in *.
    destruct (chunks_right l q first') as [ds|] eqn:Ed; [|easy]. cbn [rbind] in *.
    destruct (each_right _ _ _ _ _) as [ps|]; [|easy]. cbn [rbind] in *.
    destruct (rmap (chunks l) ps) as [css|] eqn:Er; [|easy]. cbn [rbind] in E. injection E as <-.
    rewrite (IH s q first' ds Ed). unfold and_then. cbn [rbind].
    rewrite run_until_app. destruct (run_until fn s _) as [s' []]; [|reflexivity].
    now apply all_pos_ok; [apply chunks_p_ok|].
Qed.
Lemma chunks_p_i_ok v : forall s p first last cs, chunks_i v p first last = Ok cs ->
  chunks_p_i B BL fn v s p first last = Ok (run_until fn s cs).
Proof.
  induction v as [|l IH]; intros s p first last cs E;
    cbn [RrbView.chunks_i RrbView.chunks_p_i] in *.
  - destruct (pnode p) as [n|]; [|easy]. cbn [rbind] in *.
    destruct (leaf_of n) as [xs|]; [|easy]. cbn [rbind] in *.
    destruct (first <? last); [|injection E as <-; reflexivity].
    destruct (index _ _ _ _ first) as [i|]; [|easy]. cbn [rbind] in *.
    destruct (index _ _ _ _ _) as [k|]; [|easy]. cbn [rbind] in *.
    destruct (rsliceN _ _ xs) as [ys|]; [|easy]. cbn [rbind] in *. injection E as <-.
    cbn [run_until]. destruct (fn s ys) as [? []]; reflexivity.
  - destruct (first <? last); [|injection E as <-; reflexivity].
    destruct (index _ _ _ _ first) as [f|]; [|easy]. cbn [rbind] in *.
    destruct (index _ _ _ _ _) as [e|]; [|easy]. cbn [rbind] in *.
    destruct (f =? e).
    + destruct (towards _ _ _ _ _ _) as [[q first']|]; [|easy]. cbn [rbind] in *.
      destruct p; try (now apply IH).
      destruct (size_before _ _ _ _ _) as [sb|]; [|easy]. cbn [rbind] in *. now apply IH.
    + destruct (f <? e); [|easy].
      destruct (towards _ _ _ _ first _) as [[q first']|]; [|easy]. cbn [rbind] in *.
      destruct (chunks_right l q first') as [ds|] eqn:Ed; [|easy]. cbn [rbind] in *.
      destruct (each_i _ _ _ _ _ _) as [ps|]; [|easy]. cbn [rbind] in *.
      destruct (rmap (chunks l) ps) as [css|] eqn:Er; [|easy]. cbn [rbind] in E.
      destruct (towards _ _ _ _ _ _) as [[q' last']|]; [|easy]. cbn [rbind] in *.
      destruct (chunks_left l q' last') as [es|] eqn:Ee; [|easy]. cbn [rbind] in E. injection E as <-.
      rewrite (chunks_p_right_ok l s q first' ds Ed). unfold and_then. cbn [rbind].
      rewrite run_until_app. destruct (run_until fn s ds) as [s1 []]; [|reflexivity].
      rewrite (all_pos_ok l ps css s1 (chunks_p_ok l) Er). cbn [rbind].
      rewrite run_until_app. destruct (run_until fn s1 _) as [s2 []]; [|reflexivity].
      now apply chunks_p_left_ok.
Qed.

Lemma for_each_chunk_p_run t cs s : for_each_chunk B BL t = Ok cs ->
  for_each_chunk_p B BL fn t s = Ok (run_until fn s cs).
Proof.
  unfold for_each_chunk, for_each_chunk_p. destruct (tail_offset BL t) as [toff|]; [|easy].
  cbn [rbind]. intros E.
  destruct (if 0 <? toff then _ else Ok []) as [a|] eqn:Ea; [|easy]. cbn [rbind] in E.
  destruct (mk_sub _ _ _ _ _) as [q|]; [|easy]. cbn [rbind] in *.
  destruct (chunks 0 q) as [b|] eqn:Eb; [|easy]. cbn [rbind] in E. injection E as <-.
  assert ((if 0 <? toff then
      ' p <- maybe_relaxed B BL (S (lv t)) (root t) toff ;; chunks_p B BL fn (S (lv t)) s p
     else Ok (s, true)) = Ok (run_until fn s a)) as ->.
  { destruct (0 <? toff); [|now injection Ea as <-].
    destruct (maybe_relaxed _ _ _ _ _) as [p|]; [|easy]. cbn [rbind] in *. now apply chunks_p_ok. }
  unfold and_then. cbn [rbind]. rewrite run_until_app.
  destruct (run_until fn s a) as [s' []]; [|reflexivity]. now apply chunks_p_ok.
Qed.
Lemma for_each_chunk_p_i_run t f e cs s : for_each_chunk_i B BL t f e = Ok cs ->
  for_each_chunk_p_i B BL fn t f e s = Ok (run_until fn s cs).
Proof.
  unfold for_each_chunk_i, for_each_chunk_p_i. destruct (tail_offset BL t) as [toff|]; [|easy].
  cbn [rbind]. intros E.
  destruct (if f <? toff then _ else Ok []) as [a|] eqn:Ea; [|easy]. cbn [rbind] in E.
  destruct (if toff <? e then _ else Ok []) as [b|] eqn:Eb; [|easy]. cbn [rbind] in E.
  injection E as <-.
  assert ((if f <? toff then
      ' p <- maybe_relaxed B BL (S (lv t)) (root t) toff ;;
      chunks_p_i B BL fn (S (lv t)) s p f (if e <? toff then e else toff)
     else Ok (s, true)) = Ok (run_until fn s a)) as ->.
  { destruct (f <? toff); [|now injection Ea as <-].
    destruct (maybe_relaxed _ _ _ _ _) as [p|]; [|easy]. cbn [rbind] in *. now apply chunks_p_i_ok. }
  unfold and_then. cbn [rbind]. rewrite run_until_app.
  destruct (run_until fn s a) as [s' []]; [|reflexivity].
  destruct (toff <? e); [|now injection Eb as <-].
  destruct (mk_sub _ _ _ _ _) as [q|]; [|easy]. cbn [rbind] in *. now apply chunks_p_i_ok.
Qed.
Lemma vfor_each_chunk_p_run t cs s : vfor_each_chunk B BL t = Ok cs ->
  vfor_each_chunk_p B BL fn t s = Ok (run_until fn s cs).
Proof.
  unfold vfor_each_chunk, vfor_each_chunk_p. generalize (vtail_offset BL t). intros toff. cbn zeta.
  intros E.
  destruct (if 0 <? toff then _ else Ok []) as [a|] eqn:Ea; [|easy]. cbn [rbind] in E.
  destruct (mk_sub _ _ 0 _ _) as [q|]; [|easy]. cbn [rbind] in *.
  destruct (chunks 0 q) as [b|] eqn:Eb; [|easy]. cbn [rbind] in E. injection E as <-.
  assert ((if 0 <? toff then
      ' p <- mk_sub B BL (S (lv t)) (root t) toff ;; chunks_p B BL fn (S (lv t)) s p
     else Ok (s, true)) = Ok (run_until fn s a)) as ->.
  { destruct (0 <? toff); [|now injection Ea as <-].
    destruct (mk_sub _ _ _ _ _) as [p|]; [|easy]. cbn [rbind] in *. now apply chunks_p_ok. }
  unfold and_then. cbn [rbind]. rewrite run_until_app.
  destruct (run_until fn s a) as [s' []]; [|reflexivity]. now apply chunks_p_ok.
Qed.
Lemma vfor_each_chunk_p_i_run t f e cs s : vfor_each_chunk_i B BL t f e = Ok cs ->
  vfor_each_chunk_p_i B BL fn t f e s = Ok (run_until fn s cs).
Proof.
  unfold vfor_each_chunk_i, vfor_each_chunk_p_i. generalize (vtail_offset BL t). intros toff.
  cbn zeta. intros E.
  destruct (if f <? toff then _ else Ok []) as [a|] eqn:Ea; [|easy]. cbn [rbind] in E.
  destruct (if toff <? e then _ else Ok []) as [b|] eqn:Eb; [|easy]. cbn [rbind] in E.
  injection E as <-.
  assert ((if f <? toff then
      ' p <- mk_sub B BL (S (lv t)) (root t) toff ;;
      chunks_p_i B BL fn (S (lv t)) s p f (if e <? toff then e else toff)
     else Ok (s, true)) = Ok (run_until fn s a)) as ->.
  { destruct (f <? toff); [|now injection Ea as <-].
    destruct (mk_sub _ _ _ _ _) as [p|]; [|easy]. cbn [rbind] in *. now apply chunks_p_i_ok. }
  unfold and_then. cbn [rbind]. rewrite run_until_app.
  destruct (run_until fn s a) as [s' []]; [|reflexivity].
  destruct (toff <? e); [|now injection Eb as <-].
  destruct (mk_sub _ _ 0 _ _) as [q|]; [|easy]. cbn [rbind] in *. now apply chunks_p_i_ok.
Qed.
End PredOk.

(** ** Whole containers *)
Section Trees.
Hypothesis HB : 1 <= B.

Lemma tail_pos t : inv t -> exists xs, tail t = Leaf xs /\
  size t - nsize (root t) = lenN xs /\ mk_sub B BL 0 (tail t) (lenN xs) = Ok (PSub (Leaf xs) (lenN xs)) /\
  lenN xs <= lwidth.
Proof.
  intros (xs & Et & Hs & Hle & _). exists xs. split; [auto|]. split; [lia|]. split; [|auto].
  rewrite Et. cbn [Rrb.mk_sub]. destruct (N.leb_spec (lenN xs) lwidth); [reflexivity|lia].
Qed.
Lemma tail_chunks (xs : list T) : chunks 0 (PSub (Leaf xs) (lenN xs)) = Ok [xs].
Proof. cbn. rewrite rtakeN_all by reflexivity. reflexivity. Qed.

Lemma root_wf t : inv t -> 0 < nsize (root t) -> wf (S (lv t)) (root t).
Proof. intros (xs & _ & _ & _ & _ & Hr) H. eapply root_pos; eauto. Qed.

Lemma for_each_chunk_ok t : inv t ->
  exists cs, for_each_chunk B BL t = Ok cs /\ List.concat cs = to_list t.
Proof.
  intros Hi. unfold for_each_chunk. rewrite (tail_offset_ok B BL HB t Hi). cbn [rbind].
  destruct (tail_pos t Hi) as (xs & Et & Es & Em & _). rewrite Es.
  assert (exists cs, (if 0 <? nsize (root t) then
      ' p <- maybe_relaxed B BL (S (lv t)) (root t) (nsize (root t)) ;; chunks (S (lv t)) p
      else Ok []) = Ok cs /\ List.concat cs = elems (root t)) as (cs & -> & E).
  { destruct (N.ltb_spec 0 (nsize (root t))) as [H|H].
    - destruct (maybe_relaxed_ok B BL (lv t) (root t)) as (q & -> & Hq & _); [now apply root_wf|].
      cbn [rbind]. now apply chunks_ok.
    - exists []. split; [reflexivity|]. assert (lenN (elems (root t)) = 0) as E by (unfold nsize in H; lia).
      apply lenN_0 in E. now rewrite E. }
  cbn [rbind]. rewrite Em. cbn [rbind]. rewrite tail_chunks. cbn [rbind].
  eexists. split; [reflexivity|]. rewrite concat_app, E. unfold to_list. rewrite Et. cbn.
  now rewrite app_nil_r.
Qed.

Lemma vfor_each_chunk_eq t : inv t -> is_rel (root t) = false ->
  vfor_each_chunk B BL t = for_each_chunk B BL t.
Proof.
  intros Hi Hr. unfold vfor_each_chunk, for_each_chunk.
  rewrite (vtail_offset_ok B BL HB t Hi Hr), (tail_offset_ok B BL HB t Hi). cbn [rbind].
  destruct (N.ltb_spec 0 (nsize (root t))) as [H|H]; [|reflexivity].
  pose proof (root_wf t Hi H) as Hw. destruct (root t) as [|[]]; try easy.
Qed.
Lemma vfor_each_chunk_i_eq t f e : inv t -> is_rel (root t) = false ->
  vfor_each_chunk_i B BL t f e = for_each_chunk_i B BL t f e.
Proof.
  intros Hi Hr. unfold vfor_each_chunk_i, for_each_chunk_i.
  rewrite (vtail_offset_ok B BL HB t Hi Hr), (tail_offset_ok B BL HB t Hi). cbn [rbind].
  destruct (N.ltb_spec f (nsize (root t))) as [H|H]; [|reflexivity].
  pose proof (root_wf t Hi ltac:(lia)) as Hw. destruct (root t) as [|[]]; try easy.
Qed.

Lemma leaf_chunks_i (xs : list T) f e : lenN xs <= lwidth -> f <= e <= lenN xs ->
  exists cs, chunks_i 0 (PSub (Leaf xs) (lenN xs)) f e = Ok cs /\
    List.concat cs = takeN (e - f) (dropN f xs).
Proof.
  intros Hl He. destruct (N.ltb_spec f e) as [H|H].
  - destruct (chunks_i_ok 0 (PSub (Leaf xs) (lenN xs)) (Leaf xs) f e f (e - 1)) as (cs & E & Ec);
      rewrite ?nsize_leaf; try lia.
    + constructor; [cbn; lia|reflexivity|reflexivity].
    + cbn. apply N.mod_small. rewrite span_0. lia.
    + cbn. apply N.mod_small. rewrite span_0. lia.
    + exists cs. split; [auto|]. rewrite Ec. cbn [elems]. f_equal. lia.
  - exists []. cbn. destruct (N.ltb_spec f e); [lia|]. split; [reflexivity|].
    replace (e - f) with 0 by lia. reflexivity.
Qed.

Lemma slice_app (a b : list T) f e : f <= e ->
  takeN (e - f) (dropN f (a ++ b)) =
  takeN (N.min e (lenN a) - f) (dropN f a) ++
  takeN (e - lenN a - (f - lenN a)) (dropN (f - lenN a) b).
Proof.
  intros H. destruct (N.le_gt_cases (lenN a) f) as [H1|H1].
  - rewrite dropN_app_ge by auto. rewrite (dropN_all f a) by auto.
    replace (N.min e (lenN a) - f) with 0 by lia. cbn [app]. rewrite takeN_0. cbn [app].
    f_equal. lia.
  - rewrite dropN_app_le by lia. replace (f - lenN a) with 0 by lia. rewrite dropN_0.
    destruct (N.le_gt_cases e (lenN a)) as [H2|H2].
    + rewrite takeN_app_le by (rewrite lenN_dropN; lia).
      replace (e - lenN a - 0) with 0 by lia. rewrite takeN_0, app_nil_r. f_equal. lia.
    + rewrite takeN_app_ge by (rewrite lenN_dropN; lia). rewrite lenN_dropN.
      rewrite (takeN_all (N.min e (lenN a) - f)) by (rewrite lenN_dropN; lia).
      f_equal. f_equal. lia.
Qed.

Lemma for_each_chunk_i_ok t f e : inv t -> f <= e <= size t ->
  exists cs, for_each_chunk_i B BL t f e = Ok cs /\
    List.concat cs = takeN (e - f) (dropN f (to_list t)).
Proof.
  intros Hi He. unfold for_each_chunk_i. rewrite (tail_offset_ok B BL HB t Hi). cbn [rbind].
  destruct (tail_pos t Hi) as (xs & Et & Es & Em & Hx).
  pose proof (inv_size _ _ _ Hi) as Hsz. unfold to_list in Hsz.
  rewrite lenN_app, Et in Hsz. cbn [elems] in Hsz. fold (nsize (root t)) in Hsz.
  assert (exists cs, (if f <? nsize (root t) then
      ' p <- maybe_relaxed B BL (S (lv t)) (root t) (nsize (root t)) ;;
      chunks_i (S (lv t)) p f (if e <? nsize (root t) then e else nsize (root t))
      else Ok []) = Ok cs /\
      List.concat cs = takeN (N.min e (nsize (root t)) - f) (dropN f (elems (root t))))
    as (cs & -> & E).
  { destruct (N.ltb_spec f (nsize (root t))) as [H|H].
    - replace (if e <? nsize (root t) then e else nsize (root t)) with (N.min e (nsize (root t))).
      2:{ destruct (N.ltb_spec e (nsize (root t))); lia. }
      destruct (maybe_relaxed_ok B BL (lv t) (root t)) as (q & -> & Hq & _); [apply root_wf; auto; lia|].
      cbn [rbind]. set (e' := N.min e (nsize (root t))) in *.
      destruct (N.ltb_spec f e') as [H3|H3].
      + destruct (chunks_i_ok (S (lv t)) q (root t) f e' f (e' - 1)) as (cs & E & Ec);
          auto; try lia.
        * eapply addr_refl; eauto.
        * eapply addr_refl; eauto. lia.
        * exists cs. split; [auto|]. rewrite Ec. f_equal. lia.
      + exists []. cbn [RrbView.chunks_i]. destruct (N.ltb_spec f e'); [lia|].
        split; [reflexivity|]. replace (e' - f) with 0 by lia. reflexivity.
    - exists []. split; [reflexivity|]. replace (N.min e (nsize (root t)) - f) with 0 by lia.
      reflexivity. }
  cbn [rbind].
  assert (exists ds, (if nsize (root t) <? e then
      ' q <- mk_sub B BL 0 (tail t) (size t - nsize (root t)) ;;
      chunks_i 0 q (if nsize (root t) <? f then f - nsize (root t) else 0) (e - nsize (root t))
      else Ok []) = Ok ds /\
      List.concat ds = takeN (e - nsize (root t) - (f - nsize (root t)))
        (dropN (f - nsize (root t)) xs)) as (ds & -> & E').
  { destruct (N.ltb_spec (nsize (root t)) e) as [H|H].
    - rewrite Es, Em. cbn [rbind].
      replace (if nsize (root t) <? f then f - nsize (root t) else 0) with (f - nsize (root t)).
      2:{ destruct (N.ltb_spec (nsize (root t)) f); lia. }
      apply leaf_chunks_i; lia.
    - exists []. split; [reflexivity|].
      replace (e - nsize (root t) - (f - nsize (root t))) with 0 by lia. reflexivity. }
  cbn [rbind]. eexists. split; [reflexivity|]. rewrite concat_app, E, E'.
  unfold to_list. rewrite Et. cbn [elems]. symmetry. apply (slice_app (elems (root t)) xs f e). lia.
Qed.

(** ** Regions and iterators *)

Lemma region_ok v : forall p n idx i, pos_ok v p n -> addr v p idx i -> i < nsize n ->
  exists A xs Z i0, region B BL v p idx = Ok (Leaf xs, i0, lenN xs) /\
    elems n = A ++ xs ++ Z /\ i = lenN A + i0 /\ i0 < lenN xs.
Proof.
  induction v as [|l IH]; intros p n idx i Hp Ha Hi; cbn [region].
  - destruct (leaf_index _ _ _ _ _ _ Hp Ha Hi) as (xs & -> & -> & Hx).
    rewrite (pos_ok_node _ _ _ _ _ Hp), (count_ok _ _ _ _ _ Hp). cbn [rbind ncount].
    exists [], xs, [], i. split; [reflexivity|]. split; [cbn; now rewrite app_nil_r|].
    cbn. lia.
  - destruct (towards_ok _ _ _ _ _ _ _ Hp Ha Hi)
      as (a & c & b & j & Ek & Ei & Hj & Hwc & -> & (q & idx' & Et & Hq & Haq) & _).
    cbn [rbind]. rewrite Et. cbn [rbind].
    destruct (IH q c idx' j Hq Haq Hj) as (A & xs & Z & i0 & -> & Ee & Ej & Hi0).
    exists (flat_map elems a ++ A), xs, (Z ++ flat_map elems b), i0. split; [reflexivity|].
    rewrite (elems_kids B BL l n) by (eapply pos_ok_wf; eauto). rewrite Ek.
    split; [rewrite flat_map_app; cbn [flat_map]; rewrite Ee, <- !app_assoc; reflexivity|].
    split; [|auto]. rewrite lenN_app, lenN_flat. lia.
Qed.

(** A cached region describes a run of the elements. *)
Definition region_of (t : tree T) (r : node T * N * N) : Prop :=
  exists A xs Z, r = (Leaf xs, lenN A, lenN A + lenN xs) /\ to_list t = A ++ xs ++ Z.

Lemma region_for_ok t i : inv t -> i < size t ->
  exists xs f, region_for B BL t i = Ok (Leaf xs, f, f + lenN xs) /\
    region_of t (Leaf xs, f, f + lenN xs) /\ f <= i < f + lenN xs.
Proof.
  intros Hi Hlt. unfold region_for. rewrite (tail_offset_ok B BL HB t Hi). cbn [rbind].
  destruct (tail_pos t Hi) as (xs & Et & Es & Em & Hx).
  pose proof Hi as (xs' & Et' & Hs & _). rewrite Et in Et'. injection Et' as <-.
  destruct (N.leb_spec (nsize (root t)) i) as [H|H].
  - exists xs, (nsize (root t)). rewrite Et, Hs. split; [reflexivity|].
    split; [|lia]. exists (elems (root t)), xs, []. unfold to_list.
    rewrite Et, app_nil_r. split; reflexivity.
  - destruct (maybe_relaxed_ok B BL (lv t) (root t)) as (q & -> & Hq & _); [apply root_wf; auto; lia|].
    cbn [rbind].
    destruct (region_ok (S (lv t)) q (root t) i i Hq) as (A & ys & Z & i0 & -> & Ee & Ei & Hi0);
      [eapply addr_refl; eauto|auto|]. cbn [rbind].
    destruct (N.leb_spec i0 i); [|lia].
    exists ys, (i - i0). split; [reflexivity|]. split; [|lia].
    exists A, ys, (Z ++ xs). replace (i - i0) with (lenN A) by lia. split; [reflexivity|].
    unfold to_list. rewrite Et, Ee, <- !app_assoc. reflexivity.
Qed.

Lemma region_read t xs f e i : region_of t (Leaf xs, f, e) -> f <= i < e ->
  rnthN xs (i - f) = rnthN (to_list t) i.
Proof.
  intros (A & xs' & Z & [= <- -> ->] & E) Hi. rewrite E, rnthN_app2 by lia.
  now rewrite rnthN_app1 by lia.
Qed.

Definition iter_ok (t : tree T) (it : iter) : Prop :=
  it_i it <= size t /\ match it_curr it with None => True | Some r => region_of t r end.

Lemma it_deref_ok t it : inv t -> iter_ok t it -> it_i it < size t ->
  exists x it', it_deref B BL t it = Ok (x, it') /\ rnthN (to_list t) (it_i it) = Ok x /\
    iter_ok t it' /\ it_i it' = it_i it.
Proof.
  intros Hi [Hle Hc] Hlt. unfold it_deref.
  assert (exists x, rnthN (to_list t) (it_i it) = Ok x) as (x & Ex).
  { rewrite (inv_size _ _ _ Hi) in Hlt. destruct (splitN _ _ Hlt) as (A & x & Z & E & HA).
    exists x. rewrite E. now apply rnthN_app. }
  assert (forall xs f e, region_of t (Leaf xs, f, e) -> f <= it_i it < e ->
    exists x0 it', (' (n, f, _) <- Ok (Leaf xs, f, e) ;; ' xs <- leaf_of n ;;
      ' x <- rnthN xs (it_i it - f) ;;
      Ok (x, mkIter (it_i it) (Some (Leaf xs, f, e)))) = Ok (x0, it') /\
      rnthN (to_list t) (it_i it) = Ok x0 /\ iter_ok t it' /\ it_i it' = it_i it) as Hread.
  { intros xs f e Hr Hb. cbn [rbind leaf_of]. rewrite (region_read t xs f e) by auto.
    rewrite Ex. cbn [rbind]. exists x. eexists. split; [reflexivity|]. split; [auto|].
    split; [|reflexivity]. split; cbn; auto. }
  destruct (it_curr it) as [[[n f] e]|] eqn:Ec.
  - destruct ((it_i it <? f) || (e <=? it_i it)) eqn:Est.
    + destruct (region_for_ok t (it_i it) Hi Hlt) as (xs & f' & -> & Hr & Hb).
      destruct (Hread xs f' _ Hr Hb) as (x0 & it' & E & H1). exists x0, it'.
      split; [exact E|exact H1].
    + pose proof Hc as (A & xs & Z & [= -> -> ->] & _).
      destruct (Hread xs _ _ Hc) as (x0 & it' & E & H1); [lia|]. exists x0, it'.
      split; [exact E|exact H1].
  - destruct (region_for_ok t (it_i it) Hi Hlt) as (xs & f' & -> & Hr & Hb).
    destruct (Hread xs f' _ Hr Hb) as (x0 & it' & E & H1). exists x0, it'.
    split; [exact E|exact H1].
Qed.

(** The vector iterator: the leaf found depends only on the base of the index. *)
Lemma land_base l i j : i / lwidth = j / lwidth ->
  N.land (N.shiftr i (sh l)) (mask B) = N.land (N.shiftr j (sh l)) (mask B).
Proof.
  intros H. f_equal. rewrite !N.shiftr_div_pow2. unfold Rrb.sh. rewrite N.pow_add_r.
  rewrite <- !N.div_div by apply pow2_ne. unfold Rrb.lwidth in H. now rewrite H.
Qed.
Lemma leaf_regular_base v : forall (n : node T) i j, i / lwidth = j / lwidth ->
  leaf_regular B BL v n i = leaf_regular B BL v n j.
Proof.
  induction v as [|l IH]; intros n i j H; cbn [leaf_regular]; [reflexivity|].
  destruct (inner_of n) as [cs|]; [|reflexivity]. cbn [rbind]. rewrite (land_base l i j H).
  destruct (rnthN cs _); [|reflexivity]. cbn [rbind]. now apply IH.
Qed.
Lemma leaf_regular_get v : forall (n : node T) i,
  get_regular B BL v n i =
  (' n' <- leaf_regular B BL v n i ;; ' xs <- leaf_of n' ;; rnthN xs (N.land i (lmask BL))).
Proof.
  induction v as [|l IH]; intros n i; cbn [leaf_regular get_regular]; [reflexivity|].
  destruct (inner_of n) as [cs|]; [|reflexivity]. cbn [rbind].
  destruct (rnthN cs _); [|reflexivity]. cbn [rbind]. apply IH.
Qed.

(** [n] is the leaf holding every index of base [b]. *)
Definition base_of (t : tree T) (b : N) (n : node T) : Prop :=
  exists xs, n = Leaf xs /\ forall j, j < size t -> j / lwidth * lwidth = b ->
    rnthN xs (N.land j (lmask BL)) = rnthN (to_list t) j.

Lemma varray_for_ok t i : vinv t -> (lv t < 6)%nat -> i < size t ->
  exists n, varray_for B BL t i = Ok n /\ base_of t (i / lwidth * lwidth) n.
Proof.
  intros Hv Hl Hlt. pose proof Hv as (Hi & Hrel & _).
  pose proof Hi as (xs & Et & Hs & Hle & Hpos & Hr).
  pose proof (lwidth_pos BL) as Hlw.
  assert (exists k, nsize (root t) = k * lwidth) as [k Hk].
  { apply N.mod_divide; [lia|]. destruct Hr as [[-> _]|Hw].
    - rewrite (@nsize_empty_root T). apply N.mod_0_l. lia.
    - eapply reg_dvd. eapply wf_nonrel_reg; eauto. }
  assert (forall j, j < size t -> j / lwidth * lwidth = i / lwidth * lwidth ->
    varray_for B BL t j = varray_for B BL t i /\
    (' n <- varray_for B BL t j ;; ' ys <- leaf_of n ;; rnthN ys (N.land j (lmask BL))) =
    rnthN (to_list t) j) as Hbase.
  { intros j Hj Hij. assert (j / lwidth = i / lwidth) as Hd.
    { clear - Hij Hlw. apply N.mul_cancel_r in Hij; lia. }
    rewrite <- (vget_ok B BL HB) by auto. unfold varray_for, vget. rewrite (vtail_offset_ok B BL HB t Hi Hrel).
    assert ((nsize (root t) <=? j) = (nsize (root t) <=? i)) as Hsame.
    { rewrite Hk. apply Bool.eq_iff_eq_true. rewrite !N.leb_le.
      assert (forall x, k * lwidth <= x <-> k <= x / lwidth) as Hx.
      { intros x. split; intros H.
        - apply N.div_le_lower_bound; lia.
        - pose proof (N.mul_div_le x lwidth). nia. }
      now rewrite !Hx, Hd. }
    rewrite Hsame. destruct (nsize (root t) <=? i) eqn:Ei.
    - split; [reflexivity|]. cbn [rbind get_regular]. reflexivity.
    - destruct (Nat.ltb_spec (lv t) 6); [|lia]. split; [now apply leaf_regular_base|].
      symmetry. apply leaf_regular_get. }
  destruct (Hbase i Hlt eq_refl) as [_ Hget].
  assert (exists x, rnthN (to_list t) i = Ok x) as (x & Ex).
  { rewrite (inv_size _ _ _ Hi) in Hlt. destruct (splitN _ _ Hlt) as (A & x & Z & E & HA).
    exists x. rewrite E. now apply rnthN_app. }
  rewrite Ex in Hget. destruct (varray_for B BL t i) as [n|] eqn:En; [|easy]. cbn [rbind] in Hget.
  destruct n as [ys|]; [|easy]. cbn [rbind leaf_of] in Hget.
  exists (Leaf ys). split; [reflexivity|]. exists ys. split; [reflexivity|].
  intros j Hj Hij. destruct (Hbase j Hj Hij) as [E1 E2]. rewrite E1 in E2. exact E2.
Qed.

Definition viter_ok (t : tree T) (it : viter) : Prop :=
  vi_i it <= size t /\ match vi_curr it with None => True | Some (b, n) => base_of t b n end.

Lemma vi_deref_ok t it : vinv t -> (lv t < 6)%nat -> viter_ok t it -> vi_i it < size t ->
  exists x it', vi_deref B BL t it = Ok (x, it') /\ rnthN (to_list t) (vi_i it) = Ok x /\
    viter_ok t it' /\ vi_i it' = vi_i it.
Proof.
  intros Hv Hl [Hle Hc] Hlt. pose proof Hv as (Hi & _). unfold vi_deref.
  assert (N.ldiff (vi_i it) (lmask BL) = vi_i it / lwidth * lwidth) as Hb by apply ldiff_mask.
  rewrite Hb.
  assert (exists x, rnthN (to_list t) (vi_i it) = Ok x) as (x & Ex).
  { rewrite (inv_size _ _ _ Hi) in Hlt. destruct (splitN _ _ Hlt) as (A & x & Z & E & HA).
    exists x. rewrite E. now apply rnthN_app. }
  assert (exists n, (if match vi_curr it with
               | None => true
               | Some (b, _) => negb (b =? vi_i it / lwidth * lwidth)
               end then varray_for B BL t (vi_i it)
        else match vi_curr it with Some (_, n) => Ok n | None => UB end) = Ok n /\
     base_of t (vi_i it / lwidth * lwidth) n) as (n & -> & Hn).
  { destruct (vi_curr it) as [[b n]|].
    - destruct (N.eqb_spec b (vi_i it / lwidth * lwidth)) as [->|H]; cbn [negb].
      + exists n. auto.
      + now apply varray_for_ok.
    - now apply varray_for_ok. }
  cbn [rbind]. pose proof Hn as (xs & -> & Hx). cbn [leaf_of rbind]. rewrite Hx, Ex by auto.
  cbn [rbind]. exists x. eexists. split; [reflexivity|]. split; [auto|]. split; [|reflexivity].
  split; cbn; auto.
Qed.
End Trees.
End ViewOk.
