(** The merger that carries out a rebalancing plan (concat_merger). *)
From Coq Require Import List NArith Arith Bool Lia ZifyN ZifyNat ZifyBool.
From Verif Require Import Common NList Rrb RrbInv RrbPos RrbOps RrbSlice.
Import ListNotations.
Local Open Scope N_scope.

Set Default Goal Selector "!".

Section Merge.
Context {T : Type}.
Variables B BL : N.

Notation width := (width B).
Notation lwidth := (lwidth BL).
Notation wf := (@wf T B BL).
Notation pos_ok := (@pos_ok T B BL).
Notation merger := (@merger T).
Notation parent := (@parent T).

Definition par_ok (q : parent) : Prop :=
  p_sizes q = sums 0 (map nsize (p_kids q)) /\ lenN (p_kids q) <= width.

(** [prod]: the children produced so far. *)
Record minv (cl : nat) (plan : list N) (m : merger) (prod : list (node T)) : Prop := {
  mi_plan : plan = map ncount prod ++ m_curr m;
  mi_prod : flat_map p_kids (m_done m) ++ p_kids (m_par m) = prod;
  mi_done : Forall (fun q => par_ok q /\ lenN (p_kids q) = width) (m_done m);
  mi_par : par_ok (m_par m);
  mi_cap : p_cap (m_par m) = N.min (m_n m) width;
  mi_n : m_n m + width * lenN (m_done m) = lenN plan;
  mi_sizes : m_sizes m = rev (sums 0 (map (fun q => csize (p_kids q)) (m_done m ++ [m_par m])));
  mi_last : 0 < lenN prod -> 0 < lenN (p_kids (m_par m));
  mi_wf : Forall (wf cl) prod }.

Lemma minv_init cl plan : minv cl plan (merger_init B plan) [].
Proof.
  constructor; cbn.
  - reflexivity.
  - reflexivity.
  - constructor.
  - split; [reflexivity|]. cbn. pose proof (width_pos B). lia.
  - reflexivity.
  - lia.
  - reflexivity.
  - change (lenN (@nil (node T))) with 0. lia.
  - constructor.
Qed.

Lemma done_len (ds : list parent) :
  Forall (fun q => par_ok q /\ lenN (p_kids q) = width) ds ->
  lenN (flat_map p_kids ds) = width * lenN ds.
Proof.
  induction 1 as [|q ds [_ Hq] H IH].
  - change (lenN (@nil (node T))) with 0. cbn. lia.
  - cbn [flat_map]. rewrite lenN_app, lenN_cons, IH. lia.
Qed.

Lemma rev_sums_snoc (l : list N) x : exists s ss,
  rev (sums 0 (l ++ [x])) = s :: ss /\ s = sumN l + x /\ ss = rev (sums 0 l).
Proof.
  rewrite sums_app. cbn [sums]. rewrite rev_app_distr. cbn [rev app].
  exists (0 + sumN l + x), (rev (sums 0 l)). repeat split.
Qed.

Lemma last_sizes (cs : list (node T)) : cs <> [] ->
  rnthN (sums 0 (map nsize cs)) (lenN cs - 1) = Ok (csize cs).
Proof.
  intros H. destruct cs as [|c cs] using rev_ind; [easy|]. clear IHcs.
  rewrite map_app, lenN_snoc. cbn [map]. rewrite rnth_sums by (rewrite lenN_map; lia).
  rewrite csize_snoc. unfold csize. f_equal; lia.
Qed.

Lemma add_child_ok cl plan m prod n c curr :
  minv cl plan m prod -> m_curr m = c :: curr -> ncount n = c -> wf cl n ->
  lenN plan <= 3 * width ->
  exists m', add_child B m n (nsize n) = Ok m' /\ minv cl plan m' (prod ++ [n]) /\
    m_curr m' = curr /\ m_to m' = None.
Proof.
  intros [Hplan Hprod Hdone Hpar Hcap Hn Hsz Hlast Hwf] Hcurr Hcnt Hwn H3.
  pose proof (wf_size _ _ _ _ Hwn) as Hns. pose proof (width_pos B) as Hwp.
  assert (lenN prod < lenN plan) as Hpp.
  { rewrite Hplan, Hcurr, lenN_app, lenN_map, lenN_cons. lia. }
  assert (lenN prod = width * lenN (m_done m) + lenN (p_kids (m_par m))) as Hpl.
  { rewrite <- Hprod, lenN_app, (done_len _ Hdone). reflexivity. }
  unfold add_child. destruct (N.eqb_spec (nsize n) 0); [lia|]. rewrite Hcurr.
  rewrite map_app in Hsz. cbn [map] in Hsz.
  destruct (rev_sums_snoc (map (fun q => csize (p_kids q)) (m_done m)) (csize (p_kids (m_par m))))
    as (s & ss & Ess & Hs & Hss).
  rewrite Ess in Hsz. rewrite Hsz.
  destruct Hpar as [Hps Hpw].
  destruct (N.eqb_spec (lenN (p_kids (m_par m))) width) as [Efull|Enf].
  - (* a new parent *)
    assert (lenN (m_done m) + 1 < 3) by nia.
    destruct (N.ltb_spec (lenN (m_done m) + 1) 3); [|lia].
    destruct (N.leb_spec width (m_n m)); [|lia]. cbn [andb rbind p_kids p_cap p_sizes].
    change (lenN (@nil (node T))) with 0. cbn [N.eqb rbind app].
    destruct (N.ltb_spec 0 (N.min (m_n m - width) width)); [|lia].
    eexists. split; [reflexivity|]. split; [|split; reflexivity].
    constructor; cbn [m_curr m_done m_par m_n m_sizes p_kids p_sizes p_cap].
    + rewrite map_app. cbn [map]. rewrite Hplan, Hcurr, Hcnt, <- app_assoc. reflexivity.
    + rewrite flat_map_app. cbn [flat_map]. rewrite app_nil_r, Hprod. reflexivity.
    + apply Forall_app. split; [auto|]. constructor; [|constructor]. repeat split; auto.
    + split; [cbn; f_equal; lia|]. cbn. lia.
    + reflexivity.
    + rewrite lenN_snoc. nia.
    + rewrite !map_app. cbn [map p_kids]. rewrite sums_app. cbn [sums].
      rewrite rev_app_distr. cbn [rev app]. rewrite Ess. f_equal.
      rewrite sumN_app, sumN_cons, (@csize_cons T), (@csize_nil T). change (sumN []) with 0. lia.
    + cbn. lia.
    + apply Forall_app. auto.
  - cbn [rbind].
    destruct (N.ltb_spec (lenN (p_kids (m_par m))) (p_cap (m_par m))); [|lia].
    assert ((if lenN (p_kids (m_par m)) =? 0 then Ok 0
             else rnthN (p_sizes (m_par m)) (lenN (p_kids (m_par m)) - 1))
            = Ok (csize (p_kids (m_par m)))) as ->.
    { destruct (N.eqb_spec (lenN (p_kids (m_par m))) 0) as [Z|Z].
      - apply lenN_0 in Z. rewrite Z. reflexivity.
      - rewrite Hps. apply last_sizes. intros E. rewrite E in Z. apply Z. reflexivity. }
    cbn [rbind]. eexists. split; [reflexivity|]. split; [|split; reflexivity].
    constructor; cbn [m_curr m_done m_par m_n m_sizes p_kids p_sizes p_cap].
    + rewrite map_app. cbn [map]. rewrite Hplan, Hcurr, Hcnt, <- app_assoc. reflexivity.
    + rewrite app_assoc, Hprod. reflexivity.
    + auto.
    + split; cbn [p_kids p_sizes].
      * rewrite map_app, sums_app, <- Hps. cbn [map sums]. fold (csize (p_kids (m_par m))).
        do 2 f_equal. lia.
      * rewrite lenN_snoc. lia.
    + auto.
    + auto.
    + rewrite map_app. cbn [map p_kids]. rewrite sums_app. cbn [sums].
      rewrite rev_app_distr. cbn [rev app]. rewrite Hss, csize_snoc. f_equal. lia.
    + rewrite !lenN_snoc. lia.
    + apply Forall_app. auto.
Qed.

(** ** Merging leaves *)

(** The partial leaf being filled. *)
Definition to_leaf (m : merger) (t : list T) : Prop :=
  match m_to m with
  | None => t = []
  | Some n => n = Leaf t /\ t <> [] /\ exists c r, m_curr m = c :: r /\ lenN t < c
  end.

Lemma minv_set_to cl plan m prod to :
  minv cl plan m prod ->
  minv cl plan (mkMerger (m_curr m) (m_n m) (m_done m) (m_par m) (m_sizes m) to) prod.
Proof. intros []. constructor; auto. Qed.

Lemma flat_snoc (a : list (node T)) x : flat_map elems (a ++ [x]) = flat_map elems a ++ elems x.
Proof. rewrite flat_map_app. cbn [flat_map]. now rewrite app_nil_r. Qed.

Lemma merge_leaf_go_ok fuel plan m prod t from R :
  (length from < fuel)%nat -> from <> [] ->
  minv O plan m prod -> to_leaf m t -> lenN plan <= 3 * width ->
  Forall (fun c => 1 <= c <= lwidth) (m_curr m) ->
  lenN t + lenN from + R = sumN (m_curr m) ->
  exists m' prod' t', merge_leaf_go B fuel m from = Ok m' /\ minv O plan m' prod' /\
    to_leaf m' t' /\ flat_map elems prod' ++ t' = flat_map elems prod ++ t ++ from /\
    Forall (fun c => 1 <= c <= lwidth) (m_curr m') /\
    lenN t' + R = sumN (m_curr m').
Proof.
  revert m prod t from. induction fuel as [|f IH]; intros m prod t from Hf Hne Hm Ht H3 Hc Hsum; [lia|].
  cbn [merge_leaf_go].
  assert (0 < lenN from) as Hfp by now apply lenN_pos.
  destruct (m_curr m) as [|c curr] eqn:Ecurr; [change (sumN []) with 0 in Hsum; lia|].
  unfold curr_of. rewrite Ecurr. cbn [rbind].
  assert (match m_to m with None => Ok [] | Some n => leaf_of n end = Ok t /\ lenN t < c) as [-> Htc].
  { unfold to_leaf in Ht. destruct (m_to m) as [n|].
    - destruct Ht as (-> & _ & c' & r & E & Hlt). rewrite Ecurr in E. injection E as <- <-. auto.
    - subst t. split; [reflexivity|]. inversion Hc; subst. change (lenN (@nil T)) with 0. lia. }
  cbn [rbind]. destruct (N.ltb_spec c (lenN t)); [lia|].
  set (k := N.min (lenN from) (c - lenN t)).
  assert (0 < k) as Hk by lia. assert (lenN (takeN k from) = k) as Htk by (rewrite lenN_takeN; lia).
  assert (takeN k from ++ dropN k from = from) as Htd by apply takeN_dropN.
  assert (lenN (t ++ takeN k from) = lenN t + k) as Hlt by (rewrite lenN_app; lia).
  rewrite Hlt. inversion Hc as [|? ? Hcc Hcr]; subst.
  assert (forall m' prod' t'', (match dropN k from with [] => Ok m' | _ => merge_leaf_go B f m' (dropN k from) end
             = merge_leaf_go B f m' (dropN k from) \/ dropN k from = []) ->
           minv O plan m' prod' -> to_leaf m' t'' ->
           flat_map elems prod' ++ t'' = flat_map elems prod ++ t ++ takeN k from ->
           Forall (fun c => 1 <= c <= lwidth) (m_curr m') ->
           lenN t'' + lenN (dropN k from) + R = sumN (m_curr m') ->
           exists m1 prod1 t1,
             match dropN k from with [] => Ok m' | _ => merge_leaf_go B f m' (dropN k from) end = Ok m1 /\
             minv O plan m1 prod1 /\ to_leaf m1 t1 /\
             flat_map elems prod1 ++ t1 = flat_map elems prod ++ t ++ from /\
             Forall (fun c => 1 <= c <= lwidth) (m_curr m1) /\ lenN t1 + R = sumN (m_curr m1)) as Hcont.
  { intros m' prod' t'' _ Hm' Ht' Hfl Hc' Hs'.
    destruct (dropN k from) as [|y ys] eqn:Ed.
    - exists m', prod', t''. split; [reflexivity|]. split; [auto|]. split; [auto|].
      rewrite app_nil_r in Htd. rewrite Htd in Hfl. split; [auto|]. split; [auto|].
      change (lenN (@nil T)) with 0 in Hs'. lia.
    - destruct (IH m' prod' t'' (y :: ys)) as (m1 & p1 & t1 & E1 & E2 & E3 & E4 & E5 & E6); auto; try easy.
      { rewrite <- Ed. unfold dropN. rewrite skipn_length. unfold k, lenN in *. lia. }
      exists m1, p1, t1. split; [exact E1|]. split; [auto|]. split; [auto|].
      split; [|auto]. rewrite E4, <- Htd, !app_assoc. f_equal. rewrite <- app_assoc. exact Hfl. }
  destruct (N.eqb_spec c (lenN t + k)) as [Ec|Ec].
  - assert (wf O (Leaf (t ++ takeN k from))) as Hwl by (cbn; lia).
    destruct (add_child_ok O plan m prod (Leaf (t ++ takeN k from)) c curr Hm Ecurr) as
      (m' & Em & Hm' & Hc' & Hto); auto.
    { cbn [ncount]. lia. }
    rewrite nsize_leaf, Hlt in Em. rewrite Em. cbn [rbind].
    apply (Hcont m' (prod ++ [Leaf (t ++ takeN k from)]) []); auto.
    + destruct (dropN k from); auto.
    + unfold to_leaf. now rewrite Hto.
    + rewrite flat_snoc, app_nil_r. reflexivity.
    + now rewrite Hc'.
    + rewrite Hc', lenN_dropN. change (lenN (@nil T)) with 0. rewrite sumN_cons in Hsum. lia.
  - cbn [rbind].
    apply (Hcont _ prod (t ++ takeN k from)).
    + destruct (dropN k from); auto.
    + rewrite <- Ecurr. apply minv_set_to. exact Hm.
    + cbn. split; [reflexivity|]. split.
      * intros E. apply (f_equal lenN) in E. change (lenN (@nil T)) with 0 in E. lia.
      * exists c, curr. split; [reflexivity|]. lia.
    + reflexivity.
    + cbn [m_curr]. auto.
    + cbn [m_curr]. rewrite lenN_app, lenN_dropN. lia.
Qed.

Lemma merge_leaf_ok plan m prod t p xs R :
  pos_ok O p (Leaf xs) -> is_sub p = true ->
  minv O plan m prod -> to_leaf m t -> lenN plan <= 3 * width ->
  Forall (fun c => 1 <= c <= lwidth) (m_curr m) ->
  lenN t + lenN xs + R = sumN (m_curr m) ->
  exists m' prod' t', merge_leaf B BL m p = Ok m' /\ minv O plan m' prod' /\
    to_leaf m' t' /\ flat_map elems prod' ++ t' = flat_map elems prod ++ t ++ xs /\
    Forall (fun c => 1 <= c <= lwidth) (m_curr m') /\
    lenN t' + R = sumN (m_curr m').
Proof.
  intros Hp Hs Hm Ht H3 Hc Hsum. pose proof (pos_ok_wf _ _ _ _ _ Hp) as Hw.
  assert (0 < lenN xs <= lwidth) as Hx by exact Hw.
  unfold merge_leaf. rewrite (pos_ok_node _ _ _ _ _ Hp). cbn [rbind].
  rewrite (psize_ok _ _ _ _ _ Hp Hs). cbn [rbind].
  rewrite (count_ok _ _ _ _ _ Hp). cbn [rbind leaf_of ncount].
  rewrite nsize_leaf.
  destruct (m_curr m) as [|c curr] eqn:Ecurr; [change (sumN []) with 0 in Hsum; lia|].
  unfold curr_of at 1. rewrite Ecurr. cbn [rbind].
  destruct (N.eqb_spec (lenN xs) 0); [lia|].
  rewrite rtakeN_all by reflexivity. cbn [rbind].
  assert (exists m' prod' t', merge_leaf_go B (S (length xs)) m xs = Ok m' /\ minv O plan m' prod' /\
    to_leaf m' t' /\ flat_map elems prod' ++ t' = flat_map elems prod ++ t ++ xs /\
    Forall (fun c => 1 <= c <= lwidth) (m_curr m') /\
    lenN t' + R = sumN (m_curr m')) as Hgo.
  { apply merge_leaf_go_ok; auto; try (rewrite Ecurr; auto). intros ->. easy. }
  destruct (m_to m) as [n'|] eqn:Eto; [exact Hgo|].
  destruct (N.eqb_spec c (lenN xs)) as [Ec|Ec]; [|exact Hgo].
  unfold to_leaf in Ht. rewrite Eto in Ht. subst t.
  destruct (add_child_ok O plan m prod (Leaf xs) c curr Hm Ecurr) as
      (m' & Em & Hm' & Hc' & Hto); auto.
  rewrite nsize_leaf in Em. rewrite Em. inversion Hc as [|? ? Hcc Hcr]; subst.
  exists m', (prod ++ [Leaf xs]), []. split; [reflexivity|]. split; [auto|].
  split; [unfold to_leaf; now rewrite Hto|].
  split; [rewrite flat_snoc, app_nil_r; reflexivity|].
  split; [auto|]. rewrite sumN_cons in Hsum. change (lenN (@nil T)) with 0 in *. lia.
Qed.

(** ** Merging inner nodes *)

Definition to_inner (m : merger) (ks : list (node T)) : Prop :=
  match m_to m with
  | None => ks = []
  | Some n => n = Inner (Some (sums 0 (map nsize ks))) ks /\ ks <> [] /\
              exists c r, m_curr m = c :: r /\ lenN ks < c
  end.

Lemma merge_inner_go_ok fuel l plan m prod ks p n a rest R :
  pos_ok (S l) p n -> is_sub p = true -> kids n = a ++ rest ->
  (length rest < fuel)%nat -> rest <> [] -> Forall (wf l) ks ->
  minv (S l) plan m prod -> to_inner m ks -> lenN plan <= 3 * width ->
  Forall (fun c => 1 <= c <= width) (m_curr m) ->
  lenN ks + lenN rest + R = sumN (m_curr m) ->
  exists m' prod' ks', merge_inner_go B BL fuel m (S l) p (kids n) (lenN a) (lenN (kids n)) = Ok m' /\
    minv (S l) plan m' prod' /\ Forall (wf l) ks' /\
    to_inner m' ks' /\
    flat_map elems prod' ++ flat_map elems ks'
      = flat_map elems prod ++ flat_map elems ks ++ flat_map elems rest /\
    Forall (fun c => 1 <= c <= width) (m_curr m') /\
    lenN ks' + R = sumN (m_curr m').
Proof.
  intros Hp Hs. revert m prod ks a rest.
  induction fuel as [|f IH]; intros m prod ks a rest Ek Hf Hne Hwk Hm Ht H3 Hc Hsum; [lia|].
  cbn [merge_inner_go].
  assert (0 < lenN rest) as Hfp by now apply lenN_pos.
  destruct (m_curr m) as [|c curr] eqn:Ecurr; [change (sumN []) with 0 in Hsum; lia|].
  unfold curr_of. rewrite Ecurr. cbn [rbind].
  assert (match m_to m with
          | None => Ok ([], []) | Some (Inner (Some sz) ks) => Ok (sz, ks) | Some _ => UB end
          = Ok (sums 0 (map nsize ks), ks) /\ lenN ks < c) as [-> Htc].
  { unfold to_inner in Ht. destruct (m_to m) as [n'|].
    - destruct Ht as (-> & _ & c' & r & E & Hlt). rewrite Ecurr in E. injection E as <- <-. auto.
    - subst ks. split; [reflexivity|]. inversion Hc; subst. change (lenN (@nil (node T))) with 0. lia. }
  cbn [rbind]. destruct (N.ltb_spec c (lenN ks)); [lia|].
  assert (lenN (kids n) = lenN a + lenN rest) as Hlk by (rewrite Ek; apply lenN_app).
  replace (lenN (kids n) - lenN a) with (lenN rest) by lia.
  set (k := N.min (lenN rest) (c - lenN ks)).
  assert (0 < k) as Hk by lia. assert (lenN (takeN k rest) = k) as Htk by (rewrite lenN_takeN; lia).
  assert (takeN k rest ++ dropN k rest = rest) as Htd by apply takeN_dropN.
  assert (kids n = a ++ takeN k rest ++ dropN k rest) as Ek' by now rewrite Htd.
  assert (rsliceN (lenN a) (lenN a + k) (kids n) = Ok (takeN k rest)) as ->.
  { rewrite Ek'. apply rsliceN_app; [reflexivity|lia]. }
  cbn [rbind].
  assert ((if lenN (sums 0 (map nsize ks)) =? 0 then Ok 0 else last_of (sums 0 (map nsize ks)))
          = Ok (csize ks)) as ->.
  { rewrite lenN_sums, lenN_map. destruct (N.eqb_spec (lenN ks) 0) as [Z|Z].
    - apply lenN_0 in Z. now subst ks.
    - apply last_table. intros ->. easy. }
  cbn [rbind]. pose proof (copy_sizes_ok B BL l p n a (takeN k rest) (dropN k rest) (csize ks) Hp Hs Ek') as Ecs.
  rewrite Htk in Ecs. rewrite Ecs. cbn [rbind].
  assert (sums 0 (map nsize ks) ++ sums (csize ks) (map nsize (takeN k rest))
          = sums 0 (map nsize (ks ++ takeN k rest))) as ->.
  { rewrite map_app, sums_app. reflexivity. }
  assert (lenN (ks ++ takeN k rest) = lenN ks + k) as Hlt by (rewrite lenN_app; lia).
  assert (ks ++ takeN k rest <> []) as Hnn.
  { intros E. apply (f_equal lenN) in E. change (lenN (@nil (node T))) with 0 in E. lia. }
  rewrite last_table by exact Hnn. cbn [rbind]. rewrite Hlt.
  assert (Forall (wf l) (ks ++ takeN k rest)) as Hwk'.
  { apply Forall_app. split; [auto|]. pose proof (wf_kids _ _ _ _ (pos_ok_wf _ _ _ _ _ Hp)) as Hk'.
    rewrite Ek' in Hk'. apply Forall_app in Hk' as [_ Hk']. now apply Forall_app in Hk'. }
  inversion Hc as [|? ? Hcc Hcr]; subst.
  assert (forall m' prod' ks'',
           minv (S l) plan m' prod' -> Forall (wf l) ks'' -> to_inner m' ks'' ->
           flat_map elems prod' ++ flat_map elems ks''
             = flat_map elems prod ++ flat_map elems (ks ++ takeN k rest) ->
           Forall (fun c => 1 <= c <= width) (m_curr m') ->
           lenN ks'' + lenN (dropN k rest) + R = sumN (m_curr m') ->
           exists m1 prod1 ks1,
             (if lenN a + k =? lenN (kids n) then Ok m'
              else merge_inner_go B BL f m' (S l) p (kids n) (lenN a + k) (lenN (kids n))) = Ok m1 /\
             minv (S l) plan m1 prod1 /\ Forall (wf l) ks1 /\ to_inner m1 ks1 /\
             flat_map elems prod1 ++ flat_map elems ks1
               = flat_map elems prod ++ flat_map elems ks ++ flat_map elems rest /\
             Forall (fun c => 1 <= c <= width) (m_curr m1) /\
             lenN ks1 + R = sumN (m_curr m1)) as Hcont.
  { intros m' prod' ks'' Hm' Hw'' Ht' Hfl Hc' Hs'.
    assert (flat_map elems rest = flat_map elems (takeN k rest) ++ flat_map elems (dropN k rest)) as Hfr.
    { rewrite <- flat_map_app, Htd. reflexivity. }
    rewrite flat_map_app in Hfl.
    destruct (N.eqb_spec (lenN a + k) (lenN (kids n))) as [Ed|Ed].
    - assert (dropN k rest = []) as Ed' by (apply lenN_0; rewrite lenN_dropN; lia).
      rewrite Ed' in *. exists m', prod', ks''. split; [reflexivity|]. split; [auto|]. split; [auto|].
      split; [auto|]. split; [rewrite Hfl, Hfr; cbn [flat_map]; now rewrite app_nil_r|].
      split; [auto|]. change (lenN (@nil (node T))) with 0 in Hs'. lia.
    - destruct (IH m' prod' ks'' (a ++ takeN k rest) (dropN k rest))
        as (m1 & p1 & k1 & E1 & E2 & E3 & E4 & E5 & E6 & E7); auto.
      { rewrite Ek', app_assoc. reflexivity. }
      { unfold dropN. rewrite skipn_length. unfold k, lenN in *. lia. }
      { apply lenN_pos. rewrite lenN_dropN. lia. }
      rewrite lenN_app, Htk in E1.
      exists m1, p1, k1. split; [exact E1|]. split; [auto|]. split; [auto|]. split; [auto|].
      split; [|auto]. rewrite E5, Hfr, !app_assoc. f_equal. rewrite <- !app_assoc. exact Hfl. }
  destruct (N.eqb_spec c (lenN ks + k)) as [Ec|Ec].
  - set (nn := Inner (Some (sums 0 (map nsize (ks ++ takeN k rest)))) (ks ++ takeN k rest)).
    assert (wf (S l) nn) as Hwl by (apply rel_wf_intro; [lia|auto]).
    assert (nsize nn = csize (ks ++ takeN k rest)) as Hnn' by (subst nn; apply nsize_inner).
    destruct (add_child_ok (S l) plan m prod nn c curr Hm Ecurr) as
      (m' & Em & Hm' & Hc' & Hto); auto.
    { subst nn. cbn [ncount]. lia. }
    rewrite Hnn' in Em. fold nn. rewrite Em. cbn [rbind].
    apply (Hcont m' (prod ++ [nn]) []); auto.
    + unfold to_inner. now rewrite Hto.
    + rewrite flat_snoc. cbn [flat_map]. rewrite app_nil_r. reflexivity.
    + now rewrite Hc'.
    + rewrite Hc', lenN_dropN. change (lenN (@nil (node T))) with 0. rewrite sumN_cons in Hsum. lia.
  - cbn [rbind].
    apply (Hcont _ prod (ks ++ takeN k rest)); auto.
    + rewrite <- Ecurr. apply minv_set_to. exact Hm.
    + cbn. split; [reflexivity|]. split; [auto|].
      exists c, curr. split; [reflexivity|]. lia.
    + cbn [m_curr]. rewrite lenN_app, lenN_dropN. lia.
Qed.

Lemma merge_inner_ok l plan m prod ks p n R :
  pos_ok (S l) p n -> is_sub p = true -> Forall (wf l) ks ->
  minv (S l) plan m prod -> to_inner m ks -> lenN plan <= 3 * width ->
  Forall (fun c => 1 <= c <= width) (m_curr m) ->
  lenN ks + ncount n + R = sumN (m_curr m) ->
  exists m' prod' ks', merge_inner B BL m (S l) p = Ok m' /\
    minv (S l) plan m' prod' /\ Forall (wf l) ks' /\
    to_inner m' ks' /\
    flat_map elems prod' ++ flat_map elems ks'
      = flat_map elems prod ++ flat_map elems ks ++ elems n /\
    Forall (fun c => 1 <= c <= width) (m_curr m') /\
    lenN ks' + R = sumN (m_curr m').
Proof.
  intros Hp Hs Hwk Hm Ht H3 Hc Hsum. pose proof (pos_ok_wf _ _ _ _ _ Hp) as Hw.
  pose proof (wf_size _ _ _ _ Hw) as Hns. pose proof (wf_count_pos _ _ _ _ Hw) as Hcp.
  destruct (wf_inner _ _ _ _ Hw) as (r & cs & En).
  assert (ncount n = lenN (kids n)) as Hnc by now subst n.
  assert (inner_of n = Ok (kids n)) as Ein by now subst n.
  assert (elems n = flat_map elems (kids n)) as Ee by now subst n. clear En.
  unfold merge_inner. rewrite (pos_ok_node _ _ _ _ _ Hp). cbn [rbind].
  rewrite (psize_ok _ _ _ _ _ Hp Hs). cbn [rbind].
  rewrite (count_ok _ _ _ _ _ Hp). cbn [rbind]. rewrite Ein. cbn [rbind].
  destruct (m_curr m) as [|c curr] eqn:Ecurr; [change (sumN []) with 0 in Hsum; lia|].
  unfold curr_of at 1. rewrite Ecurr. cbn [rbind].
  destruct (N.eqb_spec (nsize n) 0); [lia|].
  assert (exists m' prod' ks', merge_inner_go B BL (S (N.to_nat (ncount n))) m (S l) p (kids n) 0 (ncount n) = Ok m' /\
    minv (S l) plan m' prod' /\ Forall (wf l) ks' /\
    to_inner m' ks' /\
    flat_map elems prod' ++ flat_map elems ks'
      = flat_map elems prod ++ flat_map elems ks ++ elems n /\
    Forall (fun c => 1 <= c <= width) (m_curr m') /\
    lenN ks' + R = sumN (m_curr m')) as Hgo.
  { rewrite Hnc, Ee. change 0 with (lenN (@nil (node T))) at 1.
    apply merge_inner_go_ok; auto; try (rewrite Ecurr; auto; lia).
    - unfold lenN. lia.
    - apply lenN_pos. lia. }
  destruct (m_to m) as [n'|] eqn:Eto; [exact Hgo|].
  destruct (N.eqb_spec c (ncount n)) as [Ec|Ec]; [|exact Hgo].
  unfold to_inner in Ht. rewrite Eto in Ht. subst ks.
  destruct (add_child_ok (S l) plan m prod n c curr Hm Ecurr) as
      (m' & Em & Hm' & Hc' & Hto); auto.
  rewrite Em. inversion Hc as [|? ? Hcc Hcr]; subst.
  exists m', (prod ++ [n]), []. split; [reflexivity|]. split; [auto|]. split; [constructor|].
  split; [unfold to_inner; now rewrite Hto|].
  split; [rewrite flat_snoc; cbn [flat_map]; rewrite app_nil_r; reflexivity|].
  split; [auto|]. rewrite sumN_cons in Hsum. change (lenN (@nil (node T))) with 0 in *. lia.
Qed.

(** ** All of them *)

Definition posl (l : nat) (ps : list (pos T)) (ns : list (node T)) : Prop :=
  Forall2 (fun p n => pos_ok l p n /\ is_sub p = true) ps ns.

Lemma merge_all_leaf plan ps ns : posl O ps ns -> forall m prod t,
  minv O plan m prod -> to_leaf m t -> lenN plan <= 3 * width ->
  Forall (fun c => 1 <= c <= lwidth) (m_curr m) ->
  lenN t + sumN (map ncount ns) = sumN (m_curr m) ->
  exists m' prod', merge_all B BL O m ps = Ok m' /\ minv O plan m' prod' /\
    m_to m' = None /\ m_curr m' = [] /\
    flat_map elems prod' = flat_map elems prod ++ t ++ flat_map elems ns.
Proof.
  induction 1 as [|p n ps ns [Hp Hs] H IH]; intros m prod t Hm Ht H3 Hc Hsum.
  - exists m, prod. split; [reflexivity|]. split; [auto|]. cbn in Hsum.
    assert (m_curr m = [] /\ t = []) as [Ec Et].
    { unfold to_leaf in Ht. destruct (m_to m) as [n|].
      - destruct Ht as (_ & _ & c & r & E & Hlt). rewrite E, sumN_cons in Hsum. lia.
      - subst t. split; [|reflexivity]. destruct (m_curr m) as [|c r]; [reflexivity|].
        inversion Hc; subst. rewrite sumN_cons in Hsum. change (lenN (@nil T)) with 0 in *. lia. }
    subst t. unfold to_leaf in Ht. split.
    + destruct (m_to m); [|reflexivity]. destruct Ht as (_ & ? & _). easy.
    + split; [auto|]. cbn. now rewrite app_nil_r.
  - destruct (wf_leaf _ _ _ (pos_ok_wf _ _ _ _ _ Hp)) as (xs & -> & Hx).
    cbn [map ncount] in Hsum. rewrite sumN_cons in Hsum.
    destruct (merge_leaf_ok plan m prod t p xs (sumN (map ncount ns)))
      as (m1 & prod1 & t1 & E & Hm1 & Ht1 & Hfl & Hc1 & Hs1); auto; [lia|].
    cbn [merge_all]. rewrite E. cbn [rbind].
    destruct (IH m1 prod1 t1) as (m' & prod' & E' & Hm' & Hto & Hcur & Hfl'); auto.
    exists m', prod'. split; [exact E'|]. split; [auto|]. split; [auto|]. split; [auto|].
    cbn [flat_map elems]. rewrite Hfl', app_assoc, Hfl, <- !app_assoc. reflexivity.
Qed.

Lemma merge_all_inner l plan ps ns : posl (S l) ps ns -> forall m prod ks,
  minv (S l) plan m prod -> Forall (wf l) ks -> to_inner m ks -> lenN plan <= 3 * width ->
  Forall (fun c => 1 <= c <= width) (m_curr m) ->
  lenN ks + sumN (map ncount ns) = sumN (m_curr m) ->
  exists m' prod', merge_all B BL (S l) m ps = Ok m' /\ minv (S l) plan m' prod' /\
    m_to m' = None /\ m_curr m' = [] /\
    flat_map elems prod' = flat_map elems prod ++ flat_map elems ks ++ flat_map elems ns.
Proof.
  induction 1 as [|p n ps ns [Hp Hs] H IH]; intros m prod ks Hm Hwk Ht H3 Hc Hsum.
  - exists m, prod. split; [reflexivity|]. split; [auto|]. cbn in Hsum.
    assert (m_curr m = [] /\ ks = []) as [Ec Et].
    { unfold to_inner in Ht. destruct (m_to m) as [n|].
      - destruct Ht as (_ & _ & c & r & E & Hlt). rewrite E, sumN_cons in Hsum. lia.
      - subst ks. split; [|reflexivity]. destruct (m_curr m) as [|c r]; [reflexivity|].
        inversion Hc; subst. rewrite sumN_cons in Hsum. change (lenN (@nil (node T))) with 0 in *. lia. }
    subst ks. unfold to_inner in Ht. split.
    + destruct (m_to m); [|reflexivity]. destruct Ht as (_ & ? & _). easy.
    + split; [auto|]. cbn. now rewrite app_nil_r.
  - cbn [map] in Hsum. rewrite sumN_cons in Hsum.
    destruct (merge_inner_ok l plan m prod ks p n (sumN (map ncount ns)))
      as (m1 & prod1 & k1 & E & Hm1 & Hw1 & Ht1 & Hfl & Hc1 & Hs1); auto; [lia|].
    cbn [merge_all]. rewrite E. cbn [rbind].
    destruct (IH m1 prod1 k1) as (m' & prod' & E' & Hm' & Hto & Hcur & Hfl'); auto.
    exists m', prod'. split; [exact E'|]. split; [auto|]. split; [auto|]. split; [auto|].
    cbn [flat_map]. rewrite Hfl', app_assoc, Hfl, <- !app_assoc. reflexivity.
Qed.

(** A well-formed center: one to three nodes one level below the result. *)
Record center_ok (v : nat) (c : @center T) (els : list T) : Prop := {
  co_lv : c_lv c = v;
  co_len : 1 <= lenN (c_nodes c) <= 3;
  co_wf : Forall (wf v) (c_nodes c);
  co_sizes : c_sizes c = sums 0 (map nsize (c_nodes c));
  co_elems : flat_map elems (c_nodes c) = els;
  co_rel : v <> O -> Forall (fun n => is_rel n = true) (c_nodes c) }.

Lemma merge_ok cl ps ns plan :
  posl cl ps ns -> plan <> [] -> lenN plan <= 3 * width ->
  Forall (fun c => 1 <= c <= match cl with O => lwidth | S _ => width end) plan ->
  sumN plan = sumN (map ncount ns) ->
  exists m c, merge_all B BL cl (merger_init B plan) ps = Ok m /\
    merger_finish cl m = Ok c /\ center_ok (S cl) c (flat_map elems ns).
Proof.
  intros Hps Hne H3 Hc Hsum.
  assert (exists m' prod', merge_all B BL cl (merger_init B plan) ps = Ok m' /\
    minv cl plan m' prod' /\ m_to m' = None /\ m_curr m' = [] /\
    flat_map elems prod' = flat_map elems ns) as (m & prod & E & Hm & Hto & Hcur & Hfl).
  { destruct cl as [|l].
    - apply (merge_all_leaf plan ps ns Hps (merger_init B plan) [] []); auto.
      + apply minv_init.
      + reflexivity.
    - apply (merge_all_inner l plan ps ns Hps (merger_init B plan) [] []); auto.
      + apply minv_init.
      + reflexivity. }
  exists m. eexists. split; [exact E|]. unfold merger_finish. rewrite Hto.
  split; [reflexivity|].
  destruct Hm as [Hplan Hprod Hdone Hpar Hcap Hn Hsz Hlast Hwf].
  rewrite Hcur, app_nil_r in Hplan.
  assert (lenN plan = lenN prod) as Hlp by (rewrite Hplan; apply lenN_map).
  assert (0 < lenN plan) as Hpos by now apply lenN_pos.
  assert (0 < lenN (p_kids (m_par m))) as Hkp by (apply Hlast; lia).
  assert (lenN prod = width * lenN (m_done m) + lenN (p_kids (m_par m))) as Hpl.
  { rewrite <- Hprod, lenN_app, (done_len _ Hdone). reflexivity. }
  pose proof (width_pos B) as Hwp.
  assert (Forall (fun q => par_ok q /\ 0 < lenN (p_kids q)) (m_done m ++ [m_par m])) as Hall.
  { apply Forall_app. split; [|constructor; auto].
    eapply Forall_impl; [|exact Hdone]. cbn. intros q [Hq Hl]. split; [auto|lia]. }
  assert (flat_map p_kids (m_done m ++ [m_par m]) = prod) as Hfk.
  { rewrite flat_map_app. cbn [flat_map]. now rewrite app_nil_r. }
  assert (Forall (wf cl) (flat_map p_kids (m_done m ++ [m_par m]))) as Hwk by now rewrite Hfk.
  assert (lenN (m_done m) < 3) by nia.
  constructor; cbn [c_lv c_nodes c_sizes].
  - reflexivity.
  - rewrite lenN_map, lenN_snoc. lia.
  - clear - Hall Hwk. induction Hall as [|q qs [[H1 H2] H3] H IH]; [constructor|].
    cbn [flat_map] in Hwk. apply Forall_app in Hwk as [Hw1 Hw2].
    cbn [map]. constructor; [|auto]. rewrite H1. apply rel_wf_intro; [lia|auto].
  - rewrite Hsz, rev_involutive, map_map. f_equal. apply map_ext. intros q. now rewrite nsize_inner.
  - rewrite <- Hfl, <- Hfk. clear. induction (m_done m ++ [m_par m]) as [|q qs IH]; [reflexivity|].
    cbn [map flat_map]. rewrite flat_map_app, IH. reflexivity.
  - intros _. clear. induction (m_done m ++ [m_par m]) as [|q qs IH]; constructor; auto.
Qed.

End Merge.
