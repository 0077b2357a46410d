(** The merger of the in-place concatenation on leaves: one leaf of the input. *)
From Coq Require Import List NArith Arith Bool Lia ZifyN ZifyNat ZifyBool.
From Verif Require Import Common NList Rrb RrbInv RrbPos RrbOps RrbSlice RrbMerge GcConcat GcPlan GcRep GcAdd.
Import ListNotations.
Local Open Scope N_scope.

Set Default Goal Selector "!".

(** The entries from [fo] on that are still to be taken. *)
Definition rem {A} (fo : N) (b : list A) (sl : list (option A)) : Prop :=
  exists L r, sl = L ++ map Some b ++ r /\ lenN L = fo.
Lemma rem_pre {A} (b : list A) sl : pre b sl -> rem 0 b sl.
Proof. intros (r & ->). exists [], r. split; reflexivity. Qed.
Lemma rem_entries {A} fo (ys b : list A) sl n : rem fo (ys ++ b) sl -> n = lenN ys ->
  entries sl fo (fo + n) = Ok ys.
Proof.
  intros (L & r & -> & Hl) ->. unfold entries. rewrite map_app, <- !app_assoc.
  rewrite (rsliceN_app fo (fo + lenN ys) L (map Some ys)) by (rewrite ?lenN_map; lia).
  cbn [rbind]. apply rmap_got.
Qed.
Lemma rem_blank {A} fo (ys b : list A) sl n : rem fo (ys ++ b) sl -> n = lenN ys ->
  exists sl', write sl fo (blank A n) = Ok sl' /\ rem (fo + n) b sl' /\ lenN sl' = lenN sl.
Proof.
  intros (L & r & -> & Hl) ->. unfold write. rewrite blank_len, map_app, !lenN_app, !lenN_map.
  destruct (N.leb_spec (fo + lenN ys) (lenN L + (lenN ys + lenN b + lenN r))); [|lia].
  eexists. split; [reflexivity|].
  assert (takeN fo (L ++ (map Some ys ++ map Some b) ++ r) = L) as -> by (rewrite <- Hl; apply takeN_app).
  assert (dropN (fo + lenN ys) (L ++ (map Some ys ++ map Some b) ++ r) = map Some b ++ r) as ->.
  { replace (fo + lenN ys) with (lenN (L ++ map Some ys)) by (rewrite lenN_app, lenN_map; lia).
    replace (L ++ (map Some ys ++ map Some b) ++ r) with ((L ++ map Some ys) ++ map Some b ++ r)
      by now rewrite <- !app_assoc. apply dropN_app. }
  split.
  - exists (L ++ blank A (lenN ys)), r. rewrite <- app_assoc. split; [reflexivity|].
    rewrite lenN_app, blank_len. lia.
  - rewrite !lenN_app, blank_len, lenN_map. lia.
Qed.
Lemma write_0 {A} (ys : list A) sl : lenN ys <= lenN sl ->
  exists sl', write sl 0 (map Some ys) = Ok sl' /\ pre ys sl' /\ lenN sl' = lenN sl.
Proof.
  intros H. destruct (write_pre [] ys sl 0) as (sl' & E & P & L & _); [apply pre_nil|reflexivity|lia|].
  exists sl'. auto.
Qed.

Section Leaf.
Variables B BL : N.
Context {T : Type}.
Variable mine : token -> bool.
Notation width := (width B).
Notation lwidth := (lwidth BL).
Notation heap := (gheap T).
Notation rep := (@rep B BL T mine).
Notation ow := (ow mine).
Notation own1 := (own1 mine).
Notation chg := (@chg T mine).
Notation wf := (@wf T B BL).
Notation core := (@core B BL T mine).
Notation step := (@step B BL T mine).

(** ** Moving elements *)
Lemma move_leaf h from to fm o1 sl o2 zs ts ys b fo off n :
  from <> to -> at_ h from o1 (GLeaf sl) -> at_ h to o2 (GLeaf zs) -> ow o2 = true -> pre ts zs ->
  rem fo (ys ++ b) sl -> n = lenN ys -> off = lenN ts -> off + n <= lenN zs -> (fm = true -> ow o1 = true) ->
  exists h' zs' sl', gmove_leaf from fm to fo off n h = Ok (tt, h') /\ length h' = length h /\
    chg h h' (to :: if fm then [from] else []) /\
    at_ h' to o2 (GLeaf zs') /\ pre (ts ++ ys) zs' /\ lenN zs' = lenN zs /\
    at_ h' from o1 (GLeaf sl') /\ rem (fo + n) b sl' /\ lenN sl' = lenN sl.
Proof.
  intros Hne Hf Ht Ho Hp Hr Hn Hoff Hle Hm. unfold gmove_leaf.
  destruct (Nat.eqb_spec from to) as [E|_]; [easy|].
  run (gleaf_ok _ _ _ _ Hf). run (glift_ok _ _ h (rem_entries _ _ _ _ _ Hr Hn)).
  run (gleaf_ok _ _ _ _ Ht).
  destruct (write_pre ts ys zs off Hp) as (zs' & Ew & Hp' & Hl' & _); [auto|lia|].
  run (glift_ok _ _ h Ew). run (gput_leaf_ok _ _ _ _ zs' Ht).
  set (h1 := update_at to (mkG o2 (GLeaf zs')) h).
  assert (chg h h1 [to]) as C1 by (eapply chg_upd; eauto).
  assert (at_ h1 to o2 (GLeaf zs')) as Ht1 by (eapply at_upd; eauto).
  assert (at_ h1 from o1 (GLeaf sl)) as Hf1 by (apply at_upd_ne; auto).
  destruct fm.
  - destruct (rem_blank _ _ _ _ _ Hr Hn) as (sl' & Eb & Hr' & Hls).
    run (glift_ok _ _ h1 Eb). rewrite (gput_leaf_ok _ _ _ _ sl' Hf1).
    eexists _, zs', sl'. split; [reflexivity|]. split; [unfold h1; now rewrite !upd_len|].
    split; [apply (chg_trans mine h h1 _ [to] [from] C1); eapply chg_upd; eauto|].
    split; [apply at_upd_ne; auto|]. split; [auto|]. split; [auto|]. split; [eapply at_upd; eauto|]. auto.
  - exists h1, zs', sl. split; [reflexivity|]. split; [apply upd_len|]. split; [exact C1|].
    split; [auto|]. split; [auto|]. split; [auto|]. split; [auto|]. split; [|auto].
    destruct Hr as (L & r & -> & Hl). exists (L ++ map Some ys), r. rewrite map_app, <- !app_assoc.
    split; [reflexivity|]. rewrite lenN_app, lenN_map. lia.
Qed.
Lemma shift_leaf h from fm o sl ys fo n : at_ h from o (GLeaf sl) -> ow o = true -> rem fo ys sl ->
  n = lenN ys -> 0 < fo ->
  exists h' sl', gmove_leaf from fm from fo 0 n h = Ok (tt, h') /\ length h' = length h /\ chg h h' [from] /\
    at_ h' from o (GLeaf sl') /\ pre ys sl' /\ lenN sl' = lenN sl.
Proof.
  intros Hf Ho Hr Hn Hfo. unfold gmove_leaf. rewrite Nat.eqb_refl.
  destruct (N.eqb_spec fo 0) as [E|_]; [lia|]. unfold no_overlap. destruct (N.ltb_spec 0 fo); [|lia]. cbn [orb].
  rewrite <- (app_nil_r ys) in Hr. run (gleaf_ok _ _ _ _ Hf). run (glift_ok _ _ h (rem_entries _ _ _ _ _ Hr Hn)).
  destruct (rem_blank _ _ _ _ _ Hr Hn) as (s1 & E1 & _ & L1). run (glift_ok _ _ h E1).
  destruct (write_0 ys s1) as (s2 & E2 & P2 & L2).
  { rewrite L1. destruct Hr as (L & r & -> & _). rewrite app_nil_r, !lenN_app, lenN_map. lia. }
  run (glift_ok _ _ h E2). rewrite (gput_leaf_ok _ _ _ _ s2 Hf).
  eexists _, s2. split; [reflexivity|]. split; [apply upd_len|]. split; [eapply chg_upd; eauto|].
  split; [eapply at_upd; eauto|]. split; [auto|]. lia.
Qed.

(** ** Turns of the loop *)
Lemma gturn f ec from fm k fo M (h : heap) cur M1 (h1 : heap) to n (h2 : heap) :
  gcurr M = Ok cur -> gleaf_to BL ec from fm M h = Ok (M1, h1) -> gm_to M1 = Some to -> gm_off M1 <= cur ->
  n = N.min (k - fo) (cur - gm_off M1) -> gmove_leaf from fm to fo (gm_off M1) n h1 = Ok (tt, h2) ->
  gmerge_leaf_go B BL (S f) ec from fm k fo M h =
  (m3 <~ (if cur =? gm_off M1 + n then
            m' <~ gadd_child B ec to (gm_off M1 + n) (set_to M1 (Some to) (gm_off M1 + n) (gm_tosize M1)) ;;
            gret (set_to m' None (gm_off M1 + n) (gm_tosize m'))
          else gret (set_to M1 (Some to) (gm_off M1 + n) (gm_tosize M1))) ;;
   if fo + n =? k then gret m3 else gmerge_leaf_go B BL f ec from fm k (fo + n) m3) h2.
Proof.
  intros Hc Ht Hto Hoff -> Hm. cbn [gmerge_leaf_go]. run (glift_ok _ _ h Hc). run Ht. rewrite Hto.
  destruct (N.ltb_spec cur (gm_off M1)); [lia|]. run Hm. reflexivity.
Qed.
Definition mset (m : @merger T) to := mkMerger (m_curr m) (m_n m) (m_done m) (m_par m) (m_sizes m) to.
Lemma vturn f (m : @merger T) cur curr ts ys b :
  m_curr m = cur :: curr -> match m_to m with None => ts = [] | Some n => n = Leaf ts end ->
  lenN ts <= cur -> lenN ys = N.min (lenN (ys ++ b)) (cur - lenN ts) ->
  merge_leaf_go B (S f) m (ys ++ b) =
  (m' <- (if cur =? lenN (ts ++ ys) then add_child B m (Leaf (ts ++ ys)) (lenN (ts ++ ys))
          else Ok (mset m (Some (Leaf (ts ++ ys))))) ;;
   match b with [] => Ok m' | _ => merge_leaf_go B f m' b end).
Proof.
  intros Hc Ht Hle Hn. cbn [merge_leaf_go]. unfold curr_of. rewrite Hc. cbn [rbind].
  assert (match m_to m with None => Ok [] | Some n => leaf_of n end = Ok ts) as ->.
  { destruct (m_to m); subst; reflexivity. }
  cbn [rbind]. destruct (N.ltb_spec cur (lenN ts)); [lia|]. rewrite <- Hn, takeN_app, dropN_app. unfold mset. rewrite Hc. reflexivity.
Qed.

(** ** Starting a node: the leaf itself, or a new one *)
Lemma start_leaf f ec from fm k fo M h cur o sl ys e :
  gcurr M = Ok cur -> gm_to M = None -> at_ h from o (GLeaf sl) -> fm = owned_by (mkG o (GLeaf sl)) e ->
  mine e = true -> mine ec = true ->
  (ow o = true -> lenN sl = lwidth) -> rem fo ys sl -> k = fo + lenN ys -> lenN ys < cur -> lenN ys <= lwidth ->
  exists a h' o' sl', gmerge_leaf_go B BL (S f) ec from fm k fo M h =
      Ok (set_to M (Some a) (lenN ys) (gm_tosize M), h') /\
    chg h h' (own1 o from) /\
    at_ h' a o' (GLeaf sl') /\ ow o' = true /\ lenN sl' = lwidth /\ pre ys sl' /\
    (forall L, sep (length h) (own1 o from ++ L) -> sep (length h') (a :: L)).
Proof.
  intros Hc Hto Hf Hfm He Hec Hcap Hr Hk Hlt Hlw. destruct fm.
  - destruct (owned_by_ow mine _ _ _ He (eq_sym Hfm)) as [-> Ho].
    assert (own1 (Some e) from = [from]) as E1 by (unfold GcRep.own1; now rewrite Ho).
    set (h1 := update_at from (mkG (Some ec) (GLeaf sl)) h).
    assert (gleaf_to BL ec from true M h = Ok (set_to M (Some from) 0 (gm_tosize M), h1)) as Et.
    { unfold gleaf_to. rewrite Hto. run (gset_owner_ok _ _ _ _ ec Hf). reflexivity. }
    assert (chg h h1 [from]) as C1 by (eapply chg_upd; eauto).
    assert (at_ h1 from (Some ec) (GLeaf sl)) as Hf1 by (eapply at_upd; eauto).
    assert (exists h2 sl', gmove_leaf from true from fo 0 (lenN ys) h1 = Ok (tt, h2) /\ length h2 = length h1 /\
       chg h1 h2 [from] /\ at_ h2 from (Some ec) (GLeaf sl') /\ pre ys sl' /\ lenN sl' = lwidth)
      as (h2 & sl' & Em & L2 & C2 & Hf2 & P2 & W2).
    { destruct (N.eq_dec fo 0) as [->|Hfo].
      - exists h1, sl. split; [unfold gmove_leaf; now rewrite Nat.eqb_refl|]. split; [auto|].
        split; [eapply chg_sub; [apply chg_refl|easy|]|].
        { intros x _ [<-|[]]. eexists. split; [exact Hf1|auto]. }
        split; [auto|]. split; [|auto]. destruct Hr as (L & r & -> & HL). apply lenN_0 in HL. subst. now exists r.
      - destruct (shift_leaf h1 from true (Some ec) sl ys fo (lenN ys)) as (h2 & sl' & E & L & C & A & P & W); auto.
        { lia. }
        exists h2, sl'. split; [auto|]. split; [auto|]. split; [auto|]. split; [auto|]. split; [auto|].
        rewrite W. auto. }
    exists from, h2, (Some ec), sl'. split.
    { rewrite (gturn f ec from true k fo M h cur _ h1 from (lenN ys) h2 Hc Et eq_refl); cbn [set_to gm_off].
      - rewrite N.add_0_l. destruct (N.eqb_spec cur (lenN ys)); [lia|].
        unfold gbind, gret. rewrite <- Hk, N.eqb_refl. reflexivity.
      - lia.
      - lia.
      - exact Em. }
    rewrite E1. split.
    { eapply chg_sub; [eapply chg_trans; [exact C1|exact C2]| |].
      - intros x _ [<-|[<-|[]]]; now left.
      - intros x _ [<-|[]]. eexists; split; eauto. }
    split; [auto|]. split; [auto|]. split; [auto|]. split; [auto|].
    intros L HL. rewrite L2. unfold h1. rewrite upd_len. exact HL.
  - set (h1 := h ++ [mkG (Some ec) (GLeaf (blank T lwidth))]).
    assert (gleaf_to BL ec from false M h = Ok (set_to M (Some (length h)) 0 (gm_tosize M), h1)) as Et.
    { unfold gleaf_to. rewrite Hto. reflexivity. }
    assert (from <> length h) as Hne by (pose proof (at_lt _ _ _ _ Hf); lia).
    rewrite <- (app_nil_r ys) in Hr.
    destruct (move_leaf h1 from (length h) false o sl (Some ec) (blank T lwidth) [] ys [] fo 0 (lenN ys))
      as (h2 & zs & sl' & Em & L2 & C2 & A2 & P2 & W2 & _); auto.
    { apply at_app. auto. } { apply at_new. } { apply pre_nil. } { rewrite blank_len. lia. } { easy. }
    exists (length h), h2, (Some ec), zs. split.
    { rewrite (gturn f ec from false k fo M h cur _ h1 (length h) (lenN ys) h2 Hc Et eq_refl); cbn [set_to gm_off].
      - rewrite N.add_0_l. destruct (N.eqb_spec cur (lenN ys)); [lia|].
        unfold gbind, gret. rewrite <- Hk, N.eqb_refl. reflexivity.
      - lia.
      - lia.
      - exact Em. }
    split.
    { eapply chg_sub; [apply (chg_trans mine h h1 h2 [] _ (chg_new mine _ _) C2)| |].
      - intros x Hx [<-|[]]. lia.
      - intros x _ Hx. eapply own1_owned; eauto. }
    split; [auto|]. split; [auto|]. split; [rewrite W2; apply blank_len|]. split; [auto|].
    intros L HL x. specialize (HL x). rewrite L2. unfold h1. rewrite app_length. cbn [length].
    rewrite Nat.add_1_r, lt1_S. occs. lia.
Qed.

(** ** A leaf of the input *)
(** The position [g] denotes the node [n]. *)
Definition gsrc (h : heap) (cl : nat) (g : gpos) (n : node T) (F : list nat) : Prop :=
  exists a q, gaddr g = Ok a /\ rep h cl a n F /\ gview g h = Ok (q, h) /\
    psize B BL cl q = Ok (nsize n) /\ count B BL cl q = Ok (ncount n) /\
    match cl, g with
    | O, _ => True
    | S _, GRel _ r => exists o ks, at_ h a o (GInner (Some r) ks)
    | S _, _ => gview g = gret q /\ forall u w b init, kids n = u ++ w ++ b ->
        copy_sizes B BL cl q (lenN u) (lenN w) init = Ok (sums init (map nsize w))
    end.

Lemma vleaf (m : @merger T) xs p : pos_ok B BL O p (Leaf xs) -> is_sub p = true -> forall cur curr, m_curr m = cur :: curr ->
  merge_leaf B BL m p = match m_to m with
    | None => if cur =? lenN xs then add_child B m (Leaf xs) (lenN xs) else merge_leaf_go B (S (length xs)) m xs
    | Some _ => merge_leaf_go B (S (length xs)) m xs
    end.
Proof.
  intros Hp Hs cur curr Hc. pose proof (pos_ok_wf _ _ _ _ _ Hp) as Hw. unfold merge_leaf.
  rewrite (pos_ok_node _ _ _ _ _ Hp). cbn [rbind]. rewrite (psize_ok _ _ _ _ _ Hp Hs). cbn [rbind].
  rewrite (count_ok _ _ _ _ _ Hp). cbn [rbind leaf_of ncount]. unfold curr_of. rewrite Hc. cbn [rbind].
  rewrite nsize_leaf. cbn in Hw. destruct (N.eqb_spec (lenN xs) 0); [lia|].
  rewrite rtakeN_all by reflexivity. cbn [rbind]. reflexivity.
Qed.

Lemma sim_leaf plan m prod M ps q CF t h ec e g n F R cs :
  core O plan m prod M ps q CF h -> tat B BL mine h O M m t -> gsrc h O g n F -> wf O n ->
  flow (toff t) (m_curr m) (ncount n :: cs) -> Forall (fun c => 1 <= c <= lwidth) (m_curr m) ->
  lenN plan <= 3 * width -> mine e = true -> mine ec = true ->
  sep (length h) (fps ps q ++ CF ++ tfp t ++ F ++ R) ->
  exists m' prod' M' ps' q' CF' t' h',
    gvisit B BL O ec e M g h = Ok (M', h') /\
    (forall p, pos_ok B BL O p n -> is_sub p = true -> merge_leaf B BL m p = Ok m') /\
    step O plan m prod M ps q CF t h n F R cs m' prod' M' ps' q' CF' t' h'.
Proof.
  intros Hco Ht (from & qv & Ea & Hr & Ev & Ep & Ek & _) Hw Hfl Hb H3 He Hec Hs.
  destruct n as [xs|]; [|easy]. cbn [ncount] in *. rewrite nsize_leaf in Ep.
  assert (0 < lenN xs <= lwidth) as Hxs by exact Hw.
  destruct (m_curr m) as [|cur curr] eqn:Ecur; [easy|].
  pose proof (Forall_inv Hb) as Hcur. pose proof (Forall_inv_tail Hb) as Hb'. cbn beta in Hcur.
  assert (gcurr M = Ok cur) as Egc by (unfold gcurr; now rewrite (co_curr _ _ _ _ _ _ _ _ _ _ _ _ Hco), Ecur).
  pose proof Hr as Hr0. cbn [GcRep.rep] in Hr. destruct Hr as (o & sl & Hat & Hpre & Hcap & EF).
  cbn [gvisit]. unfold gmerge_leaf.
  run (glift_ok _ _ h Ea). run Ev. run (glift_ok _ _ h Ep). run (glift_ok _ _ h Ek). run (glift_ok _ _ h Egc).
  destruct (N.eqb_spec (lenN xs) 0) as [Z|_]; [la|].
  assert (forall x, In x F -> owned mine h x) as HFo by (intros x Hx; eapply rep_owned; eauto).
  assert (forall x, In x (pa q :: pr q :: CF ++ tfp t ++ F) -> owned mine h x) as HWo.
  { destruct (co_pat _ _ _ _ _ _ _ _ _ _ _ _ Hco) as (nn & Hp). destruct (pat_owned _ _ _ _ _ _ _ Hp).
    intros x [<-|[<-|Hx]]; auto. apply in_app_or in Hx as [Hx|Hx].
    - eapply cand_owned; [exact (co_cand _ _ _ _ _ _ _ _ _ _ _ _ Hco)|auto].
    - apply in_app_or in Hx as [Hx|Hx]; auto. destruct t as [|ta ts|tq]; cbn in Hx, Ht; [easy| |].
      + destruct Hx as [<-|[]]. destruct Ht as (_ & _ & _ & _ & _ & _ & o2 & zs & H1 & H2 & _).
        eexists. split; [exact H1|auto].
      + destruct Ht as (l & n0 & Z & _). easy. }
  destruct t as [|ta ts|tq]; cbn [tat toff tfp] in Ht, Hs; cbn [toff] in Hfl; [| |destruct Ht as (l & n0 & Z & _); easy].
  - destruct Ht as [Eto Emt]. rewrite Eto. destruct Hfl as [[Hlt Hfl]|[[Heq Hfl]|[_ [Z _]]]]; [| |la].
    + (* the node is started *)
      destruct (N.eqb_spec cur (lenN xs)) as [Z|_]; [la|].
      run (gcan_mutate_ok _ _ _ _ e Hat).
      destruct (start_leaf (N.to_nat (lenN xs)) ec from _ (lenN xs) 0 M h cur o sl xs e Egc Eto Hat eq_refl He Hec Hcap
        (rem_pre _ _ Hpre)) as (a & h' & o' & sl' & E & C & A & O1 & L & P & S'); [la|la|la|].
      exists (mset m (Some (Leaf xs))), prod, (set_to M (Some a) (lenN xs) (gm_tosize M)), ps, q, CF, (TL a xs), h'.
      split; [exact E|]. split.
      { intros p Hp Hsub. rewrite (vleaf m xs p Hp Hsub cur curr Ecur), Emt.
        destruct (N.eqb_spec cur (lenN xs)) as [Z|_]; [la|].
        pose proof (vturn (length xs) m cur curr [] xs []) as E'. rewrite Emt, app_nil_r in E'.
        rewrite E'; auto; change (lenN (@nil T)) with 0; [|la|la]. cbn [app].
        destruct (N.eqb_spec cur (lenN xs)); [la|]. reflexivity. }
      rewrite <- EF in *.
      assert (chg h h' (pa q :: pr q :: CF ++ [] ++ F)) as C'.
      { eapply chg_sub; [exact C| |intros x _ Hx; apply HWo; exact Hx].
        intros x _ Hx. right. right. apply in_or_app. now right. }
      constructor.
      * apply core_to. eapply core_chg; [exact Hco|exact C|]. eapply sep_dis; [exact Hs|].
        intros x. occs. la.
      * cbn [tat]. repeat split; auto; [intros ->; change (lenN (@nil T)) with 0 in *; la|cbn [mset m_curr]; rewrite Ecur; cbn [hd]; la|].
        exists o', sl'. auto.
      * cbn [toff mset m_curr]. rewrite Ecur. rewrite N.add_0_l in Hfl. exact Hfl.
      * cbn [mset m_curr]. now rewrite Ecur.
      * exact C'.
      * cbn [tfp]. assert (sep (length h') (a :: fps ps q ++ CF ++ R)) as HS.
        { apply S'. intros x. specialize (Hs x). occs. la. }
        intros x. specialize (HS x). occs. la.
      * assert (~ In (pa q) F /\ ~ In (pr q) F) as [D1 D2].
        { split; (eapply sep_dis with (A := [pa q; pr q]) (B' := F); [exact Hs|intros x; ofs; la|cbn; auto]). }
        split; [eapply ktl_chg; [exact C|auto]|]. split; [eapply ttl_chg; [exact C|auto]|].
        split; [eapply kept_chg; [exact C|]; eapply sep_dis; [exact Hs|]; intros x; occs; la|]. left. repeat split; auto.
    + (* the leaf is taken as it is *)
      rewrite N.add_0_l in Heq. destruct (N.eqb_spec cur (lenN xs)) as [_|Z]; [|la].
      destruct (add_after B BL mine O plan m prod M ps q CF h h [] ec from (Leaf xs) F R cur curr Hco (chg_refl mine h) eq_refl)
        as (m' & M' & ps' & q' & CF' & h' & E1 & E2 & Hco' & Ec' & Et' & G1 & G2 & G3 & _ & C & S' & K1 & K2 & Hcase); auto.
      { easy. }
      rewrite nsize_leaf in E1, E2.
      exists m', (prod ++ [Leaf xs]), M', ps', q', CF', TN, h'. split; [exact E1|]. split.
      { intros p Hp Hsub. rewrite (vleaf m xs p Hp Hsub cur curr Ecur), Emt.
        destruct (N.eqb_spec cur (lenN xs)) as [_|Z]; [exact E2|la]. }
      constructor; auto.
      * cbn [tat]. rewrite G1. auto.
      * cbn [toff]. rewrite Ec'. exact Hfl.
      * now rewrite Ec'.
      * eapply chg_sub; [exact C| |intros x _ Hx; apply HWo; exact Hx].
        intros x _ Hx. rewrite app_nil_r in Hx. cbn in Hx |- *. rewrite in_app_iff. tauto.
      * eapply eff_grew; eauto using kept_refl.
  - destruct Ht as (_ & Eto & Eoff & Emt & Hts & Htc & o2 & zs & Ht2 & Ho2 & Hlz & Hpz). rewrite Eto.
    run (gcan_mutate_ok _ _ _ _ e Hat).
    set (fm := owned_by (mkG o (GLeaf sl)) e).
    assert (fm = true -> ow o = true) as Hfm by (intros E; now destruct (owned_by_ow mine _ _ _ He E)).
    assert (from <> ta) as Hne.
    { intros ->. assert (o = o2) as -> by (unfold at_ in *; congruence).
      unfold GcRep.own1 in EF. rewrite Ho2 in EF. subst F. specialize (Hs ta). occs. rewrite dl_same in Hs.
      pose proof (lt1_1 ta (length h)). la. }
    assert (gleaf_to BL ec from fm M h = Ok (M, h)) as Egt by (unfold gleaf_to; now rewrite Eto).
    assert (exists ys b, xs = ys ++ b /\ lenN ys = N.min (lenN xs) (cur - lenN ts)) as (ys & b & Exs & Hys).
    { exists (takeN (N.min (lenN xs) (cur - lenN ts)) xs), (dropN (N.min (lenN xs) (cur - lenN ts)) xs).
      rewrite takeN_dropN, lenN_takeN. split; [reflexivity|la]. }
    rewrite Ecur in Htc. cbn [hd] in Htc. assert (lenN ts + lenN ys <= cur) as Hle by la.
    assert (lenN ts <= cur) as Hle2 by la.
    destruct (move_leaf h from ta fm o sl o2 zs ts ys b 0 (lenN ts) (lenN ys)) as
      (h1 & zs' & sl' & Em & L1 & C1 & Ht1 & Hp1 & Hz1 & Hf1 & Hr1 & Hs1); auto.
    { rewrite <- Exs. now apply rem_pre. } { la. }
    rewrite (gturn (N.to_nat (lenN xs)) ec from fm (lenN xs) 0 M h cur M h ta (lenN ys) h1 Egc Egt Eto); [|rewrite Eoff; la|rewrite Eoff; la|now rewrite Eoff].
    rewrite Eoff.
    assert (chg h h1 (ta :: F)) as C1'.
    { eapply chg_sub; [exact C1| |].
      - intros x _ [<-|Hx]; [now left|]. right. rewrite EF. unfold GcRep.own1. destruct fm; [|easy].
        now rewrite (Hfm eq_refl).
      - intros x _ Hx. apply HWo. right. right. rewrite in_app_iff. right. exact Hx. }
    assert (core O plan m prod M ps q CF h1) as Hco1.
    { eapply core_chg; [exact Hco|exact C1'|]. eapply sep_dis; [exact Hs|]. intros x. ofs. la. }
    assert (forall x, In x (ta :: F) -> (x < length h)%nat /\ ~ In x (fps ps q ++ CF)) as HW.
    { intros x Hx. split; [eapply sep_lt; [exact Hs|]; rewrite !in_app_iff; cbn in Hx |- *; tauto|].
      revert x Hx. eapply sep_dis; [exact Hs|]. intros x. ofs. la. }
    assert (forall p, pos_ok B BL O p (Leaf xs) -> is_sub p = true -> merge_leaf B BL m p =
       (m' <- (if cur =? lenN (ts ++ ys) then add_child B m (Leaf (ts ++ ys)) (lenN (ts ++ ys))
          else Ok (mset m (Some (Leaf (ts ++ ys))))) ;;
        match b with [] => Ok m' | _ => merge_leaf_go B (length xs) m' b end)) as Hv.
    { intros p Hp Hsub. rewrite (vleaf m xs p Hp Hsub cur curr Ecur), Emt.
      rewrite Exs at 2. apply vturn with (curr := curr); auto; [now rewrite Emt|]. rewrite <- Exs. exact Hys. }
    destruct (N.eqb_spec cur (lenN ts + lenN ys)) as [Ecut|Ecut].
    + (* the node is complete *)
      assert (core O plan m prod (set_to M (Some ta) (lenN ts + lenN ys) (gm_tosize M)) ps q CF h1) as Hco2
        by now apply core_toM.
      assert (rep h1 O ta (Leaf (ts ++ ys)) [ta]) as Hrt.
      { exists o2, zs'. split; [auto|]. split; [auto|]. split; [intros _; la|]. unfold GcRep.own1. now rewrite Ho2. }
      destruct (add_after B BL mine O plan m prod _ ps q CF h h1 (ta :: F) ec ta (Leaf (ts ++ ys)) [ta] (F ++ R) cur curr Hco2 C1' L1 HW)
        as (m' & M' & ps' & q' & CF' & h' & E1 & E2 & Hco' & Ec' & Et' & G1 & G2 & G3 & Ch & C & S' & K1 & K2 & Hcase); auto.
      { cbn [ncount]. rewrite lenN_app. la. }
      { cbn. rewrite lenN_app. la. }
      { rewrite L1. intros x. specialize (Hs x). occs. la. }
      rewrite nsize_leaf, lenN_app in E1, E2.
      set (M3 := set_to M' None (lenN ts + lenN ys) (gm_tosize M')).
      rewrite (gbind_ok _ _ _ _ _ (gbind_ok _ (fun m' => gret (set_to m' None (lenN ts + lenN ys) (gm_tosize m'))) _ _ _ E1)).
      fold M3.
      assert (core O plan m' (prod ++ [Leaf (ts ++ ys)]) M3 ps' q' CF' h') as Hco3 by now apply core_toM.
      rewrite lenN_app in Hv. destruct (N.eqb_spec cur (lenN ts + lenN ys)) as [_|Z]; [|easy].
      rewrite E2 in Hv. cbn [rbind] in Hv. rewrite N.add_0_l.
      destruct b as [|b0 b'].
      * (* nothing is left *)
        rewrite app_nil_r in Exs. subst ys. rewrite N.eqb_refl.
        exists m', (prod ++ [Leaf (ts ++ xs)]), M3, ps', q', CF', TN, h'. split; [reflexivity|]. split; [exact Hv|].
        assert (flow 0 curr cs) as Hfl'.
        { destruct Hfl as [[? _]|[[? ?]|[? _]]]; [la|auto|la]. }
        constructor; auto.
        -- cbn [tat]. auto.
        -- cbn [toff]. now rewrite Ec'.
        -- now rewrite Ec'.
        -- cbn [tfp]. intros x. specialize (S' x). occs. la.
        -- eapply eff_grew; eauto using kept_refl. easy.
      * (* the rest starts the next node *)
        assert (lenN xs = lenN ys + lenN (b0 :: b')) as Hlen by (rewrite Exs, lenN_app; la).
        assert (0 < lenN (b0 :: b')) as Hbp by (rewrite lenN_cons; la).
        destruct (N.eqb_spec (lenN ys) (lenN xs)) as [Z|_]; [la|].
        destruct Hfl as [[? _]|[[? ?]|(Hgt & Hpos & Hnx & Hfl)]]; [la|la|].
        destruct curr as [|cur2 curr2]; [cbn in Hnx; la|]. cbn [hd] in Hnx.
        pose proof (Forall_inv Hb') as Hcur2. cbn beta in Hcur2.
        assert (gcurr M3 = Ok cur2) as Egc3.
        { unfold gcurr. now rewrite (co_curr _ _ _ _ _ _ _ _ _ _ _ _ Hco3), Ec'. }
        assert (at_ h' from o (GLeaf sl')) as Hf2.
        { eapply chg_at_own; [exact Ch|exact Hf1|]. rewrite <- EF. eapply sep_dis; [exact Hs|]. intros x. ofs. la. }
        assert (fm = owned_by (mkG o (GLeaf sl')) e) as Efm by reflexivity.
        destruct (N.to_nat (lenN xs)) as [|fu] eqn:Efu; [la|].
        destruct (start_leaf fu ec from fm (lenN xs) (lenN ys) M3 h' cur2 o sl' (b0 :: b') e Egc3 eq_refl Hf2 Efm He Hec)
          as (a & h3 & o' & sl3 & E & C3 & A & O1 & L & P & S3).
        { intros Ho. rewrite Hs1. auto. } { rewrite N.add_0_l in Hr1. exact Hr1. } { la. } { la. } { la. }
        exists (mset m' (Some (Leaf (b0 :: b')))), (prod ++ [Leaf (ts ++ ys)]),
          (set_to M3 (Some a) (lenN (b0 :: b')) (gm_tosize M3)), ps', q', CF', (TL a (b0 :: b')), h3.
        split; [exact E|]. rewrite <- EF in *. split.
        { intros p Hp Hsub. rewrite (Hv p Hp Hsub).
          assert (exists fu', length xs = S fu') as (fu' & Efl) by (rewrite Exs, app_length; cbn [length]; rewrite Nat.add_succ_r; eauto).
          rewrite Efl.
          pose proof (vturn fu' m' cur2 curr2 [] (b0 :: b') []) as E'. rewrite Et', app_nil_r in E'.
          rewrite E'; auto; change (lenN (@nil T)) with 0; [|la|la]. cbn [app].
          destruct (N.eqb_spec cur2 (lenN (b0 :: b'))); [la|]. reflexivity. }
        assert (sep (length h3) (a :: fps ps' q' ++ CF' ++ R)) as HS.
        { apply S3. intros x. specialize (S' x). occs. la. }
        assert (forall x, In x (fps ps' q' ++ CF') -> ~ In x F) as Hd.
        { eapply sep_dis; [exact S'|]. intros x. occs. la. }
        assert (In (pa q') (fps ps' q') /\ In (pr q') (fps ps' q')) as [I1 I2].
        { unfold fps, pfp. rewrite !in_app_iff. cbn [In]. tauto. }
        constructor.
        -- apply core_to. eapply core_chg; [exact Hco3|exact C3|exact Hd].
        -- cbn [tat]. repeat split; auto; [easy|cbn [mset m_curr]; rewrite Ec'; cbn [hd]; la|]. exists o', sl3. auto.
        -- cbn [toff mset m_curr]. rewrite Ec'. replace (lenN (b0 :: b')) with (lenN ts + lenN xs - cur) by la. exact Hfl.
        -- cbn [mset m_curr]. now rewrite Ec'.
        -- eapply chg_sub; [eapply chg_trans; [exact C|exact C3]| |intros x _ Hx; apply HWo; exact Hx].
           intros x _ Hx. cbn [tfp In app] in Hx |- *. rewrite !in_app_iff in *. cbn in Hx |- *. tauto.
        -- cbn [tfp]. intros x. specialize (HS x). occs. la.
        -- eapply eff_grew; [exact Hcase|eapply kept_chg; [exact C3|intros x Hx; apply Hd, in_or_app; auto]|reflexivity|easy| |].
           ++ eapply ktl_trans; [exact K1|eapply ktl_chg; [exact C3|apply Hd, in_or_app; auto]].
           ++ eapply ttl_trans; [exact K2|eapply ttl_chg; [exact C3|apply Hd, in_or_app; auto]].
    + (* the leaf is appended *)
      destruct Hfl as [[Hlt Hfl]|[[? _]|[? _]]]; [|la|la].
      assert (b = [] /\ ys = xs) as [-> ->].
      { assert (lenN b = 0) as Zb by (assert (lenN xs = lenN ys + lenN b) by (rewrite Exs; apply lenN_app); la).
        apply lenN_0 in Zb. subst b. rewrite app_nil_r in Exs. auto. }
      exists (mset m (Some (Leaf (ts ++ xs)))), prod, (set_to M (Some ta) (lenN ts + lenN xs) (gm_tosize M)), ps, q, CF,
        (TL ta (ts ++ xs)), h1.
      split; [unfold gbind, gret; now rewrite N.add_0_l, N.eqb_refl|]. split.
      { intros p Hp Hsub. rewrite (Hv p Hp Hsub). rewrite lenN_app.
        destruct (N.eqb_spec cur (lenN ts + lenN xs)); [la|]. reflexivity. }
      assert (~ In (pa q) (ta :: F) /\ ~ In (pr q) (ta :: F)) as [D1 D2].
      { split; (eapply sep_dis with (A := [pa q; pr q]) (B' := ta :: F); [exact Hs|intros x; ofs; la|cbn; auto]). }
      constructor.
      * now apply core_to.
      * cbn [tat]. repeat split; auto; [now rewrite lenN_app|destruct ts; easy|cbn [mset m_curr]; rewrite Ecur, lenN_app; cbn [hd]; la|]. exists o2, zs'.
        repeat split; auto. la.
      * cbn [toff mset m_curr]. rewrite Ecur, lenN_app. exact Hfl.
      * cbn [mset m_curr]. now rewrite Ecur.
      * eapply chg_sub; [exact C1'| |intros x _ Hx; apply HWo; exact Hx].
        intros x _ Hx. right. right. apply in_or_app. right. exact Hx.
      * cbn [tfp]. rewrite L1. intros x. specialize (Hs x). occs. la.
      * split; [eapply ktl_chg; [exact C1'|auto]|]. split; [eapply ttl_chg; [exact C1'|auto]|].
        split; [eapply kept_chg; [exact C1'|]; eapply sep_dis; [exact Hs|]; intros x; ofs; la|]. left. repeat split; auto.
Qed.
End Leaf.
