(** The merger of the in-place concatenation on inner nodes: one node of the input. *)
From Coq Require Import List NArith Arith Bool Lia ZifyN ZifyNat ZifyBool.
From Verif Require Import Common NList Rrb RrbInv RrbPos RrbOps RrbSlice RrbMerge GcConcat GcPlan GcRep GcAdd GcLeaf.
Import ListNotations.
Local Open Scope N_scope.

Set Default Goal Selector "!".

Section Inner.
Variables B BL : N.
Context {T : Type}.
Variable mine : token -> bool.
Notation width := (width B).
Notation lwidth := (lwidth BL).
Notation heap := (gheap T).
Notation rep := (@rep B BL T mine).
Notation ow := (ow mine).
Notation own1 := (own1 mine).
Notation chg := (@chg T mine).
Notation wf := (@wf T B BL).
Notation pat := (@pat B BL T mine).
Notation core := (@core B BL T mine).
Notation step := (@step B BL T mine).

(** ** Copying sizes *)
(** Only [d] is different. *)
Definition only (h h' : heap) (d : nat) : Prop :=
  length h' = length h /\ forall x, x <> d -> nth_error h' x = nth_error h x.
Lemma only_upd (h : heap) d c : only h (update_at d c h) d.
Proof. split; [apply upd_len|]. intros x Hx. apply upd_ne. auto. Qed.
Lemma only_trans (h h1 h2 : heap) d : only h h1 d -> only h1 h2 d -> only h h2 d.
Proof. intros [A1 A2] [B1 B2]. split; [congruence|]. intros x Hx. rewrite B2, A2; auto. Qed.
Lemma only_at (h h' : heap) d x o b : only h h' d -> at_ h x o b -> x <> d -> at_ h' x o b.
Proof. intros [_ H] Ha Hn. unfold at_. now rewrite H. Qed.
Lemma only_chg (h h' : heap) d o b : only h h' d -> at_ h d o b -> ow o = true -> chg h h' [d].
Proof.
  intros [L H] Ha Ho. split; [lia|]. split.
  - intros a c Hc Hn. rewrite H; auto. intros ->. apply Hn. now left.
  - intros a c Hc [<-|[]]. unfold at_ in Ha. rewrite Ha in Hc. injection Hc as <-. exact Ho.
Qed.

Lemma copy_rel_ok xs : forall (h : heap) r d o w prev init pd o1 n1 s1 o2 n2 s2,
  at_ h r o1 (GTable n1 s1) -> at_ h d o2 (GTable n2 s2) ->
  (forall a x b, xs = a ++ x :: b -> entry s1 (o + lenN a) = Ok (prev + sumN a + x)) ->
  pre pd s2 -> lenN pd = w -> w + lenN xs <= lenN s2 -> (r = d -> w <= o) ->
  exists h' s2', gcopy_rel (length xs) r d o w prev init h = Ok (tt, h') /\ only h h' d /\
    at_ h' d o2 (GTable n2 s2') /\ pre (pd ++ sums init xs) s2' /\ lenN s2' = lenN s2.
Proof.
  induction xs as [|x xs IH]; intros h r d o w prev init pd o1 n1 s1 o2 n2 s2 Hr Hd He Hp Hw Hl Hrd.
  - exists h, s2. cbn. split; [reflexivity|]. split; [split; auto|]. split; [auto|].
    split; [now rewrite app_nil_r|reflexivity].
  - cbn [length gcopy_rel]. pose proof (He [] x xs eq_refl) as E0. change (lenN (@nil N)) with 0 in E0.
    change (sumN []) with 0 in E0. rewrite !N.add_0_r in E0. run (gsize_ok _ _ _ _ _ _ _ Hr E0).
    replace (init + (prev + x - prev)) with (init + x) by lia.
    destruct (write_pre pd [init + x] s2 w Hp Hw) as (s2' & Ew & Hp' & Hl' & Hd').
    { rewrite lenN_cons in Hl. cbn. lia. }
    cbn [map] in Ew. run (gset_size_ok _ _ _ _ _ _ _ _ Hd Ew).
    set (h1 := update_at d (mkG o2 (GTable n2 s2')) h).
    assert (at_ h1 d o2 (GTable n2 s2')) as Hd1 by (eapply at_upd; eauto).
    assert (exists o1' n1' s1', at_ h1 r o1' (GTable n1' s1') /\
      forall a y b, xs = a ++ y :: b -> entry s1' (o + 1 + lenN a) = Ok (prev + x + sumN a + y)) as
      (o1' & n1' & s1' & Hr1 & He1).
    { assert (forall a y b, xs = a ++ y :: b -> entry s1 (o + 1 + lenN a) = Ok (prev + x + sumN a + y)) as K.
      { intros a y b ->. specialize (He (x :: a) y b eq_refl). rewrite lenN_cons, sumN_cons in He.
        replace (o + 1 + lenN a) with (o + (lenN a + 1)) by lia. rewrite He. f_equal. lia. }
      destruct (Nat.eq_dec r d) as [->|Hne].
      - assert (s2 = s1) as -> by (unfold at_ in *; congruence). exists o2, n2, s2'. split; [auto|].
        intros a y b E. rewrite <- (K a y b E). apply (entry_tails (w + 1)).
        + apply drop_tails. intros i Hi. apply Hd'. cbn. lia.
        + specialize (Hrd eq_refl). lia.
      - exists o1, n1, s1. split; [apply at_upd_ne; auto|exact K]. }
    destruct (IH h1 r d (o + 1) (w + 1) (prev + x) (init + x) (pd ++ [init + x]) o1' n1' s1' o2 n2 s2' Hr1 Hd1 He1 Hp')
      as (h' & s3 & E & O3 & A3 & P3 & L3).
    { rewrite lenN_snoc. lia. } { rewrite lenN_cons in Hl. lia. } { intros E. specialize (Hrd E). lia. }
    exists h', s3. split; [exact E|]. split; [eapply only_trans; [apply only_upd|exact O3]|]. split; [auto|].
    split; [|lia]. cbn [sums]. rewrite <- app_assoc in P3. exact P3.
Qed.

(** Where the sizes of the children of [n] come from. *)
Definition szsrc (h : heap) (l : nat) (g : gpos) (n : node T) : Prop :=
  match g with
  | GRel _ r => exists o k sl, at_ h r o (GTable k sl) /\ pre (sums 0 (map nsize (kids n))) sl
  | _ => exists q, gview g = gret q /\ forall u w b init, kids n = u ++ w ++ b ->
        copy_sizes (T := T) B BL (S l) q (lenN u) (lenN w) init = Ok (sums init (map nsize w))
  end.
Definition szadr (g : gpos) : list nat := match g with GRel _ r => [r] | _ => [] end.

Lemma sums_at c (a : list N) x b i : i = lenN a -> exists u v, sums c (a ++ x :: b) = u ++ (c + sumN a + x) :: v /\ lenN u = i.
Proof.
  intros ->. rewrite sums_app. cbn [sums]. eexists _, _. split; [reflexivity|]. apply lenN_sums.
Qed.
Lemma copy_sizes_run (h : heap) l g n u ws b init d w o2 n2 s2 pd :
  szsrc h l g n -> kids n = u ++ ws ++ b -> at_ h d o2 (GTable n2 s2) -> pre pd s2 -> lenN pd = w ->
  w + lenN ws <= lenN s2 -> (forall r, In r (szadr g) -> r = d -> w <= lenN u) ->
  exists h' s2', gcopy_sizes B BL (S l) g (lenN u) (lenN ws) init d w h = Ok (tt, h') /\ only h h' d /\
    at_ h' d o2 (GTable n2 s2') /\ pre (pd ++ sums init (map nsize ws)) s2' /\ lenN s2' = lenN s2.
Proof.
  intros Hsz Ek Hd Hp Hw Hl Hrd.
  assert (forall q, (gview g = gret q /\ forall u w b init, kids n = u ++ w ++ b ->
        copy_sizes (T := T) B BL (S l) q (lenN u) (lenN w) init = Ok (sums init (map nsize w))) ->
    exists h' s2',
      (q <~ gview g ;; ys <~ glift (copy_sizes (T := T) B BL (S l) q (lenN u) (lenN ws) init) ;;
       ' (k, sz) <~ gtable d ;; sz' <~ glift (write sz w (map Some ys)) ;; gput_table d k sz') h = Ok (tt, h') /\ only h h' d /\
      at_ h' d o2 (GTable n2 s2') /\ pre (pd ++ sums init (map nsize ws)) s2' /\ lenN s2' = lenN s2) as K.
  { intros q [Ev Hcs]. rewrite Ev. unfold gbind at 1. unfold gret at 1.
    run (glift_ok _ _ h (Hcs u ws b init Ek)). run (gtable_ok _ _ _ _ _ Hd).
    destruct (write_pre pd (sums init (map nsize ws)) s2 w Hp Hw) as (s2' & Ew & Hp' & Hl' & _).
    { rewrite lenN_sums, lenN_map. lia. }
    run (glift_ok _ _ h Ew). rewrite (gput_table_ok _ _ _ _ _ n2 s2' Hd).
    eexists _, s2'. split; [reflexivity|]. split; [apply only_upd|]. split; [eapply at_upd; eauto|]. auto. }
  destruct g as [a|a s|a s|a r|a c|]; try (destruct Hsz as (q & Hq); exact (K q Hq)).
  clear K. destruct Hsz as (o & k & sl & Hr & Hpr). cbn [gcopy_sizes].
  assert ((if lenN u =? 0 then gret 0 else gsize r (lenN u - 1)) h = Ok (csize u, h)) as E0.
  { destruct (N.eqb_spec (lenN u) 0) as [Z|Z].
    - apply lenN_0 in Z. subst. reflexivity.
    - destruct u as [|x u' _] using rev_ind; [easy|]. rewrite lenN_snoc in *.
      rewrite Ek, <- !app_assoc in Hpr. cbn [app] in Hpr. rewrite map_app in Hpr. cbn [map] in Hpr.
      destruct (sums_at 0 (map nsize u') (nsize x) (map nsize (ws ++ b)) (lenN u' + 1 - 1)) as (p1 & p2 & E & L1).
      { rewrite lenN_map. lia. }
      rewrite E in Hpr. eapply gsize_ok; [exact Hr|]. rewrite (pre_at _ _ _ _ _ Hpr L1), csize_snoc. reflexivity. }
  run E0.
  assert (length (map nsize ws) = N.to_nat (lenN ws)) as <- by (rewrite map_length; unfold lenN; lia).
  eapply copy_rel_ok; [exact Hr|exact Hd| |exact Hp|exact Hw|rewrite lenN_map; lia|].
  - intros a' x b' E. rewrite Ek, !map_app, E in Hpr. rewrite <- app_assoc in Hpr. cbn [app] in Hpr.
    rewrite app_assoc in Hpr.
    destruct (sums_at 0 (map nsize u ++ a') x (b' ++ map nsize b) (lenN u + lenN a')) as (p1 & p2 & E1 & L1).
    { rewrite lenN_app, lenN_map. reflexivity. }
    rewrite E1 in Hpr. rewrite (pre_at _ _ _ _ _ Hpr L1). rewrite sumN_app. reflexivity.
  - intros ->. apply (Hrd d); [now left|reflexivity].
Qed.

(** ** Moving children *)
Definition papp (q : @pdesc T) (cs : list nat) (ns : list (node T)) (Fs : list (list nat)) : pdesc :=
  mkP (pa q) (pr q) (pks q ++ cs) (pns q ++ ns) (pF q ++ Fs).
Lemma psz_app q cs ns Fs : psz (papp q cs ns Fs) = psz q ++ sums (csize (pns q)) (map nsize ns).
Proof. unfold psz, papp. cbn. rewrite map_app, sums_app. reflexivity. Qed.

(** To another node. *)
Lemma move_inner h l g n u ws b from o rf ks c1 cm c2 Fm q nq fo off ts :
  szsrc h l g n -> kids n = u ++ ws ++ b ->
  at_ h from o (GInner rf ks) -> pre (c1 ++ cm ++ c2) ks -> lenN c1 = lenN u -> all3 (rep h l) cm ws Fm ->
  pat h l q nq -> from <> pa q -> ~ In (pr q) (szadr g) ->
  lenN (pns q) + lenN ws <= width -> off = lenN (pns q) -> fo = lenN u -> ts = csize (pns q) ->
  sep (length h) (pfp q ++ List.concat Fm) ->
  exists h', gmove_inner B BL (S l) g from (pa q) (pr q) fo off (lenN ws) ts h = Ok (tt, h') /\
    length h' = length h /\ chg h h' [pa q; pr q] /\ pat h' l (papp q cm ws Fm) nq.
Proof.
  intros Hsz Ek Hf Hpk Hc1 Ham Hp Hne Hnr Hle -> -> -> Hs.
  pose proof (pat_count _ _ _ _ _ _ _ Hp) as [Ekn _].
  destruct Hp as (o1 & o2 & kk & sl & H1 & H2 & H3 & H4 & H5 & H6 & H7 & H8 & H9).
  unfold gmove_inner. destruct (Nat.eqb_spec from (pa q)) as [Z|_]; [easy|]. cbn [negb orb].
  run (ginner_ok _ _ _ _ _ Hf).
  assert (lenN cm = lenN ws) as Hcm by (pose proof (all3_len _ _ _ _ Ham); lia).
  run (glift_ok _ _ h (pre_slice c1 cm c2 ks (lenN u) (lenN u + lenN ws) Hpk Hc1 ltac:(lia))).
  run (ginner_ok _ _ _ _ _ H1).
  destruct (write_pre (pks q) cm kk (lenN (pns q)) H4) as (kk' & Ew & Hp' & Hl' & _); [lia|lia|].
  run (glift_ok _ _ h Ew). run (gput_inner_ok _ _ _ _ _ (Some (pr q)) kk' H1).
  set (h1 := update_at (pa q) (mkG o1 (GInner (Some (pr q)) kk')) h).
  assert (pa q <> pr q) as Hpp by (intros E; rewrite E in H1; unfold at_ in *; congruence).
  assert (szsrc h1 l g n) as Hsz1.
  { destruct g as [a|a s|a s|a r|a c|]; try exact Hsz. destruct Hsz as (oo & k & s1 & Hr & Hpr).
    exists oo, k, s1. split; [|auto]. apply at_upd_ne; [auto|]. intros <-. unfold at_ in *. congruence. }
  assert (at_ h1 (pr q) o2 (GTable nq sl)) as H51 by (apply at_upd_ne; auto).
  destruct (copy_sizes_run h1 l g n u ws b (csize (pns q)) (pr q) (lenN (pns q)) o2 nq sl (psz q) Hsz1 Ek H51 H8) as
    (h2 & sl' & E2 & O2 & A2 & P2 & L2).
  { unfold psz. now rewrite lenN_sums, lenN_map. } { lia. } { intros r Hr ->. easy. }
  assert (chg h h1 [pa q]) as C1 by (eapply chg_upd; eauto).
  assert (chg h1 h2 [pr q]) as C2 by (eapply only_chg; eauto).
  assert (chg h h2 [pa q; pr q]) as C by apply (chg_trans mine h h1 h2 [pa q] [pr q] C1 C2).
  exists h2. split; [exact E2|]. split; [destruct O2 as [-> _]; apply upd_len|]. split; [exact C|].
  assert (forall x, In x (List.concat (pF q) ++ List.concat Fm) -> ~ In x [pa q; pr q]) as Hd.
  { eapply sep_dis; [exact Hs|]. intros x. ofs. lia. }
  exists o1, o2, kk', sl'. cbn [papp pa pr pks pns pF].
  split; [eapply only_at; [exact O2|eapply at_upd; eauto|auto]|]. split; [auto|]. split; [lia|]. split; [auto|].
  split; [auto|]. split; [auto|]. split; [lia|]. split; [rewrite psz_app; exact P2|].
  apply all3_app; (eapply reps_chg; [exact C|eassumption|]); intros x Hx; apply Hd, in_or_app; auto.
Qed.

(** Within the node. *)
Lemma shift_inner h l g n u ws from o ks c1 cm Fm r o2 n2 sl fo :
  szsrc h l g n -> kids n = u ++ ws ->
  at_ h from o (GInner (Some r) ks) -> ow o = true -> lenN ks = width ->
  pre (c1 ++ cm) ks -> lenN c1 = lenN u -> all3 (rep h l) cm ws Fm ->
  at_ h r o2 (GTable n2 sl) -> ow o2 = true -> lenN sl = width ->
  lenN ws <= width -> fo = lenN u -> 0 < fo ->
  sep (length h) (from :: r :: List.concat Fm) ->
  exists h', gmove_inner B BL (S l) g from from r fo 0 (lenN ws) 0 h = Ok (tt, h') /\
    length h' = length h /\ chg h h' [from; r] /\ pat h' l (mkP from r cm ws Fm) n2.
Proof.
  intros Hsz Ek Hf Ho Hlk Hpk Hc1 Ham Hr Ho2 Hls Hle -> Hfo Hs.
  unfold gmove_inner. rewrite Nat.eqb_refl. cbn [negb orb].
  destruct (N.eqb_spec (lenN u) 0) as [Z|_]; [lia|]. cbn [negb].
  unfold no_overlap. destruct (N.ltb_spec 0 (lenN u)) as [_|Z]; [|lia]. cbn [orb].
  run (ginner_ok _ _ _ _ _ Hf).
  assert (lenN cm = lenN ws) as Hcm by (pose proof (all3_len _ _ _ _ Ham); lia).
  rewrite <- (app_nil_r cm) in Hpk.
  run (glift_ok _ _ h (pre_slice c1 cm [] ks (lenN u) (lenN u + lenN ws) Hpk Hc1 ltac:(lia))).
  run (ginner_ok _ _ _ _ _ Hf).
  destruct (write_0 cm ks) as (kk' & Ew & Hp' & Hl'); [lia|].
  run (glift_ok _ _ h Ew). run (gput_inner_ok _ _ _ _ _ (Some r) kk' Hf).
  set (h1 := update_at from (mkG o (GInner (Some r) kk')) h).
  assert (from <> r) as Hpp by (intros E; rewrite E in Hf; unfold at_ in *; congruence).
  assert (szsrc h1 l g n) as Hsz1.
  { destruct g as [a|a s|a s|a rr|a c|]; try exact Hsz. destruct Hsz as (oo & k & s1 & Hrr & Hpr).
    exists oo, k, s1. split; [|auto]. apply at_upd_ne; [auto|]. intros <-. unfold at_ in *. congruence. }
  assert (at_ h1 r o2 (GTable n2 sl)) as H51 by (apply at_upd_ne; auto).
  rewrite <- (app_nil_r ws) in Ek.
  destruct (copy_sizes_run h1 l g n u ws [] 0 r 0 o2 n2 sl [] Hsz1 Ek H51 (pre_nil sl) eq_refl) as
    (h2 & sl' & E2 & O2 & A2 & P2 & L2).
  { lia. } { intros; lia. }
  assert (chg h h1 [from]) as C1 by (eapply chg_upd; eauto).
  assert (chg h1 h2 [r]) as C2 by (eapply only_chg; eauto).
  assert (chg h h2 [from; r]) as C by apply (chg_trans mine h h1 h2 [from] [r] C1 C2).
  exists h2. split; [exact E2|]. split; [destruct O2 as [-> _]; apply upd_len|]. split; [exact C|].
  exists o, o2, kk', sl'. cbn [pa pr pks pns pF].
  split; [eapply only_at; [exact O2|eapply at_upd; eauto|auto]|]. split; [auto|]. split; [lia|]. split; [auto|].
  split; [auto|]. split; [auto|]. split; [lia|]. split; [exact P2|].
  eapply reps_chg; [exact C|exact Ham|]. eapply sep_dis; [exact Hs|]. intros x. occs. lia.
Qed.

(** ** Turns of the loop *)
Lemma gturn_inner f ec e v g from fm k fo M (h : heap) cur M1 (h1 : heap) to n rt (h2 : heap) ts :
  gcurr M = Ok cur -> ginner_to B ec e from fm M h = Ok (M1, h1) -> gm_to M1 = Some to -> gm_off M1 <= cur ->
  n = N.min (k - fo) (cur - gm_off M1) -> grelaxed to h1 = Ok (rt, h1) ->
  gmove_inner B BL v g from to rt fo (gm_off M1) n (gm_tosize M1) h1 = Ok (tt, h2) ->
  0 < gm_off M1 + n -> gsize rt (gm_off M1 + n - 1) h2 = Ok (ts, h2) ->
  gmerge_inner_go B BL (S f) ec e v g from fm k fo M h =
  (m3 <~ (if cur =? gm_off M1 + n then
            _ <~ gset_count rt (gm_off M1 + n) ;;
            m' <~ gadd_child B ec to ts (set_to M1 (Some to) (gm_off M1 + n) ts) ;;
            gret (set_to m' None (gm_off M1 + n) ts)
          else gret (set_to M1 (Some to) (gm_off M1 + n) ts)) ;;
   if fo + n =? k then gret m3 else gmerge_inner_go B BL f ec e v g from fm k (fo + n) m3) h2.
Proof.
  intros Hc Ht Hto Hoff -> Hrt Hm Hpos Hts. cbn [gmerge_inner_go]. run (glift_ok _ _ h Hc). run Ht. rewrite Hto.
  destruct (N.ltb_spec cur (gm_off M1)) as [Z|_]; [lia|]. run Hrt. run Hm.
  destruct (N.eqb_spec (gm_off M1 + N.min (k - fo) (cur - gm_off M1)) 0) as [Z|_]; [lia|]. run Hts. reflexivity.
Qed.
Definition minner (ks : list (node T)) : node T := Inner (Some (sums 0 (map nsize ks))) ks.
Lemma vturn_inner f (m : @merger T) l p n cur curr ts a ys b :
  pos_ok B BL (S l) p n -> is_sub p = true ->
  m_curr m = cur :: curr -> match m_to m with None => ts = [] | Some x => x = minner ts end ->
  lenN ts <= cur -> kids n = a ++ ys ++ b -> lenN ys = N.min (lenN (ys ++ b)) (cur - lenN ts) -> 0 < lenN ts + lenN ys ->
  merge_inner_go B BL (S f) m (S l) p (kids n) (lenN a) (lenN (kids n)) =
  (m' <- (if cur =? lenN (ts ++ ys) then add_child B m (minner (ts ++ ys)) (csize (ts ++ ys))
          else Ok (mset m (Some (minner (ts ++ ys))))) ;;
   if lenN a + lenN ys =? lenN (kids n) then Ok m'
   else merge_inner_go B BL f m' (S l) p (kids n) (lenN a + lenN ys) (lenN (kids n))).
Proof.
  intros Hp Hs Hc Ht Hle Ek Hn Hpos. cbn [merge_inner_go]. unfold curr_of. rewrite Hc. cbn [rbind].
  assert (match m_to m with
          | None => Ok ([], []) | Some (Inner (Some sz) ks) => Ok (sz, ks) | Some _ => UB end
          = Ok (sums 0 (map nsize ts), ts)) as ->.
  { destruct (m_to m) as [x|]; subst; reflexivity. }
  cbn [rbind]. destruct (N.ltb_spec cur (lenN ts)) as [Z|_]; [lia|].
  assert (lenN (kids n) - lenN a = lenN (ys ++ b)) as -> by (rewrite Ek, lenN_app; lia).
  rewrite <- Hn.
  assert (rsliceN (lenN a) (lenN a + lenN ys) (kids n) = Ok ys) as ->.
  { rewrite Ek. apply rsliceN_app; [reflexivity|lia]. }
  cbn [rbind].
  assert ((if lenN (sums 0 (map nsize ts)) =? 0 then Ok 0 else last_of (sums 0 (map nsize ts)))
          = Ok (csize ts)) as ->.
  { rewrite lenN_sums, lenN_map. destruct (N.eqb_spec (lenN ts) 0) as [Z|Z].
    - apply lenN_0 in Z. now subst ts.
    - apply last_table. intros ->. easy. }
  cbn [rbind]. rewrite (copy_sizes_ok B BL l p n a ys b (csize ts) Hp Hs Ek). cbn [rbind].
  assert (sums 0 (map nsize ts) ++ sums (csize ts) (map nsize ys) = sums 0 (map nsize (ts ++ ys))) as ->.
  { rewrite map_app, sums_app. reflexivity. }
  rewrite last_table.
  - cbn [rbind]. unfold mset, minner. rewrite Hc. reflexivity.
  - intros E. apply (f_equal lenN) in E. rewrite lenN_app in E. change (lenN (@nil (node T))) with 0 in E. lia.
Qed.
Lemma vinner (m : @merger T) l n p : pos_ok B BL (S l) p n -> is_sub p = true -> forall cur curr, m_curr m = cur :: curr ->
  merge_inner B BL m (S l) p = match m_to m with
    | None => if cur =? ncount n then add_child B m n (nsize n)
              else merge_inner_go B BL (S (N.to_nat (ncount n))) m (S l) p (kids n) 0 (lenN (kids n))
    | Some _ => merge_inner_go B BL (S (N.to_nat (ncount n))) m (S l) p (kids n) 0 (lenN (kids n))
    end.
Proof.
  intros Hp Hs cur curr Hc. pose proof (pos_ok_wf _ _ _ _ _ Hp) as Hw. unfold merge_inner.
  rewrite (pos_ok_node _ _ _ _ _ Hp). cbn [rbind]. rewrite (psize_ok _ _ _ _ _ Hp Hs). cbn [rbind].
  rewrite (count_ok _ _ _ _ _ Hp). cbn [rbind]. destruct (wf_inner _ _ _ _ Hw) as (r & cs & ->).
  cbn [inner_of rbind ncount kids]. unfold curr_of. rewrite Hc. cbn [rbind].
  pose proof (wf_size _ _ _ _ Hw). destruct (N.eqb_spec (nsize (Inner r cs)) 0) as [Z|_]; [lia|]. reflexivity.
Qed.

Lemma pat_last (h : heap) l q n i : pat h l q n -> pns q <> [] -> i = lenN (pns q) ->
  gsize (pr q) (i - 1) h = Ok (csize (pns q), h).
Proof.
  intros (o1 & o2 & kk & sl & H1 & H2 & H3 & H4 & H5 & H6 & H7 & H8 & H9) Hne ->.
  eapply gsize_ok; [exact H5|]. eapply last_psz; eauto. destruct (pns q); [easy|]. rewrite lenN_cons. lia.
Qed.
Lemma pat_relaxed (h : heap) l q n : pat h l q n -> grelaxed (pa q) h = Ok (pr q, h).
Proof. intros (o1 & o2 & kk & sl & H1 & _). eapply grelaxed_ok; eauto. Qed.

(** ** Starting a node: the node itself, or a new one *)
Lemma start_inner f ec e l g from fm k fo M h cur o rf ks n u ws c1 cm Fm Fr :
  gcurr M = Ok cur -> gm_to M = None -> wf (S l) n ->
  at_ h from o (GInner rf ks) -> fm = owned_by (mkG o (GInner rf ks : gbody T)) e -> mine e = true -> mine ec = true ->
  (ow o = true -> lenN ks = width) -> trep B mine h rf (match n with Inner sz _ => sz | _ => None end) Fr ->
  szsrc h l g n -> (forall r, In r (szadr g) -> rf = Some r) -> kids n = u ++ ws ->
  pre (c1 ++ cm) ks -> lenN c1 = lenN u -> all3 (rep h l) cm ws Fm ->
  fo = lenN u -> k = fo + lenN ws -> 0 < lenN ws < cur -> lenN ws <= width ->
  (0 < fo \/ fm = false \/ is_rel n = true) ->
  sep (length h) (own1 o from ++ Fr ++ List.concat Fm) ->
  exists q nq h', gmerge_inner_go B BL (S f) ec e (S l) g from fm k fo M h =
      Ok (set_to M (Some (pa q)) (lenN ws) (csize ws), h') /\
    chg h h' (own1 o from ++ Fr) /\ pat h' l q nq /\ pns q = ws /\
    (forall L, sep (length h) (own1 o from ++ Fr ++ List.concat Fm ++ L) -> sep (length h') (pfp q ++ L)).
Proof.
  intros Hc Hto Hw Hf Hfm He Hec Hcap Htr Hsz Hga Ek Hpk Hc1 Ham -> -> [Hw0 Hlt] Hlw Hok Hs.
  assert (forall x, In x (own1 o from ++ Fr) -> owned mine h x) as HWo.
  { intros x Hx. apply in_app_or in Hx as [Hx|Hx]; [eapply own1_owned; eauto|eapply trep_owned; eauto]. }
  assert (ws <> []) as Hwne by (intros ->; cbn in Hw0; lia).
  destruct fm.
  - destruct (owned_by_ow mine _ _ _ He (eq_sym Hfm)) as [-> Ho]. specialize (Hcap Ho).
    assert (own1 (Some e) from = [from]) as E1 by (unfold GcRep.own1; now rewrite Ho).
    rewrite E1 in *. cbn [app] in Hs.
    set (h1 := update_at from (mkG (Some ec) (GInner rf ks)) h).
    assert (at_ h1 from (Some ec) (GInner rf ks)) as Hf1 by (eapply at_upd; eauto).
    assert (chg h h1 [from]) as C1 by (eapply chg_upd; eauto).
    assert (forall r oo kk ss, at_ h r oo (GTable kk ss) -> at_ h1 r oo (GTable kk ss)) as Htab.
    { intros r oo kk ss Hr. apply at_upd_ne; auto. intros ->. unfold at_ in *. congruence. }
    assert (tab_ok B mine h1 e rf Fr) as Htok.
    { destruct rf as [r|]; cbn [tab_ok trep] in Htr |- *; destruct n as [|[sz|] ns]; cbn in Htr; try easy.
      destruct Htr as (oo & ss & Hr & Hp & Hl & ->). exists oo, sz, ss. split; [auto|]. split; [auto|]. split; [|auto].
      cbn in Hw. destruct Hw as (Hl1 & _ & ->). rewrite lenN_sums, lenN_map. lia. }
    assert (~ In from Fr) as Hnf.
    { intros Hi. apply occ_in in Hi. specialize (Hs from). occs. rewrite dl_same in Hs.
      pose proof (lt1_1 from (length h)). lia. }
    destruct (ensure_ok B mine h1 from (Some ec) rf ks e ec Fr Hf1 Hec He Hec Htok Hnf) as
      (r & h2 & E2 & C2 & Hf2 & (nn & sl & Hr2 & Hls & Hys) & Hcase & Hkeep).
    assert (chg h h2 (from :: Fr)) as C12.
    { eapply chg_sub; [eapply chg_trans; [exact C1|exact C2]| |].
      - intros x _ [<-|Hx]; [now left|exact Hx].
      - intros x _ Hx. apply HWo. exact Hx. }
    assert (ginner_to B ec e from true M h = Ok (set_to M (Some from) 0 0, h2)) as Et.
    { unfold ginner_to. rewrite Hto. run (gset_owner_ok _ _ _ _ ec Hf). run E2. reflexivity. }
    assert (szsrc h2 l g n) as Hsz2.
    { destruct g as [a|a s|a s|a rr|a c|]; try exact Hsz. destruct Hsz as (oo & kk & ss & Hrr & Hpr).
      specialize (Hga rr (or_introl eq_refl)). destruct (Hkeep rr oo kk ss Hga (Htab _ _ _ _ Hrr)) as (o1 & H').
      exists o1, kk, ss. auto. }
    assert (all3 (rep h2 l) cm ws Fm) as Ham2.
    { eapply reps_chg; [exact C12|exact Ham|]. eapply sep_dis; [exact Hs|]. intros x. occs. lia. }
    assert (forall L, sep (length h) (from :: Fr ++ List.concat Fm ++ L) ->
              sep (length h2) (from :: r :: List.concat Fm ++ L)) as HS.
    { intros L HL x. specialize (HL x). unfold h1 in Hcase. rewrite upd_len in Hcase.
      destruct Hcase as [(-> & -> & -> & _)|(-> & -> & _)]; [|rewrite lt1_S]; occs; lia. }
    assert (sep (length h2) (from :: r :: List.concat Fm)) as Hs2.
    { rewrite <- (app_nil_r (List.concat Fm)). apply HS. now rewrite app_nil_r. }
    assert (exists h3, gmove_inner B BL (S l) g from from r (lenN u) 0 (lenN ws) 0 h2 = Ok (tt, h3) /\
       length h3 = length h2 /\ chg h2 h3 [from; r] /\ pat h3 l (mkP from r cm ws Fm) nn) as (h3 & Em & L3 & C3 & P3).
    { destruct (N.eq_dec (lenN u) 0) as [Z|Z].
      - exists h2. split; [unfold gmove_inner; now rewrite Nat.eqb_refl, Z|]. split; [auto|]. split.
        { eapply chg_sub; [apply chg_refl|easy|]. intros x _ [<-|[<-|[]]]; eexists; split; eauto. }
        exists (Some ec), (Some ec), ks, sl. cbn [pa pr pks pns pF]. apply lenN_0 in Z. subst u.
        change (lenN (@nil (node T))) with 0 in *. apply lenN_0 in Hc1. subst c1.
        split; [auto|]. split; [auto|]. split; [auto|]. split; [exact Hpk|]. split; [auto|]. split; [auto|].
        split; [auto|]. split; [|auto].
        destruct Hok as [Z|[Z|Hrel]]; [lia|easy|].
        destruct n as [|[sz|] ns]; try easy. cbn [kids app] in Ek. subst ns.
        destruct rf as [r0|]; cbn [trep] in Htr; [|easy]. destruct Htr as (oo & ss & Hr & Hp & _).
        destruct (Hys sz ss r0 oo eq_refl (Htab _ _ _ _ Hr) Hp) as [HP _].
        cbn in Hw. destruct Hw as (_ & _ & ->). exact HP.
      - apply (shift_inner h2 l g n u ws from (Some ec) ks c1 cm Fm r (Some ec) nn sl (lenN u)); auto. lia. }
    exists (mkP from r cm ws Fm), nn, h3. cbn [pa pns]. split.
    { rewrite (gturn_inner f ec e (S l) g from true (lenN u + lenN ws) (lenN u) M h cur _ h2 from (lenN ws) r h3 (csize ws) Hc Et eq_refl); cbn [set_to gm_off gm_tosize].
      - rewrite N.add_0_l. destruct (N.eqb_spec cur (lenN ws)) as [Z|_]; [lia|].
        unfold gbind, gret. rewrite N.eqb_refl. reflexivity.
      - la.
      - la.
      - eapply grelaxed_ok; eauto.
      - exact Em.
      - la.
      - rewrite N.add_0_l. apply (pat_last h3 l _ nn (lenN ws) P3 Hwne eq_refl). }
    split.
    { eapply chg_sub; [eapply chg_trans; [exact C12|exact C3]| |].
      - intros x Hx Hi. apply in_app_or in Hi as [Hi|[<-|[<-|[]]]]; [exact Hi|now left|].
        unfold h1 in Hcase. rewrite upd_len in Hcase. destruct Hcase as [(_ & -> & _)|[-> _]]; [right; now left|lia].
      - intros x _ Hx. apply HWo. exact Hx. }
    split; [exact P3|]. split; [reflexivity|]. intros L HL. rewrite L3. unfold pfp. cbn [pa pr pF]. cbn [app] in HL |- *. apply HS, HL.
  - destruct (make_inner_ok B BL mine h ec l Hec) as (h1 & E1 & C1 & L1 & P1).
    set (q0 := mkP (S (length h)) (length h) [] [] []) in *.
    assert (ginner_to B ec e from false M h = Ok (set_to M (Some (pa q0)) 0 0, h1)) as Et.
    { unfold ginner_to. rewrite Hto. run E1. reflexivity. }
    assert (forall x oo b, at_ h x oo b -> at_ h1 x oo b) as Hkeep.
    { intros x oo b H. eapply chg_at; eauto. }
    assert (szsrc h1 l g n) as Hsz1.
    { destruct g as [a|a s|a s|a rr|a c|]; try exact Hsz. destruct Hsz as (oo & kk & ss & Hrr & Hpr).
      exists oo, kk, ss. auto. }
    assert (kids n = u ++ ws ++ []) as Ek' by now rewrite app_nil_r.
    assert (pre (c1 ++ cm ++ []) ks) as Hpk' by now rewrite app_nil_r.
    destruct (move_inner h1 l g n u ws [] from o rf ks c1 cm [] Fm q0 (Some 0) (lenN u) 0 0 Hsz1 Ek' (Hkeep _ _ _ Hf) Hpk' Hc1)
      as (h2 & E2 & L2 & C2 & P2); auto.
    { eapply reps_chg; [exact C1|exact Ham|easy]. }
    { pose proof (at_lt _ _ _ _ Hf). cbn [pa q0]. lia. }
    { cbn [pr q0]. intros Hi. destruct g; try easy. destruct Hi as [->|[]]. destruct Hsz as (oo & kk & ss & Hrr & _).
      pose proof (at_lt _ _ _ _ Hrr). lia. }
    { intros x. specialize (Hs x). rewrite L1, !lt1_S. unfold pfp. cbn [pa pr pF q0]. occs. lia. }
    exists (papp q0 cm ws Fm), (Some 0), h2. cbn [papp pa pns q0 app]. split.
    { rewrite (gturn_inner f ec e (S l) g from false (lenN u + lenN ws) (lenN u) M h cur _ h1 (pa q0) (lenN ws) (pr q0) h2 (csize ws) Hc Et eq_refl); cbn [set_to gm_off gm_tosize].
      - rewrite N.add_0_l. destruct (N.eqb_spec cur (lenN ws)) as [Z|_]; [lia|].
        unfold gbind, gret. rewrite N.eqb_refl. reflexivity.
      - la.
      - la.
      - apply (pat_relaxed _ _ _ _ P1).
      - exact E2.
      - la.
      - rewrite N.add_0_l. apply (pat_last h2 l _ (Some 0) (lenN ws) P2 Hwne eq_refl). }
    split.
    { eapply chg_sub; [eapply chg_trans; [exact C1|exact C2]| |].
      - cbn [pa pr q0]. intros x Hx Hi. destruct Hi as [<-|[<-|[]]]; lia.
      - intros x _ Hx. apply HWo. exact Hx. }
    split; [exact P2|]. split; [reflexivity|]. intros L HL x. specialize (HL x). rewrite L2, L1, !lt1_S.
    unfold pfp. cbn [papp pa pr pF q0]. occs. lia.
Qed.

(** ** An inner node of the input *)
Lemma in_own o x a : In x (own1 o a) -> ow o = true /\ x = a.
Proof. unfold GcRep.own1. destruct (ow o); [intros [<-|[]]; auto|easy]. Qed.

Lemma sim_inner l plan m prod M ps q CF t h ec e g n F R cs :
  core (S l) plan m prod M ps q CF h -> tat B BL mine h (S l) M m t -> gsrc B BL mine h (S l) g n F -> wf (S l) n ->
  flow (toff t) (m_curr m) (ncount n :: cs) -> Forall (fun c => 1 <= c <= width) (m_curr m) ->
  lenN plan <= 3 * width -> mine e = true -> mine ec = true ->
  (is_rel n = true \/ ncount n = width \/ cs = []) ->
  sep (length h) (fps ps q ++ CF ++ tfp t ++ F ++ R) ->
  exists m' prod' M' ps' q' CF' t' h',
    gvisit B BL (S l) ec e M g h = Ok (M', h') /\
    (forall p, pos_ok B BL (S l) p n -> is_sub p = true -> merge_inner B BL m (S l) p = Ok m') /\
    step (S l) plan m prod M ps q CF t h n F R cs m' prod' M' ps' q' CF' t' h'.
Proof.
  intros Hco Ht (from & qv & Ea & Hr & Ev & Ep & Ek & Hg) Hw Hfl Hb H3 He Hec Hstr Hs.
  pose proof (wf_kids _ _ _ _ Hw) as Hwk. pose proof (wf_count_le _ _ _ _ Hw) as Hcl.
  pose proof (wf_count_pos _ _ _ _ Hw) as Hcp. pose proof (wf_size _ _ _ _ Hw) as Hns.
  destruct n as [|szo ns]; [easy|]. set (n := Inner szo ns) in *. change (ncount n) with (lenN ns) in *. change (kids n) with ns in *.
  destruct (m_curr m) as [|cur curr] eqn:Ecur; [easy|].
  pose proof (Forall_inv Hb) as Hcur. pose proof (Forall_inv_tail Hb) as Hb'. cbn beta in Hcur.
  assert (gcurr M = Ok cur) as Egc by (unfold gcurr; now rewrite (co_curr _ _ _ _ _ _ _ _ _ _ _ _ Hco), Ecur).
  pose proof Hr as Hr0. unfold n in Hr. cbn [GcRep.rep] in Hr.
  destruct Hr as (o & rf & ks & cs0 & Fr & Fs & Hat & Hpre & Hcap & Htr & Ham & EF).
  assert (szsrc h l g n) as Hsz.
  { destruct g as [a|a s|a s|a r|a c|]; cbn [szsrc]; try (exists qv; exact Hg).
    destruct Hg as (o' & ks' & Hat'). assert (rf = Some r) as -> by (unfold at_ in *; congruence).
    destruct szo as [sz|]; cbn [trep] in Htr; [|easy]. destruct Htr as (oo & ss & Hrr & Hp & _).
    exists oo, (Some (lenN sz)), ss. split; [auto|]. cbn in Hw. destruct Hw as (_ & _ & Esz). cbn [n kids]. rewrite <- Esz. exact Hp. }
  assert (forall r, In r (szadr g) -> rf = Some r) as Hga.
  { intros r Hi. destruct g as [a|a s|a s|a r'|a c|]; try easy. destruct Hi as [<-|[]].
    destruct Hg as (o' & ks' & Hat'). unfold at_ in *; congruence. }
  assert (all3 (rep h l) cs0 ns Fs) as Hamf by exact Ham.
  cbn [gvisit]. unfold gmerge_inner.
  run (glift_ok _ _ h Ea). run Ev. run (glift_ok _ _ h Ep). run (glift_ok _ _ h Ek). run (glift_ok _ _ h Egc).
  destruct (N.eqb_spec (nsize n) 0) as [Z|_]; [la|].
  assert (forall x, In x F -> owned mine h x) as HFo by (intros x Hx; eapply rep_owned; eauto).
  assert (forall x, In x (pa q :: pr q :: CF ++ tfp t ++ F) -> owned mine h x) as HWo.
  { destruct (co_pat _ _ _ _ _ _ _ _ _ _ _ _ Hco) as (nn & Hp). destruct (pat_owned _ _ _ _ _ _ _ Hp).
    intros x [<-|[<-|Hx]]; auto. apply in_app_or in Hx as [Hx|Hx].
    - eapply cand_owned; [exact (co_cand _ _ _ _ _ _ _ _ _ _ _ _ Hco)|auto].
    - apply in_app_or in Hx as [Hx|Hx]; auto. destruct t as [|ta ts|tq]; cbn [tfp tat] in Hx, Ht; [easy| |].
      + destruct Ht as (Z & _). easy.
      + destruct Ht as (l' & n0 & [= <-] & _ & _ & _ & _ & _ & _ & _ & Hp2).
        destruct (pat_owned _ _ _ _ _ _ _ Hp2). destruct Hx as [<-|[<-|Hx]]; auto.
        destruct Hp2 as (? & ? & ? & ? & _ & _ & _ & _ & _ & _ & _ & _ & Hr3). exact (reps_owned _ _ _ _ _ _ _ _ Hr3 x Hx). }
  destruct t as [|ta ts|tq]; cbn [tat toff tfp] in Ht, Hs; cbn [toff] in Hfl; [|destruct Ht as (Z & _); easy|].
  - destruct Ht as [Eto Emt]. rewrite Eto. destruct Hfl as [[Hlt Hfl]|[[Heq Hfl]|[_ [Z _]]]]; [| |la].
    + (* the node is started *)
      rewrite N.add_0_l in Hlt. destruct (N.eqb_spec cur (lenN ns)) as [Z|_]; [la|].
      run (gcan_mutate_ok _ _ _ _ e Hat).
      assert (is_rel n = true) as Hrel.
      { destruct Hstr as [Hrel|[Z|Z]]; [exact Hrel|la|]. subst cs. cbn [flow] in Hfl. easy. }
      destruct (start_inner (N.to_nat (lenN ns)) ec e l g from _ (lenN ns) 0 M h cur o rf ks n [] ns [] cs0 Fs Fr Egc Eto Hw Hat eq_refl He Hec Hcap)
        as (tq & nq & h' & E & C & P & EP & S'); auto.
      { intros x. specialize (Hs x). rewrite EF in Hs. occs. la. }
      exists (mset m (Some (minner ns))), prod, (set_to M (Some (pa tq)) (lenN ns) (csize ns)), ps, q, CF, (TI tq), h'.
      split; [exact E|]. split.
      { intros p Hp Hsub. rewrite (vinner m l n p Hp Hsub cur curr Ecur), Emt.
        change (ncount n) with (lenN ns). change (kids n) with ns.
        destruct (N.eqb_spec cur (lenN ns)) as [Z|_]; [la|].
        pose proof (vturn_inner (N.to_nat (lenN ns)) m l p n cur curr [] [] ns [] Hp Hsub Ecur) as E'. rewrite Emt, app_nil_r in E'.
        change (lenN (@nil (node T))) with 0 in E'. change (kids n) with ns in E'. rewrite E'; [|reflexivity|la|reflexivity|la|la]. cbn [app].
        rewrite !N.add_0_l, N.eqb_refl.
        destruct (N.eqb_spec cur (lenN ns)); [la|]. reflexivity. }
      assert (chg h h' F) as CF0.
      { eapply chg_sub; [exact C| |intros x _ Hx; auto]. intros x _ Hx. rewrite EF. rewrite !in_app_iff in *. clear - Hx. tauto. }
      constructor.
      * apply core_to. eapply core_chg; [exact Hco|exact CF0|]. eapply sep_dis; [exact Hs|].
        intros x. occs. la.
      * cbn [tat]. exists l, nq. rewrite EP. repeat split; auto.
        -- cbn [mset m_to]. unfold minner, psz. now rewrite EP.
        -- intros ->. change (lenN (@nil (node T))) with 0 in *. la.
        -- cbn [mset m_curr]; rewrite Ecur; cbn [hd]; la.
      * cbn [toff mset m_curr]. rewrite Ecur, EP. rewrite N.add_0_l in Hfl. exact Hfl.
      * cbn [mset m_curr]. now rewrite Ecur.
      * eapply chg_sub; [exact CF0| |intros x _ Hx; apply HWo; exact Hx].
        intros x _ Hx. right. right. apply in_or_app. now right.
      * cbn [tfp]. assert (sep (length h') (pfp tq ++ fps ps q ++ CF ++ R)) as HS.
        { apply S'. intros x. specialize (Hs x). rewrite EF in Hs. occs. la. }
        intros x. specialize (HS x). occs. la.
      * assert (~ In (pa q) F /\ ~ In (pr q) F) as [D1 D2].
        { split; (eapply sep_dis with (A := [pa q; pr q]) (B' := F); [exact Hs|intros x; ofs; la|cbn; auto]). }
        split; [eapply ktl_chg; [exact CF0|auto]|]. split; [eapply ttl_chg; [exact CF0|auto]|].
        split; [eapply kept_chg; [exact CF0|]; eapply sep_dis; [exact Hs|]; intros x; occs; la|]. left. repeat split; auto.
    + (* the node is taken as it is *)
      rewrite N.add_0_l in Heq. destruct (N.eqb_spec cur (lenN ns)) as [_|Z]; [|la].
      destruct (add_after B BL mine (S l) plan m prod M ps q CF h h [] ec from n F R cur curr Hco (chg_refl mine h) eq_refl)
        as (m' & M' & ps' & q' & CF' & h' & E1 & E2 & Hco' & Ec' & Et' & G1 & G2 & G3 & _ & C & S' & K1 & K2 & Hcase); auto.
      { easy. }
      exists m', (prod ++ [n]), M', ps', q', CF', TN, h'. split; [exact E1|]. split.
      { intros p Hp Hsub. rewrite (vinner m l n p Hp Hsub cur curr Ecur), Emt. change (ncount n) with (lenN ns).
        destruct (N.eqb_spec cur (lenN ns)) as [_|Z]; [exact E2|la]. }
      constructor; auto.
      * cbn [tat]. rewrite G1. auto.
      * cbn [toff]. rewrite Ec'. exact Hfl.
      * now rewrite Ec'.
      * eapply chg_sub; [exact C| |intros x _ Hx; apply HWo; exact Hx].
        intros x _ Hx. rewrite app_nil_r in Hx. cbn in Hx |- *. rewrite in_app_iff. clear - Hx. tauto.
      * eapply eff_grew; eauto using kept_refl.
  - destruct Ht as (l' & nq & [= <-] & Eto & Eoff & Ets & Emt & Hts & Htc & Hwt & Hpt). rewrite Eto.
    run (gcan_mutate_ok _ _ _ _ e Hat).
    set (fm := owned_by (mkG o (GInner rf ks)) e).
    assert (exists o1 o2 k1 k2 s2, at_ h (pa tq) o1 k1 /\ ow o1 = true /\ at_ h (pr tq) o2 (GTable k2 s2) /\ ow o2 = true) as
      (to1 & to2 & tk1 & tk2 & ts2 & Hta & Hto1 & Htb & Hto2).
    { destruct Hpt as (o1 & o2 & k1 & s2 & H1 & H2 & _ & _ & H5 & H6 & _). exists o1, o2. eauto 8. }
    assert (from <> pa tq) as Hne.
    { intros ->. assert (o = to1) as -> by (unfold at_ in *; congruence).
      unfold GcRep.own1 in EF. rewrite Hto1 in EF. subst F. specialize (Hs (pa tq)). ofs. rewrite dl_same in Hs.
      pose proof (lt1_1 (pa tq) (length h)). la. }
    assert (~ In (pr tq) (szadr g)) as Hnr.
    { intros Hi. apply Hga in Hi. subst rf. destruct szo as [sz|]; cbn [trep] in Htr; [|easy].
      destruct Htr as (oo & ss & Hrr & _ & _ & EFr). assert (oo = to2) as -> by (unfold at_ in *; congruence).
      unfold GcRep.own1 in EFr. rewrite Hto2 in EFr. subst Fr F. specialize (Hs (pr tq)). ofs. rewrite dl_same in Hs.
      pose proof (lt1_1 (pr tq) (length h)). la. }
    assert (ginner_to B ec e from fm M h = Ok (M, h)) as Egt by (unfold ginner_to; now rewrite Eto).
    assert (exists ys b, ns = ys ++ b /\ lenN ys = N.min (lenN ns) (cur - lenN (pns tq))) as (ys & b & Exs & Hys).
    { exists (takeN (N.min (lenN ns) (cur - lenN (pns tq))) ns), (dropN (N.min (lenN ns) (cur - lenN (pns tq))) ns).
      rewrite takeN_dropN, lenN_takeN. split; [reflexivity|la]. }
    rewrite Ecur in Htc. cbn [hd] in Htc. assert (lenN (pns tq) + lenN ys <= cur) as Hle by la.
    assert (lenN (pns tq) <= cur) as Hle2 by la.
    assert (0 < lenN (pns tq)) as Htp by now apply lenN_pos.
    rewrite Exs in Ham. destruct (all3_split _ _ _ _ _ Ham) as (cy & cb & Fy & Fb & Ecs0 & EFs & Hay & Hab).
    assert (lenN cy = lenN ys) as Hcy by (pose proof (all3_len _ _ _ _ Hay); la).
    assert (sep (length h) (pfp tq ++ List.concat Fy)) as Hsm.
    { intros x. specialize (Hs x). rewrite EF, EFs in Hs. occs. la. }
    assert (Hpre2 : pre ([] ++ cy ++ cb) ks) by (cbn [app]; rewrite <- Ecs0; exact Hpre).
    destruct (move_inner h l g n [] ys b from o rf ks [] cy cb Fy tq nq 0 (lenN (pns tq)) (csize (pns tq)) Hsz Exs Hat Hpre2 eq_refl Hay Hpt Hne Hnr)
      as (h1 & Em & L1 & C1 & P1); auto.
    { la. }
    set (tq' := papp tq cy ys Fy) in *.
    assert (EP : pns tq' = pns tq ++ ys) by reflexivity.
    assert (Hne' : pns tq' <> []) by (rewrite EP; destruct (pns tq); easy).
    assert (Elen : lenN (pns tq') = lenN (pns tq) + lenN ys) by (rewrite EP; apply lenN_app).
    rewrite (gturn_inner (N.to_nat (lenN ns)) ec e (S l) g from fm (lenN ns) 0 M h cur M h (pa tq) (lenN ys) (pr tq) h1 (csize (pns tq')) Egc Egt Eto);
      [|rewrite Eoff; la|rewrite Eoff; la|apply (pat_relaxed _ _ _ _ Hpt)|rewrite Eoff, Ets; exact Em|rewrite Eoff; la
       |rewrite Eoff; apply (pat_last h1 l tq' nq _ P1 Hne'); la].
    rewrite Eoff.
    assert (chg h h1 (pa tq :: pr tq :: F)) as C1'.
    { eapply chg_sub; [exact C1| |].
      - intros x _ [<-|[<-|[]]]; [now left|right; now left].
      - intros x _ Hx. apply HWo. right. right. rewrite in_app_iff. right. rewrite in_app_iff. unfold tfp, pfp. cbn in Hx |- *. tauto. }
    assert (core (S l) plan m prod M ps q CF h1) as Hco1.
    { eapply core_chg; [exact Hco|exact C1'|]. eapply sep_dis; [exact Hs|]. intros x. ofs. la. }
    assert (forall x, In x (pa tq :: pr tq :: F) -> (x < length h)%nat /\ ~ In x (fps ps q ++ CF)) as HW.
    { intros x Hx. split; [eapply sep_lt; [exact Hs|]; rewrite !in_app_iff; unfold pfp; cbn in Hx |- *; tauto|].
      revert x Hx. eapply sep_dis; [exact Hs|]. intros x. ofs. la. }
    assert (forall p, pos_ok B BL (S l) p n -> is_sub p = true -> merge_inner B BL m (S l) p =
       (m' <- (if cur =? lenN (pns tq') then add_child B m (minner (pns tq')) (csize (pns tq'))
          else Ok (mset m (Some (minner (pns tq'))))) ;;
        if lenN ys =? lenN ns then Ok m'
        else merge_inner_go B BL (N.to_nat (lenN ns)) m' (S l) p ns (lenN ys) (lenN ns))) as Hv.
    { intros p Hp Hsub. rewrite (vinner m l n p Hp Hsub cur curr Ecur), Emt.
      change (ncount n) with (lenN ns). change (kids n) with ns.
      pose proof (vturn_inner (N.to_nat (lenN ns)) m l p n cur curr (pns tq) [] ys b Hp Hsub Ecur) as E'.
      change (lenN (@nil (node T))) with 0 in E'. change (kids n) with ns in E'.
      rewrite E'; [|now rewrite Emt|la|exact Exs|rewrite <- Exs; exact Hys|la]. rewrite N.add_0_l. reflexivity. }
    assert (Forall (wf l) (pns tq')) as Hwt'.
    { rewrite EP. apply Forall_app. split; [auto|]. rewrite Exs in Hwk. now apply Forall_app in Hwk. }
    assert (sep (length h) (pfp tq' ++ fps ps q ++ CF ++ own1 o from ++ Fr ++ List.concat Fb ++ R)) as Hs1.
    { intros x. specialize (Hs x). rewrite EF, EFs in Hs. unfold tq', papp. ofs. cbn [pa pr pF]. occs. la. }
    assert (wfn : lenN (pns tq') = cur -> wf (S l) (minner (pns tq'))).
    { intros Z. apply rel_wf_intro; [la|auto]. }
    rewrite <- Elen.
    destruct (N.eqb_spec cur (lenN (pns tq'))) as [Ecut|Ecut].
    + (* the node is complete *)
      destruct (count_pat B BL mine h1 l tq' nq (lenN (pns tq')) P1) as (h2 & Ec2 & L2 & C2 & P2).
      { intros x. specialize (Hs1 x). rewrite L1. occs. la. }
      assert (core (S l) plan m prod (set_to M (Some (pa tq)) (lenN (pns tq')) (csize (pns tq'))) ps q CF h2) as Hco2.
      { apply core_toM. eapply core_chg; [exact Hco1|exact C2|]. eapply sep_dis; [exact Hs1|]. intros x. ofs. la. }
      assert (chg h h2 (pa tq :: pr tq :: F)) as C12.
      { eapply chg_sub; [eapply chg_trans; [exact C1'|exact C2]| |].
        - intros x _ Hx. apply in_app_or in Hx as [Hx|[<-|[]]]; [exact Hx|right; now left].
        - intros x _ Hx. apply HWo. right. right. rewrite in_app_iff. right. rewrite in_app_iff. unfold tfp, pfp. cbn in Hx |- *. tauto. }
      pose proof (pat_rep _ _ _ _ _ _ P2) as Hrt. change (Inner (Some (psz tq')) (pns tq')) with (minner (pns tq')) in Hrt.
      destruct (add_after B BL mine (S l) plan m prod _ ps q CF h h2 (pa tq :: pr tq :: F) ec (pa tq') (minner (pns tq')) (pfp tq')
         (own1 o from ++ Fr ++ List.concat Fb ++ R) cur curr Hco2 C12)
        as (m' & M' & ps' & q' & CF' & h' & E1 & E2 & Hco' & Ec' & Et' & G1 & G2 & G3 & Ch & C & S' & K1 & K2 & Hcase); auto.
      { congruence. }
      { rewrite L2, L1. intros x. specialize (Hs1 x). occs. la. }
      assert (Hnz : nsize (minner (pns tq')) = csize (pns tq')) by apply nsize_inner.
      rewrite Hnz in E1, E2.
      set (M3 := set_to M' None (lenN (pns tq')) (csize (pns tq'))).
      assert ((_ <~ gset_count (pr tq) (lenN (pns tq')) ;;
               m' <~ gadd_child B ec (pa tq) (csize (pns tq')) (set_to M (Some (pa tq)) (lenN (pns tq')) (csize (pns tq'))) ;;
               gret (set_to m' None (lenN (pns tq')) (csize (pns tq')))) h1 = Ok (M3, h')) as Etot.
      { change (pr tq) with (pr tq'). run Ec2. change (pa tq') with (pa tq) in E1. run E1. reflexivity. }
      run Etot.
      assert (core (S l) plan m' (prod ++ [minner (pns tq')]) M3 ps' q' CF' h') as Hco3 by now apply core_toM.
      destruct (N.eqb_spec cur (lenN (pns tq'))) as [_|Z]; [|easy].
      rewrite E2 in Hv. cbn [rbind] in Hv. rewrite N.add_0_l.
      assert (lenN ns = lenN ys + lenN b) as Hlen by (rewrite Exs, lenN_app; la).
      destruct (N.eqb_spec (lenN ys) (lenN ns)) as [Eall|Eall].
      * (* nothing is left *)
        exists m', (prod ++ [minner (pns tq')]), M3, ps', q', CF', TN, h'. split; [reflexivity|]. split; [exact Hv|].
        assert (flow 0 curr cs) as Hfl'.
        { destruct Hfl as [[? _]|[[? ?]|[? _]]]; [la|auto|la]. }
        constructor; auto.
        -- cbn [tat]. auto.
        -- cbn [toff]. now rewrite Ec'.
        -- now rewrite Ec'.
        -- eapply chg_sub; [exact C| |intros x _ Hx; apply HWo; exact Hx].
           intros x _ Hx. unfold tfp, pfp. cbn in Hx |- *. rewrite !in_app_iff in *. cbn in Hx |- *. rewrite in_app_iff. clear - Hx. tauto.
        -- cbn [tfp]. intros x. specialize (S' x). occs. la.
        -- eapply eff_grew; eauto using kept_refl. easy.
      * (* the rest starts the next node *)
        assert (0 < lenN b) as Hbp by la.
        destruct Hfl as [[? _]|[[? ?]|(Hgt & Hpos & Hnx & Hfl)]]; [la|la|].
        destruct curr as [|cur2 curr2]; [cbn in Hnx; la|]. cbn [hd] in Hnx.
        pose proof (Forall_inv Hb') as Hcur2. cbn beta in Hcur2.
        assert (gcurr M3 = Ok cur2) as Egc3.
        { unfold gcurr. now rewrite (co_curr _ _ _ _ _ _ _ _ _ _ _ _ Hco3), Ec'. }
        set (W := pa tq :: pr tq :: pa q :: pr q :: CF).
        assert (chg h h' W) as CW.
        { assert (chg h h2 [pa tq; pr tq]) as C12'.
          { eapply chg_sub; [eapply chg_trans; [exact C1|exact C2]| |].
            - intros x _ Hx. clear - Hx. cbn in Hx |- *. intuition.
            - intros x _ Hx. apply HWo. right. right. rewrite in_app_iff. right. rewrite in_app_iff. unfold tfp, pfp. cbn in Hx |- *. tauto. }
          apply (chg_trans mine h h2 h' [pa tq; pr tq] (pa q :: pr q :: CF) C12' Ch). }
        assert (forall x, In x F -> ~ In x W) as HFW.
        { eapply sep_dis; [exact Hs|]. intros x. unfold W. ofs. la. }
        pose proof (rep_chg _ _ _ _ _ _ CW _ _ _ _ Hr0 HFW) as Hr3. unfold n in Hr3. cbn [GcRep.rep] in Hr3.
        destruct Hr3 as (o3 & rf3 & ks3 & cs3 & Fr3 & Fs3 & Hat3 & Hpre3 & Hcap3 & Htr3 & Ham3 & EF3).
        assert (at_ h' from o (GInner rf ks)) as Hat3'.
        { eapply chg_at_own; [exact CW|exact Hat|]. intros x Hx. apply HFW. rewrite EF. apply in_or_app. now left. }
        assert (trep B mine h' rf szo Fr) as Htr3'.
        { eapply trep_chg; [exact CW|exact Htr|]. intros x Hx. apply HFW. rewrite EF, !in_app_iff. auto. }
        assert (all3 (rep h' l) cb b Fb) as Hab3.
        { eapply reps_chg; [exact CW|exact Hab|]. intros x Hx. apply HFW. rewrite EF, EFs, concat_app, !in_app_iff. auto. }
        assert (szsrc h' l g n) as Hsz3.
        { destruct g as [a|a s|a s|a r|a c|]; try exact Hsz. cbn [szsrc].
          specialize (Hga r (or_introl eq_refl)). subst rf. destruct szo as [sz|]; cbn [trep] in Htr3'; [|easy].
          destruct Htr3' as (oo & ss & Hrr & Hp & _).
          exists oo, (Some (lenN sz)), ss. split; [auto|]. cbn in Hw. destruct Hw as (_ & _ & Esz). cbn [n kids]. rewrite <- Esz. exact Hp. }
        destruct (N.to_nat (lenN ns)) as [|fu] eqn:Efu; [la|].
        destruct (start_inner fu ec e l g from fm (lenN ns) (lenN ys) M3 h' cur2 o rf ks n ys b cy cb Fb Fr Egc3 eq_refl Hw Hat3' eq_refl He Hec Hcap)
          as (t3 & n3 & h3 & E & C3 & P3 & EP3 & S3); auto.
        { la. } { la. } { left. la. }
        { intros x. specialize (S' x). occs. la. }
        exists (mset m' (Some (minner b))), (prod ++ [minner (pns tq')]),
          (set_to M3 (Some (pa t3)) (lenN b) (csize b)), ps', q', CF', (TI t3), h3.
        split; [exact E|]. split.
        { intros p Hp Hsub. rewrite (Hv p Hp Hsub).
          pose proof (vturn_inner fu m' l p n cur2 curr2 [] ys b [] Hp Hsub Ec') as E'. rewrite Et', app_nil_r in E'.
          change (lenN (@nil (node T))) with 0 in E'. change (kids n) with ns in E'. rewrite E'; [|reflexivity|la|exact Exs|la|la]. cbn [app].
          rewrite <- Hlen, N.eqb_refl.
          destruct (N.eqb_spec cur2 (lenN b)); [la|]. reflexivity. }
        assert (sep (length h3) (pfp t3 ++ fps ps' q' ++ CF' ++ R)) as HS.
        { apply S3. intros x. specialize (S' x). occs. la. }
        assert (forall x, In x (fps ps' q' ++ CF') -> ~ In x (own1 o from ++ Fr)) as Hd.
        { eapply sep_dis; [exact S'|]. intros x. occs. la. }
        assert (In (pa q') (fps ps' q') /\ In (pr q') (fps ps' q')) as [I1 I2].
        { unfold fps, pfp. rewrite !in_app_iff. cbn [In]. tauto. }
        constructor.
        -- apply core_to. eapply core_chg; [exact Hco3|exact C3|exact Hd].
        -- cbn [tat]. exists l, n3. rewrite EP3. repeat split; auto.
           ++ cbn [mset m_to]. unfold minner, psz. now rewrite EP3.
           ++ intros ->. change (lenN (@nil (node T))) with 0 in *. la.
           ++ cbn [mset m_curr]; rewrite Ec'; cbn [hd]; la.
           ++ rewrite Exs in Hwk. now apply Forall_app in Hwk.
        -- cbn [toff mset m_curr]. rewrite Ec', EP3. replace (lenN b) with (lenN (pns tq) + lenN ns - cur) by la. exact Hfl.
        -- cbn [mset m_curr]. now rewrite Ec'.
        -- eapply chg_sub; [eapply chg_trans; [exact C|exact C3]| |intros x _ Hx; apply HWo; exact Hx].
           intros x _ Hx. unfold tfp, pfp. rewrite EF in Hx |- *. cbn in Hx |- *. rewrite !in_app_iff in *. cbn in Hx |- *. rewrite !in_app_iff in *. clear - Hx. tauto.
        -- cbn [tfp]. intros x. specialize (HS x). occs. la.
        -- eapply eff_grew; [exact Hcase|eapply kept_chg; [exact C3|intros x Hx; apply Hd, in_or_app; auto]|reflexivity|easy| |].
           ++ eapply ktl_trans; [exact K1|eapply ktl_chg; [exact C3|apply Hd, in_or_app; auto]].
           ++ eapply ttl_trans; [exact K2|eapply ttl_chg; [exact C3|apply Hd, in_or_app; auto]].
    + (* the node is appended *)
      destruct Hfl as [[Hlt Hfl]|[[? _]|[? _]]]; [|la|la].
      assert (b = [] /\ ys = ns) as [-> ->].
      { assert (lenN b = 0) as Zb by (assert (lenN ns = lenN ys + lenN b) by (rewrite Exs; apply lenN_app); la).
        apply lenN_0 in Zb. subst b. rewrite app_nil_r in Exs. auto. }
      exists (mset m (Some (minner (pns tq')))), prod, (set_to M (Some (pa tq)) (lenN (pns tq')) (csize (pns tq'))), ps, q, CF,
        (TI tq'), h1.
      split; [unfold gbind, gret; now rewrite N.add_0_l, N.eqb_refl|]. split.
      { intros p Hp Hsub. rewrite (Hv p Hp Hsub).
        destruct (N.eqb_spec cur (lenN (pns tq'))); [la|]. rewrite N.eqb_refl. reflexivity. }
      assert (~ In (pa q) (pa tq :: pr tq :: F) /\ ~ In (pr q) (pa tq :: pr tq :: F)) as [D1 D2].
      { split; (eapply sep_dis with (A := [pa q; pr q]) (B' := pa tq :: pr tq :: F); [exact Hs|intros x; ofs; la|cbn; auto]). }
      constructor.
      * now apply core_to.
      * cbn [tat]. exists l, nq. repeat split; auto. cbn [mset m_curr]; rewrite Ecur; cbn [hd]; la.
      * cbn [toff mset m_curr]. rewrite Ecur, Elen. exact Hfl.
      * cbn [mset m_curr]. now rewrite Ecur.
      * eapply chg_sub; [exact C1'| |intros x _ Hx; apply HWo; exact Hx].
        intros x _ Hx. unfold tfp, pfp. cbn in Hx |- *. rewrite !in_app_iff. cbn. rewrite !in_app_iff. tauto.
      * cbn [tfp]. rewrite L1. intros x. specialize (Hs1 x). occs. la.
      * split; [eapply ktl_chg; [exact C1'|auto]|]. split; [eapply ttl_chg; [exact C1'|auto]|].
        split; [eapply kept_chg; [exact C1'|]; eapply sep_dis; [exact Hs|]; intros x; ofs; la|]. left. repeat split; auto.
Qed.
End Inner.
