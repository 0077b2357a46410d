(** Dropping elements, on the memory of GcConcat: slice_left. *)
From Coq Require Import List NArith Arith Bool Lia ZifyN ZifyNat ZifyBool.
From Verif Require Import Common NList Rrb RrbInv RrbPos RrbOps RrbSlice RrbTree GcConcat GcRep GcAdd GcInner GcVisit GcTree
  GcVec GcVecRun GcVecTree GcVecUpd GcSlice GcSliceRun.
Import ListNotations.
Local Open Scope N_scope.

Set Default Goal Selector "!".

(** ** Writing entries *)
Lemma write_ok {A} (l : list (option A)) i ys : i + lenN ys <= lenN l -> exists l', write l i ys = Ok l' /\ lenN l' = lenN l.
Proof.
  intros H. unfold write. destruct (N.leb_spec (i + lenN ys) (lenN l)); [|lia]. eexists. split; [reflexivity|].
  rewrite !lenN_app, lenN_takeN, lenN_dropN. lia.
Qed.
Lemma write_len {A} (l l' : list (option A)) i ys : write l i ys = Ok l' -> lenN l' = lenN l.
Proof.
  unfold write. destruct (N.leb_spec (i + lenN ys) (lenN l)); [|discriminate]. intros [= <-].
  rewrite !lenN_app, lenN_takeN, lenN_dropN. lia.
Qed.
Lemma write_nil {A} (l : list (option A)) i : i <= lenN l -> write l i [] = Ok l.
Proof.
  intros H. unfold write. change (lenN (@nil (option A))) with 0. rewrite N.add_0_r.
  destruct (N.leb_spec i (lenN l)); [|lia]. cbn [app]. now rewrite takeN_dropN.
Qed.
Lemma write_cons {A} (l l1 l2 : list (option A)) w y ys :
  write l w [y] = Ok l1 -> write l1 (w + 1) ys = Ok l2 -> write l w (y :: ys) = Ok l2.
Proof.
  unfold write. change (lenN [y]) with 1. destruct (N.leb_spec (w + 1) (lenN l)) as [H|H]; [|discriminate]. intros [= <-].
  change (y :: dropN (w + 1) l) with ([y] ++ dropN (w + 1) l).
  rewrite !lenN_app, lenN_takeN, lenN_dropN. change (lenN [y]) with 1. rewrite lenN_cons.
  replace (N.min w (lenN l)) with w by lia. replace (w + (1 + (lenN l - (w + 1)))) with (lenN l) by lia.
  replace (w + (lenN ys + 1)) with (w + 1 + lenN ys) by lia.
  destruct (N.leb_spec (w + 1 + lenN ys) (lenN l)) as [H2|H2]; [|discriminate]. intros [= <-]. f_equal.
  assert (lenN (takeN w l ++ [y]) = w + 1) as L1. { rewrite lenN_snoc, lenN_takeN. lia. }
  change (y :: dropN (w + 1) l) with ([y] ++ dropN (w + 1) l).
  rewrite !(app_assoc (takeN w l) [y]). rewrite takeN_app_le by lia. rewrite (takeN_all (w + 1)) by lia.
  rewrite <- app_assoc. cbn [app]. f_equal. f_equal. f_equal.
  rewrite dropN_app_ge by lia. rewrite dropN_dropN. f_equal. lia.
Qed.
Lemma write_inv {A} (l l' : list (option A)) i ys : write l i ys = Ok l' ->
  i + lenN ys <= lenN l /\ l' = takeN i l ++ ys ++ dropN (i + lenN ys) l.
Proof. unfold write. destruct (N.leb_spec (i + lenN ys) (lenN l)) as [H|H]; [|discriminate]. intros E. now injection E. Qed.
Lemma write10 {A} (s s1 s2 : list (option A)) x ys : write s 1 (map Some ys) = Ok s1 -> write s1 0 [Some x] = Ok s2 -> pre (x :: ys) s2.
Proof.
  intros H1 H2. apply write_inv in H1 as [L1 ->]. apply write_inv in H2 as [_ ->].
  destruct s as [|y s]; [change (lenN (@nil (option A))) with 0 in L1; lia|].
  exists (dropN (1 + lenN (map Some ys)) (y :: s)). reflexivity.
Qed.
Lemma write01 {A} (s s1 s2 : list (option A)) x ys : write s 0 [Some x] = Ok s1 -> write s1 1 (map Some ys) = Ok s2 -> pre (x :: ys) s2.
Proof. intros H1 H2. apply write_inv in H1 as [L1 ->]. apply write_inv in H2 as [_ ->]. eexists. reflexivity. Qed.
Lemma entries_0 {A} (s s1 : list (option A)) y i j : write s 0 [y] = Ok s1 -> 1 <= i -> entries s1 i j = entries s i j.
Proof.
  intros H Hi. pose proof (write_len _ _ _ _ H) as HL. apply write_inv in H as [L1 ->].
  destruct s as [|x s]; [change (lenN (@nil (option A))) with 0 in L1; change (lenN [y]) with 1 in L1; lia|].
  unfold entries, rsliceN. rewrite HL. destruct (_ && _); [|reflexivity]. cbn [rbind]. f_equal. f_equal.
  unfold dropN. replace (N.to_nat i) with (S (N.to_nat (i - 1))) by lia. reflexivity.
Qed.
Lemma pre_keep {A} (ys : list A) s s1 i zs : pre ys s -> write s i zs = Ok s1 -> lenN ys <= i -> pre ys s1.
Proof.
  intros (r & ->) H Hi. apply write_inv in H as [L1 ->]. 
  exists (takeN (i - lenN ys) r ++ zs ++ dropN (i + lenN zs) (map Some ys ++ r)).
  rewrite takeN_app_ge by (rewrite lenN_map; lia). rewrite lenN_map, <- !app_assoc. reflexivity.
Qed.

Lemma upd_same {A} (l : list A) : forall i x, nth_error l i = Some x -> update_at i x l = l.
Proof. induction l as [|y l IH]; intros [|i] x; cbn; try easy; [now intros [= ->]|]. intros H. now rewrite IH. Qed.

Section Left.
Variables B BL : N.
Context {T : Type}.
Variable mine : token -> bool.
Variable nm : bool.
Variable selfmv : T -> T.
Notation sh := (sh B BL).
Notation span := (span B BL).
Notation width := (width B).
Notation lwidth := (lwidth BL).
Notation heap := (gheap T).
Notation rep := (@rep B BL T mine).
Notation ow := (ow mine).
Notation own1 := (own1 mine).
Notation trep := (@trep B T mine).
Notation chg := (@chg T mine).
Notation wf := (@wf T B BL).
Notation pos_ok := (@pos_ok T B BL).
Notation al_ok := (al_ok mine).
Notation mt_ok := (mt_ok mine).
Notation occ_own1 := (occ_own1 mine).
Notation gpr := (@gpr B BL T mine).
Notation leafn := (@leafn BL T mine).
Notation szsrc := (@szsrc B BL T).
Hypothesis HB : 2 <= B.
Hypothesis Hnm : nm = true -> forall x, selfmv x = x.

(** ** The sizes *)
Lemma copy_rel_wr xs : forall (h : heap) r d o w prev init o1 n1 s1 o2 n2 s2,
  at_ h r o1 (GTable n1 s1) -> at_ h d o2 (GTable n2 s2) ->
  (forall a x b, xs = a ++ x :: b -> entry s1 (o + lenN a) = Ok (prev + sumN a + x)) ->
  w + lenN xs <= lenN s2 -> (r = d -> w <= o) ->
  exists h' s2', gcopy_rel (length xs) r d o w prev init h = Ok (tt, h') /\ only h h' d /\
    at_ h' d o2 (GTable n2 s2') /\ write s2 w (map Some (sums init xs)) = Ok s2'.
Proof.
  induction xs as [|x xs IH]; intros h r d o w prev init o1 n1 s1 o2 n2 s2 Hr Hd He Hl Hrd.
  - exists h, s2. cbn [length gcopy_rel sums map]. split; [reflexivity|]. split; [split; auto|]. split; [auto|].
    apply write_nil. change (lenN (@nil N)) with 0 in Hl. lia.
  - cbn [length gcopy_rel]. pose proof (He [] x xs eq_refl) as E0. change (lenN (@nil N)) with 0 in E0.
    change (sumN []) with 0 in E0. rewrite !N.add_0_r in E0. run (gsize_ok _ _ _ _ _ _ _ Hr E0).
    replace (init + (prev + x - prev)) with (init + x) by lia. rewrite lenN_cons in Hl.
    destruct (write_ok s2 w [Some (init + x)]) as (s2' & Ew & Hl').
    { change (lenN [Some (init + x)]) with 1. lia. }
    run (gset_size_ok _ _ _ _ _ _ _ _ Hd Ew).
    set (h1 := update_at d (mkG o2 (GTable n2 s2')) h).
    assert (at_ h1 d o2 (GTable n2 s2')) as Hd1 by (eapply at_upd; eauto).
    assert (tails (w + 1) s2 s2') as Ht.
    { apply drop_tails. intros i Hi. unfold write in Ew. change (lenN [Some (init + x)]) with 1 in Ew.
      destruct (N.leb_spec (w + 1) (lenN s2)); [|discriminate]. injection Ew as <-.
      change (Some (init + x) :: dropN (w + 1) s2) with ([Some (init + x)] ++ dropN (w + 1) s2).
      rewrite app_assoc. rewrite dropN_app_ge by (rewrite lenN_snoc, lenN_takeN; lia). rewrite dropN_dropN. f_equal.
      rewrite lenN_snoc, lenN_takeN. lia. }
    assert (exists o1' n1' s1', at_ h1 r o1' (GTable n1' s1') /\
      forall a y b, xs = a ++ y :: b -> entry s1' (o + 1 + lenN a) = Ok (prev + x + sumN a + y)) as
      (o1' & n1' & s1' & Hr1 & He1).
    { assert (forall a y b, xs = a ++ y :: b -> entry s1 (o + 1 + lenN a) = Ok (prev + x + sumN a + y)) as K.
      { intros a y b ->. specialize (He (x :: a) y b eq_refl). rewrite lenN_cons, sumN_cons in He.
        replace (o + 1 + lenN a) with (o + (lenN a + 1)) by lia. rewrite He. f_equal. lia. }
      destruct (Nat.eq_dec r d) as [->|Hne].
      - assert (s2 = s1) as -> by (unfold at_ in *; congruence). exists o2, n2, s2'. split; [auto|].
        intros a y b E. rewrite <- (K a y b E). apply (entry_tails (w + 1)); [exact Ht|]. specialize (Hrd eq_refl). lia.
      - exists o1, n1, s1. split; [apply at_upd_ne; auto|exact K]. }
    destruct (IH h1 r d (o + 1) (w + 1) (prev + x) (init + x) o1' n1' s1' o2 n2 s2' Hr1 Hd1 He1)
      as (h' & s3 & E & O3 & A3 & W3).
    { lia. } { intros E. specialize (Hrd E). lia. }
    exists h', s3. split; [exact E|]. split; [eapply only_trans; [apply only_upd|exact O3]|]. split; [auto|].
    cbn [sums map]. eapply write_cons; eauto.
Qed.
Lemma copy_sizes_wr (h : heap) l g n u ws b init d w o2 n2 s2 :
  szsrc h l g n -> kids n = u ++ ws ++ b -> at_ h d o2 (GTable n2 s2) ->
  w + lenN ws <= lenN s2 -> (forall r, In r (szadr g) -> r = d -> w <= lenN u) ->
  exists h' s2', gcopy_sizes B BL (S l) g (lenN u) (lenN ws) init d w h = Ok (tt, h') /\ only h h' d /\
    at_ h' d o2 (GTable n2 s2') /\ write s2 w (map Some (sums init (map nsize ws))) = Ok s2'.
Proof.
  intros Hsz Ek Hd Hl Hrd.
  assert (forall q, (gview g = gret q /\ forall u w b init, kids n = u ++ w ++ b ->
        copy_sizes (T := T) B BL (S l) q (lenN u) (lenN w) init = Ok (sums init (map nsize w))) ->
    exists h' s2',
      (q <~ gview g ;; ys <~ glift (copy_sizes (T := T) B BL (S l) q (lenN u) (lenN ws) init) ;;
       ' (k, sz) <~ gtable d ;; sz' <~ glift (write sz w (map Some ys)) ;; gput_table d k sz') h = Ok (tt, h') /\ only h h' d /\
      at_ h' d o2 (GTable n2 s2') /\ write s2 w (map Some (sums init (map nsize ws))) = Ok s2') as K.
  { intros q [Ev Hcs]. rewrite Ev. unfold gbind at 1. unfold gret at 1.
    run (glift_ok _ _ h (Hcs u ws b init Ek)). run (gtable_ok _ _ _ _ _ Hd).
    destruct (write_ok s2 w (map Some (sums init (map nsize ws)))) as (s2' & Ew & Hl').
    { rewrite lenN_map, lenN_sums, lenN_map. lia. }
    run (glift_ok _ _ h Ew). rewrite (gput_table_ok _ _ _ _ _ n2 s2' Hd).
    eexists _, s2'. split; [reflexivity|]. split; [apply only_upd|]. split; [eapply at_upd; eauto|]. auto. }
  destruct g as [a|a s|a s|a r|a c|]; try (destruct Hsz as (q & Hq); exact (K q Hq)).
  clear K. destruct Hsz as (o & k & sl & Hr & Hpr). cbn [gcopy_sizes].
  assert ((if lenN u =? 0 then gret 0 else gsize r (lenN u - 1)) h = Ok (csize u, h)) as E0.
  { destruct (N.eqb_spec (lenN u) 0) as [Z|Z].
    - apply lenN_0 in Z. subst. reflexivity.
    - destruct u as [|x u' _] using rev_ind; [easy|]. rewrite lenN_snoc in *.
      rewrite Ek, <- !app_assoc in Hpr. cbn [app] in Hpr. rewrite map_app in Hpr. cbn [map] in Hpr.
      destruct (sums_at 0 (map nsize u') (nsize x) (map nsize (ws ++ b)) (lenN u' + 1 - 1)) as (p1 & p2 & E & L1).
      { rewrite lenN_map. lia. }
      rewrite E in Hpr. eapply gsize_ok; [exact Hr|]. rewrite (pre_at _ _ _ _ _ Hpr L1), csize_snoc. reflexivity. }
  run E0.
  assert (length (map nsize ws) = N.to_nat (lenN ws)) as <- by (rewrite map_length; unfold lenN; lia).
  eapply copy_rel_wr; [exact Hr|exact Hd| |rewrite lenN_map; lia|].
  - intros a' x b' E. rewrite Ek, !map_app, E in Hpr. rewrite <- app_assoc in Hpr. cbn [app] in Hpr.
    rewrite app_assoc in Hpr.
    destruct (sums_at 0 (map nsize u ++ a') x (b' ++ map nsize b) (lenN u + lenN a')) as (p1 & p2 & E1 & L1).
    { rewrite lenN_app, lenN_map. reflexivity. }
    rewrite E1 in Hpr. rewrite (pre_at _ _ _ _ _ Hpr L1). rewrite sumN_app. reflexivity.
  - intros ->. apply (Hrd d); [now left|reflexivity].
Qed.

(** ** The node that is written to *)
Lemma left_node_run al mt h g a o ro ks cs szo Fr n :
  al_ok al -> mt_ok al mt o -> at_ h a o (GInner ro ks) -> (ow o = true -> lenN ks = width) -> trep h ro szo Fr ->
  match g with GRel _ r => ro = Some r /\ exists sz, szo = Some sz /\ lenN sz = cs | _ => szo = None end ->
  cs <= width -> n <= width ->
  exists b r h1 ob kb orr kk zb ra, gleft_node B al mt g a n h = Ok ((b, r), h1) /\
    at_ h1 b ob (GInner (Some r) kb) /\ n <= lenN kb /\ (ow ob = true -> lenN kb = width) /\
    at_ h1 r orr (GTable kk zb) /\ n <= lenN zb /\ (ow orr = true -> lenN zb = width) /\
    at_ h1 a o (GInner ra ks) /\ chg h h1 (own1 o a) /\
    (forall x o2 k sl, at_ h x o2 (GTable k sl) -> at_ h1 x o2 (GTable k sl)) /\
    (b = a \/ length h <= b)%nat /\ (b = a -> ow o = true) /\
    (r < length h -> In r Fr)%nat /\ (r < length h -> al <> None)%nat /\
    (ow ob = true \/ forall c l, kb <> Some c :: l) /\ (ow orr = true \/ forall k, kk = Some k -> k = 0) /\
    forall Q, sep (length h) (own1 o a ++ Fr ++ Q) -> sep (length h1) (own1 ob b ++ own1 orr r ++ Q).
Proof.
  intros Hal Hmt Ha Lk Htr Hg Hcs Hn. unfold gleft_node.
  assert (a < length h)%nat as La by (eapply at_lt; exact Ha).
  assert (exists b r h1 ob kb orr kk zb ra, (b <~ gmk_inner_r B al n ;; r <~ grelaxed b ;; gret (b, r)) h = Ok ((b, r), h1) /\
    at_ h1 b ob (GInner (Some r) kb) /\ n <= lenN kb /\ (ow ob = true -> lenN kb = width) /\
    at_ h1 r orr (GTable kk zb) /\ n <= lenN zb /\ (ow orr = true -> lenN zb = width) /\
    at_ h1 a o (GInner ra ks) /\ chg h h1 (own1 o a) /\
    (forall x o2 k sl, at_ h x o2 (GTable k sl) -> at_ h1 x o2 (GTable k sl)) /\
    (b = a \/ length h <= b)%nat /\ (b = a -> ow o = true) /\
    (r < length h -> In r Fr)%nat /\ (r < length h -> al <> None)%nat /\
    (ow ob = true \/ forall c l, kb <> Some c :: l) /\ (ow orr = true \/ forall k, kk = Some k -> k = 0) /\
    forall Q, sep (length h) (own1 o a ++ Fr ++ Q) -> sep (length h1) (own1 ob b ++ own1 orr r ++ Q)) as Kc.
  { destruct (mk_inner_r_run B mine al h n Hal Hn) as (w & E1 & Hk & Hkw & C1 & Hb & Hd & L1). cbv zeta in *.
    set (d := length h) in *. set (b := S d) in *. set (h1 := (h ++ _) ++ _) in *. run E1. run (grelaxed_ok _ _ _ _ _ Hb).
    exists b, d, h1, al, (blank nat w), al, (Some 0), (blank N w), ro. rewrite !blank_len.
    split; [reflexivity|]. split; [exact Hb|]. split; [exact Hk|]. split; [exact Hkw|]. split; [exact Hd|]. split; [exact Hk|].
    split; [exact Hkw|]. split; [eapply chg_at; [exact C1|exact Ha|easy]|]. split.
    { eapply chg_sub; [exact C1|easy|]. intros x _ Hx. eapply own1_owned; eauto. }
    split; [intros; eapply chg_at; [exact C1|eassumption|easy]|]. split; [unfold b; lia|]. split; [unfold b; lia|].
    split; [lia|]. split; [lia|]. split; [right; intros; apply blank_head|]. split; [right; congruence|].
    intros Q HS x. specialize (HS x). pose proof (occ_own1 x al b). pose proof (occ_own1 x al d).
    rewrite L1. pose proof (lt1_S x d) as El. fold b in El. rewrite lt1_S, El. occs. la. }
  destruct al as [e|]; [|exact Kc]. destruct mt; [|exact Kc]. clear Kc.
  destruct (Hmt eq_refl) as (e' & [= <-] & He & Ho). specialize (Lk Ho).
  assert (exists b r h1 ob kb orr kk zb ra,
            (r <~ gnew (mkG None (GTable None (blank N width))) ;;
            ' (_, cs) <~ ginner a ;;
            _ <~ gput_inner a (Some r) cs ;;
            gret (a, r)) h = Ok ((b, r), h1) /\
    at_ h1 b ob (GInner (Some r) kb) /\ n <= lenN kb /\ (ow ob = true -> lenN kb = width) /\
    at_ h1 r orr (GTable kk zb) /\ n <= lenN zb /\ (ow orr = true -> lenN zb = width) /\
    at_ h1 a o (GInner ra ks) /\ chg h h1 (own1 o a) /\
    (forall x o2 k sl, at_ h x o2 (GTable k sl) -> at_ h1 x o2 (GTable k sl)) /\
    (b = a \/ length h <= b)%nat /\ (b = a -> ow o = true) /\
    (r < length h -> In r Fr)%nat /\ (r < length h -> Some e <> None)%nat /\
    (ow ob = true \/ forall c l, kb <> Some c :: l) /\ (ow orr = true \/ forall k, kk = Some k -> k = 0) /\
    forall Q, sep (length h) (own1 o a ++ Fr ++ Q) -> sep (length h1) (own1 ob b ++ own1 orr r ++ Q)) as Kr.
  { unfold gbind at 1. unfold gnew at 1. set (h1 := h ++ _).
    assert (at_ h1 a o (GInner ro ks)) as Ha1 by (apply at_app; exact Ha).
    run (ginner_ok _ _ _ _ _ Ha1). run (gput_inner_ok _ _ _ _ _ (Some (length h)) ks Ha1). set (h2 := update_at a _ h1).
    assert (length h2 = S (length h)) as L2. { unfold h2. rewrite upd_len. unfold h1. rewrite app_length. cbn. lia. }
    assert (at_ h2 a o (GInner (Some (length h)) ks)) as Ha2 by (eapply at_upd; exact Ha1).
    exists a, (length h), h2, o, ks, None, None, (blank N width), (Some (length h)). rewrite blank_len.
    split; [reflexivity|]. split; [exact Ha2|]. split; [lia|]. split; [auto|].
    split; [apply at_upd_ne; [apply at_new|lia]|]. split; [lia|]. split; [auto|]. split; [exact Ha2|]. split.
    { assert (own1 o a = [a]) as -> by (unfold GcRep.own1; now rewrite Ho).
      eapply chg_nil_trans; [apply chg_new|eapply chg_upd; [exact Ha1|exact Ho]]. }
    split. { intros x o2 k sl Hx. apply at_upd_ne; [apply at_app; exact Hx|]. intros <-. unfold at_ in *. congruence. }
    split; [now left|]. split; [auto|]. split; [lia|]. split; [lia|]. split; [now left|]. split; [right; discriminate|].
    intros Q HS x. specialize (HS x). rewrite L2, lt1_S.
    unfold GcRep.own1 in *. cbn. occs. la. }
  destruct g as [x|x s|x s|x r|x s|]; try exact Kr. clear Kr.
  destruct Hg as (-> & sz & -> & Lsz). cbn [trep] in Htr. destruct Htr as (o2 & sl & Hr & Ps & Hz2 & ->).
  run (gcount_ok _ _ _ _ _ Hr).
  destruct (ensure_n_run B mine HB e h a o r ks o2 (lenN sz) sl sz (lenN sz) He Ha Ho Hr Ps Hz2) as
      (r' & h1 & sl' & k1 & E1 & Ha1 & Hr1 & Pz1 & Lz1 & Hro & C1 & Hcase); [lia|lia|].
  run E1. exists a, r', h1, o, ks, (Some e), (Some k1), sl', (Some r').
  split; [reflexivity|]. split; [exact Ha1|]. split; [lia|]. split; [auto|]. split; [exact Hr1|]. split; [lia|]. split; [auto|].
  split; [exact Ha1|]. split; [unfold GcRep.own1; rewrite Ho; exact C1|]. split.
  { intros y o3 k sl3 Hy. eapply chg_at; [exact C1|exact Hy|]. intros [<-|[]]. unfold at_ in *. congruence. }
  split; [now left|]. split; [auto|]. split.
  { destruct Hcase as [(-> & -> & -> & ->)|(-> & _)]; [|lia]. intros _. unfold GcRep.own1. cbn [GcRep.ow]. rewrite He. now left. }
  split; [discriminate|]. split; [now left|]. split; [left; exact He|]. intros Q HS y. specialize (HS y).
  destruct Hcase as [(-> & -> & -> & ->)|(-> & L1)]; [occs; la|].
  pose proof (occ_own1 y (Some e) (length h)). rewrite L1, lt1_S. occs. la.
Qed.

(** ** What is written *)
Lemma copy_rest_run (h : heap) a oa ra ks i k c2 b ob rb kb kb' :
  at_ h a oa (GInner ra ks) -> entries ks i k = Ok c2 -> at_ h b ob (GInner rb kb) -> write kb 1 (map Some c2) = Ok kb' ->
  gcopy_rest a i k b h = Ok (tt, update_at b (mkG ob (GInner rb kb')) h).
Proof.
  intros Ha Ee Hb Ew. unfold gcopy_rest. run (ginner_ok _ _ _ _ _ Ha). run (glift_ok _ _ h Ee). run (ginner_ok _ _ _ _ _ Hb).
  run (glift_ok _ _ h Ew). eapply gput_inner_ok; exact Hb.
Qed.
Lemma only_two (h h' : heap) a b : only h h' b -> two h h' a b.
Proof. intros [L H]. split; auto. Qed.

Lemma left_fill_run al (h : heap) l g n m1 m m2 a oa ra ks c1 c0 c2 b ob r kb orr kk zb idx k c s0 :
  at_ h a oa (GInner ra ks) -> pre (c1 ++ c0 :: c2) ks -> lenN c1 = idx -> k = idx + 1 + lenN c2 ->
  at_ h b ob (GInner (Some r) kb) -> k - idx <= lenN kb -> at_ h r orr (GTable kk zb) -> k - idx <= lenN zb ->
  szsrc h l g n -> kids n = m1 ++ m :: m2 -> lenN m1 = idx -> lenN m2 = lenN c2 ->
  (forall r', In r' (szadr g) -> r' = r -> al <> None) -> 0 < s0 ->
  exists h' kb' zb', gleft_fill B BL al (S l) g a idx k b r c s0 h = Ok (tt, h') /\ two h h' b r /\
    at_ h' b ob (GInner (Some r) kb') /\ pre (c :: c2) kb' /\ lenN kb' = lenN kb /\
    at_ h' r orr (GTable (Some (k - idx)) zb') /\ pre (s0 :: sums s0 (map nsize m2)) zb' /\ lenN zb' = lenN zb.
Proof.
  intros Ha Hpk Lc1 Hk Hb Lkb Hr Lzb Hsz Ek Lm1 Lm2 Hal Hs0.
  assert (b <> r) as Nbr by (intros ->; unfold at_ in *; congruence).
  assert (a <> r) as Nar by (intros ->; unfold at_ in *; congruence).
  assert (entries ks (idx + 1) k = Ok c2) as Ee.
  { apply (pre_slice (c1 ++ [c0]) c2 []); [now rewrite app_nil_r, <- app_assoc|rewrite lenN_snoc; lia|lia]. }
  assert (kids n = (m1 ++ [m]) ++ m2 ++ []) as Ek2 by (rewrite app_nil_r, <- app_assoc; exact Ek).
  assert (lenN (m1 ++ [m]) = idx + 1) as Lm by (rewrite lenN_snoc; lia).
  assert (k - idx - 1 = lenN m2) as Em by lia.
  (* The children come first, then the first child. *)
  destruct (write_ok kb 1 (map Some c2)) as (k1 & Ek1 & Lk1); [rewrite lenN_map; lia|].
  destruct (write_ok k1 0 [Some c]) as (k2 & Ek2' & Lk2); [change (lenN [Some c]) with 1; lia|].
  (* The first child, then the children. *)
  destruct (write_ok kb 0 [Some c]) as (k3 & Ek3 & Lk3); [change (lenN [Some c]) with 1; lia|].
  destruct (write_ok k3 1 (map Some c2)) as (k4 & Ek4 & Lk4); [rewrite lenN_map; lia|].
  pose proof (write10 _ _ _ _ _ Ek1 Ek2') as P2. pose proof (write01 _ _ _ _ _ Ek3 Ek4) as P4.
  destruct (write_ok zb 0 [Some s0]) as (z1 & Ez1 & Lz1); [change (lenN [Some s0]) with 1; lia|].
  assert (forall (hh : heap) kk' zz, at_ hh b ob (GInner (Some r) kb) -> (exists ra', at_ hh a oa (GInner ra' ks)) -> at_ hh r orr (GTable kk' zz) ->
    exists h' kb', (_ <~ gset_kid b 0 c ;; gcopy_rest a (idx + 1) k b) hh = Ok (tt, h') /\ two hh h' b r /\
      at_ h' b ob (GInner (Some r) kb') /\ pre (c :: c2) kb' /\ lenN kb' = lenN kb /\ at_ h' r orr (GTable kk' zz)) as Kids.
  { intros hh kk' zz Hb' (ra' & Ha') Hr'. run (gset_kid_ok _ _ _ _ _ _ _ _ Hb' Ek3). set (h1 := update_at b _ hh).
    assert (at_ h1 b ob (GInner (Some r) k3)) as Hb1 by (eapply at_upd; exact Hb').
    assert (at_ h1 r orr (GTable kk' zz)) as Hr1 by (apply at_upd_ne; auto).
    assert (exists ra1 ks1, at_ h1 a oa (GInner ra1 ks1) /\ entries ks1 (idx + 1) k = Ok c2) as (ra1 & ks1 & Ha1 & Ee1).
    { destruct (Nat.eq_dec a b) as [->|N].
      - assert (ob = oa /\ kb = ks) as [-> ->] by (unfold at_ in *; split; congruence).
        exists (Some r), k3. split; [exact Hb1|]. rewrite (entries_0 _ _ _ _ _ Ek3) by lia. exact Ee.
      - exists ra', ks. split; [apply at_upd_ne; auto|exact Ee]. }
    rewrite (copy_rest_run _ _ _ _ _ _ _ _ _ _ _ _ _ Ha1 Ee1 Hb1 Ek4). eexists _, k4. split; [reflexivity|].
    split; [eapply two_trans; apply two_l|]. split; [eapply at_upd; exact Hb1|]. split; [exact P4|]. split; [lia|].
    apply at_upd_ne; auto. }
  assert (forall kk', al = None \/ szadr g = [] ->
    let h0 := update_at r (mkG orr (GTable kk' zb)) h in
    exists h' z2, (_ <~ gset_size r 0 s0 ;; (if s0 =? 0 then gub else gcopy_sizes B BL (S l) g (idx + 1) (k - idx - 1) s0 r 1)) h0 = Ok (tt, h') /\
      only h h' r /\ at_ h' r orr (GTable kk' z2) /\ pre (s0 :: sums s0 (map nsize m2)) z2 /\ lenN z2 = lenN zb) as Sizes.
  { intros kk' Hor. cbv zeta. set (h0 := update_at r _ h).
    assert (at_ h0 r orr (GTable kk' zb)) as Hr0 by (eapply at_upd; exact Hr).
    run (gset_size_ok _ _ _ _ _ _ _ _ Hr0 Ez1). set (h1 := update_at r _ h0).
    assert (at_ h1 r orr (GTable kk' z1)) as Hr1 by (eapply at_upd; exact Hr0).
    destruct (N.eqb_spec s0 0) as [Z|_]; [lia|]. rewrite Em, <- Lm.
    destruct (copy_sizes_wr h1 l g n (m1 ++ [m]) m2 [] s0 r 1 orr kk' z1) as (h2 & z2 & E2 & O2 & Hr2 & W2); auto.
    { destruct g as [x|x s|x s|x q|x s|]; cbn [GcInner.szsrc] in *; try exact Hsz.
      destruct Hsz as (oq & kq & slq & Hq & Pq). exists oq, kq, slq. split; [|exact Pq].
      assert (q <> r) as Nq. { intros ->. apply (Hal r); [now left|reflexivity|]. destruct Hor as [E|E]; [exact E|discriminate]. }
      apply at_upd_ne; [apply at_upd_ne|]; auto. }
    { lia. } { intros; lia. }
    exists h2, z2. split; [exact E2|]. split; [eapply only_trans; [apply only_upd|eapply only_trans; [apply only_upd|exact O2]]|].
    split; [exact Hr2|]. split; [eapply write01; eauto|]. rewrite (write_len _ _ _ _ W2). lia. }
  assert (update_at r (mkG orr (GTable kk zb)) h = h) as Hid. { apply upd_same. exact Hr. }
  unfold gleft_fill. cbv zeta. destruct al as [e|].
  - assert (szadr g = [] -> exists h' kb' zb',
        (_ <~ gset_size r 0 s0 ;;
         if s0 =? 0 then gub
         else _ <~ gcopy_sizes B BL (S l) g (idx + 1) (k - idx - 1) s0 r 1 ;; _ <~ gset_count r (k - idx) ;;
              _ <~ gset_kid b 0 c ;; gcopy_rest a (idx + 1) k b) h = Ok (tt, h') /\ two h h' b r /\
    at_ h' b ob (GInner (Some r) kb') /\ pre (c :: c2) kb' /\ lenN kb' = lenN kb /\
    at_ h' r orr (GTable (Some (k - idx)) zb') /\ pre (s0 :: sums s0 (map nsize m2)) zb' /\ lenN zb' = lenN zb) as K2.
    { intros Eg.
      destruct (Sizes kk (or_intror Eg)) as (h1 & z2 & E1 & O1 & Hr1 & P1 & L1). cbv zeta in E1. rewrite Hid in E1.
      set (h2 := update_at r (mkG orr (GTable (Some (k - idx)) z2)) h1).
      assert (at_ h2 r orr (GTable (Some (k - idx)) z2)) as Hr2 by (eapply at_upd; exact Hr1).
      assert (at_ h2 b ob (GInner (Some r) kb)) as Hb2 by (apply at_upd_ne; [eapply only_at; eauto|auto]).
      assert (at_ h2 a oa (GInner ra ks)) as Ha2 by (apply at_upd_ne; [eapply only_at; eauto|auto]).
      destruct (Kids h2 _ _ Hb2 (ex_intro _ ra Ha2) Hr2) as (h3 & kb' & E3 & T3 & Hb3 & P3 & L3 & Hr3).
      exists h3, kb', z2. split.
      - unfold gbind at 1 in E1. unfold gbind at 1. destruct (gset_size r 0 s0 h) as [[[] hh]|]; [|discriminate].
        destruct (s0 =? 0); [discriminate|]. run E1. run (gset_count_ok _ _ _ _ _ (k - idx) Hr1). exact E3.
      - split; [|auto 10]. eapply two_trans; [apply only_two; exact O1|]. eapply two_trans; [apply two_r|exact T3]. }
    destruct g as [x|x s|x s|x q|x s|]; try exact (K2 eq_refl). clear K2 Sizes Kids.
    rewrite Em, <- Lm.
    destruct (copy_sizes_wr h l (GRel x q) n (m1 ++ [m]) m2 [] s0 r 1 orr kk zb) as (h1 & z2 & E1 & O1 & Hr1 & W1); auto.
    { lia. } { intros; lia. }
    run E1. rewrite Lm in *.
    assert (at_ h1 b ob (GInner (Some r) kb)) as Hb1 by (eapply only_at; eauto).
    assert (at_ h1 a oa (GInner ra ks)) as Ha1 by (eapply only_at; eauto).
    run (copy_rest_run _ _ _ _ _ _ _ _ _ _ _ _ _ Ha1 Ee Hb1 Ek1). set (h2 := update_at b _ h1).
    assert (at_ h2 b ob (GInner (Some r) k1)) as Hb2 by (eapply at_upd; exact Hb1).
    assert (at_ h2 r orr (GTable kk z2)) as Hr2 by (apply at_upd_ne; auto).
    run (gset_kid_ok _ _ _ _ _ _ _ _ Hb2 Ek2'). set (h3 := update_at b _ h2).
    assert (at_ h3 b ob (GInner (Some r) k2)) as Hb3 by (eapply at_upd; exact Hb2).
    assert (at_ h3 r orr (GTable kk z2)) as Hr3 by (apply at_upd_ne; auto).
    pose proof (write_len _ _ _ _ W1) as Lz2.
    destruct (write_ok z2 0 [Some s0]) as (z3 & Ez3 & Lz3); [change (lenN [Some s0]) with 1; lia|].
    run (gset_size_ok _ _ _ _ _ _ _ _ Hr3 Ez3). set (h4 := update_at r _ h3).
    assert (at_ h4 r orr (GTable kk z3)) as Hr4 by (eapply at_upd; exact Hr3).
    run (gset_count_ok _ _ _ _ _ (k - idx) Hr4). destruct (N.eqb_spec s0 0) as [Z|_]; [lia|].
    eexists _, k2, z3. split; [reflexivity|]. split.
    { eapply two_trans; [apply only_two; exact O1|]. eapply two_trans; [apply two_l|]. eapply two_trans; [apply two_l|].
      eapply two_trans; apply two_r. }
    split; [apply at_upd_ne; [apply at_upd_ne; auto|auto]|]. split; [exact P2|]. split; [lia|]. split; [eapply at_upd; exact Hr4|].
    split; [eapply write10; eauto|lia].
  - destruct (Sizes (Some (k - idx)) (or_introl eq_refl)) as (h1 & z2 & E1 & O1 & Hr1 & P1 & L1). cbv zeta in E1.
    run (gset_count_ok _ _ _ _ _ (k - idx) Hr). set (h0 := update_at r (mkG orr (GTable (Some (k - idx)) zb)) h) in *.
    assert (at_ h1 b ob (GInner (Some r) kb)) as Hb1 by (eapply only_at; eauto).
    assert (at_ h1 a oa (GInner ra ks)) as Ha1 by (eapply only_at; eauto).
    destruct (Kids h1 _ _ Hb1 (ex_intro _ ra Ha1) Hr1) as (h3 & kb' & E3 & T3 & Hb3 & P3 & L3 & Hr3).
    exists h3, kb', z2. split.
    + unfold gbind at 1 in E1. unfold gbind at 1. destruct (gset_size r 0 s0 h0) as [[[] hh]|]; [|discriminate].
      destruct (s0 =? 0); [discriminate|]. run E1. exact E3.
    + split; [|auto 10]. eapply two_trans; [apply only_two; exact O1|exact T3].
Qed.

(** ** Leaves *)
Lemma move_front_run (h : heap) a o sl u xs i k : nm = true -> at_ h a o (GLeaf sl) -> pre (u ++ xs) sl -> lenN u = i -> k = i + lenN xs ->
  exists sl', gmove_front selfmv a i k h = Ok (tt, update_at a (mkG o (GLeaf sl')) h) /\ pre xs sl' /\ lenN sl' = lenN sl.
Proof.
  intros Hn Ha Hp Hi Hk. pose proof (pre_len _ _ Hp) as Hl. rewrite lenN_app in Hl. unfold gmove_front. run (gleaf_ok _ _ _ _ Ha).
  assert (entries sl i k = Ok xs) as Ee. { apply (pre_slice u xs []); [now rewrite app_nil_r|exact Hi|exact Hk]. }
  run (glift_ok _ _ h Ee).
  assert ((if i =? 0 then map selfmv xs else xs) = xs) as ->.
  { destruct (i =? 0); [|reflexivity]. rewrite (map_ext _ id); [apply map_id|]. intros x. now apply Hnm. }
  destruct (write_ok sl 0 (map Some xs)) as (s1 & E1 & L1); [rewrite lenN_map; lia|].
  run (glift_ok _ _ h E1).
  assert (pre xs s1) as P1. { apply write_inv in E1 as [_ ->]. eexists. reflexivity. }
  destruct (write_ok s1 (k - i) (blank T i)) as (s2 & E2 & L2); [rewrite blank_len; lia|].
  run (glift_ok _ _ h E2). exists s2. split; [eapply gput_leaf_ok; exact Ha|]. split; [|lia].
  eapply pre_keep; [exact P1|exact E2|lia].
Qed.

(** ** slice_left *)
Lemma chg_two (h h1 h2 : heap) W V a b : chg h h1 W -> two h1 h2 a b -> (forall x, In x V -> owned mine h x) ->
  (forall x, x = a \/ x = b -> (x < length h)%nat -> In x V) -> chg h h2 (W ++ V).
Proof.
  intros (L & K & O1) [L2 H] Ho Hab. split; [lia|]. split.
  - intros x c Hc Hn. assert (x < length h)%nat as Lx by (apply nth_error_Some; congruence).
    rewrite in_app_iff in Hn. rewrite H; [apply K; auto| |]; intros ->; apply Hn; right; apply Hab; auto.
  - intros x c Hc Hi. apply in_app_or in Hi as [Hi|Hi]; [eauto|]. destruct (Ho x Hi) as (c' & Hc' & Hw). congruence.
Qed.

(** Changing two blocks that are not part of a tree keeps it: they are owned and not among its own
    blocks, or they have no first entry yet. *)
Definition idle (h : heap) (x : nat) (F : list nat) : Prop := exists o bd, at_ h x o bd /\
  (ow o = true /\ ~ In x F \/
   match bd with GLeaf _ => False | GInner _ ks => forall c l, ks <> Some c :: l | GTable n _ => forall k, n = Some k -> k = 0 end).
Lemma rep_two h h' b r F0 : two h h' b r -> idle h b F0 -> idle h r F0 -> forall v a n F, rep h v a n F -> wf v n ->
  (forall x, In x F -> In x F0) -> rep h' v a n F.
Proof.
  intros [_ Ht] Hb Hr.
  assert (forall a o' b', at_ h a o' b' -> match b' with GLeaf _ => True | GInner _ ks => exists c l, ks = Some c :: l | GTable n _ => exists k, n = Some k /\ k <> 0 end ->
    (forall x, In x (own1 o' a) -> In x F0) -> at_ h' a o' b') as K.
  { intros a o' b' Ha Hu HF.
    assert (forall x, idle h x F0 -> a <> x) as D.
    { intros x (o & bd & Hx & Hi) <-. unfold at_ in Ha, Hx. rewrite Ha in Hx. injection Hx as <- <-.
      destruct Hi as [[Ho Hn]|Hi]; [apply Hn, HF; unfold GcRep.own1; rewrite Ho; now left|].
      destruct b' as [xs|rr ks|nn sl]; [exact Hi| |].
      - destruct Hu as (c & l & Hu). exact (Hi c l Hu).
      - destruct Hu as (k & Hu & Hk). exact (Hk (Hi k Hu)). }
    unfold at_. rewrite Ht; auto. }
  induction v as [|l IH]; intros a n F H Hw HF; destruct n as [xs|sz ns]; cbn [GcRep.rep] in H |- *; try easy.
  - destruct H as (o' & sl & Ha & Hp & Hl & ->). exists o', sl. split; [|auto]. apply K; auto.
  - destruct H as (o' & q & ks & cs & Fr & Fs & Ha & Hp & Hl & Htr & Hk & ->).
    pose proof (wf_kids B BL l _ Hw) as Hwk. cbn [kids] in Hwk.
    assert (0 < lenN ns) as Hns by exact (wf_count_pos _ _ _ _ Hw).
    exists o', q, ks, cs, Fr, Fs. split.
    { apply K; [exact Ha| |intros x Hx; apply HF, in_or_app; auto]. destruct Hp as (rest & ->). destruct (all3_len _ _ _ _ Hk) as [El _].
      destruct cs as [|y cs]; [rewrite <- El in Hns; cbn in Hns; lia|]. cbn. eauto. }
    split; [auto|]. split; [auto|]. split.
    { destruct q as [q|], sz as [sz|]; cbn in Htr |- *; try easy. destruct Htr as (o2 & sl & Hq & Hp2 & Hl2 & ->).
      exists o2, sl. split; [|auto]. apply K; [exact Hq| |intros x Hx; apply HF; rewrite !in_app_iff; auto]. eexists. split; [reflexivity|].
      destruct Hw as (_ & _ & ->). rewrite lenN_sums, lenN_map. lia. }
    split; [|auto]. assert (forall x, In x (List.concat Fs) -> In x F0) as HFs by (intros x Hx; apply HF; rewrite !in_app_iff; auto).
    clear - IH Hk Hwk HFs. induction Hk as [|y m G la lc ld Hr Hk IHk]; [constructor|].
    inversion Hwk; subst. cbn [List.concat] in HFs. constructor; [apply IH; auto|apply IHk; auto]; intros x Hx; apply HFs, in_or_app; auto.
Qed.
Lemma reps_two h h' b r F0 v : two h h' b r -> idle h b F0 -> idle h r F0 -> forall a n F, all3 (rep h v) a n F -> Forall (wf v) n ->
  (forall x, In x (List.concat F) -> In x F0) -> all3 (rep h' v) a n F.
Proof.
  intros Ht Hb Hr a n F H. induction H as [|y m G la lc ld Hy Hk IHk]; intros Hw HF; [constructor|].
  inversion Hw; subst. cbn [List.concat] in HF. constructor; [eapply rep_two; eauto|apply IHk; auto]; intros x Hx; apply HF, in_or_app; auto.
Qed.

Lemma slice_left_run al : al_ok al -> forall v mu col g p n F first h R,
  gpr h v g p n F -> is_sub p = true -> first < nsize n -> sh (pred v) < 32 -> nsize n <= 2 ^ 32 -> sep (length h) (F ++ R) ->
  exists w a h' F' W r, gslice_left B BL nm selfmv al mu col v g first h = Ok ((w, a), h') /\
    slice_left B BL col v p first = Ok (w, r) /\ rep h' w a r F' /\
    sep (length h') (F' ++ R) /\ chg h h' W /\ (forall x, In x W -> In x F).
Proof.
  intros Hal. induction v as [|l IH]; intros mu col g p n F first h R Hg Hs Hi Hsh H32 HS.
  - pose proof (gview_strip _ _ _ _ _ _ _ _ _ Hg) as Ev. pose proof Hg as (a & Ea & Hr & Hok & Hgp).
    pose proof (addr_refl _ _ _ _ _ _ Hok Hi) as Had.
    destruct (leaf_index _ _ _ _ _ _ Hok Had Hi) as (xs & -> & Hidx & Hlt).
    destruct (wf_leaf _ _ _ (pos_ok_wf _ _ _ _ _ Hok)) as (xs' & E & Hx). injection E as <-.
    destruct (rep_leafn B BL mine _ _ _ _ Hr) as (o & Ho & ->). pose proof Ho as (sl & Ha & Hp & Hl).
    destruct (mutate_run mine al mu h a o (GLeaf sl) Hal Ha) as (mt & Em & Hmt).
    pose proof (count_ok _ _ _ _ _ Hok) as Hc. cbn [ncount] in Hc.
    cbn [gslice_left slice_left]. run (glift_ok _ _ h Ea). run Ev. rewrite strip_count. run (glift_ok _ _ h Hc). run Em.
    rewrite strip_index. run (glift_ok _ _ h Hidx). rewrite (pos_ok_node _ _ _ _ _ Hok), Hidx, Hc. cbn [rbind].
    unfold copy_leaf_range. cbn [leaf_of rbind].
    assert (rsliceN first (lenN xs) xs = Ok (dropN first xs)) as ->.
    { rewrite <- (takeN_dropN first xs) at 2. apply rsliceN_app_r; [rewrite lenN_takeN; lia|rewrite lenN_dropN; lia]. }
    cbn [rbind]. destruct (mt && nm) eqn:Emn.
    + apply andb_true_iff in Emn as [-> En]. destruct (Hmt eq_refl) as (e & -> & He & Hoo).
      destruct (move_front_run h a o sl (takeN first xs) (dropN first xs) first (lenN xs) En Ha) as (sl' & E1 & P1 & L1).
      { now rewrite takeN_dropN. } { rewrite lenN_takeN. lia. } { rewrite lenN_dropN. lia. }
      run E1. assert (chg h (update_at a (mkG o (GLeaf sl')) h) [a]) as C by (eapply chg_upd; [exact Ha|exact Hoo]).
      eexists O, a, _, (own1 o a), [a], _. split; [reflexivity|]. split; [reflexivity|]. split.
      { apply leafn_rep. exists sl'. split; [eapply at_upd; exact Ha|]. split; [exact P1|]. intros H. rewrite L1. auto. }
      split; [now rewrite upd_len|]. split; [exact C|]. intros x [<-|[]]. unfold GcRep.own1. rewrite Hoo. now left.
    + destruct (copy_leaf_run B BL mine HB al h a o (takeN first xs) (dropN first xs) [] first (lenN xs)) as (h1 & E1 & H1 & C1 & L1); auto.
      { now rewrite app_nil_r, takeN_dropN. } { rewrite lenN_takeN. lia. } { rewrite lenN_dropN. lia. } { rewrite lenN_dropN. lia. }
      run E1. eexists O, _, _, (own1 al (length h)), [], _. split; [reflexivity|]. split; [reflexivity|].
      split; [apply leafn_rep; exact H1|]. split; [|split; [exact C1|easy]].
      rewrite L1. apply (sep_new B mine HB). intros x. specialize (HS x). occs. la.
  - pose proof (gview_strip _ _ _ _ _ _ _ _ _ Hg) as Ev. pose proof Hg as (a & Ea & Hr & Hok & Hgp).
    pose proof (pos_ok_wf _ _ _ _ _ Hok) as Hw. destruct (wf_inner _ _ _ _ Hw) as (szo & ns & En). subst n.
    pose proof Hi as Hi'. rewrite nsize_inner in Hi'. fold (csize ns) in Hi'.
    destruct (find_child ns first Hi') as (m1 & m & m2 & j & -> & Ei & Hj).
    assert (kids (Inner szo (m1 ++ m :: m2)) = m1 ++ m :: m2) as Ek by reflexivity.
    assert (pinner p = Ok (m1 ++ m :: m2)) as Ein by (unfold pinner; rewrite (pos_ok_node _ _ _ _ _ Hok); reflexivity).
    pose proof (wf_kids _ _ _ _ Hw) as Hk. rewrite Ek in Hk.
    pose proof (wf_count_le _ _ _ _ Hw) as Hlen. rewrite Ek, lenN_app, lenN_cons in Hlen.
    apply Forall_app in Hk as [Hka Hkc]. inversion Hkc as [|? ? Hwm Hkb]; subst.
    assert (nsize m + csize m1 + csize m2 <= 2 ^ 32) as H32'.
    { rewrite nsize_inner in H32. fold (csize (m1 ++ m :: m2)) in H32. rewrite csize_app, csize_cons in H32. lia. }
    assert (nsize m <= 2 ^ 32) as Hm32 by (clear - H32'; lia).
    assert (sh (pred l) < 32) as Hsh' by (unfold Rrb.sh in *; cbn [pred] in Hsh; lia).
    destruct (towards_sub_ok B BL l p _ m1 m m2 j Hok Hs Ek Hj Hsh H32) as (q & Et & Hq & Hsq).
    pose proof (subindex_ok _ _ _ _ _ _ _ _ _ Hok Hs Ek Hj) as E_i.
    pose proof (count_ok _ _ _ _ _ Hok) as E_k. cbn [ncount] in E_k.
    pose proof (size_before_ok _ _ _ _ _ _ _ _ Hok Hs Ek) as E_b.
    pose proof (size_sbh_ok _ _ _ _ _ _ _ _ Hok Hs Ek) as E_s.
    pose proof Hr as Hr0. cbn [GcRep.rep] in Hr0. destruct Hr0 as (o & ro & ks & cs & Fr & Fs & Ha & Hpk & Lk & Htr & H3 & EF).
    pose proof (gpr_rel _ _ _ _ _ _ _ _ _ _ _ _ _ _ Hg Ea Ha) as Hgr.
    destruct (all3_split _ _ m1 (m :: m2) _ H3) as (c1 & cr & f1 & fr & -> & -> & A1 & A2).
    inversion A2 as [|c ? f c2 ? f2 Hm A3]; subst cr fr. clear A2. rewrite concat_app in EF. cbn [List.concat] in EF.
    destruct (all3_len _ _ _ _ A1) as [Lc _]. destruct (all3_len _ _ _ _ A3) as [Lc2 _].
    destruct (mutate_run mine al mu h a o (GInner ro ks) Hal Ha) as (mt & Em & Hmt).
    cbn [gslice_left slice_left]. run (glift_ok _ _ h Ea). run Ev. rewrite strip_count. run (glift_ok _ _ h E_k). run Em.
    rewrite strip_subindex. run (glift_ok _ _ h E_i). rewrite strip_before. run (glift_ok _ _ h E_b).
    rewrite strip_sbh. run (glift_ok _ _ h E_s).
    rewrite E_i. cbn [rbind]. rewrite E_k. cbn [rbind]. rewrite E_b. cbn [rbind]. rewrite E_s. cbn [rbind]. rewrite Et. cbn [rbind].
    destruct (towards_sub_run B BL mine HB h l g p a o ro ks c1 c c2 szo m1 m m2 Fr f1 f f2 F (csize m1 + j) q j) as (g' & Eg & Hg'); auto.
    run Eg. destruct (col && match l with O => false | S _ => true end && (lenN m1 + 1 =? lenN (m1 ++ m :: m2))) eqn:Ec.
    { apply andb_true_iff in Ec as [Ec Ea1]. apply andb_true_iff in Ec as [-> El].
      destruct (IH mt true g' q m f j h R Hg' Hsq Hj Hsh') as (w & b & h1 & F' & W & r & E1 & E2 & Hb & S1 & C1 & HW).
      { exact Hm32. } { subst F. intros x. specialize (HS x). occs. la. }
      exists w, b, h1, F', W, r. split; [exact E1|]. split; [exact E2|]. split; [exact Hb|]. split; [exact S1|]. split; [exact C1|].
      intros x Hx. apply HW in Hx. subst F. rewrite !in_app_iff. auto. }
    assert (lenN (m1 ++ m :: m2) = lenN m1 + 1 + lenN m2) as Ln by (rewrite lenN_app, lenN_cons; lia).
    destruct (left_node_run al mt h g a o ro ks (lenN (m1 ++ m :: m2)) szo Fr (lenN (m1 ++ m :: m2) - lenN m1) Hal Hmt Ha Lk Htr) as
      (b & r & h1 & ob & kb & orr & kk & zb & ra & E1 & Hb1 & Lkb & Hkw & Hr1 & Lzb & Hzw & Ha1 & C1 & Ht1 & Hba & Hbo & HrF & Hral & Ib & Ir & HQ).
    { destruct g as [x|x s|x s|x r|x s|], p as [n0|n0 s0|n0 s0|n0 sz|n0 s0|]; try easy. destruct Hgr as (_ & -> & ->). split; [reflexivity|].
      eexists. split; [reflexivity|]. destruct Hw as (_ & _ & ->). now rewrite lenN_sums, lenN_map. }
    { lia. } { lia. }
    run E1.
    assert (forall x, In x f -> ~ In x (own1 o a)) as Df.
    { subst F. eapply sep_dis; [exact HS|]. intros x. occs. la. }
    pose proof (gpr_chgw _ _ _ _ _ _ _ _ _ _ _ Hg' C1 Df) as Hg1.
    set (R1 := own1 ob b ++ own1 orr r ++ List.concat f2 ++ R).
    destruct (IH mt false g' q m f j h1 R1 Hg1 Hsq Hj Hsh') as (w & c' & h2 & Fc & W & cn & E2 & E2v & Hc & S2 & C2 & HW).
    { exact Hm32. }
    { specialize (HQ (f ++ List.concat f2 ++ R)). unfold R1. subst F.
      assert (sep (length h1) (own1 ob b ++ own1 orr r ++ f ++ List.concat f2 ++ R)) as HQ1.
      { apply HQ. intros x. specialize (HS x). occs. la. }
      intros x. specialize (HQ1 x). occs. la. }
    run E2. rewrite E2v. cbn [rbind]. rewrite Ein. cbn [rbind].
    assert (w = l /\ 0 < nsize m - (csize m1 + j - csize m1)) as [-> Hs0].
    { destruct (slice_left_ok B BL false l q m j Hq Hsq Hj Hsh') as (w' & r' & E' & Hw' & _ & _ & Hwl & _); [exact Hm32|].
      rewrite E2v in E'. injection E' as <- <-. split; [now apply Hwl|]. clear - Hj; lia. }
    assert (forall x, In x (own1 ob b ++ own1 orr r ++ List.concat f2) -> ~ In x W) as D.
    { intros x Hx Hin. apply HW in Hin. revert x Hx Hin.
      assert (sep (length h1) (own1 ob b ++ own1 orr r ++ f ++ List.concat f2 ++ R)) as HQ1.
      { apply HQ. subst F. intros x. specialize (HS x). occs. la. }
      eapply sep_dis; [exact HQ1|]. intros x. occs. la. }
    assert (forall x, In x (own1 o a ++ Fr) -> ~ In x W) as D0.
    { intros x Hx Hin. apply HW in Hin. revert x Hx Hin. subst F. eapply sep_dis; [exact HS|]. intros x. occs. la. }
    assert (at_ h2 b ob (GInner (Some r) kb)) as Hb2.
    { eapply chg_at_own; [exact C2|exact Hb1|]. intros x Hx. apply D. rewrite !in_app_iff. auto. }
    assert (at_ h2 r orr (GTable kk zb)) as Hr2.
    { eapply chg_at_own; [exact C2|exact Hr1|]. intros x Hx. apply D. rewrite !in_app_iff. auto. }
    assert (at_ h2 a o (GInner ra ks)) as Ha2.
    { eapply chg_at_own; [exact C2|exact Ha1|]. intros x Hx. apply D0. rewrite !in_app_iff. auto. }
    assert (szsrc h2 l g (Inner szo (m1 ++ m :: m2))) as Hsz2.
    { assert (forall u w b init, kids (Inner szo (m1 ++ m :: m2)) = u ++ w ++ b ->
        copy_sizes (T := T) B BL (S l) (strip p) (lenN u) (lenN w) init = Ok (sums init (map nsize w))) as Kcs.
      { intros u w b0 init E0. rewrite strip_copy. eapply copy_sizes_ok; eauto. }
      destruct g as [x|x s|x s|x r0|x s|], p as [n0|n0 s0|n0 s0|n0 sz|n0 s0|]; try easy; cbn [GcInner.szsrc].
      - eexists. split; [reflexivity|exact Kcs].
      - subst s0. eexists. split; [reflexivity|exact Kcs].
      - destruct Hgr as (_ & -> & ->). cbn [GcRep.trep] in Htr. destruct Htr as (o2 & sl & Ht & Ps & Hz2 & ->).
        exists o2, (Some (lenN sz)), sl. split.
        + eapply chg_at_own; [exact C2|apply Ht1; exact Ht|]. intros x0 Hx. apply D0. rewrite !in_app_iff. auto.
        + destruct Hw as (_ & _ & Esz). cbn [kids]. rewrite <- Esz. exact Ps. }
    destruct (left_fill_run al h2 l g (Inner szo (m1 ++ m :: m2)) m1 m m2 a o ra ks c1 c c2 b ob r kb orr kk zb (lenN m1) (lenN (m1 ++ m :: m2)) c'
      (nsize m - (csize m1 + j - csize m1))) as (h3 & kb' & zb' & E3 & T3 & Hb3 & P3 & Lk3 & Hr3 & Pz3 & Lz3); auto; try (clear - Ln Lc2; lia).
    { intros r' Hr' ->. apply Hral. destruct g as [x|x s|x s|x r0|x s|], p as [n0|n0 s0|n0 s0|n0 sz|n0 s0|]; try easy. destruct Hr' as [->|[]].
      destruct Hgr as (_ & -> & ->). cbn [GcRep.trep] in Htr. destruct Htr as (o2 & sl & Ht & _). eapply at_lt; exact Ht. }
    run E3. 
    replace (lenN (m1 ++ m :: m2) - lenN m1 - 1) with (lenN m2) by (clear - Ln; lia).
    replace (lenN m1 + 1) with (lenN (m1 ++ [m])) by apply lenN_snoc.
    assert (m1 ++ m :: m2 = (m1 ++ [m]) ++ m2 ++ []) as Ek2 by (now rewrite app_nil_r, <- app_assoc).
    rewrite (copy_sizes_ok _ _ _ _ _ _ _ _ _ Hok Hs Ek2). cbn [rbind].
    assert (rsliceN (lenN (m1 ++ [m])) (lenN (m1 ++ m :: m2)) (m1 ++ m :: m2) = Ok m2) as ->.
    { rewrite Ek2 at 2. apply rsliceN_app; [reflexivity|]. rewrite lenN_snoc. clear - Ln; lia. }
    cbn [rbind].
    assert (chg h h3 ((own1 o a ++ W) ++ own1 o a ++ Fr)) as C3.
    { eapply chg_two; [eapply chg_trans; [exact C1|exact C2]|exact T3| |].
      - intros x Hx. apply in_app_or in Hx as [Hx|Hx]; [eapply own1_owned; eauto|].
        eapply trep_owned; eauto.
      - intros x [->| ->] Lx; rewrite in_app_iff; [|right; auto]. left. destruct Hba as [->|Hba]; [|clear - Hba Lx; lia].
        unfold GcRep.own1. rewrite (Hbo eq_refl). now left. }
    assert (wf l cn) as Hwn.
    { destruct (slice_left_ok B BL false l q m j Hq Hsq Hj Hsh') as (w' & r' & E' & Hw' & _); [exact Hm32|].
      rewrite E2v in E'. now injection E' as <- <-. }
    set (F0 := Fc ++ List.concat f2).
    assert (idle h2 b F0) as I1.
    { exists ob, (GInner (Some r) kb). split; [exact Hb2|]. destruct Ib as [Ib|Ib]; [left|right; exact Ib]. split; [exact Ib|].
      assert (forall x, In x (own1 ob b) -> ~ In x F0) as Db.
      { eapply sep_dis; [exact S2|]. unfold R1, F0. intros x. occs. la. }
      apply Db. unfold GcRep.own1. rewrite Ib. now left. }
    assert (idle h2 r F0) as I2.
    { exists orr, (GTable kk zb). split; [exact Hr2|]. destruct Ir as [Ir|Ir]; [left|right; exact Ir]. split; [exact Ir|].
      assert (forall x, In x (own1 orr r) -> ~ In x F0) as Dr.
      { eapply sep_dis; [exact S2|]. unfold R1, F0. intros x. occs. la. }
      apply Dr. unfold GcRep.own1. rewrite Ir. now left. }
    assert (all3 (rep h2 l) c2 m2 f2) as A32.
    { eapply reps_chg; [exact C2| |].
      - eapply reps_chg; [exact C1|exact A3|]. subst F. eapply sep_dis; [exact HS|]. intros x. occs. la.
      - intros x Hx. apply D. rewrite !in_app_iff. auto. }
    eexists (S l), b, h3, (own1 ob b ++ own1 orr r ++ List.concat (Fc :: f2)), _, _. split; [reflexivity|]. split; [reflexivity|]. split.
    { cbn [GcRep.rep]. exists ob, (Some r), kb', (c' :: c2), (own1 orr r), (Fc :: f2). split; [exact Hb3|]. split; [exact P3|].
      split; [rewrite Lk3; exact Hkw|]. split.
      { cbn [GcRep.trep]. exists orr, zb'. rewrite lenN_cons, lenN_sums, lenN_map.
        replace (lenN m2 + 1) with (lenN (m1 ++ m :: m2) - lenN m1) by (clear - Ln; lia). split; [exact Hr3|]. split; [exact Pz3|]. split; [rewrite Lz3; exact Hzw|reflexivity]. }
      split; [|reflexivity]. constructor.
      - eapply rep_two; [exact T3|exact I1|exact I2|exact Hc|exact Hwn|]. intros x Hx. apply in_or_app. auto.
      - eapply reps_two; [exact T3|exact I1|exact I2|exact A32|exact Hkb|]. intros x Hx. apply in_or_app. auto. }
    split. { destruct T3 as [-> _]. unfold R1 in S2. cbn [List.concat]. intros x. specialize (S2 x). occs. la. }
    split; [exact C3|]. intros x Hx. subst F. rewrite !in_app_iff in *. destruct Hx as [[Hx|Hx]|[Hx|Hx]]; [|apply HW in Hx| |]; clear - Hx; tauto.
Qed.
End Left.
