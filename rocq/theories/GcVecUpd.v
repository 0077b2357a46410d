(** Updating an element in place, on the memory of GcConcat: first the nodes on the way to the
    element are made ones that can be overwritten, then the element is written. *)
From Coq Require Import List NArith Arith Bool Lia ZifyN ZifyNat ZifyBool.
From Verif Require Import Common NList Rrb RrbInv RrbPos RrbOps RrbSlice RrbTree GcConcat GcRep GcAdd GcVisit GcTree
  GcVec GcVecRun GcVecTree.
Import ListNotations.
Local Open Scope N_scope.

Set Default Goal Selector "!".

Section Upd.
Variables B BL : N.
Context {T : Type}.
Variable mine : token -> bool.
Notation sh := (sh B BL).
Notation span := (span B BL).
Notation width := (width B).
Notation lwidth := (lwidth BL).
Notation heap := (gheap T).
Notation rep := (@rep B BL T mine).
Notation ow := (ow mine).
Notation own1 := (own1 mine).
Notation trep := (@trep B T mine).
Notation chg := (@chg T mine).
Notation still := (@still T mine).
Notation wf := (@wf T B BL).
Notation full := (@full T B BL).
Notation pos_ok := (@pos_ok T B BL).
Notation addr := (@addr T B BL).
Notation gtrep := (@gtrep B BL T mine).
Notation al_ok := (al_ok mine).
Notation occ_own1 := (occ_own1 mine).
Notation gpr := (@gpr B BL T mine).
Notation leafn := (@leafn BL T mine).
Notation tpost := (@tpost B BL T mine).
Hypothesis HB : 2 <= B.

Lemma write_mid {A} (u : list A) y w sl i z : pre (u ++ y :: w) sl -> lenN u = i ->
  exists sl', write sl i [Some z] = Ok sl' /\ pre (u ++ z :: w) sl' /\ lenN sl' = lenN sl.
Proof.
  intros (r & ->) Hi. unfold write. change (lenN [Some z]) with 1. rewrite !lenN_app, !lenN_map, lenN_app, lenN_cons.
  destruct (N.leb_spec (i + 1) (lenN u + (lenN w + 1) + lenN r)); [|lia].
  rewrite map_app, <- app_assoc. cbn [map app]. rewrite <- Hi, <- (lenN_map Some u), takeN_app.
  rewrite dropN_app_ge by lia. replace (lenN (map Some u) + 1 - lenN (map Some u)) with (lenN [Some y]) by (change (lenN [Some y]) with 1; lia).
  change (Some y :: map Some w ++ r) with ([Some y] ++ map Some w ++ r). rewrite dropN_app.
  eexists. split; [reflexivity|]. split; [exists r; now rewrite map_app, <- app_assoc|].
  rewrite !lenN_app, lenN_cons, !lenN_app, !lenN_map. change (lenN [Some y]) with 1. lia.
Qed.

Lemma pre_entry {A} (xs : list A) sl i x : pre xs sl -> rnthN xs i = Ok x -> entry sl i = Ok x.
Proof.
  intros Hp Hx. destruct (splitN i xs (rnthN_lt _ _ _ Hx)) as (u & y & w & -> & Hu). rewrite rnthN_app in Hx by exact Hu.
  injection Hx as ->. eapply pre_at; eauto.
Qed.

(** The element [y] at [j] of the leaf [lf] of the tree [n] at [a]; the leaf can be overwritten.
    [k z] is the tree with [z] instead. *)
Fixpoint hole (h : heap) (v : nat) (a : nat) (n : node T) (F : list nat) (lf : nat) (j : N) (y : T) (k : T -> node T) : Prop :=
  match v with
  | O => exists e u w, n = Leaf (u ++ y :: w) /\ mine e = true /\ leafn h a (Some e) (u ++ y :: w) /\ F = [a] /\ lf = a /\ j = lenN u /\
      (forall z, k z = Leaf (u ++ z :: w))
  | S l => exists o ro ks c1 c c2 szo m1 m m2 Fr f1 f f2 k', n = Inner szo (m1 ++ m :: m2) /\
      at_ h a o (GInner ro ks) /\ pre (c1 ++ c :: c2) ks /\ (ow o = true -> lenN ks = width) /\ trep h ro szo Fr /\
      all3 (rep h l) c1 m1 f1 /\ hole h l c m f lf j y k' /\ all3 (rep h l) c2 m2 f2 /\
      F = own1 o a ++ Fr ++ List.concat f1 ++ f ++ List.concat f2 /\
      (forall z, k z = Inner szo (m1 ++ k' z :: m2))
  end.
Lemma hole_rep h v : forall a n F lf j y k, hole h v a n F lf j y k -> rep h v a n F.
Proof.
  induction v as [|l IH]; intros a n F lf j y k H; cbn [hole] in H.
  - destruct H as (e & u & w & -> & He & Hl & -> & _). rewrite <- (own1_mine mine e a He). now apply leafn_rep.
  - destruct H as (o & ro & ks & c1 & c & c2 & szo & m1 & m & m2 & Fr & f1 & f & f2 & k' & -> & Ha & Hp & Hl & Ht & H1 & Hh & H2 & -> & _).
    cbn [GcRep.rep]. exists o, ro, ks, (c1 ++ c :: c2), Fr, (f1 ++ f :: f2). split; [auto|]. split; [auto|]. split; [auto|]. split; [auto|].
    split; [|now rewrite concat_app].
    apply all3_app; [exact H1|]. constructor; [eapply IH; exact Hh|exact H2].
Qed.
Lemma hole_in h v : forall a n F lf j y k, hole h v a n F lf j y k -> In lf F.
Proof.
  induction v as [|l IH]; intros a n F lf j y k H; cbn [hole] in H.
  - destruct H as (e & u & w & _ & _ & _ & -> & -> & _). now left.
  - destruct H as (o & ro & ks & c1 & c & c2 & szo & m1 & m & m2 & Fr & f1 & f & f2 & k' & -> & _ & _ & _ & _ & _ & Hh & _ & -> & _).
    rewrite !in_app_iff. right. right. right. left. eapply IH; exact Hh.
Qed.
Lemma hole_chg h h' W v : chg h h' W -> forall a n F lf j y k, hole h v a n F lf j y k -> (forall x, In x F -> ~ In x W) ->
  hole h' v a n F lf j y k.
Proof.
  intros C. induction v as [|l IH]; intros a n F lf j y k H D; cbn [hole] in H |- *.
  - destruct H as (e & u & w & E1 & He & Hl & E2 & E3). exists e, u, w. split; [auto|]. split; [auto|]. split; [|auto].
    eapply leafn_chg; [exact C|exact Hl|]. intros x Hx. apply D. rewrite (own1_mine mine e a He) in Hx. now rewrite E2.
  - destruct H as (o & ro & ks & c1 & c & c2 & szo & m1 & m & m2 & Fr & f1 & f & f2 & k' & E1 & Ha & Hp & Hl & Ht & H1 & Hh & H2 & E2 & E3).
    exists o, ro, ks, c1, c, c2, szo, m1, m, m2, Fr, f1, f, f2, k'. rewrite E2 in D.
    split; [auto|]. split; [eapply chg_at_own; [exact C|exact Ha|]; intros x Hx; apply D; rewrite !in_app_iff; auto|].
    split; [auto|]. split; [auto|]. split; [eapply trep_chg; [exact C|exact Ht|]; intros x Hx; apply D; rewrite !in_app_iff; auto|].
    split; [eapply reps_chg; [exact C|exact H1|]; intros x Hx; apply D; rewrite !in_app_iff; auto|].
    split; [eapply IH; [exact Hh|]; intros x Hx; apply D; rewrite !in_app_iff; auto|].
    split; [eapply reps_chg; [exact C|exact H2|]; intros x Hx; apply D; rewrite !in_app_iff; auto|].
    auto.
Qed.
Lemma hole_at h v : forall a n F lf j y k, hole h v a n F lf j y k ->
  exists e u w, mine e = true /\ leafn h lf (Some e) (u ++ y :: w) /\ j = lenN u.
Proof.
  induction v as [|l IH]; intros a n F lf j y k H; cbn [hole] in H.
  - destruct H as (e & u & w & E1 & He & Hl & E2 & -> & E3 & _). exists e, u, w. auto.
  - destruct H as (o & ro & ks & c1 & c & c2 & szo & m1 & m & m2 & Fr & f1 & f & f2 & k' & E1 & Ha & Hp & Hl & Ht & H1 & Hh & H2 & E2 & E3).
    eapply IH; exact Hh.
Qed.
(** Writing it. *)
Lemma hole_put h v : forall N a n F lf j y k e sl sl' z, hole h v a n F lf j y k -> sep N F ->
  at_ h lf (Some e) (GLeaf sl) -> write sl j [Some z] = Ok sl' ->
  rep (update_at lf (mkG (Some e) (GLeaf sl')) h) v a (k z) F.
Proof.
  induction v as [|l IH]; intros N a n F lf j y k e sl sl' z H Sp Ha Hw; pose proof (hole_in _ _ _ _ _ _ _ _ _ H) as Hin; cbn [hole] in H.
  - destruct H as (e' & u & w & E1 & He & (sl0 & Ha0 & Hp & Hl) & -> & -> & -> & Ek). rewrite Ek.
    unfold at_ in Ha, Ha0. rewrite Ha in Ha0. injection Ha0 as -> ->.
    destruct (write_mid u y w sl0 (lenN u) z Hp eq_refl) as (sl1 & Hw1 & P1 & L1). rewrite Hw in Hw1. injection Hw1 as ->.
    rewrite <- (own1_mine mine e' a He). apply leafn_rep. exists sl1. split; [eapply at_upd; exact Ha|]. split; [exact P1|].
    intros Ho. rewrite L1. auto.
  - destruct (hole_at h (S l) a n F lf j y k H) as (e' & u & w & He & (sl0 & Ha0 & _) & _).
    assert (Some e' = Some e) as [= ->]. { unfold at_ in Ha, Ha0. rewrite Ha in Ha0. injection Ha0 as -> _. reflexivity. }
    assert (chg h (update_at lf (mkG (Some e) (GLeaf sl')) h) [lf]) as C by (eapply chg_upd; [exact Ha|exact He]).
    destruct H as (o & ro & ks & c1 & c & c2 & szo & m1 & m & m2 & Fr & f1 & f & f2 & k' & E1 & Haa & Hp & Hl & Ht & H1 & Hh & H2 & -> & E3).
    pose proof (hole_in _ _ _ _ _ _ _ _ _ Hh) as Hlf.
    assert (forall x, In x (own1 o a ++ Fr ++ List.concat f1 ++ List.concat f2) -> ~ In x [lf]) as D.
    { intros x Hx [<-|[]]. revert Hlf. eapply sep_dis; [exact Sp| |exact Hx]. intros x. occs. la. }
    cbn [GcRep.rep]. rewrite E3. exists o, ro, ks, (c1 ++ c :: c2), Fr, (f1 ++ f :: f2).
    split; [eapply chg_at_own; [exact C|exact Haa|]; intros x Hx; apply D; rewrite !in_app_iff; auto|].
    split; [auto|]. split; [auto|]. split; [eapply trep_chg; [exact C|exact Ht|]; intros x Hx; apply D; rewrite !in_app_iff; auto|].
    split; [|now rewrite concat_app].
    apply all3_app; [eapply reps_chg; [exact C|exact H1|]; intros x Hx; apply D; rewrite !in_app_iff; auto|].
    constructor; [|eapply reps_chg; [exact C|exact H2|]; intros x Hx; apply D; rewrite !in_app_iff; auto].
    eapply (IH N); [exact Hh| |exact Ha|exact Hw].
    intros x. specialize (Sp x). occs. la.
Qed.

(** ** Positions *)
Lemma gview_run h v g p n F : gpr h v g p n F ->
  exists q, gview g h = Ok (q, h) /\ (forall idx, index B BL v q idx = index B BL v p idx) /\ count B BL v q = count B BL v p.
Proof.
  intros (a & Ea & Hr & Hok & Hg). destruct g as [x|x s|x s|x r|x s|], p as [n0|n0 s0|n0 s0|n0 sz|n0 s0|]; try easy.
  - eexists. split; [reflexivity|]. destruct v; auto.
  - subst s0. eexists. split; [reflexivity|]. destruct v; auto.
  - subst s0. eexists. split; [reflexivity|]. destruct v; auto.
  - destruct Hg as (o & ks & Ha). cbn in Ea. injection Ea as ->.
    inversion Hok; subst. destruct v; [easy|]. cbn [GcRep.rep] in Hr. destruct Hr as (o1 & ro & ks1 & cs1 & Fr & Fs & Ha1 & _ & _ & Htr & _).
    unfold at_ in Ha, Ha1. rewrite Ha in Ha1. injection Ha1 as <- <- <-. cbn in Htr. destruct Htr as (o2 & sl & H9 & Hp & _).
    cbn [gview]. run (gcount_ok _ _ _ _ _ H9). run (gtable_ok _ _ _ _ _ H9). run (glift_ok _ _ h (pre_all sz sl (lenN sz) Hp eq_refl)).
    eexists. split; [reflexivity|]. auto.
Qed.
Lemma gchild_addr v a s h g h' : gchild (T := T) B BL v a s h = Ok (g, h') -> gaddr g = Ok a.
Proof.
  assert (gsub (T := T) B BL v a s h = Ok (g, h') -> gaddr g = Ok a) as K.
  { unfold gsub, gbind, glift. destruct (mk_sub B BL v _ s); [|discriminate]. intros [= <- _]. reflexivity. }
  destruct v as [|v]; cbn [gchild]; [exact K|]. unfold gmaybe, gbind at 1.
  destruct (ginner a h) as [[[ro cs] h1]|] eqn:E; [|discriminate].
  assert (h1 = h) as ->.
  { unfold ginner, gbind, gload in E. destruct (nth_error h a) as [[o [x|x y|x y]]|]; cbn in E; try discriminate. now injection E. }
  destruct ro as [r|]; [|exact K]. unfold gbind.
  destruct (gcount r h) as [[n h2]|]; [|discriminate]. destruct ((if n =? 0 then gub else gsize r (n - 1)) h2) as [[t h3]|]; [|discriminate].
  destruct (t =? s); [|discriminate]. intros [= <- _]. reflexivity.
Qed.
Lemma towards_run h l g p a o ro ks c1 c c2 szo m1 m m2 Fr f1 f f2 F idx q idx' :
  gpr h (S l) g p (Inner szo (m1 ++ m :: m2)) F -> gaddr g = Ok a -> at_ h a o (GInner ro ks) -> pre (c1 ++ c :: c2) ks ->
  lenN c1 = lenN m1 -> trep h ro szo Fr -> all3 (rep h l) c1 m1 f1 -> rep h l c m f -> all3 (rep h l) c2 m2 f2 ->
  wf l m -> towards B BL l p idx (lenN m1) = Ok (q, idx') -> pos_ok l q m ->
  exists g', gtowards B BL l g idx (lenN m1) h = Ok ((g', idx'), h) /\ gaddr g' = Ok c /\ gpr h l g' q m f.
Proof.
  intros Hg Ea Ha Hpk Lc Htr H1 Hm H2 Hwm Et Hq. destruct (gview_run _ _ _ _ _ _ Hg) as (q0 & Ev & _ & Ec).
  pose proof Hg as (a' & Ea' & Hr & Hok & Hgp). rewrite Ea in Ea'. injection Ea' as <-.
  assert (gkid a (lenN m1) h = Ok (c, h)) as Ek by (eapply gkid_ok; [exact Ha|eapply pre_at; [exact Hpk|exact Lc]]).
  pose proof (pos_ok_node _ _ _ _ _ Hok) as En0.
  assert (forall n0 s, (p = PReg n0 s \/ p = PSub n0 s) -> (g = GReg a s \/ g = GSub a s) ->
    exists g', (c <~ gkid a (lenN m1) ;; q <~ gview g ;; k <~ glift (count B BL (S l) q) ;;
        if lenN m1 + 1 =? k then (if s =? 0 then gub else gret (GReg c s, idx)) else gret (GFull c, idx)) h = Ok ((g', idx'), h) /\ gaddr g' = Ok c /\ gpr h l g' q m f) as K.
  { intros n0 s Hp Hgg.
    assert (n0 = Inner szo (m1 ++ m :: m2)) as ->.
    { destruct Hp as [-> | ->]; cbn in En0; now injection En0. }
    assert ((cs <- inner_of (Inner szo (m1 ++ m :: m2)) ;; c <- rnthN cs (lenN m1) ;; k <- count B BL (S l) p ;;
      if lenN m1 + 1 =? k then q <- mk_reg c s ;; Ok (q, idx) else Ok (PFull c, idx)) = Ok (q, idx')) as Et'.
    { destruct Hp as [-> | ->]; exact Et. }
    cbn [inner_of rbind] in Et'. rewrite rnthN_app in Et' by reflexivity. cbn [rbind] in Et'.
    destruct (count B BL (S l) p) as [k|] eqn:Ekk; [|discriminate]. cbn [rbind] in Et'.
    run Ek. run Ev. run (glift_ok _ _ h Ec). destruct (lenN m1 + 1 =? k).
    - unfold mk_reg in Et'. destruct (N.eqb_spec s 0); [discriminate|]. cbn [rbind] in Et'. injection Et' as <- <-.
      eexists. split; [reflexivity|]. split; [reflexivity|]. exists c. auto.
    - injection Et' as <- <-. eexists. split; [reflexivity|]. split; [reflexivity|]. exists c. auto. }
  destruct g as [x|x s|x s|x r|x s|], p as [n0|n0 s0|n0 s0|n0 sz|n0 s0|]; try easy; cbn in Ea; injection Ea as ->.
  - cbn in En0. injection En0 as ->. cbn in Et. rewrite rnthN_app in Et by reflexivity. cbn [rbind] in Et. injection Et as <- <-.
    cbn [gtowards]. run Ek. eexists. split; [reflexivity|]. split; [reflexivity|]. exists c. auto.
  - subst s0. apply (K n0 s); auto.
  - subst s0. apply (K n0 s); auto.
  - clear K. assert (n0 = Inner szo (m1 ++ m :: m2) /\ szo = Some sz) as [-> ->] by (inversion Hok; subst; auto).
    destruct Hgp as (o' & ks' & Ha'). unfold at_ in Ha, Ha'. rewrite Ha' in Ha. injection Ha as -> <- ->.
    pose proof (pos_ok_wf _ _ _ _ _ Hok) as Hw. cbn [towards inner_of rbind] in Et.
    rewrite (rel_before B BL _ _ _ _ Hw) in Et. cbn [rbind] in Et. rewrite rnthN_app in Et by reflexivity. cbn [rbind] in Et.
    rewrite (rel_at B BL _ _ _ _ _ Hw) in Et. cbn [rbind] in Et. replace (csize m1 + nsize m - csize m1) with (nsize m) in Et by lia.
    destruct (gpr_child B BL mine h l c m f Hm Hwm) as (g' & q' & Eg & Eq & Hg'). rewrite Eq in Et. cbn [rbind] in Et. injection Et as <- <-.
    cbn in Htr. destruct Htr as (o2 & sl & H3 & Hps & _). cbn [gtowards].
    pose proof (rel_before B BL _ _ _ _ Hw) as Eb. pose proof (rel_at B BL _ _ _ _ _ Hw) as Eat.
    assert ((if lenN m1 =? 0 then gret 0 else gsize r (lenN m1 - 1)) h = Ok (csize m1, h)) as E1.
    { destruct (lenN m1 =? 0); [injection Eb as <-; reflexivity|]. eapply gsize_ok; [exact H3|]. eapply pre_entry; eauto. }
    run E1. run Ek. run (gsize_ok h r o2 _ sl (lenN m1) _ H3 (pre_entry sz sl (lenN m1) _ Hps Eat)).
    replace (csize m1 + nsize m - csize m1) with (nsize m) by lia. run Eg. eexists. split; [reflexivity|]. split; [eapply gchild_addr; exact Eg|exact Hg'].
Qed.

(** ** get_mut_visitor *)
Lemma copy_kids_run (h : heap) dst src o r ks cs o' r' k n : at_ h src o (GInner r ks) -> pre cs ks -> lenN cs = n ->
  at_ h dst o' (GInner r' (blank nat k)) -> n <= k ->
  exists ds, gcopy_kids dst src n h = Ok (tt, update_at dst (mkG o' (GInner r' ds)) h) /\ pre cs ds /\ lenN ds = k.
Proof.
  intros Hs Hp Hn Hd Hk. destruct (write_pre [] cs (blank nat k) 0 (pre_nil _) eq_refl) as (ds & E & P & L & _); [rewrite blank_len; lia|].
  rewrite blank_len in L. exists ds. split; [|auto]. unfold gcopy_kids. run (ginner_ok _ _ _ _ _ Hs).
  run (glift_ok _ _ h (pre_all cs ks n Hp (eq_sym Hn))). run (ginner_ok _ _ _ _ _ Hd). run (glift_ok _ _ h E). eapply gput_inner_ok; eauto.
Qed.
Lemma upd_same (h : heap) a o b : at_ h a o b -> update_at a (mkG o b) h = h.
Proof. unfold at_. revert a. induction h as [|x h IH]; intros [|a] H; cbn in *; try easy; [congruence|]. now rewrite IH. Qed.
Lemma set_back_run (h : heap) a o ro ks c1 c c2 oc i : at_ h a o (GInner ro ks) -> pre (c1 ++ c :: c2) ks -> lenN c1 = i ->
  exists ks', match oc with Some b => gset_kid a i b | None => gret tt end h = Ok (tt, update_at a (mkG o (GInner ro ks')) h) /\
    pre (c1 ++ (match oc with Some b => b | None => c end) :: c2) ks' /\ lenN ks' = lenN ks.
Proof.
  intros Ha Hp Hi. destruct oc as [b|].
  - destruct (write_mid c1 c c2 ks i b Hp Hi) as (ks' & E & P & L). exists ks'. split; [eapply gset_kid_ok; eauto|auto].
  - exists ks. rewrite (upd_same _ _ _ _ Ha). auto.
Qed.
Lemma get_mut_run e : mine e = true -> forall v g p n F idx i h R,
  gpr h v g p n F -> addr v p idx i -> i < nsize n -> sep (length h) (F ++ R) ->
  exists a o lf j h' F' W y k, gaddr g = Ok a /\ gget_mut B BL e v g idx h = Ok ((o, (lf, j)), h') /\
    hole h' v (match o with Some b => b | None => a end) n F' lf j y k /\ sep (length h') (F' ++ R) /\
    chg h h' W /\ (forall x, In x W -> In x F) /\ (forall fn, update_node B BL v p idx fn = Ok (k (fn y))).
Proof.
  intros He. induction v as [|l IH]; intros g p n F idx i h R Hg Had Hi HS.
  - destruct (gview_run _ _ _ _ _ _ Hg) as (q0 & Ev & Eidx & Ec). pose proof Hg as (a & Ea & Hr & Hok & Hgp).
    destruct (leaf_index _ _ _ _ _ _ Hok Had Hi) as (xs & -> & Hidx & Hlt).
    destruct (rep_leafn B BL mine _ _ _ _ Hr) as (o & Ho & EF). pose proof Ho as (sl & Ha & Hp & Hl).
    destruct (splitN i xs Hlt) as (u & y & w & -> & Hu).
    assert (forall fn, update_node B BL O p idx fn = Ok (Leaf (u ++ fn y :: w))) as Hup.
    { intros fn. cbn [update_node]. rewrite Hidx, (count_ok _ _ _ _ _ Hok). cbn [rbind ncount].
      rewrite (pos_ok_node _ _ _ _ _ Hok). cbn [rbind leaf_of].
      rewrite rtakeN_all by reflexivity. cbn [rbind].
      rewrite rnthN_app by auto. cbn [rbind]. now rewrite updN_app by auto. }
    cbn [gget_mut]. run (glift_ok _ _ h Ea). run Ev. rewrite <- (Eidx idx) in Hidx. run (glift_ok _ _ h Hidx).
    run (gcan_mutate_ok _ _ _ _ e Ha). destruct (owned_by (mkG o (GLeaf sl)) e) eqn:Eo.
    + destruct (owned_by_ow mine o (GLeaf sl) e He Eo) as [-> _]. rewrite (own1_mine mine e a He) in EF. subst F.
      exists a, None, a, i, h, [a], [], y, (fun z => Leaf (u ++ z :: w)). split; [exact Ea|]. split; [reflexivity|].
      split; [|split; [exact HS|split; [apply chg_refl|split; [easy|exact Hup]]]].
      cbn [hole]. exists e, u, w. auto 10.
    + pose proof (count_ok _ _ _ _ _ Hok) as Hc. rewrite <- Ec in Hc. run (glift_ok _ _ h Hc). cbn [ncount].
      destruct (copy_leaf_run B BL mine HB (Some e) h a o [] (u ++ y :: w) [] 0 (lenN (u ++ y :: w))) as (h1 & E1 & H1 & C1 & L1); auto.
      { apply al_some, He. } { cbn. now rewrite app_nil_r. } { pose proof (pos_ok_wf _ _ _ _ _ Hok) as Hw. cbn in Hw. lia. }
      run E1. exists a, (Some (length h)), (length h), i, h1, [length h], [], y, (fun z => Leaf (u ++ z :: w)). split; [exact Ea|].
      split; [reflexivity|]. split; [|split; [|split; [exact C1|split; [easy|exact Hup]]]].
      * cbn [hole]. exists e, u, w. auto 10.
      * rewrite L1. intros x. specialize (HS x). rewrite lt1_S. occs. la.
  - destruct (gview_run _ _ _ _ _ _ Hg) as (q0 & Ev & Eidx & Ec). pose proof Hg as (a & Ea & Hr & Hok & Hgp).
    destruct (towards_ok B BL l p n idx i Hok Had Hi)
      as (m1 & m & m2 & j & Ek & Ei & Hj & Hwm & Hidx & (q & idx' & Et & Hq & Haq) & _).
    pose proof (pos_ok_wf _ _ _ _ _ Hok) as Hw. destruct (wf_inner _ _ _ _ Hw) as (szo & ns & En). subst n. cbn [kids] in Ek. subst ns.
    pose proof Hr as Hr0. cbn [GcRep.rep] in Hr0. destruct Hr0 as (o & ro & ks & cs & Fr & Fs & Ha & Hpk & Lk & Htr & H3 & EF).
    destruct (all3_split _ _ m1 (m :: m2) _ H3) as (c1 & cr & f1 & fr & -> & -> & A1 & A2).
    inversion A2 as [|c ? f c2 ? f2 Hm A3]; subst cr fr. clear A2. rewrite concat_app in EF. cbn [List.concat] in EF.
    destruct (all3_len _ _ _ _ A1) as [Lc _]. destruct (all3_len _ _ _ _ A3) as [Lc2 _].
    assert (forall k' y, (forall fn, update_node B BL l q idx' fn = Ok (k' (fn y))) ->
              forall fn, update_node B BL (S l) p idx fn = Ok (Inner szo (m1 ++ k' (fn y) :: m2))) as Hup.
    { intros k' y Eu fn. cbn [update_node]. rewrite Hidx, (count_ok _ _ _ _ _ Hok). cbn [rbind ncount].
      assert (pinner p = Ok (m1 ++ m :: m2)) as ->. { unfold pinner. rewrite (pos_ok_node _ _ _ _ _ Hok). reflexivity. }
      cbn [rbind]. rewrite Et. cbn [rbind]. rewrite Eu. cbn [rbind].
      rewrite rtakeN_all by reflexivity. cbn [rbind]. rewrite updN_app by reflexivity.
      assert (match p with PRel _ sz => Some sz | _ => None end = szo) as ->; [|reflexivity].
      inversion Hok; subst; try reflexivity; destruct szo; try easy; exfalso;
        match goal with H : full _ _ |- _ => cbn in H; easy | _ => idtac end. }
    cbn [gget_mut]. run (glift_ok _ _ h Ea). run Ev. pose proof Hidx as Hidx'. rewrite <- (Eidx idx) in Hidx'. run (glift_ok _ _ h Hidx').
    run (gcan_mutate_ok _ _ _ _ e Ha). destruct (owned_by (mkG o (GInner ro ks)) e) eqn:Eo.
    + destruct (owned_by_ow mine o (GInner ro ks) e He Eo) as [-> Ho]. rewrite (own1_mine mine e a He) in EF.
      destruct (towards_run h l g p a (Some e) ro ks c1 c c2 szo m1 m m2 Fr f1 f f2 F idx q idx') as (g' & Eg & Eca & Hg'); auto.
      run Eg. subst F.
      destruct (IH g' q m f idx' j h ([a] ++ Fr ++ List.concat f1 ++ List.concat f2 ++ R) Hg' Haq Hj)
        as (ca & oc & lf & jj & h1 & F1 & W & y & k' & Eca' & E1 & Hh & S1 & C1 & HW & Hu).
      { intros x. specialize (HS x). occs. la. }
      rewrite Eca in Eca'. injection Eca' as <-. run E1.
      assert (forall x, In x ([a] ++ Fr ++ List.concat f1 ++ List.concat f2 ++ R) -> ~ In x W) as D.
      { intros x Hx Hi'. apply HW in Hi'. revert x Hx Hi'. eapply sep_dis; [exact HS|]. intros x. occs. la. }
      assert (at_ h1 a (Some e) (GInner ro ks)) as Ha1 by (eapply chg_at; [exact C1|exact Ha|apply D; now left]).
      destruct (set_back_run h1 a (Some e) ro ks c1 c c2 oc (lenN m1) Ha1 Hpk Lc) as (ks' & E2 & P2 & L2). run E2.
      set (h2 := update_at a (mkG (Some e) (GInner ro ks')) h1).
      assert (chg h1 h2 [a]) as C2 by (eapply chg_upd; [exact Ha1|exact He]).
      assert (forall x, In x (F1 ++ Fr ++ List.concat f1 ++ List.concat f2 ++ R) -> ~ In x [a]) as D2.
      { eapply sep_dis; [exact S1|]. intros x. occs. la. }
      exists a, None, lf, jj, h2, ([a] ++ Fr ++ List.concat f1 ++ F1 ++ List.concat f2), (W ++ [a]), y, (fun z => Inner szo (m1 ++ k' z :: m2)).
      split; [exact Ea|]. split; [reflexivity|]. split; [|split; [|split; [|split]]].
      * cbn [hole]. exists (Some e), ro, ks', c1, (match oc with Some b => b | None => c end), c2, szo, m1, m, m2, Fr, f1, F1, f2, k'.
        split; [reflexivity|]. split; [eapply at_upd; exact Ha1|]. split; [exact P2|]. split; [intros _; rewrite L2; auto|].
        split; [eapply trep_chg; [exact C2|eapply trep_chg; [exact C1|exact Htr|]|];
                intros x Hx; [apply D|apply D2]; rewrite !in_app_iff; auto|].
        split; [eapply reps_chg; [exact C2|eapply reps_chg; [exact C1|exact A1|]|];
                intros x Hx; [apply D|apply D2]; rewrite !in_app_iff; auto|].
        split; [eapply hole_chg; [exact C2|exact Hh|]; intros x Hx; apply D2; rewrite !in_app_iff; auto|].
        split; [eapply reps_chg; [exact C2|eapply reps_chg; [exact C1|exact A3|]|];
                intros x Hx; [apply D|apply D2]; rewrite !in_app_iff; auto|].
        rewrite (own1_mine mine e a He). auto.
      * unfold h2. rewrite upd_len. intros x. specialize (S1 x). occs. la.
      * eapply chg_trans; eauto.
      * intros x Hx. rewrite !in_app_iff in *. destruct Hx as [Hx|Hx]; [right; right; right; left; apply HW, Hx|auto].
      * apply Hup, Hu.
    + pose proof (count_ok _ _ _ _ _ Hok) as Hc. rewrite <- Ec in Hc. run (glift_ok _ _ h Hc). cbn [ncount].
      set (b := length h). set (h1 := h ++ [mkG (Some e) (GInner ro (blank nat width))]).
      assert (match g with GRel _ r => gmk_inner_sr B e r | _ => gmk_inner B (Some e) (lenN (m1 ++ m :: m2)) end h = Ok (b, h1)) as E0.
      { destruct g as [x|x s|x s|x r|x s|], p as [n0|n0 s0|n0 s0|n0 sz|n0 s0|]; try easy.
        all: try (assert (ro = None) as Ero; [destruct szo as [sz0|]; [exfalso|destruct ro; [easy|reflexivity]];
                    inversion Hok; subst; try easy; match goal with H : full _ _ |- _ => cbn in H; easy | _ => idtac end
                 |unfold h1; rewrite Ero; reflexivity]).
        destruct Hgp as (o' & ks' & Ha'). cbn in Ea. injection Ea as ->. unfold at_ in Ha, Ha'. rewrite Ha' in Ha. injection Ha as _ <- _.
        reflexivity. }
      run E0. assert (chg h h1 []) as C0 by apply chg_new.
      assert (lenN (m1 ++ m :: m2) <= width) as Hwd. { exact (wf_count_le _ _ _ _ Hw). }
      assert (at_ h1 b (Some e) (GInner ro (blank nat width))) as Hb by apply at_new.
      assert (lenN (c1 ++ c :: c2) = lenN (m1 ++ m :: m2)) as Lcs by (rewrite !lenN_app, !lenN_cons; lia).
      destruct (copy_kids_run h1 b a o ro ks (c1 ++ c :: c2) (Some e) ro width (lenN (m1 ++ m :: m2)))
        as (ds & E1 & Pd & Ld); auto; [eapply chg_at; [exact C0|exact Ha|easy]|].
      run E1. set (h2 := update_at b (mkG (Some e) (GInner ro ds)) h1). assert (chg h h2 []) as C2 by (apply chg_fresh; auto).
      assert (length h2 = S (length h)) as L2. { unfold h2, h1. rewrite upd_len, app_length. cbn. lia. }
      assert (at_ h2 b (Some e) (GInner ro ds)) as Hb2 by (eapply at_upd; exact Hb).
      destruct (towards_run h2 l g p a o ro ks c1 c c2 szo m1 m m2 Fr f1 f f2 F idx q idx') as (g' & Eg & Eca & Hg'); auto.
      { eapply gpr_chg; eauto. } { eapply chg_at; [exact C2|exact Ha|easy]. } { eapply trep_chg; [exact C2|exact Htr|easy]. }
      { eapply reps_chg; [exact C2|exact A1|easy]. } { eapply rep_chg; [exact C2|exact Hm|easy]. }
      { eapply reps_chg; [exact C2|exact A3|easy]. }
      run Eg. subst F.
      assert (sep (length h2) (f ++ own1 (Some e) b ++ Fr ++ List.concat f1 ++ List.concat f2 ++ R)) as HS2.
      { rewrite L2. intros x. specialize (HS x). rewrite lt1_S. fold b in HS |- *. pose proof (occ_own1 x (Some e) b). occs. la. }
      destruct (IH g' q m f idx' j h2 (own1 (Some e) b ++ Fr ++ List.concat f1 ++ List.concat f2 ++ R) Hg' Haq Hj HS2)
        as (ca & oc & lf & jj & h3 & F1 & W & y & k' & Eca' & E3 & Hh & S3 & C3 & HW & Hu).
      rewrite Eca in Eca'. injection Eca' as <-. run E3. rewrite (own1_mine mine e b He) in HS2, S3.
      assert (forall x, In x ([b] ++ Fr ++ List.concat f1 ++ List.concat f2 ++ R) -> ~ In x W) as D.
      { intros x Hx Hi'. apply HW in Hi'. revert x Hx Hi'. eapply sep_dis; [exact HS2|]. intros x. occs. la. }
      assert (at_ h3 b (Some e) (GInner ro ds)) as Hb3 by (eapply chg_at; [exact C3|exact Hb2|apply D; now left]).
      destruct (set_back_run h3 b (Some e) ro ds c1 c c2 oc (lenN m1) Hb3 Pd Lc) as (ks' & E4 & P4 & L4). run E4.
      set (h4 := update_at b (mkG (Some e) (GInner ro ks')) h3).
      assert (chg h3 h4 [b]) as C4 by (eapply chg_upd; [exact Hb3|exact He]).
      assert (forall x, In x (F1 ++ Fr ++ List.concat f1 ++ List.concat f2 ++ R) -> ~ In x [b]) as D2.
      { eapply sep_dis; [exact S3|]. intros x. occs. la. }
      exists a, (Some b), lf, jj, h4, ([b] ++ Fr ++ List.concat f1 ++ F1 ++ List.concat f2), W, y, (fun z => Inner szo (m1 ++ k' z :: m2)).
      split; [exact Ea|]. split; [reflexivity|]. split; [|split; [|split; [|split]]].
      * cbn [hole]. exists (Some e), ro, ks', c1, (match oc with Some b => b | None => c end), c2, szo, m1, m, m2, Fr, f1, F1, f2, k'.
        split; [reflexivity|]. split; [eapply at_upd; exact Hb3|]. split; [exact P4|]. split; [intros _; rewrite L4; exact Ld|].
        split; [eapply trep_chg; [exact C4|eapply trep_chg; [exact C3|eapply trep_chg; [exact C2|exact Htr|easy]|]|];
                intros x Hx; [apply D|apply D2]; rewrite !in_app_iff; auto|].
        split; [eapply reps_chg; [exact C4|eapply reps_chg; [exact C3|eapply reps_chg; [exact C2|exact A1|easy]|]|];
                intros x Hx; [apply D|apply D2]; rewrite !in_app_iff; auto|].
        split; [eapply hole_chg; [exact C4|exact Hh|]; intros x Hx; apply D2; rewrite !in_app_iff; auto|].
        split; [eapply reps_chg; [exact C4|eapply reps_chg; [exact C3|eapply reps_chg; [exact C2|exact A3|easy]|]|];
                intros x Hx; [apply D|apply D2]; rewrite !in_app_iff; auto|].
        rewrite (own1_mine mine e b He). auto.
      * unfold h4. rewrite upd_len. intros x. specialize (S3 x). occs. la.
      * apply chg_fresh; [|auto]. apply (chg_nil_trans mine h h2 h3); auto.
      * intros x Hx. rewrite !in_app_iff. right. right. right. left. apply HW, Hx.
      * apply Hup, Hu.
Qed.

(** ** update_mut *)
Lemma put_in_run {A} (h : heap) lf e u y w j fn (x : A) : leafn h lf (Some e) (u ++ y :: w) -> j = lenN u ->
  exists sl sl', at_ h lf (Some e) (GLeaf sl) /\ write sl j [Some (fn y)] = Ok sl' /\ pre (u ++ fn y :: w) sl' /\ lenN sl' = lenN sl /\
    (xs <~ gleaf lf ;; z <~ glift (entry xs j) ;; _ <~ gput_elem lf j (fn z) ;; gret x) h = Ok (x, update_at lf (mkG (Some e) (GLeaf sl')) h).
Proof.
  intros (sl & Ha & Hp & Hl) ->. destruct (write_mid u y w sl (lenN u) (fn y) Hp eq_refl) as (sl' & E & P & L).
  exists sl, sl'. split; [exact Ha|]. split; [exact E|]. split; [exact P|]. split; [exact L|].
  run (gleaf_ok _ _ _ _ Ha). run (glift_ok _ _ h (pre_at u y w sl (lenN u) Hp eq_refl)).
  assert (gput_elem lf (lenN u) (fn y) h = Ok (tt, update_at lf (mkG (Some e) (GLeaf sl')) h)) as E1.
  { unfold gput_elem. run (gleaf_ok _ _ _ _ Ha). run (glift_ok _ _ h E). eapply gput_leaf_ok; eauto. }
  run E1. reflexivity.
Qed.
Lemma update_leaf p u y w idx fn : pos_ok O p (Leaf (u ++ y :: w)) -> addr O p idx (lenN u) ->
  N.land idx (lmask BL) = lenN u /\ update_node B BL O p idx fn = Ok (Leaf (u ++ fn y :: w)).
Proof.
  intros Hok Had. assert (lenN u < nsize (Leaf (u ++ y :: w))) as Hi by (rewrite nsize_leaf, lenN_app, lenN_cons; lia).
  destruct (leaf_index _ _ _ _ _ _ Hok Had Hi) as (xs & [= <-] & Hidx & Hlt). split; [now injection Hidx|].
  cbn [update_node]. rewrite Hidx, (count_ok _ _ _ _ _ Hok). cbn [rbind ncount].
  rewrite (pos_ok_node _ _ _ _ _ Hok). cbn [rbind leaf_of]. rewrite rtakeN_all by reflexivity. cbn [rbind].
  rewrite rnthN_app by auto. cbn [rbind]. now rewrite updN_app by auto.
Qed.
Lemma update_mut_run e h x t F R idx fn : mine e = true -> gtrep h x t F -> inv B BL t -> idx < size t -> sep (length h) (F ++ R) ->
  exists z h' t', gupdate_mut B BL e x idx fn h = Ok (z, h') /\ update B BL t idx fn = Ok t' /\ tpost h h' z t' R.
Proof.
  intros He Hx Ht Hlt HS. assert (1 <= B) as HB1 by lia. pose proof (gtail_offset_ok B BL mine HB _ _ _ _ Hx Ht) as Gx.
  pose proof (tail_offset_ok B BL HB1 t Ht) as Eto. pose proof Ht as (xs & Et & Hs & Hle & Hpos & Hr).
  fold (root_ok B BL (lv t) (root t)) in Hr. destruct Hx as (X1 & X2 & Fr & Ft & X3 & X4 & ->). rewrite Et in X4.
  unfold gupdate_mut, update. run Gx. rewrite Eto. cbn [rbind]. rewrite X1.
  replace (size t - nsize (root t)) with (lenN xs) by lia. rewrite Et.
  destruct (N.leb_spec (nsize (root t)) idx) as [Hge|Hlt'].
  - destruct (ensure_tail_run B BL mine HB e h x xs Ft (lenN xs) He X4 eq_refl Hle) as (tl & h1 & Ft' & E1 & Htl & -> & C1 & S1).
    destruct (splitN (idx - nsize (root t)) xs ltac:(lia)) as (u & y & w & -> & Hu).
    assert (wf O (Leaf (u ++ y :: w))) as Hwx by (cbn; rewrite lenN_app, lenN_cons in *; lia).
    assert (pos_ok O (PSub (Leaf (u ++ y :: w)) (nsize (Leaf (u ++ y :: w)))) (Leaf (u ++ y :: w))) as Hok by now constructor.
    destruct (update_leaf _ u y w (idx - nsize (root t)) fn Hok) as [El Eu].
    { rewrite Hu. eapply addr_refl; [exact Hok|]. rewrite nsize_leaf, lenN_app, lenN_cons. lia. }
    rewrite El. change (lenN (u ++ y :: w)) with (nsize (Leaf (u ++ y :: w))) in E1 |- *.
    rewrite (mk_sub_ok B BL 0) by auto. cbn [rbind]. rewrite Eu. cbn [rbind].
    set (x' := mkGT (gt_size x) (gt_lv x) (gt_root x) tl) in *.
    assert ((x' <~ gensure_tail BL e x (nsize (Leaf (u ++ y :: w))) ;; gret (x', (gt_tail x', lenN u))) h = Ok ((x', (tl, lenN u)), h1)) as E2.
    { run E1. reflexivity. }
    run E2. destruct (put_in_run h1 tl e u y w (lenN u) fn x' Htl eq_refl) as (sl & sl' & Ha & Hw & P & L & E3). rewrite E3.
    assert (sep (length h1) (own1 (Some e) tl ++ Fr ++ R)) as HS1. { apply S1. intros z. specialize (HS z). occs. la. }
    rewrite (own1_mine mine e tl He) in HS1.
    assert (chg h1 (update_at tl (mkG (Some e) (GLeaf sl')) h1) [tl]) as C2 by (eapply chg_upd; [exact Ha|exact He]).
    assert (forall z, In z (Fr ++ R) -> ~ In z [tl]) as D.
    { intros z Hz Hi. revert z Hi Hz. eapply sep_dis; [exact HS1|]. intros z. occs. la. }
    eexists _, _, _. split; [reflexivity|]. split; [reflexivity|]. exists (Fr ++ [tl]). split; [|split].
    + split; [exact X1|]. split; [exact X2|]. exists Fr, [tl]. split; [|split; [|reflexivity]]; cbn [gt_lv gt_root gt_tail lv root tail].
      * eapply rep_chg; [exact C2|eapply rep_chg; [exact C1|exact X3|easy]|]. intros z Hz. apply D, in_or_app. auto.
      * rewrite <- (own1_mine mine e tl He). apply leafn_rep. exists sl'. split; [eapply at_upd; exact Ha|]. split; [exact P|].
        intros Ho. rewrite L. destruct Htl as (s0 & Ha0 & _ & Hl0). unfold at_ in Ha, Ha0. rewrite Ha in Ha0. injection Ha0 as ->. auto.
    + rewrite upd_len. intros z. specialize (HS1 z). occs. la.
    + eapply still_trans; [apply still_new; exact C1|]. eapply still_chg; [exact C2|]. intros z Hz. apply D, in_or_app. auto.
  - assert (wf (S (lv t)) (root t)) as Hw by (eapply (RrbTree.root_pos B BL HB1); [exact Hr|lia]).
    destruct (gpr_child B BL mine h (S (lv t)) (gt_root x) (root t) Fr X3 Hw) as (g & q & Eg & Eq & Hg). cbn [gchild child_pos] in Eg, Eq.
    pose proof (gchild_addr (S (lv t)) _ _ _ _ _ Eg) as Eadr.
    rewrite Eq. cbn [rbind].
    destruct (get_mut_run e He (S (lv t)) g q (root t) Fr idx idx h (Ft ++ R) Hg) as (a & o & lf & j & h1 & F' & W & y & k & Ea & E1 & Hh & S1 & C1 & HW & Hu).
    { destruct Hg as (? & _ & _ & Hok & _). eapply addr_refl; [exact Hok|exact Hlt']. } { exact Hlt'. }
    { intros z. specialize (HS z). occs. la. }
    rewrite Eadr in Ea. injection Ea as <-. rewrite Hu. cbn [rbind].
    set (x' := match o with Some r => mkGT (size t) (gt_lv x) r (gt_tail x) | None => x end).
    assert ((g <~ gmaybe B BL (S (gt_lv x)) (gt_root x) (nsize (root t)) ;;
             ' (o, w) <~ gget_mut B BL e (S (gt_lv x)) g idx ;;
             gret (match o with Some r => mkGT (size t) (gt_lv x) r (gt_tail x) | None => x end, w)) h = Ok ((x', (lf, j)), h1)) as E2.
    { rewrite X2. run Eg. run E1. unfold x'. now rewrite X2. }
    run E2. destruct (hole_at _ _ _ _ _ _ _ _ _ Hh) as (e' & u & w & He' & Hlf & Hj).
    destruct (put_in_run h1 lf e' u y w j fn x' Hlf Hj) as (sl & sl' & Ha & Hwr & P & L & E3). rewrite E3.
    pose proof (hole_in _ _ _ _ _ _ _ _ _ Hh) as Hin.
    set (h2 := update_at lf (mkG (Some e') (GLeaf sl')) h1).
    assert (chg h1 h2 [lf]) as C2 by (eapply chg_upd; [exact Ha|exact He']).
    assert (rep h2 (S (lv t)) (match o with Some b => b | None => gt_root x end) (k (fn y)) F') as Hrep.
    { eapply hole_put; [exact Hh| |exact Ha|exact Hwr]. instantiate (1 := length h1). intros z. specialize (S1 z). occs. la. }
    assert (forall z, In z (Ft ++ R) -> ~ In z W) as D1.
    { intros z Hz Hi. apply HW in Hi. revert z Hz Hi. eapply sep_dis; [exact HS|]. intros z. occs. la. }
    assert (forall z, In z (Ft ++ R) -> ~ In z [lf]) as D2.
    { intros z Hz [<-|[]]. revert Hin. eapply sep_dis; [exact S1| |exact Hz]. intros z. occs. la. }
    eexists _, _, _. split; [reflexivity|]. split; [reflexivity|]. exists (F' ++ Ft). split; [|split].
    + split; [unfold x'; now destruct o|]. split; [unfold x'; now destruct o|]. exists F', Ft. cbn [lv root tail].
      split; [unfold x'; destruct o; exact Hrep|]. split; [|reflexivity].
      replace (gt_tail x') with (gt_tail x) by (unfold x'; now destruct o).
      eapply rep_chg; [exact C2|eapply rep_chg; [exact C1|exact X4|]|]; intros z Hz; [apply D1|apply D2]; apply in_or_app; auto.
    + unfold h2. rewrite upd_len. intros z. specialize (S1 z). occs. la.
    + eapply still_trans; eapply still_chg; [exact C1| |exact C2|]; intros z Hz; [apply D1|apply D2]; apply in_or_app; auto.
Qed.
End Upd.
