(** Taking elements, on the memory of GcConcat: the programs of GcSlice build the trees that the
    functions of Rrb compute. *)
From Coq Require Import List NArith Arith Bool Lia ZifyN ZifyNat ZifyBool.
From Verif Require Import Common NList Rrb RrbInv RrbPos RrbOps RrbSlice RrbTree GcConcat GcRep GcAdd GcVisit GcTree
  GcVec GcVecRun GcVecTree GcVecUpd GcSlice.
Import ListNotations.
Local Open Scope N_scope.

Set Default Goal Selector "!".

Section Slice.
Variables B BL : N.
Context {T : Type}.
Variable mine : token -> bool.
Notation sh := (sh B BL).
Notation span := (span B BL).
Notation width := (width B).
Notation lwidth := (lwidth BL).
Notation heap := (gheap T).
Notation rep := (@rep B BL T mine).
Notation ow := (ow mine).
Notation own1 := (own1 mine).
Notation trep := (@trep B T mine).
Notation chg := (@chg T mine).
Notation still := (@still T mine).
Notation wf := (@wf T B BL).
Notation full := (@full T B BL).
Notation pos_ok := (@pos_ok T B BL).
Notation addr := (@addr T B BL).
Notation gtrep := (@gtrep B BL T mine).
Notation al_ok := (al_ok mine).
Notation mt_ok := (mt_ok mine).
Notation occ_own1 := (occ_own1 mine).
Notation gpr := (@gpr B BL T mine).
Notation leafn := (@leafn BL T mine).
Notation tpost := (@tpost B BL T mine).
Hypothesis HB : 2 <= B.

(** ** Positions *)
Definition strip (p : pos T) : pos T :=
  match p with
  | PFull _ => PFull (Leaf [])
  | PReg _ s => PReg (Leaf []) s
  | PSub _ s => PSub (Leaf []) s
  | PRel _ sz => PRel (Leaf []) sz
  | PSingle _ s => PSingle (Leaf []) s
  | PNone => PNone
  end.
Lemma strip_index v p i : index B BL v (strip p) i = index B BL v p i.
Proof. now destruct v, p. Qed.
Lemma strip_count v p : count B BL v (strip p) = count B BL v p.
Proof. now destruct v, p. Qed.
Lemma strip_subindex v p i : subindex B BL v (strip p) i = subindex B BL v p i.
Proof. now destruct v, p. Qed.
Lemma strip_before v p i : size_before B BL v (strip p) i = size_before B BL v p i.
Proof. now destruct v, p. Qed.
Lemma strip_sbh v p i s : size_sbh B BL v (strip p) i s = size_sbh B BL v p i s.
Proof. now destruct v, p. Qed.
Lemma strip_this l p : this_size B BL l (strip p) = this_size B BL l p.
Proof. now destruct p. Qed.
Lemma strip_copy v p i n s : copy_sizes B BL v (strip p) i n s = copy_sizes B BL v p i n s.
Proof. now destruct v, p. Qed.

Lemma gview_strip h v g p n F : gpr h v g p n F -> gview g h = Ok (strip p, h).
Proof.
  intros (a & Ea & Hr & Hok & Hg). destruct g as [x|x s|x s|x r|x s|], p as [n0|n0 s0|n0 s0|n0 sz|n0 s0|]; try easy.
  - now subst s0.
  - now subst s0.
  - destruct Hg as (o & ks & Ha). cbn in Ea. injection Ea as ->.
    inversion Hok; subst. destruct v; [easy|]. cbn [GcRep.rep] in Hr. destruct Hr as (o1 & ro & ks1 & cs1 & Fr & Fs & Ha1 & _ & _ & Htr & _).
    unfold at_ in Ha, Ha1. rewrite Ha in Ha1. injection Ha1 as <- <- <-. cbn in Htr. destruct Htr as (o2 & sl & H9 & Hp & _).
    cbn [gview]. run (gcount_ok _ _ _ _ _ H9). run (gtable_ok _ _ _ _ _ H9). run (glift_ok _ _ h (pre_all sz sl (lenN sz) Hp eq_refl)).
    reflexivity.
Qed.
Lemma gpr_chgw h h' W v g p n F : gpr h v g p n F -> chg h h' W -> (forall x, In x F -> ~ In x W) -> gpr h' v g p n F.
Proof.
  intros (a & Ea & Hr & Hp & Hg) C D. exists a. split; [exact Ea|]. split; [eapply rep_chg; eauto|]. split; [exact Hp|].
  destruct g, p; try easy. destruct Hg as (o & ks & Ha). exists o, ks. eapply chg_at_own; [exact C|exact Ha|].
  intros x Hx. apply D. inversion Hp; subst. destruct v; [easy|]. cbn [GcRep.rep] in Hr.
  destruct Hr as (o1 & ro & ks1 & cs1 & Fr & Fs & Ha1 & _ & _ & _ & _ & ->). cbn in Ea. injection Ea as ->.
  unfold at_ in Ha, Ha1. rewrite Ha in Ha1. injection Ha1 as <- <- <-. apply in_or_app. auto.
Qed.
(** The relaxed positions are those of nodes with tables. *)
Lemma gpr_rel h l g p szo ns F a o ro ks : gpr h (S l) g p (Inner szo ns) F -> gaddr g = Ok a -> at_ h a o (GInner ro ks) ->
  match g, p with
  | GRel a' r, PRel _ sz => a' = a /\ ro = Some r /\ szo = Some sz
  | GRel _ _, _ | _, PRel _ _ => False
  | _, _ => szo = None
  end.
Proof.
  intros (a' & Ea' & Hr & Hok & Hg) Ea Ha. rewrite Ea in Ea'. injection Ea' as <-.
  destruct g as [x|x s|x s|x r|x s|], p as [n0|n0 s0|n0 s0|n0 sz|n0 s0|]; try easy; inversion Hok; subst; try easy.
  - match goal with H : full _ _ |- _ => destruct szo; cbn in H; easy end.
  - now destruct szo.
  - now destruct szo.
  - destruct Hg as (o' & ks' & Ha'). unfold at_ in Ha, Ha'. rewrite Ha in Ha'. injection Ha' as -> -> ->. cbn in Ea. now injection Ea.
Qed.
Lemma mk_sub_inv v (n : node T) s q : mk_sub B BL v n s = Ok q -> q = PSub n s /\ mk_sub B BL v (Leaf [] : node T) s = Ok (PSub (Leaf []) s).
Proof. destruct v; cbn; [destruct (s <=? lwidth)|destruct (_ && _)]; try discriminate; intros [= <-]; auto. Qed.
Lemma towards_sub_run h l g p a o ro ks c1 c c2 szo m1 m m2 Fr f1 f f2 F idx q idx' :
  gpr h (S l) g p (Inner szo (m1 ++ m :: m2)) F -> is_sub p = true -> gaddr g = Ok a -> at_ h a o (GInner ro ks) -> pre (c1 ++ c :: c2) ks ->
  lenN c1 = lenN m1 -> trep h ro szo Fr -> all3 (rep h l) c1 m1 f1 -> rep h l c m f -> all3 (rep h l) c2 m2 f2 ->
  wf l m -> towards_sub B BL l p idx (lenN m1) = Ok (q, idx') -> pos_ok l q m ->
  exists g', gtowards_sub B BL l g idx (lenN m1) h = Ok ((g', idx'), h) /\ gpr h l g' q m f.
Proof.
  intros Hg Hs Ea Ha Hpk Lc Htr H1 Hm H2 Hwm Et Hq. pose proof (gview_strip _ _ _ _ _ _ Hg) as Ev.
  pose proof Hg as (a' & Ea' & Hr & Hok & Hgp). rewrite Ea in Ea'. injection Ea' as <-.
  assert (gkid a (lenN m1) h = Ok (c, h)) as Ek by (eapply gkid_ok; [exact Ha|eapply pre_at; [exact Hpk|exact Lc]]).
  pose proof (pos_ok_node _ _ _ _ _ Hok) as En0.
  destruct g as [x|x s|x s|x r|x s|], p as [n0|n0 s0|n0 s0|n0 sz|n0 s0|]; try easy; cbn in Ea; injection Ea as ->.
  - cbn in En0. injection En0 as ->. cbn in Et. rewrite rnthN_app in Et by reflexivity. cbn [rbind] in Et. injection Et as <- <-.
    cbn [gtowards_sub]. run Ek. eexists. split; [reflexivity|]. exists c. auto.
  - subst s0. cbn in En0. injection En0 as ->. cbn [towards_sub inner_of rbind] in Et. rewrite rnthN_app in Et by reflexivity. cbn [rbind] in Et.
    cbn [gtowards_sub]. run Ek. destruct (shl32 (lenN m1) (sh l)) as [ls|]; [|discriminate]. cbn [rbind] in Et.
    run (glift_ok (Ok ls) ls h eq_refl). run Ev. rewrite strip_this. cbn [this_size] in *. run (glift_ok (Ok s) s h eq_refl). cbn [rbind] in Et.
    destruct (N.shiftl 1 (sh l) <=? s - ls).
    + injection Et as <- <-. eexists. split; [reflexivity|]. exists c. auto.
    + destruct (mk_sub B BL l m (s - ls)) as [q'|] eqn:Em; [|discriminate]. cbn [rbind] in Et. injection Et as -> <-.
      destruct (mk_sub_inv _ _ _ _ Em) as [-> Em'].
      assert (gsub B BL l c (s - ls) h = Ok (GSub c (s - ls), h)) as Es by (unfold gsub; run (glift_ok _ _ h Em'); reflexivity).
      run Es. eexists. split; [reflexivity|]. exists c. auto.
  - destruct (towards_run B BL mine HB h l (GRel a r) (PRel n0 sz) a o ro ks c1 c c2 szo m1 m m2 Fr f1 f f2 F idx q idx')
      as (g' & Eg & _ & Hg'); auto.
    exists g'. auto.
Qed.

(** ** Tables *)
Lemma pre_take {A} (z : list A) sl i : pre z sl -> pre (takeN i z) sl.
Proof. intros H. rewrite <- (takeN_dropN i z) in H. eapply pre_app; exact H. Qed.
Lemma ensure_n_run e h a o r ks o2 k0 sl z i :
  mine e = true -> at_ h a o (GInner (Some r) ks) -> ow o = true ->
  at_ h r o2 (GTable (Some k0) sl) -> pre z sl -> (ow o2 = true -> lenN sl = width) -> i <= lenN z -> i <= width ->
  exists r' h1 sl' k1, gensure_relaxed_n B a e i h = Ok (r', h1) /\
    at_ h1 a o (GInner (Some r') ks) /\ at_ h1 r' (Some e) (GTable (Some k1) sl') /\ pre (takeN i z) sl' /\ lenN sl' = width /\
    at_ h1 r o2 (GTable (Some k0) sl) /\ chg h h1 [a] /\
    (r' = r /\ h1 = h /\ sl' = sl /\ o2 = Some e \/ r' = length h /\ length h1 = S (length h)).
Proof.
  intros He Ha Ho Hr Hpz Hz2 Hi Hiw.
  assert (a <> r) as Nar by (intros ->; unfold at_ in *; congruence).
  unfold gensure_relaxed_n. run (grelaxed_ok _ _ _ _ _ Ha). run (gcan_mutate_ok _ _ _ _ e Hr).
  destruct (owned_by (mkG o2 (GTable (Some k0) sl)) e) eqn:Eo.
  - destruct (owned_by_ow mine _ _ _ He Eo) as [-> Ho2]. exists r, h, sl, k0. split; [reflexivity|].
    split; [auto|]. split; [auto|]. split; [now apply pre_take|]. split; [auto|]. split; [auto|]. split; [|left; auto].
    eapply chg_sub; [apply chg_refl|easy|]. intros x _ [<-|[]]. exists (mkG o (GInner (Some r) ks)). auto.
  - assert (lenN (takeN i z) = i) as Lt by (rewrite lenN_takeN; lia).
    assert (entries sl 0 i = Ok (takeN i z)) as Ee by (apply pre_all; [now apply pre_take|auto]).
    destruct (write_pre [] (takeN i z) (blank N width) 0 (pre_nil _) eq_refl) as (zb & Ew & Pb & Lb & _); [rewrite blank_len; lia|].
    run (gtable_ok _ _ _ _ _ Hr). run (glift_ok _ _ h Ee). run (glift_ok _ _ h Ew).
    unfold gbind at 1. unfold gnew. set (h1 := h ++ _).
    assert (at_ h1 a o (GInner (Some r) ks)) as Ha1 by (apply at_app; exact Ha).
    run (ginner_ok _ _ _ _ _ Ha1). run (gput_inner_ok _ _ _ _ _ (Some (length h)) ks Ha1).
    assert (a < length h)%nat as La by (eapply at_lt; eauto).
    assert (r < length h)%nat as Lr by (eapply at_lt; eauto).
    eexists _, _, zb, i. split; [reflexivity|]. split; [eapply at_upd; exact Ha1|].
    split; [apply at_upd_ne; [apply at_new|lia]|]. split; [exact Pb|]. rewrite blank_len in Lb. split; [exact Lb|].
    split; [apply at_upd_ne; [apply at_app; exact Hr|auto]|]. split.
    + eapply chg_nil_trans; [apply chg_new|eapply chg_upd; [exact Ha1|exact Ho]].
    + right. split; [reflexivity|]. rewrite upd_len. unfold h1. rewrite app_length. cbn. lia.
Qed.
(** A copy of the first children. *)
Lemma copy_r_run al k h a o r ks c1 c2 o2 k0 sl z i :
  al_ok al -> at_ h a o (GInner (Some r) ks) -> pre (c1 ++ c2) ks -> at_ h r o2 (GTable (Some k0) sl) -> pre z sl ->
  lenN c1 = i -> i <= lenN z -> i <= k -> k <= width ->
  exists h' kb zb w, let d := length h in let b := S d in
    (b <~ gmk_inner_r B al k ;; _ <~ gcopy_kids_r b a i ;; gret b) h = Ok (b, h') /\
    at_ h' b al (GInner (Some d) kb) /\ at_ h' d al (GTable (Some i) zb) /\ pre c1 kb /\ pre (takeN i z) zb /\
    lenN kb = w /\ lenN zb = w /\ k <= w /\ (ow al = true -> w = width) /\ chg h h' [] /\ length h' = S (S (length h)).
Proof.
  intros Hal Ha Hpk Hr Hpz Hi1 Hi2 Hik Hw. cbv zeta.
  destruct (mk_inner_r_run B mine al h k Hal Hw) as (w & E1 & Hk & Hkw & C1 & Hb & Hd & L1). cbv zeta in *.
  set (d := length h) in *. set (b := S d) in *.
  set (h1 := (h ++ _) ++ _) in *. run E1.
  assert (a < d)%nat as La by (unfold d; eapply at_lt; eauto).
  assert (r < d)%nat as Lr by (unfold d; eapply at_lt; eauto).
  assert (at_ h1 a o (GInner (Some r) ks)) as Ha1 by (eapply chg_at; [exact C1|exact Ha|easy]).
  assert (at_ h1 r o2 (GTable (Some k0) sl)) as Hr1 by (eapply chg_at; [exact C1|exact Hr|easy]).
  assert (lenN (takeN i z) = i) as Lt by (rewrite lenN_takeN; lia).
  destruct (write_pre [] c1 (blank nat w) 0 (pre_nil _) eq_refl) as (kb & Ew1 & Pb & Lb & _); [rewrite blank_len; lia|].
  destruct (write_pre [] (takeN i z) (blank N w) 0 (pre_nil _) eq_refl) as (zb & Ew2 & Pz & Lz & _); [rewrite blank_len; lia|].
  cbn [app] in Pb, Pz. rewrite blank_len in Lb, Lz.
  assert (entries ks 0 i = Ok c1) as Ee1 by (apply (pre_all c1); [eapply pre_app; exact Hpk|auto]).
  assert (entries sl 0 i = Ok (takeN i z)) as Ee2 by (apply pre_all; [now apply pre_take|auto]).
  set (h2 := update_at b (mkG al (GInner (Some d) kb)) h1).
  assert (at_ h2 b al (GInner (Some d) kb)) as Hb2 by (eapply at_upd; exact Hb).
  assert (at_ h2 d al (GTable (Some 0) (blank N w))) as Hd2 by (apply at_upd_ne; [exact Hd|unfold b; lia]).
  assert (at_ h2 r o2 (GTable (Some k0) sl)) as Hr2 by (apply at_upd_ne; [exact Hr1|unfold b; lia]).
  set (h3 := update_at d (mkG al (GTable (Some i) zb)) h2).
  assert (gcopy_kids_r b a i h1 = Ok (tt, h3)) as E2.
  { unfold gcopy_kids_r. run (grelaxed_ok _ _ _ _ _ Ha1). run (grelaxed_ok _ _ _ _ _ Hb).
    assert (gcopy_kids b a i h1 = Ok (tt, h2)) as E.
    { unfold gcopy_kids. run (ginner_ok _ _ _ _ _ Ha1). run (glift_ok _ _ h1 Ee1). run (ginner_ok _ _ _ _ _ Hb).
      run (glift_ok _ _ h1 Ew1). eapply gput_inner_ok; exact Hb. }
    run E. run (gtable_ok _ _ _ _ _ Hr2). run (glift_ok _ _ h2 Ee2). run (gtable_ok _ _ _ _ _ Hd2).
    run (glift_ok _ _ h2 Ew2). eapply gput_table_ok; exact Hd2. }
  run E2. exists h3, kb, zb, w. split; [reflexivity|]. split; [apply at_upd_ne; [exact Hb2|unfold b; lia]|].
  split; [eapply at_upd; exact Hd2|]. do 6 (split; [assumption|]). split.
  - unfold h3, h2. repeat (apply chg_fresh; [|unfold b, d; lia]). exact C1.
  - unfold h3, h2. rewrite !upd_len. exact L1.
Qed.

(** Only [a] and [b] are different. *)
Definition two (h h' : heap) (a b : nat) : Prop :=
  length h' = length h /\ forall x, x <> a -> x <> b -> nth_error h' x = nth_error h x.
Lemma two_trans (h h1 h2 : heap) a b : two h h1 a b -> two h1 h2 a b -> two h h2 a b.
Proof. intros [A1 A2] [B1 B2]. split; [congruence|]. intros x Hx Hy. rewrite B2, A2; auto. Qed.
Lemma two_l (h : heap) a b c : two h (update_at a c h) a b.
Proof. split; [apply upd_len|]. intros x Hx Hy. apply upd_ne. auto. Qed.
Lemma two_r (h : heap) a b c : two h (update_at b c h) a b.
Proof. split; [apply upd_len|]. intros x Hx Hy. apply upd_ne. auto. Qed.
Lemma two_refl (h : heap) a b : two h h a b.
Proof. split; auto. Qed.
Lemma two_chg (h h' : heap) a b : two h h' a b -> owned mine h a -> owned mine h b -> chg h h' [a; b].
Proof.
  intros [L H] (ca & Ea & Oa) (cb & Eb & Ob). split; [lia|]. split.
  - intros x c Hc Hn. rewrite H; [auto| |]; intros ->; apply Hn; cbn; auto.
  - intros x c Hc [<-|[<-|[]]]; congruence.
Qed.
Lemma two_fresh (h h1 h' : heap) a b W : chg h h1 W -> two h1 h' a b -> (length h <= a)%nat -> (length h <= b)%nat -> chg h h' W.
Proof.
  intros (L & K & O1) [L2 H] Ha Hb. split; [lia|]. split; [|auto].
  intros x c Hc Hn. rewrite H; [auto| |]; intros ->;
    (assert (nth_error h b <> None \/ nth_error h a <> None) as [Hs|Hs] by (left + right; congruence); apply nth_error_Some in Hs; lia).
Qed.
Lemma put_last_run (h : heap) b ob r kb c1 orr k zb z1 i c s :
  at_ h b ob (GInner (Some r) kb) -> pre c1 kb -> lenN c1 = i -> i + 1 <= lenN kb ->
  at_ h r orr (GTable k zb) -> pre z1 zb -> lenN z1 = i -> i + 1 <= lenN zb -> 0 < s ->
  exists h' kb' zb', gput_last b r i c s h = Ok (tt, h') /\
    at_ h' b ob (GInner (Some r) kb') /\ pre (c1 ++ [c]) kb' /\ lenN kb' = lenN kb /\
    at_ h' r orr (GTable (Some (i + 1)) zb') /\ pre (z1 ++ [s]) zb' /\ lenN zb' = lenN zb /\ two h h' b r.
Proof.
  intros Hb Pk Hi Lk Hr Pz Hz Lz Hs. assert (b <> r) as N by (intros ->; unfold at_ in *; congruence). unfold gput_last.
  destruct (write_pre c1 [c] kb i Pk Hi) as (kb' & Ew3 & Pb' & Lb' & _); [cbn; lia|].
  cbn [map] in Ew3. run (gset_kid_ok _ _ _ _ _ _ _ _ Hb Ew3). set (h4 := update_at b _ h).
  assert (at_ h4 b ob (GInner (Some r) kb')) as Hb4 by (eapply at_upd; exact Hb).
  assert (at_ h4 r orr (GTable k zb)) as Hr4 by (apply at_upd_ne; auto).
  destruct (write_pre z1 [s] zb i Pz Hz) as (zb' & Ew4 & Pz' & Lz' & _); [cbn; lia|].
  cbn [map] in Ew4. run (gset_size_ok _ _ _ _ _ _ _ _ Hr4 Ew4). set (h5 := update_at r _ h4).
  assert (at_ h5 r orr (GTable k zb')) as Hr5 by (eapply at_upd; exact Hr4).
  run (gset_count_ok _ _ _ _ _ (i + 1) Hr5). destruct (N.eqb_spec s 0); [lia|].
  eexists _, kb', zb'. split; [reflexivity|]. split; [apply at_upd_ne; [|auto]; apply at_upd_ne; [exact Hb4|auto]|].
  split; [auto|]. split; [auto|]. split; [eapply at_upd; exact Hr5|]. split; [auto|]. split; [auto|].
  eapply two_trans; [apply two_l|]. eapply two_trans; [apply two_r|apply two_r].
Qed.

(** The last child, which may be missing. *)
Definition more (h : heap) (l : nat) (oc : option (nat * N)) (cl : list nat) (ns : list (node T)) (Fl : list (list nat)) (ls : list N) : Prop :=
  match oc with
  | None => cl = [] /\ ns = [] /\ Fl = [] /\ ls = []
  | Some (c, s) => exists n F, cl = [c] /\ ns = [n] /\ Fl = [F] /\ ls = [s] /\ rep h l c n F /\ 0 < s
  end.
Lemma more_all h l oc cl ns Fl ls : more h l oc cl ns Fl ls -> all3 (rep h l) cl ns Fl.
Proof.
  destruct oc as [[c s]|].
  - intros (n & F & -> & -> & -> & _ & Hr & _). now apply all3_one.
  - intros (-> & -> & -> & _). constructor.
Qed.

Lemma keep_run al mt h l g a o ro ks c1 c2 szo Fr n1 F1 i oc cl ns Fl ls R :
  al_ok al -> mt_ok al mt o -> at_ h a o (GInner ro ks) -> pre (c1 ++ c2) ks -> (ow o = true -> lenN ks = width) ->
  trep h ro szo Fr -> match g with GRel _ _ => exists sz, szo = Some sz /\ i <= lenN sz | _ => szo = None end ->
  lenN c1 = i -> all3 (rep h l) c1 n1 F1 -> more h l oc cl ns Fl ls -> i + lenN ls <= width ->
  sep (length h) (own1 o a ++ Fr ++ List.concat F1 ++ List.concat Fl ++ R) ->
  exists b h' F' W, gkeep B al mt g a i oc h = Ok (b, h') /\
    rep h' (S l) b (Inner (match szo with Some sz => Some (takeN i sz ++ ls) | None => None end) (n1 ++ ns)) F' /\
    chg h h' W /\ (forall x, In x W -> In x (own1 o a ++ Fr)) /\ sep (length h') (F' ++ R).
Proof.
  intros Hal Hmt Ha Hpk Lk Htr Hg Hi H1 Hmo Hw HS.
  pose proof (more_all _ _ _ _ _ _ _ Hmo) as Hma.
  assert (match oc with Some _ => i + 1 | None => i end = i + lenN ls) as Ek.
  { destruct oc as [[c s]|]; [destruct Hmo as (? & ? & _ & _ & _ & -> & _); cbn; lia|destruct Hmo as (_ & _ & _ & ->); cbn; lia]. }
  assert (exists sz, szo = Some sz /\ i <= lenN sz \/ szo = None) as [sz Hz].
  { destruct g; try (exists []; now right). destruct Hg as (sz & Hz). exists sz. now left. }
  unfold gkeep. rewrite Ek. destruct Hz as [[-> Hiz]| ->].
  - (* relaxed *)
    destruct ro as [r|]; cbn [trep] in Htr; [|easy]. destruct Htr as (o2 & sl & Hr & Ps & Hz2 & ->).
    assert (match g with GRel _ _ => True | _ => False end) as Hrel by (destruct g; easy).
    assert (exists b h' F' W, match al, mt with
        | Some e, true =>
            (r <~ gensure_relaxed_n B a e i ;;
            _ <~ match oc with Some (c, s) => gput_last a r i c s | None => gset_count r i end ;;
            gret a) h
        | _, _ =>
            (b <~ gmk_inner_r B al (i + lenN ls) ;;
            _ <~ gcopy_kids_r b a i ;;
            _ <~ match oc with Some (c, s) => r <~ grelaxed b ;; gput_last b r i c s | None => gret tt end ;;
            gret b) h
        end = Ok (b, h') /\
      rep h' (S l) b (Inner (Some (takeN i sz ++ ls)) (n1 ++ ns)) F' /\
      chg h h' W /\ (forall x, In x W -> In x (own1 o a ++ own1 o2 r)) /\ sep (length h') (F' ++ R)) as K.
    2:{ destruct K as (b & h' & F' & W & E & K). exists b, h', F', W. split; [|exact K]. rewrite <- E. destruct g; try easy. now destruct al, mt. }
    assert (lenN (takeN i sz) = i) as Lt by (rewrite lenN_takeN; lia).
    assert (exists b h' F' W,
        (b <~ gmk_inner_r B al (i + lenN ls) ;;
            _ <~ gcopy_kids_r b a i ;;
            _ <~ match oc with Some (c, s) => r <~ grelaxed b ;; gput_last b r i c s | None => gret tt end ;;
            gret b) h = Ok (b, h') /\
      rep h' (S l) b (Inner (Some (takeN i sz ++ ls)) (n1 ++ ns)) F' /\
      chg h h' W /\ (forall x, In x W -> In x (own1 o a ++ own1 o2 r)) /\ sep (length h') (F' ++ R)) as Kc.
    { destruct (copy_r_run al (i + lenN ls) h a o r ks c1 c2 o2 (lenN sz) sl sz i Hal Ha Hpk Hr Ps Hi Hiz) as
        (h1 & kb & zb & w & E1 & Hb1 & Hd1 & Pk1 & Pz1 & Lk1 & Lz1 & Hkw & Hww & C1 & L1); [lia|exact Hw|]. cbv zeta in *.
      set (d := length h) in *. set (b := S d) in *.
      assert (exists h2 kb' zb', match oc with Some (c, s) => r <~ grelaxed b ;; gput_last b r i c s | None => gret tt end h1 = Ok (tt, h2) /\
        at_ h2 b al (GInner (Some d) kb') /\ pre (c1 ++ cl) kb' /\ lenN kb' = w /\
        at_ h2 d al (GTable (Some (i + lenN ls)) zb') /\ pre (takeN i sz ++ ls) zb' /\ lenN zb' = w /\ two h1 h2 b d) as
        (h2 & kb' & zb' & E2 & Hb2 & Pk2 & Lk2 & Hd2 & Pz2 & Lz2 & Tw).
      { destruct oc as [[c s]|].
        - destruct Hmo as (cn & Fc & -> & -> & -> & -> & Hrc & Hs). run (grelaxed_ok _ _ _ _ _ Hb1).
          destruct (put_last_run h1 b al d kb c1 al (Some i) zb (takeN i sz) i c s) as (h2 & kb' & zb' & E & X1 & X2 & X3 & X4 & X5 & X6 & X7); auto;
            try (rewrite ?Lk1, ?Lz1; cbn in *; lia).
          exists h2, kb', zb'. cbn. split; [exact E|]. split; [auto|]. split; [auto|]. split; [lia|]. split; [auto|]. split; [auto|]. split; [lia|auto].
        - destruct Hmo as (-> & -> & -> & ->). exists h1, kb, zb. rewrite !app_nil_r. cbn. rewrite N.add_0_r.
          split; [reflexivity|]. repeat (split; [assumption|]). apply two_refl. }
      exists b, h2, (own1 al b ++ own1 al d ++ List.concat (F1 ++ Fl)), [].
      assert (chg h h2 []) as C2. { eapply two_fresh; [exact C1|exact Tw| |]; unfold b, d; lia. }
      split; [|split; [|split; [exact C2|split; [easy|]]]].
      - unfold gbind in E1 |- *. destruct (gmk_inner_r B al (i + lenN ls) h) as [[b' hh]|]; [|discriminate].
        destruct (gcopy_kids_r b' a i hh) as [[[] hh2]|]; [|discriminate]. injection E1 as -> ->.
        unfold gbind in E2. rewrite E2. reflexivity.
      - cbn [GcRep.rep]. exists al, (Some d), kb', (c1 ++ cl), (own1 al d), (F1 ++ Fl). split; [exact Hb2|]. split; [exact Pk2|].
        split; [rewrite Lk2; exact Hww|]. split.
        { cbn. exists al, zb'. rewrite lenN_app, Lt. split; [exact Hd2|]. split; [exact Pz2|]. split; [rewrite Lz2; exact Hww|reflexivity]. }
        split; [|reflexivity]. apply all3_app; (eapply reps_chg; [exact C2| |easy]); auto.
      - intros x. specialize (HS x). pose proof (occ_own1 x al b). pose proof (occ_own1 x al d).
        destruct Tw as [-> _]. rewrite L1. pose proof (lt1_S x d) as El. fold b in El. rewrite lt1_S, El. occs. la. }
    destruct al as [e|]; [|exact Kc]. destruct mt; [|exact Kc]. clear Kc.
    destruct (Hmt eq_refl) as (e' & [= <-] & He & Ho). specialize (Lk Ho).
    destruct (ensure_n_run e h a o r ks o2 (lenN sz) sl sz i He Ha Ho Hr Ps Hz2 Hiz) as
      (r' & h1 & sl' & k1 & E1 & Ha1 & Hr1 & Pz1 & Lz1 & _ & C1 & Hcase); [lia|].
    run E1.
    assert (exists h2 kb' zb', match oc with Some (c, s) => gput_last a r' i c s | None => gset_count r' i end h1 = Ok (tt, h2) /\
        at_ h2 a o (GInner (Some r') kb') /\ pre (c1 ++ cl) kb' /\ lenN kb' = width /\
        at_ h2 r' (Some e) (GTable (Some (i + lenN ls)) zb') /\ pre (takeN i sz ++ ls) zb' /\ lenN zb' = width /\ two h1 h2 a r') as
        (h2 & kb' & zb' & E2 & Hb2 & Pk2 & Lk2 & Hd2 & Pz2 & Lz2 & Tw).
    { destruct oc as [[c s]|].
      - destruct Hmo as (cn & Fc & -> & -> & -> & -> & Hrc & Hs).
        destruct (put_last_run h1 a o r' ks c1 (Some e) (Some k1) sl' (takeN i sz) i c s) as (h2 & kb' & zb' & E & X1 & X2 & X3 & X4 & X5 & X6 & X7); auto;
          try (rewrite ?Lk, ?Lz1; cbn in *; lia).
        { eapply pre_app; exact Hpk. }
        exists h2, kb', zb'. cbn. split; [exact E|]. split; [auto|]. split; [auto|]. split; [lia|]. split; [auto|]. split; [auto|]. split; [lia|auto].
      - destruct Hmo as (-> & -> & -> & ->). rewrite (gset_count_ok _ _ _ _ _ i Hr1).
        eexists _, ks, sl'. split; [reflexivity|]. rewrite !app_nil_r. cbn. rewrite N.add_0_r.
        split; [apply at_upd_ne; [exact Ha1|]; intros ->; unfold at_ in *; congruence|]. split; [eapply pre_app; exact Hpk|]. split; [exact Lk|].
        split; [eapply at_upd; exact Hr1|]. split; [auto|]. split; [auto|]. apply two_r. }
    run E2.
    assert (own1 o a = [a]) as Eoa by (unfold GcRep.own1; now rewrite Ho). rewrite Eoa in *.
    assert (ow (Some e) = true) as Hoe by exact He.
    assert (chg h1 h2 [a; r']) as C2.
    { eapply two_chg; [exact Tw| |]; eexists; (split; [eassumption|]); auto. }
    assert (chg h h2 (a :: own1 o2 r)) as C3.
    { eapply chg_sub; [eapply chg_trans; [exact C1|exact C2]| |].
      - intros x Lx [<-|[<-|[<-|[]]]]; [now left|now left|].
        destruct Hcase as [(-> & _ & _ & ->)|(-> & _)]; [|lia]. right. rewrite own1_mine by auto. now left.
      - intros x _ [<-|Hx]; [exists (mkG o (GInner (Some r) ks)); auto|]. eapply own1_owned; [exact Hr|exact Hx]. }
    exists a, h2, ([a] ++ [r'] ++ List.concat (F1 ++ Fl)), (a :: own1 o2 r).
    split; [reflexivity|]. split; [|split; [exact C3|split; [auto|]]].
    + cbn [GcRep.rep]. exists o, (Some r'), kb', (c1 ++ cl), [r'], (F1 ++ Fl). split; [exact Hb2|]. split; [exact Pk2|].
      split; [auto|]. split.
      { cbn. exists (Some e), zb'. rewrite lenN_app, Lt. split; [exact Hd2|]. split; [exact Pz2|]. split; [auto|]. now rewrite own1_mine. }
      split; [|rewrite Eoa; reflexivity]. apply all3_app.
      * eapply reps_chg; [exact C3|exact H1|]. eapply sep_dis; [exact HS|]. intros x. occs. la.
      * eapply reps_chg; [exact C3|exact Hma|]. eapply sep_dis; [exact HS|]. intros x. occs. la.
    + intros x. specialize (HS x). destruct Tw as [-> _].
      destruct Hcase as [(-> & -> & _ & ->)|(-> & ->)].
      * rewrite own1_mine in HS by auto. occs. la.
      * rewrite lt1_S. occs. la.
  - (* regular *)
    destruct ro as [r|]; cbn [trep] in Htr; [easy|]. subst Fr.
    assert (exists b h' F' W, 
        (if mt then
          _ <~ match oc with Some (c, _) => gset_kid a i c | None => gret tt end ;;
          gret a
        else
          b <~ gmk_inner B al (i + lenN ls) ;;
          _ <~ gcopy_kids b a i ;;
          _ <~ match oc with Some (c, _) => gset_kid b i c | None => gret tt end ;;
          gret b) h = Ok (b, h') /\
      rep h' (S l) b (Inner None (n1 ++ ns)) F' /\
      chg h h' W /\ (forall x, In x W -> In x (own1 o a ++ [])) /\ sep (length h') (F' ++ R)) as K.
    2:{ destruct K as (b & h' & F' & W & E & K). exists b, h', F', W. split; [|exact K]. rewrite <- E. destruct g; try easy.
        exfalso. destruct Hg as (? & ? & _). easy. }
    destruct mt.
    + destruct (Hmt eq_refl) as (e & -> & He & Ho). specialize (Lk Ho).
      assert (own1 o a = [a]) as Eoa by (unfold GcRep.own1; now rewrite Ho). rewrite Eoa in *.
      assert (exists ks', match oc with Some (c, _) => gset_kid a i c | None => gret tt end h = Ok (tt, update_at a (mkG o (GInner None ks')) h) /\
        pre (c1 ++ cl) ks' /\ lenN ks' = width) as (ks' & E1 & P1 & L1).
      { destruct oc as [[c s]|].
        - destruct Hmo as (cn & Fc & -> & -> & -> & -> & Hrc & Hs).
          destruct (write_pre c1 [c] ks i) as (ks' & Ew & P & L & _); [eapply pre_app; exact Hpk|auto|cbn in *; lia|].
          exists ks'. split; [eapply gset_kid_ok; eauto|]. split; [auto|lia].
        - destruct Hmo as (-> & -> & -> & ->). exists ks. rewrite (upd_same _ _ _ _ Ha). split; [reflexivity|].
          split; [rewrite app_nil_r; eapply pre_app; exact Hpk|auto]. }
      run E1. set (h2 := update_at a _ h).
      assert (chg h h2 [a]) as C by (eapply chg_upd; [exact Ha|exact Ho]).
      exists a, h2, ([a] ++ [] ++ List.concat (F1 ++ Fl)), [a]. split; [reflexivity|]. split; [|split; [exact C|split; [auto|]]].
      * cbn [GcRep.rep]. exists o, None, ks', (c1 ++ cl), [], (F1 ++ Fl). split; [eapply at_upd; exact Ha|]. split; [exact P1|].
        split; [auto|]. split; [reflexivity|]. split; [|now rewrite Eoa]. apply all3_app.
        -- eapply reps_chg; [exact C|exact H1|]. eapply sep_dis; [exact HS|]. intros x. occs. la.
        -- eapply reps_chg; [exact C|exact Hma|]. eapply sep_dis; [exact HS|]. intros x. occs. la.
      * unfold h2. rewrite upd_len. intros x. specialize (HS x). occs. la.
    + destruct (cap_ok mine al width (i + lenN ls) Hal Hw) as (w & Ecap & Hk & Hkw).
      set (b := length h). set (h1 := h ++ [mkG al (GInner None (blank nat w))]).
      assert (gmk_inner B al (i + lenN ls) h = Ok (b, h1)) as E1 by (unfold gmk_inner; run (glift_ok _ _ h Ecap); reflexivity).
      run E1. assert (chg h h1 []) as C1 by apply chg_new.
      assert (at_ h1 b al (GInner None (blank nat w))) as Hb1 by apply at_new.
      destruct (copy_kids_run B mine HB h1 b a o None ks c1 al None w i) as (ds & E2 & P2 & L2); auto.
      { eapply chg_at; [exact C1|exact Ha|easy]. } { eapply pre_app; exact Hpk. } { lia. }
      run E2. set (h2 := update_at b _ h1).
      assert (at_ h2 b al (GInner None ds)) as Hb2 by (eapply at_upd; exact Hb1).
      assert (exists ks', match oc with Some (c, _) => gset_kid b i c | None => gret tt end h2 = Ok (tt, update_at b (mkG al (GInner None ks')) h2) /\
        pre (c1 ++ cl) ks' /\ lenN ks' = w) as (ks' & E3 & P3 & L3).
      { destruct oc as [[c s]|].
        - destruct Hmo as (cn & Fc & -> & -> & -> & -> & Hrc & Hs).
          destruct (write_pre c1 [c] ds i) as (ks' & Ew & P & L & _); [auto|auto|cbn in *; lia|].
          exists ks'. split; [eapply gset_kid_ok; eauto|]. split; [auto|lia].
        - destruct Hmo as (-> & -> & -> & ->). exists ds. rewrite (upd_same _ _ _ _ Hb2). split; [reflexivity|].
          rewrite app_nil_r. auto. }
      run E3. set (h3 := update_at b _ h2).
      assert (chg h h3 []) as C3. { unfold h3, h2. repeat (apply chg_fresh; [|unfold b; lia]). exact C1. }
      exists b, h3, (own1 al b ++ [] ++ List.concat (F1 ++ Fl)), []. split; [reflexivity|]. split; [|split; [exact C3|split; [easy|]]].
      * cbn [GcRep.rep]. exists al, None, ks', (c1 ++ cl), [], (F1 ++ Fl). split; [eapply at_upd; exact Hb2|]. split; [exact P3|].
        split; [rewrite L3; exact Hkw|]. split; [reflexivity|]. split; [|reflexivity].
        apply all3_app; (eapply reps_chg; [exact C3| |easy]); auto.
      * unfold h3, h2. rewrite !upd_len. unfold h1. rewrite app_length. cbn [length]. rewrite Nat.add_1_r.
        intros x. specialize (HS x). pose proof (occ_own1 x al b). rewrite lt1_S. fold b in HS |- *. occs. la.
Qed.

(** ** slice_right *)
Lemma destroy_run (h : heap) a o sl xs i j : at_ h a o (GLeaf sl) -> pre xs sl -> i <= j -> j = lenN xs ->
  exists sl', gdestroy a i j h = Ok (tt, update_at a (mkG o (GLeaf sl')) h) /\ pre (takeN i xs) sl' /\ lenN sl' = lenN sl.
Proof.
  intros Ha Hp Hi Hj. pose proof (pre_len _ _ Hp) as Hl. unfold gdestroy. run (gleaf_ok _ _ _ _ Ha).
  assert (write sl i (blank T (j - i)) = Ok (takeN i sl ++ blank T (j - i) ++ dropN (i + (j - i)) sl)) as Ew.
  { unfold write. rewrite blank_len. destruct (N.leb_spec (i + (j - i)) (lenN sl)); [reflexivity|lia]. }
  run (glift_ok _ _ h Ew). eexists. split; [eapply gput_leaf_ok; exact Ha|]. split.
  - assert (takeN i sl = map Some (takeN i xs)) as ->.
    { destruct Hp as (rest & ->). rewrite takeN_app_le by (rewrite lenN_map; lia). apply firstn_map. }
    eexists. reflexivity.
  - rewrite !lenN_app, blank_len, lenN_takeN, lenN_dropN. lia.
Qed.

Lemma slice_right_run al : al_ok al -> forall v mu col g p n F last i h R,
  gpr h v g p n F -> addr v p last i -> i < nsize n -> sep (length h) (F ++ R) ->
  exists o ts tl h' Fo Ft W nr xs, gslice_right B BL al mu col v g last h = Ok ((o, ts, tl), h') /\
    slice_right B BL col v p last = Ok (nr, ts, Leaf xs) /\
    match o, nr with
    | Some (w, a), Some (w', r) => w = w' /\ rep h' w a r Fo
    | None, None => Fo = []
    | _, _ => False
    end /\
    rep h' O tl (Leaf xs) Ft /\ sep (length h') (Fo ++ Ft ++ R) /\ chg h h' W /\ (forall x, In x W -> In x F).
Proof.
  intros Hal. assert (1 <= B) as HB1 by lia. induction v as [|l IH]; intros mu col g p n F last i h R Hg Had Hi HS.
  - pose proof (gview_strip _ _ _ _ _ _ Hg) as Ev. pose proof Hg as (a & Ea & Hr & Hok & Hgp).
    destruct (leaf_index _ _ _ _ _ _ Hok Had Hi) as (xs & -> & Hidx & Hlt).
    destruct (wf_leaf _ _ _ (pos_ok_wf _ _ _ _ _ Hok)) as (xs' & E & Hx). injection E as <-.
    destruct (rep_leafn B BL mine _ _ _ _ Hr) as (o & Ho & ->). pose proof Ho as (sl & Ha & Hp & Hl).
    destruct (mutate_run mine al mu h a o (GLeaf sl) Hal Ha) as (mt & Em & Hmt).
    cbn [gslice_right slice_right]. run (glift_ok _ _ h Ea). run Ev. rewrite strip_index. run (glift_ok _ _ h Hidx). run Em.
    rewrite strip_count, (pos_ok_node _ _ _ _ _ Hok), Hidx, (count_ok _ _ _ _ _ Hok). cbn [rbind ncount]. run (glift_ok (Ok (lenN xs)) (lenN xs) h eq_refl).
    destruct (N.eqb_spec (i + 1) (lenN xs)) as [E|E].
    { exists None, (i + 1), a, h, [], (own1 o a), [], None, xs. split; [reflexivity|]. split; [reflexivity|]. split; [reflexivity|].
      split; [exact Hr|]. split; [exact HS|]. split; [apply chg_refl|easy]. }
    unfold copy_leaf. cbn [leaf_of rbind]. rewrite rtakeN_ok by lia. cbn [rbind].
    destruct mt.
    + destruct (Hmt eq_refl) as (e & -> & He & Hoo).
      destruct (destroy_run h a o sl xs (i + 1) (lenN xs) Ha Hp) as (sl' & E1 & P1 & L1); [lia|reflexivity|].
      run E1. assert (chg h (update_at a (mkG o (GLeaf sl')) h) [a]) as C by (eapply chg_upd; [exact Ha|exact Hoo]).
      eexists None, _, _, _, [], (own1 o a), [a], None, _. split; [reflexivity|]. split; [reflexivity|]. split; [reflexivity|]. split.
      { apply leafn_rep. exists sl'. split; [eapply at_upd; exact Ha|]. split; [exact P1|]. intros H. rewrite L1. auto. }
      split; [now rewrite upd_len|]. split; [exact C|]. intros x [<-|[]]. unfold GcRep.own1. rewrite Hoo. now left.
    + destruct (copy_leaf_run B BL mine HB al h a o [] (takeN (i + 1) xs) (dropN (i + 1) xs) 0 (i + 1)) as (h1 & E1 & H1 & C1 & L1); auto.
      { cbn [app]. now rewrite takeN_dropN. } { rewrite lenN_takeN. lia. } { rewrite lenN_takeN. lia. }
      run E1. eexists None, _, _, _, [], (own1 al (length h)), [], None, _. split; [reflexivity|]. split; [reflexivity|]. split; [reflexivity|].
      split; [apply leafn_rep; exact H1|]. split; [|split; [exact C1|easy]].
      rewrite L1. cbn [app]. apply (sep_new B mine HB). intros x. specialize (HS x). occs. la.
  - pose proof (gview_strip _ _ _ _ _ _ Hg) as Ev. pose proof Hg as (a & Ea & Hr & Hok & Hgp).
    destruct (slice_right_ok B BL col (S l) p n last i HB1 Hok Had Hi) as (nrv & xsv & Esv & Hxsv & _ & Hnrv).
    destruct (towards_ok B BL l p n last i Hok Had Hi)
      as (m1 & m & m2 & j & Ek & Ei & Hj & Hwm & Hidx & (q & idx' & Et & Hq & Haq) & _).
    pose proof (pos_ok_wf _ _ _ _ _ Hok) as Hw. destruct (wf_inner _ _ _ _ Hw) as (szo & ns & En). subst n. cbn [kids] in Ek. subst ns.
    pose proof (wf_count_le _ _ _ _ Hw) as Hlen. cbn [kids] in Hlen. rewrite lenN_app, lenN_cons in Hlen.
    pose proof Hr as Hr0. cbn [GcRep.rep] in Hr0. destruct Hr0 as (o & ro & ks & cs & Fr & Fs & Ha & Hpk & Lk & Htr & H3 & EF).
    pose proof (gpr_rel _ _ _ _ _ _ _ _ _ _ _ Hg Ea Ha) as Hgr.
    destruct (all3_split _ _ m1 (m :: m2) _ H3) as (c1 & cr & f1 & fr & -> & -> & A1 & A2).
    inversion A2 as [|c ? f c2 ? f2 Hm A3]; subst cr fr. clear A2. rewrite concat_app in EF. cbn [List.concat] in EF.
    destruct (all3_len _ _ _ _ A1) as [Lc _].
    assert (pinner p = Ok (m1 ++ m :: m2)) as Ein by (unfold pinner; rewrite (pos_ok_node _ _ _ _ _ Hok); reflexivity).
    destruct (mutate_run mine al mu h a o (GInner ro ks) Hal Ha) as (mt & Em & Hmt).
    cbn [gslice_right]. run (glift_ok _ _ h Ea). run Ev. rewrite strip_index. run (glift_ok _ _ h Hidx). run Em.
    cbn [slice_right] in Esv |- *. rewrite Hidx in Esv |- *. cbn [rbind] in Esv |- *. rewrite Et in Esv |- *. cbn [rbind] in Esv |- *.
    destruct (towards_run B BL mine HB h l g p a o ro ks c1 c c2 szo m1 m m2 Fr f1 f f2 F last q idx') as (g' & Eg & _ & Hg'); auto.
    run Eg. destruct (col && (lenN m1 =? 0)) eqn:Ec.
    { subst F. apply andb_true_iff in Ec as [-> Ec]. apply N.eqb_eq, lenN_0 in Ec. subst m1.
      destruct (IH mt true g' q m f idx' j h R Hg' Haq Hj) as (o' & ts & tl & h1 & Fo & Ft & W & nr & xs & E1 & E2 & Ho & Hl & S1 & C1 & HW).
      { intros x. specialize (HS x). occs. la. }
      exists o', ts, tl, h1, Fo, Ft, W, nr, xs. split; [exact E1|]. split; [exact E2|]. split; [exact Ho|]. split; [exact Hl|].
      split; [exact S1|]. split; [exact C1|]. intros x Hx. apply HW in Hx. rewrite !in_app_iff. auto. }
    set (R1 := own1 o a ++ Fr ++ List.concat f1 ++ R).
    destruct (IH mt false g' q m f idx' j h R1 Hg' Haq Hj) as (o' & ts & tl & h1 & Fo & Ft & W & nr & xs & E1 & E2 & Ho & Hl & S1 & C1 & HW).
    { subst F. unfold R1. intros x. specialize (HS x). occs. la. }
    run E1. rewrite E2 in Esv |- *. cbn [rbind] in Esv |- *. rewrite Ein in Esv |- *. cbn [rbind] in Esv |- *.
    assert (forall x, In x R1 -> ~ In x W) as D.
    { subst F. intros x Hx Hi'. apply HW in Hi'. revert x Hx Hi'. eapply sep_dis; [exact HS|]. unfold R1. intros x. occs. la. }
    assert (forall x, In x W -> In x F) as HWF. { intros x Hx. subst F. rewrite !in_app_iff. apply HW in Hx. auto. }
    assert (at_ h1 a o (GInner ro ks)) as Ha1.
    { eapply chg_at_own; [exact C1|exact Ha|]. intros x Hx. apply D. unfold R1. rewrite !in_app_iff. auto. }
    assert (trep h1 ro szo Fr) as Htr1.
    { eapply trep_chg; [exact C1|exact Htr|]. intros x Hx. apply D. unfold R1. rewrite !in_app_iff. auto. }
    assert (all3 (rep h1 l) c1 m1 f1) as A11.
    { eapply reps_chg; [exact C1|exact A1|]. intros x Hx. apply D. unfold R1. rewrite !in_app_iff. auto. }
    assert (match g with GRel _ _ => exists sz, szo = Some sz /\ lenN m1 <= lenN sz | _ => szo = None end) as Hgk.
    { destruct g, p; try easy. destruct Hgr as (_ & _ & ->). eexists. split; [reflexivity|].
      destruct Hw as (_ & _ & ->). rewrite lenN_sums, lenN_map, lenN_app. lia. }
    destruct o' as [[w' cc]|], nr as [[w'' cn]|]; try easy.
    + destruct Ho as [-> Hrc]. rewrite rtakeN_app in Esv |- * by reflexivity. cbn [rbind] in Esv |- *.
      assert (w'' = l) as ->.
      { destruct (slice_right_ok B BL false l q m idx' j HB1 Hq Haq Hj) as (nr0 & xs0 & E0 & _ & _ & HX).
        rewrite E2 in E0. injection E0 as <- _ _. now apply HX. }
      assert (0 < last + 1 - ts) as Hpos.
      { destruct (slice_right_ok B BL false l q m idx' j HB1 Hq Haq Hj) as (nr0 & xs0 & E0 & X1 & X2 & HX).
        rewrite E2 in E0. injection E0 as <- -> ->. destruct HX as (Hwc & _).
        assert (lenN (takeN (j + 1) (elems m)) = j + 1) as Hlt.
        { rewrite lenN_takeN. change (lenN (elems m)) with (nsize m). lia. }
        rewrite X2, lenN_app in Hlt. change (lenN (elems cn)) with (nsize cn) in Hlt.
        pose proof (wf_size _ _ _ _ Hwc) as Hps.
        assert (i <= last) as Hil.
        { unfold addr in Had. destruct p; subst i; try lia; apply N.mod_le; pose proof (span_pos B BL (S l)); lia. }
        lia. }
      destruct (keep_run al mt h1 l g a o ro ks c1 (c :: c2) szo Fr m1 f1 (lenN m1) (Some (cc, last + 1 - ts)) [cc] [cn] [Fo] [last + 1 - ts] (Ft ++ R))
        as (b & h2 & F' & W2 & E3 & Hb & C2 & HW2 & S2); auto.
      { exists cn, Fo. auto 10. } { change (lenN [last + 1 - ts]) with 1. lia. }
      { unfold R1 in S1. intros x. specialize (S1 x). occs. la. }
      run E3. 
      assert (forall x, In x (Ft ++ R) -> ~ In x W2) as D2.
      { intros x Hx Hi'. apply HW2 in Hi'. revert x Hx Hi'. eapply sep_dis; [exact S1|]. unfold R1. intros x. occs. la. }
      eexists (Some (S l, b)), ts, tl, h2, F', Ft, (W ++ W2), _, xs. split; [reflexivity|]. split.
      { instantiate (1 := Some (S l, Inner (match szo with Some sz => Some (takeN (lenN m1) sz ++ [last + 1 - ts]) | None => None end) (m1 ++ [cn]))).
        destruct p as [n0|n0 s0|n0 s0|n0 sz|n0 s0|], g; try easy; try (now rewrite Hgr).
        destruct Hgr as (_ & _ & ->). destruct Hgk as (sz' & [= <-] & Hle). now rewrite rtakeN_ok by exact Hle. }
      split; [split; [reflexivity|exact Hb]|]. split; [eapply rep_chg; [exact C2|exact Hl|]; intros x Hx; apply D2, in_or_app; auto|].
      split; [exact S2|]. split; [eapply chg_trans; eauto|].
      intros x Hx. apply in_app_or in Hx as [Hx|Hx]; [auto|]. apply HW2 in Hx. subst F. rewrite in_app_iff in Hx. rewrite !in_app_iff. tauto.
    + subst Fo. destruct (N.eqb_spec (lenN m1) 0) as [Z|Z].
      { exists None, ts, tl, h1, [], Ft, W, None, xs. split; [reflexivity|]. split; [reflexivity|]. split; [reflexivity|]. split; [exact Hl|].
        split; [unfold R1 in S1; intros x; specialize (S1 x); occs; la|]. split; [exact C1|exact HWF]. }
      destruct (col && (lenN m1 =? 1) && match l with O => false | S _ => true end) eqn:Ec1.
      { apply andb_true_iff in Ec1 as [Ec1 Hl']. apply andb_true_iff in Ec1 as [-> Ea1]. apply N.eqb_eq in Ea1.
        destruct m1 as [|d [|? ?]]; [easy| |rewrite !lenN_cons in Ea1; lia].
        destruct (all3_single _ _ _ _ A11) as (cd & fd & -> & -> & Hd).
        run (gkid_ok h1 a o ro ks 0 cd Ha1 (pre_at [] cd (c :: c2) ks 0 Hpk eq_refl)).
        exists (Some (l, cd)), ts, tl, h1, fd, Ft, W, (Some (l, d)), xs. split; [reflexivity|]. split; [reflexivity|].
        split; [split; [reflexivity|exact Hd]|]. split; [exact Hl|].
        split; [unfold R1 in S1; intros x; specialize (S1 x); occs; la|]. split; [exact C1|exact HWF]. }
      rewrite rtakeN_app in Esv |- * by reflexivity. cbn [rbind] in Esv |- *.
      destruct (keep_run al mt h1 l g a o ro ks c1 (c :: c2) szo Fr m1 f1 (lenN m1) None [] [] [] [] (Ft ++ R))
        as (b & h2 & F' & W2 & E3 & Hb & C2 & HW2 & S2); auto.
      { repeat split. } { change (lenN (@nil N)) with 0. lia. }
      { unfold R1 in S1. intros x. specialize (S1 x). occs. la. }
      run E3. rewrite app_nil_r in Hb.
      assert (forall x, In x (Ft ++ R) -> ~ In x W2) as D2.
      { intros x Hx Hi'. apply HW2 in Hi'. revert x Hx Hi'. eapply sep_dis; [exact S1|]. unfold R1. intros x. occs. la. }
      eexists (Some (S l, b)), ts, tl, h2, F', Ft, (W ++ W2), _, xs. split; [reflexivity|]. split.
      { instantiate (1 := Some (S l, Inner (match szo with Some sz => Some (takeN (lenN m1) sz ++ []) | None => None end) m1)).
        destruct p as [n0|n0 s0|n0 s0|n0 sz|n0 s0|], g; try easy; try (now rewrite Hgr).
        destruct Hgr as (_ & _ & ->). destruct Hgk as (sz' & [= <-] & Hle). rewrite rtakeN_ok by exact Hle. now rewrite app_nil_r. }
      split; [split; [reflexivity|exact Hb]|]. split; [eapply rep_chg; [exact C2|exact Hl|]; intros x Hx; apply D2, in_or_app; auto|].
      split; [exact S2|]. split; [eapply chg_trans; eauto|].
      intros x Hx. apply in_app_or in Hx as [Hx|Hx]; [auto|]. apply HW2 in Hx. subst F. rewrite in_app_iff in Hx. rewrite !in_app_iff. tauto.
Qed.
End Slice.
