(** The in-place concatenation of two trees: counting the nodes, the recursion over the levels and
    the new root. *)
From Coq Require Import List NArith Arith Bool Lia ZifyN ZifyNat ZifyBool.
From Verif Require Import Common NList Rrb RrbInv RrbPos RrbOps RrbSlice RrbTree RrbShuffle RrbMerge RrbConcat
  RrbStrict GcConcat GcPlan GcRep GcAdd GcLeaf GcInner GcVisit GcLoop GcMerge.
Import ListNotations.
Local Open Scope N_scope.

Set Default Goal Selector "!".

Section Tree.
Variables B BL : N.
Context {T : Type}.
Variable mine : token -> bool.
Notation sh := (sh B BL).
Notation span := (span B BL).
Notation width := (width B).
Notation lwidth := (lwidth BL).
Notation heap := (gheap T).
Notation rep := (@rep B BL T mine).
Notation ow := (ow mine).
Notation own1 := (own1 mine).
Notation chg := (@chg T mine).
Notation wf := (@wf T B BL).
Notation full := (@full T B BL).
Notation posl := (@posl T B BL).
Notation pos_ok := (@pos_ok T B BL).
Notation gsrc := (@gsrc B BL T mine).
Notation still := (@still T mine).
Notation whole := (@whole B T).
Notation wholes := (@wholes B T).
Notation gcont := (@gcont B BL T).
Notation side := (@side B BL T mine).
Notation lsd := (@lsd B BL T mine).
Notation rsd := (@rsd B BL T mine).
Notation crep := (@crep B BL T mine).
Notation center_ok := (@center_ok T B BL).
Notation mid := (@mid T B BL).
Notation spn := (@spn T B BL).
Notation QQ := (@QQ T B BL).

(** ** Positions *)
Definition gp (h : heap) (v : nat) (g : gpos) (n : node T) (F : list nat) : Prop :=
  exists a, rep h v a n F /\ wf v n /\
    match g with
    | GFull x => x = a /\ full v n
    | GSub x z => x = a /\ z = nsize n /\ is_rel n = false
    | GRel x r => x = a /\ is_rel n = true /\ exists o ks, at_ h a o (GInner (Some r) ks)
    | _ => False
    end.
Definition gnf (g : gpos) : Prop := match g with GFull _ => False | _ => True end.

Lemma gp_sub h v a n F : rep h v a n F -> wf v n -> is_rel n = false ->
  gsub B BL v a (nsize n) h = Ok (GSub a (nsize n), h) /\ gp h v (GSub a (nsize n)) n F.
Proof.
  intros Hr Hw Hn. destruct (gsrc_sub B BL mine h v a n F Hr Hw Hn) as [E _]. split; [exact E|].
  exists a. auto.
Qed.
Lemma gp_child h v a n F : rep h v a n F -> wf v n ->
  exists g, gchild B BL v a (nsize n) h = Ok (g, h) /\ gp h v g n F /\ gnf g.
Proof.
  intros Hr Hw. destruct (gchild_ok B BL mine h v a n F Hr Hw) as (g & E & Hg & [[Hn ->]|[Hn [r ->]]]).
  - exists (GSub a (nsize n)). split; [exact E|]. split; [|exact I]. exists a. auto.
  - exists (GRel a r). split; [exact E|]. split; [|exact I]. exists a. split; [auto|]. split; [auto|].
    split; [auto|]. split; [auto|]. destruct Hg as (a' & q & E1 & _ & _ & _ & _ & Z). injection E1 as <-.
    destruct v; [now destruct n|exact Z].
Qed.
Lemma gp_maybe h v a n F : rep h (S v) a n F -> wf (S v) n ->
  exists g, gmaybe B BL (S v) a (nsize n) h = Ok (g, h) /\ gp h (S v) g n F /\ gnf g.
Proof. exact (gp_child h (S v) a n F). Qed.
Lemma gp_still h h' R v g n F : still h h' R -> (forall x, In x F -> In x R) -> gp h v g n F -> gp h' v g n F.
Proof.
  intros Hs Hi (a & Hr & Hw & Hg). exists a. split; [eapply still_rep; eauto|]. split; [auto|].
  destruct g as [x|x z|x z|x r|x z|]; auto. destruct Hg as (-> & Hn & o & ks & Ha). split; [auto|]. split; [auto|].
  exists o, ks. eapply still_at; [exact Hs|exact Ha|].
  intros y Hy. apply Hi. destruct v as [|v], n as [xs|sz ns]; try easy. cbn [GcRep.rep] in Hr.
  destruct Hr as (o' & r' & ks' & cs & Fr & Fs & Ha' & _ & _ & _ & _ & ->).
  assert (o' = o) as -> by (unfold at_ in *; congruence). apply in_or_app. now left.
Qed.

Lemma gp_inner h l g n F : gp h (S l) g n F ->
  exists a ro o ks cs Fr Fs, gcont l g n a ro /\ at_ h a o (GInner ro ks) /\ pre cs ks /\
    (ow o = true -> lenN ks = width) /\ trep B mine h ro (table_of n) Fr /\ all3 (rep h l) cs (kids n) Fs /\
    F = own1 o a ++ Fr ++ List.concat Fs.
Proof.
  intros (a & Hr & Hw & Hg). destruct n as [xs|sz ns]; [easy|]. cbn [GcRep.rep] in Hr.
  destruct Hr as (o & ro & ks & cs & Fr & Fs & Ha & Hp & Hc & Ht & H3 & ->).
  exists a, ro, o, ks, cs, Fr, Fs. cbn [table_of kids]. split.
  { split; [exact Hw|]. destruct g as [x|x z|x z|x r|x z|]; try easy.
    - destruct Hg as (-> & Hf). split; [auto|]. split; [|auto]. destruct sz as [sz|]; [easy|]. now destruct ro.
    - destruct Hg as (-> & -> & Hn). split; [auto|]. split; [|auto]. destruct sz as [sz|]; [easy|]. now destruct ro.
    - destruct Hg as (-> & Hn & o2 & ks2 & Ha2). split; [auto|]. split; [|auto]. unfold at_ in *. congruence. }
  split; [auto|]. split; [auto|]. split; [auto|]. split; [auto|]. auto.
Qed.

(** The sides a position has. *)
Lemma left_side h l g n F ls x : gp h (S l) g n F -> kids n = ls ++ [x] ->
  exists FC cs Fs c Fx, side h l g n [] ls [x] FC cs Fs /\ rep h l c x Fx /\ wf l x /\
    (forall y, occ y F = occ y (FC ++ List.concat Fs ++ Fx)) /\
    exists a ro o ks Fr, gcont l g n a ro /\ at_ h a o (GInner ro ks) /\ entry ks (lenN ls) = Ok c /\
      trep B mine h ro (table_of n) Fr.
Proof.
  intros Hg Ek. destruct (gp_inner _ _ _ _ _ Hg) as (a & ro & o & ks & cs & Fr & Fs & G1 & G2 & G3 & G4 & G5 & G6 & ->).
  rewrite Ek in G6. destruct (all3_split _ _ _ _ _ G6) as (c1 & c2 & F1 & F2 & -> & -> & A1 & A2).
  inversion A2 as [|c ? Fx ? ? ? Hrx A3]; subst. inversion A3; subst. clear A2 A3.
  exists (own1 o a ++ Fr), c1, F1, c, Fx. split.
  { exists a, ro, o, ks, Fr. split; [auto|]. split; [auto|]. split; [auto|]. split.
    { change (lenN (@nil (node T))) with (lenN (@nil nat)). apply (ents_pre []). eapply pre_app. exact G3. }
    auto 10. }
  split; [auto|]. split.
  { pose proof (wf_kids B BL l n (proj1 G1)) as Hk. rewrite Ek in Hk. apply Forall_app in Hk as [_ Hk]. now inversion Hk. }
  split.
  { intros y. occs. la. }
  exists a, ro, o, ks, Fr. split; [auto|]. split; [auto|]. split; [|auto].
  eapply pre_at; [exact G3|]. now destruct (all3_len _ _ _ _ A1).
Qed.
Lemma right_side h l g n F x rs : gp h (S l) g n F -> kids n = x :: rs ->
  exists FC cs Fs c Fx, side h l g n [x] rs [] FC cs Fs /\ rep h l c x Fx /\ wf l x /\
    (forall y, occ y F = occ y (FC ++ List.concat Fs ++ Fx)) /\
    exists a ro o ks Fr, gcont l g n a ro /\ at_ h a o (GInner ro ks) /\ entry ks 0 = Ok c /\
      trep B mine h ro (table_of n) Fr.
Proof.
  intros Hg Ek. destruct (gp_inner _ _ _ _ _ Hg) as (a & ro & o & ks & cs & Fr & Fs & G1 & G2 & G3 & G4 & G5 & G6 & ->).
  rewrite Ek in G6. inversion G6 as [|c ? Fx cs' ? Fs' Hrx A1]; subst.
  exists (own1 o a ++ Fr), cs', Fs', c, Fx. split.
  { exists a, ro, o, ks, Fr. split; [auto|]. split; [now rewrite app_nil_r|]. split; [auto|]. split.
    { change (lenN [x]) with (lenN [c]). apply (ents_pre [c]). exact G3. }
    auto 10. }
  split; [auto|]. split.
  { pose proof (wf_kids B BL l n (proj1 G1)) as Hk. rewrite Ek in Hk. now inversion Hk. }
  split.
  { intros y. occs. la. }
  exists a, ro, o, ks, Fr. split; [auto|]. split; [auto|]. split; [|auto].
  eapply (pre_at []); [exact G3|]. reflexivity.
Qed.

Lemma last_run h l g n F ls x : gp h (S l) g n F -> gnf g -> kids n = ls ++ [x] ->
  exists FC cs Fs q Fx, side h l g n [] ls [x] FC cs Fs /\ glast_sub B BL l g h = Ok (q, h) /\
    gp h l q x Fx /\ gnf q /\ (forall y, occ y F = occ y (FC ++ List.concat Fs ++ Fx)).
Proof.
  intros Hg Hnf Ek.
  destruct (left_side _ _ _ _ _ _ _ Hg Ek) as (FC & cs & Fs & c & Fx & Hs & Hr & Hw & Ho & a & ro & o & ks & Fr & [Hwn Hc] & Ha & He & Ht).
  assert (lenN (kids n) = lenN ls + 1) as El by (rewrite Ek; apply lenN_snoc).
  assert (gkid a (lenN ls) h = Ok (c, h)) as Ekid by (eapply gkid_ok; eauto).
  assert (exists q, glast_sub B BL l g h = Ok (q, h) /\ gp h l q x Fx /\ gnf q) as (q & E1 & E2 & E3).
  2: { exists FC, cs, Fs, q, Fx. auto. }
  destruct g as [y|y z|y z|y r|y z|]; try easy; cbn [glast_sub].
  - destruct Hc as (-> & -> & -> & Hn).
    destruct (nonrel_split B BL l n ls x [] Hwn Hn Ek) as (_ & Hrx & _ & _ & Hca & Hns & _).
    run (glift_ok _ _ h (sub_count B BL l n Hwn Hn)). rewrite (kids_count B BL l n Hwn), El.
    replace (lenN ls + 1 - 1) with (lenN ls) by lia. run Ekid.
    rewrite shiftl_span_mul, <- Hca. rewrite (@csize_nil T) in Hns.
    replace (nsize n - csize ls) with (nsize x) by lia.
    assert (is_rel x = false) as Hx by (eapply reg_not_rel; eauto).
    destruct (gp_sub _ _ _ _ _ Hr Hw Hx) as [E1 E2]. rewrite E1. eexists. split; [reflexivity|]. split; [auto|exact I].
  - destruct Hc as (-> & -> & Hn).
    destruct (side_tab B BL mine h l n [] ls [x] (Some r) Fr r Ht Hwn Ek eq_refl) as (o2 & sl & T1 & _ & T3 & _).
    run (gcount_ok _ _ _ _ _ T1). rewrite El. destruct (N.eqb_spec (lenN ls + 1) 0); [lia|].
    replace (lenN ls + 1 - 1) with (lenN ls) by lia. run Ekid.
    rewrite Ek, map_app, sums_app in T3. cbn [map sums] in T3.
    assert (gsize r (lenN ls) h = Ok (0 + csize ls + nsize x, h)) as Ez.
    { eapply gsize_ok; [exact T1|]. eapply pre_at; [exact T3|]. now rewrite lenN_sums, lenN_map. }
    run Ez.
    assert ((if lenN ls =? 0 then gret 0 else gsize r (lenN ls - 1)) h = Ok (csize ls, h)) as Eb.
    { destruct (N.eqb_spec (lenN ls) 0) as [Z|Z].
      - apply lenN_0 in Z. subst ls. reflexivity.
      - destruct ls as [|w ls] using rev_ind; [easy|]. clear IHls. rewrite lenN_snoc.
        replace (lenN ls + 1 - 1) with (lenN ls) by lia.
        rewrite map_app, sums_app in T3. cbn [map sums] in T3. rewrite <- app_assoc in T3.
        eapply gsize_ok; [exact T1|]. rewrite (pre_at _ _ _ _ (lenN ls) T3) by now rewrite lenN_sums, lenN_map.
        rewrite csize_snoc. f_equal. }
    run Eb. replace (0 + csize ls + nsize x - csize ls) with (nsize x) by lia.
    now apply gp_child.
Qed.

Lemma first_run h l g n F x rs : gp h (S l) g n F -> kids n = x :: rs ->
  exists FC cs Fs q Fx, side h l g n [x] rs [] FC cs Fs /\ gfirst_sub B BL l g h = Ok (q, h) /\
    gp h l q x Fx /\ (forall y, occ y F = occ y (FC ++ List.concat Fs ++ Fx)).
Proof.
  intros Hg Ek.
  destruct (right_side _ _ _ _ _ _ _ Hg Ek) as (FC & cs & Fs & c & Fx & Hs & Hr & Hw & Ho & a & ro & o & ks & Fr & [Hwn Hc] & Ha & He & Ht).
  assert (gkid a 0 h = Ok (c, h)) as Ekid by (eapply gkid_ok; eauto).
  assert (exists q, gfirst_sub B BL l g h = Ok (q, h) /\ gp h l q x Fx) as (q & E1 & E2).
  2: { exists FC, cs, Fs, q, Fx. auto. }
  destruct g as [y|y z|y z|y r|y z|]; try easy; cbn [gfirst_sub].
  - destruct Hc as (-> & -> & Hf). run Ekid. exists (GFull c). split; [reflexivity|]. exists c.
    split; [auto|]. split; [auto|]. split; [auto|]. destruct n as [|[] k]; cbn in Hf; try easy. cbn [kids] in Ek. subst k.
    destruct Hf as [_ Hf]. now inversion Hf.
  - destruct Hc as (-> & -> & -> & Hn).
    destruct (nonrel_split B BL l n [] x rs Hwn Hn Ek) as (_ & Hrx & Hfx & _ & _ & Hns & _).
    pose proof (reg_size_bounds _ _ _ _ Hrx) as Hbx. run Ekid.
    rewrite shiftl_span. rewrite (@csize_nil T) in Hns. destruct (N.leb_spec (span l) (nsize n)).
    + exists (GFull c). split; [reflexivity|]. exists c. split; [auto|]. split; [auto|]. split; [auto|].
      destruct rs as [|w rs].
      * apply reg_full; auto. rewrite (@csize_nil T) in Hns. lia.
      * now apply Hfx.
    + assert (rs = []) as ->.
      { destruct rs as [|w rs]; [reflexivity|]. assert (full l x) as Hf by now apply Hfx.
        rewrite (full_size _ _ _ _ Hf) in Hns. lia. }
      rewrite (@csize_nil T) in Hns. replace (nsize n) with (nsize x) by lia.
      assert (is_rel x = false) as Hx by (eapply reg_not_rel; eauto).
      destruct (gp_sub _ _ _ _ _ Hr Hw Hx) as [E1 E2]. rewrite E1. eauto.
  - destruct Hc as (-> & -> & Hn). run Ekid.
    assert (kids n = [x] ++ rs ++ []) as Ek' by now rewrite app_nil_r.
    destruct (side_tab B BL mine h l n [x] rs [] (Some r) Fr r Ht Hwn Ek' eq_refl) as (o2 & sl & T1 & _ & T3 & _).
    rewrite Ek in T3. cbn [map sums] in T3. rewrite N.add_0_l in T3.
    assert (gsize r 0 h = Ok (nsize x, h)) as Ez.
    { eapply gsize_ok; [exact T1|]. eapply (pre_at []); [exact T3|reflexivity]. }
    run Ez. destruct (gp_child _ _ _ _ _ Hr Hw) as (q & E1 & E2 & _). eauto.
Qed.

(** ** Counting *)
Lemma fill_ok (h : heap) cl g n F s : gsrc h cl g n F -> gfill B BL cl s g h = Ok (s ++ [ncount n], h).
Proof.
  intros (a & q & _ & _ & E1 & _ & E2 & _). unfold gfill. run E1. run (glift_ok _ _ h E2). reflexivity.
Qed.
Definition finv (h : heap) (vs : list (node T)) (s0 : list N) (vis rest : list (node T)) (s : list N) (h' : heap) : Prop :=
  h' = h /\ s = s0 ++ map ncount vis /\ vs = vis ++ rest.
Lemma fill_turns h cl g n pre0 vs aft FC cs Fs s0 : side h cl g n pre0 vs aft FC cs Fs -> Forall (wf cl) vs ->
  exists a ro, gcont cl g n a ro /\ turns B BL mine (gfill B BL cl) cl a ro pre0 (finv h vs s0) /\
    (forall r, ro = Some r -> gcount r h = Ok (lenN (kids n), h)) /\
    (forall r x rs, ro = Some r -> kids n = x :: rs -> gsize r 0 h = Ok (nsize x, h)).
Proof.
  intros (a & ro & o & ks & Fr & Hg & Hk & Ha & Hen & Hc & Ht & H3 & _) Hw. exists a, ro. split; [exact Hg|].
  assert (forall r, ro = Some r -> exists o sl, at_ h r o (GTable (Some (lenN (kids n))) sl) /\
    ents (lenN pre0) (sums (csize pre0) (map nsize vs)) sl /\ pre (sums 0 (map nsize (kids n))) sl) as Htab.
  { intros r Er. destruct (side_tab B BL mine h cl n pre0 vs aft ro Fr r Ht (proj1 Hg) Hk Er) as (o2 & sl & T1 & T2 & T3 & _). eauto. }
  split.
  - intros vis x rest s h' (-> & -> & Evs). rewrite Evs in H3.
    destruct (all3_split _ _ _ _ _ H3) as (c1 & c2 & F1 & F2 & -> & -> & A1 & A2).
    inversion A2 as [|c ? Fx c2' ? F2' Hr A3]; subst. exists c, Fx. split.
    { eapply gkid_ok; [exact Ha|]. rewrite lenN_app. specialize (Hen c1 c c2' eq_refl).
      destruct (all3_len _ _ _ _ A1) as [<- _]. exact Hen. }
    split; [auto|]. split.
    { apply Forall_app in Hw as [_ Hw]. now inversion Hw. }
    assert (forall r, ro = Some r -> gsize r (lenN (pre0 ++ vis)) h = Ok (csize (pre0 ++ vis) + nsize x, h)) as Hz.
    { intros r Er. destruct (Htab r Er) as (o2 & sl & T1 & T2 & _). eapply gsize_ok; [exact T1|].
      rewrite lenN_app. rewrite map_app, sums_app in T2. cbn [map sums] in T2. specialize (T2 _ _ _ eq_refl).
      rewrite lenN_sums, lenN_map in T2. rewrite T2. f_equal. rewrite (csize_app pre0 vis). unfold csize. lia. }
    split; [exact Hz|]. intros g' Hg'. exists (s0 ++ map ncount (vis ++ [x])), h. split.
    { rewrite (fill_ok _ _ _ _ _ _ Hg'), map_app, app_assoc. reflexivity. }
    split; [|exact Hz]. split; [auto|]. split; [auto|]. now rewrite <- app_assoc.
  - split.
    + intros r Er. destruct (Htab r Er) as (o2 & sl & T1 & _). eapply gcount_ok; eauto.
    + intros r x rs Er Ek. destruct (Htab r Er) as (o2 & sl & T1 & _ & T3). rewrite Ek in T3. cbn [map sums] in T3.
      rewrite N.add_0_l in T3. eapply gsize_ok; [exact T1|]. eapply (pre_at []); [exact T3|reflexivity].
Qed.
Lemma fill_left h cl g ls FC Fs s : lsd h cl g ls FC Fs -> Forall (wf cl) ls ->
  gleft_subs B BL (gfill B BL cl) cl g s h = Ok (s ++ map ncount ls, h).
Proof.
  intros [([->|(y & c & ->)] & -> & _)|(n & x & cs & Hs & Hnf)] Hw; [cbn; now rewrite app_nil_r..|].
  pose proof Hs as (_ & _ & _ & _ & _ & _ & Hk & _).
  destruct (fill_turns _ _ _ _ _ _ _ _ _ _ s Hs Hw) as (a & ro & Hg & Ht & Hc & _).
  destruct (left_loop B BL mine (gfill B BL cl) cl g n a ro (finv h ls s) ls x s h Hg Hnf Hk Ht Hc) as (s' & h' & E & -> & -> & _).
  { split; [auto|]. split; [|reflexivity]. cbn. now rewrite app_nil_r. }
  exact E.
Qed.
Lemma fill_right h cl g rs FC Fs s : rsd h cl g rs FC Fs -> Forall (wf cl) rs ->
  gright_subs B BL (gfill B BL cl) cl g s h = Ok (s ++ map ncount rs, h).
Proof.
  intros [(-> & -> & _)|(n & x & cs & Hs & Hsh & H32)] Hw; [cbn; now rewrite app_nil_r|].
  pose proof Hs as (_ & _ & _ & _ & _ & _ & Hk & _).
  assert (kids n = x :: rs) as Hk' by (rewrite Hk, app_nil_r; reflexivity).
  destruct (fill_turns _ _ _ _ _ _ _ _ _ _ s Hs Hw) as (a & ro & Hg & Ht & Hc & Hz).
  destruct (right_loop B BL mine (gfill B BL cl) cl g n a ro (finv h rs s) x rs s h Hg Hk' Ht Hsh H32) as (s' & h' & E & -> & -> & _).
  { intros r Er. eapply Hz; eauto. }
  { intros vis rest s1 h1 r Er (-> & _ & Ev). rewrite (Hc r Er), Hk', Ev. reflexivity. }
  { split; [auto|]. split; [|reflexivity]. cbn. now rewrite app_nil_r. }
  exact E.
Qed.
Lemma fill_center h v gc c Fc s : crep h v gc c Fc -> Forall (wf v) (c_nodes c) ->
  c_sizes c = sums 0 (map nsize (c_nodes c)) -> (v <> O -> Forall (fun n => is_rel n = true) (c_nodes c)) ->
  gcenter_subs B BL (gfill B BL v) gc s h = Ok (s ++ map ncount (c_nodes c), h).
Proof.
  intros (G1 & G2 & G3 & G4) Hw Hz Hr.
  destruct (center_loop B BL mine (gfill B BL v) v
    (fun vis rest cs s' h' => h' = h /\ s' = s ++ map ncount vis /\ Forall (wf v) rest /\ exists Fs, all3 (rep h v) cs rest Fs))
    with (c := gc) (ns := c_nodes c) (s := s) (h := h) as (s' & h' & E & -> & -> & _).
  - intros vis n rest cs s1 h1 (-> & -> & Hw1 & Fs & H3). inversion H3 as [|x ? F cs' ? Fs' Hr1 H3']; subst. inversion Hw1; subst.
    exists x, cs', F. split; [auto|]. split; [auto|]. split; [auto|]. intros g Hg.
    exists (s ++ map ncount (vis ++ [n])), h. split.
    { rewrite (fill_ok _ _ _ _ _ _ Hg), map_app, app_assoc. reflexivity. }
    split; [auto|]. split; [auto|]. split; [auto|]. eauto.
  - intros vis cs s1 h1 (_ & _ & _ & Fs & H3). now inversion H3.
  - exact G1.
  - now rewrite G3.
  - exact Hr.
  - split; [auto|]. split; [cbn; now rewrite app_nil_r|]. split; [auto|]. eauto.
  - exact E.
Qed.

(** ** concat_rebalance_mut *)
Lemma ends_wholes b v ns : Forall (wf v) ns -> ends (mid v) (QQ b v) ns -> wholes v [] ns.
Proof.
  intros Hw He u n w ->. destruct w as [|y w]; [right; auto|]. left.
  apply ends_mid in He as (_ & _ & He & _). specialize (He ltac:(easy)).
  apply Forall_app in Hw as [_ Hw]. inversion Hw as [|? ? Hn _]; subst.
  destruct v as [|v]; [exact I|]. destruct n as [xs|[sz|] ks]; [easy|now left|right].
  destruct He as [He _]. exact He.
Qed.

Lemma rebalance_run h v ec el er g1 lp a FCl Fsl gc c els Fc g2 rp d FCr Fsr R b :
  mine ec = true -> mine el = true -> mine er = true ->
  lsd h v g1 a FCl Fsl -> crep h v gc c Fc -> rsd h v g2 d FCr Fsr -> center_ok v c els ->
  side_ok B BL (each_left_sub B BL) v lp a -> side_ok B BL (each_right_sub B BL) v rp d ->
  ends (mid v) (QQ b v) (a ++ c_nodes c ++ d) ->
  sep (length h) (FCl ++ List.concat Fsl ++ List.concat Fc ++ FCr ++ List.concat Fsr ++ R) ->
  exists gc' h' c' Fs, grebalance B BL ec el g1 gc er g2 h = Ok (gc', h') /\
    concat_rebalance B BL lp c rp = Ok c' /\ crep h' (S v) gc' c' Fs /\
    sep (length h') (List.concat Fs ++ R) /\ still h h' R.
Proof.
  intros Hec Hel Her Hl Hc Hr Hco (ls & El & Hls & Hla) (rs & Er & Hrs & Hrb) He Hs.
  destruct (center_each_ok B BL _ _ _ Hco) as (ms & Em & Hms).
  pose proof Hco as [Hlv Hlen Hwf Hsz Hel' Hrel].
  pose proof Hc as (G1 & _).
  assert (posl v (ls ++ ms ++ rs) (a ++ c_nodes c ++ d)) as Hall by (repeat apply posl_app; auto).
  pose proof (posl_wf _ _ _ _ _ Hall) as Hwall.
  unfold concat_rebalance. rewrite Hlv, El. cbn [rbind]. rewrite Em. cbn [rbind]. rewrite Er.
  cbn [rbind]. rewrite (counts_ok B BL _ _ _ Hall). cbn [rbind].
  unfold grebalance. rewrite G1.
  pose proof (fill_left h v g1 a FCl Fsl [] Hl ltac:(eapply posl_wf; eauto)) as E1. run E1.
  pose proof (fill_center h v gc c Fc ([] ++ map ncount a) Hc Hwf Hsz Hrel) as E2. run E2.
  pose proof (fill_right h v g2 d FCr Fsr (([] ++ map ncount a) ++ map ncount (c_nodes c)) Hr ltac:(eapply posl_wf; eauto)) as E3. run E3.
  assert ((([] ++ map ncount a) ++ map ncount (c_nodes c)) ++ map ncount d = map ncount (a ++ c_nodes c ++ d)) as Ec
    by (cbn [app]; rewrite !map_app, app_assoc; reflexivity).
  rewrite Ec. set (ns := a ++ c_nodes c ++ d) in *.
  assert (1 <= lenN ns <= 2 * width + 1) as Hns by (unfold ns; rewrite !lenN_app; lia).
  rewrite lenN_map. destruct (N.ltb_spec (2 * width + 1) (lenN ns)); [lia|].
  pose proof (counts_bound B BL _ _ Hwall) as Hcb.
  assert (map ncount ns <> []) as Hne by (apply lenN_pos; rewrite lenN_map; lia).
  destruct (shuffle_ok B BL v (map ncount ns) Hne Hcb) as (plan & Ep & Hpb & Hps & Hpl & _).
  rewrite Ep. cbn [rbind]. rewrite lenN_map in Hpl. run (glift_ok (Ok plan) plan h eq_refl).
  assert (lenN plan <= 3 * width) as H3 by (pose proof (width_pos B); lia).
  destruct (merge_run B BL mine v plan ec el er h g1 a FCl Fsl gc c Fc g2 d FCr Fsr R) as (gc' & h' & m & c' & Fs & E4 & Hv & Em' & K1 & K2 & K3); auto.
  { eapply ends_wholes; eauto. }
  { exact (shuffle_flow B BL v _ plan Hne Hcb Ep). }
  rewrite (Hv _ Hall). cbn [rbind]. exists gc', h', c', Fs. auto.
Qed.

(** ** The operands *)
(** The left one: a position, or the tail of a vector that is no more than that. *)
Definition glp (h : heap) (ll : nat) (g : gpos) (lp : pos T) (els : list T) (F : list nat) : Prop :=
  ll = 1%nat /\ (exists a, g = GSingle a (lenN els) /\ rep h O a (Leaf els) F) /\
    lp = PSingle (Leaf els) (lenN els) /\ 0 < lenN els <= lwidth \/
  exists n, gp h ll g n F /\ gnf g /\ pos_ok ll lp n /\ is_sub lp = true /\ not_full lp /\ elems n = els /\ spn ll n.
(** The tail in between. *)
Definition gtp (h : heap) (g : gpos) (tp : pos T) (els : list T) (F : list nat) : Prop :=
  g = GNone /\ tp = PNone /\ els = [] /\ F = [] \/
  exists a, g = GReg a (lenN els) /\ tp = PReg (Leaf els) (lenN els) /\ 0 < lenN els <= lwidth /\ rep h O a (Leaf els) F.

Lemma glp_ok h ll g lp els F : glp h ll g lp els F -> lp_ok B BL ll lp els /\ lps B BL ll lp.
Proof.
  intros [(-> & _ & -> & Hl)|(n & _ & _ & H1 & H2 & H3 & H4 & H5)].
  - split; [left; auto|exact I].
  - split; [right; eauto|eapply pos_lps; eauto].
Qed.
Lemma gtp_ok h g tp els F : gtp h g tp els F -> tp_ok BL tp els.
Proof. intros [(_ & -> & -> & _)|(a & _ & -> & Hl & _)]; [now left|right; auto]. Qed.
Lemma lsd_still h h' R cl g vs FC Fs : still h h' R -> (forall x, In x (FC ++ List.concat Fs) -> In x R) ->
  lsd h cl g vs FC Fs -> lsd h' cl g vs FC Fs.
Proof.
  intros Hs Hi [Z|(n & x & cs & H1 & H2)]; [now left|right]. exists n, x, cs. split; [|auto]. eapply side_still; eauto.
Qed.
Lemma rsd_still h h' R cl g vs FC Fs : still h h' R -> (forall x, In x (FC ++ List.concat Fs) -> In x R) ->
  rsd h cl g vs FC Fs -> rsd h' cl g vs FC Fs.
Proof.
  intros Hs Hi [Z|(n & x & cs & H1 & H2)]; [now left|right]. exists n, x, cs. split; [|auto]. eapply side_still; eauto.
Qed.
Lemma lsd_none h cl : lsd h cl GNone [] [] [].
Proof. left. auto. Qed.
Lemma rsd_none h cl : rsd h cl GNone [] [] [].
Proof. left. auto. Qed.

Lemma left_step h l g lp els F : glp h (S l) g lp els F ->
  exists a q x gq FC Fs Fx, side_ok B BL (each_left_sub B BL) l (Some lp) a /\ last_sub B BL l lp = Ok q /\
    lsd h l g a FC Fs /\ glast_sub B BL l g h = Ok (gq, h) /\ gp h l gq x Fx /\ pos_ok l q x /\
    (l <> O -> glp h l gq q (elems x) Fx) /\ els = flat_map elems a ++ elems x /\ Forall (mid l) a /\
    forall y, occ y F = occ y (FC ++ List.concat Fs ++ Fx).
Proof.
  intros [(E & (a0 & -> & Hr) & -> & Hl)|(n & Hg & Hnf & Hp & Hs & Hn & <- & Hsp)].
  - injection E as ->.
    assert (wf O (Leaf els)) as Hw by exact Hl.
    destruct (gp_sub h O a0 (Leaf els) F Hr Hw eq_refl) as [E1 E2]. rewrite nsize_leaf in E1, E2.
    exists [], (PSub (Leaf els) (lenN els)), (Leaf els), (GSub a0 (lenN els)), [], [], F.
    split.
    { exists []. split; [reflexivity|]. split; [constructor|].
      change (lenN (@nil (node T))) with 0. pose proof (width_pos B). lia. }
    cbn [last_sub]. rewrite <- (nsize_leaf els), mk_sub_ok by auto. rewrite nsize_leaf.
    split; [reflexivity|]. split; [left; split; [right; eauto|auto]|]. split; [exact E1|]. split; [exact E2|].
    split; [rewrite <- (nsize_leaf els); now constructor|]. split; [easy|]. split; [reflexivity|]. split; [constructor|].
    intros y. reflexivity.
  - pose proof (pos_ok_wf _ _ _ _ _ Hp) as Hw.
    destruct (kids_last B BL _ _ Hw) as (a & x & Ek).
    destruct (each_left_sub_ok B BL l lp n a x Hp Hs Hn Ek) as (ps & E & Hps).
    destruct (last_sub_ok B BL l lp n a x Hp Hs Hn Ek) as (q & Eq & Hq & Hsq & Hnq).
    destruct (QQ_full B BL false l n a x [] Hw Hsp Ek) as (Ha & _ & Hx & _).
    destruct (last_run _ _ _ _ _ _ _ Hg Hnf Ek) as (FC & cs & Fs & gq & Fx & K1 & K2 & K3 & K4 & K5).
    exists a, q, x, gq, FC, Fs, Fx. split.
    { exists ps. split; [exact E|]. split; [auto|].
      pose proof (wf_count_le _ _ _ _ Hw) as Hc. rewrite Ek, lenN_snoc in Hc. exact Hc. }
    split; [exact Eq|]. split; [right; eauto 6|]. split; [exact K2|]. split; [exact K3|]. split; [exact Hq|].
    split; [intros _; right; exists x; auto 10|]. split; [|auto].
    rewrite (elems_kids B BL _ _ Hw), Ek. apply flat_snoc.
Qed.

Lemma right_step h l g rp n F : gp h (S l) g n F -> pos_ok (S l) rp n -> is_sub rp = true -> sh l < 32 -> nsize n <= 2 ^ 32 ->
  exists d q x gq FC Fs Fx, side_ok B BL (each_right_sub B BL) l (Some rp) d /\ first_sub B BL l rp = Ok q /\
    rsd h l g d FC Fs /\ gfirst_sub B BL l g h = Ok (gq, h) /\ gp h l gq x Fx /\ pos_ok l q x /\ is_sub q = true /\
    elems n = elems x ++ flat_map elems d /\ nsize x <= nsize n /\
    (forall b, QQ b (S l) n -> (d <> [] -> mid l x) /\ QQ b l x /\ ends (mid l) (QQ b l) d) /\
    forall y, occ y F = occ y (FC ++ List.concat Fs ++ Fx).
Proof.
  intros Hg Hp Hs Hsh H32. pose proof (pos_ok_wf _ _ _ _ _ Hp) as Hw.
  destruct (kids_first B BL _ _ Hw) as (x & d & Ek).
  destruct (each_right_sub_ok B BL l rp n x d Hp Hs Ek Hsh H32) as (ps & E & Hps).
  destruct (first_sub_ok B BL l rp n x d Hp Hs Ek) as (q & Eq & Hq & Hsq).
  destruct (first_run _ _ _ _ _ _ _ Hg Ek) as (FC & cs & Fs & gq & Fx & K1 & K2 & K3 & K5).
  exists d, q, x, gq, FC, Fs, Fx. split.
  { exists ps. split; [exact E|]. split; [auto|].
    pose proof (wf_count_le _ _ _ _ Hw) as Hc. rewrite Ek, lenN_cons in Hc. exact Hc. }
  split; [exact Eq|]. split; [right; exists n, x, cs; auto|]. split; [auto|]. split; [auto|]. split; [auto|]. split; [auto|].
  assert (elems n = elems x ++ flat_map elems d) as Ee by now rewrite (elems_kids B BL _ _ Hw), Ek.
  split; [exact Ee|]. split; [unfold nsize; rewrite Ee, lenN_app; lia|].
  split; [|auto].
  intros b Hq'. destruct (QQ_full B BL b l n [] x d Hw Hq' Ek) as (_ & H1 & H2 & H3). auto.
Qed.

(** ** concat_leafs_mut *)
Lemma gp_leaf h g n F : gp h O g n F -> exists a xs q, n = Leaf xs /\ gaddr g = Ok a /\ rep h O a (Leaf xs) F /\
  gview g h = Ok (q, h) /\ count B BL O q = Ok (lenN xs).
Proof.
  intros (a & Hr & Hw & Hg). destruct (wf_leaf _ _ _ Hw) as (xs & -> & Hx).
  destruct g as [x|x z|x z|x r|x z|]; try easy.
  - destruct Hg as (-> & Hf). destruct (gsrc_full B BL mine h O a _ F Hr Hf) as (a' & q & E1 & _ & E2 & _ & E3 & _).
    exists a, xs, q. auto.
  - destruct Hg as (-> & -> & Hn). destruct (gsrc_sub B BL mine h O a _ F Hr Hw Hn) as [_ (a' & q & E1 & _ & E2 & _ & E3 & _)].
    exists a, xs, q. auto.
Qed.
Lemma leafs_run h gl lp ln Fl gt tp tels Ft gr rp rn Fr :
  gp h O gl ln Fl -> pos_ok O lp ln -> gtp h gt tp tels Ft -> gp h O gr rn Fr -> pos_ok O rp rn ->
  exists gc c Fs, gconcat_leafs B BL gl gt gr h = Ok (gc, h) /\ concat_leafs B BL lp tp rp = Ok c /\
    crep h O gc c Fs /\ forall y, occ y (List.concat Fs) = occ y (Fl ++ Ft ++ Fr).
Proof.
  intros Hl Pl Ht Hr Pr.
  destruct (gp_leaf _ _ _ _ Hl) as (la & xs & lq & -> & L1 & L2 & L3 & L4).
  destruct (gp_leaf _ _ _ _ Hr) as (ra & ys & rq & -> & R1 & R2 & R3 & R4).
  unfold concat_leafs. rewrite (pos_ok_node _ _ _ _ _ Pl). cbn [rbind]. rewrite (count_ok _ _ _ _ _ Pl). cbn [rbind].
  rewrite (pos_ok_node _ _ _ _ _ Pr). cbn [rbind]. rewrite (count_ok _ _ _ _ _ Pr). cbn [rbind ncount].
  unfold gconcat_leafs. run (glift_ok _ _ h L1). run L3. run (glift_ok _ _ h L4).
  run (glift_ok _ _ h R1). run R3. run (glift_ok _ _ h R4).
  destruct Ht as [(-> & -> & -> & ->)|(ta & -> & -> & Htl & Hta)].
  - cbn [count rbind]. cbn [gview]. unfold gbind, gret, glift. cbn [count]. change (0 <? 0) with false. cbn iota.
    eexists. eexists. exists [Fl; Fr]. split; [reflexivity|]. split; [reflexivity|]. split.
    + split; [reflexivity|]. split; [reflexivity|]. split; [reflexivity|]. constructor; [auto|]. constructor; [auto|]. constructor.
    + intros y. occs. la.
  - assert (pos_ok O (PReg (Leaf tels) (lenN tels)) (Leaf tels)) as Hp.
    { constructor; [exact Htl|reflexivity|lia|]. rewrite span_0, nsize_leaf, N.mod_small by lia. lia. }
    pose proof (count_ok _ _ _ _ _ Hp) as Ec. rewrite Ec. cbn [rbind ncount pnode]. cbn [ncount] in Ec.
    assert (count B BL O (PReg (Leaf [] : node T) (lenN tels)) = Ok (lenN tels)) as Ec' by exact Ec.
    cbn [gview]. unfold gbind, gret, glift. rewrite Ec'. cbn [gaddr].
    destruct (N.ltb_spec 0 (lenN tels)); [|lia].
    eexists. eexists. exists [Fl; Ft; Fr]. split; [reflexivity|]. split; [reflexivity|]. split.
    + split; [reflexivity|]. split; [reflexivity|]. split; [reflexivity|]. constructor; [auto|]. constructor; [auto|]. constructor; [auto|]. constructor.
    + intros y. occs. la.
Qed.

(** ** concat_inners_mut *)
Lemma inners_run ec el er : mine ec = true -> mine el = true -> mine er = true ->
  forall fuel l r h g1 lp lels F1 gt tp tels Ft g2 rp rn F2 R,
  (S l + S r <= fuel)%nat -> glp h (S l) g1 lp lels F1 -> gtp h gt tp tels Ft -> gp h (S r) g2 rn F2 ->
  pos_ok (S r) rp rn -> is_sub rp = true -> sh r < 32 -> nsize rn <= 2 ^ 32 -> spn (S r) rn ->
  sep (length h) (F1 ++ Ft ++ F2 ++ R) ->
  exists gc h' c Fs, gconcat_inners B BL fuel (S l) (S r) ec el g1 gt er g2 h = Ok (gc, h') /\
    concat_inners B BL fuel (S l) (S r) lp tp rp = Ok c /\ crep h' (Nat.max (S l) (S r)) gc c Fs /\
    sep (length h') (List.concat Fs ++ R) /\ still h h' R.
Proof.
  intros Hec Hel Her. induction fuel as [|f IH];
    intros l r h g1 lp lels F1 gt tp tels Ft g2 rp rn F2 R Hf Hl Ht Hg2 Hr Hsr Hsh H32 Hsp Hs; [lia|].
  cbn [concat_inners gconcat_inners].
  pose proof (gtp_ok _ _ _ _ _ Ht) as Ht'.
  destruct (Nat.ltb_spec r l) as [H1|H1].
  - destruct (left_step _ _ _ _ _ _ Hl) as (a & q & x & gq & FC & Fs1 & Fx & Hside & Eq & Hls & Egq & Hgq & Hq & Hlq & -> & Ha & Ho).
    rewrite Eq. cbn [rbind]. run Egq. destruct l as [|l]; [lia|].
    assert (S l + S r <= f)%nat as Hf' by lia. specialize (Hlq ltac:(easy)).
    destruct (glp_ok _ _ _ _ _ _ Hlq) as [Hlq1 Hlq2].
    destruct (IH l r h gq q (elems x) Fx gt tp tels Ft g2 rp rn F2 (FC ++ List.concat Fs1 ++ R) Hf' Hlq Ht Hg2 Hr Hsr Hsh H32 Hsp)
      as (gc & h1 & c1 & Fc & E1 & Ec & Hc1 & Hs1 & S1).
    { intros y. specialize (Hs y). specialize (Ho y). occs. la. }
    run E1. rewrite Ec. cbn [rbind].
    destruct (concat_inners_ok B BL f l r q tp rp (elems x) tels rn Hf' Hlq1 Ht' Hr Hsr Hsh H32) as (c1' & Ec' & Hc).
    rewrite Ec in Ec'. injection Ec' as <-.
    destruct (concat_inners_strict B BL f l r q tp rp (elems x) tels rn c1 false Hf' Hlq1 Ht' Hr Hsr Hsh H32 Ec Hlq2 Hsp) as [He _].
    replace (Nat.max (S (S l)) (S r)) with (S (Nat.max (S l) (S r))) by lia.
    replace (Nat.max (S l) (S r)) with (S l) in * by lia.
    destruct (rebalance_run h1 (S l) ec el er g1 (Some lp) a FC Fs1 gc c1 (elems x ++ tels ++ elems rn) Fc GNone None [] [] [] R false)
      as (gc' & h2 & c' & Fs & E2 & Ec2 & Hc2 & Hs2 & S2); auto.
    + eapply lsd_still; [exact S1| |exact Hls]. intros y. rewrite !in_app_iff. tauto.
    + apply rsd_none.
    + apply no_side.
    + apply join_ends; auto; [easy|apply ends_nil].
    + intros y. specialize (Hs1 y). occs. la.
    + exists gc', h2, c', Fs. split; [exact E2|]. split; [exact Ec2|]. split; [exact Hc2|]. split; [exact Hs2|].
      eapply still_trans; [|exact S2]. eapply still_sub; [exact S1|]. intros y. rewrite !in_app_iff. tauto.
  - destruct (right_step _ _ _ _ _ _ Hg2 Hr Hsr Hsh H32)
      as (d & qr & xr & gr & FCr & Fsr & Fxr & Hrside & Eqr & Hrs & Egr & Hgr & Hqr & Hsqr & Eer & Hxr & Hst & Hor).
    destruct (Hst false Hsp) as (Hd1 & Hd2 & Hd3). clear Hst.
    destruct (Nat.ltb_spec l r) as [H2|H2].
    + rewrite Eqr. cbn [rbind]. run Egr. destruct r as [|r]; [lia|].
      assert (sh r < 32) as Hsh' by (unfold Rrb.sh in *; lia).
      assert (S l + S r <= f)%nat as Hf' by lia. assert (nsize xr <= 2 ^ 32) as H32' by lia.
      destruct (glp_ok _ _ _ _ _ _ Hl) as [Hl1 Hl2].
      destruct (IH l r h g1 lp lels F1 gt tp tels Ft gr qr xr Fxr (FCr ++ List.concat Fsr ++ R) Hf' Hl Ht Hgr Hqr Hsqr Hsh' H32' Hd2)
        as (gc & h1 & c1 & Fc & E1 & Ec & Hc1 & Hs1 & S1).
      { intros y. specialize (Hs y). specialize (Hor y). occs. la. }
      run E1. rewrite Ec. cbn [rbind].
      destruct (concat_inners_ok B BL f l r lp tp qr lels tels xr Hf' Hl1 Ht' Hqr Hsqr Hsh' H32') as (c1' & Ec' & Hc).
      rewrite Ec in Ec'. injection Ec' as <-.
      destruct (concat_inners_strict B BL f l r lp tp qr lels tels xr c1 false Hf' Hl1 Ht' Hqr Hsqr Hsh' H32' Ec Hl2 Hd2) as [He _].
      assert (d <> [] -> Forall (mid (Nat.max (S l) (S r))) (c_nodes c1)) as Hm.
      { intros Hd. apply ends_same.
        exact (proj1 (concat_inners_strict B BL f l r lp tp qr lels tels xr c1 true Hf' Hl1 Ht' Hqr Hsqr Hsh' H32' Ec Hl2 (Hd1 Hd))). }
      replace (Nat.max (S l) (S (S r))) with (S (S r)) by lia.
      replace (Nat.max (S l) (S r)) with (S r) in * by lia.
      destruct (rebalance_run h1 (S r) ec el er GNone None [] [] [] gc c1 (lels ++ tels ++ elems xr) Fc g2 (Some rp) d FCr Fsr R false)
        as (gc' & h2 & c' & Fs & E2 & Ec2 & Hc2 & Hs2 & S2); auto.
      * apply lsd_none.
      * eapply rsd_still; [exact S1| |exact Hrs]. intros y. rewrite !in_app_iff. tauto.
      * apply no_side.
      * apply join_ends; auto.
      * exists gc', h2, c', Fs. split; [exact E2|]. split; [exact Ec2|]. split; [exact Hc2|]. split; [exact Hs2|].
        eapply still_trans; [|exact S2]. eapply still_sub; [exact S1|]. intros y. rewrite !in_app_iff. tauto.
    + assert (r = l) as -> by lia. rewrite Nat.max_id.
      destruct (left_step _ _ _ _ _ _ Hl) as (a & q & x & gq & FC & Fs1 & Fx & Hside & Eq & Hls & Egq & Hgq & Hq & Hlq & -> & Ha & Ho).
      rewrite Eq. cbn [rbind]. rewrite Eqr. cbn [rbind]. run Egq. run Egr.
      assert (exists gc h1 c1 Fc,
        (match l with O => gconcat_leafs B BL gq gt gr | S _ => gconcat_inners B BL f l l ec el gq gt er gr end) h = Ok (gc, h1) /\
        match l with O => concat_leafs B BL q tp qr | S _ => concat_inners B BL f l l q tp qr end = Ok c1 /\
        crep h1 l gc c1 Fc /\ sep (length h1) (List.concat Fc ++ FC ++ List.concat Fs1 ++ FCr ++ List.concat Fsr ++ R) /\
        still h h1 (FC ++ List.concat Fs1 ++ FCr ++ List.concat Fsr ++ R) /\
        center_ok l c1 (elems x ++ tels ++ elems xr) /\
        forall b, QQ b l xr -> ends (mid l) (QQ b l) (c_nodes c1)) as (gc & h1 & c1 & Fc & E1 & Ec & Hc1 & Hs1 & S1 & Hc & He).
      { destruct l as [|l].
        - destruct (leafs_run h gq q x Fx gt tp tels Ft gr qr xr Fxr Hgq Hq Ht Hgr Hqr) as (gc & c1 & Fc & E1 & Ec & Hc1 & Hoc).
          destruct (concat_leafs_ok B BL q tp qr x tels xr Hq Hqr Ht') as (c1' & Ec' & Hc).
          rewrite Ec in Ec'. injection Ec' as <-.
          exists gc, h, c1, Fc. split; [exact E1|]. split; [exact Ec|]. split; [exact Hc1|]. split.
          { intros y. specialize (Hs y). specialize (Ho y). specialize (Hor y). specialize (Hoc y). occs. la. }
          split; [apply still_refl|]. split; [exact Hc|]. intros; apply trivial0.
        - specialize (Hlq ltac:(easy)). destruct (glp_ok _ _ _ _ _ _ Hlq) as [Hlq1 Hlq2].
          assert (S l + S l <= f)%nat as Hf' by lia. assert (nsize xr <= 2 ^ 32) as H32' by lia.
          assert (sh l < 32) as Hsh' by (unfold Rrb.sh in *; lia).
          destruct (IH l l h gq q (elems x) Fx gt tp tels Ft gr qr xr Fxr (FC ++ List.concat Fs1 ++ FCr ++ List.concat Fsr ++ R)
            Hf' Hlq Ht Hgr Hqr Hsqr Hsh' H32' Hd2) as (gc & h1 & c1 & Fc & E1 & Ec & Hc1 & Hs1 & S1).
          { intros y. specialize (Hs y). specialize (Ho y). specialize (Hor y). occs. la. }
          destruct (concat_inners_ok B BL f l l q tp qr (elems x) tels xr Hf' Hlq1 Ht' Hqr Hsqr Hsh' H32') as (c1' & Ec' & Hc).
          rewrite Ec in Ec'. injection Ec' as <-.
          exists gc, h1, c1, Fc. rewrite Nat.max_id in Hc, Hc1. split; [exact E1|]. split; [exact Ec|]. split; [exact Hc1|].
          split; [exact Hs1|]. split; [exact S1|]. split; [exact Hc|].
          intros b Hb.
          pose proof (concat_inners_strict B BL f l l q tp qr (elems x) tels xr c1 b Hf' Hlq1 Ht' Hqr Hsqr Hsh' H32' Ec Hlq2 Hb) as [He _].
          now rewrite Nat.max_id in He. }
      run E1. rewrite Ec. cbn [rbind].
      destruct (rebalance_run h1 l ec el er g1 (Some lp) a FC Fs1 gc c1 (elems x ++ tels ++ elems xr) Fc g2 (Some rp) d FCr Fsr R false)
        as (gc' & h2 & c' & Fs & E2 & Ec2 & Hc2 & Hs2 & S2); auto.
      * eapply lsd_still; [exact S1| |exact Hls]. intros y. rewrite !in_app_iff. tauto.
      * eapply rsd_still; [exact S1| |exact Hrs]. intros y. rewrite !in_app_iff. tauto.
      * apply join_ends; auto. intros Hd. apply ends_same. apply (He true). now apply Hd1.
      * intros y. specialize (Hs1 y). occs. la.
      * exists gc', h2, c', Fs. split; [exact E2|]. split; [exact Ec2|]. split; [exact Hc2|]. split; [exact Hs2|].
        eapply still_trans; [|exact S2]. eapply still_sub; [exact S1|]. intros y. rewrite !in_app_iff. tauto.
Qed.

(** ** The new root *)
Hypothesis HB : 2 <= B.

Lemma realize_run h v gc c els Fs R ec : mine ec = true -> crep h (S v) gc c Fs -> center_ok (S v) c els ->
  sep (length h) (List.concat Fs ++ R) ->
  exists l a h' n F, grealize B ec gc h = Ok ((S l, a), h') /\ realize c = Ok (S l, n) /\
    rep h' (S l) a n F /\ sep (length h') (F ++ R) /\ still h h' R.
Proof.
  intros Hec (G1 & G2 & G3 & G4) [Hlv Hlen Hwf Hsz Hel Hrel] Hs.
  destruct (all3_len _ _ _ _ G4) as [Eln _]. unfold grealize, realize. rewrite Eln, G1, G2, G3.
  destruct (N.ltb_spec 1 (lenN (c_nodes c))) as [H1|H1].
  - assert (lenN (c_nodes c) <= width) as Hw.
    { assert (2 ^ 2 <= 2 ^ B) by (apply N.pow_le_mono_r; lia). change (2 ^ 2) with 4 in *. fold width in *. lia. }
    assert (lenN (c_sizes c) = lenN (c_nodes c)) as Ez by (rewrite Hsz, lenN_sums, lenN_map; reflexivity).
    destruct (write_pre [] (c_sizes c) (blank N width) 0) as (sz' & Ew1 & P1 & L1 & _).
    { apply pre_nil. } { reflexivity. } { rewrite blank_len. lia. }
    destruct (write_pre [] (gc_nodes gc) (blank nat width) 0) as (cs' & Ew2 & P2 & L2 & _).
    { apply pre_nil. } { reflexivity. } { rewrite blank_len. lia. }
    cbn [app] in P1, P2. rewrite blank_len in L1, L2.
    set (r := length h). set (h1 := h ++ [mkG (Some ec) (GTable (Some 0) (blank N width))]).
    set (n := length h1). set (h2 := h1 ++ [mkG (Some ec) (GInner (Some r) (blank nat width))]).
    assert (gmake_inner_r B ec h = Ok (n, h2)) as E1 by reflexivity.
    assert (at_ h2 r (Some ec) (GTable (Some 0) (blank N width))) as A1 by (apply at_app, at_new).
    assert (at_ h2 n (Some ec) (GInner (Some r) (blank nat width))) as A2 by apply at_new.
    assert (r <> n) as Hrn by (unfold r, n, h1; rewrite app_length; cbn; lia).
    assert (ow (Some ec) = true) as Ho by exact Hec.
    set (h3 := update_at r (mkG (Some ec) (GTable (Some (lenN (c_nodes c))) sz')) h2).
    set (h4 := update_at n (mkG (Some ec) (GInner (Some r) cs')) h3).
    assert (at_ h3 n (Some ec) (GInner (Some r) (blank nat width))) as A3 by (apply at_upd_ne; auto).
    run E1. run (grelaxed_ok _ _ _ _ _ A2).
    assert ((' (_, sz) <~ gtable r ;; sz' <~ glift (write sz 0 (map Some (c_sizes c))) ;;
             gput_table r (Some (lenN (c_nodes c))) sz') h2 = Ok (tt, h3)) as E2.
    { run (gtable_ok _ _ _ _ _ A1). run (glift_ok _ _ h2 Ew1). now rewrite (gput_table_ok _ _ _ _ _ _ _ A1). }
    run E2.
    assert ((' (r, cs) <~ ginner n ;; cs' <~ glift (write cs 0 (map Some (gc_nodes gc))) ;;
             gput_inner n r cs') h3 = Ok (tt, h4)) as E3.
    { run (ginner_ok _ _ _ _ _ A3). run (glift_ok _ _ h3 Ew2). now rewrite (gput_inner_ok _ _ _ _ _ _ _ A3). }
    run E3.
    exists (S v), n, h4, (Inner (Some (c_sizes c)) (c_nodes c)), ([n] ++ [r] ++ List.concat Fs).
    split; [reflexivity|]. split; [reflexivity|].
    assert (chg h h4 ([r] ++ [n])) as C.
    { eapply chg_sub; [|intros x _ Hx; exact Hx|].
      - exact (chg_trans _ _ _ _ _ _ (chg_trans _ _ _ _ _ _ (chg_trans _ _ _ _ _ _ (chg_new mine h _) (chg_new mine h1 _))
          (chg_upd mine _ _ _ _ (mkG (Some ec) (GTable (Some (lenN (c_nodes c))) sz')) A1 Ho)) (chg_upd mine _ _ _ _ (mkG (Some ec) (GInner (Some r) cs')) A3 Ho)).
      - intros x Hx [<-|[<-|[]]]; unfold r, n, h1 in Hx; rewrite ?app_length in Hx; cbn in Hx; lia. }
    assert (forall x, (x < length h)%nat -> ~ In x ([r] ++ [n])) as Hfr.
    { intros x Hx [<-|[<-|[]]]; unfold r, n, h1 in Hx; rewrite ?app_length in Hx; cbn in Hx; lia. }
    assert (length h4 = S (S (length h))) as Lh.
    { unfold h4, h3, h2, h1. rewrite !upd_len, !app_length. cbn. lia. }
    assert (at_ h3 r (Some ec) (GTable (Some (lenN (c_nodes c))) sz')) as A4 by (eapply at_upd; eauto).
    split.
    { cbn [GcRep.rep]. exists (Some ec), (Some r), cs', (gc_nodes gc), [r], Fs.
      split; [eapply at_upd; eauto|]. split; [auto|]. split; [auto|]. split.
      { cbn [trep]. exists (Some ec), sz'. split; [apply at_upd_ne; [|auto]; rewrite Ez; exact A4|].
        split; [auto|]. split; [auto|]. unfold GcRep.own1. now rewrite Ho. }
      split.
      { change (all3 (rep h4 (S v)) (gc_nodes gc) (c_nodes c) Fs).
        eapply reps_chg; [exact C|exact G4|]. intros x Hx. apply Hfr.
        eapply sep_lt; [exact Hs|]. apply in_or_app. now left. }
      unfold GcRep.own1. now rewrite Ho. }
    split.
    { intros x. specialize (Hs x). rewrite Lh, !lt1_S. unfold r, n, h1. rewrite app_length.
      cbn [length]. rewrite Nat.add_1_r. occs. la. }
    eapply still_chg; [exact C|]. intros x Hx. apply Hfr. eapply sep_lt; [exact Hs|]. apply in_or_app. now right.
  - inversion G4 as [E1 E2 E3|a n F la ln lF Hr G4' E1 E2 E3]; subst.
    { rewrite <- E2 in Hlen. change (lenN (@nil (node T))) with 0 in Hlen. lia. }
    rewrite <- E2 in *. assert (ln = []) as -> by (apply lenN_0; rewrite lenN_cons in *; lia).
    inversion G4'; subst. specialize (Hrel ltac:(easy)). inversion Hrel as [|? ? R1 R2]; subst. inversion Hwf; subst.
    destruct n as [|[sz|] cs]; cbn in R1; try easy.
    destruct (gsrc_rel B BL mine h v a sz cs F Hr ltac:(assumption)) as (r & Er & _). run Er.
    exists v, a, h, (Inner (Some sz) cs), F. split; [reflexivity|]. split; [reflexivity|]. split; [exact Hr|].
    split; [|apply still_refl]. intros x. specialize (Hs x). cbn [List.concat] in Hs. rewrite app_nil_r in Hs. exact Hs.
Qed.

(** ** concat_trees_mut *)
Lemma trees_run ec el er l rl h g1 lp lels F1 gt tp tels Ft a2 rroot F2 R :
  mine ec = true -> mine el = true -> mine er = true ->
  glp h (S l) g1 lp lels F1 -> gtp h gt tp tels Ft -> rep h (S rl) a2 rroot F2 -> wf (S rl) rroot ->
  sh rl < 32 -> nsize rroot <= 2 ^ 32 -> spn (S rl) rroot -> sep (length h) (F1 ++ Ft ++ F2 ++ R) ->
  exists l' a h' n F, gconcat_trees B BL ec el g1 (S l) gt er a2 (S rl) (nsize rroot) h = Ok ((S l', a), h') /\
    concat_trees B BL lp (S l) tp rroot (S rl) (nsize rroot) = Ok (S l', n) /\
    rep h' (S l') a n F /\ sep (length h') (F ++ R) /\ still h h' R.
Proof.
  intros Hec Hel Her Hl Ht Hr2 Hw Hsh H32 Hsp Hs. unfold gconcat_trees, concat_trees.
  destruct (gp_maybe _ _ _ _ _ Hr2 Hw) as (g2 & Eg & Hg & _). run Eg.
  destruct (maybe_relaxed_ok B BL rl rroot Hw) as (q & Eq & Hq & Hsq). rewrite Eq. cbn [rbind].
  destruct (inners_run ec el er Hec Hel Her (S l + S rl) l rl h g1 lp lels F1 gt tp tels Ft g2 q rroot F2 R (le_n _) Hl Ht Hg Hq Hsq Hsh H32 Hsp Hs)
    as (gc & h1 & c & Fs & E1 & Ec & Hc & Hs1 & S1).
  run E1. rewrite Ec. cbn [rbind].
  destruct (glp_ok _ _ _ _ _ _ Hl) as [Hl1 _].
  destruct (concat_inners_ok B BL (S l + S rl) l rl lp tp q lels tels rroot (le_n _) Hl1 (gtp_ok _ _ _ _ _ Ht) Hq Hsq Hsh H32) as (c' & Ec' & Hco).
  rewrite Ec in Ec'. injection Ec' as <-.
  change (Nat.max (S l) (S rl)) with (S (Nat.max l rl)) in *.
  destruct (realize_run _ _ _ _ _ _ _ ec Hec Hc Hco Hs1) as (l' & a & h2 & n & F & E2 & Er & Hrep & Hs2 & S2).
  exists l', a, h2, n, F. split; [exact E2|]. split; [exact Er|]. split; [auto|]. split; [auto|].
  eapply still_trans; eauto.
Qed.

(** ** concat_mut of a right operand that is more than a tail *)
Definition gtrep (h : heap) (x : gtree) (t : tree T) (F : list nat) : Prop :=
  gt_size x = size t /\ gt_lv x = lv t /\
  exists Fr Ft, rep h (S (lv t)) (gt_root x) (root t) Fr /\ rep h O (gt_tail x) (tail t) Ft /\ F = Fr ++ Ft.

Lemma gtail_offset_ok h x t F : gtrep h x t F -> inv B BL t -> gtail_offset BL x h = Ok (nsize (root t), h).
Proof.
  intros (E1 & E2 & Fr & Ft & Hr & _ & _) Hi. assert (1 <= B) as HB1 by lia.
  pose proof (tail_offset_ok B BL HB1 t Hi) as Et. pose proof Hi as (xs & _ & _ & _ & _ & Hroot).
  unfold gtail_offset. unfold tail_offset in Et. destruct (root t) as [|[sz|] cs] eqn:Er; [easy| |].
  - destruct Hroot as [[? _]|Hw]; [easy|].
    destruct (gsrc_rel B BL mine h (lv t) _ sz cs Fr Hr Hw) as (r & _ & Ec & Ez & Ei & _). run Ei. run Ec.
    assert (0 < lenN cs) by (destruct Hw as ([? _] & _); lia).
    destruct (N.eqb_spec (lenN cs) 0); [lia|]. exact Ez.
  - cbn [GcRep.rep] in Hr. destruct Hr as (o & r & ks & cs0 & Fr0 & Fs & Hat & _ & _ & Htr & _).
    destruct r as [r|]; cbn [trep] in Htr; [easy|]. run (ginner_ok _ _ _ _ _ Hat). rewrite E1.
    injection Et as Et. rewrite Et. reflexivity.
Qed.

Lemma mut_run ec el er h x y t r F1 F2 R :
  mine ec = true -> mine el = true -> mine er = true ->
  gtrep h x t F1 -> gtrep h y r F2 -> inv B BL t -> inv B BL r -> 0 < size t -> 0 < nsize (root r) ->
  spn (S (lv t)) (root t) -> spn (S (lv r)) (root r) -> sh (lv r) < 32 -> nsize (root r) <= 2 ^ 32 ->
  sep (length h) (F1 ++ F2 ++ R) ->
  exists z h' t' F, gconcat_mut B BL ec el er x y h = Ok (z, h') /\ concat B BL t r = Ok t' /\
    gtrep h' z t' F /\ sep (length h') (F ++ R) /\ still h h' R.
Proof.
  intros Hec Hel Her Hx Hy Ht Hr Hst Hsr Hsp1 Hsp2 Hsh H32 Hs. assert (1 <= B) as HB1 by lia.
  pose proof (gtail_offset_ok _ _ _ _ Hx Ht) as Gx. pose proof (gtail_offset_ok _ _ _ _ Hy Hr) as Gy.
  pose proof (tail_offset_ok B BL HB1 t Ht) as Eto. pose proof (tail_offset_ok B BL HB1 r Hr) as Ero.
  pose proof Ht as (xs & Et & Hts & Htle & Htpos & Htr). fold (root_ok B BL (lv t) (root t)) in Htr.
  pose proof Hr as (ys & Er & Hrs & Hrle & Hrpos & Hrr). fold (root_ok B BL (lv r) (root r)) in Hrr.
  destruct Hx as (X1 & X2 & Fr1 & Ft1 & X3 & X4 & ->). destruct Hy as (Y1 & Y2 & Fr2 & Ft2 & Y3 & Y4 & ->).
  unfold gconcat_mut, concat. run Gy. run Gx.
  destruct (N.eqb_spec (size t) 0); [lia|]. destruct (N.eqb_spec (size r) 0); [lia|].
  rewrite Ero. cbn [rbind]. rewrite Eto. cbn [rbind]. rewrite X1, X2, Y1, Y2.
  replace (size t - nsize (root t)) with (lenN xs) by lia.
  destruct (N.eqb_spec (nsize (root r)) 0); [lia|].
  assert (wf (S (lv r)) (root r)) as Hwr by (eapply root_pos; eauto).
  rewrite Et in X4.
  destruct (N.eqb_spec (nsize (root t)) 0) as [Zto|Zto].
  - destruct (trees_run ec el er O (lv r) h (GSingle (gt_tail x) (lenN xs)) (PSingle (Leaf xs) (lenN xs)) xs Ft1 GNone PNone [] []
      (gt_root y) (root r) Fr2 (Ft2 ++ R) Hec Hel Her) as (l' & a & h' & n' & F & E1 & E2 & K1 & K2 & K3); auto.
    { left. split; [reflexivity|]. split; [eauto|]. split; [reflexivity|]. lia. }
    { left. auto. }
    { intros z. specialize (Hs z). occs. la. }
    run E1. rewrite Et. change (S O) with 1%nat in E2. rewrite E2. cbn [rbind].
    eexists. exists h'. eexists. exists (F ++ Ft2). split; [reflexivity|]. split; [reflexivity|]. split.
    { split; [reflexivity|]. split; [reflexivity|]. exists F, Ft2. split; [exact K1|]. split; [|reflexivity].
      eapply still_rep; [exact K3|exact Y4|]. intros z Hz. apply in_or_app. now left. }
    split; [intros z; specialize (K2 z); occs; la|]. eapply still_sub; [exact K3|]. intros z Hz. apply in_or_app. now right.
  - assert (wf (S (lv t)) (root t)) as Hwt by (eapply root_pos; eauto; lia).
    destruct (maybe_relaxed_ok B BL (lv t) (root t) Hwt) as (q & Eq & Hq & Hsq). rewrite Eq.
    destruct (gp_maybe _ _ _ _ _ X3 Hwt) as (g & Eg & Hg & Hnf).
    cbn [rbind]. unfold mk_reg. destruct (N.eqb_spec (lenN xs) 0); [lia|]. cbn [rbind].
    destruct (trees_run ec el er (lv t) (lv r) h g q (elems (root t)) Fr1 (GReg (gt_tail x) (lenN xs)) (PReg (Leaf xs) (lenN xs)) xs Ft1
      (gt_root y) (root r) Fr2 (Ft2 ++ R) Hec Hel Her) as (l' & a & h' & n' & F & E1 & E2 & K1 & K2 & K3); auto.
    { right. exists (root t). split; [auto|]. split; [auto|]. split; [auto|]. split; [auto|]. split; [|auto].
      apply (child_not_full B BL (S (lv t)) (root t) (nsize (root t))). exact Eq. }
    { right. exists (gt_tail x). split; [auto|]. split; [auto|]. split; [lia|auto]. }
    { intros z. specialize (Hs z). occs. la. }
    match goal with |- context [gbind ?m ?k h] => assert (m h = Ok ((S l', a), h')) as E3 end.
    { run Eg. exact E1. }
    run E3. rewrite Et, E2. cbn [rbind].
    eexists. exists h'. eexists. exists (F ++ Ft2). split; [reflexivity|]. split; [reflexivity|]. split.
    { split; [reflexivity|]. split; [reflexivity|]. exists F, Ft2. split; [exact K1|]. split; [|reflexivity].
      eapply still_rep; [exact K3|exact Y4|]. intros z Hz. apply in_or_app. now left. }
    split; [intros z; specialize (K2 z); occs; la|]. eapply still_sub; [exact K3|]. intros z Hz. apply in_or_app. now right.
Qed.
End Tree.
