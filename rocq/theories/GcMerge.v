(** The merger of the in-place concatenation: all nodes of the input are visited, while the nodes
    of the two sides they come from may be overwritten. *)
From Coq Require Import List NArith Arith Bool Lia ZifyN ZifyNat ZifyBool.
From Verif Require Import Common NList Rrb RrbInv RrbPos RrbOps RrbSlice RrbMerge RrbConcat GcConcat GcPlan GcRep
  GcAdd GcLeaf GcInner GcVisit GcLoop.
Import ListNotations.
Local Open Scope N_scope.

Set Default Goal Selector "!".

Section Merge.
Variables B BL : N.
Context {T : Type}.
Variable mine : token -> bool.
Notation sh := (sh B BL).
Notation width := (width B).
Notation lwidth := (lwidth BL).
Notation heap := (gheap T).
Notation rep := (@rep B BL T mine).
Notation ow := (ow mine).
Notation own1 := (own1 mine).
Notation chg := (@chg T mine).
Notation wf := (@wf T B BL).
Notation posl := (@posl T B BL).
Notation pat := (@pat B BL T mine).
Notation core := (@core B BL T mine).
Notation gsrc := (@gsrc B BL T mine).
Notation eff := (@eff B T).
Notation mst := (@mst B BL T mine).
Notation still := (@still T mine).
Notation whole := (@whole B T).
Notation kst := (@kst T mine).
Notation tst := (@tst T mine).
Notation gcont := (@gcont B BL T).

Lemma merge_all_app cl (m : @merger T) u v m1 : merge_all B BL cl m u = Ok m1 ->
  merge_all B BL cl m (u ++ v) = merge_all B BL cl m1 v.
Proof.
  revert m. induction u as [|p u IH]; intros m; cbn [merge_all app].
  - now intros [= ->].
  - destruct (match cl with O => _ | _ => _ end) as [m'|]; cbn [rbind]; [apply IH|easy].
Qed.
Lemma posl_snoc_inv cl vps ns n : posl cl vps (ns ++ [n]) ->
  exists v p, vps = v ++ [p] /\ posl cl v ns /\ pos_ok B BL cl p n /\ is_sub p = true.
Proof.
  intros H. apply Forall2_app_inv_r in H as (v & w & H1 & H2 & ->).
  inversion H2 as [|p ? ? ? [Hp Hs] H3]; subst. inversion H3; subst. eauto 7.
Qed.

(** ** Phases *)
Section Phase.
Variables (cl : nat) (plan : list N) (ec e : token).
Hypothesis H3 : lenN plan <= 3 * width.
Hypothesis Hec : mine ec = true.
Hypothesis He : mine e = true.
(** Nodes visited in earlier phases, counts of those of later ones, the blocks that are left
    alone, the heap at the start and the candidate. *)
Variables (hist : list (node T)) (post : list N) (R0 : list nat) (h0 : heap) (Cn : option (token * nat)).

Definition wholes (rest : list (node T)) : Prop :=
  forall u n v, rest = u ++ n :: v -> whole cl n \/ v = [] /\ post = [].
Definition binv (vis rest : list (node T)) (cs : list nat) (Fs : list (list nat))
    (q : pdesc) (CF : list nat) (t : tdesc) (M : gmerger) (h : heap) : Prop :=
  exists m prod ps,
    mst cl plan m prod M ps q CF t h (List.concat Fs ++ R0) (map ncount rest ++ post) /\
    (forall vps, posl cl vps (hist ++ vis) -> merge_all B BL cl (merger_init B plan) vps = Ok m) /\
    all3 (rep h cl) cs rest Fs /\ Forall (wf cl) rest /\ wholes rest /\
    (gm_cand M = None \/ gm_cand M = Cn) /\ still h0 h R0.

Lemma bstep vis n rest c cs F Fs q CF t M h g :
  binv vis (n :: rest) (c :: cs) (F :: Fs) q CF t M h -> gsrc h cl g n F ->
  exists q' CF' t' M' h', gvisit B BL cl ec e M g h = Ok (M', h') /\
    binv (vis ++ [n]) rest cs Fs q' CF' t' M' h' /\ still h h' R0 /\
    (exists ps ps', eff h h' M ps q CF t n M' ps' q' CF' t') /\ exists nn, pat h' cl q' nn.
Proof.
  intros (m & prod & ps & Hm & Hv & Ha & Hw & Hwh & Hc & Hst) Hg.
  inversion Hw as [|? ? Hwn Hwr]; subst. inversion Ha as [|? ? ? ? ? ? Hr Har]; subst.
  cbn [map List.concat] in Hm. cbn [app] in Hm. rewrite <- app_assoc in Hm.
  destruct (visit_ok B BL mine cl plan m prod M ps q CF t h ec e g n F _ _ Hm Hg Hwn H3 He Hec) as
    (m' & prod' & M' & ps' & q' & CF' & t' & h' & E1 & E2 & Hm' & Hst' & Heff).
  { destruct (Hwh [] n rest eq_refl) as [Hh|[-> ->]]; [now left|now right]. }
  exists q', CF', t', M', h'. split; [exact E1|].
  assert (still h h' R0) as Hst0 by (eapply still_sub; [exact Hst'|]; intros; apply in_or_app; auto).
  split.
  { exists m', prod', ps'. split; [exact Hm'|]. split.
    { intros vps Hp. rewrite app_assoc in Hp. apply posl_snoc_inv in Hp as (v & p & -> & Hp1 & Hp2 & Hp3).
      rewrite (merge_all_app _ _ _ _ _ (Hv v Hp1)). cbn [merge_all]. specialize (E2 p Hp2 Hp3).
      unfold vmerge in E2. rewrite E2. reflexivity. }
    split.
    { eapply still_reps; [exact Hst'|exact Har|]. intros; apply in_or_app; auto. }
    split; [auto|]. split.
    { intros u n' v ->. apply (Hwh (n :: u) n' v eq_refl). }
    split.
    { destruct Heff as (_ & _ & _ & [(_ & _ & _ & _ & -> & _)|(_ & _ & -> & _)]); auto. }
    eapply still_trans; eauto. }
  split; [exact Hst0|]. split; [eauto|]. exact (co_pat _ _ _ _ _ _ _ _ _ _ _ _ (ms_core _ _ _ _ _ _ _ _ _ _ _ _ _ _ _ Hm')).
Qed.

(** The centre. *)
Definition cinv (vis rest : list (node T)) (cs : list nat) (M : gmerger) (h : heap) : Prop :=
  exists Fs q CF t, binv vis rest cs Fs q CF t M h.
Lemma cinv_turns : cturns B BL mine (gvisit B BL cl ec e) cl cinv.
Proof.
  intros vis n rest cs s h (Fs & q & CF & t & Hb).
  pose proof Hb as (m & prod & ps & Hm & Hv & Ha & Hw & Hwh & Hc & Hst).
  inversion Ha as [|c ? F cs' ? Fs' Hr Har]; subst. inversion Hw as [|? ? Hwn Hwr]; subst.
  exists c, cs', F. split; [reflexivity|]. split; [auto|]. split; [auto|]. intros g Hg.
  destruct (bstep _ _ _ _ _ _ _ _ _ _ _ _ _ Hb Hg) as (q' & CF' & t' & M' & h' & E & Hb' & _).
  exists M', h'. split; [exact E|]. exists Fs', q', CF', t'. exact Hb'.
Qed.
Lemma cinv_nil vis cs s h : cinv vis [] cs s h -> cs = [].
Proof. intros (Fs & q & CF & t & m & prod & ps & _ & _ & Ha & _). now inversion Ha. Qed.

(** A side whose node at [a] with the table [ro] is read meanwhile. *)
Variables (a : nat) (ro : option nat) (pre0 : list (node T)) (K W0 : N).
Hypothesis HW0 : W0 <= width.
Definition linv (vis rest : list (node T)) (M : gmerger) (h : heap) : Prop :=
  exists cs Fs q CF t, binv vis rest cs Fs q CF t M h /\
    lenN (pre0 ++ vis) + lenN rest = W0 /\
    kst h R0 M CF q a (lenN (pre0 ++ vis)) cs /\
    (forall r, ro = Some r ->
       tst h R0 M CF q r (Some K) (lenN (pre0 ++ vis)) (sums (csize (pre0 ++ vis)) (map nsize rest))) /\
    (a = pa q \/ ro = Some (pr q) -> same q t (pre0 ++ vis)) /\
    cand_is M a (lenN (pre0 ++ vis)).

Lemma linv_turns : turns B BL mine (gvisit B BL cl ec e) cl a ro pre0 linv.
Proof.
  intros vis n rest s h (cs & Fs & q & CF & t & Hb & Hle & Hk & Ht & Hsm & Hcd).
  pose proof Hb as (m & prod & ps & Hm & Hv & Ha & Hw & Hwh & Hc & Hst).
  inversion Ha as [|c ? F cs' ? Fs' Hr Har]; subst. inversion Hw as [|? ? Hwn Hwr]; subst.
  exists c, F. split.
  { destruct Hk as (o & rk & ks & Hka & Hke & _). eapply gkid_ok; [exact Hka|]. eapply ents_hd; eauto. }
  split; [auto|]. split; [auto|]. split.
  { intros r Er. destruct (Ht r Er) as (o & sl & Hta & Hte & _). eapply gsize_ok; [exact Hta|].
    cbn [map sums] in Hte. eapply ents_hd; eauto. }
  intros g Hg.
  destruct (bstep _ _ _ _ _ _ _ _ _ _ _ _ _ Hb Hg) as (q' & CF' & t' & M' & h' & E & Hb' & Hst' & (p1 & p2 & Heff) & nn & Hpat).
  exists M', h'. split; [exact E|]. rewrite lenN_cons in Hle.
  assert (lenN (pre0 ++ vis) < width) as Hlt by lia.
  destruct (track B mine h h' R0 s p1 q CF t n M' p2 q' CF' t' a ro (Some K) (pre0 ++ vis) c cs' rest
    (csize (pre0 ++ vis)) Heff Hst' Hk Ht Hsm Hlt Hcd) as (K1 & K2 & K3 & K4).
  rewrite <- app_assoc in *. split.
  - exists cs', Fs', q', CF', t'. split; [exact Hb'|]. split.
    { rewrite app_assoc, lenN_snoc. lia. }
    split; [exact K1|]. split.
    { intros r Er. specialize (K2 r Er). rewrite (app_assoc pre0 vis), (csize_app (pre0 ++ vis) [n]), csize_cons, csize_nil, N.add_0_r,
        <- app_assoc. exact K2. }
    split; [exact K3|exact K4].
  - intros r Er. destruct (track_prev B BL mine cl nn h h' R0 s p1 q CF t n M' p2 q' CF' t' a r (Some K) (pre0 ++ vis) c cs' rest
      (csize (pre0 ++ vis)) Heff Hst' Hk (Ht r Er)) as (o & sl & Hx & Hy); auto.
    { intros ->. apply Hsm. now right. }
    eapply gsize_ok; eauto.
Qed.
Lemma linv_count vis rest s h r : ro = Some r -> linv vis rest s h -> gcount r h = Ok (K, h).
Proof.
  intros Er (cs & Fs & q & CF & t & _ & _ & _ & Ht & _). destruct (Ht r Er) as (o & sl & Hr & _).
  eapply gcount_ok; eauto.
Qed.
End Phase.

(** ** Sides *)
Definition table_of (n : node T) : option (list N) := match n with Inner sz _ => sz | Leaf _ => None end.
(** [p] is the position of the node [n], whose children are [pre0 ++ vs ++ aft]; those of [vs]
    are at [cs], with the blocks [Fs] that may be overwritten.  [FC] are those of the node itself. *)
Definition side (h : heap) (cl : nat) (p : gpos) (n : node T) (pre0 vs aft : list (node T)) (FC : list nat)
    (cs : list nat) (Fs : list (list nat)) : Prop :=
  exists a ro o ks Fr, gcont cl p n a ro /\ kids n = pre0 ++ vs ++ aft /\ at_ h a o (GInner ro ks) /\
    ents (lenN pre0) cs ks /\ (ow o = true -> lenN ks = width) /\ trep B mine h ro (table_of n) Fr /\
    all3 (rep h cl) cs vs Fs /\ FC = own1 o a ++ Fr.

Lemma side_still h h' R cl p n pre0 vs aft FC cs Fs : still h h' R -> (forall x, In x (FC ++ List.concat Fs) -> In x R) ->
  side h cl p n pre0 vs aft FC cs Fs -> side h' cl p n pre0 vs aft FC cs Fs.
Proof.
  intros Hs Hi (a & ro & o & ks & Fr & H1 & H2 & H3 & H4 & H5 & H6 & H7 & ->).
  exists a, ro, o, ks, Fr. split; [auto|]. split; [auto|].
  split; [eapply still_at; [exact Hs|exact H3|]; intros; apply Hi; rewrite !in_app_iff; auto|].
  split; [auto|]. split; [auto|].
  split; [eapply still_trep; [exact Hs|exact H6|]; intros; apply Hi; rewrite !in_app_iff; auto|].
  split; [eapply still_reps; [exact Hs|exact H7|]; intros; apply Hi; rewrite !in_app_iff; auto|]. auto.
Qed.
Lemma rel_sizes cl n sz : wf (S cl) n -> table_of n = Some sz -> sz = sums 0 (map nsize (kids n)) /\ is_rel n = true.
Proof. destruct n as [|[z|] ks]; cbn; try easy. now intros (_ & _ & ->) [= <-]. Qed.

(** The candidate a side gives. *)
Lemma side_cand h cl p n pre0 vs aft FC cs Fs e : side h cl p n pre0 vs aft FC cs Fs -> mine e = true ->
  gcandidate p e h = Ok (None, h) \/
  exists a, gcandidate p e h = Ok (Some (e, a), h) /\ cand_ok B mine h (Some (e, a)) FC /\ gnode p = Some a.
Proof.
  intros (a & ro & o & ks & Fr & [Hw Hg] & Hk & Ha & He & Hc & Ht & H3 & ->) Hm.
  assert (gnode p = Some a) as En.
  { destruct p; cbn [gnode]; try easy; destruct Hg as (-> & _); reflexivity. }
  unfold gcandidate. rewrite En. rewrite (gbind_ok _ _ _ _ _ (gcan_mutate_ok _ _ _ _ e Ha)).
  destruct (owned_by (mkG o (GInner ro ks)) e) eqn:Eb; [|left; reflexivity].
  right. destruct (owned_by_ow mine _ _ _ Hm Eb) as [-> Ho]. exists a. split; [reflexivity|]. split; [|auto].
  exists ks, ro, Fr. split; [auto|]. split; [auto|]. split; [auto|]. split.
  - destruct ro as [r|]; cbn [trep tab_ok] in *.
    + destruct (table_of n) as [sz|] eqn:Et; [|easy]. destruct Ht as (o2 & sl & T1 & T2 & T3 & T4).
      exists o2, sz, sl. split; [auto|]. split; [auto|]. split; [|auto].
      destruct (rel_sizes _ _ _ Hw Et) as [-> _]. rewrite lenN_sums, lenN_map. now apply (wf_count_le _ _ _ _ Hw).
    + now destruct (table_of n).
  - unfold GcRep.own1. rewrite Ho. reflexivity.
Qed.

(** The merger at the start. *)
Lemma init_ok cl plan ec h lc CF R counts :
  cand_ok B mine h lc CF -> mine ec = true -> sep (length h) (CF ++ R) -> flow 0 plan counts ->
  Forall (fun c => 1 <= c <= br B BL cl) plan ->
  exists M q CF' h', gmerger_init B ec plan lc h = Ok (M, h') /\
    mst cl plan (merger_init B plan) [] M [] q CF' TN h' R counts /\ gm_cand M = None /\
    pns q = [] /\ taken h lc CF q CF' /\ kept h h' CF' /\ chg h h' CF /\
    ktl h h' (pa q) 0 /\ ttl h h' (pr q) 0.
Proof.
  intros Hc Hec Hs Hf Hb.
  destruct (next_parent B BL mine h cl lc CF ec Hc Hec) as (q & n & CF' & h' & E & C & P & En & EF & Ek & Hsep & Htk & Hkp & K1 & K2).
  { intros x. specialize (Hs x). occs. la. }
  eexists. exists q, CF', h'. split.
  { unfold gmerger_init. rewrite (gbind_ok _ _ _ _ _ E). reflexivity. }
  split.
  { constructor.
    - constructor; cbn [merger_init gm_curr gm_nodes gm_sizes gm_cnt gm_cand m_curr m_sizes m_par m_done p_kids map rev app].
      + apply minv_init.
      + reflexivity.
      + reflexivity.
      + reflexivity.
      + rewrite En. reflexivity.
      + now rewrite En.
      + reflexivity.
      + eauto.
      + constructor.
      + intros x Hx. destruct (taken_in _ _ _ _ _ Htk) as (_ & _ & Hi).
        destruct (cand_owned _ _ _ _ _ x Hc (Hi x Hx)) as (c & Hx1 & Hx2). exists c. split; [|auto].
        destruct c as [co cb]. apply (Hkp x co cb Hx Hx1).
    - split; reflexivity.
    - exact Hf.
    - exact Hb.
    - specialize (Hsep R Hs). unfold fps. cbn [map List.concat app tfp]. exact Hsep. }
  auto 10.
Qed.

Lemma side_tab (h : heap) cl n pre0 vs aft ro Fr r : trep B mine h ro (table_of n) Fr -> wf (S cl) n ->
  kids n = pre0 ++ vs ++ aft -> ro = Some r ->
  exists o sl, at_ h r o (GTable (Some (lenN (kids n))) sl) /\ ents (lenN pre0) (sums (csize pre0) (map nsize vs)) sl /\
    pre (sums 0 (map nsize (kids n))) sl /\ Fr = own1 o r.
Proof.
  intros Ht Hw Ek ->. cbn [trep] in Ht. destruct (table_of n) as [sz|] eqn:Et; [|easy].
  destruct Ht as (o & sl & H1 & H2 & H3 & H4). destruct (rel_sizes _ _ _ Hw Et) as [Es _].
  exists o, sl. rewrite Es, lenN_sums, lenN_map in H1. split; [auto|]. rewrite Es in H2.
  split; [|auto]. rewrite Ek, !map_app, !sums_app in H2. rewrite app_assoc in H2. apply pre_app in H2.
  apply ents_pre in H2. rewrite lenN_sums, lenN_map, N.add_0_l in H2. exact H2.
Qed.

(** A side may be missing. *)
Definition lsd (h : heap) (cl : nat) (p : gpos) (vs : list (node T)) (FC : list nat) (Fs : list (list nat)) : Prop :=
  (p = GNone \/ exists y c, p = GSingle y c) /\ vs = [] /\ FC = [] /\ Fs = [] \/
  exists n x cs, side h cl p n [] vs [x] FC cs Fs /\ match p with GFull _ => False | _ => True end.
Definition rsd (h : heap) (cl : nat) (p : gpos) (vs : list (node T)) (FC : list nat) (Fs : list (list nat)) : Prop :=
  p = GNone /\ vs = [] /\ FC = [] /\ Fs = [] \/
  exists n x cs, side h cl p n [x] vs [] FC cs Fs /\ sh cl < 32 /\ nsize n <= 2 ^ 32.

(** The left side. *)
Lemma left_run cl plan ec e h lp ls FC Fs R post :
  lsd h cl lp ls FC Fs -> mine e = true -> mine ec = true -> lenN plan <= 3 * width ->
  sep (length h) (FC ++ List.concat Fs ++ R) -> flow 0 plan (map ncount ls ++ post) ->
  Forall (fun c => 1 <= c <= br B BL cl) plan -> Forall (wf cl) ls -> wholes cl post ls ->
  exists lc M0 h0 M1 h1 q CF t X,
    gcandidate lp e h = Ok (lc, h) /\ gmerger_init B ec plan lc h = Ok (M0, h0) /\
    gleft_subs B BL (gvisit B BL cl ec e) cl lp M0 h0 = Ok (M1, h1) /\
    binv cl plan [] post (X ++ R) h None ls [] [] [] q CF t M1 h1.
Proof.
  intros Hl He Hec H3 Hs Hf Hb Hw Hwh.
  destruct Hl as [(Hp & -> & -> & ->)|(n & x & cs & Hsd & Hnf)].
  - (* nothing on the left *)
    destruct (init_ok cl plan ec h None [] R post) as (M & q & CF' & h' & E & Hm & Hcn & En & Htk & Hkp & C & K1 & K2); auto.
    { intros y Hy. easy. }
    exists None, M, h', M, h', q, CF', TN, [].
    split; [destruct Hp as [->|(y & c & ->)]; reflexivity|]. split; [exact E|].
    split; [destruct Hp as [->|(y & c & ->)]; reflexivity|].
    exists (merger_init B plan), [], []. split; [exact Hm|]. split.
    { intros vps Hv. inversion Hv; subst. reflexivity. }
    split; [constructor|]. split; [constructor|]. split; [exact Hwh|]. split; [auto|].
    eapply still_chg; [exact C|easy].
  - pose proof Hsd as (a & ro & o & ks & Fr & Hg & Hk & Ha & Hen & Hc & Ht & H3' & EFC).
    assert (wf (S cl) n) as Hwn by apply Hg.
    assert (lenN ls <= width) as Hlw.
    { pose proof (wf_count_le _ _ _ _ Hwn) as Z. rewrite Hk, !lenN_app in Z. la. }
    assert (exists lc M0 h0 X, gcandidate lp e h = Ok (lc, h) /\ gmerger_init B ec plan lc h = Ok (M0, h0) /\
      linv cl plan [] post (X ++ R) h None a ro [] (lenN (kids n)) (lenN ls) [] ls M0 h0) as (lc & M0 & h0 & X & E1 & E2 & Hli).
    { destruct (side_cand _ _ _ _ _ _ _ _ _ _ e Hsd He) as [Ec|(a' & Ec & Hco & Hga)].
      - (* the node is left as it is *)
        destruct (init_ok cl plan ec h None [] (List.concat Fs ++ FC ++ R) (map ncount ls ++ post)) as
          (M & q & CF' & h' & E & Hm & Hcn & En & Htk & Hkp & C & K1 & K2); auto.
        { intros y Hy. easy. }
        { intros y. specialize (Hs y). occs. la. }
        exists None, M, h', FC. split; [exact Ec|]. split; [exact E|].
        assert (still h h' (FC ++ R)) as Hst by (eapply still_chg; [exact C|easy]).
        exists cs, Fs, q, CF', TN. split.
        { exists (merger_init B plan), [], []. split; [exact Hm|]. split.
          { intros vps Hv. inversion Hv; subst. reflexivity. }
          split; [eapply reps_chg; [exact C|exact H3'|auto]|]. split; [auto|]. split; [exact Hwh|]. split; [auto|exact Hst]. }
        split; [reflexivity|]. split.
        { exists o, ro, ks. split; [eapply chg_at; [exact C|exact Ha|easy]|]. split; [exact Hen|]. left.
          intros y Hy. rewrite EFC, !in_app_iff. auto. }
        split.
        { intros r Er. destruct (side_tab h cl n [] ls [x] ro Fr r Ht Hwn Hk Er) as (o2 & sl & T1 & T2 & _ & T4).
          exists o2, sl. split; [eapply chg_at; [exact C|exact T1|easy]|]. split; [exact T2|]. left.
          intros y Hy. rewrite EFC, T4, !in_app_iff. auto. }
        split; [intros _; split; rewrite En; [rewrite lenN_nil; lia|auto]|].
        intros e' a' Z. congruence.
      - (* the node is the first parent *)
        assert (a' = a) as -> by (destruct Hg as [_ Hg]; destruct lp; cbn in Hga; try easy; destruct Hg as (-> & _); congruence).
        destruct (init_ok cl plan ec h (Some (e, a)) FC (List.concat Fs ++ R) (map ncount ls ++ post)) as
          (M & q & CF' & h' & E & Hm & Hcn & En & Htk & Hkp & C & K1 & K2); auto.
        exists (Some (e, a)), M, h', []. split; [exact Ec|]. split; [exact E|].
        assert (still h h' R) as Hst.
        { eapply still_chg; [exact C|]. eapply sep_dis; [exact Hs|]. intros y. occs. la. }
        cbn [app] in Hen |- *. cbn [taken] in Htk. destruct Htk as [Epa Htk].
        exists cs, Fs, q, CF', TN. split.
        { exists (merger_init B plan), [], []. split; [exact Hm|]. split.
          { intros vps Hv. inversion Hv; subst. reflexivity. }
          split.
          { eapply reps_chg; [exact C|exact H3'|]. eapply sep_dis; [exact Hs|]. intros y. occs. la. }
          split; [auto|]. split; [exact Hwh|]. split; [auto|exact Hst]. }
        split; [reflexivity|]. split.
        { rewrite Epa in K1. destruct (K1 o ro ks Ha) as (o' & r' & ks' & Ha' & Htl). exists o', r', ks'.
          split; [exact Ha'|]. split; [|right; right; auto]. eapply ents_tails; [exact Hen|exact Htl|]. lia. }
        split.
        { intros r Er. destruct (side_tab h cl n [] ls [x] ro Fr r Ht Hwn Hk Er) as (o2 & sl & T1 & T2 & _ & T4).
          assert (ow o = true) as Ho.
          { destruct Hco as (ks0 & ro0 & F0 & Z1 & Z2 & _). assert (o = Some e) as -> by (unfold at_ in *; congruence). exact Z1. }
          rewrite EFC in Htk. unfold GcRep.own1 in Htk at 1 2. rewrite Ho in Htk. cbn [app] in Htk.
          destruct Htk as [[Z ->]|[Z Hle]].
          + injection Z as Z. rewrite T4 in Z. unfold GcRep.own1 in Z. destruct (ow o2) eqn:Eo2; [|easy]. injection Z as Z. subst r.
            destruct (K2 o2 _ sl T1) as (o' & sl' & Hr' & Htl). exists o', sl'. split; [exact Hr'|].
            split; [|right; right; auto]. eapply ents_tails; [exact T2|exact Htl|]. lia.
          + injection Z as <-. exists o2, sl. rewrite T4 in *. unfold GcRep.own1 in *. destruct (ow o2) eqn:Eo2.
            * split; [apply Hkp; [now left|exact T1]|]. split; [exact T2|]. right. left. now left.
            * split; [|split; [exact T2|left; easy]]. eapply chg_at_own; [exact C|exact T1|].
              unfold GcRep.own1. rewrite Eo2. easy. }
        split; [intros _; split; rewrite En; [rewrite lenN_nil; lia|auto]|].
        intros e' a' Z. congruence. }
    destruct (left_loop B BL mine (gvisit B BL cl ec e) cl lp n a ro
      (linv cl plan [] post (X ++ R) h None a ro [] (lenN (kids n)) (lenN ls)) ls x M0 h0) as (M1 & h1 & E3 & Hli').
    + exact Hg.
    + exact Hnf.
    + exact Hk.
    + apply linv_turns; auto.
    + intros r Er. eapply linv_count; [exact Er|exact Hli].
    + exact Hli.
    + destruct Hli' as (cs1 & Fs1 & q & CF & t & Hbi & _). exists lc, M0, h0, M1, h1, q, CF, t, X.
      split; [exact E1|]. split; [exact E2|]. split; [exact E3|].
      pose proof Hbi as (m & prod & ps & _ & _ & Ha3 & _). inversion Ha3; subst. exact Hbi.
Qed.

(** From one phase to the next. *)
Lemma next_phase cl plan hist post R0 h0 vis q CF t M h post' R0' rest cs Fs :
  binv cl plan hist post R0 h0 None vis [] [] [] q CF t M h -> post = map ncount rest ++ post' ->
  (forall x, occ x R0 = occ x (List.concat Fs ++ R0')) -> all3 (rep h cl) cs rest Fs -> Forall (wf cl) rest ->
  wholes cl post' rest ->
  binv cl plan (hist ++ vis) post' R0' h None [] rest cs Fs q CF t M h.
Proof.
  intros (m & prod & ps & [M1 M2 M3 M4 M5] & Hv & _ & _ & _ & Hc & _) -> Ho Ha Hw Hwh.
  exists m, prod, ps. split.
  { constructor; auto. intros x. specialize (M5 x). specialize (Ho x). occs. la. }
  split; [now rewrite app_nil_r|]. split; [auto|]. split; [auto|]. split; [auto|]. split; [tauto|apply still_refl].
Qed.

Lemma cand_still h h' R cl p n pre0 vs aft FC cs Fs e c : side h cl p n pre0 vs aft FC cs Fs -> still h h' R ->
  (forall x, In x FC -> In x R) -> gcandidate p e h = Ok (c, h) -> gcandidate p e h' = Ok (c, h').
Proof.
  intros (a & ro & o & ks & Fr & [Hw Hg] & Hk & Ha & He & Hc & Ht & H3 & ->) Hs Hi.
  assert (gnode p = Some a) as En.
  { destruct p; cbn [gnode]; try easy; destruct Hg as (-> & _); reflexivity. }
  unfold gcandidate. rewrite En. rewrite (gbind_ok _ _ _ _ _ (gcan_mutate_ok _ _ _ _ e Ha)).
  assert (at_ h' a o (GInner ro ks)) as Ha'.
  { eapply still_at; [exact Hs|exact Ha|]. intros x Hx. apply Hi, in_or_app. auto. }
  rewrite (gbind_ok _ _ _ _ _ (gcan_mutate_ok _ _ _ _ e Ha')). unfold gret. congruence.
Qed.

(** The right side. *)
Lemma set_cand cl plan m prod M ps q CF t h R cs e a CF2 R2 :
  mst cl plan m prod M ps q CF t h R cs -> gm_cand M = None -> cand_ok B mine h (Some (e, a)) CF2 ->
  (forall x, occ x R = occ x (CF2 ++ R2)) ->
  mst cl plan m prod (set_candidate M (Some (e, a))) ps q CF2 t h (CF ++ R2) cs.
Proof.
  intros [[C1 C2 C3 C4 C5 C6 C7 C8 C9 C10] M2 M3 M4 M5] Hn Hc Ho. constructor; auto.
  - constructor; auto.
  - intros x. specialize (M5 x). specialize (Ho x). occs. la.
Qed.

Lemma right_run cl plan ec e hist vis R0 hs q CF t M h rp rs FC Fs R rc :
  lenN plan <= 3 * width -> mine ec = true -> mine e = true ->
  binv cl plan hist (map ncount rs) R0 hs None vis [] [] [] q CF t M h ->
  (forall y, occ y R0 = occ y (FC ++ List.concat Fs ++ R)) ->
  rsd h cl rp rs FC Fs -> gcandidate rp e h = Ok (rc, h) -> Forall (wf cl) rs -> wholes cl [] rs ->
  exists M' h' q' CF' t' X,
    gright_subs B BL (gvisit B BL cl ec e) cl rp (set_candidate M rc) h = Ok (M', h') /\
    binv cl plan (hist ++ vis) [] (X ++ R) h rc rs [] [] [] q' CF' t' M' h'.
Proof.
  intros H3 Hec He Hb Ho Hr Erc Hw Hwh.
  destruct Hr as [(-> & -> & -> & ->)|(n & x & cs & Hsd & Hsh & H32)].
  - (* nothing on the right *)
    cbn in Erc. injection Erc as <-. exists M, h, q, CF, t, []. split; [reflexivity|].
    apply (next_phase cl plan hist [] R0 hs vis q CF t M h [] ([] ++ R) [] [] []); auto. constructor.
  - pose proof Hsd as (a & ro & o & ks & Fr & Hg & Hk & Ha & Hen & Hc & Ht & H3' & EFC).
    assert (wf (S cl) n) as Hwn by apply Hg.
    assert (lenN (kids n) = 1 + lenN rs) as Ekl.
    { rewrite Hk, app_nil_r. cbn [app]. rewrite lenN_cons. lia. }
    assert (1 + lenN rs <= width) as Hlw.
    { pose proof (wf_count_le _ _ _ _ Hwn) as Z. rewrite Ekl in Z. la. }
    pose proof Hb as (m & prod & ps & Hm & Hv & _ & _ & _ & Hcn & _).
    assert (gm_cand M = None) as HcN by tauto.
    pose proof (ms_core _ _ _ _ _ _ _ _ _ _ _ _ _ _ _ Hm) as Hco.
    destruct (co_pat _ _ _ _ _ _ _ _ _ _ _ _ Hco) as (nn & Hpat). destruct (pat_owned _ _ _ _ _ _ _ Hpat) as [Op1 Op2].
    pose proof (ms_sep _ _ _ _ _ _ _ _ _ _ _ _ _ _ _ Hm) as Hsep.
    assert (forall y, In y FC -> y <> pa q /\ y <> pr q) as Hdis.
    { intros y Hy. assert (~ In y [pa q; pr q]) as Z.
      { revert y Hy. eapply sep_dis; [exact Hsep|]. intros y. specialize (Ho y). ofs. la. }
      split; intros ->; apply Z; cbn; auto. }
    assert (a <> pa q) as Hna.
    { destruct (ow o) eqn:Eo.
      - apply Hdis. rewrite EFC. unfold GcRep.own1. rewrite Eo. now left.
      - intros ->. destruct Op1 as (c & Z1 & Z2). unfold at_ in Ha. rewrite Ha in Z1. injection Z1 as <-. cbn in Z2. congruence. }
    assert (ro <> Some (pr q)) as Hnr.
    { intros Er. destruct (side_tab h cl n [x] rs [] ro Fr _ Ht Hwn Hk Er) as (o2 & sl & T1 & _ & _ & T4).
      destruct (ow o2) eqn:Eo.
      - assert (In (pr q) FC) as Z by (rewrite EFC, T4; apply in_or_app; right; unfold GcRep.own1; rewrite Eo; now left).
        now apply Hdis in Z.
      - destruct Op2 as (c & Z1 & Z2). unfold at_ in T1. rewrite T1 in Z1. injection Z1 as <-. cbn in Z2. congruence. }
    assert (exists X, linv cl plan (hist ++ vis) [] (X ++ R) h rc a ro [x] (lenN (kids n)) (1 + lenN rs) [] rs (set_candidate M rc) h) as (X & Hli).
    { destruct (side_cand _ _ _ _ _ _ _ _ _ _ e Hsd He) as [Ec|(a' & Ec & Hcok & Hga)].
      - assert (rc = None) as -> by congruence. exists FC. exists cs, Fs, q, CF, t. cbn [set_candidate]. split.
        { apply (next_phase cl plan hist (map ncount rs) R0 hs vis q CF t M h [] (FC ++ R) rs cs Fs); auto.
          - now rewrite app_nil_r.
          - intros y. rewrite (Ho y). occs. la. }
        split; [cbn [app]; change (lenN [x]) with 1; reflexivity|]. split.
        { exists o, ro, ks. split; [exact Ha|]. split; [exact Hen|]. left. intros y Hy. rewrite EFC, !in_app_iff. auto. }
        split.
        { intros r Er. destruct (side_tab h cl n [x] rs [] ro Fr r Ht Hwn Hk Er) as (o2 & sl & T1 & T2 & _ & T4).
          exists o2, sl. split; [exact T1|]. split; [exact T2|]. left. intros y Hy. rewrite EFC, T4, !in_app_iff. auto. }
        split; [tauto|]. intros e' a' Z. congruence.
      - assert (a' = a) as -> by (destruct Hg as [_ Hg]; destruct rp; cbn in Hga; try easy; destruct Hg as (-> & _); congruence).
        assert (rc = Some (e, a)) as -> by congruence. exists CF.
        assert (ow o = true) as Ho1.
        { destruct Hcok as (ks0 & ro0 & F0 & Z1 & Z2 & _). assert (o = Some e) as -> by (unfold at_ in *; congruence). exact Z1. }
        exists cs, Fs, q, FC, t. split.
        { exists m, prod, ps. split.
          { cbn [map app] in Hm. rewrite app_nil_r. cbn [List.concat app] in Hm.
            pose proof (set_cand _ _ _ _ _ _ _ _ _ _ _ _ e a FC (List.concat Fs ++ R) Hm HcN Hcok) as Hm'.
            assert (forall y, occ y R0 = occ y (FC ++ List.concat Fs ++ R)) as Ho' by exact Ho. specialize (Hm' Ho').
            destruct Hm' as [N1 N2 N3 N4 N5]. constructor; auto. intros y. specialize (N5 y). occs. la. }
          split; [now rewrite app_nil_r|]. split; [auto|]. split; [auto|]. split; [auto|]. split; [auto|apply still_refl]. }
        split; [cbn [app]; change (lenN [x]) with 1; reflexivity|]. split.
        { exists o, ro, ks. split; [exact Ha|]. split; [exact Hen|]. right. left. split.
          - rewrite EFC. unfold GcRep.own1. rewrite Ho1. now left.
          - exists e. reflexivity. }
        split.
        { intros r Er. destruct (side_tab h cl n [x] rs [] ro Fr r Ht Hwn Hk Er) as (o2 & sl & T1 & T2 & _ & T4).
          exists o2, sl. split; [exact T1|]. split; [exact T2|]. destruct (ow o2) eqn:Eo2.
          - right. left. rewrite EFC, T4. apply in_or_app. right. unfold GcRep.own1. rewrite Eo2. now left.
          - left. unfold GcRep.own1. rewrite Eo2. easy. }
        split; [tauto|]. intros e' a' Z. cbn in Z. injection Z as _ <-. split; [reflexivity|].
        cbn [app]. change (lenN [x]) with 1. lia. }
    destruct (right_loop B BL mine (gvisit B BL cl ec e) cl rp n a ro
      (linv cl plan (hist ++ vis) [] (X ++ R) h rc a ro [x] (lenN (kids n)) (1 + lenN rs)) x rs (set_candidate M rc) h) as (M1 & h1 & E3 & Hli').
    + exact Hg.
    + rewrite Hk, app_nil_r. reflexivity.
    + apply linv_turns; auto.
    + exact Hsh.
    + exact H32.
    + intros r Er. destruct (side_tab h cl n [x] rs [] ro Fr r Ht Hwn Hk Er) as (o2 & sl & T1 & _ & T3 & _).
      eapply gsize_ok; [exact T1|]. rewrite Hk in T3. cbn [app map sums] in T3. rewrite N.add_0_l in T3.
      eapply (pre_at []); [exact T3|reflexivity].
    + intros v1 r1 s1 hh r Er Hl1. erewrite linv_count by eassumption. do 2 f_equal.
      destruct Hl1 as (? & ? & ? & ? & ? & _ & Z & _). rewrite Ekl, <- Z. cbn [app]. rewrite !lenN_cons, lenN_app. lia.
    + exact Hli.
    + destruct Hli' as (cs1 & Fs1 & q1 & CF1 & t1 & Hbi & _). exists M1, h1, q1, CF1, t1, X.
      split; [exact E3|].
      pose proof Hbi as (m' & prod' & ps' & _ & _ & Ha3 & _). inversion Ha3; subst. exact Hbi.
Qed.

(** The centre that results. *)
Definition crep (h : heap) (v : nat) (gc : gcenter) (c : center) (Fs : list (list nat)) : Prop :=
  gc_lv gc = v /\ c_lv c = v /\ gc_sizes gc = c_sizes c /\ all3 (rep h v) (gc_nodes gc) (c_nodes c) Fs.

Lemma pats_all3 h cl ps : Forall (fun q => pat h cl q (Some (lenN (pns q)))) ps ->
  all3 (rep h (S cl)) (map pa ps) (map (fun q => Inner (Some (psz q)) (pns q)) ps) (map pfp ps).
Proof. induction 1; cbn [map]; constructor; auto. now apply pat_rep. Qed.

Lemma finish_ok cl plan hist R0 h0 Cn vis q CF t M h :
  binv cl plan hist [] R0 h0 Cn vis [] [] [] q CF t M h ->
  exists gc h' m c Fs, gfinish cl M h = Ok (gc, h') /\
    (forall vps, posl cl vps (hist ++ vis) -> merge_all B BL cl (merger_init B plan) vps = Ok m) /\
    merger_finish cl m = Ok c /\ crep h' (S cl) gc c Fs /\
    sep (length h') (List.concat Fs ++ R0) /\ still h h' R0.
Proof.
  intros (m & prod & ps & [M1 M2 M3 M4 M5] & Hv & _ & _ & _ & Hc & _).
  cbn [map app List.concat] in M3, M5. cbn [flow] in M3.
  assert (toff t = 0) as Ht0 by (destruct (m_curr m); [exact M3|easy]).
  assert (t = TN) as ->.
  { destruct t as [|ta xs|tq]; cbn [toff tat] in *; [reflexivity| |]; exfalso.
    - destruct M2 as (_ & _ & _ & _ & Z & _). apply Z. now apply lenN_0.
    - destruct M2 as (l & n & _ & _ & _ & _ & _ & Z & _). apply Z. now apply lenN_0. }
  destruct M2 as [Eto Emto]. destruct M1 as [C1 C2 C3 C4 C5 C6 C7 C8 C9 C10].
  destruct C8 as (nn & Hp).
  destruct (count_pat B BL mine h cl q nn (lenN (pns q)) Hp) as (h' & E & L & C & Hp').
  { intros x. specialize (M5 x). unfold fps in M5. occs. la. }
  exists (mkGC (S cl) (rev (gm_nodes M)) (rev (gm_sizes M))), h', m.
  exists (mkCenter (S cl) (map (fun q => Inner (Some (p_sizes q)) (p_kids q)) (m_done m ++ [m_par m])) (rev (m_sizes m))).
  exists (map pfp (ps ++ [q])). split.
  { unfold gfinish. rewrite Eto, C3. rewrite (gbind_ok _ _ _ _ _ (pat_relaxed _ _ _ _ _ _ _ Hp)), C5.
    rewrite (gbind_ok _ _ _ _ _ E). reflexivity. }
  split; [exact Hv|]. split; [unfold merger_finish; now rewrite Emto|]. split.
  { split; [reflexivity|]. split; [reflexivity|]. split; [cbn [gc_sizes c_sizes]; now rewrite C4|].
    cbn [gc_nodes c_nodes].
    assert (rev (gm_nodes M) = map pa (ps ++ [q])) as ->.
    { rewrite C3. cbn [rev]. rewrite <- map_rev, rev_involutive, map_app. reflexivity. }
    assert (map (fun q => Inner (Some (p_sizes q)) (p_kids q)) (m_done m ++ [m_par m]) =
            map (fun q => Inner (Some (psz q)) (pns q)) (ps ++ [q])) as ->.
    { assert (forall k : list (@parent T), Forall (fun q0 => p_sizes q0 = sums 0 (map nsize (p_kids q0))) k ->
         map (fun q0 => Inner (Some (p_sizes q0)) (p_kids q0)) k =
         map (fun ks => Inner (Some (sums 0 (map nsize ks))) ks) (map p_kids k)) as Hz.
      { induction 1 as [|q0 k Eq _ IH]; [reflexivity|]. cbn [map]. now rewrite IH, Eq. }
      rewrite Hz.
      - assert (map p_kids (m_done m ++ [m_par m]) = map pns (ps ++ [q])) as ->.
        { rewrite !map_app, C7. cbn [map]. now rewrite C6. }
        rewrite map_map. reflexivity.
      - apply Forall_app. split.
        + eapply Forall_impl; [|exact (mi_done _ _ _ _ _ _ C1)]. intros q0 [[Z1 _] _]. exact Z1.
        + constructor; [|constructor]. now destruct (mi_par _ _ _ _ _ _ C1). }
    apply pats_all3. apply Forall_app. split.
    - eapply ps_chg; [exact C9|exact C|]. eapply sep_dis; [exact M5|]. intros x. ofs. la.
    - constructor; [exact Hp'|constructor]. }
  split.
  { intros x. specialize (M5 x). rewrite L. ofs. la. }
  eapply still_chg; [exact C|]. eapply sep_dis; [exact M5|]. intros x. ofs. la.
Qed.

(** concat_rebalance_plan_mut::merge. *)
Lemma merge_run cl plan ec el er h lp ls FCl Fsl gc c Fc rp rs FCr Fsr R :
  mine ec = true -> mine el = true -> mine er = true -> lenN plan <= 3 * width ->
  lsd h cl lp ls FCl Fsl -> crep h cl gc c Fc -> rsd h cl rp rs FCr Fsr ->
  c_sizes c = sums 0 (map nsize (c_nodes c)) -> (cl <> O -> Forall (fun n => is_rel n = true) (c_nodes c)) ->
  Forall (wf cl) (ls ++ c_nodes c ++ rs) -> wholes cl [] (ls ++ c_nodes c ++ rs) ->
  flow 0 plan (map ncount (ls ++ c_nodes c ++ rs)) -> Forall (fun c => 1 <= c <= br B BL cl) plan ->
  sep (length h) (FCl ++ List.concat Fsl ++ List.concat Fc ++ FCr ++ List.concat Fsr ++ R) ->
  exists gc' h' m c' Fs, gmerge B BL ec el lp gc er rp plan h = Ok (gc', h') /\
    (forall vps, posl cl vps (ls ++ c_nodes c ++ rs) -> merge_all B BL cl (merger_init B plan) vps = Ok m) /\
    merger_finish cl m = Ok c' /\ crep h' (S cl) gc' c' Fs /\
    sep (length h') (List.concat Fs ++ R) /\ still h h' R.
Proof.
  intros Hec Hel Her H3 Hl (G1 & G2 & G3 & G4) Hr Hcz Hcr Hw Hwh Hf Hb Hs.
  set (cn := c_nodes c) in *. unfold gmerge. rewrite G1.
  apply Forall_app in Hw as [Hwl Hw]. apply Forall_app in Hw as [Hwc Hwr].
  rewrite !map_app in Hf.
  assert (wholes cl (map ncount cn ++ map ncount rs) ls) as W1.
  { intros u n v E. destruct (Hwh u n (v ++ cn ++ rs)) as [Z|[Z _]]; [rewrite E, <- app_assoc; reflexivity|now left|].
    right. apply app_eq_nil in Z as [-> Z]. apply app_eq_nil in Z as [-> ->]. auto. }
  assert (wholes cl (map ncount rs) cn) as W2.
  { intros u n v E. destruct (Hwh (ls ++ u) n (v ++ rs)) as [Z|[Z _]]; [rewrite E, <- !app_assoc; reflexivity|now left|].
    right. apply app_eq_nil in Z as [-> ->]. auto. }
  assert (wholes cl [] rs) as W3.
  { intros u n v E. destruct (Hwh (ls ++ cn ++ u) n v) as [Z|[Z _]]; [rewrite E, <- !app_assoc; reflexivity|now left|].
    right. auto. }
  destruct (left_run cl plan ec el h lp ls FCl Fsl (List.concat Fc ++ FCr ++ List.concat Fsr ++ R) _ Hl Hel Hec H3 Hs Hf Hb Hwl W1)
    as (lc & M0 & h0 & M1 & h1 & q & CF & t & X & E1 & E2 & E3 & Hbi).
  assert (still h h1 (X ++ List.concat Fc ++ FCr ++ List.concat Fsr ++ R)) as S1 by (destruct Hbi as (? & ? & ? & _ & _ & _ & _ & _ & _ & Z); exact Z).
  run E1.
  assert (exists rc, gcandidate rp er h = Ok (rc, h)) as (rc & Erc).
  { destruct Hr as [(-> & _)|(n & x & cs & Hsd & _)]; [eexists; reflexivity|].
    destruct (side_cand _ _ _ _ _ _ _ _ _ _ er Hsd Her) as [Z|(a & Z & _)]; eauto. }
  run Erc. run E2. run E3.
  (* the centre *)
  assert (binv cl plan ls (map ncount rs) (X ++ FCr ++ List.concat Fsr ++ R) h1 None [] cn (gc_nodes gc) Fc q CF t M1 h1) as Hb2.
  { apply (next_phase cl plan [] _ _ h ls q CF t M1 h1 (map ncount rs) (X ++ FCr ++ List.concat Fsr ++ R) cn (gc_nodes gc) Fc Hbi); auto.
    - intros x. occs. la.
    - eapply still_reps; [exact S1|exact G4|]. intros x Hx. rewrite !in_app_iff. auto. }
  destruct (center_loop B BL mine (gvisit B BL cl ec ec) cl
    (cinv cl plan ls (map ncount rs) (X ++ FCr ++ List.concat Fsr ++ R) h1 None)
    (cinv_turns cl plan ec ec H3 Hec Hec _ _ _ _ _) (cinv_nil _ _ _ _ _ _ _) gc cn M1 h1 G1) as (M2 & h2 & E4 & Hc2).
  { rewrite G3. exact Hcz. }
  { exact Hcr. }
  { do 4 eexists. exact Hb2. }
  run E4. destruct Hc2 as (Fs0 & q2 & CF2 & t2 & Hb3).
  assert (Fs0 = []) as -> by (destruct Hb3 as (? & ? & ? & _ & _ & Z & _); now inversion Z).
  assert (still h1 h2 (X ++ FCr ++ List.concat Fsr ++ R)) as S2 by (destruct Hb3 as (? & ? & ? & _ & _ & _ & _ & _ & _ & Z); exact Z).
  assert (still h h2 (FCr ++ List.concat Fsr ++ R)) as S12.
  { eapply still_trans; (eapply still_sub; [eassumption|]); intros x; rewrite !in_app_iff; tauto. }
  (* the right side *)
  assert (rsd h2 cl rp rs FCr Fsr) as Hr2.
  { destruct Hr as [Z|(n & x & cs & Hsd & Z)]; [now left|]. right. exists n, x, cs. split; [|exact Z].
    eapply side_still; [exact S12| |exact Hsd]. intros y. rewrite !in_app_iff. tauto. }
  assert (gcandidate rp er h2 = Ok (rc, h2)) as Erc2.
  { destruct Hr as [(-> & _)|(n & x & cs & Hsd & _)]; [cbn in Erc |- *; unfold gret in *; congruence|].
    eapply cand_still; [exact Hsd|exact S12| |exact Erc]. intros y. rewrite !in_app_iff. tauto. }
  destruct (right_run cl plan ec er ls cn (X ++ FCr ++ List.concat Fsr ++ R) h1 q2 CF2 t2 M2 h2 rp rs FCr Fsr (X ++ R) rc
    H3 Hec Her Hb3) as (M3 & h3 & q3 & CF3 & t3 & Y & E5 & Hb4); auto.
  { intros y. occs. la. }
  run E5.
  destruct (finish_ok _ _ _ _ _ _ _ _ _ _ _ _ Hb4) as (gc' & h4 & m & c' & Fs & E6 & Hv & Em & Hcrep & Hsep & S4).
  exists gc', h4, m, c', Fs. split; [exact E6|]. split.
  { intros vps Hp. apply Hv. rewrite <- app_assoc. exact Hp. }
  split; [exact Em|]. split; [exact Hcrep|]. split.
  { intros x. specialize (Hsep x). occs. la. }
  assert (still h2 h3 (Y ++ X ++ R)) as S3 by (destruct Hb4 as (? & ? & ? & _ & _ & _ & _ & _ & _ & Z); exact Z).
  eapply still_trans; [eapply still_sub; [exact S12|]; intros x; rewrite !in_app_iff; tauto|].
  eapply still_trans; (eapply still_sub; [eassumption|]; intros x; rewrite !in_app_iff; tauto).
Qed.
End Merge.
