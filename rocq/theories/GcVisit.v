(** The merger of the in-place concatenation: what a visit of one node of the input does, what
    it leaves as it is, and how the node that is being read may be overwritten meanwhile. *)
From Coq Require Import List NArith Arith Bool Lia ZifyN ZifyNat ZifyBool.
From Verif Require Import Common NList Rrb RrbInv RrbPos RrbOps RrbSlice RrbMerge GcConcat GcPlan GcRep
  GcAdd GcLeaf GcInner.
Import ListNotations.
Local Open Scope N_scope.

Set Default Goal Selector "!".

(** The entries from [k] on are [b]. *)
Definition ents {A} (k : N) (b : list A) (sl : list (option A)) : Prop :=
  forall u x v, b = u ++ x :: v -> entry sl (k + lenN u) = Ok x.
Lemma ents_hd {A} k (x : A) b sl : ents k (x :: b) sl -> entry sl k = Ok x.
Proof. intros H. specialize (H [] x b eq_refl). now rewrite N.add_0_r in H. Qed.
Lemma ents_tl {A} k (x : A) b sl : ents k (x :: b) sl -> ents (k + 1) b sl.
Proof.
  intros H u y v ->. specialize (H (x :: u) y v eq_refl). rewrite lenN_cons in H.
  replace (k + 1 + lenN u) with (k + (lenN u + 1)) by lia. exact H.
Qed.
Lemma ents_tails {A} j k (b : list A) sl sl' : ents k b sl -> tails j sl sl' -> j <= k -> ents k b sl'.
Proof. intros H Ht Hj u x v E. rewrite (entry_tails j sl sl'); [eauto|auto|lia]. Qed.
Lemma ents_pre {A} (a b : list A) sl : pre (a ++ b) sl -> ents (lenN a) b sl.
Proof.
  intros H u x v ->. rewrite app_assoc in H. eapply pre_at; [exact H|]. apply lenN_app.
Qed.

Section Visit.
Variables B BL : N.
Context {T : Type}.
Variable mine : token -> bool.
Notation width := (width B).
Notation lwidth := (lwidth BL).
Notation heap := (gheap T).
Notation rep := (@rep B BL T mine).
Notation ow := (ow mine).
Notation own1 := (own1 mine).
Notation chg := (@chg T mine).
Notation wf := (@wf T B BL).
Notation full := (@full T B BL).
Notation pat := (@pat B BL T mine).
Notation core := (@core B BL T mine).
Notation gsrc := (@gsrc B BL T mine).
Notation tat := (@tat B BL T mine).
Notation eff := (@eff B T).
Notation nil_node := (Leaf [] : node T).

(** ** Blocks that stay *)
Definition still (h h' : heap) (R : list nat) : Prop :=
  exists W, chg h h' W /\ forall x, In x R -> ~ In x W.
Lemma still_refl h R : still h h R.
Proof. exists []. split; [apply chg_refl|easy]. Qed.
Lemma still_trans h h1 h2 R : still h h1 R -> still h1 h2 R -> still h h2 R.
Proof.
  intros (W1 & C1 & D1) (W2 & C2 & D2). exists (W1 ++ W2). split; [eapply chg_trans; eauto|].
  intros x Hx Hi. apply in_app_or in Hi as [Hi|Hi]; [eapply D1|eapply D2]; eauto.
Qed.
Lemma still_sub h h' R R' : still h h' R -> (forall x, In x R' -> In x R) -> still h h' R'.
Proof. intros (W & C & D) H. exists W. split; [auto|]. intros x Hx. apply D. auto. Qed.
Lemma still_chg h h' W R : chg h h' W -> (forall x, In x R -> ~ In x W) -> still h h' R.
Proof. intros C D. exists W. auto. Qed.
Lemma still_at h h' R a o b : still h h' R -> at_ h a o b -> (forall x, In x (own1 o a) -> In x R) -> at_ h' a o b.
Proof. intros (W & C & D) Ha Hi. eapply chg_at_own; eauto. Qed.
Lemma still_rep h h' R v a n F : still h h' R -> rep h v a n F -> (forall x, In x F -> In x R) -> rep h' v a n F.
Proof. intros (W & C & D) Ha Hi. eapply rep_chg; eauto. Qed.
Lemma still_reps h h' R v a n F : still h h' R -> all3 (rep h v) a n F ->
  (forall x, In x (List.concat F) -> In x R) -> all3 (rep h' v) a n F.
Proof. intros (W & C & D) Ha Hi. eapply reps_chg; eauto. Qed.
Lemma still_trep h h' R r sz F : still h h' R -> trep B mine h r sz F -> (forall x, In x F -> In x R) ->
  trep B mine h' r sz F.
Proof. intros (W & C & D) Ha Hi. eapply trep_chg; eauto. Qed.
Lemma still_len h h' R : still h h' R -> (length h <= length h')%nat.
Proof. intros (W & C & _). eapply chg_len; eauto. Qed.

(** ** Positions of children *)
Lemma gsrc_full h l c n F : rep h l c n F -> full l n -> gsrc h l (GFull c) n F.
Proof.
  intros Hr Hf. assert (pos_ok B BL l (PFull n) n) as Hp by now constructor.
  exists c, (PFull nil_node). split; [reflexivity|]. split; [auto|]. split; [reflexivity|].
  pose proof (psize_ok _ _ _ _ _ Hp eq_refl) as E1. pose proof (count_ok _ _ _ _ _ Hp) as E2.
  split; [exact E1|]. split; [exact E2|]. destruct l as [|l]; [auto|]. split; [reflexivity|].
  intros u w b init Ek. exact (copy_sizes_ok B BL l (PFull n) n u w b init Hp eq_refl Ek).
Qed.
Lemma gsrc_sub h l c n F : rep h l c n F -> wf l n -> is_rel n = false ->
  gsub B BL l c (nsize n) h = Ok (GSub c (nsize n), h) /\ gsrc h l (GSub c (nsize n)) n F.
Proof.
  intros Hr Hw Hn. assert (pos_ok B BL l (PSub n (nsize n)) n) as Hp by now constructor.
  split.
  { unfold gsub. pose proof (mk_sub_ok B BL l n Hw Hn) as E.
    assert (mk_sub B BL l nil_node (nsize n) = Ok (PSub nil_node (nsize n))) as E'.
    { clear - E. unfold mk_sub in *. destruct l.
      - destruct (_ <=? _); easy.
      - destruct (_ && _); easy. }
    run (glift_ok _ _ h E'). reflexivity. }
  exists c, (PSub nil_node (nsize n)). split; [reflexivity|]. split; [auto|]. split; [reflexivity|].
  pose proof (psize_ok _ _ _ _ _ Hp eq_refl) as E1. pose proof (count_ok _ _ _ _ _ Hp) as E2.
  split; [exact E1|]. split; [exact E2|]. destruct l as [|l]; [auto|]. split; [reflexivity|].
  intros u w b init Ek. exact (copy_sizes_ok B BL l (PSub n (nsize n)) n u w b init Hp eq_refl Ek).
Qed.
Lemma gsrc_rel h l c sz ns F : rep h (S l) c (Inner (Some sz) ns) F -> wf (S l) (Inner (Some sz) ns) ->
  exists r, grelaxed c h = Ok (r, h) /\ gcount r h = Ok (lenN ns, h) /\
    gsize r (lenN ns - 1) h = Ok (nsize (Inner (Some sz) ns), h) /\
    ginner c h = Ok ((Some r, match nth_error h c with Some (mkG _ (GInner _ ks)) => ks | _ => [] end), h) /\
    gsrc h (S l) (GRel c r) (Inner (Some sz) ns) F.
Proof.
  intros Hr Hw. assert (pos_ok B BL (S l) (PRel (Inner (Some sz) ns) sz) (Inner (Some sz) ns)) as Hp by now constructor.
  pose proof Hr as Hr0. cbn [GcRep.rep] in Hr. destruct Hr as (o & rf & ks & cs0 & Fr & Fs & Hat & Hpre & Hcap & Htr & _).
  destruct rf as [r|]; cbn [trep] in Htr; [|easy]. destruct Htr as (o2 & sl & Hr & Hp2 & _).
  assert (lenN sz = lenN ns) as El by (destruct Hw as (_ & _ & ->); now rewrite lenN_sums, lenN_map).
  exists r. split; [eapply grelaxed_ok; eauto|]. split; [rewrite <- El; eapply gcount_ok; eauto|].
  split.
  { eapply gsize_ok; [exact Hr|]. pose proof (rel_last B BL l sz ns Hw) as E. unfold last_of in E. rewrite El in E.
    unfold rnthN, rnth in E. destruct (nth_error sz _) as [z|] eqn:En; [|easy]. injection E as ->.
    apply nth_error_split in En as (u & v & Ez & Eu). rewrite Ez in Hp2.
    eapply pre_at; [exact Hp2|]. unfold lenN at 1. rewrite Eu. clear. lia. }
  split.
  { rewrite (ginner_ok _ _ _ _ _ Hat). unfold at_ in Hat. rewrite Hat. reflexivity. }
  exists c, (PRel nil_node sz). split; [reflexivity|]. split; [exact Hr0|]. split.
  { cbn [gview]. run (gcount_ok _ _ _ _ _ Hr). run (gtable_ok _ _ _ _ _ Hr).
    run (glift_ok _ _ h (pre_all sz sl (lenN sz) Hp2 eq_refl)). reflexivity. }
  pose proof (psize_ok _ _ _ _ _ Hp eq_refl) as E1. pose proof (count_ok _ _ _ _ _ Hp) as E2.
  split; [exact E1|]. split; [exact E2|]. eauto.
Qed.
Lemma gmaybe_ok h l c n F : rep h (S l) c n F -> wf (S l) n ->
  exists g, gmaybe B BL (S l) c (nsize n) h = Ok (g, h) /\ gsrc h (S l) g n F /\
    (is_rel n = false /\ g = GSub c (nsize n) \/ is_rel n = true /\ exists r, g = GRel c r).
Proof.
  intros Hr Hw. destruct (is_rel n) eqn:Erel.
  - destruct n as [|[sz|] ns]; cbn in Erel; try easy.
    destruct (gsrc_rel _ _ _ _ _ _ Hr Hw) as (r & E1 & E2 & E3 & E4 & Hg).
    exists (GRel c r). split; [|eauto]. unfold gmaybe. run E4. run E2.
    assert (0 < lenN ns) by (destruct Hw as ([? _] & _); lia).
    destruct (N.eqb_spec (lenN ns) 0); [lia|]. run E3. rewrite N.eqb_refl. reflexivity.
  - destruct (gsrc_sub h (S l) c n F Hr Hw Erel) as [E1 Hg]. exists (GSub c (nsize n)).
    split; [|auto]. unfold gmaybe. destruct n as [|[sz|] ns]; try easy.
    cbn [GcRep.rep] in Hr. destruct Hr as (o & rf & ks & cs0 & Fr & Fs & Hat & _ & _ & Htr & _).
    destruct rf as [r|]; cbn [trep] in Htr; [easy|]. run (ginner_ok _ _ _ _ _ Hat). exact E1.
Qed.
Lemma gchild_ok h l c n F : rep h l c n F -> wf l n ->
  exists g, gchild B BL l c (nsize n) h = Ok (g, h) /\ gsrc h l g n F /\
    (is_rel n = false /\ g = GSub c (nsize n) \/ is_rel n = true /\ exists r, g = GRel c r).
Proof.
  intros Hr Hw. destruct l as [|l]; cbn [gchild].
  - assert (is_rel n = false) as E by (destruct n; easy).
    destruct (gsrc_sub h O c n F Hr Hw E) as [E1 Hg]. eauto 6.
  - now apply gmaybe_ok.
Qed.

(** ** The merger between visits *)
Record mst (cl : nat) (plan : list N) (m : @merger T) (prod : list (node T)) (M : gmerger)
    (ps : list pdesc) (q : pdesc) (CF : list nat) (t : tdesc) (h : heap) (R : list nat) (cs : list N) : Prop := {
  ms_core : core cl plan m prod M ps q CF h;
  ms_tat : tat h cl M m t;
  ms_flow : flow (toff t) (m_curr m) cs;
  ms_bnd : Forall (fun c => 1 <= c <= br B BL cl) (m_curr m);
  ms_sep : sep (length h) (fps ps q ++ CF ++ tfp t ++ R) }.

Definition vmerge (cl : nat) (m : @merger T) (p : pos T) : res (@merger T) :=
  match cl with O => merge_leaf B BL m p | S _ => merge_inner B BL m cl p end.
(** Nodes that need not be cut, or come with a table. *)
Definition whole (cl : nat) (n : node T) : Prop :=
  match cl with O => True | S _ => is_rel n = true \/ ncount n = width end.

Lemma visit_ok cl plan m prod M ps q CF t h ec e g n F R cs :
  mst cl plan m prod M ps q CF t h (F ++ R) (ncount n :: cs) -> gsrc h cl g n F -> wf cl n ->
  lenN plan <= 3 * width -> mine e = true -> mine ec = true -> (whole cl n \/ cs = []) ->
  exists m' prod' M' ps' q' CF' t' h',
    gvisit B BL cl ec e M g h = Ok (M', h') /\
    (forall p, pos_ok B BL cl p n -> is_sub p = true -> vmerge cl m p = Ok m') /\
    mst cl plan m' prod' M' ps' q' CF' t' h' R cs /\
    still h h' R /\ eff h h' M ps q CF t n M' ps' q' CF' t'.
Proof.
  intros [Hco Hta Hfl Hb Hs] Hg Hw H3 He Hec Hwh.
  assert (exists m' prod' M' ps' q' CF' t' h',
    gvisit B BL cl ec e M g h = Ok (M', h') /\
    (forall p, pos_ok B BL cl p n -> is_sub p = true -> vmerge cl m p = Ok m') /\
    step B BL mine cl plan m prod M ps q CF t h n F R cs m' prod' M' ps' q' CF' t' h') as
    (m' & prod' & M' & ps' & q' & CF' & t' & h' & E1 & E2 & Hst).
  { destruct cl as [|l].
    - apply (sim_leaf B BL mine plan m prod M ps q CF t h ec e g n F R cs); auto.
    - apply (sim_inner B BL mine l plan m prod M ps q CF t h ec e g n F R cs); auto.
      cbn in Hwh. clear - Hwh. tauto. }
  exists m', prod', M', ps', q', CF', t', h'. split; [exact E1|]. split; [exact E2|].
  destruct Hst as [S1 S2 S3 S4 S5 S6 S7].
  split; [constructor; auto|]. split; [|exact S7].
  eapply still_chg; [exact S5|]. eapply sep_dis; [exact Hs|]. intros x. ofs. la.
Qed.

(** ** Reading a node while it is overwritten *)
Definition same (q : @pdesc T) (t : @tdesc T) (done : list (node T)) : Prop :=
  lenN (pns q) <= lenN done /\ (lenN (pns q) = lenN done -> pns q = done /\ t = TN).
Definition kst (h : heap) (R : list nat) (M : gmerger) (CF : list nat) (q : @pdesc T) (a : nat) (k : N) (cs : list nat) : Prop :=
  exists o r ks, at_ h a o (GInner r ks) /\ ents k cs ks /\
    ((forall x, In x (own1 o a) -> In x R) \/ In a CF /\ (exists e, gm_cand M = Some (e, a)) \/ a = pa q).
Definition tst (h : heap) (R : list nat) (M : gmerger) (CF : list nat) (q : @pdesc T) (r : nat) (n : option N) (k : N) (zs : list N) : Prop :=
  exists o sl, at_ h r o (GTable n sl) /\ ents k zs sl /\
    ((forall x, In x (own1 o r) -> In x R) \/ In r CF \/ r = pr q).

Lemma same_step h h' M ps q CF t n M' ps' q' CF' t' done :
  eff h h' M ps q CF t n M' ps' q' CF' t' -> same q t done -> lenN done < width ->
  same q' t' (done ++ [n]) /\ pa q' = pa q /\ pr q' = pr q.
Proof.
  intros (_ & _ & _ & [(E1 & E2 & _ & _ & _ & Hc)|(Z & _)]) [H1 H2] Hlt; [|lia].
  split; [|auto]. unfold same. rewrite lenN_snoc. destruct Hc as [->|(x & -> & Hx)].
  - split; [lia|]. intros Z. lia.
  - rewrite lenN_snoc. split; [lia|]. intros Z. destruct H2 as [-> ->]; [lia|].
    destruct (Hx eq_refl) as [-> ->]. auto.
Qed.

(** After a visit the entries that are left can still be read. *)
Definition cand_is (M : gmerger) (a : nat) (k : N) : Prop := forall e a0, gm_cand M = Some (e, a0) -> a0 = a /\ 1 <= k.
Lemma track h h' R M ps q CF t n M' ps' q' CF' t' a ro nt done c cs rest s :
  eff h h' M ps q CF t n M' ps' q' CF' t' -> still h h' R ->
  kst h R M CF q a (lenN done) (c :: cs) ->
  (forall r, ro = Some r -> tst h R M CF q r nt (lenN done) (sums s (map nsize (n :: rest)))) ->
  (a = pa q \/ ro = Some (pr q) -> same q t done) -> lenN done < width ->
  cand_is M a (lenN done) ->
  kst h' R M' CF' q' a (lenN (done ++ [n])) cs /\
  (forall r, ro = Some r -> tst h' R M' CF' q' r nt (lenN (done ++ [n])) (sums (s + nsize n) (map nsize rest))) /\
  (a = pa q' \/ ro = Some (pr q') -> same q' t' (done ++ [n])) /\
  cand_is M' a (lenN (done ++ [n])).
Proof.
  intros He Hst (o & rk & ks & Ha & Hk & Hcase) Ht Hsame Hlt Hcd.
  pose proof He as (Hktl & Httl & Hkept & Heff).
  assert (cand_is M' a (lenN (done ++ [n]))) as Hcd'.
  { unfold cand_is in *. rewrite lenN_snoc. destruct Heff as [(_ & _ & _ & _ & E & _)|(_ & _ & E & _)]; rewrite E; [|easy].
    intros e a0 Ea. destruct (Hcd e a0 Ea). split; [auto|lia]. }
  (* taking the candidate *)
  assert (forall (X : Prop), (pa q' = pa q /\ pr q' = pr q /\ CF' = CF /\ gm_cand M' = gm_cand M -> X) ->
     (lenN (pns q) = width -> lenN (pns q') = 1 -> gm_cand M' = None -> taken h (gm_cand M) CF q' CF' -> X) -> X) as Hdo.
  { intros X H1 H2. destruct Heff as [(A & A2 & _ & A3 & A4 & _)|(A & A2 & A3 & _ & A4)]; auto. }
  split; [|split; [|split; [|exact Hcd']]].
  - destruct Hcase as [Hc|[(Hc & (e & Ee))|Hc]].
    + exists o, rk, ks. split; [eapply still_at; eauto|]. split; [|auto]. rewrite lenN_snoc. eapply ents_tl; eauto.
    + apply Hdo.
      * intros (A1 & A2 & A3 & A4). exists o, rk, ks. split; [apply Hkept; [now rewrite A3|auto]|].
        rewrite lenN_snoc. split; [eapply ents_tl; eauto|]. right. left. rewrite A3, A4. split; [auto|]. eauto.
      * intros _ L1 _ Htk. rewrite Ee in Htk. cbn [taken] in Htk. destruct Htk as [Ea _]. subst a.
        destruct (Hktl o rk ks Ha) as (o' & r' & ks' & Ha' & Htl). exists o', r', ks'. split; [auto|]. split; [|auto].
        rewrite lenN_snoc. eapply ents_tails; [eapply ents_tl; eauto|exact Htl|]. lia.
    + destruct (same_step _ _ _ _ _ _ _ _ _ _ _ _ _ done He (Hsame (or_introl Hc)) Hlt) as ([S1 _] & E1 & E2).
      subst a. rewrite <- E1 in *. destruct (Hktl o rk ks Ha) as (o' & r' & ks' & Ha' & Htl). exists o', r', ks'. split; [auto|].
      split; [|auto]. rewrite lenN_snoc in *. eapply ents_tails; [eapply ents_tl; eauto|exact Htl|]. lia.
  - intros r Er. destruct (Ht r Er) as (o2 & sl & Hr & Hz & Hcase2). cbn [map sums] in Hz.
    destruct Hcase2 as [Hc|[Hc|Hc]].
    + exists o2, sl. split; [eapply still_at; eauto|]. split; [|auto]. rewrite lenN_snoc. eapply ents_tl; eauto.
    + apply Hdo.
      * intros (A1 & A2 & A3 & A4). exists o2, sl. split; [apply Hkept; [now rewrite A3|auto]|].
        rewrite lenN_snoc. split; [eapply ents_tl; eauto|]. right. left. rewrite A3. auto.
      * intros _ L1 En Htk. assert (In r CF' \/ r = pr q' /\ 1 <= lenN done) as [Hi|[Hi Hi2]].
        { destruct (gm_cand M) as [[e a0]|] eqn:Ec; cbn [taken] in Htk.
          - destruct (Hcd e a0 Ec) as [-> H1k]. destruct Htk as [Ea [[-> ->]|[-> _]]].
            + destruct Hc as [->|[->|[]]]; [|right; split; auto].
              exfalso. unfold at_ in Ha, Hr. congruence.
            + destruct Hc as [->|Hc]; [|auto]. exfalso. unfold at_ in Ha, Hr. congruence.
          - destruct Htk as [-> _]. auto. }
        { exists o2, sl. split; [apply Hkept; auto|]. rewrite lenN_snoc. split; [eapply ents_tl; eauto|].
          right. left. auto. }
        { subst r. destruct (Httl o2 nt sl Hr) as (o' & sl' & Hr' & Htl). exists o', sl'. split; [auto|]. split; [|auto].
          rewrite lenN_snoc. eapply ents_tails; [eapply ents_tl; eauto|exact Htl|]. lia. }
    + subst r. destruct (same_step _ _ _ _ _ _ _ _ _ _ _ _ _ done He (Hsame (or_intror Er)) Hlt) as ([S1 _] & E1 & E2).
      rewrite <- E2 in *. destruct (Httl o2 nt sl Hr) as (o' & sl' & Hr' & Htl). exists o', sl'. split; [auto|].
      split; [|auto]. rewrite lenN_snoc in *. eapply ents_tails; [eapply ents_tl; eauto|exact Htl|]. lia.
  - intros Hd. apply Hdo.
    + intros (A1 & A2 & _). rewrite A1, A2 in Hd. eapply same_step; eauto.
    + intros L0 L1 En Htk. unfold same. rewrite L1, lenN_snoc.
      assert (1 <= lenN done) as Hpos.
      { destruct (gm_cand M) as [[e a0]|] eqn:Ec; cbn [taken] in Htk.
        - now destruct (Hcd e a0 Ec).
        - exfalso. destruct Htk as (_ & G1 & G2). destruct Hd as [Hd|Hd].
          + pose proof (at_lt _ _ _ _ Ha). lia.
          + destruct (Ht _ Hd) as (o2 & sl & Hr & _). pose proof (at_lt _ _ _ _ Hr). lia. }
      split; [lia|]. lia.
Qed.

(** The size of the node just visited can be read again. *)
Lemma track_prev cl nn h h' R M ps q CF t n M' ps' q' CF' t' a r nt done c cs rest s :
  eff h h' M ps q CF t n M' ps' q' CF' t' -> still h h' R ->
  kst h R M CF q a (lenN done) (c :: cs) ->
  tst h R M CF q r nt (lenN done) (sums s (map nsize (n :: rest))) ->
  (r = pr q -> same q t done) -> lenN done < width ->
  cand_is M a (lenN done) -> pat h' cl q' nn -> s = csize done ->
  exists o sl, at_ h' r o (GTable nt sl) /\ entry sl (lenN done) = Ok (s + nsize n).
Proof.
  intros He Hst (o & rk & ks & Ha & Hk & Hcase) (o2 & sl & Hr & Hz & Hcase2) Hsame Hlt Hcd Hp Es.
  pose proof He as (Hktl & Httl & Hkept & Heff). cbn [map sums] in Hz. apply ents_hd in Hz.
  assert (lenN (pns q') <= lenN done -> r = pr q' ->
    exists o sl, at_ h' r o (GTable nt sl) /\ entry sl (lenN done) = Ok (s + nsize n)) as Htl.
  { intros Hle ->. destruct (Httl o2 nt sl Hr) as (o' & sl' & Hr' & Htl). exists o', sl'. split; [auto|].
    rewrite (entry_tails _ _ _ _ Htl Hle). exact Hz. }
  destruct Hcase2 as [Hc|[Hc|Hc]].
  - exists o2, sl. split; [eapply still_at; eauto|auto].
  - destruct Heff as [(_ & _ & _ & A3 & _)|(_ & L1 & _ & _ & Htk)].
    + exists o2, sl. split; [apply Hkept; [now rewrite A3|auto]|auto].
    + destruct (gm_cand M) as [[e a0]|] eqn:Ec; cbn [taken] in Htk.
      * destruct (Hcd e a0 Ec) as [-> H1k]. destruct Htk as [Ea [[-> ->]|[-> _]]].
        -- destruct Hc as [Hc|[Hc|[]]].
           ++ exfalso. subst r. unfold at_ in Ha, Hr. congruence.
           ++ apply Htl; [lia|auto].
        -- destruct Hc as [Hc|Hc].
           ++ exfalso. subst r. unfold at_ in Ha, Hr. congruence.
           ++ exists o2, sl. split; [apply Hkept; auto|auto].
      * destruct Htk as [-> _]. exists o2, sl. split; [apply Hkept; auto|auto].
  - destruct (same_step _ _ _ _ _ _ _ _ _ _ _ _ _ done He (Hsame Hc) Hlt) as ([S1 S2] & E1 & E2).
    rewrite lenN_snoc in *. destruct (N.eq_dec (lenN (pns q')) (lenN done + 1)) as [El|El].
    + destruct (S2 El) as [En _]. subst r. rewrite <- E2 in *.
      destruct (Httl o2 nt sl Hr) as (o' & sl' & Hr' & _). exists o', sl'. split; [auto|].
      destruct Hp as (p1 & p2 & pks' & psl & _ & _ & _ & _ & P5 & _ & _ & P8 & _).
      assert (psl = sl') as -> by (unfold at_ in *; congruence). unfold psz in P8. rewrite En, map_app, sums_app in P8.
      cbn [map sums] in P8. rewrite Es. eapply pre_at; [exact P8|]. now rewrite lenN_sums, lenN_map.
    + apply Htl; [lia|congruence].
Qed.
End Visit.
