(** Programs over vector variables run by one of several threads see what the specification
    says. *)
From Coq Require Import List NArith Arith Bool Lia Permutation ZifyN ZifyNat ZifyBool.
From Verif Require Import Common NList Rrb RrbInv RrbSpec AtomProofs RcHeap RcProofs RcExnProofs RcMove Conc ConcProofs
  VecHeap VecNodes VecTree VecTreeProofs ProgVars VecProgSpec VecProg VecProgProofs ChampConcProofs VecConc VecConcTree.
Import ListNotations.
Set Default Goal Selector "!".

Section Prog.
Variables B BL : N.
Context {T : Type}.
Variable gone : T -> T.
Variable nm : bool.
Variables er et : bool -> nat.
Hypothesis HB : (1 <= B)%N.

Notation heap := (heap (vbody T)).
Notation vec := (@vec T B BL).
Notation statics rx := (@statics T (er rx) (et rx) []).
Notation G := (base er et).
Notation cwp := (cwp G).
Notation post A := (A -> list nat -> list nat -> heap -> Prop).
Notation prel := (@prel B BL T).
Notation rest := (rest vptr HGone).
Notation roots := (roots vptr).
Notation pspec := (pspec gone).
Notation psees := (psees B BL).
Notation pspecs := (pspecs B BL gone).
Notation t_apply := (t_apply B BL nm er et).
Notation t_mutate := (t_mutate B BL nm er et).
Notation t_step := (t_step B BL nm er et).
Notation t_thread := (t_thread B BL nm er et).
Implicit Types (h : heap).

(** Statements for which what follows holds: no concatenation; nothing is cut in place, and
    only a vector grows in place. *)
Definition calm (o : pop T) : bool :=
  match o with
  | PMutate fx _ (VPush _) _ => negb fx
  | PMutate _ _ (VTake _ | VDrop _) _ => false
  | PConcat _ _ _ _ => false
  | _ => true
  end.

Record tinv (l : list vvar) (s : list (sq T)) h : Prop := mkT {
  t_rel : Forall2 (prel h) l s;
  t_stat : forall rx, statics rx h G }.
Lemma prel_rely R h h' x y : rely [] (G ++ R) h h' -> incl (vptr x) R -> prel h x y -> prel h' x y.
Proof.
  intros Rl Hi. destruct x as [|rx x], y as [|fx l]; cbn; try easy. intros [E H]. split; [exact E|].
  eapply vec_rely; [exact Rl|exact Hi|exact H].
Qed.
Lemma prels_rely R h h' l s : rely [] (G ++ R) h h' -> incl (roots l) R -> Forall2 (prel h) l s -> Forall2 (prel h') l s.
Proof.
  intros Rl Hi H. induction H as [|x y l s Hx _ IH]; constructor.
  - eapply prel_rely; [exact Rl| |exact Hx]. intros a Ha. apply Hi. cbn. apply in_or_app. now left.
  - apply IH. intros a Ha. apply Hi. cbn. apply in_or_app. now right.
Qed.
Lemma tinv_rely l s h h' : rely [] (G ++ roots l) h h' -> tinv l s h -> tinv l s h'.
Proof.
  intros Rl [H1 H2]. split; [eapply prels_rely; [exact Rl|apply incl_refl|exact H1]|].
  intros rx. eapply stat_rely; [exact Rl|apply H2].
Qed.
Lemma tinv_at l s h i : tinv l s h -> prel h (vvar_at l i) (sq_at s i).
Proof. intros I. apply (rel_nth HGone QGone (prel h) l s i); [exact (t_rel _ _ _ I)|exact Logic.I]. Qed.
(** A new variable, and a variable with a new value. *)
Lemma tinv_add l s h h' x y : tinv l s h -> rely [] (G ++ roots l) h h' -> prel h' x y -> tinv (l ++ [x]) (s ++ [y]) h'.
Proof.
  intros I Rl Hx. apply (tinv_rely _ _ _ _ Rl) in I. destruct I as [H1 H2]. split; [|exact H2].
  apply Forall2_app; [exact H1|]. now repeat constructor.
Qed.
Lemma tinv_set l s h h' i x y : tinv l s h -> rely [] (G ++ rest i l) h h' -> prel h' x y ->
  tinv (update_at i x l) (update_at i y s) h'.
Proof.
  intros [H1 H2] Rl Hx. split; [|intros rx; eapply stat_rely; [exact Rl|apply H2]].
  assert (Forall2 (prel h') (update_at i HGone l) (update_at i QGone s)) as H.
  { eapply prels_rely; [exact Rl|apply incl_refl|]. apply rel_upd; [exact Logic.I|exact H1]. }
  apply (rel_upd (prel h') _ _ _ _ Hx) with (i := i) in H. now rewrite !upd_upd in H.
Qed.

(** ** One container *)
Lemma cwp_apply rx o x l (F : post htree) R h : vec rx [] h x l -> statics rx h G ->
  offers rx o = true -> too_deep B BL x o = false ->
  (forall y h', rely [] (G ++ hptr x ++ R) h h' -> vec rx [] h' y (vstep o l) -> F y [] (hptr y ++ hptr x ++ R) h') ->
  cwp (t_apply rx o x) F [] (hptr x ++ R) h.
Proof.
  intros Hv Hst Ho Hd HF. pose proof (vec_size _ _ _ _ _ _ _ Hv) as Hs. assert (Hi : incl (hptr x) (hptr x ++ R)) by apply incl_appl, incl_refl.
  destruct o as [v|i fn|n|n]; cbn [VecConc.t_apply vstep] in *.
  - eapply cwp_push_back; [exact HB|exact Hv|exact HF].
  - destruct (N.ltb_spec i (ht_size x)) as [Hi'|Hi'].
    + rewrite Hs in Hi'. destruct (list_set_split B gone nm er et HB l i fn Hi') as (A & e & Z & -> & <- & E). rewrite E in HF.
      eapply cwp_update_tree; [exact HB|exact Hv|exact Hi|exact HF].
    + rewrite Hs in Hi'. rewrite (list_set_out B nm er et HB) in HF by exact Hi'. eapply cwp_copy; [exact HB|exact Hv|exact Hi|].
      intros h' R' V. apply HF; assumption.
  - eapply cwp_take; [exact HB|exact Hv|exact Hi|exact Hst|exact HF].
  - cbn [offers too_deep] in *. apply orb_false_elim in Hd.
    eapply cwp_drop; [exact HB|exact Ho|exact Hv|exact Hi|exact Hst|lia|lia|exact HF].
Qed.
Lemma cwp_mutate rx o x l (F : post htree) R h : vec rx [] h x l ->
  match o with VPush _ => rx = false | VUpdate _ _ => True | _ => False end ->
  (forall y h', rely [] (G ++ R) h h' -> vec rx [] h' y (vstep o l) -> F y [] (hptr y ++ R) h') ->
  cwp (t_mutate rx o x) F [] (hptr x ++ R) h.
Proof.
  intros Hv Ho HF. pose proof (vec_size _ _ _ _ _ _ _ Hv) as Hs.
  destruct o as [v|i fn|n|n]; cbn [VecConc.t_mutate vstep] in *; try easy.
  - eapply cwp_push_back_mut; [exact HB|exact Ho|exact Hv|exact HF].
  - destruct (N.ltb_spec i (ht_size x)) as [Hi'|Hi'].
    + rewrite Hs in Hi'. destruct (list_set_split B gone nm er et HB l i fn Hi') as (A & e & Z & -> & <- & E). rewrite E in HF.
      eapply cwp_update_mut; [exact 0|exact HB|exact Hv|exact HF].
    + rewrite Hs in Hi'. rewrite (list_set_out B nm er et HB) in HF by exact Hi'. apply cwp_done. apply HF; [apply rely_refl|exact Hv].
Qed.

(** What a statement ends in. *)
Definition stepped (s : list (sq T)) (o : pop T) : post (list vvar * pobs T) := fun r L R h =>
  L = [] /\ R = roots (fst r) /\ psees s o (snd r) /\ tinv (fst r) (pspec s o (snd r)) h.
Lemma cwp_step l s o h : tinv l s h -> calm o = true -> cwp (t_step l o) (stepped s o) [] (roots l) h.
Proof.
  intros I Hc. pose proof (t_stat _ _ _ I) as S0.
  assert (Same : forall x, psees s o x -> pspec s o x = s -> cwp (Done (l, x)) (stepped s o) [] (roots l) h).
  { intros x Hx Es. apply cwp_done. split; [reflexivity|]. split; [reflexivity|]. split; [exact Hx|]. cbn [fst snd]. rewrite Es. exact I. }
  assert (Add : forall x y z h' L R, rely [] (G ++ roots l) h h' -> prel h' x y -> L = [] ->
    (forall a, occ a R = occ a (vptr x ++ roots l)) -> psees s o z -> pspec s o z = s ++ [y] ->
    cwp (Done (l ++ [x], z)) (stepped s o) L R h').
  { intros x y z h' L R Rl Hx -> HO Hs Es. apply cwp_roots with (R' := roots (l ++ [x])).
    { intros a. rewrite HO, (roots_app vptr), !occ_app. lia. }
    apply cwp_done. split; [reflexivity|]. split; [reflexivity|]. split; [exact Hs|]. cbn [fst snd].
    rewrite Es. eapply tinv_add; [exact I|exact Rl|exact Hx]. }
  assert (Set' : forall i x0 x y h' L R, nth_error l i = Some x0 -> rely [] (G ++ rest i l) h h' -> prel h' x y -> L = [] ->
    (forall a, occ a R = occ a (vptr x ++ rest i l)) -> psees s o SNone -> pspec s o SNone = update_at i y s ->
    cwp (Done (update_at i x l, SNone)) (stepped s o) L R h').
  { intros i x0 x y h' L R En Rl Hx -> HO Hs Es. apply cwp_roots with (R' := roots (update_at i x l)).
    { intros a. rewrite HO, (rest_roots vptr HGone eq_refl _ _ _ x En), !occ_app. lia. }
    apply cwp_done. split; [reflexivity|]. split; [reflexivity|]. split; [exact Hs|]. cbn [fst snd].
    rewrite Es. eapply tinv_set; [exact I|exact Rl|exact Hx]. }
  assert (Hin : forall i rx x, vvar_at l i = HHas rx x -> nth_error l i = Some (HHas rx x)) by (intros; now apply vvar_nth).
  assert (Hrt : forall i rx x, vvar_at l i = HHas rx x -> incl (hptr x) (roots l)).
  { intros i rx x E a Ha. unfold ProgVars.roots. apply in_flat_map. exists (HHas rx x).
    split; [eapply nth_error_In; apply (Hin _ _ _ E)|exact Ha]. }
  assert (Take : forall i rx x, vvar_at l i = HHas rx x -> forall a, occ a (roots l) = occ a (hptr x ++ rest i l)).
  { intros i rx x E a. rewrite (roots_rest vptr HGone eq_refl _ _ _ (Hin _ _ _ E)), occ_app. reflexivity. }
  assert (TakeI : forall i rx x, vvar_at l i = HHas rx x -> incl (roots l) (hptr x ++ rest i l) /\ incl (rest i l) (roots l)).
  { intros i rx x E. split; intros a Ha; apply occ_in; apply occ_in in Ha; rewrite (Take _ _ _ E) in *; [exact Ha|].
    rewrite occ_app. lia. }
  assert (Take' : forall i rx x h', vvar_at l i = HHas rx x -> rely [] (G ++ roots l) h h' -> rely [] (G ++ rest i l) h h').
  { intros i rx x h' E Rl. eapply rely_incl; [apply incl_refl| |exact Rl]. apply incl_app; [apply incl_appl, incl_refl|]. apply incl_appr.
    apply (TakeI _ _ _ E). }
  destruct o as [fx|i|i|i|i j|i j|i|i o f|fx i o f|m i j f|i k|i]; cbn [VecConc.t_step].
  - apply cwp_bind. eapply cwp_empty with (B := B) (BL := BL) (rx := fx); [exact HB|apply S0|]. intros y h1 R1 H1.
    eapply (Add (HHas fx y) (QHas fx [])); [exact R1|now split|reflexivity|reflexivity|exact Logic.I|reflexivity].
  - pose proof (tinv_at _ _ _ i I) as Hv. destruct (vvar_at l i) as [|rx x] eqn:Ex, (sq_at s i) as [|fx m] eqn:Eq; cbn in Hv; try easy.
    { eapply (Add HGone QGone); [apply rely_refl|exact Logic.I|reflexivity|reflexivity|exact Logic.I|]. cbn. now rewrite Eq. }
    destruct Hv as [-> Hv]. apply cwp_bind. eapply cwp_copy; [exact HB|exact Hv|eapply Hrt; exact Ex|]. intros h1 R1 H1.
    eapply (Add (HHas fx x) (QHas fx m)); [exact R1|now split|reflexivity|reflexivity|exact Logic.I|]. cbn. now rewrite Eq.
  - pose proof (tinv_at _ _ _ i I) as Hv. destruct (vvar_at l i) as [|rx x] eqn:Ex, (sq_at s i) as [|fx m] eqn:Eq; cbn in Hv; try easy.
    { eapply (Add HGone QGone); [apply rely_refl|exact Logic.I|reflexivity|reflexivity|exact Logic.I|]. cbn. now rewrite Eq. }
    destruct Hv as [-> Hv]. apply cwp_bind. eapply cwp_empty with (B := B) (BL := BL) (rx := fx); [exact HB|apply S0|]. intros y h1 R1 H1.
    apply cwp_roots with (R' := roots (update_at i (HHas fx y) l ++ [HHas fx x])).
    { intros a. rewrite (roots_app vptr), !occ_app, (rest_roots vptr HGone eq_refl _ _ _ (HHas fx y) (Hin _ _ _ Ex)), (Take _ _ _ Ex), occ_app.
      cbn [vptr]. lia. }
    apply cwp_done. split; [reflexivity|]. split; [reflexivity|]. split; [exact Logic.I|]. cbn [fst snd VecProgSpec.pspec]. rewrite Eq.
    pose proof (tinv_set _ _ _ h1 i (HHas fx y) (QHas fx []) I (Take' i fx x h1 Ex R1) (conj eq_refl H1)) as [J1 J2]. split; [|exact J2].
    apply Forall2_app; [exact J1|]. constructor; [|constructor]. split; [reflexivity|].
    eapply vec_rely; [exact R1|eapply Hrt; exact Ex|exact Hv].
  - pose proof (tinv_at _ _ _ i I) as Hv. destruct (vvar_at l i) as [|rx x] eqn:Ex, (sq_at s i) as [|fx m] eqn:Eq; cbn in Hv; try easy.
    { eapply (Add HGone QGone); [apply rely_refl|exact Logic.I|reflexivity|reflexivity|exact Logic.I|]. cbn. now rewrite Eq. }
    destruct Hv as [-> Hv]. destruct fx.
    { eapply (Add HGone QGone); [apply rely_refl|exact Logic.I|reflexivity|reflexivity|exact Logic.I|]. cbn. now rewrite Eq. }
    apply cwp_bind. eapply cwp_copy; [exact HB|exact Hv|eapply Hrt; exact Ex|]. intros h1 R1 H1.
    eapply (Add (HHas true x) (QHas true m)); [exact R1|split; [reflexivity|now apply vec_flex]|reflexivity|reflexivity|exact Logic.I|]. cbn. now rewrite Eq.
  - pose proof (tinv_at _ _ _ i I) as Hv. pose proof (tinv_at _ _ _ j I) as Hw.
    destruct (vvar_at l i) as [|rx x] eqn:Ex, (sq_at s i) as [|fx m] eqn:Eq; cbn in Hv; try easy.
    { apply Same; [exact Logic.I|]. cbn. now rewrite Eq. }
    destruct (vvar_at l j) as [|ry y] eqn:Ey, (sq_at s j) as [|fy n] eqn:Er; cbn in Hw; try easy.
    { apply Same; [exact Logic.I|]. cbn. now rewrite Eq, Er. }
    destruct Hv as [-> Hv], Hw as [-> Hw]. destruct (same fx fy) eqn:Es.
    2:{ apply Same; [exact Logic.I|]. cbn. now rewrite Eq, Er, Es. }
    apply eqb_prop in Es as Es'. subst fy.
    apply cwp_bind. eapply cwp_copy; [exact HB|exact Hw|eapply Hrt; exact Ey|]. intros h1 R1 H1.
    apply cwp_roots with (R' := hptr x ++ hptr y ++ rest i l).
    { intros a. rewrite !occ_app, (Take _ _ _ Ex), occ_app. lia. }
    apply cwp_bind. eapply cwp_destroy with (l := m); [exact HB| |].
    { eapply vec_rely; [exact R1|eapply Hrt; exact Ex|exact Hv]. }
    intros h2 R2.
    eapply (Set' i _ (HHas fx y) (QHas fx n)); [exact (Hin _ _ _ Ex)| | |reflexivity|reflexivity|exact Logic.I|].
    + pose proof (Take' _ _ _ h1 Ex R1) as R1'. rl.
    + split; [reflexivity|]. eapply vec_rely; [exact R2|apply incl_appl, incl_refl|exact H1].
    + cbn. now rewrite Eq, Er, Es.
  - pose proof (tinv_at _ _ _ i I) as Hv. pose proof (tinv_at _ _ _ j I) as Hw.
    destruct (vvar_at l i) as [|rx x] eqn:Ex, (sq_at s i) as [|fx m] eqn:Eq; cbn in Hv; try easy.
    { apply Same; [exact Logic.I|]. cbn. now rewrite Eq. }
    destruct (vvar_at l j) as [|ry y] eqn:Ey, (sq_at s j) as [|fy n] eqn:Er; cbn in Hw; try easy.
    { apply Same; [exact Logic.I|]. cbn. now rewrite Eq, Er. }
    destruct Hv as [-> Hv], Hw as [-> Hw]. destruct (same fx fy) eqn:Es.
    2:{ apply Same; [exact Logic.I|]. cbn. now rewrite Eq, Er, Es. }
    pose proof (Hin _ _ _ Ex) as En. pose proof (Hin _ _ _ Ey) as Em.
    apply cwp_roots with (R' := roots (update_at i (HHas fy y) (update_at j (HHas fx x) l))).
    { intros a. pose proof (roots_upd vptr l j _ (HHas fx x) a Em) as E1.
      destruct (Nat.eq_dec i j) as [<-|Hn].
      - rewrite upd_upd. rewrite Em in En. injection En as <- <-. lia.
      - assert (nth_error (update_at j (HHas fx x) l) i = Some (HHas fx x)) as E3 by (rewrite nth_upd; auto).
        pose proof (roots_upd vptr _ i _ (HHas fy y) a E3) as E2. lia. }
    apply cwp_done. split; [reflexivity|]. split; [reflexivity|]. split; [exact Logic.I|].
    cbn [fst snd VecProgSpec.pspec]. rewrite Eq, Er, Es. destruct I as [I1 I2]. split; [|exact I2].
    apply rel_upd; [now split|]. apply rel_upd; [now split|exact I1].
  - pose proof (tinv_at _ _ _ i I) as Hv. destruct (vvar_at l i) as [|rx x] eqn:Ex, (sq_at s i) as [|fx m] eqn:Eq; cbn in Hv; try easy.
    { apply Same; [exact Logic.I|]. cbn. now apply upd_none. }
    destruct Hv as [-> Hv]. apply cwp_roots with (R' := hptr x ++ rest i l); [exact (Take _ _ _ Ex)|].
    apply cwp_bind. eapply cwp_destroy with (l := m); [exact HB|exact Hv|]. intros h1 R1.
    eapply (Set' i _ HGone QGone); [exact (Hin _ _ _ Ex)|exact R1|exact Logic.I|reflexivity|reflexivity|exact Logic.I|reflexivity].
  - pose proof (tinv_at _ _ _ i I) as Hv. destruct (vvar_at l i) as [|rx x] eqn:Ex, (sq_at s i) as [|fx m] eqn:Eq; cbn in Hv; try easy.
    { eapply (Add HGone QGone); [apply rely_refl|exact Logic.I|reflexivity|reflexivity|apply sees_apply|]. cbn. now rewrite Eq. }
    destruct Hv as [-> Hv]. destruct (offers fx o) eqn:Eo.
    2:{ eapply (Add HGone QGone); [apply rely_refl|exact Logic.I|reflexivity|reflexivity|apply sees_apply|]. cbn. now rewrite Eq, Eo. }
    destruct (too_deep B BL x o) eqn:Ed.
    { destruct o; try discriminate. cbn in Eo. subst fx.
      eapply (Add HGone QGone); [apply rely_refl|exact Logic.I|reflexivity|reflexivity| |].
      - cbn. exists m. split; [exact Eq|]. eapply (too_deep_drop B BL nm er et HB); [|exact Ed]. now apply (vec_size _ _ _ _ _ _ _ Hv).
      - cbn. now rewrite Eq. }
    apply cwp_roots with (R' := hptr x ++ rest i l); [exact (Take _ _ _ Ex)|].
    apply cwp_bind. eapply cwp_apply with (l := m); [exact Hv|apply S0|exact Eo|exact Ed|]. intros y h1 R1 H1.
    eapply (Add (HHas fx y) (QHas fx (vstep o m))); [|now split|reflexivity| |apply sees_apply|].
    + eapply rely_incl; [apply incl_refl| |exact R1]. apply incl_app; [apply incl_appl, incl_refl|]. apply incl_appr.
      apply (TakeI _ _ _ Ex).
    + intros a. rewrite occ_app, <- (Take _ _ _ Ex), <- occ_app. reflexivity.
    + cbn. now rewrite Eq, Eo.
  - pose proof (tinv_at _ _ _ i I) as Hv. destruct (vvar_at l i) as [|rx x] eqn:Ex, (sq_at s i) as [|fy m] eqn:Eq; cbn in Hv; try easy.
    { apply Same; [apply sees_mutate|]. cbn. now rewrite Eq. }
    destruct Hv as [-> Hv]. destruct (same fx fy && offers fx o) eqn:Eo.
    2:{ apply Same; [apply sees_mutate|]. cbn. now rewrite Eq, Eo. }
    pose proof (andb_prop _ _ Eo) as [Es Eo']. apply eqb_prop in Es. subst fy.
    destruct (too_deep B BL x o) eqn:Ed; [now destruct o|].
    apply cwp_roots with (R' := hptr x ++ rest i l); [exact (Take _ _ _ Ex)|].
    apply cwp_bind. eapply cwp_mutate with (l := m); [exact Hv| |].
    { cbn in Hc. destruct o; try discriminate; [|exact Logic.I]. now destruct fx. }
    intros y h1 R1 H1.
    eapply (Set' i _ (HHas fx y) (QHas fx (vstep o m))); [exact (Hin _ _ _ Ex)|exact R1|now split|reflexivity|reflexivity|apply sees_mutate|].
    cbn. now rewrite Eq, Eo.
  - discriminate.
  - pose proof (tinv_at _ _ _ i I) as Hv. destruct (vvar_at l i) as [|rx x] eqn:Ex, (sq_at s i) as [|fx m] eqn:Eq; cbn in Hv; try easy.
    { apply Same; [exact Eq|reflexivity]. }
    destruct Hv as [-> Hv]. pose proof (vec_size _ _ _ _ _ _ _ Hv) as Hs. destruct (N.leb_spec (ht_size x) k) as [Hk|Hk].
    { apply Same; [|reflexivity]. exists fx, m. split; [exact Eq|]. unfold lenN in Hs. lia. }
    destruct (Nat.leb_spec 6 (ht_lv x)) as [Hd|Hd].
    { apply Same; [|reflexivity]. exists fx, m. split; [exact Eq|]. split; [now rewrite Hs in Hk|]. split; [exact Hd|].
      intros ->. eapply (vec_dense B BL nm er et HB); [exact Hv|]. lia. }
    destruct (splitN k m ltac:(lia)) as (A & e & Z & E & EA). apply cwp_bind.
    eapply cwp_get with (e := e); [exact HB|exact Hv|eapply Hrt; exact Ex|exact Hd|rewrite E; now apply rnthN_app|]. intros h1 R1.
    apply cwp_done. split; [reflexivity|]. split; [reflexivity|]. split; [|eapply tinv_rely; [exact R1|exact I]].
    exists fx, m. split; [exact Eq|]. cbn [snd]. rewrite E, nth_error_app2 by (unfold lenN in EA; lia).
    replace (N.to_nat k - length A) with 0 by (unfold lenN in EA; lia). reflexivity.
  - pose proof (tinv_at _ _ _ i I) as Hv. destruct (vvar_at l i) as [|rx x] eqn:Ex, (sq_at s i) as [|fx m] eqn:Eq; cbn in Hv; try easy.
    { apply Same; [exact Eq|reflexivity]. }
    destruct Hv as [-> Hv]. apply Same; [|reflexivity]. exists fx, m. split; [exact Eq|]. exact (vec_size _ _ _ _ _ _ _ Hv).
Qed.

Definition ended (s : list (sq T)) (os : list (pop T)) : post (list vvar * list (pobs T)) := fun r L R h =>
  L = [] /\ R = roots (fst r) /\ exists s', pspecs s os (snd r) s' /\ tinv (fst r) s' h.
Lemma cwp_thread os : forall l s h, tinv l s h -> Forall (fun o => calm o = true) os ->
  cwp (t_thread l os) (ended s os) [] (roots l) h.
Proof.
  induction os as [|o os IH]; intros l s h I Ho; cbn [VecConc.t_thread].
  - apply cwp_done. split; [reflexivity|]. split; [reflexivity|]. exists s. now split.
  - inversion Ho as [|? ? Hf Ho2]; subst. apply cwp_bind.
    eapply cwp_mono; [|apply cwp_step; [exact I|exact Hf]].
    intros [l1 x] L1 R1 h1 (-> & -> & Hx & I1). cbn [fst snd] in *. apply cwp_bind.
    eapply cwp_mono; [|apply IH; [exact I1|exact Ho2]].
    intros [l2 xs] L2 R2 h2 (-> & -> & s' & Hs & I2). cbn [fst snd] in *. apply cwp_done.
    split; [reflexivity|]. split; [reflexivity|]. exists s'. cbn. auto.
Qed.
End Prog.
