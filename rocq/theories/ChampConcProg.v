(** Programs over map variables run by one of several threads see what the specification
    says. *)
From Coq Require Import List NArith Arith Lia Bool Permutation ZArith ZifyBool ZifyNat ZifyN.
From Verif Require Import Common Bits BitsProofs Slots Champ ChampSpec ChampProofs ChampMap ChampShape
  AtomProofs RcHeap RcProofs Conc ConcProofs ChampHeap ChampHeapProofs ProgVars ChampProgSpec ChampProg
  ChampProgProofs ChampConc ChampConcProofs.
Import ListNotations.
Set Default Goal Selector "!".

Section Prog.
Variable B : N.
Context {T K V : Type}.
Variable key : T -> K.
Variable khash : K -> N.
Variable keq : K -> K -> bool.
Variable project : T -> V.
Variable combine : K -> V -> T.
Variable gone : T -> T.
Variable e0 : nat.
Hypothesis HB : (1 <= B)%N.
Hypothesis Hkeys : keys_ok keq khash.
Hypothesis Hcomb : forall k x, keq (key (combine k x)) k = true.

Notation heap := (heap (cbody T)).
Notation nd := (node T).
Notation max_depth := (max_depth B).
Notation holds := (holds B key khash keq).
Notation op := (@op T K V).
Notation astep := (astep key keq project combine).
Notation G := [e0].
Notation cwp := (cwp G).
Notation own := (own G).
Notation post A := (A -> list nat -> list nat -> heap -> Prop).
Notation has_map := (has_map B key khash keq).
Notation has_tree := (has_tree B).
Notation top := (top B HB).
Notation Hhash := (Hhash khash keq Hkeys).
Notation as_upd := (as_upd key project combine).

(** ** One container *)
Lemma cwp_get_loop k : forall d n a hk r (F : post (option T)) L R h, shaped d n -> own R h a (enc n) ->
  get_loop B key keq d n hk k = Ok r -> (forall h', rely L (G ++ R) h h' -> F r L R h') ->
  cwp (c_get_loop B key keq d a hk k) F L R h.
Proof.
  induction d as [|d IH]; intros n a hk r F L R h Hsh Ho E HF.
  - destruct n as [|vs]; [easy|]. cbn [get_loop c_get_loop] in *. apply cwp_bind.
    eapply cwp_load_coll; [apply own_coll; exact Ho|]. intros h1 R1. apply cwp_done.
    match type of E with Ok ?x = Ok r => assert (r = x) as -> by congruence end. auto.
  - destruct n as [nm dm vs cs|]; [|easy].
    destruct (own_inode G d L R h a nm dm vs cs Hsh Ho) as (vp & ks & Hi).
    cbn [get_loop c_get_loop] in *. cbn zeta in *. apply cwp_bind.
    eapply cwp_load_inner; [apply (i_vis _ _ _ _ _ _ _ _ _ _ _ Hi)|apply (i_lk _ _ _ _ _ _ _ _ _ _ _ Hi)|].
    intros h1 R1. apply (inode_rely _ _ _ _ _ _ _ _ _ _ _ _ R1) in Hi.
    set (bit := N.shiftl 1 (N.land hk (mask B))) in *. destruct (has nm bit).
    + destruct (rnth cs (count_below nm bit)) as [n1|] eqn:Ec; [|discriminate]. cbn [rbind] in E.
      destruct (inode_kid _ _ _ _ _ _ _ _ _ _ _ _ _ Hi Ec) as (x & Ex & Hx).
      apply cwp_bind. eapply cwp_lift; [exact Ex|].
      eapply IH; [eapply shaped_kid; [exact Hsh|exact Ec]|exact Hx|exact E|]. intros h2 R2. apply HF. rl.
    + destruct (has dm bit).
      * destruct (rnth vs (count_below dm bit)) as [w|] eqn:Ew; [|discriminate]. cbn [rbind] in E.
        assert (Hn : vs <> []) by (intros ->; apply rnth_lt in Ew; cbn in Ew; lia).
        apply cwp_bind. eapply cwp_load_vals; [apply (i_v _ _ _ _ _ _ _ _ _ _ _ Hi)|exact Hn|apply (i_lv _ _ _ _ _ _ _ _ _ _ _ Hi)|].
        intros h2 R2. apply cwp_bind. eapply cwp_lift; [exact Ew|]. apply cwp_done.
        match type of E with Ok ?x = Ok r => assert (r = x) as -> by congruence end. apply HF. rl.
      * apply cwp_done. assert (r = None) as -> by congruence. apply HF. rl.
Qed.

Lemma own_map (h : heap) R c m : In (h_root c) R -> has_map h c m ->
  exists n, own R h (h_root c) (enc n) /\ holds (mkChamp n (h_size c)) m.
Proof. intros Hi (n & S & H). exists n. split; [apply own_root; [exact Hi|exact S]|exact H]. Qed.
Lemma map_rely L R (h h' : heap) c m : rely L (G ++ R) h h' -> In (h_root c) R -> has_map h c m -> has_map h' c m.
Proof.
  intros Rl Hi (n & S & H). exists n. split; [|exact H]. eapply rely_rep; [exact Rl|apply from_root, in_or_app; now right|exact S].
Qed.
Lemma tree_rely L R (h h' : heap) c : rely L (G ++ R) h h' -> In (h_root c) R -> has_tree h c -> has_tree h' c.
Proof.
  intros Rl Hi (n & H & S). exists n. split; [exact H|]. eapply rely_rep; [exact Rl|apply from_root, in_or_app; now right|exact S].
Qed.
Lemma e0_rely L R (h h' : heap) : rely L (G ++ R) h h' -> rep h e0 (enc (@empty_node T)) -> rep h' e0 (enc (@empty_node T)).
Proof. intros Rl S. eapply rely_rep; [exact Rl|apply from_root; now left|exact S]. Qed.

Lemma cwp_copy c (F : post hchamp) L R h : In (h_root c) R ->
  (forall h', rely L (G ++ R) h h' -> F c L (h_root c :: R) h') -> cwp (c_copy c) F L R h.
Proof.
  intros Hi HF. unfold c_copy. apply cwp_bind. apply cwp_up; [apply from_root, in_or_app; now right|].
  intros h1 R1. apply cwp_done. auto.
Qed.
Lemma cwp_empty (F : post hchamp) L R h : rep h e0 (enc (@empty_node T)) ->
  (forall c h', rely L (G ++ R) h h' -> has_map h' c aempty -> F c L (h_root c :: R) h') -> cwp (c_empty e0) F L R h.
Proof.
  intros He HF. unfold c_empty. apply cwp_bind. apply cwp_up; [apply from_root; now left|].
  intros h1 R1. apply cwp_done. apply (HF (mkH e0 0)); [exact R1|]. exists empty_node. split.
  - eapply e0_rely; [exact R1|exact He].
  - apply (holds_empty B key khash keq HB).
Qed.
Lemma cwp_destroy c (F : post unit) L R h : has_tree h c ->
  (forall h', rely L (G ++ R) h h' -> F tt L R h') -> cwp (c_destroy B c) F L (h_root c :: R) h.
Proof. intros (n & Hs & S) HF. eapply (cwp_drop B HB G max_depth n); [exact Hs|exact S|exact HF]. Qed.

Lemma cwp_upd o k found absent calls c m (F : post hchamp) L R h : as_upd o = Some (k, found, absent, calls) ->
  In (h_root c) R -> has_map h c m ->
  (forall c' h', rely L (G ++ R) h h' -> has_map h' c' (astep o m) -> F c' L (h_root c' :: R) h') ->
  cwp (c_upd B key khash keq k found absent c) F L R h.
Proof.
  intros Eo Hi Hm HF. destruct (own_map _ _ _ _ Hi Hm) as (n & S & H).
  destruct (upd_facts B key khash keq project combine HB Hkeys Hcomb _ _ _ _ _ _ _ _ Eo H) as (r & Er & Hr).
  unfold c_upd. apply cwp_bind.
  eapply (cwp_do_upd B key khash keq gone HB Hhash G k found absent max_depth n);
    [apply top|apply Hhash|eapply holds_shaped; exact H|exact S|exact Er|].
  destruct r as [[n' b]|].
  - intros r h1 R1 Hr1. apply cwp_done. apply (HF (mkH r (h_size c + (if b then 1 else 0))%N)); [exact R1|].
    exists n'. split; [exact Hr1|exact Hr].
  - intros h1 R1. apply cwp_copy; [exact Hi|]. intros h2 R2. apply (HF c); [rl|]. exists n. split; [|exact Hr].
    assert (R02 : rely L (G ++ R) h h2) by rl. apply (own_rely _ _ _ _ _ _ _ R02) in S. apply S.
Qed.
Lemma cwp_upd_mut o k found absent calls c m (F : post hchamp) L R h : as_upd o = Some (k, found, absent, calls) ->
  has_map h c m ->
  (forall c' h', rely L (G ++ R) h h' -> has_map h' c' (astep o m) -> F c' L (h_root c' :: R) h') ->
  cwp (c_upd_mut B key khash keq gone k found absent c) F L (h_root c :: R) h.
Proof.
  intros Eo (n & S & H) HF.
  destruct (upd_facts B key khash keq project combine HB Hkeys Hcomb _ _ _ _ _ _ _ _ Eo H) as (r & Er & Hr).
  unfold c_upd_mut. apply cwp_bind.
  eapply (cwp_do_upd_mut B key khash keq gone HB Hhash G k found absent max_depth n);
    [apply top|apply Hhash|eapply holds_shaped; exact H|exact S|exact Er|].
  destruct r as [[n' b]|].
  - split.
    + intros r n'' h1 R1 Hsim Hr1. apply cwp_bind, cwp_done, cwp_done.
      apply (HF (mkH r (h_size c + (if b then 1 else 0))%N)); [exact R1|].
      exists n''. split; [exact Hr1|]. eapply holds_nsim; [exact Hkeys|exact Hsim|exact Hr].
    + intros r h1 R1 Hr1. apply cwp_roots with (R' := h_root c :: r :: R); [intros x; cbn [occ]; lia|].
      apply cwp_bind. apply cwp_destroy.
      * exists n. split; [eapply holds_shaped; exact H|]. eapply rely_rep; [exact R1|apply from_root, in_elt|exact S].
      * intros h2 R2. apply cwp_done. apply (HF (mkH r (h_size c + (if b then 1 else 0))%N)); [rl|].
        exists n'. split; [|exact Hr]. eapply rely_rep; [exact R2|apply from_root, in_elt|exact Hr1].
  - intros h1 R1. apply cwp_done. apply (HF c); [rl|]. exists n. split; [|exact Hr].
    eapply rely_rep; [exact R1|apply from_root, in_elt|exact S].
Qed.
Lemma cwp_sub k c m (F : post hchamp) L R h : In (h_root c) R -> has_map h c m -> rep h e0 (enc (@empty_node T)) ->
  (forall c' h', rely L (G ++ R) h h' -> has_map h' c' (adel keq k m) -> F c' L (h_root c' :: R) h') ->
  cwp (c_sub B key khash keq e0 k c) F L R h.
Proof.
  intros Hi Hm He HF. destruct (own_map _ _ _ _ Hi Hm) as (n & S & H).
  destruct (sub_facts B key khash keq HB Hkeys k _ _ _ H) as (r & Er & Hr).
  unfold c_sub. apply cwp_bind.
  eapply (cwp_do_sub B key khash keq gone e0 HB Hhash G (in_eq _ _) k max_depth n);
    [apply top|eapply holds_shaped; exact H|exact S|exact He|exact Er|].
  destruct r as [|v|n']; [| easy |].
  - intros h1 R1. apply cwp_copy; [exact Hi|]. intros h2 R2. apply (HF c); [rl|]. exists n. split; [|exact Hr].
    assert (R02 : rely L (G ++ R) h h2) by rl. apply (own_rely _ _ _ _ _ _ _ R02) in S. apply S.
  - intros r h1 R1 Hr1. apply cwp_done. apply (HF (mkH r (h_size c - 1)%N)); [exact R1|].
    exists n'. split; [exact Hr1|exact Hr].
Qed.
Notation c_apply := (c_apply B key khash keq project combine e0).
Notation c_mutate := (c_mutate B key khash keq project combine gone e0).
Lemma cwp_apply o c m (F : post hchamp) L R h : In (h_root c) R -> has_map h c m -> rep h e0 (enc (@empty_node T)) ->
  (forall c' h', rely L (G ++ R) h h' -> has_map h' c' (astep o m) -> F c' L (h_root c' :: R) h') ->
  cwp (c_apply o c) F L R h.
Proof.
  intros Hi Hm He HF. destruct o as [v|k fn d|k fn|k]; cbn [ChampConc.c_apply].
  - eapply (cwp_upd (OpInsert v)); [reflexivity|exact Hi|exact Hm|exact HF].
  - eapply (cwp_upd (OpUpdate k fn d)); [reflexivity|exact Hi|exact Hm|exact HF].
  - eapply (cwp_upd (OpUpdateIfExists k fn)); [reflexivity|exact Hi|exact Hm|exact HF].
  - eapply cwp_sub; [exact Hi|exact Hm|exact He|exact HF].
Qed.
Lemma cwp_mutate o c m (F : post hchamp) L R h : (forall k, o <> OpErase k) -> has_map h c m ->
  (forall c' h', rely L (G ++ R) h h' -> has_map h' c' (astep o m) -> F c' L (h_root c' :: R) h') ->
  cwp (c_mutate o c) F L (h_root c :: R) h.
Proof.
  intros Ho Hm HF. destruct o as [v|k fn d|k fn|k]; cbn [ChampConc.c_mutate].
  - eapply (cwp_upd_mut (OpInsert v)); [reflexivity|exact Hm|exact HF].
  - eapply (cwp_upd_mut (OpUpdate k fn d)); [reflexivity|exact Hm|exact HF].
  - eapply (cwp_upd_mut (OpUpdateIfExists k fn)); [reflexivity|exact Hm|exact HF].
  - now destruct (Ho k).
Qed.
Lemma cwp_get k c m (F : post (option T)) L R h : In (h_root c) R -> has_map h c m ->
  (forall h', rely L (G ++ R) h h' -> F (m k) L R h') -> cwp (c_get B key khash keq c k) F L R h.
Proof.
  intros Hi Hm HF. destruct (own_map _ _ _ _ Hi Hm) as (n & S & H). unfold c_get.
  eapply cwp_get_loop; [eapply holds_shaped; exact H|exact S| |exact HF].
  exact (holds_get B key khash keq HB Hkeys _ _ k H).
Qed.

(** ** Programs *)
Notation vrel := (vrel B key khash keq).
Notation rest := (rest vptr VGone).
Notation roots := (roots vptr).
Notation mspec := (mspec key keq project combine).
Notation mspecs := (mspecs key keq project combine).
Notation msees := (msees key keq).
Notation c_step := (c_step B key khash keq project combine gone e0).
Notation c_thread := (c_thread B key khash keq project combine gone e0).

Record tinv (l : list mvar) (s : list (avar T K)) (h : heap) : Prop := mkT {
  t_rel : Forall2 (vrel h) l s;
  t_e0 : rep h e0 (enc (@empty_node T)) }.
Lemma vrel_rely R h h' x y : rely [] (G ++ R) h h' -> incl (vptr x) R -> vrel h x y -> vrel h' x y.
Proof.
  intros Rl Hi. destruct x as [|c|c], y as [| |m]; cbn; try easy.
  - eapply tree_rely; [exact Rl|]. apply Hi. now left.
  - eapply map_rely; [exact Rl|]. apply Hi. now left.
Qed.
Lemma vrels_rely R h h' l s : rely [] (G ++ R) h h' -> incl (roots l) R -> Forall2 (vrel h) l s -> Forall2 (vrel h') l s.
Proof.
  intros Rl Hi H. induction H as [|x y l s Hx _ IH]; constructor.
  - eapply vrel_rely; [exact Rl| |exact Hx]. intros a Ha. apply Hi. cbn. apply in_or_app. now left.
  - apply IH. intros a Ha. apply Hi. cbn. apply in_or_app. now right.
Qed.
Lemma tinv_rely l s h h' : rely [] (G ++ roots l) h h' -> tinv l s h -> tinv l s h'.
Proof.
  intros Rl [H1 H2]. split; [eapply vrels_rely; [exact Rl|apply incl_refl|exact H1]|eapply e0_rely; [exact Rl|exact H2]].
Qed.
Lemma tinv_at l s h i : tinv l s h -> vrel h (mvar_at l i) (avar_at s i).
Proof. intros I. apply (rel_nth VGone AGone (vrel h) l s i); [exact (t_rel _ _ _ I)|exact Logic.I]. Qed.
Lemma at_root l i c : champ_of (mvar_at l i) = Some c -> In (h_root c) (roots l).
Proof.
  intros E. assert (mvar_at l i <> VGone) as Hn by (intros E'; rewrite E' in E; discriminate).
  pose proof (mvar_nth _ _ _ eq_refl Hn) as En. apply nth_error_In in En. apply in_flat_map.
  exists (mvar_at l i). split; [exact En|]. rewrite (champ_ptr _ _ E). now left.
Qed.
(** A new variable, and a variable with a new value. *)
Lemma tinv_add l s h h' x y : tinv l s h -> rely [] (G ++ roots l) h h' -> vrel h' x y -> tinv (l ++ [x]) (s ++ [y]) h'.
Proof.
  intros I Rl Hx. apply (tinv_rely _ _ _ _ Rl) in I. destruct I as [H1 H2]. split; [|exact H2].
  apply Forall2_app; [exact H1|]. now repeat constructor.
Qed.
Lemma tinv_set l s h h' i x y : tinv l s h -> rely [] (G ++ rest i l) h h' -> vrel h' x y ->
  tinv (update_at i x l) (update_at i y s) h'.
Proof.
  intros [H1 H2] Rl Hx. split; [|eapply e0_rely; [exact Rl|exact H2]].
  assert (Forall2 (vrel h') (update_at i VGone l) (update_at i AGone s)) as H.
  { eapply vrels_rely; [exact Rl|apply incl_refl|]. apply rel_upd; [exact Logic.I|exact H1]. }
  apply (rel_upd (vrel h') _ _ _ _ Hx) with (i := i) in H. now rewrite !upd_upd in H.
Qed.

(** What a statement ends in. *)
Definition stepped (s : list (avar T K)) (o : mop T K V) : post (list mvar * mobs T) := fun r L R h =>
  L = [] /\ R = roots (fst r) /\ msees s o (snd r) /\ tinv (fst r) (mspec s o (is_throw (snd r))) h.
Lemma cwp_step l s o h : tinv l s h -> mfates o = [] -> erases_in_place o = false ->
  cwp (c_step l o) (stepped s o) [] (roots l) h.
Proof.
  intros I Hf He. pose proof (t_e0 _ _ _ I) as S0.
  assert (Same : forall x, msees s o x -> mspec s o (is_throw x) = s -> cwp (Done (l, x)) (stepped s o) [] (roots l) h).
  { intros x Hx Es. apply cwp_done. split; [reflexivity|]. split; [reflexivity|]. split; [exact Hx|]. cbn [fst snd]. rewrite Es. exact I. }
  assert (Add : forall x y h' L R, rely [] (G ++ roots l) h h' -> vrel h' x y -> L = [] ->
    (forall a, occ a R = occ a (vptr x ++ roots l)) -> msees s o ONone -> mspec s o false = s ++ [y] ->
    cwp (Done (l ++ [x], ONone)) (stepped s o) L R h').
  { intros x y h' L R Rl Hx -> HO Hs Es. apply cwp_roots with (R' := roots (l ++ [x])).
    { intros a. rewrite HO, (roots_app vptr), !occ_app. lia. }
    apply cwp_done. split; [reflexivity|]. split; [reflexivity|]. split; [exact Hs|]. cbn [fst snd is_throw].
    rewrite Es. eapply tinv_add; [exact I|exact Rl|exact Hx]. }
  assert (Set' : forall i x0 x y h' L R, nth_error l i = Some x0 -> rely [] (G ++ rest i l) h h' -> vrel h' x y -> L = [] ->
    (forall a, occ a R = occ a (vptr x ++ rest i l)) -> msees s o ONone -> mspec s o false = update_at i y s ->
    cwp (Done (update_at i x l, ONone)) (stepped s o) L R h').
  { intros i x0 x y h' L R En Rl Hx -> HO Hs Es. apply cwp_roots with (R' := roots (update_at i x l)).
    { intros a. rewrite HO, (rest_roots vptr VGone eq_refl _ _ _ x En), !occ_app. lia. }
    apply cwp_done. split; [reflexivity|]. split; [reflexivity|]. split; [exact Hs|]. cbn [fst snd is_throw].
    rewrite Es. eapply tinv_set; [exact I|exact Rl|exact Hx]. }
  assert (Take : forall i c, champ_of (mvar_at l i) = Some c -> nth_error l i = Some (mvar_at l i) /\
     forall a, occ a (roots l) = occ a (h_root c :: rest i l)).
  { intros i c Ec. assert (mvar_at l i <> VGone) as Hn by (intros E; rewrite E in Ec; discriminate).
    pose proof (mvar_nth _ _ _ eq_refl Hn) as En. split; [exact En|]. intros a.
    rewrite (roots_rest vptr VGone eq_refl _ _ _ En), (champ_ptr _ _ Ec). cbn [occ]. lia. }
  assert (Take' : forall i c h', champ_of (mvar_at l i) = Some c -> rely [] (G ++ roots l) h h' -> rely [] (G ++ rest i l) h h').
  { intros i c h' Ec Rl. eapply rely_incl; [apply incl_refl| |exact Rl]. apply incl_app; [inc|]. apply incl_appr.
    destruct (Take i c Ec) as [_ HO]. intros x Hx. apply occ_in. rewrite HO. cbn. apply occ_in in Hx. lia. }
  destruct o as [|i|i|i j|i j|i|i o f|i o f|i k f|i]; cbn [ChampConc.c_step].
  - apply cwp_bind. apply cwp_empty; [exact S0|]. intros c h1 R1 H1.
    eapply (Add (VHas c) (AHas aempty)); [exact R1|exact H1|reflexivity|reflexivity|exact Logic.I|reflexivity].
  - pose proof (tinv_at _ _ _ i I) as Hv. destruct (champ_of (mvar_at l i)) as [c|] eqn:Ec.
    + apply cwp_bind. apply cwp_copy; [eapply at_root; exact Ec|]. intros h1 R1. rewrite (with_same _ _ Ec).
      eapply (Add (mvar_at l i) (avar_at s i)); [exact R1| |reflexivity| |exact Logic.I|reflexivity].
      * eapply vrel_rely; [exact R1| |exact Hv]. rewrite (champ_ptr _ _ Ec). intros x [<-|[]]. eapply at_root; exact Ec.
      * rewrite (champ_ptr _ _ Ec). reflexivity.
    + destruct (champ_none _ _ _ _ _ _ _ Hv Ec) as [_ E].
      eapply (Add VGone AGone); [apply rely_refl|exact Logic.I|reflexivity|reflexivity|exact Logic.I|]. cbn. now rewrite E.
  - pose proof (tinv_at _ _ _ i I) as Hv. destruct (champ_of (mvar_at l i)) as [c|] eqn:Ec.
    + apply cwp_bind. apply cwp_empty; [exact S0|]. intros c' h1 R1 H1. destruct (Take i c Ec) as [En HO].
      apply cwp_roots with (R' := roots (update_at i (VHas c') l ++ [mvar_at l i])).
      { intros a. rewrite (roots_app vptr), occ_app, (rest_roots vptr VGone eq_refl _ _ _ (VHas c') En), (champ_ptr _ _ Ec).
        specialize (HO a). cbn [occ vptr] in *. lia. }
      apply cwp_done. split; [reflexivity|]. split; [reflexivity|]. split; [exact Logic.I|]. cbn [fst snd is_throw ChampProgSpec.mspec].
      assert (tinv (update_at i (VHas c') l ++ [mvar_at l i]) (update_at i (AHas aempty) s ++ [avar_at s i]) h1) as J.
      { pose proof (tinv_set _ _ _ h1 i (VHas c') (AHas aempty) I (Take' i c h1 Ec R1) H1) as [J1 J2]. split; [|exact J2].
        apply Forall2_app; [exact J1|]. constructor; [|constructor].
        eapply vrel_rely; [exact R1| |exact Hv]. rewrite (champ_ptr _ _ Ec). intros x [<-|[]]. eapply at_root; exact Ec. }
      destruct (avar_at s i) eqn:Ea; [|exact J..]. destruct (mvar_at l i); cbn in Hv, Ec; easy.
    + destruct (champ_none _ _ _ _ _ _ _ Hv Ec) as [_ E].
      eapply (Add VGone AGone); [apply rely_refl|exact Logic.I|reflexivity|reflexivity|exact Logic.I|]. cbn. now rewrite E.
  - pose proof (tinv_at _ _ _ i I) as Hv. pose proof (tinv_at _ _ _ j I) as Hw.
    destruct (champ_of (mvar_at l i)) as [c|] eqn:Ec.
    + destruct (champ_of (mvar_at l j)) as [d|] eqn:Ed.
      * destruct (Take i c Ec) as [En HO].
        apply cwp_bind. apply cwp_copy; [eapply at_root; exact Ed|]. intros h1 R1.
        apply cwp_roots with (R' := h_root c :: h_root d :: rest i l).
        { intros a. specialize (HO a). cbn [occ] in *. lia. }
        apply cwp_bind. apply cwp_destroy.
        { eapply tree_rely; [exact R1|eapply at_root; exact Ec|]. eapply vrel_champ; [exact Hv|exact Ec]. }
        intros h2 R2. rewrite (with_same _ _ Ed).
        eapply (Set' i (mvar_at l i) (mvar_at l j) (avar_at s j)); [exact En| | |reflexivity| |exact Logic.I|].
        -- pose proof (Take' i c h1 Ec R1) as R1'. rl.
        -- eapply vrel_rely; [exact R2| |].
           ++ rewrite (champ_ptr _ _ Ed). intros x [<-|[]]. now left.
           ++ eapply vrel_rely; [exact R1| |exact Hw]. rewrite (champ_ptr _ _ Ed). intros x [<-|[]]. eapply at_root; exact Ed.
        -- rewrite (champ_ptr _ _ Ed). reflexivity.
        -- cbn. destruct (avar_at s i); [destruct (mvar_at l i); cbn in Hv, Ec; easy|..];
             (destruct (avar_at s j); [destruct (mvar_at l j); cbn in Hw, Ed; easy|reflexivity..]).
      * destruct (champ_none _ _ _ _ _ _ _ Hw Ed) as [_ E]. apply Same; [exact Logic.I|]. cbn. rewrite E. destruct (avar_at s i); reflexivity.
    + destruct (champ_none _ _ _ _ _ _ _ Hv Ec) as [_ E]. apply Same; [exact Logic.I|]. cbn. now rewrite E.
  - pose proof (tinv_at _ _ _ i I) as Hv. pose proof (tinv_at _ _ _ j I) as Hw.
    destruct (champ_of (mvar_at l i)) as [c|] eqn:Ec.
    + destruct (champ_of (mvar_at l j)) as [d|] eqn:Ed.
      * destruct (Take i c Ec) as [En _]. destruct (Take j d Ed) as [Em _].
        apply cwp_roots with (R' := roots (update_at i (mvar_at l j) (update_at j (mvar_at l i) l))).
        { intros a. pose proof (roots_upd vptr l j _ (mvar_at l i) a Em) as E1.
          destruct (Nat.eq_dec i j) as [<-|Hn].
          - rewrite upd_upd. lia.
          - assert (nth_error (update_at j (mvar_at l i) l) i = Some (mvar_at l i)) as E3 by (rewrite nth_upd; auto).
            pose proof (roots_upd vptr _ i _ (mvar_at l j) a E3) as E2. lia. }
        apply cwp_done. split; [reflexivity|]. split; [reflexivity|]. split; [exact Logic.I|].
        cbn [fst snd is_throw ChampProgSpec.mspec].
        assert (tinv (update_at i (mvar_at l j) (update_at j (mvar_at l i) l)) (update_at i (avar_at s j) (update_at j (avar_at s i) s)) h) as J.
        { destruct I as [I1 I2]. split; [|exact I2]. apply rel_upd; [exact Hw|]. apply rel_upd; [exact Hv|exact I1]. }
        destruct (avar_at s i); [destruct (mvar_at l i); cbn in Hv, Ec; easy|..];
          (destruct (avar_at s j); [destruct (mvar_at l j); cbn in Hw, Ed; easy|exact J..]).
      * destruct (champ_none _ _ _ _ _ _ _ Hw Ed) as [_ E]. apply Same; [exact Logic.I|]. cbn. rewrite E. destruct (avar_at s i); reflexivity.
    + destruct (champ_none _ _ _ _ _ _ _ Hv Ec) as [_ E]. apply Same; [exact Logic.I|]. cbn. now rewrite E.
  - pose proof (tinv_at _ _ _ i I) as Hv. destruct (champ_of (mvar_at l i)) as [c|] eqn:Ec.
    + destruct (Take i c Ec) as [En HO]. apply cwp_roots with (R' := h_root c :: rest i l); [exact HO|].
      apply cwp_bind. apply cwp_destroy; [eapply vrel_champ; [exact Hv|exact Ec]|]. intros h1 R1.
      eapply (Set' i _ VGone AGone); [exact En|exact R1|exact Logic.I|reflexivity|reflexivity|exact Logic.I|reflexivity].
    + destruct (champ_none _ _ _ _ _ _ _ Hv Ec) as [_ E]. apply Same; [exact Logic.I|].
      cbn [is_throw ChampProgSpec.mspec]. apply upd_none. exact E.
  - pose proof (tinv_at _ _ _ i I) as Hv. destruct (mvar_at l i) as [|c|c] eqn:Ec;
      destruct (avar_at s i) as [| |m] eqn:Ea; cbn in Hv; try easy.
    1-2: eapply (Add VGone AGone); [apply rely_refl|exact Logic.I|reflexivity|reflexivity|exact Logic.I|]; cbn; now rewrite Ea.
    apply cwp_bind. eapply cwp_apply with (m := m); [eapply at_root; rewrite Ec; reflexivity|exact Hv|exact S0|].
    intros c' h1 R1 H1.
    eapply (Add (VHas c') (AHas (astep o m))); [exact R1|exact H1|reflexivity|reflexivity|exact Logic.I|]. cbn. now rewrite Ea.
  - pose proof (tinv_at _ _ _ i I) as Hv. destruct (mvar_at l i) as [|c|c] eqn:Ec;
      destruct (avar_at s i) as [| |m] eqn:Ea; cbn in Hv; try easy.
    1-2: apply Same; [exact Logic.I|]; cbn; now rewrite Ea.
    destruct (Take i c) as [En HO]; [now rewrite Ec|]. apply cwp_roots with (R' := h_root c :: rest i l); [exact HO|].
    apply cwp_bind. eapply cwp_mutate with (m := m); [|exact Hv|].
    { intros k ->. discriminate. }
    intros c' h1 R1 H1.
    eapply (Set' i _ (VHas c') (AHas (astep o m))); [exact En|exact R1|exact H1|reflexivity|reflexivity|exact Logic.I|]. cbn. now rewrite Ea.
  - pose proof (tinv_at _ _ _ i I) as Hv. destruct (mvar_at l i) as [|c|c] eqn:Ec;
      destruct (avar_at s i) as [| |m] eqn:Ea; cbn in Hv; try easy.
    1-2: apply Same; [cbn; intros m; rewrite Ea; discriminate|reflexivity].
    apply cwp_bind. eapply cwp_get with (m := m); [eapply at_root; rewrite Ec; reflexivity|exact Hv|].
    intros h1 R1. apply cwp_done. split; [reflexivity|]. split; [reflexivity|]. split; [exists m; now split|].
    eapply tinv_rely; [exact R1|exact I].
  - pose proof (tinv_at _ _ _ i I) as Hv. destruct (mvar_at l i) as [|c|c] eqn:Ec;
      destruct (avar_at s i) as [| |m] eqn:Ea; cbn in Hv; try easy.
    1-2: apply Same; [cbn; intros m; rewrite Ea; discriminate|reflexivity].
    apply Same; [|reflexivity]. destruct Hv as (n & S & H). cbn.
    exists m, (elems n). split; [exact Ea|].
    split; [exact (holds_lists B key khash keq HB Hkeys _ _ H)|]. exact (proj1 (proj2 H)).
Qed.

Definition ended (s : list (avar T K)) (os : list (mop T K V)) : post (list mvar * list (mobs T)) := fun r L R h =>
  L = [] /\ R = roots (fst r) /\ exists s', mspecs s os (snd r) s' /\ tinv (fst r) s' h.
Lemma cwp_thread os : forall l s h, tinv l s h ->
  Forall (fun o => mfates o = [] /\ erases_in_place o = false) os ->
  cwp (c_thread l os) (ended s os) [] (roots l) h.
Proof.
  induction os as [|o os IH]; intros l s h I Ho; cbn [ChampConc.c_thread].
  - apply cwp_done. split; [reflexivity|]. split; [reflexivity|]. exists s. now split.
  - inversion Ho as [|? ? [Hf He] Ho2]; subst. apply cwp_bind.
    eapply cwp_mono; [|apply cwp_step; [exact I|exact Hf|exact He]].
    intros [l1 x] L1 R1 h1 (-> & -> & Hx & I1). cbn [fst snd] in *. apply cwp_bind.
    eapply cwp_mono; [|apply IH; [exact I1|exact Ho2]].
    intros [l2 xs] L2 R2 h2 (-> & -> & s' & Hs & I2). cbn [fst snd] in *. apply cwp_done.
    split; [reflexivity|]. split; [reflexivity|]. exists s'. cbn. auto.
Qed.
End Prog.
