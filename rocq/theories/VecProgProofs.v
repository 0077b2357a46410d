(** Programs over vector variables on counted memory see what the specification says. *)
From Coq Require Import List NArith Arith Bool Lia ZifyN ZifyNat ZifyBool.
From Verif Require Import Common NList Rrb RrbInv RrbPos RrbOps RrbSlice RrbTree RrbSpec AtomProofs RcHeap RcProofs RcExn RcExnProofs RcMove
  VecHeap VecNodes VecMake VecTree VecTreeProofs VecConcat VecConcatTree VecConcatTreeProofs ProgVars VecProgSpec VecProg.
Import ListNotations.
Set Default Goal Selector "!".

Section Prog.
Variables B BL : N.
Context {T : Type}.
Variable gone : T -> T.
Variable nm : bool.
Variables er et : bool -> nat.
Hypothesis HB : (1 <= B)%N.

Notation body := (vbody T).
Notation heap := (heap body).
Notation vec := (@vec T B BL).
Notation made := (@made T B BL).
Notation back := (@back T).
Notation statics rx := (@statics T (er rx) (et rx)).

Lemma mv_frame R h h' : mv (B := body) (Some R) [] [] [] h h' -> frame [] (fun a => In a R) h h'.
Proof.
  intros M. pose proof M as (_ & _ & Hl). split; [intros x []|]. split; [|exact Hl].
  intros a t Ha H. eapply mv_srep; [exact M|exact Ha|exact H].
Qed.
Lemma frame_vec P h h' rx x l : frame [] P h h' -> (forall a, In a (hptr x) -> P a) -> vec rx [] h x l -> vec rx [] h' x l.
Proof.
  intros F HP (r & xs & (E1 & E2 & E3 & E4 & E5 & N1 & N2) & E). exists r, xs. split; [|exact E].
  repeat (split; [assumption|]). split; (eapply frame_rep; [exact F| |eassumption]); apply HP; cbn; auto.
Qed.

(** ** The depth of a vector *)
Lemma vec_dense L h x l : vec false L h x l -> (1 <= ht_lv x)%nat -> (2 ^ (BL + N.of_nat (ht_lv x) * B) <= N.of_nat (length l))%N.
Proof.
  intros (r & xs & (E1 & E2 & E3 & E4 & E5 & _) & ->) Hd. destruct (E5 eq_refl) as [Hr [H|H]]; [lia|].
  destruct E4 as [[_ ?]|Hw]; [lia|]. pose proof (wf_nonrel_reg _ _ _ _ Hw Hr) as Hg.
  destruct (wf_inner _ _ _ _ Hw) as (o & ns & ->). destruct o; [discriminate|]. cbn [reg kids] in *.
  destruct Hg as (init & last & -> & Hf & Hl & _). destruct init as [|c init].
  - unfold lenN in H. cbn in H. lia.
  - inversion Hf as [|? ? Hc _]; subst. pose proof (full_size _ _ _ _ Hc) as Hs. unfold span, sh in Hs.
    change (elems (Inner None ((c :: init) ++ [last]))) with (elems c ++ flat_map elems (init ++ [last])).
    rewrite !app_length. unfold nsize, lenN in Hs. lia.
Qed.

(** ** Operations on one container *)
Lemma list_set_split (l : list T) i fn : (i < N.of_nat (length l))%N -> exists A e Z, l = A ++ e :: Z /\ lenN A = i /\
  list_set l (N.to_nat i) fn = A ++ fn e :: Z.
Proof.
  intros H. destruct (splitN i l ltac:(unfold lenN; lia)) as (A & e & Z & -> & E). exists A, e, Z. split; [reflexivity|].
  split; [exact E|]. apply list_set_app. unfold lenN in E. lia.
Qed.
Lemma list_set_out (l : list T) i fn : (N.of_nat (length l) <= i)%N -> list_set l (N.to_nat i) fn = l.
Proof. intros H. unfold list_set. rewrite skipn_all2 by lia. reflexivity. Qed.
Lemma too_deep_drop x n (l : list T) : ht_size x = lenN l -> too_deep B BL x (VDrop (T := T) n) = true -> deep_drop B BL (ht_lv x) l.
Proof.
  intros E H. cbn [too_deep] in H. apply orb_prop in H. unfold deep_drop. rewrite E in H. unfold sh, lenN in *.
  destruct H as [H|H]; [left|right]; lia.
Qed.

(** A vector is a flex_vector. *)
Lemma vec_flex L h x l : vec false L h x l -> vec true L h x l.
Proof.
  intros (r & xs & (E1 & E2 & E3 & E4 & E5 & N1 & N2) & E). exists r, xs. split; [|exact E].
  repeat (split; [assumption|]). split; [intros ?; discriminate|]. auto.
Qed.

Section Ops.
Variable t : bool.
Lemma apply_ok rx o h R x l : st [] h R -> vec rx [] h x l -> In (ht_tail x) R -> statics rx [] h R ->
  offers rx o = true -> too_deep B BL x o = false ->
  xwp t (apply_v B BL nm er et rx o x) h (made rx None [] h R (vstep o l)) (back [] h R).
Proof.
  intros S Hv Ht Hst Ho Hd. pose proof (vec_size _ _ _ _ _ _ _ Hv) as Hs. destruct o as [v|i fn|n|n]; cbn [apply_v vstep].
  - now apply hpush_back_ok.
  - destruct (N.ltb_spec i (ht_size x)) as [Hi|Hi].
    + rewrite Hs in Hi. destruct (list_set_split l i fn Hi) as (A & e & Z & -> & <- & ->). now apply hupdate_tree_ok.
    + rewrite Hs in Hi. rewrite list_set_out by exact Hi. apply xwp_m. eapply wp_hcopy; eauto.
  - now apply htake_ok.
  - cbn [offers too_deep] in *. apply orb_false_elim in Hd. apply hdrop_ok; auto; lia.
Qed.
Lemma back_vec rx h R x l h' : vec rx [] h x l -> back [] h (hptr x ++ R) h' -> kept_back B BL rx [] h R x l h'.
Proof.
  intros Hv [S M]. split; [exact S|]. split.
  - eapply mv_sub; [exact M|]. intros y Hy. apply in_or_app. now right.
  - eapply mv_vec; [exact M| | |exact Hv]; cbn; auto.
Qed.
Definition mpost rx R h (o : vop T) l (yb : htree * bool) h' : Prop :=
  made rx (Some R) [] h R (if snd yb then match o with VUpdate k _ => list_set l (N.to_nat k) gone | _ => l end else vstep o l) (fst yb) h' /\
  (snd yb = true -> t = true /\ exists k fn, o = VUpdate k fn /\ (k < N.of_nat (length l))%N).
Lemma mutate_ok rx o h R x l : st [] h (hptr x ++ R) -> vec rx [] h x l -> statics rx [] h R ->
  offers rx o = true -> too_deep B BL x o = false -> (rx = true -> match o with VPush _ | VTake _ => t = false | _ => True end) ->
  xwp t (mutate_v B BL gone nm er et rx o x) h (mpost rx R h o l) (kept_back B BL rx [] h R x l).
Proof.
  intros S Hv Hst Ho Hd Ht. pose proof (vec_size _ _ _ _ _ _ _ Hv) as Hs. destruct o as [v|i fn|n|n]; cbn [mutate_v vstep].
  - apply xwp_bind. eapply xwp_mono; [apply hpush_back_mut_ok with (l := l); eauto| |intros h'; now apply back_vec].
    intros y h' M. apply xwp_ret. split; [exact M|discriminate].
  - destruct (N.ltb_spec i (ht_size x)) as [Hi|Hi].
    + rewrite Hs in Hi. destruct (list_set_split l i fn Hi) as (A & e & Z & -> & <- & E).
      eapply xwp_mono; [apply hupdate_mut_ok; eauto| |intros h'; now apply back_vec].
      intros [y b] h' [M Hb]. split.
      * cbn [snd fst vstep] in *. destruct b; [|now rewrite E].
        rewrite list_set_app; [exact M|]. unfold lenN. lia.
      * intros Eb. split; [now apply Hb|]. exists (lenN A), fn. split; [reflexivity|exact Hi].
    + rewrite Hs in Hi. apply xwp_ret. split; [|discriminate]. cbn [snd fst vstep].
      rewrite list_set_out by exact Hi. split; [exact S|]. split; [apply mv_refl|exact Hv].
  - apply xwp_bind. eapply xwp_mono; [apply htake_mut_ok with (l := l); eauto| |intros h'; now apply back_vec].
    intros y h' M. apply xwp_ret. split; [exact M|discriminate].
  - cbn [offers too_deep] in *. apply orb_false_elim in Hd. apply xwp_bind.
    eapply xwp_mono; [apply hdrop_mut_ok with (l := l) (L := []) (R := R); auto; lia| |auto].
    intros y h' M. apply xwp_ret. split; [exact M|discriminate].
Qed.
End Ops.

(** ** Programs *)
Lemma F2_len {X Y} (P : X -> Y -> Prop) l s : Forall2 P l s -> length l = length s.
Proof. induction 1; cbn; congruence. Qed.
Definition vptr (x : vvar) : list nat := match x with HGone => [] | HHas _ x => hptr x end.
Definition prel (h : heap) (x : vvar) (y : sq T) : Prop :=
  match x, y with
  | HGone, QGone => True
  | HHas rx x, QHas fx l => rx = fx /\ vec rx [] h x l
  | _, _ => False
  end.
Lemma prel_frame1 P h h' x y : frame [] P h h' -> (forall a, In a (vptr x) -> P a) -> prel h x y -> prel h' x y.
Proof.
  intros F HP. destruct x as [|rx x], y as [|fx l]; cbn; try easy. intros [E H]. split; [exact E|].
  eapply frame_vec; eauto.
Qed.
Definition base : list nat := [er false; et false; er true; et true].
Definition bases : list (rtree body) := [enc (Inner None []); enc (Leaf []); enc (Inner None []); enc (Leaf [])].
Notation pinv := (vinv vptr prel base bases).
Notation rest := (rest vptr HGone).
Notation roots := (roots vptr).

(** Whether something in the operation throws. *)
Definition throwing (f : list bool) : bool := match f with [] => false | _ => true end.
Definition pok (l : list vvar) (h : heap) (o : pop T) : Prop := ~ hazard BL l h o /\ wide B o.

Lemma wp_vcatch {A} f (m : X body A) (h : heap) (Q : A -> heap -> Prop) (E : heap -> Prop)
  (Q' : option A -> heap -> Prop) : xwp (throwing f) m h Q E ->
  (forall a h', Q a h' -> Q' (Some a) h') -> (forall h', f <> [] -> E h' -> Q' None h') ->
  wp (vcatch f m) h Q'.
Proof.
  intros H HQ HE. specialize (H f). unfold wp, vcatch.
  assert (throwing f = false -> f = []) as Hf by now destruct f.
  specialize (H Hf). destruct (m f h) as [[[[a|] f'] h']|]; [| |exact H].
  - apply HQ. apply H.
  - destruct H as [Ht H]. apply HE; [|exact H]. intros ->. discriminate.
Qed.
Lemma prel_at l s h i : pinv l s h -> prel h (vvar_at l i) (sq_at s i).
Proof. intros I. apply (rel_nth HGone QGone (prel h) l s i); [exact (v_rel _ _ _ _ _ _ _ I)|exact Logic.I]. Qed.
Lemma vvar_nth l i x : vvar_at l i = x -> x <> HGone -> nth_error l i = Some x.
Proof. apply at_nth. Qed.
Lemma inv_statics l s h R rx : pinv l s h -> incl base R -> statics rx [] h R.
Proof.
  intros I Hi. pose proof (v_base _ _ _ _ _ _ _ I) as H. unfold base, bases in *.
  inversion H as [|? ? ? ? H1 H']; subst. inversion H' as [|? ? ? ? H2 H'']; subst. inversion H'' as [|? ? ? ? H3 Hc]; subst.
  inversion Hc as [|? ? ? ? H4 _]; subst. destruct rx; (split; [apply Hi; cbn; auto|split; [apply Hi; cbn; auto|split; assumption]]).
Qed.
Lemma add_gone l s h : pinv l s h -> pinv (l ++ [HGone]) (s ++ [QGone]) h.
Proof.
  intros I. apply vinv_add with (h := h); [exact prel_frame1|exact I|apply frame_refl| |exact Logic.I].
  cbn [vptr app]. exact (v_st _ _ _ _ _ _ _ I).
Qed.
Lemma upd_none {A} (l : list A) i d : nth i l d = d -> update_at i d l = l.
Proof. revert i. induction l as [|x l IH]; intros [|i] E; cbn in *; congruence || (f_equal; auto). Qed.
Lemma upd_last {A} (l : list A) : forall i n x y z, i < length l -> n = length l ->
  update_at i x (update_at n y (l ++ [z])) = update_at i x l ++ [y].
Proof.
  induction l as [|w l IH]; intros [|i] n x y z Hi ->; cbn in *; try lia.
  - f_equal. clear. induction l; cbn; [reflexivity|]. now f_equal.
  - f_equal. apply IH; lia.
Qed.
(** A new variable with a new handle. *)
Lemma add_made l s h rx y m h' K : pinv l s h -> made rx K [] h (base ++ roots l) m y h' ->
  (K = None \/ K = Some (base ++ roots l)) -> pinv (l ++ [HHas rx y]) (s ++ [QHas rx m]) h'.
Proof.
  intros I (S & M & V) HK. apply vinv_add with (h := h); [exact prel_frame1|exact I| |exact S|split; [reflexivity|exact V]].
  apply mv_frame. destruct HK as [->| ->]; [now apply mv_all|exact M].
Qed.
Lemma add_back l s h h' : pinv l s h -> back [] h (base ++ roots l) h' -> pinv (l ++ [HGone]) (s ++ [QGone]) h'.
Proof.
  intros I (S & M). apply vinv_add with (h := h); [exact prel_frame1|exact I|now apply mv_frame|exact S|exact Logic.I].
Qed.
(** A variable whose handle was changed. *)
Lemma set_made l s h i x0 rx y m h' : pinv l s h -> nth_error l i = Some x0 ->
  made rx (Some (base ++ rest i l)) [] h (base ++ rest i l) m y h' -> pinv (update_at i (HHas rx y) l) (update_at i (QHas rx m) s) h'.
Proof.
  intros I E (S & M & V). apply vinv_set with (h := h) (x0 := x0) (none := HGone) (anone := QGone);
    [reflexivity|intros; exact Logic.I|exact prel_frame1|exact I|exact E|now apply mv_frame|exact S|split; [reflexivity|exact V]].
Qed.
Lemma set_same {A} (l : list A) : forall i x, nth_error l i = Some x -> update_at i x l = l.
Proof. induction l as [|y l IH]; intros [|i] x E; cbn in *; try discriminate; [now injection E as ->|f_equal; auto]. Qed.

Notation pstep := (pstep B BL gone nm er et).
Notation pspec := (pspec gone).
Notation psees := (psees B BL).
Ltac go := cbn [fst snd VecProgSpec.pspec].
Lemma sees_apply (s : list (sq T)) i o f : psees s (PApply i o f) SNone.
Proof. now destruct o. Qed.
Lemma sees_mutate (s : list (sq T)) fx i o f : psees s (PMutate fx i o f) SNone.
Proof. now destruct o. Qed.
Lemma sees_apply_threw (s : list (sq T)) i o f : f <> [] -> psees s (PApply i o f) SThrew.
Proof. now destruct o. Qed.
Lemma sees_mutate_threw (s : list (sq T)) fx i o f : f <> [] -> psees s (PMutate fx i o f) SThrew.
Proof. now destruct o. Qed.
Lemma too_big_deep y (l : list T) : ht_size y = lenN l -> too_big B BL y = true -> deep_drop B BL (ht_lv y) l.
Proof. exact (too_deep_drop y 0 l). Qed.
Lemma firstn_take (l : list T) k : firstn (N.to_nat k) l = takeN k l.
Proof. reflexivity. Qed.
Lemma sees_concat (s : list (sq T)) m i j f : psees s (PConcat m i j f) SNone.
Proof. now destruct m. Qed.
Lemma concat_ok l s h m i j f : pinv l s h -> pok l h (PConcat m i j f) ->
  wp (pstep l (PConcat m i j f)) h (fun r h' => psees s (PConcat m i j f) (snd r) /\ pinv (fst r) (pspec s (PConcat m i j f) (snd r)) h').
Proof.
  intros I [Hz H2]. cbn [wide] in H2. pose proof (v_st _ _ _ _ _ _ _ I) as T0. change (base ++ flat_map vptr l) with (base ++ roots l) in T0.
  assert (Hskip : pinv (match m with CNew => l ++ [HGone] | _ => l end)
    (match m with CNew => s ++ [QGone] | _ => s end) h).
  { destruct m; try exact I. now apply add_gone. }
  assert (Hin : forall i x, vvar_at l i = HHas true x -> nth_error l i = Some (HHas true x)) by (intros; now apply vvar_nth).
  cbn [VecProg.pstep]. pose proof (prel_at _ _ _ i I) as Hv. pose proof (prel_at _ _ _ j I) as Hw.
  destruct (vvar_at l i) as [|rx x] eqn:Ex, (sq_at s i) as [|fx ax] eqn:Eq; cbn in Hv; try easy.
  { apply wp_ret. split; [apply sees_concat|]. go. rewrite Eq. exact Hskip. }
  destruct Hv as [-> Hv]. destruct fx.
  2:{ apply wp_ret. split; [apply sees_concat|]. go. rewrite Eq. exact Hskip. }
  destruct (vvar_at l j) as [|ry y] eqn:Ey, (sq_at s j) as [|fy ay] eqn:Er; cbn in Hw; try easy.
  { apply wp_ret. split; [apply sees_concat|]. go. rewrite Eq, Er. exact Hskip. }
  destruct Hw as [-> Hw]. destruct fy.
  2:{ apply wp_ret. split; [apply sees_concat|]. go. rewrite Eq, Er. exact Hskip. }
  destruct (too_big B BL y) eqn:Ed.
  { apply wp_ret. go. rewrite Eq, Er. split.
    - destruct m; cbn; exists ay; (split; [exact Er|]); apply too_big_deep; auto; now apply (vec_size _ _ _ _ _ _ _ Hw).
    - destruct m; (exact I || now apply add_gone). }
  assert (Hbd : bounded B BL y) by (unfold too_big in Ed; apply orb_false_elim in Ed; unfold bounded; lia).
  pose proof (Hin _ _ Ex) as En. pose proof (Hin _ _ Ey) as Em. cbn [hazard] in Hz. rewrite Ex, Ey in Hz.
  assert (Hri : incl (hptr x) (base ++ roots l)).
  { intros a Ha. apply in_or_app. right. unfold ProgVars.roots. apply in_flat_map. exists (HHas true x).
    split; [eapply nth_error_In; exact En|exact Ha]. }
  assert (Hrj : incl (hptr y) (base ++ roots l)).
  { intros a Ha. apply in_or_app. right. unfold ProgVars.roots. apply in_flat_map. exists (HHas true y).
    split; [eapply nth_error_In; exact Em|exact Ha]. }
  assert (Happ : forall (steal : bool) m', m = m' -> (m' = if steal then CAppendMove else CAppend) -> 
    wp (if Nat.eqb i j then mub
        else
          r <~ vcatch f (hconcat_mut_l B BL gone steal x y) ;;
          match r with
          | Some (z, k, threw) =>
              mret (update_at i (HHas true z) l,
                    if threw : bool then SThrew else if (k =? 0)%N then SNone else SMoved k)
          | None => mret (l, SThrew)
          end) h (fun r h' => psees s (PConcat m i j f) (snd r) /\ pinv (fst r) (pspec s (PConcat m i j f) (snd r)) h')).
  { intros steal m' Em1 Em2. assert (Hne : i <> j) by (intros ->; apply Hz; subst; destruct steal; now left). pose proof Hne as Hne'. apply Nat.eqb_neq in Hne'. rewrite Hne'.
    assert (Hc : throwing f = false \/ tail_len h y <> ht_size y \/ (tail_len h x + ht_size y <= lwidth BL)%N).
    { destruct f as [|b f]; [now left|]. right. destruct (N.eq_dec (tail_len h y) (ht_size y)) as [E1|E1]; [right|now left].
      destruct (N.le_gt_cases (tail_len h x + ht_size y) (lwidth BL)) as [E2|E2]; [exact E2|]. exfalso. apply Hz. subst m.
      assert (b :: f <> []) as E3 by discriminate. subst m'. destruct steal; right; auto. }
    assert (Es : nth_error s i = Some (QHas true ax)) by (apply at_nth with (none := QGone); [exact Eq|discriminate]).
    assert (Et : nth_error s j = Some (QHas true ay)) by (apply at_nth with (none := QGone); [exact Er|discriminate]).
    apply wp_bind. eapply wp_vcatch; [apply hconcat_mut_l_ok with (L := []) (R := base ++ rest2 vptr HGone i j l) (lx := ax) (ly := ay); auto| |].
    - exact (vinv_take2 vptr HGone prel eq_refl _ _ _ _ _ _ _ _ _ I Hne En Em).
    - intros [[z k] threw] h' (S' & M & Vz & Vy & Hk & Hs & Htw). apply wp_ret. cbn [fst snd].
      assert (J : pinv (update_at i (HHas true z) (update_at j (HHas true y) l))
        (update_at i (QHas true (if threw then ax else ax ++ ay)) (update_at j (QHas true (map gone (takeN k ay) ++ dropN k ay)) s)) h').
      { apply vinv_set2 with (h := h) (x0 := HHas true x) (y0 := HHas true y) (none := HGone) (anone := QGone);
          [reflexivity|intros; exact Logic.I|exact prel_frame1|exact I|exact Hne|exact En|exact Em|now apply mv_frame|exact S'| |]; split; auto. }
      rewrite (set_same l j) in J by exact Em. destruct threw.
      + destruct (Htw eq_refl) as [Hft ->]. cbn [takeN dropN N.to_nat firstn skipn map app] in J. unfold takeN, dropN in J. cbn in J.
        rewrite (set_same s j), (set_same s i) in J by assumption.
        assert (f <> []) by (intros ->; discriminate). split; [now destruct m|]. go. rewrite Eq, Er. subst m m'. now destruct steal.
      + destruct (N.eqb_spec k 0) as [->|Hk0].
        * split; [apply sees_concat|]. go. rewrite Eq, Er. subst m m'. cbn in J. rewrite (set_same s j) in J by assumption. now destruct steal.
        * destruct steal; [|now rewrite Hs in Hk0]. subst m m'. split; [cbn; exists ay; split; [exact Er|unfold lenN in Hk; lia]|].
          go. rewrite Eq, Er. exact J.
    - intros h' Hff (S' & M'). apply wp_ret. split; [now destruct m|]. go. rewrite Eq, Er.
      assert (J : pinv (update_at i (HHas true x) (update_at j (HHas true y) l)) (update_at i (QHas true ax) (update_at j (QHas true ay) s)) h').
      { apply vinv_set2 with (h := h) (x0 := HHas true x) (y0 := HHas true y) (none := HGone) (anone := QGone);
          [reflexivity|intros; exact Logic.I|exact prel_frame1|exact I|exact Hne|exact En|exact Em| |exact S'| |].
        - apply mv_frame. eapply mv_sub; [exact M'|]. intros a Ha. apply in_or_app. right. apply in_or_app. now right.
        - split; [reflexivity|]. eapply mv_vec; [exact M'| | |exact Hv]; cbn; auto.
        - split; [reflexivity|]. eapply mv_vec; [exact M'| | |exact Hw]; cbn; auto. }
      rewrite (set_same l j), (set_same l i), (set_same s j), (set_same s i) in J by assumption.
      subst m m'. now destruct steal. }
  assert (Hpre : forall (kp : bool) m', m = m' -> (m' = if kp then CPrepend else CPrependMove) -> 
    wp (if Nat.eqb i j then mub
        else
          r <~ vcatch f (hprepend B BL kp x y) ;;
          match r with
          | Some z => mret (update_at j (HHas true z) l, SNone)
          | None => mret (l, SThrew)
          end) h (fun r h' => psees s (PConcat m i j f) (snd r) /\ pinv (fst r) (pspec s (PConcat m i j f) (snd r)) h')).
  { intros kp m' Em1 Em2. assert (Hne : i <> j) by (intros ->; apply Hz; subst; destruct kp; [reflexivity|now left]). pose proof Hne as Hne'. apply Nat.eqb_neq in Hne'. rewrite Hne'.
    apply wp_bind. eapply wp_vcatch; [apply hprepend_ok with (L := []) (R := base ++ rest j l) (lx := ax) (ly := ay); auto| |].
    - exact (vinv_take vptr HGone prel eq_refl _ _ _ _ _ _ _ I Em).
    - intros a Ha. apply in_or_app. right. unfold ProgVars.rest, ProgVars.roots. apply in_flat_map. exists (HHas true x).
      split; [|exact Ha]. apply nth_error_In with (n := i). now rewrite nth_upd.
    - destruct kp; [now left|right]. subst m m'. destruct (N.eq_dec (ht_size x) 0) as [E1|E1]; [now left|].
      destruct (N.eq_dec (ht_size y) 0) as [E2|E2]; [right; now left|]. right. right.
      destruct (N.eq_dec (tail_len h x) (lwidth BL)) as [E3|E3]; [|now left].
      destruct (N.eq_dec (tail_len h y) (ht_size y)) as [E4|E4]; [|now right]. exfalso. apply Hz. right.
      split; [lia|]. split; [lia|]. split; assumption.
    - intros z h' M. apply wp_ret. split; [apply sees_concat|]. go. rewrite Eq, Er.
      assert (J : pinv (update_at j (HHas true z) l) (update_at j (QHas true (ax ++ ay)) s) h') by (eapply set_made; eauto).
      subst m m'. now destruct kp.
    - intros h' Hff Hb. apply wp_ret. split; [now destruct m|]. go. rewrite Eq, Er.
      destruct (back_vec _ _ _ _ _ _ Hw Hb) as (S' & M' & V').
      assert (J : pinv (update_at j (HHas true y) l) (update_at j (QHas true ay) s) h').
      { eapply set_made; [exact I|exact Em|]. split; [exact S'|]. split; [exact M'|exact V']. }
      rewrite (set_same l) in J by exact Em. rewrite (set_same s) in J; [|apply at_nth with (none := QGone); [exact Er|discriminate]].
      subst m m'. now destruct kp. }
  destruct m.
  - apply wp_bind. eapply wp_vcatch; [apply hconcat_ok with (L := []) (R := base ++ roots l) (lx := ax) (ly := ay); auto| |].
    + intros z h' M. apply wp_ret. split; [exact Logic.I|]. go. rewrite Eq, Er. eapply add_made; eauto.
    + intros h' Hff Hb. apply wp_ret. split; [exact Hff|]. go. rewrite Eq, Er. eapply add_back; eauto.
  - now apply (Happ false CAppend).
  - now apply (Happ true CAppendMove).
  - now apply (Hpre true CPrepend).
  - now apply (Hpre false CPrependMove).
Qed.
(** An rvalue whose tail is full, prepended to one that is only a tail: one reference too few
    is counted. *)
Lemma trapped l s h i j x y : pinv l s h -> (2 <= B)%N -> i <> j -> vvar_at l i = HHas true x -> vvar_at l j = HHas true y ->
  too_big B BL y = false -> (0 < ht_size x)%N -> (0 < ht_size y)%N ->
  leaf_size h (ht_tail x) = lwidth BL -> leaf_size h (ht_tail y) = ht_size y ->
  wp (pstep l (PConcat CPrependMove i j [])) h (fun r h' => snd r = SNone /\ In (ht_tail x) (roots (fst r)) /\
    exists R, st [] h' R /\ occ (ht_tail x) (base ++ roots (fst r)) = S (occ (ht_tail x) R)).
Proof.
  intros I H2 Hne Ex Ey Ed Px Py Tx Ty. cbn [VecProg.pstep]. rewrite Ex, Ey, Ed. pose proof Hne as Hne'. apply Nat.eqb_neq in Hne'. rewrite Hne'.
  pose proof (prel_at _ _ _ i I) as Hv. pose proof (prel_at _ _ _ j I) as Hw. rewrite Ex in Hv. rewrite Ey in Hw.
  destruct (sq_at s i) as [|fx ax]; [easy|]. destruct (sq_at s j) as [|fy ay]; [easy|]. destruct Hv as [<- Hv], Hw as [<- Hw].
  pose proof (vvar_nth _ _ _ Ex ltac:(discriminate)) as En. pose proof (vvar_nth _ _ _ Ey ltac:(discriminate)) as Em.
  pose proof (vinv_take2 vptr HGone prel eq_refl _ _ _ _ _ _ _ _ _ I Hne En Em) as S0.
  apply wp_bind. unfold hconcat_mut_lr_r. eapply wp_vcatch.
  - eapply hprepend_trapped with (L := []) (R := ht_root x :: base ++ rest2 vptr HGone i j l) (lx := ax) (ly := ay); auto.
    eapply st_eqv; [|exact S0]. intros a. rewrite ?occ_app. cbn [vptr hptr occ app]. rewrite ?occ_app. lia.
  - intros z h' (S1 & _ & _). apply wp_ret. split; [reflexivity|]. cbn [fst].
    assert (Ei : nth_error (update_at j (HHas true z) l) i = Some (HHas true x)) by (rewrite nth_upd; auto).
    split.
    + unfold ProgVars.roots. apply in_flat_map. exists (HHas true x). split; [eapply nth_error_In; exact Ei|]. cbn. auto.
    + eexists. split; [exact S1|]. pose proof (roots_upd vptr l j _ (HHas true z) (ht_tail x) Em) as E1.
      pose proof (roots_rest2 vptr HGone eq_refl l i j _ _ Hne En Em (ht_tail x)) as E2.
      rewrite ?occ_app. cbn [vptr hptr occ app] in *. rewrite ?occ_app. rewrite Nat.eqb_refl in E2.
      change (b2n true) with 1 in E2. lia.
  - intros h' Hff. now destruct Hff.
Qed.
Lemma pstep_ok l s h o : pinv l s h -> pok l h o ->
  wp (pstep l o) h (fun r h' => psees s o (snd r) /\ pinv (fst r) (pspec s o (snd r)) h').
Proof.
  intros I Ho. pose proof (v_st _ _ _ _ _ _ _ I) as T0. change (base ++ flat_map vptr l) with (base ++ roots l) in T0.
  assert (Hst : forall rx R, incl base R -> statics rx [] h R) by (intros; eapply inv_statics; eauto).
  assert (Hin : forall i rx x, vvar_at l i = HHas rx x -> nth_error l i = Some (HHas rx x)) by (intros; now apply vvar_nth).
  assert (Hrt : forall i rx x a, nth_error l i = Some (HHas rx x) -> In a (hptr x) -> In a (base ++ roots l)).
  { intros i rx x a E Ha. apply in_or_app. right. unfold ProgVars.roots. apply in_flat_map. exists (HHas rx x).
    split; [eapply nth_error_In; exact E|exact Ha]. }
  destruct o as [fx|i|i|i|i j|i j|i|i o f|fx i o f|m i j f|i k|i];
    [ | | | | | | | | |now apply concat_ok| | ]; cbn [VecProg.pstep].
  - apply wp_bind. apply wp_hempty with (B := B) (BL := BL) (rx := fx) (L := []) (R := base ++ roots l); [exact HB|exact T0|apply Hst; intros a Ha; apply in_or_app; now left|].
    intros y h' M. apply wp_ret. split; [exact Logic.I|]. go. eapply add_made; eauto.
  - pose proof (prel_at _ _ _ i I) as Hv. destruct (vvar_at l i) as [|rx x] eqn:Ex, (sq_at s i) as [|fx m] eqn:Eq; cbn in Hv; try easy.
    + apply wp_ret. split; [exact Logic.I|]. go. rewrite Eq. now apply add_gone.
    + destruct Hv as [-> Hv]. apply wp_bind. eapply wp_hcopy with (L := []) (R := base ++ roots l); [exact HB|exact T0|exact Hv|].
      intros h' M. apply wp_ret. split; [exact Logic.I|]. go. rewrite Eq. eapply add_made; eauto.
  - pose proof (prel_at _ _ _ i I) as Hv. destruct (vvar_at l i) as [|rx x] eqn:Ex, (sq_at s i) as [|fx m] eqn:Eq; cbn in Hv; try easy.
    + apply wp_ret. split; [exact Logic.I|]. go. rewrite Eq. now apply add_gone.
    + destruct Hv as [-> Hv]. pose proof (Hin _ _ _ Ex) as En. apply wp_bind.
      apply wp_hempty with (B := B) (BL := BL) (rx := fx) (L := []) (R := base ++ roots l); [exact HB|exact T0|apply Hst; intros a Ha; apply in_or_app; now left|].
      intros y h' M. apply wp_ret. split; [exact Logic.I|]. go. rewrite Eq.
      assert (J : pinv (l ++ [HHas fx y]) (s ++ [QHas fx []]) h') by (eapply add_made; eauto).
      assert (length l = length s) as El by (eapply F2_len; exact (v_rel _ _ _ _ _ _ _ I)).
      assert (i < length l) as Hi by (apply nth_error_Some; rewrite En; discriminate).
      pose proof (vinv_swap vptr prel base bases _ _ _ i (length l) (HHas fx x) (HHas fx y) (QHas fx m) (QHas fx []) J) as W.
      rewrite (upd_last l) in W by (auto; lia). rewrite (upd_last s) in W by (auto; lia). apply W.
      * rewrite nth_error_app1; [exact En|exact Hi].
      * rewrite nth_error_app2, Nat.sub_diag; [reflexivity|lia].
      * split; [reflexivity|]. destruct M as (_ & M & _). eapply mv_vec; [exact M|exact Logic.I|exact Logic.I|exact Hv].
      * split; [reflexivity|apply M].
  - pose proof (prel_at _ _ _ i I) as Hv. destruct (vvar_at l i) as [|rx x] eqn:Ex, (sq_at s i) as [|fx m] eqn:Eq; cbn in Hv; try easy.
    + apply wp_ret. split; [exact Logic.I|]. go. rewrite Eq. now apply add_gone.
    + destruct Hv as [-> Hv]. destruct fx.
      * apply wp_ret. split; [exact Logic.I|]. go. rewrite Eq. now apply add_gone.
      * apply wp_bind. eapply wp_hcopy with (B := B) (BL := BL) (rx := true) (L := []) (R := base ++ roots l); [exact HB|exact T0|apply vec_flex; exact Hv|].
        intros h' M. apply wp_ret. split; [exact Logic.I|]. go. rewrite Eq. eapply add_made; eauto.
  - pose proof (prel_at _ _ _ i I) as Hv. pose proof (prel_at _ _ _ j I) as Hw.
    destruct (vvar_at l i) as [|rx x] eqn:Ex, (sq_at s i) as [|fx m] eqn:Eq; cbn in Hv; try easy.
    { apply wp_ret. split; [exact Logic.I|]. go. rewrite Eq. exact I. }
    destruct (vvar_at l j) as [|ry y] eqn:Ey, (sq_at s j) as [|fy n] eqn:Er; cbn in Hw; try easy.
    { apply wp_ret. split; [exact Logic.I|]. go. rewrite Eq, Er. exact I. }
    destruct Hv as [-> Hv], Hw as [-> Hw]. destruct (same fx fy) eqn:Es.
    2:{ apply wp_ret. split; [exact Logic.I|]. go. rewrite Eq, Er, Es. exact I. }
    apply eqb_prop in Es as Es'. subst fy. pose proof (Hin _ _ _ Ex) as En.
    apply wp_bind. eapply wp_hcopy with (L := []) (R := base ++ roots l); [exact HB|exact T0|exact Hw|]. intros h1 (S1 & M1 & V1).
    apply wp_bind. eapply wp_hdestroy with (L := []) (R := hptr y ++ base ++ rest i l) (l := m) (B := B) (BL := BL); [exact HB| | |].
    + eapply st_eqv; [|exact S1]. intros a. rewrite !occ_app. rewrite (roots_rest vptr HGone eq_refl _ _ _ En). cbn [vptr]. lia.
    + eapply mv_vec; [exact M1|exact Logic.I|exact Logic.I|exact Hv].
    + intros h2 S2 M2. apply wp_ret. split; [exact Logic.I|]. go. rewrite Eq, Er, Es.
      eapply set_made; [exact I|exact En|]. split; [exact S2|]. split.
      * eapply mv_trans; [apply mv_all; exact M1|]. eapply mv_sub; [exact M2|]. intros a Ha. apply in_or_app. now right.
      * eapply mv_vec; [exact M2|cbn; auto|cbn; auto|exact V1].
  - pose proof (prel_at _ _ _ i I) as Hv. pose proof (prel_at _ _ _ j I) as Hw.
    destruct (vvar_at l i) as [|rx x] eqn:Ex, (sq_at s i) as [|fx m] eqn:Eq; cbn in Hv; try easy.
    { apply wp_ret. split; [exact Logic.I|]. go. rewrite Eq. exact I. }
    destruct (vvar_at l j) as [|ry y] eqn:Ey, (sq_at s j) as [|fy n] eqn:Er; cbn in Hw; try easy.
    { apply wp_ret. split; [exact Logic.I|]. go. rewrite Eq, Er. exact I. }
    destruct Hv as [-> Hv], Hw as [-> Hw]. destruct (same fx fy) eqn:Es.
    2:{ apply wp_ret. split; [exact Logic.I|]. go. rewrite Eq, Er, Es. exact I. }
    apply wp_ret. split; [exact Logic.I|]. go. rewrite Eq, Er, Es.
    apply (vinv_swap vptr prel base bases _ _ _ i j (HHas fx x) (HHas fy y) (QHas fx m) (QHas fy n) I); auto; split; auto.
  - pose proof (prel_at _ _ _ i I) as Hv. destruct (vvar_at l i) as [|rx x] eqn:Ex, (sq_at s i) as [|fx m] eqn:Eq; cbn in Hv; try easy.
    + apply wp_ret. split; [exact Logic.I|]. go. rewrite upd_none; [exact I|exact Eq].
    + destruct Hv as [-> Hv]. pose proof (Hin _ _ _ Ex) as En.
      apply wp_bind. eapply wp_hdestroy with (L := []) (R := base ++ rest i l) (l := m) (B := B) (BL := BL); [exact HB| |exact Hv|].
      * exact (vinv_take vptr HGone prel eq_refl _ _ _ _ _ _ _ I En).
      * intros h2 S2 M2. apply wp_ret. split; [exact Logic.I|]. go.
        apply vinv_set with (h := h) (x0 := HHas fx x) (none := HGone) (anone := QGone);
          [reflexivity|intros; exact Logic.I|exact prel_frame1|exact I|exact En|now apply mv_frame|exact S2|exact Logic.I].
  - pose proof (prel_at _ _ _ i I) as Hv. destruct (vvar_at l i) as [|rx x] eqn:Ex, (sq_at s i) as [|fx m] eqn:Eq; cbn in Hv; try easy.
    { apply wp_ret. split; [apply sees_apply|]. go. rewrite Eq. now apply add_gone. }
    destruct Hv as [-> Hv]. pose proof (Hin _ _ _ Ex) as En. destruct (offers fx o) eqn:Eo.
    2:{ apply wp_ret. split; [apply sees_apply|]. go. rewrite Eq, Eo. now apply add_gone. }
    destruct (too_deep B BL x o) eqn:Ed.
    { apply wp_ret. destruct o; try discriminate. cbn in Eo. subst fx. go. rewrite Eq. cbn [offers]. split; [|now apply add_gone].
      cbn. exists m. split; [exact Eq|]. eapply too_deep_drop; [|exact Ed]. now apply (vec_size _ _ _ _ _ _ _ Hv). }
    apply wp_bind. eapply wp_vcatch; [apply apply_ok with (R := base ++ roots l) (l := m); auto| |].
    + eapply Hrt; [exact En|]. cbn; auto.
    + apply Hst. intros a Ha. apply in_or_app. now left.
    + intros y h' M. apply wp_ret. split; [apply sees_apply|]. go. rewrite Eq, Eo. eapply add_made; eauto.
    + intros h' Hf Hb. apply wp_ret. split; [now apply sees_apply_threw|]. go. rewrite Eq, Eo. eapply add_back; eauto.
  - pose proof (prel_at _ _ _ i I) as Hv. destruct (vvar_at l i) as [|rx x] eqn:Ex, (sq_at s i) as [|fy m] eqn:Eq; cbn in Hv; try easy.
    { apply wp_ret. split; [apply sees_mutate|]. go. rewrite Eq. exact I. }
    destruct Hv as [-> Hv]. pose proof (Hin _ _ _ Ex) as En. destruct (same fx fy && offers fx o) eqn:Eo.
    2:{ apply wp_ret. split; [apply sees_mutate|]. go. rewrite Eq, Eo. exact I. }
    pose proof (andb_prop _ _ Eo) as [Es Eo']. apply eqb_prop in Es. subst fy.
    destruct (too_deep B BL x o) eqn:Ed.
    { apply wp_ret. destruct o; try discriminate. cbn in Eo'. subst fx. go. rewrite Eq, Eo. split; [|exact I].
      cbn. exists m. split; [exact Eq|]. eapply too_deep_drop; [|exact Ed]. now apply (vec_size _ _ _ _ _ _ _ Hv). }
    apply wp_bind. eapply wp_vcatch; [apply mutate_ok with (R := base ++ rest i l) (l := m); auto| |].
    + exact (vinv_take vptr HGone prel eq_refl _ _ _ _ _ _ _ I En).
    + apply Hst. intros a Ha. apply in_or_app. now left.
    + intros ->. destruct Ho as [Ho _]. cbn in Ho. destruct o; try exact Logic.I; (destruct f; [reflexivity|]); exfalso; now apply Ho.
    + intros [y b] h' [M Hb]. apply wp_ret. go. rewrite Eq, Eo. cbn [snd fst] in *. split.
      * destruct b; [|apply sees_mutate]. destruct (Hb eq_refl) as [Ht (k & fn & -> & Hk)]. cbn. split; [intros ->; discriminate|].
        exists fx, m. auto.
      * destruct b.
        -- destruct (Hb eq_refl) as [Ht (k & fn & -> & Hk)]. eapply set_made; eauto.
        -- eapply set_made; eauto.
    + intros h' Hf (S & M & V). apply wp_ret. split; [now apply sees_mutate_threw|]. go. rewrite Eq, Eo.
      assert (J : pinv (update_at i (HHas fx x) l) (update_at i (QHas fx m) s) h').
      { eapply set_made; [exact I|exact En|]. split; [exact S|]. split; [exact M|exact V]. }
      rewrite (set_same l) in J by exact En. rewrite (set_same s) in J; [exact J|].
      apply at_nth with (none := QGone); [exact Eq|discriminate].
  - pose proof (prel_at _ _ _ i I) as Hv. destruct (vvar_at l i) as [|rx x] eqn:Ex, (sq_at s i) as [|fx m] eqn:Eq; cbn in Hv; try easy.
    destruct Hv as [-> Hv]. pose proof (vec_size _ _ _ _ _ _ _ Hv) as Hs. destruct (N.leb_spec (ht_size x) k) as [Hk|Hk].
    { apply wp_ret. split; [|exact I]. exists fx, m. split; [exact Eq|]. unfold lenN in Hs. lia. }
    destruct (Nat.leb_spec 6 (ht_lv x)) as [Hd|Hd].
    { apply wp_ret. split; [|exact I]. exists fx, m. split; [exact Eq|]. split; [now rewrite Hs in Hk|]. split; [exact Hd|]. intros ->. eapply vec_dense; [exact Hv|]. lia. }
    destruct (splitN k m ltac:(lia)) as (A & e & Z & E & EA). apply wp_bind.
    eapply wp_hget with (e := e); [exact gone|exact HB|exact Hv|exact Hd|rewrite E; now apply rnthN_app|].
    apply wp_ret. split; [|exact I]. exists fx, m. split; [exact Eq|]. rewrite E, nth_error_app2 by (unfold lenN in EA; lia).
    replace (N.to_nat k - length A) with 0 by (unfold lenN in EA; lia). reflexivity.
  - pose proof (prel_at _ _ _ i I) as Hv. destruct (vvar_at l i) as [|rx x] eqn:Ex, (sq_at s i) as [|fx m] eqn:Eq; cbn in Hv; try easy.
    destruct Hv as [-> Hv]. pose proof (vec_size _ _ _ _ _ _ _ Hv) as Hs. apply wp_ret. split; [|exact I].
    exists fx, m. split; [exact Eq|exact Hs].
Qed.

Lemma wp_step {A} (m : M body A) (h : heap) (Q : A -> heap -> Prop) a h' : m h = Ok (a, h') -> Q a h' -> wp m h Q.
Proof. unfold wp. now intros ->. Qed.
Notation prun := (prun B BL gone nm er et).
Notation pspecs := (pspecs B BL gone).
Lemma prun_ok os : forall l s h, pinv l s h -> careful B BL gone nm er et l os h -> Forall (wide B) os ->
  wp (prun l os) h (fun r h' => exists s', pspecs s os (snd r) s' /\ pinv (fst r) s' h').
Proof.
  induction os as [|o os IH]; intros l s h I Hz Ho; cbn [VecProg.prun].
  - apply wp_ret. exists s. split; [reflexivity|exact I].
  - inversion Ho as [|? ? H1 H2]; subst. destruct Hz as [Hz Hn]. apply wp_bind.
    destruct (wp_ok _ _ _ (pstep_ok l s h o I (conj Hz H1))) as ([l1 x] & h1 & E & S1 & I1).
    apply (wp_step _ _ _ _ _ E). cbn [fst snd] in *. apply wp_bind. eapply wp_mono; [apply IH; eauto|].
    intros [l2 xs] h2 (s2 & S2 & I2). apply wp_ret. cbn [fst snd] in *. exists s2. split; [|exact I2]. split; [exact S1|exact S2].
Qed.
End Prog.

Section Start.
Context {T : Type}.
Variables B BL : N.
Lemma start_ok : vinv (@vptr) (@prel B BL T) (base root0 tail0) bases [] [] (@vstart T).
Proof.
  assert (I0 : forall a, nth_error (@vstart T) a = Some (Some (mkCell 1 VInner [])) -> rep (@vstart T) a (enc (Inner None []))).
  { intros a H. apply (rep_kids_in (@vstart T) a (mkCell 1 VInner []) []); [exact H|constructor]. }
  assert (L0 : forall a, nth_error (@vstart T) a = Some (Some (mkCell 1 (VLeaf []) [])) -> rep (@vstart T) a (enc (Leaf []))).
  { intros a H. apply (rep_kids_in (@vstart T) a (mkCell 1 (VLeaf []) []) []); [exact H|constructor]. }
  split; [| |constructor].
  - split; [|split; constructor]. split.
    + intros [|[|[|[|[|a]]]]]; cbn; auto.
    + intros [|[|[|[|[|a]]]]] c H; try discriminate; cbn in H; injection H as <-; eexists; ((apply I0; reflexivity) || (apply L0; reflexivity)).
  - unfold base, bases, srep. cbn [wipe]. repeat constructor; ((apply I0; reflexivity) || (apply L0; reflexivity)).
Qed.
End Start.
