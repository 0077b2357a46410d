(** Equality of vectors. *)
From Coq Require Import List NArith Arith Bool Lia ZifyN ZifyNat ZifyBool.
From Verif Require Import Common NList Rrb RrbInv RrbPos RrbOps RrbSlice RrbTree RrbMerge RrbConcat
  RrbView RrbSpec RrbViewOk.
Import ListNotations.
Local Open Scope N_scope.

Set Default Goal Selector "!".

Section VecEq.
Context {T : Type}.
Variables B BL : N.
Variable eqT : T -> T -> bool.
Variable peq : node T -> node T -> bool.
Hypothesis eqT_refl : forall x, eqT x x = true.
Hypothesis peq_eq : forall a b, peq a b = true -> a = b.

Notation sh := (sh B BL).
Notation width := (width B).
Notation lwidth := (lwidth BL).
Notation span := (span B BL).
Notation full := (@full T B BL).
Notation reg := (@reg T B BL).
Notation wf := (@wf T B BL).
Notation pos_ok := (@pos_ok T B BL).
Notation inv := (@inv T B BL).
Notation vinv := (@vinv T B BL).
Notation eq_node := (@eq_node T B BL eqT peq).

Lemma equal_n_ok (xs : list T) : forall ys, length xs = length ys ->
  equal_n eqT (length xs) xs ys = Ok (list_eqb eqT xs ys).
Proof.
  induction xs as [|x xs IH]; intros [|y ys] H; try easy. cbn [length equal_n list_eqb].
  destruct (eqT x y); [|reflexivity]. cbn [andb]. apply IH. now injection H.
Qed.
(** Only a prefix of the second range is read. *)
Lemma equal_n_prefix (xs ys zs : list T) : length xs = length ys ->
  equal_n eqT (length xs) xs (ys ++ zs) = Ok (list_eqb eqT xs ys).
Proof.
  revert ys. induction xs as [|x xs IH]; intros [|y ys] H; try easy.
  cbn [length equal_n list_eqb app].
  destruct (eqT x y); [|reflexivity]. cbn [andb]. apply IH. now injection H.
Qed.

Definition same (l : nat) (n m : node T) : Prop := reg l n /\ reg l m /\ nsize n = nsize m.

Lemma full_same l n m : full l n -> full l m -> same l n m.
Proof.
  intros Hn Hm. split; [now apply full_reg|]. split; [now apply full_reg|].
  now rewrite (full_size _ _ _ _ Hn), (full_size _ _ _ _ Hm).
Qed.
Lemma full_same_list l : forall ns ms, Forall (full l) ns -> Forall (full l) ms ->
  lenN ns = lenN ms -> Forall2 (same l) ns ms.
Proof.
  induction ns as [|n ns IH]; intros [|m ms] Hn Hm Hl; try (constructor; fail).
  - rewrite lenN_cons in Hl. cbn in Hl. lia.
  - rewrite lenN_cons in Hl. cbn in Hl. lia.
  - inversion Hn; inversion Hm; subst. rewrite !lenN_cons in Hl.
    constructor; [now apply full_same|]. apply IH; auto. lia.
Qed.

Lemma same_kids l n m : same (S l) n m -> Forall2 (same l) (kids n) (kids m).
Proof.
  intros (Hn & Hm & E).
  assert (is_rel n = false) as Hrn by (eapply reg_not_rel; eauto).
  assert (is_rel m = false) as Hrm by (eapply reg_not_rel; eauto).
  destruct (nonrel_inv B BL l n) as (i1 & l1 & -> & F1 & R1 & W1 & S1 & B1); auto;
    [now apply reg_wf|].
  destruct (nonrel_inv B BL l m) as (i2 & l2 & -> & F2 & R2 & W2 & S2 & B2); auto;
    [now apply reg_wf|].
  rewrite S1, S2 in E.
  assert (lenN i1 = lenN i2) as El.
  { rewrite <- (last_div B BL l (lenN i1) (nsize l1)) by auto. rewrite E. now apply last_div. }
  cbn [kids]. apply Forall2_app; [now apply full_same_list|].
  constructor; [|constructor]. split; [auto|]. split; [auto|]. rewrite El in E. lia.
Qed.

Lemma same_length l n m : same l n m -> length (elems n) = length (elems m).
Proof. intros (_ & _ & E). unfold nsize, lenN in E. lia. Qed.

Lemma zip_ok l : (forall p n m, pos_ok l p n -> same l n m ->
    eq_node l p m = Ok (list_eqb eqT (elems n) (elems m))) ->
  forall ps ns ms, posw B BL l ps ns -> Forall2 (same l) ns ms ->
    zip_pos (eq_node l) ps ms =
    Ok (list_eqb eqT (flat_map elems ns) (flat_map elems ms)).
Proof.
  intros IH ps ns ms Hp. revert ms. induction Hp as [|p n ps ns Hp Hps IHp]; intros ms Hs.
  - inversion Hs; subst. reflexivity.
  - inversion Hs as [|? m ? ms' Hnm Hs']; subst. cbn [zip_pos flat_map].
    rewrite (IH p n m Hp Hnm). cbn [rbind].
    rewrite list_eqb_app by (eapply same_length; eauto).
    destruct (list_eqb eqT (elems n) (elems m)); [|reflexivity]. now apply IHp.
Qed.

Lemma eq_node_ok v : forall p n m, pos_ok v p n -> same v n m ->
  eq_node v p m = Ok (list_eqb eqT (elems n) (elems m)).
Proof.
  induction v as [|l IH]; intros p n m Hp Hs; cbn [RrbView.eq_node];
    rewrite (pos_ok_node _ _ _ _ _ Hp); cbn [rbind];
    (destruct (peq n m) eqn:Ep;
      [rewrite (peq_eq _ _ Ep), list_eqb_refl by auto; reflexivity|]).
  - destruct (leaf_pos B BL p n Hp) as (xs & _ & -> & Hc). rewrite Hc.
    pose proof (same_length _ _ _ Hs) as Hlen. destruct Hs as (_ & Hm & _).
    destruct m as [ys|]; [|easy]. cbn [rbind leaf_of elems] in *.
    replace (N.to_nat (lenN xs)) with (length xs) by (unfold lenN; lia).
    now apply equal_n_ok.
  - destruct (each_ok B BL l p n Hp) as (ps & -> & Hps). cbn [rbind].
    destruct m as [|r cs]; [now destruct Hs as (_ & Hm & _)|]. cbn [inner_of rbind].
    rewrite (elems_kids B BL l n) by (eapply pos_ok_wf; eauto). rewrite elems_inner.
    apply zip_ok; auto. now apply same_kids in Hs.
Qed.

Hypothesis HB : 1 <= B.

(** The height of a vector follows from the size of its tree part. *)
Lemma vinv_lv t : vinv t -> 0 < nsize (root t) ->
  nsize (root t) <= span (S (lv t)) /\ (lv t = O \/ span (lv t) < nsize (root t)).
Proof.
  intros (Hi & Hrel & Hk) Hp. pose proof (root_wf B BL HB t Hi Hp) as Hw.
  split; [now apply wf_size in Hw|]. destruct Hk as [Hk|Hk]; [now left|right].
  destruct (nonrel_inv B BL (lv t) (root t) Hw Hrel) as (i1 & l1 & E & F1 & R1 & W1 & S1 & B1).
  rewrite E in Hk. cbn [kids] in Hk. rewrite lenN_snoc in Hk. rewrite S1.
  pose proof (span_pos B BL (lv t)). nia.
Qed.
Lemma span_mono i j : (i <= j)%nat -> span i <= span j.
Proof.
  intros H. apply N.pow_le_mono_r; [lia|]. unfold Rrb.sh. nia.
Qed.
Lemma vinv_same_lv a b : vinv a -> vinv b -> nsize (root a) = nsize (root b) ->
  0 < nsize (root a) -> lv a = lv b.
Proof.
  intros Ha Hb E Hp. destruct (vinv_lv a Ha Hp) as [H1 H2].
  destruct (vinv_lv b Hb ltac:(lia)) as [H3 H4].
  destruct (Nat.lt_trichotomy (lv a) (lv b)) as [H|[H|H]]; [exfalso|auto|exfalso].
  - destruct H4 as [H4|H4]; [lia|]. pose proof (span_mono (S (lv a)) (lv b) ltac:(lia)). lia.
  - destruct H2 as [H2|H2]; [lia|]. pose proof (span_mono (S (lv b)) (lv a) ltac:(lia)). lia.
Qed.

Lemma vtail_offset_size (a b : tree T) : size a = size b -> vtail_offset BL a = vtail_offset BL b.
Proof. intros H. unfold vtail_offset. now rewrite H. Qed.

Lemma vequals_ok a b : vinv a -> vinv b ->
  vequals B BL eqT peq a b = Ok (list_eqb eqT (to_list a) (to_list b)).
Proof.
  intros Ha Hb. pose proof Ha as (Hia & Hra & _). pose proof Hb as (Hib & Hrb & _).
  unfold vequals.
  destruct (N.eqb_spec (size a) (size b)) as [Es|Es]; cbn [negb].
  2:{ destruct (list_eqb eqT (to_list a) (to_list b)) eqn:El; [|reflexivity]. exfalso. apply Es.
      apply list_eqb_length in El. rewrite (inv_size _ _ _ Hia), (inv_size _ _ _ Hib).
      unfold lenN. lia. }
  destruct (N.eqb_spec (size a) 0) as [Ez|Ez].
  { rewrite (inv_size _ _ _ Hia) in Ez. rewrite (inv_size _ _ _ Hia), (inv_size _ _ _ Hib) in Es.
    assert (to_list a = []) as -> by (now apply lenN_0).
    assert (to_list b = []) as -> by (apply lenN_0; lia). reflexivity. }
  pose proof (vtail_offset_ok B BL HB a Hia Hra) as Ta.
  pose proof (vtail_offset_ok B BL HB b Hib Hrb) as Tb.
  pose proof (vtail_offset_size a b Es) as Tab. rewrite Ta, Tb in Tab.
  rewrite Ta.
  destruct (tail_pos B BL HB a Hia) as (xs & Ea & Sa & Ma & La).
  destruct (tail_pos B BL HB b Hib) as (ys & Eb & Sb & Mb & Lb).
  assert ((if size a <=? lwidth then Ok true
      else ' p <- mk_sub B BL (S (lv a)) (root a) (nsize (root a)) ;; eq_node (S (lv a)) p (root b))
     = Ok (list_eqb eqT (elems (root a)) (elems (root b)))) as ->.
  { destruct (N.leb_spec (size a) lwidth) as [Hle|Hgt].
    - assert (nsize (root a) = 0) as Z.
      { rewrite <- Ta. unfold vtail_offset. destruct (N.eqb_spec (size a) 0); [lia|].
        unfold lmask, Rrb.lwidth. rewrite ldiff_mask. rewrite N.div_small; [reflexivity|].
        unfold Rrb.lwidth in *. lia. }
      unfold nsize in *. rewrite Z in Tab. symmetry in Tab. apply lenN_0 in Z, Tab.
      rewrite Z, Tab. reflexivity.
    - assert (0 < nsize (root a)) as Hp by lia.
      pose proof (root_wf B BL HB a Hia Hp) as Hwa.
      pose proof (root_wf B BL HB b Hib ltac:(lia)) as Hwb.
      rewrite mk_sub_ok by auto. cbn [rbind]. apply eq_node_ok; [now constructor|].
      split; [now apply wf_nonrel_reg|]. split; [|lia].
      rewrite (vinv_same_lv a b) by auto. now apply wf_nonrel_reg. }
  cbn [rbind]. unfold to_list. rewrite Ea, Eb. cbn [elems].
  assert (length (elems (root a)) = length (elems (root b))) as Hlen.
  { unfold nsize, lenN in Tab. lia. }
  rewrite list_eqb_app by auto.
  destruct (list_eqb eqT (elems (root a)) (elems (root b))); [|reflexivity]. cbn [andb].
  rewrite Sa. rewrite Ea in Ma. rewrite Ma. cbn [rbind RrbView.eq_node pnode].
  destruct (peq (Leaf xs) (Leaf ys)) eqn:Ep.
  { apply peq_eq in Ep. injection Ep as ->. now rewrite list_eqb_refl. }
  cbn [leaf_of rbind count]. replace (N.to_nat (lenN xs)) with (length xs) by (unfold lenN; lia).
  apply equal_n_ok. unfold lenN in *. lia.
Qed.
End VecEq.
