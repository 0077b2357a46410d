(** The operations of Rrb.v on nodes: indexing, updating, pushing a tail, slicing. *)
From Coq Require Import List NArith Arith Bool Lia ZifyN ZifyNat ZifyBool.
From Verif Require Import Common NList Rrb RrbInv RrbPos.
Import ListNotations.
Local Open Scope N_scope.

Set Default Goal Selector "!".

Lemma rnthN_take {A} n (l : list A) i : i < n -> rnthN (takeN n l) i = rnthN l i.
Proof.
  intros H. unfold rnthN, takeN, rnth.
  assert (forall m k (l : list A), (k < m)%nat -> nth_error (firstn m l) k = nth_error l k) as E.
  { clear. induction m as [|m IH]; intros k l Hk; [lia|].
    destruct l as [|x l]; [now destruct k|]. destruct k; [reflexivity|]. cbn. apply IH. lia. }
  rewrite E by lia. reflexivity.
Qed.

Lemma rtakeN_ok {A} n (l : list A) : n <= lenN l -> rtakeN n l = Ok (takeN n l).
Proof. intros H. unfold rtakeN. destruct (N.leb_spec n (lenN l)); [reflexivity|lia]. Qed.
Lemma rtakeN_app {A} n (a b : list A) : lenN a = n -> rtakeN n (a ++ b) = Ok a.
Proof.
  intros <-. rewrite rtakeN_ok by (rewrite lenN_app; lia). now rewrite takeN_app.
Qed.
Lemma rtakeN_all {A} n (a : list A) : lenN a = n -> rtakeN n a = Ok a.
Proof. intros <-. rewrite rtakeN_ok by lia. now rewrite takeN_all. Qed.
Lemma rsliceN_app {A} i j (a m b : list A) :
  lenN a = i -> j = i + lenN m -> rsliceN i j (a ++ m ++ b) = Ok m.
Proof.
  intros <- ->. unfold rsliceN. rewrite !lenN_app.
  destruct (N.leb_spec (lenN a) (lenN a + lenN m)); [|lia].
  destruct (N.leb_spec (lenN a + lenN m) (lenN a + (lenN m + lenN b))); [|lia].
  cbn. rewrite dropN_app. replace (lenN a + lenN m - lenN a) with (lenN m) by lia.
  now rewrite takeN_app.
Qed.
Lemma rsliceN_app_r {A} i j (a m : list A) :
  lenN a = i -> j = i + lenN m -> rsliceN i j (a ++ m) = Ok m.
Proof.
  intros. rewrite <- (app_nil_r m) at 1. now apply rsliceN_app.
Qed.

Lemma lenN_snoc {A} (l : list A) x : lenN (l ++ [x]) = lenN l + 1.
Proof. rewrite lenN_app. reflexivity. Qed.
Lemma lenN_one {A} (x : A) : lenN [x] = 1.
Proof. reflexivity. Qed.

Lemma app_inj_len {A} (a b a' b' : list A) :
  a ++ b = a' ++ b' -> lenN a = lenN a' -> a = a' /\ b = b'.
Proof.
  intros H L. apply app_eq_app in H as H'. unfold lenN in L.
  destruct H' as (l & [[-> ->]|[-> ->]]); rewrite app_length in L;
    (assert (l = []) by (apply length_zero_iff_nil; lia)); subst; rewrite app_nil_r; auto.
Qed.

Section Ops.
Context {T : Type}.
Variables B BL : N.

Notation sh := (sh B BL).
Notation width := (width B).
Notation lwidth := (lwidth BL).
Notation span := (span B BL).
Notation full := (@full T B BL).
Notation reg := (@reg T B BL).
Notation wf := (@wf T B BL).
Notation pos_ok := (@pos_ok T B BL).
Notation addr := (@addr T B BL).

Lemma lenN_elems (n : node T) : lenN (elems n) = nsize n.
Proof. reflexivity. Qed.
Lemma lenN_flat (cs : list (node T)) : lenN (flat_map elems cs) = csize cs.
Proof. change (flat_map elems cs) with (elems (Inner None cs)). rewrite lenN_elems. apply nsize_inner. Qed.

Lemma rnth_flat (a : list (node T)) c b j : j < nsize c ->
  rnthN (flat_map elems (a ++ c :: b)) (csize a + j) = rnthN (elems c) j.
Proof.
  intros H. rewrite flat_map_app. cbn [flat_map].
  rewrite rnthN_app2 by (rewrite lenN_flat; lia). rewrite lenN_flat.
  replace (csize a + j - csize a) with j by lia. now apply rnthN_app1.
Qed.

(** ** get *)

Lemma get_regular_ok v n idx i :
  wf v n -> is_rel n = false -> idx mod span v = i -> i < nsize n ->
  get_regular B BL v n idx = rnthN (elems n) i.
Proof.
  revert n idx i. induction v as [|l IH]; intros n idx i Hw Hr Ha Hi.
  - destruct (wf_leaf _ _ _ Hw) as (xs & -> & Hx). cbn. now rewrite land_leaf with (B := B), Ha.
  - destruct (nonrel_inv _ _ _ _ Hw Hr) as (init & last & -> & Hf & Hrl & Hl & Hn & Hb).
    destruct (reg_child B BL l init last i) as (a & c & b & Ek & Hla & Hfa & Hca & Hj & Hcase);
      auto; [lia|].
    cbn [get_regular inner_of rbind]. rewrite land_index, Ha, Ek, rnthN_app by auto.
    cbn [rbind]. pose proof (span_pos B BL l).
    rewrite IH with (i := i mod span l); auto.
    + rewrite elems_inner. pose proof (N.div_mod i (span l) ltac:(lia)) as Hd.
      rewrite Hd at 2. rewrite N.mul_comm, <- Hca. now rewrite rnth_flat.
    + destruct Hcase as [(_ & -> & _)|[_ Hfc]]; [now apply reg_wf|now apply full_wf].
    + destruct Hcase as [(_ & -> & _)|[_ Hfc]];
        [eapply reg_not_rel; eauto|eapply full_not_rel; eauto].
    + now rewrite <- mod_span_S, Ha.
Qed.

Lemma get_relaxed_ok v n i :
  wf v n -> is_rel n = true -> i < nsize n ->
  get_relaxed B BL v n i = rnthN (elems n) i.
Proof.
  revert n i. induction v as [|l IH]; intros n i Hw Hr Hi; [now destruct n|].
  destruct n as [|[sz|] cs]; try easy.
  pose proof (wf_size _ _ _ _ Hw) as Hsz.
  destruct (towards_ok B BL l _ _ i i (ok_rel _ _ _ _ _ Hw) eq_refl Hi)
    as (a & c & b & j & Ek & Ei & Hj & Hwc & Hidx & _ & _).
  cbn [kids] in Ek. subst cs. pose proof Hw as (Hl & Hc & Hs).
  assert (match l with O => N.land (N.shiftr i BL) (mask B) | S _ => N.shiftr i (sh l) end
          = N.shiftr i (sh l)) as Eo.
  { destruct l; [|reflexivity].
    replace BL with (sh 0) at 1 by (unfold Rrb.sh; lia).
    rewrite land_index, (N.mod_small i), shiftr_span; [reflexivity|lia]. }
  cbn [get_relaxed].
  rewrite Eo. cbn [Rrb.index] in Hidx. rewrite Hidx. cbn [rbind].
  rewrite rnthN_app by auto. cbn [rbind].
  assert ((if lenN a =? 0 then Ok 0 else rnthN sz (lenN a - 1)) = Ok (csize a)) as ->.
  { destruct (N.eqb_spec (lenN a) 0) as [Z|Z]; [apply lenN_0 in Z; now subst a|].
    destruct a as [|d a] using rev_ind; [easy|]. clear IHa.
    subst sz. rewrite <- app_assoc. cbn [app]. rewrite map_app. cbn [map].
    rewrite rnth_sums; [|rewrite lenN_map, lenN_app; cbn; lia].
    rewrite csize_snoc. unfold csize. f_equal; lia. }
  cbn [rbind]. replace (i - csize a) with j by lia.
  rewrite elems_inner, Ei, rnth_flat by auto.
  destruct l as [|l'].
  - destruct (wf_leaf _ _ _ Hwc) as (xs & -> & Hx).
    apply get_regular_ok; auto.
    apply N.mod_small. rewrite span_0. rewrite nsize_leaf in Hj. lia.
  - destruct c as [|[sz'|] cs']; [easy| |].
    + now apply IH.
    + apply get_regular_ok; auto. apply N.mod_small.
      pose proof (wf_size _ _ _ _ Hwc). lia.
Qed.

(** ** update *)

Lemma update_node_ok fn v p n idx i A x Z :
  pos_ok v p n -> addr v p idx i -> i < nsize n ->
  elems n = A ++ x :: Z -> lenN A = i ->
  exists n', update_node B BL v p idx fn = Ok n' /\
    elems n' = A ++ fn x :: Z /\ wf v n' /\ is_rel n' = is_rel n /\
    lenN (kids n') = lenN (kids n) /\
    (full v n -> full v n') /\ (reg v n -> reg v n').
Proof.
  revert p n idx i A x Z. induction v as [|l IH]; intros p n idx i A x Z Hp Ha Hi HE HA.
  - destruct (leaf_index _ _ _ _ _ _ Hp Ha Hi) as (xs & -> & Hidx & Hlt).
    exists (Leaf (A ++ fn x :: Z)).
    pose proof (pos_ok_wf _ _ _ _ _ Hp) as Hw. cbn [elems] in HE. subst xs.
    assert (lenN (A ++ fn x :: Z) = lenN (A ++ x :: Z)) as HL
      by (rewrite !lenN_app, !lenN_cons; reflexivity).
    split.
    + cbn [update_node]. rewrite Hidx, (count_ok _ _ _ _ _ Hp). cbn [rbind ncount].
      rewrite (pos_ok_node _ _ _ _ _ Hp). cbn [rbind leaf_of].
      rewrite rtakeN_all by reflexivity. cbn [rbind].
      rewrite rnthN_app by auto. cbn [rbind]. now rewrite updN_app by auto.
    + split; [reflexivity|]. cbn in Hw |- *. rewrite HL.
      split; [exact Hw|]. split; [reflexivity|]. split; [reflexivity|]. auto.
  - destruct (towards_ok B BL l p n idx i Hp Ha Hi)
      as (a & c & b & j & Ek & Ei & Hj & Hwc & Hidx & (q & idx' & Et & Hq & Haq) & Hnr).
    pose proof (pos_ok_wf _ _ _ _ _ Hp) as Hw.
    destruct (wf_inner _ _ _ _ Hw) as (r & cs & En). subst n. cbn [kids] in Ek. subst cs.
    destruct (splitN j (elems c)) as (A' & x' & Z' & Ec & HA'); [exact Hj|].
    rewrite elems_inner, flat_map_app in HE. cbn [flat_map] in HE. rewrite Ec in HE.
    assert (A = flat_map elems a ++ A' /\ x = x' /\ Z = Z' ++ flat_map elems b) as (-> & -> & ->).
    { rewrite <- app_assoc, app_assoc in HE. cbn [app] in HE. apply app_inj_len in HE.
      - destruct HE as [-> HE]. inversion HE; auto.
      - rewrite lenN_app, lenN_flat. lia. }
    destruct (IH q c idx' j A' x' Z' Hq Haq Hj Ec HA')
      as (c' & Eu & Eel & Hwc' & Hrc & Hkc & Hfc & Hgc).
    assert (nsize c' = nsize c) as Esz.
    { unfold nsize. rewrite Eel, Ec, !lenN_app, !lenN_cons. reflexivity. }
    exists (Inner r (a ++ c' :: b)).
    assert (pinner p = Ok (a ++ c :: b)) as Ein.
    { unfold pinner. rewrite (pos_ok_node _ _ _ _ _ Hp). reflexivity. }
    assert (match p with PRel _ sz => Some sz | _ => None end = r) as Er.
    { inversion Hp; subst; try reflexivity; destruct r; try easy; exfalso;
        match goal with H : full _ _ |- _ => cbn in H; easy | _ => idtac end. }
    split.
    { cbn [update_node]. rewrite Hidx, (count_ok _ _ _ _ _ Hp). cbn [rbind ncount].
      rewrite Ein. cbn [rbind]. rewrite Et. cbn [rbind]. rewrite Eu. cbn [rbind].
      rewrite rtakeN_all by reflexivity. cbn [rbind]. rewrite updN_app by reflexivity.
      now rewrite Er. }
    split.
    { rewrite elems_inner, flat_map_app. cbn [flat_map]. rewrite Eel.
      rewrite <- !app_assoc. reflexivity. }
    assert (reg (S l) (Inner r (a ++ c :: b)) -> reg (S l) (Inner r (a ++ c' :: b))) as HR.
    { intros HR. destruct r; [easy|]. cbn in HR |- *.
      destruct HR as (init & last & E & Hf & Hrl & Hlen).
      destruct b as [|d b] using rev_ind.
      - apply app_inj_tail in E. destruct E as [-> ->].
        exists init, c'. rewrite !lenN_app, !lenN_cons in *. repeat (split; auto).
      - clear IHb. rewrite app_comm_cons, app_assoc in E. apply app_inj_tail in E.
        destruct E as [E ->]. exists (a ++ c' :: b), last. subst init.
        apply Forall_app in Hf. destruct Hf as [Hf1 Hf2]. inversion Hf2; subst.
        split; [now rewrite app_comm_cons, app_assoc|].
        split; [apply Forall_app; auto|]. split; [auto|].
        rewrite !lenN_app, !lenN_cons in *. lia. }
    split.
    { destruct r as [sz|].
      - cbn [RrbInv.wf] in Hw |- *. destruct Hw as (Hl & Hc & Hs).
        rewrite !lenN_app, !lenN_cons in *. split; [lia|].
        apply Forall_app in Hc. destruct Hc as [Hc1 Hc2]. inversion Hc2; subst.
        split; [apply Forall_app; auto|].
        rewrite !map_app. cbn [map]. now rewrite Esz.
      - apply HR. exact Hw. }
    split; [reflexivity|].
    split; [cbn [kids]; rewrite !lenN_app, !lenN_cons; reflexivity|].
    split; [|exact HR].
    intros HF. destruct r; [easy|]. cbn in HF |- *. destruct HF as [Hl HF].
    rewrite !lenN_app, !lenN_cons in *. split; [lia|].
    apply Forall_app in HF. destruct HF as [HF1 HF2]. inversion HF2; subst.
    apply Forall_app; auto.
Qed.

(** ** push_tail *)

Lemma make_path_ok v (n : node T) : full O n ->
  reg v (make_path v n) /\ elems (make_path v n) = elems n.
Proof.
  intros H. induction v as [|l [IH1 IH2]]; [split; [exact H|reflexivity]|].
  cbn [make_path]. split.
  - exists [], (make_path l n). split; [reflexivity|]. split; [constructor|].
    split; [auto|]. rewrite lenN_cons, lenN_nil. pose proof (width_pos B). lia.
  - rewrite elems_inner. cbn [flat_map]. now rewrite app_nil_r.
Qed.

Lemma dvd_step a b w : 0 < w -> a mod w = 0 -> b mod w = 0 -> a < b -> a + w <= b.
Proof.
  intros Hw Ha Hb H. apply N.mod_divide in Ha; [|lia]. apply N.mod_divide in Hb; [|lia].
  destruct Ha as [x ->]. destruct Hb as [y ->].
  apply N.mul_lt_mono_pos_r in H; [|lia]. replace (x * w + w) with ((x + 1) * w) by lia.
  apply N.mul_le_mono_r. lia.
Qed.

Lemma span_dvd v : span v mod lwidth = 0.
Proof.
  assert (span v = 2 ^ (N.of_nat v * B) * lwidth) as ->.
  { unfold RrbInv.span, Rrb.lwidth, Rrb.sh. rewrite <- N.pow_add_r. f_equal. lia. }
  apply N.mod_mul. pose proof (lwidth_pos BL). lia.
Qed.

Lemma mod_down x v : (x mod span v) mod lwidth = x mod lwidth.
Proof.
  unfold RrbInv.span, Rrb.lwidth, Rrb.sh. apply mod_mod_pow.
Qed.

(** Index arithmetic of the regular push: the size recorded in the position. *)
Lemma push_index l s m : 0 < s -> (s - 1) mod span (S l) + 1 = m -> m mod lwidth = 0 ->
  m + lwidth <= span (S l) ->
  N.land s (lmask BL) = 0 /\
  N.land (N.shiftr (s - 1) (sh l)) (mask B) = (m - 1) / span l /\
  N.land (N.shiftr (s + lwidth - 1) (sh l)) (mask B) = (m + lwidth - 1) / span l.
Proof.
  intros Hs Hm Hd Hle. pose proof (lwidth_pos BL) as Hlw. pose proof (span_pos B BL (S l)).
  pose proof (N.div_mod (s - 1) (span (S l)) ltac:(lia)) as Hdm.
  set (k := (s - 1) / span (S l)) in *.
  assert (s = span (S l) * k + m) as Es by lia.
  assert (span (S l) mod lwidth = 0) as Hspd by apply span_dvd.
  apply N.mod_divide in Hspd; [|lia]. destruct Hspd as [y Hy].
  split.
  - unfold lmask. rewrite land_mask. fold lwidth.
    rewrite Es. replace (span (S l) * k + m) with (m + y * k * lwidth) by nia.
    rewrite N.mod_add; [auto|lia].
  - rewrite !land_index. split.
    + f_equal. lia.
    + f_equal. apply (mod_unique' _ _ k); nia.
Qed.

Definition not_full (p : pos T) : bool := match p with PFull _ => false | _ => true end.

Lemma push_regular_ok l p n tl ts :
  pos_ok (S l) p n -> not_full p = true -> is_rel n = false ->
  nsize n < span (S l) -> full O tl ->
  exists n', push_tail_node B BL (S l) p tl ts = Ok (Some n') /\
    reg (S l) n' /\ elems n' = elems n ++ elems tl /\ lenN (kids n) <= lenN (kids n').
Proof.
  revert p n. induction l as [|l IH]; intros p n Hp Hnf Hr Hlt Htl.
  all: pose proof (pos_ok_wf _ _ _ _ _ Hp) as Hw.
  all: destruct (nonrel_inv _ _ _ _ Hw Hr) as (init & last & En & Hf & Hrl & Hl & Hn & Hb).
  all: pose proof (lwidth_pos BL) as Hlw.
  all: assert (nsize n mod lwidth = 0) as Hd
    by (eapply (reg_dvd B BL); destruct n as [|[]]; try easy; exact Hw).
  all: match goal with |- exists n', push_tail_node _ _ (S ?k) _ _ _ = _ /\ _ =>
         assert (nsize n + lwidth <= span (S k)) as Hle
           by (apply dvd_step; auto using span_dvd);
         assert (exists s, (p = PReg n s \/ p = PSub n s) /\ 0 < s /\
                   (s - 1) mod span (S k) + 1 = nsize n) as (s & Ep & Hs & Es) end.
  { inversion Hp; subst; try easy; eexists; (split; [eauto|]); split; auto; [lia|].
    rewrite N.mod_small; lia. }
  2:{ inversion Hp; subst; try easy; eexists; (split; [eauto|]); split; auto; [lia|].
      rewrite N.mod_small; lia. }
  - (* bottom *)
    destruct (push_index _ _ _ Hs Es Hd Hle) as (E1 & E2 & E3).
    rewrite span_0 in *.
    assert (nsize last = lwidth) as El.
    { pose proof (reg_wf _ _ _ _ Hrl) as Hwl.
      destruct (wf_leaf _ _ _ Hwl) as (xs & -> & _). exact Hrl. }
    assert (push_tail_node B BL 1 p tl ts =
            Ok (Some (Inner None (init ++ [last; tl])))) as Epush.
    { destruct Ep as [-> | ->]; cbn [push_tail_node]; rewrite E1; cbn [negb N.eqb];
        rewrite En at 1; cbn [inner_of rbind Rrb.index]; rewrite E2, E3, Hn, El;
        (replace ((lenN init * lwidth + lwidth - 1) / lwidth) with (lenN init)
          by (symmetry; apply (div_unique' _ _ _ (lwidth - 1)); lia));
        (replace ((lenN init * lwidth + lwidth + lwidth - 1) / lwidth) with (lenN init + 1)
          by (symmetry; apply (div_unique' _ _ _ (lwidth - 1)); lia));
        (destruct (N.eqb_spec (lenN init) (lenN init + 1)); [lia|]);
        cbn [rbind make_path];
        (rewrite rtakeN_all by (rewrite lenN_app; cbn; lia)); cbn [rbind];
        rewrite <- app_assoc; reflexivity. }
    exists (Inner None (init ++ [last; tl])). split; [exact Epush|].
    split.
    { exists (init ++ [last]), tl. split; [now rewrite <- app_assoc|].
      split; [apply Forall_app; split; auto; constructor; auto; apply (reg_full B BL 0); auto|].
      split; [now apply full_reg|]. rewrite lenN_app. cbn.
      rewrite span_S, span_0 in *. nia. }
    split.
    + rewrite En, !elems_inner, !flat_map_app. cbn. now rewrite !app_nil_r, app_assoc.
    + rewrite En. cbn [kids]. rewrite !lenN_app. cbn. lia.
  - destruct (push_index _ _ _ Hs Es Hd Hle) as (E1 & E2 & E3).
    assert (nsize last mod lwidth = 0) as Hdl by (eapply reg_dvd; eauto).
    destruct (N.eq_dec (nsize last) (span (S l))) as [Efull|Efull].
    + (* last child full: a new path *)
      destruct (make_path_ok (S l) tl Htl) as [Hpr Hpe].
      assert (lwidth <= span (S l)) as Hls.
      { assert (0 < span (S l)) by apply span_pos.
        assert (0 + lwidth <= span (S l)) by (apply dvd_step; auto using span_dvd). lia. }
      assert ((nsize n - 1) / span (S l) = lenN init) as D1
        by (rewrite Hn, Efull; apply last_div; lia).
      assert ((nsize n + lwidth - 1) / span (S l) = lenN init + 1) as D2
        by (rewrite Hn, Efull; apply (div_unique' _ _ _ (lwidth - 1)); clear - Hls Hlw; lia).
      assert (push_tail_node B BL (S (S l)) p tl ts =
              Ok (Some (Inner None (init ++ [last; make_path (S l) tl])))) as Epush.
      { assert (lenN init =? lenN init + 1 = false) as D3 by (apply N.eqb_neq; lia).
        destruct Ep as [-> | ->]; cbn [push_tail_node]; rewrite E1; cbn [negb N.eqb];
          rewrite En at 1; cbn [inner_of rbind Rrb.index]; rewrite E2, E3, D1, D2, D3;
          cbn [rbind];
          (rewrite rtakeN_all by (rewrite lenN_app; reflexivity)); cbn [rbind];
          rewrite <- app_assoc; reflexivity. }
      eexists. split; [exact Epush|].
      split.
      { exists (init ++ [last]), (make_path (S l) tl). split; [now rewrite <- app_assoc|].
        split; [apply Forall_app; split; auto; constructor; auto; now apply reg_full|].
        split; [auto|]. rewrite lenN_app. cbn.
        assert (lenN init + 1 < width); [|lia].
        rewrite Efull in Hn. rewrite (span_S B BL (S l)) in Hlt.
        apply (N.mul_lt_mono_pos_r (span (S l))); [apply span_pos|]. clear - Hn Hlt. lia. }
      split.
      * rewrite En, !elems_inner, !flat_map_app. cbn [flat_map]. rewrite Hpe.
        now rewrite !app_nil_r, app_assoc.
      * rewrite En. cbn [kids]. rewrite !lenN_app. cbn. lia.
    + (* push into the last child *)
      assert (nsize last + lwidth <= span (S l)) as Hll
        by (apply dvd_step; auto using span_dvd; lia).
      assert (pos_ok (S l) (PReg last s) last) as Hpl.
      { constructor; [now apply reg_wf|eapply reg_not_rel; eauto|auto|].
        rewrite <- mod_span_S.
        replace ((s - 1) mod span (S (S l))) with (lenN init * span (S l) + nsize last - 1)
          by (clear - Es Hn; lia).
        rewrite last_mod by exact Hb. clear - Hb. lia. }
      destruct (IH (PReg last s) last Hpl eq_refl) as (c' & Ec & Hrc & Hec & _); auto.
      { eapply reg_not_rel; eauto. } { lia. }
      assert ((nsize n - 1) / span (S l) = lenN init) as D1
        by (rewrite Hn; apply last_div; lia).
      assert ((nsize n + lwidth - 1) / span (S l) = lenN init) as D2
        by (rewrite Hn; apply (div_unique' _ _ _ (nsize last + lwidth - 1));
            clear - Hll Hlw Hb; lia).
      assert (s =? 0 = false) as D3 by (apply N.eqb_neq; lia).
      assert (push_tail_node B BL (S (S l)) p tl ts =
              Ok (Some (Inner None (init ++ [c'])))) as Epush.
      { remember (S l) as l1 eqn:El1.
        destruct Ep as [-> | ->]; cbn [push_tail_node];
          rewrite E1; cbn [negb N.eqb];
          rewrite En at 1; cbn [inner_of rbind Rrb.index]; rewrite E2, E3, D1, D2;
          rewrite N.eqb_refl; unfold last_oh; rewrite En; cbn [inner_of rbind];
          (rewrite rnthN_app by reflexivity); cbn [rbind]; unfold mk_reg;
          rewrite D3; cbn [rbind];
          rewrite Ec; cbn [rbind]; (rewrite rtakeN_app by reflexivity); reflexivity. }
      eexists. split; [exact Epush|].
      split.
      { exists init, c'. split; [auto|]. split; [auto|]. split; [auto|].
        rewrite lenN_app. cbn. lia. }
      split.
      * rewrite En, !elems_inner, !flat_map_app. cbn [flat_map]. rewrite Hec.
        now rewrite !app_nil_r, app_assoc.
      * rewrite En. cbn [kids]. rewrite !lenN_app. cbn. lia.
Qed.

(** Reading the sizes of the children of a relaxed node. *)
Lemma rel_before l sz a b : wf (S l) (Inner (Some sz) (a ++ b)) ->
  (if lenN a =? 0 then Ok 0 else rnthN sz (lenN a - 1)) = Ok (csize a).
Proof.
  intros (_ & _ & ->).
  destruct (N.eqb_spec (lenN a) 0) as [Z|Z]; [apply lenN_0 in Z; now subst a|].
  destruct a as [|d a] using rev_ind; [easy|]. clear IHa.
  rewrite <- app_assoc. cbn [app]. rewrite map_app. cbn [map].
  rewrite rnth_sums; [|rewrite lenN_map, lenN_app; cbn; lia].
  rewrite csize_snoc. unfold csize. f_equal; lia.
Qed.
Lemma rel_at l sz a c b : wf (S l) (Inner (Some sz) (a ++ c :: b)) ->
  rnthN sz (lenN a) = Ok (csize a + nsize c).
Proof.
  intros (_ & _ & ->). rewrite map_app. cbn [map]. rewrite rnth_sums by apply lenN_map.
  unfold csize. f_equal.
Qed.

Lemma sums_prefix (a b : list (node T)) :
  takeN (lenN a) (sums 0 (map nsize (a ++ b))) = sums 0 (map nsize a).
Proof.
  rewrite map_app, sums_app. rewrite <- (lenN_map nsize a), <- (lenN_sums 0 (map nsize a)).
  apply takeN_app.
Qed.

Lemma rel_wf_intro l cs : 0 < lenN cs <= width -> Forall (wf l) cs ->
  wf (S l) (Inner (Some (sums 0 (map nsize cs))) cs).
Proof. intros. cbn. auto. Qed.

Lemma push_relaxed_ok l n sz tl ts :
  wf (S l) n -> n = Inner (Some sz) (kids n) -> full O tl -> ts = lwidth ->
  exists r, push_tail_node B BL (S l) (PRel n sz) tl ts = Ok r /\
    forall n', r = Some n' ->
      wf (S l) n' /\ is_rel n' = true /\ elems n' = elems n ++ elems tl.
Proof.
  intros Hw En Htl Hts. revert n sz Hw En. induction l as [|l IH]; intros n sz Hw En.
  all: destruct n as [|r cs]; [easy|]; cbn [kids] in En; injection En as Er; subst r.
  all: assert (wf O tl) as Hwt by now apply full_wf.
  all: assert (nsize tl = lwidth) as Hst
    by (rewrite (full_size _ _ _ _ Htl), span_0; reflexivity).
  all: pose proof Hw as (Hl & Hc & Hs);
    destruct cs as [|x cs] using rev_ind; [cbn in Hl; lia|]; clear IHcs;
    rewrite lenN_snoc in Hl.
  all: assert (lenN sz = lenN cs + 1) as Hlsz
    by (rewrite Hs, lenN_sums, lenN_map, lenN_snoc; reflexivity).
  all: assert (last_of sz = Ok (nsize (Inner (Some sz) (cs ++ [x])))) as Hlast
    by (eapply rel_last; eauto).
  all: assert (nsize (Inner (Some sz) (cs ++ [x])) = csize cs + nsize x) as Hnn
    by (rewrite nsize_inner; fold (csize (cs ++ [x])); apply csize_snoc).
  all: assert (forall k, size_at B BL (S k) (PRel (Inner (Some sz) (cs ++ [x])) sz) (lenN cs) = Ok (nsize x)) as Hsa
    by (intros k; unfold size_at, size_before; rewrite (rel_before _ _ _ _ Hw);
        cbn [rbind size_sbh]; rewrite (rel_at _ _ _ _ _ Hw); cbn [rbind]; f_equal; lia).
  all: assert (forall v c', wf v c' -> elems c' = elems tl -> Forall (wf v) (cs ++ [x]) ->
         lenN cs + 1 < width ->
         exists m, (cs' <- rtakeN (lenN cs + 1) (cs ++ [x]) ;;
                    sz' <- rtakeN (lenN cs + 1) sz ;;
                    Ok (Some (Inner (Some (sz' ++ [csize cs + nsize x + ts])) (cs' ++ [c'])))) = Ok (Some m) /\
           wf (S v) m /\ is_rel m = true /\
           elems m = elems (Inner (Some sz) (cs ++ [x])) ++ elems tl) as Hnew.
  1,3: intros v c' Hwc' Hec' Hall Hlt;
      rewrite !rtakeN_all by (rewrite ?lenN_snoc; lia); cbn [rbind];
      eexists; split; [reflexivity|];
      (assert (nsize c' = ts) as Hsc by (unfold nsize; rewrite Hec'; fold (nsize tl); congruence));
      (split; [|split; [reflexivity|]]);
      [cbn [RrbInv.wf]; rewrite !lenN_snoc; (split; [lia|]);
       (split; [apply Forall_app; auto|]);
       rewrite (map_app nsize (cs ++ [x])), sums_app, <- Hs; cbn [map sums];
       fold (csize (cs ++ [x])); rewrite csize_snoc, Hsc; do 2 f_equal; lia
      |rewrite !elems_inner, !flat_map_app; cbn [flat_map]; rewrite Hec';
       now rewrite !app_nil_r].
  - cbn [push_tail_node]. rewrite Hlsz. replace (lenN cs + 1 - 1) with (lenN cs) by lia.
    rewrite Hsa, Hlast, Hnn. cbn [rbind inner_of]. rewrite orb_true_r.
    destruct (N.leb_spec width (lenN cs + 1)); [exists None; split; [reflexivity|easy]|].
    cbn [make_path].
    destruct (Hnew O tl) as (m & Em & Hm); auto.
    rewrite Em. exists (Some m). split; [reflexivity|]. intros n' En'. injection En' as <-. exact Hm.
  - cbn [push_tail_node]. rewrite Hlsz. replace (lenN cs + 1 - 1) with (lenN cs) by lia.
    rewrite Hsa, Hlast, Hnn. cbn [rbind inner_of]. rewrite orb_false_r.
    destruct (make_path_ok (S l) tl Htl) as [Hpr Hpe].
    rewrite shiftl_span.
    destruct (N.eqb_spec (nsize x) (span (S l))) as [Ef|Ef].
    + destruct (N.leb_spec width (lenN cs + 1)); [exists None; split; [reflexivity|easy]|].
      destruct (Hnew (S l) (make_path (S l) tl)) as (m & Em & Hm); auto.
      rewrite Em. exists (Some m). split; [reflexivity|]. intros n' En'. injection En' as <-. exact Hm.
    + destruct (N.leb_spec width (lenN cs)); [lia|].
      rewrite rnthN_app by reflexivity. cbn [rbind].
      apply Forall_app in Hc as [Hc1 Hc2]. inversion Hc2 as [|? ? Hwx _]; subst x0 l0.
      assert (exists q, child_pos B BL (S l) x (nsize x) = Ok q /\
               exists r, push_tail_node B BL (S l) q tl ts = Ok r /\
                 forall n', r = Some n' -> wf (S l) n' /\ elems n' = elems x ++ elems tl) as
        (q & Eq & r & Er & Hr).
      { destruct x as [|[xsz|] xcs]; [easy| |].
        - unfold child_pos, maybe_relaxed. rewrite (rel_last _ _ _ _ _ Hwx).
          cbn [rbind]. rewrite N.eqb_refl. eexists; split; [reflexivity|].
          destruct (IH _ xsz Hwx eq_refl) as (r & Er & Hr). exists r. split; [exact Er|].
          intros n' En'. destruct (Hr n' En') as (? & _ & ?). auto.
        - unfold child_pos, maybe_relaxed. rewrite mk_sub_ok by auto.
          eexists; split; [reflexivity|].
          destruct (push_regular_ok l (PSub (Inner None xcs) (nsize (Inner None xcs))) (Inner None xcs) tl ts)
            as (n' & En' & Hrn & Hen & _); auto.
          { now constructor. }
          { pose proof (wf_size _ _ _ _ Hwx). lia. }
          exists (Some n'). split; [exact En'|]. intros n'' E. injection E as <-.
          split; [now apply reg_wf|auto]. }
      rewrite Eq. cbn [rbind]. cbn [push_tail_node] in Er. rewrite Er. cbn [rbind].
      destruct r as [c'|].
      * destruct (Hr c' eq_refl) as [Hwc' Hec'].
        rewrite rtakeN_app by reflexivity. cbn [rbind].
        rewrite rtakeN_ok by lia. cbn [rbind]. rewrite Hs, sums_prefix.
        eexists. split; [reflexivity|]. intros n' En'. injection En' as <-.
        assert (nsize c' = nsize x + ts) as Hsc
          by (unfold nsize; rewrite Hec', lenN_app; fold (nsize tl); fold (nsize x); lia).
        split; [|split; [reflexivity|]].
        -- cbn [RrbInv.wf]. rewrite !lenN_snoc. split; [lia|].
           split; [apply Forall_app; auto|].
           rewrite map_app, sums_app. cbn [map sums]. fold (csize cs). rewrite Hsc.
           do 2 f_equal. lia.
        -- rewrite !elems_inner, !flat_map_app. cbn [flat_map]. rewrite Hec'.
           now rewrite !app_nil_r, app_assoc.
      * destruct (N.ltb_spec (lenN cs + 1) width).
        -- destruct (Hnew (S l) (make_path (S l) tl)) as (m & Em & Hm); auto.
           { apply Forall_app; auto. }
           rewrite Em. exists (Some m). split; [reflexivity|].
           intros n' En'. injection En' as <-. exact Hm.
        -- exists None. split; [reflexivity|easy].
Qed.

End Ops.
