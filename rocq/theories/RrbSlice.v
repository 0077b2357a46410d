(** Slicing nodes on the right and on the left. *)
From Coq Require Import List NArith Arith Bool Lia ZifyN ZifyNat ZifyBool.
From Verif Require Import Common NList Rrb RrbInv RrbPos RrbOps.
Import ListNotations.
Local Open Scope N_scope.

Set Default Goal Selector "!".

Section Slice.
Context {T : Type}.
Variables B BL : N.

Notation sh := (sh B BL).
Notation width := (width B).
Notation lwidth := (lwidth BL).
Notation span := (span B BL).
Notation full := (@full T B BL).
Notation reg := (@reg T B BL).
Notation wf := (@wf T B BL).
Notation pos_ok := (@pos_ok T B BL).
Notation addr := (@addr T B BL).

Lemma take_flat (a : list (node T)) c b j : j <= nsize c ->
  takeN (csize a + j) (flat_map elems (a ++ c :: b)) = flat_map elems a ++ takeN j (elems c).
Proof.
  intros H. rewrite flat_map_app. cbn [flat_map].
  rewrite takeN_app_ge by (rewrite lenN_flat; lia). f_equal. rewrite lenN_flat.
  replace (csize a + j - csize a) with j by lia. now apply takeN_app_le.
Qed.
Lemma drop_flat (a : list (node T)) c b j : j <= nsize c ->
  dropN (csize a + j) (flat_map elems (a ++ c :: b)) = dropN j (elems c) ++ flat_map elems b.
Proof.
  intros H. rewrite flat_map_app. cbn [flat_map].
  rewrite dropN_app_ge by (rewrite lenN_flat; lia). rewrite lenN_flat.
  replace (csize a + j - csize a) with j by lia. now apply dropN_app_le.
Qed.

Lemma wf_nonrel_reg l n : wf (S l) n -> is_rel n = false -> reg (S l) n.
Proof. destruct n as [|[]]; easy. Qed.

Lemma full_prefix_reg l (a : list (node T)) : a <> [] -> Forall (full l) a -> lenN a <= width ->
  reg (S l) (Inner None a).
Proof.
  intros Ha Hf Hl. destruct a as [|d a] using rev_ind; [easy|]. clear IHa.
  apply Forall_app in Hf. destruct Hf as [Hf Hd]. inversion Hd; subst.
  exists a, d. split; [reflexivity|]. split; [auto|]. split; [now apply full_reg|auto].
Qed.

Lemma nonrel_split l n a c b :
  wf (S l) n -> is_rel n = false -> kids n = a ++ c :: b ->
  Forall (full l) a /\ reg l c /\ (b <> [] -> full l c) /\ Forall (reg l) b /\
  csize a = lenN a * span l /\ nsize n = csize a + nsize c + csize b /\
  (nsize n - 1) / span l = lenN a + lenN b /\
  exists init la, c :: b = init ++ [la] /\ Forall (full l) init /\ reg l la /\
    nsize n = (lenN a + lenN b) * span l + nsize la.
Proof.
  intros Hw Hr Ek.
  destruct (nonrel_inv _ _ _ _ Hw Hr) as (init & la & -> & Hf & Hrl & Hl & Hn & Hb).
  cbn [kids] in Ek.
  assert (nsize (Inner None (init ++ [la])) = csize a + nsize c + csize b) as Hs.
  { rewrite nsize_inner. fold (csize (init ++ [la])). rewrite Ek, csize_app, csize_cons. lia. }
  destruct b as [|d b] using rev_ind.
  - apply app_inj_tail in Ek. destruct Ek as [-> ->].
    split; [auto|]. split; [auto|]. split; [easy|]. split; [constructor|].
    split; [now apply full_csize|]. split; [auto|].
    change (lenN (@nil (node T))) with 0. rewrite N.add_0_r.
    split; [rewrite Hn; now apply last_div|].
    exists [], c. split; [auto|]. split; [constructor|]. split; auto.
  - clear IHb. rewrite app_comm_cons, app_assoc in Ek. apply app_inj_tail in Ek.
    destruct Ek as [-> ->]. apply Forall_app in Hf as [Hfa Hfb].
    inversion Hfb as [|? ? Hfc Hfb']; subst.
    split; [auto|]. split; [now apply full_reg|]. split; [auto|].
    split.
    { apply Forall_app. split; [|auto]. eapply Forall_impl; [|exact Hfb'].
      intros; now apply full_reg. }
    split; [now apply full_csize|]. split; [auto|].
    assert (lenN (a ++ c :: b) = lenN a + lenN (b ++ [d])) as El
      by (rewrite !lenN_app, lenN_cons; cbn; lia).
    rewrite El in Hn. split; [rewrite Hn; now apply last_div|].
    exists (c :: b), d. split; [reflexivity|]. auto.
Qed.

Lemma nonrel_child l n a c b :
  wf (S l) n -> is_rel n = false -> kids n = a ++ c :: b -> is_rel c = false.
Proof.
  intros Hw Hr Ek. destruct (nonrel_split l n a c b Hw Hr Ek) as (_ & H & _).
  eapply reg_not_rel; eauto.
Qed.

Lemma slice_right_ok col v p n last i : 1 <= B ->
  pos_ok v p n -> addr v p last i -> i < nsize n ->
  exists nr xs, slice_right B BL col v p last = Ok (nr, lenN xs, Leaf xs) /\
    0 < lenN xs <= lwidth /\
    takeN (i + 1) (elems n) = (match nr with Some (_, r) => elems r | None => [] end) ++ xs /\
    match nr with
    | Some (w, r) =>
        wf w r /\ (1 <= w <= v)%nat /\ (col = false -> w = v) /\
        (is_rel n = false ->
         is_rel r = false /\ (col = true -> w = 1%nat \/ 2 <= lenN (kids r)))
    | None => True
    end.
Proof.
  intros HB. revert col p n last i. induction v as [|l IH]; intros col p n last i Hp Ha Hi.
  - destruct (leaf_index _ _ _ _ _ _ Hp Ha Hi) as (xs & -> & Hidx & Hlt).
    destruct (wf_leaf _ _ _ (pos_ok_wf _ _ _ _ _ Hp)) as (xs' & E & Hx).
    injection E as <-.
    cbn [slice_right]. rewrite (pos_ok_node _ _ _ _ _ Hp). cbn [rbind].
    rewrite (count_ok _ _ _ _ _ Hp). cbn [rbind ncount]. rewrite Hidx. cbn [rbind elems].
    destruct (N.eqb_spec (i + 1) (lenN xs)) as [E|E].
    + exists None, xs. rewrite E, takeN_all by lia. repeat split; lia.
    + exists None, (takeN (i + 1) xs). unfold copy_leaf. cbn [leaf_of rbind].
      rewrite rtakeN_ok by lia. cbn [rbind]. rewrite lenN_takeN.
      replace (N.min (i + 1) (lenN xs)) with (i + 1) by lia.
      split; [reflexivity|]. split; [lia|]. split; [reflexivity|exact I].
  - destruct (towards_ok B BL l p n last i Hp Ha Hi)
      as (a & c & b & j & Ek & Ei & Hj & Hwc & Hidx & (q & last' & Et & Hq & Haq) & Hnr).
    pose proof (pos_ok_wf _ _ _ _ _ Hp) as Hw.
    destruct (wf_inner _ _ _ _ Hw) as (r & cs & En). subst n. cbn [kids] in Ek. subst cs.
    assert (pinner p = Ok (a ++ c :: b)) as Ein.
    { unfold pinner. rewrite (pos_ok_node _ _ _ _ _ Hp). reflexivity. }
    pose proof (wf_count_le _ _ _ _ Hw) as Hlen. cbn [kids] in Hlen.
    pose proof (wf_kids _ _ _ _ Hw) as Hkids. cbn [kids] in Hkids.
    rewrite lenN_app, lenN_cons in Hlen.
    apply Forall_app in Hkids as [Hka Hkc].
    cbn [slice_right]. rewrite Hidx. cbn [rbind]. rewrite Et. cbn [rbind].
    rewrite elems_inner, Ei. replace (csize a + j + 1) with (csize a + (j + 1)) by lia.
    rewrite take_flat by lia.
    destruct (col && (lenN a =? 0)) eqn:Ec.
    + apply andb_true_iff in Ec as [-> Ea]. apply N.eqb_eq, lenN_0 in Ea. subst a.
      destruct (IH true q c last' j Hq Haq Hj) as (nr & xs & E & Hxs & Htk & Hnrr).
      exists nr, xs. split; [exact E|]. split; [exact Hxs|]. split; [exact Htk|].
      destruct nr as [[w rr]|]; [|exact I]. destruct Hnrr as (H1 & H2 & _ & H4).
      split; [auto|]. split; [lia|]. split; [easy|]. intros Hrel. apply H4.
      exact (nonrel_child l _ [] c b Hw Hrel eq_refl).
    + destruct (IH false q c last' j Hq Haq Hj) as (nr & xs & E & Hxs & Htk & Hnrr).
      rewrite E. cbn [rbind]. rewrite Ein. cbn [rbind]. rewrite Htk.
      assert (lenN (takeN (j + 1) (elems c)) = j + 1) as Hlt.
      { rewrite lenN_takeN, lenN_elems. lia. }
      rewrite Htk, lenN_app in Hlt.
      destruct nr as [[w c']|].
      * destruct Hnrr as (Hwc' & Hwl & Hwe & Hrc). specialize (Hwe eq_refl). subst w.
        rewrite lenN_elems in Hlt.
        rewrite rtakeN_app by reflexivity. cbn [rbind].
        set (N' := match p with
                  | PRel _ _ => Inner (Some (sums 0 (map nsize (a ++ [c'])))) (a ++ [c'])
                  | _ => Inner None (a ++ [c']) end).
        assert (match p with
                | PRel _ sz => sz' <- rtakeN (lenN a) sz ;;
                    Ok (Some (S l, Inner (Some (sz' ++ [last + 1 - lenN xs])) (a ++ [c'])), lenN xs, Leaf xs)
                | _ => Ok (Some (S l, Inner None (a ++ [c'])), lenN xs, Leaf xs)
                end = Ok (Some (S l, N'), lenN xs, Leaf xs)) as ->.
        { subst N'. inversion Hp as [n Hf|n s Hw' Hr Hs E'|n s Hw' Hr E'|cs sz Hw']; subst; try reflexivity.
          cbn in Ha. destruct Hw as (_ & _ & ->).
          rewrite rtakeN_ok by (rewrite lenN_sums, lenN_map, lenN_app; lia). cbn [rbind].
          rewrite sums_prefix, map_app, sums_app. cbn [map sums]. fold (csize a).
          assert (last + 1 - lenN xs = csize a + nsize c') as -> by lia. reflexivity. }
        exists (Some (S l, N')), xs. split; [reflexivity|]. split; [exact Hxs|].
        split.
        { assert (elems N' = flat_map elems a ++ elems c') as ->.
          { subst N'. destruct p; rewrite elems_inner, flat_map_app; cbn [flat_map];
              now rewrite app_nil_r. }
          now rewrite app_assoc. }
        split.
        { subst N'. inversion Hp as [n Hf|n s Hw' Hr Hs E'|n s Hw' Hr E'|cs sz Hw']; subst.
          4:{ apply rel_wf_intro; [rewrite lenN_snoc; lia|].
              apply Forall_app. split; auto. }
          all: assert (is_rel (Inner r (a ++ c :: b)) = false) as Hrl
              by (auto; eapply full_not_rel; eauto);
            destruct (Hnr Hrl) as (Hfa & _ & Hfc);
            exists a, c'; (split; [reflexivity|]); (split; [auto|]);
            (split; [|rewrite lenN_snoc; lia]);
            (destruct l as [|l']; [lia|]); apply wf_nonrel_reg; auto; apply Hrc;
            exact (nonrel_child _ _ a c b Hw Hrl eq_refl). }
        split; [lia|]. split; [auto|]. intros Hrl. split.
        { subst N'. inversion Hp; subst; easy. }
        intros ->. right. cbn in Ec. apply N.eqb_neq in Ec.
        assert (lenN (kids N') = lenN a + 1) as ->
          by (subst N'; destruct p; cbn [kids]; apply lenN_snoc). lia.
      * clear Hnrr. destruct (N.eqb_spec (lenN a) 0) as [Z|Z].
        { apply lenN_0 in Z. subst a. exists None, xs. split; [reflexivity|].
          split; [exact Hxs|]. split; [reflexivity|exact I]. }
        cbn [app].
        destruct (col && (lenN a =? 1) && match l with O => false | S _ => true end) eqn:Ec1.
        -- apply andb_true_iff in Ec1 as [Ec1 Hl']. apply andb_true_iff in Ec1 as [-> Ea].
           apply N.eqb_eq in Ea.
           destruct a as [|d [|? ?]]; [easy| |rewrite !lenN_cons in Ea; lia].
           cbn [app]. change (rnthN (d :: c :: b) 0) with (Ok d). cbn [rbind].
           exists (Some (l, d)), xs. split; [reflexivity|]. split; [exact Hxs|].
           inversion Hka; subst.
           split; [cbn [flat_map]; now rewrite app_nil_r|].
           split; [auto|]. split; [destruct l; [easy|lia]|]. split; [easy|].
           intros Hrl. destruct (Hnr Hrl) as (Hfa & _). inversion Hfa; subst.
           split; [eapply full_not_rel; eauto|]. intros _. right.
           destruct l; [easy|]. destruct d as [|[] ds]; cbn in *; try easy.
           assert (2 ^ 1 <= 2 ^ B) by (apply N.pow_le_mono_r; lia).
           unfold Rrb.width in *. cbn in H. lia.
        -- rewrite rtakeN_app by reflexivity. cbn [rbind].
           set (N' := match p with
                     | PRel _ _ => Inner (Some (sums 0 (map nsize a))) a
                     | _ => Inner None a end).
           assert (match p with
                   | PRel _ sz => sz' <- rtakeN (lenN a) sz ;;
                       Ok (Some (S l, Inner (Some sz') a), lenN xs, Leaf xs)
                   | _ => Ok (Some (S l, Inner None a), lenN xs, Leaf xs)
                   end = Ok (Some (S l, N'), lenN xs, Leaf xs)) as ->.
           { subst N'. inversion Hp as [n Hf|n s Hw' Hr Hs E'|n s Hw' Hr E'|cs sz Hw']; subst; try reflexivity.
             destruct Hw as (_ & _ & ->).
             rewrite rtakeN_ok by (rewrite lenN_sums, lenN_map, lenN_app; lia). cbn [rbind].
             now rewrite sums_prefix. }
           exists (Some (S l, N')), xs. split; [reflexivity|]. split; [exact Hxs|].
           split; [subst N'; destruct p; reflexivity|].
           split.
           { subst N'. inversion Hp as [n Hf|n s Hw' Hr Hs E'|n s Hw' Hr E'|cs sz Hw']; subst.
             4:{ apply rel_wf_intro; [lia|auto]. }
             all: assert (is_rel (Inner r (a ++ c :: b)) = false) as Hrl
                 by (auto; eapply full_not_rel; eauto);
               destruct (Hnr Hrl) as (Hfa & _ & Hfc);
               apply full_prefix_reg; auto; [intros ->; easy|lia]. }
           split; [lia|]. split; [auto|]. intros Hrl. split.
           { subst N'. inversion Hp; subst; easy. }
           intros ->. cbn [andb] in Ec1.
           assert (lenN (kids N') = lenN a) as -> by (subst N'; destruct p; reflexivity).
           destruct l; [left; reflexivity|right].
           rewrite andb_true_r in Ec1. apply N.eqb_neq in Ec1. lia.
Qed.

(** ** Reading a position with exact sizes *)

Lemma size_before_ok l p n a c b :
  pos_ok (S l) p n -> is_sub p = true -> kids n = a ++ c :: b ->
  size_before B BL (S l) p (lenN a) = Ok (csize a).
Proof.
  intros Hp Hs Ek. pose proof (pos_ok_wf _ _ _ _ _ Hp) as Hw.
  destruct Hp as [n Hf|n s Hw' Hr Hp E|n s Hw' Hr E|cs sz Hw']; try easy; cbn [size_before].
  - destruct (nonrel_split l n a c b) as (_ & _ & _ & _ & H & _); auto.
    { eapply full_not_rel; eauto. }
    now rewrite shiftl_span_mul, H.
  - destruct (nonrel_split l n a c b) as (_ & _ & _ & _ & H & _); auto.
    now rewrite shiftl_span_mul, H.
  - cbn [kids] in Ek. subst cs. eapply rel_before; eauto.
Qed.

Lemma size_sbh_ok l p n a c b :
  pos_ok (S l) p n -> is_sub p = true -> kids n = a ++ c :: b ->
  size_sbh B BL (S l) p (lenN a) (csize a) = Ok (nsize c).
Proof.
  intros Hp Hs Ek. pose proof (pos_ok_wf _ _ _ _ _ Hp) as Hw.
  destruct Hp as [n Hf|n s Hw' Hr Hp E|n s Hw' Hr E|cs sz Hw']; try easy; cbn [size_sbh].
  - rewrite shiftl_span. f_equal. symmetry. apply full_size.
    destruct n as [|[]]; cbn in Hf; try easy. cbn in Ek. subst cs.
    destruct Hf as [_ Hf]. apply Forall_app in Hf as [_ Hf]. now inversion Hf.
  - destruct (nonrel_split l n a c b) as (H1 & H2 & H3 & H4 & H5 & H6 & H7 & _); auto.
    rewrite shiftr_span, E, H7.
    destruct (N.eqb_spec (lenN a) (lenN a + lenN b)) as [Z|Z].
    + assert (b = []) as -> by (apply lenN_0; lia). rewrite H6, (@csize_nil T). f_equal; lia.
    + rewrite shiftl_span. f_equal. symmetry. apply full_size, H3. intros ->. cbn in Z. lia.
  - cbn [kids] in Ek. subst cs. rewrite (rel_at _ _ _ _ _ _ _ Hw'). cbn [rbind]. f_equal; lia.
Qed.

Lemma size_at_ok l p n a c b :
  pos_ok (S l) p n -> is_sub p = true -> kids n = a ++ c :: b ->
  size_at B BL (S l) p (lenN a) = Ok (nsize c).
Proof.
  intros Hp Hs Ek. unfold size_at. rewrite (size_before_ok _ _ _ _ _ _ Hp Hs Ek).
  cbn [rbind]. eapply size_sbh_ok; eauto.
Qed.

Lemma full_sizes l (m : list (node T)) : Forall (full l) m ->
  map nsize m = repeat (span l) (length m).
Proof.
  induction 1 as [|x m Hx Hm IH]; [reflexivity|]. cbn. now rewrite IH, (full_size _ _ _ _ Hx).
Qed.

Lemma copy_sizes_ok l p n a m b init :
  pos_ok (S l) p n -> is_sub p = true -> kids n = a ++ m ++ b ->
  copy_sizes B BL (S l) p (lenN a) (lenN m) init = Ok (sums init (map nsize m)).
Proof.
  intros Hp Hs Ek. pose proof (pos_ok_wf _ _ _ _ _ Hp) as Hw.
  destruct Hp as [n Hf|n s Hw' Hr Hp E|n s Hw' Hr E|cs sz Hw']; try easy; cbn [copy_sizes].
  - rewrite shiftl_span. destruct n as [|[]]; cbn in Hf; try easy. cbn in Ek. subst cs.
    destruct Hf as [_ Hf]. apply Forall_app in Hf as [_ Hf]. apply Forall_app in Hf as [Hf _].
    rewrite (full_sizes _ _ Hf). unfold lenN. now rewrite Nnat.Nat2N.id.
  - destruct m as [|x m] using rev_ind; [reflexivity|]. clear IHm.
    rewrite lenN_snoc. destruct (N.eqb_spec (lenN m + 1) 0); [lia|].
    replace (lenN a + (lenN m + 1) - 1) with (lenN (a ++ m)) by (rewrite lenN_app; lia).
    assert (kids n = (a ++ m) ++ x :: b) as Ek' by (rewrite Ek, <- !app_assoc; reflexivity).
    rewrite (size_at_ok l (PSub n s) n (a ++ m) x b); auto; [|now constructor].
    cbn [rbind]. rewrite shiftl_span.
    destruct (nonrel_split l n (a ++ m) x b) as (H1 & _); auto.
    apply Forall_app in H1 as [_ H1]. rewrite map_app, (full_sizes _ _ H1). cbn [map].
    replace (N.to_nat (lenN m + 1 - 1)) with (length m) by (unfold lenN; lia). reflexivity.
  - cbn [kids] in Ek. subst cs. cbn [size_before]. rewrite (rel_before _ _ _ _ _ _ Hw').
    cbn [rbind]. destruct Hw' as (_ & _ & ->). rewrite !map_app, !sums_app.
    rewrite rsliceN_app; [|now rewrite lenN_sums, lenN_map|now rewrite lenN_sums, lenN_map].
    cbn [rbind]. f_equal. rewrite N.add_0_l. fold (csize a). clear.
    generalize (csize a) as pr. revert init.
    induction m as [|x m IH]; intros init pr; cbn [map sums]; [reflexivity|].
    rewrite IH. replace (pr + nsize x - pr) with (nsize x) by lia. reflexivity.
Qed.

Lemma subindex_ok l p n a c b j :
  pos_ok (S l) p n -> is_sub p = true -> kids n = a ++ c :: b -> j < nsize c ->
  subindex B BL (S l) p (csize a + j) = Ok (lenN a).
Proof.
  intros Hp Hs Ek Hj. pose proof (pos_ok_wf _ _ _ _ _ Hp) as Hw.
  destruct Hp as [n Hf|n s Hw' Hr Hp E|n s Hw' Hr E|cs sz Hw']; try easy; cbn [subindex].
  1,2: destruct (nonrel_split l n a c b) as (H1 & H2 & H3 & H4 & H5 & _); auto;
    [try (eapply full_not_rel; eauto)..|];
    rewrite shiftr_span; f_equal; apply (div_unique' _ _ _ j);
    [pose proof (reg_size_bounds _ _ _ _ H2); lia|lia].
  cbn [kids] in Ek. subst cs. rewrite shiftr_span.
  destruct Hw' as (_ & Hk & ->). apply Forall_app in Hk as [Hka Hkc]. inversion Hkc; subst.
  apply scan_table; [|auto]. apply N.lt_succ_r, N.div_lt_upper_bound.
  - pose proof (span_pos B BL l). lia.
  - pose proof (wf_csize _ _ _ _ Hka). pose proof (wf_size B BL l c ltac:(auto)). lia.
Qed.

Lemma shl32_ok x s : s < 32 -> x * 2 ^ s < 2 ^ 32 -> shl32 x s = Ok (x * 2 ^ s).
Proof.
  intros H1 H2. unfold shl32. destruct (N.ltb_spec s 32); [|lia].
  rewrite N.shiftl_mul_pow2, N.mod_small by exact H2. reflexivity.
Qed.

Lemma towards_sub_ok l p n a c b j :
  pos_ok (S l) p n -> is_sub p = true -> kids n = a ++ c :: b -> j < nsize c ->
  sh l < 32 -> nsize n <= 2 ^ 32 ->
  exists q, towards_sub B BL l p (csize a + j) (lenN a) = Ok (q, j) /\
    pos_ok l q c /\ is_sub q = true.
Proof.
  intros Hp Hs Ek Hj Hsh H32. pose proof (pos_ok_wf _ _ _ _ _ Hp) as Hw.
  destruct Hp as [n Hf|n s Hw' Hr Hp E|n s Hw' Hr E|cs sz Hw']; try easy; cbn [towards_sub].
  - assert (full l c) as Hfc.
    { destruct n as [|[]]; cbn in Hf; try easy. cbn in Ek. subst cs.
      destruct Hf as [_ Hf]. apply Forall_app in Hf as [_ Hf]. now inversion Hf. }
    destruct (nonrel_split l n a c b) as (_ & _ & _ & _ & H & _); auto.
    { eapply full_not_rel; eauto. }
    destruct n as [|r cs]; [easy|]. cbn in Ek. subst cs. cbn [inner_of rbind].
    rewrite rnthN_app by reflexivity. cbn [rbind].
    exists (PFull c). split; [|split; [now constructor|reflexivity]].
    rewrite shiftl_span_mul, <- H. do 2 f_equal. lia.
  - destruct (nonrel_split l n a c b) as (H1 & H2 & H3 & H4 & H5 & H6 & H7 & _); auto.
    pose proof (reg_size_bounds _ _ _ _ H2) as Hcb.
    destruct n as [|r cs]; [easy|]. cbn in Ek. subst cs. cbn [inner_of rbind].
    rewrite rnthN_app by reflexivity. cbn [rbind].
    rewrite shl32_ok; [|exact Hsh|rewrite span_sh; lia].
    cbn [rbind this_size]. rewrite span_sh, <- H5, shiftl_span, E, H6.
    replace (csize a + nsize c + csize b - csize a) with (nsize c + csize b) by lia.
    replace (csize a + j - csize a) with j by lia.
    destruct b as [|d b'].
    + rewrite (@csize_nil T), N.add_0_r.
      destruct (N.leb_spec (span l) (nsize c)).
      * exists (PFull c). split; [reflexivity|]. split; [|reflexivity].
        constructor. apply reg_full; auto. lia.
      * pose proof (reg_not_rel _ _ _ _ H2). rewrite mk_sub_ok; [|now apply reg_wf|auto].
        cbn [rbind]. exists (PSub c (nsize c)). split; [reflexivity|].
        split; [|reflexivity]. constructor; auto. now apply reg_wf.
    + assert (full l c) as Hfc by (apply H3; easy).
      rewrite (full_size _ _ _ _ Hfc). destruct (N.leb_spec (span l) (span l + csize (d :: b'))); [|lia].
      exists (PFull c). split; [reflexivity|]. split; [now constructor|reflexivity].
  - cbn [kids] in Ek. subst cs. cbn [towards inner_of rbind].
    rewrite (rel_before _ _ _ _ _ _ Hw'). cbn [rbind]. rewrite rnthN_app by reflexivity.
    cbn [rbind]. rewrite (rel_at _ _ _ _ _ _ _ Hw'). cbn [rbind].
    replace (csize a + nsize c - csize a) with (nsize c) by lia.
    assert (wf l c) as Hc.
    { destruct Hw' as (_ & Hk & _). apply Forall_app in Hk as [_ Hk]. now inversion Hk. }
    destruct (child_pos_ok B BL l c Hc) as (q & Eq & Hq & Hsq). rewrite Eq. cbn [rbind].
    exists q. split; [|auto]. do 2 f_equal. lia.
Qed.

Lemma slice_left_ok col v p n first :
  pos_ok v p n -> is_sub p = true -> first < nsize n ->
  sh (pred v) < 32 -> nsize n <= 2 ^ 32 ->
  exists w r, slice_left B BL col v p first = Ok (w, r) /\ wf w r /\
    elems r = dropN first (elems n) /\ (w <= v)%nat /\ (col = false -> w = v) /\
    (1 <= v -> 1 <= w)%nat.
Proof.
  revert col p n first. induction v as [|l IH]; intros col p n first Hp Hs Hi Hsh H32.
  - pose proof (addr_refl _ _ _ _ _ _ Hp Hi) as Ha.
    destruct (leaf_index _ _ _ _ _ _ Hp Ha Hi) as (xs & -> & Hidx & Hlt).
    destruct (wf_leaf _ _ _ (pos_ok_wf _ _ _ _ _ Hp)) as (xs' & E & Hx).
    injection E as <-.
    exists O, (Leaf (dropN first xs)).
    cbn [slice_left]. rewrite (pos_ok_node _ _ _ _ _ Hp). cbn [rbind]. rewrite Hidx.
    cbn [rbind]. rewrite (count_ok _ _ _ _ _ Hp). cbn [rbind ncount].
    unfold copy_leaf_range. cbn [leaf_of rbind].
    rewrite <- (takeN_dropN first xs) at 2.
    rewrite rsliceN_app_r; [|rewrite lenN_takeN; lia|rewrite lenN_dropN; lia].
    cbn [rbind]. split; [reflexivity|].
    split; [cbn; rewrite lenN_dropN; lia|]. split; [reflexivity|]. repeat split; lia.
  - pose proof (pos_ok_wf _ _ _ _ _ Hp) as Hw.
    destruct (wf_inner _ _ _ _ Hw) as (r & cs & En). subst n.
    pose proof Hi as Hi'. rewrite nsize_inner in Hi'. fold (csize cs) in Hi'.
    destruct (find_child cs first Hi') as (a & c & b & j & -> & Ei & Hj).
    assert (kids (Inner r (a ++ c :: b)) = a ++ c :: b) as Ek by reflexivity.
    assert (pinner p = Ok (a ++ c :: b)) as Ein.
    { unfold pinner. rewrite (pos_ok_node _ _ _ _ _ Hp). reflexivity. }
    pose proof (wf_kids _ _ _ _ Hw) as Hk. rewrite Ek in Hk.
    pose proof (wf_count_le _ _ _ _ Hw) as Hlen. rewrite Ek, lenN_app, lenN_cons in Hlen.
    apply Forall_app in Hk as [Hka Hkc]. inversion Hkc as [|? ? Hwc Hkb]; subst x l0.
    assert (nsize c + csize a + csize b <= 2 ^ 32) as H32'.
    { rewrite nsize_inner in H32. fold (csize (a ++ c :: b)) in H32.
      rewrite csize_app, csize_cons in H32. lia. }
    assert (sh (pred l) < 32) as Hsh' by (unfold Rrb.sh in *; cbn [pred] in Hsh; lia).
    subst first.
    destruct (towards_sub_ok l p _ a c b j Hp Hs Ek Hj Hsh H32) as (q & Et & Hq & Hsq).
    cbn [slice_left].
    rewrite (subindex_ok _ _ _ _ _ _ _ Hp Hs Ek Hj). cbn [rbind].
    rewrite (count_ok _ _ _ _ _ Hp). cbn [rbind ncount].
    rewrite (size_before_ok _ _ _ _ _ _ Hp Hs Ek). cbn [rbind].
    rewrite (size_sbh_ok _ _ _ _ _ _ Hp Hs Ek). cbn [rbind]. rewrite Et. cbn [rbind].
    rewrite elems_inner, drop_flat by lia.
    destruct (col && match l with O => false | S _ => true end && (lenN a + 1 =? lenN (a ++ c :: b))) eqn:Ec.
    + apply andb_true_iff in Ec as [Ec Ea]. apply andb_true_iff in Ec as [-> El].
      apply N.eqb_eq in Ea. rewrite lenN_app, lenN_cons in Ea.
      assert (b = []) as -> by (apply lenN_0; lia).
      destruct (IH true q c j) as (w & rr & E & Hwr & He & Hwl & _ & Hw1); auto; [lia|].
      exists w, rr. split; [exact E|]. split; [auto|].
      split; [rewrite He; cbn [flat_map]; now rewrite app_nil_r|].
      split; [lia|]. split; [easy|]. intros _. apply Hw1. destruct l; [easy|lia].
    + destruct (IH false q c j) as (w & c' & E & Hwr & He & Hwl & Hwe & _); auto; [lia|].
      specialize (Hwe eq_refl). subst w. rewrite E. cbn [rbind]. rewrite Ein. cbn [rbind].
      replace (csize a + j - csize a) with j by lia.
      assert (kids (Inner r (a ++ c :: b)) = (a ++ [c]) ++ b ++ []) as Ek2
        by (rewrite app_nil_r, <- app_assoc; reflexivity).
      replace (lenN a + 1) with (lenN (a ++ [c])) by apply lenN_snoc.
      replace (lenN (a ++ c :: b) - lenN a - 1) with (lenN b)
        by (rewrite lenN_app, lenN_cons; lia).
      rewrite (copy_sizes_ok _ _ _ _ _ _ _ Hp Hs Ek2). cbn [rbind].
      cbn [kids] in Ek2. rewrite Ek2.
      rewrite rsliceN_app; [|reflexivity|rewrite app_nil_r, lenN_app; reflexivity].
      cbn [rbind].
      assert (nsize c - j = nsize c') as Hs'.
      { unfold nsize. rewrite He, lenN_dropN. reflexivity. }
      rewrite Hs'.
      exists (S l), (Inner (Some (nsize c' :: sums (nsize c') (map nsize b))) (c' :: b)).
      split; [reflexivity|]. split.
      { replace (nsize c' :: sums (nsize c') (map nsize b)) with (sums 0 (map nsize (c' :: b)))
          by (cbn [map sums]; now rewrite N.add_0_l).
        apply rel_wf_intro; [rewrite lenN_cons; lia|]. constructor; auto. }
      split; [rewrite elems_inner; cbn [flat_map]; now rewrite He|].
      split; [lia|]. split; [auto|lia].
Qed.

End Slice.
