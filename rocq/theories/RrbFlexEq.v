(** Equality of flex_vectors. *)
From Coq Require Import List NArith Arith Bool Lia ZifyN ZifyNat ZifyBool.
From Verif Require Import Common NList Rrb RrbInv RrbPos RrbOps RrbSlice RrbTree RrbMerge RrbConcat
  RrbView RrbSpec RrbViewOk RrbVecEq RrbReach RrbStrict.
Import ListNotations.
Local Open Scope N_scope.

Set Default Goal Selector "!".

Lemma Forall2_len {A C} (R : A -> C -> Prop) xs ys : Forall2 R xs ys -> length xs = length ys.
Proof. induction 1; cbn; auto. Qed.

Section FlexEq.
Context {T : Type}.
Variables B BL : N.
Variable eqT : T -> T -> bool.
Variable peq : node T -> node T -> bool.
Hypothesis eqT_refl : forall x, eqT x x = true.
Hypothesis peq_eq : forall a b, peq a b = true -> a = b.
Hypothesis HB : 2 <= B.
Let HB1 : 1 <= B.
Proof. lia. Qed.

Notation sh := (sh B BL).
Notation width := (width B).
Notation lwidth := (lwidth BL).
Notation span := (span B BL).
Notation full := (@full T B BL).
Notation reg := (@reg T B BL).
Notation wf := (@wf T B BL).
Notation pos_ok := (@pos_ok T B BL).
Notation inv := (@inv T B BL).
Notation mid := (@mid T B BL).
Notation spn := (@spn T B BL).
Notation lead := (@lead T B BL).
Notation eq_node := (@eq_node T B BL eqT peq).

(** ** Reading the other tree through its iterator *)

Section Read.
Variable t : tree T.
Hypothesis Ht : inv t.

Definition slice (idx k : N) : list T := takeN k (dropN idx (to_list t)).
Definition cmp (xs : list T) (idx : N) : bool := list_eqb eqT xs (slice idx (lenN xs)).

Lemma size_list : size t = lenN (to_list t).
Proof. apply (inv_size _ _ _ Ht). Qed.
Lemma len_slice idx k : idx + k <= size t -> lenN (slice idx k) = k.
Proof. intros H. rewrite size_list in H. unfold slice. rewrite lenN_takeN, lenN_dropN. lia. Qed.
Lemma slice_add idx j k : idx + j <= size t -> slice idx (j + k) = slice idx j ++ slice (idx + j) k.
Proof.
  intros H. rewrite size_list in H. unfold slice. rewrite <- dropN_dropN.
  generalize (dropN idx (to_list t)) (lenN_dropN idx (to_list t)). intros l Hl.
  rewrite <- (takeN_dropN j l) at 1. rewrite takeN_app_ge.
  - rewrite lenN_takeN. f_equal. f_equal. lia.
  - rewrite lenN_takeN. lia.
Qed.
Lemma cmp_nil idx : cmp [] idx = true.
Proof. unfold cmp, slice. cbn [lenN length]. now rewrite takeN_0. Qed.
Lemma cmp_app xs ys idx : idx + lenN xs <= size t ->
  cmp (xs ++ ys) idx = cmp xs idx && cmp ys (idx + lenN xs).
Proof.
  intros H. unfold cmp. rewrite lenN_app, slice_add by auto. apply list_eqb_app.
  pose proof (len_slice _ _ H) as E. unfold lenN in *. lia.
Qed.
Lemma cmp_refl xs idx : slice idx (lenN xs) = xs -> cmp xs idx = true.
Proof. intros H. unfold cmp. rewrite H. now apply list_eqb_refl. Qed.

Lemma read_ok idx : idx < size t -> read B BL t idx = rnthN (to_list t) idx.
Proof.
  intros H. destruct (region_for_ok B BL HB1 t idx Ht H) as (xs & f & E & Hr & Hf).
  unfold read. rewrite E. cbn [rbind leaf_of]. eapply region_read; eauto.
Qed.
Lemma slice_cons idx k y : rnthN (to_list t) idx = Ok y -> slice idx (k + 1) = y :: slice (idx + 1) k.
Proof.
  intros H. pose proof (rnthN_lt _ _ _ H) as Hl. rewrite N.add_comm, slice_add by (rewrite size_list; lia).
  change (y :: slice (idx + 1) k) with ([y] ++ slice (idx + 1) k). f_equal.
  unfold slice. rewrite <- (takeN_dropN idx (to_list t)) in H.
  rewrite rnthN_app2 in H by (rewrite lenN_takeN; lia). rewrite lenN_takeN in H.
  replace (idx - N.min idx (lenN (to_list t))) with 0 in H by lia.
  destruct (dropN idx (to_list t)) as [|z l]; [easy|]. cbn in H. injection H as ->. reflexivity.
Qed.
Lemma read_some idx : idx < size t -> exists y, rnthN (to_list t) idx = Ok y.
Proof.
  intros H. rewrite size_list in H. unfold rnthN, rnth.
  destruct (nth_error (to_list t) (N.to_nat idx)) eqn:E; [eauto|].
  apply nth_error_None in E. unfold lenN in H. lia.
Qed.
Lemma equal_iter_ok xs : forall idx, idx + lenN xs <= size t ->
  equal_iter B BL eqT xs t idx = Ok (cmp xs idx).
Proof.
  induction xs as [|x xs IH]; intros idx H; cbn [equal_iter]; [now rewrite cmp_nil|].
  rewrite lenN_cons in H. rewrite read_ok by lia.
  destruct (read_some idx ltac:(lia)) as [y Ey]. rewrite Ey. cbn [rbind].
  unfold cmp. rewrite lenN_cons, (slice_cons _ _ y) by auto. cbn [list_eqb].
  destruct (eqT x y); [|reflexivity]. cbn [andb]. apply IH. lia.
Qed.

Lemma region_slice xs f idx k : region_of t (Leaf xs, f, f + lenN xs) -> idx = f -> k = lenN xs ->
  slice idx k = xs.
Proof.
  intros (A & xs' & Z & E & El) -> ->. injection E as <- E _. unfold slice.
  rewrite El, E, dropN_app, takeN_app. reflexivity.
Qed.

Lemma chunk_eq_ok v : forall p n idx, pos_ok v p n -> idx + nsize n <= size t ->
  exists j, chunk_eq B BL eqT peq v t p idx = Ok (j, cmp (elems n) idx) /\
    (cmp (elems n) idx = true -> j = idx + nsize n).
Proof.
  induction v as [|l IH]; intros p n idx Hp Hs; cbn [chunk_eq].
  - destruct (leaf_pos B BL p n Hp) as (xs & -> & -> & Hc). cbn [rbind leaf_of]. rewrite Hc. cbn [rbind].
    rewrite rtakeN_all by reflexivity. cbn [rbind elems]. rewrite nsize_leaf in *.
    assert (0 < lenN xs) as Hpos.
    { pose proof (wf_size _ _ _ _ (pos_ok_wf _ _ _ _ _ Hp)) as Hw. rewrite nsize_leaf in Hw. lia. }
    destruct (region_for_ok B BL HB1 t idx Ht ltac:(lia)) as (ys & f & -> & Hr & Hf). cbn [rbind].
    destruct (peq (Leaf xs) (Leaf ys) && (f =? idx)) eqn:Ep.
    + apply andb_true_iff in Ep as [Ep Ef]. apply N.eqb_eq in Ef. apply peq_eq in Ep. injection Ep as ->.
      exists (idx + lenN ys). rewrite cmp_refl; auto. eapply region_slice; eauto.
    + rewrite equal_iter_ok by auto. cbn [rbind]. eauto.
  - destruct (each_ok B BL l p n Hp) as (ps & -> & Hps). cbn [rbind].
    pose proof (pos_ok_wf _ _ _ _ _ Hp) as Hw. unfold nsize in *.
    rewrite (elems_kids B BL l n Hw) in *. clear Hp Hw. revert idx Hs.
    induction Hps as [|q c ps cs Hq Hps IHp]; intros idx Hs.
    + cbn [flat_map]. rewrite cmp_nil. eexists. split; [reflexivity|]. cbn. lia.
    + cbn [flat_map] in *. rewrite lenN_app in *.
      destruct (IH q c idx Hq) as (j & -> & Hj); [unfold nsize; lia|]. cbn [rbind].
      rewrite cmp_app by lia.
      destruct (cmp (elems c) idx); [|eexists; split; [reflexivity|easy]]. rewrite Hj by auto. cbn [andb].
      destruct (IHp (idx + lenN (elems c))) as (j' & -> & Hj'); [lia|]. exists j'. split; [reflexivity|].
      intros H. rewrite Hj' by auto. lia.
Qed.

(** ** Two positions at the same index *)

(** The node stands at [idx] in the tree. *)
Definition stands (n : node T) (idx : N) : Prop := slice idx (nsize n) = elems n.

Lemma stands_kids l n idx a c b : wf (S l) n -> stands n idx -> kids n = a ++ c :: b ->
  stands c (idx + csize a).
Proof.
  intros Hw H Ek. unfold stands, slice, nsize in *. rewrite (elems_kids B BL l n Hw) in H.
  rewrite Ek, flat_map_app in H. cbn [flat_map] in H. rewrite !lenN_app in H.
  rewrite <- dropN_dropN. generalize dependent (dropN idx (to_list t)). intros z H.
  assert (exists r, z = flat_map elems a ++ elems c ++ flat_map elems b ++ r) as [r ->].
  { exists (dropN (lenN (flat_map elems a) + (lenN (elems c) + lenN (flat_map elems b))) z).
    rewrite <- (takeN_dropN (lenN (flat_map elems a) + (lenN (elems c) + lenN (flat_map elems b))) z) at 1.
    rewrite H. now rewrite <- !app_assoc. }
  rewrite <- lenN_flat, dropN_app, takeN_app. reflexivity.
Qed.

Lemma equal_n_take n (xs ys : list T) : (n <= length xs)%nat -> (n <= length ys)%nat ->
  equal_n eqT n xs ys = Ok (list_eqb eqT (firstn n xs) (firstn n ys)).
Proof.
  revert xs ys. induction n as [|n IH]; intros [|x xs] [|y ys] H1 H2; cbn in *; try easy; try lia.
  destruct (eqT x y); [|reflexivity]. apply IH; lia.
Qed.

Lemma eq_leaf_ok pl pr nl nr idx : pos_ok O pl nl -> pos_ok O pr nr -> stands nr idx ->
  idx + nsize nl <= size t -> eq_leaf B BL eqT peq t pl pr idx = Ok (cmp (elems nl) idx).
Proof.
  intros Hl Hr Hst Hs. unfold eq_leaf.
  destruct (leaf_pos B BL pl nl Hl) as (xs & -> & -> & Hcl).
  destruct (leaf_pos B BL pr nr Hr) as (ys & -> & -> & Hcr). cbn [rbind].
  unfold stands in Hst. cbn [elems] in *. rewrite nsize_leaf in *.
  destruct (peq (Leaf xs) (Leaf ys)) eqn:Ep.
  { apply peq_eq in Ep. injection Ep as ->. now rewrite cmp_refl. }
  rewrite Hcl, Hcr. cbn [rbind leaf_of]. set (mp := N.min (lenN xs) (lenN ys)).
  rewrite equal_n_take by (unfold lenN in *; lia). cbn [rbind]. fold (takeN mp xs) (takeN mp ys).
  replace (cmp xs idx) with (cmp (takeN mp xs ++ dropN mp xs) idx) by (now rewrite takeN_dropN).
  assert (lenN (takeN mp xs) = mp) as Em by (rewrite lenN_takeN; lia).
  rewrite cmp_app by (rewrite Em; lia). rewrite Em.
  assert (cmp (takeN mp xs) idx = list_eqb eqT (takeN mp xs) (takeN mp ys)) as ->.
  { unfold cmp. rewrite Em. replace (takeN mp ys) with (slice idx mp); [reflexivity|].
    rewrite <- Hst. unfold slice. rewrite takeN_takeN. f_equal. lia. }
  destruct (list_eqb eqT (takeN mp xs) (takeN mp ys)); [|reflexivity]. cbn [andb].
  assert (rsliceN mp (lenN xs) xs = Ok (dropN mp xs)) as ->.
  { pose proof (rsliceN_app_r mp (lenN xs) (takeN mp xs) (dropN mp xs) Em) as H.
    rewrite takeN_dropN in H. apply H. rewrite lenN_dropN. lia. }
  cbn [rbind].
  apply equal_iter_ok. rewrite lenN_dropN. lia.
Qed.

(** A node standing at [idx] in a tree whose node part ends at [E]: complete where it has no
    size table, except at the end of the tree. *)
Definition edge (E : N) (v : nat) (n : node T) (idx : N) : Prop :=
  mid v n /\ idx + nsize n <= E \/ spn v n /\ idx + nsize n = E.

Lemma nsize_kids l n : wf (S l) n -> nsize n = csize (kids n).
Proof. intros H. unfold nsize. rewrite (elems_kids B BL l n H). apply lenN_flat. Qed.

Lemma edge_kids E l n idx a c b : wf (S l) n -> edge E (S l) n idx -> kids n = a ++ c :: b ->
  edge E l c (idx + csize a).
Proof.
  intros Hw He Ek. pose proof (nsize_kids l n Hw) as Hn. rewrite Ek, csize_app, csize_cons in Hn.
  destruct He as [[H1 H2]|[H1 H2]].
  - left. destruct (QQ_full B BL true l n a c b Hw H1 Ek) as (_ & _ & Hc & _). split; [exact Hc|lia].
  - destruct (QQ_full B BL false l n a c b Hw H1 Ek) as (_ & Hm & Hc & _). destruct b as [|d b].
    + right. split; [exact Hc|]. rewrite csize_nil in Hn. lia.
    + left. split; [now apply Hm|lia].
Qed.

Lemma mid_full l n : wf (S l) n -> is_rel n = false -> mid (S l) n -> full (S l) n.
Proof. destruct n as [|[] cs]; easy. Qed.

(** Two nodes without size tables at the same index have the same shape. *)
Lemma edge_same El Er l nl nr idx : El < Er + lwidth -> Er < El + lwidth ->
  wf (S l) nl -> wf (S l) nr -> is_rel nl = false -> is_rel nr = false ->
  edge El (S l) nl idx -> edge Er (S l) nr idx -> same B BL (S l) nl nr.
Proof.
  intros G1 G2 Wl Wr Rl Rr Hl Hr.
  assert (reg (S l) nl) as Ql by (now apply wf_nonrel_reg).
  assert (reg (S l) nr) as Qr by (now apply wf_nonrel_reg).
  split; [auto|]. split; [auto|].
  pose proof (reg_dvd B BL _ _ Ql) as Dl. pose proof (reg_dvd B BL _ _ Qr) as Dr.
  pose proof (lwidth_pos BL) as Hp.
  assert (forall x y, x mod lwidth = 0 -> y mod lwidth = 0 -> x < y + lwidth -> y < x + lwidth -> x = y) as Hmod.
  { intros x y Hx Hy H1 H2. apply N.mod_divide in Hx as [u ->]; [|lia].
    apply N.mod_divide in Hy as [w ->]; [|lia]. f_equal. nia. }
  apply Hmod; auto.
  - destruct Hl as [[Ml El']|[_ El']], Hr as [[Mr Er']|[_ Er']]; try lia.
    + apply mid_full in Ml, Mr; auto. rewrite (full_size _ _ _ _ Ml), (full_size _ _ _ _ Mr). lia.
    + apply mid_full in Mr; auto. rewrite (full_size _ _ _ _ Mr).
      pose proof (wf_size _ _ _ _ Wl). lia.
  - destruct Hl as [[Ml El']|[_ El']], Hr as [[Mr Er']|[_ Er']]; try lia.
    + apply mid_full in Ml, Mr; auto. rewrite (full_size _ _ _ _ Ml), (full_size _ _ _ _ Mr). lia.
    + apply mid_full in Ml; auto. rewrite (full_size _ _ _ _ Ml).
      pose proof (wf_size _ _ _ _ Wr). lia.
Qed.

Lemma nth_sub_ok l p n a c b : pos_ok (S l) p n -> is_sub p = true -> kids n = a ++ c :: b ->
  exists q, nth_sub B BL l p (lenN a) = Ok q /\ pos_ok l q c /\ is_sub q = true.
Proof.
  intros Hp Hs Ek. pose proof (pos_ok_wf _ _ _ _ _ Hp) as Hw.
  pose proof (size_at_ok B BL l p n a c b Hp Hs Ek) as Hsz. pose proof (count_ok _ _ _ _ _ Hp) as Hc.
  destruct n as [|r cs]; [easy|]. cbn [kids] in Ek. subst cs.
  assert (rnthN (a ++ c :: b) (lenN a) = Ok c) as Ec by (now apply rnthN_app).
  inversion Hp; subst; try easy; cbn [nth_sub inner_of rbind]; rewrite Ec; cbn [rbind].
  - destruct r; [easy|]. cbn in H. destruct H as [_ H]. apply Forall_elt in H.
    exists (PFull c). split; [reflexivity|]. split; [now constructor|reflexivity].
  - rewrite Hsz. cbn [rbind]. rewrite Hc. cbn [rbind ncount]. rewrite lenN_app, lenN_cons.
    destruct (nonrel_split B BL l (Inner r (a ++ c :: b)) a c b) as (_ & Hr & Hf & _); auto.
    destruct (N.ltb_spec (lenN a + 1) (lenN a + (lenN b + 1))) as [Hlt|Hge].
    + exists (PFull c). split; [reflexivity|]. split; [|reflexivity]. constructor. apply Hf.
      intros ->. cbn in Hlt. lia.
    + exists (PSub c (nsize c)). assert (is_rel c = false) by (eapply reg_not_rel; eauto).
      rewrite mk_sub_ok by (auto using reg_wf). split; [reflexivity|]. split; [|reflexivity].
      constructor; auto using reg_wf.
  - rewrite Hsz. cbn [rbind]. apply child_pos_ok; auto.
    cbn in Hw. destruct Hw as (_ & Hw & _). now apply Forall_elt in Hw.
Qed.

(** The scan of the children of the right position. *)
Lemma skip_ok l pr nr sbl : pos_ok (S l) pr nr -> is_sub pr = true ->
  let cr := lenN (kids nr) in
  let good j s := s = csize (takeN j (kids nr)) \/ s < sbl in
  forall fuel j sbr, j < cr -> cr <= j + 1 + N.of_nat fuel -> (j + 1 = cr -> good j sbr) ->
  exists j' s', skip_j B BL fuel (S l) pr cr sbl j sbr = Ok (j', s') /\ j' < cr /\ good j' s'.
Proof.
  intros Hp Hs cr good. induction fuel as [|fuel IH]; intros j sbr Hj Hf Hg; cbn [skip_j].
  - destruct (N.ltb_spec (j + 1) cr) as [H|H]; [lia|]. exists j, sbr. split; [reflexivity|].
    split; [auto|]. apply Hg. lia.
  - destruct (N.ltb_spec (j + 1) cr) as [H|H].
    + destruct (splitN j (kids nr) Hj) as (a & c & b & Ek & Ea).
      assert (size_before B BL (S l) pr j = Ok (csize a)) as Eb.
      { rewrite <- Ea. eapply size_before_ok; eauto. }
      assert (takeN j (kids nr) = a) as Et by (rewrite Ek, <- Ea; apply takeN_app).
      rewrite Eb. cbn [rbind]. destruct (N.ltb_spec (csize a) sbl) as [H1|H1].
      * apply IH; [lia|lia|]. intros _. now right.
      * exists j, (csize a). split; [reflexivity|]. split; [auto|]. left. now rewrite Et.
    + exists j, sbr. split; [reflexivity|]. split; [auto|]. apply Hg. lia.
Qed.

Lemma eq_pos_ok El Er : El < Er + lwidth -> Er < El + lwidth ->
  forall v pl pr nl nr idx, pos_ok v pl nl -> is_sub pl = true -> pos_ok v pr nr -> is_sub pr = true ->
  edge El v nl idx -> edge Er v nr idx -> stands nr idx -> idx + nsize nl <= size t ->
  eq_pos B BL eqT peq v t pl pr idx = Ok (cmp (elems nl) idx).
Proof.
  intros G1 G2. induction v as [|l IH]; intros pl pr nl nr idx Hl Sl Hr Sr Dl Dr Hst Hsz.
  { cbn [eq_pos]. eapply eq_leaf_ok; eauto. }
  cbn [eq_pos]. rewrite (pos_ok_node _ _ _ _ _ Hl), (pos_ok_node _ _ _ _ _ Hr). cbn [rbind].
  pose proof (pos_ok_wf _ _ _ _ _ Hl) as Wl. pose proof (pos_ok_wf _ _ _ _ _ Hr) as Wr.
  rewrite (count_ok _ _ _ _ _ Hl), (count_ok _ _ _ _ _ Hr). cbn [rbind].
  rewrite (kids_count B BL l nl Wl), (kids_count B BL l nr Wr).
  match goal with |- match pl with _ => _ end = _ =>
    match goal with |- context [if peq nl nr then ?x else ?y] => set (relaxed := if peq nl nr then x else y) end
  end.
  assert (relaxed = Ok (cmp (elems nl) idx)) as Hrel.
  { subst relaxed. destruct (peq nl nr) eqn:Ep.
    { apply peq_eq in Ep. subst nr. rewrite cmp_refl; auto. }
    destruct (kids_snoc B BL l nr Wr) as (ra & rx & Er').
    assert (0 < lenN (kids nr)) as Hcr by (rewrite Er', lenN_snoc; lia).
    destruct (N.eqb_spec (lenN (kids nr)) 0); [lia|].
    match goal with |- ?f _ _ _ _ = _ => set (go := f) end.
    rewrite (elems_kids B BL l nl Wl). pose proof (nsize_kids l nl Wl) as Hns.
    assert (forall b a j sbr, kids nl = a ++ b -> j < lenN (kids nr) ->
      (j + 1 = lenN (kids nr) -> sbr = csize (takeN j (kids nr)) \/ sbr < csize a) ->
      go (length b) (lenN a) j sbr = Ok (cmp (flat_map elems b) (idx + csize a))) as Hgo.
    { induction b as [|c b IHb]; intros a j sbr Ek Hj Hg; cbn [length]; unfold go at 1; fold go.
      { cbn [flat_map]. now rewrite cmp_nil. }
      rewrite (size_before_ok B BL l pl nl a c b Hl Sl Ek). cbn [rbind].
      destruct (skip_ok l pr nr (csize a) Hr Sr (N.to_nat (lenN (kids nr))) j sbr Hj ltac:(lia) Hg)
        as (j' & s' & -> & Hj' & Hg'). cbn [rbind].
      assert (lenN (elems c) = nsize c) as Hlc by reflexivity.
      assert (nsize nl = csize a + nsize c + csize b) as Hn.
      { rewrite Hns, Ek, csize_app, csize_cons. lia. }
      assert ((if csize a =? s' then
                 ' qr <- nth_sub B BL l pr j' ;; ' ql <- nth_sub B BL l pl (lenN a) ;;
                 eq_pos B BL eqT peq l t ql qr (idx + csize a)
               else
                 ' ql <- nth_sub B BL l pl (lenN a) ;;
                 ' (_, b0) <- chunk_eq B BL eqT peq l t ql (idx + csize a) ;; Ok b0)
              = Ok (cmp (elems c) (idx + csize a))) as ->.
      { destruct (nth_sub_ok l pl nl a c b Hl Sl Ek) as (ql & Eql & Hql & Sql).
        destruct (N.eqb_spec (csize a) s') as [<-|Hne].
        - destruct Hg' as [Hg'|Hg']; [|lia].
          destruct (splitN j' (kids nr) Hj') as (a' & c' & b' & Ek' & Ea').
          rewrite Ek', <- Ea', takeN_app in Hg'.
          destruct (nth_sub_ok l pr nr a' c' b' Hr Sr Ek') as (qr & Eqr & Hqr & Sqr).
          rewrite <- Ea', Eqr. cbn [rbind]. rewrite Eql. cbn [rbind].
          apply (IH ql qr c c'); auto.
          + exact (edge_kids El l nl idx a c b Wl Dl Ek).
          + rewrite Hg'. exact (edge_kids Er l nr idx a' c' b' Wr Dr Ek').
          + rewrite Hg'. exact (stands_kids l nr idx a' c' b' Wr Hst Ek').
          + lia.
        - rewrite Eql. cbn [rbind].
          destruct (chunk_eq_ok l ql c (idx + csize a) Hql ltac:(lia)) as (z & -> & _). reflexivity. }
      cbn [rbind flat_map]. rewrite cmp_app by (rewrite Hlc; lia).
      destruct (cmp (elems c) (idx + csize a)); [|reflexivity]. cbn [andb].
      replace (lenN a + 1) with (lenN (a ++ [c])) by (now rewrite lenN_snoc).
      rewrite IHb; [|now rewrite <- app_assoc|auto|].
      - rewrite csize_snoc, Hlc. do 2 f_equal. lia.
      - intros _. destruct Hg' as [Hg'|Hg']; [now left|right]. rewrite csize_snoc. lia. }
    specialize (Hgo (kids nl) [] 0 0 eq_refl Hcr (fun _ => or_introl eq_refl)).
    cbn [lenN length N.of_nat] in Hgo. unfold lenN at 1. rewrite Nnat.Nat2N.id. rewrite Hgo.
    now rewrite csize_nil, N.add_0_r. }
  assert (is_rel nl = false -> is_rel nr = false ->
    (if lenN (kids nr) <=? lenN (kids nl) then eq_node (S l) pl nr else eq_node (S l) pr nl)
    = Ok (cmp (elems nl) idx)) as Hreg.
  { intros Rl Rr. pose proof (edge_same El Er l nl nr idx G1 G2 Wl Wr Rl Rr Dl Dr) as Hsm.
    pose proof (same_kids B BL peq peq_eq l nl nr Hsm) as Hk. apply Forall2_len in Hk.
    destruct (N.leb_spec (lenN (kids nr)) (lenN (kids nl))) as [_|Hlt]; [|unfold lenN in Hlt; lia].
    rewrite (eq_node_ok B BL eqT peq) with (n := nl) by auto.
    unfold cmp. destruct Hsm as (_ & _ & Hsm). fold (nsize nl). rewrite Hsm. unfold stands in Hst.
    now rewrite Hst. }
  inversion Hl; subst; try easy; inversion Hr; subst; try easy; try exact Hrel; apply Hreg; auto;
    eapply full_not_rel; eauto.
Qed.

Lemma first_sub_ok l p n : pos_ok (S (S l)) p n -> is_sub p = true -> lead (S (S l)) n ->
  exists q c r, kids n = c :: r /\ first_sub_inner B BL (S l) p = Ok q /\
    pos_ok (S l) q c /\ is_sub q = true.
Proof.
  intros Hp Hs Hl. pose proof (pos_ok_wf _ _ _ _ _ Hp) as Hw.
  destruct n as [|rl cs]; [easy|]. cbn [kids].
  destruct cs as [|c r].
  { destruct (kids_snoc B BL _ _ Hw) as (a & x & E). cbn in E. now destruct a. }
  inversion Hp; subst; try easy; cbn [first_sub_inner inner_of rbind rnthN rnth].
  - destruct rl; [easy|]. destruct H as [_ H]. pose proof (Forall_inv H) as Hc.
    exists (PFull c), c, r. cbn. split; [reflexivity|]. split; [reflexivity|]. split; [now constructor|reflexivity].
  - destruct rl; [easy|]. cbn [RrbStrict.lead] in Hl. destruct Hl as [Hl|Hl]; [easy|].
    pose proof (Hl c r eq_refl) as Hc. exists (PFull c), c, r.
    pose proof (nsize_kids _ _ Hw) as Hn. cbn [kids] in Hn. rewrite csize_cons in Hn.
    pose proof (full_size _ _ _ _ Hc) as Hsz.
    pose proof (span_mono B BL HB1 O (S l) ltac:(lia)) as Hsp. rewrite span_0 in Hsp.
    cbn [rnthN rnth N.to_nat nth_error rbind]. rewrite Hn.
    destruct (N.leb_spec lwidth (nsize c + csize r)) as [_|Hlt]; [|lia].
    split; [reflexivity|]. split; [reflexivity|]. split; [now constructor|reflexivity].
  - pose proof Hw as (_ & Hk & _). pose proof (Forall_inv Hk) as Hc.
    destruct (maybe_relaxed_ok B BL l c Hc) as (q & Eq & Hq & Sq).
    exists q, c, r. split; [reflexivity|]. split; [|split; auto].
    pose proof (rel_at B BL (S l) sz [] c r Hw) as Es.
    change (rnthN sz 0 = Ok (0 + nsize c)) in Es. rewrite N.add_0_l in Es.
    change (rnthN (c :: r) 0) with (Ok c). cbn [rbind]. rewrite Es. cbn [rbind]. exact Eq.
Qed.

Lemma eq_rrb_ok El Er rootl ll : El < Er + lwidth -> Er < El + lwidth ->
  wf (S ll) rootl -> spn (S ll) rootl -> El = nsize rootl -> El <= size t ->
  forall v pr nr, (S ll <= v)%nat -> pos_ok v pr nr -> is_sub pr = true -> edge Er v nr 0 ->
  lead v nr -> stands nr 0 ->
  eq_rrb B BL eqT peq v t pr rootl ll El = Ok (cmp (elems rootl) 0).
Proof.
  intros G1 G2 Wl Sl HEl Hsz. induction v as [|l IH]; intros pr nr Hv Hp Hs He Hle Hst; [lia|].
  cbn [eq_rrb]. destruct (Nat.eqb_spec (S l) (S ll)) as [E|E].
  - injection E as ->. destruct (maybe_relaxed_ok B BL ll rootl Wl) as (q & Eq & Hq & Sq).
    rewrite HEl, Eq. cbn [rbind]. apply (eq_pos_ok El Er G1 G2) with (nr := nr); auto.
    + right. split; [auto|lia].
    + lia.
  - destruct l as [|l]; [lia|].
    destruct (first_sub_ok l pr nr Hp Hs Hle) as (q & c & r & Ek & -> & Hq & Sq). cbn [rbind].
    pose proof (pos_ok_wf _ _ _ _ _ Hp) as Hw.
    apply (IH q c); auto; [lia| | |].
    + exact (edge_kids Er _ nr 0 [] c r Hw He Ek).
    + exact (lead_kids B BL _ _ Hw Hle c r Ek).
    + exact (stands_kids _ nr 0 [] c r Hw Hst Ek).
Qed.

End Read.

(** ** The comparison of two trees *)

Hypothesis eqT_sym : forall x y, eqT x y = true -> eqT y x = true.

Lemma list_eqb_sym : forall xs ys, list_eqb eqT xs ys = list_eqb eqT ys xs.
Proof.
  induction xs as [|x xs IH]; intros [|y ys]; cbn [list_eqb]; try reflexivity. rewrite IH. f_equal.
  destruct (eqT x y) eqn:E1, (eqT y x) eqn:E2; auto; apply eqT_sym in E1 || apply eqT_sym in E2; congruence.
Qed.
Lemma list_eqb_split k xs ys : lenN xs = lenN ys ->
  list_eqb eqT xs ys = list_eqb eqT (takeN k xs) (takeN k ys) && list_eqb eqT (dropN k xs) (dropN k ys).
Proof.
  intros H. rewrite <- list_eqb_app; [now rewrite !takeN_dropN|].
  pose proof (lenN_takeN k xs) as H1. pose proof (lenN_takeN k ys) as H2. unfold lenN in *. lia.
Qed.

Lemma strict_edge t : inv t -> strict B BL t -> 0 < nsize (root t) ->
  edge (nsize (root t)) (S (lv t)) (root t) 0 /\ stands t (root t) 0.
Proof.
  intros Hi [H1 H2] Hp. split; [right; split; [auto|lia]|].
  unfold stands, slice, to_list. rewrite dropN_0. apply takeN_app.
Qed.

(** What the two cases leave out: the whole tree part of the left operand when the right
    operand is all tail, and the elements between the two tails when the left operand is
    taller. *)
Definition skips (a b : tree T) : Prop :=
  nsize (root b) < nsize (root a) /\ (nsize (root b) = 0 \/ (lv b < lv a)%nat).

Lemma equals_ok a b : inv a -> inv b -> strict B BL a -> strict B BL b ->
  exists r, equals B BL eqT peq a b = Ok r /\
    (list_eqb eqT (to_list a) (to_list b) = true -> r = true) /\
    (~ skips a b -> r = list_eqb eqT (to_list a) (to_list b)).
Proof.
  intros Ha Hb Sa Sb. unfold equals.
  pose proof (size_list a Ha) as La. pose proof (size_list b Hb) as Lb.
  destruct (N.eqb_spec (size a) (size b)) as [Es|Es]; cbn [negb].
  2:{ exists false. split; [reflexivity|].
      destruct (list_eqb eqT (to_list a) (to_list b)) eqn:El; [|auto]. exfalso. apply Es.
      apply list_eqb_length in El. unfold lenN in *. lia. }
  destruct (N.eqb_spec (size a) 0) as [Ez|Ez].
  { exists true. split; [reflexivity|]. split; [auto|]. intros _.
    assert (to_list a = []) as -> by (apply lenN_0; lia).
    assert (to_list b = []) as -> by (apply lenN_0; lia). reflexivity. }
  rewrite (tail_offset_ok B BL HB1 a Ha), (tail_offset_ok B BL HB1 b Hb). cbn [rbind].
  destruct (tail_pos B BL HB1 a Ha) as (xs & Ea & Za & Ma & Na).
  destruct (tail_pos B BL HB1 b Hb) as (ys & Eb & Zb & Mb & Nb).
  pose proof Ha as (xs' & Ea' & Ta & _ & Pa & _). rewrite Ea in Ea'. injection Ea' as <-.
  pose proof Hb as (ys' & Eb' & Tb & _ & Pb & _). rewrite Eb in Eb'. injection Eb' as <-.
  set (ta := nsize (root a)) in *. set (tb := nsize (root b)) in *.
  rewrite Za, Ea. cbn [leaf_of rbind]. rewrite rtakeN_all by reflexivity.
  set (X := to_list a) in *. set (Y := to_list b) in *.
  assert (X = elems (root a) ++ xs) as EX by (unfold X, to_list; now rewrite Ea).
  assert (Y = elems (root b) ++ ys) as EY by (unfold Y, to_list; now rewrite Eb).
  assert (takeN ta X = elems (root a)) as TX by (rewrite EX; apply takeN_app).
  assert (dropN ta X = xs) as DX by (rewrite EX; apply dropN_app).
  assert (takeN tb Y = elems (root b)) as TY by (rewrite EY; apply takeN_app).
  assert (dropN tb Y = ys) as DY by (rewrite EY; apply dropN_app).
  (* the tails *)
  match goal with |- context [rbind ?e (fun r : bool => if r then ?k else Ok false)] =>
    set (tree_part := e); set (tail_part := k) end.
  assert (tail_part = Ok (list_eqb eqT (dropN ta X) (dropN ta Y))) as Htail.
  { subst tail_part. cbn [rbind]. rewrite DX.
    destruct (N.eqb_spec ta tb) as [E|E]; [|destruct (N.ltb_spec tb ta) as [H|H]].
    - rewrite Ea in Ma. rewrite Ma. cbn [rbind RrbView.eq_node pnode]. rewrite Eb.
      rewrite E, DY. destruct (peq (Leaf xs) (Leaf ys)) eqn:Ep.
      { apply peq_eq in Ep. injection Ep as ->. now rewrite list_eqb_refl. }
      cbn [leaf_of rbind count]. replace (N.to_nat (lenN xs)) with (length xs) by (unfold lenN; lia).
      apply equal_n_ok. unfold lenN in *. lia.
    - rewrite Eb. cbn [leaf_of rbind]. rewrite <- DY, dropN_dropN.
      replace (tb + (ta - tb)) with ta by lia.
      apply equal_n_ok. pose proof (lenN_dropN ta Y) as Hd. unfold lenN in *. lia.
    - rewrite (equal_iter_ok b Hb) by lia. unfold cmp, slice. fold Y. rewrite takeN_all; [reflexivity|].
      rewrite lenN_dropN. lia. }
  (* the trees *)
  assert (exists r, tree_part = Ok r /\ ((0 < ta /\ 0 < tb /\ (lv a <= lv b)%nat /\
        r = list_eqb eqT (takeN ta X) (takeN ta Y)) \/
      (0 < ta /\ 0 < tb /\ (lv b < lv a)%nat /\ r = list_eqb eqT (takeN tb X) (takeN tb Y)) \/
      ((ta = 0 \/ tb = 0) /\ r = true))) as (r & Er & Hr).
  { subst tree_part. destruct (N.ltb_spec 0 ta) as [H1|H1], (N.ltb_spec 0 tb) as [H2|H2]; cbn [andb];
      [|exists true; split; [reflexivity|right; right; split; [lia|reflexivity]]..].
    pose proof (root_wf B BL HB1 a Ha H1) as Wa. pose proof (root_wf B BL HB1 b Hb H2) as Wb.
    destruct (strict_edge a Ha Sa H1) as [EDa STa]. destruct (strict_edge b Hb Sb H2) as [EDb STb].
    destruct Sa as [SPa LDa], Sb as [SPb LDb].
    destruct (Nat.leb_spec (lv a) (lv b)) as [H|H].
    - destruct (maybe_relaxed_ok B BL (lv b) (root b) Wb) as (q & Eq & Hq & Sq). fold tb in Eq. rewrite Eq.
      cbn [rbind]. rewrite (eq_rrb_ok b Hb ta tb (root a) (lv a)) with (nr := root b) by (auto; lia).
      eexists. split; [reflexivity|]. left. split; [auto|]. split; [auto|]. split; [auto|].
      unfold cmp, slice. rewrite dropN_0, TX. reflexivity.
    - destruct (maybe_relaxed_ok B BL (lv a) (root a) Wa) as (q & Eq & Hq & Sq). fold ta in Eq. rewrite Eq.
      cbn [rbind]. rewrite (eq_rrb_ok a Ha tb ta (root b) (lv b)) with (nr := root a) by (auto; lia).
      eexists. split; [reflexivity|]. right. left. split; [auto|]. split; [auto|]. split; [auto|].
      unfold cmp, slice. rewrite dropN_0, TY. apply list_eqb_sym. }
  rewrite Er. cbn [rbind]. rewrite Htail.
  assert ((if r then Ok (list_eqb eqT (dropN ta X) (dropN ta Y)) else Ok false) =
    Ok (r && list_eqb eqT (dropN ta X) (dropN ta Y))) as -> by (now destruct r).
  eexists. split; [reflexivity|].
  assert (lenN X = lenN Y) as HXY by lia.
  pose proof (list_eqb_split ta X Y HXY) as Wta. pose proof (list_eqb_split tb X Y HXY) as Wtb.
  split.
  - intros HE. rewrite HE in Wta, Wtb. symmetry in Wta, Wtb. apply andb_true_iff in Wta as [W1 W2].
    apply andb_true_iff in Wtb as [W3 W4]. rewrite W2, andb_true_r.
    destruct Hr as [(_ & _ & _ & ->)|[(_ & _ & _ & ->)|(_ & ->)]]; auto.
  - intros Hns. unfold skips in Hns. fold ta tb in Hns.
    destruct Hr as [(_ & _ & _ & ->)|[(_ & _ & Hlv & ->)|(Hz & ->)]]; [now rewrite <- Wta| |].
    + assert (ta <= tb) as Hle by lia. apply eq_true_iff_eq. rewrite andb_true_iff. split.
      * intros [W1 W2]. rewrite Wta, W2, andb_true_r.
        rewrite (list_eqb_split ta) in W1 by (rewrite !lenN_takeN; lia).
        apply andb_true_iff in W1 as [W1 _]. rewrite !takeN_takeN in W1.
        now replace (N.min ta tb) with ta in W1 by lia.
      * intros HE. rewrite HE in Wta, Wtb. symmetry in Wta, Wtb. apply andb_true_iff in Wta as [_ W2].
        apply andb_true_iff in Wtb as [W3 _]. auto.
    + assert (ta = 0) as Z by lia. rewrite Z, !dropN_0. reflexivity.
Qed.

(** ** Every flex_vector in reach *)

Lemma built_eq a xs b ys : built B BL a xs -> built B BL b ys ->
  exists r, equals B BL eqT peq a b = Ok r /\
    (Forall2 (fun x y => eqT x y = true) xs ys -> r = true) /\
    (~ skips a b -> (r = true <-> Forall2 (fun x y => eqT x y = true) xs ys)).
Proof.
  intros Ha Hb. destruct (built_inv B BL HB a xs Ha) as [Ia <-]. destruct (built_inv B BL HB b ys Hb) as [Ib <-].
  destruct (equals_ok a b Ia Ib (built_strict B BL HB a _ Ha) (built_strict B BL HB b _ Hb)) as (r & E & H1 & H2).
  exists r. split; [auto|]. rewrite <- list_eqb_Forall2. split; [auto|]. intros H. now rewrite (H2 H).
Qed.

End FlexEq.
