(** Which children the visitors of VecHeap visit, and with which positions. *)
From Coq Require Import List NArith Arith Bool Lia ZifyN ZifyNat ZifyBool.
From Verif Require Import Common NList Rrb RrbInv RrbPos RrbOps RrbSlice RrbViewOk RcHeap RcExn VecHeap.
Import ListNotations.
Local Open Scope N_scope.
Set Default Goal Selector "!".

Section Plan.
Context {T : Type}.
Variables B BL : N.
Notation sh := (sh B BL).
Notation width := (width B).
Notation lwidth := (lwidth BL).
Notation pos_ok := (@pos_ok T B BL).
Notation wf := (@wf T B BL).
Notation full := (@full T B BL).
Notation heach := (@heach B BL T).
Notation heach_left := (@heach_left B BL T).
Notation heach_right := (@heach_right B BL T).
Notation htowards := (@htowards B BL T).
Notation htowards_sub := (@htowards_sub B BL T).

(** What [view] returns. *)
Definition blank (p : pos T) : pos T :=
  match p with
  | PFull _ => PFull (Leaf [])
  | PReg _ s => PReg (Leaf []) s
  | PSub _ s => PSub (Leaf []) s
  | PRel _ sz => PRel (Leaf []) sz
  | PSingle _ c => PSingle (Leaf []) c
  | PNone => PNone
  end.
Lemma index_blank v p i : index B BL v (blank p) i = index B BL v p i.
Proof. destruct v, p; reflexivity. Qed.
Lemma subindex_blank v p i : subindex B BL v (blank p) i = subindex B BL v p i.
Proof. destruct v, p; reflexivity. Qed.
Lemma count_blank v p : count B BL v (blank p) = count B BL v p.
Proof. destruct v, p; reflexivity. Qed.
Lemma psize_blank v p : psize B BL v (blank p) = psize B BL v p.
Proof. destruct v, p; reflexivity. Qed.
Lemma size_before_blank v p o : size_before B BL v (blank p) o = size_before B BL v p o.
Proof. destruct v, p; reflexivity. Qed.
Lemma size_sbh_blank v p o s : size_sbh B BL v (blank p) o s = size_sbh B BL v p o s.
Proof. destruct v, p; reflexivity. Qed.
Lemma size_at_blank v p o : size_at B BL v (blank p) o = size_at B BL v p o.
Proof. destruct v, p; reflexivity. Qed.
Lemma copy_sizes_blank v p o n i : copy_sizes B BL v (blank p) o n i = copy_sizes B BL v p o n i.
Proof. destruct v, p; reflexivity. Qed.
Lemma this_size_blank l p : this_size B BL l (blank p) = this_size B BL l p.
Proof. destruct p; reflexivity. Qed.

(** The address of a child to be visited, the position made for it when its node is [n]. *)
Definition kaddr (k : hkid) : nat := match k with KFull c | KReg c _ | KSub c _ | KMaybe c _ => c end.
Definition kpos (l : nat) (k : hkid) (n : node T) : res (pos T) :=
  match k with
  | KFull _ => Ok (PFull n)
  | KReg _ s => mk_reg n s
  | KSub _ s => mk_sub B BL l n s
  | KMaybe _ s => child_pos B BL l n s
  end.
Definition ksim (l : nat) (k : hkid) (p : pos T) : Prop := exists n, kpos l k n = Ok p.
Definition kok (l : nat) (k : hkid) (n : node T) : Prop := exists p, kpos l k n = Ok p /\ pos_ok l p n.

Lemma kpos_node l k n p : kpos l k n = Ok p -> pnode p = Ok n.
Proof.
  destruct k; cbn.
  - now injection 1 as <-.
  - unfold mk_reg. destruct (s =? 0); [discriminate|]. now injection 1 as <-.
  - destruct l; cbn.
    + destruct (s <=? lwidth); [|discriminate]. now injection 1 as <-.
    + destruct (_ && _); [|discriminate]. now injection 1 as <-.
  - destruct l; cbn.
    + destruct (s <=? lwidth); [|discriminate]. now injection 1 as <-.
    + destruct n as [|[sz|] cs]; cbn; [discriminate| |].
      * destruct (last_of sz); cbn; [|discriminate]. destruct (a =? s); [|discriminate]. now injection 1 as <-.
      * destruct (_ && _); [|discriminate]. now injection 1 as <-.
Qed.
Lemma sim_ok l ks ps ns : Forall2 (ksim l) ks ps -> Forall2 (pos_ok l) ps ns -> Forall2 (kok l) ks ns.
Proof.
  intros H. revert ns. induction H as [|k p ks ps [n Hk] _ IH]; intros ns Hn; inversion Hn; subst; constructor.
  - exists p. split; [|assumption]. pose proof (kpos_node _ _ _ _ Hk) as E.
    match goal with H : pos_ok _ _ _ |- _ => apply pos_ok_node in H; rewrite H in E; congruence end.
  - now apply IH.
Qed.

Lemma F2_map_full l (cs : list nat) (ns : list (node T)) : length cs = length ns -> Forall2 (ksim l) (map KFull cs) (map PFull ns).
Proof.
  revert ns. induction cs as [|c cs IH]; intros [|n ns] E; cbn in *; try discriminate; constructor.
  - now exists n.
  - apply IH. congruence.
Qed.
Lemma lenN_eq {A C} (a : list A) (c : list C) : lenN a = lenN c <-> length a = length c.
Proof. unfold lenN. lia. Qed.
Lemma rtakeN_inv {A} n (l l' : list A) : rtakeN n l = Ok l' -> n <= lenN l /\ l' = takeN n l.
Proof. unfold rtakeN. destruct (N.leb_spec n (lenN l)); [|discriminate]. injection 1 as <-. auto. Qed.
Lemma rtakeN_len {A} n (l : list A) : n <= lenN l -> rtakeN n l = Ok (takeN n l).
Proof. unfold rtakeN. destruct (N.leb_spec n (lenN l)); [auto|lia]. Qed.
Lemma rsliceN_inv {A} i j (l l' : list A) : rsliceN i j l = Ok l' ->
  i <= j <= lenN l /\ l' = takeN (j - i) (dropN i l).
Proof.
  unfold rsliceN. destruct (N.leb_spec i j); [|discriminate]. destruct (N.leb_spec j (lenN l)); [|discriminate].
  cbn. injection 1 as <-. auto.
Qed.
Lemma rsliceN_len {A} i j (l : list A) : i <= j <= lenN l -> rsliceN i j l = Ok (takeN (j - i) (dropN i l)).
Proof.
  intros H. unfold rsliceN. destruct (N.leb_spec i j); [|lia]. destruct (N.leb_spec j (lenN l)); [|lia]. reflexivity.
Qed.
Lemma rnthN_len {A} (l : list A) i : i < lenN l -> exists x, rnthN l i = Ok x.
Proof.
  intros H. destruct (splitN i l H) as (a & x & b & -> & E). exists x. now apply rnthN_app.
Qed.

Lemma rel_go_sim l : forall (cs : list nat) ns sz s ps, lenN cs = lenN ns -> rel_go B BL l ns sz s = Ok ps ->
  Forall2 (ksim l) (hrel_go cs sz s) ps.
Proof.
  intros cs ns sz s ps E. apply lenN_eq in E. revert ns sz s ps E.
  induction cs as [|c cs IH]; intros [|n ns] sz s ps E H; cbn in E; try discriminate; cbn in *.
  - injection H as <-. constructor.
  - destruct sz as [|t sz]; [injection H as <-; constructor|].
    apply rbind_ok in H. destruct H as (p & Hp & H). apply rbind_ok in H. destruct H as (ps' & Hps & H).
    injection H as <-. constructor; [now exists n|]. eapply IH; eauto.
Qed.
Lemma rel_range_sim l (cs : list nat) ns o sz i j ps : lenN cs = lenN ns ->
  rel_range B BL l (Inner o ns) sz i j = Ok ps ->
  exists ks, hrel_range cs sz i j = Ok ks /\ Forall2 (ksim l) ks ps.
Proof.
  intros E. unfold rel_range, hrel_range. cbn [inner_of rbind].
  destruct (j <=? i); [injection 1 as <-; exists []; split; [reflexivity|constructor]|].
  intros H. apply rbind_ok in H. destruct H as (s & -> & H). apply rbind_ok in H. destruct H as (ns' & Hn & H).
  apply rbind_ok in H. destruct H as (sz' & -> & H). apply rsliceN_inv in Hn. destruct Hn as [Hb ->].
  cbn [rbind]. rewrite rsliceN_len by lia. cbn [rbind]. eexists. split; [reflexivity|].
  eapply rel_go_sim; [|exact H]. rewrite !lenN_takeN, !lenN_dropN. lia.
Qed.
Lemma regular_right_sim l p (cs : list nat) ns s i j ps : lenN cs = lenN ns ->
  regular_right p ns s i j = Ok ps ->
  exists ks, hregular_right cs s i j = Ok ks /\ Forall2 (ksim l) ks ps.
Proof.
  intros E. unfold regular_right, hregular_right. intros H.
  apply rbind_ok in H. destruct H as (hd & Hh & H). apply rbind_ok in H. destruct H as (c & Hc & H).
  apply rbind_ok in H. destruct H as (q & Hq & H). injection H as <-.
  apply rsliceN_inv in Hh. destruct Hh as [Hb ->]. apply rnthN_lt in Hc as Hl.
  rewrite rsliceN_len by lia. cbn [rbind]. destruct (rnthN_len cs j) as [x Hx]; [lia|]. rewrite Hx. cbn [rbind].
  eexists. split; [reflexivity|]. apply Forall2_app.
  - apply F2_map_full. apply lenN_eq. rewrite !lenN_takeN, !lenN_dropN. lia.
  - constructor; [|constructor]. exists c. exact Hq.
Qed.
Lemma each_sim l p (cs : list nat) o ns ps : lenN cs = lenN ns -> pnode p = Ok (Inner o ns) ->
  each B BL l p = Ok ps -> exists ks, heach l (blank p) cs = Ok ks /\ Forall2 (ksim l) ks ps.
Proof.
  intros E Hn H. destruct p; cbn [each pnode blank VecHeap.heach] in *; try discriminate; injection Hn as ->; cbn [inner_of rbind] in H.
  - apply rbind_ok in H. destruct H as (hd & Hh & H). injection H as <-. apply rtakeN_inv in Hh. destruct Hh as [Hb ->].
    rewrite rtakeN_len by lia. eexists. split; [reflexivity|]. apply F2_map_full. apply lenN_eq. rewrite !lenN_takeN. lia.
  - apply rbind_ok in H. destruct H as (c & Hc & H). change (PReg (Leaf []) s) with (blank (PReg (Inner o ns) s)).
    rewrite count_blank, Hc. cbn [rbind]. eapply regular_right_sim; eauto.
  - apply rbind_ok in H. destruct H as (c & Hc & H). change (PSub (Leaf []) s) with (blank (PSub (Inner o ns) s)).
    rewrite count_blank, Hc. cbn [rbind]. eapply regular_right_sim; eauto.
  - eapply rel_range_sim; eauto.
Qed.
Lemma each_left_sim l p (cs : list nat) o ns i ps : lenN cs = lenN ns -> pnode p = Ok (Inner o ns) ->
  each_left B BL l p i = Ok ps -> exists ks, heach_left l (blank p) cs i = Ok ks /\ Forall2 (ksim l) ks ps.
Proof.
  intros E Hn H. destruct p; cbn [each_left pnode blank VecHeap.heach_left] in *; try discriminate; injection Hn as ->; cbn [inner_of rbind] in H.
  - apply rbind_ok in H. destruct H as (hd & Hh & H). injection H as <-. apply rtakeN_inv in Hh. destruct Hh as [Hb ->].
    rewrite rtakeN_len by lia. eexists. split; [reflexivity|]. apply F2_map_full. apply lenN_eq. rewrite !lenN_takeN. lia.
  - apply rbind_ok in H. destruct H as (c & Hc & H). change (PReg (Leaf []) s) with (blank (PReg (Inner o ns) s)).
    rewrite count_blank, Hc. cbn [rbind]. destruct (i <? c); [|discriminate].
    apply rbind_ok in H. destruct H as (hd & Hh & H). injection H as <-. apply rtakeN_inv in Hh. destruct Hh as [Hb ->].
    rewrite rtakeN_len by lia. eexists. split; [reflexivity|]. apply F2_map_full. apply lenN_eq. rewrite !lenN_takeN. lia.
  - apply rbind_ok in H. destruct H as (c & Hc & H). change (PSub (Leaf []) s) with (blank (PSub (Inner o ns) s)).
    rewrite count_blank, Hc. cbn [rbind]. destruct (i <? c); [|discriminate].
    apply rbind_ok in H. destruct H as (hd & Hh & H). injection H as <-. apply rtakeN_inv in Hh. destruct Hh as [Hb ->].
    rewrite rtakeN_len by lia. eexists. split; [reflexivity|]. apply F2_map_full. apply lenN_eq. rewrite !lenN_takeN. lia.
  - eapply rel_range_sim; eauto.
Qed.
Lemma each_right_sim l p (cs : list nat) o ns i ps : lenN cs = lenN ns -> pnode p = Ok (Inner o ns) ->
  each_right B BL l p i = Ok ps -> exists ks, heach_right l (blank p) cs i = Ok ks /\ Forall2 (ksim l) ks ps.
Proof.
  intros E Hn H. destruct p; cbn [each_right pnode blank VecHeap.heach_right] in *; try discriminate; injection Hn as ->; cbn [inner_of rbind] in H.
  - apply rbind_ok in H. destruct H as (hd & Hh & H). injection H as <-. apply rsliceN_inv in Hh. destruct Hh as [Hb ->].
    rewrite rsliceN_len by lia. eexists. split; [reflexivity|]. apply F2_map_full. apply lenN_eq.
    rewrite !lenN_takeN, !lenN_dropN. lia.
  - apply rbind_ok in H. destruct H as (c & Hc & H). change (PReg (Leaf []) s) with (blank (PReg (Inner o ns) s)).
    rewrite count_blank, Hc. cbn [rbind]. destruct (i <=? c - 1).
    + eapply regular_right_sim; eauto.
    + injection H as <-. exists []. split; [reflexivity|constructor].
  - apply rbind_ok in H. destruct H as (c & Hc & H). change (PSub (Leaf []) s) with (blank (PSub (Inner o ns) s)).
    rewrite count_blank, Hc. cbn [rbind]. destruct (i <=? c - 1).
    + eapply regular_right_sim; eauto.
    + injection H as <-. exists []. split; [reflexivity|constructor].
  - destruct (_ && _); [|discriminate]. eapply rel_range_sim; eauto.
Qed.

(** The addresses visited. *)
Lemma hrel_go_addr : forall cs sz s, lenN cs = lenN sz -> map kaddr (hrel_go cs sz s) = cs.
Proof.
  intros cs sz s E. apply lenN_eq in E. revert sz s E.
  induction cs as [|c cs IH]; intros [|t sz] s E; cbn in *; try discriminate; [reflexivity|].
  f_equal. apply IH. congruence.
Qed.
Lemma map_kfull (cs : list nat) : map kaddr (map KFull cs) = cs.
Proof. rewrite map_map. cbn. apply map_id. Qed.
Lemma hrel_range_addr cs sz i j ks : i <= j -> hrel_range cs sz i j = Ok ks ->
  map kaddr ks = takeN (j - i) (dropN i cs).
Proof.
  unfold hrel_range. intros Hle. destruct (N.leb_spec j i).
  - injection 1 as <-. replace (j - i) with 0 by lia. reflexivity.
  - intros H'. apply rbind_ok in H'. destruct H' as (s & _ & H'). apply rbind_ok in H'. destruct H' as (cs' & Hc & H').
    apply rbind_ok in H'. destruct H' as (sz' & Hs & H'). injection H' as <-.
    apply rsliceN_inv in Hc. destruct Hc as [Hc ->]. apply rsliceN_inv in Hs. destruct Hs as [Hs ->].
    apply hrel_go_addr. rewrite !lenN_takeN, !lenN_dropN. lia.
Qed.
Lemma slice_last {A} (cs : list A) i j x : i <= j -> rnthN cs j = Ok x ->
  takeN (j - i) (dropN i cs) ++ [x] = takeN (j + 1 - i) (dropN i cs).
Proof.
  intros Hle H. destruct (splitN j cs) as (a & y & b & -> & <-); [eapply rnthN_lt; eauto|].
  rewrite rnthN_app in H by reflexivity. injection H as ->.
  rewrite dropN_app_le by lia. rewrite takeN_app_le by (rewrite lenN_dropN; lia).
  rewrite takeN_app_ge by (rewrite lenN_dropN; lia).
  rewrite takeN_all by (rewrite lenN_dropN; lia). f_equal. rewrite lenN_dropN.
  replace (lenN a + 1 - i - (lenN a - i)) with 1 by lia. reflexivity.
Qed.
Lemma hregular_right_addr cs s i j ks : hregular_right cs s i j = Ok ks ->
  map kaddr ks = takeN (j + 1 - i) (dropN i cs).
Proof.
  unfold hregular_right. intros H. apply rbind_ok in H. destruct H as (hd & Hh & H).
  apply rbind_ok in H. destruct H as (c & Hc & H). injection H as <-.
  apply rsliceN_inv in Hh. destruct Hh as [Hb ->]. rewrite map_app, map_kfull. cbn.
  apply slice_last; [lia|exact Hc].
Qed.
Lemma heach_addr l p n cs ks : pos_ok (S l) p n -> lenN cs = lenN (kids n) ->
  heach l (blank p) cs = Ok ks -> map kaddr ks = cs.
Proof.
  intros Hok E H. pose proof (count_ok _ _ _ _ _ Hok) as Hc. pose proof (pos_ok_wf _ _ _ _ _ Hok) as Hw.
  pose proof (wf_count_pos _ _ _ _ Hw) as Hp. rewrite (kids_count _ _ _ _ Hw) in Hc, Hp.
  rewrite <- count_blank in Hc.
  inversion Hok; subst; cbn [VecHeap.heach blank] in *.
  - cbn in Hc. injection Hc as Hc. apply rbind_ok in H. destruct H as (hd & Hh & H). injection H as <-.
    apply rtakeN_inv in Hh. destruct Hh as [_ ->]. rewrite map_kfull. apply takeN_all. lia.
  - rewrite Hc in H. cbn [rbind] in H. apply hregular_right_addr in H. rewrite H, dropN_0. apply takeN_all. lia.
  - rewrite Hc in H. cbn [rbind] in H. apply hregular_right_addr in H. rewrite H, dropN_0. apply takeN_all. lia.
  - cbn [count] in Hc. injection Hc as Hc. apply hrel_range_addr in H; [|lia]. rewrite H, dropN_0. apply takeN_all.
    cbn [kids] in *. lia.
Qed.
Lemma heach_left_addr l p cs i ks : heach_left l p cs i = Ok ks -> map kaddr ks = takeN i cs.
Proof.
  destruct p; cbn [VecHeap.heach_left]; try discriminate; intros H.
  - apply rbind_ok in H. destruct H as (hd & Hh & H). injection H as <-. apply rtakeN_inv in Hh.
    destruct Hh as [_ ->]. apply map_kfull.
  - apply rbind_ok in H. destruct H as (c & _ & H). destruct (i <? c); [|discriminate].
    apply rbind_ok in H. destruct H as (hd & Hh & H). injection H as <-. apply rtakeN_inv in Hh.
    destruct Hh as [_ ->]. apply map_kfull.
  - apply rbind_ok in H. destruct H as (c & _ & H). destruct (i <? c); [|discriminate].
    apply rbind_ok in H. destruct H as (hd & Hh & H). injection H as <-. apply rtakeN_inv in Hh.
    destruct Hh as [_ ->]. apply map_kfull.
  - apply hrel_range_addr in H; [|lia]. now rewrite H, dropN_0, N.sub_0_r.
Qed.
Lemma heach_right_addr l p n cs i ks : pos_ok (S l) p n -> lenN cs = lenN (kids n) -> i <= lenN cs ->
  heach_right l (blank p) cs i = Ok ks -> map kaddr ks = dropN i cs.
Proof.
  intros Hok E Hi H. pose proof (count_ok _ _ _ _ _ Hok) as Hc. pose proof (pos_ok_wf _ _ _ _ _ Hok) as Hw.
  pose proof (wf_count_pos _ _ _ _ Hw) as Hp. rewrite (kids_count _ _ _ _ Hw) in Hc, Hp.
  rewrite <- count_blank in Hc.
  inversion Hok; subst; cbn [VecHeap.heach_right blank] in *.
  - cbn in Hc. injection Hc as Hc. apply rbind_ok in H. destruct H as (hd & Hh & H). injection H as <-.
    apply rsliceN_inv in Hh. destruct Hh as [_ ->]. rewrite map_kfull. apply takeN_all. rewrite lenN_dropN. lia.
  - rewrite Hc in H. cbn [rbind] in H. destruct (N.leb_spec i (lenN (kids n) - 1)).
    + apply hregular_right_addr in H. rewrite H. apply takeN_all. rewrite lenN_dropN. lia.
    + injection H as <-. symmetry. apply dropN_all. lia.
  - rewrite Hc in H. cbn [rbind] in H. destruct (N.leb_spec i (lenN (kids n) - 1)).
    + apply hregular_right_addr in H. rewrite H. apply takeN_all. rewrite lenN_dropN. lia.
    + injection H as <-. symmetry. apply dropN_all. lia.
  - cbn [count] in Hc. injection Hc as Hc. cbn [kids] in *. destruct (N.ltb_spec 0 i); [|discriminate].
    destruct (N.leb_spec i (lenN sz)); [|discriminate]. cbn [andb] in H.
    apply hrel_range_addr in H; [|lia]. rewrite H. apply takeN_all. rewrite lenN_dropN. lia.
Qed.

(** ** Summaries *)
Lemma heach_ok l p n cs : pos_ok (S l) p n -> lenN cs = lenN (kids n) ->
  exists ks, heach l (blank p) cs = Ok ks /\ map kaddr ks = cs /\ Forall2 (kok l) ks (kids n).
Proof.
  intros Hok E. destruct (each_ok _ _ _ _ _ Hok) as (ps & Hps & Hw).
  destruct (wf_inner _ _ _ _ (pos_ok_wf _ _ _ _ _ Hok)) as (o & ns & ->).
  destruct (each_sim l p cs o ns ps E (pos_ok_node _ _ _ _ _ Hok) Hps) as (ks & Hk & Hs).
  exists ks. split; [exact Hk|]. split; [eapply heach_addr; eauto|]. eapply sim_ok; eauto.
Qed.
Lemma heach_left_ok l p n cs a x b : pos_ok (S l) p n -> lenN cs = lenN (kids n) -> kids n = a ++ x :: b ->
  exists ks, heach_left l (blank p) cs (lenN a) = Ok ks /\ map kaddr ks = takeN (lenN a) cs /\
             Forall2 (kok l) ks a.
Proof.
  intros Hok E Ek. destruct (each_left_ok _ _ _ _ _ _ _ _ Hok Ek) as (ps & Hps & Hw).
  destruct (wf_inner _ _ _ _ (pos_ok_wf _ _ _ _ _ Hok)) as (o & ns & ->).
  destruct (each_left_sim l p cs o ns _ ps E (pos_ok_node _ _ _ _ _ Hok) Hps) as (ks & Hk & Hs).
  exists ks. split; [exact Hk|]. split; [eapply heach_left_addr; eauto|]. eapply sim_ok; eauto.
Qed.
Lemma heach_right_ok l p n cs a x b : pos_ok (S l) p n -> lenN cs = lenN (kids n) -> kids n = a ++ x :: b ->
  exists ks, heach_right l (blank p) cs (lenN a + 1) = Ok ks /\ map kaddr ks = dropN (lenN a + 1) cs /\
             Forall2 (kok l) ks b.
Proof.
  intros Hok E Ek. destruct (each_right_ok _ _ _ _ _ _ _ _ Hok Ek) as (ps & Hps & Hw).
  destruct (wf_inner _ _ _ _ (pos_ok_wf _ _ _ _ _ Hok)) as (o & ns & ->).
  destruct (each_right_sim l p cs o ns _ ps E (pos_ok_node _ _ _ _ _ Hok) Hps) as (ks & Hk & Hs).
  exists ks. split; [exact Hk|]. split; [|eapply sim_ok; eauto].
  eapply heach_right_addr; eauto. rewrite E, Ek, lenN_app, lenN_cons. lia.
Qed.

(** The child the visitor goes to. *)
Definition picks (l : nat) (cs : list nat) (ns : list (node T)) (off : N) (k : hkid) (q : pos T) : Prop :=
  exists ca c cb na x nb, cs = ca ++ c :: cb /\ ns = na ++ x :: nb /\ lenN ca = off /\ lenN na = off /\
    kaddr k = c /\ kpos l k x = Ok q /\ pos_ok l q x.
Lemma pick l (cs : list nat) ns off c x k q : lenN cs = lenN ns -> rnthN cs off = Ok c -> rnthN ns off = Ok x ->
  kaddr k = c -> kpos l k x = Ok q -> pos_ok l q x -> picks l cs ns off k q.
Proof.
  intros E Hc Hx Hk Hq Ho. destruct (splitN off cs) as (ca & c' & cb & -> & Ea); [eapply rnthN_lt; eauto|].
  destruct (splitN off ns) as (na & x' & nb & -> & En); [eapply rnthN_lt; eauto|].
  rewrite rnthN_app in Hc by exact Ea. rewrite rnthN_app in Hx by exact En.
  injection Hc as <-. injection Hx as <-. exists ca, c', cb, na, x', nb. auto 10.
Qed.
Lemma nonlast_full l n s p a x b : p = PReg n s \/ p = PSub n s -> pos_ok (S l) p n ->
  kids n = a ++ x :: b -> b <> [] -> full l x.
Proof.
  intros Hp Hok Ek Hb. pose proof (pos_ok_wf _ _ _ _ _ Hok) as Hw.
  assert (is_rel n = false) as Hr by (destruct Hp as [-> | ->]; inversion Hok; auto).
  destruct (nonrel_inv _ _ _ _ Hw Hr) as (init & last & -> & Hf & _). cbn [kids] in Ek.
  destruct (exists_last Hb) as (b' & y & ->).
  rewrite app_comm_cons, app_assoc in Ek. apply app_inj_tail in Ek. destruct Ek as [-> _].
  apply Forall_app in Hf. destruct Hf as [_ Hf]. now inversion Hf.
Qed.
Lemma htowards_ok l p n cs idx off q idx' : pos_ok (S l) p n -> lenN cs = lenN (kids n) ->
  towards B BL l p idx off = Ok (q, idx') ->
  exists k, htowards l (blank p) cs idx off = Ok (k, idx') /\ picks l cs (kids n) off k q.
Proof.
  intros Hok E H. pose proof (pos_ok_wf _ _ _ _ _ Hok) as Hw. pose proof (count_ok _ _ _ _ _ Hok) as Hc.
  rewrite (kids_count _ _ _ _ Hw) in Hc.
  assert (G : forall n0 s, p = PReg n0 s \/ p = PSub n0 s -> n0 = n ->
    (cs <- inner_of n0 ;; c <- rnthN cs off ;; k <- count B BL (S l) p ;;
     if off + 1 =? k then q <- mk_reg c s ;; Ok (q, idx) else Ok (PFull c, idx)) = Ok (q, idx') ->
    exists k, (c <- rnthN cs off ;; k <- count B BL (S l) (blank p) ;;
        Ok (if off + 1 =? k then KReg c s else KFull c, idx)) = Ok (k, idx') /\ picks l cs (kids n) off k q).
  { intros n0 s Hp -> H0. destruct (wf_inner _ _ _ _ Hw) as (o & ns & ->). cbn [inner_of rbind kids] in *.
    apply rbind_ok in H0. destruct H0 as (x & Hx & H0). rewrite Hc in H0. cbn [rbind] in H0.
    pose proof (rnthN_lt _ _ _ Hx) as Hlt. destruct (rnthN_len cs off) as [c Hcc]; [lia|].
    rewrite Hcc, count_blank, Hc. cbn [rbind].
    destruct (splitN off ns Hlt) as (a & x' & b & -> & Ea).
    rewrite rnthN_app in Hx by exact Ea. injection Hx as ->.
    rewrite lenN_app, lenN_cons in *. destruct (N.eqb_spec (off + 1) (lenN a + (lenN b + 1))) as [E1|E1].
    - assert (b = []) as -> by (apply lenN_0; lia).
      destruct (reg_last _ _ _ _ _ _ _ _ Hp Hok eq_refl) as [Hm Hq]. rewrite Hm in H0.
      cbn [rbind] in H0. injection H0 as <- <-. eexists. split; [reflexivity|].
      eapply pick; [rewrite lenN_app, lenN_cons; exact E|exact Hcc|apply rnthN_app; exact Ea|reflexivity|exact Hm|exact Hq].
    - injection H0 as <- <-. eexists. split; [reflexivity|].
      eapply pick; [rewrite lenN_app, lenN_cons; exact E|exact Hcc|apply rnthN_app; exact Ea|reflexivity|reflexivity|].
      constructor. eapply nonlast_full; [exact Hp|exact Hok|reflexivity|]. intros ->. rewrite lenN_nil in *. lia. }
  inversion Hok; subst; cbn [towards VecHeap.htowards blank] in *.
  - clear G. destruct n as [|[] ns]; cbn in H0; try easy. cbn [inner_of rbind kids] in *.
    apply rbind_ok in H. destruct H as (x & Hx & H). injection H as <- <-.
    pose proof (rnthN_lt _ _ _ Hx) as Hlt. destruct (rnthN_len cs off) as [c Hcc]; [lia|]. rewrite Hcc. cbn [rbind].
    eexists. split; [reflexivity|].
    eapply pick; [exact E|exact Hcc|exact Hx|reflexivity|reflexivity|]. constructor.
    destruct H0 as [_ Hf]. rewrite Forall_forall in Hf. apply Hf.
    unfold rnthN, rnth in Hx. destruct (nth_error ns _) eqn:En; [|discriminate]. injection Hx as <-.
    eapply nth_error_In; eauto.
  - apply (G n s); auto.
  - apply (G n (nsize n)); auto.
  - clear G. cbn [inner_of rbind kids] in *.
    apply rbind_ok in H. destruct H as (lf & Hlf & H). apply rbind_ok in H. destruct H as (x & Hx & H).
    apply rbind_ok in H. destruct H as (t & Ht & H). apply rbind_ok in H. destruct H as (q' & Hq & H).
    injection H as <- <-. rewrite Hlf. cbn [rbind].
    pose proof (rnthN_lt _ _ _ Hx) as Hlt. destruct (rnthN_len cs off) as [c Hcc]; [lia|].
    rewrite Hcc, Ht. cbn [rbind]. eexists. split; [reflexivity|].
    eapply pick; [exact E|exact Hcc|exact Hx|reflexivity|exact Hq|].
    destruct (splitN off cs0 Hlt) as (a & x' & b & -> & Ea).
    rewrite rnthN_app in Hx by exact Ea. injection Hx as ->.
    destruct H0 as (_ & Hf & Es). apply Forall_app in Hf. destruct Hf as [_ Hf]. inversion Hf as [|? ? Hwx _]; subst.
    rewrite map_app in Ht, Hlf. cbn [map] in Ht, Hlf.
    rewrite rnth_sums in Ht by (now rewrite lenN_map). injection Ht as Ht.
    assert (Hleft : lf = sumN (map (@nsize T) a)).
    { destruct (N.eqb_spec (lenN a) 0) as [E0|E0].
      - apply lenN_0 in E0. subst. cbn in Hlf. injection Hlf as <-. reflexivity.
      - destruct a as [|y a _] using rev_ind; [easy|]. rewrite map_app, <- app_assoc in Hlf. cbn [map app] in Hlf.
        rewrite rnth_sums in Hlf by (rewrite lenN_map, lenN_app, lenN_cons, lenN_nil; lia).
        injection Hlf as <-. rewrite map_app, sumN_app. cbn [map]. rewrite sumN_cons, sumN_nil. lia. }
    replace (t - lf) with (nsize x) in Hq by lia.
    destruct (child_pos_ok _ _ _ _ Hwx) as (q & Hq' & Hqok & _). rewrite Hq in Hq'. injection Hq' as ->. exact Hqok.
Qed.
End Plan.
