(** A property of the trees the operations build which is stronger than well-formedness:
    a node without size table is complete unless it lies at the right edge of the tree, and
    the first child of such a node is complete.  Comparison of two flex_vectors relies on
    it. *)
From Coq Require Import List NArith Arith Bool Lia ZifyN ZifyNat ZifyBool.
From Verif Require Import Common NList Rrb RrbInv RrbPos RrbOps RrbSlice RrbTree RrbShuffle RrbMerge
  RrbConcat RrbView RrbSpec RrbViewOk RrbReach.
Import ListNotations.
Local Open Scope N_scope.

Set Default Goal Selector "!".

(** All members but the last satisfy [P], the last one [Q]. *)
Definition ends {A} (P Q : A -> Prop) (l : list A) : Prop :=
  forall i z, l = i ++ [z] -> Forall P i /\ Q z.
Definition hdP {A} (P : A -> Prop) (l : list A) : Prop := forall x r, l = x :: r -> P x.

Section Ends.
Context {A : Type}.
Variables P Q : A -> Prop.

Lemma ends_nil : ends P Q [].
Proof. intros i z H. now destruct i. Qed.
Lemma ends_snoc i z : Forall P i -> Q z -> ends P Q (i ++ [z]).
Proof. intros H1 H2 j y E. apply app_inj_tail in E as [<- <-]. auto. Qed.
Lemma ends_all l : (forall x, P x -> Q x) -> Forall P l -> ends P Q l.
Proof. intros HPQ H i z ->. apply Forall_app in H as [H1 H2]. inversion H2; subst. auto. Qed.
Lemma ends_app a b : (forall x, P x -> Q x) -> Forall P a -> ends P Q b -> ends P Q (a ++ b).
Proof.
  intros HPQ Ha Hb. destruct b as [|z b] using rev_ind.
  - rewrite app_nil_r. now apply ends_all.
  - clear IHb. destruct (Hb b z eq_refl) as [H1 H2]. rewrite app_assoc.
    apply ends_snoc; auto. apply Forall_app; auto.
Qed.
Lemma ends_split a b : b <> [] -> ends P Q (a ++ b) -> Forall P a /\ ends P Q b.
Proof.
  intros Hb H. destruct b as [|z b] using rev_ind; [easy|]. clear IHb Hb.
  destruct (H (a ++ b) z) as [H1 H2]; [now rewrite app_assoc|].
  apply Forall_app in H1 as [Ha Hb]. split; [auto|]. now apply ends_snoc.
Qed.
Lemma ends_right a b : ends P Q (a ++ b) -> ends P Q b.
Proof.
  intros H. destruct b as [|y b]; [apply ends_nil|]. now apply ends_split in H.
Qed.
Lemma ends_take a b : (forall x, P x -> Q x) -> ends P Q (a ++ b) -> ends P Q a.
Proof.
  intros HPQ H. destruct b as [|y b]; [now rewrite app_nil_r in H|].
  apply ends_split in H as [H _]; [|easy]. now apply ends_all.
Qed.
Lemma ends_Q l : (forall x, P x -> Q x) -> ends P Q l -> Forall Q l.
Proof.
  intros HPQ H. destruct l as [|z l] using rev_ind; [constructor|]. clear IHl.
  destruct (H l z eq_refl) as [H1 H2]. apply Forall_app. split; [|auto].
  eapply Forall_impl; [|exact H1]. auto.
Qed.
Lemma ends_mid a c b : ends P Q (a ++ c :: b) ->
  Forall P a /\ ends P Q (c :: b) /\ (b <> [] -> P c) /\ ((forall x, P x -> Q x) -> Q c).
Proof.
  intros H. apply ends_split in H as [H1 H2]; [|easy]. split; [auto|]. split; [auto|].
  split.
  - intros Hb. change (c :: b) with ([c] ++ b) in H2. apply ends_split in H2 as [H2 _]; [|auto].
    now inversion H2.
  - intros HPQ. apply ends_Q in H2; [|auto]. now inversion H2.
Qed.
Lemma ends_set a c d b : ends P Q (a ++ c :: b) -> (P c -> P d) -> (Q c -> Q d) ->
  ends P Q (a ++ d :: b).
Proof.
  intros H HP HQ. destruct b as [|z b] using rev_ind.
  - destruct (H a c eq_refl). apply ends_snoc; auto.
  - clear IHb. destruct (H (a ++ c :: b) z) as [H1 H2]; [now rewrite <- app_assoc|].
    apply Forall_app in H1 as [Ha H1]. inversion H1; subst.
    change (a ++ d :: b ++ [z]) with (a ++ (d :: b) ++ [z]). rewrite app_assoc.
    apply ends_snoc; auto. apply Forall_app. split; auto.
Qed.
End Ends.

Lemma ends_same {A} (P : A -> Prop) l : ends P P l <-> Forall P l.
Proof. split; [apply ends_Q; auto|apply ends_all; auto]. Qed.
Lemma ends_impl {A} (P Q R : A -> Prop) l : (forall x, Q x -> R x) -> ends P Q l -> ends P R l.
Proof. intros H E i z Hl. destruct (E i z Hl). auto. Qed.

(** Taking a computation apart. *)
Ltac rinv H :=
  repeat match type of H with
  | rbind ?e _ = Ok _ =>
      let E := fresh "E" in destruct e eqn:E; cbn [rbind] in H; [|discriminate H]
  end.

Section Strict.
Context {T : Type}.
Variables B BL : N.

Notation sh := (sh B BL).
Notation width := (width B).
Notation lwidth := (lwidth BL).
Notation span := (span B BL).
Notation full := (@full T B BL).
Notation reg := (@reg T B BL).
Notation wf := (@wf T B BL).
Notation inv := (@inv T B BL).
Notation pos_ok := (@pos_ok T B BL).
Notation posl := (@posl T B BL).
Notation center_ok := (@center_ok T B BL).

(** Every node without size table is complete. *)
Fixpoint mid (v : nat) (n : node T) : Prop :=
  match v, n with
  | S _, Inner None _ => full v n
  | S l, Inner (Some _) cs => Forall (mid l) cs
  | _, _ => True
  end.
(** The same except along the right edge. *)
Fixpoint spn (v : nat) (n : node T) : Prop :=
  match v, n with
  | S l, Inner (Some _) cs => ends (mid l) (spn l) cs
  | _, _ => True
  end.
(** Down the left edge, a node without size table above level 1 starts with a complete
    child. *)
Fixpoint lead (v : nat) (n : node T) : Prop :=
  match v, n with
  | S l, Inner None cs => l = O \/ hdP (full l) cs
  | S l, Inner (Some _) cs => hdP (lead l) cs
  | _, _ => True
  end.

Lemma full_mid v n : full v n -> mid v n.
Proof. destruct v, n as [|[]]; cbn; easy. Qed.
Lemma mid_spn v n : mid v n -> spn v n.
Proof.
  revert n. induction v as [|l IH]; intros n; [easy|]. destruct n as [|[sz|] cs]; cbn [mid spn]; try easy.
  intros H. apply ends_all; auto.
Qed.
Lemma full_lead v n : full v n -> lead v n.
Proof.
  destruct v as [|l]; [easy|]. destruct n as [|[] cs]; cbn [RrbInv.full lead]; try easy.
  intros [_ H]. right. intros x r ->. now inversion H.
Qed.
Lemma mid_lead v n : mid v n -> lead v n.
Proof.
  revert n. induction v as [|l IH]; intros n; [easy|]. destruct n as [|[sz|] cs]; cbn [mid lead]; try easy.
  - intros H x r ->. apply IH. now inversion H.
  - intros H. exact (full_lead (S l) (Inner None cs) H).
Qed.

Definition QQ (b : bool) (v : nat) (n : node T) : Prop := if b then mid v n else spn v n.
Lemma mid_QQ b v n : mid v n -> QQ b v n.
Proof. destruct b; [easy|apply mid_spn]. Qed.
Lemma QQ_rel b l sz cs : QQ b (S l) (Inner (Some sz) cs) <-> ends (mid l) (QQ b l) cs.
Proof. destruct b; cbn [QQ mid spn]; [|reflexivity]. now rewrite ends_same. Qed.
Lemma QQ_kids b l n : wf (S l) n -> QQ b (S l) n -> ends (mid l) (QQ b l) (kids n).
Proof.
  intros Hw H. destruct n as [|[sz|] cs]; [easy| |]; cbn [kids].
  - now apply QQ_rel in H.
  - destruct b; cbn [QQ mid spn] in *.
    + apply ends_same. destruct H as [_ H]. eapply Forall_impl; [|exact H]. intros; now apply full_mid.
    + destruct Hw as (i & z & -> & Hf & Hr & _). apply ends_snoc.
      * eapply Forall_impl; [|exact Hf]. intros; now apply full_mid.
      * apply reg_not_rel in Hr. destruct l, z as [|[]]; cbn in *; easy.
Qed.
Lemma QQ_full b l n a c d : wf (S l) n -> QQ b (S l) n -> kids n = a ++ c :: d ->
  Forall (mid l) a /\ (d <> [] -> mid l c) /\ QQ b l c /\ ends (mid l) (QQ b l) d.
Proof.
  intros Hw H Ek. pose proof (QQ_kids _ _ _ Hw H) as He. rewrite Ek in He.
  apply ends_mid in He as (H1 & H2 & H3 & H4). split; [auto|]. split; [auto|].
  split; [apply H4; intros; now apply mid_QQ|]. now apply (ends_right _ _ [c]).
Qed.

(** The head of the children. *)
Lemma lead_kids l n : wf (S l) n -> lead (S l) n -> hdP (lead l) (kids n).
Proof.
  intros Hw H. destruct n as [|[sz|] cs]; [easy|exact H|]. cbn [kids lead] in *.
  destruct H as [->|H]; [intros x r _; exact I|]. intros x r E. apply full_lead. now apply (H x r).
Qed.

(** A node of the size of a complete one has only complete descendants. *)
Lemma spn_full_mid v n : wf v n -> spn v n -> nsize n = span v -> mid v n.
Proof.
  revert n. induction v as [|l IH]; intros n Hw Hs E; [exact I|].
  destruct n as [|[sz|] cs]; [easy| |].
  - cbn [mid spn] in *. destruct Hw as (Hl & Hk & _).
    destruct cs as [|z cs] using rev_ind; [constructor|]. clear IHcs.
    destruct (Hs cs z eq_refl) as [H1 H2]. apply Forall_app. split; [auto|]. constructor; [|constructor].
    apply Forall_app in Hk as [Hk Hz]. inversion Hz; subst. apply IH; auto.
    rewrite nsize_inner in E. fold (csize (cs ++ [z])) in E. rewrite csize_snoc, span_S in E.
    pose proof (wf_csize _ _ _ _ Hk). pose proof (wf_size _ _ _ _ H3). rewrite lenN_snoc in Hl.
    pose proof (span_pos B BL l). nia.
  - apply reg_full in E; auto.
Qed.

(** ** Merging *)

Definition base (m : merger) : list (node T) := flat_map p_kids (m_done m) ++ p_kids (m_par m).
Definition content (m : merger) : list (node T) :=
  base m ++ match m_to m with Some n => [n] | None => [] end.

Lemma add_child_base m n sz m' : add_child B m n sz = Ok m' ->
  base m' = base m ++ [n] /\ m_to m' = None.
Proof.
  unfold add_child. intros H. destruct (sz =? 0); [easy|].
  destruct (m_curr m) as [|c0 curr]; [easy|]. destruct (m_sizes m) as [|s0 ss]; [easy|].
  destruct (lenN (p_kids (m_par m)) =? width).
  - destruct (_ && _); cbn [rbind] in H; [|easy]. cbn [p_kids p_cap p_sizes] in H.
    destruct (_ <? _) in H; [|easy]. rinv H. injection H as <-. unfold base. cbn.
    rewrite flat_map_app. cbn. now rewrite app_nil_r.
  - cbn [rbind] in H. destruct (_ <? _) in H; [|easy]. rinv H. injection H as <-. unfold base. cbn.
    now rewrite app_assoc.
Qed.
Lemma add_child_content m n sz m' : add_child B m n sz = Ok m' ->
  content m' = base m ++ [n] /\ m_to m' = None.
Proof.
  intros H. apply add_child_base in H as [H1 H2]. unfold content. rewrite H1, H2, app_nil_r. auto.
Qed.

Definition to_kids (m : @merger T) : Prop := forall n, m_to m = Some n -> kids n <> [].

Lemma merge_inner_go_strict b l p cs fuel m off m' :
  merge_inner_go B BL fuel m (S l) p cs off (lenN cs) = Ok m' ->
  off < lenN cs -> to_kids m ->
  Forall (mid (S l)) (content m) -> ends (mid l) (QQ b l) (dropN off cs) ->
  hdP (lead (S l)) (content m) -> (content m = [] -> hdP (lead l) (dropN off cs)) ->
  ends (mid (S l)) (QQ b (S l)) (content m') /\ hdP (lead (S l)) (content m') /\
  content m' <> [] /\ to_kids m'.
Proof.
  revert m off. induction fuel as [|f IH]; intros m off H Hoff Htk Hm He Hl Hl0; [easy|].
  cbn [merge_inner_go] in H.
  destruct (curr_of m) as [cur|] eqn:Ecur; cbn [rbind] in H; [|easy].
  destruct (match m_to m with None => Ok ([], []) | Some (Inner (Some sz) ks) => Ok (sz, ks)
            | Some _ => UB end) as [[tosz tocs]|] eqn:Eto; cbn [rbind] in H; [|easy].
  destruct (N.ltb_spec cur (lenN tocs)) as [|Hcur]; [easy|].
  set (k := N.min (lenN cs - off) (cur - lenN tocs)) in *.
  assert (rsliceN off (off + k) cs = Ok (takeN k (dropN off cs))) as Esl.
  { unfold rsliceN. destruct (N.leb_spec off (off + k)); [|lia].
    destruct (N.leb_spec (off + k) (lenN cs)); [|lia]. cbn [andb]. do 2 f_equal. lia. }
  rewrite Esl in H. cbn [rbind] in H. clear Esl.
  set (rest := dropN off cs) in *.
  assert (lenN rest = lenN cs - off) as Hlr by (unfold rest; apply lenN_dropN).
  assert (takeN k rest ++ dropN k rest = rest) as Htd by apply takeN_dropN.
  assert (dropN (off + k) cs = dropN k rest) as Hdr.
  { unfold rest. now rewrite dropN_dropN. }
  destruct (if lenN tosz =? 0 then Ok 0 else last_of tosz) as [tsz|]; cbn [rbind] in H; [|easy].
  destruct (copy_sizes _ _ _ _ _ _ _) as [nsz|]; cbn [rbind] in H; [|easy].
  destruct (last_of (tosz ++ nsz)) as [sz'|]; cbn [rbind] in H; [|easy].
  set (nn := Inner (Some (tosz ++ nsz)) (tocs ++ takeN k rest)) in *.
  (* the state before the partial node *)
  assert (Forall (mid (S l)) (base m) /\ Forall (mid l) tocs /\
          (base m = [] -> hdP (lead l) (tocs ++ takeN k rest)) /\
          hdP (lead (S l)) (base m)) as (Hb & Htocs & Hlt & Hlb).
  { unfold content in Hm, Hl, Hl0. apply Forall_app in Hm as [Hm1 Hm2]. split; [auto|].
    destruct (m_to m) as [[|[sz|] ks]|] eqn:Em; try discriminate Eto.
    - injection Eto as <- <-. inversion Hm2; subst. split; [auto|]. split.
      + intros E. rewrite E in Hl. specialize (Hl _ [] eq_refl). cbn [lead] in Hl.
        specialize (Htk _ Em). cbn [kids] in Htk. destruct ks as [|y ks]; [easy|].
        intros x r Ex. injection Ex as <- _. now apply (Hl y ks).
      + intros x r Ex. apply (Hl x (r ++ [Inner (Some sz) ks])). now rewrite Ex.
    - injection Eto as <- <-. split; [constructor|]. rewrite app_nil_r in Hl, Hl0. split; [|auto].
      intros E. cbn [app]. intros x r Ex. apply (Hl0 E x (r ++ dropN k rest)).
      rewrite <- Htd at 1. now rewrite Ex. }
  assert (lead (S l) nn \/ base m <> []) as Hln.
  { destruct (base m) as [|y ys]; [left|right; easy]. cbn [nn lead]. apply Hlt. reflexivity. }
  assert (hdP (lead (S l)) (base m ++ [nn])) as Hhd.
  { intros x r Ex. destruct (base m) as [|y ys] eqn:Eb.
    - injection Ex as <- _. destruct Hln; [auto|easy].
    - injection Ex as <- _. now apply (Hlb y ys). }
  (* one step *)
  assert (exists m1, content m1 = base m ++ [nn] /\ to_kids m1 /\
    (if off + k =? lenN cs then Ok m1 else merge_inner_go B BL f m1 (S l) p cs (off + k) (lenN cs)) = Ok m')
    as (m1 & Hc1 & Htk1 & H1).
  { destruct (N.eqb_spec cur (lenN (tocs ++ takeN k rest))) as [Ec|Ec].
    - destruct (add_child B m nn sz') as [m1|] eqn:Ea; cbn [rbind] in H; [|easy].
      apply add_child_content in Ea as [Ea1 Ea2]. exists m1. split; [auto|]. split; [|auto].
      intros n En. congruence.
    - cbn [rbind] in H. eexists. split; [|split; [|exact H]]; [reflexivity|].
      intros n En. cbn in En. injection En as <-. cbn [kids nn].
      rewrite lenN_app, lenN_takeN in Ec. intros E. apply (f_equal lenN) in E.
      rewrite lenN_app, lenN_takeN in E. change (lenN (@nil (node T))) with 0 in E. lia. }
  destruct (N.eqb_spec (off + k) (lenN cs)) as [Ek|Ek].
  - injection H1 as <-. rewrite Hc1.
    assert (dropN k rest = []) as Ed by (apply lenN_0; rewrite lenN_dropN; lia).
    rewrite Ed, app_nil_r in Htd. split; [|split; [auto|split; [now destruct (base m)|auto]]].
    apply ends_snoc; [auto|]. apply QQ_rel. rewrite Htd.
    apply ends_app; [intros; now apply mid_QQ|auto|auto].
  - apply (IH m1 (off + k)) in H1; auto.
    + lia.
    + rewrite Hc1. apply Forall_app. split; [auto|]. constructor; [|constructor]. cbn [nn mid].
      apply Forall_app. split; [auto|]. rewrite <- Htd in He. apply ends_split in He as [He _]; [auto|].
      apply lenN_pos. rewrite lenN_dropN. lia.
    + rewrite Hdr. rewrite <- Htd in He. now apply ends_right in He.
    + now rewrite Hc1.
    + rewrite Hc1. intros E. now destruct (base m).
Qed.

Lemma merge_inner_strict b l p n m m' :
  pos_ok (S l) p n -> merge_inner B BL m (S l) p = Ok m' -> to_kids m ->
  Forall (mid (S l)) (content m) -> QQ b (S l) n ->
  hdP (lead (S l)) (content m) -> (content m = [] -> lead (S l) n) ->
  ends (mid (S l)) (QQ b (S l)) (content m') /\ hdP (lead (S l)) (content m') /\
  content m' <> [] /\ to_kids m'.
Proof.
  intros Hp H Htk Hm Hq Hl Hl0. pose proof (pos_ok_wf _ _ _ _ _ Hp) as Hw.
  unfold merge_inner in H. rewrite (pos_ok_node _ _ _ _ _ Hp) in H. cbn [rbind] in H.
  destruct (psize B BL (S l) p) as [s|]; cbn [rbind] in H; [|easy].
  rewrite (count_ok _ _ _ _ _ Hp) in H. cbn [rbind] in H.
  destruct (wf_inner _ _ _ _ Hw) as (r & cs & ->). cbn [inner_of rbind ncount] in H.
  assert (0 < lenN cs) as Hcs by exact (wf_count_pos _ _ _ _ Hw).
  destruct (curr_of m) as [cur|]; cbn [rbind] in H; [|easy].
  destruct (s =? 0); [easy|].
  assert (forall m', merge_inner_go B BL (S (N.to_nat (lenN cs))) m (S l) p cs 0 (lenN cs) = Ok m' ->
    ends (mid (S l)) (QQ b (S l)) (content m') /\ hdP (lead (S l)) (content m') /\
    content m' <> [] /\ to_kids m') as Hgo.
  { intros m1 H1. eapply merge_inner_go_strict; eauto.
    - rewrite dropN_0. exact (QQ_kids _ _ _ Hw Hq).
    - rewrite dropN_0. intros E. exact (lead_kids _ _ Hw (Hl0 E)). }
  destruct (m_to m) as [n'|] eqn:Eto; [now apply Hgo|].
  destruct (cur =? lenN cs); [|now apply Hgo].
  apply add_child_content in H as [Hc Hn].
  assert (base m = content m) as Hb by (unfold content; rewrite Eto; now rewrite app_nil_r).
  rewrite Hb in Hc. rewrite Hc. split; [now apply ends_snoc|]. split.
  - intros x rr Ex. destruct (content m) as [|y ys] eqn:Em; injection Ex as <- _; [now apply Hl0|].
    now apply (Hl y ys).
  - split; [now destruct (content m)|]. intros n' En. congruence.
Qed.

Lemma trivial0 b (c : list (node T)) : ends (mid 0) (QQ b 0) c /\ hdP (lead 0) c.
Proof.
  split.
  - apply ends_all; [intros; now apply mid_QQ|]. induction c; constructor; auto. exact I.
  - intros x r _. exact I.
Qed.

Lemma merge_all_strict b cl ps ns m m' :
  posl cl ps ns -> merge_all B BL cl m ps = Ok m' ->
  Forall (mid cl) (content m) -> ends (mid cl) (QQ b cl) ns ->
  hdP (lead cl) (content m) -> (content m = [] -> hdP (lead cl) ns) -> to_kids m ->
  ends (mid cl) (QQ b cl) (content m') /\ hdP (lead cl) (content m').
Proof.
  intros Hps. revert m. destruct cl as [|l]; [intros; apply trivial0|].
  induction Hps as [|p n ps ns [Hp Hs] Hps IH]; intros m H Hm He Hl Hl0 Htk.
  - injection H as <-. split; [|auto]. apply ends_all; [intros; now apply mid_QQ|auto].
  - cbn [merge_all] in H. destruct (merge_inner B BL m (S l) p) as [m1|] eqn:E1; cbn [rbind] in H; [|easy].
    assert (content m = [] -> lead (S l) n) as Hln by (intros E; exact (Hl0 E n ns eq_refl)).
    destruct ns as [|n2 ns].
    + inversion Hps; subst. injection H as <-.
      destruct (He [] n eq_refl) as [_ Hn].
      destruct (merge_inner_strict b l p n m m1 Hp E1 Htk Hm Hn Hl Hln) as (? & ? & _). auto.
    + change (n :: n2 :: ns) with ([n] ++ n2 :: ns) in He. apply ends_split in He as [Hn He]; [|easy].
      inversion Hn; subst.
      destruct (merge_inner_strict true l p n m m1 Hp E1 Htk Hm) as (Hm1 & Hl1 & Hne & Htk1); auto.
      apply (IH m1); auto.
      * now apply ends_same in Hm1.
      * intros E. easy.
Qed.

Lemma concat_rebalance_strict b v lp c rp a els d c' :
  center_ok v c els ->
  side_ok B BL (each_left_sub B BL) v lp a -> side_ok B BL (each_right_sub B BL) v rp d ->
  concat_rebalance B BL lp c rp = Ok c' ->
  ends (mid v) (QQ b v) (a ++ c_nodes c ++ d) -> hdP (lead v) (a ++ c_nodes c ++ d) ->
  ends (mid (S v)) (QQ b (S v)) (c_nodes c') /\ hdP (lead (S v)) (c_nodes c').
Proof.
  intros Hc Hl Hr H He Hh.
  destruct (concat_rebalance_ok B BL v lp c rp a els d Hc Hl Hr) as (c1 & E1 & Hc1).
  rewrite H in E1. injection E1 as <-.
  destruct Hl as (ls & El & Hls & _). destruct Hr as (rs & Er & Hrs & _).
  destruct (center_each_ok B BL _ _ _ Hc) as (ms & Em & Hms).
  destruct Hc as [Hlv _ _ _ _ _].
  unfold concat_rebalance in H. rewrite Hlv, El in H. cbn [rbind] in H. rewrite Em in H.
  cbn [rbind] in H. rewrite Er in H. cbn [rbind] in H.
  destruct (rmap (count B BL v) (ls ++ ms ++ rs)) as [counts|]; cbn [rbind] in H; [|easy].
  destruct (_ <? _) in H; [easy|].
  destruct (shuffle B BL v counts) as [plan|]; cbn [rbind] in H; [|easy].
  destruct (merge_all B BL v (merger_init B plan) (ls ++ ms ++ rs)) as [m|] eqn:Emg; cbn [rbind] in H; [|easy].
  assert (posl v (ls ++ ms ++ rs) (a ++ c_nodes c ++ d)) as Hall by (repeat apply posl_app; auto).
  destruct (merge_all_strict b v _ _ (merger_init B plan) m Hall Emg) as [Hm Hlm]; auto.
  { constructor. }
  { intros x r Ex. easy. }
  { intros n En. easy. }
  unfold merger_finish in H. destruct (m_to m) eqn:Eto; [easy|].
  assert (content m = flat_map p_kids (m_done m ++ [m_par m])) as Hcm.
  { unfold content, base. rewrite Eto, app_nil_r, flat_map_app. cbn [flat_map]. now rewrite app_nil_r. }
  pose proof (co_wf _ _ _ _ _ Hc1) as Hwf. injection H as <-. cbn [c_nodes] in *.
  rewrite Hcm in Hm, Hlm.
  assert (Forall (fun q => p_kids q <> []) (m_done m ++ [m_par m])) as Hne.
  { rewrite Forall_map in Hwf. eapply Forall_impl; [|exact Hwf]. intros q (Hq & _) E. rewrite E in Hq.
    change (lenN (@nil (node T))) with 0 in Hq. lia. }
  clear Hcm Hwf. split.
  - rewrite map_app. cbn [map]. apply Forall_app in Hne as [_ Hne]. inversion Hne; subst.
    rewrite flat_map_app in Hm. cbn [flat_map] in Hm. rewrite app_nil_r in Hm.
    apply ends_split in Hm as [Hm1 Hm2]; [|auto].
    apply ends_snoc; [|apply QQ_rel; auto].
    clear - Hm1. induction (m_done m) as [|q qs IH]; [constructor|]. cbn [flat_map map] in *.
    apply Forall_app in Hm1 as [H1 H2]. constructor; auto.
  - destruct (m_done m ++ [m_par m]) as [|q qs]; [intros x r Ex; easy|]. cbn [map flat_map] in *.
    intros x r Ex. injection Ex as <- _. cbn [lead]. inversion Hne as [|? ? Hq _]; subst.
    destruct (p_kids q) as [|y ys]; [easy|]. intros z r' Ez. injection Ez as <- _.
    apply (Hlm y (ys ++ flat_map p_kids qs)). reflexivity.
Qed.

(** ** Concatenation *)

Definition lps (ll : nat) (lp : pos T) : Prop :=
  match lp with PSingle _ _ => True | _ => forall n, pnode lp = Ok n -> spn ll n end.

Lemma pos_lps v p n : pos_ok v p n -> spn v n -> lps v p.
Proof. intros Hp Hs. destruct Hp; cbn; intros m [= <-]; auto. Qed.
Lemma lps_pos v p n : pos_ok v p n -> lps v p -> spn v n.
Proof. intros Hp H. destruct Hp; cbn in H; now apply H. Qed.

Lemma left_strict l lp els : lp_ok B BL (S l) lp els -> lps (S l) lp ->
  exists a q x, side_ok B BL (each_left_sub B BL) l (Some lp) a /\ last_sub B BL l lp = Ok q /\
    pos_ok l q x /\ is_sub q = true /\ not_full q /\ els = flat_map elems a ++ elems x /\
    Forall (mid l) a /\ spn l x.
Proof.
  intros [(E & -> & Hl)|(n & Hp & Hs & Hnf & <-)] Hlp.
  - injection E as ->. exists [], (PSub (Leaf els) (lenN els)), (Leaf els).
    split.
    { exists []. split; [reflexivity|]. split; [constructor|].
      change (lenN (@nil (node T))) with 0. pose proof (width_pos B). lia. }
    cbn [last_sub]. rewrite <- (nsize_leaf els), mk_sub_ok by auto.
    split; [reflexivity|]. split; [now constructor|]. split; [reflexivity|]. split; [exact I|].
    split; [reflexivity|]. split; [constructor|exact I].
  - pose proof (pos_ok_wf _ _ _ _ _ Hp) as Hw. pose proof (lps_pos _ _ _ Hp Hlp) as Hsp.
    destruct (kids_last B BL _ _ Hw) as (a & x & Ek).
    destruct (each_left_sub_ok B BL l lp n a x Hp Hs Hnf Ek) as (ps & E & Hps).
    destruct (last_sub_ok B BL l lp n a x Hp Hs Hnf Ek) as (q & Eq & Hq & Hsq & Hnq).
    destruct (QQ_full false l n a x [] Hw Hsp Ek) as (Ha & _ & Hx & _).
    exists a, q, x. split.
    { exists ps. split; [exact E|]. split; [auto|].
      pose proof (wf_count_le _ _ _ _ Hw) as Hc. rewrite Ek, lenN_snoc in Hc. exact Hc. }
    split; [exact Eq|]. split; [auto|]. split; [auto|]. split; [auto|].
    split; [|auto]. rewrite (elems_kids B BL _ _ Hw), Ek. apply flat_snoc.
Qed.

Lemma right_strict l rp n : pos_ok (S l) rp n -> is_sub rp = true -> sh l < 32 -> nsize n <= 2 ^ 32 ->
  exists d q x, side_ok B BL (each_right_sub B BL) l (Some rp) d /\ first_sub B BL l rp = Ok q /\
    pos_ok l q x /\ is_sub q = true /\ elems n = elems x ++ flat_map elems d /\ nsize x <= nsize n /\
    forall b, QQ b (S l) n -> (d <> [] -> mid l x) /\ QQ b l x /\ ends (mid l) (QQ b l) d.
Proof.
  intros Hp Hs Hsh H32. pose proof (pos_ok_wf _ _ _ _ _ Hp) as Hw.
  destruct (kids_first B BL _ _ Hw) as (x & d & Ek).
  destruct (each_right_sub_ok B BL l rp n x d Hp Hs Ek Hsh H32) as (ps & E & Hps).
  destruct (first_sub_ok B BL l rp n x d Hp Hs Ek) as (q & Eq & Hq & Hsq).
  exists d, q, x. split.
  { exists ps. split; [exact E|]. split; [auto|].
    pose proof (wf_count_le _ _ _ _ Hw) as Hc. rewrite Ek, lenN_cons in Hc. exact Hc. }
  split; [exact Eq|]. split; [auto|]. split; [auto|].
  assert (elems n = elems x ++ flat_map elems d) as Ee by now rewrite (elems_kids B BL _ _ Hw), Ek.
  split; [exact Ee|]. split; [unfold nsize; rewrite Ee, lenN_app; lia|].
  intros b Hq'. destruct (QQ_full b l n [] x d Hw Hq' Ek) as (_ & H1 & H2 & H3). auto.
Qed.

Lemma join_ends b v a cs d :
  Forall (mid v) a -> (d = [] -> ends (mid v) (QQ b v) cs) -> (d <> [] -> Forall (mid v) cs) ->
  ends (mid v) (QQ b v) d -> ends (mid v) (QQ b v) (a ++ cs ++ d).
Proof.
  intros Ha H1 H2 Hd. apply ends_app; [intros; now apply mid_QQ|auto|].
  destruct d as [|y d]; [rewrite app_nil_r; auto|].
  apply ends_app; [intros; now apply mid_QQ|apply H2; easy|auto].
Qed.
Lemma join_lead v a cs d : Forall (mid v) a -> hdP (lead v) cs -> cs <> [] ->
  hdP (lead v) (a ++ cs ++ d).
Proof.
  intros Ha Hc Hn x r E. destruct a as [|y a].
  - destruct cs as [|z cs]; [easy|]. injection E as <- _. now apply (Hc z cs).
  - injection E as <- _. inversion Ha; subst. now apply mid_lead.
Qed.
Lemma center_nodes v c els : center_ok v c els -> c_nodes c <> [].
Proof. intros [_ H _ _ _ _] E. rewrite E in H. change (lenN (@nil (node T))) with 0 in H. lia. Qed.

Lemma concat_inners_strict fuel l r lp tp rp lels tels rn c b :
  (S l + S r <= fuel)%nat ->
  lp_ok B BL (S l) lp lels -> tp_ok BL tp tels -> pos_ok (S r) rp rn -> is_sub rp = true ->
  sh r < 32 -> nsize rn <= 2 ^ 32 ->
  concat_inners B BL fuel (S l) (S r) lp tp rp = Ok c ->
  lps (S l) lp -> QQ b (S r) rn ->
  ends (mid (Nat.max (S l) (S r))) (QQ b (Nat.max (S l) (S r))) (c_nodes c) /\
  hdP (lead (Nat.max (S l) (S r))) (c_nodes c).
Proof.
  revert l r lp rp lels rn c b. induction fuel as [|f IH];
    intros l r lp rp lels rn c b Hf Hl Ht Hr Hsr Hsh H32 H Hlp Hrq; [lia|].
  cbn [concat_inners] in H.
  destruct (Nat.ltb_spec r l) as [H1|H1].
  - destruct (left_strict _ _ _ Hl Hlp) as (a & q & x & Hside & Eq & Hq & Hsq & Hnq & -> & Ha & Hx).
    rewrite Eq in H. cbn [rbind] in H. destruct l as [|l]; [lia|].
    assert (lp_ok B BL (S l) q (elems x)) as Hlq by (right; eauto).
    assert (S l + S r <= f)%nat as Hf' by lia.
    destruct (concat_inners_ok B BL f l r q tp rp (elems x) tels rn Hf' Hlq Ht Hr Hsr Hsh H32) as (c1 & Ec & Hc).
    rewrite Ec in H. cbn [rbind] in H.
    destruct (IH l r q rp (elems x) rn c1 b Hf' Hlq Ht Hr Hsr Hsh H32 Ec) as [He Hh]; auto.
    { eapply pos_lps; eauto. }
    replace (Nat.max (S (S l)) (S r)) with (S (Nat.max (S l) (S r))) by lia.
    replace (Nat.max (S l) (S r)) with (S l) in * by lia.
    eapply (concat_rebalance_strict b _ (Some lp) c1 None a _ [] c Hc Hside (no_side _ _ _ _) H).
    + apply join_ends; auto; [easy|apply ends_nil].
    + apply join_lead; auto. eapply center_nodes; eauto.
  - destruct (right_strict _ _ _ Hr Hsr Hsh H32)
      as (d & qr & xr & Hrside & Eqr & Hqr & Hsqr & Eer & Hxr & Hst).
    destruct (Hst b Hrq) as (Hd1 & Hd2 & Hd3). clear Hst.
    destruct (Nat.ltb_spec l r) as [H2|H2].
    + rewrite Eqr in H. cbn [rbind] in H. destruct r as [|r]; [lia|].
      assert (sh r < 32) as Hsh' by (unfold Rrb.sh in *; lia).
      assert (S l + S r <= f)%nat as Hf' by lia. assert (nsize xr <= 2 ^ 32) as H32' by lia.
      destruct (concat_inners_ok B BL f l r lp tp qr lels tels xr Hf' Hl Ht Hqr Hsqr Hsh' H32') as (c1 & Ec & Hc).
      rewrite Ec in H. cbn [rbind] in H.
      pose proof (IH l r lp qr lels xr c1 b Hf' Hl Ht Hqr Hsqr Hsh' H32' Ec Hlp Hd2) as [He Hh].
      assert (d <> [] -> Forall (mid (Nat.max (S l) (S r))) (c_nodes c1)) as Hm.
      { intros Hd. apply ends_same.
        exact (proj1 (IH l r lp qr lels xr c1 true Hf' Hl Ht Hqr Hsqr Hsh' H32' Ec Hlp (Hd1 Hd))). }
      replace (Nat.max (S l) (S (S r))) with (S (S r)) by lia.
      replace (Nat.max (S l) (S r)) with (S r) in * by lia.
      eapply (concat_rebalance_strict b _ None c1 (Some rp) [] _ d c Hc (no_side _ _ _ _) Hrside H).
      * apply join_ends; auto.
      * apply join_lead; auto. eapply center_nodes; eauto.
    + assert (r = l) as -> by lia.
      destruct (left_strict _ _ _ Hl Hlp) as (a & q & x & Hside & Eq & Hq & Hsq & Hnq & -> & Ha & Hx).
      rewrite Eq in H. cbn [rbind] in H. rewrite Eqr in H. cbn [rbind] in H.
      rewrite Nat.max_id.
      assert (exists c, match l with O => concat_leafs B BL q tp qr
                        | S _ => concat_inners B BL f l l q tp qr end = Ok c /\
                center_ok l c (elems x ++ tels ++ elems xr) /\
                hdP (lead l) (c_nodes c) /\
                forall b, QQ b l xr -> ends (mid l) (QQ b l) (c_nodes c)) as (c1 & Ec & Hc & Hh & He).
      { destruct l as [|l].
        - destruct (concat_leafs_ok B BL q tp qr x tels xr) as (c1 & E1 & Hc1); auto.
          exists c1. split; [auto|]. split; [auto|]. split; [apply (trivial0 b)|].
          intros; apply trivial0.
        - assert (lp_ok B BL (S l) q (elems x)) as Hlq by (right; eauto).
          assert (S l + S l <= f)%nat as Hf' by lia. assert (nsize xr <= 2 ^ 32) as H32' by lia.
          assert (sh l < 32) as Hsh' by (unfold Rrb.sh in *; lia).
          destruct (concat_inners_ok B BL f l l q tp qr (elems x) tels xr Hf' Hlq Ht Hqr Hsqr Hsh' H32')
            as (c1 & Ec & Hc).
          exists c1. rewrite Nat.max_id in Hc. split; [auto|]. split; [auto|].
          assert (lps (S l) q) as Hlq' by (eapply pos_lps; eauto).
          split.
          + pose proof (IH l l q qr (elems x) xr c1 b Hf' Hlq Ht Hqr Hsqr Hsh' H32' Ec Hlq' Hd2) as [_ H0].
            now rewrite Nat.max_id in H0.
          + intros b' Hb'.
            pose proof (IH l l q qr (elems x) xr c1 b' Hf' Hlq Ht Hqr Hsqr Hsh' H32' Ec Hlq' Hb') as [H0 _].
            now rewrite Nat.max_id in H0. }
      rewrite Ec in H. cbn [rbind] in H.
      eapply (concat_rebalance_strict b _ (Some lp) c1 (Some rp) a _ d c Hc Hside Hrside H).
      * apply join_ends; auto. intros Hd. apply ends_same. apply (He true). now apply Hd1.
      * apply join_lead; auto. eapply center_nodes; eauto.
Qed.

Lemma realize_strict v c els h r : center_ok (S v) c els -> realize c = Ok (h, r) ->
  ends (mid (S v)) (spn (S v)) (c_nodes c) -> hdP (lead (S v)) (c_nodes c) -> spn h r /\ lead h r.
Proof.
  intros [Hlv Hlen Hwf Hsz Hel Hrel] H He Hh. unfold realize in H.
  destruct (1 <? lenN (c_nodes c)).
  - injection H as <- <-. rewrite Hlv. auto.
  - rewrite Hlv in H. destruct (c_nodes c) as [|n ns] eqn:En; [easy|].
    apply ends_Q in He; [|apply mid_spn]. inversion He; subst.
    destruct n as [|[sz|] cs]; try easy. injection H as <- <-. split; [auto|]. now apply (Hh _ ns).
Qed.

Hypothesis HB : 2 <= B.
Let HB1 : 1 <= B. Proof. lia. Qed.

Lemma concat_trees_strict lp l tp lels tels rroot rl h r :
  lp_ok B BL (S l) lp lels -> tp_ok BL tp tels -> wf (S rl) rroot ->
  sh rl < 32 -> nsize rroot <= 2 ^ 32 ->
  concat_trees B BL lp (S l) tp rroot (S rl) (nsize rroot) = Ok (h, r) ->
  lps (S l) lp -> spn (S rl) rroot -> spn h r /\ lead h r.
Proof.
  intros Hl Ht Hw Hsh H32 H Hlp Hs. unfold concat_trees in H.
  destruct (maybe_relaxed_ok B BL rl rroot Hw) as (q & Eq & Hq & Hsq). rewrite Eq in H. cbn [rbind] in H.
  destruct (concat_inners_ok B BL (S l + S rl) l rl lp tp q lels tels rroot) as (c & Ec & Hc); auto.
  rewrite Ec in H. cbn [rbind] in H.
  pose proof (concat_inners_strict (S l + S rl) l rl lp tp q lels tels rroot c false
    ltac:(lia) Hl Ht Hq Hsq Hsh H32 Ec Hlp Hs) as [He Hh].
  change (Nat.max (S l) (S rl)) with (S (Nat.max l rl)) in *.
  eapply realize_strict; eauto.
Qed.

(** ** Appending a leaf *)

Lemma spn_nonrel v n : is_rel n = false -> spn v n.
Proof. destruct v, n as [|[]]; cbn; easy. Qed.
Lemma path_spn v (t : node T) : full O t -> spn v (make_path v t).
Proof. destruct v; intros; exact I. Qed.

Lemma lead_size l n : wf (S l) n -> is_rel n = false -> l <> O -> lead (S l) n -> span l <= nsize n.
Proof.
  intros Hw Hr Hl H. destruct (nonrel_inv _ _ _ _ Hw Hr) as (init & la & -> & Hf & _ & _ & Hn & Hb).
  cbn [lead] in H. destruct H as [|H]; [easy|]. rewrite Hn. destruct init as [|x init].
  - specialize (H la [] eq_refl). rewrite (full_size _ _ _ _ H). lia.
  - rewrite lenN_cons. lia.
Qed.
Lemma lead_reg l n : reg (S l) n -> (l <> O -> span l <= nsize n) -> lead (S l) n.
Proof.
  intros Hr Hs. destruct n as [|[] cs]; [easy..|]. cbn [lead].
  destruct l as [|l]; [now left|]. right. specialize (Hs ltac:(easy)).
  destruct Hr as (init & la & -> & Hf & Hr & Hl). intros x r E. destruct init as [|y init].
  - injection E as <- _. apply reg_full; [auto|].
    rewrite nsize_inner in Hs. cbn [app map] in Hs. rewrite sumN_cons, sumN_nil in Hs.
    pose proof (reg_size_bounds _ _ _ _ Hr). lia.
  - injection E as <- _. now inversion Hf.
Qed.

Lemma push_rel_strict l n sz tl ts r :
  wf (S l) n -> n = Inner (Some sz) (kids n) -> full O tl -> ts = lwidth ->
  push_tail_node B BL (S l) (PRel n sz) tl ts = Ok r -> spn (S l) n ->
  match r with
  | Some n' => spn (S l) n' /\ (lead (S l) n -> lead (S l) n')
  | None => mid (S l) n
  end.
Proof.
  intros Hw En Htl Hts. revert n sz r Hw En. induction l as [|l IH]; intros n sz r Hw En H Hs.
  all: destruct n as [|rr cs]; [easy|]; cbn [kids] in En; injection En as Er; subst rr.
  all: pose proof Hw as (Hl & Hc & Hsz);
    destruct cs as [|x cs] using rev_ind; [cbn in Hl; lia|]; clear IHcs;
    rewrite lenN_snoc in Hl.
  all: assert (lenN sz = lenN cs + 1) as Hlsz
    by (rewrite Hsz, lenN_sums, lenN_map, lenN_snoc; reflexivity).
  all: assert (last_of sz = Ok (nsize (Inner (Some sz) (cs ++ [x])))) as Hlast
    by (eapply rel_last; eauto).
  all: assert (forall k, size_at B BL (S k) (PRel (Inner (Some sz) (cs ++ [x])) sz) (lenN cs) = Ok (nsize x)) as Hsa
    by (intros k; unfold size_at, size_before; rewrite (rel_before _ _ _ _ _ _ Hw);
        cbn [rbind size_sbh]; rewrite (rel_at _ _ _ _ _ _ _ Hw); cbn [rbind]; f_equal; lia).
  all: apply Forall_app in Hc as [Hc1 Hc2]; pose proof (Forall_inv Hc2) as Hwx.
  all: cbn [push_tail_node] in H; rewrite Hlsz in H;
    replace (lenN cs + 1 - 1) with (lenN cs) in H by lia;
    rewrite Hsa, Hlast in H; cbn [rbind inner_of] in H.
  all: destruct (Hs cs x eq_refl) as [Hm Hx].
  all: assert (forall v c (s : N), Forall (mid v) (cs ++ [x]) -> spn v c ->
         (cs' <- rtakeN (lenN cs + 1) (cs ++ [x]) ;;
          sz' <- rtakeN (lenN cs + 1) sz ;;
          Ok (Some (Inner (Some (sz' ++ [s])) (cs' ++ [c])))) = Ok r ->
         match r with
         | Some n' => spn (S v) n' /\ (lead (S v) (Inner (Some sz) (cs ++ [x])) -> lead (S v) n')
         | None => mid (S v) (Inner (Some sz) (cs ++ [x]))
         end) as Hnew.
  1,3: intros v c s Hall Hpc E; rewrite rtakeN_all in E by (rewrite lenN_snoc; lia); cbn [rbind] in E;
    rinv E; injection E as <-; cbn [spn lead]; (split; [apply ends_snoc; auto|]);
    intros Hle y ys Ey; destruct cs as [|z cs]; injection Ey as <- _; eapply Hle; reflexivity.
  - rewrite orb_true_r in H.
    destruct (N.leb_spec width (lenN cs + 1)).
    + injection H as <-. cbn [mid]. apply Forall_app; auto.
    + eapply (Hnew O); [|exact (path_spn 0 tl Htl)|exact H]. apply Forall_app; auto.
  - rewrite orb_false_r, shiftl_span in H.
    destruct (N.eqb_spec (nsize x) (span (S l))) as [Ef|Ef].
    + assert (mid (S l) x) as Hmx by now apply spn_full_mid.
      destruct (N.leb_spec width (lenN cs + 1)).
      * injection H as <-. cbn [mid]. apply Forall_app; auto.
      * eapply (Hnew (S l)); [|exact (path_spn (S l) tl Htl)|exact H]. apply Forall_app; auto.
    + destruct (N.leb_spec width (lenN cs)); [lia|].
      rewrite rnthN_app in H by reflexivity. cbn [rbind] in H.
      destruct (child_pos B BL (S l) x (nsize x)) as [q|] eqn:Eq; cbn [rbind] in H; [|easy].
      change (r0 <- push_tail_node B BL (S l) q tl ts ;;
        match r0 with
        | Some c =>
            cs' <- rtakeN (lenN cs) (cs ++ [x]) ;;
            sz' <- rtakeN (lenN cs) sz ;;
            Ok (Some (Inner (Some (sz' ++ [nsize (Inner (Some sz) (cs ++ [x])) + ts])) (cs' ++ [c])))
        | None =>
            if lenN cs + 1 <? width then
              cs' <- rtakeN (lenN cs + 1) (cs ++ [x]) ;;
              sz' <- rtakeN (lenN cs + 1) sz ;;
              Ok (Some (Inner (Some (sz' ++ [nsize (Inner (Some sz) (cs ++ [x])) + ts]))
                         (cs' ++ [make_path (S l) tl])))
            else Ok None
        end = Ok r) in H.
      destruct (push_tail_node B BL (S l) q tl ts) as [r0|] eqn:Er0; cbn [rbind] in H; [|easy].
      assert (match r0 with
              | Some c => spn (S l) c /\ (lead (S l) x -> lead (S l) c)
              | None => mid (S l) x end) as Hr0.
      { destruct x as [|[xsz|] xcs]; [easy| |].
        - unfold child_pos, maybe_relaxed in Eq. rewrite (rel_last _ _ _ _ _ Hwx) in Eq.
          cbn [rbind] in Eq. rewrite N.eqb_refl in Eq. injection Eq as <-.
          exact (IH _ xsz r0 Hwx eq_refl Er0 Hx).
        - unfold child_pos, maybe_relaxed in Eq. rewrite mk_sub_ok in Eq by auto. injection Eq as <-.
          destruct (push_regular_ok B BL l (PSub (Inner None xcs) (nsize (Inner None xcs))) (Inner None xcs) tl ts)
            as (n' & En' & Hrn & Hen & _); auto.
          { now constructor. }
          { pose proof (wf_size _ _ _ _ Hwx). lia. }
          rewrite Er0 in En'. injection En' as ->. split.
          + apply spn_nonrel. eapply reg_not_rel; eauto.
          + intros Hle. apply lead_reg; [auto|]. intros Hl0.
            pose proof (lead_size l _ Hwx eq_refl Hl0 Hle).
            unfold nsize in *. rewrite Hen, lenN_app. lia. }
      destruct r0 as [c|].
      * rewrite rtakeN_app in H by reflexivity. cbn [rbind] in H. rinv H. injection H as <-.
        destruct Hr0 as [H1 H2]. cbn [spn lead]. split; [now apply ends_snoc|].
        intros Hle y ys Ey. destruct cs as [|z cs]; injection Ey as <- _.
        -- apply H2. apply (Hle x []). reflexivity.
        -- eapply Hle. reflexivity.
      * destruct (N.ltb_spec (lenN cs + 1) width).
        -- eapply (Hnew (S l)); [|exact (path_spn (S l) tl Htl)|exact H]. apply Forall_app; auto.
        -- injection H as <-. cbn [mid]. apply Forall_app; auto.
Qed.

Lemma push_tail_strict l rt tl ts l' r :
  root_ok B BL l rt -> full O tl -> (is_rel rt = true -> ts = lwidth) ->
  push_tail B BL rt l (nsize rt) tl ts = Ok (l', r) ->
  spn (S l) rt -> lead (S l) rt -> spn (S l') r /\ lead (S l') r.
Proof.
  intros Hr Htl Hts H Hs Hle. unfold push_tail in H.
  destruct rt as [|[sz|] cs]; [easy| |].
  - assert (wf (S l) (Inner (Some sz) cs)) as Hw by (destruct Hr as [[? _]|]; easy).
    destruct (push_tail_node B BL (S l) (PRel (Inner (Some sz) cs) sz) tl ts) as [r0|] eqn:E;
      cbn [rbind] in H; [|easy].
    pose proof (push_rel_strict l _ sz tl ts r0 Hw eq_refl Htl (Hts eq_refl) E Hs) as Hp.
    destruct r0 as [n|].
    + injection H as <- <-. destruct Hp as [H1 H2]. auto.
    + destruct (_ && _) in H; [|easy]. injection H as <- <-. split.
      * apply (ends_snoc _ _ [_]); [constructor; auto|]. exact (path_spn (S l) tl Htl).
      * intros x y E'. injection E' as <- _. exact Hle.
  - rewrite shiftl_width in H.
    destruct (N.eqb_spec (nsize (Inner None cs)) (span (S l))) as [Ef|Ef].
    + injection H as <- <-. split; [exact I|]. right. intros x y E. injection E as <- _.
      apply reg_full; [|auto]. destruct Hr as [[E Hl]|Hw]; [|exact Hw].
      injection E as ->. rewrite nsize_empty_root in Ef. pose proof (span_pos B BL (S l)). lia.
    + destruct (N.ltb_spec 0 (nsize (Inner None cs))) as [Hp|Hp].
      * assert (wf (S l) (Inner None cs)) as Hw by now apply root_pos.
        rewrite mk_sub_ok in H by auto. cbn [rbind] in H.
        destruct (push_regular_ok B BL l (PSub (Inner None cs) (nsize (Inner None cs))) (Inner None cs) tl ts)
            as (n' & En' & Hrn & Hen & _); auto.
        { now constructor. }
        { pose proof (wf_size _ _ _ _ Hw). lia. }
        rewrite En' in H. cbn [rbind] in H. injection H as <- <-. split.
        -- apply spn_nonrel. eapply reg_not_rel; eauto.
        -- apply lead_reg; [auto|]. intros Hl0. pose proof (lead_size l _ Hw eq_refl Hl0 Hle).
           unfold nsize in *. rewrite Hen, lenN_app. lia.
      * injection H as <- <-. split; [exact (path_spn (S l) tl Htl)|].
        destruct Hr as [[_ ->]|Hw]; [now left|]. pose proof (wf_size _ _ _ _ Hw). lia.
Qed.

(** ** Updating *)

Lemma update_node_strict fn v p n idx i n' :
  pos_ok v p n -> addr B BL v p idx i -> i < nsize n ->
  update_node B BL v p idx fn = Ok n' ->
  (mid v n -> mid v n') /\ (spn v n -> spn v n') /\ (lead v n -> lead v n').
Proof.
  revert p n idx i n'. induction v as [|l IH]; intros p n idx i n' Hp Ha Hi H; [cbn; auto|].
  pose proof (pos_ok_wf _ _ _ _ _ Hp) as Hw.
  destruct (splitN i (elems n)) as (A & x & Z & E & HA); [exact Hi|].
  destruct (update_node_ok B BL fn (S l) p n idx i A x Z Hp Ha Hi E HA)
    as (n1 & E1 & Hel & Hw1 & Hr1 & Hk1 & Hf1 & Hg1).
  rewrite H in E1. injection E1 as <-.
  assert (nsize n' = nsize n) as Hsz by (unfold nsize; rewrite Hel, E, !lenN_app, !lenN_cons; reflexivity).
  destruct (is_rel n) eqn:Er.
  - destruct (towards_ok B BL l p n idx i Hp Ha Hi)
      as (a & c & b & j & Ek & Ei & Hj & Hwc & Hidx & (q & idx' & Et & Hq & Haq) & _).
    cbn [update_node] in H. rewrite Hidx in H. cbn [rbind] in H.
    rewrite (count_ok _ _ _ _ _ Hp) in H. cbn [rbind] in H.
    destruct n as [|[sz|] cs]; try discriminate Er. cbn [kids] in Ek.
    unfold pinner in H. rewrite (pos_ok_node _ _ _ _ _ Hp) in H. cbn [rbind inner_of ncount] in H.
    rewrite Et in H. cbn [rbind] in H.
    destruct (update_node B BL l q idx' fn) as [c'|] eqn:Ec; cbn [rbind] in H; [|easy].
    rewrite rtakeN_all in H by reflexivity. cbn [rbind] in H.
    destruct (IH q c idx' j c' Hq Haq Hj Ec) as (I1 & I2 & I3).
    injection H as <-. rewrite Ek, (updN_app a b c c' (lenN a) eq_refl).
    assert (exists z, match p with PRel _ sz0 => Some sz0 | _ => None end = Some z) as [z ->].
    { inversion Hp; subst; try discriminate; eauto. }
    cbn [mid spn lead]. split; [|split].
    + intros Hm. apply Forall_app in Hm as [Hm1 Hm2]. inversion Hm2; subst.
      apply Forall_app. split; auto.
    + intros Hs. eapply ends_set; eauto.
    + intros Hl y ys Ey. destruct a as [|d a]; injection Ey as <- _.
      * apply I3. eapply Hl. reflexivity.
      * eapply Hl. reflexivity.
  - assert (reg (S l) n') as Hrn by now apply wf_nonrel_reg.
    split; [|split].
    + intros Hm. destruct n as [|[] cs]; try discriminate Er; [easy|]. apply full_mid. now apply Hf1.
    + intros _. now apply spn_nonrel.
    + intros Hl. apply lead_reg; [auto|]. intros Hl0. rewrite Hsz. now apply lead_size.
Qed.

(** ** Slicing *)

Lemma slice_right_strict col v p n last i w r ts tl :
  pos_ok v p n -> addr B BL v p last i -> i < nsize n -> spn v n ->
  slice_right B BL col v p last = Ok (Some (w, r), ts, tl) ->
  spn w r /\ (col = true -> lead w r).
Proof.
  revert col p n last i w r ts tl.
  induction v as [|l IH]; intros col p n last i w r ts tl Hp Ha Hi Hs H.
  { cbn [slice_right] in H. rinv H. destruct (_ =? _) in H; [easy|]. rinv H. easy. }
  pose proof (pos_ok_wf _ _ _ _ _ Hp) as Hw.
  destruct (towards_ok B BL l p n last i Hp Ha Hi)
    as (a & c & b & j & Ek & Ei & Hj & Hwc & Hidx & (q & idx' & Et & Hq & Haq) & Hnr).
  destruct (QQ_full false l n a c b Hw Hs Ek) as (Hma & _ & Hsc & _).
  cbn [slice_right] in H. rewrite Hidx in H. cbn [rbind] in H. rewrite Et in H. cbn [rbind] in H.
  destruct (col && (lenN a =? 0)) eqn:Ecol.
  { destruct col; [|easy]. eapply (IH true); eauto. }
  destruct (slice_right_ok B BL false l q c idx' j HB1 Hq Haq Hj) as (nx & xs & Enx & _ & _ & Hnx).
  rewrite Enx in H. cbn [rbind] in H.
  unfold pinner in H. rewrite (pos_ok_node _ _ _ _ _ Hp) in H. cbn [rbind] in H.
  destruct (wf_inner _ _ _ _ Hw) as (rr & cs & ->). cbn [inner_of rbind kids] in *.
  assert (col = true -> a <> []) as Hane.
  { intros ->. intros ->. discriminate Ecol. }
  assert (col = true -> hdP (mid l) (a ++ c :: b)) as Hhd.
  { intros Hcol. specialize (Hane Hcol). intros y ys Ey. destruct a as [|d a]; [easy|].
    injection Ey as <- _. now inversion Hma. }
  assert (rtakeN (lenN a) cs = Ok a) as Ert by (rewrite Ek; now apply rtakeN_app).
  rewrite Ert in H. cbn [rbind] in H.
  assert (forall z, spn l z -> forall ki, ki = a \/ ki = a ++ [z] -> (col = true -> ki <> []) ->
    forall rs, (rs = None -> is_rel (Inner rr cs) = false) ->
    spn (S l) (Inner rs ki) /\ (col = true -> lead (S l) (Inner rs ki))) as Hfin.
  { intros z Hz ki Hki Hkn rs Hrs. split.
    - destruct rs as [s|]; [|exact I]. cbn [spn]. destruct Hki as [->| ->].
      + apply ends_all; [apply mid_spn|auto].
      + now apply ends_snoc.
    - intros Hcol. specialize (Hane Hcol). destruct a as [|d a]; [easy|].
      destruct rs as [s|]; cbn [lead].
      + intros y ys Ey. apply mid_lead. pose proof (Forall_inv Hma).
        destruct Hki as [->| ->]; injection Ey as <- _; auto.
      + right. intros y ys Ey. destruct (Hnr (Hrs eq_refl)) as (Hfa & _). pose proof (Forall_inv Hfa).
        destruct Hki as [->| ->]; injection Ey as <- _; auto. }
  assert (forall m sz, p = PRel m sz -> is_rel (Inner rr cs) = true) as Hrel.
  { intros m sz ->. inversion Hp; subst. reflexivity. }
  assert ((forall m sz, p <> PRel m sz) -> is_rel (Inner rr cs) = false) as Hnrel.
  { intros Hn. inversion Hp; subst; auto; [eapply full_not_rel; eauto|]. exfalso. eapply Hn. reflexivity. }
  destruct nx as [[w' c']|].
  - destruct Hnx as (_ & _ & Hw' & _). specialize (Hw' eq_refl). subst w'.
    destruct (IH false q c idx' j l c' (lenN xs) (Leaf xs) Hq Haq Hj Hsc Enx) as [Hc' _].
    assert (exists rs, (rs = None -> is_rel (Inner rr cs) = false) /\ w = S l /\ r = Inner rs (a ++ [c']))
      as (rs & Hrs & -> & ->).
    { destruct p; try (injection H as <- <- _ _; exists None; split; [intros; apply Hnrel; easy|auto]).
      rinv H. injection H as <- <- _ _. eexists. split; [|split; reflexivity]. easy. }
    apply (Hfin c' Hc' (a ++ [c'])); auto. intros _ E. now destruct a.
  - destruct (N.eqb_spec (lenN a) 0) as [Za|Za]; [easy|].
    destruct (col && (lenN a =? 1) && _) eqn:E1.
    + destruct (rnthN cs 0) as [z|] eqn:Ez; cbn [rbind] in H; [|easy]. injection H as <- <- _ _.
      destruct a as [|d a]; [easy|]. rewrite Ek in Ez. cbn in Ez. injection Ez as <-.
      inversion Hma; subst. split; [now apply mid_spn|intros _; now apply mid_lead].
    + assert (exists rs, (rs = None -> is_rel (Inner rr cs) = false) /\ w = S l /\ r = Inner rs a)
        as (rs & Hrs & -> & ->).
      { destruct p; try (injection H as <- <- _ _; exists None; split; [intros; apply Hnrel; easy|auto]).
        rinv H. injection H as <- <- _ _. eexists. split; [|split; reflexivity]. easy. }
      apply (Hfin c Hsc a); auto.
Qed.

Lemma slice_left_strict b col v p n first w r :
  pos_ok v p n -> is_sub p = true -> first < nsize n ->
  sh (pred v) < 32 -> nsize n <= 2 ^ 32 -> QQ b v n ->
  slice_left B BL col v p first = Ok (w, r) ->
  QQ b w r /\ (col = true -> lead w r).
Proof.
  revert b col p n first w r.
  induction v as [|l IH]; intros b col p n first w r Hp Hs Hi Hsh H32 Hq H.
  { cbn [slice_left] in H. rinv H. injection H as <- <-. split; [|easy]. apply mid_QQ. exact I. }
  pose proof (pos_ok_wf _ _ _ _ _ Hp) as Hw. cbn [pred] in Hsh.
  assert (first < csize (kids n)) as Hi'.
  { destruct (wf_inner _ _ _ _ Hw) as (rr & cs & ->). rewrite nsize_inner in Hi. exact Hi. }
  destruct (find_child (kids n) first Hi') as (a & c & d & j & Ek & -> & Hj).
  destruct (QQ_full b l n a c d Hw Hq Ek) as (_ & Hmc & Hqc & Hed).
  cbn [slice_left] in H. rewrite (subindex_ok B BL l p n a c d j Hp Hs Ek Hj) in H. cbn [rbind] in H.
  rewrite (count_ok _ _ _ _ _ Hp) in H. cbn [rbind] in H.
  rewrite (size_before_ok B BL l p n a c d Hp Hs Ek) in H. cbn [rbind] in H.
  rewrite (size_sbh_ok B BL l p n a c d Hp Hs Ek) in H. cbn [rbind] in H.
  destruct (towards_sub_ok B BL l p n a c d j Hp Hs Ek Hj Hsh H32) as (q & Et & Hpq & Hsq).
  rewrite Et in H. cbn [rbind] in H.
  destruct (wf_inner _ _ _ _ Hw) as (rr & cs & ->). cbn [kids ncount] in *.
  assert (nsize c <= 2 ^ 32) as H32c.
  { rewrite nsize_inner, Ek, map_app, sumN_app in H32. cbn [map] in H32. rewrite sumN_cons in H32. lia. }
  assert (sh (pred l) < 32) as Hshl.
  { destruct l; [exact Hsh|]. cbn [pred]. unfold Rrb.sh in *. lia. }
  assert (lenN cs = lenN a + 1 + lenN d) as Hlen by (rewrite Ek, lenN_app, lenN_cons; lia).
  destruct (col && _ && _) eqn:Ecol.
  { destruct col; [|easy]. eapply (IH b true); eauto. }
  destruct (slice_left_ok B BL false l q c j Hpq Hsq Hj Hshl H32c) as (w' & c' & Ec & _ & _ & _ & Hw' & _).
  specialize (Hw' eq_refl). subst w'. rewrite Ec in H. cbn [rbind] in H.
  unfold pinner in H. rewrite (pos_ok_node _ _ _ _ _ Hp) in H. cbn [rbind inner_of] in H.
  destruct (copy_sizes _ _ _ _ _ _ _) as [sz'|]; cbn [rbind] in H; [|easy].
  assert (rsliceN (lenN a + 1) (lenN cs) cs = Ok d) as Ersl.
  { rewrite Ek at 2. change (a ++ c :: d) with (a ++ [c] ++ d). rewrite app_assoc.
    apply rsliceN_app_r; [apply lenN_snoc|lia]. }
  rewrite Ersl in H. cbn [rbind] in H. injection H as <- <-.
  pose proof (fun b' Hb' => IH b' false q c j l c' Hpq Hsq Hj Hshl H32c Hb' Ec) as Hc'.
  split.
  - apply QQ_rel. destruct d as [|y d].
    + apply (ends_snoc _ _ []); [constructor|]. now apply Hc'.
    + apply (ends_app _ _ [c']); [intros; now apply mid_QQ| |auto].
      constructor; [|constructor]. apply (Hc' true). now apply Hmc.
  - intros ->. intros y ys Ey. injection Ey as <- _. destruct d as [|y d].
    + change (lenN (@nil (node T))) with 0 in Hlen.
      destruct l as [|l]; [exact I|]. cbn [andb] in Ecol.
      destruct (N.eqb_spec (lenN a + 1) (lenN cs)); [easy|lia].
    + apply mid_lead. apply (Hc' true). now apply Hmc.
Qed.

(** ** Trees *)

Definition strict (t : tree T) : Prop :=
  spn (S (lv t)) (root t) /\ lead (S (lv t)) (root t).

Lemma strict_empty_root sz x : strict (mkTree sz 0 (Inner None []) x).
Proof. split; [exact I|now left]. Qed.
Lemma strict_same sz sz' x x' l r : strict (mkTree sz l r x) -> strict (mkTree sz' l r x').
Proof. easy. Qed.

Lemma push_back_strict t x t' : inv t -> strict t -> push_back B BL t x = Ok t' -> strict t'.
Proof.
  intros Hi Hst H. pose proof Hi as (xs & Et & Hs & Hle & Hpos & Hr). destruct Hst as [H1 H2].
  unfold push_back in H. rewrite (tail_offset_ok B BL HB1 t Hi) in H. cbn [rbind] in H.
  replace (size t - nsize (root t)) with (lenN xs) in H by lia.
  destruct (N.ltb_spec (lenN xs) lwidth) as [Hlt|Hge].
  - rinv H. injection H as <-. split; auto.
  - destruct (push_tail B BL (root t) (lv t) (nsize (root t)) (tail t) (lenN xs)) as [[l r]|] eqn:E;
      cbn [rbind] in H; [|easy].
    injection H as <-. apply push_tail_strict in E; auto.
    + rewrite Et. cbn. lia.
    + lia.
Qed.

Lemma update_strict t fn i t' : inv t -> strict t -> update B BL t i fn = Ok t' -> strict t'.
Proof.
  intros Hi Hst H. pose proof Hi as (xs & Et & Hs & Hle & Hpos & Hr). destruct Hst as [H1 H2].
  unfold update in H. rewrite (tail_offset_ok B BL HB1 t Hi) in H. cbn [rbind] in H.
  destruct (N.leb_spec (nsize (root t)) i) as [Hlt|Hge].
  - rinv H. injection H as <-. split; auto.
  - assert (wf (S (lv t)) (root t)) as Hw by (eapply root_pos; eauto; lia).
    destruct (maybe_relaxed_ok B BL (lv t) (root t) Hw) as (q & Eq & Hq & _).
    rewrite Eq in H. cbn [rbind] in H.
    destruct (update_node B BL (S (lv t)) q i fn) as [r|] eqn:E; cbn [rbind] in H; [|easy].
    injection H as <-.
    eapply update_node_strict in E; [|exact Hq|eapply addr_refl; eauto|auto].
    destruct E as (_ & E1 & E2). split; auto.
Qed.

Lemma take_strict t n t' : inv t -> strict t -> take B BL t n = Ok t' -> strict t'.
Proof.
  intros Hi Hst H. pose proof Hi as (xs & Et & Hs & Hle & Hpos & Hr). destruct Hst as [H1 H2].
  unfold take in H. rewrite (tail_offset_ok B BL HB1 t Hi) in H. cbn [rbind] in H.
  destruct (N.eqb_spec n 0) as [->|Hn].
  { injection H as <-. apply strict_empty_root. }
  destruct (N.leb_spec (size t) n) as [H0|H0].
  { injection H as <-. split; auto. }
  destruct (N.ltb_spec (nsize (root t)) n) as [H3|H3].
  - rinv H. injection H as <-. split; auto.
  - assert (wf (S (lv t)) (root t)) as Hw by (eapply root_pos; eauto; lia).
    destruct (maybe_relaxed_ok B BL (lv t) (root t) Hw) as (q & Eq & Hq & _).
    rewrite Eq in H. cbn [rbind] in H.
    destruct (slice_right B BL true (S (lv t)) q (n - 1)) as [[[nr ts] tl]|] eqn:E; cbn [rbind] in H; [|easy].
    destruct nr as [[[|w] r]|]; [easy| |].
    + injection H as <-.
      eapply slice_right_strict in E; [|exact Hq|eapply addr_refl; eauto; lia|lia|auto].
      destruct E as [E1 E2]. split; auto.
    + injection H as <-. apply strict_empty_root.
Qed.

Lemma drop_strict t n t' : inv t -> small B BL t -> strict t -> drop B BL t n = Ok t' -> strict t'.
Proof.
  intros Hi Hsm Hst H. pose proof Hi as (xs & Et & Hs & Hle & Hpos & Hr). destruct Hst as [H1 H2].
  destruct (small_root B BL HB t Hi Hsm) as [Hsh H32].
  unfold drop in H. destruct (n =? 0).
  { injection H as <-. split; auto. }
  destruct (N.leb_spec (size t) n) as [H0|H0].
  { injection H as <-. apply strict_empty_root. }
  rewrite (tail_offset_ok B BL HB1 t Hi) in H. cbn [rbind] in H.
  destruct (N.eqb_spec n (nsize (root t))) as [->|Hne].
  { injection H as <-. apply strict_empty_root. }
  destruct (N.ltb_spec (nsize (root t)) n) as [H3|H3].
  - rinv H. injection H as <-. apply strict_empty_root.
  - assert (wf (S (lv t)) (root t)) as Hw by (eapply root_pos; eauto; lia).
    destruct (maybe_relaxed_ok B BL (lv t) (root t) Hw) as (q & Eq & Hq & Hsq).
    rewrite Eq in H. cbn [rbind] in H.
    destruct (slice_left B BL true (S (lv t)) q n) as [[[|h] r]|] eqn:E; cbn [rbind] in H; [easy| |easy].
    injection H as <-.
    eapply (slice_left_strict false) in E; [|exact Hq|auto|lia|auto|auto|auto].
    destruct E as [E1 E2]. split; auto.
Qed.

Lemma concat_strict t u t' : inv t -> inv u -> small B BL u -> strict t -> strict u ->
  concat B BL t u = Ok t' -> strict t'.
Proof.
  intros Ht Hu Hsm [T1 T2] [U1 U2] H.
  destruct (small_root B BL HB u Hu Hsm) as [Hsh H32].
  pose proof (tail_offset_ok B BL HB1 t Ht) as Eto. pose proof (tail_offset_ok B BL HB1 u Hu) as Euo.
  unfold concat in H.
  destruct (N.eqb_spec (size t) 0) as [Zt|Zt]; [injection H as <-; split; auto|].
  destruct (N.eqb_spec (size u) 0) as [Zu|Zu]; [injection H as <-; split; auto|].
  rewrite Euo in H. cbn [rbind] in H. rewrite Eto in H. cbn [rbind] in H.
  pose proof Ht as (xs & Et & Hts & Htle & Htpos & Htr). fold (root_ok B BL (lv t) (root t)) in Htr.
  pose proof Hu as (ys & Eu & Hus & Hule & Hupos & Hur). fold (root_ok B BL (lv u) (root u)) in Hur.
  replace (size t - nsize (root t)) with (lenN xs) in H by lia.
  destruct (N.eqb_spec (nsize (root u)) 0) as [Zuo|Zuo].
  - destruct (N.eqb_spec (lenN xs) lwidth) as [Fx|Fx].
    + destruct (push_tail B BL (root t) (lv t) (nsize (root t)) (tail t) (lenN xs)) as [[l r]|] eqn:E;
        cbn [rbind] in H; [|easy].
      injection H as <-. apply push_tail_strict in E; auto. rewrite Et. exact Fx.
    + destruct (lenN xs + size u <=? lwidth) eqn:Hfit.
      * rinv H. injection H as <-. split; auto.
      * apply N.leb_gt in Hfit.
        unfold copy_leaf2 in H. rewrite Et, Eu in H. cbn [leaf_of rbind] in H.
        rewrite rtakeN_all in H by reflexivity. cbn [rbind] in H.
        rewrite rtakeN_ok in H by lia. cbn [rbind] in H.
        destruct (copy_leaf_range _ _ _) as [nt|]; cbn [rbind] in H; [|easy].
        destruct (push_tail B BL (root t) (lv t) (nsize (root t))
                    (Leaf (xs ++ takeN (lwidth - lenN xs) ys)) lwidth) as [[l r]|] eqn:E;
          cbn [rbind] in H; [|easy].
        injection H as <-. apply push_tail_strict in E; auto.
        cbn. rewrite lenN_app, lenN_takeN. lia.
  - assert (wf (S (lv u)) (root u)) as Hwu by (eapply root_pos; eauto; lia).
    destruct (N.eqb_spec (nsize (root t)) 0) as [Zto|Zto].
    + destruct (concat_trees B BL (PSingle (tail t) (lenN xs)) 1 PNone (root u) (S (lv u)) (nsize (root u)))
        as [[[|h] r]|] eqn:E; cbn [rbind] in H; [easy| |easy].
      injection H as <-.
      eapply (concat_trees_strict _ O PNone xs [] (root u) (lv u) (S h) r) in E; auto.
      * left. rewrite Et. split; [reflexivity|]. split; [reflexivity|]. lia.
      * now left.
      * exact I.
    + assert (wf (S (lv t)) (root t)) as Hwt by (eapply root_pos; eauto; lia).
      destruct (maybe_relaxed_ok B BL (lv t) (root t) Hwt) as (q & Eq & Hq & Hsq). rewrite Eq in H.
      cbn [rbind] in H. unfold mk_reg in H. destruct (N.eqb_spec (lenN xs) 0); [lia|]. cbn [rbind] in H.
      destruct (concat_trees B BL q (S (lv t)) (PReg (tail t) (lenN xs)) (root u) (S (lv u)) (nsize (root u)))
        as [[[|h] r]|] eqn:E; cbn [rbind] in H; [easy| |easy].
      injection H as <-.
      eapply (concat_trees_strict q (lv t) _ (elems (root t)) xs (root u) (lv u) (S h) r) in E; auto.
      * right. exists (root t). split; [auto|]. split; [auto|]. split; [|reflexivity].
        apply (child_not_full B BL (S (lv t)) (root t) (nsize (root t))). exact Eq.
      * right. rewrite Et. split; [reflexivity|]. lia.
      * eapply pos_lps; eauto.
Qed.

Lemma vinv_strict t : RrbInv.vinv B BL t -> strict t.
Proof.
  intros (Hi & Hr & Hl). split; [now apply spn_nonrel|].
  destruct Hi as (xs & _ & _ & _ & _ & [[-> ->]|Hw]); [now left|].
  destruct (root t) as [|[] cs]; [easy..|]. cbn [lead kids] in *.
  destruct Hl as [->|Hl]; [now left|]. right. destruct Hw as (init & la & -> & Hf & _).
  intros x r E. destruct init as [|y init].
  - cbn in Hl. lia.
  - injection E as <- _. now inversion Hf.
Qed.

(** The property holds of every flex_vector in reach. *)
Lemma built_strict t xs : built B BL t xs -> strict t.
Proof.
  pose proof (built_inv (T := T) B BL HB) as BI.
  assert (strict empty) as He by apply strict_empty_root.
  induction 1 as [|t xs H|t xs x t' H IH E|t xs x t' H IH Hs E|t xs i f t' H IH Hi E
    |t xs i x t' H IH Hi E|t xs n t' H IH E|t xs n t' H IH Hs E
    |t xs u ys t' H IH H' IH' Hs E|t xs i x t' H IH Hs E
    |t xs i u ys t' H IH Hs H' IH' Hs' E|t xs i t' H IH Hs E
    |t xs i j t' H IH Hs Hij E].
  - exact He.
  - apply vinv_strict. now apply (vbuilt_inv B BL HB1 t xs).
  - eapply push_back_strict; eauto. now apply (BI t xs).
  - unfold push_front in E. rinv E. pose proof (inv_empty (T := T) B BL HB1) as Hie.
    destruct (push_back_ok B BL HB1 empty x Hie) as (v & Ev & Hv & _). rewrite E0 in Ev. injection Ev as <-.
    eapply concat_strict; [exact Hv|exact (proj1 (BI t xs H))|exact Hs| |exact IH|exact E].
    now apply (push_back_strict empty x).
  - eapply update_strict; eauto. now apply (BI t xs).
  - unfold assoc in E. eapply update_strict; eauto. now apply (BI t xs).
  - eapply take_strict; eauto. now apply (BI t xs).
  - eapply drop_strict; eauto. now apply (BI t xs).
  - destruct (BI t xs H) as [Hi _]. destruct (BI u ys H') as [Hu _]. now apply (concat_strict t u).
  - destruct (BI t xs H) as [Hi _]. unfold insert in E.
    destruct (take_spec B BL HB t i Hi) as (a & Ea & Ha & _).
    destruct (push_back_ok B BL HB1 a x Ha) as (b & Eb & Hb & _).
    destruct (drop_spec B BL HB t i Hi Hs) as (c & Ec & Hc & _ & Hsc).
    rewrite Ea in E. cbn [rbind] in E. rewrite Eb in E. cbn [rbind] in E. rewrite Ec in E. cbn [rbind] in E.
    assert (strict a) by (now apply (take_strict t i)). assert (strict b) by (now apply (push_back_strict a x)).
    assert (strict c) by (now apply (drop_strict t i)). now apply (concat_strict b c).
  - destruct (BI t xs H) as [Hi _]. destruct (BI u ys H') as [Hu _]. unfold insert_vec in E.
    destruct (take_spec B BL HB t i Hi) as (a & Ea & Ha & _).
    destruct (concat_spec B BL HB a u Ha Hu Hs') as (b & Eb & Hb & _).
    destruct (drop_spec B BL HB t i Hi Hs) as (c & Ec & Hc & _ & Hsc).
    rewrite Ea in E. cbn [rbind] in E. rewrite Eb in E. cbn [rbind] in E. rewrite Ec in E. cbn [rbind] in E.
    assert (strict a) by (now apply (take_strict t i)). assert (strict b) by (now apply (concat_strict a u)).
    assert (strict c) by (now apply (drop_strict t i)). now apply (concat_strict b c).
  - destruct (BI t xs H) as [Hi _]. unfold erase in E.
    destruct (take_spec B BL HB t i Hi) as (a & Ea & Ha & _).
    destruct (drop_spec B BL HB t (i + 1) Hi Hs) as (c & Ec & Hc & _ & Hsc).
    rewrite Ea in E. cbn [rbind] in E. rewrite Ec in E. cbn [rbind] in E.
    assert (strict a) by (now apply (take_strict t i)).
    assert (strict c) by (now apply (drop_strict t (i + 1))). now apply (concat_strict a c).
  - destruct (BI t xs H) as [Hi _]. unfold erase_range in E. destruct (i <? j); [|injection E as <-; auto].
    destruct (take_spec B BL HB t i Hi) as (a & Ea & Ha & _).
    destruct (drop_spec B BL HB t j Hi Hs) as (c & Ec & Hc & _ & Hsc).
    rewrite Ea in E. cbn [rbind] in E. rewrite Ec in E. cbn [rbind] in E.
    assert (strict a) by (now apply (take_strict t i)).
    assert (strict c) by (now apply (drop_strict t j)). now apply (concat_strict a c).
Qed.

End Strict.
