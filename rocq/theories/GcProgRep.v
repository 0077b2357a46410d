(** Blocks that nobody may overwrite any more, and the blocks of other variables, for programs
    over flex_vectors under garbage collection. *)
From Coq Require Import List NArith Arith Bool Lia.
From Verif Require Import Common NList Rrb RrbInv GcConcat GcVec GcRep GcVisit GcTree GcVecTree GcVecTok.
Import ListNotations.
Local Open Scope N_scope.

Set Default Goal Selector "!".

Section ProgRep.
Variables B BL : N.
Context {T : Type}.
Notation heap := (gheap T).

Definition owner (h : heap) (a : nat) : option token := match nth_error h a with Some c => g_own c | None => None end.

(** ** Fewer tokens *)
Section Less.
Variables mine mine' : token -> bool.
Hypothesis Hless : forall k, mine' k = true -> mine k = true.
Definition kept (h : heap) (F : list nat) : list nat := filter (fun a => ow mine' (owner h a)) F.
Lemma ow_less o : ow mine' o = true -> ow mine o = true.
Proof. destruct o; cbn; auto. Qed.
Lemma kept_own1 h a o b : at_ h a o b -> kept h (own1 mine o a) = own1 mine' o a.
Proof.
  intros Ha. unfold own1, kept. destruct (ow mine o) eqn:E.
  - cbn. unfold owner. rewrite Ha. cbn. reflexivity.
  - destruct (ow mine' o) eqn:E'; [|reflexivity]. apply ow_less in E'. congruence.
Qed.
Lemma kept_app h a b : kept h (a ++ b) = kept h a ++ kept h b.
Proof. apply filter_app. Qed.
Lemma trep_less h r sz F : trep B mine h r sz F -> trep B mine' h r sz (kept h F).
Proof.
  destruct r as [r|], sz as [sz|]; cbn; try easy; [|now intros ->].
  intros (o & sl & Ha & Hp & Hl & ->). exists o, sl. split; [auto|]. split; [auto|]. split; [intros Ho; apply Hl; now apply ow_less|].
  eapply kept_own1; eauto.
Qed.
Lemma rep_less h v : forall a (n : node T) F, rep B BL mine h v a n F -> rep B BL mine' h v a n (kept h F).
Proof.
  induction v as [|l IH]; intros a n F H; destruct n as [xs|sz ns]; cbn [rep] in H |- *; try easy.
  - destruct H as (o & sl & Ha & Hp & Hl & ->). exists o, sl. split; [auto|]. split; [auto|].
    split; [intros Ho; apply Hl; now apply ow_less|]. eapply kept_own1; eauto.
  - destruct H as (o & r & ks & cs & Fr & Fs & Ha & Hp & Hl & Ht & Hk & ->).
    exists o, r, ks, cs, (kept h Fr), (map (kept h) Fs). split; [auto|]. split; [auto|].
    split; [intros Ho; apply Hl; now apply ow_less|]. split; [now apply trep_less|]. split.
    + clear - IH Hk. induction Hk; cbn; constructor; auto.
    + rewrite !kept_app. f_equal; [eapply kept_own1; eauto|]. f_equal.
      clear. induction Fs as [|F Fs IH]; [reflexivity|]. cbn [List.concat map]. rewrite kept_app. congruence.
Qed.
Lemma gtrep_less h x (t : tree T) F : gtrep B BL mine h x t F -> gtrep B BL mine' h x t (kept h F).
Proof.
  intros (E1 & E2 & Fr & Ft & X1 & X2 & ->). split; [auto|]. split; [auto|]. exists (kept h Fr), (kept h Ft).
  split; [now apply rep_less|]. split; [now apply rep_less|apply kept_app].
Qed.
Lemma kept_none h F : (forall a, In a F -> ow mine' (owner h a) = false) -> kept h F = [].
Proof.
  unfold kept. induction F as [|a F IH]; intros H; cbn; [reflexivity|]. rewrite (H a) by now left.
  apply IH. intros b Hb. apply H. now right.
Qed.
Lemma kept_all h F : (forall a, In a F -> ow mine' (owner h a) = true) -> kept h F = F.
Proof.
  unfold kept. induction F as [|a F IH]; intros H; cbn; [reflexivity|]. rewrite (H a) by now left.
  f_equal. apply IH. intros b Hb. apply H. now right.
Qed.
End Less.

(** ** What an operation does to the memory as a whole *)
(** The blocks that are not in [F]. *)
Definition others (h : heap) (F : list nat) : list nat :=
  filter (fun a => if in_dec Nat.eq_dec a F then false else true) (seq 0 (length h)).
Lemma others_in h F a : In a (others h F) <-> (a < length h)%nat /\ ~ In a F.
Proof.
  unfold others. rewrite filter_In, in_seq. destruct (in_dec Nat.eq_dec a F); intuition (try easy; lia).
Qed.
Lemma others_sep h F : NoDup F -> (forall a, In a F -> (a < length h)%nat) -> sep (length h) (F ++ others h F).
Proof.
  intros Hn Hl. apply NoDup_sep.
  - apply (NoDup_count_occ Nat.eq_dec). intros a. rewrite count_occ_app.
    assert (NoDup (others h F)) as Ho by apply NoDup_filter, seq_NoDup.
    pose proof (proj1 (NoDup_count_occ Nat.eq_dec F) Hn a). pose proof (proj1 (NoDup_count_occ Nat.eq_dec _) Ho a).
    destruct (in_dec Nat.eq_dec a F) as [Hi|Hi].
    + assert (count_occ Nat.eq_dec (others h F) a = 0%nat) by (apply count_occ_not_In; rewrite others_in; tauto). lia.
    + apply (count_occ_not_In Nat.eq_dec) in Hi. lia.
  - intros a Ha. apply in_app_or in Ha as [Ha|Ha]; [auto|]. now apply others_in in Ha.
Qed.
Variable mine : token -> bool.
Lemma gtrep_owned h x (t : tree T) F : gtrep B BL mine h x t F -> forall a, In a F -> owned mine h a.
Proof.
  intros (_ & _ & Fr & Ft & X1 & X2 & ->) a Ha. apply in_app_or in Ha as [Ha|Ha].
  - exact (rep_owned B BL mine h _ _ _ _ X1 a Ha).
  - exact (rep_owned B BL mine h _ _ _ _ X2 a Ha).
Qed.
Lemma gtrep_only h h' x (t : tree T) F0 F : gtrep B BL mine h x t F ->
  (length h <= length h')%nat ->
  (forall a c, nth_error h a = Some c -> ~ In a F0 -> nth_error h' a = Some c) ->
  (forall a, In a F0 -> owned mine h a) ->
  (forall a, In a F0 -> ~ In a F) -> gtrep B BL mine h' x t F.
Proof.
  intros (E1 & E2 & Fr & Ft & X1 & X2 & ->) Hl Hc Ho Hd.
  assert (chg mine h h' F0) as C.
  { split; [auto|]. split; [auto|]. intros a c Ha Hi. destruct (Ho a Hi) as (c' & Ec & Hw). congruence. }
  split; [auto|]. split; [auto|]. exists Fr, Ft. split; [|split; [|reflexivity]].
  - eapply rep_chg; [exact C|exact X1|]. intros a Ha Hi. apply (Hd a Hi), in_or_app. auto.
  - eapply rep_chg; [exact C|exact X2|]. intros a Ha Hi. apply (Hd a Hi), in_or_app. auto.
Qed.

(** Of an operation with the blocks [F0], after which the result may be overwritten by blocks of
    [F0] and by new ones, all of which have the tokens they had or those of [E]. *)
Lemma tpost_all E h h' z (t : tree T) F0 :
  tpost B BL mine h h' z t (others h F0) -> toks E h h' ->
  exists F, gtrep B BL mine h' z t F /\ NoDup F /\ (length h <= length h')%nat /\
    (forall a, In a F -> In a F0 \/ (length h <= a)%nat) /\
    (forall a c, nth_error h a = Some c -> ~ In a F0 -> nth_error h' a = Some c) /\
    (forall a, In a F -> exists k, owner h' a = Some k /\ mine k = true /\ (In k E \/ In a F0 /\ owner h a = Some k)).
Proof.
  intros (F & HF & HS & HR) (Ht1 & Ht2). exists F.
  assert (forall a, In a F -> In a F0 \/ (length h <= a)%nat) as Hin.
  { intros a Ha. destruct (in_dec Nat.eq_dec a F0) as [|Hn]; [auto|]. right.
    destruct (Nat.leb_spec (length h) a); [auto|]. exfalso.
    eapply (sep_dis (length h') F (others h F0)); [exact HS| |exact Ha|rewrite others_in; auto]. intros x. rewrite occ_app. lia. }
  assert (forall a c, nth_error h a = Some c -> ~ In a F0 -> nth_error h' a = Some c) as Hk.
  { intros a c Ha Hn. destruct c as [o b].
    assert (a < length h)%nat by (apply nth_error_Some; congruence).
    eapply (still_at mine h h' (others h F0) a o b); [exact HR|exact Ha|].
    intros x Hx. unfold own1 in Hx. destruct (ow mine o); [|easy]. destruct Hx as [<-|[]]. apply others_in. auto. }
  split; [exact HF|]. split.
  { apply (sep_NoDup (length h')). intros x. specialize (HS x). rewrite occ_app in HS. lia. }
  split; [exact Ht1|]. split; [exact Hin|]. split; [exact Hk|].
  intros a Ha. destruct (gtrep_owned _ _ _ _ HF a Ha) as (c & Ec & Hw). unfold owner. rewrite Ec.
  destruct (g_own c) as [k|] eqn:Eo; [|easy]. exists k. split; [auto|]. split; [exact Hw|].
  destruct (Ht2 a c Ec) as [Ho|(c0 & E0 & O0)].
  - left. rewrite Eo in Ho. exact Ho.
  - right. rewrite E0. split; [|congruence]. destruct (Hin a Ha) as [|L]; [auto|]. apply nth_error_None in L. congruence.
Qed.
End ProgRep.
