(** Programs whose variables hold references to counted memory: what the variables stand for
    and the references they hold, for any kind of variable. *)
From Coq Require Import List Arith Bool Lia.
From Verif Require Import Common AtomProofs RcHeap RcProofs.
Import ListNotations.
Set Default Goal Selector "!".

Section Vars.
Context {C X Y : Type}.
Notation heap := (heap C).
(** The references a variable holds, the variable without any, and what a variable stands
    for in a memory. *)
Variable ptr : X -> list nat.
Variables (none : X) (anone : Y).
Variable rel : heap -> X -> Y -> Prop.
Hypothesis ptr_none : ptr none = [].
Hypothesis rel_none : forall h, rel h none anone.
Hypothesis rel_frame1 : forall P h h' x y, frame [] P h h' -> (forall a, In a (ptr x) -> P a) ->
  rel h x y -> rel h' x y.

Definition roots (l : list X) : list nat := flat_map ptr l.
(** The references without those of variable [i]. *)
Definition rest (i : nat) (l : list X) : list nat := roots (update_at i none l).
Lemma roots_upd l : forall i x y a, nth_error l i = Some x ->
  occ a (roots (update_at i y l)) + occ a (ptr x) = occ a (roots l) + occ a (ptr y).
Proof.
  induction l as [|z l IH]; intros [|i] x y a H; cbn in *; try discriminate;
    rewrite ?occ_app.
  - injection H as ->. lia.
  - specialize (IH _ _ y a H). unfold roots in IH. lia.
Qed.
Lemma roots_app l x : roots (l ++ [x]) = roots l ++ ptr x.
Proof. unfold roots. rewrite flat_map_app. cbn. now rewrite app_nil_r. Qed.
Lemma roots_rest l i x : nth_error l i = Some x -> forall a,
  occ a (roots l) = occ a (ptr x) + occ a (rest i l).
Proof.
  intros H a. pose proof (roots_upd l i x none a H) as E. rewrite ptr_none in E. cbn [occ] in E.
  unfold rest. lia.
Qed.
Lemma rest_roots l i x y : nth_error l i = Some x -> forall a,
  occ a (roots (update_at i y l)) = occ a (ptr y) + occ a (rest i l).
Proof.
  intros H a. pose proof (roots_upd l i x none a H) as E1. pose proof (roots_upd l i x y a H) as E2.
  rewrite ptr_none in E1. cbn [occ] in E1. unfold rest. lia.
Qed.
Lemma rel_upd (P : X -> Y -> Prop) l s x y : P x y -> Forall2 P l s -> forall i,
  Forall2 P (update_at i x l) (update_at i y s).
Proof.
  intros Hx H. induction H as [|a b l s Ha Hl IH]; intros [|i]; cbn; constructor; auto.
Qed.
Lemma rel_frame h h' P l s : frame [] P h h' -> (forall a, In a (roots l) -> P a) ->
  Forall2 (rel h) l s -> Forall2 (rel h') l s.
Proof.
  intros F HP H. induction H as [|x y l s Hx _ IH]; constructor.
  - eapply rel_frame1; [exact F| |exact Hx]. intros a Ha. apply HP. cbn. apply in_or_app. now left.
  - apply IH. intros a Ha. apply HP. cbn. apply in_or_app. now right.
Qed.
Lemma rel_app (P : X -> Y -> Prop) l s x y : Forall2 P l s -> P x y ->
  Forall2 P (l ++ [x]) (s ++ [y]).
Proof. intros H Hx. apply Forall2_app; [exact H|]. now repeat constructor. Qed.
Lemma rel_nth (P : X -> Y -> Prop) l s i : Forall2 P l s -> P none anone -> P (nth i l none) (nth i s anone).
Proof. intros H H0. revert i. induction H; intros [|i]; cbn; auto. Qed.
Lemma at_nth (l : list X) i x : nth i l none = x -> x <> none -> nth_error l i = Some x.
Proof.
  revert i. induction l as [|y l IH]; intros [|i] E H; cbn in *; try congruence. now apply IH.
Qed.

(** Memory holds references of its own ([base], with what they stand for) and those of the
    variables. *)
Variable base : list nat.
Variable bases : list (rtree C).
Record vinv (l : list X) (s : list Y) (h : heap) : Prop := VInv {
  v_st : st [] h (base ++ roots l);
  v_base : Forall2 (srep [] h) base bases;
  v_rel : Forall2 (rel h) l s
}.

Lemma base_frame h h' P : frame [] P h h' -> (forall a, In a base -> P a) ->
  Forall2 (srep [] h) base bases -> Forall2 (srep [] h') base bases.
Proof. intros. eapply frame_reps; eauto. Qed.

(** A new variable. *)
Lemma vinv_add l s h h' x y : vinv l s h -> frame [] (fun a => In a (base ++ roots l)) h h' ->
  st [] h' (ptr x ++ base ++ roots l) -> rel h' x y -> vinv (l ++ [x]) (s ++ [y]) h'.
Proof.
  intros [T Hb H] F T' Hx. split.
  - rewrite roots_app. eapply st_eqv; [|exact T']. intros a. rewrite !occ_app. lia.
  - eapply base_frame; [exact F| |exact Hb]. intros a Ha. apply in_or_app. now left.
  - apply rel_app; [|exact Hx]. eapply rel_frame; [exact F| |exact H].
    intros a Ha. apply in_or_app. now right.
Qed.
(** The references of variable [i] set apart. *)
Lemma vinv_take l s h i x : vinv l s h -> nth_error l i = Some x ->
  st [] h (ptr x ++ base ++ rest i l).
Proof.
  intros [T _ _] E. eapply st_eqv; [|exact T]. intros a. rewrite !occ_app, (roots_rest _ _ _ E). lia.
Qed.
(** Variable [i] gets a new value. *)
Lemma vinv_set l s h h' i x0 x y : vinv l s h -> nth_error l i = Some x0 ->
  frame [] (fun a => In a (base ++ rest i l)) h h' ->
  st [] h' (ptr x ++ base ++ rest i l) -> rel h' x y -> vinv (update_at i x l) (update_at i y s) h'.
Proof.
  intros [T Hb H] E F T' Hx. split.
  - eapply st_eqv; [|exact T']. intros a. rewrite !occ_app, (rest_roots _ _ _ x E). lia.
  - eapply base_frame; [exact F| |exact Hb]. intros a Ha. apply in_or_app. now left.
  - assert (Forall2 (rel h') (update_at i none l) (update_at i anone s)) as H1.
    { eapply rel_frame; [exact F|intros a Ha; apply in_or_app; now right|].
      apply rel_upd; [apply rel_none|exact H]. }
    apply (rel_upd _ _ _ _ _ Hx) with (i := i) in H1. now rewrite !upd_upd in H1.
Qed.
(** The references of two variables set apart, and new values for both. *)
Definition rest2 (i j : nat) (l : list X) : list nat := rest i (update_at j none l).
Lemma roots_rest2 l i j x y : i <> j -> nth_error l i = Some x -> nth_error l j = Some y -> forall a,
  occ a (roots l) = occ a (ptr x) + occ a (ptr y) + occ a (rest2 i j l).
Proof.
  intros Hn Ei Ej a. assert (nth_error (update_at j none l) i = Some x) as E by (rewrite nth_upd; auto).
  pose proof (roots_rest _ _ _ Ej a) as E1. pose proof (roots_rest _ _ _ E a) as E2. fold (rest j l) in E2.
  unfold rest2. lia.
Qed.
Lemma vinv_take2 l s h i j x y : vinv l s h -> i <> j -> nth_error l i = Some x -> nth_error l j = Some y ->
  st [] h (ptr x ++ ptr y ++ base ++ rest2 i j l).
Proof.
  intros [T _ _] Hn Ei Ej. eapply st_eqv; [|exact T]. intros a. rewrite !occ_app, (roots_rest2 _ _ _ _ _ Hn Ei Ej). lia.
Qed.
Lemma vinv_set2 l s h h' i j x0 y0 x y ax ay : vinv l s h -> i <> j -> nth_error l i = Some x0 -> nth_error l j = Some y0 ->
  frame [] (fun a => In a (base ++ rest2 i j l)) h h' ->
  st [] h' (ptr x ++ ptr y ++ base ++ rest2 i j l) -> rel h' x ax -> rel h' y ay ->
  vinv (update_at i x (update_at j y l)) (update_at i ax (update_at j ay s)) h'.
Proof.
  intros [T Hb H] Hn Ei Ej F T' Hx Hy.
  assert (forall z, nth_error (update_at j z l) i = Some x0) as Eu by (intros z; rewrite nth_upd; auto).
  split.
  - eapply st_eqv; [|exact T']. intros a. rewrite !occ_app.
    pose proof (roots_upd _ i _ x a (Eu y)) as E1. pose proof (roots_upd _ j _ y a Ej) as E2.
    pose proof (roots_rest2 _ _ _ _ _ Hn Ei Ej a) as E3. lia.
  - eapply base_frame; [exact F| |exact Hb]. intros a Ha. apply in_or_app. now left.
  - assert (Forall2 (rel h') (update_at i none (update_at j none l)) (update_at i anone (update_at j anone s))) as H1.
    { eapply rel_frame; [exact F|intros a Ha; apply in_or_app; now right|].
      apply rel_upd; [apply rel_none|]. apply rel_upd; [apply rel_none|exact H]. }
    apply (rel_upd _ _ _ _ _ Hy) with (i := j) in H1. apply (rel_upd _ _ _ _ _ Hx) with (i := i) in H1.
    rewrite !(upd_comm _ j i) in H1 by auto. now rewrite !upd_upd in H1.
Qed.
(** Two variables swap values. *)
Lemma vinv_swap l s h i j x y x' y' : vinv l s h -> nth_error l i = Some x -> nth_error l j = Some y ->
  rel h x x' -> rel h y y' ->
  vinv (update_at i y (update_at j x l)) (update_at i y' (update_at j x' s)) h.
Proof.
  intros [T Hb H] Ei Ej Hx Hy. split; [|exact Hb|].
  - eapply st_eqv; [|exact T]. intros a. rewrite !occ_app. f_equal.
    pose proof (roots_upd l j _ x a Ej) as E1.
    destruct (Nat.eq_dec i j) as [->|Hne].
    + rewrite upd_upd. pose proof (roots_upd l j _ y a Ej) as E2.
      rewrite Ei in Ej. injection Ej as ->. lia.
    + assert (nth_error (update_at j x l) i = Some x) as E3 by (rewrite nth_upd; auto).
      pose proof (roots_upd _ i _ y a E3) as E2. lia.
  - apply rel_upd; [exact Hy|]. now apply rel_upd.
Qed.

(** *** Counts *)
(** The count of a block is the number of references to it: from outside, from variables and
    from blocks. *)
Lemma vinv_count l s h a c : vinv l s h -> nth_error h a = Some (Some c) ->
  c_rc c = count_occ Nat.eq_dec base a + count_occ Nat.eq_dec (flat_map ptr l) a +
           count_occ Nat.eq_dec (flat_map (fun o => match o with Some d => c_kids d | None => [] end) h) a /\
  0 < c_rc c.
Proof.
  intros [((G1 & _) & _) _ _] Hc. cbn [wipe] in G1. pose proof (G1 a) as Ha. rewrite Hc in Ha.
  destruct Ha as [Ha Hp]. split; [|exact Hp]. rewrite Ha. unfold refs. rewrite occ_app.
  assert (Eo : forall l, occ a l = count_occ Nat.eq_dec l a).
  { clear. induction l as [|x l IH]; cbn; [reflexivity|]. destruct (Nat.eq_dec x a) as [->|Hn].
    - rewrite Nat.eqb_refl. cbn. now rewrite IH.
    - apply Nat.eqb_neq in Hn. rewrite Hn. cbn. exact IH. }
  rewrite <- !Eo. unfold roots. f_equal. clear. induction h as [|o h IH]; cbn; [reflexivity|].
  rewrite occ_app, <- IH. destruct o; reflexivity.
Qed.
(** Every block can be reached from a reference held outside. *)
Lemma vinv_reach l s h a c : vinv l s h -> nth_error h a = Some (Some c) ->
  exists r, In r (base ++ flat_map ptr l) /\ reaches h r a.
Proof. intros [(G & _) _ _] Hc. exact (good_reach _ _ G _ _ Hc). Qed.
End Vars.
