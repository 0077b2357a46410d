(** Boxes on counted memory refine boxes with values of their own. *)
From Coq Require Import List Arith Bool Lia.
From Verif Require Import Common AtomProofs RcHeap RcProofs BoxSpec Box.
Import ListNotations.
Set Default Goal Selector "!".

Section Proofs.
Context {V : Type}.
Variables eqb neb ltb : V -> V -> bool.
Notation heap := (heap V).
Notation box v := (RT v []).

(** *** The operations on one box *)
Lemma wp_make (h : heap) R v (Q : option nat -> heap -> Prop) : st [] h R ->
  (forall a h', st [] h' (a :: R) -> frame [] all h h' -> srep [] h' a (box v) -> Q (Some a) h') ->
  wp (make_box v) h Q.
Proof.
  intros T K. unfold make_box. apply wp_bind. eapply (wp_new [] h R v []); [exact T|].
  intros a h' T' F Hr _. apply wp_ret. apply K; auto.
Qed.
Lemma wp_copy (h : heap) R a v (Q : option nat -> heap -> Prop) : st [] h R ->
  srep [] h a (box v) ->
  (forall h', st [] h' (a :: R) -> frame [] all h h' -> Q (Some a) h') ->
  wp (copy_box (Some a)) h Q.
Proof.
  intros T Hr K. unfold copy_box. apply wp_bind. cbn. apply wp_bind.
  destruct (rep_inv _ _ _ Hr) as (c & ts & Hc & _ & _).
  eapply wp_inc; [exact T|eauto|]. intros h' T' F. apply wp_ret. apply K; auto.
Qed.
Lemma wp_drop (h : heap) R a v (Q : unit -> heap -> Prop) : st [] h (a :: R) ->
  srep [] h a (box v) ->
  (forall h', st [] h' R -> frame [] (fun x => In x R) h h' -> Q tt h') ->
  wp (drop_box (Some a)) h Q.
Proof.
  intros T Hr K. unfold drop_box. apply wp_bind. eapply wp_dec; [exact T| |].
  - intros c h' _ _ T' F. apply wp_ret. apply K; [exact T'|].
    eapply frame_weak; [|exact F]. intros; exact I.
  - intros c h' Hc _ _ T' Hc' Fx D El.
    destruct (rep_inv _ _ _ Hr) as (d & ts & Hd & Hk & E). injection E as E1 E2. subst ts.
    unfold cell_at in Hc, Hd. rewrite Hc in Hd. injection Hd as <-.
    assert (Ek : c_kids c = []) by (now inversion Hk). rewrite Ek in *. cbn in T'.
    eapply wp_free; [exact T'|]. intros h2 T2 Ew Fy El2. apply K; [exact T2|].
    split; [intros x []|split; [|lia]].
    intros r t Hi Ht. unfold srep. rewrite Ew. apply D; [exact Hi|exact Ht].
Qed.
Lemma wp_drop_opt (h : heap) p R (Q : unit -> heap -> Prop) :
  st [] h (match p with Some a => a :: R | None => R end) ->
  (forall a, p = Some a -> exists v, srep [] h a (box v)) ->
  (forall h', st [] h' R -> frame [] (fun x => In x R) h h' -> Q tt h') ->
  wp (drop_box p) h Q.
Proof.
  destruct p as [a|]; intros T Hr K.
  - destruct (Hr a eq_refl) as [v Hv]. eapply wp_drop; eauto.
  - apply wp_ret. apply K; [exact T|apply frame_refl].
Qed.
Lemma wp_get (h : heap) a v (Q : V -> heap -> Prop) : srep [] h a (box v) -> Q v h ->
  wp (get_box (Some a)) h Q.
Proof.
  intros Hr K. unfold get_box. apply wp_bind. cbn. apply wp_bind.
  eapply wp_load_rep; [exact Hr|]. intros c _ E _. apply wp_ret. now rewrite E.
Qed.
Lemma wp_update (h : heap) R a v f (Q : option nat -> heap -> Prop) : st [] h R ->
  srep [] h a (box v) ->
  (forall b h', st [] h' (b :: R) -> frame [] all h h' -> srep [] h' b (box (f v)) -> Q (Some b) h') ->
  wp (update_box (Some a) f) h Q.
Proof.
  intros T Hr K. unfold update_box. apply wp_bind. eapply wp_get; [exact Hr|].
  eapply wp_make; [exact T|exact K].
Qed.
Lemma wp_update_rv (h : heap) R a v f (Q : option nat -> heap -> Prop) : st [] h (a :: R) ->
  srep [] h a (box v) ->
  (forall b h', st [] h' (b :: R) -> frame [] (fun x => In x R) h h' ->
     srep [] h' b (box (f v)) -> Q (Some b) h') ->
  wp (update_rv (Some a) f) h Q.
Proof.
  intros T Hr K. unfold update_rv. apply wp_bind. cbn [deref]. apply wp_ret. apply wp_bind.
  destruct (rep_inv _ _ _ Hr) as (d & ts & Hd & Hk & E). injection E as E1 E2. subst ts.
  assert (Ek : c_kids d = []) by (now inversion Hk).
  eapply wp_unique; [exact T| |].
  - intros c Hc E. unfold cell_at in Hc, Hd. rewrite Hc in Hd. injection Hd as <-.
    destruct (st_take _ _ _ _ _ T Hc E) as (T1 & _ & Hc1 & D). rewrite Ek in *. cbn in T1.
    apply wp_bind. apply wp_load with (c := c); [exact Hc1|]. apply wp_bind.
    eapply wp_store_local; [exact T1|now left|]. intros h' T2 Ew Hc2 Fx El. apply wp_ret.
    destruct (st_put [] h' R a (mkCell (c_rc c) (f (c_body c)) (c_kids c))
                ltac:(cbn; rewrite Ek; exact T2) Hc2 E) as (T3 & D3 & R3).
    apply K; [exact T3| |].
    + split; [intros x []|split; [|lia]]. intros r t Hi Ht. apply D3. unfold srep. rewrite Ew.
      apply D; [exact Hi|exact Ht].
    + rewrite E1. apply R3. cbn. rewrite Ek. constructor.
  - intros c Hc E. apply wp_bind. eapply wp_get; [exact Hr|].
    apply wp_bind. eapply wp_make; [exact T|]. intros b h' T1 F1 R1. apply wp_bind.
    eapply (wp_drop h' (b :: R)).
    + eapply st_eqv; [|exact T1]. intros x. cbn. lia.
    + eapply frame_rep; [exact F1|exact I|exact Hr].
    + intros h2 T2 F2. apply wp_ret. apply K; [exact T2| |].
      * eapply frame_trans; [eapply frame_weak; [|exact F1]; intros; exact I|].
        eapply frame_weak; [|exact F2]. intros x Hx. now right.
      * eapply frame_rep; [exact F2|now left|exact R1].
Qed.

(** *** Programs *)
Definition ptrs (x : bx) : list nat := match x with Some (Some a) => [a] | _ => [] end.
Definition roots (l : vars) : list nat := flat_map ptrs l.
Definition bval (h : heap) (x : bx) (y : bvar V) : Prop :=
  match x, y with
  | None, Gone | Some None, Moved => True
  | Some (Some a), Has v => srep [] h a (box v)
  | _, _ => False
  end.

Lemma roots_upd l : forall i x y a, nth_error l i = Some x ->
  occ a (roots (update_at i y l)) + occ a (ptrs x) = occ a (roots l) + occ a (ptrs y).
Proof.
  induction l as [|z l IH]; intros [|i] x y a H; cbn in *; try discriminate;
    rewrite ?occ_app.
  - injection H as ->. lia.
  - specialize (IH _ _ y a H). unfold roots in IH. lia.
Qed.
Lemma roots_app l x : roots (l ++ [x]) = roots l ++ ptrs x.
Proof. unfold roots. rewrite flat_map_app. cbn. now rewrite app_nil_r. Qed.
Lemma rel_nth (P : bx -> bvar V -> Prop) l s i : Forall2 P l s -> (forall x, P x Gone -> x = None) ->
  alive (var s i) = true -> exists x, nth_error l i = Some x /\ nth_error s i = Some (var s i) /\ P x (var s i).
Proof.
  intros H HP. revert i. induction H as [|x y l s Hx _ IH]; intros i Ha.
  - destruct i; discriminate.
  - destruct i as [|i]; cbn in *; [eauto|]. apply IH. exact Ha.
Qed.
Lemma rel_upd (P : bx -> bvar V -> Prop) l s x y : P x y -> Forall2 P l s -> forall i,
  Forall2 P (update_at i x l) (update_at i y s).
Proof.
  intros Hx H. induction H as [|a b l s Ha Hl IH]; intros [|i]; cbn; constructor; auto.
Qed.
Lemma rel_frame h h' P l s : frame [] P h h' -> (forall a, In a (roots l) -> P a) ->
  Forall2 (bval h) l s -> Forall2 (bval h') l s.
Proof.
  intros F HP H. induction H as [|x y l s Hx _ IH]; constructor.
  - destruct x as [[a|]|], y as [| |v]; cbn in *; auto.
    eapply frame_rep; [exact F| |exact Hx]. apply HP. now left.
  - apply IH. intros a Ha. apply HP. cbn. apply in_or_app. now right.
Qed.
(** Only variable [i] may have changed its pointer. *)
Lemma rel_frame_but h h' l s i x y : frame [] (fun a => In a (roots (update_at i None l))) h h' ->
  bval h' x y -> Forall2 (bval h) l s ->
  Forall2 (bval h') (update_at i x l) (update_at i y s).
Proof.
  intros F Hx H.
  assert (Forall2 (bval h') (update_at i None l) (update_at i Gone s)) as H1.
  { eapply rel_frame; [exact F|auto|]. apply rel_upd; [exact I|exact H]. }
  apply (rel_upd _ _ _ _ _ Hx) with (i := i) in H1. now rewrite !upd_upd in H1.
Qed.
Lemma rel_app (P : bx -> bvar V -> Prop) l s x y : Forall2 P l s -> P x y ->
  Forall2 P (l ++ [x]) (s ++ [y]).
Proof. intros H Hx. apply Forall2_app; [exact H|]. now repeat constructor. Qed.

Lemma bval_gone h x : bval h x Gone -> x = None.
Proof. destruct x as [[|]|]; cbn; tauto. Qed.
Lemma var_alive (s : list (bvar V)) i y : var s i = y -> alive y = true -> alive (var s i) = true.
Proof. now intros ->. Qed.

Hypothesis eqb_refl : forall v, eqb v v = true.
Hypothesis neb_irrefl : forall v, neb v v = false.
Hypothesis ltb_irrefl : forall v, ltb v v = false.

Lemma same_some a b : same (Some a) (Some b) = true -> a = b.
Proof. apply Nat.eqb_eq. Qed.

Definition inv (l : vars) (s : list (bvar V)) (h : heap) : Prop :=
  st [] h (roots l) /\ Forall2 (bval h) l s.

(** The references without those of variable [i]. *)
Definition rest (i : nat) (l : vars) : list nat := roots (update_at i None l).
Lemma roots_rest l i x : nth_error l i = Some x -> forall a,
  occ a (roots l) = occ a (ptrs x ++ rest i l).
Proof.
  intros H a. pose proof (roots_upd l i x None a H) as E. cbn [ptrs occ] in E. rewrite occ_app.
  unfold rest. lia.
Qed.
Lemma rest_roots l i x y : nth_error l i = Some x -> forall a,
  occ a (ptrs y ++ rest i l) = occ a (roots (update_at i y l)).
Proof.
  intros H a. pose proof (roots_upd l i x None a H) as E1. pose proof (roots_upd l i x y a H) as E2.
  cbn [ptrs occ] in E1. rewrite occ_app. unfold rest. lia.
Qed.
Lemma rest_in l i x a : nth_error l i = Some x -> In a (rest i l) -> In a (roots l).
Proof.
  intros H Hi. apply occ_in. apply occ_in in Hi. rewrite (roots_rest _ _ _ H), occ_app. lia.
Qed.

Ltac var_of H i :=
  let x := fresh "x" in let Ex := fresh "Ex" in let Es := fresh "Es" in let Hx := fresh "Hx" in
  destruct (rel_nth _ _ _ i H (bval_gone _) ltac:(first [assumption | eapply var_alive; [eassumption|reflexivity]])) as (x & Ex & Es & Hx).

Lemma wp_impl (l : vars) i p h (Q : option nat -> heap -> Prop) :
  nth_error l i = Some (Some p) -> Q p h -> wp (impl l i) h Q.
Proof. intros E H. unfold impl. rewrite E. exact H. Qed.

Lemma bval_has h x v : bval h x (Has v) -> exists a, x = Some (Some a) /\ srep [] h a (box v).
Proof. destruct x as [[a|]|]; cbn; try easy. eauto. Qed.
Lemma bval_alive h x y : bval h x y -> alive y = true -> exists p, x = Some p /\
  forall a, p = Some a -> exists v, srep [] h a (box v).
Proof.
  destruct x as [p|], y as [| |v]; cbn; try easy; intros H _; exists p; (split; [reflexivity|]).
  - destruct p; easy.
  - destruct p as [a|]; [|easy]. intros a' E. injection E as <-. eauto.
Qed.

Lemma bstep_ok l s h o s' x : inv l s h -> bspec eqb neb ltb s o = Some (s', x) ->
  wp (bstep eqb neb ltb l o) h (fun r h' => inv (fst r) s' h' /\ snd r = x).
Proof.
  intros [T H] E.
  destruct o as [v|i|i|i f|i j|i j|i f|i|i|i j|i j|i j]; cbn [bspec bstep] in *.
  - injection E as <- <-. apply wp_bind. eapply wp_make; [exact T|].
    intros a h' T' F Ra. apply wp_ret. cbn. split; [|reflexivity]. split.
    + rewrite roots_app. cbn. eapply st_eqv; [|exact T']. intros y. rewrite occ_app. cbn. lia.
    + apply rel_app; [|exact Ra]. eapply rel_frame; [exact F|intros; exact I|exact H].
  - destruct (var s i) as [| |v] eqn:Ev; try discriminate. injection E as <- <-.
    var_of H i. rewrite Ev in *. apply bval_has in Hx as (a & -> & Ra).
    apply wp_bind. eapply wp_impl; [exact Ex|]. apply wp_bind.
    eapply wp_copy; [exact T|exact Ra|]. intros h' T' F. apply wp_ret. cbn. split; [|reflexivity].
    split.
    + rewrite roots_app. cbn. eapply st_eqv; [|exact T']. intros y. rewrite occ_app. cbn. lia.
    + apply rel_app; [|eapply frame_rep; [exact F|exact I|exact Ra]].
      eapply rel_frame; [exact F|intros; exact I|exact H].
  - destruct (alive (var s i)) eqn:Ea; [|discriminate]. injection E as <- <-. var_of H i.
    destruct (bval_alive _ _ _ Hx Ea) as (p & -> & _).
    apply wp_bind. eapply wp_impl; [exact Ex|]. apply wp_ret. cbn. split; [|reflexivity]. split.
    + rewrite roots_app. eapply st_eqv; [|exact T]. intros y. rewrite occ_app.
      pose proof (roots_upd l i _ (Some None) y Ex) as E. cbn [ptrs occ] in *. lia.
    + apply rel_app; [|exact Hx]. apply rel_upd; [exact I|exact H].
  - destruct (var s i) as [| |v] eqn:Ev; try discriminate. injection E as <- <-.
    var_of H i. rewrite Ev in *. apply bval_has in Hx as (a & -> & Ra).
    apply wp_bind. eapply wp_impl; [exact Ex|]. apply wp_bind.
    eapply wp_update; [exact T|exact Ra|]. intros b h' T' F Rb. apply wp_ret. cbn.
    split; [|reflexivity]. split.
    + rewrite roots_app. cbn. eapply st_eqv; [|exact T']. intros y. rewrite occ_app. cbn. lia.
    + apply rel_app; [|exact Rb]. eapply rel_frame; [exact F|intros; exact I|exact H].
  - destruct (var s j) as [| |v] eqn:Ev; try discriminate.
    destruct (alive (var s i)) eqn:Ea; [|discriminate]. injection E as <- <-.
    var_of H j. rewrite Ev in *. apply bval_has in Hx as (a & -> & Ra).
    var_of H i. destruct (bval_alive _ _ _ Hx Ea) as (p & -> & Hp).
    apply wp_bind. eapply wp_impl; [exact Ex0|]. apply wp_bind. eapply wp_impl; [exact Ex|].
    apply wp_bind. eapply wp_copy; [exact T|exact Ra|]. intros h1 T1 F1. apply wp_bind.
    eapply (wp_drop_opt h1 p (a :: rest i l)).
    + eapply st_eqv; [|exact T1]. intros y. cbn [occ]. rewrite (roots_rest _ _ _ Ex0), occ_app.
      destruct p; cbn; lia.
    + intros b ->. destruct (Hp b eq_refl) as [w Hw]. exists w. eapply frame_rep; [exact F1|exact I|exact Hw].
    + intros h2 T2 F2. apply wp_ret. cbn. split; [|reflexivity]. split.
      * eapply st_eqv; [|exact T2]. exact (rest_roots l i _ (Some (Some a)) Ex0).
      * apply (rel_frame_but h1 h2).
        -- eapply frame_weak; [|exact F2]. intros y Hy. now right.
        -- cbn. eapply frame_rep; [exact F2|now left|]. eapply frame_rep; [exact F1|exact I|exact Ra].
        -- eapply rel_frame; [exact F1|intros; exact I|exact H].
  - destruct (alive (var s i)) eqn:Ea; [|discriminate].
    destruct (alive (var s j)) eqn:Eb; [|discriminate]. injection E as <- <-.
    var_of H i. destruct (bval_alive _ _ _ Hx Ea) as (p & -> & _).
    var_of H j. destruct (bval_alive _ _ _ Hx0 Eb) as (q & -> & _).
    apply wp_bind. eapply wp_impl; [exact Ex|]. apply wp_bind. eapply wp_impl; [exact Ex0|].
    apply wp_ret. cbn. split; [|reflexivity]. split.
    + eapply st_eqv; [|exact T]. intros y.
      pose proof (roots_upd l j _ (Some p) y Ex0) as E1.
      destruct (Nat.eq_dec i j) as [->|Hne].
      * rewrite upd_upd. pose proof (roots_upd l j _ (Some q) y Ex0) as E2.
        rewrite Ex in Ex0. injection Ex0 as ->. lia.
      * assert (nth_error (update_at j (Some p) l) i = Some (Some p)) as E3 by (rewrite nth_upd; auto).
        pose proof (roots_upd _ i _ (Some q) y E3) as E2. lia.
    + apply rel_upd; [exact Hx0|]. now apply rel_upd.
  - destruct (var s i) as [| |v] eqn:Ev; try discriminate. injection E as <- <-.
    var_of H i. rewrite Ev in *. apply bval_has in Hx as (a & -> & Ra).
    apply wp_bind. eapply wp_impl; [exact Ex|]. apply wp_bind.
    eapply (wp_update_rv h (rest i l)); [|exact Ra|].
    + eapply st_eqv; [|exact T]. exact (roots_rest _ _ _ Ex).
    + intros b h' T' F Rb. apply wp_ret. cbn. split; [|reflexivity]. split.
      * eapply st_eqv; [|exact T']. exact (rest_roots l i _ (Some (Some b)) Ex).
      * apply (rel_frame_but h h'); [exact F|exact Rb|exact H].
  - destruct (alive (var s i)) eqn:Ea; [|discriminate]. injection E as <- <-.
    var_of H i. destruct (bval_alive _ _ _ Hx Ea) as (p & -> & Hp).
    apply wp_bind. eapply wp_impl; [exact Ex|]. apply wp_bind.
    eapply (wp_drop_opt h p (rest i l)); [|exact Hp|].
    + eapply st_eqv; [|exact T]. intros y. rewrite (roots_rest _ _ _ Ex), occ_app.
      destruct p; cbn; lia.
    + intros h' T' F. apply wp_ret. cbn. split; [|reflexivity]. split.
      * exact T'.
      * apply (rel_frame_but h h'); [exact F|exact I|exact H].
  - destruct (var s i) as [| |v] eqn:Ev; try discriminate. injection E as <- <-.
    var_of H i. rewrite Ev in *. apply bval_has in Hx as (a & -> & Ra).
    apply wp_bind. eapply wp_impl; [exact Ex|]. apply wp_bind. eapply wp_get; [exact Ra|].
    apply wp_ret. cbn. split; [|reflexivity]. now split.
  - destruct (var s i) as [| |v] eqn:Ev; try discriminate.
    destruct (var s j) as [| |w] eqn:Ew; try discriminate. injection E as <- <-.
    var_of H i. rewrite Ev in *. apply bval_has in Hx as (a & -> & Ra).
    var_of H j. rewrite Ew in *. apply bval_has in Hx as (b & -> & Rb).
    apply wp_bind. eapply wp_impl; [exact Ex|]. apply wp_bind. eapply wp_impl; [exact Ex0|].
    apply wp_bind. unfold eq_box. destruct (same (Some a) (Some b)) eqn:Es'.
    + apply same_some in Es'. subst b. pose proof (rep_fun _ _ _ Ra _ Rb) as E. injection E as ->.
      apply wp_ret. apply wp_ret. cbn. rewrite eqb_refl. split; [|reflexivity]. now split.
    + apply wp_bind. eapply wp_get; [exact Ra|]. apply wp_bind. eapply wp_get; [exact Rb|].
      apply wp_ret. apply wp_ret. split; [|reflexivity]. now split.
  - destruct (var s i) as [| |v] eqn:Ev; try discriminate.
    destruct (var s j) as [| |w] eqn:Ew; try discriminate. injection E as <- <-.
    var_of H i. rewrite Ev in *. apply bval_has in Hx as (a & -> & Ra).
    var_of H j. rewrite Ew in *. apply bval_has in Hx as (b & -> & Rb).
    apply wp_bind. eapply wp_impl; [exact Ex|]. apply wp_bind. eapply wp_impl; [exact Ex0|].
    apply wp_bind. unfold ne_box. destruct (same (Some a) (Some b)) eqn:Es'.
    + apply same_some in Es'. subst b. pose proof (rep_fun _ _ _ Ra _ Rb) as E. injection E as ->.
      apply wp_ret. apply wp_ret. cbn. rewrite neb_irrefl. split; [|reflexivity]. now split.
    + apply wp_bind. eapply wp_get; [exact Ra|]. apply wp_bind. eapply wp_get; [exact Rb|].
      apply wp_ret. apply wp_ret. split; [|reflexivity]. now split.
  - destruct (var s i) as [| |v] eqn:Ev; try discriminate.
    destruct (var s j) as [| |w] eqn:Ew; try discriminate. injection E as <- <-.
    var_of H i. rewrite Ev in *. apply bval_has in Hx as (a & -> & Ra).
    var_of H j. rewrite Ew in *. apply bval_has in Hx as (b & -> & Rb).
    apply wp_bind. eapply wp_impl; [exact Ex|]. apply wp_bind. eapply wp_impl; [exact Ex0|].
    apply wp_bind. unfold lt_box. destruct (same (Some a) (Some b)) eqn:Es'.
    + apply same_some in Es'. subst b. pose proof (rep_fun _ _ _ Ra _ Rb) as E. injection E as ->.
      apply wp_ret. apply wp_ret. cbn. rewrite ltb_irrefl. split; [|reflexivity]. now split.
    + apply wp_bind. eapply wp_get; [exact Ra|]. apply wp_bind. eapply wp_get; [exact Rb|].
      apply wp_ret. apply wp_ret. split; [|reflexivity]. now split.
Qed.

Lemma brun_ok os : forall l s h s' xs, inv l s h -> bspecs eqb neb ltb s os = Some (s', xs) ->
  wp (brun eqb neb ltb l os) h (fun r h' => inv (fst r) s' h' /\ snd r = xs).
Proof.
  induction os as [|o os IH]; intros l s h s' xs I E; cbn in *.
  - injection E as <- <-. apply wp_ret. now split.
  - destruct (bspec eqb neb ltb s o) as [[s1 x]|] eqn:E1; [|discriminate].
    destruct (bspecs eqb neb ltb s1 os) as [[s2 ys]|] eqn:E2; [|discriminate].
    injection E as <- <-. apply wp_bind. eapply wp_mono; [eapply bstep_ok; [exact I|exact E1]|].
    intros [l1 x1] h1 [I1 Ex]. cbn in I1, Ex. subst x1. apply wp_bind.
    eapply wp_mono; [eapply IH; [exact I1|exact E2]|].
    intros [l2 ys'] h2 [I2 Ey]. cbn in I2, Ey. subst ys'. apply wp_ret. now split.
Qed.

Lemma inv_nil : inv [] [] [].
Proof.
  split; [|constructor]. split; [|split; constructor]. split.
  - intros [|a]; reflexivity.
  - intros [|a] c H; discriminate.
Qed.
End Proofs.
