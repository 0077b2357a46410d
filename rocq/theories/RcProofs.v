(** Reasoning about counted memory: what the counts mean, what a pointer stands for, and how
    the primitive operations change both. *)
From Coq Require Import List Arith Bool Lia.
From Verif Require Import Common AtomProofs RcHeap.
Import ListNotations.
Set Default Goal Selector "!".

(** What a pointer stands for: contents and what the pointers in it stand for. *)
Inductive rtree (B : Type) : Type := RT (b : B) (ts : list (rtree B)).
Arguments RT {B} b ts.

Section Rc.
Context {B : Type}.
Notation heap := (heap B). Notation cell := (cell B).

Definition cell_at (g : heap) (a : nat) (c : cell) : Prop := nth_error g a = Some (Some c).

Inductive rep (g : heap) : nat -> rtree B -> Prop :=
| rep_intro a c ts : cell_at g a c -> Forall2 (rep g) (c_kids c) ts ->
    rep g a (RT (c_body c) ts).

Lemma rep_ind' (g : heap) (P : nat -> rtree B -> Prop) :
  (forall a c ts, cell_at g a c -> Forall2 (rep g) (c_kids c) ts ->
     Forall2 P (c_kids c) ts -> P a (RT (c_body c) ts)) ->
  forall a t, rep g a t -> P a t.
Proof.
  intros H. fix IH 3. intros a t [a' c ts Hc Hk]. apply H; [assumption|assumption|].
  clear Hc. induction Hk; constructor; [apply IH; assumption|assumption].
Qed.

(** The references in [g] and the roots [R] to [a]. *)
Definition okids (a : nat) (o : option cell) : nat :=
  match o with Some c => occ a (c_kids c) | None => 0 end.
Definition refs (g : heap) (R : list nat) (a : nat) : nat := occ a R + total (okids a) g.

(** Counts are the number of references, nothing refers to a block that is freed, and
    there are no cycles. *)
Definition good (g : heap) (R : list nat) : Prop :=
  (forall a, match nth_error g a with
             | Some (Some c) => c_rc c = refs g R a /\ 0 < c_rc c
             | _ => refs g R a = 0
             end) /\
  (forall a c, cell_at g a c -> exists t, rep g a t).

(** The part of the memory that is not held locally: [S] are the blocks an operation is
    working on, which nothing else refers to. *)
Fixpoint wipe (S : list nat) (h : heap) : heap :=
  match S with [] => h | a :: S' => update_at a None (wipe S' h) end.

(** *** Lists of blocks *)
Lemma nth_upd {A} (l : list A) i y : forall j, j <> i ->
  nth_error (update_at i y l) j = nth_error l j.
Proof.
  revert i. induction l as [|z l IH]; intros [|i] [|j] H; cbn; try reflexivity; try congruence.
  apply IH. congruence.
Qed.
Lemma nth_upd_same {A} (l : list A) i y : i < length l ->
  nth_error (update_at i y l) i = Some y.
Proof.
  revert i. induction l as [|z l IH]; intros [|i] H; cbn in *; try lia; [reflexivity|].
  apply IH. lia.
Qed.
Lemma length_upd {A} (l : list A) i y : length (update_at i y l) = length l.
Proof. revert i. induction l as [|z l IH]; intros [|i]; cbn; auto. Qed.
Lemma upd_upd {A} (l : list A) i x y : update_at i x (update_at i y l) = update_at i x l.
Proof. revert i. induction l as [|z l IH]; intros [|i]; cbn; f_equal; auto. Qed.
Lemma upd_comm {A} (l : list A) i j x y : i <> j ->
  update_at i x (update_at j y l) = update_at j y (update_at i x l).
Proof.
  revert i j. induction l as [|z l IH]; intros [|i] [|j] H; cbn; try reflexivity; try lia.
  f_equal. apply IH. congruence.
Qed.
Lemma upd_app {A} (l m : list A) i x : i < length l ->
  update_at i x (l ++ m) = update_at i x l ++ m.
Proof.
  revert i. induction l as [|z l IH]; intros [|i] H; cbn in *; try lia; [reflexivity|].
  f_equal. apply IH. lia.
Qed.
Lemma upd_same {A} (l : list A) i x : nth_error l i = Some x -> update_at i x l = l.
Proof.
  revert i. induction l as [|z l IH]; intros [|i] H; cbn in *; try discriminate.
  - congruence.
  - f_equal. auto.
Qed.
Lemma nth_lt {A} (l : list A) i x : nth_error l i = Some x -> i < length l.
Proof. intros H. apply nth_error_Some. congruence. Qed.
Lemma total_app {A} (f : A -> nat) l m : total f (l ++ m) = total f l + total f m.
Proof. induction l; cbn; lia. Qed.

Lemma Forall2_mono {A C} (P Q : A -> C -> Prop) l m :
  (forall a c, P a c -> Q a c) -> Forall2 P l m -> Forall2 Q l m.
Proof. intros H. induction 1; constructor; auto. Qed.

(** *** What pointers stand for *)
Lemma rep_inv g a t : rep g a t -> exists c ts, cell_at g a c /\
  Forall2 (rep g) (c_kids c) ts /\ t = RT (c_body c) ts.
Proof. intros []. eauto. Qed.

Lemma rep_fun g a t : rep g a t -> forall t', rep g a t' -> t = t'.
Proof.
  intros H. induction H as [a c ts Hc Hk IH] using rep_ind'. intros t' H'.
  destruct (rep_inv _ _ _ H') as (c' & ts' & Hc' & Hk' & ->).
  unfold cell_at in *. rewrite Hc in Hc'. injection Hc' as <-. f_equal.
  clear - IH Hk'. revert ts' Hk'. induction IH as [|x t ks ts Hx _ IH]; intros ts' H'; inversion H'; subst.
  - reflexivity.
  - f_equal; auto.
Qed.

(** The contents of all blocks are as before. *)
Definition keeps (g g' : heap) : Prop := forall a c, cell_at g a c ->
  exists c', cell_at g' a c' /\ c_body c' = c_body c /\ c_kids c' = c_kids c.

Lemma keeps_refl g : keeps g g.
Proof. intros a c H. eauto. Qed.
Lemma keeps_trans g1 g2 g3 : keeps g1 g2 -> keeps g2 g3 -> keeps g1 g3.
Proof.
  intros H1 H2 a c Hc. destruct (H1 _ _ Hc) as (c1 & Hc1 & E1 & E1').
  destruct (H2 _ _ Hc1) as (c2 & Hc2 & E2 & E2'). exists c2. repeat split; congruence.
Qed.
Lemma rep_keeps g g' : keeps g g' -> forall a t, rep g a t -> rep g' a t.
Proof.
  intros K a t H. induction H as [a c ts Hc Hk IH] using rep_ind'.
  destruct (K _ _ Hc) as (c' & Hc' & <- & E). constructor; [assumption|]. now rewrite E.
Qed.

(** Removing a block that nothing in the rest refers to. *)
Lemma rep_drop g a0 :
  (forall x c, x <> a0 -> cell_at g x c -> ~ In a0 (c_kids c)) ->
  forall a t, rep g a t -> a <> a0 -> rep (update_at a0 None g) a t.
Proof.
  intros N a t H. induction H as [a c ts Hc Hk IH] using rep_ind'. intros Hne.
  constructor.
  - unfold cell_at. rewrite nth_upd; auto.
  - assert (Hn : ~ In a0 (c_kids c)) by eauto.
    clear - IH Hn. induction IH as [|x t ks ts Hx _ IH]; constructor.
    + apply Hx. intros ->. apply Hn. now left.
    + apply IH. intros Hi. apply Hn. now right.
Qed.

(** *** Counts *)
Lemma good_eqv g R R' : (forall a, occ a R = occ a R') -> good g R -> good g R'.
Proof.
  intros E [H1 H2]. split; [|exact H2]. intros a. specialize (H1 a). unfold refs in *.
  rewrite <- E. exact H1.
Qed.
Lemma good_live g R a : good g R -> 0 < refs g R a -> exists c, cell_at g a c.
Proof.
  intros [H _] Hp. specialize (H a). unfold cell_at.
  destruct (nth_error g a) as [[c|]|]; [eauto|lia|lia].
Qed.
Lemma good_root g R a : good g R -> In a R -> exists c, cell_at g a c.
Proof. intros G H. apply (good_live g R); [assumption|]. unfold refs. apply occ_in in H. lia. Qed.
Lemma good_rep g R a : good g R -> In a R -> exists t, rep g a t.
Proof. intros G H. destruct (good_root _ _ _ G H) as (c & Hc). apply G in Hc. exact Hc. Qed.
Lemma refs_kid g R x c a : cell_at g x c -> In a (c_kids c) -> 0 < refs g R a.
Proof.
  intros Hc Hi. unfold refs. pose proof (total_nth (okids a) _ _ _ Hc) as H. cbn in H.
  apply occ_in in Hi. lia.
Qed.

Lemma rep_kids_in g a c ts : cell_at g a c -> Forall2 (rep g) (c_kids c) ts -> rep g a (RT (c_body c) ts).
Proof. intros. now constructor. Qed.

(** Changing a count only. *)
Lemma keeps_count g a c n : cell_at g a c ->
  keeps g (update_at a (Some (mkCell n (c_body c) (c_kids c))) g).
Proof.
  intros Hc x d Hx. destruct (Nat.eq_dec x a) as [E|Hne].
  - subst x. unfold cell_at in *. rewrite Hc in Hx. injection Hx as <-.
    exists (mkCell n (c_body c) (c_kids c)). rewrite nth_upd_same; [auto|]. eapply nth_lt; eauto.
  - exists d. unfold cell_at. rewrite nth_upd; auto.
Qed.
Lemma okids_count g a c n x : cell_at g a c ->
  total (okids x) (update_at a (Some (mkCell n (c_body c) (c_kids c))) g) = total (okids x) g.
Proof.
  intros Hc. pose proof (total_update (okids x) _ _ _ (Some (mkCell n (c_body c) (c_kids c))) Hc) as H.
  cbn in H. lia.
Qed.
Lemma good_count g R R' a c n : good g R -> cell_at g a c -> 0 < n ->
  (forall x, occ x R' + (if x =? a then c_rc c else 0) = occ x R + (if x =? a then n else 0)) ->
  good (update_at a (Some (mkCell n (c_body c) (c_kids c))) g) R'.
Proof.
  intros [H1 H2] Hc Hn E. split.
  - intros x. specialize (H1 x). specialize (E x).
    unfold refs in *. rewrite (okids_count _ _ _ n x Hc).
    destruct (Nat.eqb_spec x a) as [->|Hne].
    + rewrite nth_upd_same by (eapply nth_lt; eauto). unfold cell_at in Hc. rewrite Hc in H1.
      cbn. lia.
    + rewrite nth_upd by assumption. destruct (nth_error g x) as [[d|]|]; lia.
  - intros x d Hx.
    assert (exists d', cell_at g x d') as [d' Hd'].
    { destruct (Nat.eq_dec x a) as [->|Hne]; [eauto|].
      exists d. unfold cell_at in *. rewrite nth_upd in Hx; auto. }
    destruct (H2 _ _ Hd') as [t Ht]. exists t.
    eapply rep_keeps; [apply keeps_count; eassumption|exact Ht].
Qed.
Lemma good_inc g R a c : good g R -> cell_at g a c ->
  good (update_at a (Some (mkCell (S (c_rc c)) (c_body c) (c_kids c))) g) (a :: R).
Proof.
  intros G Hc. eapply good_count; [exact G|exact Hc|lia|]. intros x. cbn.
  rewrite (Nat.eqb_sym a x). destruct (x =? a); cbn; lia.
Qed.
Lemma good_dec g R a c n : good g (a :: R) -> cell_at g a c -> c_rc c = S n -> 0 < n ->
  good (update_at a (Some (mkCell n (c_body c) (c_kids c))) g) R.
Proof.
  intros G Hc E Hn. eapply good_count; [exact G|exact Hc|lia|]. intros x. cbn.
  rewrite (Nat.eqb_sym a x). destruct (x =? a); cbn; lia.
Qed.

Lemma keeps_new g b ks : keeps g (g ++ [Some (mkCell 1 b ks)]).
Proof.
  intros a c Hc. exists c. unfold cell_at in *. rewrite nth_error_app1; [auto|].
  eapply nth_lt; eauto.
Qed.
Lemma roots_rep g R ks : good g (ks ++ R) -> exists ts, Forall2 (rep g) ks ts.
Proof.
  intros G. assert (H : forall a, In a ks -> exists t, rep g a t).
  { intros a Ha. eapply good_rep; [exact G|]. apply in_or_app. auto. }
  clear G. induction ks as [|k ks IH]; [exists []; constructor|].
  destruct (H k ltac:(now left)) as [t Ht]. destruct IH as [ts Hts]; [intros; apply H; now right|].
  exists (t :: ts). now constructor.
Qed.
Lemma good_new g R b ks : good g (ks ++ R) ->
  good (g ++ [Some (mkCell 1 b ks)]) (length g :: R).
Proof.
  intros G. pose proof G as [H1 H2]. split.
  - intros x. specialize (H1 x). unfold refs in *. rewrite total_app. cbn.
    rewrite occ_app in H1.
    destruct (Nat.eqb_spec (length g) x) as [E|Hne].
    + subst x. rewrite nth_error_app2 by lia. rewrite Nat.sub_diag. cbn.
      assert (nth_error g (length g) = None) as E by (apply nth_error_None; lia).
      rewrite E in H1. lia.
    + cbn [b2n]. destruct (Nat.lt_ge_cases x (length g)).
      * rewrite nth_error_app1 by assumption.
        destruct (nth_error g x) as [[d|]|]; lia.
      * assert (nth_error g x = None) as E by (apply nth_error_None; lia).
        rewrite E in H1.
        assert (nth_error (g ++ [Some (mkCell 1 b ks)]) x = None) as ->
          by (apply nth_error_None; rewrite app_length; cbn; lia).
        lia.
  - pose proof (keeps_new g b ks) as K.
    intros x d Hx. unfold cell_at in Hx. destruct (Nat.lt_ge_cases x (length g)).
    + rewrite nth_error_app1 in Hx by assumption. destruct (H2 _ _ Hx) as [t Ht].
      exists t. eapply rep_keeps; eauto.
    + rewrite nth_error_app2 in Hx by assumption.
      destruct (x - length g) as [|k] eqn:E; cbn in Hx; [|destruct k; discriminate].
      injection Hx as <-. destruct (roots_rep _ _ _ G) as [ts Hts].
      exists (RT b ts). apply (rep_intro _ _ (mkCell 1 b ks)).
      * unfold cell_at. rewrite nth_error_app2 by assumption. now rewrite E.
      * cbn. eapply Forall2_mono; [|exact Hts]. intros y t Hy. eapply rep_keeps; eauto.
Qed.
Lemma rep_new g b ks ts : Forall2 (rep g) ks ts ->
  rep (g ++ [Some (mkCell 1 b ks)]) (length g) (RT b ts).
Proof.
  intros H. apply (rep_intro _ _ (mkCell 1 b ks)).
  - unfold cell_at. rewrite nth_error_app2 by lia. now rewrite Nat.sub_diag.
  - cbn. eapply Forall2_mono; [|exact H]. intros y t Hy. eapply rep_keeps; [apply keeps_new|assumption].
Qed.

(** Taking the block of a sole owner out of the memory: its pointers become roots. *)
Lemma sole g R a c : good g (a :: R) -> cell_at g a c -> c_rc c = 1 ->
  ~ In a R /\ forall x d, cell_at g x d -> ~ In a (c_kids d).
Proof.
  intros [H1 _] Hc E. specialize (H1 a). unfold cell_at in Hc. rewrite Hc in H1.
  unfold refs in H1. cbn in H1. rewrite Nat.eqb_refl in H1. cbn in H1. split.
  - intros Hi. apply occ_in in Hi. lia.
  - intros x d Hx Hi. pose proof (total_nth (okids a) _ _ _ Hx) as H. cbn in H.
    apply occ_in in Hi. lia.
Qed.
Lemma good_take g R a c : good g (a :: R) -> cell_at g a c -> c_rc c = 1 ->
  good (update_at a None g) (c_kids c ++ R) /\
  (forall r t, In r (c_kids c ++ R) -> rep g r t -> rep (update_at a None g) r t).
Proof.
  intros G Hc E. destruct (sole _ _ _ _ G Hc E) as [N1 N2]. pose proof G as [H1 H2].
  assert (D : forall x t, x <> a -> rep g x t -> rep (update_at a None g) x t).
  { intros x t Hne Ht. apply rep_drop; [|assumption|assumption]. intros y d _ Hy. eauto. }
  split.
  - split.
    + intros x. specialize (H1 x). unfold refs in *. rewrite occ_app.
      pose proof (total_update (okids x) _ _ _ None Hc) as T. cbn in T, H1.
      destruct (Nat.eq_dec x a) as [->|Hne].
      * rewrite nth_upd_same by (eapply nth_lt; eauto).
        unfold cell_at in Hc. rewrite Hc, Nat.eqb_refl in H1. cbn in H1. lia.
      * rewrite nth_upd by assumption. assert (a =? x = false) as E' by (apply Nat.eqb_neq; congruence).
        rewrite E' in H1. cbn in H1. destruct (nth_error g x) as [[d|]|]; lia.
    + intros x d Hx. destruct (Nat.eq_dec x a) as [->|Hne].
      * unfold cell_at in Hx. rewrite nth_upd_same in Hx by (eapply nth_lt; eauto). discriminate.
      * unfold cell_at in Hx. rewrite nth_upd in Hx by assumption.
        destruct (H2 _ _ Hx) as [t Ht]. eauto.
  - intros r t Hr Ht. apply D; [|assumption]. intros ->. apply in_app_or in Hr as [Hr|Hr]; [|auto].
    exact (N2 _ _ Hc Hr).
Qed.

(** Putting a block (back) at an address that is free. *)
Lemma keeps_put g a c : nth_error g a = Some None -> keeps g (update_at a (Some c) g).
Proof.
  intros Ha x d Hx. exists d. unfold cell_at in *. rewrite nth_upd; [auto|]. intros ->. congruence.
Qed.
Lemma good_put g R a b ks : good g (ks ++ R) -> nth_error g a = Some None ->
  good (update_at a (Some (mkCell 1 b ks)) g) (a :: R).
Proof.
  intros G Ha. pose proof G as [H1 H2]. pose proof (nth_lt _ _ _ Ha) as Hl. split.
  - intros x. specialize (H1 x). unfold refs in *. rewrite occ_app in H1.
    pose proof (total_update (okids x) _ _ _ (Some (mkCell 1 b ks)) Ha) as T. cbn in T |- *.
    destruct (Nat.eq_dec x a) as [->|Hne].
    + rewrite nth_upd_same by assumption. rewrite Ha in H1. rewrite Nat.eqb_refl. cbn. lia.
    + rewrite nth_upd by assumption. assert (a =? x = false) as E' by (apply Nat.eqb_neq; congruence).
      rewrite E'. cbn. destruct (nth_error g x) as [[d|]|]; lia.
  - pose proof (keeps_put g a (mkCell 1 b ks) Ha) as K. intros x d Hx.
    destruct (Nat.eq_dec x a) as [->|Hne].
    + unfold cell_at in Hx. rewrite nth_upd_same in Hx by assumption. injection Hx as <-.
      destruct (roots_rep _ _ _ G) as [ts Hts]. exists (RT b ts).
      apply (rep_intro _ _ (mkCell 1 b ks)).
      * unfold cell_at. now rewrite nth_upd_same.
      * cbn. eapply Forall2_mono; [|exact Hts]. intros y t Hy. eapply rep_keeps; eauto.
    + unfold cell_at in Hx. rewrite nth_upd in Hx by assumption.
      destruct (H2 _ _ Hx) as [t Ht]. exists t. eapply rep_keeps; eauto.
Qed.
Lemma rep_put g a b ks ts : nth_error g a = Some None -> Forall2 (rep g) ks ts ->
  rep (update_at a (Some (mkCell 1 b ks)) g) a (RT b ts).
Proof.
  intros Ha H. apply (rep_intro _ _ (mkCell 1 b ks)).
  - unfold cell_at. rewrite nth_upd_same; [reflexivity|]. eapply nth_lt; eauto.
  - cbn. eapply Forall2_mono; [|exact H]. intros y t Hy.
    eapply rep_keeps; [apply keeps_put; assumption|assumption].
Qed.

(** *** Without roots nothing is left *)
Fixpoint height (t : rtree B) : nat :=
  match t with RT _ ts => S (fold_right (fun t n => Nat.max (height t) n) 0 ts) end.
Lemma height_kid t ts b : In t ts -> height t < height (RT b ts).
Proof.
  intros H. cbn. apply Nat.lt_succ_r. induction ts as [|u ts IH]; [easy|].
  cbn. destruct H as [->|H]; [lia|]. specialize (IH H). lia.
Qed.
(** [b] can be reached from [a]. *)
Inductive reaches (g : heap) (a : nat) : nat -> Prop :=
| reaches_refl : reaches g a a
| reaches_kid x c b : reaches g a x -> cell_at g x c -> In b (c_kids c) -> reaches g a b.

Lemma reaches_trans g a b c : reaches g a b -> reaches g b c -> reaches g a c.
Proof. intros H1 H2. induction H2 as [|x d y _ IH Hd Hy]; [exact H1|]. eapply reaches_kid; eauto. Qed.

(** Every block is reached from a root. *)
Lemma good_reach g R : good g R -> forall a c, cell_at g a c -> exists r, In r R /\ reaches g r a.
Proof.
  intros [H1 H2].
  assert (U : forall a c t, cell_at g a c -> rep g a t -> In a R \/
            exists a' c' t', cell_at g a' c' /\ rep g a' t' /\ In a (c_kids c') /\ height t < height t').
  { intros a c t Hc Ht. specialize (H1 a). unfold cell_at in Hc. rewrite Hc in H1.
    unfold refs in H1.
    destruct (in_dec Nat.eq_dec a R) as [Hi|Hi]; [now left|right].
    destruct (occ a R) eqn:Eo; [|exfalso; apply Hi, occ_in; lia].
    destruct (total_pos (okids a) g ltac:(lia)) as (x & o & Ho & Hp).
    destruct o as [d|]; cbn in Hp; [|lia]. apply occ_in in Hp.
    destruct (H2 _ _ Ho) as [t' Ht']. exists x, d, t'. split; [exact Ho|]. split; [exact Ht'|].
    split; [exact Hp|].
    destruct (rep_inv _ _ _ Ht') as (d' & ts & Hd' & Hk & ->).
    unfold cell_at in *. rewrite Ho in Hd'. injection Hd' as <-.
    assert (exists t'', In t'' ts /\ rep g a t'') as (t'' & Hin & Hr).
    { clear - Hp Hk. induction Hk as [|k u ks ts Hk _ IH]; [easy|].
      destruct Hp as [->|Hp].
      - exists u. split; [now left|assumption].
      - destruct (IH Hp) as (v & Hv & Hr). exists v. split; [now right|assumption]. }
    rewrite (rep_fun _ _ _ Ht _ Hr). now apply height_kid. }
  (* heights are bounded by the heights of the finitely many blocks *)
  assert (Bd : exists m, forall a c t, cell_at g a c -> rep g a t -> height t <= m).
  { assert (forall n, exists m, forall a c t, a < n -> cell_at g a c -> rep g a t -> height t <= m) as X.
    { induction n as [|n [m IH]]; [exists 0; lia|].
      destruct (nth_error g n) as [[c|]|] eqn:E.
      - destruct (H2 _ _ E) as [t Ht]. exists (Nat.max m (height t)). intros a d u Ha Hd Hu.
        destruct (Nat.eq_dec a n) as [->|]; [rewrite (rep_fun _ _ _ Ht _ Hu); lia|].
        specialize (IH a d u ltac:(lia) Hd Hu). lia.
      - exists m. intros a d u Ha Hd Hu. destruct (Nat.eq_dec a n) as [->|].
        + unfold cell_at in Hd. congruence.
        + exact (IH a d u ltac:(lia) Hd Hu).
      - exists m. intros a d u Ha Hd Hu. destruct (Nat.eq_dec a n) as [->|].
        + unfold cell_at in Hd. congruence.
        + exact (IH a d u ltac:(lia) Hd Hu). }
    destruct (X (length g)) as [m Hm]. exists m. intros a c t Hc Ht.
    apply (Hm a c t); [eapply nth_lt; exact Hc|exact Hc|exact Ht]. }
  destruct Bd as [m Hm].
  assert (forall k a c t, cell_at g a c -> rep g a t -> m < height t + k ->
          exists r, In r R /\ reaches g r a) as X.
  { induction k as [|k IH]; intros a c t Hc Ht Hk.
    - specialize (Hm _ _ _ Hc Ht). lia.
    - destruct (U _ _ _ Hc Ht) as [Hi|(a' & c' & t' & Hc' & Ht' & Hi & Hlt)].
      + exists a. split; [exact Hi|constructor].
      + destruct (IH a' c' t' Hc' Ht' ltac:(lia)) as (r & Hr & Hp).
        exists r. split; [exact Hr|]. eapply reaches_kid; eauto. }
  intros a c Hc. destruct (H2 _ _ Hc) as [t Ht]. apply (X (S m) a c t Hc Ht). lia.
Qed.
Lemma good_nil g : good g [] -> forall a, ~ (exists c, cell_at g a c).
Proof. intros G a [c Hc]. destruct (good_reach _ _ G _ _ Hc) as (r & [] & _). Qed.

(** *** Local blocks *)
Lemma length_wipe S h : length (wipe S h) = length h.
Proof. induction S as [|a S IH]; cbn; [reflexivity|]. now rewrite length_upd. Qed.
Lemma wipe_out S h x : ~ In x S -> nth_error (wipe S h) x = nth_error h x.
Proof.
  induction S as [|a S IH]; cbn; intros H; [reflexivity|].
  rewrite nth_upd by (intros ->; apply H; now left). apply IH. tauto.
Qed.
Lemma wipe_in S h x c : In x S -> ~ cell_at (wipe S h) x c.
Proof.
  unfold cell_at. induction S as [|a S IH]; cbn; intros H; [easy|].
  destruct (Nat.eq_dec x a) as [->|Hne].
  - destruct (Nat.lt_ge_cases a (length (wipe S h))).
    + rewrite nth_upd_same by assumption. discriminate.
    + assert (nth_error (update_at a None (wipe S h)) a = None) as ->
        by (apply nth_error_None; rewrite length_upd; assumption). discriminate.
  - rewrite nth_upd by assumption. apply IH. destruct H; congruence.
Qed.
Lemma wipe_cell S h x c : cell_at (wipe S h) x c -> ~ In x S /\ cell_at h x c.
Proof.
  intros H. assert (~ In x S) as N by (intros Hi; exact (wipe_in _ _ _ _ Hi H)).
  split; [exact N|]. unfold cell_at in *. rewrite wipe_out in H; assumption.
Qed.
Lemma wipe_upd_out S h a y : ~ In a S -> wipe S (update_at a y h) = update_at a y (wipe S h).
Proof.
  induction S as [|b S IH]; cbn; intros H; [reflexivity|].
  rewrite IH by tauto. apply upd_comm. intros ->. apply H. now left.
Qed.
Lemma wipe_upd_in S h a y : In a S -> wipe S (update_at a y h) = wipe S h.
Proof.
  induction S as [|b S IH]; cbn; intros H; [easy|].
  destruct (in_dec Nat.eq_dec a S) as [Hi|Hi].
  - now rewrite IH.
  - destruct H as [->|H]; [|easy]. rewrite wipe_upd_out by assumption. apply upd_upd.
Qed.
Lemma wipe_app S h x : Forall (fun a => a < length h) S -> wipe S (h ++ [x]) = wipe S h ++ [x].
Proof.
  induction 1 as [|a S Ha _ IH]; cbn; [reflexivity|]. rewrite IH, upd_app; [reflexivity|].
  now rewrite length_wipe.
Qed.

(** The state of an operation in progress: [S] its local blocks, [R] the references. *)
Definition st (S : list nat) (h : heap) (R : list nat) : Prop :=
  good (wipe S h) R /\ Forall (fun a => exists c, cell_at h a c) S /\ NoDup S.
(** What a pointer stands for in the memory around the local blocks. *)
Definition srep (S : list nat) (h : heap) (a : nat) (t : rtree B) : Prop := rep (wipe S h) a t.
(** From [h] to [h'] local blocks are untouched and the pointers satisfying [P] stand for
    what they stood for. *)
Definition frame (S : list nat) (P : nat -> Prop) (h h' : heap) : Prop :=
  (forall x, In x S -> nth_error h' x = nth_error h x) /\
  (forall a t, P a -> srep S h a t -> srep S h' a t) /\
  length h <= length h'.
Notation all := (fun _ : nat => True).

Lemma frame_refl S P h : frame S P h h.
Proof. split; [auto|split; [auto|lia]]. Qed.
Lemma frame_trans S P h1 h2 h3 : frame S P h1 h2 -> frame S P h2 h3 -> frame S P h1 h3.
Proof.
  intros (A1 & B1 & C1) (A2 & B2 & C2). split; [|split; [auto|lia]].
  intros x Hx. rewrite A2, A1; auto.
Qed.
Lemma frame_weak S (P Q : nat -> Prop) h1 h2 : (forall a, Q a -> P a) ->
  frame S P h1 h2 -> frame S Q h1 h2.
Proof. intros I (A & Bb & C). split; [auto|split; [auto|lia]]. Qed.
Lemma frame_rep S P h1 h2 a t : frame S P h1 h2 -> P a -> srep S h1 a t -> srep S h2 a t.
Proof. intros (_ & H & _). apply H. Qed.
Lemma frame_reps S (P : nat -> Prop) h1 h2 ks ts : frame S P h1 h2 -> (forall a, In a ks -> P a) ->
  Forall2 (srep S h1) ks ts -> Forall2 (srep S h2) ks ts.
Proof.
  intros F HP H. induction H as [|k t ks ts Hk _ IH]; constructor.
  - eapply frame_rep; [exact F|apply HP; now left|exact Hk].
  - apply IH. intros a Ha. apply HP. now right.
Qed.

Lemma st_eqv S h R R' : (forall a, occ a R = occ a R') -> st S h R -> st S h R'.
Proof. intros E (G & H). split; [|exact H]. eapply good_eqv; eauto. Qed.

(** Outcome of a program. *)
Definition wp {A} (m : M B A) (h : heap) (Q : A -> heap -> Prop) : Prop :=
  match m h with Ok (a, h') => Q a h' | UB => False end.

Lemma wp_ok {A} (m : M B A) h Q : wp m h Q -> exists a h', m h = Ok (a, h') /\ Q a h'.
Proof. unfold wp. destruct (m h) as [[a h']|]; [eauto|easy]. Qed.
Lemma wp_mono {A} (m : M B A) h (Q Q' : A -> heap -> Prop) :
  wp m h Q -> (forall a h', Q a h' -> Q' a h') -> wp m h Q'.
Proof. unfold wp. destruct (m h) as [[a h']|]; [auto|easy]. Qed.
Lemma wp_ret {A} (a : A) h (Q : A -> heap -> Prop) : Q a h -> wp (mret a) h Q.
Proof. intros H. exact H. Qed.
Lemma wp_bind {A C} (m : M B A) (k : A -> M B C) h Q :
  wp m h (fun a h' => wp (k a) h' Q) -> wp (mbind m k) h Q.
Proof. unfold wp, mbind. destruct (m h) as [[a h']|]; [auto|easy]. Qed.
Lemma wp_lift {A} (r : res A) h (Q : A -> heap -> Prop) a : r = Ok a -> Q a h -> wp (mlift r) h Q.
Proof. intros -> H. exact H. Qed.

Lemma wp_load h a c (Q : cell -> heap -> Prop) : cell_at h a c -> Q c h -> wp (load a) h Q.
Proof. unfold wp, load, cell_at. intros ->. auto. Qed.
Lemma wp_load_rep S h a b ts (Q : cell -> heap -> Prop) : srep S h a (RT b ts) ->
  (forall c, cell_at (wipe S h) a c -> c_body c = b -> Forall2 (srep S h) (c_kids c) ts -> Q c h) ->
  wp (load a) h Q.
Proof.
  intros H K. destruct (rep_inv _ _ _ H) as (c & ts' & Hc & Hk & E). injection E as E1 E2. subst.
  apply wp_load with (c := c); [apply (wipe_cell _ _ _ _ Hc)|]. apply K; auto.
Qed.

(** Increment: one more root. *)
Lemma wp_inc S h R a (Q : unit -> heap -> Prop) : st S h R ->
  (exists c, cell_at (wipe S h) a c) ->
  (forall h', st S h' (a :: R) -> frame S all h h' -> Q tt h') -> wp (inc a) h Q.
Proof.
  intros (G & L & N) [c Hc] K. destruct (wipe_cell _ _ _ _ Hc) as [Hn Hc'].
  unfold wp, inc, mbind, load, store. unfold cell_at in Hc'. rewrite Hc', Hc'.
  assert (E : wipe S (update_at a (Some (mkCell (Datatypes.S (c_rc c)) (c_body c) (c_kids c))) h) =
              update_at a (Some (mkCell (Datatypes.S (c_rc c)) (c_body c) (c_kids c))) (wipe S h)).
  { now apply wipe_upd_out. }
  apply K.
  - split; [|split; [|exact N]].
    + rewrite E. now apply good_inc.
    + apply Forall_forall. intros x Hx. rewrite Forall_forall in L. destruct (L x Hx) as [d Hd].
      exists d. unfold cell_at. rewrite nth_upd; [exact Hd|]. intros ->. auto.
  - split; [|split].
    + intros x Hx. apply nth_upd. intros ->. auto.
    + intros x t _ H. unfold srep. rewrite E. eapply rep_keeps; [apply keeps_count; exact Hc|exact H].
    + now rewrite length_upd.
Qed.

(** A new block takes over the references it is given. *)
Lemma wp_new S h R b ks (Q : nat -> heap -> Prop) : st S h (ks ++ R) ->
  (forall a h', st S h' (a :: R) -> frame S all h h' ->
     (forall ts, Forall2 (srep S h) ks ts -> srep S h' a (RT b ts)) ->
     a = length h -> Q a h') ->
  wp (new b ks) h Q.
Proof.
  intros (G & L & N) K. unfold wp, new.
  assert (Hlt : Forall (fun a => a < length h) S).
  { eapply Forall_impl; [|exact L]. intros x [c Hc]. eapply nth_lt; exact Hc. }
  pose proof (wipe_app S h (Some (mkCell 1 b ks)) Hlt) as E.
  apply K.
  - split; [|split; [|exact N]].
    + rewrite E, <- (length_wipe S h). now apply good_new.
    + eapply Forall_impl; [|exact L]. intros x [c Hc]. exists c. unfold cell_at.
      rewrite nth_error_app1; [exact Hc|]. eapply nth_lt; exact Hc.
  - split; [|split].
    + intros x Hx. rewrite Forall_forall in Hlt. now rewrite nth_error_app1 by auto.
    + intros x t _ H. unfold srep. rewrite E. eapply rep_keeps; [apply keeps_new|exact H].
    + rewrite app_length. lia.
  - intros ts H. unfold srep. rewrite E, <- (length_wipe S h). now apply rep_new.
  - reflexivity.
Qed.

(** Reading the count. *)
Lemma wp_unique S h R a (Q : bool -> heap -> Prop) : st S h (a :: R) ->
  (forall c, cell_at (wipe S h) a c -> c_rc c = 1 -> Q true h) ->
  (forall c, cell_at (wipe S h) a c -> 1 < c_rc c -> Q false h) -> wp (unique a) h Q.
Proof.
  intros (G & _) K1 K2. destruct (good_root _ _ a G) as [c Hc]; [now left|].
  destruct (wipe_cell _ _ _ _ Hc) as [_ Hc'].
  unfold wp, unique, mbind, load, mret. unfold cell_at in Hc'. rewrite Hc'.
  destruct (Nat.eqb_spec (c_rc c) 1) as [E|E]; [eauto|].
  apply (K2 c Hc). pose proof (proj1 G a) as H. unfold cell_at in Hc. rewrite Hc in H. lia.
Qed.

(** A sole owner makes the block local: the pointers in it become its own. *)
Lemma st_take S h R a c : st S h (a :: R) -> cell_at (wipe S h) a c -> c_rc c = 1 ->
  st (a :: S) h (c_kids c ++ R) /\ ~ In a S /\ cell_at h a c /\
  (forall r t, In r (c_kids c ++ R) -> srep S h r t -> srep (a :: S) h r t).
Proof.
  intros (G & L & N) Hc E. destruct (wipe_cell _ _ _ _ Hc) as [Hn Hc'].
  destruct (good_take _ _ _ _ G Hc E) as [G' D]. split; [split; [exact G'|split]|split; [|split]].
  - constructor; eauto.
  - now constructor.
  - exact Hn.
  - exact Hc'.
  - exact D.
Qed.

(** Writing a local block. *)
Lemma wp_store_local S h R a c' (Q : unit -> heap -> Prop) : st S h R -> In a S ->
  (forall h', st S h' R -> wipe S h' = wipe S h -> cell_at h' a c' ->
     (forall x, x <> a -> nth_error h' x = nth_error h x) -> length h' = length h -> Q tt h') ->
  wp (store a c') h Q.
Proof.
  intros (G & L & N) Hi K. rewrite Forall_forall in L. destruct (L a Hi) as [c Hc].
  unfold wp, store. unfold cell_at in Hc. rewrite Hc. apply K.
  - split; [|split; [|exact N]].
    + now rewrite wipe_upd_in.
    + apply Forall_forall. intros x Hx. destruct (Nat.eq_dec x a) as [->|Hne].
      * exists c'. unfold cell_at. apply nth_upd_same. eapply nth_lt; exact Hc.
      * destruct (L x Hx) as [d Hd]. exists d. unfold cell_at. now rewrite nth_upd.
  - now apply wipe_upd_in.
  - unfold cell_at. apply nth_upd_same. eapply nth_lt; exact Hc.
  - intros x Hx. now apply nth_upd.
  - apply length_upd.
Qed.

(** A local block with count one is published again; its pointers are its own. *)
Lemma st_put S h R a c : st (a :: S) h (c_kids c ++ R) -> cell_at h a c -> c_rc c = 1 ->
  st S h (a :: R) /\
  (forall r t, srep (a :: S) h r t -> srep S h r t) /\
  (forall ts, Forall2 (srep (a :: S) h) (c_kids c) ts -> srep S h a (RT (c_body c) ts)).
Proof.
  intros (G & L & N) Hc E. inversion N as [|? ? Hn N']; subst. cbn in G.
  pose proof (nth_lt _ _ _ Hc) as Hl.
  assert (Hw : nth_error (wipe S h) a = Some (Some c)) by (rewrite wipe_out; [exact Hc|exact Hn]).
  assert (Hz : nth_error (update_at a None (wipe S h)) a = Some None).
  { apply nth_upd_same. now rewrite length_wipe. }
  assert (E' : update_at a (Some (mkCell 1 (c_body c) (c_kids c))) (update_at a None (wipe S h)) = wipe S h).
  { rewrite upd_upd. apply upd_same. rewrite Hw. rewrite <- E. now destruct c. }
  split; [split; [|split]|split].
  - rewrite <- E'. now apply good_put.
  - inversion L; assumption.
  - exact N'.
  - intros r t H. unfold srep in *. rewrite <- E'. eapply rep_keeps; [|exact H]. now apply keeps_put.
  - intros ts H. unfold srep in *. rewrite <- E'. apply rep_put; [exact Hz|exact H].
Qed.

(** Freeing a local block. *)
Lemma wp_free S h R a (Q : unit -> heap -> Prop) : st (a :: S) h R ->
  (forall h', st S h' R -> wipe S h' = wipe (a :: S) h ->
     (forall x, In x S -> nth_error h' x = nth_error h x) -> length h' = length h -> Q tt h') ->
  wp (free a) h Q.
Proof.
  intros (G & L & N) K. inversion N as [|? ? Hn N']; subst. inversion L as [|? ? [c Hc] L']; subst.
  assert (E : wipe S (update_at a None h) = wipe (a :: S) h) by (cbn; now apply wipe_upd_out).
  unfold wp, free. unfold cell_at in Hc. rewrite Hc. apply K.
  - split; [|split].
    + now rewrite E.
    + rewrite Forall_forall in *. intros x Hx. destruct (L' x Hx) as [d Hd]. exists d.
      unfold cell_at. rewrite nth_upd; [exact Hd|]. intros ->. auto.
    + exact N'.
  - exact E.
  - intros x Hx. apply nth_upd. intros ->. auto.
  - apply length_upd.
Qed.

(** Decrement: the last reference makes the block local (with count zero). *)
Lemma wp_dec S h R a (Q : bool -> heap -> Prop) : st S h (a :: R) ->
  (forall c h', cell_at (wipe S h) a c -> 1 < c_rc c -> st S h' R -> frame S all h h' -> Q false h') ->
  (forall c h', cell_at (wipe S h) a c -> c_rc c = 1 -> ~ In a S ->
     st (a :: S) h' (c_kids c ++ R) -> cell_at h' a (mkCell 0 (c_body c) (c_kids c)) ->
     (forall x, x <> a -> nth_error h' x = nth_error h x) ->
     (forall r t, In r (c_kids c ++ R) -> srep S h r t -> srep (a :: S) h' r t) ->
     length h' = length h -> Q true h') ->
  wp (dec a) h Q.
Proof.
  intros T K1 K2. pose proof T as (G & L & N).
  destruct (good_root _ _ a G) as [c Hc]; [now left|].
  destruct (wipe_cell _ _ _ _ Hc) as [Hn Hc'].
  pose proof (proj1 G a) as Hrc. unfold cell_at in Hc. rewrite Hc in Hrc. fold (cell_at (wipe S h) a c) in Hc.
  unfold dec. apply wp_bind. apply wp_load with (c := c); [exact Hc'|].
  destruct (c_rc c) as [|n] eqn:E; [lia|]. apply wp_bind.
  destruct n as [|n].
  - destruct (st_take _ _ _ _ _ T Hc E) as (T' & _ & _ & D).
    apply wp_store_local with (S := a :: S) (R := c_kids c ++ R); [exact T'|now left|].
    intros h' T2 Ew Hc2 F El. apply wp_ret. cbn [Nat.eqb].
    apply (K2 c); [assumption|assumption|assumption|assumption|assumption|assumption| |assumption].
    intros r t Hr Ht. unfold srep. rewrite Ew. now apply D.
  - unfold wp, store. unfold cell_at in Hc'. rewrite Hc'. cbn [mret Nat.eqb].
    set (c' := mkCell (Datatypes.S n) (c_body c) (c_kids c)).
    assert (Ew : wipe S (update_at a (Some c') h) = update_at a (Some c') (wipe S h)) by now apply wipe_upd_out.
    apply (K1 c); [assumption|lia| |].
    + split; [|split; [|exact N]].
      * rewrite Ew. apply good_dec; [assumption|assumption|assumption|lia].
      * apply Forall_forall. intros x Hx. rewrite Forall_forall in L. destruct (L x Hx) as [d Hd].
        exists d. unfold cell_at. rewrite nth_upd; [exact Hd|]. intros ->. auto.
    + split; [|split].
      * intros x Hx. apply nth_upd. intros ->. auto.
      * intros x t _ H. unfold srep. rewrite Ew. eapply rep_keeps; [apply keeps_count; exact Hc|exact H].
      * now rewrite length_upd.
Qed.
End Rc.
Notation all := (fun _ : nat => True).
#[global] Arguments wp : simpl never.
#[global] Arguments st : simpl never.
#[global] Arguments srep : simpl never.
