(** Invariant of the concurrent atom: counts, ownership, the lock, and the linearization. *)
From Coq Require Import List Arith Bool Lia.
From Verif Require Import Common AtomSpec Atom.
Import ListNotations.
Set Default Goal Selector "!".

Definition b2n (b : bool) : nat := if b then 1 else 0.
Fixpoint occ (a : nat) (l : list nat) : nat :=
  match l with [] => 0 | x :: l' => b2n (x =? a) + occ a l' end.
Fixpoint total {A} (f : A -> nat) (l : list A) : nat :=
  match l with [] => 0 | x :: l' => f x + total f l' end.

Lemma total_update {A} (f : A -> nat) l : forall i x y, nth_error l i = Some x ->
  total f (update_at i y l) + f x = total f l + f y.
Proof.
  induction l as [|z l IH]; intros [|i] x y H; cbn in *; try discriminate.
  - injection H as ->. lia.
  - specialize (IH _ _ y H). lia.
Qed.
Lemma total_nth {A} (f : A -> nat) l : forall i x, nth_error l i = Some x -> f x <= total f l.
Proof.
  induction l as [|z l IH]; intros [|i] x H; cbn in *; try discriminate.
  - injection H as ->. lia.
  - specialize (IH _ _ H). lia.
Qed.
Lemma total_nth2 {A} (f : A -> nat) l : forall i j x y, i <> j ->
  nth_error l i = Some x -> nth_error l j = Some y -> f x + f y <= total f l.
Proof.
  induction l as [|z l IH]; intros [|i] [|j] x y Hne Hi Hj; cbn in *; try discriminate;
    try lia.
  - injection Hi as ->. pose proof (total_nth f l _ _ Hj). lia.
  - injection Hj as ->. pose proof (total_nth f l _ _ Hi). lia.
  - specialize (IH i j x y ltac:(lia) Hi Hj). lia.
Qed.
Lemma total_pos {A} (f : A -> nat) l : 0 < total f l -> exists i x, nth_error l i = Some x /\ 0 < f x.
Proof.
  induction l as [|z l IH]; cbn; intros H; [lia|].
  destruct (f z) eqn:E.
  - destruct (IH H) as (i & x & Hi & Hx). now exists (S i), x.
  - exists 0, z. split; [reflexivity|lia].
Qed.
Lemma nth_update_at {A} (l : list A) : forall i j y x, nth_error l i = Some x ->
  nth_error (update_at i y l) j = if j =? i then Some y else nth_error l j.
Proof.
  induction l as [|z l IH]; intros [|i] [|j] y x H; cbn in *; try discriminate; try reflexivity.
  now apply IH with (x := x).
Qed.
Lemma occ_app a l m : occ a (l ++ m) = occ a l + occ a m.
Proof. induction l; cbn; lia. Qed.
Lemma occ_remove a l : forall i x, nth_error l i = Some x ->
  occ a (remove_at i l) + b2n (x =? a) = occ a l.
Proof.
  induction l as [|z l IH]; intros [|i] x H; cbn in *; try discriminate.
  - injection H as ->. lia.
  - specialize (IH _ _ H). lia.
Qed.
Lemma occ_in a l : 0 < occ a l <-> In a l.
Proof.
  induction l as [|x l IH]; cbn; [lia|]. destruct (Nat.eqb_spec x a); cbn; [lia|]. rewrite IH. tauto.
Qed.

Section Proofs.
Context {V : Type}.
Notation pc := (pc V). Notation thread := (thread V). Notation state := (state V).

(** References a thread has besides its handles. *)
Fixpoint owned (p : pc) : list addr :=
  match p with
  | RetH a | PutH a | LoadUnlock _ a | UpdCall _ a | SwapLock a _ | SwapRead a _
  | SwapWrite a _ _ | SwapUnlock _ a | RvTest a _ | RvWrite a _ | RvNew a _ => [a]
  | Dec a k => a :: owned k
  | Free _ k => owned k
  | CasLock _ o n | CasCmp _ o n | CasInc _ o n | CasInc2 o n | FailUnlock _ o n => [o; n]
  | CasRead _ o n | CasWrite _ o n _ | CasUnlock o n => [o; n; n]
  | Idle | RetU | LoadLock _ | LoadRead _ | LoadInc _ _ => []
  end.
(** Between test_and_set and clear. *)
Fixpoint in_cs (p : pc) : bool :=
  match p with
  | LoadRead _ | LoadInc _ _ | LoadUnlock _ _ | SwapRead _ _ | SwapWrite _ _ _
  | SwapUnlock _ _ | CasCmp _ _ _ | CasInc _ _ _ | CasRead _ _ _ | CasWrite _ _ _ _
  | CasInc2 _ _ | CasUnlock _ _ | FailUnlock _ _ _ => true
  | Dec _ k | Free _ k => in_cs k
  | _ => false
  end.
Definition freeing (a : addr) (p : pc) : nat :=
  match p with Free b _ => b2n (b =? a) | _ => 0 end.

Definition cnt (a : addr) (th : thread) : nat := occ a (handles th) + occ a (owned (at_ th)).
Definition refs (s : state) (a : addr) : nat := b2n (cur s =? a) + total (cnt a) (ths s).
Definition frees (s : state) (a : addr) : nat := total (fun th => freeing a (at_ th)) (ths s).
Definition vals (s : state) (a : addr) : option V := option_map val (heap s a).

Definition plain (k : pc) : Prop := match k with Free _ _ => False | _ => True end.
Fixpoint pc_ok (s : state) (p : pc) : Prop :=
  match p with
  | LoadInc _ a => a = cur s
  | SwapWrite _ _ x => x = cur s
  | CasInc _ o _ | CasRead _ o _ => o = cur s
  | CasWrite _ o _ x => x = cur s /\ o = cur s
  | RvWrite a _ => refs s a = 1
  | Dec _ k | Free _ k => plain k /\ pc_ok s k
  | _ => True
  end.

(** Where a thread stands in the specification. *)
Fixpoint phase_ok (s : state) (p : pc) (q : phase V) : Prop :=
  match p with
  | Idle | PutH _ | RvTest _ _ | RvWrite _ _ | RvNew _ _ => q = QIdle
  | RetU => q = QDone RUnit
  | RetH a => exists v, vals s a = Some v /\ q = QDone (RVal v)
  | Dec _ k | Free _ k => phase_ok s k q
  | LoadLock None | LoadRead None => q = QCalled OLoad
  | LoadInc None a | LoadUnlock None a => exists v, vals s a = Some v /\ q = QDone (RVal v)
  | LoadLock (Some f) | LoadRead (Some f) | LoadInc (Some f) _ | LoadUnlock (Some f) _
  | UpdCall f _ | FailUnlock f _ _ => q = QCalled (OUpdate f)
  | SwapLock b ex | SwapRead b ex | SwapWrite b ex _ =>
      exists v, vals s b = Some v /\ q = QCalled (if ex then OExchange v else OStore v)
  | SwapUnlock ex x => if ex then exists v, vals s x = Some v /\ q = QDone (RVal v)
                       else q = QDone RUnit
  | CasLock f o n | CasCmp f o n | CasInc f o n | CasRead f o n | CasWrite f o n _ =>
      exists v, vals s o = Some v /\ vals s n = Some (f v) /\ q = QCalled (OUpdate f)
  | CasInc2 _ n | CasUnlock _ n => exists v, vals s n = Some v /\ q = QDone (RVal v)
  end.

Definition held (s : state) (hold : option nat) : Prop :=
  match hold with
  | None => flag s = false
  | Some t => flag s = true /\
      exists th, nth_error (ths s) t = Some th /\ in_cs (at_ th) = true
  end.

Record good (s : state) (qs : nat -> phase V) (v : V) (hold : option nat) : Prop := mkGood
  { g_cs : total (fun th => b2n (in_cs (at_ th))) (ths s) = b2n (flag s);
    g_heap : forall a, match heap s a with
      | None => refs s a = 0 /\ frees s a = 0
      | Some c => rc c = refs s a /\ frees s a = b2n (rc c =? 0) end;
    g_pc : forall t th, nth_error (ths s) t = Some th -> pc_ok s (at_ th);
    g_ph : forall t th, nth_error (ths s) t = Some th -> phase_ok s (at_ th) (qs t);
    g_cur : vals s (cur s) = Some v;
    g_hold : held s hold }.

Lemma refs_update s s' t th th' a : nth_error (ths s) t = Some th ->
  ths s' = update_at t th' (ths s) ->
  refs s' a + cnt a th + b2n (cur s =? a) = refs s a + cnt a th' + b2n (cur s' =? a).
Proof.
  intros H E. unfold refs. rewrite E. pose proof (total_update (cnt a) _ _ _ th' H). lia.
Qed.
Lemma frees_update s s' t th th' a : nth_error (ths s) t = Some th ->
  ths s' = update_at t th' (ths s) ->
  frees s' a + freeing a (at_ th) = frees s a + freeing a (at_ th').
Proof.
  intros H E. unfold frees. rewrite E.
  exact (total_update (fun th => freeing a (at_ th)) _ _ _ th' H).
Qed.

(** Other threads' conditions survive a step that keeps what they depend on. *)
Lemma pc_ok_keep s s' p : pc_ok s p ->
  (in_cs p = true -> cur s' = cur s) ->
  (forall a, 0 < occ a (owned p) -> refs s a = 1 -> refs s' a = 1) -> pc_ok s' p.
Proof.
  intros H Hc Hr. induction p; cbn in *; try exact Logic.I;
    try (rewrite Hc by reflexivity; exact H).
  - destruct H as [Hk H]. split; [exact Hk|]. apply IHp; auto. intros x Hx. apply Hr. lia.
  - destruct H as [Hk H]. split; [exact Hk|]. apply IHp; auto.
  - apply Hr; auto. rewrite Nat.eqb_refl. cbn. lia.
Qed.
(** What the specification says of a thread depends on the values it owns. *)
Lemma phase_ok_keep s s' p q : pc_ok s p -> phase_ok s p q ->
  (forall a, 0 < occ a (owned p) -> vals s' a = vals s a) ->
  (in_cs p = true -> vals s' (cur s) = vals s (cur s)) -> phase_ok s' p q.
Proof.
  intros Hp H Hv Hc.
  induction p; cbn in *; auto;
    try (rewrite !Hv by (rewrite Nat.eqb_refl; cbn; lia); assumption).
  - destruct Hp as [_ Hp]. apply IHp; auto. intros x Hx. apply Hv. lia.
  - destruct Hp as [_ Hp]. apply IHp; auto.
  - destruct u; auto. subst a. now rewrite Hc.
Qed.

(** A step of thread [t] that changes only its own place and handles. *)
Lemma frame s s' t th th' qs q v v' hold hold' :
  good s qs v hold -> nth_error (ths s) t = Some th -> ths s' = update_at t th' (ths s) ->
  b2n (in_cs (at_ th')) + b2n (flag s) = b2n (in_cs (at_ th)) + b2n (flag s') ->
  (forall a, match heap s' a with
      | None => refs s' a = 0 /\ frees s' a = 0
      | Some c => rc c = refs s' a /\ frees s' a = b2n (rc c =? 0) end) ->
  cur s' = cur s \/ in_cs (at_ th) = true ->
  (forall a, refs s a = 1 -> cnt a th = 0 -> cur s <> a -> cnt a th' = 0 /\ cur s' <> a) ->
  (forall a, cnt a th < refs s a -> vals s' a = vals s a) ->
  pc_ok s' (at_ th') -> phase_ok s' (at_ th') q ->
  vals s' (cur s') = Some v' -> held s' hold' ->
  good s' (fun x => if x =? t then q else qs x) v' hold'.
Proof.
  intros G Ht E Hcs Hh Hcur Hu Hv Hp Hq Hv' Hhold.
  assert (Hcs2 : forall t2 th2, t2 <> t -> nth_error (ths s) t2 = Some th2 ->
            in_cs (at_ th2) = true -> in_cs (at_ th) = false).
  { intros t2 th2 Hne H2 Hi. pose proof (g_cs _ _ _ _ G) as Hc.
    pose proof (total_nth2 (fun th => b2n (in_cs (at_ th))) _ _ _ _ _ Hne H2 Ht) as H.
    rewrite Hc in H. cbn in H. rewrite Hi in H. destruct (in_cs (at_ th)); auto.
    destruct (flag s); cbn in H; lia. }
  assert (Hoth : forall t2 th2 a, t2 <> t -> nth_error (ths s) t2 = Some th2 ->
            cnt a th + cnt a th2 + b2n (cur s =? a) <= refs s a).
  { intros t2 th2 a Hne H2. unfold refs.
    pose proof (total_nth2 (cnt a) _ _ _ _ _ Hne H2 Ht). lia. }
  constructor; auto.
  - rewrite E. pose proof (total_update (fun th => b2n (in_cs (at_ th))) _ _ _ th' Ht) as H.
    pose proof (g_cs _ _ _ _ G). cbv beta in H. lia.
  - intros t2 th2 H2. rewrite E, (nth_update_at _ _ _ _ _ Ht) in H2.
    destruct (Nat.eqb_spec t2 t) as [->|Hne]; [injection H2 as <-; exact Hp|].
    apply pc_ok_keep with (s := s).
    + exact (g_pc _ _ _ _ G _ _ H2).
    + intros Hi. destruct Hcur as [|Hi']; [assumption|].
      rewrite (Hcs2 _ _ Hne H2 Hi) in Hi'. discriminate.
    + intros a Ha H1. pose proof (Hoth _ _ a Hne H2) as Ho.
      assert (Hc : 0 < cnt a th2) by (unfold cnt; lia).
      assert (Hn : cur s <> a) by (intros X; rewrite X, Nat.eqb_refl in Ho; cbn in Ho; lia).
      destruct (Hu a H1 ltac:(lia) Hn) as [Hz Hn'].
      pose proof (refs_update s s' t th th' a Ht E) as Hr.
      apply Nat.eqb_neq in Hn, Hn'. rewrite Hn, Hn' in Hr. cbn in Hr. lia.
  - intros t2 th2 H2. rewrite E, (nth_update_at _ _ _ _ _ Ht) in H2.
    destruct (Nat.eqb_spec t2 t) as [->|Hne]; [injection H2 as <-; exact Hq|].
    apply phase_ok_keep with (s := s).
    + exact (g_pc _ _ _ _ G _ _ H2).
    + exact (g_ph _ _ _ _ G _ _ H2).
    + intros a Ha. apply Hv. pose proof (Hoth _ _ a Hne H2). unfold cnt in *. lia.
    + intros _. apply Hv. pose proof (Hoth _ _ (cur s) Hne H2) as Ho.
      rewrite Nat.eqb_refl in Ho. cbn in Ho. lia.
Qed.

(** The change of a thread's place in the specification, and of the atom's contents. *)
Definition adv (t : nat) (q : phase V) (v : V) (xs : list (xevent V)) (q' : phase V) (v' : V)
  : Prop :=
  match xs with
  | [] => q' = q /\ v' = v
  | [Obs (Call t' o)] => t' = t /\ q = QIdle /\ q' = QCalled o /\ v' = v
  | [Obs (Return t' r)] => t' = t /\ q = QDone r /\ q' = QIdle /\ v' = v
  | [Lin t' o r] => t' = t /\ q = QCalled o /\ q' = QDone r /\ apply v o = (v', r)
  | _ => False
  end.
Definition adv_lock (t : nat) (h : option nat) (es : list (event V)) (h' : option nat) : Prop :=
  match es with
  | [Acquire t'] => t' = t /\ h = None /\ h' = Some t
  | [Release t'] => t' = t /\ h = Some t /\ h' = None
  | [] | [Call _ _] | [Return _ _] => h' = h
  | _ => False
  end.

Definition step_good (s : state) (t : nat) (c : choice V) (qs : nat -> phase V) (v : V)
  (hold : option nat) : Prop :=
  step s t c = Ok None \/
  exists s' es xs q' v' hold', step s t c = Ok (Some (s', es)) /\
    observed xs = filter is_call es /\ adv t (qs t) v xs q' v' /\ adv_lock t hold es hold' /\
    good s' (fun x => if x =? t then q' else qs x) v' hold'.

(** The flag is set exactly when the stepping thread, if it is inside, holds the lock. *)
Lemma hold_in s qs v hold t th : good s qs v hold -> nth_error (ths s) t = Some th ->
  in_cs (at_ th) = true -> flag s = true /\ hold = Some t.
Proof.
  intros G Ht Hi. pose proof (g_cs _ _ _ _ G) as Hc.
  pose proof (total_nth (fun th => b2n (in_cs (at_ th))) _ _ _ Ht) as H. cbv beta in H.
  rewrite Hc, Hi in H. destruct (flag s) eqn:F; [|cbn in H; lia]. split; [reflexivity|].
  pose proof (g_hold _ _ _ _ G) as Hh. unfold held in Hh.
  destruct hold as [t'|]; [|congruence]. destruct Hh as [_ (th' & Ht' & Hi')].
  destruct (Nat.eq_dec t' t) as [->|Hne]; [reflexivity|].
  pose proof (total_nth2 (fun th => b2n (in_cs (at_ th))) _ _ _ _ _ Hne Ht' Ht) as H2.
  cbv beta in H2. rewrite Hc, Hi, Hi' in H2. cbn in H2. lia.
Qed.
(** The lock of other threads is not touched by a step that keeps [t] in or out. *)
Lemma held_keep s s' t th th' hold : held s hold -> nth_error (ths s) t = Some th ->
  ths s' = update_at t th' (ths s) -> flag s' = flag s -> in_cs (at_ th') = in_cs (at_ th) ->
  held s' hold.
Proof.
  unfold held. intros H Ht E F I. destruct hold as [t2|]; [|congruence].
  rewrite F. destruct H as [Hf (th2 & H2 & Hi)]. split; [assumption|].
  rewrite E. destruct (Nat.eq_dec t2 t) as [->|Hne].
  - exists th'. rewrite (nth_update_at _ _ _ _ _ Ht), Nat.eqb_refl. split; congruence.
  - exists th2. rewrite (nth_update_at _ _ _ _ _ Ht). apply Nat.eqb_neq in Hne. now rewrite Hne.
Qed.
Lemma cnt_refs s t th a : nth_error (ths s) t = Some th ->
  cnt a th + b2n (cur s =? a) <= refs s a.
Proof. intros H. unfold refs. pose proof (total_nth (cnt a) _ _ _ H). lia. Qed.

(** Owned cells are allocated. *)
Lemma cell_of s qs v hold a : good s qs v hold -> 0 < refs s a ->
  exists c, heap s a = Some c /\ rc c = refs s a.
Proof.
  intros G H. pose proof (g_heap _ _ _ _ G a) as Ha.
  destruct (heap s a) as [c|]; [exists c; tauto|lia].
Qed.

Ltac occs x :=
  repeat match goal with
  | H : nth_error ?l ?i = Some ?a |- _ =>
      lazymatch goal with
      | _ : occ x (remove_at i l) + _ = _ |- _ => fail
      | _ => lazymatch type of l with list nat => pose proof (occ_remove x l i a H) end
      end
  end.
Ltac counts G Ht s t x :=
  intros x;
  match goal with |- context[refs ?s' x] =>
    let R := fresh "R" in let F := fresh "F" in let H := fresh "Hx" in
    pose proof (refs_update s s' t _ _ x Ht eq_refl) as R;
    pose proof (frees_update s s' t _ _ x Ht eq_refl) as F;
    pose proof (g_heap _ _ _ _ G x) as H;
    generalize dependent (refs s' x); generalize dependent (frees s' x);
    intros ? F ? R; unfold cnt in R;
    cbn [at_ handles owned occ freeing cur heap ths flag move set_th set_heap set_cur set_flag]
      in R, F |- *;
    rewrite ?occ_app in R; cbn [occ] in R; occs x
  end.

Lemma ref_cell s qs v hold a : good s qs v hold ->
  0 < refs s a -> exists c, heap s a = Some c /\ rc c = refs s a /\ 0 < rc c /\
    frees s a = 0.
Proof.
  intros G H.
  destruct (cell_of _ _ _ _ a G ltac:(lia)) as (c & Hc & Hr). exists c.
  pose proof (g_heap _ _ _ _ G a) as Hz. rewrite Hc in Hz.
  repeat split; auto; [lia|]. destruct Hz as [_ ->].
  destruct (Nat.eqb_spec (rc c) 0); [lia|reflexivity].
Qed.
Lemma own_cell s qs v hold t th a : good s qs v hold -> nth_error (ths s) t = Some th ->
  0 < cnt a th -> exists c, heap s a = Some c /\ rc c = refs s a /\ 0 < rc c /\
    frees s a = 0.
Proof.
  intros G Ht H. pose proof (cnt_refs s t th a Ht). eapply ref_cell; [exact G|lia].
Qed.
Lemma cur_ref (s : state) : 0 < refs s (cur s).
Proof. unfold refs. rewrite Nat.eqb_refl. cbn. lia. Qed.
Lemma good_ext s qs qs' v hold : (forall x, qs' x = qs x) -> good s qs v hold ->
  good s qs' v hold.
Proof.
  intros E []. constructor; auto. intros t th H. rewrite E. auto.
Qed.
Lemma good_same s qs v hold t : good s qs v hold ->
  good s (fun x => if x =? t then qs t else qs x) v hold.
Proof. apply good_ext. intros x. destruct (Nat.eqb_spec x t) as [->|]; reflexivity. Qed.
Lemma hold_free s qs v hold : good s qs v hold -> flag s = false -> hold = None.
Proof.
  intros G F. pose proof (g_hold _ _ _ _ G) as H. unfold held in H. destruct hold; [|reflexivity].
  destruct H. congruence.
Qed.
Lemma held_take (s s' : state) t th th' : nth_error (ths s) t = Some th ->
  ths s' = update_at t th' (ths s) -> flag s' = true -> in_cs (at_ th') = true ->
  held s' (Some t).
Proof.
  intros H E F I. split; [exact F|]. exists th'.
  rewrite E, (nth_update_at _ _ _ _ _ H), Nat.eqb_refl. auto.
Qed.
Lemma cnt_handle p (hs : list addr) i a : nth_error hs i = Some a -> 0 < cnt a (@mkT V p hs).
Proof.
  intros H. unfold cnt. cbn [handles]. apply nth_error_In, occ_in in H. lia.
Qed.

Ltac uniques x :=
  intros x;
  let H1 := fresh in let H2 := fresh in let H3 := fresh in intros H1 H2 H3;
  unfold cnt in H2 |- *;
  cbn [at_ handles owned occ cur move set_th set_heap set_cur set_flag] in H2 |- *;
  rewrite ?occ_app; cbn [occ]; occs x; split; [lia|]; auto.
Ltac go G Ht s t qs v hold xs q v' h' :=
  right; eexists _, _, xs, q, v', h';
  split; [reflexivity|]; split; [reflexivity|];
  split; [try solve [cbn; repeat split; eauto]|];
  split; [try solve [cbn; repeat split; eauto]|];
  eapply (frame s _ t _ _ qs _ v _ hold _ G Ht);
  [ reflexivity
  | try reflexivity
  | try solve [let x := fresh "x" in counts G Ht s t x; destruct (heap s x); lia]
  | try (now left)
  | try solve [let x := fresh "x" in uniques x]
  | try solve [auto]
  | try solve [cbn [pc_ok at_ plain]; repeat split; auto]
  | try solve [cbn [phase_ok at_]; eauto;
      unfold vals; cbn [heap move set_th set_heap set_cur set_flag];
      repeat match goal with H : heap _ _ = Some _ |- _ => rewrite H end; cbn [option_map]; eauto]
  | try exact (g_cur _ _ _ _ G)
  | try (eapply held_keep; [exact (g_hold _ _ _ _ G)|exact Ht|reflexivity..]) ].

Lemma vals_count s s' a c n x : heap s a = Some c ->
  heap s' = upd (heap s) a (Some (mkCell n (val c))) -> vals s' x = vals s x.
Proof.
  intros H E. unfold vals. rewrite E. unfold upd. destruct (Nat.eqb_spec x a) as [->|]; [|reflexivity].
  now rewrite H.
Qed.
Lemma vals_alloc s s' a c x : heap s a = None -> heap s' = upd (heap s) a c ->
  vals s x <> None -> vals s' x = vals s x.
Proof.
  intros H E N. unfold vals in *. rewrite E. unfold upd.
  destruct (Nat.eqb_spec x a) as [->|]; [|reflexivity]. now rewrite H in N.
Qed.
Lemma vals_refs s qs v hold x : good s qs v hold -> 0 < refs s x -> vals s x <> None.
Proof.
  intros G H. destruct (cell_of _ _ _ _ x G H) as (c & Hc & _). unfold vals. now rewrite Hc.
Qed.
(** Heap changes at one address: a new cell, or a new count. *)
Ltac at_cell G Ht s t a :=
  let x := fresh "x" in counts G Ht s t x; unfold upd;
  destruct (Nat.eqb_spec x a) as [->|];
  [rewrite ?Nat.eqb_refl in *; cbn [b2n rc Nat.eqb] in *;
   repeat match goal with H : heap s a = _ |- _ => rewrite H in * end; cbn [b2n rc Nat.eqb] in *; lia
  |repeat match goal with H : context[a =? x] |- _ =>
     replace (a =? x) with false in H by (symmetry; apply Nat.eqb_neq; congruence) end;
   cbn [b2n] in *; destruct (heap s x); lia].
Ltac alloc_vals G Ha :=
  let x := fresh "x" in intros x ?; eapply vals_alloc; [exact Ha|reflexivity|];
  eapply vals_refs; [exact G|lia].
Ltac alloc_cur G Ha := 
  erewrite vals_alloc; [exact (g_cur _ _ _ _ G)|exact Ha|reflexivity
    |cbn [cur move set_th set_heap]; rewrite (g_cur _ _ _ _ G); discriminate].

Ltac swap_unique b :=
  let x := fresh "x" in let H1 := fresh in let H2 := fresh in let H3 := fresh in
  intros x H1 H2 H3; unfold cnt in *;
  cbn [at_ handles owned occ cur move set_th set_cur] in *;
  apply Nat.eqb_neq in H3; rewrite H3 in *; cbn [b2n] in *;
  destruct (Nat.eqb_spec b x); cbn [b2n] in *; [lia|]; split; [lia|assumption].
Ltac alloc_unique a :=
  let x := fresh "x" in let H1 := fresh in let H2 := fresh in let H3 := fresh in
  intros x H1 H2 H3; split; [|exact H3]; unfold cnt in *;
  cbn [at_ handles owned occ] in *; destruct (Nat.eqb_spec a x); cbn [b2n] in *; [subst; lia|lia].

(** Handing a box over. *)
Lemma send_ok s qs v hold t t' hs i a th' : good s qs v hold ->
  nth_error (ths s) t = Some (mkT Idle hs) -> nth_error hs i = Some a ->
  nth_error (ths s) t' = Some th' -> t' <> t ->
  good (set_th (set_th s t (mkT Idle (remove_at i hs))) t'
          (mkT (at_ th') (handles th' ++ [a]))) qs v hold.
Proof.
  intros G Ht Hi Ht' Hne.
  set (s1 := set_th s t (mkT Idle (remove_at i hs))).
  set (s' := set_th s1 t' _).
  assert (Ht1 : nth_error (ths s1) t' = Some th').
  { cbn. rewrite (nth_update_at _ _ _ _ _ Ht). apply Nat.eqb_neq in Hne. now rewrite Hne. }
  assert (Hth : forall t2 th2, nth_error (ths s') t2 = Some th2 ->
            exists th0, nth_error (ths s) t2 = Some th0 /\ at_ th0 = at_ th2).
  { intros t2 th2 H. cbn in H. rewrite (nth_update_at _ _ _ _ _ Ht1) in H.
    destruct (Nat.eqb_spec t2 t') as [->|]; [injection H as <-; eauto|].
    cbn in H. rewrite (nth_update_at _ _ _ _ _ Ht) in H.
    destruct (Nat.eqb_spec t2 t) as [->|]; [injection H as <-; eauto|eauto]. }
  assert (Hr : forall x, refs s' x = refs s x).
  { intros x. pose proof (refs_update s s1 t _ _ x Ht eq_refl) as R1.
    pose proof (refs_update s1 s' t' _ _ x Ht1 eq_refl) as R2.
    unfold cnt in R1, R2. cbn [at_ handles owned occ cur s1 s' set_th] in R1, R2.
    rewrite occ_app in R2. cbn [occ] in R2. pose proof (occ_remove x _ _ _ Hi). lia. }
  assert (Hf : forall x, frees s' x = frees s x).
  { intros x. pose proof (frees_update s s1 t _ _ x Ht eq_refl) as R1.
    pose proof (frees_update s1 s' t' _ _ x Ht1 eq_refl) as R2.
    cbn [at_ freeing] in R1, R2. lia. }
  constructor.
  - pose proof (total_update (fun th => b2n (in_cs (at_ th))) _ _ _ (mkT Idle (remove_at i hs)) Ht) as R1.
    pose proof (total_update (fun th => b2n (in_cs (at_ th))) _ _ _
                  (mkT (at_ th') (handles th' ++ [a])) Ht1) as R2.
    pose proof (g_cs _ _ _ _ G). cbn in R1, R2 |- *. lia.
  - intros x. rewrite Hr, Hf. exact (g_heap _ _ _ _ G x).
  - intros t2 th2 H. destruct (Hth _ _ H) as (th0 & H0 & <-).
    apply pc_ok_keep with (s := s); [exact (g_pc _ _ _ _ G _ _ H0)|reflexivity|].
    intros x _ <-. apply Hr.
  - intros t2 th2 H. destruct (Hth _ _ H) as (th0 & H0 & <-).
    apply phase_ok_keep with (s := s);
      [exact (g_pc _ _ _ _ G _ _ H0)|exact (g_ph _ _ _ _ G _ _ H0)|reflexivity|reflexivity].
  - exact (g_cur _ _ _ _ G).
  - eapply held_keep; [|exact Ht1|reflexivity..].
    eapply held_keep; [exact (g_hold _ _ _ _ G)|exact Ht|reflexivity..].
Qed.

Lemma step_ok s t c qs v hold : good s qs v hold -> step_good s t c qs v hold.
Proof.
  intros G. unfold step_good, step.
  destruct (nth_error (ths s) t) as [[p hs]|] eqn:Ht; [|now left].
  pose proof (g_pc _ _ _ _ G _ _ Ht) as Hp. pose proof (g_ph _ _ _ _ G _ _ Ht) as Hq.
  pose proof (fun a => own_cell s qs v hold t _ a G Ht) as Own.
  cbn [at_ handles] in *.
  destruct p, c; try (now left); cbn [pc_ok phase_ok] in Hp, Hq.
  - (* load *)
    go G Ht s t qs v hold [Obs (Call t (@OLoad V))] (QCalled (@OLoad V)) v hold.
  - (* store *)
    destruct (nth_error hs i) as [b|] eqn:Hi; [|now left].
    destruct (Own b (cnt_handle _ _ _ _ Hi)) as (c & Hc & Hr & Hr' & Hfr).
    unfold rcell. rewrite Hc. cbn [rbind].
    go G Ht s t qs v hold [Obs (Call t (OStore (val c)))] (QCalled (OStore (val c))) v hold.
  - (* exchange *)
    destruct (nth_error hs i) as [b|] eqn:Hi; [|now left].
    destruct (Own b (cnt_handle _ _ _ _ Hi)) as (c & Hc & Hr & Hr' & Hfr).
    unfold rcell. rewrite Hc. cbn [rbind].
    go G Ht s t qs v hold [Obs (Call t (OExchange (val c)))] (QCalled (OExchange (val c))) v hold.
  - (* update *)
    go G Ht s t qs v hold [Obs (Call t (OUpdate f))] (QCalled (OUpdate f)) v hold.
  - (* new *)
    unfold alloc. destruct (heap s a) eqn:Ha; [now left|].
    pose proof (g_heap _ _ _ _ G a) as Hz. rewrite Ha in Hz.
    pose proof (g_cur _ _ _ _ G) as Hcur.
    go G Ht s t qs v hold (@nil (xevent V)) (@QIdle V) v hold.
    + at_cell G Ht s t a.
    + intros x H1 H2 H3. split; [|exact H3]. unfold cnt in *. cbn in *. rewrite occ_app. cbn.
      destruct (Nat.eqb_spec a x); [subst; lia|]. cbn. lia.
    + alloc_vals G Ha.
    + alloc_cur G Ha.
  - (* copy *)
    destruct (nth_error hs i) as [a|] eqn:Hi; [|now left].
    destruct (Own a (cnt_handle _ _ _ _ Hi)) as (c & Hc & Hr & Hr' & Hfr).
    unfold inc, rcell. rewrite Hc. cbn [rbind].
    go G Ht s t qs v hold (@nil (xevent V)) (@QIdle V) v hold.
    + at_cell G Ht s t a.
    + intros x _. eapply vals_count; [exact Hc|reflexivity].
    + erewrite vals_count; [exact (g_cur _ _ _ _ G)|exact Hc|reflexivity].
  - (* drop *)
    destruct (nth_error hs i) as [a|] eqn:Hi; [|now left].
    go G Ht s t qs v hold (@nil (xevent V)) (@QIdle V) v hold.
  - (* rvalue update *)
    destruct (nth_error hs i) as [a|] eqn:Hi; [|now left].
    go G Ht s t qs v hold (@nil (xevent V)) (@QIdle V) v hold.
  - (* send *)
    destruct (nth_error hs i) as [a|] eqn:Hi; [|now left].
    destruct (nth_error (ths s) t') as [th'|] eqn:Ht'; [|now left].
    destruct (Nat.eqb_spec t' t) as [|Hne]; [now left|]. right.
    eexists _, [], [], (qs t), v, hold. do 4 (split; [repeat split|]).
    apply good_same. eapply send_ok; eauto.
  - (* RetU *) go G Ht s t qs v hold [Obs (Return t (@RUnit V))] (@QIdle V) v hold.
  - (* RetH *)
    destruct Hq as (w & Hw & Hq).
    destruct (Own a) as (c & Hc & Hr & Hr' & Hfr); [unfold cnt; cbn; rewrite Nat.eqb_refl; cbn; lia|].
    unfold rcell. rewrite Hc. cbn [rbind]. unfold vals in Hw. rewrite Hc in Hw.
    injection Hw as Hw. rewrite Hw.
    go G Ht s t qs v hold [Obs (Return t (RVal w))] (@QIdle V) v hold.
  - (* PutH *) go G Ht s t qs v hold (@nil (xevent V)) (@QIdle V) v hold.
  - (* Dec *)
    destruct Hp as [Hk Hp].
    destruct (Own a) as (c & Hc & Hr & Hr' & Hfr); [unfold cnt; cbn; rewrite Nat.eqb_refl; cbn; lia|].
    unfold dec, rcell. rewrite Hc. cbn [rbind].
    destruct (rc c) as [|m] eqn:Em; [lia|]. cbn [rbind].
    assert (Hf : forall x, freeing x p = 0) by (destruct p; easy).
    assert (Hkeep : forall s', ths s' = update_at t (mkT (if m =? 0 then Free a p else p) hs) (ths s) ->
        heap s' = upd (heap s) a (Some (mkCell m (val c))) -> cur s' = cur s ->
        pc_ok s' p /\ phase_ok s' p (qs t)).
    { intros s' E1 E2 E3. split.
      - apply pc_ok_keep with (s := s); auto. intros x Hx H1.
        pose proof (refs_update s s' t _ _ x Ht E1) as R. unfold cnt in R. cbn [at_ handles] in R.
        rewrite E3 in R. pose proof (cnt_refs s t _ x Ht) as Hle. unfold cnt in Hle.
        cbn [at_ handles owned occ] in R, Hle.
        destruct (m =? 0); cbn [owned] in R; destruct (a =? x); cbn [b2n] in *; lia.
      - apply phase_ok_keep with (s := s); auto; intros; eapply vals_count; eauto. }
    destruct (Nat.eqb_spec m 0) as [->|Hm].
    + go G Ht s t qs v hold (@nil (xevent V)) (qs t) v hold.
      * at_cell G Ht s t a.
      * intros x _. eapply vals_count; [exact Hc|reflexivity].
      * cbn [pc_ok at_]. split; [exact Hk|]. now apply Hkeep.
      * cbn [phase_ok at_]. now apply Hkeep.
      * erewrite vals_count; [exact (g_cur _ _ _ _ G)|exact Hc|reflexivity].
    + go G Ht s t qs v hold (@nil (xevent V)) (qs t) v hold.
      * let x := fresh "x" in counts G Ht s t x; unfold upd; rewrite Hf in F;
          destruct (Nat.eqb_spec x a) as [->|].
        -- rewrite Nat.eqb_refl in R. cbn [b2n rc] in *. rewrite Hc in Hx.
           apply Nat.eqb_neq in Hm. rewrite Hm. cbn [b2n]. lia.
        -- replace (a =? x) with false in R by (symmetry; apply Nat.eqb_neq; congruence).
           cbn [b2n] in R. destruct (heap s x); lia.
      * intros x _. eapply vals_count; [exact Hc|reflexivity].
      * now apply Hkeep.
      * now apply Hkeep.
      * erewrite vals_count; [exact (g_cur _ _ _ _ G)|exact Hc|reflexivity].
  - (* Free *)
    destruct Hp as [Hk Hp].
    assert (Hf : forall x, freeing x p = 0) by (destruct p; easy).
    assert (Hz : exists c, heap s a = Some c /\ rc c = 0 /\ refs s a = 0 /\ frees s a = 1).
    { pose proof (g_heap _ _ _ _ G a) as H.
      pose proof (total_nth (fun th => freeing a (at_ th)) _ _ _ Ht) as H'.
      cbn [at_ freeing] in H'. rewrite Nat.eqb_refl in H'. cbn [b2n] in H'. fold (frees s a) in H'.
      destruct (heap s a) as [c|]; [|lia]. exists c. destruct H as [H1 H2].
      destruct (Nat.eqb_spec (rc c) 0); cbn [b2n] in H2; [|lia]. repeat split; auto; lia. }
    destruct Hz as (c & Hc & Hrc & Hr & Hfr).
    assert (Hvals : forall s' x, heap s' = upd (heap s) a None -> 0 < refs s x ->
        vals s' x = vals s x).
    { intros s' x E H. unfold vals. rewrite E. unfold upd.
      destruct (Nat.eqb_spec x a) as [->|]; [lia|reflexivity]. }
    pose proof (fun x => cnt_refs s t _ x Ht) as Hle.
    unfold rcell. rewrite Hc. cbn [rbind].
    go G Ht s t qs v hold (@nil (xevent V)) (qs t) v hold.
    + let x := fresh "x" in counts G Ht s t x; unfold upd; rewrite Hf in F;
          destruct (Nat.eqb_spec x a) as [->|].
      * rewrite Nat.eqb_refl in F. cbn [b2n] in F. lia.
      * replace (a =? x) with false in F by (symmetry; apply Nat.eqb_neq; congruence).
        cbn [b2n] in F. destruct (heap s x); lia.
    + intros x Hx. apply Hvals; [reflexivity|lia].
    + cbn [at_]. apply pc_ok_keep with (s := s); auto. intros x Hx H1.
      match goal with |- refs ?s' x = 1 =>
        pose proof (refs_update s s' t _ _ x Ht eq_refl) as R end.
      unfold cnt in R. cbn [at_ handles owned cur move set_th set_heap] in R. lia.
    + cbn [at_]. apply phase_ok_keep with (s := s); auto.
      * intros x Hx. apply Hvals; [reflexivity|]. specialize (Hle x). unfold cnt in Hle.
        cbn [at_ handles owned] in Hle. lia.
      * intros _. apply Hvals; [reflexivity|apply cur_ref].
    + etransitivity; [apply Hvals; [reflexivity|exact (cur_ref s)]|exact (g_cur _ _ _ _ G)].
  - (* LoadLock *)
    destruct (flag s) eqn:Hf.
    + right. exists s, [], [], (qs t), v, hold. do 4 (split; [repeat split|]). now apply good_same.
    + pose proof (hold_free _ _ _ _ G Hf) as ->.
      go G Ht s t qs v (@None nat) (@nil (xevent V)) (qs t) v (Some t).
      * cbn. rewrite Hf. reflexivity.
      * eapply held_take; [exact Ht|reflexivity..].
  - (* LoadRead *)
    destruct u as [f|].
    + go G Ht s t qs v hold (@nil (xevent V)) (qs t) v hold.
    + go G Ht s t qs v hold [Lin t (@OLoad V) (RVal v)] (QDone (RVal v)) v hold.
      cbn [phase_ok at_]. exists v. split; [exact (g_cur _ _ _ _ G)|reflexivity].
  - (* LoadInc *)
    subst a. destruct (ref_cell _ _ _ _ _ G (cur_ref s)) as (c & Hc & Hr & Hr' & Hfr).
    unfold inc, rcell. rewrite Hc. cbn [rbind].
    go G Ht s t qs v hold (@nil (xevent V)) (qs t) v hold.
    + at_cell G Ht s t (cur s).
    + intros x H1 H2 H3. split; [|exact H3]. unfold cnt in *.
      cbn [at_ handles owned occ] in *. apply Nat.eqb_neq in H3. rewrite H3. cbn [b2n]. lia.
    + intros x _. eapply vals_count; [exact Hc|reflexivity].
    + cbn [phase_ok at_]. destruct u; [exact Hq|].
      erewrite vals_count; [exact Hq|exact Hc|reflexivity].
    + erewrite vals_count; [exact (g_cur _ _ _ _ G)|exact Hc|reflexivity].
  - (* LoadUnlock *)
    destruct (hold_in _ _ _ _ _ _ G Ht eq_refl) as [Hf ->].
    destruct u; go G Ht s t qs v (Some t) (@nil (xevent V)) (qs t) v (@None nat);
      try (cbn; rewrite Hf; reflexivity); reflexivity.
  - (* SwapLock *)
    destruct (flag s) eqn:Hf.
    + right. exists s, [], [], (qs t), v, hold. do 4 (split; [repeat split|]). now apply good_same.
    + pose proof (hold_free _ _ _ _ G Hf) as ->.
      go G Ht s t qs v (@None nat) (@nil (xevent V)) (qs t) v (Some t).
      * cbn. rewrite Hf. reflexivity.
      * eapply held_take; [exact Ht|reflexivity..].
  - (* SwapRead *)
    go G Ht s t qs v hold (@nil (xevent V)) (qs t) v hold.
  - (* SwapWrite *)
    subst t0. destruct Hq as (w & Hw & Hq). destruct ex.
    + go G Ht s t qs v hold [Lin t (OExchange w) (RVal v)] (QDone (RVal v)) w hold.
      * right. reflexivity.
      * swap_unique b.
      * cbn [phase_ok at_]. exists v. split; [exact (g_cur _ _ _ _ G)|reflexivity].
      * exact Hw.
    + go G Ht s t qs v hold [Lin t (OStore w) (@RUnit V)] (QDone (@RUnit V)) w hold.
      * right. reflexivity.
      * swap_unique b.
      * exact Hw.
  - (* SwapUnlock *)
    destruct (hold_in _ _ _ _ _ _ G Ht eq_refl) as [Hf ->].
    destruct ex; go G Ht s t qs v (Some t) (@nil (xevent V)) (qs t) v (@None nat);
      try (cbn; rewrite Hf; reflexivity); reflexivity.
  - (* UpdCall *)
    destruct (Own o) as (c & Hc & Hr & Hr' & Hfr); [unfold cnt; cbn; rewrite Nat.eqb_refl; cbn; lia|].
    unfold rcell. rewrite Hc. cbn [rbind].
    unfold alloc. destruct (heap s a) eqn:Ha; [now left|].
    pose proof (g_heap _ _ _ _ G a) as Hz. rewrite Ha in Hz.
    go G Ht s t qs v hold (@nil (xevent V)) (qs t) v hold.
    + at_cell G Ht s t a.
    + alloc_unique a.
    + alloc_vals G Ha.
    + cbn [phase_ok at_]. exists (val c). unfold vals.
      cbn [heap move set_th set_heap]. unfold upd. rewrite Nat.eqb_refl.
      destruct (Nat.eqb_spec o a) as [->|_]; [congruence|]. rewrite Hc. auto.
    + alloc_cur G Ha.
  - (* CasLock *)
    destruct (flag s) eqn:Hf.
    + right. exists s, [], [], (qs t), v, hold. do 4 (split; [repeat split|]). now apply good_same.
    + pose proof (hold_free _ _ _ _ G Hf) as ->.
      go G Ht s t qs v (@None nat) (@nil (xevent V)) (qs t) v (Some t).
      * cbn. rewrite Hf. reflexivity.
      * eapply held_take; [exact Ht|reflexivity..].
  - (* CasCmp *)
    destruct (Nat.eqb_spec o (cur s)) as [Ho|Ho].
    + go G Ht s t qs v hold (@nil (xevent V)) (qs t) v hold.
    + go G Ht s t qs v hold (@nil (xevent V)) (qs t) v hold.
      destruct Hq as (w & _ & _ & Hq). exact Hq.
  - (* CasInc *)
    destruct (Own n) as (c & Hc & Hr & Hr' & Hfr); [unfold cnt; cbn; rewrite Nat.eqb_refl; cbn; lia|].
    unfold inc, rcell. rewrite Hc. cbn [rbind].
    go G Ht s t qs v hold (@nil (xevent V)) (qs t) v hold.
    + at_cell G Ht s t n.
    + intros x _. eapply vals_count; [exact Hc|reflexivity].
    + destruct Hq as (w & Hw1 & Hw2 & Hq). exists w.
      split; [|split; [|exact Hq]]; (erewrite vals_count; [eassumption|exact Hc|reflexivity]).
    + erewrite vals_count; [exact (g_cur _ _ _ _ G)|exact Hc|reflexivity].
  - (* CasRead *)
    go G Ht s t qs v hold (@nil (xevent V)) (qs t) v hold.
  - (* CasWrite *)
    destruct Hp as [-> ->]. destruct Hq as (w & Hw & Hn & Hq).
    assert (w = v) as -> by (rewrite (g_cur _ _ _ _ G) in Hw; congruence).
    go G Ht s t qs v hold [Lin t (OUpdate f) (RVal (f v))] (QDone (RVal (f v))) (f v) hold.
    + right. reflexivity.
    + swap_unique n.
    + exact Hn.
  - (* CasInc2 *)
    destruct (Own n) as (c & Hc & Hr & Hr' & Hfr); [unfold cnt; cbn; rewrite Nat.eqb_refl; cbn; lia|].
    unfold inc, rcell. rewrite Hc. cbn [rbind].
    go G Ht s t qs v hold (@nil (xevent V)) (qs t) v hold.
    + at_cell G Ht s t n.
    + intros x _. eapply vals_count; [exact Hc|reflexivity].
    + cbn [phase_ok at_]. erewrite vals_count; [exact Hq|exact Hc|reflexivity].
    + erewrite vals_count; [exact (g_cur _ _ _ _ G)|exact Hc|reflexivity].
  - (* CasUnlock *)
    destruct (hold_in _ _ _ _ _ _ G Ht eq_refl) as [Hf ->].
    go G Ht s t qs v (Some t) (@nil (xevent V)) (qs t) v (@None nat).
    + cbn. rewrite Hf. reflexivity.
    + reflexivity.
  - (* FailUnlock *)
    destruct (hold_in _ _ _ _ _ _ G Ht eq_refl) as [Hf ->].
    go G Ht s t qs v (Some t) (@nil (xevent V)) (qs t) v (@None nat).
    + cbn. rewrite Hf. reflexivity.
    + reflexivity.
  - (* RvTest *)
    destruct (Own a) as (c & Hc & Hr & Hr' & Hfr); [unfold cnt; cbn; rewrite Nat.eqb_refl; cbn; lia|].
    unfold rcell. rewrite Hc. cbn [rbind].
    destruct (Nat.eqb_spec (rc c) 1) as [H1|H1];
      go G Ht s t qs v hold (@nil (xevent V)) (qs t) v hold.
    cbn [pc_ok at_].
    match goal with |- refs ?s' _ = 1 =>
      pose proof (refs_update s s' t _ _ a Ht eq_refl) as R end.
    unfold cnt in R. cbn [at_ handles owned cur move set_th] in R. lia.
  - (* RvWrite *)
    destruct (Own a) as (c & Hc & Hr & Hr' & Hfr); [unfold cnt; cbn; rewrite Nat.eqb_refl; cbn; lia|].
    unfold rcell. rewrite Hc. cbn [rbind].
    go G Ht s t qs v hold (@nil (xevent V)) (qs t) v hold.
    + at_cell G Ht s t a.
    + intros x Hx. unfold vals. cbn [heap move set_th set_heap]. unfold upd.
      destruct (Nat.eqb_spec x a) as [->|]; [|reflexivity].
      unfold cnt in Hx. cbn [at_ handles owned occ] in Hx. rewrite Nat.eqb_refl in Hx.
      cbn [b2n] in Hx. lia.
    + pose proof (g_cur _ _ _ _ G) as Hcur. unfold vals in *.
      cbn [heap cur move set_th set_heap]. unfold upd.
      destruct (Nat.eqb_spec (cur s) a) as [E|]; [|exact Hcur].
      pose proof (cnt_refs s t _ a Ht) as Hle. unfold cnt in Hle.
      cbn [at_ handles owned occ] in Hle. rewrite E, Nat.eqb_refl in Hle. cbn [b2n] in Hle. lia.
  - (* RvNew *)
    destruct (Own a) as (c & Hc & Hr & Hr' & Hfr); [unfold cnt; cbn; rewrite Nat.eqb_refl; cbn; lia|].
    unfold rcell. rewrite Hc. cbn [rbind].
    rename a0 into n. unfold alloc. destruct (heap s n) eqn:Ha; [now left|].
    pose proof (g_heap _ _ _ _ G n) as Hz. rewrite Ha in Hz.
    go G Ht s t qs v hold (@nil (xevent V)) (qs t) v hold.
    + at_cell G Ht s t n.
    + alloc_unique n.
    + alloc_vals G Ha.
    + alloc_cur G Ha.
Qed.

(** The start. *)
Lemma init_good n v0 : good (init n v0) (fun _ => QIdle) v0 None.
Proof.
  assert (Hn : forall t th, nth_error (ths (init n v0)) t = Some th -> th = mkT Idle []).
  { intros t th H. apply nth_error_In in H. cbn in H. now apply repeat_spec in H. }
  assert (Ht : forall f : thread -> nat, f (mkT Idle []) = 0 -> total f (ths (init n v0)) = 0).
  { intros f Hf. clear Hn. cbn. induction n; cbn; lia. }
  constructor.
  - now rewrite Ht.
  - intros a. unfold refs, frees. rewrite !Ht by reflexivity. cbn. unfold upd.
    destruct a; cbn; auto.
  - intros t th H. rewrite (Hn _ _ H). exact Logic.I.
  - intros t th H. rewrite (Hn _ _ H). reflexivity.
  - reflexivity.
  - reflexivity.
Qed.

(** A run: no undefined behaviour, a linearization of its history, the lock respected. *)
Lemma run_ok sched : forall s qs v hold, good s qs v hold ->
  exists s' es xs qs' v' hold', run s sched = Ok (s', es) /\
    observed xs = filter is_call es /\ (forall t, follows t (qs t) xs) /\ legal v xs /\
    contents v xs = v' /\ exclusive hold es /\ good s' qs' v' hold'.
Proof.
  induction sched as [|[t c] sched IH]; intros s qs v hold G.
  - exists s, [], [], qs, v, hold. do 6 (split; [now cbn|]). exact G.
  - cbn [run]. destruct (step_ok s t c qs v hold G) as [E|H].
    + rewrite E. cbn [rbind]. now apply IH.
    + destruct H as (s1 & es & xs & q & v1 & h1 & E & Ho & Ha & Hl & G1).
      rewrite E. cbn [rbind].
      destruct (IH _ _ _ _ G1) as (s2 & es2 & xs2 & qs2 & v2 & h2 & E2 & Ho2 & Hf2 & Hl2 & Hc2 & He2 & G2).
      rewrite E2. cbn [rbind]. exists s2, (es ++ es2), (xs ++ xs2), qs2, v2, h2.
      split; [reflexivity|].
      assert (Happ : forall (l m : list (xevent V)), observed (l ++ m) = observed l ++ observed m).
      { induction l as [|[e|? ? ?] l IHl]; intros m; cbn; [reflexivity|now rewrite IHl|apply IHl]. }
      split; [now rewrite Happ, filter_app, Ho, Ho2|].
      split; [|split; [|split; [|split; [|exact G2]]]].
      * intros t2. specialize (Hf2 t2). cbv beta in Hf2.
        rewrite Nat.eqb_sym in Hf2.
        destruct xs as [|x [|]]; [|destruct x as [[]|]|destruct x as [[]|]]; cbn in Ha |- *;
          try contradiction; destruct Ha as [-> Ha];
          destruct (Nat.eqb_spec t t2) as [->|]; auto; intuition congruence.
      * destruct xs as [|x [|]]; [|destruct x as [[]|]|destruct x as [[]|]]; cbn in Ha |- *;
          try contradiction; try (destruct Ha as [_ ->]; assumption);
          try (destruct Ha as (_ & _ & _ & ->); assumption).
        destruct Ha as (_ & _ & _ & Ha). rewrite Ha. auto.
      * destruct xs as [|x [|]]; [|destruct x as [[]|]|destruct x as [[]|]]; cbn in Ha |- *;
          try contradiction; try (destruct Ha as [_ ->]; assumption);
          try (destruct Ha as (_ & _ & _ & ->); assumption).
      * destruct es as [|e [|]]; [|destruct e|destruct e]; cbn in Hl |- *;
          try contradiction; try (subst; assumption);
          destruct Hl as (-> & -> & ->); auto.
Qed.

(** A step changes no value that is referenced, except the in-place update. *)
Lemma step_vals s t c s' es qs v hold : good s qs v hold -> step s t c = Ok (Some (s', es)) ->
  forall a, vals s' a = vals s a \/ refs s a = 0 \/
    exists f hs, nth_error (ths s) t = Some (mkT (RvWrite a f) hs).
Proof.
  intros G E a. unfold step in E.
  destruct (nth_error (ths s) t) as [[p hs]|] eqn:Ht; [|discriminate].
  pose proof (g_heap _ _ _ _ G a) as Ha.
  assert (Hz : heap s a = None -> refs s a = 0) by (intros X; rewrite X in Ha; tauto).
  cbn [at_ handles] in E.
  destruct p, c; try discriminate E;
    unfold inc, dec, alloc, rcell in E;
    repeat match type of E with
    | context[match ?x with _ => _ end] => destruct x eqn:?; try discriminate E
    end;
    cbn [rbind] in E;
    repeat match type of E with
    | context[match ?x with _ => _ end] => destruct x eqn:?; try discriminate E
    end;
    injection E as <- <-; try (left; reflexivity);
    unfold vals; cbn [heap move set_th set_heap]; unfold upd;
    try match goal with |- context[a =? ?b] => destruct (Nat.eqb_spec a b) as [->|];
      [|left; reflexivity] end;
    try (right; left; apply Hz; assumption);
    try (left; match goal with H : heap s _ = Some _ |- _ => rewrite H end; reflexivity).
  - destruct (heap s a0) eqn:E0; [discriminate|]. injection Heqo as <-.
    cbn [heap set_heap]. unfold upd. destruct (Nat.eqb_spec a a0) as [->|]; [|now left].
    right. left. now apply Hz.
  - right. left.
    match goal with H : nth_error (ths s) t = Some (mkT (Free ?x _) _) |- _ =>
      pose proof (total_nth (fun th => freeing x (at_ th)) _ _ _ H) as H';
      fold (frees s x) in H'; cbn [at_ freeing] in H'; rewrite Nat.eqb_refl in H' end.
    cbn [b2n] in H'. destruct (heap s a0) as [c1|]; [|tauto]. destruct Ha as [H1 H2].
    destruct (Nat.eqb_spec (rc c1) 0); cbn [b2n] in H2; lia.
  - right. right. eauto.
Qed.
End Proofs.
