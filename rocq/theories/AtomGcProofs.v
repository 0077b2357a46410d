(** Linearization of the garbage-collected atom. *)
From Coq Require Import List Arith Bool Lia.
From Verif Require Import Common AtomSpec AtomGc AtomProofs.
Import ListNotations.
Set Default Goal Selector "!".

Section Proofs.
Context {V : Type}.
Notation gpc := (gpc V). Notation gthread := (gthread V). Notation gstate := (gstate V).

Definition gphase (h : nat -> option V) (p : gpc) (q : phase V) : Prop :=
  match p with
  | GIdle => q = QIdle
  | GRetU => q = QDone RUnit
  | GRet a => exists v, h a = Some v /\ q = QDone (RVal v)
  | GLoad => q = QCalled OLoad
  | GStore b => exists v, h b = Some v /\ q = QCalled (OStore v)
  | GExchange b => exists v, h b = Some v /\ q = QCalled (OExchange v)
  | GUpdLoad f => q = QCalled (OUpdate f)
  | GUpdCall f o => (exists v, h o = Some v) /\ q = QCalled (OUpdate f)
  | GCas f o n => exists v, h o = Some v /\ h n = Some (f v) /\ q = QCalled (OUpdate f)
  end.

Record ggood (s : gstate) (qs : nat -> phase V) (v : V) : Prop := mkGG
  { gg_cur : gheap s (gcur s) = Some v;
    gg_hs : forall t th a, nth_error (gths s) t = Some th -> In a (ghs th) -> gheap s a <> None;
    gg_ph : forall t th, nth_error (gths s) t = Some th -> gphase (gheap s) (gat th) (qs t) }.

Lemma gin_in a l : gin a l = true <-> In a l.
Proof.
  unfold gin. rewrite existsb_exists. split.
  - intros (x & H & E). apply Nat.eqb_eq in E. now subst.
  - intros H. exists a. split; [assumption|apply Nat.eqb_refl].
Qed.
Lemma rooted_th (s : gstate) a t th : grooted s a = false -> nth_error (gths s) t = Some th ->
  ~ In a (groots th).
Proof.
  unfold grooted. intros H Ht Ha. apply orb_false_elim in H. destruct H as [_ H].
  rewrite (proj2 (existsb_exists _ _)) in H; [discriminate|].
  exists th. split; [now apply nth_error_In in Ht|now apply gin_in].
Qed.
Lemma gphase_keep h h' p q : gphase h p q ->
  (forall a, In a (groots_pc p) -> h' a = h a) -> gphase h' p q.
Proof.
  intros H E. destruct p; cbn in *; auto; rewrite ?E by auto; auto.
Qed.

(** A step of thread [t] that keeps the values of everything referred to. *)
Lemma gframe s s' t th th' qs q v v' : ggood s qs v ->
  nth_error (gths s) t = Some th -> gths s' = update_at t th' (gths s) ->
  (forall a, grooted s a = true -> gheap s' a = gheap s a) ->
  (forall a, In a (ghs th') -> gheap s' a <> None) ->
  gphase (gheap s') (gat th') q -> gheap s' (gcur s') = Some v' ->
  ggood s' (fun x => if x =? t then q else qs x) v'.
Proof.
  intros G Ht E Hh Hhs Hq Hc.
  assert (Hr : forall t2 th2 a, nth_error (gths s) t2 = Some th2 -> In a (groots th2) ->
            gheap s' a = gheap s a).
  { intros t2 th2 a H2 Ha. apply Hh. destruct (grooted s a) eqn:R; [reflexivity|].
    exfalso. now apply (rooted_th _ _ _ _ R H2). }
  constructor; auto.
  - intros t2 th2 a H2 Ha. rewrite E, (nth_update_at _ _ _ _ _ Ht) in H2.
    destruct (Nat.eqb_spec t2 t) as [->|]; [injection H2 as <-; auto|].
    rewrite (Hr _ _ _ H2) by (apply in_or_app; auto).
    exact (gg_hs _ _ _ G _ _ _ H2 Ha).
  - intros t2 th2 H2. rewrite E, (nth_update_at _ _ _ _ _ Ht) in H2.
    destruct (Nat.eqb_spec t2 t) as [->|]; [injection H2 as <-; auto|].
    apply gphase_keep with (h := gheap s); [exact (gg_ph _ _ _ G _ _ H2)|].
    intros a Ha. apply (Hr _ _ _ H2). apply in_or_app. auto.
Qed.

Definition gstep_good (s : gstate) (t : nat) (c : gchoice V) (qs : nat -> phase V) (v : V)
  : Prop :=
  gstep s t c = Ok None \/
  exists s' es xs q' v', gstep s t c = Ok (Some (s', es)) /\
    observed xs = filter is_call es /\ adv t (qs t) v xs q' v' /\
    ggood s' (fun x => if x =? t then q' else qs x) v'.

Lemma galloc_heap (s : gstate) a v s' : galloc s a v = Some s' ->
  gths s' = gths s /\ gcur s' = gcur s /\ gheap s' a = Some v /\ grooted s a = false /\
  (forall x, x <> a -> gheap s' x = gheap s x) /\
  (forall x, grooted s x = true -> gheap s' x = gheap s x).
Proof.
  unfold galloc. destruct (grooted s a) eqn:R; [discriminate|]. intros H. injection H as <-. cbn.
  rewrite Nat.eqb_refl. repeat split; auto.
  - intros x H. apply Nat.eqb_neq in H. now rewrite H.
  - intros x H. destruct (Nat.eqb_spec x a); [congruence|reflexivity].
Qed.
Lemma cur_rooted (s : gstate) : grooted s (gcur s) = true.
Proof. unfold grooted. now rewrite Nat.eqb_refl. Qed.
Lemma gremove_in {A} (l : list A) : forall i x, In x (remove_at i l) -> In x l.
Proof.
  induction l as [|y l IH]; intros [|i] x H; cbn in *; auto. destruct H; eauto.
Qed.

Ltac ggo G Ht s t qs v xs q v' :=
  right; eexists _, _, xs, q, v';
  split; [reflexivity|]; split; [reflexivity|];
  split; [try solve [cbn; repeat split; eauto]|];
  eapply (gframe s _ t _ _ qs _ v _ G Ht);
  [ reflexivity
  | try reflexivity
  | try solve [cbn [ghs]; eauto]
  | try solve [cbn [gphase gat]; eauto]
  | try exact (gg_cur _ _ _ G) ].

Lemma gstep_ok s t c qs v : ggood s qs v -> gstep_good s t c qs v.
Proof.
  intros G. unfold gstep_good, gstep.
  destruct (nth_error (gths s) t) as [[p hs]|] eqn:Ht; [|now left].
  pose proof (gg_ph _ _ _ G _ _ Ht) as Hq.
  assert (Hhs : forall a, In a hs -> gheap s a <> None) by (intros a; exact (gg_hs _ _ _ G _ _ a Ht)).
  assert (Happ : forall a b, gheap s b <> None -> In a (hs ++ [b]) -> gheap s a <> None).
  { intros a b Hb Ha. apply in_app_or in Ha. destruct Ha as [|[->|[]]]; auto. }
  cbn [gat ghs] in *.
  destruct p, c; try (now left); cbn [gphase] in Hq.
  - ggo G Ht s t qs v [Obs (Call t (@OLoad V))] (QCalled (@OLoad V)) v.
  - destruct (nth_error hs i) as [b|] eqn:Hi; [|now left].
    pose proof (Hhs b (nth_error_In _ _ Hi)) as Hb. unfold gread.
    destruct (gheap s b) as [w|] eqn:Ew; [|easy]. cbn [rbind].
    ggo G Ht s t qs v [Obs (Call t (OStore w))] (QCalled (OStore w)) v.
  - destruct (nth_error hs i) as [b|] eqn:Hi; [|now left].
    pose proof (Hhs b (nth_error_In _ _ Hi)) as Hb. unfold gread.
    destruct (gheap s b) as [w|] eqn:Ew; [|easy]. cbn [rbind].
    ggo G Ht s t qs v [Obs (Call t (OExchange w))] (QCalled (OExchange w)) v.
  - ggo G Ht s t qs v [Obs (Call t (OUpdate f))] (QCalled (OUpdate f)) v.
  - destruct (galloc s a v0) as [s1|] eqn:Ea; [|now left].
    destruct (galloc_heap _ _ _ _ Ea) as (E1 & E2 & E3 & E4 & E5 & E6).
    right. eexists _, _, [], QIdle, v. split; [reflexivity|]. do 2 (split; [cbn; auto|]).
    eapply (gframe s _ t _ _ qs _ v _ G Ht); cbn [gths gset gheap gcur ghs gat gphase]; auto.
    + now rewrite E1.
    + intros x Hx. destruct (Nat.eq_dec x a) as [->|Hne]; [congruence|].
      rewrite E5 by assumption. apply Hhs. apply in_app_or in Hx.
      destruct Hx as [|[|[]]]; congruence.
    + reflexivity.
    + rewrite E2, E6 by apply cur_rooted. exact (gg_cur _ _ _ G).
  - destruct (nth_error hs i) as [b|] eqn:Hi; [|now left].
    pose proof (Hhs b (nth_error_In _ _ Hi)) as Hb.
    ggo G Ht s t qs v (@nil (xevent V)) (@QIdle V) v.
  - ggo G Ht s t qs v (@nil (xevent V)) (@QIdle V) v.
    intros x Hx. apply gremove_in in Hx. exact (Hhs _ Hx).
  - destruct (nth_error hs i) as [b|] eqn:Hi; [|now left].
    destruct (nth_error (gths s) t') as [th'|] eqn:Ht'; [|now left].
    right. eexists _, _, [], (qs t), v. split; [reflexivity|]. do 2 (split; [cbn; auto|]).
    assert (Gs : ggood (gset s t' (mkGT (gat th') (ghs th' ++ [b])))
                   (fun x => if x =? t' then qs t' else qs x) v).
    { eapply (gframe s _ t' _ _ qs _ v _ G Ht'); try reflexivity.
      - cbn [ghs]. intros x Hx. apply in_app_or in Hx. destruct Hx as [Hx|[<-|[]]].
        + exact (gg_hs _ _ _ G _ _ _ Ht' Hx).
        + exact (Hhs _ (nth_error_In _ _ Hi)).
      - exact (gg_ph _ _ _ G _ _ Ht').
      - exact (gg_cur _ _ _ G). }
    destruct Gs as [A B C]. constructor; auto.
    intros t2 th2 H2. specialize (C t2 th2 H2). cbv beta in C |- *.
    assert (E : (if t2 =? t' then qs t' else qs t2) = if t2 =? t then qs t else qs t2).
    { destruct (Nat.eqb_spec t2 t') as [X|], (Nat.eqb_spec t2 t) as [Y|]; congruence. }
    now rewrite <- E.
  - ggo G Ht s t qs v [Obs (Return t (@RUnit V))] (@QIdle V) v.
  - destruct Hq as (w & Hw & Hq). unfold gread. rewrite Hw. cbn [rbind].
    ggo G Ht s t qs v [Obs (Return t (RVal w))] (@QIdle V) v.
    cbn [ghs]. intros x. apply Happ. congruence.
  - ggo G Ht s t qs v [Lin t (@OLoad V) (RVal v)] (QDone (RVal v)) v.
    exists v. split; [exact (gg_cur _ _ _ G)|reflexivity].
  - destruct Hq as (w & Hw & Hq).
    ggo G Ht s t qs v [Lin t (OStore w) (@RUnit V)] (QDone (@RUnit V)) w.
    exact Hw.
  - destruct Hq as (w & Hw & Hq).
    ggo G Ht s t qs v [Lin t (OExchange w) (RVal v)] (QDone (RVal v)) w.
    + exists v. split; [exact (gg_cur _ _ _ G)|reflexivity].
    + exact Hw.
  - ggo G Ht s t qs v (@nil (xevent V)) (qs t) v.
    split; [|exact Hq]. exists v. exact (gg_cur _ _ _ G).
  - destruct Hq as [(w & Hw) Hq]. unfold gread. rewrite Hw. cbn [rbind].
    destruct (galloc s a (f w)) as [s1|] eqn:Ea; [|now left].
    destruct (galloc_heap _ _ _ _ Ea) as (E1 & E2 & E3 & E4 & E5 & E6).
    right. eexists _, _, [], (qs t), v. split; [reflexivity|]. do 2 (split; [cbn; auto|]).
    eapply (gframe s _ t _ _ qs _ v _ G Ht); cbn [gths gset gheap gcur ghs gat gphase]; auto.
    + now rewrite E1.
    + intros x Hx. destruct (Nat.eq_dec x a) as [->|Hne]; [congruence|].
      rewrite E5 by assumption. auto.
    + exists w. split; [|split; [exact E3|exact Hq]].
      rewrite E5; [exact Hw|]. intros ->. apply (rooted_th _ _ _ _ E4 Ht).
      apply in_or_app. right. now left.
    + rewrite E2, E6 by apply cur_rooted. exact (gg_cur _ _ _ G).
  - destruct Hq as (w & Hw & Hn & Hq).
    destruct (negb spurious && (gcur s =? o)) eqn:Hb.
    + apply andb_prop in Hb. destruct Hb as [_ Hb]. apply Nat.eqb_eq in Hb.
      assert (w = v) as -> by (pose proof (gg_cur _ _ _ G); congruence).
      ggo G Ht s t qs v [Lin t (OUpdate f) (RVal (f v))] (QDone (RVal (f v))) (f v).
      exact Hn.
    + ggo G Ht s t qs v (@nil (xevent V)) (qs t) v.
Qed.

Lemma ginit_good n (v0 : V) : ggood (ginit n v0) (fun _ => QIdle) v0.
Proof.
  assert (Hn : forall t th, nth_error (gths (ginit n v0)) t = Some th -> th = mkGT GIdle []).
  { intros t th H. apply nth_error_In in H. cbn in H. now apply repeat_spec in H. }
  constructor.
  - reflexivity.
  - intros t th a H. rewrite (Hn _ _ H). easy.
  - intros t th H. rewrite (Hn _ _ H). reflexivity.
Qed.

Lemma grun_ok sched : forall s qs v, ggood s qs v ->
  exists s' es xs qs' v', grun s sched = Ok (s', es) /\
    observed xs = filter is_call es /\ (forall t, follows t (qs t) xs) /\ legal v xs /\
    contents v xs = v' /\ ggood s' qs' v'.
Proof.
  induction sched as [|[t c] sched IH]; intros s qs v G.
  - exists s, [], [], qs, v. do 5 (split; [now cbn|]). exact G.
  - cbn [grun]. destruct (gstep_ok s t c qs v G) as [E|H].
    + rewrite E. cbn [rbind]. now apply IH.
    + destruct H as (s1 & es & xs & q & v1 & E & Ho & Ha & G1).
      rewrite E. cbn [rbind].
      destruct (IH _ _ _ G1) as (s2 & es2 & xs2 & qs2 & v2 & E2 & Ho2 & Hf2 & Hl2 & Hc2 & G2).
      rewrite E2. cbn [rbind]. exists s2, (es ++ es2), (xs ++ xs2), qs2, v2.
      split; [reflexivity|].
      assert (Happ : forall (l m : list (xevent V)), observed (l ++ m) = observed l ++ observed m).
      { induction l as [|[e|? ? ?] l IHl]; intros m; cbn; [reflexivity|now rewrite IHl|apply IHl]. }
      split; [now rewrite Happ, filter_app, Ho, Ho2|].
      split; [|split; [|split; [|exact G2]]].
      * intros t2. specialize (Hf2 t2). cbv beta in Hf2.
        rewrite Nat.eqb_sym in Hf2.
        destruct xs as [|x [|]]; [|destruct x as [[]|]|destruct x as [[]|]]; cbn in Ha |- *;
          try contradiction; destruct Ha as [-> Ha];
          destruct (Nat.eqb_spec t t2) as [->|]; auto; intuition congruence.
      * destruct xs as [|x [|]]; [|destruct x as [[]|]|destruct x as [[]|]]; cbn in Ha |- *;
          try contradiction; try (destruct Ha as [_ ->]; assumption);
          try (destruct Ha as (_ & _ & _ & ->); assumption).
        destruct Ha as (_ & _ & _ & Ha). rewrite Ha. auto.
      * destruct xs as [|x [|]]; [|destruct x as [[]|]|destruct x as [[]|]]; cbn in Ha |- *;
          try contradiction; try (destruct Ha as [_ ->]; assumption);
          try (destruct Ha as (_ & _ & _ & ->); assumption).
Qed.
End Proofs.
