(** The thread-safe free list when allocations do not overlap. *)
From Coq Require Import List Arith Bool NArith Lia.
From Verif Require Import Common FreeListSpec FreeList AtomProofs.
Import ListNotations.
Set Default Goal Selector "!".

(** Inside allocate. *)
Definition in_alloc (p : fpc) : bool :=
  match p with FLoad | FParent | FNext _ | FCas _ _ | FSub _ => true | _ => false end.
Definition calm (s : fstate) : Prop := forall t1 t2 th1 th2,
  nth_error (fths s) t1 = Some th1 -> nth_error (fths s) t2 = Some th2 ->
  in_alloc (fat th1) = true -> in_alloc (fat th2) = true -> t1 = t2.
(** Along the schedule no two threads are inside allocate. *)
Fixpoint apart (limit : N) (s : fstate) (sched : list (nat * fchoice)) : Prop :=
  match sched with
  | [] => True
  | (t, c) :: sched' =>
      match fstep limit s t c with
      | Ok (Some (s', _)) => calm s' /\ apart limit s' sched'
      | Ok None => apart limit s sched'
      | UB => True
      end
  end.

Fixpoint fchain (m : nat -> option (option nat)) (h : option nat) (l : list nat) : Prop :=
  match l with
  | [] => h = None
  | x :: l' => h = Some x /\ exists n, m x = Some n /\ fchain m n l'
  end.
Definition fowned (p : fpc) : list nat :=
  match p with FSub n | FCount n | FFree n | FLink n | FPush n => [n] | _ => [] end.
Definition fcnt (a : nat) (th : fthread) : nat := occ a (fhas th) + occ a (fowned (fat th)).
Definition live (m : nat -> option (option nat)) (a : nat) : nat :=
  match m a with Some _ => 1 | None => 0 end.
Definition fpc_ok (m : nat -> option (option nat)) (l : list nat) (p : fpc) : Prop :=
  match p with
  | FNext n => In n l
  | FCas n x => In n l /\ m n = Some x
  | _ => True
  end.

Record fgood (s : fstate) (l u : list nat) : Prop := mkFG
  { fg_chain : fchain (fmem s) (fhead s) l;
    fg_cnt : forall a, occ a l + total (fcnt a) (fths s) = live (fmem s) a;
    fg_pc : forall t th, nth_error (fths s) t = Some th -> fpc_ok (fmem s) l (fat th);
    fg_used : forall a, occ a u = total (fun th => occ a (fhas th)) (fths s) }.

Lemma fchain_eq m m' l : forall h, fchain m h l -> (forall a, In a l -> m' a = m a) ->
  fchain m' h l.
Proof.
  induction l as [|x l IH]; cbn; intros h H E; [assumption|].
  destruct H as (-> & n & Hn & H). split; [reflexivity|]. exists n. rewrite E by auto.
  split; [assumption|]. apply IH; auto.
Qed.

(** A step of [t] that changes nothing for the others. *)
Lemma fframe s s' l l' u u' t th th' : fgood s l u -> calm s ->
  nth_error (fths s) t = Some th -> fths s' = update_at t th' (fths s) ->
  fchain (fmem s') (fhead s') l' ->
  (forall a, occ a l' + fcnt a th' + live (fmem s) a = occ a l + fcnt a th + live (fmem s') a) ->
  in_alloc (fat th) = true \/ (forall n, In n l -> In n l' /\ fmem s' n = fmem s n) ->
  fpc_ok (fmem s') l' (fat th') ->
  (forall a, occ a u' + occ a (fhas th) = occ a u + occ a (fhas th')) ->
  fgood s' l' u'.
Proof.
  intros G C Ht E Hc Hn Ho Hp Hu. constructor; auto.
  - intros a. rewrite E. pose proof (total_update (fcnt a) _ _ _ th' Ht).
    pose proof (fg_cnt _ _ _ G a). specialize (Hn a). lia.
  - intros t2 th2 H2. rewrite E, (nth_update_at _ _ _ _ _ Ht) in H2.
    destruct (Nat.eqb_spec t2 t) as [->|Hne]; [injection H2 as <-; assumption|].
    pose proof (fg_pc _ _ _ G _ _ H2) as Hq.
    destruct Ho as [Ho|Ho].
    + destruct (in_alloc (fat th2)) eqn:I.
      * exfalso. apply Hne. exact (C _ _ _ _ H2 Ht I Ho).
      * destruct (fat th2); cbn in *; try discriminate; auto.
    + destruct (fat th2); cbn in *; auto.
      * now apply Ho.
      * destruct Hq as [Hq Hq']. destruct (Ho _ Hq) as [H3 H4]. split; congruence.
  - intros a. rewrite E. pose proof (total_update (fun th => occ a (fhas th)) _ _ _ th' Ht).
    pose proof (fg_used _ _ _ G a). specialize (Hu a). cbv beta in *. lia.
Qed.

Definition once_step (u : list nat) (es : list fevent) (u' : list nat) : Prop :=
  match es with
  | [] => u' = u
  | [Got _ a] => ~ In a u /\ u' = a :: u
  | [Gave _ a] => u' = remove Nat.eq_dec a u
  | _ => False
  end.

Lemma fowned_cnt s l u t th a : fgood s l u -> nth_error (fths s) t = Some th ->
  0 < fcnt a th -> fcnt a th = 1 /\ occ a l = 0 /\ (exists m, fmem s a = Some m) /\
  (occ a (fhas th) = 0 -> occ a u = 0).
Proof.
  intros G Ht Hp. pose proof (fg_cnt _ _ _ G a) as H. pose proof (fg_used _ _ _ G a) as Hu.
  pose proof (total_nth (fcnt a) _ _ _ Ht) as Hle. unfold live in H.
  destruct (fmem s a) as [m|]; [|lia].
  split; [lia|]. split; [lia|]. split; [eauto|]. intros Hz.
  destruct (occ a u) eqn:Eu; [reflexivity|exfalso].
  destruct (total_pos (fun th => occ a (fhas th)) (fths s) ltac:(lia)) as (t2 & th2 & H2 & H3).
  cbv beta in H3.
  destruct (Nat.eq_dec t2 t) as [->|Hne].
  - rewrite Ht in H2. injection H2 as <-. lia.
  - pose proof (total_nth2 (fcnt a) _ _ _ _ _ Hne H2 Ht). unfold fcnt at 1 in H0. lia.
Qed.
Lemma occ_rm a b u : occ a (remove Nat.eq_dec b u) = if a =? b then 0 else occ a u.
Proof.
  induction u as [|x u IH]; cbn; [now destruct (a =? b)|].
  destruct (Nat.eq_dec b x) as [->|Hn].
  - rewrite IH. destruct (Nat.eqb_spec a x) as [->|]; [reflexivity|].
    destruct (Nat.eqb_spec x a); [congruence|reflexivity].
  - cbn. rewrite IH. destruct (Nat.eqb_spec a b) as [->|]; [|reflexivity].
    destruct (Nat.eqb_spec x b); [congruence|reflexivity].
Qed.

Ltac occs := intros ?a; unfold fcnt; cbn [fhas fat fowned occ fset fmem fput ftally];
  rewrite ?occ_app; cbn [occ]; lia.
Ltac fgo G C Ht l u :=
  right; eexists _, _; split; [reflexivity|]; exists l, u;
  split; [try reflexivity|
  eapply (fframe _ _ _ _ _ _ _ _ _ G C Ht);
  [ reflexivity
  | try exact (fg_chain _ _ _ G)
  | try solve [occs]
  | try solve [left; reflexivity]; try solve [right; intros ? ?; split; [assumption|reflexivity]]
  | try exact I
  | try solve [occs] ] ].

Lemma onat_eqb_eq x y : onat_eqb x y = true -> x = y.
Proof.
  destruct x, y; cbn; try discriminate; try reflexivity. intros H. apply Nat.eqb_eq in H. now subst.
Qed.

Lemma fstep_ok limit s t c l u : fgood s l u -> calm s ->
  fstep limit s t c = Ok None \/
  exists s' es, fstep limit s t c = Ok (Some (s', es)) /\
    exists l' u', once_step u es u' /\ fgood s' l' u'.
Proof.
  intros G C. unfold fstep.
  destruct (nth_error (fths s) t) as [[p has]|] eqn:Ht; [|now left].
  pose proof (fg_pc _ _ _ G _ _ Ht) as Hp.
  assert (Ho : forall n, 0 < occ n has + occ n (fowned p) ->
    occ n has + occ n (fowned p) = 1 /\ occ n l = 0 /\ (exists m, fmem s n = Some m) /\
    (occ n has = 0 -> occ n u = 0)).
  { intros n H. exact (fowned_cnt _ _ _ _ _ n G Ht H). }
  cbn [fat fhas] in *.
  destruct p, c; try (now left); cbn [fpc_ok fowned] in *.
  - (* allocate *) fgo G C Ht l u.
  - (* deallocate *)
    destruct (nth_error has i) as [b|] eqn:Hi; [|now left].
    pose proof (nth_error_In _ _ Hi) as Hb. apply occ_in in Hb.
    destruct (Ho b ltac:(lia)) as (H1 & H2 & (m & H3) & _). cbn [occ] in H1.
    fgo G C Ht l (remove Nat.eq_dec b u).
    + intros a. unfold fcnt; cbn [fhas fat fowned occ fset fmem].
      pose proof (occ_remove a has _ _ Hi). lia.
    + intros a. cbn [fhas]. rewrite occ_rm. pose proof (occ_remove a has _ _ Hi) as H.
      rewrite Nat.eqb_sym in H. destruct (Nat.eqb_spec a b) as [Eab|]; cbn in H; [|lia].
      rewrite Eab in *. assert (occ b u = 1); [|lia].
      pose proof (fg_used _ _ _ G b). pose proof (fg_cnt _ _ _ G b) as Hc.
      pose proof (total_nth (fun th => occ b (fhas th)) _ _ _ Ht) as Hl. cbv beta in Hl.
      cbn [fhas] in Hl. unfold live in Hc. rewrite H3 in Hc.
      assert (Hle : total (fun th => occ b (fhas th)) (fths s) <= total (fcnt b) (fths s)).
      { clear. induction (fths s) as [|x q IH]; cbn; [lia|]. unfold fcnt at 1. lia. }
      lia.
  - (* write *)
    destruct (nth_error has i) as [b|] eqn:Hi; [|now left].
    pose proof (nth_error_In _ _ Hi) as Hb. apply occ_in in Hb.
    destruct (Ho b ltac:(lia)) as (H1 & H2 & (w & H3) & _).
    unfold fwrite. rewrite H3. cbn [rbind].
    right. eexists _, _. split; [reflexivity|]. exists l, u. split; [reflexivity|].
    assert (Hm : forall n, In n l -> (if n =? b then Some m else fmem s n) = fmem s n).
    { intros n Hn. apply occ_in in Hn. destruct (Nat.eqb_spec n b) as [->|]; [lia|reflexivity]. }
    destruct G as [G1 G2 G3 G4]. constructor; cbn [fmem fhead fths]; auto.
    + apply fchain_eq with (m := fmem s); auto.
    + intros a. rewrite G2. unfold live. cbn.
      destruct (Nat.eqb_spec a b) as [->|]; [now rewrite H3|reflexivity].
    + intros t2 th2 Ht2. specialize (G3 _ _ Ht2). destruct (fat th2); cbn in *; auto.
      destruct G3 as [G3 G3']. split; [assumption|]. now rewrite Hm.
  - (* send *)
    destruct (nth_error has i) as [b|] eqn:Hi; [|now left].
    destruct (nth_error (fths s) t') as [th'|] eqn:Ht'; [|now left].
    destruct (Nat.eqb_spec t' t) as [|Hne]; [now left|].
    right. eexists _, _. split; [reflexivity|]. exists l, u. split; [reflexivity|].
    pose proof (nth_update_at (fths s) t t' (mkFT FIdle (remove_at i has)) _ Ht) as Hu'.
    apply Nat.eqb_neq in Hne as Hne'. rewrite Hne', Ht' in Hu'.
    assert (Hz : forall f, total f (fths s) + f (mkFT FIdle (remove_at i has)) +
        f (mkFT (fat th') (fhas th' ++ [b])) =
      total f (fths (fset (fset s t (mkFT FIdle (remove_at i has))) t'
        (mkFT (fat th') (fhas th' ++ [b])))) + f (mkFT FIdle has) + f th').
    { intros f. cbn [fset fths].
      pose proof (total_update f _ _ _ (mkFT FIdle (remove_at i has)) Ht).
      pose proof (total_update f _ _ _ (mkFT (fat th') (fhas th' ++ [b])) Hu'). lia. }
    destruct G as [G1 G2 G3 G4]. constructor; cbn [fset fmem fhead fths]; auto.
    + intros a. rewrite <- G2. specialize (Hz (fcnt a)). cbn [fset fths] in Hz.
      pose proof (occ_remove a has _ _ Hi) as Hr. unfold fcnt in Hz at 2 3 5 6.
      cbn [fat fhas fowned occ] in Hz. rewrite occ_app in Hz. cbn [occ] in Hz. lia.
    + intros t2 th2 H2. rewrite (nth_update_at _ _ _ _ _ Hu') in H2.
      destruct (Nat.eqb_spec t2 t') as [->|].
      * injection H2 as <-. exact (G3 _ _ Ht').
      * rewrite (nth_update_at _ _ _ _ _ Ht) in H2.
        destruct (Nat.eqb_spec t2 t) as [->|]; [injection H2 as <-; exact I|exact (G3 _ _ H2)].
    + intros a. rewrite G4. specialize (Hz (fun th => occ a (fhas th))). cbn [fset fths] in Hz.
      pose proof (occ_remove a has _ _ Hi) as Hr.
      cbn [fat fhas fowned occ] in Hz. rewrite occ_app in Hz. cbn [occ] in Hz. lia.
  - (* load *)
    destruct (fhead s) as [n|] eqn:E; fgo G C Ht l u; try (rewrite E; exact (fg_chain _ _ _ G)).
    cbn. pose proof (fg_chain _ _ _ G) as Hc. rewrite E in Hc. destruct l as [|x l]; cbn in Hc.
    + discriminate.
    + destruct Hc as [Hc _]. injection Hc as ->. now left.
  - (* parent allocate *)
    destruct (fmem s a) as [|] eqn:E; [now left|].
    pose proof (fg_cnt _ _ _ G a) as Ha. unfold live in Ha. rewrite E in Ha.
    pose proof (fg_used _ _ _ G a) as Hu.
    assert (Hz : occ a u = 0).
    { assert (Hle : total (fun th => occ a (fhas th)) (fths s) <= total (fcnt a) (fths s)).
      { clear. induction (fths s) as [|x q IH]; cbn; [lia|]. unfold fcnt at 1. lia. }
      lia. }
    fgo G C Ht l (a :: u).
    + split; [|reflexivity]. intros H. apply occ_in in H. lia.
    + apply fchain_eq with (m := fmem s); [exact (fg_chain _ _ _ G)|].
      intros x Hx. cbn. apply occ_in in Hx. destruct (Nat.eqb_spec x a) as [->|]; [lia|reflexivity].
    + intros x. unfold fcnt, live; cbn [fhas fat fowned occ fset fmem]. rewrite occ_app. cbn [occ].
      rewrite (Nat.eqb_sym x a).
      destruct (Nat.eqb_spec a x) as [<-|]; cbn; [rewrite E; lia|lia].
  - (* read next *)
    assert (Hl : exists m, fmem s n = Some m).
    { pose proof (fg_cnt _ _ _ G n) as Hc. apply occ_in in Hp. unfold live in Hc.
      destruct (fmem s n); [eauto|lia]. }
    destruct Hl as (m & Hm). unfold fread. rewrite Hm. cbn [rbind].
    fgo G C Ht l u. cbn. auto.
  - (* pop *)
    destruct Hp as [Hp Hm].
    destruct (negb spurious && onat_eqb (fhead s) (Some n)) eqn:Hb.
    + apply andb_prop in Hb. destruct Hb as [_ Hb]. apply onat_eqb_eq in Hb.
      pose proof (fg_chain _ _ _ G) as Hc. rewrite Hb in Hc.
      destruct l as [|x l]; [discriminate|]. cbn in Hc. destruct Hc as (Hx & k & Hk & Hc).
      injection Hx as <-. assert (k = m) as -> by congruence.
      fgo G C Ht l u. exact Hc.
    + fgo G C Ht l u.
  - (* got *)
    destruct (Ho n) as (H1 & H2 & _ & H4); [cbn; rewrite Nat.eqb_refl; cbn; lia|].
    cbn [occ] in H1. rewrite Nat.eqb_refl in H1. cbn [b2n] in H1.
    fgo G C Ht l (n :: u).
    split; [|reflexivity]. intros H. apply occ_in in H. lia.
  - (* count *)
    destruct (limit <=? fcount s)%N; fgo G C Ht l u.
  - (* parent deallocate *)
    destruct (Ho n) as (H1 & H2 & (m & H3) & H4); [cbn; rewrite Nat.eqb_refl; cbn; lia|].
    rewrite H3. fgo G C Ht l u.
    + apply fchain_eq with (m := fmem s); [exact (fg_chain _ _ _ G)|].
      intros x Hx. cbn. apply occ_in in Hx. destruct (Nat.eqb_spec x n) as [->|]; [lia|reflexivity].
    + intros x. unfold fcnt, live; cbn [fhas fat fowned occ fset fmem].
      rewrite (Nat.eqb_sym x n).
      destruct (Nat.eqb_spec n x) as [<-|]; cbn; [rewrite H3; lia|lia].
    + right. intros x Hx. split; [assumption|]. cbn. apply occ_in in Hx.
      destruct (Nat.eqb_spec x n) as [->|]; [lia|reflexivity].
  - (* link *)
    destruct (Ho n) as (H1 & H2 & (m & H3) & H4); [cbn; rewrite Nat.eqb_refl; cbn; lia|].
    unfold fwrite. rewrite H3. cbn [rbind]. fgo G C Ht l u.
    + apply fchain_eq with (m := fmem s); [exact (fg_chain _ _ _ G)|].
      intros x Hx. cbn. apply occ_in in Hx. destruct (Nat.eqb_spec x n) as [->|]; [lia|reflexivity].
    + intros x. unfold fcnt, live; cbn [fhas fat fowned occ fset fmem].
      destruct (Nat.eqb_spec x n) as [->|]; [rewrite H3; lia|lia].
    + right. intros x Hx. split; [assumption|]. cbn. apply occ_in in Hx.
      destruct (Nat.eqb_spec x n) as [->|]; [lia|reflexivity].
  - (* push *)
    destruct (Ho n) as (H1 & H2 & (m & H3) & H4); [cbn; rewrite Nat.eqb_refl; cbn; lia|].
    unfold fread. rewrite H3. cbn [rbind].
    destruct (negb spurious && onat_eqb (fhead s) m) eqn:Hb.
    + apply andb_prop in Hb. destruct Hb as [_ Hb]. apply onat_eqb_eq in Hb.
      fgo G C Ht (n :: l) u.
      * cbn. split; [reflexivity|]. exists m. split; [assumption|]. rewrite <- Hb.
        exact (fg_chain _ _ _ G).
      * right. intros x Hx. split; [now right|reflexivity].
    + unfold fwrite. rewrite H3. cbn [rbind]. fgo G C Ht l u.
      * apply fchain_eq with (m := fmem s); [exact (fg_chain _ _ _ G)|].
        intros x Hx. cbn. apply occ_in in Hx. destruct (Nat.eqb_spec x n) as [->|]; [lia|reflexivity].
      * intros x. unfold fcnt, live; cbn [fhas fat fowned occ fset fmem].
        destruct (Nat.eqb_spec x n) as [->|]; [rewrite H3; lia|lia].
      * right. intros x Hx. split; [assumption|]. cbn. apply occ_in in Hx.
        destruct (Nat.eqb_spec x n) as [->|]; [lia|reflexivity].
  - (* tally *) fgo G C Ht l u.
Qed.

Lemma frun_ok limit sched : forall s l u, fgood s l u -> calm s -> apart limit s sched ->
  exists s' es l' u', frun limit s sched = Ok (s', es) /\ once u es /\ fgood s' l' u'.
Proof.
  induction sched as [|[t c] sched IH]; intros s l u G C A.
  - exists s, [], l, u. split; [reflexivity|]. split; [exact I|exact G].
  - cbn [frun apart] in *. destruct (fstep_ok limit s t c l u G C) as [E|(s1 & es & E & l1 & u1 & Ho & G1)].
    + rewrite E in *. cbn [rbind]. eauto.
    + rewrite E in *. cbn [rbind]. destruct A as [C1 A].
      destruct (IH _ _ _ G1 C1 A) as (s2 & es2 & l2 & u2 & E2 & Ho2 & G2).
      rewrite E2. cbn [rbind]. exists s2, (es ++ es2), l2, u2. split; [reflexivity|].
      split; [|exact G2].
      destruct es as [|[] [|]]; cbn in *; try contradiction; subst; auto.
      destruct Ho as [Ho ->]. auto.
Qed.

Lemma finit_good n : fgood (finit n) [] [].
Proof.
  assert (Hn : forall t th, nth_error (fths (finit n)) t = Some th -> th = mkFT FIdle []).
  { intros t th H. apply nth_error_In in H. cbn in H. now apply repeat_spec in H. }
  assert (Hz : forall f, f (mkFT FIdle []) = 0 -> total f (fths (finit n)) = 0).
  { intros f H. cbn. clear Hn. induction n; cbn; lia. }
  constructor.
  - reflexivity.
  - intros a. cbn [occ]. now rewrite Hz.
  - intros t th H. rewrite (Hn _ _ H). exact I.
  - intros a. now rewrite Hz.
Qed.
Lemma finit_calm n : calm (finit n).
Proof.
  intros t1 t2 th1 th2 H1 H2 I1 I2. apply nth_error_In in H1. cbn in H1. apply repeat_spec in H1.
  subst. discriminate.
Qed.

(** Deciding [apart] on an example. *)
Definition calmb (s : fstate) : bool :=
  length (filter (fun th => in_alloc (fat th)) (fths s)) <=? 1.
Fixpoint apartb (limit : N) (s : fstate) (sched : list (nat * fchoice)) : bool :=
  match sched with
  | [] => true
  | (t, c) :: sched' =>
      match fstep limit s t c with
      | Ok (Some (s', _)) => calmb s' && apartb limit s' sched'
      | Ok None => apartb limit s sched'
      | UB => true
      end
  end.
Lemma filter_two {A} (f : A -> bool) l : length (filter f l) <= 1 ->
  forall i j x y, nth_error l i = Some x -> nth_error l j = Some y ->
  f x = true -> f y = true -> i = j.
Proof.
  induction l as [|z l IH]; intros H [|i] [|j] x y Hi Hj Hx Hy; cbn in *; try discriminate; auto.
  - injection Hi as ->. rewrite Hx in H. cbn in H. exfalso.
    assert (In y (filter f l)) by (apply filter_In; split; [now apply nth_error_In in Hj|assumption]).
    destruct (filter f l); [easy|cbn in *; lia].
  - injection Hj as ->. rewrite Hy in H. cbn in H. exfalso.
    assert (In x (filter f l)) by (apply filter_In; split; [now apply nth_error_In in Hi|assumption]).
    destruct (filter f l); [easy|cbn in *; lia].
  - f_equal. apply IH with (x := x) (y := y); auto. destruct (f z); cbn in H; lia.
Qed.
Lemma apartb_ok limit sched : forall s, apartb limit s sched = true -> apart limit s sched.
Proof.
  induction sched as [|[t c] sched IH]; intros s H; cbn in *; [exact I|].
  destruct (fstep limit s t c) as [[[s' es]|]|]; auto.
  apply andb_prop in H. destruct H as [H1 H2]. split; [|auto].
  unfold calmb in H1. apply Nat.leb_le in H1. intros t1 t2 th1 th2 A1 A2 B1 B2.
  exact (filter_two (fun th => in_alloc (fat th)) _ H1 t1 t2 th1 th2 A1 A2 B1 B2).
Qed.
