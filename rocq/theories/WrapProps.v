(** C60, C61: immer::map, immer::set and immer::table at their interface. *)
From Coq Require Import List NArith Arith Lia Bool Permutation.
From Verif Require Import Common Champ ChampSpec ChampHist ChampProps WrapSpec Wrap.
Import ListNotations.
Set Default Goal Selector "!".

Lemma fold_map {A C D} (f : A -> C -> A) (g : D -> C) l : forall a,
  fold_left f (map g l) a = fold_left (fun a x => f a (g x)) l a.
Proof. induction l as [|x l IH]; intros a; cbn; auto. Qed.
Lemma fold_ext {A C} (f g : A -> C -> A) : (forall a x, f a x = g a x) -> forall l a, fold_left f l a = fold_left g l a.
Proof. intros H. induction l as [|x l IH]; intros a; cbn; [reflexivity|]. now rewrite H. Qed.

Lemma ord_map {A C} (f : A -> C) (P : C -> C -> Prop) l :
  ForallOrdPairs (fun a b => P (f a) (f b)) l -> ForallOrdPairs P (map f l).
Proof.
  induction 1 as [|a l H _ IH]; cbn; constructor; [|exact IH]. clear - H. induction H; cbn; constructor; auto.
Qed.
(** The keys of a listing. *)
Lemma keys_of {T K V} (key : T -> K) (keq : K -> K -> bool) (a : @amap T K) (m : assoc K V) l :
  (forall k, keq k k = true) -> (forall k v, a k = Some v -> keq (key v) k = true /\ a (key v) = Some v) ->
  (forall k k', keq k k' = true -> a k = a k') -> (forall k, a k <> None <-> m k <> None) ->
  lists key keq l a -> has_keys keq (N.of_nat (length l)) m.
Proof.
  intros Hr Hk Hc Hm [Hd Hi]. exists (map key l). split; [|split].
  - apply ord_map. exact Hd.
  - intros k. rewrite <- Hm. split.
    + destruct (a k) as [v|] eqn:E; [|contradiction]. intros _. destruct (Hk k v E) as [H1 H2].
      exists (key v). split; [|exact H1]. apply in_map. now apply Hi.
    + intros (k' & Hin & Hq). apply in_map_iff in Hin as (v & <- & Hv). apply Hi in Hv.
      rewrite <- (Hc _ _ Hq). congruence.
  - now rewrite map_length.
Qed.

(** *** Histories of champ *)
Section Champ_.
Context {T K V : Type}.
Variable key : T -> K.
Variable khash : K -> N.
Variable keq : K -> K -> bool.
Variable project : T -> V.
Variable combine : K -> V -> T.
Hypothesis Hkeys : keys_ok keq khash.
Hypothesis Hcomb : forall k x, keq (key (combine k x)) k = true.
Notation hist := (ahistory key keq project combine).
Definition sound (a : @amap T K) : Prop :=
  (forall k v, a k = Some v -> keq (key v) k = true) /\ (forall k k', keq k k' = true -> a k = a k').
Lemma keq_swap a b c : keq a b = true -> keq a c = keq b c.
Proof.
  destruct Hkeys as (_ & Hs & Ht & _). intros H. destruct (keq b c) eqn:E; [exact (Ht _ _ _ H E)|].
  destruct (keq a c) eqn:E2; [|reflexivity]. rewrite (Ht _ _ _ (Hs _ _ H) E2) in E. discriminate.
Qed.
Lemma keq_com a b : keq a b = keq b a.
Proof.
  destruct Hkeys as (_ & Hs & _). destruct (keq b a) eqn:E; [now apply Hs|]. destruct (keq a b) eqn:E2; [|reflexivity].
  apply Hs in E2. congruence.
Qed.
Lemma keq_swap_r a b c : keq a b = true -> keq c a = keq c b.
Proof. intros H. rewrite (keq_com c a), (keq_com c b). now apply keq_swap. Qed.
Lemma sound_put a k0 v : sound a -> keq (key v) k0 = true -> sound (aput keq k0 v a).
Proof.
  intros [H1 H2] Hv. split; unfold aput.
  - intros k w. destruct (keq k0 k) eqn:E; [|apply H1]. intros Ew. injection Ew as <-. now rewrite (keq_swap _ _ _ Hv).
  - intros k k' H. rewrite (keq_swap_r _ _ k0 H). destruct (keq k0 k'); [reflexivity|auto].
Qed.
Lemma sound_step a o : sound a -> sound (astep key keq project combine o a).
Proof.
  intros Ha. destruct o as [v|k f d|k f|k]; cbn [astep].
  - apply sound_put; [exact Ha|apply (proj1 Hkeys)].
  - apply sound_put; auto.
  - destruct (a k); [apply sound_put; auto|exact Ha].
  - destruct Ha as [H1 H2]. split; unfold adel.
    + intros k' w. destruct (keq k k'); [discriminate|apply H1].
    + intros k1 k2 H. rewrite (keq_swap_r _ _ k H). destruct (keq k k2); [reflexivity|auto].
Qed.
Lemma sound_hist os : sound (hist os).
Proof.
  unfold ahistory. assert (H : sound (@aempty T K)) by (split; [discriminate|reflexivity]). revert H.
  generalize (@aempty T K). induction os as [|o os IH]; intros a H; cbn; [exact H|]. apply IH, sound_step, H.
Qed.
Lemma size_keys B c (os : list op) (m : assoc K V) : (1 <= B)%N -> run B key khash keq project combine os = Ok c ->
  (forall k, hist os k <> None <-> m k <> None) -> has_keys keq (size c) m.
Proof.
  intros HB Hr Hm. destruct (C02_size B T K V key khash keq project combine (conj HB (conj Hkeys Hcomb)) os)
    as (c' & l & Hr' & Hl & Hsz). rewrite Hr in Hr'. injection Hr' as <-. rewrite (Hsz l Hl).
  destruct (sound_hist os) as [H1 H2].
  apply (keys_of key keq (hist os) m l); auto; [apply (proj1 Hkeys)|]. intros k v E. split; [auto|].
  rewrite <- E. apply H2. auto.
Qed.
End Champ_.

(** *** map *)
Section Map.
Variable B : N.
Context {K V : Type}.
Variable khash : K -> N.
Variable keq : K -> K -> bool.
Variable dflt : V.
Hypothesis HB : (1 <= B)%N.
Hypothesis Hkeys : keys_ok keq khash.
Definition mtr (o : mop K V) : op (T := K * V) (K := K) (V := V) :=
  match o with
  | MInsert p => OpInsert p
  | MSet k v => OpInsert (k, v)
  | MUpdate k f => OpUpdate k f dflt
  | MUpdateIf k f => OpUpdateIfExists k f
  | MErase k => OpErase k
  end.
Notation hist os := (ahistory fst keq snd pair (map mtr os)).
Lemma mrun_is os : mrun B khash keq dflt os = run B fst khash keq snd pair (map mtr os).
Proof. unfold mrun, run. rewrite fold_map. apply fold_ext. intros r o. destruct r as [m|]; [|reflexivity]. now destruct o. Qed.
Lemma mcomb (k : K) (x : V) : keq (fst (k, x)) k = true.
Proof. apply (proj1 Hkeys). Qed.
Lemma mhist os k : option_map snd (hist os k) = mspecs keq dflt os k.
Proof.
  unfold ahistory, mspecs. rewrite fold_map.
  assert (G : forall os a m, (forall k, option_map snd (a k) = m k) -> forall k,
    option_map snd (fold_left (fun a x => astep fst keq snd pair (mtr x) a) os a k) = fold_left (mspec keq dflt) os m k).
  { clear os k. induction os as [|o os IH]; intros a m H k; cbn [fold_left]; [apply H|]. apply IH. intros k'.
    destruct o as [[k0 v]|k0 v|k0 f|k0 f|k0]; cbn [mtr astep mspec fst]; unfold aput, adel, put, del; rewrite <- ?H.
    - now destruct (keq k0 k').
    - now destruct (keq k0 k').
    - destruct (keq k0 k'); [|reflexivity]. cbn. f_equal. now destruct (a k0).
    - destruct (a k0) as [p|]; cbn [option_map]; [|apply H]. destruct (keq k0 k'); [reflexivity|apply H].
    - now destruct (keq k0 k'). }
  apply G. reflexivity.
Qed.
Lemma map_ok os : exists m, mrun B khash keq dflt os = Ok m /\
  (forall k, let o := mspecs keq dflt os k in
     mcount B khash keq m k = Ok (match o with Some _ => 1 | None => 0 end)%N /\
     mindex B khash keq dflt m k = Ok (or_else dflt o) /\ mat B khash keq m k = Ok o /\ mfind B khash keq m k = Ok o) /\
  has_keys keq (size m) (mspecs keq dflt os).
Proof.
  destruct (C01_lookup B _ _ _ fst khash keq snd pair (conj HB (conj Hkeys mcomb)) (map mtr os)) as (m & Hr & Hg).
  exists m. split; [now rewrite mrun_is|]. split.
  - intros k. cbv zeta. unfold mcount, mindex, mat, mfind, mget. rewrite Hg. cbn [rbind]. rewrite <- mhist.
    now destruct (hist os k).
  - apply (size_keys fst khash keq snd pair Hkeys mcomb B m (map mtr os)); [exact HB|exact Hr|].
    intros k. rewrite <- mhist. destruct (hist os k); cbn; split; congruence.
Qed.
Lemma map_equal ptr_eq veq os1 os2 m1 m2 : (forall a b, ptr_eq a b = true -> a = b) -> (forall v, veq v v = true) ->
  mrun B khash keq dflt os1 = Ok m1 -> mrun B khash keq dflt os2 = Ok m2 ->
  exists r, mequal B keq ptr_eq veq m1 m2 = Ok r /\ (r = true <-> same_assoc veq (mspecs keq dflt os1) (mspecs keq dflt os2)).
Proof.
  intros Hp Hv R1 R2. rewrite mrun_is in R1, R2.
  destruct (C05_equality B _ _ _ fst khash keq snd pair ptr_eq (mveq keq veq) (conj HB (conj Hkeys mcomb)) Hp)
    with (3 := R1) (4 := R2) as (r & Er & Hr).
  { intros [k v]. unfold mveq. cbn. rewrite Hv, andb_true_r. apply (proj1 Hkeys). }
  { intros a b H. apply andb_true_iff in H. apply H. }
  exists r. split; [exact Er|]. rewrite Hr. unfold same_contents, same_assoc.
  destruct (sound_hist fst khash keq snd pair Hkeys mcomb (map mtr os1)) as [S1 _].
  destruct (sound_hist fst khash keq snd pair Hkeys mcomb (map mtr os2)) as [S2 _].
  split; intros H k; specialize (H k); rewrite <- !mhist in *; specialize (S1 k); specialize (S2 k);
    destruct (hist os1 k) as [[k1 v1]|], (hist os2 k) as [[k2 v2]|]; cbn [option_map snd] in *; auto.
  - apply andb_true_iff in H. apply H.
  - unfold mveq. cbn [fst snd]. rewrite H, andb_true_r. specialize (S1 _ eq_refl). specialize (S2 _ eq_refl). cbn [fst] in *.
    rewrite (keq_swap khash keq Hkeys _ _ k2 S1). destruct Hkeys as (_ & Hs & _). now apply Hs.
Qed.

(** *** table *)
Variable key : V -> K.
Variable setkey : V -> K -> V.
Hypothesis Hset : forall v k, keq (key (setkey v k)) k = true.
Definition ttr (o : top K V) : op (T := V) (K := K) (V := V) :=
  match o with
  | TInsert v => OpInsert v
  | TUpdate k f => OpUpdate k f dflt
  | TUpdateIf k f => OpUpdateIfExists k f
  | TErase k => OpErase k
  end.
Notation thist os := (ahistory key keq (fun v => v) (tcombine setkey) (map ttr os)).
Lemma trun_is os : trun B khash keq dflt key setkey os = run B key khash keq (fun v => v) (tcombine setkey) (map ttr os).
Proof. unfold trun, run. rewrite fold_map. apply fold_ext. intros r o. destruct r as [m|]; [|reflexivity]. now destruct o. Qed.
Lemma tcomb k x : keq (key (tcombine setkey k x)) k = true.
Proof. apply Hset. Qed.
Lemma thist_is os k : thist os k = tspecs keq key setkey dflt os k.
Proof.
  unfold ahistory, tspecs. rewrite fold_map.
  assert (G : forall os a m, (forall k, a k = m k) -> forall k,
    fold_left (fun a x => astep key keq (fun v => v) (tcombine setkey) (ttr x) a) os a k = fold_left (tspec keq key setkey dflt) os m k).
  { clear os k. induction os as [|o os IH]; intros a m H k; cbn [fold_left]; [apply H|]. apply IH. intros k'.
    destruct o as [v|k0 f|k0 f|k0]; cbn [ttr astep tspec]; unfold aput, adel, put, del, tcombine; rewrite <- ?H; auto.
    destruct (a k0); rewrite <- ?H; reflexivity. }
  apply G. reflexivity.
Qed.
Lemma table_ok os : exists t, trun B khash keq dflt key setkey os = Ok t /\
  (forall k, let o := tspecs keq key setkey dflt os k in
     tcount B khash keq key t k = Ok (match o with Some _ => 1 | None => 0 end)%N /\
     tindex B khash keq dflt key t k = Ok (or_else dflt o) /\ tat B khash keq key t k = Ok o /\ tfind B khash keq key t k = Ok o /\
     forall v, o = Some v -> keq (key v) k = true) /\
  has_keys keq (size t) (tspecs keq key setkey dflt os).
Proof.
  destruct (C01_lookup B _ _ _ key khash keq (fun v => v) (tcombine setkey) (conj HB (conj Hkeys tcomb)) (map ttr os)) as (t & Hr & Hg).
  exists t. split; [now rewrite trun_is|]. split.
  - intros k. cbv zeta. unfold tcount, tindex, tat, tfind, tget. rewrite Hg. cbn [rbind]. rewrite <- thist_is.
    destruct (sound_hist key khash keq (fun v => v) (tcombine setkey) Hkeys tcomb (map ttr os)) as [S1 _]. specialize (S1 k).
    destruct (thist os k); auto.
  - apply (size_keys key khash keq (fun v => v) (tcombine setkey) Hkeys tcomb B t (map ttr os)); [exact HB|exact Hr|].
    intros k. now rewrite <- thist_is.
Qed.
Lemma table_equal ptr_eq veq os1 os2 t1 t2 : (forall a b, ptr_eq a b = true -> a = b) -> (forall v, veq v v = true) ->
  (forall v w, veq v w = true -> keq (key v) (key w) = true) ->
  trun B khash keq dflt key setkey os1 = Ok t1 -> trun B khash keq dflt key setkey os2 = Ok t2 ->
  exists r, tequal B ptr_eq veq t1 t2 = Ok r /\
    (r = true <-> same_assoc veq (tspecs keq key setkey dflt os1) (tspecs keq key setkey dflt os2)).
Proof.
  intros Hp Hv Hk R1 R2. rewrite trun_is in R1, R2.
  destruct (C05_equality B _ _ _ key khash keq (fun v => v) (tcombine setkey) ptr_eq veq (conj HB (conj Hkeys tcomb)) Hp Hv Hk)
    with (1 := R1) (2 := R2) as (r & Er & Hr).
  exists r. split; [exact Er|]. rewrite Hr. unfold same_contents, same_assoc.
  split; intros H k; specialize (H k); rewrite !thist_is in *; exact H.
Qed.
End Map.

(** *** set *)
Section Set_.
Variable B : N.
Context {T : Type}.
Variable hash : T -> N.
Variable eq : T -> T -> bool.
Hypothesis HB : (1 <= B)%N.
Hypothesis Hkeys : keys_ok eq hash.
Definition str (o : sop T) : op (T := T) (K := T) (V := T) :=
  match o with SInsert x => OpInsert x | SErase x => OpErase x end.
Notation cmb := (fun k _ : T => k).
Notation shist os := (ahistory (fun x : T => x) eq (fun x : T => x) cmb (map str os)).
Lemma srun_is os : srun B hash eq os = run B (fun x => x) hash eq (fun x : T => x) cmb (map str os).
Proof. unfold srun, run. rewrite fold_map. apply fold_ext. intros r o. destruct r as [m|]; [|reflexivity]. now destruct o. Qed.
Lemma scomb (k x : T) : eq ((fun x => x) (cmb k x)) k = true.
Proof. apply (proj1 Hkeys). Qed.
Lemma shist_is os x : match shist os x with Some _ => true | None => false end = member eq os x.
Proof.
  unfold ahistory, member. rewrite fold_map.
  assert (G : forall os (a : amap) (s : T -> bool), (forall x, match a x with Some _ => true | None => false end = s x) -> forall x,
    match fold_left (fun a o => astep (fun x : T => x) eq (fun x : T => x) cmb (str o) a) os a x with Some _ => true | None => false end
    = fold_left (fun b o => match o with SInsert y => eq y x || b | SErase y => negb (eq y x) && b end) os (s x)).
  { clear os x. induction os as [|o os IH]; intros a s H x; cbn [fold_left]; [apply H|].
    rewrite (IH _ (fun x => match o with SInsert y => eq y x || s x | SErase y => negb (eq y x) && s x end)); [reflexivity|].
    intros x'. destruct o as [y|y]; cbn [str astep]; unfold aput, adel; rewrite <- H; now destruct (eq y x'). }
  exact (G os aempty (fun _ => false) (fun _ => eq_refl) x).
Qed.
Lemma set_ok os : exists s, srun B hash eq os = Ok s /\
  (forall x, scount B hash eq s x = Ok (if member eq os x then 1 else 0)%N /\
     exists o, sfind B hash eq s x = Ok o /\ match o with Some y => member eq os x = true /\ eq y x = true | None => member eq os x = false end) /\
  has_members eq (size s) (member eq os).
Proof.
  destruct (C01_lookup B _ _ _ (fun x => x) hash eq (fun x => x) cmb (conj HB (conj Hkeys scomb)) (map str os)) as (s & Hr & Hg).
  exists s. split; [now rewrite srun_is|]. split.
  - intros x. unfold scount, sfind, sget. rewrite Hg. cbn [rbind]. rewrite <- shist_is.
    destruct (sound_hist (fun x => x) hash eq (fun x => x) cmb Hkeys scomb (map str os)) as [S1 _]. specialize (S1 x).
    destruct (shist os x) as [y|]; split; auto; eexists; (split; [reflexivity|]); cbn beta iota; auto.
  - destruct (size_keys (fun x => x) hash eq (fun x => x) cmb Hkeys scomb B s (map str os)
      (fun x => if member eq os x then Some x else None) HB Hr) as (ks & H1 & H2 & H3).
    { intros x. rewrite <- shist_is. destruct (shist os x); split; congruence. }
    exists ks. split; [exact H1|]. split; [|exact H3]. intros x. rewrite <- H2. destruct (member eq os x); split; congruence.
Qed.
Lemma set_equal ptr_eq os1 os2 s1 s2 : (forall a b, ptr_eq a b = true -> a = b) ->
  srun B hash eq os1 = Ok s1 -> srun B hash eq os2 = Ok s2 ->
  exists r, sequal B eq ptr_eq s1 s2 = Ok r /\ (r = true <-> forall x, member eq os1 x = member eq os2 x).
Proof.
  intros Hp R1 R2. rewrite srun_is in R1, R2.
  destruct (C05_equality B _ _ _ (fun x => x) hash eq (fun x => x) cmb ptr_eq eq (conj HB (conj Hkeys scomb)) Hp)
    with (3 := R1) (4 := R2) as (r & Er & Hr).
  { apply (proj1 Hkeys). } { auto. }
  exists r. split; [exact Er|]. rewrite Hr. unfold same_contents.
  destruct (sound_hist (fun x => x) hash eq (fun x => x) cmb Hkeys scomb (map str os1)) as [S1 _].
  destruct (sound_hist (fun x => x) hash eq (fun x => x) cmb Hkeys scomb (map str os2)) as [S2 _].
  split; intros H x; specialize (H x); rewrite <- !shist_is in *; specialize (S1 x); specialize (S2 x);
    destruct (shist os1 x) as [y|], (shist os2 x) as [z|]; auto; try contradiction; try discriminate.
  specialize (S1 _ eq_refl). specialize (S2 _ eq_refl). rewrite (keq_swap hash eq Hkeys _ _ z S1).
  destruct Hkeys as (_ & Hs & _). now apply Hs.
Qed.
End Set_.

(** ** Theorems *)
(** After any statements a map is the association the statements describe: count, operator[], at and
    find answer by it, size() is the number of its keys, and == compares two of them.  [ptr_eq] is
    equality of addresses. *)
Theorem C60_map : forall B K V khash keq (dflt : V) (os : list (mop K V)), (1 <= B)%N -> keys_ok keq khash ->
  exists m, mrun B khash keq dflt os = Ok m /\
    (forall k, let o := mspecs keq dflt os k in
       mcount B khash keq m k = Ok (match o with Some _ => 1 | None => 0 end)%N /\
       mindex B khash keq dflt m k = Ok (or_else dflt o) /\ mat B khash keq m k = Ok o /\ mfind B khash keq m k = Ok o) /\
    has_keys keq (size m) (mspecs keq dflt os) /\
    forall ptr_eq veq os' m', (forall a b, ptr_eq a b = true -> a = b) -> (forall v, veq v v = true) ->
      mrun B khash keq dflt os' = Ok m' ->
      exists r, mequal B keq ptr_eq veq m m' = Ok r /\ (r = true <-> same_assoc veq (mspecs keq dflt os) (mspecs keq dflt os')).
Proof.
  intros B K V khash keq dflt os HB Hk. destruct (map_ok B khash keq dflt HB Hk os) as (m & R & H1 & H2).
  exists m. split; [exact R|]. split; [exact H1|]. split; [exact H2|]. intros ptr_eq veq os' m' Hp Hv R'.
  exact (map_equal B khash keq dflt HB Hk ptr_eq veq os os' m m' Hp Hv R R').
Qed.
Print Assumptions C60_map.

(** The same for sets. *)
Theorem C60_set : forall B T hash eq (os : list (sop T)), (1 <= B)%N -> keys_ok eq hash ->
  exists s, srun B hash eq os = Ok s /\
    (forall x, scount B hash eq s x = Ok (if member eq os x then 1 else 0)%N /\
       exists o, sfind B hash eq s x = Ok o /\
         match o with Some y => member eq os x = true /\ eq y x = true | None => member eq os x = false end) /\
    has_members eq (size s) (member eq os) /\
    forall ptr_eq os' s', (forall a b, ptr_eq a b = true -> a = b) -> srun B hash eq os' = Ok s' ->
      exists r, sequal B eq ptr_eq s s' = Ok r /\ (r = true <-> forall x, member eq os x = member eq os' x).
Proof.
  intros B T hash eq os HB Hk. destruct (set_ok B hash eq HB Hk os) as (s & R & H1 & H2).
  exists s. split; [exact R|]. split; [exact H1|]. split; [exact H2|]. intros ptr_eq os' s' Hp R'.
  exact (set_equal B hash eq HB Hk ptr_eq os os' s s' Hp R R').
Qed.
Print Assumptions C60_set.

(** And for tables, whose elements are found under the keys they have; [setkey] must set the key. *)
Theorem C60_table : forall B K V khash keq (dflt : V) (key : V -> K) setkey (os : list (top K V)),
  (1 <= B)%N -> keys_ok keq khash -> (forall v k, keq (key (setkey v k)) k = true) ->
  exists t, trun B khash keq dflt key setkey os = Ok t /\
    (forall k, let o := tspecs keq key setkey dflt os k in
       tcount B khash keq key t k = Ok (match o with Some _ => 1 | None => 0 end)%N /\
       tindex B khash keq dflt key t k = Ok (or_else dflt o) /\ tat B khash keq key t k = Ok o /\ tfind B khash keq key t k = Ok o /\
       forall v, o = Some v -> keq (key v) k = true) /\
    has_keys keq (size t) (tspecs keq key setkey dflt os).
Proof. intros B K V khash keq dflt key setkey os HB Hk Hs. exact (table_ok B khash keq dflt HB Hk key setkey Hs os). Qed.
Print Assumptions C60_table.

(** The property would be: == of two tables holds exactly when they have the same keys with equal
    values.  Missing here: types whose == can hold for values with different keys. *)
Definition table_equality {K V} (B : N) khash (keq : K -> K -> bool) (dflt : V) key setkey (veq : V -> V -> bool) : Prop :=
  forall ptr_eq os1 os2 t1 t2, (forall a b, ptr_eq a b = true -> a = b) ->
    trun B khash keq dflt key setkey os1 = Ok t1 -> trun B khash keq dflt key setkey os2 = Ok t2 ->
    exists r, tequal B ptr_eq veq t1 t2 = Ok r /\
      (r = true <-> same_assoc veq (tspecs keq key setkey dflt os1) (tspecs keq key setkey dflt os2)).
Theorem C61_table_equality_partial : forall B K V khash keq (dflt : V) (key : V -> K) setkey veq,
  (1 <= B)%N -> keys_ok keq khash -> (forall v k, keq (key (setkey v k)) k = true) ->
  (forall v, veq v v = true) -> (forall v w, veq v w = true -> keq (key v) (key w) = true) ->
  table_equality B khash keq dflt key setkey veq.
Proof.
  intros B K V khash keq dflt key setkey veq HB Hk Hs Hv Hvk ptr_eq os1 os2 t1 t2 Hp R1 R2.
  exact (table_equal B khash keq dflt HB Hk key setkey Hs ptr_eq veq os1 os2 t1 t2 Hp Hv Hvk R1 R2).
Qed.
Print Assumptions C61_table_equality_partial.

(** Elements (id, x) whose == compares x only, with the identity as hash: the tables {(1, 7)} and
    {(33, 7)} are equal, as 1 and 33 have the same slot. *)
Definition wkey (v : N * N) : N := fst v.
Definition wset (v : N * N) (k : N) : N * N := (k, snd v).
Definition wveq (a b : N * N) : bool := N.eqb (snd a) (snd b).
Definition whash (k : N) : N := (k mod 2 ^ 64)%N.
Lemma wkeys : keys_ok N.eqb whash.
Proof.
  split; [apply N.eqb_refl|]. split; [intros a b H; apply N.eqb_eq in H; subst; apply N.eqb_refl|].
  split; [intros a b c H1 H2; apply N.eqb_eq in H1, H2; subst; apply N.eqb_refl|].
  split; [intros a b H; apply N.eqb_eq in H; now subst|]. intros k. unfold whash. apply N.mod_lt. discriminate.
Qed.
Theorem C61_table_equality_refuted : exists khash (keq : N -> N -> bool) (dflt : N * N) key setkey veq,
  keys_ok keq khash /\ (forall v k, keq (key (setkey v k)) k = true) /\ (forall v, veq v v = true) /\
  ~ table_equality 5 khash keq dflt key setkey veq.
Proof.
  exists whash, N.eqb, (0, 0)%N, wkey, wset, wveq. split; [exact wkeys|]. split; [intros v k; apply N.eqb_refl|].
  split; [intros v; apply N.eqb_refl|]. intros H.
  remember (trun 5 whash N.eqb (0, 0)%N wkey wset [TInsert (1, 7)%N]) as r1 eqn:E1.
  remember (trun 5 whash N.eqb (0, 0)%N wkey wset [TInsert (33, 7)%N]) as r2 eqn:E2.
  assert (X : match r1, r2 with Ok t1, Ok t2 => tequal 5 (fun _ _ => false) wveq t1 t2 = Ok true | _, _ => False end)
    by (subst; vm_compute; reflexivity).
  destruct r1 as [t1|]; [|contradiction]. destruct r2 as [t2|]; [|contradiction]. symmetry in E1, E2.
  destruct (H (fun _ _ => false) _ _ t1 t2 ltac:(discriminate) E1 E2) as (r & Er & Hr).
  rewrite X in Er. injection Er as <-. destruct Hr as [Hr _]. specialize (Hr eq_refl 1%N). exact Hr.
Qed.
Print Assumptions C61_table_equality_refuted.

(** *** Cases that meet the hypotheses *)
Example C60_nonvacuous :
  let os := [MInsert (1, 10)%N; MSet 4%N 40%N; MUpdate 7%N N.succ; MErase 4%N; MUpdateIf 1%N (N.mul 2); MUpdateIf 9%N N.succ] in
  let ts := [TInsert (1, 10)%N; TUpdate 7%N (fun v => (3, snd v + 5))%N; TUpdateIf 1%N (fun v => (7, 8)%N); TErase 2%N] in
  keys_ok N.eqb ex_hash /\
  (m <- mrun 5 ex_hash N.eqb 0%N os ;; a <- mindex 5 ex_hash N.eqb 0%N m 1%N ;; b <- mat 5 ex_hash N.eqb m 7%N ;;
   c <- mfind 5 ex_hash N.eqb m 4%N ;; d <- mcount 5 ex_hash N.eqb m 9%N ;; Ok (a, b, c, d, size m)) = Ok (20, Some 1, None, 0, 2)%N /\
  (forall v k, N.eqb (wkey (wset v k)) k = true) /\
  (t <- trun 5 ex_hash N.eqb (0, 0)%N wkey wset ts ;; a <- tat 5 ex_hash N.eqb wkey t 1%N ;; b <- tat 5 ex_hash N.eqb wkey t 7%N ;;
   c <- tat 5 ex_hash N.eqb wkey t 3%N ;; Ok (a, b, c, size t)) = Ok (Some (1, 8), Some (7, 5), None, 2)%N /\
  (s <- srun 5 ex_hash N.eqb [SInsert 1; SInsert 4; SInsert 1; SErase 4; SErase 9]%N ;;
   a <- scount 5 ex_hash N.eqb s 1%N ;; b <- scount 5 ex_hash N.eqb s 4%N ;; Ok (a, b, size s)) = Ok (1, 0, 1)%N.
Proof. cbv zeta. split; [apply ex_setup|]. repeat split; try (vm_compute; reflexivity). intros v k. apply N.eqb_refl. Qed.
Example C61_nonvacuous :
  let veq := fun a b : N * N => N.eqb (fst a) (fst b) && N.eqb (snd a) (snd b) in
  (forall v w, veq v w = true -> N.eqb (wkey v) (wkey w) = true) /\
  (a <- trun 5 ex_hash N.eqb (0, 0)%N wkey wset [TInsert (1, 10); TInsert (4, 2)]%N ;;
   b <- trun 5 ex_hash N.eqb (0, 0)%N wkey wset [TInsert (4, 2); TInsert (1, 10)]%N ;;
   c <- trun 5 ex_hash N.eqb (0, 0)%N wkey wset [TInsert (4, 3); TInsert (1, 10)]%N ;;
   x <- tequal 5 (fun _ _ => false) veq a b ;; y <- tequal 5 (fun _ _ => false) veq a c ;; Ok (x, y)) = Ok (true, false).
Proof.
  cbv zeta. split; [|vm_compute; reflexivity]. intros v w H. apply andb_true_iff in H. apply H.
Qed.
