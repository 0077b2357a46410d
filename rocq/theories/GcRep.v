(** Blocks that represent trees in the memory of GcConcat, which of them belong to the callers,
    and what a step that writes only to such blocks leaves as it is. *)
From Coq Require Import List NArith Arith Bool Lia ZifyN ZifyNat ZifyBool.
From Verif Require Import Common NList Rrb RrbInv RrbOps GcConcat.
Import ListNotations.
Local Open Scope N_scope.

Set Default Goal Selector "!".

(** ** Lists of addresses without duplicates *)
Definition occ (x : nat) (l : list nat) : nat := count_occ Nat.eq_dec l x.
Definition dl (x a : nat) : nat := if Nat.eq_dec a x then 1 else 0.
Definition lt1 (x n : nat) : nat := if Nat.ltb x n then 1 else 0.
Lemma occ_app x a b : occ x (a ++ b) = (occ x a + occ x b)%nat.
Proof. apply count_occ_app. Qed.
Lemma occ_cons x a b : occ x (a :: b) = (dl x a + occ x b)%nat.
Proof. unfold occ, dl. cbn [count_occ]. destruct (Nat.eq_dec a x); lia. Qed.
Lemma occ_nil x : occ x [] = 0%nat.
Proof. reflexivity. Qed.
Lemma occ_in x l : In x l <-> (0 < occ x l)%nat.
Proof. unfold occ. rewrite (count_occ_In Nat.eq_dec). lia. Qed.
Lemma dl_same x : dl x x = 1%nat.
Proof. unfold dl. destruct (Nat.eq_dec x x); congruence. Qed.
Lemma dl_le x a : (dl x a <= 1)%nat.
Proof. unfold dl. destruct (Nat.eq_dec a x); lia. Qed.
Lemma lt1_S x n : lt1 x (S n) = (lt1 x n + dl x n)%nat.
Proof. unfold lt1, dl. destruct (Nat.ltb_spec x (S n)), (Nat.ltb_spec x n), (Nat.eq_dec n x); lia. Qed.
Lemma lt1_le x n m : (n <= m)%nat -> (lt1 x n <= lt1 x m)%nat.
Proof. unfold lt1. destruct (Nat.ltb_spec x n), (Nat.ltb_spec x m); lia. Qed.
Lemma lt1_1 x n : (lt1 x n <= 1)%nat.
Proof. unfold lt1. destruct (Nat.ltb x n); lia. Qed.
Lemma occ_concat_app x a b : occ x (List.concat (a ++ b)) = (occ x (List.concat a) + occ x (List.concat b))%nat.
Proof. rewrite concat_app. apply occ_app. Qed.

(** [sep n L]: no address of [L] occurs twice, and all are below [n]. *)
Definition sep (n : nat) (L : list nat) : Prop := forall x, (occ x L <= lt1 x n)%nat.
Ltac occs := repeat (rewrite ?occ_app, ?occ_cons, ?occ_nil, ?occ_concat_app, ?map_app, ?concat_app, ?app_nil_r in *;
  cbn [List.concat map app] in *).
(** [lia] without the hypotheses on booleans, which are many below. *)
Ltac la := solve [repeat match goal with
                  | H : @eq bool _ _ |- _ => clear H
                  | H : @eq bool _ _ -> _ |- _ => clear H
                  end; lia].
Ltac seps H := let x := fresh "x" in intros x; generalize (H x); clear; intros H; occs; try lia.

Lemma sep_dis n A B' C : sep n C -> (forall x, (occ x A + occ x B' <= occ x C)%nat) ->
  forall x, In x A -> ~ In x B'.
Proof.
  intros H E x Hx Hy. apply occ_in in Hx, Hy. specialize (H x). specialize (E x).
  pose proof (lt1_1 x n). lia.
Qed.
Lemma sep_lt n L x : sep n L -> In x L -> (x < n)%nat.
Proof.
  intros H Hx. apply occ_in in Hx. specialize (H x). unfold lt1 in H.
  destruct (Nat.ltb_spec x n); lia.
Qed.
Lemma sep_NoDup n L : sep n L -> NoDup L.
Proof.
  intros H. apply (NoDup_count_occ Nat.eq_dec). intros x. specialize (H x). pose proof (lt1_1 x n).
  unfold occ in H. lia.
Qed.
Lemma NoDup_sep n L : NoDup L -> (forall x, In x L -> (x < n)%nat) -> sep n L.
Proof.
  intros H Hl x. destruct (in_dec Nat.eq_dec x L) as [Hx|Hx].
  - specialize (Hl x Hx). unfold lt1. destruct (Nat.ltb_spec x n); [|lia].
    apply (proj1 (NoDup_count_occ Nat.eq_dec L) H).
  - assert (occ x L = 0%nat) as -> by now apply count_occ_not_In. lia.
Qed.

(** ** Arrays *)
(** The entries of [xs] come first. *)
Definition pre {A} (xs : list A) (sl : list (option A)) : Prop := exists rest, sl = map Some xs ++ rest.

Lemma rmap_got {A} (xs : list A) : rmap got (map Some xs) = Ok xs.
Proof. induction xs as [|x xs IH]; [reflexivity|]. cbn. rewrite IH. reflexivity. Qed.
Lemma pre_nil {A} (sl : list (option A)) : pre [] sl.
Proof. now exists sl. Qed.
Lemma pre_len {A} (xs : list A) sl : pre xs sl -> lenN xs <= lenN sl.
Proof. intros (r & ->). rewrite lenN_app, lenN_map. lia. Qed.
Lemma pre_app {A} (a b : list A) sl : pre (a ++ b) sl -> pre a sl.
Proof. intros (r & ->). rewrite map_app, <- app_assoc. eexists. reflexivity. Qed.
Lemma pre_slice {A} (a m b : list A) sl i j : pre (a ++ m ++ b) sl -> lenN a = i -> j = i + lenN m ->
  entries sl i j = Ok m.
Proof.
  intros (r & ->) Hi Hj. unfold entries. rewrite !map_app, <- !app_assoc.
  rewrite (rsliceN_app i j (map Some a) (map Some m) (map Some b ++ r)) by (rewrite ?lenN_map; lia).
  cbn [rbind]. apply rmap_got.
Qed.
Lemma pre_all {A} (m : list A) sl j : pre m sl -> j = lenN m -> entries sl 0 j = Ok m.
Proof. intros H ->. apply (pre_slice [] m []); [now rewrite app_nil_r|reflexivity|lia]. Qed.
Lemma pre_at {A} (a : list A) x b sl i : pre (a ++ x :: b) sl -> lenN a = i -> entry sl i = Ok x.
Proof.
  intros (r & ->) Hi. unfold entry. rewrite map_app, <- app_assoc. cbn [map app].
  rewrite rnthN_app by now rewrite lenN_map. reflexivity.
Qed.
(** Appending. *)
Lemma write_pre {A} (xs ys : list A) sl i : pre xs sl -> lenN xs = i -> i + lenN ys <= lenN sl ->
  exists sl', write sl i (map Some ys) = Ok sl' /\ pre (xs ++ ys) sl' /\ lenN sl' = lenN sl /\
    forall j, i + lenN ys <= j -> dropN j sl' = dropN j sl.
Proof.
  intros (r & ->) Hi Hl. unfold write. rewrite lenN_map. destruct (N.leb_spec (i + lenN ys) (lenN (map Some xs ++ r))); [|lia].
  assert (takeN i (map Some xs ++ r) = map Some xs) as ->.
  { rewrite <- Hi, <- (lenN_map Some xs). apply takeN_app. }
  eexists. split; [reflexivity|].
  rewrite lenN_app, lenN_map in *. split.
  { unfold pre. rewrite map_app, app_assoc. eexists. reflexivity. }
  split.
  { rewrite !lenN_app, lenN_dropN, lenN_app, !lenN_map. lia. }
  intros j Hj. rewrite app_assoc. rewrite dropN_app_ge by (rewrite lenN_app, !lenN_map; lia).
  rewrite dropN_dropN, lenN_app, !lenN_map. f_equal. lia.
Qed.
(** Entries from [j] on do not change. *)
Definition tails {A} (j : N) (sl sl' : list (option A)) : Prop := forall i, j <= i -> rnthN sl' i = rnthN sl i.
Lemma drop_tails {A} j (sl sl' : list (option A)) :
  (forall i, j <= i -> dropN i sl' = dropN i sl) -> tails j sl sl'.
Proof.
  intros H i Hi. specialize (H i Hi). unfold rnthN, rnth, dropN in *.
  assert (forall (l : list (option A)) k, nth_error l k = nth_error (skipn k l) 0) as E.
  { induction l as [|x l IH]; intros [|k]; cbn; auto. rewrite IH. destruct (skipn k l); reflexivity. }
  now rewrite (E sl'), (E sl), H.
Qed.
Lemma entry_tails {A} j (sl sl' : list (option A)) i : tails j sl sl' -> j <= i -> entry sl' i = entry sl i.
Proof. intros H Hi. unfold entry. now rewrite H. Qed.
Lemma tails_le {A} j k (sl sl' : list (option A)) : tails j sl sl' -> j <= k -> tails k sl sl'.
Proof. intros H Hk i Hi. apply H. lia. Qed.
Lemma tails_refl {A} j (sl : list (option A)) : tails j sl sl.
Proof. easy. Qed.
Lemma tails_trans {A} j (a b c : list (option A)) : tails j a b -> tails j b c -> tails j a c.
Proof. intros H1 H2 i Hi. rewrite H2, H1; auto. Qed.

Lemma blank_len A n : lenN (blank A n) = n.
Proof. unfold blank. rewrite lenN_repeat. lia. Qed.

(** ** Representation *)
Inductive all3 {A C D : Type} (R : A -> C -> D -> Prop) : list A -> list C -> list D -> Prop :=
| all3_nil : all3 R [] [] []
| all3_cons a c d la lc ld : R a c d -> all3 R la lc ld -> all3 R (a :: la) (c :: lc) (d :: ld).

Section All3.
Context {A C D : Type} (R : A -> C -> D -> Prop).
Lemma all3_app a1 c1 d1 a2 c2 d2 : all3 R a1 c1 d1 -> all3 R a2 c2 d2 ->
  all3 R (a1 ++ a2) (c1 ++ c2) (d1 ++ d2).
Proof. induction 1; intros; cbn; [auto|]. constructor; auto. Qed.
Lemma all3_len la lc ld : all3 R la lc ld -> lenN la = lenN lc /\ lenN ld = lenN lc.
Proof. induction 1; [auto|]. rewrite !lenN_cons. lia. Qed.
Lemma all3_split la c1 c2 ld : all3 R la (c1 ++ c2) ld ->
  exists a1 a2 d1 d2, la = a1 ++ a2 /\ ld = d1 ++ d2 /\ all3 R a1 c1 d1 /\ all3 R a2 c2 d2.
Proof.
  revert la ld. induction c1 as [|c c1 IH]; intros la ld H; cbn in H.
  - exists [], la, [], ld. repeat split; auto; constructor.
  - inversion H as [|a ? d la' ? ld' Hr H']; subst. destruct (IH _ _ H') as (a1 & a2 & d1 & d2 & -> & -> & H1 & H2).
    exists (a :: a1), a2, (d :: d1), d2. repeat split; auto. constructor; auto.
Qed.
Lemma all3_one a c d : R a c d -> all3 R [a] [c] [d].
Proof. intros. repeat constructor. auto. Qed.
End All3.
Lemma all3_impl {A C D} (R Q : A -> C -> D -> Prop) la lc ld : all3 R la lc ld ->
  (forall a c d, In d ld -> R a c d -> Q a c d) -> all3 Q la lc ld.
Proof.
  induction 1; intros Hi; constructor.
  - apply Hi; [left; reflexivity|auto].
  - apply IHall3. intros. apply Hi; [right|]; auto.
Qed.

Section Rep.
Variables B BL : N.
Context {T : Type}.
Variable mine : token -> bool.
Notation width := (width B).
Notation lwidth := (lwidth BL).
Notation heap := (gheap T).

(** A block that may be overwritten. *)
Definition ow (o : option token) : bool := match o with Some t => mine t | None => false end.
Definition at_ (h : heap) (a : nat) (o : option token) (b : gbody T) : Prop := nth_error h a = Some (mkG o b).

Definition own1 (o : option token) (a : nat) : list nat := if ow o then [a] else [].
(** A table. *)
Definition trep (h : heap) (r : option nat) (sz : option (list N)) (F : list nat) : Prop :=
  match r, sz with
  | None, None => F = []
  | Some r, Some sz => exists o sl,
      at_ h r o (GTable (Some (lenN sz)) sl) /\ pre sz sl /\ (ow o = true -> lenN sl = width) /\
      F = own1 o r
  | _, _ => False
  end.
(** The block [a] represents the tree [n]; [F] are the blocks that may be overwritten.  Such a
    block has the largest capacity. *)
Fixpoint rep (h : heap) (v : nat) (a : nat) (n : node T) (F : list nat) : Prop :=
  match v, n with
  | O, Leaf xs => exists o sl,
      at_ h a o (GLeaf sl) /\ pre xs sl /\ (ow o = true -> lenN sl = lwidth) /\ F = own1 o a
  | S l, Inner sz ns => exists o r ks cs Fr Fs,
      at_ h a o (GInner r ks) /\ pre cs ks /\ (ow o = true -> lenN ks = width) /\
      trep h r sz Fr /\ all3 (rep h l) cs ns Fs /\
      F = own1 o a ++ Fr ++ List.concat Fs
  | _, _ => False
  end.

Definition owned (h : heap) (x : nat) : Prop := exists c, nth_error h x = Some c /\ ow (g_own c) = true.

Lemma own1_owned h a o b x : at_ h a o b -> In x (own1 o a) -> owned h x.
Proof.
  unfold own1. intros Ha Hx. destruct (ow o) eqn:E; [|easy]. destruct Hx as [<-|[]]. exists (mkG o b). auto.
Qed.
Lemma trep_owned h r sz F : trep h r sz F -> forall x, In x F -> owned h x.
Proof.
  destruct r as [r|], sz as [sz|]; cbn; try easy; [|now intros ->].
  intros (o & sl & Ha & _ & _ & ->) x. eapply own1_owned; eauto.
Qed.
Lemma rep_owned h v : forall a n F, rep h v a n F -> forall x, In x F -> owned h x.
Proof.
  induction v as [|l IH]; intros a n F H x Hx; destruct n as [xs|sz ns]; cbn [rep] in H; try easy.
  - destruct H as (o & sl & Ha & _ & _ & ->). eapply own1_owned; eauto.
  - destruct H as (o & r & ks & cs & Fr & Fs & Ha & _ & _ & Ht & Hk & ->).
    apply in_app_or in Hx as [Hx|Hx]; [eapply own1_owned; eauto|].
    apply in_app_or in Hx as [Hx|Hx]; [eapply trep_owned; eauto|].
    clear - IH Hk Hx. induction Hk as [|a c d la lc ld Hr Hk IHk]; [easy|].
    cbn in Hx. apply in_app_or in Hx as [Hx|Hx]; [eapply IH; eauto|auto].
Qed.
Lemma reps_owned h v a n F : all3 (rep h v) a n F -> forall x, In x (List.concat F) -> owned h x.
Proof.
  induction 1 as [|? ? ? ? ? ? Hr Hk IHk]; intros x Hx; [easy|].
  cbn in Hx. apply in_app_or in Hx as [Hx|Hx]; [eapply rep_owned; eauto|auto].
Qed.
Lemma owned_lt h x : owned h x -> (x < length h)%nat.
Proof. intros (c & E & _). apply nth_error_Some. congruence. Qed.

(** ** What a step leaves as it is *)
(** From [h] to [h'] only blocks of [W] have changed, which belonged to the callers. *)
Definition chg (h h' : heap) (W : list nat) : Prop :=
  (length h <= length h')%nat /\
  (forall a c, nth_error h a = Some c -> ~ In a W -> nth_error h' a = Some c) /\
  (forall a c, nth_error h a = Some c -> In a W -> ow (g_own c) = true).

Lemma chg_refl h : chg h h [].
Proof. split; [auto|]. split; [auto|]. easy. Qed.
Lemma chg_trans h h1 h2 W1 W2 : chg h h1 W1 -> chg h1 h2 W2 -> chg h h2 (W1 ++ W2).
Proof.
  intros (L1 & K1 & O1) (L2 & K2 & O2). split; [lia|]. split.
  - intros a c Ha Hn. rewrite in_app_iff in Hn. apply K2; [apply K1|]; auto.
  - intros a c Ha Hi. destruct (in_dec Nat.eq_dec a W1) as [Hw|Hw]; [eapply O1; eauto|].
    apply in_app_or in Hi as [Hi|Hi]; [easy|]. apply (O2 a c); auto.
Qed.
Lemma chg_sub h h' W W' : chg h h' W -> (forall x, (x < length h)%nat -> In x W -> In x W') ->
  (forall x, (x < length h)%nat -> In x W' -> owned h x) -> chg h h' W'.
Proof.
  intros (L & K & O1) Hs Ho. split; [auto|]. split.
  - intros a c Ha Hn. apply K; auto. intros Hi. apply Hn, Hs; auto. apply nth_error_Some. congruence.
  - intros a c Ha Hi. destruct (Ho a) as (c' & E & Hw); auto.
    { apply nth_error_Some. congruence. }
    congruence.
Qed.
Lemma chg_len h h' W : chg h h' W -> (length h <= length h')%nat.
Proof. now intros (L & _). Qed.
Lemma chg_at h h' W a o b : chg h h' W -> at_ h a o b -> ~ In a W -> at_ h' a o b.
Proof. intros (_ & K & _) Ha Hn. now apply K. Qed.
Lemma chg_at_own h h' W a o b : chg h h' W -> at_ h a o b -> (forall x, In x (own1 o a) -> ~ In x W) -> at_ h' a o b.
Proof.
  intros (_ & K & O1) Ha Hn. apply K; auto. intros Hi. pose proof (O1 a _ Ha Hi) as Ho. cbn in Ho.
  apply (Hn a); auto. unfold own1. rewrite Ho. now left.
Qed.
Lemma trep_chg h h' W r sz F : chg h h' W -> trep h r sz F -> (forall x, In x F -> ~ In x W) -> trep h' r sz F.
Proof.
  intros Hc. destruct r as [r|], sz as [sz|]; cbn; try easy.
  intros (o & sl & Ha & Hp & Hl & ->) Hn. exists o, sl. split; [eapply chg_at_own; eauto|auto].
Qed.
Lemma rep_chg h h' W : chg h h' W -> forall v a n F, rep h v a n F -> (forall x, In x F -> ~ In x W) -> rep h' v a n F.
Proof.
  intros Hc. induction v as [|l IH]; intros a n F H Hn; destruct n as [xs|sz ns]; cbn [rep] in H |- *; try easy.
  - destruct H as (o & sl & Ha & Hp & Hl & ->). exists o, sl. split; [eapply chg_at_own; eauto|auto].
  - destruct H as (o & r & ks & cs & Fr & Fs & Ha & Hp & Hl & Ht & Hk & ->).
    exists o, r, ks, cs, Fr, Fs. split; [eapply chg_at_own; eauto; intros; apply Hn, in_or_app; auto|].
    split; [auto|]. split; [auto|].
    split; [eapply trep_chg; eauto; intros; apply Hn, in_or_app; right; apply in_or_app; auto|].
    split; [|auto]. eapply all3_impl; [exact Hk|]. intros c m F HF Hr. apply (IH c m F Hr).
    intros x Hx. apply Hn, in_or_app. right. apply in_or_app. right. apply in_concat. eauto.
Qed.
Lemma reps_chg h h' W v a n F : chg h h' W -> all3 (rep h v) a n F -> (forall x, In x (List.concat F) -> ~ In x W) ->
  all3 (rep h' v) a n F.
Proof.
  intros Hc Hk Hn. eapply all3_impl; [exact Hk|]. intros c m G HG Hr. eapply rep_chg; eauto.
  intros x Hx. apply Hn, in_concat. eauto.
Qed.
Lemma owned_chg h h' W x : chg h h' W -> owned h x -> ~ In x W -> owned h' x.
Proof. intros (_ & K & _) (c & E & Ho) Hn. exists c. auto. Qed.

(** ** Writing and allocating *)
Lemma upd_eq (h : heap) a c0 c : nth_error h a = Some c0 -> nth_error (update_at a c h) a = Some c.
Proof. revert a. induction h as [|x h IH]; intros [|a]; cbn; try easy. apply IH. Qed.
Lemma upd_ne (h : heap) a b c : a <> b -> nth_error (update_at a c h) b = nth_error h b.
Proof.
  revert a b. induction h as [|x h IH]; intros [|a] [|b] N; cbn; try easy. apply IH. congruence.
Qed.
Lemma upd_len (h : heap) a c : length (update_at a c h) = length h.
Proof. revert a. induction h as [|x h IH]; intros [|a]; cbn; auto. Qed.
Lemma chg_upd h a o b c : at_ h a o b -> ow o = true -> chg h (update_at a c h) [a].
Proof.
  intros Ha Ho. split; [rewrite upd_len; auto|]. split.
  - intros x d Hx Hn. rewrite upd_ne; auto. intros ->. apply Hn. now left.
  - intros x d Hx [<-|[]]. unfold at_ in Ha. rewrite Ha in Hx. injection Hx as <-. exact Ho.
Qed.
Lemma at_upd h a o b o' b' : at_ h a o b -> at_ (update_at a (mkG o' b') h) a o' b'.
Proof. intros H. eapply upd_eq. exact H. Qed.
Lemma at_upd_ne h a c x o b : at_ h x o b -> a <> x -> at_ (update_at a c h) x o b.
Proof. intros H N. unfold at_. now rewrite upd_ne. Qed.
Lemma chg_new h c : chg h (h ++ [c]) [].
Proof.
  split; [rewrite app_length; lia|]. split; [|easy].
  intros a d Ha _. rewrite nth_error_app1; [auto|]. apply nth_error_Some. congruence.
Qed.
Lemma at_new h o b : at_ (h ++ [mkG o b]) (length h) o b.
Proof. unfold at_. rewrite nth_error_app2, Nat.sub_diag; auto. Qed.
Lemma at_lt h a o b : at_ h a o b -> (a < length h)%nat.
Proof. intros H. apply nth_error_Some. unfold at_ in H. congruence. Qed.
Lemma at_app h a o b c : at_ h a o b -> at_ (h ++ [c]) a o b.
Proof. intros H. unfold at_. rewrite nth_error_app1; [exact H|]. eapply at_lt; eauto. Qed.

(** ** Running programs *)
Lemma gbind_ok {A D} (m : G T A) (k : A -> G T D) h a h' : m h = Ok (a, h') -> gbind m k h = k a h'.
Proof. unfold gbind. now intros ->. Qed.
Lemma gload_ok h a o b : at_ h a o b -> gload a h = Ok (mkG o b, h).
Proof. unfold gload. now intros ->. Qed.
Lemma gstore_ok h a o b c : at_ h a o b -> gstore a c h = Ok (tt, update_at a c h).
Proof. unfold gstore. now intros ->. Qed.
Lemma ginner_ok h a o r cs : at_ h a o (GInner r cs) -> ginner a h = Ok ((r, cs), h).
Proof. intros H. unfold ginner. now rewrite (gbind_ok _ _ _ _ _ (gload_ok _ _ _ _ H)). Qed.
Lemma gleaf_ok h a o xs : at_ h a o (GLeaf xs) -> gleaf a h = Ok (xs, h).
Proof. intros H. unfold gleaf. now rewrite (gbind_ok _ _ _ _ _ (gload_ok _ _ _ _ H)). Qed.
Lemma gtable_ok h a o n sz : at_ h a o (GTable n sz) -> gtable a h = Ok ((n, sz), h).
Proof. intros H. unfold gtable. now rewrite (gbind_ok _ _ _ _ _ (gload_ok _ _ _ _ H)). Qed.
Lemma gput_leaf_ok h a o xs ys : at_ h a o (GLeaf xs) ->
  gput_leaf a ys h = Ok (tt, update_at a (mkG o (GLeaf ys)) h).
Proof.
  intros H. unfold gput_leaf. rewrite (gbind_ok _ _ _ _ _ (gload_ok _ _ _ _ H)). cbn. eapply gstore_ok; eauto.
Qed.
Lemma gput_inner_ok h a o r cs r' cs' : at_ h a o (GInner r cs) ->
  gput_inner a r' cs' h = Ok (tt, update_at a (mkG o (GInner r' cs')) h).
Proof.
  intros H. unfold gput_inner. rewrite (gbind_ok _ _ _ _ _ (gload_ok _ _ _ _ H)). cbn. eapply gstore_ok; eauto.
Qed.
Lemma gput_table_ok h a o n sz n' sz' : at_ h a o (GTable n sz) ->
  gput_table a n' sz' h = Ok (tt, update_at a (mkG o (GTable n' sz')) h).
Proof.
  intros H. unfold gput_table. rewrite (gbind_ok _ _ _ _ _ (gload_ok _ _ _ _ H)). cbn. eapply gstore_ok; eauto.
Qed.
Lemma gset_owner_ok h a o b e : at_ h a o b ->
  gset_owner a e h = Ok (tt, update_at a (mkG (Some e) b) h).
Proof.
  intros H. unfold gset_owner. rewrite (gbind_ok _ _ _ _ _ (gload_ok _ _ _ _ H)). cbn. eapply gstore_ok; eauto.
Qed.
Lemma gcan_mutate_ok h a o b e : at_ h a o b ->
  gcan_mutate a e h = Ok (owned_by (mkG o b) e, h).
Proof.
  intros H. unfold gcan_mutate. rewrite (gbind_ok _ _ _ _ _ (gload_ok _ _ _ _ H)). reflexivity.
Qed.
Lemma owned_by_ow o (b : gbody T) e : mine e = true -> owned_by (mkG o b) e = true -> o = Some e /\ ow o = true.
Proof.
  unfold owned_by, ow. cbn. destruct o as [t|]; [|easy]. intros H E. apply Nat.eqb_eq in E. subst. auto.
Qed.
Lemma gkid_ok h a o r ks i c : at_ h a o (GInner r ks) -> entry ks i = Ok c -> gkid a i h = Ok (c, h).
Proof. intros H E. unfold gkid. rewrite (gbind_ok _ _ _ _ _ (ginner_ok _ _ _ _ _ H)), E. reflexivity. Qed.
Lemma gsize_ok h r o n sl i c : at_ h r o (GTable n sl) -> entry sl i = Ok c -> gsize r i h = Ok (c, h).
Proof. intros H E. unfold gsize. rewrite (gbind_ok _ _ _ _ _ (gtable_ok _ _ _ _ _ H)), E. reflexivity. Qed.
Lemma gcount_ok h r o n sl : at_ h r o (GTable (Some n) sl) -> gcount r h = Ok (n, h).
Proof. intros H. unfold gcount. rewrite (gbind_ok _ _ _ _ _ (gtable_ok _ _ _ _ _ H)). reflexivity. Qed.
Lemma grelaxed_ok h a o r ks : at_ h a o (GInner (Some r) ks) -> grelaxed a h = Ok (r, h).
Proof. intros H. unfold grelaxed. now rewrite (gbind_ok _ _ _ _ _ (ginner_ok _ _ _ _ _ H)). Qed.
Lemma gset_count_ok h r o n sl k : at_ h r o (GTable n sl) ->
  gset_count r k h = Ok (tt, update_at r (mkG o (GTable (Some k) sl)) h).
Proof.
  intros H. unfold gset_count. rewrite (gbind_ok _ _ _ _ _ (gtable_ok _ _ _ _ _ H)). cbn. eapply gput_table_ok; eauto.
Qed.
Lemma gset_size_ok h r o n sl sl' i s : at_ h r o (GTable n sl) -> write sl i [Some s] = Ok sl' ->
  gset_size r i s h = Ok (tt, update_at r (mkG o (GTable n sl')) h).
Proof.
  intros H E. unfold gset_size. rewrite (gbind_ok _ _ _ _ _ (gtable_ok _ _ _ _ _ H)). cbn.
  unfold gbind, glift. rewrite E. eapply gput_table_ok; eauto.
Qed.
Lemma gset_kid_ok h a o r ks ks' i p : at_ h a o (GInner r ks) -> write ks i [Some p] = Ok ks' ->
  gset_kid a i p h = Ok (tt, update_at a (mkG o (GInner r ks')) h).
Proof.
  intros H E. unfold gset_kid. rewrite (gbind_ok _ _ _ _ _ (ginner_ok _ _ _ _ _ H)). cbn.
  unfold gbind, glift. rewrite E. eapply gput_inner_ok; eauto.
Qed.
Lemma glift_ok {A} (r : res A) a (h : heap) : r = Ok a -> glift r h = Ok (a, h).
Proof. intros ->. reflexivity. Qed.
End Rep.
