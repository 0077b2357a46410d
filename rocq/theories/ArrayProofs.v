(** Invariant of array programs and refinement of the list specification. *)
From Coq Require Import List NArith Arith Bool Lia ZifyN ZifyNat ZifyBool.
From Verif Require Import Common NList RrbSpec Array ArraySpec.
Import ListNotations.
Local Open Scope N_scope.
Set Default Goal Selector "!".

(** ** Lists of variables *)
Lemma nth_update {A} (l : list A) i j x :
  nth_error (update_at i x l) j =
  if Nat.eqb i j then match nth_error l i with Some _ => Some x | None => None end
  else nth_error l j.
Proof.
  revert i j. induction l as [|y l IH]; intros [|i] [|j]; cbn; try reflexivity.
  - destruct (Nat.eqb i j); reflexivity.
  - apply IH.
Qed.
Lemma update_app_l {A} (l m : list A) i x : (i < length l)%nat ->
  update_at i x (l ++ m) = update_at i x l ++ m.
Proof.
  revert i. induction l as [|y l IH]; intros [|i] H; cbn in *; [lia..|reflexivity|].
  f_equal. apply IH. lia.
Qed.
Lemma update_length {A} (l : list A) i x : length (update_at i x l) = length l.
Proof. revert i. induction l as [|y l IH]; intros [|i]; cbn; auto. Qed.
Lemma update_same {A} (l : list A) i x y : update_at i x (update_at i y l) = update_at i x l.
Proof. revert i. induction l as [|z l IH]; intros [|i]; cbn; f_equal; auto. Qed.
Lemma In_update {A} (l : list A) i x y : In y (update_at i x l) -> y = x \/ In y l.
Proof.
  revert i. induction l as [|z l IH]; intros [|i]; cbn; intros H; auto.
  - destruct H; auto.
  - destruct H as [H|H]; auto. destruct (IH _ H); auto.
Qed.
Lemma nth_lt {A} (l : list A) i x : nth_error l i = Some x -> (i < length l)%nat.
Proof. intros H. apply nth_error_Some. congruence. Qed.

(** References to a node from a list of variables. *)
Definition points (a : addr) (o : option handle) : N :=
  match o with Some h => if Nat.eqb (ptr h) a then 1 else 0 | None => 0 end.
Fixpoint refs (a : addr) (l : list (option handle)) : N :=
  match l with [] => 0 | o :: l' => points a o + refs a l' end.
Lemma refs_app a l m : refs a (l ++ m) = refs a l + refs a m.
Proof. induction l as [|o l IH]; cbn; [reflexivity|]. rewrite IH. lia. Qed.
Lemma refs_update a l i o o' : nth_error l i = Some o ->
  refs a (update_at i o' l) + points a o = refs a l + points a o'.
Proof.
  revert i. induction l as [|x l IH]; intros [|i] H; cbn in *; try discriminate.
  - injection H as ->. lia.
  - specialize (IH _ H). lia.
Qed.
Lemma refs_pos a l h : In (Some h) l -> ptr h = a -> 0 < refs a l.
Proof.
  induction l as [|x l IH]; cbn; [easy|]. intros [->|H] E.
  - cbn. rewrite E, Nat.eqb_refl. lia.
  - specialize (IH H E). lia.
Qed.
Lemma refs_in a l : 0 < refs a l -> exists h, In (Some h) l /\ ptr h = a.
Proof.
  induction l as [|[h|] l IH]; cbn; [lia| |].
  - destruct (Nat.eqb_spec (ptr h) a); [eauto|]. intros H. destruct IH as (h' & ? & ?); [lia|].
    eauto.
  - intros H. destruct IH as (h' & ? & ?); [lia|]. eauto.
Qed.

Section Proofs.
Context {T : Type}.
Variable trivial : bool.
Variables esz off nodesz limit : N.
Hypothesis Hesz : 0 < esz.
Hypothesis Hoff : 0 < off.
Hypothesis Hnode : off + esz <= nodesz.
Hypothesis Hnode2 : nodesz < 2^63.
Hypothesis Hlim : limit < 2^63.

Notation cell := (cell T).
Notation world := (world T).
Notation state := (state T).
Notation sizeof_n := (sizeof_n esz off nodesz).
Notation room := (room esz off nodesz).

(** The size of a block for [cap] elements does not wrap and can be allocated. *)
Definition cap_ok (cap : N) : Prop := off + esz * cap <= limit.
Definition no_wrap (n : N) : Prop := off + esz * n < 2^64.

Lemma w64_small x : x < 2^64 -> w64 x = x.
Proof. intros H. unfold w64. now apply N.mod_small. Qed.
Lemma sizeof_no_wrap n : no_wrap n -> sizeof_n n = N.max (off + esz * n) nodesz.
Proof.
  unfold no_wrap, sizeof_n. intros H.
  assert (H' : esz * n < 2^64) by (clear - H; lia).
  now rewrite (w64_small (esz * n)), (w64_small (off + esz * n)).
Qed.
Lemma cap_no_wrap n : cap_ok n -> no_wrap n.
Proof. unfold cap_ok, no_wrap. clear - Hlim. lia. Qed.
Lemma room_ge n : no_wrap n -> n <= room n.
Proof.
  intros H. unfold room. rewrite sizeof_no_wrap by assumption.
  apply N.div_le_lower_bound; [lia|]. lia.
Qed.
Lemma fits_cap n : no_wrap n -> sizeof_n n <= limit -> cap_ok n.
Proof. intros H. rewrite sizeof_no_wrap by assumption. unfold cap_ok. lia. Qed.
Lemma cap_small n : cap_ok n -> n < 2^63 - 1.
Proof.
  unfold cap_ok. intros H. assert (1 * n <= esz * n) by (apply N.mul_le_mono_r; lia).
  clear - H H0 Hoff Hlim. lia.
Qed.
Lemma recommend_up_ok sz cap : cap_ok cap -> sz <= cap + 1 ->
  let c := recommend_up sz cap in
  sz <= c /\ cap <= c /\ c = (if sz <=? cap then cap else N.max (2 * cap) sz) /\ no_wrap c.
Proof.
  intros H Hs. cbn zeta. unfold recommend_up.
  pose proof (cap_small _ H) as Hc.
  destruct (N.leb_spec sz cap) as [Hle|Hlt].
  - repeat split; try lia. now apply cap_no_wrap.
  - replace (max64 / 2) with (2^63 - 1) by reflexivity.
    destruct (N.leb_spec (2^63 - 1) cap) as [Hx|Hx]; [lia|].
    rewrite w64_small by lia.
    repeat split; try lia.
    unfold no_wrap, cap_ok in *.
    destruct (N.max_spec (2 * cap) sz) as [[H1 ->]|[H1 ->]].
    + replace sz with 1 by lia. rewrite N.mul_1_r. clear - Hnode Hnode2. lia.
    + lia.
Qed.

Lemma recommend_down_ok sz cap : cap_ok cap -> sz <= cap ->
  let c := recommend_down sz cap in sz <= c /\ no_wrap c.
Proof.
  intros H Hs. cbn zeta. unfold recommend_down. pose proof (cap_small _ H) as Hc.
  destruct (N.eqb_spec sz 0) as [->|Hz].
  - split; [lia|]. unfold no_wrap. rewrite N.mul_1_r. clear - Hnode Hnode2. lia.
  - destruct (N.ltb_spec sz (cap / 2)) as [Hx|Hx].
    + assert (Hd : 2 * (cap / 2) <= cap) by (apply N.mul_div_le; lia).
      assert (Hx' : 2 * sz <= cap) by (clear - Hx Hd; lia).
      rewrite w64_small by (clear - Hx' Hc; lia). split; [lia|].
      apply cap_no_wrap in H. unfold no_wrap in *.
      assert (esz * (sz * 2) <= esz * cap) by (apply N.mul_le_mono_l; clear - Hx'; lia).
      clear - H H0. lia.
    + split; [assumption|now apply cap_no_wrap].
Qed.

(** ** Slots *)
Definition good (sl : list (option T)) (xs : list T) : Prop :=
  exists rest, sl = map Some xs ++ rest /\ (trivial = false -> Forall (fun o => o = None) rest).

Lemma read_good sl xs i x : good sl xs -> nth_error xs (N.to_nat i) = Some x -> read sl i = Ok x.
Proof.
  intros (rest & -> & _) H. unfold read, rnthN, rnth.
  rewrite nth_error_app1 by (rewrite map_length; now apply nth_lt in H).
  now rewrite (map_nth_error Some _ _ H).
Qed.
Lemma read_n_good xs : forall sl n, good sl xs -> (n <= length xs)%nat ->
  read_n n sl = Ok (firstn n xs).
Proof.
  intros sl n (rest & -> & _). clear. revert n.
  induction xs as [|x xs IH]; intros [|n] H; cbn in *; try reflexivity; [lia|].
  rewrite IH by lia. reflexivity.
Qed.
Lemma assign_good sl xs i x y : good sl xs -> nth_error xs (N.to_nat i) = Some x ->
  exists sl', assign sl i y = Ok sl' /\ good sl' (list_set xs (N.to_nat i) (fun _ => y)) /\
              lenN sl' = lenN sl.
Proof.
  intros G H. unfold assign. rewrite (read_good _ _ _ _ G H). cbn.
  eexists. split; [reflexivity|]. split; [|unfold lenN, updN; now rewrite update_length].
  destruct G as (rest & -> & R). exists rest. split; [|assumption].
  apply nth_error_split in H as (a & b & -> & Hl).
  rewrite list_set_app by assumption. rewrite !map_app. cbn [map].
  rewrite <- !app_assoc. cbn [app]. unfold updN. rewrite <- Hl.
  rewrite <- (map_length Some a). now rewrite update_at_app.
Qed.
Lemma construct_good sl xs x : good sl xs -> lenN xs < lenN sl ->
  exists sl', construct trivial sl (lenN xs) x = Ok sl' /\ good sl' (xs ++ [x]) /\
              lenN sl' = lenN sl.
Proof.
  intros (rest & -> & R) H. rewrite lenN_app, lenN_map in H.
  destruct rest as [|o rest]; [rewrite lenN_nil in H; lia|].
  unfold construct. rewrite rnthN_app by apply lenN_map. cbn [rbind].
  assert (E : updN (lenN xs) (Some x) (map Some xs ++ o :: rest) =
              map Some (xs ++ [x]) ++ rest).
  { rewrite updN_app by apply lenN_map. rewrite map_app, <- app_assoc. reflexivity. }
  exists (map Some (xs ++ [x]) ++ rest). split; [|split].
  - destruct o as [z|]; [|now rewrite E].
    destruct trivial; [now rewrite E|].
    specialize (R eq_refl). inversion R; discriminate.
  - exists rest. split; [reflexivity|]. intros Ht. specialize (R Ht). now inversion R.
  - rewrite !lenN_app, !lenN_map, !lenN_app, lenN_cons. cbn. unfold lenN. cbn. lia.
Qed.
Lemma construct_all_good ys : forall sl xs, good sl xs -> lenN xs + lenN ys <= lenN sl ->
  exists sl', construct_all trivial sl (lenN xs) ys = Ok sl' /\ good sl' (xs ++ ys) /\
              lenN sl' = lenN sl.
Proof.
  induction ys as [|y ys IH]; intros sl xs G H.
  - exists sl. cbn. rewrite app_nil_r. auto.
  - rewrite lenN_cons in H. cbn [construct_all].
    destruct (construct_good sl xs y G) as (sl1 & -> & G1 & L1); [lia|]. cbn [rbind].
    destruct (IH sl1 (xs ++ [y]) G1) as (sl2 & E2 & G2 & L2).
    { rewrite lenN_app, lenN_cons, lenN_nil, L1. lia. }
    replace (lenN (xs ++ [y])) with (lenN xs + 1) in E2
      by (rewrite lenN_app, lenN_cons, lenN_nil; lia).
    exists sl2. rewrite E2. rewrite <- app_assoc in G2. repeat split; auto. congruence.
Qed.
Lemma good_fresh n : good (repeat None n) [].
Proof.
  exists (repeat None n). split; [reflexivity|]. intros _. apply Forall_forall.
  intros x H. now apply repeat_spec in H.
Qed.
Lemma destroy_raw (xs : list T) : trivial = false -> forall a rest,
  destroy_n trivial (repeat None a ++ map Some xs ++ rest) (N.of_nat a) (length xs)
  = Ok (repeat None (a + length xs) ++ rest).
Proof.
  intros Ht. rewrite Ht. induction xs as [|x xs IH]; intros a rest.
  - cbn. now rewrite Nat.add_0_r.
  - cbn [length map app destroy_n]. unfold read.
    rewrite rnthN_app by (rewrite lenN_repeat; lia). cbn [rbind].
    rewrite updN_app by (rewrite lenN_repeat; lia).
    replace (repeat None a ++ None :: map Some xs ++ rest)
      with (repeat (@None T) (S a) ++ map Some xs ++ rest).
    2: { replace (S a) with (a + 1)%nat by lia. rewrite repeat_app, <- app_assoc. reflexivity. }
    replace (N.of_nat a + 1) with (N.of_nat (S a)) by lia.
    rewrite IH. do 3 f_equal. lia.
Qed.
Lemma delete_good (w : world) a c xs : heap w a = Some c -> good (slots c) xs ->
  delete_n trivial w a (lenN xs) = Ok (set_cell w a None).
Proof.
  intros H (rest & E & R). unfold delete_n, rcell. rewrite H. cbn [rbind].
  destruct trivial eqn:Ht.
  - replace (destroy_n true (slots c) 0 (N.to_nat (lenN xs))) with (Ok (slots c))
      by (destruct (N.to_nat (lenN xs)); reflexivity). reflexivity.
  - rewrite E. unfold lenN. rewrite Nnat.Nat2N.id.
    pose proof (destroy_raw xs Ht 0 rest) as D. rewrite Ht in D. cbn [repeat app] in D.
    cbn [Nat.add] in D. change (N.of_nat 0) with 0 in D. rewrite D. cbn [rbind orb].
    replace (forallb is_raw (repeat None (length xs) ++ rest)) with true; [reflexivity|].
    symmetry. rewrite forallb_app. apply andb_true_iff. split; apply forallb_forall; intros o Ho.
    + apply repeat_spec in Ho. now subst.
    + specialize (R eq_refl). rewrite Forall_forall in R. rewrite (R o Ho). reflexivity.
Qed.

(** ** The invariant *)
Definition holds (hp : addr -> option cell) (h : handle) (xs : list T) : Prop :=
  exists c, hp (ptr h) = Some c /\ hsize h = lenN xs /\ good (slots c) xs /\
            hcap h <= lenN (slots c) /\ hsize h <= hcap h /\ cap_ok (hcap h).
Definition rel (hp : addr -> option cell) (o : option handle) (v : option (list T)) : Prop :=
  match o, v with
  | None, None => True
  | Some h, Some xs => holds hp h xs
  | _, _ => False
  end.

Record inv (w : world) (l : list (option handle)) (vs : vals T) : Prop := mkInv
  { i_rel : Forall2 (rel (heap w)) l vs;
    i_rc : forall a c, heap w a = Some c -> rc c = refs a l /\ 0 < refs a l;
    i_next : forall a, (next w <= a)%nat -> heap w a = None;
    i_same : forall h1 h2, In (Some h1) l -> In (Some h2) l -> ptr h1 = ptr h2 -> h1 = h2;
    i_zero : nth_error vs 0 = Some (Some []) }.

Lemma F2_nth {A C} (R : A -> C -> Prop) l m i x : Forall2 R l m -> nth_error l i = Some x ->
  exists y, nth_error m i = Some y /\ R x y.
Proof.
  intros H. revert i. induction H as [|a b l m Hab H IH]; intros [|i] E; cbn in *; try discriminate.
  - injection E as <-. eauto.
  - eauto.
Qed.
Lemma F2_nth_r {A C} (R : A -> C -> Prop) l m i y : Forall2 R l m -> nth_error m i = Some y ->
  exists x, nth_error l i = Some x /\ R x y.
Proof.
  intros H. revert i. induction H as [|a b l m Hab H IH]; intros [|i] E; cbn in *; try discriminate.
  - injection E as <-. eauto.
  - eauto.
Qed.
Lemma F2_length {A C} (R : A -> C -> Prop) l m : Forall2 R l m -> length l = length m.
Proof. induction 1; cbn; congruence. Qed.
Lemma F2_update {A C} (R : A -> C -> Prop) l m i x y : Forall2 R l m -> R x y ->
  Forall2 R (update_at i x l) (update_at i y m).
Proof.
  intros H Hxy. revert i. induction H as [|a b l m Hab H IH]; intros [|i]; cbn; auto.
Qed.
Lemma F2_impl_in {A C} (R S : A -> C -> Prop) l m :
  (forall x y, In x l -> R x y -> S x y) -> Forall2 R l m -> Forall2 S l m.
Proof.
  intros HI H. induction H as [|a b l m Hab H IH]; constructor.
  - apply HI; [now left|assumption].
  - apply IH. intros x y Hx. apply HI. now right.
Qed.

Lemma inv_var w l vs i xs : inv w l vs -> nth_error vs i = Some (Some xs) ->
  exists h, nth_error l i = Some (Some h) /\ holds (heap w) h xs.
Proof.
  intros I H. destruct (F2_nth_r _ _ _ _ _ (i_rel _ _ _ I) H) as ([h|] & Hh & R); [|easy].
  eauto.
Qed.
Lemma holds_fresh w l vs h xs : inv w l vs -> holds (heap w) h xs -> (ptr h < next w)%nat.
Proof.
  intros I (c & H & _). destruct (Nat.lt_ge_cases (ptr h) (next w)) as [|G]; [assumption|].
  rewrite (i_next _ _ _ I _ G) in H. discriminate.
Qed.
Lemma refs_fresh w l vs : inv w l vs -> refs (next w) l = 0.
Proof.
  intros I. destruct (N.eq_dec (refs (next w) l) 0) as [|H]; [assumption|].
  destruct (refs_in (next w) l) as (h & Hh & E); [lia|].
  apply In_nth_error in Hh as (i & Hi).
  destruct (F2_nth _ _ _ _ _ (i_rel _ _ _ I) Hi) as ([xs|] & _ & R); [|easy].
  pose proof (holds_fresh _ _ _ _ _ I R). lia.
Qed.

Lemma nth_zero_update (vs : vals T) i v : i <> O ->
  nth_error (update_at i v vs) 0 = nth_error vs 0.
Proof. intros H. rewrite nth_update. destruct (Nat.eqb_spec i 0); [easy|reflexivity]. Qed.
Lemma nth_zero_app (vs : vals T) v : nth_error vs 0 = Some (Some []) ->
  nth_error (vs ++ v) 0 = Some (Some []).
Proof. intros H. rewrite nth_error_app1; [assumption|now apply nth_lt in H]. Qed.

(** A new node in a new variable. *)
Definition fresh_node (w w' : world) (sl : list (option T)) : Prop :=
  next w' = S (next w) /\
  forall a, heap w' a = if Nat.eqb a (next w) then Some (mkCell 1 sl) else heap w a.
Lemma inv_add w w' l vs h sl xs : inv w l vs -> fresh_node w w' sl ->
  ptr h = next w -> good sl xs ->
  hsize h = lenN xs -> hcap h <= lenN sl -> hsize h <= hcap h -> cap_ok (hcap h) ->
  inv w' (l ++ [Some h]) (vs ++ [Some xs]).
Proof.
  intros I [Hn Hh] Hp G Hs Hc Hsc Hok. pose proof (refs_fresh _ _ _ I) as Hf. constructor.
  - apply Forall2_app.
    + eapply F2_impl_in; [|apply (i_rel _ _ _ I)].
      intros [h'|] [ys|] _ R; cbn in *; try easy.
      pose proof (holds_fresh _ _ _ _ _ I R). destruct R as (c & Hc' & R).
      exists c. split; [|assumption]. rewrite Hh. destruct (Nat.eqb_spec (ptr h') (next w)); [lia|].
      assumption.
    + constructor; [|constructor]. exists (mkCell 1 sl). rewrite Hh, Hp, Nat.eqb_refl.
      cbn. auto 7.
  - intros a c. rewrite Hh. rewrite refs_app. cbn [refs points].
    rewrite Hp. destruct (Nat.eqb_spec a (next w)) as [->|Ha].
    + intros E; injection E as <-. rewrite Nat.eqb_refl, Hf. cbn. lia.
    + intros E. destruct (i_rc _ _ _ I _ _ E).
      destruct (Nat.eqb_spec (next w) a); [congruence|]. lia.
  - intros a Ha. rewrite Hn in Ha. rewrite Hh. destruct (Nat.eqb_spec a (next w)); [lia|].
    apply (i_next _ _ _ I). lia.
  - assert (Hold : forall h', In (Some h') l -> ptr h' <> next w).
    { intros h' Hh' E. assert (0 < refs (next w) l) by (eapply refs_pos; eauto). lia. }
    intros h1 h2 H1 H2 E. apply in_app_or in H1, H2.
    destruct H1 as [H1|[H1|[]]], H2 as [H2|[H2|[]]].
    + now apply (i_same _ _ _ I).
    + injection H2 as <-. exfalso. apply (Hold _ H1). congruence.
    + injection H1 as <-. exfalso. apply (Hold _ H2). congruence.
    + congruence.
  - apply nth_zero_app, (i_zero _ _ _ I).
Qed.

(** Another reference to a live node. *)
Lemma inv_inc w l vs h xs : inv w l vs -> In (Some h) l -> holds (heap w) h xs ->
  exists w', inc w (ptr h) = Ok w' /\ inv w' (l ++ [Some h]) (vs ++ [Some xs]) /\
             copied w' = copied w.
Proof.
  intros I Hin H. pose proof H as Hh. destruct H as (c & Hc & R).
  unfold inc, rcell. rewrite Hc. cbn [rbind]. eexists. split; [reflexivity|]. split; [|reflexivity].
  assert (HK : forall h' ys, holds (heap w) h' ys ->
    holds (upd (heap w) (ptr h) (Some (mkCell (rc c + 1) (slots c)))) h' ys).
  { intros h' ys (c' & Hc' & R'). unfold holds, upd.
    destruct (Nat.eqb_spec (ptr h') (ptr h)) as [E|E].
    - rewrite E in Hc'. exists (mkCell (rc c + 1) (slots c)). cbn.
      replace c with c' by congruence. auto.
    - eauto. }
  constructor; cbn [set_cell heap next].
  - apply Forall2_app.
    + eapply F2_impl_in; [|apply (i_rel _ _ _ I)].
      intros [h'|] [ys|] _ R'; cbn in *; try easy. now apply HK.
    + constructor; [|constructor]. cbn. now apply HK.
  - intros a c'. unfold upd. rewrite refs_app. cbn [refs points].
    destruct (i_rc _ _ _ I _ _ Hc) as [Hr Hp].
    destruct (Nat.eqb_spec a (ptr h)) as [->|Ha].
    + intros E; injection E as <-. rewrite Nat.eqb_refl. cbn. lia.
    + intros E. destruct (i_rc _ _ _ I _ _ E).
      destruct (Nat.eqb_spec (ptr h) a); [congruence|]. lia.
  - intros a Ha. unfold upd. destruct (Nat.eqb_spec a (ptr h)) as [->|Ha'].
    + pose proof (holds_fresh _ _ _ _ _ I Hh). lia.
    + now apply (i_next _ _ _ I).
  - intros h1 h2 H1 H2. apply in_app_or in H1, H2. apply (i_same _ _ _ I).
    + destruct H1 as [|[E|[]]]; congruence.
    + destruct H2 as [|[E|[]]]; congruence.
  - apply nth_zero_app, (i_zero _ _ _ I).
Qed.

(** The same references held by other variables. *)
Lemma inv_shift w l vs l' vs' : inv w l vs -> Forall2 (rel (heap w)) l' vs' ->
  (forall a, refs a l' = refs a l) -> (forall h, In (Some h) l' -> In (Some h) l) ->
  nth_error vs' 0 = Some (Some []) -> inv w l' vs'.
Proof.
  intros I HF HR HI HZ. constructor; auto.
  - intros a c E. rewrite HR. now apply (i_rc _ _ _ I).
  - apply (i_next _ _ _ I).
  - intros h1 h2 H1 H2. apply (i_same _ _ _ I); auto.
Qed.

(** Releasing a variable. *)
Lemma inv_dec w l vs i h xs : inv w l vs -> nth_error l i = Some (Some h) ->
  holds (heap w) h xs -> i <> O ->
  exists w', dec trivial w h = Ok w' /\ inv w' (update_at i None l) (update_at i None vs) /\
             copied w' = copied w.
Proof.
  intros I Hi Hh Hz. pose proof Hh as (c & Hc & Hs & G & _).
  destruct (i_rc _ _ _ I _ _ Hc) as [Hr Hp].
  assert (HU : forall a, refs a (update_at i None l) + points a (Some h) = refs a l).
  { intros a. rewrite (refs_update a l i (Some h) None Hi). cbn. lia. }
  assert (HI : forall h', In (Some h') (update_at i None l) -> In (Some h') l).
  { intros h' H. apply In_update in H. now destruct H. }
  unfold dec, rcell. rewrite Hc. cbn [rbind].
  destruct (N.eqb_spec (rc c) 0) as [E0|_]; [lia|].
  destruct (N.eqb_spec (rc c) 1) as [E1|E1].
  - rewrite Hs. rewrite (delete_good _ _ _ _ Hc G). eexists. split; [reflexivity|].
    split; [|reflexivity].
    assert (HN : refs (ptr h) (update_at i None l) = 0).
    { specialize (HU (ptr h)). cbn in HU. rewrite Nat.eqb_refl in HU. lia. }
    constructor; cbn [set_cell heap next].
    + eapply F2_impl_in; [|apply F2_update with (x := None) (y := None); [apply (i_rel _ _ _ I)|exact Logic.I]].
      intros [h'|] [ys|] Hx R'; cbn in *; try easy.
      destruct R' as (c' & Hc' & R'). exists c'. split; [|assumption].
      unfold upd. destruct (Nat.eqb_spec (ptr h') (ptr h)) as [E|E]; [|assumption].
      exfalso. pose proof (refs_pos _ _ _ Hx E). lia.
    + intros a c'. unfold upd. destruct (Nat.eqb_spec a (ptr h)) as [->|Ha]; [easy|].
      intros E. destruct (i_rc _ _ _ I _ _ E). specialize (HU a). cbn in HU.
      destruct (Nat.eqb_spec (ptr h) a); [congruence|]. lia.
    + intros a Ha. unfold upd. destruct (Nat.eqb_spec a (ptr h)); [reflexivity|].
      now apply (i_next _ _ _ I).
    + intros h1 h2 H1 H2. apply (i_same _ _ _ I); auto.
    + rewrite nth_zero_update by assumption. apply (i_zero _ _ _ I).
  - eexists. split; [reflexivity|]. split; [|reflexivity].
    constructor; cbn [set_cell heap next].
    + eapply F2_impl_in; [|apply F2_update with (x := None) (y := None); [apply (i_rel _ _ _ I)|exact Logic.I]].
      intros [h'|] [ys|] Hx R'; cbn in *; try easy.
      destruct R' as (c' & Hc' & R'). unfold holds, upd.
      destruct (Nat.eqb_spec (ptr h') (ptr h)) as [E|E].
      * exists (mkCell (rc c - 1) (slots c)). rewrite E in Hc'. cbn.
        replace c with c' by congruence. auto.
      * eauto.
    + intros a c'. unfold upd. specialize (HU a). cbn in HU.
      destruct (Nat.eqb_spec a (ptr h)) as [->|Ha].
      * intros E; injection E as <-. cbn. rewrite Nat.eqb_refl in HU. lia.
      * intros E. destruct (i_rc _ _ _ I _ _ E).
        destruct (Nat.eqb_spec (ptr h) a); [congruence|]. lia.
    + intros a Ha. unfold upd. destruct (Nat.eqb_spec a (ptr h)) as [->|Ha'].
      * pose proof (holds_fresh _ _ _ _ _ I Hh). lia.
      * now apply (i_next _ _ _ I).
    + intros h1 h2 H1 H2. apply (i_same _ _ _ I); auto.
    + rewrite nth_zero_update by assumption. apply (i_zero _ _ _ I).
Qed.

(** Overwriting a variable by a temporary: the old contents are released. *)
Lemma inv_replace w l vs i h xs h' ys : inv w (l ++ [Some h']) (vs ++ [Some ys]) ->
  nth_error l i = Some (Some h) -> holds (heap w) h xs -> i <> O ->
  length l = length vs ->
  exists w', dec trivial w h = Ok w' /\
             inv w' (update_at i (Some h') l) (update_at i (Some ys) vs) /\
             copied w' = copied w.
Proof.
  intros I Hi Hh Hz HL. pose proof (nth_lt _ _ _ Hi) as Hlt.
  destruct (inv_dec _ _ _ i h xs I) as (w' & E & I' & C); auto.
  { rewrite nth_error_app1 by assumption. assumption. }
  exists w'. split; [assumption|]. split; [|assumption].
  rewrite !update_app_l in I' by lia.
  assert (HF := i_rel _ _ _ I').
  apply Forall2_app_inv_l in HF as (v1 & v2 & HF1 & HF2 & Ev).
  inversion HF2 as [|? y ? v3 Hy Hnil]; subst. inversion Hnil; subst.
  apply app_inj_tail in Ev as [Ev <-]. subst v1.
  apply (inv_shift _ _ _ _ _ I').
  - rewrite <- (update_same l i (Some h') None), <- (update_same vs i (Some ys) None).
    apply F2_update; assumption.
  - intros a. rewrite refs_app. cbn [refs].
    assert (N1 : nth_error (update_at i None l) i = Some None)
      by (rewrite nth_update, Nat.eqb_refl, Hi; reflexivity).
    pose proof (refs_update a _ i None (Some h') N1) as U. rewrite update_same in U.
    change (points a None) with 0 in U. lia.
  - intros h0 H0. apply In_nth_error in H0 as (k & Hk). rewrite nth_update in Hk.
    apply in_or_app. destruct (Nat.eqb_spec i k) as [->|N].
    + rewrite Hi in Hk. injection Hk as <-. right. now left.
    + left. apply nth_error_In with k. rewrite nth_update.
      destruct (Nat.eqb_spec i k); [easy|assumption].
  - rewrite nth_zero_update by assumption. pose proof (i_zero _ _ _ I) as Z.
    rewrite nth_error_app1 in Z by lia. assumption.
Qed.

(** Writing in place to a node that only this variable refers to. *)
Lemma inv_inplace w l vs i h c h' sl ys : inv w l vs -> nth_error l i = Some (Some h) ->
  heap w (ptr h) = Some c -> rc c = 1 -> i <> O ->
  ptr h' = ptr h -> good sl ys -> hsize h' = lenN ys -> hcap h' <= lenN sl ->
  hsize h' <= hcap h' -> cap_ok (hcap h') ->
  inv (set_cell w (ptr h) (Some (mkCell 1 sl))) (update_at i (Some h') l)
      (update_at i (Some ys) vs).
Proof.
  intros I Hi Hc H1 Hz Hp G Hs Hcap Hsc Hok.
  destruct (i_rc _ _ _ I _ _ Hc) as [Hr _]. rewrite H1 in Hr.
  assert (Honly : forall k h0, nth_error l k = Some (Some h0) -> ptr h0 = ptr h -> k = i).
  { intros k h0 Hk E. destruct (Nat.eq_dec k i) as [|N]; [assumption|exfalso].
    pose proof (refs_update (ptr h) l i (Some h) None Hi) as U. cbn in U.
    rewrite Nat.eqb_refl in U.
    assert (0 < refs (ptr h) (update_at i None l)); [|lia].
    apply refs_pos with h0; [|assumption]. apply nth_error_In with k. rewrite nth_update.
    destruct (Nat.eqb_spec i k); [congruence|assumption]. }
  constructor; cbn [set_cell heap next].
  - assert (HF : Forall2 (rel (heap w)) (update_at i None l) (update_at i None vs))
      by (apply F2_update; [apply (i_rel _ _ _ I)|exact Logic.I]).
    rewrite <- (update_same l i (Some h') None), <- (update_same vs i (Some ys) None).
    apply F2_update.
    + eapply F2_impl_in; [|exact HF].
      intros [h0|] [zs|] Hx R'; cbn in *; try easy.
      destruct R' as (c' & Hc' & R'). exists c'. split; [|assumption].
      unfold upd. destruct (Nat.eqb_spec (ptr h0) (ptr h)) as [E|E]; [|assumption].
      exfalso. apply In_nth_error in Hx as (k & Hk). rewrite nth_update in Hk.
      destruct (Nat.eqb_spec i k) as [->|N]; [now rewrite Hi in Hk|].
      apply N. symmetry. eapply Honly; eassumption.
    + cbn. exists (mkCell 1 sl). unfold upd. rewrite Hp, Nat.eqb_refl. auto 7.
  - intros a c'. pose proof (refs_update a l i (Some h) (Some h') Hi) as U.
    cbn [points] in U. rewrite Hp in U. unfold upd.
    destruct (Nat.eqb_spec a (ptr h)) as [->|Ha].
    + intros E; injection E as <-. cbn. lia.
    + intros E. destruct (i_rc _ _ _ I _ _ E). lia.
  - intros a Ha. unfold upd. destruct (Nat.eqb_spec a (ptr h)) as [->|Ha'].
    + rewrite (i_next _ _ _ I _ Ha) in Hc. discriminate.
    + now apply (i_next _ _ _ I).
  - intros h1 h2 I1 I2 E. apply In_nth_error in I1 as (k1 & K1), I2 as (k2 & K2).
    rewrite nth_update in K1, K2.
    assert (D : forall k h0,
      (if Nat.eqb i k then match nth_error l i with Some _ => Some (Some h') | None => None end
       else nth_error l k) = Some (Some h0) ->
      (k = i /\ h0 = h') \/ (k <> i /\ nth_error l k = Some (Some h0))).
    { intros k h0. destruct (Nat.eqb_spec i k) as [E0|N].
      - rewrite Hi. intros X. left. split; congruence.
      - intros X. right. split; congruence. }
    apply D in K1 as [[K1 ->]|[N1 K1]], K2 as [[K2 ->]|[N2 K2]].
    + reflexivity.
    + exfalso. apply N2. apply (Honly k2 h2); congruence.
    + exfalso. apply N1. apply (Honly k1 h1); congruence.
    + apply (i_same _ _ _ I); eauto using nth_error_In.
  - rewrite nth_zero_update by assumption. apply (i_zero _ _ _ I).
Qed.

(** ** Operations *)
Definition made (w : world) (xs : list T) (k : N) (r : res (option (handle * world))) : Prop :=
  r = Ok None \/
  exists h' w' sl, r = Ok (Some (h', w')) /\ fresh_node w w' sl /\ ptr h' = next w /\
    good sl xs /\ hsize h' = lenN xs /\ hcap h' <= lenN sl /\ hsize h' <= hcap h' /\
    cap_ok (hcap h') /\ copied w' = copied w + k.

Lemma fill_node_ok w n xs : no_wrap n -> lenN xs <= n ->
  fill_node trivial esz off nodesz limit w n xs = Ok None \/
  exists w' sl, fill_node trivial esz off nodesz limit w n xs = Ok (Some (next w, w')) /\
    fresh_node w w' sl /\ good sl xs /\ n <= lenN sl /\ cap_ok n /\
    copied w' = copied w + lenN xs.
Proof.
  intros Hw Hl. unfold fill_node, make_n.
  destruct (N.ltb_spec limit (sizeof_n n)) as [|Hlt]; [now left|right].
  cbn [rbind]. unfold rcell. cbn [heap]. unfold upd at 1. rewrite Nat.eqb_refl. cbn [rbind slots rc].
  pose proof (room_ge n Hw) as Hroom.
  destruct (construct_all_good xs (repeat None (N.to_nat (room n))) [] (good_fresh _))
    as (sl & E & G & L).
  { rewrite lenN_nil, lenN_repeat. lia. }
  rewrite lenN_nil in E. rewrite E. cbn [rbind next copied].
  eexists _, sl. split; [reflexivity|]. split; [|split; [|split; [|split]]].
  - split; [reflexivity|]. intros a. cbn [heap]. unfold upd.
    destruct (Nat.eqb_spec a (next w)); reflexivity.
  - exact G.
  - rewrite L, lenN_repeat. lia.
  - apply fits_cap; assumption.
  - reflexivity.
Qed.

Lemma copy_n_ok w n h xs count : no_wrap n -> count <= n -> holds (heap w) h xs ->
  count <= lenN xs ->
  copy_n trivial esz off nodesz limit w n (ptr h) count = Ok None \/
  exists w' sl, copy_n trivial esz off nodesz limit w n (ptr h) count = Ok (Some (next w, w')) /\
    fresh_node w w' sl /\ good sl (firstn (N.to_nat count) xs) /\ n <= lenN sl /\ cap_ok n /\
    copied w' = copied w + count.
Proof.
  intros Hw Hc (c & Hh & _ & G & _) Hl. unfold copy_n, rcell. rewrite Hh. cbn [rbind].
  rewrite (read_n_good xs _ _ G) by (unfold lenN in Hl; lia). cbn [rbind].
  assert (L : lenN (firstn (N.to_nat count) xs) = count).
  { unfold lenN in *. rewrite firstn_length. lia. }
  destruct (fill_node_ok w n (firstn (N.to_nat count) xs) Hw) as [E|(w' & sl & E & F)].
  - rewrite L. assumption.
  - now left.
  - rewrite L in F. eauto.
Qed.

Lemma write_fresh (w w' : world) sl sl' : fresh_node w w' sl ->
  exists w'', write_slots w' (next w) sl' = Ok w'' /\ fresh_node w w'' sl' /\ copied w'' = copied w'.
Proof.
  intros [Hn Hh]. unfold write_slots, rcell. rewrite Hh, Nat.eqb_refl. cbn [rbind rc].
  eexists. split; [reflexivity|]. split; [|reflexivity]. split; [exact Hn|].
  intros a. cbn [set_cell heap]. unfold upd.
  destruct (Nat.eqb_spec a (next w)); [reflexivity|]. rewrite Hh.
  destruct (Nat.eqb_spec a (next w)); [easy|reflexivity].
Qed.
Lemma rcell_fresh (w w' : world) sl : fresh_node w w' sl -> rcell w' (next w) = Ok (mkCell 1 sl).
Proof. intros [_ Hh]. unfold rcell. now rewrite Hh, Nat.eqb_refl. Qed.

Lemma firstn_lenN (xs : list T) : firstn (N.to_nat (lenN xs)) xs = xs.
Proof. unfold lenN. rewrite Nnat.Nat2N.id. apply firstn_all. Qed.

Lemma holds_size w h xs : holds (heap w) h xs -> hsize h = lenN xs /\ lenN xs < 2^63 - 1.
Proof.
  intros (c & _ & Hs & _ & _ & H1 & H2). apply cap_small in H2. lia.
Qed.

Lemma push_back_ok w h xs x : holds (heap w) h xs ->
  made w (xs ++ [x]) (lenN xs) (push_back trivial esz off nodesz limit w h x).
Proof.
  intros H. pose proof (holds_size _ _ _ H) as [Hs Hsm].
  pose proof H as (c & _ & _ & _ & _ & Hsc & Hok).
  unfold push_back. rewrite Hs, w64_small by lia.
  destruct (recommend_up_ok (lenN xs + 1) (hcap h) Hok) as (R1 & R2 & _ & R3); [lia|].
  set (cap := recommend_up (lenN xs + 1) (hcap h)) in *.
  destruct (copy_n_ok w cap h xs (lenN xs) R3) as [E|(w' & sl & E & F & G & L & Hcap & Hk)];
    [lia|assumption|lia|rewrite E; now left|].
  rewrite E. cbn [rbind]. rewrite (rcell_fresh _ _ _ F). cbn [rbind slots].
  rewrite firstn_lenN in G.
  destruct (construct_good sl xs x G) as (sl' & E' & G' & L'); [lia|].
  rewrite E'. cbn [rbind].
  destruct (write_fresh w w' sl sl' F) as (w'' & E'' & F' & C').
  rewrite E''. cbn [rbind]. right.
  eexists _, _, sl'. split; [reflexivity|]. cbn [ptr hsize hcap].
  rewrite lenN_app, lenN_cons, lenN_nil.
  repeat (split; [first [assumption|reflexivity|lia]|]). lia.
Qed.

Lemma list_set_const (xs : list T) i f x : nth_error xs i = Some x ->
  list_set xs i f = list_set xs i (fun _ => f x).
Proof.
  intros H. apply nth_error_split in H as (a & b & -> & Hl).
  now rewrite !list_set_app by assumption.
Qed.
Lemma list_set_length (xs : list T) i f : length (list_set xs i f) = length xs.
Proof.
  unfold list_set. destruct (skipn i xs) as [|y r] eqn:E; [reflexivity|].
  rewrite <- (firstn_skipn i xs) at 2. rewrite E, !app_length. reflexivity.
Qed.
Lemma lenN_list_set (xs : list T) i f : lenN (list_set xs i f) = lenN xs.
Proof. unfold lenN. now rewrite list_set_length. Qed.

Lemma update_ok w h xs k f : holds (heap w) h xs -> k < lenN xs ->
  made w (list_set xs (N.to_nat k) f) (lenN xs) (update trivial esz off nodesz limit w h k f).
Proof.
  intros H Hk. pose proof (holds_size _ _ _ H) as [Hs Hsm].
  pose proof H as (c & _ & _ & _ & _ & Hsc & Hok).
  unfold update. rewrite Hs.
  destruct (copy_n_ok w (hcap h) h xs (lenN xs) (cap_no_wrap _ Hok))
    as [E|(w' & sl & E & F & G & L & Hcap & Hkk)]; [lia|assumption|lia|rewrite E; now left|].
  rewrite E. cbn [rbind]. rewrite (rcell_fresh _ _ _ F). cbn [rbind slots].
  rewrite firstn_lenN in G.
  destruct (nth_error xs (N.to_nat k)) as [x|] eqn:Ex.
  2: { apply nth_error_None in Ex. unfold lenN in Hk. lia. }
  rewrite (read_good _ _ _ _ G Ex). cbn [rbind].
  destruct (assign_good sl xs k x (f x) G Ex) as (sl' & E' & G' & L').
  rewrite E'. cbn [rbind].
  destruct (write_fresh w w' sl sl' F) as (w'' & E'' & F' & C').
  rewrite E''. cbn [rbind]. right.
  rewrite (list_set_const _ _ _ _ Ex).
  eexists _, _, sl'. split; [reflexivity|]. cbn [ptr hsize hcap]. rewrite lenN_list_set.
  repeat (split; [first [assumption|reflexivity|lia]|]). lia.
Qed.

Lemma take_ok w h xs n : holds (heap w) h xs -> n <= lenN xs ->
  made w (firstn (N.to_nat n) xs) n (take trivial esz off nodesz limit w h n).
Proof.
  intros H Hn. pose proof (holds_size _ _ _ H) as [Hs Hsm].
  pose proof H as (c & _ & _ & _ & _ & Hsc & Hok).
  unfold take.
  destruct (recommend_down_ok n (hcap h) Hok) as (R1 & R3); [lia|].
  set (cap := recommend_down n (hcap h)) in *.
  destruct (copy_n_ok w cap h xs n R3) as [E|(w' & sl & E & F & G & L & Hcap & Hk)];
    [lia|assumption|lia|rewrite E; now left|].
  rewrite E. cbn [rbind]. right.
  eexists _, _, sl. split; [reflexivity|]. cbn [ptr hsize hcap].
  assert (Lf : lenN (firstn (N.to_nat n) xs) = n).
  { unfold lenN in *. rewrite firstn_length. lia. }
  rewrite Lf. repeat (split; [first [assumption|reflexivity|lia]|]). assumption.
Qed.

Lemma made_add w l vs xs k r : inv w l vs -> made w xs k r ->
  r = Ok None \/ exists h' w', r = Ok (Some (h', w')) /\
    inv w' (l ++ [Some h']) (vs ++ [Some xs]) /\ copied w' = copied w + k /\
    hsize h' = lenN xs.
Proof.
  intros I [->|(h' & w' & sl & -> & F & H1 & H2 & H3 & H4 & H5 & H6 & H7)]; [now left|right].
  exists h', w'. split; [reflexivity|]. split; [|auto]. eapply inv_add; eauto.
Qed.

(** Making a new node for variable [i] and releasing the old one. *)
Lemma made_replace w l vs i h xs ys k r : inv w l vs -> nth_error l i = Some (Some h) ->
  holds (heap w) h xs -> i <> O -> made w ys k r ->
  (' (h', w') <~ r ;; replace trivial w' h h') = Ok None \/
  exists h' w', (' (h', w') <~ r ;; replace trivial w' h h') = Ok (Some (h', w')) /\
    inv w' (update_at i (Some h') l) (update_at i (Some ys) vs) /\
    copied w' = copied w + k.
Proof.
  intros I Hi Hh Hz HM.
  assert (Hr : exists xs', nth_error vs i = Some (Some xs') /\ holds (heap w) h xs').
  { destruct (F2_nth _ _ _ _ _ (i_rel _ _ _ I) Hi) as ([xs'|] & ? & R); [|easy]. eauto. }
  destruct (made_add _ _ _ _ _ _ I HM) as [->|(h' & w' & -> & I' & C & _)]; [now left|right].
  cbn [rbind]. unfold replace.
  assert (HL : length l = length vs) by (eapply F2_length, (i_rel _ _ _ I)).
  assert (HH : exists zs, holds (heap w') h zs).
  { assert (Hi' : nth_error (l ++ [Some h']) i = Some (Some h))
      by (rewrite nth_error_app1; [assumption|now apply nth_lt in Hi]).
    destruct (F2_nth _ _ _ _ _ (i_rel _ _ _ I') Hi') as ([zs|] & _ & R); [|easy]. eauto. }
  destruct HH as (zs & Hzs).
  destruct (inv_replace _ _ _ _ _ _ _ _ I' Hi Hzs Hz HL) as (w'' & E & I'' & C').
  rewrite E. cbn [rbind]. exists h', w''. split; [reflexivity|]. split; [assumption|congruence].
Qed.

Lemma can_mutate_rc w h xs : holds (heap w) h xs ->
  exists c, heap w (ptr h) = Some c /\ can_mutate w (ptr h) = Ok (rc c =? 1).
Proof.
  intros (c & H & _). exists c. split; [assumption|]. unfold can_mutate, rcell. now rewrite H.
Qed.

Definition changed (w : world) l vs i ys k (r : res (option (handle * world))) : Prop :=
  r = Ok None \/ exists h' w', r = Ok (Some (h', w')) /\
    inv w' (update_at i (Some h') l) (update_at i (Some ys) vs) /\ copied w' <= copied w + k.

Lemma push_back_mut_ok w l vs i h xs x : inv w l vs -> nth_error l i = Some (Some h) ->
  holds (heap w) h xs -> i <> O ->
  changed w l vs i (xs ++ [x]) (lenN xs) (push_back_mut trivial esz off nodesz limit w h x).
Proof.
  intros I Hi Hh Hz. pose proof (holds_size _ _ _ Hh) as [Hs Hsm].
  pose proof Hh as (c & Hc & _ & G & Hcl & Hsc & Hok).
  unfold push_back_mut, can_mutate, rcell. rewrite Hc. cbn [rbind].
  destruct (N.eqb_spec (rc c) 1) as [E1|E1]; cbn [andb].
  2: { destruct (made_replace _ _ _ _ _ _ _ _ _ I Hi Hh Hz (push_back_ok _ _ _ x Hh))
         as [E|(h' & w' & E & I' & C)]; [now left|].
       right. exists h', w'. split; [exact E|]. split; [assumption|lia]. }
  destruct (N.ltb_spec (hsize h) (hcap h)) as [Hlt|Hge].
  2: { destruct (made_replace _ _ _ _ _ _ _ _ _ I Hi Hh Hz (push_back_ok _ _ _ x Hh))
         as [E|(h' & w' & E & I' & C)]; [now left|].
       right. exists h', w'. split; [exact E|]. split; [assumption|lia]. }
  rewrite Hs. destruct (construct_good (slots c) xs x G) as (sl & E & G' & L'); [lia|].
  rewrite E. cbn [rbind]. unfold write_slots, rcell. rewrite Hc. cbn [rbind].
  rewrite w64_small by lia. rewrite E1. right.
  eexists _, _. split; [reflexivity|]. split; [|cbn; lia].
  eapply inv_inplace; try eassumption; cbn [ptr hsize hcap]; try reflexivity;
    rewrite ?lenN_app, ?lenN_cons, ?lenN_nil; lia.
Qed.

Lemma update_mut_ok w l vs i h xs k f : inv w l vs -> nth_error l i = Some (Some h) ->
  holds (heap w) h xs -> i <> O -> k < lenN xs ->
  changed w l vs i (list_set xs (N.to_nat k) f) (lenN xs)
          (update_mut trivial esz off nodesz limit w h k f).
Proof.
  intros I Hi Hh Hz Hk. pose proof (holds_size _ _ _ Hh) as [Hs Hsm].
  pose proof Hh as (c & Hc & _ & G & Hcl & Hsc & Hok).
  unfold update_mut, can_mutate, rcell. rewrite Hc. cbn [rbind].
  destruct (N.eqb_spec (rc c) 1) as [E1|E1].
  2: { destruct (made_replace _ _ _ _ _ _ _ _ _ I Hi Hh Hz (update_ok _ _ _ k f Hh Hk))
         as [E|(h' & w' & E & I' & C)]; [now left|].
       right. exists h', w'. split; [exact E|]. split; [assumption|lia]. }
  destruct (nth_error xs (N.to_nat k)) as [x|] eqn:Ex.
  2: { apply nth_error_None in Ex. unfold lenN in Hk. lia. }
  rewrite (read_good _ _ _ _ G Ex). cbn [rbind].
  destruct (assign_good (slots c) xs k x (f x) G Ex) as (sl & E & G' & L').
  rewrite E. cbn [rbind]. unfold write_slots, rcell. rewrite Hc. cbn [rbind].
  rewrite E1. right. rewrite (list_set_const _ _ _ _ Ex).
  eexists _, _. split; [reflexivity|]. split; [|cbn; lia].
  eapply inv_inplace; try eassumption; try reflexivity; rewrite ?lenN_list_set; lia.
Qed.

(** Shrinking in place is only right when nothing has to be destroyed. *)
Definition shrink_ok (w : world) (h : handle) (n : N) : Prop :=
  trivial = true \/ n = hsize h \/ can_mutate w (ptr h) = Ok false.

Lemma destroy_zero sl i : destroy_n trivial sl i 0 = Ok (sl : list (option T)).
Proof. cbn. now destruct trivial. Qed.
Lemma destroy_trivial sl i n : trivial = true -> destroy_n trivial sl i n = Ok (sl : list (option T)).
Proof. intros ->. now destruct n. Qed.
Lemma take_mut_ok w l vs i h xs n : inv w l vs -> nth_error l i = Some (Some h) ->
  holds (heap w) h xs -> i <> O -> n <= lenN xs -> shrink_ok w h n ->
  changed w l vs i (firstn (N.to_nat n) xs) n (take_mut trivial esz off nodesz limit w h n).
Proof.
  intros I Hi Hh Hz Hn Hok. pose proof (holds_size _ _ _ Hh) as [Hs Hsm].
  pose proof Hh as (c & Hc & _ & G & Hcl & Hsc & Hcap).
  destruct (can_mutate_rc _ _ _ Hh) as (c' & Hc' & Em). replace c' with c in * by congruence.
  unfold take_mut. rewrite Em. cbn [rbind].
  destruct (N.eqb_spec (rc c) 1) as [E1|E1].
  2: { destruct (made_replace _ _ _ _ _ _ _ _ _ I Hi Hh Hz (take_ok _ _ _ n Hh Hn))
         as [E|(h' & w' & E & I' & C)]; [now left|].
       right. exists h', w'. split; [exact E|]. split; [assumption|lia]. }
  unfold rcell. rewrite Hc. cbn [rbind].
  assert (ED : destroy_n trivial (slots c) (hsize h) (N.to_nat (w64 (hsize h + 2^64 - n)))
               = Ok (slots c)).
  { destruct Hok as [Ht|[E|E]].
    - now apply destroy_trivial.
    - replace (hsize h + 2^64 - n) with (2^64) by lia.
      replace (w64 (2^64)) with 0 by reflexivity. apply destroy_zero.
    - clear - Em E. congruence. }
  rewrite ED. cbn [rbind]. unfold write_slots, rcell. rewrite Hc. cbn [rbind].
  rewrite E1. right. eexists _, _. split; [reflexivity|]. split; [|cbn; lia].
  assert (Lf : lenN (firstn (N.to_nat n) xs) = n).
  { unfold lenN in *. rewrite firstn_length. lia. }
  eapply inv_inplace; try eassumption; cbn [ptr hsize hcap]; try reflexivity; try lia.
  destruct G as (rest & Es & R).
  exists (map Some (skipn (N.to_nat n) xs) ++ rest). split.
  - rewrite app_assoc, <- map_app, firstn_skipn. exact Es.
  - intros Ht. destruct Hok as [Ht'|[E|E]]; [congruence| |clear - Em E; congruence].
    rewrite skipn_all2; [now apply R|]. unfold lenN in *. lia.
Qed.

(** ** Programs *)
(** Side conditions that depend on the state: sizes given by the caller do not wrap, and
    an in-place shrink has nothing to destroy (see C32). *)
Definition allowed (s : state) (o : op T) : Prop :=
  match o with
  | FromList xs => no_wrap (lenN xs)
  | Fill n _ => no_wrap n
  | TakeMut i n => forall h, nth_error (vars s) i = Some (Some h) -> shrink_ok (mem s) h n
  | _ => True
  end.

Notation step := (step trivial esz off nodesz limit).
Definition good_state (s : state) (vs : vals T) : Prop := inv (mem s) (vars s) vs.

Lemma val_of (vs : vals T) i xs : nth_error vs i = Some (Some xs) -> val vs i = xs.
Proof. intros H. unfold val. now rewrite H. Qed.
Lemma rvar_of (s : state) i h : nth_error (vars s) i = Some (Some h) -> rvar s i = Ok h.
Proof. intros H. unfold rvar. now rewrite H. Qed.

Lemma step_ok s vs o : good_state s vs -> valid vs o -> allowed s o ->
  step s o = Ok None \/
  exists s', step s o = Ok (Some s') /\ good_state s' (spec vs o).
Proof.
  intros I V A. unfold good_state in *.
  assert (Hempty : forall m : res (option (handle * world)) , True) by auto. clear Hempty.
  assert (HC : forall i xs h, nth_error vs i = Some (Some xs) ->
     nth_error (vars s) i = Some (Some h) -> holds (heap (mem s)) h xs ->
     exists w, inc (mem s) (ptr h) = Ok w /\ inv w (vars s ++ [Some h]) (vs ++ [Some xs])).
  { intros i xs h H1 H2 H3.
    destruct (inv_inc _ _ _ h xs I (nth_error_In _ _ H2) H3) as (w & E & I' & _). eauto. }
  destruct (inv_var _ _ _ _ _ I (i_zero _ _ _ I)) as (e & He & Hhe).
  pose proof (rvar_of s 0 e He) as Re.
  assert (HL : length (vars s) = length vs) by (eapply F2_length, (i_rel _ _ _ I)).
  destruct o as [|xs|n x|i|i|i j|i j|i|i x|i x|i k f|i k f|i n|i n]; cbn [valid] in V;
    cbn [allowed] in A.
  - (* New *)
    right. destruct (HC O [] e (i_zero _ _ _ I) He Hhe) as (w & E & I').
    cbn [step]. rewrite Re. cbn [rbind]. rewrite E. cbn [rbind]. eexists. split; [reflexivity|].
    exact I'.
  - (* FromList *)
    destruct xs as [|x xs].
    { right. destruct (HC O [] e (i_zero _ _ _ I) He Hhe) as (w & E & I').
      cbn [step]. rewrite Re. cbn [rbind]. rewrite E. cbn [rbind]. eexists. split; [reflexivity|].
      exact I'. }
    cbn [step]. unfold from_list.
    destruct (fill_node_ok (mem s) (lenN (x :: xs)) (x :: xs) A) as [E|(w & sl & E & F & G & L & C & K)];
      [lia|rewrite E; now left|].
    rewrite E. cbn [rbind]. right. eexists. split; [reflexivity|]. cbn [mem vars add_var spec].
    eapply inv_add; try eassumption; cbn [ptr hsize hcap]; try reflexivity; lia.
  - (* Fill *)
    cbn [step].
    assert (Ln : lenN (repeat x (N.to_nat n)) = n) by (rewrite lenN_repeat; lia).
    destruct (fill_node_ok (mem s) n (repeat x (N.to_nat n)) A) as [E|(w & sl & E & F & G & L & C & K)];
      [lia|rewrite E; now left|].
    rewrite E. cbn [rbind]. right. eexists. split; [reflexivity|]. cbn [mem vars add_var spec].
    eapply inv_add; try eassumption; cbn [ptr hsize hcap]; try reflexivity; lia.
  - (* Copy *)
    destruct V as (xs & Hx). destruct (inv_var _ _ _ _ _ I Hx) as (h & Hi & Hh).
    destruct (HC i xs h Hx Hi Hh) as (w & E & I').
    right. cbn [step]. rewrite (rvar_of _ _ _ Hi). cbn [rbind]. rewrite E. cbn [rbind].
    eexists. split; [reflexivity|]. cbn [spec]. rewrite (val_of _ _ _ Hx). exact I'.
  - (* Move *)
    destruct V as [(xs & Hx) Hz]. destruct (inv_var _ _ _ _ _ I Hx) as (h & Hi & Hh).
    destruct (HC O [] e (i_zero _ _ _ I) He Hhe) as (w & E & I').
    right. cbn [step]. rewrite (rvar_of _ _ _ Hi), Re. cbn [rbind]. rewrite E. cbn [rbind].
    eexists. split; [reflexivity|]. cbn [spec mem vars add_var]. rewrite (val_of _ _ _ Hx).
    pose proof (nth_lt _ _ _ Hi) as Hlt.
    apply (inv_shift _ _ _ _ _ I').
    + pose proof (i_rel _ _ _ I') as HF. apply Forall2_app_inv_l in HF as (v1 & v2 & F1 & F2 & Ev).
      inversion F2 as [|? y ? v3 Hy Hnil]; subst. inversion Hnil; subst.
      apply app_inj_tail in Ev as [<- <-]. apply Forall2_app.
      * now apply F2_update.
      * constructor; [|constructor].
        destruct (F2_nth _ _ _ _ _ F1 Hi) as (y & Hy' & R). congruence.
    + intros a. rewrite !refs_app. cbn [refs].
      pose proof (refs_update a _ i (Some h) (Some e) Hi). lia.
    + intros h0 H0. apply in_app_or in H0. apply in_or_app. destruct H0 as [H0|[H0|[]]].
      * apply In_update in H0 as [H0|H0]; [|now left]. right. now left.
      * left. injection H0 as <-. eapply nth_error_In, Hi.
    + apply nth_zero_app. rewrite nth_zero_update by assumption. apply (i_zero _ _ _ I).
  - (* Assign *)
    destruct V as [[(xs & Hx) Hz] (ys & Hy)].
    destruct (inv_var _ _ _ _ _ I Hx) as (h & Hi & Hh).
    destruct (inv_var _ _ _ _ _ I Hy) as (h' & Hj & Hh').
    destruct (HC j ys h' Hy Hj Hh') as (w & E & I').
    assert (Hi' : nth_error (vars s ++ [Some h']) i = Some (Some h))
      by (rewrite nth_error_app1; [assumption|now apply nth_lt in Hi]).
    destruct (F2_nth _ _ _ _ _ (i_rel _ _ _ I') Hi') as ([zs|] & _ & R); [|easy].
    destruct (inv_replace _ _ _ _ _ _ _ _ I' Hi R Hz HL) as (w' & E' & I'' & _).
    right. cbn [step]. rewrite (rvar_of _ _ _ Hi), (rvar_of _ _ _ Hj). cbn [rbind].
    rewrite E. cbn [rbind]. rewrite E'. cbn [rbind].
    eexists. split; [reflexivity|]. cbn [spec mem vars set_var]. rewrite (val_of _ _ _ Hy). exact I''.
  - (* MoveAssign *)
    destruct V as [[(xs & Hx) Hz] [(ys & Hy) Hzj]].
    destruct (inv_var _ _ _ _ _ I Hx) as (h & Hi & Hh).
    destruct (inv_var _ _ _ _ _ I Hy) as (h' & Hj & Hh').
    right. cbn [step]. rewrite (rvar_of _ _ _ Hi), (rvar_of _ _ _ Hj). cbn [rbind].
    eexists. split; [reflexivity|]. cbn [spec mem vars].
    rewrite (val_of _ _ _ Hx), (val_of _ _ _ Hy).
    apply (inv_shift _ _ _ _ _ I).
    + apply F2_update; [apply F2_update; [apply (i_rel _ _ _ I)|exact Hh']|exact Hh].
    + intros a. pose proof (refs_update a _ i (Some h) (Some h') Hi) as U1.
      destruct (Nat.eq_dec i j) as [->|N].
      * rewrite update_same. replace h' with h in * by congruence.
        pose proof (refs_update a _ j (Some h) (Some h) Hj). lia.
      * assert (Hj' : nth_error (update_at i (Some h') (vars s)) j = Some (Some h')).
        { rewrite nth_update. destruct (Nat.eqb_spec i j); [easy|assumption]. }
        pose proof (refs_update a _ j (Some h') (Some h) Hj') as U2. lia.
    + intros h0 H0. apply In_update in H0 as [H0|H0].
      * injection H0 as <-. eapply nth_error_In, Hi.
      * apply In_update in H0 as [H0|H0]; [|assumption].
        injection H0 as <-. eapply nth_error_In, Hj.
    + rewrite !nth_zero_update by assumption. apply (i_zero _ _ _ I).
  - (* Destroy *)
    destruct V as [(xs & Hx) Hz]. destruct (inv_var _ _ _ _ _ I Hx) as (h & Hi & Hh).
    destruct (inv_dec _ _ _ _ _ _ I Hi Hh Hz) as (w & E & I' & _).
    right. cbn [step]. rewrite (rvar_of _ _ _ Hi). cbn [rbind]. rewrite E. cbn [rbind].
    eexists. split; [reflexivity|]. exact I'.
  - (* PushBack *)
    destruct V as (xs & Hx). destruct (inv_var _ _ _ _ _ I Hx) as (h & Hi & Hh).
    cbn [step]. rewrite (rvar_of _ _ _ Hi). cbn [rbind spec]. rewrite (val_of _ _ _ Hx).
    destruct (made_add _ _ _ _ _ _ I (push_back_ok _ _ _ x Hh)) as [->|(h' & w' & -> & I' & _)];
      [now left|right]. cbn [rbind]. eexists. split; [reflexivity|]. exact I'.
  - (* PushBackMut *)
    destruct V as [(xs & Hx) Hz]. destruct (inv_var _ _ _ _ _ I Hx) as (h & Hi & Hh).
    cbn [step]. rewrite (rvar_of _ _ _ Hi). cbn [rbind spec]. rewrite (val_of _ _ _ Hx).
    destruct (push_back_mut_ok _ _ _ _ _ _ x I Hi Hh Hz) as [->|(h' & w' & -> & I' & _)];
      [now left|right]. cbn [rbind]. eexists. split; [reflexivity|]. exact I'.
  - (* Update *)
    destruct V as [(xs & Hx) Hk]. destruct (inv_var _ _ _ _ _ I Hx) as (h & Hi & Hh).
    rewrite (val_of _ _ _ Hx) in Hk.
    cbn [step]. rewrite (rvar_of _ _ _ Hi). cbn [rbind spec]. rewrite (val_of _ _ _ Hx).
    destruct (made_add _ _ _ _ _ _ I (update_ok _ _ _ k f Hh Hk)) as [->|(h' & w' & -> & I' & _)];
      [now left|right]. cbn [rbind]. eexists. split; [reflexivity|]. exact I'.
  - (* UpdateMut *)
    destruct V as [[(xs & Hx) Hz] Hk]. destruct (inv_var _ _ _ _ _ I Hx) as (h & Hi & Hh).
    rewrite (val_of _ _ _ Hx) in Hk.
    cbn [step]. rewrite (rvar_of _ _ _ Hi). cbn [rbind spec]. rewrite (val_of _ _ _ Hx).
    destruct (update_mut_ok _ _ _ _ _ _ k f I Hi Hh Hz Hk) as [->|(h' & w' & -> & I' & _)];
      [now left|right]. cbn [rbind]. eexists. split; [reflexivity|]. exact I'.
  - (* Take *)
    destruct V as [(xs & Hx) Hn]. destruct (inv_var _ _ _ _ _ I Hx) as (h & Hi & Hh).
    rewrite (val_of _ _ _ Hx) in Hn.
    cbn [step]. rewrite (rvar_of _ _ _ Hi). cbn [rbind spec]. rewrite (val_of _ _ _ Hx).
    destruct (made_add _ _ _ _ _ _ I (take_ok _ _ _ n Hh Hn)) as [->|(h' & w' & -> & I' & _)];
      [now left|right]. cbn [rbind]. eexists. split; [reflexivity|]. exact I'.
  - (* TakeMut *)
    destruct V as [[(xs & Hx) Hz] Hn]. destruct (inv_var _ _ _ _ _ I Hx) as (h & Hi & Hh).
    rewrite (val_of _ _ _ Hx) in Hn.
    cbn [step]. rewrite (rvar_of _ _ _ Hi). cbn [rbind spec]. rewrite (val_of _ _ _ Hx).
    destruct (take_mut_ok _ _ _ _ _ _ n I Hi Hh Hz Hn (A _ Hi)) as [->|(h' & w' & -> & I' & _)];
      [now left|right]. cbn [rbind]. eexists. split; [reflexivity|]. exact I'.
Qed.

Lemma init_ok : init (T := T) esz off nodesz limit = Ok None \/
  exists s, init (T := T) esz off nodesz limit = Ok (Some s) /\ good_state s [Some []].
Proof.
  unfold init, make_n. destruct (N.ltb_spec limit (sizeof_n 1)) as [|H]; [now left|right].
  cbn [rbind next]. eexists. split; [reflexivity|]. unfold good_state. cbn [mem vars].
  assert (W1 : no_wrap 1) by (unfold no_wrap; lia).
  constructor; cbn [heap next].
  - constructor; [|constructor]. exists (mkCell 1 (repeat None (N.to_nat (room 1)))).
    unfold upd. cbn [ptr Nat.eqb hsize hcap slots].
    pose proof (room_ge 1 W1). pose proof (fits_cap 1 W1 H).
    split; [reflexivity|]. split; [reflexivity|]. split; [apply good_fresh|].
    rewrite lenN_repeat. repeat split; try lia. assumption.
  - intros a c. unfold upd. destruct a as [|a]; cbn; [|easy]. intros E; injection E as <-. cbn. lia.
  - intros [|a] Ha; [lia|]. reflexivity.
  - intros h1 h2 [H1|[]] [H2|[]] _. congruence.
  - reflexivity.
Qed.

(** ** What is visible *)
Variable teq : T -> T -> bool.
Lemma get_ok w h xs i x : holds (heap w) h xs -> nth_error xs (N.to_nat i) = Some x ->
  get w h i = Ok x.
Proof.
  intros (c & Hc & _ & G & _) H. unfold get, rcell. rewrite Hc. cbn [rbind].
  now apply (read_good _ _ _ _ G).
Qed.
Lemma get_check_ok w h xs i : holds (heap w) h xs ->
  get_check w h i = Ok (nth_error xs (N.to_nat i)).
Proof.
  intros H. pose proof (holds_size _ _ _ H) as [Hs _]. unfold get_check. rewrite Hs.
  destruct (N.leb_spec (lenN xs) i) as [Hle|Hlt].
  - destruct (nth_error xs (N.to_nat i)) eqn:E; [|reflexivity].
    apply nth_lt in E. unfold lenN in Hle. lia.
  - destruct (nth_error xs (N.to_nat i)) as [x|] eqn:E.
    + now rewrite (get_ok _ _ _ _ _ H E).
    + apply nth_error_None in E. unfold lenN in Hlt. lia.
Qed.
Lemma equal_n_ok xs : forall ys a b, length xs = length ys -> good a xs -> good b ys ->
  equal_n teq (length xs) a b = Ok (list_eqb teq xs ys).
Proof.
  intros ys a b HL (ra & -> & _) (rb & -> & _). revert ys HL.
  induction xs as [|x xs IH]; intros [|y ys] HL; try discriminate; [reflexivity|].
  cbn. destruct (teq x y); [|reflexivity]. apply IH. now injection HL.
Qed.
Lemma equals_ok w l vs h1 h2 xs ys : (forall x, teq x x = true) -> inv w l vs ->
  In (Some h1) l -> In (Some h2) l -> holds (heap w) h1 xs -> holds (heap w) h2 ys ->
  equals teq w h1 h2 = Ok (list_eqb teq xs ys).
Proof.
  intros Hr I I1 I2 H1 H2. unfold equals.
  destruct (Nat.eqb_spec (ptr h1) (ptr h2)) as [E|E].
  - pose proof (i_same _ _ _ I _ _ I1 I2 E) as <-.
    destruct H1 as (c & Hc & Hs & (r1 & E1 & _) & _), H2 as (c' & Hc' & Hs' & (r2 & E2 & _) & _).
    rewrite Hc in Hc'. injection Hc' as <-.
    assert (xs = ys) as <-.
    { assert (L : length xs = length ys) by (unfold lenN in *; lia).
      rewrite E1 in E2. clear - E2 L. revert ys E2 L.
      induction xs as [|x xs IH]; intros [|y ys] E2 L; try discriminate; [reflexivity|].
      cbn in E2. injection E2 as -> E2. f_equal. apply IH; [assumption|now injection L]. }
    now rewrite list_eqb_refl.
  - pose proof (holds_size _ _ _ H1) as [Hs1 _]. pose proof (holds_size _ _ _ H2) as [Hs2 _].
    rewrite Hs1, Hs2. destruct (N.eqb_spec (lenN xs) (lenN ys)) as [EL|EL].
    + destruct H1 as (c & Hc & _ & G1 & _), H2 as (c' & Hc' & _ & G2 & _).
      unfold rcell. rewrite Hc, Hc'. cbn [rbind]. unfold lenN. rewrite Nnat.Nat2N.id.
      apply equal_n_ok; auto. unfold lenN in EL. lia.
    + destruct (list_eqb teq xs ys) eqn:E'; [|reflexivity].
      apply list_eqb_length in E'. unfold lenN in EL. lia.
Qed.
End Proofs.
