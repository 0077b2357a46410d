(** Properties of immer::array and immer::array_transient (C30, C31, C32, C46, C47). *)
From Coq Require Import List NArith Arith Bool Lia ZifyN ZifyNat ZifyBool.
From Verif Require Import Common NList RrbSpec Array ArraySpec ArrayProofs.
Import ListNotations.
Local Open Scope N_scope.
Set Default Goal Selector "!".

(** The platform: an element has a size, the buffer comes after the counter, a node has
    room for one element, and no request above the heap's limit (below 2^63) succeeds. *)
Record platform (esz off nodesz limit : N) : Prop := mkPlatform
  { pf_esz : 0 < esz; pf_off : 0 < off; pf_node : off + esz <= nodesz;
    pf_node2 : nodesz < 2^63; pf_limit : limit < 2^63 }.

Section Props.
Context {T : Type}.
Variable trivial : bool.
Variables esz off nodesz limit : N.

Notation step := (@step T trivial esz off nodesz limit).
Notation init := (@init T esz off nodesz limit).
Notation run := (@run T trivial esz off nodesz limit).

(** Sizes given by the caller whose byte count fits in 64 bits. *)
Definition sizes_fit (o : op T) : Prop :=
  match o with
  | FromList xs => off + esz * lenN xs < 2^64
  | Fill n _ => off + esz * n < 2^64
  | _ => True
  end.
(** The in-place shrink of C32: the node is not shared, elements have destructors, and
    some elements are dropped. *)
Definition shrinks_in_place (s : state T) (o : op T) : Prop :=
  match o with
  | TakeMut i n => exists h, nth_error (vars s) i = Some (Some h) /\
      trivial = false /\ n <> hsize h /\ can_mutate (mem s) (ptr h) <> Ok false
  | _ => False
  end.

(** Program states that come about, with the lists their variables should hold. *)
Inductive reach : state T -> vals T -> Prop :=
| r_init s : init = Ok (Some s) -> reach s [Some []]
| r_step s vs o s' : reach s vs -> valid vs o -> sizes_fit o -> ~ shrinks_in_place s o ->
    step s o = Ok (Some s') -> reach s' (spec vs o).

(** A variable shows a list: its size, every element, and at() inside and outside. *)
Definition shows1 (s : state T) (o : option handle) (v : option (list T)) : Prop :=
  match o, v with
  | None, None => True
  | Some h, Some xs =>
      hsize h = N.of_nat (length xs) /\
      (forall i x, nth_error xs (N.to_nat i) = Some x -> get (mem s) h i = Ok x) /\
      (forall i, get_check (mem s) h i = Ok (nth_error xs (N.to_nat i)))
  | _, _ => False
  end.
Definition shows (s : state T) (vs : vals T) : Prop := Forall2 (shows1 s) (vars s) vs.

Hypothesis P : platform esz off nodesz limit.

Lemma allowed_of s o : sizes_fit o -> ~ shrinks_in_place s o ->
  allowed trivial esz off s o.
Proof.
  destruct o; cbn; auto. intros _ H h Hh. unfold shrink_ok.
  destruct trivial; [auto|right].
  destruct (N.eq_dec n (hsize h)) as [|Hn]; [auto|right].
  destruct (can_mutate (mem s) (ptr h)) as [[]|] eqn:E; [|reflexivity|]; exfalso; apply H;
    exists h; repeat split; auto; congruence.
Qed.

Lemma reach_good s vs : reach s vs -> good_state trivial esz off limit s vs.
Proof.
  destruct P. induction 1 as [s H|s vs o s' R IH V F S E].
  - destruct (init_ok (T := T) trivial esz off nodesz limit pf_esz0 pf_off0 pf_node0 pf_node3 pf_limit0) as [E|(s' & E & G)]; auto;
      rewrite E in H; [discriminate|]. injection H as <-. exact G.
  - destruct (step_ok trivial esz off nodesz limit pf_esz0 pf_off0 pf_node0 pf_node3 pf_limit0
                s vs o IH V (allowed_of _ _ F S)) as [E'|(s'' & E' & G)];
      rewrite E' in E; [discriminate|]. injection E as <-. exact G.
Qed.

(** C30: an operation within its preconditions is defined; it gives what the list
    operation gives, in the variable it names, and no other variable changes. *)
Theorem C30_operations s vs o : reach s vs -> valid vs o -> sizes_fit o ->
  ~ shrinks_in_place s o ->
  step s o = Ok None \/ exists s', step s o = Ok (Some s') /\ shows s' (spec vs o).
Proof.
  intros R V F S. destruct P.
  destruct (step_ok trivial esz off nodesz limit pf_esz0 pf_off0 pf_node0 pf_node3 pf_limit0
                s vs o (reach_good _ _ R) V (allowed_of _ _ F S)) as [E'|(s'' & E' & G)];
    [now left|right].
  exists s''. split; [assumption|]. unfold shows.
  eapply F2_impl_in; [|apply (i_rel _ _ _ _ _ _ _ G)].
  intros [h|] [xs|] _ H; cbn in *; try easy.
  pose proof (holds_size trivial esz off nodesz limit pf_esz0 pf_off0 pf_node0 pf_node3 pf_limit0 _ _ _ H) as [Hs _].
  split; [exact Hs|]. split.
  - intros i x. now apply (get_ok trivial esz off limit (mem s'') h xs i x).
  - intros i. now apply (get_check_ok trivial esz off nodesz limit pf_esz0 pf_off0 pf_node0 pf_node3 pf_limit0).
Qed.

Theorem C30_history s vs : reach s vs -> shows s vs.
Proof.
  intros R. destruct P. pose proof (reach_good _ _ R) as G. unfold shows.
  eapply F2_impl_in; [|apply (i_rel _ _ _ _ _ _ _ G)].
  intros [h|] [xs|] _ H; cbn in *; try easy.
  pose proof (holds_size trivial esz off nodesz limit pf_esz0 pf_off0 pf_node0 pf_node3 pf_limit0 _ _ _ H) as [Hs _].
  split; [exact Hs|]. split.
  - intros i x. now apply (get_ok trivial esz off limit (mem s) h xs i x).
  - intros i. now apply (get_check_ok trivial esz off nodesz limit pf_esz0 pf_off0 pf_node0 pf_node3 pf_limit0).
Qed.

(** operator==. *)
Theorem C30_equals (teq : T -> T -> bool) s vs i j h1 h2 xs ys :
  (forall x, teq x x = true) -> reach s vs ->
  nth_error (vars s) i = Some (Some h1) -> nth_error vs i = Some (Some xs) ->
  nth_error (vars s) j = Some (Some h2) -> nth_error vs j = Some (Some ys) ->
  equals teq (mem s) h1 h2 = Ok (list_eqb teq xs ys).
Proof.
  intros Hr R H1 X1 H2 X2. destruct P. pose proof (reach_good _ _ R) as G.
  destruct (F2_nth _ _ _ _ _ (i_rel _ _ _ _ _ _ _ G) H1) as (y1 & E1 & R1).
  destruct (F2_nth _ _ _ _ _ (i_rel _ _ _ _ _ _ _ G) H2) as (y2 & E2 & R2).
  rewrite X1 in E1. rewrite X2 in E2. injection E1 as <-. injection E2 as <-.
  eapply (equals_ok trivial esz off nodesz limit pf_esz0 pf_off0 pf_node0 pf_node3 pf_limit0 teq); eauto using nth_error_In.
Qed.

(** No leak and no dangling reference: counts are exact, and a node that no variable
    refers to is not allocated. *)
Definition refers (a : addr) (o : option handle) : bool :=
  match o with Some h => Nat.eqb (ptr h) a | None => false end.
Theorem C30_memory s vs : reach s vs ->
  (forall h, In (Some h) (vars s) -> heap (mem s) (ptr h) <> None) /\
  (forall a c, heap (mem s) a = Some c ->
     rc c = N.of_nat (length (filter (refers a) (vars s))) /\ rc c <> 0).
Proof.
  intros R. destruct P. pose proof (reach_good _ _ R) as G. split.
  - intros h Hin. apply In_nth_error in Hin as (i & Hi).
    destruct (F2_nth _ _ _ _ _ (i_rel _ _ _ _ _ _ _ G) Hi) as ([xs|] & _ & H); [|easy].
    destruct H as (c & E & _). congruence.
  - intros a c E. destruct (i_rc _ _ _ _ _ _ _ G _ _ E) as [E1 E2]. rewrite E1.
    assert (EE : forall l, refs a l = N.of_nat (length (filter (refers a) l))).
    { induction l as [|[h|] l IH]; cbn [refs points filter refers]; [reflexivity| |lia].
      rewrite IH. destruct (Nat.eqb (ptr h) a); cbn [length]; lia. }
    rewrite EE in *. split; [reflexivity|lia].
Qed.

(** ** C31 *)
(** The capacity recorded in every array is real: it is within the allocated block, and the
    block's byte size was computed without wrapping around. *)
Theorem C31_capacity s vs i h : reach s vs -> nth_error (vars s) i = Some (Some h) ->
  exists c, heap (mem s) (ptr h) = Some c /\
    hsize h <= hcap h /\ hcap h <= N.of_nat (length (slots c)) /\
    off + esz * hcap h <= limit /\
    recommend_up (hsize h + 1) (hcap h) =
      (if hsize h + 1 <=? hcap h then hcap h else N.max (2 * hcap h) (hsize h + 1)) /\
    off + esz * recommend_up (hsize h + 1) (hcap h) < 2^64.
Proof.
  intros R Hi. destruct P. pose proof (reach_good _ _ R) as G.
  destruct (F2_nth _ _ _ _ _ (i_rel _ _ _ _ _ _ _ G) Hi) as ([xs|] & _ & H); [|easy].
  destruct H as (c & E & Hs & _ & H1 & H2 & H3). exists c.
  destruct (recommend_up_ok esz off nodesz limit pf_esz0 pf_off0 pf_node0 pf_node3 pf_limit0
              (hsize h + 1) (hcap h) H3) as (_ & _ & R3 & R4); [lia|].
  repeat split; auto.
Qed.

(** Appending n elements to a transient copies O(n) elements in all. *)
Definition live_size (s : state T) (i : nat) : N :=
  match nth_error (vars s) i with Some (Some h) => hsize h | _ => 0 end.

Definition bound (n sz cap : N) : N := if sz + n <=? cap then 0 else 2 * (sz + n) - cap.

Lemma push_back_cap (w : world T) h x h' w' :
  push_back trivial esz off nodesz limit w h x = Ok (Some (h', w')) ->
  hcap h' = recommend_up (w64 (hsize h + 1)) (hcap h).
Proof.
  unfold push_back. intros H. apply rbind_ok in H as ([[p w1]|] & _ & H); [|discriminate].
  apply rbind_ok in H as (c & _ & H). apply rbind_ok in H as (sl & _ & H).
  apply rbind_ok in H as (w2 & _ & H). now injection H as <- _.
Qed.

Lemma push_step s vs i xs x h : good_state trivial esz off limit s vs ->
  nth_error vs i = Some (Some xs) -> nth_error (vars s) i = Some (Some h) -> i <> O ->
  step s (PushBackMut i x) = Ok None \/
  exists s' h' c', step s (PushBackMut i x) = Ok (Some s') /\
    good_state trivial esz off limit s' (update_at i (Some (xs ++ [x])) vs) /\
    nth_error (vars s') i = Some (Some h') /\ hsize h' = hsize h + 1 /\
    heap (mem s') (ptr h') = Some c' /\ rc c' = 1 /\
    ((copied (mem s') = copied (mem s) /\ hcap h' = hcap h) \/
     (copied (mem s') = copied (mem s) + hsize h /\
      (hcap h' = hcap h \/ (hsize h = hcap h /\ hcap h' = N.max (2 * hcap h) (hcap h + 1))) /\
      ((exists c, heap (mem s) (ptr h) = Some c /\ rc c = 1) -> hsize h = hcap h))).
Proof.
  intros G Hx Hi Hz. destruct P.
  destruct (F2_nth _ _ _ _ _ (i_rel _ _ _ _ _ _ _ G) Hi) as (y & E & Hh).
  rewrite Hx in E. injection E as <-. cbn in Hh.
  pose proof (holds_size trivial esz off nodesz limit pf_esz0 pf_off0 pf_node0 pf_node3 pf_limit0 _ _ _ Hh) as [Hs Hsm].
  pose proof Hh as (c & Hc & _ & Gd & Hcl & Hsc & Hok).
  pose proof (push_back_mut_ok trivial esz off nodesz limit pf_esz0 pf_off0 pf_node0 pf_node3 pf_limit0
                _ _ _ _ _ _ x G Hi Hh Hz) as PM.
  cbn [step]. rewrite (rvar_of _ _ _ Hi). cbn [rbind].
  destruct PM as [->|(h' & w' & E & I' & _)]; [now left|right].
  rewrite E. cbn [rbind]. exists (set_var w' (vars s) i h'), h'.
  assert (Hi' : nth_error (update_at i (Some h') (vars s)) i = Some (Some h'))
    by (rewrite nth_update, Nat.eqb_refl, Hi; reflexivity).
  destruct (F2_nth _ _ _ _ _ (i_rel _ _ _ _ _ _ _ I') Hi') as (y & E' & Hh').
  assert (Ey : y = Some (xs ++ [x])) by (rewrite nth_update, Nat.eqb_refl, Hx in E'; congruence).
  subst y. cbn in Hh'. pose proof Hh' as (c' & Hc' & Hs' & _).
  exists c'. cbn [mem vars set_var]. split; [reflexivity|]. split; [exact I'|].
  split; [exact Hi'|].
  split. { rewrite Hs', Hs, lenN_app, lenN_cons, lenN_nil. lia. }
  split; [exact Hc'|].
  (* which path *)
  unfold push_back_mut, can_mutate, rcell in E. rewrite Hc in E. cbn [rbind] in E.
  destruct ((rc c =? 1) && (hsize h <? hcap h)) eqn:Eb.
  - apply andb_true_iff in Eb as [E1 E2]. apply N.eqb_eq in E1.
    apply rbind_ok in E as (sl & _ & E). unfold write_slots, rcell in E. rewrite Hc in E.
    cbn [rbind] in E. injection E as <- <-. cbn [set_cell heap ptr copied hcap] in *.
    unfold upd in Hc'. rewrite Nat.eqb_refl in Hc'. injection Hc' as <-. cbn. auto.
  - pose proof (push_back_ok trivial esz off nodesz limit pf_esz0 pf_off0 pf_node0 pf_node3 pf_limit0
                  _ _ _ x Hh) as PB.
    destruct (made_add trivial esz off nodesz limit pf_esz0 pf_off0 pf_node0 pf_node3 pf_limit0 _ _ _ _ _ _ G PB) as [EN|(h2 & w2 & EN & I2 & C2 & _)];
      rewrite EN in E; [discriminate|]. cbn [rbind] in E. unfold replace in E.
    apply rbind_ok in E as (w3 & E3 & E). injection E as <- <-.
    destruct PB as [PB|(h4 & w4 & sl & PB & F & Hp & _)]; rewrite PB in EN; [discriminate|].
    injection EN as <- <-.
    assert (C3 : copied w3 = copied w4).
    { unfold dec in E3. apply rbind_ok in E3 as (cc & _ & E3).
      destruct (rc cc =? 0); [discriminate|]. destruct (rc cc =? 1).
      - unfold delete_n in E3. apply rbind_ok in E3 as (? & _ & E3).
        apply rbind_ok in E3 as (? & _ & E3).
        destruct (trivial || forallb is_raw _); [|discriminate]. now injection E3 as <-.
      - now injection E3 as <-. }
    pose proof (push_back_cap _ _ _ _ _ PB) as Hcap.
    split.
    + destruct (i_rc _ _ _ _ _ _ _ I' _ _ Hc') as [Hr _]. rewrite Hr.
      pose proof (refs_update (ptr h4) _ i (Some h) (Some h4) Hi) as U.
      pose proof (refs_fresh trivial esz off nodesz limit pf_esz0 pf_off0 pf_node0 pf_node3 pf_limit0 _ _ _ G) as RF. rewrite <- Hp in RF.
      cbn [points] in U. rewrite Nat.eqb_refl in U.
      destruct (Nat.eqb_spec (ptr h) (ptr h4)); [|lia].
      exfalso. pose proof (refs_pos (ptr h4) (vars s) h (nth_error_In _ _ Hi) e). lia.
    + right. split; [lia|].
      rewrite w64_small in Hcap by lia.
      destruct (recommend_up_ok esz off nodesz limit pf_esz0 pf_off0 pf_node0 pf_node3 pf_limit0
              (hsize h + 1) (hcap h) Hok) as (_ & _ & R3 & _); [lia|].
      rewrite R3 in Hcap. split.
      * destruct (N.leb_spec (hsize h + 1) (hcap h)); [now left|right].
        assert (hsize h = hcap h) by lia. split; [assumption|]. congruence.
      * intros (c1 & E1 & Ec). rewrite Hc in E1. injection E1 as <-. rewrite Ec in Eb.
        cbn in Eb. destruct (N.ltb_spec (hsize h) (hcap h)); [discriminate|lia].
Qed.

Lemma bound_mono n m sz cap : n <= m -> bound n sz cap <= bound m sz cap.
Proof.
  unfold bound. intros H. destruct (N.leb_spec (sz + n) cap), (N.leb_spec (sz + m) cap); lia.
Qed.
Lemma run_cost_unique ys : forall s vs i xs h c s', good_state trivial esz off limit s vs ->
  nth_error vs i = Some (Some xs) -> nth_error (vars s) i = Some (Some h) -> i <> O ->
  heap (mem s) (ptr h) = Some c -> rc c = 1 ->
  run s (map (PushBackMut i) ys) = Ok s' ->
  copied (mem s') <= copied (mem s) + bound (lenN ys) (hsize h) (hcap h).
Proof.
  induction ys as [|y ys IH]; intros s vs i xs h c s' G Hx Hi Hz Hc H1 HR.
  - cbn in HR. injection HR as <-. lia.
  - cbn [map run] in HR. rewrite lenN_cons.
    destruct (push_step _ _ _ _ y _ G Hx Hi Hz) as
      [E|(s1 & h1 & c1 & E & G1 & Hi1 & Hs1 & Hc1 & Hr1 & Hcost)]; rewrite E in HR; cbn [rbind] in HR.
    + pose proof (IH _ _ _ _ _ _ _ G Hx Hi Hz Hc H1 HR).
      pose proof (bound_mono (lenN ys) (lenN ys + 1) (hsize h) (hcap h)). lia.
    + assert (Hx1 : nth_error (update_at i (Some (xs ++ [y])) vs) i = Some (Some (xs ++ [y])))
        by (rewrite nth_update, Nat.eqb_refl, Hx; reflexivity).
      pose proof (IH _ _ _ _ _ _ _ G1 Hx1 Hi1 Hz Hc1 Hr1 HR) as B. rewrite Hs1 in B.
      destruct Hcost as [[Ec Ecap]|(Ec & Ecap & Hu)].
      * rewrite Ec, Ecap in B. unfold bound in *.
        replace (hsize h + (lenN ys + 1)) with (hsize h + 1 + lenN ys) by lia. exact B.
      * assert (Hfull : hsize h = hcap h) by (apply Hu; eauto).
        rewrite Ec in B. rewrite Hfull in *.
        assert (Ecap' : hcap h1 = N.max (2 * hcap h) (hcap h + 1) \/ hcap h1 = hcap h)
          by (destruct Ecap as [|[_ ?]]; auto).
        assert (HC1 : hsize h1 <= hcap h1).
        { destruct (F2_nth _ _ _ _ _ (i_rel _ _ _ _ _ _ _ G1) Hi1) as ([z|] & _ & H); [|easy].
          destruct H as (? & _ & _ & _ & _ & H & _). exact H. }
        unfold bound in *.
        destruct (N.leb_spec (hcap h + (lenN ys + 1)) (hcap h)); [lia|].
        destruct (N.leb_spec (hcap h + 1 + lenN ys) (hcap h1)); destruct Ecap'; lia.
Qed.

Theorem C31_amortized s vs i ys s' : reach s vs -> mutable vs i ->
  run s (map (PushBackMut i) ys) = Ok s' ->
  copied (mem s') <= copied (mem s) + 3 * live_size s i + 2 * N.of_nat (length ys).
Proof.
  intros R [(xs & Hx) Hz]. pose proof (reach_good _ _ R) as G. clear R.
  destruct (inv_var _ _ _ _ _ _ _ _ _ G Hx) as (h & Hi & _).
  unfold live_size. rewrite Hi. fold (lenN ys).
  revert Hi. revert xs Hx. revert h.
  induction ys as [|y ys IH]; intros h xs Hx Hi HR.
  - cbn in HR. injection HR as <-. lia.
  - cbn [map run] in HR. rewrite lenN_cons.
    destruct (push_step _ _ _ _ y _ G Hx Hi Hz) as
      [E|(s1 & h1 & c1 & E & G1 & Hi1 & Hs1 & Hc1 & Hr1 & Hcost)]; rewrite E in HR; cbn [rbind] in HR.
    + pose proof (IH _ _ Hx Hi HR). lia.
    + assert (Hx1 : nth_error (update_at i (Some (xs ++ [y])) vs) i = Some (Some (xs ++ [y])))
        by (rewrite nth_update, Nat.eqb_refl, Hx; reflexivity).
      pose proof (run_cost_unique _ _ _ _ _ _ _ _ G1 Hx1 Hi1 Hz Hc1 Hr1 HR) as B.
      rewrite Hs1 in B.
      assert (bound (lenN ys) (hsize h + 1) (hcap h1) <= 2 * (hsize h + 1 + lenN ys))
        by (unfold bound; destruct (N.leb_spec (hsize h + 1 + lenN ys) (hcap h1)); lia).
      destruct Hcost as [[Ec _]|[Ec _]]; lia.
Qed.
End Props.

Print Assumptions C30_operations.
Print Assumptions C30_history.
Print Assumptions C30_equals.
Print Assumptions C30_memory.
Print Assumptions C31_capacity.
Print Assumptions C31_amortized.

(** ** C32: shrinking in place *)
Section Shrink.
Context {T : Type}.
Variable trivial : bool.
Variables esz off nodesz limit : N.
Hypothesis P : platform esz off nodesz limit.

(** Whenever a transient (or rvalue) array that shares its node with nobody drops elements
    that have destructors, the code destroys the slots from [size] on, which hold no
    element, instead of those from [sz] on. *)
Theorem C32_always_wrong s (vs : vals T) i n :
  reach trivial esz off nodesz limit s vs -> valid vs (TakeMut i n) ->
  shrinks_in_place trivial s (TakeMut i n) ->
  step trivial esz off nodesz limit s (TakeMut i n) = UB.
Proof.
  intros R [[(xs & Hx) Hz] Hn] (h & Hi & Ht & Hne & Hm). destruct P.
  pose proof (reach_good trivial esz off nodesz limit P _ _ R) as G.
  destruct (F2_nth _ _ _ _ _ (i_rel _ _ _ _ _ _ _ G) Hi) as (y & E & Hh).
  rewrite Hx in E. injection E as <-. rewrite (val_of _ _ _ Hx) in Hn.
  pose proof (holds_size trivial esz off nodesz limit pf_esz0 pf_off0 pf_node0 pf_node3 pf_limit0
                _ _ _ Hh) as [Hs Hsm].
  destruct Hh as (c & Hc & _ & Gd & _).
  cbn [step]. rewrite (rvar_of _ _ _ Hi). cbn [rbind]. unfold take_mut.
  destruct (can_mutate (mem s) (ptr h)) as [[]|] eqn:Em; [|congruence|].
  2: { unfold can_mutate, rcell in Em. rewrite Hc in Em. discriminate. }
  cbn [rbind]. unfold rcell. rewrite Hc. cbn [rbind].
  assert (Hk : N.to_nat (w64 (hsize h + 2^64 - n)) = N.to_nat (hsize h - n)).
  { f_equal. unfold w64. replace (hsize h + 2^64 - n) with (hsize h - n + 1 * 2^64) by lia.
    rewrite N.mod_add by discriminate. apply N.mod_small. lia. }
  rewrite Hk. destruct (N.to_nat (hsize h - n)) as [|k] eqn:Ek; [lia|].
  cbn [destroy_n]. rewrite Ht. unfold read.
  destruct Gd as (rest & -> & Hraw). specialize (Hraw Ht). rewrite Hs.
  rewrite rnthN_app2 by (rewrite lenN_map; lia). rewrite lenN_map, N.sub_diag.
  destruct rest as [|o rest]; [reflexivity|]. inversion Hraw as [|? ? Ho _]; subst.
  reflexivity.
Qed.

(** The part that holds: elements without destructors, nothing dropped, or a shared node
    (which is copied).  Missing for the full claim: the case of [C32_always_wrong]. *)
Theorem C32_take_partial s (vs : vals T) i n :
  reach trivial esz off nodesz limit s vs -> valid vs (TakeMut i n) ->
  ~ shrinks_in_place trivial s (TakeMut i n) ->
  step trivial esz off nodesz limit s (TakeMut i n) = Ok None \/
  exists s', step trivial esz off nodesz limit s (TakeMut i n) = Ok (Some s') /\
    shows s' (update_at i (Some (firstn (N.to_nat n) (val vs i))) vs) /\
    forall o, valid (spec vs (TakeMut i n)) o -> sizes_fit esz off o ->
      ~ shrinks_in_place trivial s' o -> step trivial esz off nodesz limit s' o <> UB.
Proof.
  intros R V S.
  destruct (C30_operations trivial esz off nodesz limit P _ _ _ R V Logic.I S)
    as [E|(s' & E & H)]; [now left|right].
  exists s'. split; [assumption|]. split; [assumption|].
  intros o V' F' S'. assert (R' : reach trivial esz off nodesz limit s' (spec vs (TakeMut i n)))
    by (eapply r_step; eauto; exact Logic.I).
  destruct (C30_operations trivial esz off nodesz limit P _ _ _ R' V' F' S')
    as [E'|(s'' & E' & _)]; rewrite E'; discriminate.
Qed.
End Shrink.

(** *** A concrete program: nat elements of 4 bytes, buffer at offset 8. *)
Lemma ex_platform : platform 4 8 16 1000.
Proof. constructor; reflexivity || discriminate. Qed.

Definition ex_ops : list (op nat) :=
  [New; PushBackMut 1 5%nat; PushBackMut 1 6%nat; Copy 1; PushBack 1 7%nat;
   UpdateMut 2 0 (fun x => x + 1)%nat; Take 3 2; Move 3].
Definition ex_vals : vals nat :=
  [Some []; Some [5; 6]; Some [6; 6]; Some []; Some [5; 6]; Some [5; 6; 7]]%nat.

Ltac ex_valid := cbn [valid]; repeat split;
  first [exact Logic.I | discriminate | eexists; reflexivity | vm_compute; reflexivity
        | vm_compute; discriminate].
Ltac ex_reach := lazymatch goal with
  | |- reach _ _ _ _ _ _ [Some []] => apply r_init; vm_compute; reflexivity
  | |- _ => eapply r_step;
      [ex_reach | ex_valid | exact Logic.I | intros X; exact X | vm_compute; reflexivity]
  end.
Example C30_case : exists s, reach false 4 8 16 1000 s ex_vals /\
  valid ex_vals (PushBackMut 5 9%nat) /\ mutable ex_vals 5.
Proof.
  eexists. split; [|split].
  - change ex_vals with (fold_left spec ex_ops [Some []]). cbn [fold_left ex_ops].
    ex_reach.
  - split; [|discriminate]. now exists [5; 6; 7]%nat.
  - split; [|discriminate]. now exists [5; 6; 7]%nat.
Qed.

(** C32 is false of the code. *)
Theorem C32_take_refuted : exists (s : state nat) vs o,
  reach false 4 8 16 1000 s vs /\ valid vs o /\ sizes_fit 4 8 o /\
  step false 4 8 16 1000 s o = UB.
Proof.
  eexists _, (fold_left spec [New; PushBackMut 1 5; PushBackMut 1 6]%nat [Some []]),
    (TakeMut 1 1). cbn [fold_left].
  split; [ex_reach|].
  split; [|split; [exact Logic.I|reflexivity]].
  split; [|cbn; lia]. split; [|discriminate]. now exists [5; 6]%nat.
Qed.
(** The hypotheses of [C32_take_partial] are met by a shared node. *)
Example C32_case : exists (s : state nat) vs, reach false 4 8 16 1000 s vs /\
  valid vs (TakeMut 1 1) /\ ~ shrinks_in_place false s (TakeMut 1 1).
Proof.
  eexists _, (fold_left spec [New; PushBackMut 1 5; PushBackMut 1 6; Copy 1]%nat [Some []]).
  cbn [fold_left].
  split; [ex_reach|].
  split.
  - split; [|cbn; lia]. split; [|discriminate]. now exists [5; 6]%nat.
  - intros (h & Hh & _ & _ & Hm). injection Hh as <-. apply Hm. reflexivity.
Qed.
Print Assumptions C32_always_wrong.
Print Assumptions C32_take_partial.
Print Assumptions C32_take_refuted.

(** ** C46: array.take(n) is documented to keep the first min(n, size()) elements
    (array.hpp:274-287), but reads past the end when n > size(). *)
Theorem C46_take_beyond_refuted : exists (s : state nat) vs i n,
  reach false 4 8 16 1000 s vs /\ alive vs i /\ N.of_nat (length (val vs i)) < n /\
  step false 4 8 16 1000 s (Take i n) = UB.
Proof.
  eexists _, (fold_left spec [New; PushBackMut 1 5; PushBackMut 1 6]%nat [Some []]), 1%nat, 3.
  cbn [fold_left].
  split; [ex_reach|].
  split; [now exists [5; 6]%nat|]. split; [cbn; lia|reflexivity].
Qed.
(** The part that holds: counts up to the size. *)
Theorem C46_take_within_partial {T} trivial esz off nodesz limit s (vs : vals T) i n :
  platform esz off nodesz limit -> reach trivial esz off nodesz limit s vs ->
  alive vs i -> n <= N.of_nat (length (val vs i)) ->
  step trivial esz off nodesz limit s (Take i n) = Ok None \/
  exists s', step trivial esz off nodesz limit s (Take i n) = Ok (Some s') /\
    shows s' (vs ++ [Some (firstn (N.to_nat n) (val vs i))]).
Proof.
  intros P R A Hn.
  exact (C30_operations trivial esz off nodesz limit P s vs (Take i n) R (conj A Hn) Logic.I
           (fun X => X)).
Qed.
Print Assumptions C46_take_beyond_refuted.
Print Assumptions C46_take_within_partial.

(** ** C47: array(n, x) with a size whose byte count exceeds 64 bits should fail like a
    request for too much memory; it allocates a small block and writes past it. *)
Lemma construct_all_beyond {T} trivial (xs : list T) : forall sl i,
  lenN sl < i + lenN xs -> xs <> [] -> construct_all trivial sl i xs = UB.
Proof.
  induction xs as [|x xs IH]; intros sl i H Hne; [easy|].
  rewrite lenN_cons in H. cbn [construct_all]. unfold construct.
  destruct (rnthN sl i) as [o|] eqn:E; [|reflexivity]. cbn [rbind].
  assert (L : lenN (updN i (Some x) sl) = lenN sl) by (unfold lenN, updN; now rewrite update_length).
  apply rnthN_lt in E.
  destruct o as [z|].
  - destruct trivial; [|reflexivity]. cbn [rbind]. apply IH; [lia|].
    intros ->. rewrite lenN_nil in H. lia.
  - cbn [rbind]. apply IH; [lia|]. intros ->. rewrite lenN_nil in H. lia.
Qed.
Theorem C47_fill_refuted : exists (s : state nat) vs n,
  reach false 4 8 16 1000 s vs /\ n < 2^64 /\
  step false 4 8 16 1000 s (Fill n 7%nat) = UB.
Proof.
  eexists _, [Some []], (2^62). split; [apply r_init; reflexivity|]. split; [reflexivity|].
  unfold step, fill_node, make_n.
  change (1000 <? sizeof_n 4 8 16 (2^62)) with false. cbn [rbind mem vars].
  unfold rcell. cbn [heap]. unfold upd at 1. rewrite Nat.eqb_refl. cbn [rbind slots].
  rewrite construct_all_beyond; [reflexivity| |].
  - rewrite !lenN_repeat. change (room 4 8 16 (2^62)) with 2. lia.
  - intros E. apply (f_equal lenN) in E. rewrite lenN_repeat, lenN_nil in E. lia.
Qed.
(** The part that holds: byte counts below 2^64 either fail cleanly or give the array. *)
Theorem C47_fill_partial {T} trivial esz off nodesz limit s (vs : vals T) n x :
  platform esz off nodesz limit -> reach trivial esz off nodesz limit s vs ->
  off + esz * n < 2^64 ->
  step trivial esz off nodesz limit s (Fill n x) = Ok None \/
  exists s', step trivial esz off nodesz limit s (Fill n x) = Ok (Some s') /\
    shows s' (vs ++ [Some (repeat x (N.to_nat n))]).
Proof.
  intros P R Hn.
  exact (C30_operations trivial esz off nodesz limit P s vs (Fill n x) R Logic.I Hn (fun X => X)).
Qed.
Print Assumptions C47_fill_refuted.
Print Assumptions C47_fill_partial.
