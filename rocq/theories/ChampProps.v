(** The properties of immer::map, immer::set and immer::table (C01-C09).

    [B] is the branching width (default 5), [key] the projection of an element to its
    key (identity for set, first for map, the KeyFn for table), [khash]/[keq] the user
    supplied Hash and Equal, [project]/[combine] the two functions map.hpp:370-410 and
    table.hpp:420-470 hand to update.  [keys_ok] says Equal is an equivalence that
    respects Hash.  A container is reachable when [run] produces it from a history. *)
From Coq Require Import List NArith Arith Lia Bool Permutation ZArith ZifyBool ZifyNat ZifyN.
From Verif Require Import Common Champ ChampSpec ChampHist ChampProofs ChampMap ChampIter ChampEq ChampDiff ChampCost.
Import ListNotations.
Local Open Scope N_scope.

Lemma filter_perm_length {A} (f : A -> bool) l l' : Permutation l l' ->
  length (filter f l) = length (filter f l').
Proof.
  induction 1; simpl; try lia; repeat match goal with |- context [f ?x] => destruct (f x) end; simpl; lia.
Qed.

Section Props.
  Variable B : N.
  Context {T K V : Type}.
  Variable key : T -> K.
  Variable khash : K -> N.
  Variable keq : K -> K -> bool.
  Variable project : T -> V.
  Variable combine : K -> V -> T.
  Hypothesis HB : 1 <= B.
  Hypothesis Hkeys : keys_ok keq khash.
  Hypothesis Hcomb : forall k x, keq (key (combine k x)) k = true.

  Notation run := (run B key khash keq project combine).
  Notation contents := (ahistory key keq project combine).
  Notation listing := (lists key keq).

  (** C01: after any history every lookup is defined and returns the last effective
      write. *)
  Lemma lookup_history ops : exists c, run ops = Ok c /\
    forall k, get B key khash keq c k = Ok (contents ops k).
  Proof.
    destruct (run_holds B key khash keq HB Hkeys project combine Hcomb ops) as (c & Hr & Hh).
    exists c. split; [exact Hr|]. intros k. apply (holds_get B key khash keq HB Hkeys _ _ _ Hh).
  Qed.

  Lemma holds_run ops c : run ops = Ok c -> holds B key khash keq c (contents ops).
  Proof.
    intros H. destruct (run_holds B key khash keq HB Hkeys project combine Hcomb ops) as (c' & Hr & Hh).
    congruence.
  Qed.

  Lemma size_history ops c l : run ops = Ok c -> listing l (contents ops) ->
    size c = N.of_nat (length l).
  Proof.
    intros H L. pose proof (holds_run _ _ H) as Hh.
    pose proof (lists_perm key khash keq Hkeys _ _ _ (holds_lists B key khash keq HB Hkeys _ _ Hh) L) as P.
    rewrite <- (Permutation_length P). apply Hh.
  Qed.

  Lemma listing_exists ops : exists l, listing l (contents ops).
  Proof.
    destruct (run_holds B key khash keq HB Hkeys project combine Hcomb ops) as (c & _ & Hh).
    exists (elems (root c)). apply (holds_lists B key khash keq HB Hkeys _ _ Hh).
  Qed.

  Lemma iteration_history ops c : run ops = Ok c ->
    exists l cks fuel,
      listing l (contents ops) /\
      size c = N.of_nat (length l) /\
      for_each_chunk B c = Ok cks /\ concat cks = l /\ Forall (fun ck => ck <> []) cks /\
      forall fuel', (fuel <= fuel')%nat ->
        (it <- it_begin B fuel' c ;; iterate B (N.to_nat (size c)) fuel' it) = Ok l.
  Proof.
    intros H. pose proof (holds_run _ _ H) as Hh.
    destruct (chunks_ok B key khash keq HB _ _ _ _ (proj1 Hh)) as (cks & Hc & Hcc & Hn).
    exists (elems (root c)), cks, (count (root c)).
    split; [apply (holds_lists B key khash keq HB Hkeys _ _ Hh)|].
    split; [apply Hh|]. split; [exact Hc|]. split; [exact Hcc|]. split; [exact Hn|].
    intros fuel' Hf. apply (iterate_all B key khash keq HB c _ fuel' (proj1 Hh)); [|exact Hf].
    rewrite (proj1 (proj2 Hh)). lia.
  Qed.

  Lemma erase_history ops c k : run ops = Ok c ->
    exists c', sub B key khash keq c k = Ok c' /\
      get B key khash keq c' k = Ok None /\
      (forall k', keq k k' = false -> get B key khash keq c' k' = get B key khash keq c k') /\
      size c' = size c - (match contents ops k with Some _ => 1 | None => 0 end) /\
      (contents ops k = None -> forall k', get B key khash keq c' k' = get B key khash keq c k').
  Proof.
    intros H. pose proof (holds_run _ _ H) as Hh.
    destruct (sub_holds B key khash keq HB Hkeys c _ k Hh) as (c' & Hs & Hh').
    exists c'. split; [exact Hs|].
    assert (G : forall k', get B key khash keq c' k' = Ok (adel keq k (contents ops) k'))
      by (intros k'; apply (holds_get B key khash keq HB Hkeys _ _ _ Hh')).
    assert (G0 : forall k', get B key khash keq c k' = Ok (contents ops k'))
      by (intros k'; apply (holds_get B key khash keq HB Hkeys _ _ _ Hh)).
    split; [rewrite G; unfold adel; rewrite (keq_refl _ _ Hkeys); reflexivity|].
    split; [intros k' E; rewrite G, G0; unfold adel; rewrite E; reflexivity|].
    assert (X : forall a b, (exists l, listing l a /\ b = N.of_nat (length l)) -> forall l, listing l a -> b = N.of_nat (length l)).
    { intros a b (l & Hl & ->) l' Hl'. rewrite (Permutation_length (lists_perm key khash keq Hkeys _ _ _ Hl Hl')). reflexivity. }
    split.
    - pose proof (holds_lists B key khash keq HB Hkeys _ _ Hh) as L.
      pose proof (holds_lists B key khash keq HB Hkeys _ _ Hh') as L'.
      destruct (contents ops k) as [v|] eqn:E.
      + pose proof Hh as (_ & _ & LO). specialize (LO k). rewrite E in LO. destruct LO as [Hv Ev].
        destruct (in_split _ _ Hv) as (l1 & l2 & EL).
        assert (P : Permutation (elems (root c)) (v :: l1 ++ l2)) by (rewrite EL; symmetry; apply Permutation_middle).
        assert (LL : listing (l1 ++ l2) (adel keq k (contents ops))).
        { destruct L as [D I]. pose proof (distinct_perm _ _ _ Hkeys _ _ P D) as D'. inversion D' as [|? ? F D2]; subst.
          split; [exact D2|]. intros w. unfold adel.
          rewrite Forall_forall in F. split.
          - intros Hw. assert (Hin : In w (elems (root c))) by (apply (Permutation_in w (Permutation_sym P)); right; exact Hw).
            specialize (F w Hw). destruct (keq k (key w)) eqn:Ek.
            + unfold teqk in Ev. rewrite (keq_trans _ _ Hkeys _ _ _ Ev Ek) in F. discriminate.
            + apply I. exact Hin.
          - destruct (keq k (key w)) eqn:Ek; [discriminate|]. intros Hw. apply I in Hw.
            apply (Permutation_in w P) in Hw. destruct Hw as [->|Hw]; [|exact Hw].
            unfold teqk in Ev. rewrite (keq_sym _ _ Hkeys _ _ Ev) in Ek. discriminate. }
        pose proof (lists_perm key khash keq Hkeys _ _ _ L' LL) as P2.
        rewrite (proj1 (proj2 Hh)), (proj1 (proj2 Hh')), (Permutation_length P), (Permutation_length P2).
        cbn [length]. lia.
      + assert (L2 : listing (elems (root c)) (adel keq k (contents ops))).
        { destruct L as [D I]. split; [exact D|]. intros w. unfold adel. destruct (keq k (key w)) eqn:Ek; [|apply I].
          split; [|discriminate]. intros Hw. exfalso. pose proof Hh as (_ & _ & LO). specialize (LO k). rewrite E in LO.
          specialize (LO w Hw). unfold teqk in LO. rewrite (keq_sym _ _ Hkeys _ _ Ek) in LO. discriminate. }
        pose proof (lists_perm key khash keq Hkeys _ _ _ L' L2) as P2.
        rewrite (proj1 (proj2 Hh)), (proj1 (proj2 Hh')), (Permutation_length P2). lia.
    - intros E k'. rewrite G, G0. unfold adel. destruct (keq k k') eqn:Ek; [|reflexivity].
      pose proof Hh as (_ & _ & LO). pose proof (LO k) as LO1. specialize (LO k'). rewrite E in LO1.
      destruct (contents ops k') as [w|]; [|reflexivity]. destruct LO as [Hw Ew]. specialize (LO1 w Hw).
      unfold teqk in *. rewrite (keq_trans _ _ Hkeys _ _ _ Ew (keq_sym _ _ Hkeys _ _ Ek)) in LO1. discriminate.
  Qed.

  Lemma update_history ops c k fn dflt : run ops = Ok c ->
    exists c', update B key khash keq project combine c k fn dflt = Ok c' /\
      get B key khash keq c' k =
        Ok (Some (combine k (fn (match contents ops k with Some v => project v | None => dflt end)))) /\
      (forall k', keq k k' = false -> get B key khash keq c' k' = get B key khash keq c k').
  Proof.
    intros H. pose proof (holds_run _ _ H) as Hh.
    destruct (update_holds B key khash keq HB Hkeys project combine c _ k fn dflt (Hcomb k) Hh) as (c' & Hu & Hh').
    exists c'. split; [exact Hu|]. split.
    - rewrite (holds_get B key khash keq HB Hkeys _ _ _ Hh'). unfold aput. rewrite (keq_refl _ _ Hkeys). reflexivity.
    - intros k' E. rewrite (holds_get B key khash keq HB Hkeys _ _ _ Hh'), (holds_get B key khash keq HB Hkeys _ _ _ Hh).
      unfold aput. rewrite E. reflexivity.
  Qed.

  Lemma update_if_exists_history ops c k fn : run ops = Ok c ->
    exists c', update_if_exists B key khash keq project combine c k fn = Ok c' /\
      size c' = size c /\
      get B key khash keq c' k =
        Ok (match contents ops k with
            | Some v => Some (combine k (fn (project v)))
            | None => None
            end) /\
      (forall k', keq k k' = false -> get B key khash keq c' k' = get B key khash keq c k').
  Proof.
    intros H. pose proof (holds_run _ _ H) as Hh.
    destruct (update_if_exists_holds B key khash keq HB Hkeys project combine c _ k fn (Hcomb k) Hh) as (c' & Hu & Hh').
    exists c'. split; [exact Hu|]. split.
    { unfold update_if_exists in Hu. destruct (do_update_if_exists _ _ _ _ _ _ _ _ _ _ _) as [[n|]|]; simpl in Hu; inversion Hu; reflexivity. }
    split.
    - rewrite (holds_get B key khash keq HB Hkeys _ _ _ Hh').
      destruct (contents ops k) as [v|] eqn:E; [|rewrite E; reflexivity].
      unfold aput. rewrite (keq_refl _ _ Hkeys). reflexivity.
    - intros k' E. rewrite (holds_get B key khash keq HB Hkeys _ _ _ Hh'), (holds_get B key khash keq HB Hkeys _ _ _ Hh).
      destruct (contents ops k) as [v|]; [|reflexivity]. unfold aput. rewrite E. reflexivity.
  Qed.

  Lemma shape_history ops1 ops2 c1 c2 : run ops1 = Ok c1 -> run ops2 = Ok c2 ->
    (forall k, contents ops1 k = contents ops2 k) ->
    same_shape (root c1) (root c2) /\ size c1 = size c2.
  Proof.
    intros H1 H2 E. pose proof (holds_run _ _ H1) as A1. pose proof (holds_run _ _ H2) as A2. split.
    - apply (canonical B key khash keq HB Hkeys (max_depth B) 0 0 _ _ (lt01 B HB) (proj1 A1) (proj1 A2)).
      intros v. rewrite (holds_in B key khash keq HB Hkeys _ _ _ A1), (holds_in B key khash keq HB Hkeys _ _ _ A2), E. tauto.
    - assert (L : listing (elems (root c1)) (contents ops2)).
      { destruct (holds_lists B key khash keq HB Hkeys _ _ A1) as [D I]. split; [exact D|]. intros v. rewrite I, E. tauto. }
      rewrite (size_history _ _ _ H2 L). apply A1.
  Qed.

  Lemma cost_history ops c l : run ops = Ok c -> listing l (contents ops) ->
    (forall k, let '(r, w) := get_cost B key keq (max_depth B) (root c) (khash k) k in
       r = get B key khash keq c k /\ (inners w <= N.to_nat ((64 + B - 1) / B))%nat /\
       (colls w <= 1)%nat /\ (cmps w <= Nat.max 1 (same_hash key khash k l))%nat) /\
    (forall v, let '(r, w) := add_cost B key khash keq (max_depth B) (root c) v (thash key khash v) 0 in
       r = do_add B key khash keq (max_depth B) (root c) v (thash key khash v) 0 /\
       (inners w <= N.to_nat ((64 + B - 1) / B))%nat /\
       (colls w <= 1)%nat /\ (cmps w <= Nat.max 1 (same_hash key khash (key v) l))%nat) /\
    (forall k, let '(r, w) := sub_cost B key keq (max_depth B) (root c) k (khash k) 0 in
       r = do_sub B key keq (max_depth B) (root c) k (khash k) 0 /\
       (inners w <= N.to_nat ((64 + B - 1) / B))%nat /\
       (colls w <= 1)%nat /\ (cmps w <= Nat.max 1 (same_hash key khash k l))%nat).
  Proof.
    intros H L. pose proof (holds_run _ _ H) as A.
    pose proof (lists_perm key khash keq Hkeys _ _ _ (holds_lists B key khash keq HB Hkeys _ _ A) L) as P.
    assert (E : forall k, same_hash key khash k (elems (root c)) = same_hash key khash k l).
    { intros k. unfold same_hash. apply filter_perm_length. exact P. }
    split; [|split].
    - intros k. destruct (lookup_cost B key khash keq HB Hkeys c _ k A) as [F (B1 & B2 & B3)].
      destruct (get_cost _ _ _ _ _ _ _) as [r w]. simpl in *. rewrite E in B3. auto.
    - intros v. destruct (insert_cost B key khash keq HB Hkeys c _ v A) as [F (B1 & B2 & B3)].
      destruct (add_cost _ _ _ _ _ _ _ _ _) as [r w]. simpl in *. rewrite E in B3. auto.
    - intros k. destruct (erase_cost B key khash keq HB Hkeys c _ k A) as [F (B1 & B2 & B3)].
      destruct (sub_cost _ _ _ _ _ _ _ _) as [r w]. simpl in *. rewrite E in B3. auto.
  Qed.
End Props.

(** ** Theorems *)

(** Shared premises: a branching width, Equal/Hash laws, and that [combine k x] has
    key [k] (true for map's pair{k, x}, table's field setter and set's identity). *)
Definition setup (B : N) {T K V} (key : T -> K) (khash : K -> N) (keq : K -> K -> bool)
           (combine : K -> V -> T) : Prop :=
  1 <= B /\ keys_ok keq khash /\ forall k x, keq (key (combine k x)) k = true.

Theorem C01_lookup : forall B T K V (key : T -> K) khash keq (project : T -> V) combine,
  setup B key khash keq combine ->
  forall ops, exists c, run B key khash keq project combine ops = Ok c /\
    forall k, get B key khash keq c k = Ok (ahistory key keq project combine ops k).
Proof. intros B T K V key khash keq project combine (H1 & H2 & H3) ops. apply lookup_history; assumption. Qed.
Print Assumptions C01_lookup.

Theorem C02_size : forall B T K V (key : T -> K) khash keq (project : T -> V) combine,
  setup B key khash keq combine ->
  forall ops, exists c l, run B key khash keq project combine ops = Ok c /\
    lists key keq l (ahistory key keq project combine ops) /\
    forall l', lists key keq l' (ahistory key keq project combine ops) -> size c = N.of_nat (length l').
Proof.
  intros B T K V key khash keq project combine (H1 & H2 & H3) ops.
  destruct (lookup_history B key khash keq project combine H1 H2 H3 ops) as (c & Hc & _).
  destruct (listing_exists B key khash keq project combine H1 H2 H3 ops) as (l & Hl).
  exists c, l. split; [exact Hc|]. split; [exact Hl|]. intros l' Hl'.
  apply (size_history B key khash keq project combine H1 H2 H3 _ _ _ Hc Hl').
Qed.
Print Assumptions C02_size.

(** The iterator loop is run with exactly size() increments; [fuel] bounds the inner
    loop of champ_iterator::ensure_valid_, any larger value gives the same result. *)
Theorem C03_iteration : forall B T K V (key : T -> K) khash keq (project : T -> V) combine,
  setup B key khash keq combine ->
  forall ops c, run B key khash keq project combine ops = Ok c ->
  exists l cks fuel,
    lists key keq l (ahistory key keq project combine ops) /\
    size c = N.of_nat (length l) /\
    for_each_chunk B c = Ok cks /\ concat cks = l /\ Forall (fun ck => ck <> []) cks /\
    forall fuel', (fuel <= fuel')%nat ->
      (it <- it_begin B fuel' c ;; iterate B (N.to_nat (size c)) fuel' it) = Ok l.
Proof. intros B T K V key khash keq project combine (H1 & H2 & H3). apply iteration_history; assumption. Qed.
Print Assumptions C03_iteration.

Theorem C04_erase : forall B T K V (key : T -> K) khash keq (project : T -> V) combine,
  setup B key khash keq combine ->
  forall ops c k, run B key khash keq project combine ops = Ok c ->
  exists c', sub B key khash keq c k = Ok c' /\
    get B key khash keq c' k = Ok None /\
    (forall k', keq k k' = false -> get B key khash keq c' k' = get B key khash keq c k') /\
    size c' = size c - (match ahistory key keq project combine ops k with Some _ => 1 | None => 0 end) /\
    (ahistory key keq project combine ops k = None ->
     forall k', get B key khash keq c' k' = get B key khash keq c k').
Proof. intros B T K V key khash keq project combine (H1 & H2 & H3). apply erase_history; assumption. Qed.
Print Assumptions C04_erase.

(** [ptr_eq] is equality of node addresses: equal addresses hold equal nodes.  [veq]
    must be reflexive (the code skips shared subtrees) and imply equal keys. *)
Theorem C05_equality : forall B T K V (key : T -> K) khash keq (project : T -> V) combine ptr_eq veq,
  setup B key khash keq combine ->
  (forall a b, ptr_eq a b = true -> a = b) ->
  (forall v, veq v v = true) ->
  (forall v w, veq v w = true -> keq (key v) (key w) = true) ->
  forall ops1 ops2 c1 c2,
  run B key khash keq project combine ops1 = Ok c1 ->
  run B key khash keq project combine ops2 = Ok c2 ->
  exists r, equals B ptr_eq veq c1 c2 = Ok r /\
    (r = true <-> same_contents veq (ahistory key keq project combine ops1)
                                    (ahistory key keq project combine ops2)).
Proof.
  intros B T K V key khash keq project combine ptr_eq veq (H1 & H2 & H3) P R E ops1 ops2 c1 c2 R1 R2.
  apply (equals_ok B key khash keq H1 H2 ptr_eq veq P R E c1 c2); apply (holds_run B key khash keq project combine); assumption.
Qed.
Print Assumptions C05_equality.

Theorem C06_diff : forall B T K V (key : T -> K) khash keq (project : T -> V) combine ptr_eq veq,
  setup B key khash keq combine -> B <= 6 ->
  (forall a b, ptr_eq a b = true -> a = b) ->
  (forall v, veq v v = true) ->
  forall ops1 ops2 c1 c2,
  run B key khash keq project combine ops1 = Ok c1 ->
  run B key khash keq project combine ops2 = Ok c2 ->
  exists evs, diff B key keq ptr_eq veq c1 c2 = Ok evs /\
    (forall e, In e evs <-> expected key veq (ahistory key keq project combine ops1)
                                             (ahistory key keq project combine ops2) e) /\
    NoDup evs.
Proof.
  intros B T K V key khash keq project combine ptr_eq veq (H1 & H2 & H3) H6 P R ops1 ops2 c1 c2 R1 R2.
  apply (diff_ok B key khash keq H1 H6 H2 ptr_eq veq P R c1 c2); apply (holds_run B key khash keq project combine); assumption.
Qed.
Print Assumptions C06_diff.

Theorem C07_update : forall B T K V (key : T -> K) khash keq (project : T -> V) combine,
  setup B key khash keq combine ->
  forall ops c k fn dflt, run B key khash keq project combine ops = Ok c ->
  exists c', update B key khash keq project combine c k fn dflt = Ok c' /\
    get B key khash keq c' k =
      Ok (Some (combine k (fn (match ahistory key keq project combine ops k with
                               | Some v => project v | None => dflt end)))) /\
    (forall k', keq k k' = false -> get B key khash keq c' k' = get B key khash keq c k').
Proof. intros B T K V key khash keq project combine (H1 & H2 & H3). apply update_history; assumption. Qed.
Print Assumptions C07_update.

Theorem C07_update_if_exists : forall B T K V (key : T -> K) khash keq (project : T -> V) combine,
  setup B key khash keq combine ->
  forall ops c k fn, run B key khash keq project combine ops = Ok c ->
  exists c', update_if_exists B key khash keq project combine c k fn = Ok c' /\
    size c' = size c /\
    get B key khash keq c' k =
      Ok (match ahistory key keq project combine ops k with
          | Some v => Some (combine k (fn (project v)))
          | None => None
          end) /\
    (forall k', keq k k' = false -> get B key khash keq c' k' = get B key khash keq c k').
Proof. intros B T K V key khash keq project combine (H1 & H2 & H3). apply update_if_exists_history; assumption. Qed.
Print Assumptions C07_update_if_exists.

Theorem C08_canonical_shape : forall B T K V (key : T -> K) khash keq (project : T -> V) combine,
  setup B key khash keq combine ->
  forall ops1 ops2 c1 c2,
  run B key khash keq project combine ops1 = Ok c1 ->
  run B key khash keq project combine ops2 = Ok c2 ->
  (forall k, ahistory key keq project combine ops1 k = ahistory key keq project combine ops2 k) ->
  same_shape (root c1) (root c2) /\ size c1 = size c2.
Proof. intros B T K V key khash keq project combine (H1 & H2 & H3). apply shape_history; assumption. Qed.
Print Assumptions C08_canonical_shape.

Theorem C09_bounded_work : forall B T K V (key : T -> K) khash keq (project : T -> V) combine,
  setup B key khash keq combine ->
  forall ops c l, run B key khash keq project combine ops = Ok c ->
  lists key keq l (ahistory key keq project combine ops) ->
  (forall k, let '(r, w) := get_cost B key keq (max_depth B) (root c) (khash k) k in
     r = get B key khash keq c k /\ (inners w <= N.to_nat ((64 + B - 1) / B))%nat /\
     (colls w <= 1)%nat /\ (cmps w <= Nat.max 1 (same_hash key khash k l))%nat) /\
  (forall v, let '(r, w) := add_cost B key khash keq (max_depth B) (root c) v (thash key khash v) 0 in
     r = do_add B key khash keq (max_depth B) (root c) v (thash key khash v) 0 /\
     (inners w <= N.to_nat ((64 + B - 1) / B))%nat /\
     (colls w <= 1)%nat /\ (cmps w <= Nat.max 1 (same_hash key khash (key v) l))%nat) /\
  (forall k, let '(r, w) := sub_cost B key keq (max_depth B) (root c) k (khash k) 0 in
     r = do_sub B key keq (max_depth B) (root c) k (khash k) 0 /\
     (inners w <= N.to_nat ((64 + B - 1) / B))%nat /\
     (colls w <= 1)%nat /\ (cmps w <= Nat.max 1 (same_hash key khash k l))%nat).
Proof. intros B T K V key khash keq project combine (H1 & H2 & H3). apply cost_history; assumption. Qed.
Print Assumptions C09_bounded_work.

(** ** A concrete instance: a map from N to N with B = 5 and a hash that collides
    completely for keys equal modulo 3. *)
Definition ex_key (e : N * N) : N := fst e.
Definition ex_hash (k : N) : N := k mod 3.
Definition ex_ops : list (@op (N * N) N N) :=
  [OpInsert (1, 10); OpInsert (4, 40); OpInsert (7, 70); OpInsert (2, 20);
   OpErase 4; OpUpdate 5 (fun x => x + 1) 0; OpUpdateIfExists 7 (fun x => x * 2);
   OpInsert (1, 11); OpErase 9; OpInsert (33, 1)].
Definition ex_ops2 : list (@op (N * N) N N) :=
  [OpInsert (33, 1); OpInsert (2, 20); OpInsert (7, 140); OpInsert (1, 11); OpInsert (5, 1)].

Example ex_setup : setup 5 ex_key ex_hash N.eqb (fun k x => (k, x)).
Proof.
  split; [lia|]. split; [|intros; apply N.eqb_refl]. split; [apply N.eqb_refl|].
  split; [intros a b H; apply N.eqb_eq in H; subst; apply N.eqb_refl|].
  split; [intros a b c H1 H2; apply N.eqb_eq in H1; apply N.eqb_eq in H2; subst; apply N.eqb_refl|].
  split; [intros a b H; apply N.eqb_eq in H; subst; reflexivity|].
  intros k. unfold ex_hash. assert (k mod 3 < 3) by (apply N.mod_lt; lia).
  assert (3 < 2 ^ 64) by (vm_compute; reflexivity). lia.
Qed.

Example ex_lookup :
  (c <- run 5 ex_key ex_hash N.eqb snd pair ex_ops ;; get 5 ex_key ex_hash N.eqb c 7) = Ok (Some (7, 140)) /\
  (c <- run 5 ex_key ex_hash N.eqb snd pair ex_ops ;; get 5 ex_key ex_hash N.eqb c 4) = Ok None /\
  (c <- run 5 ex_key ex_hash N.eqb snd pair ex_ops ;; Ok (size c)) = Ok 5.
Proof. split; [|split]; vm_compute; reflexivity. Qed.

Definition ex_veq (a b : N * N) : bool := (fst a =? fst b) && (snd a =? snd b).

Example ex_equal_diff :
  (a <- run 5 ex_key ex_hash N.eqb snd pair ex_ops ;;
   b <- run 5 ex_key ex_hash N.eqb snd pair ex_ops2 ;;
   r <- equals 5 (fun _ _ => false) ex_veq a b ;;
   e <- diff 5 ex_key N.eqb (fun _ _ => false) ex_veq a b ;;
   e0 <- diff 5 ex_key N.eqb (fun _ _ => false) ex_veq empty a ;; Ok (r, e, length e0))
  = Ok (true, [], 5%nat).
Proof. vm_compute. reflexivity. Qed.

Example ex_iterate :
  (c <- run 5 ex_key ex_hash N.eqb snd pair ex_ops ;;
   it <- it_begin 5 100 c ;; iterate 5 5 100 it)
  = Ok [(33, 1); (1, 11); (7, 140); (5, 1); (2, 20)].
Proof. vm_compute. reflexivity. Qed.
