(** Sparse arrays: a bitmap and a packed list of the entries of the set bits. *)
From Coq Require Import List NArith Arith Lia Bool Permutation ZArith ZifyBool ZifyNat ZifyN.
From Verif Require Import Common Bits BitsSpec BitsProofs.
Import ListNotations.
Local Open Scope N_scope.

Definition rank (m i : N) : nat := popcount (m mod 2 ^ i).

Definition slot {A} (m : N) (l : list A) (i : N) : option A :=
  if N.testbit m i then nth_error l (rank m i) else None.

Definition b2nat (b : bool) : nat := if b then 1%nat else 0%nat.

Lemma rank_0 m : rank m 0 = 0%nat.
Proof. unfold rank. rewrite N.pow_0_r, N.mod_1_r. reflexivity. Qed.

Lemma popcount_b b : popcount (N.b2n b) = b2nat b.
Proof. destruct b; reflexivity. Qed.

Lemma mod_pow2_succ m i :
  m mod 2 ^ (i + 1) = m mod 2 ^ i + N.b2n (N.testbit m i) * 2 ^ i.
Proof.
  rewrite N.testbit_eqb. rewrite N.pow_add_r, N.pow_1_r.
  assert (H : 2 ^ i <> 0) by (apply N.pow_nonzero; lia).
  rewrite N.mod_mul_r by lia.
  assert ((m / 2 ^ i) mod 2 < 2) by (apply N.mod_lt; lia).
  remember ((m / 2 ^ i) mod 2) as b.
  assert (b = 0 \/ b = 1) as [-> | ->] by lia; [change (N.b2n (0 =? 1)) with 0|change (N.b2n (1 =? 1)) with 1]; lia.
Qed.

Lemma rank_succ m i : rank m (i + 1) = (rank m i + b2nat (N.testbit m i))%nat.
Proof.
  unfold rank. rewrite mod_pow2_succ.
  destruct (N.eq_dec i 0) as [->|Hi].
  - rewrite N.pow_0_r, N.mod_1_r, N.mul_1_r, N.add_0_l. rewrite popcount_b. reflexivity.
  - assert (Hlt : m mod 2 ^ i < 2 ^ i) by (apply N.mod_lt, N.pow_nonzero; lia).
    rewrite (N.mul_comm (N.b2n _)), popcount_app by exact Hlt.
    rewrite popcount_b. reflexivity.
Qed.

Lemma rank_all m n : m < 2 ^ n -> rank m n = popcount m.
Proof. intros H. unfold rank. rewrite N.mod_small by exact H. reflexivity. Qed.

Lemma rank_mono m i j : i <= j -> (rank m i <= rank m j)%nat.
Proof.
  intros H. rewrite <- (N.sub_add i j H), N.add_comm. 
  generalize (j - i) as k. clear H. intros k.
  induction k as [|k IH] using N.peano_ind.
  - rewrite N.add_0_r. lia.
  - replace (i + N.succ k) with (i + k + 1) by lia. rewrite rank_succ. lia.
Qed.

Lemma rank_le_popcount m i : (rank m i <= popcount m)%nat.
Proof.
  destruct (N.lt_ge_cases m (2 ^ i)) as [H|H].
  - rewrite rank_all by exact H. lia.
  - assert (m < 2 ^ N.size m) by apply N.size_gt.
    rewrite <- (rank_all m (N.size m)) by assumption.
    apply rank_mono.
    destruct (N.le_gt_cases i (N.size m)) as [|G]; [assumption|].
    assert (2 ^ N.size m <= 2 ^ i) by (apply N.pow_le_mono_r; lia). lia.
Qed.

Lemma rank_lt m i : N.testbit m i = true -> (rank m i < popcount m)%nat.
Proof.
  intros H. pose proof (rank_le_popcount m (i + 1)) as L. rewrite rank_succ, H in L.
  simpl in L. lia.
Qed.

Lemma rank_lt_lt m i j : N.testbit m i = true -> i < j -> (rank m i < rank m j)%nat.
Proof.
  intros H L. assert (i + 1 <= j) by lia.
  pose proof (rank_mono m (i + 1) j H0). rewrite rank_succ, H in H1. simpl in H1. lia.
Qed.

Lemma rank_inj m i j :
  N.testbit m i = true -> N.testbit m j = true -> rank m i = rank m j -> i = j.
Proof.
  intros Hi Hj E. destruct (N.lt_trichotomy i j) as [L|[L|L]]; [|exact L|].
  - pose proof (rank_lt_lt m i j Hi L). lia.
  - pose proof (rank_lt_lt m j i Hj L). lia.
Qed.

Lemma rank_surj_aux m p n : (p < rank m n)%nat ->
  exists i, i < n /\ N.testbit m i = true /\ rank m i = p.
Proof.
  induction n as [|n IH] using N.peano_ind; intros H.
  - rewrite rank_0 in H. lia.
  - rewrite <- N.add_1_r, rank_succ in H.
    destruct (N.testbit m n) eqn:E; simpl in H.
    + destruct (Nat.eq_dec p (rank m n)) as [->|Hne].
      * exists n. repeat split; try assumption; lia.
      * destruct IH as (i & ? & ? & ?); [lia|]. exists i. repeat split; try assumption; lia.
    + destruct IH as (i & ? & ? & ?); [lia|]. exists i. repeat split; try assumption; lia.
Qed.

Lemma rank_surj m p : (p < popcount m)%nat ->
  exists i, N.testbit m i = true /\ rank m i = p.
Proof.
  intros H. destruct (rank_surj_aux m p (N.size m)) as (i & _ & ? & ?).
  - rewrite rank_all by apply N.size_gt. exact H.
  - exists i. split; assumption.
Qed.

(** Bit set and bit clear. *)
Lemma testbit_lor_bit m i j :
  N.testbit (N.lor m (2 ^ i)) j = (N.testbit m j || (i =? j)).
Proof. rewrite N.lor_spec, N.pow2_bits_eqb. reflexivity. Qed.

Lemma testbit_ldiff_bit m i j :
  N.testbit (N.ldiff m (2 ^ i)) j = (N.testbit m j && negb (i =? j)).
Proof. rewrite N.ldiff_spec, N.pow2_bits_eqb. reflexivity. Qed.

Lemma rank_lor m i j : N.testbit m i = false ->
  rank (N.lor m (2 ^ i)) j = (rank m j + (if (i <? j)%N then 1 else 0))%nat.
Proof.
  intros H. induction j as [|j IH] using N.peano_ind.
  - rewrite !rank_0. destruct (N.ltb_spec i 0); lia.
  - rewrite <- N.add_1_r, !rank_succ, IH, testbit_lor_bit.
    destruct (N.eqb_spec i j) as [->|Hne].
    + rewrite H. rewrite (proj2 (N.ltb_ge j j)) by lia.
      rewrite (proj2 (N.ltb_lt j (j + 1))) by lia. simpl. lia.
    + rewrite orb_false_r. destruct (N.ltb_spec i j), (N.ltb_spec i (j + 1)); lia.
Qed.

Lemma rank_ldiff m i j : N.testbit m i = true ->
  (rank (N.ldiff m (2 ^ i)) j + (if (i <? j)%N then 1 else 0))%nat = rank m j.
Proof.
  intros H. induction j as [|j IH] using N.peano_ind.
  - rewrite !rank_0. destruct (N.ltb_spec i 0); lia.
  - rewrite <- N.add_1_r, !rank_succ, <- IH, testbit_ldiff_bit.
    destruct (N.eqb_spec i j) as [->|Hne].
    + rewrite H. rewrite (proj2 (N.ltb_ge j j)) by lia.
      rewrite (proj2 (N.ltb_lt j (j + 1))) by lia. simpl. lia.
    + rewrite andb_true_r. destruct (N.ltb_spec i j), (N.ltb_spec i (j + 1)); lia.
Qed.

Lemma lt_pow2_bits m n : (forall i, n <= i -> N.testbit m i = false) -> m < 2 ^ n.
Proof.
  intros H. destruct (N.eq_dec m 0) as [->|Hm].
  - apply N.neq_0_lt_0, N.pow_nonzero. lia.
  - apply N.log2_lt_pow2; [lia|].
    destruct (N.lt_ge_cases (N.log2 m) n) as [|L]; [assumption|].
    pose proof (N.bit_log2 m Hm). rewrite H in H0 by exact L. discriminate.
Qed.

Lemma bits_lt_pow2 m n i : m < 2 ^ n -> n <= i -> N.testbit m i = false.
Proof.
  intros H L. destruct (N.eq_dec m 0) as [->|Hm]; [apply N.bits_0|].
  apply N.bits_above_log2. apply N.log2_lt_pow2 in H; lia.
Qed.

Lemma lor_bit_lt m i n : m < 2 ^ n -> i < n -> N.lor m (2 ^ i) < 2 ^ n.
Proof.
  intros H L. apply lt_pow2_bits. intros j Hj. rewrite testbit_lor_bit.
  rewrite (bits_lt_pow2 m n j H Hj). destruct (N.eqb_spec i j); [lia|reflexivity].
Qed.

Lemma ldiff_bit_lt m i n : m < 2 ^ n -> N.ldiff m (2 ^ i) < 2 ^ n.
Proof.
  intros H. apply lt_pow2_bits. intros j Hj. rewrite testbit_ldiff_bit.
  rewrite (bits_lt_pow2 m n j H Hj). reflexivity.
Qed.

Lemma popcount_lor_bit m i : N.testbit m i = false ->
  popcount (N.lor m (2 ^ i)) = S (popcount m).
Proof.
  intros H. set (n := N.max (N.size m) (i + 1)).
  assert (m < 2 ^ n).
  { assert (m < 2 ^ N.size m) by apply N.size_gt.
    assert (2 ^ N.size m <= 2 ^ n) by (apply N.pow_le_mono_r; lia). lia. }
  assert (i < n) by lia.
  rewrite <- (rank_all (N.lor m (2 ^ i)) n) by (apply lor_bit_lt; assumption).
  rewrite rank_lor by exact H. rewrite (rank_all m n) by assumption.
  rewrite (proj2 (N.ltb_lt i n)) by assumption. lia.
Qed.

Lemma popcount_ldiff_bit m i : N.testbit m i = true ->
  S (popcount (N.ldiff m (2 ^ i))) = popcount m.
Proof.
  intros H. set (n := N.max (N.size m) (i + 1)).
  assert (m < 2 ^ n).
  { assert (m < 2 ^ N.size m) by apply N.size_gt.
    assert (2 ^ N.size m <= 2 ^ n) by (apply N.pow_le_mono_r; lia). lia. }
  assert (i < n) by lia.
  rewrite <- (rank_all (N.ldiff m (2 ^ i)) n) by (apply ldiff_bit_lt; assumption).
  pose proof (rank_ldiff m i n H) as E. rewrite (rank_all m n) in E by assumption.
  rewrite (proj2 (N.ltb_lt i n)) in E by assumption. lia.
Qed.

Lemma popcount_0_iff m : popcount m = 0%nat <-> m = 0.
Proof.
  split; [|intros ->; reflexivity].
  destruct m as [|p]; [reflexivity|]. simpl. intros H. exfalso.
  induction p; simpl in H; [discriminate|auto|discriminate].
Qed.

Lemma testbit_pop_pos m i : N.testbit m i = true -> (0 < popcount m)%nat.
Proof. intros H. pose proof (rank_lt m i H). lia. Qed.

Lemma nonzero_testbit m : m <> 0 -> exists i, N.testbit m i = true.
Proof. intros H. exists (N.log2 m). apply N.bit_log2. exact H. Qed.

(** List surgery. *)
Lemma nth_error_insert {A} (l : list A) r x j : (r <= length l)%nat ->
  nth_error (firstn r l ++ x :: skipn r l) j =
  (if (j <? r)%nat then nth_error l j
   else if (j =? r)%nat then Some x else nth_error l (j - 1)).
Proof.
  intros H. destruct (Nat.ltb_spec j r).
  - rewrite nth_error_app1 by (rewrite firstn_length; lia).
    rewrite <- (firstn_skipn r l) at 2. rewrite nth_error_app1 by (rewrite firstn_length; lia).
    reflexivity.
  - rewrite nth_error_app2 by (rewrite firstn_length; lia).
    rewrite firstn_length, Nat.min_l by lia.
    destruct (Nat.eqb_spec j r) as [->|Hne].
    + rewrite Nat.sub_diag. reflexivity.
    + replace (j - r)%nat with (S (j - 1 - r)) by lia. cbn [nth_error].
      rewrite <- (firstn_skipn r l) at 2.
      rewrite nth_error_app2 by (rewrite firstn_length; lia).
      rewrite firstn_length, Nat.min_l by lia. reflexivity.
Qed.

Lemma nth_error_remove {A} (l : list A) r j : (r < length l)%nat ->
  nth_error (firstn r l ++ skipn (S r) l) j =
  (if (j <? r)%nat then nth_error l j else nth_error l (S j)).
Proof.
  intros H. destruct (Nat.ltb_spec j r).
  - rewrite nth_error_app1 by (rewrite firstn_length; lia).
    rewrite <- (firstn_skipn r l) at 2. rewrite nth_error_app1 by (rewrite firstn_length; lia).
    reflexivity.
  - rewrite nth_error_app2 by (rewrite firstn_length; lia).
    rewrite firstn_length, Nat.min_l by lia.
    rewrite <- (firstn_skipn (S r) l) at 2.
    rewrite nth_error_app2 by (rewrite firstn_length; lia).
    rewrite firstn_length, Nat.min_l by lia. reflexivity.
Qed.

Lemma length_update_at {A} r (x : A) l : length (update_at r x l) = length l.
Proof. revert r. induction l as [|y l IH]; intros [|r]; simpl; auto. Qed.

Lemma nth_error_update {A} (l : list A) r x j : (r < length l)%nat ->
  nth_error (update_at r x l) j = (if (j =? r)%nat then Some x else nth_error l j).
Proof.
  revert r j. induction l as [|y l IH]; intros r j H; simpl in H; [lia|].
  destruct r as [|r], j as [|j]; simpl; try reflexivity.
  apply IH. lia.
Qed.

Lemma length_insert {A} (l : list A) r x : (r <= length l)%nat ->
  length (firstn r l ++ x :: skipn r l) = S (length l).
Proof. intros H. rewrite app_length. simpl. rewrite firstn_length, skipn_length. lia. Qed.

Lemma length_remove {A} (l : list A) r : (r < length l)%nat ->
  S (length (firstn r l ++ skipn (S r) l)) = length l.
Proof. intros H. rewrite app_length. rewrite firstn_length, skipn_length. lia. Qed.

Lemma perm_insert {A} (l : list A) r x :
  Permutation (firstn r l ++ x :: skipn r l) (x :: l).
Proof.
  rewrite <- Permutation_middle. rewrite firstn_skipn. reflexivity.
Qed.

Lemma split_at {A} (l : list A) r x : nth_error l r = Some x ->
  l = firstn r l ++ x :: skipn (S r) l.
Proof.
  revert r. induction l as [|y l IH]; intros [|r] H; simpl in *; try discriminate.
  - injection H as ->. reflexivity.
  - f_equal. apply IH. exact H.
Qed.

Lemma update_split {A} (l : list A) r x : (r < length l)%nat ->
  update_at r x l = firstn r l ++ x :: skipn (S r) l.
Proof.
  revert r. induction l as [|y l IH]; intros [|r] H; simpl in *; try lia; [reflexivity|].
  f_equal. apply IH. lia.
Qed.

Lemma perm_remove {A} (l : list A) r x : nth_error l r = Some x ->
  Permutation l (x :: firstn r l ++ skipn (S r) l).
Proof. intros H. rewrite (split_at l r x H) at 1. symmetry. apply Permutation_middle. Qed.

Lemma nth_error_lt {A} (l : list A) r x : nth_error l r = Some x -> (r < length l)%nat.
Proof. intros H. apply nth_error_Some. congruence. Qed.

Lemma perm_update {A} (l : list A) r x y : nth_error l r = Some y ->
  Permutation (update_at r x l) (x :: firstn r l ++ skipn (S r) l).
Proof.
  intros H. rewrite update_split by (apply (nth_error_lt _ _ _ H)).
  symmetry. apply Permutation_middle.
Qed.

Lemma nth_error_ext {A} (l l' : list A) :
  (forall i, nth_error l i = nth_error l' i) -> l = l'.
Proof.
  revert l'. induction l as [|x l IH]; intros [|y l'] H.
  - reflexivity.
  - specialize (H O). discriminate.
  - specialize (H O). discriminate.
  - pose proof (H O) as H0. simpl in H0. injection H0 as ->. f_equal.
    apply IH. intros i. exact (H (S i)).
Qed.

(** Slots. *)
Section SlotLemmas.
  Context {A : Type}.
  Implicit Types (l : list A).

  Lemma slot_nth m l i x : slot m l i = Some x ->
    N.testbit m i = true /\ nth_error l (rank m i) = Some x.
  Proof. unfold slot. destruct (N.testbit m i); [auto|discriminate]. Qed.

  Lemma slot_none m l i : N.testbit m i = false -> slot m l i = None.
  Proof. unfold slot. intros ->. reflexivity. Qed.

  Lemma slot_set m l i : length l = popcount m -> N.testbit m i = true ->
    exists x, slot m l i = Some x /\ nth_error l (rank m i) = Some x.
  Proof.
    intros L H. unfold slot. rewrite H.
    destruct (nth_error l (rank m i)) as [x|] eqn:E.
    - exists x. auto.
    - apply nth_error_None in E. pose proof (rank_lt m i H). lia.
  Qed.

  Lemma slot_in m l x : length l = popcount m ->
    (In x l <-> exists i, slot m l i = Some x).
  Proof.
    intros L. split.
    - intros H. apply In_nth_error in H. destruct H as [p Hp].
      pose proof (nth_error_lt _ _ _ Hp) as Lt. rewrite L in Lt.
      destruct (rank_surj m p Lt) as (i & Hi & <-).
      exists i. unfold slot. rewrite Hi. exact Hp.
    - intros (i & H). apply slot_nth in H. destruct H as [_ H].
      apply nth_error_In in H. exact H.
  Qed.

  Lemma slot_insert m l i x j : length l = popcount m -> N.testbit m i = false ->
    slot (N.lor m (2 ^ i)) (firstn (rank m i) l ++ x :: skipn (rank m i) l) j =
    (if i =? j then Some x else slot m l j).
  Proof.
    intros L H. unfold slot. rewrite testbit_lor_bit, rank_lor by exact H.
    pose proof (rank_le_popcount m i) as Le.
    rewrite nth_error_insert by lia.
    destruct (N.eqb_spec i j) as [->|Hne].
    - rewrite orb_true_r. rewrite (proj2 (N.ltb_ge j j)) by lia.
      rewrite Nat.add_0_r, Nat.ltb_irrefl, Nat.eqb_refl. reflexivity.
    - rewrite orb_false_r. destruct (N.testbit m j) eqn:Hj; [|reflexivity].
      destruct (N.ltb_spec i j) as [Lt|Ge].
      + pose proof (rank_mono m i j). 
        rewrite (proj2 (Nat.ltb_ge _ _)) by lia.
        rewrite (proj2 (Nat.eqb_neq _ _)) by lia.
        f_equal. lia.
      + pose proof (rank_lt_lt m j i Hj). rewrite (proj2 (Nat.ltb_lt _ _)) by lia.
        f_equal. lia.
  Qed.

  Lemma slot_remove m l i j : length l = popcount m -> N.testbit m i = true ->
    slot (N.ldiff m (2 ^ i)) (firstn (rank m i) l ++ skipn (S (rank m i)) l) j =
    (if i =? j then None else slot m l j).
  Proof.
    intros L H. unfold slot. rewrite testbit_ldiff_bit.
    pose proof (rank_lt m i H) as Lt. pose proof (rank_ldiff m i j H) as E.
    rewrite nth_error_remove by lia.
    destruct (N.eqb_spec i j) as [->|Hne].
    - rewrite andb_false_r. reflexivity.
    - rewrite andb_true_r. destruct (N.testbit m j) eqn:Hj; [|reflexivity].
      destruct (N.ltb_spec i j).
      + pose proof (rank_lt_lt m i j H). rewrite (proj2 (Nat.ltb_ge _ _)) by lia.
        f_equal. lia.
      + pose proof (rank_lt_lt m j i Hj). rewrite (proj2 (Nat.ltb_lt _ _)) by lia.
        f_equal. lia.
  Qed.

  Lemma slot_update m l i x j : length l = popcount m -> N.testbit m i = true ->
    slot m (update_at (rank m i) x l) j =
    (if i =? j then Some x else slot m l j).
  Proof.
    intros L H. unfold slot. pose proof (rank_lt m i H) as Lt.
    rewrite nth_error_update by lia.
    destruct (N.eqb_spec i j) as [->|Hne].
    - rewrite H, Nat.eqb_refl. reflexivity.
    - destruct (N.testbit m j) eqn:Hj; [|reflexivity].
      destruct (Nat.eqb_spec (rank m j) (rank m i)) as [E|]; [|reflexivity].
      exfalso. apply Hne. symmetry. apply (rank_inj m); assumption.
  Qed.

  Lemma slot_ext m l l' : length l = popcount m -> length l' = popcount m ->
    (forall i, slot m l i = slot m l' i) -> l = l'.
  Proof.
    intros L L' H. apply nth_error_ext. intros p.
    destruct (lt_dec p (popcount m)) as [Lt|Ge].
    - destruct (rank_surj m p Lt) as (i & Hi & <-).
      specialize (H i). unfold slot in H. rewrite Hi in H. exact H.
    - rewrite (proj2 (nth_error_None l p)) by lia.
      rewrite (proj2 (nth_error_None l' p)) by lia. reflexivity.
  Qed.
End SlotLemmas.
