(** Invariant of the CHAMP tree and correctness of its operations. *)
From Coq Require Import List NArith Arith Lia Bool Permutation ZArith ZifyBool ZifyNat ZifyN.
From Verif Require Import Common Bits BitsSpec BitsProofs Slots Champ ChampSpec.
Import ListNotations.
Local Open Scope N_scope.

(** ** Bridging the code's bit operations to slots *)

Lemma count_below_rank m i : count_below m (N.shiftl 1 i) = rank m i.
Proof.
  unfold count_below, rank. rewrite N.shiftl_1_l, N.sub_1_r, <- N.ones_equiv, N.land_ones.
  reflexivity.
Qed.

Lemma has_testbit m i : has m (N.shiftl 1 i) = N.testbit m i.
Proof.
  unfold has. rewrite N.shiftl_1_l.
  destruct (N.testbit m i) eqn:E.
  - apply negb_true_iff, N.eqb_neq. intros H.
    assert (X : N.testbit (N.land m (2 ^ i)) i = false) by (rewrite H; apply N.bits_0).
    rewrite N.land_spec, E, N.pow2_bits_true in X. discriminate.
  - apply negb_false_iff, N.eqb_eq. apply N.bits_inj. intros j.
    rewrite N.land_spec, N.pow2_bits_eqb, N.bits_0.
    destruct (N.eqb_spec i j) as [->|]; [rewrite E; reflexivity | apply andb_false_r].
Qed.

(** ** Elements *)

Fixpoint elems {T} (n : node T) : list T :=
  match n with
  | Inner _ _ vs cs => vs ++ flat_map elems cs
  | Coll vs => vs
  end.

Lemma flat_map_app' {A C} (f : A -> list C) l l' :
  flat_map f (l ++ l') = flat_map f l ++ flat_map f l'.
Proof. apply flat_map_app. Qed.

Lemma perm_flat_nth {A C} (f : A -> list C) l r x : nth_error l r = Some x ->
  Permutation (flat_map f l) (f x ++ flat_map f (firstn r l ++ skipn (S r) l)).
Proof.
  intros H. rewrite (split_at l r x H) at 1. rewrite !flat_map_app'. simpl.
  rewrite !app_assoc. apply Permutation_app_tail. apply Permutation_app_comm.
Qed.

Lemma perm_flat_update {A C} (f : A -> list C) l r x y : nth_error l r = Some y ->
  Permutation (flat_map f (update_at r x l))
              (f x ++ flat_map f (firstn r l ++ skipn (S r) l)).
Proof.
  intros H. rewrite update_split by (apply (nth_error_lt _ _ _ H)).
  rewrite !flat_map_app'. simpl.
  rewrite !app_assoc. apply Permutation_app_tail. apply Permutation_app_comm.
Qed.

Lemma perm_flat_insert {A C} (f : A -> list C) l r x :
  Permutation (flat_map f (firstn r l ++ x :: skipn r l)) (f x ++ flat_map f l).
Proof.
  rewrite <- (firstn_skipn r l) at 3. rewrite !flat_map_app'. simpl.
  rewrite !app_assoc. apply Permutation_app_tail. apply Permutation_app_comm.
Qed.

Lemma perm_two {A} (X C : list A) u w :
  Permutation (X ++ [u; w] ++ C) (u :: (w :: X) ++ C).
Proof.
  simpl. etransitivity; [symmetry; apply Permutation_middle|]. constructor.
  symmetry. apply Permutation_middle.
Qed.

(** ** find_index *)
Lemma find_index_some {A} (p : A -> bool) l i : find_index p l = Some i ->
  exists x, nth_error l i = Some x /\ p x = true.
Proof.
  revert i. induction l as [|a l IH]; intros i H; simpl in H; [discriminate|].
  destruct (p a) eqn:E.
  - injection H as <-. exists a. auto.
  - destruct (find_index p l) as [j|]; [|discriminate]. injection H as <-.
    destruct (IH j eq_refl) as (x & ? & ?). exists x. auto.
Qed.

Lemma find_index_none {A} (p : A -> bool) l : find_index p l = None ->
  forall x, In x l -> p x = false.
Proof.
  induction l as [|a l IH]; simpl; intros H x Hx; [contradiction|].
  destruct (p a) eqn:E; [discriminate|].
  destruct (find_index p l); [discriminate|].
  destruct Hx as [<-|Hx]; [exact E|auto].
Qed.

(** ** Ordered pairs *)
Lemma FOP_nth {A} (R : A -> A -> Prop) l :
  (forall i j a b, (i < j)%nat -> nth_error l i = Some a -> nth_error l j = Some b -> R a b) ->
  ForallOrdPairs R l.
Proof.
  induction l as [|x l IH]; intros H; constructor.
  - apply Forall_forall. intros y Hy. apply In_nth_error in Hy. destruct Hy as [j Hj].
    apply (H 0%nat (S j)); [lia|reflexivity|exact Hj].
  - apply IH. intros i j a b L Ha Hb. apply (H (S i) (S j)); [lia|exact Ha|exact Hb].
Qed.

Lemma FOP_nth_inv {A} (R : A -> A -> Prop) l : ForallOrdPairs R l ->
  forall i j a b, (i < j)%nat -> nth_error l i = Some a -> nth_error l j = Some b -> R a b.
Proof.
  induction 1 as [|x l Hf H IH]; intros i j a b L Ha Hb; [destruct i; discriminate|].
  destruct j as [|j]; [lia|]. destruct i as [|i]; simpl in *.
  - injection Ha as <-. rewrite Forall_forall in Hf. apply Hf. apply nth_error_In in Hb. exact Hb.
  - apply (IH i j); [lia|assumption|assumption].
Qed.

Lemma FOP_app {A} (R : A -> A -> Prop) l l' :
  ForallOrdPairs R l -> ForallOrdPairs R l' ->
  (forall a b, In a l -> In b l' -> R a b) -> ForallOrdPairs R (l ++ l').
Proof.
  induction 1 as [|x l Hf H IH]; intros H' Hc; simpl; [exact H'|].
  constructor.
  - apply Forall_app. split; [exact Hf|]. apply Forall_forall. intros y Hy. apply Hc; simpl; auto.
  - apply IH; [exact H'|]. intros a b Ha Hb. apply Hc; simpl; auto.
Qed.

Lemma FOP_app_inv {A} (R : A -> A -> Prop) l l' : ForallOrdPairs R (l ++ l') ->
  ForallOrdPairs R l /\ ForallOrdPairs R l' /\ (forall a b, In a l -> In b l' -> R a b).
Proof.
  induction l as [|x l IH]; simpl; intros H.
  - repeat split; [constructor|exact H|contradiction].
  - inversion H as [|? ? Hf H']; subst. apply Forall_app in Hf. destruct Hf as [F1 F2].
    destruct (IH H') as (A1 & A2 & A3). repeat split; [constructor; assumption|assumption|].
    intros a b [<-|Ha] Hb; [|auto]. rewrite Forall_forall in F2. auto.
Qed.

Lemma FOP_perm {A} (R : A -> A -> Prop) l l' : (forall a b, R a b -> R b a) ->
  Permutation l l' -> ForallOrdPairs R l -> ForallOrdPairs R l'.
Proof.
  intros S P. induction P as [|x l l' P IH|x y l|l l' l'' P1 IH1 P2 IH2]; intros H.
  - exact H.
  - inversion H as [|? ? Hf H']; subst. constructor; [|auto].
    rewrite Forall_forall in *. intros z Hz. apply Hf. apply (Permutation_in z (Permutation_sym P) Hz).
  - inversion H as [|? ? Hf H']; subst. inversion H' as [|? ? Hf' H'']; subst.
    inversion Hf; subst. constructor; [constructor; auto|constructor; assumption].
  - auto.
Qed.

Lemma FOP_flat_map {A C} (R : C -> C -> Prop) (f : A -> list C) l :
  (forall x, In x l -> ForallOrdPairs R (f x)) ->
  (forall i j x y, (i < j)%nat -> nth_error l i = Some x -> nth_error l j = Some y ->
     forall a b, In a (f x) -> In b (f y) -> R a b) ->
  ForallOrdPairs R (flat_map f l).
Proof.
  induction l as [|x l IH]; intros H1 H2; simpl; [constructor|].
  apply FOP_app.
  - apply H1. simpl; auto.
  - apply IH.
    + intros y Hy. apply H1. simpl; auto.
    + intros i j y z L Hy Hz. apply (H2 (S i) (S j)); [lia|exact Hy|exact Hz].
  - intros a b Ha Hb. apply in_flat_map in Hb. destruct Hb as (y & Hy & Hb).
    apply In_nth_error in Hy. destruct Hy as [j Hj].
    apply (H2 0%nat (S j) x y); [lia|reflexivity|exact Hj|exact Ha|exact Hb].
Qed.

(* lia without the arithmetic of hashes in the context *)
Ltac nlia :=
  repeat match goal with
  | H : context [N.modulo _ _] |- _ => clear H
  | H : N.lt _ (N.pow _ _) |- _ => clear H
  end; lia.

Section Proofs.
  Variable B : N.
  Context {T K : Type}.
  Variable key : T -> K.
  Variable khash : K -> N.
  Variable keq : K -> K -> bool.
  Hypothesis HB : 1 <= B.
  Hypothesis Hkeys : keys_ok keq khash.

  Notation thash := (thash key khash).
  Notation teqk := (teqk key keq).
  Notation max_depth := (max_depth B).
  Notation max_shift := (max_shift B).
  Notation distinct := (distinct_keys key keq).
  Notation nd := (node T).

  Lemma keq_refl k : keq k k = true.
  Proof. destruct Hkeys as (H & _). apply H. Qed.
  Lemma keq_sym a b : keq a b = true -> keq b a = true.
  Proof. destruct Hkeys as (_ & H & _). apply H. Qed.
  Lemma keq_trans a b c : keq a b = true -> keq b c = true -> keq a c = true.
  Proof. destruct Hkeys as (_ & _ & H & _). apply H. Qed.
  Lemma keq_hash a b : keq a b = true -> khash a = khash b.
  Proof. destruct Hkeys as (_ & _ & _ & H & _). apply H. Qed.
  Lemma khash_lt k : khash k < 2 ^ 64.
  Proof. destruct Hkeys as (_ & _ & _ & _ & H). apply H. Qed.
  Lemma keq_sym_eq a b : keq a b = keq b a.
  Proof.
    destruct (keq a b) eqn:E, (keq b a) eqn:F; try reflexivity.
    - rewrite (keq_sym _ _ E) in F. discriminate.
    - rewrite (keq_sym _ _ F) in E. discriminate.
  Qed.
  Lemma keq_hash_neq a b : khash a <> khash b -> keq a b = false.
  Proof. intros H. destruct (keq a b) eqn:E; [|reflexivity]. apply keq_hash in E. contradiction. Qed.
  (* equal keys are interchangeable *)
  Lemma keq_cong a b c : keq a b = true -> keq a c = keq b c.
  Proof.
    intros H. destruct (keq a c) eqn:E, (keq b c) eqn:F; try reflexivity.
    - rewrite (keq_trans b a c (keq_sym _ _ H) E) in F. discriminate.
    - rewrite (keq_trans a b c H F) in E. discriminate.
  Qed.

  (** ** Hash arithmetic *)
  Definition idx (h s : N) : N := (h / 2 ^ s) mod 2 ^ B.

  Lemma mask_ones : mask B = N.ones B.
  Proof. unfold mask, branches. rewrite N.shiftl_1_l, N.ones_equiv, N.sub_1_r. reflexivity. Qed.

  Lemma hash_idx_spec h s : h < 2 ^ 64 -> hash_idx B h s = idx h s.
  Proof.
    intros H. unfold hash_idx, hash_part, idx. rewrite mask_ones.
    unfold w64. rewrite <- (N.land_ones _ 64), (N.land_comm _ (N.ones 64)), N.land_assoc.
    rewrite N.land_ones, (N.mod_small h) by exact H.
    rewrite N.shiftr_land, N.shiftr_shiftl_l, N.sub_diag, N.shiftl_0_r by lia.
    rewrite N.land_ones, N.shiftr_div_pow2. reflexivity.
  Qed.

  Lemma hash_part_shift h s : hash_idx B h s = N.shiftr (hash_part B h s) s.
  Proof. reflexivity. Qed.

  Lemma hash_part_spec h s : h < 2 ^ 64 -> hash_part B h s = idx h s * 2 ^ s.
  Proof.
    intros H. unfold hash_part, idx. rewrite mask_ones.
    unfold w64. rewrite <- (N.land_ones _ 64), (N.land_comm _ (N.ones 64)), N.land_assoc.
    rewrite N.land_ones, (N.mod_small h) by exact H.
    rewrite <- N.shiftr_div_pow2, <- N.land_ones, <- N.shiftl_mul_pow2.
    apply N.bits_inj. intros j. rewrite N.land_spec.
    destruct (N.lt_ge_cases j s).
    - rewrite !N.shiftl_spec_low by assumption. apply andb_false_r.
    - rewrite !N.shiftl_spec_high' by assumption. rewrite N.land_spec.
      rewrite N.shiftr_spec', N.sub_add by assumption. reflexivity.
  Qed.

  Lemma get_idx h : N.land h (mask B) = h mod 2 ^ B.
  Proof. rewrite mask_ones, N.land_ones. reflexivity. Qed.

  Lemma pow2_pos s : 0 < 2 ^ s.
  Proof. apply N.neq_0_lt_0, N.pow_nonzero. lia. Qed.

  Lemma idx_lt h s : idx h s < 2 ^ B.
  Proof. apply N.mod_lt. pose proof (pow2_pos B). lia. Qed.

  Lemma mod_extend h s : h mod 2 ^ (s + B) = h mod 2 ^ s + idx h s * 2 ^ s.
  Proof.
    unfold idx. rewrite N.pow_add_r, N.mod_mul_r.
    - f_equal. apply N.mul_comm.
    - pose proof (pow2_pos s). lia.
    - pose proof (pow2_pos B). lia.
  Qed.

  Lemma idx_of_mod h s p i : h mod 2 ^ s = p -> h mod 2 ^ (s + B) = p + i * 2 ^ s -> idx h s = i.
  Proof.
    intros H1 H2. rewrite mod_extend, H1 in H2. pose proof (pow2_pos s).
    apply (N.mul_cancel_r _ _ (2 ^ s)); lia.
  Qed.

  Lemma mod_mod_le h s p i : p < 2 ^ s -> h mod 2 ^ (s + B) = p + i * 2 ^ s -> h mod 2 ^ s = p.
  Proof.
    intros H1 H2. rewrite mod_extend in H2. pose proof (pow2_pos s).
    assert (h mod 2 ^ s < 2 ^ s) by (apply N.mod_lt; lia).
    assert (E : (h mod 2 ^ s + idx h s * 2 ^ s) mod 2 ^ s = (p + i * 2 ^ s) mod 2 ^ s)
      by (rewrite H2; reflexivity).
    rewrite !N.mod_add in E by lia. rewrite (N.mod_small (h mod 2 ^ s)), (N.mod_small p) in E by assumption. exact E.
  Qed.

  Lemma prefix_lt s p i : p < 2 ^ s -> i < 2 ^ B -> p + i * 2 ^ s < 2 ^ (s + B).
  Proof. intros H1 H2. rewrite N.pow_add_r. nia. Qed.

  Lemma max_shift_64 : 64 <= max_shift.
  Proof.
    unfold Champ.max_shift, Champ.max_depth. rewrite Nnat.N2Nat.id.
    assert (E : 64 + B - 1 = B * ((64 + B - 1) / B) + (64 + B - 1) mod B) by (apply N.div_mod; lia).
    assert ((64 + B - 1) mod B < B) by (apply N.mod_lt; lia). lia.
  Qed.

  Lemma mod_max h : h < 2 ^ 64 -> h mod 2 ^ max_shift = h.
  Proof.
    intros H. apply N.mod_small. pose proof max_shift_64.
    assert (2 ^ 64 <= 2 ^ max_shift) by (apply N.pow_le_mono_r; lia). lia.
  Qed.

  Lemma thash_lt v : thash v < 2 ^ 64. Proof. apply khash_lt. Qed.

  (** ** The invariant *)
  Fixpoint wf (d : nat) (s p : N) (n : nd) : Prop :=
    match d, n with
    | O, Coll vs =>
      (2 <= length vs)%nat /\ (forall v, In v vs -> thash v mod 2 ^ s = p) /\ distinct vs
    | S d', Inner nm dm vs cs =>
      N.land nm dm = 0 /\ nm < 2 ^ 2 ^ B /\ dm < 2 ^ 2 ^ B /\
      length vs = popcount dm /\ length cs = popcount nm /\
      (forall i v, slot dm vs i = Some v -> thash v mod 2 ^ (s + B) = p + i * 2 ^ s) /\
      (forall i c, slot nm cs i = Some c ->
         wf d' (s + B) (p + i * 2 ^ s) c /\ (2 <= length (elems c))%nat)
    | _, _ => False
    end.

  Definition level (d : nat) (s : N) : Prop := s + N.of_nat d * B = max_shift.

  Lemma level_top : level max_depth 0.
  Proof. unfold level, Champ.max_shift. lia. Qed.

  Lemma level_S d s : level (S d) s -> level d (s + B) /\ (s =? max_shift) = false /\ (s <? max_shift) = true.
  Proof.
    unfold level. intros H. rewrite Nnat.Nat2N.inj_succ in H. repeat split; [lia| |].
    - apply N.eqb_neq. nia.
    - apply N.ltb_lt. nia.
  Qed.

  Lemma level_O s : level 0 s -> s = max_shift.
  Proof. unfold level. simpl. lia. Qed.

  Lemma idx_bit m i : m < 2 ^ 2 ^ B -> N.testbit m i = true -> i < 2 ^ B.
  Proof.
    intros H Hi. destruct (N.lt_ge_cases i (2 ^ B)) as [|G]; [assumption|].
    rewrite (bits_lt_pow2 m _ i H G) in Hi. discriminate.
  Qed.

  Lemma disjoint_bits nm dm i : N.land nm dm = 0 -> N.testbit nm i = true -> N.testbit dm i = false.
  Proof.
    intros H Hi. assert (X : N.testbit (N.land nm dm) i = false) by (rewrite H; apply N.bits_0).
    rewrite N.land_spec, Hi in X. exact X.
  Qed.

  Lemma disjoint_of_bits nm dm :
    (forall i, N.testbit nm i = true -> N.testbit dm i = false) -> N.land nm dm = 0.
  Proof.
    intros H. apply N.bits_inj. intros i. rewrite N.land_spec, N.bits_0.
    destruct (N.testbit nm i) eqn:E; [apply H; exact E|reflexivity].
  Qed.

  Lemma elems_slot nm dm (vs : list T) (cs : list nd) (v : T) : length vs = popcount dm -> length cs = popcount nm ->
    (In v (elems (Inner nm dm vs cs)) <->
     (exists i, slot dm vs i = Some v) \/
     (exists i c, slot nm cs i = Some c /\ In v (elems c))).
  Proof.
    intros L1 L2. simpl. rewrite in_app_iff, in_flat_map, (slot_in dm) by exact L1.
    split.
    - intros [H|(c & Hc & Hv)]; [auto|]. right.
      apply (slot_in nm) in Hc; [|exact L2]. destruct Hc as [i Hi]. exists i, c. auto.
    - intros [H|(i & c & Hc & Hv)]; [auto|]. right. exists c. split; [|exact Hv].
      apply (slot_in nm); [exact L2|]. exists i. exact Hc.
  Qed.

  Lemma wf_hash d s p n : p < 2 ^ s -> wf d s p n ->
    forall v, In v (elems n) -> thash v mod 2 ^ s = p.
  Proof.
    revert s p n. induction d as [|d IH]; intros s p n Hp W v Hv; destruct n as [nm dm vs cs|vs];
      simpl in W; try contradiction.
    - destruct W as (_ & H & _). apply H. exact Hv.
    - destruct W as (_ & Hnm & Hdm & L1 & L2 & HV & HC).
      apply elems_slot in Hv; [|assumption|assumption].
      destruct Hv as [(i & Hi)|(i & c & Hi & Hv)].
      + apply (mod_mod_le _ s p i Hp). apply HV. exact Hi.
      + apply (mod_mod_le _ s p i Hp). destruct (HC i c Hi) as [W _].
        apply (IH (s + B) _ c); [|exact W|exact Hv].
        apply prefix_lt; [exact Hp|]. apply slot_nth in Hi. destruct Hi as [Hi _].
        apply (idx_bit nm); assumption.
  Qed.

  Lemma wf_child d s p nm dm vs cs i c :
    p < 2 ^ s -> wf (S d) s p (Inner nm dm vs cs) -> slot nm cs i = Some c ->
    wf d (s + B) (p + i * 2 ^ s) c /\ p + i * 2 ^ s < 2 ^ (s + B) /\ (2 <= length (elems c))%nat.
  Proof.
    intros Hp (_ & Hnm & _ & _ & _ & _ & HC) Hi.
    destruct (HC i c Hi) as [W L]. repeat split; [exact W| |exact L].
    apply prefix_lt; [exact Hp|]. apply slot_nth in Hi. destruct Hi as [Hi _].
    apply (idx_bit nm); assumption.
  Qed.

  (* The slot an element lives in is the one its hash says. *)
  Lemma elem_slot_idx d s p nm dm vs cs v :
    p < 2 ^ s -> wf (S d) s p (Inner nm dm vs cs) -> In v (elems (Inner nm dm vs cs)) ->
    slot dm vs (idx (thash v) s) = Some v \/
    exists c, slot nm cs (idx (thash v) s) = Some c /\ In v (elems c).
  Proof.
    intros Hp W Hv. pose proof (wf_hash _ _ _ _ Hp W v Hv) as Hh.
    pose proof W as (_ & Hnm & Hdm & L1 & L2 & HV & HC).
    apply elems_slot in Hv; [|assumption|assumption].
    destruct Hv as [(i & Hi)|(i & c & Hi & Hv)].
    - left. rewrite (idx_of_mod _ s p i Hh); [exact Hi|]. apply HV. exact Hi.
    - right. exists c. destruct (wf_child _ _ _ _ _ _ _ _ _ Hp W Hi) as (Wc & Hpc & _).
      rewrite (idx_of_mod _ s p i Hh); [auto|]. apply (wf_hash _ _ _ _ Hpc Wc v Hv).
  Qed.

  Lemma wf_distinct d s p n : p < 2 ^ s -> wf d s p n -> distinct (elems n).
  Proof.
    revert s p n. induction d as [|d IH]; intros s p n Hp W; destruct n as [nm dm vs cs|vs];
      try (simpl in W; contradiction).
    - simpl in W. destruct W as (_ & _ & H). exact H.
    - pose proof W as (Hdisj & Hnm & Hdm & L1 & L2 & HV & HC).
      assert (HS : forall i v, slot dm vs i = Some v -> idx (thash v) s = i).
      { intros i v Hi. apply (idx_of_mod _ s p); [|apply HV; exact Hi].
        apply (wf_hash _ _ _ _ Hp W). apply elems_slot; [assumption|assumption|].
        left. exists i. exact Hi. }
      assert (HSC : forall i c v, slot nm cs i = Some c -> In v (elems c) -> idx (thash v) s = i).
      { intros i c v Hi Hv. destruct (wf_child _ _ _ _ _ _ _ _ _ Hp W Hi) as (Wc & Hpc & _).
        apply (idx_of_mod _ s p); [|apply (wf_hash _ _ _ _ Hpc Wc v Hv)].
        apply (wf_hash _ _ _ _ Hp W). apply elems_slot; [assumption|assumption|].
        right. exists i, c. auto. }
      assert (Hne : forall a b, idx (thash a) s <> idx (thash b) s -> keq (key a) (key b) = false).
      { intros a b H. apply keq_hash_neq. intros E. apply H. unfold Champ.thash. rewrite E. reflexivity. }
      simpl. apply FOP_app.
      + apply FOP_nth. intros i j a b L Ha Hb. apply Hne.
        pose proof (nth_error_lt _ _ _ Ha) as La. pose proof (nth_error_lt _ _ _ Hb) as Lb.
        rewrite L1 in La, Lb.
        destruct (rank_surj dm i La) as (i' & Ti & Ri). destruct (rank_surj dm j Lb) as (j' & Tj & Rj).
        rewrite (HS i' a), (HS j' b).
        * intros ->. lia.
        * unfold slot. rewrite Tj, Rj. exact Hb.
        * unfold slot. rewrite Ti, Ri. exact Ha.
      + apply FOP_flat_map.
        * intros c Hc. apply (slot_in nm) in Hc; [|exact L2]. destruct Hc as [i Hi].
          destruct (wf_child _ _ _ _ _ _ _ _ _ Hp W Hi) as (Wc & Hpc & _).
          apply (IH _ _ _ Hpc Wc).
        * intros i j x y L Hx Hy a b Ha Hb. apply Hne.
          pose proof (nth_error_lt _ _ _ Hx) as La. pose proof (nth_error_lt _ _ _ Hy) as Lb.
          rewrite L2 in La, Lb.
          destruct (rank_surj nm i La) as (i' & Ti & Ri). destruct (rank_surj nm j Lb) as (j' & Tj & Rj).
          rewrite (HSC i' x a), (HSC j' y b).
          -- intros ->. lia.
          -- unfold slot. rewrite Tj, Rj. exact Hy.
          -- exact Hb.
          -- unfold slot. rewrite Ti, Ri. exact Hx.
          -- exact Ha.
      + intros a b Ha Hb. apply Hne.
        apply (slot_in dm) in Ha; [|exact L1]. destruct Ha as [i Hi].
        apply in_flat_map in Hb. destruct Hb as (c & Hc & Hb).
        apply (slot_in nm) in Hc; [|exact L2]. destruct Hc as [j Hj].
        rewrite (HS i a Hi), (HSC j c b Hj Hb). intros ->.
        apply slot_nth in Hi. apply slot_nth in Hj. destruct Hi as [Hi _], Hj as [Hj _].
        rewrite (disjoint_bits nm dm j Hdisj Hj) in Hi. discriminate.
  Qed.

  (** ** Lookup *)
  Definition lookup_ok (l : list T) (k : K) (r : option T) : Prop :=
    match r with
    | Some v => In v l /\ teqk v k = true
    | None => forall v, In v l -> teqk v k = false
    end.

  Lemma find_lookup l k : lookup_ok l k (find (fun v => teqk v k) l).
  Proof.
    destruct (find (fun v => teqk v k) l) as [v|] eqn:E; simpl.
    - apply find_some in E. exact E.
    - intros v Hv. apply (find_none _ _ E v Hv).
  Qed.

  Lemma get_loop_ok d s p n k :
    level d s -> p < 2 ^ s -> wf d s p n -> khash k mod 2 ^ s = p ->
    exists r, get_loop B key keq d n (N.shiftr (khash k) s) k = Ok r /\ lookup_ok (elems n) k r.
  Proof.
    revert s p n. induction d as [|d IH]; intros s p n Hl Hp W Hk; destruct n as [nm dm vs cs|vs];
      try (simpl in W; contradiction).
    - simpl. eexists. split; [reflexivity|]. apply find_lookup.
    - pose proof W as (Hdisj & Hnm & Hdm & L1 & L2 & HV & HC).
      cbn [get_loop]. rewrite get_idx, !has_testbit, !count_below_rank.
      rewrite N.shiftr_div_pow2. fold (idx (khash k) s).
      assert (Hmatch : forall v, teqk v k = true -> In v (elems (Inner nm dm vs cs)) ->
                 slot dm vs (idx (khash k) s) = Some v \/
                 exists c, slot nm cs (idx (khash k) s) = Some c /\ In v (elems c)).
      { intros v E Hv. apply keq_hash in E. rewrite <- E.
        apply (elem_slot_idx _ _ _ _ _ _ _ _ Hp W Hv). }
      destruct (N.testbit nm (idx (khash k) s)) eqn:En.
      + destruct (slot_set nm cs _ L2 En) as (c & Hc & Hn).
        unfold rnth. rewrite Hn. cbn [rbind].
        destruct (wf_child _ _ _ _ _ _ _ _ _ Hp W Hc) as (Wc & Hpc & _).
        destruct (level_S _ _ Hl) as (Hl' & _).
        destruct (IH (s + B) _ c Hl' Hpc Wc) as (r & Hr & Ho).
        { rewrite mod_extend, Hk. reflexivity. }
        exists r. rewrite <- N.shiftr_div_pow2, N.shiftr_shiftr. split; [exact Hr|].
        destruct r as [v|]; simpl in Ho |- *.
        * destruct Ho as [Hv E]. split; [|exact E].
          apply (elems_slot nm dm vs cs v L1 L2). right. eauto.
        * intros v Hv. destruct (teqk v k) eqn:E; [|reflexivity].
          destruct (Hmatch v E Hv) as [Hs|(c' & Hs & Hv')].
          -- apply slot_nth in Hs. rewrite (disjoint_bits nm dm _ Hdisj En) in Hs.
             destruct Hs; discriminate.
          -- rewrite Hc in Hs. injection Hs as <-. rewrite (Ho v Hv') in E. discriminate.
      + destruct (N.testbit dm (idx (khash k) s)) eqn:Ed.
        * destruct (slot_set dm vs _ L1 Ed) as (w & Hw & Hn).
          unfold rnth. rewrite Hn. cbn [rbind]. eexists. split; [reflexivity|].
          destruct (teqk w k) eqn:E.
          -- split; [|exact E]. apply (elems_slot nm dm vs cs w L1 L2). left. eauto.
          -- intros v Hv. destruct (teqk v k) eqn:E'; [|reflexivity].
             destruct (Hmatch v E' Hv) as [Hs|(c' & Hs & Hv')].
             ++ rewrite Hw in Hs. injection Hs as <-. rewrite E in E'. discriminate.
             ++ apply slot_nth in Hs. destruct Hs; congruence.
        * eexists. split; [reflexivity|].
          intros v Hv. destruct (teqk v k) eqn:E'; [|reflexivity].
          destruct (Hmatch v E' Hv) as [Hs|(c' & Hs & Hv')];
            apply slot_nth in Hs; destruct Hs; congruence.
  Qed.
  (** ** Node surgery preserves the invariant *)
  Lemma wf_empty d s p : wf (S d) s p empty_node.
  Proof.
    cbn [wf empty_node]. split; [|split; [|split; [|split; [|split; [|split]]]]];
      try reflexivity; try apply pow2_pos;
      intros i c; unfold slot; rewrite N.bits_0; discriminate.
  Qed.

  Lemma wf_insert_value d s p nm dm vs cs i v :
    wf (S d) s p (Inner nm dm vs cs) -> i < 2 ^ B ->
    N.testbit nm i = false -> N.testbit dm i = false ->
    thash v mod 2 ^ (s + B) = p + i * 2 ^ s ->
    wf (S d) s p (Inner nm (N.lor dm (2 ^ i)) (firstn (rank dm i) vs ++ v :: skipn (rank dm i) vs) cs).
  Proof.
    intros (Hdisj & Hnm & Hdm & L1 & L2 & HV & HC) Hi Hn Hd Hv.
    pose proof (rank_le_popcount dm i). cbn [wf]. repeat split.
    - apply disjoint_of_bits. intros j Hj. rewrite testbit_lor_bit.
      rewrite (disjoint_bits nm dm j Hdisj Hj). destruct (N.eqb_spec i j); [congruence|reflexivity].
    - exact Hnm.
    - apply lor_bit_lt; assumption.
    - rewrite length_insert, popcount_lor_bit by (assumption || lia). lia.
    - exact L2.
    - intros j w Hj. rewrite slot_insert in Hj by assumption.
      destruct (N.eqb_spec i j) as [<-|]; [injection Hj as <-; exact Hv|apply HV; exact Hj].
    - apply (HC _ _ H0).
    - apply (HC _ _ H0).
  Qed.

  Lemma wf_replace_value d s p nm dm vs cs i v :
    wf (S d) s p (Inner nm dm vs cs) -> N.testbit dm i = true ->
    thash v mod 2 ^ (s + B) = p + i * 2 ^ s ->
    wf (S d) s p (Inner nm dm (update_at (rank dm i) v vs) cs).
  Proof.
    intros (Hdisj & Hnm & Hdm & L1 & L2 & HV & HC) Hd Hv.
    cbn [wf]. repeat split; try assumption.
    - rewrite length_update_at. exact L1.
    - intros j w Hj. rewrite slot_update in Hj by assumption.
      destruct (N.eqb_spec i j) as [<-|]; [injection Hj as <-; exact Hv|apply HV; exact Hj].
    - apply (HC _ _ H).
    - apply (HC _ _ H).
  Qed.

  Lemma wf_remove_value d s p nm dm vs cs i :
    wf (S d) s p (Inner nm dm vs cs) -> N.testbit dm i = true ->
    wf (S d) s p (Inner nm (N.ldiff dm (2 ^ i))
                        (firstn (rank dm i) vs ++ skipn (S (rank dm i)) vs) cs).
  Proof.
    intros (Hdisj & Hnm & Hdm & L1 & L2 & HV & HC) Hd.
    pose proof (rank_lt dm i Hd).
    cbn [wf]. repeat split; try assumption.
    - apply disjoint_of_bits. intros j Hj. rewrite testbit_ldiff_bit.
      rewrite (disjoint_bits nm dm j Hdisj Hj). reflexivity.
    - apply ldiff_bit_lt. exact Hdm.
    - pose proof (length_remove vs (rank dm i)). pose proof (popcount_ldiff_bit dm i Hd). lia.
    - intros j w Hj. rewrite slot_remove in Hj by assumption.
      destruct (N.eqb_spec i j) as [<-|]; [discriminate|apply HV; exact Hj].
    - apply (HC _ _ H0).
    - apply (HC _ _ H0).
  Qed.

  Lemma wf_replace_child d s p nm dm vs cs i c :
    wf (S d) s p (Inner nm dm vs cs) -> N.testbit nm i = true ->
    wf d (s + B) (p + i * 2 ^ s) c -> (2 <= length (elems c))%nat ->
    wf (S d) s p (Inner nm dm vs (update_at (rank nm i) c cs)).
  Proof.
    intros (Hdisj & Hnm & Hdm & L1 & L2 & HV & HC) Hd Wc Lc.
    cbn [wf]. split; [|split; [|split; [|split; [|split; [|split]]]]]; try assumption.
    - rewrite length_update_at. exact L2.
    - intros j w Hj. rewrite slot_update in Hj by assumption.
      destruct (N.eqb_spec i j) as [<-|]; [injection Hj as <-; auto|apply HC; exact Hj].
  Qed.

  Lemma wf_merged d s p nm dm vs cs i c :
    wf (S d) s p (Inner nm dm vs cs) -> N.testbit dm i = true ->
    wf d (s + B) (p + i * 2 ^ s) c -> (2 <= length (elems c))%nat ->
    wf (S d) s p (Inner (N.lor nm (2 ^ i)) (N.ldiff dm (2 ^ i))
                        (firstn (rank dm i) vs ++ skipn (S (rank dm i)) vs)
                        (firstn (rank nm i) cs ++ c :: skipn (rank nm i) cs)).
  Proof.
    intros W Hd Wc Lc. pose proof W as (Hdisj & Hnm & Hdm & L1 & L2 & HV & HC).
    assert (Hi : i < 2 ^ B) by (apply (idx_bit dm); assumption).
    assert (Hn : N.testbit nm i = false).
    { apply (disjoint_bits dm nm); [rewrite N.land_comm; exact Hdisj|exact Hd]. }
    pose proof (rank_lt dm i Hd). pose proof (rank_le_popcount nm i).
    cbn [wf]. split; [|split; [|split; [|split; [|split; [|split]]]]].
    - apply disjoint_of_bits. intros j. rewrite testbit_lor_bit, testbit_ldiff_bit.
      destruct (N.eqb_spec i j) as [<-|].
      + intros _. apply andb_false_r.
      + rewrite orb_false_r. intros Hj. rewrite (disjoint_bits nm dm j Hdisj Hj). reflexivity.
    - apply lor_bit_lt; assumption.
    - apply ldiff_bit_lt. exact Hdm.
    - pose proof (length_remove vs (rank dm i)). pose proof (popcount_ldiff_bit dm i Hd). lia.
    - rewrite length_insert, popcount_lor_bit by (assumption || lia). lia.
    - intros j w Hj. rewrite slot_remove in Hj by assumption.
      destruct (N.eqb_spec i j) as [<-|]; [discriminate|apply HV; exact Hj].
    - intros j w Hj. rewrite slot_insert in Hj by assumption.
      destruct (N.eqb_spec i j) as [<-|]; [injection Hj as <-; auto|apply HC; exact Hj].
  Qed.

  Lemma wf_inline d s p nm dm vs cs i v :
    wf (S d) s p (Inner nm dm vs cs) -> N.testbit nm i = true ->
    thash v mod 2 ^ (s + B) = p + i * 2 ^ s ->
    wf (S d) s p (Inner (N.ldiff nm (2 ^ i)) (N.lor dm (2 ^ i))
                        (firstn (rank dm i) vs ++ v :: skipn (rank dm i) vs)
                        (firstn (rank nm i) cs ++ skipn (S (rank nm i)) cs)).
  Proof.
    intros W Hn Hv. pose proof W as (Hdisj & Hnm & Hdm & L1 & L2 & HV & HC).
    assert (Hi : i < 2 ^ B) by (apply (idx_bit nm); assumption).
    assert (Hd : N.testbit dm i = false) by (apply (disjoint_bits nm dm); assumption).
    pose proof (rank_lt nm i Hn). pose proof (rank_le_popcount dm i).
    cbn [wf]. split; [|split; [|split; [|split; [|split; [|split]]]]].
    - apply disjoint_of_bits. intros j. rewrite testbit_lor_bit, testbit_ldiff_bit.
      destruct (N.eqb_spec i j) as [<-|].
      + rewrite andb_false_r. discriminate.
      + rewrite orb_false_r, andb_true_r. intros Hj. apply (disjoint_bits nm dm j Hdisj Hj).
    - apply ldiff_bit_lt. exact Hnm.
    - apply lor_bit_lt; assumption.
    - rewrite length_insert, popcount_lor_bit by (assumption || lia). lia.
    - pose proof (length_remove cs (rank nm i)). pose proof (popcount_ldiff_bit nm i Hn). lia.
    - intros j w Hj. rewrite slot_insert in Hj by assumption.
      destruct (N.eqb_spec i j) as [<-|]; [injection Hj as <-; exact Hv|apply HV; exact Hj].
    - intros j w Hj. rewrite slot_remove in Hj by assumption.
      destruct (N.eqb_spec i j) as [<-|]; [discriminate|apply HC; exact Hj].
  Qed.

  (** ** make_merged *)
  Lemma rank_0_l i : rank 0 i = 0%nat.
  Proof. unfold rank. rewrite N.mod_0_l; [reflexivity|]. pose proof (pow2_pos i). lia. Qed.

  Lemma wf_one_value d s p i v : i < 2 ^ B -> thash v mod 2 ^ (s + B) = p + i * 2 ^ s ->
    wf (S d) s p (Inner 0 (2 ^ i) [v] []).
  Proof.
    intros Hi Hv.
    pose proof (wf_insert_value d s p 0 0 [] [] i v (wf_empty d s p) Hi (N.bits_0 i) (N.bits_0 i) Hv) as H.
    rewrite N.lor_0_l, rank_0_l in H. exact H.
  Qed.

  Lemma wf_two_values d s p i1 v1 i2 v2 : i1 <> i2 -> i1 < 2 ^ B -> i2 < 2 ^ B ->
    thash v1 mod 2 ^ (s + B) = p + i1 * 2 ^ s -> thash v2 mod 2 ^ (s + B) = p + i2 * 2 ^ s ->
    wf (S d) s p (make_inner_two i1 v1 i2 v2).
  Proof.
    intros Hne H1 H2 E1 E2. unfold make_inner_two. rewrite !N.shiftl_1_l.
    assert (R : forall a b, rank (2 ^ a) b = (if (a <? b)%N then 1 else 0)%nat).
    { intros a b. rewrite <- (N.lor_0_l (2 ^ a)), rank_lor by apply N.bits_0.
      rewrite rank_0_l. reflexivity. }
    assert (Bt : forall a b, a <> b -> N.testbit (2 ^ a) b = false).
    { intros a b Hab. rewrite N.pow2_bits_eqb. apply N.eqb_neq. exact Hab. }
    destruct (N.ltb_spec i1 i2) as [L|L].
    - pose proof (wf_insert_value d s p 0 (2 ^ i1) [v1] [] i2 v2 (wf_one_value d s p i1 v1 H1 E1)
                    H2 (N.bits_0 _) (Bt _ _ Hne) E2) as W.
      rewrite R in W. rewrite (proj2 (N.ltb_lt i1 i2) L) in W. exact W.
    - assert (L' : i2 < i1) by lia.
      pose proof (wf_insert_value d s p 0 (2 ^ i2) [v2] [] i1 v1 (wf_one_value d s p i2 v2 H2 E2)
                    H1 (N.bits_0 _) (Bt _ _ (not_eq_sym Hne)) E1) as W.
      rewrite R in W. rewrite (proj2 (N.ltb_lt i2 i1) L') in W. rewrite N.lor_comm. exact W.
  Qed.

  Lemma wf_one_child d s p i c : i < 2 ^ B -> wf d (s + B) (p + i * 2 ^ s) c ->
    (2 <= length (elems c))%nat -> wf (S d) s p (make_inner_child i c).
  Proof.
    intros Hi Wc Lc. unfold make_inner_child. rewrite N.shiftl_1_l. cbn [wf].
    split; [|split; [|split; [|split; [|split; [|split]]]]].
    - apply N.land_0_r.
    - rewrite <- (N.lor_0_l (2 ^ i)). apply lor_bit_lt; [apply pow2_pos|exact Hi].
    - apply pow2_pos.
    - reflexivity.
    - rewrite <- (N.lor_0_l (2 ^ i)), popcount_lor_bit by apply N.bits_0. reflexivity.
    - intros j w. unfold slot. rewrite N.bits_0. discriminate.
    - intros j w Hj. pose proof (slot_insert 0 (@nil nd) i c j eq_refl (N.bits_0 i)) as E.
      rewrite N.lor_0_l, rank_0_l in E. simpl in E. rewrite E in Hj.
      destruct (N.eqb_spec i j) as [<-|]; [injection Hj as <-; auto|].
      unfold slot in Hj. rewrite N.bits_0 in Hj. discriminate.
  Qed.

  Lemma make_merged_ok f d s p v1 v2 :
    (d <= f)%nat -> level d s -> p < 2 ^ s -> keq (key v1) (key v2) = false ->
    thash v1 mod 2 ^ s = p -> thash v2 mod 2 ^ s = p ->
    exists n, make_merged B f s v1 (thash v1) v2 (thash v2) = Ok n /\
              wf d s p n /\ Permutation (elems n) [v1; v2].
  Proof.
    revert d s p. induction f as [|f IH]; intros d s p Hf Hl Hp Hne E1 E2.
    - assert (d = 0%nat) by lia. subst d. pose proof (level_O _ Hl). subst s.
      simpl. rewrite N.ltb_irrefl. eexists. split; [reflexivity|].
      split; [|reflexivity]. split; [simpl; lia|]. split.
      + intros v [<-|[<-|[]]]; assumption.
      + repeat constructor. exact Hne.
    - destruct d as [|d].
      + pose proof (level_O _ Hl). subst s.
        simpl. rewrite N.ltb_irrefl. eexists. split; [reflexivity|].
        split; [|reflexivity]. split; [simpl; lia|]. split.
        * intros v [<-|[<-|[]]]; assumption.
        * repeat constructor. exact Hne.
      + destruct (level_S _ _ Hl) as (Hl' & _ & Hlt).
        cbn [make_merged]. rewrite Hlt.
        rewrite <- !hash_part_shift, !hash_idx_spec, !hash_part_spec by apply thash_lt.
        assert (H1 : thash v1 mod 2 ^ (s + B) = p + idx (thash v1) s * 2 ^ s)
          by (rewrite mod_extend, E1; reflexivity).
        assert (H2 : thash v2 mod 2 ^ (s + B) = p + idx (thash v2) s * 2 ^ s)
          by (rewrite mod_extend, E2; reflexivity).
        pose proof (idx_lt (thash v1) s) as I1. pose proof (idx_lt (thash v2) s) as I2.
        destruct (N.eqb_spec (idx (thash v1) s * 2 ^ s) (idx (thash v2) s * 2 ^ s)) as [E|E].
        * assert (E' : idx (thash v1) s = idx (thash v2) s).
          { pose proof (pow2_pos s). apply (N.mul_cancel_r _ _ (2 ^ s)); [lia|exact E]. }
          destruct (IH d (s + B) (p + idx (thash v1) s * 2 ^ s)) as (m & Hm & Wm & Pm);
            [lia|exact Hl'|apply prefix_lt; assumption|exact Hne|exact H1|rewrite E'; exact H2|].
          rewrite Hm. cbn [rbind]. eexists. split; [reflexivity|]. split.
          -- apply wf_one_child; [exact I1|exact Wm|]. rewrite (Permutation_length Pm). simpl; lia.
          -- simpl. rewrite app_nil_r. exact Pm.
        * eexists. split; [reflexivity|]. split.
          -- apply wf_two_values; try assumption. intros X. apply E. rewrite X. reflexivity.
          -- unfold make_inner_two. simpl. rewrite app_nil_r.
             destruct (idx (thash v1) s <? idx (thash v2) s); [reflexivity|apply perm_swap].
  Qed.

  (** ** Insertion and update *)
  Section Update.
    Context {V : Type}.
    Variable project : T -> V.
    Variable combine : K -> V -> T.
    Variable k : K.
    Hypothesis Hcomb : forall x, keq (key (combine k x)) k = true.

    Notation do_update := (do_update B key khash keq project combine).

    Lemma comb_hash x : thash (combine k x) = khash k.
    Proof. unfold Champ.thash. apply keq_hash. apply Hcomb. Qed.

    (* w is replaced by u, or u is added *)
    Definition update_rel (l l' : list T) (fn : V -> V) (dflt : V) (added : bool) : Prop :=
      if added then
        (forall w, In w l -> teqk w k = false) /\ Permutation l' (combine k (fn dflt) :: l)
      else exists w r, teqk w k = true /\ Permutation l (w :: r) /\
                       Permutation l' (combine k (fn (project w)) :: r).

    Lemma distinct_sym a b : keq (key a) (key b) = false -> keq (key b) (key a) = false.
    Proof. rewrite keq_sym_eq. auto. Qed.

    Lemma distinct_perm l l' : Permutation l l' -> distinct l -> distinct l'.
    Proof. apply FOP_perm. exact distinct_sym. Qed.

    (* replacing an element by one with an equal key keeps keys distinct *)
    Lemma distinct_replace w x r : teqk w k = true -> distinct (w :: r) -> distinct (combine k x :: r).
    Proof.
      intros E H. inversion H as [|? ? Hf H']; subst. constructor; [|exact H'].
      rewrite Forall_forall in *. intros y Hy. specialize (Hf y Hy).
      rewrite <- Hf. apply keq_cong. apply (keq_trans _ k); [apply Hcomb|apply keq_sym; exact E].
    Qed.

    Lemma coll_update_ok d s p vs fn dflt :
      wf d s p (Coll vs) -> khash k mod 2 ^ s = p ->
      exists n' added,
        match find_index (fun w => teqk w k) vs with
        | Some pos =>
          w <- rnth vs pos ;;
          Ok (copy_collision_replace vs pos (combine k (fn (project w))), false)
        | None => Ok (copy_collision_insert vs (combine k (fn dflt)), true)
        end = Ok (n', added) /\
        wf d s p n' /\ update_rel vs (elems n') fn dflt added.
    Proof.
      intros W Hk. destruct d as [|d]; [|simpl in W; contradiction].
      destruct W as (L & HV & HD).
      destruct (find_index (fun w => teqk w k) vs) as [pos|] eqn:E.
      - destruct (find_index_some _ _ _ E) as (w & Hw & Ew).
        unfold rnth. rewrite Hw. cbn [rbind]. eexists _, _. split; [reflexivity|].
        pose proof (perm_remove _ _ _ Hw) as P.
        pose proof (distinct_perm _ _ P HD) as HD'.
        unfold copy_collision_replace. split; [|exists w; eexists; split; [exact Ew|]; split; [exact P|reflexivity]].
        cbn [wf]. split; [|split].
        + rewrite (Permutation_length P) in L. exact L.
        + intros v [<-|Hv]; [rewrite comb_hash; exact Hk|].
          apply HV. apply (Permutation_in _ (Permutation_sym P)). right. exact Hv.
        + apply (distinct_replace w); assumption.
      - pose proof (find_index_none _ _ E) as Hn.
        eexists _, _. split; [reflexivity|]. unfold copy_collision_insert.
        split; [|split; [exact Hn|reflexivity]].
        cbn [wf]. split; [|split].
        + simpl. lia.
        + intros v [<-|Hv]; [rewrite comb_hash; exact Hk|apply HV; exact Hv].
        + constructor; [|exact HD]. apply Forall_forall. intros y Hy.
          specialize (Hn y Hy). simpl in Hn. rewrite (keq_cong _ k _ (Hcomb _)).
          rewrite keq_sym_eq. exact Hn.
    Qed.

    Lemma update_rel_child l l' fn dflt added a rest x y :
      update_rel l l' fn dflt added ->
      (added = true -> forall w, In w a \/ In w rest -> teqk w k = false) ->
      Permutation x (a ++ l ++ rest) -> Permutation y (a ++ l' ++ rest) ->
      update_rel x y fn dflt added.
    Proof.
      unfold update_rel. intros H Ha Px Py. destruct added.
      - destruct H as [Hn P]. split.
        + intros w Hw. apply (Permutation_in _ Px) in Hw.
          rewrite !in_app_iff in Hw. destruct Hw as [Hw|[Hw|Hw]]; auto.
        + rewrite Py, Px. rewrite P. simpl. symmetry. apply Permutation_middle.
      - destruct H as (w & r & E & P & P'). exists w, (a ++ r ++ rest). split; [exact E|].
        split.
        + rewrite Px, P. simpl. symmetry. apply Permutation_middle.
        + rewrite Py, P'. simpl. symmetry. apply Permutation_middle.
    Qed.

    Lemma update_rel_length l l' fn dflt added :
      update_rel l l' fn dflt added -> (length l <= length l')%nat.
    Proof.
      unfold update_rel. destruct added.
      - intros (_ & P). rewrite (Permutation_length P). simpl. lia.
      - intros (w & r & _ & P & P'). rewrite (Permutation_length P), (Permutation_length P'). reflexivity.
    Qed.

    (* elements outside the slot of k do not match k *)
    Lemma no_match d s p nm dm vs cs w :
      p < 2 ^ s -> wf (S d) s p (Inner nm dm vs cs) -> In w (elems (Inner nm dm vs cs)) ->
      teqk w k = true ->
      slot dm vs (idx (khash k) s) = Some w \/
      exists c, slot nm cs (idx (khash k) s) = Some c /\ In w (elems c).
    Proof.
      intros Hp W Hw E. apply keq_hash in E. rewrite <- E.
      apply (elem_slot_idx _ _ _ _ _ _ _ _ Hp W Hw).
    Qed.

    Lemma do_update_ok f d s p n fn dflt :
      (d <= f)%nat -> level d s -> p < 2 ^ s -> wf d s p n -> khash k mod 2 ^ s = p ->
      exists n' added, do_update f n k fn dflt (khash k) s = Ok (n', added) /\
        wf d s p n' /\ update_rel (elems n) (elems n') fn dflt added.
    Proof.
      revert d s p n. induction f as [|f IH]; intros d s p n Hf Hl Hp W Hk.
      - assert (d = 0%nat) by lia. subst d. pose proof (level_O _ Hl). subst s.
        destruct n as [nm dm vs cs|vs]; try (simpl in W; contradiction).
        cbn [Champ.do_update]. rewrite N.eqb_refl.
        apply (coll_update_ok 0 max_shift p); assumption.
      - destruct d as [|d].
        + pose proof (level_O _ Hl). subst s.
          destruct n as [nm dm vs cs|vs]; try (simpl in W; contradiction).
          cbn [Champ.do_update]. rewrite N.eqb_refl.
          apply (coll_update_ok 0 max_shift p); assumption.
        + destruct n as [nm dm vs cs|vs]; try (simpl in W; contradiction).
          destruct (level_S _ _ Hl) as (Hl' & Hneq & _).
          cbn [Champ.do_update]. rewrite Hneq.
          rewrite hash_idx_spec by apply khash_lt.
          rewrite !has_testbit, !count_below_rank.
          pose proof W as (Hdisj & Hnm & Hdm & L1 & L2 & HV & HC).
          pose proof (no_match d s p nm dm vs cs) as NM.
          pose proof (idx_lt (khash k) s) as Hi.
          assert (Hk' : khash k mod 2 ^ (s + B) = p + idx (khash k) s * 2 ^ s)
            by (rewrite mod_extend, Hk; reflexivity).
          assert (Hc' : forall x, thash (combine k x) mod 2 ^ (s + B) = p + idx (khash k) s * 2 ^ s)
            by (intros x; rewrite comb_hash; exact Hk').
          remember (idx (khash k) s) as i eqn:Ei.
          destruct (N.testbit nm i) eqn:En.
          * destruct (slot_set nm cs i L2 En) as (c & Hc & Hn).
            unfold rnth. rewrite Hn. cbn [rbind].
            destruct (wf_child _ _ _ _ _ _ _ _ _ Hp W Hc) as (Wc & Hpc & Lc).
            destruct (IH d (s + B) (p + i * 2 ^ s) c) as (c' & added & Hr & Wc' & Hrel);
              [lia|assumption..|].
            rewrite Hr. cbn [rbind]. eexists _, _. split; [reflexivity|].
            unfold copy_inner_replace. split.
            -- apply wf_replace_child; [assumption|assumption|assumption|].
               pose proof (update_rel_length _ _ _ _ _ Hrel). lia.
            -- apply (update_rel_child _ _ _ _ _ vs (flat_map elems (firstn (rank nm i) cs ++ skipn (S (rank nm i)) cs))
                        _ _ Hrel).
               ++ intros -> w Hw. destruct Hrel as [Hrel _].
                  destruct (teqk w k) eqn:E; [|reflexivity].
                  destruct (NM w Hp W) as [Hs|(c0 & Hs & Hw')]; [|exact E| |].
                  ** simpl. rewrite in_app_iff. destruct Hw as [Hw|Hw]; [left; exact Hw|right].
                     apply in_flat_map in Hw. destruct Hw as (x & Hx & Hw).
                     apply in_flat_map. exists x. split; [|exact Hw].
                     apply (Permutation_in _ (Permutation_sym (perm_remove _ _ _ Hn))). right. exact Hx.
                  ** apply slot_nth in Hs. rewrite (disjoint_bits nm dm _ Hdisj En) in Hs.
                     destruct Hs; discriminate.
                  ** rewrite Hc in Hs. injection Hs as <-. rewrite (Hrel w Hw') in E. discriminate.
               ++ simpl. apply Permutation_app_head. apply perm_flat_nth. exact Hn.
               ++ simpl. apply Permutation_app_head. apply (perm_flat_update _ _ _ _ _ Hn).
          * destruct (N.testbit dm i) eqn:Ed.
            -- destruct (slot_set dm vs i L1 Ed) as (w & Hw & Hn).
               unfold rnth. rewrite Hn. cbn [rbind].
               destruct (teqk w k) eqn:Ew.
               ++ eexists _, _. split; [reflexivity|]. unfold copy_inner_replace_value. split.
                  ** apply wf_replace_value; [assumption|assumption|]. apply Hc'.
                  ** exists w, ((firstn (rank dm i) vs ++ skipn (S (rank dm i)) vs) ++ flat_map elems cs).
                     split; [exact Ew|]. simpl. split.
                     --- rewrite (perm_remove _ _ _ Hn) at 1. reflexivity.
                     --- rewrite (perm_update _ _ _ _ Hn). reflexivity.
               ++ assert (Hwh : thash w mod 2 ^ (s + B) = p + i * 2 ^ s) by (apply HV; exact Hw).
                  rewrite <- (comb_hash (fn dflt)).
                  destruct (make_merged_ok f d (s + B) (p + i * 2 ^ s) (combine k (fn dflt)) w)
                    as (m & Hm & Wm & Pm); [lia|assumption|apply prefix_lt; assumption| | |exact Hwh|].
                  ** rewrite (keq_cong _ k _ (Hcomb _)), keq_sym_eq. exact Ew.
                  ** apply Hc'.
                  ** rewrite Hm. cbn [rbind]. eexists _, _. split; [reflexivity|].
                     unfold copy_inner_replace_merged.
                     rewrite count_below_rank. unfold clear. rewrite N.shiftl_1_l. split.
                     --- apply wf_merged; [assumption|assumption|assumption|].
                         rewrite (Permutation_length Pm). simpl. lia.
                     --- split.
                         +++ intros v Hv. destruct (teqk v k) eqn:E; [|reflexivity].
                             destruct (NM v Hp W Hv E) as [Hs|(c0 & Hs & Hw')].
                             *** rewrite Hw in Hs. injection Hs as <-. congruence.
                             *** apply slot_nth in Hs. destruct Hs. congruence.
                         +++ simpl. etransitivity; [apply Permutation_app_head, perm_flat_insert|].
                             etransitivity; [apply Permutation_app_head, Permutation_app_tail, Pm|].
                             etransitivity; [apply perm_two|]. constructor.
                             apply Permutation_app_tail. symmetry. apply perm_remove. exact Hn.
            -- eexists _, _. split; [reflexivity|]. unfold copy_inner_insert_value.
               rewrite count_below_rank, N.shiftl_1_l. split.
               ++ apply wf_insert_value; try assumption. apply Hc'.
               ++ split.
                  ** intros v Hv. destruct (teqk v k) eqn:E; [|reflexivity].
                     destruct (NM v Hp W Hv E) as [Hs|(c0 & Hs & Hw')];
                       apply slot_nth in Hs; destruct Hs; congruence.
                  ** simpl. rewrite perm_insert. reflexivity.
    Qed.
  End Update.

  (** do_add is do_update with a constant combine function. *)
  Lemma do_add_update f n v h s :
    do_add B key khash keq f n v h s =
    do_update B key khash keq (fun _ => tt) (fun _ _ => v) f n (key v) (fun x => x) tt h s.
  Proof.
    revert n s. induction f as [|f IH]; intros n s; cbn [do_add do_update];
      destruct (s =? max_shift); try reflexivity.
    - destruct n as [nm dm vs cs|vs]; [reflexivity|].
      destruct (find_index _ vs) as [pos|] eqn:E; [|reflexivity].
      destruct (find_index_some _ _ _ E) as (w & Hw & _). unfold rnth. rewrite Hw. reflexivity.
    - destruct n as [nm dm vs cs|vs]; [reflexivity|].
      destruct (find_index _ vs) as [pos|] eqn:E; [|reflexivity].
      destruct (find_index_some _ _ _ E) as (w & Hw & _). unfold rnth. rewrite Hw. reflexivity.
    - destruct n as [nm dm vs cs|vs]; [|reflexivity].
      destruct (has nm _); [|reflexivity].
      destruct (rnth cs _) as [c|]; [|reflexivity]. cbn [rbind]. rewrite IH. reflexivity.
  Qed.

  (** ** update_if_exists *)
  Section UpdateIf.
    Context {V : Type}.
    Variable project : T -> V.
    Variable combine : K -> V -> T.
    Variable k : K.
    Hypothesis Hcomb : forall x, keq (key (combine k x)) k = true.

    Definition update_if_rel (l : list T) (fn : V -> V) (r : option nd) : Prop :=
      match r with
      | None => forall w, In w l -> teqk w k = false
      | Some n' => exists w rest, teqk w k = true /\ Permutation l (w :: rest) /\
                     Permutation (elems n') (combine k (fn (project w)) :: rest)
      end.

    Lemma coll_update_if_ok d s p vs fn :
      wf d s p (Coll vs) -> khash k mod 2 ^ s = p ->
      exists r,
        match find_index (fun w => teqk w k) vs with
        | Some pos =>
          w <- rnth vs pos ;;
          Ok (Some (copy_collision_replace vs pos (combine k (fn (project w)))))
        | None => Ok None
        end = Ok r /\
        (forall n', r = Some n' -> wf d s p n') /\ update_if_rel vs fn r.
    Proof.
      intros W Hk. destruct d as [|d]; [|simpl in W; contradiction].
      destruct W as (L & HV & HD).
      destruct (find_index (fun w => teqk w k) vs) as [pos|] eqn:E.
      - destruct (find_index_some _ _ _ E) as (w & Hw & Ew).
        unfold rnth. rewrite Hw. cbn [rbind]. eexists. split; [reflexivity|].
        pose proof (perm_remove _ _ _ Hw) as P.
        pose proof (distinct_perm _ _ P HD) as HD'.
        unfold copy_collision_replace. split; [|exists w; eexists; split; [exact Ew|]; split; [exact P|reflexivity]].
        intros n' X. injection X as <-. cbn [wf]. split; [|split].
        + rewrite (Permutation_length P) in L. exact L.
        + intros v [<-|Hv]; [rewrite (comb_hash combine k Hcomb); exact Hk|].
          apply HV. apply (Permutation_in _ (Permutation_sym P)). right. exact Hv.
        + apply (distinct_replace combine k Hcomb w); assumption.
      - pose proof (find_index_none _ _ E) as Hn.
        eexists. split; [reflexivity|]. split; [discriminate|exact Hn].
    Qed.

    Lemma do_update_if_ok f d s p n fn :
      (d <= f)%nat -> level d s -> p < 2 ^ s -> wf d s p n -> khash k mod 2 ^ s = p ->
      exists r, do_update_if_exists B key keq project combine f n k fn (khash k) s = Ok r /\
        (forall n', r = Some n' -> wf d s p n') /\ update_if_rel (elems n) fn r.
    Proof.
      revert d s p n. induction f as [|f IH]; intros d s p n Hf Hl Hp W Hk.
      - assert (d = 0%nat) by lia. subst d. pose proof (level_O _ Hl). subst s.
        destruct n as [nm dm vs cs|vs]; try (simpl in W; contradiction).
        cbn [Champ.do_update_if_exists]. rewrite N.eqb_refl.
        apply (coll_update_if_ok 0 max_shift p); assumption.
      - destruct d as [|d].
        + pose proof (level_O _ Hl). subst s.
          destruct n as [nm dm vs cs|vs]; try (simpl in W; contradiction).
          cbn [Champ.do_update_if_exists]. rewrite N.eqb_refl.
          apply (coll_update_if_ok 0 max_shift p); assumption.
        + destruct n as [nm dm vs cs|vs]; try (simpl in W; contradiction).
          destruct (level_S _ _ Hl) as (Hl' & Hneq & _).
          cbn [Champ.do_update_if_exists]. rewrite Hneq.
          rewrite hash_idx_spec by apply khash_lt.
          rewrite !has_testbit, !count_below_rank.
          pose proof W as (Hdisj & Hnm & Hdm & L1 & L2 & HV & HC).
          pose proof (no_match k d s p nm dm vs cs) as NM.
          pose proof (idx_lt (khash k) s) as Hi.
          assert (Hk' : khash k mod 2 ^ (s + B) = p + idx (khash k) s * 2 ^ s)
            by (rewrite mod_extend, Hk; reflexivity).
          assert (Hc' : forall x, thash (combine k x) mod 2 ^ (s + B) = p + idx (khash k) s * 2 ^ s)
            by (intros x; rewrite (comb_hash combine k Hcomb); exact Hk').
          remember (idx (khash k) s) as i eqn:Ei.
          destruct (N.testbit nm i) eqn:En.
          * destruct (slot_set nm cs i L2 En) as (c & Hc & Hn).
            unfold rnth. rewrite Hn. cbn [rbind].
            destruct (wf_child _ _ _ _ _ _ _ _ _ Hp W Hc) as (Wc & Hpc & Lc).
            destruct (IH d (s + B) (p + i * 2 ^ s) c) as (r & Hr & Wr & Hrel);
              [lia|assumption..|].
            rewrite Hr. cbn [rbind]. eexists. split; [reflexivity|].
            destruct r as [c'|].
            -- destruct Hrel as (w & rest & E & P1 & P2). split.
               ++ intros n' X. injection X as <-. unfold copy_inner_replace.
                  apply wf_replace_child; [assumption|assumption|apply Wr; reflexivity|].
                  rewrite (Permutation_length P1) in Lc. rewrite (Permutation_length P2). exact Lc.
               ++ exists w, (vs ++ rest ++ flat_map elems (firstn (rank nm i) cs ++ skipn (S (rank nm i)) cs)).
                  split; [exact E|]. unfold copy_inner_replace. simpl. split.
                  ** etransitivity; [apply Permutation_app_head, (perm_flat_nth _ _ _ _ Hn)|].
                     rewrite P1. simpl. symmetry. apply Permutation_middle.
                  ** etransitivity; [apply Permutation_app_head, (perm_flat_update _ _ _ _ _ Hn)|].
                     rewrite P2. simpl. symmetry. apply Permutation_middle.
            -- split; [discriminate|]. simpl in Hrel. intros w Hw.
               destruct (teqk w k) eqn:E; [|reflexivity].
               destruct (NM w Hp W Hw E) as [Hs|(c0 & Hs & Hw')].
               ++ apply slot_nth in Hs. rewrite (disjoint_bits nm dm _ Hdisj En) in Hs.
                  destruct Hs; discriminate.
               ++ rewrite Hc in Hs. injection Hs as <-. rewrite (Hrel w Hw') in E. discriminate.
          * destruct (N.testbit dm i) eqn:Ed.
            -- destruct (slot_set dm vs i L1 Ed) as (w & Hw & Hn).
               unfold rnth. rewrite Hn. cbn [rbind].
               eexists. split; [reflexivity|]. destruct (teqk w k) eqn:Ew.
               ++ split.
                  ** intros n' X. injection X as <-. unfold copy_inner_replace_value.
                     apply wf_replace_value; [assumption|assumption|]. apply Hc'.
                  ** exists w, ((firstn (rank dm i) vs ++ skipn (S (rank dm i)) vs) ++ flat_map elems cs).
                     split; [exact Ew|]. simpl. split.
                     --- rewrite (perm_remove _ _ _ Hn) at 1. reflexivity.
                     --- rewrite (perm_update _ _ _ _ Hn). reflexivity.
               ++ split; [discriminate|]. intros v Hv. destruct (teqk v k) eqn:E; [|reflexivity].
                  destruct (NM v Hp W Hv E) as [Hs|(c0 & Hs & Hw')].
                  ** rewrite Hw in Hs. injection Hs as <-. congruence.
                  ** apply slot_nth in Hs. destruct Hs. congruence.
            -- eexists. split; [reflexivity|]. split; [discriminate|].
               intros v Hv. destruct (teqk v k) eqn:E; [|reflexivity].
               destruct (NM v Hp W Hv E) as [Hs|(c0 & Hs & Hw')];
                 apply slot_nth in Hs; destruct Hs; congruence.
    Qed.
  End UpdateIf.

  (** ** Erasure *)
  Definition sub_rel (k : K) (l : list T) (r : sub_result (T := T)) : Prop :=
    match r with
    | SubNothing => forall w, In w l -> teqk w k = false
    | SubSingleton x => exists w, teqk w k = true /\ Permutation l [w; x]
    | SubTree n' => exists w, teqk w k = true /\ Permutation l (w :: elems n')
    end.

  Lemma other_pos (vs : list T) pos w : length vs = 2%nat -> nth_error vs pos = Some w ->
    exists x, nth_error vs (other pos) = Some x /\ Permutation vs [w; x].
  Proof.
    intros L H. destruct vs as [|a [|b [|c vs]]]; simpl in L; try lia.
    destruct pos as [|[|pos]]; simpl in H.
    - injection H as <-. exists b. split; reflexivity.
    - injection H as <-. exists a. split; [reflexivity|apply perm_swap].
    - destruct pos; discriminate.
  Qed.

  Ltac sub_tree X :=
    match type of X with
    | SubTree ?a = SubTree ?b => assert (a = b) by congruence; clear X; subst b
    end.

  Lemma coll_sub_ok d s p vs k :
    wf d s p (Coll vs) ->
    exists r,
      match find_index (fun w => teqk w k) vs with
      | Some pos =>
        if (2 <? length vs)%nat then Ok (SubTree (copy_collision_remove vs pos))
        else w <- rnth vs (other pos) ;; Ok (SubSingleton w)
      | None => Ok SubNothing
      end = Ok r /\ sub_rel k vs r /\
      (forall n', r = SubTree n' -> wf d s p n' /\ (s = 0 \/ (2 <= length (elems n'))%nat)).
  Proof.
    intros W. destruct d as [|d]; [|simpl in W; contradiction].
    destruct W as (L & HV & HD).
    destruct (find_index (fun w => teqk w k) vs) as [pos|] eqn:E.
    - destruct (find_index_some _ _ _ E) as (w & Hw & Ew).
      pose proof (perm_remove _ _ _ Hw) as P.
      destruct (Nat.ltb_spec 2 (length vs)) as [G|G].
      + eexists. split; [reflexivity|]. split.
        * exists w. split; [exact Ew|exact P].
        * intros n' X. injection X as <-. unfold copy_collision_remove.
          pose proof (Permutation_length P) as PL. cbn [length] in PL.
          split; [|right; cbn [elems]; lia]. cbn [wf]. split; [lia|]. split.
          -- intros v Hv. apply HV. apply (Permutation_in _ (Permutation_sym P)). right. exact Hv.
          -- pose proof (distinct_perm _ _ P HD) as HD'. inversion HD'. assumption.
      + destruct (other_pos vs pos w) as (x & Hx & Px); [lia|exact Hw|].
        unfold rnth. rewrite Hx. cbn [rbind]. eexists. split; [reflexivity|].
        split; [exists w; auto|discriminate].
    - eexists. split; [reflexivity|]. split; [exact (find_index_none _ _ E)|discriminate].
  Qed.

  Lemma elems_child_len (nm : N) (cs : list nd) d s p :
    (forall i c, slot nm cs i = Some c -> wf d (s + B) (p + i * 2 ^ s) c /\ (2 <= length (elems c))%nat) ->
    length cs = popcount nm -> forall c, In c cs -> (2 <= length (elems c))%nat.
  Proof.
    intros HC L c Hc. apply (slot_in nm) in Hc; [|exact L]. destruct Hc as [i Hi].
    apply (HC i c Hi).
  Qed.

  Lemma flat_len_ge (l : list nd) c : In c l -> (length (elems c) <= length (flat_map elems l))%nat.
  Proof.
    induction l as [|x l IH]; simpl; intros H; [contradiction|]. rewrite app_length.
    destruct H as [<-|H]; [lia|]. specialize (IH H). lia.
  Qed.

  Lemma do_sub_ok f d s p n k :
    (d <= f)%nat -> level d s -> p < 2 ^ s -> wf d s p n -> khash k mod 2 ^ s = p ->
    (s = 0 \/ (2 <= length (elems n))%nat) ->
    exists r, do_sub B key keq f n k (khash k) s = Ok r /\ sub_rel k (elems n) r /\
      (forall n', r = SubTree n' -> wf d s p n' /\ (s = 0 \/ (2 <= length (elems n'))%nat)) /\
      (s = 0 -> (0 < d)%nat -> forall x, r <> SubSingleton x).
  Proof.
    revert d s p n. induction f as [|f IH]; intros d s p n Hf Hl Hp W Hk H2.
    - assert (d = 0%nat) by nlia. subst d. pose proof (level_O _ Hl). subst s.
      destruct n as [nm dm vs cs|vs]; try (simpl in W; contradiction).
      cbn [Champ.do_sub]. rewrite N.eqb_refl.
      destruct (coll_sub_ok 0 max_shift p vs k W) as (r & Hr & HR & HT).
      exists r. split; [exact Hr|]. split; [exact HR|]. split; [exact HT|]. intros _ X; nlia.
    - destruct d as [|d].
      + pose proof (level_O _ Hl). subst s.
        destruct n as [nm dm vs cs|vs]; try (simpl in W; contradiction).
        cbn [Champ.do_sub]. rewrite N.eqb_refl.
        destruct (coll_sub_ok 0 max_shift p vs k W) as (r & Hr & HR & HT).
        exists r. split; [exact Hr|]. split; [exact HR|]. split; [exact HT|]. intros _ X; nlia.
      + destruct n as [nm dm vs cs|vs]; try (simpl in W; contradiction).
        destruct (level_S _ _ Hl) as (Hl' & Hneq & _).
        cbn [Champ.do_sub]. rewrite Hneq.
        rewrite hash_idx_spec by apply khash_lt.
        rewrite !has_testbit, !count_below_rank.
        pose proof W as (Hdisj & Hnm & Hdm & L1 & L2 & HV & HC).
        pose proof (no_match k d s p nm dm vs cs) as NM.
        pose proof (elems_child_len nm cs d s p HC L2) as Hge.
        assert (Hk' : khash k mod 2 ^ (s + B) = p + idx (khash k) s * 2 ^ s)
          by (rewrite mod_extend, Hk; reflexivity).
        remember (idx (khash k) s) as i eqn:Ei.
        destruct (N.testbit nm i) eqn:En.
        * destruct (slot_set nm cs i L2 En) as (c & Hc & Hn).
          pose proof (perm_flat_nth elems _ _ _ Hn) as PC.
          unfold rnth. rewrite Hn. cbn [rbind].
          destruct (wf_child _ _ _ _ _ _ _ _ _ Hp W Hc) as (Wc & Hpc & Lc).
          destruct (IH d (s + B) (p + i * 2 ^ s) c) as (r & Hr & HR & HT & _);
            [nlia|assumption..|right; exact Lc|].
          rewrite Hr. cbn [rbind]. destruct r as [|x|c'].
          -- exists SubNothing. split; [reflexivity|]. split; [|split; [discriminate|discriminate]].
             simpl in HR. intros w Hw. destruct (teqk w k) eqn:E; [|reflexivity].
             destruct (NM w Hp W Hw E) as [Hs|(c0 & Hs & Hw')].
             ++ apply slot_nth in Hs. rewrite (disjoint_bits nm dm _ Hdisj En) in Hs.
                destruct Hs; discriminate.
             ++ rewrite Hc in Hs. injection Hs as <-. rewrite (HR w Hw') in E. discriminate.
          -- destruct HR as (w & Ew & Pw).
             destruct ((dm =? 0) && (popcount nm =? 1)%nat && (0 <? s)) eqn:Cd.
             ++ exists (SubSingleton x). split; [reflexivity|].
                apply andb_true_iff in Cd. destruct Cd as [Cd Cs].
                apply andb_true_iff in Cd. destruct Cd as [Cd Cn].
                apply N.eqb_eq in Cd. apply Nat.eqb_eq in Cn. apply N.ltb_lt in Cs. subst dm.
                split; [|split; [discriminate|nlia]].
                exists w. split; [exact Ew|]. rewrite <- Pw.
                rewrite Cn in L2. destruct cs as [|c1 [|? ?]]; simpl in L2; try nlia.
                destruct vs as [|? ?]; [|simpl in L1; nlia].
                destruct (rank nm i) as [|q]; simpl in Hn; [|destruct q; discriminate].
                injection Hn as ->. simpl. rewrite app_nil_r. reflexivity.
             ++ eexists. split; [reflexivity|].
                unfold copy_inner_replace_inline. rewrite count_below_rank. unfold clear.
                rewrite N.shiftl_1_l.
                assert (PE : Permutation (elems (Inner nm dm vs cs))
                   (w :: elems (Inner (N.ldiff nm (2 ^ i)) (N.lor dm (2 ^ i))
                        (firstn (rank dm i) vs ++ x :: skipn (rank dm i) vs)
                        (firstn (rank nm i) cs ++ skipn (S (rank nm i)) cs)))).
                { simpl. etransitivity; [apply Permutation_app_head, PC|].
                  etransitivity; [apply Permutation_app_head, Permutation_app_tail, Pw|].
                  etransitivity; [apply perm_two|]. constructor.
                  apply Permutation_app_tail. symmetry. apply perm_insert. }
                split; [exists w; auto|]. split; [|discriminate].
                intros n' X. sub_tree X. split.
                ** apply wf_inline; [assumption|assumption|].
                   apply (wf_hash _ _ _ _ Hpc Wc x).
                   apply (Permutation_in _ (Permutation_sym Pw)). simpl; auto.
                ** destruct (N.eq_dec s 0) as [->|Hs]; [left; reflexivity|right].
                   assert (PL := Permutation_length PE). cbn [length] in PL.
                   assert (QL : (length (elems (Inner nm dm vs cs)) =
                      length vs + 2 + length (flat_map elems (firstn (rank nm i) cs ++ skipn (S (rank nm i)) cs)))%nat).
                   { simpl. rewrite app_length, (Permutation_length PC), app_length, (Permutation_length Pw).
                     simpl. nlia. }
                   assert (HS : (0 <? s) = true) by (apply N.ltb_lt; nlia).
                   rewrite HS, andb_true_r in Cd. apply andb_false_iff in Cd.
                   destruct Cd as [Cd|Cd].
                   --- apply N.eqb_neq in Cd.
                       assert (popcount dm <> 0%nat) by (intros X; apply Cd, popcount_0_iff, X). nlia.
                   --- apply Nat.eqb_neq in Cd. pose proof (rank_lt nm i En) as RL.
                       pose proof (length_remove cs (rank nm i)) as LR.
                       destruct (firstn (rank nm i) cs ++ skipn (S (rank nm i)) cs) as [|c2 l2] eqn:EL.
                       +++ simpl in LR. nlia.
                       +++ assert (In c2 cs).
                           { apply (Permutation_in _ (Permutation_sym (perm_remove _ _ _ Hn))).
                             right. rewrite EL. left. reflexivity. }
                           pose proof (Hge c2 H). pose proof (flat_len_ge (c2 :: l2) c2 (or_introl eq_refl)).
                           nlia.
          -- destruct HR as (w & Ew & Pw). destruct (HT c' eq_refl) as (Wc' & Lc').
             eexists. split; [reflexivity|]. unfold copy_inner_replace.
             assert (Lc2 : (2 <= length (elems c'))%nat) by (destruct Lc'; [nlia|assumption]).
             split.
             ++ exists w. split; [exact Ew|]. simpl.
                etransitivity; [apply Permutation_app_head, PC|].
                etransitivity; [|constructor; apply Permutation_app_head; symmetry; apply (perm_flat_update _ _ _ _ _ Hn)].
                rewrite Pw. simpl. symmetry. apply Permutation_middle.
             ++ split; [|discriminate].
                intros n' X. sub_tree X. split.
                ** apply wf_replace_child; assumption.
                ** right. cbn [elems]. rewrite app_length.
                   pose proof (flat_len_ge (update_at (rank nm i) c' cs) c').
                   assert (In c' (update_at (rank nm i) c' cs)).
                   { apply (Permutation_in _ (Permutation_sym (perm_update _ _ _ _ Hn))). left. reflexivity. }
                   specialize (H H0). nlia.
        * destruct (N.testbit dm i) eqn:Ed.
          -- destruct (slot_set dm vs i L1 Ed) as (w & Hw & Hn).
             unfold rnth. rewrite Hn. cbn [rbind].
             destruct (teqk w k) eqn:Ew.
             ++ pose proof (perm_remove _ _ _ Hn) as PR.
                pose proof (Permutation_length PR) as PRL. cbn [length] in PRL.
                assert (WR := wf_remove_value d s p nm dm vs cs i W Ed).
                destruct (negb (nm =? 0) || (2 <? popcount dm)%nat) eqn:Cd.
                ** eexists. split; [reflexivity|].
                   unfold copy_inner_remove_value, clear. rewrite N.shiftl_1_l. split.
                   --- exists w. split; [exact Ew|]. simpl. rewrite PR at 1. reflexivity.
                   --- split; [|discriminate]. intros n' X. sub_tree X. split; [exact WR|].
                       right. cbn [elems]. rewrite app_length. apply orb_true_iff in Cd. destruct Cd as [Cd|Cd].
                       +++ apply negb_true_iff, N.eqb_neq in Cd.
                           destruct cs as [|c1 cs'].
                           *** simpl in L2. symmetry in L2. apply popcount_0_iff in L2. contradiction.
                           *** pose proof (Hge c1 (or_introl eq_refl)).
                               pose proof (flat_len_ge (c1 :: cs') c1 (or_introl eq_refl)). nlia.
                       +++ apply Nat.ltb_lt in Cd. nlia.
                ** apply orb_false_iff in Cd. destruct Cd as [Cn Cv].
                   apply negb_false_iff, N.eqb_eq in Cn. apply Nat.ltb_ge in Cv. subst nm.
                   destruct cs as [|? ?]; [|simpl in L2; nlia].
                   destruct (Nat.eqb_spec (popcount dm) 2) as [C2|C2].
                   --- destruct (other_pos vs (rank dm i) w) as (x & Hx & Px); [nlia|exact Hn|].
                       rewrite Hx. cbn [rbind]. destruct (N.ltb_spec 0 s) as [Cs|Cs].
                       +++ eexists. split; [reflexivity|]. split.
                           *** exists w. split; [exact Ew|]. simpl. rewrite app_nil_r. exact Px.
                           *** split; [discriminate|nlia].
                       +++ eexists. split; [reflexivity|].
                           unfold make_inner_value, clear. rewrite N.shiftl_1_l. split.
                           *** exists w. split; [exact Ew|]. simpl. rewrite app_nil_r. exact Px.
                           *** split; [|discriminate]. intros n' X. sub_tree X.
                               split; [|left; nlia].
                               replace [x] with (firstn (rank dm i) vs ++ skipn (S (rank dm i)) vs); [exact WR|].
                               destruct vs as [|a [|b [|? ?]]]; simpl in L1; try nlia.
                               destruct (rank dm i) as [|[|q]]; simpl in Hx |- *; simpl in Hn; try congruence.
                               destruct q; discriminate.
                   --- pose proof (testbit_pop_pos dm i Ed). assert (C1 : popcount dm = 1%nat) by nlia.
                       assert (s = 0).
                       { destruct H2 as [|H2]; [assumption|]. simpl in H2. rewrite app_nil_r in H2. nlia. }
                       subst s. rewrite N.eqb_refl. eexists. split; [reflexivity|]. split.
                       +++ exists w. split; [exact Ew|]. simpl. rewrite app_nil_r.
                           destruct vs as [|a [|? ?]]; simpl in L1; try nlia.
                           destruct (rank dm i) as [|q]; simpl in Hn; [|destruct q; discriminate].
                           injection Hn as ->. reflexivity.
                       +++ split; [|discriminate]. intros n' X. sub_tree X.
                           split; [apply wf_empty|left; reflexivity].
             ++ exists SubNothing. split; [reflexivity|]. split; [|split; [discriminate|discriminate]].
                intros v Hv. destruct (teqk v k) eqn:E; [|reflexivity].
                destruct (NM v Hp W Hv E) as [Hs|(c0 & Hs & Hw')].
                ** rewrite Hw in Hs. injection Hs as <-. congruence.
                ** apply slot_nth in Hs. destruct Hs. congruence.
          -- exists SubNothing. split; [reflexivity|]. split; [|split; [discriminate|discriminate]].
             intros v Hv. destruct (teqk v k) eqn:E; [|reflexivity].
             destruct (NM v Hp W Hv E) as [Hs|(c0 & Hs & Hw')];
               apply slot_nth in Hs; destruct Hs; congruence.
  Qed.
End Proofs.
