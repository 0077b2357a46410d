(** Canonical shape, and equality decides equality of contents. *)
From Coq Require Import List NArith Arith Lia Bool Permutation ZArith ZifyBool ZifyNat ZifyN.
From Verif Require Import Common Bits BitsSpec BitsProofs Slots Champ ChampSpec ChampHist ChampProofs ChampMap ChampIter.
Import ListNotations.
Local Open Scope N_scope.

Lemma Forall2_nth {A C} (R : A -> C -> Prop) l l' :
  length l = length l' ->
  (forall r x y, nth_error l r = Some x -> nth_error l' r = Some y -> R x y) -> Forall2 R l l'.
Proof.
  revert l'. induction l as [|a l IH]; intros [|b l'] L H; simpl in L; try lia; constructor.
  - apply (H 0%nat); reflexivity.
  - apply IH; [lia|]. intros r x y Hx Hy. apply (H (S r)); assumption.
Qed.

Lemma Forall2_nth_inv {A C} (R : A -> C -> Prop) l l' : Forall2 R l l' ->
  forall r x y, nth_error l r = Some x -> nth_error l' r = Some y -> R x y.
Proof.
  induction 1 as [|a b l l' H F IH]; intros [|r] x y Hx Hy; simpl in *; try discriminate.
  - congruence.
  - apply (IH r); assumption.
Qed.

Lemma slot_Forall2 {A C} (R : A -> C -> Prop) m l l' :
  length l = popcount m -> length l' = popcount m ->
  (Forall2 R l l' <-> (forall i x y, slot m l i = Some x -> slot m l' i = Some y -> R x y)).
Proof.
  intros L L'. split.
  - intros F i x y Hx Hy. apply slot_nth in Hx. apply slot_nth in Hy.
    apply (Forall2_nth_inv R l l' F (rank m i)); tauto.
  - intros H. apply Forall2_nth; [lia|]. intros r x y Hx Hy.
    pose proof (nth_error_lt _ _ _ Hx) as Lt. rewrite L in Lt.
    destruct (rank_surj m r Lt) as (i & Hi & <-).
    apply (H i); unfold slot; rewrite Hi; assumption.
Qed.

(** Same tree up to the order inside collision nodes. *)
Inductive same_shape {T} : node T -> node T -> Prop :=
| SameColl a b : Permutation a b -> same_shape (Coll a) (Coll b)
| SameInner nm dm vs ca cb : Forall2 same_shape ca cb ->
    same_shape (Inner nm dm vs ca) (Inner nm dm vs cb).

Section Eq.
  Variable B : N.
  Context {T K : Type}.
  Variable key : T -> K.
  Variable khash : K -> N.
  Variable keq : K -> K -> bool.
  Hypothesis HB : 1 <= B.
  Hypothesis Hkeys : keys_ok keq khash.

  Notation thash := (thash key khash).
  Notation max_depth := (max_depth B).
  Notation distinct := (distinct_keys key keq).
  Notation wf := (wf B key khash keq).
  Notation idx := (idx B).
  Notation nd := (node T).

  Definition matches (R : T -> T -> Prop) (l l' : list T) : Prop :=
    (forall v, In v l -> exists w, In w l' /\ R v w) /\
    (forall w, In w l' -> exists v, In v l /\ R v w).

  Lemma matches_flip R l l' : matches R l l' -> matches (fun a b => R b a) l' l.
  Proof. intros [H1 H2]. split; assumption. Qed.

  Lemma two_distinct (l : list T) : distinct l -> (2 <= length l)%nat ->
    exists a b, In a l /\ In b l /\ keq (key a) (key b) = false.
  Proof.
    intros D L. destruct l as [|a [|b l]]; simpl in L; try lia.
    exists a, b. split; [simpl; auto|]. split; [simpl; auto|].
    inversion D as [|? ? F _]; subst. inversion F. assumption.
  Qed.

  Section Rel.
    Variable R : T -> T -> Prop.
    Hypothesis RK : forall v w, R v w -> keq (key v) (key w) = true.

    Lemma R_hash v w : R v w -> thash v = thash w.
    Proof. intros H. apply RK in H. apply (keq_hash _ _ Hkeys) in H. exact H. Qed.

    Lemma dm_only d s p nm dm vs cs v w :
      p < 2 ^ s -> wf (S d) s p (Inner nm dm vs cs) ->
      slot dm vs (idx (thash v) s) = Some w -> In v (elems (Inner nm dm vs cs)) -> v = w.
    Proof.
      intros Hp W Hw Hv. destruct (elem_slot_idx B key khash keq HB _ _ _ _ _ _ _ _ Hp W Hv) as [Hs|(c & Hs & _)].
      - congruence.
      - apply slot_nth in Hs. apply slot_nth in Hw. destruct W as (Hd & _).
        rewrite (disjoint_bits nm dm _ Hd) in Hw by tauto. destruct Hw; discriminate.
    Qed.

    Lemma nm_sub d s p nm dm vs cs nm' dm' vs' cs' i :
      p < 2 ^ s -> wf (S d) s p (Inner nm dm vs cs) -> wf (S d) s p (Inner nm' dm' vs' cs') ->
      matches R (elems (Inner nm dm vs cs)) (elems (Inner nm' dm' vs' cs')) ->
      N.testbit nm i = true -> N.testbit nm' i = true.
    Proof.
      intros Hp W W' [M _] Hi. pose proof W as (_ & _ & _ & L1 & L2 & _ & HC).
      pose proof W' as (_ & _ & _ & L1' & L2' & _ & _).
      destruct (slot_set nm cs i L2 Hi) as (c & Hc & _).
      destruct (wf_child B key khash keq HB _ _ _ _ _ _ _ _ _ Hp W Hc) as (Wc & Hpc & Lc).
      destruct (two_distinct (elems c)) as (a & b & Ha & Hb & Hab);
        [apply (wf_distinct B key khash keq HB Hkeys _ _ _ _ Hpc Wc)|exact Lc|].
      assert (Inn : forall x, In x (elems c) -> In x (elems (Inner nm dm vs cs))).
      { intros x Hx. apply (elems_slot nm dm vs cs x L1 L2). right. eauto. }
      assert (Ix : forall x, In x (elems c) -> idx (thash x) s = i).
      { intros x Hx. apply (idx_of_mod B HB _ s p).
        - apply (wf_hash B key khash keq HB _ _ _ _ Hp W x (Inn x Hx)).
        - apply (wf_hash B key khash keq HB _ _ _ _ Hpc Wc x Hx). }
      destruct (M a (Inn a Ha)) as (a' & Ha' & Ra). destruct (M b (Inn b Hb)) as (b' & Hb' & Rb).
      pose proof (R_hash _ _ Ra) as Ta. pose proof (R_hash _ _ Rb) as Tb.
      destruct (N.testbit nm' i) eqn:En; [reflexivity|exfalso].
      assert (Ha2 : slot dm' vs' i = Some a').
      { destruct (elem_slot_idx B key khash keq HB _ _ _ _ _ _ _ _ Hp W' Ha') as [Hs|(c' & Hs & _)].
        - rewrite <- Ta, (Ix a Ha) in Hs. exact Hs.
        - rewrite <- Ta, (Ix a Ha) in Hs. apply slot_nth in Hs. destruct Hs; congruence. }
      assert (b' = a').
      { apply (dm_only d s p nm' dm' vs' cs' b' a' Hp W'); [|exact Hb'].
        rewrite <- Tb, (Ix b Hb). exact Ha2. }
      subst b'. apply RK in Ra. apply RK in Rb.
      rewrite (keq_trans _ _ Hkeys _ _ _ Ra (keq_sym _ _ Hkeys _ _ Rb)) in Hab. discriminate.
    Qed.
  End Rel.

  Lemma bits_sub_eq a b :
    (forall i, N.testbit a i = true -> N.testbit b i = true) ->
    (forall i, N.testbit b i = true -> N.testbit a i = true) -> a = b.
  Proof.
    intros H1 H2. apply N.bits_inj. intros i.
    destruct (N.testbit a i) eqn:E, (N.testbit b i) eqn:F; try reflexivity.
    - rewrite (H1 i E) in F. discriminate.
    - rewrite (H2 i F) in E. discriminate.
  Qed.

  Section Rel2.
    Variable R : T -> T -> Prop.
    Hypothesis RK : forall v w, R v w -> keq (key v) (key w) = true.

    Lemma RK_flip v w : R w v -> keq (key v) (key w) = true.
    Proof. intros H. apply (keq_sym _ _ Hkeys). apply RK. exact H. Qed.

    Lemma nm_same d s p nm dm vs cs nm' dm' vs' cs' :
      p < 2 ^ s -> wf (S d) s p (Inner nm dm vs cs) -> wf (S d) s p (Inner nm' dm' vs' cs') ->
      matches R (elems (Inner nm dm vs cs)) (elems (Inner nm' dm' vs' cs')) -> nm = nm'.
    Proof.
      intros Hp W W' M. apply bits_sub_eq; intros i Hi.
      - apply (nm_sub R RK d s p nm dm vs cs nm' dm' vs' cs' i Hp W W' M Hi).
      - apply (nm_sub (fun a b => R b a) RK_flip d s p nm' dm' vs' cs' nm dm vs cs i Hp W' W
                 (matches_flip _ _ _ M) Hi).
    Qed.

    Lemma dm_sub d s p nm dm vs cs dm' vs' cs' i :
      p < 2 ^ s -> wf (S d) s p (Inner nm dm vs cs) -> wf (S d) s p (Inner nm dm' vs' cs') ->
      (forall v, In v (elems (Inner nm dm vs cs)) -> exists w, In w (elems (Inner nm dm' vs' cs')) /\ thash v = thash w) ->
      N.testbit dm i = true -> N.testbit dm' i = true.
    Proof.
      intros Hp W W' M Hi. pose proof W as (Hd & _ & _ & L1 & L2 & HV & HC).
      destruct (slot_set dm vs i L1 Hi) as (v & Hv & _).
      assert (Hin : In v (elems (Inner nm dm vs cs))) by (apply (elems_slot nm dm vs cs v L1 L2); eauto).
      assert (Ix : idx (thash v) s = i).
      { apply (idx_of_mod B HB _ s p); [apply (wf_hash B key khash keq HB _ _ _ _ Hp W v Hin)|apply HV; exact Hv]. }
      destruct (M v Hin) as (w & Hw & E).
      destruct (elem_slot_idx B key khash keq HB _ _ _ _ _ _ _ _ Hp W' Hw) as [Hs|(c' & Hs & _)].
      - rewrite <- E, Ix in Hs. apply slot_nth in Hs. tauto.
      - rewrite <- E, Ix in Hs. apply slot_nth in Hs. destruct Hs as [Hs _].
        rewrite (disjoint_bits nm dm i Hd Hs) in Hi. discriminate.
    Qed.

    Lemma maps_same d s p nm dm vs cs nm' dm' vs' cs' :
      p < 2 ^ s -> wf (S d) s p (Inner nm dm vs cs) -> wf (S d) s p (Inner nm' dm' vs' cs') ->
      matches R (elems (Inner nm dm vs cs)) (elems (Inner nm' dm' vs' cs')) ->
      nm = nm' /\ dm = dm'.
    Proof.
      intros Hp W W' M. pose proof (nm_same _ _ _ _ _ _ _ _ _ _ _ Hp W W' M). subst nm'.
      split; [reflexivity|]. destruct M as [M1 M2]. apply bits_sub_eq; intros i Hi.
      - apply (dm_sub d s p nm dm vs cs dm' vs' cs' i Hp W W'); [|exact Hi].
        intros v Hv. destruct (M1 v Hv) as (w & Hw & Rw). exists w. split; [exact Hw|].
        apply (R_hash R RK). exact Rw.
      - apply (dm_sub d s p nm dm' vs' cs' dm vs cs i Hp W' W); [|exact Hi].
        intros v Hv. destruct (M2 v Hv) as (w & Hw & Rw). exists w. split; [exact Hw|].
        symmetry. apply (R_hash R RK). exact Rw.
    Qed.

    (* matching decomposes by slot *)
    Lemma matches_slots d s p nm dm vs cs vs' cs' :
      p < 2 ^ s -> wf (S d) s p (Inner nm dm vs cs) -> wf (S d) s p (Inner nm dm vs' cs') ->
      (matches R (elems (Inner nm dm vs cs)) (elems (Inner nm dm vs' cs')) <->
       (forall i v w, slot dm vs i = Some v -> slot dm vs' i = Some w -> R v w) /\
       (forall i c c', slot nm cs i = Some c -> slot nm cs' i = Some c' -> matches R (elems c) (elems c'))).
    Proof.
      intros Hp W W'. pose proof W as (Hd & _ & _ & L1 & L2 & HV & HC).
      pose proof W' as (_ & _ & _ & L1' & L2' & HV' & HC').
      assert (IV : forall i v, slot dm vs i = Some v -> In v (elems (Inner nm dm vs cs)) /\ idx (thash v) s = i).
      { intros i v Hv. assert (Hin : In v (elems (Inner nm dm vs cs))) by (apply (elems_slot nm dm vs cs v L1 L2); eauto).
        split; [exact Hin|]. apply (idx_of_mod B HB _ s p); [apply (wf_hash B key khash keq HB _ _ _ _ Hp W v Hin)|apply HV; exact Hv]. }
      assert (IV' : forall i v, slot dm vs' i = Some v -> In v (elems (Inner nm dm vs' cs')) /\ idx (thash v) s = i).
      { intros i v Hv. assert (Hin : In v (elems (Inner nm dm vs' cs'))) by (apply (elems_slot nm dm vs' cs' v L1' L2'); eauto).
        split; [exact Hin|]. apply (idx_of_mod B HB _ s p); [apply (wf_hash B key khash keq HB _ _ _ _ Hp W' v Hin)|apply HV'; exact Hv]. }
      assert (IC : forall i c v, slot nm cs i = Some c -> In v (elems c) -> In v (elems (Inner nm dm vs cs)) /\ idx (thash v) s = i).
      { intros i c v Hc Hv. assert (Hin : In v (elems (Inner nm dm vs cs))) by (apply (elems_slot nm dm vs cs v L1 L2); right; eauto).
        destruct (wf_child B key khash keq HB _ _ _ _ _ _ _ _ _ Hp W Hc) as (Wc & Hpc & _).
        split; [exact Hin|]. apply (idx_of_mod B HB _ s p); [apply (wf_hash B key khash keq HB _ _ _ _ Hp W v Hin)|].
        apply (wf_hash B key khash keq HB _ _ _ _ Hpc Wc v Hv). }
      assert (IC' : forall i c v, slot nm cs' i = Some c -> In v (elems c) -> In v (elems (Inner nm dm vs' cs')) /\ idx (thash v) s = i).
      { intros i c v Hc Hv. assert (Hin : In v (elems (Inner nm dm vs' cs'))) by (apply (elems_slot nm dm vs' cs' v L1' L2'); right; eauto).
        destruct (wf_child B key khash keq HB _ _ _ _ _ _ _ _ _ Hp W' Hc) as (Wc & Hpc & _).
        split; [exact Hin|]. apply (idx_of_mod B HB _ s p); [apply (wf_hash B key khash keq HB _ _ _ _ Hp W' v Hin)|].
        apply (wf_hash B key khash keq HB _ _ _ _ Hpc Wc v Hv). }
      assert (DJ : forall (l : list T) (l' : list nd) i x y, slot dm l i = Some x -> slot nm l' i = Some y -> False).
      { intros l l' i x y Hx Hy. apply slot_nth in Hx. apply slot_nth in Hy. destruct Hx as [Hx _], Hy as [Hy _].
        rewrite (disjoint_bits nm dm i Hd Hy) in Hx. discriminate. }
      split.
      - intros [M1 M2]. split.
        + intros i v w Hv Hw. destruct (IV i v Hv) as [Hin Ix]. destruct (M1 v Hin) as (w' & Hw' & Rw).
          assert (w' = w); [|subst; exact Rw].
          apply (dm_only d s p nm dm vs' cs' w' w Hp W'); [|exact Hw'].
          rewrite <- (R_hash R RK _ _ Rw), Ix. exact Hw.
        + intros i c c' Hc Hc'. split.
          * intros v Hv. destruct (IC i c v Hc Hv) as [Hin Ix]. destruct (M1 v Hin) as (w & Hw & Rw).
            exists w. split; [|exact Rw].
            destruct (elem_slot_idx B key khash keq HB _ _ _ _ _ _ _ _ Hp W' Hw) as [Hs|(c2 & Hs & Hw2)];
              rewrite <- (R_hash R RK _ _ Rw), Ix in Hs.
            -- exfalso. apply (DJ _ _ _ _ _ Hs Hc').
            -- congruence.
          * intros w Hw. destruct (IC' i c' w Hc' Hw) as [Hin Ix]. destruct (M2 w Hin) as (v & Hv & Rw).
            exists v. split; [|exact Rw].
            destruct (elem_slot_idx B key khash keq HB _ _ _ _ _ _ _ _ Hp W Hv) as [Hs|(c2 & Hs & Hw2)];
              rewrite (R_hash R RK _ _ Rw), Ix in Hs.
            -- exfalso. apply (DJ _ _ _ _ _ Hs Hc).
            -- congruence.
      - intros [MV MC]. split.
        + intros v Hv. apply (elems_slot nm dm vs cs v L1 L2) in Hv.
          destruct Hv as [(i & Hi)|(i & c & Hi & Hv)].
          * pose proof Hi as Hb. apply slot_nth in Hb. destruct (slot_set dm vs' i L1' (proj1 Hb)) as (w & Hw & _).
            exists w. split; [apply (IV' i w Hw)|]. apply (MV i); assumption.
          * pose proof Hi as Hb. apply slot_nth in Hb. destruct (slot_set nm cs' i L2' (proj1 Hb)) as (c' & Hc' & _).
            destruct (MC i c c' Hi Hc') as [M1 _]. destruct (M1 v Hv) as (w & Hw & Rw).
            exists w. split; [apply (IC' i c' w Hc' Hw)|exact Rw].
        + intros v Hv. apply (elems_slot nm dm vs' cs' v L1' L2') in Hv.
          destruct Hv as [(i & Hi)|(i & c & Hi & Hv)].
          * pose proof Hi as Hb. apply slot_nth in Hb. destruct (slot_set dm vs i L1 (proj1 Hb)) as (w & Hw & _).
            exists w. split; [apply (IV i w Hw)|]. apply (MV i); assumption.
          * pose proof Hi as Hb. apply slot_nth in Hb. destruct (slot_set nm cs i L2 (proj1 Hb)) as (c' & Hc' & _).
            destruct (MC i c' c Hc' Hi) as [_ M2]. destruct (M2 v Hv) as (w & Hw & Rw).
            exists w. split; [apply (IC i c' w Hc' Hw)|exact Rw].
    Qed.
  End Rel2.

  (** ** Canonical shape *)
  Lemma canonical d s p n n' : p < 2 ^ s -> wf d s p n -> wf d s p n' ->
    (forall v, In v (elems n) <-> In v (elems n')) -> same_shape n n'.
  Proof.
    revert s p n n'. induction d as [|d IH]; intros s p n n' Hp W W' H;
      destruct n as [nm dm vs cs|vs], n' as [nm' dm' vs' cs'|vs']; try (simpl in W, W'; contradiction).
    - constructor. destruct W as (_ & _ & D), W' as (_ & _ & D').
      apply NoDup_Permutation; try (apply (distinct_NoDup key khash keq Hkeys); assumption). exact H.
    - assert (RK : forall v w : T, v = w -> keq (key v) (key w) = true)
        by (intros v w ->; apply (keq_refl _ _ Hkeys)).
      assert (M : matches eq (elems (Inner nm dm vs cs)) (elems (Inner nm' dm' vs' cs'))).
      { split; intros v Hv; exists v; split; auto; apply H; exact Hv. }
      destruct (maps_same eq RK _ _ _ _ _ _ _ _ _ _ _ Hp W W' M) as [<- <-].
      apply (matches_slots eq RK d s p nm dm vs cs vs' cs' Hp W W') in M. destruct M as [MV MC].
      pose proof W as (_ & _ & _ & L1 & L2 & _). pose proof W' as (_ & _ & _ & L1' & L2' & _).
      assert (vs = vs').
      { apply (slot_ext dm); [exact L1|exact L1'|]. intros i.
        destruct (N.testbit dm i) eqn:E.
        - destruct (slot_set dm vs i L1 E) as (v & Hv & _). destruct (slot_set dm vs' i L1' E) as (w & Hw & _).
          rewrite Hv, Hw. f_equal. apply (MV i); assumption.
        - rewrite !slot_none by exact E. reflexivity. }
      subst vs'. constructor. apply (slot_Forall2 same_shape nm); [exact L2|exact L2'|].
      intros i c c' Hc Hc'.
      destruct (wf_child B key khash keq HB _ _ _ _ _ _ _ _ _ Hp W Hc) as (Wc & Hpc & _).
      destruct (wf_child B key khash keq HB _ _ _ _ _ _ _ _ _ Hp W' Hc') as (Wc' & _ & _).
      apply (IH _ _ _ _ Hpc Wc Wc'). destruct (MC i c c' Hc Hc') as [M1 M2].
      intros v. split; intros Hv.
      + destruct (M1 v Hv) as (w & Hw & ->). exact Hw.
      + destruct (M2 v Hv) as (w & Hw & <-). exact Hw.
  Qed.

  (** ** Equality *)
  Variable ptr_eq : nd -> nd -> bool.
  Variable veq : T -> T -> bool.
  Hypothesis Hptr : forall a b, ptr_eq a b = true -> a = b.
  Hypothesis Hrefl : forall v, veq v v = true.
  Hypothesis Hveq : forall v w, veq v w = true -> keq (key v) (key w) = true.

  Notation M := (matches (fun v w => veq v w = true)).

  Lemma matches_refl l : M l l.
  Proof. split; intros v Hv; exists v; auto. Qed.

  Lemma equals_values_ok a b : length a = length b ->
    exists r, equals_values veq (length a) a b = Ok r /\ (r = true <-> Forall2 (fun v w => veq v w = true) a b).
  Proof.
    revert b. induction a as [|x a IH]; intros [|y b] L; simpl in L; try lia.
    - exists true. simpl. split; [reflexivity|]. split; auto.
    - simpl. destruct (veq x y) eqn:E.
      + destruct (IH b) as (r & Hr & Hi); [lia|]. exists r. split; [exact Hr|]. rewrite Hi.
        split; [intros; constructor; assumption|intros H; inversion H; assumption].
      + exists false. split; [reflexivity|]. split; [discriminate|]. intros H. inversion H. congruence.
  Qed.

  (* an injection between lists of equal length is onto *)
  Lemma matching_onto l l' : distinct l -> distinct l' -> length l = length l' ->
    (forall v, In v l -> exists w, In w l' /\ veq v w = true) ->
    (forall w, In w l' -> exists v, In v l /\ veq v w = true).
  Proof.
    revert l'. induction l as [|a l IH]; intros l' D D' L H w Hw.
    - destruct l'; [destruct Hw|simpl in L; lia].
    - destruct (H a (or_introl eq_refl)) as (a' & Ha' & Ea).
      destruct (in_split _ _ Ha') as (l1 & l2 & ->).
      assert (P : Permutation (l1 ++ a' :: l2) (a' :: l1 ++ l2)) by (symmetry; apply Permutation_middle).
      apply (Permutation_in _ P) in Hw. destruct Hw as [<-|Hw]; [exists a; simpl; auto|].
      inversion D as [|? ? F D1]; subst.
      pose proof (distinct_perm _ _ _ Hkeys _ _ P D') as D2. inversion D2 as [|? ? F2 D3]; subst.
      destruct (IH (l1 ++ l2)) with (w := w) as (v & Hv & Ev); try assumption.
      + rewrite (Permutation_length P) in L. simpl in L. lia.
      + intros v Hv. destruct (H v (or_intror Hv)) as (u & Hu & Eu). exists u. split; [|exact Eu].
        apply (Permutation_in _ P) in Hu. destruct Hu as [<-|Hu]; [|exact Hu]. exfalso.
        rewrite Forall_forall in F. specialize (F v Hv).
        apply Hveq in Ea. apply Hveq in Eu.
        rewrite (keq_trans _ _ Hkeys _ _ _ Ea (keq_sym _ _ Hkeys _ _ Eu)) in F. discriminate.
      + exists v. simpl. auto.
  Qed.

  Lemma distinct_incl_length l l' : distinct l -> distinct l' -> M l l' -> (length l <= length l')%nat.
  Proof.
    intros D D' [H _]. revert l' D' H. induction l as [|a l IH]; intros l' D' H; [simpl; lia|].
    destruct (H a (or_introl eq_refl)) as (a' & Ha' & Ea).
    destruct (in_split _ _ Ha') as (l1 & l2 & ->).
    assert (P : Permutation (l1 ++ a' :: l2) (a' :: l1 ++ l2)) by (symmetry; apply Permutation_middle).
    rewrite (Permutation_length P). simpl. apply le_n_S.
    inversion D as [|? ? F D1]; subst.
    pose proof (distinct_perm _ _ _ Hkeys _ _ P D') as D2. inversion D2 as [|? ? F2 D3]; subst.
    apply (IH D1 (l1 ++ l2) D3). intros v Hv. destruct (H v (or_intror Hv)) as (u & Hu & Eu). exists u. split; [|exact Eu].
    apply (Permutation_in _ P) in Hu. destruct Hu as [<-|Hu]; [|exact Hu]. exfalso.
    rewrite Forall_forall in F. specialize (F v Hv).
    apply Hveq in Ea. apply Hveq in Eu.
    rewrite (keq_trans _ _ Hkeys _ _ _ Ea (keq_sym _ _ Hkeys _ _ Eu)) in F. discriminate.
  Qed.

  Lemma distinct_incl_length' l l' : distinct l -> distinct l' -> M l l' -> (length l' <= length l)%nat.
  Proof.
    intros D D' [_ H]. revert l D H. induction l' as [|a l' IH]; intros l D H; [simpl; lia|].
    destruct (H a (or_introl eq_refl)) as (a' & Ha' & Ea).
    destruct (in_split _ _ Ha') as (l1 & l2 & ->).
    assert (P : Permutation (l1 ++ a' :: l2) (a' :: l1 ++ l2)) by (symmetry; apply Permutation_middle).
    rewrite (Permutation_length P). simpl. apply le_n_S.
    inversion D' as [|? ? F D1]; subst.
    pose proof (distinct_perm _ _ _ Hkeys _ _ P D) as D2. inversion D2 as [|? ? F2 D3]; subst.
    apply (IH D1 (l1 ++ l2) D3). intros v Hv. destruct (H v (or_intror Hv)) as (u & Hu & Eu). exists u. split; [|exact Eu].
    apply (Permutation_in _ P) in Hu. destruct Hu as [<-|Hu]; [|exact Hu]. exfalso.
    rewrite Forall_forall in F. specialize (F v Hv).
    apply Hveq in Ea. apply Hveq in Eu.
    rewrite (keq_trans _ _ Hkeys _ _ _ (keq_sym _ _ Hkeys _ _ Ea) Eu) in F. discriminate.
  Qed.

  Lemma equals_tree_ok d s p n n' : p < 2 ^ s -> wf d s p n -> wf d s p n' ->
    exists r, equals_tree ptr_eq veq d n n' = Ok r /\ (r = true <-> M (elems n) (elems n')).
  Proof.
    revert s p n n'. induction d as [|d IH]; intros s p n n' Hp W W';
      destruct n as [nm dm vs cs|vs], n' as [nm' dm' vs' cs'|vs']; try (simpl in W, W'; contradiction);
      cbn [equals_tree].
    - destruct (ptr_eq _ _) eqn:E.
      { apply Hptr in E. injection E as ->. exists true. split; [reflexivity|]. split; [|reflexivity].
        intros _. apply matches_refl. }
      eexists. split; [reflexivity|]. simpl elems.
      destruct W as (_ & _ & D), W' as (_ & _ & D').
      rewrite andb_true_iff, Nat.eqb_eq. unfold equals_collisions. rewrite forallb_forall.
      assert (X : forall x, existsb (fun y => veq x y) vs' = true <-> exists w, In w vs' /\ veq x w = true)
        by (intros x; apply existsb_exists).
      split.
      + intros [L H]. assert (H' : forall v, In v vs -> exists w, In w vs' /\ veq v w = true)
          by (intros v Hv; apply X, H, Hv).
        split; [exact H'|]. apply matching_onto; assumption.
      + intros HM. split.
        * pose proof (distinct_incl_length _ _ D D' HM). pose proof (distinct_incl_length' _ _ D D' HM). lia.
        * intros v Hv. apply X. apply HM. exact Hv.
    - destruct (ptr_eq _ _) eqn:E.
      { apply Hptr in E. injection E as -> -> -> ->. exists true. split; [reflexivity|]. split; [|reflexivity].
        intros _. apply matches_refl. }
      clear E.
      destruct (negb (nm =? nm') || negb (dm =? dm')) eqn:E.
      { exists false. split; [reflexivity|]. split; [discriminate|]. intros HM.
        destruct (maps_same _ Hveq _ _ _ _ _ _ _ _ _ _ _ Hp W W' HM) as [-> ->].
        rewrite !N.eqb_refl in E. discriminate. }
      apply orb_false_iff in E. destruct E as [E1 E2].
      apply negb_false_iff, N.eqb_eq in E1. apply negb_false_iff, N.eqb_eq in E2. subst nm' dm'.
      pose proof W as (_ & _ & _ & L1 & L2 & _). pose proof W' as (_ & _ & _ & L1' & L2' & _).
      rewrite (rtake_all _ cs L2). cbn [rbind].
      pose proof (matches_slots _ Hveq d s p nm dm vs cs vs' cs' Hp W W') as EQ.
      rewrite <- (slot_Forall2 (fun v w => veq v w = true) dm vs vs' L1 L1') in EQ.
      rewrite <- (slot_Forall2 (fun c c' => M (elems c) (elems c')) nm cs cs' L2 L2') in EQ.
      assert (HC : Forall2 (fun c c' => exists r, equals_tree ptr_eq veq d c c' = Ok r /\ (r = true <-> M (elems c) (elems c'))) cs cs').
      { apply (slot_Forall2 _ nm); [exact L2|exact L2'|]. intros i c c' Hc Hc'.
        destruct (wf_child B key khash keq HB _ _ _ _ _ _ _ _ _ Hp W Hc) as (Wc & Hpc & _).
        destruct (wf_child B key khash keq HB _ _ _ _ _ _ _ _ _ Hp W' Hc') as (Wc' & _ & _).
        apply (IH _ _ _ _ Hpc Wc Wc'). }
      destruct (equals_values_ok vs vs') as (rv & Hrv & Hiv); [lia|]. rewrite L1 in Hrv.
      rewrite <- Hiv in EQ.
      clear W W' L2 L2' Hiv.
      assert (HL : exists r,
        (fix loop (la lb : list nd) : res bool :=
                  match la with
                  | [] => Ok true
                  | x :: la' =>
                    match lb with
                    | y :: lb' =>
                      r <- equals_tree ptr_eq veq d x y ;;
                      if r then loop la' lb' else Ok false
                    | [] => UB
                    end
                  end) cs cs' = Ok r /\ (r = true <-> Forall2 (fun c c' => M (elems c) (elems c')) cs cs')).
      { clear EQ. induction HC as [|c c' cs cs' (r & Hr & Hi) F IHF].
        - exists true. split; [reflexivity|]. split; [constructor|reflexivity].
        - rewrite Hr. cbn [rbind]. destruct r.
          + destruct IHF as (r' & Hr' & Hi'). exists r'. split; [exact Hr'|]. rewrite Hi'. split.
            * intros G. constructor; [apply Hi; reflexivity|exact G].
            * intros G. inversion G. assumption.
          + exists false. split; [reflexivity|]. split; [discriminate|]. intros G. inversion G; subst.
            apply Hi. assumption. }
      destruct HL as (r & -> & Hi). cbn [rbind]. rewrite <- Hi in EQ. destruct r.
      + exists rv. split; [exact Hrv|]. tauto.
      + exists false. split; [reflexivity|]. split; [discriminate|]. intros X. apply EQ in X. destruct X as [_ X]. exact X.
  Qed.

  Notation same_contents := (@same_contents T K veq).

  Lemma holds_m_some c m k v : holds B key khash keq c m -> In v (elems (root c)) ->
    keq (key v) k = true -> m k = Some v.
  Proof.
    intros H Hv E. pose proof (holds_distinct B key khash keq HB Hkeys _ _ H) as D.
    destruct H as (_ & _ & L). apply (lookup_unique key khash keq Hkeys (elems (root c)) k); auto.
    split; [exact Hv|exact E].
  Qed.

  Lemma matches_contents c1 c2 m1 m2 :
    holds B key khash keq c1 m1 -> holds B key khash keq c2 m2 ->
    (M (elems (root c1)) (elems (root c2)) <-> same_contents m1 m2).
  Proof.
    intros H1 H2. split.
    - intros [M1 M2] k. destruct (m1 k) as [v|] eqn:E1, (m2 k) as [w|] eqn:E2.
      + pose proof H1 as (_ & _ & L1). specialize (L1 k). rewrite E1 in L1. destruct L1 as [Hv Ev].
        destruct (M1 v Hv) as (w' & Hw' & Ew). 
        assert (m2 k = Some w').
        { apply (holds_m_some c2 m2 k w' H2 Hw').
          unfold Champ.teqk in *. apply (keq_trans _ _ Hkeys _ (key v)); [|exact Ev].
          apply (keq_sym _ _ Hkeys), Hveq, Ew. }
        congruence.
      + pose proof H1 as (_ & _ & L1). specialize (L1 k). rewrite E1 in L1. destruct L1 as [Hv Ev].
        destruct (M1 v Hv) as (w' & Hw' & Ew).
        assert (m2 k = Some w').
        { apply (holds_m_some c2 m2 k w' H2 Hw').
          unfold Champ.teqk in *. apply (keq_trans _ _ Hkeys _ (key v)); [|exact Ev].
          apply (keq_sym _ _ Hkeys), Hveq, Ew. }
        congruence.
      + pose proof H2 as (_ & _ & L2). specialize (L2 k). rewrite E2 in L2. destruct L2 as [Hw Ew].
        destruct (M2 w Hw) as (v' & Hv' & Ev).
        assert (m1 k = Some v').
        { apply (holds_m_some c1 m1 k v' H1 Hv').
          unfold Champ.teqk in *. apply (keq_trans _ _ Hkeys _ (key w)); [|exact Ew].
          apply Hveq, Ev. }
        congruence.
      + exact I.
    - intros S. split.
      + intros v Hv. assert (E1 : m1 (key v) = Some v).
        { apply (holds_m_some c1 m1 _ v H1 Hv). apply (keq_refl _ _ Hkeys). }
        specialize (S (key v)). rewrite E1 in S. destruct (m2 (key v)) as [w|] eqn:E2; [|contradiction].
        exists w. split; [|exact S]. pose proof H2 as (_ & _ & L2). specialize (L2 (key v)). rewrite E2 in L2. apply L2.
      + intros w Hw. assert (E2 : m2 (key w) = Some w).
        { apply (holds_m_some c2 m2 _ w H2 Hw). apply (keq_refl _ _ Hkeys). }
        specialize (S (key w)). rewrite E2 in S. destruct (m1 (key w)) as [v|] eqn:E1; [|contradiction].
        exists v. split; [|exact S]. pose proof H1 as (_ & _ & L1). specialize (L1 (key w)). rewrite E1 in L1. apply L1.
  Qed.

  Lemma equals_ok c1 c2 m1 m2 :
    holds B key khash keq c1 m1 -> holds B key khash keq c2 m2 ->
    exists r, equals B ptr_eq veq c1 c2 = Ok r /\ (r = true <-> same_contents m1 m2).
  Proof.
    intros H1 H2. unfold equals. pose proof (matches_contents c1 c2 m1 m2 H1 H2) as MC.
    enough (X : exists r, (if size c1 =? size c2 then equals_tree ptr_eq veq max_depth (root c1) (root c2) else Ok false) = Ok r
              /\ (r = true <-> M (elems (root c1)) (elems (root c2)))).
    { destruct X as (r & Hr & Hi). exists r. split; [exact Hr|]. tauto. }
    clear MC.
    destruct (N.eqb_spec (size c1) (size c2)) as [E|E].
    - apply (equals_tree_ok max_depth 0 0); [apply (lt01 B HB)|apply H1|apply H2].
    - exists false. split; [reflexivity|]. split; [discriminate|]. intros HM. exfalso. apply E.
      pose proof (holds_distinct B key khash keq HB Hkeys _ _ H1) as D1.
      pose proof (holds_distinct B key khash keq HB Hkeys _ _ H2) as D2.
      destruct H1 as (_ & S1 & _), H2 as (_ & S2 & _). rewrite S1, S2. f_equal.
      pose proof (distinct_incl_length _ _ D1 D2 HM). pose proof (distinct_incl_length' _ _ D1 D2 HM). lia.
  Qed.
End Eq.
