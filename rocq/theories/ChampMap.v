(** Refinement of the container to a partial function, over histories. *)
From Coq Require Import List NArith Arith Lia Bool Permutation ZArith ZifyBool ZifyNat ZifyN.
From Verif Require Import Common Bits BitsSpec BitsProofs Slots Champ ChampSpec ChampHist ChampProofs.
Import ListNotations.
Local Open Scope N_scope.

Section Map.
  Variable B : N.
  Context {T K : Type}.
  Variable key : T -> K.
  Variable khash : K -> N.
  Variable keq : K -> K -> bool.
  Hypothesis HB : 1 <= B.
  Hypothesis Hkeys : keys_ok keq khash.

  Notation thash := (thash key khash).
  Notation teqk := (teqk key keq).
  Notation max_depth := (max_depth B).
  Notation distinct := (distinct_keys key keq).
  Notation wf := (wf B key khash keq).
  Notation lookup_ok := (lookup_ok key keq).
  Notation lists := (lists key keq).

  Lemma distinct_unique l a b k : distinct l -> In a l -> In b l ->
    teqk a k = true -> teqk b k = true -> a = b.
  Proof.
    intros D Ha Hb Ea Eb. destruct (in_split _ _ Ha) as (l1 & l2 & ->).
    assert (P : Permutation (l1 ++ a :: l2) (a :: l1 ++ l2)) by (symmetry; apply Permutation_middle).
    pose proof (distinct_perm _ _ _ Hkeys _ _ P D) as D'. inversion D' as [|? ? F _]; subst.
    apply (Permutation_in _ P) in Hb. destruct Hb as [|Hb]; [assumption|].
    rewrite Forall_forall in F. specialize (F b Hb). unfold Champ.teqk in *.
    rewrite (keq_cong _ _ Hkeys _ _ _ Ea), (keq_sym _ _ Hkeys _ _ Eb) in F. discriminate.
  Qed.

  Lemma lookup_unique l k r r' : distinct l -> lookup_ok l k r -> lookup_ok l k r' -> r = r'.
  Proof.
    intros D H H'. destruct r as [v|], r' as [w|]; simpl in *.
    - destruct H as [H1 H2], H' as [H3 H4]. f_equal. apply (distinct_unique l v w k); assumption.
    - destruct H as [H1 H2]. rewrite (H' v H1) in H2. discriminate.
    - destruct H' as [H1 H2]. rewrite (H w H1) in H2. discriminate.
    - reflexivity.
  Qed.

  (** The container [c] holds exactly [m]. *)
  Definition holds (c : champ) (m : amap) : Prop :=
    wf max_depth 0 0 (root c) /\
    size c = N.of_nat (length (elems (root c))) /\
    forall k, lookup_ok (elems (root c)) k (m k).

  Lemma lt01 : 0 < 2 ^ 0. Proof. rewrite N.pow_0_r. lia. Qed.

  Lemma mod_pow0 h : h mod 2 ^ 0 = 0.
  Proof. rewrite N.pow_0_r, N.mod_1_r. reflexivity. Qed.

  Lemma max_depth_pos : (0 < max_depth)%nat.
  Proof.
    unfold Champ.max_depth. assert (0 < (64 + B - 1) / B); [|lia].
    apply N.div_str_pos. lia.
  Qed.

  Lemma holds_distinct c m : holds c m -> distinct (elems (root c)).
  Proof. intros (W & _ & _). apply (wf_distinct B key khash keq HB Hkeys _ _ _ _ lt01 W). Qed.

  Lemma holds_empty : holds empty (@aempty T K).
  Proof.
    unfold holds, empty. simpl root. pose proof max_depth_pos.
    destruct max_depth as [|d]; [lia|]. split; [apply wf_empty; assumption|].
    split; [reflexivity|]. intros k v [].
  Qed.

  Lemma holds_get c m k : holds c m -> get B key khash keq c k = Ok (m k).
  Proof.
    intros H. pose proof H as (W & _ & L). unfold get.
    destruct (get_loop_ok B key khash keq HB Hkeys max_depth 0 0 (root c) k)
      as (r & Hr & Ho).
    - apply (level_top B HB).
    - apply lt01.
    - exact W.
    - apply mod_pow0.
    - rewrite N.shiftr_0_r in Hr. rewrite Hr. f_equal.
      apply (lookup_unique (elems (root c)) k); [apply (holds_distinct c m H)|exact Ho|apply L].
  Qed.

  Lemma holds_lists c m : holds c m -> lists (elems (root c)) m.
  Proof.
    intros H. pose proof (holds_distinct c m H) as D. destruct H as (W & _ & L).
    split; [exact D|]. intros v. specialize (L (key v)). split.
    - intros Hv. apply (lookup_unique (elems (root c)) (key v)); [exact D|exact L|].
      split; [exact Hv|]. apply (keq_refl _ _ Hkeys).
    - intros E. rewrite E in L. apply L.
  Qed.

  Lemma distinct_NoDup l : distinct l -> NoDup l.
  Proof.
    induction 1 as [|x l F H IH]; constructor; [|exact IH].
    intros Hx. rewrite Forall_forall in F. specialize (F x Hx).
    rewrite (keq_refl _ _ Hkeys) in F. discriminate.
  Qed.

  Lemma lists_perm l l' m : lists l m -> lists l' m -> Permutation l l'.
  Proof.
    intros (D & H) (D' & H'). apply NoDup_Permutation; try (apply distinct_NoDup; assumption).
    intros v. rewrite H, H'. reflexivity.
  Qed.

  (** Taking the entry for [k] out. *)
  Lemma lookup_remove l w r k (m : amap) : distinct l -> Permutation l (w :: r) ->
    teqk w k = true -> (forall k', lookup_ok l k' (m k')) ->
    (forall v, In v r -> teqk v k = false) /\
    (forall k', keq k k' = false -> lookup_ok r k' (m k')).
  Proof.
    intros D P E L. pose proof (distinct_perm _ _ _ Hkeys _ _ P D) as D'.
    inversion D' as [|? ? F _]; subst. rewrite Forall_forall in F. split.
    - intros v Hv. specialize (F v Hv). unfold Champ.teqk in *.
      rewrite (keq_sym_eq _ _ Hkeys). rewrite <- (keq_cong _ _ Hkeys _ _ _ E). exact F.
    - intros k' Hk. specialize (L k'). destruct (m k') as [v|]; simpl in *.
      + destruct L as [Hv Ev]. split; [|exact Ev].
        apply (Permutation_in _ P) in Hv. destruct Hv as [<-|Hv]; [|exact Hv].
        unfold Champ.teqk in *. rewrite (keq_cong _ _ Hkeys _ _ _ E) in Ev. congruence.
      + intros v Hv. apply L. apply (Permutation_in _ (Permutation_sym P)). right. exact Hv.
  Qed.

  Lemma lookup_put l u r k (m : amap) : teqk u k = true -> Permutation l (u :: r) ->
    (forall k', keq k k' = false -> lookup_ok r k' (m k')) ->
    forall k', lookup_ok l k' (aput keq k u m k').
  Proof.
    intros E P L k'. unfold aput. destruct (keq k k') eqn:Ek.
    - split; [apply (Permutation_in _ (Permutation_sym P)); left; reflexivity|].
      unfold Champ.teqk in *. rewrite (keq_cong _ _ Hkeys _ _ _ E). exact Ek.
    - specialize (L k' Ek). destruct (m k') as [v|]; simpl in *.
      + destruct L as [Hv Ev]. split; [|exact Ev].
        apply (Permutation_in _ (Permutation_sym P)). right. exact Hv.
      + intros v Hv. apply (Permutation_in _ P) in Hv. destruct Hv as [<-|Hv]; [|apply L; exact Hv].
        unfold Champ.teqk in *. rewrite (keq_cong _ _ Hkeys _ _ _ E). exact Ek.
  Qed.

  Lemma holds_m_some c m k w : holds c m -> In w (elems (root c)) -> teqk w k = true -> m k = Some w.
  Proof.
    intros H Hw E. apply (lookup_unique (elems (root c)) k).
    - apply (holds_distinct c m H).
    - apply H.
    - split; assumption.
  Qed.

  Lemma holds_m_none c m k : holds c m -> (forall w, In w (elems (root c)) -> teqk w k = false) -> m k = None.
  Proof.
    intros H N. apply (lookup_unique (elems (root c)) k).
    - apply (holds_distinct c m H).
    - apply H.
    - exact N.
  Qed.

  (** ** Operations *)
  Section Ops.
    Context {V : Type}.
    Variable project : T -> V.
    Variable combine : K -> V -> T.

    Lemma update_holds c m k fn dflt :
      (forall x, keq (key (combine k x)) k = true) -> holds c m ->
      exists c', update B key khash keq project combine c k fn dflt = Ok c' /\
        holds c' (aput keq k (combine k (fn (match m k with Some w => project w | None => dflt end))) m).
    Proof.
      intros Hc H. pose proof (holds_distinct c m H) as D. pose proof H as (W & S & L).
      unfold update.
      destruct (do_update_ok B key khash keq HB Hkeys project combine k Hc
                  max_depth max_depth 0 0 (root c) fn dflt)
        as (n' & added & Hr & W' & Hrel);
        [lia|apply (level_top B HB)|apply lt01|exact W|apply mod_pow0|].
      rewrite Hr. cbn [rbind]. eexists. split; [reflexivity|].
      unfold update_rel in Hrel. destruct added.
      - destruct Hrel as [Hno P].
        rewrite (holds_m_none c m k H Hno). split; [exact W'|]. simpl root. simpl size. split.
        + rewrite S, (Permutation_length P). simpl. lia.
        + apply (lookup_put _ _ (elems (root c))); [apply Hc|exact P|]. intros k' _. apply L.
      - destruct Hrel as (w & r & Ew & P & P').
        assert (Hw : In w (elems (root c))) by (apply (Permutation_in _ (Permutation_sym P)); left; reflexivity).
        rewrite (holds_m_some c m k w H Hw Ew). split; [exact W'|]. simpl root. simpl size. split.
        + rewrite S, (Permutation_length P), (Permutation_length P'). simpl. lia.
        + destruct (lookup_remove _ _ _ _ m D P Ew L) as [_ L'].
          apply (lookup_put _ _ r); [apply Hc|exact P'|exact L'].
    Qed.

    Lemma update_if_exists_holds c m k fn :
      (forall x, keq (key (combine k x)) k = true) -> holds c m ->
      exists c', update_if_exists B key khash keq project combine c k fn = Ok c' /\
        holds c' (match m k with
                  | Some w => aput keq k (combine k (fn (project w))) m
                  | None => m
                  end).
    Proof.
      intros Hc H. pose proof (holds_distinct c m H) as D. pose proof H as (W & S & L).
      unfold update_if_exists.
      destruct (do_update_if_ok B key khash keq HB Hkeys project combine k Hc
                  max_depth max_depth 0 0 (root c) fn)
        as (r & Hr & W' & Hrel);
        [lia|apply (level_top B HB)|apply lt01|exact W|apply mod_pow0|].
      rewrite Hr. cbn [rbind]. eexists. split; [reflexivity|].
      destruct r as [n'|].
      - destruct Hrel as (w & r & Ew & P & P').
        assert (Hw : In w (elems (root c))) by (apply (Permutation_in _ (Permutation_sym P)); left; reflexivity).
        rewrite (holds_m_some c m k w H Hw Ew). split; [apply W'; reflexivity|].
        simpl root. simpl size. split.
        + rewrite S, (Permutation_length P), (Permutation_length P'). simpl. lia.
        + destruct (lookup_remove _ _ _ _ m D P Ew L) as [_ L'].
          apply (lookup_put _ _ r); [apply Hc|exact P'|exact L'].
      - rewrite (holds_m_none c m k H Hrel). exact H.
    Qed.
  End Ops.

  Lemma add_holds c m v : holds c m ->
    exists c', add B key khash keq c v = Ok c' /\ holds c' (aput keq (key v) v m).
  Proof.
    intros H. unfold add. rewrite (do_add_update B key khash keq).
    pose proof (update_holds (fun _ => tt) (fun _ _ => v) c m (key v) (fun x => x) tt) as U.
    unfold update in U. apply U; [|exact H]. intros _. apply (keq_refl _ _ Hkeys).
  Qed.

  Lemma sub_holds c m k : holds c m ->
    exists c', sub B key khash keq c k = Ok c' /\ holds c' (adel keq k m).
  Proof.
    intros H. pose proof (holds_distinct c m H) as D. pose proof H as (W & S & L).
    unfold sub.
    destruct (do_sub_ok B key khash keq HB Hkeys max_depth max_depth 0 0 (root c) k)
      as (r & Hr & Hrel & HT & HS);
      [lia|apply (level_top B HB)|apply lt01|exact W|apply mod_pow0|left; reflexivity|].
    rewrite Hr. cbn [rbind]. destruct r as [|x|n'].
    - eexists. split; [reflexivity|]. split; [exact W|]. split; [exact S|].
      intros k'. unfold adel. destruct (keq k k') eqn:E; [|apply L].
      simpl. intros v Hv. specialize (Hrel v Hv). unfold Champ.teqk in *.
      rewrite (keq_sym_eq _ _ Hkeys), <- (keq_cong _ _ Hkeys _ _ _ E), (keq_sym_eq _ _ Hkeys). exact Hrel.
    - exfalso. apply (HS eq_refl max_depth_pos x). reflexivity.
    - destruct Hrel as (w & Ew & P). destruct (HT n' eq_refl) as [W' _].
      eexists. split; [reflexivity|]. split; [exact W'|]. simpl root. simpl size. split.
      + rewrite S, (Permutation_length P). cbn [length]. lia.
      + destruct (lookup_remove _ _ _ _ m D P Ew L) as [N L'].
        intros k'. unfold adel. destruct (keq k k') eqn:E; [|apply L'; exact E].
        simpl. intros v Hv. specialize (N v Hv). unfold Champ.teqk in *.
        rewrite (keq_sym_eq _ _ Hkeys), <- (keq_cong _ _ Hkeys _ _ _ E), (keq_sym_eq _ _ Hkeys). exact N.
  Qed.

  (** ** Histories *)
  Section Hist.
    Context {V : Type}.
    Variable project : T -> V.
    Variable combine : K -> V -> T.
    Hypothesis Hcomb : forall k x, keq (key (combine k x)) k = true.

    Lemma step_holds o c m : holds c m ->
      exists c', step B key khash keq project combine o c = Ok c' /\
                 holds c' (astep key keq project combine o m).
    Proof.
      intros H. destruct o; simpl.
      - apply add_holds. exact H.
      - apply update_holds; [apply Hcomb|exact H].
      - apply update_if_exists_holds; [apply Hcomb|exact H].
      - apply sub_holds. exact H.
    Qed.

    Lemma run_holds_from ops c m : holds c m ->
      exists c', fold_left (fun rc o => c <- rc ;; step B key khash keq project combine o c) ops (Ok c) = Ok c' /\
                 holds c' (fold_left (fun m o => astep key keq project combine o m) ops m).
    Proof.
      revert c m. induction ops as [|o ops IH]; intros c m H; simpl.
      - exists c. auto.
      - destruct (step_holds o c m H) as (c1 & E & H1). rewrite E. apply IH. exact H1.
    Qed.

    Lemma run_holds ops :
      exists c, run B key khash keq project combine ops = Ok c /\
                holds c (ahistory key keq project combine ops).
    Proof. apply run_holds_from. apply holds_empty. Qed.
  End Hist.
End Map.
