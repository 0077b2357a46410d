(** Traversal and iterators enumerate the elements. *)
From Coq Require Import List NArith Arith Lia Bool Permutation ZArith ZifyBool ZifyNat ZifyN.
From Verif Require Import Common Bits BitsSpec BitsProofs Slots Champ ChampSpec ChampHist ChampProofs ChampMap.
Import ListNotations.
Local Open Scope N_scope.

Lemma rtake_all {A} n (l : list A) : length l = n -> rtake n l = Ok l.
Proof. intros <-. unfold rtake. rewrite Nat.leb_refl, firstn_all. reflexivity. Qed.

Section Iter.
  Variable B : N.
  Context {T K : Type}.
  Variable key : T -> K.
  Variable khash : K -> N.
  Variable keq : K -> K -> bool.
  Hypothesis HB : 1 <= B.

  Notation max_depth := (max_depth B).
  Notation wf := (wf B key khash keq).
  Notation nd := (node T).

  Lemma vals_zero dm (vs : list T) : length vs = popcount dm -> (dm =? 0) = true -> vs = [].
  Proof.
    intros L E. apply N.eqb_eq in E. subst. destruct vs; [reflexivity|simpl in L; lia].
  Qed.

  Lemma chunks_ok d s p n : wf d s p n ->
    exists cks, chunks d n = Ok cks /\ concat cks = elems n /\ Forall (fun c => c <> []) cks.
  Proof.
    revert s p n. induction d as [|d IH]; intros s p n W; destruct n as [nm dm vs cs|vs];
      try (simpl in W; contradiction).
    - simpl. exists [vs]. simpl. rewrite app_nil_r. split; [reflexivity|]. split; [reflexivity|].
      constructor; [|constructor]. destruct W as (L & _). intros ->. simpl in L. lia.
    - pose proof W as (Hdisj & Hnm & Hdm & L1 & L2 & HV & HC).
      assert (HC' : forall c, In c cs -> exists cks, chunks d c = Ok cks /\ concat cks = elems c /\ Forall (fun c => c <> []) cks).
      { intros c Hc. apply (slot_in nm) in Hc; [|exact L2]. destruct Hc as [i Hi].
        apply (IH (s + B) (p + i * 2 ^ s)). apply (HC i c Hi). }
      cbn [chunks].
      assert (E1 : exists own, (if dm =? 0 then Ok [] else l <- rtake (popcount dm) vs ;; Ok [l]) = Ok own
                   /\ concat own = vs /\ Forall (fun c => c <> []) own).
      { destruct (dm =? 0) eqn:E.
        - exists []. rewrite (vals_zero dm vs L1 E). auto.
        - exists [vs]. rewrite rtake_all by exact L1. simpl. rewrite app_nil_r. repeat split; auto.
          constructor; [|constructor]. intros ->. simpl in L1. symmetry in L1.
          apply popcount_0_iff in L1. subst. discriminate. }
      destruct E1 as (own & -> & Ho & Fo). cbn [rbind].
      assert (E2 : (if nm =? 0 then Ok [] else rtake (popcount nm) cs) = Ok cs).
      { destruct (nm =? 0) eqn:E.
        - apply N.eqb_eq in E. subst. destruct cs; [reflexivity|simpl in L2; lia].
        - apply rtake_all. exact L2. }
      rewrite E2. cbn [rbind].
      clear W HC L2 E2.
      assert (E3 : exists rest,
        (fix loop (l : list nd) : res (list (list T)) :=
                 match l with
                 | [] => Ok []
                 | c :: l' => a <- chunks d c ;; b <- loop l' ;; Ok (a ++ b)
                 end) cs = Ok rest /\ concat rest = flat_map elems cs /\ Forall (fun c => c <> []) rest).
      { induction cs as [|c cs IHc]; [exists []; auto|].
        destruct (HC' c (or_introl eq_refl)) as (a & -> & Ha & Fa). cbn [rbind].
        destruct IHc as (b & -> & Hb & Fb); [intros x Hx; apply HC'; right; exact Hx|].
        cbn [rbind]. exists (a ++ b). rewrite concat_app, Ha, Hb.
        split; [reflexivity|]. split; [reflexivity|]. apply Forall_app. auto. }
      destruct E3 as (rest & -> & Hr & Fr). cbn [rbind]. exists (own ++ rest).
      rewrite concat_app, Ho, Hr. split; [reflexivity|]. split; [reflexivity|]. apply Forall_app. auto.
  Qed.

  (** ** Iterator paths *)
  Notation path := (list (list nd * nat)).

  Inductive vpath : path -> nat -> N -> N -> nd -> Prop :=
  | VRoot n : wf max_depth 0 0 n -> vpath [([n], 0%nat)] max_depth 0 0 n
  | VDown q d s p nm dm vs cs i j c :
      vpath q (S d) s p (Inner nm dm vs cs) -> nth_error cs i = Some c ->
      wf d (s + B) (p + j * 2 ^ s) c ->
      vpath ((cs, i) :: q) d (s + B) (p + j * 2 ^ s) c.

  Definition own (n : nd) : list T := match n with Inner _ _ vs _ => vs | Coll vs => vs end.
  Definition kids (n : nd) : list nd := match n with Inner _ _ _ cs => cs | Coll _ => [] end.
  Definition below (n : nd) : list T := flat_map elems (kids n).
  Fixpoint right (q : path) : list T :=
    match q with
    | [] => []
    | (cs, i) :: q' => flat_map elems (skipn (S i) cs) ++ right q'
    end.

  (* number of nodes of a forest *)
  Fixpoint count (n : nd) : nat :=
    S (match n with Inner _ _ _ cs => fold_right (fun c a => count c + a)%nat 0%nat cs | Coll _ => 0%nat end).
  Definition counts (l : list nd) : nat := fold_right (fun c a => count c + a)%nat 0%nat l.
  Fixpoint count_right (q : path) : nat :=
    match q with
    | [] => 0
    | (cs, i) :: q' => counts (skipn (S i) cs) + count_right q'
    end%nat.
  Definition todo (n : nd) (q : path) : nat := (counts (kids n) + count_right q)%nat.

  Lemma elems_split n : elems n = own n ++ below n.
  Proof. destruct n; unfold below; simpl; [reflexivity|]. rewrite app_nil_r. reflexivity. Qed.

  Lemma count_split n : count n = S (counts (kids n)).
  Proof. destruct n; reflexivity. Qed.

  Lemma vpath_wf q d s p n : vpath q d s p n -> wf d s p n.
  Proof. intros H. destruct H; assumption. Qed.

  Lemma vpath_deref q d s p n : vpath q d s p n -> deref_path q = Ok n.
  Proof. intros H. destruct H; simpl; unfold rnth; [reflexivity|]. rewrite H0. reflexivity. Qed.

  Lemma vpath_depth q d s p n : vpath q d s p n -> (length q + d = S max_depth)%nat.
  Proof. induction 1; simpl in *; lia. Qed.

  Lemma enter_ok d s p n : wf d s p n -> (d <= max_depth)%nat ->
    enter B [] (max_depth - d) n = Ok (own n).
  Proof.
    intros W L. unfold enter. destruct d as [|d], n as [nm dm vs cs|vs]; try (simpl in W; contradiction).
    - rewrite Nat.sub_0_r, Nat.ltb_irrefl. reflexivity.
    - rewrite (proj2 (Nat.ltb_lt _ _)) by lia. pose proof W as (_ & _ & _ & L1 & _).
      destruct (dm =? 0) eqn:E.
      + simpl. rewrite (vals_zero dm vs L1 E). reflexivity.
      + apply rtake_all. exact L1.
  Qed.

  Lemma step_down_ok q d s p n : vpath q d s p n ->
    (exists q' d' s' p' n',
       step_down B (mkIter [] q) = Ok (mkIter (own n') q', true) /\ vpath q' d' s' p' n' /\
       below n ++ right q = own n' ++ below n' ++ right q' /\ todo n q = S (todo n' q')) \/
    (step_down B (mkIter [] q) = Ok (mkIter [] q, false) /\ kids n = []).
  Proof.
    intros V. pose proof (vpath_depth _ _ _ _ _ V) as Ld. pose proof (vpath_wf _ _ _ _ _ V) as W.
    assert (Hd : it_depth q = (max_depth - d)%nat) by (unfold it_depth; lia).
    unfold step_down. cbn [it_path it_rem]. rewrite Hd, (vpath_deref _ _ _ _ _ V). cbn [rbind].
    destruct d as [|d], n as [nm dm vs cs|vs]; try (simpl in W; contradiction).
    - rewrite Nat.sub_0_r, Nat.ltb_irrefl. right. split; reflexivity.
    - assert (Lt' : (S d <= max_depth)%nat).
      { destruct q; [inversion V|]. simpl in Ld. lia. }
      assert (Lt : (max_depth - S d <? max_depth)%nat = true) by (apply Nat.ltb_lt; lia).
      rewrite Lt. pose proof W as (Hdisj & Hnm & Hdm & L1 & L2 & HV & HC).
      destruct (nm =? 0) eqn:E.
      + right. split; [reflexivity|]. apply N.eqb_eq in E. subst. simpl. destruct cs; [reflexivity|simpl in L2; lia].
      + left. destruct cs as [|c cs].
        { simpl in L2. symmetry in L2. apply popcount_0_iff in L2. subst. discriminate. }
        assert (Hc : In c (c :: cs)) by (left; reflexivity).
        apply (slot_in nm) in Hc; [|exact L2]. destruct Hc as [j Hj].
        destruct (HC j c Hj) as [Wc _].
        assert (V' : vpath ((c :: cs, 0%nat) :: q) d (s + B) (p + j * 2 ^ s) c).
        { eapply VDown; [exact V|reflexivity|exact Wc]. }
        unfold rnth. cbn [nth_error rbind].
        replace (S (max_depth - S d)) with (max_depth - d)%nat by lia.
        rewrite (enter_ok d _ _ c Wc) by lia. cbn [rbind].
        do 5 eexists. split; [reflexivity|]. split; [exact V'|]. split.
        * unfold below at 1. simpl. rewrite (elems_split c), <- !app_assoc. reflexivity.
        * unfold todo. simpl. rewrite count_split. lia.
  Qed.

  Lemma skipn_nth {A} (l : list A) i x : nth_error l i = Some x -> skipn i l = x :: skipn (S i) l.
  Proof.
    revert i. induction l as [|a l IH]; intros [|i] H; simpl in *; try discriminate.
    - injection H as ->. reflexivity.
    - apply IH. exact H.
  Qed.

  Lemma step_right_ok q d s p n : vpath q d s p n ->
    (exists q' d' s' p' n',
       step_right B [] q = Ok (mkIter (own n') q', true) /\ vpath q' d' s' p' n' /\
       right q = own n' ++ below n' ++ right q' /\ count_right q = S (todo n' q')) \/
    (exists q', step_right B [] q = Ok (mkIter [] q', false) /\ right q = []).
  Proof.
    induction 1 as [n W|q d s p nm dm vs cs i j c V IH Hc Wc].
    - right. simpl. eexists. split; reflexivity.
    - pose proof (vpath_wf _ _ _ _ _ V) as W. pose proof W as (Hdisj & Hnm & Hdm & L1 & L2 & HV & HC).
      pose proof (vpath_depth _ _ _ _ _ V) as Ld. pose proof (vpath_deref _ _ _ _ _ V) as D.
      cbn [step_right]. destruct q as [|(cs', i') q']; [inversion V|].
      simpl in D. rewrite D. cbn [rbind].
      destruct (Nat.ltb_spec (S i) (popcount nm)) as [Lt|Ge].
      + left. destruct (nth_error cs (S i)) as [c'|] eqn:E.
        2:{ apply nth_error_None in E. lia. }
        assert (Hc' : In c' cs) by (apply (nth_error_In _ _ E)).
        apply (slot_in nm) in Hc'; [|exact L2]. destruct Hc' as [j' Hj'].
        destruct (HC j' c' Hj') as [Wc' _].
        assert (V' : vpath ((cs, S i) :: (cs', i') :: q') d (s + B) (p + j' * 2 ^ s) c').
        { eapply VDown; [exact V|exact E|exact Wc']. }
        unfold rnth. rewrite E. cbn [rbind].
        replace (length ((cs', i') :: q')) with (max_depth - d)%nat by (simpl in *; lia).
        rewrite (enter_ok d _ _ c' Wc') by (simpl in *; lia). cbn [rbind].
        do 5 eexists. split; [reflexivity|]. split; [exact V'|]. 
        unfold todo. cbn [right count_right]. rewrite (skipn_nth _ _ _ E). split.
        * cbn [flat_map]. rewrite (elems_split c'), <- !app_assoc. reflexivity.
        * unfold counts at 1. cbn [fold_right]. rewrite count_split. fold (counts (skipn (S (S i)) cs)). lia.
      + cbn [right count_right]. rewrite skipn_all2 by lia. cbn [flat_map app]. unfold counts. cbn [fold_right].
        exact IH.
  Qed.

  (** What is left to visit. *)
  Definition it_ok (it : iter) (l : list T) (bound : nat) : Prop :=
    (it_rem it = [] /\ l = []) \/
    (exists d s p n, vpath (it_path it) d s p n /\ it_rem it <> [] /\
       l = it_rem it ++ below n ++ right (it_path it) /\ (todo n (it_path it) < bound)%nat).

  Lemma ensure_valid_ok fuel rem q d s p n : vpath q d s p n -> (todo n q < fuel)%nat ->
    exists it', ensure_valid B fuel (mkIter rem q) = Ok it' /\
      it_ok it' (rem ++ below n ++ right q) fuel.
  Proof.
    revert rem q d s p n. induction fuel as [|fuel IH]; intros rem q d s p n V Hf; [lia|].
    cbn [ensure_valid it_rem]. destruct rem as [|x rem].
    2:{ eexists. split; [reflexivity|]. right. exists d, s, p, n. cbn [it_rem it_path].
        repeat split; [exact V|discriminate|exact Hf]. }
    destruct (step_down_ok _ _ _ _ _ V) as [(q' & d' & s' & p' & n' & -> & V' & E & M)|(-> & Kn)]; cbn [rbind].
    - destruct (IH (own n') q' d' s' p' n' V') as (it' & Hi & Ho); [lia|].
      exists it'. split; [exact Hi|]. simpl app. rewrite E.
      destruct Ho as [Ho|(d0 & s0 & p0 & n0 & ? & ? & ? & ?)]; [left; exact Ho|right].
      exists d0, s0, p0, n0. repeat split; try assumption. lia.
    - cbn [it_path it_rem].
      assert (Bn : below n = []) by (unfold below; rewrite Kn; reflexivity).
      assert (Tn : todo n q = count_right q) by (unfold todo; rewrite Kn; reflexivity).
      destruct (step_right_ok _ _ _ _ _ V) as [(q' & d' & s' & p' & n' & -> & V' & E & M)|(q' & -> & R)];
        cbn [rbind].
      + destruct (IH (own n') q' d' s' p' n' V') as (it' & Hi & Ho); [lia|].
        exists it'. split; [exact Hi|]. rewrite Bn. simpl app. rewrite E.
        destruct Ho as [Ho|(d0 & s0 & p0 & n0 & ? & ? & ? & ?)]; [left; exact Ho|right].
        exists d0, s0, p0, n0. repeat split; try assumption. lia.
      + eexists. split; [reflexivity|]. left. rewrite Bn, R. split; reflexivity.
  Qed.

  Lemma iterate_ok steps fuel it l : it_ok it l fuel -> (length l <= steps)%nat ->
    iterate B steps fuel it = Ok l.
  Proof.
    revert it l. induction steps as [|steps IH]; intros it l Ho Hl.
    - destruct Ho as [(E & ->)|(d & s & p & n & V & Hne & -> & Ht)].
      + simpl. unfold it_is_end. rewrite E. reflexivity.
      + destruct (it_rem it); [congruence|]. rewrite app_length in Hl. simpl in Hl. lia.
    - destruct Ho as [(E & ->)|(d & s & p & n & V & Hne & -> & Ht)].
      + simpl. unfold it_is_end. rewrite E. reflexivity.
      + cbn [iterate]. unfold it_is_end, it_deref, it_next.
        destruct (it_rem it) as [|x rem] eqn:Er; [congruence|]. cbn [rbind].
        destruct (ensure_valid_ok fuel rem (it_path it) d s p n V Ht) as (it' & -> & Ho).
        cbn [rbind]. rewrite (IH it' _ Ho).
        * reflexivity.
        * simpl in Hl. lia.
  Qed.

  Lemma iterate_all c steps fuel : wf max_depth 0 0 (root c) ->
    (length (elems (root c)) <= steps)%nat -> (count (root c) <= fuel)%nat ->
    (it <- it_begin B fuel c ;; iterate B steps fuel it) = Ok (elems (root c)).
  Proof.
    intros W Hs Hf. unfold it_begin.
    pose proof (max_depth_pos B HB) as Hmd.
    destruct (root c) as [nm dm vs cs|vs] eqn:Er.
    2:{ destruct max_depth; [lia|]. simpl in W. contradiction. }
    assert (L1 : length vs = popcount dm).
    { destruct max_depth; [lia|]. destruct W as (_ & _ & _ & L1 & _). exact L1. }
    assert (E1 : (if dm =? 0 then Ok [] else rtake (popcount dm) vs) = Ok vs).
    { destruct (dm =? 0) eqn:E; [rewrite (vals_zero dm vs L1 E); reflexivity|].
      apply rtake_all. exact L1. }
    rewrite E1. cbn [rbind].
    destruct (ensure_valid_ok fuel vs [([Inner nm dm vs cs], 0%nat)] max_depth 0 0 (Inner nm dm vs cs)
                (VRoot _ W)) as (it' & -> & Ho).
    - unfold todo. rewrite count_split in Hf. simpl in *. lia.
    - cbn [rbind]. rewrite <- (app_nil_r (elems _)).
      replace (elems (Inner nm dm vs cs) ++ []) with (vs ++ below (Inner nm dm vs cs) ++ right [([Inner nm dm vs cs], 0%nat)]).
      + apply iterate_ok; [exact Ho|]. unfold below. simpl in *. rewrite app_nil_r. exact Hs.
      + unfold below. simpl. rewrite !app_nil_r. reflexivity.
  Qed.
End Iter.
