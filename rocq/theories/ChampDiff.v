(** diff reports exactly the difference of the contents. *)
From Coq Require Import List NArith Arith Lia Bool Permutation ZArith ZifyBool ZifyNat ZifyN.
From Verif Require Import Common Bits BitsSpec BitsProofs Slots Champ ChampSpec ChampHist ChampProofs ChampMap ChampIter ChampEq.
Import ListNotations.
Local Open Scope N_scope.

Lemma NoDup_app_intro {A} (l1 l2 : list A) : NoDup l1 -> NoDup l2 ->
  (forall x, In x l1 -> In x l2 -> False) -> NoDup (l1 ++ l2).
Proof.
  intros H1 H2 D. induction H1 as [|x l Hx H1 IH]; [exact H2|].
  simpl. constructor.
  - rewrite in_app_iff. intros [H|H]; [tauto|]. apply (D x); simpl; auto.
  - apply IH. intros y Hy. apply D. simpl; auto.
Qed.

Lemma NoDup_map_on {A C} (f : A -> C) l : NoDup l ->
  (forall x y, In x l -> In y l -> f x = f y -> x = y) -> NoDup (map f l).
Proof.
  induction 1 as [|x l Hx H IH]; intros I; [constructor|]. simpl. constructor.
  - intros H'. apply in_map_iff in H'. destruct H' as (y & E & Hy).
    assert (y = x) by (apply I; simpl; auto). congruence.
  - apply IH. intros a b Ha Hb. apply I; simpl; auto.
Qed.

Lemma rconcat_map_ok {A E} (f : A -> res (list E)) (P : A -> E -> Prop) l :
  NoDup l -> (forall b b' e, P b e -> P b' e -> b = b') ->
  (forall b, In b l -> exists evs, f b = Ok evs /\ (forall e, In e evs <-> P b e) /\ NoDup evs) ->
  exists evs, rconcat_map f l = Ok evs /\ (forall e, In e evs <-> exists b, In b l /\ P b e) /\ NoDup evs.
Proof.
  intros ND U H. induction ND as [|b l Hb ND IH].
  - exists []. simpl. split; [reflexivity|]. split; [|constructor].
    intros e. split; [tauto|]. intros (b & [] & _).
  - destruct (H b (or_introl eq_refl)) as (ev & Hf & He & Hn).
    destruct IH as (evs & Hr & Hes & Hns); [intros b' Hb'; apply H; simpl; auto|].
    exists (ev ++ evs). simpl. rewrite Hf, Hr. split; [reflexivity|]. split.
    + intros e. rewrite in_app_iff, He, Hes. split.
      * intros [Hp|(b' & Hb' & Hp)]; [exists b; auto|exists b'; auto].
      * intros (b' & [<-|Hb'] & Hp); [auto|right; exists b'; auto].
    + apply NoDup_app_intro; [exact Hn|exact Hns|]. intros e H1 H2.
      apply He in H1. apply Hes in H2. destruct H2 as (b' & Hb' & H2).
      rewrite (U _ _ _ H1 H2) in Hb. contradiction.
Qed.

Section Diff.
  Variable B : N.
  Context {T K : Type}.
  Variable key : T -> K.
  Variable khash : K -> N.
  Variable keq : K -> K -> bool.
  Hypothesis HB : 1 <= B.
  Hypothesis HB6 : B <= 6.
  Hypothesis Hkeys : keys_ok keq khash.
  Variable ptr_eq : node T -> node T -> bool.
  Variable veq : T -> T -> bool.
  Hypothesis Hptr : forall a b, ptr_eq a b = true -> a = b.
  Hypothesis Hrefl : forall v, veq v v = true.

  Notation thash := (thash key khash).
  Notation max_depth := (max_depth B).
  Notation distinct := (distinct_keys key keq).
  Notation wf := (wf B key khash keq).
  Notation idx := (idx B).
  Notation nd := (node T).
  Notation ev := (@event T).

  Definition ekey (e : ev) : T :=
    match e with Added v => v | Removed v => v | Changed a _ => a end.

  (** The events for two collections of entries with distinct keys. *)
  Definition exp (l l' : list T) (e : ev) : Prop :=
    match e with
    | Added v => In v l' /\ forall w, In w l -> keq (key w) (key v) = false
    | Removed v => In v l /\ forall w, In w l' -> keq (key v) (key w) = false
    | Changed a b => In a l /\ In b l' /\ keq (key a) (key b) = true /\ veq a b = false
    end.

  Definition good (l l' : list T) (evs : list ev) : Prop :=
    (forall e, In e evs <-> exp l l' e) /\ NoDup evs.

  Lemma keq_false_sym a b : keq a b = false -> keq b a = false.
  Proof.
    intros H. destruct (keq b a) eqn:E; [|reflexivity].
    rewrite (keq_sym _ _ Hkeys _ _ E) in H. discriminate.
  Qed.

  Lemma same_entry l a b : distinct l -> In a l -> In b l -> keq (key a) (key b) = true -> a = b.
  Proof.
    intros D Ha Hb E. apply (distinct_unique key khash keq Hkeys l a b (key b) D Ha Hb E).
    apply (keq_refl _ _ Hkeys).
  Qed.

  Lemma good_added l : distinct l -> good [] l (map Added l).
  Proof.
    intros D. split.
    - intros e. rewrite in_map_iff. split.
      + intros (v & <- & Hv). simpl. split; [exact Hv|]. intros w [].
      + destruct e as [v|v|a b]; simpl.
        * intros [Hv _]. exists v. auto.
        * intros [[] _].
        * intros [[] _].
    - apply NoDup_map_on; [apply (distinct_NoDup key khash keq Hkeys); exact D|]. congruence.
  Qed.

  Lemma good_removed l : distinct l -> good l [] (map Removed l).
  Proof.
    intros D. split.
    - intros e. rewrite in_map_iff. split.
      + intros (v & <- & Hv). simpl. split; [exact Hv|]. intros w [].
      + destruct e as [v|v|a b]; simpl.
        * intros [[] _].
        * intros [Hv _]. exists v. auto.
        * intros (_ & [] & _).
    - apply NoDup_map_on; [apply (distinct_NoDup key khash keq Hkeys); exact D|]. congruence.
  Qed.

  Lemma good_same l : distinct l -> good l l [].
  Proof.
    intros D. split; [|constructor]. intros e. split; [intros []|].
    destruct e as [v|v|a b]; simpl.
    - intros [Hv H]. specialize (H v Hv). rewrite (keq_refl _ _ Hkeys) in H. discriminate.
    - intros [Hv H]. specialize (H v Hv). rewrite (keq_refl _ _ Hkeys) in H. discriminate.
    - intros (Ha & Hb & E & Ev). rewrite (same_entry l a b D Ha Hb E), Hrefl in Ev. discriminate.
  Qed.

  Lemma good_data_data a b : good [a] [b] (diff_data_data key keq veq a b).
  Proof.
    unfold diff_data_data. destruct (keq (key a) (key b)) eqn:E; simpl.
    - destruct (veq a b) eqn:Ev.
      + split; [|constructor]. intros e. split; [intros []|]. destruct e as [v|v|x y]; simpl.
        * intros [[<-|[]] H]. specialize (H a (or_introl eq_refl)). congruence.
        * intros [[<-|[]] H]. specialize (H b (or_introl eq_refl)). congruence.
        * intros ([<-|[]] & [<-|[]] & _ & H). congruence.
      + split; [|repeat constructor; simpl; tauto]. intros e. split.
        * intros [<-|[]]. simpl. auto.
        * destruct e as [v|v|x y]; simpl.
          -- intros [[<-|[]] H]. specialize (H a (or_introl eq_refl)). congruence.
          -- intros [[<-|[]] H]. specialize (H b (or_introl eq_refl)). congruence.
          -- intros ([<-|[]] & [<-|[]] & _ & H). auto.
    - split.
      + intros e. split.
        * intros [<-|[<-|[]]]; simpl; (split; [auto|]); intros w [<-|[]]; exact E.
        * destruct e as [v|v|x y]; simpl.
          -- intros [[<-|[]] H]. auto.
          -- intros [[<-|[]] H]. auto.
          -- intros ([<-|[]] & [<-|[]] & H & _). congruence.
      + repeat constructor; simpl; intuition congruence.
  Qed.

  Lemma diff_data_node_good a l : distinct l ->
    good [a] l (flat_map (fun w => if keq (key a) (key w)
                       then (if veq a w then [] else [Changed a w])
                       else [Added w]) l
    ++ (if existsb (fun w => keq (key a) (key w)) l then [] else [Removed a])).
  Proof.
    intros D. split.
    - intros e. rewrite in_app_iff, in_flat_map. split.
      + intros [(w & Hw & He)|He].
        * destruct (keq (key a) (key w)) eqn:E.
          -- destruct (veq a w) eqn:Ev; [destruct He|]. destruct He as [<-|[]]. simpl. auto.
          -- destruct He as [<-|[]]. simpl. split; [exact Hw|]. intros x [<-|[]]. exact E.
        * destruct (existsb _ l) eqn:E; [destruct He|]. destruct He as [<-|[]]. simpl.
          split; [auto|]. intros w Hw. destruct (keq (key a) (key w)) eqn:F; [|reflexivity].
          assert (existsb (fun w => keq (key a) (key w)) l = true) by (apply existsb_exists; eauto). congruence.
      + destruct e as [v|v|x y]; simpl.
        * intros [Hv H]. left. exists v. split; [exact Hv|]. rewrite (H a) by auto. simpl. auto.
        * intros [[<-|[]] H]. right. destruct (existsb _ l) eqn:E; [|simpl; auto].
          apply existsb_exists in E. destruct E as (w & Hw & E). rewrite (H w Hw) in E. discriminate.
        * intros ([<-|[]] & Hy & E & Ev). left. exists y. split; [exact Hy|]. rewrite E, Ev. simpl. auto.
    - apply NoDup_app_intro.
      + induction l as [|w l IH]; [constructor|]. simpl.
        inversion D as [|? ? F D']; subst. apply NoDup_app_intro; [|apply IH; exact D'|].
        * destruct (keq (key a) (key w)); [destruct (veq a w)|]; repeat constructor; simpl; tauto.
        * intros e H1 H2. apply in_flat_map in H2. destruct H2 as (w' & Hw' & H2).
          rewrite Forall_forall in F. specialize (F w' Hw').
          assert (w <> w') by (intros ->; rewrite (keq_refl _ _ Hkeys) in F; discriminate).
          destruct (keq (key a) (key w)); [destruct (veq a w)|]; simpl in H1;
            (destruct H1 as [<-|[]] || destruct H1);
            destruct (keq (key a) (key w')); try destruct (veq a w'); simpl in H2; intuition congruence.
      + destruct (existsb _ l); repeat constructor; simpl; tauto.
      + intros e H1 H2. destruct (existsb _ l); [destruct H2|]. destruct H2 as [<-|[]].
        apply in_flat_map in H1. destruct H1 as (w & _ & H1).
        destruct (keq (key a) (key w)); [destruct (veq a w)|]; simpl in H1; intuition congruence.
  Qed.

  Lemma diff_node_data_good b l : distinct l ->
    good l [b] (flat_map (fun w => if keq (key w) (key b)
                       then (if veq w b then [] else [Changed w b])
                       else [Removed w]) l
    ++ (if existsb (fun w => keq (key w) (key b)) l then [] else [Added b])).
  Proof.
    intros D. split.
    - intros e. rewrite in_app_iff, in_flat_map. split.
      + intros [(w & Hw & He)|He].
        * destruct (keq (key w) (key b)) eqn:E.
          -- destruct (veq w b) eqn:Ev; [destruct He|]. destruct He as [<-|[]]. simpl. auto.
          -- destruct He as [<-|[]]. simpl. split; [exact Hw|]. intros x [<-|[]]. exact E.
        * destruct (existsb _ l) eqn:E; [destruct He|]. destruct He as [<-|[]]. simpl.
          split; [auto|]. intros w Hw. destruct (keq (key w) (key b)) eqn:F; [|reflexivity].
          assert (existsb (fun w => keq (key w) (key b)) l = true) by (apply existsb_exists; eauto). congruence.
      + destruct e as [v|v|x y]; simpl.
        * intros [[<-|[]] H]. right. destruct (existsb _ l) eqn:E; [|simpl; auto].
          apply existsb_exists in E. destruct E as (w & Hw & E). rewrite (H w Hw) in E. discriminate.
        * intros [Hv H]. left. exists v. split; [exact Hv|]. rewrite (H b) by auto. simpl. auto.
        * intros (Hy & [<-|[]] & E & Ev). left. exists x. split; [exact Hy|]. rewrite E, Ev. simpl. auto.
    - apply NoDup_app_intro.
      + induction l as [|w l IH]; [constructor|]. simpl.
        inversion D as [|? ? F D']; subst. apply NoDup_app_intro; [|apply IH; exact D'|].
        * destruct (keq (key w) (key b)); [destruct (veq w b)|]; repeat constructor; simpl; tauto.
        * intros e H1 H2. apply in_flat_map in H2. destruct H2 as (w' & Hw' & H2).
          rewrite Forall_forall in F. specialize (F w' Hw').
          assert (w <> w') by (intros ->; rewrite (keq_refl _ _ Hkeys) in F; discriminate).
          destruct (keq (key w) (key b)); [destruct (veq w b)|]; simpl in H1;
            (destruct H1 as [<-|[]] || destruct H1);
            destruct (keq (key w') (key b)); try destruct (veq w' b); simpl in H2; intuition congruence.
      + destruct (existsb _ l); repeat constructor; simpl; tauto.
      + intros e H1 H2. destruct (existsb _ l); [destruct H2|]. destruct H2 as [<-|[]].
        apply in_flat_map in H1. destruct H1 as (w & _ & H1).
        destruct (keq (key w) (key b)); [destruct (veq w b)|]; simpl in H1; intuition congruence.
  Qed.

  Lemma diff_collisions_good l l' : distinct l -> distinct l' -> good l l' (diff_collisions key keq veq l l').
  Proof.
    intros D D'. unfold diff_collisions. split.
    - intros e. rewrite in_app_iff, !in_flat_map. split.
      + intros [(o & Ho & He)|(w & Hw & He)].
        * destruct (find _ l') as [w|] eqn:F.
          -- apply find_some in F. destruct F as [Hw E]. destruct (veq o w) eqn:Ev; [destruct He|].
             destruct He as [<-|[]]. simpl. auto.
          -- destruct He as [<-|[]]. simpl. split; [exact Ho|]. intros w Hw. apply (find_none _ _ F w Hw).
        * destruct (existsb _ l) eqn:E; [destruct He|]. destruct He as [<-|[]]. simpl. split; [exact Hw|].
          intros o Ho. destruct (keq (key o) (key w)) eqn:F; [|reflexivity].
          assert (existsb (fun o => keq (key o) (key w)) l = true) by (apply existsb_exists; eauto). congruence.
      + destruct e as [v|v|x y]; simpl.
        * intros [Hv H]. right. exists v. split; [exact Hv|].
          destruct (existsb _ l) eqn:E; [|simpl; auto].
          apply existsb_exists in E. destruct E as (w & Hw & E). rewrite (H w Hw) in E. discriminate.
        * intros [Hv H]. left. exists v. split; [exact Hv|]. destruct (find _ l') as [w|] eqn:F; [|simpl; auto].
          apply find_some in F. destruct F as [Hw E]. rewrite (H w Hw) in E. discriminate.
        * intros (Hx & Hy & E & Ev). left. exists x. split; [exact Hx|].
          destruct (find _ l') as [w|] eqn:F.
          -- apply find_some in F. destruct F as [Hw E2].
             assert (w = y).
             { apply (same_entry l' w y D' Hw Hy).
               apply (keq_trans _ _ Hkeys _ (key x)); [apply (keq_sym _ _ Hkeys); exact E2|exact E]. }
             subst w. rewrite Ev. simpl. auto.
          -- rewrite (find_none _ _ F y Hy) in E. discriminate.
    - apply NoDup_app_intro.
      + clear D'. induction l as [|o l IH]; [constructor|]. simpl.
        inversion D as [|? ? F D1]; subst. apply NoDup_app_intro; [|apply IH; exact D1|].
        * destruct (find _ l') as [w|]; [destruct (veq o w)|]; repeat constructor; simpl; tauto.
        * intros e H1 H2. apply in_flat_map in H2. destruct H2 as (o' & Ho' & H2).
          rewrite Forall_forall in F. specialize (F o' Ho').
          assert (o <> o') by (intros ->; rewrite (keq_refl _ _ Hkeys) in F; discriminate).
          destruct (find (fun w => keq (key o) (key w)) l') as [w|]; [destruct (veq o w)|]; simpl in H1;
            (destruct H1 as [<-|[]] || destruct H1);
            destruct (find _ l') as [w'|]; try destruct (veq o' w'); simpl in H2; intuition congruence.
      + clear D. induction l' as [|w l' IH]; [constructor|]. simpl.
        inversion D' as [|? ? F D1]; subst. apply NoDup_app_intro; [|apply IH; exact D1|].
        * destruct (existsb _ l); repeat constructor; simpl; tauto.
        * intros e H1 H2. apply in_flat_map in H2. destruct H2 as (o' & Ho' & H2).
          rewrite Forall_forall in F. specialize (F o' Ho').
          assert (w <> o') by (intros ->; rewrite (keq_refl _ _ Hkeys) in F; discriminate).
          destruct (existsb (fun o => keq (key o) (key w)) l); [destruct H1|]. destruct H1 as [<-|[]].
          destruct (existsb _ l); simpl in H2; intuition congruence.
      + intros e H1 H2. apply in_flat_map in H1. destruct H1 as (o & _ & H1).
        apply in_flat_map in H2. destruct H2 as (w & _ & H2).
        destruct (existsb _ l); [destruct H2|]. destruct H2 as [<-|[]].
        destruct (find _ l') as [w'|]; [destruct (veq o w')|]; simpl in H1; intuition congruence.
  Qed.

  (** ** Slots *)
  Definition sl (n : nd) (i : N) : list T :=
    match n with
    | Inner nm dm vs cs =>
      match slot dm vs i with
      | Some v => [v]
      | None => match slot nm cs i with Some c => elems c | None => [] end
      end
    | Coll vs => []
    end.

  Lemma sl_in d s p nm dm vs cs i v : p < 2 ^ s -> wf (S d) s p (Inner nm dm vs cs) ->
    (In v (sl (Inner nm dm vs cs) i) <-> In v (elems (Inner nm dm vs cs)) /\ idx (thash v) s = i).
  Proof.
    intros Hp W. pose proof W as (Hd & _ & _ & L1 & L2 & HV & HC). cbn [sl]. split.
    - intros Hv. assert (Hin : In v (elems (Inner nm dm vs cs))).
      { apply (elems_slot nm dm vs cs v L1 L2). destruct (slot dm vs i) as [w|] eqn:E1.
        - destruct Hv as [->|[]]. eauto.
        - destruct (slot nm cs i) as [c|] eqn:E2; [right; eauto|destruct Hv]. }
      split; [exact Hin|]. apply (idx_of_mod B HB _ s p); [apply (wf_hash B key khash keq HB _ _ _ _ Hp W v Hin)|].
      destruct (slot dm vs i) as [w|] eqn:E1.
      + destruct Hv as [->|[]]. apply HV. exact E1.
      + destruct (slot nm cs i) as [c|] eqn:E2; [|destruct Hv].
        destruct (wf_child B key khash keq HB _ _ _ _ _ _ _ _ _ Hp W E2) as (Wc & Hpc & _).
        apply (wf_hash B key khash keq HB _ _ _ _ Hpc Wc v Hv).
    - intros [Hv <-]. destruct (elem_slot_idx B key khash keq HB _ _ _ _ _ _ _ _ Hp W Hv) as [->|(c & Hc & Hin)].
      + simpl. auto.
      + pose proof Hc as Hb. apply slot_nth in Hb. rewrite slot_none by (apply (disjoint_bits nm dm _ Hd), Hb).
        rewrite Hc. exact Hin.
  Qed.

  Lemma sl_distinct d s p nm dm vs cs i : p < 2 ^ s -> wf (S d) s p (Inner nm dm vs cs) ->
    distinct (sl (Inner nm dm vs cs) i).
  Proof.
    intros Hp W. cbn [sl]. destruct (slot dm vs i) as [v|]; [repeat constructor|].
    destruct (slot nm cs i) as [c|] eqn:E; [|constructor].
    destruct (wf_child B key khash keq HB _ _ _ _ _ _ _ _ _ Hp W E) as (Wc & Hpc & _).
    apply (wf_distinct B key khash keq HB Hkeys _ _ _ _ Hpc Wc).
  Qed.

  Lemma exp_slots d s p nm dm vs cs nm' dm' vs' cs' e :
    p < 2 ^ s -> wf (S d) s p (Inner nm dm vs cs) -> wf (S d) s p (Inner nm' dm' vs' cs') ->
    (exp (elems (Inner nm dm vs cs)) (elems (Inner nm' dm' vs' cs')) e <->
     exists i, exp (sl (Inner nm dm vs cs) i) (sl (Inner nm' dm' vs' cs') i) e).
  Proof.
    intros Hp W W'.
    pose proof (fun i v => sl_in d s p nm dm vs cs i v Hp W) as S1.
    pose proof (fun i v => sl_in d s p nm' dm' vs' cs' i v Hp W') as S2.
    remember (Inner nm dm vs cs) as n. remember (Inner nm' dm' vs' cs') as n'.
    split.
    - intros H. exists (idx (thash (ekey e)) s). destruct e as [v|v|a b]; simpl in *.
      + destruct H as [Hv H]. split; [apply S2; auto|]. intros w Hw. apply S1 in Hw. apply H. tauto.
      + destruct H as [Hv H]. split; [apply S1; auto|]. intros w Hw. apply S2 in Hw. apply H. tauto.
      + destruct H as (Ha & Hb & E & Ev). split; [apply S1; auto|]. split; [|auto].
        apply S2. split; [exact Hb|]. unfold Champ.thash. rewrite (keq_hash _ _ Hkeys _ _ E). reflexivity.
    - intros (i & H). destruct e as [v|v|a b]; simpl in *.
      + destruct H as [Hv H]. pose proof (proj1 (S2 _ _) Hv) as [Hv' Ix]. split; [exact Hv'|].
        intros w Hw. destruct (keq (key w) (key v)) eqn:E; [|reflexivity].
        rewrite <- E. apply H. apply S1. split; [exact Hw|].
        unfold Champ.thash in *. rewrite (keq_hash _ _ Hkeys _ _ E). exact Ix.
      + destruct H as [Hv H]. pose proof (proj1 (S1 _ _) Hv) as [Hv' Ix]. split; [exact Hv'|].
        intros w Hw. destruct (keq (key v) (key w)) eqn:E; [|reflexivity].
        rewrite <- E. apply H. apply S2. split; [exact Hw|].
        unfold Champ.thash in *. rewrite <- (keq_hash _ _ Hkeys _ _ E). exact Ix.
      + destruct H as (Ha & Hb & H). apply S1 in Ha. apply S2 in Hb. tauto.
  Qed.

  Lemma exp_slot_unique d s p nm dm vs cs nm' dm' vs' cs' e i :
    p < 2 ^ s -> wf (S d) s p (Inner nm dm vs cs) -> wf (S d) s p (Inner nm' dm' vs' cs') ->
    exp (sl (Inner nm dm vs cs) i) (sl (Inner nm' dm' vs' cs') i) e -> i = idx (thash (ekey e)) s.
  Proof.
    intros Hp W W' H. destruct e as [v|v|a b]; cbn [exp ekey] in *.
    - symmetry. apply (proj1 (sl_in d s p nm' dm' vs' cs' i v Hp W') (proj1 H)).
    - symmetry. apply (proj1 (sl_in d s p nm dm vs cs i v Hp W) (proj1 H)).
    - symmetry. apply (proj1 (sl_in d s p nm dm vs cs i a Hp W) (proj1 H)).
  Qed.

  Lemma sl_empty nm dm vs cs i : N.testbit (N.lor nm dm) i = false -> sl (Inner nm dm vs cs) i = [].
  Proof.
    rewrite N.lor_spec, orb_false_iff. intros [H1 H2]. cbn [sl].
    rewrite !slot_none by assumption. reflexivity.
  Qed.

  Lemma rset_bits_ok x : x < 2 ^ 2 ^ B ->
    exists ixs, rset_bits x = Ok (map (fun i => N.shiftl 1 i) ixs) /\ NoDup ixs /\
      (forall i, In i ixs <-> N.testbit x i = true).
  Proof.
    intros Hx. unfold rset_bits.
    assert (H64 : 2 ^ B <= 64) by (change 64 with (2 ^ 6); apply N.pow_le_mono_r; lia).
    rewrite (set_bits_correct 64 x); [|lia|].
    2: { eapply N.lt_le_trans; [exact Hx|]. apply N.pow_le_mono_r; [lia|exact H64]. }
    exists (map N.of_nat (bit_indices 64 x)). rewrite map_map. split.
    { f_equal. apply map_ext. intros i. rewrite N.shiftl_1_l. reflexivity. }
    split.
    - apply NoDup_map_on; [|intros; lia]. apply NoDup_filter, seq_NoDup.
    - intros i. rewrite in_map_iff. unfold bit_indices. split.
      + intros (j & <- & Hj). apply filter_In in Hj. tauto.
      + intros Hi. exists (N.to_nat i). split; [lia|]. apply filter_In. rewrite Nnat.N2Nat.id.
        split; [|exact Hi]. apply in_seq.
        assert (i < 2 ^ B).
        { destruct (N.lt_ge_cases i (2 ^ B)) as [L|L]; [exact L|]. exfalso.
          rewrite (bits_lt_pow2 x (2 ^ B) i Hx L) in Hi. discriminate. }
        lia.
  Qed.

  Lemma rnth_slot {A} m (l : list A) i x : slot m l i = Some x -> rnth l (count_below m (N.shiftl 1 i)) = Ok x.
  Proof. intros H. apply slot_nth in H. rewrite count_below_rank. unfold rnth. rewrite (proj2 H). reflexivity. Qed.

  Lemma sl_data nm dm (vs : list T) cs i v : slot dm vs i = Some v -> sl (Inner nm dm vs cs) i = [v].
  Proof. intros H. cbn [sl]. rewrite H. reflexivity. Qed.

  Lemma sl_node nm dm (vs : list T) cs i c : N.land nm dm = 0 -> slot nm cs i = Some c -> sl (Inner nm dm vs cs) i = elems c.
  Proof.
    intros D H. cbn [sl]. pose proof H as Hb. apply slot_nth in Hb.
    rewrite slot_none by (apply (disjoint_bits nm dm _ D), Hb). rewrite H. reflexivity.
  Qed.

  Lemma diff_node_ok d s p n n' : p < 2 ^ s -> wf d s p n -> wf d s p n' ->
    exists evs, diff_node key keq ptr_eq veq d n n' = Ok evs /\ good (elems n) (elems n') evs.
  Proof.
    revert s p n n'. induction d as [|d IH]; intros s p n n' Hp W W';
      destruct n as [nm dm vs cs|vs], n' as [nm' dm' vs' cs'|vs']; try (simpl in W, W'; contradiction);
      cbn [diff_node].
    - destruct (ptr_eq _ _) eqn:E.
      { apply Hptr in E. injection E as ->. exists []. split; [reflexivity|]. apply good_same. apply W. }
      eexists. split; [reflexivity|]. apply diff_collisions_good; [apply W|apply W'].
    - destruct (ptr_eq _ _) eqn:E.
      { apply Hptr in E. injection E as -> -> -> ->. exists []. split; [reflexivity|]. apply good_same.
        apply (wf_distinct B key khash keq HB Hkeys _ _ _ _ Hp W). }
      clear E.
      pose proof W as (Hd & Hnm & Hdm & L1 & L2 & HV & HC).
      pose proof W' as (Hd' & Hnm' & Hdm' & L1' & L2' & HV' & HC').
      set (P := fun bit e => exists i, bit = N.shiftl 1 i /\ exp (sl (Inner nm dm vs cs) i) (sl (Inner nm' dm' vs' cs') i) e).
      assert (U : forall b b' e, P b e -> P b' e -> b = b').
      { intros b b' e (i & -> & Hi) (j & -> & Hj).
        rewrite (exp_slot_unique d s p _ _ _ _ _ _ _ _ e i Hp W W' Hi).
        rewrite (exp_slot_unique d s p _ _ _ _ _ _ _ _ e j Hp W W' Hj). reflexivity. }
      assert (Pi : forall i e, P (N.shiftl 1 i) e <-> exp (sl (Inner nm dm vs cs) i) (sl (Inner nm' dm' vs' cs') i) e).
      { intros i e. split; [|intros H; exists i; auto]. intros (j & Ej & H).
        rewrite !N.shiftl_1_l in Ej. apply N.pow_inj_r in Ej; [|lia]. subst. exact H. }
      assert (Ob : N.lor nm dm < 2 ^ 2 ^ B).
      { apply lt_pow2_bits. intros i Hi. rewrite N.lor_spec, (bits_lt_pow2 nm _ i Hnm Hi), (bits_lt_pow2 dm _ i Hdm Hi). reflexivity. }
      assert (Nb : N.lor nm' dm' < 2 ^ 2 ^ B).
      { apply lt_pow2_bits. intros i Hi. rewrite N.lor_spec, (bits_lt_pow2 nm' _ i Hnm' Hi), (bits_lt_pow2 dm' _ i Hdm' Hi). reflexivity. }
      assert (Lb : forall a b, a < 2 ^ 2 ^ B -> N.land a b < 2 ^ 2 ^ B).
      { intros a b Ha. apply lt_pow2_bits. intros i Hi. rewrite N.land_spec, (bits_lt_pow2 a _ i Ha Hi). reflexivity. }
      assert (NDs : forall ixs, NoDup ixs -> NoDup (map (fun i => N.shiftl 1 i) ixs)).
      { intros ixs HN. apply NoDup_map_on; [exact HN|]. intros x y _ _ Exy.
        rewrite !N.shiftl_1_l in Exy. apply N.pow_inj_r in Exy; [exact Exy|lia]. }
      (* added *)
      destruct (rset_bits_ok (N.land (N.lor nm' dm') (N.lxor (N.lor nm dm) (N.lor nm' dm')))) as (ai & Ha & HaN & HaI);
        [apply Lb; exact Nb|].
      rewrite Ha. cbn [rbind].
      destruct (rconcat_map_ok (fun bit =>
          if has nm' bit then
            c <- rnth cs' (count_below nm' bit) ;;
            cks <- chunks d c ;; Ok (all_events Added cks)
          else if has dm' bit then
            v <- rnth vs' (count_below dm' bit) ;; Ok [Added v]
          else Ok []) P (map (fun i => N.shiftl 1 i) ai)) as (evA & HA & HeA & HnA); [apply NDs; exact HaN|exact U| |].
      { intros b Hb. apply in_map_iff in Hb. destruct Hb as (i & <- & Hi). apply HaI in Hi.
        rewrite N.land_spec, N.lxor_spec in Hi. apply andb_true_iff in Hi. destruct Hi as [Hi1 Hi2].
        rewrite Hi1, xorb_true_r in Hi2. apply negb_true_iff in Hi2.
        enough (X : exists evs, (if has nm' (N.shiftl 1 i) then
            c <- rnth cs' (count_below nm' (N.shiftl 1 i)) ;;
            cks <- chunks d c ;; Ok (all_events Added cks)
          else if has dm' (N.shiftl 1 i) then
            v <- rnth vs' (count_below dm' (N.shiftl 1 i)) ;; Ok [Added v]
          else Ok []) = Ok evs /\ good (sl (Inner nm dm vs cs) i) (sl (Inner nm' dm' vs' cs') i) evs).
        { destruct X as (evs & Hx & Hg & Hn). exists evs. split; [exact Hx|]. split; [|exact Hn].
          intros e. rewrite Pi. apply Hg. }
        rewrite (sl_empty nm dm vs cs i Hi2). rewrite !has_testbit.
        destruct (N.testbit nm' i) eqn:En.
        - destruct (slot_set nm' cs' i L2' En) as (c & Hc & _). rewrite (rnth_slot _ _ _ _ Hc). cbn [rbind].
          rewrite (sl_node nm' dm' vs' cs' i c Hd' Hc).
          destruct (wf_child B key khash keq HB _ _ _ _ _ _ _ _ _ Hp W' Hc) as (Wc & Hpc & _).
          destruct (chunks_ok B key khash keq HB _ _ _ _ Wc) as (cks & -> & Hk & _). cbn [rbind].
          eexists. split; [reflexivity|]. unfold all_events. rewrite Hk. apply good_added.
          apply (wf_distinct B key khash keq HB Hkeys _ _ _ _ Hpc Wc).
        - rewrite N.lor_spec, En in Hi1. simpl in Hi1. rewrite Hi1.
          destruct (slot_set dm' vs' i L1' Hi1) as (v & Hv & _). rewrite (rnth_slot _ _ _ _ Hv). cbn [rbind].
          rewrite (sl_data nm' dm' vs' cs' i v Hv). eexists. split; [reflexivity|].
          apply (good_added [v]). repeat constructor. }
      rewrite HA. cbn [rbind].
      (* removed *)
      destruct (rset_bits_ok (N.land (N.lor nm dm) (N.lxor (N.lor nm dm) (N.lor nm' dm')))) as (ri & Hr & HrN & HrI);
        [apply Lb; exact Ob|].
      rewrite Hr. cbn [rbind].
      destruct (rconcat_map_ok (fun bit =>
          if has nm bit then
            c <- rnth cs (count_below nm bit) ;;
            cks <- chunks d c ;; Ok (all_events Removed cks)
          else if has dm bit then
            v <- rnth vs (count_below dm bit) ;; Ok [Removed v]
          else Ok []) P (map (fun i => N.shiftl 1 i) ri)) as (evR & HR & HeR & HnR); [apply NDs; exact HrN|exact U| |].
      { intros b Hb. apply in_map_iff in Hb. destruct Hb as (i & <- & Hi). apply HrI in Hi.
        rewrite N.land_spec, N.lxor_spec in Hi. apply andb_true_iff in Hi. destruct Hi as [Hi1 Hi2].
        rewrite Hi1, xorb_true_l in Hi2. apply negb_true_iff in Hi2.
        enough (X : exists evs, (if has nm (N.shiftl 1 i) then
            c <- rnth cs (count_below nm (N.shiftl 1 i)) ;;
            cks <- chunks d c ;; Ok (all_events Removed cks)
          else if has dm (N.shiftl 1 i) then
            v <- rnth vs (count_below dm (N.shiftl 1 i)) ;; Ok [Removed v]
          else Ok []) = Ok evs /\ good (sl (Inner nm dm vs cs) i) (sl (Inner nm' dm' vs' cs') i) evs).
        { destruct X as (evs & Hx & Hg & Hn). exists evs. split; [exact Hx|]. split; [|exact Hn].
          intros e. rewrite Pi. apply Hg. }
        rewrite (sl_empty nm' dm' vs' cs' i Hi2). rewrite !has_testbit.
        destruct (N.testbit nm i) eqn:En.
        - destruct (slot_set nm cs i L2 En) as (c & Hc & _). rewrite (rnth_slot _ _ _ _ Hc). cbn [rbind].
          rewrite (sl_node nm dm vs cs i c Hd Hc).
          destruct (wf_child B key khash keq HB _ _ _ _ _ _ _ _ _ Hp W Hc) as (Wc & Hpc & _).
          destruct (chunks_ok B key khash keq HB _ _ _ _ Wc) as (cks & -> & Hk & _). cbn [rbind].
          eexists. split; [reflexivity|]. unfold all_events. rewrite Hk. apply good_removed.
          apply (wf_distinct B key khash keq HB Hkeys _ _ _ _ Hpc Wc).
        - rewrite N.lor_spec, En in Hi1. simpl in Hi1. rewrite Hi1.
          destruct (slot_set dm vs i L1 Hi1) as (v & Hv & _). rewrite (rnth_slot _ _ _ _ Hv). cbn [rbind].
          rewrite (sl_data nm dm vs cs i v Hv). eexists. split; [reflexivity|].
          apply (good_removed [v]). repeat constructor. }
      rewrite HR. cbn [rbind].
      (* both *)
      destruct (rset_bits_ok (N.land (N.lor nm dm) (N.lor nm' dm'))) as (bi & Hb & HbN & HbI);
        [apply Lb; exact Ob|].
      rewrite Hb. cbn [rbind].
      destruct (rconcat_map_ok (fun bit =>
          if has nm bit && has nm' bit then
            oc' <- rnth cs (count_below nm bit) ;;
            nc' <- rnth cs' (count_below nm' bit) ;;
            diff_node key keq ptr_eq veq d oc' nc'
          else if has dm bit && has nm' bit then
            ov' <- rnth vs (count_below dm bit) ;;
            nc' <- rnth cs' (count_below nm' bit) ;;
            cks <- chunks d nc' ;; Ok (diff_data_node key keq veq ov' cks)
          else if has nm bit && has dm' bit then
            oc' <- rnth cs (count_below nm bit) ;;
            nv' <- rnth vs' (count_below dm' bit) ;;
            cks <- chunks d oc' ;; Ok (diff_node_data key keq veq cks nv')
          else if has dm bit && has dm' bit then
            ov' <- rnth vs (count_below dm bit) ;;
            nv' <- rnth vs' (count_below dm' bit) ;;
            Ok (diff_data_data key keq veq ov' nv')
          else Ok []) P (map (fun i => N.shiftl 1 i) bi)) as (evB & HBo & HeB & HnB); [apply NDs; exact HbN|exact U| |].
      { intros b Hbb. apply in_map_iff in Hbb. destruct Hbb as (i & <- & Hi). apply HbI in Hi.
        rewrite N.land_spec in Hi. apply andb_true_iff in Hi. destruct Hi as [Hi1 Hi2].
        match goal with |- exists evs, ?X = Ok evs /\ _ =>
          enough (Y : exists evs, X = Ok evs /\ good (sl (Inner nm dm vs cs) i) (sl (Inner nm' dm' vs' cs') i) evs) end.
        { destruct Y as (evs & Hx & Hg & Hn). exists evs. split; [exact Hx|]. split; [|exact Hn].
          intros e. rewrite Pi. apply Hg. }
        rewrite !has_testbit. rewrite N.lor_spec in Hi1, Hi2.
        destruct (N.testbit nm i) eqn:En.
        - destruct (slot_set nm cs i L2 En) as (c & Hc & _). rewrite (rnth_slot _ _ _ _ Hc).
          rewrite (sl_node nm dm vs cs i c Hd Hc).
          destruct (wf_child B key khash keq HB _ _ _ _ _ _ _ _ _ Hp W Hc) as (Wc & Hpc & _).
          rewrite (disjoint_bits nm dm i Hd En).
          destruct (N.testbit nm' i) eqn:En'; cbn [andb].
          + destruct (slot_set nm' cs' i L2' En') as (c' & Hc' & _). rewrite (rnth_slot _ _ _ _ Hc').
            rewrite (sl_node nm' dm' vs' cs' i c' Hd' Hc').
            destruct (wf_child B key khash keq HB _ _ _ _ _ _ _ _ _ Hp W' Hc') as (Wc' & _ & _).
            cbn [rbind]. apply (IH _ _ _ _ Hpc Wc Wc').
          + simpl in Hi2. rewrite Hi2. cbn [andb].
            destruct (slot_set dm' vs' i L1' Hi2) as (v' & Hv' & _). rewrite (rnth_slot _ _ _ _ Hv').
            rewrite (sl_data nm' dm' vs' cs' i v' Hv'). cbn [rbind].
            destruct (chunks_ok B key khash keq HB _ _ _ _ Wc) as (cks & -> & Hk & _). cbn [rbind].
            eexists. split; [reflexivity|]. unfold diff_node_data. rewrite Hk. apply diff_node_data_good.
            apply (wf_distinct B key khash keq HB Hkeys _ _ _ _ Hpc Wc).
        - cbn [andb]. simpl in Hi1. rewrite Hi1.
          destruct (slot_set dm vs i L1 Hi1) as (v & Hv & _). rewrite (rnth_slot _ _ _ _ Hv).
          rewrite (sl_data nm dm vs cs i v Hv).
          destruct (N.testbit nm' i) eqn:En'; cbn [andb].
          + destruct (slot_set nm' cs' i L2' En') as (c' & Hc' & _). rewrite (rnth_slot _ _ _ _ Hc').
            rewrite (sl_node nm' dm' vs' cs' i c' Hd' Hc').
            destruct (wf_child B key khash keq HB _ _ _ _ _ _ _ _ _ Hp W' Hc') as (Wc' & Hpc' & _).
            cbn [rbind].
            destruct (chunks_ok B key khash keq HB _ _ _ _ Wc') as (cks & -> & Hk & _). cbn [rbind].
            eexists. split; [reflexivity|]. unfold diff_data_node. rewrite Hk. apply diff_data_node_good.
            apply (wf_distinct B key khash keq HB Hkeys _ _ _ _ Hpc' Wc').
          + simpl in Hi2. rewrite Hi2.
            destruct (slot_set dm' vs' i L1' Hi2) as (v' & Hv' & _). rewrite (rnth_slot _ _ _ _ Hv').
            rewrite (sl_data nm' dm' vs' cs' i v' Hv'). cbn [rbind].
            eexists. split; [reflexivity|]. apply good_data_data. }
      rewrite HBo. cbn [rbind]. eexists. split; [reflexivity|].
      assert (XA : forall e, In e evA <-> exists i, In i ai /\ exp (sl (Inner nm dm vs cs) i) (sl (Inner nm' dm' vs' cs') i) e).
      { intros e. rewrite HeA. split.
        - intros (b & Hbb & Hpe). apply in_map_iff in Hbb. destruct Hbb as (i & <- & Hi). exists i. split; [exact Hi|]. apply Pi. exact Hpe.
        - intros (i & Hi & Hpe). exists (N.shiftl 1 i). split; [apply in_map_iff; eauto|apply Pi; exact Hpe]. }
      assert (XR : forall e, In e evR <-> exists i, In i ri /\ exp (sl (Inner nm dm vs cs) i) (sl (Inner nm' dm' vs' cs') i) e).
      { intros e. rewrite HeR. split.
        - intros (b & Hbb & Hpe). apply in_map_iff in Hbb. destruct Hbb as (i & <- & Hi). exists i. split; [exact Hi|]. apply Pi. exact Hpe.
        - intros (i & Hi & Hpe). exists (N.shiftl 1 i). split; [apply in_map_iff; eauto|apply Pi; exact Hpe]. }
      assert (XB : forall e, In e evB <-> exists i, In i bi /\ exp (sl (Inner nm dm vs cs) i) (sl (Inner nm' dm' vs' cs') i) e).
      { intros e. rewrite HeB. split.
        - intros (b & Hbb & Hpe). apply in_map_iff in Hbb. destruct Hbb as (i & <- & Hi). exists i. split; [exact Hi|]. apply Pi. exact Hpe.
        - intros (i & Hi & Hpe). exists (N.shiftl 1 i). split; [apply in_map_iff; eauto|apply Pi; exact Hpe]. }
      assert (UX : forall i j e, exp (sl (Inner nm dm vs cs) i) (sl (Inner nm' dm' vs' cs') i) e ->
                                 exp (sl (Inner nm dm vs cs) j) (sl (Inner nm' dm' vs' cs') j) e -> i = j).
      { intros i j e Hi Hj.
        rewrite (exp_slot_unique d s p _ _ _ _ _ _ _ _ e i Hp W W' Hi).
        rewrite (exp_slot_unique d s p _ _ _ _ _ _ _ _ e j Hp W W' Hj). reflexivity. }
      split.
      + intros e. rewrite !in_app_iff, XA, XR, XB.
        rewrite (exp_slots d s p nm dm vs cs nm' dm' vs' cs' e Hp W W'). split.
        * intros [(i & _ & H)|[(i & _ & H)|(i & _ & H)]]; exists i; exact H.
        * intros (i & H). destruct (N.testbit (N.lor nm dm) i) eqn:E1, (N.testbit (N.lor nm' dm') i) eqn:E2.
          -- right. right. exists i. split; [|exact H]. apply HbI. rewrite N.land_spec, E1, E2. reflexivity.
          -- right. left. exists i. split; [|exact H]. apply HrI. rewrite N.land_spec, N.lxor_spec, E1, E2. reflexivity.
          -- left. exists i. split; [|exact H]. apply HaI. rewrite N.land_spec, N.lxor_spec, E1, E2. reflexivity.
          -- exfalso. rewrite (sl_empty nm dm vs cs i E1), (sl_empty nm' dm' vs' cs' i E2) in H.
             destruct e; simpl in H; tauto.
      + apply NoDup_app_intro; [exact HnA| |].
        * apply NoDup_app_intro; [exact HnR|exact HnB|]. intros e H1 H2. apply XR in H1. apply XB in H2.
          destruct H1 as (i & Hi & H1), H2 as (j & Hj & H2). rewrite (UX _ _ _ H1 H2) in Hi.
          apply HrI in Hi. apply HbI in Hj. rewrite !N.land_spec, ?N.lxor_spec in *.
          destruct (N.testbit (N.lor nm dm) j), (N.testbit (N.lor nm' dm') j); discriminate.
        * intros e H1 H2. apply in_app_iff in H2. apply XA in H1. destruct H1 as (i & Hi & H1).
          apply HaI in Hi. destruct H2 as [H2|H2]; [apply XR in H2|apply XB in H2];
            destruct H2 as (j & Hj & H2); rewrite (UX _ _ _ H1 H2) in Hi;
            [apply HrI in Hj|apply HbI in Hj]; rewrite !N.land_spec, ?N.lxor_spec in *;
            destruct (N.testbit (N.lor nm dm) j), (N.testbit (N.lor nm' dm') j); discriminate.
  Qed.

  Notation expected := (expected key veq).

  Lemma holds_in c m v : holds B key khash keq c m -> (In v (elems (root c)) <-> m (key v) = Some v).
  Proof. intros H. apply (holds_lists B key khash keq HB Hkeys c m H). Qed.

  Lemma holds_none c m k : holds B key khash keq c m ->
    (m k = None <-> forall w, In w (elems (root c)) -> keq (key w) k = false).
  Proof.
    intros H. pose proof H as (_ & _ & L). specialize (L k). split.
    - intros E. rewrite E in L. exact L.
    - intros X. destruct (m k) as [v|]; [|reflexivity]. destruct L as [Hv E].
      unfold teqk in E. rewrite (X v Hv) in E. discriminate.
  Qed.

  Lemma diff_ok c1 c2 m1 m2 : holds B key khash keq c1 m1 -> holds B key khash keq c2 m2 ->
    exists evs, diff B key keq ptr_eq veq c1 c2 = Ok evs /\
      (forall e, In e evs <-> expected m1 m2 e) /\ NoDup evs.
  Proof.
    intros H1 H2. unfold diff.
    destruct (diff_node_ok max_depth 0 0 (root c1) (root c2)) as (evs & He & Hg & Hn);
      [apply (lt01 B HB)|apply H1|apply H2|].
    exists evs. split; [exact He|]. split; [|exact Hn]. intros e. rewrite Hg.
    destruct e as [v|v|a b]; unfold exp, ChampSpec.expected.
    - rewrite (holds_none c1 m1 _ H1), (holds_in c2 m2 _ H2). tauto.
    - rewrite (holds_none c2 m2 _ H2), (holds_in c1 m1 _ H1). split; intros [A C]; split; auto;
        intros w Hw; apply keq_false_sym; auto.
    - rewrite (holds_in c1 m1 _ H1). split.
      + intros (Ha & Hb & E & Ev). split; [exact Ha|]. split; [|exact Ev].
        apply (holds_m_some B key khash keq HB Hkeys c2 m2 _ b H2 Hb). apply (keq_sym _ _ Hkeys), E.
      + intros (Ha & Hb & Ev). split; [exact Ha|]. pose proof H2 as (_ & _ & L). specialize (L (key a)).
        rewrite Hb in L. destruct L as [Hin E]. split; [exact Hin|]. split; [|exact Ev].
        apply (keq_sym _ _ Hkeys). exact E.
  Qed.
End Diff.
