(** Facts about the trees of Champ that the proofs about their representation in memory use:
    the shape of a tree, trees equal up to the order in collision nodes, and one function for
    add, update and update_if_exists. *)
From Coq Require Import List NArith Arith Lia Bool Permutation ZArith ZifyBool ZifyNat ZifyN.
From Verif Require Import Common Bits BitsSpec BitsProofs Slots Champ ChampSpec ChampProofs.
Import ListNotations.
Set Default Goal Selector "!".
Local Open Scope N_scope.

Section Shape.
  Variable B : N.
  Context {T K : Type}.
  Variable key : T -> K.
  Variable khash : K -> N.
  Variable keq : K -> K -> bool.
  Hypothesis HB : 1 <= B.
  Hypothesis Hhash : forall k, khash k < 2 ^ 64.

  Notation thash := (thash key khash).
  Notation teqk := (teqk key keq).
  Notation max_depth := (max_depth B).
  Notation max_shift := (max_shift B).
  Notation nd := (node T).
  Notation level := (level B).

  (** Arrays have the lengths their bitmaps tell, a bit is in one map at most, and collision nodes are at the bottom. *)
  Fixpoint shaped (d : nat) (n : nd) : Prop :=
    match d, n with
    | O, Coll _ => True
    | S d', Inner nm dm vs cs =>
        length vs = popcount dm /\ length cs = popcount nm /\
        (forall i, N.testbit nm i = true -> N.testbit dm i = false) /\ Forall (shaped d') cs
    | _, _ => False
    end.
  (** No collision node below. *)
  Fixpoint nocoll (n : nd) : Prop :=
    match n with
    | Coll _ => False
    | Inner _ _ _ cs => fold_right (fun c P => nocoll c /\ P) True cs
    end.
  Lemma nocoll_kid nm dm vs cs c : nocoll (Inner nm dm vs cs) -> In c cs -> nocoll c.
  Proof.
    cbn. induction cs as [|x cs IH]; cbn; [easy|]. intros [H1 H2] [<-|H]; auto.
  Qed.
  Lemma nocoll_intro nm dm vs cs : (forall c, In c cs -> nocoll c) -> nocoll (Inner nm dm vs cs).
  Proof. cbn. induction cs as [|x cs IH]; cbn; intros H; [exact I|]. split; auto. Qed.

  (** Equal up to the order in collision nodes. *)
  Inductive nsim : nd -> nd -> Prop :=
  | sim_inner nm dm vs cs cs' : Forall2 nsim cs cs' -> nsim (Inner nm dm vs cs) (Inner nm dm vs cs')
  | sim_coll vs vs' : Permutation vs vs' -> nsim (Coll vs) (Coll vs').

  Section Ind.
    Variable P : nd -> Prop.
    Hypothesis HI : forall nm dm vs cs, Forall P cs -> P (Inner nm dm vs cs).
    Hypothesis HC : forall vs, P (Coll vs).
    Fixpoint node_ind' (n : nd) : P n :=
      match n with
      | Inner nm dm vs cs =>
          HI nm dm vs cs ((fix go l : Forall P l :=
            match l with [] => Forall_nil P | c :: l' => Forall_cons c (node_ind' c) (go l') end) cs)
      | Coll vs => HC vs
      end.
  End Ind.

  Lemma nsim_refl n : nsim n n.
  Proof.
    induction n as [nm dm vs cs IH|vs] using node_ind'; constructor; [|reflexivity].
    induction IH; constructor; auto.
  Qed.
  Lemma nsims_refl l : Forall2 nsim l l.
  Proof. induction l; constructor; auto using nsim_refl. Qed.
  Lemma nsims_update l i x x' : nsim x x' -> Forall2 nsim (update_at i x l) (update_at i x' l).
  Proof.
    intros H. revert i. induction l as [|y l IH]; intros [|i]; cbn; constructor; auto using nsim_refl, nsims_refl.
  Qed.

  Lemma nsim_shaped d : forall n n', nsim n n' -> shaped d n -> shaped d n'.
  Proof.
    induction d as [|d IH]; intros n n' H Hs; inversion H; subst; cbn in *; try tauto.
    destruct Hs as (H1 & H2 & Hd & H3). split; [exact H1|]. split; [|split; [exact Hd|]].
    - rewrite <- H2. clear - H0. induction H0; cbn; auto.
    - clear - IH H0 H3. induction H0; constructor; inversion H3; subst; eauto.
  Qed.
  Lemma nsim_elems n : forall n', nsim n n' -> Permutation (elems n) (elems n').
  Proof.
    induction n as [nm dm vs cs IH|vs] using node_ind'; intros n' H; inversion H; subst; cbn; [|assumption].
    apply Permutation_app_head.
    match goal with HF : Forall2 nsim _ _ |- _ => revert HF end.
    clear - IH. intros HF. induction HF as [|c c' cs cs' Hc _ IHl]; [reflexivity|]. cbn. inversion IH; subst.
    apply Permutation_app; auto.
  Qed.

  Lemma wf_shaped d : forall s p n, wf B key khash keq d s p n -> shaped d n.
  Proof.
    induction d as [|d IH]; intros s p [nm dm vs cs|vs] H; cbn in *; try tauto.
    destruct H as (H1 & H2 & H3 & H4 & H5 & H6 & H7). split; [exact H4|]. split; [exact H5|].
    split; [intros i Hi; eapply disjoint_bits; eauto|].
    apply Forall_forall. intros c Hc. apply In_nth_error in Hc as [j Hj].
    destruct (rank_surj nm j) as (i & Hi & Hr).
    { rewrite <- H5. eapply nth_error_lt; eauto. }
    destruct (H7 i c) as [Hw _]; [unfold slot; now rewrite Hi, Hr|]. eauto.
  Qed.
  Lemma nsim_wf d : forall s p n n', nsim n n' ->
    wf B key khash keq d s p n -> keys_ok keq khash -> wf B key khash keq d s p n'.
  Proof.
    induction d as [|d IH]; intros s p n n' H Hw Hk; inversion H; subst; cbn in *; try tauto.
    - destruct Hw as (H1 & H2 & H3). split; [|split].
      + rewrite <- (Permutation_length H0). exact H1.
      + intros v Hv. apply H2. eapply Permutation_in; [symmetry; exact H0|exact Hv].
      + eapply FOP_perm; [|exact H0|exact H3]. intros a b Hab.
        destruct Hk as (_ & Hs & _). destruct (keq (key b) (key a)) eqn:E; [|reflexivity].
        apply Hs in E. congruence.
    - destruct Hw as (H1 & H2 & H3 & H4 & H5 & H6 & H7).
      split; [exact H1|]. split; [exact H2|]. split; [exact H3|]. split; [exact H4|].
      split; [rewrite <- H5; clear - H0; induction H0; cbn; auto|]. split; [exact H6|].
      intros i c' Hc'. unfold slot in *.
      destruct (N.testbit nm i) eqn:Ei; [|discriminate].
      assert (exists c, nth_error cs (rank nm i) = Some c /\ nsim c c') as (c & Hc & Hs).
      { clear - H0 Hc'. revert Hc'. generalize (rank nm i). induction H0 as [|x y l l' Hx _ IHl]; intros [|j] E; cbn in *; try discriminate.
        - injection E as <-. eauto.
        - auto. }
      destruct (H7 i c) as [Hwc Hl]; [rewrite Ei; exact Hc|]. split; [eauto|].
      rewrite <- (Permutation_length (nsim_elems _ _ Hs)). exact Hl.
  Qed.

  (** ** Lengths *)
  Lemma has_lt {A} nm (l : list A) i : length l = popcount nm ->
    has nm (N.shiftl 1 i) = true -> (count_below nm (N.shiftl 1 i) < length l)%nat.
  Proof. intros E H. rewrite count_below_rank, E. apply rank_lt. rewrite <- has_testbit. exact H. Qed.
  Lemma below_le {A} nm (l : list A) i : length l = popcount nm ->
    (count_below nm (N.shiftl 1 i) <= length l)%nat.
  Proof. intros E. rewrite count_below_rank, E. apply rank_le_popcount. Qed.
  Lemma pop_set nm i : has nm (N.shiftl 1 i) = false -> popcount (N.lor nm (N.shiftl 1 i)) = S (popcount nm).
  Proof. rewrite has_testbit, N.shiftl_1_l. apply popcount_lor_bit. Qed.
  Lemma pop_clear nm i : has nm (N.shiftl 1 i) = true -> S (popcount (clear nm (N.shiftl 1 i))) = popcount nm.
  Proof. rewrite has_testbit, N.shiftl_1_l. intros H. now apply popcount_ldiff_bit. Qed.
  Lemma pop_bit i : popcount (N.shiftl 1 i) = 1%nat.
  Proof.
    pose proof (pop_set 0 i) as H. rewrite N.lor_0_l in H. apply H. rewrite has_testbit. apply N.bits_0.
  Qed.
  Lemma pop_two i j : i <> j -> popcount (N.lor (N.shiftl 1 i) (N.shiftl 1 j)) = 2%nat.
  Proof.
    intros H. rewrite pop_set, pop_bit; [reflexivity|]. rewrite has_testbit, N.shiftl_1_l.
    apply N.pow2_bits_false. exact H.
  Qed.

  Lemma length_ins {A} (l : list A) i x : (i <= length l)%nat ->
    length (firstn i l ++ x :: skipn i l) = S (length l).
  Proof. intros H. rewrite app_length. cbn. rewrite firstn_length, skipn_length. lia. Qed.
  Lemma length_rem {A} (l : list A) i : (i < length l)%nat ->
    S (length (firstn i l ++ skipn (S i) l)) = length l.
  Proof. intros H. rewrite app_length, firstn_length, skipn_length. lia. Qed.
  Lemma Forall_ins {A} (P : A -> Prop) l i x : P x -> Forall P l ->
    Forall P (firstn i l ++ x :: skipn i l).
  Proof.
    intros Hx H. rewrite <- (firstn_skipn i l) in H. apply Forall_app in H as [H1 H2].
    apply Forall_app. auto.
  Qed.
  Lemma Forall_rem {A} (P : A -> Prop) l i : Forall P l -> Forall P (firstn i l ++ skipn (S i) l).
  Proof.
    intros H. apply Forall_forall. rewrite Forall_forall in H. intros x Hx. apply H.
    apply in_app_or in Hx as [Hx|Hx].
    - rewrite <- (firstn_skipn i l). apply in_or_app. auto.
    - rewrite <- (firstn_skipn (S i) l). apply in_or_app. auto.
  Qed.
  Lemma Forall_upd {A} (P : A -> Prop) l i x : P x -> Forall P l -> Forall P (update_at i x l).
  Proof. intros Hx H. revert i. induction H; intros [|i]; cbn; constructor; auto. Qed.
  Lemma rnth_nth {A} (l : list A) i x : rnth l i = Ok x <-> nth_error l i = Some x.
  Proof. unfold rnth. destruct (nth_error l i); split; intros; congruence. Qed.

  Definition dis (nm dm : N) : Prop := forall i, N.testbit nm i = true -> N.testbit dm i = false.
  Lemma dis_down nm dm i : dis nm dm -> dis (N.lor nm (N.shiftl 1 i)) (clear dm (N.shiftl 1 i)).
  Proof.
    intros H j. unfold clear. rewrite N.shiftl_1_l, testbit_lor_bit, testbit_ldiff_bit. specialize (H j).
    destruct (i =? j); cbn; [now rewrite andb_false_r|]. rewrite orb_false_r, andb_true_r. exact H.
  Qed.
  Lemma dis_up nm dm i : dis nm dm -> dis (clear nm (N.shiftl 1 i)) (N.lor dm (N.shiftl 1 i)).
  Proof.
    intros H j. unfold clear. rewrite N.shiftl_1_l, testbit_lor_bit, testbit_ldiff_bit. specialize (H j).
    destruct (i =? j); cbn; [now rewrite andb_false_r|]. rewrite orb_false_r, andb_true_r. exact H.
  Qed.
  Lemma dis_rem nm dm i : dis nm dm -> dis nm (clear dm (N.shiftl 1 i)).
  Proof.
    intros H j Hj. unfold clear. rewrite N.shiftl_1_l, testbit_ldiff_bit, (H j Hj). reflexivity.
  Qed.
  Lemma dis_ins nm dm i : has nm (N.shiftl 1 i) = false -> dis nm dm -> dis nm (N.lor dm (N.shiftl 1 i)).
  Proof.
    rewrite has_testbit. intros E H j Hj. rewrite N.shiftl_1_l, testbit_lor_bit, (H j Hj).
    destruct (N.eqb_spec i j) as [->|]; [congruence|reflexivity].
  Qed.
  Lemma dis_has nm dm i : dis nm dm -> has nm (N.shiftl 1 i) = true -> has dm (N.shiftl 1 i) = false.
  Proof. rewrite !has_testbit. intros H. apply H. Qed.
  Lemma dis_0 dm : dis 0 dm.
  Proof. intros i. rewrite N.bits_0. discriminate. Qed.
  Lemma dis_0r nm : dis nm 0.
  Proof. intros i _. apply N.bits_0. Qed.

  (** ** One function for add, update and update_if_exists *)
  Section Upd.
    Variable k : K.
    Variable found : T -> T.
    Variable absent : option T.

    Fixpoint upd (f : nat) (n : nd) (h shift : N) : res (option (nd * bool)) :=
      if shift =? max_shift then
        match n with
        | Coll vs =>
          match find_index (fun w => teqk w k) vs with
          | Some pos =>
            w <- rnth vs pos ;;
            Ok (Some (copy_collision_replace vs pos (found w), false))
          | None =>
            match absent with
            | Some v => Ok (Some (copy_collision_insert vs v, true))
            | None => Ok None
            end
          end
        | Inner _ _ _ _ => UB
        end
      else
        match f, n with
        | S f', Inner nm dm vs cs =>
          let bit := N.shiftl 1 (hash_idx B h shift) in
          if has nm bit then
            let offset := count_below nm bit in
            c <- rnth cs offset ;;
            r <- upd f' c h (shift + B) ;;
            match r with
            | Some (c', added) => Ok (Some (copy_inner_replace nm dm vs cs offset c', added))
            | None => Ok None
            end
          else if has dm bit then
            let offset := count_below dm bit in
            w <- rnth vs offset ;;
            if teqk w k then
              Ok (Some (copy_inner_replace_value nm dm vs cs offset (found w), false))
            else
              match absent with
              | Some v =>
                child <- make_merged B f' (shift + B) v h w (thash w) ;;
                Ok (Some (copy_inner_replace_merged nm dm vs cs bit offset child, true))
              | None => Ok None
              end
          else
            match absent with
            | Some v => Ok (Some (copy_inner_insert_value nm dm vs cs bit v, true))
            | None => Ok None
            end
        | _, _ => UB
        end.
  End Upd.

  Lemma add_upd v : forall f n h s r, do_add B key khash keq f n v h s = Ok r ->
    upd (key v) (fun _ => v) (Some v) f n h s = Ok (Some r).
  Proof.
    induction f as [|f IH]; intros [nm dm vs cs|vs] h s r H; cbn [do_add upd] in *;
      destruct (s =? max_shift); try discriminate.
    - destruct (find_index _ vs) as [pos|] eqn:E; [|now injection H as <-].
      apply find_index_some in E as (x & Hx & _). unfold rnth. rewrite Hx. cbn [rbind]. now injection H as <-.
    - cbn zeta in *. destruct (has nm _).
      + destruct (rnth cs _) as [c|]; [|discriminate]. cbn [rbind] in *.
        destruct (do_add B key khash keq f c v h (s + B)) as [[c' b]|] eqn:E; [|discriminate].
        rewrite (IH _ _ _ _ E). cbn [rbind] in *. now injection H as <-.
      + destruct (has dm _).
        * destruct (rnth vs _) as [w|]; [|discriminate]. cbn [rbind] in *. destruct (teqk w (key v)).
          { now injection H as <-. }
          destruct (make_merged _ _ _ _ _ _ _) as [m|]; [|discriminate]. cbn [rbind] in *. now injection H as <-.
        * now injection H as <-.
    - destruct (find_index _ vs) as [pos|] eqn:E; [|now injection H as <-].
      apply find_index_some in E as (x & Hx & _). unfold rnth. rewrite Hx. cbn [rbind]. now injection H as <-.
  Qed.
  Section Update.
  Context {V : Type}.
  Variable project : T -> V.
  Variable combine : K -> V -> T.
  Lemma update_upd k fn df : forall f n h s r,
    do_update B key khash keq project combine f n k fn df h s = Ok r ->
    upd k (fun w => combine k (fn (project w))) (Some (combine k (fn df))) f n h s = Ok (Some r).
  Proof.
    induction f as [|f IH]; intros [nm dm vs cs|vs] h s r H; cbn [do_update upd] in *;
      destruct (s =? max_shift); try discriminate.
    - destruct (find_index _ vs) as [pos|] eqn:E; [|now injection H as <-].
      destruct (rnth vs pos); [|discriminate]. cbn [rbind] in *. now injection H as <-.
    - cbn zeta in *. destruct (has nm _).
      + destruct (rnth cs _) as [c|]; [|discriminate]. cbn [rbind] in *.
        destruct (do_update B key khash keq project combine f c k fn df h (s + B)) as [[c' b]|] eqn:E; [|discriminate].
        rewrite (IH _ _ _ _ E). cbn [rbind] in *. now injection H as <-.
      + destruct (has dm _).
        * destruct (rnth vs _) as [w|]; [|discriminate]. cbn [rbind] in *. destruct (teqk w k).
          { now injection H as <-. }
          destruct (make_merged _ _ _ _ _ _ _) as [m|]; [|discriminate]. cbn [rbind] in *. now injection H as <-.
        * now injection H as <-.
    - destruct (find_index _ vs) as [pos|] eqn:E; [|now injection H as <-].
      destruct (rnth vs pos); [|discriminate]. cbn [rbind] in *. now injection H as <-.
  Qed.
  Lemma uie_upd k fn : forall f n h s r,
    do_update_if_exists B key keq project combine f n k fn h s = Ok r ->
    upd k (fun w => combine k (fn (project w))) None f n h s =
      Ok (match r with Some n' => Some (n', false) | None => None end).
  Proof.
    induction f as [|f IH]; intros [nm dm vs cs|vs] h s r H; cbn [do_update_if_exists upd] in *;
      destruct (s =? max_shift); try discriminate.
    - destruct (find_index _ vs) as [pos|] eqn:E; [|now injection H as <-].
      destruct (rnth vs pos); [|discriminate]. cbn [rbind] in *. now injection H as <-.
    - cbn zeta in *. destruct (has nm _).
      + destruct (rnth cs _) as [c|]; [|discriminate]. cbn [rbind] in *.
        destruct (do_update_if_exists B key keq project combine f c k fn h (s + B)) as [[c'|]|] eqn:E; [| |discriminate];
        rewrite (IH _ _ _ _ E); cbn [rbind] in *; now injection H as <-.
      + destruct (has dm _).
        * destruct (rnth vs _) as [w|]; [|discriminate]. cbn [rbind] in *.
          destruct (teqk w k); now injection H as <-.
        * now injection H as <-.
    - destruct (find_index _ vs) as [pos|] eqn:E; [|now injection H as <-].
      destruct (rnth vs pos); [|discriminate]. cbn [rbind] in *. now injection H as <-.
  Qed.

  End Update.

  Ltac inj E :=
    cbn [rbind] in E;
    match type of E with
    | Ok (Some (?x, _)) = Ok (Some (?u, _)) => assert (u = x) as -> by congruence; clear E
    | Ok (SubTree ?x) = Ok (SubTree ?u) => assert (u = x) as -> by congruence; clear E
    | Ok ?x = Ok ?u => assert (u = x) as -> by congruence; clear E
    end.
  (** ** Shapes are kept *)
  Lemma merged_shaped : forall d s v1 h1 v2 h2 n, level d s -> h1 < 2 ^ 64 -> h2 < 2 ^ 64 ->
    make_merged B d s v1 h1 v2 h2 = Ok n -> shaped d n.
  Proof.
    induction d as [|d IH]; intros s v1 h1 v2 h2 n L H1 H2 E.
    - apply (level_O B HB) in L. subst s. cbn [make_merged] in E. rewrite N.ltb_irrefl in E.
      inj E. exact I.
    - destruct (level_S B HB d s L) as (L' & _ & Es). cbn [make_merged] in E. rewrite Es in E. cbn zeta in E.
      destruct (N.eqb_spec (hash_part B h1 s) (hash_part B h2 s)) as [Ep|Ep].
      + destruct (make_merged B d (s + B) v1 h1 v2 h2) as [m|] eqn:Em; [|discriminate].
        cbn [rbind] in E. inj E. unfold make_inner_child. cbn [shaped]. rewrite pop_bit.
        split; [reflexivity|]. split; [reflexivity|]. split; [apply dis_0r|]. constructor; [eauto|constructor].
      + inj E. unfold make_inner_two. cbn [shaped]. rewrite pop_two.
        * split; [match goal with |- context [if ?b then _ else _] => destruct b end; reflexivity|].
          split; [reflexivity|]. split; [apply dis_0|constructor].
        * intros X. apply Ep. change (hash_idx B h1 s = hash_idx B h2 s) in X.
          rewrite !hash_idx_spec in X by (try exact HB; assumption).
          rewrite !hash_part_spec by (try exact HB; assumption). now rewrite X.
  Qed.
  Lemma upd_shaped k found absent : forall d n h s n' b, level d s -> h < 2 ^ 64 -> shaped d n ->
    upd k found absent d n h s = Ok (Some (n', b)) -> shaped d n'.
  Proof.
    induction d as [|d IH]; intros [nm dm vs cs|vs] h s n' b L Hh Hs E; try easy.
    - cbn [upd] in E. destruct (s =? max_shift); [|discriminate].
      destruct (find_index _ vs) as [pos|].
      + destruct (rnth vs pos); [|discriminate]. inj E. exact I.
      + destruct absent; [|discriminate]. inj E. exact I.
    - destruct (level_S B HB d s L) as (L' & Es & _). cbn [upd] in E. rewrite Es in E. cbn zeta in E.
      destruct Hs as (H1 & H2 & Hd & H3).
      destruct (has nm (N.shiftl 1 (hash_idx B h s))) eqn:En.
      + destruct (rnth cs _) as [c|] eqn:Ec; [|discriminate]. cbn [rbind] in E.
        destruct (upd k found absent d c h (s + B)) as [[[c' b']|]|] eqn:Eu; try discriminate.
        inj E. cbn. rewrite length_update_at. split; [exact H1|]. split; [exact H2|]. split; [exact Hd|].
        apply Forall_upd; [|exact H3]. apply rnth_nth, nth_error_In in Ec. rewrite Forall_forall in H3.
        eapply IH; eauto.
      + destruct (has dm (N.shiftl 1 (hash_idx B h s))) eqn:Ed.
        * destruct (rnth vs _) as [w|] eqn:Ew; [|discriminate]. cbn [rbind] in E.
          destruct (teqk w k).
          { inj E. cbn. rewrite length_update_at. auto. }
          destruct absent as [v|]; [|discriminate].
          destruct (make_merged B d (s + B) v h w (thash w)) as [m|] eqn:Em; [|discriminate].
          cbn [rbind] in E. inj E. unfold copy_inner_replace_merged. cbn [shaped].
          rewrite length_ins by now apply below_le. rewrite pop_set by exact En.
          pose proof (pop_clear _ _ Ed). pose proof (length_rem vs _ (has_lt _ _ _ H1 Ed)).
          split; [lia|]. split; [lia|]. split; [now apply dis_down|]. apply Forall_ins; [|exact H3].
          eapply merged_shaped; [exact L'|exact Hh|apply Hhash|exact Em].
        * destruct absent as [v|]; [|discriminate]. inj E.
          unfold copy_inner_insert_value. cbn [shaped].
          rewrite length_ins by now apply below_le. rewrite pop_set by exact Ed.
          split; [lia|]. split; [exact H2|]. split; [|exact H3]. now apply dis_ins.
  Qed.
  Lemma sub_shaped k : forall d n h s n', level d s -> shaped d n ->
    do_sub B key keq d n k h s = Ok (SubTree n') -> shaped d n'.
  Proof.
    induction d as [|d IH]; intros [nm dm vs cs|vs] h s n' L Hs E; try easy.
    - cbn [do_sub] in E. destruct (s =? max_shift); [|discriminate].
      destruct (find_index _ vs) as [pos|]; [|discriminate].
      destruct (_ <? _)%nat; [now inj E|]. destruct (rnth vs _); discriminate.
    - destruct (level_S B HB d s L) as (L' & Es & _). cbn [do_sub] in E. rewrite Es in E. cbn zeta in E.
      destruct Hs as (H1 & H2 & Hd & H3).
      destruct (has nm (N.shiftl 1 (hash_idx B h s))) eqn:En.
      + destruct (rnth cs _) as [c|] eqn:Ec; [|discriminate]. cbn [rbind] in E.
        destruct (do_sub B key keq d c k h (s + B)) as [[|v|c']|] eqn:Eu; try discriminate; cbn [rbind] in E.
        * destruct (_ && _ && _); [discriminate|]. inj E.
          pose proof (has_lt _ _ _ H2 En) as Hlt. apply rnth_nth in Ec.
          unfold copy_inner_replace_inline. cbn [shaped].
          pose proof (dis_has _ _ _ Hd En) as Ed.
          rewrite length_ins by now apply below_le. rewrite pop_set by exact Ed.
          pose proof (pop_clear _ _ En). pose proof (length_rem cs _ Hlt).
          split; [lia|]. split; [lia|]. split; [now apply dis_up|]. now apply Forall_rem.
        * inj E. cbn. rewrite length_update_at. split; [exact H1|]. split; [exact H2|]. split; [exact Hd|].
          apply Forall_upd; [|exact H3]. apply rnth_nth, nth_error_In in Ec. rewrite Forall_forall in H3.
          eapply IH; eauto.
      + destruct (has dm (N.shiftl 1 (hash_idx B h s))) eqn:Ed; [|discriminate].
        destruct (rnth vs _) as [w|] eqn:Ew; [|discriminate]. cbn [rbind] in E.
        destruct (teqk w k); [|discriminate].
        destruct (_ || _).
        * inj E. unfold copy_inner_remove_value. cbn [shaped].
          pose proof (pop_clear _ _ Ed). pose proof (length_rem vs _ (has_lt _ _ _ H1 Ed)).
          split; [lia|]. split; [exact H2|]. split; [now apply dis_rem|exact H3].
        * destruct (Nat.eqb_spec (popcount dm) 2) as [Ep|].
          { destruct (rnth vs (other _)); [|discriminate]. cbn [rbind] in E. destruct (0 <? s); [discriminate|].
            inj E. pose proof (pop_clear _ _ Ed). cbn [shaped make_inner_value length]. split; [lia|].
            split; [reflexivity|]. split; [apply dis_0|constructor]. }
          destruct (s =? 0); [|discriminate]. inj E. cbn. repeat split; auto.
  Qed.
End Shape.
