(** Instrumented lookup, insertion and erasure: the same functions as Champ.v,
    also returning how many inner nodes and collision nodes they look at and how many
    key comparisons they make.  The first component is proved equal to the function
    of Champ.v below. *)
From Coq Require Import List NArith Arith Lia Bool Permutation ZArith ZifyBool ZifyNat ZifyN.
From Verif Require Import Common Bits BitsSpec BitsProofs Slots Champ ChampSpec ChampHist ChampProofs ChampMap ChampIter.
Import ListNotations.
Local Open Scope N_scope.

Record cost : Type := mkCost { inners : nat; colls : nat; cmps : nat }.

Definition cinner (c : cost) : cost := mkCost (S (inners c)) (colls c) (cmps c).

Section Cost.
  Variable B : N.
  Context {T K : Type}.
  Variable key : T -> K.
  Variable khash : K -> N.
  Variable keq : K -> K -> bool.

  Notation teqk := (teqk key keq).
  Notation thash := (thash key khash).

  (** Comparisons made by a linear search: up to and including the match. *)
  Fixpoint search_cmps (k : K) (vs : list T) : nat :=
    match vs with
    | [] => 0
    | v :: l => if teqk v k then 1 else S (search_cmps k l)
    end.

  (** champ.hpp:533-561. *)
  Fixpoint get_cost (fuel : nat) (n : node T) (h : N) (k : K) : res (option T) * cost :=
    match fuel with
    | O =>
      match n with
      | Coll vs => (Ok (find (fun v => teqk v k) vs), mkCost 0 1 (search_cmps k vs))
      | Inner _ _ _ _ => (UB, mkCost 0 0 0)
      end
    | S f =>
      match n with
      | Inner nm dm vs cs =>
        let bit := N.shiftl 1 (N.land h (mask B)) in
        if has nm bit then
          match rnth cs (count_below nm bit) with
          | Ok c => let '(r, w) := get_cost f c (N.shiftr h B) k in (r, cinner w)
          | UB => (UB, mkCost 1 0 0)
          end
        else if has dm bit then
          match rnth vs (count_below dm bit) with
          | Ok v => (Ok (if teqk v k then Some v else None), mkCost 1 0 1)
          | UB => (UB, mkCost 1 0 0)
          end
        else (Ok None, mkCost 1 0 0)
      | Coll _ => (UB, mkCost 0 0 0)
      end
    end.

  (** champ.hpp:569-624. *)
  Fixpoint add_cost (fuel : nat) (n : node T) (v : T) (h shift : N) : res (node T * bool) * cost :=
    if shift =? max_shift B then
      match n with
      | Coll vs =>
        (match find_index (fun w => teqk w (key v)) vs with
         | Some pos => Ok (copy_collision_replace vs pos v, false)
         | None => Ok (copy_collision_insert vs v, true)
         end, mkCost 0 1 (search_cmps (key v) vs))
      | Inner _ _ _ _ => (UB, mkCost 0 0 0)
      end
    else
      match fuel, n with
      | S f, Inner nm dm vs cs =>
        let bit := N.shiftl 1 (hash_idx B h shift) in
        if has nm bit then
          let offset := count_below nm bit in
          match rnth cs offset with
          | Ok c =>
            let '(r, w) := add_cost f c v h (shift + B) in
            ('(c', added) <- r ;; Ok (copy_inner_replace nm dm vs cs offset c', added), cinner w)
          | UB => (UB, mkCost 1 0 0)
          end
        else if has dm bit then
          let offset := count_below dm bit in
          match rnth vs offset with
          | Ok w =>
            (if teqk w (key v) then
               Ok (copy_inner_replace_value nm dm vs cs offset v, false)
             else
               child <- make_merged B f (shift + B) v h w (thash w) ;;
               Ok (copy_inner_replace_merged nm dm vs cs bit offset child, true), mkCost 1 0 1)
          | UB => (UB, mkCost 1 0 0)
          end
        else (Ok (copy_inner_insert_value nm dm vs cs bit v, true), mkCost 1 0 0)
      | _, _ => (UB, mkCost 0 0 0)
      end.

  (** champ.hpp:1201-1275. *)
  Fixpoint sub_cost (fuel : nat) (n : node T) (k : K) (h shift : N) : res sub_result * cost :=
    if shift =? max_shift B then
      match n with
      | Coll vs =>
        (match find_index (fun w => teqk w k) vs with
         | Some pos =>
           if (2 <? length vs)%nat then Ok (SubTree (copy_collision_remove vs pos))
           else w <- rnth vs (other pos) ;; Ok (SubSingleton w)
         | None => Ok SubNothing
         end, mkCost 0 1 (search_cmps k vs))
      | Inner _ _ _ _ => (UB, mkCost 0 0 0)
      end
    else
      match fuel, n with
      | S f, Inner nm dm vs cs =>
        let bit := N.shiftl 1 (hash_idx B h shift) in
        if has nm bit then
          let offset := count_below nm bit in
          match rnth cs offset with
          | Ok c =>
            let '(r, w) := sub_cost f c k h (shift + B) in
            (r <- r ;;
             match r with
             | SubNothing => Ok SubNothing
             | SubSingleton v =>
               if (dm =? 0) && (popcount nm =? 1)%nat && (0 <? shift)
               then Ok (SubSingleton v)
               else Ok (SubTree (copy_inner_replace_inline nm dm vs cs bit offset v))
             | SubTree c' => Ok (SubTree (copy_inner_replace nm dm vs cs offset c'))
             end, cinner w)
          | UB => (UB, mkCost 1 0 0)
          end
        else if has dm bit then
          let offset := count_below dm bit in
          match rnth vs offset with
          | Ok w =>
            (if teqk w k then
              let nv := popcount dm in
              if negb (nm =? 0) || (2 <? nv)%nat then
                Ok (SubTree (copy_inner_remove_value nm dm vs cs bit offset))
              else if (nv =? 2)%nat then
                x <- rnth vs (other offset) ;;
                if 0 <? shift then Ok (SubSingleton x)
                else Ok (SubTree (make_inner_value (clear dm bit) x))
              else if shift =? 0 then Ok (SubTree empty_node)
              else UB
            else Ok SubNothing, mkCost 1 0 1)
          | UB => (UB, mkCost 1 0 0)
          end
        else (Ok SubNothing, mkCost 1 0 0)
      | _, _ => (UB, mkCost 0 0 0)
      end.

  Lemma get_cost_fst f n h k : fst (get_cost f n h k) = get_loop B key keq f n h k.
  Proof.
    revert n h. induction f as [|f IH]; intros [nm dm vs cs|vs] h; simpl; try reflexivity.
    destruct (has nm _).
    - destruct (rnth cs _) as [c|]; [|reflexivity]. simpl. rewrite <- IH. destruct (get_cost f c _ k). reflexivity.
    - destruct (has dm _); [|reflexivity]. destruct (rnth vs _); reflexivity.
  Qed.

  Lemma add_cost_fst f n v h s : fst (add_cost f n v h s) = do_add B key khash keq f n v h s.
  Proof.
    revert n s. induction f as [|f IH]; intros [nm dm vs cs|vs] s; simpl;
      (destruct (s =? max_shift B); [destruct (find_index _ _) || idtac; reflexivity|]); try reflexivity.
    destruct (has nm _).
    - destruct (rnth cs _) as [c|]; [|reflexivity]. simpl. rewrite <- IH. destruct (add_cost f c v h (s + B)) as [[[a b]|] w]; reflexivity.
    - destruct (has dm _); [|reflexivity]. destruct (rnth vs _); reflexivity.
  Qed.

  Lemma sub_cost_fst f n k h s : fst (sub_cost f n k h s) = do_sub B key keq f n k h s.
  Proof.
    revert n s. induction f as [|f IH]; intros [nm dm vs cs|vs] s; simpl;
      (destruct (s =? max_shift B); [destruct (find_index _ _) || idtac; reflexivity|]); try reflexivity.
    destruct (has nm _).
    - destruct (rnth cs _) as [c|]; [|reflexivity]. simpl. rewrite <- IH. destruct (sub_cost f c k h (s + B)) as [[r|] w]; reflexivity.
    - destruct (has dm _); [|reflexivity]. destruct (rnth vs _); reflexivity.
  Qed.

  Hypothesis HB : 1 <= B.
  Hypothesis Hkeys : keys_ok keq khash.
  Notation wf := (wf B key khash keq).
  Notation idx := (idx B).
  Notation level := (level B).

  Notation same_hash := (same_hash key khash).

  Definition bounded (d : nat) (k : K) (l : list T) (w : cost) : Prop :=
    (inners w <= d)%nat /\ (colls w <= 1)%nat /\ (cmps w <= Nat.max 1 (same_hash k l))%nat.

  Lemma search_cmps_le k vs : (search_cmps k vs <= length vs)%nat.
  Proof. induction vs as [|v vs IH]; simpl; [lia|]. destruct (teqk v k); lia. Qed.

  Lemma same_hash_incl k l l' : (forall v, In v l -> In v l') -> NoDup l ->
    (same_hash k l <= same_hash k l')%nat.
  Proof.
    intros H N. unfold ChampSpec.same_hash. apply NoDup_incl_length; [apply NoDup_filter; exact N|].
    intros v Hv. apply filter_In in Hv. apply filter_In. split; [apply H|]; tauto.
  Qed.

  Lemma coll_all d s p vs k : level d s -> wf d s p (Coll vs) -> khash k mod 2 ^ s = p ->
    same_hash k vs = length vs.
  Proof.
    intros Hl W Hk. destruct d; [|destruct W]. destruct W as (_ & HV & _).
    pose proof (level_O B HB _ Hl). subst s. unfold ChampSpec.same_hash. f_equal.
    assert (F : forall v, In v vs -> (khash (key v) =? khash k) = true).
    { intros v Hv. specialize (HV v Hv). apply N.eqb_eq. rewrite <- Hk in HV.
      rewrite (mod_max B HB) in HV by apply (proj2 (proj2 (proj2 (proj2 Hkeys)))).
      rewrite (mod_max B HB) in HV by apply (proj2 (proj2 (proj2 (proj2 Hkeys)))). exact HV. }
    clear -F. induction vs as [|v vs IH]; [reflexivity|]. simpl. rewrite F by (simpl; auto).
    f_equal. apply IH. intros w Hw. apply F. simpl; auto.
  Qed.

  Lemma child_step d s p nm dm vs cs k c w :
    p < 2 ^ s -> wf (S d) s p (Inner nm dm vs cs) -> khash k mod 2 ^ s = p ->
    slot nm cs (idx (khash k) s) = Some c ->
    bounded d k (elems c) w -> bounded (S d) k (elems (Inner nm dm vs cs)) (cinner w).
  Proof.
    intros Hp W Hk Hc (H1 & H2 & H3). unfold bounded. simpl inners. simpl colls. simpl cmps.
    split; [lia|]. split; [lia|].
    destruct (wf_child B key khash keq HB _ _ _ _ _ _ _ _ _ Hp W Hc) as (Wc & Hpc & _).
    pose proof W as (_ & _ & _ & L1 & L2 & _).
    assert (same_hash k (elems c) <= same_hash k (elems (Inner nm dm vs cs)))%nat; [|lia].
    apply same_hash_incl.
    - intros v Hv. apply (elems_slot nm dm vs cs v L1 L2). right. eauto.
    - apply (distinct_NoDup key khash keq Hkeys). apply (wf_distinct B key khash keq HB Hkeys _ _ _ _ Hpc Wc).
  Qed.

  Lemma one_inner d k l : bounded (S d) k l (mkCost 1 0 1).
  Proof. unfold bounded; cbn [inners colls cmps]; lia. Qed.
  Lemma one_inner0 d k l : bounded (S d) k l (mkCost 1 0 0).
  Proof. unfold bounded; cbn [inners colls cmps]; lia. Qed.

  Lemma kh_lt k : khash k < 2 ^ 64.
  Proof. apply (proj2 (proj2 (proj2 (proj2 Hkeys)))). Qed.

  Lemma add_bounded d n s p v : level d s -> p < 2 ^ s -> wf d s p n -> thash v mod 2 ^ s = p ->
    bounded d (key v) (elems n) (snd (add_cost d n v (thash v) s)).
  Proof.
    revert n s p. induction d as [|d IH]; intros n s p Hl Hp W Hk;
      destruct n as [nm dm vs cs|vs]; try (simpl in W; contradiction); cbn [add_cost sub_cost get_cost].
    - pose proof (level_O B HB _ Hl). subst s. rewrite N.eqb_refl. cbn [snd]. unfold bounded. cbn [inners colls cmps snd elems].
      pose proof (coll_all 0 (max_shift B) p vs (key v) Hl W Hk) as E. rewrite E.
      pose proof (search_cmps_le (key v) vs). lia.
    - destruct (level_S B HB _ _ Hl) as (Hl' & Hs & _). rewrite Hs.
      rewrite (hash_idx_spec B HB) by apply kh_lt. rewrite !has_testbit, !count_below_rank.
      pose proof W as (_ & _ & _ & L1 & L2 & _).
      destruct (N.testbit nm _) eqn:E.
      + destruct (slot_set nm cs _ L2 E) as (c & Hc & Hn). unfold rnth. rewrite Hn.
        destruct (wf_child B key khash keq HB _ _ _ _ _ _ _ _ _ Hp W Hc) as (Wc & Hpc & _).
        specialize (IH c (s + B) _ Hl' Hpc Wc).
        destruct (add_cost d c v (thash v) (s + B)) as [r w]. simpl.
        apply (child_step d s p nm dm vs cs (key v) c w Hp W Hk Hc).
        apply IH. rewrite (mod_extend B HB), Hk. reflexivity.
      + destruct (N.testbit dm _); [|apply one_inner0]. unfold rnth.
        destruct (nth_error vs _); [apply one_inner|apply one_inner0].
  Qed.

  Lemma sub_bounded d n s p k : level d s -> p < 2 ^ s -> wf d s p n -> khash k mod 2 ^ s = p ->
    bounded d k (elems n) (snd (sub_cost d n k (khash k) s)).
  Proof.
    revert n s p. induction d as [|d IH]; intros n s p Hl Hp W Hk;
      destruct n as [nm dm vs cs|vs]; try (simpl in W; contradiction); cbn [add_cost sub_cost get_cost].
    - pose proof (level_O B HB _ Hl). subst s. rewrite N.eqb_refl. cbn [snd]. unfold bounded. cbn [inners colls cmps snd elems].
      pose proof (coll_all 0 (max_shift B) p vs k Hl W Hk) as E. rewrite E.
      pose proof (search_cmps_le k vs). lia.
    - destruct (level_S B HB _ _ Hl) as (Hl' & Hs & _). rewrite Hs.
      rewrite (hash_idx_spec B HB) by apply kh_lt. rewrite !has_testbit, !count_below_rank.
      pose proof W as (_ & _ & _ & L1 & L2 & _).
      destruct (N.testbit nm _) eqn:E.
      + destruct (slot_set nm cs _ L2 E) as (c & Hc & Hn). unfold rnth. rewrite Hn.
        destruct (wf_child B key khash keq HB _ _ _ _ _ _ _ _ _ Hp W Hc) as (Wc & Hpc & _).
        specialize (IH c (s + B) _ Hl' Hpc Wc).
        destruct (sub_cost d c k (khash k) (s + B)) as [r w]. simpl.
        apply (child_step d s p nm dm vs cs k c w Hp W Hk Hc).
        apply IH. rewrite (mod_extend B HB), Hk. reflexivity.
      + destruct (N.testbit dm _); [|apply one_inner0]. unfold rnth.
        destruct (nth_error vs _); [apply one_inner|apply one_inner0].
  Qed.

  Lemma get_bounded d n s p k : level d s -> p < 2 ^ s -> wf d s p n -> khash k mod 2 ^ s = p ->
    bounded d k (elems n) (snd (get_cost d n (N.shiftr (khash k) s) k)).
  Proof.
    revert n s p. induction d as [|d IH]; intros n s p Hl Hp W Hk;
      destruct n as [nm dm vs cs|vs]; try (simpl in W; contradiction); cbn [add_cost sub_cost get_cost].
    - pose proof (level_O B HB _ Hl). subst s. unfold bounded. cbn [inners colls cmps snd elems].
      pose proof (coll_all 0 (max_shift B) p vs k Hl W Hk) as E. rewrite E.
      pose proof (search_cmps_le k vs). lia.
    - destruct (level_S B HB _ _ Hl) as (Hl' & Hs & _).
      assert (EI : N.land (N.shiftr (khash k) s) (mask B) = idx (khash k) s).
      { unfold ChampProofs.idx, mask, branches. rewrite N.shiftr_div_pow2, N.shiftl_1_l.
        rewrite N.sub_1_r, <- N.ones_equiv, N.land_ones. reflexivity. }
      rewrite EI. rewrite !has_testbit, !count_below_rank.
      pose proof W as (_ & _ & _ & L1 & L2 & _).
      destruct (N.testbit nm _) eqn:E.
      + destruct (slot_set nm cs _ L2 E) as (c & Hc & Hn). unfold rnth. rewrite Hn.
        destruct (wf_child B key khash keq HB _ _ _ _ _ _ _ _ _ Hp W Hc) as (Wc & Hpc & _).
        specialize (IH c (s + B) _ Hl' Hpc Wc). rewrite N.shiftr_shiftr.
        destruct (get_cost d c (N.shiftr (khash k) (s + B)) k) as [r w]. simpl.
        apply (child_step d s p nm dm vs cs k c w Hp W Hk Hc).
        apply IH. rewrite (mod_extend B HB), Hk. reflexivity.
      + destruct (N.testbit dm _); [|apply one_inner0]. unfold rnth.
        destruct (nth_error vs _); [apply one_inner|apply one_inner0].
  Qed.

  Lemma lookup_cost c m k : holds B key khash keq c m ->
    fst (get_cost (max_depth B) (root c) (khash k) k) = get B key khash keq c k /\
    bounded (max_depth B) k (elems (root c)) (snd (get_cost (max_depth B) (root c) (khash k) k)).
  Proof.
    intros H. split; [apply get_cost_fst|].
    pose proof (get_bounded (max_depth B) (root c) 0 0 k (level_top B HB) (lt01 B HB) (proj1 H)) as X.
    rewrite N.shiftr_0_r in X. apply X. apply N.mod_1_r.
  Qed.

  Lemma insert_cost c m v : holds B key khash keq c m ->
    fst (add_cost (max_depth B) (root c) v (thash v) 0) = do_add B key khash keq (max_depth B) (root c) v (thash v) 0 /\
    bounded (max_depth B) (key v) (elems (root c)) (snd (add_cost (max_depth B) (root c) v (thash v) 0)).
  Proof.
    intros H. split; [apply add_cost_fst|].
    apply (add_bounded (max_depth B) (root c) 0 0 v (level_top B HB) (lt01 B HB) (proj1 H)). apply N.mod_1_r.
  Qed.

  Lemma erase_cost c m k : holds B key khash keq c m ->
    fst (sub_cost (max_depth B) (root c) k (khash k) 0) = do_sub B key keq (max_depth B) (root c) k (khash k) 0 /\
    bounded (max_depth B) k (elems (root c)) (snd (sub_cost (max_depth B) (root c) k (khash k) 0)).
  Proof.
    intros H. split; [apply sub_cost_fst|].
    apply (sub_bounded (max_depth B) (root c) 0 0 k (level_top B HB) (lt01 B HB) (proj1 H)). apply N.mod_1_r.
  Qed.
End Cost.
