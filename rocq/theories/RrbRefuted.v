(** Properties of flex_vector that are false of the code as it is: C22 (equality), C24
    (indexing of every reachable flex_vector) and C29 (slicing offsets).  Each witness is
    built by public operations with the default widths B = BL = 5. *)
From Coq Require Import List NArith ZArith Arith Bool Lia ZifyN ZifyNat ZifyBool.
From Verif Require Import Common NList Rrb RrbInv RrbTree RrbView RrbSpec RrbReach RrbLemmas
  RrbExec RrbFlexEq RrbProps.
Import ListNotations.
Local Open Scope N_scope.

Set Default Goal Selector "!".

(** * C22 *)

(** No two nodes share an address: the outcome does not come from the pointer shortcuts. *)
Definition distinct (_ _ : node N) : bool := false.

Definition run55 (cs : list (cmd N)) : tree N :=
  match exec 5 5 empty cs with Some t => t | None => empty end.
Definition runs (cs : list (cmd N)) : bool :=
  match exec 5 5 empty cs with Some _ => true | None => false end.
Lemma run55_built cs : runs cs = true -> built 5 5 (run55 cs) (to_list (run55 cs)).
Proof.
  unfold run55, runs. destruct (exec 5 5 empty cs) as [t|] eqn:E; [|discriminate]. intros _.
  apply exec_built with cs; [lia|exact E].
Qed.

(** 34 elements of which 31 are dropped: {31 | 32, 33} with a tree part of one element;
    against {99, 32, 33} with an empty tree part.  The tree parts are not compared when
    one of them is empty, and the tails are compared only from the larger offset on. *)
Definition eq_a1 := pushes 34 ++ [CDrop 31].
Definition eq_b1 : list (cmd N) := [CPush 99; CPush 32; CPush 33].
(** 1100 elements of which 60 are dropped (two levels, tail at 1028) against 1040 pushed
    ones (one level, tail at 1024) that differ at position 1024. *)
Definition eq_a2 := pushes 1100 ++ [CDrop 60].
Definition eq_b2 : list (cmd N) :=
  map (fun i => CPush (if Nat.eqb i 1084 then 9999 else N.of_nat i)) (seq 60 1040).

Lemma equality_witness_1 :
  exists a xs b ys, built 5 5 a xs /\ built 5 5 b ys /\ length xs = length ys /\
    equals 5 5 N.eqb distinct a b = Ok true /\
    ~ Forall2 (fun x y => N.eqb x y = true) xs ys /\
    equals 5 5 N.eqb distinct b a = Ok false.
Proof.
  exists (run55 eq_a1), (to_list (run55 eq_a1)), (run55 eq_b1), (to_list (run55 eq_b1)).
  split; [apply run55_built; vm_compute; reflexivity|].
  split; [apply run55_built; vm_compute; reflexivity|].
  split; [vm_compute; reflexivity|]. split; [vm_compute; reflexivity|].
  split; [|vm_compute; reflexivity].
  rewrite <- list_eqb_Forall2. vm_compute. discriminate.
Qed.
Lemma equality_witness_2 :
  exists a xs b ys, built 5 5 a xs /\ built 5 5 b ys /\
    lenN (kids (root a)) > 0 /\ lenN (kids (root b)) > 0 /\
    equals 5 5 N.eqb distinct a b = Ok true /\
    ~ Forall2 (fun x y => N.eqb x y = true) xs ys.
Proof.
  exists (run55 eq_a2), (to_list (run55 eq_a2)), (run55 eq_b2), (to_list (run55 eq_b2)).
  split; [apply run55_built; vm_compute; reflexivity|].
  split; [apply run55_built; vm_compute; reflexivity|].
  split; [vm_compute; reflexivity|]. split; [vm_compute; reflexivity|].
  split; [vm_compute; reflexivity|].
  rewrite <- list_eqb_Forall2. vm_compute. discriminate.
Qed.

(** * C24 *)

(** The size of the first child of the root. *)
Definition first_size {T} (t : tree T) : N :=
  match root t with Inner (Some (s :: _)) _ => s | _ => 0 end.
(** Concatenate the vector with itself until it gets taller. *)
Definition grow (t : tree N) : option (tree N) :=
  repeat_until 5 5 40 (fun u => Nat.ltb (lv t) (lv u)) CSelf t.
(** Then cut it down to 65 elements across the boundary of the first two children of the
    root. *)
Definition taller (t : tree N) : option (tree N) :=
  match grow t with
  | Some u => exec 5 5 u [CTake (first_size u + 64); CDrop (first_size u - 1)]
  | None => None
  end.
Fixpoint times (n : nat) (t : tree N) : option (tree N) :=
  match n with
  | O => grow t
  | S n' => match taller t with Some u => times n' u | None => None end
  end.
Lemma times_ok n t t' : reached 5 5 t -> times n t = Some t' -> reached 5 5 t'.
Proof.
  revert t. induction n as [|n IH]; intros t Ht; cbn [times].
  - unfold grow. intros H. eapply repeat_until_ok; eauto.
  - unfold taller, grow. destruct (repeat_until _ _ _ _ _ _) as [u|] eqn:Eu; [|discriminate].
    destruct (exec _ _ u _) as [w|] eqn:Ew; [|discriminate]. apply IH.
    eapply exec_ok; [|exact Ew]. eapply repeat_until_ok; [|exact Eu]. exact Ht.
Qed.
(** Start with 34 pushed elements. *)
Definition tall : option (tree N) :=
  match exec 5 5 empty (pushes 34) with Some t => times 5 t | None => None end.
Lemma tall_check :
  match tall with
  | Some t => (0 <? size t) && (size t <=? 2 ^ 22) && Nat.eqb (lv t) 6 &&
              match get 5 5 t 0 with UB => true | Ok _ => false end
  | None => false
  end = true.
Proof. vm_compute. reflexivity. Qed.

Lemma indexing_witness :
  exists (t : tree N) xs x, built 5 5 t xs /\ lv t = 6%nat /\ size t <= 2 ^ 22 /\
    nth_error xs 0 = Some x /\ get 5 5 t 0 = UB.
Proof.
  pose proof tall_check as Hc. unfold tall in Hc.
  destruct (exec 5 5 empty (pushes 34)) as [t0|] eqn:E0; [|discriminate].
  destruct (times 5 t0) as [t|] eqn:Et; [|discriminate].
  assert (reached 5 5 t) as [xs Hb].
  { eapply times_ok; [|exact Et]. eapply exec_ok; [|exact E0]. apply reached_empty. }
  clear Et E0 t0.
  destruct (N.ltb_spec 0 (size t)) as [H0|]; [|discriminate].
  destruct (N.leb_spec (size t) (2 ^ 22)) as [H1|]; [|discriminate].
  destruct (Nat.eqb_spec (lv t) 6) as [H2|]; [|discriminate].
  destruct (get 5 5 t 0) eqn:Eg; [discriminate|].
  assert (2 <= 5) as H25 by lia.
  destruct (built_shows 5 5 H25 t xs Hb) as [Hl _].
  destruct xs as [|x xs]; [cbn in Hl; lia|].
  exists t, (x :: xs), x. repeat split; auto.
Qed.

(** * C29 *)

(** A vector of any size. *)
Lemma any_size n : exists t : tree unit, vbuilt 5 5 t (repeat tt n).
Proof.
  induction n as [|n [t Ht]]; [exists empty; constructor|].
  assert (1 <= 5) as HB by lia.
  destruct (vpush_back_shows 5 5 HB t _ tt Ht) as (t' & E & _).
  exists t'. change (repeat tt (S n)) with (tt :: repeat tt n). rewrite repeat_cons.
  eapply v_push_back; eauto.
Qed.

Section Wrap.
Context {T : Type}.
Notation reg := (@reg T 5 5).
Notation full := (@full T 5 5).

Lemma wrapped_drop (t : tree T) : vinv 5 5 t -> size t = 2 ^ 32 + 100 ->
  drop 5 5 t (2 ^ 32 + 1) = UB.
Proof.
  intros (Hi & Hrel & Hk) Hs.
  assert (1 <= 5) as HB by lia.
  pose proof (tail_offset_ok 5 5 HB t Hi) as Htoff.
  destruct Hi as (xs & Et & Hsz & Hlen & Hpos & Hroot).
  change (lwidth 5) with 32 in Hlen.
  assert (2 ^ 32 + 68 <= nsize (root t) <= 2 ^ 32 + 100) as Hn by lia.
  destruct Hroot as [[Er _]|Hwf].
  { rewrite Er in Hn. rewrite nsize_inner in Hn. cbn in Hn. lia. }
  destruct (root t) as [ys|[sz|] cs] eqn:Er; cbn [is_rel] in Hrel; [cbn in Hwf; easy|easy|].
  cbn [wf] in Hwf.
  (* the height *)
  pose proof (reg_size_bounds 5 5 (S (lv t)) _ Hwf) as Hb.
  destruct Hwf as (init & c & Ecs & Hfull & Hreg & Hwidth).
  assert (lv t = 5%nat) as Hlv.
  { destruct (Nat.lt_ge_cases (lv t) 5) as [Hlt|Hge].
    - exfalso. unfold span, Rrb.sh in Hb.
      assert (2 ^ (5 + N.of_nat (S (lv t)) * 5) <= 2 ^ 30) by (apply N.pow_le_mono_r; lia).
      change (2 ^ 30) with 1073741824 in *. change (2 ^ 32) with 4294967296 in *. lia.
    - destruct (Nat.eq_dec (lv t) 5) as [|Hne]; [auto|]. exfalso.
      destruct Hk as [Hk|Hk]; [lia|]. cbn [kids] in Hk.
      rewrite Ecs, lenN_app in Hk. change (lenN [c]) with 1 in Hk.
      rewrite nsize_inner, Ecs in Hn. fold (csize (init ++ [c])) in Hn.
      rewrite csize_snoc, (full_csize 5 5 (lv t) init Hfull) in Hn.
      assert (2 ^ 35 <= span 5 5 (lv t)) as Hsp.
      { unfold span, Rrb.sh. apply N.pow_le_mono_r; lia. }
      assert (1 * 2 ^ 35 <= lenN init * span 5 5 (lv t)) by (apply N.mul_le_mono; lia).
      change (2 ^ 35) with 34359738368 in *. change (2 ^ 32) with 4294967296 in *. lia. }
  rewrite Hlv in *.
  assert (lenN init = 4 /\ nsize c <= 2 ^ 30 /\ 0 < nsize c) as (Hi4 & _).
  { rewrite nsize_inner, Ecs in Hn. fold (csize (init ++ [c])) in Hn.
    rewrite csize_snoc, (full_csize 5 5 5 init Hfull) in Hn.
    pose proof (reg_size_bounds 5 5 5 c Hreg) as Hc.
    change (span 5 5 5) with 1073741824 in *. change (2 ^ 32) with 4294967296 in *.
    change (2 ^ 30) with 1073741824 in *. lia. }
  (* the last child is a node of at most 32 children *)
  destruct c as [zs|[sz|] ccs]; cbn [RrbInv.reg] in Hreg; [easy|easy|].
  destruct Hreg as (init' & c' & Ecc & _ & _ & Hccs). change (width 5) with 32 in *.
  assert (rnthN cs 4 = Ok (Inner None ccs)) as Hnth.
  { rewrite Ecs, <- Hi4. now apply rnthN_app. }
  assert (rnthN ccs 128 = UB) as Hub.
  { destruct (rnthN ccs 128) eqn:E; [|reflexivity]. apply rnthN_lt in E. lia. }
  (* the run *)
  unfold drop. rewrite Htoff, Hlv, Er.
  destruct (N.eqb_spec (2 ^ 32 + 1) 0) as [Hc|_]; [discriminate|].
  destruct (N.leb_spec (size t) (2 ^ 32 + 1)) as [Hc|_]; [rewrite Hs in Hc; exfalso; lia|].
  cbn [rbind]. set (s := nsize (Inner None cs)) in *.
  destruct (N.eqb_spec (2 ^ 32 + 1) s) as [Hc|_]; [exfalso; lia|].
  destruct (N.ltb_spec s (2 ^ 32 + 1)) as [Hc|_]; [exfalso; lia|].
  unfold maybe_relaxed, mk_sub.
  replace (N.shiftl (width 5) (Rrb.sh 5 5 5)) with (2 ^ 35) by reflexivity.
  replace ((0 <? s) && (s <=? 2 ^ 35)) with true by (symmetry; change (2 ^ 35) with 34359738368; change (2 ^ 32) with 4294967296 in *; lia).
  cbn [rbind].
  assert (subindex 5 5 6 (PSub (Inner None cs) s) (2 ^ 32 + 1) = Ok 4) as E1 by reflexivity.
  assert (count 5 5 6 (PSub (Inner None cs) s) = Ok 5) as E2.
  { unfold count. f_equal. rewrite N.shiftr_div_pow2. change (2 ^ Rrb.sh 5 5 5) with 1073741824.
    replace ((s - 1) / 1073741824) with 4; [reflexivity|].
    apply N.div_unique with (s - 1 - 4 * 1073741824); change (2 ^ 32) with 4294967296 in *; lia. }
  cbn [slice_left]. rewrite E1. cbn [rbind]. rewrite E2. cbn [rbind].
  change (size_before 5 5 6 (PSub (Inner None cs) s) 4) with (@Ok N 4294967296). cbn [rbind].
  cbn [size_sbh rbind towards_sub inner_of]. rewrite Hnth. cbn [rbind].
  change (shl32 4 (Rrb.sh 5 5 5)) with (@Ok N 0). cbn [rbind this_size].
  rewrite !N.sub_0_r. change (N.shiftl 1 (Rrb.sh 5 5 5)) with 1073741824.
  destruct (N.leb_spec 1073741824 s) as [_|Hc]; [|change (2 ^ 32) with 4294967296 in *; exfalso; lia].
  cbn [rbind andb]. change (4 + 1 =? 5) with true. cbn iota.
  change (subindex 5 5 5 (PFull (Inner None ccs)) (2 ^ 32 + 1)) with (@Ok N 128). cbn [rbind count].
  cbn [size_before size_sbh rbind towards_sub inner_of]. rewrite Hub. reflexivity.
Qed.
End Wrap.

Lemma slicing_witness :
  exists (t : tree unit) xs n, built 5 5 t xs /\ n < size t /\ size t <= max_size 5 5 /\
    drop 5 5 t n = UB.
Proof.
  destruct (any_size (N.to_nat (2 ^ 32 + 100))) as [t Ht].
  assert (1 <= 5) as HB by lia.
  destruct (vbuilt_shows 5 5 HB t _ Ht) as [Hs _].
  rewrite repeat_length, N2Nat.id in Hs.
  destruct (vbuilt_inv 5 5 HB t _ Ht) as [Hv _].
  exists t, (repeat tt (N.to_nat (2 ^ 32 + 100))), (2 ^ 32 + 1).
  split; [now apply b_vector|]. rewrite Hs. split; [reflexivity|]. split.
  - change (max_size 5 5) with 531441000000000000. discriminate.
  - now apply wrapped_drop.
Qed.

(** * The theorems *)

Theorem C22_equality_refuted :
  exists a xs b ys, built 5 5 a xs /\ built 5 5 b ys /\ length xs = length ys /\
    equals 5 5 N.eqb distinct a b = Ok true /\
    ~ Forall2 (fun x y => N.eqb x y = true) xs ys /\
    equals 5 5 N.eqb distinct b a = Ok false.
Proof. exact equality_witness_1. Qed.
Print Assumptions C22_equality_refuted.
(** Also when both trees are non-empty. *)
Theorem C22_equality_tall_refuted :
  exists a xs b ys, built 5 5 a xs /\ built 5 5 b ys /\
    lenN (kids (root a)) > 0 /\ lenN (kids (root b)) > 0 /\
    equals 5 5 N.eqb distinct a b = Ok true /\
    ~ Forall2 (fun x y => N.eqb x y = true) xs ys.
Proof. exact equality_witness_2. Qed.
Print Assumptions C22_equality_tall_refuted.
(** Outside these two cases the comparison is exact: the tree part of the left operand is
    not the longer one, or the tree part of the right operand is not empty and not of lower
    height.  [eqT] compares elements, [peq] addresses of nodes. *)
Theorem C22_equality_partial : forall T B BL eqT peq (a b : tree T) xs ys, 2 <= B ->
  (forall x, eqT x x = true) -> (forall x y, eqT x y = true -> eqT y x = true) ->
  (forall m n, peq m n = true -> m = n) ->
  built B BL a xs -> built B BL b ys ->
  lenN (elems (root a)) <= lenN (elems (root b)) \/
    0 < lenN (elems (root b)) /\ (lv a <= lv b)%nat ->
  exists r, equals B BL eqT peq a b = Ok r /\
    (r = true <-> Forall2 (fun x y => eqT x y = true) xs ys).
Proof.
  intros T B BL eqT peq a b xs ys HB Hr Hs Hp Ha Hb Hc.
  destruct (built_eq B BL eqT peq Hr Hp HB Hs a xs b ys Ha Hb) as (r & E & _ & H).
  exists r. split; [auto|]. apply H. unfold skips, nsize. lia.
Qed.
Print Assumptions C22_equality_partial.
(** In every case the comparison is defined, and equal sequences compare equal. *)
Theorem C22_equality_complete_partial : forall T B BL eqT peq (a b : tree T) xs ys, 2 <= B ->
  (forall x, eqT x x = true) -> (forall x y, eqT x y = true -> eqT y x = true) ->
  (forall m n, peq m n = true -> m = n) ->
  built B BL a xs -> built B BL b ys ->
  equals B BL eqT peq a b <> UB /\
  (Forall2 (fun x y => eqT x y = true) xs ys -> equals B BL eqT peq a b = Ok true).
Proof.
  intros T B BL eqT peq a b xs ys HB Hr Hs Hp Ha Hb.
  destruct (built_eq B BL eqT peq Hr Hp HB Hs a xs b ys Ha Hb) as (r & -> & H & _).
  split; [discriminate|]. intros HE. now rewrite (H HE).
Qed.
Print Assumptions C22_equality_complete_partial.
(** Asking both ways decides equality. *)
Theorem C22_equality_both_ways_partial : forall T B BL eqT peq (a b : tree T) xs ys, 2 <= B ->
  (forall x, eqT x x = true) -> (forall x y, eqT x y = true -> eqT y x = true) ->
  (forall m n, peq m n = true -> m = n) ->
  built B BL a xs -> built B BL b ys ->
  exists r r', equals B BL eqT peq a b = Ok r /\ equals B BL eqT peq b a = Ok r' /\
    (r = true /\ r' = true <-> Forall2 (fun x y => eqT x y = true) xs ys).
Proof.
  intros T B BL eqT peq a b xs ys HB Hr Hs Hp Ha Hb.
  destruct (built_eq B BL eqT peq Hr Hp HB Hs a xs b ys Ha Hb) as (r & E & H1 & H2).
  destruct (built_eq B BL eqT peq Hr Hp HB Hs b ys a xs Hb Ha) as (r' & E' & H1' & H2').
  exists r, r'. split; [auto|]. split; [auto|].
  assert (forall us vs, Forall2 (fun x y => eqT x y = true) us vs ->
    Forall2 (fun x y => eqT x y = true) vs us) as Hsym by (induction 1; constructor; auto).
  split; [|auto].
  intros [-> ->]. destruct (N.le_gt_cases (nsize (root a)) (nsize (root b))) as [Hle|Hgt].
  - apply H2; [unfold skips; lia|reflexivity].
  - apply Hsym, H2'; [unfold skips; lia|reflexivity].
Qed.
Print Assumptions C22_equality_both_ways_partial.
(** The same 53 elements pushed at the back and pushed at the front: a tree of height 2
    without size tables and one of height 3 with; then with one element changed. *)
Definition eq_back (n : nat) : tree N :=
  match exec 2 2 empty (map CPush (map N.of_nat (seq 0 n))) with Some t => t | None => empty end.
Definition eq_front (n : nat) : tree N :=
  match exec 2 2 empty (map CFront (map N.of_nat (rev (seq 0 n)))) with Some t => t | None => empty end.
Example C22_case_built : built 2 2 (eq_back 53) (to_list (eq_back 53)) /\
  built 2 2 (eq_front 53) (to_list (eq_front 53)).
Proof.
  split.
  - apply exec_built with (map CPush (map N.of_nat (seq 0 53))); [lia|vm_compute; reflexivity].
  - apply exec_built with (map CFront (map N.of_nat (rev (seq 0 53)))); [lia|vm_compute; reflexivity].
Qed.
Example C22_case : (lv (eq_back 53), lv (eq_front 53)) = (1%nat, 2%nat) /\
  lenN (elems (root (eq_front 53))) = lenN (elems (root (eq_back 53))) /\
  equals 2 2 N.eqb distinct (eq_back 53) (eq_front 53) = Ok true /\
  equals 2 2 N.eqb distinct (eq_front 53) (eq_back 53) = Ok true /\
  match update 2 2 (eq_front 53) 30 (fun x => x + 1) with
  | Ok t => equals 2 2 N.eqb distinct t (eq_back 53)
  | UB => UB
  end = Ok false.
Proof. vm_compute. repeat split. Qed.

Theorem C24_indexing_refuted :
  exists (t : tree N) xs x, built 5 5 t xs /\ lv t = 6%nat /\ size t <= 2 ^ 22 /\
    nth_error xs 0 = Some x /\ get 5 5 t 0 = UB.
Proof. exact indexing_witness. Qed.
Print Assumptions C24_indexing_refuted.
(** Up to six levels of inner nodes indexing is what it should be. *)
Theorem C24_indexing_partial : forall T B BL (t : tree T) xs i x, 2 <= B ->
  built B BL t xs -> (lv t < 6)%nat ->
  nth_error xs (N.to_nat i) = Some x -> get B BL t i = Ok x.
Proof. intros T B BL t xs i x HB H Hl. destruct (built_shows B BL HB t xs H) as (_ & _ & Hg). auto. Qed.
Print Assumptions C24_indexing_partial.

Theorem C29_slicing_refuted :
  exists (t : tree unit) xs n, built 5 5 t xs /\ n < size t /\ size t <= max_size 5 5 /\
    drop 5 5 t n = UB.
Proof. exact slicing_witness. Qed.
Print Assumptions C29_slicing_refuted.
(** Within the supported range nothing goes wrong. *)
Theorem C29_slicing_partial : forall T B BL (t u : tree T) xs ys n, 2 <= B ->
  built B BL t xs -> built B BL u ys -> small B BL t -> small B BL u ->
  (exists t', drop B BL t n = Ok t' /\ shows B BL t' (skipn (N.to_nat n) xs)) /\
  (exists t', concat B BL t u = Ok t' /\ shows B BL t' (xs ++ ys)).
Proof. intros. split; [now apply drop_shows|now apply concat_shows]. Qed.
Print Assumptions C29_slicing_partial.
(** The hypotheses of the two partial theorems hold of a relaxed tree of height 3. *)
Example C24_C29_case : built 2 2 ex_tree (to_list ex_tree) /\ (lv ex_tree < 6)%nat /\ small 2 2 ex_tree.
Proof. split; [exact ex_built|]. split; [vm_compute; lia|exact ex_small]. Qed.
