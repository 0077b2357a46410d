(** Properties of arrays and transients under garbage collection (C55, C56). *)
From Coq Require Import List NArith Arith Bool Lia ZifyN ZifyNat ZifyBool.
From Verif Require Import Common NList RrbSpec Array ArraySpec GcArray GcArraySpec GcArrayProofs.
From Verif Require ArrayProps ArrayProofs.
Import ListNotations.
Local Open Scope N_scope.
Set Default Goal Selector "!".

Section Props.
Context {T : Type}.
Variable trivial : bool.
Variables esz off nodesz limit : N.
Variable teq : T -> T -> bool.

Notation gstep := (gstep trivial esz off nodesz limit teq).
Notation ginit := (@ginit T esz off nodesz limit).
Notation grun := (grun trivial esz off nodesz limit teq).

(** Sizes given by the caller whose byte count fits in 64 bits. *)
Definition sizes_fit (o : gop T) : Prop :=
  match o with
  | GFrom xs => off + esz * N.of_nat (length xs) < 2^64
  | GFill n _ => off + esz * n < 2^64
  | _ => True
  end.
(** The in-place shrink of C32: the transient owns its node, the elements have destructors,
    and some elements are dropped. *)
Definition shrinks_in_place (s : gstate T) (o : gop T) : Prop :=
  match o with
  | GTTake i n => exists h e b, nth_error (gvars s) i = Some (Tra h e) /\
      nth_error (blocks (gm s)) (ptr h) = Some b /\ tok b = e /\
      trivial = false /\ n <> hsize h
  | _ => False
  end.

(** The values after an operation: those of the specification, or the old ones after an
    exception. *)
Definition after (vs : gvals T) (o : gop T) (r : gout T) : gvals T :=
  match r with Threw => vs | _ => gspec vs o end.
(** Executions that respect the preconditions, with the values the variables should have. *)
Inductive goes : gstate T -> gvals T -> list (gop T) -> gstate T -> gvals T -> Prop :=
| goes_nil s vs : goes s vs [] s vs
| goes_cons s vs o os s1 r s2 vs2 : gvalid vs o -> sizes_fit o -> ~ shrinks_in_place s o ->
    gstep s o = Ok (s1, r) -> goes s1 (after vs o r) os s2 vs2 ->
    goes s vs (o :: os) s2 vs2.
Definition reach (s : gstate T) (vs : gvals T) : Prop :=
  exists s0 os, ginit = Ok (Some s0) /\ goes s0 [] os s vs.

(** A variable shows a list: its size, and at() inside and outside. *)
Definition shows1 (s : gstate T) (v : gvar) (x : gval T) : Prop :=
  let is p n xs := n = N.of_nat (length xs) /\
    forall k, g_get_check (gm s) p n k = Ok (nth_error xs (N.to_nat k)) in
  match v, x with
  | Arr p n, VArr xs => is p n xs
  | Tra h _, VTra xs => is (ptr h) (hsize h) xs
  | Tra _ _, VMoved => True
  | Gone, VGone => True
  | _, _ => False
  end.

Hypothesis P : ArrayProps.platform esz off nodesz limit.
Hypothesis teq_refl : forall x, teq x x = true.

Notation inv := (GcArrayProofs.inv trivial esz off limit).

Lemma fits_of s o : sizes_fit o -> ~ shrinks_in_place s o ->
  gfits trivial esz off (gm s) (gvars s) o.
Proof.
  intros H1 H2. destruct o; cbn in *; auto.
  intros h e Hv (Ht & Hn & Ho). apply H2. unfold gown, rblock, rnth in Ho.
  destruct (nth_error (blocks (gm s)) (ptr h)) as [b|] eqn:Eb; [|discriminate].
  cbn in Ho. injection Ho as Ho. apply Nat.eqb_eq in Ho. exists h, e, b. auto.
Qed.
Lemma step_inv s vs o : inv (gm s) (gvars s) vs -> gvalid vs o -> sizes_fit o ->
  ~ shrinks_in_place s o ->
  exists s' r, gstep s o = Ok (s', r) /\
    ((r = Threw /\ allocates o = true) \/ r = gresult teq vs o) /\
    inv (gm s') (gvars s') (after vs o r).
Proof.
  intros I V F1 F2. destruct P as [pz po pn pn2 pl]. destruct s as [m l].
  destruct (step_ok trivial esz off nodesz limit teq pz po pn pn2 pl
              teq_refl m l vs o I V (fits_of _ _ F1 F2)) as (m' & l' & r & E & H).
  exists (mkG m' l'), r. split; [exact E|]. split; [tauto|]. cbn [gm gvars].
  destruct H as [(_ & -> & H)|[-> H]]; [exact H|].
  unfold after. destruct o; cbn [gresult] in *; try exact H.
  destruct (nth_error (contents vs i) (N.to_nat k)); exact H.
Qed.
Lemma goes_inv s vs os s' vs' : goes s vs os s' vs' -> inv (gm s) (gvars s) vs ->
  inv (gm s') (gvars s') vs'.
Proof.
  induction 1 as [|s vs o os s1 r s2 vs2 V F1 F2 E _ IH]; auto. intros I. apply IH.
  destruct (step_inv s vs o I V F1 F2) as (s' & r' & E' & _ & I'). congruence.
Qed.
Lemma reach_inv s vs : reach s vs -> inv (gm s) (gvars s) vs /\ nodesz <= limit.
Proof.
  intros (s0 & os & E & G). destruct P as [pz po pn pn2 pl].
  destruct (init_ok trivial esz off nodesz limit pz po pn pn2 pl s0 E).
  split; [|assumption]. exact (goes_inv _ _ _ _ _ G H).
Qed.

(** ** C55: values of arrays and transients under garbage collection.
    Full statement: no program is undefined and all variables keep the values of the
    specification.  Missing: in-place shrinks of elements with destructors
    ([shrinks_in_place], see [C55_take_refuted]), and the use of transients that were moved
    from (excluded by [gvalid], see [C55_moved_refuted]). *)
Theorem C55_step_partial s vs o : reach s vs -> gvalid vs o -> sizes_fit o ->
  ~ shrinks_in_place s o ->
  exists s' r, gstep s o = Ok (s', r) /\
    ((r = Threw /\ allocates o = true) \/ r = gresult teq vs o) /\
    reach s' (after vs o r).
Proof.
  intros R V F1 F2. destruct (reach_inv _ _ R) as [I _].
  destruct (step_inv s vs o I V F1 F2) as (s' & r & E & H & _).
  exists s', r. split; [exact E|]. split; [exact H|].
  destruct R as (s0 & os & E0 & G). exists s0, (os ++ [o]). split; [exact E0|].
  clear - E G V F1 F2. induction G as [|s vs' o' os s1 r' s2 vs2 V' F1' F2' E' G IH]; cbn.
  - apply (goes_cons _ _ _ _ _ _ _ _ V F1 F2 E). constructor.
  - apply (goes_cons _ _ _ _ _ _ _ _ V' F1' F2' E'). auto.
Qed.
Theorem C55_values_partial s vs : reach s vs -> Forall2 (shows1 s) (gvars s) vs.
Proof.
  intros R. destruct (reach_inv _ _ R) as [I _]. destruct P as [pz po pn pn2 pl].
  eapply ArrayProofs.F2_impl_in; [|exact (i_rel _ _ _ _ _ _ _ I)].
  intros v x _ H. destruct v as [p n|h e|], x as [xs|xs| |]; cbn in *; try easy.
  - pose proof H as (b & _ & Hs & _). split; [exact Hs|]. intros k.
    exact (get_check_ok trivial esz off nodesz limit pz po pn pn2 pl _ _ _ k H).
  - destruct H as [H _]. pose proof H as (b & _ & Hs & _). split; [exact Hs|]. intros k.
    exact (get_check_ok trivial esz off nodesz limit pz po pn pn2 pl _ _ _ k H).
Qed.

(** ** C56: the cost of edits through a transient.
    Full statement: any n edits of one transient (push_back, update, set, take) copy
    O(size + n) elements.  Missing: set, which is refuted below. *)
Definition edit (i : nat) (o : gop T) : Prop :=
  match o with
  | GTPush j _ | GTUpdate j _ _ | GTTake j _ => j = i
  | _ => False
  end.
Lemma owned_cost s vs i os s' vs' : goes s vs os s' vs' -> Forall (edit i) os ->
  forall h e xs, inv (gm s) (gvars s) vs -> nth_error (gvars s) i = Some (Tra h e) ->
  nth_error vs i = Some (VTra xs) -> owns (gm s) h e ->
  ncopied (gm s') <= ncopied (gm s) + (2 * hsize h - hcap h) + 2 * N.of_nat (length os).
Proof.
  destruct P as [pz po pn pn2 pl]. intros G. induction G as [|s vs o os s1 r s2 vs2 V F1 F2 E G IH];
    intros FA h e xs I Hv Hx Ho; [lia|].
  inversion FA as [|? ? Hoi FA']; subst.
  destruct (step_inv s vs o I V F1 F2) as (s1' & r' & E' & Hr & I').
  rewrite E in E'. injection E' as <- <-.
  destruct s as [m l]. cbn [gm gvars] in *.
  destruct (edit_cost trivial esz off nodesz limit teq pz po pn pn2 pl
              m l vs i h e xs o s1 r I V (fits_of (mkG m l) _ F1 F2) Hoi Hv Hx E)
    as [[-> ->]|(-> & h' & Hv' & C1 & C2 & C3)].
  - cbn [gm gvars after] in *. pose proof (IH FA' h e xs I Hv Hx Ho). cbn [length]. lia.
  - assert (exists xs', nth_error (after vs o Done) i = Some (VTra xs')) as (xs' & Hx').
    { destruct o; cbn in Hoi; try easy; subst; cbn [after gspec];
        rewrite ArrayProofs.nth_update, Nat.eqb_refl, Hx; eauto. }
    pose proof (IH FA' h' e xs' I' Hv' Hx' C1). pose proof (C3 Ho). cbn [length]. lia.
Qed.
Theorem C56_amortized_partial s vs i xs os s' vs' : reach s vs ->
  nth_error vs i = Some (VTra xs) -> Forall (edit i) os -> goes s vs os s' vs' ->
  ncopied (gm s') <= ncopied (gm s) + 2 * N.of_nat (length xs) + 2 * N.of_nat (length os).
Proof.
  intros R Hx FA G. destruct (reach_inv _ _ R) as [I _]. clear R. revert xs Hx I. destruct P as [pz po pn pn2 pl].
  induction G as [|s vs o os s1 r s2 vs2 V F1 F2 E G IH]; intros xs Hx I; [lia|].
  inversion FA as [|? ? Hoi FA']; subst.
  destruct (step_inv s vs o I V F1 F2) as (s1' & r' & E' & Hr & I').
  rewrite E in E'. injection E' as <- <-.
  destruct s as [m l]. cbn [gm gvars] in *.
  destruct (tra_at _ _ _ _ _ _ _ _ _ I Hx) as (h & e & Hv & Hh & He).
  destruct (edit_cost trivial esz off nodesz limit teq pz po pn pn2 pl
              m l vs i h e xs o s1 r I V (fits_of (mkG m l) _ F1 F2) Hoi Hv Hx E)
    as [[-> ->]|(-> & h' & Hv' & C1 & C2 & C3)].
  - cbn [gm gvars after] in *. pose proof (IH FA' xs Hx I). cbn [length]. lia.
  - assert (exists xs', nth_error (after vs o Done) i = Some (VTra xs')) as (xs' & Hx').
    { destruct o; cbn in Hoi; try easy; subst; cbn [after gspec];
        rewrite ArrayProofs.nth_update, Nat.eqb_refl, Hx; eauto. }
    pose proof (owned_cost _ _ _ _ _ _ G FA' h' e xs' I' Hv' Hx' C1).
    destruct Hh as (b & _ & Hs & _). unfold lenN in Hs. cbn [length]. lia.
Qed.

(** set on a transient that does not own its node (one that was just made by
    array::transient, say) copies the whole array, every time. *)
Theorem C56_set_copies s vs i h e xs k x n : reach s vs ->
  nth_error (gvars s) i = Some (Tra h e) -> nth_error vs i = Some (VTra xs) ->
  k < N.of_nat (length xs) ->
  (forall b, nth_error (blocks (gm s)) (ptr h) = Some b -> tok b <> e) ->
  exists s' vs', goes s vs (repeat (GTSet i k x) n) s' vs' /\
    ncopied (gm s') = ncopied (gm s) + N.of_nat n * N.of_nat (length xs).
Proof.
  intros R Hv Hx Hk Hno. destruct (reach_inv _ _ R) as [I Hl]. clear R.
  assert (Hno' : ~ owns (gm s) h e).
  { unfold owns, gown, rblock, rnth. intros H.
    destruct (nth_error (blocks (gm s)) (ptr h)) as [b|]; [|discriminate].
    cbn in H. injection H as H. apply Nat.eqb_eq in H. exact (Hno b eq_refl H). }
  clear Hno. revert s vs h xs Hv Hx Hk I Hno'. destruct P as [pz po pn pn2 pl].
  induction n as [|n IH]; intros s vs h xs Hv Hx Hk I Hno.
  - exists s, vs. split; [constructor|]. lia.
  - destruct s as [m l]. cbn [gm gvars] in *.
    destruct (set_cost trivial esz off nodesz limit teq pz po pn pn2 pl teq_refl
                m l vs i h e xs k x I Hl Hv Hx Hk Hno) as (m' & h' & E & C & Hno' & I').
    set (s1 := mkG m' (update_at i (Tra h' e) l)) in *.
    set (ys := list_set xs (N.to_nat k) (fun _ => x)) in *.
    assert (Ly : length ys = length xs).
    { pose proof (set_lenN xs (N.to_nat k) (fun _ => x)) as L. unfold lenN in L. subst ys. lia. }
    destruct (IH s1 (update_at i (VTra ys) vs) h' ys) as (s' & vs' & G & C').
    { cbn [gvars s1]. now rewrite ArrayProofs.nth_update, Nat.eqb_refl, Hv. }
    { now rewrite ArrayProofs.nth_update, Nat.eqb_refl, Hx. }
    { now rewrite Ly. }
    { exact I'. }
    { exact Hno'. }
    exists s', vs'. split.
    + cbn [repeat]. apply (goes_cons _ _ _ _ s1 Done); [| | |exact E|].
      * cbn. split; [exists xs; exact Hx|]. unfold contents. rewrite Hx. exact Hk.
      * exact Logic.I.
      * cbn. tauto.
      * cbn [after gspec]. unfold contents. rewrite Hx. exact G.
    + rewrite C'. cbn [gm s1]. rewrite C, Ly. unfold lenN. lia.
Qed.
End Props.

(** ** Cases and refutations: nat elements of 4 bytes, buffer at offset 8. *)
Lemma ex_platform : ArrayProps.platform 4 8 16 1000.
Proof. constructor; reflexivity || discriminate. Qed.
Notation ex_reach b := (reach b 4 8 16 1000 Nat.eqb).
Notation ex_goes b := (goes b 4 8 16 1000 Nat.eqb).
Notation ex_step b := (gstep b 4 8 16 1000 Nat.eqb).

Ltac ex_valid := cbn [gvalid]; unfold is_arr, is_tra, is_moved; cbn [nth_error contents];
  repeat match goal with |- _ /\ _ => split end;
  first [exact Logic.I | eexists; reflexivity | left; eexists; reflexivity
        | right; eexists; reflexivity | vm_compute; reflexivity | vm_compute; discriminate
        | left; split; eexists; reflexivity
        | right; split; [left; eexists; reflexivity|eexists; reflexivity]
        | right; split; [right; reflexivity|eexists; reflexivity]].
Ltac ex_run := repeat first
  [ apply goes_nil
  | eapply goes_cons;
    [ex_valid | exact Logic.I || reflexivity | intros X; exact X | vm_compute; reflexivity
    | cbn [after gspec contents like nth_error update_at app list_set firstn skipn N.to_nat
             Pos.to_nat Pos.iter_op Nat.add] ] ].
Ltac ex_reached os := eexists; exists os; split; [vm_compute; reflexivity|]; ex_run.

(** An array and transients that share its node, are copied, moved, edited and turned into
    arrays; the state is reached and its transient can be edited. *)
Definition ex_prog : list (gop nat) :=
  [GFrom [1; 2]; GTransient 0; GTPush 1 3; GTUpdate 1 0 (fun x => x + 10); GCopy 1;
   GTSet 2 1 7; GPersistent 1; GTUpdate 1 2 (fun _ => 0); GMove 1; GAssign 1 4;
   GPersistentRv 4]%nat.
Definition ex_vals : gvals nat :=
  [VArr [1; 2]; VTra [11; 2; 0]; VTra [11; 7; 3]; VArr [11; 2; 3]; VMoved; VArr [11; 2; 0]]%nat.
Example C55_case : exists s, ex_reach false s ex_vals /\
  gvalid ex_vals (GTUpdate 1 0 S) /\ ~ shrinks_in_place false s (GTUpdate 1 0 S).
Proof.
  eexists. split; [|split].
  - unfold ex_vals. ex_reached ex_prog.
  - ex_valid.
  - exact (fun X => X).
Qed.

(** std::move(t).persistent() leaves the node and the token with [t]: writing to [t]
    afterwards changes the array. *)
Theorem C55_moved_refuted : exists (s : gstate nat) vs i a s1,
  ex_reach false s vs /\ is_moved vs i /\ nth_error vs a = Some (VArr [5%nat]) /\
  ex_step false s (GTSet i 0 9%nat) = Ok (s1, Done) /\
  ex_step false s1 (GAt a 0) = Ok (s1, At 9%nat).
Proof.
  eexists _, [VMoved; VArr [5%nat]], 0%nat, 1%nat, _. split; [|split; [|split; [|split]]].
  - ex_reached [GNewT; GTPush 0 5%nat; GPersistentRv 0].
  - reflexivity.
  - reflexivity.
  - vm_compute. reflexivity.
  - vm_compute. reflexivity.
Qed.
(** take in place destroys elements beyond the end (C32), here too. *)
Theorem C55_take_refuted : exists (s : gstate nat) vs o,
  ex_reach false s vs /\ gvalid vs o /\ sizes_fit 4 8 o /\ ex_step false s o = UB.
Proof.
  eexists _, [VTra [5%nat]], (GTTake 0 0). split; [|split; [|split]].
  - ex_reached [GNewT; GTPush 0 5%nat].
  - ex_valid.
  - exact Logic.I.
  - vm_compute. reflexivity.
Qed.

(** set is documented to be effectively O(1) (array_transient.hpp:152-153), like the other
    edits, but the bound of [C56_amortized_partial] does not hold for it. *)
Definition sets (i : nat) (o : gop nat) : Prop :=
  match o with GTSet j _ _ => j = i | _ => False end.
Theorem C56_set_refuted : exists (s : gstate nat) vs i xs os s' vs',
  ex_reach true s vs /\ nth_error vs i = Some (VTra xs) /\ Forall (sets i) os /\
  ex_goes true s vs os s' vs' /\
  ncopied (gm s) + 2 * N.of_nat (length xs) + 2 * N.of_nat (length os) < ncopied (gm s').
Proof.
  assert (exists s, ex_reach true s [VArr [1; 2; 3]; VTra [1; 2; 3]]%nat /\
    exists h e, nth_error (gvars s) 1 = Some (Tra h e) /\
      forall b, nth_error (blocks (gm s)) (ptr h) = Some b -> tok b <> e) as (s & R & h & e & Hv & Hb).
  { eexists. split; [ex_reached [GFrom [1; 2; 3]%nat; GTransient 0]|].
    do 2 eexists. split; [vm_compute; reflexivity|]. intros b E. vm_compute in E.
    injection E as <-. discriminate. }
  destruct (C56_set_copies true 4 8 16 1000 Nat.eqb ex_platform Nat.eqb_refl s _ 1 h e
              [1; 2; 3]%nat 0 9%nat 7 R Hv eq_refl eq_refl Hb) as (s' & vs' & G & C).
  exists s, [VArr [1; 2; 3]; VTra [1; 2; 3]]%nat, 1%nat, [1; 2; 3]%nat,
    (repeat (GTSet 1 0 9%nat) 7), s', vs'.
  split; [exact R|]. split; [reflexivity|]. split; [repeat constructor|]. split; [exact G|].
  rewrite C. rewrite repeat_length. cbn [length]. lia.
Qed.
Example C56_case : exists (s : gstate nat) vs os s' vs', ex_reach true s vs /\
  nth_error vs 1 = Some (VTra [1; 2; 3]%nat) /\ Forall (edit 1) os /\ length os = 4%nat /\
  ex_goes true s vs os s' vs' /\ ncopied (gm s') = ncopied (gm s) + 3.
Proof.
  eexists _, [VArr [1; 2; 3]; VTra [1; 2; 3]]%nat,
    [GTPush 1 4; GTUpdate 1 0 S; GTPush 1 5; GTPush 1 6]%nat, _, _.
  split; [|split; [|split; [|split; [|split]]]].
  - ex_reached [GFrom [1; 2; 3]%nat; GTransient 0].
  - reflexivity.
  - repeat constructor.
  - reflexivity.
  - ex_run.
  - vm_compute. reflexivity.
Qed.
Print Assumptions C55_step_partial.
Print Assumptions C55_values_partial.
Print Assumptions C55_moved_refuted.
Print Assumptions C55_take_refuted.
Print Assumptions C56_amortized_partial.
Print Assumptions C56_set_copies.
Print Assumptions C56_set_refuted.
