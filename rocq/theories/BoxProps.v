(** Properties of boxes (C39). *)
From Coq Require Import List Arith Bool Lia.
From Verif Require Import Common AtomProofs RcHeap RcProofs BoxSpec Box BoxProofs.
Import ListNotations.
Set Default Goal Selector "!".

Section Props.
Context {V : Type}.
Variables eqb neb ltb : V -> V -> bool.
(** The comparisons of the value type, on equal arguments. *)
Definition sane : Prop :=
  (forall v, eqb v v = true) /\ (forall v, neb v v = false) /\ (forall v, ltb v v = false).

Lemma run_inv os s xs : sane -> bspecs eqb neb ltb [] os = Some (s, xs) ->
  exists l h, brun eqb neb ltb [] os [] = Ok ((l, xs), h) /\ inv l s h.
Proof.
  intros (H1 & H2 & H3) E.
  pose proof (brun_ok eqb neb ltb H1 H2 H3 os [] [] [] s xs inv_nil E) as W.
  apply wp_ok in W as ([l ys] & h & Eb & I & Ey). cbn in I, Ey. subst ys. eauto.
Qed.

(** C39: whatever a program does with boxes (short of using the value of a box that was
    moved from), nothing is undefined, and it sees what it would see if every box held a
    value of its own that only operations on that box can change. *)
Theorem C39_value_semantics os s xs : sane -> bspecs eqb neb ltb [] os = Some (s, xs) ->
  exists l h, brun eqb neb ltb [] os [] = Ok ((l, xs), h) /\
    forall i v, var s i = Has v -> exists a c,
      nth_error l i = Some (Some (Some a)) /\ nth_error h a = Some (Some c) /\ c_body c = v.
Proof.
  intros Hs E. destruct (run_inv _ _ _ Hs E) as (l & h & Er & T & H).
  exists l, h. split; [exact Er|]. intros i v Ev.
  destruct (rel_nth _ _ _ i H (bval_gone _)) as (x & Ex & _ & Hx); [now rewrite Ev|].
  rewrite Ev in Hx. apply bval_has in Hx as (a & -> & Ra).
  destruct (rep_inv _ _ _ Ra) as (c & ts & Hc & _ & Et). exists a, c.
  injection Et as E1 _. auto.
Qed.

(** The count in a box is the number of variables that share it, and it is freed when there
    are none. *)
Definition counted (l : vars) (h : heap V) : Prop := forall a c, nth_error h a = Some (Some c) ->
  c_rc c = length (filter (fun x => match x with Some (Some b) => b =? a | _ => false end) l) /\
  0 < c_rc c.
Lemma inv_counted l s h : inv l s h -> counted l h.
Proof.
  intros [T H]. destruct T as ([G1 G2] & _). cbn [wipe] in *.
  intros a c Hc. pose proof (G1 a) as Ha. rewrite Hc in Ha. destruct Ha as [Ha Hp].
  split; [|exact Hp]. rewrite Ha. unfold refs.
  assert (Hb : forall z e, nth_error h z = Some (Some e) -> In z (roots l) -> c_kids e = []).
  { intros z e He Hz. unfold roots in Hz. apply in_flat_map in Hz as (x & Hx & Hz).
    destruct x as [[b|]|]; cbn in Hz; try easy. destruct Hz as [->|[]].
    apply In_nth_error in Hx as [i Hi].
    assert (exists v, srep [] h z (RT v [])) as [v Hv].
    { clear - H Hi. revert i Hi.
      induction H as [|x y l s Hx _ IH]; intros [|i] Hi; cbn in Hi; try discriminate.
      - injection Hi as ->. destruct y as [| |v]; cbn in Hx; try easy. eauto.
      - eauto. }
    destruct (rep_inv _ _ _ Hv) as (e' & ts & He' & Hk & Et). unfold cell_at in He'. cbn in He'.
    rewrite He in He'. injection He' as <-. injection Et as _ <-. now inversion Hk. }
  assert (Hin : forall r z, In r (roots l) -> reaches h r z -> z = r).
  { intros r z Hr Hz. induction Hz as [|x d b _ IH Hd Hi]; [reflexivity|]. subst x.
    rewrite (Hb _ _ Hd Hr) in Hi. easy. }
  assert (Hz : total (okids a) h = 0).
  { destruct (total (okids a) h) as [|n] eqn:En; [reflexivity|exfalso].
    destruct (total_pos (okids a) h ltac:(lia)) as (y & o & Ho & Hq).
    destruct o as [d|]; cbn in Hq; [|lia].
    destruct (good_reach h (roots l) (conj G1 G2) y d Ho) as (r & Hr & Hz).
    pose proof (Hin _ _ Hr Hz) as ->. rewrite (Hb _ _ Ho Hr) in Hq. cbn in Hq. lia. }
  rewrite Hz, Nat.add_0_r. clear. unfold roots. induction l as [|x l IH]; [reflexivity|].
  cbn. rewrite occ_app, IH. destruct x as [[b|]|]; cbn; try lia. destruct (b =? a); cbn; lia.
Qed.
Theorem C39_counts os s xs : sane -> bspecs eqb neb ltb [] os = Some (s, xs) ->
  exists l h, brun eqb neb ltb [] os [] = Ok ((l, xs), h) /\ counted l h.
Proof.
  intros Hs E. destruct (run_inv _ _ _ Hs E) as (l & h & Er & I).
  exists l, h. split; [exact Er|]. eapply inv_counted. exact I.
Qed.

(** So a program that has destroyed all its boxes has freed all memory. *)
Theorem C39_no_leak os s xs : sane -> bspecs eqb neb ltb [] os = Some (s, xs) ->
  (forall i v, var s i <> Has v) ->
  exists l h, brun eqb neb ltb [] os [] = Ok ((l, xs), h) /\ forall c, ~ In (Some c) h.
Proof.
  intros Hs E Hn. destruct (run_inv _ _ _ Hs E) as (l & h & Er & T & H).
  exists l, h. split; [exact Er|]. intros c Hc. apply In_nth_error in Hc as [a Ha].
  assert (roots l = []) as Z.
  { assert (forall i v, nth_error s i <> Some (Has v)) as Hn'.
    { intros i v Ei. apply (Hn i v). unfold var. now apply nth_error_nth. }
    clear - H Hn'. induction H as [|x y l s Hx _ IH]; [reflexivity|]. cbn.
    assert (roots l = []) as Z by (apply IH; intros i v; apply (Hn' (S i) v)).
    unfold roots in Z. rewrite Z, app_nil_r. destruct x as [[a|]|]; [|reflexivity..].
    destruct y as [| |v]; cbn in Hx; try easy. exfalso. apply (Hn' 0 v). reflexivity. }
  rewrite Z in T. destruct T as (G & _). apply (good_nil _ G a). exists c. exact Ha.
Qed.
End Props.
Print Assumptions C39_value_semantics.
Print Assumptions C39_counts.
Print Assumptions C39_no_leak.

(** What the theorems exclude: copying a box that was moved from dereferences null. *)
Theorem C39_copy_of_moved_from :
  brun Nat.eqb (fun x y => negb (Nat.eqb x y)) Nat.ltb [] [BNew 1; BMove 0; BCopy 0] [] = UB.
Proof. reflexivity. Qed.
Print Assumptions C39_copy_of_moved_from.

(** *** Case *)
(** A box is copied, both are updated as rvalues (the first is shared, the second is not),
    then moved and assigned around. *)
Definition boxes : list (bop nat) :=
  [BNew 1; BCopy 0; BUpdateRv 0 (Nat.add 10); BUpdateRv 1 (Nat.add 20); BGet 0; BGet 1; BEq 0 1;
   BMove 1; BAssign 1 0; BMoveAssign 0 2; BGet 0; BGet 1; BGet 2; BUpdate 0 S; BLt 0 3; BNe 1 2;
   BDestroy 0; BDestroy 1; BDestroy 2].
Example C39_case :
  sane Nat.eqb (fun x y => negb (Nat.eqb x y)) Nat.ltb /\
  bspecs Nat.eqb (fun x y => negb (Nat.eqb x y)) Nat.ltb [] boxes =
    Some ([Gone; Gone; Gone; Has 22],
          [ONone; ONone; ONone; ONone; OVal 11; OVal 21; OBool false; ONone; ONone; ONone;
           OVal 21; OVal 11; OVal 11; ONone; OBool true; OBool false; ONone; ONone; ONone]) /\
  exists xs, brun Nat.eqb (fun x y => negb (Nat.eqb x y)) Nat.ltb [] boxes [] =
    Ok ([None; None; None; Some (Some 2)], xs, [None; None; Some (mkCell 1 22 [])]).
Proof.
  split; [|split; [reflexivity|eexists; reflexivity]].
  split; [exact Nat.eqb_refl|split; [|exact Nat.ltb_irrefl]].
  intros v. now rewrite Nat.eqb_refl.
Qed.
