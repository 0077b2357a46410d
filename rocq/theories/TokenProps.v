(** C44: ownership tokens under garbage collection. *)
From Coq Require Import List Arith Bool Lia.
From Verif Require Import Common Token TokenSpec TokenProofs.
Import ListNotations.
Set Default Goal Selector "!".

(** The full statement, of every history: an operation changes no node that a container it
    is not meant to change can reach, and two live transients never have the same token. *)
Definition C44_statement (V : Type) : Prop := forall (os : list (top V)) o s s',
  trun tinit os = Some s -> tstep s o = Some s' ->
  (forall j r a, ~ In j (changes o) -> root_of (cont_at s j) = Some r -> reach (nodes s) r a ->
     nth_error (nodes s') a = nth_error (nodes s) a) /\
  (forall i j t ri rj, i <> j -> cont_at s i = Trans t ri -> cont_at s j = Trans t rj -> False).

(** It is false: a moved-from transient keeps its token (gc_transience_policy.hpp:72-74,
    81-85), and the transient moved into does not refresh it when it makes a snapshot. *)
Definition moved : list (top nat) :=
  [TBuild [] [INew 5 []; IRoot 0];                (* c0 = {5} *)
   TTransient 0;                                  (* c1 = c0.transient() *)
   TEdit 1 [] [IWrite 0 7 []; IRoot 1];           (* c1 changes its element (copies the node) *)
   TMove 1;                                       (* c2 = std::move(c1) *)
   TPersistent 2].                                (* c3 = c2.persistent() *)
Definition append_to_moved : top nat := TEdit 1 [APers 3] [IWrite 0 9 []; IRoot 0].
Theorem C44_refuted : exists (os : list (top nat)) o s s' j r a,
  trun tinit os = Some s /\ tstep s o = Some s' /\
  ~ In j (changes o) /\ cont_at s j = Pers (Some r) /\ reach (nodes s) r a /\
  nth_error (nodes s') a <> nth_error (nodes s) a.
Proof.
  exists moved, append_to_moved. eexists _, _, 3, 1, 1.
  split; [vm_compute; reflexivity|]. split; [vm_compute; reflexivity|].
  split; [cbn; intuition lia|]. split; [vm_compute; reflexivity|].
  split; [constructor|]. vm_compute. discriminate.
Qed.
Print Assumptions C44_refuted.
(** The same after std::move(t).persistent(): the snapshot is changed through [t]. *)
Definition snapped : list (top nat) :=
  [TBuild [] [INew 5 []; IRoot 0]; TTransient 0; TEdit 1 [] [IWrite 0 7 []; IRoot 1];
   TPersistentRv 1 false].
Theorem C44_rvalue_persistent_refuted : exists (os : list (top nat)) o s s' j r a,
  trun tinit os = Some s /\ tstep s o = Some s' /\
  ~ In j (changes o) /\ cont_at s j = Pers (Some r) /\ reach (nodes s) r a /\
  nth_error (nodes s') a <> nth_error (nodes s) a.
Proof.
  exists snapped, (TEdit 1 [APers 2] [IWrite 0 9 []; IRoot 0]). eexists _, _, 2, 1, 1.
  split; [vm_compute; reflexivity|]. split; [vm_compute; reflexivity|].
  split; [cbn; intuition lia|]. split; [vm_compute; reflexivity|].
  split; [constructor|]. vm_compute. discriminate.
Qed.
Print Assumptions C44_rvalue_persistent_refuted.
Theorem C44_shared_token_refuted : exists (os : list (top nat)) s i j t ri rj,
  trun tinit os = Some s /\ i <> j /\ cont_at s i = Trans t ri /\ cont_at s j = Trans t rj.
Proof.
  exists (firstn 4 moved). eexists _, 1, 2. do 3 eexists.
  split; [vm_compute; reflexivity|]. split; [lia|]. split; vm_compute; reflexivity.
Qed.
Print Assumptions C44_shared_token_refuted.

(** What holds: of histories that use a moved-from transient only to destroy it or to assign
    to it.  Live transients have tokens of their own, and a node with the token of a live
    transient is reached from that transient only (in particular from no snapshot). *)
Section Partial.
Context {V : Type}.
Theorem C44_tokens_partial (os : list (top V)) mv s i t r :
  all_uses [] os = Some mv -> trun tinit os = Some s -> ~ In i mv -> cont_at s i = Trans t r ->
  (forall j rj, ~ In j mv -> j <> i -> cont_at s j <> Trans t rj) /\
  (forall j rj a n, ~ In j mv -> j <> i -> root_of (cont_at s j) = Some rj ->
     reach (nodes s) rj a -> nth_error (nodes s) a = Some n -> ntok n <> t).
Proof.
  intros U E Hi Ei. pose proof (trun_ok _ _ _ _ _ tinit_inv U E) as I. split.
  - intros j rj Hj Hne Ej. exact (t_dist _ _ I _ _ _ _ _ _ Hj Hi Hne Ej Ei eq_refl).
  - intros j rj a n Hj Hne Ej R Ha. exact (t_own _ _ I _ _ _ _ _ _ _ Hi Ei Hj Hne Ej R Ha).
Qed.
(** Every operation leaves every container it is not meant to change as it was: the same
    root, and the same nodes reached from it. *)
Theorem C44_isolated_partial (os : list (top V)) o mv mv' s s' j r :
  all_uses [] os = Some mv -> uses mv o = Some mv' ->
  trun tinit os = Some s -> tstep s o = Some s' ->
  ~ In j mv -> ~ In j (changes o) -> root_of (cont_at s j) = Some r ->
  root_of (cont_at s' j) = Some r /\
  forall a, reach (nodes s) r a <-> reach (nodes s') r a /\ nth_error (nodes s') a = nth_error (nodes s) a.
Proof.
  intros U U1 E E1 Hj Hc Er. pose proof (trun_ok _ _ _ _ _ tinit_inv U E) as I.
  destruct (tstep_ok _ _ _ _ _ I U1 E1) as [_ H]. destruct (H j r Hj Hc Er) as [H1 H2].
  split; [exact H1|]. intros a. split.
  - intros R. split; [exact (reach_frame _ _ _ H2 _ R)|auto].
  - intros [R _]. exact (reach_same _ _ _ H2 _ R).
Qed.
(** Snapshots keep their value for the rest of the history. *)
Theorem C44_snapshot_partial (os1 os2 : list (top V)) mv mv' s s' j r :
  all_uses [] os1 = Some mv -> all_uses mv os2 = Some mv' ->
  trun tinit os1 = Some s -> trun s os2 = Some s' ->
  cont_at s j = Pers (Some r) -> (forall o, In o os2 -> ~ In j (changes o)) ->
  root_of (cont_at s' j) = Some r /\
  forall a, reach (nodes s) r a -> reach (nodes s') r a /\ nth_error (nodes s') a = nth_error (nodes s) a.
Proof.
  intros U U' E E' Ej Hc. pose proof (trun_ok _ _ _ _ _ tinit_inv U E) as I.
  pose proof (pers_live _ _ _ _ I Ej) as Hj. clear U E os1.
  assert (Er : root_of (cont_at s j) = Some r) by (now rewrite Ej).
  assert (Hd : cont_at s j <> Dead) by congruence. clear Ej.
  revert s mv I U' E' Hj Hd Er Hc. induction os2 as [|o os2 IH]; cbn; intros s mv I U' E' Hj Hd Er Hc.
  - injection E' as <-. auto.
  - destruct (uses mv o) as [mv1|] eqn:U1; [|discriminate].
    destruct (tstep s o) as [s1|] eqn:E1; [|discriminate].
    destruct (tstep_ok _ _ _ _ _ I U1 E1) as [I1 H].
    assert (Hco : ~ In j (changes o)) by (apply Hc; now left).
    destruct (H j r Hj Hco Er) as [H1 H2].
    assert (Hj1 : ~ In j mv1).
    { intros Hin. destruct o as [js sc|i|i|i|i k|i k|i|i keep|i args sc|i]; cbn in U1, Hco; unfold unless in U1;
        repeat match type of U1 with (if ?b then _ else _) = _ => destruct b; [discriminate|] end;
        try (injection U1 as <-); try (rewrite ?without_in in Hin); cbn [In] in Hin; rewrite ?without_in in Hin;
        try tauto.
      destruct (passes mv args) as [mv2|] eqn:Ep; [|discriminate].
      destruct (mem i mv2); [discriminate|]. injection U1 as <-.
      apply Hco. right. eapply in_rvalues; eauto. }
    assert (Hd1 : cont_at s1 j <> Dead) by (intros Hx; rewrite Hx in H1; discriminate).
    destruct (IH s1 mv1 I1 U' E' Hj1 Hd1 H1) as [H3 H4]; [intros; apply Hc; now right|].
    split; [exact H3|]. intros a R. destruct (H4 a (reach_frame _ _ _ H2 _ R)) as [R' Ha].
    split; [exact R'|]. rewrite Ha. auto.
Qed.
End Partial.
Print Assumptions C44_tokens_partial.
Print Assumptions C44_isolated_partial.
Print Assumptions C44_snapshot_partial.

(** A history in which a transient edits in place, is copied, appended to another one as an
    rvalue and makes snapshots; it uses no moved-from transient. *)
Definition clean : list (top nat) :=
  [TBuild [] [INew 5 []; IRoot 0]; TTransient 0; TTransient 0;
   TEdit 1 [] [IWrite 0 7 []; IRoot 1]; TPersistent 1; TCopy 1;
   TEdit 1 [] [IWrite 0 8 []; IRoot 1; IWrite 1 9 []];
   TEdit 2 [ARvalue 1; APers 3] [INew 0 [0; 1; 2]; IRoot 3; IWrite 1 4 []]].
Example clean_uses : all_uses [] clean = Some [1].
Proof. reflexivity. Qed.
Example clean_runs : exists s, trun tinit clean = Some s /\
  cont_at s 3 = Pers (Some 1) /\ nth_error (nodes s) 1 = Some (mkTN 1 7 []) /\
  (exists t, cont_at s 2 = Trans t (Some 3) /\
     nth_error (nodes s) 3 = Some (mkTN t 0 [0; 2; 1]) /\ nth_error (nodes s) 2 = Some (mkTN t 4 [])).
Proof.
  eexists. split; [vm_compute; reflexivity|]. split; [vm_compute; reflexivity|].
  split; [vm_compute; reflexivity|]. eexists. repeat split; vm_compute; reflexivity.
Qed.
