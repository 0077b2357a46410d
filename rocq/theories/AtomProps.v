(** Properties of boxes and atoms shared by threads (C33, C34, C35). *)
From Coq Require Import List Arith Bool Lia.
From Verif Require Import Common AtomSpec Atom AtomProofs AtomGc AtomGcProofs.
Import ListNotations.
Set Default Goal Selector "!".

Section Props.
Context {V : Type}.

(** The states of a program of [n] threads around an atom that starts with [v0]. *)
Definition reach (n : nat) (v0 : V) (s : state V) : Prop :=
  exists sched es, run (init n v0) sched = Ok (s, es).

Lemma reach_good n v0 s : reach n v0 s -> exists qs v hold, good s qs v hold.
Proof.
  intros (sched & es & E).
  destruct (run_ok sched _ _ _ _ (init_good n v0)) as
    (s' & es' & xs & qs & v & hold & E' & _ & _ & _ & _ & _ & G).
  rewrite E in E'. injection E' as <- <-. eauto.
Qed.

(** C33: whatever the threads do and however they interleave, nothing is undefined and the
    calls and returns are those of a sequential atom; what the atom holds at the end is
    what the operations, one after the other, leave in it: no update is lost. *)
Theorem C33_linearizable n (v0 : V) sched : exists s es c,
  run (init n v0) sched = Ok (s, es) /\
  heap s (cur s) = Some c /\ linearizable v0 es (val c).
Proof.
  destruct (run_ok sched _ _ _ _ (init_good n v0)) as
    (s & es & xs & qs & v & hold & E & Ho & Hf & Hl & Hc & _ & G).
  pose proof (g_cur _ _ _ _ G) as Hv. unfold vals in Hv.
  destruct (heap s (cur s)) as [c|] eqn:E0; [|discriminate]. injection Hv as Hv.
  exists s, es, c. repeat split; auto. exists xs. rewrite Hv. auto.
Qed.

(** The same for the atom used with garbage collection, without lock and counts. *)
Theorem C33_gc_linearizable n (v0 : V) sched : exists s es v,
  grun (ginit n v0) sched = Ok (s, es) /\
  gheap s (gcur s) = Some v /\ linearizable v0 es v.
Proof.
  destruct (grun_ok sched _ _ _ (ginit_good n v0)) as
    (s & es & xs & qs & v & E & Ho & Hf & Hl & Hc & G).
  exists s, es, v. split; [exact E|]. split; [exact (gg_cur _ _ _ G)|]. exists xs. auto.
Qed.

(** C34: the lock is only taken when it is free, and only its holder gives it back. *)
Theorem C34_exclusive n (v0 : V) sched : exists s es,
  run (init n v0) sched = Ok (s, es) /\ exclusive None es.
Proof.
  destruct (run_ok sched _ _ _ _ (init_good n v0)) as
    (s & es & xs & qs & v & hold & E & _ & _ & _ & _ & He & G). eauto.
Qed.
(** In other words, no two threads are between test_and_set and clear. *)
Theorem C34_one_inside n (v0 : V) s t1 t2 th1 th2 : reach n v0 s ->
  nth_error (ths s) t1 = Some th1 -> nth_error (ths s) t2 = Some th2 ->
  in_cs (at_ th1) = true -> in_cs (at_ th2) = true -> t1 = t2.
Proof.
  intros R H1 H2 I1 I2. destruct (reach_good _ _ _ R) as (qs & v & hold & G).
  destruct (hold_in _ _ _ _ _ _ G H1 I1) as [_ ->].
  destruct (hold_in _ _ _ _ _ _ G H2 I2) as [_ H]. congruence.
Qed.

(** C35: a box that somebody has is allocated, and its count is the number of references:
    the atom's, those in the threads' variables and those of operations in progress. *)
Theorem C35_alive n (v0 : V) s t th a : reach n v0 s ->
  nth_error (ths s) t = Some th -> In a (handles th) ->
  exists c, heap s a = Some c /\ 0 < rc c.
Proof.
  intros R Ht Ha. destruct (reach_good _ _ _ R) as (qs & v & hold & G).
  destruct (own_cell _ _ _ _ _ _ a G Ht) as (c & Hc & _ & H & _).
  - unfold cnt. apply occ_in in Ha. lia.
  - eauto.
Qed.
(** Boxes nobody has any more are gone once the threads are between operations: each was
    freed, and as freeing it twice is undefined, once. *)
Theorem C35_released n (v0 : V) s a : reach n v0 s ->
  (forall t th, nth_error (ths s) t = Some th -> at_ th = Idle) ->
  (forall t th, nth_error (ths s) t = Some th -> ~ In a (handles th)) -> cur s <> a ->
  heap s a = None.
Proof.
  intros R Hi Hn Hc. destruct (reach_good _ _ _ R) as (qs & v & hold & G).
  pose proof (g_heap _ _ _ _ G a) as H. destruct (heap s a) as [c|]; [exfalso|reflexivity].
  assert (Hr : refs s a = 0).
  { unfold refs. apply Nat.eqb_neq in Hc. rewrite Hc. cbn [b2n].
    destruct (total (cnt a) (ths s)) eqn:E; [reflexivity|exfalso].
    destruct (total_pos (cnt a) (ths s) ltac:(lia)) as (t & th & Ht & Hp).
    unfold cnt in Hp. rewrite (Hi _ _ Ht) in Hp. cbn [owned occ] in Hp.
    apply (Hn _ _ Ht). apply occ_in. lia. }
  destruct H as [H1 H2]. rewrite Hr in H1. rewrite H1 in H2. cbn in H2.
  destruct (total_pos (fun th => freeing a (at_ th)) (ths s)) as (t & th & Ht & Hp).
  { unfold frees in H2. lia. }
  rewrite (Hi _ _ Ht) in Hp. cbn in Hp. lia.
Qed.
(** The in-place path of update() is taken by a sole owner. *)
Theorem C35_sole_owner n (v0 : V) s t a f hs : reach n v0 s ->
  nth_error (ths s) t = Some (mkT (RvWrite a f) hs) ->
  cur s <> a /\ ~ In a hs /\
  forall t' th, t' <> t -> nth_error (ths s) t' = Some th ->
    ~ In a (handles th) /\ ~ In a (owned (at_ th)).
Proof.
  intros R Ht. destruct (reach_good _ _ _ R) as (qs & v & hold & G).
  pose proof (g_pc _ _ _ _ G _ _ Ht) as H1. cbn in H1.
  pose proof (cnt_refs s t _ a Ht) as Hle. unfold cnt in Hle. cbn [at_ handles owned occ] in Hle.
  rewrite Nat.eqb_refl in Hle. cbn [b2n] in Hle.
  split; [|split].
  - intros E. rewrite E, Nat.eqb_refl in Hle. cbn in Hle. lia.
  - intros Ha. apply occ_in in Ha. lia.
  - intros t' th Hne Ht'. pose proof (total_nth2 (cnt a) _ _ _ _ _ Hne Ht' Ht) as H.
    unfold refs in H1. unfold cnt at 2 in H. cbn [at_ handles owned occ] in H.
    rewrite Nat.eqb_refl in H. cbn [b2n] in H. unfold cnt at 1 in H.
    split; intros Ha; apply occ_in in Ha; lia.
Qed.
(** So the value of a box that a thread has never changes, whoever runs. *)
Theorem C35_value_stable n (v0 : V) s t c s' es t' th a ca : reach n v0 s ->
  step s t c = Ok (Some (s', es)) ->
  nth_error (ths s) t' = Some th -> In a (handles th) -> heap s a = Some ca ->
  exists ca', heap s' a = Some ca' /\ val ca' = val ca.
Proof.
  intros R E Ht Ha Hc. destruct (reach_good _ _ _ R) as (qs & v & hold & G).
  assert (Hv : vals s' a = vals s a).
  { destruct (step_vals _ _ _ _ _ _ _ _ G E a) as [|[H|(f & hs & H)]]; [assumption|exfalso..].
    - pose proof (cnt_refs s t' _ a Ht). apply occ_in in Ha. unfold cnt in *. lia.
    - destruct (C35_sole_owner _ _ _ _ _ _ _ R H) as (_ & H1 & H2).
      destruct (Nat.eq_dec t' t) as [->|Hne].
      + rewrite H in Ht. injection Ht as <-. auto.
      + destruct (H2 _ _ Hne Ht). auto. }
  unfold vals in Hv. rewrite Hc in Hv. cbn in Hv.
  destruct (heap s' a) as [ca'|]; [|discriminate]. injection Hv as Hv. eauto.
Qed.
End Props.
Print Assumptions C33_linearizable.
Print Assumptions C33_gc_linearizable.
Print Assumptions C34_exclusive.
Print Assumptions C34_one_inside.
Print Assumptions C35_alive.
Print Assumptions C35_released.
Print Assumptions C35_sole_owner.
Print Assumptions C35_value_stable.

(** *** Cases *)
(** Two threads increment; both read 0, the second compare fails and is retried. *)
Definition go (t k : nat) : list (nat * choice nat) :=
  map (fun i => (t, Go (100 * (t + 1) + i))) (seq 0 k).
Definition two_updates : list (nat * choice nat) :=
  [(0, CUpdate S); (1, CUpdate S)] ++ go 0 4 ++ go 1 4 ++ go 0 30 ++ go 1 60.
Example C33_case : exists s, run (init 2 5) two_updates =
  Ok (s, [Call 0 (OUpdate S); Call 1 (OUpdate S); Acquire 0; Release 0; Acquire 1; Release 1;
          Acquire 0; Release 0; Return 0 (RVal 6); Acquire 1; Release 1; Acquire 1; Release 1;
          Acquire 1; Release 1; Return 1 (RVal 7)]) /\
  option_map val (heap s (cur s)) = Some 7.
Proof. eexists. vm_compute. split; reflexivity. Qed.

(** The same race under garbage collection; thread 0's compare also fails once for no reason,
    and the box of its first attempt, which nobody has any more, is reused. *)
Definition gc_updates : list (nat * gchoice nat) :=
  [(0, GCUpdate S); (1, GCUpdate S); (0, GGo 0 false); (1, GGo 0 false);
   (0, GGo 1 false); (1, GGo 2 false); (0, GGo 0 true); (0, GGo 0 false); (0, GGo 1 false);
   (0, GGo 0 false); (1, GGo 0 false); (1, GGo 0 false); (1, GGo 3 false); (1, GGo 0 false);
   (0, GGo 0 false); (1, GGo 0 false)].
Example C33_gc_case : exists s, grun (ginit 2 5) gc_updates =
  Ok (s, [Call 0 (OUpdate S); Call 1 (OUpdate S); Return 0 (RVal 6); Return 1 (RVal 7)]) /\
  gheap s (gcur s) = Some 7.
Proof. eexists. vm_compute. split; reflexivity. Qed.

(** A thread gives a copy of its box to another one and updates its own in place only
    after the other has dropped it. *)
Definition sharing : list (nat * choice nat) :=
  [(0, CNew 5 1); (0, CCopy 0); (0, CSend 1 1); (0, CRvUpdate 0 S)] ++ go 0 5 ++
  [(1, CDrop 0)] ++ go 1 3 ++ [(0, CRvUpdate 0 S); (0, Go 0)].
Example C35_case : exists s es, run (init 2 5) sharing = Ok (s, es) /\
  map at_ (ths s) = [RvWrite 101 S; Idle] /\ heap s 1 = None /\
  option_map val (heap s 101) = Some 6.
Proof. eexists _, _. split; [vm_compute; reflexivity|]. vm_compute. auto. Qed.
