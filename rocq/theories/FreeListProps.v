(** Properties of the thread-safe free list (C36). *)
From Coq Require Import List Arith Bool NArith Lia.
From Verif Require Import Common FreeListSpec FreeList FreeListProofs.
Import ListNotations.
Set Default Goal Selector "!".

(** C36, the full statement: forall limit n sched, exists s es,
      frun limit (finit n) sched = Ok (s, es) /\ once [] es.
    It is false.  First witness (ABA): thread 0 has read the first block, 1, and its successor,
    2.  Thread 1 takes both and gives back block 1.  Now thread 0's compare-exchange
    succeeds, block 2, still used by thread 1, becomes the head, and is handed out again. *)
Definition go (t : nat) (k : nat) : list (nat * fchoice) := repeat (t, FGo 0 false) k.
Definition aba : list (nat * fchoice) :=
  [(1, FAllocate); (1, FGo 0 false); (1, FGo 1 false);
   (1, FAllocate); (1, FGo 0 false); (1, FGo 2 false)] ++
  [(1, FDeallocate 1)] ++ go 1 4 ++ [(1, FDeallocate 0)] ++ go 1 4 ++
  [(0, FAllocate)] ++ go 0 2 ++
  [(1, FAllocate)] ++ go 1 4 ++ [(1, FAllocate)] ++ go 1 4 ++ [(1, FDeallocate 0)] ++ go 1 4 ++
  go 0 2 ++ [(0, FAllocate)] ++ go 0 4.
Theorem C36_refuted : exists limit n sched s es,
  frun limit (finit n) sched = Ok (s, es) /\ ~ once [] es.
Proof.
  exists 1024%N, 2, aba. eexists _, _. split; [vm_compute; reflexivity|].
  cbn. intuition.
Qed.
Print Assumptions C36_refuted.

(** Second witness: thread 0 has read the first block; before it reads the block's successor,
    thread 1 takes the block, thread 2 fills the list up to the limit, and thread 1 returns
    the block to the parent heap.  Thread 0 then reads memory that is not there any more. *)
Definition uaf : list (nat * fchoice) :=
  [(1, FAllocate); (1, FGo 0 false); (1, FGo 1 false);
   (2, FAllocate); (2, FGo 0 false); (2, FGo 2 false)] ++
  [(1, FDeallocate 0)] ++ go 1 4 ++ [(0, FAllocate)] ++ go 0 1 ++
  [(1, FAllocate)] ++ go 1 4 ++ [(2, FDeallocate 0)] ++ go 2 4 ++
  [(1, FDeallocate 0)] ++ go 1 2 ++ go 0 1.
Theorem C36_use_after_free_refuted : exists limit n sched, frun limit (finit n) sched = UB.
Proof. exists 1%N, 3, uaf. vm_compute. reflexivity. Qed.
Print Assumptions C36_use_after_free_refuted.

(** What holds: if no two threads are inside allocate at the same time, then, whatever
    deallocations and writes to blocks go on meanwhile, no block that has been returned to
    the parent heap is touched and no block in use is handed out. *)
Theorem C36_one_allocator_partial limit n sched : apart limit (finit n) sched ->
  exists s es, frun limit (finit n) sched = Ok (s, es) /\ once [] es.
Proof.
  intros A. destruct (frun_ok limit sched _ _ _ (finit_good n) (finit_calm n) A)
    as (s & es & l & u & E & Ho & _). eauto.
Qed.
Print Assumptions C36_one_allocator_partial.

(** In that case also no block is lost: each block the parent heap has given is in the list,
    with a thread, or in the hands of an operation in progress, and only once. *)
Theorem C36_accounted_partial limit n sched : apart limit (finit n) sched ->
  exists s es l, frun limit (finit n) sched = Ok (s, es) /\
    fchain (fmem s) (fhead s) l /\ NoDup l /\
    forall a, fmem s a <> None <->
      In a l \/ exists t th, nth_error (fths s) t = Some th /\
        (In a (fhas th) \/ In a (fowned (fat th))).
Proof.
  intros A. destruct (frun_ok limit sched _ _ _ (finit_good n) (finit_calm n) A)
    as (s & es & l & u & E & Ho & G). exists s, es, l. split; [exact E|].
  split; [exact (fg_chain _ _ _ G)|]. split.
  - assert (H : forall a, AtomProofs.occ a l <= 1).
    { intros a. pose proof (fg_cnt _ _ _ G a). unfold live in *. destruct (fmem s a); lia. }
    clear - H. induction l as [|x l IH]; constructor.
    + intros Hx. apply AtomProofs.occ_in in Hx. specialize (H x). cbn in H.
      rewrite Nat.eqb_refl in H. cbn in H. lia.
    + apply IH. intros a. specialize (H a). cbn in H. lia.
  - intros a. pose proof (fg_cnt _ _ _ G a) as H. unfold live in H. split.
    + intros Hm. destruct (fmem s a); [|easy].
      destruct (AtomProofs.occ a l) eqn:El.
      * right. destruct (AtomProofs.total_pos (fcnt a) (fths s) ltac:(lia)) as (t & th & Ht & Hp).
        exists t, th. split; [assumption|]. unfold fcnt in Hp. rewrite <- !AtomProofs.occ_in. lia.
      * left. apply AtomProofs.occ_in. lia.
    + intros Hx Hm. rewrite Hm in H. destruct Hx as [Hx|(t & th & Ht & Hx)].
      * apply AtomProofs.occ_in in Hx. lia.
      * pose proof (AtomProofs.total_nth (fcnt a) _ _ _ Ht). unfold fcnt in H0 at 1.
        rewrite <- !AtomProofs.occ_in in Hx. lia.
Qed.
Print Assumptions C36_accounted_partial.

(** A case: thread 0 is inside allocate, with a compare-exchange to come, while threads 1 and
    2 push blocks; its compare-exchange fails and it gets another block. *)
Definition busy : list (nat * fchoice) :=
  [(1, FAllocate); (1, FGo 0 false); (1, FGo 1 false);
   (2, FAllocate); (2, FGo 0 false); (2, FGo 2 false)] ++
  [(1, FDeallocate 0)] ++ go 1 4 ++ [(0, FAllocate)] ++ go 0 2 ++
  [(2, FDeallocate 0)] ++ go 2 4 ++ go 0 5.
Example C36_case : apart 1024 (finit 3) busy /\ exists s,
  frun 1024 (finit 3) busy = Ok (s, [Got 1 1; Got 2 2; Gave 1 1; Gave 2 2; Got 0 2]).
Proof.
  split.
  - apply apartb_ok. vm_compute. reflexivity.
  - eexists. vm_compute. reflexivity.
Qed.
