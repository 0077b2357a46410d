(** Properties of the heap adaptors and free lists (C37, C38). *)
From Coq Require Import List Arith NArith Bool Lia Permutation.
From Verif Require Import Common HeapSpec Heaps HeapProofs.
Import ListNotations.
Set Default Goal Selector "!".
Open Scope N_scope.

Section Props.
Variables word extra : N.
Hypothesis word_pos : 0 < word.
Hypothesis word_extra : word <= extra.
Notation op_ok := (op_ok word extra).
Notation accepts := (accepts word extra).

(** The states of programs that ask for sizes the heaps accept. *)
Definition hreach (c : client) : Prop :=
  exists m os, Forall op_ok os /\ hrun word extra (hinit m) os = Ok c.
Lemma hreach_inv c : hreach c -> cinv word extra c.
Proof.
  intros (m & os & O & E).
  destruct (hrun_ok word extra word_pos word_extra os _ (hinit_ok word extra m) O) as (c' & E' & I).
  congruence.
Qed.

(** C38: in every program over any compositions of the heaps, nothing is undefined (in
    particular debug_size_heap finds the size it wrote), and every block given back to a
    parent heap was obtained from this parent with this size at this address. *)
Theorem C38_matched m os : Forall op_ok os -> exists c,
  hrun word extra (hinit m) os = Ok c /\ matched [] (calls (mst c)) (blocks (mst c)).
Proof.
  intros O. destruct (hrun_ok word extra word_pos word_extra os _ (hinit_ok word extra m) O)
    as (c & E & G & I & L). eauto.
Qed.
(** The policies accept every size. *)
Theorem C38_policies_accept dbg size limit sz : limit < 2 ^ 64 ->
  accepts (optimized word dbg size limit) sz /\ accepts (unsafe_optimized word dbg size limit) sz.
Proof.
  intros Hl. unfold optimized, unsafe_optimized. cbn [HeapProofs.accepts].
  destruct (N.leb_spec sz size); destruct dbg; cbn [debug HeapProofs.accepts]; repeat split; lia.
Qed.

Definition region_ok (x y : heapx * N * N) : Prop :=
  apart_from (snd x) (snd (fst x)) (snd y) (snd (fst y)).
Lemma regions bs m hd G H : inv word extra bs m hd G H ->
  pairwise region_ok (H ++ listed word G).
Proof.
  intros [I1 I2 I3 _ _]. apply (pairwise_perm _ bdisj_sym _ _ I1) in I2. clear I1.
  induction (H ++ listed word G) as [|x l IH]; cbn in *; [exact I|].
  destruct I2 as [D I2]. inversion I3 as [|? ? K I4]; subst. split; [|auto].
  rewrite Forall_map in D. rewrite Forall_forall in D, I4 |- *. intros y Hy.
  specialize (D y Hy). specialize (I4 y Hy). destruct x as [[h sz] p], y as [[h' sz'] p'].
  destruct K as (K1 & K2 & _), I4 as (Y1 & Y2 & _).
  pose proof (under_spec word extra word_pos word_extra h sz p K1 K2).
  pose proof (under_spec word extra word_pos word_extra h' sz' p' Y1 Y2).
  unfold region_ok, bdisj, apart_from in *. cbn [fst snd und] in *. lia.
Qed.

(** Blocks in use do not overlap, and each lies inside a block of a parent heap. *)
Theorem C38_disjoint c : hreach c ->
  (forall i j x y, i <> j -> nth_error (used c) i = Some x -> nth_error (used c) j = Some y ->
     apart_from (snd x) (snd (fst x)) (snd y) (snd (fst y))) /\
  (forall x, In x (used c) -> exists i a n, In (i, a, n) (blocks (mst c)) /\
     0 < a /\ a <= snd x /\ snd x + snd (fst x) <= a + n).
Proof.
  intros R. destruct (hreach_inv c R) as (G & I & L). split.
  - pose proof (regions _ _ _ _ _ I) as P. clear I.
    assert (Q : pairwise region_ok (used c)).
    { revert P. generalize (listed word G). induction (used c) as [|x l IH]; cbn; [auto|].
      intros l' [P1 P2]. apply Forall_app in P1. split; [tauto|eauto]. }
    clear P. induction (used c) as [|z l IH]; intros i j x y Hne Hi Hj; [now destruct i|].
    destruct Q as [Q1 Q2]. rewrite Forall_forall in Q1.
    destruct i as [|i], j as [|j]; cbn in Hi, Hj; try congruence.
    + injection Hi as ->. apply Q1. now apply nth_error_In in Hj.
    + injection Hj as ->. apply nth_error_In in Hi. specialize (Q1 _ Hi).
      unfold region_ok, apart_from in *. lia.
    + apply (IH Q2 i j); auto.
  - intros [[h sz] p] Hx. destruct I as [I1 _ I3 _ _].
    rewrite Forall_forall in I3. destruct (I3 (h, sz, p)) as (K1 & K2 & _); [apply in_or_app; auto|].
    destruct (under_spec word extra word_pos word_extra h sz p K1 K2) as (U1 & U2 & U3).
    destruct (under word extra h sz p) as [[i a] n] eqn:E. exists i, a, n.
    split; [|cbn in *; auto]. apply Permutation_sym in I1. apply (Permutation_in _ I1).
    apply in_map_iff. exists (h, sz, p). split; [exact E|]. apply in_or_app. auto.
Qed.
(** What is stored in a block in use is changed only by writes into that block. *)
Theorem C38_contents c o c' x q : hreach c -> op_ok o -> hstep word extra c o = Ok (Some c') ->
  In x (used c) -> In x (used c') ->
  (forall i g, o = HWrite i g -> nth_error (used c) i <> Some x) ->
  snd x <= q -> q + word <= snd x + snd (fst x) -> mem (mst c') q = mem (mst c) q.
Proof.
  intros R O E Hx Hx' Hw Q1 Q2. destruct (hreach_inv c R) as (G & I & L).
  destruct c as [s us]. cbn [mst used] in *.
  assert (F : forall m' l, Forall (same_in word (mem s) m') l -> In x l -> m' q = mem s q).
  { intros m' l F Hl. rewrite Forall_forall in F. specialize (F x Hl). destruct x as [[h sz] p].
    exact (F q Q1 Q2). }
  destruct o as [h t sz a|i t|i g|h t]; cbn in E.
  - destruct (allocate_ok word extra word_pos word_extra h t a sz s G us I L O)
      as [E1|(s' & p & G' & E1 & I' & L' & S)]; rewrite E1 in E; cbn in E; [discriminate|].
    injection E as <-. cbn in *. eauto.
  - destruct (nth_error us i) as [[[h sz] p]|] eqn:Ei; [|discriminate].
    apply remove_perm in Ei. pose proof (inv_perm _ _ _ _ _ _ _ _ I Ei) as I1.
    destruct (deallocate_ok word extra word_pos word_extra h t sz p s _ _ _ I1 L)
      as (s' & hd' & G' & E1 & I2 & L2 & S & _); [auto|].
    rewrite E1 in E. cbn in E. injection E as <-. cbn in *. eauto.
  - destruct (nth_error us i) as [[[h sz] p]|] eqn:Ei; [|discriminate].
    injection E as <-. cbn in *.
    pose proof (remove_perm _ _ _ Ei) as P. pose proof (inv_perm _ _ _ _ _ _ _ _ I P) as I1.
    destruct (inv_write word extra word_pos word_extra _ _
      (fun y => if overlap y word p sz then g y else mem s y) _ _ _ _ _ _ I1) as [_ S].
    { intros y Hy. now rewrite (proj2 (overlap_false y word p sz) Hy). }
    refine (F _ _ S _). apply (Permutation_in _ P) in Hx. destruct Hx as [<-|Hx]; [|assumption].
    exfalso. exact (Hw i g eq_refl Ei).
  - destruct (clear_ok word extra word_pos word_extra h t s G us I L) as (s' & G' & E1 & I' & L' & S & _).
    rewrite E1 in E. cbn in E. injection E as <-. cbn in *. eauto.
Qed.

(** C37: the list of a free list heap, read from memory, ends, has no block twice, has no
    more blocks than the limit, and no block that overlaps one in use. *)
Fixpoint nodes (m : N -> N) (d : N) (ps : list N) : Prop :=
  match ps with [] => d = 0 | p :: ps' => d = p /\ p <> 0 /\ nodes m (m p) ps' end.
Theorem C37_list c k size limit h t : hreach c ->
  let '(d, n) := heads (mst c) (FreeList k size limit h, t) in
  exists ps, nodes (mem (mst c)) d ps /\ n = N.of_nat (length ps) /\ n <= limit /\ NoDup ps /\
    forall p x, In p ps -> In x (used c) -> apart_from p (size + word) (snd x) (snd (fst x)).
Proof.
  intros R. destruct (hreach_inv c R) as (G & I & L).
  destruct (i_heads _ _ _ _ _ _ _ I (FreeList k size limit h, t)) as (C1 & C2 & C3).
  destruct (heads (mst c) (FreeList k size limit h, t)) as [d n]. cbn [fst snd] in *.
  set (ps := gl G (FreeList k size limit h, t)) in *. exists ps.
  assert (Hin : ps <> [] -> exists l1 l2,
     listed word G = l1 ++ map (fun p => (h, size + word, p)) ps ++ l2).
  { intros Hp. apply gl_in in Hp. apply in_split in Hp. destruct Hp as (g1 & g2 & E).
    exists (listed word g1), (listed word g2). unfold listed. rewrite E, flat_map_app. reflexivity. }
  pose proof (regions _ _ _ _ _ I) as P. pose proof (i_hold _ _ _ _ _ _ _ I) as K.
  assert (Hpos : forall p, In p ps -> p <> 0).
  { intros p Hp. destruct Hin as (l1 & l2 & E); [intros E; rewrite E in Hp; easy|].
    rewrite Forall_forall in K. destruct (K (h, size + word, p)) as (_ & K2 & _); [|lia].
    rewrite E, !in_app_iff. right. right. left. apply in_map_iff. eauto. }
  split; [|split; [assumption|split; [|split]]].
  - clear - C1 Hpos. revert d C1. induction ps as [|p ps IH]; cbn in *; [auto|].
    intros d [-> H]. split; [reflexivity|]. split; [auto|]. apply IH; auto.
  - destruct ps as [|p ps0]; [cbn in C2; lia|].
    destruct (C3 ltac:(easy)) as (kd & sz & lim & b & E & Hl & _). injection E as <- <- <- <-. lia.
  - destruct ps as [|p0 ps0] eqn:Eps; [constructor|]. rewrite <- Eps in *.
    destruct (Hin ltac:(rewrite Eps; easy)) as (l1 & l2 & E). rewrite E in P.
    assert (Q : pairwise region_ok (map (fun p => (h, size + word, p)) ps)).
    { clear - P. revert P. rewrite app_assoc. generalize (used c ++ l1). intros l P.
      induction l as [|x l IH]; cbn in P; [|destruct P; auto].
      revert P. induction ps as [|p ps IH]; cbn; [auto|]. intros [P1 P2].
      apply Forall_app in P1. split; [tauto|auto]. }
    clear - Q word_pos. induction ps as [|p ps IH]; constructor; cbn in Q; destruct Q as [Q1 Q2]; auto.
    intros Hp. rewrite Forall_map, Forall_forall in Q1. specialize (Q1 _ Hp).
    unfold region_ok, apart_from in Q1. cbn in Q1. lia.
  - intros p x Hp Hx. destruct Hin as (l1 & l2 & E); [intros E; rewrite E in Hp; easy|].
    rewrite E in P. apply in_split in Hx. destruct Hx as (u1 & u2 & Eu). rewrite Eu in P.
    rewrite <- app_assoc in P. cbn in P.
    assert (Q : Forall (region_ok x) (u2 ++ l1 ++ map (fun p => (h, size + word, p)) ps ++ l2)).
    { clear - P. induction u1 as [|y u1 IH]; cbn in P; destruct P; auto. }
    rewrite Forall_forall in Q. specialize (Q (h, size + word, p)).
    unfold region_ok, apart_from in *. cbn in Q.
    destruct Q as [Q|Q]; [|auto|auto]. rewrite !in_app_iff. right. right. left.
    apply in_map_iff. eauto.
Qed.
(** clear() gives all blocks of the list, in order, back to the parent heap, once each, and
    leaves the list empty. *)
Theorem C37_clear c k size limit i t : hreach c -> k <> Global ->
  let h := FreeList k size limit (Parent i) in
  exists c' ps, hstep word extra c (HClear h t) = Ok (Some c') /\ used c' = used c /\
    nodes (mem (mst c)) (fst (heads (mst c) (key k h t))) ps /\
    calls (mst c') = calls (mst c) ++ map (fun p => PGave i p (size + word)) ps /\
    heads (mst c') (key k h t) = (0, 0).
Proof.
  intros R Hk h. destruct (hreach_inv c R) as (G & I & L).
  destruct (clear_ok word extra word_pos word_extra h t _ G _ I L) as (s' & G' & E & I' & L' & S & Z).
  destruct (Z k size limit i eq_refl Hk) as [Z1 Z2].
  exists (mkC s' (used c)), (gl G (key k h t)). cbn [hstep]. rewrite E. cbn [rbind mst used].
  do 2 (split; [reflexivity|]). split; [|split; assumption].
  destruct (i_heads _ _ _ _ _ _ _ I (key k h t)) as (C1 & C2 & C3).
  assert (Hpos : forall p, In p (gl G (key k h t)) -> p <> 0).
  { intros p Hp. pose proof (i_hold _ _ _ _ _ _ _ I) as K. rewrite Forall_forall in K.
    destruct (K (Parent i, size + word, p)) as (_ & K2 & _); [|lia].
    apply in_or_app. right. apply in_flat_map. exists (key k h t, gl G (key k h t)). split.
    - apply gl_in. intros E0. rewrite E0 in Hp. easy.
    - unfold listed1. cbn [fst snd]. rewrite key_fst. apply in_map_iff. eauto. }
  clear - C1 Hpos. revert C1. generalize (fst (heads (mst c) (key k h t))).
  induction (gl G (key k h t)) as [|p ps IH]; cbn in *; [auto|].
  intros d [-> H]. split; [reflexivity|]. split; [auto|]. apply IH; auto.
Qed.
(** Nothing is lost: when the program has given everything back, the blocks the parents have
    handed out are those in the free lists, one parent block per list entry. *)
Theorem C38_no_leak c : hreach c -> used c = [] ->
  (forall k size limit h t, heads (mst c) (FreeList k size limit h, t) = (0, 0)) ->
  blocks (mst c) = [].
Proof.
  intros R Hu Hz. destruct (hreach_inv c R) as (G & I & L). rewrite Hu in I.
  assert (E : listed word G = []).
  { unfold listed. assert (F : forall x, In x G -> listed1 word x = []).
    { intros [[h t] ps] Hx. unfold listed1. cbn. destruct h; try reflexivity.
      assert (Eg : gl G (FreeList k size limit h, t) = ps).
      { pose proof (i_keys _ _ _ _ _ _ _ I) as N. clear - Hx N.
        induction G as [|[k1 ps1] G IH]; [easy|]. cbn [gl]. cbn in N. inversion N; subst.
        destruct Hx as [E|Hx].
        - injection E as -> ->. destruct (key_eq_dec _ _); [reflexivity|congruence].
        - destruct (key_eq_dec _ k1) as [<-|]; [|auto]. exfalso. apply H1.
          apply in_map_iff. now exists (FreeList k size limit h, t, ps). }
      destruct (i_heads _ _ _ _ _ _ _ I (FreeList k size limit h, t)) as (_ & C2 & _).
      rewrite Hz, Eg in C2. cbn in C2. destruct ps; [reflexivity|cbn in C2; lia]. }
    clear - F. induction G as [|x G IH]; cbn; [reflexivity|]. rewrite F by now left.
    apply IH. intros y Hy. apply F. now right. }
  pose proof (i_perm _ _ _ _ _ _ _ I) as P. rewrite E in P. cbn in P.
  now apply Permutation_sym, Permutation_nil in P.
Qed.
End Props.
Print Assumptions C37_list.
Print Assumptions C37_clear.
Print Assumptions C38_matched.
Print Assumptions C38_policies_accept.
Print Assumptions C38_disjoint.
Print Assumptions C38_contents.
Print Assumptions C38_no_leak.

(** *** A case *)
(** Two threads, the default policy with debug sizes, lists of at most one block for objects
    up to 100 bytes.  Thread 0 frees three small blocks: one stays in its list, one in the
    global list, one goes back to the parent; thread 1 then gets the block from the global
    list; a big block bypasses the lists; thread 0 ends. *)
Definition policy := optimized 8 true 100 1.
Definition example_ops : list hop :=
  [HAlloc policy 0 40 1000; HAlloc policy 0 50 2000; HAlloc policy 0 100 3000;
   HAlloc policy 1 500 4000; HWrite 0 (fun _ => 7);
   HFree 1 0; HFree 1 0; HFree 1 0; HAlloc policy 1 60 5000;
   HClear (FreeList Local 100 1 (FreeList Global 100 1 (DebugSize (Parent 0)))) 0].
Example C38_case : Forall (op_ok 8 16) example_ops /\ exists c,
  hrun 8 16 (hinit (fun _ => 0)) example_ops = Ok c /\
  calls (mst c) = [PGot 0 1000 124; PGot 0 2000 124; PGot 0 3000 124; PGot 0 4000 516;
                   PGave 0 1000 124] /\
  used c = [(policy, 60, 2024); (policy, 500, 4016)] /\
  blocks (mst c) = [(0%nat, 4000, 516); (0%nat, 3000, 124); (0%nat, 2000, 124)] /\
  heads (mst c) (FreeList Local 100 1 (FreeList Global 100 1 (DebugSize (Parent 0))), 0%nat) = (0, 0) /\
  heads (mst c) (FreeList Global 100 1 (DebugSize (Parent 0)), 0%nat) = (3016, 1).
Proof.
  split.
  - repeat constructor; cbn; lia.
  - eexists. vm_compute. repeat split; reflexivity.
Qed.
(** Clearing a list directly above a parent heap. *)
Definition small_list := FreeList Unsafe 100 10 (Parent 3).
Definition clear_ops : list hop :=
  [HAlloc small_list 0 40 1000; HAlloc small_list 0 50 2000; HAlloc small_list 0 60 3000;
   HFree 0 0; HFree 1 0].
Example C37_case : Forall (op_ok 8 16) clear_ops /\ exists c c',
  hrun 8 16 (hinit (fun _ => 0)) clear_ops = Ok c /\
  heads (mst c) (small_list, 0%nat) = (1000, 2) /\ nodes (mem (mst c)) 1000 [1000; 3000] /\
  used c = [(small_list, 50, 2000)] /\
  hstep 8 16 c (HClear small_list 5) = Ok (Some c') /\
  blocks (mst c') = [(3%nat, 2000, 108)].
Proof.
  split.
  - repeat constructor; cbn; lia.
  - eexists _, _. split; [vm_compute; reflexivity|]. split; [vm_compute; reflexivity|].
    split; [vm_compute; repeat split; discriminate|]. split; [vm_compute; reflexivity|].
    split; vm_compute; reflexivity.
Qed.
