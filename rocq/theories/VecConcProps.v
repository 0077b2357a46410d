(** Properties of vectors and flex_vectors that several threads use at the same time: C52. *)
From Coq Require Import List NArith Arith Bool Lia Permutation.
From Verif Require Import Common Rrb AtomProofs RcHeap RcProofs RcExnProofs RcMove Conc ConcProofs ConcPool
  VecHeap VecNodes VecTree VecTreeProofs VecProgSpec VecProg ProgVars VecProgProofs VecHeapProps VecConc
  ChampConcProofs ChampConcProps VecConcTree VecConcProg.
Import ListNotations.
Set Default Goal Selector "!".

Section Props.
(** Logarithms of the number of children and of elements of a node; what a moved-from element
    is, and whether moving elements may throw. *)
Variables B BL : N.
Context {T : Type}.
Variable gone : T -> T.
Variable nm : bool.
Notation heap := (heap (vbody T)).
Notation prun := (prun B BL gone nm root0 tail0).
Notation pspecs := (pspecs B BL gone).
Notation vstart := (@vstart T).
Notation G := (base root0 tail0).
Notation pinv := (vinv vptr (@prel B BL T) G bases).
Notation roots := (roots vptr).
Notation careful := (careful B BL gone nm root0 tail0).
Notation wide := (@wide T B).
Notation tinv := (@tinv B BL T root0 tail0).
Notation ended := (@ended B BL T gone root0 tail0).

(** A thread: the variables of the program before it that it takes over, and what it runs. *)
Notation task := (list nat * list (pop T))%type.
Definition spawn (l : list vvar) (t : task) : prog (vbody T) (list vvar * list (pobs T)) :=
  t_thread B BL nm root0 tail0 (map (vvar_at l) (fst t)) (snd t).
(** Every one of [n] variables is given to one thread. *)
Definition handed_out (ts : list task) (n : nat) : Prop := Permutation (List.concat (map fst ts)) (seq 0 n).
(** Nothing throws, and nothing is concatenated, cut in place, or added to a flex_vector in
    place. *)
Definition quiet (t : task) : Prop := Forall (fun o => pfates o = [] /\ calm o = true) (snd t).
(** Nothing throws. *)
Definition unthrown (t : task) : Prop := Forall (fun o => pfates o = []) (snd t).

Definition goal (s : list (sq T)) (ts : list task) (i : nat) : list vvar * list (pobs T) -> list nat -> list nat -> heap -> Prop :=
  match nth_error ts i with
  | Some t => ended (map (sq_at s) (fst t)) (snd t)
  | None => fun _ _ _ _ => False
  end.

Lemma stat_inv l s h : pinv l s h -> forall rx, statics (root0 rx) (tail0 rx) [] h G.
Proof. intros I rx. exact (inv_statics B BL root0 tail0 l s h G rx I (incl_refl _)). Qed.
Lemma tasks_pool l s (h : heap) (ts : list task) : (1 <= B)%N -> pinv l s h -> handed_out ts (length l) -> Forall quiet ts ->
  pool_ok G (goal s ts) (map (spawn l) ts) (map (fun t => ([], roots (map (vvar_at l) (fst t)))) ts) h.
Proof.
  intros HB I Hout Hq. pose proof (stat_inv _ _ _ I) as S0. destruct I as [S Hb Hr].
  split.
  - now rewrite !map_length.
  - assert (Ls (map (fun t => ([], roots (map (vvar_at l) (fst t)))) ts) = []) as ->.
    { clear. induction ts as [|t ts IH]; [reflexivity|exact IH]. }
    eapply st_eqv; [|exact S]. intros a. rewrite !occ_app. f_equal.
    transitivity (occ a (flat_map vptr (map (vvar_at l) (List.concat (map fst ts))))).
    + unfold ProgVars.roots. transitivity (occ a (flat_map vptr (map (vvar_at l) (seq 0 (length l))))).
      { unfold vvar_at. now rewrite map_at. }
      apply flat_occ, Permutation_map. symmetry. exact Hout.
    + clear. induction ts as [|t ts IH]; [reflexivity|]. cbn [map List.concat]. rewrite map_app, flat_map_app.
      unfold Rs. cbn [map flat_map snd]. rewrite !occ_app. f_equal. exact IH.
  - intros i p g Hp Hg h' Rl. rewrite nth_error_map in Hp, Hg. unfold goal.
    destruct (nth_error ts i) as [t|] eqn:Et; [|discriminate]. cbn in Hp, Hg.
    injection Hp as <-. injection Hg as <-. cbn [fst snd] in *.
    apply cwp_thread; [exact HB| |].
    + eapply tinv_rely; [exact Rl|]. split; [|exact S0]. clear -Hr.
      induction (fst t) as [|j js IH]; constructor; [|exact IH].
      apply (rel_nth HGone QGone (prel B BL h) l s j); [exact Hr|exact Logic.I].
    + rewrite Forall_forall in Hq. assert (quiet t) as Q by (apply Hq; eapply nth_error_In; exact Et).
      eapply Forall_impl; [|exact Q]. intros o [_ H]. exact H.
Qed.

(** All threads have ended: memory is in order for what they end with. *)
Lemma tasks_end l s (h : heap) ts ps gs h' outs : pinv l s h -> pool_ok G (goal s ts) ps gs h' -> rely [] G h h' ->
  length ps = length ts -> ps = map Done outs -> in_order (List.concat (map fst outs)) h'.
Proof.
  intros I P' Rl Hl Eo. destruct (pool_all _ _ _ _ _ outs P' Eo) as (gs' & Hl' & S' & Hg).
  assert (Hlen : length outs = length ts) by (rewrite Eo, map_length in Hl; exact Hl).
  assert (Hall : forall n, n <= length outs ->
    Ls (firstn n gs') = [] /\ Rs (firstn n gs') = roots (List.concat (map fst (firstn n outs))) /\
    exists s2, Forall2 (prel B BL h') (List.concat (map fst (firstn n outs))) s2).
  { induction n as [|n IHn]; intros Hn; [split; [reflexivity|]; split; [reflexivity|]; exists []; constructor|].
    destruct IHn as (HL & HR & s2 & H2); [lia|].
    destruct (nth_error outs n) as [o|] eqn:Eon; [|apply nth_error_None in Eon; lia].
    destruct (nth_error gs' n) as [g|] eqn:Egn; [|apply nth_error_None in Egn; lia].
    destruct (nth_error ts n) as [t|] eqn:Etn; [|apply nth_error_None in Etn; lia].
    pose proof (Hg _ _ _ Eon Egn) as Hn'. unfold goal in Hn'. rewrite Etn in Hn'.
    destruct Hn' as (HL1 & HR1 & s3 & _ & [H3 _]).
    rewrite (firstn_S_nth _ _ _ Eon), (firstn_S_nth _ gs' n Egn).
    unfold Ls, Rs in *. rewrite !flat_map_app, map_app, concat_app. unfold ProgVars.roots in *. rewrite flat_map_app.
    cbn [flat_map map List.concat]. rewrite HL, HR, HL1, HR1, !app_nil_r. split; [reflexivity|]. split; [reflexivity|].
    exists (s2 ++ s3). now apply Forall2_app. }
  destruct (Hall (length outs) (le_n _)) as (HL & HR & s2 & H2).
  rewrite <- Hl' in HL, HR at 1. rewrite !firstn_all in *.
  apply (inv_order B BL _ s2). split.
  * rewrite HL, HR in S'. exact S'.
  * destruct I as [_ Hb _]. revert Hb. clear -Rl. assert (Hi : incl G G) by apply incl_refl. revert Hi.
    generalize (@bases T) as bs. generalize G at 1 3 4. intros g bs Hi H. induction H as [|a b g bs Ha _ IH]; constructor.
    -- eapply rely_rep; [exact Rl|apply from_root; apply Hi; now left|exact Ha].
    -- apply IH. intros x Hx. apply Hi. now right.
  * exact H2.
Qed.

(** *** C52 *)
(** Any program makes vectors and flex_vectors; threads take over its variables and run on, one
    access to the memory at a time and in any order.  No access is undefined.  No thread
    accesses a block that another one is about to change or to free.  Every thread sees what
    the specification says about its own variables alone, whatever the others do.  When all
    have ended, memory is in order for the variables that are left: nothing leaks and nothing
    is freed too early.  And every thread does end.

    Missing: threads that add to a flex_vector in place or cut in place, for which it is false
    (below); concatenations; exceptions. *)
Theorem C52_threads_partial (os : list (pop T)) : (1 <= B)%N -> careful [] os vstart -> Forall wide os ->
  exists l xs h s, prun [] os vstart = Ok ((l, xs), h) /\ pspecs [] os xs s /\
  forall ts, handed_out ts (length l) -> Forall quiet ts ->
  (forall sched, exists ps h', interleave sched (map (spawn l) ts) h = Ok (ps, h') /\ ~ race ps /\
     (forall i t l' ys, nth_error ts i = Some t -> nth_error ps i = Some (Done (l', ys)) ->
        exists s', pspecs (map (sq_at s) (fst t)) (snd t) ys s') /\
     (forall outs, ps = map Done outs -> in_order (List.concat (map fst outs)) h')) /\
  (forall f i, i < length ts -> (forall n, exists m, n <= m /\ f m = i) ->
     exists n ps h' r, interleave (map f (seq 0 n)) (map (spawn l) ts) h = Ok (ps, h') /\
       nth_error ps i = Some (Done r)).
Proof.
  intros HB Hc Hw.
  destruct (run_start B BL gone nm os HB Hc Hw) as (l & xs & h & s & E & S & I).
  exists l, xs, h, s. split; [exact E|]. split; [exact S|]. intros ts Hout Hq.
  pose proof (tasks_pool _ _ _ _ HB I Hout Hq) as P. split.
  - intros sched. destruct (interleave_ok _ _ sched _ _ _ P) as (ps & gs & h' & Ei & Hl & P' & Rl).
    exists ps, h'. split; [exact Ei|]. split; [eapply pool_race; exact P'|]. split.
    + intros i t l' ys Et Ed. destruct (pool_end _ _ _ _ _ _ _ P' Ed) as (g & Hg).
      unfold goal in Hg. rewrite Et in Hg. destruct Hg as (_ & _ & s' & Hs' & _). now exists s'.
    + intros outs Eo. eapply tasks_end; [exact I|exact P'|exact Rl|now rewrite map_length in Hl|exact Eo].
  - intros f i Hi Hf. destruct (nth_error (map (spawn l) ts) i) as [p|] eqn:Ep.
    + destruct (pool_finish _ _ f i Hf p 0 _ _ _ P Ep) as (n & ps & h' & a & E1 & E2).
      exists n, ps, h', a. now split.
    + apply nth_error_None in Ep. rewrite map_length in Ep. lia.
Qed.
End Props.
Print Assumptions C52_threads_partial.

(** *** Concrete threads *)
(** Two elements in a leaf and four children in an inner node. *)
Section Concrete.
Local Open Scope N_scope.
Notation run := (prun 2 1 (fun x : N => x) true root0 tail0).
Notation cspawn := (@spawn 2 1 N true).
Notation task := (list nat * list (pop N))%type.
Definition vafter (os : list (pop N)) : list vvar * RcHeap.heap (vbody N) :=
  match run [] os (@vstart N) with Ok ((l, _), h) => (l, h) | UB => ([], []) end.
(** Variable [i] is built in place from 1 to [n]. *)
Definition grown (fx : bool) (n : nat) : list (pop N) :=
  [PNew fx; PApply 0 (VPush 1) []] ++ map (fun k => PMutate fx 1 (VPush (N.of_nat k)) []) (seq 2 (n - 1)).

(** A vector of ten elements, a copy of it, and a flex_vector that shares its nodes; four
    threads: one changes its copy in place and adds to it, one cuts and updates the
    flex_vector, one reads and destroys, one drops the front of a flex_vector. *)
Definition vshared_prog : list (pop N) := grown false 10 ++ [PCopy 1; PFlex 1; PCopy 3].
Definition vshared_tasks : list task :=
  [([2; 0]%nat, [PMutate false 0 (VUpdate 0 (fun v => v + 90)) []; PMutate false 0 (VUpdate 9 (fun v => v + 90)) [];
                 PMutate false 0 (VPush 11) []; PMutate false 0 (VPush 12) []; PMutate false 0 (VPush 13) []; PDestroy 1;
                 PGet 0 0; PGet 0 9; PGet 0 12; PSize 0; PDestroy 0]);
   ([3]%nat, [PApply 0 (VTake 3) []; PApply 1 (VUpdate 1 (fun v => v + 50)) []; PDestroy 0; PGet 2 1; PSize 2; PDestroy 1; PDestroy 2]);
   ([1]%nat, [PGet 0 0; PGet 0 9; PSize 0; PDestroy 0]);
   ([4]%nat, [PApply 0 (VDrop 3) []; PDestroy 0; PApply 1 (VPush 20) []; PDestroy 1; PMutate true 2 (VUpdate 7 (fun v => v + 1)) [];
              PGet 2 0; PGet 2 7; PSize 2; PDestroy 2])].
Definition vturns (n : nat) : list nat := List.concat (repeat [0; 2; 1; 0; 3; 1]%nat n).
Example C52_threads_nonvacuous :
  (1 <= 2) /\ careful 2 1 (fun x : N => x) true root0 tail0 [] vshared_prog vstart /\ Forall (wide 2) vshared_prog /\
  handed_out vshared_tasks (length (fst (vafter vshared_prog))) /\ Forall quiet vshared_tasks /\
  match interleave (vturns 200) (map (cspawn (fst (vafter vshared_prog))) vshared_tasks) (snd (vafter vshared_prog)) with
  | Ok (ps, h) =>
      map (fun p => match p with Done (_, ys) => skipn (length ys - 5) ys | _ => [SThrew] end) ps =
        [[SElem 91; SElem 100; SElem 13; SSize 13; SNone];
         [SNone; SElem 52; SSize 3; SNone; SNone];
         [SElem 1; SElem 10; SSize 10; SNone];
         [SNone; SElem 4; SElem 21; SSize 8; SNone]] /\
      length (filter (fun c => match c with Some _ => true | None => false end) h) = 4%nat
  | UB => False
  end.
Proof.
  split; [discriminate|]. split; [apply careful_b; vm_compute; reflexivity|]. split; [repeat constructor|]. split.
  - vm_compute. apply NoDup_Permutation.
    + repeat constructor; cbn; intuition discriminate.
    + repeat constructor; cbn; intuition discriminate.
    + cbn. intuition.
  - split; [repeat constructor|]. vm_compute. split; reflexivity.
Qed.

(** push_back of a flex_vector in place.  Dropping the front of a flex_vector gives it a root
    with a table of the sizes of its children.  Updating an element of it copies the root, and
    the copy shares the table.  One thread adds to the copy in place.  push_tail_mut_visitor
    (operations.hpp:679, 691, 701) makes a table for the copy and lets go of the shared one
    (node.hpp:919-943), but goes on reading sizes from the shared one through the position
    (position.hpp:1413-1424).  The other thread destroys the flex_vector that it was shared
    with in between, and the table is read after it was freed. *)
Definition push_race_prog : list (pop N) :=
  grown true 6 ++ [PApply 1 (VDrop 1) []; PDestroy 1; PApply 2 (VUpdate 0 (fun _ => 9)) []].
Definition push_race_tasks : list task :=
  [([0; 1; 3]%nat, [PMutate true 2 (VPush 7) []]); ([2]%nat, [PDestroy 0])].
Theorem C52_push_back_in_place_refuted : exists os xs l h ts sched,
  careful 2 1 (fun x : N => x) true root0 tail0 [] os vstart /\ Forall (wide 2) os /\
  run [] os (@vstart N) = Ok ((l, xs), h) /\
  handed_out ts (length l) /\ Forall unthrown ts /\
  Forall (fun t : task => Forall (fun o => match o with PMutate _ _ (VPush _) _ | PDestroy _ => True | _ => False end) (snd t)) ts /\
  interleave sched (map (cspawn l) ts) h = UB.
Proof.
  exists push_race_prog, (repeat SNone 10), (fst (vafter push_race_prog)), (snd (vafter push_race_prog)), push_race_tasks,
    (repeat 0 12 ++ repeat 1 60 ++ repeat 0 60)%nat.
  split; [apply careful_b; vm_compute; reflexivity|]. split; [repeat constructor|]. split; [vm_compute; reflexivity|]. split.
  - vm_compute. apply NoDup_Permutation.
    + repeat constructor; cbn; intuition discriminate.
    + repeat constructor; cbn; intuition discriminate.
    + cbn. intuition.
  - split; [repeat constructor|]. split; [repeat constructor|]. vm_compute. reflexivity.
Qed.

(** take in place.  Two threads have a copy of the same vector each; one cuts its own down to
    an element in place, the other one destroys its own.  slice_right_mut_visitor
    (operations.hpp:916-970) sees that the root is shared, and leaves it as it is: the first
    child gets one more reference, and the others are given up by dec_right_visitor, which
    gives up the reference to the root first and all children but the first if that was the
    last one.  When the other thread has let go of the root in the meantime, it was, and
    nobody gives up the root's reference to the first child. *)
Definition take_race_prog : list (pop N) := grown false 6 ++ [PCopy 1].
Definition take_race_tasks : list task :=
  [([0; 1]%nat, [PMutate false 1 (VTake 1) []; PDestroy 0; PDestroy 1]); ([2]%nat, [PDestroy 0])].
Theorem C52_take_in_place_refuted : exists os xs l h ts sched outs h',
  careful 2 1 (fun x : N => x) true root0 tail0 [] os vstart /\ Forall (wide 2) os /\
  run [] os (@vstart N) = Ok ((l, xs), h) /\
  handed_out ts (length l) /\ Forall unthrown ts /\
  Forall (fun t : task => Forall (fun o => match o with PMutate false _ (VTake _) _ | PDestroy _ => True | _ => False end) (snd t)) ts /\
  interleave sched (map (cspawn l) ts) h = Ok (map Done outs, h') /\
  handles (List.concat (map fst outs)) = [] /\ exists a c, (4 <= a)%nat /\ nth_error h' a = Some (Some c).
Proof.
  eexists take_race_prog, (repeat SNone 8), (fst (vafter take_race_prog)), (snd (vafter take_race_prog)), take_race_tasks,
    (repeat 0 2 ++ repeat 1 60 ++ repeat 0 60)%nat,
    [([HGone; HGone], repeat SNone 3); ([HGone], [SNone])], _.
  split; [apply careful_b; vm_compute; reflexivity|]. split; [repeat constructor|]. split; [vm_compute; reflexivity|]. split.
  - vm_compute. apply NoDup_Permutation.
    + repeat constructor; cbn; intuition discriminate.
    + repeat constructor; cbn; intuition discriminate.
    + cbn. intuition.
  - split; [repeat constructor|]. split; [repeat constructor|]. split; [vm_compute; reflexivity|]. split; [reflexivity|].
    exists 4%nat. eexists. split; [constructor|cbn; reflexivity].
Qed.

(** drop in place.  The table of sizes is shared as for push_back in place.  One thread drops
    the front of the copy in place: slice_left_mut_visitor (operations.hpp:1268-1281) makes a
    table for the copy and lets go of the shared one (node.hpp:866-890), but goes on reading
    sizes from the shared one through the position.  The other thread destroys the flex_vector
    that it was shared with in between. *)
Definition drop_race_prog : list (pop N) :=
  grown true 6 ++ [PApply 1 (VDrop 1) []; PDestroy 1; PApply 2 (VUpdate 0 (fun _ => 9)) []].
Definition drop_race_tasks : list task :=
  [([0; 1; 3]%nat, [PMutate true 2 (VDrop 1) []]); ([2]%nat, [PDestroy 0])].
Theorem C52_drop_in_place_refuted : exists os xs l h ts sched,
  careful 2 1 (fun x : N => x) true root0 tail0 [] os vstart /\ Forall (wide 2) os /\
  run [] os (@vstart N) = Ok ((l, xs), h) /\
  handed_out ts (length l) /\ Forall unthrown ts /\
  Forall (fun t : task => Forall (fun o => match o with PMutate _ _ (VDrop _) _ | PDestroy _ => True | _ => False end) (snd t)) ts /\
  interleave sched (map (cspawn l) ts) h = UB.
Proof.
  exists drop_race_prog, (repeat SNone 10), (fst (vafter drop_race_prog)), (snd (vafter drop_race_prog)), drop_race_tasks,
    (repeat 0 18 ++ repeat 1 60 ++ repeat 0 60)%nat.
  split; [apply careful_b; vm_compute; reflexivity|]. split; [repeat constructor|]. split; [vm_compute; reflexivity|]. split.
  - vm_compute. apply NoDup_Permutation.
    + repeat constructor; cbn; intuition discriminate.
    + repeat constructor; cbn; intuition discriminate.
    + cbn. intuition.
  - split; [repeat constructor|]. split; [repeat constructor|]. vm_compute. reflexivity.
Qed.
End Concrete.
Print Assumptions C52_push_back_in_place_refuted.
Print Assumptions C52_take_in_place_refuted.
Print Assumptions C52_drop_in_place_refuted.
