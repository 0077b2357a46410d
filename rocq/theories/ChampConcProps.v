(** Properties of maps, sets and tables that several threads use at the same time: C51. *)
From Coq Require Import List NArith Arith Bool Lia Permutation.
From Verif Require Import Common Champ ChampSpec ChampProps AtomProofs RcHeap RcProofs Conc ConcProofs ConcPool
  ChampHeap ChampHeapProofs ChampProgSpec ChampProg ProgVars ChampProgProofs ChampHeapProps ChampConc
  ChampConcProofs ChampConcProg.
Import ListNotations.
Set Default Goal Selector "!".

Section Props.
Variable B : N.
Context {T K V : Type}.
Variable key : T -> K.
Variable khash : K -> N.
Variable keq : K -> K -> bool.
Variable project : T -> V.
Variable combine : K -> V -> T.
Variable ct : bool.
Variable gone : T -> T.
Notation heap := (heap (cbody T)).
Notation mrun := (mrun B key khash keq project combine ct gone 0).
Notation mspecs := (mspecs key keq project combine).
Notation setup := (setup B key khash keq combine).
Notation start := (@start T).
Notation minv := (vinv vptr (vrel B key khash keq) [0] [enc empty_node]).
Notation roots := (roots vptr).
Notation tinv := (tinv B key khash keq 0).
Notation ended := (ended B key khash keq project combine 0).

(** A thread: the variables of the program before it that it takes over, and what it runs. *)
Notation task := (list nat * list (mop T K V))%type.
Definition spawn (l : list mvar) (t : task) : prog (cbody T) (list mvar * list (mobs T)) :=
  c_thread B key khash keq project combine gone 0 (map (mvar_at l) (fst t)) (snd t).
(** Every one of [n] variables is given to one thread. *)
Definition handed_out (ts : list task) (n : nat) : Prop := Permutation (concat (map fst ts)) (seq 0 n).
(** Nothing throws, and nothing is removed in place. *)
Definition quiet (t : task) : Prop := Forall (fun o => mfates o = [] /\ erases_in_place o = false) (snd t).

Definition goal (s : list (avar T K)) (ts : list task) (i : nat) : list mvar * list (mobs T) -> list nat -> list nat -> heap -> Prop :=
  match nth_error ts i with
  | Some t => ended (map (avar_at s) (fst t)) (snd t)
  | None => fun _ _ _ _ => False
  end.

Lemma flat_occ {A} (f : A -> list nat) l l' : Permutation l l' -> forall a, occ a (flat_map f l) = occ a (flat_map f l').
Proof. intros P a. induction P; cbn; rewrite ?occ_app; lia. Qed.
Lemma map_at {A} (d : A) l : map (fun i => nth i l d) (seq 0 (length l)) = l.
Proof.
  induction l as [|x l IH]; [reflexivity|]. cbn [length seq map nth]. f_equal.
  rewrite <- seq_shift, map_map. exact IH.
Qed.
Lemma firstn_S_nth {A} (x : A) : forall l n, nth_error l n = Some x -> firstn (S n) l = firstn n l ++ [x].
Proof.
  induction l as [|y l IH]; intros [|n] H; try discriminate.
  - injection H as ->. reflexivity.
  - cbn [firstn app]. f_equal. now apply IH.
Qed.
Lemma tasks_pool l s (h : heap) (ts : list task) : setup -> minv l s h -> handed_out ts (length l) -> Forall quiet ts ->
  pool_ok [0] (goal s ts) (map (spawn l) ts)
    (map (fun t => ([], roots (map (mvar_at l) (fst t)))) ts) h.
Proof.
  intros (HB & Hk & Hc) I Hout Hq. destruct I as [S Hb Hr].
  assert (E0 : rep h 0 (enc (@empty_node T))) by (inversion Hb; assumption).
  split.
  - now rewrite !map_length.
  - assert (Ls (map (fun t => ([], roots (map (mvar_at l) (fst t)))) ts) = []) as ->.
    { clear. induction ts as [|t ts IH]; [reflexivity|exact IH]. }
    eapply st_eqv; [|exact S]. intros a. rewrite !occ_app. f_equal.
    transitivity (occ a (flat_map vptr (map (mvar_at l) (concat (map fst ts))))).
    + unfold ProgVars.roots. transitivity (occ a (flat_map vptr (map (mvar_at l) (seq 0 (length l))))).
      { unfold mvar_at. now rewrite map_at. }
      apply flat_occ, Permutation_map. symmetry. exact Hout.
    + clear. induction ts as [|t ts IH]; [reflexivity|]. cbn [map concat]. rewrite map_app, flat_map_app.
      unfold Rs. cbn [map flat_map snd]. rewrite !occ_app. f_equal. exact IH.
  - intros i p g Hp Hg h' Rl. rewrite nth_error_map in Hp, Hg. unfold goal.
    destruct (nth_error ts i) as [t|] eqn:Et; [|discriminate]. cbn in Hp, Hg.
    injection Hp as <-. injection Hg as <-. cbn [fst snd] in *.
    apply cwp_thread; [exact HB|exact Hk|exact Hc| |].
    + eapply tinv_rely; [exact Rl|]. split; [|exact E0]. clear -Hr.
      induction (fst t) as [|j js IH]; constructor; [|exact IH].
      apply (rel_nth VGone AGone (vrel B key khash keq h) l s j); [exact Hr|exact Logic.I].
    + rewrite Forall_forall in Hq. apply Hq. eapply nth_error_In. exact Et.
Qed.

(** All threads have ended: memory is in order for what they end with. *)
Lemma tasks_end l s (h : heap) ts ps gs h' outs : minv l s h -> pool_ok [0] (goal s ts) ps gs h' -> rely [] [0] h h' ->
  length ps = length ts -> ps = map Done outs -> in_order (concat (map fst outs)) h'.
Proof.
  intros I P' Rl Hl Eo. destruct (pool_all _ _ _ _ _ outs P' Eo) as (gs' & Hl' & S' & Hg).
  assert (Hlen : length outs = length ts) by (rewrite Eo, map_length in Hl; exact Hl).
  assert (Hall : forall n, n <= length outs ->
    Ls (firstn n gs') = [] /\ Rs (firstn n gs') = roots (concat (map fst (firstn n outs))) /\
    exists s2, Forall2 (vrel B key khash keq h') (concat (map fst (firstn n outs))) s2).
  { induction n as [|n IHn]; intros Hn; [split; [reflexivity|]; split; [reflexivity|]; exists []; constructor|].
    destruct IHn as (HL & HR & s2 & H2); [lia|].
    destruct (nth_error outs n) as [o|] eqn:Eon; [|apply nth_error_None in Eon; lia].
    destruct (nth_error gs' n) as [g|] eqn:Egn; [|apply nth_error_None in Egn; lia].
    destruct (nth_error ts n) as [t|] eqn:Etn; [|apply nth_error_None in Etn; lia].
    pose proof (Hg _ _ _ Eon Egn) as Hn'. unfold goal in Hn'. rewrite Etn in Hn'.
    destruct Hn' as (HL1 & HR1 & s3 & _ & [H3 _]).
    rewrite (firstn_S_nth _ _ _ Eon), (firstn_S_nth _ gs' n Egn).
    unfold Ls, Rs in *. rewrite !flat_map_app, map_app, concat_app. unfold ProgVars.roots in *. rewrite flat_map_app.
    cbn [flat_map map concat]. rewrite HL, HR, HL1, HR1, !app_nil_r. split; [reflexivity|]. split; [reflexivity|].
    exists (s2 ++ s3). now apply Forall2_app. }
  destruct (Hall (length outs) (le_n _)) as (HL & HR & s2 & H2).
  rewrite <- Hl' in HL, HR at 1. rewrite !firstn_all in *.
  apply (inv_order B key khash keq _ s2). split.
  * rewrite HL, HR in S'. exact S'.
  * constructor; [|constructor]. destruct I as [_ Hb _]. inversion Hb as [|? ? ? ? E0 _]; subst.
    eapply rely_rep; [exact Rl|apply from_root; now left|exact E0].
  * exact H2.
Qed.

(** *** C51 *)
(** Any program makes maps; threads take over its variables and run on, one access to the
    memory at a time and in any order.  No access is undefined.  No thread accesses a block
    that another one is about to change or to free.  Every thread sees what the specification
    says about its own variables alone, whatever the others do.  When all have ended, memory
    is in order for the variables that are left: nothing leaks and nothing is freed too early.
    And every thread does end.

    Missing: threads that remove in place, for which it is false (below), and exceptions. *)
Theorem C51_threads_partial (os : list (mop T K V)) : setup -> no_throw os ->
  exists l xs h s, mrun [] os start = Ok ((l, xs), h) /\ mspecs [] os xs s /\
  forall ts, handed_out ts (length l) -> Forall quiet ts ->
  (forall sched, exists ps h', interleave sched (map (spawn l) ts) h = Ok (ps, h') /\ ~ race ps /\
     (forall i t l' ys, nth_error ts i = Some t -> nth_error ps i = Some (Done (l', ys)) ->
        exists s', mspecs (map (avar_at s) (fst t)) (snd t) ys s') /\
     (forall outs, ps = map Done outs -> in_order (concat (map fst outs)) h')) /\
  (forall f i, i < length ts -> (forall n, exists m, n <= m /\ f m = i) ->
     exists n ps h' r, interleave (map f (seq 0 n)) (map (spawn l) ts) h = Ok (ps, h') /\
       nth_error ps i = Some (Done r)).
Proof.
  intros Hs Ho.
  destruct (run_start B key khash keq project combine ct gone os Hs (ok_no_throw khash keq ct _ Ho))
    as (l & xs & h & s & E & S & I).
  exists l, xs, h, s. split; [exact E|]. split; [exact S|]. intros ts Hout Hq.
  pose proof (tasks_pool _ _ _ _ Hs I Hout Hq) as P. split.
  - intros sched. destruct (interleave_ok _ _ sched _ _ _ P) as (ps & gs & h' & Ei & Hl & P' & Rl).
    exists ps, h'. split; [exact Ei|]. split; [eapply pool_race; exact P'|]. split.
    + intros i t l' ys Et Ed. destruct (pool_end _ _ _ _ _ _ _ P' Ed) as (g & Hg).
      unfold goal in Hg. rewrite Et in Hg. destruct Hg as (_ & _ & s' & Hs' & _). now exists s'.
    + intros outs Eo. eapply tasks_end; [exact I|exact P'|exact Rl|now rewrite map_length in Hl|exact Eo].
  - intros f i Hi Hf. destruct (nth_error (map (spawn l) ts) i) as [p|] eqn:Ep.
    + destruct (pool_finish _ _ f i Hf p 0 _ _ _ P Ep) as (n & ps & h' & a & E1 & E2).
      exists n, ps, h', a. now split.
    + apply nth_error_None in Ep. rewrite map_length in Ep. lia.
Qed.
End Props.
Print Assumptions C51_threads_partial.

(** *** Concrete threads *)
Section Concrete.
Local Open Scope N_scope.
Notation prun := (mrun 5 (@fst N N) hid N.eqb (@snd N N) (@pair N N) true (fun x => x) 0).
Notation cspawn := (spawn 5 (@fst N N) hid N.eqb (@snd N N) (@pair N N) (fun x => x)).
Notation task := (list nat * list (mop (N * N) N N))%type.
Definition after (os : list (mop (N * N) N N)) : list mvar * RcHeap.heap (cbody (N * N)) :=
  match prun [] os (start (T := N * N)) with Ok ((l, _), h) => (l, h) | UB => ([], []) end.
(** Three copies of a map whose keys 1 and 33 share a child of the root, and three threads:
    one changes its copy in place, one makes new maps from its copy, one reads and destroys. *)
Definition shared_prog : list (mop (N * N) N N) :=
  [MNew; MApply 0 (OpInsert (1, 10)) []; MApply 1 (OpInsert (33, 20)) []; MCopy 2; MCopy 3].
Definition shared_tasks : list task :=
  [([2; 0]%nat, [MMutate 0 (OpUpdate 1 (fun v => v + 5) 0) []; MMutate 0 (OpInsert (65, 7)) []; MMutate 0 (OpInsert (1, 3)) [];
                 MGet 0 1 []; MSize 0; MDestroy 0; MDestroy 1]);
   ([3; 1]%nat, [MApply 0 (OpErase 33) []; MGet 2 1 []; MGet 2 33 []; MSize 2; MDestroy 0; MDestroy 2; MDestroy 1]);
   ([4]%nat, [MGet 0 33 []; MGet 0 1 []; MSize 0; MDestroy 0])].
Definition turns (n : nat) : list nat := concat (repeat [0; 2; 1; 0; 1]%nat n).
Example C51_threads_nonvacuous :
  setup 5 (@fst N N) hid N.eqb (@pair N N) /\ no_throw shared_prog /\
  handed_out shared_tasks (length (fst (after shared_prog))) /\ Forall quiet shared_tasks /\
  match interleave (turns 60) (map (cspawn (fst (after shared_prog))) shared_tasks) (snd (after shared_prog)) with
  | Ok (ps, h) =>
      map (fun p => match p with Done (_, ys) => skipn (length ys - 7) ys | _ => [OThrew] end) ps =
        [[ONone; ONone; ONone; OFound (Some (1, 3)); OSize 3; ONone; ONone];
         [ONone; OFound (Some (1, 10)); OFound None; OSize 1; ONone; ONone; ONone];
         [OFound (Some (33, 20)); OFound (Some (1, 10)); OSize 2; ONone]] /\
      length (filter (fun c => match c with Some _ => true | None => false end) h) = 1%nat
  | UB => False
  end.
Proof.
  split; [exact setup_hid|]. split; [repeat constructor|]. split.
  - vm_compute. apply NoDup_Permutation.
    + repeat constructor; cbn; intuition discriminate.
    + repeat constructor; cbn; intuition discriminate.
    + cbn. intuition.
  - split; [repeat constructor|]. vm_compute. split; reflexivity.
Qed.

(** Removal in place.  Keys 0 and 1024 share two levels.  The map [m2] is copied, and adding
    and removing 32 in the copy gives it inner nodes of its own above the node with 0 and 1024,
    which it still shares with [m2].  One thread removes 0 from the copy in place, the other one
    destroys [m2].  do_sub_mut (champ.hpp:1386-1393) returns a pointer to the element 1024 in
    the shared node after it let go of that node; when [m2] has let go of it too, nothing keeps
    it, and the caller copies the element from freed memory. *)
Definition erase_race_prog : list (mop (N * N) N N) :=
  [MNew; MApply 0 (OpInsert (0, 1)) []; MApply 1 (OpInsert (1024, 2)) []; MCopy 2;
   MMutate 3 (OpInsert (32, 3)) []; MMutate 3 (OpErase 32) []].
Definition erase_race_tasks : list task :=
  [([0; 1; 3]%nat, [MMutate 2 (OpErase 0) []]); ([2]%nat, [MDestroy 0])].
Theorem C51_erase_in_place_refuted : exists os xs l h ts sched,
  setup 5 (@fst N N) hid N.eqb (@pair N N) /\ no_throw os /\
  prun [] os (start (T := N * N)) = Ok ((l, xs), h) /\
  handed_out ts (length l) /\ Forall (fun t : task => no_throw (snd t)) ts /\
  interleave sched (map (cspawn l) ts) h = UB.
Proof.
  exists erase_race_prog, (repeat ONone 6), (fst (after erase_race_prog)), (snd (after erase_race_prog)), erase_race_tasks,
    (repeat 0 6 ++ repeat 1 60 ++ repeat 0 60)%nat.
  split; [exact setup_hid|]. split; [repeat constructor|]. split; [vm_compute; reflexivity|]. split.
  - vm_compute. apply NoDup_Permutation.
    + repeat constructor; cbn; intuition discriminate.
    + repeat constructor; cbn; intuition discriminate.
    + cbn. intuition.
  - split; [repeat constructor|]. vm_compute. reflexivity.
Qed.
End Concrete.
Print Assumptions C51_erase_in_place_refuted.
