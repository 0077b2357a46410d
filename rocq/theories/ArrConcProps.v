(** Properties of arrays and array transients that several threads use at the same time: C57. *)
From Coq Require Import List NArith Arith Bool Lia Permutation.
Set Warnings "-notation-overridden".
From Verif Require Import Common NList Array.
From Verif Require ArrayProofs ArrayProps.
From Verif Require Import AtomProofs RcHeap RcProofs Conc ConcProofs ConcPool ConcOrder ConcOrderProofs
  ArraySpec ArrConcSpec ArrConc ArrConcProofs.
From Verif Require OrderProps.
Import ListNotations.
Local Open Scope N_scope.
Set Default Goal Selector "!".

Section Props.
Context {T : Type}.
Variable trivial : bool.
Variables esz off nodesz limit : N.
Variable teq : T -> T -> bool.
Notation slots := (list (option T)).
Notation heap := (heap slots).
Notation hvars := (list (option handle)).
Notation aspecs := (aspecs esz off limit teq).
Notation keeps_to := (keeps_to esz off limit trivial teq).
Notation c_thread := (c_thread trivial esz off nodesz limit teq c_empty).
Notation c_start := (c_start esz off nodesz).
Notation ended := (ended trivial esz off limit teq).
Notation G := [ptr c_empty].
Notation vval := (vval trivial esz off limit).
Notation tinv := (tinv trivial esz off limit).

(** The platform of ArrayProps; the heap has room for a node; equality is reflexive. *)
Definition sane : Prop :=
  ArrayProps.platform esz off nodesz limit /\ nodesz <= limit /\ forall x, teq x x = true.

(** A thread: the variables of the program before it that it takes over, and what it runs. *)
Notation task := (list nat * client T)%type.
Definition h_at (l : hvars) (i : nat) : option handle := nth i l None.
Definition v_at (vs : vals T) (i : nat) : option (list T) := nth i vs None.
Definition spawn (l : hvars) (t : task) : prog slots (hvars * list (aobs T)) :=
  c_thread (map (h_at l) (fst t)) (snd t).
(** Every one of [n] variables is given to one thread. *)
Definition handed_out (ts : list task) (n : nat) : Prop := Permutation (List.concat (map fst ts)) (seq 0 n).
Definition allowed (vs : vals T) (t : task) : Prop := keeps_to (map (v_at vs) (fst t)) (snd t).
(** The variables have these values: the size, and the elements in the node. *)
Definition have (l : hvars) (vs : vals T) (h : heap) : Prop := length l = length vs /\
  forall j xs, nth_error vs j = Some (Some xs) -> exists hd c, nth_error l j = Some (Some hd) /\
    nth_error h (ptr hd) = Some (Some c) /\ hsize hd = lenN xs /\ firstn (length xs) (c_body c) = map Some xs.
(** The count of a node is the number of variables that share it, and one more for the node
    that the static of empty() has; nodes nobody has are gone. *)
Definition counted (l : hvars) (h : heap) : Prop := forall a c, nth_error h a = Some (Some c) ->
  c_rc c = ((if Nat.eqb a 0 then 1 else 0) +
            length (filter (fun x => match x with Some hd => Nat.eqb (ptr hd) a | None => false end) l))%nat /\
  (0 < c_rc c)%nat.

Definition goal (vs : vals T) (ts : list task) (i : nat) : hvars * list (aobs T) -> list nat -> list nat -> heap -> Prop :=
  match nth_error ts i with
  | Some t => ended (map (v_at vs) (fst t)) (snd t)
  | None => fun _ _ _ _ => False
  end.

Lemma flat_occ {A} (f : A -> list nat) l l' : Permutation l l' -> forall a, occ a (flat_map f l) = occ a (flat_map f l').
Proof. intros P a. induction P; cbn; rewrite ?occ_app; lia. Qed.
Lemma map_at {A} (d : A) l : map (fun i => nth i l d) (seq 0 (length l)) = l.
Proof.
  induction l as [|x l IH]; [reflexivity|]. cbn [length seq map nth]. f_equal.
  rewrite <- seq_shift, map_map. exact IH.
Qed.
Lemma firstn_S_nth {A} (x : A) : forall l n, nth_error l n = Some x -> firstn (S n) l = firstn n l ++ [x].
Proof.
  induction l as [|y l IH]; intros [|n] H; try discriminate.
  - injection H as ->. reflexivity.
  - cbn [firstn app]. f_equal. now apply IH.
Qed.
Lemma vval_nth h l vs j : Forall2 (vval h) l vs -> vval h (h_at l j) (v_at vs j).
Proof. intros H. revert j. induction H as [|x y l s Hx _ IH]; intros [|j]; [exact I|exact I|exact Hx|exact (IH j)]. Qed.
Lemma inv_have l vs h : Forall2 (vval h) l vs -> have l vs h.
Proof.
  intros H. split; [clear -H; induction H; cbn; congruence|].
  induction H as [|x y l s Hx _ IH]; intros [|j] xs E; cbn in E; try discriminate; [|exact (IH j xs E)].
  injection E as ->. destruct x as [hd|]; [|contradiction]. destruct Hx as (c & Hc & _ & Hs & (r & Eb & _) & _).
  exists hd, c. split; [reflexivity|]. split; [exact Hc|]. split; [exact Hs|]. rewrite Eb.
  rewrite <- (map_length Some xs), firstn_app, Nat.sub_diag, firstn_all. cbn. apply app_nil_r.
Qed.
Lemma part_tinv l vs h js : tinv h l vs -> tinv h (map (h_at l) js) (map (v_at vs) js).
Proof.
  intros (H & HT & HE). split; [|split; [|exact HE]].
  - clear -H. induction js as [|j js IH]; constructor; [|exact IH]. now apply vval_nth.
  - eapply twins_sub; [|exact HT]. intros x [->|Hx]; [now left|]. right. apply in_map_iff in Hx as (j & Ej & _).
    unfold h_at in Ej. destruct (nth_in_or_default j l None) as [Hj|Hj]; [rewrite Ej in Hj; exact Hj|congruence].
Qed.

Lemma tasks_pool l vs (h : heap) (ts : list task) : sane -> st [] h (roots l ++ G) -> tinv h l vs ->
  handed_out ts (length l) -> Forall (allowed vs) ts ->
  pool_ok G (goal vs ts) (map (spawn l) ts) (map (fun t => ([], roots (map (h_at l) (fst t)))) ts) h.
Proof.
  intros ([P1 P2 P3 P4 P5] & P6 & P7) S HI Hout Hq. split.
  - now rewrite !map_length.
  - assert (Ls (map (fun t => ([], roots (map (h_at l) (fst t)))) ts) = []) as ->.
    { clear. induction ts as [|t ts IH]; [reflexivity|exact IH]. }
    eapply st_eqv; [|exact S]. intros a. rewrite !occ_app, Nat.add_comm. f_equal.
    transitivity (occ a (flat_map ptrs (map (h_at l) (List.concat (map fst ts))))).
    + transitivity (occ a (flat_map ptrs (map (h_at l) (seq 0 (length l))))).
      { unfold h_at. now rewrite map_at. }
      apply flat_occ, Permutation_map. symmetry. exact Hout.
    + clear. induction ts as [|t ts IH]; [reflexivity|]. cbn [map List.concat]. rewrite map_app, flat_map_app.
      unfold Rs. cbn [map flat_map snd]. rewrite !occ_app. f_equal. exact IH.
  - intros i p g Hp Hg h' Rl. rewrite nth_error_map in Hp, Hg. unfold goal.
    destruct (nth_error ts i) as [t|] eqn:Et; [|discriminate]. cbn in Hp, Hg.
    injection Hp as <-. injection Hg as <-. cbn [fst snd] in *.
    rewrite Forall_forall in Hq. pose proof (Hq t (nth_error_In _ _ Et)) as E.
    apply (cwp_thread trivial esz off nodesz limit teq P1 P2 P3 P4 P5 P6 P7); [|exact E].
    eapply tinv_rely; [exact Rl|]. now apply part_tinv.
Qed.

Lemma st_counted l vs h : st [] h (G ++ roots l) -> Forall2 (vval h) l vs -> holds trivial esz off limit h c_empty [] ->
  counted l h /\ exists c, nth_error h 0 = Some (Some c).
Proof.
  intros S H HE. split; [|destruct HE as (c & Hc & _); exists c; exact Hc].
  destruct S as ([G1 G2] & _). cbn [wipe] in *. set (R := G ++ roots l) in *.
  intros a c Hc. pose proof (G1 a) as Ha. rewrite Hc in Ha. destruct Ha as [Ha Hp].
  split; [|exact Hp]. rewrite Ha. unfold refs.
  assert (Hb : forall z e, nth_error h z = Some (Some e) -> In z R -> c_kids e = []).
  { intros z e He Hz. apply in_app_or in Hz as [[<-|[]]|Hz].
    - destruct HE as (c' & Hc' & Hk & _). unfold cell_at in Hc'. congruence.
    - apply in_flat_map in Hz as ([hd|] & Hx & Hz); [|contradiction]. destruct Hz as [<-|[]].
      assert (exists xs, holds trivial esz off limit h hd xs) as (xs & c' & Hc' & Hk & _).
      { clear - H Hx. induction H as [|x y l s Hy _ IH]; [contradiction|]. destruct Hx as [->|Hx]; [|now apply IH].
        destruct y as [xs|]; [exists xs; exact Hy|contradiction]. }
      unfold cell_at in Hc'. congruence. }
  assert (Hin : forall r z, In r R -> reaches h r z -> z = r).
  { intros r z Hr Hz. induction Hz as [|x d b _ IH Hd Hi]; [reflexivity|]. subst x.
    rewrite (Hb _ _ Hd Hr) in Hi. easy. }
  assert (Hz : total (okids a) h = 0%nat).
  { destruct (total (okids a) h) as [|n] eqn:En; [reflexivity|exfalso].
    destruct (total_pos (okids a) h ltac:(lia)) as (y & o & Ho & Hq).
    destruct o as [d|]; cbn in Hq; [|lia].
    destruct (good_reach h R (conj G1 G2) y d Ho) as (r & Hr & Hz).
    pose proof (Hin _ _ Hr Hz) as ->. rewrite (Hb _ _ Ho Hr) in Hq. cbn in Hq. lia. }
  rewrite Hz, Nat.add_0_r. unfold R. rewrite occ_app. f_equal.
  - destruct a; reflexivity.
  - clear. unfold roots. induction l as [|x l IH]; [reflexivity|].
    cbn. rewrite occ_app, IH. destruct x as [hd|]; cbn; try lia. destruct (Nat.eqb (ptr hd) a); cbn; lia.
Qed.

(** All threads have ended: memory is in order for what they end with. *)
Lemma tasks_end vs ts ps gs h0 h' outs : pool_ok G (goal vs ts) ps gs h' -> rely [] G h0 h' ->
  holds trivial esz off limit h0 c_empty [] -> length ps = length ts -> ps = map Done outs ->
  counted (List.concat (map fst outs)) h' /\ exists c, nth_error h' 0 = Some (Some c).
Proof.
  intros P' R0 HE Hl Eo. destruct (pool_all _ _ _ _ _ outs P' Eo) as (gs' & Hl' & S' & Hg).
  assert (Hlen : length outs = length ts) by (rewrite Eo, map_length in Hl; exact Hl).
  assert (Hall : forall n, (n <= length outs)%nat ->
    Ls (firstn n gs') = [] /\ Rs (firstn n gs') = roots (List.concat (map fst (firstn n outs))) /\
    exists s2, Forall2 (vval h') (List.concat (map fst (firstn n outs))) s2).
  { induction n as [|n IHn]; intros Hn; [split; [reflexivity|]; split; [reflexivity|]; exists []; constructor|].
    destruct IHn as (HL & HR & s2 & H2); [lia|].
    destruct (nth_error outs n) as [o|] eqn:Eon; [|apply nth_error_None in Eon; lia].
    destruct (nth_error gs' n) as [g|] eqn:Egn; [|apply nth_error_None in Egn; lia].
    destruct (nth_error ts n) as [t|] eqn:Etn; [|apply nth_error_None in Etn; lia].
    pose proof (Hg _ _ _ Eon Egn) as Hn'. unfold goal in Hn'. rewrite Etn in Hn'.
    destruct Hn' as (HL1 & HR1 & s3 & _ & H3 & _).
    rewrite (firstn_S_nth _ _ _ Eon), (firstn_S_nth _ gs' n Egn).
    unfold Ls, Rs in *. rewrite !flat_map_app, map_app, concat_app. unfold roots in *. rewrite flat_map_app.
    cbn [flat_map map List.concat]. rewrite HL, HR, HL1, HR1, !app_nil_r. split; [reflexivity|]. split; [reflexivity|].
    exists (s2 ++ s3). now apply Forall2_app. }
  destruct (Hall (length outs) (le_n _)) as (HL & HR & s2 & H2).
  rewrite <- Hl' in HL, HR at 1. rewrite !firstn_all in *.
  eapply st_counted; [rewrite HL, HR in S'; exact S'|exact H2|].
  apply (empty_rely trivial esz off limit [] h0 h'); [exact R0|exact HE].
Qed.

(** *** C57 *)
(** Any program makes arrays, then threads take over its variables and run on: each of its next
    statements may depend on what the last ones showed.  [unique] may see an old count, and
    accesses are ordered only by program order and by the counts (C53).  In every such execution
    no access is undefined, and accesses to the same node by different threads, one of which
    changes or frees it, are ordered: there is no data race, in spite of the changes that
    transients make in place.  A thread that has ended has seen what the specification says about
    its own variables alone, or std::bad_alloc where more memory was needed, and its variables
    have the values that the specification says.  When all have ended, every node that is left has
    the number of variables that share it as its count, and the node of the static of empty() one
    more.  As long as a thread has not ended there is a next step, and there are no endless
    executions. *)
Theorem C57_array_orders c : sane -> keeps_to [] c ->
  exists l xs h vs, alone (c_thread [] c) c_start = Ok ((l, xs), h) /\ aspecs [] c xs vs /\ have l vs h /\
  forall ts, handed_out ts (length l) -> Forall (allowed vs) ts ->
  (forall ps h' tr, wsteps h (map (spawn l) ts, h, []) (ps, h', tr) ->
     ~ stuck ps h' /\ ordered tr /\
     (forall i t l' ys, nth_error ts i = Some t -> nth_error ps i = Some (Done (l', ys)) ->
        exists vs', aspecs (map (v_at vs) (fst t)) (snd t) ys vs' /\ have l' vs' h') /\
     (forall outs, ps = map Done outs -> counted (List.concat (map fst outs)) h' /\ exists d, nth_error h' 0 = Some (Some d)) /\
     ((exists outs, ps = map Done outs) \/ exists e, wstep h (ps, h', tr) e)) /\
  (forall f, f 0%nat = (map (spawn l) ts, h, []) -> ~ forall n, wstep h (f n) (f (S n))).
Proof.
  intros Hs E. pose proof Hs as ([P1 P2 P3 P4 P5] & P6 & P7).
  destruct (start_ok (T := T) trivial esz off nodesz limit P1 P2 P3 P4 P5 P6) as [I0 S0].
  pose proof (cwp_thread trivial esz off nodesz limit teq P1 P2 P3 P4 P5 P6 P7 c _ _ _ I0 E) as W0.
  destruct (cwp_alone _ _ _ _ _ W0 S0) as ([l xs] & h & L & R & Ea & S & (-> & -> & vs & Hv & I)). cbn [fst snd] in *.
  exists l, xs, h, vs. split; [exact Ea|]. split; [exact Hv|]. split; [apply inv_have, I|]. intros ts Hout Hq.
  pose proof (tasks_pool _ _ _ _ Hs S I Hout Hq) as P. split.
  - intros ps h' tr W. destruct (wsteps_ok _ _ _ _ _ _ _ _ P W) as (gs' & P' & O & Rl & Hl). rewrite map_length in Hl.
    split; [eapply pool_stuck; exact P'|]. split; [exact (o_ord _ _ _ _ _ O)|]. split; [|split].
    + intros i t l' ys Et Ed. destruct (pool_end _ _ _ _ _ _ _ P' Ed) as (g & Hg).
      unfold goal in Hg. rewrite Et in Hg. destruct Hg as (_ & _ & s' & Hs' & H' & _). exists s'.
      split; [exact Hs'|]. now apply inv_have.
    + intros outs Eo. eapply tasks_end; [exact P'|exact Rl|exact (proj2 (proj2 I))|exact Hl|exact Eo].
    + eapply pool_next. exact P'.
  - intros f _. apply wstep_ends.
Qed.
(** So when all threads have destroyed all their arrays, only the node of empty() is left. *)
Theorem C57_no_leak c : sane -> keeps_to [] c ->
  exists l xs h vs, alone (c_thread [] c) c_start = Ok ((l, xs), h) /\ aspecs [] c xs vs /\
  forall ts, handed_out ts (length l) -> Forall (allowed vs) ts ->
  forall outs h' tr, wsteps h (map (spawn l) ts, h, []) (map Done outs, h', tr) ->
    (forall l' ys x, In (l', ys) outs -> In x l' -> x = None) ->
    forall a d, nth_error h' a = Some (Some d) -> a = 0%nat /\ c_rc d = 1%nat.
Proof.
  intros Hs E. destruct (C57_array_orders c Hs E) as (l & xs & h & vs & Er & Hv & _ & K). exists l, xs, h, vs.
  split; [exact Er|]. split; [exact Hv|].
  intros ts Hout Hq outs h' tr W Hn a d Ha.
  destruct (proj1 (K ts Hout Hq) _ _ _ W) as (_ & _ & _ & Hend & _). destruct (proj1 (Hend outs eq_refl) a d Ha) as [Ec Hp].
  assert (filter (fun x => match x with Some hd => Nat.eqb (ptr hd) a | None => false end) (List.concat (map fst outs)) = []) as Z.
  { assert (forall x, In x (List.concat (map fst outs)) -> x = None) as Hn'.
    { intros x Hx. apply in_concat in Hx as (l' & Hl & Hx). apply in_map_iff in Hl as ([l2 ys] & <- & Hl). eauto. }
    clear -Hn'. induction (List.concat (map fst outs)) as [|x l IH]; [reflexivity|]. cbn.
    rewrite (Hn' x (or_introl eq_refl)). apply IH. intros y Hy. apply Hn'. now right. }
  rewrite Z in Ec. cbn [length] in Ec. destruct a as [|a]; cbn in Ec; [auto|lia].
Qed.
End Props.
Print Assumptions C57_array_orders.
Print Assumptions C57_no_leak.

(** *** Case *)
(** An array of three elements and two copies of it.  One thread pushes two elements in place:
    it does not see yet that the others have let go of the node, so it copies it first, then it
    has a node of its own with room.  The others read, compare, push, shrink and destroy. *)
Fixpoint all_of (os : list (aop nat)) : client nat :=
  match os with
  | [] => Stop
  | o :: os' => Do o (fun x => match x with OThrew => Stop | _ => all_of os' end)
  end.
Definition shared_prog : client nat := all_of [AMod (FromList [1; 2; 3]%nat); AMod (Copy 0); AMod (Copy 1)].
Definition shared_tasks : list (list nat * client nat) :=
  [([1%nat], all_of [AAt 0 1; AMod (PushBack 0 7%nat); AEq 0 1; AMod (Destroy 0); AMod (Destroy 1)]);
   ([2%nat], all_of [AMod (Copy 0); AEq 0 1; AMod (Move 0); ASize 0; AMod (Destroy 0); AMod (Destroy 1); AMod (Destroy 2)]);
   ([0%nat], all_of [AMod (PushBackMut 0 10%nat); AMod (PushBackMut 0 11%nat); AMod (UpdateMut 0 1 (Nat.add 5)); AMod (Take 0 2);
                     AAt 0 4; AAt 1 1; AAt 1 2])].
Definition shared_turns : list (nat * option nat) :=
  repeat (0, None)%nat 40 ++ repeat (1, None)%nat 40 ++ repeat (2%nat, Some 0%nat) 60.
Notation ex_keeps := (keeps_to 4 8 1000 false Nat.eqb).
Notation ex_thread := (c_thread false 4 8 16 1000 Nat.eqb c_empty).
Definition after : list (option handle) * RcHeap.heap (list (option nat)) :=
  match alone (ex_thread [] shared_prog) (c_start 4 8 16) with Ok ((l, _), h) => (l, h) | UB => ([], []) end.
Definition shown (p : prog (list (option nat)) (list (option handle) * list (aobs nat))) : list (aobs nat) :=
  match p with Done (_, ys) => ys | _ => [] end.
Lemma ex_sane : sane 4 8 16 1000 Nat.eqb.
Proof. split; [apply ArrayProps.ex_platform|]. split; [lia|apply Nat.eqb_refl]. Qed.
Ltac keep :=
  lazymatch goal with
  | |- ex_keeps _ Stop => exact I
  | |- ex_keeps _ (Do _ _) => split; [vm_compute; repeat split; try (eexists; reflexivity); try discriminate; auto
                                     |intros ? ? X; inversion X; subst; clear X; cbn [spec]; try exact I]
  end.
Example C57_array_nonvacuous :
  let vs := [Some [1; 2; 3]; Some [1; 2; 3]; Some [1; 2; 3]]%nat in let l := fst after in let h := snd after in
  sane 4 8 16 1000 Nat.eqb /\ ex_keeps [] shared_prog /\
  aspecs 4 8 1000 Nat.eqb [] shared_prog [ODone; ODone; ODone] vs /\
  handed_out shared_tasks (length l) /\ Forall (allowed false 4 8 1000 Nat.eqb vs) shared_tasks /\
  exists ps h' tr, wsteps h (map (spawn false 4 8 16 1000 Nat.eqb l) shared_tasks, h, []) (ps, h', tr) /\
    map shown ps =
      [[OAt 2%nat; ODone; OEq false; ODone; ODone]; [ODone; OEq true; ODone; OSize 0; ODone; ODone; ODone];
       [ODone; ODone; ODone; ODone; OAt 11%nat; OAt 7%nat; OThrew]] /\
    OrderProps.sees_old h tr = true.
Proof.
  cbv zeta. split; [exact ex_sane|]. split; [|split; [|split; [|split]]].
  - unfold shared_prog. cbn [all_of]. repeat keep.
  - unfold shared_prog. cbn [all_of]. repeat (eapply ss_do; [apply s_mod|cbn [spec]]). apply ss_stop.
  - vm_compute. apply NoDup_Permutation.
    + repeat constructor; cbn; intuition discriminate.
    + repeat constructor; cbn; intuition discriminate.
    + cbn. intuition.
  - unfold shared_tasks. repeat (apply Forall_cons); [| | |apply Forall_nil]; unfold allowed; cbn [all_of fst snd]; repeat keep.
  - remember (OrderProps.wrun (snd after) shared_turns
      (map (spawn false 4 8 16 1000 Nat.eqb (fst after)) shared_tasks, snd after, [])) as r eqn:Er.
    assert (X : match r with Some (ps, h', tr) =>
        map shown ps =
          [[OAt 2%nat; ODone; OEq false; ODone; ODone]; [ODone; OEq true; ODone; OSize 0; ODone; ODone; ODone];
           [ODone; ODone; ODone; ODone; OAt 11%nat; OAt 7%nat; OThrew]] /\
        OrderProps.sees_old (snd after) tr = true
      | None => False end) by (rewrite Er; vm_compute; auto).
    destruct r as [[[ps h'] tr]|]; [|contradiction]. exists ps, h', tr. split; [|exact X].
    eapply OrderProps.wrun_steps; [apply ws_none|]. symmetry. exact Er.
Qed.
