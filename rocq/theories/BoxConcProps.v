(** Properties of boxes that several threads use at the same time: C54. *)
From Coq Require Import List Arith Bool Lia Permutation.
From Verif Require Import Common AtomProofs RcHeap RcProofs Conc ConcProofs ConcPool ConcOrder ConcOrderProofs
  BoxSpec Box BoxProofs BoxProps BoxConc BoxConcProofs.
From Verif Require OrderProps.
Import ListNotations.
Set Default Goal Selector "!".

Section Props.
Context {V : Type}.
Variables eqb neb ltb : V -> V -> bool.
Notation heap := (heap V).
Notation bspecs := (bspecs eqb neb ltb).
Notation brun := (brun eqb neb ltb).
Notation sane := (sane eqb neb ltb).
Notation ended := (ended eqb neb ltb).

(** A thread: the variables of the program before it that it takes over, and what it runs. *)
Notation task := (list nat * list (bop V))%type.
Definition bx_at (l : vars) (i : nat) : bx := nth i l None.
Definition spawn (l : vars) (t : task) : prog V (vars * list (bobs V)) :=
  t_thread eqb neb ltb (map (bx_at l) (fst t)) (snd t).
(** Every one of [n] variables is given to one thread. *)
Definition handed_out (ts : list task) (n : nat) : Prop := Permutation (List.concat (map fst ts)) (seq 0 n).
(** The thread does not use the value of a box that was moved from, nor a variable that is gone. *)
Definition allowed (s : list (bvar V)) (t : task) : Prop :=
  exists s' ys, bspecs (map (var s) (fst t)) (snd t) = Some (s', ys).
(** The variables have these values. *)
Definition have (l : vars) (s : list (bvar V)) (h : heap) : Prop := forall j v, var s j = Has v ->
  exists a c, nth_error l j = Some (Some (Some a)) /\ nth_error h a = Some (Some c) /\ c_body c = v.

Definition goal (s : list (bvar V)) (ts : list task) (i : nat) : vars * list (bobs V) -> list nat -> list nat -> heap -> Prop :=
  match nth_error ts i with
  | Some t => ended (map (var s) (fst t)) (snd t)
  | None => fun _ _ _ _ => False
  end.

Lemma flat_occ {A} (f : A -> list nat) l l' : Permutation l l' -> forall a, occ a (flat_map f l) = occ a (flat_map f l').
Proof. intros P a. induction P; cbn; rewrite ?occ_app; lia. Qed.
Lemma map_at {A} (d : A) l : map (fun i => nth i l d) (seq 0 (length l)) = l.
Proof.
  induction l as [|x l IH]; [reflexivity|]. cbn [length seq map nth]. f_equal.
  rewrite <- seq_shift, map_map. exact IH.
Qed.
Lemma firstn_S_nth {A} (x : A) : forall l n, nth_error l n = Some x -> firstn (S n) l = firstn n l ++ [x].
Proof.
  induction l as [|y l IH]; intros [|n] H; try discriminate.
  - injection H as ->. reflexivity.
  - cbn [firstn app]. f_equal. now apply IH.
Qed.
Lemma bval_nth h l s j : Forall2 (bval h) l s -> bval h (bx_at l j) (var s j : bvar V).
Proof. intros H. revert j. induction H as [|x y l s Hx _ IH]; intros [|j]; [exact I|exact I|exact Hx|exact (IH j)]. Qed.
Lemma inv_have l s h : Forall2 (bval h) l s -> have l s h.
Proof.
  intros H j v Ev. destruct (rel_nth _ _ _ j H (bval_gone _)) as (x & Ex & _ & Hx); [now rewrite Ev|].
  rewrite Ev in Hx. apply bval_has in Hx as (a & -> & Ra).
  destruct (rep_inv _ _ _ Ra) as (c & ts & Hc & _ & Et). exists a, c. injection Et as E1 _. auto.
Qed.

Lemma tasks_pool l s (h : heap) (ts : list task) : sane -> inv l s h -> handed_out ts (length l) -> Forall (allowed s) ts ->
  pool_ok [] (goal s ts) (map (spawn l) ts) (map (fun t => ([], roots (map (bx_at l) (fst t)))) ts) h.
Proof.
  intros (H1 & H2 & H3) [S Hr] Hout Hq. split.
  - now rewrite !map_length.
  - assert (Ls (map (fun t => ([], roots (map (bx_at l) (fst t)))) ts) = []) as ->.
    { clear. induction ts as [|t ts IH]; [reflexivity|exact IH]. }
    eapply st_eqv; [|exact S]. intros a. cbn [app].
    transitivity (occ a (flat_map ptrs (map (bx_at l) (List.concat (map fst ts))))).
    + transitivity (occ a (flat_map ptrs (map (bx_at l) (seq 0 (length l))))).
      { unfold bx_at. now rewrite map_at. }
      apply flat_occ, Permutation_map. symmetry. exact Hout.
    + clear. induction ts as [|t ts IH]; [reflexivity|]. cbn [map List.concat]. rewrite map_app, flat_map_app.
      unfold Rs. cbn [map flat_map snd]. rewrite !occ_app. f_equal. exact IH.
  - intros i p g Hp Hg h' Rl. rewrite nth_error_map in Hp, Hg. unfold goal.
    destruct (nth_error ts i) as [t|] eqn:Et; [|discriminate]. cbn in Hp, Hg.
    injection Hp as <-. injection Hg as <-. cbn [fst snd] in *.
    rewrite Forall_forall in Hq. destruct (Hq t (nth_error_In _ _ Et)) as (s' & ys & E).
    eapply cwp_thread; [exact H1|exact H2|exact H3| |exact E].
    eapply bvals_rely; [exact Rl|apply incl_refl|]. clear -Hr.
    induction (fst t) as [|j js IH]; constructor; [|exact IH]. now apply bval_nth.
Qed.

(** All threads have ended: memory is in order for what they end with. *)
Lemma tasks_end s ts ps gs h' outs : pool_ok [] (goal s ts) ps gs h' ->
  length ps = length ts -> ps = map Done outs -> counted (List.concat (map fst outs)) h'.
Proof.
  intros P' Hl Eo. destruct (pool_all _ _ _ _ _ outs P' Eo) as (gs' & Hl' & S' & Hg).
  assert (Hlen : length outs = length ts) by (rewrite Eo, map_length in Hl; exact Hl).
  assert (Hall : forall n, n <= length outs ->
    Ls (firstn n gs') = [] /\ Rs (firstn n gs') = roots (List.concat (map fst (firstn n outs))) /\
    exists s2, Forall2 (bval h') (List.concat (map fst (firstn n outs))) s2).
  { induction n as [|n IHn]; intros Hn; [split; [reflexivity|]; split; [reflexivity|]; exists []; constructor|].
    destruct IHn as (HL & HR & s2 & H2); [lia|].
    destruct (nth_error outs n) as [o|] eqn:Eon; [|apply nth_error_None in Eon; lia].
    destruct (nth_error gs' n) as [g|] eqn:Egn; [|apply nth_error_None in Egn; lia].
    destruct (nth_error ts n) as [t|] eqn:Etn; [|apply nth_error_None in Etn; lia].
    pose proof (Hg _ _ _ Eon Egn) as Hn'. unfold goal in Hn'. rewrite Etn in Hn'.
    destruct Hn' as (HL1 & HR1 & s3 & _ & H3).
    rewrite (firstn_S_nth _ _ _ Eon), (firstn_S_nth _ gs' n Egn).
    unfold Ls, Rs in *. rewrite !flat_map_app, map_app, concat_app. unfold roots in *. rewrite flat_map_app.
    cbn [flat_map map List.concat]. rewrite HL, HR, HL1, HR1, !app_nil_r. split; [reflexivity|]. split; [reflexivity|].
    exists (s2 ++ s3). now apply Forall2_app. }
  destruct (Hall (length outs) (le_n _)) as (HL & HR & s2 & H2).
  rewrite <- Hl' in HL, HR at 1. rewrite !firstn_all in *.
  apply (inv_counted _ s2). split; [|exact H2]. rewrite HL, HR in S'. exact S'.
Qed.

(** *** C54 *)
(** Any program makes boxes; threads take over its variables and run on.  [unique] may see an
    old count, and accesses are ordered only by program order and by the counts (C53).  In every
    such execution no access is undefined, and accesses to the same box by different threads,
    one of which changes or frees it, are ordered: there is no data race.  A thread that has
    ended has seen what the specification says about its own variables alone, and they have
    the values that the specification says.  When all have ended, every box that is left has
    the number of variables that share it as its count.  As long as a thread has not ended
    there is a next step, and there are no endless executions. *)
Theorem C54_box_orders os s xs : sane -> bspecs [] os = Some (s, xs) ->
  exists l h, brun [] os [] = Ok ((l, xs), h) /\
  forall ts, handed_out ts (length l) -> Forall (allowed s) ts ->
  (forall ps h' tr, wsteps h (map (spawn l) ts, h, []) (ps, h', tr) ->
     ~ stuck ps h' /\ ordered tr /\
     (forall i t l' ys, nth_error ts i = Some t -> nth_error ps i = Some (Done (l', ys)) ->
        exists s', bspecs (map (var s) (fst t)) (snd t) = Some (s', ys) /\ have l' s' h') /\
     (forall outs, ps = map Done outs -> counted (List.concat (map fst outs)) h') /\
     ((exists outs, ps = map Done outs) \/ exists e, wstep h (ps, h', tr) e)) /\
  (forall f, f 0 = (map (spawn l) ts, h, []) -> ~ forall n, wstep h (f n) (f (S n))).
Proof.
  intros Hs E. destruct (run_inv _ _ _ _ _ _ Hs E) as (l & h & Er & I).
  exists l, h. split; [exact Er|]. intros ts Hout Hq.
  pose proof (tasks_pool _ _ _ _ Hs I Hout Hq) as P. split.
  - intros ps h' tr W. destruct (wsteps_ok _ _ _ _ _ _ _ _ P W) as (gs' & P' & O & Rl & Hl). rewrite map_length in Hl.
    split; [eapply pool_stuck; exact P'|]. split; [exact (o_ord _ _ _ _ _ O)|]. split; [|split].
    + intros i t l' ys Et Ed. destruct (pool_end _ _ _ _ _ _ _ P' Ed) as (g & Hg).
      unfold goal in Hg. rewrite Et in Hg. destruct Hg as (_ & _ & s' & Hs' & H'). exists s'.
      split; [exact Hs'|]. now apply inv_have.
    + intros outs Eo. eapply tasks_end; [exact P'|exact Hl|exact Eo].
    + eapply pool_next. exact P'.
  - intros f _. apply wstep_ends.
Qed.
(** So when all threads have destroyed all their boxes, all memory has been freed. *)
Theorem C54_no_leak os s xs : sane -> bspecs [] os = Some (s, xs) ->
  exists l h, brun [] os [] = Ok ((l, xs), h) /\
  forall ts, handed_out ts (length l) -> Forall (allowed s) ts ->
  forall outs h' tr, wsteps h (map (spawn l) ts, h, []) (map Done outs, h', tr) ->
    (forall l' ys x, In (l', ys) outs -> In x l' -> x = None) -> forall c, ~ In (Some c) h'.
Proof.
  intros Hs E. destruct (C54_box_orders os s xs Hs E) as (l & h & Er & K). exists l, h. split; [exact Er|].
  intros ts Hout Hq outs h' tr W Hn c Hc. apply In_nth_error in Hc as [a Ha].
  destruct (proj1 (K ts Hout Hq) _ _ _ W) as (_ & _ & _ & Hend & _). destruct (Hend outs eq_refl a c Ha) as [Ec Hp].
  assert (filter (fun x => match x with Some (Some b) => b =? a | _ => false end) (List.concat (map fst outs)) = []) as Z.
  { assert (forall x, In x (List.concat (map fst outs)) -> x = None) as Hn'.
    { intros x Hx. apply in_concat in Hx as (l' & Hl & Hx). apply in_map_iff in Hl as ([l2 ys] & <- & Hl). eauto. }
    clear -Hn'. induction (List.concat (map fst outs)) as [|x l IH]; [reflexivity|]. cbn.
    rewrite (Hn' x (or_introl eq_refl)). apply IH. intros y Hy. apply Hn'. now right. }
  rewrite Z in Ec. cbn in Ec. lia.
Qed.
End Props.
Print Assumptions C54_box_orders.
Print Assumptions C54_no_leak.

(** *** Case *)
(** A box and two copies of it.  One thread updates its box as an rvalue and does not see yet
    that the others have let go of theirs, then updates it again in place; the others read,
    compare, update and destroy. *)
Definition nat_ne (x y : nat) : bool := negb (Nat.eqb x y).
Definition shared_prog : list (bop nat) := [BNew 1; BCopy 0; BCopy 1].
Definition shared_tasks : list (list nat * list (bop nat)) :=
  [([1], [BGet 0; BUpdate 0 (Nat.add 5); BLt 0 1; BDestroy 0; BDestroy 1]);
   ([2], [BCopy 0; BEq 0 1; BDestroy 0; BDestroy 1]);
   ([0], [BUpdateRv 0 (Nat.add 10); BUpdateRv 0 (Nat.add 100); BGet 0])].
Definition shared_turns : list (nat * option nat) :=
  repeat (0, None) 20 ++ repeat (1, None) 20 ++ repeat (2, Some 0) 20.
Definition after : vars * RcHeap.heap nat :=
  match brun Nat.eqb nat_ne Nat.ltb [] shared_prog [] with Ok ((l, _), h) => (l, h) | UB => ([], []) end.
Example C54_box_nonvacuous :
  let s := [Has 1; Has 1; Has 1] in let l := fst after in let h := snd after in
  sane Nat.eqb nat_ne Nat.ltb /\ bspecs Nat.eqb nat_ne Nat.ltb [] shared_prog = Some (s, [ONone; ONone; ONone]) /\
  handed_out shared_tasks (length l) /\ Forall (allowed Nat.eqb nat_ne Nat.ltb s) shared_tasks /\
  exists ps h' tr, wsteps h (map (spawn Nat.eqb nat_ne Nat.ltb l) shared_tasks, h, []) (ps, h', tr) /\
    map (fun p => match p with Done (_, ys) => ys | _ => [] end) ps =
      [[OVal 1; ONone; OBool true; ONone; ONone]; [ONone; OBool true; ONone; ONone]; [ONone; ONone; OVal 111]] /\
    OrderProps.sees_old h tr = true /\ existsb (fun e => match e_kind e with ESet => true | _ => false end) tr = true.
Proof.
  cbv zeta. split.
  { split; [exact Nat.eqb_refl|split; [|exact Nat.ltb_irrefl]]. intros v. unfold nat_ne. now rewrite Nat.eqb_refl. }
  split; [reflexivity|]. split; [|split].
  - vm_compute. apply NoDup_Permutation.
    + repeat constructor; cbn; intuition discriminate.
    + repeat constructor; cbn; intuition discriminate.
    + cbn. intuition.
  - repeat constructor; eexists; eexists; reflexivity.
  - remember (OrderProps.wrun (snd after) shared_turns
      (map (spawn Nat.eqb nat_ne Nat.ltb (fst after)) shared_tasks, snd after, [])) as r eqn:Er.
    assert (X : match r with Some (ps, h', tr) =>
        map (fun p => match p with Done (_, ys) => ys | _ => [] end) ps =
          [[OVal 1; ONone; OBool true; ONone; ONone]; [ONone; OBool true; ONone; ONone]; [ONone; ONone; OVal 111]] /\
        OrderProps.sees_old (snd after) tr = true /\
        existsb (fun e => match e_kind e with ESet => true | _ => false end) tr = true
      | None => False end) by (rewrite Er; vm_compute; auto).
    destruct r as [[[ps h'] tr]|]; [|contradiction]. exists ps, h', tr. split; [|exact X].
    eapply OrderProps.wrun_steps; [apply ws_none|]. symmetry. exact Er.
Qed.
