(** Properties of threads whose counts are ordered only as far as the code says: C53. *)
From Coq Require Import List NArith Arith Bool Lia Permutation.
From Verif Require Import Common AtomProofs RcHeap RcProofs Conc ConcProofs ConcPool ConcOrder ConcOrderProofs
  Champ ChampSpec ChampProps ChampHeap ChampProgSpec ChampProg ProgVars ChampProgProofs ChampHeapProps
  ChampConcProg Rrb VecHeap VecNodes VecTree VecProgSpec VecProg VecProgProofs VecHeapProps VecConcProg.
From Verif Require ChampConcProps VecConcProps.
Import ListNotations.
Set Default Goal Selector "!".

(** *** C53 *)
(** Maps, sets and tables.  The program and the threads are those of C51, but now [unique] may
    see an old count, and accesses are ordered only by program order and by the counts.  In
    every such execution no access is undefined, and accesses to the same block by different
    threads, one of which changes or frees it, are ordered: there is no data race.  Every
    thread sees what the specification says about its own variables alone.  When all have
    ended, memory is in order for the variables that are left.  As long as a thread has not
    ended there is a next step, and there are no endless executions. *)
Section Maps.
Variable B : N.
Context {T K V : Type}.
Variable key : T -> K.
Variable khash : K -> N.
Variable keq : K -> K -> bool.
Variable project : T -> V.
Variable combine : K -> V -> T.
Variable ct : bool.
Variable gone : T -> T.
Notation mrun := (mrun B key khash keq project combine ct gone 0).
Notation mspecs := (mspecs key keq project combine).
Notation setup := (setup B key khash keq combine).
Notation spawn := (ChampConcProps.spawn B key khash keq project combine gone).

Theorem C53_map_orders (os : list (mop T K V)) : setup -> no_throw os ->
  exists l xs h s, mrun [] os (@ChampProg.start T) = Ok ((l, xs), h) /\ mspecs [] os xs s /\
  forall ts, ChampConcProps.handed_out ts (length l) -> Forall ChampConcProps.quiet ts ->
  (forall ps h' tr, wsteps h (map (spawn l) ts, h, []) (ps, h', tr) ->
     ~ stuck ps h' /\ ordered tr /\
     (forall i t l' ys, nth_error ts i = Some t -> nth_error ps i = Some (Done (l', ys)) ->
        exists s', mspecs (map (avar_at s) (fst t)) (snd t) ys s') /\
     (forall outs, ps = map Done outs -> ChampHeapProps.in_order (List.concat (map fst outs)) h') /\
     ((exists outs, ps = map Done outs) \/ exists e, wstep h (ps, h', tr) e)) /\
  (forall f, f 0 = (map (spawn l) ts, h, []) -> ~ forall n, wstep h (f n) (f (S n))).
Proof.
  intros Hs Ho.
  destruct (ChampHeapProps.run_start B key khash keq project combine ct gone os Hs (ok_no_throw khash keq ct _ Ho))
    as (l & xs & h & s & E & S & I).
  exists l, xs, h, s. split; [exact E|]. split; [exact S|]. intros ts Hout Hq.
  pose proof (ChampConcProps.tasks_pool B key khash keq project combine gone _ _ _ _ Hs I Hout Hq) as P. split.
  - intros ps h' tr W. destruct (wsteps_ok _ _ _ _ _ _ _ _ P W) as (gs' & P' & O & Rl & Hl). rewrite map_length in Hl.
    split; [eapply pool_stuck; exact P'|]. split; [exact (o_ord _ _ _ _ _ O)|]. split; [|split].
    + intros i t l' ys Et Ed. destruct (pool_end _ _ _ _ _ _ _ P' Ed) as (g & Hg).
      unfold ChampConcProps.goal in Hg. rewrite Et in Hg. destruct Hg as (_ & _ & s' & Hs' & _). now exists s'.
    + intros outs Eo. eapply ChampConcProps.tasks_end; [exact I|exact P'|exact Rl|exact Hl|exact Eo].
    + eapply pool_next. exact P'.
  - intros f _. apply wstep_ends.
Qed.
End Maps.
Print Assumptions C53_map_orders.

(** Vectors and flex_vectors, with the threads of C52. *)
Section Vectors.
Variables B BL : N.
Context {T : Type}.
Variable gone : T -> T.
Variable nm : bool.
Notation prun := (prun B BL gone nm root0 tail0).
Notation pspecs := (pspecs B BL gone).
Notation careful := (careful B BL gone nm root0 tail0).
Notation spawn := (@VecConcProps.spawn B BL T nm).

Theorem C53_vector_orders (os : list (pop T)) : (1 <= B)%N -> careful [] os vstart -> Forall (wide B) os ->
  exists l xs h s, prun [] os vstart = Ok ((l, xs), h) /\ pspecs [] os xs s /\
  forall ts, VecConcProps.handed_out ts (length l) -> Forall VecConcProps.quiet ts ->
  (forall ps h' tr, wsteps h (map (spawn l) ts, h, []) (ps, h', tr) ->
     ~ stuck ps h' /\ ordered tr /\
     (forall i t l' ys, nth_error ts i = Some t -> nth_error ps i = Some (Done (l', ys)) ->
        exists s', pspecs (map (sq_at s) (fst t)) (snd t) ys s') /\
     (forall outs, ps = map Done outs -> VecHeapProps.in_order (List.concat (map fst outs)) h') /\
     ((exists outs, ps = map Done outs) \/ exists e, wstep h (ps, h', tr) e)) /\
  (forall f, f 0 = (map (spawn l) ts, h, []) -> ~ forall n, wstep h (f n) (f (S n))).
Proof.
  intros HB Hc Hw.
  destruct (VecHeapProps.run_start B BL gone nm os HB Hc Hw) as (l & xs & h & s & E & S & I).
  exists l, xs, h, s. split; [exact E|]. split; [exact S|]. intros ts Hout Hq.
  pose proof (VecConcProps.tasks_pool B BL gone nm _ _ _ _ HB I Hout Hq) as P. split.
  - intros ps h' tr W. destruct (wsteps_ok _ _ _ _ _ _ _ _ P W) as (gs' & P' & O & Rl & Hl). rewrite map_length in Hl.
    split; [eapply pool_stuck; exact P'|]. split; [exact (o_ord _ _ _ _ _ O)|]. split; [|split].
    + intros i t l' ys Et Ed. destruct (pool_end _ _ _ _ _ _ _ P' Ed) as (g & Hg).
      unfold VecConcProps.goal in Hg. rewrite Et in Hg. destruct Hg as (_ & _ & s' & Hs' & _). now exists s'.
    + intros outs Eo. eapply VecConcProps.tasks_end; [exact I|exact P'|exact Rl|exact Hl|exact Eo].
    + eapply pool_next. exact P'.
  - intros f _. apply wstep_ends.
Qed.
End Vectors.
Print Assumptions C53_vector_orders.

(** *** Concrete executions *)
(** Executions computed from a list of turns, each with the time of the count to see when the
    thread asks for one. *)
Section Runs.
Context {B A : Type}.
Notation state := (list (prog B A) * heap B * list ConcOrder.event)%type.
(** The rules [hb_thread] and [hb_count]. *)
Definition edge (tr : list ConcOrder.event) (m j : nat) : bool :=
  match nth_error tr m, nth_error tr j with
  | Some e, Some f => (m <? j) && ((e_thread e =? e_thread f) ||
      ((e_block e =? e_block f) && releases (e_kind e) && acquires (e_kind f) && (m <? e_seen f)))
  | _, _ => false
  end.
Definition mem (x : nat) (l : list nat) : bool := existsb (Nat.eqb x) l.
(** The events that thread [i] knows of, and a check that they are all there. *)
Definition knows (tr : list ConcOrder.event) (i : nat) : list nat :=
  fold_left (fun X m => if match nth_error tr m with Some e => e_thread e =? i | None => false end || existsb (edge tr m) X
                        then m :: X else X) (rev (seq 0 (length tr))) [].
Definition closed (tr : list ConcOrder.event) (i : nat) (X : list nat) : bool :=
  forallb (fun m => mem m X || negb (match nth_error tr m with Some e => e_thread e =? i | None => false end || existsb (edge tr m) X))
    (seq 0 (length tr)).
(** The count of [a] at time [t] may still be seen. *)
Definition readable (tr : list ConcOrder.event) (i a t : nat) : bool :=
  (t <=? length tr) && closed tr i (knows tr i) &&
  forallb (fun m => match nth_error tr m with
                    | Some e => negb ((e_block e =? a) && counts (e_kind e)) || negb (mem m (knows tr i))
                    | None => true
                    end) (seq t (length tr - t)).
Definition newest {C} (i : nat) (q : prim B C) (k : C -> prog B A) (s : state) : option state :=
  let '(ps, h, tr) := s in
  match exec q h with
  | Ok (x, h') => Some (update_at i (k x) ps, h', tr ++ [mkEv i (kind_of q) (block_of q x) (count_in h' (block_of q x)) (length tr)])
  | UB => None
  end.
Definition wturn (h0 : heap B) (s : state) (u : nat * option nat) : option state :=
  let '(ps, h, tr) := s in
  match nth_error ps (fst u) with
  | Some (Act q k) =>
      match snd u with
      | Some t =>
          match q in prim _ C return (C -> prog B A) -> option state with
          | PUniq a => fun k => if readable tr (fst u) a t
              then Some (update_at (fst u) (k (count_at h0 tr a t =? 1)) ps, h, tr ++ [mkEv (fst u) EAsk a 0 t])
              else newest (fst u) (PUniq a) k s
          | q' => fun k => newest (fst u) q' k s
          end k
      | None => newest (fst u) q k s
      end
  | _ => Some s
  end.
Fixpoint wrun (h0 : heap B) (us : list (nat * option nat)) (s : state) : option state :=
  match us with
  | [] => Some s
  | u :: us => match wturn h0 s u with Some s' => wrun h0 us s' | None => None end
  end.

Lemma mem_in x l : mem x l = true <-> In x l.
Proof.
  unfold mem. rewrite existsb_exists. split.
  - intros (y & Hy & E). apply Nat.eqb_eq in E. now subst.
  - intros H. exists x. split; [exact H|apply Nat.eqb_refl].
Qed.
Lemma closed_known tr i X m : closed tr i X = true -> known tr i m -> In m X.
Proof.
  unfold closed. rewrite forallb_forall. intros Hc (j & f & Hj & Ht & H).
  assert (Hjx : In j X).
  { assert (Hl : j < length tr) by (apply nth_error_Some; congruence).
    specialize (Hc j (proj2 (in_seq _ _ _) (conj (Nat.le_0_l _) Hl))). rewrite Hj, Ht, Nat.eqb_refl in Hc. cbn in Hc.
    apply mem_in. now rewrite orb_false_r in Hc. }
  assert (X1 : forall m j, edge tr m j = true -> In j X -> In m X).
  { intros m' j' E Hi. assert (Hl : m' < length tr).
    { apply nth_error_Some. unfold edge in E. destruct (nth_error tr m'); [discriminate|discriminate E]. }
    specialize (Hc m' (proj2 (in_seq _ _ _) (conj (Nat.le_0_l _) Hl))).
    assert (existsb (edge tr m') X = true) as Ex by (apply existsb_exists; eauto).
    rewrite Ex, orb_true_r in Hc. cbn in Hc. apply mem_in. now rewrite orb_false_r in Hc. }
  destruct H as [->|H]; [exact Hjx|]. clear Hj Ht. revert Hjx.
  induction H as [m j e f' Hm Hj Hl E|m j e f' Hm Hj Hl E Hr Ha Hs|m j k _ IH1 _ IH2]; intros Hi.
  - apply (X1 m j); [|exact Hi]. unfold edge. rewrite Hm, Hj, E, Nat.eqb_refl. apply Nat.ltb_lt in Hl. now rewrite Hl.
  - apply (X1 m j); [|exact Hi]. unfold edge. rewrite Hm, Hj, E, Hr, Ha, Nat.eqb_refl. apply Nat.ltb_lt in Hl, Hs.
    rewrite Hl, Hs. cbn. apply orb_true_r.
  - auto.
Qed.
Lemma newest_step h0 C i (q : prim B C) k ps h tr s' : nth_error ps i = Some (Act q k) -> newest i q k (ps, h, tr) = Some s' ->
  wstep h0 (ps, h, tr) s'.
Proof.
  unfold newest. intros Hp E. destruct (exec q h) as [[x h']|] eqn:Ex; [|discriminate]. injection E as <-. now apply w_new with (k := k).
Qed.
Lemma wturn_step h0 s u s' : wturn h0 s u = Some s' -> s' = s \/ wstep h0 s s'.
Proof.
  destruct s as [[ps h] tr], u as [i o]. unfold wturn. cbn [fst snd].
  destruct (nth_error ps i) as [[a| |C q k]|] eqn:Ep; intros E; try (left; congruence). right.
  destruct o as [t|]; [|eapply newest_step; eauto].
  destruct q; try (eapply newest_step; eauto; fail).
  destruct (readable tr i a t) eqn:Er; [|eapply newest_step; eauto]. injection E as <-.
  unfold readable in Er. apply andb_prop in Er as [Er H3]. apply andb_prop in Er as [H1 H2]. apply Nat.leb_le in H1.
  apply w_old; [exact Ep|exact H1|]. intros m e Hm He Hb Hc Hk. apply (closed_known _ _ _ _ H2) in Hk.
  assert (Hl : m < length tr) by (apply nth_error_Some; congruence).
  rewrite forallb_forall in H3. assert (Hs : In m (seq t (length tr - t))) by (apply in_seq; lia). specialize (H3 m Hs).
  apply mem_in in Hk. rewrite He, Hb, Hc, Nat.eqb_refl, Hk in H3. discriminate.
Qed.
Lemma wrun_steps h0 us : forall s s1 s', wsteps h0 s s1 -> wrun h0 us s1 = Some s' -> wsteps h0 s s'.
Proof.
  induction us as [|u us IH]; intros s s1 s' W E; cbn in E; [injection E as <-; exact W|].
  destruct (wturn h0 s1 u) as [s2|] eqn:Eu; [|discriminate]. apply wturn_step in Eu as [->|Eu]; [eauto|].
  eapply IH; [|exact E]. econstructor; eauto.
Qed.
(** Somebody sees an old count: not one although the newest is. *)
Definition sees_old (h0 : heap B) (tr : list ConcOrder.event) : bool :=
  existsb (fun m => match nth_error tr m with
                    | Some e => match e_kind e with
                                | EAsk => negb (count_at h0 tr (e_block e) (e_seen e) =? 1) && (count_at h0 tr (e_block e) m =? 1)
                                | _ => false
                                end
                    | None => false
                    end) (seq 0 (length tr)).
End Runs.

Section Concrete.
Local Open Scope N_scope.
(** A map and its copy.  One thread destroys the copy; the other one then changes the map in
    place, does not see that yet and copies the node. *)
Notation cspawn := (ChampConcProps.spawn 5 (@fst N N) hid N.eqb (@snd N N) (@pair N N) (fun x => x)).
Definition old_prog : list (mop (N * N) N N) := [MNew; MApply 0 (OpInsert (1, 10)) []; MCopy 1].
Definition old_tasks : list (list nat * list (mop (N * N) N N)) :=
  [([0; 2]%nat, [MDestroy 1; MDestroy 0]); ([1]%nat, [MMutate 0 (OpInsert (1, 3)) []; MGet 0 1 []; MDestroy 0])].
Definition old_turns : list (nat * option nat) := repeat (0%nat, None) 30 ++ repeat (1%nat, Some 0%nat) 60.
Example C53_map_nonvacuous :
  let l := fst (ChampConcProps.after old_prog) in let h := snd (ChampConcProps.after old_prog) in
  setup 5 (@fst N N) hid N.eqb (@pair N N) /\ no_throw old_prog /\
  ChampConcProps.handed_out old_tasks (length l) /\ Forall ChampConcProps.quiet old_tasks /\
  exists ps h' tr, wsteps h (map (cspawn l) old_tasks, h, []) (ps, h', tr) /\
    map (fun p => match p with Done (_, ys) => ys | _ => [OThrew] end) ps =
      [[ONone; ONone]; [ONone; OFound (Some (1, 3)); ONone]] /\
    sees_old h tr = true /\ existsb (fun e => changes (e_kind e)) tr = true.
Proof.
  cbv zeta. split; [exact setup_hid|]. split; [repeat constructor|]. split.
  - vm_compute. apply NoDup_Permutation.
    + repeat constructor; cbn; intuition discriminate.
    + repeat constructor; cbn; intuition discriminate.
    + cbn. intuition.
  - split; [repeat constructor|].
    remember (wrun (snd (ChampConcProps.after old_prog)) old_turns
      (map (cspawn (fst (ChampConcProps.after old_prog))) old_tasks, snd (ChampConcProps.after old_prog), [])) as r eqn:Er.
    assert (X : match r with Some (ps, h', tr) =>
        map (fun p => match p with Done (_, ys) => ys | _ => [OThrew] end) ps =
          [[ONone; ONone]; [ONone; OFound (Some (1, 3)); ONone]] /\
        sees_old (snd (ChampConcProps.after old_prog)) tr = true /\ existsb (fun e => changes (e_kind e)) tr = true
      | None => False end) by (rewrite Er; vm_compute; auto).
    destruct r as [[[ps h'] tr]|]; [|contradiction]. exists ps, h', tr. split; [|exact X].
    eapply wrun_steps; [apply ws_none|]. symmetry. exact Er.
Qed.

(** A vector and its copy, likewise. *)
Notation vspawn := (@VecConcProps.spawn 2 1 N true).
Definition vold_prog : list (pop N) := VecConcProps.grown false 3 ++ [PCopy 1].
Definition vold_tasks : list (list nat * list (pop N)) :=
  [([0; 2]%nat, [PDestroy 1; PDestroy 0]);
   ([1]%nat, [PMutate false 0 (VUpdate 0 (fun v => v + 90)) []; PGet 0 0; PGet 0 2; PDestroy 0])].
Example C53_vector_nonvacuous :
  let l := fst (VecConcProps.vafter vold_prog) in let h := snd (VecConcProps.vafter vold_prog) in
  (1 <= 2) /\ careful 2 1 (fun x : N => x) true root0 tail0 [] vold_prog vstart /\ Forall (wide 2) vold_prog /\
  VecConcProps.handed_out vold_tasks (length l) /\ Forall VecConcProps.quiet vold_tasks /\
  exists ps h' tr, wsteps h (map (vspawn l) vold_tasks, h, []) (ps, h', tr) /\
    map (fun p => match p with Done (_, ys) => ys | _ => [SThrew] end) ps =
      [[SNone; SNone]; [SNone; SElem 91; SElem 3; SNone]] /\
    sees_old h tr = true /\ existsb (fun e => changes (e_kind e)) tr = true.
Proof.
  cbv zeta. split; [discriminate|]. split; [apply careful_b; vm_compute; reflexivity|]. split; [repeat constructor|]. split.
  - vm_compute. apply NoDup_Permutation.
    + repeat constructor; cbn; intuition discriminate.
    + repeat constructor; cbn; intuition discriminate.
    + cbn. intuition.
  - split; [repeat constructor|].
    remember (wrun (snd (VecConcProps.vafter vold_prog)) old_turns
      (map (vspawn (fst (VecConcProps.vafter vold_prog))) vold_tasks, snd (VecConcProps.vafter vold_prog), [])) as r eqn:Er.
    assert (X : match r with Some (ps, h', tr) =>
        map (fun p => match p with Done (_, ys) => ys | _ => [SThrew] end) ps =
          [[SNone; SNone]; [SNone; SElem 91; SElem 3; SNone]] /\
        sees_old (snd (VecConcProps.vafter vold_prog)) tr = true /\ existsb (fun e => changes (e_kind e)) tr = true
      | None => False end) by (rewrite Er; vm_compute; auto).
    destruct r as [[[ps h'] tr]|]; [|contradiction]. exists ps, h', tr. split; [|exact X].
    eapply wrun_steps; [apply ws_none|]. symmetry. exact Er.
Qed.
End Concrete.
