(** C49: programs over flex_vectors and their transients under garbage collection. *)
From Coq Require Import List NArith Arith Bool Lia.
From Verif Require Import Common NList Rrb RrbInv RrbReach GcConcat GcSpec GcVec GcSlice GcRead GcProgSpec GcProg GcProgProofs.
Import ListNotations.
Local Open Scope N_scope.

Set Default Goal Selector "!".

(** What is in a variable: reading its tree gives the sequence, and so does size(). *)
Definition holds {T} B BL (h : gheap T) (x : gtree) (l : list T) : Prop :=
  reads B BL h x = Some l /\ gt_size x = N.of_nat (length l).
Definition shows {T} B BL (h : gheap T) (v : gvar) (q : qv T) : Prop :=
  match v, q with
  | VNone, XGone => True
  | VVec x, XVec l => holds B BL h x l
  | VTra x _, XTra l => holds B BL h x l
  | VTra _ _, XMoved => True
  | _, _ => False
  end.

Lemma PI_shows {T} B BL (st : gstate T) s : 2 <= B -> PI B BL st s -> Forall2 (shows B BL (gs_heap st)) (gs_vars st) s.
Proof.
  intros HB (mine & F & P & I). pose proof (p_len _ _ _ _ _ _ _ _ _ I) as Hl. pose proof (p_var _ _ _ _ _ _ _ _ _ I) as Hv. clear I.
  revert s F P Hl Hv. induction (gs_vars st) as [|v vs IH]; intros [|q s] F P Hl Hv; try easy.
  constructor; [|apply (IH s (fun i => F (S i)) (fun i => P (S i))); [now injection Hl|intros i; exact (Hv (S i))]].
  specialize (Hv O). cbn in Hv.
  assert (forall x l G, (exists t, built B BL t l /\ GcTree.gtrep B BL mine (gs_heap st) x t G) -> holds B BL (gs_heap st) x l) as K.
  { intros x l G (t & Hb & Hx). destruct (built_inv B BL HB t l Hb) as [Hi El]. split.
    - rewrite <- El. eapply reads_ok; eauto; lia.
    - rewrite (proj1 Hx). apply (built_size B BL HB). exact Hb. }
  destruct v, q; cbn in *; try easy; eapply K; apply Hv.
Qed.

(** * C49 *)
(** Dropping from a transient is the only statement that depends on what becomes of an element that
    is moved to itself. *)
Definition no_drop {T} (o : qop T) : bool := match o with QDrop _ _ => false | _ => true end.
Definition moves_ok {T} (nm : bool) (selfmv : T -> T) (os : list (qop T)) : Prop :=
  (nm = true -> forall x, selfmv x = x) \/ forallb no_drop os = true.
Lemma slice_left_any {T} B BL nm nm' (f f' : T -> T) v : forall mu col g first h,
  gslice_left B BL nm f None mu col v g first h = gslice_left B BL nm' f' None mu col v g first h.
Proof.
  induction v as [|l IH]; intros mu col g first h; cbn [gslice_left]; unfold gbind, gmutate, gret;
    repeat match goal with |- match ?m with _ => _ end = match ?m with _ => _ end => destruct m as [[? ?]|]; [|reflexivity] end; cbn [andb].
  - reflexivity.
  - match goal with p : gpos * N |- _ => destruct p end. destruct (col && _ && _); [apply IH|].
    destruct (gleft_node _ _ _ _ _ _ _) as [[[? ?] ?]|]; [|reflexivity]. now rewrite (IH false false).
Qed.
Lemma step_any {T} B BL nm nm' (f f' : T -> T) st o : no_drop o = true -> qstep B BL nm f st o = qstep B BL nm' f' st o.
Proof.
  destruct o as [|j|j|j|j|j|j k|j k|j v|j v|j k fn|mv j k|mv j k|j n|j n|j n|i n]; intros H; try discriminate H; clear H; cbn [qstep];
    try (match goal with |- ?a = ?a => reflexivity end). destruct (gv_at st i); try (match goal with |- ?a = ?a => reflexivity end). destruct (gsmall B BL x); [|reflexivity].
  assert (forall h, gdrop B BL nm f gempty x n h = gdrop B BL nm' f' gempty x n h) as E.
  { intros h. unfold gdrop, gbind. destruct (n =? 0); [reflexivity|]. destruct (gt_size x <=? n); [reflexivity|].
    destruct (gtail_offset BL x h) as [[off h1]|]; [|reflexivity]. destruct (n =? off); [reflexivity|]. destruct (off <? n); [reflexivity|].
    destruct (gmaybe _ _ _ _ _ _) as [[g h2]|]; [|reflexivity]. now rewrite (slice_left_any B BL nm nm' f f'). }
  unfold gdo. now rewrite E.
Qed.
Lemma run_any {T} B BL nm nm' (f f' : T -> T) os : forall st, forallb no_drop os = true -> qrun B BL nm f st os = qrun B BL nm' f' st os.
Proof.
  induction os as [|o os IH]; intros st; cbn [forallb qrun]; [reflexivity|]. intros H. apply andb_prop in H as [H1 H2].
  rewrite (step_any B BL nm nm' f f') by exact H1. generalize (qstep B BL nm' f' st o). intros [[st1 x]|]; cbn [rbind]; [|reflexivity].
  rewrite IH by exact H2. reflexivity.
Qed.
(** Every program that does not use a transient that was moved from, except for assigning to it, and
    does not concatenate a transient to itself, runs without undefined behaviour, and in the end
    every variable holds what it is supposed to hold.  If elements can be moved without throwing and
    something is dropped from a transient, an element that is moved to itself has to keep its value;
    see C50. *)
Theorem C49_programs : forall T B BL nm selfmv (os : list (qop T)), 2 <= B -> moves_ok nm selfmv os -> tidy [] os = true ->
  exists st xs s, qrun B BL nm selfmv gstart os = Ok (st, xs) /\ qspecs B BL [] os xs s /\
    Forall2 (shows B BL (gs_heap st)) (gs_vars st) s.
Proof.
  intros T B BL nm selfmv os HB [Hnm|Hnd] Ht.
  2:{ rewrite (run_any B BL nm true selfmv (fun x => x)) by exact Hnd.
      destruct (run_ok B BL HB true (fun x => x) (fun _ _ => eq_refl) os [] gstart [] (start_ok B BL HB) ltac:(constructor) Ht) as (st & xs & s & E & Hs & H & _).
      exists st, xs, s. split; [auto|]. split; [auto|]. now apply PI_shows. }
  destruct (run_ok B BL HB nm selfmv Hnm os [] gstart [] (start_ok B BL HB) ltac:(constructor) Ht) as (st & xs & s & E & Hs & H & _).
  exists st, xs, s. split; [auto|]. split; [auto|]. now apply PI_shows.
Qed.
Print Assumptions C49_programs.

(** A flex_vector is not changed by what is done to others: as long as it is not assigned to and not
    moved from, the tree it has reads the same, whatever is done to the transients that share
    blocks with it. *)
Definition untouched {T} (i : nat) (o : qop T) : bool :=
  match o with
  | QMove j => negb (Nat.eqb i j)
  | QAssign j _ => negb (Nat.eqb i j)
  | QMoveAssign j k => negb (Nat.eqb i j) && negb (Nat.eqb i k)
  | _ => true
  end.
Lemma spec_stays {T} (s : list (qv T)) o x i l : qv_at s i = XVec l -> untouched i o = true -> qv_at (qspec s o x) i = XVec l.
Proof.
  unfold qv_at. intros E Hu. assert (i < length s)%nat as L by (apply (nth_some i _ XGone); congruence).
  destruct o as [|j|j|j|j|j|j k|j k|j v|j v|j k fn|mv j k|mv j k|j n|j n|j n|j n]; cbn [qspec untouched] in *; unfold qv_at;
    repeat match goal with
    | |- context [match nth ?a s XGone with _ => _ end] => destruct (nth a s XGone) eqn:?
    | |- context [nth _ (if ?c then _ else _)] => destruct c eqn:?
    | |- context [nth _ (match ?c with _ => _ end)] => destruct c eqn:?
    end; cbn zeta;
    rewrite ?andb_true_iff, ?negb_true_iff, ?Nat.eqb_neq in Hu;
    try (rewrite app_nth1 by (rewrite ?upd_length; exact L)); rewrite ?nth_upd, ?upd_length;
    repeat match goal with |- context [Nat.eqb ?a ?b] => destruct (Nat.eqb_spec a b) as [Eab|_]; [exfalso; subst; try congruence; try tauto|] end; auto.
Qed.
Lemma specs_stay {T} B BL (os : list (qop T)) : forall s xs s' i l, qspecs B BL s os xs s' -> qv_at s i = XVec l ->
  forallb (untouched i) os = true -> qv_at s' i = XVec l.
Proof.
  induction os as [|o os IH]; intros s [|x xs] s' i l; cbn [qspecs forallb]; try easy; [now intros ->|].
  intros [_ H] E Hu. apply andb_prop in Hu as [Hu Hus]. eapply IH; eauto. now apply spec_stays.
Qed.
Lemma gdo_vars {T A} (m : G T A) st a st' : gdo m st = Ok (a, st') -> gs_vars st' = gs_vars st.
Proof. unfold gdo. destruct (m (gs_heap st)) as [[b h]|]; [|easy]. cbn [rbind]. intros E. now injection E as <- <-. Qed.
Lemma vec_stays {T} B BL nm selfmv (st st' : gstate T) o xs i x : gv_at st i = VVec x -> untouched i o = true ->
  qstep B BL nm selfmv st o = Ok (st', xs) -> gv_at st' i = VVec x.
Proof.
  unfold gv_at. intros E Hu H. assert (i < length (gs_vars st))%nat as L by (apply (nth_some i _ VNone); congruence).
  destruct o as [|j|j|j|j|j|j k|j k|j v|j v|j k fn|mv j k|mv j k|j n|j n|j n|j n]; cbn [qstep untouched] in H, Hu; unfold gv_at, refresh, new_token in H;
    repeat match type of H with
    | context [match nth ?a (gs_vars st) VNone with _ => _ end] => destruct (nth a (gs_vars st) VNone) eqn:?
    | (match ?c with _ => _ end) = _ => destruct c eqn:?; try discriminate H
    | context [rbind ?m _] => destruct m as [[? ?]|] eqn:?; cbn [rbind] in H; try discriminate H
    end;
    cbn [rbind] in H; try (injection H as <- <-); cbn [set_var add_var set_heap refresh new_token gs_heap gs_next gs_vars fst snd] in *;
    repeat match goal with Hg : gdo _ _ = Ok _ |- _ => apply gdo_vars in Hg; cbn [set_var add_var set_heap refresh new_token gs_heap gs_next gs_vars fst snd] in Hg; rewrite Hg end;
    rewrite ?andb_true_iff, ?negb_true_iff, ?Nat.eqb_neq in Hu;
    try (rewrite app_nth1 by (rewrite ?upd_length; exact L)); rewrite ?nth_upd, ?upd_length;
    repeat match goal with |- context [Nat.eqb ?a ?b] => destruct (Nat.eqb_spec a b) as [Eab|_]; [exfalso; subst; try congruence; try tauto|] end; auto.
Qed.
Lemma vecs_stay {T} B BL nm selfmv (os : list (qop T)) : forall st st' xs i x, gv_at st i = VVec x -> forallb (untouched i) os = true ->
  qrun B BL nm selfmv st os = Ok (st', xs) -> gv_at st' i = VVec x.
Proof.
  induction os as [|o os IH]; intros st st' xs i x E Hu; cbn [qrun forallb] in *; [now intros H; injection H as <- <-|].
  apply andb_prop in Hu as [Hu Hus]. destruct (qstep B BL nm selfmv st o) as [[st1 y]|] eqn:E1; [|easy]. cbn [rbind].
  destruct (qrun B BL nm selfmv st1 os) as [[st2 ys]|] eqn:E2; [|easy]. cbn [rbind]. intros H. injection H as <- <-.
  eapply (IH st1); eauto. eapply vec_stays; eauto.
Qed.
Lemma tidy_app {T} (os1 os2 : list (qop T)) : forall ks, tidy ks (os1 ++ os2) = tidy ks os1 && tidy (fold_left classes os1 ks) os2.
Proof. induction os1 as [|o os1 IH]; intros ks; cbn [app tidy fold_left]; [reflexivity|]. now rewrite IH, andb_assoc. Qed.
Lemma shows_at {T} B BL (st : gstate T) s i : Forall2 (shows B BL (gs_heap st)) (gs_vars st) s -> shows B BL (gs_heap st) (gv_at st i) (qv_at s i).
Proof. unfold gv_at, qv_at. intros H. revert i. induction H; intros [|i]; cbn; auto. Qed.
Theorem C49_snapshot : forall T B BL nm selfmv (os1 os2 : list (qop T)) st1 xs1 st2 xs2 i x, 2 <= B -> moves_ok nm selfmv (os1 ++ os2) -> tidy [] (os1 ++ os2) = true ->
  qrun B BL nm selfmv gstart os1 = Ok (st1, xs1) -> qrun B BL nm selfmv st1 os2 = Ok (st2, xs2) ->
  gv_at st1 i = VVec x -> forallb (untouched i) os2 = true ->
  gv_at st2 i = VVec x /\ exists l, holds B BL (gs_heap st1) x l /\ holds B BL (gs_heap st2) x l.
Proof.
  intros T B BL nm0 f0 os1 os2 st1 xs1 st2 xs2 i x HB Hm Ht E1 E2 Ex Hu.
  assert (exists nm selfmv, (nm = true -> forall y : T, selfmv y = y) /\ qrun B BL nm selfmv gstart os1 = Ok (st1, xs1) /\
    qrun B BL nm selfmv st1 os2 = Ok (st2, xs2)) as (nm & selfmv & Hnm & E1' & E2').
  { destruct Hm as [Hnm|Hnd]; [eauto|]. rewrite forallb_app in Hnd. apply andb_prop in Hnd as [N1 N2].
    exists true, (fun y => y). split; [auto|]. rewrite <- E1, <- E2. split; apply run_any; auto. }
  clear Hm E1 E2. rename E1' into E1, E2' into E2. rewrite tidy_app in Ht. apply andb_prop in Ht as [Ht1 Ht2].
  destruct (run_ok B BL HB nm selfmv Hnm os1 [] gstart [] (start_ok B BL HB) ltac:(constructor) Ht1) as (st1' & xs1' & s1 & E1' & Hs1 & H1 & K1).
  rewrite E1 in E1'. injection E1' as <- <-.
  destruct (run_ok B BL HB nm selfmv Hnm os2 _ st1 s1 H1 K1 Ht2) as (st2' & xs2' & s2 & E2' & Hs2 & H2 & K2).
  rewrite E2 in E2'. injection E2' as <- <-.
  pose proof (vecs_stay _ _ _ _ _ _ _ _ _ _ Ex Hu E2) as Ex2. split; [auto|].
  pose proof (shows_at _ _ _ _ i (PI_shows B BL st1 s1 HB H1)) as S1. rewrite Ex in S1.
  destruct (qv_at s1 i) as [|l| |] eqn:Eq; try easy. exists l. split; [exact S1|].
  pose proof (shows_at _ _ _ _ i (PI_shows B BL st2 s2 HB H2)) as S2. now rewrite Ex2, (specs_stay _ _ _ _ _ _ _ _ Hs2 Eq Hu) in S2.
Qed.
Print Assumptions C49_snapshot.

(** A program: a vector of 23 elements is built through a transient; a snapshot is taken, then the
    transient is updated, copied, appended to (by reference and by moving) and finished. *)
Definition pushes (i : nat) (l : list N) : list (qop N) := map (QPush i) l.
Definition nums (a n : nat) : list N := map N.of_nat (seq a n).
Definition ex_build : list (qop N) := QNew :: QTransient 0 :: pushes 1 (nums 0 23) ++ [QPersistent 1].
Definition ex_rest : list (qop N) :=
  [QUpdate 1 3 (fun _ => 77); QUpdate 1 22 (fun _ => 88)] ++ pushes 1 (nums 23 4) ++
  [QTransient 2; QUpdate 3 0 (fun _ => 66); QAppend false 1 3; QUpdate 3 1 (fun _ => 55); QAppend true 3 1;
   QAssign 1 3; QPush 1 99; QPrepend true 3 1; QFinish 1; QPushed 4 44; QMove 4; QUpdate 1 0 (fun _ => 1)].
Example ex_tidy : tidy [] (ex_build ++ firstn 17 ex_rest) = true.
Proof. vm_compute. reflexivity. Qed.
(** The last statement of [ex_rest] uses a transient that was moved from. *)
Example ex_untidy : tidy [] (ex_build ++ ex_rest) = false.
Proof. vm_compute. reflexivity. Qed.
Definition looks (r : res (gstate N * list qobs)) : res (list (option (list N))) :=
  ' (st, _) <- r ;;
  Ok (map (fun v => match v with VNone => None | VVec x | VTra x _ => reads 2 1 (gs_heap st) x end) (gs_vars st)).
Definition ex_x3 : list N := 66 :: 55 :: nums 2 21.
Definition ex_x1 : list N := nums 0 3 ++ 77 :: nums 4 18 ++ 88 :: nums 23 4 ++ 66 :: nums 1 22.
Example C49_case_programs :
  looks (qrun 2 1 true (fun x => x) gstart (ex_build ++ firstn 17 ex_rest)) =
    Ok [Some []; Some []; Some (nums 0 23); Some []; Some []; Some (ex_x3 ++ ex_x1 ++ ex_x3 ++ ex_x1 ++ [99; 44]);
        Some (ex_x3 ++ ex_x1 ++ ex_x3 ++ ex_x1 ++ [99])].
Proof. vm_compute. reflexivity. Qed.
(** The snapshot is variable 2. *)
Example C49_case_snapshot :
  forallb (untouched 2) (firstn 17 ex_rest) = true /\
  match qrun 2 1 true (fun x => x) gstart ex_build with Ok (st, _) => match gv_at st 2 with VVec x => gt_lv x | _ => O end | UB => O end = 1%nat.
Proof. vm_compute. auto. Qed.

(** Without the condition on transients that were moved from it is not so.  The transient that was
    moved from keeps its token (gc_transience_policy.hpp:70-72); when the empty transient is
    appended to, it takes the tree of the other (rrbtree.hpp:787-789) and with it blocks that have
    its token and belong to a flex_vector. *)
Definition ex_moved : list (qop N) :=
  [QNew; QTransient 0; QPush 1 1; QFinish 1; QTransient 2; QAppend false 1 3; QUpdate 1 0 (fun _ => 9)].
Theorem C44_flex_vector_refuted : exists (os : list (qop N)) st xs, qrun 2 1 true (fun x => x) gstart os = Ok (st, xs) /\
  forall s, qspecs 2 1 [] os xs s -> ~ Forall2 (shows 2 1 (gs_heap st)) (gs_vars st) s.
Proof.
  destruct (qrun 2 1 true (fun x => x) gstart ex_moved) as [[st xs]|] eqn:E; [|vm_compute in E; discriminate E].
  exists ex_moved, st, xs. split; [exact E|]. vm_compute in E. injection E as <- <-. intros s Hs Hf.
  cbn in Hs. repeat match type of Hs with _ /\ _ => destruct Hs as [_ Hs] end. subst s.
  apply (shows_at 2 1 (mkS _ 0%nat _) _ 2) in Hf. cbn [gv_at qv_at gs_vars nth shows] in Hf. destruct Hf as [Hf _]. vm_compute in Hf. discriminate Hf.
Qed.
Print Assumptions C44_flex_vector_refuted.
(** The same with an operand that was moved: the transient appended to is empty and takes the tree of
    the operand, which keeps tree and token. *)
Definition ex_moved2 : list (qop N) :=
  [QNew; QTransient 0; QTransient 0; QPush 2 1; QAppend true 1 2; QUpdate 2 0 (fun _ => 9)].
Example C44_moved_operand : looks (qrun 2 1 true (fun x => x) gstart ex_moved2) = Ok [Some []; Some [9]; Some [9]].
Proof. vm_compute. reflexivity. Qed.
(** A transient is not to be appended to itself (rrbtree.hpp:786). *)
Example C49_itself : qrun 2 1 true (fun x => x) gstart [QNew; QTransient 0; QPush 1 (1 : N); QAppend false 1 1] = UB.
Proof. reflexivity. Qed.

(** Taking and dropping, of transients and of the vectors they share blocks with. *)
Definition ex_slices : list (qop N) :=
  ex_build ++ [QTransient 2; QDrop 3 4; QUpdate 3 0 (fun _ => 77); QPush 3 23; QPersistent 3; QTake 3 9; QUpdate 3 8 (fun _ => 88); QDrop 1 23;
    QTaken 2 12; QDropped 4 13; QTransient 5; QTake 7 7; QDrop 7 2; QPush 7 66; QAppend false 7 3; QDrop 7 3; QTake 7 8].
Example ex_slices_tidy : tidy [] ex_slices = true.
Proof. vm_compute. reflexivity. Qed.
Example C49_case_slices :
  looks (qrun 2 1 true (fun x => x) gstart ex_slices) =
    Ok [Some []; Some []; Some (nums 0 23); Some (77 :: nums 5 7 ++ [88]); Some (77 :: nums 5 19); Some (nums 0 12);
        Some (nums 17 7); Some ([5; 6; 66; 77] ++ nums 5 4)].
Proof. vm_compute. reflexivity. Qed.

(** * C50 *)
(** Dropping in place keeps the elements that are left, if they survive being moved to themselves. *)
Theorem C50_drop_in_place_partial : forall T B BL nm selfmv (os : list (qop T)) st xs i n x e, 2 <= B ->
  (nm = true -> forall y, selfmv y = y) -> tidy [] (os ++ [QDrop i n]) = true ->
  qrun B BL nm selfmv gstart os = Ok (st, xs) -> gv_at st i = VTra x e ->
  exists l, holds B BL (gs_heap st) x l /\
    (too_deep B BL (gt_lv x) l \/
     exists st' x', qstep B BL nm selfmv st (QDrop i n) = Ok (st', ONone) /\ gv_at st' i = VTra x' e /\
       holds B BL (gs_heap st') x' (skipn (N.to_nat n) l)).
Proof.
  intros T B BL nm selfmv os st xs i n x e HB Hnm Ht E Ex. rewrite tidy_app in Ht. apply andb_prop in Ht as [Ht1 Ht2].
  destruct (run_ok B BL HB nm selfmv Hnm os [] gstart [] (start_ok B BL HB) ltac:(constructor) Ht1) as (st1 & xs1 & s & E1 & _ & H1 & K1).
  rewrite E in E1. injection E1 as <- <-. cbn [tidy] in Ht2. rewrite andb_true_r in Ht2.
  pose proof (shows_at _ _ _ _ i (PI_shows B BL st s HB H1)) as S1. rewrite Ex in S1.
  pose proof (proj1 (tidy_at _ _ _ K1 Ht2)) as Hm.
  destruct (qv_at s i) as [| |l|] eqn:Eq; try easy. exists l. split; [exact S1|].
  destruct (step_ok B BL HB nm selfmv Hnm _ st s (QDrop i n) H1 K1 Ht2) as (st' & y & Es & Hy & H').
  pose proof (shows_at _ _ _ _ i (PI_shows B BL st' _ HB H')) as S2.
  assert (i < length s)%nat as Li by (apply (nth_some i _ XGone); unfold qv_at in Eq; congruence).
  destruct y as [|d].
  - right. cbn [qspec] in S2. rewrite Eq in S2. unfold qv_at in S2. rewrite nth_upd, Nat.eqb_refl, (proj2 (Nat.ltb_lt _ _) Li) in S2.
    destruct (gv_at st' i) as [|x'|x' e'] eqn:Ex'; try easy. exists st', x'. split; [exact Es|]. split; [|exact S2].
    rewrite Ex'. f_equal. cbn [qstep] in Es. rewrite Ex in Es. destruct (gsmall B BL x); [|discriminate Es].
    destruct (gdo (gdrop_mut B BL nm selfmv gempty e x n) st) as [[z st2]|] eqn:Eg; [|discriminate Es]. cbn [rbind] in Es. injection Es as <-.
    apply gdo_vars in Eg. unfold gv_at in Ex', Ex. cbn [set_var gs_vars] in Ex'. rewrite Eg, nth_upd, Nat.eqb_refl in Ex'.
    destruct (Nat.ltb_spec i (length (gs_vars st))) as [L|L]; [now injection Ex' as _ ->|discriminate Ex'].
  - left. cbn [qsees] in Hy. destruct Hy as (l' & El & Hd). rewrite Eq in El. injection El as <-.
    cbn [qstep] in Es. rewrite Ex in Es. destruct (gsmall B BL x); [|now injection Es as _ <-].
    destruct (gdo (gdrop_mut B BL nm selfmv gempty e x n) st) as [[z st2]|] eqn:Eg; discriminate Es.
Qed.
Print Assumptions C50_drop_in_place_partial.

(** If they do not, it does not: elements that are sequences themselves and are empty after
    [x = std::move(x)], as strings and vectors of libstdc++ are.  Nine of them, and two (a whole leaf)
    dropped: the two of the leaf that is the first one now are empty. *)
Definition ex_strings : list (qop (list N)) :=
  [QNew; QTransient 0] ++ map (fun k => QPush 1 [k; k]) (nums 0 9) ++ [QDrop 1 2].
Theorem C50_drop_in_place_refuted : exists T (selfmv : T -> T) (os : list (qop T)) st xs, tidy [] os = true /\
  qrun 2 1 true selfmv gstart os = Ok (st, xs) /\
  forall s, qspecs 2 1 [] os xs s -> ~ Forall2 (shows 2 1 (gs_heap st)) (gs_vars st) s.
Proof.
  destruct (qrun 2 1 true (fun _ => []) gstart ex_strings) as [[st xs]|] eqn:E; [|vm_compute in E; discriminate E].
  exists (list N), (fun _ => []), ex_strings, st, xs. split; [vm_compute; reflexivity|]. split; [exact E|].
  vm_compute in E. injection E as <- <-. intros s Hs Hf.
  cbn in Hs. repeat match type of Hs with _ /\ _ => destruct Hs as [_ Hs] end. subst s.
  apply (shows_at 2 1 (mkS _ 0%nat _) _ 1) in Hf. cbn [gv_at qv_at gs_vars nth shows] in Hf. destruct Hf as [Hf _]. vm_compute in Hf. discriminate Hf.
Qed.
Print Assumptions C50_drop_in_place_refuted.
Definition looks1 (r : res (gstate (list N) * list qobs)) : res (option (list (list N))) :=
  ' (st, _) <- r ;; Ok (match gv_at st 1 with VTra x _ => reads 2 1 (gs_heap st) x | _ => None end).
Example C50_lost : looks1 (qrun 2 1 true (fun _ => []) gstart ex_strings) = Ok (Some [[]; []; [4; 4]; [5; 5]; [6; 6]; [7; 7]; [8; 8]]).
Proof. vm_compute. reflexivity. Qed.
(** Nothing is lost when elements are copied, or when the cut is inside a leaf. *)
Example C50_copied : looks1 (qrun 2 1 false (fun _ => []) gstart ex_strings) = Ok (Some (skipn 2 (map (fun k => [k; k]) (nums 0 9)))).
Proof. vm_compute. reflexivity. Qed.
Example C50_inside : looks1 (qrun 2 1 true (fun _ => []) gstart (removelast ex_strings ++ [QDrop 1 3])) = Ok (Some (skipn 3 (map (fun k => [k; k]) (nums 0 9)))).
Proof. vm_compute. reflexivity. Qed.
