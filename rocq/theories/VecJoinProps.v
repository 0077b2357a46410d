(** Properties of flex_vectors on counted memory: operations made of concatenations (C40, C41), and
    rvalues given to prepend (C42); exceptions in append (C43). *)
From Coq Require Import List NArith Arith Bool Lia.
From Verif Require Import Common NList Rrb RrbSpec AtomProofs RcHeap RcProofs RcExn VecHeap VecNodes VecTree VecTreeProofs VecConcat
  VecConcatTree VecProgSpec VecProg ProgVars VecProgProofs VecHeapProps.
Import ListNotations.
Set Default Goal Selector "!".

Section Props.
(** Logarithms of the number of children and of elements of a node. *)
Variables B BL : N.
Context {T : Type}.
(** What a moved-from element is, and whether moving elements may throw. *)
Variable gone : T -> T.
Variable nm : bool.
Notation heap := (heap (vbody T)).
Notation prun := (prun B BL gone nm root0 tail0).
Notation pspec := (pspec gone).
Notation psees := (psees B BL).
Notation pspecs := (pspecs B BL gone).
Notation vstart := (@vstart T).
Notation pinv := (vinv vptr (@prel B BL T) (base root0 tail0) bases).
Notation sq_at := (@sq_at T).
Notation careful := (careful B BL gone nm root0 tail0).
Notation wide := (@wide T B).
Notation shows := (shows B BL gone nm).
Notation shallow := (@shallow T).

(** *** Operations made of others *)
(** push_front, insert of an element and of a container, erase of a range. *)
Inductive dop : Type :=
| DPushFront (v : T)
| DInsert (p : N) (v : T)
| DInsertAll (p : N) (j : nat)
| DErase (p q : N).
Definition dspec (cs : nat -> list T) (d : dop) (m : list T) : list T :=
  match d with
  | DPushFront v => v :: m
  | DInsert p v => firstn (N.to_nat p) m ++ v :: skipn (N.to_nat p) m
  | DInsertAll p j => firstn (N.to_nat p) m ++ cs j ++ skipn (N.to_nat p) m
  | DErase p q => if (p <? q)%N then firstn (N.to_nat p) m ++ skipn (N.to_nat q) m else m
  end.
(** The statements, with the temporaries and their destruction, for a container in variable [i]
    that is kept, and the variable with the result: flex_vector.hpp:268-271, 439-442, 451-454,
    477-480, 487-490.  Parameters that containers are passed in are copies.  erase(pos) is
    erase(pos, pos + 1). *)
Definition derived (i n : nat) (d : dop) : list (pop T) * nat :=
  match d with
  | DPushFront v =>
      ([PNew true; PMutate true n (VPush v) []; PConcat CAppend n i []; PMove n; PDestroy n], n + 1)
  | DInsert p v =>
      ([PApply i (VTake p) []; PMutate true n (VPush v) []; PApply i (VDrop p) [];
        PConcat CAppendMove n (n + 1) []; PMove n; PDestroy (n + 1); PDestroy n], n + 2)
  | DInsertAll p j =>
      ([PCopy j; PApply i (VTake p) []; PConcat CAppendMove (n + 1) n []; PApply i (VDrop p) [];
        PConcat CAppendMove (n + 1) (n + 2) []; PMove (n + 1); PDestroy (n + 2); PDestroy (n + 1); PDestroy n], n + 3)
  | DErase p q =>
      if (p <? q)%N then
        ([PApply i (VTake p) []; PApply i (VDrop q) []; PConcat CAppendMove n (n + 1) [];
          PMove n; PDestroy (n + 1); PDestroy n], n + 2)
      else ([PCopy i], n)
  end.
(** The same for a container that is an rvalue, which gets the result: flex_vector.hpp:443-449,
    455-460, 481-485, 491-499.  There is no such push_front. *)
Definition derived_move (i n : nat) (d : dop) : list (pop T) :=
  match d with
  | DPushFront v => []
  | DInsert p v =>
      [PApply i (VDrop p) []; PMutate true i (VTake p) []; PMutate true i (VPush v) [];
       PConcat CAppendMove i n []; PDestroy n]
  | DInsertAll p j =>
      [PCopy j; PApply i (VDrop p) []; PMutate true i (VTake p) []; PConcat CAppendMove i n [];
       PConcat CAppendMove i (n + 1) []; PDestroy (n + 1); PDestroy n]
  | DErase p q =>
      if (p <? q)%N then
        [PApply i (VDrop q) []; PMutate true i (VTake p) []; PConcat CAppendMove i n []; PDestroy n]
      else []
  end.
Definition dallowed (l : list vvar) (d : dop) : Prop :=
  match d with DInsertAll _ j => exists y, nth_error l j = Some (HHas true y) | _ => True end.

Lemma sq_new (s l : list (sq T)) k : sq_at (s ++ l) (length s + k) = nth k l QGone.
Proof. unfold VecProgSpec.sq_at. rewrite app_nth2 by lia. f_equal. lia. Qed.
Lemma upd_new {A} (s l : list A) k y : update_at (length s + k) y (s ++ l) = s ++ update_at k y l.
Proof. induction s as [|a s IH]; cbn; congruence. Qed.
Lemma upd_at {A} (s l : list A) x y : update_at (length s) y (s ++ x :: l) = s ++ y :: l.
Proof. induction s as [|a s IH]; cbn; congruence. Qed.
Lemma upd_old {A} (s l : list A) y : forall i, i < length s -> update_at i y (s ++ l) = update_at i y s ++ l.
Proof. induction s as [|a s IH]; intros [|i] H; cbn in *; try lia; [reflexivity|]. f_equal. apply IH. lia. Qed.
Lemma upd_length {A} (s : list A) y : forall i, length (update_at i y s) = length s.
Proof. induction s as [|a s IH]; intros [|i]; cbn; congruence || (f_equal; auto). Qed.
Lemma sq_upd (s : list (sq T)) y : forall i, i < length s -> sq_at (update_at i y s) i = y.
Proof. unfold VecProgSpec.sq_at. induction s as [|a s IH]; intros [|i] H; cbn in *; try lia; [reflexivity|]. apply IH. lia. Qed.
Lemma sq_upd_other (s : list (sq T)) y : forall i j, i <> j -> sq_at (update_at i y s) j = sq_at s j.
Proof. unfold VecProgSpec.sq_at. induction s as [|a s IH]; intros [|i] [|j] H; cbn in *; try lia; try reflexivity. apply IH. lia. Qed.
Lemma upd_twice {A} (s : list A) x y : forall i, update_at i x (update_at i y s) = update_at i x s.
Proof. induction s as [|a s IH]; intros [|i]; cbn; congruence || (f_equal; auto). Qed.

Lemma do_cons s o os xs s' : pspecs s (o :: os) xs s' -> shallow xs ->
  exists x xs', (forall d, x <> SDeep d) /\ shallow xs' /\ psees s o x /\ pspecs (pspec s o x) os xs' s'.
Proof.
  intros H Hs. destruct xs as [|x xs]; cbn in H; [easy|]. exists x, xs. split; [intros d ->; apply (Hs d); now left|].
  split; [intros d Hd; apply (Hs d); now right|exact H].
Qed.
Lemma do_apply s i o m os xs s' : pspecs s (PApply i o [] :: os) xs s' -> shallow xs -> sq_at s i = QHas true m ->
  exists xs', shallow xs' /\ pspecs (s ++ [QHas true (vstep o m)]) os xs' s'.
Proof.
  intros H Hs E. destruct (do_cons _ _ _ _ _ H Hs) as (x & xs' & Hd & Hs' & S1 & H'). exists xs'. split; [exact Hs'|].
  cbn [VecProgSpec.pspec] in H'. rewrite E in H'. assert (offers true o = true) as Eo by now destruct o. rewrite Eo in H'.
  destruct x as [| | |d| | |]; try (destruct o; now cbn in S1). now destruct (Hd d).
Qed.
Lemma do_mutate s i o m os xs s' : pspecs s (PMutate true i o [] :: os) xs s' -> shallow xs -> sq_at s i = QHas true m ->
  exists xs', shallow xs' /\ pspecs (update_at i (QHas true (vstep o m)) s) os xs' s'.
Proof.
  intros H Hs E. destruct (do_cons _ _ _ _ _ H Hs) as (x & xs' & Hd & Hs' & S1 & H'). exists xs'. split; [exact Hs'|].
  cbn [VecProgSpec.pspec] in H'. rewrite E in H'. assert (same true true && offers true o = true)%bool as Eo by now destruct o. rewrite Eo in H'.
  destruct x as [| | |d| | |]; try (destruct o; cbn in S1; easy || now destruct S1). now destruct (Hd d).
Qed.
Lemma do_append s i j a b os xs s' : pspecs s (PConcat CAppend i j [] :: os) xs s' -> shallow xs ->
  sq_at s i = QHas true a -> sq_at s j = QHas true b ->
  exists xs', shallow xs' /\ pspecs (update_at i (QHas true (a ++ b)) s) os xs' s'.
Proof.
  intros H Hs E F. destruct (do_cons _ _ _ _ _ H Hs) as (x & xs' & Hd & Hs' & S1 & H'). exists xs'. split; [exact Hs'|].
  cbn [VecProgSpec.pspec] in H'. rewrite E, F in H'.
  destruct x as [| | |d| | |]; try (now cbn in S1). now destruct (Hd d).
Qed.
Lemma do_append_move s i j a b os xs s' : pspecs s (PConcat CAppendMove i j [] :: os) xs s' -> shallow xs ->
  sq_at s i = QHas true a -> sq_at s j = QHas true b -> j < length s ->
  exists xs' b', shallow xs' /\ pspecs (update_at i (QHas true (a ++ b)) (update_at j (QHas true b') s)) os xs' s'.
Proof.
  intros H Hs E F Lj. destruct (do_cons _ _ _ _ _ H Hs) as (x & xs' & Hd & Hs' & S1 & H'). exists xs'.
  cbn [VecProgSpec.pspec] in H'. rewrite E, F in H'.
  destruct x as [| | |d| | |k]; try (now cbn in S1); [|now destruct (Hd d)|eexists; split; [exact Hs'|exact H']].
  exists b. split; [exact Hs'|]. rewrite (set_same s j); [exact H'|]. rewrite <- F. unfold VecProgSpec.sq_at. now apply nth_error_nth'.
Qed.
Lemma do_new s os xs s' : pspecs s (PNew true :: os) xs s' -> shallow xs ->
  exists xs', shallow xs' /\ pspecs (s ++ [QHas true []]) os xs' s'.
Proof. intros H Hs. destruct (do_cons _ _ _ _ _ H Hs) as (x & xs' & Hd & Hs' & S1 & H'). eauto. Qed.
Lemma do_copy s i m os xs s' : pspecs s (PCopy i :: os) xs s' -> shallow xs -> sq_at s i = QHas true m ->
  exists xs', shallow xs' /\ pspecs (s ++ [QHas true m]) os xs' s'.
Proof. intros H Hs E. destruct (do_cons _ _ _ _ _ H Hs) as (x & xs' & Hd & Hs' & S1 & H'). cbn in H'. rewrite E in H'. eauto. Qed.
Lemma do_move s i m os xs s' : pspecs s (PMove i :: os) xs s' -> shallow xs -> sq_at s i = QHas true m ->
  exists xs', shallow xs' /\ pspecs (update_at i (QHas true []) s ++ [QHas true m]) os xs' s'.
Proof. intros H Hs E. destruct (do_cons _ _ _ _ _ H Hs) as (x & xs' & Hd & Hs' & S1 & H'). cbn in H'. rewrite E in H'. eauto. Qed.
Lemma do_destroy s i os xs s' : pspecs s (PDestroy i :: os) xs s' -> shallow xs ->
  exists xs', shallow xs' /\ pspecs (update_at i QGone s) os xs' s'.
Proof. intros H Hs. destruct (do_cons _ _ _ _ _ H Hs) as (x & xs' & Hd & Hs' & S1 & H'). eauto. Qed.
Lemma do_nil s xs s' : pspecs s [] xs s' -> s' = s.
Proof. destruct xs; cbn; [auto|easy]. Qed.
Ltac tidy H := repeat (first [rewrite <- !app_assoc in H | rewrite upd_new in H | rewrite upd_at in H]; cbn [app update_at] in H).
Ltac look := repeat first [assumption | rewrite sq_new | rewrite sq_last | (rewrite sq_old by lia)]; cbn [nth]; try reflexivity.

Lemma derived_spec s cs i d m : has s i m -> match d with DInsertAll _ j => has s j (cs j) | _ => True end ->
  forall xs s', pspecs s (fst (derived i (length s) d)) xs s' -> shallow xs ->
  exists k, s' = s ++ k /\ sq_at s' (snd (derived i (length s) d)) = QHas true (dspec cs d m).
Proof.
  intros [Li Ei] Hd xs s' H Hs. destruct d as [v|p v|p j|p q]; cbn [derived fst snd dspec] in *.
  - destruct (do_new _ _ _ _ H Hs) as (x1 & Hs1 & H1).
    destruct (do_mutate _ _ _ [] _ _ _ H1 Hs1) as (x2 & Hs2 & H2); [look|]. tidy H2.
    destruct (do_append _ _ _ [v] m _ _ _ H2 Hs2) as (x3 & Hs3 & H3); [look|look|]. tidy H3.
    edestruct do_move as (x4 & Hs4 & H4); [exact H3|exact Hs3|look|]. tidy H4.
    destruct (do_destroy _ _ _ _ _ H4 Hs4) as (x5 & Hs5 & H5). tidy H5.
    apply do_nil in H5. subst s'. eexists. split; [reflexivity|]. look.
  - destruct (do_apply _ _ _ m _ _ _ H Hs Ei) as (x1 & Hs1 & H1).
    destruct (do_mutate _ _ _ (vstep (VTake p) m) _ _ _ H1 Hs1) as (x2 & Hs2 & H2); [look|]. tidy H2.
    destruct (do_apply _ _ _ m _ _ _ H2 Hs2) as (x3 & Hs3 & H3); [look|]. tidy H3.
    edestruct do_append_move as (x4 & b' & Hs4 & H4);
      [exact H3|exact Hs3|look|look|rewrite app_length; cbn; lia|]. tidy H4.
    edestruct do_move as (x5 & Hs5 & H5); [exact H4|exact Hs4|look|]. tidy H5.
    destruct (do_destroy _ _ _ _ _ H5 Hs5) as (x6 & Hs6 & H6). tidy H6.
    destruct (do_destroy _ _ _ _ _ H6 Hs6) as (x7 & Hs7 & H7). tidy H7.
    apply do_nil in H7. subst s'. eexists. split; [reflexivity|]. look. cbn [vstep]. now rewrite <- ?app_assoc.
  - destruct Hd as [Lj Ej]. destruct (do_copy _ _ _ _ _ _ H Hs Ej) as (x1 & Hs1 & H1).
    destruct (do_apply _ _ _ m _ _ _ H1 Hs1) as (x2 & Hs2 & H2); [look|]. tidy H2.
    edestruct do_append_move as (x3 & b3 & Hs3 & H3);
      [exact H2|exact Hs2|look|look|rewrite app_length; cbn; lia|]. tidy H3.
    destruct (do_apply _ _ _ m _ _ _ H3 Hs3) as (x4 & Hs4 & H4); [look|]. tidy H4.
    edestruct do_append_move as (x5 & b5 & Hs5 & H5);
      [exact H4|exact Hs4|look|look|rewrite app_length; cbn; lia|]. tidy H5.
    edestruct do_move as (x6 & Hs6 & H6); [exact H5|exact Hs5|look|]. tidy H6.
    destruct (do_destroy _ _ _ _ _ H6 Hs6) as (x7 & Hs7 & H7). tidy H7.
    destruct (do_destroy _ _ _ _ _ H7 Hs7) as (x8 & Hs8 & H8). tidy H8.
    destruct (do_destroy _ _ _ _ _ H8 Hs8) as (x9 & Hs9 & H9). tidy H9.
    apply do_nil in H9. subst s'. eexists. split; [reflexivity|]. look.
  - destruct (p <? q)%N; cbn [fst snd] in *.
    + destruct (do_apply _ _ _ m _ _ _ H Hs Ei) as (x1 & Hs1 & H1).
      destruct (do_apply _ _ _ m _ _ _ H1 Hs1) as (x2 & Hs2 & H2); [look|]. tidy H2.
      edestruct do_append_move as (x3 & b3 & Hs3 & H3);
      [exact H2|exact Hs2|look|look|rewrite app_length; cbn; lia|]. tidy H3.
      edestruct do_move as (x4 & Hs4 & H4); [exact H3|exact Hs3|look|]. tidy H4.
      destruct (do_destroy _ _ _ _ _ H4 Hs4) as (x5 & Hs5 & H5). tidy H5.
      destruct (do_destroy _ _ _ _ _ H5 Hs5) as (x6 & Hs6 & H6). tidy H6.
      apply do_nil in H6. subst s'. eexists. split; [reflexivity|]. look.
    + destruct (do_copy _ _ _ _ _ _ H Hs Ei) as (x1 & Hs1 & H1). apply do_nil in H1. subst s'.
      eexists. split; [reflexivity|]. look.
Qed.
Lemma sq_new2 (s l : list (sq T)) n k : length s = n -> sq_at (s ++ l) (n + k) = nth k l QGone.
Proof. intros <-. apply sq_new. Qed.
Lemma sq_last2 (s l : list (sq T)) n x : length s = n -> sq_at (s ++ x :: l) n = x.
Proof. intros <-. apply sq_last. Qed.
Lemma upd_new2 {A} (s l : list A) n k y : length s = n -> update_at (n + k) y (s ++ l) = s ++ update_at k y l.
Proof. intros <-. apply upd_new. Qed.
Lemma upd_at2 {A} (s l : list A) n x y : length s = n -> update_at n y (s ++ x :: l) = s ++ y :: l.
Proof. intros <-. apply upd_at. Qed.
Lemma derived_move_spec s cs i d m : has s i m -> match d with DInsertAll _ j => has s j (cs j) | DPushFront _ => False | _ => True end ->
  forall xs s', pspecs s (derived_move i (length s) d) xs s' -> shallow xs ->
  exists k, s' = update_at i (QHas true (dspec cs d m)) s ++ k.
Proof.
  intros [Li Ei] Hd xs s' H Hs.
  assert (Lu : forall y, length (update_at i y s) = length s) by (intros; apply upd_length).
  assert (Lo : forall l, sq_at (s ++ l) i = QHas true m) by (intros; now rewrite sq_old).
  assert (Lv : forall y l, sq_at (update_at i y s ++ l) i = y) by (intros; rewrite sq_old by (rewrite Lu; lia); now apply sq_upd).
  assert (U1 : forall y l, update_at i y (s ++ l) = update_at i y s ++ l) by (intros; now apply upd_old).
  assert (U2 : forall y z l, update_at i y (update_at i z s ++ l) = update_at i y s ++ l).
  { intros. rewrite upd_old by (rewrite Lu; lia). now rewrite upd_twice. }
  Ltac tidy2 Lu U1 U2 H :=
    repeat (first [rewrite <- !app_assoc in H | rewrite U2 in H | rewrite U1 in H
                  | rewrite upd_new2 in H by apply Lu | rewrite upd_at2 in H by apply Lu]; cbn [app update_at] in H).
  Ltac look2 Lu Lv Lo := first [assumption | rewrite Lv | rewrite Lo | rewrite sq_new2 by (apply Lu || reflexivity)
                               | rewrite sq_last2 by (apply Lu || reflexivity)]; cbn [nth]; reflexivity.
  Ltac long := rewrite app_length, ?upd_length; cbn; lia.
  destruct d as [v|p v|p j|p q]; cbn [derived_move dspec] in *; [easy| | |].
  - destruct (do_apply _ _ _ m _ _ _ H Hs Ei) as (x1 & Hs1 & H1).
    edestruct do_mutate as (x2 & Hs2 & H2); [exact H1|exact Hs1|look2 Lu Lv Lo|]. tidy2 Lu U1 U2 H2.
    edestruct do_mutate as (x3 & Hs3 & H3); [exact H2|exact Hs2|look2 Lu Lv Lo|]. tidy2 Lu U1 U2 H3.
    edestruct do_append_move as (x4 & b4 & Hs4 & H4); [exact H3|exact Hs3|look2 Lu Lv Lo|look2 Lu Lv Lo|long|]. tidy2 Lu U1 U2 H4.
    destruct (do_destroy _ _ _ _ _ H4 Hs4) as (x5 & Hs5 & H5). tidy2 Lu U1 U2 H5.
    apply do_nil in H5. subst s'. eexists. cbn [vstep]. now rewrite <- ?app_assoc.
  - destruct Hd as [Lj Ej]. destruct (do_copy _ _ _ _ _ _ H Hs Ej) as (x1 & Hs1 & H1).
    edestruct do_apply as (x2 & Hs2 & H2); [exact H1|exact Hs1|look2 Lu Lv Lo|]. tidy2 Lu U1 U2 H2.
    edestruct do_mutate as (x3 & Hs3 & H3); [exact H2|exact Hs2|look2 Lu Lv Lo|]. tidy2 Lu U1 U2 H3.
    edestruct do_append_move as (x4 & b4 & Hs4 & H4); [exact H3|exact Hs3|look2 Lu Lv Lo|look2 Lu Lv Lo|long|]. tidy2 Lu U1 U2 H4.
    edestruct do_append_move as (x5 & b5 & Hs5 & H5); [exact H4|exact Hs4|look2 Lu Lv Lo|look2 Lu Lv Lo|long|]. tidy2 Lu U1 U2 H5.
    destruct (do_destroy _ _ _ _ _ H5 Hs5) as (x6 & Hs6 & H6). tidy2 Lu U1 U2 H6.
    destruct (do_destroy _ _ _ _ _ H6 Hs6) as (x7 & Hs7 & H7). tidy2 Lu U1 U2 H7.
    apply do_nil in H7. subst s'. eexists. cbn [vstep]. now rewrite <- ?app_assoc.
  - destruct (p <? q)%N.
    + destruct (do_apply _ _ _ m _ _ _ H Hs Ei) as (x1 & Hs1 & H1).
      edestruct do_mutate as (x2 & Hs2 & H2); [exact H1|exact Hs1|look2 Lu Lv Lo|]. tidy2 Lu U1 U2 H2.
      edestruct do_append_move as (x4 & b4 & Hs4 & H4); [exact H2|exact Hs2|look2 Lu Lv Lo|look2 Lu Lv Lo|long|]. tidy2 Lu U1 U2 H4.
      destruct (do_destroy _ _ _ _ _ H4 Hs4) as (x5 & Hs5 & H5). tidy2 Lu U1 U2 H5.
      apply do_nil in H5. subst s'. eexists. reflexivity.
    + apply do_nil in H. subst s'. exists []. rewrite app_nil_r. symmetry. apply set_same.
      rewrite <- Ei. unfold VecProgSpec.sq_at. now apply nth_error_nth'.
Qed.

(** The variables a statement may change. *)
Definition targets (o : pop T) : list nat :=
  match o with
  | PMove i | PAssign i _ | PDestroy i | PMutate _ i _ _ | PConcat CAppend i _ _ | PConcat (CPrepend | CPrependMove) _ i _ => [i]
  | PMoveAssign i j | PConcat CAppendMove i j _ => [i; j]
  | _ => []
  end.
Lemma spec_other s o x j : j < length s -> ~ In j (targets o) -> j < length (pspec s o x) /\ sq_at (pspec s o x) j = sq_at s j.
Proof.
  intros Lj Hj.
  assert (A : forall s1 q, length s1 = length s -> sq_at s1 j = sq_at s j -> j < length (s1 ++ [q]) /\ sq_at (s1 ++ [q]) j = sq_at s j).
  { intros s1 q H1 H2. split; [rewrite app_length; lia|]. rewrite sq_old by lia. exact H2. }
  assert (U : forall s1 i y, length s1 = length s -> sq_at s1 j = sq_at s j -> i <> j ->
    length (update_at i y s1) = length s /\ sq_at (update_at i y s1) j = sq_at s j).
  { intros s1 i y H1 H2 H3. rewrite upd_length. split; [exact H1|]. now rewrite sq_upd_other. }
  assert (U1 : forall i y, i <> j -> length (update_at i y s) = length s /\ sq_at (update_at i y s) j = sq_at s j) by (intros; now apply U).
  assert (D : forall s1, length s1 = length s /\ sq_at s1 j = sq_at s j -> j < length s1 /\ sq_at s1 j = sq_at s j) by (intros s1 [-> H]; auto).
  assert (D0 : j < length s /\ sq_at s j = sq_at s j) by auto.
  destruct o as [fx|i|i|i|i k|i k|i|i o f|fx i o f|m i k f|i k|i]; cbn [VecProgSpec.pspec targets In] in *; auto.
  - destruct (sq_at s i); [auto|]. apply A; apply U1; tauto.
  - destruct (sq_at s i) as [|[|] m]; auto.
  - destruct (sq_at s i), (sq_at s k); auto. destruct (same _ _); auto. apply D, U1. tauto.
  - destruct (sq_at s i), (sq_at s k); auto. destruct (same _ _); auto.
    destruct (U1 k (QHas fx l)) as [H1 H2]; [tauto|]. apply D, U; tauto.
  - apply D, U1. tauto.
  - destruct (sq_at s i); auto. destruct (offers _ _); auto. destruct x; auto.
  - destruct (sq_at s i); auto. destruct (_ && _)%bool; auto. destruct x; auto; try (apply D, U1; tauto). destruct o; auto. apply D, U1; tauto.
  - destruct (sq_at s i) as [|[|] a]; [destruct m; auto| |destruct m; auto]. destruct (sq_at s k) as [|[|] b]; [destruct m; auto| |destruct m; auto].
    destruct m, x; cbn [In] in *; auto; try (apply D, U1; tauto).
    destruct (U1 k (QHas true (map gone (firstn (N.to_nat k0) b) ++ skipn (N.to_nat k0) b))) as [H1 H2]; [tauto|]. apply D, U; tauto.
Qed.
Lemma specs_other os j : (forall o, In o os -> ~ In j (targets o)) -> forall s xs s', pspecs s os xs s' -> j < length s ->
  sq_at s' j = sq_at s j.
Proof.
  induction os as [|o os IH]; intros Ht s xs s' H Lj.
  - now apply do_nil in H as ->.
  - destruct xs as [|x xs]; cbn in H; [easy|]. destruct H as [_ H].
    destruct (spec_other s o x j Lj) as [L1 E1]; [apply Ht; now left|]. rewrite <- E1. eapply IH; [|exact H|exact L1].
    intros o' Ho. apply Ht. now right.
Qed.
Lemma derived_targets i n d j : j < n -> forall o, In o (fst (derived i n d)) -> ~ In j (targets o).
Proof.
  intros Hj o. destruct d as [v|p v|p k|p q]; cbn [derived]; try destruct (p <? q)%N; cbn [fst In]; intros Ho;
    repeat (destruct Ho as [Ho|Ho]; [subst o; cbn; lia|]); easy.
Qed.
Lemma derived_move_targets i n d j : j < n -> j <> i -> forall o, In o (derived_move i n d) -> ~ In j (targets o).
Proof.
  intros Hj Hi o. destruct d as [v|p v|p k|p q]; cbn [derived_move]; try destruct (p <? q)%N; cbn [In]; intros Ho;
    repeat (destruct Ho as [Ho|Ho]; [subst o; cbn; lia|]); easy.
Qed.

Lemma derived_safe l i d : (2 <= B)%N -> i < length l -> dallowed l d ->
  let os := fst (derived i (length l) d) in safe os /\ Forall wide os.
Proof.
  intros H2 Hi Hd. destruct d as [v|p v|p j|p q]; cbn [derived fst]; try destruct (p <? q)%N; cbn [fst];
    (split; repeat (constructor; [cbn; repeat split; auto; try discriminate; right; lia|]); constructor).
Qed.
Lemma derived_move_safe l i d : (2 <= B)%N -> i < length l -> dallowed l d ->
  let os := derived_move i (length l) d in safe os /\ Forall wide os.
Proof.
  intros H2 Hi Hd. destruct d as [v|p v|p j|p q]; cbn [derived_move]; try destruct (p <? q)%N;
    (split; repeat (constructor; [cbn; repeat split; auto; try discriminate; right; lia|]); constructor).
Qed.

(** From every state a program can reach: push_front, insert and erase give a container with
    the specified elements, to a new variable or in place; all other variables show what they
    showed before, and memory is in order. *)
Theorem C40_made_of_others_partial pre l xs h i x d : (2 <= B)%N ->
  careful [] pre vstart -> Forall wide pre ->
  prun [] pre vstart = Ok ((l, xs), h) -> nth_error l i = Some (HHas true x) -> dallowed l d ->
  let n := length l in
  exists lp xp hp lt xt ht cs,
    prun l (fst (derived i n d)) h = Ok ((lp, xp), hp) /\
    prun l (derived_move i n d) h = Ok ((lt, xt), ht) /\
    (shallow xp -> shows lp hp (snd (derived i n d)) (dspec cs d (cs i))) /\
    (shallow xt -> (forall v, d <> DPushFront v) -> shows lt ht i (dspec cs d (cs i))) /\
    in_order lp hp /\ in_order lt ht /\
    (forall j fy y, nth_error l j = Some (HHas fy y) ->
       shows l h j (cs j) /\ shows lp hp j (cs j) /\ (j <> i -> shows lt ht j (cs j))).
Proof.
  intros H2 Hp Hw E Ei Ha n. assert (HB : (1 <= B)%N) by lia.
  destruct (run_start B BL gone nm pre HB Hp Hw) as (l0 & xs0 & h0 & s & E0 & S0 & I).
  rewrite E in E0. injection E0 as <- <- <-. destruct (held _ _ _ _ _ I) as (cs & Hat).
  destruct (Hat i true x Ei) as (Li & Em).
  assert (n = length s) as En by (unfold n; now rewrite (len_inv _ _ _ _ _ I)).
  assert (Hi : i < length l) by (apply nth_error_Some; congruence).
  destruct (derived_safe l i d H2 Hi Ha) as [A1 A2]. destruct (derived_move_safe l i d H2 Hi Ha) as [A3 A4].
  destruct (run_from B BL gone nm l s h _ HB I (safe_careful _ _ _ _ _ A1 _ _) A2) as (lp & xp & hp & s1 & Ep & Sp & Ip).
  destruct (run_from B BL gone nm l s h _ HB I (safe_careful _ _ _ _ _ A3 _ _) A4) as (lt & xt & ht & s2 & Et & St & It).
  fold n in Sp, St, Ep, Et. rewrite En in Sp, St.
  exists lp, xp, hp, lt, xt, ht, cs. split; [exact Ep|]. split; [exact Et|].
  assert (Dj : match d with DInsertAll _ j => has s j (cs j) | _ => True end).
  { destruct d; try exact Logic.I. destruct Ha as (y & Ej). exact (Hat _ _ _ Ej). }
  assert (D1 : shallow xp -> exists k, s1 = s ++ k /\ sq_at s1 (snd (derived i (length s) d)) = QHas true (dspec cs d (cs i))).
  { intros Hs. eapply derived_spec; [split; [exact Li|exact Em]|exact Dj|exact Sp|exact Hs]. }
  assert (D2 : shallow xt -> exists k z, s2 = update_at i z s ++ k /\ ((forall v, d <> DPushFront v) -> z = QHas true (dspec cs d (cs i)))).
  { intros Hs. assert (Dp : (exists v, d = DPushFront v) \/ (forall v, d <> DPushFront v)) by (destruct d; eauto; right; discriminate).
    destruct Dp as [[v ->]|Hn].
    - cbn in St. apply do_nil in St. subst s2. exists [], (sq_at s i). split; [|intros F; now destruct (F v)].
      rewrite app_nil_r. symmetry. apply set_same. unfold VecProgSpec.sq_at. now apply nth_error_nth'.
    - destruct (derived_move_spec s cs i d (cs i)) with (xs := xt) (s' := s2) as (k & ->); auto.
      + split; [exact Li|exact Em].
      + destruct d; auto. now destruct (Hn v).
      + eauto. }
  split; [|split; [|split; [|split]]].
  - intros Hs. destruct (D1 Hs) as (k & -> & Ek). eapply inv_shows; [exact HB|exact Ip|]. rewrite En. exact Ek.
  - intros Hs Hn. destruct (D2 Hs) as (k & z & -> & Ez). rewrite Ez in It by exact Hn. eapply inv_shows; [exact HB|exact It|].
    rewrite sq_old by (rewrite upd_length; exact Li). now apply sq_upd.
  - eapply inv_order. exact Ip.
  - eapply inv_order. exact It.
  - intros j fy y Ej. destruct (Hat j fy y Ej) as (Lj & Emj).
    split; [eapply inv_shows; eauto|]. split.
    + eapply inv_shows; [exact HB|exact Ip|]. erewrite specs_other; [exact Emj| |exact Sp|exact Lj]. now apply derived_targets.
    + intros Hji. eapply inv_shows; [exact HB|exact It|]. erewrite specs_other; [exact Emj| |exact St|exact Lj]. now apply derived_move_targets.
Qed.

(** *** C42 *)
(** What goes wrong with [t_j.prepend(std::move(t_i))]: neither is empty, the tail of [t_i] is a
    full leaf, and [t_j] has nothing but a tail. *)
Definition full_onto_tail (h : heap) (x y : htree) : Prop :=
  (0 < ht_size x)%N /\ (0 < ht_size y)%N /\ leaf_size h (ht_tail x) = (2 ^ BL)%N /\ leaf_size h (ht_tail y) = ht_size y.

(** Otherwise, from every state a program can reach, [t_j] gets the elements of both (or, if
    something throws, keeps its own), [t_i] keeps its own, memory is in order, and both can be
    destroyed. *)
Theorem C42_prepend_move_partial pre l xs h i j x y f : (2 <= B)%N ->
  careful [] pre vstart -> Forall wide pre -> prun [] pre vstart = Ok ((l, xs), h) ->
  i <> j -> nth_error l i = Some (HHas true x) -> nth_error l j = Some (HHas true y) -> ~ full_onto_tail h x y ->
  exists l1 o h1 a b, prun l [PConcat CPrependMove i j f] h = Ok ((l1, [o]), h1) /\ in_order l1 h1 /\
    (o = SNone \/ (o = SThrew /\ f <> []) \/ exists d, o = SDeep d) /\
    shows l h i a /\ shows l h j b /\ shows l1 h1 i a /\
    (o = SNone -> shows l1 h1 j (a ++ b)) /\ (o <> SNone -> shows l1 h1 j b) /\
    exists l2 h2, prun l1 [PDestroy i; PDestroy j] h1 = Ok ((l2, [SNone; SNone]), h2) /\ in_order l2 h2.
Proof.
  intros H2 Hp Hw E Hij Ei Ej Hn. assert (HB : (1 <= B)%N) by lia.
  destruct (run_start B BL gone nm pre HB Hp Hw) as (l0 & xs0 & h0 & s & E0 & S0 & I).
  rewrite E in E0. injection E0 as <- <- <-. destruct (held _ _ _ _ _ I) as (cs & Hat).
  destruct (Hat _ _ _ Ei) as (Li & Ea). destruct (Hat _ _ _ Ej) as (Lj & Eb).
  assert (Hc : careful l [PConcat CPrependMove i j f] h).
  { split; [|intros; exact Logic.I]. unfold hazard, vvar_at. rewrite (nth_error_nth _ _ _ Ei), (nth_error_nth _ _ _ Ej).
    intros [F|F]; [now apply Hij|]. apply Hn. exact F. }
  destruct (run_from B BL gone nm l s h [PConcat CPrependMove i j f] HB I Hc) as (l1 & os & h1 & s1 & E1 & S1 & I1); [repeat constructor; exact H2|].
  destruct os as [|o [|o2 os]]; cbn [VecProgSpec.pspecs] in S1; try easy. destruct S1 as [S1 S2]. cbn [VecProgSpec.pspec] in S2. rewrite Ea, Eb in S2.
  exists l1, o, h1, (cs i), (cs j). split; [exact E1|]. split; [eapply inv_order; exact I1|].
  assert (Ho : o = SNone \/ (o = SThrew /\ f <> []) \/ exists d, o = SDeep d) by (destruct o; cbn in S1; eauto; easy).
  split; [exact Ho|]. split; [eapply inv_shows; eauto|]. split; [eapply inv_shows; eauto|].
  assert (Es : o <> SNone -> s1 = s) by (intros F; destruct o; try easy; now destruct F).
  assert (En : o = SNone -> s1 = update_at j (QHas true (cs i ++ cs j)) s) by now intros ->.
  assert (Do : o = SNone \/ o <> SNone) by (destruct o; auto; right; discriminate).
  split; [|split; [|split]].
  - eapply inv_shows; [exact HB|exact I1|]. destruct Do as [D|D]; [rewrite (En D), sq_upd_other by auto|rewrite (Es D)]; exact Ea.
  - intros D. eapply inv_shows; [exact HB|exact I1|]. rewrite (En D). apply sq_upd. exact Lj.
  - intros D. eapply inv_shows; [exact HB|exact I1|]. rewrite (Es D). exact Eb.
  - destruct (run_from B BL gone nm l1 s1 h1 [PDestroy i; PDestroy j] HB I1) as (l2 & os & h2 & s3 & E2 & S3 & I2);
      [apply safe_careful; repeat constructor; discriminate|repeat constructor|].
    destruct os as [|o1 [|o2 [|o3 os]]]; cbn in S3; try easy. destruct S3 as [T1 [T2 _]].
    exists l2, h2. split; [|eapply inv_order; exact I2]. rewrite E2. destruct o1; try easy. now destruct o2.
Qed.
(** Exactly then: without exceptions and when trees are not too deep, memory is in order
    afterwards if and only if the statement does not give a full tail to one that is only a
    tail. *)
Theorem C42_in_order_iff pre l xs h i j x y : (2 <= B)%N ->
  careful [] pre vstart -> Forall wide pre -> prun [] pre vstart = Ok ((l, xs), h) ->
  i <> j -> nth_error l i = Some (HHas true x) -> nth_error l j = Some (HHas true y) ->
  (BL + N.of_nat (ht_lv y) * B < 32)%N -> (ht_size y <= 2 ^ 32)%N ->
  exists l1 h1, prun l [PConcat CPrependMove i j []] h = Ok ((l1, [SNone]), h1) /\
    (in_order l1 h1 <-> ~ full_onto_tail h x y).
Proof.
  intros H2 Hp Hw E Hij Ei Ej Hb1 Hb2. assert (HB : (1 <= B)%N) by lia.
  destruct (run_start B BL gone nm pre HB Hp Hw) as (l0 & xs0 & h0 & s & E0 & S0 & I).
  rewrite E in E0. injection E0 as <- <- <-.
  assert (Vi : vvar_at l i = HHas true x) by (unfold vvar_at; now rewrite (nth_error_nth _ _ _ Ei)).
  assert (Vj : vvar_at l j = HHas true y) by (unfold vvar_at; now rewrite (nth_error_nth _ _ _ Ej)).
  assert (Et : too_big B BL y = false).
  { unfold too_big, sh. apply orb_false_intro; [apply N.leb_gt|apply N.ltb_ge]; assumption. }
  assert (Df : full_onto_tail h x y \/ ~ full_onto_tail h x y).
  { unfold full_onto_tail. destruct (N.lt_decidable 0 (ht_size x)), (N.lt_decidable 0 (ht_size y)),
      (N.eq_dec (leaf_size h (ht_tail x)) (2 ^ BL)), (N.eq_dec (leaf_size h (ht_tail y)) (ht_size y)); tauto. }
  destruct Df as [Df|Df].
  - destruct Df as (Px & Py & Tx & Ty).
    destruct (wp_ok _ _ _ (trapped B BL gone nm root0 tail0 HB l s h i j x y I H2 Hij Vi Vj Et Px Py Tx Ty)) as ([l1 o] & h1 & E1 & Eo & Hin & R & (G & _) & Hr).
    cbn [fst snd] in *. subst o. exists l1, h1. split; [cbn [VecProg.prun]; unfold mbind; rewrite E1; reflexivity|].
    split; [|intros F; exfalso; apply F; now repeat split]. intros O. exfalso.
    assert (In (ht_tail x) (handles l1)) as Hh by (rewrite handles_ptr; exact Hin).
    destruct (io_alive _ _ O (ht_tail x) (ht_tail x) Hh (reaches_refl _ _)) as (c & Hc).
    destruct (io_counts _ _ O _ _ Hc) as [_ Ec].
    cbn [wipe] in G. pose proof (proj1 G (ht_tail x)) as Hg. rewrite Hc in Hg. destruct Hg as [Hg _].
    assert (Eo : forall l, occ (ht_tail x) l = count_occ Nat.eq_dec l (ht_tail x)).
    { clear. generalize (ht_tail x). intros a. induction l as [|z l IH]; cbn; [reflexivity|]. destruct (Nat.eq_dec z a) as [->|Hn].
      - rewrite Nat.eqb_refl. cbn. now rewrite IH.
      - apply Nat.eqb_neq in Hn. rewrite Hn. cbn. exact IH. }
    rewrite occ_app, !Eo, base_count in Hr. rewrite handles_ptr in Ec. unfold refs in Hg. rewrite Eo in Hg.
    assert (El : total (okids (ht_tail x)) h1 = count_occ Nat.eq_dec (links h1) (ht_tail x)).
    { rewrite <- Eo. unfold links. clear. induction h1 as [|o h IH]; cbn; [reflexivity|]. rewrite occ_app, <- IH. destruct o; reflexivity. }
    rewrite El in Hg. unfold ProgVars.roots in Hr. lia.
  - destruct (C42_prepend_move_partial pre l xs h i j x y [] H2 Hp Hw E Hij Ei Ej Df) as (l1 & o & h1 & a & b & E1 & O & Ho & _).
    assert (o = SNone) as ->.
    { cbn [VecProg.prun VecProg.pstep] in E1. rewrite Vi, Vj, Et in E1. destruct Ho as [->|[[-> F]|[d ->]]]; [reflexivity|now destruct F|].
      exfalso. unfold mbind in E1. pose proof Hij as Hij'. apply Nat.eqb_neq in Hij'. rewrite Hij' in E1.
      destruct (vcatch [] (hconcat_mut_lr_r B BL x y) h) as [[[z|] h2]|]; [| |discriminate]; unfold mret in E1; cbn in E1; inversion E1. }
    exists l1, h1. split; [exact E1|]. split; auto.
Qed.
End Props.
Print Assumptions C40_made_of_others_partial.
Print Assumptions C42_prepend_move_partial.
Print Assumptions C42_in_order_iff.

(** *** Concrete vectors *)
(** Two elements in a leaf and four children in an inner node; elements moved from are 0. *)
Section Concrete.
Local Open Scope N_scope.
Notation wrun := (prun 2 1 (fun _ : N => 0) false root0 tail0 []).
Notation start := (@vstart N).
Definition flex (i n k : nat) : list (pop N) := PNew true :: pushes true i n k.

(** Variables of nine, three, two and one elements. *)
Definition prog3 : list (pop N) := flex 0 9 1 ++ flex 1 3 20 ++ flex 2 2 30 ++ flex 3 1 40.
Example C40_made_of_others_nonvacuous : careful 2 1 (fun _ => 0) false root0 tail0 [] prog3 start /\ Forall (wide 2) prog3 /\
  match wrun prog3 start with
  | Ok ((l, _), _) => length l = 4%nat /\ (exists x, nth_error l 0%nat = Some (HHas true x)) /\ dallowed (T := N) l (DInsertAll 4 1)
  | UB => False
  end.
Proof.
  split; [apply careful_b; vm_compute; reflexivity|]. split; [repeat constructor|]. vm_compute. split; [reflexivity|].
  split; eexists; reflexivity.
Qed.
Example prog3_observed :
  seen (wrun (prog3 ++ fst (derived 0 4 (DInsertAll 4 1)) ++ contents 7 13 ++ contents 0 10 ++
              flex 8 1 50 ++ [PConcat CAppendMove 3 8 []] ++ contents 3 3 ++ contents 8 2) start) =
  repeat SNone 28 ++ map SElem [1; 2; 3; 4; 20; 21; 22; 5; 6; 7; 8; 9] ++ [SThrew] ++
  map SElem [1; 2; 3; 4; 5; 6; 7; 8; 9] ++ [SThrew] ++
  [SNone; SNone; SMoved 1; SElem 40; SElem 50; SThrew; SElem 0; SThrew].
Proof. vm_compute. reflexivity. Qed.

Example C42_prepend_move_nonvacuous : careful 2 1 (fun _ => 0) false root0 tail0 [] prog3 start /\ Forall (wide 2) prog3 /\
  match wrun prog3 start with
  | Ok ((l, _), h) =>
      exists x0 x1 x2 x3, l = [HHas true x0; HHas true x1; HHas true x2; HHas true x3] /\
        ~ full_onto_tail 1 h x2 x0 /\ ~ full_onto_tail 1 h x1 x3 /\ full_onto_tail 1 h x2 x3 /\ ht_lv x3 = 0%nat
  | UB => False
  end.
Proof.
  split; [apply careful_b; vm_compute; reflexivity|]. split; [repeat constructor|].
  set (r := wrun prog3 start). vm_compute in r. subst r. eexists _, _, _, _. split; [reflexivity|].
  unfold full_onto_tail. vm_compute. repeat split; try discriminate; intros (_ & _ & F1 & F2); discriminate.
Qed.
(** A full tail prepended to one that is only a tail: destroying both is undefined. *)
Theorem C42_prepend_move_refuted : exists os i j,
  i <> j /\ careful 2 1 (fun _ => 0) false root0 tail0 [] os start /\
  seen (wrun (os ++ [PConcat CPrependMove i j []]) start) = repeat SNone (S (length os)) /\
  wrun (os ++ [PConcat CPrependMove i j []; PDestroy i; PDestroy j]) start = UB.
Proof.
  exists prog3, 2%nat, 3%nat. split; [discriminate|]. split; [apply careful_b; vm_compute; reflexivity|].
  split; vm_compute; reflexivity.
Qed.
(** A copy that was made before, and that shares the tail, cannot be read any more when both
    are gone. *)
Theorem C40_prepend_move_refuted : exists os i j k,
  i <> j /\ i <> k /\ j <> k /\ careful 2 1 (fun _ => 0) false root0 tail0 [] os start /\
  seen (wrun (os ++ [PConcat CPrependMove i j []; PDestroy i; PDestroy j]) start) = repeat SNone (3 + length os) /\
  seen (wrun (os ++ [PGet k 0]) start) = repeat SNone (length os) ++ [SElem 30] /\
  wrun (os ++ [PConcat CPrependMove i j []; PDestroy i; PDestroy j; PGet k 0]) start = UB.
Proof.
  exists (prog3 ++ [PCopy 2]), 2%nat, 3%nat, 4%nat. repeat (split; [discriminate|]). split; [apply careful_b; vm_compute; reflexivity|].
  split; [|split]; vm_compute; reflexivity.
Qed.
(** After the statement a block has more references than its count says. *)
Theorem C41_prepend_move_refuted : exists os i j l xs h,
  i <> j /\ careful 2 1 (fun _ => 0) false root0 tail0 [] os start /\
  wrun (os ++ [PConcat CPrependMove i j []]) start = Ok ((l, xs), h) /\ ~ in_order l h.
Proof.
  exists prog3, 2%nat, 3%nat.
  set (r := wrun (prog3 ++ [PConcat CPrependMove 2 3 []]) start). vm_compute in r.
  match goal with r := Ok ((?l, ?xs), ?h) |- _ => exists l, xs, h end.
  split; [discriminate|]. split; [apply careful_b; vm_compute; reflexivity|]. split; [vm_compute; reflexivity|].
  intros O. destruct (io_counts _ _ O 13%nat _ eq_refl) as [_ F]. vm_compute in F. discriminate.
Qed.
(** push_front, when there is no memory for the last leaf of the result: the handler destroys
    an element of the container that nobody was to change (rrbtree.hpp:829-831). *)
Theorem C43_push_front_refuted : exists os i n v f,
  careful 2 1 (fun _ => 0) false root0 tail0 [] os start /\
  let op := [PNew true; PMutate true n (VPush v) []; PConcat CAppend n i f] in
  seen (wrun (os ++ op) start) = repeat SNone (2 + length os) ++ [SThrew] /\
  seen (wrun (os ++ [PGet i 1]) start) = repeat SNone (length os) ++ [SElem 31] /\
  wrun (os ++ op ++ [PGet i 1]) start = UB.
Proof.
  exists prog3, 2%nat, 4%nat, 9, (nth_throws 1). split; [apply careful_b; vm_compute; reflexivity|].
  split; [|split]; vm_compute; reflexivity.
Qed.
End Concrete.
Print Assumptions C42_prepend_move_refuted.
Print Assumptions C40_prepend_move_refuted.
Print Assumptions C41_prepend_move_refuted.
Print Assumptions C43_push_front_refuted.
