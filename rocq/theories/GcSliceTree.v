(** Taking and dropping elements of a tree, on the memory of GcConcat. *)
From Coq Require Import List NArith Arith Bool Lia ZifyN ZifyNat ZifyBool.
From Verif Require Import Common NList Rrb RrbInv RrbPos RrbOps RrbSlice RrbTree GcConcat GcRep GcAdd GcInner GcVisit GcTree
  GcVec GcVecRun GcVecTree GcVecUpd GcSlice GcSliceRun GcSliceLeft.
Import ListNotations.
Local Open Scope N_scope.

Set Default Goal Selector "!".

Section SliceTree.
Variables B BL : N.
Context {T : Type}.
Variable mine : token -> bool.
Variable nm : bool.
Variable selfmv : T -> T.
Variable em : gtree.
Notation sh := (sh B BL).
Notation width := (width B).
Notation lwidth := (lwidth BL).
Notation heap := (gheap T).
Notation rep := (@rep B BL T mine).
Notation ow := (ow mine).
Notation own1 := (own1 mine).
Notation chg := (@chg T mine).
Notation still := (@still T mine).
Notation wf := (@wf T B BL).
Notation pos_ok := (@pos_ok T B BL).
Notation gtrep := (@gtrep B BL T mine).
Notation al_ok := (al_ok mine).
Notation gpr := (@gpr B BL T mine).
Notation leafn := (@leafn BL T mine).
Notation tpost := (@tpost B BL T mine).
Hypothesis HB : 2 <= B.
Hypothesis Hnm : nm = true -> forall x, selfmv x = x.

(** The empty tree, whose blocks nobody may overwrite. *)
Definition em_ok (h : heap) : Prop := gtrep h em empty [].
Lemma em_root h : em_ok h -> rep h 1 (gt_root em) (Inner None []) [].
Proof. intros (_ & _ & Fr & Ft & H & _ & E). cbn in H. symmetry in E. apply app_eq_nil in E as [-> _]. exact H. Qed.
Lemma em_chg h h' W : em_ok h -> chg h h' W -> em_ok h'.
Proof.
  intros (E1 & E2 & Fr & Ft & H1 & H2 & E) C. symmetry in E. apply app_eq_nil in E as [-> ->].
  split; [exact E1|]. split; [exact E2|]. exists [], []. split; [|split; [|reflexivity]]; (eapply rep_chg; [exact C|eassumption|easy]).
Qed.

Lemma tdone h h' x t' Fr Ft W R : gt_size x = size t' -> gt_lv x = lv t' -> rep h' (S (lv t')) (gt_root x) (root t') Fr ->
  rep h' O (gt_tail x) (tail t') Ft -> sep (length h') (Fr ++ Ft ++ R) -> chg h h' W -> (forall y, In y R -> ~ In y W) -> tpost h h' x t' R.
Proof.
  intros H1 H2 H3 H4 H5 C D. exists (Fr ++ Ft). split; [|split].
  - split; [exact H1|]. split; [exact H2|]. exists Fr, Ft. auto.
  - intros y. specialize (H5 y). occs. la.
  - eapply still_chg; [exact C|exact D].
Qed.
Lemma em_done h R : em_ok h -> sep (length h) R -> tpost h h em empty R.
Proof. intros H HS. exists []. split; [exact H|]. split; [exact HS|]. eapply still_chg; [apply chg_refl|auto]. Qed.

(** ** take *)
Lemma take_root_run al mu h x t F R n : al_ok al -> em_ok h -> gtrep h x t F -> inv B BL t -> 0 < n <= nsize (root t) ->
  sep (length h) (F ++ R) ->
  exists z h' t',
    (g <~ gmaybe B BL (S (gt_lv x)) (gt_root x) (nsize (root t)) ;;
      ' (o, _, tl) <~ gslice_right B BL al mu true (S (gt_lv x)) g (n - 1) ;;
      match o with
      | Some (S l, r) => gret (mkGT n l r tl)
      | Some (O, _) => gub
      | None => gret (mkGT n 0 (gt_root em) tl)
      end) h = Ok (z, h') /\
    (p <- maybe_relaxed B BL (S (lv t)) (root t) (nsize (root t)) ;;
    ' (nr, _, tl) <- slice_right B BL true (S (lv t)) p (n - 1) ;;
    match nr with
    | Some (S l, r) => Ok (mkTree n l r tl)
    | Some (O, _) => UB
    | None => Ok (mkTree n 0 (Inner None []) tl)
    end) = Ok t' /\ tpost h h' z t' R.
Proof.
  intros Hal Hem Hx Ht Hn HS. assert (1 <= B) as HB1 by lia. pose proof Ht as (xs & Et & Hs & Hle & Hpos & Hr).
  fold (root_ok B BL (lv t) (root t)) in Hr. destruct Hx as (X1 & X2 & Fr & Ft & X3 & X4 & ->).
  assert (wf (S (lv t)) (root t)) as Hw by (eapply (RrbTree.root_pos B BL HB1); [exact Hr|lia]).
  destruct (gpr_child B BL mine h (S (lv t)) (gt_root x) (root t) Fr X3 Hw) as (g & q & Eg & Eq & Hg). cbn [gchild child_pos] in Eg, Eq.
  rewrite X2. run Eg. rewrite Eq. cbn [rbind]. pose proof Hg as (? & _ & _ & Hok & _).
  assert (n - 1 < nsize (root t)) as Hlt by lia. pose proof (addr_refl _ _ _ _ _ _ Hok Hlt) as Had.
  destruct (slice_right_run B BL mine HB al Hal (S (lv t)) mu true g q (root t) Fr (n - 1) (n - 1) h (Ft ++ R) Hg Had Hlt) as
    (o & ts & tl & h1 & Fo & Ftl & W & nr & ys & E1 & E2 & Ho & Htl & S1 & C1 & HW).
  { intros y. specialize (HS y). occs. la. }
  run E1. rewrite E2. cbn [rbind].
  assert (forall y, In y R -> ~ In y W) as D.
  { intros y Hy Hi. apply HW in Hi. revert y Hi Hy. eapply sep_dis; [exact HS|]. intros y. occs. la. }
  destruct (slice_right_ok B BL true (S (lv t)) q (root t) (n - 1) (n - 1) HB1 Hok Had Hlt) as (nr0 & ys0 & E0 & _ & _ & Hnr).
  rewrite E2 in E0. injection E0 as <- _ _.
  destruct o as [[w a]|], nr as [[w' r]|]; try easy.
  - destruct Ho as [-> Hrr]. destruct w' as [|l]; [destruct Hnr as (_ & ? & _); lia|].
    eexists _, _, _. split; [reflexivity|]. split; [reflexivity|].
    eapply tdone; [reflexivity|reflexivity|exact Hrr|exact Htl| |exact C1|exact D]. intros y. specialize (S1 y). occs. la.
  - subst Fo. eexists _, _, _. split; [reflexivity|]. split; [reflexivity|].
    eapply (tdone h h1 _ (mkTree n 0 (Inner None []) (Leaf ys)) [] Ftl W R); [reflexivity|reflexivity|apply em_root; eapply em_chg; eauto|exact Htl| |exact C1|exact D].
    intros y. specialize (S1 y). occs. la.
Qed.

Lemma take_mut_run e h x t F R n : mine e = true -> em_ok h -> gtrep h x t F -> inv B BL t -> sep (length h) (F ++ R) ->
  exists z h' t', gtake_mut B BL em e x n h = Ok (z, h') /\ take B BL t n = Ok t' /\ tpost h h' z t' R.
Proof.
  intros He Hem Hx Ht HS. assert (1 <= B) as HB1 by lia. assert (al_ok (Some e)) as Hal by (intros e' [= <-]; exact He).
  pose proof (gtail_offset_ok B BL mine HB _ _ _ _ Hx Ht) as Gx.
  pose proof (tail_offset_ok B BL HB1 t Ht) as Eto. pose proof Ht as (xs & Et & Hs & Hle & Hpos & Hr).
  unfold gtake_mut, take. run Gx. rewrite Eto. cbn [rbind].
  assert (sep (length h) R) as HSR by (intros y; specialize (HS y); occs; la).
  destruct (N.eqb_spec n 0) as [Z|Z]. { eexists _, _, _. split; [reflexivity|]. split; [reflexivity|]. now apply em_done. }
  assert (gt_size x = size t) as X1 by apply Hx. rewrite X1.
  destruct (N.leb_spec (size t) n) as [H|H].
  { eexists _, _, _. split; [reflexivity|]. split; [reflexivity|]. exists F. split; [exact Hx|]. split; [exact HS|].
    eapply still_chg; [apply chg_refl|auto]. }
  destruct (N.ltb_spec (nsize (root t)) n) as [H1|H1].
  2:{ eapply take_root_run; eauto. lia. }
  destruct Hx as (_ & X2 & Fr & Ft & X3 & X4 & ->). rewrite Et in X4 |- *.
  destruct (rep_leafn B BL mine _ _ _ _ X4) as (o & Ho & ->). pose proof Ho as (sl & Ha & Hp & Hl).
  unfold copy_leaf. cbn [leaf_of rbind]. rewrite rtakeN_ok by lia. cbn [rbind]. run (gcan_mutate_ok _ _ _ _ e Ha).
  destruct (owned_by (mkG o (GLeaf sl)) e) eqn:Eo.
  - destruct (owned_by_ow mine _ _ _ He Eo) as [_ Hoo]. 
    destruct (destroy_run B mine HB h (gt_tail x) o sl xs (n - nsize (root t)) (size t - nsize (root t)) Ha Hp) as (sl' & E1 & P1 & L1); [lia|lia|].
    run E1. eexists _, _, _. split; [reflexivity|]. split; [reflexivity|].
    assert (chg h (update_at (gt_tail x) (mkG o (GLeaf sl')) h) [gt_tail x]) as C by (eapply chg_upd; [exact Ha|exact Hoo]).
    assert (forall y, In y (Fr ++ R) -> ~ In y [gt_tail x]) as D.
    { intros y Hy Hi. revert y Hi Hy. eapply sep_dis; [exact HS|]. unfold GcRep.own1. rewrite Hoo. intros y. occs. la. }
    eapply tdone with (Fr := Fr) (Ft := own1 o (gt_tail x)); [reflexivity|exact X2| | | |exact C|].
    + cbn [lv root gt_root]. eapply rep_chg; [exact C|exact X3|]. intros y Hy. apply D, in_or_app. auto.
    + cbn [tail gt_tail]. apply leafn_rep. exists sl'. split; [eapply at_upd; exact Ha|]. split; [exact P1|]. intros K. rewrite L1. auto.
    + rewrite upd_len. intros y. specialize (HS y). occs. la.
    + intros y Hy. apply D, in_or_app. auto.
  - destruct (copy_leaf_run B BL mine HB (Some e) h (gt_tail x) o [] (takeN (n - nsize (root t)) xs) (dropN (n - nsize (root t)) xs) 0 (n - nsize (root t)))
      as (h1 & E1 & L1 & C1 & N1); auto.
    { cbn [app]. now rewrite takeN_dropN. } { rewrite lenN_takeN. lia. } { rewrite lenN_takeN. lia. }
    run E1. eexists _, _, _. split; [reflexivity|]. split; [reflexivity|].
    eapply tdone with (Fr := Fr) (Ft := own1 (Some e) (length h)) (W := []); [reflexivity|exact X2| | | |exact C1|easy].
    + cbn [lv root gt_root]. eapply rep_chg; [exact C1|exact X3|easy].
    + apply leafn_rep. exact L1.
    + rewrite N1. assert (sep (length h) (Fr ++ R)) as S0 by (intros y; specialize (HS y); occs; la).
      pose proof (sep_new B mine HB h (Some e) _ S0) as S1. intros y. specialize (S1 y). occs. la.
Qed.
Lemma take_run h x t F R n : em_ok h -> gtrep h x t F -> inv B BL t -> sep (length h) (F ++ R) ->
  exists z h' t', gtake B BL em x n h = Ok (z, h') /\ take B BL t n = Ok t' /\ tpost h h' z t' R.
Proof.
  intros Hem Hx Ht HS. assert (1 <= B) as HB1 by lia. assert (al_ok None) as Hal by easy.
  pose proof (gtail_offset_ok B BL mine HB _ _ _ _ Hx Ht) as Gx.
  pose proof (tail_offset_ok B BL HB1 t Ht) as Eto. pose proof Ht as (xs & Et & Hs & Hle & Hpos & Hr).
  unfold gtake, take. run Gx. rewrite Eto. cbn [rbind].
  assert (sep (length h) R) as HSR by (intros y; specialize (HS y); occs; la).
  destruct (N.eqb_spec n 0) as [Z|Z]. { eexists _, _, _. split; [reflexivity|]. split; [reflexivity|]. now apply em_done. }
  assert (gt_size x = size t) as X1 by apply Hx. rewrite X1.
  destruct (N.leb_spec (size t) n) as [H|H].
  { eexists _, _, _. split; [reflexivity|]. split; [reflexivity|]. exists F. split; [exact Hx|]. split; [exact HS|].
    eapply still_chg; [apply chg_refl|auto]. }
  destruct (N.ltb_spec (nsize (root t)) n) as [H1|H1].
  2:{ eapply take_root_run; eauto. lia. }
  destruct Hx as (_ & X2 & Fr & Ft & X3 & X4 & ->). rewrite Et in X4 |- *.
  destruct (rep_leafn B BL mine _ _ _ _ X4) as (o & Ho & ->).
  unfold copy_leaf. cbn [leaf_of rbind]. rewrite rtakeN_ok by lia. cbn [rbind].
  destruct (copy_leaf_run B BL mine HB None h (gt_tail x) o [] (takeN (n - nsize (root t)) xs) (dropN (n - nsize (root t)) xs) 0 (n - nsize (root t)))
      as (h1 & E1 & L1 & C1 & N1); auto.
  { cbn [app]. now rewrite takeN_dropN. } { rewrite lenN_takeN. lia. } { rewrite lenN_takeN. lia. }
  run E1. eexists _, _, _. split; [reflexivity|]. split; [reflexivity|].
  eapply tdone with (Fr := Fr) (Ft := own1 None (length h)) (W := []); [reflexivity|exact X2| | | |exact C1|easy].
  - cbn [lv root gt_root]. eapply rep_chg; [exact C1|exact X3|easy].
  - apply leafn_rep. exact L1.
  - rewrite N1. assert (sep (length h) (Fr ++ R)) as S0 by (intros y; specialize (HS y); occs; la).
    pose proof (sep_new B mine HB h None _ S0) as S1. intros y. specialize (S1 y). occs. la.
Qed.

(** ** drop *)
Lemma drop_root_run al mu h x t F R n : al_ok al -> gtrep h x t F -> inv B BL t -> n < nsize (root t) ->
  sh (lv t) < 32 -> nsize (root t) <= 2 ^ 32 -> sep (length h) (F ++ R) ->
  exists z h' t',
    (g <~ gmaybe B BL (S (gt_lv x)) (gt_root x) (nsize (root t)) ;;
      ' (w, r) <~ gslice_left B BL nm selfmv al mu true (S (gt_lv x)) g n ;;
      match w with
      | S l => gret (mkGT (size t - n) l r (gt_tail x))
      | O => gub
      end) h = Ok (z, h') /\
    (p <- maybe_relaxed B BL (S (lv t)) (root t) (nsize (root t)) ;;
      ' (h, r) <- slice_left B BL true (S (lv t)) p n ;;
      match h with
      | S l => Ok (mkTree (size t - n) l r (tail t))
      | O => UB
      end) = Ok t' /\ tpost h h' z t' R.
Proof.
  intros Hal Hx Ht Hn Hsh H32 HS. assert (1 <= B) as HB1 by lia. pose proof Ht as (xs & Et & Hs & Hle & Hpos & Hr).
  fold (root_ok B BL (lv t) (root t)) in Hr. destruct Hx as (X1 & X2 & Fr & Ft & X3 & X4 & ->).
  assert (wf (S (lv t)) (root t)) as Hw by (eapply (RrbTree.root_pos B BL HB1); [exact Hr|lia]).
  destruct (gpr_child B BL mine h (S (lv t)) (gt_root x) (root t) Fr X3 Hw) as (g & q & Eg & Eq & Hg). cbn [gchild child_pos] in Eg, Eq.
  rewrite X2. run Eg. rewrite Eq. cbn [rbind]. pose proof Hg as (? & _ & _ & Hok & _).
  assert (is_sub q = true) as Hsq.
  { destruct (maybe_relaxed_ok B BL (lv t) (root t) Hw) as (q0 & Eq0 & _ & Hq0). rewrite Eq in Eq0. now injection Eq0 as <-. }
  destruct (slice_left_run B BL mine nm selfmv HB Hnm al Hal (S (lv t)) mu true g q (root t) Fr n h (Ft ++ R) Hg Hsq Hn) as
    (w & a & h1 & F' & W & r & E1 & E2 & Hrr & S1 & C1 & HW); auto.
  { intros y. specialize (HS y). occs. la. }
  run E1. rewrite E2. cbn [rbind].
  assert (forall y, In y (Ft ++ R) -> ~ In y W) as D.
  { intros y Hy Hi. apply HW in Hi. revert y Hi Hy. eapply sep_dis; [exact HS|]. intros y. occs. la. }
  destruct (slice_left_ok B BL true (S (lv t)) q (root t) n Hok Hsq Hn) as (w0 & r0 & E0 & _ & _ & _ & _ & Hw1); auto.
  rewrite E2 in E0. injection E0 as <- <-. destruct w as [|l]; [lia|].
  eexists _, _, _. split; [reflexivity|]. split; [reflexivity|].
  eapply tdone with (Fr := F') (Ft := Ft); [reflexivity|reflexivity|exact Hrr| | |exact C1|].
  - eapply rep_chg; [exact C1|exact X4|]. intros y Hy. apply D, in_or_app. auto.
  - intros y. specialize (S1 y). occs. la.
  - intros y Hy. apply D, in_or_app. auto.
Qed.

Lemma drop_run h x t F R n : em_ok h -> gtrep h x t F -> inv B BL t -> sh (lv t) < 32 -> nsize (root t) <= 2 ^ 32 -> sep (length h) (F ++ R) ->
  exists z h' t', gdrop B BL nm selfmv em x n h = Ok (z, h') /\ drop B BL t n = Ok t' /\ tpost h h' z t' R.
Proof.
  intros Hem Hx Ht Hsh H32 HS. assert (1 <= B) as HB1 by lia. assert (al_ok None) as Hal by easy.
  pose proof (gtail_offset_ok B BL mine HB _ _ _ _ Hx Ht) as Gx.
  pose proof (tail_offset_ok B BL HB1 t Ht) as Eto. pose proof Ht as (xs & Et & Hs & Hle & Hpos & Hr).
  unfold gdrop, drop.
  assert (sep (length h) R) as HSR by (intros y; specialize (HS y); occs; la).
  destruct (N.eqb_spec n 0) as [Z|Z].
  { eexists _, _, _. split; [reflexivity|]. split; [reflexivity|]. exists F. split; [exact Hx|]. split; [exact HS|].
    eapply still_chg; [apply chg_refl|auto]. }
  assert (gt_size x = size t) as X1 by apply Hx. rewrite X1.
  destruct (N.leb_spec (size t) n) as [H|H].
  { eexists _, _, _. split; [reflexivity|]. split; [reflexivity|]. now apply em_done. }
  run Gx. rewrite Eto. cbn [rbind].
  destruct (N.eqb_spec n (nsize (root t))) as [E|E].
  { destruct Hx as (_ & X2 & Fr & Ft & X3 & X4 & ->). eexists _, _, _. split; [reflexivity|]. split; [reflexivity|].
    eapply (tdone h h _ (mkTree (size t - n) 0 (Inner None []) (tail t)) [] Ft []); [reflexivity|reflexivity|now apply em_root|exact X4| |apply chg_refl|auto].
    intros y. specialize (HS y). occs. la. }
  destruct (N.ltb_spec (nsize (root t)) n) as [H1|H1].
  2:{ eapply drop_root_run; eauto. lia. }
  destruct Hx as (_ & X2 & Fr & Ft & X3 & X4 & ->). rewrite Et in X4 |- *.
  destruct (rep_leafn B BL mine _ _ _ _ X4) as (o & Ho & ->).
  unfold copy_leaf_range. cbn [leaf_of rbind].
  assert (rsliceN (n - nsize (root t)) (size t - nsize (root t)) xs = Ok (dropN (n - nsize (root t)) xs)) as ->.
  { rewrite <- (takeN_dropN (n - nsize (root t)) xs) at 1.
    rewrite rsliceN_app_r; [reflexivity|rewrite lenN_takeN; lia|rewrite lenN_dropN; lia]. }
  cbn [rbind].
  destruct (copy_leaf_run B BL mine HB None h (gt_tail x) o (takeN (n - nsize (root t)) xs) (dropN (n - nsize (root t)) xs) [] (n - nsize (root t)) (size t - nsize (root t)))
      as (h1 & E1 & L1 & C1 & N1); auto.
  { now rewrite app_nil_r, takeN_dropN. } { rewrite lenN_takeN. lia. } { rewrite lenN_dropN. lia. } { rewrite lenN_dropN. lia. }
  run E1. eexists _, _, _. split; [reflexivity|]. split; [reflexivity|].
  eapply tdone with (Fr := []) (Ft := own1 None (length h)) (W := []); [reflexivity|reflexivity| | | |exact C1|easy].
  - apply em_root. eapply em_chg; eauto.
  - apply leafn_rep. exact L1.
  - rewrite N1. pose proof (sep_new B mine HB h None _ HSR) as S1. intros y. specialize (S1 y). occs. la.
Qed.

Lemma drop_mut_run e h x t F R n : mine e = true -> em_ok h -> gtrep h x t F -> inv B BL t -> sh (lv t) < 32 -> nsize (root t) <= 2 ^ 32 ->
  sep (length h) (F ++ R) ->
  exists z h' t', gdrop_mut B BL nm selfmv em e x n h = Ok (z, h') /\ drop B BL t n = Ok t' /\ tpost h h' z t' R.
Proof.
  intros He Hem Hx Ht Hsh H32 HS. assert (1 <= B) as HB1 by lia. assert (al_ok (Some e)) as Hal by (intros e' [= <-]; exact He).
  pose proof (gtail_offset_ok B BL mine HB _ _ _ _ Hx Ht) as Gx.
  pose proof (tail_offset_ok B BL HB1 t Ht) as Eto. pose proof Ht as (xs & Et & Hs & Hle & Hpos & Hr).
  fold (root_ok B BL (lv t) (root t)) in Hr.
  unfold gdrop_mut, drop. run Gx.
  assert (sep (length h) R) as HSR by (intros y; specialize (HS y); occs; la).
  destruct (N.eqb_spec n 0) as [Z|Z].
  { eexists _, _, _. split; [reflexivity|]. split; [reflexivity|]. exists F. split; [exact Hx|]. split; [exact HS|].
    eapply still_chg; [apply chg_refl|auto]. }
  assert (gt_size x = size t) as X1 by apply Hx. rewrite X1.
  destruct (N.leb_spec (size t) n) as [H|H].
  { eexists _, _, _. split; [reflexivity|]. split; [reflexivity|]. now apply em_done. }
  rewrite Eto. cbn [rbind].
  destruct (N.eqb_spec n (nsize (root t))) as [E|E].
  { destruct Hx as (_ & X2 & Fr & Ft & X3 & X4 & ->). eexists _, _, _. split; [reflexivity|]. split; [reflexivity|].
    eapply (tdone h h _ (mkTree (size t - n) 0 (Inner None []) (tail t)) [] Ft []); [reflexivity|reflexivity|now apply em_root|exact X4| |apply chg_refl|auto].
    intros y. specialize (HS y). occs. la. }
  destruct (N.ltb_spec (nsize (root t)) n) as [H1|H1].
  2:{ eapply drop_root_run; eauto. lia. }
  destruct Hx as (_ & X2 & Fr & Ft & X3 & X4 & ->). rewrite Et in X4 |- *.
  unfold copy_leaf_range. cbn [leaf_of rbind].
  assert (rsliceN (n - nsize (root t)) (size t - nsize (root t)) xs = Ok (dropN (n - nsize (root t)) xs)) as ->.
  { rewrite <- (takeN_dropN (n - nsize (root t)) xs) at 1.
    rewrite rsliceN_app_r; [reflexivity|rewrite lenN_takeN; lia|rewrite lenN_dropN; lia]. }
  cbn [rbind].
  assert (wf O (Leaf xs)) as Hwx by (cbn; lia).
  assert (lenN xs <= 2 ^ 32) as Hx32.
  { etransitivity; [exact Hle|]. apply N.pow_le_mono_r; [easy|]. revert Hsh. unfold Rrb.sh. clear. intros. lia. }
  assert (pos_ok O (PSub (Leaf xs) (size t - nsize (root t))) (Leaf xs)) as Hok.
  { constructor; [exact Hwx|reflexivity|]. rewrite nsize_leaf. lia. }
  assert (gsub B BL O (gt_tail x) (size t - nsize (root t)) h = Ok (GSub (gt_tail x) (size t - nsize (root t)), h)) as Eg.
  { unfold gsub. assert (mk_sub B BL O (Leaf [] : node T) (size t - nsize (root t)) = Ok (PSub (Leaf []) (size t - nsize (root t)))) as Em.
    { cbn. destruct (N.leb_spec (size t - nsize (root t)) lwidth); [reflexivity|lia]. }
    run (glift_ok _ _ h Em). reflexivity. }
  run Eg.
  assert (gpr h O (GSub (gt_tail x) (size t - nsize (root t))) (PSub (Leaf xs) (size t - nsize (root t))) (Leaf xs) Ft) as Hg.
  { exists (gt_tail x). split; [reflexivity|]. split; [exact X4|]. split; [exact Hok|reflexivity]. }
  destruct (slice_left_run B BL mine nm selfmv HB Hnm (Some e) Hal O true true _ _ _ _ (n - nsize (root t)) h (Fr ++ R) Hg eq_refl) as
    (w & a & h1 & F' & W & r & E1 & E2 & Hrr & S1 & C1 & HW).
  { rewrite nsize_leaf. lia. } { cbn [pred]. revert Hsh. unfold Rrb.sh. clear. intros. lia. } { rewrite nsize_leaf. lia. }
  { intros y. specialize (HS y). occs. la. }
  run E1.
  destruct (slice_left_ok B BL true O _ _ (n - nsize (root t)) Hok eq_refl) as (w0 & r0 & E0 & Hw0 & Hel & Hwl & _).
  { rewrite nsize_leaf. lia. } { cbn [pred]. revert Hsh. unfold Rrb.sh. clear. intros. lia. } { rewrite nsize_leaf. lia. }
  rewrite E2 in E0. injection E0 as <- <-. assert (w = O) as -> by lia.
  destruct (wf_leaf _ _ _ Hw0) as (zs & -> & _). cbn [elems] in Hel. subst zs.
  assert (forall y, In y (Fr ++ R) -> ~ In y W) as D.
  { intros y Hy Hi. apply HW in Hi. revert y Hi Hy. eapply sep_dis; [exact HS|]. intros y. occs. la. }
  destruct (N.eqb_spec (nsize (root t)) 0) as [Z0|Z0].
  - destruct (root_zero B BL mine HB _ _ Hr Z0) as [Er El].
    eexists _, _, _. split; [reflexivity|]. split; [reflexivity|].
    eapply tdone with (Fr := Fr) (Ft := F'); [reflexivity|rewrite X2; exact El| |exact Hrr| |exact C1|].
    + cbn [lv root gt_root]. rewrite Er, El in X3. eapply rep_chg; [exact C1|exact X3|]. intros y Hy. apply D, in_or_app. auto.
    + intros y. specialize (S1 y). occs. la.
    + intros y Hy. apply D, in_or_app. auto.
  - eexists _, _, _. split; [reflexivity|]. split; [reflexivity|].
    eapply tdone with (Fr := []) (Ft := F'); [reflexivity|reflexivity| |exact Hrr| |exact C1|].
    + apply em_root. eapply em_chg; eauto.
    + intros y. specialize (S1 y). occs. la.
    + intros y Hy. apply D, in_or_app. auto.
Qed.
End SliceTree.
