(** Boxes of several threads: a thread sees what the specification says about its own
    variables, whatever the others do. *)
From Coq Require Import List Arith Bool Lia Permutation.
From Verif Require Import Common AtomProofs RcHeap RcProofs Conc ConcProofs BoxSpec Box BoxProofs BoxConc.
Import ListNotations.
Set Default Goal Selector "!".

Section Proofs.
Context {V : Type}.
Variables eqb neb ltb : V -> V -> bool.
Notation heap := (heap V).
Notation box v := (RT v []).
Notation cwp := (cwp []).
Notation post A := (A -> list nat -> list nat -> heap -> Prop).

(** *** One box *)
Lemma box_rely L R (h h' : heap) a v : rely L ([] ++ R) h h' -> In a R -> rep h a (box v) -> rep h' a (box v).
Proof. intros Rl Hi S. eapply rely_rep; [exact Rl|apply from_root; exact Hi|exact S]. Qed.
Lemma box_cell (h : heap) a v : rep h a (box v) -> exists c, cell_at h a c /\ c_body c = v /\ c_kids c = [].
Proof.
  intros S. destruct (rep_inv _ _ _ S) as (c & ts & Hc & Hk & E). exists c. injection E as E1 E2. subst ts.
  repeat split; [exact Hc|easy|now inversion Hk].
Qed.
Lemma cell_box (h : heap) a c : cell_at h a c -> c_kids c = [] -> rep h a (box (c_body c)).
Proof. intros Hc Ek. eapply rep_intro; [exact Hc|]. rewrite Ek. constructor. Qed.
Lemma cell_one (h : heap) a c d : cell_at h a c -> cell_at h a d -> c = d.
Proof. unfold cell_at. congruence. Qed.

Lemma cwp_make v (F : post (option nat)) L R h :
  (forall a h', rely L ([] ++ R) h h' -> rep h' a (box v) -> F (Some a) L (a :: R) h') -> cwp (t_make v) F L R h.
Proof.
  intros HF. unfold t_make. apply cwp_bind. apply cwp_mk with (R' := R); [reflexivity|].
  intros a h1 R1 (c & Hc & Eb & Ek). apply cwp_done. apply HF; [exact R1|]. rewrite <- Eb. apply cell_box; [exact Hc|exact Ek].
Qed.
Lemma cwp_copy a (F : post (option nat)) L R h : In a R ->
  (forall h', rely L ([] ++ R) h h' -> F (Some a) L (a :: R) h') -> cwp (t_copy (Some a)) F L R h.
Proof.
  intros Hi HF. unfold t_copy. apply cwp_bind, cwp_done, cwp_bind. apply cwp_up; [apply from_root; exact Hi|].
  intros h1 R1. apply cwp_done. auto.
Qed.
Lemma cwp_get a v (F : post V) L R h : In a L \/ In a R -> rep h a (box v) ->
  (forall h', rely L ([] ++ R) h h' -> F v L R h') -> cwp (t_get (Some a)) F L R h.
Proof.
  intros Hi S HF. destruct (box_cell _ _ _ S) as (c & Hc & Eb & _). unfold t_get. apply cwp_bind, cwp_done, cwp_bind.
  eapply cwp_ld; [exact Hc| |].
  - destruct Hi as [Hi|Hi]; [now left|right; apply from_root; exact Hi].
  - intros h1 R1. apply cwp_done. rewrite Eb. auto.
Qed.
Lemma cwp_drop a v (F : post unit) R h : rep h a (box v) ->
  (forall h', rely [] ([] ++ R) h h' -> F tt [] R h') -> cwp (t_drop (Some a)) F [] (a :: R) h.
Proof.
  intros S HF. destruct (box_cell _ _ _ S) as (c & Hc & _ & Ek). unfold t_drop. apply cwp_bind.
  apply cwp_dn with (R' := R); [reflexivity| |].
  - intros h1 R1. apply cwp_done. auto.
  - intros d h1 Hd R1 _. pose proof (cell_one _ _ _ _ Hc Hd) as <-. rewrite Ek in *. cbn [app] in *.
    apply cwp_fr with (L' := []); [reflexivity|]. intros h2 R2. apply HF. eapply rely_trans; [exact R1|exact R2].
Qed.
Lemma cwp_drop_opt p (F : post unit) R h : (forall a, p = Some a -> exists v, rep h a (box v)) ->
  (forall h', rely [] ([] ++ R) h h' -> F tt [] R h') -> cwp (t_drop p) F [] (ptrs (Some p) ++ R) h.
Proof.
  destruct p as [a|]; intros S HF.
  - destruct (S a eq_refl) as [v Hv]. eapply cwp_drop; [exact Hv|exact HF].
  - apply cwp_done. apply HF. apply rely_refl.
Qed.
Lemma cwp_update a v f (F : post (option nat)) R h : In a R -> rep h a (box v) ->
  (forall b h', rely [] ([] ++ R) h h' -> rep h' b (box (f v)) -> F (Some b) [] (b :: R) h') ->
  cwp (t_update (Some a) f) F [] R h.
Proof.
  intros Hi S HF. unfold t_update. apply cwp_bind. eapply cwp_get; [now right|exact S|]. intros h1 R1.
  apply cwp_make. intros b h2 R2 Hb. apply HF; [eapply rely_trans; [exact R1|exact R2]|exact Hb].
Qed.
Lemma cwp_update_rv a v f (F : post (option nat)) R h : rep h a (box v) ->
  (forall b h', rely [] ([] ++ R) h h' -> rep h' b (box (f v)) -> F (Some b) [] (b :: R) h') ->
  cwp (t_update_rv (Some a) f) F [] (a :: R) h.
Proof.
  intros S HF. destruct (box_cell _ _ _ S) as (c & Hc & Eb & Ek). unfold t_update_rv. apply cwp_bind, cwp_done, cwp_bind.
  apply cwp_uq with (R' := R); [reflexivity| |].
  - intros h1 R1. apply (box_rely _ _ _ _ _ _ R1 (in_eq _ _)) in S. apply cwp_bind. eapply cwp_get; [right; now left|exact S|].
    intros h2 R2. apply (box_rely _ _ _ _ _ _ R2 (in_eq _ _)) in S. apply cwp_bind, cwp_make. intros b h3 R3 Hb.
    apply (box_rely _ _ _ _ _ _ R3 (in_eq _ _)) in S. apply cwp_roots with (R' := a :: b :: R); [intros x; cbn [occ]; lia|].
    apply cwp_bind. eapply cwp_drop; [exact S|]. intros h4 R4. apply cwp_done. apply HF.
    + assert (R03 : rely [] ([] ++ a :: R) h h3).
      { eapply rely_trans; [exact R1|]. eapply rely_trans; [exact R2|exact R3]. }
      eapply rely_trans; [eapply rely_incl; [apply incl_refl| |exact R03]; apply incl_tl, incl_refl|].
      eapply rely_incl; [apply incl_refl| |exact R4]. apply incl_tl, incl_refl.
    + eapply box_rely; [exact R4|now left|exact Hb].
  - intros d h1 Hd E1 R1. pose proof (cell_one _ _ _ _ Hc Hd) as <-. rewrite Ek in *. cbn [app] in *.
    apply (rely_local _ _ _ _ _ _ R1 (in_eq _ _)) in Hc. apply cwp_bind. eapply cwp_ld; [exact Hc|left; now left|].
    intros h2 R2. apply cwp_bind. apply (rely_local _ _ _ _ _ _ R2 (in_eq _ _)) in Hc.
    apply cwp_wr with (L' := []); [reflexivity|]. intros d h3 Hd' R3 Hc3. pose proof (cell_one _ _ _ _ Hc Hd') as <-.
    eapply cwp_put with (L' := []) (R' := R); [reflexivity|exact Hc3|exact E1|cbn [c_kids]; rewrite Ek; reflexivity|].
    apply cwp_done. apply HF.
    + assert (R02 : rely [a] ([] ++ R) h h2) by (eapply rely_trans; [exact R1|exact R2]).
      eapply rely_trans; [eapply rely_incl; [apply incl_nil_l|apply incl_refl|exact R02]|exact R3].
    + rewrite <- Eb. apply cell_box in Hc3; [exact Hc3|exact Ek].
Qed.
Lemma cwp_compare s cmp a b v w (F : post bool) R h : In a R -> In b R -> rep h a (box v) -> rep h b (box w) ->
  (forall x, cmp x x = s) ->
  (forall h', rely [] ([] ++ R) h h' -> F (cmp v w) [] R h') -> cwp (t_compare s cmp (Some a) (Some b)) F [] R h.
Proof.
  intros Ha Hb Sa Sb Hs HF. unfold t_compare. destruct (Box.same (Some a) (Some b)) eqn:Es.
  - apply same_some in Es. subst b. pose proof (rep_fun _ _ _ Sa _ Sb) as E. injection E as ->. apply cwp_done.
    rewrite <- (Hs w). apply HF, rely_refl.
  - apply cwp_bind. eapply cwp_get; [now right|exact Sa|]. intros h1 R1. apply (box_rely _ _ _ _ _ _ R1 Hb) in Sb.
    apply cwp_bind. eapply cwp_get; [now right|exact Sb|]. intros h2 R2. apply cwp_done. apply HF.
    eapply rely_trans; [exact R1|exact R2].
Qed.

(** *** Programs *)
Notation tinv h l s := (Forall2 (bval h) l s).
Lemma bval_rely R (h h' : heap) x y : rely [] ([] ++ R) h h' -> incl (ptrs x) R -> bval h x y -> bval h' x y.
Proof.
  intros Rl Hi. destruct x as [[a|]|], y as [| |v]; cbn; try easy. apply (box_rely _ _ _ _ _ _ Rl). apply Hi. now left.
Qed.
Lemma bvals_rely R (h h' : heap) l s : rely [] ([] ++ R) h h' -> incl (roots l) R -> tinv h l s -> tinv h' l s.
Proof.
  intros Rl Hi H. induction H as [|x y l s Hx _ IH]; constructor.
  - eapply bval_rely; [exact Rl| |exact Hx]. intros a Ha. apply Hi. cbn. apply in_or_app. now left.
  - apply IH. intros a Ha. apply Hi. cbn. apply in_or_app. now right.
Qed.
Lemma at_root l i a : nth_error l i = Some (Some (Some a)) -> In a (roots l).
Proof. intros E. apply nth_error_In in E. apply in_flat_map. eexists. split; [exact E|now left]. Qed.

Hypothesis eqb_refl : forall v, eqb v v = true.
Hypothesis neb_irrefl : forall v, neb v v = false.
Hypothesis ltb_irrefl : forall v, ltb v v = false.

Lemma cwp_impl {A} (k : option nat -> prog V A) l i p (F : post A) L R h : nth_error l i = Some (Some p) ->
  cwp (k p) F L R h -> cwp (pbind (t_impl l i) k) F L R h.
Proof. intros E H. unfold t_impl. rewrite E. exact H. Qed.
Ltac var_of H i :=
  let x := fresh "x" in let Ex := fresh "Ex" in let Es := fresh "Es" in let Hx := fresh "Hx" in
  destruct (rel_nth _ _ _ i H (bval_gone _) ltac:(first [assumption | eapply var_alive; [eassumption|reflexivity]])) as (x & Ex & Es & Hx).

Definition stepped (s' : list (bvar V)) (x : bobs V) : post (vars * bobs V) := fun r L R h =>
  L = [] /\ R = roots (fst r) /\ snd r = x /\ tinv h (fst r) s'.
Lemma cwp_step l s o s' x h : tinv h l s -> bspec eqb neb ltb s o = Some (s', x) ->
  cwp (t_step eqb neb ltb l o) (stepped s' x) [] (roots l) h.
Proof.
  intros H E.
  assert (Same : forall y h', rely [] ([] ++ roots l) h h' -> s' = s -> x = y ->
    stepped s' x (l, y) [] (roots l) h').
  { intros y h' Rl -> ->. repeat split. eapply bvals_rely; [exact Rl|apply incl_refl|exact H]. }
  assert (Add : forall z w h' R, rely [] ([] ++ roots l) h h' -> bval h' z w ->
    (forall a, occ a R = occ a (ptrs z ++ roots l)) -> s' = s ++ [w] -> x = ONone ->
    cwp (Done (l ++ [z], ONone)) (stepped s' x) [] R h').
  { intros z w h' R Rl Hz HO -> ->. apply cwp_roots with (R' := roots (l ++ [z])).
    { intros a. rewrite HO, roots_app, !occ_app. lia. }
    apply cwp_done. repeat split. cbn [fst]. apply Forall2_app; [|now repeat constructor].
    eapply bvals_rely; [exact Rl|apply incl_refl|exact H]. }
  assert (Set' : forall i x0 z w h' R, nth_error l i = Some x0 -> rely [] ([] ++ rest i l) h h' -> bval h' z w ->
    (forall a, occ a R = occ a (ptrs z ++ rest i l)) -> s' = update_at i w s -> x = ONone ->
    cwp (Done (update_at i z l, ONone)) (stepped s' x) [] R h').
  { intros i x0 z w h' R En Rl Hz HO -> ->. apply cwp_roots with (R' := roots (update_at i z l)).
    { intros a. rewrite HO. exact (rest_roots l i _ z En a). }
    apply cwp_done. repeat split. cbn [fst].
    assert (tinv h' (update_at i None l) (update_at i Gone s)) as H1.
    { eapply bvals_rely; [exact Rl|apply incl_refl|]. apply rel_upd; [exact I|exact H]. }
    apply (rel_upd _ _ _ _ _ Hz) with (i := i) in H1. now rewrite !upd_upd in H1. }
  assert (Rest : forall i x0, nth_error l i = Some x0 -> incl (rest i l) (roots l)).
  { intros i x0 En a. eapply rest_in. exact En. }
  destruct o as [v|i|i|i f|i j|i j|i f|i|i|i j|i j|i j]; cbn [bspec t_step] in *.
  - injection E as <- <-. apply cwp_bind, cwp_make. intros a h1 R1 Ha.
    eapply (Add (Some (Some a)) (Has v)); [exact R1|exact Ha|reflexivity..].
  - destruct (var s i) as [| |v] eqn:Ev; try discriminate. injection E as <- <-.
    var_of H i. rewrite Ev in *. apply bval_has in Hx as (a & -> & Ra).
    eapply cwp_impl; [exact Ex|]. apply cwp_bind, cwp_copy; [eapply at_root; exact Ex|]. intros h1 R1.
    eapply (Add (Some (Some a)) (Has v)); [exact R1| |reflexivity..].
    eapply box_rely; [exact R1|eapply at_root; exact Ex|exact Ra].
  - destruct (alive (var s i)) eqn:Ea; [|discriminate]. injection E as <- <-. var_of H i.
    destruct (bval_alive _ _ _ Hx Ea) as (p & -> & _). eapply cwp_impl; [exact Ex|].
    apply cwp_roots with (R' := roots (update_at i (Some None) l ++ [Some p])).
    { intros y. rewrite roots_app, occ_app. pose proof (roots_upd l i _ (Some None) y Ex) as E. cbn [ptrs occ] in *. lia. }
    apply cwp_done. repeat split. cbn [fst]. apply rel_app; [|exact Hx]. apply rel_upd; [exact I|exact H].
  - destruct (var s i) as [| |v] eqn:Ev; try discriminate. injection E as <- <-.
    var_of H i. rewrite Ev in *. apply bval_has in Hx as (a & -> & Ra).
    eapply cwp_impl; [exact Ex|]. apply cwp_bind. eapply cwp_update; [eapply at_root; exact Ex|exact Ra|]. intros b h1 R1 Rb.
    eapply (Add (Some (Some b)) (Has (f v))); [exact R1|exact Rb|reflexivity..].
  - destruct (var s j) as [| |v] eqn:Ev; try discriminate.
    destruct (alive (var s i)) eqn:Ea; [|discriminate]. injection E as <- <-.
    var_of H j. rewrite Ev in *. apply bval_has in Hx as (a & -> & Ra).
    var_of H i. destruct (bval_alive _ _ _ Hx Ea) as (p & -> & Hp).
    eapply cwp_impl; [exact Ex0|]. eapply cwp_impl; [exact Ex|].
    apply cwp_bind, cwp_copy; [eapply at_root; exact Ex|]. intros h1 R1. apply cwp_bind.
    apply cwp_roots with (R' := ptrs (Some p) ++ a :: rest i l).
    { intros y. cbn [occ]. rewrite (roots_rest _ _ _ Ex0), !occ_app. cbn [occ]. lia. }
    apply cwp_drop_opt.
    + intros b ->. destruct (Hp b eq_refl) as [w Hw]. exists w. eapply box_rely; [exact R1|eapply at_root; exact Ex0|exact Hw].
    + intros h2 R2. eapply (Set' i _ (Some (Some a)) (Has v)); [exact Ex0| | |reflexivity..].
      * eapply rely_trans; [eapply rely_incl; [apply incl_refl| |exact R1]; eapply Rest; exact Ex0|].
        eapply rely_incl; [apply incl_refl| |exact R2]. apply incl_tl, incl_refl.
      * eapply box_rely; [exact R2|now left|]. eapply box_rely; [exact R1|eapply at_root; exact Ex|exact Ra].
  - destruct (alive (var s i)) eqn:Ea; [|discriminate].
    destruct (alive (var s j)) eqn:Eb; [|discriminate]. injection E as <- <-.
    var_of H i. destruct (bval_alive _ _ _ Hx Ea) as (p & -> & _).
    var_of H j. destruct (bval_alive _ _ _ Hx0 Eb) as (q & -> & _).
    eapply cwp_impl; [exact Ex|]. eapply cwp_impl; [exact Ex0|].
    apply cwp_roots with (R' := roots (update_at i (Some q) (update_at j (Some p) l))).
    { intros y. pose proof (roots_upd l j _ (Some p) y Ex0) as E1.
      destruct (Nat.eq_dec i j) as [->|Hne].
      - rewrite upd_upd. pose proof (roots_upd l j _ (Some q) y Ex0) as E2.
        rewrite Ex in Ex0. injection Ex0 as ->. lia.
      - assert (nth_error (update_at j (Some p) l) i = Some (Some p)) as E3 by (rewrite nth_upd; auto).
        pose proof (roots_upd _ i _ (Some q) y E3) as E2. lia. }
    apply cwp_done. repeat split. cbn [fst]. apply rel_upd; [exact Hx0|]. now apply rel_upd.
  - destruct (var s i) as [| |v] eqn:Ev; try discriminate. injection E as <- <-.
    var_of H i. rewrite Ev in *. apply bval_has in Hx as (a & -> & Ra).
    eapply cwp_impl; [exact Ex|]. apply cwp_roots with (R' := a :: rest i l); [exact (roots_rest _ _ _ Ex)|].
    apply cwp_bind. eapply cwp_update_rv; [exact Ra|]. intros b h1 R1 Rb.
    eapply (Set' i _ (Some (Some b)) (Has (f v))); [exact Ex|exact R1|exact Rb|reflexivity..].
  - destruct (alive (var s i)) eqn:Ea; [|discriminate]. injection E as <- <-.
    var_of H i. destruct (bval_alive _ _ _ Hx Ea) as (p & -> & Hp).
    eapply cwp_impl; [exact Ex|]. apply cwp_roots with (R' := ptrs (Some p) ++ rest i l); [exact (roots_rest _ _ _ Ex)|].
    apply cwp_bind. apply cwp_drop_opt; [exact Hp|]. intros h1 R1.
    eapply (Set' i _ None Gone); [exact Ex|exact R1|exact I|reflexivity..].
  - destruct (var s i) as [| |v] eqn:Ev; try discriminate. injection E as <- <-.
    var_of H i. rewrite Ev in *. apply bval_has in Hx as (a & -> & Ra).
    eapply cwp_impl; [exact Ex|]. apply cwp_bind. eapply cwp_get; [right; eapply at_root; exact Ex|exact Ra|].
    intros h1 R1. apply cwp_done. apply Same; [exact R1|reflexivity..].
  - destruct (var s i) as [| |v] eqn:Ev; try discriminate.
    destruct (var s j) as [| |w] eqn:Ew; try discriminate. injection E as <- <-.
    var_of H i. rewrite Ev in *. apply bval_has in Hx as (a & -> & Ra).
    var_of H j. rewrite Ew in *. apply bval_has in Hx as (b & -> & Rb).
    eapply cwp_impl; [exact Ex|]. eapply cwp_impl; [exact Ex0|]. apply cwp_bind.
    eapply cwp_compare; [eapply at_root; exact Ex|eapply at_root; exact Ex0|exact Ra|exact Rb|exact eqb_refl|].
    intros h1 R1. apply cwp_done. apply Same; [exact R1|reflexivity..].
  - destruct (var s i) as [| |v] eqn:Ev; try discriminate.
    destruct (var s j) as [| |w] eqn:Ew; try discriminate. injection E as <- <-.
    var_of H i. rewrite Ev in *. apply bval_has in Hx as (a & -> & Ra).
    var_of H j. rewrite Ew in *. apply bval_has in Hx as (b & -> & Rb).
    eapply cwp_impl; [exact Ex|]. eapply cwp_impl; [exact Ex0|]. apply cwp_bind.
    eapply cwp_compare; [eapply at_root; exact Ex|eapply at_root; exact Ex0|exact Ra|exact Rb|exact neb_irrefl|].
    intros h1 R1. apply cwp_done. apply Same; [exact R1|reflexivity..].
  - destruct (var s i) as [| |v] eqn:Ev; try discriminate.
    destruct (var s j) as [| |w] eqn:Ew; try discriminate. injection E as <- <-.
    var_of H i. rewrite Ev in *. apply bval_has in Hx as (a & -> & Ra).
    var_of H j. rewrite Ew in *. apply bval_has in Hx as (b & -> & Rb).
    eapply cwp_impl; [exact Ex|]. eapply cwp_impl; [exact Ex0|]. apply cwp_bind.
    eapply cwp_compare; [eapply at_root; exact Ex|eapply at_root; exact Ex0|exact Ra|exact Rb|exact ltb_irrefl|].
    intros h1 R1. apply cwp_done. apply Same; [exact R1|reflexivity..].
Qed.

Definition ended (s : list (bvar V)) (os : list (bop V)) : post (vars * list (bobs V)) := fun r L R h =>
  L = [] /\ R = roots (fst r) /\ exists s', bspecs eqb neb ltb s os = Some (s', snd r) /\ tinv h (fst r) s'.
Lemma cwp_thread os : forall l s s' xs h, tinv h l s -> bspecs eqb neb ltb s os = Some (s', xs) ->
  cwp (t_thread eqb neb ltb l os) (ended s os) [] (roots l) h.
Proof.
  induction os as [|o os IH]; intros l s s' xs h H E; cbn [bspecs t_thread] in *.
  - apply cwp_done. repeat split. exists s. now split.
  - destruct (bspec eqb neb ltb s o) as [[s1 x]|] eqn:E1; [|discriminate].
    destruct (bspecs eqb neb ltb s1 os) as [[s2 ys]|] eqn:E2; [|discriminate].
    apply cwp_bind. eapply cwp_mono; [|eapply cwp_step; [exact H|exact E1]].
    intros [l1 y] L R h1 (-> & -> & Ey & H1). cbn [fst snd] in *. subst y. apply cwp_bind.
    eapply cwp_mono; [|eapply IH; [exact H1|exact E2]].
    intros [l2 ys'] L R h2 (-> & -> & s3 & E3 & H3). cbn [fst snd] in *. apply cwp_done. repeat split.
    exists s3. unfold ended. cbn [bspecs fst snd]. rewrite E1, E3. now split.
Qed.
End Proofs.
