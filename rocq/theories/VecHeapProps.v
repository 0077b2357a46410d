(** Properties of vectors and flex_vectors on counted memory: value semantics and transients
    (C40), reference counts (C41, C42), exceptions (C43). *)
From Coq Require Import List NArith Arith Bool Lia.
From Verif Require Import Common NList Rrb RrbSpec RcHeap RcProofs RcExn VecHeap VecNodes VecTree VecTreeProofs
  VecProgSpec VecProg ProgVars VecProgProofs.
Import ListNotations.
Set Default Goal Selector "!".

(** Programs that stay clear of what [careful] forbids whatever the state: nothing is thrown from
    growing or cutting a flex_vector in place, and none is prepended as an rvalue. *)
Definition safe {T} (os : list (pop T)) : Prop :=
  Forall (fun o => (grows_in_place o = true -> pfates o = []) /\ joins_well o) os.

Section Props.
(** Logarithms of the number of children and of elements of a node. *)
Variables B BL : N.
Context {T : Type}.
(** What a moved-from element is, and whether moving elements may throw. *)
Variable gone : T -> T.
Variable nm : bool.
Notation heap := (heap (vbody T)).
Notation prun := (prun B BL gone nm root0 tail0).
Notation pspec := (pspec gone).
Notation psees := (psees B BL).
Notation pspecs := (pspecs B BL gone).
Notation vstart := (@vstart T).
Notation pinv := (vinv vptr (@prel B BL T) (base root0 tail0) bases).
Notation sq_at := (@sq_at T).

Notation careful := (careful B BL gone nm root0 tail0).
Notation wide := (@wide T B).

Lemma safe_careful (os : list (pop T)) : safe os -> forall l h, careful l os h.
Proof.
  induction 1 as [|o os [H1 H2] _ IH]; intros l h; [exact I|]. split; [|auto]. unfold hazard.
  destruct o as [| | | | | | | |[|] i o f|m i j f| |]; try easy.
  - destruct o; try easy; intros F; now apply F, H1.
  - destruct (vvar_at l i) as [|[|] x]; try easy. destruct (vvar_at l j) as [|[|] y]; try easy.
    destruct H2 as [H2 H3]. cbn in H1.
    destruct m; try easy; intros F; (destruct H2 as [H2|H2]; [discriminate|]); try (destruct F as [F|[F _]]; [now apply H2|now apply F, H1]).
    now apply H2.
Qed.
Lemma run_from l s h (os : list (pop T)) : (1 <= B)%N -> pinv l s h -> careful l os h -> Forall wide os ->
  exists l' xs h' s', prun l os h = Ok ((l', xs), h') /\ pspecs s os xs s' /\ pinv l' s' h'.
Proof.
  intros HB I Hc Ho.
  destruct (wp_ok _ _ _ (prun_ok B BL gone nm root0 tail0 HB os l s h I Hc Ho)) as ([l' xs] & h' & E & s' & S & I').
  now exists l', xs, h', s'.
Qed.
Lemma run_start (os : list (pop T)) : (1 <= B)%N -> careful [] os vstart -> Forall wide os ->
  exists l' xs h' s', prun [] os vstart = Ok ((l', xs), h') /\ pspecs [] os xs s' /\ pinv l' s' h'.
Proof. intros H. apply run_from; [exact H|]. apply start_ok. Qed.

(** *** C40 *)
(** Programs see values: whatever is shared underneath, every variable holds what the
    operations on it put there. *)
Theorem C40_programs_partial (os : list (pop T)) : (1 <= B)%N -> careful [] os vstart -> Forall wide os ->
  exists l xs h s, prun [] os vstart = Ok ((l, xs), h) /\ pspecs [] os xs s.
Proof.
  intros H Hc Ho. destruct (run_start os H Hc Ho) as (l & xs & h & s & E & S & _). now exists l, xs, h, s.
Qed.

(** What a query sees. *)
Definition sees (l : list vvar) (h : heap) (q : pop T) (x : pobs T) : Prop :=
  exists l' h', prun l [q] h = Ok ((l', [x]), h').
(** Variable [i] shows the elements [xs]: its size is their number, [at] gives each of them
    unless the tree is deeper than it can look, and throws out of range. *)
Definition shows (l : list vvar) (h : heap) (i : nat) (xs : list T) : Prop :=
  sees l h (PSize i) (SSize (N.of_nat (length xs))) /\
  forall k, match nth_error xs (N.to_nat k) with
            | Some v => sees l h (PGet i k) (SElem v) \/ exists d, 6 <= d /\ sees l h (PGet i k) (SDeep d)
            | None => sees l h (PGet i k) SThrew
            end.
(** Operations of a container: those on its own, and with another variable at its end or its
    front. *)
Inductive top : Type := TOp (o : vop T) | TAppend (j : nat) | TPrepend (j : nat).
(** What they compute, when variable [j] has the elements [cs j]. *)
Definition tstep (cs : nat -> list T) (m : list T) (o : top) : list T :=
  match o with TOp o => vstep o m | TAppend j => m ++ cs j | TPrepend j => cs j ++ m end.
Definition allowed (l : list vvar) (fx : bool) (o : top) : Prop :=
  match o with
  | TOp o => offers fx o = true
  | TAppend j | TPrepend j => (2 <= B)%N /\ fx = true /\ exists y, nth_error l j = Some (HHas true y)
  end.
(** [t = v_i.transient()], the operations on [t] in place, [t.persistent()]; [n] is the number
    of the variable [t]. *)
Definition in_place (fx : bool) (n : nat) (o : top) : pop T :=
  match o with TOp o => PMutate fx n o [] | TAppend j => PConcat CAppend n j [] | TPrepend j => PConcat CPrepend j n [] end.
Definition transient_run (fx : bool) (i n : nat) (ops : list top) : list (pop T) :=
  PCopy i :: map (in_place fx n) ops ++ [PCopy n].
(** [x = v_i], then [x1 = x.push_back(...)], [x2 = x1 + v_j], ... *)
Definition apart (n : nat) (o : top) : pop T :=
  match o with TOp o => PApply n o [] | TAppend j => PConcat CNew n j [] | TPrepend j => PConcat CNew j n [] end.
Fixpoint chain (n : nat) (ops : list top) : list (pop T) :=
  match ops with [] => [] | o :: ops' => apart n o :: chain (S n) ops' end.
Definition persistent_run (i n : nat) (ops : list top) : list (pop T) := PCopy i :: chain n ops.
(** No drop or concatenation found a tree too deep. *)
Definition shallow (xs : list (pobs T)) : Prop := forall d, ~ In (SDeep d) xs.

Lemma inv_shows l s h i fx m : (1 <= B)%N -> pinv l s h -> sq_at s i = QHas fx m -> shows l h i m.
Proof.
  intros HB I E. split.
  - destruct (run_from l s h [PSize i] HB I) as (l2 & xs & h2 & s2 & E2 & S2 & _); [apply safe_careful; repeat constructor; discriminate|repeat constructor|].
    destruct xs as [|x [|y xs]]; cbn in S2; try easy. destruct S2 as [S2 _]. exists l2, h2. rewrite E2.
    destruct x as [| | | | |n|]; try easy; [congruence|]. destruct S2 as (gx & m' & E' & ->). congruence.
  - intros k. destruct (run_from l s h [PGet i k] HB I) as (l2 & xs & h2 & s2 & E2 & S2 & _); [apply safe_careful; repeat constructor; discriminate|repeat constructor|].
    destruct xs as [|x [|y xs]]; cbn in S2; try easy. destruct S2 as [S2 _].
    destruct x as [| | |d|v|n|]; try easy; [congruence| | |].
    + destruct S2 as (gx & m' & E' & Hk). assert (m' = m) as -> by congruence.
      rewrite (proj2 (nth_error_None _ _)) by lia. now exists l2, h2.
    + destruct S2 as (gx & m' & E' & Hk & Hd & _). assert (m' = m) as -> by congruence.
      destruct (nth_error m (N.to_nat k)) as [v|] eqn:En.
      * right. exists d. split; [exact Hd|]. now exists l2, h2.
      * exfalso. apply nth_error_None in En. lia.
    + destruct S2 as (gx & m' & E' & En). assert (m' = m) as -> by congruence. rewrite En. left. now exists l2, h2.
Qed.
Lemma upd_last {A} (s : list A) x y : update_at (length s) y (s ++ [x]) = s ++ [y].
Proof. induction s as [|a s IH]; cbn; congruence. Qed.
Lemma sq_last (s : list (sq T)) x l : sq_at (s ++ x :: l) (length s) = x.
Proof. unfold VecProgSpec.sq_at. rewrite app_nth2, Nat.sub_diag by lia. reflexivity. Qed.
Lemma sq_old (s : list (sq T)) l i : i < length s -> sq_at (s ++ l) i = sq_at s i.
Proof. intros H. unfold VecProgSpec.sq_at. now rewrite app_nth1 by exact H. Qed.
Lemma specs_app a : forall b s xs s', pspecs s (a ++ b) xs s' ->
  exists xa xb s1, xs = xa ++ xb /\ pspecs s a xa s1 /\ pspecs s1 b xb s'.
Proof.
  induction a as [|o a IH]; intros b s xs s' H; [now exists [], xs, s|].
  destruct xs as [|x xs]; cbn in H; [easy|]. destruct H as [S1 H].
  destruct (IH _ _ _ _ H) as (xa & xb & s1 & -> & Ha & Hb). exists (x :: xa), xb, s1.
  split; [reflexivity|]. split; [split; assumption|exact Hb].
Qed.
Definition has (s : list (sq T)) (j : nat) (b : list T) : Prop := j < length s /\ sq_at s j = QHas true b.
Definition may (s : list (sq T)) (cs : nat -> list T) (fx : bool) (o : top) : Prop :=
  match o with TOp o => offers fx o = true | TAppend j | TPrepend j => fx = true /\ has s j (cs j) end.
Lemma may_app s cs fx q o : may s cs fx o -> may (s ++ [q]) cs fx o.
Proof.
  destruct o as [o|j|j]; cbn; [auto| |]; intros (E & L & H); (split; [exact E|split; [rewrite app_length; lia|now rewrite sq_old]]).
Qed.
Lemma mutate_all fx cs ops : forall s m xs s', Forall (may s cs fx) ops ->
  pspecs (s ++ [QHas fx m]) (map (in_place fx (length s)) ops) xs s' ->
  exists m', s' = s ++ [QHas fx m'] /\ (shallow xs -> m' = fold_left (tstep cs) ops m).
Proof.
  induction ops as [|o ops IH]; intros s m xs s' Ho H.
  - destruct xs; cbn in H; [|easy]. exists m. auto.
  - inversion Ho as [|? ? O1 O2]; subst. destruct xs as [|x xs]; cbn [map VecProgSpec.pspecs] in H; [easy|].
    destruct H as [S1 H].
    assert (W : forall m', pspecs (s ++ [QHas fx m']) (map (in_place fx (length s)) ops) xs s' ->
      (shallow (x :: xs) -> m' = tstep cs m o) ->
      exists m', s' = s ++ [QHas fx m'] /\ (shallow (x :: xs) -> m' = fold_left (tstep cs) (o :: ops) m)).
    { intros m' H' Hm'. destruct (IH _ _ _ _ O2 H') as (m2 & E & Hm). exists m2. split; [exact E|].
      intros Hs. cbn [fold_left]. rewrite <- Hm' by exact Hs. apply Hm. intros d Hd. apply (Hs d). now right. }
    assert (D : forall d, x = SDeep d -> ~ shallow (x :: xs)) by (intros d -> Hs; apply (Hs d); now left).
    destruct o as [o|j|j]; cbn [in_place VecProgSpec.pspec] in *.
    + rewrite sq_last in H. cbn [may] in O1. rewrite O1 in H.
      assert (same fx fx = true) as Es by apply eqb_reflx. rewrite Es in H. cbn [andb] in H.
      destruct x as [| | |d| | |]; try (destruct o; now cbn in S1); try (exfalso; apply S1; reflexivity).
      * rewrite upd_last in H. apply (W _ H). auto.
      * apply (W _ H). intros Hs. now destruct (D d eq_refl).
    + destruct O1 as (-> & Lj & Ej). rewrite sq_last, (sq_old s _ j Lj), Ej in H.
      destruct x as [| | |d| | |]; try (now cbn in S1).
      * rewrite upd_last in H. apply (W _ H). auto.
      * apply (W _ H). intros Hs. now destruct (D d eq_refl).
    + destruct O1 as (-> & Lj & Ej). rewrite sq_last, (sq_old s _ j Lj), Ej in H.
      destruct x as [| | |d| | |]; try (now cbn in S1).
      * rewrite upd_last in H. apply (W _ H). auto.
      * apply (W _ H). intros Hs. now destruct (D d eq_refl).
Qed.
Lemma chain_all fx cs ops : forall s q xs s', Forall (may s cs fx) ops ->
  pspecs (s ++ [q]) (chain (length s) ops) xs s' -> q = QGone \/ (exists m, q = QHas fx m) ->
  exists l, s' = s ++ l /\ length l = S (length ops) /\
    (shallow xs -> forall m, q = QHas fx m -> nth (length ops) l QGone = QHas fx (fold_left (tstep cs) ops m)).
Proof.
  induction ops as [|o ops IH]; intros s q xs s' Ho H Hq.
  - destruct xs; cbn in H; [|easy]. exists [q]. split; [exact H|]. split; [reflexivity|]. now intros _ m ->.
  - inversion Ho as [|? ? O1 O2]; subst. destruct xs as [|x xs]; cbn [chain VecProgSpec.pspecs] in H; [easy|].
    destruct H as [S1 H].
    assert (En : S (length s) = length (s ++ [q])) by (rewrite app_length; cbn; lia). rewrite En in H.
    assert (W : forall q', pspecs ((s ++ [q]) ++ [q']) (chain (length (s ++ [q])) ops) xs s' ->
      q' = QGone \/ (exists m, q' = QHas fx m) ->
      (shallow (x :: xs) -> forall m, q = QHas fx m -> q' = QHas fx (tstep cs m o)) ->
      exists l, s' = s ++ l /\ length l = S (length (o :: ops)) /\
        (shallow (x :: xs) -> forall m, q = QHas fx m ->
          nth (length (o :: ops)) l QGone = QHas fx (fold_left (tstep cs) (o :: ops) m))).
    { intros q' H' Hq' Hm.
      assert (O3 : Forall (may (s ++ [q]) cs fx) ops) by (eapply Forall_impl; [|exact O2]; intros; now apply may_app).
      destruct (IH _ _ _ _ O3 H' Hq') as (l & E & L & Hn).
      exists (q :: l). rewrite E, <- app_assoc. split; [reflexivity|]. cbn [length nth fold_left]. rewrite L. split; [reflexivity|].
      intros Hs m Em. apply Hn; [|now apply Hm]. intros d Hd. apply (Hs d). now right. }
    assert (D : forall d, x = SDeep d -> ~ shallow (x :: xs)) by (intros d -> Hs; apply (Hs d); now left).
    destruct o as [o|j|j]; cbn [apart VecProgSpec.pspec] in *.
    + rewrite sq_last in H. cbn [may] in O1. destruct Hq as [->|(m & ->)].
      * apply (W QGone); auto. discriminate.
      * rewrite O1 in H. destruct x as [| | |d| | |]; try (destruct o; now cbn in S1); try (exfalso; apply S1; reflexivity).
        -- apply (W _ H); eauto. intros _ m' E. injection E as <-. reflexivity.
        -- apply (W _ H); auto. intros Hs. now destruct (D d eq_refl).
    + destruct O1 as (-> & Lj & Ej). rewrite sq_last, (sq_old s _ j Lj), Ej in H. destruct Hq as [->|(m & ->)].
      * apply (W QGone); auto. discriminate.
      * destruct x as [| | |d| | |]; try (now cbn in S1).
        -- apply (W _ H); eauto. intros _ m' E. injection E as <-. reflexivity.
        -- apply (W _ H); auto. intros Hs. now destruct (D d eq_refl).
    + destruct O1 as (-> & Lj & Ej). rewrite sq_last, (sq_old s _ j Lj), Ej in H. destruct Hq as [->|(m & ->)].
      * apply (W QGone); auto. discriminate.
      * destruct x as [| | |d| | |]; try (now cbn in S1).
        -- apply (W _ H); eauto. intros _ m' E. injection E as <-. reflexivity.
        -- apply (W _ H); auto. intros Hs. now destruct (D d eq_refl).
Qed.
Lemma len_inv l s h : pinv l s h -> length s = length l.
Proof. intros I. pose proof (v_rel _ _ _ _ _ _ _ I) as R. symmetry. eapply F2_len. exact R. Qed.
Lemma safe_transient l fx i n ops : n = length l -> Forall (allowed l fx) ops ->
  safe (transient_run fx i n ops) /\ Forall wide (transient_run fx i n ops).
Proof.
  intros -> Ha.
  assert (W : Forall (fun o => ((grows_in_place o = true -> pfates o = []) /\ joins_well o) /\ wide o) (map (in_place fx (length l)) ops)).
  { apply Forall_forall. intros o Ho. apply in_map_iff in Ho. destruct Ho as (o' & <- & Ho'). rewrite Forall_forall in Ha. specialize (Ha _ Ho').
    destruct o' as [o'|j|j]; cbn; [auto| |]; destruct Ha as (H2 & _ & y & Ej);
      assert (j < length l) by (apply nth_error_Some; congruence);
      (split; [split; [auto|split; [right; lia|discriminate]]|exact H2]). }
  split; (constructor; [cbn; auto|]); apply Forall_app; (split; [|constructor; [cbn; auto|constructor]]);
    (eapply Forall_impl; [|exact W]); cbn; tauto.
Qed.
Lemma safe_persistent l fx i n ops : Forall (allowed l fx) ops -> safe (persistent_run i n ops) /\ Forall wide (persistent_run i n ops).
Proof.
  intros Ha.
  assert (W : forall n, safe (chain n ops) /\ Forall wide (chain n ops)).
  { induction Ha as [|o ops Ho _ IH]; intros k; [split; constructor|]. destruct (IH (S k)) as [I1 I2]. cbn [chain].
    split; (constructor; [|assumption]); destruct o as [o|j|j]; cbn; try tauto; try (now destruct Ho);
      (split; [auto|split; [now left|discriminate]]). }
  destruct (W n). split; (constructor; [cbn; auto|assumption]).
Qed.
Lemma held l s h : pinv l s h -> exists cs, forall j fy y, nth_error l j = Some (HHas fy y) -> j < length s /\ sq_at s j = QHas fy (cs j).
Proof.
  intros I. exists (fun j => match sq_at s j with QHas _ m => m | QGone => [] end).
  intros j fy y Ej. assert (j < length l) as L by (apply nth_error_Some; congruence).
  rewrite (len_inv _ _ _ I). split; [exact L|].
  pose proof (prel_at B BL root0 tail0 l s h j I) as R. unfold vvar_at in R.
  rewrite (nth_error_nth _ _ _ Ej) in R. destruct (VecProgSpec.sq_at s j) as [|fz m]; cbn in R; [easy|].
  now destruct R as [-> _].
Qed.

(** From every state a program can reach, for every vector or flex_vector in it and every
    sequence of its operations: the transient and the persistent way end with containers that
    show the sequence that the operations compute, and all other variables show what they
    showed before. *)
Theorem C40_transient_is_persistent_partial pre l xs h i fx x ops : (1 <= B)%N ->
  careful [] pre vstart -> Forall wide pre ->
  prun [] pre vstart = Ok ((l, xs), h) -> nth_error l i = Some (HHas fx x) ->
  Forall (allowed l fx) ops ->
  let n := length l in
  exists lt xt ht lp xp hp cs,
    prun l (transient_run fx i n ops) h = Ok ((lt, xt), ht) /\
    prun l (persistent_run i n ops) h = Ok ((lp, xp), hp) /\
    (shallow xt -> shows lt ht (S n) (fold_left (tstep cs) ops (cs i))) /\
    (shallow xp -> shows lp hp (n + length ops) (fold_left (tstep cs) ops (cs i))) /\
    (forall j fy y, nth_error l j = Some (HHas fy y) ->
       shows l h j (cs j) /\ shows lt ht j (cs j) /\ shows lp hp j (cs j)).
Proof.
  intros HB Hp Hw E Ei Ha n.
  destruct (run_start pre HB Hp Hw) as (l0 & xs0 & h0 & s & E0 & S0 & I).
  rewrite E in E0. injection E0 as <- <- <-. destruct (held _ _ _ I) as (cs & Hat).
  destruct (Hat i fx x Ei) as (Li & Em).
  destruct (safe_transient l fx i n ops eq_refl Ha) as [A1 A2]. destruct (safe_persistent l fx i n ops Ha) as [A3 A4].
  destruct (run_from l s h (transient_run fx i n ops) HB I (safe_careful _ A1 _ _) A2) as (lt & xt & ht & s1 & Et & St & It).
  destruct (run_from l s h (persistent_run i n ops) HB I (safe_careful _ A3 _ _) A4) as (lp & xp & hp & s2 & Ep & Sp & Ip).
  assert (n = length s) as En by (unfold n; now rewrite (len_inv _ _ _ I)).
  assert (Ho : Forall (may s cs fx) ops).
  { eapply Forall_impl; [|exact Ha]. intros [o|j|j]; cbn; [auto| |]; intros (_ & -> & y & Ej); (split; [reflexivity|]); now apply (Hat j true y). }
  exists lt, xt, ht, lp, xp, hp, cs. split; [exact Et|]. split; [exact Ep|].
  unfold transient_run in St. unfold persistent_run in Sp. destruct xt as [|x1 xt], xp as [|x2 xp]; cbn [VecProgSpec.pspecs] in St, Sp; try easy.
  destruct St as [T1 St], Sp as [T2 Sp]. cbn [VecProgSpec.pspec] in St, Sp. rewrite Em in St, Sp. rewrite En in St, Sp.
  apply specs_app in St. destruct St as (xa & xb & s3 & -> & Sa & Sb).
  destruct (mutate_all fx cs ops s (cs i) _ _ Ho Sa) as (m1 & -> & Hm1).
  destruct xb as [|x3 [|x4 xb]]; cbn [VecProgSpec.pspecs] in Sb; try easy. destruct Sb as [_ ->].
  cbn [VecProgSpec.pspec] in It. rewrite sq_last, <- app_assoc in It. cbn [app] in It.
  destruct (chain_all fx cs ops s _ _ _ Ho Sp) as (k & -> & Lk & Hk); [eauto|].
  split; [|split].
  - intros Hs. rewrite <- Hm1.
    + eapply inv_shows; [exact HB|exact It|]. rewrite En. unfold VecProgSpec.sq_at. rewrite app_nth2 by lia.
      replace (S (length s) - length s) with 1 by lia. reflexivity.
    + intros d Hd. apply (Hs d). right. apply in_or_app. now left.
  - intros Hs. eapply inv_shows; [exact HB|exact Ip|]. rewrite En. unfold VecProgSpec.sq_at. rewrite app_nth2 by lia.
    replace (length s + length ops - length s) with (length ops) by lia. apply Hk; [|reflexivity].
    intros d Hd. apply (Hs d). now right.
  - intros j fy y Ej. destruct (Hat j fy y Ej) as (Lj & Emj).
    split; [eapply inv_shows; eauto|].
    split; [eapply inv_shows; [exact HB|exact It|]|eapply inv_shows; [exact HB|exact Ip|]]; (rewrite sq_old by exact Lj); exact Emj.
Qed.

(** *** C41 *)
(** The references that the variables of a program hold: the root and the tail of each. *)
Definition handles (l : list vvar) : list nat :=
  flat_map (fun x => match x with HHas _ x => [ht_root x; ht_tail x] | HGone => [] end) l.
(** The references that the blocks of memory hold. *)
Definition links (h : heap) : list nat :=
  flat_map (fun o => match o with Some d => c_kids d | None => [] end) h.
(** Memory in order: blocks 0 to 3 are the static empty nodes, with a reference of their own. *)
Record in_order (l : list vvar) (h : heap) : Prop := {
  io_counts : forall a c, nth_error h a = Some (Some c) ->
    0 < c_rc c /\
    c_rc c = (if a <? 4 then 1 else 0) + count_occ Nat.eq_dec (handles l) a + count_occ Nat.eq_dec (links h) a;
  io_alive : forall r a, In r (handles l) -> reaches h r a -> exists c, nth_error h a = Some (Some c);
  io_needed : forall a c, nth_error h a = Some (Some c) -> exists r, (r < 4 \/ In r (handles l)) /\ reaches h r a;
  io_last : handles l = [] -> forall a c, nth_error h a = Some (Some c) -> a < 4 /\ c_rc c = 1 /\ c_kids c = []
}.
Lemma handles_ptr l : handles l = flat_map vptr l.
Proof. unfold handles. apply flat_map_ext. now intros []. Qed.
Lemma live_of h R : good h R -> forall a, In a R \/ In a (links h) -> exists c, nth_error h a = Some (Some c).
Proof.
  intros G a Ha. destruct Ha as [Ha|Ha]; [exact (good_root _ _ _ G Ha)|].
  unfold links in Ha. apply in_flat_map in Ha. destruct Ha as (o & Ho & Hk). destruct o as [d|]; [|easy].
  apply In_nth_error in Ho. destruct Ho as (x & Hx). eapply good_live; [exact G|].
  eapply refs_kid; [exact Hx|exact Hk].
Qed.
Lemma base_in r : In r (base root0 tail0) <-> r < 4.
Proof. unfold base. cbn. lia. Qed.
Lemma base_count a : count_occ Nat.eq_dec (base root0 tail0) a = if a <? 4 then 1 else 0.
Proof. destruct a as [|[|[|[|a]]]]; reflexivity. Qed.
(** The static nodes have no children. *)
Lemma base_leafs l s h r : pinv l s h -> r < 4 -> exists c, nth_error h r = Some (Some c) /\ c_kids c = [].
Proof.
  intros I Hr. pose proof (v_base _ _ _ _ _ _ _ I) as Hb. unfold base, bases in Hb.
  assert (W : forall a (n : node T), srep [] h a (enc n) -> (n = Inner None [] \/ n = Leaf []) -> exists c, nth_error h a = Some (Some c) /\ c_kids c = [] :> list nat).
  { intros a n H Hn. destruct (rep_inv _ _ _ H) as (c0 & ts & C0 & F0 & Et). unfold wipe in C0, F0.
    exists c0. split; [exact C0|]. assert (ts = []) as ->; [|now inversion F0].
    destruct Hn as [->| ->]; cbn in Et; congruence. }
  inversion Hb as [|? ? ? ? H1 Hb1]; subst. inversion Hb1 as [|? ? ? ? H2 Hb2]; subst.
  inversion Hb2 as [|? ? ? ? H3 Hb3]; subst. inversion Hb3 as [|? ? ? ? H4 _]; subst.
  destruct r as [|[|[|[|r]]]]; [|  | | |lia].
  - exact (W _ (Inner None []) H1 (or_introl eq_refl)).
  - exact (W _ (Leaf []) H2 (or_intror eq_refl)).
  - exact (W _ (Inner None []) H3 (or_introl eq_refl)).
  - exact (W _ (Leaf []) H4 (or_intror eq_refl)).
Qed.
Lemma inv_order l s h : pinv l s h -> in_order l h.
Proof.
  intros I. pose proof (v_st _ _ _ _ _ _ _ I) as (G & _). cbn [wipe] in G.
  split.
  - intros a c Hc. destruct (vinv_count _ _ _ _ _ _ _ _ _ I Hc) as [E P]. split; [exact P|].
    rewrite E, base_count, (handles_ptr l). reflexivity.
  - intros r a Hr Hra. induction Hra as [|x c b _ IH Hc Hb].
    + eapply live_of; [exact G|]. left. apply in_or_app. right. now rewrite handles_ptr in Hr.
    + eapply live_of; [exact G|]. right. apply in_flat_map. exists (Some c). split; [|exact Hb].
      eapply nth_error_In. exact Hc.
  - intros a c Hc. destruct (vinv_reach _ _ _ _ _ _ _ _ _ I Hc) as (r & Hr & Hra). exists r. split; [|exact Hra].
    apply in_app_or in Hr. rewrite base_in in Hr. now rewrite handles_ptr.
  - intros E. rewrite handles_ptr in E.
    assert (W : forall a c, nth_error h a = Some (Some c) -> a < 4 /\ c_kids c = []).
    { intros a c Hc. destruct (vinv_reach _ _ _ _ _ _ _ _ _ I Hc) as (r & Hr & Hra).
      rewrite E, app_nil_r, base_in in Hr.
      assert (a = r) as ->.
      { clear Hc. induction Hra as [|x d b _ IH Hd Hb']; [reflexivity|]. exfalso. subst x.
        destruct (base_leafs _ _ _ _ I Hr) as (c0 & C0 & K0). assert (d = c0) as -> by congruence. now rewrite K0 in Hb'. }
      split; [exact Hr|]. destruct (base_leafs _ _ _ _ I Hr) as (c0 & C0 & K0). congruence. }
    intros a c Hc. destruct (W a c Hc) as [Ha Hk]. split; [exact Ha|]. split; [|exact Hk].
    destruct (vinv_count _ _ _ _ _ _ _ _ _ I Hc) as [Ec _]. rewrite Ec, E, base_count.
    destruct (Nat.ltb_spec a 4); [|lia]. fold (links h).
    rewrite (proj1 (count_occ_not_In Nat.eq_dec (links h) a)); [reflexivity|].
    intros Hl. unfold links in Hl. apply in_flat_map in Hl. destruct Hl as (o & Ho & Hk').
    destruct o as [d|]; [|easy]. apply In_nth_error in Ho. destruct Ho as (x & Hx).
    destruct (W x d Hx) as [_ Kd]. now rewrite Kd in Hk'.
Qed.

(** Whatever programs do with persistent operations on vectors and flex_vectors, wherever they
    throw, memory is in order. *)
Definition persistent (o : pop T) : Prop :=
  match o with PMutate _ _ _ _ => False | PConcat m _ _ _ => m = CNew | _ => True end.
Lemma persistent_careful os : Forall persistent os -> forall l h, careful l os h.
Proof.
  induction 1 as [|o os H1 _ IH]; intros l h; [exact I|]. split; [|auto]. unfold hazard.
  destruct o; try easy. cbn in H1. subst m. destruct (vvar_at l i) as [|[|] x]; try easy. now destruct (vvar_at l j) as [|[|] y].
Qed.
Theorem C41_vectors (os : list (pop T)) : (1 <= B)%N -> Forall persistent os -> Forall wide os ->
  exists l xs h, prun [] os vstart = Ok ((l, xs), h) /\ in_order l h.
Proof.
  intros H Hc Ho. destruct (run_start os H (persistent_careful _ Hc _ _) Ho) as (l & xs & h & s & E & _ & I).
  exists l, xs, h. split; [exact E|]. eapply inv_order. exact I.
Qed.
(** The same with operations in place, but for what [careful] forbids. *)
Theorem C41_vectors_in_place_partial (os : list (pop T)) : (1 <= B)%N -> careful [] os vstart -> Forall wide os ->
  exists l xs h, prun [] os vstart = Ok ((l, xs), h) /\ in_order l h.
Proof.
  intros H Hc Ho. destruct (run_start os H Hc Ho) as (l & xs & h & s & E & _ & I).
  exists l, xs, h. split; [exact E|]. eapply inv_order. exact I.
Qed.

(** *** C43 *)
(** Operations that throw wherever they can, but not where [careful] forbids it: they are
    defined, after an exception all variables have the contents they had (but for an
    element that was moved out for an update in place), and memory is in order (nothing leaks,
    nothing is freed too early). *)
Theorem C43_vectors_partial (os : list (pop T)) : (1 <= B)%N -> careful [] os vstart -> Forall wide os ->
  exists l xs h s, prun [] os vstart = Ok ((l, xs), h) /\ pspecs [] os xs s /\ in_order l h.
Proof.
  intros H Hc Ho. destruct (run_start os H Hc Ho) as (l & xs & h & s & E & S & I).
  exists l, xs, h, s. split; [exact E|]. split; [exact S|]. eapply inv_order. exact I.
Qed.
End Props.
Print Assumptions C40_programs_partial.
Print Assumptions C40_transient_is_persistent_partial.
Print Assumptions C41_vectors.
Print Assumptions C41_vectors_in_place_partial.
Print Assumptions C43_vectors_partial.

(** *** Concrete vectors *)
(** [careful], computed. *)
Section Check.
Variables B BL : N.
Context {T : Type}.
Variable gone : T -> T.
Variable nm : bool.
Variables er et : bool -> nat.
Definition hazardb (l : list vvar) (h : heap (vbody T)) (o : pop T) : bool :=
  match o with
  | PMutate true _ (VPush _ | VTake _) f => match f with [] => false | _ => true end
  | PConcat m i j f =>
      match vvar_at l i, vvar_at l j with
      | HHas true x, HHas true y =>
          match m with
          | CNew => false
          | CAppend | CAppendMove =>
              Nat.eqb i j || (match f with [] => false | _ => true end && (leaf_size h (ht_tail y) =? ht_size y)%N &&
                              (2 ^ BL <? leaf_size h (ht_tail x) + ht_size y)%N)
          | CPrepend => Nat.eqb i j
          | CPrependMove =>
              Nat.eqb i j || ((0 <? ht_size x)%N && (0 <? ht_size y)%N && (leaf_size h (ht_tail x) =? 2 ^ BL)%N &&
                              (leaf_size h (ht_tail y) =? ht_size y)%N)
          end
      | _, _ => false
      end
  | _ => false
  end.
Lemma hazard_b l h o : hazardb l h o = false -> ~ hazard BL l h o.
Proof.
  unfold hazardb, hazard. destruct o as [| | | | | | | |[|] i o f|m i j f| |]; try easy.
  - destruct o; try easy; now destruct f.
  - destruct (vvar_at l i) as [|[|] x]; try easy. destruct (vvar_at l j) as [|[|] y]; try easy. unfold lwidth.
    destruct m; try easy.
    + intros E [F|(F1 & F2 & F3)]; apply orb_false_elim in E; destruct E as [E1 E2]; [apply Nat.eqb_neq in E1; easy|].
      rewrite F2, N.eqb_refl in E2. apply N.ltb_lt in F3. rewrite F3 in E2. now destruct f.
    + intros E [F|(F1 & F2 & F3)]; apply orb_false_elim in E; destruct E as [E1 E2]; [apply Nat.eqb_neq in E1; easy|].
      rewrite F2, N.eqb_refl in E2. apply N.ltb_lt in F3. rewrite F3 in E2. now destruct f.
    + intros E F. apply Nat.eqb_neq in E. easy.
    + intros E [F|(F1 & F2 & F3 & F4)]; apply orb_false_elim in E; destruct E as [E1 E2]; [apply Nat.eqb_neq in E1; easy|].
      apply N.ltb_lt in F1, F2. rewrite F1, F2, F3, F4, !N.eqb_refl in E2. easy.
Qed.
Fixpoint carefulb (l : list vvar) (os : list (pop T)) (h : heap (vbody T)) : bool :=
  match os with
  | [] => true
  | o :: os' => negb (hazardb l h o) &&
      match pstep B BL gone nm er et l o h with Ok ((l', _), h') => carefulb l' os' h' | UB => true end
  end.
Lemma careful_b os : forall l h, carefulb l os h = true -> careful B BL gone nm er et l os h.
Proof.
  induction os as [|o os IH]; intros l h E; [exact I|]. cbn in E. apply andb_prop in E. destruct E as [E1 E2]. split.
  - apply hazard_b. now destruct (hazardb l h o).
  - intros l' x h' Es. rewrite Es in E2. now apply IH.
Qed.
End Check.
(** Two elements in a leaf and four children in an inner node ([wrun]), or two ([run]);
    elements moved from are 0. *)
Section Concrete.
Local Open Scope N_scope.
Notation run := (prun 1 1 (fun _ : N => 0) false root0 tail0 []).
Notation wrun := (prun 2 1 (fun _ : N => 0) false root0 tail0 []).
Notation start := (@vstart N).
Definition seen (r : res (list vvar * list (pobs N) * heap (vbody N))) : list (pobs N) :=
  match r with Ok ((_, xs), _) => xs | UB => [] end.
(** [n] elements from [k] on pushed to variable [i] in place. *)
Definition pushes (fx : bool) (i n k : nat) : list (pop N) :=
  map (fun j => PMutate fx i (VPush (N.of_nat j)) []) (seq k n).
Definition contents (i n : nat) : list (pop N) := map (fun k => PGet i (N.of_nat k)) (seq 0 n).

(** A vector of nine elements, a flex_vector that shares its nodes, cut at both ends. *)
Definition prog1 : list (pop N) :=
  PNew false :: pushes false 0 9 1 ++ [PFlex 0; PApply 1 (VDrop 3) []; PMutate true 2 (VTake 4) []].
Definition ops1 : list (top (T := N)) :=
  [TOp (VPush 20); TAppend 1; TOp (VPush 22); TOp (VUpdate 1 (fun v => v + 50)); TPrepend 2; TOp (VDrop 1); TOp (VTake 14)].
Example C40_transient_is_persistent_nonvacuous : careful 2 1 (fun _ => 0) false root0 tail0 [] prog1 start /\
  Forall (wide 2) prog1 /\
  match wrun prog1 start with
  | Ok ((l, _), _) => nth_error l 2%nat = Some (HHas true (mkHT 4 0 10 13)) /\ length l = 3%nat /\ Forall (allowed 2 l true) ops1
  | UB => False
  end.
Proof.
  split; [apply safe_careful; repeat constructor; discriminate|]. split; [repeat constructor|]. vm_compute.
  split; [reflexivity|]. split; [reflexivity|].
  repeat (constructor; [reflexivity || (split; [discriminate|split; [reflexivity|eexists; reflexivity]])|]). constructor.
Qed.
Example prog1_observed :
  seen (wrun (prog1 ++ transient_run true 2 3 ops1 ++ contents 4 15 ++ contents 2 5 ++ contents 0 10) start) =
  repeat SNone 13 ++ repeat SNone 9 ++
  map SElem [5; 6; 7; 4; 55; 6; 7; 20; 1; 2; 3; 4; 5; 6] ++ [SThrew] ++ map SElem [4; 5; 6; 7] ++ [SThrew] ++
  map SElem [1; 2; 3; 4; 5; 6; 7; 8; 9] ++ [SThrew].
Proof. vm_compute. reflexivity. Qed.

(** The [n]-th point where something may throw does. *)
Definition nth_throws (n : nat) : list bool := repeat false n ++ [true].
(** Persistent operations on a flex_vector and its copies, one of which throws. *)
Definition prog0 : list (pop N) :=
  PNew true :: map (fun k => PApply k (VPush (N.of_nat k)) []) (seq 0 9) ++
  [PConcat CNew 9 9 []; PConcat CNew 10 5 (nth_throws 3); PApply 10 (VDrop 5) []; PConcat CNew 12 10 []; PSize 13] ++
  map PDestroy (seq 0 14).
Example C41_vectors_nonvacuous : Forall persistent prog0 /\ Forall (wide 2) prog0 /\
  seen (wrun prog0 start) = repeat SNone 11 ++ [SThrew; SNone; SNone; SSize 31] ++ repeat SNone 14.
Proof. split; [repeat constructor|]. split; [repeat constructor; discriminate|]. vm_compute. reflexivity. Qed.
Definition prog2 : list (pop N) :=
  prog1 ++ [PConcat CNew 1 2 (nth_throws 1); PConcat CPrepend 1 2 (nth_throws 2); PConcat CAppend 2 1 (nth_throws 0); PApply 1 (VPush 30) (nth_throws 0); PMutate false 0 (VPush 30) (nth_throws 1);
            PMutate false 0 (VUpdate 2 (fun v => v + 1)) (nth_throws 2); PMutate true 2 (VUpdate 0 (fun v => v)) (nth_throws 0);
            PMutate true 2 (VDrop 1) (nth_throws 0); PGet 0 2; PGet 2 0; PSize 2] ++
  map PDestroy [0; 1; 2; 3]%nat.
Example C43_vectors_nonvacuous : careful 2 1 (fun _ => 0) false root0 tail0 [] prog2 start /\ Forall (wide 2) prog2 /\
  seen (wrun prog2 start) = repeat SNone 13 ++ [SThrew; SThrew; SThrew; SThrew; SThrew; SThrew; SBroke; SThrew; SElem 3; SElem 0; SSize 4] ++ repeat SNone 4.
Proof. split; [apply careful_b; vm_compute; reflexivity|]. split; [repeat constructor; discriminate|]. vm_compute. reflexivity. Qed.

(** Variable 1 is a copy of variable 0, a flex_vector cut at the left, with one element
    changed: its nodes on the way to the element are its own, but they share their size tables
    with those of variable 0. *)
Definition shared_tables (n : nat) : list (pop N) :=
  PNew true :: pushes true 0 n 1 ++ [PMutate true 0 (VDrop 1) []; PApply 0 (VUpdate 2 (fun v => v + 50)) []].
(** push_back in place, when copying the size table of the root for the new child throws: the child
    was changed already (operations.hpp:704-711), and destroying both vectors is undefined. *)
Definition push_prog : list (pop N) :=
  shared_tables 7 ++ pushes true 1 1 10 ++ [PMutate true 1 (VPush 100) (nth_throws 2); PDestroy 1; PDestroy 0].
Theorem C43_push_in_place_refuted : exists os,
  seen (run (removelast (removelast os)) start) = repeat SNone 11 ++ [SThrew] /\ run os start = UB.
Proof. exists push_prog. split; vm_compute; reflexivity. Qed.
(** take in place, when copying the size table of a node that is changed in place throws: the
    handler is not made for nodes changed in place; it asserts there are none, and without
    assertions releases nodes that are in use (operations.hpp:964-984). *)
Definition take_prog : list (pop N) := shared_tables 9 ++ [PMutate true 1 (VTake 2) (nth_throws 0)].
Theorem C43_take_in_place_refuted : exists os,
  seen (run (removelast os) start) = repeat SNone 12 /\ run os start = UB.
Proof. exists take_prog. split; vm_compute; reflexivity. Qed.
End Concrete.
Print Assumptions C43_push_in_place_refuted.
Print Assumptions C43_take_in_place_refuted.
