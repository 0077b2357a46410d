(** Properties of maps, sets and tables on counted memory: value semantics and transients
    (C10), reference counts (C41), exceptions (C43). *)
From Coq Require Import List NArith Arith Bool Lia Permutation.
From Verif Require Import Common Champ ChampSpec ChampProps RcHeap RcProofs RcExn ChampHeap
  ChampHeapProofs ChampProgSpec ChampProg ProgVars ChampProgProofs.
Import ListNotations.
Set Default Goal Selector "!".

(** [os] throws nothing. *)
Definition no_throw {T K V} (os : list (mop T K V)) : Prop := Forall (fun o => mfates o = []) os.

Section Props.
Variable B : N.
Context {T K V : Type}.
Variable key : T -> K.
Variable khash : K -> N.
Variable keq : K -> K -> bool.
Variable project : T -> V.
Variable combine : K -> V -> T.
(** Whether copies of elements may throw, and what a moved-from element is. *)
Variable ct : bool.
Variable gone : T -> T.
Notation heap := (heap (cbody T)).
Notation mrun := (mrun B key khash keq project combine ct gone 0).
Notation mspec := (mspec key keq project combine).
Notation mspecs := (mspecs key keq project combine).
Notation astep := (astep key keq project combine).
Notation setup := (setup B key khash keq combine).
Notation start := (@start T).
Notation minv := (vinv vptr (vrel B key khash keq) [0] [enc empty_node]).

Lemma ok_no_throw (os : list (mop T K V)) : no_throw os -> Forall (mok khash keq ct) os.
Proof.
  apply Forall_impl. intros o H. split; [|auto]. rewrite H. now left.
Qed.
Lemma run_from l s h (os : list (mop T K V)) : setup -> minv l s h -> Forall (mok khash keq ct) os ->
  exists l' xs h' s', mrun l os h = Ok ((l', xs), h') /\ mspecs s os xs s' /\ minv l' s' h'.
Proof.
  intros (HB & Hkeys & Hc) I Ho.
  destruct (wp_ok _ _ _ (mrun_ok B key khash keq project combine ct gone 0 HB Hkeys Hc os l s h I Ho))
    as ([l' xs] & h' & E & s' & S & I'). now exists l', xs, h', s'.
Qed.
Lemma run_start (os : list (mop T K V)) : setup -> Forall (mok khash keq ct) os ->
  exists l' xs h' s', mrun [] os start = Ok ((l', xs), h') /\ mspecs [] os xs s' /\ minv l' s' h'.
Proof. intros H. apply run_from; [exact H|]. apply start_ok. Qed.

(** *** C10 *)
(** Programs see values: whatever is shared underneath, every variable holds what the
    operations on it put there. *)
Theorem C10_programs (os : list (mop T K V)) : setup -> no_throw os ->
  exists l xs h s, mrun [] os start = Ok ((l, xs), h) /\ mspecs [] os xs s.
Proof.
  intros H Ho. destruct (run_start os H (ok_no_throw _ Ho)) as (l & xs & h & s & E & S & _).
  now exists l, xs, h, s.
Qed.

(** What a query sees. *)
Definition sees (l : list mvar) (h : heap) (q : mop T K V) (x : mobs T) : Prop :=
  exists l' h', mrun l [q] h = Ok ((l', [x]), h').
(** [t = m_i.transient()], the operations on [t] in place, [t.persistent()]; [n] is the number
    of the variable [t]. *)
Definition transient_run (i n : nat) (ops : list (@op T K V)) : list (mop T K V) :=
  MCopy i :: map (fun o => MMutate n o []) ops ++ [MCopy n].
(** [x = m_i], then [x1 = x.insert(...)], [x2 = x1.erase(...)], ... *)
Fixpoint chain (n : nat) (ops : list (@op T K V)) : list (mop T K V) :=
  match ops with [] => [] | o :: ops' => MApply n o [] :: chain (S n) ops' end.
Definition persistent_run (i n : nat) (ops : list (@op T K V)) : list (mop T K V) := MCopy i :: chain n ops.

Lemma msees_quiet s (o : mop T K V) x : mfates o = [] -> msees key keq s o x -> is_throw x = false.
Proof.
  intros H Hs. destruct x as [| | |]; try reflexivity.
  destruct o; cbn in *; try easy; congruence.
Qed.
Lemma specs_quiet os : forall s xs s', no_throw os -> mspecs s os xs s' ->
  s' = fold_left (fun s o => mspec s o false) os s.
Proof.
  induction os as [|o os IH]; intros s [|x xs] s' H Hs; cbn in *; try easy.
  inversion H as [|? ? H1 H2]; subst. destruct Hs as [S1 S2].
  rewrite (msees_quiet _ _ _ H1 S1) in S2. now apply IH with (xs := xs).
Qed.
Lemma upd_last {A} (s : list A) x y : update_at (length s) y (s ++ [x]) = s ++ [y].
Proof. induction s as [|a s IH]; cbn; congruence. Qed.
Lemma avar_last (s : list (avar T K)) x l : avar_at (s ++ x :: l) (length s) = x.
Proof. unfold avar_at. rewrite app_nth2, Nat.sub_diag by lia. reflexivity. Qed.
Lemma avar_old (s : list (avar T K)) l i : i < length s -> avar_at (s ++ l) i = avar_at s i.
Proof. intros H. unfold avar_at. now rewrite app_nth1 by exact H. Qed.
Lemma mutate_all ops : forall s m,
  fold_left (fun s o => mspec s o false) (map (fun o => MMutate (length s) o []) ops) (s ++ [AHas m]) =
  s ++ [AHas (fold_left (fun m o => astep o m) ops m)].
Proof.
  induction ops as [|o ops IH]; intros s m; [reflexivity|]. cbn [map fold_left].
  cbn [ChampProgSpec.mspec]. rewrite avar_last, upd_last. apply IH.
Qed.
Lemma chain_all ops : forall s m, exists l,
  fold_left (fun s o => mspec s o false) (chain (length s) ops) (s ++ [AHas m]) = s ++ l /\
  length l = S (length ops) /\
  nth (length ops) l AGone = AHas (fold_left (fun m o => astep o m) ops m).
Proof.
  induction ops as [|o ops IH]; intros s m.
  - now exists [AHas m].
  - cbn [chain fold_left ChampProgSpec.mspec]. rewrite avar_last.
    replace (S (length s)) with (length (s ++ [AHas m])) by (rewrite app_length; cbn; lia).
    destruct (IH (s ++ [AHas m]) (astep o m)) as (l & E & L & Hn).
    exists (AHas m :: l). rewrite E, <- app_assoc. cbn [length nth app]. now rewrite L.
Qed.
Lemma no_throw_transient i n ops : no_throw (transient_run i n ops).
Proof.
  constructor; [reflexivity|]. apply Forall_app. split; [|now constructor].
  apply Forall_forall. intros o Ho. apply in_map_iff in Ho. now destruct Ho as (o' & <- & _).
Qed.
Lemma no_throw_persistent i n ops : no_throw (persistent_run i n ops).
Proof. constructor; [reflexivity|]. revert n. induction ops as [|o ops IH]; constructor; [reflexivity|apply IH]. Qed.

Lemma lists_length m : setup -> forall l1 l2, lists key keq l1 m -> lists key keq l2 m -> length l1 = length l2.
Proof.
  intros (_ & (Hr & _) & _) l1 l2 [D1 E1] [D2 E2]. apply Permutation_length, NoDup_Permutation.
  - clear -D1 Hr. induction D1 as [|a l Ha _ IH]; constructor; [|exact IH].
    intros Hin. rewrite Forall_forall in Ha. specialize (Ha _ Hin). rewrite Hr in Ha. discriminate.
  - clear -D2 Hr. induction D2 as [|a l Ha _ IH]; constructor; [|exact IH].
    intros Hin. rewrite Forall_forall in Ha. specialize (Ha _ Hin). rewrite Hr in Ha. discriminate.
  - intros v. now rewrite E1, E2.
Qed.
Definition query (q : mop T K V) (i : nat) : Prop := (exists k, q = MGet i k []) \/ q = MSize i.
Definition at_var (i : nat) (q : mop T K V) : mop T K V :=
  match q with MGet _ k f => MGet i k f | MSize _ => MSize i | _ => q end.
(** Variables with the same contents look the same. *)
Lemma sees_same l s h l' s' h' i j m q x : setup -> minv l s h -> minv l' s' h' ->
  avar_at s i = AHas m -> avar_at s' j = AHas m -> query q i ->
  sees l h q x -> sees l' h' (at_var j q) x.
Proof.
  intros H I I' Ei Ej Hq (l1 & h1 & E).
  assert (Hn : no_throw [q] /\ no_throw [at_var j q]).
  { destruct Hq as [(k & ->)| ->]; split; repeat constructor. }
  destruct Hn as [N1 N2].
  destruct (run_from l s h [q] H I (ok_no_throw _ N1)) as (l2 & xs & h2 & s2 & E2 & S2 & _).
  destruct (run_from l' s' h' [at_var j q] H I' (ok_no_throw _ N2)) as (l3 & ys & h3 & s3 & E3 & S3 & _).
  rewrite E in E2. injection E2 as <- <- <-.
  destruct ys as [|y [|z ys]]; cbn [ChampProgSpec.mspecs] in S3; try easy.
  assert (y = x) as ->; [|exists l3, h3; exact E3].
  cbn in S2. destruct S2 as [S2 _], S3 as [S3 _].
  destruct Hq as [(k & ->)| ->]; cbn in S2, S3.
  - destruct x as [| |v|]; try easy; [exfalso; eapply S2; exact Ei|].
    destruct y as [| |w|]; try easy; [exfalso; eapply S3; exact Ej|].
    destruct S2 as (m1 & A1 & ->), S3 as (m2 & A2 & ->). congruence.
  - destruct x as [| | |n]; try easy; [exfalso; eapply S2; exact Ei|].
    destruct y as [| | |n']; try easy; [exfalso; eapply S3; exact Ej|].
    destruct S2 as (m1 & e1 & A1 & L1 & ->), S3 as (m2 & e2 & A2 & L2 & ->).
    assert (m1 = m) by congruence. assert (m2 = m) by congruence. subst m1 m2.
    now rewrite (lists_length m H e1 e2 L1 L2).
Qed.
Lemma sees_found l s h i m k : setup -> minv l s h -> avar_at s i = AHas m ->
  sees l h (MGet i k []) (OFound (m k)).
Proof.
  intros H I E. destruct (run_from l s h [MGet i k []] H I) as (l2 & xs & h2 & s2 & E2 & S2 & _).
  - apply ok_no_throw. repeat constructor.
  - destruct xs as [|x [|y xs]]; cbn in S2; try easy. destruct S2 as [S2 _].
    destruct x as [| |v|]; try easy; [exfalso; eapply S2; exact E|].
    destruct S2 as (m1 & A1 & ->). exists l2, h2. rewrite E2. congruence.
Qed.
Lemma len_inv l s h : minv l s h -> length s = length l.
Proof. intros I. pose proof (v_rel _ _ _ _ _ _ _ I) as R. clear I. induction R; cbn; congruence. Qed.

(** From every state a program can reach, for every map in it and every sequence of
    operations: the transient and the persistent way end with containers in which every
    query sees the same, and no query on the other variables sees a difference. *)
Theorem C10_transient_is_persistent pre l xs h i c ops : setup -> no_throw pre ->
  mrun [] pre start = Ok ((l, xs), h) -> nth_error l i = Some (VHas c) ->
  let n := length l in
  exists lt xt ht lp xp hp,
    mrun l (transient_run i n ops) h = Ok ((lt, xt), ht) /\
    mrun l (persistent_run i n ops) h = Ok ((lp, xp), hp) /\
    (forall k, exists v, sees lt ht (MGet (S n) k []) (OFound v) /\
                         sees lp hp (MGet (n + length ops) k []) (OFound v)) /\
    (forall q x, query q (S n) -> sees lt ht q x -> sees lp hp (at_var (n + length ops) q) x) /\
    (forall j d q x, nth_error l j = Some (VHas d) -> query q j -> sees l h q x ->
                     sees lt ht q x /\ sees lp hp q x).
Proof.
  intros H Hp E Ei n.
  destruct (run_start pre H (ok_no_throw _ Hp)) as (l0 & xs0 & h0 & s & E0 & S0 & I).
  rewrite E in E0. injection E0 as <- <- <-.
  assert (Hat : forall j d, nth_error l j = Some (VHas d) -> j < length s /\ exists m, avar_at s j = AHas m).
  { intros j d Ej. pose proof (nth_lt _ _ _ Ej) as L. rewrite (len_inv _ _ _ I). split; [exact L|].
    pose proof (vrel_at B key khash keq 0 l s h j I) as R. unfold mvar_at in R.
    rewrite (nth_error_nth _ _ _ Ej) in R. destruct (avar_at s j) as [| |m]; cbn in R; try easy. now exists m. }
  destruct (Hat i c Ei) as (Li & m & Em).
  destruct (run_from l s h (transient_run i n ops) H I (ok_no_throw _ (no_throw_transient _ _ _)))
    as (lt & xt & ht & st & Et & St & It).
  destruct (run_from l s h (persistent_run i n ops) H I (ok_no_throw _ (no_throw_persistent _ _ _)))
    as (lp & xp & hp & sp & Ep & Sp & Ip).
  apply specs_quiet in St; [|apply no_throw_transient]. apply specs_quiet in Sp; [|apply no_throw_persistent].
  unfold transient_run in St. unfold persistent_run in Sp. cbn [fold_left ChampProgSpec.mspec] in St, Sp.
  rewrite Em in St, Sp. rewrite fold_left_app in St.
  assert (n = length s) as En by (unfold n; now rewrite (len_inv _ _ _ I)). rewrite En in St, Sp.
  rewrite mutate_all in St. cbn [fold_left ChampProgSpec.mspec] in St. rewrite avar_last, <- app_assoc in St.
  destruct (chain_all ops s m) as (k & Ek & Lk & Hk). rewrite Ek in Sp.
  set (m' := fold_left (fun m o => astep o m) ops m) in *.
  assert (At : avar_at st (S n) = AHas m').
  { rewrite St, En. unfold avar_at. rewrite app_nth2 by lia. replace (S (length s) - length s) with 1 by lia. reflexivity. }
  assert (Ap : avar_at sp (n + length ops) = AHas m').
  { rewrite Sp, En. unfold avar_at. rewrite app_nth2 by lia.
    replace (length s + length ops - length s) with (length ops) by lia. exact Hk. }
  exists lt, xt, ht, lp, xp, hp. split; [exact Et|]. split; [exact Ep|]. split; [|split].
  - intros k0. exists (m' k0). split; eapply sees_found; eauto.
  - intros q x Hq. eapply sees_same with (i := S n) (m := m'); eauto.
  - intros j d q x Ej Hq Hx. destruct (Hat j d Ej) as (Lj & mj & Emj).
    assert (at_var j q = q) as Eq by (destruct Hq as [(k0 & ->)| ->]; reflexivity).
    split; rewrite <- Eq.
    + eapply sees_same with (l := l) (i := j) (m := mj); eauto. rewrite St. now rewrite avar_old.
    + eapply sees_same with (l := l) (i := j) (m := mj); eauto. rewrite Sp. now rewrite avar_old.
Qed.

(** *** C41 *)
(** The references that the variables of a program hold: the root of each container. *)
Definition handles (l : list mvar) : list nat :=
  flat_map (fun x => match champ_of x with Some c => [h_root c] | None => [] end) l.
(** The references that the blocks of memory hold. *)
Definition links (h : heap) : list nat :=
  flat_map (fun o => match o with Some d => c_kids d | None => [] end) h.
(** Memory in order: block 0 is the static empty node, with a reference of its own. *)
Record in_order (l : list mvar) (h : heap) : Prop := {
  io_counts : forall a c, nth_error h a = Some (Some c) ->
    0 < c_rc c /\
    c_rc c = (if (a =? 0)%nat then 1 else 0) + count_occ Nat.eq_dec (handles l) a + count_occ Nat.eq_dec (links h) a;
  io_alive : forall r a, In r (handles l) -> reaches h r a -> exists c, nth_error h a = Some (Some c);
  io_needed : forall a c, nth_error h a = Some (Some c) -> exists r, In r (0 :: handles l) /\ reaches h r a;
  io_last : handles l = [] -> forall a c, nth_error h a = Some (Some c) -> a = 0 /\ c_rc c = 1 /\ c_kids c = []
}.
Lemma handles_ptr l : handles l = flat_map vptr l.
Proof. unfold handles. apply flat_map_ext. now intros []. Qed.
Lemma live_of h R : good h R -> forall a, In a R \/ In a (links h) -> exists c, nth_error h a = Some (Some c).
Proof.
  intros G a Ha. destruct Ha as [Ha|Ha]; [exact (good_root _ _ _ G Ha)|].
  unfold links in Ha. apply in_flat_map in Ha. destruct Ha as (o & Ho & Hk). destruct o as [d|]; [|easy].
  apply In_nth_error in Ho. destruct Ho as (x & Hx). eapply good_live; [exact G|].
  eapply refs_kid; [exact Hx|exact Hk].
Qed.
Lemma inv_order l s h : minv l s h -> in_order l h.
Proof.
  intros I. pose proof (v_st _ _ _ _ _ _ _ I) as (G & _). cbn [wipe] in G.
  assert (HR : forall r, In r (0 :: handles l) -> forall a, reaches h r a -> exists c, nth_error h a = Some (Some c)).
  { intros r Hr a Hra. induction Hra as [|x c b _ IH Hc Hb].
    - eapply live_of; [exact G|]. left. cbn. destruct Hr as [<-|Hr]; [now left|right].
      rewrite handles_ptr in Hr. exact Hr.
    - eapply live_of; [exact G|]. right. apply in_flat_map. exists (Some c). split; [|exact Hb].
      eapply nth_error_In. exact Hc. }
  split.
  - intros a c Hc. destruct (vinv_count _ _ _ _ _ _ _ _ _ I Hc) as [E P]. split; [exact P|].
    rewrite E, handles_ptr. cbn [count_occ]. destruct (Nat.eq_dec 0 a) as [<-|N]; [reflexivity|].
    destruct (Nat.eqb_spec a 0); [congruence|]. reflexivity.
  - intros r a Hr. apply HR. now right.
  - intros a c Hc. destruct (vinv_reach _ _ _ _ _ _ _ _ _ I Hc) as (r & Hr & Hra). exists r. split; [|exact Hra].
    now rewrite handles_ptr.
  - intros E a c Hc.
    pose proof (v_base _ _ _ _ _ _ _ I) as Hb. inversion Hb as [|? ? ? ? S0 _]; subst.
    destruct (rep_inv _ _ _ S0) as (c0 & ts & C0 & F0 & Et). unfold wipe in C0, F0. cbn in Et.
    assert (ts = []) as -> by congruence. inversion F0 as [K0|]; subst.
    destruct (vinv_reach _ _ _ _ _ _ _ _ _ I Hc) as (r & Hr & Hra).
    rewrite handles_ptr in E. rewrite E in Hr. cbn in Hr. destruct Hr as [<-|[]].
    assert (a = 0) as ->.
    { clear -Hra C0 K0. induction Hra as [|x d b _ IH Hd Hb']; [reflexivity|]. exfalso.
      subst x. unfold cell_at in *. rewrite C0 in Hd. injection Hd as <-.
      now rewrite <- K0 in Hb'. }
    split; [reflexivity|]. unfold cell_at in C0. rewrite C0 in Hc. injection Hc as <-.
    split; [|now symmetry].
    destruct (vinv_count _ _ _ _ _ _ _ _ _ I C0) as [Ec _]. rewrite Ec, E. cbn [count_occ flat_map].
    destruct (Nat.eq_dec 0 0); [|easy].
    assert (Z : forall r, ~ In r (links h)).
    { intros r Hl. unfold links in Hl. apply in_flat_map in Hl. destruct Hl as (o & Ho & Hk).
      destruct o as [d|]; [|easy]. apply In_nth_error in Ho. destruct Ho as (x & Hx).
      destruct (vinv_reach _ _ _ _ _ _ _ _ _ I Hx) as (r' & Hr & Hra').
      rewrite E in Hr. cbn in Hr. destruct Hr as [<-|[]].
      assert (x = 0) as ->.
      { clear -Hra' C0 K0. induction Hra' as [|x d b _ IH Hd Hb']; [reflexivity|]. exfalso.
        subst x. unfold cell_at in *. rewrite C0 in Hd. injection Hd as <-. now rewrite <- K0 in Hb'. }
      rewrite C0 in Hx. injection Hx as <-. now rewrite <- K0 in Hk. }
    fold (links h). rewrite (proj1 (count_occ_not_In Nat.eq_dec _ _) (Z 0)). reflexivity.
Qed.

(** Whatever programs do with maps, sets and tables, memory is in order. *)
Theorem C41_maps (os : list (mop T K V)) : setup -> no_throw os ->
  exists l xs h, mrun [] os start = Ok ((l, xs), h) /\ in_order l h.
Proof.
  intros H Ho. destruct (run_start os H (ok_no_throw _ Ho)) as (l & xs & h & s & E & _ & I).
  exists l, xs, h. split; [exact E|]. eapply inv_order. exact I.
Qed.

(** *** C43 *)
(** Operations that throw wherever they can, but not removals in place, and with no two
    different keys of the same hash if copies of elements can throw: they are defined, all
    variables other than one an operation was changing in place keep their contents, and
    memory is in order (nothing leaks, nothing is freed too early). *)
Theorem C43_maps_partial (os : list (mop T K V)) : setup ->
  Forall (fun o => erases_in_place o = true -> mfates o = []) os ->
  ct = false \/ (forall a b, khash a = khash b -> keq a b = true) ->
  exists l xs h s, mrun [] os start = Ok ((l, xs), h) /\ mspecs [] os xs s /\ in_order l h.
Proof.
  intros H Ho Hc. destruct (run_start os H) as (l & xs & h & s & E & S & I).
  - eapply Forall_impl; [|exact Ho]. intros o Heo. split; [|exact Heo]. now right.
  - exists l, xs, h, s. split; [exact E|]. split; [exact S|]. eapply inv_order. exact I.
Qed.
End Props.
Print Assumptions C10_programs.
Print Assumptions C10_transient_is_persistent.
Print Assumptions C41_maps.
Print Assumptions C43_maps_partial.

(** *** Concrete maps *)
Section Concrete.
Local Open Scope N_scope.
Notation prun khash ct := (mrun 5 (@fst N N) khash N.eqb (@snd N N) (@pair N N) ct (fun x => x) 0).
Definition hid (k : N) : N := k mod 2 ^ 64.
Definition hmod (k : N) : N := k mod 16.
Lemma setup_hid : setup 5 (@fst N N) hid N.eqb (@pair N N).
Proof.
  split; [lia|]. split; [|intros; apply N.eqb_refl].
  split; [apply N.eqb_refl|]. split; [intros a b; now rewrite N.eqb_sym|].
  split; [intros a b c H1 H2; apply N.eqb_eq in H1, H2; subst; apply N.eqb_refl|].
  split; [intros a b H; apply N.eqb_eq in H; now subst|]. intros k. apply N.mod_lt. easy.
Qed.
Lemma setup_hmod : setup 5 (@fst N N) hmod N.eqb (@pair N N).
Proof.
  split; [lia|]. split; [|intros; apply N.eqb_refl].
  split; [apply N.eqb_refl|]. split; [intros a b; now rewrite N.eqb_sym|].
  split; [intros a b c H1 H2; apply N.eqb_eq in H1, H2; subst; apply N.eqb_refl|].
  split; [intros a b H; apply N.eqb_eq in H; now subst|]. intros k. unfold hmod.
  assert (k mod 16 < 16) by (apply N.mod_lt; easy). apply N.lt_trans with 16; [assumption|reflexivity].
Qed.
(** Keys 1 and 33 share a child of the root, 17 and 1 a collision node under [hmod]. *)
Definition prog1 : list (mop (N * N) N N) :=
  [MNew; MApply 0 (OpInsert (1, 10)) []; MApply 1 (OpInsert (33, 20)) []; MCopy 2;
   MMutate 3 (OpErase 33) []; MMutate 3 (OpUpdate 1 (fun v => v + 5) 0) []; MMutate 3 (OpInsert (17, 7)) []].
Example C10_transient_is_persistent_nonvacuous :
  setup 5 (@fst N N) hid N.eqb (@pair N N) /\ no_throw prog1 /\
  match prun hid true [] prog1 (start (T := N * N)) with
  | Ok ((l, _), h) => nth_error l 2%nat = Some (VHas (mkH 5 2)) /\ length h = 10%nat
  | UB => False
  end.
Proof. split; [exact setup_hid|]. split; [repeat constructor|]. vm_compute. auto. Qed.
Definition finds khash ct l (os : list (mop (N * N) N N)) : list (mobs (N * N)) :=
  match prun khash ct l os (start (T := N * N)) with Ok ((_, xs), _) => xs | UB => [OThrew] end.
Example prog1_observed : forall ct, finds hmod ct [] (prog1 ++ [MGet 2 33 []; MGet 3 33 []; MGet 3 1 []; MGet 2 1 []; MGet 3 17 []; MSize 3; MSize 2]) =
  repeat ONone 7 ++ [OFound (Some (33, 20)); OFound None; OFound (Some (1, 15)); OFound (Some (1, 10));
                     OFound (Some (17, 7)); OSize 2; OSize 2].
Proof. intros []; vm_compute; reflexivity. Qed.

(** Copies that throw: the third of the points where the insertion of 2 may throw does. *)
Definition prog2 : list (mop (N * N) N N) :=
  [MNew; MApply 0 (OpInsert (1, 10)) []; MApply 1 (OpInsert (33, 20)) []; MCopy 2;
   MMutate 3 (OpInsert (2, 7)) [false; false; true]; MApply 2 (OpErase 33) [false; true];
   MGet 2 33 []; MDestroy 0; MDestroy 1; MDestroy 2; MDestroy 3].
Example C43_maps_nonvacuous : setup 5 (@fst N N) hid N.eqb (@pair N N) /\
  Forall (fun o => erases_in_place o = true -> mfates o = []) prog2 /\
  finds hid true [] prog2 = repeat ONone 4 ++ [OThrew; OThrew; OFound (Some (33, 20))] ++ repeat ONone 4.
Proof. split; [exact setup_hid|]. split; [repeat constructor; discriminate|]. vm_compute. reflexivity. Qed.

(** The [n]-th point where something may throw does. *)
Definition nth_throws (n : nat) : list bool := repeat false n ++ [true].
(** Replacing the value of a key that sits in a collision node, when the copy of another
    element of the node throws, destroys the new element twice (node.hpp:490-520). *)
Definition collision_prog : list (mop (N * N) N N) :=
  [MNew; MApply 0 (OpInsert (1, 10)) []; MApply 1 (OpInsert (17, 20)) [];
   MApply 2 (OpInsert (17, 30)) (nth_throws 3)].
Theorem C43_collision_replace_refuted : exists khash os,
  setup 5 (@fst N N) khash N.eqb (@pair N N) /\
  Forall (fun o => erases_in_place o = true -> mfates o = []) os /\
  prun khash true [] os (start (T := N * N)) = UB.
Proof.
  exists hmod, collision_prog. split; [exact setup_hmod|]. split; [repeat constructor; discriminate|].
  vm_compute. reflexivity.
Qed.
(** Removing in place, when the child is left with one element and taking that element up
    into the parent throws, leaves the parent with a pointer to the child, which is gone
    (champ.hpp: do_sub_mut); destroying the container then is undefined, even with elements
    whose copies do not throw. *)
Definition erase_prog : list (mop (N * N) N N) :=
  [MNew; MMutate 0 (OpInsert (1, 10)) []; MMutate 0 (OpInsert (33, 20)) []; MMutate 0 (OpInsert (2, 30)) [];
   MMutate 0 (OpErase 33) (nth_throws 2); MDestroy 0].
Theorem C43_erase_in_place_refuted : exists os,
  setup 5 (@fst N N) hid N.eqb (@pair N N) /\
  prun hid true [] os (start (T := N * N)) = UB /\
  prun hid false [] os (start (T := N * N)) = UB /\
  finds hid true [] (removelast os) = repeat ONone 4 ++ [OThrew].
Proof.
  exists erase_prog. split; [exact setup_hid|]. split; [vm_compute; reflexivity|]. split; vm_compute; reflexivity.
Qed.
End Concrete.
Print Assumptions C43_collision_replace_refuted.
Print Assumptions C43_erase_in_place_refuted.
