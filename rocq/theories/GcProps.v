(** C48: concatenation in place for the memory policy with a garbage collector. *)
From Coq Require Import List NArith Arith Bool Lia ZifyN ZifyNat ZifyBool.
From Verif Require Import Common NList Rrb RrbInv RrbConcat RrbReach RrbStrict RrbExec
  GcConcat GcSpec GcRep GcVisit GcTree GcRead GcCheck.
Import ListNotations.
Local Open Scope N_scope.

Set Default Goal Selector "!".

Lemma NoDup_app_remove_r (A C : list nat) : NoDup (A ++ C) -> NoDup A.
Proof.
  intros H. apply (NoDup_count_occ Nat.eq_dec). intros a. pose proof (proj1 (NoDup_count_occ Nat.eq_dec _) H a) as E.
  rewrite count_occ_app in E. lia.
Qed.
Lemma gtrep_owned {T} B BL mine h x (t : tree T) F : gtrep B BL mine h x t F -> forall a, In a F -> owned mine h a.
Proof.
  intros (_ & _ & Fr & Ft & X1 & X2 & ->) a Ha. apply in_app_or in Ha as [Ha|Ha].
  - exact (rep_owned B BL mine h _ _ _ _ X1 a Ha).
  - exact (rep_owned B BL mine h _ _ _ _ X2 a Ha).
Qed.
(** A vector none of whose blocks has changed. *)
Lemma gtrep_kept {T} B BL mine (h h' : gheap T) x t F :
  (length h <= length h')%nat ->
  (forall a c, nth_error h a = Some c -> (ow mine (g_own c) = true -> In a F) -> nth_error h' a = Some c) ->
  gtrep B BL mine h x t F -> gtrep B BL mine h' x t F.
Proof.
  intros Hl Hk (E1 & E2 & Fr & Ft & X1 & X2 & ->). split; [auto|]. split; [auto|]. exists Fr, Ft.
  set (W := filter (fun a => match nth_error h a with
    | Some c => ow mine (g_own c) && (if in_dec Nat.eq_dec a (Fr ++ Ft) then false else true) | None => false end) (seq 0 (length h))).
  assert (chg mine h h' W) as Hc.
  { split; [auto|]. split.
    - intros a c Ha Hn. apply (Hk a c Ha). intros Ho. destruct (in_dec Nat.eq_dec a (Fr ++ Ft)) as [Hi|Hi]; [auto|].
      exfalso. apply Hn. apply filter_In. split.
      + apply in_seq. assert (a < length h)%nat by (apply nth_error_Some; congruence). lia.
      + rewrite Ha, Ho. destruct (in_dec Nat.eq_dec a (Fr ++ Ft)); easy.
    - intros a c Ha Hi. apply filter_In in Hi as [_ Hi]. rewrite Ha in Hi. apply andb_prop in Hi. tauto. }
  assert (forall a, In a (Fr ++ Ft) -> ~ In a W) as Hd.
  { intros a Ha Hi. apply filter_In in Hi as [_ Hi]. destruct (nth_error h a); [|easy]. apply andb_prop in Hi as [_ Hi].
    destruct (in_dec Nat.eq_dec a (Fr ++ Ft)); easy. }
  split; [|split; [|reflexivity]]; eapply rep_chg; eauto; intros a Ha; apply Hd, in_or_app; auto.
Qed.

(** * C48 *)
(** Vectors [x] and [y] whose blocks with tokens in [mine] are [F1] and [F2], each of them in one
    place only, are concatenated in place: the result reads as the one sequence followed by the other,
    its shape is that of the concatenation by copying, the blocks outside of [F1] and [F2] are as
    before, and the result may again be overwritten. *)
Theorem C48_concat : forall T B BL mine ec el er h x y (t r : tree T) xs ys F1 F2, 2 <= B ->
  mine ec = true -> mine el = true -> mine er = true ->
  built B BL t xs -> built B BL r ys -> 0 < size t -> 0 < nsize (root r) -> small B BL r ->
  gtrep B BL mine h x t F1 -> gtrep B BL mine h y r F2 -> NoDup (F1 ++ F2) ->
  exists z h' t' F, gconcat_mut B BL ec el er x y h = Ok (z, h') /\
    reads B BL h' z = Some (xs ++ ys) /\
    concat B BL t r = Ok t' /\ built B BL t' (xs ++ ys) /\ gtrep B BL mine h' z t' F /\ NoDup F /\
    (length h <= length h')%nat /\
    (forall a, In a F -> In a (F1 ++ F2) \/ (length h <= a)%nat) /\
    (forall a c, nth_error h a = Some c -> ~ In a (F1 ++ F2) -> nth_error h' a = Some c).
Proof.
  intros T B BL mine ec el er h x y t r xs ys F1 F2 HB Hec Hel Her Bt Br Pt Pr Hsm Hx Hy Hnd.
  destruct (built_inv B BL HB t xs Bt) as [It Et]. destruct (built_inv B BL HB r ys Br) as [Ir Er].
  destruct (built_strict B BL HB t xs Bt) as [St _]. destruct (built_strict B BL HB r ys Br) as [Sr _].
  pose proof Hsm as [Hs1 Hs2]. assert (nsize (root r) <= 2 ^ 32) as H32.
  { destruct Ir as (zs & _ & E & _). lia. }
  assert (forall a, In a (F1 ++ F2) -> (a < length h)%nat) as Hlt.
  { intros a Ha. apply (owned_lt mine h). apply in_app_or in Ha as [Ha|Ha]; [exact (gtrep_owned _ _ _ _ _ _ _ Hx a Ha)|exact (gtrep_owned _ _ _ _ _ _ _ Hy a Ha)]. }
  set (R := filter (fun a => if in_dec Nat.eq_dec a (F1 ++ F2) then false else true) (seq 0 (length h))).
  assert (forall a, In a R <-> (a < length h)%nat /\ ~ In a (F1 ++ F2)) as HR.
  { intros a. unfold R. rewrite filter_In, in_seq. destruct (in_dec Nat.eq_dec a (F1 ++ F2)); intuition (try easy; lia). }
  assert (NoDup R) as NR by (apply NoDup_filter, seq_NoDup).
  assert (sep (length h) (F1 ++ F2 ++ R)) as Hsep.
  { rewrite app_assoc. intros a. rewrite occ_app. destruct (in_dec Nat.eq_dec a (F1 ++ F2)) as [Ha|Ha].
    - assert (occ a R = 0%nat) as -> by (apply count_occ_not_In; rewrite HR; tauto).
      pose proof (NoDup_sep _ _ Hnd Hlt a). lia.
    - assert (occ a (F1 ++ F2) = 0%nat) as -> by now apply count_occ_not_In.
      apply (NoDup_sep (length h) R NR). intros b Hb. apply HR in Hb. tauto. }
  destruct (mut_run B BL mine HB ec el er h x y t r F1 F2 R Hec Hel Her Hx Hy It Ir Pt Pr St Sr Hs1 H32 Hsep)
    as (z & h' & t' & F & E1 & E2 & E3 & E4 & (W & E5 & E6)).
  assert (built B BL t' (xs ++ ys)) as Bt' by (eapply b_concat; eauto).
  destruct (built_inv B BL HB t' _ Bt') as [It' Et'].
  exists z, h', t', F. split; [exact E1|]. split; [rewrite <- Et'; eapply reads_ok; eauto; lia|].
  split; [auto|]. split; [auto|]. split; [auto|].
  split. { apply sep_NoDup in E4. apply NoDup_app_remove_r in E4. exact E4. }
  split; [now apply (chg_len mine h h' W)|]. split.
  - intros a Ha. destruct (le_lt_dec (length h) a) as [Hl|Hl]; [now right|left].
    destruct (in_dec Nat.eq_dec a (F1 ++ F2)) as [Hi|Hi]; [auto|exfalso].
    assert (In a R) as HaR by (apply HR; auto).
    apply (sep_dis _ F R _ E4) with a; auto. intros b. rewrite occ_app. lia.
  - intros a c Ha Hn. destruct E5 as (_ & K & _). apply K; auto. apply E6, HR. split; [|auto].
    apply nth_error_Some. congruence.
Qed.
Print Assumptions C48_concat.

(** Every other vector that may overwrite other blocks is as before, and so are the ones that may
    overwrite none: the values of other variables and what was obtained earlier by persistent(). *)
Theorem C48_others : forall T B BL mine ec el er h x y (t r : tree T) xs ys F1 F2 w s zs F3, 2 <= B ->
  mine ec = true -> mine el = true -> mine er = true ->
  built B BL t xs -> built B BL r ys -> 0 < size t -> 0 < nsize (root r) -> small B BL r ->
  gtrep B BL mine h x t F1 -> gtrep B BL mine h y r F2 -> NoDup (F1 ++ F2 ++ F3) ->
  gtrep B BL mine h w s F3 -> built B BL s zs ->
  exists z h' t' F, gconcat_mut B BL ec el er x y h = Ok (z, h') /\
    gtrep B BL mine h' z t' F /\ gtrep B BL mine h' w s F3 /\ NoDup (F ++ F3) /\
    reads B BL h' z = Some (xs ++ ys) /\ reads B BL h w = Some zs /\ reads B BL h' w = Some zs.
Proof.
  intros T B BL mine ec el er h x y t r xs ys F1 F2 w s zs F3 HB Hec Hel Her Bt Br Pt Pr Hsm Hx Hy Hnd Hw Bs.
  rewrite app_assoc in Hnd. pose proof (NoDup_app_remove_r _ _ Hnd) as Hnd1.
  destruct (C48_concat T B BL mine ec el er h x y t r xs ys F1 F2 HB Hec Hel Her Bt Br Pt Pr Hsm Hx Hy Hnd1)
    as (z & h' & t' & F & E1 & E2 & E3 & E4 & E5 & E6 & E7 & E8 & E9).
  assert (forall a, In a (F1 ++ F2) -> ~ In a F3) as Hd.
  { intros a Ha Hb. pose proof (proj1 (NoDup_count_occ Nat.eq_dec _) Hnd a) as Hc. rewrite count_occ_app in Hc.
    apply (count_occ_In Nat.eq_dec) in Ha, Hb. lia. }
  assert (gtrep B BL mine h' w s F3) as Hw'.
  { eapply gtrep_kept; [exact E7| |exact Hw]. intros a c Ha Ho. apply E9; [auto|]. intros Hi. apply (Hd a Hi), Ho.
    assert (owned mine h a) as (c' & Ec & Hc').
    { apply in_app_or in Hi as [Hi|Hi]; [exact (gtrep_owned _ _ _ _ _ _ _ Hx a Hi)|exact (gtrep_owned _ _ _ _ _ _ _ Hy a Hi)]. }
    congruence. }
  destruct (built_inv B BL HB s zs Bs) as [Is Es].
  exists z, h', t', F. split; [auto|]. split; [auto|]. split; [auto|]. split.
  { apply (NoDup_count_occ Nat.eq_dec). intros a. rewrite count_occ_app.
    pose proof (proj1 (NoDup_count_occ Nat.eq_dec _) E6 a) as H1.
    pose proof (proj1 (NoDup_count_occ Nat.eq_dec _) Hnd a) as H2. rewrite count_occ_app in H2.
    destruct (in_dec Nat.eq_dec a F) as [Hi|Hi]; [|apply (count_occ_not_In Nat.eq_dec) in Hi; lia].
    destruct (in_dec Nat.eq_dec a F3) as [Hj|Hj]; [|apply (count_occ_not_In Nat.eq_dec) in Hj; lia].
    exfalso. destruct (E8 a Hi) as [Hk|Hk]; [apply (Hd a Hk Hj)|].
    pose proof (owned_lt mine h a (gtrep_owned B BL mine h w s F3 Hw a Hj)). lia. }
  split; [auto|]. rewrite <- Es. split; eapply reads_ok; eauto; lia.
Qed.
Print Assumptions C48_others.

(** Only blocks that carry one of the three tokens change, and so a vector without such blocks does
    not. *)
Definition one_of (a b c : token) (k : token) : bool := Nat.eqb k a || Nat.eqb k b || Nat.eqb k c.
Theorem C48_tokens : forall T B BL ec el er h x y (t r : tree T) xs ys F1 F2, 2 <= B ->
  let mine := one_of ec el er in
  built B BL t xs -> built B BL r ys -> 0 < size t -> 0 < nsize (root r) -> small B BL r ->
  gtrep B BL mine h x t F1 -> gtrep B BL mine h y r F2 -> NoDup (F1 ++ F2) ->
  exists z h', gconcat_mut B BL ec el er x y h = Ok (z, h') /\ reads B BL h' z = Some (xs ++ ys) /\
    (forall a c, nth_error h a = Some c -> g_own c <> Some ec -> g_own c <> Some el -> g_own c <> Some er ->
       nth_error h' a = Some c) /\
    (forall w s zs, gtrep B BL mine h w s [] -> built B BL s zs ->
       reads B BL h w = Some zs /\ reads B BL h' w = Some zs).
Proof.
  intros T B BL ec el er h x y t r xs ys F1 F2 HB mine Bt Br Pt Pr Hsm Hx Hy Hnd.
  assert (mine ec = true /\ mine el = true /\ mine er = true) as (Hec & Hel & Her).
  { unfold mine, one_of. rewrite !Nat.eqb_refl, !orb_true_r. auto. }
  destruct (C48_concat T B BL mine ec el er h x y t r xs ys F1 F2 HB Hec Hel Her Bt Br Pt Pr Hsm Hx Hy Hnd)
    as (z & h' & t' & F & E1 & E2 & E3 & E4 & E5 & E6 & E7 & E8 & E9).
  exists z, h'. split; [auto|]. split; [auto|]. split.
  - intros a c Ha N1 N2 N3. apply E9; [auto|]. intros Hi. assert (owned mine h a) as (c' & Ec & Hc').
    { apply in_app_or in Hi as [Hi|Hi]; [exact (gtrep_owned _ _ _ _ _ _ _ Hx a Hi)|exact (gtrep_owned _ _ _ _ _ _ _ Hy a Hi)]. }
    rewrite Ha in Ec. injection Ec as <-. unfold ow in Hc'. destruct (g_own c) as [k|]; [|easy].
    unfold mine, one_of in Hc'. destruct (Nat.eqb_spec k ec), (Nat.eqb_spec k el), (Nat.eqb_spec k er); subst; cbn in Hc'; congruence.
  - intros w s zs Hw Bs. rewrite <- (app_nil_r F2) in Hnd.
    destruct (C48_others T B BL mine ec el er h x y t r xs ys F1 F2 w s zs [] HB Hec Hel Her Bt Br Pt Pr Hsm Hx Hy Hnd Hw Bs)
      as (z1 & h1 & t1 & G1 & D1 & _ & _ & _ & _ & D2 & D3).
    rewrite E1 in D1. injection D1 as <- <-. auto.
Qed.
Print Assumptions C48_tokens.

(** The concrete case: a relaxed vector whose first blocks carry no token and the others token 1, one
    whose blocks carry token 2, and a third one without tokens. *)
Definition ex_lc : list (cmd N) := pushes 25 ++ [CSelf; CErase 46; CErase 44; CErase 42; CErase 40].
Definition ex_rc : list (cmd N) := pushes 9 ++ [CDrop 1; CSelf; CErase 1; CErase 3; CErase 5; CFront 9].
Definition ex_l : tree N := match exec 2 1 empty ex_lc with Some t => t | None => empty end.
Definition ex_r : tree N := match exec 2 1 empty ex_rc with Some t => t | None => empty end.
Example ex_l_built : built 2 1 ex_l (to_list ex_l).
Proof. apply exec_built with ex_lc; [lia|]. vm_compute. reflexivity. Qed.
Example ex_r_built : built 2 1 ex_r (to_list ex_r).
Proof. apply exec_built with ex_rc; [lia|]. vm_compute. reflexivity. Qed.
Example ex_r_small : small 2 1 ex_r.
Proof. apply small_b_ok. vm_compute. reflexivity. Qed.
Example ex_shapes : (lv ex_l, is_rel (root ex_l), size ex_l, lv ex_r, is_rel (root ex_r), size ex_r) = (2%nat, true, 46, 1%nat, true, 14).
Proof. vm_compute. reflexivity. Qed.
Definition ex_mem : gtree * gtree * gtree * gheap N :=
  match (x <~ put_tree 2 1 (fun a => if Nat.ltb a 10 then None else Some 1%nat) ex_l ;;
         y <~ put_tree 2 1 (fun _ => Some 2%nat) ex_r ;;
         w <~ put_tree 2 1 (fun _ => None) ex_l ;; gret (x, y, w)) [] with
  | Ok r => r
  | UB => (mkGT 0 0 0 0, mkGT 0 0 0 0, mkGT 0 0 0 0, [])
  end.
Definition ex_x := fst (fst (fst ex_mem)).
Definition ex_y := snd (fst (fst ex_mem)).
Definition ex_w := snd (fst ex_mem).
Definition ex_h := snd ex_mem.
Definition ex_own (x : gtree) (t : tree N) : list nat :=
  match gtrepb 2 1 (one_of 1%nat 1%nat 2%nat) ex_h x t with Some F => F | None => [] end.
Example ex_x_rep : gtrep 2 1 (one_of 1%nat 1%nat 2%nat) ex_h ex_x ex_l (ex_own ex_x ex_l).
Proof. apply gtrepb_ok. vm_compute. reflexivity. Qed.
Example ex_y_rep : gtrep 2 1 (one_of 1%nat 1%nat 2%nat) ex_h ex_y ex_r (ex_own ex_y ex_r).
Proof. apply gtrepb_ok. vm_compute. reflexivity. Qed.
Example ex_w_rep : gtrep 2 1 (one_of 1%nat 1%nat 2%nat) ex_h ex_w ex_l [].
Proof. apply gtrepb_ok. vm_compute. reflexivity. Qed.
Example ex_apart : NoDup (ex_own ex_x ex_l ++ ex_own ex_y ex_r).
Proof. apply nodupb_ok. vm_compute. reflexivity. Qed.
Example ex_owned : (length ex_h, length (ex_own ex_x ex_l), length (ex_own ex_y ex_r)) = (103%nat, 33%nat, 17%nat).
Proof. vm_compute. reflexivity. Qed.
(** What the code does there: the right operand is read back as part of the result, some blocks of
    both operands have changed. *)
Definition changed (h h' : gheap N) : list nat :=
  filter (fun a => match nth_error h a, nth_error h' a with
    | Some (mkG _ (GLeaf xs)), Some (mkG _ (GLeaf ys)) =>
        negb (if list_eq_dec (fun a b : option N => ltac:(decide equality; apply N.eq_dec)) xs ys then true else false)
    | Some (mkG _ (GInner _ xs)), Some (mkG _ (GInner _ ys)) =>
        negb (if list_eq_dec (fun a b : option nat => ltac:(decide equality; apply Nat.eq_dec)) xs ys then true else false)
    | Some (mkG _ (GTable _ xs)), Some (mkG _ (GTable _ ys)) =>
        negb (if list_eq_dec (fun a b : option N => ltac:(decide equality; apply N.eq_dec)) xs ys then true else false)
    | _, _ => true end) (seq 0 (length h)).
Example C48_case :
  match gconcat_mut 2 1 1%nat 1%nat 2%nat ex_x ex_y ex_h with
  | Ok (z, h') => (reads 2 1 h' z, length h', changed ex_h h', reads 2 1 h' ex_w)
  | UB => (None, O, [], None)
  end = (Some (to_list ex_l ++ to_list ex_r), 103%nat,
    map N.to_nat [25; 26; 31; 32; 33; 34; 36; 37; 38; 39; 40; 41; 47; 48; 57; 58], Some (to_list ex_l)).
Proof. vm_compute. reflexivity. Qed.
(** The blocks of the operands have to be apart: a vector is not to be appended to itself
    (assert(&l != &r), rrbtree.hpp:786). *)
Example C48_itself : gconcat_mut 2 1 1%nat 1%nat 1%nat ex_x ex_x ex_h = UB.
Proof. vm_compute. reflexivity. Qed.
