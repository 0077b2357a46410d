(** C63: the operators of random access iterators. *)
From Coq Require Import List Arith NArith ZArith Bool Lia ZifyN ZifyNat ZifyBool.
From Verif Require Import Common NList Rrb RrbInv RrbTree RrbView RrbSpec RrbViewOk RrbReach RrbWalk RrbLemmas RrbExec RrbProps
  FacadeSpec Facade.
Import ListNotations.
Set Default Goal Selector "!".

Lemma dist_ok i j : (i < 2 ^ 63)%N -> (j < 2 ^ 63)%N -> dist_of i j = Ok (Z.of_N j - Z.of_N i)%Z.
Proof.
  intros Hi Hj. assert (D : forall x, (x < 2 ^ 63)%N -> to_diff x = Z.of_N x).
  { intros x Hx. unfold to_diff. rewrite Z.mod_small by lia. destruct (Z.ltb_spec (Z.of_N x) (2 ^ 63)); lia. }
  unfold dist_of, neg_diff. destruct (N.ltb_spec i j); rewrite D by lia; [f_equal; lia|].
  destruct (Z.eqb_spec (Z.of_N (i - j)) (- 2 ^ 63)); [lia|]. f_equal. lia.
Qed.

Section Generic.
Context {I T : Type}.
Variable P : prims I T.
Variable xs : list T.
Variable pos : I -> nat.
Variable ok : I -> Prop.
Hypothesis Hlen : (Z.of_nat (length xs) < 2 ^ 63)%Z.
Hypothesis Hpos : forall it, ok it -> pos it <= length xs.
Hypothesis Hbegin : ok (p_begin P) /\ pos (p_begin P) = 0.
Hypothesis Hend : ok (p_end P) /\ pos (p_end P) = length xs.
Hypothesis Hinc : forall it j, ok it -> moved xs (pos it) 1 = Some j -> exists it', p_inc P it = Ok it' /\ ok it' /\ pos it' = j.
Hypothesis Hdec : forall it j, ok it -> moved xs (pos it) (-1) = Some j -> exists it', p_dec P it = Ok it' /\ ok it' /\ pos it' = j.
Hypothesis Hadv : forall it n j, ok it -> moved xs (pos it) n = Some j -> exists it', p_adv P n it = Ok it' /\ ok it' /\ pos it' = j.
Hypothesis Hderef : forall it x, ok it -> nth_error xs (pos it) = Some x ->
  exists it', p_deref P it = Ok (x, it') /\ ok it' /\ pos it' = pos it.
Hypothesis Hequal : forall a b, p_equal P a b = (pos a =? pos b).
Hypothesis Hdist : forall a b, ok a -> ok b -> p_dist P a b = Ok (Z.of_nat (pos b) - Z.of_nat (pos a))%Z.

Definition rel (v : nat -> I) (w : nat -> nat) : Prop := forall u, ok (v u) /\ pos (v u) = w u.
Lemma rel_set v w d it i : rel v w -> ok it -> pos it = i -> rel (vset v d it) (vset w d i).
Proof. intros H H1 H2 u. unfold vset. destruct (u =? d); auto. Qed.
Lemma moved_bound i n j : i <= length xs -> moved xs i n = Some j -> (- 2 ^ 63 < n)%Z /\ (- 2 ^ 63 < - n)%Z.
Proof. unfold moved. intros Hi. destruct (_ && _)%bool eqn:E; [|discriminate]. intros _. lia. Qed.
Lemma sub_ok it n j : ok it -> moved xs (pos it) (- n) = Some j -> exists it', f_subfrom P it n = Ok it' /\ ok it' /\ pos it' = j.
Proof.
  intros H1 H2. destruct (moved_bound _ _ _ (Hpos it H1) H2) as [H3 H4]. unfold f_subfrom, neg_diff.
  destruct (Z.eqb_spec n (- 2 ^ 63)); [lia|]. cbn [rbind]. now apply Hadv.
Qed.
Lemma step_ok v w o w' ys : rel v w -> fspec xs w o = Some (w', ys) -> exists v', fstep P v o = Ok (v', ys) /\ rel v' w'.
Proof.
  intros Hr Hs. destruct o as [d|d|d s|d s|d s|d s|d s n|d s n|d s n|d n s|d s n|s|s n|a b|c a b]; cbn [fspec fstep] in *; cbv zeta in Hs;
    unfold f_index, f_inc, f_dec, f_minus, f_plusleft, f_plus, f_addto in *.
  1-2: injection Hs as <- <-; eexists; (split; [reflexivity|]); apply rel_set; tauto.
  1-9: destruct (moved xs (w s) _) as [j|] eqn:E; [|discriminate Hs]; injection Hs as <- <-; destruct (Hr s) as [H1 H2]; rewrite <- H2 in E.
  - destruct (Hinc _ _ H1 E) as (it' & -> & H3 & H4). eexists. split; [reflexivity|]. repeat apply rel_set; auto.
  - destruct (Hinc _ _ H1 E) as (it' & -> & H3 & H4). eexists. split; [reflexivity|]. repeat apply rel_set; auto.
  - destruct (Hdec _ _ H1 E) as (it' & -> & H3 & H4). eexists. split; [reflexivity|]. repeat apply rel_set; auto.
  - destruct (Hdec _ _ H1 E) as (it' & -> & H3 & H4). eexists. split; [reflexivity|]. repeat apply rel_set; auto.
  - destruct (Hadv _ _ _ H1 E) as (it' & -> & H3 & H4). eexists. split; [reflexivity|]. repeat apply rel_set; auto.
  - destruct (sub_ok _ _ _ H1 E) as (it' & -> & H3 & H4). eexists. split; [reflexivity|]. repeat apply rel_set; auto.
  - destruct (Hadv _ _ _ H1 E) as (it' & -> & H3 & H4). eexists. split; [reflexivity|]. repeat apply rel_set; auto.
  - destruct (Hadv _ _ _ H1 E) as (it' & -> & H3 & H4). eexists. split; [reflexivity|]. repeat apply rel_set; auto.
  - destruct (sub_ok _ _ _ H1 E) as (it' & -> & H3 & H4). eexists. split; [reflexivity|]. repeat apply rel_set; auto.
  - destruct (nth_error xs (w s)) as [x|] eqn:E; [|discriminate Hs]. injection Hs as <- <-. destruct (Hr s) as [H1 H2]. rewrite <- H2 in E.
    destruct (Hderef _ _ H1 E) as (it' & -> & H3 & H4). eexists. split; [reflexivity|]. cbn [fst snd]. intros u. unfold vset.
    destruct (Nat.eqb_spec u s); [subst; split; [exact H3|congruence]|apply Hr].
  - destruct (moved xs (w s) n) as [j|] eqn:E; [|discriminate Hs]. destruct (Hr s) as [H1 H2]. rewrite <- H2 in E.
    destruct (nth_error xs j) as [x|] eqn:Ex; [|discriminate Hs]. injection Hs as <- <-.
    destruct (Hadv _ _ _ H1 E) as (it' & -> & H3 & H4). cbn [rbind]. rewrite <- H4 in Ex.
    destruct (Hderef _ _ H3 Ex) as (it2 & -> & _). eexists. split; [reflexivity|exact Hr].
  - injection Hs as <- <-. destruct (Hr a) as [H1 H2], (Hr b) as [H3 H4]. unfold f_diff. rewrite Hdist by auto. rewrite H2, H4.
    eexists. split; [reflexivity|exact Hr].
  - injection Hs as <- <-. destruct (Hr a) as [H1 H2], (Hr b) as [H3 H4]. exists v. split; [|exact Hr].
    destruct c; cbn [f_cmp compare_pos]; rewrite ?Hequal, ?Hdist by auto; cbn [rbind]; rewrite ?H2, ?H4; try reflexivity;
      do 4 f_equal; lia.
Qed.
Lemma runs_ok os : forall v w zs, rel v w -> fspecs xs w os = Some zs -> fruns P v os = Ok zs.
Proof.
  induction os as [|o os IH]; intros v w zs Hr H; cbn [fspecs fruns] in *; [congruence|].
  destruct (fspec xs w o) as [[w' ys]|] eqn:E; [|discriminate H]. destruct (step_ok v w o w' ys Hr E) as (v' & -> & Hr').
  cbn [rbind fst snd]. destruct (fspecs xs w' os) as [zs'|] eqn:E2; [|discriminate H]. rewrite (IH v' w' zs' Hr' E2). cbn [rbind]. congruence.
Qed.
Lemma run_ok os zs : fspecs xs (fun _ => 0) os = Some zs -> frun P os = Ok zs.
Proof. apply runs_ok. intros u. exact Hbegin. Qed.
End Generic.

(** ** Theorems *)
(** Programs with any number of iterators of one flex_vector (vector) that stay within it show what
    positions in the sequence show, whatever the iterators have cached.  Missing sizes: 2^63 and more. *)
Theorem C63_flex_vector : forall T B BL (t : tree T) xs os zs, (2 <= B)%N -> built B BL t xs -> (size t < 2 ^ 63)%N ->
  fspecs xs (fun _ => 0) os = Some zs -> frun (flex_prims B BL t) os = Ok zs.
Proof.
  intros T B BL t xs os zs HB H Hs. destruct (built_inv B BL HB _ _ H) as [Hinv <-].
  pose proof (inv_size _ _ _ Hinv) as Hsz. unfold lenN in Hsz.
  apply (run_ok (flex_prims B BL t) (to_list t) (fun it => N.to_nat (it_i it)) (iter_ok t)).
  - lia.
  - intros it [H1 _]. lia.
  - split; [split; cbn; [lia|exact I]|reflexivity].
  - split; [split; cbn; [lia|exact I]|cbn; lia].
  - intros it j [H1 H2] Hm. unfold moved in Hm. destruct (_ && _)%bool eqn:E; [|discriminate Hm]. injection Hm as <-.
    cbn [flex_prims p_inc]. unfold it_inc. destruct (N.ltb_spec (it_i it) (size t)); [|lia].
    eexists. split; [reflexivity|]. split; [split; cbn; [lia|exact H2]|cbn; lia].
  - intros it j [H1 H2] Hm. unfold moved in Hm. destruct (_ && _)%bool eqn:E; [|discriminate Hm]. injection Hm as <-.
    cbn [flex_prims p_dec]. unfold it_dec. destruct (N.ltb_spec 0 (it_i it)); [|lia].
    eexists. split; [reflexivity|]. split; [split; cbn; [lia|exact H2]|cbn; lia].
  - intros it n j [H1 H2] Hm. unfold moved in Hm. destruct (_ && _)%bool eqn:E; [|discriminate Hm]. injection Hm as <-.
    cbn [flex_prims p_adv]. unfold it_advance. destruct ((0 <=? Z.of_N (it_i it) + n)%Z && _)%bool eqn:E2; [|lia].
    eexists. split; [reflexivity|]. split; [split; cbn; [lia|exact H2]|cbn; lia].
  - intros it x Hok Hx. assert (Hl : (it_i it < size t)%N).
    { assert (N.to_nat (it_i it) < length (to_list t)) by (apply nth_error_Some; congruence). lia. }
    destruct (it_deref_ok B BL ltac:(lia) t it Hinv Hok Hl) as (y & it' & E & Hy & Hok' & Ei). apply rnthN_ok_nth in Hy.
    exists it'. split; [cbn; rewrite E; congruence|]. split; [exact Hok'|congruence].
  - intros a b. cbn. lia.
  - intros a b [H1 _] [H2 _]. cbn. rewrite dist_ok by lia. f_equal. lia.
Qed.
Print Assumptions C63_flex_vector.
Theorem C63_vector : forall T B BL (t : tree T) xs os zs, (1 <= B)%N -> vbuilt B BL t xs ->
  (size t <= 2 ^ (BL + 6 * B))%N -> (size t < 2 ^ 63)%N ->
  fspecs xs (fun _ => 0) os = Some zs -> frun (vec_prims B BL t) os = Ok zs.
Proof.
  intros T B BL t xs os zs HB H Hd Hs. destruct (vbuilt_inv B BL HB _ _ H) as [Hv <-].
  pose proof (inv_size _ _ _ (proj1 Hv)) as Hsz. unfold lenN in Hsz.
  assert (Hl6 : lv t < 6) by (now apply (vinv_depth B BL HB)).
  apply (run_ok (vec_prims B BL t) (to_list t) (fun it => N.to_nat (vi_i it)) (viter_ok BL t)).
  - lia.
  - intros it [H1 _]. lia.
  - split; [split; cbn; [lia|exact I]|reflexivity].
  - split; [split; cbn; [lia|exact I]|cbn; lia].
  - intros it j [H1 H2] Hm. unfold moved in Hm. destruct (_ && _)%bool eqn:E; [|discriminate Hm]. injection Hm as <-.
    cbn [vec_prims p_inc]. unfold vi_inc. destruct (N.ltb_spec (vi_i it) (size t)); [|lia].
    eexists. split; [reflexivity|]. split; [split; cbn; [lia|exact H2]|cbn; lia].
  - intros it j [H1 H2] Hm. unfold moved in Hm. destruct (_ && _)%bool eqn:E; [|discriminate Hm]. injection Hm as <-.
    cbn [vec_prims p_dec]. unfold vi_dec. destruct (N.ltb_spec 0 (vi_i it)); [|lia].
    eexists. split; [reflexivity|]. split; [split; cbn; [lia|exact H2]|cbn; lia].
  - intros it n j [H1 H2] Hm. unfold moved in Hm. destruct (_ && _)%bool eqn:E; [|discriminate Hm]. injection Hm as <-.
    cbn [vec_prims p_adv]. unfold vi_advance. destruct ((0 <=? Z.of_N (vi_i it) + n)%Z && _)%bool eqn:E2; [|lia].
    eexists. split; [reflexivity|]. split; [split; cbn; [lia|exact H2]|cbn; lia].
  - intros it x Hok Hx. assert (Hl : (vi_i it < size t)%N).
    { assert (N.to_nat (vi_i it) < length (to_list t)) by (apply nth_error_Some; congruence). lia. }
    destruct (vi_deref_ok B BL HB t it Hv Hl6 Hok Hl) as (y & it' & E & Hy & Hok' & Ei). apply rnthN_ok_nth in Hy.
    exists it'. split; [cbn; rewrite E; congruence|]. split; [exact Hok'|congruence].
  - intros a b. cbn. lia.
  - intros a b [H1 _] [H2 _]. cbn. rewrite dist_ok by lia. f_equal. lia.
Qed.
Print Assumptions C63_vector.

(** *** A case that meets the hypotheses *)
Definition ex_ops : list fop :=
  [FEnd 0; FPostDec 1 0; FDeref 0; FDiff 1 0; FMinus 2 1 60; FDeref 2; FIndex 2 (-3); FPostInc 3 2; FDeref 3; FDeref 2;
   FCmp Clt 2 1; FCmp Cge 2 1; FSubFrom 4 2 (-7); FCmp Ceq 4 2; FDiff 3 2; FPlusLeft 5 2 4; FDeref 5].
Example C63_nonvacuous :
  (exists zs, fspecs (to_list ex_tree) (fun _ => 0) ex_ops = Some zs /\ length zs = 11 /\ frun (flex_prims 2 2 ex_tree) ex_ops = Ok zs) /\
  (exists zs, fspecs (map N.of_nat (seq 0 70)) (fun _ => 0) ex_ops = Some zs /\ length zs = 11 /\ frun (vec_prims 2 2 ex_vec) ex_ops = Ok zs).
Proof. split; eexists; (split; [vm_compute; reflexivity|]); split; vm_compute; reflexivity. Qed.
