(** The statements of RrbProps.v, proved from the lemmas about the invariant. *)
From Coq Require Import List NArith ZArith Arith Bool Lia ZifyN ZifyNat ZifyBool.
From Verif Require Import Common NList Rrb RrbInv RrbPos RrbOps RrbSlice RrbTree RrbShuffle
  RrbConcat RrbView RrbSpec RrbViewOk RrbVecEq RrbReach RrbWalk.
Import ListNotations.
Local Open Scope N_scope.

Set Default Goal Selector "!".

Section Lemmas.
Context {T : Type}.
Variables B BL : N.
Notation built := (@built T B BL).
Notation vbuilt := (@vbuilt T B BL).
Notation small := (@small T B BL).
Notation shows := (@shows T B BL).
Notation vshows := (@vshows T B BL).

Section Flex.
Hypothesis HB : 2 <= B.
Let HB1 : 1 <= B. Proof. lia. Qed.

Ltac start H :=
  let Hinv := fresh "Hinv" in
  destruct (built_inv B BL HB _ _ H) as [Hinv <-].
Ltac finish lem :=
  let t' := fresh in let Et := fresh in let Hi := fresh in let El := fresh in
  destruct lem as (t' & Et & Hi & El); exists t'; split; [exact Et|];
  rewrite <- El; now apply inv_shows.

Lemma built_shows t xs : built t xs -> shows t xs.
Proof. intros H. destruct (built_inv B BL HB _ _ H) as [Hi <-]. now apply inv_shows. Qed.
Lemma push_back_shows t xs x : built t xs ->
  exists t', push_back B BL t x = Ok t' /\ shows t' (xs ++ [x]).
Proof. intros H. start H. finish (push_back_ok B BL HB1 t x Hinv). Qed.
Lemma update_shows t xs i f : built t xs -> i < size t ->
  exists t', update B BL t i f = Ok t' /\ shows t' (list_set xs (N.to_nat i) f).
Proof. intros H Hi. start H. finish (update_spec B BL HB t f i Hinv Hi). Qed.
Lemma assoc_shows t xs i x : built t xs -> i < size t ->
  exists t', assoc B BL t i x = Ok t' /\ shows t' (list_set xs (N.to_nat i) (fun _ => x)).
Proof. apply update_shows. Qed.
Lemma take_shows t xs n : built t xs ->
  exists t', take B BL t n = Ok t' /\ shows t' (firstn (N.to_nat n) xs).
Proof. intros H. start H. finish (take_spec B BL HB t n Hinv). Qed.
Lemma drop_shows t xs n : built t xs -> small t ->
  exists t', drop B BL t n = Ok t' /\ shows t' (skipn (N.to_nat n) xs).
Proof.
  intros H Hs. destruct (built_inv B BL HB _ _ H) as [Hinv <-].
  destruct (drop_spec B BL HB t n Hinv Hs) as (t' & Et & Hi' & El & _).
  exists t'. split; [exact Et|]. rewrite <- El. now apply inv_shows.
Qed.
Lemma concat_shows t xs u ys : built t xs -> built u ys -> small u ->
  exists t', concat B BL t u = Ok t' /\ shows t' (xs ++ ys).
Proof.
  intros H H' Hs. destruct (built_inv B BL HB _ _ H') as [Hinv' <-].
  start H. finish (concat_spec B BL HB t u Hinv Hinv' Hs).
Qed.
Lemma push_front_shows t xs x : built t xs -> small t ->
  exists t', push_front B BL t x = Ok t' /\ shows t' (x :: xs).
Proof. intros H Hs. start H. finish (push_front_spec B BL HB t x Hinv Hs). Qed.
Lemma insert_shows t xs i x : built t xs -> small t ->
  exists t', insert B BL t i x = Ok t' /\
    shows t' (firstn (N.to_nat i) xs ++ x :: skipn (N.to_nat i) xs).
Proof. intros H Hs. start H. finish (insert_spec B BL HB t i x Hinv Hs). Qed.
Lemma insert_vec_shows t xs i u ys : built t xs -> small t -> built u ys -> small u ->
  exists t', insert_vec B BL t i u = Ok t' /\
    shows t' (firstn (N.to_nat i) xs ++ ys ++ skipn (N.to_nat i) xs).
Proof.
  intros H Hs H' Hs'. destruct (built_inv B BL HB _ _ H') as [Hinv' <-].
  start H. finish (insert_vec_spec B BL HB t i u Hinv Hs Hinv' Hs').
Qed.
Lemma erase_shows t xs i : built t xs -> small t ->
  exists t', erase B BL t i = Ok t' /\
    shows t' (firstn (N.to_nat i) xs ++ skipn (N.to_nat i + 1) xs).
Proof. intros H Hs. start H. finish (erase_spec B BL HB t i Hinv Hs). Qed.
Lemma erase_range_shows t xs i j : built t xs -> small t -> i <= j ->
  exists t', erase_range B BL t i j = Ok t' /\
    shows t' (firstn (N.to_nat i) xs ++ skipn (N.to_nat j) xs).
Proof. intros H Hs Hij. start H. finish (erase_range_spec B BL HB t i j Hinv Hs Hij). Qed.

Lemma chunks_range t xs f e : built t xs -> f <= e -> e <= size t ->
  exists cs, for_each_chunk_i B BL t f e = Ok cs /\
    List.concat cs = list_range xs (N.to_nat f) (N.to_nat e).
Proof.
  intros H H1 H2. destruct (built_inv B BL HB _ _ H) as [Hinv <-].
  destruct (for_each_chunk_i_ok B BL HB1 t f e Hinv (conj H1 H2)) as (cs & E & Hc).
  exists cs. split; [auto|]. rewrite Hc. unfold takeN, dropN, list_range. f_equal. lia.
Qed.
Lemma get_check_ok t xs i : built t xs -> (lv t < 6)%nat ->
  get_check B BL t i = Ok (nth_error xs (N.to_nat i)).
Proof.
  intros H Hl. destruct (built_inv B BL HB _ _ H) as [Hinv <-].
  pose proof (inv_size _ _ _ Hinv) as Hsz. unfold get_check.
  destruct (N.leb_spec (size t) i) as [Hi|Hi].
  - f_equal. symmetry. apply nth_error_None. unfold lenN in Hsz. lia.
  - destruct (nth_error (to_list t) (N.to_nat i)) as [x|] eqn:En.
    + destruct (built_shows _ _ H) as (_ & _ & Hg). now rewrite (Hg Hl i x En).
    + apply nth_error_None in En. unfold lenN in Hsz. lia.
Qed.
Lemma walk_begin t xs ops out : built t xs -> walk_list xs 0 ops = Some out ->
  walk B BL t (it_begin t) ops = Ok out.
Proof.
  intros H Hw. destruct (built_inv B BL HB _ _ H) as [Hinv <-].
  apply walk_ok; auto. split; cbn; [lia|auto].
Qed.
Lemma walk_end t xs ops out : built t xs -> walk_list xs (length xs) ops = Some out ->
  walk B BL t (it_end t) ops = Ok out.
Proof.
  intros H Hw. destruct (built_inv B BL HB _ _ H) as [Hinv <-].
  pose proof (inv_size _ _ _ Hinv) as Hsz. unfold lenN in Hsz.
  apply walk_ok; auto; [split; cbn; [lia|auto]|]. cbn [it_end it_i].
  now replace (N.to_nat (size t)) with (length (to_list t)) by lia.
Qed.
End Flex.

Section Vec.
Hypothesis HB1 : 1 <= B.
Lemma vbuilt_shows t xs : vbuilt t xs -> vshows t xs.
Proof. intros H. destruct (vbuilt_inv B BL HB1 _ _ H) as [Hi <-]. now apply vinv_shows. Qed.
Lemma vpush_back_shows t xs x : vbuilt t xs ->
  exists t', vpush_back B BL t x = Ok t' /\ vshows t' (xs ++ [x]).
Proof.
  intros H. destruct (vbuilt_inv B BL HB1 _ _ H) as [Hi <-].
  destruct (vpush_back_ok B BL HB1 t x Hi) as (t' & Et & Hi' & El). exists t'. split; [auto|].
  rewrite <- El. now apply vinv_shows.
Qed.
Lemma vupdate_shows t xs i f : vbuilt t xs -> i < size t ->
  exists t', vupdate B BL t i f = Ok t' /\ vshows t' (list_set xs (N.to_nat i) f).
Proof.
  intros H Hlt. destruct (vbuilt_inv B BL HB1 _ _ H) as [Hi <-].
  destruct (vupdate_spec B BL HB1 t f i Hi Hlt) as (t' & Et & Hi' & El). exists t'. split; [auto|].
  rewrite <- El. now apply vinv_shows.
Qed.
Lemma vtake_shows t xs n : vbuilt t xs ->
  exists t', vtake B BL t n = Ok t' /\ vshows t' (firstn (N.to_nat n) xs).
Proof.
  intros H. destruct (vbuilt_inv B BL HB1 _ _ H) as [Hi <-].
  destruct (vtake_ok B BL HB1 t n Hi) as (t' & Et & Hi' & El). exists t'. split; [auto|].
  unfold takeN in El. rewrite <- El. now apply vinv_shows.
Qed.
Lemma vchunks_range t xs f e : vbuilt t xs -> f <= e -> e <= size t ->
  exists cs, vfor_each_chunk_i B BL t f e = Ok cs /\
    List.concat cs = list_range xs (N.to_nat f) (N.to_nat e).
Proof.
  intros H H1 H2. destruct (vbuilt_inv B BL HB1 _ _ H) as [Hv <-].
  pose proof Hv as (Hinv & Hr & _).
  destruct (for_each_chunk_i_ok B BL HB1 t f e Hinv (conj H1 H2)) as (cs & E & Hc).
  exists cs. split; [now rewrite vfor_each_chunk_i_eq|]. rewrite Hc.
  unfold takeN, dropN, list_range. f_equal. lia.
Qed.
Lemma vget_check_ok t xs i : vbuilt t xs -> size t <= 2 ^ (BL + 6 * B) ->
  vget_check B BL t i = Ok (nth_error xs (N.to_nat i)).
Proof.
  intros H Hl. destruct (vbuilt_inv B BL HB1 _ _ H) as [Hv <-].
  pose proof (inv_size _ _ _ (proj1 Hv)) as Hsz. unfold vget_check.
  destruct (N.leb_spec (size t) i) as [Hi|Hi].
  - f_equal. symmetry. apply nth_error_None. unfold lenN in Hsz. lia.
  - destruct (nth_error (to_list t) (N.to_nat i)) as [x|] eqn:En.
    + destruct (vbuilt_shows _ _ H) as (_ & _ & Hg). now rewrite (Hg Hl i x En).
    + apply nth_error_None in En. unfold lenN in Hsz. lia.
Qed.
Lemma vwalk_begin t xs ops out : vbuilt t xs -> size t <= 2 ^ (BL + 6 * B) ->
  walk_list xs 0 ops = Some out -> vwalk B BL t (vi_begin t) ops = Ok out.
Proof.
  intros H Hs Hw. destruct (vbuilt_inv B BL HB1 _ _ H) as [Hv <-].
  apply vwalk_ok; auto; [now apply (vinv_depth B BL HB1)|]. split; cbn; [lia|auto].
Qed.
Lemma vbuilt_equals (eqT : T -> T -> bool) (peq : node T -> node T -> bool) a xs b ys :
  (forall x, eqT x x = true) -> (forall m n, peq m n = true -> m = n) ->
  vbuilt a xs -> vbuilt b ys ->
  exists r, vequals B BL eqT peq a b = Ok r /\
    (r = true <-> Forall2 (fun x y => eqT x y = true) xs ys).
Proof.
  intros Hr Hp Ha Hb. destruct (vbuilt_inv B BL HB1 _ _ Ha) as [Hva <-].
  destruct (vbuilt_inv B BL HB1 _ _ Hb) as [Hvb <-].
  eexists. split; [now apply vequals_ok|]. apply list_eqb_Forall2.
Qed.
End Vec.

(** Traversal with a stateful predicate, and the algorithms, from the plain traversal. *)
Lemma fold_chunks {A} (op : A -> T -> A) cs s :
  fold_left (fun acc c => fold_left op c acc) cs s = fold_left op (List.concat cs) s.
Proof.
  revert s. induction cs as [|c cs IH]; intros s; [reflexivity|].
  cbn [fold_left List.concat]. now rewrite fold_left_app, IH.
Qed.
Lemma copy_chunks cs acc :
  fold_left (fun out c => out ++ c) cs acc = acc ++ List.concat (A:=T) cs.
Proof.
  revert acc. induction cs as [|c cs IH]; intros acc; cbn [fold_left List.concat].
  - now rewrite app_nil_r.
  - now rewrite IH, app_assoc.
Qed.
Lemma all_of_chunks pr cs : run_until (@all_of_fn T pr) tt cs = (tt, forallb pr (List.concat cs)).
Proof.
  induction cs as [|c cs IH]; [reflexivity|]. cbn [run_until List.concat]. unfold all_of_fn at 1.
  rewrite forallb_app. destruct (forallb pr c); [exact IH|reflexivity].
Qed.
End Lemmas.

Lemma list_set_nth {A} (xs : list A) i f :
  length (list_set xs i f) = length xs /\
  (forall j, j <> i -> nth_error (list_set xs i f) j = nth_error xs j) /\
  nth_error (list_set xs i f) i = option_map f (nth_error xs i).
Proof.
  unfold list_set. destruct (skipn i xs) as [|x rest] eqn:E.
  - assert (length xs <= i)%nat as Hl.
    { pose proof (skipn_length i xs) as H. rewrite E in H. cbn in H. lia. }
    split; [auto|]. split; [auto|]. apply nth_error_None in Hl. now rewrite Hl.
  - assert (i < length xs)%nat as Hl.
    { pose proof (skipn_length i xs) as H. rewrite E in H. cbn in H. lia. }
    assert (xs = firstn i xs ++ x :: rest) as Ex by (rewrite <- E; symmetry; apply firstn_skipn).
    assert (length (firstn i xs) = i) as Hf by (rewrite firstn_length; lia).
    revert Ex Hf. generalize (firstn i xs) as a. intros a -> Hf. clear E Hl.
    split; [rewrite !app_length; reflexivity|]. split.
    + intros j Hj. destruct (Nat.lt_ge_cases j i).
      * now rewrite !nth_error_app1 by lia.
      * rewrite !nth_error_app2 by lia. destruct (j - length a)%nat eqn:Ed; [lia|reflexivity].
    + rewrite !nth_error_app2 by lia. now replace (i - length a)%nat with 0%nat by lia.
Qed.

Lemma sumN_fold xs : sumN xs = fold_right N.add 0 xs.
Proof. induction xs as [|x xs IH]; [reflexivity|]. cbn [fold_right]. rewrite <- IH. apply sumN_cons. Qed.
Lemma plan_ok B BL (cl : nat) (counts : list N) :
  let br := match cl with O => 2 ^ BL | S _ => 2 ^ B end in
  counts <> [] -> Forall (fun c => 1 <= c <= br) counts ->
  exists plan, shuffle B BL cl counts = Ok plan /\
    Forall (fun c => 1 <= c <= br) plan /\
    fold_right N.add 0 plan = fold_right N.add 0 counts /\
    (length plan <= length counts)%nat /\
    N.of_nat (length plan) <= (fold_right N.add 0 counts - 1) / br + 1 + 1.
Proof.
  intros br Hn Hf. destruct (shuffle_ok B BL cl counts Hn Hf) as (plan & E & H1 & H2 & H3 & H4).
  exists plan. rewrite <- !sumN_fold. split; [exact E|]. split; [exact H1|].
  split; [exact H2|]. unfold lenN in *. split; [lia|]. rewrite <- N.add_assoc. exact H4.
Qed.
Lemma vmax_size_pos B BL : 1 <= B < 64 -> BL < 64 ->
  BL + (64 - BL) / B * B <> 64 ->
  0 < vmax_size B BL < 2 ^ 64 /\ vmax_size B BL = 2 ^ (BL + (64 - BL) / B * B).
Proof.
  intros H1 H2 Hne. pose proof (vmax_size_exact B BL H1 H2) as E. cbv zeta in E.
  destruct (N.eqb_spec (BL + (64 - BL) / B * B) 64) as [|_]; [contradiction|].
  rewrite E. split; [|reflexivity].
  assert ((64 - BL) / B * B <= 64 - BL) as Hk.
  { rewrite N.mul_comm. apply N.mul_div_le. lia. }
  split.
  - assert (2 ^ (BL + (64 - BL) / B * B) <> 0) by (apply N.pow_nonzero; discriminate). lia.
  - apply N.pow_lt_mono_r; lia.
Qed.
