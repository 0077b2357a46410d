(** Iterator walks over vector and flex_vector, and the arithmetic of max_size. *)
From Coq Require Import List NArith ZArith Arith Bool Lia ZifyN ZifyNat ZifyBool.
From Verif Require Import Common NList Rrb RrbInv RrbPos RrbOps RrbTree RrbView RrbSpec
  RrbViewOk.
Import ListNotations.
Local Open Scope N_scope.

Set Default Goal Selector "!".

Section Walk.
Context {T : Type}.
Variables B BL : N.

(** A walk of an iterator: rrbtree_iterator.hpp:36-93, rbtree_iterator.hpp:30-94. *)
Fixpoint walk (t : tree T) (it : iter) (ops : list it_op) : res (list T) :=
  match ops with
  | [] => Ok []
  | Inc :: ops' => it' <- it_inc t it ;; walk t it' ops'
  | Dec :: ops' => it' <- it_dec it ;; walk t it' ops'
  | Adv n :: ops' => it' <- it_advance t n it ;; walk t it' ops'
  | Deref :: ops' => ' (x, it') <- it_deref B BL t it ;; ys <- walk t it' ops' ;; Ok (x :: ys)
  end.
Fixpoint vwalk (t : tree T) (it : viter) (ops : list it_op) : res (list T) :=
  match ops with
  | [] => Ok []
  | Inc :: ops' => it' <- vi_inc t it ;; vwalk t it' ops'
  | Dec :: ops' => it' <- vi_dec it ;; vwalk t it' ops'
  | Adv n :: ops' => it' <- vi_advance t n it ;; vwalk t it' ops'
  | Deref :: ops' => ' (x, it') <- vi_deref B BL t it ;; ys <- vwalk t it' ops' ;; Ok (x :: ys)
  end.

Lemma rnthN_ok_nth (xs : list T) i x : rnthN xs i = Ok x -> nth_error xs (N.to_nat i) = Some x.
Proof. unfold rnthN, rnth. destruct (nth_error _ _); congruence. Qed.

Lemma walk_ok t : 1 <= B -> inv B BL t -> forall ops it out,
  iter_ok t it ->
  walk_list (to_list t) (N.to_nat (it_i it)) ops = Some out ->
  walk t it ops = Ok out.
Proof.
  intros HB Hi. pose proof (inv_size _ _ _ Hi) as Hsz. unfold lenN in Hsz.
  induction ops as [|o ops IH]; intros it out Hit Hw; [now injection Hw as <-|].
  destruct Hit as [Hle Hc]. destruct o as [| |n|]; cbn [walk_list walk] in Hw |- *.
  - destruct (Nat.ltb_spec (N.to_nat (it_i it)) (length (to_list t))); [|congruence].
    unfold it_inc. destruct (N.ltb_spec (it_i it) (size t)); [|lia]. cbn [rbind].
    apply IH; [split; cbn; [lia|auto]|]. cbn [it_i]. now rewrite N2Nat.inj_add.
  - destruct (Nat.ltb_spec 0 (N.to_nat (it_i it))); [|congruence].
    unfold it_dec. destruct (N.ltb_spec 0 (it_i it)); [|lia]. cbn [rbind].
    apply IH; [split; cbn; [lia|auto]|]. cbn [it_i]. now rewrite N2Nat.inj_sub.
  - unfold it_advance.
    replace (Z.of_nat (N.to_nat (it_i it))) with (Z.of_N (it_i it)) in Hw by lia.
    replace (Z.of_nat (length (to_list t))) with (Z.of_N (size t)) in Hw by lia.
    destruct (_ && _)%bool eqn:E; [|congruence]. cbn [rbind].
    apply IH; [split; cbn; [lia|auto]|]. cbn [it_i]. now rewrite Z_N_nat.
  - destruct (nth_error _ _) as [x|] eqn:En; [|congruence].
    assert (it_i it < size t) as Hlt.
    { assert (N.to_nat (it_i it) < length (to_list t))%nat by (apply nth_error_Some; congruence). lia. }
    destruct (it_deref_ok B BL HB t it Hi (conj Hle Hc) Hlt) as (y & it' & -> & Hy & Hit' & Ei).
    cbn [rbind]. apply rnthN_ok_nth in Hy. rewrite En in Hy. injection Hy as ->.
    destruct (walk_list _ _ ops) as [ys|] eqn:Ew; [|now cbn in Hw]. injection Hw as <-.
    rewrite <- Ei in Ew. now rewrite (IH it' ys Hit' Ew).
Qed.

Lemma vwalk_ok t : 1 <= B -> vinv B BL t -> (lv t < 6)%nat -> forall ops it out,
  viter_ok BL t it ->
  walk_list (to_list t) (N.to_nat (vi_i it)) ops = Some out ->
  vwalk t it ops = Ok out.
Proof.
  intros HB Hv Hl. pose proof (inv_size _ _ _ (proj1 Hv)) as Hsz. unfold lenN in Hsz.
  induction ops as [|o ops IH]; intros it out Hit Hw; [now injection Hw as <-|].
  destruct Hit as [Hle Hc]. destruct o as [| |n|]; cbn [walk_list vwalk] in Hw |- *.
  - destruct (Nat.ltb_spec (N.to_nat (vi_i it)) (length (to_list t))); [|congruence].
    unfold vi_inc. destruct (N.ltb_spec (vi_i it) (size t)); [|lia]. cbn [rbind].
    apply IH; [split; cbn; [lia|auto]|]. cbn [vi_i]. now rewrite N2Nat.inj_add.
  - destruct (Nat.ltb_spec 0 (N.to_nat (vi_i it))); [|congruence].
    unfold vi_dec. destruct (N.ltb_spec 0 (vi_i it)); [|lia]. cbn [rbind].
    apply IH; [split; cbn; [lia|auto]|]. cbn [vi_i]. now rewrite N2Nat.inj_sub.
  - unfold vi_advance.
    replace (Z.of_nat (N.to_nat (vi_i it))) with (Z.of_N (vi_i it)) in Hw by lia.
    replace (Z.of_nat (length (to_list t))) with (Z.of_N (size t)) in Hw by lia.
    destruct (_ && _)%bool eqn:E; [|congruence]. cbn [rbind].
    apply IH; [split; cbn; [lia|auto]|]. cbn [vi_i]. now rewrite Z_N_nat.
  - destruct (nth_error _ _) as [x|] eqn:En; [|congruence].
    assert (vi_i it < size t) as Hlt.
    { assert (N.to_nat (vi_i it) < length (to_list t))%nat by (apply nth_error_Some; congruence). lia. }
    destruct (vi_deref_ok B BL HB t it Hv Hl (conj Hle Hc) Hlt) as (y & it' & -> & Hy & Hit' & Ei).
    cbn [rbind]. apply rnthN_ok_nth in Hy. rewrite En in Hy. injection Hy as ->.
    destruct (walk_list _ _ ops) as [ys|] eqn:Ew; [|now cbn in Hw]. injection Hw as <-.
    rewrite <- Ei in Ew. now rewrite (IH it' ys Hit' Ew).
Qed.
End Walk.

(** ** max_size *)

Lemma ipow64_pow n k : ipow64 n k = (n ^ N.of_nat k) mod 2 ^ 64.
Proof.
  induction k as [|k IH]; [reflexivity|].
  cbn [ipow64]. rewrite IH, Nat2N.inj_succ, N.pow_succ_r'.
  rewrite N.mul_mod_idemp_l by (apply N.pow_nonzero; discriminate). f_equal. lia.
Qed.

Lemma vmax_size_exact B BL : 1 <= B < 64 -> BL < 64 ->
  let k := (64 - BL) / B in
  vmax_size B BL = if BL + k * B =? 64 then 0 else 2 ^ (BL + k * B).
Proof.
  intros HB HBL k. unfold vmax_size. fold k.
  rewrite ipow64_pow, N2Nat.id, !N.shiftl_1_l.
  rewrite (N.mod_small (2 ^ BL)) by (apply N.pow_lt_mono_r; lia).
  rewrite (N.mod_small (2 ^ B)) by (apply N.pow_lt_mono_r; lia).
  rewrite N.mul_mod_idemp_r by (apply N.pow_nonzero; discriminate).
  rewrite <- N.pow_mul_r, <- N.pow_add_r.
  assert (k * B <= 64 - BL) as Hk.
  { subst k. rewrite N.mul_comm. apply N.mul_div_le. lia. }
  rewrite (N.mul_comm B k).
  destruct (N.eqb_spec (BL + k * B) 64) as [E|E].
  - rewrite E. apply N.mod_same. discriminate.
  - apply N.mod_small. apply N.pow_lt_mono_r; lia.
Qed.

Lemma max_size_exact B BL : 2 <= B < 64 -> BL < 64 ->
  let k := (64 - BL) / B in
  max_size B BL = (2 ^ BL - N.min BL 2) * (2 ^ B - 2) ^ k /\ 0 < max_size B BL < 2 ^ 64.
Proof.
  intros HB HBL k. unfold max_size. fold k.
  rewrite ipow64_pow, N2Nat.id, !N.shiftl_1_l.
  rewrite (N.mod_small (2 ^ BL)) by (apply N.pow_lt_mono_r; lia).
  rewrite (N.mod_small (2 ^ B)) by (apply N.pow_lt_mono_r; lia).
  rewrite N.mul_mod_idemp_r by (apply N.pow_nonzero; discriminate).
  assert (k * B <= 64 - BL) as Hk.
  { subst k. rewrite N.mul_comm. apply N.mul_div_le. lia. }
  assert (4 <= 2 ^ B) as H4 by (change 4 with (2 ^ 2); apply N.pow_le_mono_r; lia).
  assert (N.min BL 2 < 2 ^ BL) as Hm.
  { destruct (N.eq_dec BL 0) as [->|]; [now cbn|].
    destruct (N.eq_dec BL 1) as [->|]; [now cbn|].
    assert (2 ^ 2 <= 2 ^ BL) by (apply N.pow_le_mono_r; lia). change (2 ^ 2) with 4 in *. lia. }
  assert (0 < (2 ^ B - 2) ^ k) as Hp by (assert ((2 ^ B - 2) ^ k <> 0) by (apply N.pow_nonzero; lia); lia).
  assert ((2 ^ BL - N.min BL 2) * (2 ^ B - 2) ^ k < 2 ^ 64) as Hlt.
  { destruct (N.eq_dec k 0) as [->|Hk0].
    - rewrite N.pow_0_r, N.mul_1_r.
      assert (2 ^ BL < 2 ^ 64) by (apply N.pow_lt_mono_r; lia). lia.
    - assert ((2 ^ B - 2) ^ k < (2 ^ B) ^ k) as Hs by (apply N.pow_lt_mono_l; lia).
      apply N.lt_le_trans with (2 ^ BL * (2 ^ B) ^ k).
      + apply N.le_lt_trans with (2 ^ BL * (2 ^ B - 2) ^ k).
        * apply N.mul_le_mono_r. lia.
        * apply N.mul_lt_mono_pos_l; lia.
      + rewrite <- N.pow_mul_r, <- N.pow_add_r. apply N.pow_le_mono_r; lia. }
  rewrite N.mod_small by exact Hlt. split; [reflexivity|]. split; [|exact Hlt].
  apply N.mul_pos_pos; lia.
Qed.
