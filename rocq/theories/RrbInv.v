(** Well-formedness of the trees of Rrb.v and basic facts about sizes. *)
From Coq Require Import List NArith Arith Bool Lia ZifyN ZifyNat ZifyBool.
From Verif Require Import Common NList Rrb.
Import ListNotations.
Local Open Scope N_scope.

Set Default Goal Selector "!".

(** ** Arithmetic *)

Lemma pow2_pos n : 0 < 2 ^ n.
Proof. assert (2 ^ n <> 0) by (apply N.pow_nonzero; lia). lia. Qed.

Lemma pow2_ne n : 2 ^ n <> 0.
Proof. apply N.pow_nonzero. lia. Qed.

Lemma mask_ones b : 2 ^ b - 1 = N.ones b.
Proof. rewrite N.ones_equiv. lia. Qed.

Lemma land_mask x b : N.land x (2 ^ b - 1) = x mod 2 ^ b.
Proof. rewrite mask_ones. apply N.land_ones. Qed.

Lemma ldiff_mask x b : N.ldiff x (2 ^ b - 1) = x / 2 ^ b * 2 ^ b.
Proof.
  rewrite mask_ones, N.ldiff_ones_r, N.shiftr_div_pow2, N.shiftl_mul_pow2. reflexivity.
Qed.

Lemma div_mod_pow idx a b : (idx / 2 ^ a) mod 2 ^ b = (idx mod 2 ^ (a + b)) / 2 ^ a.
Proof.
  rewrite N.pow_add_r, N.mod_mul_r by apply pow2_ne.
  rewrite (N.mul_comm (2 ^ a)), N.div_add by apply pow2_ne.
  rewrite (N.div_small (idx mod 2 ^ a)); [lia|].
  apply N.mod_lt, pow2_ne.
Qed.

Lemma mod_mod_pow x a b : (x mod 2 ^ (a + b)) mod 2 ^ a = x mod 2 ^ a.
Proof.
  rewrite N.pow_add_r, N.mod_mul_r by apply pow2_ne.
  rewrite (N.mul_comm (2 ^ a)), N.mod_add by apply pow2_ne.
  apply N.mod_mod, pow2_ne.
Qed.

Lemma div_unique' a b q r : r < b -> a = b * q + r -> a / b = q.
Proof. intros H1 H2. symmetry. eapply N.div_unique; eauto. Qed.
Lemma mod_unique' a b q r : r < b -> a = b * q + r -> a mod b = r.
Proof. intros H1 H2. symmetry. eapply N.mod_unique; eauto. Qed.

Section Inv.
Context {T : Type}.
Variables B BL : N.

Notation sh := (sh B BL).
Notation width := (width B).
Notation lwidth := (lwidth BL).

(** The elements below a node, from left to right. *)
Fixpoint elems (n : node T) : list T :=
  match n with
  | Leaf xs => xs
  | Inner _ cs => flat_map elems cs
  end.

Definition nsize (n : node T) : N := lenN (elems n).

(** Number of elements below a complete node of level [v]. *)
Definition span (v : nat) : N := 2 ^ sh v.

(** A complete tree: every inner node has all its children, every leaf is full. *)
Fixpoint full (v : nat) (n : node T) : Prop :=
  match v, n with
  | O, Leaf xs => lenN xs = lwidth
  | S l, Inner None cs => lenN cs = width /\ Forall (full l) cs
  | _, _ => False
  end.

(** A left-complete tree with full leaves. *)
Fixpoint reg (v : nat) (n : node T) : Prop :=
  match v, n with
  | O, Leaf xs => lenN xs = lwidth
  | S l, Inner None cs =>
      exists init last, cs = init ++ [last] /\ Forall (full l) init /\ reg l last /\
                        lenN cs <= width
  | _, _ => False
  end.

(** Any node of a tree: a leaf, a left-complete node, or a relaxed node with the right
    size table. *)
Fixpoint wf (v : nat) (n : node T) : Prop :=
  match v, n with
  | O, Leaf xs => 0 < lenN xs <= lwidth
  | S l, Inner None _ => reg v n
  | S l, Inner (Some sz) cs =>
      0 < lenN cs <= width /\ Forall (wf l) cs /\ sz = sums 0 (map nsize cs)
  | _, _ => False
  end.

Lemma span_S l : span (S l) = width * span l.
Proof.
  unfold span, Rrb.width. rewrite <- N.pow_add_r. f_equal. unfold Rrb.sh. lia.
Qed.
Lemma span_0 : span 0 = lwidth.
Proof. unfold span, Rrb.sh, Rrb.lwidth. f_equal. lia. Qed.
Lemma span_pos v : 0 < span v.
Proof. apply pow2_pos. Qed.
Lemma width_pos : 0 < width.
Proof. apply pow2_pos. Qed.
Lemma lwidth_pos : 0 < lwidth.
Proof. apply pow2_pos. Qed.
Lemma span_sh l : 2 ^ sh l = span l.
Proof. reflexivity. Qed.

Lemma elems_inner r cs : elems (Inner r cs) = flat_map elems cs.
Proof. reflexivity. Qed.
Lemma nsize_leaf xs : nsize (Leaf xs) = lenN xs.
Proof. reflexivity. Qed.
Lemma nsize_inner r cs : nsize (Inner r cs) = sumN (map nsize cs).
Proof.
  unfold nsize. rewrite elems_inner. induction cs as [|c cs IH]; [reflexivity|].
  cbn [flat_map map]. rewrite sumN_cons, lenN_app, <- IH. reflexivity.
Qed.

Definition csize (cs : list (node T)) : N := sumN (map nsize cs).
Lemma csize_app a b : csize (a ++ b) = csize a + csize b.
Proof. unfold csize. now rewrite map_app, sumN_app. Qed.
Lemma csize_cons x b : csize (x :: b) = nsize x + csize b.
Proof. reflexivity. Qed.
Lemma csize_nil : csize [] = 0.
Proof. reflexivity. Qed.
Lemma csize_snoc a x : csize (a ++ [x]) = csize a + nsize x.
Proof. rewrite csize_app, csize_cons, csize_nil. lia. Qed.

Lemma full_size v n : full v n -> nsize n = span v.
Proof.
  revert n; induction v as [|l IH]; intros n H.
  - destruct n as [xs|]; [|easy]. cbn in H. rewrite span_0. exact H.
  - destruct n as [|[]]; cbn in H; try easy. destruct H as [Hl Hf].
    rewrite nsize_inner, span_S, <- Hl. clear Hl.
    induction Hf as [|c cs Hc Hf IHf]; [reflexivity|].
    cbn [map]. rewrite sumN_cons, lenN_cons, IHf, (IH _ Hc). lia.
Qed.

Lemma full_csize l cs : Forall (full l) cs -> csize cs = lenN cs * span l.
Proof.
  induction 1 as [|c cs Hc Hf IH]; [reflexivity|].
  rewrite csize_cons, lenN_cons, IH, (full_size _ _ Hc). lia.
Qed.

Lemma full_reg v n : full v n -> reg v n.
Proof.
  revert n; induction v as [|l IH]; intros n H; [exact H|].
  destruct n as [|[]]; cbn in H; try easy. destruct H as [Hl Hf].
  destruct cs as [|c cs] using rev_ind.
  - pose proof width_pos. rewrite lenN_nil in Hl. lia.
  - clear IHcs. apply Forall_app in Hf. destruct Hf as [Hf Hc].
    inversion Hc; subst. exists cs, c. repeat (split; auto). lia.
Qed.

Lemma reg_wf v n : reg v n -> wf v n.
Proof.
  destruct v; destruct n as [|[]]; cbn; try easy.
  intros H. pose proof lwidth_pos. lia.
Qed.
Lemma full_wf v n : full v n -> wf v n.
Proof. intros. now apply reg_wf, full_reg. Qed.

(** A regular node of inner level, taken apart. *)
Lemma reg_size_bounds v n : reg v n -> 0 < nsize n <= span v.
Proof.
  revert n; induction v as [|l IH]; intros n H.
  - destruct n as [xs|]; [|easy]. cbn in H. rewrite span_0, nsize_leaf.
    pose proof lwidth_pos. lia.
  - destruct n as [|[]]; cbn in H; try easy.
    destruct H as (init & last & -> & Hf & Hr & Hl).
    rewrite nsize_inner, map_app, sumN_app. cbn [map].
    rewrite sumN_cons, sumN_nil. fold (csize init). rewrite (full_csize _ _ Hf), span_S.
    specialize (IH _ Hr). rewrite lenN_app, lenN_cons, lenN_nil in Hl.
    pose proof (span_pos l). nia.
Qed.

Lemma wf_size v n : wf v n -> 0 < nsize n <= span v.
Proof.
  revert n; induction v as [|l IH]; intros n H.
  - destruct n as [xs|]; [|easy]. cbn in H. rewrite span_0, nsize_leaf. exact H.
  - destruct n as [|[sz|]]; cbn [wf] in H; try easy.
    + destruct H as [[H1 H2] [H3 _]]. rewrite nsize_inner, span_S.
      assert (lenN cs <= sumN (map nsize cs) <= lenN cs * span l) as Hs.
      { clear H1 H2. induction H3 as [|c cs Hc Hf IHf]; [rewrite lenN_nil; cbn; lia|].
        cbn [map]. rewrite sumN_cons, lenN_cons. specialize (IH _ Hc). lia. }
      pose proof (span_pos l). nia.
    + now apply reg_size_bounds.
Qed.

Lemma wf_csize l cs : Forall (wf l) cs -> lenN cs <= csize cs <= lenN cs * span l.
Proof.
  induction 1 as [|c cs Hc Hf IHf]; [rewrite lenN_nil, csize_nil; lia|].
  rewrite csize_cons, lenN_cons. pose proof (wf_size _ _ Hc). lia.
Qed.

Lemma reg_dvd v n : reg v n -> nsize n mod lwidth = 0.
Proof.
  revert n; induction v as [|l IH]; intros n H.
  - destruct n as [xs|]; [|easy]. cbn in H. rewrite nsize_leaf, H.
    apply N.mod_same. pose proof lwidth_pos. lia.
  - destruct n as [|[]]; cbn in H; try easy.
    destruct H as (init & last & -> & Hf & Hr & Hl).
    rewrite nsize_inner. fold (csize (init ++ [last])).
    rewrite csize_app, csize_cons, csize_nil, N.add_0_r, (full_csize _ _ Hf).
    assert (span l = lwidth * 2 ^ (N.of_nat l * B)) as ->.
    { unfold span, Rrb.lwidth. rewrite <- N.pow_add_r. reflexivity. }
    replace (lenN init * (lwidth * 2 ^ (N.of_nat l * B)) + nsize last)
      with (nsize last + lenN init * 2 ^ (N.of_nat l * B) * lwidth) by lia.
    rewrite N.mod_add; [auto|]. pose proof lwidth_pos. lia.
Qed.

Lemma reg_full v n : reg v n -> nsize n = span v -> full v n.
Proof.
  revert n; induction v as [|l IH]; intros n H E; [exact H|].
  destruct n as [|[]]; cbn in H; try easy.
  destruct H as (init & last & -> & Hf & Hr & Hl).
  rewrite nsize_inner in E. fold (csize (init ++ [last])) in E.
  rewrite csize_app, csize_cons, csize_nil, N.add_0_r, (full_csize _ _ Hf), span_S in E.
  rewrite lenN_app, lenN_cons, lenN_nil in Hl.
  pose proof (reg_size_bounds _ _ Hr). pose proof (span_pos l).
  assert (lenN init + 1 = width) by nia.
  cbn. split; [rewrite lenN_app, lenN_cons, lenN_nil; lia|].
  apply Forall_app; split; auto. constructor; auto. apply IH; auto. nia.
Qed.

(** [is_rel n]: the node carries a size table. *)
Definition is_rel (n : node T) : bool :=
  match n with Inner (Some _) _ => true | _ => false end.

(** ** The tree object *)

Definition to_list (t : tree T) : list T := elems (root t) ++ elems (tail t).

(** Children of a root. *)
Definition kids (n : node T) : list (node T) :=
  match n with Inner _ cs => cs | Leaf _ => [] end.

Definition inv (t : tree T) : Prop :=
  exists xs, tail t = Leaf xs /\
    size t = nsize (root t) + lenN xs /\
    lenN xs <= lwidth /\
    (0 < size t -> 0 < lenN xs) /\
    (root t = Inner None [] /\ lv t = O \/ wf (S (lv t)) (root t)).

(** A vector: no relaxed node, no useless root. *)
Definition vinv (t : tree T) : Prop :=
  inv t /\ is_rel (root t) = false /\ (lv t = O \/ 2 <= lenN (kids (root t))).

Lemma inv_size t : inv t -> size t = lenN (to_list t).
Proof.
  intros (xs & E & Hs & _). unfold to_list. rewrite lenN_app, E. exact Hs.
Qed.

End Inv.

Arguments nsize {T} n : simpl never.
