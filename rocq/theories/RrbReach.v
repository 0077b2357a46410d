(** Every value the public interface of vector and flex_vector can produce, with the
    sequence the calls describe. *)
From Coq Require Import List NArith Arith Bool Lia ZifyN ZifyNat ZifyBool.
From Verif Require Import Common NList Rrb RrbInv RrbPos RrbOps RrbSlice RrbTree RrbConcat
  RrbView RrbSpec RrbViewOk.
Import ListNotations.
Local Open Scope N_scope.

Set Default Goal Selector "!".

Section Reach.
Context {T : Type}.
Variables B BL : N.

Notation inv := (@inv T B BL).
Notation vinv := (@vinv T B BL).

(** What the 32-bit offsets of slicing and concatenation support: see C29. *)
Definition small (t : tree T) : Prop := sh B BL (lv t) < 32 /\ size t <= 2 ^ 32.

(** [vbuilt t xs]: [t] is a vector obtained by public calls, and [xs] is what these calls
    mean on plain sequences.  An object may be used by any number of calls. *)
Inductive vbuilt : tree T -> list T -> Prop :=
| v_empty : vbuilt empty []
| v_push_back t xs x t' : vbuilt t xs -> vpush_back B BL t x = Ok t' -> vbuilt t' (xs ++ [x])
| v_update t xs i f t' : vbuilt t xs -> i < size t -> vupdate B BL t i f = Ok t' ->
    vbuilt t' (list_set xs (N.to_nat i) f)
| v_take t xs n t' : vbuilt t xs -> vtake B BL t n = Ok t' -> vbuilt t' (firstn (N.to_nat n) xs).

(** The same for flex_vector; a vector converts to one (flex_vector.hpp:130-135). *)
Inductive built : tree T -> list T -> Prop :=
| b_empty : built empty []
| b_vector t xs : vbuilt t xs -> built t xs
| b_push_back t xs x t' : built t xs -> push_back B BL t x = Ok t' -> built t' (xs ++ [x])
| b_push_front t xs x t' : built t xs -> small t -> push_front B BL t x = Ok t' ->
    built t' (x :: xs)
| b_update t xs i f t' : built t xs -> i < size t -> update B BL t i f = Ok t' ->
    built t' (list_set xs (N.to_nat i) f)
| b_set t xs i x t' : built t xs -> i < size t -> assoc B BL t i x = Ok t' ->
    built t' (list_set xs (N.to_nat i) (fun _ => x))
| b_take t xs n t' : built t xs -> take B BL t n = Ok t' -> built t' (firstn (N.to_nat n) xs)
| b_drop t xs n t' : built t xs -> small t -> drop B BL t n = Ok t' ->
    built t' (skipn (N.to_nat n) xs)
| b_concat t xs u ys t' : built t xs -> built u ys -> small u -> concat B BL t u = Ok t' ->
    built t' (xs ++ ys)
| b_insert t xs i x t' : built t xs -> small t -> insert B BL t i x = Ok t' ->
    built t' (firstn (N.to_nat i) xs ++ x :: skipn (N.to_nat i) xs)
| b_insert_vec t xs i u ys t' : built t xs -> small t -> built u ys -> small u ->
    insert_vec B BL t i u = Ok t' ->
    built t' (firstn (N.to_nat i) xs ++ ys ++ skipn (N.to_nat i) xs)
| b_erase t xs i t' : built t xs -> small t -> erase B BL t i = Ok t' ->
    built t' (firstn (N.to_nat i) xs ++ skipn (N.to_nat i + 1) xs)
| b_erase_range t xs i j t' : built t xs -> small t -> i <= j -> erase_range B BL t i j = Ok t' ->
    built t' (firstn (N.to_nat i) xs ++ skipn (N.to_nat j) xs).

(** Observations: the size, the sequence seen by traversal, and indexing. *)
Definition shows (t : tree T) (xs : list T) : Prop :=
  size t = N.of_nat (length xs) /\
  (exists cs, for_each_chunk B BL t = Ok cs /\ List.concat cs = xs) /\
  ((lv t < 6)%nat -> forall i x, nth_error xs (N.to_nat i) = Some x -> get B BL t i = Ok x).
(** For vector indexing is supported whenever the size is at most 2^(BL+6B). *)
Definition vshows (t : tree T) (xs : list T) : Prop :=
  size t = N.of_nat (length xs) /\
  (exists cs, vfor_each_chunk B BL t = Ok cs /\ List.concat cs = xs) /\
  (size t <= 2 ^ (BL + 6 * B) ->
   forall i x, nth_error xs (N.to_nat i) = Some x -> vget B BL t i = Ok x).

Lemma rnthN_nth (xs : list T) i x : nth_error xs (N.to_nat i) = Some x -> rnthN xs i = Ok x.
Proof. intros H. unfold rnthN, rnth. now rewrite H. Qed.
Lemma nth_lenN (xs : list T) i x : nth_error xs (N.to_nat i) = Some x -> i < lenN xs.
Proof.
  intros H. assert (N.to_nat i < length xs)%nat by (apply nth_error_Some; congruence).
  unfold lenN. lia.
Qed.

Lemma inv_shows t : 1 <= B -> inv t -> shows t (to_list t).
Proof.
  intros HB Hi. split; [now apply inv_size in Hi|].
  split; [now apply for_each_chunk_ok|].
  intros Hl i x Hx. rewrite get_ok; auto.
  - now apply rnthN_nth.
  - rewrite (inv_size _ _ _ Hi). now apply nth_lenN in Hx.
Qed.
Lemma vinv_shows t : 1 <= B -> vinv t -> vshows t (to_list t).
Proof.
  intros HB Hv. pose proof Hv as (Hi & Hr & _). split; [now apply inv_size in Hi|].
  split; [rewrite vfor_each_chunk_eq by auto; now apply for_each_chunk_ok|].
  intros Hs i x Hx. rewrite vget_ok; auto.
  - now apply rnthN_nth.
  - now apply (vinv_depth B BL HB).
  - rewrite (inv_size _ _ _ Hi). now apply nth_lenN in Hx.
Qed.

Lemma split_at (xs : list T) i : i < lenN xs ->
  exists a x z, xs = a ++ x :: z /\ lenN a = i.
Proof. intros H. destruct (splitN i xs H) as (a & x & z & E & Hl). eauto. Qed.

Lemma set_split (a z : list T) x f i : lenN a = i ->
  list_set (a ++ x :: z) (N.to_nat i) f = a ++ f x :: z.
Proof. intros H. apply list_set_app. unfold lenN in H. lia. Qed.

Lemma dropN_skip n (xs : list T) : dropN n xs = skipn (N.to_nat n) xs.
Proof. reflexivity. Qed.
Lemma dropN_skip1 n (xs : list T) : dropN (n + 1) xs = skipn (N.to_nat n + 1) xs.
Proof. unfold dropN. f_equal. lia. Qed.

Section VOps.
Hypothesis HB1 : 1 <= B.
Lemma vupdate_spec t f i : vinv t -> i < size t ->
  exists t', vupdate B BL t i f = Ok t' /\ vinv t' /\
    to_list t' = list_set (to_list t) (N.to_nat i) f.
Proof.
  intros Hv Hlt. pose proof Hv as (Hi & _). rewrite (inv_size _ _ _ Hi) in Hlt.
  destruct (split_at _ _ Hlt) as (a & x & z & E & Hl).
  destruct (vupdate_ok B BL HB1 t f i a x z Hv E Hl) as (t' & Et & Hi' & E' & _).
  exists t'. split; [auto|]. split; [auto|]. rewrite E, E'. symmetry. now apply set_split.
Qed.
Lemma vbuilt_inv t xs : vbuilt t xs -> vinv t /\ to_list t = xs.
Proof.
  induction 1 as [|t xs x t' H [IH <-] E|t xs i f t' H [IH <-] Hi E|t xs n t' H [IH <-] E].
  - split; [now apply vinv_empty|reflexivity].
  - destruct (vpush_back_ok B BL HB1 t x IH) as (u & E' & Hu & El). rewrite E in E'. now injection E' as <-.
  - destruct (vupdate_spec t f i IH Hi) as (u & E' & Hu & El). rewrite E in E'. now injection E' as <-.
  - destruct (vtake_ok B BL HB1 t n IH) as (u & E' & Hu & El). rewrite E in E'. now injection E' as <-.
Qed.
End VOps.

Section Ops.
Hypothesis HB : 2 <= B.
Let HB1 : 1 <= B. Proof. lia. Qed.

Lemma small_root t : inv t -> small t -> sh B BL (lv t) < 32 /\ nsize (root t) <= 2 ^ 32.
Proof. intros (xs & _ & Hs & _) [H1 H2]. split; [auto|lia]. Qed.
Lemma small_le t u : small t -> (lv u <= lv t)%nat -> size u <= size t -> small u.
Proof.
  intros [H1 H2] Hl Hs. split; [|lia]. unfold sh in *. nia.
Qed.

Lemma update_spec t f i : inv t -> i < size t ->
  exists t', update B BL t i f = Ok t' /\ inv t' /\
    to_list t' = list_set (to_list t) (N.to_nat i) f.
Proof.
  intros Hi Hlt. rewrite (inv_size _ _ _ Hi) in Hlt.
  destruct (split_at _ _ Hlt) as (a & x & z & E & Hl).
  destruct (update_ok B BL HB1 t f i a x z Hi E Hl) as (t' & Et & Hi' & E' & _).
  exists t'. split; [auto|]. split; [auto|]. rewrite E, E'. symmetry. now apply set_split.
Qed.
Lemma drop_spec t n : inv t -> small t ->
  exists t', drop B BL t n = Ok t' /\ inv t' /\ to_list t' = skipn (N.to_nat n) (to_list t) /\
    small t'.
Proof.
  intros Hi Hs. destruct (small_root t Hi Hs) as [H1 H2].
  destruct (drop_ok B BL HB1 t n Hi H1 H2) as (t' & Et & Hi' & E & Hl).
  exists t'. split; [auto|]. split; [auto|]. split; [auto|].
  apply (small_le t); auto. rewrite (inv_size _ _ _ Hi), (inv_size _ _ _ Hi'), E, lenN_dropN. lia.
Qed.
Lemma concat_spec t u : inv t -> inv u -> small u ->
  exists t', concat B BL t u = Ok t' /\ inv t' /\ to_list t' = to_list t ++ to_list u.
Proof.
  intros Hi Hu Hs. destruct (small_root u Hu Hs) as [H1 H2].
  destruct (concat_ok B BL HB t u Hi Hu H1 H2) as (t' & Et & Hi' & E & _). eauto.
Qed.
Lemma take_spec t n : inv t ->
  exists t', take B BL t n = Ok t' /\ inv t' /\ to_list t' = firstn (N.to_nat n) (to_list t).
Proof.
  intros Hi. destruct (take_ok B BL HB1 t n Hi) as (t' & Et & Hi' & E & _). eauto.
Qed.
Lemma push_front_spec t x : inv t -> small t ->
  exists t', push_front B BL t x = Ok t' /\ inv t' /\ to_list t' = x :: to_list t.
Proof.
  intros Hi Hs. unfold push_front.
  destruct (push_back_ok B BL HB1 empty x (inv_empty B BL HB1)) as (v & -> & Hv & Ev). cbn [rbind].
  destruct (concat_spec v t Hv Hi Hs) as (t' & E & Hi' & E'). exists t'. split; [auto|].
  split; [auto|]. rewrite E', Ev. reflexivity.
Qed.
Lemma insert_spec t i x : inv t -> small t ->
  exists t', insert B BL t i x = Ok t' /\ inv t' /\
    to_list t' = firstn (N.to_nat i) (to_list t) ++ x :: skipn (N.to_nat i) (to_list t).
Proof.
  intros Hi Hs. unfold insert.
  destruct (take_spec t i Hi) as (a & -> & Ha & Ea). cbn [rbind].
  destruct (push_back_ok B BL HB1 a x Ha) as (b & -> & Hb & Eb). cbn [rbind].
  destruct (drop_spec t i Hi Hs) as (c & -> & Hc & Ec & Hsc). cbn [rbind].
  destruct (concat_spec b c Hb Hc Hsc) as (t' & -> & Ht & Et).
  exists t'. split; [auto|]. split; [auto|]. rewrite Et, Eb, Ea, Ec, <- app_assoc. reflexivity.
Qed.
Lemma insert_vec_spec t i u : inv t -> small t -> inv u -> small u ->
  exists t', insert_vec B BL t i u = Ok t' /\ inv t' /\
    to_list t' = firstn (N.to_nat i) (to_list t) ++ to_list u ++ skipn (N.to_nat i) (to_list t).
Proof.
  intros Hi Hs Hu Hsu. unfold insert_vec.
  destruct (take_spec t i Hi) as (a & -> & Ha & Ea). cbn [rbind].
  destruct (concat_spec a u Ha Hu Hsu) as (b & -> & Hb & Eb). cbn [rbind].
  destruct (drop_spec t i Hi Hs) as (c & -> & Hc & Ec & Hsc). cbn [rbind].
  destruct (concat_spec b c Hb Hc Hsc) as (t' & -> & Ht & Et).
  exists t'. split; [auto|]. split; [auto|]. rewrite Et, Eb, Ea, Ec, <- app_assoc. reflexivity.
Qed.
Lemma erase_spec t i : inv t -> small t ->
  exists t', erase B BL t i = Ok t' /\ inv t' /\
    to_list t' = firstn (N.to_nat i) (to_list t) ++ skipn (N.to_nat i + 1) (to_list t).
Proof.
  intros Hi Hs. unfold erase.
  destruct (take_spec t i Hi) as (a & -> & Ha & Ea). cbn [rbind].
  destruct (drop_spec t (i + 1) Hi Hs) as (c & -> & Hc & Ec & Hsc). cbn [rbind].
  destruct (concat_spec a c Ha Hc Hsc) as (t' & -> & Ht & Et).
  exists t'. split; [auto|]. split; [auto|]. rewrite Et, Ea, Ec. f_equal.
  f_equal. lia.
Qed.
Lemma erase_range_spec t i j : inv t -> small t -> i <= j ->
  exists t', erase_range B BL t i j = Ok t' /\ inv t' /\
    to_list t' = firstn (N.to_nat i) (to_list t) ++ skipn (N.to_nat j) (to_list t).
Proof.
  intros Hi Hs Hij. unfold erase_range. destruct (N.ltb_spec i j) as [H|H].
  - destruct (take_spec t i Hi) as (a & -> & Ha & Ea). cbn [rbind].
    destruct (drop_spec t j Hi Hs) as (c & -> & Hc & Ec & Hsc). cbn [rbind].
    destruct (concat_spec a c Ha Hc Hsc) as (t' & -> & Ht & Et).
    exists t'. split; [auto|]. split; [auto|]. rewrite Et, Ea, Ec. reflexivity.
  - exists t. split; [auto|]. split; [auto|]. replace j with i by lia.
    symmetry. apply firstn_skipn.
Qed.

(** Every flex_vector in reach is well formed and holds the described sequence. *)
Lemma built_inv t xs : built t xs -> inv t /\ to_list t = xs.
Proof.
  induction 1 as [|t xs H|t xs x t' H [IH <-] E|t xs x t' H [IH <-] Hs E|t xs i f t' H [IH <-] Hi E
    |t xs i x t' H [IH <-] Hi E|t xs n t' H [IH <-] E|t xs n t' H [IH <-] Hs E
    |t xs u ys t' H [IH <-] H' [IH' <-] Hs E|t xs i x t' H [IH <-] Hs E
    |t xs i u ys t' H [IH <-] Hs H' [IH' <-] Hs' E|t xs i t' H [IH <-] Hs E
    |t xs i j t' H [IH <-] Hs Hij E].
  - split; [now apply inv_empty|reflexivity].
  - destruct (vbuilt_inv HB1 t xs H) as [[Hi _] E]. auto.
  - destruct (push_back_ok B BL HB1 t x IH) as (u & E' & Hu & El). rewrite E in E'. now injection E' as <-.
  - destruct (push_front_spec t x IH Hs) as (u & E' & Hu & El). rewrite E in E'. now injection E' as <-.
  - destruct (update_spec t f i IH Hi) as (u & E' & Hu & El). rewrite E in E'. now injection E' as <-.
  - destruct (update_spec t (fun _ => x) i IH Hi) as (u & E' & Hu & El).
    unfold assoc in E. rewrite E in E'. now injection E' as <-.
  - destruct (take_spec t n IH) as (u & E' & Hu & El). rewrite E in E'. now injection E' as <-.
  - destruct (drop_spec t n IH Hs) as (u & E' & Hu & El & _). rewrite E in E'. now injection E' as <-.
  - destruct (concat_spec t u IH IH' Hs) as (w & E' & Hu & El). rewrite E in E'. now injection E' as <-.
  - destruct (insert_spec t i x IH Hs) as (w & E' & Hu & El). rewrite E in E'. now injection E' as <-.
  - destruct (insert_vec_spec t i u IH Hs IH' Hs') as (w & E' & Hu & El). rewrite E in E'. now injection E' as <-.
  - destruct (erase_spec t i IH Hs) as (w & E' & Hu & El). rewrite E in E'. now injection E' as <-.
  - destruct (erase_range_spec t i j IH Hs Hij) as (w & E' & Hu & El). rewrite E in E'. now injection E' as <-.
Qed.
End Ops.

End Reach.
