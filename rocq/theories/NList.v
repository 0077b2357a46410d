(** Lists indexed by [N]: buffers of nodes, size tables and leaves are lists,
    sizes and offsets are [N]. *)
From Coq Require Import List NArith Arith Bool Lia ZifyN ZifyNat ZifyBool.
From Verif Require Import Common.
Import ListNotations.
Local Open Scope N_scope.

Definition lenN {A} (l : list A) : N := N.of_nat (length l).
Definition takeN {A} (n : N) (l : list A) : list A := firstn (N.to_nat n) l.
Definition dropN {A} (n : N) (l : list A) : list A := skipn (N.to_nat n) l.
Definition updN {A} (i : N) (a : A) (l : list A) : list A := update_at (N.to_nat i) a l.
Definition rnthN {A} (l : list A) (i : N) : res A := rnth l (N.to_nat i).

(** Copying [p, p + n): reading past the end is undefined behaviour. *)
Definition rtakeN {A} (n : N) (l : list A) : res (list A) :=
  if n <=? lenN l then Ok (takeN n l) else UB.
(** Copying [p + i, p + j). *)
Definition rsliceN {A} (i j : N) (l : list A) : res (list A) :=
  if (i <=? j) && (j <=? lenN l) then Ok (takeN (j - i) (dropN i l)) else UB.

(** Running totals starting at [init]. *)
Fixpoint sums (init : N) (l : list N) : list N :=
  match l with
  | [] => []
  | x :: l' => (init + x) :: sums (init + x) l'
  end.

Definition sumN (l : list N) : N := fold_right N.add 0 l.

(** Left-to-right evaluation of a list of effects. *)
Fixpoint rmap {A C} (f : A -> res C) (l : list A) : res (list C) :=
  match l with
  | [] => Ok []
  | x :: l' => y <- f x ;; ys <- rmap f l' ;; Ok (y :: ys)
  end.

Lemma lenN_nil {A} : lenN (@nil A) = 0.
Proof. reflexivity. Qed.
Lemma lenN_cons {A} (x : A) l : lenN (x :: l) = lenN l + 1.
Proof. unfold lenN. cbn [length]. lia. Qed.
Lemma lenN_app {A} (a b : list A) : lenN (a ++ b) = lenN a + lenN b.
Proof. unfold lenN. rewrite app_length. lia. Qed.
Lemma lenN_map {A C} (f : A -> C) l : lenN (map f l) = lenN l.
Proof. unfold lenN. rewrite map_length. reflexivity. Qed.
Lemma lenN_0 {A} (l : list A) : lenN l = 0 <-> l = [].
Proof. destruct l; [easy|]. rewrite lenN_cons. split; [lia|discriminate]. Qed.
Lemma lenN_pos {A} (l : list A) : l <> [] <-> 0 < lenN l.
Proof. rewrite <- lenN_0. lia. Qed.
Lemma lenN_repeat {A} (x : A) n : lenN (repeat x n) = N.of_nat n.
Proof. unfold lenN. rewrite repeat_length. reflexivity. Qed.

Lemma takeN_app {A} (a b : list A) : takeN (lenN a) (a ++ b) = a.
Proof.
  unfold takeN, lenN. rewrite Nnat.Nat2N.id, firstn_app, firstn_all, Nat.sub_diag.
  cbn. apply app_nil_r.
Qed.
Lemma takeN_app_le {A} n (a b : list A) : n <= lenN a -> takeN n (a ++ b) = takeN n a.
Proof.
  intros H. unfold takeN, lenN in *. rewrite firstn_app.
  replace (N.to_nat n - length a)%nat with 0%nat by lia. cbn. apply app_nil_r.
Qed.
Lemma takeN_app_ge {A} n (a b : list A) :
  lenN a <= n -> takeN n (a ++ b) = a ++ takeN (n - lenN a) b.
Proof.
  intros H. unfold takeN, lenN in *. rewrite firstn_app.
  rewrite (firstn_all2 a) by lia. do 2 f_equal. lia.
Qed.
Lemma dropN_app {A} (a b : list A) : dropN (lenN a) (a ++ b) = b.
Proof.
  unfold dropN, lenN. rewrite Nnat.Nat2N.id, skipn_app, skipn_all, Nat.sub_diag.
  reflexivity.
Qed.
Lemma dropN_app_le {A} n (a b : list A) : n <= lenN a -> dropN n (a ++ b) = dropN n a ++ b.
Proof.
  intros H. unfold dropN, lenN in *. rewrite skipn_app.
  replace (N.to_nat n - length a)%nat with 0%nat by lia. reflexivity.
Qed.
Lemma dropN_app_ge {A} n (a b : list A) :
  lenN a <= n -> dropN n (a ++ b) = dropN (n - lenN a) b.
Proof.
  intros H. unfold dropN, lenN in *. rewrite skipn_app.
  rewrite (skipn_all2 a) by lia. cbn. f_equal. lia.
Qed.
Lemma takeN_all {A} n (l : list A) : lenN l <= n -> takeN n l = l.
Proof. intros H. unfold takeN, lenN in *. apply firstn_all2. lia. Qed.
Lemma dropN_all {A} n (l : list A) : lenN l <= n -> dropN n l = [].
Proof. intros H. unfold dropN, lenN in *. apply skipn_all2. lia. Qed.
Lemma takeN_0 {A} (l : list A) : takeN 0 l = [].
Proof. reflexivity. Qed.
Lemma dropN_0 {A} (l : list A) : dropN 0 l = l.
Proof. reflexivity. Qed.
Lemma takeN_dropN {A} n (l : list A) : takeN n l ++ dropN n l = l.
Proof. apply firstn_skipn. Qed.
Lemma lenN_takeN {A} n (l : list A) : lenN (takeN n l) = N.min n (lenN l).
Proof. unfold lenN, takeN. rewrite firstn_length. lia. Qed.
Lemma lenN_dropN {A} n (l : list A) : lenN (dropN n l) = lenN l - n.
Proof. unfold lenN, dropN. rewrite skipn_length. lia. Qed.
Lemma takeN_takeN {A} n m (l : list A) : takeN n (takeN m l) = takeN (N.min n m) l.
Proof. unfold takeN. rewrite firstn_firstn. f_equal. lia. Qed.
Lemma skipn_skipn' {A} : forall x y (l : list A), skipn x (skipn y l) = skipn (y + x) l.
Proof.
  intros x y; revert x; induction y as [|y IH]; intros x l; [reflexivity|].
  destruct l; cbn; [apply skipn_nil|apply IH].
Qed.
Lemma dropN_dropN {A} n m (l : list A) : dropN n (dropN m l) = dropN (m + n) l.
Proof. unfold dropN. rewrite skipn_skipn'. f_equal. lia. Qed.

(** Splitting a list at an index. *)
Lemma splitN {A} i (l : list A) :
  i < lenN l -> exists a x b, l = a ++ x :: b /\ lenN a = i.
Proof.
  intros H. unfold lenN in H.
  destruct (nth_error l (N.to_nat i)) as [x|] eqn:E.
  - apply nth_error_split in E. destruct E as (a & b & -> & L).
    exists a, x, b. split; [reflexivity|]. unfold lenN. lia.
  - apply nth_error_None in E. lia.
Qed.
Lemma rnthN_app {A} (a b : list A) x i : lenN a = i -> rnthN (a ++ x :: b) i = Ok x.
Proof.
  intros <-. unfold rnthN, rnth, lenN. rewrite Nnat.Nat2N.id, nth_error_app2 by lia.
  rewrite Nat.sub_diag. reflexivity.
Qed.
Lemma rnthN_app1 {A} (a b : list A) i : i < lenN a -> rnthN (a ++ b) i = rnthN a i.
Proof.
  intros H. unfold rnthN, rnth, lenN in *. rewrite nth_error_app1 by lia. reflexivity.
Qed.
Lemma rnthN_app2 {A} (a b : list A) i : lenN a <= i -> rnthN (a ++ b) i = rnthN b (i - lenN a).
Proof.
  intros H. unfold rnthN, rnth, lenN in *. rewrite nth_error_app2 by lia.
  do 2 f_equal. replace (N.to_nat i - length a)%nat with (N.to_nat (i - N.of_nat (length a))) by lia.
  reflexivity.
Qed.
Lemma rnthN_lt {A} (l : list A) i x : rnthN l i = Ok x -> i < lenN l.
Proof.
  unfold rnthN, rnth, lenN. destruct (nth_error l (N.to_nat i)) eqn:E; [|discriminate].
  intros _. assert (nth_error l (N.to_nat i) <> None) by congruence.
  apply nth_error_Some in H. lia.
Qed.
Lemma update_at_app {A} (a b : list A) x y :
  update_at (length a) y (a ++ x :: b) = a ++ y :: b.
Proof. induction a as [|z a IH]; cbn; [reflexivity|]. now rewrite IH. Qed.
Lemma updN_app {A} (a b : list A) x y i : lenN a = i -> updN i y (a ++ x :: b) = a ++ y :: b.
Proof.
  intros <-. unfold updN, lenN. rewrite Nnat.Nat2N.id. apply update_at_app.
Qed.

Lemma sums_app i a b : sums i (a ++ b) = sums i a ++ sums (i + sumN a) b.
Proof.
  revert i; induction a as [|x a IH]; intros i; cbn [app sums sumN fold_right].
  - cbn. f_equal. lia.
  - rewrite IH. cbn [app]. do 3 f_equal. unfold sumN. lia.
Qed.
Lemma lenN_sums i l : lenN (sums i l) = lenN l.
Proof.
  revert i; induction l as [|x l IH]; intros i; cbn [sums]; [reflexivity|].
  rewrite !lenN_cons, IH. reflexivity.
Qed.
Lemma sumN_app a b : sumN (a ++ b) = sumN a + sumN b.
Proof. induction a as [|x a IH]; cbn; [reflexivity|]. unfold sumN in *. lia. Qed.
Lemma sumN_cons x l : sumN (x :: l) = x + sumN l.
Proof. reflexivity. Qed.
Lemma sumN_nil : sumN [] = 0.
Proof. reflexivity. Qed.
Lemma sums_cons i x l : sums i (x :: l) = (i + x) :: sums (i + x) l.
Proof. reflexivity. Qed.

(** Reading an entry of a table of running totals. *)
Lemma rnth_sums i a x b k : lenN a = k ->
  rnthN (sums i (a ++ x :: b)) k = Ok (i + sumN a + x).
Proof.
  intros H. rewrite sums_app, sums_cons. apply rnthN_app. now rewrite lenN_sums.
Qed.

Lemma rmap_Forall2 {A C} (f : A -> res C) (R : A -> C -> Prop) l :
  (forall x, In x l -> exists y, f x = Ok y /\ R x y) ->
  exists ys, rmap f l = Ok ys /\ Forall2 R l ys.
Proof.
  induction l as [|x l IH]; intros H; [exists []; split; [reflexivity|constructor]|].
  destruct (H x (or_introl eq_refl)) as (y & Ey & Ry).
  destruct IH as (ys & Eys & Rys); [intros z Hz; apply H; now right|].
  exists (y :: ys). cbn [rmap]. rewrite Ey. cbn. rewrite Eys. cbn.
  split; [reflexivity|now constructor].
Qed.
