(** Specification vocabulary for vector and flex_vector, on plain lists.  Nothing here
    refers to the model. *)
From Coq Require Import List ZArith Bool Arith.
Import ListNotations.

(** Calling a stateful predicate on successive ranges until it answers false. *)
Fixpoint run_until {St C} (fn : St -> C -> St * bool) (s : St) (cs : list C) : St * bool :=
  match cs with
  | [] => (s, true)
  | c :: cs' => let '(s', b) := fn s c in if b then run_until fn s' cs' else (s', false)
  end.

Lemma run_until_app {St C} (fn : St -> C -> St * bool) a : forall s b,
  run_until fn s (a ++ b) =
  let '(s', ok) := run_until fn s a in if ok then run_until fn s' b else (s', false).
Proof.
  induction a as [|c a IH]; intros s b; cbn [app run_until]; [reflexivity|].
  destruct (fn s c) as [s' []]; [apply IH|reflexivity].
Qed.

(** Element-wise comparison of two sequences. *)
Fixpoint list_eqb {A} (eq : A -> A -> bool) (xs ys : list A) : bool :=
  match xs, ys with
  | [], [] => true
  | x :: xs', y :: ys' => andb (eq x y) (list_eqb eq xs' ys')
  | _, _ => false
  end.
Lemma list_eqb_app {A} (eq : A -> A -> bool) a : forall b c d, length a = length c ->
  list_eqb eq (a ++ b) (c ++ d) = andb (list_eqb eq a c) (list_eqb eq b d).
Proof.
  induction a as [|x a IH]; intros b [|y c] d H; try discriminate H; [reflexivity|].
  cbn. rewrite IH by (now injection H). destruct (eq x y); reflexivity.
Qed.
Lemma list_eqb_refl {A} (eq : A -> A -> bool) : (forall x, eq x x = true) ->
  forall xs, list_eqb eq xs xs = true.
Proof. intros H. induction xs as [|x xs IH]; cbn; [reflexivity|]. now rewrite H. Qed.
Lemma list_eqb_length {A} (eq : A -> A -> bool) xs : forall ys,
  list_eqb eq xs ys = true -> length xs = length ys.
Proof.
  induction xs as [|x xs IH]; intros [|y ys]; cbn; try easy.
  destruct (eq x y); cbn; [|easy]. intros H. f_equal. now apply IH.
Qed.
Lemma list_eqb_Forall2 {A} (eq : A -> A -> bool) xs : forall ys,
  list_eqb eq xs ys = true <-> Forall2 (fun x y => eq x y = true) xs ys.
Proof.
  induction xs as [|x xs IH]; intros [|y ys]; cbn.
  - split; [constructor|reflexivity].
  - split; [easy|]. intros H; inversion H.
  - split; [easy|]. intros H; inversion H.
  - rewrite Bool.andb_true_iff, IH. split; [intros []; now constructor|].
    intros H; inversion H; auto.
Qed.

(** Replacing the element at [i]. *)
Definition list_set {A} (xs : list A) (i : nat) (f : A -> A) : list A :=
  match skipn i xs with
  | [] => xs
  | x :: rest => firstn i xs ++ f x :: rest
  end.
Lemma list_set_app {A} (a : list A) x z f i : length a = i ->
  list_set (a ++ x :: z) i f = a ++ f x :: z.
Proof.
  intros <-. unfold list_set. rewrite skipn_app, skipn_all, PeanoNat.Nat.sub_diag. cbn [app skipn].
  rewrite firstn_app, firstn_all, PeanoNat.Nat.sub_diag. cbn [firstn]. now rewrite app_nil_r.
Qed.

(** The elements of positions [i] to [j]. *)
Definition list_range {A} (xs : list A) (i j : nat) : list A := firstn (j - i) (skipn i xs).

(** ** Iterator walks
    The operations of a random access iterator, and what a walk over a sequence yields:
    the dereferenced elements, or nothing when the walk leaves [begin, end] or
    dereferences the end. *)
Inductive it_op : Type := Inc | Dec | Adv (n : Z) | Deref.
Fixpoint walk_list {A} (xs : list A) (i : nat) (ops : list it_op) : option (list A) :=
  match ops with
  | [] => Some []
  | Inc :: ops' => if Nat.ltb i (length xs) then walk_list xs (i + 1) ops' else None
  | Dec :: ops' => if Nat.ltb 0 i then walk_list xs (i - 1) ops' else None
  | Adv n :: ops' =>
      let j := (Z.of_nat i + n)%Z in
      if ((0 <=? j) && (j <=? Z.of_nat (length xs)))%Z then walk_list xs (Z.to_nat j) ops'
      else None
  | Deref :: ops' =>
      match nth_error xs i with
      | Some x => option_map (cons x) (walk_list xs i ops')
      | None => None
      end
  end.
