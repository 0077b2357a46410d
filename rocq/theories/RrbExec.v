(** Runs of flex_vector operations, used for the concrete cases beside the theorems and
    for the witnesses of the refutations. *)
From Coq Require Import List NArith Arith Bool Lia ZifyN ZifyNat ZifyBool.
From Verif Require Import Common NList Rrb RrbInv RrbView RrbSpec RrbReach.
Import ListNotations.
Local Open Scope N_scope.

Set Default Goal Selector "!".

Section Exec.
Context {T : Type}.
Variables B BL : N.
Notation built := (@built T B BL).

Definition small_b (t : tree T) : bool := (sh B BL (lv t) <? 32) && (size t <=? 2 ^ 32).
Lemma small_b_ok t : small_b t = true -> small B BL t.
Proof. unfold small_b, small. lia. Qed.

(** A call on one vector; [CSelf] concatenates it with itself. *)
Inductive cmd := CPush (x : T) | CFront (x : T) | CTake (n : N) | CDrop (n : N) | CSelf
  | CInsert (i : N) (x : T) | CErase (i : N) | CSet (i : N) (x : T).
Definition to_opt {A} (r : res A) : option A := match r with Ok a => Some a | UB => None end.
Definition exec1 (t : tree T) (c : cmd) : option (tree T) :=
  match c with
  | CPush x => to_opt (push_back B BL t x)
  | CTake n => to_opt (take B BL t n)
  | CSet i x => if i <? size t then to_opt (assoc B BL t i x) else None
  | CFront x => if small_b t then to_opt (push_front B BL t x) else None
  | CDrop n => if small_b t then to_opt (drop B BL t n) else None
  | CSelf => if small_b t then to_opt (concat B BL t t) else None
  | CInsert i x => if small_b t then to_opt (insert B BL t i x) else None
  | CErase i => if small_b t then to_opt (erase B BL t i) else None
  end.
Fixpoint exec (t : tree T) (cs : list cmd) : option (tree T) :=
  match cs with
  | [] => Some t
  | c :: cs' => match exec1 t c with Some t' => exec t' cs' | None => None end
  end.

Definition reached (t : tree T) : Prop := exists xs, built t xs.

Lemma exec1_ok t c t' : reached t -> exec1 t c = Some t' -> reached t'.
Proof.
  intros [xs H]. destruct c; cbn [exec1]; unfold to_opt.
  - destruct (push_back _ _ _ _) eqn:E; [|discriminate]. intros [= <-].
    eexists. eapply b_push_back; eauto.
  - destruct (small_b t) eqn:S; [|discriminate].
    destruct (push_front _ _ _ _) eqn:E; [|discriminate]. intros [= <-].
    eexists. eapply b_push_front; eauto. now apply small_b_ok.
  - destruct (take _ _ _ _) eqn:E; [|discriminate]. intros [= <-].
    eexists. eapply b_take; eauto.
  - destruct (small_b t) eqn:S; [|discriminate].
    destruct (drop _ _ _ _) eqn:E; [|discriminate]. intros [= <-].
    eexists. eapply b_drop; eauto. now apply small_b_ok.
  - destruct (small_b t) eqn:S; [|discriminate].
    destruct (concat _ _ _ _) eqn:E; [|discriminate]. intros [= <-].
    eexists. eapply b_concat; eauto. now apply small_b_ok.
  - destruct (small_b t) eqn:S; [|discriminate].
    destruct (insert _ _ _ _ _) eqn:E; [|discriminate]. intros [= <-].
    eexists. eapply b_insert; eauto. now apply small_b_ok.
  - destruct (small_b t) eqn:S; [|discriminate].
    destruct (erase _ _ _ _) eqn:E; [|discriminate]. intros [= <-].
    eexists. eapply b_erase; eauto. now apply small_b_ok.
  - destruct (N.ltb_spec i (size t)); [|discriminate].
    destruct (assoc _ _ _ _ _) eqn:E; [|discriminate]. intros [= <-].
    eexists. eapply b_set; eauto.
Qed.
Lemma exec_ok cs t t' : reached t -> exec t cs = Some t' -> reached t'.
Proof.
  revert t. induction cs as [|c cs IH]; intros t Ht; cbn [exec]; [now intros [= <-]|].
  destruct (exec1 t c) as [u|] eqn:E; [|discriminate]. apply IH. eapply exec1_ok; eauto.
Qed.
Lemma reached_empty : reached empty.
Proof. exists []. constructor. Qed.
Lemma reached_list t : 2 <= B -> reached t -> built t (to_list t).
Proof. intros HB [xs H]. now destruct (built_inv B BL HB _ _ H) as [_ ->]. Qed.
Lemma exec_built cs t : 2 <= B -> exec empty cs = Some t -> built t (to_list t).
Proof. intros HB H. apply reached_list; auto. eapply exec_ok; eauto. apply reached_empty. Qed.

(** Iterating a step chosen by looking at the tree. *)
Fixpoint repeat_until (fuel : nat) (stop : tree T -> bool) (c : cmd) (t : tree T)
  : option (tree T) :=
  if stop t then Some t
  else match fuel with
       | O => None
       | S f => match exec1 t c with Some t' => repeat_until f stop c t' | None => None end
       end.
Lemma repeat_until_ok fuel stop c t t' :
  reached t -> repeat_until fuel stop c t = Some t' -> reached t'.
Proof.
  revert t. induction fuel as [|f IH]; intros t Ht; cbn [repeat_until];
    (destruct (stop t); [now intros [= <-]|]); [discriminate|].
  destruct (exec1 t c) as [u|] eqn:E; [|discriminate]. apply IH. eapply exec1_ok; eauto.
Qed.
End Exec.
Arguments cmd : clear implicits.

(** Elements 0, 1, ... pushed in order. *)
Definition pushes (n : nat) : list (cmd N) := map (fun i => CPush (N.of_nat i)) (seq 0 n).
Definition vpushes (B BL : N) (n : nat) : res (tree N) :=
  fold_left (fun r i => t <- r ;; vpush_back B BL t (N.of_nat i)) (seq 0 n) (Ok empty).
Lemma vpushes_built B BL n t : vpushes B BL n = Ok t ->
  vbuilt B BL t (map N.of_nat (seq 0 n)).
Proof.
  revert t. unfold vpushes. induction n as [|n IH]; intros t.
  - intros [= <-]. constructor.
  - rewrite seq_S, fold_left_app, map_app. cbn [fold_left map].
    destruct (fold_left _ _ _) as [u|]; [|discriminate]. cbn [rbind]. intros E.
    eapply v_push_back; eauto.
Qed.
