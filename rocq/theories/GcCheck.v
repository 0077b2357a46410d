(** A program that decides whether blocks represent a tree (GcRep), and one that puts a tree into
    memory; for the examples. *)
From Coq Require Import List NArith Arith Bool Lia ZifyN ZifyNat ZifyBool.
From Verif Require Import Common NList Rrb RrbInv GcConcat GcSpec GcRep GcTree.
Import ListNotations.
Local Open Scope N_scope.

Set Default Goal Selector "!".

Lemma firsts_sound {A} n (sl : list (option A)) xs : firsts n sl = Some xs -> pre xs sl /\ length xs = n.
Proof.
  revert sl xs. induction n as [|n IH]; intros sl xs H; cbn in H.
  - destruct sl; injection H as <-; split; [apply pre_nil|reflexivity|apply pre_nil|reflexivity].
  - destruct sl as [|[x|] sl]; try easy. destruct (firsts n sl) as [ys|] eqn:E; [|easy]. injection H as <-.
    destruct (IH _ _ E) as [(r & ->) <-]. split; [|reflexivity]. now exists r.
Qed.

Fixpoint nodupb (l : list nat) : bool :=
  match l with [] => true | x :: l => negb (existsb (Nat.eqb x) l) && nodupb l end.
Lemma nodupb_ok l : nodupb l = true -> NoDup l.
Proof.
  induction l as [|x l IH]; cbn; intros H; [constructor|]. apply andb_prop in H as [H1 H2]. constructor; [|auto].
  intros Hi. apply negb_true_iff in H1. assert (existsb (Nat.eqb x) l = true) as E; [|congruence].
  apply existsb_exists. exists x. split; [auto|apply Nat.eqb_refl].
Qed.

Section Check.
Variables B BL : N.
Variable mine : token -> bool.
Notation rep := (rep (T := N) B BL mine).

Definition sameb (a b : list N) : bool := if list_eq_dec N.eq_dec a b then true else false.
Definition isb (o : option (list N)) (xs : list N) : bool := match o with Some ys => sameb ys xs | None => false end.
Lemma isb_ok o xs : isb o xs = true -> o = Some xs.
Proof. unfold isb, sameb. destruct o as [ys|]; [|easy]. destruct (list_eq_dec N.eq_dec ys xs); congruence. Qed.
Definition capb (o : option token) (n w : N) : bool := if ow mine o then n =? w else true.
Lemma capb_ok o n w : capb o n w = true -> ow mine o = true -> n = w.
Proof. unfold capb. intros H E. rewrite E in H. now apply N.eqb_eq. Qed.

Definition trepb (h : gheap N) (r : option nat) (sz : option (list N)) : option (list nat) :=
  match r, sz with
  | None, None => Some []
  | Some r, Some sz =>
      match nth_error h r with
      | Some (mkG o (GTable (Some n) sl)) =>
          if (n =? lenN sz) && isb (firsts (length sz) sl) sz && capb o (lenN sl) (width B)
          then Some (own1 mine o r) else None
      | _ => None
      end
  | _, _ => None
  end.
Fixpoint kidsb (f : nat -> node N -> option (list nat)) (cs : list nat) (ns : list (node N)) : option (list (list nat)) :=
  match cs, ns with
  | [], [] => Some []
  | c :: cs, n :: ns => match f c n, kidsb f cs ns with Some F, Some Fs => Some (F :: Fs) | _, _ => None end
  | _, _ => None
  end.
Fixpoint repb (h : gheap N) (v : nat) (a : nat) (n : node N) : option (list nat) :=
  match v, n with
  | O, Leaf xs =>
      match nth_error h a with
      | Some (mkG o (GLeaf sl)) =>
          if isb (firsts (length xs) sl) xs && capb o (lenN sl) (lwidth BL) then Some (own1 mine o a) else None
      | _ => None
      end
  | S l, Inner sz ns =>
      match nth_error h a with
      | Some (mkG o (GInner r ks)) =>
          match firsts (length ns) ks with
          | Some cs =>
              match trepb h r sz, kidsb (repb h l) cs ns with
              | Some Fr, Some Fs =>
                  if capb o (lenN ks) (width B)
                  then Some (own1 mine o a ++ Fr ++ List.concat Fs) else None
              | _, _ => None
              end
          | None => None
          end
      | _ => None
      end
  | _, _ => None
  end.
Definition gtrepb (h : gheap N) (x : gtree) (t : tree N) : option (list nat) :=
  match repb h (S (lv t)) (gt_root x) (root t), repb h 0 (gt_tail x) (tail t) with
  | Some Fr, Some Ft =>
      if (gt_size x =? size t) && Nat.eqb (gt_lv x) (lv t) then Some (Fr ++ Ft) else None
  | _, _ => None
  end.

Lemma trepb_ok h r sz F : trepb h r sz = Some F -> trep B mine h r sz F.
Proof.
  destruct r as [r|], sz as [sz|]; cbn [trepb trep]; try easy; [|now intros [= <-]].
  destruct (nth_error h r) as [[o [| |[n|] sl]]|] eqn:E; try easy.
  destruct (n =? lenN sz) eqn:E1; [|easy]. destruct (isb _ _) eqn:E2; [|easy]. destruct (capb _ _ _) eqn:E3; [|easy].
  intros [= <-]. apply N.eqb_eq in E1 as ->. apply isb_ok, firsts_sound in E2 as [E2 _].
  exists o, sl. repeat (split; auto). now apply capb_ok.
Qed.
Lemma repb_ok h : forall v a n F, repb h v a n = Some F -> rep h v a n F.
Proof.
  induction v as [|l IH]; intros a n F H; destruct n as [xs|sz ns]; cbn [repb] in H; try easy; cbn [GcRep.rep].
  - destruct (nth_error h a) as [[o [sl| |]]|] eqn:E; try easy.
    destruct (isb _ _) eqn:E2; [|easy]. destruct (capb _ _ _) eqn:E3; [|easy]. injection H as <-.
    apply isb_ok, firsts_sound in E2 as [E2 _]. exists o, sl. repeat (split; auto). now apply capb_ok.
  - destruct (nth_error h a) as [[o [|r ks|]]|] eqn:E; try easy.
    destruct (firsts _ _) as [cs|] eqn:E1; [|easy]. destruct (trepb _ _ _) as [Fr|] eqn:E2; [|easy].
    destruct (kidsb _ _ _) as [Fs|] eqn:E3; [|easy]. destruct (capb _ _ _) eqn:E4; [|easy]. injection H as <-.
    apply firsts_sound in E1 as [E1 _]. exists o, r, ks, cs, Fr, Fs.
    split; [exact E|]. split; [auto|]. split; [now apply capb_ok|]. split; [now apply trepb_ok|]. split; [|reflexivity].
    clear - E3 IH. revert cs Fs E3. induction ns as [|n ns IHn]; intros [|c cs] Fs H; cbn [kidsb] in H; try easy.
    + injection H as <-. constructor.
    + destruct (repb h l c n) as [F|] eqn:E; [|easy]. destruct (kidsb _ _ _) as [Fs'|] eqn:E'; [|easy]. injection H as <-.
      constructor; auto.
Qed.
Lemma gtrepb_ok h x t F : gtrepb h x t = Some F -> gtrep B BL mine h x t F.
Proof.
  unfold gtrepb, gtrep. intros H. destruct (repb h (S _) _ _) as [Fr|] eqn:E1; [|easy].
  destruct (repb h 0 _ _) as [Ft|] eqn:E2; [|easy]. destruct (gt_size x =? _) eqn:E3; [|easy].
  destruct (Nat.eqb _ _) eqn:E4; [|easy]. injection H as <-. apply N.eqb_eq in E3. apply Nat.eqb_eq in E4.
  repeat (split; auto). exists Fr, Ft. split; [now apply repb_ok|]. split; [now apply repb_ok|reflexivity].
Qed.

(** Blocks for a tree; [f] chooses their tokens by their addresses. *)
Variable f : nat -> option token.
Definition full_cap {A} (o : option token) (n : N) (xs : list A) : list (option A) :=
  match o with
  | Some _ => map Some xs ++ repeat None (N.to_nat n - length xs)
  | None => map Some xs
  end.
Definition put (b : option token -> gbody N) : G N nat := fun h => gnew (mkG (f (length h)) (b (f (length h)))) h.
Fixpoint put_node (v : nat) (n : node N) : G N nat :=
  match v, n with
  | O, Leaf xs => put (fun o => GLeaf (full_cap o (lwidth BL) xs))
  | S l, Inner r ns =>
      cs <~ fold_right (fun n m => a <~ put_node l n ;; cs <~ m ;; gret (a :: cs)) (gret []) ns ;;
      r <~ match r with
           | None => gret None
           | Some sz => r <~ put (fun o => GTable (Some (lenN sz)) (full_cap o (width B) sz)) ;; gret (Some r)
           end ;;
      put (fun o => GInner r (full_cap o (width B) cs))
  | _, _ => gub
  end.
Definition put_tree (t : tree N) : G N gtree :=
  r <~ put_node (S (lv t)) (root t) ;; b <~ put_node 0 (tail t) ;; gret (mkGT (size t) (lv t) r b).
End Check.
