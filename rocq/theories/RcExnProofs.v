(** Reasoning about operations that may throw. *)
From Coq Require Import List Arith Bool Lia.
From Verif Require Import Common AtomProofs RcHeap RcProofs RcExn.
Import ListNotations.
Set Default Goal Selector "!".

Section Proofs.
Context {B : Type}.
Notation heap := (heap B).

(** [m] from [h] is never undefined; [Q] when it returns, [E] when it throws. With [t = true]
    whatever throws, with [t = false] when nothing does. *)
Definition xwp (t : bool) {A} (m : X B A) (h : heap) (Q : A -> heap -> Prop) (E : heap -> Prop) : Prop :=
  forall f, (t = false -> f = []) ->
            match m f h with
            | Ok (Ret a, f', h') => (t = false -> f' = []) /\ Q a h'
            | Ok (Exn, f', h') => t = true /\ E h'
            | UB => False
            end.

Variable t : bool.
Lemma xwp_mono {A} (m : X B A) h (Q Q' : A -> heap -> Prop) (E E' : heap -> Prop) : xwp t m h Q E ->
  (forall a h', Q a h' -> Q' a h') -> (forall h', E h' -> E' h') -> xwp t m h Q' E'.
Proof.
  intros H HQ HE f Hf. specialize (H f Hf). destruct (m f h) as [[[[a|] f'] h']|]; intuition.
Qed.
Lemma xwp_ret {A} (a : A) h (Q : A -> heap -> Prop) E : Q a h -> xwp t (xret a) h Q E.
Proof. intros H f Hf. split; auto. Qed.
Lemma xwp_bind {A C} (m : X B A) (k : A -> X B C) h Q E :
  xwp t m h (fun a h' => xwp t (k a) h' Q E) E -> xwp t (xbind m k) h Q E.
Proof.
  intros H f Hf. specialize (H f Hf). unfold xbind. destruct (m f h) as [[[[a|] f'] h']|]; auto.
  destruct H as [F H]. apply (H f' F).
Qed.
Lemma xwp_m {A} (m : M B A) h Q E : wp m h Q -> xwp t (xm m) h Q E.
Proof. intros H f Hf. unfold wp, xm in *. destruct (m h) as [[a h']|]; auto. Qed.
Lemma xwp_throw h (Q : unit -> heap -> Prop) (E : heap -> Prop) : Q tt h -> (t = true -> E h) -> xwp t may_throw h Q E.
Proof.
  intros HQ HE f Hf. unfold may_throw. destruct f as [|[|] f]; auto.
  - destruct t; auto. now specialize (Hf eq_refl).
  - destruct t; [split; [discriminate|auto]|]. now specialize (Hf eq_refl).
Qed.
Lemma xwp_try {A} (m : X B A) hd h (Q : A -> heap -> Prop) (E : heap -> Prop) :
  xwp t m h Q (fun h' => wp hd h' (fun _ h'' => E h'')) -> xwp t (xtry m hd) h Q E.
Proof.
  intros H f Hf. specialize (H f Hf). unfold xtry. destruct (m f h) as [[[[a|] f'] h']|]; auto.
  destruct H as [Ht H]. unfold wp in H. destruct (hd h') as [[[] h'']|]; auto.
Qed.
End Proofs.
Arguments xwp : simpl never.
