(** C62: the memory orders of the spinlock suffice. *)
From Coq Require Import List Arith Lia Relations.
From Verif Require Import LockOrderSpec LockOrder.
Import ListNotations.
Set Default Goal Selector "!".

Section Proofs.
Context {L V R : Type}.
Notation code := (code L V R).
Notation execution := (execution L V).

(** Data are accessed with the lock only, and the lock is taken and given back in turns (as scoped_lock
    does); [b]: the lock is held. *)
Inductive guarded : bool -> code -> Prop :=
| g_stop r : guarded false (Stop r)
| g_lock c : guarded true c -> guarded false (Lock c)
| g_unlock c : guarded false c -> guarded true (Unlock c)
| g_read l k : (forall v, guarded true (k v)) -> guarded true (Read l k)
| g_write l v c : guarded true c -> guarded true (Write l v c).

(** *** Longer executions *)
Lemma at_app (x : execution) y i t e : at_ x i t e -> at_ (x ++ y) i t e.
Proof. unfold at_. intros H. rewrite nth_error_app1; [exact H|]. apply nth_error_Some. congruence. Qed.
Lemma at_lt (x : execution) i t e : at_ x i t e -> i < length x.
Proof. unfold at_. intros H. apply nth_error_Some. congruence. Qed.
Lemma at_last (x : execution) t e : at_ (x ++ [(t, e)]) (length x) t e.
Proof. unfold at_. rewrite nth_error_app2, Nat.sub_diag; [reflexivity|lia]. Qed.
Lemma at_snoc (x : execution) t e i t' e' : at_ (x ++ [(t, e)]) i t' e' ->
  at_ x i t' e' \/ (i = length x /\ t' = t /\ e' = e).
Proof.
  intros H. assert (Hi := at_lt _ _ _ _ H). rewrite app_length in Hi. cbn in Hi.
  destruct (Nat.eq_dec i (length x)) as [->|Hn].
  - right. unfold at_ in H. rewrite nth_error_app2, Nat.sub_diag in H; [|lia]. cbn in H. injection H as <- <-. auto.
  - left. unfold at_ in *. rewrite nth_error_app1 in H; [exact H|lia].
Qed.
Lemma hb_app (x : execution) y i j : hb x i j -> hb (x ++ y) i j.
Proof.
  induction 1 as [i j H|i j k _ IH1 _ IH2]; [|eapply t_trans; eauto]. apply t_step. destruct H as [H|H].
  - left. destruct H as (Hl & t & e & e' & H1 & H2). split; [exact Hl|]. exists t, e, e'. split; now apply at_app.
  - right. destruct H as (Hl & (t & H1) & (t' & H2) & H3). split; [exact Hl|].
    split; [exists t; now apply at_app|]. split; [exists t'; now apply at_app|]. intros k u e Hk Ha. apply (H3 k u e Hk).
    unfold at_ in *. rewrite nth_error_app1 in Ha; [exact Ha|]. apply at_lt in H2. lia.
Qed.
Lemma hb_lt (x : execution) i j : hb x i j -> i < j.
Proof. induction 1 as [i j H|]; [|lia]. destruct H as [H|H]; apply H. Qed.
Lemma hb_po (x : execution) i j t e e' : i < j -> at_ x i t e -> at_ x j t e' -> hb x i j.
Proof. intros Hl H1 H2. apply t_step. left. split; [exact Hl|]. eauto. Qed.

(** *** The invariant *)
Definition holds (x : execution) (th : nat -> code) (f : bool) : Prop :=
  if f then
    exists t a, guarded true (th t) /\ (forall u, u <> t -> guarded false (th u)) /\ at_ x a t (Tas false) /\
      (forall i u e, at_ x i u e -> on_data e -> u = t \/ hb x i a) /\
      (forall i u, at_ x i u (Tas false) -> u = t \/ exists c, i < c /\ at_ x c u Clear)
  else
    (forall u, guarded false (th u)) /\
    (forall i u e, at_ x i u e -> on_data e -> exists c v, at_ x c v Clear /\ hb x i c /\
       forall k w e', c < k -> at_ x k w e' -> ~ on_flag e') /\
    (forall i u, at_ x i u (Tas false) -> exists c, i < c /\ at_ x c u Clear).
Definition chained (x : execution) : Prop :=
  forall i j u w e e', i < j -> at_ x i u e -> at_ x j w e' -> on_data e -> on_data e' -> hb x i j.

Lemma gives_holds th0 x th f : (forall u, guarded false (th0 u)) -> gives th0 x th f ->
  holds x th f /\ chained x /\ exclusive x.
Proof.
  intros H0. induction 1 as [|x th f t e c f' _ (IH & IC & IE) Hs].
  { split; [|split].
    - cbn. split; [exact H0|]. split; intros i u; unfold at_; destruct i; discriminate.
    - intros i j u w e e' _ H. unfold at_ in H. destruct i; discriminate H.
    - intros a j u u' e H. unfold at_ in H. destruct a; discriminate H. }
  assert (Hth : set_thread th t c t = c) by (unfold set_thread; now rewrite Nat.eqb_refl).
  assert (Hou : forall u, u <> t -> set_thread th t c u = th u)
    by (intros u Hu; unfold set_thread; apply Nat.eqb_neq in Hu; now rewrite Hu).
  set (y := x ++ [(t, e)]) in *. assert (Hn := at_last x t e). fold y in Hn.
  (* what the new event adds to the two consequences *)
  assert (Hc : (on_data e -> forall i u e1, at_ x i u e1 -> on_data e1 -> hb y i (length x)) -> chained y).
  { intros N i j u w e1 e2 Hl H1 H2 D1 D2. apply at_snoc in H2 as [H2|(-> & -> & ->)].
    - assert (i < length x) by (apply at_lt in H2; lia). apply at_snoc in H1 as [H1|(-> & _)]; [|lia]. apply hb_app. eauto.
    - apply at_snoc in H1 as [H1|(-> & _)]; [|lia]. eapply N; eauto. }
  assert (He : ((e = Tas false \/ e = Clear \/ on_data e) -> forall a u, at_ x a u (Tas false) -> u <> t ->
      exists c, a < c /\ at_ x c u Clear) -> exclusive y).
  { intros N a j u u' e1 H1 Hl H2 Hu He. apply at_snoc in H2 as [H2|(-> & -> & ->)].
    - assert (j < length x) by (apply at_lt in H2; lia). apply at_snoc in H1 as [H1|(-> & _)]; [|lia].
      destruct (IE a j u u' e1 H1 Hl H2 Hu He) as (k & Hk & Hk2). exists k. split; [exact Hk|now apply at_app].
    - apply at_snoc in H1 as [H1|(-> & _)]; [|lia]. destruct (N He a u H1 Hu) as (k & Hk & Hk2). exists k.
      split; [apply at_lt in Hk2; lia|now apply at_app]. }
  destruct f; cbn [holds] in IH.
  - destruct IH as (o & a & G1 & G2 & Ha & Hd & Ht).
    assert (Hot : (e = Tas true /\ t <> o /\ c = th t /\ f' = true) \/ t = o).
    { destruct (Nat.eq_dec t o) as [->|Ht']; [auto|]. left. assert (G := G2 t Ht'). 
      inversion Hs as [c1 E1|c1 E1|c1 f1 E1|l k v f1 E1|l v c1 f1 E1]; subst; rewrite <- E1 in G; inversion G; subst; auto. }
    assert (Hdn : forall i u e1, at_ x i u e1 -> on_data e1 -> t = o -> hb y i (length x)).
    { intros i u e1 Hi D ->. destruct (Hd i u e1 Hi D) as [->|Hb].
      - apply (hb_po y i (length x) o e1 e); [now apply at_lt in Hi|now apply at_app|exact Hn].
      - eapply t_trans; [apply hb_app; exact Hb|].
        apply (hb_po y a (length x) o (Tas false) e); [now apply at_lt in Ha|now apply at_app|exact Hn]. }
    split; [|split].
    + destruct Hot as [(-> & Hto & -> & ->)| ->].
      * exists o, a. rewrite Hou by auto. split; [exact G1|]. split.
        { intros u Hu. destruct (Nat.eq_dec u t) as [->|Hut]; [rewrite Hth; auto|rewrite Hou; auto]. }
        split; [now apply at_app|]. split.
        { intros i u e1 Hi D. apply at_snoc in Hi as [Hi|(-> & -> & ->)]; [|contradiction].
          destruct (Hd i u e1 Hi D); [auto|right; now apply hb_app]. }
        intros i u Hi. apply at_snoc in Hi as [Hi|(_ & _ & H)]; [|discriminate H].
        destruct (Ht i u Hi) as [->|(k & Hk & Hk2)]; [auto|right; exists k; split; [exact Hk|now apply at_app]].
      * inversion Hs as [c1 E1|c1 E1|c1 f1 E1|l k v f1 E1|l v c1 f1 E1]; subst; rewrite <- E1 in G1; inversion G1; subst.
        -- cbn [holds]. split; [|split].
           ++ intros u. destruct (Nat.eq_dec u o) as [->|Hu]; [now rewrite Hth|rewrite Hou; auto].
           ++ intros i u e1 Hi D. apply at_snoc in Hi as [Hi|(_ & _ & ->)]; [|contradiction].
              exists (length x), o. split; [exact Hn|]. split; [eapply Hdn; eauto|].
              intros k w e' Hk Hk2. apply at_lt in Hk2. unfold y in Hk2. rewrite app_length in Hk2. cbn in Hk2. lia.
           ++ intros i u Hi. apply at_snoc in Hi as [Hi|(_ & _ & H)]; [|discriminate H].
              destruct (Ht i u Hi) as [->|(k & Hk & Hk2)].
              ** exists (length x). split; [now apply at_lt in Hi|exact Hn].
              ** exists k. split; [exact Hk|now apply at_app].
        -- cbn [holds]. exists o, a. rewrite Hth. split; [auto|]. split; [intros u Hu; rewrite Hou; auto|].
           split; [now apply at_app|]. split.
           ++ intros i u e1 Hi D. apply at_snoc in Hi as [Hi|(_ & -> & _)]; [|auto].
              destruct (Hd i u e1 Hi D); [auto|right; now apply hb_app].
           ++ intros i u Hi. apply at_snoc in Hi as [Hi|(_ & _ & H)]; [|discriminate H].
              destruct (Ht i u Hi) as [->|(m & Hk & Hk2)]; [auto|right; exists m; split; [exact Hk|now apply at_app]].
        -- cbn [holds]. exists o, a. rewrite Hth. split; [auto|]. split; [intros u Hu; rewrite Hou; auto|].
           split; [now apply at_app|]. split.
           ++ intros i u e1 Hi D. apply at_snoc in Hi as [Hi|(_ & -> & _)]; [|auto].
              destruct (Hd i u e1 Hi D); [auto|right; now apply hb_app].
           ++ intros i u Hi. apply at_snoc in Hi as [Hi|(_ & _ & H)]; [|discriminate H].
              destruct (Ht i u Hi) as [->|(m & Hk & Hk2)]; [auto|right; exists m; split; [exact Hk|now apply at_app]].
    + apply Hc. intros D i u e1 Hi D1. destruct Hot as [(-> & _)|Ho]; [contradiction|]. eapply Hdn; eauto.
    + apply He. intros He1 i u Hi Hu. destruct Hot as [(-> & _)| ->].
      * destruct He1 as [H|[H|H]]; [discriminate H|discriminate H|contradiction].
      * destruct (Ht i u Hi) as [->|X]; [now elim Hu|exact X].
  - destruct IH as (G & Hd & Ht). assert (Gt := G t).
    inversion Hs as [c1 E1|c1 E1|c1 f1 E1|l k v f1 E1|l v c1 f1 E1]; subst; rewrite <- E1 in Gt; inversion Gt; subst.
    split; [|split].
    + cbn [holds]. exists t, (length x). rewrite Hth. split; [auto|]. split; [intros u Hu; rewrite Hou; auto|].
      split; [exact Hn|]. split.
      * intros i u e1 Hi D. apply at_snoc in Hi as [Hi|(_ & -> & _)]; [|auto]. right.
        destruct (Hd i u e1 Hi D) as (k & w & Hk & Hb & Hl). eapply t_trans; [apply hb_app; exact Hb|]. apply t_step. right.
        split; [now apply at_lt in Hk|]. split; [exists w; now apply at_app|]. split; [exists t; exact Hn|].
        intros m u' e' Hm Hm2. apply at_snoc in Hm2 as [Hm2|(-> & _)]; [|lia]. apply (Hl m u' e'); [lia|exact Hm2].
      * intros i u Hi. apply at_snoc in Hi as [Hi|(_ & -> & _)]; [|auto]. right.
        destruct (Ht i u Hi) as (k & Hk & Hk2). exists k. split; [exact Hk|now apply at_app].
    + apply Hc. intros [].
    + apply He. intros _ i u Hi _. auto.
Qed.

Lemma chained_race_free x : chained x -> race_free x.
Proof.
  intros H i j t t' e e' H1 H2 Hij Hc. assert (D : on_data e /\ on_data e') by (destruct e, e'; cbn in *; auto; contradiction).
  destruct D as [D1 D2]. destruct (Nat.lt_gt_cases i j) as [X _]. destruct (X Hij) as [Hl|Hl]; [left|right]; eapply H; eauto.
Qed.
Lemma chained_in_order init x : chained x -> reads_ok init x -> in_order init x.
Proof.
  intros H Hr j t l v Hj. destruct (Hr j t l v Hj) as [[Hv Hk]|(i & t' & Hi & Hn & Hk)].
  - left. split; [exact Hv|]. intros k t' v' Hl Hw. apply (Hk k t' v' Hw). eapply H; eauto; exact I.
  - right. exists i, t'. assert (Hlt : i < j).
    { destruct (Nat.lt_trichotomy i j) as [X|[X|X]]; [exact X| |].
      - subst. unfold at_ in *. congruence.
      - elim Hn. eapply H; eauto; exact I. }
    split; [exact Hlt|]. split; [exact Hi|]. intros k t'' v' [Hl1 Hl2] Hw. apply (Hk k t'' v' Hw). split; eapply H; eauto; exact I.
Qed.
End Proofs.

(** ** Theorems *)
(** Threads that access the data they share between lock() and unlock() only: in every execution that
    C++ allows, with test_and_set acquiring and clear releasing only, there is no data race, critical
    sections do not overlap, and every read sees the last write before it. *)
Theorem C62_spinlock : forall (L V R : Type) (init : L -> V) (th0 : nat -> code L V R) x th f, (forall t, guarded false (th0 t)) ->
  gives th0 x th f -> reads_ok init x -> race_free x /\ exclusive x /\ in_order init x.
Proof.
  intros L V R init th0 x th f Hg H Hr. destruct (gives_holds th0 x th f Hg H) as (_ & Hc & He).
  split; [now apply chained_race_free|]. split; [exact He|now apply chained_in_order].
Qed.
Print Assumptions C62_spinlock.

(** The lock is always there for someone: when the flag is clear every thread that has not ended takes
    it with its next step, when it is set one thread can do something else than spin. *)
Theorem C62_progress : forall (L V R : Type) (th0 : nat -> code L V R) x th f, (forall t, guarded false (th0 t)) ->
  inhabited V -> gives th0 x th f ->
  if f then exists t e c f', step (th t) true e c f' /\ e <> Tas true
  else forall t, (exists r, th t = Stop r) \/ exists c, step (th t) false (Tas false) c true.
Proof.
  intros L V R th0 x th f Hg [v0] H. destruct (gives_holds th0 x th f Hg H) as (Hh & _ & _). destruct f; cbn [holds] in Hh.
  - destruct Hh as (t & a & G & _). exists t. inversion G as [r E|c Hc E|c Hc E|l k Hc E|l v c Hc E]; subst.
    + exists Clear, c, false. split; [constructor|discriminate].
    + exists (Rd l v0), (k v0), true. split; [constructor|discriminate].
    + exists (Wr l v), c, true. split; [constructor|discriminate].
  - intros t. destruct Hh as (G & _). specialize (G t). inversion G as [r E|c Hc E|c Hc E|l k Hc E|l v c Hc E]; subst.
    + left. now exists r.
    + right. exists c. constructor.
Qed.
Print Assumptions C62_progress.

(** *** Atoms *)
Section Atoms.
Context {P R : Type}.
Variable peq : P -> P -> bool.
Hypothesis Hpeq : forall a b, peq a b = true -> a = b.
Variable p0 : P.
Notation comp := (acompile (R := R) peq).
Lemma guarded_update n new (k : P -> code unit P R) : (forall p, guarded false (k p)) -> guarded false (aupdate peq n new k).
Proof.
  intros Hk. induction n as [|n IH]; cbn [aupdate]; [constructor|]. unfold aload. constructor. constructor. intros old.
  constructor. constructor. constructor. intros p. destruct (peq old p); [|constructor; exact IH].
  constructor. intros _. constructor. constructor. apply Hk.
Qed.
Lemma guarded_atom (p : aprog P R) : guarded false (comp p).
Proof.
  induction p as [r|k IH|b k IH|b k IH|n new k IH]; cbn [acompile]; unfold aload, astore, aexchange;
    repeat (constructor; intros); auto. now apply guarded_update.
Qed.

(** The last value written. *)
Definition cur (x : execution unit P) : P :=
  fold_left (fun q te => match snd te with Wr _ v => v | _ => q end) x p0.
Lemma cur_snoc x t e : cur (x ++ [(t, e)]) = match e with Wr _ v => v | _ => cur x end.
Proof. unfold cur. rewrite fold_left_app. reflexivity. Qed.
Lemma cur_is x : (cur x = p0 /\ forall k t v, ~ at_ x k t (Wr tt v)) \/
  exists i t, at_ x i t (Wr tt (cur x)) /\ forall k t v, i < k -> ~ at_ x k t (Wr tt v).
Proof.
  induction x as [|[t e] x IH] using rev_ind; [left; split; [reflexivity|]; intros k t v; unfold at_; destruct k; discriminate|].
  rewrite cur_snoc. assert (D : (exists v, e = Wr tt v) \/ forall v, e <> Wr tt v).
  { destruct e as [| |[]|[] v]; [right|right|right|left; eauto]; discriminate. }
  destruct D as [(v & ->)|D].
  - right. exists (length x), t. split; [apply at_last|]. intros k u w Hk H. apply at_lt in H. rewrite app_length in H. cbn in H. lia.
  - replace (match e with Wr _ v => v | _ => cur x end) with (cur x) by (destruct e as [| |[]|[] v]; try reflexivity; now elim (D v)).
    destruct IH as [[H1 H2]|(i & u & H1 & H2)]; [left; split; [exact H1|]|right; exists i, u; split; [now apply at_app|]].
    + intros k u v H. apply at_snoc in H as [H|(_ & _ & H)]; [now apply (H2 k u v)|now apply (D v)].
    + intros k w v Hk H. apply at_snoc in H as [H|(_ & _ & H)]; [now apply (H2 k w v)|now apply (D v)].
Qed.
Lemma in_order_prefix (init : unit -> P) x te : in_order init (x ++ [te]) -> in_order init x.
Proof.
  intros H j t l v Hj. assert (Hl := at_lt _ _ _ _ Hj). destruct (H j t l v (at_app _ _ _ _ _ Hj)) as [[H1 H2]|(i & u & H1 & H2 & H3)].
  - left. split; [exact H1|]. intros k u w Hk Ha. apply (H2 k u w Hk). now apply at_app.
  - right. exists i, u. split; [exact H1|]. split.
    + unfold at_ in *. rewrite nth_error_app1 in H2; [exact H2|lia].
    + intros k w v' Hk Ha. apply (H3 k w v' Hk). now apply at_app.
Qed.
Lemma read_cur x t v : in_order (fun _ => p0) (x ++ [(t, Rd tt v)]) -> v = cur x.
Proof.
  intros H. destruct (H (length x) t tt v (at_last _ _ _)) as [[H1 H2]|(i & u & H1 & H2 & H3)].
  - destruct (cur_is x) as [[H4 _]|(i & u & H4 & _)]; [congruence|]. assert (Hl := at_lt _ _ _ _ H4).
    elim (H2 i u (cur x) Hl). now apply at_app.
  - apply at_snoc in H2 as [H2|(E & _)]; [|lia]. destruct (cur_is x) as [[_ H5]|(i' & u' & H4 & H5)]; [now elim (H5 i u v)|].
    destruct (Nat.lt_trichotomy i i') as [X|[X|X]].
    + elim (H3 i' u' (cur x)); [split; [exact X|now apply at_lt in H4]|now apply at_app].
    + subst. unfold at_ in *. congruence.
    + now elim (H5 i u v).
Qed.

(** Where a thread's code is in its program, outside the lock and inside with the value [q]. *)
Definition cas n new (k : P -> code unit P R) old : code unit P R :=
  Lock (Read tt (fun p => if peq old p then Read tt (fun _ => Write tt (new n old) (Unlock (k (new n old))))
                          else Unlock (aupdate peq n new k))).
Inductive out : code unit P R -> aprog P R -> Prop :=
| o_start a : out (comp a) a
| o_again n m new k : m <= n -> out (aupdate peq m new (fun v => comp (k v))) (AUpdate n new k)
| o_cas n m new k old : m < n -> out (cas m new (fun v => comp (k v)) old) (AUpdate n new k).
Inductive ins (q : P) : code unit P R -> aprog P R -> Prop :=
| i_done c a : out c a -> ins q (Unlock c) a
| i_load k : ins q (Read tt (fun p => Unlock (comp (k p)))) (ALoad k)
| i_store b k : ins q (Read tt (fun _ => Write tt b (Unlock (comp k)))) (AStore b k)
| i_store2 b k : ins q (Write tt b (Unlock (comp k))) (AStore b k)
| i_exch b k : ins q (Read tt (fun p => Write tt b (Unlock (comp (k p))))) (AExchange b k)
| i_exch2 b k : ins q (Write tt b (Unlock (comp (k q)))) (AExchange b k)
| i_upd n m new k : m < n -> ins q (Read tt (fun old => Unlock (cas m new (fun v => comp (k v)) old))) (AUpdate n new k)
| i_cas n m new k old : m < n ->
    ins q (Read tt (fun p => if peq old p then Read tt (fun _ => Write tt (new m old) (Unlock (comp (k (new m old)))))
                             else Unlock (aupdate peq m new (fun v => comp (k v))))) (AUpdate n new k)
| i_cas2 n m new k : m < n -> ins q (Read tt (fun _ => Write tt (new m q) (Unlock (comp (k (new m q)))))) (AUpdate n new k)
| i_cas3 n m new k : m < n -> ins q (Write tt (new m q) (Unlock (comp (k (new m q))))) (AUpdate n new k).

(** A step outside takes the lock or spins. *)
Lemma out_step q c a f e c' f' : out c a -> step c f e c' f' ->
  (f = true /\ e = Tas true /\ c' = c /\ f' = true) \/ (f = false /\ e = Tas false /\ f' = true /\ ins q c' a).
Proof.
  intros Ho Hs. destruct Ho as [a|n m new k Hm|n m new k old Hm].
  - destruct a as [r|k|b k|b k|n new k]; cbn [acompile] in Hs; unfold aload, astore, aexchange in Hs;
      [inversion Hs|inversion Hs; subst; [auto|right; repeat split; constructor]..|].
    destruct n as [|n]; cbn [aupdate] in Hs; unfold aload in Hs; inversion Hs; subst; [left; auto|].
    right. repeat split. apply (i_upd q (S n) n new k). lia.
  - destruct m as [|m]; cbn [aupdate] in Hs; unfold aload in Hs; inversion Hs; subst; [left; auto|].
    right. repeat split. apply (i_upd q n m new k). lia.
  - unfold cas in Hs. inversion Hs; subst; [left; auto|]. right. repeat split. now apply (i_cas q n m new k old).
Qed.
(** A step inside: the lock is given back, or it is an access, at which the operation may take effect. *)
Lemma ins_step q c a e c' f' : ins q c a -> step c true e c' f' -> (forall v, e = Rd tt v -> v = q) ->
  (e = Clear /\ f' = false /\ out c' a) \/
  (on_data e /\ f' = true /\ let q' := match e with Wr _ v => v | _ => q end in
     (q' = q /\ ins q' c' a) \/ exists a', aeffect q a q' a' /\ ins q' c' a').
Proof.
  intros Hi Hs Hr. destruct Hi; inversion Hs; subst; cbn [on_data]; auto; right; (split; [exact I|]); (split; [reflexivity|]); cbv zeta;
    try (match goal with v : P |- _ => pose proof (Hr v eq_refl); subst v end).
  - right. eexists. split; [constructor|]. constructor. constructor.
  - left. split; [reflexivity|]. constructor.
  - right. eexists. split; [constructor|]. constructor. constructor.
  - left. split; [reflexivity|]. constructor.
  - right. eexists. split; [constructor|]. constructor. constructor.
  - left. split; [reflexivity|]. constructor. now constructor.
  - left. split; [reflexivity|]. destruct (peq old q) eqn:E.
    + apply Hpeq in E. subst old. now constructor.
    + constructor. constructor. lia.
  - left. split; [reflexivity|]. now constructor.
  - right. eexists. split; [now constructor|]. constructor. constructor.
Qed.

Lemma serial_app x y ps0 n ps p : @serial P R x p0 ps0 n ps p -> serial (x ++ y) p0 ps0 n ps p.
Proof.
  induction 1 as [|n ps p _ IH|n ps p t e a p' _ IH Ha Hd He]; [constructor|now constructor|].
  eapply serial_op; eauto. now apply at_app.
Qed.
Definition matches (f : bool) (q : P) (th : nat -> code unit P R) (ps : nat -> aprog P R) : Prop :=
  if f then exists o, ins q (th o) (ps o) /\ forall u, u <> o -> out (th u) (ps u)
  else forall u, out (th u) (ps u).
Lemma simulation ps0 x th f : gives (fun t => comp (ps0 t)) x th f -> in_order (fun _ => p0) x ->
  exists ps, serial x p0 ps0 (length x) ps (cur x) /\ matches f (cur x) th ps.
Proof.
  induction 1 as [|x th f t e c f' _ IH Hs]; intros Hi.
  { exists ps0. split; [constructor|]. intros u. constructor. }
  destruct (IH (in_order_prefix _ _ _ Hi)) as (ps & Hser & Hm). clear IH.
  assert (Hn := at_last x t e). apply (serial_app x [(t, e)]) in Hser.
  rewrite cur_snoc, app_length. cbn [length]. rewrite Nat.add_1_r. unfold set_thread.
  destruct f; cbn [matches] in Hm.
  - destruct Hm as (o & Ho & Hu). destruct (Nat.eq_dec t o) as [->|Hto].
    + destruct (ins_step _ _ _ _ _ _ Ho Hs) as [(-> & -> & Hout)|(Hd & -> & Hq)].
      { intros v ->. exact (read_cur x o v Hi). }
      * exists ps. split; [now constructor|]. cbn [matches]. intros u. destruct (u =? o) eqn:E.
        -- apply Nat.eqb_eq in E. now subst.
        -- apply Nat.eqb_neq in E. auto.
      * cbv zeta in Hq. destruct Hq as [[Hq Hin]|(a' & He & Hin)].
        -- exists ps. split; [rewrite Hq; now constructor|]. exists o. rewrite Nat.eqb_refl. split; [exact Hin|].
           intros u Hu'. assert (E := Hu'). apply Nat.eqb_neq in E. rewrite E. auto.
        -- exists (fun u => if u =? o then a' else ps u). split; [eapply serial_op; eauto|]. exists o. rewrite Nat.eqb_refl.
           split; [exact Hin|]. intros u Hu'. assert (E := Hu'). apply Nat.eqb_neq in E. rewrite E. auto.
    + destruct (out_step (cur x) _ _ _ _ _ _ (Hu t Hto) Hs) as [(_ & -> & -> & ->)|(Hf & _)]; [|discriminate Hf].
      exists ps. split; [now constructor|]. exists o. split.
      * assert (E : o <> t) by auto. apply Nat.eqb_neq in E. rewrite E. exact Ho.
      * intros u Hu'. destruct (u =? t) eqn:E; [apply Nat.eqb_eq in E; subst|]; auto.
  - destruct (out_step (cur x) _ _ _ _ _ _ (Hm t) Hs) as [(Hf & _)|(_ & -> & -> & Hin)]; [discriminate Hf|].
    exists ps. split; [now constructor|]. exists t. rewrite Nat.eqb_refl. split; [exact Hin|].
    intros u Hu'. assert (E := Hu'). apply Nat.eqb_neq in E. rewrite E. auto.
Qed.
End Atoms.

(** Any programs of any number of threads that use one atom: in every execution that C++ allows there
    is no data race, and the threads end with the results that their operations give one after the
    other, each at an access of its thread. [peq]: pointers to different boxes differ. *)
Theorem C62_atom : forall (P R : Type) (peq : P -> P -> bool) (p0 : P) (ps0 : nat -> aprog P R) x th f,
  (forall a b, peq a b = true -> a = b) ->
  gives (fun t => acompile peq (ps0 t)) x th f -> reads_ok (fun _ => p0) x ->
  race_free x /\
  exists ps p, serial x p0 ps0 (length x) ps p /\ forall t r, th t = Stop (Some r) -> ps t = AEnd r.
Proof.
  intros P R peq p0 ps0 x th f Hp H Hr.
  destruct (C62_spinlock _ _ _ (fun _ => p0) _ x th f (fun t => guarded_atom peq (ps0 t)) H Hr) as (H1 & _ & H3).
  split; [exact H1|]. destruct (simulation peq Hp p0 ps0 x th f H H3) as (ps & Hs & Hm). exists ps, (cur p0 x). split; [exact Hs|].
  intros t r Et. assert (Ho : out peq (Stop (Some r)) (ps t)).
  { destruct f; cbn [matches] in Hm; [|rewrite <- Et; apply Hm]. destruct Hm as (o & Hi & Hu).
    destruct (Nat.eq_dec t o) as [->|Hto]; [rewrite Et in Hi; inversion Hi|]. rewrite <- Et. now apply Hu. }
  remember (Stop (Some r)) as c eqn:Ec. destruct Ho as [a|n m new k Hm'|n m new k old Hm'].
  - destruct a as [r'|k|b k|b k|n new k]; cbn [acompile] in Ec; try discriminate Ec; [congruence|destruct n; discriminate Ec].
  - destruct m; discriminate Ec.
  - discriminate Ec.
Qed.
Print Assumptions C62_atom.

(** *** A case that meets the hypotheses *)
(** Thread 0 stores 5 into an atom with 3; thread 1 spins once and then loads 5. *)
Example C62_nonvacuous :
  let ps := fun t => match t with 0 => AStore 5 (AEnd 0) | 1 => ALoad (fun v => AEnd v) | _ => AEnd 0 end in
  let x := [(0, Tas false); (1, Tas true); (0, Rd tt 3); (0, Wr tt 5); (0, Clear); (1, Tas false); (1, Rd tt 5); (1, Clear)] in
  (exists th f, gives (fun t => acompile Nat.eqb (ps t)) x th f /\ th 1 = Stop (Some 5)) /\ reads_ok (fun _ => 3) x /\ hb x 3 6.
Proof.
  intros ps x. split; [|split].
  - unfold x. eexists. eexists.
    split.
    1: eapply (gives_step _ [(0, Tas false); (1, Tas true); (0, Rd tt 3); (0, Wr tt 5); (0, Clear); (1, Tas false); (1, Rd tt 5)]).
    1: eapply (gives_step _ [(0, Tas false); (1, Tas true); (0, Rd tt 3); (0, Wr tt 5); (0, Clear); (1, Tas false)]).
    1: eapply (gives_step _ [(0, Tas false); (1, Tas true); (0, Rd tt 3); (0, Wr tt 5); (0, Clear)]).
    1: eapply (gives_step _ [(0, Tas false); (1, Tas true); (0, Rd tt 3); (0, Wr tt 5)]).
    1: eapply (gives_step _ [(0, Tas false); (1, Tas true); (0, Rd tt 3)]).
    1: eapply (gives_step _ [(0, Tas false); (1, Tas true)]).
    1: eapply (gives_step _ [(0, Tas false)]).
    1: eapply (gives_step _ []).
    1: apply gives_start.
    all: cbn; constructor.
  - assert (W : forall k t v, at_ x k t (Wr tt v) -> k = 3).
    { intros k t v H. unfold at_, x in H. do 8 (destruct k as [|k]; [first [reflexivity|discriminate H]|]). destruct k; discriminate H. }
    intros j t [] v H. unfold at_ in H. unfold x in H at 1.
    destruct j as [|[|[|[|[|[|[|[|j]]]]]]]]; try discriminate H.
    + cbn in H. injection H as _ <-. left. split; [reflexivity|]. intros k t' v' Hk Hb. apply W in Hk. apply hb_lt in Hb. lia.
    + cbn in H. injection H as _ <-. right. exists 3, 0. split; [reflexivity|]. split; [intros Hb; apply hb_lt in Hb; lia|].
      intros k t' v' Hk [Hb _]. apply W in Hk. apply hb_lt in Hb. lia.
    + destruct j; discriminate H.
  - apply t_trans with 4; [eapply hb_po; [lia| |]; reflexivity|]. apply t_trans with 5.
    + apply t_step. right. split; [lia|]. split; [exists 0; reflexivity|]. split; [exists 1; reflexivity|]. intros k t e Hk. lia.
    + eapply hb_po; [lia| |]; reflexivity.
Qed.
(** Without the lock the same accesses race: the specification tells the difference. *)
Example C62_race : ~ race_free [(0, Wr tt 5); (1, Rd tt 5)].
Proof.
  intros H. assert (N : forall i j, hb [(0, Wr tt 5); (1, Rd tt 5)] i j -> False).
  { induction 1 as [i j [H1|H1]|]; auto.
    - destruct H1 as (Hl & t & e & e' & H1 & H2). unfold at_ in *. destruct i as [|[|[|i]]], j as [|[|[|j]]]; cbn in *; try lia; try congruence;
        try (destruct i; discriminate); try (destruct j; discriminate).
    - destruct H1 as (_ & (t & H1) & _). unfold at_ in H1. destruct i as [|[|[|i]]]; discriminate H1. }
  destruct (H 0 1 0 1 (Wr tt 5) (Rd tt 5) eq_refl eq_refl ltac:(discriminate) eq_refl) as [X|X]; exact (N _ _ X).
Qed.
