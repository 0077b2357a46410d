(** Reasoning about threads over counted memory.

    A thread has local blocks [L] and references [R].  The memory as a whole satisfies [st]
    for the local blocks and the references of all threads.  What a thread knows is what its
    references reach: other threads leave that alone, since they change and free blocks of
    their own only ([rely]). *)
From Coq Require Import List Arith Bool Lia Permutation.
From Verif Require Import Common AtomProofs RcHeap RcProofs Conc.
Import ListNotations.
Set Default Goal Selector "!".

Section Conc.
Context {B : Type}.
Notation heap := (heap B).
Notation cell := (cell B).

Lemma occ_perm l l' : Permutation l l' -> forall x : nat, occ x l = occ x l'.
Proof. induction 1; intros x'; cbn; [reflexivity|now rewrite IHPermutation|lia|congruence]. Qed.

Lemma wipe_perm L L' (h : heap) : Permutation L L' -> wipe L h = wipe L' h.
Proof.
  induction 1; cbn; [reflexivity|congruence| |congruence].
  destruct (Nat.eq_dec x y) as [->|Hne]; [reflexivity|]. apply upd_comm. congruence.
Qed.
Lemma st_perm L L' (h : heap) R : Permutation L L' -> st L h R -> st L' h R.
Proof.
  intros P (G & F & N). split; [now rewrite <- (wipe_perm _ _ _ P)|]. split.
  - rewrite Forall_forall in *. intros x Hx. apply F. eapply Permutation_in; [symmetry; exact P|exact Hx].
  - eapply Permutation_NoDup; eauto.
Qed.

(** ** What is reached *)
Definition from (R : list nat) (h : heap) (a : nat) : Prop := exists r, In r R /\ reaches h r a.
Definition same (c c' : cell) : Prop := c_body c' = c_body c /\ c_kids c' = c_kids c.
Definition rely (L R : list nat) (h h' : heap) : Prop :=
  (forall x, In x L -> nth_error h' x = nth_error h x) /\
  (forall a c, from R h a -> cell_at h a c -> exists c', cell_at h' a c' /\ same c c').

Lemma from_root R h a : In a R -> from R h a.
Proof. intros H. exists a. split; [exact H|constructor]. Qed.
Lemma from_kid R h a c k : from R h a -> cell_at h a c -> In k (c_kids c) -> from R h k.
Proof. intros (r & Hr & Hp) Hc Hk. exists r. split; [exact Hr|]. eapply reaches_kid; eauto. Qed.
Lemma from_incl R R' h a : incl R R' -> from R h a -> from R' h a.
Proof. intros H (r & Hr & Hp). exists r. auto. Qed.

Lemma rely_refl L R h : rely L R h h.
Proof. split; [auto|]. intros a c _ Hc. exists c. repeat split; auto. Qed.
Lemma rely_reaches L R h h' r a : rely L R h h' -> In r R -> reaches h r a -> reaches h' r a.
Proof.
  intros [_ H] Hr Hp. induction Hp as [|x c b Hp IH Hc Hb]; [constructor|].
  destruct (H x c) as (c' & Hc' & _ & E); [exists r; auto|exact Hc|].
  eapply reaches_kid; [exact IH|exact Hc'|now rewrite E].
Qed.
Lemma rely_from L R R' h h' a : rely L R h h' -> incl R' R -> from R' h a -> from R' h' a.
Proof. intros H I (r & Hr & Hp). exists r. split; [exact Hr|]. eapply rely_reaches; eauto. Qed.
Lemma rely_trans L R h1 h2 h3 : rely L R h1 h2 -> rely L R h2 h3 -> rely L R h1 h3.
Proof.
  intros H1 H2. split.
  - intros x Hx. rewrite (proj1 H2), (proj1 H1); auto.
  - intros a c Ha Hc. destruct (proj2 H1 a c Ha Hc) as (c1 & Hc1 & E1 & E1').
    destruct (proj2 H2 a c1) as (c2 & Hc2 & E2 & E2').
    + eapply rely_from; [exact H1|apply incl_refl|exact Ha].
    + exact Hc1.
    + exists c2. split; [exact Hc2|]. split; congruence.
Qed.
Lemma rely_incl L L' R R' h h' : incl L' L -> incl R' R -> rely L R h h' -> rely L' R' h h'.
Proof.
  intros HL HR [H1 H2]. split; [auto|]. intros a c Ha Hc. apply H2; [|exact Hc].
  eapply from_incl; eauto.
Qed.
Lemma rely_rep L R h h' a t : rely L R h h' -> from R h a -> rep h a t -> rep h' a t.
Proof.
  intros H Ha Hr. revert a t Hr Ha. apply (rep_ind' h (fun a t => from R h a -> rep h' a t)).
  intros a c ts Hc Hk IH Ha. destruct (proj2 H a c Ha Hc) as (c' & Hc' & <- & E). constructor; [exact Hc'|]. rewrite E.
  assert (Hkids : forall k, In k (c_kids c) -> from R h k) by (intros; eapply from_kid; eauto).
  clear - IH Hkids. induction IH as [|k u ks us Hk _ IH]; constructor.
  - apply Hk, Hkids. now left.
  - apply IH. intros. apply Hkids. now right.
Qed.
Lemma rely_reps L R h h' ks ts : rely L R h h' -> (forall k, In k ks -> from R h k) ->
  Forall2 (rep h) ks ts -> Forall2 (rep h') ks ts.
Proof.
  intros H Hk F. induction F as [|k u ks us Hu _ IH]; constructor.
  - eapply rely_rep; [exact H|apply Hk; now left|exact Hu].
  - apply IH. intros. apply Hk. now right.
Qed.
Lemma rely_cell L R h h' a c : rely L R h h' -> from R h a -> cell_at h a c ->
  exists c', cell_at h' a c' /\ same c c'.
Proof. intros [_ H]. apply H. Qed.
Lemma rely_local L R h h' a c : rely L R h h' -> In a L -> cell_at h a c -> cell_at h' a c.
Proof. intros [H _] Ha Hc. unfold cell_at. now rewrite H. Qed.

Lemma keeps_rely L R h h' : (forall x, In x L -> nth_error h' x = nth_error h x) -> keeps h h' ->
  rely L R h h'.
Proof.
  intros H K. split; [exact H|]. intros a c _ Hc. destruct (K _ _ Hc) as (c' & Hc' & E). now exists c'.
Qed.

(** References reach neither local nor freed blocks. *)
Lemma st_from L h R a : st L h R -> from R h a -> exists c, cell_at (wipe L h) a c.
Proof.
  intros (G & _) (r & Hr & Hp). induction Hp as [|x c b Hp IH Hc Hb].
  - eapply good_root; eauto.
  - destruct IH as [c' Hc']. destruct (wipe_cell _ _ _ _ Hc') as [_ Hx].
    unfold cell_at in Hx, Hc. rewrite Hc in Hx. injection Hx as <-.
    eapply good_live; [exact G|]. eapply refs_kid; [exact Hc'|exact Hb].
Qed.
Lemma st_from_out L h R a : st L h R -> from R h a -> ~ In a L.
Proof. intros S F. destruct (st_from _ _ _ _ S F) as [c Hc]. apply (wipe_cell _ _ _ _ Hc). Qed.
Lemma st_from_live L h R a : st L h R -> from R h a -> exists c, cell_at h a c.
Proof. intros S F. destruct (st_from _ _ _ _ S F) as [c Hc]. exists c. apply (wipe_cell _ _ _ _ Hc). Qed.
(** What happens to a local block does not matter to the others. *)
Lemma local_rely L L' R h h' a : st L h R -> In a L -> ~ In a L' ->
  (forall x, x <> a -> nth_error h' x = nth_error h x) -> rely L' R h h'.
Proof.
  intros S Ha Hn H. split.
  - intros x Hx. apply H. intros ->. auto.
  - intros x c Hx Hc. exists c. split; [|split; reflexivity]. unfold cell_at. rewrite H; [exact Hc|].
    intros ->. exact (st_from_out _ _ _ _ S Hx Ha).
Qed.
Lemma st_rep L (h : heap) R a : st L h R -> In a R -> exists t, rep h a t.
Proof.
  intros (G & _) Ha. destruct (good_rep _ _ _ G Ha) as [t Ht]. exists t.
  clear - Ht. revert a t Ht. apply rep_ind'. intros a c ts Hc Hk IH.
  constructor; [apply (wipe_cell _ _ _ _ Hc)|exact IH].
Qed.
(** In the memory around the local blocks references stand for the same. *)
Lemma st_srep L (h : heap) R a t : st L h R -> from R h a -> rep h a t -> srep L h a t.
Proof.
  intros S Ha Hr. revert a t Hr Ha. apply (rep_ind' h (fun a t => from R h a -> srep L h a t)).
  intros a c ts Hc Hk IH Ha.
  destruct (st_from _ _ _ _ S Ha) as [c' Hc']. destruct (wipe_cell _ _ _ _ Hc') as [_ Hx].
  unfold cell_at in Hx, Hc. rewrite Hc in Hx. injection Hx as <-.
  apply (rep_intro _ _ c); [exact Hc'|].
  assert (Hkids : forall k, In k (c_kids c) -> from R h k) by (intros; eapply from_kid; eauto).
  clear - IH Hkids. induction IH as [|k u ks us Hk _ IH]; constructor.
  - apply Hk, Hkids. now left.
  - apply IH. intros. apply Hkids. now right.
Qed.

(** ** Steps *)
Lemma do_inc L (h : heap) R a : st L h R -> from R h a -> exists h', inc a h = Ok (tt, h') /\
  st L h' (a :: R) /\ forall L' R', incl L' L -> rely L' R' h h'.
Proof.
  intros S Ha. destruct (st_from _ _ _ _ S Ha) as [c Hc]. destruct (wipe_cell _ _ _ _ Hc) as [Hn Hc'].
  pose proof (wp_inc L h R a (fun _ h' => st L h' (a :: R)) S (ex_intro _ c Hc) (fun _ H _ => H)) as W.
  unfold wp, inc, mbind, load, store in *. unfold cell_at in Hc'. rewrite Hc' in *. cbn beta iota in *. rewrite Hc' in *.
  eexists. split; [reflexivity|]. split; [exact W|]. intros L' R' HL. apply keeps_rely.
  - intros x Hx. apply nth_upd. intros ->. auto.
  - now apply keeps_count.
Qed.
Lemma do_dec L (h : heap) R a : st L h (a :: R) -> exists c, cell_at h a c /\
  ((exists h', dec a h = Ok (false, h') /\ st L h' R /\ forall L' R', incl L' L -> rely L' R' h h') \/
   (exists h', dec a h = Ok (true, h') /\ ~ In a L /\ st (a :: L) h' (c_kids c ++ R) /\
      cell_at h' a (mkCell 0 (c_body c) (c_kids c)) /\ forall L' R', incl L' L -> rely L' R' h h')).
Proof.
  intros S. assert (Ha : from (a :: R) h a) by (apply from_root; now left).
  destruct (st_from _ _ _ _ S Ha) as [c Hc]. destruct (wipe_cell _ _ _ _ Hc) as [Hn Hc'].
  exists c. split; [exact Hc'|].
  pose proof (wp_dec L h R a (fun b h' => if b : bool then exists c1, cell_at (wipe L h) a c1 /\
      st (a :: L) h' (c_kids c1 ++ R) /\ cell_at h' a (mkCell 0 (c_body c1) (c_kids c1)) /\
      (forall x, x <> a -> nth_error h' x = nth_error h x) else st L h' R) S) as W.
  assert (W1 : wp (dec a) h (fun b h' => if b : bool then exists c1, cell_at (wipe L h) a c1 /\
      st (a :: L) h' (c_kids c1 ++ R) /\ cell_at h' a (mkCell 0 (c_body c1) (c_kids c1)) /\
      (forall x, x <> a -> nth_error h' x = nth_error h x) else st L h' R)).
  { apply W; [auto|]. intros c1 h' H1 _ _ H2 H3 H4 _ _. now exists c1. }
  clear W. unfold wp, dec, mbind, load, store in *. unfold cell_at in Hc'. rewrite Hc' in *.
  cbn beta iota in *. destruct (c_rc c) as [|n]; [easy|].
  rewrite Hc' in *. unfold mret in *.
  assert (K : forall L' R', incl L' L -> rely L' R' h (update_at a (Some (mkCell n (c_body c) (c_kids c))) h)).
  { intros L' R' HL. apply keeps_rely; [|now apply keeps_count].
    intros x Hx. apply nth_upd. intros ->. auto. }
  destruct (n =? 0).
  - right. destruct W1 as (c1 & H1 & H2 & H3 & H4). unfold cell_at in Hc, H1. rewrite Hc in H1. injection H1 as <-.
    eexists. split; [reflexivity|]. auto.
  - left. eexists. split; [reflexivity|]. auto.
Qed.
Lemma do_uniq L (h : heap) R a : st L h (a :: R) -> exists c, cell_at h a c /\
  (unique a h = Ok (false, h) \/
   (unique a h = Ok (true, h) /\ c_rc c = 1 /\ ~ In a L /\ st (a :: L) h (c_kids c ++ R))).
Proof.
  intros S. assert (Ha : from (a :: R) h a) by (apply from_root; now left).
  destruct (st_from _ _ _ _ S Ha) as [c Hc]. destruct (wipe_cell _ _ _ _ Hc) as [Hn Hc'].
  exists c. split; [exact Hc'|]. unfold unique, mbind, load, mret. unfold cell_at in Hc'. rewrite Hc'.
  destruct (Nat.eqb_spec (c_rc c) 1) as [E|E]; [right|left; reflexivity].
  split; [reflexivity|]. destruct (st_take _ _ _ _ _ S Hc E) as (S' & _). auto.
Qed.
Lemma do_new L (h : heap) R b ks : st L h (ks ++ R) -> exists h', new b ks h = Ok (length h, h') /\
  st L h' (length h :: R) /\ cell_at h' (length h) (mkCell 1 b ks) /\
  forall L' R', incl L' L -> rely L' R' h h'.
Proof.
  intros S. pose proof (wp_new L h R b ks (fun a h' => st L h' (a :: R)) S (fun _ _ H _ _ _ => H)) as W.
  unfold wp, new in *. eexists. split; [reflexivity|]. split; [exact W|]. split.
  - unfold cell_at. rewrite nth_error_app2 by lia. now rewrite Nat.sub_diag.
  - intros L' R' HL. apply keeps_rely; [|apply keeps_new]. intros x Hx.
    destruct S as (_ & F & _). rewrite Forall_forall in F. destruct (F x (HL x Hx)) as [c Hc].
    apply nth_error_app1. eapply nth_lt; exact Hc.
Qed.
Lemma do_free L (h : heap) R a : st (a :: L) h R -> exists h', free a h = Ok (tt, h') /\ st L h' R /\
  forall L' R', incl L' L -> incl R' R -> rely L' R' h h'.
Proof.
  intros S. pose proof (wp_free L h R a (fun _ h' => st L h' R) S (fun _ H _ _ _ => H)) as W.
  pose proof S as (_ & F & N). inversion F as [|? ? [c Hc] _]; subst. inversion N; subst.
  unfold wp, free in *. unfold cell_at in Hc. rewrite Hc in *.
  eexists. split; [reflexivity|]. split; [exact W|]. intros L' R' HL HR.
  eapply rely_incl; [exact HL|exact HR|]. eapply local_rely; [exact S|now left|assumption|].
  intros x Hx. now apply nth_upd.
Qed.
Lemma do_set L (h : heap) R a b ks : st (a :: L) h R -> exists c h', cell_at h a c /\
  exec (PSet a b ks) h = Ok (tt, h') /\ st (a :: L) h' R /\ cell_at h' a (mkCell (c_rc c) b ks) /\
  forall L' R', incl L' L -> incl R' R -> rely L' R' h h'.
Proof.
  intros S. pose proof S as (_ & F & N). inversion F as [|? ? [c Hc] _]; subst. inversion N; subst.
  pose proof (wp_store_local (a :: L) h R a (mkCell (c_rc c) b ks) (fun _ h' => st (a :: L) h' R) S
                (or_introl eq_refl) (fun _ H _ _ _ _ => H)) as W.
  exists c. unfold wp, exec, mbind, load, store in *. unfold cell_at in *. rewrite Hc in *. rewrite Hc in *.
  eexists. split; [reflexivity|]. split; [reflexivity|]. split; [exact W|]. split.
  - apply nth_upd_same. eapply nth_lt; exact Hc.
  - intros L' R' HL HR. eapply rely_incl; [exact HL|exact HR|].
    eapply local_rely; [exact S|now left|assumption|]. intros x Hx. now apply nth_upd.
Qed.

(** ** Programs *)
(** References that exist as long as the program runs (static objects). *)
Variable G : list nat.

(** What a thread can get at. *)
Definition cov (L R : list nat) (h : heap) (x : nat) : Prop := In x L \/ from (G ++ R) h x.

(** Contents are changed only when local, and a thread asks whether a block has one reference,
    or gives one up, only when it has one. *)
Definition asks {C} (q : prim B C) (a : nat) : Prop := match q with PUniq b | PDec b => a = b | _ => False end.
Definition acc {C} (q : prim B C) (L R : list nat) (h : heap) : Prop :=
  (forall a, target q = Some a -> if writes q then In a L else cov L R h a) /\
  (forall a, asks q a -> In a R).

(** What an access may do.  Asking for the count may see an old one. *)
Definition stale {C} (q : prim B C) : C -> Prop :=
  match q with PUniq _ => fun x => x = false | _ => fun _ => False end.
Definition can {C} (q : prim B C) (h : heap) (x : C) (h' : heap) : Prop :=
  exec q h = Ok (x, h') \/ (stale q x /\ h' = h).

(** Blocks that become local by an access; that it makes; whose count it increments; of which
    it gives a reference up; that it makes unreachable. *)
Definition taken {C} (q : prim B C) : C -> nat -> Prop :=
  match q with PDec a | PUniq a => fun x y => x = true /\ y = a | _ => fun _ _ => False end.
Definition made {C} (q : prim B C) : C -> nat -> Prop :=
  match q with PNew _ _ => fun x y => y = x | _ => fun _ _ => False end.
Definition bumped {C} (q : prim B C) (y : nat) : Prop := match q with PInc a => y = a | _ => False end.
Definition let_go {C} (q : prim B C) : C -> nat -> Prop :=
  match q with PDec a => fun x y => x = false /\ y = a | _ => fun _ _ => False end.
Definition lost {C} (q : prim B C) (h : heap) (x : C) (y : nat) : Prop :=
  match q with PFree a => y = a | _ => exists a, let_go q x a /\ reaches h a y end.

(** The lists of a thread rearranged: local blocks may become references. *)
Record shift (L R : list nat) (h : heap) (L' R' : list nat) : Prop := mkShift {
  s_loc : incl L' L;
  s_cov : forall x, cov L R h x <-> cov L' R' h x;
  s_tok : forall a, In a R' -> In a R \/ In a L;
  s_put : forall y c a, In y L -> ~ In y L' -> cell_at h y c -> In a (c_kids c) -> In a R \/ In a L }.
(** The lists of a thread before and after an access. *)
Record legal {C} (q : prim B C) (x : C) (L R : list nat) (h : heap) (L' R' : list nat) (h' : heap) : Prop := mkLegal {
  l_loc : forall a, In a L' -> In a L \/ taken q x a \/ made q x a;
  l_out : forall a, let_go q x a -> ~ In a L';
  l_take : forall a, taken q x a -> In a L';
  l_cov : forall a, cov L R h a -> cov L' R' h' a \/ lost q h x a;
  l_new : forall a, cov L' R' h' a -> cov L R h a \/ made q x a;
  l_tok : forall a, In a R' -> In a R \/ In a L \/ bumped q a \/ made q x a \/
            exists y c, taken q x y /\ cell_at h y c /\ In a (c_kids c);
  l_set : match q with PSet a _ _ => In a L' | _ => True end;
  l_put : forall y c c' a, In y L -> ~ In y L' -> cell_at h' y c' -> cell_at h y c -> In a (c_kids c) -> In a R \/ In a L;
  l_mine : forall y, made q x y -> cov L' R' h' y;
  l_made : forall y c a, made q x y -> ~ In y L' -> cell_at h' y c -> In a (c_kids c) -> In a R \/ In a L }.

Lemma shift_refl L R h : shift L R h L R.
Proof. split; [apply incl_refl|reflexivity|auto|]. intros; contradiction. Qed.
Lemma shift_trans L R h L1 R1 L2 R2 : shift L R h L1 R1 -> shift L1 R1 h L2 R2 -> shift L R h L2 R2.
Proof.
  intros [A1 A2 A3 A4] [B1 B2 B3 B4]. split.
  - eapply incl_tran; eauto.
  - intros x. rewrite A2. apply B2.
  - intros a Ha. apply B3 in Ha as [Ha|Ha]; auto.
  - intros y c a Hy Hn Hc Ha. destruct (in_dec Nat.eq_dec y L1) as [Hy1|Hy1]; [|eapply A4; eauto].
    destruct (B4 _ _ _ Hy1 Hn Hc Ha) as [Ha'|Ha']; auto.
Qed.
Lemma shift_legal {C} (q : prim B C) x L R h L1 R1 L2 R2 h2 : shift L R h L1 R1 ->
  legal q x L1 R1 h L2 R2 h2 -> legal q x L R h L2 R2 h2.
Proof.
  intros [A1 A2 A3 A4] [B1 B2 B0 B3 B4 B5 B6 B7 B9 B8]. split.
  - intros a Ha. destruct (B1 a Ha) as [H|H]; auto.
  - exact B2.
  - exact B0.
  - intros a Ha. apply B3, A2, Ha.
  - intros a Ha. rewrite A2. apply B4, Ha.
  - intros a Ha. destruct (B5 a Ha) as [H|[H|H]]; [|auto|auto]. apply A3 in H as [H|H]; auto.
  - exact B6.
  - intros y c c' a Hy Hn Hc' Hc Ha. destruct (in_dec Nat.eq_dec y L1) as [Hy1|Hy1]; [|eapply A4; eauto].
    destruct (B7 y c c' a Hy1 Hn Hc' Hc Ha) as [H|H]; [apply A3 in H as [H|H]|]; auto.
  - exact B9.
  - intros y c a Hy Hn Hc Ha. destruct (B8 y c a Hy Hn Hc Ha) as [H|H]; [apply A3 in H as [H|H]|]; auto.
Qed.

(** *** What is reached before and after *)
Lemma from_same R h h' : (forall a, from R h a -> exists c c', cell_at h a c /\ cell_at h' a c' /\ c_kids c' = c_kids c) ->
  forall x, from R h x <-> from R h' x.
Proof.
  intros H x. split.
  - intros (r & Hr & Hp). exists r. split; [exact Hr|]. induction Hp as [|y c b Hp IH Hc Hb]; [constructor|].
    destruct (H y) as (c1 & c' & Hc1 & Hc' & E); [exists r; auto|].
    unfold cell_at in Hc, Hc1. rewrite Hc in Hc1. injection Hc1 as <-.
    eapply reaches_kid; [exact IH|exact Hc'|now rewrite E].
  - intros (r & Hr & Hp). induction Hp as [|y c' b Hp IH Hc' Hb]; [now apply from_root|].
    destruct (H y IH) as (c1 & c2 & Hc1 & Hc2 & E). unfold cell_at in Hc', Hc2. rewrite Hc' in Hc2. injection Hc2 as <-.
    eapply from_kid; [exact IH|exact Hc1|now rewrite <- E].
Qed.
Lemma cov_rely L Le R Re L0 h h' : incl G Re -> st (L ++ Le) h (R ++ Re) -> rely L0 (G ++ R) h h' ->
  forall x, cov L R h x <-> cov L R h' x.
Proof.
  intros HG S Rl x. unfold cov. rewrite (from_same (G ++ R) h h'); [reflexivity|].
  intros a Ha. assert (Ha' : from (R ++ Re) h a).
  { eapply from_incl; [|exact Ha]. intros y Hy. apply in_app_or in Hy as [Hy|Hy]; apply in_or_app; auto. }
  destruct (st_from_live _ _ _ _ S Ha') as [c Hc]. destruct (proj2 Rl a c Ha Hc) as (c' & Hc' & _ & E). now exists c, c'.
Qed.
Lemma cov_in L R L' R' h : (forall x, In x L -> cov L' R' h x) -> (forall r, In r R -> from (G ++ R') h r) ->
  forall x, cov L R h x -> cov L' R' h x.
Proof.
  intros HL HR x [Hx|(r & Hr & Hp)]; [auto|]. right. apply in_app_or in Hr as [Hr|Hr].
  - exists r. split; [apply in_or_app; now left|exact Hp].
  - destruct (HR r Hr) as (r' & Hr' & Hp'). exists r'. split; [exact Hr'|]. eapply reaches_trans; eauto.
Qed.
Lemma from_R R h r : In r R -> from (G ++ R) h r.
Proof. intros H. apply from_root, in_or_app. now right. Qed.
Lemma occ_incl (R R' : list nat) : (forall x, occ x R = occ x R') -> incl R R'.
Proof. intros H x Hx. apply occ_in. rewrite <- H. now apply occ_in. Qed.
Lemma cov_incl L R L' R' h : incl L L' -> incl R R' -> forall x, cov L R h x -> cov L' R' h x.
Proof. intros HL HR. apply cov_in; intros y Hy; [left; auto|apply from_R; auto]. Qed.
(** The references of a block in place of the block. *)
Lemma from_open R h a c : cell_at h a c -> forall x, from (G ++ a :: R) h x <-> x = a \/ from (G ++ c_kids c ++ R) h x.
Proof.
  intros Hc x. split.
  - intros (r & Hr & Hp). assert (Hr' : r = a \/ In r (G ++ R)) by (rewrite in_app_iff in *; cbn in Hr; intuition).
    destruct Hr' as [->|Hr'].
    + induction Hp as [|y c' b Hp IH Hc' Hb]; [now left|]. right. destruct IH as [->|IH].
      * unfold cell_at in Hc, Hc'. rewrite Hc in Hc'. injection Hc' as <-. apply from_R, in_or_app. now left.
      * eapply from_kid; eauto.
    + right. exists r. split; [rewrite !in_app_iff in *; tauto|exact Hp].
  - intros [->|(r & Hr & Hp)]; [apply from_R; now left|]. rewrite !in_app_iff in Hr.
    assert (Hr' : In r (G ++ a :: R) \/ In r (c_kids c)) by (rewrite in_app_iff; cbn; tauto).
    destruct Hr' as [Hr'|Hr']; [now exists r|]. exists a. split; [apply in_or_app; right; now left|].
    eapply reaches_trans; [|exact Hp]. eapply reaches_kid; [constructor|exact Hc|exact Hr'].
Qed.
Lemma cov_open L R h a c : cell_at h a c -> forall x, cov L (a :: R) h x <-> cov (a :: L) (c_kids c ++ R) h x.
Proof. intros Hc x. unfold cov. rewrite (from_open R h a c Hc). cbn [In]. intuition. Qed.
Lemma cov_eqv L R L' R' h : (forall x, In x L <-> In x L') -> (forall x, occ x R = occ x R') ->
  forall x, cov L R h x <-> cov L' R' h x.
Proof.
  intros HL HR x. split; apply cov_incl; try (intros y; apply HL); try (apply occ_incl; auto).
Qed.
Lemma shift_eqv L R L' R' h : Permutation L L' -> (forall x, occ x R = occ x R') -> shift L R h L' R'.
Proof.
  intros HL HR. assert (I : forall x, In x L <-> In x L').
  { intros x. split; apply Permutation_in; [exact HL|now symmetry]. }
  split.
  - intros x. apply I.
  - now apply cov_eqv.
  - intros a Ha. left. revert a Ha. apply occ_incl. auto.
  - intros y c a Hy Hn. apply I in Hy. contradiction.
Qed.
Lemma shift_put L R L' R' h a c : Permutation L (a :: L') -> cell_at h a c ->
  (forall x, occ x R = occ x (c_kids c ++ R')) -> shift L R h L' (a :: R').
Proof.
  intros HL Hc HR. eapply shift_trans; [exact (shift_eqv _ _ _ _ h HL HR)|]. split.
  - apply incl_tl, incl_refl.
  - intros x. now rewrite (cov_open L' R' h a c Hc).
  - intros b [<-|Hb]; [right; now left|]. left. apply in_or_app. now right.
  - intros y c' b [<-|Hy] Hn Hc' Hb; [|contradiction]. unfold cell_at in Hc, Hc'. rewrite Hc in Hc'. injection Hc' as <-.
    left. apply in_or_app. now left.
Qed.

(** The thread [p] with [L] and [R] in [h], whatever the other threads do, is never undefined
    and ends in [F].  [Le] and [Re] are the local blocks and the references of the others. *)
Fixpoint cwp {A} (p : prog B A) (F : A -> list nat -> list nat -> heap -> Prop) (L R : list nat)
  (h : heap) : Prop :=
  forall Le Re, incl G Re -> st (L ++ Le) h (R ++ Re) ->
  match p with
  | Done a => exists L' R', st (L' ++ Le) h (R' ++ Re) /\ shift L R h L' R' /\ F a L' R' h
  | Fail => False
  | Act q k =>
      (exists L' R', st (L' ++ Le) h (R' ++ Re) /\ shift L R h L' R' /\ acc q L' R' h) /\
      (exists x h', exec q h = Ok (x, h')) /\
      forall x h', can q h x h' -> exists L' R', st (L' ++ Le) h' (R' ++ Re) /\ rely Le Re h h' /\
        legal q x L R h L' R' h' /\ forall h'', rely L' (G ++ R') h' h'' -> cwp (k x) F L' R' h''
  end.

Lemma cwp_ghost {A} (p : prog B A) F L R L' R' h : shift L R h L' R' ->
  (forall Le Re, incl G Re -> st (L ++ Le) h (R ++ Re) -> st (L' ++ Le) h (R' ++ Re)) ->
  cwp p F L' R' h -> cwp p F L R h.
Proof.
  intros Sh H C. destruct p as [a| |D q k]; cbn in *; intros Le Re HG S.
  - destruct (C Le Re HG (H _ _ HG S)) as (L2 & R2 & S2 & Sh2 & HF). exists L2, R2. split; [exact S2|].
    split; [eapply shift_trans; eauto|exact HF].
  - exact (C Le Re HG (H _ _ HG S)).
  - destruct (C Le Re HG (H _ _ HG S)) as ((L1 & R1 & S1 & Sh1 & A1) & E & K). split; [|split; [exact E|]].
    + exists L1, R1. split; [exact S1|]. split; [eapply shift_trans; eauto|exact A1].
    + intros x h' Hc. destruct (K x h' Hc) as (L2 & R2 & S2 & Rl & Lg & K'). exists L2, R2.
      split; [exact S2|]. split; [exact Rl|]. split; [eapply shift_legal; eauto|exact K'].
Qed.
Lemma cwp_eqv {A} (p : prog B A) F L R L' R' h : Permutation L L' -> (forall x, occ x R = occ x R') ->
  cwp p F L' R' h -> cwp p F L R h.
Proof.
  intros HL HR. apply cwp_ghost; [now apply shift_eqv|]. intros Le Re _ S. eapply st_perm; [apply Permutation_app_tail; exact HL|].
  eapply st_eqv; [|exact S]. intros x. rewrite !occ_app. now rewrite HR.
Qed.
Lemma cwp_roots {A} (p : prog B A) F L R R' h : (forall x, occ x R = occ x R') ->
  cwp p F L R' h -> cwp p F L R h.
Proof. intros HR. apply cwp_eqv; [reflexivity|exact HR]. Qed.
Lemma cwp_done {A} (a : A) (F : A -> list nat -> list nat -> heap -> Prop) L R h :
  F a L R h -> cwp (Done a) F L R h.
Proof. intros H Le Re _ S. exists L, R. split; [exact S|]. split; [apply shift_refl|exact H]. Qed.
Lemma cwp_bind {A C} (p : prog B A) (k : A -> prog B C) F L R h :
  cwp p (fun a L R h => cwp (k a) F L R h) L R h -> cwp (pbind p k) F L R h.
Proof.
  revert L R h. induction p as [a| |C' q k' IH]; intros L R h H; cbn [pbind].
  - assert (W : forall Le Re, incl G Re -> st (L ++ Le) h (R ++ Re) -> exists L' R',
       st (L' ++ Le) h (R' ++ Re) /\ shift L R h L' R' /\ cwp (k a) F L' R' h) by exact H.
    destruct (k a) as [x| |C2 q2 k2] eqn:Ek; intros Le Re HG S;
      destruct (W Le Re HG S) as (L' & R' & S' & Sh & H'); pose proof (H' Le Re HG S') as H2; cbn in H2.
    + destruct H2 as (L2 & R2 & S2 & Sh2 & HF). exists L2, R2. split; [exact S2|]. split; [eapply shift_trans; eauto|exact HF].
    + exact H2.
    + destruct H2 as ((L1 & R1 & S1 & Sh1 & A1) & E & K). split; [|split; [exact E|]].
      * exists L1, R1. split; [exact S1|]. split; [eapply shift_trans; eauto|exact A1].
      * intros x h' Hc. destruct (K x h' Hc) as (L2 & R2 & S2 & Rl & Lg & K'). exists L2, R2.
        split; [exact S2|]. split; [exact Rl|]. split; [eapply shift_legal; eauto|exact K'].
  - exact H.
  - cbn in *. intros Le Re HG S. destruct (H Le Re HG S) as (Hacc & E & K).
    split; [exact Hacc|]. split; [exact E|]. intros x h' Hc. destruct (K x h' Hc) as (L' & R' & S' & Rl & Lg & K').
    exists L', R'. split; [exact S'|]. split; [exact Rl|]. split; [exact Lg|].
    intros h'' Hr. apply IH, K', Hr.
Qed.
Lemma cwp_mono {A} (p : prog B A) (F F' : A -> list nat -> list nat -> heap -> Prop) L R h :
  (forall a L R h, F a L R h -> F' a L R h) -> cwp p F L R h -> cwp p F' L R h.
Proof.
  intros HF. revert L R h. induction p as [a| |C' q k' IH]; intros L R h H; cbn in *; intros Le Re HG S.
  - destruct (H Le Re HG S) as (L' & R' & S' & Sh & H'). exists L', R'. auto.
  - exact (H Le Re HG S).
  - destruct (H Le Re HG S) as (Hacc & E & K).
    split; [exact Hacc|]. split; [exact E|]. intros x h' Hc. destruct (K x h' Hc) as (L' & R' & S' & Rl & Lg & K').
    exists L', R'. split; [exact S'|]. split; [exact Rl|]. split; [exact Lg|]. auto.
Qed.
Lemma cwp_lift {A} (r : res A) a (F : A -> list nat -> list nat -> heap -> Prop) L R h :
  r = Ok a -> F a L R h -> cwp (plift r) F L R h.
Proof. intros -> H. now apply cwp_done. Qed.

Lemma st_swap L a Le (h : heap) R : st (L ++ a :: Le) h R -> st (a :: L ++ Le) h R.
Proof. apply st_perm. symmetry. apply Permutation_middle. Qed.

Lemma acc1 {C} (q : prim B C) L Le R Re h a : st (L ++ Le) h (R ++ Re) -> target q = Some a ->
  (if writes q then In a L else In a L \/ from (G ++ R) h a) -> (asks q a -> In a R) ->
  exists L' R', st (L' ++ Le) h (R' ++ Re) /\ shift L R h L' R' /\ acc q L' R' h.
Proof.
  intros S E H Hq. exists L, R. split; [exact S|]. split; [apply shift_refl|]. split.
  - intros x Hx. rewrite E in Hx. injection Hx as <-. exact H.
  - intros x Hx. destruct q; cbn in *; try contradiction; injection E as <-; subst x; now apply Hq.
Qed.
Lemma acc0 (b : B) ks L Le R Re h : st (L ++ Le) h (R ++ Re) ->
  exists L' R', st (L' ++ Le) h (R' ++ Re) /\ shift L R h L' R' /\ acc (PNew b ks) L' R' h.
Proof. intros S. exists L, R. split; [exact S|]. split; [apply shift_refl|]. split; [discriminate|intros a []]. Qed.
Lemma from_occ R R' h a : (forall x, occ x R = occ x (a :: R')) -> from (G ++ R) h a.
Proof.
  intros H. apply from_root, in_or_app. right. apply occ_in. rewrite H. cbn. rewrite Nat.eqb_refl. cbn. lia.
Qed.
Lemma in_occ R R' (a : nat) : (forall x, occ x R = occ x (a :: R')) -> In a R.
Proof. intros H. apply occ_in. rewrite H. cbn. rewrite Nat.eqb_refl. cbn. lia. Qed.
Lemma one {C} (q : prim B C) h x h' (P : C -> heap -> Prop) : exec q h = Ok (x, h') -> (forall y, ~ stale q y) ->
  P x h' -> (exists x h', exec q h = Ok (x, h')) /\ forall y h1, can q h y h1 -> P y h1.
Proof.
  intros E Hn HP. split; [eauto|]. intros y h1 [E1|[Hs _]]; [|now apply Hn in Hs]. rewrite E in E1. injection E1 as <- <-. exact HP.
Qed.
Lemma legal_same {C} (q : prim B C) x L R h h' : (forall y, cov L R h y <-> cov L R h' y) ->
  (forall a, ~ let_go q x a) -> (forall a, ~ taken q x a) -> (forall a, ~ made q x a) ->
  match q with PSet a _ _ => In a L | _ => True end -> legal q x L R h L R h'.
Proof.
  intros Hc Hl Ht Hm Hs. split; auto.
  - intros a Ha. now apply Hl in Ha.
  - intros a Ha. now apply Ht in Ha.
  - intros a Ha. left. now apply Hc.
  - intros a Ha. left. now apply Hc.
  - intros; contradiction.
  - intros y Ha. now apply Hm in Ha.
  - intros y c a Ha. now apply Hm in Ha.
Qed.
Lemma legal_take {C} (q : prim B C) x L R R' a c h h' : (forall y, taken q x y <-> y = a) ->
  (forall y, ~ let_go q x y) -> (forall y, ~ made q x y) -> match q with PSet _ _ _ => False | _ => True end ->
  (forall x, occ x R = occ x (a :: R')) -> cell_at h a c -> (exists n, cell_at h' a (mkCell n (c_body c) (c_kids c))) ->
  (forall y, cov L R h y <-> cov L R h' y) ->
  legal q x L R h (a :: L) (c_kids c ++ R') h'.
Proof.
  intros Ht Hl Hm Hs HR Hc (n & Hc') Hcov.
  assert (O : forall y, cov L R h' y <-> cov (a :: L) (c_kids c ++ R') h' y).
  { intros y. rewrite (cov_eqv L R L (a :: R') h') by (auto; reflexivity). apply (cov_open L R' h' a _ Hc'). }
  split.
  - intros y [<-|Hy]; [right; left; now apply Ht|now left].
  - intros y Hy. now apply Hl in Hy.
  - intros y Hy. left. symmetry. now apply Ht.
  - intros y Hy. left. apply O, Hcov, Hy.
  - intros y Hy. left. apply Hcov, O, Hy.
  - intros y Hy. apply in_app_or in Hy as [Hy|Hy].
    + do 4 right. exists a, c. split; [now apply Ht|auto].
    + left. revert y Hy. assert (I : incl (a :: R') R) by (apply occ_incl; auto). intros y Hy. apply I. now right.
  - destruct q; auto. contradiction.
  - intros y c0 c1 b Hy Hn. exfalso. apply Hn. now right.
  - intros y Hy. now apply Hm in Hy.
  - intros y c0 b Hy. now apply Hm in Hy.
Qed.

Lemma cwp_ld a c (F : cell -> list nat -> list nat -> heap -> Prop) L R h : cell_at h a c ->
  In a L \/ from (G ++ R) h a ->
  (forall h', rely L (G ++ R) h h' -> F c L R h') -> cwp (ld a) F L R h.
Proof.
  intros Hc Ha K Le Re HG S. split; [eapply acc1; [exact S|reflexivity|exact Ha|intros []]|].
  eapply one with (x := c) (h' := h); [cbn; unfold load; unfold cell_at in Hc; now rewrite Hc|intros y []|].
  exists L, R. split; [exact S|]. split; [apply rely_refl|]. split.
  - apply legal_same; [reflexivity|intros y []|intros y []|intros y []|exact I].
  - intros h' Hr. apply cwp_done. auto.
Qed.
Lemma cwp_up a (F : unit -> list nat -> list nat -> heap -> Prop) L R h : from (G ++ R) h a ->
  (forall h', rely L (G ++ R) h h' -> F tt L (a :: R) h') -> cwp (up a) F L R h.
Proof.
  intros Ha K Le Re HG S.
  assert (Ha' : from (R ++ Re) h a).
  { eapply from_incl; [|exact Ha]. intros x Hx. apply in_app_or in Hx as [Hx|Hx]; apply in_or_app; auto. }
  destruct (do_inc _ _ _ _ S Ha') as (h1 & E & S1 & Rl).
  split; [eapply acc1; [exact S|reflexivity|now right|intros []]|].
  eapply one; [exact E|intros y []|]. exists L, (a :: R). split; [exact S1|]. split; [apply Rl, incl_appr, incl_refl|]. split.
  - pose proof (cov_rely L Le R Re L h h1 HG S (Rl L (G ++ R) (incl_appl _ (incl_refl L)))) as Hc.
    assert (Ha1 : from (G ++ R) h1 a).
    { eapply rely_from; [apply (Rl L (G ++ R)), incl_appl, incl_refl|apply incl_refl|exact Ha]. }
    split.
    + auto.
    + intros y [].
    + intros y [].
    + intros x Hx. left. apply Hc in Hx. revert x Hx. apply cov_incl; [apply incl_refl|apply incl_tl, incl_refl].
    + intros x Hx. left. apply Hc. revert x Hx. apply cov_in; [intros y Hy; now left|].
      intros y [<-|Hy]; [exact Ha1|now apply from_R].
    + intros y [<-|Hy]; [right; right; left; reflexivity|now left].
    + exact I.
    + intros; contradiction.
    + intros y [].
    + intros y c b [].
  - intros h2 H2. apply cwp_done, K. eapply rely_trans; [apply Rl, incl_appl, incl_refl|].
    eapply rely_incl; [apply incl_refl| |exact H2]. intros x Hx. apply in_app_or in Hx as [Hx|Hx]; apply in_or_app; [auto|right; now right].
Qed.
Lemma cwp_mk b ks R' (F : nat -> list nat -> list nat -> heap -> Prop) L R h : (forall x, occ x R = occ x (ks ++ R')) ->
  (forall a h', rely L (G ++ R) h h' -> (exists c, cell_at h' a c /\ c_body c = b /\ c_kids c = ks) ->
     F a L (a :: R') h') -> cwp (mk b ks) F L R h.
Proof.
  intros HR K Le Re HG S.
  assert (S0 : st (L ++ Le) h (ks ++ R' ++ Re)).
  { eapply st_eqv; [|exact S]. intros x. specialize (HR x). rewrite !occ_app in *. lia. }
  destruct (do_new _ _ _ b ks S0) as (h1 & E & S1 & Hc & Rl).
  split; [exact (acc0 b ks _ _ _ _ _ S)|].
  eapply one; [exact E|intros y []|]. exists L, (length h :: R'). split; [exact S1|].
  split; [apply Rl, incl_appr, incl_refl|]. split.
  { pose proof (cov_rely L Le R Re L h h1 HG S (Rl L (G ++ R) (incl_appl _ (incl_refl L)))) as Hv.
    pose proof (cov_open L R' h1 _ _ Hc) as Ho. cbn [c_kids] in Ho.
    assert (I1 : incl R (ks ++ R')) by now apply occ_incl. assert (I2 : incl (ks ++ R') R) by now apply occ_incl.
    split.
    - auto.
    - intros y [].
    - intros y [].
    - intros x Hx. left. apply Ho. apply Hv in Hx. revert x Hx. apply cov_incl; [apply incl_tl, incl_refl|exact I1].
    - intros x Hx. apply Ho in Hx as [[<-|Hx]|Hx]; [right; reflexivity|left; now left|]. left. apply Hv. right.
      eapply from_incl; [|exact Hx]. intros y Hy. rewrite in_app_iff in *. destruct Hy as [Hy|Hy]; auto.
    - intros y [<-|Hy]; [do 3 right; left; reflexivity|left; apply I2, in_or_app; now right].
    - exact I.
    - intros; contradiction.
    - intros y Hy. cbn in Hy. subst y. right. apply from_R. now left.
    - intros y c a Hy Hn Hc' Ha. cbn in Hy. subst y. unfold cell_at in Hc, Hc'. rewrite Hc in Hc'. injection Hc' as <-.
      left. apply I2, in_or_app. now left. }
  intros h2 H2. apply cwp_done, K.
  - pose proof (Rl L (G ++ R) (incl_appl _ (incl_refl L))) as R1. split.
    + intros x Hx. rewrite (proj1 H2) by exact Hx. now apply R1.
    + intros x c (r & Hr & Hp) Hx. destruct (proj2 R1 x c (ex_intro _ r (conj Hr Hp)) Hx) as (c1 & Hc1 & E1 & E1').
      destruct (proj2 H2 x c1) as (c2 & Hc2 & E2 & E2'); [|exact Hc1|].
      * pose proof (rely_reaches _ _ _ _ _ _ R1 Hr Hp) as Hp1.
        apply in_app_or in Hr as [Hr|Hr]; [exists r; split; [apply in_or_app; now left|exact Hp1]|].
        assert (In r (ks ++ R')) as Hr' by (apply occ_in in Hr; apply occ_in; rewrite <- HR; exact Hr).
        apply in_app_or in Hr' as [Hr'|Hr'].
        { exists (length h). split; [apply in_or_app; right; now left|].
          eapply reaches_trans; [|exact Hp1]. eapply reaches_kid; [constructor|exact Hc|exact Hr']. }
        exists r. split; [apply in_or_app; right; now right|exact Hp1].
      * exists c2. split; [exact Hc2|]. split; congruence.
  - destruct (proj2 H2 (length h) _ (from_root (G ++ length h :: R') h1 _ (in_elt _ _ _)) Hc) as (c2 & Hc2 & E1 & E2).
    exists c2. split; [exact Hc2|]. split; [exact E1|exact E2].
Qed.
Lemma cwp_dn a R' (F : bool -> list nat -> list nat -> heap -> Prop) L R h : (forall x, occ x R = occ x (a :: R')) ->
  (forall h', rely L (G ++ R') h h' -> F false L R' h') ->
  (forall c h', cell_at h a c -> rely L (G ++ c_kids c ++ R') h h' ->
     cell_at h' a (mkCell 0 (c_body c) (c_kids c)) -> F true (a :: L) (c_kids c ++ R') h') ->
  cwp (dn a) F L R h.
Proof.
  intros HR K1 K2 Le Re HG S.
  assert (S0 : st (L ++ Le) h (a :: R' ++ Re)).
  { eapply st_eqv; [|exact S]. intros x. specialize (HR x). cbn in *. rewrite !occ_app in *. lia. }
  assert (I2 : incl (a :: R') R) by (apply occ_incl; auto). assert (I1 : incl R (a :: R')) by (apply occ_incl; auto).
  split; [eapply acc1; [exact S|reflexivity|right; eapply from_occ; exact HR|intros _; eapply in_occ; exact HR]|].
  destruct (do_dec _ _ _ _ S0) as (c & Hc & [(h1 & E & S1 & Rl)|(h1 & E & Hn & S1 & Hc1 & Rl)]);
    pose proof (cov_rely L Le R Re L h h1 HG S (Rl L (G ++ R) (incl_appl _ (incl_refl L)))) as Hv.
  - eapply one; [exact E|intros y []|]. exists L, R'. split; [exact S1|]. split; [apply Rl, incl_appr, incl_refl|]. split.
    + split.
      * auto.
      * intros y [_ ->] Hy. apply (st_from_out _ _ _ a S0); [apply from_root; now left|apply in_or_app; now left].
      * intros y [H _]. discriminate.
      * intros x Hx. destruct Hx as [Hx|(r & Hr & Hp)]; [left; now left|].
        apply in_app_or in Hr as [Hr|Hr]; [|apply I1 in Hr as [<-|Hr]].
        -- left. right. exists r. split; [apply in_or_app; now left|]. eapply (rely_reaches L (G ++ R) h h1); [apply Rl, incl_appl, incl_refl|apply in_or_app; now left|exact Hp].
        -- right. exists a. split; [split; reflexivity|exact Hp].
        -- left. right. exists r. split; [apply in_or_app; now right|]. eapply (rely_reaches L (G ++ R) h h1); [apply Rl, incl_appl, incl_refl|apply in_or_app; right; apply I2; now right|exact Hp].
      * intros x Hx. left. apply Hv. revert x Hx. apply cov_incl; [apply incl_refl|]. intros y Hy. apply I2. now right.
      * intros y Hy. left. apply I2. now right.
      * exact I.
      * intros; contradiction.
      * intros y [].
      * intros y c0 b [].
    + intros h2 H2. apply cwp_done, K1. eapply rely_trans; [apply Rl, incl_appl, incl_refl|exact H2].
  - eapply one; [exact E|intros y []|]. exists (a :: L), (c_kids c ++ R').
    split; [eapply st_eqv; [|exact S1]; intros x; rewrite !occ_app; lia|]. split; [apply Rl, incl_appr, incl_refl|]. split.
    + apply legal_take.
      * intros y. cbn. intuition.
      * intros y [H _]. discriminate.
      * intros y [].
      * exact I.
      * exact HR.
      * exact Hc.
      * now exists 0.
      * exact Hv.
    + intros h2 H2. apply cwp_done, (K2 c); [exact Hc| |].
      * eapply rely_trans; [apply Rl, incl_appl, incl_refl|]. eapply rely_incl; [apply incl_tl, incl_refl|apply incl_refl|exact H2].
      * eapply rely_local; [exact H2|now left|exact Hc1].
Qed.
Lemma cwp_uq a R' (F : bool -> list nat -> list nat -> heap -> Prop) L R h : (forall x, occ x R = occ x (a :: R')) ->
  (forall h', rely L (G ++ R) h h' -> F false L R h') ->
  (forall c h', cell_at h a c -> c_rc c = 1 -> rely (a :: L) (G ++ c_kids c ++ R') h h' ->
     F true (a :: L) (c_kids c ++ R') h') ->
  cwp (uq a) F L R h.
Proof.
  intros HR K1 K2 Le Re HG S.
  assert (S0 : st (L ++ Le) h (a :: R' ++ Re)).
  { eapply st_eqv; [|exact S]. intros x. specialize (HR x). cbn in *. rewrite !occ_app in *. lia. }
  split; [eapply acc1; [exact S|reflexivity|right; eapply from_occ; exact HR|intros _; eapply in_occ; exact HR]|].
  assert (KF : exists L' R'0, st (L' ++ Le) h (R'0 ++ Re) /\ rely Le Re h h /\ legal (PUniq a) false L R h L' R'0 h /\
    (forall h'', rely L' (G ++ R'0) h h'' -> cwp (Done false) F L' R'0 h'')).
  { exists L, R. split; [exact S|]. split; [apply rely_refl|]. split.
    - apply legal_same; [reflexivity|intros y []|intros y [E _]; discriminate|intros y []|exact I].
    - intros h2 H2. apply cwp_done, K1, H2. }
  destruct (do_uniq _ _ _ _ S0) as (c & Hc & [E|(E & E1 & Hn & S1)]).
  - split; [eauto|]. intros x h' [E'|[Hs ->]]; [|cbn in Hs; subst x; exact KF].
    change (unique a h = Ok (x, h')) in E'. rewrite E in E'. injection E' as <- <-. exact KF.
  - split; [eauto|]. intros x h' [E'|[Hs ->]]; [|cbn in Hs; subst x; exact KF].
    change (unique a h = Ok (x, h')) in E'. rewrite E in E'. injection E' as <- <-.
    exists (a :: L), (c_kids c ++ R').
    split; [eapply st_eqv; [|exact S1]; intros x; rewrite !occ_app; lia|]. split; [apply rely_refl|]. split.
    + apply legal_take.
      * intros y. cbn. intuition.
      * intros y [].
      * intros y [].
      * exact I.
      * exact HR.
      * exact Hc.
      * exists (c_rc c). destruct c. exact Hc.
      * reflexivity.
    + intros h2 H2. apply cwp_done, (K2 c); assumption.
Qed.
Lemma cwp_fr a L' (F : unit -> list nat -> list nat -> heap -> Prop) L R h : Permutation L (a :: L') ->
  (forall h', rely L' (G ++ R) h h' -> F tt L' R h') -> cwp (fr a) F L R h.
Proof.
  intros HL K Le Re HG S.
  assert (S0 : st (a :: L' ++ Le) h (R ++ Re)).
  { eapply st_perm; [|exact S]. change (a :: L' ++ Le) with ((a :: L') ++ Le). now apply Permutation_app_tail. }
  assert (HGR : incl (G ++ R) (R ++ Re)).
  { intros x Hx. apply in_app_or in Hx as [Hx|Hx]; apply in_or_app; auto. }
  destruct (do_free _ _ _ _ S0) as (h1 & E & S1 & Rl).
  pose proof (cov_rely L Le R Re L' h h1 HG S (Rl L' (G ++ R) (incl_appl _ (incl_refl L')) HGR)) as Hv.
  split; [eapply acc1; [exact S|reflexivity|cbn; eapply Permutation_in; [symmetry; exact HL|now left]|intros []]|].
  eapply one; [exact E|intros y []|]. exists L', R. split; [exact S1|].
  split; [apply Rl; [apply incl_appr, incl_refl|apply incl_appr, incl_refl]|]. split.
  - assert (I2 : incl L' L) by (intros y Hy; eapply Permutation_in; [symmetry; exact HL|now right]).
    split.
    + intros y Hy. left. auto.
    + intros y [].
    + intros y [].
    + intros x [Hx|Hx].
      * apply (Permutation_in _ HL) in Hx as [<-|Hx]; [right; reflexivity|left; now left].
      * left. right. eapply rely_from; [apply (Rl L' (G ++ R)); [apply incl_appl, incl_refl|exact HGR]|apply incl_refl|exact Hx].
    + intros x Hx. left. apply Hv. revert x Hx. apply cov_incl; [exact I2|apply incl_refl].
    + auto.
    + exact I.
    + intros y c c' b Hy Hn Hc' Hc. exfalso. apply (Permutation_in _ HL) in Hy as [<-|Hy]; [|contradiction].
      cbn in E. unfold free in E. unfold cell_at in Hc, Hc'. rewrite Hc in E. injection E as <-.
      rewrite nth_upd_same in Hc' by (eapply nth_lt; exact Hc). discriminate.
    + intros y [].
    + intros y c b [].
  - intros h2 H2. apply cwp_done, K. eapply rely_trans; [apply Rl; [apply incl_appl, incl_refl|exact HGR]|exact H2].
Qed.
Lemma cwp_wr a b ks L' (F : unit -> list nat -> list nat -> heap -> Prop) L R h : Permutation L (a :: L') ->
  (forall c h', cell_at h a c -> rely L' (G ++ R) h h' -> cell_at h' a (mkCell (c_rc c) b ks) -> F tt L R h') ->
  cwp (wr a b ks) F L R h.
Proof.
  intros HL K Le Re HG S.
  assert (P : Permutation (L ++ Le) (a :: L' ++ Le)).
  { change (a :: L' ++ Le) with ((a :: L') ++ Le). now apply Permutation_app_tail. }
  assert (S0 : st (a :: L' ++ Le) h (R ++ Re)) by (eapply st_perm; eauto).
  assert (HGR : incl (G ++ R) (R ++ Re)).
  { intros x Hx. apply in_app_or in Hx as [Hx|Hx]; apply in_or_app; auto. }
  assert (Ia : In a L) by (eapply Permutation_in; [symmetry; exact HL|now left]).
  destruct (do_set _ _ _ a b ks S0) as (c & h1 & Hc & E & S1 & Hc1 & Rl).
  split; [eapply acc1; [exact S|reflexivity|exact Ia|intros []]|].
  eapply one; [exact E|intros y []|]. exists L, R.
  split; [eapply st_perm; [symmetry; exact P|exact S1]|].
  split; [apply Rl; apply incl_appr, incl_refl|]. split.
  - apply legal_same; [|intros y []|intros y []|intros y []|exact Ia].
    apply (cov_rely L Le R Re L' h h1 HG S). apply Rl; [apply incl_appl, incl_refl|exact HGR].
  - intros h2 H2. apply cwp_done, (K c).
    + exact Hc.
    + eapply rely_trans; [apply Rl; [apply incl_appl, incl_refl|exact HGR]|eapply rely_incl; [|apply incl_refl|exact H2]].
      intros x Hx. eapply Permutation_in; [symmetry; exact HL|now right].
    + eapply rely_local; [exact H2|exact Ia|exact Hc1].
Qed.
(** A new block that refers to others and is not made visible yet. *)
Lemma cwp_mklk (b : B) ks R' (F : nat -> list nat -> list nat -> heap -> Prop) L R h : (forall x, occ x R = occ x (ks ++ R')) ->
  (forall a h', rely L (G ++ R) h h' -> cell_at h' a (mkCell 1 b ks) -> F a (a :: L) R h') -> cwp (mk b ks) F L R h.
Proof.
  intros HR K Le Re HG S.
  assert (S0 : st (L ++ Le) h (ks ++ R' ++ Re)).
  { eapply st_eqv; [|exact S]. intros x. specialize (HR x). rewrite !occ_app in *. lia. }
  destruct (do_new _ _ _ b ks S0) as (h1 & E & S1 & Hc & Rl).
  split; [exact (acc0 b ks _ _ _ _ _ S)|].
  destruct (st_from _ _ _ (length h) S1 (from_root _ h1 _ (in_eq _ _))) as (c & Hw).
  destruct (wipe_cell _ _ _ _ Hw) as [_ Hc']. unfold cell_at in Hc, Hc'. rewrite Hc in Hc'. injection Hc' as <-.
  destruct (st_take _ _ _ _ _ S1 Hw eq_refl) as (S2 & _). cbn [c_kids] in S2.
  eapply one; [exact E|intros y []|]. exists (length h :: L), R.
  split; [eapply st_eqv; [|exact S2]; intros x; specialize (HR x); rewrite !occ_app in *; lia|].
  split; [apply Rl, incl_appr, incl_refl|]. split.
  - pose proof (cov_rely L Le R Re L h h1 HG S (Rl L (G ++ R) (incl_appl _ (incl_refl L)))) as Hv. split.
    + intros y [<-|Hy]; [right; right; reflexivity|now left].
    + intros y [].
    + intros y [].
    + intros x Hx. left. apply Hv in Hx as [Hx|Hx]; [left; now right|now right].
    + intros x [[<-|Hx]|Hx]; [right; reflexivity|left; now left|]. left. apply Hv. now right.
    + auto.
    + exact I.
    + intros y c1 c2 a Hy Hn. exfalso. apply Hn. now right.
    + intros y Hy. left. left. symmetry. exact Hy.
    + intros y c1 a Hy Hn. exfalso. apply Hn. left. symmetry. exact Hy.
  - intros h2 H2. apply cwp_done, K.
    + eapply rely_trans; [apply Rl, incl_appl, incl_refl|]. eapply rely_incl; [apply incl_tl, incl_refl|apply incl_refl|exact H2].
    + eapply rely_local; [exact H2|now left|exact Hc].
Qed.
(** A new block that is not made visible yet. *)
Lemma cwp_mkl b (F : nat -> list nat -> list nat -> heap -> Prop) L R h :
  (forall a h', rely L (G ++ R) h h' -> cell_at h' a (mkCell 1 b []) -> F a (a :: L) R h') -> cwp (mk b []) F L R h.
Proof. intros K. apply (cwp_mklk b [] R); [reflexivity|exact K]. Qed.
(** A local block with count one becomes a reference; its pointers are its own. *)
Lemma cwp_put {A} (p : prog B A) a c L' R' F L R h : Permutation L (a :: L') -> cell_at h a c -> c_rc c = 1 ->
  (forall x, occ x R = occ x (c_kids c ++ R')) -> cwp p F L' (a :: R') h -> cwp p F L R h.
Proof.
  intros HL Hc E HR. apply cwp_ghost; [eapply shift_put; eauto|]. intros Le Re _ S.
  assert (S0 : st (a :: L' ++ Le) h (c_kids c ++ R' ++ Re)).
  { eapply st_eqv; [|eapply st_perm; [|exact S]].
    - intros x. specialize (HR x). rewrite !occ_app in *. lia.
    - change (a :: L' ++ Le) with ((a :: L') ++ Le). now apply Permutation_app_tail. }
  destruct (st_put _ _ _ _ _ S0 Hc E) as (S1 & _). exact S1.
Qed.
End Conc.
