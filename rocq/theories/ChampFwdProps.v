(** C64: the iterators of map, set and table are multi-pass. *)
From Coq Require Import List Arith NArith ZArith Bool Lia.
From Verif Require Import Common Champ ChampSpec ChampHist ChampProps FacadeSpec Facade ChampFwd.
Import ListNotations.
Set Default Goal Selector "!".

(** Statements of forward iterators. *)
Definition forward (o : fop) : Prop :=
  match o with
  | FBegin _ | FEnd _ | FPreInc _ _ | FPostInc _ _ | FDeref _ | FCmp Ceq _ _ | FCmp Cne _ _ => True
  | _ => False
  end.

Lemma ord_nth {A} (R : A -> A -> Prop) l : ForallOrdPairs R l -> forall i j x y, i < j -> nth_error l i = Some x ->
  nth_error l j = Some y -> R x y.
Proof.
  induction 1 as [|a l H _ IH]; intros i j x y Hl Hi Hj; [destruct i; discriminate Hi|].
  destruct j as [|j]; [lia|]. cbn in Hj. destruct i as [|i]; cbn in Hi.
  - injection Hi as <-. rewrite Forall_forall in H. apply H. eapply nth_error_In; eauto.
  - apply (IH i j); auto. lia.
Qed.

Section Proofs.
Variable B : N.
Context {T : Type}.
Notation iter := (@Champ.iter T).
Variable cell : iter -> iter -> bool.
Hypothesis cell_refl : forall a, cell a a = true.
Hypothesis cell_same : forall a b, cell a b = true -> Champ.it_deref a = Champ.it_deref b.
Variable c : @champ T.
Variable fuel : nat.
Variable it0 : iter.
Variable l : list T.
Hypothesis Hdiff : forall i j x, nth_error l i = Some x -> nth_error l j = Some x -> i = j.

(** The iterator after [n] increments. *)
Fixpoint after (n : nat) (it : iter) : res iter :=
  match n with 0 => Ok it | S n' => it' <- Champ.it_next B fuel it ;; after n' it' end.
Lemma iterate_after k : forall it xs, iterate B k fuel it = Ok xs -> forall i, i <= length xs ->
  exists it', after i it = Ok it' /\
    match nth_error xs i with Some x => Champ.it_deref it' = Ok x | None => Champ.it_rem it' = [] end.
Proof.
  induction k as [|k IH]; intros it xs H i Hi; unfold iterate in H; fold (@iterate B T) in H; unfold it_is_end in H;
    destruct (Champ.it_rem it) as [|v rem] eqn:E; try discriminate H.
  1-2: injection H as <-; cbn in Hi; assert (i = 0) by lia; subst; exists it; split; [reflexivity|exact E].
  assert (Ed : Champ.it_deref it = Ok v) by (unfold Champ.it_deref; now rewrite E). rewrite Ed in H. cbn [rbind] in H.
  destruct (Champ.it_next B fuel it) as [it1|] eqn:En; [|discriminate H]. cbn [rbind] in H.
  destruct (iterate B k fuel it1) as [ys|] eqn:Ey; [|discriminate H]. cbn [rbind] in H. injection H as <-.
  destruct i as [|i].
  - exists it. split; [reflexivity|exact Ed].
  - cbn in Hi. destruct (IH it1 ys Ey i ltac:(lia)) as (it' & H1 & H2). exists it'. cbn [after nth_error]. rewrite En. auto.
Qed.
Lemma after_snoc n : forall it, after (S n) it = (it' <- after n it ;; Champ.it_next B fuel it').
Proof.
  induction n as [|n IH]; intros it.
  - cbn. destruct (Champ.it_next B fuel it); reflexivity.
  - change (after (S (S n)) it) with (it' <- Champ.it_next B fuel it ;; after (S n) it').
    change (after (S n) it) with (it' <- Champ.it_next B fuel it ;; after n it').
    destruct (Champ.it_next B fuel it) as [it1|]; [|reflexivity]. cbn [rbind]. apply IH.
Qed.
Hypothesis Hiter : exists k, iterate B k fuel it0 = Ok l.
Definition at_pos (it : iter) (i : nat) : Prop :=
  (i < length l /\ after i it0 = Ok it) \/ (i = length l /\ Champ.it_rem it = []).
Lemma pos_deref it i x : at_pos it i -> nth_error l i = Some x -> Champ.it_deref it = Ok x.
Proof.
  intros [[H1 H2]|[-> H2]] Hx.
  - destruct Hiter as [k Hk]. destruct (iterate_after k it0 l Hk i ltac:(lia)) as (it' & H3 & H4). rewrite Hx in H4. congruence.
  - assert (length l < length l) by (apply nth_error_Some; congruence). lia.
Qed.
Lemma pos_rem it i : at_pos it i -> (Champ.it_rem it = [] <-> i = length l).
Proof.
  intros H. split; [|intros ->; destruct H as [[H _]|[_ H]]; [lia|exact H]]. intros E. destruct H as [[H1 H2]|[H _]]; [|exact H].
  destruct (nth_error l i) as [x|] eqn:Ex; [|apply nth_error_None in Ex; lia].
  assert (X := pos_deref it i x (or_introl (conj H1 H2)) Ex). unfold Champ.it_deref in X. rewrite E in X. discriminate X.
Qed.
Lemma pos_next it i : at_pos it i -> i < length l -> exists it', Champ.it_next B fuel it = Ok it' /\ at_pos it' (S i).
Proof.
  intros H Hi. destruct H as [[_ H]|[-> _]]; [|lia]. destruct Hiter as [k Hk].
  destruct (iterate_after k it0 l Hk (S i) ltac:(lia)) as (it' & H3 & H4). assert (H5 := H3). rewrite after_snoc, H in H5. cbn [rbind] in H5.
  exists it'. split; [exact H5|]. destruct (nth_error l (S i)) as [x|] eqn:Ex.
  - left. split; [apply nth_error_Some; congruence|exact H3].
  - right. apply nth_error_None in Ex. split; [lia|exact H4].
Qed.
Lemma pos_equal a i b j : at_pos a i -> at_pos b j -> ch_equal cell a b = (i =? j).
Proof.
  intros Ha Hb. assert (Ra := pos_rem a i Ha). assert (Rb := pos_rem b j Hb). unfold ch_equal.
  destruct (Champ.it_rem a) as [|x ra] eqn:Ea, (Champ.it_rem b) as [|y rb] eqn:Eb.
  - symmetry. apply Nat.eqb_eq. rewrite (proj1 Ra), (proj1 Rb); auto.
  - symmetry. apply Nat.eqb_neq. intros ->. rewrite (proj1 Ra eq_refl) in Rb. destruct Rb as [_ Rb]. specialize (Rb eq_refl). discriminate Rb.
  - symmetry. apply Nat.eqb_neq. intros ->. rewrite (proj1 Rb eq_refl) in Ra. destruct Ra as [_ Ra]. specialize (Ra eq_refl). discriminate Ra.
  - destruct Ha as [[Hi Ha]|[_ Ha]]; [|congruence]. destruct Hb as [[Hj Hb]|[_ Hb]]; [|congruence].
    destruct (Nat.eqb_spec i j) as [->|Hn]; [replace b with a by congruence; apply cell_refl|].
    destruct (cell a b) eqn:Ec; [|reflexivity]. apply cell_same in Ec. elim Hn.
    destruct (nth_error l i) as [u|] eqn:Eu; [|apply nth_error_None in Eu; lia].
    destruct (nth_error l j) as [w|] eqn:Ew; [|apply nth_error_None in Ew; lia].
    rewrite (pos_deref a i u (or_introl (conj Hi Ha)) Eu), (pos_deref b j w (or_introl (conj Hj Hb)) Ew) in Ec.
    injection Ec as ->. exact (Hdiff i j w Eu Ew).
Qed.

Notation P := (champ_prims B cell fuel c it0).
Definition frel (v : nat -> iter) (w : nat -> nat) : Prop := forall u, at_pos (v u) (w u).
Lemma frel_set v w d it i : frel v w -> at_pos it i -> frel (vset v d it) (vset w d i).
Proof. intros H H1 u. unfold vset. destruct (u =? d); auto. Qed.
Lemma at_begin : at_pos it0 0.
Proof.
  destruct Hiter as [k Hk]. destruct (iterate_after k it0 l Hk 0 ltac:(lia)) as (it' & H1 & H2). cbn in H1. injection H1 as <-.
  destruct (nth_error l 0) as [x|] eqn:E.
  - left. split; [apply nth_error_Some; congruence|reflexivity].
  - right. apply nth_error_None in E. split; [lia|exact H2].
Qed.
Lemma moved_one i j : moved l i 1 = Some j -> j = S i /\ i < length l.
Proof. unfold moved. destruct (_ && _)%bool eqn:E; [|discriminate]. intros H. injection H as <-. lia. Qed.
Lemma fwd_step v w o w' ys : forward o -> frel v w -> fspec l w o = Some (w', ys) -> exists v', fstep P v o = Ok (v', ys) /\ frel v' w'.
Proof.
  intros Hf Hr Hs. destruct o as [d|d|d s|d s|d s|d s|d s n|d s n|d s n|d n s|d s n|s|s n|a b|k a b]; cbn [forward] in Hf; try contradiction;
    cbn [fspec fstep] in *; cbv zeta in Hs.
  - injection Hs as <- <-. eexists. split; [reflexivity|]. apply frel_set; [exact Hr|exact at_begin].
  - injection Hs as <- <-. eexists. split; [reflexivity|]. apply frel_set; [exact Hr|right; auto].
  - destruct (moved l (w s) 1) as [j|] eqn:E; [|discriminate Hs]. injection Hs as <- <-. apply moved_one in E as [-> E].
    destruct (pos_next _ _ (Hr s) E) as (it' & H1 & H2). unfold f_inc. cbn [champ_prims p_inc]. rewrite H1.
    eexists. split; [reflexivity|]. repeat apply frel_set; auto.
  - destruct (moved l (w s) 1) as [j|] eqn:E; [|discriminate Hs]. injection Hs as <- <-. apply moved_one in E as [-> E].
    destruct (pos_next _ _ (Hr s) E) as (it' & H1 & H2). unfold f_inc. cbn [champ_prims p_inc]. rewrite H1.
    eexists. split; [reflexivity|]. repeat apply frel_set; auto.
  - destruct (nth_error l (w s)) as [x|] eqn:E; [|discriminate Hs]. injection Hs as <- <-. cbn [champ_prims p_deref].
    rewrite (pos_deref _ _ x (Hr s) E). cbn [rbind fst snd]. eexists. split; [reflexivity|]. intros u. unfold vset.
    destruct (Nat.eqb_spec u s); [subst|]; apply Hr.
  - destruct k; try contradiction; injection Hs as <- <-; exists v; (split; [|exact Hr]); cbn [f_cmp champ_prims p_equal rbind compare_pos];
      now rewrite (pos_equal _ _ _ _ (Hr a) (Hr b)).
Qed.
Lemma fwd_runs os : Forall forward os -> forall v w zs, frel v w -> fspecs l w os = Some zs -> fruns P v os = Ok zs.
Proof.
  induction 1 as [|o os Ho _ IH]; intros v w zs Hr H; cbn [fspecs fruns] in *; [congruence|].
  destruct (fspec l w o) as [[w' ys]|] eqn:E; [|discriminate H]. destruct (fwd_step v w o w' ys Ho Hr E) as (v' & -> & Hr').
  cbn [rbind fst snd]. destruct (fspecs l w' os) as [zs'|] eqn:E2; [|discriminate H]. rewrite (IH v' w' zs' Hr' E2). cbn [rbind]. congruence.
Qed.
End Proofs.

(** ** Theorem *)
(** The elements of a container have an order [l] such that all programs with any number of iterators
    that do not go beyond the end show what positions in [l] show: dereferencing again, and from copies,
    gives the same elements, and iterators are equal exactly at the same position.  [cell] compares
    addresses of elements: at one address there is one element. *)
Theorem C64_forward : forall B T K V (key : T -> K) khash keq (project : T -> V) combine,
  setup B key khash keq combine ->
  forall ops c cell, run B key khash keq project combine ops = Ok c ->
  (forall a, cell a a = true) -> (forall a b, cell a b = true -> Champ.it_deref a = Champ.it_deref b) ->
  exists l fuel, lists key keq l (ahistory key keq project combine ops) /\
    forall fuel', fuel <= fuel' -> exists it0, Champ.it_begin B fuel' c = Ok it0 /\
      forall os zs, Forall forward os -> fspecs l (fun _ => 0) os = Some zs ->
        frun (champ_prims B cell fuel' c it0) os = Ok zs.
Proof.
  intros B T K V key khash keq project combine Hs ops c cell Hr Hc1 Hc2.
  destruct (C03_iteration B T K V key khash keq project combine Hs ops c Hr) as (l & _ & fuel & Hl & _ & _ & _ & _ & Hit).
  exists l, fuel. split; [exact Hl|]. intros fuel' Hf. specialize (Hit fuel' Hf).
  destruct (Champ.it_begin B fuel' c) as [it0|] eqn:E0; [|discriminate Hit]. cbn [rbind] in Hit. exists it0. split; [reflexivity|].
  intros os zs Hos Hz. assert (D : forall i j x, nth_error l i = Some x -> nth_error l j = Some x -> i = j).
  { intros i j x Hi Hj. destruct Hl as [Hd _]. destruct Hs as (_ & Hk & _).
    destruct (Nat.lt_trichotomy i j) as [X|[X|X]]; [|exact X|].
    - assert (Y := ord_nth _ _ Hd i j x x X Hi Hj). cbn in Y. rewrite (proj1 Hk) in Y. discriminate Y.
    - assert (Y := ord_nth _ _ Hd j i x x X Hj Hi). cbn in Y. rewrite (proj1 Hk) in Y. discriminate Y. }
  unfold frun. apply (fwd_runs B cell Hc1 Hc2 c fuel' it0 l D (ex_intro _ _ Hit) os Hos _ (fun _ => 0)); [|exact Hz].
  intros u. eapply at_begin; eauto.
Qed.
Print Assumptions C64_forward.

(** *** A case that meets the hypotheses *)
Definition ex_cell (a b : @Champ.iter (N * N)) : bool :=
  match Champ.it_rem a, Champ.it_rem b with
  | x :: _, y :: _ => ex_veq x y
  | [], [] => true
  | _, _ => false
  end.
Example C64_nonvacuous :
  (forall a, ex_cell a a = true) /\ (forall a b, ex_cell a b = true -> Champ.it_deref a = Champ.it_deref b) /\
  let os := [FPostInc 1 0; FDeref 0; FDeref 1; FCmp Ceq 0 1; FPreInc 2 1; FCmp Ceq 0 1; FDeref 1; FEnd 3; FCmp Cne 3 1; FBegin 0;
             FDeref 0; FDeref 0] in
  Forall forward os /\
  (c <- run 5 ex_key ex_hash N.eqb snd (fun k x => (k, x)) (map (fun k => OpInsert (k, k * k)%N) [1; 4; 2; 7; 32]%N) ;;
   it0 <- Champ.it_begin 5 100 c ;; frun (champ_prims 5 ex_cell 100 c it0) os)
  = Ok [SVal (4, 16); SVal (7, 49); SBool false; SBool true; SVal (4, 16); SBool true; SVal (7, 49); SVal (7, 49)]%N.
Proof.
  split; [|split].
  - intros a. unfold ex_cell. destruct (Champ.it_rem a) as [|x r]; [reflexivity|]. unfold ex_veq. now rewrite !N.eqb_refl.
  - intros a b H. unfold ex_cell in H. unfold Champ.it_deref. destruct (Champ.it_rem a) as [|[k x] r], (Champ.it_rem b) as [|[k' x'] r'];
      try discriminate H; [reflexivity|]. unfold ex_veq in H. apply andb_true_iff in H as [H1 H2]. apply N.eqb_eq in H1, H2. cbn in H1, H2.
    now subst.
  - cbv zeta. split; [repeat constructor|]. vm_compute. reflexivity.
Qed.
