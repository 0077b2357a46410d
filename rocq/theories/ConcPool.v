(** Any number of threads: when each of them is right whatever the others do, every
    interleaving is. *)
From Coq Require Import List Arith Bool Lia Permutation.
From Verif Require Import Common AtomProofs RcHeap RcProofs Conc ConcProofs.
Import ListNotations.
Set Default Goal Selector "!".

Section Pool.
Context {B A : Type}.
Notation heap := (heap B).
Variable G : list nat.
(** What thread [i] ends in. *)
Variable F : nat -> A -> list nat -> list nat -> heap -> Prop.

Notation ghost := (list nat * list nat)%type.
Definition Ls (gs : list ghost) : list nat := flat_map fst gs.
Definition Rs (gs : list ghost) : list nat := flat_map snd gs.
Definition without (i : nat) (gs : list ghost) : list ghost := update_at i ([], []) gs.

Lemma Ls_split gs : forall i g g', nth_error gs i = Some g ->
  Permutation (Ls (update_at i g' gs)) (fst g' ++ Ls (without i gs)).
Proof.
  induction gs as [|x gs IH]; intros [|i] g g' H; cbn in *; try discriminate; [reflexivity|].
  rewrite (IH i g g' H). rewrite !app_assoc. apply Permutation_app_tail, Permutation_app_comm.
Qed.
Lemma Rs_split gs : forall i g g' x, nth_error gs i = Some g ->
  occ x (Rs (update_at i g' gs)) = occ x (snd g') + occ x (Rs (without i gs)).
Proof.
  induction gs as [|y gs IH]; intros [|i] g g' x H; cbn in *; try discriminate; rewrite ?occ_app; [reflexivity|].
  specialize (IH i g g' x H). unfold Rs, without in IH. rewrite IH. lia.
Qed.
Lemma incl_without i j gs g : nth_error gs j = Some g -> i <> j ->
  incl (fst g) (Ls (without i gs)) /\ incl (snd g) (Rs (without i gs)).
Proof.
  intros H Hn. assert (E : nth_error (without i gs) j = Some g) by (unfold without; now rewrite nth_upd by auto).
  apply nth_error_In in E. split; intros x Hx; apply in_flat_map; exists g; auto.
Qed.

Record pool_ok (ps : list (prog B A)) (gs : list ghost) (h : heap) : Prop := mkPool {
  p_len : length gs = length ps;
  p_st : st (Ls gs) h (G ++ Rs gs);
  p_ok : forall i p g, nth_error ps i = Some p -> nth_error gs i = Some g ->
         forall h', rely (fst g) (G ++ snd g) h h' -> cwp G p (F i) (fst g) (snd g) h' }.

(** The memory as thread [i] sees it. *)
Lemma st_mine gs i g (h : heap) : nth_error gs i = Some g -> st (Ls gs) h (G ++ Rs gs) ->
  st (fst g ++ Ls (without i gs)) h (snd g ++ G ++ Rs (without i gs)).
Proof.
  intros H S. rewrite <- (upd_same gs i g H) in S.
  eapply st_perm; [apply (Ls_split gs i g g H)|]. eapply st_eqv; [|exact S].
  intros x. rewrite !occ_app, (Rs_split gs i g g x H). lia.
Qed.
Lemma st_ours gs i g g' (h : heap) : nth_error gs i = Some g ->
  st (fst g' ++ Ls (without i gs)) h (snd g' ++ G ++ Rs (without i gs)) ->
  st (Ls (update_at i g' gs)) h (G ++ Rs (update_at i g' gs)).
Proof.
  intros H S. eapply st_perm; [symmetry; apply (Ls_split gs i g g' H)|]. eapply st_eqv; [|exact S].
  intros x. rewrite !occ_app, (Rs_split gs i g g' x H). lia.
Qed.

(** A thread may take a step, whatever it sees, and the pool stays in order. *)
Lemma pool_can ps gs h i D (q : prim B D) k g : pool_ok ps gs h -> nth_error ps i = Some (Act q k) -> nth_error gs i = Some g ->
  (exists L1 R1, st (Ls (update_at i (L1, R1) gs)) h (G ++ Rs (update_at i (L1, R1) gs)) /\
     shift G (fst g) (snd g) h L1 R1 /\ acc G q L1 R1 h) /\
  (exists x h', exec q h = Ok (x, h')) /\
  forall x h', can q h x h' -> exists L' R', legal G q x (fst g) (snd g) h L' R' h' /\
    rely (Ls (without i gs)) (G ++ Rs (without i gs)) h h' /\
    pool_ok (update_at i (k x) ps) (update_at i (L', R') gs) h'.
Proof.
  intros [Hl S K] Hp Eg.
  assert (Hi : i < length gs) by (rewrite Hl; eapply nth_lt; exact Hp).
  pose proof (K i _ g Hp Eg h (rely_refl _ _ _)) as C. cbn in C.
  destruct (C (Ls (without i gs)) (G ++ Rs (without i gs))) as ((L1 & R1 & S1 & Sh & A1) & E & C').
  { apply incl_appl, incl_refl. }
  { now apply st_mine. }
  split; [|split; [exact E|]].
  - exists L1, R1. split; [eapply st_ours; [exact Eg|exact S1]|]. auto.
  - intros x h' Hc. destruct (C' x h' Hc) as (L' & R' & S' & Rl & Lg & C2). exists L', R'. split; [exact Lg|]. split; [exact Rl|].
    constructor.
    + rewrite !length_upd. exact Hl.
    + eapply st_ours; [exact Eg|]. exact S'.
    + intros j pj gj Hj Hgj h2 H2. destruct (Nat.eq_dec i j) as [<-|Hn].
      { rewrite nth_upd_same in Hj by (rewrite <- Hl; exact Hi). rewrite nth_upd_same in Hgj by exact Hi.
        injection Hj as <-. injection Hgj as <-. apply C2. exact H2. }
      rewrite nth_upd in Hj by auto. rewrite nth_upd in Hgj by auto.
      apply (K j pj gj Hj Hgj). eapply rely_trans; [|exact H2].
      destruct (incl_without i j gs gj Hgj Hn) as [HL HR].
      eapply rely_incl; [exact HL| |exact Rl]. intros y Hy.
      apply in_app_or in Hy as [Hy|Hy]; apply in_or_app; auto.
Qed.
Lemma pool_fail ps gs h i : pool_ok ps gs h -> nth_error ps i <> Some Fail.
Proof.
  intros [Hl S K] Hp.
  assert (Hi : i < length gs) by (rewrite Hl; eapply nth_lt; exact Hp).
  destruct (nth_error gs i) as [g|] eqn:Eg; [|apply nth_error_None in Eg; lia].
  pose proof (K i _ g Hp Eg h (rely_refl _ _ _)) as C. cbn in C.
  eapply (C (Ls (without i gs)) (G ++ Rs (without i gs))); [apply incl_appl, incl_refl|]. now apply st_mine.
Qed.
Lemma pool_step ps gs h i p : pool_ok ps gs h -> nth_error ps i = Some p ->
  exists p' gs' h', tstep p h = Ok (p', h') /\ pool_ok (update_at i p' ps) gs' h' /\ rely [] G h h'.
Proof.
  intros P Hp.
  assert (Hi : i < length gs) by (rewrite (p_len _ _ _ P); eapply nth_lt; exact Hp).
  destruct (nth_error gs i) as [g|] eqn:Eg; [|apply nth_error_None in Eg; lia].
  destruct p as [a| |D q k].
  - exists (Done a), gs, h. split; [reflexivity|]. rewrite (upd_same _ _ _ Hp). split; [exact P|apply rely_refl].
  - exfalso. exact (pool_fail _ _ _ _ P Hp).
  - destruct (pool_can _ _ _ _ _ _ _ _ P Hp Eg) as (_ & (x & h' & E) & C).
    destruct (C x h' (or_introl E)) as (L' & R' & _ & Rl & P').
    exists (k x), (update_at i (L', R') gs), h'. split; [cbn; unfold mbind; now rewrite E|]. split; [exact P'|].
    eapply rely_incl; [apply incl_nil_l|apply incl_appl, incl_refl|exact Rl].
Qed.

Lemma interleave_ok sched : forall ps gs h, pool_ok ps gs h ->
  exists ps' gs' h', interleave sched ps h = Ok (ps', h') /\ length ps' = length ps /\ pool_ok ps' gs' h' /\
    rely [] G h h'.
Proof.
  induction sched as [|i sched IH]; intros ps gs h P; cbn [interleave].
  - exists ps, gs, h. split; [reflexivity|]. split; [reflexivity|]. split; [exact P|apply rely_refl].
  - destruct (nth_error ps i) as [p|] eqn:Ep; [|now apply IH with (gs := gs)].
    destruct (pool_step _ _ _ _ _ P Ep) as (p' & gs' & h' & E & P' & Rl).
    destruct (IH _ _ _ P') as (ps2 & gs2 & h2 & E2 & Hl & P2 & Rl2).
    exists ps2, gs2, h2. split; [|split; [now rewrite length_upd in Hl|split; [exact P2|eapply rely_trans; [exact Rl|exact Rl2]]]].
    unfold mbind. rewrite E. exact E2.
Qed.

(** No two threads are about to access the same block when one of them changes it. *)
Lemma pool_race ps gs h : pool_ok ps gs h -> ~ race ps.
Proof.
  intros [Hl S K] (i & j & C1 & C2 & q1 & k1 & q2 & k2 & a & Hij & Hi & Hj & E1 & E2 & Hw).
  assert (Li : i < length gs) by (rewrite Hl; eapply nth_lt; exact Hi).
  assert (Lj : j < length gs) by (rewrite Hl; eapply nth_lt; exact Hj).
  destruct (nth_error gs i) as [gi|] eqn:Egi; [|apply nth_error_None in Egi; lia].
  destruct (nth_error gs j) as [gj|] eqn:Egj; [|apply nth_error_None in Egj; lia].
  pose proof (K i _ gi Hi Egi h (rely_refl _ _ _)) as Ci. cbn in Ci.
  destruct (Ci (Ls (without i gs)) (G ++ Rs (without i gs))) as ((L1 & R1 & S1 & _ & A1 & _) & _).
  { apply incl_appl, incl_refl. }
  { now apply st_mine. }
  apply (st_ours gs i gi (L1, R1) h Egi) in S1.
  set (gs1 := update_at i (L1, R1) gs) in *.
  assert (Egi1 : nth_error gs1 i = Some (L1, R1)) by (apply nth_upd_same; exact Li).
  assert (Egj1 : nth_error gs1 j = Some gj) by (unfold gs1; rewrite nth_upd; auto).
  pose proof (K j _ gj Hj Egj h (rely_refl _ _ _)) as Cj. cbn in Cj.
  destruct (Cj (Ls (without j gs1)) (G ++ Rs (without j gs1))) as ((L2 & R2 & S2 & _ & A2 & _) & _).
  { apply incl_appl, incl_refl. }
  { now apply st_mine. }
  specialize (A1 a E1). rewrite Hw in A1. specialize (A2 a E2).
  destruct (incl_without j i gs1 _ Egi1) as [HL1 _]; [auto|].
  apply HL1 in A1.
  assert (Or : In a L2 \/ from (G ++ R2) h a) by (destruct (writes q2); auto).
  destruct Or as [H2|H2].
  - destruct S2 as (_ & _ & N). apply in_split in H2 as (x & y & ->). rewrite <- app_assoc in N. cbn in N.
    apply NoDup_remove_2 in N. apply N. rewrite !in_app_iff. auto.
  - assert (H2' : from (R2 ++ G ++ Rs (without j gs1)) h a).
    { eapply from_incl; [|exact H2]. intros y Hy. rewrite !in_app_iff in *. tauto. }
    apply (st_from_out _ _ _ _ S2 H2'). apply in_or_app. now right.
Qed.
(** A thread that has ended. *)
Lemma pool_end ps gs h i a : pool_ok ps gs h -> nth_error ps i = Some (Done a) ->
  exists g, F i a (fst g) (snd g) h.
Proof.
  intros [Hl S K] Hp.
  assert (Hi : i < length gs) by (rewrite Hl; eapply nth_lt; exact Hp).
  destruct (nth_error gs i) as [g|] eqn:Eg; [|apply nth_error_None in Eg; lia].
  pose proof (K i _ g Hp Eg h (rely_refl _ _ _)) as C. cbn in C.
  destruct (C (Ls (without i gs)) (G ++ Rs (without i gs))) as (L' & R' & S' & _ & H).
  - apply incl_appl, incl_refl.
  - now apply st_mine.
  - now exists (L', R').
Qed.

(** All threads have ended: what is left is what they end in. *)
Lemma pool_all ps gs h (outs : list A) : pool_ok ps gs h -> ps = map Done outs ->
  exists gs', length gs' = length outs /\ st (Ls gs') h (G ++ Rs gs') /\
    forall i a g, nth_error outs i = Some a -> nth_error gs' i = Some g -> F i a (fst g) (snd g) h.
Proof.
  intros P E. subst ps. destruct P as [Hl S K]. rewrite map_length in Hl.
  assert (X : forall n, n <= length outs -> exists gs', length gs' = length outs /\ st (Ls gs') h (G ++ Rs gs') /\
    (forall i a g, i < n -> nth_error outs i = Some a -> nth_error gs' i = Some g -> F i a (fst g) (snd g) h) /\
    (forall i, n <= i -> nth_error gs' i = nth_error gs i)).
  { induction n as [|n IH]; intros Hn.
    - exists gs. split; [exact Hl|]. split; [exact S|]. split; [intros; lia|auto].
    - destruct IH as (gs1 & Hl1 & S1 & H1 & H2); [lia|].
      destruct (nth_error outs n) as [a|] eqn:Ea; [|apply nth_error_None in Ea; lia].
      destruct (nth_error gs1 n) as [g|] eqn:Eg; [|apply nth_error_None in Eg; lia].
      assert (Eg0 : nth_error gs n = Some g) by (rewrite <- H2; [exact Eg|lia]).
      assert (Ep : nth_error (map (@Done B A) outs) n = Some (Done a)) by now rewrite nth_error_map, Ea.
      pose proof (K n _ g Ep Eg0 h (rely_refl _ _ _)) as C. cbn in C.
      destruct (C (Ls (without n gs1)) (G ++ Rs (without n gs1))) as (L' & R' & S' & _ & H).
      + apply incl_appl, incl_refl.
      + now apply st_mine.
      + exists (update_at n (L', R') gs1). split; [now rewrite length_upd|]. split; [|split].
        * eapply st_ours; [exact Eg|]. exact S'.
        * intros i b gi Hi Hb Hg. destruct (Nat.eq_dec i n) as [->|Hne].
          { rewrite nth_upd_same in Hg by (rewrite Hl1; lia). injection Hg as <-.
            rewrite Ea in Hb. injection Hb as <-. exact H. }
          rewrite nth_upd in Hg by auto. eapply H1; [lia|exact Hb|exact Hg].
        * intros i Hi. rewrite nth_upd by lia. apply H2. lia. }
  destruct (X (length outs) (le_n _)) as (gs' & H1 & H2 & H3 & _). exists gs'. split; [exact H1|]. split; [exact H2|].
  intros i a g Ha Hg. eapply H3; [|exact Ha|exact Hg]. eapply nth_lt; exact Ha.
Qed.

(** A thread that gets its turn again and again ends, whatever the others do. *)
Lemma pool_finish (f : nat -> nat) i : (forall n, exists m, n <= m /\ f m = i) ->
  forall p n ps gs h, pool_ok ps gs h -> nth_error ps i = Some p ->
  exists k ps' h' a, interleave (map f (seq n k)) ps h = Ok (ps', h') /\ nth_error ps' i = Some (Done a).
Proof.
  intros Hf p. induction p as [a| |C q k IH]; intros n ps gs h P Hp.
  - exists 0, ps, h, a. now split.
  - destruct (pool_step _ _ _ _ _ P Hp) as (p' & gs' & h' & E & _). discriminate.
  - destruct (Hf n) as (m & Hm & Em). remember (m - n) as d eqn:Ed.
    revert n ps gs h P Hp Hm Ed. induction d as [|d IHd]; intros n ps gs h P Hp Hm Ed.
    + assert (m = n) as -> by lia.
      destruct (pool_step _ _ _ _ _ P Hp) as (p' & gs' & h1 & E & P1 & _).
      assert (exists x, p' = k x) as (x & ->).
      { cbn in E. unfold mbind in E. destruct (exec q h) as [[x h2]|]; [|discriminate].
        exists x. cbn in E. now injection E. }
      destruct (IH x (S n) _ _ _ P1) as (j & ps' & h' & a & E' & Hd).
      { apply nth_upd_same. eapply nth_lt. exact Hp. }
      exists (S j), ps', h', a. split; [|exact Hd]. cbn [seq map interleave]. rewrite Em, Hp.
      unfold mbind. rewrite E. exact E'.
    + destruct (Nat.eq_dec (f n) i) as [Ei|Ei].
      { (* an earlier turn *)
        destruct (pool_step _ _ _ _ _ P Hp) as (p' & gs' & h1 & E & P1 & _).
        assert (exists x, p' = k x) as (x & ->).
        { cbn in E. unfold mbind in E. destruct (exec q h) as [[x h2]|]; [|discriminate].
          exists x. cbn in E. now injection E. }
        destruct (IH x (S n) _ _ _ P1) as (j & ps' & h' & a & E' & Hd).
        { apply nth_upd_same. eapply nth_lt. exact Hp. }
        exists (S j), ps', h', a. split; [|exact Hd]. cbn [seq map interleave]. rewrite Ei, Hp.
        unfold mbind. rewrite E. exact E'. }
      destruct (nth_error ps (f n)) as [r|] eqn:Er.
      * destruct (pool_step _ _ _ _ _ P Er) as (p' & gs' & h1 & E & P1 & _).
        destruct (IHd (S n) _ _ _ P1) as (j & ps' & h' & a & E' & Hd); [|lia|lia|].
        { rewrite nth_upd by auto. exact Hp. }
        exists (S j), ps', h', a. split; [|exact Hd]. cbn [seq map interleave]. rewrite Er.
        unfold mbind. rewrite E. exact E'.
      * destruct (IHd (S n) _ _ _ P Hp) as (j & ps' & h' & a & E' & Hd); [lia|lia|].
        exists (S j), ps', h', a. split; [|exact Hd]. cbn [seq map interleave]. rewrite Er. exact E'.
Qed.
End Pool.
