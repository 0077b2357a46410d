(** Invariant of the composed heaps. *)
From Coq Require Import List Arith NArith Bool Lia Permutation.
From Verif Require Import Common HeapSpec Heaps.
Import ListNotations.
Set Default Goal Selector "!".
Open Scope N_scope.

(** *** Pairwise relations under permutation *)
Section Pairwise.
Context {A : Type} (R : A -> A -> Prop) (Rs : forall x y, R x y -> R y x).
Fixpoint pairwise (l : list A) : Prop :=
  match l with [] => True | x :: l' => Forall (R x) l' /\ pairwise l' end.
Lemma pairwise_perm l l' : Permutation l l' -> pairwise l -> pairwise l'.
Proof.
  induction 1 as [|x l l' P IH|x y l|l l' l'' P1 IH1 P2 IH2]; cbn; auto.
  - intros [H1 H2]. split; auto. now rewrite <- P.
  - intros (H1 & H2 & H3). inversion H1; subst. repeat split; auto.
Qed.
End Pairwise.

Definition bdisj (x y : nat * N * N) : Prop :=
  apart_from (snd (fst x)) (N.max 1 (snd x)) (snd (fst y)) (N.max 1 (snd y)).
Lemma bdisj_sym x y : bdisj x y -> bdisj y x.
Proof. unfold bdisj, apart_from. tauto. Qed.
Lemma overlap_false p n q m : overlap p n q m = false <-> apart_from p n q m.
Proof.
  unfold overlap, apart_from.
  destruct (N.ltb_spec p (q + m)), (N.ltb_spec q (p + n)); cbn; intuition (try discriminate); lia.
Qed.

Lemma take_block_perm x l : forall l', take_block x l = Some l' -> Permutation l (x :: l').
Proof.
  induction l as [|y l IH]; cbn; intros l' H; [discriminate|].
  destruct (block_eqb x y) eqn:E.
  - injection H as <-. destruct x as [[i a] n], y as [[j b] m]. cbn in E.
    apply andb_prop in E. destruct E as [E E3]. apply andb_prop in E. destruct E as [E1 E2].
    apply Nat.eqb_eq in E1. apply N.eqb_eq in E2. apply N.eqb_eq in E3. now subst.
  - destruct (take_block x l) as [l1|]; [|discriminate]. injection H as <-.
    rewrite (IH _ eq_refl). apply perm_swap.
Qed.
Lemma take_block_in x l : In x l -> exists l', take_block x l = Some l'.
Proof.
  induction l as [|y l IH]; cbn; intros H; [easy|].
  destruct (block_eqb x y) eqn:E; [eauto|].
  destruct H as [->|H].
  - exfalso. destruct x as [[i a] n]. cbn in E. now rewrite Nat.eqb_refl, !N.eqb_refl in E.
  - destruct (IH H) as (l' & ->). cbn. eauto.
Qed.

Section Proofs.
Variables word extra : N.
Hypothesis word_pos : 0 < word.
Hypothesis word_extra : word <= extra.
Notation allocate := (allocate word extra).
Notation deallocate := (deallocate word extra).
Notation store := (store word).
Notation construct := (construct word).
Notation clear_loop := (clear_loop word extra).
Notation clear := (clear word extra).
Notation hstep := (hstep word extra).
Notation hrun := (hrun word extra).

(** The sizes a heap type can be asked for. *)
Fixpoint accepts (h : heapx) (sz : N) : Prop :=
  match h with
  | Parent _ => True
  | Identity h' => accepts h' sz
  | DebugSize h' => accepts h' (sz + extra)
  | WithData k h' => accepts h' (sz + k)
  | Split size x y => if sz <=? size then accepts x sz else accepts y sz
  | FreeList _ size limit h' =>
      word <= sz /\ sz <= word + size /\ limit < 2 ^ 64 /\ accepts h' (size + word)
  end.
(** Where the block is in the parent's block, and that block. *)
Fixpoint off (h : heapx) (sz : N) : N :=
  match h with
  | Parent _ => 0
  | Identity h' => off h' sz
  | DebugSize h' => off h' (sz + extra) + extra
  | WithData k h' => off h' (sz + k) + k
  | Split size x y => if sz <=? size then off x sz else off y sz
  | FreeList _ size _ h' => off h' (size + word)
  end.
Fixpoint under (h : heapx) (sz p : N) : nat * N * N :=
  match h with
  | Parent i => (i, p, sz)
  | Identity h' => under h' sz p
  | DebugSize h' => under h' (sz + extra) (p - extra)
  | WithData k h' => under h' (sz + k) (p - k)
  | Split size x y => if sz <=? size then under x sz p else under y sz p
  | FreeList _ size _ h' => under h' (size + word) p
  end.
(** The words the adaptors rely on. *)
Fixpoint marks (h : heapx) (sz p : N) : list (N * N) :=
  match h with
  | Parent _ => []
  | Identity h' => marks h' sz p
  | DebugSize h' => (p - extra, sz) :: marks h' (sz + extra) (p - extra)
  | WithData k h' => marks h' (sz + k) (p - k)
  | Split size x y => if sz <=? size then marks x sz p else marks y sz p
  | FreeList _ size _ h' => marks h' (size + word) p
  end.

Lemma under_spec h : forall sz p, accepts h sz -> off h sz < p ->
  0 < snd (fst (under h sz p)) /\ snd (fst (under h sz p)) <= p /\
  p + sz <= snd (fst (under h sz p)) + snd (under h sz p).
Proof.
  induction h as [i|h IH|h IH|k h IH|size x IHx y IHy|k size limit h IH]; cbn; intros sz p A O.
  - lia.
  - auto.
  - destruct (IH (sz + extra) (p - extra) A ltac:(lia)). lia.
  - destruct (IH (sz + k) (p - k) A ltac:(lia)). lia.
  - destruct (sz <=? size); auto.
  - destruct A as (A1 & A2 & A3 & A4). destruct (IH (size + word) p A4 ltac:(lia)). lia.
Qed.
Lemma marks_spec h : forall sz p x v, accepts h sz -> off h sz < p -> In (x, v) (marks h sz p) ->
  snd (fst (under h sz p)) <= x /\ x + word <= p.
Proof.
  induction h as [i|h IH|h IH|k h IH|size y IHy z IHz|k size limit h IH]; cbn; intros sz p x v A O H.
  - easy.
  - eauto.
  - destruct (under_spec h (sz + extra) (p - extra) A ltac:(lia)) as (U1 & U2 & U3).
    destruct H as [H|H].
    + injection H as <- <-. lia.
    + destruct (IH (sz + extra) (p - extra) x v A ltac:(lia) H). lia.
  - destruct (under_spec h (sz + k) (p - k) A ltac:(lia)) as (U1 & U2 & U3).
    destruct (IH (sz + k) (p - k) x v A ltac:(lia) H). lia.
  - destruct (sz <=? size); eauto.
  - destruct A as (A1 & A2 & A3 & A4). destruct (IH (size + word) p x v A4 ltac:(lia) H). lia.
Qed.

(** *** The invariant *)
Definition hold : Type := heapx * N * N.
Definition und (x : hold) : nat * N * N := let '(h, sz, p) := x in under h sz p.
Definition hok (m : N -> N) (x : hold) : Prop :=
  let '(h, sz, p) := x in
  accepts h sz /\ off h sz < p /\ Forall (fun q => m (fst q) = snd q) (marks h sz p).

Notation ky := (heapx * nat)%type.
(** The blocks in a free list, as blocks of the heap below it. *)
Definition listed1 (x : ky * list N) : list hold :=
  match fst (fst x) with
  | FreeList _ size _ h => map (fun p => (h, size + word, p)) (snd x)
  | _ => []
  end.
Definition listed (G : list (ky * list N)) : list hold := flat_map listed1 G.
Fixpoint gl (G : list (ky * list N)) (k : ky) : list N :=
  match G with
  | [] => []
  | (k', ps) :: G' => if key_eq_dec k k' then ps else gl G' k
  end.
Fixpoint chain (m : N -> N) (d : N) (ps : list N) : Prop :=
  match ps with
  | [] => d = 0
  | p :: ps' => d = p /\ chain m (m p) ps'
  end.
Definition head_ok (m : N -> N) (k : ky) (v : N * N) (ps : list N) : Prop :=
  chain m (fst v) ps /\ snd v = N.of_nat (length ps) /\
  (ps <> [] -> exists kd size limit h, fst k = FreeList kd size limit h /\
     N.of_nat (length ps) <= limit /\ limit < 2 ^ 64).
Record inv (bs : list (nat * N * N)) (m : N -> N) (hd : ky -> N * N) (G : list (ky * list N))
  (H : list hold) : Prop := mkInv
  { i_perm : Permutation bs (map und (H ++ listed G));
    i_disj : pairwise bdisj bs;
    i_hold : Forall (hok m) (H ++ listed G);
    i_heads : forall k, head_ok m k (hd k) (gl G k);
    i_keys : NoDup (map fst G) }.

Lemma inv_perm bs m hd G H H' : inv bs m hd G H -> Permutation H H' -> inv bs m hd G H'.
Proof.
  intros [I1 I2 I3 I4 I5] P. constructor; auto.
  - rewrite I1. apply Permutation_map. now apply Permutation_app_tail.
  - now rewrite <- P.
Qed.
(** A block seen at another level. *)
Lemma inv_conv bs m hd G x y H : inv bs m hd G (x :: H) -> und y = und x -> hok m y ->
  inv bs m hd G (y :: H).
Proof.
  intros [I1 I2 I3 I4 I5] E K. constructor; auto.
  - cbn. rewrite E. exact I1.
  - cbn in *. inversion I3; subst. now constructor.
Qed.

Definition same_outside (m m' : N -> N) (p n : N) : Prop :=
  forall x, apart_from x word p n -> m' x = m x.
Definition same_in (m m' : N -> N) (x : hold) : Prop :=
  let '(h, sz, p) := x in forall q, p <= q -> q + word <= p + sz -> m' q = m q.

Lemma far_hold x y z : bdisj (und x) (und y) ->
  (exists m, hok m x) -> (exists m, hok m y) ->
  snd (fst (und y)) <= z -> z + word <= snd (fst (und y)) + snd (und y) ->
  apart_from z word (snd x) (snd (fst x)).
Proof.
  destruct x as [[h sz] p], y as [[h' sz'] p']. cbn -[under]. intros D (m & X1 & X2 & _) (m' & Y1 & Y2 & _) Z1 Z2.
  destruct (under_spec h sz p X1 X2) as (U1 & U2 & U3).
  unfold bdisj, apart_from in *. lia.
Qed.
Lemma inv_disj bs m hd G x H : inv bs m hd G (x :: H) ->
  Forall (fun y => bdisj (und x) (und y)) (H ++ listed G).
Proof.
  intros [I1 I2 _ _ _]. apply (pairwise_perm _ bdisj_sym _ _ I1) in I2. cbn in I2.
  destruct I2 as [I2 _]. now rewrite Forall_map in I2.
Qed.

(** Writing inside a block that is held changes nothing else. *)
Lemma inv_write bs m m' hd G h sz p H : inv bs m hd G ((h, sz, p) :: H) -> same_outside m m' p sz ->
  inv bs m' hd G ((h, sz, p) :: H) /\ Forall (same_in m m') H.
Proof.
  intros I S. pose proof (inv_disj _ _ _ _ _ _ I) as D. destruct I as [I1 I2 I3 I4 I5].
  cbn in I3. inversion I3 as [|? ? K Ks]; subst. destruct K as (K1 & K2 & K3).
  assert (Far : forall y z, In y (H ++ listed G) ->
     snd (fst (und y)) <= z -> z + word <= snd (fst (und y)) + snd (und y) -> m' z = m z).
  { intros y z Hy Z1 Z2. apply S. rewrite Forall_forall in D, Ks.
    apply (far_hold (h, sz, p) y z); auto.
    - exists m. cbn. auto.
    - exists m. auto. }
  split.
  - constructor; auto.
    + cbn. constructor.
      * cbn. do 2 (split; [assumption|]). rewrite Forall_forall in K3 |- *. intros [x v] Hx.
        rewrite <- (K3 _ Hx). cbn. apply S. left.
        destruct (marks_spec h sz p x v K1 K2 Hx). lia.
      * rewrite Forall_forall in Ks |- *. intros y Hy. specialize (Ks y Hy).
        destruct y as [[h' sz'] p']. cbn in Ks |- *. destruct Ks as (Y1 & Y2 & Y3).
        do 2 (split; [assumption|]). rewrite Forall_forall in Y3 |- *. intros [x v] Hx.
        rewrite <- (Y3 _ Hx). cbn. apply (Far _ x Hy); cbn -[under];
          destruct (marks_spec h' sz' p' x v Y1 Y2 Hx), (under_spec h' sz' p' Y1 Y2) as (? & ? & ?); lia.
    + intros k. destruct (I4 k) as (C1 & C2 & C3). split; [|auto].
      assert (Hin : forall q, In q (gl G k) -> m' q = m q).
      { intros q Hq. destruct (C3 ltac:(intros E; rewrite E in Hq; easy)) as (kd & size & limit & b & Ek & _ & _).
        assert (Hl : In (b, size + word, q) (listed G)).
        { apply in_flat_map. clear - Hq Ek. induction G as [|[k' ps] G IH]; cbn in *; [easy|].
          destruct (key_eq_dec k k') as [<-|].
          - exists (k, ps). split; [now left|]. unfold listed1. cbn [fst snd]. rewrite Ek.
            apply in_map_iff. eauto.
          - destruct (IH Hq) as (x & X1 & X2). eauto. }
        apply (Far (b, size + word, q)).
        - apply in_or_app. now right.
        - cbn -[under]. rewrite Forall_forall in Ks.
          destruct (Ks (b, size + word, q)) as (Y1 & Y2 & _); [apply in_or_app; now right|].
          destruct (under_spec b (size + word) q Y1 Y2). lia.
        - cbn -[under]. rewrite Forall_forall in Ks.
          destruct (Ks (b, size + word, q)) as (Y1 & Y2 & _); [apply in_or_app; now right|].
          destruct (under_spec b (size + word) q Y1 Y2). lia. }
      clear C2 C3. revert C1 Hin. generalize (fst (hd k)). induction (gl G k) as [|q qs IH]; cbn; auto.
      intros d [-> Hc] Hin. split; [reflexivity|]. rewrite Hin by auto. apply IH; auto.
  - rewrite Forall_forall in Ks |- *. intros [[h' sz'] p'] Hy q Q1 Q2.
    assert (Hy' : In (h', sz', p') (H ++ listed G)) by (apply in_or_app; now left).
    destruct (Ks _ Hy') as (Y1 & Y2 & _). destruct (under_spec h' sz' p' Y1 Y2) as (U1 & U2 & U3).
    apply (Far _ q Hy'); cbn -[under]; lia.
Qed.

Lemma same_in_trans m1 m2 m3 H : Forall (same_in m1 m2) H -> Forall (same_in m2 m3) H ->
  Forall (same_in m1 m3) H.
Proof.
  rewrite !Forall_forall. intros A B [[h sz] p] Hx q Q1 Q2.
  rewrite (B _ Hx q Q1 Q2). exact (A _ Hx q Q1 Q2).
Qed.
Lemma same_in_refl m H : Forall (same_in m m) H.
Proof. rewrite Forall_forall. intros [[h sz] p] _ q _ _. reflexivity. Qed.

(** *** Changing one free list *)
Fixpoint gput (G : list (ky * list N)) (k : ky) (ps : list N) : list (ky * list N) :=
  match G with
  | [] => [(k, ps)]
  | (k', ps') :: G' => if key_eq_dec k k' then (k, ps) :: G' else (k', ps') :: gput G' k ps
  end.
Lemma gl_gput G k ps k' : gl (gput G k ps) k' = if key_eq_dec k' k then ps else gl G k'.
Proof.
  induction G as [|[k1 ps1] G IH]; cbn.
  - now destruct (key_eq_dec k' k).
  - destruct (key_eq_dec k k1) as [<-|]; cbn.
    + destruct (key_eq_dec k' k); reflexivity.
    + destruct (key_eq_dec k' k1) as [->|]; [|exact IH].
      destruct (key_eq_dec k1 k); [congruence|reflexivity].
Qed.
Lemma gl_in G (k : ky) : gl G k <> [] -> In (k, gl G k) G.
Proof.
  induction G as [|[k1 ps1] G IH]; cbn [gl]; [easy|]. intros H.
  destruct (key_eq_dec k k1) as [E|]; [left; now rewrite E|right; auto].
Qed.
Lemma gput_keys G k ps x : In x (map fst (gput G k ps)) -> x = k \/ In x (map fst G).
Proof.
  induction G as [|[k1 ps1] G IH]; cbn; [intuition|].
  destruct (key_eq_dec k k1) as [<-|]; cbn; intuition.
Qed.
Lemma gput_nodup G k ps : NoDup (map fst G) -> NoDup (map fst (gput G k ps)).
Proof.
  induction G as [|[k1 ps1] G IH]; cbn; intros H.
  - constructor; [easy|constructor].
  - inversion H; subst. destruct (key_eq_dec k k1) as [<-|]; cbn; constructor; auto.
    intros X. apply gput_keys in X. destruct X; [congruence|auto].
Qed.
Lemma gput_listed G k ps :
  Permutation (listed1 (k, gl G k) ++ listed (gput G k ps)) (listed1 (k, ps) ++ listed G).
Proof.
  induction G as [|[k1 ps1] G IH]; cbn.
  - unfold listed1 at 1. cbn. destruct (fst k); reflexivity.
  - destruct (key_eq_dec k k1) as [<-|]; cbn.
    + rewrite !app_assoc. apply Permutation_app_tail. apply Permutation_app_comm.
    + rewrite Permutation_app_swap_app, IH. apply Permutation_app_swap_app.
Qed.

(** Taking the first block of a list, or putting one. *)
Lemma inv_pop bs m hd G H kd size limit b t n ps c : let k := (FreeList kd size limit b, t) in
  inv bs m hd G H -> hd k = (n, c) -> n <> 0 -> gl G k = n :: ps ->
  inv bs m (put_head hd k (m n, c - 1)) (gput G k ps) ((b, size + word, n) :: H).
Proof.
  intros k [I1 I2 I3 I4 I5] Ek Hn El.
  assert (P : Permutation (H ++ listed G) ((b, size + word, n) :: H ++ listed (gput G k ps))).
  { pose proof (gput_listed G k ps) as P. rewrite El in P.
    change (listed1 (k, n :: ps)) with ((b, size + word, n) :: listed1 (k, ps)) in P. cbn [app] in P.
    rewrite Permutation_middle. apply Permutation_app_head.
    apply (Permutation_app_inv_l (listed1 (k, ps))). rewrite <- P. apply Permutation_middle. }
  constructor.
  - rewrite I1. now apply Permutation_map.
  - assumption.
  - cbn. rewrite <- P. exact I3.
  - intros k'. rewrite gl_gput. unfold put_head. destruct (key_eq_dec k' k) as [->|]; [|apply I4].
    destruct (I4 k) as (C1 & C2 & C3). rewrite Ek, El in *. cbn in C1, C2. destruct C1 as [_ C1].
    split; [exact C1|]. split; [cbn [snd]; cbn [length] in C2; lia|].
    intros _. destruct (C3 ltac:(easy)) as (? & ? & ? & ? & E & Hl & Hm).
    cbn [length] in Hl. do 4 eexists. split; [exact E|lia].
  - now apply gput_nodup.
Qed.
Lemma inv_push bs m hd G H kd size limit b t n c p : let k := (FreeList kd size limit b, t) in
  inv bs m hd G ((b, size + word, p) :: H) -> hd k = (n, c) -> m p = n -> c < limit -> limit < 2 ^ 64 ->
  inv bs m (put_head hd k (p, c + 1)) (gput G k (p :: gl G k)) H.
Proof.
  intros k [I1 I2 I3 I4 I5] Ek Hn Hc Hm.
  assert (P : Permutation ((b, size + word, p) :: H ++ listed G) (H ++ listed (gput G k (p :: gl G k)))).
  { pose proof (gput_listed G k (p :: gl G k)) as P.
    change (listed1 (k, p :: gl G k)) with ((b, size + word, p) :: listed1 (k, gl G k)) in P.
    rewrite Permutation_middle. apply Permutation_app_head.
    apply (Permutation_app_inv_l (listed1 (k, gl G k))). rewrite P. cbn. symmetry.
    apply Permutation_middle. }
  constructor.
  - rewrite I1. cbn [app map] in *. now rewrite <- (Permutation_map und P).
  - assumption.
  - rewrite <- P. exact I3.
  - intros k'. rewrite gl_gput. unfold put_head. destruct (key_eq_dec k' k) as [->|]; [|apply I4].
    destruct (I4 k) as (C1 & C2 & C3). rewrite Ek in *. cbn [fst snd] in C1, C2.
    split; [cbn; rewrite Hn; auto|]. cbn [fst snd length]. split; [lia|].
    intros _. exists kd, size, limit, b. split; [reflexivity|lia].
  - now apply gput_nodup.
Qed.

(** *** allocate and deallocate *)
(** The free lists a heap type uses. *)
Fixpoint uses (h x : heapx) : Prop :=
  match h with
  | Parent _ => False
  | Identity h' | DebugSize h' | WithData _ h' => uses h' x
  | Split _ a b => uses a x \/ uses b x
  | FreeList _ _ _ h' => x = h \/ uses h' x
  end.
Fixpoint hsize (h : heapx) : nat :=
  match h with
  | Parent _ => 1
  | Identity h' | DebugSize h' | WithData _ h' | FreeList _ _ _ h' => S (hsize h')
  | Split _ a b => S (hsize a + hsize b)
  end.
Lemma uses_size h : forall x, uses h x -> (hsize x <= hsize h)%nat.
Proof.
  induction h as [i|h IH|h IH|k h IH|size y IHy z IHz|k size limit h IH]; cbn; intros x U;
    try (specialize (IH _ U); lia); try easy.
  - destruct U as [U|U]; [specialize (IHy _ U)|specialize (IHz _ U)]; lia.
  - destruct U as [->|U]; [cbn; lia|]. specialize (IH _ U). lia.
Qed.
Lemma uses_dec h x : uses h x \/ ~ uses h x.
Proof.
  induction h as [i|h IH|h IH|k h IH|size y IHy z IHz|k size limit h IH]; cbn; try tauto.
  destruct (heapx_eq_dec x (FreeList k size limit h)); tauto.
Qed.
Lemma key_fst k h t : fst (key k h t) = h.
Proof. now destruct k. Qed.
Lemma key_pair k h t : exists t', key k h t = (h, t').
Proof. destruct k; cbn; eauto. Qed.

Lemma store_same m p v : store m p v p = v.
Proof. unfold store. now rewrite N.eqb_refl. Qed.
Lemma store_outside m p v n : word <= n -> same_outside m (store m p v) p n.
Proof.
  intros Hn x Hx. unfold store. unfold apart_from in Hx.
  destruct (N.eqb_spec x p); [lia|]. rewrite (proj2 (overlap_false x word p word)); [reflexivity|].
  unfold apart_from. lia.
Qed.
Lemma construct_outside m p k n : k <= n -> same_outside m (construct m p k) p n.
Proof.
  intros Hn x Hx. unfold construct. unfold apart_from in Hx.
  rewrite (proj2 (overlap_false x word p k)); [reflexivity|]. unfold apart_from. lia.
Qed.

Definition log_ok (s : mstate) : Prop := matched [] (calls s) (blocks s).
Lemma matched_got out h out' i a n : matched out h out' ->
  matched out (h ++ [PGot i a n]) ((i, a, n) :: out').
Proof.
  induction 1; cbn.
  - constructor. constructor.
  - constructor. assumption.
  - econstructor; eassumption.
Qed.
Lemma matched_gave out h out' i a n out1 : matched out h out' ->
  Permutation out' ((i, a, n) :: out1) -> matched out (h ++ [PGave i a n]) out1.
Proof.
  induction 1; cbn; intros P.
  - econstructor; [exact P|]. constructor.
  - constructor. auto.
  - econstructor; eauto.
Qed.

Lemma allocate_ok h : forall t a sz s G H, inv (blocks s) (mem s) (heads s) G H -> log_ok s ->
  accepts h sz ->
  allocate h t a sz s = Ok None \/
  exists s' p G', allocate h t a sz s = Ok (Some (s', p)) /\
    inv (blocks s') (mem s') (heads s') G' ((h, sz, p) :: H) /\ log_ok s' /\
    Forall (same_in (mem s) (mem s')) H.
Proof.
  induction h as [i|h IH|h IH|k h IH|size y IHy z IHz|k size limit h IH];
    intros t a sz s G H I L A; cbn [Heaps.allocate].
  - destruct (N.eqb_spec a 0) as [|Ha]; [now left|]. cbn [orb].
    destruct (existsb _ (blocks s)) eqn:E; [now left|]. right.
    eexists _, a, G. split; [reflexivity|]. cbn [blocks mem heads calls].
    split; [|split; [now apply matched_got|apply same_in_refl]].
    destruct I as [I1 I2 I3 I4 I5]. constructor; auto.
    + cbn. now rewrite I1.
    + cbn [pairwise]. split; [|assumption]. rewrite Forall_forall. intros b Hb.
      destruct (overlap a (N.max 1 sz) (snd (fst b)) (N.max 1 (snd b))) eqn:Eo.
      * rewrite (proj2 (existsb_exists _ _)) in E; [discriminate|]. eauto.
      * now apply overlap_false in Eo.
    + cbn. constructor; auto. cbn. repeat split; auto. lia.
  - destruct (IH t a sz s G H I L A) as [E|(s' & p & G' & E & I' & L' & S)]; [now left|right].
    exists s', p, G'. split; [exact E|]. split; [|auto].
    apply inv_conv with (x := (h, sz, p)); auto. destruct I' as [_ _ I' _ _].
    cbn in I'. now inversion I'.
  - destruct (IH t a (sz + extra) s G H I L A) as [E|(s' & p & G' & E & I' & L' & S)];
      rewrite E; cbn [rbind]; [now left|right].
    eexists _, _, G'. split; [reflexivity|]. cbn [set_mem blocks mem heads].
    destruct (inv_write _ _ (store (mem s') p sz) _ _ _ _ _ _ I') as [I2 S2].
    { apply store_outside. lia. }
    split; [|split; [exact L'|exact (same_in_trans _ _ _ _ S S2)]].
    apply inv_conv with (x := (h, sz + extra, p)); auto.
    + cbn. now rewrite N.add_sub.
    + destruct I2 as [_ _ I2 _ _]. cbn in I2. inversion I2 as [|? ? K _]; subst.
      destruct K as (K1 & K2 & K3). cbn. rewrite N.add_sub.
      split; [assumption|]. split; [lia|]. constructor; [apply store_same|assumption].
  - destruct (IH t a (sz + k) s G H I L A) as [E|(s' & p & G' & E & I' & L' & S)];
      rewrite E; cbn [rbind]; [now left|right].
    eexists _, _, G'. split; [reflexivity|]. cbn [set_mem blocks mem heads].
    destruct (inv_write _ _ (construct (mem s') p k) _ _ _ _ _ _ I') as [I2 S2].
    { apply construct_outside. lia. }
    split; [|split; [exact L'|exact (same_in_trans _ _ _ _ S S2)]].
    apply inv_conv with (x := (h, sz + k, p)); auto.
    + cbn. now rewrite N.add_sub.
    + destruct I2 as [_ _ I2 _ _]. cbn in I2. inversion I2 as [|? ? K _]; subst.
      destruct K as (K1 & K2 & K3). cbn. rewrite N.add_sub.
      split; [assumption|]. split; [lia|assumption].
  - cbn in A. destruct (sz <=? size) eqn:Es.
    + destruct (IHy t a sz s G H I L A) as [E|(s' & p & G' & E & I' & L' & S)]; [now left|right].
      exists s', p, G'. split; [exact E|]. split; [|auto].
      apply inv_conv with (x := (y, sz, p)); auto; [cbn; now rewrite Es|].
      destruct I' as [_ _ I' _ _]. cbn in I' |- *. rewrite Es. now inversion I'.
    + destruct (IHz t a sz s G H I L A) as [E|(s' & p & G' & E & I' & L' & S)]; [now left|right].
      exists s', p, G'. split; [exact E|]. split; [|auto].
      apply inv_conv with (x := (z, sz, p)); auto; [cbn; now rewrite Es|].
      destruct I' as [_ _ I' _ _]. cbn in I' |- *. rewrite Es. now inversion I'.
  - destruct A as (A1 & A2 & A3 & A4).
    rewrite (proj2 (N.leb_le _ _) A1), (proj2 (N.leb_le _ _) A2). cbn [andb].
    destruct (key_pair k (FreeList k size limit h) t) as (t' & Ek).
    destruct (heads s (key k (FreeList k size limit h) t)) as [n c] eqn:Eh.
    assert (Conv : forall s' G' p, inv (blocks s') (mem s') (heads s') G' ((h, size + word, p) :: H) ->
       inv (blocks s') (mem s') (heads s') G' ((FreeList k size limit h, sz, p) :: H)).
    { intros s' G' p I'. apply inv_conv with (x := (h, size + word, p)); auto.
      destruct I' as [_ _ I' _ _]. cbn [app hok accepts off marks] in I' |- *. inversion I' as [|? ? K _]; subst. cbn [hok] in K. tauto. }
    destruct (N.eqb_spec n 0) as [Hn|Hn].
    + destruct (IH t a (size + word) s G H I L A4) as [E|(s' & p & G' & E & I' & L' & S)];
        [now left|right].
      exists s', p, G'. split; [exact E|]. split; [|auto]. apply Conv. exact I'.
    + right. rewrite Ek in *.
      destruct (i_heads _ _ _ _ _ I (FreeList k size limit h, t')) as (C1 & C2 & C3).
      rewrite Eh in *. cbn [fst snd] in *.
      destruct (gl G (FreeList k size limit h, t')) as [|x ps] eqn:El; [cbn in C1; congruence|].
      cbn in C1. destruct C1 as [<- C1]. cbn [length] in C2.
      eexists _, n, _. split; [reflexivity|].
      cbn [set_head blocks mem heads]. split; [|split; [exact L|apply same_in_refl]].
      pose proof (inv_pop _ _ _ _ _ k size limit h t' n ps c I Eh Hn El) as I'.
      apply (Conv (set_head s (FreeList k size limit h, t') (mem s n, szm (c + (2 ^ 64 - 1))))).
      cbn [set_head blocks mem heads].
      replace (szm (c + (2 ^ 64 - 1))) with (c - 1); [exact I'|].
      unfold szm. replace (c + (2 ^ 64 - 1)) with (c - 1 + 1 * 2 ^ 64) by lia.
      rewrite N.mod_add by discriminate. symmetry. apply N.mod_small.
      destruct (C3 ltac:(easy)) as (kd' & size' & limit' & b' & E' & Hl & Hm).
      injection E' as <- <- <- <-. cbn [length] in Hl. lia.
Qed.

(** [hd] is what the heads of the lists will be: when a list is being cleared, its own head is
    ahead of the variable. *)
Lemma deallocate_ok h : forall t sz p s hd G H,
  inv (blocks s) (mem s) hd G ((h, sz, p) :: H) -> log_ok s ->
  (forall x t', uses h x -> heads s (x, t') = hd (x, t')) ->
  exists s' hd' G', deallocate h t sz p s = Ok s' /\
    inv (blocks s') (mem s') hd' G' H /\ log_ok s' /\
    Forall (same_in (mem s) (mem s')) H /\
    (forall x t', uses h x -> heads s' (x, t') = hd' (x, t')) /\
    (forall x t', ~ uses h x -> heads s' (x, t') = heads s (x, t') /\ hd' (x, t') = hd (x, t') /\
       gl G' (x, t') = gl G (x, t')).
Proof.
  induction h as [i|h IH|h IH|k h IH|size y IHy z IHz|k size limit h IH];
    intros t sz p s hd G H I L U; cbn [Heaps.deallocate];
    pose proof (i_hold _ _ _ _ _ I) as K; cbn [app] in K; inversion K as [|? ? K0 _]; subst;
    destruct K0 as (K1 & K2 & K3); cbn [off marks accepts] in K1, K2, K3.
  - pose proof (i_perm _ _ _ _ _ I) as P. cbn in P.
    destruct (take_block_in (i, p, sz) (blocks s)) as (bs & E).
    { apply Permutation_sym in P. apply (Permutation_in _ P). now left. }
    rewrite E. apply take_block_perm in E.
    eexists _, hd, G. split; [reflexivity|]. cbn [blocks mem heads calls].
    split; [|split; [exact (matched_gave _ _ _ _ _ _ _ L E)|split; [apply same_in_refl|split; [auto|auto]]]].
    destruct I as [I1 I2 I3 I4 I5]. constructor; auto.
    + rewrite P in E. now apply Permutation_cons_inv in E.
    + apply (pairwise_perm _ bdisj_sym _ _ E) in I2. now destruct I2.
    + cbn in I3. now inversion I3.
  - apply inv_conv with (y := (h, sz, p)) in I; [|reflexivity|cbn; auto].
    destruct (IH t sz p s hd G H I L U) as (s' & hd' & G' & E & X). exists s', hd', G'. auto.
  - destruct (N.ltb_spec p extra); [lia|].
    inversion K3 as [|? ? K4 K5]; subst. cbn [fst snd] in K4. rewrite K4, N.eqb_refl.
    apply inv_conv with (y := (h, sz + extra, p - extra)) in I;
      [|reflexivity|cbn; split; [assumption|]; split; [lia|assumption]].
    destruct (IH t _ _ s hd G H I L U) as (s' & hd' & G' & E & X). exists s', hd', G'. auto.
  - destruct (N.ltb_spec p k); [lia|].
    apply inv_conv with (y := (h, sz + k, p - k)) in I;
      [|reflexivity|cbn; split; [assumption|]; split; [lia|assumption]].
    destruct (IH t _ _ s hd G H I L U) as (s' & hd' & G' & E & X). exists s', hd', G'. auto.
  - destruct (sz <=? size) eqn:Es.
    + apply inv_conv with (y := (y, sz, p)) in I; [|cbn; now rewrite Es|cbn; auto].
      destruct (IHy t sz p s hd G H I L ltac:(cbn in U; auto)) as (s' & hd' & G' & E & X1 & X2 & X3 & X4 & X5).
      exists s', hd', G'. do 4 (split; [assumption|]). cbn [uses] in *. split.
      * intros x t' [Hx|Hx]; [auto|].
        destruct (uses_dec y x) as [Hy|Hy]; [auto|].
        destruct (X5 x t' Hy) as (-> & -> & _). apply U. auto.
      * intros x t' Hx. apply X5. tauto.
    + apply inv_conv with (y := (z, sz, p)) in I; [|cbn; now rewrite Es|cbn; auto].
      destruct (IHz t sz p s hd G H I L ltac:(cbn in U; auto)) as (s' & hd' & G' & E & X1 & X2 & X3 & X4 & X5).
      exists s', hd', G'. do 4 (split; [assumption|]). cbn [uses] in *. split.
      * intros x t' [Hx|Hx]; [|auto].
        destruct (uses_dec z x) as [Hy|Hy]; [auto|].
        destruct (X5 x t' Hy) as (-> & -> & _). apply U. auto.
      * intros x t' Hx. apply X5. tauto.
  - destruct K1 as (A1 & A2 & A3 & A4).
    rewrite (proj2 (N.leb_le _ _) A1), (proj2 (N.leb_le _ _) A2). cbn [andb].
    destruct (key_pair k (FreeList k size limit h) t) as (t' & Ek). rewrite Ek.
    destruct (heads s (FreeList k size limit h, t')) as [n c] eqn:Eh.
    apply inv_conv with (y := (h, size + word, p)) in I; [|reflexivity|cbn; auto].
    destruct (N.leb_spec limit c) as [Hc|Hc].
    + destruct (IH t _ _ s hd G H I L ltac:(cbn in U; auto)) as (s' & hd' & G' & E & X1 & X2 & X3 & X4 & X5).
      exists s', hd', G'. do 4 (split; [assumption|]). cbn [uses] in *. split.
      * intros x t2 [Hx|Hx]; [|auto].
        destruct (X5 x t2) as (-> & -> & _).
        { intros Hu. apply uses_size in Hu. subst x. cbn in Hu. lia. }
        apply U. auto.
      * intros x t2 Hx. apply X5. tauto.
    + destruct (inv_write _ _ (store (mem s) p n) _ _ _ _ _ _ I) as [I2 S2].
      { apply store_outside. lia. }
      assert (Ehd : hd (FreeList k size limit h, t') = (n, c)).
      { rewrite <- U; [exact Eh|]. cbn. auto. }
      pose proof (inv_push _ _ _ _ _ k size limit h t' n c p I2 Ehd (store_same _ _ _) Hc A3) as I3.
      assert (Ec : szm (c + 1) = c + 1) by (unfold szm; apply N.mod_small; lia).
      rewrite Ec.
      eexists _, _, _. split; [reflexivity|]. cbn [set_head set_mem blocks mem heads].
      split; [exact I3|]. split; [exact L|]. split; [exact S2|]. unfold put_head. split.
      * intros x t2 Hx. destruct (key_eq_dec (x, t2) (FreeList k size limit h, t')); auto.
      * intros x t2 Hx. rewrite gl_gput.
        destruct (key_eq_dec (x, t2) (FreeList k size limit h, t')) as [E|]; auto.
        injection E as -> ->. exfalso. apply Hx. cbn. auto.
Qed.

Lemma inv_ext bs m hd hd' G H : inv bs m hd G H -> (forall k, hd' k = hd k) -> inv bs m hd' G H.
Proof. intros [I1 I2 I3 I4 I5] E. constructor; auto. intros k. rewrite E. apply I4. Qed.

(** The calls made to the heap below when a list is cleared. *)
Lemma clear_loop_ok kd size limit h t t' : let k := (FreeList kd size limit h, t') in
  forall ps fuel s G H, inv (blocks s) (mem s) (heads s) G H -> log_ok s ->
  gl G k = ps -> (length ps <= fuel)%nat ->
  exists s' G', clear_loop fuel k size h t s = Ok s' /\
    inv (blocks s') (mem s') (heads s') G' H /\ log_ok s' /\
    Forall (same_in (mem s) (mem s')) H /\ heads s' k = (0, 0) /\
    (forall i, h = Parent i ->
       calls s' = calls s ++ map (fun p => PGave i p (size + word)) ps).
Proof.
  intros k. induction ps as [|p ps IH]; intros fuel s G H I L Eg Hf;
    destruct (i_heads _ _ _ _ _ I k) as (C1 & C2 & C3); rewrite Eg in *;
    destruct (heads s k) as [d c] eqn:Eh; cbn [fst snd] in C1, C2.
  - cbn in C1. subst d.
    exists s, G. assert (E : clear_loop fuel k size h t s = Ok s).
    { destruct fuel; cbn [Heaps.clear_loop]; rewrite Eh; reflexivity. }
    split; [exact E|]. split; [assumption|]. split; [assumption|]. split; [apply same_in_refl|].
    split; [rewrite Eh; cbn in C2; now rewrite C2|]. intros i _. cbn. now rewrite app_nil_r.
  - cbn in C1. destruct C1 as [-> C1].
    assert (Hp : p <> 0).
    { pose proof (i_hold _ _ _ _ _ I) as K. rewrite Forall_forall in K.
      destruct (K (h, size + word, p)) as (_ & K2 & _); [|lia].
      apply in_or_app. right. apply in_flat_map. exists (k, gl G k). split.
      - apply gl_in. rewrite Eg. easy.
      - rewrite Eg. unfold listed1. cbn. now left. }
    destruct fuel as [|fuel]; [cbn in Hf; lia|].
    cbn [Heaps.clear_loop]. rewrite Eh. destruct (N.eqb_spec p 0) as [|_]; [contradiction|].
    pose proof (inv_pop _ _ _ _ _ kd size limit h t' p ps c I Eh Hp Eg) as I1. fold k in I1.
    assert (Hne : forall x t2, uses h x -> (x, t2) <> k).
    { intros x t2 Hx E. injection E as -> ->. apply uses_size in Hx. cbn in Hx. lia. }
    destruct (deallocate_ok h t (size + word) p s _ _ _ I1 L) as (s1 & hd1 & G1 & E1 & I2 & L2 & S2 & U2 & N2).
    { intros x t2 Hx. unfold put_head. destruct (key_eq_dec (x, t2) k); [|reflexivity].
      exfalso. now apply (Hne x t2). }
    rewrite E1. cbn [rbind].
    assert (Hnk : ~ uses h (FreeList kd size limit h)).
    { intros Hx. exact (Hne _ t' Hx eq_refl). }
    destruct (N2 (FreeList kd size limit h) t' Hnk) as (Na & Nb & Nc). fold k in Na, Nb, Nc.
    rewrite Na, Eh. cbn [snd].
    assert (Ec : szm (c + (2 ^ 64 - 1)) = c - 1).
    { unfold szm. replace (c + (2 ^ 64 - 1)) with (c - 1 + 1 * 2 ^ 64) by (cbn [length] in C2; lia).
      rewrite N.mod_add by discriminate. apply N.mod_small.
      destruct (C3 ltac:(easy)) as (kd' & size' & limit' & b' & E' & Hl & Hm).
      injection E' as <- <- <- <-.
      cbn [length] in Hl, C2. lia. }
    rewrite Ec. set (s2 := set_head s1 k (mem s p, c - 1)).
    assert (I3 : inv (blocks s2) (mem s2) (heads s2) G1 H).
    { apply inv_ext with (hd := hd1); [exact I2|]. intros [x t2]. cbn [s2 set_head heads]. unfold put_head.
      destruct (key_eq_dec (x, t2) k) as [E|Hx].
      - rewrite E, Nb. unfold put_head. destruct (key_eq_dec k k); [reflexivity|congruence].
      - destruct (uses_dec h x) as [Hu|Hu]; [now apply U2|].
        destruct (N2 x t2 Hu) as (-> & -> & _). unfold put_head.
        destruct (key_eq_dec (x, t2) k); [contradiction|reflexivity]. }
    rewrite gl_gput in Nc. destruct (key_eq_dec k k) as [_|]; [|congruence].
    destruct (IH fuel s2 G1 H I3 L2 Nc ltac:(cbn in Hf; lia)) as (s3 & G3 & E3 & I4 & L4 & S4 & Z4 & P4).
    exists s3, G3. split; [exact E3|]. do 2 (split; [assumption|]).
    split; [exact (same_in_trans _ _ _ _ S2 S4)|]. split; [exact Z4|].
    intros i ->. rewrite (P4 i eq_refl). cbn [Heaps.deallocate] in E1.
    destruct (take_block _ _); [|discriminate]. injection E1 as <-. cbn.
    now rewrite <- app_assoc.
Qed.

Definition cinv (c : client) : Prop :=
  exists G, inv (blocks (mst c)) (mem (mst c)) (heads (mst c)) G (used c) /\ log_ok (mst c).
(** The sizes asked for are those the heaps are made for. *)
Definition op_ok (o : hop) : Prop :=
  match o with HAlloc h _ sz _ => accepts h sz | _ => True end.

Lemma remove_perm {A} (l : list A) : forall i x, nth_error l i = Some x ->
  Permutation l (x :: remove_at i l).
Proof.
  induction l as [|y l IH]; intros [|i] x E; cbn in *; try discriminate.
  - injection E as ->. reflexivity.
  - rewrite (IH _ _ E) at 1. apply perm_swap.
Qed.

Lemma clear_ok h t s G H : inv (blocks s) (mem s) (heads s) G H -> log_ok s ->
  exists s' G', clear h t s = Ok s' /\
    inv (blocks s') (mem s') (heads s') G' H /\ log_ok s' /\
    Forall (same_in (mem s) (mem s')) H /\
    (forall k size limit i, h = FreeList k size limit (Parent i) -> k <> Global ->
       heads s' (key k h t) = (0, 0) /\
       calls s' = calls s ++ map (fun p => PGave i p (size + word)) (gl G (key k h t))).
Proof.
  intros I L.
  assert (T : exists s' G', Ok s = Ok s' /\ inv (blocks s') (mem s') (heads s') G' H /\ log_ok s' /\
    Forall (same_in (mem s) (mem s')) H).
  { exists s, G. do 3 (split; [solve [auto]|]). apply same_in_refl. }
  destruct h as [i|h|h|k0 h|size y z|k size limit h];
    try (destruct T as (s' & G' & T); exists s', G'; cbn; intuition discriminate).
  assert (Hf : forall t', (length (gl G (FreeList k size limit h, t'))
              <= S (N.to_nat (snd (heads s (FreeList k size limit h, t')))))%nat).
  { intros t'. destruct (i_heads _ _ _ _ _ I (FreeList k size limit h, t')) as (_ & C2 & _).
    rewrite C2. lia. }
  destruct k; cbn [Heaps.clear key].
  - destruct (clear_loop_ok Unsafe size limit h t 0%nat _ _ _ _ _ I L eq_refl (Hf 0%nat))
      as (s' & G' & E & I' & L' & S' & Z & P).
    exists s', G'. do 4 (split; [assumption|]). intros k sz lim i E0 _. injection E0 as <- <- <- ->.
    split; [exact Z|]. now apply P.
  - destruct (clear_loop_ok Local size limit h t t _ _ _ _ _ I L eq_refl (Hf t))
      as (s' & G' & E & I' & L' & S' & Z & P).
    exists s', G'. do 4 (split; [assumption|]). intros k sz lim i E0 _. injection E0 as <- <- <- ->.
    split; [exact Z|]. now apply P.
  - destruct T as (s' & G' & T). exists s', G'. destruct T as (T1 & T2 & T3 & T4). do 4 (split; [assumption|]).
    intros k sz lim i E0 Hk. injection E0 as <- <- <- ->. congruence.
Qed.

Lemma hstep_ok c o : cinv c -> op_ok o ->
  hstep c o = Ok None \/ exists c', hstep c o = Ok (Some c') /\ cinv c'.
Proof.
  intros (G & I & L) O. destruct c as [s us]. cbn [mst used] in *. destruct o as [h t sz a|i t|i g|h t]; cbn.
  - destruct (allocate_ok h t a sz s G us I L O) as [E|(s' & p & G' & E & I' & L' & _)]; rewrite E; cbn;
      [now left|right]. eexists. split; [reflexivity|]. now exists G'.
  - destruct (nth_error us i) as [[[h sz] p]|] eqn:E; [|now left]. right.
    apply remove_perm in E. pose proof (inv_perm _ _ _ _ _ _ I E) as I1.
    destruct (deallocate_ok h t sz p s _ _ _ I1 L) as (s' & hd' & G' & E1 & I2 & L2 & _ & U & N); [auto|].
    rewrite E1. cbn. eexists. split; [reflexivity|]. exists G'. cbn. split; [|assumption].
    apply inv_ext with (hd := hd'); [assumption|]. intros [x t'].
    destruct (uses_dec h x) as [Hu|Hu]; [auto|]. destruct (N x t' Hu) as (-> & -> & _). reflexivity.
  - destruct (nth_error us i) as [[[h sz] p]|] eqn:E; [|now left]. right.
    apply remove_perm in E. pose proof (inv_perm _ _ _ _ _ _ I E) as I1.
    eexists. split; [reflexivity|]. exists G. cbn. split; [|assumption].
    apply (inv_perm _ _ _ _ ((h, sz, p) :: remove_at i us)); [|now symmetry].
    apply inv_write with (m := mem s); [assumption|].
    intros x Hx. now rewrite (proj2 (overlap_false x word p sz) Hx).
  - right. destruct (clear_ok h t s G us I L) as (s' & G' & E & I' & L' & _).
    rewrite E. cbn. eexists. split; [reflexivity|]. now exists G'.
Qed.
Lemma hrun_ok os : forall c, cinv c -> Forall op_ok os -> exists c', hrun c os = Ok c' /\ cinv c'.
Proof.
  induction os as [|o os IH]; intros c I O; cbn; [eauto|].
  inversion O; subst. destruct (hstep_ok c o I H1) as [E|(c1 & E & I1)]; rewrite E; cbn; auto.
Qed.
Lemma hinit_ok m : cinv (hinit m).
Proof.
  exists []. split; [|constructor]. cbn. constructor; cbn; auto.
  - intros k. repeat split; auto. easy.
  - constructor.
Qed.
End Proofs.
