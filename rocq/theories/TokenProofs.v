(** Tokens: a node that a live transient may mutate is reached from that transient only. *)
From Coq Require Import List Arith Bool Lia.
From Verif Require Import Common AtomProofs RcProofs Token TokenSpec.
Import ListNotations.
Set Default Goal Selector "!".

Section Proofs.
Context {V : Type}.
Notation tnode := (tnode V). Notation tstate := (tstate V).

Lemma cont_at_set (s : tstate) i c j :
  cont_at (set_cont s i c) j = if (j =? i) && (i <? length (conts s)) then c else cont_at s j.
Proof.
  unfold cont_at, set_cont. cbn [conts]. destruct (Nat.eqb_spec j i) as [->|Hne]; cbn [andb].
  - destruct (Nat.ltb_spec i (length (conts s))) as [H|H].
    + apply nth_error_nth. now apply nth_upd_same.
    + rewrite !nth_overflow; [reflexivity|lia|]. rewrite length_upd. lia.
  - revert i j Hne. induction (conts s) as [|x l IH]; intros [|i] [|j] Hne; cbn; try reflexivity; [lia|].
    apply IH. lia.
Qed.
Lemma cont_at_add (s : tstate) c j :
  cont_at (add_cont s c) j = if j =? length (conts s) then c else cont_at s j.
Proof.
  unfold cont_at, add_cont. cbn. destruct (Nat.eqb_spec j (length (conts s))) as [->|Hne].
  - rewrite app_nth2, Nat.sub_diag; [reflexivity|lia].
  - destruct (Nat.lt_ge_cases j (length (conts s))).
    + now apply app_nth1.
    + rewrite !nth_overflow; [reflexivity|lia|]. rewrite app_length. cbn. lia.
Qed.
Lemma cont_at_fresh (s : tstate) j : cont_at (fresh s) j = cont_at s j.
Proof. reflexivity. Qed.
Lemma cont_lt (s : tstate) i : cont_at s i <> Dead -> i < length (conts s).
Proof.
  intros H. destruct (Nat.lt_ge_cases i (length (conts s))) as [|Hl]; [assumption|].
  exfalso. apply H. unfold cont_at. now apply nth_overflow.
Qed.

Lemma mem_in i mv : mem i mv = true <-> In i mv.
Proof.
  unfold mem. rewrite existsb_exists. split.
  - intros (x & Hx & E). apply Nat.eqb_eq in E. now subst.
  - intros H. exists i. split; [exact H|apply Nat.eqb_refl].
Qed.
Lemma mem_out i mv : mem i mv = false <-> ~ In i mv.
Proof. rewrite <- mem_in. destruct (mem i mv); split; congruence. Qed.
Lemma without_in i j mv : In j (without i mv) <-> In j mv /\ j <> i.
Proof.
  unfold without. rewrite filter_In. rewrite negb_true_iff, Nat.eqb_neq. intuition congruence.
Qed.

(** *** Reachability *)
Lemma reach_bound (h : list tnode) : (forall a n, nth_error h a = Some n -> Forall (fun k => k < length h) (nkids n)) ->
  forall r a, r < length h -> reach h r a -> a < length h.
Proof.
  intros H r a Hr R. induction R as [|x n b _ IH Hn Hb]; [exact Hr|].
  specialize (H _ _ Hn). rewrite Forall_forall in H. auto.
Qed.
(** Nodes changed outside of what [r] reaches. *)
Lemma reach_same (h h' : list tnode) r : (forall a, reach h r a -> nth_error h' a = nth_error h a) ->
  forall a, reach h' r a -> reach h r a.
Proof.
  intros H a R. induction R as [|x n b _ IH Hn Hb]; [constructor|].
  rewrite (H _ IH) in Hn. eapply reach_kid; eauto.
Qed.
Lemma reach_kid1 (h : list tnode) r n k a : nth_error h r = Some n -> In k (nkids n) ->
  reach h k a -> reach h r a.
Proof.
  intros Hn Hk R. induction R as [|x m b _ IH Hm Hb]; [eapply reach_kid; eauto; constructor|].
  eapply reach_kid; eauto.
Qed.

Record tinv (s : tstate) (mv : list nat) : Prop := mkTI
  { t_node : forall a n, nth_error (nodes s) a = Some n ->
      ntok n < next s /\ Forall (fun k => k < length (nodes s)) (nkids n);
    t_root : forall i a, root_of (cont_at s i) = Some a -> a < length (nodes s);
    t_tok : forall i t r, cont_at s i = Trans t r -> 0 < t < next s;
    t_mv : forall i, In i mv -> i < length (conts s) /\ forall r, cont_at s i <> Pers r;
    t_dist : forall i j ti ri tj rj, ~ In i mv -> ~ In j mv -> i <> j ->
      cont_at s i = Trans ti ri -> cont_at s j = Trans tj rj -> ti <> tj;
    t_own : forall i t r j rj a n, ~ In i mv -> cont_at s i = Trans t r ->
      ~ In j mv -> j <> i -> root_of (cont_at s j) = Some rj ->
      reach (nodes s) rj a -> nth_error (nodes s) a = Some n -> ntok n <> t;
    t_next : 0 < next s }.

(** *** Scripts *)
Section Scripts.
Variables (e : nat) (es : list nat) (nx : nat).
(** [Out]: roots of other live containers; [F]: tokens of other live transients. *)
Variables (Out F : nat -> Prop).

Record sinv (h : list tnode) (ks : list nat) : Prop := mkSI
  { s_node : forall a n, nth_error h a = Some n -> ntok n < nx /\ Forall (fun k => k < length h) (nkids n);
    s_ks : forall k, In k ks -> k < length h;
    s_outs : forall r, Out r -> r < length h;
    s_out : forall r a n, Out r -> reach h r a -> nth_error h a = Some n -> ~ In (ntok n) es;
    s_in : forall k a n, In k ks -> reach h k a -> nth_error h a = Some n -> ~ F (ntok n) }.

Lemma regs_in ks : forall rs l, regs_of ks rs = Some l -> forall x, In x l -> In x ks.
Proof.
  induction rs as [|r rs IH]; cbn; intros l E x Hx.
  - injection E as <-. easy.
  - destruct (nth_error ks r) as [a|] eqn:Ea; [|discriminate].
    destruct (regs_of ks rs) as [l'|]; [|discriminate]. injection E as <-.
    destruct Hx as [->|Hx]; [eapply nth_error_In; eauto|eauto].
Qed.
Hypothesis He : e < nx.
Hypothesis HF : ~ F e.

(** Making a node changes nothing that was there. *)
Lemma reach_new (h : list tnode) n r a :
  (forall a n, nth_error h a = Some n -> Forall (fun k => k < length h) (nkids n)) ->
  r < length h -> reach (h ++ [n]) r a -> reach h r a.
Proof.
  intros Hb Hr. apply reach_same. intros x Hx. apply nth_error_app1.
  eapply reach_bound; eauto.
Qed.
Lemma reach_new_root (h : list tnode) n a :
  (forall a n, nth_error h a = Some n -> Forall (fun k => k < length h) (nkids n)) ->
  Forall (fun k => k < length h) (nkids n) ->
  reach (h ++ [n]) (length h) a -> a = length h \/ exists k, In k (nkids n) /\ reach h k a.
Proof.
  intros Hb Hk R. induction R as [|x m b _ IH Hm Hx]; [now left|right].
  destruct IH as [->|(k & Hk' & Hr)].
  - rewrite nth_error_app2, Nat.sub_diag in Hm by lia. injection Hm as <-.
    exists b. split; [exact Hx|constructor].
  - exists k. split; [exact Hk'|]. rewrite Forall_forall in Hk.
    rewrite nth_error_app1 in Hm by (eapply reach_bound; eauto). eapply reach_kid; eauto.
Qed.
Lemma new_inv h ks v l : sinv h ks -> (forall x, In x l -> In x ks) ->
  sinv (h ++ [mkTN e v l]) (ks ++ [length h]) /\
  (forall a, a < length h -> nth_error (h ++ [mkTN e v l]) a = nth_error h a).
Proof.
  intros [N K O1 O2 I] Hl.
  assert (Hb : forall a n, nth_error h a = Some n -> Forall (fun k => k < length h) (nkids n)) by
    (intros; eapply N; eauto).
  assert (Hl' : Forall (fun k => k < length h) l) by (apply Forall_forall; auto).
  split; [|intros; now apply nth_error_app1]. constructor.
  - intros a n Ha. rewrite app_length. cbn. destruct (Nat.lt_ge_cases a (length h)) as [Hlt|Hge].
    + rewrite nth_error_app1 in Ha by assumption. destruct (N _ _ Ha) as [H1 H2]. split; [exact H1|].
      eapply Forall_impl; [|exact H2]. cbn. lia.
    + rewrite nth_error_app2 in Ha by assumption. destruct (a - length h) as [|q]; cbn in Ha.
      * injection Ha as <-. cbn. split; [exact He|]. eapply Forall_impl; [|exact Hl']. cbn. lia.
      * destruct q; discriminate.
  - intros k Hk. rewrite app_length. cbn. apply in_app_or in Hk as [Hk|[<-|[]]]; [|lia].
    specialize (K _ Hk). lia.
  - intros r Hr. rewrite app_length. specialize (O1 _ Hr). lia.
  - intros r a n Hr R Ha. apply reach_new in R; [|assumption|auto].
    rewrite nth_error_app1 in Ha by (eapply reach_bound; eauto). eauto.
  - intros k a n Hk R Ha. apply in_app_or in Hk as [Hk|[<-|[]]].
    + apply reach_new in R; [|assumption|auto].
      rewrite nth_error_app1 in Ha by (eapply reach_bound; eauto). eauto.
    + apply reach_new_root in R; [|assumption|assumption]. destruct R as [->|(x & Hx & R)].
      * rewrite nth_error_app2, Nat.sub_diag in Ha by lia. injection Ha as <-. exact HF.
      * rewrite nth_error_app1 in Ha by (eapply reach_bound; [exact Hb| |exact R]; apply K, Hl, Hx).
        eapply (I x); eauto.
Qed.

(** Modifying a node that can be mutated. *)
Lemma reach_upd (h : list tnode) a0 n r a : reach (update_at a0 n h) r a ->
  reach h r a \/ (reach h r a0 /\ exists k, In k (nkids n) /\ reach h k a).
Proof.
  intros R. induction R as [|x m b _ IH Hm Hb]; [left; constructor|].
  destruct (Nat.eq_dec x a0) as [->|Hne].
  - assert (m = n) as -> by (rewrite nth_upd_same in Hm; [congruence|];
      apply nth_lt in Hm; now rewrite length_upd in Hm).
    right. split; [|exists b; split; [exact Hb|constructor]].
    destruct IH as [|[H _]]; assumption.
  - rewrite nth_upd in Hm by assumption. destruct IH as [IH|(H0 & k & Hk & IH)].
    + left. eapply reach_kid; eauto.
    + right. split; [exact H0|]. exists k. split; [exact Hk|]. eapply reach_kid; eauto.
Qed.
Lemma write_inv h ks a v l n : sinv h ks -> In a ks -> (forall x, In x l -> In x ks) ->
  nth_error h a = Some n -> In (ntok n) es ->
  sinv (update_at a (mkTN e v l) h) (ks ++ [a]) /\
  (forall r x, Out r -> reach h r x -> nth_error (update_at a (mkTN e v l) h) x = nth_error h x).
Proof.
  intros [N K O1 O2 I] Hi Hl Ha Hm.
  assert (Hout : forall r x, Out r -> reach h r x ->
            nth_error (update_at a (mkTN e v l) h) x = nth_error h x).
  { intros r x Hr R. apply nth_upd. intros ->. exact (O2 _ _ _ Hr R Ha Hm). }
  split; [|exact Hout].
  assert (Hnew : forall x m, nth_error (update_at a (mkTN e v l) h) x = Some m ->
            m = mkTN e v l \/ nth_error h x = Some m).
  { intros x m Hx. destruct (Nat.eq_dec x a) as [->|Hne].
    - left. rewrite nth_upd_same in Hx; [congruence|]. eapply nth_lt; eauto.
    - right. now rewrite nth_upd in Hx. }
  constructor.
  - intros x m Hx. rewrite length_upd. destruct (Hnew _ _ Hx) as [->|Hx']; [|eauto].
    cbn. split; [exact He|]. apply Forall_forall. auto.
  - intros k Hk. rewrite length_upd. apply in_app_or in Hk as [Hk|[<-|[]]]; auto.
  - intros r Hr. rewrite length_upd. auto.
  - intros r x m Hr R Hx. apply (reach_same h) in R; [|intros; eapply Hout; eauto].
    rewrite (Hout _ _ Hr R) in Hx. eauto.
  - intros k x m Hk R Hx. destruct (Hnew _ _ Hx) as [->|Hx']; [exact HF|].
    assert (Hk' : In k ks) by (apply in_app_or in Hk as [Hk|[<-|[]]]; assumption).
    apply reach_upd in R as [R|(_ & k' & Hk'' & R)]; [eauto|]. cbn in Hk''. eauto.
Qed.

Lemma exec_inv h ks root i h' ks' root' : sinv h ks -> (forall a, root = Some a -> In a ks) ->
  exec e es h ks root i = Some (h', ks', root') ->
  sinv h' ks' /\ (forall a, root' = Some a -> In a ks') /\
  (forall r x, Out r -> reach h r x -> nth_error h' x = nth_error h x).
Proof.
  intros S Hr E. destruct i as [r k|v rs|r v rs|r]; cbn in E.
  - destruct (nth_error ks r) as [a|] eqn:Ea; [|discriminate].
    destruct (nth_error h a) as [n|] eqn:En; [|discriminate].
    destruct (nth_error (nkids n) k) as [b|] eqn:Eb; [|discriminate]. injection E as <- <- <-.
    apply nth_error_In in Ea, Eb. split; [|split; [|auto]].
    + destruct S as [N K O1 O2 I]. constructor; [assumption| |assumption|assumption|].
      * intros x Hx. apply in_app_or in Hx as [Hx|[<-|[]]]; [auto|].
        destruct (N _ _ En) as [_ Hf]. rewrite Forall_forall in Hf. auto.
      * intros x y m Hx R Hy. apply in_app_or in Hx as [Hx|[<-|[]]]; [eauto|].
        eapply (I a); [exact Ea| |exact Hy]. eapply reach_kid1; eauto.
    + intros x Hx. apply in_or_app. auto.
  - destruct (regs_of ks rs) as [l|] eqn:El; [|discriminate]. injection E as <- <- <-.
    destruct (new_inv h ks v l S (regs_in _ _ _ El)) as [S' H]. split; [exact S'|]. split.
    + intros x Hx. apply in_or_app. auto.
    + intros x y Hx R. apply H. destruct S as [N K O1 O2 I]. eapply reach_bound; [|apply O1, Hx|exact R].
      intros ? ? Hn. apply (N _ _ Hn).
  - destruct (nth_error ks r) as [a|] eqn:Ea; [|discriminate].
    destruct (regs_of ks rs) as [l|] eqn:El; [|discriminate].
    destruct (nth_error h a) as [n|] eqn:En; [|discriminate].
    destruct (can_mutate es n) eqn:Ec; injection E as <- <- <-.
    + apply existsb_exists in Ec as (t & Ht & Et). apply Nat.eqb_eq in Et. subst t.
      destruct (write_inv h ks a v l n S (nth_error_In _ _ Ea) (regs_in _ _ _ El) En Ht) as [S' H].
      split; [exact S'|]. split; [|exact H]. intros x Hx. apply in_or_app. auto.
    + destruct (new_inv h ks v l S (regs_in _ _ _ El)) as [S' H]. split; [exact S'|]. split.
      * intros x Hx. apply in_or_app. auto.
      * intros x y Hx R. apply H. destruct S as [N K O1 O2 I]. eapply reach_bound; [|apply O1, Hx|exact R].
        intros ? ? Hn. apply (N _ _ Hn).
  - destruct (nth_error ks r) as [a|] eqn:Ea; [|discriminate]. injection E as <- <- <-.
    split; [exact S|]. split; [|auto]. intros x Hx. injection Hx as <-. eapply nth_error_In; eauto.
Qed.
Lemma execs_inv sc : forall h ks root h' root', sinv h ks ->
  (forall a, root = Some a -> In a ks) -> execs e es h ks root sc = (h', root') ->
  exists ks', sinv h' ks' /\ (forall a, root' = Some a -> In a ks') /\
  (forall r x, Out r -> reach h r x -> nth_error h' x = nth_error h x).
Proof.
  induction sc as [|i sc IH]; intros h ks root h' root' S Hr E; cbn in E.
  - injection E as <- <-. exists ks. auto.
  - destruct (exec e es h ks root i) as [[[h1 ks1] root1]|] eqn:E1.
    + destruct (exec_inv _ _ _ _ _ _ _ S Hr E1) as (S1 & Hr1 & H1).
      destruct (IH _ _ _ _ _ S1 Hr1 E) as (ks' & S' & Hr' & H').
      exists ks'. split; [exact S'|]. split; [exact Hr'|]. intros r x Ho R.
      rewrite (H' r x Ho); [eauto|].
      eapply reach_same; [|exact R]. intros y Hy.
      symmetry. apply (H1 r y Ho).
      eapply reach_same; [|exact Hy]. intros z Hz. exact (H1 r z Ho Hz).
    + injection E as <- <-. exists ks. auto.
Qed.
End Scripts.

(** *** Passing arguments *)
Definition fresh_or (s s' : tstate) (mv : list nat) (i : nat) : Prop :=
  forall t r, cont_at s' i = Trans t r ->
    (exists r0, cont_at s i = Trans t r0) \/ next s <= t.

Ltac conts := rewrite ?cont_at_set, ?cont_at_add, ?cont_at_fresh in *; cbn [andb] in *.

Lemma lvalue_inv s mv j t r : tinv s mv -> ~ In j mv -> cont_at s j = Trans t r ->
  tinv (set_cont (fresh s) j (Trans (next s) r)) mv.
Proof.
  intros [N Ro T M D O] Hj Ej.
  assert (Hlt : j <? length (conts s) = true) by
    (apply Nat.ltb_lt, cont_lt; rewrite Ej; discriminate).
  assert (Hc : forall i, cont_at (set_cont (fresh s) j (Trans (next s) r)) i =
                         if i =? j then Trans (next s) r else cont_at s i).
  { intros i. rewrite cont_at_set. cbn [conts fresh]. now rewrite Hlt, andb_true_r, cont_at_fresh. }
  set (s1 := set_cont (fresh s) j (Trans (next s) r)) in *.
  assert (En : nodes s1 = nodes s) by reflexivity.
  assert (Ex : next s1 = S (next s)) by reflexivity.
  assert (El : length (conts s1) = length (conts s)) by apply length_upd.
  constructor; rewrite ?En, ?Ex, ?El.
  - intros a n Ha. destruct (N _ _ Ha). split; [lia|assumption].
  - intros i a Hi. rewrite Hc in Hi.
    destruct (Nat.eqb_spec i j) as [->|]; [|eauto]. apply (Ro j). rewrite Ej. exact Hi.
  - intros i t' r' Hi. rewrite Hc in Hi.
    destruct (Nat.eqb_spec i j) as [->|].
    + injection Hi as <- <-. specialize (T _ _ _ Ej). lia.
    + specialize (T _ _ _ Hi). lia.
  - intros i Hi. destruct (M _ Hi) as [M1 M2]. split; [exact M1|]. intros r0. rewrite Hc.
    destruct (i =? j); [discriminate|apply M2].
  - intros i k ti ri tk rk Hi Hk Hne Ei Ek.
    rewrite Hc in Ei, Ek.
    destruct (Nat.eqb_spec i j) as [->|], (Nat.eqb_spec k j) as [->|]; try congruence.
    + injection Ei as <- <-. specialize (T _ _ _ Ek). lia.
    + injection Ek as <- <-. specialize (T _ _ _ Ei). lia.
    + exact (D _ _ _ _ _ _ Hi Hk Hne Ei Ek).
  - intros i t' r' k rk a n Hi Ei Hk Hne Ek R Ha.
    rewrite Hc in Ei, Ek.
    assert (Ek' : root_of (cont_at s k) = Some rk).
    { destruct (Nat.eqb_spec k j) as [->|]; [|exact Ek]. rewrite Ej. exact Ek. }
    destruct (Nat.eqb_spec i j) as [->|].
    + injection Ei as <- <-. destruct (N _ _ Ha). lia.
    + exact (O i t' r' k rk a n Hi Ei Hk Hne Ek' R Ha).
  - lia.
Qed.
Lemma rvalue_inv s mv j t r r' : tinv s mv -> ~ In j mv -> cont_at s j = Trans t r ->
  (forall a, r' = Some a -> a < length (nodes s)) ->
  tinv (set_cont s j (Trans t r')) (j :: mv).
Proof.
  intros [N Ro T M D O] Hj Ej Hr'.
  assert (Hlt : j <? length (conts s) = true) by
    (apply Nat.ltb_lt, cont_lt; rewrite Ej; discriminate).
  assert (Hc0 : forall i, cont_at (set_cont s j (Trans t r')) i =
                          if i =? j then Trans t r' else cont_at s i).
  { intros i. rewrite cont_at_set. now rewrite Hlt, andb_true_r. }
  assert (Hc : forall i, ~ In i (j :: mv) -> cont_at (set_cont s j (Trans t r')) i = cont_at s i).
  { intros i Hi. rewrite cont_at_set. destruct (Nat.eqb_spec i j) as [->|]; [|reflexivity].
    exfalso. apply Hi. now left. }
  set (s1 := set_cont s j (Trans t r')) in *.
  assert (En : nodes s1 = nodes s) by reflexivity.
  assert (Ex : next s1 = next s) by reflexivity.
  assert (El : length (conts s1) = length (conts s)) by apply length_upd.
  constructor; rewrite ?En, ?Ex, ?El.
  - exact N.
  - intros i a Hi. rewrite Hc0 in Hi.
    destruct (Nat.eqb_spec i j) as [->|]; [|eauto]. cbn in Hi. auto.
  - intros i t' r0 Hi. rewrite Hc0 in Hi.
    destruct (Nat.eqb_spec i j) as [->|]; [|eauto]. injection Hi as <- <-. eauto.
  - intros i Hi. destruct (Nat.eq_dec i j) as [E|Hne].
    + subst i. split; [now apply Nat.ltb_lt|]. intros r0. rewrite Hc0, Nat.eqb_refl. discriminate.
    + destruct Hi as [E|Hi]; [congruence|]. destruct (M _ Hi) as [M1 M2]. split; [exact M1|].
      intros r0. rewrite Hc0. apply Nat.eqb_neq in Hne. rewrite Hne. apply M2.
  - intros i k ti ri tk rk Hi Hk Hne Ei Ek. rewrite Hc in Ei, Ek by assumption.
    apply (D i k ti ri tk rk); try assumption; intros H; [apply Hi|apply Hk]; now right.
  - intros i t' r0 k rk a n Hi Ei Hk Hne Ek R Ha. rewrite Hc in Ei, Ek by assumption.
    apply (O i t' r0 k rk a n); try assumption; intros H; [apply Hi|apply Hk]; now right.
  - assumption.
Qed.

(** What the algorithm gets to know is not reached by other live containers with its
    tokens, and carries no token of a live transient. *)
Record passed (s s' : tstate) (mv' ks es : list nat) : Prop := mkPassed
  { p_nodes : nodes s' = nodes s;
    p_next : next s <= next s';
    p_len : length (conts s') = length (conts s);
    p_live : forall j, ~ In j mv' -> root_of (cont_at s' j) = root_of (cont_at s j);
    p_tok : forall j t r, ~ In j mv' -> cont_at s' j = Trans t r ->
      (exists r0, cont_at s j = Trans t r0) \/ next s <= t;
    p_ks : forall k, In k ks -> k < length (nodes s);
    p_in : forall k a n j t r, In k ks -> reach (nodes s) k a -> nth_error (nodes s) a = Some n ->
      ~ In j mv' -> cont_at s' j = Trans t r -> ntok n <> t;
    p_out : forall t j r a n, In t es -> ~ In j mv' -> root_of (cont_at s' j) = Some r ->
      reach (nodes s) r a -> nth_error (nodes s) a = Some n -> ntok n <> t;
    p_es : forall t j r, In t es -> ~ In j mv' -> cont_at s' j <> Trans t r }.

Lemma passes_mono args : forall mv mv', passes mv args = Some mv' -> forall j, In j mv -> In j mv'.
Proof.
  induction args as [|[j|j|j] args IH]; cbn; intros mv mv' E x Hx.
  - congruence.
  - eauto.
  - destruct (mem j mv); [discriminate|eauto].
  - destruct (mem j mv); [discriminate|]. eapply IH; [exact E|now right].
Qed.

Lemma pass_inv args : forall s mv mv' s' ks es, tinv s mv -> passes mv args = Some mv' ->
  pass s args = Some (s', ks, es) -> tinv s' mv' /\ passed s s' mv' ks es.
Proof.
  induction args as [|[j|j|j] args IH]; cbn; intros s mv mv' s' ks es I E1 E2.
  - injection E1 as <-. injection E2 as <- <- <-. split; [exact I|].
    constructor; try easy. intros j t r Hj Ej. left. eauto.
  - destruct (cont_at s j) as [|r|] eqn:Ej; try discriminate.
    destruct (pass s args) as [[[s1 ks1] es1]|] eqn:E3; [|discriminate]. injection E2 as <- <- <-.
    destruct (IH _ _ _ _ _ _ I E1 E3) as [I' [A1 A2 A3 A4 A5 A6 A7 A8 A9]]. split; [exact I'|].
    constructor; try assumption.
    + intros k Hk. apply in_app_or in Hk as [Hk|Hk]; [|auto]. destruct r as [a|]; [|easy].
      destruct Hk as [<-|[]]. apply (t_root _ _ I j). now rewrite Ej.
    + intros k a n i t ri Hk R Ha Hi Ei. apply in_app_or in Hk as [Hk|Hk]; [|eauto].
      destruct r as [b|]; [|easy]. destruct Hk as [<-|[]].
      assert (Hi' : ~ In i mv) by (intros H; apply Hi; eapply passes_mono; eauto).
      destruct (A5 _ _ _ Hi Ei) as [[r0 E0]|Hge].
      * assert (Hm : ~ In j mv) by (intros Hm; destruct (t_mv _ _ I _ Hm) as [_ Hp]; exact (Hp _ Ej)).
        apply (t_own _ _ I i t r0 j b a n); try assumption; [congruence|now rewrite Ej].
      * destruct (t_node _ _ I _ _ Ha). lia.
  - destruct (mem j mv) eqn:Em; [discriminate|]. apply mem_out in Em.
    destruct (cont_at s j) as [|r|t r] eqn:Ej; try discriminate.
    destruct (pass (set_cont (fresh s) j (Trans (next s) r)) args) as [[[s1 ks1] es1]|] eqn:E3;
      [|discriminate]. injection E2 as <- <- <-.
    pose proof (lvalue_inv _ _ _ _ _ I Em Ej) as I1.
    assert (Hlt : j <? length (conts s) = true) by
      (apply Nat.ltb_lt, cont_lt; rewrite Ej; discriminate).
    assert (Hc : forall i, cont_at (set_cont (fresh s) j (Trans (next s) r)) i =
                           if i =? j then Trans (next s) r else cont_at s i).
    { intros i. rewrite cont_at_set. cbn [conts fresh]. now rewrite Hlt, andb_true_r, cont_at_fresh. }
    destruct (IH _ _ _ _ _ _ I1 E1 E3) as [I' [A1 A2 A3 A4 A5 A6 A7 A8 A9]]. split; [exact I'|].
    cbn [set_cont fresh nodes next conts] in *.
    assert (T5 : forall i t0 r0, ~ In i mv' -> cont_at s1 i = Trans t0 r0 ->
              (i <> j /\ exists r1, cont_at s i = Trans t0 r1) \/ next s <= t0).
    { intros i t0 r0 Hi Ei. destruct (A5 _ _ _ Hi Ei) as [[r1 E0]|Hge]; [|right; lia].
      fold (fresh s) in E0. change (mkTS (nodes s) (update_at j (Trans (next s) r) (conts s)) (S (next s)))
        with (set_cont (fresh s) j (Trans (next s) r)) in E0. rewrite Hc in E0.
      destruct (Nat.eqb_spec i j) as [->|Hne].
      - injection E0 as <- <-. right. lia.
      - left. eauto. }
    constructor; try assumption.
    + lia.
    + rewrite A3. apply length_upd.
    + intros i Hi. rewrite (A4 _ Hi).
      change (mkTS (nodes s) (update_at j (Trans (next s) r) (conts s)) (S (next s)))
        with (set_cont (fresh s) j (Trans (next s) r)). rewrite Hc.
      destruct (Nat.eqb_spec i j) as [->|]; [now rewrite Ej|reflexivity].
    + intros i t0 r0 Hi Ei. destruct (T5 _ _ _ Hi Ei) as [[_ H]|H]; auto.
    + intros k Hk. apply in_app_or in Hk as [Hk|Hk]; [|auto]. destruct r as [a|]; [|easy].
      destruct Hk as [<-|[]]. apply (t_root _ _ I j). now rewrite Ej.
    + intros k a n i t0 ri Hk R Ha Hi Ei. apply in_app_or in Hk as [Hk|Hk]; [|eauto].
      destruct r as [b|]; [|easy]. destruct Hk as [<-|[]].
      assert (Hi' : ~ In i mv) by (intros H; apply Hi; eapply passes_mono; eauto).
      destruct (T5 _ _ _ Hi Ei) as [[Hne [r0 E0]]|Hge].
      * apply (t_own _ _ I i t0 r0 j b a n); try assumption; [congruence|now rewrite Ej].
      * destruct (t_node _ _ I _ _ Ha). lia.
  - destruct (mem j mv) eqn:Em; [discriminate|]. apply mem_out in Em.
    destruct (cont_at s j) as [|r|t r] eqn:Ej; try discriminate.
    destruct (pass (set_cont s j (Trans t None)) args) as [[[s1 ks1] es1]|] eqn:E3;
      [|discriminate]. injection E2 as <- <- <-.
    pose proof (rvalue_inv _ _ _ _ _ None I Em Ej ltac:(discriminate)) as I1.
    assert (Hlt : j <? length (conts s) = true) by
      (apply Nat.ltb_lt, cont_lt; rewrite Ej; discriminate).
    assert (Hc : forall i, i <> j -> cont_at (set_cont s j (Trans t None)) i = cont_at s i).
    { intros i Hi. rewrite cont_at_set. apply Nat.eqb_neq in Hi. now rewrite Hi. }
    destruct (IH _ _ _ _ _ _ I1 E1 E3) as [I' [A1 A2 A3 A4 A5 A6 A7 A8 A9]]. split; [exact I'|].
    assert (Hj : forall i, ~ In i mv' -> i <> j /\ ~ In i mv).
    { intros i Hi. split.
      - intros ->. apply Hi. eapply passes_mono; [exact E1|now left].
      - intros H. apply Hi. eapply passes_mono; [exact E1|now right]. }
    assert (T5 : forall i t0 r0, ~ In i mv' -> cont_at s1 i = Trans t0 r0 ->
              (exists r1, cont_at s i = Trans t0 r1) \/ next s <= t0).
    { intros i t0 r0 Hi Ei. destruct (A5 _ _ _ Hi Ei) as [[r1 E0]|Hge]; [|right; exact Hge].
      rewrite Hc in E0 by (apply Hj; exact Hi). eauto. }
    assert (T4 : forall i, ~ In i mv' -> root_of (cont_at s1 i) = root_of (cont_at s i)).
    { intros i Hi. rewrite (A4 _ Hi). now rewrite Hc by (apply Hj; exact Hi). }
    constructor; try assumption.
    + rewrite A3. apply length_upd.
    + intros k Hk. apply in_app_or in Hk as [Hk|Hk]; [|auto]. destruct r as [a|]; [|easy].
      destruct Hk as [<-|[]]. apply (t_root _ _ I j). now rewrite Ej.
    + intros k a n i t0 ri Hk R Ha Hi Ei. apply in_app_or in Hk as [Hk|Hk]; [|eauto].
      destruct r as [b|]; [|easy]. destruct Hk as [<-|[]]. destruct (Hj _ Hi) as [Hne Hi'].
      destruct (T5 _ _ _ Hi Ei) as [[r0 E0]|Hge].
      * apply (t_own _ _ I i t0 r0 j b a n); try assumption; [congruence|now rewrite Ej].
      * destruct (t_node _ _ I _ _ Ha). lia.
    + intros t0 i ri a n Ht Hi Ei R Ha. destruct Ht as [<-|Ht]; [|eauto].
      destruct (Hj _ Hi) as [Hne Hi'].
      apply (t_own _ _ I j t r i ri a n); try assumption. now rewrite <- T4.
    + intros t0 i ri Ht Hi. destruct Ht as [<-|Ht]; [|eauto]. intros Ei.
      destruct (Hj _ Hi) as [Hne Hi']. destruct (T5 _ _ _ Hi Ei) as [[r0 E0]|Hge].
      * exact (t_dist _ _ I i j t r0 t r Hi' Em Hne E0 Ej eq_refl).
      * pose proof (t_tok _ _ I _ _ _ Ej). lia.
Qed.

(** *** One operation *)
Lemma reach_frame (h h' : list tnode) r : (forall a, reach h r a -> nth_error h' a = nth_error h a) ->
  forall a, reach h r a -> reach h' r a.
Proof.
  intros H a R. induction R as [|x n b Rx IH Hn Hb]; [constructor|].
  eapply reach_kid; [exact IH|rewrite (H _ Rx); exact Hn|exact Hb].
Qed.

Definition isolated (s s' : tstate) (mv : list nat) (o : top V) : Prop :=
  forall j r, ~ In j mv -> ~ In j (changes o) -> root_of (cont_at s j) = Some r ->
    root_of (cont_at s' j) = Some r /\
    forall a, reach (nodes s) r a -> nth_error (nodes s') a = nth_error (nodes s) a.

(** Operations that leave the nodes alone: where the roots and tokens of live containers
    come from. *)
Lemma shuffle_inv s mv s' mv' : tinv s mv -> nodes s' = nodes s -> next s <= next s' ->
  (forall i a, root_of (cont_at s' i) = Some a -> a < length (nodes s)) ->
  (forall i t r, cont_at s' i = Trans t r -> 0 < t < next s') ->
  (forall i, In i mv' -> i < length (conts s') /\ forall r, cont_at s' i <> Pers r) ->
  (forall i j ti ri tj rj, ~ In i mv' -> ~ In j mv' -> i <> j ->
      cont_at s' i = Trans ti ri -> cont_at s' j = Trans tj rj -> ti <> tj) ->
  (forall i t r, ~ In i mv' -> cont_at s' i = Trans t r -> next s <= t \/
     exists i0 r0, ~ In i0 mv /\ cont_at s i0 = Trans t r0 /\
       forall j rj, ~ In j mv' -> j <> i -> root_of (cont_at s' j) = Some rj ->
         exists j0, ~ In j0 mv /\ j0 <> i0 /\ root_of (cont_at s j0) = Some rj) ->
  tinv s' mv'.
Proof.
  intros [N Ro T M D O X] En Ex H1 H2 H3 H4 H5. constructor; rewrite ?En; try assumption.
  - intros a n Ha. destruct (N _ _ Ha). split; [lia|assumption].
  - intros i t r j rj a n Hi Ei Hj Hne Ej R Ha.
    destruct (H5 _ _ _ Hi Ei) as [Hge|(i0 & r0 & Hi0 & E0 & Hall)].
    + destruct (N _ _ Ha). lia.
    + destruct (Hall _ _ Hj Hne Ej) as (j0 & Hj0 & Hne0 & Ej0).
      exact (O i0 t r0 j0 rj a n Hi0 E0 Hj0 Hne0 Ej0 R Ha).
  - lia.
Qed.

Lemma pers_live s mv i r : tinv s mv -> cont_at s i = Pers r -> ~ In i mv.
Proof. intros I E H. destruct (t_mv _ _ I _ H) as [_ Hp]. exact (Hp _ E). Qed.
Lemma ltb_cont (s : tstate) i c : cont_at s i = c -> c <> Dead -> i <? length (conts s) = true.
Proof. intros E H. apply Nat.ltb_lt, cont_lt. congruence. Qed.


Lemma roots_of_in (s : tstate) : forall js ks, roots_of s js = Some ks -> forall k, In k ks ->
  exists j, cont_at s j = Pers (Some k).
Proof.
  induction js as [|j js IH]; cbn; intros ks E k Hk.
  - injection E as <-. easy.
  - destruct (cont_at s j) as [|r|] eqn:Ej; try discriminate.
    destruct (roots_of s js) as [l|]; [|discriminate]. injection E as <-.
    apply in_app_or in Hk as [Hk|Hk]; [|eauto]. destruct r as [a|]; [|easy].
    destruct Hk as [<-|[]]. eauto.
Qed.

(** After a script: [lv] is the container whose root the script set. *)
Lemma script_inv s mv lv e es ks ks' h c : tinv s mv ->
  (forall i, cont_at (mkTS h c (next s)) i = if i =? lv then cont_at (mkTS h c (next s)) lv else cont_at s i) ->
  (forall i, In i mv -> i < length c) ->
  ~ In lv mv -> length (nodes s) <= length h ->
  let Out := fun x => exists j, ~ In j mv /\ j <> lv /\ root_of (cont_at s j) = Some x in
  let F := fun t => exists j r0, ~ In j mv /\ j <> lv /\ cont_at s j = Trans t r0 in
  sinv es (next s) Out F (nodes s) ks -> sinv es (next s) Out F h ks' ->
  (forall r x, Out r -> reach (nodes s) r x -> nth_error h x = nth_error (nodes s) x) ->
  match cont_at (mkTS h c (next s)) lv with
  | Dead => True
  | Pers r => forall a, r = Some a -> In a ks'
  | Trans t r => t = e /\ 0 < e < next s /\ ~ F e /\ In e es /\ forall a, r = Some a -> In a ks'
  end -> tinv (mkTS h c (next s)) mv.
Proof.
  intros I Hc Hm Hlv Hlen Out F S0 S' Hs Hl. set (s1 := mkTS h c (next s)) in *.
  pose proof I as [N Ro T M D O X].
  destruct S0 as [_ _ _ O2 _]. destruct S' as [N' K' O1' O2' I'].
  assert (Hroot : forall a, root_of (cont_at s1 lv) = Some a -> In a ks').
  { intros a. destruct (cont_at s1 lv) as [|r|t r]; cbn; [discriminate|auto|]. apply Hl. }
  constructor; change (nodes s1) with h; change (next s1) with (next s); change (conts s1) with c.
  - exact N'.
  - intros i a. rewrite Hc. destruct (Nat.eqb_spec i lv) as [->|Hne]; intros Ei; [auto|].
    destruct (in_dec Nat.eq_dec i mv) as [Hi|Hi].
    + pose proof (Ro _ _ Ei) as Hlt.
      lia.
    + apply O1'. exists i. auto.
  - intros i t r. rewrite Hc. destruct (Nat.eqb_spec i lv) as [->|Hne]; intros Ei; [|eauto].
    rewrite Ei in Hl. destruct Hl as (-> & H & _). exact H.
  - intros i Hi. split; [auto|]. intros r. rewrite Hc.
    destruct (Nat.eqb_spec i lv) as [->|Hne]; [easy|]. now apply M.
  - intros i j ti ri tj rj Hi Hj Hne Ei Ej. rewrite Hc in Ei. rewrite Hc in Ej.
    destruct (Nat.eqb_spec i lv) as [->|], (Nat.eqb_spec j lv) as [->|]; [easy| | |exact (D _ _ _ _ _ _ Hi Hj Hne Ei Ej)].
    + rewrite Ei in Hl. destruct Hl as (-> & _ & HF & _). intros ->. apply HF. exists j, rj. auto.
    + rewrite Ej in Hl. destruct Hl as (-> & _ & HF & _). intros <-. apply HF. exists i, ri. auto.
  - intros i t r j rj a n Hi Ei Hj Hne Ej R Ha. rewrite Hc in Ei. rewrite Hc in Ej.
    destruct (Nat.eqb_spec i lv) as [->|Hi'], (Nat.eqb_spec j lv) as [->|Hj']; [easy| | |].
    + rewrite Ei in Hl. destruct Hl as (-> & _ & _ & He & _). intros <-.
      apply (O2' rj a n); try assumption. exists j. auto.
    + intros <-. apply (I' rj a n); [auto|assumption|assumption|]. exists i, r. auto.
    + assert (Ho : Out rj) by (exists j; auto).
      apply (reach_same (nodes s)) in R; [|intros y Hy; exact (Hs _ _ Ho Hy)].
      rewrite (Hs _ _ Ho R) in Ha. exact (O _ _ _ _ _ _ _ Hi Ei Hj Hne Ej R Ha).
  - exact X.
Qed.

Lemma execs_len e es : forall sc (h : list tnode) ks root h' root',
  execs e es h ks root sc = (h', root') -> length h <= length h'.
Proof.
  induction sc as [|i sc IH]; cbn; intros h ks root h' root' E.
  - injection E as <- <-. lia.
  - destruct (exec e es h ks root i) as [[[h1 ks1] r1]|] eqn:E1; [|injection E as <- <-; lia].
    apply IH in E. assert (length h <= length h1); [|lia].
    destruct i as [r k|v rs|r v rs|r]; cbn in E1.
    + destruct (nth_error ks r); [|discriminate]. destruct (nth_error h _); [|discriminate].
      destruct (nth_error (nkids _) k); [|discriminate]. injection E1 as <- <- <-. lia.
    + destruct (regs_of ks rs); [|discriminate]. injection E1 as <- <- <-. rewrite app_length. lia.
    + destruct (nth_error ks r); [|discriminate]. destruct (regs_of ks rs); [|discriminate].
      destruct (nth_error h _); [|discriminate].
      destruct (can_mutate es _); injection E1 as <- <- <-; rewrite ?length_upd, ?app_length; lia.
    + destruct (nth_error ks r); [|discriminate]. injection E1 as <- <- <-. lia.
Qed.

Lemma build_ok s mv js sc s' : tinv s mv -> tstep s (TBuild js sc) = Some s' ->
  tinv s' mv /\ isolated s s' mv (TBuild js sc).
Proof.
  intros I E. cbn in E. destruct (roots_of s js) as [ks|] eqn:Ek; [|discriminate].
  destruct (execs 0 [] (nodes s) ks None sc) as [h r] eqn:X. injection E as <-.
  pose proof I as [N Ro T M D O X0].
  set (lv := length (conts s)).
  assert (Hlv : ~ In lv mv) by (intros H; destruct (M _ H); unfold lv in *; lia).
  set (Out := fun x => exists j, ~ In j mv /\ j <> lv /\ root_of (cont_at s j) = Some x).
  set (F := fun t => exists j r0, ~ In j mv /\ j <> lv /\ cont_at s j = Trans t r0).
  assert (HF : ~ F 0) by (intros (j & r0 & _ & _ & Ej); specialize (T _ _ _ Ej); lia).
  assert (S0 : sinv [] (next s) Out F (nodes s) ks).
  { constructor.
    - exact N.
    - intros k Hk. destruct (roots_of_in _ _ _ Ek _ Hk) as (j & Ej). apply (Ro j). now rewrite Ej.
    - intros x (j & _ & _ & Ej). eauto.
    - intros x a n _ _ _ [].
    - intros k a n Hk R Ha (i & r0 & Hi & _ & Ei). destruct (roots_of_in _ _ _ Ek _ Hk) as (j & Ej).
      refine (O i (ntok n) r0 j k a n Hi Ei _ _ _ R Ha eq_refl).
      + exact (pers_live _ _ _ _ I Ej).
      + congruence.
      + now rewrite Ej. }
  assert (Hn : forall a : nat, None = Some a -> In a ks) by discriminate.
  destruct (execs_inv 0 [] (next s) Out F X0 HF sc _ _ _ _ _ S0 Hn X)
    as (ks' & S' & Hr' & Hs).
  assert (Hc : forall j, cont_at (mkTS h (conts s ++ [Pers r]) (next s)) j =
                         if j =? lv then Pers r else cont_at s j) by (intros j; exact (cont_at_add s (Pers r) j)).
  split.
  - eapply (script_inv s mv lv 0 [] ks ks'); try eassumption.
    + intros i. rewrite !Hc, Nat.eqb_refl. reflexivity.
    + intros i Hi. destruct (M _ Hi). rewrite app_length. lia.
    + exact (execs_len _ _ _ _ _ _ _ _ X).
    + rewrite Hc, Nat.eqb_refl. exact Hr'.
  - intros j rj Hj _ Ej.
    assert (Hne : j <> lv).
    { intros ->. unfold cont_at, lv in Ej. rewrite (nth_overflow (conts s)) in Ej by lia. discriminate. }
    split; [rewrite Hc; apply Nat.eqb_neq in Hne; now rewrite Hne|].
    intros a R. apply (Hs rj a); [|exact R]. exists j. auto.
Qed.

Lemma in_rvalues j : forall args mv mv', passes mv args = Some mv' -> In j mv' -> ~ In j mv -> In j (rvalues args).
Proof.
  induction args as [|[k|k|k] args IH]; cbn; intros mv mv' E Hj Hn.
  - injection E as <-. contradiction.
  - eauto.
  - destruct (mem k mv); [discriminate|eauto].
  - destruct (mem k mv); [discriminate|]. destruct (Nat.eq_dec k j) as [->|Hne]; [now left|right].
    eapply IH; eauto. intros [H|H]; auto.
Qed.

Lemma edit_ok s mv mv' i args sc s' : tinv s mv -> uses mv (TEdit i args sc) = Some mv' ->
  tstep s (TEdit i args sc) = Some s' -> tinv s' mv' /\ isolated s s' mv (TEdit i args sc).
Proof.
  intros I U E. cbn in U, E. destruct (passes mv args) as [mv1|] eqn:Ep; [|discriminate].
  unfold unless in U. destruct (mem i mv1) eqn:Em; [discriminate|]. injection U as ->.
  apply mem_out in Em.
  destruct (pass s args) as [[[s1 ks] es]|] eqn:Ea; [|discriminate].
  destruct (pass_inv _ _ _ _ _ _ _ I Ep Ea) as [I1 P]. destruct P as [A1 A2 A3 A4 A5 A6 A7 A8 A9].
  destruct (cont_at s1 i) as [|r|e r] eqn:Ei; try discriminate.
  destruct (execs e (e :: es) (nodes s1) (opt_list r ++ ks) r sc) as [h r'] eqn:X. injection E as <-.
  pose proof I1 as [N Ro T M D O X0].
  set (Out := fun x => exists j, ~ In j mv' /\ j <> i /\ root_of (cont_at s1 j) = Some x).
  set (F := fun t => exists j r0, ~ In j mv' /\ j <> i /\ cont_at s1 j = Trans t r0).
  assert (HF : ~ F e).
  { intros (j & r0 & Hj & Hne & Ej). exact (D _ _ _ _ _ _ Hj Em Hne Ej Ei eq_refl). }
  assert (He : e < next s1) by (eapply T; eauto).
  assert (S0 : sinv (e :: es) (next s1) Out F (nodes s1) (opt_list r ++ ks)).
  { constructor.
    - exact N.
    - intros k Hk. apply in_app_or in Hk as [Hk|Hk]; [|rewrite A1; auto].
      destruct r as [b|]; [|easy]. destruct Hk as [<-|[]]. apply (Ro i). now rewrite Ei.
    - intros x (j & _ & _ & Ej). eauto.
    - intros x a n (j & Hj & Hne & Ej) R Ha [Ht|Ht].
      + exact (O i e r j x a n Em Ei Hj Hne Ej R Ha (eq_sym Ht)).
      + rewrite A1 in R, Ha. exact (A8 _ j x a n Ht Hj Ej R Ha eq_refl).
    - intros k a n Hk R Ha (j & r0 & Hj & Hne & Ej). apply in_app_or in Hk as [Hk|Hk].
      + destruct r as [b|]; [|easy]. destruct Hk as [<-|[]].
        refine (O j (ntok n) r0 i b a n Hj Ej Em _ _ R Ha eq_refl); [congruence|now rewrite Ei].
      + rewrite A1 in R, Ha. exact (A7 k a n j _ _ Hk R Ha Hj Ej eq_refl). }
  assert (Hr0 : forall a, r = Some a -> In a (opt_list r ++ ks)).
  { intros a ->. now left. }
  destruct (execs_inv e (e :: es) (next s1) Out F He HF sc _ _ _ _ _ S0 Hr0 X)
    as (ks' & S' & Hr' & Hs).
  assert (Hlt : i <? length (conts s1) = true) by (eapply ltb_cont; [exact Ei|discriminate]).
  assert (Hc : forall j, cont_at (mkTS h (update_at i (Trans e r') (conts s1)) (next s1)) j =
                         if j =? i then Trans e r' else cont_at s1 j).
  { intros j. pose proof (cont_at_set s1 i (Trans e r') j) as H. rewrite Hlt, andb_true_r in H. exact H. }
  split.
  - eapply (script_inv s1 mv' i e (e :: es) (opt_list r ++ ks) ks'); try eassumption.
    + intros j. rewrite !Hc, Nat.eqb_refl. reflexivity.
    + intros j Hj. destruct (M _ Hj). rewrite length_upd. lia.
    + exact (execs_len _ _ _ _ _ _ _ _ X).
    + rewrite Hc, Nat.eqb_refl. split; [reflexivity|]. split; [eapply T; eauto|].
      split; [exact HF|]. split; [now left|exact Hr'].
  - intros j rj Hj Hch Ej. cbn in Hch.
    assert (Hj' : ~ In j mv') by (intros H; apply Hch; right; eapply in_rvalues; eauto).
    assert (Hne : j <> i) by (intros ->; apply Hch; now left).
    assert (Ej' : root_of (cont_at s1 j) = Some rj) by (now rewrite A4).
    split; [rewrite Hc; apply Nat.eqb_neq in Hne; now rewrite Hne|].
    intros a R. cbn [nodes]. rewrite <- A1. apply (Hs rj a); [|now rewrite A1]. exists j. auto.
Qed.

Lemma root_live s mv i c a : tinv s mv -> cont_at s i = c -> root_of c = Some a -> a < length (nodes s).
Proof. intros I E H. apply (t_root _ _ I i). now rewrite E. Qed.

Ltac eqbs := repeat match goal with
  | H : context [?x =? ?y] |- _ => destruct (Nat.eqb_spec x y); subst; cbn [andb] in H
  | |- context [?x =? ?y] => destruct (Nat.eqb_spec x y); subst; cbn [andb]
  end.

(** Where each live container's root and token come from: [src k] is the container that had
    the root of [k], and the token of [k] is new or that of [own k]. *)
Lemma shuffle_src s mv s' mv' (src own : nat -> nat) : tinv s mv -> nodes s' = nodes s -> next s <= next s' ->
  (forall k, exists j, root_of (cont_at s' k) = None \/ root_of (cont_at s' k) = root_of (cont_at s j)) ->
  (forall i t r, cont_at s' i = Trans t r -> next s <= t < next s' \/ exists j r0, cont_at s j = Trans t r0) ->
  (forall i, In i mv' -> i < length (conts s') /\ forall r, cont_at s' i <> Pers r) ->
  (forall i j ti ri tj rj, ~ In i mv' -> ~ In j mv' -> i <> j ->
      cont_at s' i = Trans ti ri -> cont_at s' j = Trans tj rj -> next s <= ti -> ti <> tj) ->
  (forall i t r, ~ In i mv' -> cont_at s' i = Trans t r -> next s <= t \/
     (~ In (own i) mv /\ exists r0, cont_at s (own i) = Trans t r0)) ->
  (forall k r, ~ In k mv' -> root_of (cont_at s' k) = Some r ->
     ~ In (src k) mv /\ root_of (cont_at s (src k)) = Some r) ->
  (forall i j, ~ In i mv' -> ~ In j mv' -> i <> j -> cont_at s' i <> Dead -> cont_at s' j <> Dead ->
     (forall t r, cont_at s' i = Trans t r -> t < next s -> src j <> own i) /\
     (forall t r t' r', cont_at s' i = Trans t r -> cont_at s' j = Trans t' r' ->
        t < next s -> t' < next s -> own j <> own i)) ->
  tinv s' mv'.
Proof.
  intros I En Ex H1 H2 H3 H4 H5 H6 H7. pose proof I as [N Ro T M D O X0].
  apply (shuffle_inv s mv); try assumption.
  - intros k a Ek. destruct (H1 k) as [j [E|E]]; [congruence|]. apply (Ro j). congruence.
  - intros k t r Ek. destruct (H2 _ _ _ Ek) as [H|(j & r0 & Ej)]; [lia|]. specialize (T _ _ _ Ej). lia.
  - intros i j ti ri tj rj Hi Hj Hne Ei Ej.
    destruct (Nat.lt_ge_cases ti (next s)) as [Hti|Hti]; [|exact (H4 _ _ _ _ _ _ Hi Hj Hne Ei Ej Hti)].
    destruct (Nat.lt_ge_cases tj (next s)) as [Htj|Htj]; [|lia].
    destruct (H5 _ _ _ Hi Ei) as [H|[Oi (r0 & E0)]]; [lia|].
    destruct (H5 _ _ _ Hj Ej) as [H|[Oj (r1 & E1)]]; [lia|].
    destruct (H7 i j Hi Hj Hne) as [_ H]; [congruence|congruence|].
    refine (D _ _ _ _ _ _ Oi Oj _ E0 E1). intros He. exact (H _ _ _ _ Ei Ej Hti Htj (eq_sym He)).
  - intros i t r Hi Ei. destruct (H5 _ _ _ Hi Ei) as [H|[Oi (r0 & E0)]]; [now left|right].
    exists (own i), r0. split; [exact Oi|]. split; [exact E0|]. intros j rj Hj Hne Ej.
    exists (src j). destruct (H6 _ _ Hj Ej) as [Sj Ej']. split; [exact Sj|]. split; [|exact Ej'].
    refine (proj1 (H7 i j Hi Hj (not_eq_sym Hne) _ _) t r Ei _).
    + congruence.
    + intros E. rewrite E in Ej. discriminate.
    + apply (T _ _ _ E0).
Qed.

Ltac toks T := repeat match goal with
  | H : cont_at ?s ?i = Trans ?t ?r |- _ =>
      lazymatch goal with
      | _ : 0 < t < next s |- _ => fail
      | _ => pose proof (T _ _ _ H)
      end
  end.
Ltac fin T := intros; repeat match goal with
  | H : Trans _ _ = Trans _ _ |- _ => injection H as ? ?; subst
  | H : Pers _ = Trans _ _ |- _ => discriminate H
  | H : Dead = Trans _ _ |- _ => discriminate H
  | H : Trans _ _ = Pers _ |- _ => discriminate H
  end; toks T; try contradiction; try congruence; try lia;
  try solve [rewrite ?app_length, ?length_upd in *; cbn [length] in *; lia].

Lemma move_ok s mv mv' o s' : tinv s mv -> uses mv o = Some mv' -> tstep s o = Some s' ->
  match o with TBuild _ _ | TEdit _ _ _ => False | _ => True end ->
  tinv s' mv' /\ isolated s s' mv o.
Proof.
  intros I U E Ho. pose proof I as [N Ro T M D O X0].
  assert (Hlen : ~ In (length (conts s)) mv) by (intros H; destruct (M _ H); lia).
  assert (Hdead : cont_at s (length (conts s)) = Dead) by (apply nth_overflow; lia).
  assert (Hlt : forall i, cont_at s i <> Dead -> i <? length (conts s) = true) by
    (intros k Hk; apply Nat.ltb_lt, cont_lt, Hk).
  assert (Hne : forall i, cont_at s i <> Dead -> length (conts s) <> i) by
    (intros k Hk Hkk; apply cont_lt in Hk; lia).
  destruct o as [js sc|i|i|i|i j|i j|i|i keep|i args sc|i]; try contradiction; cbn in U, E;
    unfold unless in U.
  - (* transient *)
    injection U as <-. destruct (cont_at s i) as [|r|] eqn:Ei; try discriminate. injection E as <-.
    assert (Hc : forall k, cont_at (add_cont (fresh s) (Trans (next s) r)) k =
              if k =? length (conts s) then Trans (next s) r else cont_at s k)
      by (intros k; exact (cont_at_add (fresh s) _ k)).
    pose proof (pers_live _ _ _ _ I Ei) as Hi.
    split.
    + apply (shuffle_src s mv _ _ (fun k => if k =? length (conts s) then i else k) (fun k => k) I);
        cbn [add_cont fresh nodes next conts]; [reflexivity|lia|..].
      * intros k. rewrite Hc. eqbs; [exists i; rewrite Ei|exists k]; auto.
      * intros k t0 r0. rewrite Hc. eqbs; intros H; [injection H as <- <-; left; lia|eauto].
      * intros k Hk. rewrite app_length, Hc. destruct (M _ Hk). split; [lia|]. eqbs; [contradiction|assumption].
      * intros k l tk rk tl rl Hk Hl Hkl. rewrite !Hc. eqbs; fin T.
      * intros k t0 r0 Hk. rewrite Hc. eqbs; intros Ek; [injection Ek as <- <-; left; lia|eauto].
      * intros k r0 Hk. rewrite Hc. eqbs; intros Ek; [rewrite Ei|]; auto.
      * intros k l Hk Hl Hkl. rewrite !Hc. eqbs; intros Dk Dl; split; fin T.
    + intros k rk Hk _ Ek. rewrite Hc. cbn [nodes]. split; [|auto].
      eqbs; [|exact Ek]. rewrite Hdead in Ek. discriminate.
  - (* copy *)
    destruct (mem i mv) eqn:Em; [discriminate|]. apply mem_out in Em. injection U as <-.
    destruct (cont_at s i) as [| |t r] eqn:Ei; try discriminate. injection E as <-.
    assert (Hi : cont_at s i <> Dead) by congruence.
    assert (Hc : forall k, cont_at (add_cont (set_cont (fresh (fresh s)) i (Trans (S (next s)) r)) (Trans (next s) r)) k =
              if k =? length (conts s) then Trans (next s) r else
              if k =? i then Trans (S (next s)) r else cont_at s k).
    { intros k. rewrite cont_at_add. cbn [conts set_cont fresh]. rewrite length_upd.
      destruct (k =? length (conts s)); [reflexivity|].
      pose proof (cont_at_set (fresh (fresh s)) i (Trans (S (next s)) r) k) as H.
      cbn [conts fresh] in H. rewrite (Hlt _ Hi), andb_true_r in H. exact H. }
    split.
    + apply (shuffle_src s mv _ _ (fun k => if k =? length (conts s) then i else k) (fun k => k) I);
        cbn [add_cont set_cont fresh nodes next conts]; [reflexivity|lia|..].
      * intros k. rewrite Hc. eqbs; [exists i; rewrite Ei|exists i; rewrite Ei|exists k]; auto.
      * intros k t0 r0. rewrite Hc. eqbs; intros H; [injection H as <- <-; left; lia|injection H as <- <-; left; lia|eauto].
      * intros k Hk. rewrite app_length, length_upd, Hc. destruct (M _ Hk). split; [lia|].
        eqbs; [contradiction|contradiction|assumption].
      * intros k l tk rk tl rl Hk Hl Hkl. rewrite !Hc. eqbs; fin T.
      * intros k t0 r0 Hk. rewrite Hc. eqbs; intros Ek; [injection Ek as <- <-; left; lia| injection Ek as <- <-; left; lia|eauto].
      * intros k r0 Hk. rewrite Hc. eqbs; intros Ek; rewrite ?Ei; auto.
      * intros k l Hk Hl Hkl. rewrite !Hc. eqbs; intros Dk Dl; split; fin T.
    + intros k rk Hk _ Ek. rewrite Hc. cbn [nodes]. split; [|auto].
      eqbs; [rewrite Hdead in Ek; discriminate| |exact Ek]. now rewrite Ei in Ek.
  - (* move *)
    destruct (mem i mv) eqn:Em; [discriminate|]. apply mem_out in Em. injection U as <-.
    destruct (cont_at s i) as [| |t r] eqn:Ei; try discriminate. injection E as <-.
    assert (Hi : cont_at s i <> Dead) by congruence.
    assert (Hc : forall k, cont_at (add_cont (set_cont s i (Trans t None)) (Trans t r)) k =
              if k =? length (conts s) then Trans t r else
              if k =? i then Trans t None else cont_at s k).
    { intros k. rewrite cont_at_add. cbn [conts set_cont fresh]. rewrite length_upd.
      destruct (k =? length (conts s)); [reflexivity|].
      pose proof (cont_at_set s i (Trans t None) k) as H.
      rewrite (Hlt _ Hi), andb_true_r in H. exact H. }
    split.
    + apply (shuffle_src s mv _ _ (fun k => if k =? length (conts s) then i else k) (fun k => if k =? length (conts s) then i else k) I);
        cbn [add_cont set_cont fresh nodes next conts]; [reflexivity|lia|..].
      * intros k. rewrite Hc. eqbs; [exists i; rewrite Ei|exists i; rewrite Ei|exists k]; auto.
      * intros k t0 r0. rewrite Hc. eqbs; intros H; [injection H as <- <-; eauto|injection H as <- <-; eauto|eauto].
      * intros k Hk. rewrite app_length, length_upd, Hc. cbn [In] in Hk. destruct Hk as [<-|Hk].
        -- pose proof (cont_lt _ _ Hi). split; [lia|]. intros r0. eqbs; congruence.
        -- destruct (M _ Hk). split; [lia|]. eqbs; [contradiction|contradiction|assumption].
      * intros k l tk rk tl rl Hk Hl Hkl. rewrite !Hc. cbn [In] in Hk, Hl. eqbs; fin T.
      * intros k t0 r0 Hk. rewrite Hc. cbn [In] in Hk. eqbs; intros Ek; [injection Ek as <- <-; eauto 6|exfalso; apply Hk; now left|right; split; [intuition|eauto]].
      * intros k r0 Hk. rewrite Hc. cbn [In] in Hk. eqbs; intros Ek; rewrite ?Ei; [auto|discriminate|intuition].
      * intros k l Hk Hl Hkl. rewrite !Hc. cbn [In] in Hk, Hl. eqbs; intros Dk Dl; split; fin T.
    + intros k rk Hk Hch Ek. rewrite Hc. cbn [nodes]. split; [|auto]. cbn in Hch.
      eqbs; [rewrite Hdead in Ek; discriminate| |exact Ek]. intuition.
  - (* assignment *)
    destruct (mem j mv) eqn:Em; [discriminate|]. apply mem_out in Em. injection U as <-.
    destruct (cont_at s i) as [| |t r] eqn:Ei; try discriminate.
    destruct (cont_at s j) as [| |t2 r2] eqn:Ej; try discriminate. injection E as <-.
    assert (Hi : cont_at s i <> Dead) by congruence.
    assert (Hj : cont_at s j <> Dead) by congruence.
    assert (Hc : forall k, cont_at (set_cont (set_cont (fresh (fresh s)) j (Trans (next s) r2)) i (Trans (S (next s)) r2)) k =
              if k =? i then Trans (S (next s)) r2 else
              if k =? j then Trans (next s) r2 else cont_at s k).
    { intros k. rewrite !cont_at_set. cbn [conts set_cont fresh]. rewrite length_upd.
      rewrite (Hlt _ Hi), (Hlt _ Hj), !andb_true_r. reflexivity. }
    split.
    + apply (shuffle_src s mv _ _ (fun k => if k =? i then j else k) (fun k => k) I);
        cbn [add_cont set_cont fresh nodes next conts]; [reflexivity|lia|..].
      * intros k. rewrite Hc. eqbs; [exists j; rewrite Ej|exists j; rewrite Ej|exists k]; auto.
      * intros k t0 r0. rewrite Hc. eqbs; intros H; [injection H as <- <-; left; lia|injection H as <- <-; left; lia|eauto].
      * intros k Hk. rewrite !length_upd, Hc. rewrite without_in in Hk. destruct Hk as [Hk Hki].
        destruct (M _ Hk). split; [lia|]. eqbs; [contradiction|contradiction|assumption].
      * intros k l tk rk tl rl Hk Hl Hkl. rewrite !Hc. rewrite without_in in Hk, Hl. eqbs; fin T.
      * intros k t0 r0 Hk. rewrite Hc. rewrite without_in in Hk. eqbs; intros Ek;
          [injection Ek as <- <-; left; lia|injection Ek as <- <-; left; lia|right; split; [intuition|eauto]].
      * intros k r0 Hk. rewrite Hc. rewrite without_in in Hk. eqbs; intros Ek; rewrite ?Ej; intuition.
      * intros k l Hk Hl Hkl. rewrite !Hc. rewrite without_in in Hk, Hl. eqbs; intros Dk Dl; split; fin T.
    + intros k rk Hk Hch Ek. rewrite Hc. cbn [nodes]. split; [|auto]. cbn in Hch.
      eqbs; [intuition| |exact Ek]. now rewrite Ej in Ek.
  - (* move assignment *)
    destruct (mem j mv) eqn:Em; [discriminate|]. apply mem_out in Em. injection U as <-.
    destruct (cont_at s i) as [| |t r] eqn:Ei; try discriminate.
    destruct (cont_at s j) as [| |t2 r2] eqn:Ej; try discriminate. injection E as <-.
    assert (Hi : cont_at s i <> Dead) by congruence.
    assert (Hj : cont_at s j <> Dead) by congruence.
    assert (Hc : forall k, cont_at (set_cont (set_cont s j (Trans t2 r)) i (Trans t2 r2)) k =
              if k =? i then Trans t2 r2 else
              if k =? j then Trans t2 r else cont_at s k).
    { intros k. rewrite !cont_at_set. cbn [conts set_cont fresh]. rewrite length_upd.
      rewrite (Hlt _ Hi), (Hlt _ Hj), !andb_true_r. reflexivity. }
    split.
    + apply (shuffle_src s mv _ _ (fun k => if k =? i then j else k) (fun k => if k =? i then j else k) I);
        cbn [add_cont set_cont fresh nodes next conts]; [reflexivity|lia|..].
      * intros k. rewrite Hc. eqbs; [exists j; rewrite Ej|exists i; rewrite Ei|exists k]; auto.
      * intros k t0 r0. rewrite Hc. eqbs; intros H; [injection H as <- <-; eauto|injection H as <- <-; eauto|eauto].
      * intros k Hk. rewrite !length_upd, Hc. cbn [In] in Hk. rewrite without_in in Hk. destruct Hk as [<-|[Hk Hki]].
        -- pose proof (cont_lt _ _ Hj). split; [lia|]. intros r0. eqbs; congruence.
        -- destruct (M _ Hk). split; [lia|]. eqbs; [contradiction|contradiction|assumption].
      * intros k l tk rk tl rl Hk Hl Hkl. rewrite !Hc. cbn [In] in Hk, Hl. rewrite without_in in Hk, Hl. eqbs; fin T.
      * intros k t0 r0 Hk. rewrite Hc. cbn [In] in Hk. rewrite without_in in Hk. eqbs; intros Ek;
          [injection Ek as <- <-; eauto|exfalso; apply Hk; now left|right; split; [intuition|eauto]].
      * intros k r0 Hk. rewrite Hc. cbn [In] in Hk. rewrite without_in in Hk. eqbs; intros Ek; rewrite ?Ej; intuition.
      * intros k l Hk Hl Hkl. rewrite !Hc. cbn [In] in Hk, Hl. rewrite without_in in Hk, Hl. eqbs; intros Dk Dl; split; fin T; intuition congruence.
    + intros k rk Hk Hch Ek. rewrite Hc. cbn [nodes]. split; [|auto]. cbn in Hch.
      eqbs; [intuition|intuition|exact Ek].
  - (* persistent() & *)
    destruct (mem i mv) eqn:Em; [discriminate|]. apply mem_out in Em. injection U as <-.
    destruct (cont_at s i) as [| |t r] eqn:Ei; try discriminate. injection E as <-.
    assert (Hi : cont_at s i <> Dead) by congruence.
    assert (Hc : forall k, cont_at (add_cont (set_cont (fresh s) i (Trans (next s) r)) (Pers r)) k =
              if k =? length (conts s) then Pers r else
              if k =? i then Trans (next s) r else cont_at s k).
    { intros k. rewrite cont_at_add. cbn [conts set_cont fresh]. rewrite length_upd.
      destruct (k =? length (conts s)); [reflexivity|].
      pose proof (cont_at_set (fresh s) i (Trans (next s) r) k) as H.
      cbn [conts fresh] in H. rewrite (Hlt _ Hi), andb_true_r in H. exact H. }
    split.
    + apply (shuffle_src s mv _ _ (fun k => if k =? length (conts s) then i else k) (fun k => k) I);
        cbn [add_cont set_cont fresh nodes next conts]; [reflexivity|lia|..].
      * intros k. rewrite Hc. eqbs; [exists i; rewrite Ei|exists i; rewrite Ei|exists k]; auto.
      * intros k t0 r0. rewrite Hc. eqbs; intros H; [discriminate|injection H as <- <-; left; lia|eauto].
      * intros k Hk. rewrite app_length, length_upd, Hc. destruct (M _ Hk). split; [lia|].
        eqbs; [contradiction|contradiction|assumption].
      * intros k l tk rk tl rl Hk Hl Hkl. rewrite !Hc. eqbs; fin T.
      * intros k t0 r0 Hk. rewrite Hc. eqbs; intros Ek; [discriminate| injection Ek as <- <-; left; lia|eauto].
      * intros k r0 Hk. rewrite Hc. eqbs; intros Ek; rewrite ?Ei; auto.
      * intros k l Hk Hl Hkl. rewrite !Hc. eqbs; intros Dk Dl; split; fin T.
    + intros k rk Hk _ Ek. rewrite Hc. cbn [nodes]. split; [|auto].
      eqbs; [rewrite Hdead in Ek; discriminate| |exact Ek]. now rewrite Ei in Ek.
  - (* persistent() && *)
    destruct (mem i mv) eqn:Em; [discriminate|]. apply mem_out in Em. injection U as <-.
    destruct (cont_at s i) as [| |t r] eqn:Ei; try discriminate. injection E as <-.
    assert (Hi : cont_at s i <> Dead) by congruence.
    assert (Hc : forall k, cont_at (add_cont (set_cont s i (Trans t (if keep then r else None))) (Pers r)) k =
              if k =? length (conts s) then Pers r else
              if k =? i then Trans t (if keep then r else None) else cont_at s k).
    { intros k. rewrite cont_at_add. cbn [conts set_cont fresh]. rewrite length_upd.
      destruct (k =? length (conts s)); [reflexivity|].
      pose proof (cont_at_set s i (Trans t (if keep then r else None)) k) as H.
      rewrite (Hlt _ Hi), andb_true_r in H. exact H. }
    split.
    + apply (shuffle_src s mv _ _ (fun k => if k =? length (conts s) then i else k) (fun k => k) I);
        cbn [add_cont set_cont fresh nodes next conts]; [reflexivity|lia|..].
      * intros k. rewrite Hc. eqbs; [exists i; rewrite Ei|exists i; rewrite Ei; destruct keep|exists k]; auto.
      * intros k t0 r0. rewrite Hc. eqbs; intros H; [discriminate|injection H as <- <-; eauto|eauto].
      * intros k Hk. rewrite app_length, length_upd, Hc. cbn [In] in Hk. destruct Hk as [<-|Hk].
        -- pose proof (cont_lt _ _ Hi). split; [lia|]. intros r0. eqbs; congruence.
        -- destruct (M _ Hk). split; [lia|]. eqbs; [contradiction|contradiction|assumption].
      * intros k l tk rk tl rl Hk Hl Hkl. rewrite !Hc. cbn [In] in Hk, Hl. eqbs; fin T.
      * intros k t0 r0 Hk. rewrite Hc. cbn [In] in Hk. eqbs; intros Ek; [discriminate| exfalso; apply Hk; now left|right; split; [intuition|eauto]].
      * intros k r0 Hk. rewrite Hc. cbn [In] in Hk. eqbs; intros Ek; rewrite ?Ei; [auto|exfalso; apply Hk; now left|intuition].
      * intros k l Hk Hl Hkl. rewrite !Hc. cbn [In] in Hk, Hl. eqbs; intros Dk Dl; split; fin T; intuition congruence.
    + intros k rk Hk Hch Ek. rewrite Hc. cbn [nodes]. split; [|auto]. cbn in Hch.
      eqbs; [rewrite Hdead in Ek; discriminate| |exact Ek]. intuition.
  - (* destructor *)
    injection U as <-. injection E as <-.
    assert (Hc : forall k, cont_at (set_cont s i Dead) k = if k =? i then Dead else cont_at s k).
    { intros k. rewrite cont_at_set. destruct (Nat.eqb_spec k i) as [->|]; cbn [andb]; [|reflexivity].
      destruct (Nat.ltb_spec i (length (conts s))); [reflexivity|]. now apply nth_overflow. }
    split.
    + apply (shuffle_src s mv _ _ (fun k => k) (fun k => k) I);
        cbn [add_cont set_cont fresh nodes next conts]; [reflexivity|lia|..].
      * intros k. rewrite Hc. exists k. eqbs; auto.
      * intros k t0 r0. rewrite Hc. eqbs; intros H; [discriminate|eauto].
      * intros k Hk. rewrite length_upd, Hc. destruct (M _ Hk). split; [lia|]. intros r0. eqbs; [discriminate|auto].
      * intros k l tk rk tl rl Hk Hl Hkl. rewrite !Hc. eqbs; fin T.
      * intros k t0 r0 Hk. rewrite Hc. eqbs; intros Ek; [discriminate|eauto].
      * intros k r0 Hk. rewrite Hc. eqbs; intros Ek; [discriminate|auto].
      * intros k l Hk Hl Hkl. rewrite !Hc. eqbs; intros Dk Dl; split; fin T.
    + intros k rk Hk Hch Ek. rewrite Hc. cbn [nodes]. split; [|auto]. cbn in Hch.
      eqbs; [intuition|exact Ek].
Qed.

Lemma tstep_ok s mv mv' o s' : tinv s mv -> uses mv o = Some mv' -> tstep s o = Some s' ->
  tinv s' mv' /\ isolated s s' mv o.
Proof.
  intros I U E. destruct o; try (eapply move_ok; eauto; exact Logic.I).
  - injection U as <-. now apply build_ok.
  - eapply edit_ok; eauto.
Qed.
Lemma tinit_inv : tinv tinit [].
Proof.
  assert (H : forall i, cont_at (@tinit V) i = Dead) by (intros [|i]; reflexivity).
  constructor.
  - intros [|a] n Ha; discriminate Ha.
  - intros i a. rewrite H. discriminate.
  - intros i t r. rewrite H. discriminate.
  - intros i [].
  - intros i j ti ri tj rj _ _ _. rewrite H. discriminate.
  - intros i t r j rj a n _. rewrite H. discriminate.
  - cbn. lia.
Qed.
Lemma trun_ok : forall os s mv mv' s', tinv s mv -> all_uses mv os = Some mv' -> trun s os = Some s' ->
  tinv s' mv'.
Proof.
  induction os as [|o os IH]; cbn; intros s mv mv' s' I U E.
  - congruence.
  - destruct (uses mv o) as [mv1|] eqn:U1; [|discriminate].
    destruct (tstep s o) as [s1|] eqn:E1; [|discriminate].
    eapply IH; [|exact U|exact E]. eapply tstep_ok; eauto.
Qed.
End Proofs.
