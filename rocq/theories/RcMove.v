(** How memory changes in an operation: blocks keep their contents and pointers. *)
From Coq Require Import List Arith Bool Lia.
From Verif Require Import Common AtomProofs RcHeap RcProofs.
Import ListNotations.
Set Default Goal Selector "!".

Section Move.
Context {B : Type}.
Notation heap := (heap B). Notation cell := (cell B).
Implicit Types (h : heap) (c : cell).

(** Reached from one of [R]. *)
Definition rch (L : list nat) (h : heap) (R : list nat) (x : nat) : Prop :=
  exists r, In r R /\ reaches (wipe L h) r x.
(** The blocks of interest: all, or those reached from some references. *)
Definition within (K : option (list nat)) (L : list nat) (h : heap) (x : nat) : Prop :=
  match K with None => True | Some R => rch L h R x end.
(** From [h] with local blocks [L] to [h'] with local blocks [L']: the blocks [L0] are
    untouched, the blocks of interest keep their contents and pointers. *)
Definition mv (K : option (list nat)) (L0 L L' : list nat) (h h' : heap) : Prop :=
  (forall x, In x L0 -> nth_error h' x = nth_error h x) /\
  (forall x c, within K L h x -> cell_at (wipe L h) x c ->
     exists c', cell_at (wipe L' h') x c' /\ c_body c' = c_body c /\ c_kids c' = c_kids c) /\
  length h <= length h'.
Definition live (L : list nat) (h : heap) (a : nat) : Prop := exists c, cell_at (wipe L h) a c.

Lemma mv_refl K L0 L h : mv K L0 L L h h.
Proof. split; [auto|split; [|lia]]. intros x c _ Hc. exists c. auto. Qed.
Lemma mv_reach R L0 L L' h h' : mv (Some R) L0 L L' h h' -> forall x, rch L h R x -> rch L' h' R x.
Proof.
  intros (_ & H & _) x (r & Hr & Hx). exists r. split; [exact Hr|].
  induction Hx as [|x c b Hx IH Hc Hb]; [constructor|].
  destruct (H x c) as (c' & Hc' & _ & E); [exists r; auto|exact Hc|].
  eapply reaches_kid; [exact IH|exact Hc'|]. now rewrite E.
Qed.
Lemma mv_within K L0 L L' h h' x : mv K L0 L L' h h' -> within K L h x -> within K L' h' x.
Proof. destruct K as [R|]; [|auto]. intros M. now apply (mv_reach _ _ _ _ _ _ M). Qed.
Lemma mv_trans K L0 L1 L2 L3 h1 h2 h3 :
  mv K L0 L1 L2 h1 h2 -> mv K L0 L2 L3 h2 h3 -> mv K L0 L1 L3 h1 h3.
Proof.
  intros M1 M2. pose proof M1 as (A1 & B1 & C1). pose proof M2 as (A2 & B2 & C2).
  split; [|split; [|lia]].
  - intros x Hx. rewrite A2, A1; auto.
  - intros x c Hw Hc. destruct (B1 x c Hw Hc) as (c1 & Hc1 & E1 & E1').
    destruct (B2 x c1) as (c2 & Hc2 & E2 & E2'); [eapply mv_within; eauto|exact Hc1|].
    exists c2. repeat split; congruence.
Qed.
Lemma mv_weak K L0 L0' L L' h h' : mv K L0 L L' h h' -> incl L0' L0 -> mv K L0' L L' h h'.
Proof. intros (A & C) H. split; [|exact C]. intros x Hx. apply A. now apply H. Qed.
Lemma mv_tail K a L0 L L' h h' : mv K (a :: L0) L L' h h' -> mv K L0 L L' h h'.
Proof. intros M. apply (mv_weak _ _ _ _ _ _ _ M). intros x. now right. Qed.
Lemma mv_all K L0 L L' h h' : mv None L0 L L' h h' -> mv K L0 L L' h h'.
Proof. intros (A & C & D). split; [exact A|split; [|exact D]]. intros x c _. apply C. exact I. Qed.
Lemma mv_sub R R' L0 L L' h h' : mv (Some R) L0 L L' h h' -> incl R' R -> mv (Some R') L0 L L' h h'.
Proof.
  intros (A & C & D) H. split; [exact A|split; [|exact D]]. intros x c (r & Hr & Hx). apply C.
  exists r. auto.
Qed.
Lemma rch_root L h R a : In a R -> rch L h R a.
Proof. exists a. split; [assumption|constructor]. Qed.
Definition kept (K : option (list nat)) (a : nat) : Prop := match K with None => True | Some R => In a R end.
Lemma kept_within K L h a : kept K a -> within K L h a.
Proof. destruct K; cbn; [apply rch_root|auto]. Qed.
Lemma mv_cell K L0 L L' h h' a c : mv K L0 L L' h h' -> kept K a -> cell_at (wipe L h) a c ->
  exists c', cell_at (wipe L' h') a c' /\ c_body c' = c_body c /\ c_kids c' = c_kids c.
Proof. intros (_ & H & _) Hk Hc. apply H; [now apply kept_within|exact Hc]. Qed.
Lemma mv_live K L0 L L' h h' a : mv K L0 L L' h h' -> kept K a -> live L h a -> live L' h' a.
Proof. intros M Hk [c Hc]. destruct (mv_cell _ _ _ _ _ _ _ _ M Hk Hc) as (c' & Hc' & _). now exists c'. Qed.
Lemma mv_in K L0 L L' h h' x : mv K L0 L L' h h' -> In x L0 -> nth_error h' x = nth_error h x.
Proof. intros (H & _). apply H. Qed.
Lemma mv_local K L0 L L' h h' x c : mv K L0 L L' h h' -> In x L0 -> cell_at h x c -> cell_at h' x c.
Proof. intros M Hi Hc. unfold cell_at in *. rewrite (mv_in _ _ _ _ _ _ _ M Hi). exact Hc. Qed.

Lemma mv_srep' K L0 L L' h h' : mv K L0 L L' h h' ->
  forall a t, srep L h a t -> within K L h a -> srep L' h' a t.
Proof.
  intros M a t H. unfold srep in *. revert a t H. refine (rep_ind' _ _ _). intros a c ts Hc Hk IH Hw.
  pose proof M as (_ & P & _). destruct (P a c Hw Hc) as (c' & Hc' & <- & E).
  constructor; [exact Hc'|]. rewrite E.
  assert (W : forall k, In k (c_kids c) -> within K L h k).
  { intros k Hi. destruct K as [R|]; [|exact I]. destruct Hw as (r & Hr & Hx). exists r.
    split; [exact Hr|]. eapply reaches_kid; eauto. }
  clear - IH W. induction IH as [|k u ks ts Hk _ IH]; constructor.
  - apply Hk. apply W. now left.
  - apply IH. intros x Hx. apply W. now right.
Qed.
Lemma mv_srep K L0 L L' h h' a t : mv K L0 L L' h h' -> kept K a -> srep L h a t -> srep L' h' a t.
Proof. intros M Hk H. eapply mv_srep'; [exact M|exact H|now apply kept_within]. Qed.
Lemma mv_sreps K L0 L L' h h' ks ts : mv K L0 L L' h h' -> (forall a, In a ks -> kept K a) ->
  Forall2 (srep L h) ks ts -> Forall2 (srep L' h') ks ts.
Proof.
  intros M Hk H. induction H as [|k u ks ts Hr _ IH]; constructor.
  - eapply mv_srep; [exact M|apply Hk; now left|exact Hr].
  - apply IH. intros x Hx. apply Hk. now right.
Qed.

(** Nothing appears and no count grows. *)
Definition shr (L L' : list nat) (h h' : heap) : Prop :=
  forall x c', cell_at (wipe L' h') x c' ->
    exists c, cell_at (wipe L h) x c /\ c_rc c' <= c_rc c /\ c_body c' = c_body c /\ c_kids c' = c_kids c.
Lemma shr_refl L h : shr L L h h.
Proof. intros x c Hc. exists c. auto. Qed.
Lemma shr_trans L1 L2 L3 h1 h2 h3 : shr L1 L2 h1 h2 -> shr L2 L3 h2 h3 -> shr L1 L3 h1 h3.
Proof.
  intros S1 S2 x c3 H3. destruct (S2 _ _ H3) as (c2 & H2 & E2 & E2' & E2'').
  destruct (S1 _ _ H2) as (c1 & H1 & E1 & E1' & E1''). exists c1.
  split; [exact H1|]. split; [lia|]. split; congruence.
Qed.

Lemma reaches_head g a x : reaches g a x ->
  x = a \/ exists c k, cell_at g a c /\ In k (c_kids c) /\ reaches (B := B) g k x.
Proof.
  induction 1 as [|x c b Hx IH Hc Hb]; [now left|]. right. destruct IH as [->|(d & k & Hd & Hk & Hr)].
  - exists c, b. split; [exact Hc|]. split; [exact Hb|constructor].
  - exists d, k. split; [exact Hd|]. split; [exact Hk|]. eapply reaches_kid; eauto.
Qed.
(** What a block keeps when it and its children are kept. *)
Lemma mv_close R L0 L L' h h' a c c' : mv (Some (c_kids c ++ R)) L0 L L' h h' ->
  cell_at (wipe L h) a c -> cell_at (wipe L' h') a c' -> c_body c' = c_body c -> c_kids c' = c_kids c ->
  mv (Some (a :: R)) L0 L L' h h'.
Proof.
  intros (M1 & M2 & M3) Hc Hc' Eb Ek. split; [exact M1|split; [|exact M3]].
  intros x d (r & Hr & Hx) Hd. destruct Hr as [<-|Hr].
  - destruct (reaches_head _ _ _ Hx) as [->|(e & k & He & Hk & Hx')].
    + unfold cell_at in *. rewrite Hc in Hd. injection Hd as <-. exists c'. auto.
    + unfold cell_at in Hc, He. rewrite Hc in He. injection He as <-. apply M2; [|exact Hd].
      exists k. split; [apply in_or_app; now left|exact Hx'].
  - apply M2; [|exact Hd]. exists r. split; [apply in_or_app; now right|exact Hx].
Qed.

Lemma srep_live L h a t : srep L h a t -> live L h a.
Proof. intros H. destruct (rep_inv _ _ _ H) as (c & ts & Hc & _). exists c. exact Hc. Qed.
Lemma root_live L h R a : st L h R -> In a R -> live L h a.
Proof. intros (G & _) Hi. destruct (good_root _ _ _ G Hi) as [c Hc]. exists c. exact Hc. Qed.
Lemma live_rep L h R a : st L h R -> live L h a -> exists t, srep L h a t.
Proof. intros ((_ & H) & _) [c Hc]. exact (H _ _ Hc). Qed.
Lemma local_cell L h R a : st L h R -> In a L -> exists c, cell_at h a c.
Proof. intros (_ & H & _) Hi. rewrite Forall_forall in H. auto. Qed.

(** *** Steps *)
Lemma wv_inc L h R a (Q : unit -> heap -> Prop) : st L h R -> live L h a ->
  (forall h', st L h' (a :: R) -> mv None L L L h h' -> Q tt h') -> wp (inc a) h Q.
Proof.
  intros T [c Hc] K. destruct (wipe_cell _ _ _ _ Hc) as [Hn Hc'].
  pose proof (wp_inc L h R a (fun _ h' => mv None L L L h h' -> Q tt h') T (ex_intro _ c Hc)) as W.
  unfold wp, inc, mbind, load, store in *. unfold cell_at in Hc'. rewrite Hc', Hc' in *.
  apply W; [intros h' T' _ M; now apply K|].
  split; [|split].
  - intros x Hx. apply nth_upd. intros ->. auto.
  - intros x d _ Hd. rewrite wipe_upd_out by exact Hn. now apply keeps_count.
  - now rewrite length_upd.
Qed.
Lemma wv_incs L ks : forall h R (Q : unit -> heap -> Prop), st L h R -> Forall (live L h) ks ->
  (forall h', st L h' (ks ++ R) -> mv None L L L h h' -> Q tt h') -> wp (each_of inc ks) h Q.
Proof.
  induction ks as [|k ks IH]; intros h R Q T Hl K; cbn [each_of].
  - apply wp_ret. apply K; [exact T|apply mv_refl].
  - inversion Hl as [|? ? Hk Hl']; subst. apply wp_bind.
    apply wv_inc with (L := L) (R := R); [exact T|exact Hk|]. intros h1 T1 F1.
    apply IH with (R := k :: R); [exact T1| |].
    + eapply Forall_impl; [|exact Hl']. intros x Hx. eapply mv_live; [exact F1|exact I|exact Hx].
    + intros h2 T2 F2. apply K; [|eapply mv_trans; eauto].
      eapply st_eqv; [|exact T2]. intros x. cbn [app]. rewrite occ_app. cbn. rewrite occ_app. lia.
Qed.

Lemma allocated L h R : st L h R -> Forall (fun a => a < length h) L.
Proof. intros (_ & Hl & _). eapply Forall_impl; [|exact Hl]. intros x [c Hc]. eapply nth_lt; exact Hc. Qed.

(** A new block that is local; its pointers stay among the references. *)
Lemma wv_new_local L h R b ks (Q : nat -> heap -> Prop) : st L h R ->
  (forall a h', st (a :: L) h' R -> ~ In a L -> cell_at h' a (mkCell 1 b ks) ->
     mv None L L (a :: L) h h' -> Q a h') ->
  wp (new b ks) h Q.
Proof.
  intros T K. pose proof (allocated _ _ _ T) as Hl. pose proof T as (G & L1 & N).
  unfold wp, new.
  assert (Hn : ~ In (length h) L).
  { intros Hi. rewrite Forall_forall in Hl. specialize (Hl _ Hi). lia. }
  assert (E : wipe (length h :: L) (h ++ [Some (mkCell 1 b ks)]) = wipe L h ++ [None]).
  { cbn. rewrite wipe_app by exact Hl. clear - B. rewrite <- (length_wipe L h).
    induction (wipe L h) as [|y l IH]; cbn; [reflexivity|]. now rewrite IH. }
  assert (Kp : keeps (wipe L h) (wipe L h ++ [None])).
  { intros x c Hc. exists c. unfold cell_at in *. rewrite nth_error_app1; [auto|]. eapply nth_lt; exact Hc. }
  apply K.
  - split; [|split].
    + rewrite E. destruct G as [G1 G2]. split.
      * intros x. specialize (G1 x). unfold refs in *. rewrite total_app. cbn.
        destruct (Nat.lt_ge_cases x (length (wipe L h))) as [Hlt|Hge].
        -- rewrite nth_error_app1 by assumption. rewrite !Nat.add_0_r. exact G1.
        -- rewrite nth_error_app2 by assumption.
           assert (nth_error (wipe L h) x = None) as En by now apply nth_error_None.
           rewrite En in G1. rewrite !Nat.add_0_r.
           destruct (x - length (wipe L h)) as [|[|?]]; cbn; exact G1.
      * intros x c Hc. unfold cell_at in Hc.
        destruct (Nat.lt_ge_cases x (length (wipe L h))) as [Hlt|Hge].
        -- rewrite nth_error_app1 in Hc by assumption. destruct (G2 _ _ Hc) as [t Ht]. exists t.
           eapply rep_keeps; eauto.
        -- rewrite nth_error_app2 in Hc by assumption.
           destruct (x - length (wipe L h)) as [|[|?]]; cbn in Hc; discriminate.
    + constructor.
      * exists (mkCell 1 b ks). unfold cell_at. rewrite nth_error_app2 by lia. now rewrite Nat.sub_diag.
      * eapply Forall_impl; [|exact L1]. intros x [c Hc]. exists c. unfold cell_at.
        rewrite nth_error_app1; [exact Hc|]. eapply nth_lt; exact Hc.
    + now constructor.
  - exact Hn.
  - unfold cell_at. rewrite nth_error_app2 by lia. now rewrite Nat.sub_diag.
  - split; [|split].
    + intros x Hx. rewrite Forall_forall in Hl. now rewrite nth_error_app1 by auto.
    + intros x c _ Hc. rewrite E. exact (Kp x c Hc).
    + rewrite app_length. lia.
Qed.
(** A new block that takes over references. *)
Lemma wv_new_exact L h R b ks (Q : nat -> heap -> Prop) : st L h R ->
  (forall a h', st (a :: L) h' R -> ~ In a L -> cell_at h' a (mkCell 1 b ks) ->
     mv None L L (a :: L) h h' -> (forall x c, cell_at h x c -> cell_at h' x c /\ x <> a) -> Q a h') ->
  wp (new b ks) h Q.
Proof.
  intros T K. pose proof (wv_new_local L h R b ks (fun a h' => (forall x c, cell_at h x c -> cell_at h' x c /\ x <> a) -> Q a h') T) as W.
  unfold wp, new in *. apply W; [intros; now apply K|]. intros x c Hx.
  pose proof (nth_lt _ _ _ Hx) as Hl. unfold cell_at in *. rewrite nth_error_app1 by exact Hl. split; [exact Hx|lia].
Qed.
Lemma wv_new L h R b ks (Q : nat -> heap -> Prop) : st L h (ks ++ R) ->
  (forall a h', st L h' (a :: R) -> mv None L L L h h' -> cell_at (wipe L h') a (mkCell 1 b ks) -> Q a h') ->
  wp (new b ks) h Q.
Proof.
  intros T K. apply wv_new_local with (L := L) (R := ks ++ R); [exact T|].
  intros a h' T' Hn Hc M. destruct (st_put L h' R a (mkCell 1 b ks) T' Hc eq_refl) as (T2 & _ & _).
  assert (W : cell_at (wipe L h') a (mkCell 1 b ks)) by (unfold cell_at; rewrite wipe_out; assumption).
  apply K; [exact T2| |exact W].
  destruct M as (M1 & M2 & M3). split; [exact M1|split; [|exact M3]]. intros x c Hw Hx.
  destruct (M2 x c Hw Hx) as (c' & Hc' & E). exists c'. split; [|exact E].
  destruct (wipe_cell _ _ _ _ Hc') as [Hx1 Hx2]. unfold cell_at. rewrite wipe_out; [exact Hx2|].
  intros Hi. apply Hx1. now right.
Qed.

(** Taking a block with one reference, writing it, publishing it. *)
Lemma sv_take L h R a c : st L h (a :: R) -> cell_at (wipe L h) a c -> c_rc c = 1 ->
  st (a :: L) h (c_kids c ++ R) /\ ~ In a L /\ cell_at h a c /\ mv (Some (c_kids c ++ R)) L L (a :: L) h h.
Proof.
  intros T Hc E. destruct (st_take _ _ _ _ _ T Hc E) as (T' & N & Hc' & _).
  split; [exact T'|]. split; [exact N|]. split; [exact Hc'|].
  pose proof T as (G & _ & _). destruct (sole _ _ _ _ G Hc E) as [S1 S2].
  assert (NI : ~ In a (c_kids c ++ R)).
  { intros Hi. apply in_app_or in Hi. destruct Hi as [Hi|Hi]; [exact (S2 _ _ Hc Hi)|exact (S1 Hi)]. }
  split; [auto|split; [|lia]]. intros x d (r & Hr & Hx) Hd. exists d. split; [|auto].
  unfold cell_at. cbn [wipe]. rewrite nth_upd; [exact Hd|]. intros ->.
  inversion Hx as [E0|y e b Hy He Hb]; subst; [auto|]. exact (S2 _ _ He Hb).
Qed.
Lemma wv_store L h R a c' (Q : unit -> heap -> Prop) : st L h R -> In a L ->
  (forall h', st L h' R -> cell_at h' a c' -> (forall x, x <> a -> nth_error h' x = nth_error h x) ->
     (forall L0, ~ In a L0 -> mv None L0 L L h h') -> Q tt h') ->
  wp (store a c') h Q.
Proof.
  intros T Hi K. apply wp_store_local with (S := L) (R := R); [exact T|exact Hi|].
  intros h' T' Ew Hc F El. apply K; [exact T'|exact Hc|exact F|].
  intros L0 Hn. split; [|split; [|lia]].
  - intros x Hx. apply F. intros ->. auto.
  - intros x c _ Hx. rewrite Ew. exists c. auto.
Qed.
Lemma sv_put L h R a c : st (a :: L) h (c_kids c ++ R) -> cell_at h a c -> c_rc c = 1 ->
  st L h (a :: R) /\ mv None L (a :: L) L h h /\ cell_at (wipe L h) a c.
Proof.
  intros T Hc E. destruct (st_put _ _ _ _ _ T Hc E) as (T' & _ & _).
  assert (Hn : ~ In a L) by (destruct T as (_ & _ & N); now inversion N).
  assert (W : cell_at (wipe L h) a c) by (unfold cell_at; rewrite wipe_out; assumption).
  split; [exact T'|]. split; [|exact W].
  split; [auto|split; [|lia]]. intros x d _ Hd. exists d. split; [|auto].
  destruct (wipe_cell _ _ _ _ Hd) as [Hx1 Hx2]. unfold cell_at. rewrite wipe_out; [exact Hx2|].
  intros Hi. apply Hx1. now right.
Qed.
Lemma wv_free L h R a (Q : unit -> heap -> Prop) : st (a :: L) h R ->
  (forall h', st L h' R -> mv None L (a :: L) L h h' -> shr (a :: L) L h h' -> Q tt h') -> wp (free a) h Q.
Proof.
  intros T K. apply wp_free with (S := L) (R := R); [exact T|]. intros h' T' E F El.
  apply K; [exact T'| |].
  - split; [exact F|split; [|lia]]. intros x c _ Hx. rewrite E. exists c. auto.
  - intros x c Hx. rewrite E in Hx. exists c. auto.
Qed.
Lemma wv_dec L h R a (Q : bool -> heap -> Prop) : st L h (a :: R) ->
  (forall h', st L h' R -> mv None L L L h h' -> shr L L h h' -> Q false h') ->
  (forall c h', cell_at (wipe L h) a c -> c_rc c = 1 -> ~ In a L ->
     st (a :: L) h' (c_kids c ++ R) -> cell_at h' a (mkCell 0 (c_body c) (c_kids c)) ->
     mv (Some (c_kids c ++ R)) L L (a :: L) h h' -> shr L (a :: L) h h' -> Q true h') ->
  wp (dec a) h Q.
Proof.
  intros T K1 K2. pose proof T as (G & L1 & N).
  destruct (good_root _ _ a G) as [c Hc]; [now left|].
  destruct (wipe_cell _ _ _ _ Hc) as [Hn Hc'].
  pose proof (proj1 G a) as Hrc. unfold cell_at in Hc. rewrite Hc in Hrc. fold (cell_at (wipe L h) a c) in Hc.
  unfold dec. apply wp_bind. apply wp_load with (c := c); [exact Hc'|].
  destruct (c_rc c) as [|n] eqn:E; [lia|]. apply wp_bind.
  destruct n as [|n].
  - destruct (sv_take _ _ _ _ _ T Hc E) as (T' & _ & _ & M).
    apply wv_store with (L := a :: L) (R := c_kids c ++ R); [exact T'|now left|].
    intros h' T2 Hc2 F M2. apply wp_ret. cbn [Nat.eqb].
    apply (K2 c); [exact Hc|exact E|exact Hn|exact T2|exact Hc2| |].
    + eapply mv_trans; [exact M|]. apply mv_all. now apply M2.
    + intros x d Hd. destruct (wipe_cell _ _ _ _ Hd) as [Hx1 Hx2].
      assert (x <> a) by (intros ->; apply Hx1; now left). exists d. split; [|auto].
      unfold cell_at. rewrite wipe_out; [|intros Hi; apply Hx1; now right].
      unfold cell_at in Hx2. rewrite F in Hx2 by assumption. exact Hx2.
  - unfold wp, store. unfold cell_at in Hc'. rewrite Hc'. cbn [mret Nat.eqb].
    pose proof (wp_dec L h R a (fun b h' => b = false -> mv None L L L h h' -> shr L L h h' -> Q b h') T) as W.
    unfold wp, dec, mbind, load, store, mret in W. rewrite Hc', E, Hc' in W. cbn in W.
    apply W; [..|reflexivity| |].
    + intros d h' _ _ T' _ _ M S'. now apply K1.
    + intros d h' _ _ _ _ _ _ _ _ H. discriminate.
    + split; [|split].
      * intros x Hx. apply nth_upd. intros ->. auto.
      * intros x d _ Hd. rewrite wipe_upd_out by exact Hn. now apply keeps_count.
      * now rewrite length_upd.
    + intros x d Hd. rewrite wipe_upd_out in Hd by exact Hn. unfold cell_at in Hd.
      destruct (Nat.eq_dec x a) as [->|Hx].
      * rewrite nth_upd_same in Hd by (rewrite length_wipe; eapply nth_lt; exact Hc').
        injection Hd as <-. exists c. split; [exact Hc|]. cbn. rewrite E. auto.
      * rewrite nth_upd in Hd by exact Hx. exists d. auto.
Qed.
(** Reading the count of a block that is referred to. *)
Lemma wv_unique L h R a c (Q : bool -> heap -> Prop) : st L h R -> cell_at (wipe L h) a c ->
  (c_rc c = 1 -> Q true h) -> (1 < c_rc c -> Q false h) -> wp (unique a) h Q.
Proof.
  intros (G & _) Hc K1 K2. destruct (wipe_cell _ _ _ _ Hc) as [_ Hc'].
  unfold wp, unique, mbind, load, mret. unfold cell_at in Hc'. rewrite Hc'.
  pose proof (proj1 G a) as H. unfold cell_at in Hc. rewrite Hc in H.
  destruct (Nat.eqb_spec (c_rc c) 1) as [E|E]; [auto|]. apply K2. lia.
Qed.
End Move.
#[global] Arguments mv : simpl never.
