(** The nodes of VecHeap represent the nodes of Rrb; releasing nodes. *)
From Coq Require Import List NArith Arith Bool Lia ZifyN ZifyNat ZifyBool.
From Verif Require Import Common NList Rrb RrbInv RrbPos RrbOps RrbSlice RrbViewOk AtomProofs
  RcHeap RcProofs RcExn RcExnProofs RcMove VecHeap VecPlan.
Import ListNotations.
Local Open Scope N_scope.
Set Default Goal Selector "!".

Section Nodes.
Context {T : Type}.
Variables B BL : N.
Notation body := (vbody T).
Notation heap := (heap body). Notation cell := (cell body).
Notation pos_ok := (@pos_ok T B BL).
Notation wf := (@wf T B BL).
Notation kok := (@kok T B BL).
Notation kpos := (@kpos T B BL).
Notation nm := (@nil T).
Implicit Types (h : heap) (L R : list nat).

(** ** Representation *)
Fixpoint lvl (n : node T) : nat :=
  match n with
  | Leaf _ => O
  | Inner _ ns => S (match ns with c :: _ => lvl c | [] => O end)
  end.
Definition lv1 (ns : list (node T)) : nat := S (match ns with c :: _ => lvl c | [] => O end).
Fixpoint enc (n : node T) : rtree body :=
  match n with
  | Leaf xs => RT (VLeaf xs) []
  | Inner None ns => RT VInner (map enc ns)
  | Inner (Some sz) ns => RT VRel (RT (VTable (lv1 ns) sz) [] :: map enc ns)
  end.
Definition nrep L h (a : nat) (n : node T) : Prop := srep L h a (enc n).
Definition trep L h (r : nat) (v : nat) (sz : list N) : Prop := srep L h r (RT (VTable v sz) []).
Definition ptrs (r : option nat) (cs : list nat) : list nat :=
  match r with None => cs | Some r => r :: cs end.
Definition icell (rc : nat) (r : option nat) (cs : list nat) : cell :=
  mkCell rc (match r with None => VInner | Some _ => VRel end) (ptrs r cs).
Definition orep L h (r : option nat) (v : nat) (o : option (list N)) : Prop :=
  match r, o with
  | None, None => True
  | Some r, Some sz => trep L h r v sz
  | _, _ => False
  end.

Lemma F2_map_enc L h cs ns : Forall2 (srep L h) cs (map enc ns) <-> Forall2 (nrep L h) cs ns.
Proof.
  split.
  - revert cs. induction ns as [|n ns IH]; intros cs H; inversion H; subst; constructor; auto.
  - induction 1; constructor; auto.
Qed.
Lemma nrep_leaf_inv L h a xs : nrep L h a (Leaf xs) -> exists rc, cell_at (wipe L h) a (mkCell rc (VLeaf xs) []).
Proof.
  intros H. destruct (rep_inv _ _ _ H) as ([rc b ks] & ts & Hc & Hk & E). cbn in *. injection E as <- <-.
  inversion Hk; subst. now exists rc.
Qed.
Lemma nrep_inner_inv L h a o ns : nrep L h a (Inner o ns) ->
  exists rc r cs, cell_at (wipe L h) a (icell rc r cs) /\ orep L h r (lv1 ns) o /\ Forall2 (nrep L h) cs ns.
Proof.
  intros H. destruct (rep_inv _ _ _ H) as ([rc b ks] & ts & Hc & Hk & E). cbn in *. destruct o as [sz|].
  - injection E as <- <-. inversion Hk as [|r ? cs ? Hr Hk']; subst. exists rc, (Some r), cs.
    split; [exact Hc|]. split; [exact Hr|]. now apply F2_map_enc.
  - injection E as <- <-. exists rc, None, ks. split; [exact Hc|]. split; [exact I|]. now apply F2_map_enc.
Qed.
Lemma nrep_leaf L h a rc xs : cell_at (wipe L h) a (mkCell rc (VLeaf xs) []) -> nrep L h a (Leaf xs).
Proof. intros H. apply (rep_intro _ a _ [] H). constructor. Qed.
Lemma nrep_inner L h a rc r cs o ns : cell_at (wipe L h) a (icell rc r cs) -> orep L h r (lv1 ns) o ->
  Forall2 (nrep L h) cs ns -> nrep L h a (Inner o ns).
Proof.
  intros Hc Ho Hk. apply F2_map_enc in Hk. destruct r as [r|], o as [sz|]; try easy.
  - apply (rep_intro _ a _ (RT (VTable (lv1 ns) sz) [] :: map enc ns) Hc). cbn. constructor; assumption.
  - exact (rep_intro _ a _ (map enc ns) Hc Hk).
Qed.
Lemma trep_inv L h r v sz : trep L h r v sz -> exists rc, cell_at (wipe L h) r (mkCell rc (VTable v sz) []).
Proof.
  intros H. destruct (rep_inv _ _ _ H) as ([rc b ks] & ts & Hc & Hk & E). cbn in *. injection E as <- <-.
  inversion Hk; subst. now exists rc.
Qed.
Lemma trep_intro L h r rc v sz : cell_at (wipe L h) r (mkCell rc (VTable v sz) []) -> trep L h r v sz.
Proof. intros H. apply (rep_intro _ r _ [] H). constructor. Qed.
Lemma F2_len {A C} (P : A -> C -> Prop) l m : Forall2 P l m -> lenN l = lenN m.
Proof. intros H. unfold lenN. f_equal. induction H; cbn; congruence. Qed.
Lemma mv_nrep K L0 L L' h h' a n : mv K L0 L L' h h' -> kept K a -> nrep L h a n -> nrep L' h' a n.
Proof. apply mv_srep. Qed.
Lemma mv_nreps K L0 L L' h h' cs ns : mv K L0 L L' h h' -> (forall a, In a cs -> kept K a) ->
  Forall2 (nrep L h) cs ns -> Forall2 (nrep L' h') cs ns.
Proof. intros M Hk H. apply F2_map_enc. eapply mv_sreps; [exact M|exact Hk|]. now apply F2_map_enc. Qed.
Lemma mv_trep K L0 L L' h h' a v n : mv K L0 L L' h h' -> kept K a -> trep L h a v n -> trep L' h' a v n.
Proof. apply mv_srep. Qed.
Lemma nreps_live L h cs ns : Forall2 (nrep L h) cs ns -> Forall (live L h) cs.
Proof. induction 1; constructor; auto. eapply srep_live; eauto. Qed.
Lemma at_wipe L h a c : cell_at (wipe L h) a c -> cell_at h a c.
Proof. intros H. now apply wipe_cell in H. Qed.
Lemma wipe_at L h a c : ~ In a L -> cell_at h a c -> cell_at (wipe L h) a c.
Proof. intros Hn H. unfold cell_at. now rewrite wipe_out. Qed.
Lemma cell_fun g a (c d : cell) : cell_at g a c -> cell_at g a d -> c = d.
Proof. unfold cell_at. congruence. Qed.

(** ** Access *)
Lemma wp_load_leaf h a rc xs ks (Q : list T -> heap -> Prop) :
  cell_at h a (mkCell rc (VLeaf xs) ks) -> Q xs h -> wp (load_leaf a) h Q.
Proof. intros Hc HQ. apply wp_bind. eapply wp_load; [exact Hc|]. apply wp_ret. exact HQ. Qed.
Lemma wp_load_inner h a rc r cs (Q : option nat * list nat -> heap -> Prop) :
  cell_at h a (icell rc r cs) -> Q (r, cs) h -> wp (load_inner a) h Q.
Proof. intros Hc HQ. apply wp_bind. eapply wp_load; [exact Hc|]. destruct r; apply wp_ret; exact HQ. Qed.
Lemma wp_load_table h a rc v xs ks (Q : list N -> heap -> Prop) :
  cell_at h a (mkCell rc (VTable v xs) ks) -> Q xs h -> wp (load_table (T := T) a) h Q.
Proof. intros Hc HQ. apply wp_bind. eapply wp_load; [exact Hc|]. apply wp_ret. exact HQ. Qed.

Lemma wp_table_level h a rc v xs ks (Q : nat -> heap -> Prop) :
  cell_at h a (mkCell rc (VTable v xs) ks) -> Q v h -> wp (table_level (T := T) a) h Q.
Proof. intros Hc HQ. apply wp_bind. eapply wp_load; [exact Hc|]. apply wp_ret. exact HQ. Qed.

(** The level of a node. *)
Lemma wf_lvl v : forall n, wf v n -> lvl n = v.
Proof.
  induction v as [|l IH]; intros n H.
  - destruct (wf_leaf _ _ _ H) as (xs & -> & _). reflexivity.
  - destruct (wf_inner _ _ _ _ H) as (o & ns & ->). pose proof (wf_kids _ _ _ _ H) as Hk. pose proof (wf_size _ _ _ _ H) as Hl.
    cbn [kids] in *. destruct ns as [|c ns]; [unfold nsize, lenN in Hl; cbn in Hl; lia|]. cbn. f_equal. apply IH. now inversion Hk.
Qed.
Lemma lv1_wf l o ns : wf (S l) (Inner o ns) -> lv1 ns = S l.
Proof. intros H. exact (wf_lvl _ _ H). Qed.
Lemma lv1_all l ns : Forall (wf l) ns -> 0 < lenN ns -> lv1 ns = S l.
Proof. intros H Hl. destruct ns as [|c ns]; [cbn in Hl; lia|]. unfold lv1. f_equal. apply wf_lvl. now inversion H. Qed.
Lemma lv1_cut l i ns cn : Forall (wf l) ns -> wf l cn -> lv1 (takeN i ns ++ [cn]) = S l.
Proof.
  intros H Hc. apply lv1_all; [|rewrite lenN_snoc; lia]. apply Forall_app. split; [|auto].
  rewrite <- (takeN_dropN i ns) in H. apply Forall_app in H. apply H.
Qed.
Lemma lv1_take l i ns : Forall (wf l) ns -> 0 < i -> 0 < lenN ns -> lv1 (takeN i ns) = S l.
Proof.
  intros H Hi Hl. apply lv1_all; [|rewrite lenN_takeN; lia].
  rewrite <- (takeN_dropN i ns) in H. apply Forall_app in H. apply H.
Qed.
Lemma lv1_app a b : a <> [] -> lv1 (a ++ b) = lv1 a.
Proof. destruct a; [easy|reflexivity]. Qed.
Lemma lv1_mid a x y b c : lvl x = lvl y -> lv1 (a ++ x :: b) = lv1 (a ++ y :: c).
Proof. intros H. destruct a; cbn; [unfold lv1; now rewrite H|reflexivity]. Qed.

(** A write to a local block. *)
Definition wrote L h R a (c : cell) h' : Prop :=
  st L h' R /\ cell_at h' a c /\ (forall x, x <> a -> nth_error h' x = nth_error h x) /\
  (forall L0, ~ In a L0 -> mv None L0 L L h h').
Lemma wp_put_leaf L h R a rc xs ks ys (Q : unit -> heap -> Prop) : st L h R -> In a L ->
  cell_at h a (mkCell rc (VLeaf xs) ks) ->
  (forall h', wrote L h R a (mkCell rc (VLeaf ys) ks) h' -> Q tt h') -> wp (put_leaf a ys) h Q.
Proof.
  intros S Hi Hc K. apply wp_bind. eapply wp_load; [exact Hc|]. cbn [c_body c_rc c_kids].
  apply wv_store with (L := L) (R := R); [exact S|exact Hi|]. intros h' S' Hc' F M. apply K. exact (conj S' (conj Hc' (conj F M))).
Qed.
Lemma wp_put_inner L h R a rc r cs r' cs' (Q : unit -> heap -> Prop) : st L h R -> In a L ->
  cell_at h a (icell rc r cs) ->
  (forall h', wrote L h R a (icell rc r' cs') h' -> Q tt h') -> wp (put_inner a r' cs') h Q.
Proof.
  intros S Hi Hc K. apply wp_bind. eapply wp_load; [exact Hc|]. cbn [c_body c_rc c_kids icell].
  assert (wp (store a (icell rc r' cs')) h Q) as W.
  { apply wv_store with (L := L) (R := R); [exact S|exact Hi|]. intros h' S' Hc' F M. apply K. exact (conj S' (conj Hc' (conj F M))). }
  destruct r, r'; exact W.
Qed.
Lemma wp_put_table L h R a rc v xs ks ys (Q : unit -> heap -> Prop) : st L h R -> In a L ->
  cell_at h a (mkCell rc (VTable v xs) ks) ->
  (forall h', wrote L h R a (mkCell rc (VTable v ys) ks) h' -> Q tt h') -> wp (put_table a ys) h Q.
Proof.
  intros S Hi Hc K. apply wp_bind. eapply wp_load; [exact Hc|]. cbn [c_body c_rc c_kids].
  apply wv_store with (L := L) (R := R); [exact S|exact Hi|]. intros h' S' Hc' F M. apply K. exact (conj S' (conj Hc' (conj F M))).
Qed.
Lemma wp_put_last L h R a rc r cs cs' i c (Q : unit -> heap -> Prop) : st L h R -> In a L ->
  cell_at h a (icell rc r cs) -> rtakeN i cs = Ok cs' ->
  (forall h', wrote L h R a (icell rc r (cs' ++ [c])) h' -> Q tt h') -> wp (put_last a i c) h Q.
Proof.
  intros S Hi Hc E K. apply wp_bind. eapply wp_load_inner; [exact Hc|]. apply wp_bind.
  eapply wp_lift; [exact E|]. eapply wp_put_inner; eauto.
Qed.
Lemma wp_put_kid L h R a rc r cs x i c (Q : unit -> heap -> Prop) : st L h R -> In a L ->
  cell_at h a (icell rc r cs) -> rnthN cs i = Ok x ->
  (forall h', wrote L h R a (icell rc r (updN i c cs)) h' -> Q tt h') -> wp (put_kid a i c) h Q.
Proof.
  intros S Hi Hc E K. apply wp_bind. eapply wp_load_inner; [exact Hc|]. apply wp_bind.
  eapply wp_lift; [exact E|]. eapply wp_put_inner; eauto.
Qed.
Lemma wp_cut_kids L h R a rc r cs cs' i (Q : unit -> heap -> Prop) : st L h R -> In a L ->
  cell_at h a (icell rc r cs) -> rtakeN i cs = Ok cs' ->
  (forall h', wrote L h R a (icell rc r cs') h' -> Q tt h') -> wp (cut_kids a i) h Q.
Proof.
  intros S Hi Hc E K. apply wp_bind. eapply wp_load_inner; [exact Hc|]. apply wp_bind.
  eapply wp_lift; [exact E|]. eapply wp_put_inner; eauto.
Qed.
Lemma wp_put_size L h R a rc v sz sz' ks i s (Q : unit -> heap -> Prop) : st L h R -> In a L ->
  cell_at h a (mkCell rc (VTable v sz) ks) -> rtakeN i sz = Ok sz' ->
  (forall h', wrote L h R a (mkCell rc (VTable v (sz' ++ [s])) ks) h' -> Q tt h') -> wp (put_size a i s) h Q.
Proof.
  intros S Hi Hc E K. apply wp_bind. eapply wp_load_table; [exact Hc|]. apply wp_bind.
  eapply wp_lift; [exact E|]. eapply wp_put_table; eauto.
Qed.
Lemma wp_cut_sizes L h R a rc v sz sz' ks i (Q : unit -> heap -> Prop) : st L h R -> In a L ->
  cell_at h a (mkCell rc (VTable v sz) ks) -> rtakeN i sz = Ok sz' ->
  (forall h', wrote L h R a (mkCell rc (VTable v sz') ks) h' -> Q tt h') -> wp (cut_sizes a i) h Q.
Proof.
  intros S Hi Hc E K. apply wp_bind. eapply wp_load_table; [exact Hc|]. apply wp_bind.
  eapply wp_lift; [exact E|]. eapply wp_put_table; eauto.
Qed.

(** ** Positions *)
Inductive prel L h : hpos -> pos T -> Prop :=
| prel_full a n : nrep L h a n -> prel L h (HFull a) (PFull n)
| prel_reg a n s : nrep L h a n -> prel L h (HReg a s) (PReg n s)
| prel_sub a n s : nrep L h a n -> prel L h (HSub a s) (PSub n s)
| prel_rel a r rc cs sz ns : cell_at (wipe L h) a (icell rc (Some r) cs) -> trep L h r (lv1 ns) sz ->
    Forall2 (nrep L h) cs ns -> prel L h (HRel a r) (PRel (Inner (Some sz) ns) sz).

Lemma prel_addr L h hp p : prel L h hp p -> exists a, haddr hp = Ok a.
Proof. destruct 1; cbn; eauto. Qed.
Lemma prel_nrep L h hp p a n : prel L h hp p -> haddr hp = Ok a -> pnode p = Ok n -> nrep L h a n.
Proof.
  destruct 1; cbn; intros E1 E2; injection E1 as <-; injection E2 as <-; auto.
  eapply nrep_inner; [eassumption|assumption|assumption].
Qed.
Lemma mv_prel K L0 L L' h h' hp p a : mv K L0 L L' h h' -> haddr hp = Ok a -> kept K a ->
  prel L h hp p -> prel L' h' hp p.
Proof.
  intros M Ea Hk H. destruct H as [b n H|b n s H|b n s H|b r rc cs sz ns Hc Ht Hcs]; injection Ea as ->.
  1-3: constructor; eapply mv_nrep; eauto.
  destruct (mv_cell _ _ _ _ _ _ _ _ M Hk Hc) as ([rc' b' ks'] & Hc' & Eb & Ek). cbn in Eb, Ek. subst.
  assert (nrep L' h' a (Inner (Some sz) ns)) as Hn.
  { eapply mv_nrep; [exact M|exact Hk|]. eapply nrep_inner; [exact Hc|exact Ht|exact Hcs]. }
  destruct (nrep_inner_inv _ _ _ _ _ Hn) as (rc2 & r2 & cs2 & Hc2 & Ho & Hk2).
  pose proof (cell_fun _ _ _ _ Hc' Hc2) as E. destruct r2 as [r2|]; [|easy]. injection E as -> -> ->.
  econstructor; [exact Hc2|exact Ho|exact Hk2].
Qed.
Lemma wp_view L h hp p (Q : pos T -> heap -> Prop) : prel L h hp p -> Q (blank p) h -> wp (view hp) h Q.
Proof.
  intros H HQ. destruct H as [b n H|b n s H|b n s H|b r rc cs sz ns Hc Ht Hcs]; cbn [view blank] in *; try (apply wp_ret; exact HQ).
  apply wp_bind. destruct (trep_inv _ _ _ _ _ Ht) as [rc' Hr]. eapply wp_load_table; [apply (at_wipe _ _ _ _ Hr)|].
  apply wp_ret. exact HQ.
Qed.
Lemma mk_sub_inv l (n : node T) s p : mk_sub B BL l n s = Ok p -> p = PSub n s /\ mk_sub B BL l (Leaf [] : node T) s = Ok (PSub (Leaf []) s).
Proof.
  destruct l; cbn.
  - destruct (s <=? lwidth BL); [|discriminate]. injection 1 as <-. auto.
  - destruct (_ && _); [|discriminate]. injection 1 as <-. auto.
Qed.
Lemma wp_hmaybe L h v a n s p (Q : hpos -> heap -> Prop) : nrep L h a n -> maybe_relaxed B BL v n s = Ok p ->
  (forall q, haddr q = Ok a -> prel L h q p -> Q q h) -> wp (hmaybe B BL v a s) h Q.
Proof.
  intros Hn Hp K. destruct n as [xs|o ns]; [discriminate|].
  destruct (nrep_inner_inv _ _ _ _ _ Hn) as (rc & r & cs & Hc & Ho & Hk).
  apply wp_bind. eapply wp_load_inner; [apply (at_wipe _ _ _ _ Hc)|].
  destruct o as [sz|], r as [r|]; cbn in Ho; try easy; cbn [maybe_relaxed] in Hp.
  - destruct (trep_inv _ _ _ _ _ Ho) as [rc' Hr]. apply wp_bind. eapply wp_load_table; [apply (at_wipe _ _ _ _ Hr)|].
    apply rbind_ok in Hp. destruct Hp as (t & Ht & Hp). apply wp_bind. eapply wp_lift; [exact Ht|].
    destruct (t =? s); [|discriminate]. injection Hp as <-. apply wp_ret. apply K; [reflexivity|].
    econstructor; [exact Hc|exact Ho|exact Hk].
  - apply mk_sub_inv in Hp. destruct Hp as [-> Hp]. apply wp_bind. eapply wp_lift; [exact Hp|].
    apply wp_ret. apply K; [reflexivity|]. constructor. exact Hn.
Qed.
Lemma wp_open L h l k n p (Q : hpos -> heap -> Prop) : nrep L h (kaddr k) n -> kpos l k n = Ok p ->
  (forall q, haddr q = Ok (kaddr k) -> prel L h q p -> Q q h) -> wp (open B BL l k) h Q.
Proof.
  intros Hn Hp K. destruct k; cbn [VecHeap.open VecPlan.kpos kaddr] in *.
  - injection Hp as <-. apply wp_ret. apply K; [reflexivity|]. now constructor.
  - apply wp_bind. unfold mk_reg in *. destruct (s =? 0); [discriminate|]. injection Hp as <-.
    eapply wp_lift; [reflexivity|]. apply wp_ret. apply K; [reflexivity|]. now constructor.
  - apply mk_sub_inv in Hp. destruct Hp as [-> Hp]. apply wp_bind. eapply wp_lift; [exact Hp|].
    apply wp_ret. apply K; [reflexivity|]. now constructor.
  - destruct l as [|l].
    + unfold child_pos in Hp. apply mk_sub_inv in Hp. destruct Hp as [-> Hp]. apply wp_bind. eapply wp_lift; [exact Hp|].
      apply wp_ret. apply K; [reflexivity|]. now constructor.
    + eapply wp_hmaybe; eauto.
Qed.

(** ** Releasing *)
Definition dropped L h R h' : Prop := st L h' R /\ mv (Some R) L L L h h' /\ shr L L h h'.
Lemma wp_drop_table L h R a (Q : unit -> heap -> Prop) v sz : st L h (a :: R) -> trep L h a v sz ->
  (forall h', dropped L h R h' -> Q tt h') ->
  wp (last <~ dec a ;; if last then free a else mret tt) h Q.
Proof.
  intros S Ht K. apply wp_bind. apply wv_dec with (L := L) (R := R); [exact S| |].
  - intros h' S' M Sh. apply wp_ret. apply K. split; [exact S'|]. split; [now apply mv_all|exact Sh].
  - intros c h' Hc Erc Hn S' Hc' M Sh. destruct (trep_inv _ _ _ _ _ Ht) as [rc Hr].
    pose proof (cell_fun _ _ _ _ Hc Hr) as ->. cbn [c_kids app] in *.
    apply wv_free with (L := L) (R := R); [exact S'|]. intros h2 S2 M2 Sh2. apply K. split; [exact S2|]. split.
    + eapply mv_trans; [exact M|now apply mv_all].
    + eapply shr_trans; eauto.
Qed.
Definition dec_spec (v : nat) : Prop := forall hp p n a L h R (Q : unit -> heap -> Prop),
  haddr hp = Ok a -> st L h (a :: R) -> prel L h hp p -> pos_ok v p n ->
  (forall h', dropped L h R h' -> Q tt h') -> wp (hdec B BL v hp) h Q.
Lemma wp_hdecs' l : dec_spec l -> forall ks ns L h R (Q : unit -> heap -> Prop),
  Forall2 (kok l) ks ns -> Forall2 (nrep L h) (map kaddr ks) ns -> st L h (map kaddr ks ++ R) ->
  (forall h', dropped L h R h' -> Q tt h') -> wp (each_of (fun k => q <~ open B BL l k ;; hdec B BL l q) ks) h Q.
Proof.
  intros IH ks ns L h R Q Hk. revert L h R Q. induction Hk as [|k n ks ns (p & Hp & Hok) Hk IHk];
    intros L h R Q Hn S K; cbn [map app each_of] in *.
  - apply wp_ret. apply K. split; [exact S|]. split; [apply mv_refl|apply shr_refl].
  - inversion Hn as [|? ? ? ? Hn1 Hn2]; subst. apply wp_bind. apply wp_bind.
    eapply wp_open; [exact Hn1|exact Hp|]. intros q Eq Hq.
    eapply IH; [exact Eq|exact S|exact Hq|exact Hok|]. intros h1 (S1 & M1 & Sh1).
    apply IHk with (R := R) (L := L); [|exact S1|].
    + eapply mv_nreps; [exact M1| |exact Hn2]. intros x Hx. cbn. apply in_or_app. now left.
    + intros h2 (S2 & M2 & Sh2). apply K. split; [exact S2|]. split.
      * eapply mv_trans; [|exact M2]. eapply mv_sub; [exact M1|]. intros x Hx. apply in_or_app. now right.
      * eapply shr_trans; eauto.
Qed.
Lemma occ_mid r a b x : occ x (a ++ r :: b) = occ x (r :: a ++ b).
Proof. rewrite occ_app. cbn. rewrite occ_app. lia. Qed.

(** delete_inner(_r) of a local node whose children were given away. *)
Lemma wp_delete_inner L h R a rc cs (Q : unit -> heap -> Prop) : st (a :: L) h R -> cell_at h a (icell rc None cs) ->
  (forall h', st L h' R -> mv None L (a :: L) L h h' -> shr (a :: L) L h h' -> Q tt h') -> wp (delete_inner a) h Q.
Proof.
  intros S Hc K. apply wp_bind. eapply wp_load_inner; [exact Hc|]. eapply wv_free; eauto.
Qed.
Lemma wp_delete_inner_r L h R a rc r cs v sz (Q : unit -> heap -> Prop) : st (a :: L) h (r :: R) ->
  cell_at h a (icell rc (Some r) cs) -> trep (a :: L) h r v sz ->
  (forall h', st L h' R -> mv (Some R) L (a :: L) L h h' -> shr (a :: L) L h h' -> Q tt h') -> wp (delete_inner_r a) h Q.
Proof.
  intros S Hc Ht K. apply wp_bind. eapply wp_load_inner; [exact Hc|].
  pose proof (wp_drop_table (a :: L) h R r (fun _ h' => wp (free a) h' Q) v sz S Ht) as W.
  assert (G : forall (m1 : bool -> M body unit) (m2 : M body unit) h, wp (mbind (mbind (dec r) m1) (fun _ => m2)) h Q ->
     wp (mbind (dec r) (fun last => mbind (m1 last) (fun _ => m2))) h Q).
  { clear. intros m1 m2 h. unfold wp, mbind. destruct (dec r h) as [[b h']|]; auto. }
  apply G. apply wp_bind. apply W. intros h1 (S1 & M1 & Sh1).
  apply wv_free with (L := L) (R := R); [exact S1|]. intros h2 S2 M2 Sh2. apply K; [exact S2| |].
  - eapply mv_trans; [eapply mv_tail; exact M1|now apply mv_all].
  - eapply shr_trans; eauto.
Qed.
Lemma hdec_ok v : dec_spec v.
Proof.
  induction v as [|l IH]; intros hp p n a L h R Q Ea S Hp Hok K; cbn [VecHeap.hdec].
  - apply wp_bind. eapply wp_lift; [exact Ea|]. apply wp_bind. apply wv_dec with (L := L) (R := R); [exact S| |].
    { intros h' S' M Sh. apply wp_ret. apply K. split; [exact S'|]. split; [now apply mv_all|exact Sh]. }
    intros c h' Hc Erc Hn S' Hc' M Sh.
    pose proof (prel_nrep _ _ _ _ _ _ Hp Ea (pos_ok_node _ _ _ _ _ Hok)) as Hr.
    destruct (wf_leaf _ _ _ (pos_ok_wf _ _ _ _ _ Hok)) as (xs & -> & Hx).
    destruct (nrep_leaf_inv _ _ _ _ Hr) as [rc Hc0]. pose proof (cell_fun _ _ _ _ Hc Hc0) as ->. cbn [c_body c_kids app] in *.
    assert (wp (view hp) h' (fun p' h1 => p' = blank p /\ h1 = h')) as W.
    { destruct Hp; cbn [view blank]; try (apply wp_ret; auto). inversion Hok. }
    apply wp_bind. eapply wp_mono; [exact W|]. intros p' h1 [-> ->].
    apply wp_bind. eapply wp_lift; [rewrite count_blank; apply (count_ok _ _ _ _ _ Hok)|].
    cbn [ncount]. apply wp_bind. eapply wp_load_leaf; [exact Hc'|]. rewrite N.eqb_refl.
    apply wv_free with (L := L) (R := R); [exact S'|]. intros h2 S2 M2 Sh2. apply K. split; [exact S2|]. split.
    + eapply mv_trans; [exact M|now apply mv_all].
    + eapply shr_trans; eauto.
  - apply wp_bind. eapply wp_lift; [exact Ea|]. apply wp_bind. apply wv_dec with (L := L) (R := R); [exact S| |].
    { intros h' S' M Sh. apply wp_ret. apply K. split; [exact S'|]. split; [now apply mv_all|exact Sh]. }
    intros c h' Hc Erc Hn S' Hc' M Sh.
    pose proof (prel_nrep _ _ _ _ _ _ Hp Ea (pos_ok_node _ _ _ _ _ Hok)) as Hr.
    destruct (wf_inner _ _ _ _ (pos_ok_wf _ _ _ _ _ Hok)) as (o & ns & ->).
    destruct (nrep_inner_inv _ _ _ _ _ Hr) as (rc & r & cs & Hc0 & Ho & Hcs).
    pose proof (cell_fun _ _ _ _ Hc Hc0) as ->. cbn [c_body c_kids icell] in S', Hc', M.
    change (cell_at h' a (icell 0 r cs)) in Hc'.
    assert (Hcs' : Forall2 (nrep (a :: L) h') cs ns).
    { eapply mv_nreps; [exact M| |exact Hcs]. intros x Hx. cbn. apply in_or_app. left. destruct r; cbn; auto. }
    destruct (heach_ok _ _ _ _ _ cs Hok) as (ks & Hks & Hka & Hkk); [cbn [kids]; eapply F2_len; exact Hcs|].
    cbn [kids] in Hkk.
    destruct r as [r|], o as [sz|]; try easy.
    + (* relaxed *)
      assert (Hhp : hp = HRel a r /\ p = PRel (Inner (Some sz) ns) sz).
      { destruct Hp as [b n H|b n s H|b n s H|b r' rc' cs' sz' ns' Hb Hb' Hb'']; injection Ea as ->; inversion Hok; subst;
          try discriminate; try (exfalso; eapply full_not_rel in H1; discriminate).
        pose proof (cell_fun _ _ _ _ Hb Hc) as E. injection E as _ -> _. auto. }
      destruct Hhp as [-> ->].
      assert (Ht : trep (a :: L) h' r (lv1 ns) sz).
      { eapply mv_trep; [exact M| |exact Ho]. cbn. now left. }
      destruct (trep_inv _ _ _ _ _ Ht) as [rct Hrt].
      apply wp_bind. cbn [view]. apply wp_bind. eapply wp_load_table; [apply (at_wipe _ _ _ _ Hrt)|]. apply wp_ret.
      change (PRel (Leaf []) sz) with (blank (PRel (Inner (Some sz) ns) sz)).
      apply wp_bind. eapply wp_load_inner; [exact Hc'|]. apply wp_bind. eapply wp_lift; [exact Hks|].
      apply wp_bind. apply wp_hdecs' with (ns := ns) (L := a :: L) (R := r :: R); [exact IH|exact Hkk|now rewrite Hka| |].
      { rewrite Hka. eapply st_eqv; [|exact S']. intros x. cbn [ptrs app]. now rewrite occ_mid. }
      intros h1 (S1 & M1 & Sh1).
      eapply wp_delete_inner_r; [exact S1| | |].
      * eapply mv_local; [exact M1|now left|exact Hc'].
      * eapply mv_trep; [exact M1|now left|exact Ht].
      * intros h2 S2 M2 Sh2. apply K. split; [exact S2|]. split.
        -- eapply mv_trans; [eapply mv_sub; [exact M|]; intros x Hx; apply in_or_app; now right|].
           eapply mv_trans; [|exact M2]. eapply mv_tail. eapply mv_sub; [exact M1|]. intros x Hx. now right.
        -- eapply shr_trans; [exact Sh|]. eapply shr_trans; eauto.
    + assert (Hv : wp (view hp) h' (fun p' h1 => p' = blank p /\ h1 = h') /\
                   match hp with HRel _ _ => delete_inner_r a | _ => delete_inner (T := T) a end = delete_inner a).
      { destruct Hp; cbn [view blank]; try (split; [apply wp_ret; auto|reflexivity]). inversion Hok. }
      destruct Hv as [Hv ->].
      apply wp_bind. eapply wp_mono; [exact Hv|]. intros p' h1 [-> ->].
      apply wp_bind. eapply wp_load_inner; [exact Hc'|]. apply wp_bind. eapply wp_lift; [exact Hks|].
      apply wp_bind. apply wp_hdecs' with (ns := ns) (L := a :: L) (R := R); [exact IH|exact Hkk|now rewrite Hka|now rewrite Hka|].
      intros h1 (S1 & M1 & Sh1).
      eapply wp_delete_inner; [exact S1| |].
      * eapply mv_local; [exact M1|now left|exact Hc'].
      * intros h2 S2 M2 Sh2. apply K. split; [exact S2|]. split.
        -- eapply mv_trans; [eapply mv_sub; [exact M|]; intros x Hx; apply in_or_app; now right|].
           eapply mv_trans; [|apply mv_all; exact M2]. eapply mv_tail. exact M1.
        -- eapply shr_trans; [exact Sh|]. eapply shr_trans; eauto.
Qed.
Lemma wp_hdecs l ks ns L h R (Q : unit -> heap -> Prop) :
  Forall2 (kok l) ks ns -> Forall2 (nrep L h) (map kaddr ks) ns -> st L h (map kaddr ks ++ R) ->
  (forall h', dropped L h R h' -> Q tt h') -> wp (hdecs B BL l ks) h Q.
Proof. apply wp_hdecs'. apply hdec_ok. Qed.
Lemma wp_hdec v hp p n a L h R (Q : unit -> heap -> Prop) :
  haddr hp = Ok a -> st L h (a :: R) -> prel L h hp p -> pos_ok v p n ->
  (forall h', dropped L h R h' -> Q tt h') -> wp (hdec B BL v hp) h Q.
Proof. apply hdec_ok. Qed.
Lemma wp_hdec_kid l k n L h R (Q : unit -> heap -> Prop) : st L h (kaddr k :: R) -> nrep L h (kaddr k) n -> kok l k n ->
  (forall h', dropped L h R h' -> Q tt h') -> wp (hdec_kid B BL l k) h Q.
Proof.
  intros S Hn (p & Hp & Hok) K. apply wp_bind. eapply wp_open; [exact Hn|exact Hp|]. intros q Eq Hq.
  eapply wp_hdec; eauto.
Qed.
Lemma wp_dec_leaf a xs L h R (Q : unit -> heap -> Prop) : st L h (a :: R) -> nrep L h a (Leaf xs) ->
  0 < lenN xs <= lwidth BL ->
  (forall h', dropped L h R h' -> Q tt h') -> wp (dec_leaf B BL a (lenN xs)) h Q.
Proof.
  intros S Hn Hx K. apply (wp_hdec_kid O (KSub a (lenN xs)) (Leaf xs) L h R); auto.
  exists (PSub (Leaf xs) (lenN xs)). split.
  - cbn. destruct (N.leb_spec (lenN xs) (lwidth BL)); [reflexivity|lia].
  - constructor; cbn; auto.
Qed.
Lemma wp_dec_inner l a n L h R (Q : unit -> heap -> Prop) : st L h (a :: R) -> nrep L h a n ->
  wf (S l) n -> (forall h', dropped L h R h' -> Q tt h') -> wp (dec_inner B BL (S l) a (nsize n)) h Q.
Proof.
  intros S Hn Hw K. destruct (maybe_relaxed_ok _ _ _ _ Hw) as (p & Hp & Hok & _). apply wp_bind.
  eapply wp_hmaybe; [exact Hn|exact Hp|]. intros q Eq Hq. eapply wp_hdec; eauto.
Qed.
End Nodes.
