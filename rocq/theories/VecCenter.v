(** The pieces of concatenation in memory: local blocks in any order, the children a
    rebalancing visits, releasing center positions and nodes not yet published. *)
From Coq Require Import List NArith Arith Bool Lia ZifyN ZifyNat ZifyBool Permutation.
From Verif Require Import Common NList Rrb RrbInv RrbPos RrbOps RrbSlice RrbTree RrbMerge RrbConcat RrbViewOk AtomProofs
  RcHeap RcProofs RcExn RcExnProofs RcMove VecHeap VecPlan VecNodes VecMake VecPush VecConcat.
Import ListNotations.
Local Open Scope N_scope.
Set Default Goal Selector "!".

(** ** The order of the local blocks does not matter *)
Section Perm.
Context {A : Type}.
Notation heap := (heap A).
Implicit Types (h : heap) (L R : list nat).
Lemma wipe_nth L h x : nth_error (wipe L h) x =
  if in_dec Nat.eq_dec x L then match nth_error h x with Some _ => Some None | None => None end else nth_error h x.
Proof.
  destruct (in_dec Nat.eq_dec x L) as [Hi|Hn]; [|now apply wipe_out].
  induction L as [|a L IH]; [easy|]. cbn [wipe]. destruct (Nat.eq_dec x a) as [->|Hx].
  - destruct (nth_error h a) as [c|] eqn:E.
    + apply nth_upd_same. rewrite length_wipe. apply nth_error_Some. now rewrite E.
    + apply nth_error_None. rewrite length_upd, length_wipe. now apply nth_error_None.
  - rewrite nth_upd by exact Hx. apply IH. destruct Hi as [->|Hi]; [easy|exact Hi].
Qed.
Lemma nth_ext_error (l l' : heap) : (forall x, nth_error l x = nth_error l' x) -> l = l'.
Proof.
  revert l'. induction l as [|y l IH]; intros [|z l'] H; auto.
  - specialize (H O). discriminate.
  - specialize (H O). discriminate.
  - pose proof (H O) as H0. injection H0 as ->. f_equal. apply IH. intros x. exact (H (S x)).
Qed.
Lemma wipe_perm L L' h : Permutation L L' -> wipe L h = wipe L' h.
Proof.
  intros P. apply nth_ext_error. intros x. rewrite !wipe_nth.
  destruct (in_dec Nat.eq_dec x L) as [H|H], (in_dec Nat.eq_dec x L') as [H'|H']; auto; exfalso.
  - apply H'. eapply Permutation_in; eauto.
  - apply H. eapply Permutation_in; [apply Permutation_sym; exact P|exact H'].
Qed.
Lemma st_perm L L' h R : Permutation L L' -> st L h R -> st L' h R.
Proof.
  intros P (G & H & N). split; [now rewrite <- (wipe_perm _ _ _ P)|]. split.
  - eapply Permutation_Forall; eauto.
  - eapply Permutation_NoDup; eauto.
Qed.
Lemma mv_perm K L0 L1 L2 L2' h h' : Permutation L2 L2' -> mv K L0 L1 L2 h h' -> mv K L0 L1 L2' h h'.
Proof. intros P. unfold mv. now rewrite (wipe_perm _ _ _ P). Qed.
Lemma mv_perm_l K L0 L1 L1' L2 h h' : Permutation L1 L1' -> mv K L0 L1 L2 h h' -> mv K L0 L1' L2 h h'.
Proof. intros P. unfold mv, within, rch. destruct K; now rewrite (wipe_perm _ _ _ P). Qed.
Lemma st_local_cell L h R a : st L h R -> In a L -> exists c, cell_at h a c.
Proof. intros (_ & H & _) Hi. rewrite Forall_forall in H. auto. Qed.
(** dec on a local block with one reference. *)
Lemma wp_dec_local L h R a b ks (Q : bool -> heap -> Prop) : st L h R -> In a L -> cell_at h a (mkCell 1 b ks) ->
  (forall h', st L h' R -> cell_at h' a (mkCell 0 b ks) -> (forall x, x <> a -> nth_error h' x = nth_error h x) ->
     (forall L0, ~ In a L0 -> mv None L0 L L h h') -> Q true h') -> wp (dec a) h Q.
Proof.
  intros S Hi Hc K. apply wp_bind. apply wp_load with (c := mkCell 1 b ks); [exact Hc|]. cbn [c_rc].
  apply wp_bind. cbn [c_body c_kids]. apply wv_store with (L := L) (R := R); [exact S|exact Hi|].
  intros h' S' Hc' F M. apply wp_ret. cbn. now apply K.
Qed.
End Perm.

Section Center.
Context {T : Type}.
Variables B BL : N.
Notation body := (vbody T).
Notation heap := (heap body). Notation cell := (cell body).
Notation pos_ok := (@pos_ok T B BL).
Notation wf := (@wf T B BL).
Notation full := (@full T B BL).
Notation kok := (@kok T B BL).
Notation kpos := (@kpos T B BL).
Notation posl := (@posl T B BL).
Notation width := (width B).
Notation lwidth := (lwidth BL).
Implicit Types (h : heap) (L R : list nat).

Lemma nrep_perm L L' h a (n : node T) : Permutation L L' -> nrep L h a n -> nrep L' h a n.
Proof. intros P. unfold nrep, srep. now rewrite (wipe_perm _ _ _ P). Qed.
Lemma nreps_perm L L' h cs (ns : list (node T)) : Permutation L L' -> Forall2 (nrep L h) cs ns -> Forall2 (nrep L' h) cs ns.
Proof. intros P H. induction H; constructor; auto. eapply nrep_perm; eauto. Qed.

(** ** Children to be visited *)
Definition caddr (k : ckid) : nat := match k with CKid k => kaddr k | CRel a => a end.
Definition ckpos (v : nat) (k : ckid) (n : node T) : res (pos T) :=
  match k with
  | CKid k => kpos v k n
  | CRel _ => match n with Inner (Some sz) _ => Ok (PRel n sz) | _ => UB end
  end.
Definition crel (v : nat) L h (k : ckid) (p : pos T) : Prop :=
  exists n, nrep L h (caddr k) n /\ ckpos v k n = Ok p /\ pos_ok v p n /\ is_sub p = true.
Lemma mv_crel v K L0 L L' h h' k p : mv K L0 L L' h h' -> kept K (caddr k) -> crel v L h k p -> crel v L' h' k p.
Proof. intros M Hk (n & Hn & H). exists n. split; [eapply mv_nrep; eauto|exact H]. Qed.
Lemma wp_copen v L h k p (Q : hpos -> heap -> Prop) : crel v L h k p ->
  (forall q, haddr q = Ok (caddr k) -> prel L h q p -> Q q h) -> wp (copen B BL v k) h Q.
Proof.
  intros (n & Hn & Hp & Hok & Hs) K. destruct k as [k|a]; cbn [copen caddr ckpos] in *.
  - eapply wp_open; eauto.
  - destruct n as [|[sz|] ns]; try discriminate. injection Hp as <-.
    destruct (nrep_inner_inv _ _ _ _ _ Hn) as (rc & r & cs & Hc & Ho & Hk). destruct r as [r|]; [|easy].
    apply wp_bind. eapply wp_load_inner; [apply (at_wipe _ _ _ _ Hc)|]. apply wp_ret. apply K; [reflexivity|].
    econstructor; eauto.
Qed.
Lemma crel_sim v ks ps ns L h : Forall2 (ksim (T := T) B BL v) ks ps -> posl v ps ns -> Forall2 (nrep L h) (map kaddr ks) ns ->
  Forall2 (crel v L h) (map CKid ks) ps.
Proof.
  intros H. revert ns. induction H as [|k p ks ps [n Hk] _ IH]; intros ns Hp Hn; cbn [map] in *.
  - constructor.
  - inversion Hp as [|? m ? ns' [Hok Hs] Hp']; subst. inversion Hn; subst. constructor; [|eapply IH; eauto].
    pose proof (kpos_node _ _ _ _ _ _ Hk) as E1. pose proof (pos_ok_node _ _ _ _ _ Hok) as E2.
    rewrite E1 in E2. injection E2 as ->. exists m. split; [assumption|]. split; [exact Hk|]. split; assumption.
Qed.
Lemma F2_drop {C D} (P : C -> D -> Prop) k u w : Forall2 P u w -> Forall2 P (dropN k u) (dropN k w).
Proof.
  unfold dropN. generalize (N.to_nat k) as j. intros j H. revert j.
  induction H; intros [|j]; cbn; try constructor; auto.
Qed.

(** The positions of the three parts. *)
Lemma heach_left_sub_ok l p n (cs : list nat) a x ps : pos_ok (S l) p n -> lenN cs = lenN (kids n) ->
  not_full p -> kids n = a ++ [x] -> each_left_sub B BL l p = Ok ps ->
  exists ks, heach_left_sub B BL l (blank p) cs = Ok ks /\ map kaddr ks = takeN (lenN a) cs /\
             Forall2 (ksim (T := T) B BL l) ks ps.
Proof.
  intros Hok E Hnf Ek H. pose proof (count_ok _ _ _ _ _ Hok) as Hc. pose proof (pos_ok_wf _ _ _ _ _ Hok) as Hw.
  rewrite (kids_count _ _ _ _ Hw), Ek, lenN_snoc in Hc.
  destruct (wf_inner _ _ _ _ Hw) as (o & ns & ->). pose proof (pos_ok_node _ _ _ _ _ Hok) as Hn. cbn [kids] in *.
  assert (forall i, i = lenN a -> forall ps, each_left B BL l p i = Ok ps ->
    exists ks, heach_left B BL l (blank p) cs i = Ok ks /\ map kaddr ks = takeN (lenN a) cs /\ Forall2 (ksim (T := T) B BL l) ks ps) as G.
  { intros i -> ps' H'. destruct (each_left_sim B BL l p cs o ns _ ps' E Hn H') as (ks & Hk & Hs).
    exists ks. split; [exact Hk|]. split; [|exact Hs]. eapply heach_left_addr; exact Hk. }
  destruct p; try discriminate; try easy; cbn [each_left_sub heach_left_sub blank] in *.
  - change (PSub (Leaf []) s) with (blank (PSub n s)). rewrite count_blank, Hc in *. cbn [rbind] in *. apply G; [lia|exact H].
  - change (PRel (Leaf []) sz) with (blank (PRel n sz)). rewrite count_blank, Hc in *. cbn [rbind] in *. apply G; [lia|exact H].
Qed.
Lemma heach_right_sub_ok l p n (cs : list nat) x b ps : pos_ok (S l) p n -> lenN cs = lenN (kids n) ->
  kids n = x :: b -> each_right_sub B BL l p = Ok ps ->
  exists ks, heach_right_sub B BL l (blank p) cs = Ok ks /\ map kaddr ks = dropN 1 cs /\
             Forall2 (ksim (T := T) B BL l) ks ps.
Proof.
  intros Hok E Ek H. pose proof (count_ok _ _ _ _ _ Hok) as Hc. pose proof (pos_ok_wf _ _ _ _ _ Hok) as Hw.
  rewrite (kids_count _ _ _ _ Hw), Ek, lenN_cons in Hc. rewrite Ek, lenN_cons in E.
  destruct (wf_inner _ _ _ _ Hw) as (o & ns & ->). pose proof (pos_ok_node _ _ _ _ _ Hok) as Hn. cbn [kids] in *.
  destruct p; try discriminate; injection Hn as ->; cbn [each_right_sub heach_right_sub blank] in *.
  - cbn [count] in Hc. injection Hc as Hc. cbn [each_i inner_of rbind] in H. apply rbind_ok in H.
    destruct H as (hd & Hh & H). injection H as <-. apply rsliceN_inv in Hh. destruct Hh as [Hb ->].
    rewrite rsliceN_len by (fold width in *; lia). cbn [rbind]. eexists. split; [reflexivity|]. split.
    + rewrite map_kfull. apply takeN_all. rewrite lenN_dropN. fold width in *. lia.
    + apply F2_map_full. apply lenN_eq. rewrite !lenN_takeN, !lenN_dropN, Ek, lenN_cons. lia.
  - change (PSub (Leaf []) s) with (blank (PSub (Inner o ns) s)). rewrite count_blank, Hc in *. cbn [rbind] in *.
    destruct (N.ltb_spec 1 (lenN b + 1)).
    + unfold each_right_sub_ in H. cbn [inner_of rbind] in H. rewrite Hc in H. cbn [rbind] in H.
      apply rbind_ok in H. destruct H as (o' & Ho & H). apply rbind_ok in H. destruct H as (hd & Hh & H).
      apply rbind_ok in H. destruct H as (y & Hy & H). apply rbind_ok in H. destruct H as (q & Hq & H). injection H as <-.
      rewrite Ho. cbn [rbind]. apply rsliceN_inv in Hh. destruct Hh as [Hb ->].
      rewrite rsliceN_len by lia. cbn [rbind]. destruct (rnthN_len cs (lenN b + 1 - 1)) as [c Hcc]; [lia|].
      rewrite Hcc. cbn [rbind]. eexists. split; [reflexivity|]. split.
      * rewrite map_app, map_kfull. cbn [map kaddr]. rewrite slice_last by (auto; lia). apply takeN_all. rewrite lenN_dropN. lia.
      * apply Forall2_app.
        -- apply F2_map_full. apply lenN_eq. rewrite !lenN_takeN, !lenN_dropN, Ek, lenN_cons. lia.
        -- constructor; [|constructor]. exists y. exact Hq.
    + injection H as <-. exists []. split; [reflexivity|]. split; [|constructor]. symmetry. apply dropN_all. lia.
  - destruct (each_right_sim B BL l (PRel (Inner o ns) sz) cs o ns 1 ps) as (ks & Hk & Hs); [rewrite Ek, lenN_cons; lia|reflexivity|exact H|].
    exists ks. split; [exact Hk|]. split; [|exact Hs].
    eapply heach_right_addr; [exact Hok| | |exact Hk]; [cbn [kids]; rewrite Ek, lenN_cons; lia|lia].
Qed.
Lemma hlast_sub_ok l p n (cs : list nat) a x q : pos_ok (S l) p n -> lenN cs = lenN (kids n) ->
  not_full p -> kids n = a ++ [x] -> last_sub B BL l p = Ok q ->
  exists k, hlast_sub B BL l (blank p) cs = Ok k /\ rnthN cs (lenN a) = Ok (kaddr k) /\ kpos l k x = Ok q.
Proof.
  intros Hok E Hnf Ek H. pose proof (count_ok _ _ _ _ _ Hok) as Hc. pose proof (pos_ok_wf _ _ _ _ _ Hok) as Hw.
  rewrite (kids_count _ _ _ _ Hw), Ek, lenN_snoc in Hc. rewrite Ek, lenN_snoc in E.
  destruct (wf_inner _ _ _ _ Hw) as (o & ns & ->). pose proof (pos_ok_node _ _ _ _ _ Hok) as Hn. cbn [kids] in *.
  destruct (rnthN_len cs (lenN a)) as [c Hcc]; [lia|].
  assert (Hx : rnthN ns (lenN a) = Ok x) by (rewrite Ek; now apply rnthN_app).
  destruct p; try discriminate; try easy; injection Hn as ->; cbn [last_sub hlast_sub blank inner_of rbind] in *.
  - change (PSub (Leaf []) s) with (blank (PSub (Inner o ns) s)). rewrite count_blank, Hc in *. cbn [rbind] in *.
    replace (lenN a + 1 - 1) with (lenN a) in * by lia. rewrite Hx in H. rewrite Hcc. cbn [rbind] in *.
    eexists. split; [reflexivity|]. split; [reflexivity|exact H].
  - cbn [count] in Hc. injection Hc as Hc. rewrite Hc in *. replace (lenN a + 1 - 1) with (lenN a) in * by lia.
    rewrite Hx in H. rewrite Hcc. cbn [rbind] in *. change (PRel (Leaf []) sz) with (blank (PRel (Inner o ns) sz)).
    rewrite size_at_blank. apply rbind_ok in H. destruct H as (s & Hs & H). rewrite Hs. cbn [rbind].
    eexists. split; [reflexivity|]. split; [reflexivity|exact H].
Qed.
Lemma hfirst_sub_ok l p n (cs : list nat) x b q : pos_ok (S l) p n -> lenN cs = lenN (kids n) ->
  kids n = x :: b -> first_sub B BL l p = Ok q ->
  exists k, hfirst_sub B BL l (blank p) cs = Ok k /\ rnthN cs 0 = Ok (kaddr k) /\ kpos l k x = Ok q.
Proof.
  intros Hok E Ek H. pose proof (pos_ok_wf _ _ _ _ _ Hok) as Hw. rewrite Ek, lenN_cons in E.
  destruct (wf_inner _ _ _ _ Hw) as (o & ns & ->). pose proof (pos_ok_node _ _ _ _ _ Hok) as Hn. cbn [kids] in *.
  destruct (rnthN_len cs 0) as [c Hcc]; [lia|].
  assert (Hx : rnthN ns 0 = Ok x) by (rewrite Ek; reflexivity).
  destruct p; try discriminate; injection Hn as ->; cbn [first_sub hfirst_sub blank inner_of rbind] in *; rewrite Hx in H; rewrite Hcc;
    cbn [rbind] in *.
  - eexists. split; [reflexivity|]. split; [reflexivity|exact H].
  - eexists. split; [reflexivity|]. split; [now destruct (_ <=? _)|]. destruct (_ <=? _); exact H.
  - apply rbind_ok in H. destruct H as (s & Hs & H). rewrite Hs. cbn [rbind].
    eexists. split; [reflexivity|]. split; [reflexivity|exact H].
Qed.

(** The same read from memory. *)
Lemma wp_from_pos {C} (f : pos T -> list nat -> res C) hp p n a L h y (Q : C -> heap -> Prop) :
  prel L h hp p -> haddr hp = Ok a -> pnode p = Ok n -> (exists o ns, n = Inner o ns) ->
  (forall cs, Forall2 (nrep L h) cs (kids n) -> (forall c, In c cs -> reaches (wipe L h) a c) -> exists y', f (blank p) cs = Ok y' /\ y cs y') ->
  (forall cs y', y cs y' -> Forall2 (nrep L h) cs (kids n) -> (forall c, In c cs -> reaches (wipe L h) a c) -> Q y' h) ->
  wp (from_pos f hp) h Q.
Proof.
  intros Hp Ea Hn (o & ns & ->) Hf K. pose proof (prel_nrep _ _ _ _ _ _ Hp Ea Hn) as Hr.
  destruct (nrep_inner_inv _ _ _ _ _ Hr) as (rc & r & cs & Hc & Ho & Hk).
  assert (W : forall c, In c cs -> reaches (wipe L h) a c).
  { intros c Hi. eapply reaches_kid; [constructor|exact Hc|]. cbn. destruct r; cbn; auto. }
  apply wp_bind. eapply wp_lift; [exact Ea|]. apply wp_bind. eapply wp_view; [exact Hp|]. apply wp_bind.
  eapply wp_load_inner; [apply (at_wipe _ _ _ _ Hc)|]. destruct (Hf cs Hk W) as (y' & E & Hy).
  eapply wp_lift; [exact E|]. eapply K; eauto.
Qed.

Lemma wp_lefts l hp p n a0 x ps a L h (Q : list hkid -> heap -> Prop) :
  prel L h hp p -> haddr hp = Ok a -> pos_ok (S l) p n -> not_full p -> kids n = a0 ++ [x] ->
  each_left_sub B BL l p = Ok ps -> posl l ps a0 ->
  (forall ks, Forall2 (crel l L h) (map CKid ks) ps -> Q ks h) -> wp (lefts B BL l hp) h Q.
Proof.
  intros Hp Ea Hok Hnf Ek E Hps K.
  assert (wp (from_pos (heach_left_sub B BL l) hp) h Q) as W.
  { eapply wp_from_pos with (y := fun cs ks => map kaddr ks = takeN (lenN a0) cs /\ Forall2 (ksim (T := T) B BL l) ks ps);
      [exact Hp|exact Ea|apply (pos_ok_node _ _ _ _ _ Hok)|apply (wf_inner _ _ _ _ (pos_ok_wf _ _ _ _ _ Hok))| |].
    - intros cs Hcs _. eapply heach_left_sub_ok; eauto. eapply F2_len; exact Hcs.
    - intros cs ks [H1 H2] Hcs _. apply K. eapply crel_sim; [exact H2|exact Hps|]. rewrite H1.
      replace a0 with (takeN (lenN a0) (kids n)) at 2 by (rewrite Ek; apply takeN_app). now apply F2_take. }
  destruct hp; try discriminate; exact W.
Qed.
Lemma wp_rights l hp p n b0 x ps a L h (Q : list hkid -> heap -> Prop) :
  prel L h hp p -> haddr hp = Ok a -> pos_ok (S l) p n -> kids n = x :: b0 ->
  each_right_sub B BL l p = Ok ps -> posl l ps b0 ->
  (forall ks, Forall2 (crel l L h) (map CKid ks) ps -> Q ks h) -> wp (rights B BL l hp) h Q.
Proof.
  intros Hp Ea Hok Ek E Hps K.
  assert (wp (from_pos (heach_right_sub B BL l) hp) h Q) as W.
  { eapply wp_from_pos with (y := fun cs ks => map kaddr ks = dropN 1 cs /\ Forall2 (ksim (T := T) B BL l) ks ps);
      [exact Hp|exact Ea|apply (pos_ok_node _ _ _ _ _ Hok)|apply (wf_inner _ _ _ _ (pos_ok_wf _ _ _ _ _ Hok))| |].
    - intros cs Hcs _. eapply heach_right_sub_ok; eauto. eapply F2_len; exact Hcs.
    - intros cs ks [H1 H2] Hcs _. apply K. eapply crel_sim; [exact H2|exact Hps|]. rewrite H1.
      replace b0 with (dropN 1 (kids n)) by now rewrite Ek. now apply F2_drop. }
  destruct hp; try discriminate; exact W.
Qed.
Lemma F2_rnth {C D} (P : C -> D -> Prop) u w i x y : Forall2 P u w -> rnthN u i = Ok x -> rnthN w i = Ok y -> P x y.
Proof.
  unfold rnthN, rnth. generalize (N.to_nat i) as j. intros j H. revert j.
  induction H; intros [|j] E1 E2; cbn in *; try discriminate.
  - injection E1 as <-. injection E2 as <-. assumption.
  - eapply IHForall2; eauto.
Qed.
Lemma rnthN_In {C} (u : list C) i x : rnthN u i = Ok x -> In x u.
Proof.
  unfold rnthN, rnth. destruct (nth_error u _) eqn:E; [|discriminate]. injection 1 as <-. eapply nth_error_In; eauto.
Qed.
Lemma wp_last_kid l hp p n a0 x q a L h (Q : hkid -> heap -> Prop) :
  prel L h hp p -> haddr hp = Ok a -> pos_ok (S l) p n -> not_full p -> kids n = a0 ++ [x] ->
  last_sub B BL l p = Ok q ->
  (forall k, nrep L h (kaddr k) x -> kpos l k x = Ok q -> reaches (wipe L h) a (kaddr k) -> Q k h) ->
  wp (last_kid B BL l hp) h Q.
Proof.
  intros Hp Ea Hok Hnf Ek E K.
  assert (wp (from_pos (hlast_sub B BL l) hp) h Q) as W.
  { eapply wp_from_pos with (y := fun cs k => rnthN cs (lenN a0) = Ok (kaddr k) /\ kpos l k x = Ok q);
      [exact Hp|exact Ea|apply (pos_ok_node _ _ _ _ _ Hok)|apply (wf_inner _ _ _ _ (pos_ok_wf _ _ _ _ _ Hok))| |].
    - intros cs Hcs _. eapply hlast_sub_ok; eauto. eapply F2_len; exact Hcs.
    - intros cs k [H1 H2] Hcs Hr. apply K; [|exact H2|].
      + eapply F2_rnth; [exact Hcs|exact H1|]. rewrite Ek. now apply rnthN_app.
      + apply Hr. eapply rnthN_In; exact H1. }
  destruct hp; try discriminate; exact W.
Qed.
Lemma wp_first_kid l hp p n b0 x q a L h (Q : hkid -> heap -> Prop) :
  prel L h hp p -> haddr hp = Ok a -> pos_ok (S l) p n -> kids n = x :: b0 ->
  first_sub B BL l p = Ok q ->
  (forall k, nrep L h (kaddr k) x -> kpos l k x = Ok q -> reaches (wipe L h) a (kaddr k) -> Q k h) ->
  wp (first_kid B BL l hp) h Q.
Proof.
  intros Hp Ea Hok Ek E K.
  eapply wp_from_pos with (y := fun cs k => rnthN cs 0 = Ok (kaddr k) /\ kpos l k x = Ok q);
    [exact Hp|exact Ea|apply (pos_ok_node _ _ _ _ _ Hok)|apply (wf_inner _ _ _ _ (pos_ok_wf _ _ _ _ _ Hok))| |].
  - intros cs Hcs _. eapply hfirst_sub_ok; eauto. eapply F2_len; exact Hcs.
  - intros cs k [H1 H2] Hcs Hr. apply K; [|exact H2|].
    + eapply F2_rnth; [exact Hcs|exact H1|]. now rewrite Ek.
    + apply Hr. eapply rnthN_In; exact H1.
Qed.

(** ** Center positions *)
Record chas (v : nat) L h (hc : hcenter) (c : @center T) : Prop := {
  ch_lv : hc_lv hc = v;
  ch_sizes : hc_sizes hc = c_sizes c;
  ch_nodes : Forall2 (nrep L h) (hc_nodes hc) (c_nodes c) }.
Lemma mv_chas v K L0 L L' h h' hc c : mv K L0 L L' h h' -> (forall a, In a (hc_nodes hc) -> kept K a) ->
  chas v L h hc c -> chas v L' h' hc c.
Proof. intros M Hk [H1 H2 H3]. constructor; auto. eapply mv_nreps; eauto. Qed.
Lemma caddr_leafs : forall ns sz s, lenN ns = lenN sz -> map caddr (leaf_subs ns sz s) = ns.
Proof.
  intros ns sz s E. apply lenN_eq in E. revert sz s E.
  induction ns as [|n ns IH]; intros [|u sz] s E; cbn in *; try discriminate; [reflexivity|].
  f_equal. apply IH. congruence.
Qed.
Lemma center_subs_ok v L h hc c els ps : chas v L h hc c -> center_ok B BL v c els -> center_each B BL c = Ok ps ->
  map caddr (center_subs hc) = hc_nodes hc /\ Forall2 (crel v L h) (center_subs hc) ps.
Proof.
  intros [H1 H2 H3] Hc E. destruct (center_each_ok _ _ _ _ _ Hc) as (ps' & E' & Hps). rewrite E in E'. injection E' as <-.
  destruct Hc as [G1 G2 G3 G4 G5 G6]. unfold center_each in E. unfold center_subs. rewrite H1, G1 in *.
  destruct v as [|v].
  - rewrite H2. split.
    + apply caddr_leafs. rewrite G4, lenN_sums, lenN_map. eapply F2_len; exact H3.
    + clear G4 H2 G2 G5. clear G6. revert E. generalize (c_sizes c) as sz. generalize 0 as s.
      revert ps Hps. clear G1 H1. induction H3 as [|a n cs ns Hn Hns IH]; intros ps Hps s sz E.
      * cbn in *. injection E as <-. constructor.
      * inversion G3; subst. destruct sz as [|u sz]; cbn [leaf_subs rel_go] in *.
        { injection E as <-. inversion Hps. }
        apply rbind_ok in E. destruct E as (p & Hp & E). apply rbind_ok in E. destruct E as (ps' & Hps' & E). injection E as <-.
        inversion Hps as [|? ? ? ? [Hok Hs] Hps2]; subst. constructor; [|eapply IH; eauto].
        exists n. split; [exact Hn|]. split; [exact Hp|]. split; assumption.
  - split; [rewrite map_map; apply map_id|]. clear G4 H2 G2 G5. revert ps E Hps. clear G6 G1 H1.
    induction H3 as [|a n cs ns Hn Hns IH]; intros ps E Hps; cbn [map rmap] in *.
    + injection E as <-. constructor.
    + inversion G3; subst. apply rbind_ok in E. destruct E as (p & Hp & E). apply rbind_ok in E.
      destruct E as (ps' & Hps' & E). injection E as <-. inversion Hps as [|? ? ? ? [Hok Hs] Hps2]; subst.
      constructor; [|apply IH; assumption]. exists n. split; [exact Hn|]. split; [exact Hp|]. split; assumption.
Qed.
Lemma wp_dec_subs v ks ps : forall L h R (Q : unit -> heap -> Prop), Forall2 (crel v L h) ks ps ->
  st L h (map caddr ks ++ R) -> (forall h', dropped L h R h' -> Q tt h') -> wp (dec_subs B BL v ks) h Q.
Proof.
  revert ps. induction ks as [|k ks IH]; intros ps L h R Q H S K; cbn [map app dec_subs each_of] in *.
  - apply wp_ret. apply K. split; [exact S|]. split; [apply mv_refl|apply shr_refl].
  - inversion H as [|? p ? ps' Hk Hks]; subst. apply wp_bind. apply wp_bind. eapply wp_copen; [exact Hk|].
    intros q Eq Hq. destruct Hk as (n & _ & _ & Hok & _).
    eapply wp_hdec; [exact Eq|exact S|exact Hq|exact Hok|]. intros h1 (S1 & M1 & Sh1).
    apply IH with (R := R) (L := L) (ps := ps'); [|exact S1|].
    + assert (forall k, In k ks -> kept (Some (map caddr ks ++ R)) (caddr k)) as Hkept.
      { intros k' Hi. cbn. apply in_or_app. left. now apply in_map. }
      revert M1 Hkept. generalize (Some (map caddr ks ++ R)). intros K0 M1 Hkept.
      clear - Hks M1 Hkept. induction Hks as [|k p ks ps Hk Hks IH]; constructor.
      * eapply mv_crel; [exact M1|apply Hkept; now left|exact Hk].
      * apply IH. intros k' Hi. apply Hkept. now right.
    + intros h2 (S2 & M2 & Sh2). apply K. split; [exact S2|]. split.
      * eapply mv_trans; [|exact M2]. eapply mv_sub; [exact M1|]. intros x Hx. apply in_or_app. now right.
      * eapply shr_trans; eauto.
Qed.
Lemma wp_center_dec v hc c els L h R (Q : unit -> heap -> Prop) : chas v L h hc c -> center_ok B BL v c els ->
  st L h (hc_nodes hc ++ R) -> (forall h', dropped L h R h' -> Q tt h') -> wp (center_dec B BL hc) h Q.
Proof.
  intros Hh Hc S K. destruct (center_each_ok _ _ _ _ _ Hc) as (ps & E & Hps).
  destruct (center_subs_ok _ _ _ _ _ _ _ Hh Hc E) as [Ea Hk]. unfold center_dec. rewrite (ch_lv _ _ _ _ _ Hh).
  eapply wp_dec_subs; [exact Hk|rewrite Ea; exact S|exact K].
Qed.
Lemma wp_hcounts v ks ps : forall L h (Q : list N -> heap -> Prop) ns, Forall2 (crel v L h) ks ps ->
  rmap (count B BL v) ps = Ok ns -> Q ns h -> wp (hcounts B BL v ks) h Q.
Proof.
  revert ps. induction ks as [|k ks IH]; intros ps L h Q ns H E K; inversion H as [|? p ? ps' Hk Hks]; subst; cbn [hcounts rmap] in *.
  - injection E as <-. now apply wp_ret.
  - apply rbind_ok in E. destruct E as (c & Ec & E). apply rbind_ok in E. destruct E as (cs & Ecs & E). injection E as <-.
    apply wp_bind. eapply wp_copen; [exact Hk|]. intros q Eq Hq. apply wp_bind. eapply wp_view; [exact Hq|].
    apply wp_bind. eapply wp_lift; [rewrite count_blank; exact Ec|]. apply wp_bind.
    eapply IH; [exact Hks|exact Ecs|]. apply wp_ret. exact K.
Qed.

(** ** Releasing a node that is still local *)
Lemma wp_hdec_local l a r sz v ks ns L h R (Q : unit -> heap -> Prop) :
  st (r :: a :: L) h (ks ++ R) -> cell_at h a (icell 1 (Some r) ks) -> cell_at h r (mkCell 1 (VTable v sz) []) ->
  Forall2 (nrep (r :: a :: L) h) ks ns -> Forall (wf l) ns -> sz = sums 0 (map nsize ns) ->
  (forall h', st L h' R -> mv (Some R) L (r :: a :: L) L h h' -> Q tt h') -> wp (hdec B BL (S l) (HRel a r)) h Q.
Proof.
  intros S Ha Hr Hk Hw Esz K. pose proof S as (_ & _ & ND).
  inversion ND as [|? ? Hn1 ND1]; subst. inversion ND1 as [|? ? Hn2 _]; subst.
  assert (r <> a) as Hra by (intros ->; apply Hn1; now left).
  assert (~ In r L) as HrL by (intros Hi; apply Hn1; now right).
  assert (Hlen : lenN ks = lenN ns) by (eapply F2_len; exact Hk).
  cbn [hdec haddr]. apply wp_bind. eapply wp_lift; [reflexivity|]. apply wp_bind.
  eapply wp_dec_local; [exact S|right; now left|exact Ha|]. intros h1 S1 Ha1 F1 M1.
  assert (Hr1 : cell_at h1 r (mkCell 1 (VTable v (sums 0 (map nsize ns))) [])) by (unfold cell_at; rewrite F1 by exact Hra; exact Hr).
  change (cell_at h1 a (icell 0 (Some r) ks)) in Ha1.
  apply wp_bind. cbn [view]. apply wp_bind. eapply wp_load_table; [exact Hr1|]. apply wp_ret.
  apply wp_bind. eapply wp_load_inner; [exact Ha1|].
  destruct (rel_go_ok B BL l ns 0 Hw) as (ps & Eps & Hps).
  assert (exists kk, heach B BL l (PRel (Leaf [] : node T) (sums 0 (map nsize ns))) ks = Ok kk /\ map kaddr kk = ks /\
            Forall2 (kok l) kk ns) as (kk & Ekk & Hka & Hkk).
  { cbn [heach]. unfold hrel_range. rewrite lenN_sums, lenN_map. destruct (N.leb_spec (lenN ns) 0) as [Hz|Hz].
    - assert (ns = []) as -> by (apply lenN_0; lia). assert (ks = []) as -> by (apply lenN_0; rewrite Hlen; reflexivity).
      exists []. split; [reflexivity|]. split; [reflexivity|constructor].
    - cbn [N.eqb rbind]. rewrite !rsliceN_len by (rewrite ?lenN_sums, ?lenN_map; lia). cbn [rbind].
      rewrite !takeN_all by (rewrite ?lenN_dropN, ?lenN_sums, ?lenN_map; lia). rewrite !dropN_0.
      eexists. split; [reflexivity|]. split.
      + apply hrel_go_addr. now rewrite lenN_sums, lenN_map.
      + pose proof (rel_go_sim B BL l ks ns _ 0 ps Hlen Eps) as Hs.
        eapply sim_ok; [exact Hs|]. clear - Hps. induction Hps as [|p n ps ns [H _] _ IH]; constructor; auto. }
  apply wp_bind. eapply wp_lift; [exact Ekk|]. apply wp_bind.
  assert (mv None (r :: L) (r :: a :: L) (r :: a :: L) h h1) as M1'.
  { apply M1. intros [->|Hi]; auto. }
  apply wp_hdecs with (ns := ns) (L := r :: a :: L) (R := R); [exact Hkk| | |].
  { rewrite Hka. eapply mv_nreps; [exact M1'|intros; exact I|exact Hk]. }
  { now rewrite Hka. }
  intros h2 (S2 & M2 & Sh2). unfold delete_inner_r. apply wp_bind.
  eapply wp_load_inner; [eapply mv_local; [exact M2|right; now left|exact Ha1]|]. apply wp_bind.
  eapply wp_dec_local; [exact S2|now left|eapply mv_local; [exact M2|now left|exact Hr1]|].
  intros h3 S3 Hr3 F3 M3. apply wp_bind.
  apply wv_free with (L := a :: L) (R := R); [exact S3|]. intros h4 S4 M4 _.
  apply wv_free with (L := L) (R := R); [exact S4|]. intros h5 S5 M5 _. apply K; [exact S5|].
  eapply mv_trans; [apply mv_all; eapply mv_tail; exact M1'|].
  eapply mv_trans; [eapply mv_tail; eapply mv_tail; exact M2|].
  eapply mv_trans; [apply mv_all; apply M3; exact HrL|].
  eapply mv_trans; [apply mv_all; eapply mv_tail; exact M4|now apply mv_all].
Qed.
End Center.
