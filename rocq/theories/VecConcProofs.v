(** The nodes of vectors in the memory of several threads: reading, making and releasing them,
    paths and update, whatever the other threads do. *)
From Coq Require Import List NArith Arith Bool Lia Permutation ZifyN ZifyNat ZifyBool.
From Verif Require Import Common NList Rrb RrbInv RrbPos RrbOps RrbSlice RrbViewOk AtomProofs
  RcHeap RcProofs Conc ConcProofs ChampConcProofs VecHeap VecPlan VecNodes VecMake VecGetMut VecTree VecProgSpec VecProg
  VecConc.
Import ListNotations.
Local Open Scope N_scope.
Set Default Goal Selector "!".

Ltac oc := let x := fresh "x" in intros x;
  repeat (rewrite ?occ_app; cbn [app occ ptrs]); lia.

Section VC.
Context {T : Type}.
Variables B BL : N.
Variable G : list nat.
Notation body := (vbody T).
Notation heap := (heap body). Notation cell := (cell body).
Notation nd := (node T).
Notation pos_ok := (@pos_ok T B BL).
Notation wf := (@wf T B BL).
Notation kok := (@kok T B BL).
Notation kpos := (@kpos T B BL).
Notation cwp := (cwp G).
Notation own := (own G).
Notation vis := (vis G).
Notation post A := (A -> list nat -> list nat -> heap -> Prop).
Notation enc := (@enc T).
Implicit Types (h : heap).

(** ** What a thread knows about a node it can read *)
Definition ibody (r : option nat) : body := match r with None => VInner | Some _ => VRel end.
Definition ot R (h : heap) (r : option nat) (v : nat) (o : option (list N)) : Prop :=
  match r, o with
  | None, None => True
  | Some r, Some sz => own R h r (RT (VTable v sz) [])
  | _, _ => False
  end.
Record iv L R h (a : nat) (r : option nat) (cs : list nat) (o : option (list N)) (ns : list nd) : Prop := mkIv {
  iv_vis : vis L R h a (ibody r) (ptrs r cs);
  iv_ot : ot R h r (lv1 ns) o;
  iv_ks : Forall2 (own R h) cs (map enc ns) }.
Definition nvis L R h (a : nat) (n : nd) : Prop :=
  match n with
  | Leaf xs => vis L R h a (VLeaf xs) []
  | Inner o ns => exists r cs, iv L R h a r cs o ns
  end.
Inductive prel L R (h : heap) : hpos -> pos T -> Prop :=
| prel_full a n : nvis L R h a n -> prel L R h (HFull a) (PFull n)
| prel_reg a n s : nvis L R h a n -> prel L R h (HReg a s) (PReg n s)
| prel_sub a n s : nvis L R h a n -> prel L R h (HSub a s) (PSub n s)
| prel_rel a r cs sz ns : iv L R h a (Some r) cs (Some sz) ns -> prel L R h (HRel a r) (PRel (Inner (Some sz) ns) sz).

Lemma ot_rely L R h h' r v o : rely L (G ++ R) h h' -> ot R h r v o -> ot R h' r v o.
Proof. intros H. destruct r, o; cbn; auto. now apply own_rely with L. Qed.
Lemma ot_incl R R' h r v o : incl R R' -> ot R h r v o -> ot R' h r v o.
Proof. intros H. destruct r, o; cbn; auto. now apply own_incl. Qed.
Lemma iv_rely L R h h' a r cs o ns : rely L (G ++ R) h h' -> iv L R h a r cs o ns -> iv L R h' a r cs o ns.
Proof.
  intros H [H1 H2 H3]. constructor; [now apply vis_rely with h|now apply ot_rely with L h|now apply owns_rely with L h].
Qed.
Lemma iv_incl L R L' R' h a r cs o ns : incl L L' -> incl R R' -> iv L R h a r cs o ns -> iv L' R' h a r cs o ns.
Proof.
  intros HL HR [H1 H2 H3]. constructor; [now apply vis_incl with L R|now apply ot_incl with R|now apply owns_incl with R].
Qed.
Lemma nvis_rely L R h h' a n : rely L (G ++ R) h h' -> nvis L R h a n -> nvis L R h' a n.
Proof.
  intros H. destruct n as [xs|o ns]; cbn; [now apply vis_rely|]. intros (r & cs & Hi). exists r, cs. now apply iv_rely with h.
Qed.
Lemma nvis_incl L R L' R' h a n : incl L L' -> incl R R' -> nvis L R h a n -> nvis L' R' h a n.
Proof.
  intros HL HR. destruct n as [xs|o ns]; cbn; [now apply vis_incl|]. intros (r & cs & Hi). exists r, cs. now apply iv_incl with L R.
Qed.
Lemma prel_rely L R h h' hp p : rely L (G ++ R) h h' -> prel L R h hp p -> prel L R h' hp p.
Proof. intros H. destruct 1; [constructor; now apply nvis_rely with h..|]. econstructor. eapply iv_rely; eauto. Qed.
Lemma prel_incl L R L' R' h hp p : incl L L' -> incl R R' -> prel L R h hp p -> prel L' R' h hp p.
Proof. intros HL HR. destruct 1; [constructor; now apply nvis_incl with L R..|]. econstructor. eapply iv_incl; eauto. Qed.

Lemma own_iv L R h a o ns : own R h a (enc (Inner o ns)) -> exists r cs, iv L R h a r cs o ns.
Proof.
  intros H. destruct o as [sz|]; cbn in H; destruct (own_vis G L _ _ _ _ _ H) as (ks & Hv & Hk).
  - inversion Hk as [|r ? cs ? Hr Hc]; subst. exists (Some r), cs. now constructor.
  - exists None, ks. now constructor.
Qed.
Lemma own_nvis L R h a n : own R h a (enc n) -> nvis L R h a n.
Proof. destruct n as [xs|o ns]; [apply own_leaf|apply own_iv]. Qed.
Lemma prel_addr L R h hp p : prel L R h hp p -> exists a, haddr hp = Ok a.
Proof. destruct 1; cbn; eauto. Qed.
Lemma prel_nvis L R h hp p a n : prel L R h hp p -> haddr hp = Ok a -> pnode p = Ok n -> nvis L R h a n.
Proof.
  destruct 1; cbn; intros E1 E2; injection E1 as <-; injection E2 as <-; auto. cbn. eauto.
Qed.
Lemma owns_len R h cs (ns : list nd) : Forall2 (own R h) cs (map enc ns) -> lenN cs = lenN ns.
Proof. intros H. apply F2_len in H. now rewrite lenN_map in H. Qed.
Lemma iv_len L R h a r cs o ns : iv L R h a r cs o ns -> lenN cs = lenN ns.
Proof. intros [_ _ H]. eapply owns_len; exact H. Qed.
Lemma vis_fun L R L' R' h a b ks b' ks' : vis L R h a b ks -> vis L' R' h a b' ks' -> b = b' /\ ks = ks'.
Proof.
  intros (c & Hc & <- & <- & _) (c' & Hc' & <- & <- & _). unfold cell_at in *. rewrite Hc in Hc'. injection Hc' as <-. auto.
Qed.
Lemma vis_cell L R h a b ks c : vis L R h a b ks -> cell_at h a c -> c_body c = b /\ c_kids c = ks.
Proof. intros (c' & Hc & <- & <- & _) Hc'. unfold cell_at in *. rewrite Hc in Hc'. injection Hc' as <-. auto. Qed.
Lemma ptrs_inj r cs r' cs' : ibody r = ibody r' -> ptrs r cs = ptrs r' cs' -> r = r' /\ cs = cs'.
Proof. destruct r, r'; try discriminate; cbn; intros _ H; [injection H as -> ->|]; auto. Qed.

(** The block [a] was taken: its pointers are now references. *)
Lemma ot_root R h r v o R' : ot R h r v o -> (forall q, r = Some q -> In q R') -> ot R' h r v o.
Proof. destruct r, o; cbn; auto. intros [_ H] Hi. apply own_root; auto. Qed.
Lemma iv_take L R L' R' h a r cs o ns : iv L R h a r cs o ns -> In a L' -> incl (ptrs r cs) R' -> iv L' R' h a r cs o ns.
Proof.
  intros [(c & Hc & Eb & Ek & _) H2 H3] Ha Hi. constructor.
  - exists c. auto.
  - eapply ot_root; [exact H2|]. intros q ->. apply Hi. now left.
  - apply owns_root; [|eapply owns_rep; exact H3]. intros x Hx. apply Hi. destruct r; [now right|exact Hx].
Qed.
Lemma nvis_kids L R h a n c : nvis L R h a n -> cell_at h a c -> (match n with Leaf _ => c_kids c = [] | Inner o ns => exists r cs, iv L R h a r cs o ns /\ c_kids c = ptrs r cs end).
Proof.
  intros H Hc. destruct n as [xs|o ns].
  - eapply vis_cell in H; [|exact Hc]. apply H.
  - destruct H as (r & cs & Hi). exists r, cs. split; [exact Hi|]. destruct Hi as [Hv _ _]. eapply vis_cell in Hv; [|exact Hc]. apply Hv.
Qed.
Lemma nvis_take L R L' R' h a n c : nvis L R h a n -> cell_at h a c -> In a L' -> incl (c_kids c) R' -> nvis L' R' h a n.
Proof.
  intros H Hc Ha Hi. pose proof (nvis_kids _ _ _ _ _ _ H Hc) as K. destruct n as [xs|o ns].
  - destruct H as (c' & Hc' & Eb & Ek & _). exists c'. auto.
  - destruct K as (r & cs & Hv & E). exists r, cs. eapply iv_take; [exact Hv|exact Ha|now rewrite <- E].
Qed.
Lemma prel_take L R L' R' h hp p a c : prel L R h hp p -> haddr hp = Ok a -> cell_at h a c -> In a L' -> incl (c_kids c) R' ->
  prel L' R' h hp p.
Proof.
  intros H Ea Hc Ha Hi. destruct H as [b n H|b n s H|b n s H|b r cs sz ns H]; injection Ea as ->.
  1-3: constructor; eapply nvis_take; eauto.
  econstructor. eapply iv_take; [exact H|exact Ha|]. destruct H as [Hv _ _]. eapply vis_cell in Hv; [|exact Hc].
  destruct Hv as [_ <-]. exact Hi.
Qed.

(** ** Access *)
Lemma cwp_leaf a xs ks (F : post (list T)) L R h : vis L R h a (VLeaf xs) ks ->
  (forall h', rely L (G ++ R) h h' -> F xs L R h') -> cwp (t_leaf a) F L R h.
Proof.
  intros Hv K. apply cwp_bind. eapply cwp_see; [exact Hv|]. intros c h' Rl -> _. apply cwp_done. auto.
Qed.
Lemma cwp_inner a r cs (F : post (option nat * list nat)) L R h : vis L R h a (ibody r) (ptrs r cs) ->
  (forall h', rely L (G ++ R) h h' -> F (r, cs) L R h') -> cwp (t_inner a) F L R h.
Proof.
  intros Hv K. apply cwp_bind. eapply cwp_see; [exact Hv|]. intros c h' Rl -> ->. destruct r; cbn [ibody ptrs]; apply cwp_done; auto.
Qed.
Lemma cwp_table a v sz ks (F : post (nat * list N)) L R h : vis L R h a (VTable v sz) ks ->
  (forall h', rely L (G ++ R) h h' -> F (v, sz) L R h') -> cwp (t_table a) F L R h.
Proof.
  intros Hv K. apply cwp_bind. eapply cwp_see; [exact Hv|]. intros c h' Rl -> _. apply cwp_done. auto.
Qed.
Lemma cwp_otable a v sz (F : post (nat * list N)) L R h : own R h a (RT (VTable v sz) []) ->
  (forall h', rely L (G ++ R) h h' -> F (v, sz) L R h') -> cwp (t_table a) F L R h.
Proof. intros H. eapply cwp_table. apply own_leaf. exact H. Qed.
Lemma loc_vis L L' R (h : heap) a rc b ks : Permutation L (a :: L') -> cell_at h a (mkCell rc b ks) -> vis L R h a b ks.
Proof.
  intros HL Hc. apply (local_vis G L R h a _ (Permutation_in a (Permutation_sym HL) (in_eq _ _)) Hc).
Qed.
Lemma loc_rely L L' R (h h' : heap) a c : Permutation L (a :: L') -> rely L R h h' -> cell_at h a c -> cell_at h' a c.
Proof. intros HL Rl. apply (rely_local _ _ _ _ _ _ Rl). eapply Permutation_in; [symmetry; exact HL|now left]. Qed.
Lemma perm_rely L a L' R (h h' : heap) : Permutation L (a :: L') -> rely L R h h' -> rely L' R h h'.
Proof. intros HL. apply rely_incl; [|apply incl_refl]. intros x Hx. eapply Permutation_in; [symmetry; exact HL|now right]. Qed.

Lemma cwp_put_leaf a rc xs ks ys (F : post unit) L L' R h : Permutation L (a :: L') -> cell_at h a (mkCell rc (VLeaf xs) ks) ->
  (forall h', rely L' (G ++ R) h h' -> cell_at h' a (mkCell rc (VLeaf ys) []) -> F tt L R h') -> cwp (t_put_leaf a ys) F L R h.
Proof.
  intros HL Hc K. apply cwp_bind. eapply cwp_leaf; [eapply loc_vis; eauto|]. intros h1 R1.
  eapply cwp_wr; [exact HL|]. intros c h2 Hc2 R2 Hc3. pose proof (loc_rely _ _ _ _ _ _ _ HL R1 Hc) as Hc1.
  unfold cell_at in Hc1, Hc2. rewrite Hc1 in Hc2. injection Hc2 as <-. apply K; [|exact Hc3].
  eapply rely_trans; [eapply perm_rely; eauto|exact R2].
Qed.
Lemma cwp_put_inner a rc r0 cs0 r cs (F : post unit) L L' R h : Permutation L (a :: L') -> cell_at h a (icell rc r0 cs0) ->
  (forall h', rely L' (G ++ R) h h' -> cell_at h' a (icell rc r cs) -> F tt L R h') -> cwp (t_put_inner a r cs) F L R h.
Proof.
  intros HL Hc K. apply cwp_bind. eapply cwp_inner; [eapply loc_vis; eauto|]. intros h1 R1.
  assert (W : cwp (wr a (ibody r) (ptrs r cs)) F L R h1).
  { eapply cwp_wr; [exact HL|]. intros c h2 Hc2 R2 Hc3. pose proof (loc_rely _ _ _ _ _ _ _ HL R1 Hc) as Hc1.
    unfold cell_at in Hc1, Hc2. rewrite Hc1 in Hc2. injection Hc2 as <-. apply K; [|exact Hc3].
    eapply rely_trans; [eapply perm_rely; eauto|exact R2]. }
  destruct r; exact W.
Qed.
Lemma cwp_put_table a rc v sz ks sz' (F : post unit) L L' R h : Permutation L (a :: L') -> cell_at h a (mkCell rc (VTable v sz) ks) ->
  (forall h', rely L' (G ++ R) h h' -> cell_at h' a (mkCell rc (VTable v sz') []) -> F tt L R h') -> cwp (t_put_table a sz') F L R h.
Proof.
  intros HL Hc K. apply cwp_bind. eapply cwp_table; [eapply loc_vis; eauto|]. intros h1 R1.
  eapply cwp_wr; [exact HL|]. intros c h2 Hc2 R2 Hc3. pose proof (loc_rely _ _ _ _ _ _ _ HL R1 Hc) as Hc1.
  unfold cell_at in Hc1, Hc2. rewrite Hc1 in Hc2. injection Hc2 as <-. apply K; [|exact Hc3].
  eapply rely_trans; [eapply perm_rely; eauto|exact R2].
Qed.
Lemma cwp_put_last a rc r cs cs' i c (F : post unit) L L' R h : Permutation L (a :: L') -> cell_at h a (icell rc r cs) ->
  rtakeN i cs = Ok cs' ->
  (forall h', rely L' (G ++ R) h h' -> cell_at h' a (icell rc r (cs' ++ [c])) -> F tt L R h') -> cwp (t_put_last a i c) F L R h.
Proof.
  intros HL Hc E K. apply cwp_bind. eapply cwp_inner; [eapply loc_vis; eauto|]. intros h1 R1.
  apply cwp_bind. eapply cwp_lift; [exact E|]. eapply cwp_put_inner; [exact HL|eapply loc_rely; eauto|].
  intros h2 R2 Hc2. apply K; [|exact Hc2]. eapply rely_trans; [eapply perm_rely; eauto|exact R2].
Qed.
Lemma cwp_put_kid a rc r cs i x c (F : post unit) L L' R h : Permutation L (a :: L') -> cell_at h a (icell rc r cs) ->
  rnthN cs i = Ok x ->
  (forall h', rely L' (G ++ R) h h' -> cell_at h' a (icell rc r (updN i c cs)) -> F tt L R h') -> cwp (t_put_kid a i c) F L R h.
Proof.
  intros HL Hc E K. apply cwp_bind. eapply cwp_inner; [eapply loc_vis; eauto|]. intros h1 R1.
  apply cwp_bind. eapply cwp_lift; [exact E|]. eapply cwp_put_inner; [exact HL|eapply loc_rely; eauto|].
  intros h2 R2 Hc2. apply K; [|exact Hc2]. eapply rely_trans; [eapply perm_rely; eauto|exact R2].
Qed.

(** ** Positions *)
Lemma cwp_view hp p (F : post (pos T)) L R h : prel L R h hp p ->
  (forall h', rely L (G ++ R) h h' -> F (blank p) L R h') -> cwp (t_view hp) F L R h.
Proof.
  intros H K. destruct H as [b n H|b n s H|b n s H|b r cs sz ns H]; cbn [t_view blank] in *; try (apply cwp_done, K, rely_refl).
  apply cwp_bind. eapply cwp_otable; [exact (iv_ot _ _ _ _ _ _ _ _ H)|]. intros h1 R1. apply cwp_done. now apply K.
Qed.
Lemma cwp_maybe v a n s p (F : post hpos) L R h : nvis L R h a n -> maybe_relaxed B BL v n s = Ok p ->
  (forall q h', rely L (G ++ R) h h' -> haddr q = Ok a -> prel L R h' q p -> F q L R h') -> cwp (t_maybe B BL v a s) F L R h.
Proof.
  intros Hn Hp K. destruct n as [xs|o ns]; [discriminate|]. destruct Hn as (r & cs & Hi).
  apply cwp_bind. eapply cwp_inner; [exact (iv_vis _ _ _ _ _ _ _ _ Hi)|]. intros h1 R1.
  eapply iv_rely in Hi; [|exact R1]. pose proof (iv_ot _ _ _ _ _ _ _ _ Hi) as Ho.
  destruct o as [sz|], r as [r|]; cbn in Ho; try easy; cbn [maybe_relaxed] in Hp.
  - apply rbind_ok in Hp. destruct Hp as (t & Ht & Hp). apply cwp_bind. eapply cwp_otable; [exact Ho|]. intros h2 R2.
    apply cwp_bind. eapply cwp_lift; [exact Ht|]. destruct (t =? s); [|discriminate]. injection Hp as <-.
    apply cwp_done. apply K; [rl|reflexivity|]. econstructor. eapply iv_rely; eauto.
  - apply mk_sub_inv in Hp. destruct Hp as [-> Hp]. apply cwp_bind. eapply cwp_lift; [exact Hp|].
    apply cwp_done. apply K; [rl|reflexivity|]. constructor. cbn. eauto.
Qed.
Lemma cwp_open l k n p (F : post hpos) L R h : nvis L R h (kaddr k) n -> kpos l k n = Ok p ->
  (forall q h', rely L (G ++ R) h h' -> haddr q = Ok (kaddr k) -> prel L R h' q p -> F q L R h') -> cwp (t_open B BL l k) F L R h.
Proof.
  intros Hn Hp K. destruct k; cbn [t_open VecPlan.kpos kaddr] in *.
  - injection Hp as <-. apply cwp_done. apply K; [apply rely_refl|reflexivity|]. now constructor.
  - apply cwp_bind. unfold mk_reg in *. destruct (s =? 0); [discriminate|]. injection Hp as <-.
    eapply cwp_lift; [reflexivity|]. apply cwp_done. apply K; [apply rely_refl|reflexivity|]. now constructor.
  - apply mk_sub_inv in Hp. destruct Hp as [-> Hp]. apply cwp_bind. eapply cwp_lift; [exact Hp|].
    apply cwp_done. apply K; [apply rely_refl|reflexivity|]. now constructor.
  - destruct l as [|l].
    + unfold child_pos in Hp. apply mk_sub_inv in Hp. destruct Hp as [-> Hp]. apply cwp_bind. eapply cwp_lift; [exact Hp|].
      apply cwp_done. apply K; [apply rely_refl|reflexivity|]. now constructor.
    + eapply cwp_maybe; eauto.
Qed.
Lemma prel_cases l L R h hp p n a : prel L R h hp p -> haddr hp = Ok a -> pos_ok (S l) p n ->
  exists r cs o ns, n = Inner o ns /\ iv L R h a r cs o ns /\ lenN cs = lenN ns /\
    ((exists rr sz, r = Some rr /\ o = Some sz /\ hp = HRel a rr /\ p = PRel n sz) \/
     (r = None /\ o = None /\ (forall A (x : nat -> nat -> A) y, match hp with HRel b r => x b r | _ => y end = y) /\
      (forall A (x : node T -> list N -> A) y, match p with PRel n sz => x n sz | _ => y end = y) /\ is_rel n = false)).
Proof.
  intros Hp Ea Hok. pose proof (pos_ok_wf _ _ _ _ _ Hok) as Hw. pose proof (pos_ok_node _ _ _ _ _ Hok) as Hn.
  destruct (wf_inner _ _ _ _ Hw) as (o & ns & ->).
  pose proof (prel_nvis _ _ _ _ _ _ _ Hp Ea Hn) as (r & cs & Hi).
  exists r, cs, o, ns. split; [reflexivity|]. split; [exact Hi|]. split; [eapply iv_len; exact Hi|].
  pose proof (iv_ot _ _ _ _ _ _ _ _ Hi) as Ho.
  destruct Hp as [b m Hb|b m s Hb|b m s Hb|b r' cs' sz ns' Hb]; injection Ea as ->; inversion Hn; subst.
  1-3: right; inversion Hok; subst;
    (assert (is_rel (Inner o ns) = false) as Hr by (auto; eapply full_not_rel; eauto));
    destruct o; [discriminate|]; destruct r; [easy|]; auto.
  left. destruct (vis_fun _ _ _ _ _ _ _ _ _ _ (iv_vis _ _ _ _ _ _ _ _ Hb) (iv_vis _ _ _ _ _ _ _ _ Hi)) as [E1 E2].
  destruct (ptrs_inj _ _ _ _ E1 E2) as [<- <-]. exists r', sz. auto.
Qed.

(** ** Releasing *)
Lemma cwp_drop_table r v sz (F : post unit) L R h : own (r :: R) h r (RT (VTable v sz) []) ->
  (forall h', rely L (G ++ R) h h' -> F tt L R h') -> cwp (t_drop_table r) F L (r :: R) h.
Proof.
  intros Ho K. apply cwp_bind. eapply cwp_dn; [reflexivity| |].
  - intros h1 R1. apply cwp_done. now apply K.
  - intros c h1 Hc R1 Hc1. pose proof (own_leaf G L _ _ _ _ Ho) as Hv. destruct (vis_cell _ _ _ _ _ _ _ Hv Hc) as [_ Ek].
    rewrite Ek in *. cbn [app] in *. eapply cwp_fr; [reflexivity|]. intros h2 R2. apply K. rl.
Qed.
Lemma cwp_delete_inner a rc cs (F : post unit) L R h : cell_at h a (icell rc None cs) ->
  (forall h', rely L (G ++ R) h h' -> F tt L R h') -> cwp (t_delete_inner a) F (a :: L) R h.
Proof.
  intros Hc K. apply cwp_bind. eapply (cwp_inner a None cs); [eapply loc_vis; [reflexivity|exact Hc]|]. intros h1 R1.
  eapply cwp_fr; [reflexivity|]. intros h2 R2. apply K. rl.
Qed.
Lemma cwp_delete_inner_r a rc r cs v sz (F : post unit) L R h : cell_at h a (icell rc (Some r) cs) ->
  own (r :: R) h r (RT (VTable v sz) []) ->
  (forall h', rely L (G ++ R) h h' -> F tt L R h') -> cwp (t_delete_inner_r a) F (a :: L) (r :: R) h.
Proof.
  intros Hc Ho K. apply cwp_bind. eapply (cwp_inner a (Some r) cs); [eapply loc_vis; [reflexivity|exact Hc]|]. intros h1 R1.
  apply cwp_bind. eapply cwp_drop_table; [eapply own_rely; [exact R1|exact Ho]|]. intros h2 R2.
  eapply cwp_fr; [reflexivity|]. intros h3 R3. apply K. rl.
Qed.
Definition dec_spec (v : nat) : Prop := forall hp p n a (F : post unit) L R h,
  haddr hp = Ok a -> prel L (a :: R) h hp p -> pos_ok v p n ->
  (forall h', rely L (G ++ R) h h' -> F tt L R h') -> cwp (t_dec B BL v hp) F L (a :: R) h.
Lemma cwp_decs' l : dec_spec l -> forall ks ns (F : post unit) L R h,
  Forall2 (kok l) ks ns -> Forall2 (own (map kaddr ks ++ R) h) (map kaddr ks) (map enc ns) ->
  (forall h', rely L (G ++ R) h h' -> F tt L R h') ->
  cwp (each (fun k => q <-- t_open B BL l k ;; t_dec B BL l q) ks) F L (map kaddr ks ++ R) h.
Proof.
  intros IH ks ns F L R h Hk. revert F L R h. induction Hk as [|k n ks ns (p & Hp & Hok) Hk IHk];
    intros F L R h Hn K; cbn [map app each] in *.
  - apply cwp_done. apply K, rely_refl.
  - inversion Hn as [|? ? ? ? Hn1 Hn2]; subst. apply cwp_bind. apply cwp_bind.
    eapply cwp_open; [apply own_nvis; exact Hn1|exact Hp|]. intros q h1 R1 Eq Hq.
    eapply IH; [exact Eq|exact Hq|exact Hok|]. intros h2 R2.
    apply IHk; [|intros h3 R3; apply K; rl].
    apply owns_root; [inc|]. eapply owns_rep.
    eapply owns_rely with (L := L); [|apply owns_root with (R := map kaddr ks ++ R); [inc|eapply owns_rep; exact Hn2]]. rl.
Qed.
Lemma t_dec_ok v : dec_spec v.
Proof.
  induction v as [|l IH]; intros hp p n a F L R h Ea Hp Hok K; cbn [t_dec].
  - apply cwp_bind. eapply cwp_lift; [exact Ea|]. apply cwp_bind. eapply cwp_dn; [reflexivity| |].
    { intros h1 R1. apply cwp_done. now apply K. }
    intros c h1 Hc R1 Hc1.
    pose proof (prel_nvis _ _ _ _ _ _ _ Hp Ea (pos_ok_node _ _ _ _ _ Hok)) as Hv.
    destruct (wf_leaf _ _ _ (pos_ok_wf _ _ _ _ _ Hok)) as (xs & -> & Hx). cbn [nvis] in Hv.
    destruct (vis_cell _ _ _ _ _ _ _ Hv Hc) as [Eb Ek]. rewrite Eb, Ek in *. cbn [app] in *.
    assert (E : t_view hp = Done (blank p)).
    { destruct Hp; cbn [t_view blank]; try reflexivity. inversion Hok. }
    rewrite E. cbn [pbind]. apply cwp_bind. eapply cwp_lift; [rewrite count_blank; apply (count_ok _ _ _ _ _ Hok)|].
    cbn [ncount]. apply cwp_bind. eapply cwp_leaf; [eapply loc_vis; [reflexivity|exact Hc1]|]. intros h2 R2.
    rewrite N.eqb_refl. eapply cwp_fr; [reflexivity|]. intros h3 R3. apply K. rl.
  - apply cwp_bind. eapply cwp_lift; [exact Ea|]. apply cwp_bind. eapply cwp_dn; [reflexivity| |].
    { intros h1 R1. apply cwp_done. now apply K. }
    intros c h1 Hc R1 Hc1.
    destruct (prel_cases _ _ _ _ _ _ _ _ Hp Ea Hok) as (r & cs & o & ns & -> & Hi & El & Hcase).
    destruct (vis_cell _ _ _ _ _ _ _ (iv_vis _ _ _ _ _ _ _ _ Hi) Hc) as [Eb Ek]. rewrite Eb, Ek in *.
    change (cell_at h1 a (icell 0 r cs)) in Hc1.
    (* what is known of the block after the decrement *)
    assert (Hp1 : prel (a :: L) (ptrs r cs ++ R) h1 hp p /\ iv (a :: L) (ptrs r cs ++ R) h1 a r cs o ns).
    { assert (Hi1 : iv (a :: L) (ptrs r cs ++ R) h1 a r cs o ns).
      { constructor.
        - eapply loc_vis; [reflexivity|exact Hc1].
        - eapply ot_rely; [exact R1|]. eapply ot_root; [exact (iv_ot _ _ _ _ _ _ _ _ Hi)|]. intros q ->. now left.
        - eapply owns_rely; [exact R1|]. apply owns_root; [destruct r; cbn [ptrs]; inc|]. eapply owns_rep. exact (iv_ks _ _ _ _ _ _ _ _ Hi). }
      split; [|exact Hi1]. pose proof (pos_ok_node _ _ _ _ _ Hok) as Hnode.
      destruct Hp as [b n Hb|b n s Hb|b n s Hb|b r' cs' sz' ns' Hb]; injection Ea as ->; cbn in Hnode; injection Hnode as Hnode; subst.
      1-3: constructor; cbn; eauto.
      destruct (vis_fun _ _ _ _ _ _ _ _ _ _ (iv_vis _ _ _ _ _ _ _ _ Hb) (iv_vis _ _ _ _ _ _ _ _ Hi)) as [E1 E2].
      destruct (ptrs_inj _ _ _ _ E1 E2) as [<- <-]. econstructor. exact Hi1. }
    destruct Hp1 as [Hp1 Hi1]. clear Hp Hi.
    apply cwp_bind. eapply cwp_view; [exact Hp1|]. intros h2 R2.
    assert (Hi2 : iv (a :: L) (ptrs r cs ++ R) h2 a r cs o ns) by (eapply iv_rely; eauto).
    apply cwp_bind. eapply cwp_inner; [exact (iv_vis _ _ _ _ _ _ _ _ Hi2)|]. intros h3 R3.
    assert (Hi3 : iv (a :: L) (ptrs r cs ++ R) h3 a r cs o ns) by (eapply iv_rely; eauto).
    destruct (heach_ok _ _ _ _ _ cs Hok) as (ks & Hks & Hka & Hkk); [exact El|]. cbn [kids] in Hkk.
    apply cwp_bind. eapply cwp_lift; [exact Hks|]. apply cwp_bind. subst cs.
    assert (Hc3 : cell_at h3 a (icell 0 r (map kaddr ks))).
    { eapply loc_rely; [reflexivity|exact R3|]. eapply loc_rely; [reflexivity|exact R2|exact Hc1]. }
    destruct Hcase as [(rr & sz & -> & -> & -> & ->)|(-> & -> & Hh & Hpp & Hrel)]; cbn [ptrs app] in *.
    + apply cwp_roots with (R' := map kaddr ks ++ rr :: R); [oc|].
      eapply cwp_decs' with (ns := ns); [exact IH|exact Hkk| |].
      * eapply owns_incl; [|exact (iv_ks _ _ _ _ _ _ _ _ Hi3)]. inc.
      * intros h4 R4. eapply cwp_delete_inner_r; [eapply loc_rely; [reflexivity|exact R4|exact Hc3]| |].
        -- eapply own_rely; [exact R4|]. apply own_root; [now left|]. apply (iv_ot _ _ _ _ _ _ _ _ Hi3).
        -- intros h5 R5. apply K. rl.
    + eapply cwp_decs' with (ns := ns); [exact IH|exact Hkk|exact (iv_ks _ _ _ _ _ _ _ _ Hi3)|].
      intros h4 R4. rewrite Hh. eapply cwp_delete_inner; [eapply loc_rely; [reflexivity|exact R4|exact Hc3]|].
      intros h5 R5. apply K. rl.
Qed.

(** ** Making nodes *)
Lemma cwp_make_inner (F : post nat) L R h :
  (forall a h', rely L (G ++ R) h h' -> cell_at h' a (icell 1 None []) -> F a (a :: L) R h') -> cwp t_make_inner F L R h.
Proof. intros K. apply cwp_mkl. exact K. Qed.
Lemma cwp_make_inner_r v (F : post nat) L R h :
  (forall a r h', rely L (G ++ R) h h' -> cell_at h' a (icell 1 (Some r) []) -> cell_at h' r (mkCell 1 (VTable v []) []) ->
     F a (r :: a :: L) R h') -> cwp (t_make_inner_r v) F L R h.
Proof.
  intros K. apply cwp_bind. apply cwp_mkl. intros a h1 R1 H1. apply cwp_bind. apply cwp_mkl. intros r h2 R2 H2.
  apply cwp_bind. eapply (cwp_put_inner a 1 None []) with (L' := r :: L); [apply perm_swap|eapply rely_local; [exact R2|now left|exact H1]|].
  intros h3 R3 H3. apply cwp_done. eapply K; [rl|exact H3|]. eapply rely_local; [exact R3|now left|exact H2].
Qed.
Lemma cwp_make_inner_sr r v sz (F : post nat) L R h : own R h r (RT (VTable v sz) []) ->
  (forall a h', rely L (G ++ R) h h' -> cell_at h' a (icell 1 (Some r) []) -> F a (a :: L) (r :: R) h') ->
  cwp (t_make_inner_sr r) F L R h.
Proof.
  intros Ho K. apply cwp_bind. apply cwp_up; [apply Ho|]. intros h1 R1.
  eapply cwp_mklk with (R' := R); [oc|]. intros a h2 R2 Hc. apply K; [rl|exact Hc].
Qed.
Lemma cwp_make_inner_sr_n n r v sz (F : post nat) L R h : own R h r (RT (VTable v sz) []) -> n <= lenN sz ->
  (forall a h', rely L (G ++ R) h h' -> cell_at h' a (icell 1 (Some r) []) -> F a (a :: L) (r :: R) h') ->
  cwp (t_make_inner_sr_n n r) F L R h.
Proof.
  intros Ho Hle K. apply cwp_bind. eapply cwp_otable; [exact Ho|]. intros h1 R1.
  destruct (N.leb_spec n (lenN sz)); [|lia]. eapply cwp_make_inner_sr; [eapply own_rely; eauto|].
  intros a h2 R2 Hc. apply K; [rl|exact Hc].
Qed.
Lemma cwp_copy_leaf a xs n zs (F : post nat) L R h : vis L R h a (VLeaf xs) [] -> rtakeN n xs = Ok zs ->
  (forall p h', rely L (G ++ R) h h' -> cell_at h' p (mkCell 1 (VLeaf zs) []) -> F p (p :: L) R h') ->
  cwp (t_copy_leaf a n) F L R h.
Proof.
  intros Hv E K. apply cwp_bind. eapply cwp_leaf; [exact Hv|]. intros h1 R1. apply cwp_bind. eapply cwp_lift; [exact E|].
  apply cwp_mkl. intros p h2 R2 Hc. apply K; [rl|exact Hc].
Qed.
Lemma cwp_copy_range a xs i j zs (F : post nat) L R h : vis L R h a (VLeaf xs) [] -> rsliceN i j xs = Ok zs ->
  (forall p h', rely L (G ++ R) h h' -> cell_at h' p (mkCell 1 (VLeaf zs) []) -> F p (p :: L) R h') ->
  cwp (t_copy_range a i j) F L R h.
Proof.
  intros Hv E K. apply cwp_bind. eapply cwp_leaf; [exact Hv|]. intros h1 R1. apply cwp_bind. eapply cwp_lift; [exact E|].
  apply cwp_mkl. intros p h2 R2 Hc. apply K; [rl|exact Hc].
Qed.
Lemma cwp_copy_emplace a xs n zs x (F : post nat) L R h : vis L R h a (VLeaf xs) [] -> rtakeN n xs = Ok zs ->
  (forall p h', rely L (G ++ R) h h' -> cell_at h' p (mkCell 1 (VLeaf (zs ++ [x])) []) -> F p (p :: L) R h') ->
  cwp (t_copy_emplace a n x) F L R h.
Proof.
  intros Hv E K. apply cwp_bind. eapply cwp_leaf; [exact Hv|]. intros h1 R1. apply cwp_bind. eapply cwp_lift; [exact E|].
  apply cwp_mkl. intros p h2 R2 Hc. apply K; [rl|exact Hc].
Qed.

(** ** Making them visible *)
Lemma lrep h a rc (xs : list T) : cell_at h a (mkCell rc (VLeaf xs) []) -> rep h a (enc (Leaf xs)).
Proof. intros H. apply (rep_intro _ a _ [] H). constructor. Qed.
Lemma irep R h a rc r cs o ns : cell_at h a (icell rc r cs) -> ot R h r (lv1 ns) o -> Forall2 (own R h) cs (map enc ns) ->
  rep h a (enc (Inner o ns)).
Proof.
  intros Hc Ho Hk. apply owns_rep in Hk. destruct r as [r|], o as [sz|]; cbn in Ho; try easy.
  - apply (rep_intro _ a _ (RT (VTable (lv1 ns) sz) [] :: map enc ns) Hc). cbn. constructor; [apply Ho|assumption].
  - exact (rep_intro _ a _ (map enc ns) Hc Hk).
Qed.
Lemma cwp_pub_leaf {A} (p : prog body A) a xs (F : post A) L R h : cell_at h a (mkCell 1 (VLeaf xs) []) ->
  (own (a :: R) h a (enc (Leaf xs)) -> cwp p F L (a :: R) h) -> cwp p F (a :: L) R h.
Proof.
  intros Hc K. eapply cwp_put with (R' := R); [reflexivity|exact Hc|reflexivity|reflexivity|]. apply K.
  apply own_root; [now left|]. eapply lrep; exact Hc.
Qed.
Lemma cwp_pub_inner {A} (p : prog body A) a r cs o ns (F : post A) L R0 R h : cell_at h a (icell 1 r cs) ->
  (forall x, occ x R0 = occ x (ptrs r cs ++ R)) -> ot R0 h r (lv1 ns) o -> Forall2 (own R0 h) cs (map enc ns) ->
  (own (a :: R) h a (enc (Inner o ns)) -> cwp p F L (a :: R) h) -> cwp p F (a :: L) R0 h.
Proof.
  intros Hc HR Ho Hk K. eapply cwp_put with (R' := R); [reflexivity|exact Hc|reflexivity|exact HR|]. apply K.
  apply own_root; [now left|]. eapply irep; [exact Hc|exact Ho|exact Hk].
Qed.
Lemma cwp_pub_rel {A} (p : prog body A) a r cs v sz ns (F : post A) L R0 R h : cell_at h a (icell 1 (Some r) cs) ->
  cell_at h r (mkCell 1 (VTable v sz) []) -> v = lv1 ns ->
  (forall x, occ x R0 = occ x (cs ++ R)) -> Forall2 (own R0 h) cs (map enc ns) ->
  (own (a :: R) h a (enc (Inner (Some sz) ns)) -> cwp p F L (a :: R) h) -> cwp p F (r :: a :: L) R0 h.
Proof.
  intros Hc Hr -> HR Hk K. eapply cwp_put with (R' := R0); [reflexivity|exact Hr|reflexivity|reflexivity|].
  eapply cwp_pub_inner with (R := R) (o := Some sz) (ns := ns); [exact Hc| | | |exact K].
  - intros x. cbn [ptrs app occ]. now rewrite HR.
  - apply own_root; [now left|]. apply (rep_intro _ r _ [] Hr). constructor.
  - eapply owns_incl; [|exact Hk]. inc.
Qed.

Lemma reaches_in (h : heap) a c b x : cell_at h a c -> In b (c_kids c) -> reaches h b x -> reaches h a x.
Proof. intros Hc Hb. apply reaches_trans. eapply reaches_kid; [constructor|exact Hc|exact Hb]. Qed.

(** The node at [b] holds the leaf at [tl], which stands for [n]. *)
Definition carries (h : heap) (b tl : nat) (n : node T) : Prop := reaches h b tl /\ rep h tl (enc n).
Lemma carries_in (h : heap) a c b tl n : cell_at h a c -> In b (c_kids c) -> carries h b tl n -> carries h a tl n.
Proof. intros Hc Hb [H1 H2]. split; [eapply reaches_in; eassumption|exact H2]. Qed.
Lemma carries_rely L R h h' b tl n : rely L R h h' -> In b R -> carries h b tl n -> carries h' b tl n.
Proof.
  intros H Hb [H1 H2]. split; [eapply rely_reaches; eassumption|]. eapply rely_rep; [exact H| |exact H2]. now exists b.
Qed.

(** ** Paths *)
Lemma cwp_make_path v : forall tl n (F : post nat) L R h, own (tl :: R) h tl (enc n) ->
  (forall a h', rely L (G ++ R) h h' -> own (a :: R) h' a (enc (make_path v n)) -> carries h' a tl n -> F a L (a :: R) h') ->
  cwp (t_make_path v tl) F L (tl :: R) h.
Proof.
  induction v as [|v IH]; intros tl n F L R h Hn K; cbn [t_make_path make_path] in *.
  - apply cwp_done. apply K; [apply rely_refl|exact Hn|split; [constructor|apply Hn]].
  - apply cwp_bind. apply cwp_make_inner. intros a h1 R1 Hc1. apply cwp_bind.
    eapply IH; [eapply own_rely; [exact R1|exact Hn]|]. intros c h2 R2 Hc2 Hr2.
    apply cwp_bind. eapply cwp_put_inner; [reflexivity|eapply rely_local; [exact R2|now left|exact Hc1]|]. intros h3 R3 Hc3.
    assert (Hc : own (c :: R) h3 c (enc (make_path v n))) by (eapply own_rely; [exact R3|exact Hc2]).
    assert (Hr : carries h3 c tl n).
    { eapply carries_rely; [exact R3| |exact Hr2]. apply in_or_app. right. now left. }
    eapply cwp_pub_inner with (R := R) (o := None) (ns := [make_path v n]); [exact Hc3|oc|exact I|constructor; [exact Hc|constructor]|].
    intros Ha. apply cwp_done. apply K; [rl|exact Ha|]. eapply carries_in; [exact Hc3|now left|exact Hr].
Qed.

(** ** Copies of inner nodes *)
Lemma from_rely L R h h' cs : rely L (G ++ R) h h' -> Forall (from (G ++ R) h) cs -> Forall (from (G ++ R) h') cs.
Proof. intros H. apply Forall_impl. intros x. apply rely_from with L (G ++ R); [exact H|apply incl_refl]. Qed.
Lemma froms_incl R R' h cs : incl R R' -> Forall (from (G ++ R) h) cs -> Forall (from (G ++ R') h) cs.
Proof.
  intros H. apply Forall_impl. intros x. apply from_incl. intros y Hy. apply in_app_or in Hy as [Hy|Hy]; apply in_or_app; auto.
Qed.
Lemma cwp_copy_inner dst rc r src sr cs cs' n more (F : post unit) L R h :
  cell_at h dst (icell rc r []) -> vis L R h src (ibody sr) (ptrs sr cs) -> Forall (from (G ++ R) h) cs -> rtakeN n cs = Ok cs' ->
  (forall h', rely L (G ++ R) h h' -> cell_at h' dst (icell rc r (cs' ++ more)) -> F tt (dst :: L) (cs' ++ R) h') ->
  cwp (t_copy_inner dst src n more) F (dst :: L) R h.
Proof.
  intros Hd Hs Hf E K. apply cwp_bind. eapply cwp_inner; [eapply vis_incl; [| |exact Hs]; inc|]. intros h1 R1.
  apply cwp_bind. eapply cwp_lift; [exact E|]. apply rtakeN_inv in E. destruct E as [_ ->].
  apply cwp_bind. apply cwp_ups.
  { eapply from_rely; [exact R1|]. rewrite <- (takeN_dropN n cs) in Hf. apply Forall_app in Hf. apply Hf. }
  intros h2 R2. apply cwp_bind.
  assert (Hd2 : cell_at h2 dst (icell rc r [])).
  { eapply rely_local; [exact R2|now left|]. eapply rely_local; [exact R1|now left|exact Hd]. }
  eapply cwp_inner; [eapply loc_vis; [reflexivity|exact Hd2]|]. intros h3 R3.
  eapply cwp_put_inner; [reflexivity|eapply rely_local; [exact R3|now left|exact Hd2]|]. intros h4 R4 Hd4. apply K; [rl|exact Hd4].
Qed.
Lemma cwp_copy_inner_replace dst rc r src sr ca cx cb c (F : post unit) L R h :
  cell_at h dst (icell rc r []) -> vis L R h src (ibody sr) (ptrs sr (ca ++ cx :: cb)) ->
  Forall (from (G ++ R) h) (ca ++ cx :: cb) ->
  (forall h', rely L (G ++ R) h h' -> cell_at h' dst (icell rc r (ca ++ c :: cb)) -> F tt (dst :: L) (cb ++ ca ++ R) h') ->
  cwp (t_copy_inner_replace dst src (lenN (ca ++ cx :: cb)) (lenN ca) c) F (dst :: L) R h.
Proof.
  intros Hd Hs Hf K. apply Forall_app in Hf. destruct Hf as [Hf1 Hf2]. inversion Hf2 as [|? ? _ Hf3]; subst.
  apply cwp_bind. eapply cwp_inner; [eapply vis_incl; [| |exact Hs]; inc|]. intros h1 R1.
  apply cwp_bind. eapply cwp_lift.
  { apply rtakeN_len. rewrite lenN_app. lia. }
  rewrite takeN_app. apply cwp_bind. eapply cwp_lift.
  { apply rsliceN_len. rewrite lenN_app, lenN_cons. lia. }
  replace (takeN (lenN (ca ++ cx :: cb) - (lenN ca + 1)) (dropN (lenN ca + 1) (ca ++ cx :: cb))) with cb.
  2: { rewrite dropN_app_ge by lia. replace (lenN ca + 1 - lenN ca) with 1 by lia.
       change (dropN 1 (cx :: cb)) with cb. symmetry. apply takeN_all. rewrite lenN_app, lenN_cons. lia. }
  apply cwp_bind. apply cwp_ups; [eapply from_rely; [exact R1|exact Hf1]|]. intros h2 R2.
  apply cwp_bind. apply cwp_ups.
  { apply froms_incl with (R := R); [inc|]. apply from_rely with (L := L) (h := h); [rl|exact Hf3]. }
  intros h3 R3. apply cwp_bind.
  assert (Hd3 : cell_at h3 dst (icell rc r [])).
  { eapply rely_local; [exact R3|now left|]. eapply rely_local; [exact R2|now left|]. eapply rely_local; [exact R1|now left|exact Hd]. }
  eapply cwp_inner; [eapply loc_vis; [reflexivity|exact Hd3]|]. intros h4 R4.
  eapply cwp_put_inner; [reflexivity|eapply rely_local; [exact R4|now left|exact Hd3]|]. intros h5 R5 Hd5. apply K; [rl|exact Hd5].
Qed.
Lemma cwp_copy_inner_r dst dr src sr cs cs' v w sz sz' n more msz (F : post unit) L R h :
  cell_at h dst (icell 1 (Some dr) []) -> cell_at h dr (mkCell 1 (VTable v []) []) ->
  vis L R h src (ibody (Some sr)) (ptrs (Some sr) cs) -> own R h sr (RT (VTable w sz) []) ->
  Forall (from (G ++ R) h) cs -> rtakeN n cs = Ok cs' -> rtakeN n sz = Ok sz' ->
  (forall h', rely L (G ++ R) h h' -> cell_at h' dst (icell 1 (Some dr) (cs' ++ more)) ->
     cell_at h' dr (mkCell 1 (VTable v (sz' ++ msz)) []) -> F tt (dr :: dst :: L) (cs' ++ R) h') ->
  cwp (t_copy_inner_r dst src n more msz) F (dr :: dst :: L) R h.
Proof.
  intros Hd Hr Hs Ho Hf E Ez K. apply cwp_bind.
  eapply (cwp_inner src (Some sr) cs); [eapply vis_incl; [| |exact Hs]; inc|]. intros h1 R1.
  assert (Hd1 : cell_at h1 dst (icell 1 (Some dr) [])) by (eapply rely_local; [exact R1|right; now left|exact Hd]).
  apply cwp_bind. eapply (cwp_inner dst (Some dr) []); [eapply loc_vis; [apply perm_swap|exact Hd1]|]. intros h2 R2.
  apply cwp_bind. eapply cwp_lift; [exact E|]. apply rtakeN_inv in E. destruct E as [_ ->].
  apply cwp_bind. apply cwp_ups.
  { eapply from_rely; [exact R2|]. eapply from_rely; [exact R1|]. rewrite <- (takeN_dropN n cs) in Hf. apply Forall_app in Hf. apply Hf. }
  intros h3 R3. apply cwp_bind.
  eapply cwp_put_inner with (L' := dr :: L); [apply perm_swap| |].
  { eapply rely_local; [exact R3|right; now left|]. eapply rely_local; [exact R2|right; now left|exact Hd1]. }
  intros h4 R4 Hd4.
  assert (Hr4 : cell_at h4 dr (mkCell 1 (VTable v []) [])).
  { eapply rely_local; [exact R4|now left|]. eapply rely_local; [exact R3|now left|]. eapply rely_local; [exact R2|now left|].
    eapply rely_local; [exact R1|now left|exact Hr]. }
  apply cwp_bind. eapply cwp_otable with (v := w) (sz := sz).
  { apply own_incl with (R := R); [inc|]. apply own_rely with (L := L) (h := h); [rl|exact Ho]. }
  intros h5 R5. apply cwp_bind. eapply cwp_lift; [exact Ez|].
  eapply cwp_put_table; [reflexivity|eapply rely_local; [exact R5|now left|exact Hr4]|].
  intros h6 R6 Hr6. apply K; [rl| |exact Hr6].
  eapply rely_local; [exact R6|now left|]. eapply rely_local; [exact R5|right; now left|exact Hd4].
Qed.

(** ** update_visitor *)
Lemma t_update_ok v : forall hp p n n' a idx fn (F : post nat) L R h,
  haddr hp = Ok a -> prel L R h hp p -> pos_ok v p n -> update_node B BL v p idx fn = Ok n' ->
  (forall b h', rely L (G ++ R) h h' -> own (b :: R) h' b (enc n') -> F b L (b :: R) h') ->
  cwp (t_update B BL v hp idx fn) F L R h.
Proof.
  induction v as [|l IH]; intros hp p n n' a idx fn F L R h Ea Hp Hok Hu K; cbn [t_update update_node] in *.
  - apply rbind_ok in Hu. destruct Hu as (off & Hoff & Hu). apply rbind_ok in Hu. destruct Hu as (k & Hk & Hu).
    apply rbind_ok in Hu. destruct Hu as (nd & Hnd & Hu). apply rbind_ok in Hu. destruct Hu as (xs & Hxs & Hu).
    apply rbind_ok in Hu. destruct Hu as (ys & Hys & Hu). apply rbind_ok in Hu. destruct Hu as (x & Hx & Hu).
    injection Hu as <-. destruct nd as [xs'|]; [|discriminate]. injection Hxs as ->.
    apply cwp_bind. eapply cwp_lift; [exact Ea|]. apply cwp_bind. eapply cwp_view; [exact Hp|]. intros h1 R1.
    apply cwp_bind. eapply cwp_lift; [rewrite index_blank; exact Hoff|].
    apply cwp_bind. eapply cwp_lift; [rewrite count_blank; exact Hk|].
    pose proof (prel_nvis _ _ _ _ _ _ _ (prel_rely _ _ _ _ _ _ R1 Hp) Ea Hnd) as Hn.
    apply cwp_bind. eapply cwp_copy_leaf; [exact Hn|exact Hys|]. intros q h2 R2 Hc2.
    apply cwp_bind. eapply cwp_leaf; [eapply loc_vis; [reflexivity|exact Hc2]|]. intros h3 R3.
    apply cwp_bind. eapply cwp_lift; [exact Hx|]. apply cwp_bind.
    eapply cwp_put_leaf; [reflexivity|eapply rely_local; [exact R3|now left|exact Hc2]|]. intros h4 R4 Hc4.
    eapply cwp_pub_leaf; [exact Hc4|]. intros Ho. apply cwp_done. apply K; [rl|exact Ho].
  - apply rbind_ok in Hu. destruct Hu as (off & Hoff & Hu). apply rbind_ok in Hu. destruct Hu as (k & Hk & Hu).
    apply rbind_ok in Hu. destruct Hu as (ns0 & Hns0 & Hu). apply rbind_ok in Hu. destruct Hu as ([q idx'] & Htw & Hu).
    apply rbind_ok in Hu. destruct Hu as (cn & Hcn & Hu). apply rbind_ok in Hu. destruct Hu as (ns' & Hns' & Hu).
    injection Hu as <-.
    pose proof (count_ok _ _ _ _ _ Hok) as Hk'. rewrite Hk in Hk'. injection Hk' as ->.
    apply cwp_bind. eapply cwp_lift; [exact Ea|]. apply cwp_bind. eapply cwp_view; [exact Hp|]. intros h1 R1.
    eapply prel_rely in Hp; [|exact R1].
    apply cwp_bind. eapply cwp_lift; [rewrite index_blank; exact Hoff|].
    apply cwp_bind. eapply cwp_lift; [rewrite count_blank; exact Hk|].
    destruct (prel_cases _ _ _ _ _ _ _ _ Hp Ea Hok) as (r & cs & o & ns & -> & Hi & El & Hcase).
    unfold pinner in Hns0. rewrite (pos_ok_node _ _ _ _ _ Hok) in Hns0. cbn in Hns0. injection Hns0 as <-.
    cbn [ncount] in *.
    assert (ns' = ns) as ->.
    { apply rtakeN_inv in Hns'. destruct Hns' as [_ ->]. apply takeN_all. lia. } clear Hns'.
    destruct (htowards_ok _ _ _ _ _ cs _ _ _ _ Hok El Htw) as (kd & Hkd & ca & c & cb & na & x & nb & -> & En & Eca & Ena & Eaddr & Ekp & Hqok).
    cbn [kids] in En. subst ns c off. rewrite <- El in *.
    assert (Eo : match p with PRel _ sz => Some sz | _ => None end = o).
    { destruct Hcase as [(rr & sz & -> & -> & -> & ->)|(-> & -> & _ & Hpp & _)]; [reflexivity|apply Hpp]. }
    rewrite Eo in K.
    (* the common part: a new node whose table, if any, is [r], one reference to it owned *)
    assert (W : forall b h2, rely L (G ++ R) h1 h2 -> cell_at h2 b (icell 1 r []) ->
       cwp (' (_, cs) <-- t_inner a ;; ' (kd', idx') <-- plift (htowards B BL l (blank p) cs idx (lenN ca)) ;;
            q <-- t_open B BL l kd' ;; c <-- t_update B BL l q idx' fn ;;
            _ <-- t_copy_inner_replace b a (lenN (ca ++ kaddr kd :: cb)) (lenN ca) c ;; Done b)
         F (b :: L) (ptrs r R) h2).
    { intros b h2 R2 Hb. assert (Hi2 : iv L R h2 a r (ca ++ kaddr kd :: cb) o (na ++ x :: nb)) by (eapply iv_rely; eauto).
      assert (Hi' : iv (b :: L) (ptrs r R) h2 a r (ca ++ kaddr kd :: cb) o (na ++ x :: nb)).
      { eapply iv_incl; [| |exact Hi2]; [inc|destruct r; cbn [ptrs]; inc]. }
      apply cwp_bind. eapply cwp_inner; [exact (iv_vis _ _ _ _ _ _ _ _ Hi')|]. intros h3 R3.
      eapply iv_rely in Hi'; [|exact R3].
      apply cwp_bind. eapply cwp_lift; [exact Hkd|].
      pose proof (iv_ks _ _ _ _ _ _ _ _ Hi') as Hks. rewrite map_app in Hks. cbn [map] in Hks.
      assert (Elen : lenN ca = lenN (map enc na)) by (rewrite lenN_map; lia).
      destruct (F2_mid _ _ _ _ _ _ _ Elen Hks) as (Hk1 & Hkx & Hk2).
      apply cwp_bind. eapply cwp_open; [apply own_nvis; exact Hkx|exact Ekp|]. intros hq h4 R4 Eq Hq.
      apply cwp_bind. eapply IH; [exact Eq|exact Hq|exact Hqok|exact Hcn|]. intros c h5 R5 Hc5.
      assert (R35 : rely (b :: L) (G ++ ptrs r R) h3 h5) by (destruct r; cbn [ptrs] in *; rl).
      assert (Hi5 : iv (b :: L) (ptrs r R) h5 a r (ca ++ kaddr kd :: cb) o (na ++ x :: nb)) by (eapply iv_rely; [exact R35|exact Hi']).
      assert (R25 : rely L (G ++ R) h2 h5) by (destruct r; cbn [ptrs] in *; rl).
      apply cwp_bind. eapply cwp_copy_inner_replace with (sr := r) (rc := 1%nat) (r := r).
      - eapply rely_local; [exact R5|now left|]. eapply rely_local; [exact R4|now left|]. eapply rely_local; [exact R3|now left|exact Hb].
      - apply vis_incl with (L := L) (R := R); [inc|destruct r; cbn [ptrs]; inc|].
        eapply vis_rely; [exact R25|exact (iv_vis _ _ _ _ _ _ _ _ Hi2)].
      - apply froms_incl with (R := ptrs r R); [inc|]. eapply owns_from. exact (iv_ks _ _ _ _ _ _ _ _ Hi5).
      - intros h6 R6 Hc6.
        assert (R36 : rely L (G ++ ptrs r R) h3 h6) by (destruct r; cbn [ptrs] in *; rl).
        eapply cwp_pub_inner with (R := R) (o := o) (ns := na ++ cn :: nb); [exact Hc6| | | |].
        + destruct r; oc.
        + rewrite (lv1_mid na cn x nb nb) by (eapply update_lvl; [exact Hqok|exact Hcn]).
          apply ot_incl with (R := ptrs r R); [destruct r; cbn [ptrs]; inc|]. eapply ot_rely; [exact R36|exact (iv_ot _ _ _ _ _ _ _ _ Hi')].
        + rewrite map_app. cbn [map]. apply Forall2_app; [|constructor].
          * apply owns_incl with (R := ptrs r R); [destruct r; cbn [ptrs]; inc|]. eapply owns_rely; [exact R36|exact Hk1].
          * apply own_incl with (R := c :: ptrs r R); [destruct r; cbn [ptrs]; inc|]. eapply own_rely; [exact R6|exact Hc5].
          * apply owns_incl with (R := ptrs r R); [destruct r; cbn [ptrs]; inc|]. eapply owns_rely; [exact R36|exact Hk2].
        + intros Ho. apply cwp_done. apply K; [destruct r; cbn [ptrs] in *; rl|]. rewrite updN_app by congruence. exact Ho. }
    destruct Hcase as [(rr & sz & -> & -> & -> & ->)|(-> & -> & Hh & Hpp & _)].
    + apply cwp_bind. eapply cwp_make_inner_sr_n; [exact (iv_ot _ _ _ _ _ _ _ _ Hi)| |].
      * cbn [count] in Hk. injection Hk as Hk. lia.
      * intros b h2 R2 Hc2. apply W; [exact R2|exact Hc2].
    + rewrite Hh. apply cwp_bind. eapply cwp_make_inner. intros b h2 R2 Hc2. apply W; [exact R2|exact Hc2].
Qed.
End VC.
