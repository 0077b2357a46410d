(** The map operations of one thread, whatever the other threads do. *)
From Coq Require Import List NArith Arith Lia Bool Permutation ZArith ZifyBool ZifyNat ZifyN.
From Verif Require Import Common Bits BitsProofs Slots Champ ChampSpec ChampProofs ChampShape
  AtomProofs RcHeap RcProofs Conc ConcProofs ChampHeap ChampHeapProofs ChampProgSpec ChampProg ChampConc.
Import ListNotations.
Set Default Goal Selector "!".

Ltac inc := let z := fresh "z" in let Hz := fresh "Hz" in
  intros z Hz; cbn [In app] in Hz |- *; repeat (rewrite in_app_iff in Hz; cbn [In] in Hz);
  repeat (rewrite in_app_iff; cbn [In]); clear - Hz; tauto.
(** Composes the steps of the others. *)
Ltac rl :=
  match goal with
  | |- rely _ _ ?h ?h => apply rely_refl
  | H : rely _ _ ?h ?h' |- rely _ _ ?h ?h' => eapply rely_incl; [| |exact H]; inc
  | H : rely _ _ ?h1 ?h' |- rely _ _ ?h ?h' =>
      apply rely_trans with h1; [rl|eapply rely_incl; [| |exact H]; inc]
  end.

Section Gen.
Context {C : Type}.
Notation heap := (heap C).
Variable G : list nat.
Notation cwp := (cwp G).

(** The result may be given with other lists that hold the same. *)
Lemma cwp_post {A} (p : prog C A) (F : A -> list nat -> list nat -> heap -> Prop) L R h :
  cwp p (fun a L R h => exists L' R', Permutation L L' /\ (forall x, occ x R = occ x R') /\ F a L' R' h) L R h ->
  cwp p F L R h.
Proof.
  revert L R h. induction p as [a| |D q k IH]; intros L R h H; cbn in *; intros Le Re HG S.
  - destruct (H Le Re HG S) as (L' & R' & S' & Sh & L2 & R2 & HL & HR & HF). exists L2, R2.
    split; [|split; [eapply shift_trans; [exact Sh|now apply shift_eqv]|exact HF]].
    eapply st_perm; [apply Permutation_app_tail; exact HL|]. eapply st_eqv; [|exact S'].
    intros x. rewrite !occ_app. now rewrite HR.
  - exact (H Le Re HG S).
  - destruct (H Le Re HG S) as (Ha & E & K). split; [exact Ha|]. split; [exact E|].
    intros x h' Hc. destruct (K x h' Hc) as (L' & R' & S' & Rl & Lg & K'). exists L', R'.
    split; [exact S'|]. split; [exact Rl|]. split; [exact Lg|]. auto.
Qed.
Lemma cwp_unbind {A D} (p : prog C A) (k : A -> prog C D) F L R h :
  cwp (pbind p k) F L R h -> cwp p (fun a L R h => cwp (k a) F L R h) L R h.
Proof.
  revert L R h. induction p as [a| |D' q k' IH]; intros L R h H; cbn [pbind] in *.
  - apply cwp_done. exact H.
  - exact H.
  - cbn in *. intros Le Re HG S. destruct (H Le Re HG S) as (Hacc & E & K).
    split; [exact Hacc|]. split; [exact E|]. intros x h' Hc. destruct (K x h' Hc) as (L' & R' & S' & Rl & Lg & K').
    exists L', R'. split; [exact S'|]. split; [exact Rl|]. split; [exact Lg|].
    intros h'' Hr. apply IH, K', Hr.
Qed.
Lemma cwp_each {A} (f g : A -> prog C unit) l :
  (forall x (F : unit -> list nat -> list nat -> heap -> Prop) L R h, cwp (f x) F L R h -> cwp (g x) F L R h) ->
  forall (F : unit -> list nat -> list nat -> heap -> Prop) L R h, cwp (each f l) F L R h -> cwp (each g l) F L R h.
Proof.
  intros H. induction l as [|x l IH]; intros F L R h W; cbn [each] in *; [exact W|].
  apply cwp_bind. apply H. eapply cwp_mono; [|exact (cwp_unbind _ _ _ _ _ _ W)]. cbn beta. intros _ L' R' h' W'. now apply IH.
Qed.

(** What a reference stands for. *)
Definition own (R : list nat) (h : heap) (a : nat) (u : rtree C) : Prop := from (G ++ R) h a /\ rep h a u.
Lemma own_rely L R h h' a u : rely L (G ++ R) h h' -> own R h a u -> own R h' a u.
Proof.
  intros H [Ha Hr]. split; [eapply rely_from; [exact H|apply incl_refl|exact Ha]|eapply rely_rep; eauto].
Qed.
Lemma own_incl R R' h a u : incl R R' -> own R h a u -> own R' h a u.
Proof.
  intros H [Ha Hr]. split; [|exact Hr]. eapply from_incl; [|exact Ha].
  apply incl_app; [apply incl_appl, incl_refl|apply incl_appr, H].
Qed.
Lemma own_root R h a u : In a R -> rep h a u -> own R h a u.
Proof. intros H Hr. split; [|exact Hr]. apply from_root, in_or_app. now right. Qed.
Lemma own_inv R h a u : own R h a u -> exists c ts, cell_at h a c /\ Forall2 (own R h) (c_kids c) ts /\ u = RT (c_body c) ts.
Proof.
  intros [Ha Hr]. destruct (rep_inv _ _ _ Hr) as (c & ts & Hc & Hk & E). exists c, ts. split; [exact Hc|]. split; [|exact E].
  assert (Hk' : forall k, In k (c_kids c) -> from (G ++ R) h k) by (intros; eapply from_kid; eauto).
  clear - Hk Hk'. induction Hk as [|k t ks ts Hk _ IH]; constructor.
  - split; [apply Hk'; now left|exact Hk].
  - apply IH. intros. apply Hk'. now right.
Qed.
Lemma owns_rely L R h h' ks ts : rely L (G ++ R) h h' -> Forall2 (own R h) ks ts -> Forall2 (own R h') ks ts.
Proof. intros H F. induction F; constructor; auto. eapply own_rely; eauto. Qed.
Lemma owns_incl R R' h ks ts : incl R R' -> Forall2 (own R h) ks ts -> Forall2 (own R' h) ks ts.
Proof. intros H F. induction F; constructor; auto. eapply own_incl; eauto. Qed.
Lemma owns_rep R h ks ts : Forall2 (own R h) ks ts -> Forall2 (rep h) ks ts.
Proof. induction 1 as [|k t ks ts [_ H]]; constructor; auto. Qed.
Lemma owns_root R h ks ts : incl ks R -> Forall2 (rep h) ks ts -> Forall2 (own R h) ks ts.
Proof.
  intros H F. induction F; constructor.
  - apply own_root; [apply H; now left|assumption].
  - apply IHF. intros q Hq. apply H. now right.
Qed.
Lemma owns_from R h ks ts : Forall2 (own R h) ks ts -> Forall (from (G ++ R) h) ks.
Proof. induction 1 as [|k t ks ts [H _]]; constructor; auto. Qed.

(** A block that can be read. *)
Definition vis (L R : list nat) (h : heap) (a : nat) (b : C) (ks : list nat) : Prop :=
  exists c, cell_at h a c /\ c_body c = b /\ c_kids c = ks /\ (In a L \/ from (G ++ R) h a).
Lemma vis_rely L R h h' a b ks : rely L (G ++ R) h h' -> vis L R h a b ks -> vis L R h' a b ks.
Proof.
  intros H (c & Hc & Eb & Ek & [Ha|Ha]).
  - exists c. split; [eapply rely_local; eauto|auto].
  - destruct (rely_cell _ _ _ _ _ _ H Ha Hc) as (c' & Hc' & E1 & E2). exists c'. split; [exact Hc'|].
    split; [congruence|]. split; [congruence|]. right. eapply rely_from; [exact H|apply incl_refl|exact Ha].
Qed.
Lemma vis_incl L R L' R' h a b ks : incl L L' -> incl R R' -> vis L R h a b ks -> vis L' R' h a b ks.
Proof.
  intros HL HR (c & Hc & Eb & Ek & Ha). exists c. split; [exact Hc|]. split; [exact Eb|]. split; [exact Ek|].
  destruct Ha as [Ha|Ha]; [left; now apply HL|]. right. eapply from_incl; [|exact Ha].
  apply incl_app; [apply incl_appl, incl_refl|apply incl_appr, HR].
Qed.
Lemma own_vis L R h a b ts : own R h a (RT b ts) -> exists ks, vis L R h a b ks /\ Forall2 (own R h) ks ts.
Proof.
  intros H. pose proof H as [Ha _]. destruct (own_inv _ _ _ _ H) as (c & us & Hc & Hk & E). injection E as -> ->.
  exists (c_kids c). split; [|exact Hk]. exists c. auto.
Qed.
Lemma own_leaf L R h a b : own R h a (RT b []) -> vis L R h a b [].
Proof. intros H. destruct (own_vis L _ _ _ _ _ H) as (ks & Hv & F). inversion F; subst. exact Hv. Qed.
Lemma local_vis L R h a c : In a L -> cell_at h a c -> vis L R h a (c_body c) (c_kids c).
Proof. intros Ha Hc. exists c. auto. Qed.

Lemma cwp_see a b ks (F : cell C -> list nat -> list nat -> heap -> Prop) L R h : vis L R h a b ks ->
  (forall c h', rely L (G ++ R) h h' -> c_body c = b -> c_kids c = ks -> F c L R h') -> cwp (ld a) F L R h.
Proof.
  intros (c & Hc & Eb & Ek & Ha) K. apply cwp_ld with (c := c); [exact Hc|exact Ha|]. auto.
Qed.
Lemma cwp_mkr b ks ts (F : nat -> list nat -> list nat -> heap -> Prop) L R0 R h :
  (forall x, occ x R0 = occ x (ks ++ R)) -> Forall2 (own R0 h) ks ts ->
  (forall a h', rely L (G ++ R0) h h' -> rep h' a (RT b ts) -> F a L (a :: R) h') -> cwp (mk b ks) F L R0 h.
Proof.
  intros HR Hk K. apply cwp_mk with (R' := R); [exact HR|]. intros a h' Rl (c & Hc & <- & Ek). apply K; [exact Rl|].
  constructor; [exact Hc|]. rewrite Ek. eapply owns_rep, owns_rely; [exact Rl|exact Hk].
Qed.
Lemma cwp_ups0 ks : forall (F : unit -> list nat -> list nat -> heap -> Prop) L R h, Forall (from (G ++ R) h) ks ->
  (forall R' h', (forall x, occ x R' = occ x (ks ++ R)) -> rely L (G ++ R) h h' -> F tt L R' h') -> cwp (each up ks) F L R h.
Proof.
  induction ks as [|k ks IH]; intros F L R h Hk K; cbn [each].
  - apply cwp_done. apply K; [reflexivity|apply rely_refl].
  - inversion Hk as [|? ? Hk1 Hk2]; subst. apply cwp_bind. apply cwp_up; [exact Hk1|]. intros h1 R1. apply IH.
    + eapply Forall_impl; [|exact Hk2]. intros x Hx. eapply from_incl; [|eapply rely_from; [exact R1|apply incl_refl|exact Hx]]. inc.
    + intros R' h2 HR R2. apply K; [|rl]. intros x. rewrite HR. cbn. rewrite !occ_app. cbn. lia.
Qed.
Lemma cwp_ups ks (F : unit -> list nat -> list nat -> heap -> Prop) L R h : Forall (from (G ++ R) h) ks ->
  (forall h', rely L (G ++ R) h h' -> F tt L (ks ++ R) h') -> cwp (each up ks) F L R h.
Proof.
  intros Hk K. apply cwp_post, cwp_ups0; [exact Hk|]. intros R' h' HR Rl. exists L, (ks ++ R). auto.
Qed.
(** A block that is held alone. *)
Lemma rely_open L R (h h' : heap) a c : cell_at h a c -> rely (a :: L) (G ++ c_kids c ++ R) h h' -> rely L (G ++ a :: R) h h'.
Proof.
  intros Hc H. split; [intros x Hx; apply H; now right|].
  intros x cx (r & Hr & Hp) Hx. assert (Hx' : x = a \/ from (G ++ c_kids c ++ R) h x).
  { rewrite in_app_iff in Hr. cbn [In] in Hr. destruct Hr as [Hr|[<-|Hr]].
    - right. exists r. split; [apply in_or_app; now left|exact Hp].
    - clear Hx. induction Hp as [|y cy b Hp IH Hy Hb]; [now left|]. right. destruct IH as [->|(q & Hq & Hq')].
      + unfold cell_at in *. rewrite Hc in Hy. injection Hy as <-. exists b. split; [|constructor].
        rewrite !in_app_iff. auto.
      + exists q. split; [exact Hq|]. eapply reaches_kid; eauto.
    - right. exists r. split; [rewrite !in_app_iff; auto|exact Hp]. }
  destruct Hx' as [->|Hx']; [|exact (proj2 H x cx Hx' Hx)].
  exists cx. split; [|split; reflexivity]. eapply rely_local; [exact H|now left|exact Hx].
Qed.
End Gen.

Section CC.
Variable B : N.
Context {T K : Type}.
Variable key : T -> K.
Variable khash : K -> N.
Variable keq : K -> K -> bool.
Variable gone : T -> T.
Variable e0 : nat.
Hypothesis HB : (1 <= B)%N.
Hypothesis Hhash : forall k, (khash k < 2 ^ 64)%N.
Variable G : list nat.

Notation heap := (heap (cbody T)).
Notation nd := (node T).
Notation rt := (rtree (cbody T)).
Notation max_shift := (max_shift B).
Notation level := (level B).
Notation cwp := (cwp G).
Notation own := (own G).
Notation vis := (vis G).
Notation post A := (A -> list nat -> list nat -> heap -> Prop).

Definition vals (R : list nat) (h : heap) (vp : option nat) (vs : list T) : Prop :=
  match vp with
  | Some va => vs <> [] /\ own R h va (RT (BVals vs) [])
  | None => vs = []
  end.
Lemma vals_is R h vp vs : vals R h vp vs -> is_some vp = some_v vs.
Proof. destruct vp; cbn; [intros [H _]; now destruct vs|now intros ->]. Qed.
Lemma vals_enc R h vp vs : vals R h vp vs -> Forall2 (own R h) (ptrs vp) (encv vs).
Proof.
  destruct vp; cbn; [intros [H Hs]; destruct vs; [easy|]; repeat constructor; apply Hs|].
  intros ->. constructor.
Qed.
Lemma vals_rely L R h h' vp vs : rely L (G ++ R) h h' -> vals R h vp vs -> vals R h' vp vs.
Proof. intros H. destruct vp; cbn; [|auto]. intros [H1 H2]. split; [exact H1|]. eapply own_rely; eauto. Qed.
Lemma vals_incl R R' h vp vs : incl R R' -> vals R h vp vs -> vals R' h vp vs.
Proof. intros H. destruct vp; cbn; [|auto]. intros [H1 H2]. split; [exact H1|]. eapply own_incl; eauto. Qed.

(** An inner node: its block, its elements and its children. *)
Record inode (L R : list nat) (h : heap) (a : nat) (nm dm : N) (vs : list T) (cs : list nd)
  (vp : option nat) (ks : list nat) : Prop := mkI {
  i_vis : vis L R h a (BInner nm dm (is_some vp)) (ptrs vp ++ ks);
  i_v : vals R h vp vs;
  i_ks : Forall2 (own R h) ks (map enc cs);
  i_lk : length ks = popcount nm;
  i_lv : length vs = popcount dm }.
Lemma inode_rely L R h h' a nm dm vs cs vp ks : rely L (G ++ R) h h' ->
  inode L R h a nm dm vs cs vp ks -> inode L R h' a nm dm vs cs vp ks.
Proof.
  intros H [H1 H2 H3 H4 H5]. constructor; auto.
  - eapply vis_rely; eauto.
  - eapply vals_rely; eauto.
  - eapply owns_rely; eauto.
Qed.
Lemma inode_incl L R L' R' h a nm dm vs cs vp ks : incl L L' -> incl R R' ->
  inode L R h a nm dm vs cs vp ks -> inode L' R' h a nm dm vs cs vp ks.
Proof.
  intros HL HR [H1 H2 H3 H4 H5]. constructor; auto.
  - eapply vis_incl; eauto.
  - eapply vals_incl; eauto.
  - eapply owns_incl; eauto.
Qed.
Lemma own_inode d L R h a nm dm vs cs : shaped (S d) (Inner nm dm vs cs) -> own R h a (enc (Inner nm dm vs cs)) ->
  exists vp ks, inode L R h a nm dm vs cs vp ks.
Proof.
  intros (El & Ek & _) H. rewrite enc_inner in H. destruct (own_vis G L _ _ _ _ _ H) as (ks & Hv & Hk).
  destruct vs as [|v vs].
  - exists None, ks. constructor; cbn; auto.
    cbn in Hk. apply F2_length in Hk. rewrite map_length in Hk. congruence.
  - cbn [encv app] in Hk. inversion Hk as [|va tv ks' ts Hva Hks Ek']; subst. exists (Some va), ks'. constructor; auto.
    + cbn. split; [discriminate|exact Hva].
    + apply F2_length in Hks. rewrite map_length in Hks. congruence.
Qed.
Lemma inode_lc L R h a nm dm vs cs vp ks : inode L R h a nm dm vs cs vp ks -> length ks = length cs.
Proof. intros [_ _ H _ _]. apply F2_length in H. now rewrite map_length in H. Qed.
Lemma inode_kid L R h a nm dm vs cs vp ks o n : inode L R h a nm dm vs cs vp ks ->
  rnth cs o = Ok n -> exists x, rnth ks o = Ok x /\ own R h x (enc n).
Proof.
  intros [_ _ H _ _] E. apply rnth_nth in E. destruct (F2_nth _ _ _ o (enc n) H) as (x & Hx & Hr).
  - rewrite nth_error_map, E. reflexivity.
  - exists x. split; [now apply rnth_nth|exact Hr].
Qed.
Lemma own_coll L R (h : heap) a vs : own R h a (enc (Coll vs)) -> vis L R h a (BColl vs) [].
Proof. apply own_leaf. Qed.

(** ** Reading *)
Lemma cwp_load_inner a nm dm vp ks (F : post (N * N * option nat * list nat)) L R h :
  vis L R h a (BInner nm dm (is_some vp)) (ptrs vp ++ ks) -> length ks = popcount nm ->
  (forall h', rely L (G ++ R) h h' -> F (nm, dm, vp, ks) L R h') -> cwp (c_load_inner a) F L R h.
Proof.
  intros Hv El HF. unfold c_load_inner. apply cwp_bind. eapply cwp_see; [exact Hv|]. intros c h' Rl Eb Ek.
  rewrite Eb, Ek. destruct vp as [va|]; cbn [is_some ptrs app]; rewrite (proj2 (Nat.eqb_eq _ _) El); apply cwp_done; auto.
Qed.
Lemma cwp_load_vals dm vp vs (F : post (list T)) L R h : vals R h vp vs -> vs <> [] -> length vs = popcount dm ->
  (forall h', rely L (G ++ R) h h' -> F vs L R h') -> cwp (c_load_vals dm vp) F L R h.
Proof.
  intros H Hn El HF. destruct vp as [va|]; cbn in H; [|easy]. destruct H as [_ H].
  unfold c_load_vals. apply cwp_bind. eapply cwp_see; [apply own_leaf; exact H|]. intros c h' Rl Eb _. rewrite Eb.
  rewrite (proj2 (Nat.eqb_eq _ _) El). apply cwp_done. auto.
Qed.
Lemma cwp_read_vals dm vp vs (F : post (list T)) L R h : vals R h vp vs -> length vs = popcount dm ->
  (forall h', rely L (G ++ R) h h' -> F vs L R h') -> cwp (c_read_vals dm vp) F L R h.
Proof.
  intros H El HF. unfold c_read_vals. rewrite <- El. destruct vs as [|v vs]; cbn [length Nat.eqb].
  - apply cwp_done, HF, rely_refl.
  - eapply cwp_load_vals; [exact H|discriminate|exact El|exact HF].
Qed.
Lemma cwp_load_coll a vs ks (F : post (list T)) L R h : vis L R h a (BColl vs) ks ->
  (forall h', rely L (G ++ R) h h' -> F vs L R h') -> cwp (c_load_coll a) F L R h.
Proof.
  intros H HF. unfold c_load_coll. apply cwp_bind. eapply cwp_see; [exact H|]. intros c h' Rl Eb _. rewrite Eb.
  apply cwp_done. auto.
Qed.

(** ** Building *)
Lemma cwp_build nm dm vs ks ts (F : post nat) L R0 R h : (forall x, occ x R0 = occ x (ks ++ R)) ->
  Forall2 (own R0 h) ks ts ->
  (forall r h', rely L (G ++ R0) h h' -> rep h' r (RT (BInner nm dm (some_v vs)) (encv vs ++ ts)) -> F r L (r :: R) h') ->
  cwp (c_build_inner nm dm vs ks) F L R0 h.
Proof.
  intros HR Hk HF. destruct vs as [|v vs]; cbn [c_build_inner].
  - eapply cwp_mkr; [exact HR|exact Hk|exact HF].
  - apply cwp_bind. apply cwp_mkr with (R := R0) (ts := []); [reflexivity|constructor|]. intros va h1 R1 Hva.
    apply cwp_mkr with (R := R) (ts := encv (v :: vs) ++ ts).
    + intros x. cbn. rewrite HR. reflexivity.
    + constructor; [apply own_root; [now left|exact Hva]|]. eapply owns_incl; [|eapply owns_rely; [exact R1|exact Hk]]. inc.
    + intros r h2 R2 Hr. apply HF; [rl|exact Hr].
Qed.
Lemma cwp_copy_inner nm dm vs kept ks ts (F : post nat) L R0 R h :
  (forall x, occ x (kept ++ R0) = occ x (ks ++ R)) -> Forall (from (G ++ R0) h) kept -> Forall2 (own R0 h) ks ts ->
  (forall r h', rely L (G ++ R0) h h' -> rep h' r (RT (BInner nm dm (some_v vs)) (encv vs ++ ts)) -> F r L (r :: R) h') ->
  cwp (c_copy_inner nm dm vs kept ks) F L R0 h.
Proof.
  intros HR Hf Hk HF. unfold c_copy_inner. apply cwp_bind. apply cwp_ups; [exact Hf|]. intros h1 R1.
  eapply cwp_build; [exact HR|eapply owns_incl; [|eapply owns_rely; [exact R1|exact Hk]]; inc|].
  intros r h2 R2 Hr. apply HF; [rl|exact Hr].
Qed.

(** ** Deleting *)
Lemma cwp_free_vals n va vs (F : post unit) L R h : vis (va :: L) R h va (BVals vs) [] -> length vs = n ->
  (forall h', rely L (G ++ R) h h' -> F tt L R h') -> cwp (c_delete_values n va) F (va :: L) R h.
Proof.
  intros Hv El HF. unfold c_delete_values. apply cwp_bind. eapply cwp_see; [exact Hv|]. intros c h1 R1 Eb _.
  rewrite Eb, (proj2 (Nat.eqb_eq _ _) El). apply cwp_fr with (L' := L); [reflexivity|]. intros h2 R2. apply HF. rl.
Qed.
Lemma cwp_drop_vals n va vs (F : post unit) L R h : rep h va (RT (BVals vs) []) -> length vs = n ->
  (forall h', rely L (G ++ R) h h' -> F tt L R h') ->
  cwp (last <-- dn va ;; if last : bool then c_delete_values n va else Done tt) F L (va :: R) h.
Proof.
  intros Hr El HF. apply cwp_bind. apply cwp_dn with (R' := R); [reflexivity| |].
  - intros h' Rl. apply cwp_done. auto.
  - intros c h1 Hc R1 Hc1. destruct (rep_inv _ _ _ Hr) as (c' & ts & Hc' & Hk & E). injection E as Eb Et.
    unfold cell_at in Hc, Hc'. rewrite Hc in Hc'. injection Hc' as <-. subst ts. inversion Hk as [Ek|]. rewrite <- Ek in *.
    cbn [app] in *. eapply cwp_free_vals with (vs := vs); [|exact El|].
    + exists (mkCell 0 (c_body c) []). split; [exact Hc1|]. cbn. split; [now symmetry|]. split; [reflexivity|]. left. now left.
    + intros h2 R2. apply HF. rl.
Qed.
Lemma cwp_delete_inner a nm dm vp ks vs (F : post unit) L R h :
  vis (a :: L) (ptrs vp ++ R) h a (BInner nm dm (is_some vp)) (ptrs vp ++ ks) -> length ks = popcount nm ->
  vals (ptrs vp ++ R) h vp vs -> length vs = popcount dm ->
  (forall h', rely L (G ++ R) h h' -> F tt L R h') -> cwp (c_delete_inner a) F (a :: L) (ptrs vp ++ R) h.
Proof.
  intros Hv El Hvs Elv HF. unfold c_delete_inner. apply cwp_bind.
  eapply cwp_load_inner; [exact Hv|exact El|]. intros h1 R1. apply cwp_bind.
  assert (Fin : forall h2, rely L (G ++ R) h h2 -> cwp (fr a) F (a :: L) R h2).
  { intros h2 R2. apply cwp_fr with (L' := L); [reflexivity|]. intros h3 R3. apply HF. rl. }
  destruct vp as [va|]; cbn [ptrs app] in *.
  - destruct Hvs as [_ Hva]. apply (own_rely _ _ _ _ _ _ _ R1) in Hva. destruct Hva as [_ Hva].
    eapply cwp_drop_vals; [exact Hva|exact Elv|]. intros h2 R2. apply Fin. rl.
  - apply cwp_done. apply Fin. rl.
Qed.
Lemma cwp_delete_coll a vs ks (F : post unit) L R h : vis (a :: L) R h a (BColl vs) ks ->
  (forall h', rely L (G ++ R) h h' -> F tt L R h') -> cwp (c_delete_collision a) F (a :: L) R h.
Proof.
  intros Hv HF. unfold c_delete_collision. apply cwp_bind. eapply cwp_load_coll; [exact Hv|]. intros h1 R1.
  apply cwp_fr with (L' := L); [reflexivity|]. intros h2 R2. apply HF. rl.
Qed.

Definition c_drop (d : nat) (a : nat) : prog (cbody T) unit :=
  last <-- dn a ;; if last : bool then c_delete_deep d a else Done tt.
Definition drops (d : nat) : Prop := forall n a (F : post unit) L R h, shaped d n -> rep h a (enc n) ->
  (forall h', rely L (G ++ R) h h' -> F tt L R h') -> cwp (c_drop d a) F L (a :: R) h.
Lemma cwp_drops d : drops d -> forall cs ks (F : post unit) L R h, Forall (shaped d) cs ->
  Forall2 (rep h) ks (map enc cs) -> (forall h', rely L (G ++ R) h h' -> F tt L R h') ->
  cwp (each (c_drop d) ks) F L (ks ++ R) h.
Proof.
  intros D. induction cs as [|n cs IH]; intros ks F L R h Hs Hk HF; inversion Hk as [|k ? ks' ? Hk1 Hk2]; subst; cbn [each app].
  - apply cwp_done, HF, rely_refl.
  - inversion Hs; subst. apply cwp_bind. eapply D; [eassumption|exact Hk1|]. intros h1 R1. eapply IH; [eassumption| |].
    + eapply rely_reps; [exact R1| |exact Hk2]. intros k' Hk'. apply from_root. rewrite !in_app_iff. auto.
    + intros h2 R2. apply HF. rl.
Qed.
(** A tree whose root is held locally. *)
Definition deletes (d : nat) : Prop := forall n a c (F : post unit) L R h, shaped d n -> cell_at h a c ->
  (exists ts, enc n = RT (c_body c) ts /\ Forall2 (rep h) (c_kids c) ts) ->
  (forall h', rely L (G ++ R) h h' -> F tt L R h') -> cwp (c_delete_deep d a) F (a :: L) (c_kids c ++ R) h.
Lemma deletes_drops d : deletes d -> drops d.
Proof.
  intros D n a F L R h Hs Hr HF. unfold c_drop. apply cwp_bind. apply cwp_dn with (R' := R); [reflexivity| |].
  - intros h' Rl. apply cwp_done. auto.
  - intros c h1 Hc R1 Hc1. destruct (rep_inv _ _ _ Hr) as (c' & ts & Hc' & Hk & E).
    unfold cell_at in Hc, Hc'. rewrite Hc in Hc'. injection Hc' as <-.
    change (c_kids c) with (c_kids (mkCell 0 (c_body c) (c_kids c))).
    eapply D; [exact Hs|exact Hc1| |].
    + exists ts. split; [exact E|]. eapply rely_reps; [exact R1| |exact Hk]. intros k Hk'. apply from_root.
      rewrite !in_app_iff. auto.
    + intros h2 R2. apply HF. rl.
Qed.
Lemma deletes_all d : deletes d.
Proof.
  induction d as [|d IH]; intros n a c F L R h Hs Hc (ts & E & Hk) HF.
  - destruct n as [|vs]; [easy|]. cbn [enc] in E. injection E as Eb Et. subst ts. inversion Hk as [Ek|]. cbn [app c_delete_deep].
    eapply cwp_delete_coll with (vs := vs) (ks := []); [|exact HF]. exists c. auto with datatypes.
  - destruct n as [nm dm vs cs|]; [|easy].
    destruct Hs as (El & Ek & _ & Hcs). rewrite enc_inner in E. injection E as Eb Et. subst ts.
    assert (exists vp ks, c_body c = BInner nm dm (is_some vp) /\ c_kids c = ptrs vp ++ ks /\
              vals (ptrs vp ++ R) h vp vs /\ Forall2 (rep h) ks (map enc cs)) as (vp & ks & Eb' & Ek' & Hv & Hks).
    { destruct vs as [|v vs].
      - exists None, (c_kids c). split; [now symmetry|]. split; [reflexivity|]. split; [reflexivity|exact Hk].
      - cbn [encv app] in Hk. inversion Hk as [|va tv ks ts Hva Hks Ek']; subst.
        exists (Some va), ks. split; [now symmetry|]. split; [now symmetry|].
        split; [|exact Hks]. split; [discriminate|]. apply own_root; [now left|exact Hva]. }
    assert (Elk : length ks = popcount nm).
    { rewrite <- Ek. apply F2_length in Hks. now rewrite map_length in Hks. }
    cbn [c_delete_deep]. rewrite Ek'. apply cwp_bind. eapply cwp_load_inner; [|exact Elk|].
    { exists c. split; [exact Hc|]. split; [exact Eb'|]. split; [exact Ek'|]. left. now left. }
    intros h1 R1. apply cwp_roots with (R' := ks ++ ptrs vp ++ R).
    { intros x. rewrite !occ_app. lia. }
    apply cwp_bind. change (fun c0 => last <-- dn c0 ;; (if last : bool then c_delete_deep d c0 else Done tt)) with (c_drop d).
    assert (Hc1 : cell_at h1 a c) by (eapply rely_local; [exact R1|now left|exact Hc]).
    eapply cwp_drops; [apply deletes_drops; exact IH|exact Hcs| |].
    { eapply rely_reps; [exact R1| |exact Hks]. intros k Hk'. apply from_root. rewrite !in_app_iff. auto. }
    intros h2 R2. eapply cwp_delete_inner with (vs := vs); [|exact Elk| |exact El|].
    + exists c. split; [eapply rely_local; [exact R2|now left|exact Hc1]|]. split; [exact Eb'|]. split; [exact Ek'|]. left. now left.
    + assert (rely (a :: L) (G ++ ptrs vp ++ R) h h2) by rl. eapply vals_rely; eauto.
    + intros h3 R3. apply HF. rl.
Qed.
Lemma cwp_drop d n a (F : post unit) L R h : shaped d n -> rep h a (enc n) ->
  (forall h', rely L (G ++ R) h h' -> F tt L R h') -> cwp (c_drop d a) F L (a :: R) h.
Proof. apply deletes_drops, deletes_all. Qed.

Lemma cwp_dds : forall d s a (F : post unit) L R h, level d s -> cwp (c_delete_deep d a) F L R h ->
  cwp (c_delete_deep_shift B d a s) F L R h.
Proof.
  induction d as [|d IH]; intros s a F L R h Hl W.
  - apply (level_O B HB) in Hl. subst s. cbn [c_delete_deep_shift c_delete_deep] in *. now rewrite N.eqb_refl.
  - destruct (level_S B HB d s Hl) as (Hl' & Es & _). cbn [c_delete_deep_shift c_delete_deep] in *. rewrite Es.
    apply cwp_bind. apply cwp_unbind in W. eapply cwp_mono; [|exact W]. cbn beta. intros [[[nm dm] vp] cs] L' R' h' W'.
    apply cwp_bind. apply cwp_unbind in W'. revert W'. apply cwp_each. intros x F2 L2 R2 h2 W2.
    apply cwp_bind. apply cwp_unbind in W2. eapply cwp_mono; [|exact W2]. cbn beta. intros [|] L3 R3 h3 W3; [|exact W3].
    now apply IH.
Qed.
Lemma cwp_drop_shift d s n a (F : post unit) L R h : level d s -> shaped d n -> rep h a (enc n) ->
  (forall h', rely L (G ++ R) h h' -> F tt L R h') -> cwp (c_drop_shift B d a s) F L (a :: R) h.
Proof.
  intros Hl Hs Hr HF. pose proof (cwp_drop d n a F L R h Hs Hr HF) as W. unfold c_drop_shift, c_drop in *.
  apply cwp_bind. apply cwp_unbind in W. eapply cwp_mono; [|exact W]. cbn beta. intros [|] L' R' h' W'; [|exact W'].
  now apply cwp_dds.
Qed.

(** ** Copying nodes *)
Section Copies.
Variables (L R : list nat) (h : heap) (a : nat) (nm dm : N) (vs : list T) (cs : list nd)
  (vp : option nat) (ks : list nat) (F : post nat).

Lemma Forall_rem' {A} (P : A -> Prop) o l : Forall P l -> Forall P (firstn o l ++ skipn (S o) l).
Proof.
  intros H. rewrite Forall_forall in *. intros x Hx. apply H. apply in_app_or in Hx as [Hx|Hx].
  - rewrite <- (firstn_skipn o l). apply in_or_app. now left.
  - rewrite <- (firstn_skipn (S o) l). apply in_or_app. now right.
Qed.
Lemma from_more L0 R0 R1 (h0 h1 : heap) l : rely L0 (G ++ R0) h0 h1 -> incl R0 R1 ->
  Forall (from (G ++ R0) h0) l -> Forall (from (G ++ R1) h1) l.
Proof.
  intros H HI. apply Forall_impl. intros x Hx. eapply from_incl; [|eapply rely_from; [exact H|apply incl_refl|exact Hx]].
  apply incl_app; [apply incl_appl, incl_refl|apply incl_appr, HI].
Qed.

Lemma cwp_copy_replace o child c' : inode L (child :: R) h a nm dm vs cs vp ks -> o < length cs -> rep h child (enc c') ->
  (forall r h', rely L (G ++ R) h h' -> rep h' r (enc (copy_inner_replace nm dm vs cs o c')) -> F r L (r :: R) h') ->
  cwp (c_copy_inner_replace a o child) F L (child :: R) h.
Proof.
  intros Hi Ho Hr HF. pose proof (inode_lc _ _ _ _ _ _ _ _ _ _ Hi) as Elc. unfold c_copy_inner_replace.
  apply cwp_bind. eapply cwp_load_inner; [apply (i_vis _ _ _ _ _ _ _ _ _ _ Hi)|apply (i_lk _ _ _ _ _ _ _ _ _ _ Hi)|].
  intros h1 R1. apply (inode_rely _ _ _ _ _ _ _ _ _ _ _ R1) in Hi. destruct Hi as [_ Hv Hks Elk Elv].
  assert (Hr1 : rep h1 child (enc c')) by (eapply rely_rep; [exact R1|apply from_root; rewrite in_app_iff; auto with datatypes|exact Hr]).
  apply cwp_bind. apply cwp_ups.
  { eapply owns_from. apply vals_enc. exact Hv. }
  intros h2 R2. apply cwp_bind. apply cwp_ups.
  { apply Forall_rem'. eapply from_more; [exact R2| |eapply owns_from; exact Hks]. inc. }
  intros h3 R3.
  assert (R13 : rely L (G ++ child :: R) h1 h3) by rl.
  eapply cwp_mkr with (R := R) (ts := encv vs ++ map enc (update_at o c' cs)).
  - intros x. rewrite !occ_app. rewrite (occ_upd B) by lia. cbn [occ]. rewrite !occ_app. lia.
  - apply Forall2_app.
    + eapply owns_incl; [|eapply owns_rely; [exact R13|apply vals_enc; exact Hv]]. inc.
    + rewrite map_upd. apply F2_upd.
      * eapply owns_incl; [|eapply owns_rely; [exact R13|exact Hks]]. inc.
      * eapply own_incl; [|eapply own_rely; [exact R13|apply own_root; [now left|exact Hr1]]]. inc.
  - intros r h4 R4 Hr4. apply HF; [rl|]. unfold copy_inner_replace. rewrite enc_inner, <- (vals_is _ _ _ _ Hv). exact Hr4.
Qed.
Lemma cwp_copy_replace_value o v : inode L R h a nm dm vs cs vp ks -> vs <> [] ->
  (forall r h', rely L (G ++ R) h h' -> rep h' r (enc (copy_inner_replace_value nm dm vs cs o v)) -> F r L (r :: R) h') ->
  cwp (c_copy_inner_replace_value a o v) F L R h.
Proof.
  intros Hi Hn HF. unfold c_copy_inner_replace_value.
  apply cwp_bind. eapply cwp_load_inner; [apply (i_vis _ _ _ _ _ _ _ _ _ _ Hi)|apply (i_lk _ _ _ _ _ _ _ _ _ _ Hi)|].
  intros h1 R1. apply (inode_rely _ _ _ _ _ _ _ _ _ _ _ R1) in Hi.
  apply cwp_bind. eapply cwp_load_vals; [apply (i_v _ _ _ _ _ _ _ _ _ _ Hi)|exact Hn|apply (i_lv _ _ _ _ _ _ _ _ _ _ Hi)|].
  intros h2 R2. apply (inode_rely _ _ _ _ _ _ _ _ _ _ _ R2) in Hi. destruct Hi as [_ Hv Hks Elk Elv].
  eapply cwp_copy_inner; [reflexivity|eapply owns_from; exact Hks|exact Hks|].
  intros r h3 R3 Hr. apply HF; [rl|exact Hr].
Qed.
Lemma cwp_copy_merged bit o child c' : inode L (child :: R) h a nm dm vs cs vp ks -> vs <> [] -> rep h child (enc c') ->
  (forall r h', rely L (G ++ R) h h' -> rep h' r (enc (copy_inner_replace_merged nm dm vs cs bit o c')) -> F r L (r :: R) h') ->
  cwp (c_copy_inner_replace_merged a bit o child) F L (child :: R) h.
Proof.
  intros Hi Hn Hr HF. unfold c_copy_inner_replace_merged.
  apply cwp_bind. eapply cwp_load_inner; [apply (i_vis _ _ _ _ _ _ _ _ _ _ Hi)|apply (i_lk _ _ _ _ _ _ _ _ _ _ Hi)|].
  intros h1 R1. apply (inode_rely _ _ _ _ _ _ _ _ _ _ _ R1) in Hi.
  apply cwp_bind. eapply cwp_load_vals; [apply (i_v _ _ _ _ _ _ _ _ _ _ Hi)|exact Hn|apply (i_lv _ _ _ _ _ _ _ _ _ _ Hi)|].
  intros h2 R2. apply (inode_rely _ _ _ _ _ _ _ _ _ _ _ R2) in Hi. destruct Hi as [_ Hv Hks Elk Elv].
  assert (R02 : rely L (G ++ child :: R) h h2) by rl.
  assert (Hr1 : own (child :: R) h2 child (enc c')) by (eapply own_rely; [exact R02|apply own_root; [now left|exact Hr]]).
  cbn zeta. eapply cwp_copy_inner with (R := R); [|eapply owns_from; exact Hks| |].
  - intros x. pose proof (occ_ins B HB x child ks (count_below nm bit)) as Ex. rewrite !occ_app in *. cbn [occ] in *. lia.
  - apply Forall2_app; [apply F2_firstn; exact Hks|]. constructor; [exact Hr1|]. apply F2_skipn; exact Hks.
  - intros r h3 R3 Hr3. apply HF; [rl|]. unfold copy_inner_replace_merged. cbn zeta. rewrite enc_inner, map_app. cbn [map].
    rewrite <- firstn_map, <- skipn_map. exact Hr3.
Qed.
Lemma cwp_copy_inline bit o v : inode L R h a nm dm vs cs vp ks ->
  (forall r h', rely L (G ++ R) h h' -> rep h' r (enc (copy_inner_replace_inline nm dm vs cs bit o v)) -> F r L (r :: R) h') ->
  cwp (c_copy_inner_replace_inline a bit o v) F L R h.
Proof.
  intros Hi HF. unfold c_copy_inner_replace_inline.
  apply cwp_bind. eapply cwp_load_inner; [apply (i_vis _ _ _ _ _ _ _ _ _ _ Hi)|apply (i_lk _ _ _ _ _ _ _ _ _ _ Hi)|].
  intros h1 R1. apply (inode_rely _ _ _ _ _ _ _ _ _ _ _ R1) in Hi.
  apply cwp_bind. eapply cwp_read_vals; [apply (i_v _ _ _ _ _ _ _ _ _ _ Hi)|apply (i_lv _ _ _ _ _ _ _ _ _ _ Hi)|].
  intros h2 R2. apply (inode_rely _ _ _ _ _ _ _ _ _ _ _ R2) in Hi. destruct Hi as [_ Hv Hks Elk Elv]. cbn zeta.
  eapply cwp_copy_inner; [reflexivity|apply Forall_rem'; eapply owns_from; exact Hks| |].
  - apply F2_rem. exact Hks.
  - intros r h3 R3 Hr3. apply HF; [rl|]. unfold copy_inner_replace_inline. cbn zeta. rewrite enc_inner, map_app.
    rewrite <- firstn_map, <- skipn_map. exact Hr3.
Qed.
Lemma cwp_copy_remove bit o : inode L R h a nm dm vs cs vp ks -> vs <> [] ->
  (forall r h', rely L (G ++ R) h h' -> rep h' r (enc (copy_inner_remove_value nm dm vs cs bit o)) -> F r L (r :: R) h') ->
  cwp (c_copy_inner_remove_value a bit o) F L R h.
Proof.
  intros Hi Hn HF. unfold c_copy_inner_remove_value.
  apply cwp_bind. eapply cwp_load_inner; [apply (i_vis _ _ _ _ _ _ _ _ _ _ Hi)|apply (i_lk _ _ _ _ _ _ _ _ _ _ Hi)|].
  intros h1 R1. apply (inode_rely _ _ _ _ _ _ _ _ _ _ _ R1) in Hi.
  apply cwp_bind. eapply cwp_load_vals; [apply (i_v _ _ _ _ _ _ _ _ _ _ Hi)|exact Hn|apply (i_lv _ _ _ _ _ _ _ _ _ _ Hi)|].
  intros h2 R2. apply (inode_rely _ _ _ _ _ _ _ _ _ _ _ R2) in Hi. destruct Hi as [_ Hv Hks Elk Elv].
  eapply cwp_copy_inner; [reflexivity|eapply owns_from; exact Hks|exact Hks|].
  intros r h3 R3 Hr. apply HF; [rl|exact Hr].
Qed.
Lemma cwp_copy_insert bit v : inode L R h a nm dm vs cs vp ks ->
  (forall r h', rely L (G ++ R) h h' -> rep h' r (enc (copy_inner_insert_value nm dm vs cs bit v)) -> F r L (r :: R) h') ->
  cwp (c_copy_inner_insert_value a bit v) F L R h.
Proof.
  intros Hi HF. unfold c_copy_inner_insert_value.
  apply cwp_bind. eapply cwp_load_inner; [apply (i_vis _ _ _ _ _ _ _ _ _ _ Hi)|apply (i_lk _ _ _ _ _ _ _ _ _ _ Hi)|].
  intros h1 R1. apply (inode_rely _ _ _ _ _ _ _ _ _ _ _ R1) in Hi.
  apply cwp_bind. eapply cwp_read_vals; [apply (i_v _ _ _ _ _ _ _ _ _ _ Hi)|apply (i_lv _ _ _ _ _ _ _ _ _ _ Hi)|].
  intros h2 R2. apply (inode_rely _ _ _ _ _ _ _ _ _ _ _ R2) in Hi. destruct Hi as [_ Hv Hks Elk Elv]. cbn zeta.
  eapply cwp_copy_inner; [reflexivity|eapply owns_from; exact Hks|exact Hks|].
  intros r h3 R3 Hr. apply HF; [rl|exact Hr].
Qed.
(** Collision nodes. *)
Lemma cwp_coll_replace pos v us : vis L R h a (BColl vs) us ->
  (forall r h', rely L (G ++ R) h h' -> rep h' r (enc (copy_collision_replace vs pos v)) -> F r L (r :: R) h') ->
  cwp (c_copy_collision_replace a pos v) F L R h.
Proof.
  intros Hv HF. unfold c_copy_collision_replace. apply cwp_bind. eapply cwp_load_coll; [exact Hv|]. intros h1 R1.
  eapply cwp_mkr with (ts := []); [reflexivity|constructor|]. intros r h2 R2 Hr. apply HF; [rl|exact Hr].
Qed.
Lemma cwp_coll_insert v us : vis L R h a (BColl vs) us ->
  (forall r h', rely L (G ++ R) h h' -> rep h' r (enc (copy_collision_insert vs v)) -> F r L (r :: R) h') ->
  cwp (c_copy_collision_insert a v) F L R h.
Proof.
  intros Hv HF. unfold c_copy_collision_insert. apply cwp_bind. eapply cwp_load_coll; [exact Hv|]. intros h1 R1.
  eapply cwp_mkr with (ts := []); [reflexivity|constructor|]. intros r h2 R2 Hr. apply HF; [rl|exact Hr].
Qed.
Lemma cwp_coll_remove pos us : vis L R h a (BColl vs) us ->
  (forall r h', rely L (G ++ R) h h' -> rep h' r (enc (copy_collision_remove vs pos)) -> F r L (r :: R) h') ->
  cwp (c_copy_collision_remove a pos) F L R h.
Proof.
  intros Hv HF. unfold c_copy_collision_remove. apply cwp_bind. eapply cwp_load_coll; [exact Hv|]. intros h1 R1.
  eapply cwp_mkr with (ts := []); [reflexivity|constructor|]. intros r h2 R2 Hr. apply HF; [rl|exact Hr].
Qed.
End Copies.

Lemma cwp_merged : forall d s v1 h1 v2 h2 n (F : post nat) L R h,
  level d s -> (h1 < 2 ^ 64)%N -> (h2 < 2 ^ 64)%N -> make_merged B d s v1 h1 v2 h2 = Ok n ->
  (forall r h', rely L (G ++ R) h h' -> rep h' r (enc n) -> F r L (r :: R) h') ->
  cwp (c_make_merged B d s v1 h1 v2 h2) F L R h.
Proof.
  induction d as [|d IH]; intros s v1 h1 v2 h2 n F L R h Hl H1 H2 Em HF.
  - apply (level_O B HB) in Hl. subst s. cbn [make_merged c_make_merged] in *. rewrite N.ltb_irrefl in *.
    assert (n = Coll [v1; v2]) as -> by (unfold make_collision in Em; congruence).
    eapply cwp_mkr with (ts := []); [reflexivity|constructor|]. exact HF.
  - destruct (level_S B HB d s Hl) as (Hl' & _ & Es). cbn [make_merged c_make_merged] in *. rewrite Es in *. cbn zeta in *.
    destruct (N.eqb_spec (hash_part B h1 s) (hash_part B h2 s)) as [Ep|Ep].
    + destruct (make_merged B d (s + B) v1 h1 v2 h2) as [m|] eqn:Emm; [|discriminate]. cbn [rbind] in Em.
      apply cwp_bind. eapply IH; [exact Hl'|exact H1|exact H2|exact Emm|]. intros r h' R1 Hr.
      eapply cwp_mkr with (ts := [enc m]); [reflexivity|constructor; [apply own_root; [now left|exact Hr]|constructor]|].
      intros r2 h2' R2 Hr2. apply HF; [rl|].
      assert (n = make_inner_child (N.shiftr (hash_part B h1 s) s) m) as -> by congruence. exact Hr2.
    + eapply cwp_build with (ts := []); [reflexivity|constructor|]. intros r h' R1 Hr. apply HF; [exact R1|].
      unfold make_inner_two in Em. match type of Em with Ok ?x = _ => assert (n = x) as -> by congruence end. exact Hr.
Qed.

Ltac inj E :=
  cbn [rbind] in E;
  match type of E with
  | Ok ?x = Ok ?u => first [assert (u = x) as -> by congruence | assert (x = u) as <- by congruence]; clear E
  end.

Lemma shaped_kid d nm dm (vs : list T) (cs : list nd) o n1 : shaped (S d) (Inner nm dm vs cs) -> rnth cs o = Ok n1 -> shaped d n1.
Proof.
  intros (_ & _ & _ & Hf) Ec. rewrite Forall_forall in Hf. apply Hf. apply rnth_nth in Ec. eapply nth_error_In; exact Ec.
Qed.

Section Upd.
Variable k : K.
Variable found : T -> T.
Variable absent : option T.
Notation upd := (upd B key khash keq k found absent).
Notation c_do_upd := (c_do_upd B key khash keq k found absent).

Lemma cwp_do_upd : forall d n a hk s r (F : post (option (nat * bool))) L R h, level d s -> (hk < 2 ^ 64)%N -> shaped d n ->
  own R h a (enc n) -> upd d n hk s = Ok r ->
  (match r with
   | None => forall h', rely L (G ++ R) h h' -> F None L R h'
   | Some (n', b) => forall r h', rely L (G ++ R) h h' -> rep h' r (enc n') -> F (Some (r, b)) L (r :: R) h'
   end) -> cwp (c_do_upd d a hk s) F L R h.
Proof.
  induction d as [|d IH]; intros n a hk s r F L R h Hl Hh Hsh Ho Eu HF.
  - apply (level_O B HB) in Hl. subst s. destruct n as [|vs]; [easy|].
    cbn [ChampShape.upd ChampConc.c_do_upd] in *. rewrite N.eqb_refl in *.
    apply cwp_bind. eapply cwp_load_coll; [apply own_coll; exact Ho|]. intros h1 R1.
    apply (own_rely _ _ _ _ _ _ _ R1) in Ho. apply (own_coll L) in Ho.
    destruct (find_index (fun w => teqk key keq w k) vs) as [pos|].
    + destruct (rnth vs pos) as [w|] eqn:Ew; [|discriminate]. inj Eu.
      apply cwp_bind. eapply cwp_lift; [reflexivity|]. apply cwp_bind.
      eapply cwp_coll_replace; [exact Ho|]. intros r h2 R2 Hr. apply cwp_done, HF; [rl|exact Hr].
    + destruct absent as [v|].
      * inj Eu. apply cwp_bind. eapply cwp_coll_insert; [exact Ho|]. intros r h2 R2 Hr. apply cwp_done, HF; [rl|exact Hr].
      * inj Eu. apply cwp_done, HF. rl.
  - destruct (level_S B HB d s Hl) as (Hl' & Es & _). destruct n as [nm dm vs cs|]; [|easy].
    destruct (own_inode d L R h a nm dm vs cs Hsh Ho) as (vp & ks & Hi).
    cbn [ChampShape.upd ChampConc.c_do_upd] in *. rewrite Es in *. cbn zeta in *.
    apply cwp_bind. eapply cwp_load_inner; [apply (i_vis _ _ _ _ _ _ _ _ _ _ Hi)|apply (i_lk _ _ _ _ _ _ _ _ _ _ Hi)|].
    intros h1 R1. apply (inode_rely _ _ _ _ _ _ _ _ _ _ _ R1) in Hi. apply (own_rely _ _ _ _ _ _ _ R1) in Ho.
    set (bit := N.shiftl 1 (hash_idx B hk s)) in *.
    destruct (has nm bit) eqn:En.
    + destruct (rnth cs (count_below nm bit)) as [n1|] eqn:Ec; [|discriminate]. cbn [rbind] in Eu.
      destruct (inode_kid _ _ _ _ _ _ _ _ _ _ _ _ Hi Ec) as (x & Ex & Hx).
      apply cwp_bind. eapply cwp_lift; [exact Ex|]. apply cwp_bind.
      pose proof (shaped_kid _ _ _ _ _ _ _ Hsh Ec) as Hs1.
      destruct (upd d n1 hk (s + B)) as [r1|] eqn:E1; [|discriminate]. cbn [rbind] in Eu.
      eapply IH; [exact Hl'|exact Hh|exact Hs1|exact Hx|exact E1|].
      destruct r1 as [[n1' b]|].
      * inj Eu. intros x' h2 R2 Hx'. apply cwp_bind.
        eapply cwp_copy_replace; [|apply rnth_lt in Ec; exact Ec|exact Hx'|].
        { eapply inode_incl; [apply incl_refl| |eapply inode_rely; [exact R2|exact Hi]]. inc. }
        intros r h3 R3 Hr. apply cwp_done, HF; [rl|exact Hr].
      * inj Eu. intros h2 R2. apply cwp_done, HF. rl.
    + destruct (has dm bit) eqn:Ed.
      * destruct (rnth vs (count_below dm bit)) as [w|] eqn:Ew; [|discriminate]. cbn [rbind] in Eu.
        assert (Hn : vs <> []) by (intros ->; apply rnth_lt in Ew; cbn in Ew; lia).
        apply cwp_bind. eapply cwp_load_vals; [apply (i_v _ _ _ _ _ _ _ _ _ _ Hi)|exact Hn|apply (i_lv _ _ _ _ _ _ _ _ _ _ Hi)|].
        intros h2 R2. apply (inode_rely _ _ _ _ _ _ _ _ _ _ _ R2) in Hi.
        apply cwp_bind. eapply cwp_lift; [exact Ew|]. destruct (teqk key keq w k).
        { inj Eu. apply cwp_bind. eapply cwp_copy_replace_value; [exact Hi|exact Hn|].
          intros r h3 R3 Hr. apply cwp_done, HF; [rl|exact Hr]. }
        destruct absent as [v|]; [|inj Eu; apply cwp_done, HF; rl].
        destruct (make_merged B d (s + B) v hk w (thash key khash w)) as [m|] eqn:Em; [|discriminate]. inj Eu.
        assert (Hw : (thash key khash w < 2 ^ 64)%N) by apply Hhash. apply cwp_bind.
        eapply cwp_merged; [exact Hl'|exact Hh|exact Hw|exact Em|]. intros x h3 R3 Hx. apply cwp_bind.
        eapply cwp_copy_merged; [|exact Hn|exact Hx|].
        { eapply inode_incl; [apply incl_refl| |eapply inode_rely; [exact R3|exact Hi]]. inc. }
        intros r h4 R4 Hr. apply cwp_done, HF; [rl|exact Hr].
      * destruct absent as [v|]; [|inj Eu; apply cwp_done, HF; rl]. inj Eu. apply cwp_bind.
        eapply cwp_copy_insert; [exact Hi|]. intros r h2 R2 Hr. apply cwp_done, HF; [rl|exact Hr].
Qed.
End Upd.

(** ** Erasure *)
Definition at_val (R : list nat) (h : heap) (p i : nat) (v : T) : Prop :=
  exists b vs, own R h p (RT b []) /\ (b = BVals vs \/ b = BColl vs) /\ rnth vs i = Ok v.
Lemma at_val_rely L R h h' p i v : rely L (G ++ R) h h' -> at_val R h p i v -> at_val R h' p i v.
Proof. intros H (b & vs & Ho & Hb & E). exists b, vs. split; [eapply own_rely; eauto|auto]. Qed.
Lemma cwp_deref p i v (F : post T) L R h : at_val R h p i v ->
  (forall h', rely L (G ++ R) h h' -> F v L R h') -> cwp (c_deref p i) F L R h.
Proof.
  intros (b & vs & Ho & Hb & E) HF. unfold c_deref. apply cwp_bind. eapply cwp_see; [apply own_leaf; exact Ho|].
  intros c h1 R1 Eb _. rewrite Eb. destruct Hb as [-> | ->]; (eapply cwp_lift; [exact E|auto]).
Qed.
Notation do_sub := (do_sub B key keq).
Notation c_do_sub := (c_do_sub B key keq e0).
Hypothesis He0 : In e0 G.

Lemma cwp_do_sub k : forall d n a hk s r (F : post sub_res) L R h, level d s -> shaped d n ->
  own R h a (enc n) -> rep h e0 (enc (@empty_node T)) -> do_sub d n k hk s = Ok r ->
  (match r with
   | SubNothing => forall h', rely L (G ++ R) h h' -> F RNothing L R h'
   | SubSingleton v => forall p i h', rely L (G ++ R) h h' -> at_val R h' p i v -> F (RSing p i) L R h'
   | SubTree n' => forall r h', rely L (G ++ R) h h' -> rep h' r (enc n') -> F (RTree r) L (r :: R) h'
   end) -> cwp (c_do_sub d a k hk s) F L R h.
Proof.
  induction d as [|d IH]; intros n a hk s r F L R h Hl Hsh Ho He Eu HF.
  - apply (level_O B HB) in Hl. subst s. destruct n as [|vs]; [easy|].
    cbn [Champ.do_sub ChampConc.c_do_sub] in *. rewrite N.eqb_refl in *.
    apply cwp_bind. eapply cwp_load_coll; [apply own_coll; exact Ho|]. intros h1 R1.
    apply (own_rely _ _ _ _ _ _ _ R1) in Ho.
    destruct (find_index (fun w => teqk key keq w k) vs) as [pos|]; [|inj Eu; apply cwp_done, HF; rl].
    destruct (2 <? length vs).
    + inj Eu. apply cwp_bind. eapply cwp_coll_remove; [apply own_coll; exact Ho|].
      intros r h2 R2 Hr. apply cwp_done, HF; [rl|exact Hr].
    + destruct (rnth vs (other pos)) as [w|] eqn:Ew; [|discriminate]. inj Eu. apply cwp_done, HF; [rl|].
      exists (BColl vs), vs. auto.
  - destruct (level_S B HB d s Hl) as (Hl' & Es & _). destruct n as [nm dm vs cs|]; [|easy].
    destruct (own_inode d L R h a nm dm vs cs Hsh Ho) as (vp & ks & Hi).
    cbn [Champ.do_sub ChampConc.c_do_sub] in *. rewrite Es in *. cbn zeta in *.
    apply cwp_bind. eapply cwp_load_inner; [apply (i_vis _ _ _ _ _ _ _ _ _ _ Hi)|apply (i_lk _ _ _ _ _ _ _ _ _ _ Hi)|].
    intros h1 R1. apply (inode_rely _ _ _ _ _ _ _ _ _ _ _ R1) in Hi. apply (own_rely _ _ _ _ _ _ _ R1) in Ho.
    assert (Hei : forall h', rely L (G ++ R) h h' -> rep h' e0 (enc (@empty_node T))).
    { intros h' Rl. eapply rely_rep; [exact Rl|apply from_root, in_or_app; now left|exact He]. }
    set (bit := N.shiftl 1 (hash_idx B hk s)) in *.
    destruct (has nm bit) eqn:En.
    + destruct (rnth cs (count_below nm bit)) as [n1|] eqn:Ec; [|discriminate]. cbn [rbind] in Eu.
      destruct (inode_kid _ _ _ _ _ _ _ _ _ _ _ _ Hi Ec) as (x & Ex & Hx).
      apply cwp_bind. eapply cwp_lift; [exact Ex|]. apply cwp_bind.
      pose proof (shaped_kid _ _ _ _ _ _ _ Hsh Ec) as Hs1.
      destruct (do_sub d n1 k hk (s + B)) as [r1|] eqn:E1; [|discriminate]. cbn [rbind] in Eu.
      eapply IH; [exact Hl'|exact Hs1|exact Hx|apply Hei; rl|exact E1|].
      destruct r1 as [|v|n1'].
      * inj Eu. intros h2 R2. apply cwp_done, HF. rl.
      * intros p i h2 R2 Hv. destruct ((dm =? 0)%N && (popcount nm =? 1) && (0 <? s)%N).
        { inj Eu. apply cwp_done, HF; [rl|exact Hv]. }
        inj Eu. apply cwp_bind. eapply cwp_deref; [exact Hv|]. intros h3 R3.
        assert (R13 : rely L (G ++ R) h1 h3) by rl.
        apply cwp_bind. eapply cwp_copy_inline; [eapply inode_rely; [exact R13|exact Hi]|].
        intros r h4 R4 Hr. apply cwp_done, HF; [rl|exact Hr].
      * inj Eu. intros x' h2 R2 Hx'. apply cwp_bind.
        eapply cwp_copy_replace; [|apply rnth_lt in Ec; exact Ec|exact Hx'|].
        { eapply inode_incl; [apply incl_refl| |eapply inode_rely; [exact R2|exact Hi]]. inc. }
        intros r h3 R3 Hr. apply cwp_done, HF; [rl|exact Hr].
    + destruct (has dm bit) eqn:Ed; [|inj Eu; apply cwp_done, HF; rl].
      destruct (rnth vs (count_below dm bit)) as [w|] eqn:Ew; [|discriminate]. cbn [rbind] in Eu.
      assert (Hn : vs <> []) by (intros ->; apply rnth_lt in Ew; cbn in Ew; lia).
      apply cwp_bind. eapply cwp_load_vals; [apply (i_v _ _ _ _ _ _ _ _ _ _ Hi)|exact Hn|apply (i_lv _ _ _ _ _ _ _ _ _ _ Hi)|].
      intros h2 R2. apply (inode_rely _ _ _ _ _ _ _ _ _ _ _ R2) in Hi.
      apply cwp_bind. eapply cwp_lift; [exact Ew|].
      destruct (teqk key keq w k); [|inj Eu; apply cwp_done, HF; rl].
      destruct (negb (nm =? 0)%N || (2 <? popcount dm)).
      * inj Eu. apply cwp_bind. eapply cwp_copy_remove; [exact Hi|exact Hn|].
        intros r h3 R3 Hr. apply cwp_done, HF; [rl|exact Hr].
      * destruct (popcount dm =? 2).
        { destruct (rnth vs (other (count_below dm bit))) as [y|] eqn:Ey; [|discriminate]. cbn [rbind] in Eu.
          destruct (0 <? s)%N.
          - inj Eu. pose proof (i_v _ _ _ _ _ _ _ _ _ _ Hi) as Hv. destruct vp as [va|]; [|easy].
            apply cwp_done, HF; [rl|]. exists (BVals vs), vs. destruct Hv as [_ Hv]. auto.
          - inj Eu. apply cwp_bind. eapply cwp_lift; [reflexivity|]. apply cwp_bind.
            eapply cwp_build with (ts := []); [reflexivity|constructor|].
            intros r h3 R3 Hr. apply cwp_done, HF; [rl|exact Hr]. }
        destruct (s =? 0)%N; [|discriminate]. inj Eu. apply cwp_bind. apply cwp_up.
        { apply from_root, in_or_app. now left. }
        intros h3 R3. apply cwp_done, HF; [rl|]. apply Hei. rl.
Qed.

(** ** In place *)
Lemma cell_same (h : heap) a c c' : cell_at h a c -> cell_at h a c' -> c = c'.
Proof. unfold cell_at. congruence. Qed.
Definition icell nm dm (vp : option nat) ks : cell (cbody T) := mkCell 1 (BInner nm dm (is_some vp)) (ptrs vp ++ ks).

Lemma cwp_uq_inner a nm dm vs cs vp ks (F : post bool) L R h : inode L (a :: R) h a nm dm vs cs vp ks ->
  (forall h', rely L (G ++ a :: R) h h' -> F false L (a :: R) h') ->
  (forall h', rely L (G ++ a :: R) h h' -> cell_at h' a (icell nm dm vp ks) ->
     inode (a :: L) ((ptrs vp ++ ks) ++ R) h' a nm dm vs cs vp ks -> F true (a :: L) ((ptrs vp ++ ks) ++ R) h') ->
  cwp (uq a) F L (a :: R) h.
Proof.
  intros [(c & Hc & Eb & Ek & _) Hv Hks Elk Elv] H1 H2. apply cwp_uq with (R' := R); [reflexivity|exact H1|].
  intros c' h' Hc' E1 R1. rewrite (cell_same _ _ _ _ Hc' Hc) in *. clear c' Hc'. rewrite Ek in *. apply H2.
  - eapply rely_open; [exact Hc|]. rewrite Ek. exact R1.
  - eapply rely_local; [exact R1|now left|]. destruct c; cbn in *. subst. exact Hc.
  - eapply inode_rely; [exact R1|]. constructor; auto.
    + exists c. split; [exact Hc|]. split; [exact Eb|]. split; [exact Ek|]. left. now left.
    + destruct vp as [va|]; [|exact Hv]. destruct Hv as [Hv [_ Hr]]. split; [exact Hv|]. apply own_root; [now left|exact Hr].
    + apply owns_root; [|eapply owns_rep; exact Hks]. inc.
Qed.
(** The node given back. *)
Lemma inode_rep h a nm dm vs cs vp ks : cell_at h a (icell nm dm vp ks) -> is_some vp = some_v vs ->
  Forall2 (rep h) (ptrs vp) (encv vs) -> Forall2 (rep h) ks (map enc cs) -> rep h a (enc (Inner nm dm vs cs)).
Proof.
  intros Hc Ev Hv Hks. rewrite enc_inner, <- Ev. apply (rep_intro h a (icell nm dm vp ks)); [exact Hc|]. cbn.
  apply Forall2_app; assumption.
Qed.
Lemma vals_reps R h vp vs : vals R h vp vs -> Forall2 (rep h) (ptrs vp) (encv vs).
Proof. intros H. eapply owns_rep, vals_enc, H. Qed.

Lemma cwp_move_inner a nm0 dm0 vs vp k left nm dm vs' ks ks' ts (F : post nat) L Rk R h :
  vis (a :: L) (ptrs vp ++ Rk) h a (BInner nm0 dm0 (is_some vp)) (ptrs vp ++ ks) -> length ks = popcount nm0 ->
  vals (ptrs vp ++ Rk) h vp vs -> length vs = popcount dm0 -> length left = length vs -> (0 < k -> vs <> []) ->
  (forall x, occ x Rk = occ x (ks' ++ R)) -> Forall2 (rep h) ks' ts ->
  (forall r h', rely L (G ++ R) h h' -> rep h' r (RT (BInner nm dm (some_v vs')) (encv vs' ++ ts)) -> F r L (r :: R) h') ->
  cwp (c_move_inner a vp k left nm dm vs' ks') F (a :: L) (ptrs vp ++ Rk) h.
Proof.
  intros Hvis Elk Hv Elv Ell Hk HR Hts HF. unfold c_move_inner.
  assert (HI : incl (ks' ++ R) Rk) by (apply occ_incl; intros x; now rewrite HR).
  assert (Fin : forall vs1 h1, rely (a :: L) (G ++ Rk) h h1 -> vals (ptrs vp ++ Rk) h1 vp vs1 -> length vs1 = popcount dm0 ->
    vis (a :: L) (ptrs vp ++ Rk) h1 a (BInner nm0 dm0 (is_some vp)) (ptrs vp ++ ks) ->
    cwp (r <-- c_build_inner nm dm vs' ks' ;; _ <-- c_delete_inner a ;; Done r) F (a :: L) (ptrs vp ++ Rk) h1).
  { intros vs1 h1 R1 Hv1 El1 Hi1. apply cwp_bind.
    eapply cwp_build with (R := ptrs vp ++ R) (ts := ts).
    - intros x. specialize (HR x). rewrite !occ_app in *. lia.
    - apply owns_root.
      + intros x Hx. apply in_or_app. right. apply HI, in_or_app. now left.
      + eapply rely_reps; [exact R1| |exact Hts]. intros x Hx. apply from_root, in_or_app. right. apply HI, in_or_app. now left.
    - intros r h2 R2 Hr. apply cwp_roots with (R' := ptrs vp ++ r :: R).
      { intros x. cbn [occ]. rewrite !occ_app. cbn [occ]. lia. }
      assert (R3 : rely (a :: L) (G ++ ptrs vp ++ R) h1 h2).
      { eapply rely_incl; [apply incl_refl| |exact R2]. apply incl_app; [inc|]. apply incl_appr. apply incl_app; [inc|].
        intros x Hx. apply in_or_app. right. apply HI, in_or_app. now right. }
      apply cwp_bind. eapply cwp_delete_inner with (vs := vs1); [|exact Elk| |exact El1|].
      + apply (vis_rely _ _ _ _ _ _ _ _ R2) in Hi1. destruct Hi1 as (c & Hc & Eb & Ek & _). exists c.
        split; [exact Hc|]. split; [exact Eb|]. split; [exact Ek|]. left. now left.
      + apply (vals_rely _ _ _ _ _ _ R2) in Hv1. destruct vp as [va|]; [|exact Hv1]. destruct Hv1 as [Hn [_ Hr1]].
        split; [exact Hn|]. apply own_root; [now left|exact Hr1].
      + intros h3 R4. apply cwp_done, HF.
        * apply rely_trans with h1; [|rl]. eapply rely_incl; [| |exact R1]; [inc|]. apply incl_app; [inc|].
          apply incl_appr. intros x Hx. apply HI, in_or_app. now right.
        * eapply rely_rep; [exact R4| |exact Hr]. apply from_root, in_elt. }
  apply cwp_bind. destruct (0 <? k) eqn:E; [|apply cwp_done; eapply Fin; [apply rely_refl|exact Hv|exact Elv|exact Hvis]].
  apply Nat.ltb_lt in E. destruct vp as [va|]; [|cbn in Hv; now specialize (Hk E)]. destruct Hv as [Hn Hva].
  apply cwp_bind. cbn [ptrs app] in *. apply cwp_uq with (R' := Rk); [reflexivity| |].
  - intros h1 R1. apply cwp_done. eapply Fin; [rl| |exact Elv|eapply vis_rely; [exact R1|exact Hvis]].
    split; [exact Hn|]. eapply own_rely; [exact R1|exact Hva].
  - intros c h1 Hc E1 R1. destruct (own_leaf _ (a :: L) _ _ _ _ Hva) as (c' & Hc' & Eb & Ek & _).
    rewrite (cell_same _ _ _ _ Hc' Hc) in *. clear c' Hc'. rewrite Ek in *. cbn [app] in *.
    assert (Hc1 : cell_at h1 va c) by (eapply rely_local; [exact R1|now left|exact Hc]).
    apply cwp_wr with (L' := a :: L); [reflexivity|]. intros c2 h2 Hc2 R2 Hc3.
    rewrite (cell_same _ _ _ _ Hc2 Hc1) in *. rewrite E1 in Hc3.
    eapply cwp_put with (a := va) (L' := a :: L) (R' := Rk); [reflexivity|exact Hc3|reflexivity|reflexivity|].
    eapply (Fin left); [rl| |congruence|].
    + split; [destruct left; [destruct vs; [easy|discriminate]|discriminate]|]. apply own_root; [now left|].
      apply (rep_intro h2 va _ []) in Hc3; [exact Hc3|constructor].
    + destruct Hvis as (c' & Hc' & Eb' & Ek' & _). exists c'.
      split; [|split; [exact Eb'|split; [exact Ek'|left; now left]]].
      eapply rely_local; [exact R2|now left|]. eapply rely_local; [exact R1|right; now left|exact Hc'].
Qed.

Section Moves.
Variables (L R : list nat) (h : heap) (a : nat) (nm dm : N) (vs : list T) (cs : list nd)
  (vp : option nat) (ks : list nat) (F : post nat).

Lemma cwp_move_merged bit o child c' : inode (a :: L) (ptrs vp ++ ks ++ child :: R) h a nm dm vs cs vp ks -> vs <> [] ->
  rep h child (enc c') ->
  (forall r h', rely L (G ++ R) h h' -> rep h' r (enc (copy_inner_replace_merged nm dm vs cs bit o c')) -> F r L (r :: R) h') ->
  cwp (c_move_inner_replace_merged gone a bit o child) F (a :: L) (ptrs vp ++ ks ++ child :: R) h.
Proof.
  intros Hi Hn Hr HF. unfold c_move_inner_replace_merged.
  apply cwp_bind. eapply cwp_load_inner; [apply (i_vis _ _ _ _ _ _ _ _ _ _ Hi)|apply (i_lk _ _ _ _ _ _ _ _ _ _ Hi)|].
  intros h1 R1. apply (inode_rely _ _ _ _ _ _ _ _ _ _ _ R1) in Hi.
  apply cwp_bind. eapply cwp_load_vals; [apply (i_v _ _ _ _ _ _ _ _ _ _ Hi)|exact Hn|apply (i_lv _ _ _ _ _ _ _ _ _ _ Hi)|].
  intros h2 R2. apply (inode_rely _ _ _ _ _ _ _ _ _ _ _ R2) in Hi. destruct Hi as [Hvis Hv Hks Elk Elv].
  assert (R02 : rely (a :: L) (G ++ ptrs vp ++ ks ++ child :: R) h h2) by rl.
  cbn zeta. eapply cwp_move_inner with (R := R) (vs := vs) (ks := ks);
    [exact Hvis|exact Elk|exact Hv|exact Elv|apply map_length|intros _; exact Hn| | |].
  - intros x. pose proof (occ_ins B HB x child ks (count_below nm bit)) as Ex. rewrite !occ_app in *. cbn [occ] in *.
    rewrite ?occ_app in *. lia.
  - apply Forall2_app; [apply F2_firstn; eapply owns_rep; exact Hks|]. constructor; [|apply F2_skipn; eapply owns_rep; exact Hks].
    eapply rely_rep; [exact R02| |exact Hr]. apply from_root. rewrite !in_app_iff. cbn [In]. auto.
  - intros r h3 R3 Hr3. apply HF; [rl|]. unfold copy_inner_replace_merged. cbn zeta. rewrite enc_inner, map_app. cbn [map].
    rewrite <- firstn_map, <- skipn_map. exact Hr3.
Qed.
Lemma cwp_move_insert bit v : inode (a :: L) (ptrs vp ++ ks ++ R) h a nm dm vs cs vp ks ->
  (forall r h', rely L (G ++ R) h h' -> rep h' r (enc (copy_inner_insert_value nm dm vs cs bit v)) -> F r L (r :: R) h') ->
  cwp (c_move_inner_insert_value gone a bit v) F (a :: L) (ptrs vp ++ ks ++ R) h.
Proof.
  intros Hi HF. unfold c_move_inner_insert_value.
  apply cwp_bind. eapply cwp_load_inner; [apply (i_vis _ _ _ _ _ _ _ _ _ _ Hi)|apply (i_lk _ _ _ _ _ _ _ _ _ _ Hi)|].
  intros h1 R1. apply (inode_rely _ _ _ _ _ _ _ _ _ _ _ R1) in Hi.
  apply cwp_bind. eapply cwp_read_vals; [apply (i_v _ _ _ _ _ _ _ _ _ _ Hi)|apply (i_lv _ _ _ _ _ _ _ _ _ _ Hi)|].
  intros h2 R2. apply (inode_rely _ _ _ _ _ _ _ _ _ _ _ R2) in Hi. destruct Hi as [Hvis Hv Hks Elk Elv]. cbn zeta.
  eapply cwp_move_inner with (R := R) (vs := vs) (ks := ks);
    [exact Hvis|exact Elk|exact Hv|exact Elv|apply map_length| |reflexivity|eapply owns_rep; exact Hks|].
  - intros Hl ->. cbn in Hl. lia.
  - intros r h3 R3 Hr3. apply HF; [rl|exact Hr3].
Qed.
Lemma cwp_move_coll_insert v us : vis (a :: L) R h a (BColl vs) us ->
  (forall r h', rely L (G ++ R) h h' -> rep h' r (enc (copy_collision_insert vs v)) -> F r L (r :: R) h') ->
  cwp (c_move_collision_insert gone a v) F (a :: L) R h.
Proof.
  intros Hv HF. unfold c_move_collision_insert. apply cwp_bind. eapply cwp_load_coll; [exact Hv|]. intros h1 R1.
  apply cwp_bind. apply cwp_wr with (L' := L); [reflexivity|]. intros c h2 _ R2 Hc2.
  apply cwp_bind. eapply cwp_mkr with (ts := []) (R := R); [reflexivity|constructor|]. intros r h3 R3 Hr.
  apply cwp_bind. eapply cwp_delete_coll with (vs := map gone vs) (ks := []).
  { eexists. split; [eapply rely_local; [exact R3|now left|exact Hc2]|]. cbn. auto. }
  intros h4 R4. apply cwp_done, HF; [rl|]. eapply rely_rep; [exact R4|apply from_root, in_elt|exact Hr].
Qed.
End Moves.

Lemma cwp_ensure a nm dm vs cs va ks (F : post nat) L R h : cell_at h a (icell nm dm (Some va) ks) ->
  inode (a :: L) (va :: ks ++ R) h a nm dm vs cs (Some va) ks ->
  (forall va' h', rely L (G ++ ks ++ R) h h' -> cell_at h' va' (mkCell 1 (BVals vs) []) ->
     cell_at h' a (icell nm dm (Some va') ks) -> F va' (va' :: a :: L) (ks ++ R) h') ->
  cwp (c_ensure_mutable_values a) F (a :: L) (va :: ks ++ R) h.
Proof.
  intros Hc Hi HF. unfold c_ensure_mutable_values.
  apply cwp_bind. eapply cwp_load_inner; [apply (i_vis _ _ _ _ _ _ _ _ _ _ Hi)|apply (i_lk _ _ _ _ _ _ _ _ _ _ Hi)|].
  intros h1 R1. apply (inode_rely _ _ _ _ _ _ _ _ _ _ _ R1) in Hi. destruct Hi as [Hvis [Hn Hva] Hks Elk Elv].
  apply (rely_local _ _ _ _ _ _ R1 (in_eq _ _)) in Hc.
  apply cwp_bind. apply cwp_uq with (R' := ks ++ R); [reflexivity| |].
  - intros h2 R2. apply cwp_bind.
    eapply cwp_load_vals with (vs := vs); [split; [exact Hn|eapply own_rely; [exact R2|exact Hva]]|exact Hn|exact Elv|].
    intros h3 R3. apply cwp_bind. apply cwp_mkl. intros nxt h4 R4 Hc4. apply cwp_bind.
    apply cwp_wr with (L' := nxt :: L); [constructor|]. intros c h5 Hc5 R5 Hc6.
    assert (cell_at h4 a (icell nm dm (Some va) ks)) as Hc'.
    { eapply rely_local; [exact R4|now left|]. eapply rely_local; [exact R3|now left|]. eapply rely_local; [exact R2|now left|exact Hc]. }
    rewrite (cell_same _ _ _ _ Hc5 Hc') in *. cbn [c_rc icell] in Hc6.
    apply (rely_local _ _ _ _ _ _ R5 (in_eq _ _)) in Hc4.
    assert (Rep : rep h5 va (RT (BVals vs) [])).
    { destruct Hva as [_ Hva]. eapply rely_rep; [exact R5|apply from_root, in_elt|]. eapply rely_rep; [exact R4|apply from_root, in_elt|].
      eapply rely_rep; [exact R3|apply from_root, in_elt|]. eapply rely_rep; [exact R2|apply from_root, in_elt|exact Hva]. }
    assert (W : cwp (last <-- dn va ;; (if last : bool then c_delete_values (popcount dm) va else Done tt))
      (fun _ L R h => cwp (Done nxt) F L R h) (nxt :: a :: L) (va :: ks ++ R) h5).
    { eapply cwp_drop_vals; [exact Rep|exact Elv|]. intros h6 R6. apply cwp_done, HF; [rl| |].
      - eapply rely_local; [exact R6|now left|exact Hc4].
      - eapply rely_local; [exact R6|right; now left|exact Hc6]. }
    apply cwp_bind. apply cwp_unbind in W. eapply cwp_mono; [|exact W]. intros b L' R' h' W'. apply cwp_bind. exact W'.
  - intros c h2 Hc2 E1 R2. destruct (own_leaf _ (a :: L) _ _ _ _ Hva) as (c' & Hc' & Eb & Ek & _).
    rewrite (cell_same _ _ _ _ Hc' Hc2) in *. clear c' Hc'. rewrite Ek in *. cbn [app] in *. apply cwp_done, HF; [rl| |].
    + eapply rely_local; [exact R2|now left|]. destruct c; cbn in *. subst. exact Hc2.
    + eapply rely_local; [exact R2|right; now left|exact Hc].
Qed.
Lemma cwp_store_child a nm dm vp ks o x (F : post unit) L R h : cell_at h a (icell nm dm vp ks) -> length ks = popcount nm ->
  (forall h', rely L (G ++ R) h h' -> cell_at h' a (icell nm dm vp (update_at o x ks)) -> F tt (a :: L) R h') ->
  cwp (c_store_child a o x) F (a :: L) R h.
Proof.
  intros Hc Elk HF. unfold c_store_child. apply cwp_bind. eapply cwp_load_inner; [|exact Elk|].
  { exists (icell nm dm vp ks). split; [exact Hc|]. split; [reflexivity|]. split; [reflexivity|]. left. now left. }
  intros h1 R1. apply cwp_wr with (L' := L); [reflexivity|]. intros c h2 Hc2 R2 Hc3.
  apply (rely_local _ _ _ _ _ _ R1 (in_eq _ _)) in Hc. rewrite (cell_same _ _ _ _ Hc2 Hc) in *. apply HF; [rl|exact Hc3].
Qed.

Section UpdMut.
Variable k : K.
Variable found : T -> T.
Variable absent : option T.
Notation upd := (upd B key khash keq k found absent).
Notation c_do_upd_mut := (c_do_upd_mut B key khash keq gone k found absent).

Lemma rely_back L R (h h' : heap) a nm dm vp ks : cell_at h a (icell nm dm vp ks) ->
  rely (a :: L) (G ++ (ptrs vp ++ ks) ++ R) h h' -> rely L (G ++ a :: R) h h'.
Proof. intros Hc H. eapply rely_open; [exact Hc|exact H]. Qed.

Lemma cwp_do_upd_mut : forall d n a hk s r (F : post (option (nat * bool * bool))) L R h, level d s -> (hk < 2 ^ 64)%N -> shaped d n ->
  rep h a (enc n) -> upd d n hk s = Ok r ->
  (match r with
   | None => forall h', rely L (G ++ a :: R) h h' -> F None L (a :: R) h'
   | Some (n', b) =>
       (forall r n'' h', rely L (G ++ R) h h' -> nsim n' n'' -> rep h' r (enc n'') -> F (Some (r, b, true)) L (r :: R) h') /\
       (forall r h', rely L (G ++ a :: R) h h' -> rep h' r (enc n') -> F (Some (r, b, false)) L (r :: a :: R) h')
   end) -> cwp (c_do_upd_mut d a hk s) F L (a :: R) h.
Proof.
  induction d as [|d IH]; intros n a hk s r F L R h Hl Hh Hsh Hrep Eu HF;
    pose proof (own_root G (a :: R) h a (enc n) (in_eq _ _) Hrep) as Ho.
  - apply (level_O B HB) in Hl. subst s. destruct n as [|vs]; [easy|].
    cbn [ChampShape.upd ChampConc.c_do_upd_mut] in *. rewrite N.eqb_refl in *.
    apply cwp_bind. eapply cwp_load_coll; [apply own_coll; exact Ho|]. intros h1 R1.
    apply (own_rely _ _ _ _ _ _ _ R1) in Ho. apply (own_coll L) in Ho.
    assert (Loc : forall c h', cell_at h1 a c -> rely (a :: L) (G ++ c_kids c ++ R) h1 h' ->
      c_body c = BColl vs /\ c_kids c = [] /\ cell_at h' a c).
    { intros c h' Hc R2. destruct Ho as (c' & Hc' & Eb & Ek & _). rewrite (cell_same _ _ _ _ Hc' Hc) in *.
      split; [exact Eb|]. split; [exact Ek|]. eapply rely_local; [exact R2|now left|exact Hc]. }
    destruct (find_index (fun w => teqk key keq w k) vs) as [pos|].
    + destruct (rnth vs pos) as [w|] eqn:Ew; [|discriminate]. inj Eu. destruct HF as [HF1 HF2].
      apply cwp_bind. eapply cwp_lift; [reflexivity|]. apply cwp_bind.
      apply cwp_uq with (R' := R); [reflexivity| |].
      * intros h2 R2. apply cwp_bind. eapply cwp_coll_replace; [eapply vis_rely; [exact R2|exact Ho]|].
        intros r h3 R3 Hr. apply cwp_done, HF2; [rl|exact Hr].
      * intros c h2 Hc E1 R2. destruct (Loc c h2 Hc R2) as (_ & Ek & Hc2). rewrite Ek in *. cbn [app] in *.
        apply cwp_bind. apply cwp_wr with (L' := L); [reflexivity|]. intros c3 h3 Hc3 R3 Hc3'.
        rewrite (cell_same _ _ _ _ Hc3 Hc2), E1 in Hc3'.
        apply cwp_bind. apply cwp_wr with (L' := L); [reflexivity|]. intros c4 h4 Hc4 R4 Hc4'.
        rewrite (cell_same _ _ _ _ Hc4 Hc3') in Hc4'. cbn [c_rc] in Hc4'.
        eapply cwp_put with (a := a) (L' := L) (R' := R); [reflexivity|exact Hc4'|reflexivity|reflexivity|].
        apply cwp_done. apply (HF1 a (Coll (update_at pos (found w) vs))); [rl|constructor; eapply (replace_perm B HB); exact Ew|].
        apply (rep_intro h4 a _ []) in Hc4'; [exact Hc4'|constructor].
    + destruct absent as [v|]; [|inj Eu; apply cwp_done, HF; rl]. inj Eu. destruct HF as [HF1 HF2].
      apply cwp_bind. apply cwp_uq with (R' := R); [reflexivity| |].
      * intros h2 R2. apply cwp_bind. eapply cwp_coll_insert; [eapply vis_rely; [exact R2|exact Ho]|].
        intros r h3 R3 Hr. apply cwp_done, HF2; [rl|exact Hr].
      * intros c h2 Hc E1 R2. destruct (Loc c h2 Hc R2) as (Eb & Ek & Hc2). rewrite Ek in *. cbn [app] in *.
        apply cwp_bind. eapply cwp_move_coll_insert with (vs := vs) (us := []).
        { exists c. auto with datatypes. }
        intros r h3 R3 Hr. apply cwp_done. eapply HF1; [rl|apply nsim_refl|exact Hr].
  - destruct (level_S B HB d s Hl) as (Hl' & Es & _). destruct n as [nm dm vs cs|]; [|easy].
    destruct (own_inode d L (a :: R) h a nm dm vs cs Hsh Ho) as (vp & ks & Hi).
    cbn [ChampShape.upd ChampConc.c_do_upd_mut] in *. rewrite Es in *. cbn zeta in *.
    apply cwp_bind. eapply cwp_load_inner; [apply (i_vis _ _ _ _ _ _ _ _ _ _ Hi)|apply (i_lk _ _ _ _ _ _ _ _ _ _ Hi)|].
    intros h1 R1. apply (inode_rely _ _ _ _ _ _ _ _ _ _ _ R1) in Hi. apply (own_rely _ _ _ _ _ _ _ R1) in Ho.
    set (bit := N.shiftl 1 (hash_idx B hk s)) in *.
    destruct (has nm bit) eqn:En.
    + set (o := count_below nm bit) in *.
      destruct (rnth cs o) as [n1|] eqn:Ec; [|discriminate]. cbn [rbind] in Eu.
      destruct (inode_kid _ _ _ _ _ _ _ _ _ _ _ _ Hi Ec) as (x & Ex & Hx).
      apply cwp_bind. eapply cwp_lift; [exact Ex|].
      pose proof (shaped_kid _ _ _ _ _ _ _ Hsh Ec) as Hs1.
      destruct (upd d n1 hk (s + B)) as [r1|] eqn:E1; [|discriminate]. cbn [rbind] in Eu.
      apply cwp_bind. eapply cwp_uq_inner; [exact Hi| |].
      * (* [a] is shared *)
        intros h2 R2. apply cwp_bind.
        eapply cwp_do_upd; [exact Hl'|exact Hh|exact Hs1|eapply own_rely; [exact R2|exact Hx]|exact E1|].
        destruct r1 as [[n1' b]|].
        -- inj Eu. destruct HF as [_ HF2]. intros x' h3 R3 Hx'. apply cwp_bind.
           eapply cwp_copy_replace; [|apply rnth_lt in Ec; exact Ec|exact Hx'|].
           { eapply inode_incl; [apply incl_refl| |eapply inode_rely; [exact R3|eapply inode_rely; [exact R2|exact Hi]]]. inc. }
           intros r h4 R4 Hr. apply cwp_done, HF2; [rl|exact Hr].
        -- inj Eu. intros h3 R3. apply cwp_done, HF. rl.
      * (* [a] is held *)
        clear Hi Ho Hx. intros h2 R2 Hc2 Hi2. pose proof (inode_lc _ _ _ _ _ _ _ _ _ _ Hi2) as Elc.
        pose proof (inode_kid _ _ _ _ _ _ _ _ _ _ _ _ Hi2 Ec) as (x2 & Ex2 & Hx2). rewrite Ex in Ex2. injection Ex2 as <-.
        destruct Hi2 as [_ Hv Hks Elk Elv].
        set (R' := ptrs vp ++ (firstn o ks ++ skipn (S o) ks) ++ R).
        assert (HO : forall y, occ y ((ptrs vp ++ ks) ++ R) = occ y (x :: R')).
        { intros y. subst R'. cbn [occ]. rewrite !occ_app.
          apply rnth_nth in Ex. pose proof (occ_rem B HB y x ks o Ex) as Hy. rewrite occ_app in Hy. lia. }
        assert (HI : incl ((ptrs vp ++ ks) ++ R) (x :: R')) by (apply occ_incl; exact HO).
        assert (Ho : o < length cs) by (apply rnth_lt in Ec; exact Ec).
        assert (Hv2 : Forall2 (rep h2) (ptrs vp) (encv vs)) by (eapply vals_reps; exact Hv).
        assert (Hk2 : Forall2 (rep h2) (firstn o ks ++ skipn (S o) ks) (map enc (firstn o cs ++ skipn (S o) cs))).
        { rewrite map_app, <- firstn_map, <- skipn_map. apply F2_rem. eapply owns_rep; exact Hks. }
        assert (Rp : forall h', rely (a :: L) (G ++ R') h2 h' -> Forall2 (rep h') (ptrs vp) (encv vs) /\
          Forall2 (rep h') (firstn o ks ++ skipn (S o) ks) (map enc (firstn o cs ++ skipn (S o) cs))).
        { intros h' Rl. split; [eapply rely_reps; [exact Rl| |exact Hv2]|eapply rely_reps; [exact Rl| |exact Hk2]];
            intros y Hy; apply from_root; subst R'; rewrite !in_app_iff in *; tauto. }
        pose proof (vals_is _ _ _ _ Hv) as Evp.
        apply cwp_roots with (R' := x :: R'); [exact HO|]. apply cwp_bind.
        eapply IH; [exact Hl'|exact Hh|exact Hs1|destruct Hx2 as [_ Hx2]; exact Hx2|exact E1|].
        destruct r1 as [[n1' b]|].
        -- inj Eu. destruct HF as [HF1 _].
           assert (Fin : forall x' n'' h', nsim n1' n'' -> rely L (G ++ R') h2 h' ->
              Forall2 (rep h') (ptrs vp) (encv vs) ->
              Forall2 (rep h') (firstn o ks ++ skipn (S o) ks) (map enc (firstn o cs ++ skipn (S o) cs)) ->
              rep h' x' (enc n'') -> cell_at h' a (icell nm dm vp (update_at o x' ks)) ->
              cwp (Done (Some (a, b, true))) F (a :: L) (x' :: R') h').
           { intros x' n'' h' Hsim Rl Hv' Hk' Hx' Hc'.
             eapply cwp_put with (a := a) (L' := L) (R' := R); [reflexivity|exact Hc'|reflexivity| |].
             - intros y. subst R'. cbn [occ icell c_kids]. rewrite !occ_app. rewrite (occ_upd B) by lia. rewrite occ_app. lia.
             - apply cwp_done. apply HF1 with (n'' := Inner nm dm vs (update_at o n'' cs)).
               + assert (rely L (G ++ R) h2 h') by (subst R'; rl). rl.
               + constructor. now apply nsims_update.
               + eapply inode_rep; [exact Hc'|exact Evp|exact Hv'|]. rewrite map_upd.
                 apply (F2_put B HB); [now rewrite map_length|now rewrite map_length| |exact Hx'].
                 rewrite map_app, <- firstn_map, <- skipn_map in Hk'. exact Hk'. }
           split.
           ++ intros x' n'' h3 R3 Hsim Hx'. apply cwp_bind.
              eapply cwp_store_child; [eapply rely_local; [exact R3|now left|exact Hc2]|exact Elk|].
              intros h4 R4 Hc4. apply cwp_bind, cwp_done.
              destruct (Rp h3 R3) as [Hv3 Hk3].
              eapply Fin; [exact Hsim|subst R'; rl| | | |exact Hc4].
              ** eapply rely_reps; [exact R4| |exact Hv3]. intros y Hy. apply from_root. subst R'. cbn. rewrite !in_app_iff. cbn. rewrite !in_app_iff. tauto.
              ** eapply rely_reps; [exact R4| |exact Hk3]. intros y Hy. apply from_root. subst R'. cbn. rewrite !in_app_iff in *. cbn. rewrite !in_app_iff. tauto.
              ** eapply rely_rep; [exact R4|apply from_root, in_elt|exact Hx'].
           ++ intros x' h3 R3 Hx'. apply cwp_bind.
              assert (R3' : rely (a :: L) (G ++ R') h2 h3) by (subst R'; rl).
              eapply cwp_store_child; [eapply rely_local; [exact R3|now left|exact Hc2]|exact Elk|].
              intros h4 R4 Hc4. apply cwp_roots with (R' := x :: x' :: R'); [intros y; cbn [occ]; lia|].
              destruct (Rp h3 R3') as [Hv3 Hk3].
              assert (Hx4 : rep h4 x (enc n1)).
              { eapply rely_rep; [exact R4|apply from_root; rewrite in_app_iff; cbn; auto|].
                eapply rely_rep; [exact R3|apply from_root, in_elt|]. destruct Hx2 as [_ Hx2]. exact Hx2. }
              apply cwp_bind. eapply cwp_drop_shift; [exact Hl'|exact Hs1|exact Hx4|]. intros h5 R5.
              assert (R35 : rely L (G ++ x' :: R') h3 h5) by (subst R'; rl).
              eapply Fin; [apply nsim_refl|subst R'; rl| | | |].
              ** eapply rely_reps; [exact R35| |exact Hv3]. intros y Hy. apply from_root. subst R'. cbn. rewrite !in_app_iff. cbn. rewrite !in_app_iff. tauto.
              ** eapply rely_reps; [exact R35| |exact Hk3]. intros y Hy. apply from_root. subst R'. cbn. rewrite !in_app_iff in *. cbn. rewrite !in_app_iff. tauto.
              ** eapply rely_rep; [exact R35|apply from_root, in_elt|exact Hx'].
              ** eapply rely_local; [exact R5|now left|exact Hc4].
        -- inj Eu. intros h3 R3.
           eapply cwp_put with (a := a) (c := icell nm dm vp ks) (L' := L) (R' := R); [reflexivity| |reflexivity| |].
           ++ eapply rely_local; [exact R3|now left|exact Hc2].
           ++ intros y. rewrite <- HO. reflexivity.
           ++ apply cwp_done, HF. assert (rely L (G ++ a :: R) h2 h3); [|rl].
              eapply rely_back; [exact Hc2|]. eapply rely_incl; [apply incl_refl| |exact R3].
              apply incl_app; [apply incl_appl, incl_refl|apply incl_appr; exact HI].
    + destruct (has dm bit) eqn:Ed.
      * set (o := count_below dm bit) in *.
        destruct (rnth vs o) as [w|] eqn:Ew; [|discriminate]. cbn [rbind] in Eu.
        assert (Hn : vs <> []) by (intros ->; apply rnth_lt in Ew; cbn in Ew; lia).
        apply cwp_bind. eapply cwp_load_vals; [apply (i_v _ _ _ _ _ _ _ _ _ _ Hi)|exact Hn|apply (i_lv _ _ _ _ _ _ _ _ _ _ Hi)|].
        intros h2 R2. apply (inode_rely _ _ _ _ _ _ _ _ _ _ _ R2) in Hi.
        apply cwp_bind. eapply cwp_lift; [exact Ew|]. destruct (teqk key keq w k).
        { inj Eu. destruct HF as [HF1 HF2]. apply cwp_bind. eapply cwp_uq_inner; [exact Hi| |].
          - intros h3 R3. apply (inode_rely _ _ _ _ _ _ _ _ _ _ _ R3) in Hi. apply cwp_bind.
            eapply cwp_copy_replace_value; [exact Hi|exact Hn|]. intros r h4 R4 Hr. apply cwp_done, HF2; [rl|exact Hr].
          - clear Hi Ho. intros h3 R3 Hc3 Hi3. pose proof (i_v _ _ _ _ _ _ _ _ _ _ Hi3) as Hv.
            destruct vp as [va|]; [|easy]. cbn [ptrs app] in *.
            apply cwp_bind. eapply cwp_ensure; [exact Hc3|exact Hi3|]. intros va' h4 R4 Hv4 Hc4.
            pose proof (owns_rep _ _ _ _ _ (i_ks _ _ _ _ _ _ _ _ _ _ Hi3)) as Hk3.
            apply cwp_bind. apply cwp_wr with (L' := a :: L); [reflexivity|]. intros c5 h5 Hc5 R5 Hv5.
            rewrite (cell_same _ _ _ _ Hc5 Hv4) in Hv5. cbn [c_rc] in Hv5.
            apply cwp_bind. apply cwp_wr with (L' := a :: L); [reflexivity|]. intros c6 h6 Hc6 R6 Hv6.
            rewrite (cell_same _ _ _ _ Hc6 Hv5) in Hv6. cbn [c_rc] in Hv6.
            assert (Hc7 : cell_at h6 a (icell nm dm (Some va') ks)).
            { eapply rely_local; [exact R6|now left|]. eapply rely_local; [exact R5|now left|exact Hc4]. }
            eapply cwp_put with (a := va') (L' := a :: L) (R' := ks ++ R); [reflexivity|exact Hv6|reflexivity|reflexivity|].
            eapply cwp_put with (a := a) (L' := L) (R' := R); [reflexivity|exact Hc7|reflexivity|reflexivity|].
            assert (R36 : rely L (G ++ ks ++ R) h3 h6) by rl.
            apply cwp_done. eapply (HF1 _ (copy_inner_replace_value nm dm vs cs o (found w))); [rl|apply nsim_refl|].
            eapply inode_rep; [exact Hc7| | |].
            + cbn. destruct vs; [easy|]. destruct o; reflexivity.
            + apply (rep_intro h6 va' _ []) in Hv6; [|constructor]. cbn [c_body] in Hv6. clear - Hv6 Hn.
              destruct vs as [|v0 vs]; [easy|]. destruct o; cbn [update_at encv] in *; repeat constructor; exact Hv6.
            + eapply rely_reps; [exact R36| |exact Hk3]. intros y Hy. apply from_root. rewrite !in_app_iff. tauto. }
        destruct absent as [v|]; [|inj Eu; apply cwp_done, HF; rl].
        destruct (make_merged B d (s + B) v hk w (thash key khash w)) as [m|] eqn:Em; [|discriminate]. inj Eu.
        destruct HF as [HF1 HF2].
        assert (Hw : (thash key khash w < 2 ^ 64)%N) by apply Hhash.
        apply cwp_bind. eapply cwp_uq_inner; [exact Hi| |].
        -- intros h3 R3. apply (inode_rely _ _ _ _ _ _ _ _ _ _ _ R3) in Hi. apply cwp_bind.
           eapply cwp_merged; [exact Hl'|exact Hh|exact Hw|exact Em|]. intros x h4 R4 Hx. apply cwp_bind.
           eapply cwp_copy_merged; [|exact Hn|exact Hx|].
           { eapply inode_incl; [apply incl_refl| |eapply inode_rely; [exact R4|exact Hi]]. inc. }
           intros r h5 R5 Hr. apply cwp_done, HF2; [rl|exact Hr].
        -- clear Hi Ho. intros h3 R3 Hc3 Hi3. destruct vp as [va|]; [|now destruct (i_v _ _ _ _ _ _ _ _ _ _ Hi3)].
           assert (Rest : forall vs1 h4, rely L (G ++ R) h3 h4 -> vs1 <> [] ->
              firstn o vs1 ++ skipn (S o) vs1 = firstn o vs ++ skipn (S o) vs ->
              inode (a :: L) (va :: ks ++ R) h4 a nm dm vs1 cs (Some va) ks ->
              cwp (child <-- c_make_merged B d (s + B) v hk w (thash key khash w) ;;
                   r <-- c_move_inner_replace_merged gone a bit o child ;; Done (Some (r, true, true)))
                F (a :: L) (va :: ks ++ R) h4).
           { intros vs1 h4 R4 Hn1 Ers Hi4. apply cwp_bind.
             eapply cwp_merged; [exact Hl'|exact Hh|exact Hw|exact Em|]. intros x h5 R5 Hx.
             apply cwp_roots with (R' := ptrs (Some va) ++ ks ++ x :: R).
             { intros y. cbn [occ ptrs app]. rewrite !occ_app. cbn [occ]. lia. }
             apply cwp_bind. eapply cwp_move_merged with (vs := vs1) (cs := cs); [|exact Hn1|exact Hx|].
             { eapply inode_incl; [apply incl_refl| |eapply inode_rely; [exact R5|exact Hi4]]. cbn [ptrs]. inc. }
             intros r h6 R6 Hr. apply cwp_done. eapply HF1; [rl|apply nsim_refl|].
             unfold copy_inner_replace_merged in *. rewrite Ers in Hr. exact Hr. }
           cbn [ptrs app] in *. apply cwp_bind. apply cwp_uq with (R' := ks ++ R); [reflexivity| |].
           ++ intros h4 R4. apply cwp_bind, cwp_done. eapply Rest; [rl|exact Hn|reflexivity|]. eapply inode_rely; [exact R4|exact Hi3].
           ++ intros c h4 Hc4 E4 R4. destruct (i_v _ _ _ _ _ _ _ _ _ _ Hi3) as [_ Hva].
              destruct (own_leaf _ (a :: L) _ _ _ _ Hva) as (c' & Hc' & Eb & Ek & _).
              rewrite (cell_same _ _ _ _ Hc' Hc4) in *. clear c' Hc'. rewrite Ek in *. cbn [app] in *.
              apply cwp_bind. apply cwp_wr with (L' := a :: L); [reflexivity|]. intros c5 h5 Hc5 R5 Hv5.
              assert (Hc6 : cell_at h4 va c) by (eapply rely_local; [exact R4|now left|exact Hc4]).
              rewrite (cell_same _ _ _ _ Hc5 Hc6), E4 in Hv5.
              eapply cwp_put with (a := va) (L' := a :: L) (R' := ks ++ R); [reflexivity|exact Hv5|reflexivity|reflexivity|].
              assert (R35 : rely (a :: L) (G ++ ks ++ R) h3 h5) by rl.
              eapply (Rest (update_at o (gone w) vs)); [rl| | |].
              ** destruct vs; [easy|]. destruct o; discriminate.
              ** now rewrite firstn_upd, skipn_upd.
              ** destruct Hi3 as [_ _ Hks Elk Elv]. constructor; auto.
                 --- exists (icell nm dm (Some va) ks). split; [eapply rely_local; [exact R35|now left|exact Hc3]|].
                     split; [reflexivity|]. split; [reflexivity|]. left. now left.
                 --- split; [destruct vs; [easy|]; destruct o; discriminate|]. apply own_root; [now left|].
                     apply (rep_intro h5 va _ []) in Hv5; [exact Hv5|constructor].
                 --- apply owns_root; [inc|]. eapply rely_reps; [exact R35| |eapply owns_rep; exact Hks].
                     intros y Hy. apply from_root. rewrite !in_app_iff. tauto.
                 --- now rewrite length_update_at.
      * destruct absent as [v|]; [|inj Eu; apply cwp_done, HF; rl]. inj Eu. destruct HF as [HF1 HF2].
        apply cwp_bind. eapply cwp_uq_inner; [exact Hi| |].
        -- intros h2 R2. apply (inode_rely _ _ _ _ _ _ _ _ _ _ _ R2) in Hi. apply cwp_bind.
           eapply cwp_copy_insert; [exact Hi|]. intros r h3 R3 Hr. apply cwp_done, HF2; [rl|exact Hr].
        -- intros h2 R2 Hc2 Hi2. rewrite <- app_assoc in *. apply cwp_bind. eapply cwp_move_insert; [exact Hi2|].
           intros r h3 R3 Hr. apply cwp_done. eapply HF1; [rl|apply nsim_refl|exact Hr].
Qed.
End UpdMut.
End CC.
