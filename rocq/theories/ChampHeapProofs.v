(** The CHAMP tree in counted memory: every operation does what the operation on values does,
    keeps the counts, and leaves what other references stand for alone. *)
From Coq Require Import List NArith Arith Lia Bool Permutation ZArith ZifyBool ZifyNat ZifyN.
From Verif Require Import Common Bits BitsProofs Slots Champ ChampSpec ChampProofs ChampShape
  AtomProofs RcHeap RcProofs RcExn RcExnProofs ChampHeap.
Import ListNotations.
Set Default Goal Selector "!".

Section Gen.
Context {C : Type}.
Notation heap := (heap C).
(** A block with one reference. *)
Definition one (L : list nat) (h : heap) (a : nat) : Prop :=
  exists c, cell_at (wipe L h) a c /\ c_rc c = 1.
Definition live (L : list nat) (h : heap) (a : nat) : Prop := exists c, cell_at (wipe L h) a c.

Lemma srep_live L h a t : srep L h a t -> live L h a.
Proof. intros H. destruct (rep_inv _ _ _ H) as (c & ts & Hc & _). exists c. exact Hc. Qed.
Lemma sreps_live L h ks ts : Forall2 (srep L h) ks ts -> Forall (live L h) ks.
Proof. induction 1; constructor; eauto using srep_live. Qed.

Lemma wp_new1 L h R b ks (Q : nat -> heap -> Prop) : st L h (ks ++ R) ->
  (forall a h', st L h' (a :: R) -> frame L all h h' ->
     (forall ts, Forall2 (srep L h) ks ts -> srep L h' a (RT b ts)) -> one L h' a -> Q a h') ->
  wp (new b ks) h Q.
Proof.
  intros T K. assert (Hl : Forall (fun a => a < length h) L).
  { destruct T as (_ & Hl & _). eapply Forall_impl; [|exact Hl]. intros x [c Hc]. eapply nth_lt; exact Hc. }
  pose proof (wp_new L h R b ks (fun a h' => a = length h -> h' = h ++ [Some (mkCell 1 b ks)] -> Q a h') T) as W.
  unfold wp, new in *. apply W; [|reflexivity|reflexivity]. intros a h' T' F S Ea _ Eh.
  apply K; [exact T'|exact F|exact S|]. exists (mkCell 1 b ks). split; [|reflexivity].
  subst h' a. unfold cell_at. rewrite wipe_app by exact Hl.
  rewrite nth_error_app2; rewrite length_wipe; [|lia]. now rewrite Nat.sub_diag.
Qed.

Lemma live_frame L h h' a : frame L all h h' -> (exists t, srep L h a t) -> live L h' a.
Proof. intros F [t H]. eapply srep_live. eapply frame_rep; [exact F|exact I|exact H]. Qed.
Lemma live_rep L h R a : st L h R -> live L h a -> exists t, srep L h a t.
Proof. intros ((_ & H) & _) [c Hc]. exact (H _ _ Hc). Qed.
Lemma root_live L h R a : st L h R -> In a R -> live L h a.
Proof. intros (G & _) Hi. destruct (good_root _ _ _ G Hi) as [c Hc]. exists c. exact Hc. Qed.

Lemma wp_incs L ks : forall h R (Q : unit -> heap -> Prop), st L h R -> Forall (live L h) ks ->
  (forall h', st L h' (ks ++ R) -> frame L all h h' -> Q tt h') -> wp (each_of inc ks) h Q.
Proof.
  induction ks as [|k ks IH]; intros h R Q T Hl K; cbn [each_of].
  - apply wp_ret. apply K; [exact T|apply frame_refl].
  - inversion Hl as [|? ? Hk Hl']; subst. apply wp_bind.
    apply wp_inc with (S := L) (R := R); [exact T|exact Hk|]. intros h1 T1 F1.
    apply IH with (R := k :: R); [exact T1| |].
    + eapply Forall_impl; [|exact Hl']. intros x Hx. eapply live_frame; [exact F1|].
      eapply live_rep; [exact T|exact Hx].
    + intros h2 T2 F2. apply K; [|eapply frame_trans; eauto].
      eapply st_eqv; [|exact T2]. intros x. cbn [app]. rewrite occ_app. cbn. rewrite occ_app. lia.
Qed.

Definition inr (R : list nat) : nat -> Prop := fun r => In r R.
Lemma frame_all L P (h h' : heap) : frame L all h h' -> frame L P h h'.
Proof. apply frame_weak. auto. Qed.
Lemma frame_in L P (h h' : heap) x : frame L P h h' -> In x L -> nth_error h' x = nth_error h x.
Proof. intros (H & _). apply H. Qed.
Lemma frame_cell L P (h h' : heap) x c : frame L P h h' -> In x L -> cell_at h x c -> cell_at h' x c.
Proof. intros F Hi Hc. unfold cell_at in *. rewrite (frame_in _ _ _ _ _ F Hi). exact Hc. Qed.
Lemma one_take L (h : heap) R a : st L h (a :: R) -> one L h a -> exists c, cell_at h a c /\ c_rc c = 1 /\
  cell_at (wipe L h) a c /\
  st (a :: L) h (c_kids c ++ R) /\ ~ In a L /\
  (forall r t, In r (c_kids c ++ R) -> srep L h r t -> srep (a :: L) h r t).
Proof.
  intros T (c & Hc & E). destruct (st_take _ _ _ _ _ T Hc E) as (T' & N & Hc' & D). exists c. auto 10.
Qed.
Lemma frame_tail a L P (h h' : heap) : frame (a :: L) P h h' -> (forall x, In x L -> nth_error h' x = nth_error h x).
Proof. intros (H & _) x Hx. apply H. now right. Qed.
Lemma reps_in {A} (P Q : nat -> A -> Prop) ks ts : (forall r u, In r ks -> P r u -> Q r u) ->
  Forall2 P ks ts -> Forall2 Q ks ts.
Proof.
  intros H F. induction F as [|k u ks ts Hk _ IH]; constructor; [apply H; [now left|exact Hk]|].
  apply IH. intros. apply H; [now right|assumption].
Qed.
Lemma F2_length {A D} (P : A -> D -> Prop) l m : Forall2 P l m -> length l = length m.
Proof. induction 1; cbn; auto. Qed.
End Gen.

Section CH.
Variable B : N.
Context {T K : Type}.
Variable key : T -> K.
Variable khash : K -> N.
Variable keq : K -> K -> bool.
Variable ct : bool.
Variable gone : T -> T.
Variable e0 : nat.
Hypothesis HB : (1 <= B)%N.
Hypothesis Hhash : forall k, (khash k < 2 ^ 64)%N.
(** Whether exceptions are considered. *)
Variable t : bool.

Notation heap := (heap (cbody T)).
Notation nd := (node T).
Notation rt := (rtree (cbody T)).
Notation max_shift := (max_shift B).
Notation level := (level B).

(** ** What a tree looks like in memory *)
Definition encv (vs : list T) : list rt := match vs with [] => [] | _ => [RT (BVals vs) []] end.
Definition some_v (vs : list T) : bool := match vs with [] => false | _ => true end.
Fixpoint enc (n : nd) : rt :=
  match n with
  | Inner nm dm vs cs => RT (BInner nm dm (some_v vs)) (encv vs ++ map enc cs)
  | Coll vs => RT (BColl vs) []
  end.
Definition vals_ok (L : list nat) (h : heap) (vp : option nat) (vs : list T) : Prop :=
  match vp with
  | Some va => vs <> [] /\ srep L h va (RT (BVals vs) [])
  | None => vs = []
  end.
Definition inner_cell (c : cell (cbody T)) nm dm (vp : option nat) (ks : list nat) : Prop :=
  c_body c = BInner nm dm (is_some vp) /\ c_kids c = ptrs vp ++ ks.

Lemma vals_ok_is L h vp vs : vals_ok L h vp vs -> is_some vp = some_v vs.
Proof. destruct vp; cbn; [intros [H _]; now destruct vs|now intros ->]. Qed.
Lemma vals_ok_enc L h vp vs : vals_ok L h vp vs -> Forall2 (srep L h) (ptrs vp) (encv vs).
Proof.
  destruct vp; cbn; [intros [H Hs]; destruct vs; [easy|]; repeat constructor; exact Hs|].
  intros ->. constructor.
Qed.
Lemma vals_ok_frame L P h h' vp vs : frame L P h h' -> (forall a, In a (ptrs vp) -> P a) ->
  vals_ok L h vp vs -> vals_ok L h' vp vs.
Proof.
  intros F HP. destruct vp as [va|]; cbn; [|auto]. intros [H Hs]. split; [exact H|].
  eapply frame_rep; [exact F|apply HP; now left|exact Hs].
Qed.

(** What an inner node looks like. *)
Lemma srep_inner L h a nm dm vs cs : srep L h a (enc (Inner nm dm vs cs)) ->
  exists c vp ks, cell_at (wipe L h) a c /\ inner_cell c nm dm vp ks /\ vals_ok L h vp vs /\
    Forall2 (srep L h) ks (map enc cs).
Proof.
  intros H. destruct (rep_inv _ _ _ H) as (c & ts & Hc & Hk & E). cbn [enc] in E.
  injection E as Eb Et. subst ts. exists c.
  destruct vs as [|v vs].
  - exists None, (c_kids c). split; [exact Hc|]. split; [split; [now rewrite <- Eb|reflexivity]|].
    split; [reflexivity|]. exact Hk.
  - cbn [encv app] in Hk. inversion Hk as [|va tv ks ts Hv Hks Ek]; subst.
    exists (Some va), ks. split; [exact Hc|]. split; [split; [now rewrite <- Eb|now symmetry]|].
    split; [split; [discriminate|exact Hv]|]. exact Hks.
Qed.
Lemma enc_inner nm dm vs cs : enc (Inner nm dm vs cs) = RT (BInner nm dm (some_v vs)) (encv vs ++ map enc cs).
Proof. reflexivity. Qed.
Lemma srep_coll L h a vs : srep L h a (enc (Coll vs)) ->
  exists c, cell_at (wipe L h) a c /\ c_body c = BColl vs /\ c_kids c = [].
Proof.
  intros H. destruct (rep_inv _ _ _ H) as (c & ts & Hc & Hk & E). injection E as Eb Et. subst ts.
  inversion Hk. exists c. auto.
Qed.
Lemma cell_out L (h : heap) a c : cell_at (wipe L h) a c -> cell_at h a c.
Proof. intros H. apply (wipe_cell _ _ _ _ H). Qed.

(** ** Reading *)
Lemma wp_load_inner h a c nm dm vp ks (Q : N * N * option nat * list nat -> heap -> Prop) : cell_at h a c -> inner_cell c nm dm vp ks ->
  length ks = popcount nm -> Q (nm, dm, vp, ks) h -> wp (@load_inner T a) h Q.
Proof.
  intros Hc [Eb Ek] El HQ. unfold load_inner. apply wp_bind. apply wp_load with (c := c); [exact Hc|].
  rewrite Eb, Ek. destruct vp as [va|]; cbn [is_some ptrs app].
  - rewrite (proj2 (Nat.eqb_eq _ _) El). exact HQ.
  - rewrite (proj2 (Nat.eqb_eq _ _) El). exact HQ.
Qed.
Lemma wp_load_vals L h dm vp vs (Q : list T -> heap -> Prop) : vals_ok L h vp vs -> vs <> [] ->
  length vs = popcount dm -> Q vs h -> wp (load_vals dm vp) h Q.
Proof.
  intros H Hn El HQ. destruct vp as [va|]; cbn in H; [|easy]. destruct H as [_ H].
  unfold load_vals. apply wp_bind. eapply wp_load_rep; [exact H|]. intros c Hc Eb _. rewrite Eb.
  rewrite (proj2 (Nat.eqb_eq _ _) El). exact HQ.
Qed.
Lemma wp_read_vals L h dm vp vs (Q : list T -> heap -> Prop) : vals_ok L h vp vs ->
  length vs = popcount dm -> Q vs h -> wp (read_vals dm vp) h Q.
Proof.
  intros H El HQ. unfold read_vals. rewrite <- El. destruct vs as [|v vs]; cbn [length Nat.eqb]; [exact HQ|].
  eapply wp_load_vals; [exact H|discriminate|exact El|exact HQ].
Qed.
Lemma wp_load_coll h a c vs (Q : list T -> heap -> Prop) : cell_at h a c -> c_body c = BColl vs ->
  Q vs h -> wp (load_coll a) h Q.
Proof.
  intros Hc Eb HQ. unfold load_coll. apply wp_bind. apply wp_load with (c := c); [exact Hc|].
  rewrite Eb. exact HQ.
Qed.

(** ** Building *)
Lemma wp_build_inner L h R nm dm vs ks (Q : nat -> heap -> Prop) : st L h (ks ++ R) ->
  (forall r h', st L h' (r :: R) -> frame L all h h' ->
     (forall ts, Forall2 (srep L h) ks ts -> srep L h' r (RT (BInner nm dm (some_v vs)) (encv vs ++ ts))) ->
     one L h' r -> Q r h') ->
  wp (build_inner nm dm vs ks) h Q.
Proof.
  intros T0 HQ. destruct vs as [|v vs]; cbn [build_inner].
  - apply wp_new1 with (L := L) (R := R); [exact T0|]. intros r h' T1 F S1 O. apply HQ; auto.
  - apply wp_bind. apply wp_new1 with (L := L) (R := ks ++ R); [exact T0|]. intros va h1 T1 F1 S1 _.
    apply wp_new1 with (L := L) (R := R); [exact T1|]. intros r h2 T2 F2 S2 O. apply HQ; [exact T2| | |exact O].
    + eapply frame_trans; eauto.
    + intros ts Hts. apply S2. cbn [encv app]. constructor; [apply S1; constructor|].
      eapply frame_reps; [exact F1|intros; exact I|exact Hts].
Qed.

(** ** Deleting *)
Definition shared (L : list nat) (h : heap) (vp : option nat) : Prop :=
  match vp with Some va => exists c, cell_at (wipe L h) va c /\ 1 < c_rc c | None => True end.
Lemma wp_delete_inner a L h R c nm dm vp ks vs (Q : unit -> heap -> Prop) :
  st (a :: L) h (ptrs vp ++ R) -> cell_at h a c -> inner_cell c nm dm vp ks ->
  length ks = popcount nm -> vals_ok (a :: L) h vp vs -> length vs = popcount dm ->
  (forall h', st L h' R -> (forall x, In x L -> nth_error h' x = nth_error h x) ->
     (forall r u, In r R \/ shared (a :: L) h vp -> srep (a :: L) h r u -> srep L h' r u) ->
     length h <= length h' -> Q tt h') ->
  wp (delete_inner a) h Q.
Proof.
  intros T0 Hc Ic El Hv Elv HQ. unfold delete_inner. apply wp_bind.
  eapply wp_load_inner; [exact Hc|exact Ic|exact El|]. apply wp_bind.
  assert (Fin : forall h1, st (a :: L) h1 R -> (forall x, In x L -> nth_error h1 x = nth_error h x) ->
            (forall r u, In r R \/ shared (a :: L) h vp -> srep (a :: L) h r u -> srep (a :: L) h1 r u) ->
            length h <= length h1 -> wp (free a) h1 Q).
  { intros h1 T1 X1 S1 Len. apply wp_free with (S := L) (R := R); [exact T1|].
    intros h2 T2 W2 X2 Len2. apply HQ; [exact T2| | |lia].
    - intros x Hx. rewrite X2, X1; auto.
    - intros r u Hr Hu. unfold srep. rewrite W2. apply S1; auto. }
  destruct vp as [va|]; cbn [ptrs app] in *.
  - destruct Hv as [Hvn Hva]. apply wp_bind. apply wp_dec with (S := a :: L) (R := R); [exact T0| |].
    + intros cv h1 Hcv Hrc T1 F1. apply wp_ret. apply Fin; [exact T1| | |].
      * intros x Hx. eapply frame_in; [exact F1|now right].
      * intros r u _ Hu. eapply frame_rep; [exact F1|exact I|exact Hu].
      * destruct F1 as (_ & _ & ?). assumption.
    + intros cv h1 Hcv Hrc Hn T1 Hcv1 X1 S1 Len.
      destruct (rep_inv _ _ _ Hva) as (cv' & ts & Hcv' & Hk & E). injection E as Eb Et.
      unfold cell_at in Hcv, Hcv'. rewrite Hcv in Hcv'. injection Hcv' as <-. subst ts. inversion Hk as [Ek|]. rewrite <- Ek in *. cbn [app] in *.
      unfold delete_values. apply wp_bind. apply wp_load with (c := mkCell 0 (c_body cv) []); [exact Hcv1|].
      cbn [c_body]. rewrite <- Eb. rewrite (proj2 (Nat.eqb_eq _ _) Elv).
      apply wp_free with (S := a :: L) (R := R); [exact T1|]. intros h2 T2 W2 X2 Len2.
      apply Fin; [exact T2| | |lia].
      * intros x Hx. rewrite X2 by now right. apply X1. intros ->. apply Hn. now right.
      * intros r u [Hr|Hr] Hu.
        { unfold srep. rewrite W2. apply S1; assumption. }
        destruct Hr as (c'' & Hc'' & Hlt). unfold cell_at in Hc''. rewrite Hcv in Hc''.
        injection Hc'' as <-. lia.
  - apply wp_ret. apply Fin; auto.
Qed.

Definition drop (d : nat) (a : nat) : M (cbody T) unit :=
  last <~ dec a ;; if last then delete_deep d a else mret tt.

Lemma wp_drops d (IH : forall n a L h R (Q : unit -> heap -> Prop), shaped d n ->
    st L h (a :: R) -> srep L h a (enc n) ->
    (forall h', st L h' R -> frame L (inr R) h h' -> Q tt h') -> wp (drop d a) h Q) :
  forall cs ks L h R (Q : unit -> heap -> Prop), Forall (shaped d) cs -> st L h (ks ++ R) ->
    Forall2 (srep L h) ks (map enc cs) ->
    (forall h', st L h' R -> frame L (inr R) h h' -> Q tt h') -> wp (each_of (drop d) ks) h Q.
Proof.
  induction cs as [|n cs IHc]; intros ks L h R Q Hs T0 Hk HQ; inversion Hk as [|k ? ks' ? Hk1 Hk2]; subst; cbn [each_of].
  - apply wp_ret. apply HQ; [exact T0|apply frame_refl].
  - inversion Hs; subst. apply wp_bind. eapply IH; [eassumption|exact T0|exact Hk1|].
    intros h1 T1 F1. eapply IHc; [eassumption|exact T1| |].
    + eapply frame_reps; [exact F1| |exact Hk2]. intros x Hx. apply in_or_app. now left.
    + intros h2 T2 F2. apply HQ; [exact T2|]. eapply frame_trans; [|exact F2].
      eapply frame_weak; [|exact F1]. intros x Hx. apply in_or_app. now right.
Qed.
Lemma each_of_ext {A} (f g : A -> M (cbody T) unit) l : (forall a h, f a h = g a h) ->
  forall h, each_of f l h = each_of g l h.
Proof.
  intros E. induction l as [|x l IH]; intros h; cbn [each_of]; [reflexivity|].
  unfold mbind. rewrite E. destruct (g x h) as [[u h']|]; auto.
Qed.
(** Deleting a block held locally. *)
Lemma wp_deleted d : (forall n a L h R (Q : unit -> heap -> Prop), shaped d n ->
    st L h (a :: R) -> srep L h a (enc n) ->
    (forall h', st L h' R -> frame L (inr R) h h' -> Q tt h') -> wp (drop d a) h Q) /\
  (forall n a L h R c (Q : unit -> heap -> Prop), shaped d n -> cell_at h a c ->
    st (a :: L) h (c_kids c ++ R) -> (exists ts, enc n = RT (c_body c) ts /\ Forall2 (srep (a :: L) h) (c_kids c) ts) ->
    (forall h', st L h' R -> (forall x, In x L -> nth_error h' x = nth_error h x) ->
       (forall r u, In r R -> srep (a :: L) h r u -> srep L h' r u) -> length h <= length h' -> Q tt h') ->
    wp (delete_deep d a) h Q).
Proof.
  induction d as [|d [IHd IHdel]].
  - assert (D : forall n a L h R c (Q : unit -> heap -> Prop), shaped 0 n -> cell_at h a c ->
    st (a :: L) h (c_kids c ++ R) -> (exists ts, enc n = RT (c_body c) ts /\ Forall2 (srep (a :: L) h) (c_kids c) ts) ->
    (forall h', st L h' R -> (forall x, In x L -> nth_error h' x = nth_error h x) ->
       (forall r u, In r R -> srep (a :: L) h r u -> srep L h' r u) -> length h <= length h' -> Q tt h') ->
    wp (delete_deep 0 a) h Q).
    { intros n a L h R c Q Hs Hc T0 (ts & E & Hk) HQ. destruct n as [|vs]; [easy|]. cbn [enc] in E.
      injection E as Eb Et. subst ts. inversion Hk as [Ek|]. rewrite <- Ek in *. cbn [app delete_deep] in *.
      unfold delete_collision. apply wp_bind. eapply wp_load_coll; [exact Hc|symmetry; exact Eb|].
      apply wp_free with (S := L) (R := R); [exact T0|]. intros h1 T1 W X1 Len.
      apply HQ; [exact T1|exact X1| |lia]. intros r u Hr Hu. unfold srep. rewrite W. exact Hu. }
    split; [|exact D]. intros n a L h R Q Hs T0 Hr HQ. unfold drop. apply wp_bind.
    apply wp_dec with (S := L) (R := R); [exact T0| |].
    + intros c h1 _ _ T1 F1. apply wp_ret. apply HQ; [exact T1|now apply frame_all].
    + intros c h1 Hc Hrc Hn T1 Hc1 X1 S1 Len.
      destruct (rep_inv _ _ _ Hr) as (c' & ts & Hc' & Hk & E). unfold cell_at in Hc, Hc'. rewrite Hc in Hc'.
      injection Hc' as <-. eapply (D n); [exact Hs|exact Hc1|exact T1| |].
      * exists ts. split; [exact E|]. eapply reps_in; [|exact Hk].
        intros r u Hi Hu. apply S1; [apply in_or_app; now left|exact Hu].
      * intros h2 T2 X2 S2 Len2. apply HQ; [exact T2|]. split; [|split; [|lia]].
        { intros x Hx. rewrite X2 by exact Hx. apply X1. intros ->. auto. }
        intros r u Hi Hu. apply S2; [exact Hi|]. apply S1; [apply in_or_app; now right|exact Hu].
  - assert (D : forall n a L h R c (Q : unit -> heap -> Prop), shaped (S d) n -> cell_at h a c ->
    st (a :: L) h (c_kids c ++ R) -> (exists ts, enc n = RT (c_body c) ts /\ Forall2 (srep (a :: L) h) (c_kids c) ts) ->
    (forall h', st L h' R -> (forall x, In x L -> nth_error h' x = nth_error h x) ->
       (forall r u, In r R -> srep (a :: L) h r u -> srep L h' r u) -> length h <= length h' -> Q tt h') ->
    wp (delete_deep (S d) a) h Q).
    { intros n a L h R c Q Hs Hc T0 (ts & E & Hk) HQ. destruct n as [nm dm vs cs|]; [|easy].
      destruct Hs as (El & Ek & _ & Hcs). rewrite enc_inner in E. injection E as Eb Et. subst ts.
      assert (exists vp ks, inner_cell c nm dm vp ks /\ vals_ok (a :: L) h vp vs /\
                Forall2 (srep (a :: L) h) ks (map enc cs)) as (vp & ks & Ic & Hv & Hks).
      { destruct vs as [|v vs].
        - exists None, (c_kids c). split; [split; [now symmetry|reflexivity]|]. split; [reflexivity|exact Hk].
        - cbn [encv app] in Hk. inversion Hk as [|va tv ks ts Hva Hks Ek']; subst.
          exists (Some va), ks. split; [split; [now symmetry|now symmetry]|].
          split; [split; [discriminate|exact Hva]|exact Hks]. }
      assert (Elk : length ks = popcount nm).
      { rewrite <- Ek. apply F2_length in Hks. now rewrite map_length in Hks. }
      cbn [delete_deep]. apply wp_bind. eapply wp_load_inner; [exact Hc|exact Ic|exact Elk|].
      apply wp_bind. change (fun c => last <~ dec c ;; (if last then delete_deep d c else mret tt)) with (drop d).
      eapply wp_drops with (R := ptrs vp ++ R); [exact IHd|exact Hcs| |exact Hks|].
      { eapply st_eqv; [|exact T0]. intros x. rewrite (proj2 Ic), !occ_app. lia. }
      intros h1 T1 F1. eapply wp_delete_inner with (R := R); [exact T1| |exact Ic|exact Elk| |exact El|].
      + eapply frame_cell; [exact F1|now left|exact Hc].
      + eapply vals_ok_frame; [exact F1| |exact Hv]. intros x Hx. apply in_or_app. now left.
      + intros h2 T2 X2 S2 Len2. apply HQ; [exact T2| | |destruct F1 as (_ & _ & ?); lia].
        * intros x Hx. rewrite X2 by exact Hx. eapply frame_tail; eauto.
        * intros r u Hi Hu. apply S2; [now left|]. eapply frame_rep; [exact F1|apply in_or_app; now right|exact Hu]. }
    split; [|exact D]. intros n a L h R Q Hs T0 Hr HQ. unfold drop. apply wp_bind.
    apply wp_dec with (S := L) (R := R); [exact T0| |].
    + intros c h1 _ _ T1 F1. apply wp_ret. apply HQ; [exact T1|now apply frame_all].
    + intros c h1 Hc Hrc Hn T1 Hc1 X1 S1 Len.
      destruct (rep_inv _ _ _ Hr) as (c' & ts & Hc' & Hk & E). unfold cell_at in Hc, Hc'. rewrite Hc in Hc'.
      injection Hc' as <-. eapply (D n); [exact Hs|exact Hc1|exact T1| |].
      * exists ts. split; [exact E|]. eapply reps_in; [|exact Hk].
        intros r u Hi Hu. apply S1; [apply in_or_app; now left|exact Hu].
      * intros h2 T2 X2 S2 Len2. apply HQ; [exact T2|]. split; [|split; [|lia]].
        { intros x Hx. rewrite X2 by exact Hx. apply X1. intros ->. auto. }
        intros r u Hi Hu. apply S2; [exact Hi|]. apply S1; [apply in_or_app; now right|exact Hu].
Qed.
Definition wp_drop d := proj1 (wp_deleted d).

Lemma dds_eq : forall d s a (h : heap), level d s -> delete_deep_shift B d a s h = delete_deep d a h.
Proof.
  induction d as [|d IH]; intros s a h Hl.
  - apply (level_O B HB) in Hl. subst s. cbn [delete_deep_shift delete_deep]. now rewrite N.eqb_refl.
  - destruct (level_S B HB d s Hl) as (Hl' & Es & _). cbn [delete_deep_shift delete_deep]. rewrite Es.
    unfold mbind. destruct (load_inner a h) as [[[[[nm dm] vp] cs] h1]|]; [|reflexivity].
    erewrite each_of_ext; [reflexivity|]. intros c h2. cbn. unfold mbind.
    destruct (dec c h2) as [[[|] h3]|]; auto.
Qed.
Lemma drop_shift_eq d s a (h : heap) : level d s -> drop_shift B d a s h = drop d a h.
Proof.
  intros Hl. unfold drop_shift, drop, mbind. destruct (dec a h) as [[[|] h']|]; auto. now apply dds_eq.
Qed.
Lemma wp_drop_shift d s n a L h R (Q : unit -> heap -> Prop) : level d s -> shaped d n ->
  st L h (a :: R) -> srep L h a (enc n) ->
  (forall h', st L h' R -> frame L (inr R) h h' -> Q tt h') -> wp (drop_shift B d a s) h Q.
Proof.
  intros Hl Hs T0 Hr HQ. unfold wp. rewrite drop_shift_eq by exact Hl. eapply wp_drop; eauto.
Qed.
(** Deleting a node that was just made, without decrementing. *)
Lemma wp_undo d s n a L h R (Q : unit -> heap -> Prop) : level d s -> shaped d n ->
  st L h (a :: R) -> one L h a -> srep L h a (enc n) ->
  (forall h', st L h' R -> frame L (inr R) h h' -> Q tt h') -> wp (delete_deep_shift B d a s) h Q.
Proof.
  intros Hl Hs T0 O Hr HQ. unfold wp. rewrite dds_eq by exact Hl.
  destruct (one_take _ _ _ _ T0 O) as (c & Hc & E & Hcw & T1 & Hn & D).
  destruct (rep_inv _ _ _ Hr) as (c' & ts & Hc' & Hk & Ee). unfold cell_at in Hcw, Hc'. rewrite Hcw in Hc'.
  injection Hc' as <-.
  eapply (proj2 (wp_deleted d)) with (n := n); [exact Hs|exact Hc|exact T1| |].
  - exists ts. split; [exact Ee|]. eapply reps_in; [|exact Hk].
    intros r u Hi Hu. apply D; [apply in_or_app; now left|exact Hu].
  - intros h2 T2 X2 S2 Len. apply HQ; [exact T2|]. split; [exact X2|]. split; [|exact Len].
    intros r u Hi Hu. apply S2; [exact Hi|]. apply D; [apply in_or_app; now right|exact Hu].
Qed.

(** ** Copying and moving nodes *)
Notation xwp := (xwp t).
Lemma xwp_alloc h (Q : unit -> heap -> Prop) (E : heap -> Prop) : Q tt h -> (t = true -> E h) -> xwp xalloc h Q E.
Proof. apply xwp_throw. Qed.
Lemma xwp_copies n h (Q : unit -> heap -> Prop) (E : heap -> Prop) : Q tt h -> (t = true -> E h) ->
  xwp (xcopies ct n) h Q E.
Proof.
  intros HQ HE. unfold xcopies. destruct (ct && (0 <? n)); [now apply xwp_throw|now apply xwp_ret].
Qed.
Lemma xwp_alloc_inner n h (Q : unit -> heap -> Prop) (E : heap -> Prop) : Q tt h -> (t = true -> E h) ->
  xwp (alloc_inner n) h Q E.
Proof.
  intros HQ HE. unfold alloc_inner. apply xwp_bind. apply xwp_alloc; [|exact HE].
  destruct (0 <? n); [now apply xwp_throw|now apply xwp_ret].
Qed.
Lemma xwp_call b h (Q : unit -> heap -> Prop) (E : heap -> Prop) : Q tt h -> (t = true -> E h) ->
  xwp (xcall b) h Q E.
Proof. intros HQ HE. destruct b; [now apply xwp_throw|now apply xwp_ret]. Qed.

(** The outcome of making a node, seen from the references. *)
Definition made (L : list nat) (h : heap) (R : list nat) (u : rt) (r : nat) (h' : heap) : Prop :=
  st L h' (r :: R) /\ frame L all h h' /\ srep L h' r u /\ one L h' r.

Lemma xwp_copy_inner L h R own k nm dm vs kept ks ts (Q : nat -> heap -> Prop) (E : heap -> Prop) :
  st L h (own ++ R) -> Forall (live L h) kept ->
  (forall x, occ x (kept ++ own) = occ x ks) ->
  Forall2 (srep L h) ks ts ->
  (forall r h', made L h R (RT (BInner nm dm (some_v vs)) (encv vs ++ ts)) r h' -> Q r h') ->
  (t = true -> E h) -> xwp (copy_inner ct k nm dm vs kept ks) h Q E.
Proof.
  intros T0 Hl Ho Hks HQ HE. unfold copy_inner.
  apply xwp_bind, xwp_alloc_inner; [|exact HE]. apply xwp_bind, xwp_copies; [|exact HE].
  apply xwp_bind, xwp_m. apply wp_incs with (L := L) (R := own ++ R); [exact T0|exact Hl|].
  intros h1 T1 F1. apply xwp_m. apply wp_build_inner with (L := L) (R := R).
  - eapply st_eqv; [|exact T1]. intros x. specialize (Ho x). rewrite !occ_app in *. lia.
  - intros r h2 T2 F2 S2 O2. apply HQ. split; [exact T2|]. split; [eapply frame_trans; eauto|].
    split; [|exact O2]. apply S2. eapply frame_reps; [exact F1|intros; exact I|exact Hks].
Qed.

(** The same when the block [a] is used up: what the references in [R] stand for is kept. *)
Definition moved (a : nat) (L : list nat) (h : heap) (R : list nat) (u : rt) (r : nat) (h' : heap) : Prop :=
  st L h' (r :: R) /\ (forall x, In x L -> nth_error h' x = nth_error h x) /\
  (forall q v, In q R -> srep (a :: L) h q v -> srep L h' q v) /\
  length h <= length h' /\ srep L h' r u.

Lemma xwp_move_inner a L h R c k nm dm vp ks vs nm' dm' vs' ks' ts (Q : nat -> heap -> Prop) (E : heap -> Prop) :
  st (a :: L) h (ptrs vp ++ ks' ++ R) -> cell_at h a c -> inner_cell c nm dm vp ks ->
  length ks = popcount nm -> vals_ok (a :: L) h vp vs -> length vs = popcount dm ->
  (0 < k -> vs <> []) -> Forall2 (srep (a :: L) h) ks' ts ->
  (forall r h', moved a L h R (RT (BInner nm' dm' (some_v vs')) (encv vs' ++ ts)) r h' -> Q r h') ->
  (t = true -> E h) -> xwp (move_inner ct a vp k nm' dm' vs' ks') h Q E.
Proof.
  intros T0 Hc Ic El Hv Elv Hk Hks HQ HE. unfold move_inner.
  apply xwp_bind, xwp_alloc_inner; [|exact HE]. apply xwp_bind, xwp_m.
  assert (M : forall b : bool, xwp (_ <- (if b then xret tt else xcopies ct k) ;;;
     r <- xm (build_inner nm' dm' vs' ks') ;;; _ <- xm (delete_inner a) ;;; xret r) h Q E).
  { intros b. apply xwp_bind.
    assert (xwp (r <- xm (build_inner nm' dm' vs' ks') ;;; _ <- xm (delete_inner a) ;;; xret r) h Q E) as M2.
    { apply xwp_bind, xwp_m. apply wp_build_inner with (L := a :: L) (R := ptrs vp ++ R).
      - eapply st_eqv; [|exact T0]. intros x. rewrite !occ_app. lia.
      - intros r h1 T1 F1 S1 _. apply xwp_bind, xwp_m.
        apply wp_delete_inner with (L := L) (R := r :: R) (c := c) (nm := nm) (dm := dm) (vp := vp) (ks := ks) (vs := vs).
        + eapply st_eqv; [|exact T1]. intros x. cbn. rewrite !occ_app. cbn. lia.
        + eapply frame_cell; [exact F1|now left|exact Hc].
        + exact Ic.
        + exact El.
        + eapply vals_ok_frame; [exact F1|intros; exact I|exact Hv].
        + exact Elv.
        + intros h2 T2 X2 S2 Len2. apply xwp_ret, HQ. split; [exact T2|].
          split; [|split; [|split]].
          * intros x Hx. rewrite X2 by exact Hx. eapply frame_tail; eauto.
          * intros q v Hq Hv'. apply S2; [left; now right|]. eapply frame_rep; [exact F1|exact I|exact Hv'].
          * destruct F1 as (_ & _ & ?). lia.
          * apply S2; [left; now left|]. apply S1. exact Hks. }
    destruct b; [apply xwp_ret; exact M2|apply xwp_copies; [exact M2|exact HE]]. }
  destruct (0 <? k) eqn:Ek.
  - apply Nat.ltb_lt in Ek. destruct vp as [va|]; [|cbn in Hv; now specialize (Hk Ek)].
    apply wp_unique with (S := a :: L) (R := ks' ++ R); [exact T0| |]; intros; [apply (M true)|apply (M false)].
  - apply wp_ret. apply (M false).
Qed.

Lemma occ_upd x y ks o : o < length ks ->
  occ x (update_at o y ks) = occ x (firstn o ks ++ skipn (S o) ks) + b2n (y =? x).
Proof.
  revert o. induction ks as [|k ks IH]; intros [|o] H; cbn in *; try lia.
  specialize (IH o). cbn in IH. rewrite IH by lia. lia.
Qed.
Lemma occ_ins x y ks o : occ x (firstn o ks ++ y :: skipn o ks) = occ x ks + b2n (y =? x).
Proof.
  rewrite occ_app. cbn. rewrite <- (firstn_skipn o ks) at 3. rewrite occ_app. lia.
Qed.
Lemma occ_rem x y ks o : nth_error ks o = Some y ->
  occ x ks = occ x (firstn o ks ++ skipn (S o) ks) + b2n (y =? x).
Proof.
  revert o. induction ks as [|k ks IH]; intros [|o] H; cbn in *; try discriminate.
  - injection H as ->. lia.
  - specialize (IH o H). cbn in IH. lia.
Qed.
Lemma F2_upd {A D} (P : A -> D -> Prop) l m o x y : Forall2 P l m -> P x y ->
  Forall2 P (update_at o x l) (update_at o y m).
Proof. intros H Hx. revert o. induction H; intros [|o]; cbn; constructor; auto. Qed.
Lemma F2_firstn {A D} (P : A -> D -> Prop) l m o : Forall2 P l m -> Forall2 P (firstn o l) (firstn o m).
Proof. intros H. revert o. induction H; intros [|o]; cbn; constructor; auto. Qed.
Lemma F2_skipn {A D} (P : A -> D -> Prop) l m o : Forall2 P l m -> Forall2 P (skipn o l) (skipn o m).
Proof. intros H. revert o. induction H; intros [|o]; cbn; try constructor; auto. Qed.
Lemma F2_nth {A D} (P : A -> D -> Prop) l m o y : Forall2 P l m -> nth_error m o = Some y ->
  exists x, nth_error l o = Some x /\ P x y.
Proof.
  intros H. revert o. induction H; intros [|o] E; cbn in *; try discriminate; [|auto].
  injection E as <-. eauto.
Qed.
Lemma map_upd {A D} (f : A -> D) o x l : map f (update_at o x l) = update_at o (f x) (map f l).
Proof. revert o. induction l; intros [|o]; cbn; f_equal; auto. Qed.

(** ** Nodes *)
(** The inner node at [a], seen through [L]. *)
Record inner_at (L : list nat) (h : heap) (a : nat) (nm dm : N) (vs : list T) (cs : list nd)
  (c : cell (cbody T)) (vp : option nat) (ks : list nat) : Prop := mkIn {
  ia_ic : inner_cell c nm dm vp ks;
  ia_v : vals_ok L h vp vs;
  ia_ks : Forall2 (srep L h) ks (map enc cs);
  ia_lk : length ks = popcount nm;
  ia_lv : length vs = popcount dm }.
Lemma inner_view d L h a nm dm vs cs : shaped (S d) (Inner nm dm vs cs) ->
  srep L h a (enc (Inner nm dm vs cs)) ->
  exists c vp ks, cell_at (wipe L h) a c /\ inner_at L h a nm dm vs cs c vp ks.
Proof.
  intros (H1 & H2 & _) Hr. destruct (srep_inner _ _ _ _ _ _ _ Hr) as (c & vp & ks & Hc & Ic & Hv & Hks).
  exists c, vp, ks. split; [exact Hc|]. constructor; auto. rewrite <- H2.
  apply F2_length in Hks. now rewrite map_length in Hks.
Qed.
Lemma inner_frame P L h h' a nm dm vs cs c vp ks : frame L P h h' ->
  (forall x, In x (ptrs vp ++ ks) -> P x) ->
  inner_at L h a nm dm vs cs c vp ks -> inner_at L h' a nm dm vs cs c vp ks.
Proof.
  intros F HP [H1 H2 H3 H4 H5]. constructor; auto.
  - eapply vals_ok_frame; [exact F| |exact H2]. intros. apply HP, in_or_app. auto.
  - eapply frame_reps; [exact F| |exact H3]. intros. apply HP, in_or_app. auto.
Qed.
Lemma inner_lc L h a nm dm vs cs c vp ks : inner_at L h a nm dm vs cs c vp ks -> length ks = length cs.
Proof. intros [_ _ H _ _]. apply F2_length in H. now rewrite map_length in H. Qed.
Lemma inner_kid L h a nm dm vs cs c vp ks o n : inner_at L h a nm dm vs cs c vp ks ->
  rnth cs o = Ok n -> exists x, rnth ks o = Ok x /\ srep L h x (enc n).
Proof.
  intros [_ _ H _ _] E. apply rnth_nth in E. destruct (F2_nth _ _ _ o (enc n) H) as (x & Hx & Hr).
  - rewrite nth_error_map, E. reflexivity.
  - exists x. split; [now apply rnth_nth|exact Hr].
Qed.
Lemma rnth_lt {A} (l : list A) o x : rnth l o = Ok x -> o < length l.
Proof. intros E. apply rnth_nth in E. apply nth_error_Some. congruence. Qed.

Ltac open_inner H := destruct H as [Ic Hv Hks Elk Elv].

Section Copies.
Variables (L : list nat) (h : heap) (R : list nat) (a : nat) (nm dm : N) (vs : list T) (cs : list nd)
  (c : cell (cbody T)) (vp : option nat) (ks : list nat).
Hypothesis Hc : cell_at (wipe L h) a c.
Hypothesis Hi : inner_at L h a nm dm vs cs c vp ks.
Variables (Q : nat -> heap -> Prop) (E : heap -> Prop).
Hypothesis HE : t = true -> E h.

Lemma xwp_copy_replace o child c' : st L h (child :: R) -> o < length cs -> srep L h child (enc c') ->
  (forall r h', made L h R (enc (copy_inner_replace nm dm vs cs o c')) r h' -> Q r h') ->
  xwp (h_copy_inner_replace a o child) h Q E.
Proof.
  intros T0 Ho Hr HQ. pose proof (inner_lc _ _ _ _ _ _ _ _ _ _ Hi) as Elc. open_inner Hi. unfold h_copy_inner_replace.
  apply xwp_bind, xwp_m. eapply wp_load_inner; [exact (cell_out _ _ _ _ Hc)|exact Ic|exact Elk|].
  apply xwp_bind, xwp_alloc; [|exact HE]. apply xwp_bind, xwp_m.
  eapply wp_incs; [exact T0|eapply sreps_live; apply vals_ok_enc; exact Hv|]. intros h1 T1 F1.
  apply xwp_bind, xwp_m.
  assert (Hks1 : Forall2 (srep L h1) ks (map enc cs)) by (eapply frame_reps; [exact F1|intros; exact I|exact Hks]).
  eapply wp_incs; [exact T1| |].
  - apply Forall_rem. eapply sreps_live. exact Hks1.
  - intros h2 T2 F2. apply xwp_m. eapply wp_new1 with (R := R).
    + eapply st_eqv; [|exact T2]. intros x. rewrite !occ_app, occ_upd by lia. cbn [occ]. rewrite !occ_app. lia.
    + intros r h3 T3 F3 S3 O3. apply HQ. split; [exact T3|].
      assert (F12 : frame L all h h2) by (eapply frame_trans; eauto).
      split; [eapply frame_trans; eauto|]. split; [|exact O3].
      unfold copy_inner_replace. rewrite enc_inner, <- (vals_ok_is _ _ _ _ Hv), map_upd. apply S3.
      apply Forall2_app.
      * eapply frame_reps; [exact F12|intros; exact I|]. apply vals_ok_enc. exact Hv.
      * eapply frame_reps; [exact F12|intros; exact I|]. apply F2_upd; assumption.
Qed.
Lemma xwp_copy_replace_value o v : st L h R -> vs <> [] ->
  (forall r h', made L h R (enc (copy_inner_replace_value nm dm vs cs o v)) r h' -> Q r h') ->
  xwp (h_copy_inner_replace_value ct a o v) h Q E.
Proof.
  intros T0 Hn HQ. open_inner Hi. unfold h_copy_inner_replace_value.
  apply xwp_bind, xwp_m. eapply wp_load_inner; [exact (cell_out _ _ _ _ Hc)|exact Ic|exact Elk|].
  apply xwp_bind, xwp_m. eapply wp_load_vals; [exact Hv|exact Hn|exact Elv|].
  eapply xwp_copy_inner with (own := []); [exact T0|eapply sreps_live; exact Hks| |exact Hks|exact HQ|exact HE].
  intros x. now rewrite app_nil_r.
Qed.
Lemma xwp_copy_merged bit o child c' : st L h (child :: R) -> vs <> [] -> srep L h child (enc c') ->
  (forall r h', made L h R (enc (copy_inner_replace_merged nm dm vs cs bit o c')) r h' -> Q r h') ->
  xwp (h_copy_inner_replace_merged ct a bit o child) h Q E.
Proof.
  intros T0 Hn Hr HQ. open_inner Hi. unfold h_copy_inner_replace_merged.
  apply xwp_bind, xwp_m. eapply wp_load_inner; [exact (cell_out _ _ _ _ Hc)|exact Ic|exact Elk|].
  apply xwp_bind, xwp_m. eapply wp_load_vals; [exact Hv|exact Hn|exact Elv|]. cbn zeta.
  eapply xwp_copy_inner with (own := [child]); [exact T0|eapply sreps_live; exact Hks| | | |exact HE].
  - intros x. rewrite occ_ins, occ_app. cbn. lia.
  - apply Forall2_app; [apply F2_firstn; exact Hks|]. constructor; [exact Hr|]. apply F2_skipn; exact Hks.
  - intros r h' M. apply HQ. unfold copy_inner_replace_merged. cbn zeta. rewrite enc_inner, map_app. cbn [map].
    rewrite <- firstn_map, <- skipn_map. exact M.
Qed.
Lemma xwp_copy_inline bit o v : st L h R ->
  (forall r h', made L h R (enc (copy_inner_replace_inline nm dm vs cs bit o v)) r h' -> Q r h') ->
  xwp (h_copy_inner_replace_inline ct a bit o v) h Q E.
Proof.
  intros T0 HQ. open_inner Hi. unfold h_copy_inner_replace_inline.
  apply xwp_bind, xwp_m. eapply wp_load_inner; [exact (cell_out _ _ _ _ Hc)|exact Ic|exact Elk|].
  apply xwp_bind, xwp_m. eapply wp_read_vals; [exact Hv|exact Elv|]. cbn zeta.
  eapply xwp_copy_inner with (own := []); [exact T0| | | | |exact HE].
  - apply Forall_rem. eapply sreps_live; exact Hks.
  - intros x. now rewrite app_nil_r.
  - apply Forall2_app; [apply F2_firstn; exact Hks|]. apply F2_skipn; exact Hks.
  - intros r h' M. apply HQ. unfold copy_inner_replace_inline. cbn zeta. rewrite enc_inner, map_app.
    rewrite <- firstn_map, <- skipn_map. exact M.
Qed.
Lemma xwp_copy_remove bit o : st L h R -> vs <> [] ->
  (forall r h', made L h R (enc (copy_inner_remove_value nm dm vs cs bit o)) r h' -> Q r h') ->
  xwp (h_copy_inner_remove_value ct a bit o) h Q E.
Proof.
  intros T0 Hn HQ. open_inner Hi. unfold h_copy_inner_remove_value.
  apply xwp_bind, xwp_m. eapply wp_load_inner; [exact (cell_out _ _ _ _ Hc)|exact Ic|exact Elk|].
  apply xwp_bind, xwp_m. eapply wp_load_vals; [exact Hv|exact Hn|exact Elv|].
  eapply xwp_copy_inner with (own := []); [exact T0|eapply sreps_live; exact Hks| |exact Hks|exact HQ|exact HE].
  intros x. now rewrite app_nil_r.
Qed.
Lemma xwp_copy_insert bit v : st L h R ->
  (forall r h', made L h R (enc (copy_inner_insert_value nm dm vs cs bit v)) r h' -> Q r h') ->
  xwp (h_copy_inner_insert_value ct a bit v) h Q E.
Proof.
  intros T0 HQ. open_inner Hi. unfold h_copy_inner_insert_value.
  apply xwp_bind, xwp_m. eapply wp_load_inner; [exact (cell_out _ _ _ _ Hc)|exact Ic|exact Elk|].
  apply xwp_bind, xwp_m. eapply wp_read_vals; [exact Hv|exact Elv|]. cbn zeta.
  eapply xwp_copy_inner with (own := []); [exact T0|eapply sreps_live; exact Hks| |exact Hks|exact HQ|exact HE].
  intros x. now rewrite app_nil_r.
Qed.
End Copies.

(** The node [a] is held locally. *)
Section Moves.
Variables (L : list nat) (h : heap) (R : list nat) (a : nat) (nm dm : N) (vs : list T) (cs : list nd)
  (c : cell (cbody T)) (vp : option nat) (ks : list nat).
Hypothesis Hc : cell_at h a c.
Hypothesis Hi : inner_at (a :: L) h a nm dm vs cs c vp ks.
Variables (Q : nat -> heap -> Prop) (E : heap -> Prop).
Hypothesis HE : t = true -> E h.

Lemma xwp_move_merged bit o child c' : st (a :: L) h (ptrs vp ++ ks ++ child :: R) -> vs <> [] ->
  srep (a :: L) h child (enc c') ->
  (forall r h', moved a L h R (enc (copy_inner_replace_merged nm dm vs cs bit o c')) r h' -> Q r h') ->
  xwp (h_move_inner_replace_merged ct a bit o child) h Q E.
Proof.
  intros T0 Hn Hr HQ. open_inner Hi. unfold h_move_inner_replace_merged.
  apply xwp_bind, xwp_m. eapply wp_load_inner; [exact Hc|exact Ic|exact Elk|].
  apply xwp_bind, xwp_m. eapply wp_load_vals; [exact Hv|exact Hn|exact Elv|]. cbn zeta.
  eapply xwp_move_inner with (R := R); [|exact Hc|exact Ic|exact Elk|exact Hv|exact Elv|auto| | |exact HE].
  - eapply st_eqv; [|exact T0]. intros x. rewrite !occ_app.
    pose proof (occ_ins x child ks (count_below nm bit)) as Hx. rewrite occ_app in Hx. cbn [occ] in *. lia.
  - apply Forall2_app; [apply F2_firstn; exact Hks|]. constructor; [exact Hr|]. apply F2_skipn; exact Hks.
  - intros r h' M. apply HQ. unfold copy_inner_replace_merged. cbn zeta. rewrite enc_inner, map_app. cbn [map].
    rewrite <- firstn_map, <- skipn_map. exact M.
Qed.
Lemma xwp_move_remove bit o : st (a :: L) h (ptrs vp ++ ks ++ R) -> vs <> [] ->
  (forall r h', moved a L h R (enc (copy_inner_remove_value nm dm vs cs bit o)) r h' -> Q r h') ->
  xwp (h_move_inner_remove_value ct a bit o) h Q E.
Proof.
  intros T0 Hn HQ. open_inner Hi. unfold h_move_inner_remove_value.
  apply xwp_bind, xwp_m. eapply wp_load_inner; [exact Hc|exact Ic|exact Elk|].
  apply xwp_bind, xwp_m. eapply wp_load_vals; [exact Hv|exact Hn|exact Elv|].
  eapply xwp_move_inner; [exact T0|exact Hc|exact Ic|exact Elk|exact Hv|exact Elv|auto|exact Hks|exact HQ|exact HE].
Qed.
Lemma xwp_move_insert bit v : st (a :: L) h (ptrs vp ++ ks ++ R) ->
  (forall r h', moved a L h R (enc (copy_inner_insert_value nm dm vs cs bit v)) r h' -> Q r h') ->
  xwp (h_move_inner_insert_value ct a bit v) h Q E.
Proof.
  intros T0 HQ. open_inner Hi. unfold h_move_inner_insert_value.
  apply xwp_bind, xwp_m. eapply wp_load_inner; [exact Hc|exact Ic|exact Elk|].
  apply xwp_bind, xwp_m. eapply wp_read_vals; [exact Hv|exact Elv|]. cbn zeta.
  eapply xwp_move_inner; [exact T0|exact Hc|exact Ic|exact Elk|exact Hv|exact Elv| |exact Hks|exact HQ|exact HE].
  intros Hl ->. cbn in Hl. lia.
Qed.
End Moves.
(** Here the child at [o] may be gone already. *)
Lemma xwp_move_inline L h R a nm dm vs cs c vp ks (Q : nat -> heap -> Prop) (E : heap -> Prop) bit o v :
  cell_at h a c -> inner_cell c nm dm vp ks -> length ks = popcount nm ->
  vals_ok (a :: L) h vp vs -> length vs = popcount dm ->
  st (a :: L) h (ptrs vp ++ (firstn o ks ++ skipn (S o) ks) ++ R) ->
  Forall2 (srep (a :: L) h) (firstn o ks ++ skipn (S o) ks) (map enc (firstn o cs ++ skipn (S o) cs)) ->
  (forall r h', moved a L h R (enc (copy_inner_replace_inline nm dm vs cs bit o v)) r h' -> Q r h') ->
  (t = true -> E h) -> xwp (h_move_inner_replace_inline ct a bit o v) h Q E.
Proof.
  intros Hc Ic Elk Hv Elv T0 Hks' HQ HE. unfold h_move_inner_replace_inline.
  apply xwp_bind, xwp_m. eapply wp_load_inner; [exact Hc|exact Ic|exact Elk|].
  apply xwp_bind, xwp_m. eapply wp_read_vals; [exact Hv|exact Elv|]. cbn zeta.
  eapply xwp_move_inner; [exact T0|exact Hc|exact Ic|exact Elk|exact Hv|exact Elv| |exact Hks'| |exact HE].
  - intros Hl ->. cbn in Hl. lia.
  - intros r h' M. apply HQ. unfold copy_inner_replace_inline. cbn zeta. rewrite enc_inner. exact M.
Qed.

(** After an exception: nothing is left behind. *)
Definition undone (L : list nat) (h : heap) (R : list nat) (h' : heap) : Prop :=
  st L h' R /\ frame L (inr R) h h'.
Lemma undone_refl L h R : st L h R -> undone L h R h.
Proof. intros H. split; [exact H|apply frame_refl]. Qed.
Lemma made_trans L h h1 R u r h2 : frame L all h h1 -> made L h1 R u r h2 -> made L h R u r h2.
Proof. intros F (H1 & H2 & H3 & H4). split; [exact H1|]. split; [eapply frame_trans; eauto|auto]. Qed.
(** Undoing the node [r] after the copy of the parent threw. *)
Lemma wp_undo_made d s n r L h h1 R : level d s -> shaped d n -> made L h R (enc n) r h1 ->
  wp (delete_deep_shift B d r s) h1 (fun _ h2 => undone L h R h2).
Proof.
  intros Hl Hs (T1 & F1 & S1 & O1). eapply wp_undo; [exact Hl|exact Hs|exact T1|exact O1|exact S1|].
  intros h2 T2 F2. split; [exact T2|]. eapply frame_trans; [apply frame_all; exact F1|exact F2].
Qed.
Lemma xwp_new L h R b ks ts (Q : nat -> heap -> Prop) E : st L h (ks ++ R) -> Forall2 (srep L h) ks ts ->
  (forall r h', made L h R (RT b ts) r h' -> Q r h') -> xwp (xm (new b ks)) h Q E.
Proof.
  intros T0 Hk HQ. apply xwp_m. eapply wp_new1; [exact T0|]. intros r h' T1 F1 S1 O1. apply HQ.
  split; [exact T1|]. split; [exact F1|]. split; [now apply S1|exact O1].
Qed.
Lemma xwp_build L h R nm dm vs ks cs (Q : nat -> heap -> Prop) E : st L h (ks ++ R) ->
  Forall2 (srep L h) ks (map enc cs) ->
  (forall r h', made L h R (enc (Inner nm dm vs cs)) r h' -> Q r h') -> xwp (xm (build_inner nm dm vs ks)) h Q E.
Proof.
  intros T0 Hk HQ. apply xwp_m. eapply wp_build_inner; [exact T0|]. intros r h' T1 F1 S1 O1. apply HQ.
  split; [exact T1|]. split; [exact F1|]. split; [|exact O1]. rewrite enc_inner. now apply S1.
Qed.

Lemma xwp_merged : forall d s v1 h1 v2 h2 n L h R (Q : nat -> heap -> Prop) (E : heap -> Prop),
  level d s -> (h1 < 2 ^ 64)%N -> (h2 < 2 ^ 64)%N ->
  make_merged B d s v1 h1 v2 h2 = Ok n -> st L h R ->
  (forall r h', made L h R (enc n) r h' -> Q r h') -> (forall h', undone L h R h' -> E h') ->
  xwp (h_make_merged B d s v1 h1 v2 h2) h Q E.
Proof.
  induction d as [|d IH]; intros s v1 h1 v2 h2 n L h R Q E Hl H1 H2 Em T0 HQ HE.
  - apply (level_O B HB) in Hl. subst s. cbn [make_merged h_make_merged] in *. rewrite N.ltb_irrefl in *.
    assert (n = Coll [v1; v2]) as -> by (unfold make_collision in Em; congruence).
    unfold h_make_collision. apply xwp_bind, xwp_alloc; [|intros; now apply HE, undone_refl].
    apply xwp_new with (L := L) (R := R) (ts := []); [exact T0|constructor|]. exact HQ.
  - destruct (level_S B HB d s Hl) as (Hl' & _ & Es). cbn [make_merged h_make_merged] in *. rewrite Es in *. cbn zeta in *.
    destruct (N.eqb_spec (hash_part B h1 s) (hash_part B h2 s)) as [Ep|Ep].
    + destruct (make_merged B d (s + B) v1 h1 v2 h2) as [m|] eqn:Emm; [|discriminate]. cbn [rbind] in Em.
      apply xwp_bind. eapply IH; [exact Hl'|exact H1|exact H2|exact Emm|exact T0| |exact HE].
      intros r h' M. apply xwp_try. apply xwp_bind.
      assert (Hm : shaped d m) by (eapply merged_shaped; [exact HB|exact Hl'|exact H1|exact H2|exact Emm]).
      apply xwp_alloc.
      * destruct M as (T1 & F1 & S1 & O1).
        apply xwp_new with (L := L) (R := R) (ts := [enc m]); [exact T1|constructor; [exact S1|constructor]|].
        intros r2 h2' M2. apply HQ.
        assert (n = make_inner_child (N.shiftr (hash_part B h1 s) s) m) as -> by congruence.
        eapply made_trans; [exact F1|]. exact M2.
      * intros _. eapply wp_mono; [eapply wp_undo_made; eauto|]. intros. now apply HE.
    + apply xwp_bind, xwp_alloc_inner; [|intros; now apply HE, undone_refl].
      eapply xwp_build with (cs := []); [exact T0|constructor|].
      intros r h' M. apply HQ. unfold make_inner_two in Em.
      match type of Em with Ok ?x = _ => assert (n = x) as -> by congruence end. exact M.
Qed.

(** ** Taking a node and putting it back *)
Lemma cell_in L (h : heap) x c : ~ In x L -> cell_at h x c -> cell_at (wipe L h) x c.
Proof. intros Hn Hc. unfold cell_at in *. rewrite wipe_out; [exact Hc|exact Hn]. Qed.
Lemma frame_untake a L R R' (h h' : heap) : (forall q v, In q R -> srep L h q v -> srep (a :: L) h q v) ->
  (forall r u, srep (a :: L) h' r u -> srep L h' r u) -> (forall x, In x R -> In x R') ->
  frame (a :: L) (inr R') h h' -> frame L (inr R) h h'.
Proof.
  intros H1 H2 HR (A1 & A2 & A3). split; [|split; [|exact A3]].
  - intros x Hx. apply A1. now right.
  - intros r u Hr Hu. apply H2, A2; [now apply HR|]. now apply H1.
Qed.
Lemma moved_frame a L h h1 R R' u r h' : (forall q v, In q R -> srep L h q v -> srep (a :: L) h q v) ->
  frame (a :: L) (inr R') h h1 -> (forall x, In x R -> In x R') -> moved a L h1 R u r h' ->
  frame L (inr R) h h'.
Proof.
  intros H1 (A1 & A2 & A3) HR (_ & M2 & M3 & M4 & _). split; [|split; [|lia]].
  - intros x Hx. rewrite M2 by exact Hx. apply A1. now right.
  - intros q v Hq Hv. apply M3; [exact Hq|]. apply A2; [now apply HR|]. now apply H1.
Qed.
Lemma take_inner L h R a nm dm vs cs c vp ks : st L h (a :: R) -> cell_at (wipe L h) a c -> c_rc c = 1 ->
  inner_at L h a nm dm vs cs c vp ks ->
  st (a :: L) h (ptrs vp ++ ks ++ R) /\ cell_at h a c /\ inner_at (a :: L) h a nm dm vs cs c vp ks /\
  ~ In a L /\ (forall q v, In q R -> srep L h q v -> srep (a :: L) h q v).
Proof.
  intros T0 Hc Er Hi. destruct (st_take _ _ _ _ _ T0 Hc Er) as (T1 & Hn & Hc' & D). open_inner Hi.
  rewrite (proj2 Ic) in *. rewrite <- app_assoc in *. split; [exact T1|]. split; [exact Hc'|]. split; [|split; [exact Hn|]].
  - constructor; auto.
    + destruct vp as [va|]; cbn in *; [|exact Hv]. destruct Hv as [Hv1 Hv2]. split; [exact Hv1|]. apply D; auto.
    + eapply reps_in; [|exact Hks]. intros r u Hr. apply D. apply in_or_app. right. apply in_or_app. now left.
  - intros q v Hq. apply D. apply in_or_app. right. apply in_or_app. now right.
Qed.
Lemma put_inner L h R a nm dm vs cs c vp ks : st (a :: L) h (ptrs vp ++ ks ++ R) -> cell_at h a c -> c_rc c = 1 ->
  inner_at (a :: L) h a nm dm vs cs c vp ks ->
  st L h (a :: R) /\ srep L h a (enc (Inner nm dm vs cs)) /\ (forall r u, srep (a :: L) h r u -> srep L h r u).
Proof.
  intros T0 Hc Er Hi. open_inner Hi. rewrite app_assoc, <- (proj2 Ic) in T0.
  destruct (st_put _ _ _ _ _ T0 Hc Er) as (T1 & D & S1). split; [exact T1|]. split; [|exact D].
  rewrite enc_inner, <- (vals_ok_is _ _ _ _ Hv), <- (proj1 Ic). apply S1. rewrite (proj2 Ic).
  apply Forall2_app; [now apply vals_ok_enc|exact Hks].
Qed.

(** Writing into a values block or a collision node with one reference. *)
Lemma wp_store_body L h R a b b' (Q : unit -> heap -> Prop) : st L h (a :: R) -> one L h a ->
  srep L h a (RT b []) ->
  (forall h', st L h' (a :: R) -> one L h' a -> srep L h' a (RT b' []) -> frame L (inr R) h h' -> Q tt h') ->
  wp (c <~ load a ;; store a (mkCell (c_rc c) b' (c_kids c))) h Q.
Proof.
  intros T0 O Hr HQ. destruct (one_take _ _ _ _ T0 O) as (c & Hc & E & Hcw & T1 & Hn & D).
  destruct (rep_inv _ _ _ Hr) as (c' & ts & Hc' & Hk & Ee). unfold cell_at in Hcw, Hc'. rewrite Hcw in Hc'.
  injection Hc' as <-. injection Ee as Eb Et. subst ts. inversion Hk as [Ek|]. rewrite <- Ek in *. cbn [app] in *.
  apply wp_bind. apply wp_load with (c := c); [exact Hc|]. rewrite <- Ek.
  apply wp_store_local with (S := a :: L) (R := R); [exact T1|now left|].
  intros h1 T2 W Hc1 X Len.
  destruct (st_put L h1 R a (mkCell (c_rc c) b' [])) as (T3 & D3 & S3); [exact T2|exact Hc1|exact E|].
  apply HQ; [exact T3| |apply S3; constructor|].
  - exists (mkCell (c_rc c) b' []). split; [now apply cell_in|exact E].
  - split; [|split; [|lia]].
    + intros x Hx. apply X. intros ->. auto.
    + intros r u Hi Hu. apply D3. unfold srep. rewrite W. now apply D.
Qed.
Lemma wp_store_vals L h R a vs vs' (Q : unit -> heap -> Prop) : st L h (a :: R) -> one L h a ->
  srep L h a (RT (BVals vs) []) ->
  (forall h', st L h' (a :: R) -> one L h' a -> srep L h' a (RT (BVals vs') []) -> frame L (inr R) h h' -> Q tt h') ->
  wp (store_vals a vs') h Q.
Proof. apply wp_store_body. Qed.
Lemma wp_store_coll L h R a vs vs' (Q : unit -> heap -> Prop) : st L h (a :: R) -> one L h a ->
  srep L h a (RT (BColl vs) []) ->
  (forall h', st L h' (a :: R) -> one L h' a -> srep L h' a (RT (BColl vs') []) -> frame L (inr R) h h' -> Q tt h') ->
  wp (store_coll a vs') h Q.
Proof. apply wp_store_body. Qed.
(** Dropping a values block. *)
Lemma wp_drop_vals L h R va vs n (Q : unit -> heap -> Prop) : st L h (va :: R) -> srep L h va (RT (BVals vs) []) ->
  length vs = n -> (forall h', st L h' R -> frame L (inr R) h h' -> Q tt h') ->
  wp (last <~ dec va ;; if last then delete_values n va else mret tt) h Q.
Proof.
  intros T0 Hva El HQ. apply wp_bind. apply wp_dec with (S := L) (R := R); [exact T0| |].
  - intros cv h1 Hcv Hrc T1 F1. apply wp_ret. apply HQ; [exact T1|now apply frame_all].
  - intros cv h1 Hcv Hrc Hn T1 Hcv1 X1 S1 Len.
    destruct (rep_inv _ _ _ Hva) as (cv' & ts & Hcv' & Hk & E). injection E as Eb Et.
    unfold cell_at in Hcv, Hcv'. rewrite Hcv in Hcv'. injection Hcv' as <-. subst ts.
    inversion Hk as [Ek|]. rewrite <- Ek in *. cbn [app] in *.
    unfold delete_values. apply wp_bind. apply wp_load with (c := mkCell 0 (c_body cv) []); [exact Hcv1|].
    cbn [c_body]. rewrite <- Eb. rewrite (proj2 (Nat.eqb_eq _ _) El).
    apply wp_free with (S := L) (R := R); [exact T1|]. intros h2 T2 W2 X2 Len2.
    apply HQ; [exact T2|]. split; [|split; [|lia]].
    + intros x Hx. rewrite X2 by exact Hx. apply X1. intros ->. auto.
    + intros r u Hr Hu. unfold srep. rewrite W2. now apply S1.
Qed.
Lemma xwp_drop_vals L h R va vs n E (Q : unit -> heap -> Prop) : st L h (va :: R) -> srep L h va (RT (BVals vs) []) ->
  length vs = n -> (forall h', st L h' R -> frame L (inr R) h h' -> Q tt h') ->
  xwp (last <- xm (dec va) ;;; if last : bool then xm (delete_values n va) else xret tt) h Q E.
Proof.
  intros T0 Hva El HQ.
  pose proof (wp_drop_vals _ _ _ _ _ _ _ T0 Hva El HQ) as W. intros f Hf. unfold wp, mbind, xbind, xm in *.
  destruct (dec va h) as [[[|] h1]|]; [| |easy].
  - destruct (delete_values n va h1) as [[[] h2]|]; [|easy]. auto.
  - cbn in *. auto.
Qed.
Lemma xwp_assoc {A C D} (m : X (cbody T) A) (k1 : A -> X (cbody T) C) (k2 : C -> X (cbody T) D) h Q E :
  xwp (xbind (xbind m k1) k2) h Q E -> xwp (xbind m (fun a => xbind (k1 a) k2)) h Q E.
Proof.
  intros H f Hf. specialize (H f Hf). unfold xbind in *. destruct (m f h) as [[[[a|] f'] h']|]; auto.
Qed.

(** [a] comes to own its values block alone. *)
Lemma xwp_ensure L h R a nm dm vs cs c vp ks (Q : nat -> heap -> Prop) (E : heap -> Prop) :
  st (a :: L) h (ptrs vp ++ ks ++ R) -> cell_at h a c -> c_rc c = 1 -> vs <> [] ->
  inner_at (a :: L) h a nm dm vs cs c vp ks ->
  (forall va c' h', st (a :: L) h' (va :: ks ++ R) -> one (a :: L) h' va -> cell_at h' a c' -> c_rc c' = 1 ->
     inner_at (a :: L) h' a nm dm vs cs c' (Some va) ks ->
     (forall x, In x L -> nth_error h' x = nth_error h x) ->
     (forall q v, In q (ks ++ R) -> srep (a :: L) h q v -> srep (a :: L) h' q v) -> length h <= length h' -> Q va h') ->
  (t = true -> E h) -> xwp (ensure_mutable_values ct a) h Q E.
Proof.
  intros T0 Hc Er Hn Hi HQ HE. pose proof Hi as Hi0. open_inner Hi. unfold ensure_mutable_values.
  assert (Hna : ~ In a L) by (destruct T0 as (_ & _ & N); now inversion N).
  apply xwp_bind, xwp_m. eapply wp_load_inner; [exact Hc|exact Ic|exact Elk|].
  destruct vp as [va|]; [|cbn in Hv; easy]. cbn [ptrs app] in T0. cbn in Hv. destruct Hv as [_ Hva].
  apply xwp_bind, xwp_m. apply wp_unique with (S := a :: L) (R := ks ++ R); [exact T0| |]; intros cv Hcv Hrc.
  - apply xwp_ret. eapply HQ; eauto. exists cv. auto.
  - apply xwp_bind, xwp_m. eapply wp_load_vals; [split; [exact Hn|exact Hva]|exact Hn|exact Elv|].
    apply xwp_bind, xwp_alloc; [|exact HE]. apply xwp_bind, xwp_copies; [|exact HE].
    apply xwp_bind, xwp_m. apply wp_new1 with (L := a :: L) (R := va :: ks ++ R); [exact T0|].
    intros nx h1 T1 F1 S1 O1. specialize (S1 [] ltac:(constructor)).
    assert (Hc1 : cell_at h1 a c) by (eapply frame_cell; [exact F1|now left|exact Hc]).
    apply xwp_bind, xwp_m. apply wp_load with (c := c); [exact Hc1|].
    apply xwp_bind, xwp_m. apply wp_store_local with (S := a :: L) (R := nx :: va :: ks ++ R); [exact T1|now left|].
    intros h2 T2 W2 Hc2 X2 Len2.
    assert (O2 : one (a :: L) h2 nx) by (unfold one in *; rewrite W2; exact O1).
    assert (S2 : srep (a :: L) h2 nx (RT (BVals vs) [])) by (unfold srep in *; rewrite W2; exact S1).
    assert (V2 : srep (a :: L) h2 va (RT (BVals vs) [])).
    { unfold srep. rewrite W2. eapply frame_rep; [exact F1|exact I|exact Hva]. }
    destruct (one_take _ _ _ _ T2 O2) as (cn & Hcn & En & Hcnw & T3 & Hnn & D3).
    destruct (rep_inv _ _ _ S2) as (cn' & ts & Hcn' & Hkn & Een). unfold cell_at in Hcnw, Hcn'. rewrite Hcnw in Hcn'.
    injection Hcn' as <-. injection Een as Ebn Etn. subst ts. inversion Hkn as [Ekn|]. rewrite <- Ekn in *. cbn [app] in *.
    apply xwp_assoc, xwp_bind. eapply xwp_drop_vals with (L := nx :: a :: L) (R := ks ++ R); [exact T3| |exact Elv|].
    { apply D3; [now left|exact V2]. }
    intros h3 T4 F4. apply xwp_ret.
    assert (Hcn4 : cell_at h3 nx cn) by (eapply frame_cell; [exact F4|now left|exact Hcn]).
    destruct (st_put (a :: L) h3 (ks ++ R) nx cn) as (T5 & D5 & S5); [rewrite <- Ekn; exact T4|exact Hcn4|exact En|].
    assert (Rp : forall q v, In q (ks ++ R) -> srep (a :: L) h q v -> srep (a :: L) h3 q v).
    { intros q v Hq Hv. apply D5. eapply frame_rep; [exact F4|exact Hq|]. apply D3; [now right|].
      unfold srep. rewrite W2. eapply frame_rep; [exact F1|exact I|exact Hv]. }
    eapply HQ with (c' := mkCell (c_rc c) (c_body c) (nx :: ks)).
    + exact T5.
    + exists cn. split; [now apply cell_in|exact En].
    + eapply frame_cell; [exact F4|right; now left|exact Hc2].
    + exact Er.
    + constructor; auto.
      * split; [exact (proj1 Ic)|reflexivity].
      * split; [exact Hn|]. rewrite Ebn. apply S5. rewrite <- Ekn. constructor.
      * eapply reps_in; [|exact Hks]. intros r u Hr. apply Rp. apply in_or_app. now left.
    + intros x Hx. rewrite (frame_in _ _ _ _ _ F4) by (right; now right).
      rewrite X2 by (intros ->; auto). eapply frame_tail; eauto.
    + exact Rp.
    + destruct F1 as (_ & _ & ?), F4 as (_ & _ & ?). lia.
Qed.
Lemma wp_store_child L h R0 a nm dm c vp ks o child (Q : unit -> heap -> Prop) :
  st (a :: L) h R0 -> cell_at h a c -> inner_cell c nm dm vp ks -> length ks = popcount nm ->
  (forall h', st (a :: L) h' R0 -> cell_at h' a (mkCell (c_rc c) (c_body c) (ptrs vp ++ update_at o child ks)) ->
     frame L (fun _ => False) h h' -> wipe (a :: L) h' = wipe (a :: L) h -> Q tt h') ->
  wp (store_child a o child) h Q.
Proof.
  intros T0 Hc Ic Elk HQ. assert (Hna : ~ In a L) by (destruct T0 as (_ & _ & N); now inversion N).
  unfold store_child. apply wp_bind. eapply wp_load_inner; [exact Hc|exact Ic|exact Elk|].
  apply wp_bind. apply wp_load with (c := c); [exact Hc|].
  apply wp_store_local with (S := a :: L) (R := R0); [exact T0|now left|]. intros h' T1 W Hc1 X Len.
  apply HQ; [exact T1|exact Hc1| |exact W]. split; [|split; [easy|lia]].
  intros x Hx. apply X. intros ->. auto.
Qed.
Lemma upd_split {A} o (x : A) l : o < length l -> update_at o x l = firstn o l ++ x :: skipn (S o) l.
Proof. revert o. induction l as [|y l IH]; intros [|o] H; cbn in *; try lia; f_equal. apply IH. lia. Qed.
Lemma F2_rem {A D} (P : A -> D -> Prop) o l m : Forall2 P l m ->
  Forall2 P (firstn o l ++ skipn (S o) l) (firstn o m ++ skipn (S o) m).
Proof. intros H. apply Forall2_app; [now apply F2_firstn|now apply F2_skipn]. Qed.
Lemma F2_put {A D} (P : A -> D -> Prop) o l m x y : length l = length m -> o < length m ->
  Forall2 P (firstn o l ++ skipn (S o) l) (firstn o m ++ skipn (S o) m) -> P x y ->
  Forall2 P (update_at o x l) (update_at o y m).
Proof.
  revert l m. induction o as [|o IH]; intros [|a l] [|b m] El Ho H Hx; cbn in *; try lia.
  - constructor; assumption.
  - inversion H; subst. constructor; [assumption|]. apply IH; auto; lia.
Qed.
(** Replacing the child at [o], which may be gone, and putting the node back. *)
Lemma put_child L h R a nm dm vs cs c vp ks o child n' : o < length cs ->
  st (a :: L) h (child :: ptrs vp ++ (firstn o ks ++ skipn (S o) ks) ++ R) ->
  cell_at h a (mkCell (c_rc c) (c_body c) (ptrs vp ++ update_at o child ks)) -> c_rc c = 1 ->
  inner_cell c nm dm vp ks -> length ks = popcount nm -> length ks = length cs -> length vs = popcount dm ->
  vals_ok (a :: L) h vp vs ->
  Forall2 (srep (a :: L) h) (firstn o ks ++ skipn (S o) ks) (map enc (firstn o cs ++ skipn (S o) cs)) ->
  srep (a :: L) h child (enc n') ->
  st L h (a :: R) /\ srep L h a (enc (Inner nm dm vs (update_at o n' cs))) /\
  (forall r u, srep (a :: L) h r u -> srep L h r u).
Proof.
  intros Ho T0 Hc Er Ic Elk Elc Elv Hv Hks Hch.
  eapply put_inner; [|exact Hc|exact Er|].
  - instantiate (1 := update_at o child ks). instantiate (1 := vp). eapply st_eqv; [|exact T0]. intros x.
    cbn [occ]. rewrite !occ_app, occ_upd by lia. rewrite occ_app. lia.
  - constructor; auto.
    + split; [exact (proj1 Ic)|reflexivity].
    + rewrite map_upd. apply F2_put; [now rewrite map_length|now rewrite map_length| |exact Hch].
      rewrite map_app, <- firstn_map, <- skipn_map in Hks. exact Hks.
    + now rewrite length_update_at.
Qed.

Lemma xwp_move_coll L h R a vs c (b : cbody T) (Q : nat -> heap -> Prop) (E : heap -> Prop) :
  st (a :: L) h R -> cell_at h a c -> c_body c = BColl vs ->
  (forall r h', moved a L h R (RT b []) r h' -> Q r h') -> (t = true -> E h) ->
  xwp (_ <- xalloc ;;; r <- xm (new b []) ;;; _ <- xm (delete_collision a) ;;; xret r) h Q E.
Proof.
  intros T0 Hc Eb HQ HE. apply xwp_bind, xwp_alloc; [|exact HE]. apply xwp_bind, xwp_m.
  apply wp_new1 with (L := a :: L) (R := R); [exact T0|]. intros r h1 T1 F1 S1 _. specialize (S1 [] ltac:(constructor)).
  apply xwp_bind, xwp_m. unfold delete_collision. apply wp_bind.
  eapply wp_load_coll; [eapply frame_cell; [exact F1|now left|exact Hc]|exact Eb|].
  apply wp_free with (S := L) (R := r :: R); [exact T1|]. intros h2 T2 W2 X2 Len2.
  apply xwp_ret, HQ. split; [exact T2|]. split; [|split; [|split]].
  - intros x Hx. rewrite X2 by exact Hx. eapply frame_tail; eauto.
  - intros q v Hq Hv. unfold srep. rewrite W2. eapply frame_rep; [exact F1|exact I|exact Hv].
  - destruct F1 as (_ & _ & ?). lia.
  - unfold srep. rewrite W2. exact S1.
Qed.

Section Upd.
Variable k : K.
Variable found : T -> T.
Variable absent : option T.
Variable calls : bool.
Notation upd := (upd B key khash keq k found absent).
Notation do_upd_h := (do_upd_h B key khash keq ct k found absent calls).
(** No undefined behaviour when the copy of a collision node throws. *)
Definition safe_throw (n : nd) : Prop := t = false \/ ct = false \/ nocoll n.
Lemma safe_kid nm dm vs cs o c : safe_throw (Inner nm dm vs cs) -> rnth cs o = Ok c -> safe_throw c.
Proof.
  intros [H|[H|H]] E; [now left|right; now left|]. right. right. eapply nocoll_kid; [exact H|].
  apply rnth_nth in E. eapply nth_error_In; exact E.
Qed.

Lemma xwp_coll_replace L h R a c vs pos v (Q : nat -> heap -> Prop) (E : heap -> Prop) :
  safe_throw (Coll vs) -> cell_at h a c -> c_body c = BColl vs -> st L h R ->
  (forall r h', made L h R (enc (copy_collision_replace vs pos v)) r h' -> Q r h') ->
  (t = true -> E h) -> xwp (h_copy_collision_replace ct a pos v) h Q E.
Proof.
  intros Hs Hc Eb T0 HQ HE. unfold h_copy_collision_replace.
  apply xwp_bind, xwp_m. eapply wp_load_coll; [exact Hc|exact Eb|].
  apply xwp_bind, xwp_alloc; [|exact HE]. apply xwp_bind, xwp_copies; [|exact HE].
  apply xwp_bind, xwp_try.
  assert (D : xwp (xm (new (BColl (v :: firstn pos vs ++ skipn (S pos) vs)) [])) h Q E).
  { apply xwp_new with (L := L) (R := R) (ts := []); [exact T0|constructor|exact HQ]. }
  destruct Hs as [Ht|[Hct|Hno]]; [| |easy].
  - apply xwp_copies; [exact D|congruence].
  - unfold xcopies. rewrite Hct. apply xwp_ret. exact D.
Qed.
Lemma xwp_coll_insert L h R a c vs v (Q : nat -> heap -> Prop) (E : heap -> Prop) :
  cell_at h a c -> c_body c = BColl vs -> st L h R ->
  (forall r h', made L h R (enc (copy_collision_insert vs v)) r h' -> Q r h') ->
  (t = true -> E h) -> xwp (h_copy_collision_insert ct a v) h Q E.
Proof.
  intros Hc Eb T0 HQ HE. unfold h_copy_collision_insert.
  apply xwp_bind, xwp_m. eapply wp_load_coll; [exact Hc|exact Eb|].
  apply xwp_bind, xwp_alloc; [|exact HE]. apply xwp_bind, xwp_copies; [|exact HE].
  apply xwp_new with (L := L) (R := R) (ts := []); [exact T0|constructor|exact HQ].
Qed.
Lemma xwp_coll_remove L h R a c vs pos (Q : nat -> heap -> Prop) (E : heap -> Prop) :
  cell_at h a c -> c_body c = BColl vs -> st L h R ->
  (forall r h', made L h R (enc (copy_collision_remove vs pos)) r h' -> Q r h') ->
  (t = true -> E h) -> xwp (h_copy_collision_remove ct a pos) h Q E.
Proof.
  intros Hc Eb T0 HQ HE. unfold h_copy_collision_remove.
  apply xwp_bind, xwp_m. eapply wp_load_coll; [exact Hc|exact Eb|].
  apply xwp_bind, xwp_alloc; [|exact HE]. apply xwp_bind, xwp_copies; [|exact HE].
  apply xwp_new with (L := L) (R := R) (ts := []); [exact T0|constructor|exact HQ].
Qed.

Definition upd_post (L : list nat) (hp : heap) (R : list nat) (r : option (nd * bool))
  (o : option (nat * bool)) (hp' : heap) : Prop :=
  match r, o with
  | None, None => hp' = hp
  | Some (n', b), Some (a', b') => b' = b /\ made L hp R (enc n') a' hp'
  | _, _ => False
  end.

Ltac inj E :=
  cbn [rbind] in E;
  match type of E with
  | Ok (Some (?x, ?y)) = Ok ?r => assert (r = Some (x, y)) as -> by congruence; clear E
  | Ok None = Ok ?r => assert (r = None) as -> by congruence; clear E
  | Ok ?x = Ok ?u => assert (u = x) as -> by congruence; clear E
  end.

Lemma do_upd_h_ok : forall d n a h s L hp R r, level d s -> (h < 2 ^ 64)%N -> shaped d n -> safe_throw n ->
  st L hp R -> srep L hp a (enc n) -> upd d n h s = Ok r ->
  xwp (do_upd_h d a h s) hp (upd_post L hp R r) (undone L hp R).
Proof.
  induction d as [|d IH]; intros n a h s L hp R r Hl Hh Hsh Hsafe T0 Hr Eu;
    pose proof (fun _ : t = true => undone_refl L hp R T0) as HE.
  - apply (level_O B HB) in Hl. subst s. destruct n as [|vs]; [easy|].
    destruct (srep_coll _ _ _ _ Hr) as (c & Hc & Eb & Ek). apply cell_out in Hc.
    cbn [ChampShape.upd ChampHeap.do_upd_h] in *. rewrite N.eqb_refl in *.
    apply xwp_bind, xwp_m. eapply wp_load_coll; [exact Hc|exact Eb|].
    apply xwp_bind, xwp_throw; [|exact HE].
    destruct (find_index (fun w => teqk key keq w k) vs) as [pos|].
    + destruct (rnth vs pos) as [w|] eqn:Ew; [|discriminate]. inj Eu.
      apply xwp_bind, xwp_m. eapply wp_lift; [reflexivity|].
      apply xwp_bind, xwp_call; [|exact HE]. apply xwp_bind.
      eapply xwp_coll_replace; [exact Hsafe|exact Hc|exact Eb|exact T0| |exact HE].
      intros x h' M. apply xwp_ret. split; [reflexivity|exact M].
    + destruct absent as [v|].
      * inj Eu. apply xwp_bind, xwp_call; [|exact HE]. apply xwp_bind.
        eapply xwp_coll_insert; [exact Hc|exact Eb|exact T0| |exact HE].
        intros x h' M. apply xwp_ret. split; [reflexivity|exact M].
      * inj Eu. now apply xwp_ret.
  - destruct (level_S B HB d s Hl) as (Hl' & Es & _). destruct n as [nm dm vs cs|]; [|easy].
    destruct (inner_view _ _ _ _ _ _ _ _ Hsh Hr) as (c & vp & ks & Hc & Hi).
    cbn [ChampShape.upd ChampHeap.do_upd_h] in *. rewrite Es in *. cbn zeta in *.
    apply xwp_bind, xwp_m.
    eapply wp_load_inner; [exact (cell_out _ _ _ _ Hc)|exact (ia_ic _ _ _ _ _ _ _ _ _ _ Hi)|exact (ia_lk _ _ _ _ _ _ _ _ _ _ Hi)|].
    cbn beta iota.
    set (bit := N.shiftl 1 (hash_idx B h s)) in *.
    destruct (has nm bit) eqn:En.
    + destruct (rnth cs (count_below nm bit)) as [n1|] eqn:Ec; [|discriminate]. cbn [rbind] in Eu.
      destruct (inner_kid _ _ _ _ _ _ _ _ _ _ _ _ Hi Ec) as (x & Ex & Hx).
      apply xwp_bind, xwp_m. eapply wp_lift; [exact Ex|]. apply xwp_bind.
      assert (Hs1 : shaped d n1).
      { destruct Hsh as (_ & _ & _ & Hf). rewrite Forall_forall in Hf. apply Hf.
        apply rnth_nth in Ec. eapply nth_error_In; exact Ec. }
      destruct (upd d n1 h (s + B)) as [r1|] eqn:E1; [|discriminate]. cbn [rbind] in Eu.
      eapply xwp_mono; [eapply IH; [exact Hl'|exact Hh|exact Hs1|eapply safe_kid; eauto|exact T0|exact Hx|exact E1]| |auto].
      intros o h1 Ho. destruct r1 as [[n1' b]|], o as [[x' b']|]; cbn [upd_post] in Ho; try easy.
      * destruct Ho as [-> M1]. inj Eu. apply xwp_bind, xwp_try.
        assert (Hs1' : shaped d n1') by (eapply upd_shaped; [exact HB|exact Hhash|exact Hl'|exact Hh|exact Hs1|exact E1]).
        pose proof M1 as (T1 & F1 & S1 & O1).
        destruct (inner_view d L h1 a nm dm vs cs) as (c1 & vp1 & ks1 & Hc1 & Hi1);
          [exact Hsh|eapply frame_rep; [exact F1|exact I|exact Hr]|].
        eapply xwp_copy_replace; [exact Hc1|exact Hi1| |exact T1| |exact S1|].
        { intros _. eapply wp_undo_made; [exact Hl'|exact Hs1'|exact M1]. }
        { apply rnth_lt in Ec. exact Ec. }
        intros x2 h2 M2. apply xwp_ret. split; [reflexivity|]. eapply made_trans; [exact F1|exact M2].
      * subst h1. inj Eu. apply xwp_ret. reflexivity.
    + destruct (has dm bit) eqn:Ed.
      * destruct (rnth vs (count_below dm bit)) as [w|] eqn:Ew; [|discriminate]. cbn [rbind] in Eu.
        assert (Hn : vs <> []) by (intros ->; apply rnth_lt in Ew; cbn in Ew; lia).
        apply xwp_bind, xwp_m. eapply wp_load_vals; [exact (ia_v _ _ _ _ _ _ _ _ _ _ Hi)|exact Hn|exact (ia_lv _ _ _ _ _ _ _ _ _ _ Hi)|].
        apply xwp_bind, xwp_m. eapply wp_lift; [exact Ew|].
        apply xwp_bind, xwp_throw; [|exact HE]. destruct (teqk key keq w k).
        { inj Eu. apply xwp_bind, xwp_call; [|exact HE]. apply xwp_bind.
          eapply xwp_copy_replace_value; [exact Hc|exact Hi|exact HE|exact T0|exact Hn|].
          intros x h' M. apply xwp_ret. split; [reflexivity|exact M]. }
        destruct absent as [v|]; [|inj Eu; now apply xwp_ret].
        destruct (make_merged B d (s + B) v h w (thash key khash w)) as [m|] eqn:Em; [|discriminate]. inj Eu.
        apply xwp_bind, xwp_call; [|exact HE]. apply xwp_bind, xwp_copies; [|exact HE].
        apply xwp_bind, xwp_throw; [|exact HE]. apply xwp_bind.
        assert (Hw : (thash key khash w < 2 ^ 64)%N) by apply Hhash.
        eapply xwp_merged; [exact Hl'|exact Hh|exact Hw|exact Em|exact T0| |auto].
        intros x h1 M1. apply xwp_bind, xwp_try.
        assert (Hsm : shaped d m) by (eapply merged_shaped; [exact HB|exact Hl'|exact Hh|exact Hw|exact Em]).
        pose proof M1 as (T1 & F1 & S1 & O1).
        destruct (inner_view d L h1 a nm dm vs cs) as (c1 & vp1 & ks1 & Hc1 & Hi1);
          [exact Hsh|eapply frame_rep; [exact F1|exact I|exact Hr]|].
        eapply xwp_copy_merged; [exact Hc1|exact Hi1| |exact T1|exact Hn|exact S1|].
        { intros _. eapply wp_undo_made; [exact Hl'|exact Hsm|exact M1]. }
        intros x2 h2 M2. apply xwp_ret. split; [reflexivity|]. eapply made_trans; [exact F1|exact M2].
      * destruct absent as [v|]; [|inj Eu; now apply xwp_ret]. inj Eu.
        apply xwp_bind, xwp_call; [|exact HE]. apply xwp_bind.
        eapply xwp_copy_insert; [exact Hc|exact Hi|exact HE|exact T0|].
        intros x h' M. apply xwp_ret. split; [reflexivity|exact M].
Qed.
(** ** In place *)
Notation do_upd_mut := (do_upd_mut B key khash keq ct gone k found absent calls).
(** The node [a] was used up: the result stands for [n'] up to the order in collision nodes. *)
Definition reused (L : list nat) (h : heap) (R : list nat) (n' : nd) (a' : nat) (h' : heap) : Prop :=
  exists n'', nsim n' n'' /\ st L h' (a' :: R) /\ srep L h' a' (enc n'') /\ frame L (inr R) h h'.
Definition mut_post (L : list nat) (h : heap) (a : nat) (R : list nat) (r : option (nd * bool))
  (o : option (nat * bool * bool)) (h' : heap) : Prop :=
  match r, o with
  | None, None => h' = h
  | Some (n', b), Some (a', b', m) => b' = b /\
      if m : bool then reused L h R n' a' h' else made L h (a :: R) (enc n') a' h'
  | _, _ => False
  end.
(** After an exception [a] stands for some tree. *)
Definition spoilt (d : nat) (L : list nat) (h : heap) (a : nat) (R : list nat) (h' : heap) : Prop :=
  exists n'', shaped d n'' /\ st L h' (a :: R) /\ srep L h' a (enc n'') /\ frame L (inr R) h h'.
Lemma undone_spoilt d L h a R h' n : shaped d n -> srep L h a (enc n) -> undone L h (a :: R) h' -> spoilt d L h a R h'.
Proof.
  intros Hs Hr (T1 & F1). exists n. split; [exact Hs|]. split; [exact T1|].
  split; [eapply frame_rep; [exact F1|now left|exact Hr]|]. eapply frame_weak; [|exact F1]. intros x Hx. now right.
Qed.

Lemma replace_perm (vs : list T) pos w x : rnth vs pos = Ok w ->
  Permutation (x :: firstn pos vs ++ skipn (S pos) vs) (update_at pos x vs).
Proof.
  intros E. apply rnth_lt in E. rewrite upd_split by exact E. apply Permutation_middle.
Qed.
Lemma firstn_upd {A} o (x : A) l : firstn o (update_at o x l) = firstn o l.
Proof. revert o. induction l; intros [|o]; cbn; f_equal; auto. Qed.
Lemma skipn_upd {A} o (x : A) l : skipn (S o) (update_at o x l) = skipn (S o) l.
Proof. revert o. induction l as [|y l IH]; intros [|o]; cbn; auto. apply IH. Qed.

Lemma do_upd_mut_ok : forall d n a h s L hp R r, level d s -> (h < 2 ^ 64)%N -> shaped d n -> safe_throw n ->
  st L hp (a :: R) -> srep L hp a (enc n) -> upd d n h s = Ok r ->
  xwp (do_upd_mut d a h s) hp (mut_post L hp a R r) (spoilt d L hp a R).
Proof.
  induction d as [|d IH]; intros n a h s L hp R r Hl Hh Hsh Hsafe T0 Hr Eu.
  - pose proof (fun _ : t = true => undone_spoilt 0 L hp a R hp n Hsh Hr (undone_refl L hp (a :: R) T0)) as HE.
    apply (level_O B HB) in Hl. subst s. destruct n as [|vs]; [easy|].
    destruct (srep_coll _ _ _ _ Hr) as (c & Hcw & Eb & Ek). pose proof (cell_out _ _ _ _ Hcw) as Hc.
    cbn [ChampShape.upd ChampHeap.do_upd_mut] in *. rewrite N.eqb_refl in *.
    apply xwp_bind, xwp_m. eapply wp_load_coll; [exact Hc|exact Eb|].
    apply xwp_bind, xwp_throw; [|exact HE].
    destruct (find_index (fun w => teqk key keq w k) vs) as [pos|].
    + destruct (rnth vs pos) as [w|] eqn:Ew; [|discriminate]. inj Eu.
      apply xwp_bind, xwp_m. eapply wp_lift; [reflexivity|].
      apply xwp_bind, xwp_m. apply wp_unique with (S := L) (R := R); [exact T0| |]; intros c' Hc' Hrc.
      * assert (O : one L hp a) by (exists c'; auto).
        apply xwp_bind, xwp_m. eapply wp_store_coll; [exact T0|exact O|exact Hr|].
        intros h1 T1 O1 S1 F1. apply xwp_bind, xwp_call.
        { apply xwp_bind, xwp_m. eapply wp_store_coll; [exact T1|exact O1|exact S1|].
          intros h2 T2 O2 S2 F2. apply xwp_ret. split; [reflexivity|].
          exists (Coll (update_at pos (found w) vs)). split; [constructor; eapply replace_perm; exact Ew|].
          split; [exact T2|]. split; [exact S2|]. eapply frame_trans; eauto. }
        intros _. exists (Coll (update_at pos (gone w) vs)). split; [exact I|]. auto.
      * apply xwp_bind, xwp_call; [|exact HE]. apply xwp_bind.
        eapply xwp_coll_replace; [exact Hsafe|exact Hc|exact Eb|exact T0| |exact HE].
        intros x h' M. apply xwp_ret. split; [reflexivity|exact M].
    + destruct absent as [v|]; [|inj Eu; now apply xwp_ret].
      inj Eu. apply xwp_bind, xwp_call; [|exact HE].
      apply xwp_bind, xwp_m. apply wp_unique with (S := L) (R := R); [exact T0| |]; intros c' Hc' Hrc.
      * apply xwp_bind. unfold h_move_collision_insert. apply xwp_bind, xwp_m. eapply wp_load_coll; [exact Hc|exact Eb|].
        destruct (st_take _ _ _ _ _ T0 Hc' Hrc) as (T1 & Hn & _ & D). unfold cell_at in Hc', Hcw. rewrite Hc' in Hcw.
        injection Hcw as ->. rewrite Ek in *. cbn [app] in *.
        eapply xwp_move_coll; [exact T1|exact Hc|exact Eb| |exact HE].
        intros r h' M. apply xwp_ret. split; [reflexivity|]. exists (copy_collision_insert vs v).
        split; [apply nsim_refl|]. pose proof M as (M1 & _ & _ & _ & M5). split; [exact M1|]. split; [exact M5|].
        eapply moved_frame with (R' := R); [exact D|apply frame_refl| |exact M]. auto.
      * apply xwp_bind. eapply xwp_coll_insert; [exact Hc|exact Eb|exact T0| |exact HE].
        intros x h' M. apply xwp_ret. split; [reflexivity|exact M].
  - pose proof (fun _ : t = true => undone_spoilt (S d) L hp a R hp n Hsh Hr (undone_refl L hp (a :: R) T0)) as HE.
    destruct (level_S B HB d s Hl) as (Hl' & Es & _). destruct n as [nm dm vs cs|]; [|easy].
    destruct (inner_view _ _ _ _ _ _ _ _ Hsh Hr) as (c & vp & ks & Hc & Hi).
    cbn [ChampShape.upd ChampHeap.do_upd_mut] in *. rewrite Es in *. cbn zeta in *.
    apply xwp_bind, xwp_m.
    eapply wp_load_inner; [exact (cell_out _ _ _ _ Hc)|exact (ia_ic _ _ _ _ _ _ _ _ _ _ Hi)|exact (ia_lk _ _ _ _ _ _ _ _ _ _ Hi)|].
    cbn beta iota.
    set (bit := N.shiftl 1 (hash_idx B h s)) in *.
    destruct (has nm bit) eqn:En.
    + destruct (rnth cs (count_below nm bit)) as [n1|] eqn:Ec; [|discriminate]. cbn [rbind] in Eu.
      set (o := count_below nm bit) in *.
      destruct (inner_kid _ _ _ _ _ _ _ _ _ _ _ _ Hi Ec) as (x & Ex & Hx).
      apply xwp_bind, xwp_m. eapply wp_lift; [exact Ex|].
      assert (Hs1 : shaped d n1).
      { destruct Hsh as (_ & _ & _ & Hf). rewrite Forall_forall in Hf. apply Hf.
        apply rnth_nth in Ec. eapply nth_error_In; exact Ec. }
      assert (Hsf1 : safe_throw n1) by (eapply safe_kid; eauto).
      destruct (upd d n1 h (s + B)) as [r1|] eqn:E1; [|discriminate]. cbn [rbind] in Eu.
      assert (Hs1' : forall n1' b, r1 = Some (n1', b) -> shaped d n1').
      { intros n1' b ->. eapply upd_shaped; [exact HB|exact Hhash|exact Hl'|exact Hh|exact Hs1|exact E1]. }
      apply xwp_bind, xwp_m. apply wp_unique with (S := L) (R := R); [exact T0| |]; intros c' Hc' Hrc.
      * (* [a] is held *)
        unfold cell_at in Hc', Hc. rewrite Hc' in Hc. injection Hc as ->.
        destruct (take_inner _ _ _ _ _ _ _ _ _ _ _ T0 Hc' Hrc Hi) as (T1 & Hca & Hi1 & Hna & D).
        pose proof (inner_lc _ _ _ _ _ _ _ _ _ _ Hi1) as Elc.
        destruct (inner_kid _ _ _ _ _ _ _ _ _ _ _ _ Hi1 Ec) as (x' & Ex' & Hx1). rewrite Ex in Ex'. injection Ex' as <-.
        set (R1 := ptrs vp ++ (firstn o ks ++ skipn (S o) ks) ++ R) in *.
        assert (T1' : st (a :: L) hp (x :: R1)).
        { eapply st_eqv; [|exact T1]. intros y. subst R1. cbn [occ]. rewrite !occ_app.
          apply rnth_nth in Ex. pose proof (occ_rem y x ks o Ex) as Hy. rewrite occ_app in Hy. lia. }
        assert (Ho : o < length cs) by (apply rnth_lt in Ec; exact Ec).
        destruct Hi1 as [Ic Hv Hks Elk Elv].
        assert (HP : forall h1, frame (a :: L) (inr R1) hp h1 -> cell_at h1 a c /\ vals_ok (a :: L) h1 vp vs /\
                  Forall2 (srep (a :: L) h1) (firstn o ks ++ skipn (S o) ks) (map enc (firstn o cs ++ skipn (S o) cs))).
        { intros h1 F1. split; [eapply frame_cell; [exact F1|now left|exact Hca]|]. split.
          - eapply vals_ok_frame; [exact F1| |exact Hv]. intros y Hy. apply in_or_app. now left.
          - eapply frame_reps; [exact F1| |].
            + intros y Hy. apply in_or_app. right. apply in_or_app. now left.
            + rewrite map_app, <- firstn_map, <- skipn_map. now apply F2_rem. }
        assert (HF : forall h1 h2, frame (a :: L) (inr R1) hp h1 -> frame L (fun _ => False) h1 h2 ->
                  (forall r u, In r R -> srep (a :: L) h1 r u -> srep L h2 r u) -> frame L (inr R) hp h2).
        { intros h1 h2 (A1 & A2 & A3) (B1 & _ & B3) B2. split; [|split; [|lia]].
          - intros y Hy. rewrite B1 by exact Hy. apply A1. now right.
          - intros q u Hq Hu. apply B2; [exact Hq|]. apply A2; [|now apply D].
            apply in_or_app. right. apply in_or_app. now right. }
        apply xwp_bind. eapply xwp_mono; [eapply IH; [exact Hl'|exact Hh|exact Hs1|exact Hsf1|exact T1'|exact Hx1|exact E1]| |].
        -- intros ov h1 Ho1. destruct r1 as [[n1' b]|], ov as [[[x' b'] m]|]; cbn [mut_post] in Ho1; try easy.
           ++ destruct Ho1 as [-> Hm]. inj Eu. specialize (Hs1' _ _ eq_refl).
              assert (exists n'', nsim n1' n'' /\ srep (a :: L) h1 x' (enc n'') /\ frame (a :: L) (inr R1) hp h1 /\
                  st (a :: L) h1 (x' :: (if m then [] else [x]) ++ R1) /\ (m = false -> srep (a :: L) h1 x (enc n1)))
                as (n'' & Hsim & Sx & F1 & T2 & Sx0).
              { destruct m.
                - destruct Hm as (n'' & H1 & H2 & H3 & H4). exists n''. split; [exact H1|]. split; [exact H3|]. split; [exact H4|]. split; [exact H2|discriminate].
                - destruct Hm as (H1 & H2 & H3 & H4). exists n1'. split; [apply nsim_refl|]. split; [exact H3|].
                  split; [now apply frame_all|]. split; [exact H1|]. intros _. eapply frame_rep; [exact H2|exact I|exact Hx1]. }
              destruct (HP h1 F1) as (Hc1 & Hv1 & Hk1).
              apply xwp_bind, xwp_m. eapply wp_store_child; [exact T2|exact Hc1|exact Ic|exact Elk|].
              intros h2 T3 Hc2 F2 W2. apply xwp_bind.
              assert (Fin : forall h3, st (a :: L) h3 (x' :: R1) -> frame (a :: L) (inr (x' :: R1)) h2 h3 ->
                  xwp (xret (Some (a, b, true))) h3 (mut_post L hp a R (Some (copy_inner_replace nm dm vs cs o n1', b))) (spoilt (S d) L hp a R)).
              { intros h3 T4 F3. apply xwp_ret. split; [reflexivity|].
                assert (Rp : forall q u, In q (x' :: R1) -> srep (a :: L) h1 q u -> srep (a :: L) h3 q u).
                { intros q u Hq Hu. eapply frame_rep; [exact F3|exact Hq|]. unfold srep. rewrite W2. exact Hu. }
                destruct (put_child L h3 R a nm dm vs cs c vp ks o x' n'') as (T5 & S5 & D5); auto.
                - eapply frame_cell; [exact F3|now left|exact Hc2].
                - destruct vp as [va|]; cbn in *; [|exact Hv1]. destruct Hv1 as [Hv2 Hv3]. split; [exact Hv2|].
                  apply Rp; [|exact Hv3]. right. now left.
                - eapply reps_in; [|exact Hk1]. intros q u Hq. apply Rp. right. apply in_or_app. right.
                  apply in_or_app. now left.
                - apply Rp; [now left|exact Sx].
                - exists (Inner nm dm vs (update_at o n'' cs)). split; [constructor; now apply nsims_update|].
                  split; [exact T5|]. split; [exact S5|]. eapply HF; [exact F1| |].
                  + eapply frame_trans; [exact F2|]. split; [|split; [easy|apply F3]].
                    intros y Hy. eapply frame_in; [exact F3|now right].
                  + intros q u Hq Hu. apply D5, Rp; [|exact Hu]. right. apply in_or_app. right. apply in_or_app. now right. }
              destruct m.
              ** apply xwp_ret. apply Fin; [exact T3|apply frame_refl].
              ** apply xwp_m. cbn [app] in T3.
                 eapply wp_drop_shift with (R := x' :: R1); [exact Hl'|exact Hs1| | |].
                 { eapply st_eqv; [|exact T3]. intros y. cbn [occ]. lia. }
                 { unfold srep. rewrite W2. now apply Sx0. }
                 intros h3 T4 F3. apply Fin; assumption.
           ++ subst h1. inj Eu. apply xwp_ret. reflexivity.
        -- intros h1 (n'' & Hsn & T2 & S2 & F1). destruct (HP h1 F1) as (Hc1 & Hv1 & Hk1).
           destruct (put_child L h1 R a nm dm vs cs c vp ks o x n'') as (T5 & S5 & D5); auto.
           { replace (update_at o x ks) with ks; [rewrite <- (proj2 Ic); destruct c; exact Hc1|].
             apply rnth_nth in Ex. clear - Ex. revert Ex. generalize o. induction ks as [|y l IHl]; intros [|i] E; cbn in *; try discriminate.
             - now injection E as ->.
             - f_equal. now apply IHl. }
           exists (Inner nm dm vs (update_at o n'' cs)). split.
           { destruct Hsh as (H1 & H2 & H3 & H4). cbn [shaped]. rewrite length_update_at. repeat split; auto.
             apply Forall_upd; auto. }
           split; [exact T5|]. split; [exact S5|]. eapply HF; [exact F1|split; [auto|split; [easy|lia]]|].
           intros q u _. apply D5.
      * (* [a] is shared *)
        apply xwp_bind.
        eapply xwp_mono; [eapply do_upd_h_ok; [exact Hl'|exact Hh|exact Hs1|exact Hsf1|exact T0|exact Hx|exact E1]| |].
        2:{ intros h' U. eapply undone_spoilt; [exact Hsh|exact Hr|exact U]. }
        intros ov h1 Ho. destruct r1 as [[n1' b]|], ov as [[x' b']|]; cbn [upd_post] in Ho; try easy.
        -- destruct Ho as [-> M1]. inj Eu. specialize (Hs1' _ _ eq_refl). apply xwp_bind, xwp_try.
           pose proof M1 as (T1 & F1 & S1 & O1).
           destruct (inner_view d L h1 a nm dm vs cs) as (c1 & vp1 & ks1 & Hc1 & Hi1);
             [exact Hsh|eapply frame_rep; [exact F1|exact I|exact Hr]|].
           eapply xwp_copy_replace; [exact Hc1|exact Hi1| |exact T1| |exact S1|].
           { intros _. eapply wp_mono; [eapply wp_undo_made; [exact Hl'|exact Hs1'|exact M1]|].
             intros u2 h2 U. eapply undone_spoilt; [exact Hsh|exact Hr|exact U]. }
           { apply rnth_lt in Ec. exact Ec. }
           intros x2 h2 M2. apply xwp_ret. split; [reflexivity|]. eapply made_trans; [exact F1|exact M2].
        -- subst h1. inj Eu. apply xwp_ret. reflexivity.
    + destruct (has dm bit) eqn:Ed.
      * set (o := count_below dm bit) in *.
        destruct (rnth vs o) as [w|] eqn:Ew; [|discriminate]. cbn [rbind] in Eu.
        assert (Hn : vs <> []) by (intros ->; apply rnth_lt in Ew; cbn in Ew; lia).
        apply xwp_bind, xwp_m. eapply wp_load_vals; [exact (ia_v _ _ _ _ _ _ _ _ _ _ Hi)|exact Hn|exact (ia_lv _ _ _ _ _ _ _ _ _ _ Hi)|].
        apply xwp_bind, xwp_m. eapply wp_lift; [exact Ew|].
        apply xwp_bind, xwp_throw; [|exact HE]. destruct (teqk key keq w k).
        { inj Eu. apply xwp_bind, xwp_m. apply wp_unique with (S := L) (R := R); [exact T0| |]; intros c' Hc' Hrc.
          - unfold cell_at in Hc', Hc. rewrite Hc' in Hc. injection Hc as ->.
            destruct (take_inner _ _ _ _ _ _ _ _ _ _ _ T0 Hc' Hrc Hi) as (T1 & Hca & Hi1 & Hna & D).
            apply xwp_bind. eapply xwp_ensure; [exact T1|exact Hca|exact Hrc|exact Hn|exact Hi1| |exact HE].
            intros va c1 h1 T2 O2 Hc1 Hrc1 Hi2 X2 D2 Len2.
            assert (Put : forall u h2, st (a :: L) h2 (va :: ks ++ R) -> srep (a :: L) h2 va (RT (BVals (update_at o u vs)) []) ->
                frame (a :: L) (inr (ks ++ R)) h1 h2 ->
                st L h2 (a :: R) /\ srep L h2 a (enc (Inner nm dm (update_at o u vs) cs)) /\ frame L (inr R) hp h2).
            { intros u h2 T3 S3 F3. destruct (put_inner L h2 R a nm dm (update_at o u vs) cs c1 (Some va) ks) as (P1 & P2 & P3); auto.
              - eapply frame_cell; [exact F3|now left|exact Hc1].
              - destruct Hi2 as [Ic Hv Hks Elk Elv]. constructor; auto.
                + split; [|exact S3]. destruct vs; [easy|]. destruct o; discriminate.
                + eapply frame_reps; [exact F3| |exact Hks]. intros y Hy. apply in_or_app. now left.
                + now rewrite length_update_at.
              - split; [exact P1|]. split; [exact P2|]. split; [|split; [|destruct F3 as (_ & _ & ?); lia]].
                + intros y Hy. rewrite (frame_in _ _ _ _ _ F3) by now right. now apply X2.
                + intros q u' Hq Hu'. apply P3. assert (In q (ks ++ R)) as Hq' by (apply in_or_app; now right).
                  eapply frame_rep; [exact F3|exact Hq'|]. apply D2; [exact Hq'|]. now apply D. }
            apply xwp_bind, xwp_m. destruct (ia_v _ _ _ _ _ _ _ _ _ _ Hi2) as [_ Sva].
            eapply wp_store_vals; [exact T2|exact O2|exact Sva|]. intros h2 T3 O3 S3 F3.
            apply xwp_bind, xwp_call.
            + apply xwp_bind, xwp_m. eapply wp_store_vals; [exact T3|exact O3|exact S3|]. intros h3 T4 O4 S4 F4.
              apply xwp_ret. split; [reflexivity|]. exists (copy_inner_replace_value nm dm vs cs o (found w)).
              split; [apply nsim_refl|]. apply (Put (found w)); [exact T4|exact S4|eapply frame_trans; eauto].
            + intros _. exists (Inner nm dm (update_at o (gone w) vs) cs). split.
              { destruct Hsh as (H1 & H2 & H3 & H4). cbn [shaped]. rewrite length_update_at. auto. }
              apply (Put (gone w)); assumption.
          - apply xwp_bind, xwp_call; [|exact HE]. apply xwp_bind.
            eapply xwp_copy_replace_value; [exact Hc|exact Hi|exact HE|exact T0|exact Hn|].
            intros x h' M. apply xwp_ret. split; [reflexivity|exact M]. }
        destruct absent as [v|]; [|inj Eu; now apply xwp_ret].
        destruct (make_merged B d (s + B) v h w (thash key khash w)) as [m|] eqn:Em; [|discriminate]. inj Eu.
        assert (Hw : (thash key khash w < 2 ^ 64)%N) by apply Hhash.
        assert (Hsm : shaped d m) by (eapply merged_shaped; [exact HB|exact Hl'|exact Hh|exact Hw|exact Em]).
        apply xwp_bind, xwp_m. apply wp_unique with (S := L) (R := R); [exact T0| |]; intros c' Hc' Hrc.
        -- unfold cell_at in Hc', Hc. rewrite Hc' in Hc. injection Hc as ->.
           destruct (take_inner _ _ _ _ _ _ _ _ _ _ _ T0 Hc' Hrc Hi) as (T1 & Hca & Hi1 & Hna & D).
           destruct vp as [va|]; [|now destruct Hi as [_ Hv _ _ _]]. cbn [ptrs app] in T1.
           (* the values after the one at [o] was taken, or not *)
           assert (Rest : forall vs1 h1, frame (a :: L) (inr (ks ++ R)) hp h1 -> st (a :: L) h1 (va :: ks ++ R) ->
               inner_at (a :: L) h1 a nm dm vs1 cs c (Some va) ks -> vs1 <> [] ->
               firstn o vs1 ++ skipn (S o) vs1 = firstn o vs ++ skipn (S o) vs ->
               spoilt (S d) L hp a R h1 /\
               xwp (_ <- xcall calls ;;;
                child <- h_make_merged B d (s + B) v h w (thash key khash w) ;;;
                r <- xtry (h_move_inner_replace_merged ct a bit o child)
                          (delete_deep_shift B d child (s + B)) ;;;
                xret (Some (r, true, true))) h1
                (mut_post L hp a R (Some (copy_inner_replace_merged nm dm vs cs bit o m, true))) (spoilt (S d) L hp a R)).
           { intros vs1 h1 F1 T2 Hi2 Hn1 Ev.
             assert (Sp : forall h2, frame (a :: L) (inr (va :: ks ++ R)) h1 h2 -> st (a :: L) h2 (va :: ks ++ R) -> spoilt (S d) L hp a R h2).
             { intros h2 F2 T3. destruct (put_inner L h2 R a nm dm vs1 cs c (Some va) ks) as (P1 & P2 & P3); auto.
               - eapply frame_cell; [exact F2|now left|]. eapply frame_cell; [exact F1|now left|exact Hca].
               - eapply inner_frame; [exact F2| |exact Hi2]. intros y [<-|Hy]; [now left|]. right. apply in_or_app. now left.
               - exists (Inner nm dm vs1 cs). split.
                 { destruct Hsh as (H1 & H2 & H3 & H4). destruct Hi2 as [_ _ _ _ Elv]. cbn [shaped]. auto. }
                 split; [exact P1|]. split; [exact P2|].
                 eapply frame_untake with (R' := ks ++ R); [exact D|exact P3|intros; apply in_or_app; now right|].
                 eapply frame_trans; [exact F1|]. eapply frame_weak; [|exact F2]. intros y Hy. now right. }
             split; [apply Sp; [apply frame_refl|exact T2]|].
             apply xwp_bind, xwp_call; [|intros _; apply Sp; [apply frame_refl|exact T2]].
             apply xwp_bind. eapply xwp_merged; [exact Hl'|exact Hh|exact Hw|exact Em|exact T2| |].
             2:{ intros h' (U1 & U2). apply Sp; assumption. }
             intros x h2 M1. apply xwp_bind, xwp_try. pose proof M1 as (T3 & F3 & S3 & O3).
             eapply xwp_move_merged with (R := R); [| | | |exact Hn1|exact S3|].
             - eapply frame_cell; [exact F3|now left|]. eapply frame_cell; [exact F1|now left|exact Hca].
             - eapply inner_frame; [exact F3|intros; exact I|exact Hi2].
             - intros _. eapply wp_mono; [eapply wp_undo_made; [exact Hl'|exact Hsm|exact M1]|].
               intros u2 h3 (U1 & U2). apply Sp; assumption.
             - eapply st_eqv; [|exact T3]. intros y. cbn [ptrs app occ]. rewrite !occ_app. cbn [occ]. lia.
             - intros r h3 M. apply xwp_ret. split; [reflexivity|].
               exists (copy_inner_replace_merged nm dm vs cs bit o m). split; [apply nsim_refl|].
               pose proof M as (M2 & _ & _ & _ & M5). split; [exact M2|].
               split; [unfold copy_inner_replace_merged in *; cbn zeta in *; rewrite <- Ev; exact M5|].
               eapply moved_frame with (R' := ks ++ R); [exact D| | |exact M].
               + eapply frame_trans; [exact F1|]. now apply frame_all.
               + intros y Hy. apply in_or_app. now right. }
           apply xwp_bind, xwp_m. apply wp_unique with (S := a :: L) (R := ks ++ R); [exact T1| |]; intros cv Hcv Hrcv.
           ++ apply xwp_bind, xwp_throw; [|exact HE]. apply xwp_bind, xwp_m.
              destruct (ia_v _ _ _ _ _ _ _ _ _ _ Hi1) as [_ Sva].
              eapply wp_store_vals; [exact T1|exists cv; auto|exact Sva|]. intros h1 T2 O2 S2 F2.
              apply (Rest (update_at o (gone w) vs)); [exact F2|exact T2| | |].
              ** destruct Hi1 as [Ic Hv Hks Elk Elv]. constructor; auto.
                 { split; [|exact S2]. destruct vs; [easy|]. destruct o; discriminate. }
                 { eapply frame_reps; [exact F2| |exact Hks]. intros y Hy. apply in_or_app. now left. }
                 { now rewrite length_update_at. }
              ** destruct vs; [easy|]. destruct o; discriminate.
              ** now rewrite firstn_upd, skipn_upd.
           ++ destruct (Rest vs hp) as [Sp Rs]; [apply frame_refl|exact T1|exact Hi1|exact Hn|reflexivity|].
              apply xwp_bind, xwp_throw; [|exact HE]. apply xwp_bind, xwp_copies; [exact Rs|exact HE].
        -- apply xwp_bind, xwp_m, wp_ret. apply xwp_bind, xwp_throw; [|exact HE].
           apply xwp_bind, xwp_copies; [|exact HE]. apply xwp_bind, xwp_call; [|exact HE]. apply xwp_bind.
           eapply xwp_merged; [exact Hl'|exact Hh|exact Hw|exact Em|exact T0| |].
           2:{ intros h' U. eapply undone_spoilt; [exact Hsh|exact Hr|exact U]. }
           intros x h1 M1. apply xwp_bind, xwp_try.
           pose proof M1 as (T1 & F1 & S1 & O1).
           destruct (inner_view d L h1 a nm dm vs cs) as (c1 & vp1 & ks1 & Hc1 & Hi1);
             [exact Hsh|eapply frame_rep; [exact F1|exact I|exact Hr]|].
           eapply xwp_copy_merged; [exact Hc1|exact Hi1| |exact T1|exact Hn|exact S1|].
           { intros _. eapply wp_mono; [eapply wp_undo_made; [exact Hl'|exact Hsm|exact M1]|].
             intros u2 h2 U. eapply undone_spoilt; [exact Hsh|exact Hr|exact U]. }
           intros x2 h2 M2. apply xwp_ret. split; [reflexivity|]. eapply made_trans; [exact F1|exact M2].
      * destruct absent as [v|]; [|inj Eu; now apply xwp_ret]. inj Eu.
        apply xwp_bind, xwp_m. apply wp_unique with (S := L) (R := R); [exact T0| |]; intros c' Hc' Hrc.
        -- unfold cell_at in Hc', Hc. rewrite Hc' in Hc. injection Hc as ->.
           destruct (take_inner _ _ _ _ _ _ _ _ _ _ _ T0 Hc' Hrc Hi) as (T1 & Hca & Hi1 & Hna & D).
           apply xwp_bind, xwp_call; [|exact HE]. apply xwp_bind.
           eapply xwp_move_insert; [exact Hca|exact Hi1|exact HE|exact T1|].
           intros x h' M. apply xwp_ret. split; [reflexivity|]. exists (copy_inner_insert_value nm dm vs cs bit v).
           split; [apply nsim_refl|]. pose proof M as (M1 & _ & _ & _ & M5). split; [exact M1|]. split; [exact M5|].
           eapply moved_frame with (R' := R); [exact D|apply frame_refl| |exact M]. auto.
        -- apply xwp_bind, xwp_call; [|exact HE]. apply xwp_bind.
           eapply xwp_copy_insert; [exact Hc|exact Hi|exact HE|exact T0|].
           intros x h' M. apply xwp_ret. split; [reflexivity|exact M].
Qed.
End Upd.

(** ** Erasure *)
(** The element a pointer into a node stands for. *)
Definition at_val (L : list nat) (h : heap) (p i : nat) (v : T) : Prop :=
  exists b vs, srep L h p (RT b []) /\ (b = BVals vs \/ b = BColl vs) /\ rnth vs i = Ok v.
Lemma wp_deref L h p i v (Q : T -> heap -> Prop) : at_val L h p i v -> Q v h -> wp (deref p i) h Q.
Proof.
  intros (b & vs & Hr & Hb & E) HQ. unfold deref. apply wp_bind. eapply wp_load_rep; [exact Hr|].
  intros c Hc Eb _. rewrite Eb. destruct Hb as [-> | ->]; (eapply wp_lift; [exact E|exact HQ]).
Qed.
Definition sub_post (s : N) (L : list nat) (h : heap) (R : list nat) (r : sub_result (T := T)) (o : sub_res) (h' : heap) : Prop :=
  match r, o with
  | SubNothing, RNothing => h' = h
  | SubSingleton v, RSing p i => h' = h /\ at_val L h p i v
  | SubTree n', RTree a' =>
      st L h' (a' :: R) /\ frame L all h h' /\ srep L h' a' (enc n') /\ ((0 < s)%N -> one L h' a')
  | _, _ => False
  end.
Notation do_sub := (do_sub B key keq).
Notation do_sub_h := (do_sub_h B key keq ct e0).
Lemma made_sub s L h R n' a' h' : made L h R (enc n') a' h' -> sub_post s L h R (SubTree n') (RTree a') h'.
Proof. intros (H1 & H2 & H3 & H4). cbn. auto. Qed.

Ltac inj E :=
  cbn [rbind] in E;
  match type of E with
  | Ok ?x = Ok ?u => first [assert (u = x) as -> by congruence | assert (x = u) as <- by congruence]; clear E
  end.

Lemma do_sub_h_ok k : forall d n a h s L hp R r, level d s -> shaped d n ->
  st L hp R -> srep L hp a (enc n) -> srep L hp e0 (enc (@empty_node T)) -> do_sub d n k h s = Ok r ->
  xwp (do_sub_h d a k h s) hp (sub_post s L hp R r) (undone L hp R).
Proof.
  induction d as [|d IH]; intros n a h s L hp R r Hl Hsh T0 Hr He Eu;
    pose proof (fun _ : t = true => undone_refl L hp R T0) as HE.
  - apply (level_O B HB) in Hl. subst s. destruct n as [|vs]; [easy|].
    destruct (srep_coll _ _ _ _ Hr) as (c & Hc & Eb & Ek). apply cell_out in Hc.
    cbn [Champ.do_sub ChampHeap.do_sub_h] in *. rewrite N.eqb_refl in *.
    apply xwp_bind, xwp_m. eapply wp_load_coll; [exact Hc|exact Eb|].
    apply xwp_bind, xwp_throw; [|exact HE].
    destruct (find_index (fun w => teqk key keq w k) vs) as [pos|]; [|inj Eu; now apply xwp_ret].
    destruct (2 <? length vs).
    + inj Eu. apply xwp_bind. eapply xwp_coll_remove; [exact Hc|exact Eb|exact T0| |exact HE].
      intros x h' M. apply xwp_ret. now apply made_sub.
    + destruct (rnth vs (other pos)) as [w|] eqn:Ew; [|discriminate]. inj Eu. apply xwp_ret.
      split; [reflexivity|]. exists (BColl vs), vs. auto.
  - destruct (level_S B HB d s Hl) as (Hl' & Es & _). destruct n as [nm dm vs cs|]; [|easy].
    destruct (inner_view _ _ _ _ _ _ _ _ Hsh Hr) as (c & vp & ks & Hc & Hi).
    cbn [Champ.do_sub ChampHeap.do_sub_h] in *. rewrite Es in *. cbn zeta in *.
    apply xwp_bind, xwp_m.
    eapply wp_load_inner; [exact (cell_out _ _ _ _ Hc)|exact (ia_ic _ _ _ _ _ _ _ _ _ _ Hi)|exact (ia_lk _ _ _ _ _ _ _ _ _ _ Hi)|].
    cbn beta iota.
    set (bit := N.shiftl 1 (hash_idx B h s)) in *.
    destruct (has nm bit) eqn:En.
    + destruct (rnth cs (count_below nm bit)) as [n1|] eqn:Ec; [|discriminate]. cbn [rbind] in Eu.
      destruct (inner_kid _ _ _ _ _ _ _ _ _ _ _ _ Hi Ec) as (x & Ex & Hx).
      apply xwp_bind, xwp_m. eapply wp_lift; [exact Ex|]. apply xwp_bind.
      assert (Hs1 : shaped d n1).
      { destruct Hsh as (_ & _ & _ & Hf). rewrite Forall_forall in Hf. apply Hf.
        apply rnth_nth in Ec. eapply nth_error_In; exact Ec. }
      destruct (do_sub d n1 k h (s + B)) as [r1|] eqn:E1; [|discriminate]. cbn [rbind] in Eu.
      eapply xwp_mono; [eapply IH; [exact Hl'|exact Hs1|exact T0|exact Hx|exact He|exact E1]| |auto].
      intros o h1 Ho. destruct r1 as [|v|n1'], o as [|p i|x']; cbn [sub_post] in Ho; try easy.
      * subst h1. inj Eu. now apply xwp_ret.
      * destruct Ho as [-> Hv]. destruct ((dm =? 0)%N && (popcount nm =? 1) && (0 <? s)%N).
        { inj Eu. apply xwp_ret. split; [reflexivity|exact Hv]. }
        inj Eu. apply xwp_bind, xwp_m. eapply wp_deref; [exact Hv|].
        apply xwp_bind, xwp_copies; [|exact HE]. apply xwp_bind.
        eapply xwp_copy_inline; [exact Hc|exact Hi|exact HE|exact T0|].
        intros x' h' M. apply xwp_ret. now apply made_sub.
      * destruct Ho as (T1 & F1 & S1 & O1). inj Eu. apply xwp_bind, xwp_try.
        assert (Hs1' : shaped d n1') by (eapply sub_shaped; [exact HB|exact Hhash|exact Hl'|exact Hs1|exact E1]).
        assert (M1 : made L hp R (enc n1') x' h1).
        { split; [exact T1|]. split; [exact F1|]. split; [exact S1|]. apply O1. lia. }
        destruct (inner_view d L h1 a nm dm vs cs) as (c1 & vp1 & ks1 & Hc1 & Hi1);
          [exact Hsh|eapply frame_rep; [exact F1|exact I|exact Hr]|].
        eapply xwp_copy_replace; [exact Hc1|exact Hi1| |exact T1| |exact S1|].
        { intros _. eapply wp_undo_made; [exact Hl'|exact Hs1'|exact M1]. }
        { apply rnth_lt in Ec. exact Ec. }
        intros x2 h2 M2. apply xwp_ret. apply made_sub. eapply made_trans; [exact F1|exact M2].
    + destruct (has dm bit) eqn:Ed; [|inj Eu; now apply xwp_ret].
      destruct (rnth vs (count_below dm bit)) as [w|] eqn:Ew; [|discriminate]. cbn [rbind] in Eu.
      assert (Hn : vs <> []) by (intros ->; apply rnth_lt in Ew; cbn in Ew; lia).
      pose proof (ia_v _ _ _ _ _ _ _ _ _ _ Hi) as Hv.
      apply xwp_bind, xwp_m. eapply wp_load_vals; [exact Hv|exact Hn|exact (ia_lv _ _ _ _ _ _ _ _ _ _ Hi)|].
      apply xwp_bind, xwp_m. eapply wp_lift; [exact Ew|].
      apply xwp_bind, xwp_throw; [|exact HE].
      destruct (teqk key keq w k); [|inj Eu; now apply xwp_ret].
      destruct (negb (nm =? 0)%N || (2 <? popcount dm)).
      * inj Eu. apply xwp_bind. eapply xwp_copy_remove; [exact Hc|exact Hi|exact HE|exact T0|exact Hn|].
        intros x h' M. apply xwp_ret. now apply made_sub.
      * destruct (popcount dm =? 2).
        { destruct (rnth vs (other (count_below dm bit))) as [y|] eqn:Ey; [|discriminate]. cbn [rbind] in Eu.
          destruct (0 <? s)%N.
          - inj Eu. destruct vp as [va|]; [|easy]. apply xwp_ret. split; [reflexivity|].
            exists (BVals vs), vs. destruct Hv as [_ Hv]. auto.
          - inj Eu. apply xwp_bind, xwp_m. eapply wp_lift; [reflexivity|].
            apply xwp_bind, xwp_copies; [|exact HE]. apply xwp_bind, xwp_alloc_inner; [|exact HE].
            apply xwp_bind. eapply xwp_build with (cs := []); [exact T0|constructor|].
            intros x h' M. apply xwp_ret. now apply made_sub. }
        destruct (N.eqb_spec s 0) as [->|]; [|discriminate]. inj Eu.
        apply xwp_bind, xwp_m. eapply wp_inc; [exact T0|eapply srep_live; exact He|].
        intros h' T1 F1. apply xwp_ret. cbn. split; [exact T1|]. split; [exact F1|].
        split; [eapply frame_rep; [exact F1|exact I|exact He]|]. lia.
Qed.

(** *** In place *)
(** The last reference to [a] may go and [p] is still there. *)
Definition keepable (L : list nat) (h : heap) (a p : nat) : Prop :=
  exists c, cell_at (wipe L h) a c /\
    (1 < c_rc c \/ c_rc c = 1 /\ (exists dm, c_body c = BInner 0 dm true) /\ c_kids c = [p] /\
       exists cp, cell_at (wipe L h) p cp /\ 1 < c_rc cp).
Lemma cell_fun (h : heap) a c c' : cell_at h a c -> cell_at h a c' -> c = c'.
Proof. unfold cell_at. congruence. Qed.
Lemma wp_drop_keep d s n a p b L h R (Q : unit -> heap -> Prop) : level d s -> shaped d n ->
  st L h (a :: R) -> srep L h a (enc n) -> keepable L h a p -> srep L h p (RT b []) ->
  (forall h', st L h' R -> frame L (inr R) h h' -> srep L h' p (RT b []) -> Q tt h') ->
  wp (drop_shift B d a s) h Q.
Proof.
  intros Hl Hs T0 Hr (c & Hc & Hk) Hp HQ. unfold wp. rewrite drop_shift_eq by exact Hl.
  change (wp (drop d a) h Q). unfold drop. apply wp_bind. apply wp_dec with (S := L) (R := R); [exact T0| |].
  - intros c' h1 _ _ T1 F1. apply wp_ret. apply HQ; [exact T1|now apply frame_all|].
    eapply frame_rep; [exact F1|exact I|exact Hp].
  - intros c' h1 Hc' Hrc Hn T1 Hc1 X1 S1 Len. pose proof (cell_fun _ _ _ _ Hc Hc') as <-.
    destruct Hk as [Hk|(_ & (dm & Eb) & Ek & cp & Hcp & Hrp)]; [lia|].
    destruct (rep_inv _ _ _ Hr) as (c2 & ts & Hc2 & Hks & Ee). pose proof (cell_fun _ _ _ _ Hc Hc2) as <-.
    destruct d as [|d].
    { destruct n as [|vs]; [easy|]. cbn in Ee. rewrite Eb in Ee. discriminate. }
    destruct n as [nm0 dm0 vs cs|]; [|easy]. rewrite enc_inner in Ee. injection Ee as E1 E2.
    rewrite Eb in E1. injection E1 as -> -> Esv. rewrite Ek in *. subst ts.
    destruct Hs as (El & Elc & _). cbn in Elc. destruct cs; [|discriminate]. destruct vs as [|v vs]; [discriminate|].
    cbn [encv map app] in Hks. inversion Hks as [|? ? ? ? Hva _]; subst.
    cbn [delete_deep]. apply wp_bind.
    assert (Ic : inner_cell (mkCell 0 (c_body c) [p]) 0 dm (Some p) []) by (split; [exact Eb|reflexivity]).
    eapply wp_load_inner; [exact Hc1|exact Ic|reflexivity|]. cbn [each_of]. apply wp_bind, wp_ret.
    assert (Hpc : cell_at (wipe (a :: L) h1) p cp).
    { assert (p <> a). { intros ->. pose proof (cell_fun _ _ _ _ Hc Hcp) as <-. lia. }
      destruct (wipe_cell _ _ _ _ Hcp) as [Hpn Hp']. apply cell_in; [intros [?|?]; [congruence|contradiction]|].
      unfold cell_at in *. rewrite X1; congruence. }
    eapply wp_delete_inner with (R := R) (vp := Some p) (vs := v :: vs); [exact T1|exact Hc1|exact Ic|reflexivity| |exact El|].
    + split; [discriminate|]. apply S1; [now left|exact Hva].
    + intros h2 T2 X2 S2 Len2. apply HQ; [exact T2| |].
      * split; [|split; [|lia]].
        { intros x Hx. rewrite X2 by exact Hx. apply X1. intros ->. auto. }
        intros r u Hi Hu. apply S2; [now left|]. apply S1; [apply in_or_app; now right|exact Hu].
      * apply S2; [|apply S1; [now left|exact Hp]]. right. exists cp. auto.
Qed.

(** A node without values goes alone. *)
Lemma wp_delete_bare a L h R c nm dm ks (Q : unit -> heap -> Prop) :
  st (a :: L) h R -> cell_at h a c -> inner_cell c nm dm None ks -> length ks = popcount nm ->
  (forall h', st L h' R -> wipe L h' = wipe (a :: L) h ->
     (forall x, In x L -> nth_error h' x = nth_error h x) -> length h' = length h -> Q tt h') ->
  wp (delete_inner a) h Q.
Proof.
  intros T0 Hc Ic El HQ. unfold delete_inner. apply wp_bind.
  eapply wp_load_inner; [exact Hc|exact Ic|exact El|]. apply wp_bind, wp_ret.
  apply wp_free with (S := L) (R := R); [exact T0|]. exact HQ.
Qed.
Definition sub_mut_post (L : list nat) (h : heap) (a : nat) (R : list nat) (r : sub_result (T := T))
  (o : sub_mut_res (T := T)) (h' : heap) : Prop :=
  match r, o with
  | SubNothing, MNothing => h' = h
  | SubSingleton v, MSing (Own w) m => m = true /\ w = v /\ st L h' R /\ frame L (inr R) h h'
  | SubSingleton v, MSing (At p i) true => at_val L h' p i v /\ st L h' R /\ frame L (inr R) h h'
  | SubSingleton v, MSing (At p i) false => h' = h /\ at_val L h p i v /\ keepable L h a p
  | SubTree n', MTree a' true => st L h' (a' :: R) /\ srep L h' a' (enc n') /\ frame L (inr R) h h'
  | SubTree n', MTree a' false => st L h' (a' :: a :: R) /\ srep L h' a' (enc n') /\ frame L all h h'
  | _, _ => False
  end.
Notation do_sub_mut := (do_sub_mut B key keq ct gone e0).

Lemma moved_tree a L h R n' r h' : (forall q v, In q R -> srep L h q v -> srep (a :: L) h q v) ->
  moved a L h R (enc n') r h' -> sub_mut_post L h a R (SubTree n') (MTree r true) h'.
Proof.
  intros D M. pose proof M as (M1 & _ & _ & _ & M5). split; [exact M1|]. split; [exact M5|].
  eapply moved_frame with (R' := R); [exact D|apply frame_refl|auto|exact M].
Qed.
Lemma made_tree a L h R n' r h' :
  made L h (a :: R) (enc n') r h' -> sub_mut_post L h a R (SubTree n') (MTree r false) h'.
Proof. intros (M1 & M2 & M3 & _). cbn. auto. Qed.
Lemma at_val_frame L P h h' p i v : frame L P h h' -> P p -> at_val L h p i v -> at_val L h' p i v.
Proof.
  intros F HP (b & vs & Hr & Hb & E). exists b, vs. split; [eapply frame_rep; [exact F|exact HP|exact Hr]|auto].
Qed.

Lemma do_sub_mut_ok k : t = false -> forall d n a h s L hp R r, level d s -> shaped d n ->
  st L hp (a :: R) -> srep L hp a (enc n) -> In e0 R -> srep L hp e0 (enc (@empty_node T)) ->
  do_sub d n k h s = Ok r ->
  xwp (do_sub_mut d a k h s) hp (sub_mut_post L hp a R r) (fun _ => False).
Proof.
  intros Ht. induction d as [|d IH]; intros n a h s L hp R r Hl Hsh T0 Hr Ie He Eu;
    assert (forall P : Prop, t = true -> P) as HE by (intros P E; congruence).
  - apply (level_O B HB) in Hl. subst s. destruct n as [|vs]; [easy|].
    destruct (srep_coll _ _ _ _ Hr) as (c & Hcw & Eb & Ek). pose proof (cell_out _ _ _ _ Hcw) as Hc.
    cbn [Champ.do_sub ChampHeap.do_sub_mut] in *. rewrite N.eqb_refl in *.
    apply xwp_bind, xwp_m. apply wp_unique with (S := L) (R := R); [exact T0| |]; intros c' Hc' Hrc;
      pose proof (cell_fun _ _ _ _ Hcw Hc') as <-;
      apply xwp_bind, xwp_m; (eapply wp_load_coll; [exact Hc|exact Eb|]);
      (apply xwp_bind, xwp_throw; [|apply HE]);
      (destruct (find_index (fun w => teqk key keq w k) vs) as [pos|]; [|inj Eu; now apply xwp_ret]);
      rewrite (Nat.leb_antisym 2 (length vs)); destruct (2 <? length vs) eqn:E2; cbn [negb].
    + inj Eu. destruct (st_take _ _ _ _ _ T0 Hcw Hrc) as (T1 & Hn & _ & D). rewrite Ek in *. cbn [app] in *.
      apply xwp_bind. unfold h_move_collision_remove. apply xwp_bind, xwp_m. eapply wp_load_coll; [exact Hc|exact Eb|].
      eapply xwp_move_coll; [exact T1|exact Hc|exact Eb| |apply HE].
      intros x h' M. apply xwp_ret. apply moved_tree; [exact D|exact M].
    + destruct (rnth vs (other pos)) as [w|] eqn:Ew; [|discriminate]. inj Eu.
      destruct (st_take _ _ _ _ _ T0 Hcw Hrc) as (T1 & Hn & _ & D). rewrite Ek in *. cbn [app] in *.
      apply xwp_bind, xwp_m. eapply wp_lift; [reflexivity|]. apply xwp_bind, xwp_m.
      unfold delete_collision. apply wp_bind. eapply wp_load_coll; [exact Hc|exact Eb|].
      apply wp_free with (S := L) (R := R); [exact T1|]. intros h2 T2 W2 X2 Len2. apply xwp_ret.
      split; [reflexivity|]. split; [reflexivity|]. split; [exact T2|]. split; [exact X2|]. split; [|lia].
      intros q u Hq Hu. unfold srep. rewrite W2. now apply D.
    + inj Eu. apply xwp_bind. eapply xwp_coll_remove; [exact Hc|exact Eb|exact T0| |apply HE].
      intros x h' M. apply xwp_ret. now apply made_tree.
    + destruct (rnth vs (other pos)) as [w|] eqn:Ew; [|discriminate]. inj Eu. apply xwp_ret.
      split; [reflexivity|]. split; [exists (BColl vs), vs; auto|]. exists c. auto.
  - destruct (level_S B HB d s Hl) as (Hl' & Es & _). destruct n as [nm dm vs cs|]; [|easy].
    destruct (inner_view _ _ _ _ _ _ _ _ Hsh Hr) as (c & vp & ks & Hc & Hi).
    cbn [Champ.do_sub ChampHeap.do_sub_mut] in *. rewrite Es in *. cbn zeta in *.
    apply xwp_bind, xwp_m. apply wp_unique with (S := L) (R := R); [exact T0| |]; intros c' Hc' Hrc;
      pose proof (cell_fun _ _ _ _ Hc Hc') as <-; clear Hc';
      apply xwp_bind, xwp_m;
      (eapply wp_load_inner; [exact (cell_out _ _ _ _ Hc)|exact (ia_ic _ _ _ _ _ _ _ _ _ _ Hi)|exact (ia_lk _ _ _ _ _ _ _ _ _ _ Hi)|]);
      cbn beta iota; set (bit := N.shiftl 1 (hash_idx B h s)) in *.
    + (* [a] is held *)
      destruct (take_inner _ _ _ _ _ _ _ _ _ _ _ T0 Hc Hrc Hi) as (T1 & Hca & Hi1 & Hna & D).
      destruct (has nm bit) eqn:En.
      * destruct (rnth cs (count_below nm bit)) as [n1|] eqn:Ec; [|discriminate]. cbn [rbind] in Eu.
        set (o := count_below nm bit) in *.
        destruct (inner_kid _ _ _ _ _ _ _ _ _ _ _ _ Hi1 Ec) as (x & Ex & Hx1).
        apply xwp_bind, xwp_m. eapply wp_lift; [exact Ex|].
        assert (Hs1 : shaped d n1).
        { destruct Hsh as (_ & _ & _ & Hf). rewrite Forall_forall in Hf. apply Hf.
          apply rnth_nth in Ec. eapply nth_error_In; exact Ec. }
        destruct (do_sub d n1 k h (s + B)) as [r1|] eqn:E1; [|discriminate]. cbn [rbind] in Eu.
        pose proof (inner_lc _ _ _ _ _ _ _ _ _ _ Hi1) as Elc.
        set (R1 := ptrs vp ++ (firstn o ks ++ skipn (S o) ks) ++ R) in *.
        assert (InR : forall q, In q R -> In q R1) by (intros q Hq; apply in_or_app; right; apply in_or_app; now right).
        assert (T1' : st (a :: L) hp (x :: R1)).
        { eapply st_eqv; [|exact T1]. intros y. subst R1. cbn [occ]. rewrite !occ_app.
          apply rnth_nth in Ex. pose proof (occ_rem y x ks o Ex) as Hy. rewrite occ_app in Hy. lia. }
        assert (Ho : o < length cs) by (apply rnth_lt in Ec; exact Ec).
        destruct Hi1 as [Ic Hv Hks Elk Elv].
        assert (HP : forall h1, frame (a :: L) (inr R1) hp h1 -> cell_at h1 a c /\ vals_ok (a :: L) h1 vp vs /\
                  Forall2 (srep (a :: L) h1) (firstn o ks ++ skipn (S o) ks) (map enc (firstn o cs ++ skipn (S o) cs))).
        { intros h1 F1. split; [eapply frame_cell; [exact F1|now left|exact Hca]|]. split.
          - eapply vals_ok_frame; [exact F1| |exact Hv]. intros y Hy. apply in_or_app. now left.
          - eapply frame_reps; [exact F1| |].
            + intros y Hy. apply in_or_app. right. apply in_or_app. now left.
            + rewrite map_app, <- firstn_map, <- skipn_map. now apply F2_rem. }
        apply xwp_bind.
        eapply xwp_mono; [eapply IH; [exact Hl'|exact Hs1|exact T1'|exact Hx1|now apply InR|now apply D|exact E1]| |easy].
        intros ov h1 Hov. destruct r1 as [|v|n1'].
        -- (* nothing *)
           destruct ov as [|[]|]; cbn [sub_mut_post] in Hov; try easy. subst h1. inj Eu. now apply xwp_ret.
        -- (* a singleton *)
           destruct ov as [|sg m|x' m]; [easy| |easy].
           assert (Hsg : frame (a :: L) (inr R1) hp h1 /\ st (a :: L) h1 ((if m then [] else [x]) ++ R1) /\
                match sg with Own w => w = v | At p i => at_val (a :: L) h1 p i v end /\
                (m = false -> srep (a :: L) h1 x (enc n1) /\
                   match sg with Own w => False | At p i => keepable (a :: L) h1 x p end)).
           { destruct sg as [w|p i]; cbn [sub_mut_post] in Hov.
             - destruct Hov as (-> & -> & H1 & H2). split; [exact H2|]. split; [exact H1|]. split; [reflexivity|discriminate].
             - destruct m.
               + destruct Hov as (H1 & H2 & H3). split; [exact H3|]. split; [exact H2|]. split; [exact H1|discriminate].
               + destruct Hov as (-> & H1 & H2). split; [apply frame_refl|]. split; [exact T1'|]. split; [exact H1|]. auto. }
           clear Hov. destruct Hsg as (F1 & T2 & Hsg & Hkeep). destruct (HP h1 F1) as (Hc1 & Hv1 & Hk1).
           destruct ((dm =? 0)%N && (popcount nm =? 1) && (0 <? s)%N) eqn:Ecol.
           ++ (* the parent goes too *)
              inj Eu. apply andb_prop in Ecol as [Ecol _]. apply andb_prop in Ecol as [Edm Enm].
              apply N.eqb_eq in Edm. apply Nat.eqb_eq in Enm. subst dm.
              assert (vs = []) by (destruct vs; [reflexivity|cbn in Elv; discriminate]). subst vs.
              destruct vp as [va|]; [now destruct Hv1|].
              assert (firstn o ks ++ skipn (S o) ks = []) as Eks.
              { destruct ks as [|y [|z ks]]; cbn in Elk; try lia. cbn in Elc. destruct o; [reflexivity|lia]. }
              unfold R1 in *. clear R1. rewrite Eks in *. cbn [ptrs app] in *.
              apply xwp_bind. apply xwp_bind, xwp_m.
              eapply wp_delete_bare with (R := (if m then [] else [x]) ++ R);
                [exact T2|exact Hc1|exact Ic|exact Elk|].
              intros h2 T3 W3 X3 Len3.
              assert (S3' : forall q u, srep (a :: L) h1 q u -> srep L h2 q u) by (intros q u; unfold srep; rewrite W3; auto).
              assert (F3 : frame L (inr R) hp h2).
              { destruct F1 as (A1 & A2 & A3). split; [|split; [|lia]].
                - intros y Hy. rewrite X3 by exact Hy. apply A1. now right.
                - intros q u Hq Hu. apply S3', A2; [exact Hq|]. now apply D. }
              destruct m.
              ** apply xwp_ret, xwp_ret. destruct sg as [w|p i]; cbn [sub_mut_post].
                 { subst w. auto. }
                 split; [|auto]. destruct Hsg as (b & vs & G1 & G2 & G3). exists b, vs. auto.
              ** destruct (Hkeep eq_refl) as [Sx Hkp]. destruct sg as [w|p i]; [easy|].
                 destruct Hsg as (b & vs & G1 & G2 & G3). apply xwp_m.
                 eapply wp_drop_keep with (p := p) (b := b) (R := R); [exact Hl'|exact Hs1|exact T3|now apply S3'| |now apply S3'|].
                 { unfold keepable in *. rewrite W3. exact Hkp. }
                 intros h3 T4 F4 S4. apply xwp_ret. cbn [sub_mut_post]. split; [exists b, vs; auto|].
                 split; [exact T4|]. eapply frame_trans; eauto.
           ++ inj Eu. apply xwp_bind.
              assert (Ev : xwp (match sg with Own v => xret v
                               | At p i => v <- xm (deref p i) ;;; _ <- xcopies ct 1 ;;; xret v end) h1
                              (fun w h' => w = v /\ h' = h1) (fun _ => False)).
              { destruct sg as [w|p i]; [apply xwp_ret; auto|]. apply xwp_bind, xwp_m.
                eapply wp_deref; [exact Hsg|]. apply xwp_bind, xwp_copies; [apply xwp_ret; auto|apply HE]. }
              eapply xwp_mono; [exact Ev| |easy]. intros w h' [-> ->].
              apply xwp_bind. eapply xwp_move_inline with (R := (if m then [] else [x]) ++ R) (cs := cs);
                [exact Hc1|exact Ic|exact Elk|exact Hv1|exact Elv| |exact Hk1| |apply HE].
              { eapply st_eqv; [|exact T2]. intros y. subst R1. rewrite !occ_app. lia. }
              intros y h2 M. apply xwp_bind.
              assert (F2 : frame L (inr R) hp h2).
              { destruct M as (M1 & M2 & M3 & M4 & M5). destruct F1 as (A1 & A2 & A3). split; [|split; [|lia]].
                - intros z Hz. rewrite M2 by exact Hz. apply A1. now right.
                - intros q u Hq Hu. apply M3; [apply in_or_app; now right|]. apply A2; [now apply InR|]. now apply D. }
              destruct M as (M1 & M2 & M3 & M4 & M5). destruct m; cbn [negb andb].
              ** apply xwp_ret, xwp_ret. cbn. auto.
              ** apply xwp_m. destruct (Hkeep eq_refl) as [Sx _].
                 eapply wp_drop_shift with (R := y :: R); [exact Hl'|exact Hs1| |apply M3; [now left|exact Sx]|].
                 { eapply st_eqv; [|exact M1]. intros z. cbn. lia. }
                 intros h3 T4 F4. apply xwp_ret. split; [exact T4|].
                 split; [eapply frame_rep; [exact F4|now left|exact M5]|].
                 eapply frame_trans; [exact F2|]. eapply frame_weak; [|exact F4]. intros z Hz. now right.
        -- (* a tree *)
           destruct ov as [|[]|x' m]; [easy|easy|easy|]. inj Eu.
           assert (Hm : srep (a :: L) h1 x' (enc n1') /\ frame (a :: L) (inr R1) hp h1 /\
                st (a :: L) h1 (x' :: (if m then [] else [x]) ++ R1) /\ (m = false -> srep (a :: L) h1 x (enc n1))).
           { destruct m; cbn [sub_mut_post] in Hov; destruct Hov as (H1 & H2 & H3).
             - split; [exact H2|]. split; [exact H3|]. split; [exact H1|discriminate].
             - split; [exact H2|]. split; [now apply frame_all|]. split; [exact H1|]. intros _.
               eapply frame_rep; [exact H3|exact I|exact Hx1]. }
           destruct Hm as (Sx & F1 & T2 & Sx0). destruct (HP h1 F1) as (Hc1 & Hv1 & Hk1).
           apply xwp_bind, xwp_m. eapply wp_store_child; [exact T2|exact Hc1|exact Ic|exact Elk|].
           intros h2 T3 Hc2 F2 W2. apply xwp_bind.
           assert (Fin : forall h3, st (a :: L) h3 (x' :: R1) -> frame (a :: L) (inr (x' :: R1)) h2 h3 ->
               xwp (xret (MTree a true)) h3 (sub_mut_post L hp a R (SubTree (copy_inner_replace nm dm vs cs o n1'))) (fun _ => False)).
           { intros h3 T4 F3. apply xwp_ret.
             assert (Rp : forall q u, In q (x' :: R1) -> srep (a :: L) h1 q u -> srep (a :: L) h3 q u).
             { intros q u Hq Hu. eapply frame_rep; [exact F3|exact Hq|]. unfold srep. rewrite W2. exact Hu. }
             destruct (put_child L h3 R a nm dm vs cs c vp ks o x' n1') as (T5 & S5 & D5); auto.
             - eapply frame_cell; [exact F3|now left|exact Hc2].
             - destruct vp as [va|]; cbn in *; [|exact Hv1]. destruct Hv1 as [Hv2 Hv3]. split; [exact Hv2|].
               apply Rp; [|exact Hv3]. right. now left.
             - eapply reps_in; [|exact Hk1]. intros q u Hq. apply Rp. right. apply in_or_app. right.
               apply in_or_app. now left.
             - apply Rp; [now left|exact Sx].
             - split; [exact T5|]. split; [exact S5|].
               destruct F1 as (A1 & A2 & A3), F2 as (B1 & _ & B3), F3 as (C1 & C2 & C3). split; [|split; [|lia]].
               + intros y Hy. rewrite C1 by now right. rewrite B1 by exact Hy. apply A1. now right.
               + intros q u Hq Hu. apply D5, Rp; [right; now apply InR|]. apply A2; [now apply InR|]. now apply D. }
           destruct m.
           ++ apply xwp_ret. apply Fin; [exact T3|apply frame_refl].
           ++ apply xwp_m. cbn [app] in T3.
              eapply wp_drop_shift with (R := x' :: R1); [exact Hl'|exact Hs1| | |].
              { eapply st_eqv; [|exact T3]. intros y. cbn [occ]. lia. }
              { unfold srep. rewrite W2. now apply Sx0. }
              intros h3 T4 F3. apply Fin; assumption.
      * destruct (has dm bit) eqn:Ed; [|inj Eu; now apply xwp_ret].
        set (o := count_below dm bit) in *.
        destruct (rnth vs o) as [w|] eqn:Ew; [|discriminate]. cbn [rbind] in Eu.
        assert (Hn : vs <> []) by (intros ->; apply rnth_lt in Ew; cbn in Ew; lia).
        pose proof (ia_v _ _ _ _ _ _ _ _ _ _ Hi) as Hv. pose proof (ia_lv _ _ _ _ _ _ _ _ _ _ Hi) as Elv.
        apply xwp_bind, xwp_m. eapply wp_load_vals; [exact Hv|exact Hn|exact Elv|].
        apply xwp_bind, xwp_m. eapply wp_lift; [exact Ew|].
        destruct vp as [va|]; [|easy]. cbn [ptrs app] in T1.
        apply xwp_bind, xwp_m. apply wp_unique with (S := a :: L) (R := ks ++ R); [exact T1| |]; intros cv Hcv Hrcv;
          (apply xwp_bind, xwp_throw; [|apply HE]);
          (destruct (teqk key keq w k); [|inj Eu; now apply xwp_ret]);
          (destruct (negb (nm =? 0)%N || (2 <? popcount dm)) eqn:Erm;
           [inj Eu; apply xwp_bind; (eapply xwp_move_remove; [exact Hca|exact Hi1|apply HE|exact T1|exact Hn|]);
            intros x h' M; apply xwp_ret; now apply moved_tree|]);
          apply orb_false_elim in Erm as [Enm _]; apply negb_false_iff, N.eqb_eq in Enm; subst nm;
          destruct Hi1 as [Ic Hv1 Hks Elk _]; (destruct ks as [|]; [|cbn in Elk; discriminate]); cbn [app] in *.
        -- destruct (popcount dm =? 2).
           { destruct (rnth vs (other o)) as [y|] eqn:Ey; [|discriminate]. cbn [rbind] in Eu.
             apply xwp_bind, xwp_m. eapply wp_lift; [reflexivity|]. destruct (0 <? s)%N.
             - inj Eu. apply xwp_bind, xwp_m.
               eapply wp_delete_inner with (R := R) (vp := Some va); [exact T1|exact Hca|exact Ic|reflexivity|exact Hv1|exact Elv|].
               intros h2 T2 X2 S2 Len2. apply xwp_ret. split; [reflexivity|]. split; [reflexivity|]. split; [exact T2|].
               split; [exact X2|]. split; [|exact Len2]. intros q u Hq Hu. apply S2; [now left|now apply D].
             - inj Eu. apply xwp_bind, xwp_m. destruct Hv1 as [_ Sva].
               eapply wp_store_vals; [exact T1|exists cv; auto|exact Sva|]. intros h1 T2 O2 S2 F2.
               apply xwp_bind, xwp_alloc_inner; [|apply HE]. apply xwp_bind.
               eapply xwp_build with (L := a :: L) (R := va :: R) (cs := []); [exact T2|constructor|].
               intros x h2 (T3 & F3 & S3 & O3). apply xwp_bind, xwp_m.
               eapply wp_delete_inner with (R := x :: R) (vp := Some va) (vs := update_at (other o) (gone y) vs);
                 [| |exact Ic|reflexivity| | |].
               + eapply st_eqv; [|exact T3]. intros z. cbn. lia.
               + eapply frame_cell; [exact F3|now left|]. eapply frame_cell; [exact F2|now left|exact Hca].
               + split; [destruct vs; [easy|]; destruct (other o); discriminate|].
                 eapply frame_rep; [exact F3|exact I|exact S2].
               + now rewrite length_update_at.
               + intros h3 T4 X4 S4 Len4. apply xwp_ret. split; [exact T4|]. split; [apply S4; [left; now left|exact S3]|].
                 destruct F2 as (A1 & A2 & A3), F3 as (B1 & B2 & B3). split; [|split; [|lia]].
                 * intros z Hz. rewrite X4 by exact Hz. rewrite B1 by now right. apply A1. now right.
                 * intros q u Hq Hu. apply S4; [left; now right|]. apply B2; [exact I|]. apply A2; [exact Hq|]. now apply D. }
           destruct (N.eqb_spec s 0) as [->|]; [|discriminate]. inj Eu. apply xwp_bind, xwp_m.
           eapply wp_delete_inner with (R := R) (vp := Some va); [exact T1|exact Hca|exact Ic|reflexivity|exact Hv1|exact Elv|].
           intros h2 T2 X2 S2 Len2. apply xwp_bind, xwp_m.
           assert (Se : srep L h2 e0 (enc (@empty_node T))) by (apply S2; [now left|now apply D]).
           eapply wp_inc; [exact T2|eapply srep_live; exact Se|]. intros h3 T3 F3. apply xwp_ret.
           split; [exact T3|]. split; [eapply frame_rep; [exact F3|exact I|exact Se]|].
           eapply frame_trans; [|apply frame_all; exact F3]. split; [exact X2|]. split; [|exact Len2].
           intros q u Hq Hu. apply S2; [now left|now apply D].
        -- destruct (popcount dm =? 2).
           { destruct (rnth vs (other o)) as [y|] eqn:Ey; [|discriminate]. cbn [rbind] in Eu.
             apply xwp_bind, xwp_m. eapply wp_lift; [reflexivity|]. destruct (0 <? s)%N.
             - inj Eu. apply xwp_ret. split; [reflexivity|]. split.
               + exists (BVals vs), vs. destruct Hv as [_ Hv]. auto.
               + exists c. split; [exact Hc|]. right. split; [exact Hrc|]. split; [exists dm; exact (proj1 Ic)|].
                 split; [exact (proj2 Ic)|]. exists cv. split; [|exact Hrcv].
                 destruct (wipe_cell _ _ _ _ Hcv) as [Hnv Hcv']. apply cell_in; [|exact Hcv']. intros Hx. apply Hnv. now right.
             - inj Eu. apply xwp_bind, xwp_copies; [|apply HE].
               apply xwp_bind, xwp_alloc_inner; [|apply HE]. apply xwp_bind.
               eapply xwp_build with (L := a :: L) (R := va :: R) (cs := []); [exact T1|constructor|].
               intros x h2 (T3 & F3 & S3 & O3). apply xwp_bind, xwp_m.
               eapply wp_delete_inner with (R := x :: R) (vp := Some va) (vs := vs);
                 [| |exact Ic|reflexivity| |exact Elv|].
               + eapply st_eqv; [|exact T3]. intros z. cbn. lia.
               + eapply frame_cell; [exact F3|now left|exact Hca].
               + eapply vals_ok_frame; [exact F3|intros; exact I|exact Hv1].
               + intros h3 T4 X4 S4 Len4. apply xwp_ret. split; [exact T4|]. split; [apply S4; [left; now left|exact S3]|].
                 destruct F3 as (B1 & B2 & B3). split; [|split; [|lia]].
                 * intros z Hz. rewrite X4 by exact Hz. apply B1. now right.
                 * intros q u Hq Hu. apply S4; [left; now right|]. apply B2; [exact I|]. now apply D. }
           destruct (N.eqb_spec s 0) as [->|]; [|discriminate]. inj Eu. apply xwp_bind, xwp_m.
           eapply wp_delete_inner with (R := R) (vp := Some va); [exact T1|exact Hca|exact Ic|reflexivity|exact Hv1|exact Elv|].
           intros h2 T2 X2 S2 Len2. apply xwp_bind, xwp_m.
           assert (Se : srep L h2 e0 (enc (@empty_node T))) by (apply S2; [now left|now apply D]).
           eapply wp_inc; [exact T2|eapply srep_live; exact Se|]. intros h3 T3 F3. apply xwp_ret.
           split; [exact T3|]. split; [eapply frame_rep; [exact F3|exact I|exact Se]|].
           eapply frame_trans; [|apply frame_all; exact F3]. split; [exact X2|]. split; [|exact Len2].
           intros q u Hq Hu. apply S2; [now left|now apply D].
    + (* [a] is shared *)
      assert (Kp : forall p, keepable L hp a p) by (intros p; exists c; auto).
      destruct (has nm bit) eqn:En.
      * destruct (rnth cs (count_below nm bit)) as [n1|] eqn:Ec; [|discriminate]. cbn [rbind] in Eu.
        destruct (inner_kid _ _ _ _ _ _ _ _ _ _ _ _ Hi Ec) as (x & Ex & Hx).
        apply xwp_bind, xwp_m. eapply wp_lift; [exact Ex|]. apply xwp_bind, xwp_bind.
        assert (Hs1 : shaped d n1).
        { destruct Hsh as (_ & _ & _ & Hf). rewrite Forall_forall in Hf. apply Hf.
          apply rnth_nth in Ec. eapply nth_error_In; exact Ec. }
        destruct (do_sub d n1 k h (s + B)) as [r1|] eqn:E1; [|discriminate]. cbn [rbind] in Eu.
        assert (W : xwp (do_sub_h d x k h (s + B)) hp (sub_post (s + B) L hp (a :: R) r1) (fun _ => False)).
        { pose proof (do_sub_h_ok k d n1 x h (s + B) L hp (a :: R) r1 Hl' Hs1 T0 Hx He E1) as W0.
          intros f Hf. specialize (W0 f Hf). destruct (do_sub_h d x k h (s + B) f hp) as [[[[?|] ?] ?]|]; auto.
          destruct W0. congruence. }
        eapply xwp_mono; [exact W| |easy]. clear W.
        intros o h1 Ho. apply xwp_ret. destruct r1 as [|v|n1'], o as [|p i|x']; cbn [sub_post of_sub] in *; try easy.
        -- subst h1. inj Eu. now apply xwp_ret.
        -- destruct Ho as [-> Hv]. destruct ((dm =? 0)%N && (popcount nm =? 1) && (0 <? s)%N).
           { inj Eu. apply xwp_bind, xwp_ret, xwp_ret. split; [reflexivity|]. auto. }
           inj Eu. apply xwp_bind, xwp_bind, xwp_m. eapply wp_deref; [exact Hv|].
           apply xwp_bind, xwp_copies; [|apply HE]. apply xwp_ret, xwp_bind.
           eapply xwp_copy_inline; [exact Hc|exact Hi|apply HE|exact T0|].
           intros x' h' M. cbn [negb andb]. apply xwp_bind, xwp_ret, xwp_ret. now apply made_tree.
        -- destruct Ho as (T1 & F1 & S1 & O1). inj Eu. apply xwp_bind, xwp_try.
           destruct (inner_view d L h1 a nm dm vs cs) as (c1 & vp1 & ks1 & Hc1 & Hi1);
             [exact Hsh|eapply frame_rep; [exact F1|exact I|exact Hr]|].
           eapply xwp_copy_replace; [exact Hc1|exact Hi1|apply HE|exact T1| |exact S1|].
           { apply rnth_lt in Ec. exact Ec. }
           intros x2 h2 M2. apply xwp_ret. apply made_tree. eapply made_trans; [exact F1|exact M2].
      * destruct (has dm bit) eqn:Ed; [|inj Eu; now apply xwp_ret].
        destruct (rnth vs (count_below dm bit)) as [w|] eqn:Ew; [|discriminate]. cbn [rbind] in Eu.
        assert (Hn : vs <> []) by (intros ->; apply rnth_lt in Ew; cbn in Ew; lia).
        pose proof (ia_v _ _ _ _ _ _ _ _ _ _ Hi) as Hv.
        apply xwp_bind, xwp_m. eapply wp_load_vals; [exact Hv|exact Hn|exact (ia_lv _ _ _ _ _ _ _ _ _ _ Hi)|].
        apply xwp_bind, xwp_m. eapply wp_lift; [exact Ew|]. apply xwp_bind, xwp_m, wp_ret.
        apply xwp_bind, xwp_throw; [|apply HE].
        destruct (teqk key keq w k); [|inj Eu; now apply xwp_ret].
        destruct (negb (nm =? 0)%N || (2 <? popcount dm)).
        -- inj Eu. apply xwp_bind. eapply xwp_copy_remove; [exact Hc|exact Hi|apply HE|exact T0|exact Hn|].
           intros x h' M. apply xwp_ret. now apply made_tree.
        -- destruct (popcount dm =? 2).
           { destruct (rnth vs (other (count_below dm bit))) as [y|] eqn:Ey; [|discriminate]. cbn [rbind] in Eu.
             apply xwp_bind, xwp_m. eapply wp_lift; [reflexivity|]. destruct vp as [va|]; [|easy].
             destruct (0 <? s)%N.
             - inj Eu. apply xwp_ret. split; [reflexivity|]. split; [|apply Kp].
               exists (BVals vs), vs. destruct Hv as [_ Hv]. auto.
             - inj Eu. apply xwp_bind, xwp_copies; [|apply HE]. apply xwp_bind, xwp_alloc_inner; [|apply HE].
               apply xwp_bind. eapply xwp_build with (cs := []); [exact T0|constructor|].
               intros x h' M. apply xwp_bind, xwp_ret, xwp_ret. now apply made_tree. }
           destruct (N.eqb_spec s 0) as [->|]; [|discriminate]. inj Eu. apply xwp_bind, xwp_ret.
           apply xwp_bind, xwp_m. eapply wp_inc; [exact T0|eapply srep_live; exact He|].
           intros h' T1 F1. apply xwp_ret. cbn. split; [exact T1|]. split; [|exact F1].
           eapply frame_rep; [exact F1|exact I|exact He].
Qed.
End CH.
