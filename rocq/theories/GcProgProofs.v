(** Programs over flex_vectors and their transients under garbage collection do what they are
    supposed to do: the invariant and one statement at a time. *)
From Coq Require Import List NArith Arith Bool Lia.
From Verif Require Import Common NList Rrb RrbInv RrbTree RrbConcat RrbReach RrbSpec RrbStrict
  GcConcat GcVec GcRep GcVisit GcTree GcVecTree GcVecUpd GcVecTok GcSliceTree GcProgSpec GcProg GcProgRep.
Import ListNotations.
Local Open Scope N_scope.

Set Default Goal Selector "!".

(** ** Lists with one entry replaced *)
Definition puts {A} (d v : A) (i : nat) (l l' : list A) : Prop :=
  forall k, nth k l' d = if Nat.eqb k i then v else nth k l d.
Lemma puts_upd {A} (d v : A) i l : (i < length l)%nat -> puts d v i l (update_at i v l).
Proof.
  unfold puts. revert i. induction l as [|x l IH]; intros [|i] H [|k]; cbn in *; try lia; auto.
  rewrite IH by lia. reflexivity.
Qed.
Lemma puts_add {A} (d v : A) l : puts d v (length l) l (l ++ [v]).
Proof.
  intros k. destruct (Nat.eqb_spec k (length l)) as [->|N].
  - now rewrite app_nth2, Nat.sub_diag by lia.
  - destruct (Nat.ltb_spec k (length l)); [now rewrite app_nth1|]. rewrite (nth_overflow l) by lia.
    rewrite nth_overflow; [reflexivity|]. rewrite app_length. cbn. lia.
Qed.
Lemma puts_over {A} (d u v : A) i l l1 l2 : puts d u i l l1 -> puts d v i l l2 -> puts d v i l1 l2.
Proof. intros H1 H2 k. rewrite H2, H1. now destruct (Nat.eqb k i). Qed.
Lemma puts_id {A} (d : A) i l : puts d (nth i l d) i l l.
Proof. intros k. destruct (Nat.eqb_spec k i); congruence. Qed.
Lemma puts_none {A} (d : A) l : puts d d (length l) l l.
Proof. intros k. destruct (Nat.eqb_spec k (length l)) as [->|_]; [now apply nth_overflow|reflexivity]. Qed.
Lemma upd_length {A} i (v : A) l : length (update_at i v l) = length l.
Proof. revert i. induction l; intros [|i]; cbn; auto. Qed.
Lemma nth_some {A} i (l : list A) d : nth i l d <> d -> (i < length l)%nat.
Proof. intros H. destruct (Nat.ltb_spec i (length l)); [auto|]. now rewrite nth_overflow in H. Qed.
Lemma nth_upd {A} k i (v : A) l d : nth k (update_at i v l) d = if Nat.eqb k i then if Nat.ltb i (length l) then v else d else nth k l d.
Proof.
  destruct (Nat.ltb_spec i (length l)) as [L|L].
  - now rewrite (puts_upd d v i l L k).
  - assert (update_at i v l = l) as ->.
    { revert i L. induction l as [|x l IH]; intros [|i] L; cbn in *; auto; [lia|]. f_equal. apply IH. lia. }
    destruct (Nat.eqb_spec k i) as [->|N]; [now rewrite nth_overflow|reflexivity].
Qed.

Definition upd {A} (f : nat -> A) (i : nat) (v : A) : nat -> A := fun k => if Nat.eqb k i then v else f k.
Lemma upd_is {A} (f : nat -> A) i v : upd f i v i = v.
Proof. unfold upd. now rewrite Nat.eqb_refl. Qed.
Lemma upd_not {A} (f : nat -> A) i v k : k <> i -> upd f i v k = f k.
Proof. unfold upd. destruct (Nat.eqb_spec k i); congruence. Qed.

Section Proofs.
Variables B BL : N.
Context {T : Type}.
Hypothesis HB : 2 <= B.
Notation heap := (gheap T).
Notation built := (@built T B BL).
Notation gtrep := (@gtrep B BL T).

(** ** The invariant *)
(** [F i] are the blocks that the transient [i] may overwrite, [P i] the tokens they have. *)
Definition vok (mine : token -> bool) (h : heap) (F : list nat) (P : list token) (v : gvar) (q : qv T) : Prop :=
  match v, q with
  | VNone, XGone => True
  | VVec x, XVec l => (exists t, built t l /\ gtrep mine h x t []) /\ F = [] /\ P = []
  | VTra x e, XTra l => (exists t, built t l /\ gtrep mine h x t F) /\ In e P
  | VTra _ _, XMoved => True
  | _, _ => False
  end.
Record pinv (h : heap) (nx : token) (vs : list gvar) (s : list (qv T)) (mine : token -> bool)
  (F : nat -> list nat) (P : nat -> list token) : Prop := mkP {
  p_nx : (0 < nx)%nat;
  p_no : mine noone = true;
  p_fresh : forall k, (nx <= k)%nat -> mine k = true;
  p_tok : forall i k, In k (P i) -> mine k = true /\ (0 < k < nx)%nat;
  p_own : forall i j k, In k (P i) -> In k (P j) -> i = j;
  p_nd : forall i, NoDup (F i);
  p_sep : forall i j a, In a (F i) -> In a (F j) -> i = j;
  p_blk : forall i a, In a (F i) -> exists k, owner h a = Some k /\ In k (P i);
  p_len : length vs = length s;
  p_var : forall i, vok mine h (F i) (P i) (nth i vs VNone) (nth i s XGone);
  p_root : at_ h 0 None (GInner None []);
  p_tail : at_ h 1 None (GLeaf []) }.

Lemma owner_lt (h : heap) a k : owner h a = Some k -> (a < length h)%nat.
Proof. unfold owner. destruct (nth_error h a) eqn:E; [|easy]. intros _. apply nth_error_Some. congruence. Qed.
Lemma p_lt h nx vs s mine F P : pinv h nx vs s mine F P -> forall i a, In a (F i) -> (a < length h)%nat.
Proof. intros I i a Ha. destruct (p_blk _ _ _ _ _ _ _ I i a Ha) as (k & Ek & _). eapply owner_lt; eauto. Qed.
Lemma p_owned h nx vs s mine F P : pinv h nx vs s mine F P -> forall i a, In a (F i) -> owned mine h a.
Proof.
  intros I i a Ha. destruct (p_blk _ _ _ _ _ _ _ I i a Ha) as (k & Ek & Hk). unfold owner in Ek.
  destruct (nth_error h a) as [c|] eqn:E; [|easy]. exists c. split; [auto|]. rewrite Ek. cbn. eapply p_tok; eauto.
Qed.

(** ** Steps *)
(** Another variable in place of [i]. *)
Lemma place h nx vs s mine F P i v q F0 P0 vs' s' : pinv h nx vs s mine F P ->
  puts VNone v i vs vs' -> puts XGone q i s s' -> length vs' = length s' ->
  vok mine h F0 P0 v q -> NoDup F0 ->
  (forall a j, In a F0 -> j <> i -> ~ In a (F j)) ->
  (forall a, In a F0 -> exists k, owner h a = Some k /\ In k P0) ->
  (forall k, In k P0 -> mine k = true /\ (0 < k < nx)%nat) ->
  (forall k j, In k P0 -> j <> i -> ~ In k (P j)) ->
  pinv h nx vs' s' mine (upd F i F0) (upd P i P0).
Proof.
  intros I Hv Hs Hl Hok Hnd HF HF' HP HP'. destruct I as [I1 I2 I3 I4 I5 I6 I7 I8 I9 I10 I11 I12]. constructor; auto.
  - intros j k. unfold upd. destruct (Nat.eqb j i); eauto.
  - intros j j' k. unfold upd. destruct (Nat.eqb_spec j i) as [->|N], (Nat.eqb_spec j' i) as [->|N']; eauto.
    + intros H1 H2. destruct (HP' k j' H1 N' H2).
    + intros H1 H2. destruct (HP' k j H2 N H1).
  - intros j. unfold upd. destruct (Nat.eqb j i); auto.
  - intros j j' k. unfold upd. destruct (Nat.eqb_spec j i) as [->|N], (Nat.eqb_spec j' i) as [->|N']; eauto.
    + intros H1 H2. destruct (HF k j' H1 N' H2).
    + intros H1 H2. destruct (HF k j H2 N H1).
  - intros j a. unfold upd. destruct (Nat.eqb j i); auto.
  - intros j. rewrite Hv, Hs. unfold upd. destruct (Nat.eqb j i); auto.
Qed.
(** In particular one without blocks and tokens. *)
Lemma place0 h nx vs s mine F P i v q vs' s' : pinv h nx vs s mine F P ->
  puts VNone v i vs vs' -> puts XGone q i s s' -> length vs' = length s' ->
  vok mine h [] [] v q -> pinv h nx vs' s' mine (upd F i []) (upd P i []).
Proof. intros I Hv Hs Hl Hok. eapply place; eauto; try easy. constructor. Qed.

(** Tokens that nobody has any more. *)
Definition without (mine : token -> bool) (D : list token) (k : token) : bool :=
  mine k && negb (existsb (Nat.eqb k) D).
Lemma without_in mine D k : without mine D k = true <-> mine k = true /\ ~ In k D.
Proof.
  unfold without. rewrite andb_true_iff, negb_true_iff. split; intros [H1 H2]; split; auto.
  - intros Hi. assert (existsb (Nat.eqb k) D = true); [|congruence]. apply existsb_exists. exists k. split; [auto|apply Nat.eqb_refl].
  - destruct (existsb (Nat.eqb k) D) eqn:E; [|auto]. apply existsb_exists in E as (j & Hj & Ej). apply Nat.eqb_eq in Ej. subst. easy.
Qed.
Lemma frozen mine D h x (t : tree T) F : gtrep mine h x t F ->
  (forall a, In a F -> exists k, owner h a = Some k /\ In k D) -> gtrep (without mine D) h x t [].
Proof.
  intros Hx HD. assert (kept (without mine D) h F = []) as <-.
  { apply kept_none. intros a Ha. destruct (HD a Ha) as (k & -> & Hk). cbn. destruct (without mine D k) eqn:E; [|auto].
    apply without_in in E. easy. }
  eapply gtrep_less; [|exact Hx]. intros k Hk. now apply without_in in Hk.
Qed.
Lemma still_mine mine D h x (t : tree T) F : gtrep mine h x t F ->
  (forall a, In a F -> exists k, owner h a = Some k /\ mine k = true /\ ~ In k D) -> gtrep (without mine D) h x t F.
Proof.
  intros Hx HD. assert (kept (without mine D) h F = F) as E.
  { apply kept_all. intros a Ha. destruct (HD a Ha) as (k & -> & Hk). cbn. now apply without_in. }
  rewrite <- E. eapply gtrep_less; [|exact Hx]. intros k Hk. now apply without_in in Hk.
Qed.
Lemma shrink h nx vs s mine F P D : pinv h nx vs s mine F P ->
  (forall k, In k D -> (0 < k < nx)%nat /\ forall j, ~ In k (P j)) -> pinv h nx vs s (without mine D) F P.
Proof.
  intros I HD. pose proof I as [I1 I2 I3 I4 I5 I6 I7 I8 I9 I10 I11 I12].
  assert (forall i x t, gtrep mine h x t (F i) -> gtrep (without mine D) h x t (F i)) as K.
  { intros i x t Hx. apply still_mine; [auto|]. intros a Ha. destruct (I8 i a Ha) as (k & Ek & Hk). exists k. split; [auto|].
    split; [now apply (I4 i)|]. intros Hd. now apply (proj2 (HD k Hd) i). }
  constructor; auto.
  - apply without_in. split; [auto|]. intros Hd. apply HD in Hd as [[? _] _]. unfold noone in *. lia.
  - intros k Hk. apply without_in. split; [auto|]. intros Hd. apply HD in Hd as [? _]. lia.
  - intros i k Hk. destruct (I4 i k Hk). split; [|auto]. apply without_in. split; [auto|]. intros Hd. now apply (proj2 (HD k Hd) i).
  - intros i. specialize (I10 i). unfold vok in *. destruct (nth i vs VNone), (nth i s XGone); auto.
    + destruct I10 as ((t & Ht & Hx) & EF & EP). split; [|auto]. exists t. split; [auto|]. apply still_mine; [auto|easy].
    + destruct I10 as ((t & Ht & Hx) & He). split; [|auto]. exists t. eauto.
Qed.
Lemma bump h nx nx' vs s mine F P : (nx <= nx')%nat -> pinv h nx vs s mine F P -> pinv h nx' vs s mine F P.
Proof.
  intros L [I1 I2 I3 I4 I5 I6 I7 I8 I9 I10 I11 I12]. constructor; auto; try lia.
  - intros k Hk. apply I3. lia.
  - intros i k Hk. destruct (I4 i k Hk). split; [auto|lia].
Qed.
Lemma next_free h nx vs s mine F P k : pinv h nx vs s mine F P -> (nx <= k)%nat -> forall j, ~ In k (P j).
Proof. intros I L j Hj. apply (p_tok _ _ _ _ _ _ _ I) in Hj. lia. Qed.

(** The transient [i] gets the new token [k] and may not overwrite anything. *)
Lemma refresh_ok h nx vs s mine F P i x e l k nx' : pinv h nx vs s mine F P ->
  nth i vs VNone = VTra x e -> nth i s XGone = XTra l -> (nx <= k < nx')%nat ->
  exists mine' F' P' t, pinv h nx' (update_at i (VTra x k) vs) s mine' F' P' /\
    F' i = [] /\ P' i = [k] /\ (forall j, j <> i -> F' j = F j /\ P' j = P j) /\ built t l /\ gtrep mine' h x t [] /\
    forall c, (nx <= c)%nat -> mine' c = true.
Proof.
  intros I Ev Es Hk. pose proof (p_var _ _ _ _ _ _ _ I i) as V. rewrite Ev, Es in V. destruct V as ((t & Ht & Hx) & He).
  assert (i < length vs)%nat as Li by (apply (nth_some i vs VNone); congruence).
  assert (i < length s)%nat as Li' by (apply (nth_some i s XGone); congruence).
  pose proof (place0 h nx vs s mine F P i VNone XGone (update_at i VNone vs) (update_at i XGone s) I (puts_upd _ _ _ _ Li) (puts_upd _ _ _ _ Li')
    ltac:(rewrite !upd_length; exact (p_len _ _ _ _ _ _ _ I)) Logic.I) as I1.
  assert (pinv h nx (update_at i VNone vs) (update_at i XGone s) (without mine (P i)) (upd F i []) (upd P i [])) as I2.
  { apply shrink; [exact I1|]. intros c Hc. split; [now apply (p_tok _ _ _ _ _ _ _ I i)|]. intros j Hj. unfold upd in Hj.
    destruct (Nat.eqb_spec j i) as [_|N]; [easy|]. apply N. eapply (p_own _ _ _ _ _ _ _ I); eauto. }
  pose proof (frozen mine (P i) h x t (F i) Hx (p_blk _ _ _ _ _ _ _ I i)) as Hx'.
  pose proof (next_free _ _ _ _ _ _ _ k I2 ltac:(lia)) as Hfr. pose proof (p_fresh _ _ _ _ _ _ _ I2 k ltac:(lia)) as Hmk.
  pose proof (p_fresh _ _ _ _ _ _ _ I2) as Hall. apply (bump h nx nx') in I2; [|lia].
  pose proof (p_nx _ _ _ _ _ _ _ I) as Pn.
  exists (without mine (P i)), (upd (upd F i []) i []), (upd (upd P i []) i [k]), t. split; [|split; [|split; [|split; [|split; [|split]]]]]; auto.
  - eapply (place h nx' _ _ _ _ _ i (VTra x k) (XTra l) [] [k]); [exact I2|eapply puts_over; apply puts_upd; exact Li|eapply puts_over; [apply puts_upd; exact Li'|]|..]; auto; try easy.
    + rewrite <- Es. apply puts_id.
    + rewrite upd_length. exact (p_len _ _ _ _ _ _ _ I).
    + split; [|now left]. exists t. auto.
    + constructor.
    + intros c [<-|[]]. split; [auto|lia].
    + intros c j [<-|[]] _. apply Hfr.
  - apply upd_is.
  - apply upd_is.
  - intros j N. now rewrite !upd_not by auto.
Qed.

(** The memory changes, but only in blocks of [i]. *)
Lemma mutate h h' nx vs s mine F P i v q F' vs' s' : pinv h nx vs s mine F P ->
  (length h <= length h')%nat ->
  (forall a c, nth_error h a = Some c -> ~ In a (F i) -> nth_error h' a = Some c) ->
  puts VNone v i vs vs' -> puts XGone q i s s' -> length vs' = length s' ->
  vok mine h' F' (P i) v q -> NoDup F' ->
  (forall a, In a F' -> In a (F i) \/ (length h <= a)%nat) ->
  (forall a, In a F' -> exists k, owner h' a = Some k /\ In k (P i)) ->
  pinv h' nx vs' s' mine (upd F i F') P.
Proof.
  intros I Hl Hk Hv Hs Hls Hok Hnd HF HF'. pose proof (p_lt _ _ _ _ _ _ _ I) as Lt. pose proof (p_owned _ _ _ _ _ _ _ I) as Ow.
  destruct I as [I1 I2 I3 I4 I5 I6 I7 I8 I9 I10 I11 I12].
  assert (forall j a, j <> i -> In a (F j) -> ~ In a (F i)) as Dis by (intros j a N Hj Hi; apply N; eauto).
  assert (forall a b, at_ h a None b -> at_ h' a None b) as None_kept.
  { intros a b Ha. apply Hk; [exact Ha|]. intros Hi. destruct (I8 i a Hi) as (k & Ek & _). unfold owner in Ek. rewrite Ha in Ek. easy. }
  constructor; auto.
  - intros j. unfold upd. destruct (Nat.eqb j i); auto.
  - intros j j' a. unfold upd. destruct (Nat.eqb_spec j i) as [->|N], (Nat.eqb_spec j' i) as [->|N']; eauto.
    + intros H1 H2. destruct (HF a H1) as [H|H]; [eauto|]. apply Lt in H2. lia.
    + intros H1 H2. destruct (HF a H2) as [H|H]; [eauto|]. apply Lt in H1. lia.
  - intros j a. unfold upd. destruct (Nat.eqb_spec j i) as [->|N]; [auto|]. intros Ha. destruct (I8 j a Ha) as (k & Ek & Hi). exists k.
    split; [|auto]. unfold owner in *. destruct (nth_error h a) as [c|] eqn:E; [|easy]. rewrite (Hk a c E); [auto|]. eapply Dis; eauto.
  - intros j. rewrite Hv, Hs. unfold upd. destruct (Nat.eqb_spec j i) as [->|N]; [exact Hok|]. specialize (I10 j).
    unfold vok in *. destruct (nth j vs VNone), (nth j s XGone); auto.
    + destruct I10 as ((t & Ht & Hx) & EF & EP). split; [|auto]. exists t. split; [auto|]. eapply gtrep_only; eauto.
    + destruct I10 as ((t & Ht & Hx) & He). split; [|auto]. exists t. split; [auto|]. eapply gtrep_only; eauto.
Qed.

(** The empty tree. *)
Lemma gempty_rep h mine : at_ h 0 None (GInner None []) -> at_ h 1 None (GLeaf []) -> gtrep mine h gempty empty [].
Proof.
  intros H0 H1. split; [reflexivity|]. split; [reflexivity|]. exists [], []. split; [|split; [|reflexivity]]; cbn.
  - exists None, None, [], [], [], []. split; [exact H0|]. split; [apply pre_nil|]. split; [easy|]. split; [reflexivity|]. split; [constructor|reflexivity].
  - exists None, []. split; [exact H1|]. split; [apply pre_nil|]. easy.
Qed.

(** An operation in place on [i] with the token [e]. *)
Lemma inplace h h' nx vs s mine F P i z e (t' : tree T) l' : pinv h nx vs s mine F P ->
  (i < length vs)%nat -> In e (P i) ->
  tpost B BL mine h h' z t' (others h (F i)) -> toks [e] h h' -> built t' l' ->
  exists F', pinv h' nx (update_at i (VTra z e) vs) (update_at i (XTra l') s) mine F' P.
Proof.
  intros I Li He Hp Ht Hb. destruct (tpost_all B BL mine [e] h h' z t' (F i) Hp Ht) as (F' & G1 & G2 & G3 & G4 & G5 & G6).
  assert (i < length s)%nat as Li' by (rewrite <- (p_len _ _ _ _ _ _ _ I); auto).
  exists (upd F i F'). eapply (mutate h h' nx vs s mine F P i (VTra z e) (XTra l') F'); auto; try (apply puts_upd; assumption).
  - rewrite !upd_length. exact (p_len _ _ _ _ _ _ _ I).
  - split; [|auto]. eauto.
  - intros a Ha. destruct (G6 a Ha) as (k & Ek & _ & [[<-|[]]|[Hi Eo]]); [eauto|].
    exists k. split; [auto|]. destruct (p_blk _ _ _ _ _ _ _ I i a Hi) as (k' & Ek' & Hk'). congruence.
Qed.
(** The blocks and tokens of [i] as the first argument of an operation. *)
Lemma alone h nx vs s mine F P i : pinv h nx vs s mine F P -> sep (length h) (F i ++ others h (F i)).
Proof. intros I. apply others_sep; [exact (p_nd _ _ _ _ _ _ _ I i)|]. exact (p_lt _ _ _ _ _ _ _ I i). Qed.

Definition PI (st : gstate T) (s : list (qv T)) : Prop :=
  exists mine F P, pinv (gs_heap st) (gs_next st) (gs_vars st) s mine F P.

Lemma gdo_ok {A} (m : G T A) st a h' : m (gs_heap st) = Ok (a, h') -> gdo m st = Ok (a, set_heap h' st).
Proof. unfold gdo. now intros ->. Qed.

Ltac lens I := rewrite ?app_length, ?upd_length; cbn [length]; rewrite ?(p_len _ _ _ _ _ _ _ I); reflexivity.
Ltac prj := cbn [gs_heap gs_next gs_vars set_var add_var set_heap refresh new_token fst snd] in *.

(** A variable that does not come to life. *)
Lemma add_none st s : PI st s -> PI (add_var VNone st) (s ++ [XGone]).
Proof.
  intros (mine & F & P & I). unfold PI. prj. eexists _, _, _. eapply (place0 _ _ _ _ _ _ _ (length (gs_vars st)) VNone XGone); [exact I|apply puts_add| |lens I|exact Logic.I].
  rewrite (p_len _ _ _ _ _ _ _ I). apply puts_add.
Qed.
(** A new flex_vector with the tree of one that is there. *)
Lemma add_vec h nx vs s mine F P x (t : tree T) l : pinv h nx vs s mine F P -> built t l -> gtrep mine h x t [] ->
  exists F' P', pinv h nx (vs ++ [VVec x]) (s ++ [XVec l]) mine F' P'.
Proof.
  intros I Hb Hx. eexists _, _. eapply (place0 _ _ _ _ _ _ _ (length vs) (VVec x) (XVec l)); [exact I|apply puts_add| |lens I|].
  - rewrite (p_len _ _ _ _ _ _ _ I). apply puts_add.
  - split; [eauto|auto].
Qed.
(** A new transient. *)
Lemma add_tra h nx vs s mine F P x e (t : tree T) l F0 P0 : pinv h nx vs s mine F P -> built t l -> gtrep mine h x t F0 -> In e P0 ->
  NoDup F0 -> (forall a j, In a F0 -> j <> length vs -> ~ In a (F j)) ->
  (forall a, In a F0 -> exists k, owner h a = Some k /\ In k P0) ->
  (forall k, In k P0 -> mine k = true /\ (0 < k < nx)%nat) ->
  (forall k j, In k P0 -> j <> length vs -> ~ In k (P j)) ->
  exists F' P', pinv h nx (vs ++ [VTra x e]) (s ++ [XTra l]) mine F' P'.
Proof.
  intros I Hb Hx He H1 H2 H3 H4 H5. eexists _, _. eapply (place _ _ _ _ _ _ _ (length vs) (VTra x e) (XTra l) F0 P0); [exact I|apply puts_add| |lens I|..]; auto.
  - rewrite (p_len _ _ _ _ _ _ _ I). apply puts_add.
  - split; [eauto|auto].
Qed.

Lemma upd_self {A} i (l : list A) d : update_at i (nth i l d) l = l.
Proof. revert i. induction l as [|x l IH]; intros [|i]; cbn; auto. now rewrite IH. Qed.

Lemma var_cases st s i : PI st s ->
  (gv_at st i = VNone /\ qv_at s i = XGone) \/ (exists x l, gv_at st i = VVec x /\ qv_at s i = XVec l) \/
  (exists x e l, gv_at st i = VTra x e /\ qv_at s i = XTra l) \/ (exists x e, gv_at st i = VTra x e /\ qv_at s i = XMoved).
Proof.
  intros (mine & F & P & I). pose proof (p_var _ _ _ _ _ _ _ I i) as V. unfold gv_at, qv_at.
  destruct (nth i (gs_vars st) VNone), (nth i s XGone); cbn in V; try easy; eauto 10.
Qed.
Ltac var Hi i x e l E E' := destruct (var_cases _ _ i Hi) as [[E E']|[(x & l & E & E')|[(x & e & l & E & E')|(x & e & E & E')]]].

Lemma built_size t l : built t l -> size t = N.of_nat (length l).
Proof. intros Hb. destruct (built_inv B BL HB t l Hb) as [Hi <-]. rewrite (inv_size B BL t Hi) by lia. reflexivity. Qed.
Lemma start_ok : PI gstart [].
Proof.
  exists (fun _ => true), (fun _ => []), (fun _ => []). unfold gstart. prj. constructor; try easy; try lia.
  - constructor.
  - intros [|i]; exact Logic.I.
Qed.
Variable nm : bool.
Variable selfmv : T -> T.
Hypothesis Hnm : nm = true -> forall x, selfmv x = x.
Definition good (st : gstate T) (s : list (qv T)) (o : qop T) : Prop :=
  exists st' x, qstep B BL nm selfmv st o = Ok (st', x) /\ qsees B BL s o x /\ PI st' (qspec s o x).
Ltac done := eexists _, _; split; [reflexivity|]; split; [exact Logic.I|].

Lemma new_ok st s : PI st s -> good st s QNew.
Proof.
  intros (mine & F & P & I). done. unfold PI. prj.
  destruct (add_vec _ _ _ _ _ _ _ gempty empty [] I) as (F' & P' & I'); eauto.
  - constructor.
  - apply gempty_rep; [exact (p_root _ _ _ _ _ _ _ I)|exact (p_tail _ _ _ _ _ _ _ I)].
Qed.
Lemma transient_ok st s i : PI st s -> qv_at s i <> XMoved -> good st s (QTransient i).
Proof.
  intros H Hm. unfold good. cbn [qstep qspec]. var H i x e l E E'; rewrite E, E'; try (done; now apply add_none); try (now destruct Hm).
  done. destruct H as (mine & F & P & I). pose proof (p_var _ _ _ _ _ _ _ I i) as V. unfold gv_at, qv_at in E, E'. rewrite E, E' in V.
  destruct V as ((t & Ht & Hx) & _ & _). unfold PI. prj. pose proof (p_nx _ _ _ _ _ _ _ I) as Pn.
  pose proof (next_free _ _ _ _ _ _ _ (gs_next st) I ltac:(lia)) as Hfr. pose proof (p_fresh _ _ _ _ _ _ _ I (gs_next st) ltac:(lia)) as Hmk.
  apply (bump _ _ (S (gs_next st))) in I; [|lia].
  destruct (add_tra _ _ _ _ _ _ _ x (gs_next st) t l [] [gs_next st] I) as (F' & P' & I'); eauto; try easy.
  - now left.
  - constructor.
  - intros k [<-|[]]. split; [auto|lia].
  - intros k j [<-|[]] _. apply Hfr.
Qed.
Lemma persistent_ok st s i : PI st s -> qv_at s i <> XMoved -> good st s (QPersistent i).
Proof.
  intros H Hm. unfold good. cbn [qstep qspec]. var H i x e l E E'; rewrite E, E'; try (done; now apply add_none); try (now destruct Hm).
  done. destruct H as (mine & F & P & I).
  destruct (refresh_ok _ _ _ _ _ _ _ i x e l (gs_next st) (S (gs_next st)) I E E' ltac:(lia)) as (mine' & F' & P' & t & I' & _ & _ & _ & Ht & Hx & _).
  unfold PI. prj. destruct (add_vec _ _ _ _ _ _ _ x t l I' Ht Hx) as (F2 & P2 & I2). eauto.
Qed.
Lemma finish_ok st s i : PI st s -> qv_at s i <> XMoved -> good st s (QFinish i).
Proof.
  intros H Hm. unfold good. cbn [qstep qspec]. var H i x e l E E'; rewrite E, E'; try (done; now apply add_none); try (now destruct Hm).
  done. destruct H as (mine & F & P & I). unfold PI. prj. unfold gv_at, qv_at in E, E'.
  pose proof (p_var _ _ _ _ _ _ _ I i) as V. rewrite E, E' in V. destruct V as ((t & Ht & Hx) & He).
  assert (i < length (gs_vars st))%nat as Li by (apply (nth_some i _ VNone); congruence).
  assert (i < length s)%nat as Li' by (apply (nth_some i _ XGone); congruence).
  assert (pinv (gs_heap st) (gs_next st) (update_at i (VTra gempty e) (gs_vars st)) (update_at i XMoved s) mine (upd F i []) (upd P i [])) as I1.
  { eapply place0; [exact I|now apply puts_upd|now apply puts_upd|lens I|exact Logic.I]. }
  apply (shrink _ _ _ _ _ _ _ (P i)) in I1.
  2:{ intros c Hc. split; [now apply (p_tok _ _ _ _ _ _ _ I i)|]. intros j Hj. unfold upd in Hj.
      destruct (Nat.eqb_spec j i) as [_|N]; [easy|]. apply N. eapply (p_own _ _ _ _ _ _ _ I); eauto. }
  pose proof (frozen mine (P i) _ x t (F i) Hx (p_blk _ _ _ _ _ _ _ I i)) as Hx'.
  destruct (add_vec _ _ _ _ _ _ _ x t l I1 Ht Hx') as (F2 & P2 & I2). eauto.
Qed.
Lemma copy_ok st s i : PI st s -> qv_at s i <> XMoved -> good st s (QCopy i).
Proof.
  intros H Hm. unfold good. cbn [qstep qspec]. var H i x e l E E'; rewrite E, E'; try (done; now apply add_none); try (now destruct Hm).
  - done. destruct H as (mine & F & P & I). pose proof (p_var _ _ _ _ _ _ _ I i) as V. unfold gv_at, qv_at in E, E'. rewrite E, E' in V.
    destruct V as ((t & Ht & Hx) & _ & _). destruct (add_vec _ _ _ _ _ _ _ x t l I Ht Hx) as (F2 & P2 & I2). exists mine, F2, P2. exact I2.
  - done. destruct H as (mine & F & P & I). pose proof (p_nx _ _ _ _ _ _ _ I) as Pn.
    pose proof (next_free _ _ _ _ _ _ _ (gs_next st) I ltac:(lia)) as Hfr.
    assert (i < length (gs_vars st))%nat as Li by (apply (nth_some i _ VNone); unfold gv_at in E; congruence).
    destruct (refresh_ok _ _ _ _ _ _ _ i x e l (S (gs_next st)) (S (S (gs_next st))) I E E' ltac:(lia)) as (mine' & F' & P' & t & I' & _ & EP & Ej & Ht & Hx & Hall).
    unfold PI. prj.
    pose proof (Hall (gs_next st) ltac:(lia)) as Hmk.
    destruct (add_tra _ _ _ _ _ _ _ x (gs_next st) t l [] [gs_next st] I') as (F2 & P2 & I2); eauto; try easy.
    + now left.
    + constructor.
    + intros k [<-|[]]. split; [auto|lia].
    + intros k j [<-|[]] _. destruct (Nat.eq_dec j i) as [->|N]; [rewrite EP; intros [Q|[]]; lia|]. destruct (Ej j N) as [_ ->]. apply Hfr.
Qed.
Lemma move_ok st s i : PI st s -> qv_at s i <> XMoved -> good st s (QMove i).
Proof.
  intros H Hm. unfold good. cbn [qstep qspec]. var H i x e l E E'; rewrite E, E'; try (done; now apply add_none); try (now destruct Hm);
    done; destruct H as (mine & F & P & I); unfold PI; prj; unfold gv_at, qv_at in E, E';
    pose proof (p_var _ _ _ _ _ _ _ I i) as V; rewrite E, E' in V;
    assert (i < length (gs_vars st))%nat as Li by (apply (nth_some i _ VNone); congruence);
    assert (i < length s)%nat as Li' by (apply (nth_some i _ XGone); congruence).
  - destruct V as ((t & Ht & Hx) & _ & _).
    assert (pinv (gs_heap st) (gs_next st) (update_at i (VVec gempty) (gs_vars st)) (update_at i (XVec []) s) mine (upd F i []) (upd P i [])) as I1.
    { eapply place0; [exact I|now apply puts_upd|now apply puts_upd|lens I|]. split; [|auto]. exists empty. split; [constructor|].
      apply gempty_rep; [exact (p_root _ _ _ _ _ _ _ I)|exact (p_tail _ _ _ _ _ _ _ I)]. }
    destruct (add_vec _ _ _ _ _ _ _ x t l I1 Ht Hx) as (F2 & P2 & I2). eauto.
  - destruct V as ((t & Ht & Hx) & He).
    assert (pinv (gs_heap st) (gs_next st) (update_at i (VTra gempty e) (gs_vars st)) (update_at i XMoved s) mine (upd F i []) (upd P i [])) as I1.
    { eapply place0; [exact I|now apply puts_upd|now apply puts_upd|lens I|exact Logic.I]. }
    destruct (add_tra _ _ _ _ _ _ _ x e t l (F i) (P i) I1 Ht Hx He) as (F2 & P2 & I2); eauto.
    + exact (p_nd _ _ _ _ _ _ _ I i).
    + intros a j Ha _ Hj. unfold upd in Hj. destruct (Nat.eqb_spec j i) as [_|N]; [easy|]. apply N. eapply (p_sep _ _ _ _ _ _ _ I); eauto.
    + exact (p_blk _ _ _ _ _ _ _ I i).
    + exact (p_tok _ _ _ _ _ _ _ I i).
    + intros a j Ha _ Hj. unfold upd in Hj. destruct (Nat.eqb_spec j i) as [_|N]; [easy|]. apply N. eapply (p_own _ _ _ _ _ _ _ I); eauto.
Qed.
Lemma put_vec h nx vs s mine F P i x (t : tree T) l : pinv h nx vs s mine F P -> (i < length vs)%nat -> built t l -> gtrep mine h x t [] ->
  pinv h nx (update_at i (VVec x) vs) (update_at i (XVec l) s) mine (upd F i []) (upd P i []).
Proof.
  intros I Li Hb Hx. assert (i < length s)%nat as Li' by (rewrite <- (p_len _ _ _ _ _ _ _ I); auto).
  eapply place0; [exact I|now apply puts_upd|now apply puts_upd|lens I|]. split; [eauto|auto].
Qed.
Lemma put_moved h nx vs s mine F P i x e : pinv h nx vs s mine F P -> (i < length vs)%nat ->
  pinv h nx (update_at i (VTra x e) vs) (update_at i XMoved s) mine (upd F i []) (upd P i []).
Proof.
  intros I Li. assert (i < length s)%nat as Li' by (rewrite <- (p_len _ _ _ _ _ _ _ I); auto).
  eapply place0; [exact I|now apply puts_upd|now apply puts_upd|lens I|exact Logic.I].
Qed.
Lemma put_tra h nx vs s mine F P i x e (t : tree T) l F0 P0 : pinv h nx vs s mine F P -> (i < length vs)%nat -> built t l -> gtrep mine h x t F0 -> In e P0 ->
  NoDup F0 -> (forall a j, In a F0 -> j <> i -> ~ In a (F j)) ->
  (forall a, In a F0 -> exists k, owner h a = Some k /\ In k P0) ->
  (forall k, In k P0 -> mine k = true /\ (0 < k < nx)%nat) ->
  (forall k j, In k P0 -> j <> i -> ~ In k (P j)) ->
  pinv h nx (update_at i (VTra x e) vs) (update_at i (XTra l) s) mine (upd F i F0) (upd P i P0).
Proof.
  intros I Li Hb Hx He H1 H2 H3 H4 H5. assert (i < length s)%nat as Li' by (rewrite <- (p_len _ _ _ _ _ _ _ I); auto).
  eapply place; [exact I|now apply puts_upd|now apply puts_upd|lens I|..]; auto. split; [eauto|auto].
Qed.

Lemma assign_ok st s i j : PI st s -> qv_at s j <> XMoved -> good st s (QAssign i j).
Proof.
  intros H Hm. unfold good. cbn [qstep qspec]. var H i x e k E E'; rewrite E, E'; try (done; assumption);
    var H j y f l D D'; rewrite D, D'; try (done; assumption); try (now destruct Hm); done;
    destruct H as (mine & F & P & I); unfold PI; prj; unfold gv_at, qv_at in D, D', E, E';
    assert (i < length (gs_vars st))%nat as Li by (apply (nth_some i _ VNone); congruence).
  - pose proof (p_var _ _ _ _ _ _ _ I j) as V. rewrite D, D' in V. destruct V as ((t & Ht & Hx) & _ & _).
    eexists _, _, _. eapply put_vec; eauto.
  - destruct (refresh_ok _ _ _ _ _ _ _ j y f l (gs_next st) (S (gs_next st)) I D D' ltac:(lia)) as (mine' & F' & P' & t & I' & EF & EP & Ej & Ht & Hx & Hall).
    pose proof (next_free _ _ _ _ _ _ _ (S (gs_next st)) I' ltac:(lia)) as Hfr.
    apply (bump _ _ (S (S (gs_next st)))) in I'; [|lia].
    eexists _, _, _. eapply (put_tra _ _ _ _ _ _ _ i y (S (gs_next st)) t l [] [S (gs_next st)] I'); auto; try easy.
    + now rewrite upd_length.
    + now left.
    + constructor.
    + intros c [<-|[]]. split; [apply Hall|]; lia.
    + intros c b [<-|[]] _. apply Hfr.
  - destruct (refresh_ok _ _ _ _ _ _ _ j y f l (gs_next st) (S (gs_next st)) I D D' ltac:(lia)) as (mine' & F' & P' & t & I' & EF & EP & Ej & Ht & Hx & Hall).
    pose proof (next_free _ _ _ _ _ _ _ (S (gs_next st)) I' ltac:(lia)) as Hfr.
    apply (bump _ _ (S (S (gs_next st)))) in I'; [|lia].
    eexists _, _, _. eapply (put_tra _ _ _ _ _ _ _ i y (S (gs_next st)) t l [] [S (gs_next st)] I'); auto; try easy.
    + now rewrite upd_length.
    + now left.
    + constructor.
    + intros c [<-|[]]. split; [apply Hall|]; lia.
    + intros c b [<-|[]] _. apply Hfr.
Qed.
Lemma move_assign_ok st s i j : PI st s -> qv_at s j <> XMoved -> good st s (QMoveAssign i j).
Proof.
  intros H Hm. unfold good. cbn [qstep qspec]. destruct (Nat.eqb_spec i j) as [<-|Nij].
  { var H i x e k E E'; rewrite E; done; try exact H; unfold PI, set_var; prj; unfold gv_at in E; rewrite <- E, !upd_self; destruct st; exact H. }
  var H i x e k E E'; rewrite E, E'; try (done; assumption);
    var H j y f l D D'; rewrite D, D'; try (done; assumption); try (now destruct Hm); done;
    destruct H as (mine & F & P & I); unfold PI; prj; unfold gv_at, qv_at in D, D', E, E';
    assert (i < length (gs_vars st))%nat as Li by (apply (nth_some i _ VNone); congruence);
    assert (j < length (gs_vars st))%nat as Lj by (apply (nth_some j _ VNone); congruence);
    pose proof (p_var _ _ _ _ _ _ _ I j) as V; rewrite D, D' in V.
  - pose proof (p_var _ _ _ _ _ _ _ I i) as W. rewrite E, E' in W.
    destruct V as ((t & Ht & Hx) & _ & _). destruct W as ((r & Hr & Hy) & _ & _).
    eexists _, _, _. eapply put_vec; [|now rewrite upd_length|exact Ht|exact Hx]. eapply put_vec; eauto.
  - destruct V as ((t & Ht & Hx) & He). pose proof (put_moved _ _ _ _ _ _ _ j x f I Lj) as I1.
    eexists _, _, _. eapply (put_tra _ _ _ _ _ _ _ i y f t l (F j) (P j) I1); auto.
    + now rewrite upd_length.
    + exact (p_nd _ _ _ _ _ _ _ I j).
    + intros a b Ha Nb Hb. unfold upd in Hb. destruct (Nat.eqb_spec b j) as [_|N]; [easy|]. apply N. eapply (p_sep _ _ _ _ _ _ _ I); eauto.
    + exact (p_blk _ _ _ _ _ _ _ I j).
    + exact (p_tok _ _ _ _ _ _ _ I j).
    + intros a b Ha Nb Hb. unfold upd in Hb. destruct (Nat.eqb_spec b j) as [_|N]; [easy|]. apply N. eapply (p_own _ _ _ _ _ _ _ I); eauto.
  - destruct V as ((t & Ht & Hx) & He). pose proof (put_moved _ _ _ _ _ _ _ j x f I Lj) as I1.
    eexists _, _, _. eapply (put_tra _ _ _ _ _ _ _ i y f t l (F j) (P j) I1); auto.
    + now rewrite upd_length.
    + exact (p_nd _ _ _ _ _ _ _ I j).
    + intros a b Ha Nb Hb. unfold upd in Hb. destruct (Nat.eqb_spec b j) as [_|N]; [easy|]. apply N. eapply (p_sep _ _ _ _ _ _ _ I); eauto.
    + exact (p_blk _ _ _ _ _ _ _ I j).
    + exact (p_tok _ _ _ _ _ _ _ I j).
    + intros a b Ha Nb Hb. unfold upd in Hb. destruct (Nat.eqb_spec b j) as [_|N]; [easy|]. apply N. eapply (p_own _ _ _ _ _ _ _ I); eauto.
Qed.

(** Operations that make trees. *)
Lemma list_set_past {A} (xs : list A) i f : (length xs <= i)%nat -> list_set xs i f = xs.
Proof. intros H. unfold list_set. now rewrite skipn_all2. Qed.
Lemma pushed_ok st s i v : PI st s -> good st s (QPushed i v).
Proof.
  intros H. unfold good. cbn [qstep qspec]. var H i x e l E E'; rewrite E, E'; try (done; now apply add_none).
  destruct H as (mine & F & P & I). pose proof (p_var _ _ _ _ _ _ _ I i) as V. unfold gv_at, qv_at in E, E'. rewrite E, E' in V.
  destruct V as ((t & Ht & Hx) & _ & _). destruct (built_inv B BL HB t l Ht) as [Hi El].
  destruct (push_back_run B BL mine HB _ _ _ _ (others (gs_heap st) []) v Hx Hi) as (z & h' & t' & E1 & E2 & Hp).
  { apply others_sep; [constructor|easy]. }
  rewrite (gdo_ok _ _ _ _ E1). cbn [rbind]. done. unfold PI. prj.
  destruct (tpost_all B BL mine [] _ h' z t' [] Hp (tk_push_back B BL [] x v _ _ _ E1)) as (F' & G1 & G2 & G3 & G4 & G5 & G6).
  assert (F' = []) as ->.
  { destruct F' as [|a F']; [auto|]. destruct (G6 a (or_introl eq_refl)) as (k & _ & _ & [[]|[[] _]]). }
  pose proof (place0 _ _ _ _ _ _ _ (length (gs_vars st)) VNone XGone (gs_vars st) s I) as I1.
  assert (pinv (gs_heap st) (gs_next st) (gs_vars st) s mine (upd F (length (gs_vars st)) []) (upd P (length (gs_vars st)) [])) as I2.
  { apply I1; [| |exact (p_len _ _ _ _ _ _ _ I)|exact Logic.I].
    - apply puts_none.
    - rewrite (p_len _ _ _ _ _ _ _ I). apply puts_none. }
  eexists _, _, _. eapply (mutate _ h' _ _ _ _ _ _ (length (gs_vars st)) (VVec z) (XVec (l ++ [v])) [] _ _ I2); auto.
  - apply puts_add.
  - rewrite (p_len _ _ _ _ _ _ _ I). apply puts_add.
  - lens I.
  - rewrite upd_is. split; [|auto]. exists t'. split; [|auto]. eapply b_push_back; eauto.
  - easy.
  - easy.
Qed.
Lemma push_ok st s i v : PI st s -> qv_at s i <> XMoved -> good st s (QPush i v).
Proof.
  intros H Hm. unfold good. cbn [qstep qspec]. var H i x e l E E'; rewrite E, E'; try (done; assumption); try (now destruct Hm).
  destruct H as (mine & F & P & I). pose proof (p_var _ _ _ _ _ _ _ I i) as V. unfold gv_at, qv_at in E, E'. rewrite E, E' in V.
  destruct V as ((t & Ht & Hx) & He). destruct (built_inv B BL HB t l Ht) as [Hi El].
  destruct (push_back_mut_run B BL mine HB e _ _ _ _ (others (gs_heap st) (F i)) v (proj1 (p_tok _ _ _ _ _ _ _ I i e He)) Hx Hi (alone _ _ _ _ _ _ _ i I))
    as (z & h' & t' & E1 & E2 & Hp).
  rewrite (gdo_ok _ _ _ _ E1). cbn [rbind]. done. unfold PI. prj.
  destruct (inplace _ h' _ _ _ _ _ _ i z e t' (l ++ [v]) I) as (F' & I'); eauto.
  - apply (nth_some i _ VNone). congruence.
  - eapply (tk_push_back_mut B BL [e] e x v (or_introl eq_refl)); eauto.
  - eapply b_push_back; eauto.
Qed.
Lemma update_ok st s i k fn : PI st s -> qv_at s i <> XMoved -> good st s (QUpdate i k fn).
Proof.
  intros H Hm. unfold good. cbn [qstep qspec]. var H i x e l E E'; rewrite E, E'; try (done; assumption); try (now destruct Hm).
  pose proof H as (mine & F & P & I). pose proof (p_var _ _ _ _ _ _ _ I i) as V. unfold gv_at, qv_at in E, E'. rewrite E, E' in V.
  destruct V as ((t & Ht & Hx) & He). destruct (built_inv B BL HB t l Ht) as [Hi El]. pose proof (built_size t l Ht) as Es.
  assert (gt_size x = size t) as -> by apply Hx. destruct (N.ltb_spec k (size t)) as [Hk|Hk].
  - destruct (update_mut_run B BL mine HB e _ _ _ _ (others (gs_heap st) (F i)) k fn (proj1 (p_tok _ _ _ _ _ _ _ I i e He)) Hx Hi Hk (alone _ _ _ _ _ _ _ i I))
      as (z & h' & t' & E1 & E2 & Hp).
    rewrite (gdo_ok _ _ _ _ E1). cbn [rbind]. done. unfold PI. prj.
    destruct (inplace _ h' _ _ _ _ _ _ i z e t' (list_set l (N.to_nat k) fn) I) as (F' & I'); eauto.
    + apply (nth_some i _ VNone). congruence.
    + eapply (tk_update_mut B BL [e] e x k fn (or_introl eq_refl)); eauto.
    + eapply b_update; eauto.
  - done. rewrite list_set_past by lia. rewrite <- E', upd_self. exact H.
Qed.

Lemma pinv_same h nx vs s vs' s' mine F P : pinv h nx vs s mine F P -> length vs' = length s' ->
  (forall k, nth k vs' VNone = nth k vs VNone) -> (forall k, nth k s' XGone = nth k s XGone) -> pinv h nx vs' s' mine F P.
Proof. intros [I1 I2 I3 I4 I5 I6 I7 I8 I9 I10 I11 I12] Hl Hv Hs. constructor; auto. intros i. now rewrite Hv, Hs. Qed.
Lemma nodup_app {A} (a b : list A) : NoDup a -> NoDup b -> (forall x, In x a -> ~ In x b) -> NoDup (a ++ b).
Proof.
  induction a as [|x a IH]; cbn; intros Ha Hb H; [auto|]. inversion Ha as [|? ? N Ha']; subst. constructor.
  - rewrite in_app_iff. intros [Hi|Hi]; [auto|]. now apply (H x (or_introl eq_refl)).
  - apply IH; auto.
Qed.
(** One operand of a concatenation takes over the blocks and tokens of the other, which is moved from. *)
Lemma merge h nx vs s mine F P i j y f : pinv h nx vs s mine F P -> i <> j -> (i < length vs)%nat -> (j < length vs)%nat ->
  exists F' P', pinv h nx (update_at i VNone (update_at j (VTra y f) vs)) (update_at i XGone (update_at j XMoved s)) mine F' P' /\
    F' i = F i ++ F j /\ P' i = P i ++ P j.
Proof.
  intros I N Li Lj. assert (i < length s)%nat as Li' by (rewrite <- (p_len _ _ _ _ _ _ _ I); auto).
  pose proof (put_moved _ _ _ _ _ _ _ j y f I Lj) as I1.
  eexists _, _. split; [|split; apply upd_is].
  eapply (place _ _ _ _ _ _ _ i VNone XGone (F i ++ F j) (P i ++ P j) _ _ I1).
  - apply puts_upd. now rewrite upd_length.
  - apply puts_upd. now rewrite upd_length.
  - lens I.
  - exact Logic.I.
  - apply nodup_app; [exact (p_nd _ _ _ _ _ _ _ I i)|exact (p_nd _ _ _ _ _ _ _ I j)|].
    intros a Ha Hb. apply N. eapply (p_sep _ _ _ _ _ _ _ I); eauto.
  - intros a k Ha Nk Hk. unfold upd in Hk. destruct (Nat.eqb_spec k j) as [_|Nj]; [easy|].
    apply in_app_or in Ha as [Ha|Ha]; [apply Nk|apply Nj]; eapply (p_sep _ _ _ _ _ _ _ I); eauto.
  - intros a Ha. apply in_app_or in Ha as [Ha|Ha]; destruct (p_blk _ _ _ _ _ _ _ I _ a Ha) as (k & Ek & Hk); exists k; (split; [auto|]); apply in_or_app; auto.
  - intros k Hk. apply in_app_or in Hk as [Hk|Hk]; eapply (p_tok _ _ _ _ _ _ _ I); eauto.
  - intros a k Ha Nk Hk. unfold upd in Hk. destruct (Nat.eqb_spec k j) as [_|Nj]; [easy|].
    apply in_app_or in Ha as [Ha|Ha]; [apply Nk|apply Nj]; eapply (p_own _ _ _ _ _ _ _ I); eauto.
Qed.
Lemma gsmall_ok mine h y (r : tree T) l F : gtrep mine h y r F -> built r l ->
  if gsmall B BL y then small B BL r else too_deep B BL (gt_lv y) l.
Proof.
  intros (E1 & E2 & _) Hb. unfold gsmall, small, too_deep. rewrite E2, E1. pose proof (built_size r l Hb) as Es.
  destruct (N.ltb_spec (sh B BL (lv r)) 32) as [L|L]; cbn [andb].
  - destruct (N.leb_spec (size r) (2 ^ 32)); [auto|]. right. lia.
  - left. unfold sh in L. lia.
Qed.
Lemma gleft_ok mine h x y w (r : tree T) F : gtrep mine h y r F -> inv B BL r -> exists y', gleft BL x y w h = Ok (y', h).
Proof.
  intros Hy Hr. unfold gleft. destruct ((gt_size x =? 0) || (gt_size y =? 0)); [now eexists|].
  pose proof (gtail_offset_ok B BL mine HB _ _ _ _ Hy Hr) as Gy. unfold gbind. rewrite Gy. now eexists.
Qed.

Lemma append_ok st s mv i j : PI st s -> i <> j -> qv_at s i <> XMoved -> qv_at s j <> XMoved -> good st s (QAppend mv i j).
Proof.
  intros H Nij Hm Hm'. unfold good. cbn [qstep qspec qsees]. var H i x e a E E'; rewrite E, E'; try (done; assumption); try (now destruct Hm);
  var H j y f b D D'; rewrite D, D'; try (done; assumption); try (now destruct Hm').
  rewrite (proj2 (Nat.eqb_neq i j) Nij). pose proof H as (mine & F & P & I). unfold gv_at, qv_at in D, D', E, E'.
  pose proof (p_var _ _ _ _ _ _ _ I i) as V. rewrite E, E' in V. destruct V as ((t & Ht & Hx) & He).
  pose proof (p_var _ _ _ _ _ _ _ I j) as V. rewrite D, D' in V. destruct V as ((r & Hr & Hy) & Hf).
  assert (i < length (gs_vars st))%nat as Li by (apply (nth_some i _ VNone); congruence).
  assert (j < length (gs_vars st))%nat as Lj by (apply (nth_some j _ VNone); congruence).
  pose proof (gsmall_ok _ _ _ _ _ _ Hy Hr) as Hsm. destruct (gsmall B BL y) eqn:Eg.
  2: { eexists _, _. split; [reflexivity|]. split; [|exact H]. exists b. auto. }
  pose proof Hsm as [Hsh Hsz].
  destruct (built_inv B BL HB t a Ht) as [It Et]. destruct (built_strict B BL HB t a Ht) as [St _].
  assert (forall r, built r b -> small B BL r -> inv B BL r /\ spn B BL (S (lv r)) (root r) /\ nsize (root r) <= 2 ^ 32) as Facts.
  { intros r0 Hr0 [_ Hs0]. destruct (built_inv B BL HB r0 b Hr0) as [Ir _]. destruct (built_strict B BL HB r0 b Hr0) as [Sr _].
    split; [auto|]. split; [auto|]. destruct Ir as (zs & _ & E0 & _). lia. }
  destruct mv.
  - destruct (Facts r Hr Hsm) as (Ir & Sr & H32).
    destruct (gleft_ok mine _ x y y r _ Hy Ir) as (y' & El). rewrite (gdo_ok _ _ _ _ El). cbn [rbind].
    assert (set_heap (gs_heap st) st = st) as -> by (destruct st; reflexivity).
    destruct (merge _ _ _ _ _ _ _ i j y' f I Nij Li Lj) as (F' & P' & I' & EF & EP).
    destruct (append_run B BL mine HB noone e (Some f) (gs_heap st) x y t r (F i) (F j) (others (gs_heap st) (F' i)) (p_no _ _ _ _ _ _ _ I)
      (proj1 (p_tok _ _ _ _ _ _ _ I i e He))) as (z & h' & t' & E1 & E2 & Hp); auto.
    { intros er Er. inversion Er; subst. exact (proj1 (p_tok _ _ _ _ _ _ _ I j er Hf)). }
    { rewrite app_assoc, <- EF. exact (alone _ _ _ _ _ _ _ i I'). }
    rewrite (gdo_ok _ _ _ _ E1). cbn [rbind]. done. unfold PI. prj.
    destruct (inplace _ h' _ _ _ _ _ _ i z e t' (a ++ b) I') as (F2 & I2); auto.
    + now rewrite !upd_length.
    + rewrite EP. apply in_or_app. auto.
    + eapply (tk_append B BL [e] noone e (Some f) x y (or_introl eq_refl)); eauto.
    + eapply b_concat; eauto.
    + exists mine, F2, P'. eapply pinv_same; [exact I2|lens I|..].
      * intros k. rewrite !nth_upd, !upd_length. destruct (Nat.eqb_spec k i), (Nat.eqb_spec k j); auto. congruence.
      * intros k. rewrite !nth_upd, !upd_length. destruct (Nat.eqb_spec k i), (Nat.eqb_spec k j); auto. congruence.
  - destruct (refresh_ok _ _ _ _ _ _ _ j y f b (gs_next st) (S (gs_next st)) I D D' ltac:(lia)) as (mine' & F' & P' & r' & I' & EF & EP & Ej & Hr' & Hy' & _).
    pose proof (gsmall_ok _ _ _ _ _ _ Hy' Hr') as Hsm'. rewrite Eg in Hsm'. destruct (Facts r' Hr' Hsm') as (Ir & Sr & H32).
    pose proof (p_var _ _ _ _ _ _ _ I' i) as V. rewrite nth_upd, (proj2 (Nat.eqb_neq i j) Nij), E, E' in V. destruct V as ((t2 & Ht2 & Hx2) & He2).
    destruct (built_inv B BL HB t2 a Ht2) as [It2 _]. destruct (built_strict B BL HB t2 a Ht2) as [St2 _].
    destruct (append_run B BL mine' HB noone e None (gs_heap st) x y t2 r' (F' i) [] (others (gs_heap st) (F' i)) (p_no _ _ _ _ _ _ _ I')
      (proj1 (p_tok _ _ _ _ _ _ _ I' i e He2))) as (z & h' & t' & E1 & E2 & Hp); auto; try easy.
    { exact (proj1 Hsm'). }
    { exact (alone _ _ _ _ _ _ _ i I'). }
    rewrite (gdo_ok _ (refresh j y st) _ _ E1). cbn [rbind]. done. unfold PI. prj.
    destruct (inplace _ h' _ _ _ _ _ _ i z e t' (a ++ b) I') as (F2 & I2); auto.
    + now rewrite !upd_length.
    + eapply (tk_append B BL [e] noone e None x y (or_introl eq_refl)); eauto.
    + eapply b_concat; eauto.
    + eauto.
Qed.
Lemma prepend_ok st s mv i j : PI st s -> i <> j -> qv_at s i <> XMoved -> qv_at s j <> XMoved -> good st s (QPrepend mv i j).
Proof.
  intros H Nij Hm Hm'. unfold good. cbn [qstep qspec qsees]. var H i x e a E E'; rewrite E, E'; try (done; assumption); try (now destruct Hm);
  var H j y f b D D'; rewrite D, D'; try (done; assumption); try (now destruct Hm').
  rewrite (proj2 (Nat.eqb_neq i j) Nij). pose proof H as (mine & F & P & I). unfold gv_at, qv_at in D, D', E, E'.
  pose proof (p_var _ _ _ _ _ _ _ I i) as V. rewrite E, E' in V. destruct V as ((t & Ht & Hx) & He).
  pose proof (p_var _ _ _ _ _ _ _ I j) as V. rewrite D, D' in V. destruct V as ((r & Hr & Hy) & Hf).
  assert (i < length (gs_vars st))%nat as Li by (apply (nth_some i _ VNone); congruence).
  assert (j < length (gs_vars st))%nat as Lj by (apply (nth_some j _ VNone); congruence).
  pose proof (gsmall_ok _ _ _ _ _ _ Hy Hr) as Hsm. destruct (gsmall B BL y) eqn:Eg.
  2: { eexists _, _. split; [reflexivity|]. split; [|exact H]. exists b. auto. }
  assert (forall r, built r b -> small B BL r -> inv B BL r /\ spn B BL (S (lv r)) (root r) /\ nsize (root r) <= 2 ^ 32) as Facts.
  { intros r0 Hr0 [_ Hs0]. destruct (built_inv B BL HB r0 b Hr0) as [Ir _]. destruct (built_strict B BL HB r0 b Hr0) as [Sr _].
    split; [auto|]. split; [auto|]. destruct Ir as (zs & _ & E0 & _). lia. }
  destruct mv.
  - destruct (Facts r Hr Hsm) as (Ir & Sr & H32).
    destruct (built_inv B BL HB t a Ht) as [It Et]. destruct (built_strict B BL HB t a Ht) as [St _].
    destruct (gleft_ok mine _ x y x r _ Hy Ir) as (x' & El). rewrite (gdo_ok _ _ _ _ El). cbn [rbind].
    assert (set_heap (gs_heap st) st = st) as -> by (destruct st; reflexivity).
    assert (j <> i) as Nji by auto.
    destruct (merge _ _ _ _ _ _ _ j i x' e I Nji Lj Li) as (F' & P' & I' & EF & EP).
    destruct (prepend_run B BL mine HB noone f (Some e) (gs_heap st) x y t r (F i) (F j) (others (gs_heap st) (F' j)) (p_no _ _ _ _ _ _ _ I)
      (proj1 (p_tok _ _ _ _ _ _ _ I j f Hf))) as (z & h' & t' & E1 & E2 & Hp); auto.
    { intros er Er. inversion Er; subst. exact (proj1 (p_tok _ _ _ _ _ _ _ I i er He)). }
    { exact (proj1 Hsm). }
    { intros c. pose proof (alone _ _ _ _ _ _ _ j I' c) as Hc. rewrite EF in *. occs. lia. }
    rewrite (gdo_ok _ _ _ _ E1). cbn [rbind]. done. unfold PI. prj.
    destruct (inplace _ h' _ _ _ _ _ _ j z f t' (a ++ b) I') as (F2 & I2); auto.
    + now rewrite !upd_length.
    + rewrite EP. apply in_or_app. auto.
    + eapply (tk_prepend B BL [f] noone f (Some e) x y (or_introl eq_refl)); eauto.
    + eapply b_concat; eauto.
    + exists mine, F2, P'. eapply pinv_same; [exact I2|lens I|..].
      * intros k. rewrite !nth_upd, !upd_length. destruct (Nat.eqb_spec k i), (Nat.eqb_spec k j); auto. congruence.
      * intros k. rewrite !nth_upd, !upd_length. destruct (Nat.eqb_spec k i), (Nat.eqb_spec k j); auto. congruence.
  - destruct (refresh_ok _ _ _ _ _ _ _ i x e a (gs_next st) (S (gs_next st)) I E E' ltac:(lia)) as (mine' & F' & P' & t2 & I' & EF & EP & Ej & Ht2 & Hx2 & _).
    assert (j <> i) as Nji by auto.
    pose proof (p_var _ _ _ _ _ _ _ I' j) as V. rewrite nth_upd, (proj2 (Nat.eqb_neq j i) Nji), D, D' in V. destruct V as ((r2 & Hr2 & Hy2) & Hf2).
    pose proof (gsmall_ok _ _ _ _ _ _ Hy2 Hr2) as Hsm'. rewrite Eg in Hsm'. destruct (Facts r2 Hr2 Hsm') as (Ir & Sr & H32).
    destruct (built_inv B BL HB t2 a Ht2) as [It2 _]. destruct (built_strict B BL HB t2 a Ht2) as [St2 _].
    destruct (prepend_run B BL mine' HB noone f None (gs_heap st) x y t2 r2 [] (F' j) (others (gs_heap st) (F' j)) (p_no _ _ _ _ _ _ _ I')
      (proj1 (p_tok _ _ _ _ _ _ _ I' j f Hf2))) as (z & h' & t' & E1 & E2 & Hp); auto; try easy.
    { exact (proj1 Hsm'). }
    { exact (alone _ _ _ _ _ _ _ j I'). }
    rewrite (gdo_ok _ (refresh i x st) _ _ E1). cbn [rbind]. done. unfold PI. prj.
    destruct (inplace _ h' _ _ _ _ _ _ j z f t' (a ++ b) I') as (F2 & I2); auto.
    + now rewrite !upd_length.
    + eapply (tk_prepend B BL [f] noone f None x y (or_introl eq_refl)); eauto.
    + eapply b_concat; eauto.
    + eauto.
Qed.

(** A new flex_vector, made by an operation that changes no block. *)
Lemma make_vec st s mine F P z h' (t' : tree T) l' : pinv (gs_heap st) (gs_next st) (gs_vars st) s mine F P ->
  tpost B BL mine (gs_heap st) h' z t' (others (gs_heap st) []) -> toks [] (gs_heap st) h' -> built t' l' ->
  PI (add_var (VVec z) (set_heap h' st)) (s ++ [XVec l']).
Proof.
  intros I Hp Ht Hb. unfold PI. prj.
  destruct (tpost_all B BL mine [] _ h' z t' [] Hp Ht) as (F' & G1 & G2 & G3 & G4 & G5 & G6).
  assert (F' = []) as ->.
  { destruct F' as [|a F']; [auto|]. destruct (G6 a (or_introl eq_refl)) as (k & _ & _ & [[]|[[] _]]). }
  pose proof (place0 _ _ _ _ _ _ _ (length (gs_vars st)) VNone XGone (gs_vars st) s I) as I1.
  assert (pinv (gs_heap st) (gs_next st) (gs_vars st) s mine (upd F (length (gs_vars st)) []) (upd P (length (gs_vars st)) [])) as I2.
  { apply I1; [| |exact (p_len _ _ _ _ _ _ _ I)|exact Logic.I].
    - apply puts_none.
    - rewrite (p_len _ _ _ _ _ _ _ I). apply puts_none. }
  eexists _, _, _. eapply (mutate _ h' _ _ _ _ _ _ (length (gs_vars st)) (VVec z) (XVec l') [] _ _ I2); auto.
  - apply puts_add.
  - rewrite (p_len _ _ _ _ _ _ _ I). apply puts_add.
  - lens I.
  - rewrite upd_is. split; [|auto]. exists t'. split; [auto|auto].
  - easy.
  - easy.
Qed.
Lemma em_here h nx vs s mine F P : pinv h nx vs s mine F P -> em_ok B BL mine gempty h.
Proof. intros I. apply gempty_rep; [exact (p_root _ _ _ _ _ _ _ I)|exact (p_tail _ _ _ _ _ _ _ I)]. Qed.
Lemma take_ok st s i n : PI st s -> qv_at s i <> XMoved -> good st s (QTake i n).
Proof.
  intros H Hm. unfold good. cbn [qstep qspec]. var H i x e l E E'; rewrite E, E'; try (done; assumption); try (now destruct Hm).
  destruct H as (mine & F & P & I). pose proof (p_var _ _ _ _ _ _ _ I i) as V. unfold gv_at, qv_at in E, E'. rewrite E, E' in V.
  destruct V as ((t & Ht & Hx) & He). destruct (built_inv B BL HB t l Ht) as [Hi El].
  destruct (take_mut_run B BL mine nm selfmv gempty HB Hnm e _ _ _ _ (others (gs_heap st) (F i)) n (proj1 (p_tok _ _ _ _ _ _ _ I i e He)) (em_here _ _ _ _ _ _ _ I) Hx Hi (alone _ _ _ _ _ _ _ i I))
    as (z & h' & t' & E1 & E2 & Hp).
  rewrite (gdo_ok _ _ _ _ E1). cbn [rbind]. done. unfold PI. prj.
  destruct (inplace _ h' _ _ _ _ _ _ i z e t' (firstn (N.to_nat n) l) I) as (F' & I'); eauto.
  - apply (nth_some i _ VNone). congruence.
  - eapply (tk_take_mut B BL [e] gempty e x n (or_introl eq_refl)); eauto.
  - eapply b_take; eauto.
Qed.
Lemma small_facts t l : built t l -> small B BL t -> sh B BL (lv t) < 32 /\ nsize (root t) <= 2 ^ 32.
Proof. intros Hb [H1 H2]. split; [auto|]. destruct (built_inv B BL HB t l Hb) as [(zs & _ & E0 & _) _]. lia. Qed.
Lemma drop_ok st s i n : PI st s -> qv_at s i <> XMoved -> good st s (QDrop i n).
Proof.
  intros H Hm. unfold good. cbn [qstep qspec qsees]. var H i x e l E E'; rewrite E, E'; try (done; assumption); try (now destruct Hm).
  pose proof H as (mine & F & P & I). pose proof (p_var _ _ _ _ _ _ _ I i) as V. unfold gv_at, qv_at in E, E'. rewrite E, E' in V.
  destruct V as ((t & Ht & Hx) & He). destruct (built_inv B BL HB t l Ht) as [Hi El].
  pose proof (gsmall_ok _ _ _ _ _ _ Hx Ht) as Hsm. destruct (gsmall B BL x) eqn:Eg.
  2: { eexists _, _. split; [reflexivity|]. split; [|exact H]. exists l. auto. }
  destruct (small_facts t l Ht Hsm) as [Hs1 Hs2].
  destruct (drop_mut_run B BL mine nm selfmv gempty HB Hnm e _ _ _ _ (others (gs_heap st) (F i)) n (proj1 (p_tok _ _ _ _ _ _ _ I i e He)) (em_here _ _ _ _ _ _ _ I) Hx Hi Hs1 Hs2 (alone _ _ _ _ _ _ _ i I))
    as (z & h' & t' & E1 & E2 & Hp).
  rewrite (gdo_ok _ _ _ _ E1). cbn [rbind]. done. unfold PI. prj.
  destruct (inplace _ h' _ _ _ _ _ _ i z e t' (skipn (N.to_nat n) l) I) as (F' & I'); eauto.
  - apply (nth_some i _ VNone). congruence.
  - eapply (tk_drop_mut B BL [e] nm selfmv gempty e x n (or_introl eq_refl)); eauto.
  - eapply b_drop; eauto.
Qed.
Lemma taken_ok st s i n : PI st s -> good st s (QTaken i n).
Proof.
  intros H. unfold good. cbn [qstep qspec]. var H i x e l E E'; rewrite E, E'; try (done; now apply add_none).
  destruct H as (mine & F & P & I). pose proof (p_var _ _ _ _ _ _ _ I i) as V. unfold gv_at, qv_at in E, E'. rewrite E, E' in V.
  destruct V as ((t & Ht & Hx) & _ & _). destruct (built_inv B BL HB t l Ht) as [Hi El].
  destruct (take_run B BL mine nm selfmv gempty HB Hnm _ _ _ _ (others (gs_heap st) []) n (em_here _ _ _ _ _ _ _ I) Hx Hi) as (z & h' & t' & E1 & E2 & Hp).
  { apply others_sep; [constructor|easy]. }
  rewrite (gdo_ok _ _ _ _ E1). cbn [rbind]. done.
  eapply make_vec; [exact I|exact Hp|exact (tk_take B BL [] gempty x n _ _ _ E1)|]. eapply b_take; eauto.
Qed.
Lemma dropped_ok st s i n : PI st s -> good st s (QDropped i n).
Proof.
  intros H. unfold good. cbn [qstep qspec qsees]. var H i x e l E E'; rewrite E, E'; try (done; now apply add_none).
  pose proof H as (mine & F & P & I). pose proof (p_var _ _ _ _ _ _ _ I i) as V. unfold gv_at, qv_at in E, E'. rewrite E, E' in V.
  destruct V as ((t & Ht & Hx) & _ & _). destruct (built_inv B BL HB t l Ht) as [Hi El].
  pose proof (gsmall_ok _ _ _ _ _ _ Hx Ht) as Hsm. destruct (gsmall B BL x) eqn:Eg.
  2: { eexists _, _. split; [reflexivity|]. split; [exists l; auto|].
       destruct (add_vec _ _ _ _ _ _ _ x t l I Ht Hx) as (F2 & P2 & I2). exists mine, F2, P2. exact I2. }
  destruct (small_facts t l Ht Hsm) as [Hs1 Hs2].
  destruct (drop_run B BL mine nm selfmv gempty HB Hnm _ _ _ _ (others (gs_heap st) []) n (em_here _ _ _ _ _ _ _ I) Hx Hi Hs1 Hs2) as (z & h' & t' & E1 & E2 & Hp).
  { apply others_sep; [constructor|easy]. }
  rewrite (gdo_ok _ _ _ _ E1). cbn [rbind]. done.
  eapply make_vec; [exact I|exact Hp|exact (tk_drop B BL [] nm selfmv gempty x n _ _ _ E1)|]. eapply b_drop; eauto.
Qed.

(** ** Tidy programs *)
Definition kq (k : qk) (q : qv T) : Prop :=
  match k, q with
  | KGone, XGone | KVec, XVec _ | KTra, XTra _ | KMoved, XTra _ | KMoved, XMoved => True
  | _, _ => False
  end.
Definition krel (ks : list qk) (s : list (qv T)) : Prop := Forall2 kq ks s.
Lemma krel_at ks s i : krel ks s -> kq (qk_at ks i) (qv_at s i).
Proof. intros H. revert i. unfold qk_at, qv_at. induction H; intros [|i]; cbn; auto. Qed.
Lemma krel_add ks s k q : krel ks s -> kq k q -> krel (ks ++ [k]) (s ++ [q]).
Proof. intros H H1. apply Forall2_app; [auto|]. constructor; [auto|constructor]. Qed.
Lemma krel_upd ks s i k q : krel ks s -> kq k q -> krel (update_at i k ks) (update_at i q s).
Proof. intros H H1. revert i. induction H; intros [|i]; cbn; constructor; auto. apply IHForall2. Qed.
Lemma krel_keep ks s i q : krel ks s -> kq (qk_at ks i) q -> krel ks (update_at i q s).
Proof. intros H H1. rewrite <- (upd_self i ks KGone). now apply krel_upd. Qed.
Lemma tidy_at ks s i : krel ks s -> negb (moved (qk_at ks i)) = true ->
  qv_at s i <> XMoved /\
  ((qk_at ks i = KGone /\ qv_at s i = XGone) \/ (exists l, qk_at ks i = KVec /\ qv_at s i = XVec l) \/ (exists l, qk_at ks i = KTra /\ qv_at s i = XTra l)).
Proof.
  intros H Hm. pose proof (krel_at ks s i H) as Hk. destruct (qk_at ks i), (qv_at s i); cbn in *; try easy; (split; [easy|]); eauto.
Qed.
Ltac tidy_var H Hm i := destruct (tidy_at _ _ i H Hm) as (_ & [[Ek Eq]|[(l & Ek & Eq)|(l & Ek & Eq)]]); rewrite ?Ek, ?Eq.
Lemma krel_step ks s o x : krel ks s -> tidy1 ks o = true -> krel (classes ks o) (qspec s o x).
Proof.
  intros H. destruct o as [|i|i|i|i|i|i j|i j|i v|i v|i k fn|mv i j|mv i j|i n|i n|i n|i n]; cbn [classes qspec tidy1]; intros Hm.
  - now apply krel_add.
  - tidy_var H Hm i; now apply krel_add.
  - tidy_var H Hm i; now apply krel_add.
  - tidy_var H Hm i; apply krel_add; try easy; now apply krel_upd.
  - tidy_var H Hm i; now apply krel_add.
  - tidy_var H Hm i; apply krel_add; try easy; try (now apply krel_upd). apply krel_keep; [auto|]. now rewrite Ek.
  - tidy_var H Hm j; pose proof (krel_at ks s i H) as Hi; destruct (qk_at ks i) eqn:Ei, (qv_at s i); cbn in Hi; try easy;
      try (now apply krel_upd); apply krel_keep; auto; now rewrite Ei.
  - destruct (Nat.eqb i j); [exact H|].
    tidy_var H Hm j; pose proof (krel_at ks s i H) as Hi; destruct (qk_at ks i) eqn:Ei, (qv_at s i); cbn in Hi; try easy;
      try (apply krel_upd; [|easy]; now apply krel_upd).
    assert (krel ks (update_at j (XVec l0) s)) as H1 by (apply krel_keep; [auto|]; now rewrite Ek).
    apply krel_keep; auto. now rewrite Ei.
  - tidy_var H Hm i; now apply krel_add.
  - tidy_var H Hm i; auto. apply krel_keep; auto. now rewrite Ek.
  - tidy_var H Hm i; auto. apply krel_keep; auto. now rewrite Ek.
  - apply andb_prop in Hm as [Hm _]. apply andb_prop in Hm as [Hm Hm']. tidy_var H Hm i; auto.
    destruct (tidy_at _ _ j H Hm') as (_ & [[Fk Fq]|[(l' & Fk & Fq)|(l' & Fk & Fq)]]); rewrite ?Fk, ?Fq; auto.
    destruct x; cbn zeta.
    + assert (krel ks (update_at i (XTra (l ++ l')) s)) as H1 by (apply krel_keep; [auto|]; now rewrite Ek).
      destruct mv; [now apply krel_upd|auto].
    + destruct mv; [|auto]. rewrite <- (upd_self j s XGone). apply krel_upd; [auto|]. change (nth j s XGone) with (qv_at s j). now rewrite Fq.
  - apply andb_prop in Hm as [Hm _]. apply andb_prop in Hm as [Hm Hm']. tidy_var H Hm i; auto.
    destruct (tidy_at _ _ j H Hm') as (_ & [[Fk Fq]|[(l' & Fk & Fq)|(l' & Fk & Fq)]]); rewrite ?Fk, ?Fq; auto.
    destruct x; cbn zeta.
    + assert (krel ks (update_at j (XTra (l ++ l')) s)) as H1 by (apply krel_keep; [auto|]; now rewrite Fk).
      destruct mv; [now apply krel_upd|auto].
    + destruct mv; [|auto]. rewrite <- (upd_self i s XGone). apply krel_upd; [auto|]. change (nth i s XGone) with (qv_at s i). now rewrite Eq.
  - tidy_var H Hm i; auto. apply krel_keep; auto. now rewrite Ek.
  - tidy_var H Hm i; auto. destruct x; [|auto]. apply krel_keep; auto. now rewrite Ek.
  - tidy_var H Hm i; now apply krel_add.
  - tidy_var H Hm i; apply krel_add; auto; now destruct x.
Qed.

Lemma step_ok ks st s o : PI st s -> krel ks s -> tidy1 ks o = true -> good st s o.
Proof.
  intros H Hk. destruct o as [|i|i|i|i|i|i j|i j|i v|i v|i k fn|mv i j|mv i j|i n|i n|i n|i n]; cbn [tidy1]; intros Hm;
    try (pose proof (proj1 (tidy_at _ _ _ Hk Hm)) as Hn).
  - now apply new_ok.
  - now apply transient_ok.
  - now apply persistent_ok.
  - now apply finish_ok.
  - now apply copy_ok.
  - now apply move_ok.
  - now apply assign_ok.
  - now apply move_assign_ok.
  - now apply pushed_ok.
  - now apply push_ok.
  - now apply update_ok.
  - apply andb_prop in Hm as [Hm He]. apply andb_prop in Hm as [Hm Hm'].
    apply append_ok; auto; [now apply Nat.eqb_neq, negb_true_iff| |]; eapply tidy_at; eauto.
  - apply andb_prop in Hm as [Hm He]. apply andb_prop in Hm as [Hm Hm'].
    apply prepend_ok; auto; [now apply Nat.eqb_neq, negb_true_iff| |]; eapply tidy_at; eauto.
  - now apply take_ok.
  - now apply drop_ok.
  - now apply taken_ok.
  - now apply dropped_ok.
Qed.
Lemma run_ok os : forall ks st s, PI st s -> krel ks s -> tidy ks os = true ->
  exists st' xs s', qrun B BL nm selfmv st os = Ok (st', xs) /\ qspecs B BL s os xs s' /\ PI st' s' /\ krel (fold_left classes os ks) s'.
Proof.
  induction os as [|o os IH]; intros ks st s H Hk Ht; cbn [qrun qspecs fold_left].
  - exists st, [], s. auto.
  - cbn [tidy] in Ht. apply andb_prop in Ht as [Ht Hts]. destruct (step_ok ks st s o H Hk Ht) as (st1 & x & E & Hx & H1).
    rewrite E. cbn [rbind]. destruct (IH _ _ _ H1 (krel_step ks s o x Hk Ht) Hts) as (st' & xs & s' & E' & Hs & H').
    rewrite E'. cbn [rbind]. exists st', (x :: xs), s'. auto.
Qed.
End Proofs.
